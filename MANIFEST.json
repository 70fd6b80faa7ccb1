{
 "claims": [
  {
   "property": "C01",
   "status": "proved",
   "theorems": [
    "C01_region_history",
    "C01_count_streak"
   ],
   "note": "All dimensions; boxes with positive extents (last extent may be 0). Degenerate boxes: see C10."
  },
  {
   "property": "C02",
   "status": "proved",
   "theorems": [
    "C02_region_equality",
    "C02_streaks_maximal"
   ],
   "note": "All Regions reachable through constructors, mutations and set operations."
  },
  {
   "property": "C03",
   "status": "proved",
   "theorems": [
    "C03_set_algebra"
   ],
   "note": "operator+, -, & and the assigning variants; the arguments are values and hence unchanged."
  },
  {
   "property": "C05",
   "status": "proved",
   "theorems": [
    "C05_iteration",
    "C05_random_access"
   ],
   "note": "begin/end, beginStreak/endStreak and operator[](size_t)."
  },
  {
   "property": "C04",
   "status": "proved",
   "theorems": [
    "C04_geometry",
    "C04_object_contents"
   ],
   "note": "Whole Region objects including the taint flag; any interleaving of mutations, set operations, expansion, clear and queries."
  },
  {
   "property": "C06",
   "status": "proved",
   "theorems": [
    "C06_expand_radii",
    "C06_expand"
   ],
   "note": "All dimensions, all non-negative radii."
  },
  {
   "property": "C07",
   "status": "proved",
   "theorems": [
    "C07_expand_topology",
    "C07_wide_expansion_refuted"
   ],
   "note": "Widths up to the smallest extent; the refuted theorem shows that this limit is needed."
  },
  {
   "property": "C08",
   "status": "proved",
   "theorems": [
    "C08_on_or_after"
   ],
   "note": "Dimensions 1 and 2 (the 3D case is C54)."
  },
  {
   "property": "C09",
   "status": "proved",
   "theorems": [
    "C09_index_bijection",
    "C09_index_injective"
   ],
   "note": "All dimensions."
  },
  {
   "property": "C10",
   "status": "proved",
   "theorems": [
    "C10_box_iteration",
    "C10_box_streak_iteration"
   ],
   "note": "Positive extents, last extent may be zero (other degenerate boxes are C53)."
  },
  {
   "property": "C11",
   "status": "proved",
   "theorems": [
    "C11_normalize",
    "C11_two_periods_refuted"
   ],
   "note": "Coordinates at most one period away; the refuted theorem shows that the limit is needed."
  },
  {
   "property": "C53",
   "status": "partial",
   "theorems": [
    "C53_degenerate_box_refuted"
   ],
   "note": "Refuted: iterating such a box does not terminate."
  },
  {
   "property": "C54",
   "status": "partial",
   "theorems": [
    "C54_on_or_after_3d_refuted"
   ],
   "note": "Refuted: in 3D the search may return an iterator which points to a streak that is not in the Region."
  },
  {
   "property": "C55",
   "status": "proved",
   "theorems": [
    "C55_expand_adjacency"
   ],
   "note": "Arbitrary adjacency function."
  },
  {
   "property": "C12",
   "status": "proved",
   "theorems": [
    "C12_striping",
    "C12_unstructured_striping"
   ],
   "note": "1D, 2D and 3D; also the order of the stripes."
  },
  {
   "property": "C16",
   "status": "proved",
   "theorems": [
    "C16_checkerboarding"
   ],
   "note": "2D: all; 3D: n < (ny+1)^2 nodes; see C56 for the rest."
  },
  {
   "property": "C17",
   "status": "proved",
   "theorems": [
    "C17_bisection_boxes",
    "C17_bisection_regions",
    "C17_bisection"
   ],
   "note": "Positive weights; any sane rounding. See C57 and C58 for the rest."
  },
  {
   "property": "C56",
   "status": "partial",
   "theorems": [
    "C56_checkerboarding_3d_refuted"
   ],
   "note": "Refuted: inserting a box with zero y-extent does not end."
  },
  {
   "property": "C57",
   "status": "partial",
   "theorems": [
    "C57_bisection_zero_weight_refuted"
   ],
   "note": "Refuted: unbounded recursion."
  },
  {
   "property": "C58",
   "status": "partial",
   "theorems": [
    "C58_bisection_3d_refuted"
   ],
   "note": "Refuted: inserting a box with zero y-extent does not end."
  },
  {
   "property": "C13",
   "status": "proved",
   "theorems": [
    "C13_zcurve_traversal",
    "C13_zcurve"
   ],
   "note": "Any dimension, any extents."
  },
  {
   "property": "C14",
   "status": "proved",
   "theorems": [
    "C14_hilbert_traversal",
    "C14_hilbert"
   ],
   "note": "The static caches are shown to be right as well."
  },
  {
   "property": "C15",
   "status": "proved",
   "theorems": [
    "C15_hindexing",
    "C15_hindexing_traversal"
   ],
   "note": "Aspect ratio at most 4 for the regions; see C59 for the rest."
  },
  {
   "property": "C59",
   "status": "partial",
   "theorems": [
    "C59_hindexing_stretched_refuted"
   ],
   "note": "Refuted: digDownTrivial ignores the remainder for the cursor."
  },
  {
   "property": "C18",
   "status": "proved",
   "theorems": [
    "C18_ghost_zones_match"
   ],
   "note": "Regular grids and graphs in one theorem; region cache left out."
  },
  {
   "property": "C19",
   "status": "proved",
   "theorems": [
    "C19_halo_supplied"
   ],
   "note": "Out-group exchange shown to be empty."
  },
  {
   "property": "C20",
   "status": "proved",
   "theorems": [
    "C20_rims_and_inner_sets"
   ],
   "note": "Also for directed graphs, where innerSet(0) may leave the own region."
  },
  {
   "property": "C60",
   "status": "partial",
   "theorems": [
    "C60_partial_adjacency_refuted"
   ],
   "note": "Refuted: the surface is expanded by w steps with the adjacency of its own nodes only."
  },
  {
   "property": "C61",
   "status": "partial",
   "theorems": [
    "C61_area_origin_refuted"
   ],
   "note": "Refuted: expandWithTopology clips to 0..dimensions."
  },
  {
   "property": "C25",
   "status": "proved",
   "theorems": [
    "C25_patch_buffer_queue",
    "C25_patch_buffer"
   ],
   "note": "Refinement of a queue; requests in time, see C62."
  },
  {
   "property": "C26",
   "status": "proved",
   "theorems": [
    "C26_patch_buffer_fixed"
   ],
   "note": "Refinement of a bounded queue."
  },
  {
   "property": "C27",
   "status": "proved",
   "theorems": [
    "C27_patch_link",
    "C27_no_exception"
   ],
   "note": "Every interleaving of sends, deliveries and receives; MPI may or may not copy messages."
  },
  {
   "property": "C62",
   "status": "partial",
   "theorems": [
    "C62_late_request_refuted"
   ],
   "note": "Refuted: steps are kept in a sorted set, patches in a queue."
  },
  {
   "property": "C21",
   "status": "proved",
   "theorems": [
    "C21_parallel_equals_serial",
    "C21_regular_grid",
    "C21_final_grid"
   ],
   "note": "All nodes with VanillaStepper, PatchLinks, PartitionManager; invariant over all interleavings. Steerers change each cell on its own, depending on step, event and coordinate; they do not end the simulation."
  },
  {
   "property": "C22",
   "status": "proved",
   "theorems": [
    "C22_no_deadlock",
    "C22_schedule_independent"
   ],
   "note": "Progress by induction on rounds, termination by a measure, results from the invariant."
  },
  {
   "property": "C63",
   "status": "partial",
   "theorems": [
    "C63_directed_graph_refuted"
   ],
   "note": "Refuted: updateGhost overwrites copies of foreign cells that are not restored; width 3."
  },
  {
   "property": "C64",
   "status": "partial",
   "theorems": [
    "C64_grid_between_syncs_refuted"
   ],
   "note": "Refuted: the rim of the node's own region is stale between synchronisation points; width 3."
  },
  {
   "property": "C28",
   "status": "proved",
   "theorems": [
    "C28_writer_calls"
   ],
   "note": "For any gapless sequence of notifications; the calls are given by io_schedule (see schedule_complete)."
  },
  {
   "property": "C29",
   "status": "proved",
   "theorems": [
    "C29_steerer_calls"
   ],
   "note": "As C28; notifications may repeat a step, as the stepper does for the first one."
  },
  {
   "property": "C30",
   "status": "proved",
   "theorems": [
    "C30_serial_events",
    "C30_serial_ended"
   ],
   "note": ""
  },
  {
   "property": "C31",
   "status": "proved",
   "theorems": [
    "C31_events"
   ],
   "note": ""
  },
  {
   "property": "C65",
   "status": "partial",
   "theorems": [
    "C65_writer_end_refuted"
   ],
   "note": "Refuted; holds for startStep < maxSteps without early end (C30)."
  },
  {
   "property": "C66",
   "status": "partial",
   "theorems": [
    "C66_steerer_calls_differ_refuted"
   ],
   "note": "Refuted for first steps which are multiples of the period."
  },
  {
   "property": "C67",
   "status": "partial",
   "theorems": [
    "C67_step_after_end_refuted"
   ],
   "note": "Refuted: undefined behaviour after the end; C31 covers all steps up to it."
  },
  {
   "property": "C23",
   "status": "proved",
   "theorems": [
    "C23_writers_see_all"
   ],
   "note": "One writer, two adapters per node as in HiParSimulator::addWriter, fed by the stepper model; holds for every complete run of the distributed model (any order of events)."
  },
  {
   "property": "C32",
   "status": "proved",
   "theorems": [
    "C32_initial_weights"
   ],
   "note": "Exact rational arithmetic; also shows that each share is within one item of the ideal one."
  },
  {
   "property": "C33",
   "status": "proved",
   "theorems": [
    "C33_ooze_preserves_sum",
    "C33_optimal_is_even"
   ],
   "note": "Exact rational arithmetic; for doubles see C226. The second theorem says what the balancer aims at: equal load on all nodes."
  },
  {
   "property": "C34",
   "status": "proved",
   "theorems": [
    "C34_bias",
    "C34_bias_ooze",
    "C34_random"
   ],
   "note": "Exact rational arithmetic; the random numbers are arbitrary parameters."
  },
  {
   "property": "C24",
   "status": "proved",
   "theorems": [
    "C24_balancing_transparent",
    "C24_no_deadlock",
    "C24_final_grid",
    "C24_regular_grid"
   ],
   "note": "All nodes, their messages and collective load balancing; any order of nano steps, any valid results of the LoadBalancer, MPI with or without buffering. Steerers which treat cells one by one are included. Balancing is a single collective event."
  },
  {
   "property": "C68",
   "status": "partial",
   "theorems": [
    "C68_writer_region_after_balancing_refuted"
   ],
   "note": "False: setRegion() is not called after redistributeGrid(). Witness: 6 rows, 3 nodes."
  },
  {
   "property": "C69",
   "status": "partial",
   "theorems": [
    "C69_run_after_step_refuted"
   ],
   "note": "False: pending ghost zone messages of the earlier step are loaded into the new grid. Witness: 4 rows, 2 nodes, one step."
  },
  {
   "property": "C35",
   "status": "proved",
   "theorems": [
    "C35_grid_reads_back"
   ],
   "note": ""
  },
  {
   "property": "C36",
   "status": "proved",
   "theorems": [
    "C36_displaced_reads_back",
    "C36_places_distinct"
   ],
   "note": "Streaks outside of the box see C70."
  },
  {
   "property": "C37",
   "status": "proved",
   "theorems": [
    "C37_region_transfer",
    "C37_grid_transfer"
   ],
   "note": "Buffers are vectors of cells; the SoA and Boost Serialization buffers are not modelled."
  },
  {
   "property": "C38",
   "status": "proved",
   "theorems": [
    "C38_grid_equality",
    "C38_view_equality"
   ],
   "note": "Grids of different shapes see C71."
  },
  {
   "property": "C70",
   "status": "partial",
   "theorems": [
    "C70_streak_wrap_refuted"
   ],
   "note": "False: Streak access doesn't normalize coordinates."
  },
  {
   "property": "C71",
   "status": "partial",
   "theorems": [
    "C71_grid_shape_refuted"
   ],
   "note": "False: the comparison ignores the dimensions, and for empty grids also the edge cell."
  },
  {
   "property": "C72",
   "status": "proved",
   "theorems": [
    "C72_grid_copy"
   ],
   "note": ""
  },
  {
   "property": "C39",
   "status": "proved",
   "theorems": [
    "C39_sell_rows",
    "C39_get_row",
    "C39_get_row_unsorted"
   ],
   "note": "See C73 and C74 for what fails for SIGMA > 1."
  },
  {
   "property": "C40",
   "status": "proved",
   "theorems": [
    "C40_reordering_transparent"
   ],
   "note": "The edge cell isn't kept, see C75."
  },
  {
   "property": "C73",
   "status": "partial",
   "theorems": [
    "C73_get_row_sigma_refuted"
   ],
   "note": "False: getRow addresses rows by position after sorting."
  },
  {
   "property": "C74",
   "status": "partial",
   "theorems": [
    "C74_reinit_refuted"
   ],
   "note": "False for SIGMA > 1: the old row order is used to place entries."
  },
  {
   "property": "C75",
   "status": "partial",
   "theorems": [
    "C75_edge_lost_refuted"
   ],
   "note": "False: the new delegate gets a default constructed edge cell."
  },
  {
   "property": "C76",
   "status": "partial",
   "theorems": [
    "C76_matrices_lost_refuted"
   ],
   "note": "False: the new delegate starts with empty matrices."
  },
  {
   "property": "C77",
   "status": "proved",
   "theorems": [
    "C77_neighborhood"
   ],
   "note": ""
  },
  {
   "property": "C78",
   "status": "proved",
   "theorems": [
    "C78_remap",
    "C78_expand_chunks"
   ],
   "note": ""
  },
  {
   "property": "C41",
   "status": "proved",
   "theorems": [
    "C41_container_cell",
    "C41_full_container"
   ],
   "note": "Any history of insert/remove/clear on a new container equals the history of a bounded map, results included; keys are integers, cells are passed by value (see C80)."
  },
  {
   "property": "C42",
   "status": "proved",
   "theorems": [
    "C42_fixed_array",
    "C42_make",
    "C42_plus",
    "C42_equality"
   ],
   "note": "Any history on a bounded list; growing via resize exposes arbitrary elements and is excluded, as are indices out of range and self-concatenation (C79)."
  },
  {
   "property": "C79",
   "status": "partial",
   "theorems": [
    "C79_self_concat_refuted",
    "C79_self_concat_throws"
   ],
   "note": "False: the loop's bound grows with the array, so a += a always throws unless a is empty. What holds for different operands is C42."
  },
  {
   "property": "C80",
   "status": "partial",
   "theorems": [
    "C80_insert_own_cell_refuted"
   ],
   "note": "False: cells are moved before the reference is read. What holds for cells passed by value is C41."
  },
  {
   "property": "C43",
   "status": "proved",
   "theorems": [
    "C43_adjacency",
    "C43_make_adjacency"
   ],
   "note": "Any history of insert() calls, any split threshold; node IDs up to Limits<int>::getMax(), targets below it. Uses the model of Region with its iterators and geometry cache; integers don't overflow."
  },
  {
   "property": "C45",
   "status": "proved",
   "theorems": [
    "C45_volume",
    "C45_tables",
    "C45_offsets"
   ],
   "note": "The tables are checked completely (they are finite); VOLUME for every dimension and radius, OffsetHelper for every radius within the stated dimensions."
  },
  {
   "property": "C81",
   "status": "partial",
   "theorems": [
    "C81_von_neumann_table_refuted"
   ],
   "note": "Refuted: index 8 is missing in the table of VonNeumann<2, 2>."
  },
  {
   "property": "C82",
   "status": "partial",
   "theorems": [
    "C82_von_neumann_offset_refuted"
   ],
   "note": "Refuted for VonNeumann<3, 2>; the valid range is part of C45."
  },
  {
   "property": "C44",
   "status": "proved",
   "theorems": [
    "C44_neighborhoods",
    "C44_grid_neighborhoods",
    "C44_paths_agree"
   ],
   "note": "updateLineX taken to update one cell after the other; overload resolution of LinePointerNeighborhood encoded by hand; 1 to 3 dimensions, radius 1"
  },
  {
   "property": "C52",
   "status": "proved",
   "theorems": [
    "C52_updates",
    "C52_tranches"
   ],
   "note": "cells' update() is a pure function of the neighborhood's cells and the target's content; threads as any sequential order of streaks or tranches; only paths for cell-wise grids"
  },
  {
   "property": "C83",
   "status": "partial",
   "theorems": [
    "C83_source_offset_refuted"
   ],
   "note": "refuted: line pointers are assembled for the undisplaced streak"
  },
  {
   "property": "C84",
   "status": "partial",
   "theorems": [
    "C84_tranches_refuted"
   ],
   "note": "refuted: operator% of a negative x is not positive, the first tranche then exceeds the streak"
  },
  {
   "property": "C46",
   "status": "proved",
   "theorems": [
    "C46_domain",
    "C46_grid_points"
   ],
   "note": "exact rational arithmetic in place of doubles; unbounded ints"
  },
  {
   "property": "C47",
   "status": "proved",
   "theorems": [
    "C47_returns_best",
    "C47_terminates",
    "C47_step_widths",
    "C47_stops_at_minimum"
   ],
   "note": "deterministic evaluation, exact rational arithmetic"
  },
  {
   "property": "C85",
   "status": "partial",
   "theorems": [
    "C85_discrete_set_refuted"
   ],
   "note": "refuted: DiscreteSet::setValue ignores its argument"
  },
  {
   "property": "C86",
   "status": "partial",
   "theorems": [
    "C86_granularity_refuted"
   ],
   "note": "refuted for granularity 0 and for granularities larger than the interval; the valid range is C46"
  },
  {
   "property": "C87",
   "status": "partial",
   "theorems": [
    "C87_double_grid_points_refuted"
   ],
   "note": "refuted with IEEE doubles (Coq.Floats.SpecFloat); exact arithmetic is C46"
  },
  {
   "property": "C88",
   "status": "partial",
   "theorems": [
    "C88_double_domain_refuted"
   ],
   "note": "refuted with IEEE doubles (Coq.Floats.SpecFloat); exact arithmetic is C46"
  },
  {
   "property": "C89",
   "status": "partial",
   "theorems": [
    "C89_stops_early_refuted"
   ],
   "note": "refuted: shortened moves at the border"
  },
  {
   "property": "C48",
   "status": "proved",
   "theorems": [
    "C48_tokenize",
    "C48_join"
   ],
   "note": "strings as lists of characters, std::set as ascending list"
  },
  {
   "property": "C49",
   "status": "proved",
   "theorems": [
    "C49_max_steps"
   ],
   "note": "unsigned as integers modulo 2^32; only the step counters are modelled"
  },
  {
   "property": "C90",
   "status": "partial",
   "theorems": [
    "C90_new_proxy_refuted"
   ],
   "note": "refuted: the constructor does not subtract the start step; the valid range is C49"
  },
  {
   "property": "C50",
   "status": "proved",
   "theorems": [
    "C50_no_loss",
    "C50_simulation",
    "C50_tiles"
   ],
   "note": "exact rational positions; particles which insert others during update() not covered; neighborhoods as maps to places (C35, C36, C44)"
  },
  {
   "property": "C91",
   "status": "partial",
   "theorems": [
    "C91_small_torus_refuted"
   ],
   "note": "refuted for a torus of two cells; the valid range is C50"
  },
  {
   "property": "C92",
   "status": "partial",
   "theorems": [
    "C92_double_gaps_refuted"
   ],
   "note": "refuted with IEEE doubles (Coq.Floats.SpecFloat); exact arithmetic is C50"
  },
  {
   "property": "C51",
   "status": "proved",
   "theorems": [
    "C51_delivers",
    "C51_no_deadlock"
   ],
   "note": "Any number of nodes, any interleaving, any channel capacity of at least one message. The region and the cells of one node form one message; waiting for MPI requests is part of the step."
  },
  {
   "property": "C93",
   "status": "partial",
   "theorems": [
    "C93_steered_grid_refuted"
   ],
   "note": "refuted; what does hold is in C21"
  },
  {
   "property": "C94",
   "status": "proved",
   "theorems": [
    "C94_update",
    "C94_vectorised_update"
   ],
   "note": "Both functors, for matrices set once via initFromMatrix (see C74 for a second initialization) and matrix ID 0. The cell's computation is left open: an update is described by the cell written and the entries presented. The condition on runs within a chunk is necessary, see C95."
  },
  {
   "property": "C95",
   "status": "partial",
   "theorems": [
    "C95_short_streak_refuted"
   ],
   "note": "False: a streak which lies within one chunk and doesn't start at its beginning is extended to the end of the chunk."
  },
  {
   "property": "C96",
   "status": "partial",
   "theorems": [
    "C96_hood_add_refuted"
   ],
   "note": "False: operator+= changes the index, but neither the current chunk nor the offset therein."
  },
  {
   "property": "C97",
   "status": "proved",
   "theorems": [
    "C97_restart",
    "C97_file_layout"
   ],
   "note": "MPI-IO is modelled after the MPI standard: the default view packs data densely, writes of different processes take place in any order, each as a whole (overlapping writes carry the same bytes). Regions within the dimensions (C98) and datatypes without gaps (C99)."
  },
  {
   "property": "C98",
   "status": "partial",
   "theorems": [
    "C98_wrapped_streak_refuted"
   ],
   "note": "False: the origin of a streak is normalised, but the streak is read as a whole, so cells of the next row are returned. The range within the dimensions is C97."
  },
  {
   "property": "C99",
   "status": "partial",
   "theorems": [
    "C99_gaps_refuted"
   ],
   "note": "False: offsets are computed from the extent, but MPI-IO stores only the size. Datatypes without gaps are C97."
  },
  {
   "property": "C100",
   "status": "proved",
   "theorems": [
    "C100_parallel_bov",
    "C100_serial_bov",
    "C100_same_file"
   ],
   "note": "Data files only, not the text of the .bov headers. Scalars for BOVWriter (C101), any arity for SerialBOVWriter."
  },
  {
   "property": "C101",
   "status": "partial",
   "theorems": [
    "C101_array_members_refuted"
   ],
   "note": "False: MPI_File_write is given the number of cells, but the datatype of a component."
  },
  {
   "property": "C102",
   "status": "proved",
   "theorems": [
    "C102_search"
   ],
   "note": "Exact rationals; doubles are C103."
  },
  {
   "property": "C103",
   "status": "partial",
   "theorems": [
    "C103_doubles_refuted"
   ],
   "note": "False: as the reciprocal of the box size is rounded, vertices closer than the box size may be two cells apart. Exact arithmetic is C102."
  },
  {
   "property": "C104",
   "status": "proved",
   "theorems": [
    "C104_optimum_box_size"
   ],
   "note": "Exact rationals, ints unbounded."
  },
  {
   "property": "C105",
   "status": "partial",
   "theorems": [
    "C105_no_edges_refuted"
   ],
   "note": "False: without edges (or if all neighbors coincide) the box size is halved until resetBoxSize throws. What holds in general is C104."
  },
  {
   "property": "C106",
   "status": "partial",
   "theorems": [
    "C106_missed_refuted"
   ],
   "note": "False: vertices in the overhang at the far boundary may make both candidates invalid, although the initial box size was valid. What holds in general is C104."
  },
  {
   "property": "C107",
   "status": "proved",
   "theorems": [
    "C107_soa_reads_back",
    "C107_writes_later",
    "C107_resize",
    "C107_sizes"
   ],
   "note": "Without TOPOLOGICALLY_CORRECT coordinates have to lie inside of the box along axes which wrap. Memory is modelled per cell, not per member. ints unbounded."
  },
  {
   "property": "C108",
   "status": "proved",
   "theorems": [
    "C108_region_transfer",
    "C108_short_buffer",
    "C108_implementation"
   ],
   "note": "Regions inside of the box (C110 for other periods). Members are abstract values, the size of a buffer is counted in members."
  },
  {
   "property": "C109",
   "status": "proved",
   "theorems": [
    "C109_soa_updates"
   ],
   "note": "updateLineX updates one cell after the other and takes its parameters by reference (C115). Asymmetric callbacks aren't modelled."
  },
  {
   "property": "C110",
   "status": "partial",
   "theorems": [
    "C110_period_refuted"
   ],
   "note": "False: the coordinates aren't normalized. Regions inside of the box are C108."
  },
  {
   "property": "C111",
   "status": "partial",
   "theorems": [
    "C111_wide_stencil_refuted"
   ],
   "note": "False: only the outermost cells are corrected. Radius 1 (any radius on a cube) is C109."
  },
  {
   "property": "C112",
   "status": "partial",
   "theorems": [
    "C112_mixed_refuted"
   ],
   "note": "False: the padding is taken for part of the space. Uniform topologies, and mixed ones for whole spaces, are C109."
  },
  {
   "property": "C113",
   "status": "partial",
   "theorems": [
    "C113_offset_refuted"
   ],
   "note": "False: the target's origin is normalized with padding if the source lies in the space. Equal displacement is C109."
  },
  {
   "property": "C114",
   "status": "partial",
   "theorems": [
    "C114_flat_layers_refuted"
   ],
   "note": "False: with one row per layer the constructor throws. What does work is C107."
  },
  {
   "property": "C115",
   "status": "partial",
   "theorems": [
    "C115_by_value_refuted"
   ],
   "note": "False on a torus: the accessor for the new grid doesn't advance between calls. By reference is C109."
  },
  {
   "property": "C116",
   "status": "partial",
   "theorems": [
    "C116_padding_refuted"
   ],
   "note": "False: the padding is ignored. 1D tori are C108."
  },
  {
   "property": "C117",
   "status": "proved",
   "theorems": [
    "C117_cells",
    "C117_updates",
    "C117_results",
    "C117_exceptions"
   ],
   "note": "Invariant over a labelled transition system with all localities, components, messages and the semaphore; refinement of synchronous rounds. HPX itself (futures, actions, receive_buffer, sliding_semaphore) is assumed. Late continuations are C122."
  },
  {
   "property": "C118",
   "status": "proved",
   "theorems": [
    "C118_progress",
    "C118_terminates",
    "C118_completes"
   ],
   "note": "Progress and a measure which decreases with each event."
  },
  {
   "property": "C119",
   "status": "partial",
   "theorems": [
    "C119_asymmetric_hangs",
    "C119_asymmetric_refuted"
   ],
   "note": "False: a cell waits for its neighbor's receiver, which only exists if the neighbor lists the cell, too. Proved for all one-way neighbors. Symmetric graphs are C118."
  },
  {
   "property": "C120",
   "status": "partial",
   "theorems": [
    "C120_empty_locality_refuted"
   ],
   "note": "False: nextTimeStepFutures[0] doesn't exist. Localities with cells are C117, C118."
  },
  {
   "property": "C121",
   "status": "partial",
   "theorems": [
    "C121_start_step_refuted"
   ],
   "note": "False: always starts with step 0. What happens is C117."
  },
  {
   "property": "C122",
   "status": "partial",
   "theorems": [
    "C122_late_signal_refuted"
   ],
   "note": "False: the continuation refers to the semaphore, nobody waits for it. By then all updates of the locality are done (C117_exceptions)."
  },
  {
   "property": "C123",
   "status": "partial",
   "theorems": [
    "C123_two_messages_refuted"
   ],
   "note": "False: the receive buffer holds one message per step. At most one message is C117."
  },
  {
   "property": "C124",
   "status": "proved",
   "theorems": [
    "C124_place",
    "C124_read_back"
   ],
   "note": "For non-empty regions (an empty one has no bounding box)."
  },
  {
   "property": "C125",
   "status": "proved",
   "theorems": [
    "C125_minimal"
   ],
   "note": ""
  },
  {
   "property": "C126",
   "status": "proved",
   "theorems": [
    "C126_updates"
   ],
   "note": "For stencils of radius 1 other than Cross, as in C44. The grids of a Stepper are topologically correct and use the same box."
  },
  {
   "property": "C127",
   "status": "proved",
   "theorems": [
    "C127_accessor_stores_and_loads_cells",
    "C127_memory_holds_cells"
   ],
   "note": "Members are byte ranges, so trivially copyable members are assumed."
  },
  {
   "property": "C128",
   "status": "proved",
   "theorems": [
    "C128_grid_save_member",
    "C128_displaced_save_member",
    "C128_soa_save_member"
   ],
   "note": "For Regions inside of the box; beyond the boundary of a torus see C132."
  },
  {
   "property": "C129",
   "status": "proved",
   "theorems": [
    "C129_grid_load_member",
    "C129_displaced_load_member",
    "C129_soa_load_member"
   ],
   "note": "Members of members: siblings see C131."
  },
  {
   "property": "C130",
   "status": "proved",
   "theorems": [
    "C130_grid_load_save_member",
    "C130_displaced_load_save_member",
    "C130_soa_load_save_member"
   ],
   "note": ""
  },
  {
   "property": "C131",
   "status": "partial",
   "theorems": [
    "C131_siblings_refuted",
    "C131_deep_siblings_refuted"
   ],
   "note": "False: Grid and DisplacedGrid reset the siblings to default values, so does SoAGrid from the second level on. One level on SoAGrid is right (C129)."
  },
  {
   "property": "C132",
   "status": "partial",
   "theorems": [
    "C132_across_the_boundary_refuted"
   ],
   "note": "False: other cells are saved. Regions within the box: C128."
  },
  {
   "property": "C133",
   "status": "proved",
   "theorems": [
    "C133_simplex_search"
   ],
   "note": "Exact arithmetic; the evaluator is a function."
  },
  {
   "property": "C134",
   "status": "proved",
   "theorems": [
    "C134_never_worse"
   ],
   "note": "Exact arithmetic; the evaluator is a function."
  },
  {
   "property": "C135",
   "status": "partial",
   "theorems": [
    "C135_best_evaluated_refuted"
   ],
   "note": "False: the point of expansion replaces a better point of reflection. What holds: C133, C134."
  },
  {
   "property": "C136",
   "status": "partial",
   "theorems": [
    "C136_irregular_extent_refuted"
   ],
   "note": "False: a total contraction moves the best vertex. Regular extents: C134."
  },
  {
   "property": "C137",
   "status": "partial",
   "theorems": [
    "C137_negative_fitness_refuted"
   ],
   "note": "False: maxInSimplex takes vertex 0 for the best one. Non-negative fitness: C134."
  },
  {
   "property": "C138",
   "status": "proved",
   "theorems": [
    "C138_polytope",
    "C138_limits"
   ],
   "note": "Exact arithmetic; lengths are squared."
  },
  {
   "property": "C139",
   "status": "proved",
   "theorems": [
    "C139_voronoi_cell",
    "C139_voronoi_neighbors"
   ],
   "note": "Exact arithmetic; lengths are squared."
  },
  {
   "property": "C140",
   "status": "proved",
   "theorems": [
    "C140_no_exception",
    "C140_extents"
   ],
   "note": "Exact arithmetic."
  },
  {
   "property": "C141",
   "status": "partial",
   "theorems": [
    "C141_skipped_after_update_refuted",
    "C141_skipped_outside_refuted"
   ],
   "note": "False: operator<< ignores points to the left of or below the bounding box, though their bisectors may cut the polytope. What holds: C139."
  },
  {
   "property": "C142",
   "status": "partial",
   "theorems": [
    "C142_bounding_box_refuted"
   ],
   "note": "False: origin and dimensions are truncated. What holds: C140."
  },
  {
   "property": "C143",
   "status": "partial",
   "theorems": [
    "C143_neighbor_ids_refuted",
    "C143_own_ids"
   ],
   "note": "False: the cell's own ID is passed for all neighbors. What holds for the ConvexPolytope underneath: C139."
  },
  {
   "property": "C144",
   "status": "proved",
   "theorems": [
    "C144_mesher",
    "C144_cells"
   ],
   "note": "Exact arithmetic."
  },
  {
   "property": "C145",
   "status": "partial",
   "theorems": [
    "C145_doubles_refuted"
   ],
   "note": "False: the distance of two neighbors may be rounded down, hence exceed the cells' extent. What holds: C144."
  },
  {
   "property": "C146",
   "status": "partial",
   "theorems": [
    "C146_flat_refuted",
    "C146_empty_refuted"
   ],
   "note": "False: the extent of the grid is divided by the cells' extent, which is 0. What holds: C144."
  },
  {
   "property": "C147",
   "status": "proved",
   "theorems": [
    "C147_lookup",
    "C147_view",
    "C147_update"
   ],
   "note": "The elements of all members have the same type in the model."
  },
  {
   "property": "C148",
   "status": "proved",
   "theorems": [
    "C148_step",
    "C148_mesh"
   ],
   "note": "Exact arithmetic in the mesher."
  },
  {
   "property": "C149",
   "status": "partial",
   "theorems": [
    "C149_spawned_later_refuted"
   ],
   "note": "False: the following containers' updateCargo() determines its end afterwards. What holds: C147."
  },
  {
   "property": "C150",
   "status": "proved",
   "theorems": [
    "C150_launch",
    "C150_run"
   ],
   "note": "Updates of single cells are atomic; int and unsigned are unbounded; CUDA's resource limits and errors aren't modelled. SoA: see C153, steerers: C152."
  },
  {
   "property": "C151",
   "status": "partial",
   "theorems": [
    "C151_overrun",
    "C151_refuted"
   ],
   "note": "False: C151_overrun shows that each such launch writes beyond the end, in all interleavings. What holds: C150."
  },
  {
   "property": "C152",
   "status": "partial",
   "theorems": [
    "C152_ignored",
    "C152_refuted"
   ],
   "note": "False: the host's grid is never copied to the device after the start of run(); C152_ignored shows that cells written by steerers never matter."
  },
  {
   "property": "C153",
   "status": "partial",
   "theorems": [
    "C153_soa_refuted"
   ],
   "note": "False: nanoStepImpl() is empty for SoA."
  },
  {
   "property": "C154",
   "status": "partial",
   "theorems": [
    "C154_separate_refuted"
   ],
   "note": "False: kernel2D updates the last row of a periodic grid by update(). What holds: C150."
  },
  {
   "property": "C155",
   "status": "partial",
   "theorems": [
    "C155_radius_refuted"
   ],
   "note": "False: padding and corrections are made for a radius of 1. What holds: C150."
  },
  {
   "property": "C156",
   "status": "partial",
   "theorems": [
    "C156_step_refuted"
   ],
   "note": "False: only run() calls the initializer and fills the device's arrays."
  },
  {
   "property": "C157",
   "status": "proved",
   "theorems": [
    "C157_tasks",
    "C157_any_schedule",
    "C157_race_free"
   ],
   "note": "Updates of single cells are atomic steps; C157_race_free justifies this. Fine grained mode requires a granularity of at least 1 and no negative X coordinates (see C52)."
  },
  {
   "property": "C158",
   "status": "proved",
   "theorems": [
    "C158_run"
   ],
   "note": ""
  },
  {
   "property": "C159",
   "status": "proved",
   "theorems": [
    "C159_refines",
    "C159_threads"
   ],
   "note": "OpenMPSimulator's own handleInput() and handleOutput() hide non-virtual functions and are never called, hence Writers and Steerers are called sequentially, see DESIGN.md."
  },
  {
   "property": "C160",
   "status": "partial",
   "theorems": [
    "C160_edge_refuted"
   ],
   "note": "False: setEdge() affects just one of the two grids, so the edge cell alternates. What holds: C159, whose reference simulation has two edge cells."
  },
  {
   "property": "C161",
   "status": "proved",
   "theorems": [
    "C161_rerun"
   ],
   "note": ""
  },
  {
   "property": "C162",
   "status": "partial",
   "theorems": [
    "C162_rerun_refuted"
   ],
   "note": "False: run() calls the Initializer for the current grid only, the other one keeps the members of the former run. What holds: C159, C161."
  },
  {
   "property": "C163",
   "status": "proved",
   "theorems": [
    "C163_channels",
    "C163_equal"
   ],
   "note": ""
  },
  {
   "property": "C164",
   "status": "partial",
   "theorems": [
    "C164_overflow_refuted"
   ],
   "note": "False: components are shifted and added, not clamped. What holds: C163."
  },
  {
   "property": "C165",
   "status": "proved",
   "theorems": [
    "C165_palette",
    "C165_integers"
   ],
   "note": "Exact arithmetic; for doubles see C166."
  },
  {
   "property": "C166",
   "status": "partial",
   "theorems": [
    "C166_doubles_refuted"
   ],
   "note": "False: with keys 0 and 0.1 the red component 43 turns into 42, as rounding errors precede truncation. What holds: C165."
  },
  {
   "property": "C167",
   "status": "proved",
   "theorems": [
    "C167_quick_palette"
   ],
   "note": "Exact arithmetic."
  },
  {
   "property": "C168",
   "status": "partial",
   "theorems": [
    "C168_empty_range_refuted"
   ],
   "note": "False: 0 times infinity is not a number, which is then converted to int. What holds: C167."
  },
  {
   "property": "C169",
   "status": "proved",
   "theorems": [
    "C169_fill",
    "C169_slice",
    "C169_paste"
   ],
   "note": "Pasting an Image into itself isn't covered."
  },
  {
   "property": "C170",
   "status": "proved",
   "theorems": [
    "C170_viewport"
   ],
   "note": ""
  },
  {
   "property": "C171",
   "status": "partial",
   "theorems": [
    "C171_negative_refuted"
   ],
   "note": "False: coordinates aren't clipped at 0, so that the edge cell (or cells from the opposite side) are shown. What holds: C170."
  },
  {
   "property": "C172",
   "status": "proved",
   "theorems": [
    "C172_ppm",
    "C172_names"
   ],
   "note": ""
  },
  {
   "property": "C173",
   "status": "partial",
   "theorems": [
    "C173_displaced_refuted"
   ],
   "note": "False: coordinates start at 0 instead of the origin of the bounding box. What holds: C172."
  },
  {
   "property": "C174",
   "status": "proved",
   "theorems": [
    "C174_reads_back",
    "C174_region_transfer",
    "C174_save_to_host",
    "C174_load_from_host",
    "C174_regions_in_box"
   ],
   "note": "Rows of the region must not cross the seam of a torus, see C175."
  },
  {
   "property": "C175",
   "status": "partial",
   "theorems": [
    "C175_wrap_refuted",
    "C175_seam_refuted",
    "C175_edge_refuted"
   ],
   "note": "False: grids which aren't topologically correct don't wrap on a torus; rows which cross a seam are copied en bloc, i.e. with the wrong cells; writing to a Streak outside changes the edge cell on the device, but not the one returned by getEdge(). What holds: C174."
  },
  {
   "property": "C176",
   "status": "proved",
   "theorems": [
    "C176_kernel_blocks",
    "C176_kernel"
   ],
   "note": "Updates are atomic, and doing one twice in a row has the same effect as doing it once."
  },
  {
   "property": "C177",
   "status": "partial",
   "theorems": [
    "C177_large_regions_skipped",
    "C177_large_regions_refuted",
    "C177_accumulating_refuted"
   ],
   "note": "False: the launch has 200 blocks and each of them handles one cell (all of its 512 threads the same one), so that further cells are left out, and updates take place 512 times. What holds: C176."
  },
  {
   "property": "C178",
   "status": "proved",
   "theorems": [
    "C178_single_node",
    "C178_regular_grid"
   ],
   "note": "Grids on the device are functions here; transfers and kernels are covered by C174 and C176."
  },
  {
   "property": "C179",
   "status": "partial",
   "theorems": [
    "C179_two_nodes_refuted"
   ],
   "note": "False: the CUDAStepper lacks the VanillaStepper's buffers for rim and kernel. updateGhost() takes the rim from the device, where it has not been updated, and overwrites the kernel on the device with outdated cells from the host. What holds: C178."
  },
  {
   "property": "C180",
   "status": "partial",
   "theorems": [
    "C180_run_refuted"
   ],
   "note": "False in all cases: normalizeSteps() looks up \"SerialSimulation\", but the factory is registered as \"SerialSimulator\", so that run() throws std::invalid_argument before anything is simulated."
  },
  {
   "property": "C181",
   "status": "proved",
   "theorems": [
    "C181_first_use"
   ],
   "note": ""
  },
  {
   "property": "C182",
   "status": "partial",
   "theorems": [
    "C182_second_use_refuted",
    "C182_optimizers_refuted"
   ],
   "note": "False: the factory hands its own writers to the simulator, which deletes them (fixme in the code). The second evaluation uses deleted objects. What holds: C181."
  },
  {
   "property": "C183",
   "status": "proved",
   "theorems": [
    "C183_normalize"
   ],
   "note": "Exact arithmetic; numbers of steps below 2^32."
  },
  {
   "property": "C184",
   "status": "partial",
   "theorems": [
    "C184_run_refuted"
   ],
   "note": "False: fitness is the negative duration, but the search for the maximum starts with the smallest positive double, so that no simulation is ever chosen and run() throws std::invalid_argument."
  },
  {
   "property": "C185",
   "status": "proved",
   "theorems": [
    "C185_intervals",
    "C185_ratio"
   ],
   "note": "Exact arithmetic."
  },
  {
   "property": "C186",
   "status": "proved",
   "theorems": [
    "C186_render"
   ],
   "note": "Exact arithmetic."
  },
  {
   "property": "C187",
   "status": "partial",
   "theorems": [
    "C187_render_refuted"
   ],
   "note": "False: -90 s yields 00:-1:-30, -0.5 s yields 00:00:00, and 2^31 s can't be converted to int (undefined behaviour). What holds: C186."
  },
  {
   "property": "C188",
   "status": "proved",
   "theorems": [
    "C188_forecasts",
    "C188_parallel"
   ],
   "note": "Exact arithmetic."
  },
  {
   "property": "C189",
   "status": "partial",
   "theorems": [
    "C189_restart_refuted"
   ],
   "note": "False: lastStep is stored but never used; time elapsed since the restart is divided by the number of all steps. What holds: C188."
  },
  {
   "property": "C190",
   "status": "partial",
   "theorems": [
    "C190_range_refuted"
   ],
   "note": "False: maxSteps - step wraps around, and the product of the grid's dimensions is an int. What holds: C188."
  },
  {
   "property": "C191",
   "status": "proved",
   "theorems": [
    "C191_scotch"
   ],
   "note": "SCOTCH is a parameter which has to return one node per cell; whatever is read behind the end (see C192) has no influence."
  },
  {
   "property": "C192",
   "status": "partial",
   "theorems": [
    "C192_overread_refuted"
   ],
   "note": "False for each and every input: the loop condition evaluates indices[cellNbr]. What holds: C191, if that read yields any value."
  },
  {
   "property": "C193",
   "status": "proved",
   "theorems": [
    "C193_unstructured"
   ],
   "note": "SCOTCH is a parameter; edges have to start at cells of the partition."
  },
  {
   "property": "C194",
   "status": "partial",
   "theorems": [
    "C194_weights_refuted"
   ],
   "note": "False: SCOTCH_graphPart is called with the number of weights only. What holds: C193."
  },
  {
   "property": "C195",
   "status": "proved",
   "theorems": [
    "C195_slices"
   ],
   "note": "IEEE 754 single precision (SpecFloat); the proof relies on Flocq and hence on the axioms of the standard library's real numbers."
  },
  {
   "property": "C196",
   "status": "partial",
   "theorems": [
    "C196_slices_refuted"
   ],
   "note": "False: of 2^24 + 1 cells the last one isn't in any slice, and for 2^24 + 3 cells the last slice goes beyond the end. What holds: C195."
  },
  {
   "property": "C197",
   "status": "proved",
   "theorems": [
    "C197_exchange"
   ],
   "note": "The number of MPI ranks is the number of weights; a region is one message."
  },
  {
   "property": "C198",
   "status": "proved",
   "theorems": [
    "C198_partition"
   ],
   "note": "PT-SCOTCH is a parameter; relies on C195."
  },
  {
   "property": "C199",
   "status": "proved",
   "theorems": [
    "C199_hpx_link"
   ],
   "note": "HPX's receive_buffer is modelled as a map from steps to values; parcels arrive in any order."
  },
  {
   "property": "C200",
   "status": "proved",
   "theorems": [
    "C200_notify"
   ],
   "note": "Continuations are atomic; regions of the links asked have to be disjoint."
  },
  {
   "property": "C201",
   "status": "proved",
   "theorems": [
    "C201_all_gather"
   ],
   "note": "One receiver; HPX's broadcast and naming are not modelled."
  },
  {
   "property": "C202",
   "status": "proved",
   "theorems": [
    "C202_hpx_equals_serial",
    "C202_hpx_final_grid"
   ],
   "note": "Tasks are atomic; steerers have to commute, see C204."
  },
  {
   "property": "C203",
   "status": "proved",
   "theorems": [
    "C203_hpx_no_deadlock"
   ],
   "note": "Tasks are atomic; HPX's scheduler is fair or at least runs some task."
  },
  {
   "property": "C204",
   "status": "partial",
   "theorems": [
    "C204_concurrent_steerers_refuted"
   ],
   "note": "False: HPXStepper asks all steerers' adapters concurrently, in no particular order; two complete runs of one simulation differ. Holds for commuting steerers, see C202."
  },
  {
   "property": "C205",
   "status": "proved",
   "theorems": [
    "C205_initial_weights"
   ],
   "note": "IEEE 754 double precision (Flocq); how far the weights are from the ideal ones is C32, with exact arithmetic."
  },
  {
   "property": "C206",
   "status": "proved",
   "theorems": [
    "C206_locality_indices"
   ],
   "note": "HPX's broadcasts are assumed to return results in the order of the localities."
  },
  {
   "property": "C207",
   "status": "proved",
   "theorems": [
    "C207_hipar_simulation"
   ],
   "note": "Composition of C205, C12-C17, C21 and C22; the number of nano steps is a multiple of the ghost zone width."
  },
  {
   "property": "C208",
   "status": "proved",
   "theorems": [
    "C208_hpx_simulation"
   ],
   "note": "Composition of C205, C206, C12-C17, C202 and C203; the number of nano steps is a multiple of the ghost zone width."
  },
  {
   "property": "C209",
   "status": "proved",
   "theorems": [
    "C209_frames",
    "C209_wavefronts"
   ],
   "note": ""
  },
  {
   "property": "C210",
   "status": "proved",
   "theorems": [
    "C210_steps",
    "C210_ends_in_time"
   ],
   "note": "Provided that no sweep has undefined behaviour, see C211."
  },
  {
   "property": "C211",
   "status": "partial",
   "theorems": [
    "C211_plane_partial",
    "C211_planes_refuted",
    "C211_pipeline_refuted",
    "C211_long_pipeline_refuted",
    "C211_end_refuted"
   ],
   "note": "Holds for grids of a single plane without pipelining, in simulations of any length. False otherwise: a frame's Z coordinate is added once more by the offsets, long pipelines read beyond the end of the vector of frames, the simulation may go beyond maxSteps, and writers miss all steps in between."
  },
  {
   "property": "C212",
   "status": "proved",
   "theorems": [
    "C212_cuts",
    "C212_boxes",
    "C212_bisection",
    "C212_bisection_upto",
    "C212_suits"
   ],
   "note": "IEEE 754 double precision (Flocq). Positive weights, as in C17; for Regions in 3D see C17 and C58."
  },
  {
   "property": "C213",
   "status": "partial",
   "theorems": [
    "C213_exact_cut_refuted"
   ],
   "note": "False: 7/10 of 45 cells is 31 instead of 32 as 0.7 is rounded down. What holds: C212."
  },
  {
   "property": "C214",
   "status": "proved",
   "theorems": [
    "C214_mesh"
   ],
   "note": "The reader in SiloSpec is independent of the writer. Unless &v[0] of empty vectors is fine, the first cell must contain a polygon; see C218."
  },
  {
   "property": "C215",
   "status": "proved",
   "theorems": [
    "C215_points"
   ],
   "note": "Unless &v[0] of empty vectors is fine, the first cell must contain a particle; see C218."
  },
  {
   "property": "C216",
   "status": "proved",
   "theorems": [
    "C216_grid"
   ],
   "note": "Grids whose origin is 0."
  },
  {
   "property": "C217",
   "status": "proved",
   "theorems": [
    "C217_names"
   ],
   "note": ""
  },
  {
   "property": "C218",
   "status": "partial",
   "theorems": [
    "C218_empty_refuted",
    "C218_dangling_refuted"
   ],
   "note": "False: &variableData[0] of an empty vector if the first cell contains no items; addSelector is accepted for models without regular grid, the file then lacks the mesh. What holds: C214 to C216."
  },
  {
   "property": "C219",
   "status": "proved",
   "theorems": [
    "C219_copies"
   ],
   "note": "All nodes report the same steps in the same order."
  },
  {
   "property": "C220",
   "status": "proved",
   "theorems": [
    "C220_no_deadlock"
   ],
   "note": ""
  },
  {
   "property": "C221",
   "status": "proved",
   "theorems": [
    "C221_datatype"
   ],
   "note": "MPI's alignments are the compiler's."
  },
  {
   "property": "C222",
   "status": "proved",
   "theorems": [
    "C222_library"
   ],
   "note": ""
  },
  {
   "property": "C223",
   "status": "partial",
   "theorems": [
    "C223_virtual_refuted",
    "C223_unregistered_refuted"
   ],
   "note": "False: displacements are relative to the first member, not to the object, so a vtable pointer shifts everything; trailing members which aren't registered make the datatype's extent too small for arrays. What holds: C221."
  },
  {
   "property": "C224",
   "status": "proved",
   "theorems": [
    "C224_random_double"
   ],
   "note": "Uses axioms of the standard library's real numbers."
  },
  {
   "property": "C225",
   "status": "partial",
   "theorems": [
    "C225_zero_refuted",
    "C225_total_refuted"
   ],
   "note": "False: if all numbers drawn are 0 the balancer converts 0/0 to an integer; totals beyond 2^53 may be rounded up, then a negative remainder is converted to unsigned and 2^32 items are added. What holds: C224."
  },
  {
   "property": "C226",
   "status": "partial",
   "theorems": [
    "C226_ooze_double_refuted"
   ],
   "note": "False: for weights 1, 1, 1 and relative loads 0.4, 0.2, 0.3 (weight 0.5) the balancer throws std::logic_error, as rounding errors make the equalized weights add up to 2. With exact arithmetic: C33."
  },
  {
   "property": "C227",
   "status": "proved",
   "theorems": [
    "C227_ooze_defined"
   ],
   "note": "Uses axioms of the standard library's real numbers. Exceptions do occur: C226."
  },
  {
   "property": "C228",
   "status": "proved",
   "theorems": [
    "C228_blocks",
    "C228_plotter"
   ],
   "note": "Uses axioms of the standard library's real numbers. Justifies the integer division used by CudaModel and ImageModel."
  },
  {
   "property": "C229",
   "status": "proved",
   "theorems": [
    "C229_launches"
   ],
   "note": ""
  },
  {
   "property": "C230",
   "status": "proved",
   "theorems": [
    "C230_cuda_reads_back",
    "C230_default_sizes",
    "C230_cuda_same"
   ],
   "note": "saveMember and loadMember are not modelled."
  },
  {
   "property": "C231",
   "status": "partial",
   "theorems": [
    "C231_too_many_blocks_refuted"
   ],
   "note": "False: for 65536 layers the launch fails, the error is not checked, and cells hold whatever the memory held. What holds: C230."
  },
  {
   "property": "C232",
   "status": "partial",
   "theorems": [
    "C232_broadcast_single",
    "C232_broadcast_refuted"
   ],
   "note": "False: the index is multiplied by the stride of 0, hence all threads set the first cell only."
  },
  {
   "property": "C233",
   "status": "proved",
   "theorems": [
    "C233_array_out",
    "C233_array_in"
   ],
   "note": "copyMemberIn and copyMemberOut of the array filter are not modelled."
  },
  {
   "property": "C234",
   "status": "partial",
   "theorems": [
    "C234_stride_refuted"
   ],
   "note": "False: distributeMemberArray() ignores the stride, and copyStreakOut() from host to device only copies the first num * ARITY elements, then reads beyond them. What holds: C233."
  },
  {
   "property": "C235",
   "status": "partial",
   "theorems": [
    "C235_empty_refuted"
   ],
   "note": "False: a kernel with no blocks is launched, which CUDA rejects, hence checkForError() throws. What holds: C233."
  },
  {
   "property": "C236",
   "status": "proved",
   "theorems": [
    "C236_member_in",
    "C236_member_out"
   ],
   "note": ""
  },
  {
   "property": "C237",
   "status": "proved",
   "theorems": [
    "C237_swap"
   ],
   "note": "Extents are not covered: those along Y and Z are not swapped."
  },
  {
   "property": "C238",
   "status": "partial",
   "theorems": [
    "C238_swap_refuted"
   ],
   "note": "False: my_dim_x is swapped three times, my_dim_y and my_dim_z are not, hence accesses leave the memory. What holds: C237."
  },
  {
   "property": "C239",
   "status": "proved",
   "theorems": [
    "C239_copies"
   ],
   "note": "Extents are not covered: the copy constructor leaves them uninitialised, see C242."
  },
  {
   "property": "C240",
   "status": "proved",
   "theorems": [
    "C240_vector"
   ],
   "note": ""
  },
  {
   "property": "C241",
   "status": "partial",
   "theorems": [
    "C241_reserve_refuted"
   ],
   "note": "False: all elements are copied to the smaller memory, beyond its end. What holds: C240."
  },
  {
   "property": "C242",
   "status": "partial",
   "theorems": [
    "C242_copy_refuted"
   ],
   "note": "False: soa_grid's copy constructor doesn't initialise the extents, which push_back compares to the number of elements. What holds: C239, C240."
  },
  {
   "property": "C243",
   "status": "proved",
   "theorems": [
    "C243_ascii"
   ],
   "note": "How values are printed is not modelled."
  },
  {
   "property": "C244",
   "status": "partial",
   "theorems": [
    "C244_displaced_refuted"
   ],
   "note": "False: newlines are only written for coordinates which are zero, hence all rows of a grid which doesn't start at X = 0 share one line. What holds: C243."
  },
  {
   "property": "C245",
   "status": "partial",
   "theorems": [
    "C245_radius_refuted"
   ],
   "note": "False: regions are expanded by one cell per step, the stencil's radius isn't considered, neither are larger radii rejected. For a radius of one: C19, C20."
  },
  {
   "property": "C246",
   "status": "proved",
   "theorems": [
    "C246_construction",
    "C246_conversion",
    "C246_operations"
   ],
   "note": "Sources of copies are other arrays; all members are equally large."
  },
  {
   "property": "C247",
   "status": "partial",
   "theorems": [
    "C247_construction_refuted"
   ],
   "note": "False: the constructor doesn't compare the number of elements to the capacity, the last members are written beyond the array's end. What holds: C246."
  }
 ]
}