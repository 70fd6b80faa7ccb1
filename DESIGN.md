# Design of the formal model of LibGeoDecomp

## 1. Scope and approach

The C++ sources in `/repo` are read as text and re-expressed as small, total,
computable Gallina functions (Coq 8.16.1). Every definition of the model cites
the file and the lines it models. The properties are those of
`properties.jsonl` (C01, C02, ...).

Conventions used everywhere:

* `int`, `unsigned`, `std::size_t`, `std::ptrdiff_t` are unbounded `Z`/`nat`.
  Overflow is not modelled unless stated (C49 counts modulo 2^32).
* A coordinate is a list of `Z`, **last (most significant) dimension first**:
  the C++ `Coord<2>(x, y)` is `[y; x]`. Dimension-recursive templates become
  structural recursion on that list, so theorems hold for every dimension.
* `indices[DIM]` of `Region` is a list of vectors, top level first.
* Undefined behaviour, exceptions and non-termination are explicit outcomes
  (`None`, `Threw`, an error constructor, or running out of fuel) and never a
  silent default value. Loops are structural recursion or carry fuel together
  with a theorem that the fuel suffices.
* Floating point code is modelled with exact rational arithmetic (`Q`/`Z`).
  Where rounding matters (C87, C88, C92, C195, C205, C212) `Coq.Floats.SpecFloat` is used, the
  specification of IEEE 754 numbers by plain integers; it needs no axioms.
* Callbacks supplied by the user (cell update, initializer, load balancer,
  steerer, objective function) are universally quantified.

Layout of `rocq/theories`:

* `*Model.v`: the model; definitions only, with citations.
* `*Spec.v`: what the properties speak of, independent of the model's helpers.
* `*Facts.v` (and `Region*.v`): lemmas.
* `*Props.v`: the property theorems, each with `Print Assumptions` and a
  non-trivial `Example` which meets its hypotheses.

Policy on defects: where a property is false of the code as it stands, the
property is restated for the range in which it holds and proved there; the
failing range is a property of its own with a theorem `..._refuted` whose
witness is computed by `vm_compute`.

## 2. Models and methods

| files | code | method |
|-------|------|--------|
| `CoordModel`, `CoordProps` | `geometry/coord.h`, `coordbox.h`, `topologies.h` | induction over the dimensions |
| `RegionModel`, `RegionOpsModel`, `RegionIterModel`, `RegionSeekModel`, `RegionObjModel`, `RegionProps`, `GeometryProps`, `ExpandProps`, `SeekProps` | `geometry/region.h`, `regionstreakiterator.h`, `geometry/regionhelpers` | the offset vectors are refined by a tree (`RegionTree`, `RegionFlat`, `RegionRep`); canonical form; simulation lemmas for insert, remove, look-up, iteration; loop invariants for the merges; invariant "not tainted implies cached value right" |
| `PartitionModel`, `SfcModel`, `HIndexingModel` with `Striping*`, `Checker*`, `Bisection*`, `Zcurve*`, `Hilbert*`, `HIndexing*` | `geometry/partitions/*` | prefix sums of weights; structural recursion of the curves, permutation of the box, skip-ahead lemmas |
| `PartitionManagerModel` | `geometry/partitionmanager.h` | set algebra, walks of bounded length |
| `PatchModel` (`Patch*`, `Link*`) | `storage/patchbuffer.h`, `patchbufferfixed.h`, `communication/patchlink.h` | refinement to queues; invariants over all interleavings |
| `StepperModel` | `parallelization/nesting/*stepper.h`, `updategroup.h` | invariant over nano steps: every stored cell equals the serial value at the recorded time on the current rim or inner set; progress by induction on rounds |
| `ScheduleModel`, `AdapterModel`, `WriterModel` | `serialsimulator.h`, `hierarchicalsimulator.h`, `hiparsimulator.h`, `nesting/parallelwriteradapter.h`, `steereradapter.h` | closed form of the generated event lists |
| `StripesModel` | `parallelization/stripingsimulator.h` | invariant over the transition system of all nodes |
| `BalancerModel` | `loadbalancer/*` | exact rationals, error diffusion invariant |
| `GridModel` | `storage/grid.h`, `displacedgrid.h`, `gridbase.h` | refinement to maps from locations to cells |
| `SellModel`, `ReorderModel` | `storage/sellcsigmasparsematrixcontainer.h`, `unstructuredgrid.h`, `reorderingunstructuredgrid.h` | refinement to sparse rows and maps |
| `HoodModel` | `storage/unstructuredneighborhood.h`, `unstructuredsoaneighborhood.h`, `unstructuredlooppeeler.h`, `unstructuredupdatefunctor.h` | direct, by induction on the loops |
| `FileModel` | `io/mpiio.h`, `mpiiowriter.h`, `parallelmpiiowriter.h`, `mpiioinitializer.h`, `bovwriter.h`, `bovoutput.h`, `serialbovwriter.h` | all writes agree with one image of the file, hence their order is irrelevant |
| `DataflowModel` | `parallelization/hpxdataflowsimulator.h`, `communication/hpxreceiver.h` | labelled transition system; invariant relating it to synchronous rounds, measure |
| `OffsetModel` | `parallelization/nesting/offsethelper.h` | per axis: the box leaves out a widest gap; a node's coordinate is moved home by a period, accesses and both update paths are invariant under that |
| `SelectorModel` | `storage/selector.h`, `default{,array}filter.h`, `simple{,array}filter.h`, `memberfilter.h`, `saveMember`/`loadMember` of Grid, DisplacedGrid and SoAGrid; LibFlatArray's member offsets, accessors `<<`, `>>` | bytes; the memory of a soa_grid *holds* cells, and loading members simulates a sequence of `set(Streak)`, so that everything known about reachable grids applies |
| `SoAModel` | `storage/soagrid.h`, `storage/fixedneighborhood*.h`, LibFlatArray's `soa_grid.hpp`, size macros, `gen_index` | arrays with padding represent a map from places to cells; lines update one place after the other |
| `MeshlessModel` | `storage/meshlessadapter.h` | closeness on every axis implies adjacent cells; a grid of lists represents the inserted vertices; the bisection halves an interval until the numbers of cells agree up to one |
| `ArrayModel` | `storage/fixedarray.h`, `containercell.h` | refinement to bounded lists and ordered maps |
| `AdjacencyModel` | `geometry/regionbasedadjacency.h`, `geometry/adjacency.h` | refinement to a relation |
| `StencilModel` | `geometry/stencils.h`, `geometry/fixedcoord.h` | finite tables computed completely, volumes by induction |
| `UpdateModel` | `storage/updatefunctor.h`, `linepointer*.h`, `vanillaupdatefunctor.h` | pointwise |
| `ParamModel`, `OptimizerModel` | `misc/simulationparameters.h`, `misc/patternoptimizer.cpp` | direct; a measure for termination |
| `SimplexModel` | `misc/simplexoptimizer.{h,cpp}` | invariant: vertices are reset or carry the fitness of their parameters; the best vertex survives each move and restart |
| `PolytopeModel` | `geometry/{plane,convexpolytope,voronoimesher}.h` | invariant: the limits bound the same polygon as all planes inserted, each touches it; cut points are the ends of the edges (first exit of a ray, Lagrange's identity) |
| `MesherModel` | `geometry/unstructuredgridmesher.h` | folds are maxima, minima; floors of numbers which differ by at most 1 |
| `MultiModel` | `storage/{multicontainercell,neighborhoodadapter,passthroughcontainer}.h` | invariant: per member, elements updated ++ elements to do ++ spawned; kernels as trees of requests, evaluated in a view of the old grid; refinement: grid of ContainerCells to nodes of a mesh (`MeshRunProps`) |
| `CudaModel` | `parallelization/cudasimulator.h`, `storage/{cudaupdatefunctor,proxygrid}.h` | launches as lists of updates per thread, executed in any interleaving; each cell is updated once (permutation of the grid's coordinates), addresses refine `denotes`; invariant relating device arrays, host grid and generations |
| `ThreadModel` | `storage/{updatefunctor,updatefunctormacros,vanillaupdatefunctor}.h`, `parallelization/{serialsimulator,openmpsimulator}.h`, `misc/apitraits.h` | tasks as lists of Streaks, planes are consecutive ranges of the region's Streaks (`ThreadPlanes`); schedules as interleavings of single cell updates; refinement of a reference simulation on functions from places to cells, Initializers and Steerers are programs (trees of reads and writes) |
| `ImageModel` | `misc/{color,palette,quickpalette}.h`, `storage/image.{h,cpp}`, `io/{plotter,simplecellplotter,imagepainter,ppmwriter}.h` | Palettes for exact numbers, integers and IEEE doubles; Images as grids of Colors; PPM files as lists of bytes, checked against an independent reader |
| `CudaGridModel` | `storage/cudagrid.h`, `geometry/cudaregion.h`, `parallelization/nesting/cudastepper.h` (kernel), libflatarray's `cuda_array.hpp` | device memory as lists, copies beyond the end are undefined; kernel launches as sequences of threads in any order |
| `CudaStepperModel` | `parallelization/nesting/{cudastepper,commonstepper}.h` | as `StepperModel`, with two more grids on the device; invariant for nodes on their own |
| `AutotuneModel` | `parallelization/autotuningsimulator.h`, `misc/{simulationfactory,serialsimulationfactory,cacheblockingsimulationfactory,cudasimulationfactory}.h` | world of existing writers and past runs; optimizers are trees of decisions |
| `TraceModel` | `misc/chronometer.h`, `io/{timestringconversion,tracingwriter}.h` | times are arguments; lines written are records |
| `ScotchModel` | `geometry/partitions/{scotch,ptscotch,ptscotchunstructured}partition.h` | SCOTCH itself is a parameter |
| `DistScotchModel` | `geometry/partitions/distributedptscotchunstructuredpartition.h`, `MPILayer::sendRegion`/`recvRegion` | PT-SCOTCH is a parameter; ranks are interleaved arbitrarily |
| `HpxLinkModel` | `communication/hpxreceiver.h`, `communication/hpxpatchlink.h`, `nesting/hpxstepper.h` (notifications) | HPX's parcels, futures and `receive_buffer` are modelled, see below |
| `HpxSimModel` | `nesting/hpxstepper.h`, `storage/patchprovider.h` (getAsync), `storage/patchaccepter.h` (putAsync), `hpxsimulator.h` (nanoStep, createUpdateGroup) | on top of `StepperModel` and `HpxLinkModel`; tasks are atomic |
| `SetupModel` | `loadbalancer/loadbalancer.cpp` (any arithmetic), `hiparsimulator.h` and `hpxsimulator.h` (initSimulation), `hpxsimulator.cpp` | six of the partitions, regular grids; promises and broadcasts are not modelled, results are in the order of the localities |
| `BisectDoubleModel` (`BisectDouble*`, `BisectRange*`) | `geometry/partitions/recursivebisectionpartition.h` (the arithmetic of cuts) | rounding is monotone, relative errors multiply; the search is unchanged if the rounding is replaced outside of the range at hand |
| `CacheModel` | `parallelization/cacheblockingsimulator.h` | one thread; cells without fixed coordinates, whose update doesn't depend on the target's former content; frames are computed on each use |
| `SiloModel` | `io/silowriter.h`, `storage/collectioninterface.h` | the Silo library is the list of objects it's asked to store; the files are judged by a reader of our own |
| `ParMemModel` | `io/parallelmemorywriter.h`, `communication/mpilayer.h` | transition system of nodes and FIFO channels of bounded capacity (possibly 0), invariant, progress and step bound |
| `TypemapModel` | `communication/typemaps.h`, `communication/typemaps.cpp`, member declarations of the classes they cover | C++ layout and MPI type maps as functions on a tree of types, induction on that tree |
| `RandomDoubleModel` | `loadbalancer/randombalancer.cpp`, `misc/random.h` | functions on IEEE doubles, bounds of relative errors |
| `CeilModel` | `ceil` of quotients in `parallelization/cudasimulator.h`, `io/plotter.h` | IEEE doubles, a short number lies between the quotient and the integer below |
| `OozeDoubleModel` | `loadbalancer/oozebalancer.cpp` | functions on IEEE doubles, outcomes tell exceptions from undefined behaviour |
| `CudaSoAModel` | `storage/cudasoagrid.h`, `misc/cudautil.h`, LibFlatArray's `soa_grid.hpp` and functors for CUDA | kernels yield what each thread writes, launches run the threads in any order |
| `CudaFilterModel` | `storage/defaultcudafilter.h`, `storage/defaultcudaarrayfilter.h`, `storage/defaultfilter.h`, `storage/defaultarrayfilter.h` | memory as lists of values, threads one after the other in any order; no copyMember of the array filters |
| `FlatVectorModel` | LibFlatArray's `soa_grid.hpp` (construction, copies, swap), `soa_vector.hpp` | lists of cells; sequences of operations, simulation by a list |
| `AsciiModel` | `io/asciiwriter.h` | files as lists of newlines and values, read back by line |
| `FlatArrayModel` | LibFlatArray's `soa_array.hpp` | one list of values for all members; sequences of operations, simulation by a list |
| `StringModel`, `ProxyModel` | `misc/stringops.h`, `io/varstepinitializerproxy.h` | direct |
| `BoxModel` | `storage/boxcell.h`, `storage/neighborhooditerator.h`, `geometry/floatcoord.h` | multiset argument |
| `CollectModel` | `io/collectingwriter.h` | transition system of nodes and FIFO channels, invariant and progress |

### Results

| id | property | status | theorems |
|----|----------|--------|----------|
| C01 | Region tracks exactly the inserted-minus-removed coordinates | proved | `C01_region_history`, `C01_count_streak` |
| C02 | Region equality is equality of coordinate sets | proved | `C02_region_equality`, `C02_streaks_maximal` |
| C03 | Region set algebra | proved | `C03_set_algebra` |
| C04 | Region size, bounding box and emptiness | proved | `C04_geometry`, `C04_object_contents` |
| C05 | Region iteration is exact, ordered and duplicate free | proved | `C05_iteration`, `C05_random_access` |
| C06 | Region::expand is dilation by a cube | proved | `C06_expand_radii`, `C06_expand` |
| C07 | Region::expandWithTopology respects the topology | proved, limit refuted | `C07_expand_topology`, `C07_wide_expansion_refuted` |
| C08 | streakIteratorOnOrAfter finds the successor streak (1D, 2D) | proved | `C08_on_or_after` |
| C09 | Coordinate/linear index round trip | proved | `C09_index_bijection`, `C09_index_injective` |
| C10 | CoordBox iteration visits each coordinate exactly once | proved | `C10_box_iteration`, `C10_box_streak_iteration` |
| C11 | Topology normalisation | proved, limit refuted | `C11_normalize`, `C11_two_periods_refuted` |
| C12 | Striping partition is an exact cover | proved | `C12_striping`, `C12_unstructured_striping` |
| C13 | Z-curve partition is an exact cover | proved | `C13_zcurve_traversal`, `C13_zcurve` |
| C14 | Hilbert partition is an exact cover | proved | `C14_hilbert_traversal`, `C14_hilbert` |
| C15 | H-indexing partition is an exact cover | proved | `C15_hindexing`, `C15_hindexing_traversal` |
| C16 | Checkerboarding partition is an exact cover | proved | `C16_checkerboarding` |
| C17 | Recursive bisection partition is an exact cover | proved | `C17_bisection_boxes`, `C17_bisection_regions`, `C17_bisection` |
| C18 | Ghost zones of two nodes match | proved | `C18_ghost_zones_match` |
| C19 | The halo is completely and uniquely supplied | proved | `C19_halo_supplied` |
| C20 | Rims and inner sets allow local updates | proved | `C20_rims_and_inner_sets` |
| C21 | Parallel simulation equals serial simulation | proved | `C21_parallel_equals_serial`, `C21_regular_grid`, `C21_final_grid` |
| C22 | Result is independent of the message schedule | proved | `C22_no_deadlock`, `C22_schedule_independent` |
| C23 | Parallel writers see each cell exactly once per due step | proved | `C23_writers_see_all` |
| C24 | Striping simulation survives load balancing | proved | `C24_balancing_transparent`, `C24_no_deadlock`, `C24_final_grid`, `C24_regular_grid` |
| C25 | PatchBuffer never mixes up time steps | proved | `C25_patch_buffer_queue`, `C25_patch_buffer` |
| C26 | PatchBufferFixed is a bounded FIFO | proved | `C26_patch_buffer_fixed` |
| C27 | Both ends of a patch link agree on steps | proved | `C27_patch_link`, `C27_no_exception` |
| C28 | Parallel writer scheduling | proved | `C28_writer_calls` |
| C29 | Steerer scheduling | proved | `C29_steerer_calls` |
| C30 | Serial simulator event protocol | proved | `C30_serial_events`, `C30_serial_ended` |
| C31 | Hierarchical simulator event loop | proved | `C31_events` |
| C32 | Initial load distribution is complete | proved | `C32_initial_weights` |
| C33 | OozeBalancer preserves the total workload | proved | `C33_ooze_preserves_sum`, `C33_optimal_is_even` |
| C34 | Bias and random balancers preserve the total workload | proved | `C34_bias`, `C34_bias_ooze`, `C34_random` |
| C35 | Grid reads back what was written | proved | `C35_grid_reads_back` |
| C36 | DisplacedGrid reads back what was written | proved | `C36_displaced_reads_back`, `C36_places_distinct` |
| C37 | Region transfer between grids | proved | `C37_region_transfer`, `C37_grid_transfer` |
| C38 | Grid comparison distinguishes different grids | proved | `C38_grid_equality`, `C38_view_equality` |
| C39 | SELL-C-sigma container represents the sparse matrix | proved | `C39_sell_rows`, `C39_get_row`, `C39_get_row_unsorted` |
| C40 | Reordering unstructured grid is transparent | proved | `C40_reordering_transparent` |
| C41 | ContainerCell is a bounded ordered map | proved | `C41_container_cell`, `C41_full_container` |
| C42 | FixedArray is a bounded sequence | proved | `C42_fixed_array`, `C42_make`, `C42_plus`, `C42_equality` |
| C43 | Region based adjacency stores exactly the inserted edges | proved | `C43_adjacency`, `C43_make_adjacency` |
| C44 | Optimised update path equals the naive path | proved | `C44_neighborhoods`, `C44_grid_neighborhoods`, `C44_paths_agree` |
| C45 | Stencil tables enumerate the stencil | proved | `C45_volume`, `C45_tables`, `C45_offsets` |
| C46 | Optimisation parameters stay in their domain | proved | `C46_domain`, `C46_grid_points` |
| C47 | Pattern search returns the best point it evaluated | proved | `C47_returns_best`, `C47_terminates`, `C47_step_widths`, `C47_stops_at_minimum` |
| C48 | Tokenizing strings | proved | `C48_tokenize`, `C48_join` |
| C49 | Piecewise runs cover the original simulation | proved | `C49_max_steps` |
| C50 | Particles are neither lost nor duplicated | proved | `C50_no_loss`, `C50_simulation`, `C50_tiles` |
| C51 | Collecting writer assembles the global grid | proved | `C51_delivers`, `C51_no_deadlock` |
| C52 | Update functor honours source and target offsets | proved | `C52_updates`, `C52_tranches` |
| C53 | Iterating a degenerate box terminates | refuted | `C53_degenerate_box_refuted` |
| C54 | streakIteratorOnOrAfter finds the successor streak (3D) | refuted | `C54_on_or_after_3d_refuted` |
| C55 | expandWithAdjacency follows the adjacency relation | proved | `C55_expand_adjacency` |
| C56 | Checkerboarding in 3D with many nodes | refuted | `C56_checkerboarding_3d_refuted` |
| C57 | Recursive bisection with zero weights | refuted | `C57_bisection_zero_weight_refuted` |
| C58 | Recursive bisection in 3D | refuted | `C58_bisection_3d_refuted` |
| C59 | H-indexing partition covers stretched boxes | refuted | `C59_hindexing_stretched_refuted` |
| C60 | Kernel of unstructured grids with region-wise adjacency | refuted | `C60_partial_adjacency_refuted` |
| C61 | Ghost zones of areas not starting at the origin | refuted | `C61_area_origin_refuted` |
| C62 | Late requests of patch buffers | refuted | `C62_late_request_refuted` |
| C63 | Directed graphs and wide ghost zones | refuted | `C63_directed_graph_refuted` |
| C64 | Grid between synchronisation points | refuted | `C64_grid_between_syncs_refuted` |
| C65 | Writers learn of the end of a serial simulation | refuted | `C65_writer_end_refuted` |
| C66 | Serial and parallel simulations call steerers alike | refuted | `C66_steerer_calls_differ_refuted` |
| C67 | HiParSimulator may be stepped beyond its end | refuted | `C67_step_after_end_refuted` |
| C68 | ParallelWriters know the domain after load balancing | refuted | `C68_writer_region_after_balancing_refuted` |
| C69 | StripingSimulator::run() starts afresh | refuted | `C69_run_after_step_refuted` |
| C70 | Streak access of a topologically correct DisplacedGrid obeys the topology | refuted | `C70_streak_wrap_refuted` |
| C71 | Grid comparison tells shapes apart | refuted | `C71_grid_shape_refuted` |
| C72 | A Grid copied from another grid holds its cells | proved | `C72_grid_copy` |
| C73 | getRow of the sparse matrix container for SIGMA > 1 | refuted | `C73_get_row_sigma_refuted` |
| C74 | Sparse matrix containers can be initialized repeatedly | refuted | `C74_reinit_refuted` |
| C75 | setWeights keeps the edge cell | refuted | `C75_edge_lost_refuted` |
| C76 | setWeights keeps the other matrices | refuted | `C76_matrices_lost_refuted` |
| C77 | Neighborhoods of the reordering grid | proved | `C77_neighborhood` |
| C78 | Remapped regions | proved | `C78_remap`, `C78_expand_chunks` |
| C79 | FixedArray can be concatenated with itself | refuted | `C79_self_concat_refuted`, `C79_self_concat_throws` |
| C80 | ContainerCell may be handed its own cells | refuted | `C80_insert_own_cell_refuted` |
| C81 | VonNeumann<2, 2> enumerates its stencil | refuted | `C81_von_neumann_table_refuted` |
| C82 | OffsetHelper for larger von Neumann stencils in 3D | refuted | `C82_von_neumann_offset_refuted` |
| C83 | Source offsets with fixed coordinates | refuted | `C83_source_offset_refuted` |
| C84 | Fine-grained parallelism at negative coordinates | refuted | `C84_tranches_refuted` |
| C85 | Assigning discrete parameters | refuted | `C85_discrete_set_refuted` |
| C86 | Granularities of intervals | refuted | `C86_granularity_refuted` |
| C87 | Grid points of double intervals | refuted | `C87_double_grid_points_refuted` |
| C88 | Upper bounds of double intervals | refuted | `C88_double_domain_refuted` |
| C89 | Pattern search stops at local optima only | refuted | `C89_stops_early_refuted` |
| C90 | New proxies report the original step count | refuted | `C90_new_proxy_refuted` |
| C91 | Particles on small tori | refuted | `C91_small_torus_refuted` |
| C92 | Particles at double coordinates | refuted | `C92_double_gaps_refuted` |
| C93 | Grid of a node after steering | refuted | `C93_steered_grid_refuted` |
| C94 | Updates of unstructured grids present each cell exactly its matrix row | proved | `C94_update`, `C94_vectorised_update` |
| C95 | The loop peeler stays within its streak | refuted | `C95_short_streak_refuted` |
| C96 | Advancing an UnstructuredNeighborhood by += i presents the row i positions further on | refuted | `C96_hood_add_refuted` |
| C97 | A checkpoint restores the grid with any number of processes | proved | `C97_restart`, `C97_file_layout` |
| C98 | Regions beyond the borders of a torus are read correctly | refuted | `C98_wrapped_streak_refuted` |
| C99 | Checkpoints don't depend on padding in the cells' datatype | refuted | `C99_gaps_refuted` |
| C100 | BOVWriter and SerialBOVWriter write the members of all cells in order | proved | `C100_parallel_bov`, `C100_serial_bov`, `C100_same_file` |
| C101 | BOVWriter writes all components of array members | refuted | `C101_array_members_refuted` |
| C102 | MeshlessAdapter::search finds exactly the close vertices | proved | `C102_search` |
| C103 | search also holds in floating point | refuted | `C103_doubles_refuted` |
| C104 | findOptimumBoxSize yields a valid box size or throws | proved | `C104_optimum_box_size` |
| C105 | findOptimumBoxSize copes with any graph | refuted | `C105_no_edges_refuted` |
| C106 | findOptimumBoxSize returns a box size if there's a valid one | refuted | `C106_missed_refuted` |
| C107 | SoAGrid reads back what was written | proved | `C107_soa_reads_back`, `C107_writes_later`, `C107_resize`, `C107_sizes` |
| C108 | SoAGrid transfers regions | proved | `C108_region_transfer`, `C108_short_buffer`, `C108_implementation` |
| C109 | Updates of SoAGrid obey the topology | proved | `C109_soa_updates` |
| C110 | SoAGrid transfers regions from another period | refuted | `C110_period_refuted` |
| C111 | Updates of SoAGrid with wide stencils on a torus | refuted | `C111_wide_stencil_refuted` |
| C112 | Updates of SoAGrid in parts of spaces with mixed topology | refuted | `C112_mixed_refuted` |
| C113 | Updates of SoAGrid with offsets in a space which doesn't wrap | refuted | `C113_offset_refuted` |
| C114 | Small 3D grids can be stored | refuted | `C114_flat_layers_refuted` |
| C115 | updateLineX() may take its parameters by value | refuted | `C115_by_value_refuted` |
| C116 | saveRegionImplementation() of any SoAGrid | refuted | `C116_padding_refuted` |
| C117 | HPXDataflowSimulator computes synchronous rounds | proved | `C117_cells`, `C117_updates`, `C117_results`, `C117_exceptions` |
| C118 | HPXDataflowSimulator terminates without deadlock | proved | `C118_progress`, `C118_terminates`, `C118_completes` |
| C119 | HPXDataflowSimulator with one-way neighbors | refuted | `C119_asymmetric_hangs`, `C119_asymmetric_refuted` |
| C120 | HPXDataflowSimulator with more localities than cells | refuted | `C120_empty_locality_refuted` |
| C121 | HPXDataflowSimulator honors startStep() | refuted | `C121_start_step_refuted` |
| C122 | HPXDataflowSimulator's continuations end before run() returns | refuted | `C122_late_signal_refuted` |
| C123 | HPXDataflowSimulator delivers several messages | refuted | `C123_two_messages_refuted` |
| C124 | Nodes find a place for each of their cells | proved | `C124_place`, `C124_read_back` |
| C125 | Nodes don't allocate more than necessary | proved | `C125_minimal` |
| C126 | Updates on a node's grid equal updates of the whole simulation area | proved | `C126_updates` |
| C127 | Cells in a Struct of Arrays keep their members | proved | `C127_accessor_stores_and_loads_cells`, `C127_memory_holds_cells` |
| C128 | saveMember extracts the selected member of each cell | proved | `C128_grid_save_member`, `C128_displaced_save_member`, `C128_soa_save_member` |
| C129 | loadMember assigns the selected member and nothing else | proved | `C129_grid_load_member`, `C129_displaced_load_member`, `C129_soa_load_member` |
| C130 | Members which were loaded can be saved again | proved | `C130_grid_load_save_member`, `C130_displaced_load_save_member`, `C130_soa_load_save_member` |
| C131 | Loading a member of a member keeps its siblings | refuted | `C131_siblings_refuted`, `C131_deep_siblings_refuted` |
| C132 | saveMember works for Regions across the boundary of a torus | refuted | `C132_across_the_boundary_refuted` |
| C133 | Simplex search ends with admissible parameters | proved | `C133_simplex_search` |
| C134 | Simplex search never loses ground | proved | `C134_never_worse` |
| C135 | Simplex search returns the best parameters it has evaluated | refuted | `C135_best_evaluated_refuted` |
| C136 | Simplex search never loses ground, whatever the granularity | refuted | `C136_irregular_extent_refuted` |
| C137 | Simplex search never loses ground for negative fitness | refuted | `C137_negative_fitness_refuted` |
| C138 | ConvexPolytope is the intersection of what was inserted | proved | `C138_polytope`, `C138_limits` |
| C139 | ConvexPolytope yields Voronoi cells | proved | `C139_voronoi_cell`, `C139_voronoi_neighbors` |
| C140 | updateGeometryData() never throws | proved | `C140_no_exception`, `C140_extents` |
| C141 | ConvexPolytope heeds all points | refuted | `C141_skipped_after_update_refuted`, `C141_skipped_outside_refuted` |
| C142 | boundingBox() contains the polytope | refuted | `C142_bounding_box_refuted` |
| C143 | VoronoiMesher tells cells their neighbors | refuted | `C143_neighbor_ids_refuted`, `C143_own_ids` |
| C144 | UnstructuredGridMesher places neighbors in adjacent cells | proved | `C144_mesher`, `C144_cells` |
| C145 | UnstructuredGridMesher places neighbors in adjacent cells (double precision) | refuted | `C145_doubles_refuted` |
| C146 | UnstructuredGridMesher accepts degenerate meshes | refuted | `C146_flat_refuted`, `C146_empty_refuted` |
| C147 | MultiContainerCell updates are synchronous | proved | `C147_lookup`, `C147_view`, `C147_update` |
| C148 | Meshes simulated by ContainerCells | proved | `C148_step`, `C148_mesh` |
| C149 | Spawned particles aren't updated in the step they're spawned in | refuted | `C149_spawned_later_refuted` |
| C150 | CUDASimulator computes what a synchronous simulation does | proved | `C150_launch`, `C150_run` |
| C151 | CUDASimulator stays within its arrays | refuted | `C151_overrun`, `C151_refuted` |
| C152 | Steerers take effect in the CUDASimulator | refuted | `C152_ignored`, `C152_refuted` |
| C153 | CUDASimulator updates Struct of Arrays cells | refuted | `C153_soa_refuted` |
| C154 | updateCUDA() is called for all cells | refuted | `C154_separate_refuted` |
| C155 | CUDASimulator supports stencils with a larger radius | refuted | `C155_radius_refuted` |
| C156 | step() of a fresh CUDASimulator | refuted | `C156_step_refuted` |
| C157 | Threads in UpdateFunctor neither race nor alter results | proved | `C157_tasks`, `C157_any_schedule`, `C157_race_free` |
| C158 | SerialSimulator and OpenMPSimulator compute the cellular automaton's generations | proved | `C158_run` |
| C159 | Steering, and the number of threads can't be observed | proved | `C159_refines`, `C159_threads` |
| C160 | The edge cell as set by a Steerer lasts | refuted | `C160_edge_refuted` |
| C161 | run() can be repeated | proved | `C161_rerun` |
| C162 | run() can be repeated with cells which keep members | refuted | `C162_rerun_refuted` |
| C163 | A Color has the components it was made of | proved | `C163_channels`, `C163_equal` |
| C164 | Components of a Color don't affect each other | refuted | `C164_overflow_refuted` |
| C165 | Palette interpolates between the colors added | proved | `C165_palette`, `C165_integers` |
| C166 | Palette returns the color added for a key when keys are doubles | refuted | `C166_doubles_refuted` |
| C167 | QuickPalette maps its range to a color ramp | proved | `C167_quick_palette` |
| C168 | QuickPalette handles ranges with a single value | refuted | `C168_empty_range_refuted` |
| C169 | Drawing into, slicing and pasting Images | proved | `C169_fill`, `C169_slice`, `C169_paste` |
| C170 | Plotter shows the right cell in each pixel | proved | `C170_viewport` |
| C171 | Plotter for viewports with negative origin | refuted | `C171_negative_refuted` |
| C172 | PPM files show the grid | proved | `C172_ppm`, `C172_names` |
| C173 | PPM files of grids which don't start at the origin | refuted | `C173_displaced_refuted` |
| C174 | CUDAGrids hold what was stored, and regions survive the transfer to and from the device | proved | `C174_reads_back`, `C174_region_transfer`, `C174_save_to_host`, `C174_load_from_host`, `C174_regions_in_box` |
| C175 | CUDAGrids behave like DisplacedGrids | refuted | `C175_wrap_refuted`, `C175_seam_refuted`, `C175_edge_refuted` |
| C176 | The CUDAStepper's kernel updates a region's cells | proved | `C176_kernel_blocks`, `C176_kernel` |
| C177 | The CUDAStepper's kernel updates each cell of a region once | refuted | `C177_large_regions_skipped`, `C177_large_regions_refuted`, `C177_accumulating_refuted` |
| C178 | Simulations by a single CUDAStepper agree with the serial simulation | proved | `C178_single_node`, `C178_regular_grid` |
| C179 | Simulations by several CUDASteppers agree with the serial simulation | refuted | `C179_two_nodes_refuted` |
| C180 | AutoTuningSimulator::run() conducts the simulation | refuted | `C180_run_refuted` |
| C181 | SimulationFactory: evaluating parameters for the first time | proved | `C181_first_use` |
| C182 | SimulationFactory: evaluating parameters more than once | refuted | `C182_second_use_refuted`, `C182_optimizers_refuted` |
| C183 | AutoTuningSimulator: the number of steps for tests is found | proved | `C183_normalize` |
| C184 | AutoTuningSimulator: the fittest simulation is chosen | refuted | `C184_run_refuted` |
| C185 | Chronometer: intervals are the time spent | proved | `C185_intervals`, `C185_ratio` |
| C186 | renderDuration() is precise | proved | `C186_render` |
| C187 | renderDuration() is precise, out of range | refuted | `C187_render_refuted` |
| C188 | TracingWriter: forecasts are right | proved | `C188_forecasts`, `C188_parallel` |
| C189 | TracingWriter: forecasts after a restart | refuted | `C189_restart_refuted` |
| C190 | TracingWriter: default parameters and large grids | refuted | `C190_range_refuted` |
| C191 | SCOTCH partitions are what SCOTCH decided | proved | `C191_scotch` |
| C192 | SCOTCH partitions read only what was assigned | refuted | `C192_overread_refuted` |
| C193 | PTScotchUnstructuredPartition is what SCOTCH decided | proved | `C193_unstructured` |
| C194 | PTScotchUnstructuredPartition heeds weights | refuted | `C194_weights_refuted` |
| C195 | DistributedPTScotchUnstructuredPartition: slices are disjoint and complete | proved | `C195_slices` |
| C196 | DistributedPTScotchUnstructuredPartition: slices of large grids | refuted | `C196_slices_refuted` |
| C197 | DistributedPTScotchUnstructuredPartition: the exchange of fragments ends well | proved | `C197_exchange` |
| C198 | DistributedPTScotchUnstructuredPartition is what PT-SCOTCH decided | proved | `C198_partition` |
| C199 | HPXPatchLink: halos are matched with time steps, whatever the order of arrival | proved | `C199_hpx_link` |
| C200 | HPXStepper: all halos of a step are fetched concurrently, the result is unique | proved | `C200_notify` |
| C201 | HPXReceiver::allGather returns the data of all ranks in order | proved | `C201_all_gather` |
| C202 | Simulations on top of HPX equal the serial simulation | proved | `C202_hpx_equals_serial`, `C202_hpx_final_grid` |
| C203 | Simulations on top of HPX don't deadlock | proved | `C203_hpx_no_deadlock` |
| C204 | Several steerers on top of HPX act in the order in which they were added | refuted | `C204_concurrent_steerers_refuted` |
| C205 | LoadBalancer::initialWeights distributes all items despite rounding | proved | `C205_initial_weights` |
| C206 | HpxSimulator: each update group is created by exactly one locality | proved | `C206_locality_indices` |
| C207 | HiParSimulator: complete simulations | proved | `C207_hipar_simulation` |
| C208 | HpxSimulator: complete simulations | proved | `C208_hpx_simulation` |
| C209 | CacheBlockingSimulator: wavefronts cover the grid, frames grow by one cell per stage | proved | `C209_frames`, `C209_wavefronts` |
| C210 | CacheBlockingSimulator: time steps | proved | `C210_steps`, `C210_ends_in_time` |
| C211 | CacheBlockingSimulator computes what SerialSimulator computes | refuted | `C211_plane_partial`, `C211_planes_refuted`, `C211_pipeline_refuted`, `C211_long_pipeline_refuted`, `C211_end_refuted` |
| C212 | RecursiveBisectionPartition in double precision | proved | `C212_cuts`, `C212_boxes`, `C212_bisection`, `C212_bisection_upto`, `C212_suits` |
| C213 | RecursiveBisectionPartition cuts at the nearest position | refuted | `C213_exact_cut_refuted` |
| C214 | SiloWriter: unstructured meshes | proved | `C214_mesh` |
| C215 | SiloWriter: point meshes | proved | `C215_points` |
| C216 | SiloWriter: regular grids | proved | `C216_grid` |
| C217 | SiloWriter: file names | proved | `C217_names` |
| C218 | SiloWriter works for all grids and selectors | refuted | `C218_empty_refuted`, `C218_dangling_refuted` |
| C219 | ParallelMemoryWriter: every node holds the whole grid | proved | `C219_copies` |
| C220 | ParallelMemoryWriter: no deadlock | proved | `C220_no_deadlock` |
| C221 | MPI datatypes of classes | proved | `C221_datatype` |
| C222 | MPI datatypes of the library's classes | proved | `C222_library` |
| C223 | MPI datatypes of other classes | refuted | `C223_virtual_refuted`, `C223_unregistered_refuted` |
| C224 | RandomBalancer in double precision | proved | `C224_random_double` |
| C225 | RandomBalancer for all totals and all draws | refuted | `C225_zero_refuted`, `C225_total_refuted` |
| C226 | OozeBalancer doesn't throw | refuted | `C226_ooze_double_refuted` |
| C227 | OozeBalancer in double precision | proved | `C227_ooze_defined` |
| C228 | Quotients rounded up in double precision | proved | `C228_blocks`, `C228_plotter` |
| C229 | Kernels have one thread per cell | proved | `C229_launches` |
| C230 | CUDASoAGrid holds what is written to it | proved | `C230_cuda_reads_back`, `C230_default_sizes`, `C230_cuda_same` |
| C231 | CUDASoAGrids with many layers | refuted | `C231_too_many_blocks_refuted` |
| C232 | Broadcasting a cell on GPUs | refuted | `C232_broadcast_single`, `C232_broadcast_refuted` |
| C233 | Array members are copied from and to GPUs as on the host | proved | `C233_array_out`, `C233_array_in` |
| C234 | Array members of parts of a grid on GPUs | refuted | `C234_stride_refuted` |
| C235 | Copying no array member at all | refuted | `C235_empty_refuted` |
| C236 | Members are copied from and to GPUs as on the host | proved | `C236_member_in`, `C236_member_out` |
| C237 | Swapping soa_grids of the same height and depth | proved | `C237_swap` |
| C238 | Swapping soa_grids | refuted | `C238_swap_refuted` |
| C239 | Copies of soa_grids | proved | `C239_copies` |
| C240 | soa_vector is a sequence | proved | `C240_vector` |
| C241 | Reserving less than there is | refuted | `C241_reserve_refuted` |
| C242 | Copies of soa_vectors can grow | refuted | `C242_copy_refuted` |
| C243 | Text files of ASCIIWriter | proved | `C243_ascii` |
| C244 | Text files of displaced grids | refuted | `C244_displaced_refuted` |
| C245 | Ghost zones suffice for stencils of any radius | refuted | `C245_radius_refuted` |
| C246 | soa_array behaves like a list of limited capacity | proved | `C246_construction`, `C246_conversion`, `C246_operations` |
| C247 | soa_array's constructor rejects more elements than the capacity | refuted | `C247_construction_refuted` |

### Refuted properties (defects of the code)

* C07 Region::expandWithTopology respects the topology: Widths up to the smallest extent; the refuted theorem shows that this limit is needed.
* C11 Topology normalisation: Coordinates at most one period away; the refuted theorem shows that the limit is needed.
* C53 Iterating a degenerate box terminates: Refuted: iterating such a box does not terminate.
* C54 streakIteratorOnOrAfter finds the successor streak (3D): Refuted: in 3D the search may return an iterator which points to a streak that is not in the Region.
* C56 Checkerboarding in 3D with many nodes: Refuted: inserting a box with zero y-extent does not end.
* C57 Recursive bisection with zero weights: Refuted: unbounded recursion.
* C58 Recursive bisection in 3D: Refuted: inserting a box with zero y-extent does not end.
* C59 H-indexing partition covers stretched boxes: Refuted: digDownTrivial ignores the remainder for the cursor.
* C60 Kernel of unstructured grids with region-wise adjacency: Refuted: the surface is expanded by w steps with the adjacency of its own nodes only.
* C61 Ghost zones of areas not starting at the origin: Refuted: expandWithTopology clips to 0..dimensions.
* C62 Late requests of patch buffers: Refuted: steps are kept in a sorted set, patches in a queue.
* C63 Directed graphs and wide ghost zones: Refuted: updateGhost overwrites copies of foreign cells that are not restored; width 3.
* C64 Grid between synchronisation points: Refuted: the rim of the node's own region is stale between synchronisation points; width 3.
* C65 Writers learn of the end of a serial simulation: Refuted; holds for startStep < maxSteps without early end (C30).
* C66 Serial and parallel simulations call steerers alike: Refuted for first steps which are multiples of the period.
* C67 HiParSimulator may be stepped beyond its end: Refuted: undefined behaviour after the end; C31 covers all steps up to it.
* C68 ParallelWriters know the domain after load balancing: False: setRegion() is not called after redistributeGrid(). Witness: 6 rows, 3 nodes.
* C69 StripingSimulator::run() starts afresh: False: pending ghost zone messages of the earlier step are loaded into the new grid. Witness: 4 rows, 2 nodes, one step.
* C70 Streak access of a topologically correct DisplacedGrid obeys the topology: False: Streak access doesn't normalize coordinates.
* C71 Grid comparison tells shapes apart: False: the comparison ignores the dimensions, and for empty grids also the edge cell.
* C73 getRow of the sparse matrix container for SIGMA > 1: False: getRow addresses rows by position after sorting.
* C74 Sparse matrix containers can be initialized repeatedly: False for SIGMA > 1: the old row order is used to place entries.
* C75 setWeights keeps the edge cell: False: the new delegate gets a default constructed edge cell.
* C76 setWeights keeps the other matrices: False: the new delegate starts with empty matrices.
* C79 FixedArray can be concatenated with itself: False: the loop's bound grows with the array, so a += a always throws unless a is empty. What holds for different operands is C42.
* C80 ContainerCell may be handed its own cells: False: cells are moved before the reference is read. What holds for cells passed by value is C41.
* C81 VonNeumann<2, 2> enumerates its stencil: Refuted: index 8 is missing in the table of VonNeumann<2, 2>.
* C82 OffsetHelper for larger von Neumann stencils in 3D: Refuted for VonNeumann<3, 2>; the valid range is part of C45.
* C83 Source offsets with fixed coordinates: refuted: line pointers are assembled for the undisplaced streak
* C84 Fine-grained parallelism at negative coordinates: refuted: operator% of a negative x is not positive, the first tranche then exceeds the streak
* C85 Assigning discrete parameters: refuted: DiscreteSet::setValue ignores its argument
* C86 Granularities of intervals: refuted for granularity 0 and for granularities larger than the interval; the valid range is C46
* C87 Grid points of double intervals: refuted with IEEE doubles (Coq.Floats.SpecFloat); exact arithmetic is C46
* C88 Upper bounds of double intervals: refuted with IEEE doubles (Coq.Floats.SpecFloat); exact arithmetic is C46
* C89 Pattern search stops at local optima only: refuted: shortened moves at the border
* C90 New proxies report the original step count: refuted: the constructor does not subtract the start step; the valid range is C49
* C91 Particles on small tori: refuted for a torus of two cells; the valid range is C50
* C92 Particles at double coordinates: refuted with IEEE doubles (Coq.Floats.SpecFloat); exact arithmetic is C50
* C93 Grid of a node after steering: refuted; what does hold is in C21
* C95 The loop peeler stays within its streak: False: a streak which lies within one chunk and doesn't start at its beginning is extended to the end of the chunk.
* C96 Advancing an UnstructuredNeighborhood by += i presents the row i positions further on: False: operator+= changes the index, but neither the current chunk nor the offset therein.
* C98 Regions beyond the borders of a torus are read correctly: False: the origin of a streak is normalised, but the streak is read as a whole, so cells of the next row are returned. The range within the dimensions is C97.
* C99 Checkpoints don't depend on padding in the cells' datatype: False: offsets are computed from the extent, but MPI-IO stores only the size. Datatypes without gaps are C97.
* C101 BOVWriter writes all components of array members: False: MPI_File_write is given the number of cells, but the datatype of a component.
* C103 search also holds in floating point: False: as the reciprocal of the box size is rounded, vertices closer than the box size may be two cells apart. Exact arithmetic is C102.
* C105 findOptimumBoxSize copes with any graph: False: without edges (or if all neighbors coincide) the box size is halved until resetBoxSize throws. What holds in general is C104.
* C106 findOptimumBoxSize returns a box size if there's a valid one: False: vertices in the overhang at the far boundary may make both candidates invalid, although the initial box size was valid. What holds in general is C104.
* C110 SoAGrid transfers regions from another period: False: the coordinates aren't normalized. Regions inside of the box are C108.
* C111 Updates of SoAGrid with wide stencils on a torus: False: only the outermost cells are corrected. Radius 1 (any radius on a cube) is C109.
* C112 Updates of SoAGrid in parts of spaces with mixed topology: False: the padding is taken for part of the space. Uniform topologies, and mixed ones for whole spaces, are C109.
* C113 Updates of SoAGrid with offsets in a space which doesn't wrap: False: the target's origin is normalized with padding if the source lies in the space. Equal displacement is C109.
* C114 Small 3D grids can be stored: False: with one row per layer the constructor throws. What does work is C107.
* C115 updateLineX() may take its parameters by value: False on a torus: the accessor for the new grid doesn't advance between calls. By reference is C109.
* C116 saveRegionImplementation() of any SoAGrid: False: the padding is ignored. 1D tori are C108.
* C119 HPXDataflowSimulator with one-way neighbors: False: a cell waits for its neighbor's receiver, which only exists if the neighbor lists the cell, too. Proved for all one-way neighbors. Symmetric graphs are C118.
* C120 HPXDataflowSimulator with more localities than cells: False: nextTimeStepFutures[0] doesn't exist. Localities with cells are C117, C118.
* C121 HPXDataflowSimulator honors startStep(): False: always starts with step 0. What happens is C117.
* C122 HPXDataflowSimulator's continuations end before run() returns: False: the continuation refers to the semaphore, nobody waits for it. By then all updates of the locality are done (C117_exceptions).
* C123 HPXDataflowSimulator delivers several messages: False: the receive buffer holds one message per step. At most one message is C117.
* C131 Loading a member of a member keeps its siblings: False: Grid and DisplacedGrid reset the siblings to default values, so does SoAGrid from the second level on. One level on SoAGrid is right (C129).
* C132 saveMember works for Regions across the boundary of a torus: False: other cells are saved. Regions within the box: C128.
* C135 Simplex search returns the best parameters it has evaluated: False: the point of expansion replaces a better point of reflection. What holds: C133, C134.
* C136 Simplex search never loses ground, whatever the granularity: False: a total contraction moves the best vertex. Regular extents: C134.
* C137 Simplex search never loses ground for negative fitness: False: maxInSimplex takes vertex 0 for the best one. Non-negative fitness: C134.
* C141 ConvexPolytope heeds all points: False: operator<< ignores points to the left of or below the bounding box, though their bisectors may cut the polytope. What holds: C139.
* C142 boundingBox() contains the polytope: False: origin and dimensions are truncated. What holds: C140.
* C143 VoronoiMesher tells cells their neighbors: False: the cell's own ID is passed for all neighbors. What holds for the ConvexPolytope underneath: C139.
* C145 UnstructuredGridMesher places neighbors in adjacent cells (double precision): False: the distance of two neighbors may be rounded down, hence exceed the cells' extent. What holds: C144.
* C146 UnstructuredGridMesher accepts degenerate meshes: False: the extent of the grid is divided by the cells' extent, which is 0. What holds: C144.
* C149 Spawned particles aren't updated in the step they're spawned in: False: the following containers' updateCargo() determines its end afterwards. What holds: C147.
* C151 CUDASimulator stays within its arrays: False: C151_overrun shows that each such launch writes beyond the end, in all interleavings. What holds: C150.
* C152 Steerers take effect in the CUDASimulator: False: the host's grid is never copied to the device after the start of run(); C152_ignored shows that cells written by steerers never matter.
* C153 CUDASimulator updates Struct of Arrays cells: False: nanoStepImpl() is empty for SoA.
* C154 updateCUDA() is called for all cells: False: kernel2D updates the last row of a periodic grid by update(). What holds: C150.
* C155 CUDASimulator supports stencils with a larger radius: False: padding and corrections are made for a radius of 1. What holds: C150.
* C156 step() of a fresh CUDASimulator: False: only run() calls the initializer and fills the device's arrays.
* C160 The edge cell as set by a Steerer lasts: False: setEdge() affects just one of the two grids, so the edge cell alternates. What holds: C159, whose reference simulation has two edge cells.
* C162 run() can be repeated with cells which keep members: False: run() calls the Initializer for the current grid only, the other one keeps the members of the former run. What holds: C159, C161.
* C164 Components of a Color don't affect each other: False: components are shifted and added, not clamped. What holds: C163.
* C166 Palette returns the color added for a key when keys are doubles: False: with keys 0 and 0.1 the red component 43 turns into 42, as rounding errors precede truncation. What holds: C165.
* C168 QuickPalette handles ranges with a single value: False: 0 times infinity is not a number, which is then converted to int. What holds: C167.
* C171 Plotter for viewports with negative origin: False: coordinates aren't clipped at 0, so that the edge cell (or cells from the opposite side) are shown. What holds: C170.
* C173 PPM files of grids which don't start at the origin: False: coordinates start at 0 instead of the origin of the bounding box. What holds: C172.
* C175 CUDAGrids behave like DisplacedGrids: False: grids which aren't topologically correct don't wrap on a torus; rows which cross a seam are copied en bloc, i.e. with the wrong cells; writing to a Streak outside changes the edge cell on the device, but not the one returned by getEdge(). What holds: C174.
* C177 The CUDAStepper's kernel updates each cell of a region once: False: the launch has 200 blocks and each of them handles one cell (all of its 512 threads the same one), so that further cells are left out, and updates take place 512 times. What holds: C176.
* C179 Simulations by several CUDASteppers agree with the serial simulation: False: the CUDAStepper lacks the VanillaStepper's buffers for rim and kernel. updateGhost() takes the rim from the device, where it has not been updated, and overwrites the kernel on the device with outdated cells from the host. What holds: C178.
* C180 AutoTuningSimulator::run() conducts the simulation: False in all cases: normalizeSteps() looks up "SerialSimulation", but the factory is registered as "SerialSimulator", so that run() throws std::invalid_argument before anything is simulated.
* C182 SimulationFactory: evaluating parameters more than once: False: the factory hands its own writers to the simulator, which deletes them (fixme in the code). The second evaluation uses deleted objects. What holds: C181.
* C184 AutoTuningSimulator: the fittest simulation is chosen: False: fitness is the negative duration, but the search for the maximum starts with the smallest positive double, so that no simulation is ever chosen and run() throws std::invalid_argument.
* C187 renderDuration() is precise, out of range: False: -90 s yields 00:-1:-30, -0.5 s yields 00:00:00, and 2^31 s can't be converted to int (undefined behaviour). What holds: C186.
* C189 TracingWriter: forecasts after a restart: False: lastStep is stored but never used; time elapsed since the restart is divided by the number of all steps. What holds: C188.
* C190 TracingWriter: default parameters and large grids: False: maxSteps - step wraps around, and the product of the grid's dimensions is an int. What holds: C188.
* C192 SCOTCH partitions read only what was assigned: False for each and every input: the loop condition evaluates indices[cellNbr]. What holds: C191, if that read yields any value.
* C194 PTScotchUnstructuredPartition heeds weights: False: SCOTCH_graphPart is called with the number of weights only. What holds: C193.
* C196 DistributedPTScotchUnstructuredPartition: slices of large grids: False: of 2^24 + 1 cells the last one isn't in any slice, and for 2^24 + 3 cells the last slice goes beyond the end. What holds: C195.
* C204 Several steerers on top of HPX act in the order in which they were added: False: HPXStepper asks all steerers' adapters concurrently, in no particular order; two complete runs of one simulation differ. Holds for commuting steerers, see C202.
* C211 CacheBlockingSimulator computes what SerialSimulator computes: Holds for grids of a single plane without pipelining, in simulations of any length. False otherwise: a frame's Z coordinate is added once more by the offsets, long pipelines read beyond the end of the vector of frames, the simulation may go beyond maxSteps, and writers miss all steps in between.
* C213 RecursiveBisectionPartition cuts at the nearest position: False: 7/10 of 45 cells is 31 instead of 32 as 0.7 is rounded down. What holds: C212.
* C218 SiloWriter works for all grids and selectors: False: &variableData[0] of an empty vector if the first cell contains no items; addSelector is accepted for models without regular grid, the file then lacks the mesh. What holds: C214 to C216.
* C223 MPI datatypes of other classes: False: displacements are relative to the first member, not to the object, so a vtable pointer shifts everything; trailing members which aren't registered make the datatype's extent too small for arrays. What holds: C221.
* C225 RandomBalancer for all totals and all draws: False: if all numbers drawn are 0 the balancer converts 0/0 to an integer; totals beyond 2^53 may be rounded up, then a negative remainder is converted to unsigned and 2^32 items are added. What holds: C224.
* C226 OozeBalancer doesn't throw: False: for weights 1, 1, 1 and relative loads 0.4, 0.2, 0.3 (weight 0.5) the balancer throws std::logic_error, as rounding errors make the equalized weights add up to 2. With exact arithmetic: C33.
* C231 CUDASoAGrids with many layers: False: for 65536 layers the launch fails, the error is not checked, and cells hold whatever the memory held. What holds: C230.
* C232 Broadcasting a cell on GPUs: False: the index is multiplied by the stride of 0, hence all threads set the first cell only.
* C234 Array members of parts of a grid on GPUs: False: distributeMemberArray() ignores the stride, and copyStreakOut() from host to device only copies the first num * ARITY elements, then reads beyond them. What holds: C233.
* C235 Copying no array member at all: False: a kernel with no blocks is launched, which CUDA rejects, hence checkForError() throws. What holds: C233.
* C238 Swapping soa_grids: False: my_dim_x is swapped three times, my_dim_y and my_dim_z are not, hence accesses leave the memory. What holds: C237.
* C241 Reserving less than there is: False: all elements are copied to the smaller memory, beyond its end. What holds: C240.
* C242 Copies of soa_vectors can grow: False: soa_grid's copy constructor doesn't initialise the extents, which push_back compares to the number of elements. What holds: C239, C240.
* C244 Text files of displaced grids: False: newlines are only written for coordinates which are zero, hence all rows of a grid which doesn't start at X = 0 share one line. What holds: C243.
* C245 Ghost zones suffice for stencils of any radius: False: regions are expanded by one cell per step, the stencil's radius isn't considered, neither are larger radii rejected. For a radius of one: C19, C20.
* C247 soa_array's constructor rejects more elements than the capacity: False: the constructor doesn't compare the number of elements to the capacity, the last members are written beyond the array's end. What holds: C246.

## 3. Trusted base

* The Coq 8.16.1 kernel (including `vm_compute`) and the standard library.
* The axioms printed by `Print Assumptions` beneath each theorem. With thirteen
  exceptions every property theorem is "Closed under the global context", i.e.
  depends on no axiom. The exceptions are `C195_slices`, `C198_partition`,
  `C205_initial_weights`, `C207_hipar_simulation`, `C208_hpx_simulation`,
  `C212_cuts`, `C212_boxes`, `C212_bisection`, `C212_suits`, `C224_random_double`, `C227_ooze_defined`,
  `C228_blocks` and `C228_plotter`
  (rounding is monotone and relative errors are small, which is proved by means of Flocq's
  theory of rounding on real numbers); they depend on the standard library's
  `ClassicalDedekindReals.sig_not_dec`, `ClassicalDedekindReals.sig_forall_dec`,
  `FunctionalExtensionality.functional_extensionality_dep` and
  `Classical_Prop.classic`. No axiom of another library is used.
* Faithfulness of the hand translation from C++. `std::upper_bound`,
  `std::lower_bound`, `std::vector`, `std::map`, `std::set`, `std::sort` are
  modelled by their specification. MPI is modelled as reliable FIFO channels
  per pair of nodes and tag.
* Not modelled at all: memory management, performance, the runtimes of CUDA,
  HPX and MPI (only what the code calls them for). Integer overflow is modelled
  only where a property mentions it; elsewhere integers are unbounded.

Simplifications per part (each is also stated in the comments of the model):

* Partitions: the rounding of cut positions in recursive bisection is a
  parameter `rnd` with sanity conditions, which C212 proves for the code's
  double precision (`round_double`); the square root used by
  checkerboarding is the parameter `limit`; the memo `triangleLengthCache` of
  the H-indexing curve is left out (the function it memoises is used).
* PartitionManager: the cache of regions is left out (regions are computed
  where they are looked up); the out-group entry is shown to be empty and then
  left out of the links.
* Patch links: payloads are of fixed size; MPI may or may not copy a message
  at the time of the send.
* Stepper: grids are total functions from coordinates to cells (C35-C37 justify
  this). Steerers change cells one by one, depending on step, event and
  coordinate only; they neither end the simulation nor use other cells. On
  directed graphs (non-symmetric neighbourhoods) runs without steerers only.
* Schedules: one writer or steerer at a time, the adapters are independent of
  each other; no overflow of step counters.
* Balancers (`BalancerModel`): doubles are exact rationals; random numbers are
  arbitrary. `RandomDoubleModel` and `OozeDoubleModel` repeat the two balancers
  which compute with doubles for any arithmetic, IEEE double precision in
  particular; integers other than `unsigned` remainders are unbounded there, the Mersenne Twister is
  a parameter.
* StripingSimulator: balanceLoad is one collective event; all nodes share one
  copy of the partition vector; steerers act cell by cell; writers have period
  1; `remapRegion` is the identity.
* Grids: vector-of-cells buffers only (no SoA, no Boost Serialization).
* HPXDataflowSimulator (`DataflowModel`): one configuration for all localities;
  an execution is any sequence of enabled events. Assumed of HPX: tasks,
  dataflow and continuations run once, after what they depend on; messages
  arrive once, in any order; a receive buffer holds one message per step (storing
  a second one raises, while HPX may as well lose it); `sliding_semaphore` waits
  until `upper - max_difference <= lower_limit`. An update's accesses to messages
  are single events. After an exception the model ends. Adjacency lists have no duplicates.
  Partitions, AGAS names, serialization and statistics aren't modelled.
* SimplexOptimizer (`SimplexModel`): the evaluator is a function of the
  parameters (no noise), theorems are about exact arithmetic; the model itself
  is generic in the arithmetic and in the values of Limits<double>. Vertices
  are values, as only temporary copies are assigned. Logging isn't modelled,
  nor are the arithmetic operators on vertices, which are unused.
* ConvexPolytope (`PolytopeModel`): 2D, exact arithmetic, squared lengths. The
  volume (random sampling) and getShape() aren't modelled. Of VoronoiMesher
  only the geometry of one cell is modelled, given the cells around it.
* UnstructuredGridMesher (`MesherModel`): integers are unbounded; dividing by zero
  and converting what isn't finite are undefined. The default constructor is left
  out.
* MultiContainerCell (`MultiModel`): the members' elements are of one type; what
  wouldn't compile is undefined. update() of an element is a tree of requests
  (reads, spawned particles, the final state or an exception), so it assigns to itself
  only once, at its end. Spawning into a std::vector which is being iterated over is
  undefined. Inserting into ContainerCells during updates isn't covered.
* CUDASimulator (`CudaModel`): updates of single cells are atomic steps of a
  thread; integers are unbounded (the code mixes int and unsigned, whose sums
  agree modulo 2^32); `ceil(1.0 * a / b)` is the exact ceiling (proved for 32 bit integers: C228). Calls of the
  CUDA runtime succeed, limits of blocks and grids are not modelled. The region
  of padding cells is the list of the box's coordinates without those of the
  initializer's box, which begins at the origin.
* CUDAGrid (`CudaGridModel`): calls of the CUDA runtime succeed; copying a
  cell's bytes copies the cell; members of cells aren't copied separately. Each
  thread's update of a cell is atomic. CUDARegion's buffer of coordinates is a
  list, and reading beyond its end is undefined.
* soa_vector (`FlatVectorModel`): one list of cells instead of an array per
  member, results of members' constructors are arbitrary, destructors are left
  out, `count * 1.2` is a parameter; reading another grid's data with a wrong
  stride is treated as undefined.
* ASCIIWriter (`AsciiModel`): tokens instead of characters; file names, steps
  and I/O errors are left out.
* soa_array (`FlatArrayModel`): values instead of bytes, members are equally
  large; sources of copies are other arrays. swap, iterators, destructors and
  code for GPUs are left out. Not yet tested against wrong programs.
* Filters for CUDA (`CudaFilterModel`): memory is a list of values rather than
  bytes, MEMBER and EXTERNAL are the same type, source and target don't
  overlap, indices don't overflow, cudaMalloc never fails and yields arbitrary values.
* CUDASoAGrid (`CudaSoAModel`): a thread is the list of its writes, all members
  of a cell at once; threads don't read what others write. Launches with more
  blocks along Y or Z than CUDA allows do nothing; the limit for X can't be
  exceeded by 32 bit integers. Other calls of the CUDA runtime succeed.
  Operations whose code is SoAGrid's are taken from `SoAModel`. `saveMember` and
  `loadMember` are left out.
* CUDAStepper (`CudaStepperModel`): grids are functions from coordinates to
  cells, on host and device; a kernel launch updates the first 200 cells of the
  region (C176_kernel_blocks), with the neighborhood of the grid's topology (the
  code wraps at the bounding box, which is the same for a node on its own).
* Autotuning (`AutotuneModel`): runs of simulators are recorded, not simulated;
  how long they take is an arbitrary function of the trace. Writers are
  identities which exist or not. Steerers and parallel writers are left out
  (the latter are never passed to a simulator). `addSteerer()` of the
  AutoTuningSimulator can't be instantiated (it drops a const).
* Measured times (`TraceModel`): clocks aren't modelled, all points in time are
  arguments; the texts of durations are modelled byte by byte, other numbers
  printed by TracingWriter aren't converted to text. `report()` and
  `renderISO()` are left out.
* SCOTCH (`ScotchModel`): the library is a function from the graph (and the
  weights, where they are passed on) to an array of parts; tables are lists,
  ints don't overflow, and what is found behind the end of the array of parts is
  a parameter (or undefined). Pointers to the tables and errors reported by the
  library aren't modelled.
* Distributed partitioning (`DistScotchModel`): a region is one message, although
  `sendRegion` sends the number of streaks first; messages between two ranks stay
  in order, and MPI decides whether it buffers a message or waits for the
  receiver. There are as many ranks as weights (otherwise the code would address
  ranks which don't exist, or wait for messages nobody sends). The optional
  pretty-printing of regions is left out.
* Links on top of HPX (`HpxLinkModel`): parcels sent by `hpx::apply` arrive at
  any time and in any order, but exactly once. `hpx::lcos::local::receive_buffer`
  is a map from steps to values, from which a value is taken once; a second value
  for the same step would be an exception. Continuations of futures are atomic,
  `when_all(...).get()` lets arrivals and continuations happen until none of the
  latter is left. Registering and finding receivers by name isn't modelled.
* Simulations on top of HPX (`HpxSimModel`): tasks of one notification run one
  after the other in any order, those of different update groups interleave;
  two steerers' adapters working on the same cells at the same time (a data
  race in the code) only show up as different orders. Constructors notify
  sequentially, as virtual functions of HPXStepper aren't called yet. Load
  balancing, naming and HPX's scheduler are not modelled.
* Silo files (`SiloModel`): an external value of a variable is one place of
  `variableData` (bytes: `SelectorModel`), positions are of any arithmetic,
  `&v[0]` of an empty vector is undefined unless a parameter says otherwise.
  Option lists, database types, errors of the library and the casts of the
  selectors for collections are left out. Grids start at the origin (C216).
* Parallel memory writer (`ParMemModel`): a Region and its cells are one
  message; asynchronous sends take the cells when they are posted, which is the
  same as the sender's cells don't change before `waitAll`; asynchronous
  receives complete before the node goes on (it may not observe them earlier).
  Calls skipped because of the period are left out.
* MPI datatypes (`TypemapModel`): layout as in the Itanium ABI (members in
  order, aligned to powers of two, no bit fields, base classes are members);
  type maps, extent and its rounding as in the MPI standard; sender and receiver
  have the same layout.
* Pictures (`ImageModel`): integers are unbounded except for the 32 bit of a
  Color; `ceil` of a quotient of doubles in Plotter is the exact one (C228); opening
  and writing files succeeds; an Image isn't pasted into itself; the filter
  CellToColor is the function from cells to Colors which it applies.
* Threads (`ThreadModel`): updating one cell is an atomic step, which
  C157_race_free justifies; the path for fixed coordinates assembles its
  pointers per cell rather than per Streak (same addresses). UpdateFunctor's
  loops with `schedule(static)` or `schedule(dynamic)` may execute tasks in any
  order. SerialSimulator is modelled for regular grids (DisplacedGrid) at the
  origin: `gridBox().origin` is ignored by the code as well. OpenMPSimulator's
  handleInput() and handleOutput() (openmpsimulator.h:77-107) aren't modelled
  since they hide non-virtual members of SerialSimulator and are never called.
  The Chronometer isn't modelled. Steerers share one memory and see the grid
  only; regions they're given are ignored.
* Selectors (`SelectorModel`): types are sizes, objects are sequences of bytes
  (trivially copyable members), user-defined filters are arbitrary functions on
  those. Type IDs, CUDA memory, the address of the edge cell and
  `saveMemberUnchecked` for other iterators are left out.
* OffsetHelper (`OffsetModel`): nothing left out; for unstructured topologies it
  is just the bounding box. The Stepper model itself works on total functions of
  coordinates; C124 and C126 show that a node's DisplacedGrid behaves like one.
* SoAGrid (`SoAModel`): memory is a list of cells per index, not one array per
  member; only the buffers of `saveRegion`/`loadRegion` distinguish members
  (abstract functions `part`, `assemble`). Unwritten memory has arbitrary values
  (`junk`), accesses outside of the arrays fail. The extents of the arrays are a
  parameter `sizes`, for which LibFlatArray's macros are instances.
  `updateLineX` updates cell by cell and accesses a list of fixed coordinates.
  Member access by selectors, CUDA, asymmetric callbacks and loop peeling are left out.
* MeshlessAdapter (`MeshlessModel`): numbers are exact rationals (C102, C104-C106)
  or IEEE doubles (C103). Ints are unbounded, so is the product compared to
  MAX_SIZE. `insert` only compiles for two dimensions, the model is for all.
  findAllPositions and reportFillLevels aren't modelled.
* Files (`FileModel`): a file maps offsets (unbounded) to bytes, unwritten ones
  are `None`. The default MPI-IO view stores the data of items densely. A
  datatype is its size, extent and a pair of functions to pack and unpack.
  Opening, closing and error handling are left out, as is the text header of BOV
  files. `grid.get`/`grid.set` are covered by C35/C36.
* Unstructured updates (`HoodModel`): what a cell computes is left open; an
  update is the index written plus the (column, weight) pairs presented. One
  matrix, streaks in order. The user's lambda for the loop peeler is the one
  from the unit test; vectors have C lanes.
* SELL-C-sigma: `std::sort` is any sorting function, `std::stable_sort` is an
  insertion sort, `lower_bound` the first element not less.
* Reordering grid: the mask is a list, `rowLengths` a function; pointer
  arithmetic beyond the end without dereference counts as harmless; the
  `updateStreak` of an end iterator is ignored.
* Arrays: ContainerCell's two arrays are moved one after the other; keys are
  integers.
* Adjacency: `Limits<int>::getMax()` is the parameter `MAX`, targets are below
  it; `std::sort` is a stable insertion sort.
* Stencils: template parameters are parameters, a compile error is `None`.
* Update functor: `updateLineX` is a loop over `update`; `update` is a pure
  function of the stencil's values and of the target's old content; threads
  are any sequential order of streaks or tranches; overload resolution is
  encoded by hand; only cell-wise grids.
* Parameters and optimiser: arithmetic is a parameter (exact rationals or
  SpecFloat); `int`/`long` are unbounded; the objective function is
  deterministic; parameter names are left out.
* Strings are lists of characters, `std::set` is an ascending list.
* VarStepInitializerProxy: only the step counters.
* Box cells: containers are lists with optional capacity; neighborhoods are
  maps to places; particles which insert other particles during `update()` are
  not covered; positions are exact rationals (C92 uses doubles).
* CollectingWriter: the region and the cells of a node form one message;
  channels are FIFO per node with capacity of at least one message (one is
  rendezvous); waiting is part of the step; the storage grid isn't
  topologically correct.

## 4. Tests of the theorems

`seeded/LOG.jsonl` records edits of the model which introduce realistic bugs,
with the theorems that fail to prove for each. They were run on copies of
`rocq/` outside of this repository.
