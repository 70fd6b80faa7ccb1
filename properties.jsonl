{"id": "C01", "title": "Region tracks exactly the inserted-minus-removed coordinates", "statement": "Start with an empty Region<DIM> and apply any sequence of insertions (operator<< of a Coord, Streak or CoordBox) and removals (operator>> of a Coord or Streak). Afterwards count(c) is 1 for precisely those coordinates c whose most recent mention was an insertion, and 0 for all others.", "quantifier": "every dimension, every finite history of insertions and removals, every streak start/end, every queried coordinate", "why_tests_cant": "The histories are unbounded and the flat offset tables behind the class can be in arbitrarily many shapes; a test only visits a few of them.", "anchors": ["src/libgeodecomp/geometry/region.h: Region::operator<<, Region::operator>>, Region::count", "src/libgeodecomp/geometry/region.h: RegionHelpers::RegionInsertHelper, RegionRemoveHelper, RegionLookupHelper"]}
{"id": "C02", "title": "Region equality is equality of coordinate sets", "statement": "Two Regions compare equal with operator== if and only if they contain the same coordinates, no matter in which order or with which overlapping streaks they were built; in particular streaks of a Region never overlap nor touch, and no empty rows are retained.", "quantifier": "every pair of histories of insertions/removals/set operations", "why_tests_cant": "Needs a canonical-form invariant over all histories; a test can only compare particular pairs.", "anchors": ["src/libgeodecomp/geometry/region.h: Region::operator==", "src/libgeodecomp/geometry/region.h: RegionInsertHelper::operator()", "src/libgeodecomp/geometry/region.h: RegionRemoveHelper::operator()"]}
{"id": "C03", "title": "Region set algebra", "statement": "For Regions a and b: a + b, a & b, a - b contain exactly the union, intersection and difference of the coordinates of a and b, and a += b, a &= b, a -= b leave a with exactly those sets; b is not changed.", "quantifier": "every pair of Regions reachable by any history, every dimension", "why_tests_cant": "Merging algorithms walk two sorted streak sequences of arbitrary length with arbitrary overlap patterns.", "anchors": ["src/libgeodecomp/geometry/region.h: operator+, operator&, operator-, operator+=, operator&=, operator-=", "src/libgeodecomp/geometry/region.h: merge2way, RegionIntersectHelper"]}
{"id": "C04", "title": "Region size, bounding box and emptiness", "statement": "size() is the number of contained coordinates, empty() holds iff no coordinate is contained, and boundingBox() is the smallest box containing all of them (the null box for the empty region), after any interleaving of mutations and queries (results are cached).", "quantifier": "every history mixing mutations and queries", "why_tests_cant": "A stale cache shows only for particular interleavings; minimality of the box quantifies over all coordinates.", "anchors": ["src/libgeodecomp/geometry/region.h: Region::size, boundingBox, empty, determineGeometry"]}
{"id": "C05", "title": "Region iteration is exact, ordered and duplicate free", "statement": "Walking a Region with begin()/end() yields every contained coordinate exactly once, in increasing lexicographic order (last dimension most significant); beginStreak()/endStreak() yield the same coordinates as maximal streaks; region[i] addresses the i-th streak of that walk.", "quantifier": "every Region, every dimension", "why_tests_cant": "Requires the iterator's multi-level offset bookkeeping to be right for every shape.", "anchors": ["src/libgeodecomp/geometry/region.h: Region::begin, end, beginStreak, endStreak, operator[]", "src/libgeodecomp/geometry/regionstreakiterator.h: RegionStreakIterator::operator++", "src/libgeodecomp/geometry/region.h: StreakIteratorInitBegin, StreakIteratorInitSingleOffset"]}
{"id": "C06", "title": "Region::expand is dilation by a cube", "statement": "region.expand(w) contains exactly those coordinates which differ from some coordinate of the region by at most w along every axis.", "quantifier": "every Region, every dimension, every width w >= 0", "why_tests_cant": "All widths and shapes; overlaps between dilated streaks are arbitrary.", "anchors": ["src/libgeodecomp/geometry/region.h: Region::expand, expandInOneDimension, merge3way"]}
{"id": "C07", "title": "Region::expandWithTopology respects the topology", "statement": "For a Region inside a box of the given dimensions and a width w not larger than any dimension, expandWithTopology(w, dims, topology) contains exactly the in-box coordinates to which some contained coordinate plus an offset of at most w per axis is normalised by the topology: wrapping axes wrap, non-wrapping axes clip.", "quantifier": "every Region within the box, every combination of wrapping/non-wrapping axes, every dimensions vector, every w up to the smallest dimension", "why_tests_cant": "Corner wrap-around in all axis combinations is an infinite family.", "anchors": ["src/libgeodecomp/geometry/region.h: Region::expandWithTopology, splitStreak, normalizeStreak, trimStreak", "src/libgeodecomp/geometry/topologies.h: Topology::normalize"]}
{"id": "C08", "title": "streakIteratorOnOrAfter finds the successor streak (1D, 2D)", "statement": "region.streakIteratorOnOrAfter(c) points at the first streak, in iteration order, whose origin is not smaller than c in lexicographic order (last dimension first); it is the end iterator if there is none. Iterating from it yields exactly the remaining streaks.", "quantifier": "every Region which a program can build, every coordinate c, dimensions 1 and 2", "why_tests_cant": "The search has separate code paths depending on which levels match; a bug hides behind particular shapes.", "anchors": ["src/libgeodecomp/geometry/region.h: Region::streakIteratorOnOrAfter"]}
{"id": "C09", "title": "Coordinate/linear index round trip", "statement": "For a grid of the given dimensions, mapping an in-bounds coordinate to its linear index and back is the identity, and the mapping is a bijection between the in-bounds coordinates and 0 .. product(dims)-1.", "quantifier": "every dimension 1..3, every positive dimensions vector, every coordinate/index in range", "why_tests_cant": "Infinite domain; aliasing of two coordinates corrupts simulations silently.", "anchors": ["src/libgeodecomp/geometry/coord.h: Coord::toIndex, Coord::indexToCoord, prod"]}
{"id": "C10", "title": "CoordBox iteration visits each coordinate exactly once", "statement": "Iterating a CoordBox (plain or streak-wise) visits each contained coordinate exactly once and terminates.", "quantifier": "every origin, every dimensions vector with positive extents (the last extent may be zero), every dimension", "why_tests_cant": "An infinite family of boxes; carries between the axes have to be right for each of them.", "anchors": ["src/libgeodecomp/geometry/coordbox.h: CoordBox::Iterator, CoordBox::StreakIterator, CoordBox::begin, CoordBox::beginStreak"]}
{"id": "C11", "title": "Topology normalisation", "statement": "Topology::normalize maps each coordinate which is at most one period outside of the box to the unique in-bounds representative if its only overhang is along wrapping axes, and otherwise flags it as out-of-bounds; in-bounds coordinates are fixed points; normalisation is idempotent.", "quantifier": "every wrap/no-wrap combination, every dimensions vector, every coordinate up to one period outside", "why_tests_cant": "Infinite domain with combinatorial axis cases.", "anchors": ["src/libgeodecomp/geometry/topologies.h: TopologiesHelpers::Topology::normalize, isOutOfBounds, wrapsAxis"]}
{"id": "C12", "title": "Striping partition is an exact cover", "statement": "For every list of node weights, the regions which StripingPartition assigns to the nodes are pairwise disjoint, node i gets exactly weights[i] coordinates, all are inside of the simulation box and if the weights add up to the box volume every coordinate belongs to exactly one node. The same holds for UnstructuredStripingPartition.", "quantifier": "every origin, 1D/2D/3D dimensions vector, offset >= 0 and weight vector such that offset plus the sum of weights does not exceed the volume", "why_tests_cant": "Any lost or doubly assigned cell breaks a simulation; the weight vectors come from arbitrary load balancers.", "anchors": ["src/libgeodecomp/geometry/partitions/stripingpartition.h: StripingPartition::getRegion", "src/libgeodecomp/geometry/partitions/unstructuredstripingpartition.h", "src/libgeodecomp/geometry/partitions/partition.h: Partition"]}
{"id": "C13", "title": "Z-curve partition is an exact cover", "statement": "The Z-order traversal of a box visits every coordinate exactly once, and positioning an iterator at index k directly yields the k-th coordinate of the traversal, so that the regions of ZCurvePartition are pairwise disjoint and cover the box if the weights add up to its volume.", "quantifier": "every dimensions vector (also non powers of two), dimension 2 and 3, every start position, every weight vector", "why_tests_cant": "Recursive subdivision of arbitrary, uneven boxes.", "anchors": ["src/libgeodecomp/geometry/partitions/zcurvepartition.h: ZCurvePartition::Iterator, getRegion", "src/libgeodecomp/geometry/partitions/spacefillingcurve.h"]}
{"id": "C14", "title": "Hilbert partition is an exact cover", "statement": "The Hilbert traversal of a 2D box visits every coordinate exactly once, positioning at index k yields the k-th coordinate, and the regions of HilbertPartition are an exact cover if the weights add up to the volume.", "quantifier": "every 2D dimensions vector, every start position, every weight vector", "why_tests_cant": "Recursive subdivision of arbitrary, uneven boxes with four curve forms.", "anchors": ["src/libgeodecomp/geometry/partitions/hilbertpartition.h: HilbertPartition::Iterator", "src/libgeodecomp/geometry/partitions/hilbertpartition.cpp: squareFormTransitions, squareSectorTransitions"]}
{"id": "C15", "title": "H-indexing partition is an exact cover", "statement": "The regions which HIndexingPartition assigns to the nodes are pairwise disjoint, have the sizes demanded and cover the box if the weights add up to its volume, provided that the aspect ratio of the box is at most 4; the traversal from begin() to end() visits each coordinate exactly once for any box.", "quantifier": "every 2D dimensions vector (regions: both extents at least 2, aspect ratio at most 4), every start position, every weight vector", "why_tests_cant": "Triangular subdivision with degenerate triangles at arbitrary depth; loss of a single cell appears only for certain start positions.", "anchors": ["src/libgeodecomp/geometry/partitions/hindexingpartition.h: HIndexingPartition::Iterator, Triangle", "src/libgeodecomp/geometry/partitions/hindexingpartition.cpp: triangleTransitions"]}
{"id": "C16", "title": "Checkerboarding partition is an exact cover", "statement": "For n >= 1 nodes, each coordinate of the simulation box belongs to the region of exactly one node of a CheckerboardingPartition (in 3D: for n < (ny+1)^2 nodes).", "quantifier": "every origin, every 2D or 3D dimensions vector and number of nodes, in 3D with n < (ny+1)^2", "why_tests_cant": "Node counts factor in arbitrary ways; rounding of box borders must agree between neighbours.", "anchors": ["src/libgeodecomp/geometry/partitions/checkerboardingpartition.h: CheckerboardingPartition::getRegion, node grid computation"]}
{"id": "C17", "title": "Recursive bisection partition is an exact cover", "statement": "For every non-empty vector of positive weights computing the node boxes of RecursiveBisectionPartition terminates and the boxes are pairwise disjoint and cover the simulation box (any dimension); in 1D and 2D, and in 3D if no node's box has a zero y-extent, the regions returned by getRegion are an exact cover.", "quantifier": "every dimensions vector with positive extents, every vector of dimension weights, every vector of positive weights, every rounding of the cut position to a value within the box", "why_tests_cant": "Recursion depth and cut positions depend on the weights.", "anchors": ["src/libgeodecomp/geometry/partitions/recursivebisectionpartition.h: RecursiveBisectionPartition::getRegion, searchNodeCuboid"]}
{"id": "C18", "title": "Ghost zones of two nodes match", "statement": "If all nodes build a PartitionManager from the same partition, area, adjacency and ghost zone width, then the vector of regions node a expects to receive from node b (outer ghost zone fragments) is exactly the one node b sends to a (inner ghost zone fragments); either both register the exchange or neither does, and it is registered iff some cell of b is within w update steps of a's region.", "quantifier": "every family of regions within the area, every regular grid topology whose axes are at least w long, every (also directed) graph, every ghost zone width w >= 1, every pair of ranks", "why_tests_cant": "A mismatch corrupts or deadlocks only for particular decompositions.", "anchors": ["src/libgeodecomp/geometry/partitionmanager.h: PartitionManager::resetGhostZones, intersect, getOuterGhostZoneFragments, getInnerGhostZoneFragments"]}
{"id": "C19", "title": "The halo is completely and uniquely supplied", "statement": "If the node regions cover the simulation area disjointly, the halo of a node consists of all cells outside of its region which can be read within w steps; the outer ghost zone fragments are disjoint, each belongs to the node owning the cells, together they make up the whole halo, and the out-group fragments are empty.", "quantifier": "every exact cover of the area by regions, every regular grid topology whose axes are at least w long, every (also directed) graph, every ghost zone width w >= 1, rank", "why_tests_cant": "Quantifies over all decompositions; the bounding-box pre-filter may only skip nodes which don't contribute.", "anchors": ["src/libgeodecomp/geometry/partitionmanager.h: PartitionManager::resetGhostZones, getOuterRim, getOuterOutgroupGhostZoneFragment"]}
{"id": "C20", "title": "Rims and inner sets allow local updates", "statement": "A node's own region is the disjoint union of its kernel (inner set w) and its rim(w); everything needed to update rim(t+1) is in rim(t), everything needed to update innerSet(t+1) is in innerSet(t), rim(0) and innerSet(0) never leave the expanded region, innerSet(0) does not even leave the own region if neighbourhoods are symmetric; the cells sent to other nodes are exactly those of rim(w).", "quantifier": "every exact cover of the area by regions, every regular grid topology whose axes are at least w long, every (also directed) graph, every ghost zone width w >= 1, rank", "why_tests_cant": "Set-theoretic argument on paths; tests only check particular boxes.", "anchors": ["src/libgeodecomp/geometry/partitionmanager.h: PartitionManager::fillOwnRegion, rim, innerSet, getVolatileKernel"]}
{"id": "C21", "title": "Parallel simulation equals serial simulation", "statement": "A simulation distributed over any number of nodes, with any exact partition of a regular or unstructured grid and any number of steerers, hands to its writers (patch accepters) on each node at each nano step exactly the values a simulation of the whole grid has at that nano step, for exactly the node's own cells. Steerers act at the beginning of the steps at which they are due, once on each cell. At synchronisation points (all ghostZoneWidth nano steps) each of the node's own cells has the value of the whole simulation before or after the steerers were called, in between the kernel has the latter (see C93). SerialSimulator yields the same values unless its additional call of steerers at the first step makes a difference (see C66). Graphs must be symmetric, or there are no steerers and the ghost zones at most 2 cells wide (see C63).", "quantifier": "every initial grid, cell update function, number of nano steps per step, neighbourhood, list of steerers (period and effect on a cell), partition into regions, number of nodes, ghost zone width >= 1, number of (nano) steps and every interleaving of nodes and messages", "why_tests_cant": "The state space (cells x partitions x widths x steps) is infinite; tests compare a few runs only.", "anchors": ["src/libgeodecomp/parallelization/nesting/vanillastepper.h: VanillaStepper::update, update1, updateGhost", "src/libgeodecomp/parallelization/nesting/commonstepper.h: CommonStepper", "src/libgeodecomp/parallelization/hiparsimulator.h: HiParSimulator", "src/libgeodecomp/communication/patchlink.h", "src/libgeodecomp/parallelization/serialsimulator.h: SerialSimulator::nanoStep"]}
{"id": "C22", "title": "Result is independent of the message schedule", "statement": "However the nodes of a parallel simulation are interleaved and however long messages are in transit, no node runs into an exception, there is no endless run, the simulation cannot deadlock before all nodes have performed all steps, and what writers get to see does not depend on the interleaving.", "quantifier": "every interleaving of node steps and message deliveries, every number of nodes, partition and list of steerers", "why_tests_cant": "Exponentially many schedules; races appear only under particular timing.", "anchors": ["src/libgeodecomp/communication/patchlink.h: PatchLink::Accepter::put, PatchLink::Provider::get", "src/libgeodecomp/parallelization/nesting/vanillastepper.h"]}
{"id": "C23", "title": "Parallel writers see each cell exactly once per due step", "statement": "At each step for which a ParallelWriter is due, the regions handed to the writer on all nodes are pairwise disjoint and together are the whole simulation area, and the values equal those of the serial simulation at that step; exactly one call per node is flagged as the last call.", "quantifier": "every partition, ghost zone width, writer period, simulation length, list of steerers", "why_tests_cant": "Output correctness over all decompositions and periods.", "anchors": ["src/libgeodecomp/parallelization/nesting/parallelwriteradapter.h: ParallelWriterAdapter::put", "src/libgeodecomp/parallelization/nesting/vanillastepper.h: notifyPatchAccepters", "src/libgeodecomp/io/parallelwriter.h"]}
{"id": "C24", "title": "Striping simulation survives load balancing", "statement": "The StripingSimulator computes the same grid as the serial simulator irrespective of the workloads which the load balancer returns at each balancing point, as long as these are valid (sum preserved).", "quantifier": "every sequence of load balancer decisions, node count, grid, update function, number of steps", "why_tests_cant": "The load balancer is user-supplied; sequences of redistributions are unbounded.", "anchors": ["src/libgeodecomp/parallelization/stripingsimulator.h: StripingSimulator::nanoStep, redistributeGrid, balanceLoad, initRegions"]}
{"id": "C25", "title": "PatchBuffer never mixes up time steps", "statement": "A PatchBuffer which is charged with any set of requested steps and is offered the grid at increasing steps yields, when asked for the requested steps in order, exactly the region content of the grid at the respective requested step; asking for any other step is reported as an error. More generally, it behaves as a queue of patches under any interleaving of requests, puts and gets in which steps are requested only if they lie beyond all patches waiting in the buffer.", "quantifier": "every request set, every sequence of put/get operations, every region and grid content; requests in time (see C62)", "why_tests_cant": "Arbitrary interleavings of put, get and charge.", "anchors": ["src/libgeodecomp/storage/patchbuffer.h: PatchBuffer::put, get", "src/libgeodecomp/storage/patchaccepter.h: PatchAccepter::checkNanoStepPut", "src/libgeodecomp/storage/patchprovider.h: PatchProvider::checkNanoStepGet"]}
{"id": "C26", "title": "PatchBufferFixed is a bounded FIFO", "statement": "A PatchBufferFixed with capacity k behaves as a FIFO queue of at most k patches: gets return the saved patches in order, a put into a full buffer and a get from an empty one are errors which leave the stored patches intact. Steps are requested only if they lie beyond all patches waiting in the buffer.", "quantifier": "every capacity >= 1, every sequence of puts and gets", "why_tests_cant": "Ring buffer wrap-around at arbitrary offsets.", "anchors": ["src/libgeodecomp/storage/patchbufferfixed.h: PatchBufferFixed::put, get, inc"]}
{"id": "C27", "title": "Both ends of a patch link agree on steps", "statement": "If an accepter and a provider of a patch link are charged with the same first step, last step and stride >= 1, the n-th message sent is for the same step as the n-th message expected, namely first + n * stride, as long as this is less than the last step (the first exchange takes place in any case); each message carries the sender's cells of the region at that step whatever the delays and whether MPI buffers messages; no message is left over, and after the last one nothing is requested or posted any more.", "quantifier": "every first/last step and stride, every number of messages", "why_tests_cant": "Unbounded step sequences; an off-by-one shows only at the end.", "anchors": ["src/libgeodecomp/communication/patchlink.h: PatchLink::Link::charge, Accepter::put, Provider::get, Link::nextRequiredNanoStep"]}
{"id": "C28", "title": "Parallel writer scheduling", "statement": "Through the ParallelWriterAdapter a writer of period p is called with WRITER_INITIALIZED exactly at the first step, with WRITER_STEP_FINISHED exactly at those later steps before the last which are multiples of p, and with WRITER_ALL_DONE exactly at the last step.", "quantifier": "every first/last step, every period >= 1, every number of nano steps per step", "why_tests_cant": "Alignment of start step and period has infinitely many combinations.", "anchors": ["src/libgeodecomp/parallelization/nesting/parallelwriteradapter.h: ParallelWriterAdapter::ParallelWriterAdapter, put, reload"]}
{"id": "C29", "title": "Steerer scheduling", "statement": "Through the SteererAdapter a steerer of period p is called at the first step, at each later multiple of p before the last step, and at the last step, each exactly once per region part, and never at other steps.", "quantifier": "every first/last step, every period >= 1", "why_tests_cant": "Alignment of start step and period has infinitely many combinations.", "anchors": ["src/libgeodecomp/parallelization/nesting/steereradapter.h: SteererAdapter::SteererAdapter, get"]}
{"id": "C30", "title": "Serial simulator event protocol", "statement": "SerialSimulator::run() with startStep < maxSteps performs exactly maxSteps - startStep steps (if no steerer ends the simulation early) and notifies each writer once with INITIALIZED for the start step, with STEP_FINISHED exactly for the steps in between which are multiples of its period, and once with ALL_DONE for the last step; steerers are called with INITIALIZED for the start step, with NEXT_STEP before each step which starts at a multiple of their period and with ALL_DONE at the end. If a steerer ends the simulation, no further step is performed.", "quantifier": "every start step < max step, every writer and steerer period >= 1, every behaviour of the steerer", "why_tests_cant": "All lengths and periods; includes interplay of step counter and event handling.", "anchors": ["src/libgeodecomp/parallelization/serialsimulator.h: SerialSimulator::run, step, handleOutput, handleInput"]}
{"id": "C31", "title": "Hierarchical simulator event loop", "statement": "However a simulation with HiParSimulator is divided into calls of step() and a final run(), each nano step from startStep * NANO_STEPS to maxSteps * NANO_STEPS is performed exactly once and in order, no event is missed or found stale, and loads are balanced exactly at start + k * period for k >= 1 up to the end.", "quantifier": "every start/max step, load balancing period >= 1 and nano step count", "why_tests_cant": "Hop lengths are computed dynamically from the event queue.", "anchors": ["src/libgeodecomp/parallelization/hierarchicalsimulator.h: HierarchicalSimulator::run, nanoStep, handleEvents, initEvents"]}
{"id": "C32", "title": "Initial load distribution is complete", "statement": "LoadBalancer::initialWeights(items, speeds) assigns exactly all items: the result has one entry per node, no entry is negative and the entries add up to the number of items; with zero nodes an exception is raised.", "quantifier": "every item count, every vector of non-negative speeds with positive total (exact arithmetic)", "why_tests_cant": "Rounding across arbitrary speed vectors.", "anchors": ["src/libgeodecomp/loadbalancer/loadbalancer.h: LoadBalancer::initialWeights", "src/libgeodecomp/loadbalancer/loadbalancer.cpp"]}
{"id": "C33", "title": "OozeBalancer preserves the total workload", "statement": "OozeBalancer::balance returns a load vector of the same length and the same sum as its input and with no negative entries, each entry at most one item away from the blend of old and optimal distribution; the optimal distribution it aims at gives every node the same share of the measured load.", "quantifier": "every load vector with at least one node, every vector of non-negative load measurements, every ooze weight in [0,1] (exact arithmetic)", "why_tests_cant": "Real-valued rounding with error diffusion over arbitrary vectors.", "anchors": ["src/libgeodecomp/loadbalancer/oozebalancer.cpp: OozeBalancer::balance, expectedOptimalDistribution, equalize, linearCombo"]}
{"id": "C34", "title": "Bias and random balancers preserve the total workload", "statement": "BiasBalancer and RandomBalancer return load vectors of the same length and sum as their input.", "quantifier": "every load vector, every sequence of random numbers, every number of calls", "why_tests_cant": "Randomised; unbounded input space.", "anchors": ["src/libgeodecomp/loadbalancer/biasbalancer.h: BiasBalancer::balance", "src/libgeodecomp/loadbalancer/randombalancer.cpp: RandomBalancer::balance"]}
{"id": "C35", "title": "Grid reads back what was written", "statement": "Grid::get(c), for single coordinates and for Streaks, returns the most recently written cell for the location c denotes: writes to other locations don't interfere, coordinates which the topology wraps alias the wrapped location, and coordinates outside of the grid denote the edge cell.", "quantifier": "every topology, positive dimensions, sequence of set (single cells and Streaks) and setEdge operations, and coordinates up to one period outside", "why_tests_cant": "Aliasing over arbitrary histories.", "anchors": ["src/libgeodecomp/storage/grid.h: Grid::set, get, setEdge, operator[]", "src/libgeodecomp/geometry/topologies.h: Topology::locate"]}
{"id": "C36", "title": "DisplacedGrid reads back what was written", "statement": "A DisplacedGrid covering a box anywhere in space returns for each coordinate inside of its box the cell written last, both for single-coordinate and for Streak access. A topologically correct one obeys the topology of the whole space: each coordinate which wraps into the box addresses the wrapped cell in single-coordinate accesses.", "quantifier": "every box origin and positive dimensions, topology, dimensions of the space, and history of writes; coordinates up to one period outside, Streaks inside of the box if topologically correct", "why_tests_cant": "Aliasing over arbitrary histories and offsets.", "anchors": ["src/libgeodecomp/storage/displacedgrid.h: DisplacedGrid::set, get"]}
{"id": "C37", "title": "Region transfer between grids", "statement": "Saving a Region of a grid into a buffer and loading this buffer with the same Region into another grid (with different bounding box) copies exactly the cells of the region and leaves all other cells of the target unchanged; the buffer holds one cell per coordinate in iteration order.", "quantifier": "every Region, pair of grids (Grid or DisplacedGrid) of any reachable content, and pair of offsets, so that the displaced Region lies inside of both grids (on any period of the topology for topologically correct DisplacedGrids, if the Region isn't wider than one period)", "why_tests_cant": "All shapes of regions and displacements of grids.", "anchors": ["src/libgeodecomp/storage/gridbase.h: GridBase::saveRegion, loadRegion", "src/libgeodecomp/storage/displacedgrid.h: DisplacedGrid::saveRegion, loadRegion", "src/libgeodecomp/storage/grid.h: Grid::saveRegion, loadRegion"]}
{"id": "C38", "title": "Grid comparison distinguishes different grids", "statement": "Two Grid objects of the same dimensions compare equal with operator== exactly if they have the same edge cell and the same cell at each coordinate. Two grids of any kind compare equal via the interface GridBase exactly if they have the same bounding box, edge cell and cell at each coordinate.", "quantifier": "every pair of non-empty grids of any reachable content", "why_tests_cant": "Collisions between differently shaped grids are not covered by tests.", "anchors": ["src/libgeodecomp/storage/grid.h: Grid::operator==(const Grid&)", "src/libgeodecomp/storage/gridbase.h: GridBase::operator==(const GridBase&)"]}
{"id": "C39", "title": "SELL-C-sigma container represents the sparse matrix", "statement": "After initFromMatrix on a fresh SELL-C-SIGMA container, each row of the matrix sits at precisely one position within its sorting scope; the container's tables translate between rows and positions in both directions, and getRow for the position yields exactly the column/value pairs of the row in ascending column order. If longer rows come first within each scope (in particular for SIGMA = 1) positions equal row numbers.", "quantifier": "every sparse matrix (unsorted, with duplicates), number of rows >= 1, chunk size C >= 1, scope SIGMA >= 1, every sorting algorithm used by std::sort", "why_tests_cant": "Padding, chunking and sorting of rows of arbitrary lengths.", "anchors": ["src/libgeodecomp/storage/sellcsigmasparsematrixcontainer.h: SELLCSigmaSparseMatrixContainer::initFromMatrix, getRow"]}
{"id": "C40", "title": "Reordering unstructured grid is transparent", "statement": "A ReorderingUnstructuredGrid is transparent: after any sequence of set, setEdge, setWeights and loadRegion, get(id) for each node id returns the value written last to this node, no matter which weights have been set in between; ids between nodes read as the edge cell; saveRegion delivers the nodes' values by ascending id.", "quantifier": "every non-empty node set, every history, every weight matrix (also with missing nodes), every C and SIGMA", "why_tests_cant": "All reorderings induced by arbitrary matrices.", "anchors": ["src/libgeodecomp/storage/reorderingunstructuredgrid.h: ReorderingUnstructuredGrid::setWeights, reorderDelegateGrid, get, set, saveRegion, loadRegion"]}
{"id": "C41", "title": "ContainerCell is a bounded ordered map", "statement": "A ContainerCell behaves as a map from keys to cargo: lookup returns the value inserted last under that key unless it was removed, iteration is in key order, inserting a new key into a full container is reported as an error and changes nothing. The cell inserted isn't one of the container's own.", "quantifier": "every sequence of insert/remove/lookup, every capacity", "why_tests_cant": "Arbitrary histories on a hand-written sorted array.", "anchors": ["src/libgeodecomp/storage/containercell.h: ContainerCell::insert, remove, operator[], begin, end"]}
{"id": "C42", "title": "FixedArray is a bounded sequence", "statement": "A FixedArray behaves as a list with bounded length: push_back appends, erase/remove delete exactly the given element and preserve the order of all others, concatenation with a different array appends, == compares the contents, and exceeding the capacity is reported without changing the content.", "quantifier": "every history, every capacity", "why_tests_cant": "Arbitrary histories.", "anchors": ["src/libgeodecomp/storage/fixedarray.h: FixedArray::push_back, erase, remove, operator+, operator+="]}
{"id": "C43", "title": "Region based adjacency stores exactly the inserted edges", "statement": "RegionBasedAdjacency::getNeighbors(n) yields exactly the set of targets inserted for n, each once, in ascending order, regardless of the insertion order and of how the internal storage is split.", "quantifier": "every sequence of edge insertions, every split threshold >= 1", "why_tests_cant": "Splits depend on the whole insertion history.", "anchors": ["src/libgeodecomp/geometry/regionbasedadjacency.h: RegionBasedAdjacency::insert, getNeighbors, splitIfTooLarge"]}
{"id": "C44", "title": "Optimised update path equals the naive path", "statement": "For models with fixed stencil access, the line-pointer neighborhoods deliver for every cell of a streak and every coordinate of the Moore or von Neumann stencil of radius 1 the same cell as looking up centre + offset in the grid does, also beyond the edges of cubes and across the borders of tori; updating a streak leads to the same grid on both update paths.", "quantifier": "every topology of one to three dimensions, Grid or DisplacedGrid (topologically correct or not), grid state, streak inside of the grid, position in the streak, relative coordinate of the stencil", "why_tests_cant": "Boundary flags x axes x streak ends; failure shows only at particular corners.", "anchors": ["src/libgeodecomp/storage/linepointerneighborhood.h", "src/libgeodecomp/storage/linepointerassembly.h: LinePointerAssembly", "src/libgeodecomp/storage/linepointerupdatefunctor.h: LinePointerUpdateFunctor", "src/libgeodecomp/storage/coordmap.h"]}
{"id": "C45", "title": "Stencil tables enumerate the stencil", "statement": "For each stencil with a predefined table other than VonNeumann<2, 2> the indexed coordinates 0 .. VOLUME-1 are exactly the relative coordinates of the stencil (Moore: Chebyshev distance <= radius, von Neumann: Manhattan distance <= radius), and OffsetHelper is the inverse of Coords. VOLUME counts the coordinates of the shape for every dimension and radius, also for Cross. OffsetHelper numbers the coordinates of Moore stencils of up to three dimensions and any radius, and those of von Neumann stencils in 1D (any radius), 2D (radius up to 8) and 3D (radius up to 1), consecutively row by row and plane by plane.", "quantifier": "every stencil shape, dimension and radius within the stated ranges, every relative coordinate", "why_tests_cant": "Finite, but no test enumerates the tables against the definition.", "anchors": ["src/libgeodecomp/geometry/stencils.h: Stencils::Moore, VonNeumann, Cross"]}
{"id": "C46", "title": "Optimisation parameters stay in their domain", "statement": "For intervals whose granularity is positive and at most max - min, and for non-empty discrete sets, whatever values an optimiser assigns (setValue) or adds (operator+=), the operations terminate and the resulting value stays in the declared domain, which itself does not change: an interval's value lies in [min, max), an int interval's value is an integer, a discrete set's value is one of its elements. setValue(v) for an interval, with v a multiple of the granularity in [0, max - min), makes getValue() return v and the parameter assume min + v. (Arithmetic is exact; see C87 and C88 for doubles.)", "quantifier": "every parameter domain with 0 < granularity <= max - min, every sequence of setValue and += operations", "why_tests_cant": "Unbounded real-valued inputs.", "anchors": ["src/libgeodecomp/misc/simulationparameters.h: Interval::setValue, Interval::operator+=, DiscreteSet::setValue, DiscreteSet::operator+=, Parameter::sanitizeIndex"]}
{"id": "C47", "title": "Pattern search returns the best point it evaluated", "statement": "PatternOptimizer returns parameters whose fitness is at least that of the start point and of every other point it evaluated, and its reported fitness is the fitness of the returned parameters. It always returns: after at most 1 + steps * 2 * |parameters| evaluations, all of them at points of the declared domain. Each point evaluated differs from another by a step in a single parameter, of a width between minimum and initial width. If the search stops by itself, no neighbour at minimum distance is better, with the exception of one (see C89).", "quantifier": "every deterministic objective function, every parameter space, every step limit", "why_tests_cant": "Objective functions are arbitrary.", "anchors": ["src/libgeodecomp/misc/patternoptimizer.cpp: PatternOptimizer::operator(), getMaxPos, reduceStepwidth, genPattern"]}
{"id": "C48", "title": "Tokenizing strings", "statement": "StringOps::tokenize(s, delimiters) returns, in order, exactly the maximal non-empty substrings of s which are free of delimiters. Tokenizing what StringOps::join(tokens, d) returned yields the tokens again, if they are non-empty and free of the character d.", "quantifier": "every string and delimiter set", "why_tests_cant": "Infinite input domain; position bookkeeping via sets.", "anchors": ["src/libgeodecomp/misc/stringops.h: StringOps::tokenize, StringOps::join"]}
{"id": "C49", "title": "Piecewise runs cover the original simulation", "statement": "VarStepInitializerProxy::maxSteps() yields the wrapped initializer's maxSteps after resetMaxSteps, startStep + n after setMaxSteps(n), and the wrapped initializer's maxSteps on a new proxy if the start step is 0; cloning doesn't matter, startStep never changes. (A new proxy with a start step other than 0: see C90.)", "quantifier": "every start and max step of the wrapped initializer, every sequence of setMaxSteps/resetMaxSteps", "why_tests_cant": "All start steps; tests commonly use 0.", "anchors": ["src/libgeodecomp/io/varstepinitializerproxy.h: VarStepInitializerProxy::maxSteps, resetMaxSteps, setMaxSteps"]}
{"id": "C50", "title": "Particles are neither lost nor duplicated", "statement": "When a grid of BoxCells (each axis which wraps has at least 3 cells) is updated at the first nano step and the position of each particle lies within a box neighbouring its current one, then afterwards each particle resides in exactly the box which contains its position; none is lost, none duplicated, boxes keep their geometry, and containers of limited capacity don't overflow unless a box really gets more particles. Over any number of updates the identities of all particles are conserved. Boxes of equal size laid out side by side neither overlap nor leave gaps. (Positions are exact numbers; see C92 for doubles.)", "quantifier": "every box grid and particle distribution with movements of at most one box between re-sorts, every particle update", "why_tests_cant": "All particle configurations, including positions on box borders.", "anchors": ["src/libgeodecomp/storage/boxcell.h: BoxCell::update, copyOver, addContainedParticles", "src/libgeodecomp/storage/neighborhooditerator.h: NeighborhoodIterator::begin, end, operator++, operator==", "src/libgeodecomp/misc/apitraits.h: SelectPositionChecker::value"]}
{"id": "C51", "title": "Collecting writer assembles the global grid", "statement": "When a CollectingWriter forwards a step to its serial writer on the root node, the grid passed is equal to the global simulation grid at that step, irrespective of the partition and the order in which node parts are delivered.", "quantifier": "every partition, number of nodes, root rank and time step", "why_tests_cant": "All decompositions.", "anchors": ["src/libgeodecomp/io/collectingwriter.h: CollectingWriter::stepFinished"]}
{"id": "C52", "title": "Update functor honours source and target offsets", "statement": "UpdateFunctor applied to a region with a source and a target offset writes to (c + targetOffset) the update of the neighbourhood around (c + sourceOffset) for each c of the region and changes no other cell, in whatever order the streaks or (for regions at non-negative x coordinates) their fine-grained tranches are processed. On the path for cells with fixed coordinates this holds for a zero source offset (see C83).", "quantifier": "every region, grid pair, pair of offsets, cell update function, order of streaks and granularity", "why_tests_cant": "Offset arithmetic over all shapes; only special simulators use non-zero offsets.", "anchors": ["src/libgeodecomp/storage/updatefunctor.h: UpdateFunctorHelpers::Selector::operator()", "src/libgeodecomp/storage/linepointerassembly.h", "src/libgeodecomp/storage/vanillaupdatefunctor.h"]}
{"id": "C53", "title": "Iterating a degenerate box terminates", "statement": "Iterating a CoordBox which has a zero extent in a dimension other than the last one terminates and yields no coordinate.", "quantifier": "every origin, every non-negative dimensions vector with a zero extent", "why_tests_cant": "Degenerate boxes are rarely tested and a loop which does not end cannot be asserted on.", "anchors": ["src/libgeodecomp/geometry/coordbox.h: CoordBox::Iterator, CoordBox::begin, CoordBox::end"]}
{"id": "C54", "title": "streakIteratorOnOrAfter finds the successor streak (3D)", "statement": "In three dimensions region.streakIteratorOnOrAfter(c) points at the first streak whose origin is not smaller than c; it is the end iterator if there is none.", "quantifier": "every three-dimensional Region, every coordinate c", "why_tests_cant": "The code path for a coordinate behind the last row of a plane depends on the numeric value of the y coordinates of the next plane.", "anchors": ["src/libgeodecomp/geometry/region.h: Region::streakIteratorOnOrAfter"]}
{"id": "C55", "title": "expandWithAdjacency follows the adjacency relation", "statement": "region.expandWithAdjacency(w, adjacency) contains exactly the nodes which can be reached from a contained node by at most w steps along the adjacency.", "quantifier": "every one-dimensional Region, every adjacency, every w", "why_tests_cant": "Quantifies over all graphs and all path lengths.", "anchors": ["src/libgeodecomp/geometry/region.h: Region::expandWithAdjacency"]}
{"id": "C56", "title": "Checkerboarding in 3D with many nodes", "statement": "CheckerboardingPartition::getRegion returns a region for every node also if there are more nodes along the y-axis than cells.", "quantifier": "every 3D dimensions vector, every number of nodes", "why_tests_cant": "A loop which does not end cannot be asserted on.", "anchors": ["src/libgeodecomp/geometry/partitions/checkerboardingpartition.h: getRegion", "src/libgeodecomp/geometry/region.h: operator<<(CoordBox)"]}
{"id": "C57", "title": "Recursive bisection with zero weights", "statement": "RecursiveBisectionPartition::getRegion terminates if some node has weight 0.", "quantifier": "every weight vector with non-negative entries and a positive sum", "why_tests_cant": "Unbounded recursion for certain weight vectors only.", "anchors": ["src/libgeodecomp/geometry/partitions/recursivebisectionpartition.h: searchNodeCuboid"]}
{"id": "C58", "title": "Recursive bisection in 3D", "statement": "RecursiveBisectionPartition::getRegion returns a region for every node in 3D if all weights are positive and add up to the volume.", "quantifier": "every 3D dimensions vector, every vector of positive weights", "why_tests_cant": "Degenerate node boxes arise from rounding for certain weights only.", "anchors": ["src/libgeodecomp/geometry/partitions/recursivebisectionpartition.h: splitBox, getRegion"]}
{"id": "C59", "title": "H-indexing partition covers stretched boxes", "statement": "The regions which HIndexingPartition assigns to the nodes cover the box if the weights add up to its volume, also if the box is stretched, e.g. a single row of cells. (Refuted.)", "quantifier": "2D dimensions vectors of any aspect ratio, every weight vector", "why_tests_cant": "Positions within one cell wide stripes are only hit by particular weights.", "anchors": ["src/libgeodecomp/geometry/partitions/hindexingpartition.h: Iterator::digDownTrivial, nextTrivial"]}
{"id": "C60", "title": "Kernel of unstructured grids with region-wise adjacency", "statement": "With an AdjacencyManufacturer which, as documented, returns the edges leaving (or leading to) the nodes of the given region, every cell a node sends to others lies in rim(w), for ghost zone widths w >= 2 as well.", "quantifier": "every symmetric graph, partition and ghost zone width w >= 2", "why_tests_cant": "Tests for unstructured grids use the full adjacency or width 1.", "anchors": ["src/libgeodecomp/geometry/partitionmanager.h: PartitionManager::fillOwnRegion", "src/libgeodecomp/geometry/adjacencymanufacturer.h: AdjacencyManufacturer::getAdjacency"]}
{"id": "C61", "title": "Ghost zones of areas not starting at the origin", "statement": "If the simulation area (Initializer::gridBox) has an origin other than 0, a node's halo contains the neighbouring cells within the area.", "quantifier": "every area origin", "why_tests_cant": "All tests use areas starting at the origin.", "anchors": ["src/libgeodecomp/geometry/partitionmanager.h: PartitionManager::fillRegion", "src/libgeodecomp/geometry/region.h: Region::expandWithTopology"]}
{"id": "C62", "title": "Late requests of patch buffers", "statement": "A PatchBuffer may be asked for additional steps at any time: each requested step which is offered later on is stored, and a get for it yields the grid's region content at that step, also if a patch of a later step is already waiting in the buffer.", "quantifier": "every sequence of requests, puts and gets with requests in any order", "why_tests_cant": "Needs a request issued after later steps were stored, which depends on the interleaving of accepters and providers.", "anchors": ["src/libgeodecomp/storage/patchbuffer.h: PatchBuffer::put, get, pushRequest", "src/libgeodecomp/storage/patchaccepter.h: PatchAccepter::pushRequest"]}
{"id": "C63", "title": "Directed graphs and wide ghost zones", "statement": "Simulations of unstructured grids give the serial results also if edges are not symmetric, for ghost zones of any width.", "quantifier": "every directed graph, partition, ghost zone width", "why_tests_cant": "Needs a graph in which an outside node is read by both rim and kernel, and width >= 3.", "anchors": ["src/libgeodecomp/parallelization/nesting/vanillastepper.h: VanillaStepper::update1, updateGhost", "src/libgeodecomp/parallelization/nesting/commonstepper.h: restoreRim, restoreKernel", "src/libgeodecomp/geometry/partitionmanager.h: fillOwnRegion"]}
{"id": "C64", "title": "Grid between synchronisation points", "statement": "After any number of steps, the grid offered by a node (Stepper::grid, UpdateGroup::grid) has the serial values in all of the node's own cells, also if ghost zones are wider than 1.", "quantifier": "every partition, ghost zone width, number of steps", "why_tests_cant": "Depends on the parity and size of the ghost zone width relative to the number of steps.", "anchors": ["src/libgeodecomp/parallelization/nesting/updategroup.h: UpdateGroup::grid", "src/libgeodecomp/parallelization/nesting/vanillastepper.h: VanillaStepper::update1, updateGhost", "src/libgeodecomp/parallelization/nesting/commonstepper.h: restoreRim, restoreKernel"]}
{"id": "C65", "title": "Writers learn of the end of a serial simulation", "statement": "Every SerialSimulator::run() notifies each writer with WRITER_ALL_DONE. (Refuted: not if startStep == maxSteps, nor if a steerer ends the simulation, though steerers are told in both cases.)", "quantifier": "every start and max step, every steerer", "why_tests_cant": "Tests use fixed step numbers with startStep < maxSteps and no early end.", "anchors": ["src/libgeodecomp/parallelization/serialsimulator.h: SerialSimulator::run, step"]}
{"id": "C66", "title": "Serial and parallel simulations call steerers alike", "statement": "A steerer is called for the same steps with the same events by SerialSimulator and, via SteererAdapter, by HiParSimulator. (Refuted: for a first step which is a multiple of the period, SerialSimulator calls it with INITIALIZED and NEXT_STEP, the adapter only with INITIALIZED.)", "quantifier": "every first and last step, every period", "why_tests_cant": "Simulators are tested separately, against expectations written for each of them.", "anchors": ["src/libgeodecomp/parallelization/serialsimulator.h: SerialSimulator::run, handleInput", "src/libgeodecomp/parallelization/nesting/steereradapter.h: SteererAdapter::SteererAdapter, get"]}
{"id": "C67", "title": "HiParSimulator may be stepped beyond its end", "statement": "A call of step() after the last step has been reached performs a further step or is rejected. (Refuted: the event map is empty by then and events.begin() is dereferenced.)", "quantifier": "every number of steps", "why_tests_cant": "Undefined behaviour need not show in a test.", "anchors": ["src/libgeodecomp/parallelization/hierarchicalsimulator.h: handleEvents, timeToNextEvent", "src/libgeodecomp/parallelization/hiparsimulator.h: nanoStep"]}
{"id": "C68", "title": "ParallelWriters know the domain after load balancing", "statement": "In every execution of StripingSimulator::run() the region given to a ParallelWriter's stepFinished() is a subset of the region in the latest setRegion() call. (Refuted: redistributeGrid() does not call setRegion().)", "quantifier": "every grid, node count, load balancer decision", "why_tests_cant": "Writers used in tests do not rely on the announced region, and the violation needs a balancer which moves rows.", "anchors": ["src/libgeodecomp/parallelization/stripingsimulator.h: StripingSimulator::run, setIORegions, redistributeGrid, handleOutput", "src/libgeodecomp/io/parallelwriter.h: ParallelWriter::setRegion"]}
{"id": "C69", "title": "StripingSimulator::run() starts afresh", "statement": "StripingSimulator::run() computes the grid of a serial simulation started from the Initializer's grid, also if step() has been called before. (Refuted: ghost zones sent by the earlier step are pending and get loaded into the new grid.)", "quantifier": "every grid, node count, number of earlier steps", "why_tests_cant": "Tests call either step() or run(), or compare cells for which stale ghost zones go unnoticed.", "anchors": ["src/libgeodecomp/parallelization/stripingsimulator.h: StripingSimulator::run, initSimulation, waitForGhostRegions"]}
{"id": "C70", "title": "Streak access of a topologically correct DisplacedGrid obeys the topology", "statement": "Reading a Streak of a topologically correct DisplacedGrid returns the same cells as reading its coordinates one by one, even if the Streak lies on another period of the topology.", "quantifier": "every topologically correct DisplacedGrid and Streak whose coordinates wrap into the box", "why_tests_cant": "Tests use Streaks inside of the box only.", "anchors": ["src/libgeodecomp/storage/displacedgrid.h: DisplacedGrid::get(const Streak&), set(const Streak&)"]}
{"id": "C71", "title": "Grid comparison tells shapes apart", "statement": "Two Grid objects which compare equal with operator== have the same dimensions and the same edge cell.", "quantifier": "every pair of grids", "why_tests_cant": "Collisions between differently shaped grids are not covered by tests.", "anchors": ["src/libgeodecomp/storage/grid.h: Grid::operator==(const Grid&)"]}
{"id": "C72", "title": "A Grid copied from another grid holds its cells", "statement": "The Grid constructed from any grid has the extents of its bounding box, the same edge cell, and at each coordinate relative to the origin of the box the cell of the original.", "quantifier": "every Grid or DisplacedGrid of any reachable content and non-empty box", "why_tests_cant": "Boxes anywhere in space, every dimensionality.", "anchors": ["src/libgeodecomp/storage/grid.h: Grid(const GridBase&)"]}
{"id": "C73", "title": "getRow of the sparse matrix container for SIGMA > 1", "statement": "getRow(i) yields row i of the matrix given to initFromMatrix, for any sorting scope.", "quantifier": "every matrix and SIGMA", "why_tests_cant": "Depends on the lengths of all rows of a scope.", "anchors": ["src/libgeodecomp/storage/sellcsigmasparsematrixcontainer.h: getRow"]}
{"id": "C74", "title": "Sparse matrix containers can be initialized repeatedly", "statement": "Calling initFromMatrix a second time replaces the matrix: every row of the new matrix is found at some position.", "quantifier": "every pair of matrices, every SIGMA", "why_tests_cant": "Needs two matrices with different row orders.", "anchors": ["src/libgeodecomp/storage/sellcsigmasparsematrixcontainer.h: initFromMatrix"]}
{"id": "C75", "title": "setWeights keeps the edge cell", "statement": "ReorderingUnstructuredGrid::getEdge returns the same cell before and after setWeights.", "quantifier": "every grid", "why_tests_cant": "Tests compare node contents only.", "anchors": ["src/libgeodecomp/storage/reorderingunstructuredgrid.h: setWeights, reorderDelegateGrid"]}
{"id": "C76", "title": "setWeights keeps the other matrices", "statement": "Setting the weights of one matrix of a ReorderingUnstructuredGrid leaves the rows of the other matrices in place.", "quantifier": "every grid with two or more matrices", "why_tests_cant": "Tests use one matrix only.", "anchors": ["src/libgeodecomp/storage/reorderingunstructuredgrid.h: setWeights, reorderDelegateGrid"]}
{"id": "C77", "title": "Neighborhoods of the reordering grid", "statement": "After setWeights, following the physical neighbor indices stored for a node's physical position leads to precisely the cells and weights which the given matrix names for the node; nodes with missing neighbors have none.", "quantifier": "every node set, history, matrix, C and SIGMA", "why_tests_cant": "The reordering has to agree between the grid, its matrices and their own sorting.", "anchors": ["src/libgeodecomp/storage/reorderingunstructuredgrid.h: setWeights", "src/libgeodecomp/storage/unstructuredgrid.h: setWeights", "src/libgeodecomp/storage/sellcsigmasparsematrixcontainer.h: initFromMatrix, getRow"]}
{"id": "C78", "title": "Remapped regions", "statement": "remapRegion yields exactly the physical positions of the nodes of the given region; expandChunksInRemappedRegion adds exactly the rest of the chunks touched.", "quantifier": "every region within the node set, every history, every C", "why_tests_cant": "Arbitrary regions and reorderings.", "anchors": ["src/libgeodecomp/storage/reorderingunstructuredgrid.h: remapRegion, expandChunksInRemappedRegion"]}
{"id": "C79", "title": "FixedArray can be concatenated with itself", "statement": "a += a for a FixedArray with enough room yields the content twice.", "quantifier": "every array and capacity", "why_tests_cant": "Aliasing of the two operands isn't considered in tests.", "anchors": ["src/libgeodecomp/storage/fixedarray.h: FixedArray::operator+="]}
{"id": "C80", "title": "ContainerCell may be handed its own cells", "statement": "Inserting (a reference to) one of the container's own cells under a new key stores a copy of this cell.", "quantifier": "every container and key", "why_tests_cant": "Depends on whether cells have to be moved.", "anchors": ["src/libgeodecomp/storage/containercell.h: ContainerCell::insert"]}
{"id": "C81", "title": "VonNeumann<2, 2> enumerates its stencil", "statement": "The coordinates of the predefined stencil VonNeumann<2, 2> are indexed by 0 .. VOLUME-1. (False: index 8 is missing and index 13 is used instead, hence loops over all indices fail to compile and OffsetHelper disagrees with the table.)", "quantifier": "every index and coordinate of this stencil", "why_tests_cant": "Finite, but no test instantiates this table.", "anchors": ["src/libgeodecomp/geometry/stencils.h: ADD_COORD(VonNeumann, 2, 2, ...)"]}
{"id": "C82", "title": "OffsetHelper for larger von Neumann stencils in 3D", "statement": "OffsetHelper maps the relative coordinates of VonNeumann<3, R> to distinct indices below VOLUME for every R. (False for R = 2: the offset within a plane is computed with the full radius, whatever the plane.)", "quantifier": "every radius and relative coordinate", "why_tests_cant": "Tests check single coordinates only, all of them on the plane z = 0 or of radius 1.", "anchors": ["src/libgeodecomp/geometry/stencils.h: Stencils::OffsetHelper, Stencils::VonNeumannDimDelta"]}
{"id": "C83", "title": "Source offsets with fixed coordinates", "statement": "UpdateFunctor honours the source offset also for cells with fixed coordinates: the neighborhoods are those around c + sourceOffset.", "quantifier": "every non-zero source offset", "why_tests_cant": "Only special simulators use non-zero source offsets, none of them with fixed coordinates.", "anchors": ["src/libgeodecomp/storage/updatefunctor.h: UpdateFunctorHelpers::Selector::operator() (LinePointerAssembly receives *i)"]}
{"id": "C84", "title": "Fine-grained parallelism at negative coordinates", "statement": "Cutting a region's streaks into tranches covers exactly the cells of the region, also if x coordinates are negative.", "quantifier": "every streak and granularity", "why_tests_cant": "Grids of tests start at the origin, and most streaks are shorter than the granularity.", "anchors": ["src/libgeodecomp/storage/updatefunctormacros.h: LGD_UPDATE_FUNCTOR_THREADING_SELECTOR_3"]}
{"id": "C85", "title": "Assigning discrete parameters", "statement": "setValue(i) on a discrete parameter selects the i-th element, so that getValue() yields i. (False: DiscreteSet::setValue never looks at its argument.)", "quantifier": "every discrete set with at least two elements, every index of the set", "why_tests_cant": "Tests only assign the index that is already selected or check the domain.", "anchors": ["src/libgeodecomp/misc/simulationparameters.h: DiscreteSet::setValue, DiscreteSet::getValue"]}
{"id": "C86", "title": "Granularities of intervals", "statement": "Intervals keep their values within [min, max) whatever granularity was chosen. (False: granularity zero admits max itself, a granularity larger than max - min leads to values below min.)", "quantifier": "every interval, every granularity >= 0", "why_tests_cant": "Tests use well-behaved granularities.", "anchors": ["src/libgeodecomp/misc/simulationparameters.h: Interval::setValue, Interval::getMax, Parameter::sanitizeIndex"]}
{"id": "C87", "title": "Grid points of double intervals", "statement": "setValue(k * granularity) makes a double interval return k * granularity. (False in IEEE double arithmetic: 3 * 0.7 / 0.7 truncates to 2.)", "quantifier": "every double interval, every multiple of its granularity", "why_tests_cant": "Depends on rounding for specific pairs of operands.", "anchors": ["src/libgeodecomp/misc/simulationparameters.h: Interval::setValue"]}
{"id": "C88", "title": "Upper bounds of double intervals", "statement": "A double interval never assumes its upper bound. (False in IEEE double arithmetic if the granularity is absorbed by max - min.)", "quantifier": "every double interval with 0 < granularity < max - min", "why_tests_cant": "Depends on absorption in floating point subtraction.", "anchors": ["src/libgeodecomp/misc/simulationparameters.h: Interval::setValue, Interval::getMax, Parameter::sanitizeIndex"]}
{"id": "C89", "title": "Pattern search stops at local optima only", "statement": "If PatternOptimizer stops before its step limit, no point of the last pattern is fitter than the result. (False: it skips the point it assumes to be the former middle, although the last move may have been shortened at the border of the domain.)", "quantifier": "every deterministic objective function, every parameter space", "why_tests_cant": "Requires a move which was clamped at the domain's border.", "anchors": ["src/libgeodecomp/misc/patternoptimizer.cpp: PatternOptimizer::operator(), getMaxPos, genPattern"]}
{"id": "C90", "title": "New proxies report the original step count", "statement": "A new VarStepInitializerProxy reports the wrapped initializer's maxSteps. (False for start steps other than 0: the constructor stores the last step as if it was the number of steps, so maxSteps() yields startStep + maxSteps.)", "quantifier": "every start and max step of the wrapped initializer", "why_tests_cant": "Tests commonly use start step 0.", "anchors": ["src/libgeodecomp/io/varstepinitializerproxy.h: VarStepInitializerProxy::VarStepInitializerProxy, maxSteps"]}
{"id": "C91", "title": "Particles on small tori", "statement": "C50 holds for tori with fewer than 3 cells along an axis. (False: with 2 cells each box meets its neighbour twice, particles crossing over are duplicated.)", "quantifier": "every box grid on a torus", "why_tests_cant": "Tests don't simulate tori of 2 cells with particles moving.", "anchors": ["src/libgeodecomp/storage/boxcell.h: BoxCell::update, copyOver, addContainedParticles", "src/libgeodecomp/storage/neighborhooditerator.h: NeighborhoodIterator::begin, end, operator++, operator=="]}
{"id": "C92", "title": "Particles at double coordinates", "statement": "With boxes at origins i * w and of length w, every particle within the grid's extent is contained in some box. (False with IEEE doubles: 5 * 0.1 + 0.1 < 6 * 0.1, a particle at 5 * 0.1 + 0.1 vanishes.)", "quantifier": "every box length and position as double", "why_tests_cant": "Depends on rounding.", "anchors": ["src/libgeodecomp/storage/boxcell.h: BoxCell::update, copyOver, addContainedParticles", "src/libgeodecomp/misc/apitraits.h: SelectPositionChecker::value"]}
{"id": "C93", "title": "Grid of a node after steering", "statement": "At synchronisation points, the grid offered by a node (Stepper::grid, UpdateGroup::grid) shows all of the node's own cells in the same state: either before or after the steerers of that step have been called. (Refuted: update1 calls them for the inner set only, cells of the rim beyond it are steered in the next ghost zone update.)", "quantifier": "every partition, ghost zone width, list of steerers", "why_tests_cant": "Tests read the grid through writers, or check steerers which touch the kernel only.", "anchors": ["src/libgeodecomp/parallelization/nesting/vanillastepper.h: VanillaStepper::update1, updateGhost", "src/libgeodecomp/parallelization/nesting/updategroup.h: UpdateGroup::grid", "src/libgeodecomp/parallelization/nesting/steereradapter.h: SteererAdapter::get"]}
{"id": "C94", "title": "Updates of unstructured grids present each cell exactly its matrix row", "statement": "For a grid of n cells whose adjacency matrix was set via initFromMatrix, UnstructuredUpdateFunctor updates each cell of the given Region exactly once and no other cell; the neighborhood it hands to the cell at position q enumerates precisely the entries of the row which the matrix stores at q, by ascending column. For UnstructuredSoAGrid, with a cell whose updateLineX() delegates to unstructuredLoopPeeler, the same holds if runs of cells which start within a chunk extend at least to the end of that chunk; there, rows may be followed by padding (weight zero, column 0), and all accesses stay within the padded storage.", "quantifier": "all matrices, numbers of rows, chunk sizes C >= 1 (powers of two in the vectorised case), sorting scopes SIGMA >= 1, and all Regions meeting the condition", "why_tests_cant": "Tests use a handful of fixed Regions and matrices with one chunk size; whether scalar and vector loops meet at the right cell depends on the alignment of each streak.", "anchors": ["src/libgeodecomp/storage/unstructuredupdatefunctor.h:62-172", "src/libgeodecomp/storage/unstructuredneighborhood.h:92-222", "src/libgeodecomp/storage/unstructuredsoaneighborhood.h:30-274", "src/libgeodecomp/storage/unstructuredlooppeeler.h:75-97"]}
{"id": "C95", "title": "The loop peeler stays within its streak", "statement": "unstructuredLoopPeeler only updates cells between the counter's start and the given end.", "quantifier": "all streaks", "why_tests_cant": "Tests' streaks all extend beyond the chunk in which they start.", "anchors": ["src/libgeodecomp/storage/unstructuredlooppeeler.h:75-97"]}
{"id": "C96", "title": "Advancing an UnstructuredNeighborhood by += i presents the row i positions further on", "statement": "After hood += i, weights() enumerates the row at position index().", "quantifier": "all positions and distances", "why_tests_cant": "Tests only advance the neighborhood via operator++.", "anchors": ["src/libgeodecomp/storage/unstructuredneighborhood.h:124-166"]}
{"id": "C97", "title": "A checkpoint restores the grid with any number of processes", "statement": "After the processes have written their parts of a grid via MPIIO::writeRegion, readMetadata returns the dimensions, step and maximum step, and readRegion hands the edge cell and exactly the cells of the requested Region to the grid. If the parts cover the grid, the file consists of the header followed by all cells in lexicographic order. Both hold for any order in which the writes take place and whatever the file contained before.", "quantifier": "all dimensions, topologies, partitions for writing and for reading, cell datatypes without gaps, execution orders, previous file contents", "why_tests_cant": "Tests write with one or four processes and one grid; file contents depend on the partition and on the order of concurrent writes.", "anchors": ["src/libgeodecomp/io/mpiio.h:25-132", "src/libgeodecomp/io/mpiio.h:171-211", "src/libgeodecomp/io/mpiiowriter.h:50-70", "src/libgeodecomp/io/parallelmpiiowriter.h:42-66", "src/libgeodecomp/io/mpiioinitializer.h:40-45"]}
{"id": "C98", "title": "Regions beyond the borders of a torus are read correctly", "statement": "On a torus, MPIIO::readRegion yields for each coordinate outside of the dimensions the cell of the normalised coordinate.", "quantifier": "all regions on periodic topologies", "why_tests_cant": "Tests read regions within the dimensions.", "anchors": ["src/libgeodecomp/io/mpiio.h:46-60", "src/libgeodecomp/io/mpiioinitializer.h:40-45"]}
{"id": "C99", "title": "Checkpoints don't depend on padding in the cells' datatype", "statement": "C97 for datatypes with gaps, i.e. whose extent exceeds their size.", "quantifier": "all datatypes", "why_tests_cant": "Test cells are read back with the partition with which they were written.", "anchors": ["src/libgeodecomp/io/mpiio.h:25-132", "src/libgeodecomp/io/mpiio.h:171-191"]}
{"id": "C100", "title": "BOVWriter and SerialBOVWriter write the members of all cells in order", "statement": "The data file of BOVWriter contains the selected member (a scalar) of all cells in lexicographic order, for any division of the grid among the processes and any order of their writes. SerialBOVWriter writes the same bytes, and for array members all components of each cell in turn.", "quantifier": "all dimensions, grids, partitions, execution orders, previous file contents", "why_tests_cant": "Tests compare the file for a single partition.", "anchors": ["src/libgeodecomp/io/bovwriter.h:133-168", "src/libgeodecomp/io/bovoutput.h:64-100", "src/libgeodecomp/io/serialbovwriter.h:55-65"]}
{"id": "C101", "title": "BOVWriter writes all components of array members", "statement": "With a Selector for an array member, BOVWriter writes arity() components per cell, as SerialBOVWriter does.", "quantifier": "all selectors", "why_tests_cant": "Tests of BOVWriter only select scalar members.", "anchors": ["src/libgeodecomp/io/bovwriter.h:133-168", "src/libgeodecomp/storage/arrayfilter.h:29-32"]}
{"id": "C102", "title": "MeshlessAdapter::search finds exactly the close vertices", "statement": "After inserting any vertices into an adapter's grid, search() reports, for any position, exactly the IDs of those vertices whose distance from it (along the shortest path, periodic images included for periodic axes) is less than the box size, and returns true iff there are any.", "quantifier": "all dimensions, topologies, space extents, box sizes, vertices and positions within the space; exact arithmetic", "why_tests_cant": "Tests insert a handful of vertices for one or two box sizes.", "anchors": ["src/libgeodecomp/storage/meshlessadapter.h:47-90", "src/libgeodecomp/storage/meshlessadapter.h:247-305"]}
{"id": "C103", "title": "search also holds in floating point", "statement": "C102 for doubles: a vertex whose distance is less than the box size is found.", "quantifier": "all doubles", "why_tests_cant": "Needs particular values close to the boundary of a container cell.", "anchors": ["src/libgeodecomp/storage/meshlessadapter.h:52-90", "src/libgeodecomp/storage/meshlessadapter.h:247-267"]}
{"id": "C104", "title": "findOptimumBoxSize yields a valid box size or throws", "statement": "For any graph on vertices within the space, findOptimumBoxSize terminates. If it returns a box size, then the adapter has been reset to it and any two neighbors of the graph are in adjacent container cells (including periodic ones). If it throws, there are too many cells or the last box size was invalid.", "quantifier": "all dimensions, topologies, extents, initial box sizes, vertices and graphs; exact arithmetic", "why_tests_cant": "Tests only cover few graphs; termination of the bisection depends on arbitrary positions.", "anchors": ["src/libgeodecomp/storage/meshlessadapter.h:107-196", "src/libgeodecomp/storage/meshlessadapter.h:247-267", "src/libgeodecomp/storage/meshlessadapter.h:307-336"]}
{"id": "C105", "title": "findOptimumBoxSize copes with any graph", "statement": "findOptimumBoxSize returns a box size for every graph, e.g. one without edges.", "quantifier": "all graphs", "why_tests_cant": "Tests use connected meshes.", "anchors": ["src/libgeodecomp/storage/meshlessadapter.h:107-135", "src/libgeodecomp/storage/meshlessadapter.h:247-267"]}
{"id": "C106", "title": "findOptimumBoxSize returns a box size if there's a valid one", "statement": "If the current box size is valid (and not too many cells are needed), findOptimumBoxSize returns one.", "quantifier": "all graphs and vertices", "why_tests_cant": "The source calls these arcane cases; needs vertices in the overhang at the far boundary.", "anchors": ["src/libgeodecomp/storage/meshlessadapter.h:137-182"]}
{"id": "C107", "title": "SoAGrid reads back what was written", "statement": "After any sequence of set(), set(streak) and setEdge() an SoAGrid returns for each coordinate (and each streak inside of its box) the value written last to the place which the coordinate denotes under the topology, the default cell if there was none, and the edge cell for places outside. If LibFlatArray offers no arrays of sufficient size then the constructor throws. resize() keeps the edge cell, and all cells if only the origin changes. The sizes on offer are never too small.", "quantifier": "all cell types, 1 to 3 dimensions, all topologies (including mixed ones), stencil radii, boxes, sequences of accesses, choices of array sizes, initial memory contents", "why_tests_cant": "The layout depends on the topology, the stencil radius and the sizes which LibFlatArray chooses; tests use few combinations of dimensions and hardly any mixed topologies or displaced boxes.", "anchors": ["src/libgeodecomp/storage/soagrid.h:48-115", "src/libgeodecomp/storage/soagrid.h:121-150", "src/libgeodecomp/storage/soagrid.h:366-520", "lib/libflatarray/include/libflatarray/api_traits.hpp:61-175"]}
{"id": "C108", "title": "SoAGrid transfers regions", "statement": "saveRegion() stores the members of the cells of a region one after the other, in the order of the region's coordinates. loadRegion() into any other SoAGrid (of different size, topology, stencil, with another offset) assigns exactly these values to exactly these cells and leaves all other cells and the edge alone; buffers which are too small are rejected. UnstructuredSoAGrid's use of saveRegionImplementation() saves the same.", "quantifier": "all regions inside of the boxes, offsets, topologies, grids reachable by writes, resizes, loads and updates", "why_tests_cant": "The number of regions is unbounded, and mistakes show only for certain combinations of padding, origin and array sizes.", "anchors": ["src/libgeodecomp/storage/soagrid.h:523-585", "src/libgeodecomp/storage/soagrid.h:630-650", "lib/libflatarray/include/libflatarray/soa_grid.hpp"]}
{"id": "C109", "title": "Updates of SoAGrid obey the topology", "statement": "UpdateFunctor for Struct of Arrays cells: for each coordinate c of a region the cell at c + targetOffset of the new grid receives the update which sees, at each accessed coordinate, the cell of the old grid which the topology demands (wrapped, or the edge cell), relative to c + sourceOffset. All other cells and the edge keep their values. This doesn't depend on the order of the streaks nor on how they are cut. Grids of different dimensions are rejected.", "quantifier": "all update functions and sets of accessed coordinates within the stencil, topologies, boxes, regions inside of them, orders of streaks, array sizes; radius at most 1 if axes wrap (C111), uniform topology for parts of a space (C112), equal displacement for parts of a cube (C113)", "why_tests_cant": "The functor splits each streak in up to three calls with different offsets, depending on dimensions, position and topology; off-by-one errors at corners show for particular streaks only.", "anchors": ["src/libgeodecomp/storage/fixedneighborhoodupdatefunctor.h:38-112", "src/libgeodecomp/storage/fixedneighborhoodupdatefunctor.h:132-255", "src/libgeodecomp/storage/fixedneighborhood.h:65-83", "src/libgeodecomp/storage/updatefunctor.h:97-138"]}
{"id": "C110", "title": "SoAGrid transfers regions from another period", "statement": "saveRegion() of a topologically correct SoAGrid on a torus saves the cells which get() returns for the coordinates of the region, as DisplacedGrid does.", "quantifier": "all regions whose cells are part of the grid after wrapping", "why_tests_cant": "Tests of SoAGrid use regions inside of the box.", "anchors": ["src/libgeodecomp/storage/soagrid.h:523-535"]}
{"id": "C111", "title": "Updates of SoAGrid with wide stencils on a torus", "statement": "Updates of SoAGrid obey the topology for any stencil radius.", "quantifier": "all stencils, topologies", "why_tests_cant": "Tests use stencils of radius 1 for tori.", "anchors": ["src/libgeodecomp/storage/fixedneighborhood.h:65-83", "src/libgeodecomp/storage/fixedneighborhoodupdatefunctor.h:132-255"]}
{"id": "C112", "title": "Updates of SoAGrid in parts of spaces with mixed topology", "statement": "Updates of an SoAGrid which is part of a space whose axes wrap only in part obey the topology.", "quantifier": "all topologies, boxes and streaks", "why_tests_cant": "Tests use uniform topologies for grids with topological dimensions.", "anchors": ["src/libgeodecomp/storage/fixedneighborhoodupdatefunctor.h:38-112"]}
{"id": "C113", "title": "Updates of SoAGrid with offsets in a space which doesn't wrap", "statement": "Updates of an SoAGrid which is part of a cube honor different source and target offsets.", "quantifier": "all offsets for which source and target lie in the box", "why_tests_cant": "Tests don't combine offsets with topological dimensions.", "anchors": ["src/libgeodecomp/storage/fixedneighborhoodupdatefunctor.h:132-170"]}
{"id": "C114", "title": "Small 3D grids can be stored", "statement": "An SoAGrid with the default sizes can hold any box of up to 1000 cells per axis.", "quantifier": "all boxes", "why_tests_cant": "Degenerate boxes aren't tested.", "anchors": ["lib/libflatarray/include/libflatarray/api_traits.hpp:61-175"]}
{"id": "C115", "title": "updateLineX() may take its parameters by value", "statement": "A cell's updateLineX() for Struct of Arrays may take its neighborhoods by value, as TestCell's does.", "quantifier": "all update functions", "why_tests_cant": "Only grids without wrapping are tested with such cells.", "anchors": ["src/libgeodecomp/misc/testcell.h:271-281", "src/libgeodecomp/storage/fixedneighborhoodupdatefunctor.h:195-255"]}
{"id": "C116", "title": "saveRegionImplementation() of any SoAGrid", "statement": "saveRegionImplementation() saves the cells of the given streaks.", "quantifier": "all SoAGrids and streaks", "why_tests_cant": "It is tested by means of unstructured grids only.", "anchors": ["src/libgeodecomp/storage/soagrid.h:537-549"]}
{"id": "C117", "title": "HPXDataflowSimulator computes synchronous rounds", "statement": "Regardless of how the localities, HPX threads and the network interleave, each cell's update gets the step and nano step it is due, its neighbors and exactly the messages which they have sent to it in their previous update (a default message if they didn't send one, and in the first round). At any time a cell has the state of its round, and when run() has returned everywhere all cells have the state after maxSteps * NANO_STEPS synchronous rounds. No exception is thrown until then.", "quantifier": "all cells/messages/updates which look only at messages of neighbors and send at most one message to each, all finite symmetric adjacencies, distributions of cells to (non-empty) localities, chunk sizes, numbers of steps and nano steps, all interleavings of component construction, launching, set up, updates, sends, deliveries and semaphore signals", "why_tests_cant": "Tests see one of exponentially many interleavings, and only one chain-like graph with messages that are the same for all executions.", "anchors": ["src/libgeodecomp/parallelization/hpxdataflowsimulator.h:54-148", "src/libgeodecomp/parallelization/hpxdataflowsimulator.h:151-270", "src/libgeodecomp/parallelization/hpxdataflowsimulator.h:336-432", "src/libgeodecomp/communication/hpxreceiver.h:98-107"]}
{"id": "C118", "title": "HPXDataflowSimulator terminates without deadlock", "statement": "In every configuration which can be reached, either run() has returned on all localities or some event can happen; and the number of events of any execution is bounded. Hence every execution ends, with run() returned everywhere. In particular the look-ahead semaphore and the chunks never block each other across localities.", "quantifier": "as C117", "why_tests_cant": "A deadlock depends on the interleaving; tests can't show its absence.", "anchors": ["src/libgeodecomp/parallelization/hpxdataflowsimulator.h:196-234", "src/libgeodecomp/parallelization/hpxdataflowsimulator.h:399-431"]}
{"id": "C119", "title": "HPXDataflowSimulator with one-way neighbors", "statement": "If each cell only lists those neighbors whose messages it wants, run() still terminates.", "quantifier": "adjacencies which aren't symmetric", "why_tests_cant": "Tests only use symmetric graphs (the test for asymmetric communication, too).", "anchors": ["src/libgeodecomp/parallelization/hpxdataflowsimulator.h:159-194"]}
{"id": "C120", "title": "HPXDataflowSimulator with more localities than cells", "statement": "run() also works on localities which don't get any cells.", "quantifier": "distributions of cells to localities", "why_tests_cant": "Tests use 50 cells on 4 localities.", "anchors": ["src/libgeodecomp/parallelization/hpxdataflowsimulator.h:367-423"]}
{"id": "C121", "title": "HPXDataflowSimulator honors startStep()", "statement": "Cells are updated for the steps from the Initializer's startStep() up to maxSteps(), as done by the other simulators.", "quantifier": "initializers with startStep() > 0", "why_tests_cant": "Tests only start at step 0.", "anchors": ["src/libgeodecomp/parallelization/hpxdataflowsimulator.h:399-409"]}
{"id": "C122", "title": "HPXDataflowSimulator's continuations end before run() returns", "statement": "No continuation accesses local variables of run() after it has returned.", "quantifier": "all interleavings", "why_tests_cant": "Depends on the scheduler; the memory is usually still there.", "anchors": ["src/libgeodecomp/parallelization/hpxdataflowsimulator.h:406-431"]}
{"id": "C123", "title": "HPXDataflowSimulator delivers several messages", "statement": "A cell may send more than one message to the same neighbor in an update; it will see one of them (or the last).", "quantifier": "updates with several sends", "why_tests_cant": "The test's cells send one message per neighbor.", "anchors": ["src/libgeodecomp/parallelization/hpxdataflowsimulator.h:98-130", "src/libgeodecomp/communication/hpxreceiver.h:98-107"]}
{"id": "C124", "title": "Nodes find a place for each of their cells", "statement": "The offset and dimensions which a Stepper determines for its grid yield a grid with a separate place for each cell of the node's (expanded) region, including those which the topology wraps around the borders of the simulation area. Cells are accessed via their original coordinates; each reads back what has been written to it last.", "quantifier": "all topologies (wrapping along any subset of axes), dimensions, simulation areas, non-empty regions within, cells and sequences of writes", "why_tests_cant": "Tests check a handful of regions in 2D; two cells sharing one place would only show as wrong results for particular shapes on tori.", "anchors": ["src/libgeodecomp/parallelization/nesting/offsethelper.h:45-119", "src/libgeodecomp/parallelization/nesting/stepper.h:95-102", "src/libgeodecomp/parallelization/nesting/commonstepper.h:163-170"]}
{"id": "C125", "title": "Nodes don't allocate more than necessary", "statement": "Along each axis, the extent determined for the grid is minimal: no interval with fewer slices has room for all cells of the region (modulo the period along wrapping axes).", "quantifier": "as C124, all intervals", "why_tests_cant": "Tests compare with a few expected values; the shortcut for regions smaller than half of the area needs an argument.", "anchors": ["src/libgeodecomp/parallelization/nesting/offsethelper.h:56-102"]}
{"id": "C126", "title": "Updates on a node's grid equal updates of the whole simulation area", "statement": "Updating any part of the region whose neighbors all belong to the region (or lie beyond a border which isn't wrapped) yields the cells which an update on a grid of the whole simulation area would yield, on the scalar path as well as on the one with pointers to lines, for any order of (parts of) Streaks. Other cells of the region and the edge cell don't change.", "quantifier": "as C124, all parts of regions, stencils of radius 1 in 1D to 3D, cells, updates, contents of the grids, orders", "why_tests_cant": "Results depend on where the region lies relative to the borders of area, grid and memory; tests cover few of these combinations.", "anchors": ["src/libgeodecomp/parallelization/nesting/offsethelper.h:45-119", "src/libgeodecomp/storage/updatefunctor.h:140-215", "src/libgeodecomp/storage/displacedgrid.h:202-238"]}
{"id": "C127", "title": "Cells in a Struct of Arrays keep their members", "statement": "Storing a cell via an accessor of a soa_grid changes exactly the cell at that index: all registered members, including every element of array members, read back as stored, and no other cell changes. Loading a cell sets exactly the registered members of the object; everything else in there is kept. Any memory of the right size holds some set of cells.", "quantifier": "all sets of registered members which don't overlap (any sizes, arities, order), numbers of cells, indices, cells and contents of the memory", "why_tests_cant": "The address computations interleave member offsets, arities and the number of cells; tests use a handful of structs and sizes, and overlapping arrays would only corrupt particular members of particular cells.", "anchors": ["lib/libflatarray/include/libflatarray/detail/macros.hpp:51-57", "lib/libflatarray/include/libflatarray/detail/macros.hpp:90-183", "lib/libflatarray/include/libflatarray/macros.hpp:221-247", "lib/libflatarray/include/libflatarray/detail/soa_array_member_copy_helper.hpp:199-265"]}
{"id": "C128", "title": "saveMember extracts the selected member of each cell", "statement": "saveMember for a Region within the grid writes, cell by cell in the order of the Region, the external representation of the selected member of the cell which get() returns, and nothing beyond. This holds for Grid, DisplacedGrid and SoAGrid and for members, array members, members of members and members with user-defined filters.", "quantifier": "all topologies, dimensions (SoAGrid: up to 3), boxes, reachable states of the grids, sizes of cells and members, selectors, filters (any user-defined functions), Regions within the grid, buffers which are large enough", "why_tests_cant": "Tests use few selectors on few small grids. Pointer arithmetic depends on cell layout, padding, strides between the elements of arrays, and the shape of the Region.", "anchors": ["src/libgeodecomp/storage/selector.h:205-366", "src/libgeodecomp/storage/gridbase.h:217-261", "src/libgeodecomp/storage/grid.h:422-489", "src/libgeodecomp/storage/displacedgrid.h:355-424", "src/libgeodecomp/storage/soagrid.h:123-266", "src/libgeodecomp/storage/memberfilter.h:128-265"]}
{"id": "C129", "title": "loadMember assigns the selected member and nothing else", "statement": "loadMember for a Region within the grid assigns to the selected member of each cell of the Region its value from the buffer, in the order of the Region. All other members of these cells, all other cells and the edge cell remain as they were. The resulting grid is in a state which could have been reached by set(), too.", "quantifier": "as C128, all buffers. What is assigned to the member itself: for filters which don't refer to members of members on Grid and DisplacedGrid, on SoAGrid with at most one level thereof and array filters which set all elements (C131); that external values are preserved: all filters whose load and save are inverse.", "why_tests_cant": "as C128; writes to the wrong place would damage neighboring cells or members, in particular those a test doesn't look at.", "anchors": ["src/libgeodecomp/storage/gridbase.h:217-261", "src/libgeodecomp/storage/grid.h:457-489", "src/libgeodecomp/storage/displacedgrid.h:376-424", "src/libgeodecomp/storage/soagrid.h:209-266", "src/libgeodecomp/storage/defaultfilter.h:16-72", "src/libgeodecomp/storage/defaultarrayfilter.h:16-86", "src/libgeodecomp/storage/simplefilter.h:25-75", "src/libgeodecomp/storage/simplearrayfilter.h:19-79", "src/libgeodecomp/storage/memberfilter.h:128-265"]}
{"id": "C130", "title": "Members which were loaded can be saved again", "statement": "saveMember after loadMember with the same Selector and Region returns the buffer that was loaded, byte by byte.", "quantifier": "as C128, for all selectors whose filter preserves external values", "why_tests_cant": "as C128", "anchors": ["src/libgeodecomp/storage/gridbase.h:217-261", "src/libgeodecomp/storage/selector.h:205-366"]}
{"id": "C131", "title": "Loading a member of a member keeps its siblings", "statement": "loadMember with a Selector for a member of a member changes that one only, the other members of the enclosing object keep their values.", "quantifier": "all grids, nested selectors", "why_tests_cant": "Tests of nested selectors check the member which is loaded, not its siblings.", "anchors": ["src/libgeodecomp/storage/memberfilter.h:166-213", "src/libgeodecomp/storage/selector.h:275-366"]}
{"id": "C132", "title": "saveMember works for Regions across the boundary of a torus", "statement": "A topologically correct DisplacedGrid saves the members of those cells which get() and saveRegion() find for the coordinates of a Region, also if it extends across the boundary of the torus.", "quantifier": "all tori, boxes, Regions", "why_tests_cant": "Tests save Regions inside of the grid.", "anchors": ["src/libgeodecomp/storage/displacedgrid.h:42-100", "src/libgeodecomp/storage/displacedgrid.h:355-389", "src/libgeodecomp/storage/grid.h:438-455"]}
{"id": "C133", "title": "Simplex search ends with admissible parameters", "statement": "A SimplexOptimizer can be constructed for any parameters; it throws if and only if the number of stepsizes is wrong. Each call ends after at most (n + 1) + steps * (2n + 4) evaluations for n parameters. All parameters which are evaluated lie in the domains given by the user, and so do those returned. The latter have been evaluated, in this call or an earlier one, and getFitness() is their fitness.", "quantifier": "all intervals and sets (with positive granularity not larger than the extent, after any assignments), evaluators (any function, any sign), epsilons, step multiplicators, stepsizes, numbers of steps and sequences of calls; computed exactly", "why_tests_cant": "The search compares and moves vertices depending on all fitness values, with clamping and snapping to granularity; tests minimise a few functions.", "anchors": ["src/libgeodecomp/misc/simplexoptimizer.cpp:102-403", "src/libgeodecomp/misc/simplexoptimizer.h:16-78", "src/libgeodecomp/misc/optimizer.h:21-53"]}
{"id": "C134", "title": "Simplex search never loses ground", "statement": "The fitness reported by a call isn't lower than the fitness of the initial parameters, nor lower than that reported by any earlier call.", "quantifier": "as C133, for intervals whose extent is a multiple of their granularity (integral for integral intervals), evaluators which depend on the values only and yield zero or positive (normal) numbers", "why_tests_cant": "Needs an argument on all branches of the algorithm, e.g. that the best vertex survives contractions and restarts, including ties between best and worst.", "anchors": ["src/libgeodecomp/misc/simplexoptimizer.cpp:128-214", "src/libgeodecomp/misc/simplexoptimizer.cpp:257-283", "src/libgeodecomp/misc/simplexoptimizer.cpp:334-403"]}
{"id": "C135", "title": "Simplex search returns the best parameters it has evaluated", "statement": "No parameters evaluated during the search have a higher fitness than those returned.", "quantifier": "as C134", "why_tests_cant": "Tests check convergence towards the optimum of smooth functions only.", "anchors": ["src/libgeodecomp/misc/simplexoptimizer.cpp:139-150"]}
{"id": "C136", "title": "Simplex search never loses ground, whatever the granularity", "statement": "As C134 for intervals whose extent isn't a multiple of their granularity.", "quantifier": "as C133, evaluators as in C134", "why_tests_cant": "Needs a value in the last, incomplete step of an interval to be the best one.", "anchors": ["src/libgeodecomp/misc/simplexoptimizer.cpp:334-340", "src/libgeodecomp/misc/simplexoptimizer.cpp:392-403", "src/libgeodecomp/misc/simulationparameters.h:166-176"]}
{"id": "C137", "title": "Simplex search never loses ground for negative fitness", "statement": "As C134 for evaluators which yield negative numbers.", "quantifier": "as C134, evaluators with negative values", "why_tests_cant": "Tests use positive fitness, or check the result by its distance to the optimum.", "anchors": ["src/libgeodecomp/misc/simplexoptimizer.cpp:229-236", "src/libgeodecomp/misc/simplexoptimizer.cpp:271-283", "src/libgeodecomp/misc/limits.h:37-45"]}
{"id": "C138", "title": "ConvexPolytope is the intersection of what was inserted", "statement": "For a ConvexPolytope in 2D, includes(x) holds if and only if x is strictly inside of the simulation space, on top of all inserted planes and strictly nearer to the center than to all inserted points. After updateGeometryData() each limit is a side of the space or one of the inserted planes (or the bisector for an inserted point, with its ID); its length is the length of the polytope's border on it. Each edge of the polytope has a limit.", "quantifier": "all centers, dimensions, sequences of insertions and updates (any order, any multiplicity; planes through corners, parallel, identical) whose intersection isn't empty; points are inserted before the first update and with coordinates which aren't lower than -2 minus those of the center; exact arithmetic", "why_tests_cant": "Planes are deleted for good depending on the cut points of previous planes. Tests insert a few planes.", "anchors": ["src/libgeodecomp/geometry/convexpolytope.h:25-89", "src/libgeodecomp/geometry/convexpolytope.h:138-162", "src/libgeodecomp/geometry/convexpolytope.h:252-341", "src/libgeodecomp/geometry/plane.h:12-46"]}
{"id": "C139", "title": "ConvexPolytope yields Voronoi cells", "statement": "After inserting points, includes(x) holds if and only if x is inside of the space and strictly nearer to the center than to each of the points. Each limit which isn't a side of the space carries the ID of a point, the direction towards the center and the length of the common border. Each point which shares a border (of more than one point) with the cell has a limit.", "quantifier": "all centers inside of the space, all lists of points in the (closed) space which differ from the center, in any order, including duplicates and cocircular points; exact arithmetic", "why_tests_cant": "Degenerate configurations (more than three cells meeting in one point) are the norm on regular grids; tests compare a few shapes.", "anchors": ["src/libgeodecomp/geometry/convexpolytope.h:40-105", "src/libgeodecomp/geometry/convexpolytope.h:138-162", "src/libgeodecomp/geometry/convexpolytope.h:252-341"]}
{"id": "C140", "title": "updateGeometryData() never throws", "statement": "No sequence of insertions and updates throws 'diameter should never ever increase!', and none loses a point which is inside of all planes and nearer to the center than to all inserted points. The diameter is the largest extent of the polytope. The bounding box begins at or before the polytope and ends less than two units before its end.", "quantifier": "all centers, dimensions, sequences of insertions and updates whose intersection isn't empty; diameter and bounding box: for sequences as in C138; exact arithmetic", "why_tests_cant": "The exception would be raised if any deletion of a limit enlarged the polytope or left invalid cut points.", "anchors": ["src/libgeodecomp/geometry/convexpolytope.h:40-105", "src/libgeodecomp/geometry/convexpolytope.h:153-200"]}
{"id": "C141", "title": "ConvexPolytope heeds all points", "statement": "As the first half of C139 for points outside of the space and for points inserted after updateGeometryData().", "quantifier": "all centers, points and sequences", "why_tests_cant": "Needs a point far to the left or below, or an update between insertions.", "anchors": ["src/libgeodecomp/geometry/convexpolytope.h:91-105"]}
{"id": "C142", "title": "boundingBox() contains the polytope", "statement": "After updateGeometryData() no included point is outside of boundingBox().", "quantifier": "as C138", "why_tests_cant": "Needs extents which aren't integers.", "anchors": ["src/libgeodecomp/geometry/convexpolytope.h:164-183"]}
{"id": "C143", "title": "VoronoiMesher tells cells their neighbors", "statement": "For each cell which shares a border with a given cell fillGeometryData() calls pushNeighbor() with that cell's ID.", "quantifier": "all sets of cells", "why_tests_cant": "Tests count neighbors.", "anchors": ["src/libgeodecomp/geometry/voronoimesher.h:96-124"]}
{"id": "C144", "title": "UnstructuredGridMesher places neighbors in adjacent cells", "statement": "The mesher's constructor succeeds; positionToLogicalCoord() maps each point into the grid of the mesher's logicalGridDim, and the cells of a point and of each of its neighbors differ by at most 1 along each axis. The extent of the cells is the largest distance of neighbors along each axis; the grid is as small as possible: its first and last layers along each axis contain points. Any position belongs to the cell which covers it (including lower faces, excluding upper ones).", "quantifier": "all dimensions, all lists of points and of neighbor IDs such that along each axis there are two neighbors which differ; exact arithmetic", "why_tests_cant": "ContainerCell-based simulations silently miss neighbors if one pair out of all is placed too far apart. Tests use a few meshes.", "anchors": ["src/libgeodecomp/geometry/unstructuredgridmesher.h:28-105"]}
{"id": "C145", "title": "UnstructuredGridMesher places neighbors in adjacent cells (double precision)", "statement": "As C144 with IEEE doubles: the cells of neighbors differ by at most 1 along each axis.", "quantifier": "all meshes of doubles", "why_tests_cant": "Needs a distance which is rounded down by one ulp.", "anchors": ["src/libgeodecomp/geometry/unstructuredgridmesher.h:56-105"]}
{"id": "C146", "title": "UnstructuredGridMesher accepts degenerate meshes", "statement": "The constructor succeeds for meshes with a single layer of points along an axis (e.g. a line in 2D), and for the empty mesh, for which there is a special case in determineMaximumDiameter().", "quantifier": "all meshes", "why_tests_cant": "Division by zero isn't reported for floats; converting the result to an integer is undefined and depends on the platform.", "anchors": ["src/libgeodecomp/geometry/unstructuredgridmesher.h:28-54", "src/libgeodecomp/geometry/unstructuredgridmesher.h:75-105"]}
{"id": "C147", "title": "MultiContainerCell updates are synchronous", "statement": "A cell with several containers (ContainerCell, BoxCell, PassThroughContainer): an update gives each element the state its update() computes from the old states around, no matter how the containers are ordered, which elements ask for each other, and which particles were spawned meanwhile. Particles spawned in the own or a previous container are appended and aren't updated yet. IDs, the order of elements and boxes' geometry remain. hood.member[id] yields the one element around with this ID, or throws if there's none. If an update throws, an element's update() did, or a box's capacity is exceeded.", "quantifier": "all dimensions 1 to 3, all numbers, kinds and orders of members, all contents (IDs unique among the cells around), all update() functions which read from the neighborhood by ID, by coordinate or by iteration, which spawn particles and throw, all nano steps, capacities", "why_tests_cant": "The result must not depend on which containers have been updated already; lookups are decided by 27 binary searches. Tests update a few cells.", "anchors": ["src/libgeodecomp/storage/multicontainercell.h:70-77", "src/libgeodecomp/storage/multicontainercell.h:150-167", "src/libgeodecomp/storage/neighborhoodadapter.h:45-65", "src/libgeodecomp/storage/containercell.h:164-192", "src/libgeodecomp/storage/boxcell.h:105-152", "src/libgeodecomp/storage/passthroughcontainer.h:40-81"]}
{"id": "C148", "title": "Meshes simulated by ContainerCells", "statement": "If the nodes of an unstructured mesh are stored in ContainerCells, in the cells which the UnstructuredGridMesher yields for their positions, then after any number of updates of the grid these cells contain exactly the nodes with the states obtained by updating all nodes of the mesh simultaneously, where each node sees itself and its neighbors; no lookup of a neighbor throws.", "quantifier": "all meshes as in C144 in 1 to 3 dimensions, all topologies, all update() functions which ask for the node itself and its neighbors (by ID, depending on what they've read before), all numbers of steps", "why_tests_cant": "Combines the mesher, binary search in ContainerCells, the neighborhood adapter and the grid's topology; a missing neighbor shows up as an exception deep inside of a simulation.", "anchors": ["src/libgeodecomp/geometry/unstructuredgridmesher.h:28-105", "src/libgeodecomp/storage/neighborhoodadapter.h:45-65", "src/libgeodecomp/storage/containercell.h:164-192"]}
{"id": "C149", "title": "Spawned particles aren't updated in the step they're spawned in", "statement": "As C147 for particles spawned in a container which follows the one whose element spawns them.", "quantifier": "all cells with several containers", "why_tests_cant": "Tests spawn particles in previous containers only.", "anchors": ["src/libgeodecomp/storage/boxcell.h:140-152", "src/libgeodecomp/storage/multicontainercell.h:163-166"]}
{"id": "C150", "title": "CUDASimulator computes what a synchronous simulation does", "statement": "Each launch of a kernel updates each cell exactly once, from the cells of the old grid which its stencil denotes in the topology (edge cells beyond non-periodic borders), with no access outside of the arrays, for every interleaving of the GPU's threads. A run calls each writer initially, in the steps of its period and in the last one, with the grid that a sequential, synchronous simulation has at that time; getGrid() yields the final one.", "quantifier": "all topologies and extents in 1 to 3 dimensions, block sizes, radius 1 stencils, update() functions, nano steps, initial grids, numbers of steps, writers, interleavings of threads - provided that along a periodic last axis there are at least two cells and no idle threads (and that the 1D topology has no flag for Y)", "why_tests_cant": "Depends on the interplay of block sizes, grid extents, padding and address corrections at each border; tests run a few combinations on one GPU, where out of bounds accesses and races rarely show.", "anchors": ["src/libgeodecomp/parallelization/cudasimulator.h:80-238", "src/libgeodecomp/parallelization/cudasimulator.h:300-428", "src/libgeodecomp/parallelization/cudasimulator.h:447-533", "src/libgeodecomp/storage/cudaupdatefunctor.h:19-42"]}
{"id": "C151", "title": "CUDASimulator stays within its arrays", "statement": "As C150 for periodic last axes with any extent and block size, and for Torus<1>: no access outside of the arrays.", "quantifier": "all extents and block sizes", "why_tests_cant": "The arrays on the device are followed by other allocated memory, hence the write goes unnoticed.", "anchors": ["src/libgeodecomp/parallelization/cudasimulator.h:126-149", "src/libgeodecomp/parallelization/cudasimulator.h:208-231"]}
{"id": "C152", "title": "Steerers take effect in the CUDASimulator", "statement": "What a steerer writes to the grid becomes part of the simulation.", "quantifier": "all steerers", "why_tests_cant": "There is a fixme in the code, but no test.", "anchors": ["src/libgeodecomp/parallelization/cudasimulator.h:453-466", "src/libgeodecomp/parallelization/cudasimulator.h:490-497"]}
{"id": "C153", "title": "CUDASimulator updates Struct of Arrays cells", "statement": "As C150 for cells with APITraits::HasSoA.", "quantifier": "all SoA models", "why_tests_cant": "The code compiles and runs, results are the initial grid.", "anchors": ["src/libgeodecomp/parallelization/cudasimulator.h:566-596"]}
{"id": "C154", "title": "updateCUDA() is called for all cells", "statement": "Models with APITraits::HasSeparateCUDAUpdate are updated by updateCUDA() only.", "quantifier": "all topologies", "why_tests_cant": "Needs a model whose update() and updateCUDA() differ on a periodic 2D grid.", "anchors": ["src/libgeodecomp/parallelization/cudasimulator.h:141-147", "src/libgeodecomp/storage/cudaupdatefunctor.h:19-42"]}
{"id": "C155", "title": "CUDASimulator supports stencils with a larger radius", "statement": "As C150 for stencils whose radius exceeds 1.", "quantifier": "all stencils", "why_tests_cant": "Nothing prevents such models from being compiled.", "anchors": ["src/libgeodecomp/parallelization/cudasimulator.h:50-63", "src/libgeodecomp/parallelization/cudasimulator.h:300-314"]}
{"id": "C156", "title": "step() of a fresh CUDASimulator", "statement": "step() may be called on a new simulator, as with other monolithic simulators, and advances the initializer's grid.", "quantifier": "all initializers", "why_tests_cant": "Device memory is often zero, as are default constructed cells.", "anchors": ["src/libgeodecomp/parallelization/cudasimulator.h:285-330", "src/libgeodecomp/parallelization/cudasimulator.h:447-488"]}
{"id": "C157", "title": "Threads in UpdateFunctor neither race nor alter results", "statement": "However UpdateFunctor splits a region among threads (one task per plane with OpenMP or HPX, tranches of Streaks in fine grained mode, or none), each cell belongs to exactly one task, no two updates access the same cell of the new grid, and for any interleaving of the tasks each cell receives the update of its neighborhood and no other cell changes.", "quantifier": "all regions, stencils, topologies, offsets, cells, concurrency specs, granularities, schedules, and both update paths", "why_tests_cant": "Schedules can't be enumerated; tests run a few threads on boxes, races rarely show.", "anchors": ["src/libgeodecomp/storage/updatefunctormacros.h:9-154", "src/libgeodecomp/storage/updatefunctor.h:60-289", "src/libgeodecomp/storage/vanillaupdatefunctor.h:17-44"]}
{"id": "C158", "title": "SerialSimulator and OpenMPSimulator compute the cellular automaton's generations", "statement": "run() ends after the last step with the generation which a synchronous simulation of the Initializer's grid yields, and calls each Writer initially, in the steps of its period and in the last step, with the generation of that step - on any number of threads.", "quantifier": "all cells, stencils, topologies and extents, nano steps, initializers, start and end steps, writers and their periods, schedules; neighbors no further than one period away", "why_tests_cant": "Tests compare a few steps of a few models.", "anchors": ["src/libgeodecomp/parallelization/serialsimulator.h:48-180", "src/libgeodecomp/parallelization/openmpsimulator.h:40-110"]}
{"id": "C159", "title": "Steering, and the number of threads can't be observed", "statement": "For any sequence of calls of step() and run() and any Steerers, which may read and write cells, keep memories, and end the simulation, SerialSimulator and OpenMPSimulator do what a reference simulation on whole grids does. Hence grids, Steerers and Writers are the same for all schedules and concurrency specs.", "quantifier": "all sequences of calls, Steerers, Initializers, Writers, schedules; granularities of at least 1", "why_tests_cant": "Feedback between Steerers, swapping of grids and events leads to unbounded sequences of states.", "anchors": ["src/libgeodecomp/parallelization/serialsimulator.h:71-180", "src/libgeodecomp/parallelization/openmpsimulator.h:40-110", "src/libgeodecomp/storage/updatefunctor.h:60-289"]}
{"id": "C160", "title": "The edge cell as set by a Steerer lasts", "statement": "After a Steerer has called setEdge(), cells see that edge cell in all later steps, until it is set again.", "quantifier": "all Steerers", "why_tests_cant": "Edge cells are rarely steered; tests on steering write to cells inside of the grid.", "anchors": ["src/libgeodecomp/parallelization/serialsimulator.h:131-138", "src/libgeodecomp/parallelization/serialsimulator.h:162-180"]}
{"id": "C161", "title": "run() can be repeated", "statement": "Each further call of run() yields the same final grid and the same calls of Writers on the same grids as the first, if the Initializer sets all cells, update() sets all members of a cell, and there are no Steerers.", "quantifier": "all numbers of calls, cells, initializers, schedules", "why_tests_cant": "Unbounded sequences of calls; leftovers of former runs may stay in either of the grids.", "anchors": ["src/libgeodecomp/parallelization/serialsimulator.h:98-138"]}
{"id": "C162", "title": "run() can be repeated with cells which keep members", "statement": "As C161 for cells whose update() leaves some members as they are.", "quantifier": "all cells", "why_tests_cant": "Needs cells with such members, and two runs of the same simulator.", "anchors": ["src/libgeodecomp/parallelization/serialsimulator.h:98-117"]}
{"id": "C163", "title": "A Color has the components it was made of", "statement": "red(), green() and blue() return the components passed to the constructor if these are within 0 to 255 (characters are taken as unsigned), and two such Colors are equal exactly if all components are.", "quantifier": "all components from 0 to 255", "why_tests_cant": "2^24 Colors, and as many pairs as that squared.", "anchors": ["src/libgeodecomp/misc/color.h:31-84"]}
{"id": "C164", "title": "Components of a Color don't affect each other", "statement": "If one component is out of range, then the others are still returned as given.", "quantifier": "all integers", "why_tests_cant": "Tests use components in range.", "anchors": ["src/libgeodecomp/misc/color.h:52-64"]}
{"id": "C165", "title": "Palette interpolates between the colors added", "statement": "For each sequence of addColor() calls: without any, operator[] throws. Values below the smallest key get its color, values from the greatest key on get that one's. Between adjacent keys each component is the linear interpolation of the components of the neighbors, rounded down. A later color for the same key replaces the former one.", "quantifier": "all sequences of addColor(), all values; exact arithmetic and integers without overflow", "why_tests_cant": "Infinitely many values and key sets; off-by-one errors at keys and errors in rounding need specific values.", "anchors": ["src/libgeodecomp/misc/palette.h:24-60"]}
{"id": "C166", "title": "Palette returns the color added for a key when keys are doubles", "statement": "For floating point keys, operator[] of a key yields the very color which was added for it.", "quantifier": "all double keys and colors", "why_tests_cant": "It holds for most keys and colors and fails only for some.", "anchors": ["src/libgeodecomp/misc/palette.h:29-60"]}
{"id": "C167", "title": "QuickPalette maps its range to a color ramp", "statement": "For min < max: values below min are black, values above max are white, and in between colors go linearly from blue via cyan, green, yellow to red, each component rounded down; all components are within range.", "quantifier": "all ranges and values; exact arithmetic", "why_tests_cant": "Infinitely many ranges and values; overflows of components into neighboring ones would show for specific values only.", "anchors": ["src/libgeodecomp/misc/quickpalette.h:19-51"]}
{"id": "C168", "title": "QuickPalette handles ranges with a single value", "statement": "If min equals max, then operator[] of that value yields a defined Color.", "quantifier": "all min = max", "why_tests_cant": "Default constructed palettes and constant data are overlooked by tests.", "anchors": ["src/libgeodecomp/misc/quickpalette.h:19-51"]}
{"id": "C169", "title": "Drawing into, slicing and pasting Images", "statement": "fillBox() paints exactly those pixels of the rectangle which belong to the Image. slice() returns the rectangle's pixels and throws invalid_argument exactly if it exceeds the Image. paste() copies exactly those pixels which fall onto the target and never throws. All else is unchanged.", "quantifier": "all extents, offsets (also negative ones), and pixels", "why_tests_cant": "Unbounded extents and offsets; clipping has many cases.", "anchors": ["src/libgeodecomp/storage/image.h:52-70", "src/libgeodecomp/storage/image.cpp:9-90"]}
{"id": "C170", "title": "Plotter shows the right cell in each pixel", "statement": "For viewports whose origin isn't negative, each pixel of the viewport shows the cell at (pixel + origin) / cellDim, rounded down, if the grid has such a cell, else it's left as it is. Pixels farther than a tile beyond the viewport are left as they are.", "quantifier": "all grids, palettes, cell dimensions, viewports, images", "why_tests_cant": "Unbounded extents and offsets; tiles which are visible in part are easily missed.", "anchors": ["src/libgeodecomp/io/plotter.h:41-80", "src/libgeodecomp/io/imagepainter.h:20-28", "src/libgeodecomp/io/simplecellplotter.h:144-162"]}
{"id": "C171", "title": "Plotter for viewports with negative origin", "statement": "As C170 if the origin of the viewport is negative: pixels left of or above the grid are left as they are.", "quantifier": "all viewports", "why_tests_cant": "Tests don't pan beyond the grid's left or upper border.", "anchors": ["src/libgeodecomp/io/plotter.h:55-80"]}
{"id": "C172", "title": "PPM files show the grid", "statement": "PPMWriter writes one file initially, finally, and in each step which is a multiple of the period. It's well-formed, has grid dimension times cell dimension pixels, and pixel (x, y) has the palette's color for cell (x / width, y / height). Files of different steps have different names.", "quantifier": "all grids at the origin, palettes, cell dimensions, periods, steps", "why_tests_cant": "Unbounded grids, steps and tile sizes; tests compare single files.", "anchors": ["src/libgeodecomp/io/ppmwriter.h:68-112", "src/libgeodecomp/io/plotter.h:41-80"]}
{"id": "C173", "title": "PPM files of grids which don't start at the origin", "statement": "As C172 for grids whose bounding box has another origin.", "quantifier": "all bounding boxes", "why_tests_cant": "Tests use grids at the origin.", "anchors": ["src/libgeodecomp/io/ppmwriter.h:68-79", "src/libgeodecomp/io/plotter.h:41-80"]}
{"id": "C174", "title": "CUDAGrids hold what was stored, and regions survive the transfer to and from the device", "statement": "get() returns what was last written to the cell which the coordinate denotes, and getEdge() the last edge cell. saveRegion() followed by loadRegion() (possibly on another grid, with another bounding box, topology and offset) transfers exactly the cells of the region, and throws exactly if the buffer is too small. The same for direct transfers between a CUDAGrid and a grid on the host. All other cells remain as they are.", "quantifier": "all topologies of any dimension, bounding boxes, reachable states, regions whose rows don't cross a seam, offsets, buffers", "why_tests_cant": "Unbounded grids and regions; offset and stride errors show only for specific bounding boxes.", "anchors": ["src/libgeodecomp/storage/cudagrid.h:36-202", "src/libgeodecomp/storage/cudagrid.h:276-310"]}
{"id": "C175", "title": "CUDAGrids behave like DisplacedGrids", "statement": "Even at the seams of a torus and for the edge cell, CUDAGrid gives the same answers as DisplacedGrid for the same sequence of accesses.", "quantifier": "all topologies, bounding boxes and accesses", "why_tests_cant": "Tests stay within the bounding box.", "anchors": ["src/libgeodecomp/storage/cudagrid.h:60-127", "src/libgeodecomp/storage/cudagrid.h:276-306"]}
{"id": "C176", "title": "The CUDAStepper's kernel updates a region's cells", "statement": "In whatever order the threads run, the kernel launched for a region of at most 200 cells gives each cell of the region the value its update computes from the neighborhood in the old grid, and leaves all other cells as they are. No access is out of bounds.", "quantifier": "all 2D and 3D topologies, bounding boxes, regions up to 200 cells, stencils, updates which may be repeated, orders of the threads", "why_tests_cant": "The number of orders is astronomic; index errors (strides of the arrays of coordinates, wrapping at borders) depend on the region's shape.", "anchors": ["src/libgeodecomp/parallelization/nesting/cudastepper.h:24-245", "src/libgeodecomp/geometry/cudaregion.h:14-70"]}
{"id": "C177", "title": "The CUDAStepper's kernel updates each cell of a region once", "statement": "As C176 for regions of any size and for any update.", "quantifier": "all regions and updates", "why_tests_cant": "Tests use small regions and updates which may be repeated.", "anchors": ["src/libgeodecomp/parallelization/nesting/cudastepper.h:24-245", "src/libgeodecomp/parallelization/nesting/cudastepper.h:350-360"]}
{"id": "C178", "title": "Simulations by a single CUDAStepper agree with the serial simulation", "statement": "If one node simulates the whole grid (of at most 200 cells) with a CUDAStepper, then writers get to see, at all nano steps they ask for, exactly the values of the serial simulation, for all cells. Steerers affect the grid on the device exactly as in the serial simulation. There are no failures, and the simulation terminates.", "quantifier": "all grids up to 200 cells, topologies, ghost zone widths, updates, steerers, sets of steps required by writers, numbers of steps", "why_tests_cant": "Unbounded runs; copying to and from the device depends on what is due in which nano step.", "anchors": ["src/libgeodecomp/parallelization/nesting/cudastepper.h:336-584", "src/libgeodecomp/parallelization/nesting/commonstepper.h:113-188"]}
{"id": "C179", "title": "Simulations by several CUDASteppers agree with the serial simulation", "statement": "As C178 for grids which are distributed over several nodes.", "quantifier": "all partitions", "why_tests_cant": "Unit tests of the CUDAStepper use a single node.", "anchors": ["src/libgeodecomp/parallelization/nesting/cudastepper.h:336-584"]}
{"id": "C180", "title": "AutoTuningSimulator::run() conducts the simulation", "statement": "An AutoTuningSimulator made from an initializer can be run: it tests the simulators it knows, and then runs the best of them from the initializer's first up to its last step.", "quantifier": "all initializers, optimizers, writers, timings, build configurations", "why_tests_cant": "All tests of the AutoTuningSimulator return before they do anything.", "anchors": ["src/libgeodecomp/parallelization/autotuningsimulator.h:129-183", "src/libgeodecomp/parallelization/autotuningsimulator.h:210-242", "src/libgeodecomp/misc/serialsimulationfactory.h:28-31"]}
{"id": "C181", "title": "SimulationFactory: evaluating parameters for the first time", "statement": "A factory clones the writers it's given. Evaluating parameters then runs one simulator for the steps which the initializer prescribes; it notifies all the clones, in the order of their addition, and returns the negative duration. Foreign writers aren't affected.", "quantifier": "all factories, numbers of writers, parameters, initializers, timings", "why_tests_cant": "Arbitrary sets of writers; ownership isn't visible to tests.", "anchors": ["src/libgeodecomp/misc/simulationfactory.h:41-44", "src/libgeodecomp/misc/simulationfactory.h:61-72", "src/libgeodecomp/misc/simulationfactory.h:97-103", "src/libgeodecomp/misc/cudasimulationfactory.h:36-53"]}
{"id": "C182", "title": "SimulationFactory: evaluating parameters more than once", "statement": "A factory which writers have been added to can be evaluated any number of times, e.g. by an optimizer.", "quantifier": "all factories with writers, all parameters and optimizers", "why_tests_cant": "Use after free need not lead to a crash.", "anchors": ["src/libgeodecomp/misc/simulationfactory.h:97-103", "src/libgeodecomp/parallelization/monolithicsimulator.h:38-41"]}
{"id": "C183", "title": "AutoTuningSimulator: the number of steps for tests is found", "statement": "If the serial simulation takes the same time for each step, then normalizeSteps() ends after at most two attempts (apart from measuring a single step), and the time which the resulting number of steps takes differs from the desired time by less than a single step.", "quantifier": "all durations of a step, goals, initial guesses greater than one", "why_tests_cant": "The search depends on measured times.", "anchors": ["src/libgeodecomp/parallelization/autotuningsimulator.h:210-242"]}
{"id": "C184", "title": "AutoTuningSimulator: the fittest simulation is chosen", "statement": "If the simulations are set up such that normalizeSteps() finds the serial one, then run() chooses the simulation which was fastest in the tests and runs it unto completion.", "quantifier": "all registries, optimizers which report the fitness they measured, timings", "why_tests_cant": "Choice depends on measured times.", "anchors": ["src/libgeodecomp/parallelization/autotuningsimulator.h:165-208"]}
{"id": "C185", "title": "Chronometer: intervals are the time spent", "statement": "At any time interval<E>() is the sum of the durations which were measured (by scoped timers, tick()/tock(), addTime()) for E or an event which is part of E since the last reset(), plus the intervals of chronometers added since then; ratio() is the quotient of two of them, or 0.5 if the second one is empty.", "quantifier": "all sequences of operations, events, durations", "why_tests_cant": "Unbounded sequences of overlapping and nested measurements.", "anchors": ["src/libgeodecomp/misc/chronometer.h:91-150", "src/libgeodecomp/misc/chronometer.h:248-255", "src/libgeodecomp/misc/chronometer.h:267-323"]}
{"id": "C186", "title": "renderDuration() is precise", "statement": "For non-negative durations of less than 2^31 seconds renderDuration() yields hh:mm:ss or hh:mm:ss.uuuuuu, with minutes and seconds below 60, which denotes the duration, rounded down to microseconds.", "quantifier": "all durations from 0 to 2^31 seconds", "why_tests_cant": "Continuous range of durations.", "anchors": ["src/libgeodecomp/io/timestringconversion.h:38-60"]}
{"id": "C187", "title": "renderDuration() is precise, out of range", "statement": "The text is also correct for negative durations and those of 2^31 seconds and more.", "quantifier": "all other durations", "why_tests_cant": "Continuous range of durations.", "anchors": ["src/libgeodecomp/io/timestringconversion.h:38-60"]}
{"id": "C188", "title": "TracingWriter: forecasts are right", "statement": "If a simulation is started at step 0 and each step takes the same time, then a TracingWriter which was told the number of steps gives for each step which is a multiple of its period (and only for those) the time elapsed, the time remaining, the time of completion, the speed and the bandwidth correctly; at the end it gives the total duration. With a ParallelWriter this happens on the selected ranks only, once per step.", "quantifier": "all periods, numbers of steps, durations, grids of less than 2^31 cells, points in time before 2038", "why_tests_cant": "Depends on time.", "anchors": ["src/libgeodecomp/io/tracingwriter.h:60-143"]}
{"id": "C189", "title": "TracingWriter: forecasts after a restart", "statement": "Forecasts are also correct if the simulation starts at a later step.", "quantifier": "all simulations with startStep() > 0", "why_tests_cant": "Depends on time.", "anchors": ["src/libgeodecomp/io/tracingwriter.h:112-137"]}
{"id": "C190", "title": "TracingWriter: default parameters and large grids", "statement": "A TracingWriter may also be used without giving the number of steps (maxSteps defaults to 1), and for grids of any size.", "quantifier": "all simulations of more than one step; all grids", "why_tests_cant": "Depends on time; grids are too large for tests.", "anchors": ["src/libgeodecomp/io/tracingwriter.h:43-54", "src/libgeodecomp/io/tracingwriter.h:112-137", "src/libgeodecomp/geometry/coord.h:862-866"]}
{"id": "C191", "title": "SCOTCH partitions are what SCOTCH decided", "statement": "For each grid ScotchPartition and PTScotchPartition hand over to SCOTCH the graph in which exactly those cells are adjacent which share a face (with consistent tables and the right number of edges), and if SCOTCH assigns each cell a node, then each cell of the simulation area (and no other) is in the region of exactly that node.", "quantifier": "all 2D and 3D boxes with any origin, numbers of nodes, assignments by SCOTCH, values found behind the array of parts", "why_tests_cant": "All grids and assignments.", "anchors": ["src/libgeodecomp/geometry/partitions/scotchpartition.h:26-45", "src/libgeodecomp/geometry/partitions/scotchpartition.h:61-139", "src/libgeodecomp/geometry/partitions/scotchpartition.h:141-182", "src/libgeodecomp/geometry/partitions/ptscotchpartition.h:28-49", "src/libgeodecomp/geometry/partitions/ptscotchpartition.h:143-182"]}
{"id": "C192", "title": "SCOTCH partitions read only what was assigned", "statement": "While regions are created only those elements of the array of parts are read which belong to cells.", "quantifier": "all boxes, assignments", "why_tests_cant": "Reads beyond the end go unnoticed.", "anchors": ["src/libgeodecomp/geometry/partitions/scotchpartition.h:143-150", "src/libgeodecomp/geometry/partitions/ptscotchpartition.h:143-150"]}
{"id": "C193", "title": "PTScotchUnstructuredPartition is what SCOTCH decided", "statement": "PTScotchUnstructuredPartition hands over to SCOTCH exactly the edges of the given adjacency, and if SCOTCH assigns each cell a node, then each cell (and nothing else) is in the region of exactly that node.", "quantifier": "all adjacencies (built by any sequence of insertions), numbers of nodes, assignments", "why_tests_cant": "All graphs and assignments.", "anchors": ["src/libgeodecomp/geometry/partitions/ptscotchunstructuredpartition.h:30-64", "src/libgeodecomp/geometry/partitions/ptscotchunstructuredpartition.h:66-132"]}
{"id": "C194", "title": "PTScotchUnstructuredPartition heeds weights", "statement": "SCOTCH gets to know the weights of the nodes.", "quantifier": "all weights", "why_tests_cant": "A property of the data flow.", "anchors": ["src/libgeodecomp/geometry/partitions/ptscotchunstructuredpartition.h:104-126"]}
{"id": "C195", "title": "DistributedPTScotchUnstructuredPartition: slices are disjoint and complete", "statement": "For up to 2^24 cells the slices, from which each rank builds its part of the graph, are within the range of cells, and each cell is in the slice of exactly one rank, notwithstanding single precision arithmetic.", "quantifier": "all numbers of cells and ranks up to 2^24", "why_tests_cant": "All combinations of sizes, rounding.", "anchors": ["src/libgeodecomp/geometry/partitions/distributedptscotchunstructuredpartition.h:108-113"]}
{"id": "C196", "title": "DistributedPTScotchUnstructuredPartition: slices of large grids", "statement": "This is also true for more than 2^24 cells.", "quantifier": "all numbers of cells above 2^24", "why_tests_cant": "Grids are too large for tests.", "anchors": ["src/libgeodecomp/geometry/partitions/distributedptscotchunstructuredpartition.h:108-113"]}
{"id": "C197", "title": "DistributedPTScotchUnstructuredPartition: the exchange of fragments ends well", "statement": "The exchange never deadlocks, even if MPI doesn't buffer any message, it ends after a finite number of steps, and in the end each rank's region k is the union of the fragments k of all ranks.", "quantifier": "all numbers of ranks, fragments, interleavings and buffering decisions of MPI", "why_tests_cant": "Interleavings of arbitrarily many processes.", "anchors": ["src/libgeodecomp/geometry/partitions/distributedptscotchunstructuredpartition.h:203-239", "src/libgeodecomp/communication/mpilayer.h:260-290"]}
{"id": "C198", "title": "DistributedPTScotchUnstructuredPartition is what PT-SCOTCH decided", "statement": "PT-SCOTCH gets exactly the edges of the given adjacency, and if it assigns each cell a node, then in the end all ranks have got the same partition: each cell (and nothing else) is in the region of exactly that node.", "quantifier": "all adjacencies, numbers of cells and ranks up to 2^24, assignments, interleavings", "why_tests_cant": "All graphs, assignments and interleavings.", "anchors": ["src/libgeodecomp/geometry/partitions/distributedptscotchunstructuredpartition.h:90-123", "src/libgeodecomp/geometry/partitions/distributedptscotchunstructuredpartition.h:132-201", "src/libgeodecomp/geometry/partitions/distributedptscotchunstructuredpartition.h:203-239"]}
{"id": "C199", "title": "HPXPatchLink: halos are matched with time steps, whatever the order of arrival", "statement": "The k-th halo which the provider loads is the k-th one offered to the accepter, both for the k-th step of the link, even if parcels overtake each other. No two parcels collide, put() never waits, put() and get() throw only if a step was left out, get() waits only for parcels which were not sent or have not arrived, and at the end no parcel is left over.", "quantifier": "all regions, grids, first and last steps, strides, sequences of calls and orders of arrival", "why_tests_cant": "All interleavings and orders of arrival.", "anchors": ["src/libgeodecomp/communication/hpxpatchlink.h:54-58", "src/libgeodecomp/communication/hpxpatchlink.h:98-126", "src/libgeodecomp/communication/hpxpatchlink.h:156-205", "src/libgeodecomp/communication/hpxreceiver.h:98-107"]}
{"id": "C200", "title": "HPXStepper: all halos of a step are fetched concurrently, the result is unique", "statement": "notifyPatchProviders() asks exactly the providers which are due; whatever the order in which parcels arrive and continuations run, no exception occurs and after the last one the grid holds the sender's cells in the region of each link asked, is unchanged elsewhere, and no provider is due any more. If all senders have offered the step, this is reached after finitely many events.", "quantifier": "all numbers of links with disjoint regions, histories, grids and interleavings", "why_tests_cant": "All interleavings of continuations and arrivals.", "anchors": ["src/libgeodecomp/parallelization/nesting/hpxstepper.h:104-137", "src/libgeodecomp/communication/hpxpatchlink.h:162-189"]}
{"id": "C201", "title": "HPXReceiver::allGather returns the data of all ranks in order", "statement": "Whatever the order in which the broadcast data arrive, allGather() returns the datum of rank i at position i; it raises no exception, and it ends as soon as all have arrived.", "quantifier": "all data, numbers of ranks, orders of arrival", "why_tests_cant": "All orders of arrival.", "anchors": ["src/libgeodecomp/communication/hpxreceiver.h:109-139"]}
{"id": "C202", "title": "Simulations on top of HPX equal the serial simulation", "statement": "Whatever the order in which parcels arrive, links are served and steerers' tasks run, and however the update groups interleave: what an HpxSimulator's update groups compute, and what their writers get to see, are the values of the serial simulation, provided steerers commute (e.g. there is at most one).", "quantifier": "all grids, cells' updates, partitions, ghost zone widths, numbers of update groups and steps, commuting steerers, and all interleavings", "why_tests_cant": "All interleavings of tasks and orders of arrival.", "anchors": ["src/libgeodecomp/parallelization/nesting/hpxstepper.h:17-138", "src/libgeodecomp/parallelization/hpxsimulator.h:279-311"]}
{"id": "C203", "title": "Simulations on top of HPX don't deadlock", "statement": "Whatever the order of events: no exception occurs, some event is possible until all update groups have performed their steps, and the number of events is bounded.", "quantifier": "all simulations as in C202, all reachable states", "why_tests_cant": "All interleavings of tasks and orders of arrival.", "anchors": ["src/libgeodecomp/parallelization/nesting/hpxstepper.h:17-138", "src/libgeodecomp/parallelization/hpxsimulator.h:279-289"]}
{"id": "C204", "title": "Several steerers on top of HPX act in the order in which they were added", "statement": "If several steerers are due at the same step, their actions take effect in the order in which they were added, so the result is that of the serial simulation, even if they don't commute.", "quantifier": "all steerers and interleavings", "why_tests_cant": "Depends on how the tasks are scheduled.", "anchors": ["src/libgeodecomp/parallelization/nesting/hpxstepper.h:104-137", "src/libgeodecomp/storage/patchprovider.h:50-61"]}
{"id": "C205", "title": "LoadBalancer::initialWeights distributes all items despite rounding", "statement": "In double precision, too, the weights are not negative and add up to the number of items, so no cell is lost or assigned twice because of rounding errors; no conversion to an integer is undefined.", "quantifier": "all numbers of items below 2^52, all speeds which are 0 or between 2^-400 and 2^400, not all of them 0", "why_tests_cant": "Rounding errors depend on the values.", "anchors": ["src/libgeodecomp/loadbalancer/loadbalancer.cpp:6-28"]}
{"id": "C206", "title": "HpxSimulator: each update group is created by exactly one locality", "statement": "Given any numbers of update groups per locality, the locality indices assign each global update group to exactly one locality; each locality gets as many update groups as it asked for, and their global speeds are its own times its speed guide, in order.", "quantifier": "all numbers of localities, update groups, all speeds", "why_tests_cant": "All numbers of localities and groups, including none.", "anchors": ["src/libgeodecomp/parallelization/hpxsimulator.cpp:67-122", "src/libgeodecomp/parallelization/hpxsimulator.h:257-260"]}
{"id": "C207", "title": "HiParSimulator: complete simulations", "statement": "From the ranks' speeds (double precision), via initial weights, one of six partitions, ghost zones and links to the last step: whatever the order of events, no exception occurs, the simulation ends, each cell belongs to exactly one rank and there has the value which SerialSimulator computes.", "quantifier": "all regular grids, topologies, stencils of radius 1, cells' updates, partitions, speeds, ghost zone widths, numbers of steps, steerers, and interleavings", "why_tests_cant": "All configurations and interleavings.", "anchors": ["src/libgeodecomp/parallelization/hiparsimulator.h:198-240", "src/libgeodecomp/loadbalancer/loadbalancer.cpp:6-28"]}
{"id": "C208", "title": "HpxSimulator: complete simulations", "statement": "As C207 for HpxSimulator with any number of update groups per locality and steerers which commute; the update group of a cell is created by exactly one locality.", "quantifier": "as C207, and all numbers of localities and update groups and orders of arrival", "why_tests_cant": "All configurations and interleavings.", "anchors": ["src/libgeodecomp/parallelization/hpxsimulator.h:230-311", "src/libgeodecomp/parallelization/hpxsimulator.cpp:67-122"]}
{"id": "C209", "title": "CacheBlockingSimulator: wavefronts cover the grid, frames grow by one cell per stage", "statement": "Each cell of a plane belongs to exactly one wavefront. The frame of a wavefront for a plane and a stage consists of just those cells of the plane which the remaining stages depend on: the wavefront's, extended by one cell per remaining stage, clipped to the grid.", "quantifier": "all grid and wavefront dimensions, pipeline lengths, planes and stages", "why_tests_cant": "All dimensions and pipeline lengths, including those which don't divide each other.", "anchors": ["src/libgeodecomp/parallelization/cacheblockingsimulator.h:124-185"]}
{"id": "C210", "title": "CacheBlockingSimulator: time steps", "statement": "A simulation performs as many sweeps as are needed to reach maxSteps, not one more; writers are called when it starts and when it's done. It ends exactly at maxSteps if the pipeline's length divides the number of nano steps.", "quantifier": "all simulations which terminate, numbers of nano steps, pipeline lengths, first and last steps", "why_tests_cant": "All combinations of lengths.", "anchors": ["src/libgeodecomp/parallelization/cacheblockingsimulator.h:78-102", "src/libgeodecomp/parallelization/cacheblockingsimulator.h:187-210"]}
{"id": "C211", "title": "CacheBlockingSimulator computes what SerialSimulator computes", "statement": "Updating in pipelined wavefronts yields the same cells as updating one time step after the other, and ends with the same step number, with the same calls of writers.", "quantifier": "all grids, topologies, stencils, cells' updates, wavefront dimensions and pipeline lengths", "why_tests_cant": "All configurations; the simulator's own tests are commented out.", "anchors": ["src/libgeodecomp/parallelization/cacheblockingsimulator.h:78-102", "src/libgeodecomp/parallelization/cacheblockingsimulator.h:212-326"]}
{"id": "C212", "title": "RecursiveBisectionPartition in double precision", "statement": "With the code's floating-point arithmetic, each cut is within the box and at most a tiny bit more than half a cell off the position which the weights demand; the boxes of the nodes are pairwise disjoint and cover the simulation box; in 1D and 2D, so do their Regions.", "quantifier": "all domains whose extents are ints, all positive weights whose sum fits 64 bits (including sums that double precision can't represent), any number of nodes", "why_tests_cant": "Rounding errors show up for a few combinations of weights and extents only.", "anchors": ["src/libgeodecomp/geometry/partitions/recursivebisectionpartition.h:67-124"]}
{"id": "C213", "title": "RecursiveBisectionPartition cuts at the nearest position", "statement": "The cut is the integer next to the exact position (weight of the first half / weight of both * extent), halves rounded up.", "quantifier": "all weights and extents", "why_tests_cant": "The result differs from the exact one only if that's half-way between integers and the ratio isn't representable.", "anchors": ["src/libgeodecomp/geometry/partitions/recursivebisectionpartition.h:92", "src/libgeodecomp/geometry/partitions/recursivebisectionpartition.h:118"]}
{"id": "C214", "title": "SiloWriter: unstructured meshes", "statement": "Reading back a file gives exactly the polygons of all cells' items, cell by cell in the order of the grid, and for each selected variable one value per polygon in that same order; whatever the writer has written before.", "quantifier": "all grids, all collections of items per cell, all sequences of earlier files", "why_tests_cant": "Nodes, shape sizes, counts and variables are kept in separate vectors which must agree.", "anchors": ["src/libgeodecomp/io/silowriter.h:372-394", "src/libgeodecomp/io/silowriter.h:444-453", "src/libgeodecomp/io/silowriter.h:525-539", "src/libgeodecomp/io/silowriter.h:553-601", "src/libgeodecomp/io/silowriter.h:716-727"]}
{"id": "C215", "title": "SiloWriter: point meshes", "statement": "Reading back a file gives exactly the positions of all cells' particles in the order of the grid, and for each selected variable one value per particle in that same order; whatever the writer has written before.", "quantifier": "all grids, all numbers of particles per cell, all sequences of earlier files", "why_tests_cant": "Tests write a single small file.", "anchors": ["src/libgeodecomp/io/silowriter.h:455-465", "src/libgeodecomp/io/silowriter.h:517-527", "src/libgeodecomp/io/silowriter.h:603-611", "src/libgeodecomp/io/silowriter.h:642-649"]}
{"id": "C216", "title": "SiloWriter: regular grids", "statement": "Each cell's zone extends from origin + spacing * coordinate to the next such position along each axis, and the value found there is that cell's member, for grids of any dimension and size; whatever the writer has written before.", "quantifier": "all grids, spacings and origins, all sequences of earlier files of grids of other sizes", "why_tests_cant": "Mixed up axes don't show in tests with square grids.", "anchors": ["src/libgeodecomp/io/silowriter.h:467-486", "src/libgeodecomp/io/silowriter.h:541-551", "src/libgeodecomp/io/silowriter.h:569-581", "src/libgeodecomp/io/silowriter.h:613-640"]}
{"id": "C217", "title": "SiloWriter: file names", "statement": "Different time steps go to different files.", "quantifier": "all prefixes and steps, also those of more than five digits", "why_tests_cant": "Padding is for five digits; tests write few steps.", "anchors": ["src/libgeodecomp/io/silowriter.h:374-376"]}
{"id": "C218", "title": "SiloWriter works for all grids and selectors", "statement": "stepFinished is defined for all grids, and each variable in a file refers to a mesh in that file.", "quantifier": "all grids, all selectors which addSelector accepts", "why_tests_cant": "Tests use grids full of particles and regular grid cells.", "anchors": ["src/libgeodecomp/io/silowriter.h:383-385", "src/libgeodecomp/io/silowriter.h:553-567", "src/libgeodecomp/io/silowriter.h:583-611", "src/libgeodecomp/io/silowriter.h:629-640"]}
{"id": "C219", "title": "ParallelMemoryWriter: every node holds the whole grid", "statement": "Once a node has returned from stepFinished for some step, its grid for that step has the simulation's dimensions and edge cell, and each cell which any node passed with that call has the simulation's value of that step.", "quantifier": "all topologies, dimensions, numbers of nodes, regions and sequences of steps, all interleavings of the nodes, all limits on messages under way", "why_tests_cant": "Tests run on few nodes with one distribution; MPI's order of delivery can't be controlled.", "anchors": ["src/libgeodecomp/io/parallelmemorywriter.h:36-70", "src/libgeodecomp/io/parallelmemorywriter.h:72-93", "src/libgeodecomp/communication/mpilayer.h:260-289", "src/libgeodecomp/communication/mpilayer.h:303-325"]}
{"id": "C220", "title": "ParallelMemoryWriter: no deadlock", "statement": "The pairwise exchange never gets stuck and never accesses cells outside of the grids, even if sending blocks until the receiver is ready; the number of steps is bounded.", "quantifier": "all numbers of nodes and calls, all interleavings, all limits on messages under way (including none)", "why_tests_cant": "Deadlocks depend on the size of messages and on timing.", "anchors": ["src/libgeodecomp/io/parallelmemorywriter.h:61-69", "src/libgeodecomp/io/parallelmemorywriter.h:72-93"]}
{"id": "C221", "title": "MPI datatypes of classes", "statement": "Sending an array of objects with the generated MPI datatype copies all members of all objects and nothing else, for every class whose members are all registered, whatever their order, types, nesting and padding.", "quantifier": "all classes and nested classes without virtual functions, all array lengths, all orders in which the members are listed, all addresses of the probe object", "why_tests_cant": "Depends on padding, nesting and the order of addresses; tests cover single objects of few classes.", "anchors": ["src/libgeodecomp/communication/typemaps.cpp:35-51", "src/libgeodecomp/communication/typemaps.cpp:54-89", "src/libgeodecomp/communication/typemaps.h:94-109", "src/libgeodecomp/communication/typemaps.h:139-227"]}
{"id": "C222", "title": "MPI datatypes of the library's classes", "statement": "Coord, CoordBox, FixedArray, FloatCoord, Streak, TestCell, UnstructuredTestCell and Chronometer can be sent by means of their MPI datatypes without losing any member.", "quantifier": "all dimensions and array sizes", "why_tests_cant": "Forgotten members go unnoticed as long as both sides have the same value.", "anchors": ["src/libgeodecomp/communication/typemaps.cpp:54-976", "src/libgeodecomp/communication/typemaps.h:229-347"]}
{"id": "C223", "title": "MPI datatypes of other classes", "statement": "The members which are registered are copied for any class, including those with virtual functions and those with members which are not registered.", "quantifier": "all classes", "why_tests_cant": "Needs classes with virtual functions or arrays of objects.", "anchors": ["src/libgeodecomp/communication/typemaps.cpp:77-81", "src/libgeodecomp/communication/typemaps.cpp:83-86"]}
{"id": "C224", "title": "RandomBalancer in double precision", "statement": "With IEEE double precision arithmetic RandomBalancer returns as many weights as there are nodes, none is negative and they add up to the total of the old weights.", "quantifier": "all weights whose total times (2n + 3) is at most 2^52 for n <= 2^30 nodes, all sequences of random numbers one of which isn't 0", "why_tests_cant": "Rounding errors depend on the numbers drawn; tests see a few draws only.", "anchors": ["src/libgeodecomp/loadbalancer/randombalancer.cpp:6-39", "src/libgeodecomp/misc/random.h:18-26"]}
{"id": "C225", "title": "RandomBalancer for all totals and all draws", "statement": "RandomBalancer preserves the total for all weights and all sequences of random numbers, with IEEE double precision arithmetic.", "quantifier": "all weights, all sequences of random numbers", "why_tests_cant": "Draws of nothing but zeros are rare; huge totals don't occur in tests.", "anchors": ["src/libgeodecomp/loadbalancer/randombalancer.cpp:29", "src/libgeodecomp/loadbalancer/randombalancer.cpp:34"]}
{"id": "C226", "title": "OozeBalancer doesn't throw", "statement": "With IEEE double precision arithmetic OozeBalancer returns new weights whenever it does so with exact arithmetic.", "quantifier": "all weights and loads", "why_tests_cant": "Depends on the rounding errors of divisions; tests use few load vectors.", "anchors": ["src/libgeodecomp/loadbalancer/oozebalancer.cpp:17-76", "src/libgeodecomp/loadbalancer/oozebalancer.cpp:87-98", "src/libgeodecomp/loadbalancer/oozebalancer.cpp:114-137"]}
{"id": "C227", "title": "OozeBalancer in double precision", "statement": "With IEEE double precision arithmetic OozeBalancer either returns as many weights as there are nodes, none of them negative, which add up to the total of the old weights, or it throws std::logic_error; it never converts numbers which aren't finite.", "quantifier": "all weights with a total of at most 2^50, all loads which are 0 or between 2^-400 and 2^400, all weights of new loads between 0 and 1", "why_tests_cant": "Rounding errors, underflow and cancellation depend on the loads; tests use few load vectors.", "anchors": ["src/libgeodecomp/loadbalancer/oozebalancer.cpp:17-76", "src/libgeodecomp/loadbalancer/oozebalancer.cpp:79-100", "src/libgeodecomp/loadbalancer/oozebalancer.cpp:114-151"]}
{"id": "C228", "title": "Quotients rounded up in double precision", "statement": "The numbers of CUDA blocks and the ends of plotted areas, which are computed as ceil of a quotient of doubles, are the exact quotients of the integers, rounded up.", "quantifier": "all 32 bit integers, negative ones as well; divisors are positive", "why_tests_cant": "Rounding errors could matter for some of 2^64 pairs of integers only.", "anchors": ["src/libgeodecomp/parallelization/cudasimulator.h:398", "src/libgeodecomp/parallelization/cudasimulator.h:425", "src/libgeodecomp/io/plotter.h:63-64"]}
{"id": "C229", "title": "Kernels have one thread per cell", "statement": "The launch configurations which CUDAUtil and LibFlatArray choose for a grid comprise exactly one thread for each of its cells, with at most 512 threads per block. CUDA accepts them if and only if there are at most 65535 layers and at most 262140 rows.", "quantifier": "all dimensions", "why_tests_cant": "Cells are left out for particular sizes only, and the tests need a GPU.", "anchors": ["src/libgeodecomp/misc/cudautil.h:57-91", "lib/libflatarray/include/libflatarray/detail/generate_cuda_launch_config.hpp:30-52"]}
{"id": "C230", "title": "CUDASoAGrid holds what is written to it", "statement": "Cells, Streaks and the edge cell which are read from a CUDASoAGrid are those written last. Starting with any state, set, get, setEdge, resize, loadRegion and saveRegion have the same effect as those of SoAGrid, in whatever order the GPU runs the threads. LibFlatArray's default sizes never exceed the limits of CUDA.", "quantifier": "all topologies of up to three dimensions, boxes, stencil radii, sequences of accesses, regions and orders of threads", "why_tests_cant": "Tests run a few accesses on a particular GPU, which chooses the order of the threads.", "anchors": ["src/libgeodecomp/storage/cudasoagrid.h:139-343", "lib/libflatarray/include/libflatarray/soa_grid.hpp:186-299"]}
{"id": "C231", "title": "CUDASoAGrids with many layers", "statement": "The cells of a new CUDASoAGrid are set to the default cell whenever the sizes chosen for the cell class admit the grid.", "quantifier": "all sizes chosen by the user", "why_tests_cant": "Grids with more than 65535 layers are not tested.", "anchors": ["src/libgeodecomp/storage/cudasoagrid.h:80-97", "src/libgeodecomp/misc/cudautil.h:77-79"]}
{"id": "C232", "title": "Broadcasting a cell on GPUs", "statement": "soa_grid::broadcast() copies a cell to all of the given number of places, on GPUs as well as on CPUs.", "quantifier": "all grids, places and numbers of cells", "why_tests_cant": "Tests for CPUs pass, as another functor is used there.", "anchors": ["lib/libflatarray/include/libflatarray/soa_grid.hpp:249-260", "lib/libflatarray/include/libflatarray/detail/set_instance_functor.hpp:78-93"]}
{"id": "C233", "title": "Array members are copied from and to GPUs as on the host", "statement": "DefaultCUDAArrayFilter copies streaks of array members exactly like DefaultArrayFilter does on the host, for all combinations of host and device and in whatever order threads run, if the stride is the number of cells. For copyStreakOut with a source on the device any larger stride will do, too. Nothing but the cells' elements changes.", "quantifier": "all sizes of arrays, at least one cell when copying out, all contents, locations and orders of threads", "why_tests_cant": "Tests need a GPU, and it chooses the order of the threads.", "anchors": ["src/libgeodecomp/storage/defaultcudaarrayfilter.h:18-243", "src/libgeodecomp/storage/defaultarrayfilter.h:26-47"]}
{"id": "C234", "title": "Array members of parts of a grid on GPUs", "statement": "DefaultCUDAArrayFilter respects the stride: streaks which are shorter than the grid are copied like on the host.", "quantifier": "all strides which are not less than the number of cells", "why_tests_cant": "Tests only use strides which equal the number of cells.", "anchors": ["src/libgeodecomp/storage/defaultcudaarrayfilter.h:31-42", "src/libgeodecomp/storage/defaultcudaarrayfilter.h:97-243"]}
{"id": "C235", "title": "Copying no array member at all", "statement": "DefaultCUDAArrayFilter::copyStreakOut() does nothing if there are no cells to be copied, like on the host.", "quantifier": "all locations", "why_tests_cant": "No test copies an empty streak.", "anchors": ["src/libgeodecomp/storage/defaultcudaarrayfilter.h:44-61", "src/libgeodecomp/misc/cudautil.h:48-55"]}
{"id": "C236", "title": "Members are copied from and to GPUs as on the host", "statement": "DefaultCUDAFilter's copyMemberIn and copyMemberOut do the same as those of DefaultFilter on the host, for all combinations of host and device and whatever the order of threads: the member of each of the first cells is copied, other members and further cells stay the same.", "quantifier": "all numbers of cells (also none, and those which are no multiple of the block's size), contents, locations and orders of threads", "why_tests_cant": "Tests need a GPU, and use a few sizes only.", "anchors": ["src/libgeodecomp/storage/defaultcudafilter.h:38-103", "src/libgeodecomp/storage/defaultcudafilter.h:210-323", "src/libgeodecomp/storage/defaultfilter.h:54-71"]}
{"id": "C237", "title": "Swapping soa_grids of the same height and depth", "statement": "After swap() of two soa_grids which only differ in width, each has the dimensions and the cells the other one had.", "quantifier": "all grids, sizes chosen for the cell class, and coordinates", "why_tests_cant": "Tests swap two small grids of the same size.", "anchors": ["lib/libflatarray/include/libflatarray/soa_grid.hpp:119-132"]}
{"id": "C238", "title": "Swapping soa_grids", "statement": "After swap() of two soa_grids each has the dimensions and the cells the other one had.", "quantifier": "all pairs of grids", "why_tests_cant": "Tests swap two grids of the same size only.", "anchors": ["lib/libflatarray/include/libflatarray/soa_grid.hpp:119-132"]}
{"id": "C239", "title": "Copies of soa_grids", "statement": "A soa_grid which is copy constructed from another one, or assigned, has the same dimensions and cells.", "quantifier": "all grids, sizes chosen for the cell class, targets of assignments and contents of new memory", "why_tests_cant": "Tests copy a few small grids.", "anchors": ["lib/libflatarray/include/libflatarray/soa_grid.hpp:96-117", "lib/libflatarray/include/libflatarray/soa_grid.hpp:468-471", "lib/libflatarray/include/libflatarray/detail/copy_functor.hpp:37-46"]}
{"id": "C240", "title": "soa_vector is a sequence", "statement": "Starting with any size, set, push_back, pop_back, resize, reserve (for at least as many elements as there are) and clear of a soa_vector do to its elements what they do to those of a std::vector, whatever new memory contains; only elements added by resize are unspecified. All accesses stay within the memory allocated, also when the vector has to grow.", "quantifier": "all sequences of allowed operations, sizes up to LibFlatArray's largest one, growth factors which add at least one element", "why_tests_cant": "Memory is reallocated at particular sizes only, and capacity differs from the memory available; tests run a few sequences.", "anchors": ["lib/libflatarray/include/libflatarray/soa_vector.hpp:48-160", "lib/libflatarray/include/libflatarray/soa_grid.hpp:119-159", "lib/libflatarray/include/libflatarray/detail/load_functor.hpp:46-64"]}
{"id": "C241", "title": "Reserving less than there is", "statement": "Like that of std::vector, soa_vector's reserve() for less elements than there are has no effect on the elements.", "quantifier": "all vectors and numbers of elements", "why_tests_cant": "No test calls reserve() this way.", "anchors": ["lib/libflatarray/include/libflatarray/soa_vector.hpp:113-125"]}
{"id": "C242", "title": "Copies of soa_vectors can grow", "statement": "push_back() appends an element to a soa_vector which is a copy of another one.", "quantifier": "all vectors and contents of memory which isn't initialised", "why_tests_cant": "Uninitialised memory may happen to contain a suitable value; vectors aren't copied in tests.", "anchors": ["lib/libflatarray/include/libflatarray/soa_vector.hpp:143-151", "lib/libflatarray/include/libflatarray/soa_grid.hpp:96-105"]}
{"id": "C243", "title": "Text files of ASCIIWriter", "statement": "ASCIIWriter's file contains the member of each cell once, in the order of the cells' coordinates. If the grid starts at X = 0, each non-blank line contains exactly one row of the grid.", "quantifier": "all dimensions, positions and sizes of grids, and all contents", "why_tests_cant": "Tests compare the file of one small grid.", "anchors": ["src/libgeodecomp/io/asciiwriter.h:47-80", "src/libgeodecomp/io/asciiwriter.h:142-155"]}
{"id": "C244", "title": "Text files of displaced grids", "statement": "The rows of any grid can be told apart in ASCIIWriter's file.", "quantifier": "all positions of grids", "why_tests_cant": "The grids of tests start at the origin.", "anchors": ["src/libgeodecomp/io/asciiwriter.h:63-69"]}
{"id": "C245", "title": "Ghost zones suffice for stencils of any radius", "statement": "Whatever the radius of a cell's stencil, all cells which the update of a node's own cells reads are its own or part of its ghost zone, provided by other nodes.", "quantifier": "all partitions, ghost zone widths and stencil radii", "why_tests_cant": "Cells in parallel tests use stencils with a radius of one.", "anchors": ["src/libgeodecomp/geometry/partitionmanager.h:267-324"]}
{"id": "C246", "title": "soa_array behaves like a list of limited capacity", "statement": "An soa_array which was constructed with some elements, or from an array of another capacity, contains just these. Whatever sequence of writes to elements, push_back, pop_back, clear, load and assignments of arrays of any capacity follows: all members of all elements are those of a list to which the same operations were applied. Operations which would exceed the capacity, or remove elements from an empty array, throw and change nothing; no memory beyond the array is accessed.", "quantifier": "all capacities, numbers of members, contents and sequences of operations", "why_tests_cant": "Tests use few capacities, and cells whose members rarely differ between neighbouring elements; reads of a wrong member's array need not show.", "anchors": ["lib/libflatarray/include/libflatarray/soa_array.hpp:60-116", "lib/libflatarray/include/libflatarray/soa_array.hpp:160-251", "lib/libflatarray/include/libflatarray/soa_array.hpp:283-295"]}
{"id": "C247", "title": "soa_array's constructor rejects more elements than the capacity", "statement": "Constructing an soa_array with more elements than its capacity throws std::out_of_range, as the other operations do.", "quantifier": "all capacities and numbers of elements", "why_tests_cant": "Writes beyond the array often hit padding or other locals unnoticed.", "anchors": ["lib/libflatarray/include/libflatarray/soa_array.hpp:60-69"]}
