#!/usr/bin/env python3
"""Source of properties.jsonl (run: python3 tools/props.py > properties.jsonl)."""
import json
P=[]
def p(title, statement, quantifier, why, *anchors):
    P.append(dict(id="C%02d"%(len(P)+1), title=title, statement=statement, quantifier=quantifier,
                  why_tests_cant=why, anchors=list(anchors)))
G="source/girgs/"; H="source/hypergirgs/"; GI=G+"include/girgs/"; HI=H+"include/hypergirgs/"
p("Threshold GIRG is exact",
  "girgs::generateEdges with alpha = infinity returns an edge between two distinct nodes u, v if and only if dist(x_u,x_v)^d < w_u*w_v/W, where dist is the max-norm torus distance and W the sum of the weights.",
  "all node counts, all positive weights with W/w_min^2 < 2^31 (the range in which the code is defined, see C13), all positions in [0,1)^d, d in 1..5, all seeds, thread counts and schedules; exact real arithmetic (see C57 for IEEE doubles)",
  "tests compare against the quadratic algorithm on a few hundred random nodes; the pruning of far cells must be right for every weight vector and every placement, including nodes on cell borders and weights on layer borders",
  GI+"SpatialTree.inl: visitCellPair, sampleTypeI, partitioningBaseLevel", G+"source/Generator.cpp: generateEdges")
p("No self loops, no duplicate edges",
  "The edge list returned by girgs::generateEdges never contains (u,u), and contains each unordered pair {u,v} at most once in either orientation.",
  "all valid weights (W/w_min^2 < 2^31), positions, alpha, seeds, random draws, thread counts and schedules",
  "depends on all coin flips and all recursion shapes; a test sees a handful of seeds",
  GI+"SpatialTree.inl: visitCellPair, sampleTypeI, sampleTypeII", G+"source/Generator.cpp: generateEdges")
p("Edge endpoints are valid node indices",
  "Both endpoints of every edge returned by girgs::generateEdges lie in [0,n) and refer to the index of the node in the caller's weights/positions vectors (not to an internal order).",
  "all inputs, draws, thread counts and schedules", "same as C02; nodes are internally reordered by a radix sort",
  GI+"SpatialTree.inl: buildPartition", GI+"Node.h")
p("Every pair of nodes is considered exactly once",
  "During girgs::generateEdges every unordered pair of distinct nodes is decided exactly once, either by an individual check or as a member of one skipped-over block; hence the debug accounting type1_checks + type2_checks equals n*(n-1) and the closing assertion never fires.",
  "all inputs, all recursion depths, all layer/level structures", "the assertion is only evaluated on the inputs of a test run",
  GI+"SpatialTree.inl: generateEdges, visitCellPair")
p("Threshold result does not depend on seed, threads or schedule",
  "For alpha = infinity the set of edges returned by girgs::generateEdges is the same for every sampling seed, number of OpenMP threads and thread interleaving.",
  "all seeds, thread counts and interleavings", "interleavings and thread counts cannot be enumerated by tests",
  GI+"SpatialTree.inl: generateEdges, visitCellPair_sequentialStart", G+"source/Generator.cpp: generateEdges")
p("alpha = 0 yields the complete graph",
  "girgs::generateEdges with alpha = 0 returns each of the n(n-1)/2 unordered pairs exactly once, whatever the random draws are.",
  "all inputs and all random draws", "one test with n = 100 and one seed exists",
  GI+"SpatialTree.inl: sampleTypeI, sampleTypeII", GI+"SpatialTree.h: doc of generateEdges")
p("Rejection envelope is an upper bound (GIRG)",
  "For any two nodes in non-touching cells that are sampled by skipping, the connection probability used in the accept step never exceeds the envelope probability used for the skipping step, so the accept step is a proper thinning.",
  "all weights, positions, layer pairs and cell pairs visited", "a violated bound silently biases probabilities and is only an assert in debug builds",
  GI+"SpatialTree.inl: sampleTypeII", GI+"SpatialTreeCoordinateHelper.inl: dist")
p("Edge probabilities are the documented ones (GIRG)",
  "For finite alpha an edge {u,v} appears with probability min(1, ((w_u w_v/W)/dist^d)^alpha). The pairs are decided independently of each other. Exception: a pair whose probability is below 10^-6 may never be generated.",
  "all inputs; law over ideal independent uniform and geometric draws", "statistical tests only bound the error of aggregated counts",
  GI+"SpatialTree.inl: sampleTypeI, sampleTypeII", GI+"Generator.h: doc of generateEdges")
p("Reproducibility (GIRG)",
  "With a non-negative seed and a fixed number of threads, repeated calls of girgs::generateEdges return the same edges (the same sequence for one thread, the same multiset for several threads under every interleaving).",
  "all inputs, seeds, thread counts, interleavings", "interleavings cannot be enumerated",
  GI+"SpatialTree.inl: generateEdges", G+"source/Generator.cpp: generateEdges")
p("Parallel work split is a partition of the sequential work",
  "For every thread count, the units of sampling work executed before the cut level plus those executed by the threads after it are exactly the units the sequential recursion would execute, each once, including when the cut level lies below the deepest level.",
  "all tree depths, cut levels >= 1, dimensions, thread counts", "tests run with the machine's thread count only",
  GI+"SpatialTree.inl: visitCellPair_sequentialStart, generateEdges")
p("Buffered edge collection loses and duplicates nothing",
  "Collecting edges through the per-thread buffers with block flushes yields exactly the multiset of edges passed to the callback, for every interleaving of callback invocations and every number of edges relative to the block size; per-thread order is preserved and a single thread's list is returned in callback order.",
  "all interleavings of all per-thread callback sequences, all block sizes >= 1", "block boundaries (2^20 edges) and interleavings are out of reach of unit tests",
  G+"source/Generator.cpp: generateEdges (flush, addEdge)", H+"source/Generator.cpp: generateEdges")
p("Unsupported dimensions give an empty edge list",
  "girgs::generateEdges returns no edges (and reports it) if the positions do not have between 1 and 5 coordinates.",
  "all dimensions outside 1..5", "infinitely many dimensions",
  G+"source/Generator.cpp: generateEdges")
p("Sampling is free of undefined behaviour (GIRG)",
  "For non-empty inputs girgs::generateEdges performs no shift by more than the word width, no out-of-range array access, no integer wrap of cell numbers and no signed overflow, as long as W/w_min^2 < 2^31 and seed + threads - 1 fits into int; the interface documents neither restriction, and each of them is needed: two nodes of weight 2^-32, seed 2^31-1 with two threads, and empty vectors are undefined behaviour.",
  "all weights, positions and seeds", "undefined behaviour depends on the magnitude of the weights; tests use weights >= 1 and small n",
  GI+"SpatialTree.inl: SpatialTree, buildPartition, generateEdges", GI+"SpatialTreeCoordinateHelper.h")
p("Debug assertions of the sampling step",
  "On valid inputs every debug assertion about the level, cells, layers, indices, weights and distances of a sampled cell pair holds, with one exception: the assertion that the distance bound of a far cell pair strictly exceeds its weight bound (line 245) is only guaranteed non-strictly, and there is a valid input (16 nodes of weight 1 at k/16) on which it aborts a debug build.",
  "all valid inputs", "assertions are evaluated only on tested inputs",
  GI+"SpatialTree.inl: sampleTypeII (line 245)")
p("Radix sort sorts",
  "intsort::intsort rearranges its input into a permutation that is ordered by key and stable, for any number of threads, any element count and any key bound, if all keys are below max_key.",
  "all inputs, key bounds, thread counts, write interleavings", "the code path depends on key width, element count (2^17 per thread) and thread count; tests do not cover it",
  GI+"IntSort.h: IntSortImpl, intsort")
p("Radix sort accepts the documented key range",
  "intsort documents that only keys larger than max_key are undefined behaviour, i.e. that a key equal to max_key is sorted correctly. This holds unless max_key = 2^k with k at least the radix width; for those max_key every input of two or more elements containing the key max_key makes the sort index its histogram out of range (undefined behaviour).",
  "all max_key and inputs", "only special values of max_key are affected",
  GI+"IntSort.h: doc of intsort, ilog2, IntSortImpl")
p("Parallel radix sort chunks stay in range",
  "The per-thread chunks of the parallel counting pass are in bounds, disjoint and cover the input, for every element count and every number of threads the code can use.",
  "all element counts and thread counts up to 131072", "needs more than 2^17 elements per thread",
  GI+"IntSort.h: sort")
p("Cell index is a prefix sum for every schedule",
  "The array that maps a cell to its first node, computed by parallel marking and parallel gap repair, holds for each cell the number of nodes in smaller cells, for every thread count and every interleaving of the threads' word reads and writes.",
  "all sorted node arrays, cell counts, thread counts and interleavings", "interleavings; empty cells across chunk borders",
  GI+"SpatialTree.inl: buildPartition", H+"source/RadiusLayer.cpp: buildPartition")
p("Cell queries return exactly the nodes of a layer in a cell",
  "WeightLayer::cellIterators(cell, level) delimits exactly the nodes of that weight layer whose position lies in the cell, for every level up to the layer's insertion level; pointsInCell and kthPoint agree with it.",
  "all node sets, layers, levels and cells", "exponentially many cells",
  GI+"WeightLayer.h", GI+"SpatialTree.inl: buildPartition")
p("Morton encoding round trip",
  "For D in 1..5, extract(deposit(c)) = c for coordinates that fit into floor(32/D) bits and deposit(extract(x)) = x for codes within D*floor(32/D) bits; deposit interleaves bits in the documented order.",
  "all 32-bit codes and coordinate tuples", "2^32 codes per dimension; the tests sample",
  GI+"BitManipulationGeneric.inl: Deposit, Extract, ExtractionHelper")
p("BMI2 and generic bit manipulation agree",
  "The BMI2 implementation (pdep/pext) and the portable implementation return the same results for all codes (extract) and for all coordinates that fit (deposit).",
  "all 32-bit codes and coordinate tuples", "2^32 codes; a build only contains one implementation",
  GI+"BitManipulationBMI2.inl", GI+"BitManipulationGeneric.inl")
p("Cell numbering is a complete 2^D-ary tree",
  "firstCellOfLevel/numCellsInLevel/parent/firstChild/lastChild describe a complete 2^D-ary tree: levels are contiguous and disjoint, children of distinct cells are disjoint and exhaust the next level, parent inverts child; the level-local index of a cell is its number minus the first cell of its level (both clz and portable variants).",
  "all dimensions, levels and cells that fit into 32 bits", "tests enumerate shallow levels only",
  GI+"SpatialTreeCoordinateHelper.h", GI+"SpatialTreeCoordinateHelper.inl: cellOfLevel")
p("Points lie in the bounds of their cell, cells nest",
  "cellForPoint(p, l) is the cell whose bounds contain p, the cell of p at level l+1 is a child of its cell at level l, and two cells of one level have disjoint bounds.",
  "all points in [0,1)^D, all levels that fit", "real-valued points",
  GI+"SpatialTreeCoordinateHelper.inl: cellForPoint, bounds")
p("touching and dist are geometrically right",
  "touching(A,B,l) holds iff the closed cells intersect on the torus; dist(A,B,l) is a lower bound on the torus distance of any two points of the cells and is positive for non-touching cells.",
  "all cell pairs of all levels, all points in them", "quadratically many cell pairs and real-valued points",
  GI+"SpatialTreeCoordinateHelper.inl: touching, dist")
p("Torus distance is a metric",
  "Node::distance is symmetric, zero iff equal, bounded by 1/2, satisfies the triangle inequality and is invariant under torus translations.",
  "all points of [0,1)^D", "real-valued points", GI+"Node.h: distance")
p("Constant power",
  "pow_to_the<D>(x) equals x^D for every D, using only multiplications of positive powers.",
  "all D and x", "template recursion for every D", GI+"Helper.h: pow_to_the")
p("Sampled weights follow the truncated power law",
  "generateWeights(n, ple, seed) returns n weights in [1, n/2) (for n > 2, ple > 1) that are the inverse-CDF transform of uniform draws: P(weight <= x) = (1 - x^(1-ple)) / (1 - (n/2)^(1-ple)).",
  "all n, ple, all uniform draws, all thread counts", "distributional statement over all draws",
  G+"source/Generator.cpp: generateWeights")
p("Sampled positions have the requested shape and range",
  "generatePositions(n, d, seed) returns n vectors of d coordinates, all in [0,1), each coordinate consuming its own random draw.",
  "all n, d, seeds, thread counts", "all draws and thread splits",
  G+"source/Generator.cpp: generatePositions")
p("Input sampling is reproducible and schedule independent",
  "For a non-negative seed generateWeights and generatePositions depend only on (n, parameters, seed, number of threads used); for n < 20000 or parallel=false they do not depend on the number of threads.",
  "all n, seeds, thread counts, schedules", "all schedules",
  G+"source/Generator.cpp: generateWeights, generatePositions")
p("scaleWeights multiplies every weight by the returned factor",
  "scaleWeights multiplies all weights by one factor and returns that factor; it throws, leaving the weights unchanged, iff alpha <= 0, alpha = 1 or alpha is NaN.",
  "all weights, degrees, dimensions, alphas", "all alphas incl. special values",
  G+"source/Generator.cpp: scaleWeights")
p("Scaling weights realises the constant in the connection rule",
  "Scaling all weights by s multiplies w_u w_v/W by s: for threshold graphs the result is the graph dist < c*(w_u w_v/W)^(1/d) with c = s^(1/d); for finite alpha probabilities are scaled by s^alpha; a larger scaling gives a supergraph.",
  "all weights, positions, scalings", "algebraic identity over reals",
  G+"source/WeightScaling.cpp: return statements", GI+"Generator.h: doc of scaleWeights")
p("Degree search meets its accuracy",
  "When scaleWeights returns, the expected average degree of the graph with the scaled weights (over uniform positions, for the connection rule whose estimator was used) lies in [desired - 0.02, desired + 0.02 + 1/n). The search ends in every run if 0 < desired <= n-1, the largest possible degree, and in exact arithmetic its first loop never ends if desired > n-1 (with doubles the loop variable then leaves the finite range).",
  "all weight vectors of fewer than 2^31 nodes, dimensions, alphas, desired degrees", "convergence of an unbounded loop whose function has jumps",
  G+"source/WeightScaling.cpp: exponentialSearch")
p("Lazily sorted prefix is correct for every query history",
  "For any sequence of thresholds, the range returned by the lazy sorter is sorted in decreasing order, contains every weight greater than the threshold and no weight below it, and the underlying array stays a permutation of the weights.",
  "all weight vectors and all query sequences", "histories of queries",
  G+"source/WeightScaling.cpp: LazySorter")
p("Threshold degree estimator computes the expected degree",
  "For every history of evaluations, the value of the estimator used for alpha > 8 at c is in (E - 1/n, E], where E = (1/n) * sum over ordered pairs of distinct nodes of min(1, (2c)^d w_u w_v/W) is the expected average degree of the threshold graph with scaled weights; it need not equal E.",
  "all weights, c, d", "closed-form identity for all weight vectors; off-by-one cases need special weights",
  G+"source/WeightScaling.cpp: estimateWeightScalingThreshold")
p("General degree estimator computes the expected degree",
  "For every history of evaluations, the value of the estimator used for finite alpha at c is in (E - 1/n, E], where E = (1/n) * sum over ordered pairs of distinct nodes of the expectation, over uniform positions, of min(1, c*((w_u w_v/W)/dist^d)^alpha).",
  "all weights, c, d, alpha", "closed-form identity for all weight vectors",
  G+"source/WeightScaling.cpp: estimateWeightScaling")
p("Threshold HRG is exact",
  "hypergirgs::generateEdges with T = 0 returns an edge between two distinct points iff their hyperbolic distance is smaller than R.",
  "all radii in (0,R], all angles in [0,2pi), all R >= 1, seeds, thread counts", "real-valued inputs; pruning of far cells relies on monotonicity of hyperbolic distance",
  HI+"HyperbolicTree.inl: visitCellPair, sampleTypeI", HI+"RadiusLayer.h: partitioningBaseLevel")
p("No self loops, no duplicates, full coverage (HRG)",
  "hypergirgs::generateEdges considers every unordered pair of distinct points exactly once, returns each at most once, never a self loop, and only valid indices.",
  "all inputs, draws, thread counts, schedules", "all draws and schedules",
  HI+"HyperbolicTree.inl: visitCellPair, sampleTypeI, sampleTypeII")
p("HRG work distribution is a partition",
  "For every number of threads the work units sampled round-robin by the first-phase threads plus the queued tasks are exactly the units of the sequential recursion, each executed once; the number of tasks is the precomputed number, so each task has its own generator.",
  "all thread counts, tree depths", "thread counts",
  HI+"HyperbolicTree.inl: generate, visitCellPairCreateTasks, visitCellPairSample")
p("HRG parallel generation terminates",
  "hypergirgs generate() with several threads always terminates, for every schedule.",
  "all inputs (in particular tree depths), thread counts, schedules", "a deadlock depends on the relation of thread count and tree depth",
  HI+"HyperbolicTree.inl: generate")
p("Rejection envelope is an upper bound (HRG)",
  "For every pair of points in non-touching cells sampled by skipping, the connection probability is at most the precomputed envelope probability of that layer pair, level and cell offset.",
  "all points, layers, levels, cell pairs", "real-valued inputs; hyperbolic distance is not monotone in the radii in general",
  HI+"HyperbolicTree.inl: HyperbolicTree, sampleTypeII")
p("Distance filter decides like the exact test",
  "The filter-based early accept/reject of a pair gives the same decision as comparing the draw with the exact connection probability, for every distance and draw.",
  "all R > 0, T in (0,1), distances, draws", "real-valued inputs",
  HI+"DistanceFilter.h", HI+"HyperbolicTree.inl: sampleTypeI, sampleTypeII")
p("Radial layers and insertion levels are consistent",
  "Every point with 0 < r <= R falls into a layer whose radius interval contains r, the layer tables are accessed in range, and comparison levels never exceed the insertion levels of the layers involved.",
  "all R >= 1, all radii", "real-valued inputs, integer R borders",
  H+"source/RadiusLayer.cpp: buildPartition", HI+"HyperbolicTree.inl: HyperbolicTree")
p("Sampled radii and angles have the right range and distribution",
  "sampleRadii returns n radii in (0,R] with P(r <= x) = (cosh(alpha x)-1)/(cosh(alpha R)-1) and sampleAngles n angles in [0,2pi).",
  "all n, alpha, R, draws, thread counts", "distributional statement",
  H+"source/Generator.cpp: sampleRadiiAndAnglesHelper")
p("calculateRadius inverts the degree formula",
  "calculateRadius(n, alpha, T, deg) is the R with deg = n * 2 alpha^2 * (1/pi or T/sin(pi T)) * exp(-R/2) / (alpha-1/2)^2; it is a finite number for every alpha the command line tool admits.",
  "all n, alpha, T, deg in the accepted ranges", "real-valued inputs and boundary values",
  H+"source/Generator.cpp: calculateRadius", "source/cli/genhrg/main.cpp")
p("NetworKit-style radius search meets its accuracy",
  "When calculateRadiusLikeNetworKit returns R for T = 0, the degree formula at R differs from the requested degree by at most 0.01; the search keeps a bracketing interval and terminates for bracketing start values.",
  "all parameters", "convergence of an unbounded loop",
  H+"source/Generator.cpp: searchTargetRadiusForColdGraphs, getTargetRadius")
p("Angular cells are geometrically right",
  "AngleHelper: a point lies in the bounds of its cell, cells nest, touching is circular adjacency, dist is a lower bound on the angular distance of points in the cells.",
  "all levels, cells, angles", "real-valued angles, all cell pairs",
  HI+"AngleHelper.h", H+"source/AngleHelper.cpp")
p("Edge probabilities are the documented ones (HRG)",
  "For T > 0 an edge appears with probability 1/(1+exp((dist-R)/(2T))).",
  "all inputs; law over ideal independent draws", "statistical tests only",
  HI+"HyperbolicTree.inl: sampleTypeI, sampleTypeII, connectionProbRec")
p("Reproducibility (HRG)",
  "With a non-negative seed and fixed thread count hypergirgs::generateEdges returns the same multiset of edges for every interleaving and every assignment of tasks to threads.",
  "all inputs, seeds, interleavings", "interleavings cannot be enumerated",
  HI+"HyperbolicTree.inl: generate, initialize_prngs")
p("Fast distance formulas equal the hyperbolic distance",
  "Point::isDistanceBelowR(q, cosh R) holds iff the hyperbolic distance is < R, and hyperbolicDistanceCosh is the cosh of the distance; the distance is a metric-like function: symmetric, zero on equal points, |r1-r2| <= d <= r1+r2.",
  "all points with positive radius", "real-valued inputs",
  HI+"Point.h")
p("Command line parsing",
  "For an argument list of alternating '-key value' pairs the tools use, for each key, the value of its last occurrence and the default otherwise; other arguments are ignored.",
  "all argument lists", "unbounded argument lists",
  "source/cli/gengirg/main.cpp: parseArgs", "source/cli/genhrg/main.cpp: parseArgs")
p("Command line range checks",
  "The tools proceed to generation only if every checked parameter lies in its documented range (e.g. gengirg: d in [1,5], ple in (2,3], alpha in (1,inf], deg in [1,n-1]); in particular never for n < 2.",
  "all parameter values incl. NaN and infinities", "all double values",
  "source/cli/gengirg/main.cpp: rangeCheck, main", "source/cli/genhrg/main.cpp: rangeCheck, main")
p("Edge list files can be read back",
  "The text written by the tools' -edge option determines n, the number of edges and the edge list: parsing it back yields the same list.",
  "all graphs", "all graphs", "source/cli/gengirg/main.cpp: main", "source/cli/genhrg/main.cpp: main")
p("Dot files describe the graph",
  "saveDot writes exactly one node statement per weight in index order with all coordinates, and exactly one edge statement per edge, in order; the graph can be recovered from the text.",
  "all graphs", "all graphs", G+"source/Generator.cpp: saveDot")
p("Hyperbolic/GIRG coordinate conversions are inverse",
  "radiusToGirgWeight/girgWeightToRadius and angleToGirgPosition/girgPositionToAngle are mutually inverse and map radii in [0,R] to weights in [1,e^(R/2)] and angles in [0,2pi) to positions in [0,1).",
  "all radii, angles", "real-valued inputs", GI+"Hyperbolic.h")
p("Example tools count correctly",
  "edge_diff on sorted duplicate-free edge lists returns the sizes of the two set differences; CounterPerThread::total equals the number of add calls for every interleaving.",
  "all edge lists, all interleavings", "all lists", "source/examples/inclusion_range/main.cpp: unifyEdges, edge_diff", "source/examples/bench_girg/CounterPerThread.h")
p("Symmetries of the threshold graph",
  "The threshold graph is equivariant under relabelling of nodes, invariant under torus translations of all positions and under permuting coordinates, and monotone: increasing the scaling of all weights only adds edges.",
  "all inputs", "metamorphic relations over all inputs", GI+"SpatialTree.inl", GI+"Node.h")
p("Threshold exactness survives IEEE rounding",
  "With round-to-nearest double arithmetic instead of exact reals, the threshold generator still returns exactly the pairs whose rounded terms satisfy d_term < w_term, provided the logarithm of W/w_min^2 is not rounded up to an integer.",
  "all double weights and positions in the no-overflow range", "rounding corner cases have probability ~2^-50 under random testing",
  GI+"SpatialTree.inl", GI+"Node.h", GI+"Helper.h")
p("A gengirg run writes the graph it was asked for",
  "For arguments within the documented ranges (alpha = infinity) and weights whose average a satisfies 2^d a^2 n < 2^31 (deg - 0.02), a run of gengirg that is not killed terminates without undefined behaviour, and the edge list file it writes contains exactly the pairs of nodes that satisfy the threshold rule for the generated weights, scaled so that the expected degree is within 0.02 + 1/n of the request, and the generated positions.",
  "all arguments, random engines, thread schedules", "composition of all components over all parameters", "source/cli/gengirg/main.cpp: main", "source/girgs/source/Generator.cpp")
p("Coordinate files can be read back",
  "The .hyp file written by genhrg -coord 1 contains, for every node in order, its radius and angle with an error of at most 0.5e-17, so that coordinates of size at least 1/16 are recovered exactly.",
  "all radii and angles", "all doubles", "source/cli/genhrg/main.cpp: main")
p("A genhrg run writes the graph it was asked for",
  "For arguments within the documented ranges with alpha > 1/2 and an estimated radius R of at most 40, a run of genhrg has no undefined behaviour and ends if and only if the radius search ends and the disc is large enough for the number of threads; then the files contain the generated coordinates and a simple graph, which for T = 0 consists of exactly the pairs of nodes at hyperbolic distance less than R, where R solves the degree formula.",
  "all arguments, random engines, thread schedules", "composition of all components over all parameters", "source/cli/genhrg/main.cpp: main", "source/hypergirgs/source/Generator.cpp")
p("Each seed option controls its own part of a run",
  "Two runs of gengirg with the same -n, -ple and -wseed have the same weights, with the same -n, -d and -pseed the same positions, and with equal weights, -deg, -d, -alpha the same scaling, whatever the other options are (fewer than 20000 nodes or one thread). The sampling seed and the number of threads never influence a threshold graph. With one thread and non-negative seeds the same command always writes the same files. For genhrg likewise: no seed influences R, -rseed the radii, -aseed the angles (at most 10000 nodes or one thread), and equal -sseed and -threads give the same edges up to their order.",
  "all pairs of runs, random engines, thread schedules", "relates pairs of runs over all schedules", "source/cli/gengirg/main.cpp: main", "source/cli/genhrg/main.cpp: main", "source/girgs/source/WeightScaling.cpp")
p("Hyperbolic random graphs lie between two GIRGs",
  "For points of a hyperbolic disc of radius R, let s be the factor by which the GIRG weights e^((R-r)/2) are scaled and k = s e^(R/2) / (sum of the unscaled weights). If k >= 1/2 the threshold GIRG with the converted coordinates contains every edge of the threshold hyperbolic random graph (1/2 is the best constant); if k pi sqrt(2 (1 + e^-R)) <= 1 it contains only such edges; hence the edge lists returned by the two generators are nested. The example tool inclusion_range reports 0 differences iff one graph contains the other, and its binary searches end with an interval of width at most 1/2 around a change of that answer, provided the requested degrees are possible (hrg_deg at most (n-1)/2; above 2(n-1)/3 it never ends).",
  "all points, radii, scalings, engines, schedules", "real-valued inputs; geometric inequality over all pairs", "source/examples/inclusion_range/main.cpp: deg_low_high", "source/examples/inclusion_single/main.cpp", GI+"Hyperbolic.h")
p("The requested degree is the mean degree over random positions",
  "If scaleWeights returns for a requested degree g, then the graph with the scaled weights, whose n positions are independent and uniform on the d-dimensional torus and whose edges follow the GIRG rule, has an expected average degree m with g - 0.02 <= m < g + 0.02 + 1/n (for 8 < alpha < infinity, where the threshold estimate is used, m < (g + 0.02 + 1/n) alpha/(alpha-1)); here the expectation is the iterated integral over all n d coordinates. The average degree 2m/n of a generated threshold graph is exactly the integrand at its positions.",
  "all weights, dimensions, alphas, requested degrees; all positions in the integral", "an expectation over a continuum of positions", "source/girgs/source/WeightScaling.cpp: scaleWeights", "source/girgs/source/Generator.cpp: scaleWeights")
p("A debug build of the hyperbolic generator never fails an assertion",
  "For a disc of radius R >= 1, points with radius less than R and a temperature with 2 T ln 99 <= R, no assertion of a debug build of hypergirgs::generateEdges (input checks, partition, index structure, cell queries, filters, sampling, pair counters) can fail in any execution, and the debug build has exactly the outcomes of the program without assertions. Each of the three conditions is needed: a point on the boundary, a disc of radius below 1, or a high temperature on a small disc aborts a debug build.",
  "all inputs, random engines, thread schedules, including executions that never return", "assertions only speak about the executed inputs and schedules", "source/hypergirgs/include/hypergirgs/HyperbolicTree.inl", "source/hypergirgs/source/RadiusLayer.cpp", "source/hypergirgs/include/hypergirgs/RadiusLayer.h", "source/hypergirgs/include/hypergirgs/DistanceFilter.h", "source/hypergirgs/include/hypergirgs/Point.h")
p("A debug build of the GIRG generator never fails an assertion",
  "For every input on which the generator has no undefined behaviour (C13), no assertion of a debug build of girgs::generateEdges (input checks, volumes of the cell levels, bit manipulation, order and index of the nodes, cell queries, layer and cell of every sampled node, bounds of the far pairs, total number of decided pairs) can fail in any execution, and the debug build has exactly the outcomes of the program without assertions, unless (1) the sum of the weights is exactly a power of two times the square of the smallest weight, or (2) D = 4 and the sum is at least 2^30 times that square. In case (1) the assertion w_upper_bound < dist_lower_bound can abort the run, in case (2) every debug run evaluates 1u << 32. A release build silently truncates surplus positions and coordinates; a debug build refuses such inputs.",
  "all inputs, random engines, thread schedules, both bit manipulation implementations", "assertions only speak about the executed inputs and schedules; the failing inputs form a null set", GI+"SpatialTree.inl", GI+"WeightLayer.h", GI+"Node.h", GI+"BitManipulationGeneric.inl", GI+"IntSort.h")
p("Expected number of comparisons of a threshold graph",
  "For alpha = infinity and a release build the number of pairs of nodes whose distance generateEdges computes is a function of the positions alone (the same for every run, schedule, seed and number of threads), and its expectation over independent uniform positions on the d-dimensional torus is at most 2 * 6^d * W, where W is the sum of the weights; so the expected running time is linear in the sum of the weights.",
  "all weights, dimensions, numbers of threads, engines; all positions in the integral", "an expectation over a continuum of positions; tests only time single runs", "source/girgs/include/girgs/SpatialTree.inl: visitCellPair, sampleTypeI", "source/girgs/include/girgs/SpatialTree.inl: partitioningBaseLevel")
p("Time and memory of the recursion do not depend on the positions",
  "Let W be the sum, w the smallest and v the largest weight, L = 1 + log2(v/w). For every alpha, every positions and every number of threads, generateEdges visits every pair of cells at most once, makes at most 2 * 6^d (1 + W/(4 w^2)) visits and at most 6^d (6 + 2 L^2 + 4 W/w^2) steps in its recursion (visits and iterations of the loops over levels and layer pairs, hence also calls of the sampling functions); the tree needs n nodes, at most 1 + L + W/w^2 index entries, 1 + L layer offsets and L^2 layer pairs, and the work saved for t threads has at most 4 * 2^d t vectors and 4 * 12^d t entries.",
  "all weights, positions, alphas, dimensions, numbers of threads", "worst case over all inputs", "source/girgs/include/girgs/SpatialTree.inl: visitCellPair, visitCellPair_sequentialStart, generateEdges, buildPartition")
p("A debug build of scaleWeights never fails an assertion for a possible degree",
  "For 0 < desired <= n-1 the debug build of scaleWeights has exactly the results of the release build, so none of its assertions (something left to sort, sorted prefix, rich club inside the array, alpha != 1) fails, provided 2^e v <= 2^1022 w^2 and d + e <= 1022, where w and v are the smallest and the largest weight and e = d for alpha > 8, 1/alpha otherwise; weights in [2^-300, 2^300], d <= 100, alpha >= 0.01 always qualify. For desired > n-1 every run of the debug build ends with a failed assertion and leaves the weights as they were.",
  "all weights, degrees, dimensions, alphas; all runs of the search", "the smallest threshold the search asks for depends on the whole run", "source/girgs/source/WeightScaling.cpp: LazySorter::sort_downto, exponentialSearch", "source/girgs/source/Generator.cpp: scaleWeights")
p("Hyperbolic threshold graphs follow the geometry of the points",
  "For T = 0, whatever engine, seed, build, number of threads and schedule the two runs use: rotating, mirroring or renumbering the points gives an isomorphic graph; generating on some of the points gives the induced subgraph; a larger R on the same points, or moving points towards the centre of the disc, only adds edges; of two points with equal angle the one closer to the centre has every neighbour of the other one.",
  "all pairs of inputs related in this way, all executions of both", "relates pairs of executions on all inputs; sums of angles and level/cell boundaries fall differently in the two runs", "source/hypergirgs/source/Generator.cpp: generateEdges", "source/hypergirgs/include/hypergirgs/HyperbolicTree.inl", "source/hypergirgs/include/hypergirgs/AngleHelper.h")
p("Expected number of random draws for finite alpha",
  "For alpha = a with 1 < a < infinity and given positions, the expected number of random numbers generateEdges draws (over all its threads) is determined by the positions (the same for every schedule of the constructor), and its expectation over independent uniform positions on the d-dimensional torus is at most 2 * 6^d W + 10 * 6^d W / (1 - 2^(-d(a-1))) + 6^d (6 + 2 L^2 + 4 W/w^2), where W is the sum, w the smallest and v the largest weight and L = 1 + log2(v/w); so skipping over the far pairs makes the expected number of sampled pairs linear.",
  "all weights, dimensions, a > 1, numbers of threads; all positions and all random tapes in the integrals", "an expectation over a continuum of positions and random tapes; tests only time single runs", "source/girgs/include/girgs/SpatialTree.inl: sampleTypeI, sampleTypeII, visitCellPair")
p("The threshold graph is contained in the graph for every finite alpha",
  "On the same weights and positions, every pair of nodes that satisfies the threshold rule is an edge of every graph generated with a finite alpha >= 0, whatever the random numbers, seed, number of threads, schedule and build are; so the graph returned for alpha = infinity is a subgraph of the one returned for any finite alpha. The same holds in IEEE doubles with the rounded rule, for every pow that maps numbers >= 1 to numbers >= 1.",
  "all weights, positions, alphas, random numbers, schedules of both runs", "relates pairs of executions; a lost certain edge needs a rare position", "source/girgs/include/girgs/SpatialTree.inl: sampleTypeI, sampleTypeII, visitCellPair", "source/girgs/source/Generator.cpp: generateEdges")
p("Every build of the library returns the same graph",
  "For the same arguments, seed and number of threads, builds with and without BMI2 instructions, with a GNU compatible or another compiler, and with or without NDEBUG return the same edge list in the same order (the same set of possible lists if the schedule or a negative seed leaves a choice), for every alpha; in exact arithmetic and in IEEE doubles.",
  "all inputs, pairs of builds, engines, schedules", "a test binary is one build; relates all executions of two builds", "source/girgs/include/girgs/BitManipulation.h", "source/girgs/include/girgs/BitManipulationBMI2.inl", "source/girgs/include/girgs/BitManipulationGeneric.inl", "source/girgs/include/girgs/SpatialTreeCoordinateHelper.inl: cellOfLevel", "source/girgs/include/girgs/SpatialTree.inl: visitCellPair (NDEBUG)")
p("Edge probabilities in double arithmetic",
  "For finite alpha, computing in IEEE doubles and given independent uniform draws, generateEdges decides the pairs of nodes independently, and each pair {u,v} becomes an edge with the probability min(1, (w_u w_v / W / dist^d)^alpha) with every operation rounded (except that it may be 0 if that probability is below 10^-6). With a pow of relative error e and absolute error h, and dist >= 2^-51, this probability lies between min(1, (1-e) (w_u w_v / W (1 - 2 c) / (dist + 2^-52)^d)^alpha - h) and min(1, (1+e) (w_u w_v / W (1 + 2 c) / (dist - 2^-52)^d)^alpha + h) in exact arithmetic, where c = (n + 8) 2^-52.",
  "all weights, positions, alphas, schedules; all values of the draws in the integral", "a probability over a continuum of draws; rounding errors far below what a statistical test can see", "source/girgs/include/girgs/SpatialTree.inl: sampleTypeI, sampleTypeII", "source/girgs/source/Generator.cpp: generateEdges")
p("The hyperbolic generator in double arithmetic",
  "Computing in IEEE doubles with a <cmath> that is accurate to about two units in the last place, for points whose radii are at least 2^-52 R and an R (not an integer, in particular) for which no cell level comparison is a near tie, hypergirgs::generateEdges returns exactly when it does in exact arithmetic, has no undefined behaviour, decides every pair exactly once and returns a simple graph. For T = 0 every pair whose distance d satisfies |cosh d - cosh R| > 2^-46 (cosh r_u cosh r_v + cosh R) is decided as in exact arithmetic, and the graph is the same whatever the random numbers, seed, threads, schedule and build are; for T > 0 the seed determines the edges up to order.",
  "all points, temperatures, engines, seeds, numbers of threads, schedules, builds; every accurate <cmath>", "rounding decides differently only on rare inputs; quantifies over all math libraries and schedules", "source/hypergirgs/include/hypergirgs/HyperbolicTree.inl", "source/hypergirgs/include/hypergirgs/Point.h", "source/hypergirgs/include/hypergirgs/AngleHelper.h", "source/hypergirgs/include/hypergirgs/RadiusLayer.h", "source/hypergirgs/source/RadiusLayer.cpp", "source/hypergirgs/include/hypergirgs/DistanceFilter.h")
p("Points sampled in double arithmetic are valid inputs of the generator",
  "Computing in IEEE doubles with a <cmath> accurate to about two units in the last place and canonical draws that are doubles in [0,1), for alpha >= 1/2, R >= 2/3 and alpha R <= 99, sampleRadii, sampleAngles and sampleRadiiAndAngles return n values without undefined behaviour; every angle is a double in [0, 2 pi) (strictly below the double 2*PI) and every radius is a double that is at least 2^-52 R and exceeds R by at most a relative 2^-46. So for R in [4/3, 40] without near ties generateEdges accepts every sampled instance: the call has no undefined behaviour and returns a simple graph, for every seed, number of threads and schedule.",
  "all n, alpha, R, seeds, engines, numbers of threads, schedules; every accurate <cmath>", "the dangerous draws (the endpoints of the range after rounding) have probability about 2^-53", "source/hypergirgs/source/Generator.cpp: sampleRadii, sampleAngles, sampleRadiiAndAngles, generateEdges")
p("Expected cost of a hyperbolic threshold graph is linear",
  "For T = 0 and 4/3 <= R <= 40 the number of pairs of points whose hyperbolic distance the generator compares with R one by one is a function of the points alone (the same for every run, schedule, seed, build and number of threads). For given radii r_1..r_n its expectation over independent uniform angles is at most 6 e^(R/2) (sum_u e^(-r_u/2))^2; if the radii are sampled too, with alpha > 1/2, it is at most 6 n^2 (10 alpha/(2 alpha - 1))^2 e^(-R/2); so for R = 2 log n + C it is linear in n, and for the R that calculateRadius returns for average degree deg it is at most 75 pi deg n, whatever alpha is.",
  "all radii, n, alpha, R, degrees, numbers of threads, engines, builds; all points in the integrals", "an expectation over a continuum of points; tests only time single runs", "source/hypergirgs/include/hypergirgs/HyperbolicTree.inl: visitCellPair, sampleTypeI", "source/hypergirgs/include/hypergirgs/HyperbolicTree.inl: partitioningBaseLevel", "source/hypergirgs/source/Generator.cpp: calculateRadius, sampleRadiiAndAngles")
p("Time and memory of the hyperbolic recursion do not depend on the points",
  "For every valid input with 4/3 <= R <= 40, wherever the points are and whatever T is: visitCellPair(0,0,0) is invoked for no pair of cells twice, makes at most 20 e^(R/2) recursive invocations and at most 480 e^(R/2) loop iterations in them (not counting the distance comparisons and the skip loop inside sampleTypeI/II). With several threads the sampling threads and the task creating thread each walk over the same invocations of the first levels, at most 24 times omp_get_max_threads() of them, there are at most 14 times omp_get_max_threads() tasks, and the invocations of the first levels and of the tasks together are distinct and obey the bounds of one thread. The tree keeps the n points, at most 1 + 4.3 e^(R/2) cell index entries, at most R+1 layers, (R+1)^2 layer pairs and 60 (R+1)^2 distance filters. With R = 2 ln n + C all this is linear in n.",
  "all point sets, temperatures, radii of the disc, numbers of threads, task orders, builds", "a complexity bound for all inputs; tests measure the running time of a few", "source/hypergirgs/include/hypergirgs/HyperbolicTree.inl: HyperbolicTree, visitCellPair, visitCellPairCreateTasks, visitCellPairSample")
p("Weights and positions sampled in double arithmetic",
  "Computing in IEEE doubles with a pow of relative error at most 2^-52 and canonical draws that are doubles in [0,1), for 3 <= n < 2^31 and 5/4 <= ple <= 16, generateWeights returns n doubles, one draw each, between 1 - 2^-52 (1 for a correctly rounded pow) and 2^(53/(ple-1)) (1 + 2^-40), and the weight for a draw u differs from the exact quantile q of the truncated power law by at most 2^-45 q^ple (if q^(ple-1) <= 2^45); generatePositions returns n points of d doubles in [0,1). Sampled weights of sum at most 2^30 and sampled positions are valid inputs of generateEdges in doubles, which then returns exactly the threshold graph of the rounded edge rule (if log2 does not round up past an integer). The largest weights are lost in large graphs: for n = 2^30 and ple = 3 no weight reaches n/4.",
  "all n, exponents, seeds, draws, engines, numbers of threads, schedules; every accurate pow", "rounding errors matter for draws of probability 2^-40; needs all draws", "source/girgs/source/Generator.cpp: generateWeights, generatePositions, generateEdges")
p("Expected number of random draws of a hyperbolic graph",
  "For a temperature 2^-52 < T < 1, 4/3 <= R <= 40 and 2 T ln 99 <= R, given independent uniform draws: the expected number of random numbers that generateEdges draws over all its threads is determined by the points (the same for every seed, schedule, task order and build), and it is at least the number of distance comparisons of the threshold graph on the same points. For given radii r_1..r_n its expectation over independent uniform angles is at most 480 e^(R/2) + c e^(R/2) (sum_u e^(-r_u/2))^2 with c = 96 + 45/(1 - 2^(1 - 1/T)); if the radii are sampled too, with alpha > 1/2, it is at most 480 e^(R/2) + c n^2 (10 alpha/(2 alpha - 1))^2 e^(-R/2); so it is linear in n for R = 2 log n + C, and for the R that calculateRadius returns for a constant average degree.",
  "all radii, n, alpha, T, R, degrees, seeds, numbers of threads, task orders, builds; all points and all random tapes in the integrals", "an expectation over a continuum of points and random tapes; tests only time single runs", "source/hypergirgs/include/hypergirgs/HyperbolicTree.inl: visitCellPair, sampleTypeI, sampleTypeII", "source/hypergirgs/include/hypergirgs/DistanceFilter.h", "source/hypergirgs/source/Generator.cpp: calculateRadius, sampleRadiiAndAngles")
p("Dropping improbable blocks hardly changes the distribution of the graph",
  "generateEdges deliberately leaves out blocks of pairs whose expected number of edges is below 10^-6. Nevertheless, given independent uniform draws, the whole returned graph has almost the documented distribution (every pair an edge independently, with the documented probability): for every function f of graphs with values in [0,1], in particular for the probability of every event, the mean of f over the returned graphs differs from the mean under the documented model by at most e, and the expected number of edges is at most e below the sum of the documented probabilities and never above it. For GIRGs with finite alpha e = 10^-6 6^d (6 + 2 (1 + log2(w_max/w_min))^2 + 4 W/w_min^2), for hyperbolic random graphs with T > 2^-52 e = 10^-6 480 e^(R/2); both are about n/10^6 up to a constant factor.",
  "all inputs, weights, points, alpha, T, R, seeds, numbers of threads, schedules; all functions of graphs; all random tapes in the means", "a bound on a distance between distributions of graphs of order 10^-6; tests could only sample", "source/girgs/include/girgs/SpatialTree.inl: visitCellPair, sampleTypeII", "source/hypergirgs/include/hypergirgs/HyperbolicTree.inl: visitCellPair, sampleTypeII")
p("The requested degree is reached by the generated graphs, end to end",
  "Let scaleWeights(ws, deg, d, alpha) return and call generateEdges with the scaled weights. There is a function F of the positions, the documented average degree given the positions, whose mean over independent uniform positions is at least deg - 0.02 and below deg + 0.02 + 1/n (for 8 < alpha < infinity below alpha/(alpha-1) times that). For the threshold model every returned graph has exactly the average degree F(positions), for every seed, schedule and build. For finite alpha and any positions the mean average degree of the returned graphs over the random draws is at most F(positions) and at most 2 e/n below it, where e is the bound of C80 on the expected number of edges lost in dropped blocks, i.e. about 10^-6 times a constant. Hence the average degree of the returned graphs, averaged over the draws and over independent uniform positions, is in that window up to 2 e/n.",
  "all weights, degrees, dimensions, alpha, positions, seeds, numbers of threads, schedules, builds; all positions and random tapes in the means", "an expectation over a continuum of positions and random tapes; tests sample a few graphs with loose tolerances", "source/girgs/source/WeightScaling.cpp: scaleWeights", "source/girgs/source/Generator.cpp: generateEdges", "source/girgs/include/girgs/SpatialTree.inl: sampleTypeII")
p("The expected degree of every node follows from its weight",
  "Call generateEdges with weights w, independent uniform positions and any node x. In the threshold model the degree of x in the returned graph is a function of the positions (the same for every seed, schedule and build) whose mean over uniform positions is exactly the sum over all other nodes u of min(1, 2^d w_u w_x / W). This is at most 2^d w_x (1 - w_x/W), and equal to it if 2^d w_u w_x <= W for all u, so that expected degrees are proportional to the weights up to the factor 1 - w_x/W. For finite alpha other than 1, given independent uniform draws, the mean degree of x over the draws is a function of the positions whose mean over uniform positions is at most the sum over u of q(2^d w_u w_x / W), where q(z) = 1 for z >= 1 and q(z) = (alpha z - z^alpha)/(alpha - 1) below, and at least that sum minus the bound of C80 on the edges lost in dropped blocks. For alpha > 1 that sum is between the one of the threshold model and alpha/(alpha-1) 2^d w_x (1 - w_x/W).",
  "all weights, dimensions, nodes, alpha, seeds, numbers of threads, schedules, builds; all positions and random tapes in the means", "an expectation over a continuum of positions and random tapes for every node", "source/girgs/source/Generator.cpp: generateEdges", "source/girgs/include/girgs/SpatialTree.inl: sampleTypeI, sampleTypeII")
p("The expected degree of every node of a hyperbolic threshold graph follows from the radii",
  "Call generateEdges of hypergirgs with T = 0, 4/3 <= R <= 40, radii in (0,R] and independent uniform angles. For every node x the degree of x in the returned graph is a function of the angles (the same for every seed, schedule, task order and build; a graph is always returned) whose mean over uniform angles is exactly the sum over all other nodes u of theta(r_u,r_x)/pi, where theta is the angle at which two points of these radii are at hyperbolic distance R (pi if no angle is that far). Points with r_u + r_x <= R are connected with probability 1; moving a point towards the centre never lowers the probability of its edges, so of two nodes the one with the smaller radius has the larger expected degree. The square of the probability times (1 - e^(-2 r_u))(1 - e^(-2 r_x)) is at most e^(R - r_u - r_x), and for r_u + r_x >= R it is at least 4/pi^2 e^(R - r_u - r_x)(1 - e^(-(R + r_u - r_x)))(1 - e^(-(R - r_u + r_x))). Hence with q(r) = e^(-r/2)/sqrt(1 - e^(-2r)) the expected degree of x is at most e^(R/2) q(r_x) times the sum of q over all radii; and the average degree of the returned graph is a function of the angles whose mean is the mean of these expected degrees over the nodes.",
  "all radii, R, n, nodes, seeds, numbers of threads, task orders, builds; all angles in the mean", "an expectation over a continuum of angles for every node", "source/hypergirgs/source/Generator.cpp: generateEdges", "source/hypergirgs/include/hypergirgs/HyperbolicTree.inl: sampleTypeI, visitCellPair")
p("For given points every node has its documented expected degree, up to edges lost in dropped blocks",
  "Fix the points and call generateEdges with finite alpha >= 0 (GIRGs) or with T > 2^-52 and 2 T ln 99 <= R (hyperbolic random graphs). Given independent uniform draws, the mean degree of every node x in the returned graph is at most the sum over all other nodes u of the documented connection probability of u and x, and at most e below it, where e is the bound of C80 (10^-6 6^d (6 + 2 (1 + log2(w_max/w_min))^2 + 4 W/w_min^2), respectively 480 * 10^-6 e^(R/2)). Over all nodes together the deficits sum up to at most 2 e, so the average node loses at most 2 e/n. This holds for every seed, number of threads, schedule and build.",
  "all inputs, points, weights, alpha, T, R, nodes, seeds, numbers of threads, schedules, builds; all random tapes in the means", "an expectation over all random tapes for every node, with an error of order 10^-6", "source/girgs/include/girgs/SpatialTree.inl: sampleTypeI, sampleTypeII", "source/hypergirgs/include/hypergirgs/HyperbolicTree.inl: sampleTypeI, sampleTypeII")
for x in P: print(json.dumps(x))
