# Formal model of chistopher/girgs in Rocq (Coq 8.16.1)

This file is the plan and the trusted-base statement. `properties.jsonl` lists the
properties, `MANIFEST.json` the theorems that settle them, `seeded/LOG.jsonl` the
mutation experiments.

## How the code is modelled

* **Integers.** `unsigned int` values are `N`/`nat`/`Z` with every wrap (`mod 2^32`) or shift
  written explicitly where the code can reach it. A step that would be undefined behaviour (shift by >= 32, index out of
  range, signed overflow) is a separate outcome (`None`), so a theorem that concludes `Some` also says "no UB".
* **Floating point.** The main development computes with exact reals (Coq `R`). The numeric operations that matter for
  the decisions go through an environment (`rnd`, `log2`, `pow`), with an *ideal* instance and, for
  C57, an IEEE-754 binary64 round-to-nearest instance from Flocq. Properties proved only for exact
  reals say so in their MANIFEST note.
* **Randomness.** A generator is an abstract deterministic state machine (`G`, `mk : seed -> G`,
  `u01`, `geo` ...). Theorems quantify over every such machine whose draws lie in the documented ranges.
  Probability laws (C08, C47): an engine state is an infinite tape of numbers in [0,1); `expects f v` reveals the draws one after the
  other and integrates (Riemann) over each, `expects_n` does so for several independent tapes. Every distribution consumes one draw:
  `uniform_real` is u or p*u, `geometric_distribution` is floor(log(1-u)/log(1-p)) capped at 2^63-1 as in libstdc++ (exact reals).
  For GIRGs the engine seeded with seed+k gets tape k; for HRGs the engine built from the i-th block of 312 words gets tape i.
* **Concurrency.** OpenMP regions are modelled by interleavings of per-thread event lists with
  sequentially consistent memory; `schedule(static)` is libgomp's contiguous block split; the HRG task queue and
  the gap repair are small-step transition systems.
* **Files and arguments** are lists of characters / strings.

## Layout (`rocq/theories`)

`X_Model.v` (code), `X_Proofs.v` (lemmas), `Prop_X.v` (property theorems + non-vacuity examples + `Print Assumptions`).

## Plan per property

| id | model | proof |
|----|-------|-------|
| C01 | SpatialTree recursion over cells, layers, type I / II sampling, exact reals | coverage theorem + weight/dist bounds |
| C02, C03, C04 | same, with event list of decided pairs | induction on remaining levels: each pair covered exactly once |
| C05 | same, all thread counts, all interleavings | corollary of C01 for every run |
| C06 | same, alpha = 0 | every bucket is re-routed to type I, pow(.,0)=1 |
| C07 | bounds of type II sampling | monotone power |
| C08 | tapes of independent uniform draws, expected values by iterated integration (`Prob_Spec.v`), geometric draws by inversion | induction over the skipping loop: the mean of a product of functions of the pairs is the product of the means; dropped buckets stated |
| C09 | generator as state machine, per-thread streams | the trace of each thread is a function of (seed, tid) |
| C10 | sequentialStart + static schedule | list permutation by induction on level |
| C11 | buffer state machine | invariant over arbitrary interleavings |
| C12 | dispatch on dimension | case analysis |
| C13 | UB as `None` | bounds c <= 30 imply `Some`; witness beyond |
| C14 | debug assertion | refuted by witness; the non-strict version is proved |
| C15-C17 | IntSort.h: reduction, passes, chunks, queues | stable counting sort, LSD induction, chunk arithmetic |
| C18 | small-step interleaving of gap repair | invariant |
| C19 | WeightLayer.h | C15 + C18 + nested cells |
| C20, C21 | BitManipulation*.inl as `N` bit operations | or-homomorphism + bit basis |
| C22-C25 | SpatialTreeCoordinateHelper, Node.h | arithmetic |
| C26 | Helper.h pow_to_the | induction |
| C27-C29 | Generator.cpp generateWeights/Positions | inverse CDF algebra, stream model |
| C30-C35 | WeightScaling.cpp | loop invariants, sums over lists |
| C36-C42, C46, C49 | hypergirgs: tree, layers, filter, Point | as for GIRG + cosh monotonicity lemma |
| C43-C45 | hypergirgs Generator.cpp | real analysis |
| C47 | as C08, one tape per engine of `initialize_prngs` | as C08, lifted through the task machine (units of work are permuted, not split); `Prop_HypDrop.v`: two nodes at opposite ends of a disc of radius 40 are never joined |
| C48 | as C09 | |
| C50-C53 | cli mains, Generator.cpp saveDot | lists of characters, parser/printer round trip |
| C54, C55 | Hyperbolic.h, examples | algebra; sorted merge |
| C56 | specification graph + C01 | algebra |
| C57 | IEEE instance of the same model (`Ieee.v`): every operation rounded to nearest even, any monotone log2 exact at powers of two | the numeric facts used by the coverage proof (`num_ok`, `good_rnd`, `far_ok`) re-proved for rounded arithmetic |
| C58 | gengirg `main` as one function of arguments, engine and schedule | composition of C27-C33, C50-C52, C01, C03, C13 |
| C59 | genhrg `-coord` printing, fixed notation with 17 decimals | round half even bound |
| C60 | genhrg `main` as one function of arguments, engine, partition and schedule | composition of C36, C37, C39, C43-C45, C51, C52, C59 |
| C61 | the run models of C58 and C60, pairs of runs | determinism of every component: scaleWeights (Scaling_Det), sampling with one thread, C09, C45, C48, C01/C36 for threshold graphs |
| C62 | `Embed_Model.v`: the GIRG input of a hyperbolic input and the search of `inclusion_range` | Jordan's inequality and bounds on sinh relate hyperbolic distance < R to the angle; C01, C36, C55 carry this to the generated edge lists and the counters; the bisection by induction |
| C63 | iterated integrals over all positions (`Mean.v`, specification), scaleWeights as in C30-C35 | the mean of a function of the torus distance by induction on d (integration by parts), linearity over pairs, C32 |
| C64 | `HypDbg_Model.v`: the program of `Hyp_Model.v` with every `assert()` of hypergirgs executed; a failed assertion is `None` | every assertion is discharged from the tree specification, the cell geometry and the filter lemmas of C40/C41, so the instrumented program equals the plain one unit by unit |
| C65 | `GirgDbg_Model.v`: the program of `Tree_Model.v`/`Girg_Model.v` with every `assert()` of girgs' sampling executed | each assertion follows from the tree specification, the cell geometry, the bounds on `log2(W/w_min^2)` and the strict far-pair bound; refutations by executed calls that always fail |
| C66 | runs of `Tree_Model.v` with their `EPair` events counted; expectation as the iterated integral of `Mean.v` | `Cost_Touch.v`: a pair is compared iff the points lie in the same or adjacent cells of the level of their layers, which has probability min(1, 3/2^l)^d; bounded by 4*6^d w_u w_v / W and summed |
| C67 | `GirgCost_Model.v`: the recursion recording its invocations and loop iterations; proved to make the calls of `Tree_Model.v` | invocations of one level are distinct pairs of children of touching cells, a cell touches at most 3^d cells; geometric sums over levels and layers |
| C68 | `ScaleDbg_Model.v`: the assertions of `WeightScaling.cpp` on top of `Scaling_Model.v`, assertions in `ScaleDbg_Model.v` | invariant: everything sorted implies m_lower = DBL_MIN, so only a threshold below DBL_MIN fails; bound on the arguments of the search; every run above degree n-1 drives the threshold below |
| C69 | `Prop_HypSym.v`: two calls of `hypergirgs::generateEdges` (`Hyp_Model.v`) on related points | C36 reduces both graphs to the distance predicate; periodicity of cos, monotonicity of cosh, convexity of exp along a radius |
| C70 | `Prop_Draws.v`: runs of `Tree_Model.v` with an engine that counts the numbers it hands out; expectation over tapes as in C08 and over positions as in C66 | `Draws_Law.v`: a type 1 block costs one draw per pair, a skipped type 2 block 1 + 2 p |A||B| on average; `Draws_Bound.v`: the parents of a type 2 block touch, so its p is at most the a-th power of the weight term times the cells of its level; `Draws_Mean.v`: geometric series over the levels, C67 for the number of blocks; `Mean_Cells.v`: the value is a step function of the positions, so its mean exists |
| C71 | `Prop_Nested.v`: runs of `Girg_Model.v` with finite alpha, ideal reals and IEEE doubles | a pair with d_term < w_term cannot lie in a far block (`far_bound`), so it is compared by type 1 with connection probability >= 1, above every draw |
| C72 | `Prop_Flavour.v`: runs of `Girg_Model.v` under two configurations (use_bmi2, gnuc, ndebug) | bit manipulation agrees on the cells that occur, so trees, recursion and draws are equal; with NDEBUG and alpha = infinity the recursion makes the type 1 calls only, and the skipped type 2 calls report no edge (`far_bound`) |
| C73 | `Prop_ProbIeee.v`, `ProbE_Girg.v`, `ProbE_Law.v`: runs of `Girg_Model.v` in IEEE doubles with finite alpha on independent uniform tapes | the law of C08 for an arbitrary monotone rounding; the computed envelope weight bounds the computed weight terms because products with powers of two are exact; rounding error analysis as in C57 for the distance to the exact probability |
| C74 | `HypF_Model.v`: the program of `Hyp_Model.v` over an arbitrary rounding and arbitrary `<cmath>` functions; `HypF_Ieee.v`, `Prop_HypIeee.v`: rounding to nearest double, functions within two units in the last place | `HypF_Exact.v`: with no rounding the program is that of `Hyp_Model.v`; `HypF_Build/Run/Gen.v`: if layers, cells and levels are those of exact arithmetic on slightly moved points, the tree and the calls are the exact ones with other coordinates stored; `HypF_Err/Ieee.v`: rounding error analysis of the cell, level and distance computations |
| C75 | `HypInF_Model.v`: `HypIn_Model.v` over an arbitrary rounding and arbitrary `<cmath>` functions; `Prop_HypInIeee.v` | the uniform draw is at least nextafter(1), so the arcosh is at least 2^-26 and the radius at least 2^-52 R; upper bound through acosh(cosh(alpha R)(1 + error)) with coth bounded; then C74 applies |
| C76 | runs of `Hyp_Model.v` with their `EPair` events counted; `Prop_HypCost.v`; expectation as the iterated integral of `Mean.v` | `HypCost_Calls.v`: every unit of work is a list of calls, together the plan, and a pair is compared iff the points lie in the same or adjacent cells of the level of their layers; `HypCost_Mean.v`: the level of two layers is the last one whose cells are not far, so the probability min(1, 3/2^l) is at most 12 e^((R-r-s)/2); the layer is a step function of the radius draw, and the mean of e^(-r/2) is a primitive of a power |
| C77 | `HypWork_Model.v`: the recursion of `Hyp_Model.v` recording its invocations and loop iterations; `Prop_HypWork.v` | `HypWork_Proofs.v`: the recorded invocations make the calls of `Hyp_Model.v`; a level has at most 6 2^l visited pairs (children of touching pairs), 2^(levels-1) <= 5/3 e^(R/2), and the level of a layer pair decays geometrically in both layers; first levels and tasks partition the invocations |
| C78 | `Sampling_Model.v` over `double_env` (`Ieee.v`); `Prop_SampleIeee.v` | `SampleF_Proofs.v`: the base of the outer power is at least 2^-53 because draws are at most 1 - 2^-53, its absolute error is at most 7 * 2^-53, and the errors of base and exponent are carried through ln and exp; validity for C57 follows from the ranges |
| C79 | `Hyp_Model.v` with counting engines (`HypDraws_Law.hcounted`); `Prop_HypDraws.v` (`expected_hyp_draws`) | `HypDraws_Law.v`: the counting run projects to the uncounted one, the expected count of every call by induction over the skip loop, linearity over calls and threads; `HypDraws_Bound.v`: a far pair is only skipped over if its cells' parents touch, so its block is charged near-indicator times envelope per level; `HypDraws_Mean.v`: the envelope decays like 2^-(base-l)/T while near-probabilities grow like 2^(base-l), a geometric series as T < 1; the value depends on layers and cells only, so the means exist |
| C80 | `Tree_Model.v`, `Hyp_Model.v` on tapes; spec `graph_of`, `indep_mean` (`Law_Any.v`), `close_to_documented` (`Prop_Loss.v`) | `Law_Any.v`: the product law of C08/C47 determines the mean of every function of the graph, changing the pair probabilities from q to p changes the mean of f in [0,1] by at most sum of abs(p-q) (hybrid argument); `Prop_Loss.v`: every dropped block loses at most 10^-6 in total, and there are at most as many blocks as C67/C77 allow |
| C81 | `Scaling_Model.v` followed by `Girg_Model.v`; spec `in_window`, `lost_edges`, `average_degree` (`Prop_EndDegree.v`), `degree_given_positions`, `is_points_mean` (C63) | C63 gives F and its mean, C80 the mean number of edges given the positions (`ordered_sum`: ordered pairs count twice), C63_generated the exact degree of threshold graphs; `C81_mean_degree` (`Prop_MeanDegree.v`) integrates the degree over the positions: the pairs in dropped blocks depend on the grid cells only, the documented probability is continuous in the distance, and functions that vary little within the cells of fine grids are integrable (`Mean_Reg.v`) |
| C82 | `Girg_Model.v`; spec `node_degree`, `volume`, `chance`, `chance_thr`, `over_others` (`Prop_NodeDegree.v`), `is_points_mean` (C63) | the law of the whole graph (C80) applied to the number of pairs at x (`indep_mean_weight`, `row_sum`), the mean of each pair over the positions as in C63 with its closed form (`chance_mean`, `threshold_mean`), integrability as in C81_mean_degree |
| C83 | `Hyp_Model.v`; spec `reach`, `hyp_chance` (`Prop_HypDegree.v`), `node_degree`, `over_others` (C82), `is_cube_mean` (C63), `is_hyp_dist` (C36) | the exact threshold graph (C36) turns into a condition on the cosine of the difference of the angles (`edge_cut`), its mean is the volume of a ball on the circle (`hedge_mean`, `mean_ball`); monotonicity and exponential bounds by hyperbolic addition formulas and Jordan's inequality |
| C84 | `Girg_Model.v`, `Hyp_Model.v`; spec `mean_degree_is`, `total_deficit` (`Prop_NodeLaw.v`), `node_degree`, `over_others` (C82), `edge_probability` (C08), `hyp_probability` (C47) | the law of the whole graph (C80) applied to the pairs of one node (`degree_mean`, `row_sum`); the loss of every pair is counted at its two ends |

## Trusted base

Coq's kernel (and `coqchk`); the axioms listed by `Print Assumptions`, per theorem in `ASSUMPTIONS.md` (only the standard library's: classical
reals `ClassicalDedekindReals.sig_forall_dec`, `sig_not_dec`, functional extensionality, and where noted `classic`);
the correspondence between the model definitions and the cited C++ lines; the assumption that compilers implement
C++/OpenMP as modelled (SC atomics for words, libgomp static schedule); real arithmetic for floating point except where C57 says
otherwise; `std::` algorithms (`min_element`, `accumulate`, `sort`, `exclusive scan`) behave as specified.

## Notes on the modelled code

* **Weight scaling** (`WeightScaling.cpp`, all of it; `Scaling_*.v`): exact reals, weights any positive normal doubles.
  `exponentialSearch` is a small-step machine; `std::partition`/`std::sort` are any permutation with the
  standard's postcondition. Findings: both estimators subtract a self loop `[begin, upper)` style and can be one
  self-loop term (less than 1/n) too small (`C34_not_exact`); their jumps go downwards only, so the binary
  search still ends. Not modelled: wrap of the `size_t` term counter by rounding errors, overflow of the search interval. The debug assertion of `sort_downto`
  fires exactly for thresholds below `DBL_MIN` when everything is sorted already (C68).
* **Hyperbolic generator** (`hypergirgs/`: `Hyperbolic.h`, `Point.h`, `RadiusLayer.*`, `AngleHelper.*`, `HyperbolicTree.inl`,
  `DistanceFilter.inl`, `Generator.cpp`; `Hyp_*.v`, `HypIn_*.v`): exact reals for all distances; the parallel region of
  `HyperbolicTree::generate` is an interleaving machine over the shared counters, with the unsynchronised read of
  `tasks_generated` as a sequentially consistent read (the C++ program has a data race there). The order in which
  `std::partition` leaves the points is a parameter of the model. Findings:
  C39: discs of radius at most 2 with two or more threads never return (the CLI admits n = 100, deg = 99, alpha = 1,
  `C44_cli_deadlock`), and radius 8 can hang; C41: R in (1, 4/3) indexes out of range, R < 2/3 gives wrong edges; C42: thin
  discs index outside the layer vector; C43: `n = 0` with `parallel` divides by zero; C44: alpha = 0.5 is admitted but has no
  finite radius; C45: the NetworKit-style search does not end for dense cold graphs (its debug assertion would fire).
  `uniform_real_distribution(a,b)` is `a + (b-a) u`, the radii are drawn from `[1 + 2^-52, cosh(alpha R))`.
* **Edge probabilities** (C08, C47): the law proved is that of the code, including its deviations. When a bucket of distant
  cells has an upper bound `max_connection_prob` of 1 or more the code falls back to testing pairs one by one; buckets whose skip
  probability rounds to nothing are dropped, so pairs in dropped buckets are never edges although their exact probability is
  positive (`C08_exact_probability_refuted`, `C47_exact_probability_refuted`; C80 bounds the effect).
* **Doubles** (C57, `Ieee.v`): every +, -, *, / of the threshold path is rounded to nearest even with precision 53, gradual underflow
  and no overflow; `C57_no_overflow` shows that no intermediate value exceeds 2^832, so this format and binary64
  agree. `log2` is any monotone function that is exact at powers of two (`good_log2`); `pow` is not called for alpha = infinity
  and is arbitrary. The criterion "log2(W/w_min^2) is not rounded up to an integer" is made concrete by
  `C57_logarithm_criterion`, and it is needed: `C57_log_rounded_up_refuted` (`Prop_IeeeLog.v`) gives four weights with sum
  W = 2^17 (1 - 10 * 2^-53), whose correctly rounded logarithm is 17, and four positions for which two nodes satisfy the edge rule
  exactly and in doubles while no release build reports the edge (the grid is one level too fine). For alpha < infinity see C73 (`Prop_ProbIeee.v`): the law of the edges with every operation rounded, any `pow` that is monotone and
  non-negative with pow(1, a) = 1 (`good_pow`; a correctly rounded one qualifies); the uniform and geometric draws themselves stay ideal. A quotient or power that overflows
  to infinity in binary64 is above 1 in the model and so gives the same decision (min with 1, or a draw below 1). Not covered: the weight scaling in doubles.
* **Hyperbolic generator in doubles** (C74): every operation is rounded to nearest even; the functions of `<cmath>` are
  any functions with the error bounds of `libm_ok` (relative 2^-51 for cosh, sinh, acosh; absolute 2^-52 for cos, sin; `exp` and `log` arbitrary
  except exp >= 0), which hold for correctly rounded functions (`rounded_ok`) and are about what glibc documents. `dd_clear` asks that no comparison
  `hyperbolicDistance(..) > R` of `partitioningBaseLevel` is decided by less than the rounding error; it fails for integer R >= 2, where
  two layers are at distance exactly R, and for a null set of neighbourhoods otherwise (`ex_disc` is an instance that satisfies it).
  Without it `partitioningBaseLevel(i,j)` and `(j,i)` can differ in doubles (observed numerically, not formalised: R = 11.645051076484185 gives 4 for
  (1,4) and 5 for (4,1)), so the pair lists of the tree would not be symmetric. Radii below R 2^-52 make `R - r` round to R and the
  layer index run past the last layer (`C74_tiny_radius_refuted`); near the border of a large disc the comparison is useless
  (`C74_tolerance_refuted`: two identical points at radius 40 = R are not below distance R), which is why the tolerance of `C74_threshold_close`
  contains cosh r_u cosh r_v. Not modelled: overflow of `exp` to infinity (the code then compares infinity with 1) and contraction to fused multiply-add. The radii may exceed R by a relative 2^-46, because
  sampled radii do (C75, `Prop_HypInIeee.v`): `acosh(cosh(alpha R)) / alpha` need not be at most R in doubles. `std::uniform_real_distribution` is libstdc++'s `u * (b - a) + a`.
* **Command line** (C50-C53, C58-C60): `std::stod` is a parameter (any partial function from strings to doubles incl. NaN and
  infinities), `std::stoi` is modelled; `rangeCheck` lets NaN pass (`C51_nan_refuted`); the argument after an option is always its value,
  even if it starts with a dash, as in `parseArgs`. `std::fixed` printing is the exact value rounded to p decimals, ties
  to even, so very small coordinates lose digits (`C59_small_values_refuted`).
* **Whole runs** (C58, C60): `main` of both tools from the argument vector to the contents of the files, over every engine, every team
  size OpenMP may grant and every schedule. Findings: n = 2^30, d = 4, deg = 1 shifts by 32 bits or more (`C58_too_many_cells_refuted`);
  `genhrg -n 100 -alpha 1 -deg 99 -threads 2` and `genhrg -n 10 -alpha 1 -deg 9 -nkr 1` never end (`C60_hang_refuted`,
  `C60_search_refuted`); `-alpha 0.5` is accepted and undefined (`C60_alpha_half_refuted`); `inclusion_range` never ends when the hyperbolic
  graph has an average degree above 2(n-1)/3 (`C62_dense_graphs_refuted`).

## What is modelled and what is not

| source file | modelled in | not modelled |
|---|---|---|
| girgs: `SpatialTree.h/.inl` | `Tree_Model.v`, assertions in `GirgDbg_Model.v`, work of the recursion in `GirgCost_Model.v` | `ScopedTimer` calls |
| girgs: `SpatialTreeCoordinateHelper.h/.inl`, `Node.h`, `Helper.h` | `Coord_Model.v`, `Tree_Model.v` | |
| girgs: `BitManipulation*.inl/.h` | `Bits_*.v` | CPU dispatch macros; pdep/pext as in Intel's manual |
| girgs/hypergirgs: `IntSort.h` | `IntSort_*.v` | iterator types; `std::copy` details |
| girgs: `WeightLayer.h` | `Tree_Model.v`, gap repair in `Prefix_Model.v` | |
| girgs: `Generator.cpp/.h` | `Girg_Model.v`, `Sampling_Model.v` (also in doubles, C78), `Cli_Model.v` (`saveDot`) | `std::random_device` is any value |
| girgs: `WeightScaling.cpp` | `Scaling_Model.v`, assertions in `ScaleDbg_Model.v` | wrap of the term counter by rounding |
| girgs: `Hyperbolic.h` | `Extra_Model.v` | |
| hypergirgs: all of `Hyperbolic*.h/.inl`, `Point.h`, `RadiusLayer.*`, `AngleHelper.*`, `DistanceFilter.*`, `Generator.*` | `Hyp_Model.v`, `HypIn_Model.v` (sampling in doubles: `HypInF_Model.v`), assertions in `HypDbg_Model.v`, doubles in `HypF_Model.v` | weak memory |
| cli: `gengirg/main.cpp`, `genhrg/main.cpp` | `Cli_Model.v`, `Run_Model.v`, `HrgRun_Model.v` | console output, timers, unopenable files |
| examples: `inclusion_*`, `bench_*` | the merge of `inclusion_*` and `CounterPerThread` in `Extra_Model.v`, the conversion and degree search of `inclusion_range` in `Embed_Model.v` | the benchmark loops and CSV output |
| tests, benchmarks, `ScopedTimer.h` | - | everything |
