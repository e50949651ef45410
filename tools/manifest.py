#!/usr/bin/env python3
"""Writes MANIFEST.json. One entry per property: (status, theorems, note)."""
import json
C = {}
C['C20'] = ('proved', ['C20_extract_bits','C20_deposit_bits','C20_roundtrip_coords','C20_roundtrip_code'], 'D = 1..5, both implementations, all words')
C['C21'] = ('proved', ['C21_extract_agree','C21_deposit_agree'], 'for all codes / all coordinates admitted by the debug assertions; C21_range_is_needed shows they differ outside')
C['C22'] = ('proved', ['C22_levels','C22_children','C22_local_index','C22_levels_disjoint'], 'while cell numbers fit in 32 bits')
C['C23'] = ('proved', ['C23_point_in_bounds','C23_cells_nest'], 'for every rounding satisfying good_rnd, in particular exact reals')
C['C24'] = ('proved', ['C24_touching','C24_dist'], 'exact reals; dist is exactly the distance of the closed cells')
C['C25'] = ('proved', ['C25_is_torus_distance','C25_metric','C25_translation'], 'exact reals')
C['C26'] = ('proved', ['C26_pow'], 'exact reals, every D')
C['C15'] = ('proved', ['C15_radix_sort_sorts'], 'every record array with keys below max_key, every admitted thread count, every interleaving; result is THE stable sort')
C['C16'] = ('proved', ['C16_refuted','C16_inclusive_bound_otherwise'], 'the property as documented is false: C16_refuted exhibits key = max_key = 2^k unsorted; for every other max_key the inclusive bound works')
C['C17'] = ('proved', ['C17_chunks_tile','C17_thread_bound_is_sharp'], 'for every n and every admitted thread count; second theorem shows the min(n, ..) clamp is necessary')
C['C18'] = ('proved', ['C18_cell_index','C18_repair_terminates','C18_repair_progress'], 'word-level sequentially consistent interleavings')
C['C01'] = ('proved', ['C01_threshold_graph_is_exact'], 'exact reals; valid inputs = girg_input')
C['C02'] = ('proved', ['C02_simple_graph'], 'every alpha, every rng meeting good_rng, every interleaving')
C['C03'] = ('proved', ['C03_endpoints_are_node_indices','C03_tree_holds_the_callers_nodes'], '')
C['C04'] = ('proved', ['C04_every_pair_decided_once'], 'except release-mode threshold graphs, where far pairs are skipped by design (C01 covers them)')
C['C05'] = ('proved', ['C05_threshold_graph_is_deterministic'], 'also for different rngs, thread counts and teams')
C['C06'] = ('proved', ['C06_alpha_zero_is_complete'], '')
C['C07'] = ('proved', ['C07_envelope'], 'exact reals, for every call the recursion executes')
C['C09'] = ('proved', ['C09_reproducible'], 'same team size in both runs')
C['C10'] = ('proved', ['C10_work_split'], '')
C['C11'] = ('proved', ['C11_collection'], '')
C['C12'] = ('proved', ['C12_unsupported_dimension'], '')
C['C13'] = ('proved', ['C13_no_undefined_behaviour','C13_small_weights_refuted','C13_seed_overflow_refuted','C13_empty_input_refuted'], 'positive part plus the necessity of each restriction')
C['C14'] = ('proved', ['C14_debug_assertions','C14_strict_assertion_refuted'], 'positive part plus the counterexample to the strict comparison')
C['C19'] = ('proved', ['C19_cell_queries'], 'exact reals')
C['C27'] = ('proved', ['C27_weights','C27_law','C27_cdf_endpoints','C27_one_node'], 'exact reals; probability = Riemann integral of the indicator over the uniform draw; C27_one_node shows n > 2 is needed')
C['C28'] = ('proved', ['C28_positions'], 'every rng with draws in [0,1), every team, every interleaving')
C['C29'] = ('proved', ['C29_reproducible','C29_thread_count_irrelevant','C29_two_threads_two_seeds'], '')
C['C30'] = ('proved', ['C30_scaleWeights','C30_throws_iff'], '')
C['C31'] = ('proved', ['C31_threshold_rule','C31_supergraph','C31_generated_supergraph','C31_probability'], 'exact reals')
C['C32'] = ('proved', ['C32_degree_reached','C32_termination','C32_accuracy'], 'exact reals; every run of the search as a small-step machine; the divergence for desired > n-1 is that of exact arithmetic: doubles leave the finite range after about 1000 doublings, a debug build aborts (C68)')
C['C33'] = ('proved', ['C33_lazy_sorter'], 'std::partition and std::sort as any permutation with their specified postcondition')
C['C34'] = ('proved', ['C34_threshold_estimator','C34_closed_form','C34_not_exact'], 'exact reals; the estimator is off by less than one self-loop term, C34_not_exact is the counterexample to equality')
C['C35'] = ('proved', ['C35_general_estimator'], 'exact reals; the expectation is a Riemann integral over the distance density')
C['C36'] = ('proved', ['C36_threshold_hrg_is_exact','C36_threshold_hrg_is_deterministic'], 'exact reals; valid inputs = hrg_input, whenever generate() returns (C39)')
C['C37'] = ('proved', ['C37_simple_graph','C37_every_pair_decided_once','C37_no_undefined_behaviour'], 'every T >= 0, rng, team, interleaving; in release threshold graphs far pairs are skipped by design (C36 covers them)')
C['C38'] = ('proved', ['C38_work_distribution','C38_each_unit_once','C38_own_generator'], '')
C['C39'] = ('proved', ['C39_returns_iff','C39_every_schedule_finishes','C39_enough_radius','C39_small_disc_refuted','C39_radius_8_refuted'], 'false as stated: with too few tree levels generate() deadlocks; the exact condition, a sufficient one, and two counterexamples are proved')
C['C40'] = ('proved', ['C40_envelope'], 'exact reals')
C['C41'] = ('proved', ['C41_type_one','C41_type_two','C41_small_radius_refuted'], 'for all-pairs sampling needs R >= 2 T ln 99; the last theorem is the counterexample below that radius')
C['C42'] = ('proved', ['C42_layers','C42_thin_disc_refuted'], 'positive part for valid inputs, and the out-of-range access for thin discs')
C['C46'] = ('proved', ['C46_point_in_cell','C46_cells_nest','C46_touching','C46_dist'], 'exact reals, levels below 31')
C['C48'] = ('proved', ['C48_reproducible'], '')
C['C49'] = ('proved', ['C49_distance_formulas','C49_distance_exists','C49_distance_is_metric_like'], 'exact reals, positive radii for the precomputed members')
C['C43'] = ('proved', ['C43_law','C43_law_bias','C43_angle_law','C43_radii','C43_angles','C43_both','C43_reproducible','C43_empty_refuted'], 'exact reals; the law of a single draw is the integral of the indicator over u in [0,1). n = 0 with parallel sampling divides by zero (refutation)')
C['C44'] = ('proved', ['C44_inverts_the_degree_formula','C44_cli_radius','C44_half_refuted','C44_cli_deadlock'], 'alpha = 0.5, admitted by the tool, has no finite radius (refutation)')
C['C45'] = ('proved', ['C45_accuracy','C45_deterministic','C45_terminates','C45_bracket','C45_warm','C45_endless_refuted','C45_no_value_refuted'], 'termination proved for bracketing start values and for large discs; for dense cold graphs the search provably never ends (refutation)')
C['C50'] = ('proved', ['C50_last_occurrence','C50_gengirg','C50_genhrg','C50_stoi','C50_dash_is_value'], 'std::stod is a parameter of the model')
C['C51'] = ('proved', ['C51_gengirg','C51_genhrg','C51_only_in_range','C51_nan_refuted'], 'exactly the ranges of the usage text, except that NaN passes every check (refutation)')
C['C52'] = ('proved', ['C52_read_back','C52_determines'], '')
C['C53'] = ('proved', ['C53_lines','C53_recover','C53_too_few_positions_refuted'], 'weights to 2 and coordinates to 6 decimals')
C['C59'] = ('proved', ['C59_coordinates','C59_lossless','C59_small_values_refuted'], 'exact for values that are multiples of 2^-56 (doubles >= 1/16); tiny values lose digits (refutation)')
C['C54'] = ('proved', ['C54_radius_weight','C54_weight_radius','C54_angle_position'], 'exact reals')
C['C55'] = ('proved', ['C55_edge_diff_lists','C55_edge_diff_counts','C55_subgraph_test','C55_reverse_edges','C55_counter_total','C55_shared_slot_refuted'], 'totals modulo 2^64; two threads on one slot may lose updates (refutation)')
C['C56'] = ('proved', ['C56_relabelling','C56_motions','C56_coordinate_permutation','C56_generated','C31_supergraph'], 'exact reals; motions = translations and reflections of every coordinate')
C['C08'] = ('proved', ['C08_law','C08_expected_value_unique','C08_example','C08_exact_probability_refuted'], 'exact reals, ideal independent draws per thread, geometric draws by inversion capped at 2^63-1; seed >= 0; exact except that pairs with probability below 10^-6 may have probability 0 (dropped blocks, refutation of the literal statement)')
C['C47'] = ('proved', ['C47_law','C47_example','C47_exact_probability_refuted','C41_small_radius_refuted'], 'exact reals, ideal independent draws per engine (15 * threads engines suffice), for T > 2^-52 and 2 T ln 99 <= R (C41_small_radius_refuted shows that smaller discs give wrong probabilities); every number of threads and every schedule for which generate returns (C39); exact except that pairs with probability below 10^-6 may have probability 0 (dropped blocks)')
C['C57'] = ('proved', ['C57_threshold_exact_in_doubles','C57_simple_graph_in_doubles','C57_close_to_exact','C57_no_overflow','C57_logarithm_criterion','C57_example','C57_log_rounded_up_refuted'], 'doubles rounded to nearest even (Flocq); weights in [2^-400,2^400], q = W/w_min^2 < 2^31; log2 is any monotone function exact at powers of two with log2(q) not rounded up to an integer above the exact value; pow arbitrary (unused for alpha = infinity); C57_log_rounded_up_refuted: four weights and positions whose log2(q) is rounded up, on which every release build loses an edge')
C['C58'] = ('proved', ['C58_gengirg_run','C58_search_ends','C58_small_graphs','C58_example','C58_too_many_cells_refuted'], 'exact reals; ple and deg finite, alpha not NaN; seeds + thread number fit an int, at most 2^17 threads; generated weights moderate (2^d a^2 n times alpha/(alpha-1) < 2^31 (deg - 0.02)), which C58_small_graphs discharges for n <= 640 and alpha = infinity; C58_too_many_cells_refuted shows that without it every run is undefined (n = 2^30, d = 4, deg = 1); console output, timers and files that cannot be opened are not modelled')
C['C60'] = ('proved', ['C60_genhrg_run','C60_radius','C60_example','C60_hang_refuted','C60_search_refuted','C60_alpha_half_refuted'], 'exact reals; alpha, T, deg finite, alpha > 1/2; seeds + thread number fit an int, n + 9999 < 2^31, at most 2^17 threads, 4/3 <= R <= 40 (C60_radius: without -nkr R > 1.8 always and R <= 40 iff the predicted degree at radius 40 is at most deg); a run ends iff R is found and deep enough for the threads; refutations: arguments in the documented ranges for which no run ends or every run is undefined; console output, timers and files that cannot be opened are not modelled')
C['C61'] = ('proved', ['C61_gengirg_seeds','C61_gengirg_reproducible','C61_genhrg_seeds','C61_genhrg_reproducible','scale_weights_det'], 'runs to which C58 and C60 apply (their hypotheses); non-negative seeds; scaleWeights gives one result for every partition and sort order')
C['C62'] = ('proved', ['C62_supergraph','C62_subgraph','C62_supergraph_constant_tight','C62_generated','C62_diff','C62_search','C62_search_ends','C62_tool_ends','C62_dense_graphs_refuted'], 'exact reals; generators under the hypotheses of C01 and C36; the file output and the outer loop of the tool are not modelled; C62_dense_graphs_refuted: for hrg_deg > 2(n-1)/3 the first requested degree is impossible and the tool never ends')
C['C63'] = ('proved', ['C63_scaled_degree','C63_threshold_mean','C63_alpha_mean','C63_generated','mean_degree_unique'], 'exact reals; means are iterated Riemann integrals over all coordinates of all positions; edge probabilities given the positions are those of C01 and C08')
C['C64'] = ('proved', ['C64_no_assertion_fails','C64_no_assertion_fails_while_running','C64_boundary_point_refuted','C64_small_disc_refuted','C64_high_temperature_refuted'], 'exact reals; hypotheses of C37 plus R >= 1, radii < R, 2 T ln 99 <= R, each shown necessary by a refutation; the assertions of hypergirgs Generator.cpp:39-40 are in C45_bracket')
C['C65'] = ('proved', ['C65_no_assertion_fails','C65_constructor_never_fails','C65_power_of_two_refuted','C65_four_dimensions_refuted','C65_surplus_input'], 'exact reals; conditions (1) and (2) are shown necessary by refutations; C65_surplus_input holds for any arithmetic')
C['C66'] = ('proved', ['C66_expected_comparisons'], 'exact reals; release build')
C['C67'] = ('proved', ['C67_work_bound','C67_memory_bound','C67_parallel_memory'], 'exact reals; the instrumented recursion makes exactly the calls of the sampling model (conjunct of C67_work_bound)')
C['C68'] = ('proved', ['C68_debug_equals_release','C68_ordinary_weights','C68_impossible_degree_aborts'], 'exact reals')
C['C69'] = ('proved', ['C69_copies','C69_larger_disc','C69_towards_the_centre','C69_nested_neighbourhoods'], 'exact reals; T = 0')
C['C70'] = ('proved', ['C70_expected_draws'], 'exact reals; engines are independent uniform tapes as in C08; seed >= 0; a > 1')
C['C71'] = ('proved', ['C71_threshold_edges_are_certain','C71_threshold_graph_is_subgraph','C71_threshold_edges_are_certain_in_doubles'], 'first two in exact reals; the third in doubles under the hypotheses of C57, pow only has to be at least 1 on arguments >= 1')
C['C72'] = ('proved', ['C72_builds_agree','C72_builds_agree_in_doubles'], 'assertions are not executed in this model (C65 shows when they hold); the doubles version under the hypotheses of C57, pow arbitrary, the same log2, pow and arithmetic in both builds (no x87 or fused operations)')
C['C73'] = ('proved', ['C73_law_in_doubles','C73_close_to_exact','C73_example'], 'every operation rounded; pow any function that is non-negative and monotone in the base with pow(1,a) = 1 (for the error bound: with a relative error e0 and an absolute error eta), shown for the correctly rounded one; log2 and the inputs as in C57; the draws are ideal real numbers')
C['C74'] = ('proved', ['C74_simple_graph','C74_every_pair_decided_once','C74_threshold_close','C74_threshold_deterministic','C74_reproducible','rounded_ok','ex_disc','C74_example','C74_tiny_radius_refuted','C74_tolerance_refuted'], 'every operation rounded to nearest even; cosh, sinh, acosh within relative error 2^-51, cos, sin within absolute error 2^-52 (shown for the correctly rounded functions: rounded_ok); R in [2/3, 40]; overflow of exp and fused multiply-add are not modelled; refutations: radii below half an ulp of R make the constructor read past a vector, and on the border of a disc of radius 40 two identical points are not connected')
C['C75'] = ('proved', ['C75_radii','C75_angles','C75_both','C75_sample_and_generate','C75_example'], 'libm_ok as in C74; alpha >= 1/2, R >= 2/3, alpha R <= 99; uniform_real_distribution is the formula of libstdc++, u * (b - a) + a with a canonical double u in [0,1); sampled radii can exceed R by rounding (at most R 2^-46, which C74 allows); sample-and-generate for 4/3 <= R <= 40 and clear_levels R')
C['C76'] = ('proved', ['C76_given_radii','C76_sampled','C76_linear','C76_calculated_radius'], 'exact arithmetic; comparisons are the distance computations of sampleTypeI; parameters for which the call returns (C39); expectation is an iterated integral over the draws the radii and angles are computed from (radius_of, angle_of of HypIn_Model.v)')
C['C77'] = ('proved', ['C77_sequential_work','C77_parallel_work','C77_memory','C77_linear'], 'exact arithmetic; parameters for which the call returns (C39); counts recursive invocations and loop iterations of the recursion, the work inside sampleTypeI is C76')
C['C78'] = ('proved', ['C78_weights','C78_positions','C78_rounded_pow','C78_sample_and_generate','C78_heavy_weights_refuted'], 'pow is any function with relative error 2^-52 in the absence of overflow and underflow (glibc documents about 1 ulp); the pipeline is without scaleWeights; C78_heavy_weights_refuted: weights of n/4 and more do not occur for n = 2^30, ple = 3')
C['C79'] = ('proved', ['C79_at_least_threshold','C79_given_radii','C79_sampled','C79_linear','C79_calculated_radius'], 'engines are independent tapes of uniform random numbers, chosen by what they are seeded with, as in C47 (at least 15 tapes per thread); the engine steps that produce seeds for the threads are not counted; exact arithmetic; constants are not optimised')
C['C80'] = ('proved', ['C80_girg','C80_hrg','C80_hrg_example'], 'engines are independent tapes of uniform random numbers as in C08 and C47; exact arithmetic; complements the refutation in C08 of exact equality: the loss is real but bounded; the constants are those of C67 and C77 and are not optimised')
C['C81'] = ('proved', ['C81_mean_degree','C81_degree_reached','C81_threshold_degree_reached'], 'combines C32, C63, C01 and C80; C81_mean_degree averages over draws and uniform positions; exact arithmetic; alpha = 1 throws in scaleWeights')
C['C82'] = ('proved', ['C82_node_degree','C82_threshold_node_degree','C82_proportional'], 'builds on C01, C08, C63 and C80; exact arithmetic; example C82_four')
C['C83'] = ('proved', ['C83_hrg_node_degree','C83_inner_points','C83_monotone','C83_degree_order','C83_exponential','C83_degree_bound','C83_average_degree'], 'builds on C36 and C37; exact arithmetic; inputs as in C76 (hcost_input); example C83_inputs')
C['C84'] = ('proved', ['C84_girg','C84_hrg','C84_hrg_example'], 'builds on C08, C47 and C80; exact arithmetic; examples C84_hrg_example, C84_girg_input')
#NEXT
print(json.dumps({"claims":[{"property":k,"status":v[0],"theorems":v[1],"note":v[2]} for k,v in sorted(C.items())]}, indent=1))
