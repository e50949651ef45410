# What each theorem rests on

Output of `Print Assumptions`, one row per theorem of MANIFEST.json (`python3 tools/assumptions.py`).
F = `ClassicalDedekindReals.sig_forall_dec`, N = `ClassicalDedekindReals.sig_not_dec`, E = `FunctionalExtensionality.functional_extensionality_dep`,
C = `Classical_Prop.classic`; all four belong to Coq's standard library (they come with the real numbers). "-" = closed under the global context.

| property | theorem | file | axioms |
|---|---|---|---|
| C01 | `C01_threshold_graph_is_exact` | Prop_Girg.v | C E F N |
| C02 | `C02_simple_graph` | Prop_Girg.v | C E F N |
| C03 | `C03_endpoints_are_node_indices` | Prop_Girg.v | C E F N |
| C03 | `C03_tree_holds_the_callers_nodes` | Prop_Girg.v | C E F N |
| C04 | `C04_every_pair_decided_once` | Prop_Girg.v | C E F N |
| C05 | `C05_threshold_graph_is_deterministic` | Prop_Girg.v | C E F N |
| C06 | `C06_alpha_zero_is_complete` | Prop_Girg.v | C E F N |
| C07 | `C07_envelope` | Prop_Girg.v | C E F N |
| C08 | `C08_law` | Prop_Prob.v | C E F N |
| C08 | `C08_expected_value_unique` | Prop_Prob.v | E F N |
| C08 | `C08_example` | Prop_Prob.v | C E F N |
| C08 | `C08_exact_probability_refuted` | Prop_Prob.v | C E F N |
| C09 | `C09_reproducible` | Prop_Girg.v | C E F N |
| C10 | `C10_work_split` | Prop_Girg.v | C E F N |
| C11 | `C11_collection` | Prop_Girg.v | - |
| C12 | `C12_unsupported_dimension` | Prop_Girg.v | E F |
| C13 | `C13_no_undefined_behaviour` | Prop_Girg.v | C E F N |
| C13 | `C13_small_weights_refuted` | Prop_Girg.v | C E F N |
| C13 | `C13_seed_overflow_refuted` | Prop_Girg.v | C E F N |
| C13 | `C13_empty_input_refuted` | Prop_Girg.v | E F |
| C14 | `C14_debug_assertions` | Prop_Girg.v | C E F N |
| C14 | `C14_strict_assertion_refuted` | Prop_Girg.v | C E F N |
| C15 | `C15_radix_sort_sorts` | Prop_IntSort.v | - |
| C16 | `C16_refuted` | Prop_IntSort.v | - |
| C16 | `C16_inclusive_bound_otherwise` | Prop_IntSort.v | - |
| C17 | `C17_chunks_tile` | Prop_IntSort.v | - |
| C17 | `C17_thread_bound_is_sharp` | Prop_IntSort.v | - |
| C18 | `C18_cell_index` | Prop_Prefix.v | - |
| C18 | `C18_repair_terminates` | Prop_Prefix.v | - |
| C18 | `C18_repair_progress` | Prop_Prefix.v | - |
| C19 | `C19_cell_queries` | Prop_Girg.v | C E F N |
| C20 | `C20_extract_bits` | Prop_Coord.v | - |
| C20 | `C20_deposit_bits` | Prop_Coord.v | - |
| C20 | `C20_roundtrip_coords` | Prop_Coord.v | - |
| C20 | `C20_roundtrip_code` | Prop_Coord.v | - |
| C21 | `C21_extract_agree` | Prop_Coord.v | - |
| C21 | `C21_deposit_agree` | Prop_Coord.v | - |
| C22 | `C22_levels` | Prop_Coord.v | - |
| C22 | `C22_children` | Prop_Coord.v | - |
| C22 | `C22_local_index` | Prop_Coord.v | - |
| C22 | `C22_levels_disjoint` | Prop_Coord.v | - |
| C23 | `C23_point_in_bounds` | Prop_Coord.v | E F |
| C23 | `C23_cells_nest` | Prop_Coord.v | E F |
| C24 | `C24_touching` | Prop_Coord.v | C E F N |
| C24 | `C24_dist` | Prop_Coord.v | C E F N |
| C25 | `C25_is_torus_distance` | Prop_Coord.v | C E F N |
| C25 | `C25_metric` | Prop_Coord.v | C E F N |
| C25 | `C25_translation` | Prop_Coord.v | C E F N |
| C26 | `C26_pow` | Prop_Coord.v | C E F N |
| C27 | `C27_weights` | Prop_Sampling.v | C E F N |
| C27 | `C27_law` | Prop_Sampling.v | C E F N |
| C27 | `C27_cdf_endpoints` | Prop_Sampling.v | C E F N |
| C27 | `C27_one_node` | Prop_Sampling.v | C E F N |
| C28 | `C28_positions` | Prop_Sampling.v | F |
| C29 | `C29_reproducible` | Prop_Sampling.v | E F |
| C29 | `C29_thread_count_irrelevant` | Prop_Sampling.v | E F |
| C29 | `C29_two_threads_two_seeds` | Prop_Sampling.v | E F |
| C30 | `C30_scaleWeights` | Prop_Scaling.v | C E F N |
| C30 | `C30_throws_iff` | Prop_Scaling.v | C E F N |
| C31 | `C31_threshold_rule` | Prop_Scaling.v | C E F N |
| C31 | `C31_supergraph` | Prop_Scaling.v | E F |
| C31 | `C31_generated_supergraph` | Prop_Scaling.v | C E F N |
| C31 | `C31_probability` | Prop_Scaling.v | C E F N |
| C32 | `C32_degree_reached` | Prop_Scaling.v | C E F N |
| C32 | `C32_termination` | Prop_Scaling.v | C E F N |
| C32 | `C32_accuracy` | Prop_Scaling.v | E F |
| C33 | `C33_lazy_sorter` | Prop_Scaling.v | E F |
| C34 | `C34_threshold_estimator` | Prop_Scaling.v | C E F N |
| C34 | `C34_closed_form` | Prop_Scaling.v | C E F N |
| C34 | `C34_not_exact` | Prop_Scaling.v | C E F N |
| C35 | `C35_general_estimator` | Prop_Scaling.v | C E F N |
| C36 | `C36_threshold_hrg_is_exact` | Prop_Hyp.v | C E F N |
| C36 | `C36_threshold_hrg_is_deterministic` | Prop_Hyp.v | C E F N |
| C37 | `C37_simple_graph` | Prop_Hyp.v | C E F N |
| C37 | `C37_every_pair_decided_once` | Prop_Hyp.v | C E F N |
| C37 | `C37_no_undefined_behaviour` | Prop_Hyp.v | C E F N |
| C38 | `C38_work_distribution` | Prop_Hyp.v | C E F N |
| C38 | `C38_each_unit_once` | Prop_Hyp.v | - |
| C38 | `C38_own_generator` | Prop_Hyp.v | C E F N |
| C39 | `C39_returns_iff` | Prop_Hyp.v | C E F N |
| C39 | `C39_every_schedule_finishes` | Prop_Hyp.v | C E F N |
| C39 | `C39_enough_radius` | Prop_Hyp.v | C E F N |
| C39 | `C39_small_disc_refuted` | Prop_Hyp.v | C E F N |
| C39 | `C39_radius_8_refuted` | Prop_Hyp.v | C E F N |
| C40 | `C40_envelope` | Prop_Hyp2.v | C E F N |
| C41 | `C41_type_one` | Prop_Hyp2.v | C E F N |
| C41 | `C41_type_two` | Prop_Hyp2.v | C E F N |
| C41 | `C41_small_radius_refuted` | Prop_Hyp2.v | C E F N |
| C42 | `C42_layers` | Prop_Hyp2.v | C E F N |
| C42 | `C42_thin_disc_refuted` | Prop_Hyp2.v | C E F N |
| C43 | `C43_law` | Prop_HypIn.v | C E F N |
| C43 | `C43_law_bias` | Prop_HypIn.v | E F N |
| C43 | `C43_angle_law` | Prop_HypIn.v | E F N |
| C43 | `C43_radii` | Prop_HypIn.v | C E F N |
| C43 | `C43_angles` | Prop_HypIn.v | C E F N |
| C43 | `C43_both` | Prop_HypIn.v | C E F N |
| C43 | `C43_reproducible` | Prop_HypIn.v | C E F N |
| C43 | `C43_empty_refuted` | Prop_HypIn.v | C E F N |
| C44 | `C44_inverts_the_degree_formula` | Prop_HypIn.v | C E F N |
| C44 | `C44_cli_radius` | Prop_HypIn.v | C E F N |
| C44 | `C44_half_refuted` | Prop_HypIn.v | C E F N |
| C44 | `C44_cli_deadlock` | Prop_HypIn.v | C E F N |
| C45 | `C45_accuracy` | Prop_HypIn.v | C E F N |
| C45 | `C45_deterministic` | Prop_HypIn.v | C E F N |
| C45 | `C45_terminates` | Prop_HypIn.v | C E F N |
| C45 | `C45_bracket` | Prop_HypIn.v | C E F N |
| C45 | `C45_warm` | Prop_HypIn.v | C E F N |
| C45 | `C45_endless_refuted` | Prop_HypIn.v | C E F N |
| C45 | `C45_no_value_refuted` | Prop_HypIn.v | C E F N |
| C46 | `C46_point_in_cell` | Prop_Hyp2.v | E F N |
| C46 | `C46_cells_nest` | Prop_Hyp2.v | E F N |
| C46 | `C46_touching` | Prop_Hyp2.v | E F N |
| C46 | `C46_dist` | Prop_Hyp2.v | E F N |
| C47 | `C47_law` | Prop_ProbHrg.v | C E F N |
| C47 | `C47_example` | Prop_ProbHrg.v | C E F N |
| C47 | `C47_exact_probability_refuted` | Prop_HypDrop.v | C E F N |
| C47 | `C41_small_radius_refuted` | Prop_Hyp2.v | C E F N |
| C48 | `C48_reproducible` | Prop_Hyp.v | C E F N |
| C49 | `C49_distance_formulas` | Prop_Hyp2.v | C E F N |
| C49 | `C49_distance_exists` | Prop_Hyp2.v | C E F N |
| C49 | `C49_distance_is_metric_like` | Prop_Hyp2.v | C E F N |
| C50 | `C50_last_occurrence` | Prop_Cli.v | - |
| C50 | `C50_gengirg` | Prop_Cli.v | E F |
| C50 | `C50_genhrg` | Prop_Cli.v | E F |
| C50 | `C50_stoi` | Prop_Cli.v | - |
| C50 | `C50_dash_is_value` | Prop_Cli.v | E F |
| C51 | `C51_gengirg` | Prop_Cli.v | E F |
| C51 | `C51_genhrg` | Prop_Cli.v | E F |
| C51 | `C51_only_in_range` | Prop_Cli.v | E F |
| C51 | `C51_nan_refuted` | Prop_Cli.v | E F |
| C52 | `C52_read_back` | Prop_Cli.v | - |
| C52 | `C52_determines` | Prop_Cli.v | - |
| C53 | `C53_lines` | Prop_Cli.v | E F |
| C53 | `C53_recover` | Prop_Cli.v | E F |
| C53 | `C53_too_few_positions_refuted` | Prop_Cli.v | E F |
| C54 | `C54_radius_weight` | Prop_Extra.v | C E F N |
| C54 | `C54_weight_radius` | Prop_Extra.v | C E F N |
| C54 | `C54_angle_position` | Prop_Extra.v | E F N |
| C55 | `C55_edge_diff_lists` | Prop_Extra.v | - |
| C55 | `C55_edge_diff_counts` | Prop_Extra.v | - |
| C55 | `C55_subgraph_test` | Prop_Extra.v | - |
| C55 | `C55_reverse_edges` | Prop_Extra.v | - |
| C55 | `C55_counter_total` | Prop_Extra.v | - |
| C55 | `C55_shared_slot_refuted` | Prop_Extra.v | - |
| C56 | `C56_relabelling` | Prop_Extra.v | E F |
| C56 | `C56_motions` | Prop_Extra.v | E F |
| C56 | `C56_coordinate_permutation` | Prop_Extra.v | E F |
| C56 | `C56_generated` | Prop_Extra.v | C E F N |
| C56 | `C31_supergraph` | Prop_Scaling.v | E F |
| C57 | `C57_threshold_exact_in_doubles` | Prop_Ieee.v | C E F N |
| C57 | `C57_simple_graph_in_doubles` | Prop_Ieee.v | C E F N |
| C57 | `C57_close_to_exact` | Prop_Ieee.v | C E F N |
| C57 | `C57_no_overflow` | Prop_Ieee.v | C E F N |
| C57 | `C57_logarithm_criterion` | Prop_Ieee.v | C E F N |
| C57 | `C57_example` | Prop_Ieee.v | C E F N |
| C57 | `C57_log_rounded_up_refuted` | Prop_IeeeLog.v | C E F N |
| C58 | `C58_gengirg_run` | Prop_Run.v | C E F N |
| C58 | `C58_search_ends` | Prop_Run.v | C E F N |
| C58 | `C58_small_graphs` | Prop_Run.v | C E F N |
| C58 | `C58_example` | Prop_Run.v | C E F N |
| C58 | `C58_too_many_cells_refuted` | Prop_Run.v | C E F N |
| C59 | `C59_coordinates` | Prop_Cli.v | E F |
| C59 | `C59_lossless` | Prop_Cli.v | E F |
| C59 | `C59_small_values_refuted` | Prop_Cli.v | E F |
| C60 | `C60_genhrg_run` | Prop_HrgRun.v | C E F N |
| C60 | `C60_radius` | Prop_HrgRun.v | C E F N |
| C60 | `C60_example` | Prop_HrgRun.v | C E F N |
| C60 | `C60_hang_refuted` | Prop_HrgRun.v | C E F N |
| C60 | `C60_search_refuted` | Prop_HrgRun.v | C E F N |
| C60 | `C60_alpha_half_refuted` | Prop_HrgRun.v | C E F N |
| C61 | `C61_gengirg_seeds` | Prop_Repro.v | C E F N |
| C61 | `C61_gengirg_reproducible` | Prop_Repro.v | C E F N |
| C61 | `C61_genhrg_seeds` | Prop_Repro.v | C E F N |
| C61 | `C61_genhrg_reproducible` | Prop_Repro.v | C E F N |
| C61 | `scale_weights_det` | Scaling_Det.v | C E F N |
| C62 | `C62_supergraph` | Prop_Embed.v | C E F N |
| C62 | `C62_subgraph` | Prop_Embed.v | C E F N |
| C62 | `C62_supergraph_constant_tight` | Prop_Embed.v | C E F N |
| C62 | `C62_generated` | Prop_Embed.v | C E F N |
| C62 | `C62_diff` | Prop_Embed.v | C E F N |
| C62 | `C62_search` | Prop_Embed.v | E F |
| C62 | `C62_search_ends` | Prop_Embed.v | E F |
| C62 | `C62_tool_ends` | Prop_Embed.v | C E F N |
| C62 | `C62_dense_graphs_refuted` | Prop_Embed.v | C E F N |
| C63 | `C63_scaled_degree` | Prop_Mean.v | C E F N |
| C63 | `C63_threshold_mean` | Prop_Mean.v | C E F N |
| C63 | `C63_alpha_mean` | Prop_Mean.v | C E F N |
| C63 | `C63_generated` | Prop_Mean.v | C E F N |
| C63 | `mean_degree_unique` | Prop_Mean.v | C E F N |
| C64 | `C64_no_assertion_fails` | Prop_HypDbg.v | C E F N |
| C64 | `C64_no_assertion_fails_while_running` | Prop_HypDbg.v | C E F N |
| C64 | `C64_boundary_point_refuted` | Prop_HypDbg.v | C E F N |
| C64 | `C64_small_disc_refuted` | Prop_HypDbg.v | C E F N |
| C64 | `C64_high_temperature_refuted` | Prop_HypDbg.v | C E F N |
| C65 | `C65_no_assertion_fails` | Prop_GirgDbg.v | C E F N |
| C65 | `C65_constructor_never_fails` | Prop_GirgDbg.v | C E F N |
| C65 | `C65_power_of_two_refuted` | Prop_GirgDbg.v | C E F N |
| C65 | `C65_four_dimensions_refuted` | Prop_GirgDbg.v | C E F N |
| C65 | `C65_surplus_input` | Prop_GirgDbg.v | E F |
| C66 | `C66_expected_comparisons` | Prop_Cost.v | C E F N |
| C67 | `C67_work_bound` | Prop_Work.v | C E F N |
| C67 | `C67_memory_bound` | Prop_Work.v | C E F N |
| C67 | `C67_parallel_memory` | Prop_Work.v | C E F N |
| C68 | `C68_debug_equals_release` | Prop_ScaleDbg.v | C E F N |
| C68 | `C68_ordinary_weights` | Prop_ScaleDbg.v | C E F N |
| C68 | `C68_impossible_degree_aborts` | Prop_ScaleDbg.v | C E F N |
| C69 | `C69_copies` | Prop_HypSym.v | C E F N |
| C69 | `C69_larger_disc` | Prop_HypSym.v | C E F N |
| C69 | `C69_towards_the_centre` | Prop_HypSym.v | C E F N |
| C69 | `C69_nested_neighbourhoods` | Prop_HypSym.v | C E F N |
| C70 | `C70_expected_draws` | Prop_Draws.v | C E F N |
| C71 | `C71_threshold_edges_are_certain` | Prop_Nested.v | C E F N |
| C71 | `C71_threshold_graph_is_subgraph` | Prop_Nested.v | C E F N |
| C71 | `C71_threshold_edges_are_certain_in_doubles` | Prop_Nested.v | C E F N |
| C72 | `C72_builds_agree` | Prop_Flavour.v | C E F N |
| C72 | `C72_builds_agree_in_doubles` | Prop_Flavour.v | C E F N |
| C73 | `C73_law_in_doubles` | Prop_ProbIeee.v | C E F N |
| C73 | `C73_close_to_exact` | Prop_ProbIeee.v | C E F N |
| C73 | `C73_example` | Prop_ProbIeee.v | C E F N |
| C74 | `C74_simple_graph` | Prop_HypIeee.v | C E F N |
| C74 | `C74_every_pair_decided_once` | Prop_HypIeee.v | C E F N |
| C74 | `C74_threshold_close` | Prop_HypIeee.v | C E F N |
| C74 | `C74_threshold_deterministic` | Prop_HypIeee.v | C E F N |
| C74 | `C74_reproducible` | Prop_HypIeee.v | C E F N |
| C74 | `rounded_ok` | Prop_HypIeee.v | C E F N |
| C74 | `ex_disc` | Prop_Embed.v | C E F N |
| C74 | `C74_example` | Prop_HypIeee.v | C E F N |
| C74 | `C74_tiny_radius_refuted` | Prop_HypIeee.v | C E F N |
| C74 | `C74_tolerance_refuted` | Prop_HypIeee.v | C E F N |
| C75 | `C75_radii` | Prop_HypInIeee.v | C E F N |
| C75 | `C75_angles` | Prop_HypInIeee.v | C E F N |
| C75 | `C75_both` | Prop_HypInIeee.v | C E F N |
| C75 | `C75_sample_and_generate` | Prop_HypInIeee.v | C E F N |
| C75 | `C75_example` | Prop_HypInIeee.v | C E F N |
| C76 | `C76_given_radii` | Prop_HypCost.v | C E F N |
| C76 | `C76_sampled` | Prop_HypCost.v | C E F N |
| C76 | `C76_linear` | Prop_HypCost.v | C E F N |
| C76 | `C76_calculated_radius` | Prop_HypCost.v | C E F N |
| C77 | `C77_sequential_work` | Prop_HypWork.v | C E F N |
| C77 | `C77_parallel_work` | Prop_HypWork.v | C E F N |
| C77 | `C77_memory` | Prop_HypWork.v | C E F N |
| C77 | `C77_linear` | Prop_HypWork.v | C E F N |
| C78 | `C78_weights` | Prop_SampleIeee.v | C E F N |
| C78 | `C78_positions` | Prop_SampleIeee.v | C E F N |
| C78 | `C78_rounded_pow` | Prop_SampleIeee.v | C E F N |
| C78 | `C78_sample_and_generate` | Prop_SampleIeee.v | C E F N |
| C78 | `C78_heavy_weights_refuted` | Prop_SampleIeee.v | C E F N |
| C79 | `C79_at_least_threshold` | Prop_HypDraws.v | C E F N |
| C79 | `C79_given_radii` | Prop_HypDraws.v | C E F N |
| C79 | `C79_sampled` | Prop_HypDraws.v | C E F N |
| C79 | `C79_linear` | Prop_HypDraws.v | C E F N |
| C79 | `C79_calculated_radius` | Prop_HypDraws.v | C E F N |
| C80 | `C80_girg` | Prop_Loss.v | C E F N |
| C80 | `C80_hrg` | Prop_Loss.v | C E F N |
| C80 | `C80_hrg_example` | Prop_Loss.v | C E F N |
| C81 | `C81_mean_degree` | Prop_MeanDegree.v | C E F N |
| C81 | `C81_degree_reached` | Prop_EndDegree.v | C E F N |
| C81 | `C81_threshold_degree_reached` | Prop_EndDegree.v | C E F N |
| C82 | `C82_node_degree` | Prop_NodeDegree.v | C E F N |
| C82 | `C82_threshold_node_degree` | Prop_NodeDegree.v | C E F N |
| C82 | `C82_proportional` | Prop_NodeDegree.v | C E F N |
| C83 | `C83_hrg_node_degree` | Prop_HypDegree.v | C E F N |
| C83 | `C83_inner_points` | Prop_HypDegree.v | C E F N |
| C83 | `C83_monotone` | Prop_HypDegree.v | C E F N |
| C83 | `C83_degree_order` | Prop_HypDegree.v | C E F N |
| C83 | `C83_exponential` | Prop_HypDegree.v | C E F N |
| C83 | `C83_degree_bound` | Prop_HypDegree.v | C E F N |
| C83 | `C83_average_degree` | Prop_HypDegree.v | C E F N |
| C84 | `C84_girg` | Prop_NodeLaw.v | C E F N |
| C84 | `C84_hrg` | Prop_NodeLaw.v | C E F N |
| C84 | `C84_hrg_example` | Prop_NodeLaw.v | C E F N |
