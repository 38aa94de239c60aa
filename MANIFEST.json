{
 "claims": [
  {
   "property": "C01",
   "status": "proved",
   "theorems": [
    "C01_histories_stay_consistent",
    "C01_constructor"
   ],
   "note": "Every history of mutating calls on Graph, DiGraph and PDAG."
  },
  {
   "property": "C02",
   "status": "proved",
   "theorems": [
    "C02_add_edge_read_back",
    "C02_add_edge_succeeds_iff",
    "C02_remove_edge",
    "C02_remove_node"
   ],
   "note": "Read back, frame, exact success condition; self-loops excluded (see C06)."
  },
  {
   "property": "C03",
   "status": "proved",
   "theorems": [
    "C03_edges_listing",
    "C03_degree_sums"
   ],
   "note": ""
  },
  {
   "property": "C04",
   "status": "proved",
   "theorems": [
    "C04_raising_call_changes_nothing",
    "C04_add_edges_prefix",
    "C04_remove_nodes_prefix"
   ],
   "note": "Single calls leave the object unchanged when they raise; the bulk calls keep the processed prefix."
  },
  {
   "property": "C05",
   "status": "proved",
   "theorems": [
    "C05_digraph_marks",
    "C05_pdag_marks"
   ],
   "note": ""
  },
  {
   "property": "C06",
   "status": "proved",
   "theorems": [
    "C06_self_loop_lost",
    "C06_read_back_refuted"
   ],
   "note": "The read-back claim without the self-loop exclusion is refuted."
  },
  {
   "property": "C07",
   "status": "proved",
   "theorems": [
    "C07_to_numpy_entries",
    "C07_graph_equal_iff",
    "C07_graph_equal_null_refuted"
   ],
   "note": "graph_equal decides equality for graphs without Null marks; with Null marks the claim is refuted."
  },
  {
   "property": "C08",
   "status": "proved",
   "theorems": [
    "C08_topo_sort_parents_first"
   ],
   "note": ""
  },
  {
   "property": "C09",
   "status": "proved",
   "theorems": [
    "C09_is_acyclic_decides"
   ],
   "note": ""
  },
  {
   "property": "C10",
   "status": "proved",
   "theorems": [
    "C10_is_d_separate_decides"
   ],
   "note": "Also covers cyclic digraphs."
  },
  {
   "property": "C100",
   "status": "proved",
   "theorems": [
    "C100_run",
    "C100_ends",
    "C100_best",
    "C100_root",
    "C100_reported_refuted"
   ],
   "note": "For tables with an interval, a positive decay and a positive total time, and causes with an event before the end of its sequence. The fall of the reported likelihood is shown by C100_reported_refuted."
  },
  {
   "property": "C101",
   "status": "proved",
   "theorems": [
    "C101_table",
    "C101_events",
    "C101_positions",
    "C101_positions_refuted",
    "C101_interval",
    "C101_kernels",
    "C101_raises",
    "C101_learn",
    "C101_insem"
   ],
   "note": ""
  },
  {
   "property": "C102",
   "status": "proved",
   "theorems": [
    "C102_keys",
    "C102_latents",
    "C102_roots",
    "C102_each_once",
    "C102_edges",
    "C102_graph",
    "C102_repeated_refuted",
    "C102_names_refuted",
    "C102_same_members_refuted",
    "C102_impure"
   ],
   "note": "Names are Lat k for 'L'+str(k) and Obs k for any other text; a key is given by what int makes of it. Layout and drawing are not modelled. Cycles for repeated entries and for measured variables named like latents are proved as refutations, as is the joining of latents with the same members listed under two keys."
  },
  {
   "property": "C103",
   "status": "proved",
   "theorems": [
    "C103_fit",
    "C103_fit_EM",
    "C103_again",
    "C103_shared"
   ],
   "note": "Exact reals; random numbers and the iteration order of a set of causes are arguments; fit loops on fuel, shown to end. The hypothesis of C103_fit that every cause has an event before the end of a sequence is the one of C100; C103_shared needs sets of causes to be run through in ascending order, as the keys of the table are tuples."
  },
  {
   "property": "C104",
   "status": "proved",
   "theorems": [
    "C104_result",
    "C104_percentile",
    "C104_ends",
    "C104_reference",
    "C104_three",
    "C104_raises"
   ],
   "note": "np.linalg.cond is any function with real values; that the draws have no column of zeros is a hypothesis. For C104_three the values of cond on the reference matrices are asked to bound their condition numbers."
  },
  {
   "property": "C105",
   "status": "proved",
   "theorems": [
    "C105_histogram",
    "C105_value",
    "C105_normalized",
    "C105_units",
    "C105_symmetric",
    "C105_raises"
   ],
   "note": "ndimage.gaussian_filter is any function that keeps weights from being negative (and, for the exchange of variables, treats the axes alike)."
  },
  {
   "property": "C106",
   "status": "proved",
   "theorems": [
    "C106_units",
    "C106_no_variance",
    "C106_bounds",
    "C106_nan"
   ],
   "note": "Exact reals; NaN is modelled, rounding is not."
  },
  {
   "property": "C107",
   "status": "proved",
   "theorems": [
    "C107_nearest",
    "C107_few_rows",
    "C107_units",
    "C107_two_refuted"
   ],
   "note": "k = 1 is the nearest neighbour; for k = 2 the neighbours used are not the nearest (refuted with a witness); IndexError below 2k rows; blind to units. Constant residuals (NaN) are outside the model. No theorem fixes the value for k > 1 (such as the division by k) beyond the refutation, the exception and the units; the mutants KNN3-KNN14 planned for this file were not run."
  },
  {
   "property": "C11",
   "status": "proved",
   "theorems": [
    "C11_symmetric",
    "C11_depends_on_set",
    "C11_conditioned_endpoint"
   ],
   "note": ""
  },
  {
   "property": "C12",
   "status": "proved",
   "theorems": [
    "C12_adjacent_never_separated",
    "C12_parents_separate"
   ],
   "note": ""
  },
  {
   "property": "C13",
   "status": "proved",
   "theorems": [
    "C13_dag2cpdag_skeleton_and_vstructures"
   ],
   "note": "all acyclic DiGraphs, all iteration orders"
  },
  {
   "property": "C14",
   "status": "proved",
   "theorems": [
    "C14_dag2cpdag_equivalence_class"
   ],
   "note": ""
  },
  {
   "property": "C15",
   "status": "partial",
   "theorems": [
    "C15_essential_iff_sound_partial",
    "C15_essential_partial",
    "C15_essential_chordal_partial",
    "C15_essential_refuted",
    "C15_rule3_misfire_refuted"
   ],
   "note": "false of the code in general (witnesses); the result is essential exactly when no arrow is wrong (Meek completeness proved), in particular when no edge lies in two triangles or there is no v-structure"
  },
  {
   "property": "C16",
   "status": "proved",
   "theorems": [
    "C16_meek_terminates_and_closes",
    "C16_meek_fuel_irrelevant"
   ],
   "note": "termination with fuel irrelevance, frame, closure"
  },
  {
   "property": "C17",
   "status": "partial",
   "theorems": [
    "C17_rule1_sound",
    "C17_rule2_sound",
    "C17_rule3_sound_partial",
    "C17_meek_sound_partial",
    "C17_rule3_refuted",
    "C17_rule4_refuted"
   ],
   "note": "sound for rule1, rule2; rule3 under K4-free skeletons and the whole loop when no edge lies in two triangles; the general claim is false of the code for rule3 and rule4 (witnesses)"
  },
  {
   "property": "C18",
   "status": "proved",
   "theorems": [
    "C18_pdag2dag_consistent_extension"
   ],
   "note": "Dor-Tarsi elimination order; result is a reachable DiGraph that extends the input"
  },
  {
   "property": "C19",
   "status": "proved",
   "theorems": [
    "C19_pdag2dag_terminates_iff_extendable",
    "C19_bidirected_never_returns"
   ],
   "note": "termination iff an extension exists; without one every fuel runs out; also with any bidirected edge"
  },
  {
   "property": "C20",
   "status": "proved",
   "theorems": [
    "C20_search_removes_iff_accepted",
    "C20_repeated_names"
   ],
   "note": "Both searches; for tests that answer every legal query (an exception raised by the test propagates and is not covered). NaN p-values not modelled."
  },
  {
   "property": "C21",
   "status": "proved",
   "theorems": [
    "C21_adjacency_search_order_independent"
   ],
   "note": "adjacency_search; separating sets compared as sets."
  },
  {
   "property": "C22",
   "status": "proved",
   "theorems": [
    "C22_oracle_search_skeleton"
   ],
   "note": "Both searches, variables listed in any order."
  },
  {
   "property": "C23",
   "status": "proved",
   "theorems": [
    "C23_pc_oracle_equals_dag2cpdag"
   ],
   "note": "var_names in the node order of D (graph_equal asserts equal node lists)."
  },
  {
   "property": "C24",
   "status": "proved",
   "theorems": [
    "C24_pc_keeps_skeleton"
   ],
   "note": "Both searches, arbitrary (inconsistent) test answers."
  },
  {
   "property": "C25",
   "status": "proved",
   "theorems": [
    "C25_cache_key_identifies_query",
    "C25_cache_transparent",
    "C25_dsep_cache_transparent"
   ],
   "note": "Histories of itest on one object, arbitrary truthiness of cached values; the Dsep statistic shown to be covered."
  },
  {
   "property": "C26",
   "status": "proved",
   "theorems": [
    "C26_shd_defined_and_bounded",
    "C26_shd_zero_iff_same_edges",
    "C26_shd_symmetric",
    "C26_shd_triangle",
    "C26_shd_one_edit",
    "C26_shd_mismatch"
   ],
   "note": "Metric laws, bound, one-edit Lipschitz bound, rejection of mismatched inputs."
  },
  {
   "property": "C27",
   "status": "proved",
   "theorems": [
    "C27_skeleton_counts",
    "C27_arrow_counts",
    "C27_directed_counts",
    "C27_between_zero_and_one",
    "C27_swap",
    "C27_self"
   ],
   "note": "sklearn scores modelled as exact rationals with zero_division=0."
  },
  {
   "property": "C28",
   "status": "proved",
   "theorems": [
    "C28_every_subset_once",
    "C28_find_subset_include",
    "C28_check_clique"
   ],
   "note": "T0 without repetitions, as the callers pass np.intersect1d results. check_clique for distinct in-range positions."
  },
  {
   "property": "C29",
   "status": "proved",
   "theorems": [
    "C29_path_condition"
   ],
   "note": "The loop bound of the model is proved sufficient, so termination is part of the statement."
  },
  {
   "property": "C30",
   "status": "proved",
   "theorems": [
    "C30_forward_scan_exact",
    "C30_backward_scan_exact"
   ],
   "note": "Stated for the scan over all pairs: every valid operator is scored exactly once, no invalid one is."
  },
  {
   "property": "C31",
   "status": "proved",
   "theorems": [
    "C31_operator_scores_exact",
    "C31_table_correct"
   ],
   "note": "Scores are exact rationals; floating point rounding is not modelled."
  },
  {
   "property": "C32",
   "status": "proved",
   "theorems": [
    "C32_one_edge_per_step_and_termination",
    "C32_fuel_irrelevant",
    "C32_termination_refuted"
   ],
   "note": "Either fit returns within the stated number of steps, or some valid operator of a visited graph produced a PDAG on which pdag2dag never returns; the second case does occur (C32_termination_refuted), and the fuel of the model plays no role."
  },
  {
   "property": "C33",
   "status": "proved",
   "theorems": [
    "C33_score_and_local_optimum"
   ],
   "note": "Exact rational arithmetic; also shows that the forward phase ends without a valid Insert of positive gain."
  },
  {
   "property": "C34",
   "status": "proved",
   "theorems": [
    "C34_hill_climb",
    "C34_influences_acyclic",
    "C34_score",
    "C34_terminates"
   ],
   "note": "EM is modelled with its likelihood table over exact rationals; np.log and the random draws are arguments. Termination is proved for non-negative data and bounded likelihoods."
  },
  {
   "property": "C35",
   "status": "proved",
   "theorems": [
    "C35_check_DAG_exact"
   ],
   "note": "networkx's topological sort is modelled as Kahn's algorithm."
  },
  {
   "property": "C36",
   "status": "proved",
   "theorems": [
    "C36_linear_solves_sem",
    "C36_cyclic_rejected"
   ],
   "note": "Finite samples and additive noise types; the population branch (n_samples=None) and the logistic/poisson types are not covered by the equation. Exact rationals."
  },
  {
   "property": "C37",
   "status": "proved",
   "theorems": [
    "C37_timelag_recurrence",
    "C37_wrong_lag_rejected"
   ],
   "note": "All additive noise types."
  },
  {
   "property": "C38",
   "status": "proved",
   "theorems": [
    "C38_pnl_columns_constant",
    "C38_pnl_defined"
   ],
   "note": "Any functions, draws and hidden size; the simulation is shown to succeed for every choice of functions when hidden is None."
  },
  {
   "property": "C39",
   "status": "proved",
   "theorems": [
    "C39_orientation_acyclic",
    "C39_erdos_renyi",
    "C39_erdos_renyi_needs_seed",
    "C39_hawkes_edges"
   ],
   "note": "Up to the renaming drawn by the two permutations. The undirected graph drawn by networkx is universally quantified. erdos_renyi with its default seed=None fails in torch.manual_seed (modelled from its documented int(seed))."
  },
  {
   "property": "C40",
   "status": "proved",
   "theorems": [
    "C40_merge_list",
    "C40_inputs_kept",
    "C40_disjoint_unchanged",
    "C40_order_irrelevant"
   ],
   "note": "For every iteration order of sets."
  },
  {
   "property": "C41",
   "status": "proved",
   "theorems": [
    "C41_refuted",
    "C41_all_mislabelled",
    "C41_latents_mislabelled",
    "C41_degenerate_correct"
   ],
   "note": "The claim is refuted by a witness and for the whole class of inputs; only the degenerate cases are labelled correctly."
  },
  {
   "property": "C42",
   "status": "proved",
   "theorems": [
    "C42_order_permutation",
    "C42_order_total",
    "C42_root_minimal"
   ],
   "note": "Permutation whenever it returns; returns exactly when at most one cluster or all clusters have two members (otherwise division by zero)."
  },
  {
   "property": "C43",
   "status": "proved",
   "theorems": [
    "C43_lower_triangular",
    "C43_alpha_ignored",
    "C43_recovery_refuted",
    "C43_row_order",
    "C43_b_order"
   ],
   "note": "Lower triangular, acyclic and independent of wald_alpha; recovery of a reversed edge refuted."
  },
  {
   "property": "C44",
   "status": "proved",
   "theorems": [
    "C44_linear",
    "C44_mlp",
    "C44_sobolev",
    "C44_ent"
   ],
   "note": "Over exact rationals; all four implementations of the penalty."
  },
  {
   "property": "C45",
   "status": "proved",
   "theorems": [
    "C45_center_iff",
    "C45_symmetric",
    "C45_nonsymmetric_refuted"
   ],
   "note": "Exact rationals; the exact condition for agreement with HKH is proved as well."
  },
  {
   "property": "C46",
   "status": "proved",
   "theorems": [
    "C46_dist2",
    "C46_clamp_inactive"
   ],
   "note": "GES version of dist2; exact rationals."
  },
  {
   "property": "C47",
   "status": "proved",
   "theorems": [
    "C47_string_nodes",
    "C47_integer_edge_fails",
    "C47_refuted",
    "C47_integer_latent_ignored"
   ],
   "note": "String-named graphs are drawn completely; any edge with an integer end raises KeyError; integer latent names are ignored. Coordinates (centre shift, edge trimming) are not modelled."
  },
  {
   "property": "C48",
   "status": "proved",
   "theorems": [
    "C48_stale_matrix",
    "C48_refuted",
    "C48_transparent",
    "C48_polynomial_stale",
    "C48_gaussian_width"
   ],
   "note": "The claim of transparency is refuted for every formatting and hash function; transparency is proved for histories whose keys are distinct."
  },
  {
   "property": "C49",
   "status": "proved",
   "theorems": [
    "C49_accepted",
    "C49_dag",
    "C49_perfect",
    "C49_cpdag_bounds",
    "C49_tpr_refuted",
    "C49_empty_tpr",
    "C49_fpr_refuted"
   ],
   "note": "A perfect estimate gets tpr 1 only when the true graph has an edge; the empty graph gets tpr 0; fpr can exceed 1."
  },
  {
   "property": "C50",
   "status": "proved",
   "theorems": [
    "C50_insert_effect",
    "C50_delete_effect"
   ],
   "note": ""
  },
  {
   "property": "C51",
   "status": "proved",
   "theorems": [
    "C51_default_interval_fails",
    "C51_no_edge_can_be_scored"
   ],
   "note": "A defect of the code: the default arguments always fail."
  },
  {
   "property": "C52",
   "status": "proved",
   "theorems": [
    "C52_nonlinear_solves_sem",
    "C52_func_type_ignored",
    "C52_mim_refuted"
   ],
   "note": ""
  },
  {
   "property": "C53",
   "status": "proved",
   "theorems": [
    "C53_nonlinear_recurrence",
    "C53_stationary_refuted"
   ],
   "note": ""
  },
  {
   "property": "C54",
   "status": "proved",
   "theorems": [
    "C54_cos_is_linear",
    "C54_default_length_fails",
    "C54_activation_first_fails"
   ],
   "note": ""
  },
  {
   "property": "C55",
   "status": "proved",
   "theorems": [
    "C55_first_descendant",
    "C55_observed_member_refuted"
   ],
   "note": ""
  },
  {
   "property": "C56",
   "status": "proved",
   "theorems": [
    "C56_find_clusters",
    "C56_check_sound",
    "C56_check_complete",
    "C56_disjoint_refuted"
   ],
   "note": ""
  },
  {
   "property": "C57",
   "status": "proved",
   "theorems": [
    "C57_zeros_ignore_data",
    "C57_good_order_refuted"
   ],
   "note": ""
  },
  {
   "property": "C58",
   "status": "proved",
   "theorems": [
    "C58_gradient"
   ],
   "note": "Directional derivative with quadratic remainder for every direction."
  },
  {
   "property": "C59",
   "status": "proved",
   "theorems": [
    "C59_result",
    "C59_rho_max_error",
    "C59_exact_zero",
    "C59_dag_refuted"
   ],
   "note": "The optimiser is an arbitrary function; acyclicity of the result is refuted for the default parameters."
  },
  {
   "property": "C60",
   "status": "proved",
   "theorems": [
    "C60_score_dist2",
    "C60_ndarray_refuted"
   ],
   "note": "score_utils version of dist2 with numpy broadcasting."
  },
  {
   "property": "C61",
   "status": "proved",
   "theorems": [
    "C61_linear_statistic"
   ],
   "note": "Standardisation of the data is outside the model; the data are arbitrary."
  },
  {
   "property": "C62",
   "status": "partial",
   "theorems": [
    "C62_round_trip_partial",
    "C62_round_trip_triangles_partial",
    "C62_round_trip_refuted",
    "C62_equivalence_refuted"
   ],
   "note": "The full statement is false of the code (two refutations); proved under the condition that dag2cpdag reversed no arrow, and for DAGs in which no edge lies in two triangles."
  },
  {
   "property": "C63",
   "status": "proved",
   "theorems": [
    "C63_matrix_scores",
    "C63_negative_threshold",
    "C63_graph_truth_fails",
    "C63_digraph_truth_fails",
    "C63_graph_estimate_is_skeleton"
   ],
   "note": "sklearn's binary metrics are modelled with their label checks (lengths, integer labels, at most two labels, label 1 present)."
  },
  {
   "property": "C64",
   "status": "proved",
   "theorems": [
    "C64_score_cache_transparent",
    "C64_score_cache_iterators_refuted",
    "C64_pvalue_cache_transparent",
    "C64_names_are_numbers",
    "C64_mixed_list_refuted"
   ],
   "note": "Transparency proved for all histories; the two uses where it fails are refuted by witnesses."
  },
  {
   "property": "C65",
   "status": "proved",
   "theorems": [
    "C65_bic_score_equivalent",
    "C65_no_parents_zero"
   ],
   "note": "Through Chickering's covered edge reversals; over the standard library's real numbers."
  },
  {
   "property": "C66",
   "status": "proved",
   "theorems": [
    "C66_bdeu_dag_fails",
    "C66_bdeu_covered_edge",
    "C66_bdeu_order_of_parents"
   ],
   "note": "lgamma is an arbitrary function."
  },
  {
   "property": "C67",
   "status": "proved",
   "theorems": [
    "C67_insert_gain_is_score_difference",
    "C67_delete_gain_is_score_difference"
   ],
   "note": "Both operators, all sizes and all extensions; validity (the result is extendable) is part of the statement. C67_example: class 0 - 1 - 2 with an isolated 3."
  },
  {
   "property": "C68",
   "status": "partial",
   "theorems": [
    "C68_reported_score_is_total_partial",
    "C68_stuck_after_wrong_conversion",
    "C68_three_variables",
    "C68_reported_score_refuted"
   ],
   "note": "The full statement is refuted by C68_reported_score_refuted (six variables, score equivalent score). Proved: exact unless one of the recorded steps has a wrong dag2cpdag conversion (C68_reported_score_is_total_partial), a search that does not return has made a wrong conversion (C68_stuck_after_wrong_conversion), unconditional for n <= 3 (C68_three_variables)."
  },
  {
   "property": "C69",
   "status": "proved",
   "theorems": [
    "C69_partial_correlation",
    "C69_p_value",
    "C69_few_records",
    "C69_symmetric",
    "C69_cache_transparent"
   ],
   "note": "For correlation matrices without degeneracy (positive definite, unit diagonal) and exact real arithmetic. The inverse is any function returning a right inverse; the normal distribution function is an argument, the p-value theorem uses that it is 1/2 at 0, strictly increasing from there and at most 1."
  },
  {
   "property": "C70",
   "status": "proved",
   "theorems": [
    "C70_symmetric",
    "C70_units",
    "C70_sample_order",
    "C70_constant",
    "C70_nonneg"
   ],
   "note": "Exact real arithmetic; scipy's gamma distribution function is an arbitrary argument. The NaN p-value of constant data is 0/0 in the gamma parameters."
  },
  {
   "property": "C71",
   "status": "proved",
   "theorems": [
    "C71_first_stage",
    "C71_direction_is_column_order"
   ],
   "note": "Exact real arithmetic, columns of equal length; the intercept, the gamma distribution function and all primitives of the third stage are arbitrary."
  },
  {
   "property": "C72",
   "status": "proved",
   "theorems": [
    "C72_fisher_below",
    "C72_second_stage_idle"
   ],
   "note": "scipy's chi2.cdf for an even number of degrees of freedom is written in its closed form. At level 1e-5 or below the clipping would change the answer."
  },
  {
   "property": "C73",
   "status": "partial",
   "theorems": [
    "C73_shape_partial",
    "C73_early_arrows_without_coefficient",
    "C73_returns_refuted"
   ],
   "note": "Shape and termination hold except for the IndexError, shown reachable in the control flow by a table of test outcomes on five variables; whether some data set produces that table is not shown. Exceptions of numpy other than LinAlgError, and NaN in A, are not modelled."
  },
  {
   "property": "C74",
   "status": "proved",
   "theorems": [
    "C74_every_state_is_forest",
    "C74_result_is_forest",
    "C74_one_parent_refuted"
   ],
   "note": "Under the hypothesis, part of the statement, that the clusters found in a round are disjoint; refuted without it."
  },
  {
   "property": "C75",
   "status": "proved",
   "theorems": [
    "C75_round_progress",
    "C75_loop_ends_or_idles",
    "C75_idle_runs_forever",
    "C75_termination_refuted"
   ],
   "note": "The repetition for ever is shown for rounds that return the same data; a round that only permutes the columns is covered by the first two theorems."
  },
  {
   "property": "C76",
   "status": "proved",
   "theorems": [
    "C76_only_two_exceptions",
    "C76_no_index_error_refuted"
   ],
   "note": "Exceptions of pandas, networkx and the numerical test are outside the model."
  },
  {
   "property": "C77",
   "status": "proved",
   "theorems": [
    "C77_drawn_edges",
    "C77_leftovers_are_joined",
    "C77_acyclic_graph_refuted"
   ],
   "note": "Edges of the index handed to the drawing code; the drawing is not modelled."
  },
  {
   "property": "C78",
   "status": "proved",
   "theorems": [
    "C78_merge_without_test",
    "C78_members_pass_tests_refuted"
   ],
   "note": ""
  },
  {
   "property": "C79",
   "status": "proved",
   "theorems": [
    "C79_units",
    "C79_sample_order",
    "C79_pair_symmetry",
    "C79_tests_the_tetrad",
    "C79_variance_of_other_tetrad",
    "C79_variance_right_iff",
    "C79_exchange_refuted",
    "C79_decision",
    "C79_constant_column",
    "C79_only_exception"
   ],
   "note": "All parts proved over the reals; the exchange symmetry is refuted for every strictly increasing distribution function."
  },
  {
   "property": "C80",
   "status": "proved",
   "theorems": [
    "C80_linear",
    "C80_networks",
    "C80_up_to_four"
   ],
   "note": "The bound (t^2/d)^d for all three learners; for the networks the square root may round down. C59_dag_refuted shows that five variables are too many for the defaults."
  },
  {
   "property": "C81",
   "status": "proved",
   "theorems": [
    "C81_packing",
    "C81_mlp_trained",
    "C81_sobolev_trained",
    "C81_no_edge_no_influence",
    "C81_only_exception",
    "C81_no_iterations_refuted",
    "C81_edge_without_influence_refuted",
    "C81_threshold_refuted"
   ],
   "note": "The loss and automatic differentiation are inside the optimiser argument; sigmoid, sine and square root are arguments."
  },
  {
   "property": "C82",
   "status": "proved",
   "theorems": [
    "C82_trained",
    "C82_dag",
    "C82_anneal",
    "C82_l2_no_effect",
    "C82_only_exception",
    "C82_train_dam_refuted"
   ],
   "note": "The entropy loss and automatic differentiation are arguments; train_dam is modelled for the known optimisers on a machine with CUDA."
  },
  {
   "property": "C83",
   "status": "proved",
   "theorems": [
    "C83_units",
    "C83_unbounded",
    "C83_pooled",
    "C83_sum_of_variables_refuted",
    "C83_at_most_normal",
    "C83_nan",
    "C83_constants"
   ],
   "note": "Exact reals; NaN as None."
  },
  {
   "property": "C84",
   "status": "proved",
   "theorems": [
    "C84_er",
    "C84_given",
    "C84_unknown",
    "C84_weights",
    "C84_no_ranges",
    "C84_pipeline"
   ],
   "note": "igraph's random graphs, the permutations and the uniform draws are arguments."
  },
  {
   "property": "C85",
   "status": "proved",
   "theorems": [
    "C85_linear",
    "C85_variable_scale",
    "C85_linear_rejects",
    "C85_nonlinear",
    "C85_nonlinear_cyclic",
    "C85_nonlinear_scale",
    "C85_nonlinear_name",
    "C85_pairwise"
   ],
   "note": "igraph's topological sort is any routine that lists nodes after their parents; draws, Gaussian processes and transcendental functions are arguments; the nonlinear simulator is modelled for 0/1 matrices."
  },
  {
   "property": "C86",
   "status": "proved",
   "theorems": [
    "C86_invertible",
    "C86_covariance",
    "C86_risk",
    "C86_equal_scales",
    "C86_rejects",
    "C86_risk_refuted"
   ],
   "note": "numpy's inverse is any function returning an inverse of invertible matrices; real arithmetic. The extension to unequal scales is refuted by C86_risk_refuted."
  },
  {
   "property": "C87",
   "status": "proved",
   "theorems": [
    "C87_statistic",
    "C87_nonneg",
    "C87_self",
    "C87_symmetric",
    "C87_sample_order",
    "C87_units",
    "C87_test_units",
    "C87_decides",
    "C87_parameters",
    "C87_threshold",
    "C87_level"
   ],
   "note": ""
  },
  {
   "property": "C88",
   "status": "proved",
   "theorems": [
    "C88_swap",
    "C88_nonneg",
    "C88_units",
    "C88_reversed",
    "C88_flat",
    "C88_interpolation",
    "C88_sample_order",
    "C88_subsample",
    "C88_sample_order_refuted"
   ],
   "note": "Order independence holds up to 2000 samples; the refutation shows the limit."
  },
  {
   "property": "C89",
   "status": "proved",
   "theorems": [
    "C89_unbiased",
    "C89_biased",
    "C89_features",
    "C89_pvalue_range",
    "C89_exact",
    "C89_exact_refuted",
    "C89_constant",
    "C89_constant_statistic",
    "C89_constant_spectral",
    "C89_features_unbiased",
    "C89_sample_order",
    "C89_permutation",
    "C89_spectral"
   ],
   "note": ""
  },
  {
   "property": "C90",
   "status": "proved",
   "theorems": [
    "C90_truncated",
    "C90_coefficients",
    "C90_small",
    "C90_accuracy",
    "C90_exists",
    "C90_power_batch",
    "C90_batch",
    "C90_backward",
    "C90_derivative",
    "C90_gradient",
    "C90_linear_refuted"
   ],
   "note": "Exact arithmetic; the decimals of the tables are the rationals printed in the file. The error bounds are proved against the limit of the exponential series, whose existence is proved as well. C90_linear_refuted is the last sentence of the statement."
  },
  {
   "property": "C91",
   "status": "proved",
   "theorems": [
    "C91_pade",
    "C91_accuracy",
    "C91_invertible",
    "C91_returns",
    "C91_returns_refuted",
    "C91_gradient",
    "C91_guard"
   ],
   "note": "Exact arithmetic; the solver is any function that solves invertible systems. The error bound uses only the tests eta < theta, so the second test (_ell) is not needed for it in exact arithmetic. C91_returns_refuted shows that the condition of C91_returns cannot be dropped: chains of variables with weights 3 raise OverflowError (int(ceil(log2(0))))."
  },
  {
   "property": "C92",
   "status": "proved",
   "theorems": [
    "C92_value",
    "C92_returns",
    "C92_folds",
    "C92_order",
    "C92_units",
    "C92_bound",
    "C92_few_samples",
    "C92_likelihood_refuted",
    "C92_arguments_refuted"
   ],
   "note": "In exact arithmetic; np.linalg.inv is any function that inverts triangular matrices, and the SVD branch of pdinv is an argument that is never reached for positive definite matrices."
  },
  {
   "property": "C93",
   "status": "proved",
   "theorems": [
    "C93_decreases",
    "C93_returns",
    "C93_budget",
    "C93_stuck",
    "C93_best_refuted",
    "C93_failures_refuted"
   ],
   "note": "Exact arithmetic. The objective, the product taken for slopes and the conjugate direction are arguments, so the claims hold for all of them. The two statements of the comments that fail are refuted with witnesses."
  },
  {
   "property": "C94",
   "status": "proved",
   "theorems": [
    "C94_value",
    "C94_returns",
    "C94_unfitted",
    "C94_ignores"
   ],
   "note": "Exact arithmetic. np.linalg.inv and the eigenvalue solver enter by contracts (inverses of triangular factors, leading eigenpairs of the centred kernel), instances of which are given. numpy versions that refuse the ragged array of function names are not modelled."
  },
  {
   "property": "C95",
   "status": "proved",
   "theorems": [
    "C95_value",
    "C95_value_process",
    "C95_nonneg",
    "C95_units",
    "C95_order",
    "C95_constant_y",
    "C95_constant_y_process",
    "C95_few_samples",
    "C95_process_returns",
    "C95_constant_z",
    "C95_unconditional",
    "C95_swap_refuted"
   ],
   "note": "Exact arithmetic, gamma approximation. np.linalg.pinv, the eigenvalue solver and the Gaussian process enter by contracts; instances are given (the eigensolver from a proof of the spectral theorem). Units, order, constant z and constant y are for a given kernel of z; what the Gaussian process mode does in the edge cases is stated separately. The symmetry that the definition of conditional independence suggests is refuted."
  },
  {
   "property": "C96",
   "status": "proved",
   "theorems": [
    "C96_value",
    "C96_moments",
    "C96_units",
    "C96_order",
    "C96_constant",
    "C96_returns",
    "C96_value_conditional",
    "C96_value_process",
    "C96_moments_conditional",
    "C96_constant_y",
    "C96_units_conditional",
    "C96_order_conditional"
   ],
   "note": "Exact arithmetic. The chi-squares enter the moments through their means, variances and covariances. The invariances of the conditional test are stated for calls that return."
  },
  {
   "property": "C97",
   "status": "proved",
   "theorems": [
    "C97_value",
    "C97_constant",
    "C97_order",
    "C97_units",
    "C97_function",
    "C97_same_as_class",
    "C97_column_vectors",
    "C97_first_two",
    "C97_ignores_y",
    "C97_matrix_refuted",
    "C97_missing_column"
   ],
   "note": "matrix of correlations and its NaN written out; inverse and normal distribution function are arguments; the reading that a matrix x is tested against y is refuted"
  },
  {
   "property": "C98",
   "status": "proved",
   "theorems": [
    "C98_edges",
    "C98_faithful",
    "C98_units",
    "C98_order",
    "C98_columns",
    "C98_constant",
    "C98_frames",
    "C98_refused",
    "C98_one_record"
   ],
   "note": "Fisher-z on sample partial correlations through the adapter, the named test, both adjacency searches, the orientation rules; the cache of itest is left out here (C25, C69). Example: a common cause in 8 records."
  },
  {
   "property": "C99",
   "status": "proved",
   "theorems": [
    "C99_table",
    "C99_counts",
    "C99_influence",
    "C99_integral",
    "C99_span",
    "C99_calendar",
    "C99_order",
    "C99_clock",
    "C99_clock_grid",
    "C99_clock_refuted",
    "C99_raises",
    "C99_interval_events"
   ],
   "note": "times are exact rationals; effects are exact reals; missing values and empty tables are not modelled; rounding at 0 refuted as shift invariance"
  }
 ]
}