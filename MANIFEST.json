{
 "claims": [
  {
   "property": "C01",
   "status": "proved",
   "theorems": [
    "C01_constructor_keeps_weights",
    "C01_doubles_above_tolerance_unaltered"
   ],
   "note": "Generic in the number type; instantiated at IEEE binary64."
  },
  {
   "property": "C02",
   "status": "proved",
   "theorems": [
    "C02_constructed_graphs_are_undirected",
    "C02_asymmetric_refused",
    "C02_inconsistent_vectors_refused"
   ],
   "note": ""
  },
  {
   "property": "C03",
   "status": "partial",
   "theorems": [
    "C03_laplacian_round_trip_partial",
    "C03_laplacian_round_trip_doubles_refuted"
   ],
   "note": "Proved for exact arithmetic when every weight is 0 or above 1e-10; refuted for IEEE doubles (C03_laplacian_round_trip_doubles_refuted): rounding of a column sum of D-A makes the constructor throw. In doubles it holds for integer weights (C67_integer_laplacian_round_trip)."
  },
  {
   "property": "C04",
   "status": "proved",
   "theorems": [
    "C04_neither_adjacency_nor_laplacian"
   ],
   "note": ""
  },
  {
   "property": "C05",
   "status": "proved",
   "theorems": [
    "C05_symmetric_after_any_history"
   ],
   "note": ""
  },
  {
   "property": "C06",
   "status": "partial",
   "theorems": [
    "C06_add_edge_effect",
    "C06_add_self_loop_effect",
    "C06_add_edge_self_loop_refuted"
   ],
   "note": "Proved for u<>v; add_edge(u,u,w) adds 2w (C06_add_self_loop_effect, refutation C06_add_edge_self_loop_refuted)."
  },
  {
   "property": "C07",
   "status": "proved",
   "theorems": [
    "C07_remove_edge_effect",
    "C07_remove_edge_absent"
   ],
   "note": ""
  },
  {
   "property": "C08",
   "status": "proved",
   "theorems": [
    "C08_matrices_never_stale",
    "C08_queries_do_not_change_the_graph"
   ],
   "note": ""
  },
  {
   "property": "C09",
   "status": "proved",
   "theorems": [
    "C09_has_self_loops_exact",
    "C09_no_self_loop_missed"
   ],
   "note": ""
  },
  {
   "property": "C10",
   "status": "partial",
   "theorems": [
    "C10_number_of_edges_exact",
    "C10_pairs_counted",
    "C10_pairs_counted_once",
    "C10_number_of_edges_zero_weight_refuted"
   ],
   "note": "Proved when no stored weight is zero; add_edge(u,v,0) makes the count wrong (C10_number_of_edges_zero_weight_refuted)."
  },
  {
   "property": "C11",
   "status": "proved",
   "theorems": [
    "C11_degree",
    "C11_total_volume",
    "C11_average_degree"
   ],
   "note": "Exact arithmetic; rounding errors in doubles: C67."
  },
  {
   "property": "C12",
   "status": "proved",
   "theorems": [
    "C12_neighbors_exact",
    "C12_unweighted_queries_agree",
    "C12_invalid_vertex_rejected",
    "C12_vertex_exists",
    "C12_degrees_in_order",
    "C12_degrees_unweighted_in_order"
   ],
   "note": ""
  },
  {
   "property": "C13",
   "status": "proved",
   "theorems": [
    "C13_laplacian_entries",
    "C13_laplacian_quadratic_form",
    "C13_laplacians_positive_semidefinite",
    "C13_laplacian_row_sums"
   ],
   "note": "Exact arithmetic (rationals, reals); rounding errors in doubles: C67."
  },
  {
   "property": "C14",
   "status": "proved",
   "theorems": [
    "C14_normalised_laplacian_entries",
    "C14_normalised_laplacian_spectrum_bounds"
   ],
   "note": "Over the real numbers, because of the square roots."
  },
  {
   "property": "C15",
   "status": "partial",
   "theorems": [
    "C15_lazy_walk_entries",
    "C15_lazy_walk_column_sums_partial",
    "C15_lazy_walk_isolated_vertex",
    "C15_column_stochastic_refuted",
    "C15_inverse_degree_isolated_refuted"
   ],
   "note": "Entries proved; column sums are 1 only for vertices without self-loop (C15_column_stochastic_refuted otherwise); inverse degree of an isolated vertex is +inf, not 0 (C15_inverse_degree_isolated_refuted)."
  },
  {
   "property": "C16",
   "status": "proved",
   "theorems": [
    "C16_equality",
    "C16_equality_exact"
   ],
   "note": ""
  },
  {
   "property": "C17",
   "status": "proved",
   "theorems": [
    "C17_addition",
    "C17_addition_size_mismatch",
    "C17_scaling",
    "C17_scaling_negative_refused"
   ],
   "note": ""
  },
  {
   "property": "C18",
   "status": "proved",
   "theorems": [
    "C18_subgraph",
    "C18_subgraph_weights_kept",
    "C18_subgraph_invalid_vertex"
   ],
   "note": ""
  },
  {
   "property": "C19",
   "status": "partial",
   "theorems": [
    "C19_disjoint_union_partial",
    "C19_disjoint_union_refuted"
   ],
   "note": "Proved when vertex 0 of the second graph is not isolated; the code loses vertices otherwise (C19_disjoint_union_refuted)."
  },
  {
   "property": "C20",
   "status": "proved",
   "theorems": [
    "C20_complete_graph",
    "C20_cycle_graph",
    "C20_cycle_graph_2_has_weight_2",
    "C20_star_graph",
    "C20_barbell_graph",
    "C20_identity_graph",
    "C20_too_small_rejected"
   ],
   "note": ""
  },
  {
   "property": "C21",
   "status": "proved",
   "theorems": [
    "C21_is_symmetric",
    "C21_is_symmetric_exact",
    "C21_from_vectors_inverts",
    "C21_sparse_to_vector",
    "C21_add_vectors"
   ],
   "note": ""
  },
  {
   "property": "C22",
   "status": "proved",
   "theorems": [
    "C22_component_is_reachability",
    "C22_local_graph_component"
   ],
   "note": ""
  },
  {
   "property": "C23",
   "status": "proved",
   "theorems": [
    "C23_components_partition",
    "C23_is_connected",
    "C23_is_connected_empty"
   ],
   "note": ""
  },
  {
   "property": "C24",
   "status": "proved",
   "theorems": [
    "C24_pagerank_invariant",
    "C24_returned_pair_is_a_state",
    "C24_ppr_decomposition",
    "C24_ppr_exists_uniquely",
    "C24_self_loop_refuted"
   ],
   "note": "Exact arithmetic; C24_self_loop_refuted shows the no-self-loop hypothesis of the property is needed."
  },
  {
   "property": "C25",
   "status": "proved",
   "theorems": [
    "C25_postcondition",
    "C25_residual_small_and_nonnegative",
    "C25_approximation"
   ],
   "note": "Post-condition for any arithmetic including doubles; non-negativity and approximation error in exact arithmetic."
  },
  {
   "property": "C26",
   "status": "proved",
   "theorems": [
    "C26_number_of_pushes",
    "C26_terminates_on_graphs",
    "C26_alpha_zero_diverges"
   ],
   "note": "Exact arithmetic; alpha=0 diverges (C26_alpha_zero_diverges)."
  },
  {
   "property": "C27",
   "status": "proved",
   "theorems": [
    "C27_best_prefix",
    "C27_best_prefix_local"
   ],
   "note": "Exact arithmetic."
  },
  {
   "property": "C28",
   "status": "partial",
   "theorems": [
    "C28_conductance_partial",
    "C28_conductance_of_graph_partial",
    "C28_self_loop_refuted"
   ],
   "note": "Proved when the set contains no self-loop; a self-loop is counted once by conductance() but twice by degree() (C28_self_loop_refuted)."
  },
  {
   "property": "C29",
   "status": "proved",
   "theorems": [
    "C29_cluster_is_reachable_from_seed",
    "C29_missing_seed_refused",
    "C29_acl_returns_best_sweep_prefix",
    "C29_local_cluster_returns_best_sweep_prefix",
    "C29_volume_bounded_by_target",
    "C29_target_must_be_positive",
    "C29_terminates"
   ],
   "note": ""
  },
  {
   "property": "C30",
   "status": "partial",
   "theorems": [
    "C30_hubert_arabie_partial",
    "C30_symmetric_partial",
    "C30_renaming_partial",
    "C30_same_partition_partial",
    "C30_invalid_refused",
    "C30_at_most_one",
    "C30_one_cluster_refuted",
    "C30_overflow_refuted"
   ],
   "note": "Proved for at most 77936 points (beyond that int64 can overflow, C30_overflow_refuted); real arithmetic with NaN as None; identical one-cluster labelings give NaN (C30_one_cluster_refuted)."
  },
  {
   "property": "C31",
   "status": "proved",
   "theorems": [
    "C31_mutual_information",
    "C31_symmetric",
    "C31_renaming",
    "C31_bounds",
    "C31_normalised",
    "C31_normalised_range",
    "C31_normalised_same_partition",
    "C31_invalid_refused"
   ],
   "note": "Real arithmetic; the iteration order of the hash maps is arbitrary."
  },
  {
   "property": "C32",
   "status": "proved",
   "theorems": [
    "C32_symmetric_difference"
   ],
   "note": ""
  },
  {
   "property": "C33",
   "status": "proved",
   "theorems": [
    "C33_line_endings",
    "C33_uniform_ending",
    "C33_last_line_termination"
   ],
   "note": ""
  },
  {
   "property": "C34",
   "status": "partial",
   "theorems": [
    "C34_load_edgelist_partial",
    "C34_self_loop_effect",
    "C34_self_loop_refuted"
   ],
   "note": "Off-diagonal weights and vertex count proved; the weight of a self-loop line is counted twice (C34_self_loop_effect, C34_self_loop_refuted). Weights not above 1e-10 are dropped; text/number conversion abstract."
  },
  {
   "property": "C35",
   "status": "partial",
   "theorems": [
    "C35_edgelist_round_trip_partial",
    "C35_round_trip_refuted"
   ],
   "note": "Proved without self-loops, trailing isolated vertices, and weights needing more than six digits; each of these is lost by the code (C35_round_trip_refuted)."
  },
  {
   "property": "C36",
   "status": "partial",
   "theorems": [
    "C36_adjacencylist_round_trip_partial",
    "C36_round_trip_refuted"
   ],
   "note": "Proved without trailing isolated vertices and weights needing more than six digits; these are lost (C36_round_trip_refuted)."
  },
  {
   "property": "C37",
   "status": "proved",
   "theorems": [
    "C37_sort_edgelist"
   ],
   "note": "Comments after the first edge line are dropped (header comments are kept), blank lines are appended; the debug asserts of the function are off."
  },
  {
   "property": "C38",
   "status": "proved",
   "theorems": [
    "C38_copy_edgelist_duplicate_edges"
   ],
   "note": "For weights that survive printing with six digits."
  },
  {
   "property": "C39",
   "status": "proved",
   "theorems": [
    "C39_edgelist_to_adjacencylist",
    "C39_node_lines"
   ],
   "note": "For weights that survive printing with six digits."
  },
  {
   "property": "C40",
   "status": "partial",
   "theorems": [
    "C40_adjacencylist_to_edgelist_partial",
    "C40_self_loop_refuted"
   ],
   "note": "Proved without self-loops; their weight doubles (C40_self_loop_refuted)."
  },
  {
   "property": "C41",
   "status": "partial",
   "theorems": [
    "C41_malformed_edgelist_partial",
    "C41_malformed_adjacencylist_partial",
    "C41_edgelist_outcomes",
    "C41_adjacencylist_outcomes",
    "C41_junk_accepted_refuted",
    "C41_id_overflow_refuted",
    "C41_negative_weight_refuted",
    "C41_adjacencylist_refuted"
   ],
   "note": "Proved for the malformed lines described by malformed_edge / malformed_adj; outcomes of every file classified; junk weights and fourth fields are accepted, ids beyond int raise out_of_range, negative weights domain_error, negative neighbours are UB (refutations)."
  },
  {
   "property": "C42",
   "status": "partial",
   "theorems": [
    "C42_caches_never_change_answers",
    "C42_neighbors_on_disk_partial",
    "C42_converted_files_are_searchable",
    "C42_comment_with_colon_refuted"
   ],
   "note": "Answers proved for sorted files whose last line is a node line and whose comments contain no colon; a comment with a colon can hide a vertex (C42_comment_with_colon_refuted). Cache independence is proved for every file."
  },
  {
   "property": "C43",
   "status": "partial",
   "theorems": [
    "C43_present",
    "C43_absent_partial",
    "C43_minus_one_refuted"
   ],
   "note": "Proved for every id except -1 (the sentinel id; C43_minus_one_refuted)."
  },
  {
   "property": "C44",
   "status": "partial",
   "theorems": [
    "C44_search_terminates_partial",
    "C44_trailing_line_refuted"
   ],
   "note": "Proved for files ending in a node line (number of probes logarithmic in the size); otherwise the search can hang (C44_trailing_line_refuted)."
  },
  {
   "property": "C45",
   "status": "partial",
   "theorems": [
    "C45_agrees_with_saved_graph_partial",
    "C45_degree_agrees",
    "C45_self_loop_degree_unweighted_refuted",
    "C45_empty_graph_refuted"
   ],
   "note": "Proved without self-loops for degree_unweighted and for a non-empty graph, weights that survive printing; degree in exact arithmetic (C45_self_loop_degree_unweighted_refuted, C45_empty_graph_refuted)."
  },
  {
   "property": "C46",
   "status": "partial",
   "theorems": [
    "C46_one_coin_per_pair",
    "C46_sbm_one_coin_per_pair",
    "C46_erdos_renyi_one_coin_per_pair",
    "C46_simple_graph_partial",
    "C46_invalid_parameters",
    "C46_invalid_sbm_parameters",
    "C46_cluster_size_in_doubles",
    "C46_vertex_count_refuted",
    "C46_repeated_edge_refuted",
    "C46_one_vertex_refuted"
   ],
   "note": "Proved for coin tossing (exact=true, small clusters, or probability >= 1/2) in any arithmetic; the approximate sampler can give weight 2 to a pair (C46_repeated_edge_refuted), and sbm(n,k) has k*floor(n/k) vertices (C46_vertex_count_refuted). Integers unbounded."
  },
  {
   "property": "C47",
   "status": "proved",
   "theorems": [
    "C47_ground_truth_labels",
    "C47_labels_are_generator_blocks",
    "C47_sbm_labels",
    "C47_invalid_sizes"
   ],
   "note": "Integers unbounded."
  },
  {
   "property": "C48",
   "status": "proved",
   "theorems": [
    "C48_file_equals_memory"
   ],
   "note": "Exact arithmetic; ids fit in int, the number 1 prints as 1."
  },
  {
   "property": "C49",
   "status": "partial",
   "theorems": [
    "C49_matrix_query",
    "C49_matrix_query_completes",
    "C49_value",
    "C49_chunk_size",
    "C49_no_hardware_threads_refuted"
   ],
   "note": "Proved for at least one hardware thread, in any arithmetic; hardware_concurrency() = 0 is undefined behaviour (C49_no_hardware_threads_refuted). Value over the reals."
  },
  {
   "property": "C50",
   "status": "partial",
   "theorems": [
    "C50_matrix_query",
    "C50_matrix_query_completes",
    "C50_construction",
    "C50_construction_units",
    "C50_construction_completes",
    "C50_no_hardware_threads_refuted",
    "C50_single_point_refuted"
   ],
   "note": "Matrix queries in any arithmetic (at least one thread and one copy); construction order in exact arithmetic; refuted for no threads and for one data point (C50_no_hardware_threads_refuted, C50_single_point_refuted). Data race on the global generator in the construction not modelled: the hash functions are a parameter."
  },
  {
   "property": "C51",
   "status": "proved",
   "theorems": [
    "C51_near_neighbors",
    "C51_finds_itself",
    "C51_multi_lsh"
   ],
   "note": "For arbitrary hash functions, hence also for wrap-around 64-bit hashes; any arithmetic."
  },
  {
   "property": "C52",
   "status": "proved",
   "theorems": [
    "C52_indices",
    "C52_samples",
    "C52_count"
   ],
   "note": "Valid range, order and bound in any arithmetic; exact thresholds over the reals."
  },
  {
   "property": "C53",
   "status": "partial",
   "theorems": [
    "C53_graph",
    "C53_completes",
    "C53_thread_count",
    "C53_graph_reals",
    "C53_self_loops_refuted",
    "C53_missing_edges_refuted",
    "C53_no_hardware_threads_refuted"
   ],
   "note": "Proved for at least one hardware thread in any arithmetic with exp >= 0: weights k(x_i,x_j) where above 1e-10. The documented complete graph without self-loops is refuted: every vertex has a self-loop (C53_self_loops_refuted), far points are not connected (C53_missing_edges_refuted), no hardware threads is undefined (C53_no_hardware_threads_refuted)."
  },
  {
   "property": "C54",
   "status": "partial",
   "theorems": [
    "C54_slots",
    "C54_slots_completes",
    "C54_graph_partial",
    "C54_small_data",
    "C54_completes",
    "C54_caches",
    "C54_degrees_one_leaf",
    "C54_too_few_points_refuted",
    "C54_equal_points_refuted",
    "C54_self_loop_refuted"
   ],
   "note": "Slots for every schedule in any arithmetic; samples, symmetry and weights over the reals, for at least one thread and a node cutoff of at least 2; absence of undefined behaviour up to twice the node cutoff, refuted for larger sets of equal points (C54_equal_points_refuted) and fewer than 2 points (C54_too_few_points_refuted). The race on the global generator is in C81, rounding (up to the node cutoff) in C88."
  },
  {
   "property": "C55",
   "status": "partial",
   "theorems": [
    "C55_rows",
    "C55_ragged",
    "C55_malformed_field",
    "C55_malformed_field_exception",
    "C55_total",
    "C55_save_load",
    "C55_malformed_is_runtime_error_refuted",
    "C55_malformed_last_field_refuted",
    "C55_mixed_separators_refuted",
    "C55_words_refuted",
    "C55_save_load_empty_refuted",
    "C55_save_load_entries_refuted"
   ],
   "note": "Proved for rows as described by row_text, for fields other than the last and non-empty matrices; a malformed last field is dropped, mixed separators lose values, a malformed field raises invalid_argument instead of the documented runtime_error, matrices without rows or columns change shape, entries are rounded to six digits (C55_..._refuted). Text/number conversion abstract."
  },
  {
   "property": "C56",
   "status": "proved",
   "theorems": [
    "C56_eigensystem",
    "C56_eigenpairs_in_order_none_missed",
    "C56_graph_unchanged",
    "C56_invalid_number",
    "C56_projections"
   ],
   "note": ""
  },
  {
   "property": "C57",
   "status": "proved",
   "theorems": [
    "C57_invalid_number",
    "C57_generator_conforms",
    "C57_generator_range",
    "C57_labels",
    "C57_first_draw",
    "C57_lloyd_on_spectral_embedding",
    "C57_randint_exclusive_refuted"
   ],
   "note": "Labels in any arithmetic; Lloyd characterisation over the reals (k <= 21474836). The generator is modelled exactly; its random integers can equal the excluded bound (C57_randint_exclusive_refuted), not for the seed 42 used here."
  },
  {
   "property": "C58",
   "status": "proved",
   "theorems": [
    "C58_labels",
    "C58_small_graph",
    "C58_graph_unchanged",
    "C58_label_one_is_sweep_set",
    "C58_isolated_vertex_doubles_refuted"
   ],
   "note": "Labels, refusal and unchanged graph in any arithmetic; sweep set over the reals without isolated vertices. With an isolated vertex the doubles handed to std::stable_sort contain a NaN (C58_isolated_vertex_doubles_refuted)."
  },
  {
   "property": "C59",
   "status": "proved",
   "theorems": [
    "C59_exactly_once",
    "C59_at_most_once",
    "C59_no_deadlock",
    "C59_termination",
    "C59_schedule_independent",
    "C59_no_workers_refuted",
    "C59_stop_now_drops"
   ],
   "note": "At least one worker; with none nothing runs (C59_no_workers_refuted). Single owner thread that pushes, waits for futures and stops; sequentially consistent memory."
  },
  {
   "property": "C60",
   "status": "partial",
   "theorems": [
    "C60_shells_partition",
    "C60_unit_answer",
    "C60_unit_expectation",
    "C60_identical_points_refuted",
    "C60_outer_shell_doubles_refuted"
   ],
   "note": "Proved over the reals for points different from the query and up to rounding the sample count down; points equal to the query are dropped (C60_identical_points_refuted), the outer shell can get no sample (C60_outer_shell_doubles_refuted)."
  },
  {
   "property": "C61",
   "status": "proved",
   "theorems": [
    "C61_datapoints_are_rows",
    "C61_row_point",
    "C61_datapoints_are_views"
   ],
   "note": ""
  },
  {
   "property": "C62",
   "status": "proved",
   "theorems": [
    "C62_power",
    "C62_invalid_arguments",
    "C62_rayleigh_monotone",
    "C62_convergence"
   ],
   "note": ""
  },
  {
   "property": "C63",
   "status": "proved",
   "theorems": [
    "C63_rayleigh",
    "C63_invalid_arguments",
    "C63_eigenvector",
    "C63_scale_invariant",
    "C63_laplacian_bounds",
    "C63_normalised_laplacian_bounds"
   ],
   "note": ""
  },
  {
   "property": "C64",
   "status": "proved",
   "theorems": [
    "C64_cheeger_inequality"
   ],
   "note": "Over the reals, given an eigensolver that returns exact eigenpairs."
  },
  {
   "property": "C65",
   "status": "partial",
   "theorems": [
    "C65_documented_formulas_agree",
    "C65_accuracy",
    "C65_documented_density_refuted",
    "C65_offset",
    "C65_probability",
    "C65_monotone_partial",
    "C65_monotone_refuted",
    "C65_table_probability"
   ],
   "note": "Over the reals. Monotone on [0,1) and on [1,oo) (C65_monotone_partial); not across c=1, where the formula changes (C65_monotone_refuted). The documented density is off by a factor 2 (C65_documented_density_refuted). That the projection of the difference is Gaussian with deviation c is not modelled."
  },
  {
   "property": "C66",
   "status": "partial",
   "theorems": [
    "C66_parameters_well_defined",
    "C66_detection_partial",
    "C66_detection_refuted"
   ],
   "note": "Over the reals; proved where one hash function collides at the radius with probability at least 2^-phi (and away from the jump of C65 at distance 1); refuted for small kernel parameters (C66_detection_refuted). Detection probability as computed by E2LSH::collision_probability."
  },
  {
   "property": "C67",
   "status": "proved",
   "theorems": [
    "C67_degree_rounding",
    "C67_volume_rounding",
    "C67_laplacian_rounding",
    "C67_integer_degree",
    "C67_integer_volume",
    "C67_integer_average_degree",
    "C67_integer_laplacian",
    "C67_integer_laplacian_round_trip"
   ],
   "note": "Binary64 arithmetic (Coq.Floats.SpecFloat), reasoned about with Flocq."
  },
  {
   "property": "C68",
   "status": "proved",
   "theorems": [
    "C68_general_sbm_distribution",
    "C68_sbm_distribution",
    "C68_erdos_renyi_distribution",
    "C68_coin_bias"
   ],
   "note": "Real arithmetic, canonical samples uniform on a grid of N points; the approximate sampler (large clusters, small probability, exact=false) is not covered: it has another distribution (C46_repeated_edge_refuted)."
  },
  {
   "property": "C69",
   "status": "proved",
   "theorems": [
    "C69_load",
    "C69_save",
    "C69_save_then_load",
    "C69_convert",
    "C69_sort",
    "C69_edgelist_to_adjacencylist",
    "C69_general_sbm_edgelist",
    "C69_frame",
    "C69_temporary_names"
   ],
   "note": "Process view: characters reach the file in order; two names are two files (no links); a file that exists can be read."
  },
  {
   "property": "C70",
   "status": "partial",
   "theorems": [
    "C70_sort_never_loses_edges_partial",
    "C70_sorted_file_missing_refuted",
    "C70_conversions_crash",
    "C70_edgelist_to_adjacencylist_crash",
    "C70_save_crash",
    "C70_torn_save_refuted"
   ],
   "note": "Conversions and saves proved; sort_edgelist keeps all edge lines in the file or a temporary file, but the file itself is missing between two steps (C70_sorted_file_missing_refuted), and a torn save can load without complaint as another graph (C70_torn_save_refuted)."
  },
  {
   "property": "C71",
   "status": "partial",
   "theorems": [
    "C71_missing_input_partial",
    "C71_unwritable_output_partial",
    "C71_malformed_input",
    "C71_missing_input_empties_output_refuted",
    "C71_unwritable_output_ignored_refuted",
    "C71_temporary_file_left_refuted",
    "C71_invalid_parameters_overwrite_refuted",
    "C71_in_place_refuted"
   ],
   "note": "Proved for the loads, saves, copy and sort; refuted for adjacencylist_to_edgelist (empties the output), edgelist_to_adjacencylist (ignores an unwritable output, leaves its temporary file), general_sbm_edgelist (header written before the parameters are checked) and conversions in place."
  },
  {
   "property": "C72",
   "status": "partial",
   "theorems": [
    "C72_concurrent_conversions",
    "C72_concurrent_sorts",
    "C72_no_deadlock",
    "C72_same_temporary_names_refuted"
   ],
   "note": "Proved when the temporary names differ; std::rand is never seeded, so two processes choose the same names and can lose both files (C72_same_temporary_names_refuted)."
  },
  {
   "property": "C73",
   "status": "partial",
   "theorems": [
    "C73_wrong_usage",
    "C73_exit_status",
    "C73_edge2adj",
    "C73_adj2edge_partial",
    "C73_sbm",
    "C73_uncaught_exception_refuted",
    "C73_sbm_arguments_refuted"
   ],
   "note": "stag_adj2edge without self-loops (C40); failures of the library functions are uncaught exceptions, not statuses (C73_uncaught_exception_refuted, C73_sbm_arguments_refuted)."
  },
  {
   "property": "C74",
   "status": "partial",
   "theorems": [
    "C74_number_of_edges_partial",
    "C74_expected_edges_refuted"
   ],
   "note": "Within one cluster M is n^2/2, not the number n(n-1)/2 of pairs, so the mean is too large (C74_expected_edges_refuted); edges are counted with multiplicity."
  },
  {
   "property": "C75",
   "status": "proved",
   "theorems": [
    "C75_accuracy",
    "C75_stable",
    "C75_exact_iff_six_digits",
    "C75_integers",
    "C75_edgelist",
    "C75_adjacencylist",
    "C75_exact_refuted",
    "C75_small_edge_refuted",
    "C75_subnormal_refuted",
    "C75_nan_rejected_refuted",
    "C75_decimal_text",
    "C75_infinity_and_nan",
    "C75_other_text_refused"
   ],
   "note": ""
  },
  {
   "property": "C76",
   "status": "proved",
   "theorems": [
    "C76_conductance_guarantee",
    "C76_acl_theorem",
    "C76_local_cluster"
   ],
   "note": ""
  },
  {
   "property": "C77",
   "status": "partial",
   "theorems": [
    "C77_expected_weight_partial",
    "C77_leaves",
    "C77_shares",
    "C77_share_full",
    "C77_at_most",
    "C77_tree_sampling",
    "C77_support",
    "C77_last_point_never_sampled_refuted",
    "C77_equal_points_refuted"
   ],
   "note": "The exact expectation is proved for every data set of up to twice the node cutoff, and the sampling probabilities for every tree; the claim that it is 4/5 of the kernel for every pair is refuted: the leaf total leaves out one point (n_node = max_idx - min_idx), so the last points of a leaf are cut off. Exact reals; draws independent by definition of the distribution."
  },
  {
   "property": "C78",
   "status": "proved",
   "theorems": [
    "C78_terminates",
    "C78_accuracy",
    "C78_reference_exists",
    "C78_integer_weights",
    "C78_real_weights",
    "C78_local_cluster_returns",
    "C78_tiny_alpha_refuted"
   ],
   "note": ""
  },
  {
   "property": "C79",
   "status": "proved",
   "theorems": [
    "C79_sweep_set",
    "C79_local_sweep_set",
    "C79_conductance",
    "C79_local_cluster_acl",
    "C79_large_volume_refuted"
   ],
   "note": ""
  },
  {
   "property": "C80",
   "status": "partial",
   "theorems": [
    "C80_range",
    "C80_full_sampling",
    "C80_unbiased",
    "C80_accuracy",
    "C80_large_densities_partial",
    "C80_default_probability",
    "C80_default_epsilon_refuted",
    "C80_zero_answers",
    "C80_zero_refuted",
    "C80_relative_error_refuted"
   ],
   "note": "Over the reals. Proved for n a power of two and densities large compared with 1/(n eps^4.3) (C80_large_densities_partial; explicit error bound for every density in C80_accuracy). The documented guarantee for all densities >= min_mu is refuted: if n is not a power of two the answer can be 0 always (C80_zero_refuted), and with four points no answer is within 1 +- eps for any eps < 1/3 (C80_relative_error_refuted). The documented default eps = 0.5 is 1 in the code (C80_default_epsilon_refuted)."
  },
  {
   "property": "C81",
   "status": "partial",
   "theorems": [
    "C81_chunks",
    "C81_chunks_exist",
    "C81_races_partial",
    "C81_no_deadlock",
    "C81_terminates",
    "C81_tasks_once",
    "C81_result",
    "C81_graph",
    "C81_generator_race_refuted",
    "C81_can_end"
   ],
   "note": "All interleavings of single accesses, any arithmetic: the caches and the edges are free of races (C81_races_partial), no deadlock, no infinite run, every chunk once, result as in C54 (generator draws taken as atomic). Missing and refuted: all threads draw from the unsynchronised global generator, so that a data race is reachable with 2 threads and more than 4 points (C81_generator_race_refuted)."
  },
  {
   "property": "C82",
   "status": "partial",
   "theorems": [
    "C82_races_partial",
    "C82_no_deadlock",
    "C82_terminates",
    "C82_can_end",
    "C82_result",
    "C82_generator_race_refuted"
   ],
   "note": "All interleavings of single accesses, any arithmetic: the grid of hash units is free of races (C82_races_partial), no deadlock, no infinite run, exact contents of all cells. Missing and refuted: the hash functions are drawn from the unsynchronised global generator; with the default parameters and 6002 points a race is reachable (C82_generator_race_refuted)."
  },
  {
   "property": "C83",
   "status": "partial",
   "theorems": [
    "C83_ckns_owns_its_data_partial",
    "C83_any_arithmetic_partial",
    "C83_copies_refuted",
    "C83_moved_from",
    "C83_exact_follows_the_matrix",
    "C83_lsh_as_built"
   ],
   "note": "All histories: construction data kept, moved-to objects, copies while the original lives, exact estimators and E2LSH. Missing and refuted: a copy of a CKNS estimator still points into the original; after the original is destroyed or overwritten every query of the copy reads freed memory (C83_copies_refuted)."
  },
  {
   "property": "C84",
   "status": "partial",
   "theorems": [
    "C84_components_partial",
    "C84_components_10000_partial",
    "C84_irregular_refuted"
   ],
   "note": "Over the reals with an exact eigensolver. Proved when every component is regular (all k up to 10000, and every k for which the generator does not deliver the word 2^32-1). Missing and refuted: components with different degrees, because the rows of the embedding are not normalised as in the algorithm of Ng, Jordan and Weiss that the documentation cites (C84_irregular_refuted)."
  },
  {
   "property": "C85",
   "status": "proved",
   "theorems": [
    "C85_zero_eigenvalues",
    "C85_embedding"
   ],
   "note": ""
  },
  {
   "property": "C86",
   "status": "partial",
   "theorems": [
    "C86_disconnected_partial",
    "C86_disconnected_refuted"
   ],
   "note": "Over the reals with an exact eigensolver. Proved unless the second vector returned is a multiple of the vector of the square roots of the degrees. Missing and refuted: that case, which the eigensolver is free to produce (C86_disconnected_refuted)."
  },
  {
   "property": "C87",
   "status": "proved",
   "theorems": [
    "C87_kernel",
    "C87_query",
    "C87_similarity_graph"
   ],
   "note": ""
  },
  {
   "property": "C88",
   "status": "proved",
   "theorems": [
    "C88_graph",
    "C88_completes"
   ],
   "note": ""
  },
  {
   "property": "C89",
   "status": "partial",
   "theorems": [
    "C89_no_edge_partial",
    "C89_edge_partial",
    "C89_self_loop_partial",
    "C89_inverse_degree",
    "C89_lazy_walk",
    "C89_lazy_walk_columns",
    "C89_unit_weights_symmetric",
    "C89_symmetric_refuted",
    "C89_overflow_refuted",
    "C89_isolated_inverse_refuted"
   ],
   "note": "All entries of all four matrices, with explicit error bounds. Missing and refuted: exact symmetry of the normalised Laplacian when the weights are not all one, (d_u^-1/2 w) d_v^-1/2 and (d_v^-1/2 w) d_u^-1/2 are rounded differently (C89_symmetric_refuted); weights near the overflow threshold (C89_overflow_refuted); the inverse degree of an isolated vertex is infinite (C89_isolated_inverse_refuted)."
  },
  {
   "property": "C90",
   "status": "partial",
   "theorems": [
    "C90_warmed_up_partial",
    "C90_plain_queries",
    "C90_one_thread",
    "C90_terminates",
    "C90_cold_refuted",
    "C90_wrong_answer_refuted"
   ],
   "note": "All interleavings of single accesses to the members, any arithmetic. Proved when each kind of query was made once before by one thread, and for the queries that compute no matrix. Missing and refuted: the first query that needs a matrix stores it without a lock, so that two threads race (C90_cold_refuted, every graph) and one can be told a wrong degree (C90_wrong_answer_refuted)."
  },
  {
   "property": "C91",
   "status": "proved",
   "theorems": [
    "C91_randomness",
    "C91_total",
    "C91_law",
    "C91_expected_seeds",
    "C91_expected_clustering",
    "C91_few_places"
   ],
   "note": ""
  },
  {
   "property": "C92",
   "status": "proved",
   "theorems": [
    "C92_misplaced",
    "C92_expected",
    "C92_probability",
    "C92_recovers",
    "C92_randomness",
    "C92_conductance",
    "C92_eigenvalue_unique"
   ],
   "note": ""
  },
  {
   "property": "C93",
   "status": "proved",
   "theorems": [
    "C93_any_vector",
    "C93_residual"
   ],
   "note": ""
  },
  {
   "property": "C94",
   "status": "proved",
   "theorems": [
    "C94_misplaced",
    "C94_expected",
    "C94_probability"
   ],
   "note": ""
  },
  {
   "property": "C95",
   "status": "proved",
   "theorems": [
    "C95_tree_law",
    "C95_law",
    "C95_energy",
    "C95_cuts"
   ],
   "note": ""
  },
  {
   "property": "C96",
   "status": "proved",
   "theorems": [
    "C96_average",
    "C96_weighted_sum",
    "C96_all_cuts",
    "C96_connected",
    "C96_mean_weight",
    "C96_erdos_renyi_connected",
    "C96_erdos_renyi_edges"
   ],
   "note": ""
  },
  {
   "property": "C97",
   "status": "proved",
   "theorems": [
    "C97_eigenvalue",
    "C97_expected",
    "C97_probability",
    "C97_misplaced",
    "C97_regular"
   ],
   "note": ""
  },
  {
   "property": "C98",
   "status": "proved",
   "theorems": [
    "C98_eigenvalue",
    "C98_recovery",
    "C98_labels",
    "C98_erdos_renyi"
   ],
   "note": ""
  },
  {
   "property": "C99",
   "status": "proved",
   "theorems": [
    "C99_conductance",
    "C99_cheeger",
    "C99_local_cluster"
   ],
   "note": ""
  },
  {
   "property": "C100",
   "status": "proved",
   "theorems": [
    "C100_range",
    "C100_one",
    "C100_misplaced",
    "C100_balanced",
    "C100_spectral",
    "C100_expected"
   ],
   "note": ""
  },
  {
   "property": "C101",
   "status": "proved",
   "theorems": [
    "C101_accuracy",
    "C101_same_partition",
    "C101_symmetric",
    "C101_renaming",
    "C101_invalid_refused",
    "C101_undefined",
    "C101_undefined_nan",
    "C101_one_cluster_refuted"
   ],
   "note": ""
  },
  {
   "property": "C102",
   "status": "proved",
   "theorems": [
    "C102_no_gap",
    "C102_largest_eigenvalue",
    "C102_default_iterations",
    "C102_single_row",
    "C102_graph_matrices"
   ],
   "note": ""
  }
 ]
}