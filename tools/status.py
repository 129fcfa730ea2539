PARTIAL={
'C81':'All interleavings of single accesses, any arithmetic: the caches and the edges are free of races (C81_races_partial), no deadlock, no infinite run, every chunk once, result as in C54 (generator draws taken as atomic). Missing and refuted: all threads draw from the unsynchronised global generator, so that a data race is reachable with 2 threads and more than 4 points (C81_generator_race_refuted).',
'C90':'All interleavings of single accesses to the members, any arithmetic. Proved when each kind of query was made once before by one thread, and for the queries that compute no matrix. Missing and refuted: the first query that needs a matrix stores it without a lock, so that two threads race (C90_cold_refuted, every graph) and one can be told a wrong degree (C90_wrong_answer_refuted).',
'C89':'All entries of all four matrices, with explicit error bounds. Missing and refuted: exact symmetry of the normalised Laplacian when the weights are not all one, (d_u^-1/2 w) d_v^-1/2 and (d_v^-1/2 w) d_u^-1/2 are rounded differently (C89_symmetric_refuted); weights near the overflow threshold (C89_overflow_refuted); the inverse degree of an isolated vertex is infinite (C89_isolated_inverse_refuted).',
'C86':'Over the reals with an exact eigensolver. Proved unless the second vector returned is a multiple of the vector of the square roots of the degrees. Missing and refuted: that case, which the eigensolver is free to produce (C86_disconnected_refuted).',
'C84':'Over the reals with an exact eigensolver. Proved when every component is regular (all k up to 10000, and every k for which the generator does not deliver the word 2^32-1). Missing and refuted: components with different degrees, because the rows of the embedding are not normalised as in the algorithm of Ng, Jordan and Weiss that the documentation cites (C84_irregular_refuted).',
'C83':'All histories: construction data kept, moved-to objects, copies while the original lives, exact estimators and E2LSH. Missing and refuted: a copy of a CKNS estimator still points into the original; after the original is destroyed or overwritten every query of the copy reads freed memory (C83_copies_refuted).',
'C82':'All interleavings of single accesses, any arithmetic: the grid of hash units is free of races (C82_races_partial), no deadlock, no infinite run, exact contents of all cells. Missing and refuted: the hash functions are drawn from the unsynchronised global generator; with the default parameters and 6002 points a race is reachable (C82_generator_race_refuted).',
'C80':'Over the reals. Proved for n a power of two and densities large compared with 1/(n eps^4.3) (C80_large_densities_partial; explicit error bound for every density in C80_accuracy). The documented guarantee for all densities >= min_mu is refuted: if n is not a power of two the answer can be 0 always (C80_zero_refuted), and with four points no answer is within 1 +- eps for any eps < 1/3 (C80_relative_error_refuted). The documented default eps = 0.5 is 1 in the code (C80_default_epsilon_refuted).',
'C65':'Over the reals. Monotone on [0,1) and on [1,oo) (C65_monotone_partial); not across c=1, where the formula changes (C65_monotone_refuted). The documented density is off by a factor 2 (C65_documented_density_refuted). That the projection of the difference is Gaussian with deviation c is not modelled.',
'C66':'Over the reals; proved where one hash function collides at the radius with probability at least 2^-phi (and away from the jump of C65 at distance 1); refuted for small kernel parameters (C66_detection_refuted). Detection probability as computed by E2LSH::collision_probability.',
'C55':'Proved for rows as described by row_text, for fields other than the last and non-empty matrices; a malformed last field is dropped, mixed separators lose values, a malformed field raises invalid_argument instead of the documented runtime_error, matrices without rows or columns change shape, entries are rounded to six digits (C55_..._refuted). Text/number conversion abstract.',
'C53':'Proved for at least one hardware thread in any arithmetic with exp >= 0: weights k(x_i,x_j) where above 1e-10. The documented complete graph without self-loops is refuted: every vertex has a self-loop (C53_self_loops_refuted), far points are not connected (C53_missing_edges_refuted), no hardware threads is undefined (C53_no_hardware_threads_refuted).',
'C77':'The exact expectation is proved for every data set of up to twice the node cutoff, and the sampling probabilities for every tree; the claim that it is 4/5 of the kernel for every pair is refuted: the leaf total leaves out one point (n_node = max_idx - min_idx), so the last points of a leaf are cut off. Exact reals; draws independent by definition of the distribution.',
'C54':'Slots for every schedule in any arithmetic; samples, symmetry and weights over the reals, for at least one thread and a node cutoff of at least 2; absence of undefined behaviour up to twice the node cutoff, refuted for larger sets of equal points (C54_equal_points_refuted) and fewer than 2 points (C54_too_few_points_refuted). The race on the global generator is in C81, rounding (up to the node cutoff) in C88.',
'C49':'Proved for at least one hardware thread, in any arithmetic; hardware_concurrency() = 0 is undefined behaviour (C49_no_hardware_threads_refuted). Value over the reals.',
'C50':'Matrix queries in any arithmetic (at least one thread and one copy); construction order in exact arithmetic; refuted for no threads and for one data point (C50_no_hardware_threads_refuted, C50_single_point_refuted). Data race on the global generator in the construction not modelled: the hash functions are a parameter.',
'C60':'Proved over the reals for points different from the query and up to rounding the sample count down; points equal to the query are dropped (C60_identical_points_refuted), the outer shell can get no sample (C60_outer_shell_doubles_refuted).',
'C46':'Proved for coin tossing (exact=true, small clusters, or probability >= 1/2) in any arithmetic; the approximate sampler can give weight 2 to a pair (C46_repeated_edge_refuted), and sbm(n,k) has k*floor(n/k) vertices (C46_vertex_count_refuted). Integers unbounded.',
'C42':'Answers proved for sorted files whose last line is a node line and whose comments contain no colon; a comment with a colon can hide a vertex (C42_comment_with_colon_refuted). Cache independence is proved for every file.',
'C43':'Proved for every id except -1 (the sentinel id; C43_minus_one_refuted).',
'C44':'Proved for files ending in a node line (number of probes logarithmic in the size); otherwise the search can hang (C44_trailing_line_refuted).',
'C45':'Proved without self-loops for degree_unweighted and for a non-empty graph, weights that survive printing; degree in exact arithmetic (C45_self_loop_degree_unweighted_refuted, C45_empty_graph_refuted).',
'C34':'Off-diagonal weights and vertex count proved; the weight of a self-loop line is counted twice (C34_self_loop_effect, C34_self_loop_refuted). Weights not above 1e-10 are dropped; text/number conversion abstract.',
'C35':'Proved without self-loops, trailing isolated vertices, and weights needing more than six digits; each of these is lost by the code (C35_round_trip_refuted).',
'C36':'Proved without trailing isolated vertices and weights needing more than six digits; these are lost (C36_round_trip_refuted).',
'C40':'Proved without self-loops; their weight doubles (C40_self_loop_refuted).',
'C41':'Proved for the malformed lines described by malformed_edge / malformed_adj; outcomes of every file classified; junk weights and fourth fields are accepted, ids beyond int raise out_of_range, negative weights domain_error, negative neighbours are UB (refutations).',
'C03':'Proved for exact arithmetic when every weight is 0 or above 1e-10; refuted for IEEE doubles (C03_laplacian_round_trip_doubles_refuted): rounding of a column sum of D-A makes the constructor throw. In doubles it holds for integer weights (C67_integer_laplacian_round_trip).',
'C06':'Proved for u<>v; add_edge(u,u,w) adds 2w (C06_add_self_loop_effect, refutation C06_add_edge_self_loop_refuted).',
'C10':'Proved when no stored weight is zero; add_edge(u,v,0) makes the count wrong (C10_number_of_edges_zero_weight_refuted).',
'C15':'Entries proved; column sums are 1 only for vertices without self-loop (C15_column_stochastic_refuted otherwise); inverse degree of an isolated vertex is +inf, not 0 (C15_inverse_degree_isolated_refuted).',
'C19':'Proved when vertex 0 of the second graph is not isolated; the code loses vertices otherwise (C19_disjoint_union_refuted).',
'C28':'Proved when the set contains no self-loop; a self-loop is counted once by conductance() but twice by degree() (C28_self_loop_refuted).',
'C30':'Proved for at most 77936 points (beyond that int64 can overflow, C30_overflow_refuted); real arithmetic with NaN as None; identical one-cluster labelings give NaN (C30_one_cluster_refuted).',
'C70':'Conversions and saves proved; sort_edgelist keeps all edge lines in the file or a temporary file, but the file itself is missing between two steps (C70_sorted_file_missing_refuted), and a torn save can load without complaint as another graph (C70_torn_save_refuted).',
'C71':'Proved for the loads, saves, copy and sort; refuted for adjacencylist_to_edgelist (empties the output), edgelist_to_adjacencylist (ignores an unwritable output, leaves its temporary file), general_sbm_edgelist (header written before the parameters are checked) and conversions in place.',
'C72':'Proved when the temporary names differ; std::rand is never seeded, so two processes choose the same names and can lose both files (C72_same_temporary_names_refuted).',
'C74':'Within one cluster M is n^2/2, not the number n(n-1)/2 of pairs, so the mean is too large (C74_expected_edges_refuted); edges are counted with multiplicity.',
'C73':'stag_adj2edge without self-loops (C40); failures of the library functions are uncaught exceptions, not statuses (C73_uncaught_exception_refuted, C73_sbm_arguments_refuted).',
}
NA={}
NOTE={
'C58':'Labels, refusal and unchanged graph in any arithmetic; sweep set over the reals without isolated vertices. With an isolated vertex the doubles handed to std::stable_sort contain a NaN (C58_isolated_vertex_doubles_refuted).',
'C64':'Over the reals, given an eigensolver that returns exact eigenpairs.',
'C57':'Labels in any arithmetic; Lloyd characterisation over the reals (k <= 21474836). The generator is modelled exactly; its random integers can equal the excluded bound (C57_randint_exclusive_refuted), not for the seed 42 used here.',
'C51':'For arbitrary hash functions, hence also for wrap-around 64-bit hashes; any arithmetic.',
'C52':'Valid range, order and bound in any arithmetic; exact thresholds over the reals.',
'C59':'At least one worker; with none nothing runs (C59_no_workers_refuted). Single owner thread that pushes, waits for futures and stops; sequentially consistent memory.',
'C47':'Integers unbounded.',
'C48':'Exact arithmetic; ids fit in int, the number 1 prints as 1.',
'C37':'Comments after the first edge line are dropped (header comments are kept), blank lines are appended; the debug asserts of the function are off.',
'C38':'For weights that survive printing with six digits.',
'C39':'For weights that survive printing with six digits.',
'C24':'Exact arithmetic; C24_self_loop_refuted shows the no-self-loop hypothesis of the property is needed.',
'C25':'Post-condition for any arithmetic including doubles; non-negativity and approximation error in exact arithmetic.',
'C26':'Exact arithmetic; alpha=0 diverges (C26_alpha_zero_diverges).',
'C27':'Exact arithmetic.',
'C31':'Real arithmetic; the iteration order of the hash maps is arbitrary.',

'C01':'Generic in the number type; instantiated at IEEE binary64.',
'C13':'Exact arithmetic (rationals, reals); rounding errors in doubles: C67.',
'C11':'Exact arithmetic; rounding errors in doubles: C67.',
'C68':'Real arithmetic, canonical samples uniform on a grid of N points; the approximate sampler (large clusters, small probability, exact=false) is not covered: it has another distribution (C46_repeated_edge_refuted).',
'C67':'Binary64 arithmetic (Coq.Floats.SpecFloat), reasoned about with Flocq.',
'C69':'Process view: characters reach the file in order; two names are two files (no links); a file that exists can be read.',
'C14':'Over the real numbers, because of the square roots.',
}
