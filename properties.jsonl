{"id": "C01", "title": "Graph built from an adjacency matrix keeps every weight", "statement": "Constructing a Graph from a symmetric matrix with no negative entry succeeds, and the resulting graph has one vertex per column and an edge weight between i and j equal to the matrix coefficient when it exceeds the tolerance 1e-10 and 0 otherwise; in particular weights above the tolerance are never altered.", "quantifier": "every square symmetric sparse matrix of any size and any non-negative values", "why_tests_cant": "the claim ranges over all matrices; tests sample a few", "anchors": ["stag_lib/graph.cpp:adjacency_from_adj_or_lap", "stag_lib/graph.cpp:Graph::Graph"]}
{"id": "C02", "title": "A constructed Graph is undirected; asymmetric input is refused", "statement": "If the Graph constructor returns then the adjacency matrix of the graph is symmetric; if the (non-negative) input matrix is asymmetric the constructor throws domain_error and no Graph exists. The CSC-vector constructor additionally throws invalid_argument when the three vectors are inconsistent.", "quantifier": "every matrix and every triple of CSC vectors", "why_tests_cant": "unbounded inputs", "anchors": ["stag_lib/graph.cpp:Graph::Graph", "stag_lib/graph.cpp:Graph::self_test_", "stag_lib/utility.cpp:isSymmetric", "stag_lib/utility.cpp:sprsMatFromVectors"]}
{"id": "C03", "title": "Laplacian round trip", "statement": "Graph(g.laplacian()->...) is the same graph as g: passing the Laplacian of a graph to the constructor recovers its adjacency matrix, including self-loops, provided all weights exceed the tolerance.", "quantifier": "every weighted undirected graph with positive weights", "why_tests_cant": "requires exactness for all graphs; rounding makes it fail only for particular weights", "anchors": ["stag_lib/graph.cpp:adjacency_from_adj_or_lap", "stag_lib/graph.cpp:Graph::initialise_laplacian_"]}
{"id": "C04", "title": "A matrix that is neither an adjacency matrix nor a Laplacian is refused", "statement": "If the input matrix contains a negative entry and also either a non-negative stored off-diagonal entry or a column with negative sum, the constructor throws domain_error.", "quantifier": "every square sparse matrix", "why_tests_cant": "unbounded inputs", "anchors": ["stag_lib/graph.cpp:adjacency_from_adj_or_lap"]}
{"id": "C05", "title": "Symmetry is invariant under every history", "statement": "After any sequence of add_edge, remove_edge and matrix/degree queries on a graph, the adjacency matrix is square, has number_of_vertices columns and is symmetric.", "quantifier": "every initial graph and every finite sequence of calls with non-negative vertex ids", "why_tests_cant": "histories are unbounded", "anchors": ["stag_lib/graph.cpp:Graph::add_edge", "stag_lib/graph.cpp:Graph::remove_edge"]}
{"id": "C06", "title": "add_edge changes exactly one edge", "statement": "add_edge(i,j,w) makes the graph large enough to contain i and j, increases the weight of edge {i,j} by w and changes no other weight and no other vertex count.", "quantifier": "every graph, every pair of non-negative ids, every weight", "why_tests_cant": "frame property over all other vertex pairs", "anchors": ["stag_lib/graph.cpp:Graph::add_edge"]}
{"id": "C07", "title": "remove_edge removes exactly one edge", "statement": "remove_edge(i,j) sets the weight of {i,j} to zero in both directions, keeps every other weight and the number of vertices, and is a no-op when i or j is not a vertex. Stored zeros disappear.", "quantifier": "every graph and every pair of non-negative ids", "why_tests_cant": "frame property over all other vertex pairs", "anchors": ["stag_lib/graph.cpp:Graph::remove_edge"]}
{"id": "C08", "title": "Matrices are never stale", "statement": "After any sequence of add_edge, remove_edge and queries, each of laplacian(), signless_laplacian(), normalised_laplacian(), normalised_signless_laplacian(), degree_matrix(), inverse_degree_matrix() and lazy_random_walk_matrix() returns the matrix of the current adjacency matrix, i.e. what a freshly constructed graph with that adjacency matrix would return.", "quantifier": "every history of mutating calls and queries in every order", "why_tests_cant": "cache bugs appear only for particular interleavings of queries and updates", "anchors": ["stag_lib/graph.cpp:Graph::add_edge", "stag_lib/graph.cpp:Graph::remove_edge", "stag_lib/graph.cpp:Graph::initialise_laplacian_", "stag_lib/graph.cpp:Graph::initialise_degree_matrix_"]}
{"id": "C09", "title": "has_self_loops is exact", "statement": "After any history, has_self_loops() returns true iff some vertex has a non-zero diagonal weight (for positive weights).", "quantifier": "every history", "why_tests_cant": "unbounded histories", "anchors": ["stag_lib/graph.cpp:Graph::has_self_loops", "stag_lib/graph.cpp:Graph::add_edge", "stag_lib/graph.cpp:Graph::remove_edge", "stag_lib/graph.cpp:Graph::Graph"]}
{"id": "C10", "title": "number_of_edges counts undirected edges", "statement": "number_of_edges() equals the number of unordered pairs {i,j}, i=j included, with non-zero weight.", "quantifier": "every graph reachable by any history of positive-weight updates", "why_tests_cant": "counts over all graphs; parity and the diagonal are easy to get wrong only for certain shapes", "anchors": ["stag_lib/graph.cpp:Graph::number_of_edges"]}
{"id": "C11", "title": "Degrees, total volume and average degree", "statement": "degree(v) is the sum of the weights of the edges at v with self-loops counted twice, total_volume() is the sum of all degrees (equal to twice the total edge weight with self-loops counted once), average_degree() is total volume over the number of vertices.", "quantifier": "every graph and vertex", "why_tests_cant": "universally quantified sums", "anchors": ["stag_lib/graph.cpp:Graph::degree", "stag_lib/graph.cpp:Graph::total_volume", "stag_lib/graph.cpp:Graph::average_degree", "stag_lib/graph.cpp:Graph::initialise_degree_matrix_"]}
{"id": "C12", "title": "Local queries are exact and reject bad vertices", "statement": "neighbors(v) lists every u with non-zero weight exactly once with that weight and nothing else; neighbors_unweighted and degree_unweighted agree with it when no explicit zero is stored; for an id that is not a vertex every one of these calls throws invalid_argument.", "quantifier": "every graph, every int64 vertex id", "why_tests_cant": "completeness over all vertices", "anchors": ["stag_lib/graph.cpp:Graph::neighbors", "stag_lib/graph.cpp:Graph::neighbors_unweighted", "stag_lib/graph.cpp:Graph::degree_unweighted", "stag_lib/graph.cpp:Graph::check_vertex_argument"]}
{"id": "C13", "title": "The Laplacian is the Laplacian", "statement": "laplacian() = D - A entrywise and signless_laplacian() = D + A; x'Lx is the weighted sum over edges of (x_u-x_v)^2 plus self-loop terms, hence the Laplacian of a graph with non-negative weights is positive semidefinite; without self-loops every row sums to zero.", "quantifier": "every graph, every vector x", "why_tests_cant": "real-valued universally quantified inequality", "anchors": ["stag_lib/graph.cpp:Graph::initialise_laplacian_", "stag_lib/graph.cpp:Graph::initialise_signless_laplacian_"]}
{"id": "C14", "title": "Normalised Laplacians", "statement": "normalised_laplacian()(u,v) = [u=v] - w(u,v)/sqrt(d(u)d(v)) (the second term being 0 when w(u,v) = 0, in particular for isolated vertices), the signless version has + instead, and both are positive semidefinite with quadratic forms at most twice the squared norm.", "quantifier": "every graph with positive weights, isolated vertices included, every vector", "why_tests_cant": "real-valued universal statement", "anchors": ["stag_lib/graph.cpp:Graph::initialise_normalised_laplacian_", "stag_lib/graph.cpp:Graph::initialise_normalised_signless_laplacian_"]}
{"id": "C15", "title": "Lazy random walk matrix", "statement": "lazy_random_walk_matrix() is column-stochastic with entries 1/2 [u=v] + w(u,v)/(2 d(v)), and inverse_degree_matrix is diag(1/d), 0 for an isolated vertex as documented.", "quantifier": "every graph", "why_tests_cant": "universal over graphs; isolated vertices and self-loops are corner cases", "anchors": ["stag_lib/graph.cpp:Graph::initialise_lazy_random_walk_matrix_", "stag_lib/graph.cpp:Graph::initialise_inverse_degree_matrix_"]}
{"id": "C16", "title": "Graph equality", "statement": "g == h iff g and h have the same number of vertices and the same weight between every pair of vertices (for graphs storing no explicit zero); operator!= is its negation.", "quantifier": "every pair of graphs", "why_tests_cant": "ranges over all pairs", "anchors": ["stag_lib/graph.cpp:operator==", "stag_lib/graph.cpp:operator!="]}
{"id": "C17", "title": "Graph addition and scaling", "statement": "g+h has the sum of the weights on every pair of vertices, throws invalid_argument when the sizes differ; scalar*g multiplies every weight; both keep the number of vertices.", "quantifier": "all pairs of graphs and all positive scalars", "why_tests_cant": "universally quantified", "anchors": ["stag_lib/graph.cpp:operator+", "stag_lib/graph.h:operator*"]}
{"id": "C18", "title": "Induced subgraph", "statement": "subgraph(S) has one vertex per distinct element of S, in order of first occurrence, and the weight between the k-th and l-th new vertex is the weight between the corresponding old vertices; a non-vertex in S throws invalid_argument.", "quantifier": "every graph and vertex list", "why_tests_cant": "universally quantified", "anchors": ["stag_lib/graph.cpp:Graph::subgraph"]}
{"id": "C19", "title": "Disjoint union", "statement": "disjoint_union(g,h) has |g|+|h| vertices; weights inside the first |g| vertices are g's, inside the last |h| are h's, and no edge crosses.", "quantifier": "every pair of graphs", "why_tests_cant": "loses vertices only for particular shapes of the second graph", "anchors": ["stag_lib/graph.cpp:Graph::disjoint_union"]}
{"id": "C20", "title": "Standard graphs", "statement": "cycle_graph(n), complete_graph(n), star_graph(n), barbell_graph(n) and identity_graph(n) return valid graphs with exactly the documented weights for every legal n, and throw invalid_argument for n below the documented minimum.", "quantifier": "every n", "why_tests_cant": "unbounded n", "anchors": ["stag_lib/graph.cpp:stag::cycle_graph", "stag_lib/graph.cpp:stag::complete_graph", "stag_lib/graph.cpp:stag::barbell_graph", "stag_lib/graph.cpp:stag::star_graph", "stag_lib/graph.cpp:stag::identity_graph"]}
{"id": "C21", "title": "Sparse matrix utilities", "statement": "isSymmetric(M) holds iff all coefficients agree with the transpose; sprsMatFromVectors inverts the extraction of the three CSC vectors; sprsMatToVec returns the length-n dense column and rejects bad dimensions; addVectors returns the elementwise sum.", "quantifier": "every matrix and vector", "why_tests_cant": "universally quantified", "anchors": ["stag_lib/utility.cpp:isSymmetric", "stag_lib/utility.cpp:sprsMatToVec", "stag_lib/utility.cpp:sprsMatFromVectors", "stag_lib/utility.h:addVectors"]}
{"id": "C22", "title": "connected_component is reachability", "statement": "connected_component(g,v) terminates and returns, without duplicates, exactly the vertices reachable from v by a path of edges.", "quantifier": "every graph and start vertex", "why_tests_cant": "reachability over all graphs; traversal order is data dependent", "anchors": ["stag_lib/cluster.cpp:connected_component"]}
{"id": "C23", "title": "connected_components partitions the graph", "statement": "connected_components(g) returns non-empty pairwise disjoint lists covering all vertices; two vertices are in one list iff they are connected; is_connected() is true iff every two vertices are connected (non-empty graph).", "quantifier": "every graph", "why_tests_cant": "universally quantified", "anchors": ["stag_lib/cluster.cpp:connected_components", "stag_lib/graph.cpp:Graph::is_connected"]}
{"id": "C24", "title": "Personalised PageRank invariant", "statement": "At every point of approximate_pagerank, p + ppr_alpha(r) = ppr_alpha(s) for the lazy random walk PageRank operator; consequently the total mass of p and r equals that of s.", "quantifier": "every local graph without self-loops, every seed, alpha, epsilon and every number of pushes", "why_tests_cant": "loop invariant over unbounded pushes", "anchors": ["stag_lib/cluster.cpp:push", "stag_lib/cluster.cpp:approximate_pagerank"]}
{"id": "C25", "title": "Approximate PageRank post-condition", "statement": "When approximate_pagerank(g,s,alpha,eps) returns (p,r), every vertex u satisfies r(u) < eps*deg(u) (or r(u)=0), and both vectors are non-negative.", "quantifier": "every local graph, seed vector, alpha, epsilon", "why_tests_cant": "universal over all graphs", "anchors": ["stag_lib/cluster.cpp:approximate_pagerank", "stag_lib/cluster.cpp:push"]}
{"id": "C26", "title": "Approximate PageRank terminates", "statement": "For alpha in (0,1], epsilon>0 and vertices of degree at least 1, approximate_pagerank performs at most |s|/(alpha*eps) pushes (ACL bound on degrees), so it always terminates; alpha=0 gives no such guarantee.", "quantifier": "every local graph, even infinite", "why_tests_cant": "termination and work bound cannot be tested", "anchors": ["stag_lib/cluster.cpp:approximate_pagerank"]}
{"id": "C27", "title": "sweep_set_conductance is optimal among prefixes", "statement": "sweep_set_conductance(g,x) returns a prefix of the stored entries of x ordered by decreasing value (ties by index) whose conductance w(S,V-S)/min(vol S, vol V-S) (w(S,V-S)/vol S for a local graph) is minimal among all non-empty prefixes with positive denominator.", "quantifier": "every graph and vector", "why_tests_cant": "optimality over all prefixes", "anchors": ["stag_lib/cluster.cpp:sweep_set_conductance_inner", "stag_lib/cluster.cpp:sweep_set_conductance"]}
{"id": "C28", "title": "conductance", "statement": "conductance(g,S) = w(S, complement)/vol(S) for every duplicate-free set S of vertices with positive volume, and is 0 for the empty set.", "quantifier": "every local graph and set", "why_tests_cant": "universal", "anchors": ["stag_lib/cluster.cpp:conductance"]}
{"id": "C29", "title": "local_cluster: locality, optimality over the sweep and volume", "statement": "local_cluster(g,v,target) returns distinct vertices explored by the random walk from v (hence in v's component), namely the prefix of smallest conductance of the sweep over the approximate personalised PageRank vector with teleport probability 0.01 and error 1/target; their total volume is at most 2*target/0.99, so the work and the output are governed by the target and not by the size of the graph; it terminates; a seed that is not in the graph or a non-positive target throws invalid_argument.", "quantifier": "every graph (in memory, implicit or on disk), seed, target volume", "why_tests_cant": "universal", "anchors": ["stag_lib/cluster.cpp:local_cluster", "stag_lib/cluster.cpp:local_cluster_acl"]}
{"id": "C30", "title": "Adjusted Rand index", "statement": "adjusted_rand_index(gt,labels) equals the Hubert-Arabie pair-counting formula, is symmetric in its arguments, invariant under renaming of labels, equals 1 for labelings inducing the same (non-trivial) partition; inputs of different length or with negative labels throw invalid_argument.", "quantifier": "every pair of label vectors", "why_tests_cant": "universal; overflow for large n", "anchors": ["stag_lib/cluster.cpp:adjusted_rand_index", "stag_lib/cluster.cpp:contingency_table"]}
{"id": "C31", "title": "Mutual information", "statement": "mutual_information equals the textbook sum over label pairs, is symmetric and invariant under label renaming, non-negative and at most either entropy; normalised_mutual_information is the ratio by the mean entropy.", "quantifier": "every pair of label vectors", "why_tests_cant": "universal real inequality", "anchors": ["stag_lib/cluster.cpp:mutual_information", "stag_lib/cluster.cpp:normalised_mutual_information"]}
{"id": "C32", "title": "symmetric_difference", "statement": "symmetric_difference(S,T) lists in ascending order exactly the vertices in one of S,T but not both, after removing duplicates of each.", "quantifier": "every pair of lists", "why_tests_cant": "universal", "anchors": ["stag_lib/cluster.cpp:symmetric_difference"]}
{"id": "C33", "title": "Line endings do not matter", "statement": "Reading a text with safeGetline yields the same lines whether lines end in LF, CRLF or CR, and the last line may or may not be terminated.", "quantifier": "every text", "why_tests_cant": "all byte strings", "anchors": ["stag_lib/utility.cpp:safeGetline"]}
{"id": "C34", "title": "load_edgelist semantics", "statement": "load_edgelist returns the graph whose weight {u,v} is the sum of the weights of the lines naming u and v in either order (weight 1 when omitted); comment and blank lines and the field separator are irrelevant; the number of vertices is the largest id plus one.", "quantifier": "every well-formed edge list file", "why_tests_cant": "all files", "anchors": ["stag_lib/graphio.cpp:load_edgelist", "stag_lib/graphio.cpp:parse_edgelist_content_line"]}
{"id": "C35", "title": "Edge list round trip", "statement": "load_edgelist(save_edgelist(g)) == g.", "quantifier": "every graph", "why_tests_cant": "self-loops, isolated vertices, weights needing more than six digits are silently lost", "anchors": ["stag_lib/graphio.cpp:save_edgelist", "stag_lib/graphio.cpp:load_edgelist"]}
{"id": "C36", "title": "Adjacency list round trip", "statement": "load_adjacencylist(save_adjacencylist(g)) == g.", "quantifier": "every graph", "why_tests_cant": "trailing isolated vertices lost", "anchors": ["stag_lib/graphio.cpp:save_adjacencylist", "stag_lib/graphio.cpp:load_adjacencylist"]}
{"id": "C37", "title": "sort_edgelist sorts", "statement": "sort_edgelist leaves in the file the same content lines ordered by first vertex id (stable), with the same header comments, and terminates.", "quantifier": "every edge list file", "why_tests_cant": "on-disk quicksort: all inputs, all interval shapes", "anchors": ["stag_lib/graphio.cpp:sort_edgelist"]}
{"id": "C38", "title": "copy_edgelist_duplicate_edges", "statement": "Every edge line of the input is replaced, in the original order, by one line naming the edge and one naming it reversed (so a self-loop appears twice); comment and blank lines are kept.", "quantifier": "every well-formed edge list file", "why_tests_cant": "all files", "anchors": ["stag_lib/graphio.cpp:copy_edgelist_duplicate_edges"]}
{"id": "C39", "title": "edgelist_to_adjacencylist preserves the graph", "statement": "Converting an edge list to an adjacency list on disk and loading it gives the same neighbours and weights as the edge list, with the node lines in ascending order.", "quantifier": "every edge list file without self-loops", "why_tests_cant": "composition of copying, on-disk sort and regrouping", "anchors": ["stag_lib/graphio.cpp:edgelist_to_adjacencylist"]}
{"id": "C40", "title": "adjacencylist_to_edgelist preserves the graph", "statement": "Converting an adjacency list to an edge list and loading it gives the same graph.", "quantifier": "every adjacency list of an undirected graph", "why_tests_cant": "self-loops break it", "anchors": ["stag_lib/graphio.cpp:adjacencylist_to_edgelist"]}
{"id": "C41", "title": "Malformed graph files raise runtime_error", "statement": "Loading an edge list or adjacency list with a malformed content line throws runtime_error and no other exception, and a file with only well-formed lines does not throw.", "quantifier": "every file", "why_tests_cant": "all byte strings", "anchors": ["stag_lib/graphio.cpp:parse_edgelist_content_line", "stag_lib/graphio.cpp:load_edgelist", "stag_lib/graphio.cpp:parse_adjacencylist_content_line", "stag_lib/graphio.cpp:load_adjacencylist"]}
{"id": "C42", "title": "Local graph on disk answers neighbour queries exactly", "statement": "For an adjacency list file with ascending node ids, AdjacencyListLocalGraph::neighbors(v) returns the edges on the line of v, after any history of previous queries (caches never change answers).", "quantifier": "every sorted adjacency list file, every query history", "why_tests_cant": "byte-level binary search with two caches", "anchors": ["stag_lib/graph.cpp:AdjacencyListLocalGraph::find_vertex", "stag_lib/graph.cpp:AdjacencyListLocalGraph::neighbors", "stag_lib/graph.cpp:AdjacencyListLocalGraph::goto_next_content_line"]}
{"id": "C43", "title": "Local graph on disk: missing vertices", "statement": "For a vertex with no line in the file, neighbors throws runtime_error and vertex_exists returns false; for a vertex with a line vertex_exists returns true.", "quantifier": "every sorted file, every id, every history", "why_tests_cant": "all absent ids", "anchors": ["stag_lib/graph.cpp:AdjacencyListLocalGraph::find_vertex", "stag_lib/graph.cpp:AdjacencyListLocalGraph::vertex_exists"]}
{"id": "C44", "title": "Local graph on disk: search terminates", "statement": "find_vertex terminates within logarithmically many probes of the file size.", "quantifier": "every file and id", "why_tests_cant": "termination", "anchors": ["stag_lib/graph.cpp:AdjacencyListLocalGraph::find_vertex"]}
{"id": "C45", "title": "Local graph on disk agrees with the in-memory graph", "statement": "degree, neighbors, degree_unweighted and vertex_exists of AdjacencyListLocalGraph on the saved adjacency list of g agree with those of g.", "quantifier": "every graph, vertex", "why_tests_cant": "composition of writer and reader", "anchors": ["stag_lib/graph.cpp:AdjacencyListLocalGraph::degree", "stag_lib/graph.cpp:AdjacencyListLocalGraph::degree_unweighted", "stag_lib/graphio.cpp:save_adjacencylist"]}
{"id": "C46", "title": "SBM graphs are simple undirected graphs", "statement": "sbm, general_sbm and erdos_renyi return, for every outcome of the random generator, a graph with symmetric 0/1 weights, no self-loop and the requested number of vertices; with exact=true (or small clusters) each pair of vertices is decided by its own random sample against the probability of its two clusters; probability 1 (resp. 0) gives all (resp. none) of the pairs. Parameters out of range throw invalid_argument.", "quantifier": "every parameter vector, every random stream and every generator", "why_tests_cant": "all random outcomes", "anchors": ["stag_lib/random.cpp:general_sbm_internal", "stag_lib/random.cpp:sample_edges_directly", "stag_lib/random.cpp:sample_edges_binomial", "stag_lib/random.cpp:sbm", "stag_lib/random.cpp:erdos_renyi"]}
{"id": "C47", "title": "SBM ground truth labels", "statement": "sbm_gt_labels / general_sbm_gt_labels give vertex v the index of the cluster whose consecutive block contains v, the same cluster the generator uses for v; a size below 1 throws invalid_argument.", "quantifier": "all cluster size vectors", "why_tests_cant": "universal", "anchors": ["stag_lib/random.cpp:sbm_gt_labels", "stag_lib/random.cpp:general_sbm_gt_labels"]}
{"id": "C48", "title": "SBM to file equals SBM in memory", "statement": "general_sbm_edgelist writes exactly the edges that general_sbm would produce from the same random state (and leaves the generator in the same state), so that load_edgelist of the file has the same edge weights as the graph in memory, and the same number of vertices unless the last vertex is isolated.", "quantifier": "all parameters, streams", "why_tests_cant": "universal", "anchors": ["stag_lib/random.cpp:general_sbm_edgelist", "stag_lib/random.cpp:general_sbm"]}
{"id": "C49", "title": "Exact KDE does not depend on threads", "statement": "ExactGaussianKDE.query(matrix) returns for every row the value query(row) returns, (the average kernel value to the data) for every number of hardware threads and every schedule.", "quantifier": "every data set, query set, thread count, schedule", "why_tests_cant": "schedules and thread counts of the machine", "anchors": ["stag_lib/kde.cpp:ExactGaussianKDE::query", "stag_lib/kde.cpp:gaussian_kde_exact"]}
{"id": "C50", "title": "CKNS KDE queries do not depend on threads", "statement": "For a fixed initialised CKNSGaussianKDE the answer to query(matrix) is, row by row, the answer to query(row), independent of the number of threads, of chunking and of the schedule; and the answers of an estimator do not depend on the schedule of its construction.", "quantifier": "every query set, thread count, schedule", "why_tests_cant": "schedules", "anchors": ["stag_lib/kde.cpp:CKNSGaussianKDE::query", "stag_lib/kde.cpp:CKNSGaussianKDE::chunk_query"]}
{"id": "C51", "title": "E2LSH returns only close candidates and always finds the point itself", "statement": "E2LSH::get_near_neighbors(q) returns exactly the indexed points that share a bucket with q in at least one of the tables, each once per data point, so an indexed point equal to q is always returned.", "quantifier": "every data set, random projection, query", "why_tests_cant": "all random outcomes", "anchors": ["stag_lib/lsh.cpp:E2LSH::get_near_neighbors", "stag_lib/lsh.cpp:MultiLSHFunction::apply", "stag_lib/lsh.cpp:LSHFunction::apply"]}
{"id": "C52", "title": "Exact KDE neighbour sampling", "statement": "sample_neighbors(q, degree, rs) returns for each threshold degree*r (in increasing order of r) the first index whose running kernel sum exceeds it: a valid index, monotone in r; as many results as thresholds when degree is the kernel sum and 0<=r<1.", "quantifier": "every data set, query, thresholds", "why_tests_cant": "universal", "anchors": ["stag_lib/kde.cpp:ExactGaussianKDE::sample_neighbors"]}
{"id": "C53", "title": "similarity_graph", "statement": "similarity_graph(data,a) is the complete weighted graph with weight k(x_i,x_j) between i<>j, no self-loop, independent of the thread count.", "quantifier": "every data set, thread count", "why_tests_cant": "universal", "anchors": ["stag_lib/cluster.cpp:similarity_graph"]}
{"id": "C54", "title": "approximate_similarity_graph edge slots", "statement": "Every sampled edge is written to its own slot of the shared edge array whatever the interleaving of threads, each vertex gets exactly its number of samples, and the graph returned is symmetric.", "quantifier": "every data set, sampling outcome, schedule", "why_tests_cant": "schedules", "anchors": ["stag_lib/cluster.cpp:sample_asg_edges", "stag_lib/cluster.cpp:approximate_similarity_graph", "stag_lib/cluster.cpp:KDETreeEntry::sample_neighbors"]}
{"id": "C55", "title": "CSV matrix files", "statement": "load_matrix on a file whose content lines are rows of numbers separated by commas, by spaces or by tabs returns the matrix with those rows in order; rows of different lengths make it throw runtime_error; a malformed field makes it throw and never yields a matrix; every accepted file yields a fully initialised matrix with one row per content line; load_matrix(save_matrix(M)) has M's dimensions and M's entries as printed.", "quantifier": "every file and every matrix", "why_tests_cant": "all files", "anchors": ["stag_lib/data.cpp:load_matrix", "stag_lib/data.cpp:save_matrix", "stag_lib/data.cpp:parse_numeric_csv_content_line"]}
{"id": "C56", "title": "Eigensystems of graph matrices", "statement": "Given a solver that returns the eigenpairs of largest magnitude of the operator it is passed, compute_eigensystem(g, mat, num, which) returns num eigenpairs of the adjacency, Laplacian or normalised Laplacian matrix of g, with orthonormal vectors, values in decreasing (Largest) or increasing (Smallest) order, and no eigenvalue left out that comes before a returned one; num outside 1..n-1 makes it throw invalid_argument, non-convergence runtime_error; the graph is not changed.", "quantifier": "every graph with positive weights (isolated vertices and self-loops included), matrix, number and order", "why_tests_cant": "universal", "anchors": ["stag_lib/spectrum.cpp:compute_eigensystem", "stag_lib/spectrum.cpp:compute_eigensystem_largestmag", "stag_lib/spectrum.cpp:compute_eigenvectors", "stag_lib/spectrum.cpp:compute_eigenvalues"]}
{"id": "C57", "title": "spectral_cluster labels", "statement": "spectral_cluster(g,k) throws invalid_argument unless 1<=k<=n/2 and otherwise returns one label in [0,k) per vertex, whatever the eigensolver delivers; the labels are a result of Lloyd's algorithm (nearest centres, means, objective never increasing, at most 100k rounds, stopping when the objective no longer changes), started from k of the points, on the rows of the first k eigenvectors of the normalised Laplacian.", "quantifier": "every graph with positive weights, every k", "why_tests_cant": "universal", "anchors": ["stag_lib/cluster.cpp:spectral_cluster", "stag_lib/KMeansRex/KMeansRexCore.cpp:RunKMeans", "stag_lib/KMeansRex/KMeansRexCore.cpp:run_lloyd", "stag_lib/KMeansRex/KMeansRexCore.cpp:sampleRowsPlusPlus", "stag_lib/KMeansRex/KMeansRexCore.cpp:randint"]}
{"id": "C58", "title": "cheeger_cut labels", "statement": "cheeger_cut(g) returns one label, 0 or 1, per vertex whatever vectors the eigensolver delivers, throws only when the eigensystem cannot be computed (invalid_argument below three vertices) and does not change g; on a graph without isolated vertices label 1 is exactly the sweep set: the first proper prefix of least conductance of the vertices in decreasing order of x(v)/sqrt(degree(v)), x a second eigenvector of the normalised Laplacian.", "quantifier": "every graph with positive weights", "why_tests_cant": "universal", "anchors": ["stag_lib/cluster.cpp:cheeger_cut", "stag_lib/cluster.cpp:sweep_set_conductance"]}
{"id": "C59", "title": "Thread pool executes every task exactly once", "statement": "Every task pushed before stop(true) is executed exactly once by one worker and completes before stop(true) returns.", "quantifier": "every number of workers and tasks and every interleaving", "why_tests_cant": "interleavings", "anchors": ["stag_lib/multithreading/ctpl_stl.h:thread_pool::push", "stag_lib/multithreading/ctpl_stl.h:thread_pool::stop", "stag_lib/multithreading/ctpl_stl.h:thread_pool::set_thread"]}
{"id": "C60", "title": "CKNS shells count every data point once", "statement": "In every level of a CKNSGaussianKDE each data point contributes to the estimate at a query through exactly one hash unit, with its kernel value divided by the sampling probability if sampled, so that the estimate is unbiased over the random permutation of the data.", "quantifier": "every data set, query, level, permutation family", "why_tests_cant": "all random outcomes", "anchors": ["stag_lib/kde.cpp:CKNSGaussianKDEHashUnit", "stag_lib/kde.cpp:ckns_p_sampling", "stag_lib/kde.cpp:CKNSGaussianKDE::query"]}
{"id": "C61", "title": "Data points are views of the matrix rows", "statement": "The data points made from a dense matrix read as the rows of the matrix, in order, whatever is stored; a later write to entry (i,j) of the matrix is seen in coordinate j of point i and in no other coordinate or point.", "quantifier": "every matrix shape, memory contents and write", "why_tests_cant": "all shapes and values", "anchors": ["stag_lib/data.cpp:matrix_to_datapoints", "stag_lib/data.cpp:DataPoint::DataPoint", "stag_lib/data.cpp:DataPoint::to_vector"]}
{"id": "C62", "title": "Power method", "statement": "power_method(M, t, x) returns x for t = 0 and otherwise M^t x scaled to norm 1 (or 0 if M^t x = 0); it throws invalid_argument for t < 0, a matrix which is not square or a vector of another length; on a symmetric positive semidefinite matrix the Rayleigh quotient never decreases with t; the angle to the dominant eigenvector shrinks at the rate of the eigenvalue ratio to the power t.", "quantifier": "every square matrix, start vector, number of iterations", "why_tests_cant": "universal", "anchors": ["stag_lib/spectrum.cpp:power_method"]}
{"id": "C63", "title": "Rayleigh quotient", "statement": "rayleigh_quotient(M, x) is x'Mx / x'x; it is the eigenvalue at an eigenvector, invariant under scaling of x, between 0 and twice the largest degree for a graph Laplacian and between 0 and 2 for a normalised Laplacian; it throws invalid_argument on the zero vector and on mismatched dimensions.", "quantifier": "every square matrix and vector, every graph", "why_tests_cant": "universal", "anchors": ["stag_lib/spectrum.cpp:rayleigh_quotient"]}
{"id": "C64", "title": "Cheeger inequality for cheeger_cut", "statement": "On a connected graph without self-loops the set labelled 1 by cheeger_cut has conductance at most sqrt(2*lambda_2) and no proper nonempty vertex set has conductance below lambda_2/2, lambda_2 the second smallest eigenvalue of the normalised Laplacian; so the cut found is at most 2*sqrt(best conductance).", "quantifier": "every connected weighted graph without self-loops, every vertex set", "why_tests_cant": "universal", "anchors": ["stag_lib/cluster.cpp:cheeger_cut", "stag_lib/cluster.cpp:sweep_set_conductance"]}
{"id": "C65", "title": "LSH collision probabilities", "statement": "LSHFunction::collision_probability(c) is the documented probability (the integral over [0,4]) that two points at distance c collide, to within 1/1000; it is 1 at distance 0, strictly between 0 and 1 otherwise and never larger for a larger distance. E2LSH::collision_probability(K,L,c) is 1-(1-p^K)^L, in [0,1], increasing in L and decreasing in K.", "quantifier": "every real distance, every K and L", "why_tests_cant": "a real function of a real variable", "anchors": ["stag_lib/lsh.cpp:LSHFunction::collision_probability", "stag_lib/lsh.cpp:E2LSH::collision_probability", "stag_lib/lsh.cpp:LSHFunction::apply"]}
{"id": "C66", "title": "CKNS hash table parameters", "statement": "The hash tables built for level j of a CKNSGaussianKDE have K>=1 functions and L>=1 tables, and every data point within the level's radius of the query is found with probability at least 1-e^(-K2), that is 1-1/n for the default K2.", "quantifier": "every level, kernel parameter and point", "why_tests_cant": "real parameters and all random outcomes", "anchors": ["stag_lib/kde.cpp:ckns_gaussian_create_lsh_params", "stag_lib/kde.cpp:CKNSGaussianKDEHashUnit"]}
{"id": "C67", "title": "Rounding of degrees, volumes and Laplacians", "statement": "With weights stored as IEEE doubles, degree(v), total_volume() and the Laplacian entries are within one relative rounding error (2^-53) per addition of the exact values as long as nothing overflows; on a graph with non-negative integer weights of total volume at most 2^53 they are exact, average_degree() is the correctly rounded quotient, and the constructor recovers the graph from its Laplacian.", "quantifier": "every graph of finite non-negative doubles reachable by any history", "why_tests_cant": "all doubles", "anchors": ["stag_lib/graph.cpp:Graph::degree", "stag_lib/graph.cpp:Graph::total_volume", "stag_lib/graph.cpp:Graph::average_degree", "stag_lib/graph.cpp:Graph::laplacian", "stag_lib/graph.cpp:Graph::initialise_laplacian_", "stag_lib/graph.cpp:adjacency_from_adj_or_lap"]}
{"id": "C68", "title": "Distribution of random graphs", "statement": "In exact mode (and for every pair of clusters sampled directly) sbm, general_sbm and erdos_renyi include every edge independently with its given probability: over uniform canonical samples the probability of returning a given simple graph is the product over all pairs i<j of p_ij for an edge and 1-p_ij for a non-edge; for erdos_renyi(n,p) it is p^m(1-p)^(n(n-1)/2-m) for each graph with m edges.", "quantifier": "every cluster size vector, probability matrix and target graph", "why_tests_cant": "a statement about a distribution over all random outcomes", "anchors": ["stag_lib/random.cpp:general_sbm", "stag_lib/random.cpp:sbm", "stag_lib/random.cpp:erdos_renyi", "stag_lib/random.cpp:sample_edges_directly"]}
{"id": "C69", "title": "What a call does to the disk", "statement": "load_edgelist, load_adjacencylist and load_matrix change no file and their result depends on the named file only; save_edgelist, save_adjacencylist, save_matrix, the conversions, sort_edgelist and general_sbm_edgelist, when they return normally, have written the named output file and nothing else: no temporary file is left, and the input is untouched unless it is the output. Whatever the outcome, no file other than the named output and temporary files is ever changed.", "quantifier": "every disk contents, file name, graph and outcome", "why_tests_cant": "all disk states and contents", "anchors": ["stag_lib/graphio.cpp:save_edgelist", "stag_lib/graphio.cpp:save_adjacencylist", "stag_lib/graphio.cpp:sort_edgelist", "stag_lib/graphio.cpp:edgelist_to_adjacencylist", "stag_lib/graphio.cpp:adjacencylist_to_edgelist", "stag_lib/graphio.cpp:copy_edgelist_duplicate_edges", "stag_lib/utility.cpp:getTempFilename", "stag_lib/utility.cpp:random_string", "stag_lib/random.cpp:general_sbm_edgelist", "stag_lib/data.cpp:save_matrix"]}
{"id": "C70", "title": "Crash safety of the file functions", "statement": "If the process dies at any point of a call, the input files of the conversions are intact, the output file is either as before or an initial part of the new contents, and a file being sorted in place still exists with all its edges.", "quantifier": "every file and every crash point", "why_tests_cant": "quantifies over all crash points", "anchors": ["stag_lib/graphio.cpp:sort_edgelist", "stag_lib/graphio.cpp:edgelist_to_adjacencylist", "stag_lib/graphio.cpp:adjacencylist_to_edgelist", "stag_lib/graphio.cpp:save_edgelist", "stag_lib/graphio.cpp:save_adjacencylist"]}
{"id": "C71", "title": "Failures leave the disk as it was", "statement": "A missing input, an output that cannot be opened, a malformed line or invalid parameters raise an exception; no file is created, truncated or removed by the failed call.", "quantifier": "every disk, file name and malformed file", "why_tests_cant": "all failure points", "anchors": ["stag_lib/graphio.cpp:load_edgelist", "stag_lib/graphio.cpp:copy_edgelist_duplicate_edges", "stag_lib/graphio.cpp:adjacencylist_to_edgelist", "stag_lib/graphio.cpp:edgelist_to_adjacencylist", "stag_lib/graphio.cpp:sort_edgelist", "stag_lib/random.cpp:general_sbm_edgelist"]}
{"id": "C72", "title": "Concurrent processes do not disturb each other", "statement": "Processes which convert or sort different files at the same time produce, under every interleaving of their file operations, what they produce alone.", "quantifier": "every interleaving of two processes and every pair of files", "why_tests_cant": "all schedules", "anchors": ["stag_lib/graphio.cpp:sort_edgelist", "stag_lib/graphio.cpp:edgelist_to_adjacencylist", "stag_lib/utility.cpp:getTempFilename", "stag_lib/utility.cpp:random_string"]}
{"id": "C73", "title": "Command line tools", "statement": "stag_edge2adj and stag_adj2edge write a file that loads as the graph of the input file and exit with status 0; stag_sbm writes the graph that general_sbm draws for k clusters of n/k vertices; every wrong use is reported with status EINVAL and nothing is written.", "quantifier": "every argument vector and disk", "why_tests_cant": "all argument vectors and files", "anchors": ["stagtools/adj2edge.cpp:main", "stagtools/edge2adj.cpp:main", "stagtools/sbm.cpp:main"]}
{"id": "C74", "title": "Number of edges of approximately sampled random graphs", "statement": "With the default approximate sampling, the number of edges general_sbm draws between two large clusters is a normal sample with mean p*M and variance p(1-p)M, rounded down and cut off to 0..M, where M is the number of vertex pairs of the two clusters, and zero if p*M is below one.", "quantifier": "every block model and generator state", "why_tests_cant": "all generator states and sizes", "anchors": ["stag_lib/random.cpp:sample_edges_binomial", "stag_lib/random.cpp:general_sbm", "stag_lib/random.cpp:general_sbm_internal"]}
{"id": "C75", "title": "Doubles in text files", "statement": "Saving a graph as an edge list or an adjacency list and loading it again keeps the vertices and the edges and changes no weight by more than a relative 5.01e-6; saving and loading the copy changes nothing more. A double between 1e-307 and 1e308 in absolute value is returned exactly if and only if it is the nearest double to a decimal with at most six significant digits. Decimal text is read as the nearest double; inf and nan are recognised; other text is refused.", "quantifier": "every graph of finite doubles with weights from 1.001e-10 to 1e308, a last vertex that is not isolated (and, for edge lists, no self-loop); every double in the range", "why_tests_cant": "all doubles and all graphs", "anchors": ["stag_lib/graphio.cpp:save_edgelist", "stag_lib/graphio.cpp:load_edgelist", "stag_lib/graphio.cpp:save_adjacencylist", "stag_lib/graphio.cpp:load_adjacencylist", "stag_lib/data.cpp:save_matrix", "stag_lib/data.cpp:load_matrix"]}
{"id": "C76", "title": "Local clustering finds a set of small conductance", "statement": "Let C be a set of vertices and let delta be the smallest positive degree. At least half of C, by volume, are good seeds: local_cluster_acl from a good seed, with a locality between 8 phi(C) and 1/4 and an error of at most 1/(8 vol(C)), returns a set whose outer conductance (cut over volume) squared is at most 16 locality ln(4 vol(C)/delta) and whose volume is at most 3/error. In particular local_cluster(graph, seed, target) with target at least 8 vol(C), for a C of conductance at most 1/1000, returns a set of conductance at most sqrt(ln(4 vol(C)/delta)/17) and volume at most 2.1 target.", "quantifier": "every graph with non-negative weights and no self-loops, every set C, every good seed, every locality, error and target volume in range", "why_tests_cant": "all graphs, all sets and all seeds", "anchors": ["stag_lib/cluster.cpp:local_cluster", "stag_lib/cluster.cpp:local_cluster_acl", "stag_lib/cluster.cpp:approximate_pagerank", "stag_lib/cluster.cpp:sweep_set_conductance_inner"]}
{"id": "C77", "title": "Expected edge weights of approximate_similarity_graph", "statement": "approximate_similarity_graph draws neighbours in proportion to the kernel: if its uniform and binomial draws are independent, then for up to twice the node cutoff of data points the expected weight of u-v before the 1e-10 cut is 4/5 of k(x_u, x_v) for every pair of points. (The exact value is 2/5 of the sum of two shares: the kernel values of u over the leaf of v, added up in row order and cut off at the fraction (m-1)/m of their total, and the same with u and v exchanged. A share never exceeds the kernel value, equals it before the cut-off, and is 0 after it.)", "quantifier": "every data set of 2 to 2*cutoff points, every kernel parameter a > 0, every pair of points; sampling probabilities for every tree", "why_tests_cant": "a statement about all outcomes of the random number generator at once", "anchors": ["stag_lib/cluster.cpp:approximate_similarity_graph", "stag_lib/cluster.cpp:KDETreeEntry::sample_neighbors", "stag_lib/cluster.cpp:KDETreeEntry::estimate_weight", "stag_lib/cluster.cpp:sample_asg_edges", "stag_lib/kde.cpp:ExactGaussianKDE::sample_neighbors"]}
{"id": "C78", "title": "PageRank and local clustering in double arithmetic", "statement": "With IEEE doubles, if the weights are finite and at least 2^-100, the seed vector is non-negative with sum at most 1 and alpha*eps*delta (delta the least positive degree) is at least 4(20*2^-53+kappa), where kappa bounds the relative error of the computed degrees (0 for integer weights of total volume at most 2^53, (1+2^-53)^(n+1)-1 doubled in general), approximate_pagerank returns after fewer than 4/(alpha*eps*delta)+1 pushes; every entry of p and r is finite and non-negative, r(v) < eps'*deg(v), and p(v) and the exact PageRank q(v) satisfy p(v)-e <= q(v) <= p(v)+eps'*deg(v)+e with eps'=eps(1+2^-53)/(1-kappa) and e=4(20*2^-53+kappa)/(alpha*eps*delta). On graphs with integer weights local_cluster returns for every target between 2^-10 and 2^39. (For a positive alpha below the rounding errors it need not return.)", "quantifier": "every such graph, seed vector, alpha and eps", "why_tests_cant": "all doubles, unbounded number of rounded operations", "anchors": ["stag_lib/cluster.cpp:push", "stag_lib/cluster.cpp:approximate_pagerank", "stag_lib/cluster.cpp:local_cluster", "stag_lib/cluster.cpp:local_cluster_acl"]}
{"id": "C79", "title": "Sweep sets, conductance and local clusters in double arithmetic", "statement": "With IEEE doubles, integer weights and total volume at most 2^53: sweep_set_conductance (for a graph) returns the prefix, of the vector's stored indices in decreasing order of value with ties by index, whose conductance cut/min(vol,total-vol) correctly rounded to double is least, the shortest one if several have it, so its true conductance is at most (1+2^-53)/(1-2^-53) times that of any other prefix (prefixes with one side of volume zero are ignored; the empty set is returned if all are); conductance(g,S) for distinct vertices is the exact quotient correctly rounded (0 if the volume is zero); local_cluster_acl returns the prefix with least rounded cut/vol of the vertices of its PageRank vector ordered by the rounded quotients p(v)/deg(v). (With larger volumes the returned sweep set can be worse than another prefix by a constant factor.)", "quantifier": "every such graph, vector of finite doubles, set of vertices, seed, alpha and eps", "why_tests_cant": "all doubles and all orders of vertices", "anchors": ["stag_lib/cluster.cpp:sweep_set_conductance", "stag_lib/cluster.cpp:sweep_set_conductance_inner", "stag_lib/cluster.cpp:conductance", "stag_lib/cluster.cpp:local_cluster_acl"]}
{"id": "C80", "title": "Accuracy of CKNS kernel density estimates", "statement": "For data of n points, a > 0, and default parameters, CKNSGaussianKDE::query(q) for a query point of density d >= min_mu = 1/n returns an answer within a factor (1 +- eps) of d with high probability over the K1 = ceil(ln n / eps^2) independent uniform shuffles of the data, provided the hash tables find the points near the query; and every answer whatsoever lies in [0, 2]; with a sampling offset of -log2 n or less the answer is the exact density.", "quantifier": "every data set, query different from the data points, number of copies, hash tables, interleaving of the threads that build the structure, and all but an exponentially small fraction of the (n!)^K1 outcomes of the shuffles", "why_tests_cant": "a probability over all permutations of data of any size, for data and queries of any kind", "anchors": ["stag_lib/kde.cpp:CKNSGaussianKDE::initialize", "stag_lib/kde.cpp:CKNSGaussianKDE::query", "stag_lib/kde.cpp:CKNSGaussianKDEHashUnit", "stag_lib/kde.cpp:ckns_p_sampling", "stag_lib/kde.cpp:median"]}
{"id": "C81", "title": "Threads of approximate_similarity_graph", "statement": "approximate_similarity_graph runs its threads without data races, deadlock or endless runs, every chunk of rows is processed exactly once, and every interleaving returns a graph of the documented form.", "quantifier": "every number of hardware threads, data set, tree of estimators, contents of the caches, outcome of the random draws and interleaving of the single accesses of the threads", "why_tests_cant": "an interleaving that breaks the code may never be scheduled in a test", "anchors": ["stag_lib/cluster.cpp:KDETreeEntry::estimate_weight", "stag_lib/cluster.cpp:KDETreeEntry::estimate_weights", "stag_lib/cluster.cpp:KDETreeEntry::sample_neighbors", "stag_lib/cluster.cpp:sample_asg_edges", "stag_lib/cluster.cpp:approximate_similarity_graph", "stag_lib/random.cpp:get_global_rng"]}
{"id": "C82", "title": "Threads of the CKNS constructor", "statement": "The constructor of CKNSGaussianKDE runs its threads without data races, deadlock or endless runs, and after every interleaving each cell of the table of hash units holds exactly the units of its level and copy.", "quantifier": "every number of hardware threads, data set, number of copies and levels, outcome of the random draws and interleaving of the single accesses of the threads", "why_tests_cant": "an interleaving that breaks the code may never be scheduled in a test", "anchors": ["stag_lib/kde.cpp:CKNSGaussianKDE::initialize", "stag_lib/kde.cpp:CKNSGaussianKDE::add_hash_unit", "stag_lib/kde.cpp:CKNSGaussianKDEHashUnit", "stag_lib/lsh.cpp:LSHFunction", "stag_lib/lsh.cpp:E2LSH", "stag_lib/random.cpp:get_global_rng"]}
{"id": "C83", "title": "The data behind an estimator", "statement": "A CKNSGaussianKDE answers from the data its matrix held when it was constructed, whatever the program later does to that matrix; moving or copying the estimator gives an estimator with the same answers. An ExactGaussianKDE, and each copy of it, answers from the current contents of the caller's matrix as long as the matrix is neither destroyed nor resized. An E2LSH table returns, as pointers into the caller's data, the rows that collided with the query when the table was built.", "quantifier": "every history of creating, overwriting, resizing and destroying matrices and creating, copying, moving and destroying estimators", "why_tests_cant": "all histories; reading freed memory often goes unnoticed in a test", "anchors": ["stag_lib/kde.h:CKNSGaussianKDE", "stag_lib/kde.h:ExactGaussianKDE", "stag_lib/kde.h:CKNSGaussianKDEHashUnit", "stag_lib/kde.cpp:CKNSGaussianKDE::initialize", "stag_lib/kde.cpp:CKNSGaussianKDE::query", "stag_lib/kde.cpp:ExactGaussianKDE::ExactGaussianKDE", "stag_lib/data.h:DataPoint", "stag_lib/lsh.cpp:E2LSH::E2LSH", "stag_lib/lsh.cpp:E2LSH::get_near_neighbors"]}
{"id": "C84", "title": "spectral_cluster separates the connected components", "statement": "If a graph has exactly k connected components, spectral_cluster with k clusters gives two vertices the same label exactly when they are in the same component.", "quantifier": "every graph without self-loops and isolated vertices with k components, k at most half the number of vertices; every exact eigensolver (any basis of the eigenspace)", "why_tests_cant": "all graphs; the outcome depends on the eigenvectors, on the seeded random initialisation and on the iterations of k-means", "anchors": ["stag_lib/cluster.cpp:spectral_cluster", "stag_lib/KMeansRex/KMeansRexCore.cpp:sampleRowsPlusPlus", "stag_lib/KMeansRex/KMeansRexCore.cpp:discrete_rand", "stag_lib/KMeansRex/KMeansRexCore.cpp:run_lloyd", "stag_lib/KMeansRex/KMeansRexCore.cpp:calc_Mu", "stag_lib/spectrum.cpp:compute_eigenvectors"]}
{"id": "C85", "title": "Zero eigenvalues count the components", "statement": "The number of zero eigenvalues that compute_eigenvalues reports for the normalised Laplacian is the number of connected components; compute_eigenvectors embeds different components in orthogonal directions and the vertices of a component in one direction, at squared distances from the origin proportional to their degrees.", "quantifier": "every graph without self-loops and isolated vertices, every number of eigenvalues, every exact eigensolver", "why_tests_cant": "all graphs and all choices of eigenvectors in the eigenspace", "anchors": ["stag_lib/spectrum.cpp:compute_eigenvalues", "stag_lib/spectrum.cpp:compute_eigenvectors", "stag_lib/spectrum.cpp:compute_eigensystem"]}
{"id": "C86", "title": "cheeger_cut on a disconnected graph", "statement": "If a graph is not connected, cheeger_cut finds a cut without crossing edges: both labels occur and connected vertices have the same label.", "quantifier": "every graph with at least three vertices and two components, without self-loops and isolated vertices; every exact eigensolver (any basis of the eigenspace)", "why_tests_cant": "all graphs and all choices of eigenvectors in the eigenspace", "anchors": ["stag_lib/cluster.cpp:cheeger_cut", "stag_lib/cluster.cpp:sweep_set_conductance", "stag_lib/spectrum.cpp:compute_eigensystem"]}
{"id": "C87", "title": "Gaussian kernels, exact densities and similarity graphs in double arithmetic", "statement": "In IEEE doubles, with an exp that is accurate to eps on numbers that are not positive: a Gaussian kernel value is between 0 and 1 and within (d+5) 2^-52 + eps of the true value, ExactGaussianKDE::query is within (n+d+7) 2^-52 + eps of the mean of the true kernel values, nothing overflows or becomes NaN, and the weights of similarity_graph are such kernel values where they exceed EPSILON and 0 elsewhere.", "quantifier": "every kernel parameter up to 2^100, every data set and query of up to 2^49 points and dimensions with finite coordinates up to 2^400 (equal and far apart points, underflow included), every number of threads and schedule", "why_tests_cant": "all doubles; rounding errors in every operation", "anchors": ["stag_lib/kde.cpp:gaussian_kernel", "stag_lib/kde.cpp:squared_distance", "stag_lib/kde.cpp:gaussian_kde_exact", "stag_lib/kde.cpp:ExactGaussianKDE::query", "stag_lib/cluster.cpp:similarity_graph"]}
{"id": "C88", "title": "approximate_similarity_graph in double arithmetic", "statement": "In IEEE doubles, for data of at most the node cutoff (5000 points by default), approximate_similarity_graph has no undefined behaviour and returns an exactly symmetric graph: rounding never loses a sample (every vertex gets two samples, which are vertices), the degrees are within n((n+d+9) 2^-52 + eps) of their true value, and the weights are within a relative error of 2^-49 of what samples and degrees prescribe.", "quantifier": "every data set of 2 to node_cutoff points with finite coordinates up to 2^400, every kernel parameter up to 2^100, all uniform draws in [0,1], every number of threads, schedule and history of the caches", "why_tests_cant": "all doubles, all draws and all schedules", "anchors": ["stag_lib/cluster.cpp:approximate_similarity_graph", "stag_lib/cluster.cpp:KDETreeEntry::estimate_weight", "stag_lib/cluster.cpp:KDETreeEntry::sample_neighbors", "stag_lib/cluster.cpp:sample_asg_edges", "stag_lib/kde.cpp:ExactGaussianKDE::sample_neighbors"]}
{"id": "C89", "title": "Normalised Laplacian, inverse degrees and lazy random walk in double arithmetic", "statement": "In IEEE doubles the normalised Laplacian (and signless), the inverse degree matrix and the lazy random walk matrix have the entries of the mathematical matrices up to a relative error of a few roundings plus one per stored neighbour; entries without an edge are exact; the columns of the lazy random walk sum to one up to the same error; and the normalised Laplacian is symmetric.", "quantifier": "every reachable graph of doubles with weights between 2^-300 and 2^300 and at most 2^40 vertices, every entry", "why_tests_cant": "all weights and all graphs", "anchors": ["stag_lib/graph.cpp:initialise_normalised_laplacian_", "stag_lib/graph.cpp:initialise_normalised_signless_laplacian_", "stag_lib/graph.cpp:initialise_inverse_degree_matrix_", "stag_lib/graph.cpp:initialise_lazy_random_walk_matrix_"]}
{"id": "C90", "title": "Threads that query one Graph at the same time", "statement": "A Graph object can be queried by several threads at the same time: there is no data race, no deadlock, the graph does not change, and every thread gets the answers it would get alone.", "quantifier": "every graph, every number of threads and lists of queries, every interleaving", "why_tests_cant": "a race shows only in some interleavings, and most of them give the right answer", "anchors": ["stag_lib/graph.cpp:initialise_degree_matrix_", "stag_lib/graph.cpp:initialise_inverse_degree_matrix_", "stag_lib/graph.cpp:initialise_laplacian_", "stag_lib/graph.cpp:initialise_lazy_random_walk_matrix_", "stag_lib/graph.cpp:degree", "stag_lib/graph.cpp:total_volume"]}
{"id": "C91", "title": "Expected quality of k-means", "statement": "The k-means step of spectral clustering starts from k-means++ centres: with independent uniform random numbers the first centre is a uniformly random point and each further one a point drawn with probability proportional to its squared distance to the nearest centre so far; the expected cost of the starting centres, and of the clustering returned after any number of rounds, is at most 8(2 + ln K) times the cost of any clustering into K clusters; it never fails and never returns a clustering worse than its starting centres.", "quantifier": "all point sets of any dimension and size, all K up to the number of points, all numbers of rounds, all competing clusterings, all values of the random numbers", "why_tests_cant": "an expectation over continuous random numbers compared with the best of exponentially many clusterings", "anchors": ["stag_lib/KMeansRex/KMeansRexCore.cpp:sampleRowsPlusPlus", "stag_lib/KMeansRex/KMeansRexCore.cpp:discrete_rand", "stag_lib/KMeansRex/KMeansRexCore.cpp:randint", "stag_lib/KMeansRex/KMeansRexCore.cpp:run_lloyd", "stag_lib/KMeansRex/KMeansRexCore.cpp:RunKMeans", "stag_lib/KMeansRex/mersenneTwister2002.h:my_genrand_double", "stag_lib/cluster.cpp:stag::spectral_cluster"]}
{"id": "C92", "title": "Spectral clustering finds well-separated clusters", "statement": "Let the vertices of a graph without self-loops and without isolated vertices be divided into k non-empty clusters of at most s_max vertices, with the (k+1)-st smallest eigenvalue lam of the normalised Laplacian positive. If spectral_cluster(g, k) returns labels, at most 4 s_max (E/lam + c) vertices are misplaced (at most half of the vertices that share their label are in their cluster), where E is the total energy of the clusters (the sum of their conductances when degrees are equal inside each cluster) and c is the k-means cost of the labels in the spectral embedding; below 1 the labels are exactly the clusters. With independent uniform random numbers the expected number of misplaced vertices, and the probability that the labels are not exactly the clusters, are at most 4 s_max (1 + 8(2 + ln k)) E/lam.", "quantifier": "every graph, every division into k clusters with 2k <= n, every eigensolver that meets its contract, every outcome of the random numbers (average over all of them)", "why_tests_cant": "a statement about all graphs and all ground-truth clusterings at once, and about an average over real-valued random numbers; the suite clusters a few graphs with one seed", "anchors": ["stag_lib/cluster.cpp:stag::spectral_cluster", "stag_lib/spectrum.cpp:stag::compute_eigenvectors", "stag_lib/spectrum.cpp:stag::compute_eigensystem", "stag_lib/KMeansRex/KMeansRexCore.cpp:RunKMeans", "stag_lib/KMeansRex/KMeansRexCore.cpp:sampleRowsPlusPlus"]}
{"id": "C93", "title": "cheeger_cut tolerates inexact eigenvectors", "statement": "On a graph with at least three vertices, none isolated and no self-loops, cheeger_cut returns a proper cut whatever two vectors the eigensolver hands it. Its conductance is at most sqrt(2 x^T N x / |x'|^2), where x is the vector of the larger value, N the normalised Laplacian and x' the part of x orthogonal to the square roots of the degrees. Hence if x has residual |Nx - mu x| <= delta |x| and its cosine with the square roots of the degrees is at most eta < 1, the conductance is at most sqrt(2(mu+delta)/(1-eta^2)), and on a connected graph at most sqrt((4 phi + 2(tau+delta))/(1-eta^2)) for the conductance phi of every cut when mu exceeds the second eigenvalue by at most tau.", "quantifier": "every such graph, every pair of vectors of the right length and values of the eigensolver (converged or not), every competing cut", "why_tests_cant": "the eigensolver's rounding and stopping criterion decide the vectors; the claim is for all of them and against exponentially many cuts", "anchors": ["stag_lib/cluster.cpp:stag::cheeger_cut", "stag_lib/cluster.cpp:stag::sweep_set_conductance", "stag_lib/spectrum.cpp:stag::compute_eigensystem"]}
{"id": "C94", "title": "spectral_cluster tolerates inexact eigenvectors", "statement": "In the setting of the property on well-separated clusters, let the eigensolver return k vectors whose total squared distance to some orthonormal basis of the span of the first k eigenvectors is at most eps2. Then spectral_cluster returns labels that misplace at most 4 s_max (E/lam + 2 eps2 + 2c) vertices (c the k-means cost of the labels in the embedding used), exactly the clusters when this is below 1; with independent uniform random numbers the expected number of misplaced vertices and the probability of not recovering the clusters are at most 4 s_max ((1 + 32(2+ln k)) E/lam + (2 + 32(2+ln k)) eps2).", "quantifier": "every graph, every division into k clusters with 2k <= n, every output of the eigensolver within the error, every outcome of the random numbers (average over all of them)", "why_tests_cant": "all eigensolver outputs within a tolerance, all graphs, all ground-truth clusterings and an average over real-valued random numbers", "anchors": ["stag_lib/cluster.cpp:stag::spectral_cluster", "stag_lib/spectrum.cpp:stag::compute_eigenvectors", "stag_lib/spectrum.cpp:stag::compute_eigensystem", "stag_lib/KMeansRex/KMeansRexCore.cpp:RunKMeans", "stag_lib/KMeansRex/KMeansRexCore.cpp:sampleRowsPlusPlus"]}
{"id": "C95", "title": "Cuts of approximate_similarity_graph are concentrated", "statement": "For up to twice the node cutoff of data points (10000 by default), every vertex u of approximate_similarity_graph draws two vertices independently, v with probability share(u,v)/degree(u), independently of the other vertices. Therefore the cut of any set of vertices, and any Laplacian energy sum w(u,v)(x_u-x_v)^2, is concentrated around its expected value mu: if the kernel values of every point add up to at most d, the cut in the returned graph is above (1+eps) mu with probability at most exp(-5 eps^2 mu/(3d)) and below (1-eps) mu - 2n/10^10 with probability at most exp(-5 eps^2 mu/(2d)).", "quantifier": "every data set of 2 to 2*cutoff points, every kernel parameter a > 0, every set of vertices and every vector x, every eps in [0,1]; the law of the samples for every tree and number of samples", "why_tests_cant": "a statement about the probability of rare outcomes of the random number generator, for every data set and every cut", "anchors": ["stag_lib/cluster.cpp:approximate_similarity_graph", "stag_lib/cluster.cpp:KDETreeEntry::sample_neighbors", "stag_lib/cluster.cpp:KDETreeEntry::estimate_weight", "stag_lib/cluster.cpp:sample_asg_edges", "stag_lib/kde.cpp:ExactGaussianKDE::sample_neighbors"]}
{"id": "C96", "title": "Random graphs: concentration and connectivity", "statement": "When the generator flips one coin for every pair of vertices (exact sampling, or blocks below the exact threshold), every weighted sum of the edges of a graph of general_sbm (its number of edges, the degree of a vertex, the weight of a cut) with coefficients between 0 and M is within (1 +- eps) of its mean mu with probability at least 1 - 2 exp(-eps^2 mu/(3M)). If every pair is joined with probability at least q, then with probability at least 1 - 2(exp(n exp(-eps^2 q n/6)) - 1) every cut of the graph is within (1 +- eps) of its mean, for all 2^n sets of vertices at once, and with probability at least 2 - exp(n exp(-q n/4)) Graph::is_connected answers true. In particular erdos_renyi(n,p) is connected with probability at least 1 - 2 delta if p n >= 4 ln(n/delta).", "quantifier": "every number and size of blocks, every probability matrix, every eps in [0,1]; the probability is over all tapes of the generator", "why_tests_cant": "a statement about the fraction of exceptional outcomes of the random number generator, and about exponentially many cuts at once", "anchors": ["stag_lib/random.cpp:stag::general_sbm", "stag_lib/random.cpp:stag::sbm", "stag_lib/random.cpp:stag::erdos_renyi", "stag_lib/random.cpp:general_sbm_internal", "stag_lib/random.cpp:sample_edges_directly", "stag_lib/graph.cpp:stag::Graph::is_connected", "stag_lib/random.h:general_sbm", "stag_lib/random.h:erdos_renyi"]}
{"id": "C97", "title": "Spectral clustering finds clusters of large inner conductance", "statement": "If every one of the k planted clusters, taken as a graph of its own, has conductance at least phi, and every vertex of the graph (positive weights, no self-loops, no isolated vertices) keeps at least the share rho of its degree inside its own cluster, then the (k+1)-st smallest eigenvalue of the normalised Laplacian is at least rho phi^2/2; and with independent uniform numbers in place of the generator's, the expected number of vertices that spectral_cluster misplaces, and the probability that its labels are not exactly the clusters, are at most 8 smax (1 + 8(2 + ln k)) E/(rho phi^2), where smax is the size of the largest cluster and E the sum of the clusters' energies (their conductances, when degrees are equal inside a cluster). The labels actually returned (seed 42) misplace at most 4 smax (2E/(rho phi^2) + c) vertices, c their k-means cost. No eigenvalue appears in the hypotheses: they are cuts and degrees of the graph.", "quantifier": "every weighted graph, every number and shape of clusters, every phi and rho, every eigensolver that meets its contract; the expectation is over the uniform draws of k-means++", "why_tests_cant": "an inequality between the cuts of all subsets of all clusters, an eigenvalue and the average of a randomised algorithm", "anchors": ["stag_lib/cluster.cpp:stag::spectral_cluster", "stag_lib/spectrum.cpp:compute_eigenvectors", "stag_lib/KMeansRex/KMeansRexCore.cpp:sampleRowsPlusPlus", "stag_lib/KMeansRex/KMeansRexCore.cpp:run_lloyd"]}
{"id": "C98", "title": "Spectral clustering recovers the blocks of the stochastic block model", "statement": "sbm(n,k,p,q) followed by spectral_cluster with the same k recovers the labels of sbm_gt_labels: for all but a fraction delta of the tapes of the generator (delta explicit, exponentially small in the expected degrees), the (k+1)-st eigenvalue of the normalised Laplacian of the returned graph is at least (1 - phi_q)/16, where phi_q is the expected share of the degree of a vertex that leaves its block, and the expected number of misplaced vertices is at most 128 (17 + 8 ln k) V (phi_q + eps^2)/(1 - phi_q), V the number of vertices; the labels actually returned (seed 42) misplace at most 128 V (phi_q + eps^2)/(1 - phi_q) + 4 (V/k) c vertices, c their k-means cost. In particular the second eigenvalue of a graph of erdos_renyi(n,p) is at least 1/16 for all but a fraction delta of the tapes.", "quantifier": "every n, k, p, q and 0 < eps <= 1/10; the probability is over all tapes of the generator, the expectation over the uniform draws of k-means++", "why_tests_cant": "a statement about the fraction of exceptional random graphs and about the average over a second source of randomness, for the composition of the generator with the clustering algorithm", "anchors": ["stag_lib/random.cpp:stag::sbm", "stag_lib/random.cpp:stag::sbm_gt_labels", "stag_lib/random.cpp:stag::erdos_renyi", "stag_lib/cluster.cpp:stag::spectral_cluster"]}
{"id": "C99", "title": "Sparse cuts of random graphs are sparse cuts of the block model", "statement": "When the generator flips one coin for every pair and every pair is joined with probability at least q > 0, then for all but a fraction 2(exp(n exp(-eps^2 q n/6)) - 1) of its tapes the conductance of every one of the 2^n sets of vertices of the graph of general_sbm is within the factor r = (1+eps)/(1-eps) of its conductance in the block model (edges weighted by their probabilities). On such a graph cheeger_cut labels a set whose conductance in the block model is at most 2 r sqrt(r phi(T)) for every set T; and for every set C with cut/volume at most 1/(1000 r) in the block model there are seeds with at least the share 1/(2r) of the volume of C from which local_cluster, with any target volume of at least 8(1+eps) vol(C), returns a set l with (cut(l)/vol(l))^2 at most r^2 ln(4 r vol(C)/dmin)/17 in the block model, dmin being the least expected degree.", "quantifier": "every number and size of blocks, every probability matrix with positive entries, every 0 <= eps < 1; the probability is over all tapes of the generator, the guarantee for all sets of vertices at once", "why_tests_cant": "a statement about exponentially many sets of vertices, the fraction of exceptional random graphs, and two clustering algorithms run on all the others", "anchors": ["stag_lib/random.cpp:stag::general_sbm", "stag_lib/cluster.cpp:stag::cheeger_cut", "stag_lib/cluster.cpp:stag::local_cluster"]}
{"id": "C100", "title": "The adjusted Rand index measures misplaced vertices", "statement": "For at most 77936 points the value of adjusted_rand_index, when it is a number, lies between -1 and 1, and it is 1 exactly if the two clusterings put the same points together. If the true clustering has k >= 2 clusters of s >= 2 points each, and m points are misplaced (at most half of the points that share their label are in their cluster) by labels between 0 and k-1, the value is a number and at least 1 - 2m/(s-1). For the labels of spectral_cluster it is at least 1 - 8 s/(s-1) (E/lam + c), where E is the energy of the clusters (the sum of their conductances when degrees are equal inside each cluster), lam the (k+1)-st smallest eigenvalue of the normalised Laplacian and c the k-means cost of the labels; and on average over the random numbers of k-means++ it is at least 1 - 8 s/(s-1) (1 + 8(2 + ln k)) E/lam.", "quantifier": "every pair of label vectors of equal length up to 77936 (beyond which the code overflows, C30), every k and s, every graph with positive weights, no self-loops and no isolated vertices, every eigensolver that meets its contract; the expectation is over the uniform draws of k-means++", "why_tests_cant": "an inequality between two different measures of agreement for all labellings, combined with a spectral bound and the average of a randomised algorithm", "anchors": ["stag_lib/cluster.cpp:stag::adjusted_rand_index", "stag_lib/cluster.cpp:nChoose2", "stag_lib/cluster.cpp:contingency_table", "stag_lib/cluster.cpp:stag::spectral_cluster"]}
{"id": "C101", "title": "The adjusted Rand index in double arithmetic", "statement": "For at most 77936 points, whenever the exact Hubert-Arabie index of two label vectors is a number x, adjusted_rand_index returns a finite double within 24 n 2^-53 of x, n being the number of points, which never exceeds 1; it returns exactly 1 for two labellings that put the same points together (unless they consist of one cluster or of single points); the very same double is returned when the arguments are swapped and when the clusters are renumbered; invalid vectors are refused. The exact index is undefined exactly if there are fewer than two points, or if both clusterings are one cluster, or both consist of single points; then the result is NaN for up to 13777 points, but no longer beyond: it is 1 for 13778 points in one cluster.", "quantifier": "every pair of label vectors of equal length up to 77936, every renumbering", "why_tests_cant": "the rounding errors depend on the counts of pairs, up to 2^32 pairs, whose products are not representable; cancellation in the numerator and the denominator could destroy any number of digits", "anchors": ["stag_lib/cluster.cpp:stag::adjusted_rand_index", "stag_lib/cluster.cpp:nChoose2", "stag_lib/cluster.cpp:contingency_table"]}
{"id": "C102", "title": "The power method without a spectral gap", "statement": "For a symmetric positive semidefinite matrix and a start vector x, the Rayleigh quotient q of the vector returned by power_method after t iterations satisfies (q/l)^(2t) >= <x,v>^2/<x,x> for every unit eigenvector v of positive eigenvalue l not orthogonal to x, however close the other eigenvalues are. So if the start has at least the share exp(-a) of its squared length in the direction of an eigenvector for the largest eigenvalue lam, then lam exp(-a/(2t)) <= q <= lam; the default number of iterations, 10 ceil(ln n), gives q >= lam exp(-c/20) for every start with share at least n^(-c). On a 1 by 1 matrix the default is no iteration, and the start is returned as it is. The same holds for the Laplacian and the normalised Laplacian of every graph with positive weights.", "quantifier": "every symmetric positive semidefinite matrix of every size, every start vector, every number of iterations, every distribution of the eigenvalues", "why_tests_cant": "multiple or nearly equal eigenvalues make the vector itself converge arbitrarily slowly; the bound on the quotient is over all matrices, starts and iteration counts", "anchors": ["stag_lib/spectrum.cpp:stag::power_method", "stag_lib/spectrum.cpp:stag::rayleigh_quotient"]}
