#!/usr/bin/env python3
# Generates /verif/properties.jsonl
import json
P=[]
def p(id,title,statement,quantifier,why,anchors):
    P.append(dict(id=id,title=title,statement=statement,quantifier=quantifier,why_tests_cant=why,anchors=anchors))
G="stag_lib/graph.cpp"; C="stag_lib/cluster.cpp"; IO="stag_lib/graphio.cpp"; U="stag_lib/utility.cpp"
R="stag_lib/random.cpp"; K="stag_lib/kde.cpp"; L="stag_lib/lsh.cpp"; S="stag_lib/spectrum.cpp"; D="stag_lib/data.cpp"; KM="stag_lib/KMeansRex/KMeansRexCore.cpp"
def a(f,*sy): return [f"{f}:{s}" for s in sy]

p("C01","Graph built from an adjacency matrix keeps every weight",
 "Constructing a Graph from a symmetric matrix with no negative entry succeeds, and the resulting graph has one vertex per column and an edge weight between i and j equal to the matrix coefficient when it exceeds the tolerance 1e-10 and 0 otherwise; in particular weights above the tolerance are never altered.",
 "every square symmetric sparse matrix of any size and any non-negative values","the claim ranges over all matrices; tests sample a few",a(G,"adjacency_from_adj_or_lap","Graph::Graph"))
p("C02","A constructed Graph is undirected; asymmetric input is refused",
 "If the Graph constructor returns then the adjacency matrix of the graph is symmetric; if the (non-negative) input matrix is asymmetric the constructor throws domain_error and no Graph exists. The CSC-vector constructor additionally throws invalid_argument when the three vectors are inconsistent.",
 "every matrix and every triple of CSC vectors","unbounded inputs",a(G,"Graph::Graph","Graph::self_test_")+a(U,"isSymmetric","sprsMatFromVectors"))
p("C03","Laplacian round trip",
 "Graph(g.laplacian()->...) is the same graph as g: passing the Laplacian of a graph to the constructor recovers its adjacency matrix, including self-loops, provided all weights exceed the tolerance.",
 "every weighted undirected graph with positive weights","requires exactness for all graphs; rounding makes it fail only for particular weights",a(G,"adjacency_from_adj_or_lap","Graph::initialise_laplacian_"))
p("C04","A matrix that is neither an adjacency matrix nor a Laplacian is refused",
 "If the input matrix contains a negative entry and also either a non-negative stored off-diagonal entry or a column with negative sum, the constructor throws domain_error.",
 "every square sparse matrix","unbounded inputs",a(G,"adjacency_from_adj_or_lap"))
p("C05","Symmetry is invariant under every history",
 "After any sequence of add_edge, remove_edge and matrix/degree queries on a graph, the adjacency matrix is square, has number_of_vertices columns and is symmetric.",
 "every initial graph and every finite sequence of calls with non-negative vertex ids","histories are unbounded",a(G,"Graph::add_edge","Graph::remove_edge"))
p("C06","add_edge changes exactly one edge",
 "add_edge(i,j,w) makes the graph large enough to contain i and j, increases the weight of edge {i,j} by w and changes no other weight and no other vertex count.",
 "every graph, every pair of non-negative ids, every weight","frame property over all other vertex pairs",a(G,"Graph::add_edge"))
p("C07","remove_edge removes exactly one edge",
 "remove_edge(i,j) sets the weight of {i,j} to zero in both directions, keeps every other weight and the number of vertices, and is a no-op when i or j is not a vertex. Stored zeros disappear.",
 "every graph and every pair of non-negative ids","frame property over all other vertex pairs",a(G,"Graph::remove_edge"))
p("C08","Matrices are never stale",
 "After any sequence of add_edge, remove_edge and queries, each of laplacian(), signless_laplacian(), normalised_laplacian(), normalised_signless_laplacian(), degree_matrix(), inverse_degree_matrix() and lazy_random_walk_matrix() returns the matrix of the current adjacency matrix, i.e. what a freshly constructed graph with that adjacency matrix would return.",
 "every history of mutating calls and queries in every order","cache bugs appear only for particular interleavings of queries and updates",a(G,"Graph::add_edge","Graph::remove_edge","Graph::initialise_laplacian_","Graph::initialise_degree_matrix_"))
p("C09","has_self_loops is exact",
 "After any history, has_self_loops() returns true iff some vertex has a non-zero diagonal weight (for positive weights).",
 "every history","unbounded histories",a(G,"Graph::has_self_loops","Graph::add_edge","Graph::remove_edge","Graph::Graph"))
p("C10","number_of_edges counts undirected edges",
 "number_of_edges() equals the number of unordered pairs {i,j}, i=j included, with non-zero weight.",
 "every graph reachable by any history of positive-weight updates","counts over all graphs; parity and the diagonal are easy to get wrong only for certain shapes",a(G,"Graph::number_of_edges"))
p("C11","Degrees, total volume and average degree",
 "degree(v) is the sum of the weights of the edges at v with self-loops counted twice, total_volume() is the sum of all degrees (equal to twice the total edge weight with self-loops counted once), average_degree() is total volume over the number of vertices.",
 "every graph and vertex","universally quantified sums",a(G,"Graph::degree","Graph::total_volume","Graph::average_degree","Graph::initialise_degree_matrix_"))
p("C12","Local queries are exact and reject bad vertices",
 "neighbors(v) lists every u with non-zero weight exactly once with that weight and nothing else; neighbors_unweighted and degree_unweighted agree with it when no explicit zero is stored; for an id that is not a vertex every one of these calls throws invalid_argument.",
 "every graph, every int64 vertex id","completeness over all vertices",a(G,"Graph::neighbors","Graph::neighbors_unweighted","Graph::degree_unweighted","Graph::check_vertex_argument"))
p("C13","The Laplacian is the Laplacian",
 "laplacian() = D - A entrywise and signless_laplacian() = D + A; x'Lx is the weighted sum over edges of (x_u-x_v)^2 plus self-loop terms, hence the Laplacian of a graph with non-negative weights is positive semidefinite; without self-loops every row sums to zero.",
 "every graph, every vector x","real-valued universally quantified inequality",a(G,"Graph::initialise_laplacian_","Graph::initialise_signless_laplacian_"))
p("C14","Normalised Laplacians",
 "normalised_laplacian()(u,v) = [u=v] - w(u,v)/sqrt(d(u)d(v)) (the second term being 0 when w(u,v) = 0, in particular for isolated vertices), the signless version has + instead, and both are positive semidefinite with quadratic forms at most twice the squared norm.",
 "every graph with positive weights, isolated vertices included, every vector","real-valued universal statement",a(G,"Graph::initialise_normalised_laplacian_","Graph::initialise_normalised_signless_laplacian_"))
p("C15","Lazy random walk matrix",
 "lazy_random_walk_matrix() is column-stochastic with entries 1/2 [u=v] + w(u,v)/(2 d(v)), and inverse_degree_matrix is diag(1/d), 0 for an isolated vertex as documented.",
 "every graph","universal over graphs; isolated vertices and self-loops are corner cases",a(G,"Graph::initialise_lazy_random_walk_matrix_","Graph::initialise_inverse_degree_matrix_"))
p("C16","Graph equality",
 "g == h iff g and h have the same number of vertices and the same weight between every pair of vertices (for graphs storing no explicit zero); operator!= is its negation.",
 "every pair of graphs","ranges over all pairs",a(G,"operator==","operator!="))
p("C17","Graph addition and scaling",
 "g+h has the sum of the weights on every pair of vertices, throws invalid_argument when the sizes differ; scalar*g multiplies every weight; both keep the number of vertices.",
 "all pairs of graphs and all positive scalars","universally quantified",a(G,"operator+")+a("stag_lib/graph.h","operator*"))
p("C18","Induced subgraph",
 "subgraph(S) has one vertex per distinct element of S, in order of first occurrence, and the weight between the k-th and l-th new vertex is the weight between the corresponding old vertices; a non-vertex in S throws invalid_argument.",
 "every graph and vertex list","universally quantified",a(G,"Graph::subgraph"))
p("C19","Disjoint union",
 "disjoint_union(g,h) has |g|+|h| vertices; weights inside the first |g| vertices are g's, inside the last |h| are h's, and no edge crosses.",
 "every pair of graphs","loses vertices only for particular shapes of the second graph",a(G,"Graph::disjoint_union"))
p("C20","Standard graphs",
 "cycle_graph(n), complete_graph(n), star_graph(n), barbell_graph(n) and identity_graph(n) return valid graphs with exactly the documented weights for every legal n, and throw invalid_argument for n below the documented minimum.",
 "every n","unbounded n",a(G,"stag::cycle_graph","stag::complete_graph","stag::barbell_graph","stag::star_graph","stag::identity_graph"))
p("C21","Sparse matrix utilities",
 "isSymmetric(M) holds iff all coefficients agree with the transpose; sprsMatFromVectors inverts the extraction of the three CSC vectors; sprsMatToVec returns the length-n dense column and rejects bad dimensions; addVectors returns the elementwise sum.",
 "every matrix and vector","universally quantified",a(U,"isSymmetric","sprsMatToVec","sprsMatFromVectors")+a("stag_lib/utility.h","addVectors"))
p("C22","connected_component is reachability",
 "connected_component(g,v) terminates and returns, without duplicates, exactly the vertices reachable from v by a path of edges.",
 "every graph and start vertex","reachability over all graphs; traversal order is data dependent",a(C,"connected_component"))
p("C23","connected_components partitions the graph",
 "connected_components(g) returns non-empty pairwise disjoint lists covering all vertices; two vertices are in one list iff they are connected; is_connected() is true iff every two vertices are connected (non-empty graph).",
 "every graph","universally quantified",a(C,"connected_components")+a(G,"Graph::is_connected"))
p("C24","Personalised PageRank invariant",
 "At every point of approximate_pagerank, p + ppr_alpha(r) = ppr_alpha(s) for the lazy random walk PageRank operator; consequently the total mass of p and r equals that of s.",
 "every local graph without self-loops, every seed, alpha, epsilon and every number of pushes","loop invariant over unbounded pushes",a(C,"push","approximate_pagerank"))
p("C25","Approximate PageRank post-condition",
 "When approximate_pagerank(g,s,alpha,eps) returns (p,r), every vertex u satisfies r(u) < eps*deg(u) (or r(u)=0), and both vectors are non-negative.",
 "every local graph, seed vector, alpha, epsilon","universal over all graphs",a(C,"approximate_pagerank","push"))
p("C26","Approximate PageRank terminates",
 "For alpha in (0,1], epsilon>0 and vertices of degree at least 1, approximate_pagerank performs at most |s|/(alpha*eps) pushes (ACL bound on degrees), so it always terminates; alpha=0 gives no such guarantee.",
 "every local graph, even infinite","termination and work bound cannot be tested",a(C,"approximate_pagerank"))
p("C27","sweep_set_conductance is optimal among prefixes",
 "sweep_set_conductance(g,x) returns a prefix of the stored entries of x ordered by decreasing value (ties by index) whose conductance w(S,V-S)/min(vol S, vol V-S) (w(S,V-S)/vol S for a local graph) is minimal among all non-empty prefixes with positive denominator.",
 "every graph and vector","optimality over all prefixes",a(C,"sweep_set_conductance_inner","sweep_set_conductance"))
p("C28","conductance",
 "conductance(g,S) = w(S, complement)/vol(S) for every duplicate-free set S of vertices with positive volume, and is 0 for the empty set.",
 "every local graph and set","universal",a(C,"conductance"))
p("C29","local_cluster: locality, optimality over the sweep and volume",
 "local_cluster(g,v,target) returns distinct vertices explored by the random walk from v (hence in v's component), namely the prefix of smallest conductance of the sweep over the approximate personalised PageRank vector with teleport probability 0.01 and error 1/target; their total volume is at most 2*target/0.99, so the work and the output are governed by the target and not by the size of the graph; it terminates; a seed that is not in the graph or a non-positive target throws invalid_argument.",
 "every graph (in memory, implicit or on disk), seed, target volume","universal",a(C,"local_cluster","local_cluster_acl"))
p("C30","Adjusted Rand index",
 "adjusted_rand_index(gt,labels) equals the Hubert-Arabie pair-counting formula, is symmetric in its arguments, invariant under renaming of labels, equals 1 for labelings inducing the same (non-trivial) partition; inputs of different length or with negative labels throw invalid_argument.",
 "every pair of label vectors","universal; overflow for large n",a(C,"adjusted_rand_index","contingency_table"))
p("C31","Mutual information",
 "mutual_information equals the textbook sum over label pairs, is symmetric and invariant under label renaming, non-negative and at most either entropy; normalised_mutual_information is the ratio by the mean entropy.",
 "every pair of label vectors","universal real inequality",a(C,"mutual_information","normalised_mutual_information"))
p("C32","symmetric_difference",
 "symmetric_difference(S,T) lists in ascending order exactly the vertices in one of S,T but not both, after removing duplicates of each.",
 "every pair of lists","universal",a(C,"symmetric_difference"))
p("C33","Line endings do not matter",
 "Reading a text with safeGetline yields the same lines whether lines end in LF, CRLF or CR, and the last line may or may not be terminated.",
 "every text","all byte strings",a(U,"safeGetline"))
p("C34","load_edgelist semantics",
 "load_edgelist returns the graph whose weight {u,v} is the sum of the weights of the lines naming u and v in either order (weight 1 when omitted); comment and blank lines and the field separator are irrelevant; the number of vertices is the largest id plus one.",
 "every well-formed edge list file","all files",a(IO,"load_edgelist","parse_edgelist_content_line"))
p("C35","Edge list round trip",
 "load_edgelist(save_edgelist(g)) == g.",
 "every graph","self-loops, isolated vertices, weights needing more than six digits are silently lost",a(IO,"save_edgelist","load_edgelist"))
p("C36","Adjacency list round trip",
 "load_adjacencylist(save_adjacencylist(g)) == g.",
 "every graph","trailing isolated vertices lost",a(IO,"save_adjacencylist","load_adjacencylist"))
p("C37","sort_edgelist sorts",
 "sort_edgelist leaves in the file the same content lines ordered by first vertex id (stable), with the same header comments, and terminates.",
 "every edge list file","on-disk quicksort: all inputs, all interval shapes",a(IO,"sort_edgelist"))
p("C38","copy_edgelist_duplicate_edges",
 "Every edge line of the input is replaced, in the original order, by one line naming the edge and one naming it reversed (so a self-loop appears twice); comment and blank lines are kept.",
 "every well-formed edge list file","all files",a(IO,"copy_edgelist_duplicate_edges"))
p("C39","edgelist_to_adjacencylist preserves the graph",
 "Converting an edge list to an adjacency list on disk and loading it gives the same neighbours and weights as the edge list, with the node lines in ascending order.",
 "every edge list file without self-loops","composition of copying, on-disk sort and regrouping",a(IO,"edgelist_to_adjacencylist"))
p("C40","adjacencylist_to_edgelist preserves the graph",
 "Converting an adjacency list to an edge list and loading it gives the same graph.",
 "every adjacency list of an undirected graph","self-loops break it",a(IO,"adjacencylist_to_edgelist"))
p("C41","Malformed graph files raise runtime_error",
 "Loading an edge list or adjacency list with a malformed content line throws runtime_error and no other exception, and a file with only well-formed lines does not throw.",
 "every file","all byte strings",a(IO,"parse_edgelist_content_line","load_edgelist","parse_adjacencylist_content_line","load_adjacencylist"))
p("C42","Local graph on disk answers neighbour queries exactly",
 "For an adjacency list file with ascending node ids, AdjacencyListLocalGraph::neighbors(v) returns the edges on the line of v, after any history of previous queries (caches never change answers).",
 "every sorted adjacency list file, every query history","byte-level binary search with two caches",a(G,"AdjacencyListLocalGraph::find_vertex","AdjacencyListLocalGraph::neighbors","AdjacencyListLocalGraph::goto_next_content_line"))
p("C43","Local graph on disk: missing vertices",
 "For a vertex with no line in the file, neighbors throws runtime_error and vertex_exists returns false; for a vertex with a line vertex_exists returns true.",
 "every sorted file, every id, every history","all absent ids",a(G,"AdjacencyListLocalGraph::find_vertex","AdjacencyListLocalGraph::vertex_exists"))
p("C44","Local graph on disk: search terminates",
 "find_vertex terminates within logarithmically many probes of the file size.",
 "every file and id","termination",a(G,"AdjacencyListLocalGraph::find_vertex"))
p("C45","Local graph on disk agrees with the in-memory graph",
 "degree, neighbors, degree_unweighted and vertex_exists of AdjacencyListLocalGraph on the saved adjacency list of g agree with those of g.",
 "every graph, vertex","composition of writer and reader",a(G,"AdjacencyListLocalGraph::degree","AdjacencyListLocalGraph::degree_unweighted")+a(IO,"save_adjacencylist"))
p("C46","SBM graphs are simple undirected graphs",
 "sbm, general_sbm and erdos_renyi return, for every outcome of the random generator, a graph with symmetric 0/1 weights, no self-loop and the requested number of vertices; with exact=true (or small clusters) each pair of vertices is decided by its own random sample against the probability of its two clusters; probability 1 (resp. 0) gives all (resp. none) of the pairs. Parameters out of range throw invalid_argument.",
 "every parameter vector, every random stream and every generator","all random outcomes",a(R,"general_sbm_internal","sample_edges_directly","sample_edges_binomial","sbm","erdos_renyi"))
p("C47","SBM ground truth labels",
 "sbm_gt_labels / general_sbm_gt_labels give vertex v the index of the cluster whose consecutive block contains v, the same cluster the generator uses for v; a size below 1 throws invalid_argument.",
 "all cluster size vectors","universal",a(R,"sbm_gt_labels","general_sbm_gt_labels"))
p("C48","SBM to file equals SBM in memory",
 "general_sbm_edgelist writes exactly the edges that general_sbm would produce from the same random state (and leaves the generator in the same state), so that load_edgelist of the file has the same edge weights as the graph in memory, and the same number of vertices unless the last vertex is isolated.",
 "all parameters, streams","universal",a(R,"general_sbm_edgelist","general_sbm"))
p("C49","Exact KDE does not depend on threads",
 "ExactGaussianKDE.query(matrix) returns for every row the value query(row) returns, (the average kernel value to the data) for every number of hardware threads and every schedule.",
 "every data set, query set, thread count, schedule","schedules and thread counts of the machine",a(K,"ExactGaussianKDE::query","gaussian_kde_exact"))
p("C50","CKNS KDE queries do not depend on threads",
 "For a fixed initialised CKNSGaussianKDE the answer to query(matrix) is, row by row, the answer to query(row), independent of the number of threads, of chunking and of the schedule; and the answers of an estimator do not depend on the schedule of its construction.",
 "every query set, thread count, schedule","schedules",a(K,"CKNSGaussianKDE::query","CKNSGaussianKDE::chunk_query"))
p("C51","E2LSH returns only close candidates and always finds the point itself",
 "E2LSH::get_near_neighbors(q) returns exactly the indexed points that share a bucket with q in at least one of the tables, each once per data point, so an indexed point equal to q is always returned.",
 "every data set, random projection, query","all random outcomes",a(L,"E2LSH::get_near_neighbors","MultiLSHFunction::apply","LSHFunction::apply"))
p("C52","Exact KDE neighbour sampling",
 "sample_neighbors(q, degree, rs) returns for each threshold degree*r (in increasing order of r) the first index whose running kernel sum exceeds it: a valid index, monotone in r; as many results as thresholds when degree is the kernel sum and 0<=r<1.",
 "every data set, query, thresholds","universal",a(K,"ExactGaussianKDE::sample_neighbors"))
p("C53","similarity_graph",
 "similarity_graph(data,a) is the complete weighted graph with weight k(x_i,x_j) between i<>j, no self-loop, independent of the thread count.",
 "every data set, thread count","universal",a(C,"similarity_graph"))
p("C54","approximate_similarity_graph edge slots",
 "Every sampled edge is written to its own slot of the shared edge array whatever the interleaving of threads, each vertex gets exactly its number of samples, and the graph returned is symmetric.",
 "every data set, sampling outcome, schedule","schedules",a(C,"sample_asg_edges","approximate_similarity_graph","KDETreeEntry::sample_neighbors"))
p("C55","CSV matrix files",
 "load_matrix on a file whose content lines are rows of numbers separated by commas, by spaces or by tabs returns the matrix with those rows in order; rows of different lengths make it throw runtime_error; a malformed field makes it throw and never yields a matrix; every accepted file yields a fully initialised matrix with one row per content line; load_matrix(save_matrix(M)) has M's dimensions and M's entries as printed.",
 "every file and every matrix","all files",a(D,"load_matrix","save_matrix","parse_numeric_csv_content_line"))
p("C56","Eigensystems of graph matrices",
 "Given a solver that returns the eigenpairs of largest magnitude of the operator it is passed, compute_eigensystem(g, mat, num, which) returns num eigenpairs of the adjacency, Laplacian or normalised Laplacian matrix of g, with orthonormal vectors, values in decreasing (Largest) or increasing (Smallest) order, and no eigenvalue left out that comes before a returned one; num outside 1..n-1 makes it throw invalid_argument, non-convergence runtime_error; the graph is not changed.",
 "every graph with positive weights (isolated vertices and self-loops included), matrix, number and order","universal",a(S,"compute_eigensystem","compute_eigensystem_largestmag","compute_eigenvectors","compute_eigenvalues"))
p("C57","spectral_cluster labels",
 "spectral_cluster(g,k) throws invalid_argument unless 1<=k<=n/2 and otherwise returns one label in [0,k) per vertex, whatever the eigensolver delivers; the labels are a result of Lloyd's algorithm (nearest centres, means, objective never increasing, at most 100k rounds, stopping when the objective no longer changes), started from k of the points, on the rows of the first k eigenvectors of the normalised Laplacian.",
 "every graph with positive weights, every k","universal",a(C,"spectral_cluster")+a(KM,"RunKMeans","run_lloyd","sampleRowsPlusPlus","randint"))
p("C58","cheeger_cut labels",
 "cheeger_cut(g) returns one label, 0 or 1, per vertex whatever vectors the eigensolver delivers, throws only when the eigensystem cannot be computed (invalid_argument below three vertices) and does not change g; on a graph without isolated vertices label 1 is exactly the sweep set: the first proper prefix of least conductance of the vertices in decreasing order of x(v)/sqrt(degree(v)), x a second eigenvector of the normalised Laplacian.",
 "every graph with positive weights","universal",a(C,"cheeger_cut","sweep_set_conductance"))
p("C59","Thread pool executes every task exactly once",
 "Every task pushed before stop(true) is executed exactly once by one worker and completes before stop(true) returns.",
 "every number of workers and tasks and every interleaving","interleavings",a("stag_lib/multithreading/ctpl_stl.h","thread_pool::push","thread_pool::stop","thread_pool::set_thread"))
p("C60","CKNS shells count every data point once",
 "In every level of a CKNSGaussianKDE each data point contributes to the estimate at a query through exactly one hash unit, with its kernel value divided by the sampling probability if sampled, so that the estimate is unbiased over the random permutation of the data.",
 "every data set, query, level, permutation family","all random outcomes",a(K,"CKNSGaussianKDEHashUnit","ckns_p_sampling","CKNSGaussianKDE::query"))
p("C61","Data points are views of the matrix rows",
 "The data points made from a dense matrix read as the rows of the matrix, in order, whatever is stored; a later write to entry (i,j) of the matrix is seen in coordinate j of point i and in no other coordinate or point.",
 "every matrix shape, memory contents and write","all shapes and values",a(D,"matrix_to_datapoints","DataPoint::DataPoint","DataPoint::to_vector"))
p("C62","Power method",
 "power_method(M, t, x) returns x for t = 0 and otherwise M^t x scaled to norm 1 (or 0 if M^t x = 0); it throws invalid_argument for t < 0, a matrix which is not square or a vector of another length; on a symmetric positive semidefinite matrix the Rayleigh quotient never decreases with t; the angle to the dominant eigenvector shrinks at the rate of the eigenvalue ratio to the power t.",
 "every square matrix, start vector, number of iterations","universal",a(S,"power_method"))
p("C63","Rayleigh quotient",
 "rayleigh_quotient(M, x) is x'Mx / x'x; it is the eigenvalue at an eigenvector, invariant under scaling of x, between 0 and twice the largest degree for a graph Laplacian and between 0 and 2 for a normalised Laplacian; it throws invalid_argument on the zero vector and on mismatched dimensions.",
 "every square matrix and vector, every graph","universal",a(S,"rayleigh_quotient"))
p("C64","Cheeger inequality for cheeger_cut",
 "On a connected graph without self-loops the set labelled 1 by cheeger_cut has conductance at most sqrt(2*lambda_2) and no proper nonempty vertex set has conductance below lambda_2/2, lambda_2 the second smallest eigenvalue of the normalised Laplacian; so the cut found is at most 2*sqrt(best conductance).",
 "every connected weighted graph without self-loops, every vertex set","universal",a(C,"cheeger_cut","sweep_set_conductance"))
p("C65","LSH collision probabilities",
 "LSHFunction::collision_probability(c) is the documented probability (the integral over [0,4]) that two points at distance c collide, to within 1/1000; it is 1 at distance 0, strictly between 0 and 1 otherwise and never larger for a larger distance. E2LSH::collision_probability(K,L,c) is 1-(1-p^K)^L, in [0,1], increasing in L and decreasing in K.",
 "every real distance, every K and L","a real function of a real variable",a(L,"LSHFunction::collision_probability","E2LSH::collision_probability","LSHFunction::apply"))
p("C66","CKNS hash table parameters",
 "The hash tables built for level j of a CKNSGaussianKDE have K>=1 functions and L>=1 tables, and every data point within the level's radius of the query is found with probability at least 1-e^(-K2), that is 1-1/n for the default K2.",
 "every level, kernel parameter and point","real parameters and all random outcomes",a(K,"ckns_gaussian_create_lsh_params","CKNSGaussianKDEHashUnit"))
p("C67","Rounding of degrees, volumes and Laplacians",
 "With weights stored as IEEE doubles, degree(v), total_volume() and the Laplacian entries are within one relative rounding error (2^-53) per addition of the exact values as long as nothing overflows; on a graph with non-negative integer weights of total volume at most 2^53 they are exact, average_degree() is the correctly rounded quotient, and the constructor recovers the graph from its Laplacian.",
 "every graph of finite non-negative doubles reachable by any history","all doubles",a(G,"Graph::degree","Graph::total_volume","Graph::average_degree","Graph::laplacian","Graph::initialise_laplacian_","adjacency_from_adj_or_lap"))
p("C68","Distribution of random graphs",
 "In exact mode (and for every pair of clusters sampled directly) sbm, general_sbm and erdos_renyi include every edge independently with its given probability: over uniform canonical samples the probability of returning a given simple graph is the product over all pairs i<j of p_ij for an edge and 1-p_ij for a non-edge; for erdos_renyi(n,p) it is p^m(1-p)^(n(n-1)/2-m) for each graph with m edges.",
 "every cluster size vector, probability matrix and target graph","a statement about a distribution over all random outcomes",a(R,"general_sbm","sbm","erdos_renyi","sample_edges_directly"))
T="stagtools"
p("C69","What a call does to the disk",
 "load_edgelist, load_adjacencylist and load_matrix change no file and their result depends on the named file only; save_edgelist, save_adjacencylist, save_matrix, the conversions, sort_edgelist and general_sbm_edgelist, when they return normally, have written the named output file and nothing else: no temporary file is left, and the input is untouched unless it is the output. Whatever the outcome, no file other than the named output and temporary files is ever changed.",
 "every disk contents, file name, graph and outcome","all disk states and contents",a(IO,"save_edgelist","save_adjacencylist","sort_edgelist","edgelist_to_adjacencylist","adjacencylist_to_edgelist","copy_edgelist_duplicate_edges")+a(U,"getTempFilename","random_string")+a(R,"general_sbm_edgelist")+a(D,"save_matrix"))
p("C70","Crash safety of the file functions",
 "If the process dies at any point of a call, the input files of the conversions are intact, the output file is either as before or an initial part of the new contents, and a file being sorted in place still exists with all its edges.",
 "every file and every crash point","quantifies over all crash points",a(IO,"sort_edgelist","edgelist_to_adjacencylist","adjacencylist_to_edgelist","save_edgelist","save_adjacencylist"))
p("C71","Failures leave the disk as it was",
 "A missing input, an output that cannot be opened, a malformed line or invalid parameters raise an exception; no file is created, truncated or removed by the failed call.",
 "every disk, file name and malformed file","all failure points",a(IO,"load_edgelist","copy_edgelist_duplicate_edges","adjacencylist_to_edgelist","edgelist_to_adjacencylist","sort_edgelist")+a(R,"general_sbm_edgelist"))
p("C72","Concurrent processes do not disturb each other",
 "Processes which convert or sort different files at the same time produce, under every interleaving of their file operations, what they produce alone.",
 "every interleaving of two processes and every pair of files","all schedules",a(IO,"sort_edgelist","edgelist_to_adjacencylist")+a(U,"getTempFilename","random_string"))
p("C73","Command line tools",
 "stag_edge2adj and stag_adj2edge write a file that loads as the graph of the input file and exit with status 0; stag_sbm writes the graph that general_sbm draws for k clusters of n/k vertices; every wrong use is reported with status EINVAL and nothing is written.",
 "every argument vector and disk","all argument vectors and files",[f"{T}/adj2edge.cpp:main",f"{T}/edge2adj.cpp:main",f"{T}/sbm.cpp:main"])
p("C74","Number of edges of approximately sampled random graphs",
 "With the default approximate sampling, the number of edges general_sbm draws between two large clusters is a normal sample with mean p*M and variance p(1-p)M, rounded down and cut off to 0..M, where M is the number of vertex pairs of the two clusters, and zero if p*M is below one.",
 "every block model and generator state","all generator states and sizes",a(R,"sample_edges_binomial","general_sbm","general_sbm_internal"))
p("C75","Doubles in text files",
 "Saving a graph as an edge list or an adjacency list and loading it again keeps the vertices and the edges and changes no weight by more than a relative 5.01e-6; saving and loading the copy changes nothing more. A double between 1e-307 and 1e308 in absolute value is returned exactly if and only if it is the nearest double to a decimal with at most six significant digits. Decimal text is read as the nearest double; inf and nan are recognised; other text is refused.",
 "every graph of finite doubles with weights from 1.001e-10 to 1e308, a last vertex that is not isolated (and, for edge lists, no self-loop); every double in the range","all doubles and all graphs",a("stag_lib/graphio.cpp","save_edgelist","load_edgelist","save_adjacencylist","load_adjacencylist")+a("stag_lib/data.cpp","save_matrix","load_matrix"))
p("C76","Local clustering finds a set of small conductance",
 "Let C be a set of vertices and let delta be the smallest positive degree. At least half of C, by volume, are good seeds: local_cluster_acl from a good seed, with a locality between 8 phi(C) and 1/4 and an error of at most 1/(8 vol(C)), returns a set whose outer conductance (cut over volume) squared is at most 16 locality ln(4 vol(C)/delta) and whose volume is at most 3/error. In particular local_cluster(graph, seed, target) with target at least 8 vol(C), for a C of conductance at most 1/1000, returns a set of conductance at most sqrt(ln(4 vol(C)/delta)/17) and volume at most 2.1 target.",
 "every graph with non-negative weights and no self-loops, every set C, every good seed, every locality, error and target volume in range","all graphs, all sets and all seeds",a("stag_lib/cluster.cpp","local_cluster","local_cluster_acl","approximate_pagerank","sweep_set_conductance_inner"))
p("C77","Expected edge weights of approximate_similarity_graph",
 "approximate_similarity_graph draws neighbours in proportion to the kernel: if its uniform and binomial draws are independent, then for up to twice the node cutoff of data points the expected weight of u-v before the 1e-10 cut is 4/5 of k(x_u, x_v) for every pair of points. (The exact value is 2/5 of the sum of two shares: the kernel values of u over the leaf of v, added up in row order and cut off at the fraction (m-1)/m of their total, and the same with u and v exchanged. A share never exceeds the kernel value, equals it before the cut-off, and is 0 after it.)",
 "every data set of 2 to 2*cutoff points, every kernel parameter a > 0, every pair of points; sampling probabilities for every tree","a statement about all outcomes of the random number generator at once",a("stag_lib/cluster.cpp","approximate_similarity_graph","KDETreeEntry::sample_neighbors","KDETreeEntry::estimate_weight","sample_asg_edges")+a("stag_lib/kde.cpp","ExactGaussianKDE::sample_neighbors"))
p("C78","PageRank and local clustering in double arithmetic",
 "With IEEE doubles, if the weights are finite and at least 2^-100, the seed vector is non-negative with sum at most 1 and alpha*eps*delta (delta the least positive degree) is at least 4(20*2^-53+kappa), where kappa bounds the relative error of the computed degrees (0 for integer weights of total volume at most 2^53, (1+2^-53)^(n+1)-1 doubled in general), approximate_pagerank returns after fewer than 4/(alpha*eps*delta)+1 pushes; every entry of p and r is finite and non-negative, r(v) < eps'*deg(v), and p(v) and the exact PageRank q(v) satisfy p(v)-e <= q(v) <= p(v)+eps'*deg(v)+e with eps'=eps(1+2^-53)/(1-kappa) and e=4(20*2^-53+kappa)/(alpha*eps*delta). On graphs with integer weights local_cluster returns for every target between 2^-10 and 2^39. (For a positive alpha below the rounding errors it need not return.)",
 "every such graph, seed vector, alpha and eps","all doubles, unbounded number of rounded operations",a("stag_lib/cluster.cpp","push","approximate_pagerank","local_cluster","local_cluster_acl"))
p("C79","Sweep sets, conductance and local clusters in double arithmetic",
 "With IEEE doubles, integer weights and total volume at most 2^53: sweep_set_conductance (for a graph) returns the prefix, of the vector's stored indices in decreasing order of value with ties by index, whose conductance cut/min(vol,total-vol) correctly rounded to double is least, the shortest one if several have it, so its true conductance is at most (1+2^-53)/(1-2^-53) times that of any other prefix (prefixes with one side of volume zero are ignored; the empty set is returned if all are); conductance(g,S) for distinct vertices is the exact quotient correctly rounded (0 if the volume is zero); local_cluster_acl returns the prefix with least rounded cut/vol of the vertices of its PageRank vector ordered by the rounded quotients p(v)/deg(v). (With larger volumes the returned sweep set can be worse than another prefix by a constant factor.)",
 "every such graph, vector of finite doubles, set of vertices, seed, alpha and eps","all doubles and all orders of vertices",a("stag_lib/cluster.cpp","sweep_set_conductance","sweep_set_conductance_inner","conductance","local_cluster_acl"))
p("C80","Accuracy of CKNS kernel density estimates",
 "For data of n points, a > 0, and default parameters, CKNSGaussianKDE::query(q) for a query point of density d >= min_mu = 1/n returns an answer within a factor (1 +- eps) of d with high probability over the K1 = ceil(ln n / eps^2) independent uniform shuffles of the data, provided the hash tables find the points near the query; and every answer whatsoever lies in [0, 2]; with a sampling offset of -log2 n or less the answer is the exact density.",
 "every data set, query different from the data points, number of copies, hash tables, interleaving of the threads that build the structure, and all but an exponentially small fraction of the (n!)^K1 outcomes of the shuffles","a probability over all permutations of data of any size, for data and queries of any kind",a("stag_lib/kde.cpp","CKNSGaussianKDE::initialize","CKNSGaussianKDE::query","CKNSGaussianKDEHashUnit","ckns_p_sampling","median"))
p("C81","Threads of approximate_similarity_graph",
 "approximate_similarity_graph runs its threads without data races, deadlock or endless runs, every chunk of rows is processed exactly once, and every interleaving returns a graph of the documented form.",
 "every number of hardware threads, data set, tree of estimators, contents of the caches, outcome of the random draws and interleaving of the single accesses of the threads","an interleaving that breaks the code may never be scheduled in a test",a("stag_lib/cluster.cpp","KDETreeEntry::estimate_weight","KDETreeEntry::estimate_weights","KDETreeEntry::sample_neighbors","sample_asg_edges","approximate_similarity_graph")+a("stag_lib/random.cpp","get_global_rng"))
p("C82","Threads of the CKNS constructor",
 "The constructor of CKNSGaussianKDE runs its threads without data races, deadlock or endless runs, and after every interleaving each cell of the table of hash units holds exactly the units of its level and copy.",
 "every number of hardware threads, data set, number of copies and levels, outcome of the random draws and interleaving of the single accesses of the threads","an interleaving that breaks the code may never be scheduled in a test",a("stag_lib/kde.cpp","CKNSGaussianKDE::initialize","CKNSGaussianKDE::add_hash_unit","CKNSGaussianKDEHashUnit")+a("stag_lib/lsh.cpp","LSHFunction","E2LSH")+a("stag_lib/random.cpp","get_global_rng"))
p("C83","The data behind an estimator",
 "A CKNSGaussianKDE answers from the data its matrix held when it was constructed, whatever the program later does to that matrix; moving or copying the estimator gives an estimator with the same answers. An ExactGaussianKDE, and each copy of it, answers from the current contents of the caller's matrix as long as the matrix is neither destroyed nor resized. An E2LSH table returns, as pointers into the caller's data, the rows that collided with the query when the table was built.",
 "every history of creating, overwriting, resizing and destroying matrices and creating, copying, moving and destroying estimators","all histories; reading freed memory often goes unnoticed in a test",a("stag_lib/kde.h","CKNSGaussianKDE","ExactGaussianKDE","CKNSGaussianKDEHashUnit")+a("stag_lib/kde.cpp","CKNSGaussianKDE::initialize","CKNSGaussianKDE::query","ExactGaussianKDE::ExactGaussianKDE")+a("stag_lib/data.h","DataPoint")+a("stag_lib/lsh.cpp","E2LSH::E2LSH","E2LSH::get_near_neighbors"))
p("C84","spectral_cluster separates the connected components",
 "If a graph has exactly k connected components, spectral_cluster with k clusters gives two vertices the same label exactly when they are in the same component.",
 "every graph without self-loops and isolated vertices with k components, k at most half the number of vertices; every exact eigensolver (any basis of the eigenspace)","all graphs; the outcome depends on the eigenvectors, on the seeded random initialisation and on the iterations of k-means",a("stag_lib/cluster.cpp","spectral_cluster")+a("stag_lib/KMeansRex/KMeansRexCore.cpp","sampleRowsPlusPlus","discrete_rand","run_lloyd","calc_Mu")+a("stag_lib/spectrum.cpp","compute_eigenvectors"))
p("C85","Zero eigenvalues count the components",
 "The number of zero eigenvalues that compute_eigenvalues reports for the normalised Laplacian is the number of connected components; compute_eigenvectors embeds different components in orthogonal directions and the vertices of a component in one direction, at squared distances from the origin proportional to their degrees.",
 "every graph without self-loops and isolated vertices, every number of eigenvalues, every exact eigensolver","all graphs and all choices of eigenvectors in the eigenspace",a("stag_lib/spectrum.cpp","compute_eigenvalues","compute_eigenvectors","compute_eigensystem"))
p("C86","cheeger_cut on a disconnected graph",
 "If a graph is not connected, cheeger_cut finds a cut without crossing edges: both labels occur and connected vertices have the same label.",
 "every graph with at least three vertices and two components, without self-loops and isolated vertices; every exact eigensolver (any basis of the eigenspace)","all graphs and all choices of eigenvectors in the eigenspace",a("stag_lib/cluster.cpp","cheeger_cut","sweep_set_conductance")+a("stag_lib/spectrum.cpp","compute_eigensystem"))
p("C87","Gaussian kernels, exact densities and similarity graphs in double arithmetic",
 "In IEEE doubles, with an exp that is accurate to eps on numbers that are not positive: a Gaussian kernel value is between 0 and 1 and within (d+5) 2^-52 + eps of the true value, ExactGaussianKDE::query is within (n+d+7) 2^-52 + eps of the mean of the true kernel values, nothing overflows or becomes NaN, and the weights of similarity_graph are such kernel values where they exceed EPSILON and 0 elsewhere.",
 "every kernel parameter up to 2^100, every data set and query of up to 2^49 points and dimensions with finite coordinates up to 2^400 (equal and far apart points, underflow included), every number of threads and schedule","all doubles; rounding errors in every operation",a("stag_lib/kde.cpp","gaussian_kernel","squared_distance","gaussian_kde_exact","ExactGaussianKDE::query")+a("stag_lib/cluster.cpp","similarity_graph"))
p("C88","approximate_similarity_graph in double arithmetic",
 "In IEEE doubles, for data of at most the node cutoff (5000 points by default), approximate_similarity_graph has no undefined behaviour and returns an exactly symmetric graph: rounding never loses a sample (every vertex gets two samples, which are vertices), the degrees are within n((n+d+9) 2^-52 + eps) of their true value, and the weights are within a relative error of 2^-49 of what samples and degrees prescribe.",
 "every data set of 2 to node_cutoff points with finite coordinates up to 2^400, every kernel parameter up to 2^100, all uniform draws in [0,1], every number of threads, schedule and history of the caches","all doubles, all draws and all schedules",a("stag_lib/cluster.cpp","approximate_similarity_graph","KDETreeEntry::estimate_weight","KDETreeEntry::sample_neighbors","sample_asg_edges")+a("stag_lib/kde.cpp","ExactGaussianKDE::sample_neighbors"))
p("C89","Normalised Laplacian, inverse degrees and lazy random walk in double arithmetic",
 "In IEEE doubles the normalised Laplacian (and signless), the inverse degree matrix and the lazy random walk matrix have the entries of the mathematical matrices up to a relative error of a few roundings plus one per stored neighbour; entries without an edge are exact; the columns of the lazy random walk sum to one up to the same error; and the normalised Laplacian is symmetric.",
 "every reachable graph of doubles with weights between 2^-300 and 2^300 and at most 2^40 vertices, every entry","all weights and all graphs",a("stag_lib/graph.cpp","initialise_normalised_laplacian_","initialise_normalised_signless_laplacian_","initialise_inverse_degree_matrix_","initialise_lazy_random_walk_matrix_"))
p("C90","Threads that query one Graph at the same time",
 "A Graph object can be queried by several threads at the same time: there is no data race, no deadlock, the graph does not change, and every thread gets the answers it would get alone.",
 "every graph, every number of threads and lists of queries, every interleaving","a race shows only in some interleavings, and most of them give the right answer",a("stag_lib/graph.cpp","initialise_degree_matrix_","initialise_inverse_degree_matrix_","initialise_laplacian_","initialise_lazy_random_walk_matrix_","degree","total_volume"))
p("C91","Expected quality of k-means",
 "The k-means step of spectral clustering starts from k-means++ centres: with independent uniform random numbers the first centre is a uniformly random point and each further one a point drawn with probability proportional to its squared distance to the nearest centre so far; the expected cost of the starting centres, and of the clustering returned after any number of rounds, is at most 8(2 + ln K) times the cost of any clustering into K clusters; it never fails and never returns a clustering worse than its starting centres.",
 "all point sets of any dimension and size, all K up to the number of points, all numbers of rounds, all competing clusterings, all values of the random numbers",
 "an expectation over continuous random numbers compared with the best of exponentially many clusterings",
 a("stag_lib/KMeansRex/KMeansRexCore.cpp","sampleRowsPlusPlus","discrete_rand","randint","run_lloyd","RunKMeans")+a("stag_lib/KMeansRex/mersenneTwister2002.h","my_genrand_double")+a("stag_lib/cluster.cpp","stag::spectral_cluster"))
p("C92","Spectral clustering finds well-separated clusters",
 "Let the vertices of a graph without self-loops and without isolated vertices be divided into k non-empty clusters of at most s_max vertices, with the (k+1)-st smallest eigenvalue lam of the normalised Laplacian positive. If spectral_cluster(g, k) returns labels, at most 4 s_max (E/lam + c) vertices are misplaced (at most half of the vertices that share their label are in their cluster), where E is the total energy of the clusters (the sum of their conductances when degrees are equal inside each cluster) and c is the k-means cost of the labels in the spectral embedding; below 1 the labels are exactly the clusters. With independent uniform random numbers the expected number of misplaced vertices, and the probability that the labels are not exactly the clusters, are at most 4 s_max (1 + 8(2 + ln k)) E/lam.",
 "every graph, every division into k clusters with 2k <= n, every eigensolver that meets its contract, every outcome of the random numbers (average over all of them)",
 "a statement about all graphs and all ground-truth clusterings at once, and about an average over real-valued random numbers; the suite clusters a few graphs with one seed",
 a("stag_lib/cluster.cpp","stag::spectral_cluster")+a("stag_lib/spectrum.cpp","stag::compute_eigenvectors","stag::compute_eigensystem")+a("stag_lib/KMeansRex/KMeansRexCore.cpp","RunKMeans","sampleRowsPlusPlus"))
p("C93","cheeger_cut tolerates inexact eigenvectors",
 "On a graph with at least three vertices, none isolated and no self-loops, cheeger_cut returns a proper cut whatever two vectors the eigensolver hands it. Its conductance is at most sqrt(2 x^T N x / |x'|^2), where x is the vector of the larger value, N the normalised Laplacian and x' the part of x orthogonal to the square roots of the degrees. Hence if x has residual |Nx - mu x| <= delta |x| and its cosine with the square roots of the degrees is at most eta < 1, the conductance is at most sqrt(2(mu+delta)/(1-eta^2)), and on a connected graph at most sqrt((4 phi + 2(tau+delta))/(1-eta^2)) for the conductance phi of every cut when mu exceeds the second eigenvalue by at most tau.",
 "every such graph, every pair of vectors of the right length and values of the eigensolver (converged or not), every competing cut",
 "the eigensolver's rounding and stopping criterion decide the vectors; the claim is for all of them and against exponentially many cuts",
 a("stag_lib/cluster.cpp","stag::cheeger_cut","stag::sweep_set_conductance")+a("stag_lib/spectrum.cpp","stag::compute_eigensystem"))
p("C94","spectral_cluster tolerates inexact eigenvectors",
 "In the setting of the property on well-separated clusters, let the eigensolver return k vectors whose total squared distance to some orthonormal basis of the span of the first k eigenvectors is at most eps2. Then spectral_cluster returns labels that misplace at most 4 s_max (E/lam + 2 eps2 + 2c) vertices (c the k-means cost of the labels in the embedding used), exactly the clusters when this is below 1; with independent uniform random numbers the expected number of misplaced vertices and the probability of not recovering the clusters are at most 4 s_max ((1 + 32(2+ln k)) E/lam + (2 + 32(2+ln k)) eps2).",
 "every graph, every division into k clusters with 2k <= n, every output of the eigensolver within the error, every outcome of the random numbers (average over all of them)",
 "all eigensolver outputs within a tolerance, all graphs, all ground-truth clusterings and an average over real-valued random numbers",
 a("stag_lib/cluster.cpp","stag::spectral_cluster")+a("stag_lib/spectrum.cpp","stag::compute_eigenvectors","stag::compute_eigensystem")+a("stag_lib/KMeansRex/KMeansRexCore.cpp","RunKMeans","sampleRowsPlusPlus"))
p("C95","Cuts of approximate_similarity_graph are concentrated",
 "For up to twice the node cutoff of data points (10000 by default), every vertex u of approximate_similarity_graph draws two vertices independently, v with probability share(u,v)/degree(u), independently of the other vertices. Therefore the cut of any set of vertices, and any Laplacian energy sum w(u,v)(x_u-x_v)^2, is concentrated around its expected value mu: if the kernel values of every point add up to at most d, the cut in the returned graph is above (1+eps) mu with probability at most exp(-5 eps^2 mu/(3d)) and below (1-eps) mu - 2n/10^10 with probability at most exp(-5 eps^2 mu/(2d)).",
 "every data set of 2 to 2*cutoff points, every kernel parameter a > 0, every set of vertices and every vector x, every eps in [0,1]; the law of the samples for every tree and number of samples",
 "a statement about the probability of rare outcomes of the random number generator, for every data set and every cut",
 a("stag_lib/cluster.cpp","approximate_similarity_graph","KDETreeEntry::sample_neighbors","KDETreeEntry::estimate_weight","sample_asg_edges")+a("stag_lib/kde.cpp","ExactGaussianKDE::sample_neighbors"))
p("C96","Random graphs: concentration and connectivity",
 "When the generator flips one coin for every pair of vertices (exact sampling, or blocks below the exact threshold), every weighted sum of the edges of a graph of general_sbm (its number of edges, the degree of a vertex, the weight of a cut) with coefficients between 0 and M is within (1 +- eps) of its mean mu with probability at least 1 - 2 exp(-eps^2 mu/(3M)). If every pair is joined with probability at least q, then with probability at least 1 - 2(exp(n exp(-eps^2 q n/6)) - 1) every cut of the graph is within (1 +- eps) of its mean, for all 2^n sets of vertices at once, and with probability at least 2 - exp(n exp(-q n/4)) Graph::is_connected answers true. In particular erdos_renyi(n,p) is connected with probability at least 1 - 2 delta if p n >= 4 ln(n/delta).",
 "every number and size of blocks, every probability matrix, every eps in [0,1]; the probability is over all tapes of the generator",
 "a statement about the fraction of exceptional outcomes of the random number generator, and about exponentially many cuts at once",
 a("stag_lib/random.cpp","stag::general_sbm","stag::sbm","stag::erdos_renyi","general_sbm_internal","sample_edges_directly")+a("stag_lib/graph.cpp","stag::Graph::is_connected")+a("stag_lib/random.h","general_sbm","erdos_renyi"))
p("C97","Spectral clustering finds clusters of large inner conductance",
 "If every one of the k planted clusters, taken as a graph of its own, has conductance at least phi, and every vertex of the graph (positive weights, no self-loops, no isolated vertices) keeps at least the share rho of its degree inside its own cluster, then the (k+1)-st smallest eigenvalue of the normalised Laplacian is at least rho phi^2/2; and with independent uniform numbers in place of the generator's, the expected number of vertices that spectral_cluster misplaces, and the probability that its labels are not exactly the clusters, are at most 8 smax (1 + 8(2 + ln k)) E/(rho phi^2), where smax is the size of the largest cluster and E the sum of the clusters' energies (their conductances, when degrees are equal inside a cluster). The labels actually returned (seed 42) misplace at most 4 smax (2E/(rho phi^2) + c) vertices, c their k-means cost. No eigenvalue appears in the hypotheses: they are cuts and degrees of the graph.",
 "every weighted graph, every number and shape of clusters, every phi and rho, every eigensolver that meets its contract; the expectation is over the uniform draws of k-means++",
 "an inequality between the cuts of all subsets of all clusters, an eigenvalue and the average of a randomised algorithm",
 a("stag_lib/cluster.cpp","stag::spectral_cluster")+a("stag_lib/spectrum.cpp","compute_eigenvectors")+a("stag_lib/KMeansRex/KMeansRexCore.cpp","sampleRowsPlusPlus","run_lloyd"))
p("C98","Spectral clustering recovers the blocks of the stochastic block model",
 "sbm(n,k,p,q) followed by spectral_cluster with the same k recovers the labels of sbm_gt_labels: for all but a fraction delta of the tapes of the generator (delta explicit, exponentially small in the expected degrees), the (k+1)-st eigenvalue of the normalised Laplacian of the returned graph is at least (1 - phi_q)/16, where phi_q is the expected share of the degree of a vertex that leaves its block, and the expected number of misplaced vertices is at most 128 (17 + 8 ln k) V (phi_q + eps^2)/(1 - phi_q), V the number of vertices; the labels actually returned (seed 42) misplace at most 128 V (phi_q + eps^2)/(1 - phi_q) + 4 (V/k) c vertices, c their k-means cost. In particular the second eigenvalue of a graph of erdos_renyi(n,p) is at least 1/16 for all but a fraction delta of the tapes.",
 "every n, k, p, q and 0 < eps <= 1/10; the probability is over all tapes of the generator, the expectation over the uniform draws of k-means++",
 "a statement about the fraction of exceptional random graphs and about the average over a second source of randomness, for the composition of the generator with the clustering algorithm",
 a("stag_lib/random.cpp","stag::sbm","stag::sbm_gt_labels","stag::erdos_renyi")+a("stag_lib/cluster.cpp","stag::spectral_cluster"))
p("C99","Sparse cuts of random graphs are sparse cuts of the block model",
 "When the generator flips one coin for every pair and every pair is joined with probability at least q > 0, then for all but a fraction 2(exp(n exp(-eps^2 q n/6)) - 1) of its tapes the conductance of every one of the 2^n sets of vertices of the graph of general_sbm is within the factor r = (1+eps)/(1-eps) of its conductance in the block model (edges weighted by their probabilities). On such a graph cheeger_cut labels a set whose conductance in the block model is at most 2 r sqrt(r phi(T)) for every set T; and for every set C with cut/volume at most 1/(1000 r) in the block model there are seeds with at least the share 1/(2r) of the volume of C from which local_cluster, with any target volume of at least 8(1+eps) vol(C), returns a set l with (cut(l)/vol(l))^2 at most r^2 ln(4 r vol(C)/dmin)/17 in the block model, dmin being the least expected degree.",
 "every number and size of blocks, every probability matrix with positive entries, every 0 <= eps < 1; the probability is over all tapes of the generator, the guarantee for all sets of vertices at once",
 "a statement about exponentially many sets of vertices, the fraction of exceptional random graphs, and two clustering algorithms run on all the others",
 a("stag_lib/random.cpp","stag::general_sbm")+a("stag_lib/cluster.cpp","stag::cheeger_cut","stag::local_cluster"))
p("C100","The adjusted Rand index measures misplaced vertices",
 "For at most 77936 points the value of adjusted_rand_index, when it is a number, lies between -1 and 1, and it is 1 exactly if the two clusterings put the same points together. If the true clustering has k >= 2 clusters of s >= 2 points each, and m points are misplaced (at most half of the points that share their label are in their cluster) by labels between 0 and k-1, the value is a number and at least 1 - 2m/(s-1). For the labels of spectral_cluster it is at least 1 - 8 s/(s-1) (E/lam + c), where E is the energy of the clusters (the sum of their conductances when degrees are equal inside each cluster), lam the (k+1)-st smallest eigenvalue of the normalised Laplacian and c the k-means cost of the labels; and on average over the random numbers of k-means++ it is at least 1 - 8 s/(s-1) (1 + 8(2 + ln k)) E/lam.",
 "every pair of label vectors of equal length up to 77936 (beyond which the code overflows, C30), every k and s, every graph with positive weights, no self-loops and no isolated vertices, every eigensolver that meets its contract; the expectation is over the uniform draws of k-means++",
 "an inequality between two different measures of agreement for all labellings, combined with a spectral bound and the average of a randomised algorithm",
 a("stag_lib/cluster.cpp","stag::adjusted_rand_index","nChoose2","contingency_table","stag::spectral_cluster"))
p("C101","The adjusted Rand index in double arithmetic",
 "For at most 77936 points, whenever the exact Hubert-Arabie index of two label vectors is a number x, adjusted_rand_index returns a finite double within 24 n 2^-53 of x, n being the number of points, which never exceeds 1; it returns exactly 1 for two labellings that put the same points together (unless they consist of one cluster or of single points); the very same double is returned when the arguments are swapped and when the clusters are renumbered; invalid vectors are refused. The exact index is undefined exactly if there are fewer than two points, or if both clusterings are one cluster, or both consist of single points; then the result is NaN for up to 13777 points, but no longer beyond: it is 1 for 13778 points in one cluster.",
 "every pair of label vectors of equal length up to 77936, every renumbering",
 "the rounding errors depend on the counts of pairs, up to 2^32 pairs, whose products are not representable; cancellation in the numerator and the denominator could destroy any number of digits",
 a("stag_lib/cluster.cpp","stag::adjusted_rand_index","nChoose2","contingency_table"))
p("C102","The power method without a spectral gap",
 "For a symmetric positive semidefinite matrix and a start vector x, the Rayleigh quotient q of the vector returned by power_method after t iterations satisfies (q/l)^(2t) >= <x,v>^2/<x,x> for every unit eigenvector v of positive eigenvalue l not orthogonal to x, however close the other eigenvalues are. So if the start has at least the share exp(-a) of its squared length in the direction of an eigenvector for the largest eigenvalue lam, then lam exp(-a/(2t)) <= q <= lam; the default number of iterations, 10 ceil(ln n), gives q >= lam exp(-c/20) for every start with share at least n^(-c). On a 1 by 1 matrix the default is no iteration, and the start is returned as it is. The same holds for the Laplacian and the normalised Laplacian of every graph with positive weights.",
 "every symmetric positive semidefinite matrix of every size, every start vector, every number of iterations, every distribution of the eigenvalues",
 "multiple or nearly equal eigenvalues make the vector itself converge arbitrarily slowly; the bound on the quotient is over all matrices, starts and iteration counts",
 a("stag_lib/spectrum.cpp","stag::power_method","stag::rayleigh_quotient"))
with open('/verif/properties.jsonl','w') as f:
    for x in P: f.write(json.dumps(x)+"\n")
print(len(P))
