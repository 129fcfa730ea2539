# DESIGN: a Rocq (Coq 8.16.1) model of the STAG library

## 1. Approach

The library is C++20 on top of Eigen and Spectra. We model, function by
function, the *logic* of `stag_lib/*.cpp` as total, executable Gallina
functions and prove properties of these functions for all inputs. Each
definition carries a comment `(* repo: file:lines ... *)`. Nothing is executed
against the C++; the tie to the code is the reading recorded in the comments.

Outcomes: `Ok a`, `Throw e` (the C++ exception class), `UB` (undefined
behaviour: out-of-range Eigen access, negative index, ...) and, for loops that
may not terminate, an explicit out-of-fuel value. Theorems never treat
out-of-fuel as a result: they prove that a sufficient fuel exists and that the
result does not depend on it, or show divergence for every fuel.

Assertions: release build (`NDEBUG`), so `assert` is a no-op in the model.
Debug-build assertion failures are mentioned in comments where they matter.

### Numbers

`StagReal` is `double`. The model is parametric in an operational class
`Num W` (0, 1, +, -, *, /, comparisons, EPSILON), so the same Gallina code is
instantiated with
* binary64 (`Coq.Floats.SpecFloat`, executable, axiom free) for statements about rounding;
* `Qc` / `Q` exact rationals for executable witnesses;
* `R` for statements involving sqrt/exp/log.
Structural theorems (symmetry, caches, counting, frame properties, file
formats, reachability, thread independence) hold for **every** `Num`, hence
for doubles. Theorems which need algebra (Laplacian identities, PageRank
invariant, ...) assume the law class `ExactNum W`: an injective embedding
`toR : W -> R` that commutes with the operations. These are theorems about
exact arithmetic; floating-point rounding is *not* covered by them and each one
says so. Where rounding is known to falsify the property, a `_refuted`
theorem over binary64 exhibits the failure. C67 bounds the rounding errors of
degrees, volumes and Laplacians in binary64 and shows integer weights to be exact.

### Integers

`StagInt` is `int64_t`. Vertex ids and sizes are `nat` inside the model (`Z`
for API arguments that may be negative). Overflow is not modelled except where
noted (ARI products, `int` ids in files).

### Eigen

`Eigen::SparseMatrix<double, ColMajor>` in compressed form is modelled by
`sprs` (a row count and a list of columns, each a list of `(row, value)`
strictly increasing in row). Assumed of Eigen: `setFromTriplets` sums
duplicates in order, `+`/`-` produce the union pattern and keep explicit zeros,
`prune`, `coeff`, `coeffRef`, `conservativeResize` and iteration behave as
documented. Eigen's dense algebra is modelled by sums.

## 2. Trusted base

* Coq's kernel (coqc 8.16.1; `vm_compute` is used in the concrete examples and refutations).
* The axioms `Print Assumptions` lists for each theorem: section 4. They are the four axioms
  behind the standard library's real numbers and classical logic (`sig_not_dec`, `sig_forall_dec`,
  `functional_extensionality_dep`, `classic`). No axiom is added by this development; the other constants that
  `vcheck` lists under library_axioms come with the loaded library modules (the opaque interface of Coq.Reals, ssreflect's `Under_rel`).
* The reading of the C++ source recorded in the comments of the model, and the contracts of Eigen, the STL
  and Spectra listed here and in those comments.

### What is modelled, file by file

| repo file | model | remarks |
|---|---|---|
| `graph.cpp`, `graph.h` | `Sparse.v`, `Graph.v` | all of the Graph class (constructors, caches, matrices, add/remove edge, queries, subgraph, disjoint union, operators), the standard graphs. Histories of API calls are lists of `op`s. |
| `graph.cpp` AdjacencyListLocalGraph | `LocalDisk.v` | byte-level file, binary search, caches; `LocalGraph` interface = record `lgraph` |
| `utility.cpp` | `Graph.v`, `Sparse.v` | temporary file names: `FileSys.v` |
| `cluster.cpp` 1-372, 433-600 | `Cluster.v` | components, PageRank, sweep set, conductance, local clustering, symmetric difference |
| `cluster.cpp` 377-431, KMeansRex | `KMeans.v`, `Cheeger.v` | spectral_cluster, cheeger_cut; the Mersenne twister is modelled bit by bit |
| `cluster.cpp` 385-566 metrics | `Metrics.v` | `NaN` results are `None`, int64 overflow modelled in the adjusted Rand index |
| `cluster.cpp` 571-1005 | `SimGraph.v` | similarity_graph, approximate_similarity_graph: KDE tree, sampling, edge slots; threads as relations |
| `graphio.cpp` | `Text.v`, `GraphIO.v` | character-level parser and writer, on-disk quicksort, conversions |
| `random.cpp` | `RandomGraph.v` | generators with the random engine as an arbitrary state machine |
| `spectrum.cpp` | `Spectrum.v` | Spectra is a parameter with an explicit contract |
| `kde.cpp`, `lsh.cpp`, `lsh.h` | `Kde.v`, `LshProb.v`, `LshOffset.v`, `LshParams.v` | exact KDE, CKNS KDE, E2LSH; hash functions are parameters; collision probabilities over R |
| `data.cpp` | `Data.v` | CSV reading and writing |
| file operations of `graphio.cpp`, `random.cpp`, `data.cpp`, `utility.cpp` 136-163 | `FileSys.v` | opening, creating, truncating, removing and copying files, temporary names; exceptions, crashes and interleavings of processes |
| `stagtools/*.cpp` | `Tools.v` | the three mains, except what they print |
| doubles in `graph.cpp` | `FloatFacts.v`, `GraphFloat.v`, `MatFloat.v` | rounding analysis of the Num-generic model at binary64 |
| doubles in `cluster.cpp` (PageRank, sweep sets, conductance, local clustering) | `PageRankFloat.v`, `PageRankFloat2.v`, `SweepFloat.v`, `SweepFloat2.v` | rounding analysis of the Num-generic model at binary64 |
| text of doubles (`std::stod`, `operator<<`) | `TextF64.v` | binary64, decimal input, six-digit output |
| doubles in `kde.cpp` (exact KDE) and `cluster.cpp` (similarity graphs) | `KdeFloat.v`, `AsgFloat.v`, `LibmF64.v` | rounding analysis of the Num-generic model at binary64; exp has an accuracy contract |
| distribution of `random.cpp` | `RandomDist.v` | counting over tapes of canonical samples |
| distribution of the k-means++ seeds (`KMeansRexCore.cpp` 86-165) | `Kpp.v` | the seeding as a function of its random numbers, proved equal to `KMeans.v`; integrals over uniform numbers |
| spectral clustering of graphs with well separated clusters (`cluster.cpp` 37-65) | `PartMath.v`, `SpecQual.v` | `spectral_cluster` as a function of its random numbers, proved equal to `KMeans.v` with seed 42; exact arithmetic, eigensolver by contract |
| `cheeger_cut` and `spectral_cluster` with inexact eigenvectors (`cluster.cpp` 37-107) | `CheegerInexact.v`, `SpecInexact.v` | the models of `Cheeger.v`, `KMeans.v`, `SpecQual.v` with an arbitrary eigensolver |
| cuts of `approximate_similarity_graph` (`cluster.cpp` 626-905) | `AsgLaw.v`, `AsgConc.v`, `AsgCut.v` | the draws of `SimExpect.v`; exact arithmetic, up to twice the node cutoff |
| random graphs, concentration and connectivity (`random.cpp`, `graph.cpp`: `is_connected`) | `RandomConc.v`, `RandomCuts.v`, `RandomConn.v` | the tapes of C68; exact arithmetic; one coin per pair |
| clusters of large inner conductance, planted partitions (`cluster.cpp`, `spectrum.cpp`, `random.cpp`) | `InnerMath.v`, `InnerCond.v`, `PlantedDet.v`, `PlantedProb.v` | real arithmetic; eigensolver by contract; the tapes of C68 for the graph, independent uniform numbers for k-means |
| conductance in random graphs (`random.cpp`, `cluster.cpp`) | `RandomPhi.v` | the tapes of C68; real arithmetic |
| adjusted Rand index and misplaced points (`cluster.cpp`) | `RandIndex.v` | exact int64 arithmetic, real division |
| adjusted Rand index in doubles (`cluster.cpp`) | `AriFloat.v` | binary64, counts exact int64 |
| default number of iterations of the power method (`spectrum.cpp`) | `SpectrumGap.v` | real logarithm |
| distribution of the samples of `cluster.cpp` 743-773 | `SimExpect.v` | integrals over uniform draws, binomial sums |
| threads of `cluster.cpp` 673-932 | `Threads.v`, `AsgThreads.v` | every lock, cache access, edge store and generator draw is a step; arbitrary interleaving |
| threads of `kde.cpp` 292-441, `lsh.cpp` 106-187 | `KdeThreads.v` | every draw, lock and push is a step; arbitrary interleaving |
| threads that query a Graph (`graph.cpp` 147-206, 294-339, 482-619) | `GraphThreads.v` | every access to a flag, a matrix or the adjacency matrix is a step; arbitrary interleaving |
| pointers and ownership in `kde.h`, `lsh.h`, `data.h` | `KdeLife.v` | heap of matrices, implicit copies and moves, user histories |
| `multithreading/ctpl_stl.h` | `ThreadPool.v` | small-step interleaving semantics |

### Simplifications that hold throughout

* Release build: `assert` does nothing.
* `StagInt` is unbounded, except in the adjusted Rand index, file ids (`stoi`), k-means iteration counts and the 32-bit generator.
* Number/text conversion (`stod`, `operator<<` of a double) is a parameter with a stated contract (`Text.v`) in C34-C41 and C69-C73; `TextQc.v` gives an instance with rationals and `TextF64.v` one with IEEE doubles (correctly rounded decimal input, six-digit `%g` output, ERANGE as out_of_range; hexadecimal input left out), used in C75.
* Random engines are arbitrary state machines; distributions are used through the range contract of the STL.
* Parallel code: tasks write disjoint slots or use the atomic/mutex operations of the source; executions are all interleavings at task
  (KDE, similarity graph) or instruction (thread pool) granularity under sequential consistency.
* Iteration order of `unordered_map`/`unordered_set` is an arbitrary permutation.
* `std::stable_sort` is modelled by stable insertion sort with the same comparator (this is the unique result for a strict weak order; with
  NaN keys the C++ behaviour is undefined and the model picks one result).

### Not modelled

Memory allocation failure, I/O errors other than a missing input or an output that cannot be opened, power loss (a crash is the death of the process), links between file names, progress bars (`indicators/`), the quality of
`std::random_device`, numerical convergence of Spectra (its contract is a hypothesis), the seeding of std::rand, the effect of the data race of several threads
drawing from the global random engine (its presence is C81/C82; results are proved as if draws were atomic), the Gaussian distribution of LSH projections, the SWIG/Python layers.

## 3. Properties: plan

* **C01** Graph built from an adjacency matrix keeps every weight: Graph.v `make_graph` over `sprs`; any Num for coefficients; algebraic facts about prune.
* **C02** A constructed Graph is undirected; asymmetric input is refused: is_symmetric modelled entry by entry; success => symmetric under lawful eqb.
* **C03** Laplacian round trip: ExactNum: full round trip. binary64: refuted by a witness where rounding makes a column total negative.
* **C04** A matrix that is neither an adjacency matrix nor a Laplacian is refused: case analysis of the scan fold.
* **C05** Symmetry is invariant under every history: induction over op lists, any Num with x=x reflexive equality; invariants wf+symmetric.
* **C06** add_edge changes exactly one edge: lookup lemma for coeffRef; self-loop case refuted (weight grows by 2w).
* **C07** remove_edge removes exactly one edge: lookup lemmas.
* **C08** Matrices are never stale: cache invariant (flag set => stored matrix = function of adjacency) by induction over op lists, any Num.
* **C09** has_self_loops is exact: invariant by induction over histories.
* **C10** number_of_edges counts undirected edges: counting argument on symmetric sparse matrices; explicit zero case refuted.
* **C11** Degrees, total volume and average degree: ExactNum sums.
* **C12** Local queries are exact and reject bad vertices: list lemmas about columns; any Num.
* **C13** The Laplacian is the Laplacian: ExactNum; quadratic form by double sums.
* **C14** Normalised Laplacians: R with sqrt.
* **C15** Lazy random walk matrix: ExactNum; self-loop and isolated-vertex statements refuted.
* **C16** Graph equality: normal form uniqueness of sprs.
* **C17** Graph addition and scaling: coefficients of + and scaling.
* **C18** Induced subgraph: fold invariants.
* **C19** Disjoint union: coefficients on blocks for second graphs whose vertex 0 is not isolated; general case refuted.
* **C20** Standard graphs: coefficients of setFromTriplets of the generated triplets.
* **C21** Sparse matrix utilities: list inductions.
* **C22** connected_component is reachability: DFS invariant: stack/visited; fuel bound n.
* **C23** connected_components partitions the graph: outer loop invariant.
* **C24** Personalised PageRank invariant: push invariant, linear operator characterised on finite support (ExactNum/R).
* **C25** Approximate PageRank post-condition: queue invariant: every violated vertex is in the queue.
* **C26** Approximate PageRank terminates: potential argument: each push removes at least alpha*eps*deg mass; alpha=0 refuted by diverging example.
* **C27** sweep_set_conductance is optimal among prefixes: fold invariant with cut/volume spec sums.
* **C28** conductance: sum manipulations; self-loop/duplicate variants refuted.
* **C29** local_cluster: composition of C24-C27; the volume bound because every vertex with a PageRank entry keeps a residual of at least (1-alpha)/2*eps*deg.
* **C30** Adjusted Rand index: counting pairs; Z and R arithmetic; overflow refuted.
* **C31** Mutual information: R logarithms; Gibbs inequality.
* **C32** symmetric_difference: sorted lists.
* **C33** Line endings do not matter: state machine on list of characters.
* **C34** load_edgelist semantics: string level parser model, fold over lines.
* **C35** Edge list round trip: partial: proved for loop-free graphs with last vertex non isolated and weights that print exactly; rest refuted.
* **C36** Adjacency list round trip: as C35.
* **C37** sort_edgelist sorts: model of on-disk quicksort on line arrays; stable sort uniqueness.
* **C38** copy_edgelist_duplicate_edges: fold over lines.
* **C39** edgelist_to_adjacencylist preserves the graph: composition.
* **C40** adjacencylist_to_edgelist preserves the graph: composition, self-loops refuted.
* **C41** Malformed graph files raise runtime_error: exception analysis; out_of_range refuted.
* **C42** Local graph on disk answers neighbour queries exactly: binary search over byte offsets; caches as maps; invariant over histories.
* **C43** Local graph on disk: missing vertices: as C42.
* **C44** Local graph on disk: search terminates: fuel = log2 of size; hang on trailing blank lines refuted.
* **C45** Local graph on disk agrees with the in-memory graph: composition.
* **C46** SBM graphs are simple undirected graphs: random stream as a list/oracle; for all oracles.
* **C47** SBM ground truth labels: list lemma.
* **C48** SBM to file equals SBM in memory: same oracle run of both functions.
* **C49** Exact KDE does not depend on threads: chunking arithmetic; tasks writing disjoint result slots; any permutation/interleaving of tasks.
* **C50** CKNS KDE queries do not depend on threads: as C49 for query chunks.
* **C51** E2LSH returns only close candidates and always finds the point itself: bucket map model.
* **C52** Exact KDE neighbour sampling: running sum loop.
* **C53** similarity_graph: slot arithmetic.
* **C54** approximate_similarity_graph edge slots: atomic slot counter model; interleavings.
* **C55** CSV matrix files: parser model.
* **C56** Eigensystem shift: linear algebra on eigen pairs, solver contract as hypothesis.
* **C57** spectral_cluster labels: validation and label range for all oracles.
* **C58** cheeger_cut labels: composition with C27.
* **C59** Thread pool executes every task exactly once: small step semantics of the pool: all interleavings.
* **C60** CKNS shells count every data point once: shell radii and rates over R; identical points and rounding refuted.
* **C61** Data points are views of the matrix rows: pointer arithmetic over a row-major buffer.
* **C62** power_method: iterates are normalised powers; Rayleigh quotient monotone; convergence over R.
* **C63** rayleigh_quotient bounds: quadratic forms.
* **C64** cheeger_cut quality: Cheeger's inequality for the sweep set, given exact eigenpairs.
* **C65** LSH collision probability: integral characterisation with Coquelicot; monotonicity on each branch, refuted across 1.
* **C66** CKNS hash table parameters: counting argument over R; refuted for small parameters.
* **C67** Rounding of degrees, volumes and Laplacians: SpecFloat operations shown to be correctly rounded real operations (Flocq), induction over the summation order of the code; integers up to 2^53 exact.
* **C68** Distribution of random graphs: counting the tapes of uniform grid samples that lead to a given graph (bijection with a product of finite sets).
* **C69** What a call does to the disk: file functions as programs over a disk, one action at a time (free monad); footprints by structural induction.
* **C70** Crash safety: reachable disks after every prefix of the actions; sort window and torn saves refuted.
* **C71** Failures: execution of the same programs on missing, unwritable and malformed files; several refutations.
* **C72** Concurrent processes: interleaving semantics, separation of footprints; refuted for equal temporary names.
* **C73** Command line tools: mains composed from the file functions and C39, C40, C48.
* **C74** Number of edges of the approximate sampler: the events of one stage counted over the pairs of its two clusters; refuted mean within a cluster.
* **C75** Text of doubles: `TextF64.v` implements decimal input and six-digit output on binary64; error analysis with Flocq's rounding theory, then whole graphs through the C35/C36 round trips of the re-read graph.
* **C76** Quality of local clustering (Andersen, Chung, Lang): Lovász–Simonovits curve of the approximate PageRank vector (`Mixing.v`), escape mass of PageRank started in a set, averaging over seeds (`AclQuality.v`); exact arithmetic.
* **C77** Expected weights of the approximate similarity graph: iterated integrals over uniform draws, sums over binomial draws (`SimExpect.v`, a distribution over the answers that `SimGraph.v` allows); induction over the tree; proportionality refuted
* **C78** PageRank in doubles: relative error of one push by Flocq's rounding lemmas; potential argument (mass of r) for termination; accuracy by testing p and r against the dual solution (stopping probabilities of the walk), which turns each push error into an additive error per unit of mass removed. A two-vertex run with alpha = 2^-60 cycles (computed, then induction on the fuel).
* **C79** Sweep sets in doubles: with integer weights and volume at most 2^53 every cut, volume and denominator in the loop is an exactly represented integer (loop invariant), so only the final division rounds; minimality of the rounded quotient is the loop invariant, and monotonicity of rounding gives the factor. Counterexample with a weight of 2^53 computed by the kernel.
* **C80** Accuracy of CKNS estimates over the reals: a copy's estimate at a level is a sum over a uniform permutation's prefix; first and second moments over all n! permutations by counting (KdeAcc1), variance at most spread * sum of kernels, Chebyshev, then the median of K independent copies (at most (N/2)^K of the N^K tuples have a bad majority, KdeAcc2), union bound over the levels, and the acceptance test gives the level's size in terms of the answer (KdeAcc5-6). Counterexamples for n not a power of two and n = 4 hold for every permutation (KdeAcc7). Over R ln 0 = 0 where C has -inf: an answer 0 is tested only at levels with log_nmu > 0 or at the last level for min_mu >= 1/n, where both give the same branch; the theorems that depend on the accepting level are for min_mu = 1/n. Hash tables finding the near points is a hypothesis (tables_find; its probability is C65/C66). The shuffle (Eigen transpositions of a std::shuffle'd index vector) is uniform by hypothesis.
* **C81** Threads of approximate_similarity_graph: a task is a tree of accesses (Threads.v), P workers take tasks in order and are interleaved at every access. Lock discipline (`safe`: a cache only under its own mutex, an edge slot only by its owner, one mutex at a time) gives race freedom and progress; well-founded order on the rests of the tasks gives termination; a Kripke-style invariant (`good`, ThreadsFacts.v) whose worlds are histories of the caches gives that every interleaving's result is a result of SimGraph.v's relation (C54). Sequential consistency; a race is two threads about to access one object, one of them writing. The indicators progress bar has its own mutex and is not modelled; the std::uniform_real_distribution member of a tree node is stateless in libstdc++; the order of evaluation of the two operands of + in estimate_weight is left open (`lr`). similarity_graph and the matrix queries of the KDE classes write nothing shared (their results come back through futures) and need no such model.
* **C82** Threads of the CKNS constructor: as C81, with the grid of hash units guarded by one mutex and the generator unguarded. K and L and the hash functions made from the draws are parameters. The E2LSH draws are counted as in lsh.cpp.
* **C83** The data behind an estimator: `KdeLife.v` gives the estimators of kde.h and lsh.h the pointers they hold (block, row) in a heap, and a transition system of user programs (matrices and estimators are created, written, resized, copied, moved, destroyed; copies and moves are the implicit ones of C++: vectors are deep-copied, pointers are not). Invariant: ownership of blocks is unique and separate from the user's matrices; the holder of an estimator keeps its blocks unchanged. The construction is related to `ckns_init` by a simulation of the thread pool. Refuted part: copies. Simplifications: copy assignment to an existing object is not an operation (destroy, then copy-construct); only single-point queries; a row is written at once.
* **C84** Recovery of components: `RecoverMath.v` determines the kernel of the normalised Laplacian from an arbitrary complete eigensystem (expand D^(1/2) times the indicator of a component; a trace argument gives the dimension k), hence all inner products of the rows of the embedding. `RecoverKM.v`: on points with exactly K locations the k-means++ choice always hits a new location (the draw is below 1 unless the word is 2^32-1) and Lloyd's rounds are stationary. `RecoverBad.v` refutes the general claim by a five-vertex graph: the run is determined by the inner products, whatever eigenvectors the solver picks.
* **C85** Kernel of the normalised Laplacian: as above; the zeros are a prefix of the sorted eigenvalues and there are k of them.
* **C86** cheeger_cut on a disconnected graph: the second vector is in the kernel (C85), so the sweep key is constant on components; a prefix of the sweep order that ends at a strict drop is a union of components and has conductance 0; the prefix found is optimal, hence has no crossing edge.
* **C87** Exact KDE in doubles: error analysis by induction over the loops (relative error per rounding plus an absolute term for underflow), exp(-s) is insensitive to relative errors of s (s e^-s <= 1/2). Contract on the C library: `libm_ok` (not proved of any libm; LibmF64.v shows that correctly rounded functions meet it).
* **C88** approximate_similarity_graph in doubles, one leaf: the degree estimate is (n-1)/n of the sum of the kernels, which leaves more room than the roundings take, so each target is below the sum; the rest is the structure of C54, which holds in any arithmetic. `edges_per_node n = 2` is a hypothesis on log (met by a correctly rounded one). Trees with more than one leaf are not covered: the estimates of a far away leaf can underflow.
* **C89** the remaining matrices of Graph in doubles: `rel k x z` says that the double x and the positive real z are within a factor (1+2^-53)^k of each other; products, quotients, square roots (Flocq's `Bsqrt`) and sums of non-negative numbers add up the exponents, so the bound of each entry is read off the formula. Counterexamples by computation: path with two edges of weight 3 (asymmetric), path with two edges near the overflow threshold.
* **C90** (numbers in `Set`: exact, rational, binary64 and real numbers all are) every public query as a program of accesses to the members (`GraphThreads.v`), on the interleaving semantics of `Threads.v`. Invariant of a run in which all flags needed are set: every rest of a program only reads the object and will record the remaining answers (`reads`). One worker: weakest preconditions, compared with the sequential functions of Graph.v. Without a warm-up: one thread runs alone up to the store of the flag, the other stands before its first read of it.
* **C91** The seeding is rewritten as a function of the list of numbers the generator returns (`Kpp.v`, proved equal to the model with the Mersenne Twister). For independent uniform numbers the law of the seeds is computed exactly: the choice is a step function of each number, so the iterated integrals exist (`is_mean`). `KppMath.v` proves the bound of Arthur and Vassilvitskii by induction on the number of seeds still to draw; `KppTop.v` transfers it to the code and, with the monotonicity of Lloyd's rounds, to the clustering returned. Simplification: exact reals and uniform reals in place of the 2^32 values of the generator; spectral_cluster itself always seeds with 42.
* **C92** `PartMath.v` is linear algebra: if the first k eigenvectors span almost the indicators of the clusters (the part outside is at most energy / lam), then any labelling of small k-means cost on the rows of the eigenvectors is close to the clusters (projection argument, both directions). `SpecQual.v` shows that the energy of a cluster is the quadratic form of its normalised indicator, that the (k+1)-st eigenvalue is determined by the matrix (count of each eigenvalue by Parseval), that the clusters themselves have k-means cost at most energy / lam, and combines this with C91. A labelling with less than one misplaced vertex is the clustering itself (pigeonhole on the k labels).
* **C93** `CheegerInexact.v`: the eigensolver is arbitrary. The sweep over a vector x gives a cut whose conductance is bounded by the Rayleigh quotient of D^-1/2 x shifted by a weighted median (`hard_direction` of `CheegerMath.v`, which needs no eigenvector, only an upper bound on the energy); shifting only increases the weighted norm compared with the part orthogonal to the root degrees. The residual form follows by Cauchy-Schwarz, the comparison with every other cut by the easy direction of Cheeger's inequality.
* **C94** `SpecInexact.v`: k-means costs on rows of rotated vectors are equal, and costs on vectors at distance eps2 differ by a factor 2 plus 2 eps2; with this the bounds of C92 and C91 are composed for an arbitrary eigensolver within `nearly_leading`.
* **C95** `AsgLaw.v` proves the law of the draws `Eall` of C77: uniform numbers in a leaf are independent picks (a pick is the sample of one number, measured by C77's integrals), binomial splitting at inner nodes composes to independent draws from the mixture, so for functions that ignore the order the expectation is the finite one `Eprod`. `AsgConc.v`: Chernoff bounds (both tails) for sums over `Eprod`, by moment generating functions. `AsgCut.v`: a Laplacian energy of the graph is such a sum, up to the 1e-10 cut, which is bounded.
* **C96** On the tapes of C68 a graph of `general_sbm` is a list of independent coins, one per pair (`RandomTop.general_sbm_coins_full`), and the average over all tapes is the finite expectation `Etape`, so the Chernoff bounds of `AsgConc.v` apply to any weighted sum of the coins (`RandomConc.v`). `RandomCuts.v` turns weighted sums of coins into weighted sums of edges and takes the union bound over all subsets of a set C of vertices (a subset and its complement in C have the same cut, so the smaller side of size s <= |C|/2 pays for itself: the sum over all subsets is (1+exp(-c))^|C| - 1). `RandomConn.v`: all cuts positive means connected, and C23 gives the answer of `is_connected`.
* **C97** A function on the vertices that is orthogonal, in each cluster separately, to the degrees inside the cluster has energy at least phi^2/2 of its weighted norm (the Cheeger argument of C84 applied inside each cluster, `InnerMath.v`: sorting, Cauchy-Schwarz, a sweep over the level sets); k homogeneous linear equations in k+1 unknowns have a non-zero solution, so the span of the first k+1 eigenvectors contains such a function (`InnerCond.v`), whose Rayleigh quotient is at most the (k+1)-st eigenvalue. C92 turns the gap into a bound on the misplaced vertices.
* **C98** (C97_misplaced and C98_labels: the call with seed 42, by C92_misplaced) `PlantedDet.v`: if all cuts inside every block, all degrees and all inside degrees are within (1 +- eps) of their means and the weight between a block and the rest is at most its mean plus an eps^2 share of the block's volume, then the hypotheses of C97 hold with explicit phi, rho and energies. `PlantedProb.v`: by the Chernoff and union bounds of C96 all of this holds for all but a fraction delta of the tapes. C97 concludes.
* **C99** `RandomPhi.v`: the degree of a vertex is the cut of a single vertex, so C96 (all cuts) bounds all degrees, hence all volumes and all conductances; positive cuts make the graph connected, and C64 (Cheeger inequality of `cheeger_cut`) and C76 (guarantee of `local_cluster`) carry over to the weights of the block model.
* **C100** `RandIndex.v`: the three pair counts of `adjusted_rand_index` as double sums over points; a pair on which the clusterings differ has a misplaced end (the labels of the clusters are a bijection if every cluster keeps a well placed point), so there are at most m(n-1) of them; C92 bounds m, in the worst case and on average. Full statement proved.
* **C101** `AriFloat.v`: the return statement of `adjusted_rand_index` on the software doubles (`NumF64`), the int64 counts converted with one rounding. The expected index carries two roundings, numerator and denominator one more each; the denominator is at least (A+B)/(2n) because a labelling that is not one cluster keeps at least n-1 pairs apart, so the cancellation costs at most a factor n. Same partition: numerator and denominator are the same double, not 0. One cluster of 13778 points: computed with the software doubles.
* **C102** `SpectrumGap.v`: the moments <x, M^j x> are log-convex (Cauchy-Schwarz for the dot product and for the form of M), so the last ratio, the Rayleigh quotient, is at least the geometric mean of all 2t; the 2t-th moment is at least l^(2t) <x,v>^2. Real arithmetic; the logarithm of the default iteration count is the real one.

## 4. Axioms of the property theorems
<!-- generated by tools/axioms.py -->

**No axioms (closed under the global context)** (198 theorems): C01_constructor_keeps_weights, C01_doubles_above_tolerance_unaltered, C02_asymmetric_refused, C02_constructed_graphs_are_undirected, C02_inconsistent_vectors_refused, C03_laplacian_round_trip_doubles_refuted, C04_neither_adjacency_nor_laplacian, C05_symmetric_after_any_history, C06_add_edge_effect, C06_add_edge_self_loop_refuted, C06_add_self_loop_effect, C07_remove_edge_absent, C07_remove_edge_effect, C08_matrices_never_stale, C08_queries_do_not_change_the_graph, C09_no_self_loop_missed, C101_invalid_refused, C101_renaming, C101_symmetric, C10_number_of_edges_zero_weight_refuted, C10_pairs_counted, C10_pairs_counted_once, C12_degrees_in_order, C12_degrees_unweighted_in_order, C12_invalid_vertex_rejected, C12_neighbors_exact, C12_unweighted_queries_agree, C12_vertex_exists, C15_inverse_degree_isolated_refuted, C16_equality, C17_addition_size_mismatch, C18_subgraph, C18_subgraph_invalid_vertex, C18_subgraph_weights_kept, C19_disjoint_union_partial, C19_disjoint_union_refuted, C20_barbell_graph, C20_complete_graph, C20_cycle_graph, C20_cycle_graph_2_has_weight_2, C20_identity_graph, C20_star_graph, C20_too_small_rejected, C21_from_vectors_inverts, C21_is_symmetric, C21_sparse_to_vector, C22_component_is_reachability, C22_local_graph_component, C23_components_partition, C23_is_connected, C23_is_connected_empty, C24_returned_pair_is_a_state, C25_postcondition, C29_cluster_is_reachable_from_seed, C29_missing_seed_refused, C32_symmetric_difference, C33_last_line_termination, C33_line_endings, C33_uniform_ending, C34_load_edgelist_partial, C34_self_loop_effect, C34_self_loop_refuted, C35_edgelist_round_trip_partial, C35_round_trip_refuted, C36_adjacencylist_round_trip_partial, C36_round_trip_refuted, C37_sort_edgelist, C38_copy_edgelist_duplicate_edges, C39_edgelist_to_adjacencylist, C39_node_lines, C40_adjacencylist_to_edgelist_partial, C40_self_loop_refuted, C41_adjacencylist_outcomes, C41_adjacencylist_refuted, C41_edgelist_outcomes, C41_id_overflow_refuted, C41_junk_accepted_refuted, C41_malformed_adjacencylist_partial, C41_malformed_edgelist_partial, C41_negative_weight_refuted, C42_caches_never_change_answers, C42_comment_with_colon_refuted, C42_converted_files_are_searchable, C42_neighbors_on_disk_partial, C43_absent_partial, C43_minus_one_refuted, C43_present, C44_search_terminates_partial, C44_trailing_line_refuted, C45_agrees_with_saved_graph_partial, C45_empty_graph_refuted, C45_self_loop_degree_unweighted_refuted, C46_erdos_renyi_one_coin_per_pair, C46_invalid_parameters, C46_invalid_sbm_parameters, C46_one_coin_per_pair, C46_one_vertex_refuted, C46_repeated_edge_refuted, C46_sbm_one_coin_per_pair, C46_vertex_count_refuted, C47_ground_truth_labels, C47_invalid_sizes, C47_labels_are_generator_blocks, C47_sbm_labels, C49_matrix_query, C49_matrix_query_completes, C49_no_hardware_threads_refuted, C50_construction_completes, C50_construction_units, C50_matrix_query, C50_matrix_query_completes, C50_no_hardware_threads_refuted, C51_finds_itself, C51_multi_lsh, C51_near_neighbors, C52_indices, C53_completes, C53_graph, C53_no_hardware_threads_refuted, C53_thread_count, C54_slots, C54_slots_completes, C55_malformed_field, C55_malformed_field_exception, C55_malformed_is_runtime_error_refuted, C55_malformed_last_field_refuted, C55_mixed_separators_refuted, C55_ragged, C55_rows, C55_save_load, C55_save_load_empty_refuted, C55_save_load_entries_refuted, C55_total, C55_words_refuted, C57_generator_conforms, C57_generator_range, C57_invalid_number, C57_labels, C58_graph_unchanged, C58_isolated_vertex_doubles_refuted, C58_labels, C58_small_graph, C59_at_most_once, C59_exactly_once, C59_no_deadlock, C59_no_workers_refuted, C59_schedule_independent, C59_stop_now_drops, C59_termination, C60_outer_shell_doubles_refuted, C61_datapoints_are_rows, C61_datapoints_are_views, C61_row_point, C69_frame, C69_load, C69_temporary_names, C71_missing_input_empties_output_refuted, C71_missing_input_partial, C71_unwritable_output_partial, C72_no_deadlock, C72_same_temporary_names_refuted, C73_exit_status, C73_sbm_arguments_refuted, C73_uncaught_exception_refuted, C73_wrong_usage, C75_exact_refuted, C75_infinity_and_nan, C75_nan_rejected_refuted, C75_other_text_refused, C75_small_edge_refuted, C77_leaves, C81_can_end, C81_chunks, C81_chunks_exist, C81_generator_race_refuted, C81_no_deadlock, C81_races_partial, C81_result, C81_tasks_once, C81_terminates, C82_can_end, C82_no_deadlock, C82_races_partial, C82_result, C82_terminates, C83_any_arithmetic_partial, C83_exact_follows_the_matrix, C83_lsh_as_built, C83_moved_from, C88_completes, C89_isolated_inverse_refuted, C90_cold_refuted, C90_one_thread, C90_plain_queries, C90_terminates, C90_warmed_up_partial, C90_wrong_answer_refuted, C92_recovers.

**`functional_extensionality_dep`** (21 theorems): C69_convert, C69_edgelist_to_adjacencylist, C69_general_sbm_edgelist, C69_save, C69_save_then_load, C69_sort, C70_conversions_crash, C70_edgelist_to_adjacencylist_crash, C70_save_crash, C70_sort_never_loses_edges_partial, C70_sorted_file_missing_refuted, C70_torn_save_refuted, C71_in_place_refuted, C71_invalid_parameters_overwrite_refuted, C71_malformed_input, C71_temporary_file_left_refuted, C71_unwritable_output_ignored_refuted, C72_concurrent_conversions, C72_concurrent_sorts, C73_adj2edge_partial, C73_edge2adj.

**`functional_extensionality_dep`, `sig_forall_dec`** (65 theorems): C03_laplacian_round_trip_partial, C09_has_self_loops_exact, C100_balanced, C100_misplaced, C100_one, C100_range, C101_one_cluster_refuted, C101_undefined, C10_number_of_edges_exact, C11_average_degree, C11_degree, C11_total_volume, C13_laplacian_entries, C13_laplacian_quadratic_form, C13_laplacian_row_sums, C13_laplacians_positive_semidefinite, C15_column_stochastic_refuted, C15_lazy_walk_column_sums_partial, C15_lazy_walk_entries, C15_lazy_walk_isolated_vertex, C16_equality_exact, C17_addition, C17_scaling, C17_scaling_negative_refused, C21_add_vectors, C21_is_symmetric_exact, C24_pagerank_invariant, C24_ppr_decomposition, C24_self_loop_refuted, C25_residual_small_and_nonnegative, C26_alpha_zero_diverges, C26_number_of_pushes, C26_terminates_on_graphs, C27_best_prefix, C27_best_prefix_local, C28_conductance_of_graph_partial, C28_conductance_partial, C28_self_loop_refuted, C29_acl_returns_best_sweep_prefix, C29_local_cluster_returns_best_sweep_prefix, C29_target_must_be_positive, C29_terminates, C29_volume_bounded_by_target, C30_at_most_one, C30_hubert_arabie_partial, C30_invalid_refused, C30_one_cluster_refuted, C30_overflow_refuted, C30_renaming_partial, C30_same_partition_partial, C30_symmetric_partial, C45_degree_agrees, C46_simple_graph_partial, C48_file_equals_memory, C50_construction, C60_shells_partition, C65_offset, C68_coin_bias, C73_sbm, C74_expected_edges_refuted, C74_number_of_edges_partial, C75_subnormal_refuted, C89_no_edge_partial, C92_eigenvalue_unique, C96_mean_weight.

**`functional_extensionality_dep`, `sig_forall_dec`, `sig_not_dec`** (50 theorems): C100_spectral, C102_no_gap, C14_normalised_laplacian_entries, C14_normalised_laplacian_spectrum_bounds, C24_ppr_exists_uniquely, C25_approximation, C56_eigenpairs_in_order_none_missed, C56_eigensystem, C56_graph_unchanged, C56_invalid_number, C56_projections, C57_first_draw, C57_lloyd_on_spectral_embedding, C57_randint_exclusive_refuted, C58_label_one_is_sweep_set, C62_convergence, C62_invalid_arguments, C62_power, C62_rayleigh_monotone, C63_eigenvector, C63_invalid_arguments, C63_laplacian_bounds, C63_normalised_laplacian_bounds, C63_rayleigh, C63_scale_invariant, C64_cheeger_inequality, C68_erdos_renyi_distribution, C68_general_sbm_distribution, C68_sbm_distribution, C78_reference_exists, C84_components_10000_partial, C84_components_partial, C84_irregular_refuted, C85_embedding, C85_zero_eigenvalues, C86_disconnected_partial, C86_disconnected_refuted, C89_overflow_refuted, C91_law, C91_randomness, C91_total, C92_conductance, C92_misplaced, C92_randomness, C93_any_vector, C93_residual, C94_misplaced, C96_average, C97_eigenvalue, C97_misplaced.

**`classic`, `functional_extensionality_dep`, `sig_forall_dec`, `sig_not_dec`** (134 theorems): C100_expected, C101_accuracy, C101_same_partition, C101_undefined_nan, C102_default_iterations, C102_graph_matrices, C102_largest_eigenvalue, C102_single_row, C31_bounds, C31_invalid_refused, C31_mutual_information, C31_normalised, C31_normalised_range, C31_normalised_same_partition, C31_renaming, C31_symmetric, C46_cluster_size_in_doubles, C49_chunk_size, C49_value, C50_single_point_refuted, C52_count, C52_samples, C53_graph_reals, C53_missing_edges_refuted, C53_self_loops_refuted, C54_caches, C54_completes, C54_degrees_one_leaf, C54_equal_points_refuted, C54_graph_partial, C54_self_loop_refuted, C54_small_data, C54_too_few_points_refuted, C60_identical_points_refuted, C60_unit_answer, C60_unit_expectation, C65_accuracy, C65_documented_density_refuted, C65_documented_formulas_agree, C65_monotone_partial, C65_monotone_refuted, C65_probability, C65_table_probability, C66_detection_partial, C66_detection_refuted, C66_parameters_well_defined, C67_degree_rounding, C67_integer_average_degree, C67_integer_degree, C67_integer_laplacian, C67_integer_laplacian_round_trip, C67_integer_volume, C67_laplacian_rounding, C67_volume_rounding, C75_accuracy, C75_adjacencylist, C75_decimal_text, C75_edgelist, C75_exact_iff_six_digits, C75_integers, C75_stable, C76_acl_theorem, C76_conductance_guarantee, C76_local_cluster, C77_at_most, C77_equal_points_refuted, C77_expected_weight_partial, C77_last_point_never_sampled_refuted, C77_share_full, C77_shares, C77_support, C77_tree_sampling, C78_accuracy, C78_integer_weights, C78_local_cluster_returns, C78_real_weights, C78_terminates, C78_tiny_alpha_refuted, C79_conductance, C79_large_volume_refuted, C79_local_cluster_acl, C79_local_sweep_set, C79_sweep_set, C80_accuracy, C80_default_epsilon_refuted, C80_default_probability, C80_full_sampling, C80_large_densities_partial, C80_range, C80_relative_error_refuted, C80_unbiased, C80_zero_answers, C80_zero_refuted, C81_graph, C82_generator_race_refuted, C83_ckns_owns_its_data_partial, C83_copies_refuted, C87_kernel, C87_query, C87_similarity_graph, C88_graph, C89_edge_partial, C89_inverse_degree, C89_lazy_walk, C89_lazy_walk_columns, C89_self_loop_partial, C89_symmetric_refuted, C89_unit_weights_symmetric, C91_expected_clustering, C91_expected_seeds, C91_few_places, C92_expected, C92_probability, C94_expected, C94_probability, C95_cuts, C95_energy, C95_law, C95_tree_law, C96_all_cuts, C96_connected, C96_erdos_renyi_connected, C96_erdos_renyi_edges, C96_weighted_sum, C97_expected, C97_probability, C97_regular, C98_eigenvalue, C98_erdos_renyi, C98_labels, C98_recovery, C99_cheeger, C99_conductance, C99_local_cluster.

<!-- end generated -->
