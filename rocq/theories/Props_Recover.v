(** Graphs with several connected components: spectral_cluster (stag_lib/cluster.cpp, stag_lib/KMeansRex) and the spectrum of
    the normalised Laplacian (stag_lib/spectrum.cpp): C84, C85. *)
From Verif Require Import Base Num RSum Sparse Graph GraphSpec GraphProps1 ClusterExamples Spectrum SpectrumSpec KMeans KMeansTop MTFacts RecoverKM RecoverTop RecoverExamples RecoverBad.
From Coq Require Import Reals Lra.
Local Open Scope nat_scope.

(** ** C84 *)
(** On a graph without self-loops with k connected components, every one of them regular of positive degree, two vertices get
    the same label iff they are connected: for every k for which the words that the generator seeded with 42 delivers to the
    k-means++ initialisation are not 2^32-1 (the only 32-bit value that is converted to 1). *)
Theorem C84_components_partial : forall (bump : R -> R), (forall c, (1 <= c)%R -> bump c = c) ->
  forall (solver : eigen_solver (W := R)) (g : graph R) k comp, solver_contract solver -> reachable_pos g ->
  (forall v, v < number_of_vertices g -> rw g v v = 0%R) ->
  components g k comp -> 1 <= k -> 2 * k <= number_of_vertices g -> (Z.of_nat k <= 21474836)%Z ->
  (forall u v, u < number_of_vertices g -> v < number_of_vertices g -> comp u = comp v -> rdeg g u = rdeg g v) ->
  (forall v, v < number_of_vertices g -> rdeg g v <> 0%R) ->
  (forall j, 1 <= j -> j < k -> mt_nth (mt_init 42) j <> 4294967295%Z) ->
  match snd (spectral_cluster IZR unit_ofR truncR bump solver g (Z.of_nat k)) with
  | Ok labels => length labels = number_of_vertices g /\
      forall u v, u < number_of_vertices g -> v < number_of_vertices g -> (nth u labels 0%Z = nth v labels 0%Z <-> connected g u v)
  | Throw e => e = RuntimeError
  | UB => False
  end.
Proof. exact spectral_recovers. Qed.
Print Assumptions C84_components_partial.
(** In particular for up to 10000 components. *)
Theorem C84_components_10000_partial : forall (bump : R -> R), (forall c, (1 <= c)%R -> bump c = c) ->
  forall (solver : eigen_solver (W := R)) (g : graph R) k comp, solver_contract solver -> reachable_pos g ->
  (forall v, v < number_of_vertices g -> rw g v v = 0%R) ->
  components g k comp -> 1 <= k -> 2 * k <= number_of_vertices g -> (Z.of_nat k <= 10000)%Z ->
  (forall u v, u < number_of_vertices g -> v < number_of_vertices g -> comp u = comp v -> rdeg g u = rdeg g v) ->
  (forall v, v < number_of_vertices g -> rdeg g v <> 0%R) ->
  match snd (spectral_cluster IZR unit_ofR truncR bump solver g (Z.of_nat k)) with
  | Ok labels => length labels = number_of_vertices g /\
      forall u v, u < number_of_vertices g -> v < number_of_vertices g -> (nth u labels 0%Z = nth v labels 0%Z <-> connected g u v)
  | Throw e => e = RuntimeError
  | UB => False
  end.
Proof.
  intros bump Hb solver g k comp SC Hr NL HC H1 H2 H3 Rg NI. apply (spectral_recovers bump Hb solver g k comp); auto; [lia|].
  intros j _ Hj. apply (words_ok_nth (100 * 100) (mt_init 42) words_42). lia.
Qed.
Print Assumptions C84_components_10000_partial.
Example C84_hypotheses_met : solver_contract exD_solver /\ reachable_pos exD /\
  (forall v, v < number_of_vertices exD -> rw exD v v = 0%R) /\ components exD 2 exD_comp /\ 2 * 2 <= number_of_vertices exD /\
  (forall u v, u < number_of_vertices exD -> v < number_of_vertices exD -> exD_comp u = exD_comp v -> rdeg exD u = rdeg exD v) /\
  (forall v, v < number_of_vertices exD -> rdeg exD v <> 0%R) /\
  exists labels, snd (spectral_cluster IZR unit_ofR truncR (fun c => c) exD_solver exD 2) = Ok labels.
Proof.
  assert (H4 : number_of_vertices exD = 4) by reflexivity. rewrite H4.
  split; [exact exD_solver_contract|]. split; [exact exD_reachable|]. split; [|split; [exact exD_components|split; [lia|split; [|split]]]].
  - intros v Hv. rewrite exD_rw by auto. destruct v as [|[|[|[|v]]]]; try lia; reflexivity.
  - intros u v Hu Hv E. rewrite !exD_deg by auto. now rewrite E.
  - intros v Hv. rewrite exD_deg by auto. destruct (exD_comp v =? 0); lra.
  - exact exD_cluster_runs.
Qed.
(** In general it is false: the rows of the embedding are not scaled to unit length, so the rows of a component are as
    different as its degrees.  The components of this graph are the edge {0,2} and the path 1 - 3 - 4, with weights 1, 49 and
    576; with exact eigenvectors the vertices 0, 1 and 2 are one cluster, 3 and 4 the other. *)
Theorem C84_irregular_refuted : exists (solver : eigen_solver (W := R)) (g : graph R) comp, solver_contract solver /\ reachable_pos g /\
  (forall v, v < number_of_vertices g -> rw g v v = 0%R) /\ (forall v, v < number_of_vertices g -> rdeg g v <> 0%R) /\
  components g 2 comp /\ 2 * 2 <= number_of_vertices g /\
  forall (bump : R -> R), (forall c, (1 <= c)%R -> bump c = c) -> exists labels,
    snd (spectral_cluster IZR unit_ofR truncR bump solver g 2) = Ok labels /\
    (connected g 1 3 /\ nth 1 labels 0%Z <> nth 3 labels 0%Z) /\
    (~ connected g 0 1 /\ nth 0 labels 0%Z = nth 1 labels 0%Z).
Proof.
  exists exB_solver, exB, exB_comp. split; [exact exB_solver_contract|]. split; [exact exB_reachable|]. split; [exact exB_noloop|].
  split; [exact exB_noiso|]. split; [exact exB_components|]. split; [vm_compute; lia|]. intros bump Hb. exists [0%Z; 0%Z; 0%Z; 1%Z; 1%Z].
  split; [now apply exB_labels|]. destruct exB_components as (_ & _ & C). change (number_of_vertices exB) with 5 in C.
  split; (split; [|cbn; congruence]).
  - apply C; [lia|lia|reflexivity].
  - intros H. apply C in H; [discriminate|lia|lia].
Qed.
Print Assumptions C84_irregular_refuted.

(** ** C85 *)
(** The number of zero eigenvalues of the normalised Laplacian is the number of components (no self-loops, no isolated
    vertices): of the [num] smallest eigenvalues, in increasing order, exactly the first k are 0. *)
Theorem C85_zero_eigenvalues : forall (solver : eigen_solver (W := R)) (g : graph R) k comp num, solver_contract solver -> reachable_pos g ->
  (forall v, v < number_of_vertices g -> rw g v v = 0%R) -> (forall v, v < number_of_vertices g -> rdeg g v <> 0%R) ->
  components g k comp -> (1 <= num < Z.of_nat (number_of_vertices g))%Z ->
  match snd (compute_eigenvalues solver g MatNormalisedLaplacian num Smallest) with
  | Ok vals => length vals = Z.to_nat num /\
      forall j, j < Z.to_nat num -> (nth j vals 0%R = 0%R <-> j < k) /\ (0 <= nth j vals 0)%R
  | Throw e => e = RuntimeError
  | UB => False
  end.
Proof. exact kernel_values. Qed.
Print Assumptions C85_zero_eigenvalues.
(** The embedding by the k smallest eigenvectors: rows of different components are orthogonal; rows of a component point in the
    same direction, with squared lengths proportional to the degrees, whatever basis of the eigenspace the solver chooses. *)
Theorem C85_embedding : forall (solver : eigen_solver (W := R)) (g : graph R) k comp, solver_contract solver -> reachable_pos g ->
  (forall v, v < number_of_vertices g -> rw g v v = 0%R) -> (forall v, v < number_of_vertices g -> rdeg g v <> 0%R) ->
  components g k comp -> 1 <= k < number_of_vertices g ->
  match snd (compute_eigenvectors solver g MatNormalisedLaplacian (Z.of_nat k) Smallest) with
  | Ok vecs => length vecs = k /\ forall u v, u < number_of_vertices g -> v < number_of_vertices g ->
      row_product vecs u v = if comp u =? comp v then (sqrt (rdeg g u) * sqrt (rdeg g v) / comp_volume g comp (comp u))%R else 0%R
  | Throw e => e = RuntimeError
  | UB => False
  end.
Proof. exact embedding_products. Qed.
Print Assumptions C85_embedding.
Example C85_hypotheses_met : solver_contract exB_solver /\ reachable_pos exB /\
  (forall v, v < number_of_vertices exB -> rw exB v v = 0%R) /\ (forall v, v < number_of_vertices exB -> rdeg exB v <> 0%R) /\
  components exB 2 exB_comp /\ exists r, snd (compute_eigensystem exB_solver exB MatNormalisedLaplacian 2 Smallest) = Ok r.
Proof.
  split; [exact exB_solver_contract|]. split; [exact exB_reachable|]. split; [exact exB_noloop|]. split; [exact exB_noiso|].
  split; [exact exB_components|exact exB_runs].
Qed.
