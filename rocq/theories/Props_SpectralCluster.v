(** spectral_cluster (stag_lib/cluster.cpp, stag_lib/KMeansRex): C57. *)
From Verif Require Import Base Num RSum Sparse Graph GraphSpec GraphProps1 GraphProps2 GraphExamples Spectrum SpectrumSpec SpectrumFacts SpectrumExamples KMeans KMeansFacts KMeansSpec KMeansTop KMeansExamples MTFacts.
From Coq Require Import Reals Lra.
Local Open Scope nat_scope.

(** ** C57 *)
(** The number of clusters is checked, in any arithmetic. *)
Theorem C57_invalid_number : forall (W : Type) (HN : Num W) (of_Z : Z -> W) (unit_of : Z -> W) (trunc : W -> Z) (bump : W -> W)
  (solver : eigen_solver (W := W)) (g : graph W) k,
  (k < 1 \/ Z.of_nat (number_of_vertices g) / 2 < k)%Z ->
  snd (spectral_cluster of_Z unit_of trunc bump solver g k) = Throw InvalidArgument.
Proof. intros W HN of_Z unit_of trunc bump. exact (spectral_cluster_invalid of_Z unit_of trunc bump). Qed.
Print Assumptions C57_invalid_number.
(** The generator is mt19937: the value required by ISO C++ [rand.predef] for the 10000th word; every word drawn is a
    32-bit number, for every seed and number of draws. *)
Theorem C57_generator_conforms : mt_nth (mt_init 5489) (100 * 100 - 1) = 4123659995%Z.
Proof. exact mt_conforms. Qed.
Theorem C57_generator_range : forall seed k, (0 <= mt_nth (mt_init seed) k < 2 ^ 32)%Z.
Proof. exact mt_range. Qed.
Print Assumptions C57_generator_range.
(** One label in [0,k) per vertex, whatever the eigensolver returns and in any arithmetic (NaN included): the only possible
    failure is that of the eigensystem.  1608637542 is the first 32-bit word of the generator seeded with 42; the
    hypothesis says that the scaled and truncated word is a row index, as it is in real arithmetic (next theorem). *)
Theorem C57_labels : forall (W : Type) (HN : Num W) (of_Z : Z -> W) (unit_of : Z -> W) (trunc : W -> Z) (bump : W -> W)
  (solver : eigen_solver (W := W)) (g : graph W) k n, number_of_vertices g = n ->
  (1 <= k <= Z.of_nat n / 2)%Z ->
  (0 <= trunc (wmul (of_Z (Z.of_nat n)) (unit_of 1608637542%Z)) < Z.of_nat n)%Z ->
  match snd (spectral_cluster of_Z unit_of trunc bump solver g k) with
  | Ok labels => length labels = n /\ Forall (fun l => 0 <= l < k)%Z labels
  | Throw e => snd (compute_eigensystem solver g MatNormalisedLaplacian k Smallest) = Throw e
  | UB => snd (compute_eigensystem solver g MatNormalisedLaplacian k Smallest) = UB
  end.
Proof. intros W HN of_Z unit_of trunc bump. exact (spectral_cluster_labels of_Z unit_of trunc bump). Qed.
Print Assumptions C57_labels.
Theorem C57_first_draw : forall n, 1 <= n -> (0 <= truncR (wmul (IZR (Z.of_nat n)) (unit_ofR 1608637542)) < Z.of_nat n)%Z.
Proof. exact first_choice. Qed.
Print Assumptions C57_first_draw.
(** What the labels are, over the real numbers: the vertices are embedded by the first k eigenvectors of the normalised
    Laplacian and the labels are a result of Lloyd's algorithm on the embedding, started from k of the points. *)
Theorem C57_lloyd_on_spectral_embedding : forall (bump : R -> R), (forall c, (1 <= c)%R -> bump c = c) ->
  forall (solver : eigen_solver (W := R)) (g : graph R) k, solver_contract solver -> reachable_pos g ->
  (1 <= k <= Z.of_nat (number_of_vertices g) / 2)%Z -> (k <= 21474836)%Z ->
  match snd (spectral_cluster IZR unit_ofR truncR bump solver g k) with
  | Ok labels => exists r z, labels = map Z.of_nat z /\
      leading (order_of Smallest) (number_of_vertices g) (matrix_of_graph MatNormalisedLaplacian g) (Z.to_nat k) r /\
      lloyd_result (Z.to_nat k) (Z.to_nat k) (Z.to_nat (100 * k))
        (map (fun i => map (fun p => nth i (snd p) 0%R) r) (seq 0 (number_of_vertices g))) z
  | Throw e => e = RuntimeError
  | UB => False
  end.
Proof.
  intros bump Hb solver g k SC Hr Hk Hm. pose proof (spectral_cluster_spec bump Hb solver g k SC Hr Hk Hm) as P.
  destruct (snd (spectral_cluster IZR unit_ofR truncR bump solver g k)) as [l|e|]; auto.
  destruct P as (r & z & E & L & Q). exists r, z. split; [exact E|]. split; [exact L|].
  unfold rows_of in Q. erewrite map_ext; [exact Q|]. intros i. cbv beta. symmetry. apply map_map.
Qed.
Print Assumptions C57_lloyd_on_spectral_embedding.
Example C57_hypotheses_met : solver_contract solver2 /\ reachable_pos exR /\ (1 <= 1 <= Z.of_nat (number_of_vertices exR) / 2)%Z /\
  snd (spectral_cluster IZR unit_ofR truncR (fun c => c) solver2 exR 1) = Ok [0%Z; 0%Z].
Proof. split; [exact solver2_contract|]. split; [exact exR_reachable|]. split; [vm_compute; split; congruence|]. now apply exR_cluster_runs. Qed.
(** The random integers of KMeansRex are documented as exclusive of the upper bound; they are not: with the generator
    in this state randint(0, n) is n, and the k-means++ initialisation reads a row that does not exist. *)
Theorem C57_randint_exclusive_refuted : exists s : mt_state, forall n, 1 <= n ->
  snd (randint IZR unit_ofR truncR s (Z.of_nat n)) = Z.of_nat n /\
  (forall (X : list (list R)) K, length X = n -> snd (plusplus IZR unit_ofR truncR s X K) = UB).
Proof.
  exists mt_top. intros n Hn. split; [apply randint_top|]. intros X K L. unfold plusplus. rewrite L.
  pose proof (randint_top (Z.of_nat n)) as E. destruct (randint IZR unit_ofR truncR mt_top (Z.of_nat n)) as [s c]. cbn [snd] in E. subst c.
  destruct (Z.ltb_spec (Z.of_nat n) 0); [lia|]. rewrite Nat2Z.id.
  destruct (nth_error X n) eqn:En; [|reflexivity]. exfalso. pose proof (proj1 (nth_error_Some X n)) as Q. rewrite En in Q. specialize (Q ltac:(discriminate)). lia.
Qed.
Print Assumptions C57_randint_exclusive_refuted.
