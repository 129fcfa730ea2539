(** C97: spectral clustering finds clusters of large inner conductance. *)
From Verif Require Import Base Num RSum Sparse SparseFacts Graph GraphSpec GraphFacts GraphProps1 GraphProps2 GraphProps3 GraphExamples
  Spectrum SpectrumSpec SpectrumFacts SpectrumExamples KMeans KMeansFacts KMeansTop MTFacts RecoverTop RecoverExamples KppMath Kpp KppTop SpecQual InnerMath InnerCond Props_SpecQual.
From Coq Require Import Reals Lra Psatz Lia List Sorting.Sorted.
Import ListNotations.
Local Open Scope nat_scope.

(** If each of the k clusters, as a graph of its own, has conductance at least phi, and every vertex has at least the share rho of its
    degree inside its cluster, the (k+1)-st eigenvalue of the normalised Laplacian is at least rho phi^2 / 2. *)
Theorem C97_eigenvalue (g : graph R) k s phi rho lam :
  reachable_pos g -> (forall v, v < number_of_vertices g -> rw g v v = 0%R) -> (forall v, v < number_of_vertices g -> rdeg g v <> 0%R) ->
  k < number_of_vertices g -> (forall u, u < number_of_vertices g -> s u < k) ->
  (0 < phi)%R -> inner_conductance g k s phi -> (forall u, u < number_of_vertices g -> (rho * rdeg g u <= inner_degree g s u)%R) ->
  nth_eigenvalue (number_of_vertices g) (matrix_of_graph MatNormalisedLaplacian g) k lam ->
  (rho * phi ^ 2 / 2 <= lam)%R.
Proof. intros Hr NL NI Hk Hs Hp Hi Hrho Hl. pose proof (inner_eigenvalue g k s phi rho lam Hr NL NI Hk Hs Hp Hi Hrho Hl). lra. Qed.

Section Steps.
  Variables (bump : R -> R) (solver : eigen_solver (W := R)) (g : graph R) (k : nat) (s : nat -> nat) (phi rho smax : R).
  Hypothesis bump1 : forall c, (1 <= c)%R -> bump c = c.
  Hypothesis SC : solver_contract solver.
  Hypothesis Hr : reachable_pos g.
  Local Notation n := (number_of_vertices g).
  Hypothesis noloop : forall v, v < n -> rw g v v = 0%R.
  Hypothesis noiso : forall v, v < n -> rdeg g v <> 0%R.
  Hypothesis Hk1 : 1 <= k.
  Hypothesis Hk2 : 2 * k <= n.
  Hypothesis Hb : (Z.of_nat k <= 21474836)%Z.
  Hypothesis Hs : clustering n k s.
  Hypothesis Hphi : (0 < phi)%R.
  Hypothesis Hrho0 : (0 < rho)%R.
  Hypothesis Hin : inner_conductance g k s phi.
  Hypothesis Hrho : forall u, u < n -> (rho * rdeg g u <= inner_degree g s u)%R.
  Hypothesis Hsmax : forall j, j < k -> (cluster_size n s j <= smax)%R.
  Variable vecs : list (list R).
  Hypothesis Hv : snd (compute_eigenvectors solver g MatNormalisedLaplacian (Z.of_nat k) Smallest) = Ok vecs.
  Lemma gap : exists lam, nth_eigenvalue n (matrix_of_graph MatNormalisedLaplacian g) k lam /\ (rho * phi ^ 2 / 2 <= lam)%R.
  Proof.
    destruct (vectors_leading solver g k SC Hr Hk1 Hk2 vecs Hv) as (r & _ & (E & HE & HS & _)).
    exists (nth k (map fst E) 0%R). assert (nth_eigenvalue n (matrix_of_graph MatNormalisedLaplacian g) k (nth k (map fst E) 0%R)) as HL by (exists E; auto).
    split; [exact HL|]. apply (C97_eigenvalue g k s phi rho); auto; [lia|apply Hs].
  Qed.
  Lemma energy_sum_nonneg : (0 <= rsum k (cluster_energy g s))%R.
  Proof.
    apply rsum_nonneg. intros j Hj. unfold cluster_energy. pose proof (size_pos g k s Hs j Hj). apply Rmult_le_pos.
    - apply rsum_nonneg. intros u _. apply rsum_nonneg. intros v _. apply Rmult_le_pos; [now apply rw_nonneg|apply pow2_ge_0].
    - left. apply Rinv_0_lt_compat. lra.
  Qed.
  Lemma gap_bound lam e : (rho * phi ^ 2 / 2 <= lam)%R -> (e <= 4 * smax * (1 + 8 * (2 + ln (INR k))) * (rsum k (cluster_energy g s) / lam))%R ->
    (e <= 8 * smax * (1 + 8 * (2 + ln (INR k))) * (rsum k (cluster_energy g s) / (rho * phi ^ 2)))%R.
  Proof.
    intros HL He. eapply Rle_trans; [exact He|]. pose proof energy_sum_nonneg as PE.
    assert (0 < phi ^ 2)%R as P2 by (now apply pow_lt). assert (0 < rho * phi ^ 2)%R as P3 by (now apply Rmult_lt_0_compat).
    assert (0 <= smax)%R as Ps by (pose proof (Hsmax 0 ltac:(lia)); pose proof (size_pos g k s Hs 0 ltac:(lia)); lra).
    assert (0 <= ln (INR k))%R as Pl.
    { assert (1 <= INR k)%R by (change 1%R with (INR 1); apply le_INR; lia). destruct (Rle_lt_or_eq_dec 1 (INR k)) as [L1|<-]; auto; [left; rewrite <- ln_1; apply ln_increasing; lra|rewrite ln_1; lra]. }
    set (c := (1 + 8 * (2 + ln (INR k)))%R) in *. assert (0 <= c)%R by (unfold c; lra). clearbody c. set (S := rsum k (cluster_energy g s)) in *. clearbody S.
    replace (8 * smax * c * (S / (rho * phi ^ 2)))%R with (4 * smax * c * (S * / (rho * phi ^ 2 / 2)))%R by (field; split; lra).
    apply Rmult_le_compat_l; [apply Rmult_le_pos; [lra|assumption]|]. unfold Rdiv at 1. apply Rmult_le_compat_l; [exact PE|]. apply Rinv_le_contravar; [lra|exact HL].
  Qed.
  Lemma inner_expected bad : exists e, is_mean k (fun us => value_or bad (misplaced n s) (snd (spectral_cluster_with bump solver g (Z.of_nat k) us))) e /\
    (e <= 8 * smax * (1 + 8 * (2 + ln (INR k))) * (rsum k (cluster_energy g s) / (rho * phi ^ 2)))%R.
  Proof.
    destruct gap as (lam & HL & Gl). assert (0 < phi ^ 2)%R as P2 by (now apply pow_lt). assert (0 < rho * phi ^ 2)%R as P3 by (now apply Rmult_lt_0_compat).
    destruct (C92_expected bump solver g k s lam smax bad vecs bump1 SC Hr noloop noiso Hk1 Hk2 Hb Hs HL ltac:(lra) Hsmax Hv) as (e & Me & Le).
    exists e. split; [exact Me|]. now apply gap_bound with lam.
  Qed.
  Lemma inner_probability : exists e, is_mean k (fun us => value_or 1%R (fun labels => if recovers n s labels then 0%R else 1%R) (snd (spectral_cluster_with bump solver g (Z.of_nat k) us))) e /\
    (e <= 8 * smax * (1 + 8 * (2 + ln (INR k))) * (rsum k (cluster_energy g s) / (rho * phi ^ 2)))%R.
  Proof.
    destruct gap as (lam & HL & Gl). assert (0 < phi ^ 2)%R as P2 by (now apply pow_lt). assert (0 < rho * phi ^ 2)%R as P3 by (now apply Rmult_lt_0_compat).
    destruct (C92_probability bump solver g k s lam smax vecs bump1 SC Hr noloop noiso Hk1 Hk2 Hb Hs HL ltac:(lra) Hsmax Hv) as (e & Me & Le).
    exists e. split; [exact Me|]. now apply gap_bound with lam.
  Qed.
  Lemma inner_misplaced labels : snd (spectral_cluster IZR unit_ofR truncR bump solver g (Z.of_nat k)) = Ok labels ->
    (misplaced n s labels <= 4 * smax * (2 * rsum k (cluster_energy g s) / (rho * phi ^ 2) + labels_cost k (rows_of n vecs) (map Z.to_nat labels)))%R.
  Proof.
    intros E. destruct gap as (lam & HL & Gl). assert (0 < phi ^ 2)%R as P2 by (now apply pow_lt). assert (0 < rho * phi ^ 2)%R as P3 by (now apply Rmult_lt_0_compat).
    destruct (C92_misplaced bump solver g k s lam smax labels SC Hr noloop noiso Hk1 Hk2 Hb Hs HL ltac:(lra) Hsmax E) as (vecs' & Ev & B & _).
    rewrite Hv in Ev. injection Ev as <-. eapply Rle_trans; [exact B|].
    assert (0 <= smax)%R as Ps by (pose proof (Hsmax 0 ltac:(lia)); pose proof (size_pos g k s Hs 0 ltac:(lia)); lra).
    apply Rmult_le_compat_l; [lra|]. apply Rplus_le_compat_r. pose proof energy_sum_nonneg as PE. set (S := rsum k (cluster_energy g s)) in *. clearbody S.
    replace (2 * S / (rho * phi ^ 2))%R with (S * / (rho * phi ^ 2 / 2))%R by (field; split; lra).
    unfold Rdiv at 1. apply Rmult_le_compat_l; [exact PE|]. apply Rinv_le_contravar; lra.
  Qed.
End Steps.

(** With independent uniform numbers in place of those of the generator seeded with 42, the expected number of misplaced vertices is at
    most 8 smax (1 + 8 (2 + ln k)) (sum of the energies of the clusters) / (rho phi^2). *)
Theorem C97_expected (bump : R -> R) (solver : eigen_solver (W := R)) (g : graph R) k s phi rho smax bad vecs :
  (forall c, (1 <= c)%R -> bump c = c) -> solver_contract solver -> reachable_pos g ->
  (forall v, v < number_of_vertices g -> rw g v v = 0%R) -> (forall v, v < number_of_vertices g -> rdeg g v <> 0%R) ->
  1 <= k -> 2 * k <= number_of_vertices g -> (Z.of_nat k <= 21474836)%Z -> clustering (number_of_vertices g) k s ->
  (0 < phi)%R -> (0 < rho)%R -> inner_conductance g k s phi -> (forall u, u < number_of_vertices g -> (rho * rdeg g u <= inner_degree g s u)%R) ->
  (forall j, j < k -> (cluster_size (number_of_vertices g) s j <= smax)%R) ->
  snd (compute_eigenvectors solver g MatNormalisedLaplacian (Z.of_nat k) Smallest) = Ok vecs ->
  exists e, is_mean k (fun us => value_or bad (misplaced (number_of_vertices g) s) (snd (spectral_cluster_with bump solver g (Z.of_nat k) us))) e /\
    (e <= 8 * smax * (1 + 8 * (2 + ln (INR k))) * (rsum k (cluster_energy g s) / (rho * phi ^ 2)))%R.
Proof. intros. now apply (inner_expected bump solver g k s phi rho smax) with (vecs := vecs). Qed.
Print Assumptions C97_expected.
(** The probability that the labels are not exactly the clusters. *)
Theorem C97_probability (bump : R -> R) (solver : eigen_solver (W := R)) (g : graph R) k s phi rho smax vecs :
  (forall c, (1 <= c)%R -> bump c = c) -> solver_contract solver -> reachable_pos g ->
  (forall v, v < number_of_vertices g -> rw g v v = 0%R) -> (forall v, v < number_of_vertices g -> rdeg g v <> 0%R) ->
  1 <= k -> 2 * k <= number_of_vertices g -> (Z.of_nat k <= 21474836)%Z -> clustering (number_of_vertices g) k s ->
  (0 < phi)%R -> (0 < rho)%R -> inner_conductance g k s phi -> (forall u, u < number_of_vertices g -> (rho * rdeg g u <= inner_degree g s u)%R) ->
  (forall j, j < k -> (cluster_size (number_of_vertices g) s j <= smax)%R) ->
  snd (compute_eigenvectors solver g MatNormalisedLaplacian (Z.of_nat k) Smallest) = Ok vecs ->
  exists e, is_mean k (fun us => value_or 1%R (fun labels => if recovers (number_of_vertices g) s labels then 0%R else 1%R) (snd (spectral_cluster_with bump solver g (Z.of_nat k) us))) e /\
    (e <= 8 * smax * (1 + 8 * (2 + ln (INR k))) * (rsum k (cluster_energy g s) / (rho * phi ^ 2)))%R.
Proof. intros. now apply (inner_probability bump solver g k s phi rho smax) with (vecs := vecs). Qed.
Print Assumptions C97_probability.
(** The call made by the library, with the numbers of the generator seeded with 42: at most
    4 smax (2 (sum of the energies of the clusters) / (rho phi^2) + k-means cost of the labels) vertices are misplaced. *)
Theorem C97_misplaced (bump : R -> R) (solver : eigen_solver (W := R)) (g : graph R) k s phi rho smax labels :
  solver_contract solver -> reachable_pos g ->
  (forall v, v < number_of_vertices g -> rw g v v = 0%R) -> (forall v, v < number_of_vertices g -> rdeg g v <> 0%R) ->
  1 <= k -> 2 * k <= number_of_vertices g -> (Z.of_nat k <= 21474836)%Z -> clustering (number_of_vertices g) k s ->
  (0 < phi)%R -> (0 < rho)%R -> inner_conductance g k s phi -> (forall u, u < number_of_vertices g -> (rho * rdeg g u <= inner_degree g s u)%R) ->
  (forall j, j < k -> (cluster_size (number_of_vertices g) s j <= smax)%R) ->
  snd (spectral_cluster IZR unit_ofR truncR bump solver g (Z.of_nat k)) = Ok labels ->
  exists vecs, snd (compute_eigenvectors solver g MatNormalisedLaplacian (Z.of_nat k) Smallest) = Ok vecs /\
    (misplaced (number_of_vertices g) s labels <=
       4 * smax * (2 * rsum k (cluster_energy g s) / (rho * phi ^ 2) + labels_cost k (rows_of (number_of_vertices g) vecs) (map Z.to_nat labels)))%R.
Proof.
  intros SC Hr NL NI K1 K2 Kb Hs Hp Hrh Hi Hrho Hm E.
  assert (exists vecs, snd (compute_eigenvectors solver g MatNormalisedLaplacian (Z.of_nat k) Smallest) = Ok vecs) as [vecs Ev].
  { revert E. unfold spectral_cluster. destruct (_ || _)%bool; [discriminate|].
    destruct (compute_eigenvectors solver g MatNormalisedLaplacian (Z.of_nat k) Smallest) as [g' [vecs|e|]]; cbn [snd]; [intros _; exists vecs; reflexivity|discriminate|discriminate]. }
  exists vecs. split; [exact Ev|]. now apply (inner_misplaced bump solver g k s phi rho smax).
Qed.
Print Assumptions C97_misplaced.
(** Clusters in which all degrees are equal: the energy is the conductance, so everything is said by cuts and degrees. *)
Theorem C97_regular (bump : R -> R) (solver : eigen_solver (W := R)) (g : graph R) k s (dg : nat -> R) phi rho smax bad vecs :
  (forall c, (1 <= c)%R -> bump c = c) -> solver_contract solver -> reachable_pos g ->
  (forall v, v < number_of_vertices g -> rw g v v = 0%R) -> (forall v, v < number_of_vertices g -> rdeg g v = dg (s v) /\ (0 < dg (s v))%R) ->
  1 <= k -> 2 * k <= number_of_vertices g -> (Z.of_nat k <= 21474836)%Z -> clustering (number_of_vertices g) k s ->
  (0 < phi)%R -> (0 < rho)%R -> inner_conductance g k s phi -> (forall u, u < number_of_vertices g -> (rho * rdeg g u <= inner_degree g s u)%R) ->
  (forall j, j < k -> (cluster_size (number_of_vertices g) s j <= smax)%R) ->
  snd (compute_eigenvectors solver g MatNormalisedLaplacian (Z.of_nat k) Smallest) = Ok vecs ->
  exists e, is_mean k (fun us => value_or bad (misplaced (number_of_vertices g) s) (snd (spectral_cluster_with bump solver g (Z.of_nat k) us))) e /\
    (e <= 8 * smax * (1 + 8 * (2 + ln (INR k))) * (rsum k (cluster_conductance g s) / (rho * phi ^ 2)))%R.
Proof.
  intros B SC Hr NL HD K1 K2 Kb Hs Hp Hrh Hi Hrho Hm Hv.
  assert (forall v, v < number_of_vertices g -> rdeg g v <> 0%R) as NI by (intros v L; destruct (HD v L) as [-> P]; lra).
  destruct (C97_expected bump solver g k s phi rho smax bad vecs) as (e & Me & Le); auto.
  exists e. split; [exact Me|]. rewrite <- (rsum_ext k (cluster_energy g s)); [exact Le|]. intros j Hj.
  apply (C92_conductance g k s j (dg j) Hr NI Hs Hj). intros u Hu <-. now apply HD.
Qed.
Print Assumptions C97_regular.

(** The ring of C92: the two strong edges are clusters of inner conductance 1, with a share 1000/1001 of the degrees. *)
Lemma ring_inner u : u < 4 -> inner_degree ring ring_s u = 1000%R.
Proof.
  intros Hu. unfold inner_degree. change (number_of_vertices ring) with 4. rewrite rsum4, !ring_rw by lia.
  destruct u as [|[|[|[|u]]]]; try lia; cbn [ring_s Nat.eqb ring_w]; lra.
Qed.
Example C97_hypotheses_met : inner_conductance ring 2 ring_s 1 /\ (forall u, u < 4 -> (1000 / 1001 * rdeg ring u <= inner_degree ring ring_s u)%R) /\
  solver_contract ring_solver /\ reachable_pos ring /\ (forall v, v < 4 -> rw ring v v = 0%R) /\ (forall v, v < 4 -> rdeg ring v = 1001%R) /\ clustering 4 2 ring_s /\
  nth_eigenvalue 4 (matrix_of_graph MatNormalisedLaplacian ring) 2 (2000/1001) /\
  (exists vecs, snd (compute_eigenvectors ring_solver ring MatNormalisedLaplacian 2 Smallest) = Ok vecs).
Proof.
  destruct C92_hypotheses_met as (A & B & C & D & E & F & G & H & _).
  split; [|split; [|split; [exact A|split; [exact B|split; [exact C|split; [exact ring_deg|split; [exact E|split; [exact F|exact H]]]]]]]].
  - intros j X Hj. unfold inner_volume, split_cut. change (number_of_vertices ring) with 4. rewrite !rsum4, !ring_rw, !ring_inner by lia.
    destruct j as [|[|j]]; [| |lia]; cbn [ring_s Nat.eqb andb ring_w]; [destruct (X 0), (X 1)|destruct (X 2), (X 3)]; cbn [negb andb];
      unfold Rmin; destruct (Rle_dec _ _); lra.
  - intros u Hu. rewrite ring_deg, ring_inner by auto. lra.
Qed.
