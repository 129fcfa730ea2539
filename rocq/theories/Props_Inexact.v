(** C93, C94: cheeger_cut and spectral_cluster with an eigensolver that is not exact. *)
From Verif Require Import Base Num RSum Sparse SparseFacts Graph GraphSpec GraphFacts GraphProps1 GraphProps2 GraphProps3 GraphExamples ClusterSpec ClusterExamples
  Spectrum SpectrumSpec SpectrumFacts SpectrumExamples Cheeger CheegerFacts CheegerTop KMeans KMeansFacts KMeansTop MTFacts RecoverTop RecoverExamples KppMath Kpp KppTop SpecQual CheegerInexact SpecInexact Props_SpecQual.
From Coq Require Import Reals Lra Psatz Lia List Sorting.Sorted.
Import ListNotations.
Local Open Scope nat_scope.

(** ** C93 *)
(** Whatever two vectors the eigensolver returned: cheeger_cut returns a proper cut, and with x the vector of the larger value,
    its conductance is at most sqrt(2 x^T N x / |x'|^2), x' the part of x orthogonal to the square roots of the degrees (unless x' = 0). *)
Theorem C93_any_vector : forall (solver : eigen_solver (W := R)) (g : graph R) p q, reachable_pos g -> 3 <= number_of_vertices g ->
  (forall v, v < number_of_vertices g -> rw g v v = 0%R) -> (forall v, v < number_of_vertices g -> rdeg g v <> 0%R) ->
  snd (compute_eigensystem solver g MatNormalisedLaplacian 2 Smallest) = Ok [p; q] -> length (snd (chosen p q)) = number_of_vertices g ->
  let n := number_of_vertices g in let x := vx (snd (chosen p q)) in
  exists cut, snd (cheeger_cut solver g) = Ok (labels_of n cut) /\ proper_cut n cut /\
    ((0 < spread g x)%R -> (gcond g cut <= sqrt (2 * quad n (matrix_of_graph MatNormalisedLaplacian g) x / spread g x))%R).
Proof. exact inexact_cut. Qed.
(** In terms of the error of the vector: if |N x - mu x| <= delta |x| and the cosine of the angle between x and the square roots of the
    degrees is at most eta < 1, then the conductance is at most sqrt(2 (mu + delta) / (1 - eta^2)); on a connected graph with second
    eigenvalue lam and mu <= lam + tau, it is at most sqrt((4 phi + 2 (tau + delta)) / (1 - eta^2)) for the conductance phi of any cut. *)
Theorem C93_residual : forall (solver : eigen_solver (W := R)) (g : graph R) p q mu delta eta, reachable_pos g -> 3 <= number_of_vertices g ->
  (forall v, v < number_of_vertices g -> rw g v v = 0%R) -> (forall v, v < number_of_vertices g -> rdeg g v <> 0%R) ->
  snd (compute_eigensystem solver g MatNormalisedLaplacian 2 Smallest) = Ok [p; q] -> length (snd (chosen p q)) = number_of_vertices g ->
  let n := number_of_vertices g in let x := vx (snd (chosen p q)) in let N := matrix_of_graph MatNormalisedLaplacian g in
  (0 < dot n x x)%R -> (0 <= delta)%R -> (0 <= eta < 1)%R ->
  (dot n (fun i => mulv n N x i - mu * x i) (fun i => mulv n N x i - mu * x i) <= delta ^ 2 * dot n x x)%R ->
  (dot n x (root_degrees g) ^ 2 <= eta ^ 2 * (dot n x x * dot n (root_degrees g) (root_degrees g)))%R ->
  exists cut, snd (cheeger_cut solver g) = Ok (labels_of n cut) /\ proper_cut n cut /\
    (gcond g cut <= sqrt (2 * (mu + delta) / (1 - eta ^ 2)))%R /\
    (forall lam tau, (forall u v, u < n -> v < n -> connected g u v) -> nth_eigenvalue n N 1 lam -> (mu <= lam + tau)%R ->
       forall other, proper_cut n other -> (gcond g cut <= sqrt ((4 * gcond g other + 2 * (tau + delta)) / (1 - eta ^ 2)))%R).
Proof. exact inexact_cut_residual. Qed.

(** An eigensolver that returns the same vectors for every matrix. *)
Definition const_solver (es : list (R * list R)) : eigen_solver (W := R) := fun _ _ _ => Some es.
Lemma const_runs es (g : graph R) num : reachable_pos g -> (1 <= num < Z.of_nat (number_of_vertices g))%Z ->
  snd (compute_eigensystem (const_solver es) g MatNormalisedLaplacian num Smallest) = Ok (map (fun p => (((fst p + - (1 + 1)) * - 1)%R, snd p)) es).
Proof.
  intros Hp Hnum. pose proof (reachable_pos_reachable _ Hp) as Hr. destruct (reachable_ok g Hr) as [Hsq Hc].
  unfold compute_eigensystem. change (number_of_vertices g) with (g_n g) in *.
  destruct (Z.ltb_spec num 1); [lia|]. destruct (Z.leb_spec (Z.of_nat (g_n g)) num); [lia|]. cbn [orb]. cbv zeta.
  destruct (max_degree_spec g (seq 0 (g_n g)) Hr (fun v Hv => ltac:(apply in_seq in Hv; lia)) g w0 Hc (same_base_refl g))
    as (g1 & d & Eq & C1 & S1 & _). rewrite Eq.
  destruct (mat_query_spec QNLap g1 C1) as (C2 & S2 & E2). destruct (mat_query QNLap g1) as [g2 L]. cbn [fst snd] in *. subst L.
  assert (EA : g_adj g1 = g_adj g) by (destruct S1 as (_ & -> & _); reflexivity). rewrite EA.
  assert (SL : sp_square (sp_map wopp (mat_formula QNLap (g_adj g))) (g_n g)) by (apply sp_map_square, (lap_square g); auto).
  pose proof (shift_diag_square (g_n g) _ (wadd w1 w1) SL) as (R1 & _ & _).
  unfold largestmag. rewrite R1. destruct (Z.ltb_spec num 1); [lia|]. destruct (Z.leb_spec (Z.of_nat (g_n g)) num); [lia|]. cbn [orb].
  unfold const_solver. rewrite Bool.orb_true_r. reflexivity.
Qed.
Definition rough : list (R * list R) := [(2%R, [1; 1; 1; 1]%R); ((19/10)%R, [10; 10; -10; -11]%R)].
Lemma rough_chosen : chosen (0%R, [1; 1; 1; 1]%R) ((1/10)%R, [10; 10; -10; -11]%R) = ((1/10)%R, [10; 10; -10; -11]%R).
Proof. unfold chosen. cbn [fst]. destruct (Rlt_dec (1/10) 0); [lra|reflexivity]. Qed.
Example C93_hypotheses_met : exists p q, let g := ring in let n := 4 in let x := vx (snd (chosen p q)) in let N := matrix_of_graph MatNormalisedLaplacian ring in
  reachable_pos g /\ snd (compute_eigensystem (const_solver rough) g MatNormalisedLaplacian 2 Smallest) = Ok [p; q] /\ length (snd (chosen p q)) = n /\
  (0 < dot n x x)%R /\
  (dot n (fun i => mulv n N x i - 0 * x i) (fun i => mulv n N x i - 0 * x i) <= (7/100) ^ 2 * dot n x x)%R /\
  (dot n x (root_degrees g) ^ 2 <= (1/40) ^ 2 * (dot n x x * dot n (root_degrees g) (root_degrees g)))%R /\
  (exists cut, snd (cheeger_cut (const_solver rough) g) = Ok (labels_of n cut) /\ (gcond g cut <= 1/2)%R).
Proof.
  exists (0%R, [1; 1; 1; 1]%R), ((1/10)%R, [10; 10; -10; -11]%R). cbv zeta. rewrite rough_chosen. cbn [snd].
  assert (E : snd (compute_eigensystem (const_solver rough) ring MatNormalisedLaplacian 2 Smallest) = Ok [(0%R, [1; 1; 1; 1]%R); ((1/10)%R, [10; 10; -10; -11]%R)]).
  { rewrite const_runs; [|exact ring_reachable|cbn; lia]. unfold rough. cbn [map fst snd].
    replace ((2 + - (1 + 1)) * - 1)%R with 0%R by lra. replace ((19/10 + - (1 + 1)) * - 1)%R with (1/10)%R by lra. reflexivity. }
  assert (X : dot 4 (vx [10; 10; -10; -11]%R) (vx [10; 10; -10; -11]%R) = 421%R) by (unfold dot; rewrite rsum4; unfold vx; cbn [nth]; lra).
  assert (S : (sqrt 1001 * sqrt 1001 = 1001)%R) by (apply sqrt_sqrt; lra).
  assert (RR : dot 4 (root_degrees ring) (root_degrees ring) = 4004%R) by (unfold dot; rewrite rsum4; unfold root_degrees; rewrite !ring_deg by lia; lra).
  assert (XR : (dot 4 (vx [10; 10; -10; -11]%R) (root_degrees ring) ^ 2 = 1001)%R).
  { unfold dot; rewrite rsum4; unfold root_degrees, vx; rewrite !ring_deg by lia; cbn [nth]. replace (_ + _)%R with (- sqrt 1001)%R by ring. nra. }
  assert (Res : (dot 4 (fun i => mulv 4 (matrix_of_graph MatNormalisedLaplacian ring) (vx [10; 10; -10; -11]%R) i - 0 * vx [10; 10; -10; -11]%R i)
      (fun i => mulv 4 (matrix_of_graph MatNormalisedLaplacian ring) (vx [10; 10; -10; -11]%R) i - 0 * vx [10; 10; -10; -11]%R i) <= (7/100) ^ 2 * 421)%R).
  { unfold dot, mulv. rewrite !rsum4. rewrite !ring_nlap by lia. unfold vx. cbn [nth Nat.eqb ring_w]. lra. }
  rewrite X, RR, XR. split; [exact ring_reachable|]. split; [exact E|]. split; [reflexivity|]. split; [lra|]. split; [exact Res|]. split; [lra|].
  destruct (C93_residual (const_solver rough) ring (0%R, [1; 1; 1; 1]%R) ((1/10)%R, [10; 10; -10; -11]%R) 0 (7/100) (1/40)) as (cut & Ec & _ & B & _).
  - exact ring_reachable.
  - cbn; lia.
  - intros [|[|[|[|v]]]] Hv; try (cbn in Hv; lia); reflexivity.
  - intros v Hv. change (v < 4) in Hv. rewrite ring_deg by auto. lra.
  - exact E.
  - rewrite rough_chosen. reflexivity.
  - rewrite rough_chosen. change (number_of_vertices ring) with 4. cbn [snd]. lra.
  - lra.
  - lra.
  - rewrite rough_chosen. change (number_of_vertices ring) with 4. cbn [snd]. rewrite X. exact Res.
  - rewrite rough_chosen. change (number_of_vertices ring) with 4. cbn [snd]. rewrite X, RR, XR. lra.
  - exists cut. split; [exact Ec|]. eapply Rle_trans; [exact B|]. replace (1/2)%R with (sqrt ((1/2) * (1/2))) by (apply sqrt_square; lra). apply sqrt_le_1; lra.
Qed.

(** ** C94 *)
(** Whatever vectors the eigensolver returned, if they are within a total squared error eps2 of an orthonormal basis of the span of the
    first k eigenvectors ([nearly_leading]): the labels returned misplace at most 4 smax (energy / lam + 2 eps2 + 2 cost) vertices,
    and give the clusters exactly when this is below 1. *)
Theorem C94_misplaced (bump : R -> R) (solver : eigen_solver (W := R)) (g : graph R) k s lam smax vecs eps2 : reachable_pos g ->
  (forall v, v < number_of_vertices g -> rw g v v = 0%R) -> (forall v, v < number_of_vertices g -> rdeg g v <> 0%R) ->
  1 <= k -> 2 * k <= number_of_vertices g -> (Z.of_nat k <= 21474836)%Z ->
  clustering (number_of_vertices g) k s -> nth_eigenvalue (number_of_vertices g) (matrix_of_graph MatNormalisedLaplacian g) k lam -> (0 < lam)%R ->
  (forall j, j < k -> (cluster_size (number_of_vertices g) s j <= smax)%R) ->
  snd (compute_eigenvectors solver g MatNormalisedLaplacian (Z.of_nat k) Smallest) = Ok vecs ->
  nearly_leading (number_of_vertices g) (matrix_of_graph MatNormalisedLaplacian g) k vecs eps2 ->
  exists labels, snd (spectral_cluster IZR unit_ofR truncR bump solver g (Z.of_nat k)) = Ok labels /\
    let total := (4 * smax * (rsum k (cluster_energy g s) / lam + 2 * eps2 + 2 * labels_cost k (rows_of (number_of_vertices g) vecs) (map Z.to_nat labels)))%R in
    (misplaced (number_of_vertices g) s labels <= total)%R /\
    ((total < 1)%R -> forall u v, u < number_of_vertices g -> v < number_of_vertices g -> (nth u labels 0%Z = nth v labels 0%Z <-> s u = s v)).
Proof. intros. now apply near_misplaced. Qed.
(** With independent uniform random numbers the expected number of misplaced vertices is at most
    4 smax ((1 + 32 (2 + ln k)) energy / lam + (2 + 32 (2 + ln k)) eps2), *)
Theorem C94_expected (bump : R -> R) (solver : eigen_solver (W := R)) (g : graph R) k s lam smax vecs eps2 bad : (forall c, (1 <= c)%R -> bump c = c) -> reachable_pos g ->
  (forall v, v < number_of_vertices g -> rw g v v = 0%R) -> (forall v, v < number_of_vertices g -> rdeg g v <> 0%R) ->
  1 <= k -> 2 * k <= number_of_vertices g -> (Z.of_nat k <= 21474836)%Z ->
  clustering (number_of_vertices g) k s -> nth_eigenvalue (number_of_vertices g) (matrix_of_graph MatNormalisedLaplacian g) k lam -> (0 < lam)%R ->
  (forall j, j < k -> (cluster_size (number_of_vertices g) s j <= smax)%R) ->
  snd (compute_eigenvectors solver g MatNormalisedLaplacian (Z.of_nat k) Smallest) = Ok vecs ->
  nearly_leading (number_of_vertices g) (matrix_of_graph MatNormalisedLaplacian g) k vecs eps2 ->
  exists e, is_mean k (fun us => value_or bad (misplaced (number_of_vertices g) s) (snd (spectral_cluster_with bump solver g (Z.of_nat k) us))) e /\
    (e <= 4 * smax * ((1 + 32 * (2 + ln (INR k))) * (rsum k (cluster_energy g s) / lam) + (2 + 32 * (2 + ln (INR k))) * eps2))%R.
Proof. intros. now apply (near_expected bump solver g k s lam smax) with (vecs := vecs). Qed.
(** and so is the probability that the labels are not exactly the clusters. *)
Theorem C94_probability (bump : R -> R) (solver : eigen_solver (W := R)) (g : graph R) k s lam smax vecs eps2 : (forall c, (1 <= c)%R -> bump c = c) -> reachable_pos g ->
  (forall v, v < number_of_vertices g -> rw g v v = 0%R) -> (forall v, v < number_of_vertices g -> rdeg g v <> 0%R) ->
  1 <= k -> 2 * k <= number_of_vertices g -> (Z.of_nat k <= 21474836)%Z ->
  clustering (number_of_vertices g) k s -> nth_eigenvalue (number_of_vertices g) (matrix_of_graph MatNormalisedLaplacian g) k lam -> (0 < lam)%R ->
  (forall j, j < k -> (cluster_size (number_of_vertices g) s j <= smax)%R) ->
  snd (compute_eigenvectors solver g MatNormalisedLaplacian (Z.of_nat k) Smallest) = Ok vecs ->
  nearly_leading (number_of_vertices g) (matrix_of_graph MatNormalisedLaplacian g) k vecs eps2 ->
  exists e, is_mean k (fun us => value_or 1%R (fun labels => if recovers (number_of_vertices g) s labels then 0%R else 1%R) (snd (spectral_cluster_with bump solver g (Z.of_nat k) us))) e /\
    (e <= 4 * smax * ((1 + 32 * (2 + ln (INR k))) * (rsum k (cluster_energy g s) / lam) + (2 + 32 * (2 + ln (INR k))) * eps2))%R.
Proof. intros. now apply (near_probability bump solver g k s lam smax) with (vecs := vecs). Qed.

(** The ring of four vertices of C92 with vectors that are off by 1/100 and whose order is exchanged. *)
Definition off : list (R * list R) := [(2%R, half 1); (2%R, [1/2; 1/2; 1/2; 51/100]%R)].
Example C94_hypotheses_met : exists vecs, snd (compute_eigenvectors (const_solver off) ring MatNormalisedLaplacian 2 Smallest) = Ok vecs /\
  nearly_leading 4 (matrix_of_graph MatNormalisedLaplacian ring) 2 vecs (1/10000) /\
  exists e, is_mean 2 (fun us => value_or 1%R (fun labels => if recovers 4 ring_s labels then 0%R else 1%R) (snd (spectral_cluster_with (fun c => c) (const_solver off) ring 2 us))) e /\ (e <= 9 / 10)%R.
Proof.
  assert (Ev : snd (compute_eigenvectors (const_solver off) ring MatNormalisedLaplacian 2 Smallest) = Ok [half 1; [1/2; 1/2; 1/2; 51/100]%R]).
  { pose proof (const_runs off ring 2 ring_reachable ltac:(cbn; lia)) as P. unfold compute_eigenvectors. destruct (compute_eigensystem (const_solver off) ring MatNormalisedLaplacian 2 Smallest). cbn [snd] in *. subst. reflexivity. }
  exists [half 1; [1/2; 1/2; 1/2; 51/100]%R]. split; [exact Ev|].
  assert (NL : nearly_leading 4 (matrix_of_graph MatNormalisedLaplacian ring) 2 [half 1; [1/2; 1/2; 1/2; 51/100]%R] (1/10000)).
  { split; [reflexivity|]. exists ring_F, (fun i j => if i =? j then 0%R else 1%R). split; [exact ring_system_nlap|]. split; [|split].
    - unfold ring_F. cbn [map fst]. repeat (apply SSorted_cons || apply SSorted_nil || apply Forall_cons || apply Forall_nil); lra.
    - intros [|[|j]] [|[|l]] Hj Hl; try lia; unfold rsum; cbn; lra.
    - unfold rsum. cbn [seq lsum nth ring_F Nat.eqb snd half ring_v map vx]. lra. }
  split; [exact NL|].
  destruct C92_hypotheses_met as (_ & H2 & H3 & H4 & H5 & H6 & H7 & _).
  destruct (C94_probability (fun c => c) (const_solver off) ring 2 ring_s (2000/1001) 2 _ (1/10000) (fun c _ => eq_refl) H2 H3 H4 ltac:(lia) ltac:(cbn; lia) ltac:(lia) H5 H6 ltac:(lra) H7 Ev NL) as (e & M & L).
  exists e. split; [exact M|]. rewrite ring_energy in L. eapply Rle_trans; [exact L|].
  assert (ln (INR 2) <= 1)%R.
  { cbn [INR]. replace (1+1)%R with 2%R by ring. rewrite <- (ln_exp 1). apply Rlt_le, ln_increasing; [lra|]. pose proof (exp_ineq1 1 ltac:(lra)). lra. }
  lra.
Qed.
Print Assumptions C93_any_vector.
Print Assumptions C93_residual.
Print Assumptions C94_misplaced.
Print Assumptions C94_expected.
Print Assumptions C94_probability.
