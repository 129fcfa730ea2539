(** C102: the power method without a spectral gap, and the default number of iterations (stag_lib/spectrum.cpp:165-192). *)
From Verif Require Import Base Num RSum Sparse SparseFacts Graph GraphSpec GraphFacts GraphProps1 GraphProps2 GraphProps3 Spectrum SpectrumSpec SpectrumFacts SpectrumPower SpectrumConv SpectrumExamples SpectrumGap Props_Spectrum.
From Coq Require Import Reals Lra Psatz Lia List.
From Flocq Require Import Core.
Import ListNotations.
Local Open Scope nat_scope.

(** Let M be symmetric and positive semidefinite, v a unit eigenvector with eigenvalue l > 0, and x not orthogonal to v.  The Rayleigh quotient q
    of the result of t iterations from x satisfies (q / l)^(2t) >= <x,v>^2 / <x,x>, whatever the other eigenvalues are. *)
Theorem C102_no_gap (M : sprs R) n num x y l v : sp_square M n -> (forall i j, i < n -> j < n -> coeff M i j = coeff M j i) ->
  (forall w, (0 <= quad n (coeff M) w)%R) -> length x = n -> (0 <= num)%Z ->
  eigenpair n (coeff M) l v -> dot n v v = 1%R -> (0 < l)%R -> dot n (vx x) v <> 0%R -> power_method M num x = Ok y ->
  exists q, rayleigh_quotient M y = Ok q /\ (0 <= q)%R /\
    (l ^ (2 * Z.to_nat num) * dot n (vx x) v ^ 2 <= q ^ (2 * Z.to_nat num) * dot n (vx x) (vx x))%R.
Proof. exact (power_quality M n num x y l v). Qed.
Print Assumptions C102_no_gap.

Lemma quad_max n M E lam w : (forall i j, i < n -> j < n -> M i j = M j i) -> eigen_system n M E -> (forall p, In p E -> (fst p <= lam)%R) -> (quad n M w <= lam * dot n w w)%R.
Proof.
  intros HM HE HL. rewrite quad_dot, (parseval n M E HE w (mulv n M w)), (parseval n M E HE w w), <- lsum_scal. apply lsum_le. intros p Hp.
  rewrite (mulv_component n M E HE HM w p Hp). specialize (HL p Hp). set (d := dot n w (vx (snd p))).
  replace (d * (fst p * d))%R with (fst p * (d * d))%R by ring. apply Rmult_le_compat_r; [apply Rle_0_sqr|exact HL].
Qed.
(** With the largest eigenvalue lam and a start whose share in the direction of a unit eigenvector for lam is at least exp(-a), the quotient after
    t >= 1 iterations is between lam exp(-a/(2t)) and lam. *)
Theorem C102_largest_eigenvalue (M : sprs R) n num x y E lam v a : sp_square M n -> (forall i j, i < n -> j < n -> coeff M i j = coeff M j i) ->
  (forall w, (0 <= quad n (coeff M) w)%R) -> eigen_system n (coeff M) E -> (forall p, In p E -> (fst p <= lam)%R) -> In (lam, v) E -> (0 < lam)%R ->
  length x = n -> (0 < num)%Z -> (0 < dot n (vx x) (vx x))%R -> (exp (- a) * dot n (vx x) (vx x) <= dot n (vx x) (vx v) ^ 2)%R -> power_method M num x = Ok y ->
  exists q, rayleigh_quotient M y = Ok q /\ (lam * exp (- a / (2 * IZR num)) <= q <= lam)%R.
Proof.
  intros Hs Hsy HP HE HL Hv Pl Hx Hn Px Sx Hy. pose proof (eigen_norm n _ E _ HE Hv) as V1. cbn [snd] in V1.
  assert (eigenpair n (coeff M) lam (vx v)) as EP by (destruct HE as (_ & F & _); rewrite Forall_forall in F; exact (proj2 (F _ Hv))).
  assert (0 < exp (- a) * dot n (vx x) (vx x))%R as PE by (apply Rmult_lt_0_compat; [apply exp_pos|exact Px]).
  assert (dot n (vx x) (vx v) <> 0%R) as N by (intros Z0; rewrite Z0 in Sx; cbn [pow] in Sx; lra).
  destruct (C102_no_gap M n num x y lam (vx v) Hs Hsy HP Hx ltac:(lia) EP V1 Pl N Hy) as (q & Eq & Pq & Bq). exists q. split; [exact Eq|]. split.
  - replace (IZR num) with (INR (Z.to_nat num)) by (rewrite INR_IZR_INZ, Z2Nat.id by lia; reflexivity).
    apply (quality_exp q lam (Z.to_nat num) a (dot n (vx x) (vx x)) Pq Pl ltac:(lia) Px (dot n (vx x) (vx v)) Sx Bq).
  - assert (length y = n) as Ly. { destruct (C62_power M n num x Hs Hx ltac:(lia)) as (y' & E' & L' & _). congruence. }
    rewrite (rayleigh_spec M n) in Eq by auto. destruct (Req_EM_T _ 0) as [|Ny]; [discriminate|]. assert (q = (quad n (coeff M) (vx y) / dot n (vx y) (vx y))%R) as -> by congruence.
    pose proof (dot_nonneg n (vx y)) as D0. apply Rmult_le_reg_r with (dot n (vx y) (vx y)); [lra|]. unfold Rdiv. rewrite Rmult_assoc, Rinv_l, Rmult_1_r by lra.
    exact (quad_max n (coeff M) E lam (vx y) Hsy HE HL).
Qed.
Print Assumptions C102_largest_eigenvalue.
(** The default number of iterations, 10 ceil(ln n), from a start whose share in the direction of the eigenvector is at least n^(-c):
    the quotient is between lam exp(-c/20) and lam. *)
Theorem C102_default_iterations (M : sprs R) n x y E lam v c : 2 <= n -> sp_square M n -> (forall i j, i < n -> j < n -> coeff M i j = coeff M j i) ->
  (forall w, (0 <= quad n (coeff M) w)%R) -> eigen_system n (coeff M) E -> (forall p, In p E -> (fst p <= lam)%R) -> In (lam, v) E -> (0 < lam)%R ->
  length x = n -> (0 < dot n (vx x) (vx x))%R -> (0 <= c)%R -> (exp (- (c * ln (INR n))) * dot n (vx x) (vx x) <= dot n (vx x) (vx v) ^ 2)%R ->
  power_method_default default_iterations M x = Ok y ->
  exists q, rayleigh_quotient M y = Ok q /\ (lam * exp (- c / 20) <= q <= lam)%R.
Proof.
  intros N2 Hs Hsy HP HE HL Hv Pl Hx Px Pc Sx Hy. pose proof Hs as (Hr & _). unfold power_method_default in Hy. rewrite Hr in Hy.
  assert (0 < ln (INR n))%R as PL by (rewrite <- ln_1; apply ln_increasing; [lra|apply (lt_INR 1); lia]).
  assert (10 * ln (INR n) <= IZR (default_iterations n))%R as LT by (unfold default_iterations; rewrite mult_IZR; apply Rmult_le_compat_l; [lra|apply Zceil_ub]).
  assert (0 < default_iterations n)%Z as PT by (apply lt_IZR; lra).
  destruct (C102_largest_eigenvalue M n _ x y E lam v _ Hs Hsy HP HE HL Hv Pl Hx PT Px Sx Hy) as (q & Eq & L1 & L2). exists q. split; [exact Eq|]. split; [|exact L2].
  eapply Rle_trans; [|exact L1]. apply Rmult_le_compat_l; [lra|]. set (t := IZR (default_iterations n)) in *. set (u := ln (INR n)) in *. clearbody t u.
  assert (- c / 20 <= - (c * u) / (2 * t))%R as LE.
  { apply Rmult_le_reg_r with (2 * t)%R; [lra|]. replace (- (c * u) / (2 * t) * (2 * t))%R with (- (c * u))%R by (field; lra).
    assert (c * (10 * u) <= c * t)%R by (apply Rmult_le_compat_l; lra). lra. }
  destruct LE as [LE | ->]; [left; now apply exp_increasing|right; reflexivity].
Qed.
Print Assumptions C102_default_iterations.
(** On a single row the default is no iteration: the start is returned, not normalised. *)
Theorem C102_single_row (M : sprs R) x : sp_square M 1 -> length x = 1 -> power_method_default default_iterations M x = Ok x.
Proof.
  intros Hs Hx. pose proof Hs as (Hr & Hc & _). unfold power_method_default. rewrite Hr. unfold default_iterations. cbn [INR]. rewrite ln_1, (Zceil_IZR 0).
  unfold power_method. rewrite Hr, Hc, Hx. reflexivity.
Qed.
Print Assumptions C102_single_row.
(** The Laplacian and the normalised Laplacian of a graph with positive weights. *)
Theorem C102_graph_matrices (g : graph R) mat q0 num x y E lam v a : reachable_pos g ->
  (mat = MatLaplacian /\ q0 = QLap) \/ (mat = MatNormalisedLaplacian /\ q0 = QNLap) ->
  eigen_system (number_of_vertices g) (matrix_of_graph mat g) E -> (forall p, In p E -> (fst p <= lam)%R) -> In (lam, v) E -> (0 < lam)%R ->
  length x = number_of_vertices g -> (0 < num)%Z -> (0 < dot (number_of_vertices g) (vx x) (vx x))%R ->
  (exp (- a) * dot (number_of_vertices g) (vx x) (vx x) <= dot (number_of_vertices g) (vx x) (vx v) ^ 2)%R ->
  power_method (snd (mat_query q0 g)) num x = Ok y ->
  exists q, rayleigh_quotient (snd (mat_query q0 g)) y = Ok q /\ (lam * exp (- a / (2 * IZR num)) <= q <= lam)%R.
Proof.
  intros Hr Hm HE HL Hv Pl Hx Hn Px Sx. pose proof (reachable_pos_reachable g Hr) as Hr'. rewrite (query_formula g q0 Hr'). intros Hy.
  assert (forall i j, i < g_n g -> j < g_n g -> coeff (mat_formula q0 (g_adj g)) i j = matrix_of_graph mat g i j) as EM.
  { intros i j Hi Hj. destruct (lap_entries g i j Hr Hi Hj) as [E1 E2]. destruct Hm as [[-> ->]|[-> ->]]; assumption. }
  apply (C102_largest_eigenvalue _ (g_n g) num x y E lam v a); auto.
  - apply lap_square; auto. destruct Hm as [[_ ->]|[_ ->]]; auto.
  - intros i j Hi Hj. rewrite !EM by auto. now apply matrix_sym.
  - intros w. rewrite (quad_ext _ _ (matrix_of_graph mat g)) by auto. destruct (matrix_psd_low g Hr) as [P1 P2]. destruct Hm as [[-> _]|[-> _]]; [apply P1|apply P2].
  - apply (eigen_system_ext _ (matrix_of_graph mat g)); auto.
Qed.
Print Assumptions C102_graph_matrices.

(** The matrix [[2 1] [1 2]] with eigenvalues 3 and 1 from (1, 0), whose share in the direction of (1, 1) is 1/2. *)
Example C102_hypotheses_met : sp_square exP 2 /\ (forall i j, i < 2 -> j < 2 -> coeff exP i j = coeff exP j i) /\ (forall w, (0 <= quad 2 (coeff exP) w)%R) /\
  eigen_system 2 (coeff exP) [pair_plus 2 1; pair_minus 2 1] /\ (forall p, In p [pair_plus 2 1; pair_minus 2 1] -> (fst p <= 3)%R) /\
  In (3%R, snd (pair_plus 2 1)) [pair_plus 2 1; pair_minus 2 1] /\ dot 2 (vx [1%R; 0%R]) (vx [1%R; 0%R]) = 1%R /\
  (exp (- (1 * ln (INR 2))) * 1 <= dot 2 (vx [1%R; 0%R]) (vx (snd (pair_plus 2 1))) ^ 2)%R /\
  exists y, power_method_default default_iterations exP [1%R; 0%R] = Ok y.
Proof.
  destruct C62_hypotheses_met as (H1 & H2 & H3 & H4 & _). split; [exact H1|]. split; [exact H2|]. split; [exact H4|]. split; [exact H3|].
  split; [intros p [<-|[<-|[]]]; unfold pair_plus, pair_minus; cbn [fst]; lra|]. split; [left; unfold pair_plus; cbn [fst snd]; f_equal; lra|].
  split; [unfold dot; rewrite rsum2; unfold vx; cbn [nth]; ring|]. split.
  - rewrite Rmult_1_l, exp_Ropp, exp_ln by (cbn [INR]; lra). unfold dot. rewrite rsum2. unfold vx. cbn [nth snd pair_plus INR]. pose proof s2_sq. nra.
  - unfold power_method_default. destruct (C62_power exP 2 (default_iterations 2) [1%R; 0%R] H1 eq_refl) as (y & Ey & _).
    + unfold default_iterations. assert (0 <= Zceil (ln (INR 2)))%Z; [|lia]. apply le_IZR. apply Rle_trans with (ln (INR 2)); [|apply Zceil_ub]. rewrite <- ln_1. left. apply ln_increasing; cbn [INR]; lra.
    + exists y. exact Ey.
Qed.
