From Coq Require Import Reals Lra Psatz Lia ZArith.
From Coquelicot Require Import Coquelicot.
From Flocq Require Import Core.Raux.
From Verif Require Import LshProb LshProbFacts LshProbTop LshParams.
Local Open Scope R_scope.

Lemma rj_pos : forall j a, (1 <= j)%Z -> 0 < a -> 0 < lsh_rj j a.
Proof.
  intros j a Hj Ha. unfold lsh_rj. apply sqrt_lt_R0. apply Rdiv_lt_0_compat; [|assumption].
  apply Rmult_lt_0_compat; [apply IZR_lt; lia | ]. rewrite <- ln_1. apply ln_increasing; lra.
Qed.

Lemma pj_range : forall j a, (1 <= j)%Z -> 0 < a -> 0 < lsh_collision (lsh_rj j a) < 1.
Proof.
  intros j a Hj Ha. split; [apply lsh_pos|]. apply lsh_lt_1.
  assert (P := rj_pos j a Hj Ha). lra.
Qed.

Lemma phi_pos : forall J j, (1 <= j <= J)%Z -> (1 <= lsh_phi J j <= J)%Z.
Proof.
  intros J j H. unfold lsh_phi.
  assert (HJ : 0 < IZR J) by (apply IZR_lt; lia).
  replace (IZR j / IZR J * IZR (J - j + 1)) with (IZR (j * (J - j + 1)) / IZR J)
    by (rewrite mult_IZR; field; lra).
  split.
  - apply le_IZR. eapply Rle_trans; [|apply Zceil_ub].
    apply div_ge; [assumption|]. rewrite <- mult_IZR. apply IZR_le. nia.
  - apply Zceil_glb. apply div_le; [assumption|]. rewrite <- mult_IZR. apply IZR_le. nia.
Qed.

Lemma ln2_pos : 0 < ln 2.
Proof. rewrite <- ln_1. apply ln_increasing; lra. Qed.

Lemma pow2_pos : forall z, 0 < powerRZ 2 z.
Proof. intro z. apply powerRZ_lt. lra. Qed.

Lemma ln_powerRZ2 : forall z, ln (powerRZ 2 z) = IZR z * ln 2.
Proof.
  intro z. rewrite powerRZ_Rpower by lra. unfold Rpower. apply ln_exp.
Qed.

Lemma ln_neg : forall p, 0 < p < 1 -> ln p < 0.
Proof. intros p H. rewrite <- ln_1. apply ln_increasing; lra. Qed.

(* K, L are positive. *)
Lemma params_pos : forall J j a K2, (1 <= j <= J)%Z -> 0 < a -> 0 < K2 ->
  (1 <= fst (ckns_lsh_params J j a K2))%nat /\ (1 <= snd (ckns_lsh_params J j a K2))%nat.
Proof.
  intros J j a K2 H Ha HK. unfold ckns_lsh_params. cbn [fst snd].
  assert (P := pow2_pos (lsh_phi J j)).
  assert (0 < Zceil (K2 * powerRZ 2 (lsh_phi J j)))%Z.
  { apply lt_IZR. eapply Rlt_le_trans; [|apply Zceil_ub].
    now apply Rmult_lt_0_compat. }
  lia.
Qed.

Lemma params_L : forall J j a K2, (1 <= j <= J)%Z -> 0 < a -> 0 < K2 ->
  K2 * powerRZ 2 (lsh_phi J j) <= INR (snd (ckns_lsh_params J j a K2)) < K2 * powerRZ 2 (lsh_phi J j) + 1.
Proof.
  intros J j a K2 H Ha HK. unfold ckns_lsh_params. cbn [fst snd].
  assert (P := pow2_pos (lsh_phi J j)).
  assert (0 < Zceil (K2 * powerRZ 2 (lsh_phi J j)))%Z.
  { apply lt_IZR. eapply Rlt_le_trans; [|apply Zceil_ub].
    now apply Rmult_lt_0_compat. }
  rewrite INR_IZR_INZ, Z2Nat.id by lia. split; [apply Zceil_ub|].
  assert (Q := Zfloor_lb (- (K2 * powerRZ 2 (lsh_phi J j)))).
  assert (Q' := Zfloor_ub (- (K2 * powerRZ 2 (lsh_phi J j)))).
  unfold Zceil. rewrite opp_IZR. lra.
Qed.

(* The exponent K is the largest with p^K >= 2^-phi, if p itself is >= 2^-phi. *)
Lemma params_K : forall J j a K2, (1 <= j <= J)%Z -> 0 < a ->
  let p := lsh_collision (lsh_rj j a) in
  let K := fst (ckns_lsh_params J j a K2) in
  / powerRZ 2 (lsh_phi J j) <= p ->
  / powerRZ 2 (lsh_phi J j) <= p ^ K /\ p ^ (S K) < / powerRZ 2 (lsh_phi J j).
Proof.
  intros J j a K2 H Ha p K Q.
  destruct (pj_range j a ltac:(lia) Ha) as [P0 P1]. fold p in P0, P1.
  assert (L0 := ln_neg p (conj P0 P1)). assert (L2 := ln2_pos).
  assert (PP := pow2_pos (lsh_phi J j)).
  assert (LQ : - (IZR (lsh_phi J j) * ln 2) <= ln p).
  { rewrite <- ln_powerRZ2, <- ln_Rinv by assumption. apply ln_le; [now apply Rinv_0_lt_compat|exact Q]. }
  assert (X : - IZR (lsh_phi J j) / log2R p = (IZR (lsh_phi J j) * ln 2) / (- ln p)).
  { unfold log2R. field. split; lra. }
  assert (X1 : 1 <= - IZR (lsh_phi J j) / log2R p).
  { rewrite X. apply div_ge; lra. }
  assert (KE : K = Z.to_nat (Zfloor (- IZR (lsh_phi J j) / log2R p))).
  { unfold K, ckns_lsh_params. cbn [fst]. fold p. rewrite Z.max_r; [reflexivity|].
    apply Zfloor_lub. exact X1. }
  assert (F1 : (1 <= Zfloor (- IZR (lsh_phi J j) / log2R p))%Z) by (apply Zfloor_lub; exact X1).
  assert (KI : INR K = IZR (Zfloor (- IZR (lsh_phi J j) / log2R p))).
  { rewrite KE, INR_IZR_INZ, Z2Nat.id by lia. reflexivity. }
  assert (LB := Zfloor_lb (- IZR (lsh_phi J j) / log2R p)).
  assert (UB := Zfloor_ub (- IZR (lsh_phi J j) / log2R p)).
  rewrite <- KI in LB, UB. rewrite X in LB, UB.
  assert (EP : forall n, p ^ n = exp (INR n * ln p)).
  { intro n. rewrite <- Rpower_pow by assumption. reflexivity. }
  assert (EQ : / powerRZ 2 (lsh_phi J j) = exp (- (IZR (lsh_phi J j) * ln 2))).
  { rewrite exp_Ropp, <- ln_powerRZ2, exp_ln by assumption. reflexivity. }
  split; rewrite EP, EQ.
  - assert (Y : - (IZR (lsh_phi J j) * ln 2) <= INR K * ln p).
    { assert (INR K * (- ln p) <= IZR (lsh_phi J j) * ln 2 / - ln p * (- ln p)) by (apply Rmult_le_compat_r; lra).
      replace (IZR (lsh_phi J j) * ln 2 / - ln p * (- ln p)) with (IZR (lsh_phi J j) * ln 2) in * by (field; lra).
      lra. }
    destruct Y as [Y|Y]; [left; now apply exp_increasing | rewrite Y; lra].
  - apply exp_increasing. rewrite S_INR.
    assert (IZR (lsh_phi J j) * ln 2 / - ln p * (- ln p) < (INR K + 1) * (- ln p)) by (apply Rmult_lt_compat_r; lra).
    replace (IZR (lsh_phi J j) * ln 2 / - ln p * (- ln p)) with (IZR (lsh_phi J j) * ln 2) in * by (field; lra).
    lra.
Qed.

Lemma params_K1 : forall J j a K2, (1 <= j <= J)%Z -> 0 < a ->
  let p := lsh_collision (lsh_rj j a) in
  p < / powerRZ 2 (lsh_phi J j) -> fst (ckns_lsh_params J j a K2) = 1%nat.
Proof.
  intros J j a K2 H Ha p Q.
  destruct (pj_range j a ltac:(lia) Ha) as [P0 P1]. fold p in P0, P1.
  assert (L0 := ln_neg p (conj P0 P1)). assert (L2 := ln2_pos).
  assert (PP := pow2_pos (lsh_phi J j)).
  assert (LQ : ln p < - (IZR (lsh_phi J j) * ln 2)).
  { rewrite <- ln_powerRZ2, <- ln_Rinv by assumption. now apply ln_increasing. }
  assert (X : - IZR (lsh_phi J j) / log2R p = (IZR (lsh_phi J j) * ln 2) / (- ln p)).
  { unfold log2R. field. split; lra. }
  unfold ckns_lsh_params. cbn [fst]. fold p. rewrite Z.max_l; [reflexivity|].
  apply le_IZR. eapply Rle_trans; [apply Zfloor_lb|]. rewrite X. apply div_le; lra.
Qed.

Lemma pow_exp_bound : forall x n, 0 <= x <= 1 -> (1 - x) ^ n <= exp (- (INR n * x)).
Proof.
  intros x n H. induction n as [|n IH].
  - simpl. rewrite Rmult_0_l, Ropp_0, exp_0. lra.
  - rewrite S_INR. replace (- ((INR n + 1) * x)) with (- x + - (INR n * x)) by ring.
    rewrite exp_plus. change ((1 - x) ^ S n) with ((1 - x) * (1 - x) ^ n).
    assert (T := exp_ineq1_le (- x)).
    apply Rmult_le_compat; [lra | apply pow_le; lra | lra | exact IH].
Qed.

Lemma exp_le : forall x y, x <= y -> exp x <= exp y.
Proof. intros x y [L| ->]; [left; now apply exp_increasing | lra]. Qed.

(* Points at which the hash functions collide at least as often as at r_j are
   found with probability at least 1 - e^-K2. *)
Lemma params_detect : forall J j a K2 c, (1 <= j <= J)%Z -> 0 < a -> 0 < K2 ->
  / powerRZ 2 (lsh_phi J j) <= lsh_collision (lsh_rj j a) ->
  lsh_collision (lsh_rj j a) <= lsh_collision c ->
  1 - exp (- K2) <= e2lsh_collision (fst (ckns_lsh_params J j a K2)) (snd (ckns_lsh_params J j a K2)) c.
Proof.
  intros J j a K2 c H Ha HK Q Hc.
  assert (PP := pow2_pos (lsh_phi J j)).
  destruct (params_K J j a K2 H Ha Q) as [K1 _].
  destruct (params_L J j a K2 H Ha HK) as [L1 _].
  set (K := fst (ckns_lsh_params J j a K2)) in *. set (L := snd (ckns_lsh_params J j a K2)) in *.
  assert (Rc := lsh_range c). assert (Rj := lsh_range (lsh_rj j a)).
  assert (M := pow_mono_base (lsh_collision (lsh_rj j a)) (lsh_collision c) K ltac:(lra) Hc).
  assert (PR := pow_range (lsh_collision c) K ltac:(lra)).
  unfold e2lsh_collision. cbv zeta.
  assert (B1 := pow_exp_bound (lsh_collision c ^ K) L PR).
  assert (K2 <= INR L * lsh_collision c ^ K).
  { assert (E : K2 = K2 * powerRZ 2 (lsh_phi J j) * / powerRZ 2 (lsh_phi J j)) by (field; lra).
    rewrite E. apply Rmult_le_compat; [| | lra | lra].
    - apply Rlt_le. apply Rmult_lt_0_compat; lra.
    - left. now apply Rinv_0_lt_compat. }
  assert (exp (- (INR L * lsh_collision c ^ K)) <= exp (- K2)) by (apply exp_le; lra).
  lra.
Qed.

Lemma lsh_mono : forall c r, 0 <= c <= r -> (r < 1 \/ 1 <= c \/ lsh_collision r <= 8 / 10) ->
  lsh_collision r <= lsh_collision c.
Proof.
  intros c r H [L|[L|L]].
  - apply lsh_mono_small; lra.
  - apply lsh_mono_large; lra.
  - destruct (Rlt_le_dec c 1).
    + destruct (Rlt_le_dec r 1); [apply lsh_mono_small; lra|].
      rewrite (lsh_small c) by lra. lra.
    + apply lsh_mono_large; lra.
Qed.

(* With a small kernel parameter the probability of finding a point at distance
   r_j tends to 0. *)
Lemma params_miss : forall J j K2 delta, (1 <= j <= J)%Z -> 0 < K2 -> 0 < delta ->
  exists a0, 0 < a0 /\ forall a, 0 < a <= a0 ->
    e2lsh_collision (fst (ckns_lsh_params J j a K2)) (snd (ckns_lsh_params J j a K2)) (lsh_rj j a) <= delta.
Proof.
  intros J j K2 delta H HK HD.
  set (Lb := K2 * powerRZ 2 (lsh_phi J j) + 1).
  assert (PP := pow2_pos (lsh_phi J j)).
  assert (Lp : 1 < Lb). { unfold Lb. assert (0 < K2 * powerRZ 2 (lsh_phi J j)) by (now apply Rmult_lt_0_compat). lra. }
  (* need r >= 1, 4/r < 2^-phi, Lb * 4 / r <= delta *)
  set (R0 := 1 + 5 * powerRZ 2 (lsh_phi J j) + 4 * Lb / delta).
  assert (D0 : 0 < 4 * Lb / delta) by (apply Rdiv_lt_0_compat; lra).
  assert (R1 : 1 < R0) by (unfold R0; lra).
  assert (HJ : 1 <= IZR j) by (apply IZR_le; lia).
  assert (L2 := ln2_pos).
  exists (IZR j * ln 2 / (R0 * R0)). split.
  { apply Rdiv_lt_0_compat; [apply Rmult_lt_0_compat; lra | nra]. }
  intros a [A0 A1].
  assert (RJ : R0 <= lsh_rj j a).
  { unfold lsh_rj. rewrite <- (sqrt_square R0) by lra. apply sqrt_le_1_alt.
    apply div_ge; [assumption|].
    assert (a * (R0 * R0) <= IZR j * ln 2 / (R0 * R0) * (R0 * R0)) by (apply Rmult_le_compat_r; [nra|exact A1]).
    replace (IZR j * ln 2 / (R0 * R0) * (R0 * R0)) with (IZR j * ln 2) in * by (field; lra). lra. }
  assert (DB := lsh_bound_decay (lsh_rj j a) ltac:(lra)).
  assert (Rj := lsh_range (lsh_rj j a)).
  set (r := lsh_rj j a) in *.
  assert (K1 : fst (ckns_lsh_params J j a K2) = 1%nat).
  { apply params_K1; [assumption|assumption|]. fold r.
    eapply Rle_lt_trans; [exact DB|].
    apply Rmult_lt_reg_r with r; [lra|].
    replace (4 / r * r) with 4 by (field; lra).
    apply Rmult_lt_reg_r with (powerRZ 2 (lsh_phi J j)); [assumption|].
    replace (/ powerRZ 2 (lsh_phi J j) * r * powerRZ 2 (lsh_phi J j)) with r by (field; lra).
    unfold R0 in RJ. lra. }
  rewrite K1. destruct (params_L J j a K2 H A0 HK) as [_ L1].
  set (L := snd (ckns_lsh_params J j a K2)) in *.
  unfold e2lsh_collision. cbv zeta. rewrite pow_1.
  assert (Be : 1 - INR L * lsh_collision r <= (1 - lsh_collision r) ^ L).
  { clear L1. induction L as [|n IH]; [simpl; lra|]. rewrite S_INR.
    change ((1 - lsh_collision r) ^ S n) with ((1 - lsh_collision r) * (1 - lsh_collision r) ^ n).
    assert (PR := pow_range (1 - lsh_collision r) n ltac:(lra)).
    assert (IN := pos_INR n).
    assert ((1 - lsh_collision r) * (1 - INR n * lsh_collision r) <= (1 - lsh_collision r) * (1 - lsh_collision r) ^ n)
      by (apply Rmult_le_compat_l; lra).
    assert (0 <= INR n * (lsh_collision r * lsh_collision r)) by (apply Rmult_le_pos; [exact IN|nra]).
    lra. }
  assert (INR L * lsh_collision r <= Lb * (4 / r)).
  { apply Rmult_le_compat; try lra; try apply pos_INR. unfold Lb. lra. }
  assert (Lb * (4 / r) <= delta).
  { replace (Lb * (4 / r)) with (4 * Lb / r) by (field; lra). apply div_le; [lra|].
    assert (4 * Lb / delta <= r) by (unfold R0 in RJ; lra).
    assert (4 * Lb / delta * delta <= r * delta) by (apply Rmult_le_compat_r; lra).
    replace (4 * Lb / delta * delta) with (4 * Lb) in * by (field; lra). lra. }
  lra.
Qed.
