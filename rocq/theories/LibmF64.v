(** A C library whose exp and log are correctly rounded: it meets the contract [libm_ok] with eps = 2^-52. Used to show that the hypotheses of C87 and C88 can be met. *)
From Verif Require Import Base Num RSum FloatFacts Kde KdeFacts3 SimGraph PageRankFloat KdeFloat.
From Coq Require Import ZArith Reals Lra Lia SpecFloat.
From Flocq Require Import Core BinarySingleNaN.
Local Open Scope R_scope.

(** The double nearest to a real number. *)
Definition of_real (x : R) : f64 :=
  B2SF (binary_normalize 53 1024 (eq_refl _) (eq_refl _) mode_NE (Ztrunc (scaled_mantissa radix2 (FLT_exp (-1074) 53) (rnd64 x))) (cexp radix2 (FLT_exp (-1074) 53) (rnd64 x)) false).
Lemma of_real_spec x : in_range (rnd64 x) -> dbl (of_real x) /\ f2r (of_real x) = rnd64 x.
Proof.
  intros R. set (fexp := FLT_exp (-1074) 53).
  assert (G : generic_format radix2 fexp (rnd64 x)) by (apply generic_format_round; [apply FLT_exp_valid; reflexivity|apply valid_rnd_N]).
  assert (E : F2R (Float radix2 (Ztrunc (scaled_mantissa radix2 fexp (rnd64 x))) (cexp radix2 fexp (rnd64 x))) = rnd64 x) by (symmetry; exact G).
  pose proof (binary_normalize_correct 53 1024 (eq_refl _) (eq_refl _) mode_NE (Ztrunc (scaled_mantissa radix2 fexp (rnd64 x))) (cexp radix2 fexp (rnd64 x)) false) as N.
  rewrite E in N. change (SpecFloat.fexp 53 1024) with fexp in N. cbn [round_mode] in N.
  assert (Rr : round radix2 fexp ZnearestE (rnd64 x) = rnd64 x) by (apply round_generic; [apply valid_rnd_N|exact G]).
  assert (L : Rlt_bool (Rabs (rnd64 x)) (bpow radix2 1024) = true) by (apply Rlt_bool_true; exact R).
  change (round radix2 fexp ZnearestE (rnd64 x)) with (round radix2 fexp ZnearestE (rnd64 x)) in N.
  rewrite Rr, L in N. destruct N as (N1 & N2 & _). unfold of_real. fold fexp. destruct (bin_dbl _ N2) as [D Eq]. split; [exact D|]. rewrite Eq. exact N1.
Qed.

Definition libm : KNum f64 := {|
  wexp := fun x => of_real (exp (f2r x)); wlog := fun x => of_real (ln (f2r x)); wlog2 := fun x => of_real (ln (f2r x) / ln 2);
  wfloor := fun x => Zfloor (f2r x); wceil := fun x => Zceil (f2r x); wofZ := zf; wpow2 := fun k => of_real (bpow radix2 k);
  wLOG_TWO := of_real (69314718056 / 100000000000); w13 := of_real (13 / 10) |}.

Lemma libm_exp : libm_ok libm (bpow radix2 (-52)).
Proof.
  split; [apply bpow_ge_0|]. split; [reflexivity|]. intros x Dx Hx. change (@wexp f64 libm x) with (of_real (exp (f2r x))).
  assert (B : 0 <= exp (f2r x) <= 1).
  { split; [left; apply exp_pos|]. destruct Hx as [L|E]; [left; replace 1 with (exp 0) by apply exp_0; now apply exp_increasing|rewrite E, exp_0; lra]. }
  assert (RL : Rabs (rnd64 (exp (f2r x))) <= 1) by (change 1 with (bpow radix2 0); apply rnd_le; [lia|]; change (bpow radix2 0) with 1; rewrite Rabs_pos_eq; lra).
  destruct (of_real_spec (exp (f2r x))) as [D E]; [apply (fits _ 0); [lia|]; change (bpow radix2 0) with 1; rewrite Rabs_pos_eq; lra|].
  split; [exact D|]. rewrite E. pose proof (rnd_nonneg (exp (f2r x)) (proj1 B)) as P. rewrite (Rabs_pos_eq _ P) in RL. split; [lra|].
  eapply Rle_trans; [apply rnd_err|]. rewrite Rabs_pos_eq by lra. pose proof u64_pos.
  assert (u64 * exp (f2r x) <= u64 * 1) by (apply Rmult_le_compat_l; lra). assert (eta <= u64) by (apply bpow_le; lia).
  assert (2 * u64 = bpow radix2 (-52)) by (unfold u64; change 2 with (bpow radix2 1); rewrite <- bpow_plus; reflexivity). lra.
Qed.

(** Two samples for every vertex. *)
Lemma ln2_lower : 67 / 100 <= ln 2.
Proof.
  assert (E : exp (- (201 / 100)) = exp (- (201 / 3200)) ^ 32).
  { replace (- (201 / 100)) with (INR 32 * (- (201 / 3200))) by (simpl; lra). generalize 32%nat as k. induction k as [|k IH]; [simpl; rewrite Rmult_0_l; apply exp_0|].
    rewrite S_INR. replace ((INR k + 1) * (- (201 / 3200))) with (INR k * (- (201 / 3200)) + - (201 / 3200)) by lra. rewrite exp_plus, IH. simpl. lra. }
  assert (L : / 8 < exp (- (201 / 100))).
  { rewrite E. apply Rlt_le_trans with ((2999 / 3200) ^ 32); [simpl; lra|]. apply pow_incr. split; [lra|]. pose proof (exp_ineq1_le (- (201 / 3200))). lra. }
  assert (Q : exp (201 / 100) < 8).
  { replace (201 / 100) with (- - (201 / 100)) by lra. rewrite exp_Ropp. pose proof (exp_pos (- (201 / 100))). apply (Rmult_lt_reg_l (exp (- (201 / 100)))); auto. rewrite Rinv_r; lra. }
  assert (201 / 100 < ln 8) by (rewrite <- (ln_exp (201 / 100)); apply ln_increasing; [apply exp_pos|exact Q]).
  assert (ln 8 = 3 * ln 2); [|lra]. replace 8 with (2 * (2 * 2)) by lra. rewrite !ln_mult by lra. lra.
Qed.
Lemma libm_edges n : (2 <= n)%nat -> INR n <= two49 -> @edges_per_node f64 _ libm n = 2%Z.
Proof.
  intros Hn HN. unfold edges_per_node. change (@wofZ f64 libm) with zf. change (@wlog f64 libm) with (fun x => of_real (ln (f2r x))). change (@wfloor f64 libm) with (fun x => Zfloor (f2r x)). cbv beta.
  assert (HZ : (Z.of_nat n <= 2 ^ 49)%Z) by (apply le_IZR; rewrite <- INR_IZR_INZ, bpow_INR by lia; exact HN).
  destruct (zf_spec (Z.of_nat n)) as [Dn En]; [unfold small_int; lia|]. destruct (zf_spec 3) as [D3 E3]; [unfold small_int; simpl; lia|]. rewrite En.
  assert (N2 : 2 <= IZR (Z.of_nat n)) by (apply (IZR_le 2); lia).
  assert (L1 : 67 / 100 <= ln (IZR (Z.of_nat n))).
  { apply Rle_trans with (1 := ln2_lower). destruct N2 as [N2|<-]; [left; apply ln_increasing; lra|lra]. }
  assert (L2 : ln (IZR (Z.of_nat n)) <= bpow radix2 60).
  { apply Rle_trans with (IZR (Z.of_nat n)).
    - pose proof (exp_ineq1_le (ln (IZR (Z.of_nat n)))) as Q. rewrite exp_ln in Q by lra. lra.
    - apply Rle_trans with (IZR (2 ^ 49)); [now apply IZR_le|]. rewrite bpow_INR by lia. apply bpow_le. lia. }
  set (x := ln (IZR (Z.of_nat n))) in *. destruct (of_real_spec x) as [Dl El]; [apply (fits _ 60); [lia|]; rewrite Rabs_pos_eq; lra|].
  pose proof u64_small as U3. pose proof u64_pos as Pu.
  assert (L0 : bpow radix2 (-1000) <= / 2) by (change (/ 2) with (bpow radix2 (-1)); apply bpow_le; lia).
  pose proof (rnd_rel x ltac:(right; lra)) as RE. apply Rabs_le_inv in RE. assert (u64 * x <= / 1024 * x) by (apply Rmult_le_compat_r; lra).
  assert (P62 : 3 * (2 * bpow radix2 60) <= bpow radix2 63) by (change 63%Z with (3 + 60)%Z; rewrite bpow_plus; change (bpow radix2 3) with 8; pose proof (bpow_gt_0 radix2 60); lra).
  destruct (fmul_spec (zf 3) (of_real x) D3 Dl) as [Dm Em]; [rewrite E3, El; apply (fits _ 63); [lia|]; rewrite Rabs_pos_eq; lra|].
  rewrite E3, El in Em. pose proof (rnd_rel (3 * rnd64 x) ltac:(right; lra)) as RE2. apply Rabs_le_inv in RE2. rewrite <- Em in RE2.
  assert (u64 * (3 * rnd64 x) <= / 1024 * (3 * rnd64 x)) by (apply Rmult_le_compat_r; lra).
  assert (G : 2 <= f2r (wmul (zf 3) (of_real x))) by lra.
  assert (2 <= Zfloor (f2r (wmul (zf 3) (of_real x))))%Z by (apply Zfloor_lub; exact G). lia.
Qed.
