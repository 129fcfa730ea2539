(** Concentration of sums over independent draws (C95): Chernoff bounds for [Eprod] of AsgLaw.v. *)
From Verif Require Import Base Num RSum KdeAcc3 AsgLaw.
From Coq Require Import ZArith Permutation Reals Lra Lia List.
From Coquelicot Require Import Coquelicot.
Import ListNotations.
Local Open Scope nat_scope.

(** ** The exponential *)
Lemma exp_mono x y : (x <= y)%R -> (exp x <= exp y)%R.
Proof. intros [L|E]; [left; now apply exp_increasing|rewrite E; lra]. Qed.
Lemma exp_above t : (0 <= t <= 2 / 3)%R -> (exp t <= 1 + t + 3 / 4 * t ^ 2)%R.
Proof.
  intros Ht. destruct (Req_dec t 0) as [->|N]; [rewrite exp_0; lra|].
  destruct (MVT_cor2 (fun t => (1 + t + 3 / 4 * t ^ 2) * exp (- t))%R (fun t => (t / 2 - 3 / 4 * t ^ 2) * exp (- t))%R 0 t ltac:(lra)) as (c & E & Hc).
  { intros c _. apply is_derive_Reals. auto_derive; [auto|]. field. }
  assert (0 <= (c / 2 - 3 / 4 * c ^ 2) * exp (- c) * (t - 0))%R.
  { apply Rmult_le_pos; [|lra]. apply Rmult_le_pos; [|apply Rlt_le, exp_pos]. assert (c / 2 - 3 / 4 * c ^ 2 = c * (1 / 2 - 3 / 4 * c))%R as -> by field. apply Rmult_le_pos; lra. }
  rewrite Ropp_0, exp_0 in E. assert (1 <= (1 + t + 3 / 4 * t ^ 2) * exp (- t))%R as K by (cbn [pow] in *; lra).
  rewrite exp_Ropp in K. apply (Rmult_le_compat_l (exp t)) in K; [|left; apply exp_pos].
  replace (exp t * ((1 + t + 3 / 4 * t ^ 2) * / exp t))%R with (1 + t + 3 / 4 * t ^ 2)%R in K by (field; apply Rgt_not_eq, exp_pos). lra.
Qed.
Lemma exp_below t : (0 <= t)%R -> (exp (- t) <= 1 - t + t ^ 2 / 2)%R.
Proof.
  intros Ht. pose proof (exp_taylor t 3 Ht) as K. cbn [sum_f_R0 fact Nat.mul Nat.add INR pow] in K. rewrite exp_Ropp. pose proof (exp_pos t) as P.
  assert (0 <= 1 - t + t ^ 2 / 2)%R as P2 by nra. apply (Rmult_le_reg_l (exp t)); auto. rewrite Rinv_r by lra.
  apply Rle_trans with ((1 + t + t ^ 2 / 2 + t ^ 3 / 6) * (1 - t + t ^ 2 / 2))%R; [|apply Rmult_le_compat_r; [auto|lra]].
  replace ((1 + t + t ^ 2 / 2 + t ^ 3 / 6) * (1 - t + t ^ 2 / 2))%R with (1 + t ^ 3 / 6 + t ^ 4 / 12 + t ^ 5 / 12)%R by field.
  pose proof (pow_le t 3 Ht). pose proof (pow_le t 4 Ht). pose proof (pow_le t 5 Ht). lra.
Qed.
(** Convexity: below the chord. *)
Lemma exp_chord th z : (0 <= th <= 1)%R -> (exp (th * z) <= 1 + th * (exp z - 1))%R.
Proof.
  intros Ht. pose proof (exp_ineq1_le ((1 - th) * z)) as A. pose proof (exp_ineq1_le (- (th * z))) as C. pose proof (exp_pos (th * z)) as P.
  assert (exp z = exp (th * z) * exp ((1 - th) * z))%R as E1 by (rewrite <- exp_plus; f_equal; ring).
  assert (1 = exp (th * z) * exp (- (th * z)))%R as E2 by (rewrite <- exp_plus, Rplus_opp_r; now rewrite exp_0).
  assert (exp (th * z) * (1 + (1 - th) * z) <= exp z)%R as K1 by (rewrite E1; apply Rmult_le_compat_l; lra).
  assert (exp (th * z) * (1 + - (th * z)) <= 1)%R as K2 by (rewrite E2; apply Rmult_le_compat_l; lra).
  apply (Rmult_le_compat_l th) in K1; [|lra]. apply (Rmult_le_compat_l (1 - th)) in K2; [|lra].
  replace (1 + th * (exp z - 1))%R with (th * exp z + (1 - th) * 1)%R by ring. lra.
Qed.

(** ** Moment generating functions *)
Lemma Eiid_exp N p y lam b : (forall v, v < N -> (0 <= p v)%R) -> (rsum N (fun v => p v * exp (lam * y v)) <= exp b)%R ->
  forall num c, (0 <= c)%R -> (Eiid N p num (fun s => c * exp (lam * lsum y s)) <= c * exp (INR num * b))%R.
Proof.
  intros Hp Hb. induction num as [|m IH]; intros c Hc; cbn [Eiid].
  - cbn [lsum INR]. rewrite Rmult_0_r, Rmult_0_l. lra.
  - apply Rle_trans with (rsum N (fun v => p v * (c * exp (lam * y v) * exp (INR m * b))))%R.
    + apply rsum_le. intros v Hv. apply Rmult_le_compat_l; auto.
      rewrite (Eiid_ext N p m _ (fun s => (c * exp (lam * y v)) * exp (lam * lsum y s))%R).
      * apply IH. apply Rmult_le_pos; auto. left. apply exp_pos.
      * intros s _ _. cbn [lsum]. rewrite Rmult_plus_distr_l, exp_plus. ring.
    + rewrite (rsum_ext N _ (fun v => (c * exp (INR m * b)) * (p v * exp (lam * y v)))%R) by (intros; ring). rewrite rsum_scal.
      rewrite S_INR, Rmult_plus_distr_r, Rmult_1_l, exp_plus. rewrite Rmult_assoc. apply Rmult_le_compat_l; auto. apply Rmult_le_compat_l; auto. left. apply exp_pos.
Qed.
Lemma Eprod_mono N p num is : (forall i v, In i is -> v < N -> (0 <= p i v)%R) -> NoDup is -> forall F G,
  (forall smp, (forall i, In i is -> length (smp i) = num /\ forall k, In k (smp i) -> k < N) -> (F smp <= G smp)%R) -> (Eprod N p num is F <= Eprod N p num is G)%R.
Proof.
  intros Hp Hd. induction is as [|i is IH]; intros F G E; cbn [Eprod]; [apply E; intros i []|]. inversion Hd as [|? ? Hi Hd']; subst.
  apply Eiid_mono; [intros; apply Hp; auto; now left|]. intros s Hl Hk. apply IH; auto; [intros; apply Hp; auto; now right|].
  intros smp Hs. apply E. intros j [<-|I]; [rewrite Nat.eqb_refl; auto|]. destruct (Nat.eqb_spec j i) as [->|]; [tauto|auto].
Qed.
Lemma Eprod_exp N p num y lam (b : nat -> R) is : NoDup is -> (forall i v, In i is -> v < N -> (0 <= p i v)%R) ->
  (forall i, In i is -> (rsum N (fun v => p i v * exp (lam * y i v)) <= exp (b i))%R) ->
  forall c, (0 <= c)%R -> (Eprod N p num is (fun smp => c * exp (lam * lsum (fun i => lsum (y i) (smp i)) is)) <= c * exp (INR num * lsum b is))%R.
Proof.
  induction is as [|i is IH]; intros Hd Hp Hb c Hc; cbn [Eprod].
  - cbn [lsum]. rewrite !Rmult_0_r. lra.
  - inversion Hd as [|? ? Hi Hd']; subst. apply Rle_trans with (Eiid N (p i) num (fun s => (c * exp (INR num * lsum b is)) * exp (lam * lsum (y i) s)))%R.
    + apply Eiid_mono; [intros; apply Hp; auto; now left|]. intros s _ _.
      rewrite (Eprod_ext_fun N p num is _ (fun smp => (c * exp (lam * lsum (y i) s)) * exp (lam * lsum (fun i => lsum (y i) (smp i)) is))%R).
      * eapply Rle_trans; [apply IH; auto|].
        -- intros; apply Hp; auto; now right.
        -- intros; apply Hb; now right.
        -- apply Rmult_le_pos; auto. left. apply exp_pos.
        -- apply Req_le. ring.
      * intros smp. cbn [lsum]. rewrite Nat.eqb_refl. rewrite Rmult_plus_distr_l, exp_plus.
        rewrite (lsum_ext _ (fun j => lsum (y j) (smp j)) is); [ring|]. intros j I. destruct (Nat.eqb_spec j i) as [->|]; [tauto|reflexivity].
    + eapply Rle_trans; [apply Eiid_exp with (b := b i)|].
      * intros; apply Hp; auto; now left.
      * apply Hb. now left.
      * apply Rmult_le_pos; auto. left. apply exp_pos.
      * apply Req_le. cbn [lsum]. rewrite Rmult_plus_distr_l, exp_plus. ring.
Qed.

(** ** Chernoff bounds *)
(** [total y is smp]: the sum over all draws k of all i in [is] of y i k. *)
Definition total (y : nat -> nat -> R) (is : list nat) (smp : nat -> list nat) : R := lsum (fun i => lsum (y i) (smp i)) is.
(** Its expected value. *)
Lemma Eiid_mean N p y num : rsum N p = 1%R -> forall c, Eiid N p num (fun s => c + lsum y s)%R = (c + INR num * rsum N (fun v => p v * y v))%R.
Proof.
  intros H1. induction num as [|m IH]; intros c; cbn [Eiid]; [cbn [lsum INR]; ring|].
  rewrite (rsum_ext N _ (fun v => p v * (c + INR m * rsum N (fun v => p v * y v)) + p v * y v)%R).
  - rewrite rsum_plus, rsum_scal_r, H1, S_INR. ring.
  - intros v _. rewrite <- Rmult_plus_distr_l. f_equal. rewrite (Eiid_ext N p m _ (fun s => (c + y v) + lsum y s)%R) by (intros; cbn [lsum]; ring). rewrite IH. ring.
Qed.
Lemma Eprod_mean N p y num is : NoDup is -> (forall i, In i is -> rsum N (p i) = 1%R) -> forall c,
  Eprod N p num is (fun smp => c + total y is smp)%R = (c + INR num * lsum (fun i => rsum N (fun v => p i v * y i v)) is)%R.
Proof.
  unfold total. induction is as [|i is IH]; intros Hd H1 c; cbn [Eprod lsum]; [ring|]. inversion Hd as [|? ? Hi Hd']; subst.
  rewrite (Eiid_ext N (p i) num _ (fun s => (c + INR num * lsum (fun i => rsum N (fun v => p i v * y i v)) is) + lsum (y i) s)%R).
  - rewrite Eiid_mean by (apply H1; now left). ring.
  - intros s _ _. rewrite (Eprod_ext_fun N p num is _ (fun smp => (c + lsum (y i) s) + lsum (fun i => lsum (y i) (smp i)) is)%R).
    + rewrite IH; auto; [ring|]. intros; apply H1; now right.
    + intros smp. rewrite Nat.eqb_refl. rewrite (lsum_ext _ (fun j => lsum (y j) (smp j)) is); [ring|]. intros j I. destruct (Nat.eqb_spec j i) as [->|]; [tauto|reflexivity].
Qed.
Section Chernoff.
  Variable N num : nat.
  Variables (p y : nat -> nat -> R) (is : list nat) (M mu : R).
  Hypothesis Hd : NoDup is.
  Hypothesis Hp : forall i v, In i is -> v < N -> (0 <= p i v)%R.
  Hypothesis Hp1 : forall i, In i is -> rsum N (p i) = 1%R.
  Hypothesis HM : (0 < M)%R.
  Hypothesis Hy : forall i v, In i is -> v < N -> (0 <= y i v <= M)%R.
  Hypothesis Hmu : mu = (INR num * lsum (fun i => rsum N (fun v => p i v * y i v)) is)%R.

  Lemma mgf_one i z : In i is -> (rsum N (fun v => p i v * exp (z / M * y i v)) <= exp ((exp z - 1) / M * rsum N (fun v => p i v * y i v)))%R.
  Proof.
    intros Hi. eapply Rle_trans; [|apply exp_ineq1_le].
    apply Rle_trans with (rsum N (fun v => p i v + (exp z - 1) / M * (p i v * y i v)))%R.
    - apply rsum_le. intros v Hv. specialize (Hy i v Hi Hv). specialize (Hp i v Hi Hv).
      apply Rle_trans with (p i v * (1 + y i v / M * (exp z - 1)))%R; [|apply Req_le; field; lra]. apply Rmult_le_compat_l; auto.
      replace (z / M * y i v)%R with (y i v / M * z)%R by (field; lra). apply exp_chord. split.
      + apply Rmult_le_pos; [tauto|left; now apply Rinv_0_lt_compat].
      + apply (Rmult_le_reg_r M); auto. replace (y i v / M * M)%R with (y i v) by (field; lra). lra.
    - rewrite rsum_plus, rsum_scal, Hp1 by auto. lra.
  Qed.
  Lemma mgf z c : (0 <= c)%R -> (Eprod N p num is (fun smp => c * exp (z / M * total y is smp)) <= c * exp ((exp z - 1) / M * mu))%R.
  Proof.
    intros Hc. eapply Rle_trans; [apply (Eprod_exp N p num y (z / M) (fun i => (exp z - 1) / M * rsum N (fun v => p i v * y i v))%R is Hd Hp); auto|].
    - intros i Hi. now apply mgf_one.
    - apply Req_le. f_equal. f_equal. rewrite lsum_scal, Hmu. ring.
  Qed.
  Lemma mu_nonneg : (0 <= mu)%R.
  Proof.
    rewrite Hmu. apply Rmult_le_pos; [apply pos_INR|]. apply lsum_nonneg. intros i Hi. apply rsum_nonneg. intros v Hv. apply Rmult_le_pos; [now apply Hp|now apply Hy].
  Qed.
  Lemma chernoff_upper eps : (0 <= eps <= 1)%R ->
    (Eprod N p num is (fun smp => if Rle_dec ((1 + eps) * mu) (total y is smp) then 1 else 0) <= exp (- (eps ^ 2 * mu / (3 * M))))%R.
  Proof.
    intros He. set (z := (2 / 3 * eps)%R). assert (0 <= z <= 2 / 3)%R as Hz by (unfold z; lra).
    apply Rle_trans with (Eprod N p num is (fun smp => exp (- (z / M * ((1 + eps) * mu))) * exp (z / M * total y is smp)))%R.
    - apply Eprod_mono; auto. intros smp _. rewrite <- exp_plus. destruct (Rle_dec _ _) as [L|_]; [|left; apply exp_pos].
      rewrite <- exp_0 at 1. apply exp_mono. assert (0 <= z / M)%R by (apply Rmult_le_pos; [lra|left; now apply Rinv_0_lt_compat]).
      apply (Rmult_le_compat_l (z / M)) in L; auto. lra.
    - eapply Rle_trans; [apply mgf; left; apply exp_pos|]. rewrite <- exp_plus. apply exp_mono.
      pose proof (exp_above z Hz) as Ez. pose proof mu_nonneg as Mn. assert (0 <= mu / M)%R as Q by (apply Rmult_le_pos; [auto|left; now apply Rinv_0_lt_compat]).
      replace (- (z / M * ((1 + eps) * mu)) + (exp z - 1) / M * mu)%R with (mu / M * (exp z - 1 - z * (1 + eps)))%R by (field; lra).
      replace (- (eps ^ 2 * mu / (3 * M)))%R with (mu / M * (- (eps ^ 2 / 3)))%R by (field; lra). apply Rmult_le_compat_l; auto. unfold z in *. lra.
  Qed.
  Lemma chernoff_lower eps : (0 <= eps)%R ->
    (Eprod N p num is (fun smp => if Rle_dec (total y is smp) ((1 - eps) * mu) then 1 else 0) <= exp (- (eps ^ 2 * mu / (2 * M))))%R.
  Proof.
    intros He. set (z := (- eps)%R).
    apply Rle_trans with (Eprod N p num is (fun smp => exp (- (z / M * ((1 - eps) * mu))) * exp (z / M * total y is smp)))%R.
    - apply Eprod_mono; auto. intros smp _. rewrite <- exp_plus. destruct (Rle_dec _ _) as [L|_]; [|left; apply exp_pos].
      rewrite <- exp_0 at 1. apply exp_mono. assert (0 <= eps / M)%R by (apply Rmult_le_pos; [lra|left; now apply Rinv_0_lt_compat]).
      apply (Rmult_le_compat_l (eps / M)) in L; auto. unfold z. lra.
    - eapply Rle_trans; [apply mgf; left; apply exp_pos|]. rewrite <- exp_plus. apply exp_mono.
      pose proof (exp_below eps He) as Ez. pose proof mu_nonneg as Mn. assert (0 <= mu / M)%R as Q by (apply Rmult_le_pos; [auto|left; now apply Rinv_0_lt_compat]).
      replace (- (z / M * ((1 - eps) * mu)) + (exp z - 1) / M * mu)%R with (mu / M * (exp z - 1 + eps * (1 - eps)))%R by (unfold z; field; lra).
      replace (- (eps ^ 2 * mu / (2 * M)))%R with (mu / M * (- (eps ^ 2 / 2)))%R by (field; lra). apply Rmult_le_compat_l; auto. unfold z in *. lra.
  Qed.
End Chernoff.
