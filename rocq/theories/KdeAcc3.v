(** Accuracy of the CKNS estimator: the estimate of one copy at one level (C80). *)
From Verif Require Import Base Num RSum Cluster ClusterSweep ThreadPool ThreadPoolTop Kde KdeFacts KdeFacts2 KdeFacts3 KdeFacts4 KdeAcc1 KdeAcc2.
From Coq Require Import ZArith Permutation Reals Lra Sorted FinFun.
Local Open Scope R_scope.

Lemma exp_taylor x N : 0 <= x -> sum_f_R0 (fun i => / INR (fact i) * x ^ i) N <= exp x.
Proof.
  intros Hx. unfold exp. destruct (exist_exp x) as [l Hl]. cbn [proj1_sig]. apply sum_incr.
  - exact Hl.
  - intros n. apply Rmult_le_pos; [left; apply Rinv_0_lt_compat, lt_0_INR, lt_O_fact|now apply pow_le].
Qed.
Lemma exp_LOG2c : 2 <= exp LOG2c.
Proof.
  eapply Rle_trans; [|apply (exp_taylor LOG2c 14); pose proof LOG2c_pos; lra].
  assert (forall k, INR (fact (S k)) = INR (S k) * INR (fact k)) as Hf by (intros k; rewrite <- mult_INR; reflexivity).
  cbn [sum_f_R0]. rewrite !Hf. change (fact 0) with 1%nat. rewrite !S_INR. change (INR 0) with 0. unfold LOG2c. lra.
Qed.

(** the kernel beyond radius j *)
Lemma exp_radius a d (j : nat) : 0 < a -> radius2 a (Z.of_nat j) <= d -> exp (- a * d) <= (1 / 2) ^ j.
Proof.
  intros Ha Hd. assert (exp (- a * d) <= exp (- LOG2c) ^ j) as A.
  { assert (forall k, exp (- LOG2c) ^ k = exp (- (INR k * LOG2c))) as E.
    { induction k as [|k IH]; [simpl; rewrite Rmult_0_l, Ropp_0, exp_0; reflexivity|]. cbn [pow]. rewrite IH, <- exp_plus, S_INR. f_equal. ring. }
    rewrite E. assert (- a * d <= - (INR j * LOG2c)) as L.
    { unfold radius2 in Hd. rewrite <- INR_IZR_INZ in Hd. apply (Rmult_le_compat_l a) in Hd; [|lra]. replace (a * (INR j * LOG2c / a)) with (INR j * LOG2c) in Hd by (field; lra). lra. }
    destruct L as [L|L]; [left; now apply exp_increasing|right; now rewrite L]. }
  eapply Rle_trans; [exact A|]. apply pow_incr. split; [left; apply exp_pos|]. rewrite exp_Ropp. pose proof exp_LOG2c. unfold Rdiv. rewrite Rmult_1_l. apply Rinv_le_contravar; lra.
Qed.

Lemma gauss_pos a q x : 0 < gauss a q x.
Proof. apply exp_pos. Qed.
Lemma gauss_le_1 a q x : 0 < a -> gauss a q x <= 1.
Proof.
  intros Ha. unfold gauss. pose proof (dist2_nonneg q x). change 1 with ((1 / 2) ^ 0). apply exp_radius; auto. change (Z.of_nat 0) with 0%Z. rewrite radius2_0. auto.
Qed.

Lemma pow_half k : (1 / 2) ^ k = powerRZ 2 (- Z.of_nat k).
Proof.
  destruct k as [|k]; [reflexivity|]. change (- Z.of_nat (S k))%Z with (Z.neg (Pos.of_succ_nat k)). cbn [powerRZ]. rewrite SuccNat2Pos.id_succ. unfold Rdiv. rewrite Rmult_1_l. apply pow_inv.
Qed.

(** kernel value of a point of a shell *)
Lemma shell_kernel a J (j : nat) q x : 0 < a -> (0 <= J)%Z -> in_shell a J (Z.of_nat j) (dist2 q x) = true ->
  gauss a q x <= (if (j =? 0)%nat then (1 / 2) ^ Z.to_nat J else (1 / 2) ^ (j - 1)).
Proof.
  intros Ha HJ S. unfold in_shell in S. destruct (Nat.eqb_spec j 0) as [->|N].
  - simpl in S. apply R_ltb_true in S. apply exp_radius; auto. rewrite Z2Nat.id by auto. lra.
  - destruct (Z.eqb_spec (Z.of_nat j) 0); [lia|]. apply andb_true_iff in S as [S _]. apply R_ltb_true in S. apply exp_radius; auto. replace (Z.of_nat (j - 1)) with (Z.of_nat j - 1)%Z by lia. lra.
Qed.

(** ** The shell of a positive distance *)
Definition shell_of (a : R) (J : nat) (d : R) : nat := match find (fun j => in_shell a (Z.of_nat J) (Z.of_nat j) d) (seq 0 (S J)) with Some j => j | None => 0%nat end.

Lemma shell_of_spec a J d : 0 < a -> 0 < d -> (shell_of a J d <= J)%nat /\ forall j, (j <= J)%nat -> (in_shell a (Z.of_nat J) (Z.of_nat j) d = true <-> j = shell_of a J d).
Proof.
  intros Ha Hd. destruct (shells_partition a (Z.of_nat J) d Ha ltac:(lia) Hd) as (z & [Hz Sz] & U). unfold shell_of. destruct (find _ _) as [j|] eqn:E.
  - apply find_some in E as [I S]. apply in_seq in I. split; [lia|]. intros j' L. split; [|intros ->; exact S]. intros S'.
    assert (z = Z.of_nat j) by (apply U; split; auto; lia). assert (z = Z.of_nat j') by (apply U; split; auto; lia). lia.
  - exfalso. pose proof (find_none _ _ E (Z.to_nat z)) as N. cbv beta in N. rewrite Z2Nat.id in N by lia. rewrite Sz in N. discriminate N. apply in_seq. lia.
Qed.

Lemma in_shell_neg a J j d : 0 < a -> (0 <= J)%Z -> (0 <= j)%Z -> d <= 0 -> in_shell a J j d = false.
Proof.
  intros Ha HJ Hj Hd. unfold in_shell. pose proof (radius2_mono a 0 J Ha HJ) as B. rewrite radius2_0 in B. destruct (Z.eqb_spec j 0).
  - apply not_true_iff_false. rewrite R_ltb_true. lra.
  - apply andb_false_iff. left. apply not_true_iff_false. rewrite R_ltb_true. pose proof (radius2_mono a 0 (j - 1) Ha ltac:(lia)) as C. rewrite radius2_0 in C. lra.
Qed.

(** sum over the shells of a point *)
Lemma shell_sum a J d (f : nat -> R) : 0 < a ->
  lsum (fun j => if in_shell a (Z.of_nat J) (Z.of_nat j) d then f j else 0) (seq 0 (S J)) = if R_ltb 0 d then f (shell_of a J d) else 0.
Proof.
  intros Ha. destruct (R_ltb 0 d) eqn:Ed.
  - apply R_ltb_true in Ed. destruct (shell_of_spec a J d Ha Ed) as [L S]. rewrite (lsum_ext _ (fun j => if (j =? shell_of a J d)%nat then f j else 0)).
    + apply (rsum_delta (Datatypes.S J)). lia.
    + intros j I. apply in_seq in I. specialize (S j ltac:(lia)). destruct (Nat.eqb_spec j (shell_of a J d)) as [E|N]; [now rewrite (proj2 S E)|].
      destruct (in_shell _ _ _ _); auto. exfalso. apply N, S. reflexivity.
  - apply not_true_iff_false in Ed. rewrite R_ltb_true in Ed. apply lsum_0. intros j I. rewrite in_shell_neg; auto; try lia. lra.
Qed.

(** ** The sampling probabilities *)
Lemma unit_p_big n l j o : (1 <= n)%Z -> (0 <= j)%Z -> unit_p n l j o = 1 \/
  unit_p n l j o = (if (j =? 0)%Z then powerRZ 2 (- o) / IZR n else powerRZ 2 (- (j + o + l))).
Proof.
  intros Hn Hj. unfold unit_p, ckns_p_sampling, wmin1. cbn [wltb NumR w1 wdiv wmul wpow2 KNumR wofZ]. destruct (j =? 0)%Z; destruct (R_ltb _ _); auto.
  right. rewrite <- powerRZ_add by lra. f_equal. lia.
Qed.

(** number of samples is at most p n *)
Lemma unit_num_bound n l j o : (1 <= n)%nat -> INR (unit_num (Z.of_nat n) l j o) <= unit_p (Z.of_nat n) l j o * INR n.
Proof.
  intros Hn. unfold unit_num. pose proof (unit_p_range (Z.of_nat n) l j o ltac:(lia)) as Hp. set (p := unit_p _ _ _ _) in *. rewrite (INR_IZR_INZ n).
  pose proof (Int_part_bounds (p * IZR (Z.of_nat n))) as B. assert (0 <= p * IZR (Z.of_nat n)) by (apply Rmult_le_pos; [lra|apply IZR_le; lia]).
  assert (-1 < Int_part (p * IZR (Z.of_nat n)))%Z by (apply lt_IZR; lra). rewrite INR_IZR_INZ, Z2Nat.id by lia. lra.
Qed.

(** the logarithm of the number of points *)
Lemma max_log_bound n : (1 <= n)%nat -> (0 <= max_log_nmu_of (W := R) (Z.of_nat n))%Z /\ INR n <= powerRZ 2 (max_log_nmu_of (W := R) (Z.of_nat n)) < 2 * INR n.
Proof.
  intros Hn. unfold max_log_nmu_of. cbn [wceil wlog2 wofZ KNumR]. unfold R_ceil, R_log2. rewrite <- INR_IZR_INZ. assert (1 <= INR n) as H1 by (change 1 with (INR 1); apply le_INR; lia).
  assert (0 < ln 2) as H2 by (rewrite <- ln_1; apply ln_increasing; lra). set (y := ln (INR n) / ln 2). pose proof (Int_part_bounds (- y)) as B.
  assert (0 <= y) as Hy by (apply Rmult_le_pos; [|left; now apply Rinv_0_lt_compat]; rewrite <- ln_1; destruct H1 as [H1| <-]; [left; apply ln_increasing; lra|lra]).
  set (z := Int_part (- y)) in *. assert (0 <= - z)%Z by (apply le_IZR; rewrite opp_IZR; assert (z < 1)%Z by (apply lt_IZR; lra); assert (IZR z <= 0) by (apply IZR_le; lia); lra). split; auto.
  assert (exp (IZR (- z) * ln 2) = powerRZ 2 (- z)) as <-.
  { rewrite <- (Z2Nat.id (- z)) by auto. rewrite <- pow_powerRZ, <- INR_IZR_INZ. generalize (Z.to_nat (- z)) as k. induction k as [|k IH]; [simpl; rewrite Rmult_0_l; apply exp_0|].
    rewrite S_INR, Rmult_plus_distr_r, exp_plus, IH, Rmult_1_l, exp_ln by lra. simpl. ring. }
  assert (y * ln 2 = ln (INR n)) as Ey by (unfold y; field; lra). rewrite opp_IZR. split.
  - apply Rle_trans with (exp (ln (INR n))); [rewrite exp_ln by lra; lra|]. rewrite <- Ey. assert (y * ln 2 <= - IZR z * ln 2) as [L|L] by (apply Rmult_le_compat_r; lra); [left; now apply exp_increasing|right; now rewrite L].
  - apply Rlt_le_trans with (exp (ln 2 + ln (INR n))); [|rewrite exp_plus, !exp_ln by lra; lra]. apply exp_increasing. rewrite <- Ey.
    replace (ln 2 + y * ln 2) with ((y + 1) * ln 2) by ring. apply Rmult_lt_compat_r; lra.
Qed.

(** kernel value over sampling probability: at most 1 or 2^(log_nmu + offset + 1) *)
Definition spread (l o : Z) : R := Rmax 1 (powerRZ 2 (l + o + 1)).
Lemma spread_ge_1 l o : 1 <= spread l o.
Proof. apply Rmax_l. Qed.

Lemma kernel_over_p a n l o (j : nat) q x : let N := Z.of_nat n in let J := ckns_J (W := R) N l in
  0 < a -> (1 <= n)%nat -> (0 <= J)%Z -> in_shell a J (Z.of_nat j) (dist2 q x) = true ->
  gauss a q x / unit_p N l (Z.of_nat j) o <= spread l o.
Proof.
  intros N J Ha Hn HJ S. pose proof (shell_kernel a J j q x Ha HJ S) as K. pose proof (gauss_pos a q x). pose proof (gauss_le_1 a q x Ha).
  destruct (unit_p_big N l (Z.of_nat j) o ltac:(unfold N; lia) ltac:(lia)) as [E|E]; rewrite E.
  - unfold Rdiv. rewrite Rinv_1. pose proof (spread_ge_1 l o). lra.
  - eapply Rle_trans; [|apply Rmax_r]. destruct (Nat.eqb_spec j 0) as [->|Nj]; cbn [Nat.eqb] in *.
    + change (Z.of_nat 0 =? 0)%Z with true. cbv iota. destruct (max_log_bound n Hn) as [_ [B _]]. assert (0 < INR n) by (apply lt_0_INR; lia).
      unfold N. rewrite <- INR_IZR_INZ. rewrite pow_half, Z2Nat.id in K by auto.
      assert (0 < powerRZ 2 (- o)) by (apply powerRZ_lt; lra).
      replace (gauss a q x / (powerRZ 2 (- o) / INR n)) with (gauss a q x * INR n * powerRZ 2 o).
      2:{ rewrite powerRZ_neg'. field. split; apply Rgt_not_eq; auto. apply powerRZ_lt; lra. }
      assert (0 < powerRZ 2 o) by (apply powerRZ_lt; lra).
      apply Rle_trans with (powerRZ 2 (- J) * powerRZ 2 (max_log_nmu_of (W := R) N) * powerRZ 2 o).
      * apply Rmult_le_compat_r; [lra|]. apply Rmult_le_compat; auto; lra.
      * rewrite <- !powerRZ_add by lra. replace (- J + max_log_nmu_of (W := R) N + o)%Z with (l + o)%Z by (unfold J, ckns_J, max_log_nmu_of; lia).
        rewrite (powerRZ_add 2 (l + o) 1) by lra. change (powerRZ 2 1) with (2 * 1). assert (0 < powerRZ 2 (l + o)) by (apply powerRZ_lt; lra). lra.
    + destruct (Nat.eqb_spec j 0); [lia|]. destruct (Z.eqb_spec (Z.of_nat j) 0); [lia|]. rewrite pow_half in K.
      assert (0 < powerRZ 2 (Z.of_nat j + o + l)) by (apply powerRZ_lt; lra).
      replace (gauss a q x / powerRZ 2 (- (Z.of_nat j + o + l))) with (gauss a q x * powerRZ 2 (Z.of_nat j + o + l)) by (rewrite powerRZ_neg'; field; apply Rgt_not_eq; auto).
      apply Rle_trans with (powerRZ 2 (- Z.of_nat (j - 1)) * powerRZ 2 (Z.of_nat j + o + l)); [apply Rmult_le_compat_r; lra|].
      rewrite <- powerRZ_add by lra. right. f_equal. lia.
Qed.
