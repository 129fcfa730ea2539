(** [floor(((StagReal) n) / ((StagReal) k))] (random.cpp:209, 393) in binary64 is the integer quotient when n < 2^53. *)
From Coq Require Import ZArith Reals Lra Lia.
From Flocq Require Import Core Relative.
Local Open Scope Z_scope.

(** Rounding to binary64, nearest even. *)
Definition rnd64 (x : R) : R := round radix2 (FLT_exp (-1074) 53) (Znearest (fun z => negb (Z.even z))) x.

Lemma rnd64_int (m : Z) : 0 <= m < 2 ^ 53 -> rnd64 (IZR m) = IZR m.
Proof.
  intros Hm. apply round_generic; [apply valid_rnd_N|].
  apply generic_format_FLT. exists (Float radix2 m 0); simpl; [unfold F2R; simpl; lra| |]; lia.
Qed.

Lemma floor_division (n k : Z) : 0 <= n < 2 ^ 53 -> 1 <= k < 2 ^ 53 ->
  Zfloor (rnd64 (rnd64 (IZR n) / rnd64 (IZR k))) = n / k.
Proof.
  intros Hn Hk. rewrite !rnd64_int by lia. set (m := n / k). set (x := (IZR n / IZR k)%R).
  assert (0 < IZR k)%R as Hk0 by (apply IZR_lt; lia).
  assert (k * m <= n) as Hm1 by (apply Z.mul_div_le; lia).
  assert (n < k * (m + 1)) as Hm2 by (unfold m; pose proof (Z.mul_succ_div_gt n k ltac:(lia)); lia).
  assert (0 <= m) as Hm0 by (apply Z.div_pos; lia).
  assert (m <= n) as Hmn by nia.
  assert (IZR m <= x)%R as Hx1.
  { unfold x. apply (Rmult_le_reg_r (IZR k)); auto. unfold Rdiv. rewrite Rmult_assoc, Rinv_l by lra. rewrite Rmult_1_r, <- mult_IZR. apply IZR_le. lia. }
  assert (x + / IZR k <= IZR (m + 1))%R as Hx2.
  { unfold x. apply (Rmult_le_reg_r (IZR k)); auto. unfold Rdiv. rewrite Rmult_plus_distr_r, Rmult_assoc, !Rinv_l, Rmult_1_r by lra.
    rewrite <- mult_IZR, <- plus_IZR. apply IZR_le. lia. }
  assert (IZR m <= rnd64 x)%R as Hr1.
  { rewrite <- (rnd64_int m) by lia. apply round_le; auto; [apply FLT_exp_valid; red; lia|apply valid_rnd_N]. }
  apply Zfloor_imp. split; [exact Hr1|].
  destruct (Z.eq_dec n 0) as [Hz|Hz].
  { unfold x. rewrite Hz. unfold Rdiv. rewrite Rmult_0_l. unfold rnd64. rewrite round_0 by apply valid_rnd_N. apply IZR_lt. lia. }
  assert (Rabs (rnd64 x - x) <= / 2 * bpow radix2 (-53 + 1) * Rabs x)%R as He.
  { apply (relative_error_N_FLT radix2 (-1074) 53 ltac:(lia)).
    assert (1 <= IZR n)%R by (apply IZR_le; lia).
    assert (IZR k <= bpow radix2 53)%R as Hkb by (change (bpow radix2 53) with (IZR (2 ^ 53)); apply IZR_le; lia).
    assert (bpow radix2 (-53) <= x)%R as Hb.
    { unfold x, Rdiv. change (-53) with (- (53)). rewrite bpow_opp. apply Rle_trans with (1 * / IZR k)%R.
      - rewrite Rmult_1_l. apply Rinv_le; auto.
      - apply Rmult_le_compat_r; auto. left. now apply Rinv_0_lt_compat. }
    rewrite Rabs_pos_eq by (eapply Rle_trans; [|exact Hb]; apply bpow_ge_0).
    eapply Rle_trans; [|exact Hb]. apply bpow_le. lia. }
  assert (Rabs x = x) as Hax by (apply Rabs_pos_eq; eapply Rle_trans; [apply (IZR_le 0 m Hm0)|exact Hx1]).
  rewrite Hax in He. replace (/ 2 * bpow radix2 (-53 + 1))%R with (bpow radix2 (-53))%R in He by (change (-53 + 1) with (-53 + 1); rewrite bpow_plus; simpl; lra).
  assert (bpow radix2 (-53) * x < / IZR k)%R as Hlt.
  { unfold x, Rdiv. rewrite <- Rmult_assoc. rewrite <- (Rmult_1_l (/ IZR k)) at 2. apply Rmult_lt_compat_r; [now apply Rinv_0_lt_compat|].
    apply Rlt_le_trans with (bpow radix2 (-53) * IZR (2 ^ 53))%R.
    - apply Rmult_lt_compat_l; [apply bpow_gt_0|]. apply IZR_lt. lia.
    - change (IZR (2 ^ 53)) with (bpow radix2 53). rewrite <- bpow_plus. simpl. lra. }
  pose proof (Rle_abs (rnd64 x - x)). lra.
Qed.
