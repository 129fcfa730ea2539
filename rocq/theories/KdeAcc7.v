(** Accuracy of the CKNS estimator: data for which no choice of the permutations gives a good answer (C80). *)
From Verif Require Import Base Num RSum Cluster ClusterSweep ThreadPool ThreadPoolTop Kde KdeFacts KdeFacts2 KdeFacts3 KdeFacts4 KdeAcc1 KdeAcc2 KdeAcc3 KdeAcc4 KdeAcc5 KdeAcc6.
From Coq Require Import ZArith Permutation Reals Lra Sorted FinFun.
Local Open Scope R_scope.

Lemma in_shell_true a J j d : (1 <= j)%Z -> (in_shell a J j d = true <-> radius2 a (j - 1) < d <= radius2 a j).
Proof. intros Hj. unfold in_shell. destruct (Z.eqb_spec j 0); [lia|]. rewrite andb_true_iff, R_ltb_true, R_leb_true. tauto. Qed.
Lemma in_shell_0 a J d : in_shell a J 0 d = true <-> radius2 a J < d.
Proof. unfold in_shell. cbn [Z.eqb]. apply R_ltb_true. Qed.
Lemma in_shell_false a J j d : (1 <= j)%Z -> ~ (radius2 a (j - 1) < d <= radius2 a j) -> in_shell a J j d = false.
Proof. intros Hj N. apply not_true_iff_false. rewrite in_shell_true; auto. Qed.
Lemma in_shell_0_false a J d : d <= radius2 a J -> in_shell a J 0 d = false.
Proof. intros L. apply not_true_iff_false. rewrite in_shell_0. lra. Qed.

(** ** Not a power of two: the last shell of the last level has no samples *)
Section Zero.
  Variables (a : R) (n : nat) (q : list R).
  Hypothesis Ha : 0 < a.
  Hypothesis Hn : (1 <= n)%nat.
  Hypothesis Np : forall e, n <> (2 ^ e)%nat.
  Let its := iterations_of (W := R) (Z.of_nat n) (/ INR n).
  Let J := (2 * (its - 1))%nat.
  Let L := max_log_nmu_of (W := R) (Z.of_nat n).

  Lemma n_below : INR n < powerRZ 2 L.
  Proof.
    destruct (max_log_bound n Hn) as [B0 [B1 _]]. fold L in B0, B1. destruct B1 as [B1|B1]; auto. exfalso. apply (Np (Z.to_nat L)).
    apply INR_eq. rewrite B1, pow_INR. rewrite <- (Z2Nat.id L) at 1 by auto. rewrite <- pow_powerRZ. reflexivity.
  Qed.

  Lemma its_2 : (2 <= its)%nat.
  Proof.
    destruct (max_log_bound n Hn) as [B0 [B1 B2]]. fold L in B0, B1, B2. unfold its, iterations_of. rewrite log2_one_n by auto. fold L. rewrite Z.sub_0_r.
    assert (1 <= L)%Z as HL. { destruct (Z.eq_dec L 0) as [E|]; [|lia]. exfalso. apply (Np 0). pose proof n_below as B. rewrite E in B. simpl in B. assert (1 <= INR n) by (change 1 with (INR 1); apply le_INR; lia). lra. }
    pose proof (Z.div_mod (- L) 2 ltac:(lia)) as D. pose proof (Z.mod_pos_bound (- L) 2 ltac:(lia)) as E. lia.
  Qed.

  Definition last_shell (x : list R) : Prop := radius2 a (Z.of_nat J - 1) < dist2 q x <= radius2 a (Z.of_nat J).

  Lemma zero_shells lni j x : (lni < its)%nat -> (1 <= j <= 2 * lni)%nat -> last_shell x -> in_shell a (Z.of_nat (2 * lni)) (Z.of_nat j) (dist2 q x) = true -> lni = (its - 1)%nat /\ j = J.
  Proof.
    intros Hl Hj [S1 S2] H. apply in_shell_true in H as [H1 H2]; [|lia]. assert (j = J) as ->.
    - unfold J in *. destruct (Nat.lt_trichotomy j (2 * (its - 1))) as [C|[C|C]]; auto; exfalso; [|lia].
      pose proof (radius2_mono a (Z.of_nat j) (Z.of_nat (2 * (its - 1)) - 1) Ha ltac:(lia)). lra.
    - split; auto. unfold J in Hj. lia.
  Qed.

  Lemma zero_last c : length c = n -> (forall x, In x c -> last_shell x) -> plain a n (lev n (its - 1)) 0 q c = 0.
  Proof.
    intros Lc Sc. pose proof its_2 as I2. unfold plain. rewrite J_lev. apply lsum_0. intros j Ij. apply in_seq in Ij.
    replace (Z.to_nat (Z.of_nat (its - 1) * 2)) with J in * by (unfold J; lia). destruct (Nat.eq_dec j J) as [->|Nj].
    - replace (unit_num (Z.of_nat n) (lev n (its - 1)) (Z.of_nat J) 0) with 0%nat; [reflexivity|]. symmetry. unfold unit_num.
      assert (unit_p (Z.of_nat n) (lev n (its - 1)) (Z.of_nat J) 0 = powerRZ 2 (- L)) as ->.
      { unfold unit_p, ckns_p_sampling, wmin1. cbn [wltb NumR w1 wdiv wmul wpow2 KNumR wofZ]. destruct (Z.eqb_spec (Z.of_nat J) 0) as [E|_]; [unfold J in E; lia|].
        rewrite <- powerRZ_add by lra. replace (- (Z.of_nat J + 0) + - lev n (its - 1))%Z with (- L)%Z by (unfold lev, J; fold L; lia).
        destruct (R_ltb 1 (powerRZ 2 (- L))) eqn:E; auto. apply R_ltb_true in E. exfalso. destruct (max_log_bound n Hn) as [B0 _]. fold L in B0. pose proof (powerRZ_mono (- L) 0 ltac:(lia)) as M. simpl in M. lra. }
      rewrite <- INR_IZR_INZ. rewrite (Int_part_unique _ 0); [reflexivity|]. pose proof n_below as B. assert (0 < powerRZ 2 (- L)) by (apply powerRZ_lt; lra).
      assert (0 < INR n) by (apply lt_0_INR; lia). split; [left; now apply Rmult_lt_0_compat|]. rewrite Rplus_0_l.
      apply Rlt_le_trans with (powerRZ 2 (- L) * powerRZ 2 L); [now apply Rmult_lt_compat_l|]. rewrite <- powerRZ_add by lra. replace (- L + L)%Z with 0%Z by lia. right. reflexivity.
    - apply lsum_0. intros x Ix. apply firstn_In in Ix. specialize (Sc x Ix). replace (in_shell _ _ _ _) with false; [reflexivity|]. symmetry.
      destruct (Nat.eq_dec j 0) as [->|Nz].
      + apply in_shell_0_false. apply Sc.
      + apply not_true_iff_false. intros H. apply Nj. apply (zero_shells (its - 1) j x); auto; [lia|unfold J in *; lia].
  Qed.

  Lemma zero_earlier c lni : length c = n -> (forall x, In x c -> last_shell x) -> (lni < its - 1)%nat -> plain a n (lev n lni) 0 q c <= 2.
  Proof.
    intros Lc Sc Hl. pose proof its_2 as I2. unfold plain. rewrite J_lev. replace (Z.to_nat (Z.of_nat lni * 2)) with (2 * lni)%nat by lia.
    cbn [seq lsum]. rewrite (lsum_0 _ (seq 1 (2 * lni))).
    - rewrite Rplus_0_r. apply Rle_trans with (INR n * (1 / 2) ^ (J - 1)).
      + assert ((2 * lni)%nat = Z.to_nat (ckns_J (W := R) (Z.of_nat n) (lev n lni))) as EJl by (rewrite J_lev; lia).
        rewrite EJl. assert (forall x, In x c -> gauss a q x <= (1 / 2) ^ (J - 1)) as HB.
        { intros x Ix. specialize (Sc x Ix). destruct Sc as [S1 _]. apply exp_radius; auto. replace (Z.of_nat (J - 1)) with (Z.of_nat J - 1)%Z by (unfold J; lia). lra. }
        set (p := unit_p _ _ _ _). pose proof (unit_p_range (Z.of_nat n) (lev n lni) 0 0 ltac:(lia)) as Hp. change (unit_p (Z.of_nat n) (lev n lni) 0 0) with p in Hp.
        assert (0 < (1 / 2) ^ (J - 1)) by (apply pow_lt; lra).
        apply Rle_trans with (lsum (fun _ => (1 / 2) ^ (J - 1) / p) (firstn (unit_num (Z.of_nat n) (lev n lni) (Z.of_nat 0) 0) c)).
        * apply lsum_le. intros x Ix. apply firstn_In in Ix. specialize (HB x Ix). assert (0 < / p) by (apply Rinv_0_lt_compat; lra). destruct (in_shell _ _ _ _).
          { apply Rmult_le_compat_r; lra. } { apply Rmult_le_pos; lra. }
        * rewrite lsum_const. pose proof (unit_num_le n (lev n lni) (Z.of_nat 0) 0 Hn) as Lk. pose proof (unit_num_bound n (lev n lni) (Z.of_nat 0) 0 Hn) as Bk.
          change (unit_p (Z.of_nat n) (lev n lni) (Z.of_nat 0) 0) with p in Bk. rewrite firstn_length_le by lia.
          set (m := unit_num _ _ _ _) in *. replace ((1 / 2) ^ (J - 1) / p * INR m) with ((1 / 2) ^ (J - 1) * (INR m / p)) by (field; lra). rewrite (Rmult_comm (INR n)). apply Rmult_le_compat_l; [lra|].
          apply (Rmult_le_reg_r p); [lra|]. replace (INR m / p * p) with (INR m) by (field; lra). lra.
      + rewrite pow_half. pose proof n_below as B. assert (0 < powerRZ 2 (- Z.of_nat (J - 1))) by (apply powerRZ_lt; lra).
        apply Rle_trans with (powerRZ 2 L * powerRZ 2 (- Z.of_nat (J - 1))); [apply Rmult_le_compat_r; lra|]. rewrite <- powerRZ_add by lra. change 2 with (powerRZ 2 1) at 2 || idtac.
        apply Rle_trans with (powerRZ 2 1); [|simpl; lra]. apply powerRZ_mono. destruct (default_levels n (its - 1) Hn) as [_ D]; [fold its; lia|]. fold its in D. unfold lev in D. fold L in D. unfold J. lia.
    - intros j Ij. apply in_seq in Ij. apply lsum_0. intros x Ix. apply firstn_In in Ix. specialize (Sc x Ix). replace (in_shell _ _ _ _) with false; [reflexivity|]. symmetry.
      apply not_true_iff_false. intros H. destruct (zero_shells lni j x) as [E _]; auto; lia.
  Qed.

  Lemma ln2_13 y : y <= 2 -> 13 / 10 <= ln y -> False.
  Proof.
    intros Hy Hl. pose proof ln2_lt_13 as B. assert (0 < y) as Hy0.
    { destruct (Rlt_dec 0 y) as [|N]; auto. exfalso. unfold ln in Hl. destruct (Rlt_dec 0 y); [lra|]. lra. }
    assert (ln y <= ln 2) by (destruct Hy as [Hy| ->]; [left; now apply ln_increasing|right; reflexivity]). lra.
  Qed.

  Lemma zero_query T copies hs k : copies <> [] -> (forall c, In c copies -> length c = n /\ forall x, In x c -> last_shell x) ->
    ckns_init T a (/ INR n) copies (Z.of_nat n) 0 hs k -> ckns_query k q = Ok 0.
  Proof.
    intros Nc Hc I. destruct (init_fields _ _ _ _ _ _ _ _ I) as (F1 & F2 & F3 & F4). fold its in F3. pose proof its_2 as I2.
    assert (1 <= c_k1 k)%nat as Hk by (rewrite F4; destruct copies; [congruence|simpl; lia]).
    destruct (query_level k q Hk ltac:(lia)) as (lni & mu & Ll & Em & Eq & Hacc). rewrite Eq, F1. rewrite F3 in *. f_equal. apply median_in in Em. apply in_map_iff in Em as (iter & E & Ii). apply in_seq in Ii.
    rewrite (init_level _ _ _ _ _ _ _ _ q lni iter (fun c Ic => proj1 (Hc c Ic)) I ltac:(lia) ltac:(lia)) in E. set (c := nth iter copies []) in *.
    destruct (Hc c) as [L1 Sc]; [apply nth_In; unfold point in *; lia|]. assert (0 <= ckns_J (W := R) (Z.of_nat n) (lev n lni))%Z as HJ by (rewrite J_lev; lia).
    pose proof (level_nonneg a n (lev n lni) 0 q Ha Hn HJ c (hs iter lni) L1) as B0. pose proof (level_le_plain a n (lev n lni) 0 q Ha Hn HJ c (hs iter lni) L1) as B1. change (level a n (lev n lni) 0 q c (hs iter lni) = mu) in E. rewrite E in B0, B1.
    destruct (Nat.eq_dec lni (its - 1)) as [->|Nl].
    - rewrite zero_last in B1 by auto. replace mu with 0 by lra. unfold Rdiv. ring.
    - exfalso. destruct Hacc as [|Hacc]; [lia|]. pose proof (zero_earlier c lni L1 Sc ltac:(lia)) as B2. unfold accepts in Hacc. cbn [wleb wmul w13 wofZ wlog NumR KNumR] in Hacc. apply R_leb_true in Hacc.
      unfold log_nmu_of in Hacc. rewrite F2 in Hacc. change (13 / 10 * IZR (lev n lni) <= ln mu) in Hacc.
      destruct (default_levels n lni Hn) as [_ D]; [fold its; lia|]. fold its in D. assert (0 < lev n lni)%Z as P by lia. assert (1 <= IZR (lev n lni)) by (apply IZR_le; lia). apply (ln2_13 mu); lra.
  Qed.
End Zero.

(** ** Four points: every answer is off by a factor of almost two *)
Section Four.
  Variables (D : R) (q : list R).
  Hypothesis HD : 2 * LOG2c < D.

  Lemma four_log : max_log_nmu_of (W := R) 4 = 2%Z.
  Proof.
    destruct (max_log_bound 4 ltac:(lia)) as [B0 [B1 B2]]. change (Z.of_nat 4) with 4%Z in *. set (L := max_log_nmu_of 4) in *. simpl in B1, B2.
    assert (L <= 2)%Z. { apply Z.nlt_ge. intros C. pose proof (powerRZ_mono 3 L ltac:(lia)) as M. simpl in M. lra. }
    assert (2 <= L)%Z; [|lia]. apply Z.nlt_ge. intros C. pose proof (powerRZ_mono L 1 ltac:(lia)) as M. simpl in M. lra.
  Qed.
  Lemma four_its : iterations_of (W := R) 4 (/ INR 4) = 2%nat.
  Proof. unfold iterations_of. rewrite four_log. change 4%Z with (Z.of_nat 4). rewrite log2_one_n by lia. reflexivity. Qed.
  Lemma four_lev lni : lev 4 lni = (2 - Z.of_nat lni * 2)%Z.
  Proof. unfold lev. change (Z.of_nat 4) with 4%Z. now rewrite four_log. Qed.

  Definition near_or_far (x : list R) : Prop := dist2 q x = 1 \/ dist2 q x = D.

  Lemma quarter x : x = 1 / 4 -> (if R_ltb 1 x then 1 else x) = 1 / 4.
  Proof. intros ->. destruct (R_ltb 1 (1 / 4)) eqn:E; auto. apply R_ltb_true in E. lra. Qed.
  Lemma quarter_num x : x = 1 / 4 -> Z.to_nat (Int_part (x * IZR 4)) = 1%nat.
  Proof. intros ->. rewrite (Int_part_unique _ 1); [reflexivity|lra]. Qed.

  Lemma four_p0 l : unit_p 4 l 0 0 = 1 / 4.
  Proof. unfold unit_p, ckns_p_sampling, wmin1. cbn [Z.eqb wltb NumR w1 wdiv wmul wpow2 KNumR wofZ]. apply quarter. simpl. lra. Qed.
  Lemma four_p2 : unit_p 4 0 2 0 = 1 / 4.
  Proof. unfold unit_p, ckns_p_sampling, wmin1. cbn [Z.eqb wltb NumR w1 wdiv wmul wpow2 KNumR wofZ]. apply quarter. simpl. lra. Qed.

  Lemma four_plain lni x c : (lni < 2)%nat -> length (x :: c) = 4%nat -> (forall y, In y (x :: c) -> near_or_far y) -> plain 1 4 (lev 4 lni) 0 q (x :: c) = 4 * gauss 1 q x.
  Proof.
    intros Hl Lc Sc. unfold plain. rewrite J_lev. pose proof (Sc x (or_introl eq_refl)) as Sx.
    assert (firstn (unit_num (Z.of_nat 4) (lev 4 lni) (Z.of_nat 0) 0) (x :: c) = [x]) as E0.
    { unfold unit_num. change (Z.of_nat 4) with 4%Z. change (Z.of_nat 0) with 0%Z. rewrite (quarter_num _ (four_p0 _)). reflexivity. }
    assert (unit_p (Z.of_nat 4) (lev 4 lni) (Z.of_nat 0) 0 = 1 / 4) as P0 by apply four_p0.
    unfold near_or_far in Sx. pose proof HD as HD'. unfold LOG2c in HD'.
    destruct lni as [|[|lni]]; [| |lia].
    - change (Z.to_nat (Z.of_nat 0 * 2)) with 0%nat. cbn [seq lsum]. rewrite E0. cbn [lsum]. rewrite P0.
      change (Z.of_nat 0) with 0%Z. change (0 * 2)%Z with 0%Z. rewrite (proj2 (in_shell_0 1 0 (dist2 q x))); [field|]. rewrite radius2_0. lra.
    - change (Z.to_nat (Z.of_nat 1 * 2)) with 2%nat. cbn [seq lsum]. rewrite E0. cbn [lsum]. rewrite P0.
      assert (unit_p (Z.of_nat 4) (lev 4 1) (Z.of_nat 2) 0 = 1 / 4) as P2 by (rewrite four_lev; apply four_p2).
      assert (firstn (unit_num (Z.of_nat 4) (lev 4 1) (Z.of_nat 2) 0) (x :: c) = [x]) as E2.
      { unfold unit_num. rewrite P2. change (IZR (Z.of_nat 4)) with (IZR 4). rewrite (quarter_num (1 / 4) eq_refl). reflexivity. }
      rewrite E2, P2. cbn [lsum]. rewrite (lsum_0 _ (firstn (unit_num (Z.of_nat 4) (lev 4 1) (Z.of_nat 1) 0) (x :: c))).
      + change (Z.of_nat 1 * 2)%Z with 2%Z. change (Z.of_nat 2) with 2%Z. change (Z.of_nat 0) with 0%Z. assert (radius2 1 2 = 2 * LOG2c) as R2 by (unfold radius2; field). assert (radius2 1 1 = LOG2c) as R1 by (unfold radius2; field).
        unfold LOG2c in R1, R2. destruct Sx as [Sx|Sx]; rewrite Sx.
        * rewrite in_shell_0_false by (rewrite R2; lra). rewrite (proj2 (in_shell_true 1 2 2 1 ltac:(lia))); [field|]. change (2 - 1)%Z with 1%Z. rewrite R1, R2. lra.
        * rewrite (proj2 (in_shell_0 1 2 D)) by (rewrite R2; lra). rewrite (in_shell_false 1 2 2 D ltac:(lia)); [field|]. rewrite R2. lra.
      + intros y Iy. apply firstn_In in Iy. specialize (Sc y Iy). rewrite in_shell_false; [reflexivity|lia|]. assert (radius2 1 (Z.of_nat 1) = LOG2c) as R1 by (unfold radius2; change (Z.of_nat 1) with 1%Z; field).
        rewrite R1. unfold LOG2c. unfold near_or_far in Sc. lra.
  Qed.

  Lemma four_query T copies hs k : copies <> [] -> (forall c, In c copies -> length c = 4%nat /\ forall x, In x c -> near_or_far x) ->
    ckns_init T 1 (/ INR 4) copies 4 0 hs k -> ckns_query k q = Ok (exp (- 1)) \/ ckns_query k q = Ok (exp (- D)).
  Proof.
    intros Nc Hc I. change 4%Z with (Z.of_nat 4) in I. destruct (init_fields _ _ _ _ _ _ _ _ I) as (F1 & F2 & F3 & F4). change (Z.of_nat 4) with 4%Z in F1, F2, F3. rewrite four_its in F3.
    assert (1 <= c_k1 k)%nat as Hk by (rewrite F4; destruct copies; [congruence|simpl; lia]).
    destruct (query_level k q Hk ltac:(lia)) as (lni & mu & Ll & Em & Eq & _). rewrite Eq, F1. apply median_in in Em. apply in_map_iff in Em as (iter & E & Ii). apply in_seq in Ii.
    rewrite (init_level _ _ _ _ _ _ _ _ q lni iter (fun c Ic => proj1 (Hc c Ic)) I ltac:(lia) ltac:(lia)) in E. set (c := nth iter copies []) in *.
    destruct (Hc c) as [L1 Sc]; [apply nth_In; unfold point in *; lia|]. change (level 1 4 (lev 4 lni) 0 q c (hs iter lni) = mu) in E. rewrite level_eq_plain in E; auto; try lra; try lia; try (rewrite J_lev; lia).
    - destruct c as [|x c'] eqn:Ec; [discriminate|]. rewrite four_plain in E; auto; [|lia]. rewrite <- E. destruct (Sc x (or_introl eq_refl)) as [Sx|Sx]; unfold gauss; rewrite Sx; [left|right]; f_equal.
      + replace (- (1) * 1) with (- 1) by lra. field.
      + replace (- (1) * D) with (- D) by ring. field.
    - intros j x _ _ _. left. eapply Nat.le_trans; [apply unit_num_le; lia|lia].
  Qed.
End Four.

(** The constructor without an eps parameter: kde.cpp:24 (EPS_DEFAULT is 1), 392-398. *)
Definition eps_default {W} `{Num W} : W := w1.
