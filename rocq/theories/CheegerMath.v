(** The sweep argument of Cheeger's inequality, for a symmetric weight function on positions 0..n-1 listed in the order of the
    sweep (no code is modelled here). *)
From Verif Require Import Base Num RSum.
From Coq Require Import Reals Lra Psatz.
Local Open Scope R_scope.

Definition indic (b : bool) : R := if b then 1 else 0.
(** Threshold j separates the positions i and k. *)
Definition sep (i k j : nat) : R := indic ((i <? j) && (j <=? k)) + indic ((k <? j) && (j <=? i)).
Lemma sep_sym i k j : sep i k j = sep k i j.
Proof. unfold sep. ring. Qed.

Lemma telescope (h : nat -> R) k : forall i, (i <= k)%nat ->
  forall n, (k <= n)%nat -> h i - h k = rsum n (fun j => (h j - h (S j)) * indic ((i <? S j) && (S j <=? k))).
Proof.
  induction k as [|k IH]; intros i Hi n Hn.
  - assert (i = 0%nat) by lia. subst. rewrite rsum_zero; [lra|]. intros j _.
    destruct (Nat.leb_spec (S j) 0); [lia|]. rewrite Bool.andb_false_r. unfold indic. ring.
  - destruct (Nat.eq_dec i (S k)) as [->|N].
    + rewrite rsum_zero; [lra|]. intros j _.
      destruct (Nat.ltb_spec (S k) (S j)), (Nat.leb_spec (S j) (S k)); try lia; cbn [andb]; unfold indic; ring.
    + specialize (IH i ltac:(lia) n ltac:(lia)).
      rewrite (rsum_ext n _ (fun j => (h j - h (S j)) * indic ((i <? S j) && (S j <=? k)) + (if Nat.eqb j k then h j - h (S j) else 0))).
      * rewrite rsum_plus, <- IH, rsum_delta by lia. lra.
      * intros j Hj. destruct (Nat.eqb_spec j k) as [->|Hjk].
        -- destruct (Nat.ltb_spec i (S k)), (Nat.leb_spec (S k) (S k)), (Nat.leb_spec (S k) k); try lia. cbn [andb]. unfold indic. ring.
        -- destruct (Nat.leb_spec (S j) (S k)), (Nat.leb_spec (S j) k); try lia; ring.
Qed.

Section Sweep.
  Variables (n : nat) (a : nat -> nat -> R) (d : nat -> R) (h : nat -> R).
  Hypothesis a_sym : forall i k, a i k = a k i.
  Hypothesis a_nn : forall i k, 0 <= a i k.
  Hypothesis d_nn : forall i, 0 <= d i.
  (** The values are listed in decreasing order. *)
  Hypothesis h_dec : forall j, (S j < n)%nat -> h (S j) <= h j.
  Definition del (j : nat) : R := h j - h (S j).
  Lemma h_mono i k : (i <= k < n)%nat -> h k <= h i.
  Proof. intros [Hik Hk]. induction Hik as [|k Hik IH]; [lra|]. specialize (h_dec k Hk). specialize (IH ltac:(lia)). lra. Qed.
  Lemma abs_sep i k : (i < n)%nat -> (k < n)%nat -> Rabs (h i - h k) = rsum (n - 1) (fun j => del j * sep i k (S j)).
  Proof.
    assert (P : forall i k, (i <= k < n)%nat -> Rabs (h i - h k) = rsum (n - 1) (fun j => del j * sep i k (S j))).
    { intros i0 k0 Hik. pose proof (h_mono i0 k0 Hik). rewrite Rabs_right by lra.
      rewrite (telescope h k0 i0 ltac:(lia) (n - 1) ltac:(lia)). apply rsum_ext. intros j Hj. unfold del, sep.
      destruct ((k0 <? S j) && (S j <=? i0)) eqn:E; [|unfold indic at 3; ring].
      apply andb_prop in E. destruct E as [E1 E2]. apply Nat.ltb_lt in E1. apply Nat.leb_le in E2. lia. }
    intros Hi Hk. destruct (le_lt_dec i k); [apply P; lia|]. rewrite Rabs_minus_sym, P by lia.
    apply rsum_ext. intros j _. now rewrite sep_sym.
  Qed.

  (** Cut and volume of the first j positions. *)
  Definition pcut (j : nat) : R := rsum n (fun i => rsum n (fun k => a i k * indic ((i <? j) && (j <=? k)))).
  Definition pvol (j : nat) : R := rsum n (fun i => d i * indic (i <? j)).
  Definition ptot : R := rsum n d.

  Lemma coarea : rsum n (fun i => rsum n (fun k => a i k * Rabs (h i - h k))) = 2 * rsum (n - 1) (fun j => del j * pcut (S j)).
  Proof.
    transitivity (rsum (n - 1) (fun j => del j * rsum n (fun i => rsum n (fun k => a i k * sep i k (S j))))).
    - rewrite (rsum_ext n _ (fun i => rsum (n - 1) (fun j => del j * rsum n (fun k => a i k * sep i k (S j))))).
      + rewrite rsum_swap. apply rsum_ext. intros j _. now rewrite rsum_scal.
      + intros i Hi. rewrite (rsum_ext n _ (fun k => rsum (n - 1) (fun j => del j * (a i k * sep i k (S j))))).
        * rewrite rsum_swap. apply rsum_ext. intros j _. now rewrite rsum_scal.
        * intros k Hk. rewrite abs_sep by auto. rewrite <- rsum_scal. apply rsum_ext. intros j _. ring.
    - rewrite <- rsum_scal. apply rsum_ext. intros j _. unfold pcut.
      set (F := fun i k => a i k * indic ((i <? S j) && (S j <=? k))).
      assert (E : rsum n (fun i => rsum n (fun k => a i k * sep i k (S j))) = rsum n (fun i => rsum n (F i)) + rsum n (fun k => rsum n (fun i => F i k))).
      { rewrite <- rsum_plus. apply rsum_ext. intros i _. rewrite <- rsum_plus. apply rsum_ext. intros k _. unfold sep, F. rewrite (a_sym k i). ring. }
      rewrite <- (rsum_swap n n F) in E. rewrite E. unfold F. ring.
  Qed.
  Lemma pvol_compl j : ptot - pvol j = rsum n (fun i => d i * indic (j <=? i)).
  Proof.
    unfold ptot, pvol. rewrite <- rsum_minus. apply rsum_ext. intros i _.
    destruct (Nat.ltb_spec i j), (Nat.leb_spec j i); try lia; unfold indic; ring.
  Qed.
  Lemma pvol_mono i j : (i <= j)%nat -> pvol i <= pvol j.
  Proof.
    intros Hij. apply rsum_le. intros k _. specialize (d_nn k).
    destruct (Nat.ltb_spec k i), (Nat.ltb_spec k j); try lia; unfold indic; lra.
  Qed.
  (** Distances to the median, summed up by thresholds. *)
  Lemma median_sum m : (m < n)%nat -> 2 * pvol m <= ptot -> ptot <= 2 * pvol (S m) ->
    rsum n (fun i => d i * Rabs (h i - h m)) = rsum (n - 1) (fun j => del j * Rmin (pvol (S j)) (ptot - pvol (S j))).
  Proof.
    intros Hm H1 H2.
    rewrite (rsum_ext n _ (fun i => rsum (n - 1) (fun j => del j * (d i * sep i m (S j))))).
    - rewrite rsum_swap. apply rsum_ext. intros j _. rewrite rsum_scal. f_equal.
      destruct (le_lt_dec (S j) m) as [Hj|Hj].
      + rewrite Rmin_left; [|pose proof (pvol_mono (S j) m Hj); lra]. unfold pvol. apply rsum_ext. intros i _. f_equal. unfold sep.
        destruct (Nat.ltb_spec i (S j)), (Nat.leb_spec (S j) m), (Nat.ltb_spec m (S j)), (Nat.leb_spec (S j) i); try lia; cbn [andb indic]; ring.
      + rewrite Rmin_right; [|pose proof (pvol_mono (S m) (S j) ltac:(lia)); lra]. rewrite pvol_compl. apply rsum_ext. intros i _. f_equal. unfold sep.
        destruct (Nat.ltb_spec i (S j)), (Nat.leb_spec (S j) m), (Nat.ltb_spec m (S j)), (Nat.leb_spec (S j) i); try lia; cbn [andb indic]; ring.
    - intros i Hi. rewrite abs_sep by auto. rewrite <- rsum_scal. apply rsum_ext. intros j _. ring.
  Qed.
  Lemma median_exists : (0 < n)%nat -> 0 <= ptot -> exists m, (m < n)%nat /\ 2 * pvol m <= ptot /\ ptot <= 2 * pvol (S m).
  Proof.
    intros Hn Ht.
    assert (E0 : pvol 0 = 0) by (apply rsum_zero; intros i _; unfold indic; simpl; ring).
    assert (En : pvol n = ptot).
    { apply rsum_ext. intros i Hi. destruct (Nat.ltb_spec i n); [|lia]. unfold indic. ring. }
    assert (P : forall k, (k <= n)%nat -> 2 * pvol k <= ptot \/ exists m, (m < k)%nat /\ 2 * pvol m <= ptot /\ ptot <= 2 * pvol (S m)).
    { induction k as [|k IH]; intros Hk; [left; lra|]. destruct (IH ltac:(lia)) as [L|(m & Hm & L)].
      - destruct (Rle_dec (2 * pvol (S k)) ptot); [now left|]. right. exists k. repeat split; auto; lra.
      - right. exists m. split; [lia|auto]. }
    destruct (P n (le_n n)) as [L|(m & Hm & L)]; [|exists m; tauto].
    exists (n - 1)%nat. replace (S (n - 1)) with n by lia. pose proof (pvol_mono (n - 1) n ltac:(lia)). repeat split; try lia; lra.
  Qed.
  (** If every threshold cut is large compared with the smaller side, so is the total variation. *)
  Lemma sweep_bound phi m : (m < n)%nat -> 2 * pvol m <= ptot -> ptot <= 2 * pvol (S m) -> 
    (forall j, (1 <= j < n)%nat -> phi * Rmin (pvol j) (ptot - pvol j) <= pcut j) ->
    2 * phi * rsum n (fun i => d i * Rabs (h i - h m)) <= rsum n (fun i => rsum n (fun k => a i k * Rabs (h i - h k))).
  Proof.
    intros Hm H1 H2 Hcut. rewrite coarea, median_sum by auto. rewrite Rmult_assoc. apply Rmult_le_compat_l; [lra|].
    rewrite <- rsum_scal. apply rsum_le. intros j Hj. unfold del.
    specialize (h_dec j ltac:(lia)). specialize (Hcut (S j) ltac:(lia)). nra.
  Qed.
End Sweep.

(** The signed square. *)
Definition ssq (z : R) : R := z * Rabs z.
Lemma ssq_abs z : Rabs (ssq z) = z ^ 2.
Proof. unfold ssq. rewrite Rabs_mult, Rabs_Rabsolu. rewrite <- Rabs_mult, Rabs_right; nra. Qed.
Lemma ssq_lipschitz y z : Rabs (ssq y - ssq z) <= Rabs (y - z) * (Rabs y + Rabs z).
Proof.
  unfold ssq. destruct (Rle_dec 0 y), (Rle_dec 0 z), (Rle_dec y z);
    rewrite ?(Rabs_right y), ?(Rabs_right z), ?(Rabs_left y), ?(Rabs_left z) by lra;
    repeat match goal with |- context [Rabs ?e] => first [rewrite (Rabs_right e) by nra | rewrite (Rabs_left1 e) by nra] end; nra.
Qed.
Lemma ssq_mono y z : y <= z -> ssq y <= ssq z.
Proof.
  intros H. unfold ssq. destruct (Rle_dec 0 y), (Rle_dec 0 z);
    rewrite ?(Rabs_right y), ?(Rabs_right z), ?(Rabs_left y), ?(Rabs_left z) by lra; nra.
Qed.

Section Hard.
  Variables (n : nat) (a : nat -> nat -> R) (d : nat -> R) (y : nat -> R) (lam phi : R).
  Hypothesis a_sym : forall i k, a i k = a k i.
  Hypothesis a_nn : forall i k, 0 <= a i k.
  Hypothesis deg : forall i, (i < n)%nat -> d i = rsum n (a i).
  Hypothesis d_nn : forall i, 0 <= d i.
  Hypothesis y_dec : forall j, (S j < n)%nat -> y (S j) <= y j.
  (** Orthogonality to the constant vector and the value of the quadratic form. *)
  Hypothesis orth : rsum n (fun i => d i * y i) = 0.
  Hypothesis form : rsum n (fun i => rsum n (fun k => a i k * (y i - y k) ^ 2)) <= 2 * lam * rsum n (fun i => d i * y i ^ 2).
  Hypothesis lam_pos : 0 < lam.
  Hypothesis y_nz : 0 < rsum n (fun i => d i * y i ^ 2).
  Hypothesis cut_big : forall j, (1 <= j < n)%nat -> phi * Rmin (pvol n d j) (ptot n d - pvol n d j) <= pcut n a j.

  Lemma hard_direction : phi <= sqrt (2 * lam).
  Proof.
    assert (Hn : (0 < n)%nat) by (destruct n; [rewrite rsum_0 in y_nz; lra|lia]).
    assert (Ht : 0 <= ptot n d) by (apply rsum_nonneg; auto).
    destruct (median_exists n d d_nn Hn Ht) as (m & Hm & M1 & M2).
    set (z := fun i => y i - y m). set (h := fun i => ssq (z i)).
    assert (h_dec : forall j, (S j < n)%nat -> h (S j) <= h j).
    { intros j Hj. apply ssq_mono. unfold z. specialize (y_dec j Hj). lra. }
    pose proof (sweep_bound n a d h a_sym d_nn h_dec phi m Hm M1 M2 cut_big) as B.
    set (Y := rsum n (fun i => d i * y i ^ 2)) in *. set (Z := rsum n (fun i => d i * z i ^ 2)).
    assert (EZ : rsum n (fun i => d i * Rabs (h i - h m)) = Z).
    { apply rsum_ext. intros i _. f_equal. replace (h m) with 0; [rewrite Rminus_0_r; apply ssq_abs|].
      unfold h, ssq, z. replace (y m - y m) with 0 by ring. ring. }
    rewrite EZ in B. clear EZ.
    assert (ZY : Y <= Z).
    { assert (E : Z = Y - 2 * y m * rsum n (fun i => d i * y i) + y m ^ 2 * rsum n d).
      { unfold Z, Y, z. rewrite <- !rsum_scal, <- rsum_minus, <- rsum_plus. apply rsum_ext. intros i _. ring. }
      rewrite orth in E. pose proof (pow2_ge_0 (y m)). unfold ptot in Ht. rewrite E. nra. }
    (* The two double sums. *)
    assert (F1 : rsum n (fun i => rsum n (fun k => a i k * (z i - z k) ^ 2)) <= 2 * lam * Y).
    { eapply Rle_trans; [|exact form]. right. apply rsum_ext. intros i _. apply rsum_ext. intros k _. unfold z. ring. }
    assert (F2 : rsum n (fun i => rsum n (fun k => a i k * (Rabs (z i) + Rabs (z k)) ^ 2)) <= 4 * Z).
    { assert (E : 4 * Z = rsum n (fun i => rsum n (fun k => a i k * (2 * z i ^ 2))) + rsum n (fun i => rsum n (fun k => a i k * (2 * z k ^ 2)))).
      { rewrite (rsum_swap n n (fun i k => a i k * (2 * z k ^ 2))). unfold Z.
        rewrite (rsum_ext n (fun j => rsum n (fun i => a i j * (2 * z j ^ 2))) (fun i => rsum n (fun k => a i k * (2 * z i ^ 2)))).
        - rewrite (rsum_ext n (fun i => rsum n (fun k => a i k * (2 * z i ^ 2))) (fun i => 2 * (d i * z i ^ 2))).
          + rewrite rsum_scal. ring.
          + intros i Hi. rewrite rsum_scal_r, <- deg by auto. ring.
        - intros j _. apply rsum_ext. intros i _. now rewrite a_sym. }
      rewrite E, <- rsum_plus. apply rsum_le. intros i _. rewrite <- rsum_plus. apply rsum_le. intros k _.
      specialize (a_nn i k). pose proof (pow2_ge_0 (Rabs (z i) - Rabs (z k))).
      pose proof (pow2_abs (z i)). pose proof (pow2_abs (z k)). nra. }
    assert (s_pos : 0 < sqrt (2 * lam)) by (apply sqrt_lt_R0; lra).
    assert (s_sq : sqrt (2 * lam) ^ 2 = 2 * lam) by (apply pow2_sqrt; lra). set (s := sqrt (2 * lam)) in *.
    (* |z_i - z_k| (|z_i| + |z_k|) <= (1/s) (z_i - z_k)^2 / 2 * ... with t = 2/s *)
    assert (F3 : rsum n (fun i => rsum n (fun k => a i k * Rabs (h i - h k))) <= / s * (2 * lam * Y) + s / 4 * (4 * Z)).
    { apply Rle_trans with (/ s * rsum n (fun i => rsum n (fun k => a i k * (z i - z k) ^ 2)) +
                            s / 4 * rsum n (fun i => rsum n (fun k => a i k * (Rabs (z i) + Rabs (z k)) ^ 2))).
      - rewrite <- !rsum_scal, <- rsum_plus. apply rsum_le. intros i _. rewrite <- !rsum_scal, <- rsum_plus. apply rsum_le. intros k _.
        pose proof (ssq_lipschitz (z i) (z k)) as L. specialize (a_nn i k). unfold h.
        assert (Q : Rabs (z i - z k) * (Rabs (z i) + Rabs (z k)) <= / s * (z i - z k) ^ 2 + s / 4 * (Rabs (z i) + Rabs (z k)) ^ 2).
        { rewrite <- (pow2_abs (z i - z k)). set (A := Rabs (z i - z k)). set (C := Rabs (z i) + Rabs (z k)).
          pose proof (pow2_ge_0 (A - s / 2 * C)) as Sq. apply Rmult_le_reg_l with s; [lra|].
          replace (s * (/ s * A ^ 2 + s / 4 * C ^ 2)) with (A ^ 2 + s ^ 2 / 4 * C ^ 2) by (field; lra). nra. }
        nra.
      - assert (0 < s / 4) by lra. assert (0 < / s) by (apply Rinv_0_lt_compat; lra). apply Rplus_le_compat; apply Rmult_le_compat_l; lra. }
    assert (Ei : / s * (2 * lam * Y) = s * Y).
    { rewrite <- s_sq. field. lra. }
    rewrite Ei in F3. assert (2 * phi * Z <= 2 * s * Z) by nra. nra.
  Qed.
End Hard.
