(** Personalised PageRank as a mathematical object: the solution of
    q = alpha s + (1 - alpha) q M for a sub-stochastic M >= 0 (no code is modelled here). *)
From Verif Require Import Base RSum.
From Coq Require Import Reals Lra.
Local Open Scope R_scope.

(** [q] is the personalised PageRank vector of [s] on the vertices 0..n-1. *)
Definition is_ppr (n : nat) (M : nat -> nat -> R) (alpha : R) (s q : nat -> R) : Prop :=
  forall v, (v < n)%nat -> q v = alpha * s v + (1 - alpha) * rsum n (fun u => q u * M u v).

Lemma lsum_cv (f : nat -> nat -> R) (l : nat -> R) (is : list nat) :
  (forall i, In i is -> Un_cv (fun k => f k i) (l i)) -> Un_cv (fun k => lsum (f k) is) (lsum l is).
Proof.
  induction is as [|i is IH]; intros Hc; simpl.
  - intros e He. exists 0%nat. intros. rewrite R_dist_eq. lra.
  - apply CV_plus; [apply Hc; now left|apply IH; intros; apply Hc; now right].
Qed.
Lemma cv_const c : Un_cv (fun _ => c) c.
Proof. intros e He. exists 0%nat. intros. rewrite R_dist_eq. lra. Qed.
Lemma cv_shift u l : Un_cv u l -> Un_cv (fun k => u (S k)) l.
Proof. intros Hc e He. destruct (Hc e He) as [N HN]. exists N. intros k Hk. apply HN. lia. Qed.

Section Ppr.
  Variable n : nat.
  Variable M : nat -> nat -> R.
  Variable alpha : R.
  Hypothesis M_nonneg : forall u v, 0 <= M u v.
  Hypothesis M_sub : forall u, (u < n)%nat -> rsum n (M u) <= 1.
  Hypothesis Ha : 0 < alpha <= 1.

  Lemma step_mass f : (forall u, (u < n)%nat -> 0 <= f u) ->
    rsum n (fun v => rsum n (fun u => f u * M u v)) <= rsum n f.
  Proof.
    intros Hf. rewrite rsum_swap. apply rsum_le. intros u Hu. rewrite rsum_scal.
    rewrite <- (Rmult_1_r (f u)) at 2. apply Rmult_le_compat_l; auto.
  Qed.
  Lemma rsum_abs m f : Rabs (rsum m f) <= rsum m (fun k => Rabs (f k)).
  Proof.
    unfold rsum. induction (seq 0 m) as [|k l IH]; simpl; [rewrite Rabs_R0; lra|].
    eapply Rle_trans; [apply Rabs_triang|]. lra.
  Qed.

  Lemma ppr_unique s q q' : is_ppr n M alpha s q -> is_ppr n M alpha s q' -> forall v, (v < n)%nat -> q v = q' v.
  Proof.
    intros Hq Hq'. set (d := fun v => Rabs (q v - q' v)).
    assert (Hd : rsum n d <= (1 - alpha) * rsum n d).
    { apply Rle_trans with (rsum n (fun v => (1 - alpha) * rsum n (fun u => d u * M u v))).
      - apply rsum_le. intros v Hv. unfold d. rewrite Hq, Hq' by auto.
        replace (alpha * s v + (1 - alpha) * rsum n (fun u => q u * M u v) -
                 (alpha * s v + (1 - alpha) * rsum n (fun u => q' u * M u v)))
          with ((1 - alpha) * rsum n (fun u => q u * M u v - q' u * M u v)) by (rewrite rsum_minus; lra).
        rewrite Rabs_mult, (Rabs_right (1 - alpha)) by lra. apply Rmult_le_compat_l; [lra|].
        eapply Rle_trans; [apply rsum_abs|]. apply rsum_le. intros u Hu.
        replace (q u * M u v - q' u * M u v) with ((q u - q' u) * M u v) by lra.
        rewrite Rabs_mult, (Rabs_right (M u v)) by (apply Rle_ge, M_nonneg). lra.
      - rewrite rsum_scal. apply Rmult_le_compat_l; [lra|]. apply step_mass. intros. apply Rabs_pos. }
    intros v Hv. assert (Hnn : forall u, (u < n)%nat -> 0 <= d u) by (intros; apply Rabs_pos).
    assert (H0 : 0 <= rsum n d) by (now apply rsum_nonneg).
    assert (H1 : rsum n d = 0).
    { destruct H0 as [H0|H0]; auto. exfalso.
      assert (alpha * rsum n d <= 0) by lra. assert (0 < alpha * rsum n d) by (apply Rmult_lt_0_compat; lra). lra. }
    pose proof (rsum_ge_elt n d v Hnn Hv). specialize (Hnn v Hv). unfold d in *.
    assert (Rabs (q v - q' v) = 0) as E by lra.
    destruct (Req_dec (q v) (q' v)) as [?|Hne]; auto. exfalso. apply (Rabs_no_R0 (q v - q' v)); lra.
  Qed.

  (** Existence, first for a non-negative seed. *)
  Fixpoint piter (s : nat -> R) (k : nat) : nat -> R :=
    match k with
    | O => fun _ => 0
    | S k' => fun v => alpha * s v + (1 - alpha) * rsum n (fun u => piter s k' u * M u v)
    end.
  Lemma piter_nonneg s : (forall u, 0 <= s u) -> forall k v, 0 <= piter s k v.
  Proof.
    intros Hs. induction k as [|k IH]; intros v; simpl; [lra|].
    apply Rplus_le_le_0_compat; apply Rmult_le_pos; try lra; auto.
    apply rsum_nonneg. intros. apply Rmult_le_pos; auto.
  Qed.
  Lemma piter_grow s : (forall u, 0 <= s u) -> forall k v, piter s k v <= piter s (S k) v.
  Proof.
    intros Hs. induction k as [|k IH]; intros v.
    - apply (piter_nonneg s Hs 1).
    - simpl. apply Rplus_le_compat_l, Rmult_le_compat_l; [lra|]. apply rsum_le. intros u _.
      apply Rmult_le_compat_r; auto. apply IH.
  Qed.
  Lemma piter_bound s : (forall u, 0 <= s u) -> forall k, rsum n (piter s k) <= rsum n s.
  Proof.
    intros Hs. induction k as [|k IH].
    - simpl. rewrite rsum_zero by auto. apply rsum_nonneg; auto.
    - simpl. rewrite rsum_plus, !rsum_scal.
      assert (rsum n (fun v => rsum n (fun u => piter s k u * M u v)) <= rsum n (piter s k)).
      { apply step_mass. intros. now apply piter_nonneg. }
      assert ((1 - alpha) * rsum n (fun v => rsum n (fun u => piter s k u * M u v)) <= (1 - alpha) * rsum n s).
      { apply Rmult_le_compat_l; lra. }
      lra.
  Qed.
  Lemma piter_cv s v : (forall u, 0 <= s u) -> (v < n)%nat -> { l : R | Un_cv (fun k => piter s k v) l }.
  Proof.
    intros Hs Hv. apply growing_cv.
    - intros k. now apply piter_grow.
    - exists (rsum n s). intros x [k ->]. eapply Rle_trans; [|apply (piter_bound s Hs k)].
      apply rsum_ge_elt; auto. intros. now apply piter_nonneg.
  Qed.
  Lemma ppr_exists_nonneg s : (forall u, 0 <= s u) -> exists q, is_ppr n M alpha s q /\ forall v, 0 <= q v.
  Proof.
    intros Hs. set (q := fun v => match lt_dec v n with left h => proj1_sig (piter_cv s v Hs h) | right _ => 0 end).
    assert (Hq : forall v, (v < n)%nat -> Un_cv (fun k => piter s k v) (q v)).
    { intros v Hv. unfold q. destruct (lt_dec v n) as [h|]; [|lia]. apply (proj2_sig (piter_cv s v Hs h)). }
    exists q. split.
    - intros v Hv. eapply UL_sequence; [apply cv_shift, (Hq v Hv)|]. simpl.
      apply CV_plus; [apply cv_const|]. apply CV_mult; [apply cv_const|].
      unfold rsum. apply (lsum_cv (fun k u => piter s k u * M u v) (fun u => q u * M u v)).
      intros u Hu. apply in_seq in Hu. apply CV_mult; [apply Hq; lia|apply cv_const].
    - intros v. unfold q. destruct (lt_dec v n) as [h|]; [|lra].
      destruct (piter_cv s v Hs h) as [l Hl]. simpl. destruct (Rle_lt_dec 0 l) as [|Hneg]; auto. exfalso.
      destruct (Hl (- l)) as [N HN]; [lra|]. specialize (HN N (le_n N)). unfold R_dist in HN.
      pose proof (piter_nonneg s Hs N v). rewrite Rabs_right in HN by lra. lra.
  Qed.
  Lemma ppr_exists s : exists q, is_ppr n M alpha s q.
  Proof.
    destruct (ppr_exists_nonneg (fun u => Rmax (s u) 0)) as (q1 & H1 & _); [intros; apply Rmax_r|].
    destruct (ppr_exists_nonneg (fun u => Rmax (- s u) 0)) as (q2 & H2 & _); [intros; apply Rmax_r|].
    exists (fun v => q1 v - q2 v). intros v Hv. rewrite H1, H2 by auto.
    assert (E : rsum n (fun u => (q1 u - q2 u) * M u v) = rsum n (fun u => q1 u * M u v) - rsum n (fun u => q2 u * M u v)).
    { rewrite <- rsum_minus. apply rsum_ext. intros. lra. }
    rewrite E. assert (s v = Rmax (s v) 0 - Rmax (- s v) 0) as Es.
    { unfold Rmax. destruct (Rle_dec (s v) 0), (Rle_dec (- s v) 0); lra. }
    rewrite Es at 3. lra.
  Qed.
  Lemma ppr_nonneg s q : (forall u, (u < n)%nat -> 0 <= s u) -> is_ppr n M alpha s q -> forall v, (v < n)%nat -> 0 <= q v.
  Proof.
    intros Hs Hq v Hv. set (s' := fun u => if lt_dec u n then s u else 0).
    destruct (ppr_exists_nonneg s') as (q' & Hq' & Hn).
    { intros u. unfold s'. destruct (lt_dec u n); [auto|lra]. }
    rewrite (ppr_unique s q q'); auto.
    intros u Hu. rewrite Hq' by auto. unfold s'. destruct (lt_dec u n); [auto|tauto].
  Qed.
  (** A super-solution dominates. *)
  Lemma ppr_below s q d : is_ppr n M alpha s q ->
    (forall v, (v < n)%nat -> alpha * s v + (1 - alpha) * rsum n (fun u => d u * M u v) <= d v) ->
    forall v, (v < n)%nat -> q v <= d v.
  Proof.
    intros Hq Hd v Hv.
    assert (0 <= (fun v => d v - q v) v); [|simpl in *; lra].
    refine (ppr_nonneg (fun v => (d v - q v - (1 - alpha) * rsum n (fun u => (d u - q u) * M u v)) / alpha) (fun v => d v - q v) _ _ v Hv).
    - intros u Hu. apply Rmult_le_pos; [|left; apply Rinv_0_lt_compat; lra].
      assert (E : rsum n (fun x => (d x - q x) * M x u) = rsum n (fun x => d x * M x u) - rsum n (fun x => q x * M x u)).
      { rewrite <- rsum_minus. apply rsum_ext. intros. lra. }
      rewrite E. specialize (Hd u Hu). rewrite (Hq u Hu). lra.
    - intros u Hu. field. lra.
  Qed.
  (** Mass. *)
  Lemma ppr_mass s q : (forall u, (u < n)%nat -> rsum n (M u) = 1) -> is_ppr n M alpha s q -> rsum n q = rsum n s.
  Proof.
    intros H1 Hq.
    assert (E : rsum n q = alpha * rsum n s + (1 - alpha) * rsum n q).
    { rewrite (rsum_ext n q _ Hq) at 1. rewrite rsum_plus, !rsum_scal. f_equal. f_equal.
      rewrite rsum_swap. apply rsum_ext. intros u Hu. rewrite rsum_scal, H1 by auto. lra. }
    assert (alpha * rsum n q = alpha * rsum n s) as E2 by lra. apply Rmult_eq_reg_l in E2; lra.
  Qed.
End Ppr.
