(** The kernel of the normalised Laplacian of a graph with several components (no code is modelled here). *)
From Verif Require Import Base Num RSum GraphSpec SpectrumSpec SpectrumFacts SpectrumPower SpectrumConv CheegerMath CheegerSpectral.
From Coq Require Import Reals Lra Psatz Relations Sorting.Sorted.
Local Open Scope R_scope.

Definition zero_value (p : R * list R) : bool := if Req_EM_T (fst p) 0 then true else false.
Lemma zeros_first (E : list (R * list R)) : StronglySorted Rle (map fst E) -> (forall p, In p E -> 0 <= fst p) ->
  filter zero_value E = firstn (length (filter zero_value E)) E.
Proof.
  induction E as [|p E IH]; intros S N; [reflexivity|]. inversion S as [|? ? S' F]; subst. rewrite Forall_forall in F.
  cbn [filter]. assert (Zp : zero_value p = if Req_EM_T (fst p) 0 then true else false) by reflexivity.
  rewrite Zp. clear Zp. destruct (Req_EM_T (fst p) 0) as [Z|Z].
  - cbn [length firstn]. f_equal. apply IH; auto. intros q Hq. apply N. now right.
  - assert (E0 : filter zero_value E = []); [|now rewrite E0].
    pose proof (N p (or_introl eq_refl)). clear IH. assert (G : forall q, In q E -> zero_value q = false).
    { intros q Hq. unfold zero_value. destruct (Req_EM_T (fst q) 0) as [Z'|]; auto.
      specialize (F (fst q) (in_map fst _ _ Hq)). lra. }
    clear - G. induction E as [|q E IH]; [reflexivity|]. cbn [filter]. rewrite G by now left. apply IH. intros. apply G. now right.
Qed.

Section Kernel.
  Variables (n k : nat) (w : nat -> nat -> R) (d : nat -> R) (M : nat -> nat -> R) (cls : nat -> nat).
  Hypothesis w_sym : forall u v, w u v = w v u.
  Hypothesis w_nn : forall u v, 0 <= w u v.
  Hypothesis d_pos : forall u, (u < n)%nat -> 0 < d u.
  Hypothesis deg : forall u, (u < n)%nat -> d u = rsum n (w u).
  Hypothesis M_eq : forall u v, (u < n)%nat -> (v < n)%nat -> M u v = (if u =? v then 1 else 0) - w u v / (sqrt (d u) * sqrt (d v)).
  Hypothesis cls_edge : forall u v, (u < n)%nat -> (v < n)%nat -> w u v <> 0 -> cls u = cls v.
  Hypothesis cls_conn : forall u v, (u < n)%nat -> (v < n)%nat -> cls u = cls v ->
    clos_refl_trans nat (fun a b => w a b <> 0 /\ (a < n)%nat /\ (b < n)%nat) u v.
  Hypothesis cls_lt : forall u, (u < n)%nat -> (cls u < k)%nat.
  Hypothesis cls_onto : forall c, (c < k)%nat -> exists u, (u < n)%nat /\ cls u = c.
  Variable E : list (R * list R).
  Hypothesis sys : eigen_system n M E.
  Hypothesis sorted : StronglySorted Rle (map fst E).
  Local Notation rt := (CheegerSpectral.rt d).
  Let M_sym := M_sym n w d M w_sym M_eq.
  Let rt_pos := rt_pos n d d_pos.
  Let rt_sq := rt_sq n d d_pos.

  Lemma values_nonneg p : In p E -> 0 <= fst p.
  Proof. intros Hi. rewrite <- (eigen_quad n M _ p sys Hi). apply (quad_nonneg n w d M); auto. Qed.
  Lemma kernel_const p u v : In p E -> fst p = 0 -> (u < n)%nat -> (v < n)%nat -> cls u = cls v ->
    vx (snd p) u / rt u = vx (snd p) v / rt v.
  Proof.
    intros Hp Z Hu Hv C. apply cls_conn in C; auto.
    pose proof (eigen_quad n M _ p sys Hp) as Q. rewrite Z in Q. rewrite (quad_unscale n d M d_pos) in Q.
    pose proof (quad_scaled n w d M w_sym d_pos deg M_eq (fun i => vx (snd p) i / rt i)) as Q2. cbv beta in Q2. rewrite Q, Rmult_0_r in Q2.
    set (y := fun i => vx (snd p) i / rt i) in *. change (y u = y v). clear Hu Hv.
    induction C as [a b (Hw & Ha & Hb)|a|a b c _ IH1 _ IH2]; [|reflexivity|congruence].
    assert (T : w a b * (y a - y b) ^ 2 <= 0).
    { eapply Rle_trans; [apply (rsum_ge_elt n (fun k => w a k * (y a - y k) ^ 2) b)|]; auto.
      - intros j _. apply Rmult_le_pos; auto. apply pow2_ge_0.
      - rewrite Q2. apply (rsum_ge_elt n (fun i => rsum n (fun k => w i k * (y i - y k) ^ 2)) a); auto.
        intros i _. apply rsum_nonneg. intros j _. apply Rmult_le_pos; auto. apply pow2_ge_0. }
    destruct (Req_dec (y a) (y b)) as [|N]; auto. exfalso.
    assert (0 < (y a - y b) ^ 2) by (apply pow2_gt_0; lra). pose proof (w_nn a b).
    assert (0 < w a b) by lra. nra.
  Qed.
  (** D^(1/2) times the indicator of a component. *)
  Definition spread (c i : nat) : R := if cls i =? c then rt i else 0.
  Definition cvol (c : nat) : R := rsum n (fun i => if cls i =? c then d i else 0).
  Lemma mulv_spread c u : (u < n)%nat -> mulv n M (spread c) u = 0.
  Proof.
    intros Hu. transitivity (mulv n M (fun i => rt i * (if cls i =? c then 1 else 0)) u).
    { apply rsum_ext. intros i Hi. unfold spread. destruct (cls i =? c)%nat; ring. }
    rewrite (mulv_scaled n w d M d_pos M_eq (fun i => if cls i =? c then 1 else 0)) by auto.
    pose proof (rt_pos u Hu) as Hp.
    assert (Es : rsum n (fun v => w u v * (if cls v =? c then 1 else 0)) = if cls u =? c then d u else 0).
    { rewrite (rsum_ext n _ (fun v => w u v * (if cls u =? c then 1 else 0))).
      - rewrite rsum_scal_r, <- deg by auto. destruct (cls u =? c)%nat; ring.
      - intros v Hv. destruct (Req_dec (w u v) 0) as [->|N]; [ring|]. now rewrite (cls_edge u v Hu Hv N). }
    rewrite Es. pose proof (rt_sq u Hu) as Q. destruct (cls u =? c)%nat; [rewrite <- Q; field; lra|ring].
  Qed.
  Lemma spread_orth c p : In p E -> fst p <> 0 -> dot n (spread c) (vx (snd p)) = 0.
  Proof.
    intros Hp N. assert (C : fst p * dot n (spread c) (vx (snd p)) = 0).
    { rewrite <- (mulv_component n M _ sys M_sym _ p Hp). unfold dot. apply rsum_zero. intros i Hi. rewrite mulv_spread by auto. ring. }
    apply Rmult_integral in C. tauto.
  Qed.
  Lemma cvol_pos u : (u < n)%nat -> 0 < cvol (cls u).
  Proof.
    intros Hu. eapply Rlt_le_trans; [apply (d_pos u Hu)|].
    eapply Rle_trans; [|apply (rsum_ge_elt n (fun i => if cls i =? cls u then d i else 0) u)]; auto.
    - rewrite Nat.eqb_refl. lra.
    - intros i Hi. pose proof (d_pos i Hi). destruct (cls i =? cls u)%nat; lra.
  Qed.
  Lemma spread_dot u p : In p E -> fst p = 0 -> (u < n)%nat -> dot n (spread (cls u)) (vx (snd p)) = cvol (cls u) * (vx (snd p) u / rt u).
  Proof.
    intros Hp Z Hu. unfold dot, cvol. rewrite <- rsum_scal_r. apply rsum_ext. intros i Hi. unfold spread.
    destruct (Nat.eqb_spec (cls i) (cls u)) as [C|C]; [|ring].
    rewrite <- (kernel_const p i u) by auto. pose proof (rt_pos i Hi) as P. pose proof (rt_sq i Hi) as Q. rewrite <- Q. field. lra.
  Qed.
  Definition kernel : list (R * list R) := filter zero_value E.
  Lemma in_kernel p : In p kernel <-> In p E /\ fst p = 0.
  Proof. unfold kernel. rewrite filter_In. unfold zero_value. destruct (Req_EM_T (fst p) 0); intuition discriminate. Qed.
  Lemma gram_kernel u v : (u < n)%nat -> (v < n)%nat ->
    lsum (fun p => vx (snd p) u * vx (snd p) v) kernel = if cls u =? cls v then rt u * rt v / cvol (cls u) else 0.
  Proof.
    intros Hu Hv. pose proof (cvol_pos u Hu) as Cp. pose proof (rt_pos u Hu) as P.
    assert (X : spread (cls u) v = cvol (cls u) / rt u * lsum (fun p => vx (snd p) u * vx (snd p) v) kernel).
    { destruct sys as (_ & _ & _ & Hc). rewrite (Hc (spread (cls u)) v Hv). unfold kernel. rewrite lsum_filter.
      rewrite <- lsum_scal. apply lsum_ext. intros p Hp. unfold zero_value. destruct (Req_EM_T (fst p) 0) as [Z|N].
      - rewrite (spread_dot u p Hp Z Hu). field. lra.
      - rewrite spread_orth by auto. ring. }
    assert (Y : lsum (fun p => vx (snd p) u * vx (snd p) v) kernel = rt u / cvol (cls u) * spread (cls u) v) by (rewrite X; field; lra).
    rewrite Y. unfold spread. rewrite (Nat.eqb_sym (cls v)). destruct (cls u =? cls v)%nat; field; lra.
  Qed.
  Lemma kernel_length : length kernel = k.
  Proof.
    apply INR_eq.
    transitivity (lsum (fun p => dot n (vx (snd p)) (vx (snd p))) kernel).
    { rewrite (lsum_ext _ (fun _ => 1)); [rewrite lsum_const; ring|]. intros p Hp. apply in_kernel in Hp. apply (eigen_norm n M E); tauto. }
    transitivity (rsum n (fun u => d u / cvol (cls u))).
    { unfold dot, rsum. rewrite lsum_swap. apply lsum_ext. intros u Hu. apply in_seq in Hu.
      rewrite gram_kernel by lia. rewrite Nat.eqb_refl. pose proof (rt_sq u ltac:(lia)) as Q. rewrite <- Q. reflexivity. }
    transitivity (rsum k (fun c => rsum n (fun u => if cls u =? c then d u / cvol c else 0))).
    { rewrite rsum_swap. apply rsum_ext. intros u Hu. now rewrite (rsum_delta' k (cls u) (fun c => d u / cvol c) (cls_lt u Hu)). }
    rewrite (rsum_ext k _ (fun _ => 1)); [rewrite rsum_const; ring|]. intros c Hc. destruct (cls_onto c Hc) as (u & Hu & <-).
    pose proof (cvol_pos u Hu) as P. transitivity (cvol (cls u) * / cvol (cls u)); [|field; lra].
    unfold cvol at 2. rewrite <- rsum_scal_r. apply rsum_ext. intros v Hv. destruct (cls v =? cls u)%nat; [reflexivity|ring].
  Qed.
  Lemma kernel_firstn : firstn k E = kernel.
  Proof. rewrite <- kernel_length. symmetry. apply zeros_first; [exact sorted|exact values_nonneg]. Qed.
  (** The first k eigenvectors: inner products of the rows. *)
  Lemma gram_rows u v : (u < n)%nat -> (v < n)%nat ->
    lsum (fun p => vx (snd p) u * vx (snd p) v) (firstn k E) = if cls u =? cls v then sqrt (d u) * sqrt (d v) / cvol (cls u) else 0.
  Proof. rewrite kernel_firstn. apply gram_kernel. Qed.
  Lemma first_zero_values p : In p (firstn k E) -> fst p = 0.
  Proof. rewrite kernel_firstn. intros Hp. now apply in_kernel. Qed.
  Lemma rows_on_ray p u v : In p (firstn k E) -> (u < n)%nat -> (v < n)%nat -> cls u = cls v ->
    vx (snd p) u * sqrt (d v) = vx (snd p) v * sqrt (d u).
  Proof.
    rewrite kernel_firstn. intros Hp Hu Hv C. apply in_kernel in Hp. pose proof (kernel_const p u v (proj1 Hp) (proj2 Hp) Hu Hv C) as K.
    pose proof (rt_pos u Hu) as P1. pose proof (rt_pos v Hv) as P2. unfold CheegerSpectral.rt in *.
    apply (f_equal (fun z => z * (sqrt (d u) * sqrt (d v)))) in K. field_simplify in K; lra.
  Qed.
End Kernel.
