(** The normalised Laplacian of a graph without self-loops: quadratic form, kernel, and the easy direction of Cheeger's
    inequality (no code is modelled here). *)
From Verif Require Import Base Num RSum GraphSpec SpectrumSpec SpectrumFacts SpectrumPower SpectrumConv CheegerMath.
From Coq Require Import Reals Lra Psatz Relations Sorting.Sorted.
Local Open Scope R_scope.

Section NLap.
  Variables (n : nat) (w : nat -> nat -> R) (d : nat -> R) (M : nat -> nat -> R).
  Hypothesis w_sym : forall u v, w u v = w v u.
  Hypothesis w_nn : forall u v, 0 <= w u v.
  Hypothesis d_pos : forall u, (u < n)%nat -> 0 < d u.
  Hypothesis deg : forall u, (u < n)%nat -> d u = rsum n (w u).
  Hypothesis M_eq : forall u v, (u < n)%nat -> (v < n)%nat -> M u v = (if u =? v then 1 else 0) - w u v / (sqrt (d u) * sqrt (d v)).
  Definition rt (u : nat) : R := sqrt (d u).
  Lemma rt_pos u : (u < n)%nat -> 0 < rt u.
  Proof. intros Hu. apply sqrt_lt_R0. auto. Qed.
  Lemma rt_sq u : (u < n)%nat -> rt u * rt u = d u.
  Proof. intros Hu. apply sqrt_sqrt. specialize (d_pos u Hu). lra. Qed.

  Lemma mulv_scaled (y : nat -> R) u : (u < n)%nat ->
    mulv n M (fun i => rt i * y i) u = rt u * y u - / rt u * rsum n (fun v => w u v * y v).
  Proof.
    intros Hu. unfold mulv. pose proof (rt_pos u Hu).
    rewrite (rsum_ext n _ (fun v => (if Nat.eqb u v then rt v * y v else 0) - / rt u * (w u v * y v))).
    - rewrite rsum_minus, rsum_delta', rsum_scal by auto. reflexivity.
    - intros v Hv. rewrite M_eq by auto. fold (rt u) (rt v). pose proof (rt_pos v Hv). destruct (u =? v)%nat; field; lra.
  Qed.
  Lemma double_form (y : nat -> R) :
    rsum n (fun i => rsum n (fun k => w i k * (y i - y k) ^ 2)) =
    2 * (rsum n (fun i => d i * y i ^ 2) - rsum n (fun i => rsum n (fun k => w i k * y i * y k))).
  Proof.
    transitivity (rsum n (fun i => rsum n (fun k => w i k * y i ^ 2)) + rsum n (fun k => rsum n (fun i => w i k * y k ^ 2)) - 2 * rsum n (fun i => rsum n (fun k => w i k * y i * y k))).
    - rewrite <- (rsum_swap n n (fun i k => w i k * y k ^ 2)). rewrite <- rsum_plus, <- rsum_scal, <- rsum_minus. apply rsum_ext. intros i _.
      rewrite <- rsum_plus, <- rsum_scal, <- rsum_minus. apply rsum_ext. intros k _. ring.
    - rewrite (rsum_ext n (fun k => rsum n (fun i => w i k * y k ^ 2)) (fun i => d i * y i ^ 2)).
      + rewrite (rsum_ext n (fun i => rsum n (fun k => w i k * y i ^ 2)) (fun i => d i * y i ^ 2)); [ring|].
        intros i Hi. rewrite rsum_scal_r, <- deg by auto. reflexivity.
      + intros k Hk. rewrite rsum_scal_r. f_equal. rewrite deg by auto. apply rsum_ext. intros. apply w_sym.
  Qed.
  Lemma quad_scaled (y : nat -> R) :
    2 * quad n M (fun i => rt i * y i) = rsum n (fun i => rsum n (fun k => w i k * (y i - y k) ^ 2)).
  Proof.
    rewrite double_form. f_equal. rewrite quad_dot. unfold dot.
    rewrite (rsum_ext n _ (fun i => d i * y i ^ 2 - rsum n (fun k => w i k * y i * y k))); [apply rsum_minus|].
    intros i Hi. rewrite mulv_scaled by auto. pose proof (rt_pos i Hi). pose proof (rt_sq i Hi) as Q.
    rewrite (rsum_ext n (fun k => w i k * y i * y k) (fun k => y i * (w i k * y k))) by (intros; ring). rewrite rsum_scal.
    rewrite <- Q. field. lra.
  Qed.
  Lemma quad_unscale x : quad n M x = quad n M (fun i => rt i * (x i / rt i)).
  Proof. unfold quad. apply rsum_ext. intros i Hi. apply rsum_ext. intros k Hk. pose proof (rt_pos i Hi). pose proof (rt_pos k Hk). field. lra. Qed.
  Lemma quad_nonneg x : 0 <= quad n M x.
  Proof.
    rewrite quad_unscale. pose proof (quad_scaled (fun i => x i / rt i)) as Q. cbv beta in Q.
    assert (0 <= rsum n (fun i => rsum n (fun k => w i k * (x i / rt i - x k / rt k) ^ 2))); [|lra].
    apply rsum_nonneg. intros i _. apply rsum_nonneg. intros k _. apply Rmult_le_pos; auto. apply pow2_ge_0.
  Qed.
  Lemma M_sym u v : (u < n)%nat -> (v < n)%nat -> M u v = M v u.
  Proof. intros Hu Hv. rewrite !M_eq by auto. rewrite w_sym, Nat.eqb_sym, (Rmult_comm (sqrt (d u))). reflexivity. Qed.
  (** The kernel contains D^(1/2) 1. *)
  Lemma mulv_rt u : (u < n)%nat -> mulv n M rt u = 0.
  Proof.
    intros Hu. transitivity (mulv n M (fun i => rt i * 1) u); [apply rsum_ext; intros; ring|].
    rewrite (mulv_scaled (fun _ => 1)) by auto. rewrite rsum_scal_r, <- deg by auto. pose proof (rt_pos u Hu). rewrite <- (rt_sq u Hu). field. lra.
  Qed.

  (** ** Connected graphs *)
  Hypothesis conn : forall u v, (u < n)%nat -> (v < n)%nat -> clos_refl_trans nat (fun a b => w a b <> 0 /\ (a < n)%nat /\ (b < n)%nat) u v.
  Lemma zero_form_constant (y : nat -> R) : rsum n (fun i => rsum n (fun k => w i k * (y i - y k) ^ 2)) = 0 ->
    forall u v, (u < n)%nat -> (v < n)%nat -> y u = y v.
  Proof.
    intros E u v Hu Hv. pose proof (conn u v Hu Hv) as C. clear Hu Hv.
    induction C as [a b (Hw & Ha & Hb)|a|a b c _ IH1 _ IH2]; [|reflexivity|congruence].
    assert (T : w a b * (y a - y b) ^ 2 <= 0).
    { eapply Rle_trans; [apply (rsum_ge_elt n (fun k => w a k * (y a - y k) ^ 2) b)|]; auto.
      - intros k _. apply Rmult_le_pos; auto. apply pow2_ge_0.
      - rewrite <- E. apply (rsum_ge_elt n (fun i => rsum n (fun k => w i k * (y i - y k) ^ 2)) a); auto.
        intros i _. apply rsum_nonneg. intros k _. apply Rmult_le_pos; auto. apply pow2_ge_0. }
    destruct (Req_dec (y a) (y b)) as [|N]; auto. exfalso.
    assert (0 < (y a - y b) ^ 2) by (apply pow2_gt_0; lra). pose proof (w_nn a b).
    assert (0 < w a b) by lra. nra.
  Qed.
  Lemma zero_quad x : (0 < n)%nat -> quad n M x = 0 -> exists c, forall i, (i < n)%nat -> x i = c * rt i.
  Proof.
    intros Hn E. rewrite quad_unscale in E. pose proof (quad_scaled (fun i => x i / rt i)) as Q. cbv beta in Q. rewrite E, Rmult_0_r in Q.
    exists (x 0%nat / rt 0%nat). intros i Hi. rewrite (zero_form_constant (fun i => x i / rt i) (eq_sym Q) 0%nat i Hn Hi).
    pose proof (rt_pos i Hi). field. lra.
  Qed.

  Variables (p q : R * list R) (E' : list (R * list R)).
  Hypothesis sys : eigen_system n M (p :: q :: E').
  Hypothesis sorted : StronglySorted Rle (map fst (p :: q :: E')).
  Lemma n_ge : (2 <= n)%nat.
  Proof. destruct sys as [L _]. simpl in L. lia. Qed.
  Lemma ev_nonneg e : In e (p :: q :: E') -> 0 <= fst e.
  Proof. intros Hi. rewrite <- (eigen_quad n M _ e sys Hi). apply quad_nonneg. Qed.
  Lemma dot_pq a b : (a < n)%nat -> (b < n)%nat -> dot n (vx (snd (nth a (p :: q :: E') p))) (vx (snd (nth b (p :: q :: E') p))) = if a =? b then 1 else 0.
  Proof. intros Ha Hb. destruct sys as (_ & _ & O & _). apply O; auto. Qed.
  Lemma dot_rt_pos : 0 < dot n rt rt.
  Proof.
    pose proof n_ge. eapply Rlt_le_trans; [|apply (rsum_ge_elt n (fun i => rt i * rt i) 0%nat)]; try lia.
    - cbv beta. pose proof (rt_pos 0%nat ltac:(lia)). nra.
    - intros i Hi. pose proof (rt_pos i Hi). nra.
  Qed.
  Lemma first_zero : fst p = 0.
  Proof.
    pose proof (ev_nonneg p (or_introl eq_refl)) as Hp.
    destruct (Req_dec (fst p) 0) as [|N]; auto. exfalso.
    assert (Z : forall e, In e (p :: q :: E') -> dot n rt (vx (snd e)) = 0).
    { intros e He. assert (C : fst e * dot n rt (vx (snd e)) = 0).
      { rewrite <- (mulv_component n M _ sys M_sym rt e He). unfold dot. apply rsum_zero. intros k Hk. rewrite mulv_rt by auto. ring. }
      assert (fst p <= fst e).
      { inversion sorted as [|? ? _ F]; subst. destruct He as [<-|He]; [lra|]. rewrite Forall_forall in F. apply F. change (fst q :: map fst E') with (map fst (q :: E')). now apply in_map. }
      assert (0 < fst e) by lra. nra. }
    pose proof dot_rt_pos as D. rewrite (parseval n M _ sys rt rt) in D. rewrite lsum_0 in D; [lra|].
    intros e He. rewrite Z by auto. ring.
  Qed.
  Lemma first_vector : exists c, c <> 0 /\ forall i, (i < n)%nat -> vx (snd p) i = c * rt i.
  Proof.
    pose proof n_ge as Hn. destruct (zero_quad (vx (snd p))) as (c & Hc); [lia|rewrite (eigen_quad n M _ p sys (or_introl eq_refl)); apply first_zero|].
    exists c. split; auto. intros ->. pose proof (dot_pq 0 0 ltac:(lia) ltac:(lia)) as D. cbn [nth Nat.eqb] in D.
    unfold dot in D. rewrite rsum_zero in D; [lra|]. intros i Hi. rewrite Hc by auto. ring.
  Qed.
  Lemma second_orth : dot n rt (vx (snd q)) = 0.
  Proof.
    pose proof n_ge as Hn. destruct first_vector as (c & Nc & Hc). pose proof (dot_pq 0 1 ltac:(lia) ltac:(lia)) as D. cbn [nth Nat.eqb] in D.
    assert (E : dot n (vx (snd p)) (vx (snd q)) = c * dot n rt (vx (snd q))).
    { unfold dot. rewrite <- rsum_scal. apply rsum_ext. intros i Hi. rewrite Hc by auto. ring. }
    rewrite E in D. apply Rmult_integral in D. tauto.
  Qed.
  Lemma second_pos : 0 < fst q.
  Proof.
    pose proof n_ge as Hn. pose proof (ev_nonneg q (or_intror (or_introl eq_refl))) as Hq.
    destruct (Req_dec (fst q) 0) as [Z|N]; [|lra]. exfalso.
    destruct (zero_quad (vx (snd q))) as (c & Hc); [lia|rewrite (eigen_quad n M _ q sys (or_intror (or_introl eq_refl))); exact Z|].
    pose proof second_orth as O. assert (E : dot n rt (vx (snd q)) = c * dot n rt rt).
    { unfold dot. rewrite <- rsum_scal. apply rsum_ext. intros i Hi. rewrite Hc by auto. ring. }
    rewrite E in O. pose proof dot_rt_pos. assert (c = 0) by nra. subst c.
    pose proof (dot_pq 1 1 ltac:(lia) ltac:(lia)) as D. cbn [nth Nat.eqb] in D.
    unfold dot in D. rewrite rsum_zero in D; [lra|]. intros i Hi. rewrite Hc by auto. ring.
  Qed.
  (** The second value is the minimum of the form over the vectors orthogonal to the first. *)
  Lemma second_minimal (y : nat -> R) : rsum n (fun i => d i * y i) = 0 ->
    2 * fst q * rsum n (fun i => d i * y i ^ 2) <= rsum n (fun i => rsum n (fun k => w i k * (y i - y k) ^ 2)).
  Proof.
    intros O. rewrite <- quad_scaled. set (x := fun i => rt i * y i). rewrite Rmult_assoc. apply Rmult_le_compat_l; [lra|].
    assert (E : rsum n (fun i => d i * y i ^ 2) = dot n x x).
    { apply rsum_ext. intros i Hi. unfold x. rewrite <- (rt_sq i Hi). ring. }
    rewrite E. rewrite quad_dot, (parseval n M _ sys x (mulv n M x)), (parseval n M _ sys x x).
    assert (Op : dot n x (vx (snd p)) = 0).
    { destruct first_vector as (c & _ & Hc). unfold dot. rewrite (rsum_ext n _ (fun i => c * (d i * y i))); [rewrite rsum_scal, O; ring|].
      intros i Hi. rewrite Hc by auto. unfold x. rewrite <- (rt_sq i Hi). ring. }
    cbn [lsum]. rewrite Op.
    rewrite !Rmult_0_l, !Rplus_0_l, Rmult_plus_distr_l.
    rewrite (mulv_component n M _ sys M_sym x q) by (right; now left).
    apply Rplus_le_compat; [apply Req_le; ring|]. rewrite <- lsum_scal. apply lsum_le. intros e He.
    rewrite (mulv_component n M _ sys M_sym x e) by (right; now right).
    assert (fst q <= fst e).
    { inversion sorted as [|? ? S1 _]; subst. inversion S1 as [|? ? _ F]; subst. rewrite Forall_forall in F. apply F. now apply in_map. }
    pose proof (pow2_ge_0 (dot n x (vx (snd e)))). nra.
  Qed.
End NLap.
