(** Approximate PageRank in exact arithmetic. *)
From Verif Require Import Base Num RSum Sparse SparseFacts Graph GraphSpec GraphFacts GraphProps2 GraphProps5 Cluster ClusterSpec ClusterCC ClusterPR.
From Coq Require Import Sorting.Sorted Reals Lra.
Local Open Scope R_scope.

Lemma lsum_delta_list (f : nat -> R) l k : NoDup l ->
  lsum (fun x => if Nat.eqb x k then f x else 0) l = if nmem k l then f k else 0.
Proof.
  induction l as [|x l IH]; intros Hn; simpl; auto. inversion Hn; subst. rewrite IH by auto.
  rewrite (Nat.eqb_sym k x). destruct (Nat.eqb_spec x k) as [->|Hne]; simpl.
  - destruct (nmem k l) eqn:E; [apply nmem_In in E; tauto|lra].
  - fold (nmem k l). lra.
Qed.

Section Exact.
  Context {W : Type} `{ExactNum W}.

  Lemma lsum_upsert (F : nat -> R -> R) (c : col W) i v :
    StronglySorted lt (map fst c) -> F i 0 = 0 ->
    lsum (fun e => F (fst e) (toR (snd e))) (col_upsert c i (fun _ => v))
    = lsum (fun e => F (fst e) (toR (snd e))) c - F i (toR (o0 (col_get c i))) + F i (toR v).
  Proof.
    intros Hs F0. induction c as [|[k x] c IH]; simpl.
    - rewrite toR_0. lra.
    - inversion Hs as [|? ? Hs' Hf]; subst.
      destruct (Nat.ltb_spec i k) as [Hik|Hik]; simpl.
      + destruct (Nat.eqb_spec k i); [lia|]. rewrite col_get_none_lt.
        * simpl. rewrite toR_0. lra.
        * eapply Forall_impl; [|exact Hf]. simpl. lia.
      + destruct (Nat.eqb_spec i k) as [->|Hne]; simpl.
        * rewrite Nat.eqb_refl. simpl. lra.
        * destruct (Nat.eqb_spec k i); [lia|]. rewrite IH by auto. lra.
  Qed.
  Lemma vsum_vset F (x : sprs W) u v : vwf x -> (forall k, F k 0 = 0) ->
    vsum F (vset x u v) = vsum F x - F u (rv x u) + F u (toR v).
  Proof.
    intros [Hc Hw] F0. unfold vsum, vset, coeffRef_set, sp_upsert, rv, vget, coeff, sp_get, sp_col. simpl.
    rewrite nth_upd_nth by (unfold sp_ncols in Hc; lia). cbn [Nat.eqb].
    apply lsum_upsert; auto. apply (sp_wf_col x 0 Hw).
  Qed.
  Lemma vsum_vgrow F (x : sprs W) u : vwf x -> vsum F (vgrow x u) = vsum F x.
  Proof. intros Hx. unfold vsum. now rewrite (proj2 (proj2 (proj2 (vgrow_spec x u Hx)))). Qed.
  Lemma rv_vset (x : sprs W) u v k : vwf x -> rv (vset x u v) k = if (k =? u)%nat then toR v else rv x k.
  Proof. intros Hx. unfold rv. rewrite vget_vset by auto. now destruct (k =? u)%nat. Qed.
  Lemma rv_vgrow (x : sprs W) u k : vwf x -> rv (vgrow x u) k = rv x k.
  Proof. intros Hx. unfold rv. now rewrite vgrow_get. Qed.

  Lemma push_edges_exact (alpha d : W) u es a : forall r, vwf r -> ~ In u (map v2 es) -> toR d <> 0 ->
    let c := (1 - toR alpha) * rv r u / (2 * toR d) in
    let r' := fold_left (push_edge alpha d u) es r in
    (forall k, rv r' k = rv r k + lsum (fun e => if (v2 e =? k)%nat then toR (ewt e) * c else 0) es) /\
    vsum (fun k t => t * a k) r' = vsum (fun k t => t * a k) r + lsum (fun e => toR (ewt e) * c * a (v2 e)) es.
  Proof.
    induction es as [|e es IH]; intros r Hr Hu Hd; cbv zeta.
    - simpl. split; intros; lra.
    - cbn [fold_left map In lsum] in *.
      destruct (push_edge_shape alpha d u r e Hr) as (Hw & Hk & Hg & _).
      destruct (IH (push_edge alpha d u r e) Hw) as [Hrv Hvs]; [tauto|auto|].
      assert (Eu : rv (push_edge alpha d u r e) u = rv r u).
      { unfold rv. rewrite Hg; auto. }
      assert (Hval : forall k, rv (push_edge alpha d u r e) k =
               rv r k + if (v2 e =? k)%nat then toR (ewt e) * ((1 - toR alpha) * rv r u / (2 * toR d)) else 0).
      { intros k. unfold push_edge. destruct (vgrow_spec r (v2 e) Hr) as (Hwg & _).
        rewrite rv_vset by auto. rewrite Nat.eqb_sym. destruct (Nat.eqb_spec (v2 e) k) as [<-|]; [|rewrite rv_vgrow by auto; lra].
        rewrite toR_add, toR_div, !toR_mul, toR_sub, toR_add, !toR_1.
        - fold (rv (vgrow r (v2 e)) (v2 e)). fold (rv (vgrow r (v2 e)) u). rewrite !rv_vgrow by auto. field. auto.
        - rewrite toR_mul, toR_add, !toR_1. lra. }
      split.
      + intros k. rewrite Hrv, Hval, Eu. lra.
      + rewrite Hvs, Eu. unfold push_edge at 1. destruct (vgrow_spec r (v2 e) Hr) as (Hwg & _).
        rewrite vsum_vset by (auto; intros; lra). rewrite vsum_vgrow by auto.
        pose proof (Hval (v2 e)) as Hv. unfold push_edge in Hv. rewrite rv_vset in Hv by auto.
        rewrite Nat.eqb_refl in Hv. rewrite Hv. rewrite rv_vgrow by auto. lra.
  Qed.
End Exact.

Section PR.
  Context {W : Type} `{ExactNum W}.
  Variable lg : lgraph W.
  Variable w : nat -> nat -> R.
  Hypothesis Hs : lg_spec lg w.
  Hypothesis no_loop : forall v, w v v = 0.

  Lemma w_nb v u : lg_has lg v -> ~ In u (nb lg v) -> w v u = 0.
  Proof.
    intros Hv Hn. destruct (Rle_lt_or_eq_dec 0 (w v u) (ls_nonneg lg w Hs v u)) as [Hlt|<-]; auto.
    exfalso. apply Hn. now apply (ls_nb lg w Hs).
  Qed.
  Lemma no_self_nb v : lg_has lg v -> ~ In v (nb lg v).
  Proof. intros Hv Hin. apply (ls_nb lg w Hs) in Hin; auto. rewrite no_loop in Hin. lra. Qed.
  Lemma ldeg_sum v : lg_has lg v -> ldeg lg v = lsum (w v) (nb lg v).
  Proof. intros Hv. unfold ldeg. rewrite (ls_deg lg w Hs) by auto. rewrite no_loop. lra. Qed.
  Lemma ldeg_nonneg v : lg_has lg v -> 0 <= ldeg lg v.
  Proof. intros Hv. rewrite ldeg_sum by auto. apply lsum_nonneg. intros. apply (ls_nonneg lg w Hs). Qed.
  Lemma nb_deg_pos v u : lg_has lg v -> In u (nb lg v) -> 0 < ldeg lg u.
  Proof.
    intros Hv Hu. assert (Hhu : lg_has lg u) by (eapply (lo_closed lg (ls_ok lg w Hs)); eauto).
    apply (ls_nb lg w Hs) in Hu; auto. rewrite (ls_sym lg w Hs) in Hu.
    rewrite ldeg_sum by auto. eapply Rlt_le_trans; [exact Hu|].
    apply (lsum_ge_elt (w u)); [intros; apply (ls_nonneg lg w Hs)|]. now apply (ls_nb lg w Hs).
  Qed.

  Variable P : nat -> Prop.
  Hypothesis P_has : forall v, P v -> lg_has lg v.
  Hypothesis P_closed : forall v u, P v -> In u (nb lg v) -> P u.

  Lemma nbe_sum v k c : lg_has lg v ->
    lsum (fun e => if (v2 e =? k)%nat then toR (ewt e) * c else 0) (nbe lg v) = w v k * c.
  Proof.
    intros Hv.
    transitivity (lsum (fun x => if (x =? k)%nat then w v x * c else 0) (nb lg v)).
    { unfold nb. rewrite lsum_map. apply lsum_ext. intros e He. now rewrite (ls_wt lg w Hs v e Hv He). }
    rewrite lsum_delta_list by (now apply (ls_nodup lg w Hs)).
    destruct (nmem k (nb lg v)) eqn:E; auto. apply nmem_false in E. rewrite (w_nb v k) by auto. lra.
  Qed.

  Lemma push_exact p r alpha u : vin P p -> vin P r -> P u -> In u (vkeys r) -> ldeg lg u <> 0 ->
    exists p' r', push lg p r alpha u = Ok (p', r') /\
      (forall k, rv p' k = rv p k + if (k =? u)%nat then toR alpha * rv r u else 0) /\
      (forall k, rv r' k = if (k =? u)%nat then (1 - toR alpha) * rv r u / 2
                           else rv r k + (1 - toR alpha) * w u k * rv r u / (2 * ldeg lg u)) /\
      (forall a, vsum (fun k t => t * a k) p' = vsum (fun k t => t * a k) p + toR alpha * rv r u * a u) /\
      vmass r' = vmass r - toR alpha * rv r u.
  Proof.
    intros Hp Hr Hu Hur Hd.
    destruct (push_shape lg (ls_ok lg w Hs) P P_has P_closed p r alpha u Hp Hr Hu Hur)
      as (p' & r' & E & Hp' & Hr' & Hkp & Hkr & Hg & Er & Ep).
    exists p', r'. split; [exact E|].
    assert (Hv : lg_has lg u) by auto.
    pose proof (no_self_nb u Hv) as Hnu.
    destruct (push_edges_exact alpha (dg lg u) u (nbe lg u) (fun _ => 1) r (proj1 Hr) Hnu Hd) as [Hrv Hvs].
    set (r1 := fold_left (push_edge alpha (dg lg u) u) (nbe lg u) r) in *.
    assert (Hw1 : vwf r1) by (apply push_edges_shape, Hr).
    assert (Hrv1 : forall k, rv r1 k = rv r k + w u k * ((1 - toR alpha) * rv r u / (2 * ldeg lg u))).
    { intros k. rewrite Hrv. f_equal. now apply nbe_sum. }
    assert (Ehalf : toR (wdiv (wmul (wsub w1 alpha) (vget r1 u)) (wadd w1 w1)) = (1 - toR alpha) * rv r u / 2).
    { rewrite toR_div, toR_mul, toR_sub, toR_add, !toR_1.
      - fold (rv r1 u). rewrite Hrv1, no_loop. field. exact Hd.
      - rewrite toR_add, toR_1. lra. }
    split; [|split; [|split]].
    - intros k. unfold rv. rewrite Ep. destruct (Nat.eqb_spec k u) as [->|]; [|lra].
      rewrite toR_add, toR_mul. reflexivity.
    - intros k. rewrite Er, rv_vset by auto. destruct (Nat.eqb_spec k u) as [->|]; [exact Ehalf|].
      rewrite Hrv1. unfold Rdiv. lra.
    - intros a. unfold push in E. rewrite (lo_deg lg (ls_ok lg w Hs)) in E by auto.
      rewrite (lo_neigh lg (ls_ok lg w Hs)) in E by auto. cbn [obind] in E. injection E as E1 _. rewrite <- E1.
      destruct (vgrow_spec p u (proj1 Hp)) as (Hwg & _).
      rewrite vsum_vset by (auto; intros; lra). rewrite vsum_vgrow by apply Hp. rewrite toR_add, toR_mul.
      fold (rv (vgrow p u) u). rewrite rv_vgrow by apply Hp. fold (rv r u). lra.
    - unfold vmass. rewrite Er. rewrite vsum_vset by auto. rewrite Ehalf, Hrv1, no_loop.
      assert (vsum (fun _ t => t) r1 = vsum (fun _ t => t) r + lsum (w u) (nb lg u) * ((1 - toR alpha) * rv r u / (2 * ldeg lg u))) as ->.
      { transitivity (vsum (fun _ t => t * 1) r1); [unfold vsum; apply lsum_ext; intros; lra|].
        rewrite Hvs. f_equal; [unfold vsum; apply lsum_ext; intros; lra|].
        unfold nb. rewrite lsum_map. rewrite <- lsum_scal_r. apply lsum_ext. intros e He.
        rewrite (ls_wt lg w Hs u e Hv He). unfold ldeg. lra. }
      rewrite <- ldeg_sum by auto. field. exact Hd.
  Qed.
  Lemma lazy_step_self u : lazy_step lg w u u = / 2.
  Proof. unfold lazy_step. rewrite Nat.eqb_refl, no_loop. unfold Rdiv. lra. Qed.

  (** Invariant of the main loop (exact arithmetic). *)
  Record pr_inv (alpha eps : W) (s p r : sprs W) (q mem : list nat) : Prop := {
    pi_str : apr_inv lg P eps p r q mem;
    pi_deg : forall k, In k q -> 0 < ldeg lg k;
    pi_lin : forall v, rv p v - (1 - toR alpha) * walk lg w p v + toR alpha * rv r v = toR alpha * rv s v;
    pi_mass : vmass p + vmass r = vmass s }.
  (** ... for a non-negative seed. *)
  Record pr_pos (eps : W) (p r : sprs W) (q : list nat) : Prop := {
    pp_p : forall k, 0 <= rv p k;
    pp_r : forall k, 0 <= rv r k;
    pp_q : forall k, In k q -> toR eps * ldeg lg k <= rv r k }.

  Lemma pr_step alpha eps s p r u q mem : pr_inv alpha eps s p r (u :: q) mem ->
    exists p' r' q' mem', apr_step lg alpha eps p r u q mem = Ok (p', r', q', mem') /\
      pr_inv alpha eps s p' r' q' mem' /\ vmass p' = vmass p + toR alpha * rv r u /\
      (0 <= toR alpha <= 1 -> pr_pos eps p r (u :: q) -> pr_pos eps p' r' q').
  Proof.
    intros [Hstr Hdeg Hlin Hmass].
    assert (Hdu : 0 < ldeg lg u) by (apply Hdeg; now left).
    destruct (apr_step_inv lg (ls_ok lg w Hs) P P_has P_closed alpha eps p r u q mem Hstr)
      as (p' & r' & q' & mem' & Es & E & Hstr' & Hq').
    pose proof (ai_p _ _ _ _ _ _ _ Hstr) as Hp. pose proof (ai_r _ _ _ _ _ _ _ Hstr) as Hr.
    assert (Hur : In u (vkeys r)) by (apply (ai_q _ _ _ _ _ _ _ Hstr); now left).
    assert (HPu : P u) by (now apply Hr).
    destruct (push_exact p r alpha u Hp Hr HPu Hur) as (p2 & r2 & E2 & Hrp & Hrr & Hvp & Hmr); [lra|].
    rewrite E in E2. injection E2 as <- <-.
    exists p', r', q', mem'. split; [exact Es|].
    assert (Hmp : vmass p' = vmass p + toR alpha * rv r u).
    { unfold vmass. transitivity (vsum (fun k t => t * (fun _ => 1) k) p'); [unfold vsum; apply lsum_ext; intros; lra|].
      rewrite Hvp. f_equal; [unfold vsum; apply lsum_ext; intros; lra|lra]. }
    assert (Hq'd : forall k, In k q' -> 0 < ldeg lg k).
    { intros k Hk. pose proof (ai_q _ _ _ _ _ _ _ Hstr' k Hk) as Hkr.
      destruct (Hq' k Hk) as [Hkq|Hc]; [apply Hdeg; now right|].
      (* k was queued by this step: it is u or a neighbour of u, or it was in q *)
      destruct (Rle_lt_or_eq_dec 0 (ldeg lg k)) as [?|Ez]; auto.
      { apply ldeg_nonneg, P_has. now apply (ai_r _ _ _ _ _ _ _ Hstr'). }
      exfalso. destruct (Nat.eq_dec k u) as [->|Hne]; [lra|].
      destruct (in_dec Nat.eq_dec k (nb lg u)) as [Hnb|Hnb].
      - pose proof (nb_deg_pos u k (P_has u HPu) Hnb). lra.
      - unfold apr_step in Es. rewrite E in Es. cbn [obind] in Es.
        rewrite (lo_deg lg (ls_ok lg w Hs)) in Es by auto. cbn [obind] in Es.
        rewrite (lo_nunw lg (ls_ok lg w Hs)) in Es by auto.
        rewrite (lo_neigh lg (ls_ok lg w Hs)) in Es by auto. cbn [obind] in Es.
        rewrite (lg_degrees_ok lg (ls_ok lg w Hs)) in Es by (intros v Hv; apply P_has; now apply (P_closed u)).
        cbn [obind] in Es.
        set (b := wleb (wmul eps (dg lg u)) (vget r' u)) in Es.
        assert (Hn := ai_nd _ _ _ _ _ _ _ Hstr). inversion Hn as [|? ? Hnu Hnq]; subst.
        assert (Hm := ai_mem _ _ _ _ _ _ _ Hstr).
        assert (Hm1 : forall k, In k (snd (if b then (u :: q, u :: nerase u mem) else (q, nerase u mem))) <->
                            In k (fst (if b then (u :: q, u :: nerase u mem) else (q, nerase u mem)))).
        { intros k0. destruct b; simpl; rewrite nerase_In, Hm; simpl; split; intuition congruence. }
        destruct (if b then (u :: q, u :: nerase u mem) else (q, nerase u mem)) as [q1 mem1] eqn:Eq1. simpl in Hm1.
        destruct (apr_scan_spec lg eps r' (nbe lg u) q1 mem1 Hm1) as (q2 & mem2 & Es2 & _ & _ & Hf & _).
        fold (nb lg u) in Es2. rewrite Es2 in Es. cbn [obind fst snd] in Es. injection Es as <- <-.
        destruct (Hf k Hk) as [Hk1|[Hk1 _]]; [|tauto].
        assert (In k q) as Hkq.
        { destruct b; injection Eq1 as <- <-; auto. destruct Hk1 as [?|?]; [congruence|auto]. }
        pose proof (Hdeg k (or_intror Hkq)). lra. }
    split; [|split; [exact Hmp|]].
    - constructor; auto.
      + intros v. unfold walk. rewrite Hrp, Hrr, Hvp. specialize (Hlin v). unfold walk in Hlin.
        destruct (Nat.eqb_spec v u) as [->|Hne].
        * rewrite lazy_step_self. lra.
        * assert (lazy_step lg w u v = w u v / (2 * ldeg lg u)) as ->.
          { unfold lazy_step. destruct (Nat.eqb_spec u v); [congruence|lra]. }
          rewrite <- Hlin. field. lra.
      + rewrite Hmp, Hmr. lra.
    - intros Ha [Hpp Hpr Hpq].
      assert (Hwpos : forall k, 0 <= (1 - toR alpha) * w u k * rv r u / (2 * ldeg lg u)).
      { intros k. unfold Rdiv. apply Rmult_le_pos.
        - apply Rmult_le_pos; auto. apply Rmult_le_pos; [lra|apply (ls_nonneg lg w Hs)].
        - left. apply Rinv_0_lt_compat. lra. }
      constructor.
      + intros k. rewrite Hrp. destruct (k =? u)%nat; [|specialize (Hpp k); lra].
        specialize (Hpp k). assert (0 <= toR alpha * rv r u) by (apply Rmult_le_pos; [lra|auto]). lra.
      + intros k. rewrite Hrr. destruct (k =? u)%nat.
        * assert (0 <= (1 - toR alpha) * rv r u) by (apply Rmult_le_pos; [lra|auto]). lra.
        * specialize (Hpr k). specialize (Hwpos k). lra.
      + intros k Hk. destruct (Hq' k Hk) as [Hkq|Hc].
        * rewrite Hrr. destruct (Nat.eqb_spec k u) as [->|Hne].
          -- exfalso. assert (Hn := ai_nd _ _ _ _ _ _ _ Hstr). inversion Hn; subst. tauto.
          -- specialize (Hpq k (or_intror Hkq)). specialize (Hwpos k). lra.
        * apply toR_leb in Hc. rewrite toR_mul in Hc. exact Hc.
  Qed.

  Lemma pr_loop_post alpha eps s : forall fuel p r q mem p' r',
    pr_inv alpha eps s p r q mem -> apr_loop fuel lg alpha eps p r q mem = Some (Ok (p', r')) ->
    exists mem', pr_inv alpha eps s p' r' [] mem' /\
      (0 <= toR alpha <= 1 -> pr_pos eps p r q -> pr_pos eps p' r' []).
  Proof.
    induction fuel as [|fuel IH]; intros p r q mem p' r' Hinv; destruct q as [|u q]; simpl; try discriminate.
    - intros [= <- <-]. eauto.
    - intros [= <- <-]. eauto.
    - destruct (pr_step alpha eps s p r u q mem Hinv) as (p1 & r1 & q1 & mem1 & -> & Hinv1 & _ & Hpos).
      intros E. destruct (IH _ _ _ _ _ _ Hinv1 E) as (mem' & Hi & Hp). eauto.
  Qed.

  Lemma vmass_nonneg (x : sprs W) : vwf x -> (forall k, 0 <= rv x k) -> 0 <= vmass x.
  Proof.
    intros [_ Hw] Hx. apply lsum_nonneg. intros [k t] He. simpl.
    specialize (Hx k). unfold rv, vget, coeff, sp_get in Hx.
    rewrite (In_col_get (sp_col x 0) k t) in Hx; auto. apply (sp_wf_col x 0 Hw).
  Qed.

  (** Number of pushes: at most the mass of the seed over alpha * eps * (least degree). *)
  Lemma pr_loop_total alpha eps s delta : 0 < toR alpha <= 1 -> 0 < toR eps -> 0 < delta ->
    (forall k, P k -> 0 < ldeg lg k -> delta <= ldeg lg k) ->
    forall fuel p r q mem, pr_inv alpha eps s p r q mem -> pr_pos eps p r q ->
    vmass s - vmass p < INR fuel * (toR alpha * toR eps * delta) ->
    exists p' r', apr_loop fuel lg alpha eps p r q mem = Some (Ok (p', r')).
  Proof.
    intros Ha He Hd Hmin. induction fuel as [|fuel IH]; intros p r q mem Hinv Hpos Hm; destruct q as [|u q]; simpl; eauto.
    - exfalso. simpl in Hm. pose proof (pi_mass _ _ _ _ _ _ _ Hinv) as Hmass.
      pose proof (vmass_nonneg r (proj1 (ai_r _ _ _ _ _ _ _ (pi_str _ _ _ _ _ _ _ Hinv))) (pp_r _ _ _ _ Hpos)). lra.
    - destruct (pr_step alpha eps s p r u q mem Hinv) as (p1 & r1 & q1 & mem1 & -> & Hinv1 & Hmp & Hp1).
      apply IH; auto; [apply Hp1; auto; lra|].
      rewrite Hmp. rewrite S_INR in Hm.
      assert (Hr : toR alpha * toR eps * delta <= toR alpha * rv r u).
      { rewrite Rmult_assoc. apply Rmult_le_compat_l; [lra|].
        eapply Rle_trans; [|apply (pp_q _ _ _ _ Hpos); now left].
        apply Rmult_le_compat_l; [lra|]. pose proof (pi_str _ _ _ _ _ _ _ Hinv) as Hst.
        apply Hmin.
        - apply (ai_r _ _ _ _ _ _ _ Hst), (ai_q _ _ _ _ _ _ _ Hst). now left.
        - apply (pi_deg _ _ _ _ _ _ _ Hinv). now left. }
      lra.
  Qed.
End PR.
