(** The volume of the vertices touched by approximate_pagerank and of the cluster returned by local_cluster. *)
From Verif Require Import Base Num RSum Sparse SparseFacts Graph GraphSpec GraphFacts GraphProps1 GraphProps2 GraphProps5
  Cluster ClusterSpec ClusterCC ClusterPR ClusterPR2 ClusterSweep ClusterInst Ppr ClusterTop.
From Coq Require Import Sorting.Sorted Sorting.Permutation Reals Lra Relations.
Local Open Scope R_scope.

Lemma lsum_incl (f : nat -> R) l : NoDup l -> forall m, (forall x, In x l -> In x m) -> (forall x, In x m -> 0 <= f x) ->
  lsum f l <= lsum f m.
Proof.
  induction 1 as [|x l Hx Hn IH]; intros m Hi Hp; [now apply lsum_nonneg|].
  destruct (in_split x m) as (m1 & m2 & ->); [apply Hi; now left|].
  assert (lsum f l <= lsum f (m1 ++ m2)) as L.
  { apply IH.
    - intros y Hy. assert (In y (m1 ++ x :: m2)) as Y by (apply Hi; now right).
      apply in_app_iff in Y. apply in_app_iff. destruct Y as [Y|[->|Y]]; auto. contradiction.
    - intros y Hy. apply Hp. apply in_app_iff in Hy. apply in_app_iff. destruct Hy; [now left|right; now right]. }
  rewrite lsum_app in *. cbn [lsum]. lra.
Qed.

Section Vol.
  Context {W : Type} `{ExactNum W}.
  Variable lg : lgraph W.
  Variable w : nat -> nat -> R.
  Hypothesis Hs : lg_spec lg w.
  Hypothesis no_loop : forall v, w v v = 0.

  Lemma touched_residual alpha eps (s p r : sprs W) q mem : vwf s -> 0 <= toR alpha <= 1 -> 0 <= toR eps -> (forall k, 0 <= rv s k) ->
    apr_state lg alpha eps s p r q mem ->
    forall k, In k (vkeys p) -> (1 - toR alpha) / 2 * (toR eps * ldeg lg k) <= rv r k.
  Proof.
    intros Hv Ha He Hnn Hst. induction Hst as [ds q mem Ed Ei|p r u q mem p' r' q' mem' Hst IH Es].
    - intros k [].
    - destruct (pr_state lg w Hs no_loop _ _ _ _ _ _ _ Hv Hst) as [Hi Hpp]. specialize (Hpp Ha Hnn).
      pose proof (pi_str _ _ _ _ _ _ _ _ _ _ Hi) as Hstr.
      assert (0 < ldeg lg u) as Hdu by (apply (pi_deg _ _ _ _ _ _ _ _ _ _ Hi); now left).
      destruct (apr_step_inv lg (ls_ok lg w Hs) (lg_has lg) (fun v h => h) (lo_closed lg (ls_ok lg w Hs)) alpha eps p r u q mem Hstr)
        as (p1 & r1 & q1 & m1 & E & Ep & _). rewrite E in Es. injection Es as <- <- <- <-.
      assert (In u (vkeys r)) as Hur by (apply (ai_q _ _ _ _ _ _ _ Hstr); now left).
      assert (lg_has lg u) as Hhu by (now apply (ai_r _ _ _ _ _ _ _ Hstr)).
      destruct (push_shape lg (ls_ok lg w Hs) (lg_has lg) (fun v h => h) (lo_closed lg (ls_ok lg w Hs)) p r alpha u)
        as (p2 & r2 & E2 & _ & _ & Hkp & _); auto.
      { apply (ai_p _ _ _ _ _ _ _ Hstr). } { apply (ai_r _ _ _ _ _ _ _ Hstr). }
      destruct (push_exact lg w Hs no_loop (lg_has lg) (fun v h => h) (lo_closed lg (ls_ok lg w Hs)) p r alpha u) as (p3 & r3 & E3 & _ & Hrr & _); auto.
      { apply (ai_p _ _ _ _ _ _ _ Hstr). } { apply (ai_r _ _ _ _ _ _ _ Hstr). } { lra. }
      rewrite E2 in E3. injection E3 as <- <-. rewrite E2 in Ep. injection Ep as <- <-.
      intros k Hk. rewrite Hrr. destruct (Nat.eqb_spec k u) as [->|Hne].
      + pose proof (pp_q _ _ _ _ _ Hpp u (or_introl eq_refl)) as Q.
        assert ((1 - toR alpha) * (toR eps * ldeg lg u) <= (1 - toR alpha) * rv r u) by (apply Rmult_le_compat_l; lra). lra.
      + apply Hkp in Hk. destruct Hk as [->|Hk]; [congruence|]. specialize (IH k Hk).
        assert (0 <= (1 - toR alpha) * w u k * rv r u / (2 * ldeg lg u)); [|lra].
        unfold Rdiv. apply Rmult_le_pos.
        * apply Rmult_le_pos; [|apply (pp_r _ _ _ _ _ Hpp)]. apply Rmult_le_pos; [lra|apply (ls_nonneg lg w Hs)].
        * left. apply Rinv_0_lt_compat. lra.
  Qed.

  Lemma vmass_keys (x : sprs W) : vwf x -> vmass x = lsum (rv x) (vkeys x).
  Proof.
    intros [_ Hw]. unfold vmass, vsum, vkeys. rewrite lsum_map. apply lsum_ext. intros [k t] He. cbn [fst snd].
    unfold rv, vget, coeff, sp_get. now rewrite (In_col_get (sp_col x 0) k t (proj1 (sp_wf_col x 0 Hw)) He).
  Qed.
  Lemma vkeys_nodup (x : sprs W) : vwf x -> NoDup (vkeys x).
  Proof. intros [_ Hw]. pose proof (proj1 (sp_wf_col x 0 Hw)) as C. unfold vkeys.
    induction C as [|k l C IH F]; [apply NoDup_nil|]. apply NoDup_cons; auto.
    intros I. rewrite Forall_forall in F. specialize (F _ I). lia.
  Qed.

  Lemma touched_volume fuel (s p r : sprs W) alpha eps : vwf s -> (forall k, 0 <= rv s k) ->
    approximate_pagerank fuel lg s alpha eps = Some (Ok (p, r)) ->
    (1 - toR alpha) * toR eps * lvol lg (vkeys p) <= 2 * vmass r /\ vmass r <= vmass s /\
    (forall k, In k (vkeys p) -> lg_has lg k /\ 0 < ldeg lg k) /\ NoDup (vkeys p).
  Proof.
    intros Hv Hnn E.
    destruct (apr_return lg fuel s alpha eps p r E) as (_ & _ & E1 & E2 & E3 & _ & mem & Hst).
    pose proof (alpha_range alpha E1 E2) as Ha.
    assert (0 <= toR eps) as He.
    { destruct (Rle_lt_dec 0 (toR eps)) as [?|L]; auto. exfalso. enough (wleb eps w0 = true) by congruence. apply toR_leb. rewrite toR_0. lra. }
    destruct (pr_state lg w Hs no_loop _ _ _ _ _ _ _ Hv Hst) as [Hi Hpp]. specialize (Hpp Ha Hnn).
    pose proof (pi_str _ _ _ _ _ _ _ _ _ _ Hi) as Hstr.
    pose proof (proj1 (ai_p _ _ _ _ _ _ _ Hstr)) as Wp. pose proof (proj1 (ai_r _ _ _ _ _ _ _ Hstr)) as Wr.
    pose proof (touched_residual alpha eps s p r [] mem Hv Ha He Hnn Hst) as T.
    pose proof (pi_mass _ _ _ _ _ _ _ _ _ _ Hi) as M.
    pose proof (vmass_nonneg p Wp (pp_p _ _ _ _ _ Hpp)) as Mp.
    pose proof (vkeys_nodup p Wp) as Np.
    split; [|split; [lra|split; [|exact Np]]].
    - assert (lsum (fun k => (1 - toR alpha) / 2 * (toR eps * ldeg lg k)) (vkeys p) <= lsum (rv r) (vkeys p)) as L1 by (now apply lsum_le).
      assert (lsum (rv r) (vkeys p) <= vmass r) as L2.
      { rewrite (vmass_keys r Wr).
        (* keys of p with positive residual are keys of r; others contribute 0 *)
        assert (lsum (rv r) (vkeys p) = lsum (rv r) (filter (fun k => nmem k (vkeys r)) (vkeys p))) as ->.
        { clear -H. induction (vkeys p) as [|k l IH]; auto. cbn [lsum filter]. destruct (nmem k (vkeys r)) eqn:N; cbn [lsum]; rewrite IH; auto.
          unfold rv at 1. rewrite vget_keys by (now apply nmem_false). rewrite toR_0. lra. }
        apply lsum_incl; [now apply NoDup_filter| |intros; apply (pp_r _ _ _ _ _ Hpp)].
        intros x Hx. apply filter_In in Hx. now apply nmem_In. }
      unfold lvol. rewrite lsum_scal, lsum_scal in L1. lra.
    - intros k Hk. split; [now apply (ai_p _ _ _ _ _ _ _ Hstr)|].
      eapply (apr_p_deg lg w fuel s alpha eps p r); eauto.
  Qed.

  (** The cluster returned by local_cluster_acl: distinct vertices of positive degree, total volume at most 2 / ((1 - locality) error). *)
  Lemma acl_volume fuel seed locality error p r l : lg_has lg seed ->
    approximate_pagerank fuel lg (vset (sp_empty (S seed) 1) seed w1) locality error = Some (Ok (p, r)) ->
    local_cluster_acl fuel lg (Z.of_nat seed) locality error = Some (Ok l) ->
    NoDup l /\ (forall v, In v l -> In v (vkeys p)) /\
    (1 - toR locality) * toR error * lvol lg l <= 2.
  Proof.
    intros Hh E El.
    destruct (seed_wf seed (w1 : W)) as [Hsw Hsk].
    assert (forall k, rv (vset (sp_empty (S seed) 1) seed (w1 : W)) k = if (k =? seed)%nat then 1 else 0) as Hrv.
    { intros k. rewrite rv_vset by (split; [apply sp_empty_ncols|apply sp_empty_wf]). rewrite rv_empty, toR_1. reflexivity. }
    destruct (touched_volume fuel _ p r locality error Hsw) as (V & Mr & Kp & Np); auto.
    { intros k. rewrite Hrv. destruct (k =? seed)%nat; lra. }
    destruct (local_cluster_acl_spec lg w fuel seed locality error p r Hs no_loop Hh E) as (order & k & Pm & _ & El2 & _).
    rewrite El in El2. injection El2 as ->.
    assert (forall v, In v (firstn k order) -> In v (vkeys p)) as In1.
    { intros v Hv. eapply Permutation_in; [apply Permutation_sym; exact Pm|]. rewrite <- (firstn_skipn k order). apply in_app_iff. now left. }
    assert (NoDup order) as No by (eapply Permutation_NoDup; eauto).
    assert (NoDup (firstn k order)) as Nf.
    { rewrite <- (firstn_skipn k order) in No. clear -No. induction (firstn k order) as [|x m IH]; [constructor|].
      cbn in No. inversion No as [|? ? N1 N2]; subst. constructor; auto. intros I. apply N1. apply in_app_iff. now left. }
    split; auto. split; auto.
    assert (vmass (vset (sp_empty (S seed) 1) seed (w1 : W)) = 1) as M1.
    { rewrite (vmass_keys _ Hsw). transitivity (lsum (fun k => if (k =? seed)%nat then 1 else 0) (vkeys (vset (sp_empty (S seed) 1) seed (w1 : W)))).
      - apply lsum_ext. intros x _. apply Hrv.
      - rewrite (lsum_delta_list (fun _ => 1)) by (now apply vkeys_nodup).
        assert (nmem seed (vkeys (vset (sp_empty (S seed) 1) seed (w1 : W))) = true) as ->; auto.
        apply nmem_In. apply vkeys_vset; [split; [apply sp_empty_ncols|apply sp_empty_wf]|]. now left. }
    destruct (apr_return lg _ _ _ _ _ _ E) as (_ & _ & E1 & E2 & E3 & _).
    pose proof (alpha_range locality E1 E2) as Ha.
    assert (0 <= toR error) as He.
    { destruct (Rle_lt_dec 0 (toR error)) as [?|L]; auto. exfalso. enough (wleb error w0 = true) by congruence. apply toR_leb. rewrite toR_0. lra. }
    assert (lvol lg (firstn k order) <= lvol lg (vkeys p)) as Lv.
    { unfold lvol. apply lsum_incl; auto. intros x Hx. left. now apply Kp. }
    assert (0 <= (1 - toR locality) * toR error) by (apply Rmult_le_pos; lra).
    assert ((1 - toR locality) * toR error * lvol lg (firstn k order) <= (1 - toR locality) * toR error * lvol lg (vkeys p)) by (now apply Rmult_le_compat_l).
    lra.
  Qed.

  (** local_cluster: volume at most 2 target / (1 - 0.01). *)
  Lemma local_cluster_volume c001 fuel seed target l : lg_has lg seed ->
    local_cluster c001 fuel lg (Z.of_nat seed) target = Some (Ok l) ->
    0 < toR target /\ NoDup l /\ (1 - toR c001) * lvol lg l <= 2 * toR target.
  Proof.
    intros Hh. unfold local_cluster. destruct (wleb target w0) eqn:Et; [discriminate|].
    assert (0 < toR target) as Ht.
    { destruct (Rlt_le_dec 0 (toR target)) as [?|L]; auto. exfalso. enough (wleb target w0 = true) by congruence. apply toR_leb. rewrite toR_0. lra. }
    intros E. split; auto.
    destruct (approximate_pagerank fuel lg (vset (sp_empty (S seed) 1) seed w1) c001 (wdiv w1 target)) as [[[p r]|e|]|] eqn:Ep.
    - destruct (acl_volume _ _ _ _ _ _ _ Hh Ep E) as (N & _ & V). split; auto.
      rewrite toR_div, toR_1 in V by lra.
      assert ((1 - toR c001) * (1 / toR target) * lvol lg l * toR target <= 2 * toR target) as V' by (apply Rmult_le_compat_r; lra).
      replace ((1 - toR c001) * (1 / toR target) * lvol lg l * toR target) with ((1 - toR c001) * lvol lg l) in V' by (field; lra). exact V'.
    - exfalso. unfold local_cluster_acl in E. rewrite Nat2Z.id, Ep in E.
      destruct (negb _), (wltb c001 w0 || wltb w1 c001), (wleb (wdiv w1 target) w0), (Z.of_nat seed <? 0)%Z; discriminate.
    - exfalso. unfold local_cluster_acl in E. rewrite Nat2Z.id, Ep in E.
      destruct (negb _), (wltb c001 w0 || wltb w1 c001), (wleb (wdiv w1 target) w0), (Z.of_nat seed <? 0)%Z; discriminate.
    - exfalso. unfold local_cluster_acl in E. rewrite Nat2Z.id, Ep in E.
      destruct (negb _), (wltb c001 w0 || wltb w1 c001), (wleb (wdiv w1 target) w0), (Z.of_nat seed <? 0)%Z; discriminate.
  Qed.

  (** local_cluster is the best sweep prefix of the approximate PageRank vector of the seed with teleport 0.01 and error 1/target. *)
  Lemma local_cluster_spec c001 fuel seed target l : lg_has lg seed ->
    local_cluster c001 fuel lg (Z.of_nat seed) target = Some (Ok l) ->
    exists error p r order k, toR error * toR target = 1 /\
      approximate_pagerank fuel lg (vset (sp_empty (S seed) 1) seed w1) c001 error = Some (Ok (p, r)) /\
      Permutation (vkeys p) order /\
      StronglySorted (fun i j => rv p j / ldeg lg j < rv p i / ldeg lg i \/
                        (rv p j / ldeg lg j = rv p i / ldeg lg i /\ (i < j)%nat)) order /\
      l = firstn k order /\ (k <= length order)%nat /\ (order <> [] -> (1 <= k)%nat) /\
      forall j, (1 <= j <= length order)%nat ->
        lcut lg w l / lvol lg l <= lcut lg w (firstn j order) / lvol lg (firstn j order).
  Proof.
    intros Hh. unfold local_cluster. destruct (wleb target w0) eqn:Et; [discriminate|].
    assert (0 < toR target) as Ht.
    { destruct (Rlt_le_dec 0 (toR target)) as [?|L]; auto. exfalso. enough (wleb target w0 = true) by congruence. apply toR_leb. rewrite toR_0. lra. }
    intros E.
    destruct (approximate_pagerank fuel lg (vset (sp_empty (S seed) 1) seed w1) c001 (wdiv w1 target)) as [[[p r]|e|]|] eqn:Ep.
    2-4: exfalso; unfold local_cluster_acl in E; rewrite Nat2Z.id, Ep in E;
      destruct (negb _), (wltb c001 w0 || wltb w1 c001), (wleb (wdiv w1 target) w0), (Z.of_nat seed <? 0)%Z; discriminate.
    destruct (local_cluster_acl_spec lg w fuel seed c001 (wdiv w1 target) p r Hs no_loop Hh Ep) as (order & k & Pm & Ss & El & K1 & K2 & B).
    rewrite E in El. injection El as ->.
    exists (wdiv w1 target), p, r, order, k. split.
    - rewrite toR_div, toR_1 by lra. field. lra.
    - repeat (split; auto).
  Qed.
End Vol.

Lemma local_cluster_bad_target {W : Type} `{ExactNum W} c001 fuel (lg : lgraph W) seed target : toR target <= 0 ->
  local_cluster c001 fuel lg seed target = Some (Throw InvalidArgument).
Proof. intros L. unfold local_cluster. assert (wleb target w0 = true) as ->; auto. apply toR_leb. rewrite toR_0. exact L. Qed.
