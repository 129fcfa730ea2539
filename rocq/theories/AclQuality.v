(** Quality of the ACL local clustering algorithm (C76). *)
From Verif Require Import Base Num RSum Sparse SparseFacts Graph GraphSpec GraphFacts GraphProps1 GraphProps2 Cluster ClusterCC ClusterSpec ClusterPR ClusterPR2
  ClusterSweep ClusterInst Ppr ClusterTop ClusterVol Mixing.
From Coq Require Import Reals Lra Lia Sorting.Sorted Permutation List Psatz.
Import ListNotations.
Local Open Scope R_scope.

Lemma sub_sum (f : nat -> R) l m : NoDup l -> NoDup m -> (forall u, In u l -> ~ In u m -> f u = 0) -> (forall u, In u m -> 0 <= f u) -> lsum f l <= lsum f m.
Proof.
  intros Hl Hm Hf H0. apply Rle_trans with (lsum (fun u => if nmem u m then f u else 0) l).
  - right. apply lsum_ext. intros u Hu. destruct (nmem u m) eqn:E; auto. apply nmem_false in E. now apply Hf.
  - rewrite lsum_inter by auto. apply lsum_le. intros u Hu. destruct (nmem u l); [lra|auto].
Qed.

Section Acl.
  Context {W : Type} `{ExactNum W}.
  Variable lg : lgraph W.
  Variable w : nat -> nat -> R.
  Hypothesis Hs : lg_spec lg w.
  Hypothesis no_loop : forall v, w v v = 0.

  Lemma w_support u v : lg_has lg u -> ~ In v (nb lg u) -> w u v = 0.
  Proof.
    intros Hu Hv. pose proof (ls_nonneg lg w Hs u v) as Hw0. destruct (Req_dec (w u v) 0) as [|Hne]; auto. exfalso. apply Hv. apply (ls_nb lg w Hs u v Hu). lra.
  Qed.
  Lemma ldeg_w u : lg_has lg u -> ldeg lg u = lsum (w u) (nb lg u).
  Proof. intros Hu. unfold ldeg. rewrite (ls_deg lg w Hs u Hu), no_loop. lra. Qed.
  Lemma row_sum u l : lg_has lg u -> NoDup l -> lsum (w u) l <= ldeg lg u.
  Proof.
    intros Hu Hl. rewrite ldeg_w by auto. apply sub_sum; auto; [now apply (ls_nodup lg w Hs)|intros v _; now apply w_support|intros v _; apply (ls_nonneg lg w Hs)].
  Qed.
  Lemma out_lcut S : NoDup S -> (forall u, In u S -> lg_has lg u) -> out (ldeg lg) w S = lcut lg w S.
  Proof.
    intros HS Hh. unfold out, lcut. apply lsum_ext. intros u Hu. specialize (Hh u Hu). rewrite ldeg_w by auto.
    rewrite (lsum_ext (fun v => w u v * notin S v) (fun v => w u v - (if nmem v S then w u v else 0))).
    - rewrite lsum_minus. f_equal. rewrite lsum_inter; auto; [|now apply (ls_nodup lg w Hs)].
      apply lsum_ext. intros v Hv. destruct (nmem v (nb lg u)) eqn:E; auto. apply nmem_false in E. now apply w_support.
    - intros v _. unfold notin. destruct (in_dec Nat.eq_dec v S) as [I|I]; [apply nmem_In in I|apply nmem_false in I]; rewrite I; lra.
  Qed.
  Lemma walk_keys (p : sprs W) v : vwf p -> walk lg w p v = lsum (fun u => rv p u * lazy_step lg w u v) (vkeys p).
  Proof.
    intros [_ Hw]. unfold walk, vsum, vkeys. rewrite lsum_map. apply lsum_ext. intros [k t] He. cbn [fst snd].
    unfold rv, vget, coeff, sp_get. now rewrite (In_col_get (sp_col p 0) k t (proj1 (sp_wf_col p 0 Hw)) He).
  Qed.
  Lemma seed_rv seed k : rv (vset (sp_empty (S seed) 1) seed (w1 : W)) k = if (k =? seed)%nat then 1 else 0.
  Proof. rewrite rv_vset by (split; [apply sp_empty_ncols|apply sp_empty_wf]). rewrite rv_empty, toR_1. reflexivity. Qed.
  Lemma seed_sum seed l : NoDup l -> lsum (rv (vset (sp_empty (S seed) 1) seed (w1 : W))) l <= 1.
  Proof.
    intros Hl. rewrite (lsum_ext _ (fun k => if (k =? seed)%nat then 1 else 0)) by (intros; apply seed_rv).
    rewrite (lsum_delta_list (fun _ => 1)) by auto. destruct (nmem seed l); lra.
  Qed.
  Lemma seed_mass seed : vmass (vset (sp_empty (S seed) 1) seed (w1 : W)) = 1.
  Proof.
    destruct (seed_wf seed (w1 : W)) as [Hw Hk]. rewrite (vmass_keys _ Hw), Hk. cbn [lsum]. rewrite seed_rv, Nat.eqb_refl. lra.
  Qed.

  (** Conductance of the returned cluster against the PageRank mass of any set. *)
  Lemma acl_mixing fuel seed locality error p r l delta : lg_has lg seed ->
    approximate_pagerank fuel lg (vset (sp_empty (S seed) 1) seed w1) locality error = Some (Ok (p, r)) ->
    local_cluster_acl fuel lg (Z.of_nat seed) locality error = Some (Ok l) ->
    0 < delta -> (forall k, lg_has lg k -> 0 < ldeg lg k -> delta <= ldeg lg k) -> l <> [] ->
    forall C t, NoDup C -> (forall u, In u C -> lg_has lg u) ->
    0 < lvol lg l /\ 0 <= lcut lg w l / lvol lg l <= 1 /\
    lsum (rv p) C <= 1 - (1 - toR locality) ^ t + (1 - toR locality) ^ t * (1 - (lcut lg w l / lvol lg l) * (lcut lg w l / lvol lg l) / 8) ^ t * sqrt (lvol lg C / delta).
  Proof.
    intros Hh E El Hdl Hmin Hne C t HC HCh. destruct (seed_wf seed (w1 : W)) as [Hsw Hsk].
    destruct (local_cluster_acl_spec lg w fuel seed locality error p r Hs no_loop Hh E) as (order & k & Pm & Ss & El2 & Hk & Hk1 & Hbest).
    rewrite El in El2. injection El2 as ->.
    assert (forall x, 0 <= rv (vset (sp_empty (S seed) 1) seed (w1 : W)) x) as Hs0 by (intros x; rewrite seed_rv; destruct (_ =? _)%nat; lra).
    destruct (touched_volume lg w Hs no_loop fuel _ p r locality error Hsw Hs0 E) as (_ & _ & Kp & Np).
    destruct (apr_post lg _ _ _ _ _ _ (ls_ok lg w Hs) Hsw E) as (Hp & Hrw & _ & _ & _).
    destruct (pagerank_result lg w Hs no_loop fuel _ locality error p r Hsw E) as (Hinv & Hmass & Hpos & _).
    destruct (Hpos Hs0) as [Pp Pr]. rewrite seed_mass in Hmass.
    destruct (apr_return lg _ _ _ _ _ _ E) as (_ & _ & E1 & E2 & _). pose proof (alpha_range locality E1 E2) as Ha.
    assert (NoDup order) as No by (eapply Permutation_NoDup; eauto).
    assert (forall u, In u order -> lg_has lg u /\ 0 < ldeg lg u) as Ho by (intros u Hu; apply Kp; eapply Permutation_in; [apply Permutation_sym; exact Pm|exact Hu]).
    assert (forall j, NoDup (firstn j order)) as Nf by (intros j; now apply firstn_nodup).
    assert (forall j u, In u (firstn j order) -> In u order) as If by (intros j u Hu; rewrite <- (firstn_skipn j order); apply in_app_iff; now left).
    assert (forall j, (1 <= j <= length order)%nat -> 0 < lvol lg (firstn j order)) as Vp.
    { intros j Hj. destruct order as [|v o]; [simpl in Hj; lia|]. destruct j as [|j]; [lia|]. cbn [firstn]. unfold lvol. cbn [lsum].
      assert (0 < ldeg lg v) by (apply Ho; now left). assert (0 <= lsum (ldeg lg) (firstn j o)); [|lra]. apply lsum_nonneg. intros u Hu. left. apply Ho. right.
      rewrite <- (firstn_skipn j o). apply in_app_iff. now left. }
    assert (order <> []) as Hon by (intros ->; apply Hne; now rewrite firstn_nil).
    assert (1 <= k <= length order)%nat as Hkk by (split; auto).
    pose proof (Vp k Hkk) as Vk. set (L := firstn k order) in *. set (phi := lcut lg w L / lvol lg L) in *.
    assert (0 <= phi <= 1) as Hphi.
    { unfold phi. split; [apply Rmult_le_pos; [apply (lcut_nonneg lg w Hs)|left; now apply Rinv_0_lt_compat]|].
      apply (Rmult_le_reg_r (lvol lg L)); auto. unfold Rdiv. rewrite Rmult_assoc, Rinv_l, Rmult_1_r, Rmult_1_l by lra. apply (lcut_le_lvol lg w Hs). intros u Hu. apply Ho. now apply (If k). }
    split; [exact Vk|]. split; [exact Hphi|].
    apply (mixing order (ldeg lg) (rv p) w (toR locality) delta phi No Hdl) with (s := rv (vset (sp_empty (S seed) 1) seed (w1 : W))); auto.
    - intros u Hu. apply Hmin; apply Ho; auto.
    - rewrite <- (lsum_perm _ _ _ Pm), <- (vmass_keys p Hp). assert (0 <= vmass r) by (rewrite (vmass_keys r Hrw); apply lsum_nonneg; auto). lra.
    - apply (ls_nonneg lg w Hs).
    - apply (ls_sym lg w Hs).
    - intros v Hv. apply row_sum; auto. now apply Ho.
    - clear - Ss. induction Ss as [|i o Ss IH Hf]; constructor; auto. rewrite Forall_forall in *. intros j Hj. specialize (Hf j Hj). lra.
    - intros j Hj. rewrite out_lcut by (auto; intros u Hu; apply Ho; now apply (If j)). specialize (Hbest j Hj). fold L phi in Hbest. specialize (Vp j Hj). fold (lvol lg (firstn j order)).
      apply (Rmult_le_compat_r (lvol lg (firstn j order))) in Hbest; [|lra]. unfold Rdiv in Hbest at 1. rewrite Rmult_assoc, Rinv_l in Hbest by lra. lra.
    - intros S HS. now apply seed_sum.
    - intros v Hv. specialize (Hinv v). rewrite (walk_keys p v Hp), (lsum_perm _ _ _ Pm) in Hinv. unfold lazy_step in Hinv. specialize (Pr v). assert (0 <= toR locality * rv r v) by (apply Rmult_le_pos; [apply Ha|exact Pr]). lra.
    - intros u Hu Hno. unfold rv. rewrite vget_keys; [apply toR_0|]. intros I. apply Hno. eapply Permutation_in; [exact Pm|exact I].
    - intros u Hu. apply (ldeg_nonneg lg w Hs no_loop). auto.
  Qed.
End Acl.

(** ** Good seeds of a set of small conductance *)
Lemma fin_choice {A} (P : nat -> A -> Prop) (a0 : A) n : (forall v, (v < n)%nat -> exists q, P v q) -> exists Q, forall v, (v < n)%nat -> P v (Q v).
Proof.
  induction n as [|n IH]; intros Hn; [exists (fun _ => a0); intros; lia|].
  destruct IH as [Q HQ]; [intros; apply Hn; lia|]. destruct (Hn n ltac:(lia)) as [q Hq]. exists (fun v => if Nat.eqb v n then q else Q v).
  intros v Hv. destruct (Nat.eqb_spec v n) as [->|]; auto. apply HQ. lia.
Qed.
Lemma notin_01 S v : 0 <= notin S v <= 1.
Proof. unfold notin. destruct (in_dec _ _ _); lra. Qed.
Lemma set_sum n C (f : nat -> R) : NoDup C -> (forall v, In v C -> (v < n)%nat) -> lsum f C = rsum n (fun v => f v * (1 - notin C v)).
Proof.
  intros HC Hn. unfold rsum. rewrite (lsum_ext (fun v => f v * (1 - notin C v)) (fun v => if nmem v C then f v else 0)).
  - rewrite lsum_inter by auto using seq_NoDup. apply lsum_ext. intros v Hv. destruct (nmem v (seq 0 n)) eqn:E; auto. apply nmem_false in E. exfalso. apply E, in_seq. specialize (Hn v Hv). lia.
  - intros v _. unfold notin. destruct (in_dec Nat.eq_dec v C) as [I|I]; [apply nmem_In in I|apply nmem_false in I]; rewrite I; lra.
Qed.

Section Seeds.
  Context {W : Type} `{ExactNum W}.
  Variable g : graph W.
  Hypothesis Hr : reachable_pos g.
  Hypothesis no_loop : forall v, rw g v v = 0.
  Notation n := (number_of_vertices g).
  Variable alpha : R.
  Hypothesis Ha : 0 < alpha <= 1.
  Variable C : list nat.
  Hypothesis HC : NoDup C.
  Hypothesis HCn : forall v, In v C -> (v < n)%nat.
  Hypothesis Hvol : 0 < gvol g C.
  Let Hr' := reachable_pos_reachable g Hr.
  Let M0 := fun u v => glazy_nonneg g u v Hr.
  Let M1 := fun u Hu => glazy_sub g u Hr Hu (no_loop u).
  (** Mass outside the set. *)
  Definition outside (q : nat -> R) : R := rsum n (fun v => q v * notin C v).

  Lemma rdeg_sum v : (v < n)%nat -> rdeg g v = rsum n (rw g v).
  Proof. intros _. unfold rdeg. rewrite no_loop, Rplus_0_r. reflexivity. Qed.
  Lemma deg_flow u v : rdeg g u * glazy g u v = (if (u =? v)%nat then rdeg g u / 2 else 0) + rw g u v / 2.
  Proof.
    unfold glazy. destruct (Req_dec (rdeg g u) 0) as [E|E].
    - rewrite E, (rdeg_zero g u v Hr E). destruct (u =? v)%nat; lra.
    - destruct (u =? v)%nat; field; auto.
  Qed.
  Lemma stationary v : (v < n)%nat -> rsum n (fun u => rdeg g u * glazy g u v) = rdeg g v.
  Proof.
    intros Hv. rewrite (rsum_ext n _ (fun u => (if (u =? v)%nat then rdeg g u / 2 else 0) + / 2 * rw g u v)) by (intros; rewrite deg_flow; lra).
    rewrite rsum_plus, rsum_scal, (rsum_delta n v (fun u => rdeg g u / 2)) by auto.
    rewrite (rsum_ext n (fun u => rw g u v) (rw g v)) by (intros; now apply rw_sym). rewrite <- rdeg_sum by auto. lra.
  Qed.
  Definition psi (u : nat) : R := rdeg g u / gvol g C * (1 - notin C u).
  Lemma psi_below Q : is_ppr n (glazy g) alpha psi Q -> forall v, (v < n)%nat -> Q v <= rdeg g v / gvol g C.
  Proof.
    intros HQ. apply (ppr_below n (glazy g) alpha M0 M1 Ha psi Q (fun v => rdeg g v / gvol g C) HQ). intros v Hv.
    rewrite (rsum_ext n _ (fun u => / gvol g C * (rdeg g u * glazy g u v))) by (intros; unfold Rdiv; ring). rewrite rsum_scal, stationary by auto.
    assert (psi v <= rdeg g v / gvol g C) as Hp.
    { unfold psi. assert (0 <= rdeg g v / gvol g C) by (apply Rmult_le_pos; [now apply rdeg_nonneg|left; now apply Rinv_0_lt_compat]). pose proof (notin_01 C v). nra. }
    apply (Rmult_le_compat_l alpha) in Hp; [|lra]. unfold Rdiv in *. lra.
  Qed.
  (** PageRank started inside the set (in proportion to the degrees) leaves it with probability at most phi (1 - alpha) / (2 alpha). *)
  Lemma psi_escape Q : is_ppr n (glazy g) alpha psi Q -> alpha * outside Q <= (1 - alpha) * (gcut g C / (2 * gvol g C)).
  Proof.
    intros HQ. pose proof (psi_below Q HQ) as HB.
    assert (forall v, (v < n)%nat -> 0 <= Q v) as HQ0.
    { apply (ppr_nonneg n (glazy g) alpha M0 M1 Ha psi Q); auto. intros u Hu. unfold psi. apply Rmult_le_pos; [|pose proof (notin_01 C u); lra].
      apply Rmult_le_pos; [now apply rdeg_nonneg|left; now apply Rinv_0_lt_compat]. }
    assert (outside Q = (1 - alpha) * rsum n (fun u => Q u * rsum n (fun v => glazy g u v * notin C v))) as E.
    { unfold outside. rewrite (rsum_ext n _ (fun v => (1 - alpha) * rsum n (fun u => Q u * glazy g u v * notin C v))).
      - rewrite rsum_scal, rsum_swap. f_equal. apply rsum_ext. intros u Hu. rewrite <- rsum_scal. apply rsum_ext. intros; ring.
      - intros v Hv. rewrite (HQ v Hv). unfold psi. assert ((1 - notin C v) * notin C v = 0) as E0 by (unfold notin; destruct (in_dec _ _ _); lra).
        rewrite rsum_scal_r. replace ((alpha * (rdeg g v / gvol g C * (1 - notin C v)) + (1 - alpha) * rsum n (fun u => Q u * glazy g u v)) * notin C v)
          with (alpha * (rdeg g v / gvol g C) * ((1 - notin C v) * notin C v) + (1 - alpha) * (rsum n (fun u => Q u * glazy g u v) * notin C v)) by ring. rewrite E0. ring. }
    assert (rsum n (fun u => Q u * rsum n (fun v => glazy g u v * notin C v)) <= outside Q + gcut g C / (2 * gvol g C)) as Hb.
    { assert (gcut g C / (2 * gvol g C) = rsum n (fun u => (rsum n (fun v => rw g u v * notin C v)) / (2 * gvol g C) * (1 - notin C u))) as ->.
      { unfold gcut. rewrite (set_sum n C) by auto. unfold Rdiv. rewrite <- rsum_scal_r. apply rsum_ext. intros; ring. }
      unfold outside. rewrite <- rsum_plus. apply rsum_le. intros u Hu. unfold notin at 2 4. destruct (in_dec Nat.eq_dec u C) as [I|I].
      - replace (Q u * 0 + rsum n (fun v => rw g u v * notin C v) / (2 * gvol g C) * (1 - 0)) with (rsum n (fun v => rw g u v * notin C v) / (2 * gvol g C)) by ring.
        apply Rle_trans with (rdeg g u / gvol g C * rsum n (fun v => glazy g u v * notin C v)).
        + apply Rmult_le_compat_r; [|auto]. apply rsum_nonneg. intros v Hv. apply Rmult_le_pos; [apply M0|apply notin_01].
        + right. replace (rdeg g u / gvol g C * rsum n (fun v => glazy g u v * notin C v)) with (/ gvol g C * rsum n (fun v => rdeg g u * (glazy g u v * notin C v))) by (rewrite rsum_scal; field; lra).
          rewrite (rsum_ext n (fun v => rdeg g u * (glazy g u v * notin C v)) (fun v => / 2 * (rw g u v * notin C v))); [rewrite rsum_scal; field; lra|].
          intros v Hv. replace (rdeg g u * (glazy g u v * notin C v)) with (rdeg g u * glazy g u v * notin C v) by ring. rewrite deg_flow.
          destruct (Nat.eqb_spec u v) as [->|]; [|lra]. unfold notin. destruct (in_dec Nat.eq_dec v C); [lra|tauto].
      - replace (Q u * 1 + rsum n (fun v => rw g u v * notin C v) / (2 * gvol g C) * (1 - 1)) with (Q u * 1) by ring. apply Rmult_le_compat_l; [auto|].
        eapply Rle_trans; [|apply (M1 u Hu)]. apply rsum_le. intros v Hv. pose proof (M0 u v). pose proof (notin_01 C v). nra. }
    apply (Rmult_le_compat_l (1 - alpha)) in Hb; [|lra]. lra.
  Qed.

  Definition unit_at (v u : nat) : R := if (u =? v)%nat then 1 else 0.
  (** At least half of the set, by volume, are good seeds. *)
  Lemma good_seeds : exists G, NoDup G /\ incl G C /\ gvol g C <= 2 * gvol g G /\
    forall v, In v G -> 0 < rdeg g v /\ forall q, is_ppr n (glazy g) alpha (unit_at v) q -> alpha * outside q <= gcut g C / gvol g C.
  Proof.
    destruct (fin_choice (fun v q => is_ppr n (glazy g) alpha (unit_at v) q) (fun _ => 0) n) as [Qv HQv].
    { intros v Hv. now apply graph_ppr_exists. }
    set (phi := gcut g C / gvol g C).
    assert (0 <= gcut g C) as Hcut.
    { unfold gcut. apply lsum_nonneg. intros u _. apply rsum_nonneg. intros v _. apply Rmult_le_pos; [now apply rw_nonneg|apply notin_01]. }
    assert (0 <= phi) as Hphi by (apply Rmult_le_pos; [exact Hcut|left; now apply Rinv_0_lt_compat]).
    set (Q := fun u => rsum n (fun v => psi v * Qv v u)).
    assert (is_ppr n (glazy g) alpha psi Q) as HQ.
    { intros u Hu. unfold Q at 1. rewrite (rsum_ext n _ (fun v => alpha * (psi v * unit_at v u) + (1 - alpha) * (psi v * rsum n (fun x => Qv v x * glazy g x u)))).
      - rewrite rsum_plus, !rsum_scal. f_equal; [f_equal|f_equal].
        + unfold unit_at. rewrite (rsum_ext n _ (fun v => if (u =? v)%nat then psi v else 0)) by (intros v _; destruct (u =? v)%nat; lra). now apply rsum_delta'.
        + unfold Q. rewrite (rsum_ext n (fun v => psi v * rsum n (fun x => Qv v x * glazy g x u)) (fun v => rsum n (fun x => psi v * (Qv v x * glazy g x u)))) by (intros; now rewrite rsum_scal).
          rewrite rsum_swap. apply rsum_ext. intros x Hx. rewrite <- rsum_scal_r. apply rsum_ext. intros; ring.
      - intros v Hv. rewrite (HQv v Hv u Hu). ring. }
    pose proof (psi_escape Q HQ) as He.
    assert (outside Q = rsum n (fun v => psi v * outside (Qv v))) as EQ.
    { unfold outside, Q. rewrite (rsum_ext n (fun v => psi v * rsum n (fun u => Qv v u * notin C u)) (fun v => rsum n (fun u => psi v * Qv v u * notin C u))).
      - rewrite rsum_swap. apply rsum_ext. intros u Hu. now rewrite rsum_scal_r.
      - intros v Hv. rewrite <- rsum_scal. apply rsum_ext. intros; ring. }
    assert (rsum n (fun v => psi v * outside (Qv v)) = / gvol g C * lsum (fun v => rdeg g v * outside (Qv v)) C) as EC.
    { rewrite (set_sum n C) by auto. rewrite <- rsum_scal. apply rsum_ext. intros v Hv. unfold psi. field. lra. }
    rewrite EQ, EC in He.
    assert (forall v, (v < n)%nat -> 0 <= outside (Qv v)) as Ho.
    { intros v Hv. apply rsum_nonneg. intros u Hu. apply Rmult_le_pos; [|apply notin_01]. apply (ppr_nonneg n (glazy g) alpha M0 M1 Ha (unit_at v)); auto.
      intros x _. unfold unit_at. destruct (x =? v)%nat; lra. }
    set (good := fun v => if Rle_dec (alpha * outside (Qv v)) phi then (if Rlt_dec 0 (rdeg g v) then true else false) else false).
    exists (filter good C). split; [now apply NoDup_filter|]. split; [intros x Hx; now apply filter_In in Hx|]. split.
    - assert (forall l : list nat, incl l C -> gvol g l = gvol g (filter good l) + gvol g (filter (fun v => negb (good v)) l)) as Esplit.
      { induction l as [|v l IH]; intros Hl; [cbn; lra|]. unfold gvol in *. cbn [filter lsum]. rewrite IH by (intros x Hx; apply Hl; now right). destruct (good v); cbn [negb lsum]; lra. }
      specialize (Esplit C (incl_refl C)).
      set (B := filter (fun v => negb (good v)) C) in *.
      assert (forall v, In v B -> phi * rdeg g v <= alpha * (rdeg g v * outside (Qv v)) /\ (phi = 0 -> 0 < rdeg g v -> 0 < rdeg g v * outside (Qv v))) as HBad.
      { intros v Hv. apply filter_In in Hv. destruct Hv as [Hv Hg]. pose proof (rdeg_nonneg g v Hr) as Hd. unfold good in Hg.
        destruct (Rle_dec (alpha * outside (Qv v)) phi) as [L|L].
        - destruct (Rlt_dec 0 (rdeg g v)); [discriminate|]. assert (rdeg g v = 0) as E0 by lra. rewrite E0. split; lra.
        - split.
          + apply Rnot_le_lt in L. assert (phi * rdeg g v <= alpha * outside (Qv v) * rdeg g v) by (apply Rmult_le_compat_r; lra). lra.
          + intros E0 Hdp. apply Rmult_lt_0_compat; auto. apply Rnot_le_lt in L. rewrite E0 in L. apply (Rmult_lt_reg_l alpha); lra. }
      assert (lsum (fun v => rdeg g v * outside (Qv v)) B <= lsum (fun v => rdeg g v * outside (Qv v)) C) as HBC.
      { apply sub_sum; auto; [now apply NoDup_filter| |].
        - intros u Hu Hn. exfalso. apply Hn. now apply filter_In in Hu.
        - intros u Hu. apply Rmult_le_pos; [now apply rdeg_nonneg|auto]. }
      assert (alpha * lsum (fun v => rdeg g v * outside (Qv v)) C <= (1 - alpha) * (gcut g C / 2)) as He2.
      { apply (Rmult_le_compat_r (gvol g C)) in He; [|lra]. replace (alpha * (/ gvol g C * lsum (fun v => rdeg g v * outside (Qv v)) C) * gvol g C) with (alpha * lsum (fun v => rdeg g v * outside (Qv v)) C) in He by (field; lra).
        replace ((1 - alpha) * (gcut g C / (2 * gvol g C)) * gvol g C) with ((1 - alpha) * (gcut g C / 2)) in He by (field; lra). exact He. }
      assert (phi * gvol g B <= (1 - alpha) * (gcut g C / 2)) as Hphib.
      { unfold gvol. rewrite <- lsum_scal. apply Rle_trans with (lsum (fun v => alpha * (rdeg g v * outside (Qv v))) B); [apply lsum_le; intros v Hv; now apply HBad|].
        rewrite lsum_scal. apply Rle_trans with (alpha * lsum (fun v => rdeg g v * outside (Qv v)) C); [apply Rmult_le_compat_l; lra|exact He2]. }
      assert (gcut g C = phi * gvol g C) as Ephi by (unfold phi; field; lra).
      assert (2 * gvol g B <= gvol g C); [|lra].
      destruct (Req_dec phi 0) as [E0|E0].
      + assert (gvol g B = 0) as ->; [|lra]. unfold gvol. apply lsum_0. intros v Hv. pose proof (rdeg_nonneg g v Hr). destruct (Req_dec (rdeg g v) 0) as [|Hne]; auto. exfalso.
        destruct (HBad v Hv) as [_ Hpos]. specialize (Hpos E0 ltac:(lra)).
        assert (rdeg g v * outside (Qv v) <= lsum (fun v => rdeg g v * outside (Qv v)) B) as Hle.
        { apply (lsum_ge_elt (fun v => rdeg g v * outside (Qv v))); auto. intros u Hu. apply filter_In in Hu. apply Rmult_le_pos; [now apply rdeg_nonneg|apply Ho, HCn, Hu]. }
        rewrite Ephi, E0 in He2. assert (lsum (fun v => rdeg g v * outside (Qv v)) C <= 0); [|lra]. apply (Rmult_le_reg_l alpha); lra.
      + assert (0 < phi) by lra. apply (Rmult_le_reg_l phi); auto. rewrite Ephi in Hphib.
        assert (0 <= phi * gvol g C) by (apply Rmult_le_pos; lra). assert ((1 - alpha) * (phi * gvol g C / 2) <= 1 * (phi * gvol g C / 2)) by (apply Rmult_le_compat_r; lra). lra.
    - intros v Hv. apply filter_In in Hv. destruct Hv as [Hv Hg]. unfold good in Hg. destruct (Rle_dec (alpha * outside (Qv v)) phi) as [L|]; [|discriminate].
      destruct (Rlt_dec 0 (rdeg g v)) as [Hd|]; [|discriminate]. split; [exact Hd|]. intros q Hq.
      assert (outside q = outside (Qv v)) as ->; [|exact L]. apply rsum_ext. intros u Hu. f_equal.
      apply (ppr_unique n (glazy g) alpha M0 M1 Ha (unit_at v)); auto.
  Qed.
End Seeds.

Lemma pow_exp x t : 0 <= x <= 1 -> (1 - x) ^ t <= exp (- (INR t * x)).
Proof.
  intros Hx. induction t as [|t IH]; [cbn [pow]; rewrite Rmult_0_l, Ropp_0, exp_0; lra|].
  cbn [pow]. rewrite S_INR. replace (- ((INR t + 1) * x)) with (- x + - (INR t * x)) by ring. rewrite exp_plus.
  apply Rmult_le_compat; try lra; [apply pow_le; lra|]. pose proof (exp_ineq1_le (- x)). lra.
Qed.
Lemma bernoulli a t : 0 <= a <= 1 -> 1 - INR t * a <= (1 - a) ^ t.
Proof.
  intros Ha. induction t as [|t IH]; [cbn [pow INR]; lra|]. cbn [pow]. rewrite S_INR.
  destruct (Rle_dec (INR t * a) 1) as [L|L].
  - apply Rle_trans with ((1 - a) * (1 - INR t * a)); [|apply Rmult_le_compat_l; lra]. pose proof (pos_INR t). assert (0 <= INR t * a * a) by (apply Rmult_le_pos; [apply Rmult_le_pos|]; lra). lra.
  - apply Rle_trans with 0; [lra|]. apply Rmult_le_pos; [lra|]. apply pow_le. lra.
Qed.
(** From a bound on the escaping mass to a bound on the conductance. *)
Lemma solve_mixing a eta phi s2 t P : 0 < a -> 0 <= phi <= 1 -> 0 < s2 ->
  1 - eta <= P -> 2 * eta <= a -> P <= 1 - a + a * (1 - phi * phi / 8) ^ t * sqrt s2 ->
  INR t * (phi * phi) <= 4 * ln (4 * s2).
Proof.
  intros Ha Hphi Hs HP Heta Hm.
  assert (0 <= phi * phi <= 1) as Hp2 by (split; [apply Rmult_le_pos; lra|]; rewrite <- (Rmult_1_r 1); apply Rmult_le_compat; lra).
  pose proof (pow_exp (phi * phi / 8) t ltac:(lra)) as He.
  assert (0 <= (1 - phi * phi / 8) ^ t) as K0 by (apply pow_le; lra).
  pose proof (sqrt_pos s2) as Hsq.
  assert (1 / 2 <= (1 - phi * phi / 8) ^ t * sqrt s2) as H1.
  { apply (Rmult_le_reg_l a); [lra|]. lra. }
  assert (1 / 2 <= exp (- (INR t * (phi * phi / 8))) * sqrt s2) as H2.
  { apply Rle_trans with (1 := H1). apply Rmult_le_compat_r; lra. }
  set (E := exp (- (INR t * (phi * phi / 8)))) in *. assert (0 < E) as HE by apply exp_pos.
  assert (1 / 4 <= E * E * s2) as H3.
  { replace (E * E * s2) with ((E * sqrt s2) * (E * sqrt s2)) by (transitivity (E * E * (sqrt s2 * sqrt s2)); [ring|rewrite sqrt_sqrt by lra; ring]).
    replace (1 / 4) with (1 / 2 * (1 / 2)) by field. apply Rmult_le_compat; lra. }
  assert (E * E = exp (- (INR t * (phi * phi) / 4))) as EE by (unfold E; rewrite <- exp_plus; f_equal; field).
  rewrite EE in H3. set (x := INR t * (phi * phi) / 4) in *.
  assert (exp x <= 4 * s2) as H4.
  { assert (exp x * exp (- x) = 1) as Ex by (rewrite <- exp_plus, Rplus_opp_r; apply exp_0). pose proof (exp_pos x) as Hx.
    apply (Rmult_le_compat_l (4 * exp x)) in H3; [|lra]. replace (4 * exp x * (exp (- x) * s2)) with (exp x * exp (- x) * (4 * s2)) in H3 by ring. rewrite Ex in H3. lra. }
  assert (x <= ln (4 * s2)) as H5; [|unfold x in H5; lra].
  rewrite <- (ln_exp x). destruct H4 as [L|L]; [left; apply ln_increasing; [apply exp_pos|exact L]|right; now rewrite L].
Qed.

Section Quality.
  Context {W : Type} `{ExactNum W}.
  Variable g : graph W.
  Hypothesis Hr : reachable_pos g.
  Hypothesis no_loop : forall v, rw g v v = 0.
  Notation n := (number_of_vertices g).
  Let Hr' := reachable_pos_reachable g Hr.

  Lemma ppr_isolated alpha seed q v : 0 < alpha <= 1 -> is_ppr n (glazy g) alpha (unit_at seed) q -> 0 < rdeg g seed -> (v < n)%nat -> rdeg g v = 0 -> q v = 0.
  Proof.
    intros Ha Hq Hd Hv E. pose proof (Hq v Hv) as Hv'. unfold unit_at in Hv'. destruct (Nat.eqb_spec v seed) as [->|_]; [lra|].
    rewrite (rsum_ext n _ (fun u => if (u =? v)%nat then q u / 2 else 0)) in Hv'.
    - rewrite (rsum_delta n v (fun u => q u / 2)) in Hv' by auto. assert (q v * (1 + alpha) = 0) as Hz by lra. apply Rmult_integral in Hz. lra.
    - intros u Hu. unfold glazy. rewrite (rw_sym g u v) by auto. rewrite (rdeg_zero g v u Hr E). destruct (u =? v)%nat; unfold Rdiv; lra.
  Qed.
  Lemma ppr_total alpha seed q : 0 < alpha <= 1 -> is_ppr n (glazy g) alpha (unit_at seed) q -> 0 < rdeg g seed -> (seed < n)%nat -> rsum n q = 1.
  Proof.
    intros Ha Hq Hd Hs. assert (rsum n q = alpha + (1 - alpha) * rsum n q) as E; [|apply (Rmult_eq_reg_l alpha); lra].
    rewrite (rsum_ext n q (fun v => alpha * unit_at seed v + (1 - alpha) * rsum n (fun u => q u * glazy g u v))) at 1 by (intros; now apply Hq).
    rewrite rsum_plus, !rsum_scal. f_equal.
    - unfold unit_at. rewrite (rsum_delta n seed (fun _ => 1)) by auto. lra.
    - f_equal. rewrite rsum_swap. apply rsum_ext. intros u Hu. rewrite rsum_scal, glazy_row by auto.
      destruct (Req_EM_T (rdeg g u) 0) as [E0|E0]; [|lra]. rewrite (ppr_isolated alpha seed q u) by auto. lra.
  Qed.
  Lemma mass_in_set alpha seed q C : 0 < alpha <= 1 -> is_ppr n (glazy g) alpha (unit_at seed) q -> 0 < rdeg g seed -> (seed < n)%nat ->
    NoDup C -> (forall v, In v C -> (v < n)%nat) -> lsum q C = 1 - outside g C q.
  Proof.
    intros Ha Hq Hd Hs HC HCn. rewrite (set_sum n C) by auto. unfold outside. transitivity (rsum n q - rsum n (fun v => q v * notin C v)); [|now rewrite (ppr_total alpha seed q Ha Hq Hd Hs)].
    rewrite <- rsum_minus. apply rsum_ext. intros; ring.
  Qed.
  Lemma approx_mass fuel seed locality error p r q C : 0 < toR locality -> 0 < rdeg g seed -> (seed < n)%nat ->
    approximate_pagerank fuel (lg_of_graph g) (vset (sp_empty (S seed) 1) seed w1) locality error = Some (Ok (p, r)) ->
    is_ppr n (glazy g) (toR locality) (unit_at seed) q -> NoDup C -> (forall v, In v C -> (v < n)%nat) ->
    lsum q C <= lsum (rv p) C + toR error * gvol g C.
  Proof.
    intros Ha Hd Hs E Hq HC HCn. unfold gvol. rewrite <- lsum_scal, <- lsum_plus. apply lsum_le. intros v Hv.
    destruct (seed_wf seed (w1 : W)) as [Hsw Hsk].
    assert (forall k, 0 <= rv (vset (sp_empty (S seed) 1) seed (w1 : W)) k) as Hs0 by (intros x; rewrite seed_rv; destruct (_ =? _)%nat; lra).
    destruct (apr_return (lg_of_graph g) _ _ _ _ _ _ E) as (_ & _ & E1 & E2 & _). pose proof (alpha_range locality E1 E2) as Har.
    destruct (Req_dec (rdeg g v) 0) as [E0|E0].
    - rewrite E0, (ppr_isolated (toR locality) seed q v) by (auto; lra).
      destruct (pagerank_result _ _ (graph_lg_spec g Hr) no_loop fuel _ locality error p r Hsw E) as (_ & _ & Hpos & _). destruct (Hpos Hs0) as [Pp _]. specialize (Pp v). lra.
    - apply (graph_ppr_error g Hr no_loop fuel (vset (sp_empty (S seed) 1) seed w1) locality error p r q); auto.
      intros u Hu. rewrite (Hq u Hu). unfold unit_at. now rewrite seed_rv.
  Qed.

  Theorem acl_quality (C : list nat) (delta : R) (locality : W) : NoDup C -> (forall v, In v C -> (v < n)%nat) -> 0 < gvol g C ->
    0 < delta -> (forall v, (v < n)%nat -> 0 < rdeg g v -> delta <= rdeg g v) -> 0 < toR locality < 1 ->
    exists G, NoDup G /\ incl G C /\ gvol g C <= 2 * gvol g G /\
    forall seed, In seed G -> forall fuel error l,
      local_cluster_acl fuel (lg_of_graph g) (Z.of_nat seed) locality error = Some (Ok l) ->
      (1 - toR locality) * toR error * gvol g l <= 2 /\
      forall t, 2 * (gcut g C / gvol g C / toR locality + toR error * gvol g C) <= (1 - toR locality) ^ t ->
        l <> [] /\ NoDup l /\ (forall v, In v l -> (v < n)%nat) /\ 0 < gvol g l /\
        INR t * (gcut g l / gvol g l * (gcut g l / gvol g l)) <= 4 * ln (4 * (gvol g C / delta)).
  Proof.
    intros HC HCn Hvol Hdl Hmin Ha. assert (0 < toR locality <= 1) as Ha1 by lra.
    destruct (good_seeds g Hr no_loop (toR locality) Ha1 C HC HCn Hvol) as (G & NG & IG & VG & HG).
    exists G. split; [exact NG|]. split; [exact IG|]. split; [exact VG|]. intros seed Hseed fuel error l El.
    destruct (HG seed Hseed) as [Hd Hq]. pose proof (HCn seed (IG seed Hseed)) as Hsn.
    pose proof (graph_lg_spec g Hr) as Hs. assert (lg_has (lg_of_graph g) seed) as Hh by now apply graph_has.
    assert (exists p r, approximate_pagerank fuel (lg_of_graph g) (vset (sp_empty (S seed) 1) seed w1) locality error = Some (Ok (p, r))) as (p & r & E).
    { unfold local_cluster_acl in El. rewrite Nat2Z.id in El.
      destruct (negb _); [discriminate|]. destruct (wltb locality w0 || wltb w1 locality); [discriminate|]. destruct (wleb error w0); [discriminate|]. destruct (Z.of_nat seed <? 0)%Z; [discriminate|].
      destruct (approximate_pagerank _ _ _ _ _) as [[[p r]|e|]|] eqn:E; try discriminate. eauto. }
    destruct (acl_volume (lg_of_graph g) (rw g) Hs no_loop fuel seed locality error p r l Hh E El) as (Nl & Kl & Vl).
    destruct (seed_wf seed (w1 : W)) as [Hsw Hsk].
    destruct (graph_keys g Hr fuel _ locality error p r Hsw E) as (_ & _ & _ & Hkp & _).
    assert (forall v, In v l -> (v < n)%nat) as Hln by (intros v Hv; apply Hkp, Kl, Hv).
    split; [rewrite graph_lvol in Vl by auto; exact Vl|]. intros t Ht.
    destruct (graph_ppr_exists g Hr no_loop (toR locality) (unit_at seed) Ha1) as [q Hqq].
    specialize (Hq q Hqq).
    pose proof (approx_mass fuel seed locality error p r q C (proj1 Ha) Hd Hsn E Hqq HC HCn) as Hm.
    rewrite (mass_in_set (toR locality) seed q C Ha1 Hqq Hd Hsn HC HCn) in Hm.
    assert (outside g C q <= gcut g C / gvol g C / toR locality) as Ho.
    { apply (Rmult_le_reg_l (toR locality)); [lra|]. replace (toR locality * (gcut g C / gvol g C / toR locality)) with (gcut g C / gvol g C) by (field; lra). exact Hq. }
    set (eta := gcut g C / gvol g C / toR locality + toR error * gvol g C) in *.
    assert (1 - eta <= lsum (rv p) C) as HP by (unfold eta; lra).
    assert (0 < (1 - toR locality) ^ t <= 1) as Hpw.
    { split; [apply pow_lt; lra|]. clear - Ha. induction t as [|t IH]; cbn [pow]; [lra|]. rewrite <- (Rmult_1_r 1) at 3. apply Rmult_le_compat; try lra. apply pow_le. lra. }
    assert (l <> []) as Hne.
    { intros ->. destruct (local_cluster_acl_spec (lg_of_graph g) (rw g) fuel seed locality error p r Hs no_loop Hh E) as (order & k & Pm & _ & El2 & Hk & Hk1 & _).
      rewrite El in El2. injection El2 as El2. assert (order = []) as ->.
      { destruct order as [|o os]; auto. exfalso. specialize (Hk1 ltac:(discriminate)). destruct k; [lia|discriminate]. }
      assert (vkeys p = []) as Kp0 by (apply Permutation_sym, Permutation_nil in Pm; exact Pm).
      assert (lsum (rv p) C = 0); [|lra]. apply lsum_0. intros v _. unfold rv. rewrite vget_keys; [apply toR_0|]. rewrite Kp0. intros []. }
    destruct (acl_mixing (lg_of_graph g) (rw g) Hs no_loop fuel seed locality error p r l delta Hh E El Hdl) with (C := C) (t := t) as (Vp & Hphi & Hmix); auto.
    { intros k Hk Hdk. apply graph_has in Hk. rewrite graph_ldeg in * by auto. now apply Hmin. }
    { intros u Hu. apply graph_has. auto. }
    rewrite !graph_lvol, graph_lcut in * by auto.
    split; [exact Hne|]. split; [exact Nl|]. split; [exact Hln|]. split; [exact Vp|].
    apply (solve_mixing ((1 - toR locality) ^ t) eta _ (gvol g C / delta) t (lsum (rv p) C)); auto; [lra|].
    apply Rmult_lt_0_compat; [exact Hvol|now apply Rinv_0_lt_compat].
  Qed.

  (** Andersen, Chung and Lang: with a teleport probability matching the conductance of the target set, and a small enough error. *)
  Theorem acl_guarantee (C : list nat) (delta : R) (locality : W) : NoDup C -> (forall v, In v C -> (v < n)%nat) -> 0 < gvol g C ->
    0 < delta -> (forall v, (v < n)%nat -> 0 < rdeg g v -> delta <= rdeg g v) ->
    0 < toR locality <= 1 / 4 -> 8 * (gcut g C / gvol g C) <= toR locality ->
    exists G, NoDup G /\ incl G C /\ gvol g C <= 2 * gvol g G /\
    forall seed, In seed G -> forall fuel error l, 8 * toR error * gvol g C <= 1 ->
      local_cluster_acl fuel (lg_of_graph g) (Z.of_nat seed) locality error = Some (Ok l) ->
      l <> [] /\ NoDup l /\ (forall v, In v l -> (v < n)%nat) /\ 0 < gvol g l /\
      toR error * gvol g l <= 3 /\
      gcut g l / gvol g l * (gcut g l / gvol g l) <= 16 * toR locality * ln (4 * (gvol g C / delta)).
  Proof.
    intros HC HCn Hvol Hdl Hmin Ha Hphi.
    destruct (acl_quality C delta locality HC HCn Hvol Hdl Hmin ltac:(lra)) as (G & NG & IG & VG & HG).
    exists G. split; [exact NG|]. split; [exact IG|]. split; [exact VG|]. intros seed Hseed fuel error l He El.
    destruct (HG seed Hseed fuel error l El) as [Vl Hq].
    set (a := toR locality) in *. set (t := Z.to_nat (up (/ (2 * a)) - 1)).
    destruct (archimed (/ (2 * a))) as [A1 A2].
    assert (0 < / (2 * a)) as Hi by (apply Rinv_0_lt_compat; lra).
    assert (0 <= up (/ (2 * a)) - 1)%Z as Hz by (assert (0 < up (/ (2 * a)))%Z by (apply lt_IZR; lra); lia).
    assert (INR t = IZR (up (/ (2 * a))) - 1) as Et by (unfold t; rewrite INR_IZR_INZ, Z2Nat.id, minus_IZR by auto; lra).
    assert (/ (2 * a) * (2 * a) = 1) as Ei by (apply Rinv_l; lra).
    assert (INR t * a <= 1 / 2) as T1.
    { assert (INR t * (2 * a) <= / (2 * a) * (2 * a)) by (apply Rmult_le_compat_r; lra). lra. }
    assert (1 <= INR t * (4 * a)) as T2.
    { assert ((/ (2 * a) - 1) * (4 * a) <= INR t * (4 * a)) by (apply Rmult_le_compat_r; lra). lra. }
    destruct (Hq t) as (Hne & Nl & Hln & Hv & Hc).
    { pose proof (bernoulli a t ltac:(lra)). assert (gcut g C / gvol g C / a <= 1 / 8); [|lra].
      apply (Rmult_le_reg_r (8 * a)); [lra|]. replace (gcut g C / gvol g C / a * (8 * a)) with (8 * (gcut g C / gvol g C)) by (field; lra). lra. }
    split; [exact Hne|]. split; [exact Nl|]. split; [exact Hln|]. split; [exact Hv|].
    set (ph2 := gcut g l / gvol g l * (gcut g l / gvol g l)) in *.
    assert (0 <= ph2) as Hp by (unfold ph2; apply Rle_0_sqr). split.
    - assert (0 < toR error \/ toR error <= 0) as [He0|He0] by lra.
      + assert (0 <= toR error * gvol g l) by (apply Rmult_le_pos; lra). assert (3 / 4 * (toR error * gvol g l) <= (1 - a) * (toR error * gvol g l)) by (apply Rmult_le_compat_r; lra). lra.
      + assert (0 <= - toR error * gvol g l) by (apply Rmult_le_pos; lra). lra.
    - assert (1 * ph2 <= INR t * (4 * a) * ph2) as T3 by (apply Rmult_le_compat_r; auto).
      assert (INR t * ph2 * (4 * a) <= 4 * ln (4 * (gvol g C / delta)) * (4 * a)) as T4 by (apply Rmult_le_compat_r; lra). lra.
  Qed.

  (** local_cluster with a target volume of at least 8 vol(C), for a cluster C of conductance at most 1/1000. *)
  Theorem local_cluster_quality (C : list nat) (delta : R) (c001 : W) : toR c001 = 1 / 100 -> NoDup C -> (forall v, In v C -> (v < n)%nat) -> 0 < gvol g C ->
    0 < delta -> (forall v, (v < n)%nat -> 0 < rdeg g v -> delta <= rdeg g v) -> gcut g C / gvol g C <= 1 / 1000 ->
    exists G, NoDup G /\ incl G C /\ gvol g C <= 2 * gvol g G /\
    forall seed, In seed G -> forall fuel target l, 8 * gvol g C <= toR target ->
      local_cluster c001 fuel (lg_of_graph g) (Z.of_nat seed) target = Some (Ok l) ->
      l <> [] /\ NoDup l /\ (forall v, In v l -> (v < n)%nat) /\ 0 < gvol g l /\ gvol g l <= 21 / 10 * toR target /\
      gcut g l / gvol g l * (gcut g l / gvol g l) <= ln (4 * (gvol g C / delta)) / 17.
  Proof.
    intros Ec HC HCn Hvol Hdl Hmin Hphi.
    destruct (acl_quality C delta c001 HC HCn Hvol Hdl Hmin ltac:(lra)) as (G & NG & IG & VG & HG).
    exists G. split; [exact NG|]. split; [exact IG|]. split; [exact VG|]. intros seed Hseed fuel target l Ht El.
    unfold local_cluster in El. destruct (wleb target w0) eqn:Et; [discriminate|].
    assert (toR (wdiv w1 target) = 1 / toR target) as Ee by (rewrite toR_div, toR_1 by lra; reflexivity).
    destruct (HG seed Hseed fuel (wdiv w1 target) l El) as [Vl Hq].
    assert (toR (wdiv w1 target) * toR target = 1) as E1 by (rewrite Ee; field; lra).
    assert (0 < toR (wdiv w1 target)) as Hep by (rewrite Ee; apply Rmult_lt_0_compat; [lra|apply Rinv_0_lt_compat; lra]).
    set (e := toR (wdiv w1 target)) in *. rewrite Ec in *.
    destruct (Hq 68%nat) as (Hne & Nl & Hln & Hv & Hc).
    { assert (e * (8 * gvol g C) <= 1) by (rewrite <- E1; apply Rmult_le_compat_l; lra).
      assert (1 / 2 <= (1 - 1 / 100) ^ 68) as Hp; [|lra].
      replace (1 - 1 / 100) with (99 * / 100) by lra. rewrite Rpow_mult_distr, pow_inv. apply (Rmult_le_reg_r (100 ^ 68)); [apply pow_lt; lra|].
      rewrite Rmult_assoc, Rinv_l by (apply pow_nonzero; lra). rewrite Rmult_1_r. rewrite !pow_IZR. change (Z.of_nat 68) with 68%Z.
      assert (IZR (100 ^ 68) <= IZR (2 * 99 ^ 68)) as Hz by (apply IZR_le; vm_compute; discriminate). rewrite mult_IZR in Hz. lra. }
    split; [exact Hne|]. split; [exact Nl|]. split; [exact Hln|]. split; [exact Hv|]. split.
    - assert ((1 - 1 / 100) * e * gvol g l * toR target <= 2 * toR target) as V2 by (apply Rmult_le_compat_r; lra).
      replace ((1 - 1 / 100) * e * gvol g l * toR target) with ((1 - 1 / 100) * (e * toR target) * gvol g l) in V2 by ring. rewrite E1 in V2. lra.
    - change (INR 68) with (INR (Z.to_nat 68)) in Hc. rewrite INR_IZR_INZ, Z2Nat.id in Hc by lia. lra.
  Qed.
End Quality.
