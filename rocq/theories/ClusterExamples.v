(** Concrete objects and counterexamples for the clustering properties. *)
From Verif Require Import Base Num RSum Sparse SparseFacts Graph GraphSpec GraphFacts GraphProps1 GraphProps2 GraphProps4 GraphExamples
  Cluster ClusterCC ClusterSpec ClusterPR ClusterPR2 ClusterSweep ClusterInst Ppr ClusterTop.
From Coq Require Import QArith Qcanon Reals Lra Relations Sorting.Sorted.
Local Close Scope Q_scope. Local Close Scope Qc_scope. Local Open Scope nat_scope.

(** Two vertices are adjacent when the edge between them has a non-zero weight; they are
    connected when there is a path of such edges. *)
Section Connected.
  Context {W : Type} `{PosNum W}.
  Definition adjacent (g : graph W) (u v : nat) : Prop := weqb (weight g u v) w0 = false.
  Definition connected (g : graph W) : nat -> nat -> Prop := clos_refl_trans nat (adjacent g).
  Lemma adjacent_stored (g : graph W) u v : no_stored_zero g -> (stored_edge g u v <-> adjacent g u v).
  Proof.
    intros Hz. unfold stored_edge, adjacent, weight, coeff. destruct (sp_get (g_adj g) u v) as [x|] eqn:E.
    - split; [|congruence]. intros _. eapply Hz; eauto.
    - cbn [o0]. rewrite pn_00. split; congruence.
  Qed.
  Lemma connected_gpath (g : graph W) u v : no_stored_zero g -> (gpath g u v <-> connected g u v).
  Proof.
    intros Hz. split; intros Hp; (induction Hp as [x y Hxy|x|x y z _ IH1 _ IH2];
      [apply rt_step; now apply adjacent_stored|apply rt_refl|eapply rt_trans; eauto]).
  Qed.
End Connected.

(** One vertex with a self-loop of weight 1. *)
Definition exL_M : sprs Qc := mkSprs 1 [[(0, qc 1 1)]].
Definition exL : graph Qc := fresh_graph exL_M.
Lemma exL_wf : sp_wf exL_M.
Proof. apply sp_wfb_iff. reflexivity. Qed.
Lemma exL_ok : make_graph exL_M = Ok exL.
Proof. vm_compute. reflexivity. Qed.
Lemma exL_reachable : reachable_pos exL.
Proof. exists exL_M, exL, []. repeat split; auto. apply exL_wf. Qed.

(** Edge {0,1} of weight 1 and a self-loop of weight 1 at 0. *)
Definition exEL_M : sprs Qc := mkSprs 2 [[(0, qc 1 1); (1, qc 1 1)]; [(0, qc 1 1)]].
Definition exEL : graph Qc := fresh_graph exEL_M.
Lemma exEL_wf : sp_wf exEL_M.
Proof. apply sp_wfb_iff. reflexivity. Qed.
Lemma exEL_ok : make_graph exEL_M = Ok exEL.
Proof. vm_compute. reflexivity. Qed.
Lemma exEL_reachable : reachable_pos exEL.
Proof. exists exEL_M, exEL, []. repeat split; auto. apply exEL_wf. Qed.

Lemma toR_qc a b : toR (qc a b) = (IZR a / IZR (Z.pos b))%R.
Proof. change (QcR (Q2Qc (a # b)) = (IZR a / IZR (Z.pos b))%R). rewrite QcR_Q2Qc. reflexivity. Qed.
(** Unit vector of length [n] at position [u]. *)
Definition unit_vec (n u : nat) : sprs Qc := vset (sp_empty n 1) u (qc 1 1).
Lemma unit_vec_wf n u : u < n -> vwf (unit_vec n u).
Proof. intros Hu. apply vset_wf; [|simpl; lia]. split; [apply sp_empty_ncols|apply sp_empty_wf]. Qed.

Lemma exE_noloop v : rw exE v v = 0%R.
Proof.
  unfold rw. replace (weight exE v v) with (w0 : Qc); [apply toR_0|].
  unfold weight, coeff, exE, sp_get, sp_col. simpl. destruct v as [|[|[|v]]]; reflexivity.
Qed.
Lemma exE_deg v : v < 2 -> rdeg exE v = 1%R.
Proof.
  intros Hv. rewrite <- (graph_ldeg exE v (reachable_pos_reachable _ exE_reachable)) by exact Hv.
  unfold ldeg, dg. replace (lg_degree (lg_of_graph exE) (Z.of_nat v)) with (@Ok Qc (w1 : Qc)); [apply toR_1|].
  destruct v as [|[|v]]; [vm_compute; reflexivity|vm_compute; reflexivity|lia].
Qed.

(** Push with alpha = 0 never moves mass to p. *)
Lemma push_zero {W} `{ExactNum W} (lg : lgraph W) (p r : sprs W) alpha u p' r' :
  toR alpha = 0%R -> vwf p -> (forall k, rv p k = 0%R) -> push lg p r alpha u = Ok (p', r') -> forall k, rv p' k = 0%R.
Proof.
  intros Ha Hp Hz. unfold push. destruct (lg_degree lg (Z.of_nat u)) as [d| |]; cbn [obind]; try discriminate.
  destruct (lg_neighbors lg (Z.of_nat u)) as [es| |]; cbn [obind]; try discriminate. intros [= <- _] k.
  rewrite rv_vset by (apply (vgrow_spec p u Hp)).
  destruct (k =? u).
  - rewrite toR_add, toR_mul, Ha. change (toR (vget (vgrow p u) u)) with (rv (vgrow p u) u).
    rewrite rv_vgrow by auto. rewrite Hz. lra.
  - rewrite rv_vgrow by auto. apply Hz.
Qed.

Lemma state_zero {W} `{ExactNum W} (lg : lgraph W) alpha eps (s p r : sprs W) q mem :
  lg_ok lg -> vwf s -> toR alpha = 0%R -> apr_state lg alpha eps s p r q mem -> forall k, rv p k = 0%R.
Proof.
  intros Hlg Hv Ha Hst. induction Hst as [ds q mem Ed Ei|p r u q mem p' r' q' mem' Hst IH Es].
  - intros k. apply rv_empty.
  - assert (Hk : forall k, In k (vkeys s) -> lg_has lg k).
    { clear -Hst Hlg Hv. induction Hst; auto. intros k Hk. eapply (apr_keys_exist lg s); eauto. }
    pose proof (apr_state_inv lg (lg_has lg) alpha eps s p r (u :: q) mem Hlg (fun v h => h)
      (fun v u' Hv' Hu' => lo_closed lg Hlg v u' Hv' Hu') Hv Hk Hst) as Hi.
    destruct Hi as [[Hp _] _ _ _ _ _].
    unfold apr_step in Es. destruct (push lg p r alpha u) as [[p1 r1]| |] eqn:Ep; cbn [obind] in Es; try discriminate.
    pose proof (push_zero lg p r alpha u p1 r1 Ha Hp IH Ep) as Hz.
    destruct (lg_degree lg (Z.of_nat u)) as [d| |]; cbn [obind] in Es; try discriminate.
    destruct (if wleb (wmul eps d) (vget r1 u) then _ else _) as [q1 mem1].
    destruct (lg_nunw lg (Z.of_nat u)) as [ns| |]; cbn [obind] in Es; try discriminate.
    destruct (lg_degrees lg ns) as [ds| |]; cbn [obind] in Es; try discriminate.
    destruct (lg_neighbors lg (Z.of_nat u)) as [es| |]; cbn [obind] in Es; try discriminate.
    destruct (apr_scan eps r1 es ds q1 mem1) as [qm| |]; cbn [obind] in Es; try discriminate.
    injection Es as <- _ _ _. exact Hz.
Qed.
(** On valid input the loop either goes on or returns normally. *)
Lemma apr_safe {W} `{PosNum W} (lg : lgraph W) fuel (s : sprs W) alpha eps : lg_ok lg -> vwf s ->
  (forall k, In k (vkeys s) -> lg_has lg k) -> lg_exists lg (Z.of_nat (sp_rows s) - 1) = true ->
  wltb alpha w0 = false -> wltb w1 alpha = false -> wleb eps w0 = false ->
  approximate_pagerank fuel lg s alpha eps = None \/ exists p r, approximate_pagerank fuel lg s alpha eps = Some (Ok (p, r)).
Proof.
  intros Hlg Hv Hk He Ha1 Ha2 Hep. pose proof Hv as [Hc _]. unfold approximate_pagerank.
  rewrite Hc, He, Ha1, Ha2, Hep. cbn [negb orb Nat.ltb Nat.leb Nat.eqb].
  pose proof (lg_degrees_ok lg Hlg (inner_indices s)) as Ed. rewrite inner_vkeys' in Ed by auto. specialize (Ed Hk).
  rewrite inner_vkeys', Ed by auto.
  destruct (apr_init_spec lg eps s (vkeys s) [] []) as (q & mem & Ei & _); [tauto|]. rewrite Ei.
  apply (apr_loop_safe lg (lg_has lg) alpha eps Hlg (fun v h => h) (fun v u Hv' Hu => lo_closed lg Hlg v u Hv' Hu)).
  assert (Ek : inner_indices s = vkeys s) by now apply inner_vkeys'.
  eapply (apr_start lg Hlg (lg_has lg) eps s q mem (map (dg lg) (vkeys s))).
  - now split.
  - now rewrite Ek.
  - now rewrite Ek.
Qed.

Lemma rsum_2 f : rsum 2 f = (f 0%nat + f 1%nat)%R.
Proof. unfold rsum. simpl. lra. Qed.
Lemma exE_alpha_zero_diverges fuel :
  approximate_pagerank fuel (lg_of_graph exE) (unit_vec 2 0) (qc 0 1) (qc 1 10) = None.
Proof.
  assert (Hr : reachable_pos exE) by apply exE_reachable.
  pose proof (graph_lg_spec exE Hr) as Hs.
  assert (Hv : vwf (unit_vec 2 0)) by (apply unit_vec_wf; lia).
  destruct (apr_safe (lg_of_graph exE) fuel (unit_vec 2 0) (qc 0 1) (qc 1 10)) as [E|(p & r & E)]; auto.
  - apply (ls_ok _ _ Hs).
  - intros k [<-|[]]. apply graph_has. vm_compute. lia.
  - exfalso.
    destruct (apr_return _ _ _ _ _ _ _ E) as (_ & _ & _ & _ & _ & _ & mem & Hst).
    assert (Ha : toR (qc 0 1) = 0%R) by (rewrite toR_qc; lra).
    pose proof (state_zero _ _ _ _ _ _ _ _ (ls_ok _ _ Hs) Hv Ha Hst) as Hz.
    destruct (pagerank_result _ _ Hs exE_noloop fuel _ _ _ _ _ Hv E) as (_ & Hm & _ & Hlt).
    destruct (graph_keys exE Hr fuel (unit_vec 2 0) (qc 0 1) (qc 1 10) p r Hv E) as (Hp & Hrw & _ & Hkp & Hkr).
    unfold vmass in Hm.
    rewrite (vsum_rsum 2 (fun _ t => t) p Hp Hkp), (vsum_rsum 2 (fun _ t => t) r Hrw Hkr) in Hm by auto.
    rewrite (vsum_rsum 2 (fun _ t => t) (unit_vec 2 0) Hv) in Hm by (auto; intros k Hk; assert (E0 : vkeys (unit_vec 2 0) = [0]) by (vm_compute; reflexivity); rewrite E0 in Hk; destruct Hk as [<-|[]]; lia).
    rewrite !rsum_2, !Hz in Hm.
    assert (He : toR (qc 1 10) = (1 / 10)%R) by (rewrite toR_qc; lra).
    assert (H1 : rv (unit_vec 2 0) 0 = 1%R) by (change (toR (qc 1 1) = 1%R); rewrite toR_qc; lra).
    assert (H2 : rv (unit_vec 2 0) 1 = 0%R) by apply (toR_0 (W:=Qc)).
    assert (Hd : forall k, k < 2 -> (rv r k < 1 / 10)%R).
    { intros k Hk. specialize (Hlt k). rewrite graph_has in Hlt.
      rewrite (graph_ldeg exE k (reachable_pos_reachable _ Hr) Hk), (exE_deg k Hk), He in Hlt.
      assert (Hne : (1 <> 0)%R) by lra. specialize (Hlt Hk Hne). lra. }
    pose proof (Hd 0 ltac:(lia)). pose proof (Hd 1 ltac:(lia)). lra.
Qed.

(** An infinite local graph: the path 0 - 1 - 2 - ... with weights 1. *)
Definition inf_nb (v : nat) : list nat := match v with 0 => [1] | S k => [k; S (S k)] end.
Definition exInf : lgraph Qc :=
  mkLG (fun z => (0 <=? z)%Z)
       (fun z => if (z <? 0)%Z then Throw InvalidArgument else Ok (if (z =? 0)%Z then qc 1 1 else qc 2 1))
       (fun z => if (z <? 0)%Z then Throw InvalidArgument
                 else Ok (map (fun u => mkEdge (Z.to_nat z) u (qc 1 1)) (inf_nb (Z.to_nat z))))
       (fun z => if (z <? 0)%Z then Throw InvalidArgument else Ok (inf_nb (Z.to_nat z))).
Definition inf_w (u v : nat) : R := if (u =? S v) || (v =? S u) then 1%R else 0%R.
Lemma inf_nb_spec v u : In u (inf_nb v) <-> u = S v \/ v = S u.
Proof. destruct v as [|k]; simpl; lia. Qed.
Lemma inf_w_pos u v : (0 < inf_w u v)%R <-> u = S v \/ v = S u.
Proof.
  unfold inf_w. destruct (Nat.eqb_spec u (S v)), (Nat.eqb_spec v (S u)); simpl; split; intros; try lra; try lia; auto.
Qed.
Lemma inf_has v : lg_has exInf v.
Proof. unfold lg_has, exInf. cbn [lg_exists]. apply Z.leb_le. lia. Qed.
Lemma inf_sgn v : (Z.of_nat v <? 0)%Z = false.
Proof. apply Z.ltb_ge. lia. Qed.
Lemma inf_nbe v : nbe exInf v = map (fun u => mkEdge v u (qc 1 1)) (inf_nb v).
Proof. unfold nbe, exInf. cbn [lg_neighbors]. now rewrite inf_sgn, Nat2Z.id. Qed.
Lemma inf_nb_eq v : nb exInf v = inf_nb v.
Proof. unfold nb. rewrite inf_nbe, map_map. cbn [v2]. apply map_id. Qed.
Lemma inf_dg v : dg exInf v = if v =? 0 then qc 1 1 else qc 2 1.
Proof. unfold dg, exInf. cbn [lg_degree]. rewrite inf_sgn. destruct v; reflexivity. Qed.
Lemma exInf_spec : lg_spec exInf inf_w.
Proof.
  constructor.
  - constructor.
    + intros z Hz. unfold exInf in Hz. cbn [lg_exists] in Hz. now apply Z.leb_le.
    + intros v _. unfold nbe, exInf. cbn [lg_neighbors]. now rewrite inf_sgn.
    + intros v _. rewrite inf_nb_eq. unfold exInf. cbn [lg_nunw]. now rewrite inf_sgn, Nat2Z.id.
    + intros v _. unfold dg, exInf. cbn [lg_degree]. now rewrite inf_sgn.
    + intros v u _ _. apply inf_has.
    + intros v Hn. exfalso. apply Hn, inf_has.
  - intros u v. unfold inf_w. now rewrite orb_comm.
  - intros u v. unfold inf_w. destruct (_ || _); lra.
  - intros v _. rewrite inf_nb_eq. destruct v; simpl; repeat constructor; simpl; lia.
  - intros v u _. rewrite inf_nb_eq, inf_nb_spec, inf_w_pos. lia.
  - intros v e _. rewrite inf_nbe. intros He. apply in_map_iff in He. destruct He as (u & <- & Hu). cbn [ewt v2].
    apply inf_nb_spec in Hu. rewrite toR_qc. unfold inf_w.
    destruct (Nat.eqb_spec v (S u)), (Nat.eqb_spec u (S v)); cbn [orb]; try lra; lia.
  - intros v _. rewrite inf_dg, inf_nb_eq. unfold inf_w.
    replace (v =? S v) with false by (symmetry; apply Nat.eqb_neq; lia). cbn [orb].
    destruct v as [|k]; cbn [inf_nb Nat.eqb lsum fold_right]; rewrite toR_qc.
    + cbn. lra.
    + rewrite !Nat.eqb_refl, orb_true_r. cbn [orb]. replace (k =? S (S k)) with false by (symmetry; apply Nat.eqb_neq; lia). cbn [orb]. lra.
Qed.
Lemma exInf_noloop v : inf_w v v = 0%R.
Proof. unfold inf_w. replace (v =? S v) with false by (symmetry; apply Nat.eqb_neq; lia). reflexivity. Qed.
