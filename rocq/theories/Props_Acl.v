(** C76: quality of local clustering (stag_lib/cluster.cpp local_cluster, local_cluster_acl), the theorem of Andersen, Chung and Lang. *)
From Verif Require Import Base Num RSum Sparse SparseFacts Graph GraphSpec GraphFacts GraphProps1 GraphProps2 GraphProps4
  GraphExamples Cluster ClusterCC ClusterSpec ClusterPR ClusterPR2 ClusterSweep ClusterInst Ppr ClusterTop ClusterVol ClusterExamples Mixing AclQuality.
From Coq Require Import Reals Lra QArith Qcanon.
Local Close Scope Q_scope. Local Close Scope Qc_scope. Local Open Scope nat_scope.

(** ** C76.  C: the cluster to be found; delta: a lower bound of the positive degrees; G: the good seeds, at least half of C by volume.
    For every number t of lazy steps during which the walk stays in C with probability at least 1/2. *)
Theorem C76_conductance_guarantee :
  forall (W : Type) `{ExactNum W} (g : graph W), reachable_pos g -> (forall v, rw g v v = 0%R) ->
  forall (C : list nat) (delta : R) (locality : W), NoDup C -> (forall v, In v C -> v < number_of_vertices g) -> (0 < gvol g C)%R ->
    (0 < delta)%R -> (forall v, v < number_of_vertices g -> (0 < rdeg g v)%R -> (delta <= rdeg g v)%R) -> (0 < toR locality < 1)%R ->
    exists G, NoDup G /\ incl G C /\ (gvol g C <= 2 * gvol g G)%R /\
    forall seed, In seed G -> forall fuel error l,
      local_cluster_acl fuel (lg_of_graph g) (Z.of_nat seed) locality error = Some (Ok l) ->
      ((1 - toR locality) * toR error * gvol g l <= 2)%R /\
      forall t, (2 * (gcut g C / gvol g C / toR locality + toR error * gvol g C) <= (1 - toR locality) ^ t)%R ->
        l <> [] /\ NoDup l /\ (forall v, In v l -> v < number_of_vertices g) /\ (0 < gvol g l)%R /\
        (INR t * (gcut g l / gvol g l * (gcut g l / gvol g l)) <= 4 * ln (4 * (gvol g C / delta)))%R.
Proof. intros W HN HE g Hr Hl. exact (acl_quality g Hr Hl). Qed.
Print Assumptions C76_conductance_guarantee.

(** The usual form: locality at least 8 phi(C), error at most 1/(8 vol(C)). *)
Theorem C76_acl_theorem :
  forall (W : Type) `{ExactNum W} (g : graph W), reachable_pos g -> (forall v, rw g v v = 0%R) ->
  forall (C : list nat) (delta : R) (locality : W), NoDup C -> (forall v, In v C -> v < number_of_vertices g) -> (0 < gvol g C)%R ->
    (0 < delta)%R -> (forall v, v < number_of_vertices g -> (0 < rdeg g v)%R -> (delta <= rdeg g v)%R) ->
    (0 < toR locality <= 1 / 4)%R -> (8 * (gcut g C / gvol g C) <= toR locality)%R ->
    exists G, NoDup G /\ incl G C /\ (gvol g C <= 2 * gvol g G)%R /\
    forall seed, In seed G -> forall fuel error l, (8 * toR error * gvol g C <= 1)%R ->
      local_cluster_acl fuel (lg_of_graph g) (Z.of_nat seed) locality error = Some (Ok l) ->
      l <> [] /\ NoDup l /\ (forall v, In v l -> v < number_of_vertices g) /\ (0 < gvol g l)%R /\
      (toR error * gvol g l <= 3)%R /\
      (gcut g l / gvol g l * (gcut g l / gvol g l) <= 16 * toR locality * ln (4 * (gvol g C / delta)))%R.
Proof. intros W HN HE g Hr Hl. exact (acl_guarantee g Hr Hl). Qed.
Print Assumptions C76_acl_theorem.

(** local_cluster(graph, seed, target_volume): when the target volume is at least 8 vol(C) and C has conductance at most 1/1000.
    gcond is the two-sided conductance: it is what the bound is about as soon as the target is small against the graph. *)
Theorem C76_local_cluster :
  forall (W : Type) `{ExactNum W} (g : graph W), reachable_pos g -> (forall v, rw g v v = 0%R) ->
  forall (C : list nat) (delta : R) (c001 : W), toR c001 = (1 / 100)%R -> NoDup C -> (forall v, In v C -> v < number_of_vertices g) -> (0 < gvol g C)%R ->
    (0 < delta)%R -> (forall v, v < number_of_vertices g -> (0 < rdeg g v)%R -> (delta <= rdeg g v)%R) -> (gcut g C / gvol g C <= 1 / 1000)%R ->
    exists G, NoDup G /\ incl G C /\ (gvol g C <= 2 * gvol g G)%R /\
    forall seed, In seed G -> forall target, (8 * gvol g C <= toR target)%R ->
      exists N, forall fuel, N <= fuel -> exists l,
      local_cluster c001 fuel (lg_of_graph g) (Z.of_nat seed) target = Some (Ok l) /\
      l <> [] /\ NoDup l /\ (forall v, In v l -> v < number_of_vertices g) /\ (0 < gvol g l)%R /\ (gvol g l <= 21 / 10 * toR target)%R /\
      (gcut g l / gvol g l * (gcut g l / gvol g l) <= ln (4 * (gvol g C / delta)) / 17)%R /\
      (42 / 10 * toR target <= gtotal g -> gcond g l * gcond g l <= ln (4 * (gvol g C / delta)) / 17)%R.
Proof.
  intros W HN HE g Hr Hl C delta c001 Ec HC HCn Hv Hd Hmin Hphi.
  destruct (local_cluster_quality g Hr Hl C delta c001 Ec HC HCn Hv Hd Hmin Hphi) as (G & NG & IG & VG & HG).
  exists G. split; [exact NG|]. split; [exact IG|]. split; [exact VG|]. intros seed Hs target Ht.
  destruct (graph_local_cluster_total g c001 target seed Hr Hl (HCn _ (IG _ Hs))) as [N HNf]; [lra|lra|].
  exists N. intros fuel Hf. destruct (HNf fuel Hf) as [l El]. exists l. split; [exact El|].
  destruct (HG seed Hs fuel target l Ht El) as (H1 & H2 & H3 & H4 & H5 & H6).
  split; [exact H1|]. split; [exact H2|]. split; [exact H3|]. split; [exact H4|]. split; [exact H5|]. split; [exact H6|].
  intros Hb. unfold gcond. rewrite Rmin_left by lra. exact H6.
Qed.
Print Assumptions C76_local_cluster.

(** Two heavy edges {0,1} and {2,3} of weight 1000 joined by an edge {1,2} of weight 1. *)
Definition exH_M : sprs Qc := mkSprs 4 [[(1, qc 1000 1)]; [(0, qc 1000 1); (2, qc 1 1)]; [(1, qc 1 1); (3, qc 1000 1)]; [(2, qc 1000 1)]].
Definition exH : graph Qc := fresh_graph exH_M.
Lemma exH_wf : sp_wf exH_M.
Proof. apply sp_wfb_iff. reflexivity. Qed.
Lemma exH_ok : make_graph exH_M = Ok exH.
Proof. vm_compute. reflexivity. Qed.
Lemma exH_reachable : reachable_pos exH.
Proof. exists exH_M, exH, []. repeat split; auto. apply exH_wf. Qed.
Lemma exH_noloop v : rw exH v v = 0%R.
Proof.
  unfold rw. replace (weight exH v v) with (w0 : Qc); [apply toR_0|].
  unfold weight, coeff, exH, sp_get, sp_col. simpl. destruct v as [|[|[|[|[|v]]]]]; reflexivity.
Qed.
Lemma exH_deg v : v < 4 -> rdeg exH v = if (v =? 0) || (v =? 3) then 1000%R else 1001%R.
Proof.
  intros Hv. rewrite <- (graph_ldeg exH v (reachable_pos_reachable _ exH_reachable)) by exact Hv.
  unfold ldeg, dg. replace (lg_degree (lg_of_graph exH) (Z.of_nat v)) with (@Ok Qc (if (v =? 0) || (v =? 3) then qc 1000 1 else qc 1001 1)).
  - destruct ((v =? 0) || (v =? 3)); rewrite toR_qc; lra.
  - destruct v as [|[|[|[|v]]]]; [vm_compute; reflexivity|vm_compute; reflexivity|vm_compute; reflexivity|vm_compute; reflexivity|lia].
Qed.
Definition exC : list nat := [0; 1].
Example C76_hypotheses_met :
  reachable_pos exH /\ (forall v, rw exH v v = 0%R) /\ gvol exH exC = 2001%R /\ (gcut exH exC / gvol exH exC <= 1 / 1000)%R /\ (0 < gcut exH exC)%R /\
  (forall v, v < number_of_vertices exH -> (0 < rdeg exH v)%R -> (1000 <= rdeg exH v)%R) /\ toR (qc 1 100) = (1 / 100)%R /\
  (8 * (gcut exH exC / gvol exH exC) <= toR (qc 1 100))%R /\
  local_cluster_acl 1000 (lg_of_graph exH) 0 (qc 1 4) (qc 1 16008) = Some (Ok [0; 1]).
Proof.
  assert (gvol exH exC = 2001)%R as Ev by (unfold gvol, exC; cbn [lsum]; rewrite !exH_deg by lia; cbn; lra).
  assert (gcut exH exC = 1)%R as Ec.
  { assert (rw exH 0 2 = 0)%R as E02 by (unfold rw; replace (weight exH 0 2) with (qc 0 1) by (vm_compute; reflexivity); rewrite toR_qc; lra).
    assert (rw exH 0 3 = 0)%R as E03 by (unfold rw; replace (weight exH 0 3) with (qc 0 1) by (vm_compute; reflexivity); rewrite toR_qc; lra).
    assert (rw exH 1 2 = 1)%R as E12 by (unfold rw; replace (weight exH 1 2) with (qc 1 1) by (vm_compute; reflexivity); rewrite toR_qc; lra).
    assert (rw exH 1 3 = 0)%R as E13 by (unfold rw; replace (weight exH 1 3) with (qc 0 1) by (vm_compute; reflexivity); rewrite toR_qc; lra).
    unfold gcut, rsum, exC. change (number_of_vertices exH) with 4. cbn [lsum seq]. rewrite E02, E03, E12, E13. unfold notin. cbn [in_dec list_rec list_rect Nat.eq_dec nat_rec nat_rect sumbool_rec sumbool_rect]. cbn. lra. }
  split; [apply exH_reachable|]. split; [apply exH_noloop|]. split; [exact Ev|]. rewrite Ev, Ec. split; [lra|]. split; [lra|].
  split; [intros v Hv _; rewrite exH_deg by exact Hv; destruct ((v =? 0) || (v =? 3)); lra|].
  rewrite toR_qc. split; [lra|]. split; [lra|]. vm_compute. reflexivity.
Qed.
