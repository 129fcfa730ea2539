(** Property theorems about stag_lib/cluster.cpp: components, PageRank, sweep sets, local
    clustering, metrics (C22-C32). *)
From Verif Require Import Base Num RSum Sparse SparseFacts Graph GraphSpec GraphFacts GraphProps1 GraphProps2 GraphProps4
  GraphExamples Cluster ClusterCC ClusterSpec ClusterPR ClusterPR2 ClusterSweep ClusterInst Ppr ClusterTop ClusterVol ClusterExamples
  Metrics MetricsFacts MetricsFacts2.
From Coq Require Import Sorting.Sorted Sorting.Permutation Relations Reals Lra QArith Qcanon.
Local Close Scope Q_scope. Local Close Scope Qc_scope. Local Open Scope nat_scope.

(** ** C22 *)
Theorem C22_component_is_reachability :
  forall (W : Type) `{PosNum W} (g : graph W) fuel u,
  reachable g -> no_stored_zero g -> u < number_of_vertices g -> number_of_vertices g <= fuel ->
  exists l, connected_component fuel (lg_of_graph g) (Z.of_nat u) = Some (Ok (map Z.of_nat l)) /\
    NoDup l /\ forall v, In v l <-> connected g u v.
Proof.
  intros W HN HP g fuel u Hr Hz Hu Hf. destruct (graph_component g fuel u Hr (conj Hu Hf)) as (l & E & Hnd & Hin).
  exists l. split; [exact E|]. split; [exact Hnd|]. intros v. rewrite Hin. now apply connected_gpath.
Qed.
Print Assumptions C22_component_is_reachability.
(** Any local graph, finite or not: if the call returns, the result is the set of reachable vertices. *)
Theorem C22_local_graph_component :
  forall (W : Type) fuel (lg : lgraph W) v l,
  connected_component fuel lg v = Some (Ok l) -> NoDup l /\ forall x, In x l <-> lg_path lg v x.
Proof. exact @connected_component_correct. Qed.
Print Assumptions C22_local_graph_component.
Example C22_hypotheses_met :
  reachable exG2 /\ no_stored_zero exG2 /\ 3 < number_of_vertices exG2 /\
  connected_component 4 (lg_of_graph exG2) 3 = Some (Ok [3; 0; 1]%Z).
Proof.
  split; [apply reachable_pos_reachable, exG2_reachable|]. split; [apply pos_no_zero, exG2_reachable|].
  split; [vm_compute; lia|]. vm_compute. reflexivity.
Qed.

(** ** C23 *)
Theorem C23_components_partition :
  forall (W : Type) `{PosNum W} (g : graph W) fuel,
  reachable g -> no_stored_zero g -> number_of_vertices g <= fuel ->
  exists cs, connected_components fuel g = Some (Ok (map (map Z.of_nat) cs)) /\
    (forall c, In c cs -> c <> []) /\
    NoDup (concat cs) /\
    (forall v, In v (concat cs) <-> v < number_of_vertices g) /\
    (forall c u v, In c cs -> In u c -> (In v c <-> connected g u v)).
Proof.
  intros W HN HP g fuel Hr Hz Hf. destruct (graph_components g fuel Hr Hf) as (cs & E & [Hc Hnd] & Hin).
  rewrite Forall_forall in Hc.
  exists cs. split; [exact E|]. split; [intros c Hcs; apply (Hc c Hcs)|]. split; [exact Hnd|]. split; [exact Hin|].
  intros c u v Hcs Hu. destruct (Hc c Hcs) as [_ (x & Hx & _ & Hi)]. rewrite Hi. apply Hi in Hu.
  rewrite <- connected_gpath by auto. split; intros Hp.
  - eapply rt_trans; [|exact Hp]. apply gpath_sym; auto.
  - eapply rt_trans; [exact Hu|exact Hp].
Qed.
Print Assumptions C23_components_partition.
Theorem C23_is_connected :
  forall (W : Type) `{PosNum W} (g : graph W) fuel,
  reachable g -> no_stored_zero g -> 0 < number_of_vertices g -> number_of_vertices g <= fuel ->
  exists b, is_connected fuel g = Some (Ok b) /\
    (b = true <-> forall u v, u < number_of_vertices g -> v < number_of_vertices g -> connected g u v).
Proof.
  intros W HN HP g fuel Hr Hz H0 Hf. destruct (is_connected_spec g fuel Hr (conj H0 Hf)) as (b & E & Hb).
  exists b. split; [exact E|]. rewrite Hb. split; intros Hx u v Hu Hv; apply connected_gpath; auto; now apply Hx.
Qed.
Print Assumptions C23_is_connected.
(** The graph without vertices: is_connected throws. *)
Theorem C23_is_connected_empty :
  forall (W : Type) `{Num W} (g : graph W) fuel,
  0 < fuel -> number_of_vertices g = 0 -> is_connected fuel g = Some (Throw InvalidArgument).
Proof. exact @is_connected_empty. Qed.
Example C23_hypotheses_met :
  reachable exG2 /\ no_stored_zero exG2 /\ number_of_vertices exG2 = 4 /\
  connected_components 4 exG2 = Some (Ok [[0; 1; 3]; [2]]%Z) /\ is_connected 4 exG2 = Some (Ok false) /\
  is_connected 3 exG = Some (Ok true).
Proof.
  split; [apply reachable_pos_reachable, exG2_reachable|]. split; [apply pos_no_zero, exG2_reachable|].
  repeat split; vm_compute; reflexivity.
Qed.

(** ** C24 *)
Theorem C24_pagerank_invariant :
  forall (W : Type) `{ExactNum W} (lg : lgraph W) (w : nat -> nat -> R),
  lg_spec lg w -> (forall v, w v v = 0%R) ->
  forall alpha eps (s p r : sprs W) q mem,
  vwf s -> apr_state lg alpha eps s p r q mem ->
  (forall v, rv p v - (1 - toR alpha) * walk lg w p v + toR alpha * rv r v = toR alpha * rv s v)%R /\
  (vmass p + vmass r = vmass s)%R.
Proof. exact @pagerank_invariant. Qed.
Print Assumptions C24_pagerank_invariant.
(** ... and every returned pair is such a state. *)
Theorem C24_returned_pair_is_a_state :
  forall (W : Type) `{Num W} (lg : lgraph W) fuel (s : sprs W) alpha eps (p r : sprs W),
  approximate_pagerank fuel lg s alpha eps = Some (Ok (p, r)) -> exists mem, apr_state lg alpha eps s p r [] mem.
Proof. intros W HN lg fuel s alpha eps p r E. apply (apr_return lg fuel s alpha eps p r E). Qed.
(** On a Graph: ppr(s) = p + ppr(r), where ppr is the personalised PageRank operator. *)
Theorem C24_ppr_decomposition :
  forall (W : Type) `{ExactNum W} (g : graph W),
  reachable_pos g -> (forall v, rw g v v = 0%R) ->
  forall fuel (s : sprs W) alpha eps p r qs qr,
  vwf s -> (0 < toR alpha)%R ->
  approximate_pagerank fuel (lg_of_graph g) s alpha eps = Some (Ok (p, r)) ->
  is_ppr (number_of_vertices g) (glazy g) (toR alpha) (rv s) qs ->
  is_ppr (number_of_vertices g) (glazy g) (toR alpha) (rv r) qr ->
  forall v, v < number_of_vertices g -> (qs v = rv p v + qr v)%R.
Proof. exact @graph_ppr. Qed.
Print Assumptions C24_ppr_decomposition.
Theorem C24_ppr_exists_uniquely :
  forall (W : Type) `{ExactNum W} (g : graph W) alpha (s : nat -> R),
  reachable_pos g -> (forall v, rw g v v = 0%R) -> (0 < alpha <= 1)%R ->
  (exists q, is_ppr (number_of_vertices g) (glazy g) alpha s q) /\
  forall q q', is_ppr (number_of_vertices g) (glazy g) alpha s q -> is_ppr (number_of_vertices g) (glazy g) alpha s q' ->
    forall v, v < number_of_vertices g -> q v = q' v.
Proof.
  intros W HN HE g alpha s Hr Hl Ha. split; [now apply graph_ppr_exists|].
  intros q q' Hq Hq'. apply (ppr_unique (number_of_vertices g) (glazy g)) with (alpha := alpha) (s := s); auto.
  - intros. now apply glazy_nonneg.
  - intros u Hu. now apply glazy_sub.
Qed.
Print Assumptions C24_ppr_exists_uniquely.
(** With a self-loop the invariant fails: mass disappears. *)
Theorem C24_self_loop_refuted :
  exists (g : graph Qc) fuel s alpha eps p r,
  reachable_pos g /\ vwf s /\
  approximate_pagerank fuel (lg_of_graph g) s alpha eps = Some (Ok (p, r)) /\
  (vmass p + vmass r < vmass s)%R.
Proof.
  destruct (approximate_pagerank 50 (lg_of_graph exL) (unit_vec 1 0) (qc 1 2) (qc 1 10)) as [[[p r]| |]|] eqn:E;
    try (exfalso; vm_compute in E; discriminate).
  exists exL, 50, (unit_vec 1 0), (qc 1 2), (qc 1 10), p, r.
  split; [apply exL_reachable|]. split; [apply unit_vec_wf; lia|]. split; [exact E|].
  assert (Hp : exists a b, sp_col p 0 = [(0, a)] /\ sp_col r 0 = [(0, b)] /\ wltb (wadd a b) (w1 : Qc) = true).
  { assert (Hx : match approximate_pagerank 50 (lg_of_graph exL) (unit_vec 1 0) (qc 1 2) (qc 1 10) with
       Some (Ok (p, r)) => match sp_col p 0, sp_col r 0 with
        | [(0, a)], [(0, b)] => wltb (wadd a b) (w1 : Qc) | _, _ => false end | _ => false end = true) by (vm_compute; reflexivity).
    rewrite E in Hx. clear E. destruct (sp_col p 0) as [|[[|i] a] [|? ?]]; try discriminate Hx.
    destruct (sp_col r 0) as [|[[|j] b] [|? ?]]; try discriminate Hx. exists a, b. auto. }
  destruct Hp as (a & b & Ea & Eb & Hlt). apply toR_ltb in Hlt. rewrite toR_add, toR_1 in Hlt.
  unfold vmass, vsum. rewrite Ea, Eb. cbn [lsum fold_right map fst snd].
  change (sp_col (unit_vec 1 0) 0) with [(0, qc 1 1)]. cbn [lsum fold_right map fst snd]. rewrite (toR_qc 1 1). lra.
Qed.
Example C24_hypotheses_met :
  lg_spec exInf inf_w /\ (forall v, inf_w v v = 0%R) /\ vwf (unit_vec 3 2) /\
  match approximate_pagerank 100 exInf (unit_vec 3 2) (qc 1 5) (qc 1 50) with
  | Some (Ok (p, r)) => (1 <? length (vkeys p)) && (1 <? length (vkeys r)) | _ => false end = true /\
  reachable_pos exE /\ (forall v, rw exE v v = 0%R).
Proof.
  split; [apply exInf_spec|]. split; [apply exInf_noloop|]. split; [apply unit_vec_wf; lia|].
  split; [vm_compute; reflexivity|]. split; [apply exE_reachable|apply exE_noloop].
Qed.

(** ** C25 *)
(** Any arithmetic, including doubles, and any local graph. *)
Theorem C25_postcondition :
  forall (W : Type) `{PosNum W} (lg : lgraph W) fuel (s : sprs W) alpha eps (p r : sprs W),
  lg_ok lg -> vwf s -> approximate_pagerank fuel lg s alpha eps = Some (Ok (p, r)) ->
  (forall k, In k (vkeys p) -> lg_has lg k) /\ (forall k, In k (vkeys r) -> lg_has lg k) /\
  forall k, (~ In k (vkeys r) /\ vget r k = w0) \/ weqb (dg lg k) w0 = true \/ wleb (wmul eps (dg lg k)) (vget r k) = false.
Proof.
  intros W HN HP lg fuel s alpha eps p r Hlg Hv E.
  destruct (apr_post lg fuel s alpha eps p r Hlg Hv E) as (_ & _ & H1 & H2 & H3). auto.
Qed.
Print Assumptions C25_postcondition.
Theorem C25_residual_small_and_nonnegative :
  forall (W : Type) `{ExactNum W} (lg : lgraph W) (w : nat -> nat -> R),
  lg_spec lg w -> (forall v, w v v = 0%R) ->
  forall fuel (s : sprs W) alpha eps p r,
  vwf s -> (forall k, 0 <= rv s k)%R -> approximate_pagerank fuel lg s alpha eps = Some (Ok (p, r)) ->
  (forall k, 0 <= rv p k)%R /\ (forall k, 0 <= rv r k)%R /\
  (forall k, lg_has lg k -> ldeg lg k <> 0 -> rv r k < toR eps * ldeg lg k)%R.
Proof.
  intros W HN HE lg w Hs Hl fuel s alpha eps p r Hv Hnn E.
  destruct (pagerank_result lg w Hs Hl fuel s alpha eps p r Hv E) as (_ & _ & Hp & Hlt).
  destruct (Hp Hnn). auto.
Qed.
Print Assumptions C25_residual_small_and_nonnegative.
(** Hence p approximates the PageRank vector. *)
Theorem C25_approximation :
  forall (W : Type) `{ExactNum W} (g : graph W),
  reachable_pos g -> (forall v, rw g v v = 0%R) ->
  forall fuel (s : sprs W) alpha eps p r qs,
  vwf s -> (0 < toR alpha)%R -> (forall k, 0 <= rv s k)%R ->
  approximate_pagerank fuel (lg_of_graph g) s alpha eps = Some (Ok (p, r)) ->
  is_ppr (number_of_vertices g) (glazy g) (toR alpha) (rv s) qs ->
  forall v, v < number_of_vertices g -> rdeg g v <> 0%R ->
    (rv p v <= qs v <= rv p v + toR eps * rdeg g v)%R.
Proof. exact @graph_ppr_error. Qed.
Print Assumptions C25_approximation.
Example C25_hypotheses_met :
  lg_ok exInf /\ vwf (unit_vec 3 2) /\ (forall k, 0 <= rv (unit_vec 3 2) k)%R.
Proof.
  split; [apply exInf_spec|]. split; [apply unit_vec_wf; lia|].
  intros k. unfold unit_vec. rewrite rv_vset by (split; [apply sp_empty_ncols|apply sp_empty_wf]).
  rewrite rv_empty, toR_qc. destruct (k =? 2); lra.
Qed.

(** ** C26 *)
(** [fuel] bounds the number of pushes: more than |s| / (alpha eps delta) are never needed,
    where delta is a lower bound on the positive degrees (1 in an unweighted graph). *)
Theorem C26_number_of_pushes :
  forall (W : Type) `{ExactNum W} (lg : lgraph W) (w : nat -> nat -> R),
  lg_spec lg w -> (forall v, w v v = 0%R) ->
  forall fuel (s : sprs W) alpha eps delta,
  vwf s -> (forall k, In k (vkeys s) -> lg_has lg k) -> lg_exists lg (Z.of_nat (sp_rows s) - 1) = true ->
  (0 < toR alpha <= 1)%R -> (0 < toR eps)%R -> (forall k, 0 <= rv s k)%R ->
  (0 < delta)%R -> (forall k, lg_has lg k -> 0 < ldeg lg k -> delta <= ldeg lg k)%R ->
  (vmass s < INR fuel * (toR alpha * toR eps * delta))%R ->
  exists p r, approximate_pagerank fuel lg s alpha eps = Some (Ok (p, r)).
Proof. exact @pagerank_total. Qed.
Print Assumptions C26_number_of_pushes.
Theorem C26_terminates_on_graphs :
  forall (W : Type) `{ExactNum W} (g : graph W),
  reachable_pos g -> (forall v, rw g v v = 0%R) ->
  forall (s : sprs W) alpha eps,
  vwf s -> 0 < sp_rows s <= number_of_vertices g ->
  (0 < toR alpha <= 1)%R -> (0 < toR eps)%R -> (forall k, 0 <= rv s k)%R ->
  exists N, forall fuel, N <= fuel ->
    exists p r, approximate_pagerank fuel (lg_of_graph g) s alpha eps = Some (Ok (p, r)).
Proof. exact @graph_pagerank_terminates. Qed.
Print Assumptions C26_terminates_on_graphs.
(** alpha = 0 is accepted by the code and may run forever: no number of iterations suffices. *)
Theorem C26_alpha_zero_diverges :
  exists (g : graph Qc) (s : sprs Qc) eps, reachable_pos g /\ vwf s /\ (0 < toR eps)%R /\ vmass s = 1%R /\
  (forall v, rw g v v = 0%R) /\
  forall fuel, approximate_pagerank fuel (lg_of_graph g) s (qc 0 1) eps = None.
Proof.
  exists exE, (unit_vec 2 0), (qc 1 10). split; [apply exE_reachable|]. split; [apply unit_vec_wf; lia|].
  split; [rewrite toR_qc; lra|]. split; [|split; [apply exE_noloop|apply exE_alpha_zero_diverges]].
  unfold vmass, vsum. change (sp_col (unit_vec 2 0) 0) with [(0, qc 1 1)].
  cbn [lsum fold_right map fst snd]. rewrite (toR_qc 1 1). lra.
Qed.
Print Assumptions C26_alpha_zero_diverges.
Example C26_hypotheses_met :
  lg_spec exInf inf_w /\ (forall v, inf_w v v = 0%R) /\ vwf (unit_vec 3 2) /\
  (forall k, lg_has exInf k -> 0 < ldeg exInf k -> 1 <= ldeg exInf k)%R /\
  lg_exists exInf (Z.of_nat (sp_rows (unit_vec 3 2)) - 1) = true.
Proof.
  split; [apply exInf_spec|]. split; [apply exInf_noloop|]. split; [apply unit_vec_wf; lia|]. split; [|reflexivity].
  intros k _ _. unfold ldeg. rewrite inf_dg. destruct (k =? 0); rewrite toR_qc; lra.
Qed.

(** ** C27 *)
Theorem C27_best_prefix :
  forall (W : Type) `{ExactNum W} (g : graph W) (x : sprs W),
  reachable_pos g -> vwf x -> (forall k, In k (vkeys x) -> k < number_of_vertices g) ->
  exists order k,
    Permutation (vkeys x) order /\ StronglySorted (sweep_before x) order /\
    sweep_set_graph g x = Ok (firstn k order) /\ k <= length order /\
    (forall j, 1 <= j <= length order -> (0 < gden g (firstn j order))%R ->
      1 <= k /\ (0 < gden g (firstn k order))%R /\
      (gcond g (firstn k order) <= gcond g (firstn j order))%R /\
      (j < k -> (gcond g (firstn k order) < gcond g (firstn j order))%R)).
Proof.
  intros W HN HE g x Hr Hx Hk. destruct (sweep_set_graph_spec g x Hr Hx Hk) as (order & k & H1 & H2 & H3 & H4 & H5 & _).
  exists order, k. auto.
Qed.
Print Assumptions C27_best_prefix.
Theorem C27_best_prefix_local :
  forall (W : Type) `{ExactNum W} (lg : lgraph W) w (x : sprs W),
  lg_spec lg w -> vwf x -> (forall k, In k (vkeys x) -> lg_has lg k) ->
  exists order k,
    Permutation (vkeys x) order /\ StronglySorted (sweep_before x) order /\
    sweep_set_local lg x = Ok (firstn k order) /\ k <= length order /\
    (forall j, 1 <= j <= length order -> (0 < lvol lg (firstn j order))%R ->
      1 <= k /\ (0 < lvol lg (firstn k order))%R /\
      (lcut lg w (firstn k order) / lvol lg (firstn k order) <= lcut lg w (firstn j order) / lvol lg (firstn j order))%R /\
      (j < k -> (lcut lg w (firstn k order) / lvol lg (firstn k order) < lcut lg w (firstn j order) / lvol lg (firstn j order))%R)).
Proof.
  intros W HN HE lg w x Hs Hx Hk. destruct (sweep_set_local_spec lg w x Hs Hx Hk) as (order & k & H1 & H2 & H3 & H4 & H5 & _).
  exists order, k. auto.
Qed.
Print Assumptions C27_best_prefix_local.
Definition exX : sprs Qc := mkSprs 4 [[(0, qc 1 2); (1, qc 1 1); (3, qc 1 2)]].
Example C27_hypotheses_met :
  reachable_pos exG2 /\ vwf exX /\ (forall k, In k (vkeys exX) -> k < number_of_vertices exG2) /\
  sweep_order exX = [1; 0; 3] /\ sweep_set_graph exG2 exX = Ok [1; 0; 3].
Proof.
  split; [apply exG2_reachable|]. split; [split; [reflexivity|apply sp_wfb_iff; reflexivity]|].
  split; [|split; vm_compute; reflexivity].
  assert (E : number_of_vertices exG2 = 4) by (vm_compute; reflexivity). rewrite E.
  intros k. change (vkeys exX) with [0; 1; 3]. intros [<-|[<-|[<-|[]]]]; lia.
Qed.

(** ** C28 *)
Theorem C28_conductance_partial :
  forall (W : Type) `{ExactNum W} (lg : lgraph W) (w : nat -> nat -> R) S,
  lg_spec lg w -> (forall v, w v v = 0%R) -> NoDup S -> (forall v, In v S -> lg_has lg v) ->
  exists c, conductance lg (map Z.of_nat S) = Ok c /\
    (lvol lg S = 0%R -> toR c = 0%R) /\ (lvol lg S <> 0%R -> toR c = (lcut lg w S / lvol lg S)%R).
Proof. intros W HN HE lg w S Hs Hl _ Hin. exact (conductance_spec lg w S Hs Hl Hin). Qed.
Print Assumptions C28_conductance_partial.
Theorem C28_conductance_of_graph_partial :
  forall (W : Type) `{ExactNum W} (g : graph W) S,
  reachable_pos g -> NoDup S -> (forall v, In v S -> v < number_of_vertices g) -> (forall v, In v S -> rw g v v = 0%R) ->
  exists c, conductance (lg_of_graph g) (map Z.of_nat S) = Ok c /\
    (gvol g S = 0%R -> toR c = 0%R) /\ (gvol g S <> 0%R -> toR c = (gcut g S / gvol g S)%R).
Proof. intros W HN HE g S Hr _ Hin Hl. exact (conductance_graph_spec g S Hr Hin Hl). Qed.
Print Assumptions C28_conductance_of_graph_partial.
(** A self-loop inside the set is counted once, although degree() counts it twice. *)
Theorem C28_self_loop_refuted :
  exists (g : graph Qc) S, reachable_pos g /\ NoDup S /\ (forall v, In v S -> v < number_of_vertices g) /\
  gvol g S = 3%R /\ gcut g S = 1%R /\
  match conductance (lg_of_graph g) (map Z.of_nat S) with Ok c => weqb c (qc 1 2) | _ => false end = true.
Proof.
  exists exEL, [0]. split; [apply exEL_reachable|]. split; [repeat constructor; auto|].
  split; [intros v [<-|[]]; vm_compute; lia|].
  assert (E00 : rw exEL 0 0 = 1%R) by (change (toR (qc 1 1) = 1%R); rewrite toR_qc; lra).
  assert (E01 : rw exEL 0 1 = 1%R) by (change (toR (qc 1 1) = 1%R); rewrite toR_qc; lra).
  split; [|split; [|vm_compute; reflexivity]].
  - unfold gvol, lsum. cbn [fold_right map]. unfold rdeg. change (g_n exEL) with 2. rewrite rsum_2, E00, E01. lra.
  - unfold gcut, lsum. cbn [fold_right map]. change (number_of_vertices exEL) with 2. rewrite rsum_2, E00, E01.
    unfold notin. cbn. lra.
Qed.
Print Assumptions C28_self_loop_refuted.
Example C28_hypotheses_met :
  reachable_pos exE /\ NoDup [0] /\ (forall v, rw exE v v = 0%R) /\
  match conductance (lg_of_graph exE) [0%Z] with Ok c => weqb c (qc 1 1) | _ => false end = true /\
  conductance (lg_of_graph exE) [] = Ok (w0 : Qc).
Proof.
  split; [apply exE_reachable|]. split; [repeat constructor; auto|]. split; [apply exE_noloop|].
  split; [vm_compute; reflexivity|reflexivity].
Qed.

(** ** C29 *)
Theorem C29_cluster_is_reachable_from_seed :
  forall (W : Type) `{PosNum W} c001 (lg : lgraph W) fuel seed target l,
  lg_ok lg -> local_cluster c001 fuel lg seed target = Some (Ok l) ->
  lg_exists lg seed = true /\ forall v, In v l -> lg_path lg seed (Z.of_nat v).
Proof. intros W HN HP. exact local_cluster_reach. Qed.
Print Assumptions C29_cluster_is_reachable_from_seed.
Theorem C29_missing_seed_refused :
  forall (W : Type) `{Num W} c001 (lg : lgraph W) fuel seed target,
  lg_exists lg seed = false -> local_cluster c001 fuel lg seed target = Some (Throw InvalidArgument).
Proof. exact @local_cluster_missing. Qed.
Print Assumptions C29_missing_seed_refused.
Theorem C29_acl_returns_best_sweep_prefix :
  forall (W : Type) `{ExactNum W} (lg : lgraph W) w fuel seed locality error p r,
  lg_spec lg w -> (forall v, w v v = 0%R) -> lg_has lg seed ->
  approximate_pagerank fuel lg (vset (sp_empty (S seed) 1) seed w1) locality error = Some (Ok (p, r)) ->
  exists order k, Permutation (vkeys p) order /\
    StronglySorted (fun i j => (rv p j / ldeg lg j < rv p i / ldeg lg i)%R \/
                      ((rv p j / ldeg lg j = rv p i / ldeg lg i)%R /\ i < j)) order /\
    local_cluster_acl fuel lg (Z.of_nat seed) locality error = Some (Ok (firstn k order)) /\
    k <= length order /\ (order <> [] -> 1 <= k) /\
    forall j, 1 <= j <= length order ->
      (lcut lg w (firstn k order) / lvol lg (firstn k order) <= lcut lg w (firstn j order) / lvol lg (firstn j order))%R.
Proof. exact @local_cluster_acl_spec. Qed.
Print Assumptions C29_acl_returns_best_sweep_prefix.
Theorem C29_local_cluster_returns_best_sweep_prefix :
  forall (W : Type) `{ExactNum W} (lg : lgraph W) w, lg_spec lg w -> (forall v, w v v = 0%R) ->
  forall c001 fuel seed target l, lg_has lg seed ->
  local_cluster c001 fuel lg (Z.of_nat seed) target = Some (Ok l) ->
  exists error p r order k, (toR error * toR target = 1)%R /\
    approximate_pagerank fuel lg (vset (sp_empty (S seed) 1) seed w1) c001 error = Some (Ok (p, r)) /\
    Permutation (vkeys p) order /\
    StronglySorted (fun i j => (rv p j / ldeg lg j < rv p i / ldeg lg i)%R \/
                      ((rv p j / ldeg lg j = rv p i / ldeg lg i)%R /\ i < j)) order /\
    l = firstn k order /\ k <= length order /\ (order <> [] -> 1 <= k) /\
    forall j, 1 <= j <= length order ->
      (lcut lg w l / lvol lg l <= lcut lg w (firstn j order) / lvol lg (firstn j order))%R.
Proof. exact @local_cluster_spec. Qed.
Print Assumptions C29_local_cluster_returns_best_sweep_prefix.
(** The volume of the cluster is controlled by the target volume (c001 = 0.01 gives at most 2.03 times the target). *)
Theorem C29_volume_bounded_by_target :
  forall (W : Type) `{ExactNum W} (lg : lgraph W) w, lg_spec lg w -> (forall v, w v v = 0%R) ->
  forall c001 fuel seed target l, lg_has lg seed ->
  local_cluster c001 fuel lg (Z.of_nat seed) target = Some (Ok l) ->
  (0 < toR target)%R /\ NoDup l /\ ((1 - toR c001) * lvol lg l <= 2 * toR target)%R.
Proof. exact @local_cluster_volume. Qed.
Print Assumptions C29_volume_bounded_by_target.
Theorem C29_target_must_be_positive :
  forall (W : Type) `{ExactNum W} c001 fuel (lg : lgraph W) seed target, (toR target <= 0)%R ->
  local_cluster c001 fuel lg seed target = Some (Throw InvalidArgument).
Proof. exact @local_cluster_bad_target. Qed.
Print Assumptions C29_target_must_be_positive.
Theorem C29_terminates :
  forall (W : Type) `{ExactNum W} (g : graph W) (c001 target : W) seed,
  reachable_pos g -> (forall v, rw g v v = 0%R) -> seed < number_of_vertices g ->
  (0 < toR target)%R -> (0 < toR c001 <= 1)%R ->
  exists N, forall fuel, N <= fuel ->
    exists l, local_cluster c001 fuel (lg_of_graph g) (Z.of_nat seed) target = Some (Ok l).
Proof. exact @graph_local_cluster_total. Qed.
Print Assumptions C29_terminates.
Example C29_hypotheses_met :
  lg_ok exInf /\ lg_exists exInf (-1)%Z = false /\
  match local_cluster (qc 1 5) 1000 exInf 4 (qc 10 1) with Some (Ok l) => 1 <? length l | _ => false end = true.
Proof. split; [apply exInf_spec|]. split; [reflexivity|vm_compute; reflexivity]. Qed.

(** ** C30.  pA, pB: pairs of points together in the first/second clustering; pI: in both; pT: all pairs. *)
Theorem C30_hubert_arabie_partial :
  forall gt l, valid_labels gt l -> few_points gt ->
  (ha_defined (INR (pA gt)) (INR (pB l)) (INR (pT gt)) ->
     adjusted_rand_index gt l = Ok (Some (hubert_arabie (INR (pI gt l)) (INR (pA gt)) (INR (pB l)) (INR (pT gt))))) /\
  (~ ha_defined (INR (pA gt)) (INR (pB l)) (INR (pT gt)) -> adjusted_rand_index gt l = Ok None).
Proof. exact ari_value. Qed.
Print Assumptions C30_hubert_arabie_partial.
Theorem C30_symmetric_partial : forall gt l, few_points gt -> adjusted_rand_index gt l = adjusted_rand_index l gt.
Proof. exact ari_symmetric. Qed.
Print Assumptions C30_symmetric_partial.
Theorem C30_renaming_partial : forall s gt l, valid_labels gt l -> few_points gt -> renaming s gt ->
  adjusted_rand_index (map s gt) l = adjusted_rand_index gt l.
Proof. exact ari_rename. Qed.
Print Assumptions C30_renaming_partial.
Theorem C30_same_partition_partial : forall gt l, valid_labels gt l -> few_points gt -> same_partition gt l ->
  0 < pA gt < pT gt (* some two points together, some two apart *) -> adjusted_rand_index gt l = Ok (Some 1%R).
Proof. exact ari_one. Qed.
Print Assumptions C30_same_partition_partial.
Theorem C30_invalid_refused : forall gt l, ~ valid_labels gt l -> adjusted_rand_index gt l = Throw InvalidArgument.
Proof. exact ari_invalid. Qed.
Print Assumptions C30_invalid_refused.
Theorem C30_at_most_one : forall gt l x, valid_labels gt l -> few_points gt -> adjusted_rand_index gt l = Ok (Some x) -> (x <= 1)%R.
Proof. exact ari_le_one. Qed.
Print Assumptions C30_at_most_one.
(** Identical clusterings with one cluster give NaN, not 1. *)
Theorem C30_one_cluster_refuted : forall n, 2 <= n -> (Z.of_nat n <= ari_max_points)%Z ->
  adjusted_rand_index (repeat 0%Z n) (repeat 0%Z n) = Ok None.
Proof. exact ari_one_cluster_nan. Qed.
(** From 77937 points on, the 64-bit product of the pair counts can overflow. *)
Theorem C30_overflow_refuted : forall n, (77937 <= Z.of_nat n)%Z -> (Z.of_nat (n * (n - 1)) <= max64)%Z ->
  adjusted_rand_index (repeat 0%Z n) (repeat 0%Z n) = UB.
Proof. exact ari_overflow. Qed.
Print Assumptions C30_overflow_refuted.
Example C30_hypotheses_met :
  valid_labels [0; 0; 1; 2]%Z [5; 5; 3; 3]%Z /\ few_points [0; 0; 1; 2]%Z /\
  ha_defined (INR (pA [0; 0; 1; 2]%Z)) (INR (pB [5; 5; 3; 3]%Z)) (INR (pT [0; 0; 1; 2]%Z)) /\
  pI [0; 0; 1; 2]%Z [5; 5; 3; 3]%Z = 1 /\
  same_partition [0; 0; 1]%Z [5; 5; 3]%Z /\ renaming (fun x => x + 7)%Z [0; 0; 1; 2]%Z.
Proof.
  repeat split; try (repeat constructor; lia).
  - unfold few_points, ari_max_points. simpl. lia.
  - intros E. cbn in E. lra.
  - cbn. lra.
  - intros E. destruct H as [<-|[<-|[<-|[]]]], H0 as [<-|[<-|[<-|[]]]]; cbn in *; lia.
  - intros E. destruct H as [<-|[<-|[<-|[]]]], H0 as [<-|[<-|[<-|[]]]]; cbn in *; lia.
  - intros x [<-|[<-|[<-|[<-|[]]]]]; lia.
Qed.

(** ** C31 *)
Theorem C31_mutual_information :
  forall U V gt l, valid_labels gt l -> NoDup U -> NoDup V -> incl gt U -> incl l V ->
  mutual_information gt l = Ok (mi_spec U V gt l).
Proof. intros U V gt l Hv HU HV Hg Hl. rewrite mi_code by auto. now rewrite (mi_points_spec U V). Qed.
Print Assumptions C31_mutual_information.
Theorem C31_symmetric : forall gt l, valid_labels gt l -> mutual_information gt l = mutual_information l gt.
Proof.
  intros gt l Hv. rewrite (mi_code gt l Hv), (mi_code l gt (valid_sym _ _ Hv)). f_equal. apply mi_points_sym. apply Hv.
Qed.
Print Assumptions C31_symmetric.
Theorem C31_renaming : forall s gt l, valid_labels gt l -> renaming s gt ->
  mutual_information (map s gt) l = mutual_information gt l.
Proof.
  intros s gt l Hv Hs. pose proof Hs as [Hs0 Hsi]. pose proof Hv as (El & Hg & Hl).
  assert (Hv' : valid_labels (map s gt) l).
  { split; [now rewrite map_length|]. split; auto. apply Forall_forall. intros y Hy. apply in_map_iff in Hy.
    destruct Hy as (x & <- & Hx). auto. }
  rewrite (mi_code gt l Hv), (mi_code (map s gt) l Hv'). f_equal. now apply mi_points_rename.
Qed.
Print Assumptions C31_renaming.
Theorem C31_bounds :
  forall U V gt l x, valid_labels gt l -> NoDup U -> NoDup V -> incl gt U -> incl l V -> mutual_information gt l = Ok x ->
  (0 <= x)%R /\ (x <= entropy_spec U gt)%R /\ (x <= entropy_spec V l)%R.
Proof.
  intros U V gt l x Hv HU HV Hg Hl. rewrite (mi_code gt l Hv). intros [= <-].
  rewrite <- (entropy_points_spec U gt), <- (entropy_points_spec V l) by auto.
  split; [now apply mi_nonneg|]. now apply mi_le_entropy.
Qed.
Print Assumptions C31_bounds.
(** [o1], [o2]: the iteration orders of the hash maps of the entropy computation. *)
Theorem C31_normalised :
  forall o1 o2 U V gt l, valid_labels gt l -> map_order o1 gt -> map_order o2 l ->
  NoDup U -> NoDup V -> incl gt U -> incl l V ->
  normalised_mutual_information o1 o2 gt l =
    Ok (if Req_EM_T ((entropy_spec U gt + entropy_spec V l) / 2) 0 then None
        else Some (mi_spec U V gt l / ((entropy_spec U gt + entropy_spec V l) / 2))%R).
Proof.
  intros o1 o2 U V gt l Hv H1 H2 HU HV Hg Hl. rewrite (nmi_code o1 o2 gt l Hv H1 H2).
  rewrite (entropy_points_spec U gt), (entropy_points_spec V l), (mi_points_spec U V) by auto. reflexivity.
Qed.
Print Assumptions C31_normalised.
Theorem C31_normalised_range : forall o1 o2 gt l x, valid_labels gt l -> map_order o1 gt -> map_order o2 l ->
  normalised_mutual_information o1 o2 gt l = Ok (Some x) -> (0 <= x <= 1)%R.
Proof. exact nmi_range. Qed.
Print Assumptions C31_normalised_range.
Theorem C31_normalised_same_partition : forall o1 o2 U gt l, valid_labels gt l -> map_order o1 gt -> map_order o2 l ->
  same_partition gt l -> NoDup U -> incl gt U -> entropy_spec U gt <> 0%R ->
  normalised_mutual_information o1 o2 gt l = Ok (Some 1%R).
Proof. intros o1 o2 U gt l Hv H1 H2 Hs HU Hi Hne. apply nmi_one; auto. now rewrite (entropy_points_spec U). Qed.
Print Assumptions C31_normalised_same_partition.
Theorem C31_invalid_refused : forall gt l, ~ valid_labels gt l -> mutual_information gt l = Throw InvalidArgument.
Proof. exact mi_invalid. Qed.
Print Assumptions C31_invalid_refused.
Example C31_hypotheses_met :
  valid_labels [0; 0; 1; 2]%Z [5; 5; 3; 3]%Z /\ map_order [2; 0; 1]%Z [0; 0; 1; 2]%Z /\
  NoDup [0; 1; 2]%Z /\ incl [0; 0; 1; 2]%Z [0; 1; 2]%Z /\ renaming (fun x => x + 7)%Z [0; 0; 1; 2]%Z.
Proof.
  split; [repeat split; try (repeat constructor; lia)|]. split.
  { unfold map_order. cbn. apply NoDup_Permutation; try (repeat constructor; simpl; lia). intros x. simpl. tauto. }
  split; [repeat constructor; simpl; lia|]. split; [intros x; simpl; tauto|].
  split; [intros x [<-|[<-|[<-|[<-|[]]]]]; lia|]. intros x y _ _. lia.
Qed.

(** ** C32 *)
Theorem C32_symmetric_difference : forall S T,
  StronglySorted Z.lt (symmetric_difference S T) /\
  forall x, In x (symmetric_difference S T) <-> (In x S /\ ~ In x T) \/ (In x T /\ ~ In x S).
Proof. exact symmetric_difference_spec. Qed.
Print Assumptions C32_symmetric_difference.
Example C32_hypotheses_met : symmetric_difference [5; 1; 3; 1]%Z [3; 3; 2]%Z = [1; 2; 5]%Z.
Proof. reflexivity. Qed.
