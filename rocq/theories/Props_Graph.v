(** Property theorems about stag::Graph (C01-C21). Statements only; the proofs
    are in GraphProps1-5.  The vocabulary is defined in GraphSpec.v. *)
From Verif Require Import Base Num RSum Sparse SparseFacts Graph GraphSpec GraphFacts
  GraphProps1 GraphProps2 GraphProps3 GraphProps4 GraphProps5 GraphExamples.
From Coq Require Import Sorting.Sorted Sorting.Permutation Reals Lra SpecFloat QArith Qcanon Qreals.
Local Close Scope Q_scope. Local Close Scope Qc_scope. Local Open Scope nat_scope.

(** ** C01 — any arithmetic satisfying PosNum, in particular IEEE doubles. *)
Theorem C01_constructor_keeps_weights :
  forall (W : Type) `{PosNum W} (M : sprs W) n,
  sp_square M n ->
  (forall i j v, sp_get M i j = Some v -> wltb v w0 = false) ->
  (forall i j, above_eps (coeff M i j) = above_eps (coeff M j i)) ->
  exists g, make_graph M = Ok g /\ number_of_vertices g = n /\
    (forall i j, weight g i j = above_eps (coeff M i j)) /\
    (forall i j, wltb weps (coeff M i j) = true -> weight g i j = coeff M i j).
Proof.
  intros W HN HP M n Hsq Hn Hs.
  destruct (make_graph_from_adjacency M n Hsq Hn Hs) as (g & E & En & _ & Ew).
  exists g. repeat split; auto. intros i j Hgt. rewrite Ew. unfold above_eps. now rewrite Hgt.
Qed.
Print Assumptions C01_constructor_keeps_weights.
Theorem C01_doubles_above_tolerance_unaltered :
  forall (M : sprs f64) n,
  sp_square M n ->
  (forall i j v, sp_get M i j = Some v -> wltb v w0 = false) ->
  (forall i j, above_eps (coeff M i j) = above_eps (coeff M j i)) ->
  exists g, make_graph M = Ok g /\ number_of_vertices g = n /\
    (forall i j, weight g i j = above_eps (coeff M i j)) /\
    (forall i j, wltb weps (coeff M i j) = true -> weight g i j = coeff M i j).
Proof. exact (C01_constructor_keeps_weights f64). Qed.
Example C01_hypotheses_met :
  sp_square exM 3 /\ (forall i j v, sp_get exM i j = Some v -> wltb v w0 = false) /\
  make_graph exM = Ok exG /\ weight exG 2 1 = qc 1 2.
Proof.
  split; [apply exM_square|]. split; [|split; [apply exG_ok|reflexivity]].
  intros i j v G. apply (above_nonneg exG exG_above i j v G).
Qed.

(** ** C02 *)
Theorem C02_constructed_graphs_are_undirected :
  forall (W : Type) `{PosNum W} (M : sprs W) g,
  sp_wf M -> make_graph M = Ok g ->
  sp_square (g_adj g) (number_of_vertices g) /\ forall i j, weight g i j = weight g j i.
Proof.
  intros W HN HP M g Hwf E. destruct (constructed_above_eps M g Hwf E) as [Hr _].
  split; [apply (reachable_ok g Hr)|]. intros; now apply weight_sym.
Qed.
Print Assumptions C02_constructed_graphs_are_undirected.
Theorem C02_asymmetric_refused :
  forall (W : Type) `{PosNum W} (M : sprs W) n i j,
  sp_square M n -> (forall a b v, sp_get M a b = Some v -> wltb v w0 = false) ->
  wltb weps (coeff M i j) = true -> weqb (coeff M i j) (coeff M j i) = false ->
  make_graph M = Throw DomainError.
Proof. exact @make_graph_asymmetric. Qed.
Print Assumptions C02_asymmetric_refused.
Theorem C02_inconsistent_vectors_refused :
  forall (W : Type) `{Num W} (st inn : list nat) (vals : list W),
  st <> [] -> (length inn <> length vals \/ last st 0 <> length inn) ->
  make_graph_vectors st inn vals = Throw InvalidArgument.
Proof. exact @make_graph_vectors_mismatch. Qed.
Print Assumptions C02_inconsistent_vectors_refused.
Example C02_hypotheses_met :
  make_graph (mkSprs 2 [[(1, qc 1 1)]; []]) = Throw DomainError /\
  make_graph_vectors [0; 1; 2] [1; 0] [qc 1 1; qc 1 1] = Ok exE.
Proof. split; vm_compute; reflexivity. Qed.

(** ** C03: exact arithmetic; refuted for doubles. *)
Theorem C03_laplacian_round_trip_partial :
  forall (W : Type) `{ExactNum W} (g : graph W),
  reachable_pos g ->
  (forall i j, i < number_of_vertices g -> j < number_of_vertices g ->
     weight g i j = w0 \/ wltb weps (weight g i j) = true) ->
  exists g', make_graph (snd (mat_query QLap g)) = Ok g' /\
    number_of_vertices g' = number_of_vertices g /\
    forall i j, weight g' i j = weight g i j.
Proof. exact @laplacian_roundtrip. Qed.
Print Assumptions C03_laplacian_round_trip_partial.
(** In IEEE double arithmetic the statement is false: rounding makes a column of
    D - A sum to a negative number and the constructor throws. *)
Theorem C03_laplacian_round_trip_doubles_refuted :
  ~ (forall g : graph f64, reachable_pos g -> weights_above_eps g ->
       exists g', make_graph (snd (mat_query QLap g)) = Ok g').
Proof.
  intros Hall. destruct (Hall exF exF_reachable) as [g' E].
  - apply (constructed_above_eps exF_M exF exF_wf exF_ok).
  - vm_compute in E. discriminate.
Qed.
Example C03_hypotheses_met :
  reachable_pos exG /\ weight exG 2 2 = qc 3 1 /\
  match make_graph (snd (mat_query QLap exG)) with
  | Ok g' => weqb (weight g' 2 2) (qc 3 1) && weqb (weight g' 1 2) (qc 1 2) = true
  | _ => False
  end.
Proof. split; [apply exG_reachable|]. split; [reflexivity|]. vm_compute. reflexivity. Qed.

(** ** C04 *)
Theorem C04_neither_adjacency_nor_laplacian :
  forall (W : Type) `{Num W} (M : sprs W) n,
  sp_square M n ->
  (exists i j v, sp_get M i j = Some v /\ wltb v w0 = true) ->
  ((exists i j v, i <> j /\ sp_get M i j = Some v /\ wltb v w0 = false) \/
   (exists j, j < n /\ wltb (wsum (map snd (sp_col M j))) w0 = true)) ->
  make_graph M = Throw DomainError.
Proof. exact @make_graph_bad_laplacian. Qed.
Print Assumptions C04_neither_adjacency_nor_laplacian.
Example C04_hypotheses_met :
  make_graph (mkSprs 2 [[(0, qc 1 1); (1, qc (-2) 1)]; [(0, qc (-2) 1); (1, qc 1 1)]]) = Throw DomainError.
Proof. vm_compute. reflexivity. Qed.

(** ** C05 *)
Theorem C05_symmetric_after_any_history :
  forall (W : Type) `{PosNum W} (g : graph W), reachable g ->
  sp_square (g_adj g) (number_of_vertices g) /\ forall i j, weight g i j = weight g j i.
Proof.
  intros W HN HP g Hr. split; [apply (reachable_ok g Hr)|]. intros; now apply weight_sym.
Qed.
Print Assumptions C05_symmetric_after_any_history.
Example C05_hypotheses_met : reachable exG2 /\ number_of_vertices exG2 = 4 /\ weight exG2 3 0 = qc 5 1 /\ weight exG2 1 2 = qc 0 1.
Proof. split; [apply reachable_pos_reachable, exG2_reachable|]. vm_compute. auto. Qed.

(** ** C06: any arithmetic. *)
Theorem C06_add_edge_effect :
  forall (W : Type) `{Num W} (g : graph W) i j w, reachable g -> i <> j ->
  exists g', add_edge g (Z.of_nat i) (Z.of_nat j) w = Ok g' /\
    number_of_vertices g' = Nat.max (number_of_vertices g) (S (Nat.max i j)) /\
    weight g' i j = wadd (weight g i j) w /\
    weight g' j i = wadd (weight g j i) w /\
    forall a b, ~ (a = i /\ b = j) -> ~ (a = j /\ b = i) -> weight g' a b = weight g a b.
Proof. exact @add_edge_effect. Qed.
Print Assumptions C06_add_edge_effect.
(** For a self-loop the weight is added twice. *)
Theorem C06_add_self_loop_effect :
  forall (W : Type) `{Num W} (g : graph W) i w, reachable g ->
  exists g', add_edge g (Z.of_nat i) (Z.of_nat i) w = Ok g' /\
    number_of_vertices g' = Nat.max (number_of_vertices g) (S i) /\
    weight g' i i = wadd (wadd (weight g i i) w) w /\
    forall a b, ~ (a = i /\ b = i) -> weight g' a b = weight g a b.
Proof. exact @add_self_loop_effect. Qed.
Print Assumptions C06_add_self_loop_effect.
Theorem C06_add_edge_self_loop_refuted :
  exists (g g' : graph Qc) i w, reachable g /\
    add_edge g (Z.of_nat i) (Z.of_nat i) w = Ok g' /\ weight g' i i <> wadd (weight g i i) w.
Proof.
  destruct (add_edge exE 0 0 (qc 1 1)) as [g'| |] eqn:E; try (vm_compute in E; discriminate).
  exists exE, g', 0, (qc 1 1). split; [apply reachable_pos_reachable, exE_reachable|]. split; [exact E|].
  vm_compute in E. injection E as <-. vm_compute. discriminate.
Qed.
Example C06_hypotheses_met : exists g', add_edge exG (Z.of_nat 0) (Z.of_nat 5) (qc 7 1) = Ok g' /\ weight g' 5 0 = qc 7 1 /\ number_of_vertices g' = 6.
Proof. eexists. split; [reflexivity|]. vm_compute. auto. Qed.

(** ** C07 *)
Theorem C07_remove_edge_effect :
  forall (W : Type) `{PosNum W} (g : graph W) i j, reachable g ->
  i < number_of_vertices g -> j < number_of_vertices g ->
  exists g', remove_edge g (Z.of_nat i) (Z.of_nat j) = Ok g' /\
    number_of_vertices g' = number_of_vertices g /\
    weight g' i j = w0 /\ weight g' j i = w0 /\
    (forall a b, sp_get (g_adj g') a b <> None -> weqb (weight g' a b) w0 = false) /\
    forall a b, ~ (a = i /\ b = j) -> ~ (a = j /\ b = i) ->
      weight g' a b = if weqb (weight g a b) w0 then w0 else weight g a b.
Proof. intros W HN HP. exact (@remove_edge_effect W HN HP). Qed.
Print Assumptions C07_remove_edge_effect.
Theorem C07_remove_edge_absent :
  forall (W : Type) `{Num W} (g : graph W) i j,
  (Z.of_nat (number_of_vertices g) <= i \/ Z.of_nat (number_of_vertices g) <= j)%Z ->
  remove_edge g i j = Ok g.
Proof. exact @remove_edge_absent. Qed.
Print Assumptions C07_remove_edge_absent.
Example C07_hypotheses_met : exists g', remove_edge exG 2 1 = Ok g' /\ weight g' 1 2 = qc 0 1 /\ weight g' 0 1 = qc 2 1 /\ sp_nnz (g_adj g') = 3.
Proof. eexists. split; [reflexivity|]. vm_compute. auto. Qed.

(** ** C08: any arithmetic. *)
Theorem C08_matrices_never_stale :
  forall (W : Type) `{Num W} (g : graph W) q, reachable g ->
  snd (mat_query q g) = snd (mat_query q (fresh_graph (g_adj g))).
Proof. exact @caches_coherent. Qed.
Print Assumptions C08_matrices_never_stale.
Theorem C08_queries_do_not_change_the_graph :
  forall (W : Type) `{Num W} (g : graph W) q, reachable g ->
  let g' := fst (mat_query q g) in
  number_of_vertices g' = number_of_vertices g /\ g_adj g' = g_adj g /\ has_self_loops g' = has_self_loops g.
Proof. exact @query_no_effect. Qed.
Print Assumptions C08_queries_do_not_change_the_graph.
Example C08_hypotheses_met :
  reachable exG2 /\ coeff (snd (mat_query QLap exG2)) 0 0 = qc 7 1 /\ c_init (g_lap exG) = false.
Proof. split; [apply reachable_pos_reachable, exG2_reachable|]. vm_compute. auto. Qed.

(** ** C09 *)
Theorem C09_has_self_loops_exact :
  forall (W : Type) `{ExactNum W} (g : graph W), reachable_pos g ->
  (has_self_loops g = true <-> exists v, v < number_of_vertices g /\ rw g v v <> 0%R).
Proof. exact @has_self_loops_exact. Qed.
Print Assumptions C09_has_self_loops_exact.
Theorem C09_no_self_loop_missed :
  forall (W : Type) `{PosNum W} (g : graph W), reachable g -> has_self_loops g = false ->
  forall v, weqb (weight g v v) w0 = true.
Proof. intros W HN HP. exact (@no_missed_loop W HN HP). Qed.
Print Assumptions C09_no_self_loop_missed.
Example C09_hypotheses_met : reachable_pos exG2 /\ has_self_loops exG2 = true /\ has_self_loops exE = false.
Proof. split; [apply exG2_reachable|]. vm_compute. auto. Qed.

(** ** C10 *)
Theorem C10_number_of_edges_exact :
  forall (W : Type) `{ExactNum W} (g : graph W), reachable_pos g ->
  number_of_edges g =
  length (filter (fun p => negb (weqb (weight g (fst p) (snd p)) w0)) (upper_pairs (number_of_vertices g))).
Proof. exact @number_of_edges_exact. Qed.
Print Assumptions C10_number_of_edges_exact.
(** The pairs counted are exactly the unordered pairs, i = j included. *)
Theorem C10_pairs_counted : forall n i j, In (i, j) (upper_pairs n) <-> i <= j < n.
Proof. exact in_upper_pairs. Qed.
Theorem C10_pairs_counted_once : forall n, NoDup (upper_pairs n).
Proof. exact upper_pairs_NoDup. Qed.
(** After add_edge with weight 0 the count is wrong. *)
Theorem C10_number_of_edges_zero_weight_refuted :
  exists g : graph Qc, reachable g /\
  number_of_edges g <>
  length (filter (fun p => negb (weqb (weight g (fst p) (snd p)) w0)) (upper_pairs (number_of_vertices g))).
Proof.
  destruct (add_edge exIso 0 1 (qc 0 1)) as [g'| |] eqn:E; try (vm_compute in E; discriminate).
  exists g'. split.
  - exists (sp_empty 2 2), exIso, [OpAdd 0 1 (qc 0 1)]. split; [apply sp_empty_wf|]. split; [reflexivity|].
    split; [repeat constructor|]. cbn [grun gstep]. now rewrite E.
  - vm_compute in E. injection E as <-. vm_compute. discriminate.
Qed.
Example C10_hypotheses_met : reachable_pos exG /\ number_of_edges exG = 3.
Proof. split; [apply exG_reachable|reflexivity]. Qed.

(** ** C11 *)
Theorem C11_degree :
  forall (W : Type) `{ExactNum W} (g : graph W) v, reachable g -> v < number_of_vertices g ->
  exists d, snd (degree g (Z.of_nat v)) = Ok d /\
    toR d = (rsum (number_of_vertices g) (fun u => rw g v u) + rw g v v)%R.
Proof. exact @degree_exact. Qed.
Print Assumptions C11_degree.
Theorem C11_total_volume :
  forall (W : Type) `{ExactNum W} (g : graph W), reachable g ->
  toR (snd (total_volume g)) = rsum (number_of_vertices g) (rdeg g) /\
  toR (snd (total_volume g)) = (2 * lsum (fun p => rw g (fst p) (snd p)) (upper_pairs (number_of_vertices g)))%R.
Proof.
  intros W HN HE g Hr. split; [now apply total_volume_exact|].
  rewrite total_volume_exact by auto. now apply rdeg_sum.
Qed.
Print Assumptions C11_total_volume.
Theorem C11_average_degree :
  forall (W : Type) `{ExactNum W} (g : graph W), reachable g -> 0 < number_of_vertices g ->
  toR (snd (average_degree g)) = (rsum (number_of_vertices g) (rdeg g) / INR (number_of_vertices g))%R.
Proof. exact @average_degree_exact. Qed.
Print Assumptions C11_average_degree.
Example C11_hypotheses_met :
  reachable exG2 /\ match snd (degree exG2 2) with Ok d => weqb d (qc 6 1) = true | _ => False end /\
  weqb (snd (total_volume exG)) (qc 11 1) = true /\ weqb (snd (average_degree exG)) (qc 11 3) = true.
Proof. split; [apply reachable_pos_reachable, exG2_reachable|]. vm_compute. auto. Qed.

(** ** C12 *)
Theorem C12_neighbors_exact :
  forall (W : Type) `{PosNum W} (g : graph W) v, reachable g -> v < number_of_vertices g ->
  exists es, neighbors g (Z.of_nat v) = Ok es /\
    StronglySorted lt (map v2 es) /\
    forall e, In e es <->
      v1 e = v /\ v2 e < number_of_vertices g /\ ewt e = weight g v (v2 e) /\ weqb (ewt e) w0 = false.
Proof. intros W HN HP. exact (@neighbors_exact W HN HP). Qed.
Print Assumptions C12_neighbors_exact.
Theorem C12_unweighted_queries_agree :
  forall (W : Type) `{PosNum W} (g : graph W) v, reachable g -> no_stored_zero g -> v < number_of_vertices g ->
  exists es, neighbors g (Z.of_nat v) = Ok es /\
    neighbors_unweighted g (Z.of_nat v) = Ok (map v2 es) /\
    degree_unweighted g (Z.of_nat v) = Ok (length es + if weqb (weight g v v) w0 then 0 else 1).
Proof. intros W HN HP. exact (@unweighted_agree W HN). Qed.
Print Assumptions C12_unweighted_queries_agree.
Theorem C12_invalid_vertex_rejected :
  forall (W : Type) `{Num W} (g : graph W) v, ~ (0 <= v < Z.of_nat (number_of_vertices g))%Z ->
  neighbors g v = Throw InvalidArgument /\
  neighbors_unweighted g v = Throw InvalidArgument /\
  degree_unweighted g v = Throw InvalidArgument /\
  degree g v = (g, Throw InvalidArgument) /\
  vertex_exists g v = false.
Proof. exact @local_queries_invalid. Qed.
Print Assumptions C12_invalid_vertex_rejected.
Theorem C12_vertex_exists : forall (W : Type) `{Num W} (g : graph W) v,
  vertex_exists g v = true <-> (0 <= v < Z.of_nat (number_of_vertices g))%Z.
Proof. intros W _. exact (@vertex_exists_spec W). Qed.
(** degrees(vs) and degrees_unweighted(vs): the answers of degree / degree_unweighted, one per vertex, in the order asked;
    invalid_argument exactly when some vertex is not in the graph. *)
Theorem C12_degrees_in_order :
  forall (W : Type) `{Num W} (g : graph W) vs, reachable g ->
  match snd (degrees g vs) with
  | Ok ds => Forall2 (fun v d => snd (degree g v) = Ok d) vs ds
  | Throw e => e = InvalidArgument /\ exists v, In v vs /\ ~ (0 <= v < Z.of_nat (number_of_vertices g))%Z
  | UB => False
  end.
Proof. exact @degrees_in_order. Qed.
Print Assumptions C12_degrees_in_order.
Theorem C12_degrees_unweighted_in_order :
  forall (W : Type) `{Num W} (g : graph W) vs,
  match degrees_unweighted g vs with
  | Ok ds => Forall2 (fun v d => degree_unweighted g v = Ok d) vs ds
  | Throw e => e = InvalidArgument /\ exists v, In v vs /\ ~ (0 <= v < Z.of_nat (number_of_vertices g))%Z
  | UB => False
  end.
Proof. exact @degrees_unweighted_in_order. Qed.
Print Assumptions C12_degrees_unweighted_in_order.
Example C12_hypotheses_met :
  reachable exG /\ neighbors exG 2 = Ok [mkEdge 2 1 (qc 1 2); mkEdge 2 2 (qc 3 1)] /\
  degree_unweighted exG 2 = Ok 3 /\ no_stored_zero exG.
Proof.
  split; [apply reachable_pos_reachable, exG_reachable|]. split; [vm_compute; reflexivity|]. split; [reflexivity|].
  intros i j v G. apply pn_nz. eapply exG_above; eauto.
Qed.

(** ** C13 *)
Theorem C13_laplacian_entries :
  forall (W : Type) `{ExactNum W} (g : graph W) u v, reachable g ->
  u < number_of_vertices g -> v < number_of_vertices g ->
  rcoeff (snd (mat_query QLap g)) u v = ((if u =? v then rdeg g u else 0) - rw g u v)%R /\
  rcoeff (snd (mat_query QSLap g)) u v = ((if u =? v then rdeg g u else 0) + rw g u v)%R.
Proof. intros W HN HE g u v Hr Hu Hv. split; [now apply laplacian_coeff|now apply signless_coeff]. Qed.
Print Assumptions C13_laplacian_entries.
Theorem C13_laplacian_quadratic_form :
  forall (W : Type) `{ExactNum W} (g : graph W) x, reachable g ->
  quad (number_of_vertices g) (rcoeff (snd (mat_query QLap g))) x =
  (lsum (fun p => rw g (fst p) (snd p) * (x (fst p) - x (snd p))^2) (upper_pairs (number_of_vertices g))
   + rsum (number_of_vertices g) (fun u => rw g u u * x u ^ 2))%R.
Proof. exact @laplacian_quad. Qed.
Print Assumptions C13_laplacian_quadratic_form.
Theorem C13_laplacians_positive_semidefinite :
  forall (W : Type) `{ExactNum W} (g : graph W) x, reachable_pos g ->
  (0 <= quad (number_of_vertices g) (rcoeff (snd (mat_query QLap g))) x)%R /\
  (0 <= quad (number_of_vertices g) (rcoeff (snd (mat_query QSLap g))) x)%R.
Proof. intros W HN HE g x Hr. split; [now apply laplacian_psd|now apply signless_psd]. Qed.
Print Assumptions C13_laplacians_positive_semidefinite.
Theorem C13_laplacian_row_sums :
  forall (W : Type) `{ExactNum W} (g : graph W) u, reachable g -> u < number_of_vertices g ->
  rsum (number_of_vertices g) (rcoeff (snd (mat_query QLap g)) u) = rw g u u.
Proof. exact @laplacian_rowsum. Qed.
Print Assumptions C13_laplacian_row_sums.
Example C13_hypotheses_met :
  reachable_pos exG /\ coeff (snd (mat_query QLap exG)) 2 2 = qc 7 2 /\ coeff (snd (mat_query QLap exG)) 0 1 = qc (-2) 1.
Proof. split; [apply exG_reachable|]. vm_compute. auto. Qed.

(** ** C14: over the real numbers (square roots).  Isolated vertices are included: rw = 0 on their row. *)
Theorem C14_normalised_laplacian_entries :
  forall (signless : bool) (g : graph R) u v, reachable_pos g ->
  u < number_of_vertices g -> v < number_of_vertices g ->
  rcoeff (snd (mat_query (if signless then QNSLap else QNLap) g)) u v =
  ((if u =? v then 1 else 0) + (if signless then 1 else -1) *
     (if Req_EM_T (rw g u v) 0 then 0 else rw g u v / sqrt (rdeg g u * rdeg g v)))%R.
Proof. exact normalised_coeff_pos. Qed.
Print Assumptions C14_normalised_laplacian_entries.
Theorem C14_normalised_laplacian_spectrum_bounds :
  forall (signless : bool) (g : graph R) x, reachable_pos g ->
  (0 <= quad (number_of_vertices g) (rcoeff (snd (mat_query (if signless then QNSLap else QNLap) g))) x
     <= 2 * rsum (number_of_vertices g) (fun v => x v ^ 2))%R.
Proof. exact normalised_bounds_pos. Qed.
Print Assumptions C14_normalised_laplacian_spectrum_bounds.
Example C14_hypotheses_met : reachable_pos exR /\ forall v, v < number_of_vertices exR -> (0 < rdeg exR v)%R.
Proof. split; [apply exR_reachable|]. intros v Hv. rewrite exR_deg by exact Hv. lra. Qed.

(** ** C15 *)
Theorem C15_lazy_walk_entries :
  forall (W : Type) `{ExactNum W} (g : graph W) u v, reachable g ->
  u < number_of_vertices g -> v < number_of_vertices g -> rdeg g v <> 0%R ->
  rcoeff (snd (mat_query QLrw g)) u v = ((if u =? v then / 2 else 0) + rw g u v / (2 * rdeg g v))%R /\
  rcoeff (snd (mat_query QInv g)) u v = (if u =? v then / rdeg g v else 0)%R.
Proof.
  intros W HN HE g u v Hr Hu Hv Hd. split; [now apply lazy_walk_coeff|now apply inverse_degree_coeff].
Qed.
Print Assumptions C15_lazy_walk_entries.
(** Column sums: 1 exactly when the vertex has no self-loop. *)
Theorem C15_lazy_walk_column_sums_partial :
  forall (W : Type) `{ExactNum W} (g : graph W) v, reachable_pos g ->
  v < number_of_vertices g -> (0 < rdeg g v)%R ->
  rsum (number_of_vertices g) (fun u => rcoeff (snd (mat_query QLrw g)) u v) = (1 - rw g v v / (2 * rdeg g v))%R /\
  forall u, u < number_of_vertices g -> (0 <= rcoeff (snd (mat_query QLrw g)) u v)%R.
Proof.
  intros W HN HE g v Hr Hv Hd. split.
  - apply lazy_walk_colsum; auto; [now apply reachable_pos_reachable|lra].
  - intros u Hu. now apply lazy_walk_nonneg.
Qed.
Print Assumptions C15_lazy_walk_column_sums_partial.
Theorem C15_lazy_walk_isolated_vertex :
  forall (W : Type) `{ExactNum W} (g : graph W) u v, reachable_pos g ->
  u < number_of_vertices g -> v < number_of_vertices g -> rdeg g v = 0%R ->
  rcoeff (snd (mat_query QLrw g)) u v = (if u =? v then / 2 else 0)%R.
Proof. exact @lazy_walk_isolated. Qed.
Print Assumptions C15_lazy_walk_isolated_vertex.
Theorem C15_column_stochastic_refuted :
  exists (g : graph Qc) v, reachable_pos g /\ v < number_of_vertices g /\ (0 < rdeg g v)%R /\
  rsum (number_of_vertices g) (fun u => rcoeff (snd (mat_query QLrw g)) u v) <> 1%R.
Proof.
  assert (snd (degree exG 2) = Ok (qc 13 2)) as Hd0 by (vm_compute; reflexivity).
  pose proof (reachable_pos_reachable exG exG_reachable) as Hr.
  destruct (degree_exact exG 2 Hr) as (d & Ed & Hd); [vm_compute; lia|].
  change (Z.of_nat 2) with 2%Z in Ed. rewrite Hd0 in Ed. injection Ed as <-.
  assert (rdeg exG 2 = 13 / 2)%R as E2.
  { rewrite <- Hd. cbn [toR ExactQc]. unfold qc. rewrite QcR_Q2Qc. unfold Q2R. simpl. lra. }
  exists exG, 2. split; [apply exG_reachable|]. split; [vm_compute; lia|]. split; [lra|].
  rewrite lazy_walk_colsum; [|exact Hr|vm_compute; lia|lra]. rewrite E2.
  assert (rw exG 2 2 = 3)%R as ->.
  { unfold rw. change (weight exG 2 2) with (qc 3 1). cbn [toR ExactQc]. unfold qc. rewrite QcR_Q2Qc. unfold Q2R. simpl. lra. }
  lra.
Qed.
(** graph.h documents 0 for the inverse degree of an isolated vertex; the code stores +infinity. *)
Theorem C15_inverse_degree_isolated_refuted :
  exists g : graph f64, reachable_pos g /\ weight g 0 0 = w0 /\ number_of_vertices g = 1 /\
  coeff (snd (mat_query QInv g)) 0 0 = S754_infinity false.
Proof. exists exF0. split; [apply exF0_reachable|]. vm_compute. auto. Qed.
Example C15_hypotheses_met : reachable_pos exG /\ coeff (snd (mat_query QLrw exG)) 1 0 = qc 1 2 /\ coeff (snd (mat_query QLrw exG)) 0 1 = qc 2 5.
Proof. split; [apply exG_reachable|]. vm_compute. auto. Qed.

(** ** C16 *)
Theorem C16_equality :
  forall (W : Type) `{PosNum W} (g h : graph W),
  reachable g -> reachable h -> weights_above_eps g -> weights_above_eps h ->
  (graph_eqb g h = true <->
   number_of_vertices g = number_of_vertices h /\ forall i j, weight g i j = weight h i j) /\
  graph_neqb g h = negb (graph_eqb g h).
Proof.
  intros W HN HP g h Hg Hh Ag Ah. split; [|reflexivity].
  apply graph_eqb_iff; try (apply above_proper; assumption); now apply reachable_ok.
Qed.
Print Assumptions C16_equality.
(** Exact arithmetic: any history of positive additions. *)
Theorem C16_equality_exact :
  forall (W : Type) `{ExactNum W} (g h : graph W),
  reachable_pos g -> reachable_pos h ->
  (graph_eqb g h = true <->
   number_of_vertices g = number_of_vertices h /\ forall i j, weight g i j = weight h i j).
Proof. exact @graph_eqb_exact. Qed.
Print Assumptions C16_equality_exact.
Example C16_hypotheses_met : reachable exG /\ weights_above_eps exG /\ graph_eqb exG exG = true /\ graph_eqb exG exE = false.
Proof. split; [apply reachable_pos_reachable, exG_reachable|]. split; [apply exG_above|]. vm_compute. auto. Qed.

(** ** C17 *)
Theorem C17_addition :
  forall (W : Type) `{ExactNum W} (g h : graph W), reachable_pos g -> reachable_pos h ->
  number_of_vertices g = number_of_vertices h ->
  exists k, graph_add g h = Ok k /\ number_of_vertices k = number_of_vertices g /\
    (forall i j, weight k i j = above_eps (wadd (weight g i j) (weight h i j))) /\
    (weights_above_eps g -> weights_above_eps h ->
     forall i j, rw k i j = (rw g i j + rw h i j)%R).
Proof.
  intros W HN HE g h Hg Hh En. destruct (graph_add_spec g h Hg Hh En) as (k & E & Ek & Ew).
  exists k. repeat split; auto. intros Ag Ah i j. unfold rw. rewrite Ew, graph_add_above by auto. apply toR_add.
Qed.
Print Assumptions C17_addition.
Theorem C17_addition_size_mismatch :
  forall (W : Type) `{Num W} (g h : graph W),
  number_of_vertices g <> number_of_vertices h -> graph_add g h = Throw InvalidArgument.
Proof. exact @graph_add_mismatch. Qed.
Print Assumptions C17_addition_size_mismatch.
Theorem C17_scaling :
  forall (W : Type) `{ExactNum W} s (g : graph W), reachable_pos g -> (0 <= toR s)%R ->
  exists k, graph_scale s g = Ok k /\ number_of_vertices k = number_of_vertices g /\
    forall i j, weight k i j = above_eps (wmul s (weight g i j)).
Proof. exact @graph_scale_spec. Qed.
Print Assumptions C17_scaling.
Theorem C17_scaling_negative_refused :
  forall (W : Type) `{ExactNum W} s (g : graph W) u v, reachable_pos g -> (toR s < 0)%R -> rw g u v <> 0%R ->
  graph_scale s g = Throw DomainError.
Proof. exact @graph_scale_negative. Qed.
Print Assumptions C17_scaling_negative_refused.
Example C17_hypotheses_met :
  reachable_pos exG /\ has_weight (graph_add exG exG) 2 2 (qc 6 1) = true /\
  graph_scale (qc (-1) 1) exG = Throw DomainError /\ has_weight (graph_scale (qc 2 1) exG) 1 2 (qc 1 1) = true.
Proof. split; [apply exG_reachable|]. vm_compute. auto. Qed.

(** ** C18: for every iteration order of the hash set. *)
Theorem C18_subgraph :
  forall (W : Type) `{PosNum W} (g : graph W) vs, reachable g -> nonneg_entries (g_adj g) ->
  (forall v, In v vs -> (0 <= v < Z.of_nat (number_of_vertices g))%Z) ->
  exists ds, first_occurrences vs ds /\
    forall iter, Permutation iter ds ->
    exists k, subgraph g vs iter = Ok k /\ number_of_vertices k = length ds /\
      forall a b, a < length ds -> b < length ds ->
        weight k a b = above_eps (weight g (Z.to_nat (nth a ds 0%Z)) (Z.to_nat (nth b ds 0%Z))).
Proof.
  intros W HN HP g vs Hr Hn Hv. exists (dedup [] vs). split; [apply dedup_first|].
  intros iter Hp. now apply subgraph_spec.
Qed.
Print Assumptions C18_subgraph.
Theorem C18_subgraph_weights_kept :
  forall (W : Type) `{PosNum W} (g : graph W) i j, weights_above_eps g -> above_eps (weight g i j) = weight g i j.
Proof. intros W HN HP g i j Ha. now apply weight_above. Qed.
Theorem C18_subgraph_invalid_vertex :
  forall (W : Type) `{Num W} (g : graph W) vs ds iter v, reachable g ->
  first_occurrences vs ds -> Permutation iter ds -> In v vs ->
  ~ (0 <= v < Z.of_nat (number_of_vertices g))%Z -> subgraph g vs iter = Throw InvalidArgument.
Proof. exact @subgraph_invalid_any. Qed.
Print Assumptions C18_subgraph_invalid_vertex.
Example C18_hypotheses_met :
  has_vertices (subgraph exG [2; 1; 2]%Z [1; 2]%Z) 2 = true /\
  has_weight (subgraph exG [2; 1; 2]%Z [1; 2]%Z) 0 0 (qc 3 1) = true /\
  has_weight (subgraph exG [2; 1; 2]%Z [1; 2]%Z) 0 1 (qc 1 2) = true /\
  subgraph exG [2; 7]%Z [7; 2]%Z = Throw InvalidArgument.
Proof. vm_compute. auto. Qed.

(** ** C19 *)
Theorem C19_disjoint_union_partial :
  forall (W : Type) `{PosNum W} (g h : graph W),
  reachable g -> reachable h -> nonneg_entries (g_adj g) -> nonneg_entries (g_adj h) ->
  (* missing: [h] whose vertex 0 is isolated *)
  (number_of_vertices h = 0 \/ exists u, sp_get (g_adj h) u 0 <> None) ->
  exists k, disjoint_union g h = Ok k /\
    number_of_vertices k = number_of_vertices g + number_of_vertices h /\
    forall i j, weight k i j =
      if (i <? number_of_vertices g) && (j <? number_of_vertices g) then above_eps (weight g i j)
      else if (i <? number_of_vertices g) || (j <? number_of_vertices g) then w0
      else above_eps (weight h (i - number_of_vertices g) (j - number_of_vertices g)).
Proof. intros W HN HP. exact (@disjoint_union_spec W HN HP). Qed.
Print Assumptions C19_disjoint_union_partial.
Theorem C19_disjoint_union_refuted :
  exists g h k : graph Qc, reachable_pos g /\ reachable_pos h /\ disjoint_union g h = Ok k /\
    number_of_vertices k <> number_of_vertices g + number_of_vertices h.
Proof.
  destruct (disjoint_union exE exIso) as [k| |] eqn:E; try (vm_compute in E; discriminate).
  exists exE, exIso, k. split; [apply exE_reachable|]. split; [apply exIso_reachable|]. split; [exact E|].
  vm_compute in E. injection E as <-. vm_compute. discriminate.
Qed.
Example C19_hypotheses_met :
  reachable exG /\ sp_get (g_adj exG) 1 0 <> None /\
  has_vertices (disjoint_union exE exG) 5 = true /\ has_weight (disjoint_union exE exG) 4 4 (qc 3 1) = true /\
  has_weight (disjoint_union exE exG) 1 2 (qc 0 1) = true.
Proof.
  split; [apply reachable_pos_reachable, exG_reachable|]. split; [discriminate|]. vm_compute. auto.
Qed.

(** ** C20 *)
Theorem C20_complete_graph :
  forall (W : Type) `{PosNum W} n, (2 <= n)%Z ->
  exists g, complete_graph n = Ok g /\ number_of_vertices g = Z.to_nat n /\ reachable g /\ weights_above_eps g /\
    forall i j, i < Z.to_nat n -> j < Z.to_nat n -> weight g i j = if i =? j then w0 else w1.
Proof. intros W HN HP. exact (@complete_graph_spec W HN HP). Qed.
Print Assumptions C20_complete_graph.
Theorem C20_cycle_graph :
  forall (W : Type) `{PosNum W} n, (3 <= n)%Z ->
  exists g, cycle_graph n = Ok g /\ number_of_vertices g = Z.to_nat n /\ reachable g /\ weights_above_eps g /\
    forall i j, i < Z.to_nat n -> j < Z.to_nat n ->
      weight g i j = if (j =? (i + 1) mod Z.to_nat n) || (i =? (j + 1) mod Z.to_nat n) then w1 else w0.
Proof. intros W HN HP. exact (@cycle_graph_spec W HN HP). Qed.
Print Assumptions C20_cycle_graph.
(** cycle_graph(2) is the single edge with weight 1 + 1. *)
Theorem C20_cycle_graph_2_has_weight_2 :
  exists g : graph f64, cycle_graph 2 = Ok g /\ number_of_vertices g = 2 /\
    weight g 0 1 = wadd w1 w1 /\ weight g 1 0 = wadd w1 w1 /\ weight g 0 0 = w0 /\ weight g 1 1 = w0.
Proof. eexists. split; [vm_compute; reflexivity|]. vm_compute. auto 6. Qed.
Theorem C20_star_graph :
  forall (W : Type) `{PosNum W} n, (2 <= n)%Z ->
  exists g, star_graph n = Ok g /\ number_of_vertices g = Z.to_nat n /\ reachable g /\ weights_above_eps g /\
    forall i j, i < Z.to_nat n -> j < Z.to_nat n ->
      weight g i j = if (i =? 0) then (if j =? 0 then w0 else w1) else (if j =? 0 then w1 else w0).
Proof. intros W HN HP. exact (@star_graph_spec W HN HP). Qed.
Print Assumptions C20_star_graph.
Theorem C20_barbell_graph :
  forall (W : Type) `{PosNum W} n, (2 <= n)%Z -> let m := Z.to_nat n in
  exists g, barbell_graph n = Ok g /\ number_of_vertices g = 2 * m /\ reachable g /\ weights_above_eps g /\
    forall i j, i < 2 * m -> j < 2 * m ->
      weight g i j = (if i =? j then w0
                      else if Bool.eqb (i <? m) (j <? m) then w1
                      else if ((i =? m - 1) && (j =? m)) || ((i =? m) && (j =? m - 1)) then w1 else w0).
Proof. intros W HN HP. exact (@barbell_graph_spec W HN HP). Qed.
Print Assumptions C20_barbell_graph.
Theorem C20_identity_graph :
  forall (W : Type) `{PosNum W} n, (1 <= n)%Z ->
  exists g, identity_graph n = Ok g /\ number_of_vertices g = Z.to_nat n /\ reachable g /\ weights_above_eps g /\
    forall i j, i < Z.to_nat n -> j < Z.to_nat n -> weight g i j = if i =? j then w1 else w0.
Proof. intros W HN HP. exact (@identity_graph_spec W HN HP). Qed.
Print Assumptions C20_identity_graph.
Theorem C20_too_small_rejected :
  forall (W : Type) `{Num W} n,
  ((n < 2)%Z -> cycle_graph (W := W) n = Throw InvalidArgument /\ complete_graph (W := W) n = Throw InvalidArgument /\
                star_graph (W := W) n = Throw InvalidArgument /\ barbell_graph (W := W) n = Throw InvalidArgument) /\
  ((n < 1)%Z -> identity_graph (W := W) n = Throw InvalidArgument).
Proof. exact @standard_graphs_reject. Qed.
Print Assumptions C20_too_small_rejected.

(** ** C21 *)
Theorem C21_is_symmetric :
  forall (W : Type) `{Num W} (M : sprs W), sp_wf M ->
  (is_symmetric M = true <-> forall i j v, sp_get M i j = Some v -> weqb v (coeff M j i) = true).
Proof. exact @is_symmetric_spec. Qed.
Print Assumptions C21_is_symmetric.
Theorem C21_is_symmetric_exact :
  forall (W : Type) `{ExactNum W} (M : sprs W), sp_wf M ->
  (is_symmetric M = true <-> forall i j, rcoeff M i j = rcoeff M j i).
Proof. exact @is_symmetric_exact. Qed.
Print Assumptions C21_is_symmetric_exact.
Theorem C21_from_vectors_inverts :
  forall (W : Type) `{Num W} (M : sprs W) n, sp_square M n ->
  from_vectors (outer_starts M) (inner_indices M) (sp_values M) = Ok M.
Proof. intros W HN M n. apply from_vectors_roundtrip. Qed.
Print Assumptions C21_from_vectors_inverts.
Theorem C21_sparse_to_vector :
  forall (W : Type) `{Num W} (M : sprs W) n, sp_wf M ->
  ((n < 1)%Z -> sprs_to_vec M n = Throw InvalidArgument) /\
  ((1 <= n)%Z -> exists l, sprs_to_vec M n = Ok l /\ length l = Z.to_nat n /\
      forall i, i < Z.to_nat n -> nth i l w0 = coeff M i 0).
Proof. exact @sprs_to_vec_spec. Qed.
Print Assumptions C21_sparse_to_vector.
Theorem C21_add_vectors :
  forall (W : Type) `{ExactNum W} (a b : list W),
  length (add_vectors a b) = Nat.max (length a) (length b) /\
  forall i, toR (nth i (add_vectors a b) w0) = (toR (nth i a w0) + toR (nth i b w0))%R.
Proof. exact @add_vectors_spec. Qed.
Print Assumptions C21_add_vectors.
Example C21_hypotheses_met : sp_square exM 3 /\ is_symmetric exM = true /\ sprs_to_vec exM 4 = Ok [qc 0 1; qc 2 1; qc 0 1; qc 0 1].
Proof. split; [apply exM_square|]. vm_compute. auto. Qed.
