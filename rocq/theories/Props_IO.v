(** Property theorems about stag_lib/graphio.cpp and the line reader of stag_lib/utility.cpp (C33-C41). *)
From Verif Require Import Base Num Sparse SparseFacts Graph GraphSpec GraphFacts GraphProps1 GraphProps2 GraphProps4 GraphExamples
  Cluster ClusterExamples Text TextFacts TextQc GraphIO IOSpec GraphIOFacts GraphIOLoad GraphIOAdj GraphIOSort GraphIOConv GraphIOBack
  GraphIOBad IOExamples.
From Coq Require Import Ascii String List Sorting.Sorted Permutation QArith Qcanon.
Import ListNotations.
Local Close Scope Q_scope. Local Close Scope Qc_scope.
Local Open Scope nat_scope.
Local Open Scope char_scope.
Local Open Scope list_scope.

(** ** C33 *)
(** [render]: lines each with its own ending; [lst]: an unterminated last line.  The loop over safeGetline sees the
    lines followed by one empty line, whatever the endings.  [unambiguous] only excludes an empty LF-terminated line directly after
    a CR-terminated one, which is the same text as one CRLF. *)
Theorem C33_line_endings :
  forall (ls : list (text * ending)) (lst : text),
  Forall (fun p => one_line (fst p)) ls -> one_line lst -> unambiguous ls ->
  read_lines (render ls ++ lst) = map fst ls ++ (match lst with [] => [[]] | _ => [lst; []] end).
Proof. exact read_render. Qed.
Print Assumptions C33_line_endings.
(** One kind of ending for the whole file: no condition. *)
Theorem C33_uniform_ending :
  forall (e e' : ending) (ls : list text), Forall one_line ls ->
  read_lines (render (map (fun l => (l, e)) ls)) = read_lines (render (map (fun l => (l, e')) ls)).
Proof.
  intros e e' ls Hl.
  assert (forall d, read_lines (render (map (fun l => (l, d)) ls)) = ls ++ [[]]) as Hd; [|now rewrite !Hd].
  intros d. pose proof (read_render (map (fun l => (l, d)) ls) []) as E. rewrite app_nil_r, map_map in E. cbn [fst] in E.
  rewrite map_id in E. apply E; [now apply Forall_map|apply free_of_nil|apply unambiguous_uniform].
Qed.
Print Assumptions C33_uniform_ending.
Theorem C33_last_line_termination :
  forall (e : ending) (ls : list text) (lst : text), Forall one_line ls -> one_line lst -> lst <> [] ->
  read_lines (render (map (fun l => (l, e)) (ls ++ [lst]))) = read_lines (render (map (fun l => (l, e)) ls) ++ lst).
Proof.
  intros e ls lst Hl Hlst Hne.
  pose proof (read_render (map (fun l => (l, e)) (ls ++ [lst])) []) as E1. rewrite app_nil_r, map_map in E1. cbn [fst] in E1. rewrite map_id in E1.
  pose proof (read_render (map (fun l => (l, e)) ls) lst) as E2. rewrite map_map in E2. cbn [fst] in E2. rewrite map_id in E2.
  rewrite E1, E2; auto using unambiguous_uniform, free_of_nil.
  - destruct lst; [congruence|]. now rewrite <- app_assoc.
  - now apply Forall_map.
  - apply Forall_map, Forall_app. split; auto.
  - apply free_of_nil.
Qed.
Print Assumptions C33_last_line_termination.
Example C33_hypotheses_met :
  let ls := [(txt "0 1", ECRLF); ([], ECR); (txt "1 2", ELF)] in
  Forall (fun p => one_line (fst p)) ls /\ one_line (txt "2 0") /\ unambiguous ls /\
  read_lines (render ls ++ txt "2 0") = [txt "0 1"; []; txt "1 2"; txt "2 0"; []].
Proof.
  split; [repeat constructor; apply free_ofb_iff; reflexivity|]. split; [apply free_ofb_iff; reflexivity|]. split; [exact I|]. vm_compute. reflexivity.
Qed.

(** ** C34 *)
(** [edgelist_text]: every line is a comment, blank, or an edge in one of the accepted forms.  Weights not above 1e-10 are dropped by the
    constructor ([above_eps]).  Missing: the diagonal, where the code gives twice the sum. *)
Theorem C34_load_edgelist_partial :
  forall (W : Type) `{PosNum W} `{!TextNum W} (file : text) (es : list (nat * nat * W)),
  edgelist_text (file_lines file) es ->
  (forall u v, weights_between es u v <> [] -> wltb (total (weights_between es u v)) w0 = false) ->
  (forall u, weights_between es u u <> [] -> wltb (total (flat_map (fun w => [w; w]) (weights_between es u u))) w0 = false) ->
  exists g, load_edgelist file = Ok g /\ number_of_vertices g = vertex_count es /\ reachable g /\
    forall u v, u <> v -> weight g u v = above_eps (total (weights_between es u v)).
Proof.
  intros W HN HP HT file es Ht H1 H2. destruct (load_edgelist_spec file es Ht H1 H2) as (g & E & En & _ & Hr & Hw & _). exists g. auto.
Qed.
Print Assumptions C34_load_edgelist_partial.
(** What happens on the diagonal: every self-loop weight is added twice. *)
Theorem C34_self_loop_effect :
  forall (W : Type) `{PosNum W} `{!TextNum W} (file : text) (es : list (nat * nat * W)),
  edgelist_text (file_lines file) es ->
  (forall u v, weights_between es u v <> [] -> wltb (total (weights_between es u v)) w0 = false) ->
  (forall u, weights_between es u u <> [] -> wltb (total (flat_map (fun w => [w; w]) (weights_between es u u))) w0 = false) ->
  exists g, load_edgelist file = Ok g /\
    forall u, weight g u u = above_eps (total (flat_map (fun w => [w; w]) (weights_between es u u))).
Proof.
  intros W HN HP HT file es Ht H1 H2. destruct (load_edgelist_spec file es Ht H1 H2) as (g & E & _ & _ & _ & _ & Hw). exists g. auto.
Qed.
Print Assumptions C34_self_loop_effect.
(** "1 1 2" gives vertex 1 a self-loop of weight 4. *)
Theorem C34_self_loop_refuted :
  exists (file : text) (es : list (nat * nat * Qc)) g, edgelist_text (file_lines file) es /\ load_edgelist file = Ok g /\
    weqb (total (weights_between es 1 1)) (qc 2 1) = true /\ weqb (weight g 1 1) (qc 4 1) = true.
Proof.
  exists exLoopFile, (edges_of_file exLoopFile). destruct (load_edgelist exLoopFile) as [g| |] eqn:E; try (vm_compute in E; discriminate).
  exists g. split; [apply edges_of_file_text; vm_compute; reflexivity|]. split; [reflexivity|]. split; [vm_compute; reflexivity|].
  assert (match load_edgelist exLoopFile with Ok g => weqb (weight g 1 1) (qc 4 1) | _ => false end = true) as Hw by (vm_compute; reflexivity).
  rewrite E in Hw. exact Hw.
Qed.
Print Assumptions C34_self_loop_refuted.
Lemma weights_between_pos (es : list (nat * nat * Qc)) n : vertex_count es = n ->
  forallb (fun u => forallb (fun v => negb (wltb (total (weights_between es u v)) w0)) (seq 0 n)) (seq 0 n) = true ->
  forall u v, weights_between es u v <> [] -> wltb (total (weights_between es u v)) w0 = false.
Proof.
  intros En Hf u v Hne. assert (exists w, In w (weights_between es u v)) as [w Hw] by (destruct (weights_between es u v); [congruence|eexists; now left]).
  unfold weights_between in Hw. apply in_map_iff in Hw. destruct Hw as ([[a b] x] & _ & Hin). apply filter_In in Hin. destruct Hin as [Hin Hab].
  apply vertex_count_lt in Hin as Hlt. rewrite En in Hlt.
  assert (u < n /\ v < n) as [Hu Hv].
  { apply orb_prop in Hab. destruct Hab as [E|E]; apply andb_prop in E; destruct E as [E1 E2]; apply Nat.eqb_eq in E1, E2; subst; tauto. }
  rewrite forallb_forall in Hf. specialize (Hf u ltac:(apply in_seq; lia)). rewrite forallb_forall in Hf.
  specialize (Hf v ltac:(apply in_seq; lia)). now apply negb_true_iff in Hf.
Qed.
Lemma no_loops_pos (es : list (nat * nat * Qc)) : forallb (fun e => negb (fst (fst e) =? snd (fst e))%nat) es = true ->
  forall u, weights_between es u u = [].
Proof.
  intros Hf u. unfold weights_between. rewrite forallb_forall in Hf. induction es as [|[[a b] w] es IH]; [reflexivity|]. cbn [filter].
  pose proof (Hf (a, b, w) (or_introl eq_refl)) as Hab. simpl in Hab. rewrite negb_true_iff, Nat.eqb_neq in Hab.
  destruct (Nat.eqb_spec a u), (Nat.eqb_spec b u); simpl; try (apply IH; intros x Hx; apply Hf; now right). congruence.
Qed.
Example C34_hypotheses_met :
  let es := edges_of_file exFile in
  edgelist_text (file_lines exFile) es /\ vertex_count es = 3 /\ List.length es = 4 /\
  (forall u v, weights_between es u v <> [] -> wltb (total (weights_between es u v)) w0 = false) /\
  (forall u, weights_between es u u <> [] -> wltb (total (flat_map (fun w => [w; w]) (weights_between es u u))) w0 = false) /\
  weqb (total (weights_between es 0 1)) (qc 4 1) = true.
Proof.
  split; [apply edges_of_file_text; vm_compute; reflexivity|]. split; [vm_compute; reflexivity|]. split; [vm_compute; reflexivity|].
  split; [apply (weights_between_pos _ 3); vm_compute; reflexivity|]. split; [|vm_compute; reflexivity].
  intros u Hne. rewrite (no_loops_pos (edges_of_file exFile)) in Hne by (vm_compute; reflexivity). congruence.
Qed.

(** ** C35 *)
(** Missing: graphs with self-loops, with isolated vertices after the last non-isolated one, or with weights which six significant digits do
    not represent; the code loses these (refutations below). *)
Theorem C35_edgelist_round_trip_partial :
  forall (W : Type) `{PosNum W} `{!TextNum W} (g : graph W),
  reachable g -> weights_above_eps g -> int_ids g -> printable_weights g -> (forall u, weight g u u = w0) -> last_not_isolated g ->
  exists h, load_edgelist (save_edgelist g) = Ok h /\ graph_eqb g h = true /\
    number_of_vertices h = number_of_vertices g /\ forall u v, weight h u v = weight g u v.
Proof. exact @edgelist_roundtrip. Qed.
Print Assumptions C35_edgelist_round_trip_partial.
Example C35_hypotheses_met :
  reachable exW /\ weights_above_eps exW /\ int_ids exW /\ printable_weights exW /\ (forall u, weight exW u u = w0) /\ last_not_isolated exW.
Proof.
  split; [apply exW_reachable|]. split; [eapply (constructed_above_eps exW_M exW); [apply exW_wf|apply exW_ok]|].
  split; [unfold int_ids; vm_compute; discriminate|]. split; [apply printable_all; vm_compute; reflexivity|]. split.
  - intros u. do 3 (destruct u as [|u]; [reflexivity|]). unfold weight, coeff, sp_get, sp_col. cbn [exW fresh_graph g_adj exW_M sp_cols nth]. now destruct u.
  - right. exists 1. vm_compute. discriminate.
Qed.
(** The edge {0,1} with weight 1234567 is saved as 1.23457e+06. *)
Definition exBig : graph Qc := fresh_graph (mkSprs 2 [[(1, qc 1234567 1)]; [(0, qc 1234567 1)]]).
Definition loses (save_load : graph Qc -> outcome (graph Qc)) (g : graph Qc) : bool :=
  match save_load g with Ok h => negb (graph_eqb g h) | _ => false end.
Lemma exBig_reachable : reachable exBig.
Proof.
  exists (mkSprs 2 [[(1, qc 1234567 1)]; [(0, qc 1234567 1)]]), exBig, [].
  split; [apply sp_wfb_iff; reflexivity|]. split; [vm_compute; reflexivity|]. split; [constructor|reflexivity].
Qed.
Lemma loses_ex save_load g : loses save_load g = true -> exists h, save_load g = Ok h /\ graph_eqb g h = false.
Proof. unfold loses. destruct (save_load g) as [h| |]; try discriminate. intros E. exists h. split; auto. now apply negb_true_iff. Qed.
Theorem C35_round_trip_refuted :
  (exists g h : graph Qc, reachable g /\ load_edgelist (save_edgelist g) = Ok h /\ graph_eqb g h = false) /\
  (exists h, load_edgelist (save_edgelist exG) = Ok h /\ graph_eqb exG h = false) /\
  (exists h, load_edgelist (save_edgelist exIso) = Ok h /\ graph_eqb exIso h = false).
Proof.
  split; [|split].
  - destruct (loses_ex (fun g => load_edgelist (save_edgelist g)) exBig) as (h & E & Hn); [vm_compute; reflexivity|].
    exists exBig, h. split; [apply exBig_reachable|auto].
  - apply (loses_ex (fun g => load_edgelist (save_edgelist g))). vm_compute. reflexivity.
  - apply (loses_ex (fun g => load_edgelist (save_edgelist g))). vm_compute. reflexivity.
Qed.
Print Assumptions C35_round_trip_refuted.

(** ** C36 *)
(** Self-loops are kept.  Missing: trailing isolated vertices and weights which need more than six digits. *)
Theorem C36_adjacencylist_round_trip_partial :
  forall (W : Type) `{PosNum W} `{!TextNum W} (g : graph W),
  reachable g -> weights_above_eps g -> int_ids g -> printable_weights g -> last_not_isolated g ->
  exists f h, save_adjacencylist g = Ok f /\ load_adjacencylist f = Ok h /\ graph_eqb g h = true /\
    number_of_vertices h = number_of_vertices g /\ forall u v, weight h u v = weight g u v.
Proof. exact @adjacencylist_roundtrip. Qed.
Print Assumptions C36_adjacencylist_round_trip_partial.
Example C36_hypotheses_met :
  reachable exG /\ weights_above_eps exG /\ int_ids exG /\ printable_weights exG /\ last_not_isolated exG /\ weqb (weight exG 2 2) (qc 3 1) = true.
Proof.
  split; [apply reachable_pos_reachable, exG_reachable|]. split; [apply exG_above|].
  split; [unfold int_ids; vm_compute; discriminate|]. split; [apply printable_all; vm_compute; reflexivity|]. split.
  - right. exists 1. vm_compute. discriminate.
  - vm_compute. reflexivity.
Qed.
Definition save_load_adj (g : graph Qc) : outcome (graph Qc) := do f <- save_adjacencylist g; load_adjacencylist f.
Theorem C36_round_trip_refuted :
  (exists h, save_load_adj exIso = Ok h /\ graph_eqb exIso h = false) /\
  (exists g h, reachable g /\ save_load_adj g = Ok h /\ graph_eqb g h = false).
Proof.
  split; [apply loses_ex; vm_compute; reflexivity|].
  destruct (loses_ex save_load_adj exBig) as (h & E & Hn); [vm_compute; reflexivity|].
  exists exBig, h. split; [apply exBig_reachable|auto].
Qed.
Print Assumptions C36_round_trip_refuted.

(** ** C37 *)
(** [fuel] bounds the number of passes: the loop ends after at most as many passes as there are lines. *)
Theorem C37_sort_edgelist :
  forall (W : Type) `{Num W} `{!TextNum W} (file : text) (ps : list (text * (nat * nat * W))),
  edge_lines_of (file_lines file) ps ->
  exists out hdr ps' k,
    (forall fuel, List.length (file_lines file) < fuel -> sort_edgelist (W := W) fuel file = Some (Ok out)) /\
    header_of (file_lines file) hdr /\ stably_sorted_by first_of ps ps' /\
    file_lines out = hdr ++ map fst ps' ++ repeat [] k /\ edge_lines_of (file_lines out) ps'.
Proof. exact @sort_edgelist_sorts. Qed.
Print Assumptions C37_sort_edgelist.
Example C37_hypotheses_met :
  exists ps, edge_lines_of (file_lines exFile) ps /\ map first_of ps = [2; 0; 1; 1] /\
    sort_edgelist (W := Qc) 8 exFile = Some (Ok (file_of ["# a comment"; "0, 1"; "1 2 0.125"; "1  0  3"; "2,0,2.5"; ""; ""]%string)).
Proof.
  destruct (read_edge_lines (file_lines exFile)) as [ps|] eqn:E; [|vm_compute in E; discriminate].
  exists ps. split; [now apply read_edge_lines_of|]. split; [|vm_compute; reflexivity].
  assert (match read_edge_lines (file_lines exFile) with Some ps => map first_of ps | None => [] end = [2; 0; 1; 1]) as Hm by (vm_compute; reflexivity).
  now rewrite E in Hm.
Qed.

(** ** C38 *)
(** The weights must survive printing; a final blank line is added. *)
Theorem C38_copy_edgelist_duplicate_edges :
  forall (W : Type) `{Num W} `{!TextNum W} (file : text) (es : list (nat * nat * W)),
  edgelist_text (file_lines file) es -> (forall u v w, In (u, v, w) es -> printable w) ->
  exists out ls, copy_edgelist_duplicate_edges (W := W) file = Ok out /\
    both_directions (W := W) (file_lines file) ls /\ file_lines out = ls ++ [[]] /\ edgelist_text ls (reversed_too es).
Proof. exact @copy_edgelist_spec. Qed.
Print Assumptions C38_copy_edgelist_duplicate_edges.
Example C38_hypotheses_met :
  edgelist_text (file_lines exFile) (edges_of_file exFile) /\
  (forall u v w, In (u, v, w) (edges_of_file exFile) -> printable w) /\ List.length (edges_of_file exFile) = 4.
Proof.
  split; [apply edges_of_file_text; vm_compute; reflexivity|]. split; [apply edges_printable; vm_compute; reflexivity|]. vm_compute. reflexivity.
Qed.

(** ** C39 *)
(** Holds also with self-loops (both loaders double them). *)
Theorem C39_edgelist_to_adjacencylist :
  forall (W : Type) `{PosNum W} `{!TextNum W} (file : text) (es : list (nat * nat * W)),
  edgelist_text (file_lines file) es -> (forall u v w, In (u, v, w) es -> printable w) ->
  (forall u v, weights_between es u v <> [] -> wltb (total (weights_between es u v)) w0 = false) ->
  (forall u, weights_between es u u <> [] -> wltb (total (flat_map (fun w => [w; w]) (weights_between es u u))) w0 = false) ->
  exists out ns g h,
    (forall fuel, 2 * List.length (file_lines file) + 1 < fuel -> edgelist_to_adjacencylist (W := W) fuel file = Some (Ok out)) /\
    adjlist_text (file_lines out) ns /\ StronglySorted lt (map fst ns) /\
    load_edgelist file = Ok g /\ load_adjacencylist out = Ok h /\
    number_of_vertices h = number_of_vertices g /\ forall u v, weight h u v = weight g u v.
Proof. exact @edgelist_to_adjacencylist_graph. Qed.
Print Assumptions C39_edgelist_to_adjacencylist.
(** The node lines give exactly the edges of the file, in both directions. *)
Theorem C39_node_lines :
  forall (W : Type) `{Num W} `{!TextNum W} (file : text) (es : list (nat * nat * W)),
  edgelist_text (file_lines file) es -> (forall u v w, In (u, v, w) es -> printable w) ->
  exists out ns,
    (forall fuel, 2 * List.length (file_lines file) + 1 < fuel -> edgelist_to_adjacencylist (W := W) fuel file = Some (Ok out)) /\
    adjlist_text (file_lines out) ns /\ StronglySorted lt (map fst ns) /\ forall e, In e (arcs ns) <-> In e (reversed_too es).
Proof.
  intros W HN HT file es Ht Hp. destruct (edgelist_to_adjacencylist_text file es Ht Hp) as (out & ns & E & T & S & _ & HI & _ & _).
  exists out, ns. auto.
Qed.
Print Assumptions C39_node_lines.
Example C39_hypotheses_met :
  let es := edges_of_file exFile in
  edgelist_text (file_lines exFile) es /\ (forall u v w, In (u, v, w) es -> printable w) /\
  (forall u v, weights_between es u v <> [] -> wltb (total (weights_between es u v)) w0 = false) /\
  (forall u, weights_between es u u <> [] -> wltb (total (flat_map (fun w => [w; w]) (weights_between es u u))) w0 = false).
Proof. destruct C34_hypotheses_met as (H1 & _ & _ & H2 & H3 & _). split; [exact H1|]. split; [apply C38_hypotheses_met|]. split; [exact H2|exact H3]. Qed.

(** ** C40 *)
(** Missing: self-loops, whose weight doubles. *)
Theorem C40_adjacencylist_to_edgelist_partial :
  forall (W : Type) `{PosNum W} `{!TextNum W} (file : text) (ns : list (nat * list (nat * W))),
  adjlist_text (file_lines file) ns -> (forall u v w, In (u, v, w) (arcs ns) -> printable w) ->
  undirected ns -> no_self_loop_lines ns ->
  (forall u v, weights_on_lines ns u v <> [] -> wltb (total (weights_on_lines ns u v)) w0 = false) ->
  exists out g h, adjacencylist_to_edgelist (W := W) file = Ok out /\ load_adjacencylist file = Ok g /\ load_edgelist out = Ok h /\
    number_of_vertices h = number_of_vertices g /\ forall u v, weight h u v = weight g u v.
Proof. exact @adjacencylist_to_edgelist_graph. Qed.
Print Assumptions C40_adjacencylist_to_edgelist_partial.
Lemma weights_on_lines_small (ns : list (nat * list (nat * Qc))) n u v : vertex_count (arcs ns) = n -> ~ (u < n /\ v < n) -> weights_on_lines ns u v = [].
Proof.
  intros En Hn. destruct (weights_on_lines ns u v) as [|w r] eqn:E; auto. exfalso. apply Hn. rewrite <- En.
  assert (In (u, v, w) (arcs ns)) as Hin by (apply weights_on_lines_In; rewrite E; now left). eapply vertex_count_lt; eauto.
Qed.
Definition undirectedb (ns : list (nat * list (nat * Qc))) (u v : nat) : bool :=
  weqb (total (weights_on_lines ns u v)) (total (weights_on_lines ns v u)) &&
  (match weights_on_lines ns u v with [] => match weights_on_lines ns v u with [] => true | _ => false end | _ => true end).
Lemma undirectedb_ok ns n : vertex_count (arcs ns) = n -> forallb (fun u => forallb (undirectedb ns u) (seq 0 n)) (seq 0 n) = true -> undirected ns.
Proof.
  intros En Hf u v. destruct (Nat.lt_ge_cases u n) as [Hu|Hu], (Nat.lt_ge_cases v n) as [Hv|Hv];
    try (rewrite !(weights_on_lines_small ns n) by (auto; lia); auto; fail).
  rewrite forallb_forall in Hf. specialize (Hf u ltac:(apply in_seq; lia)). rewrite forallb_forall in Hf.
  specialize (Hf v ltac:(apply in_seq; lia)). unfold undirectedb in Hf. apply andb_prop in Hf. destruct Hf as [H1 H2].
  split; [apply Qc_is_canon; now apply Qeq_bool_iff|]. intros E. rewrite E in H2. now destruct (weights_on_lines ns v u).
Qed.
Example C40_hypotheses_met :
  let ns := nodes_of_file exAdjFile in
  adjlist_text (file_lines exAdjFile) ns /\ (forall u v w, In (u, v, w) (arcs ns) -> printable w) /\
  undirected ns /\ no_self_loop_lines ns /\
  (forall u v, weights_on_lines ns u v <> [] -> wltb (total (weights_on_lines ns u v)) w0 = false) /\ List.length (arcs ns) = 4.
Proof.
  set (ns := nodes_of_file exAdjFile). assert (vertex_count (arcs ns) = 3) as En by (vm_compute; reflexivity).
  split; [apply nodes_of_file_text; vm_compute; reflexivity|]. split.
  { assert (forallb (fun e => printableb (snd e)) (arcs ns) = true) as Hf by (vm_compute; reflexivity).
    rewrite forallb_forall in Hf. intros u v w Hin. apply printableb_ok, (Hf _ Hin). }
  split; [apply (undirectedb_ok ns 3 En); vm_compute; reflexivity|]. split.
  { intros u. destruct (Nat.lt_ge_cases u 3) as [Hu|Hu]; [|now apply (weights_on_lines_small ns 3); auto; lia].
    do 3 (destruct u as [|u]; [vm_compute; reflexivity|]). lia. }
  split; [|vm_compute; reflexivity].
  intros u v Hne. destruct (Nat.lt_ge_cases u 3) as [Hu|Hu]; [|exfalso; apply Hne; apply (weights_on_lines_small ns 3); auto; lia].
  destruct (Nat.lt_ge_cases v 3) as [Hv|Hv]; [|exfalso; apply Hne; apply (weights_on_lines_small ns 3); auto; lia].
  do 3 (destruct u as [|u]; [do 3 (destruct v as [|v]; [vm_compute; reflexivity|]); lia|]). lia.
Qed.
Theorem C40_self_loop_refuted :
  exists (file : text) (ns : list (nat * list (nat * Qc))) out g h, adjlist_text (file_lines file) ns /\ undirected ns /\
    adjacencylist_to_edgelist (W := Qc) file = Ok out /\ load_adjacencylist file = Ok g /\ load_edgelist out = Ok h /\
    weqb (weight g 1 1) (qc 2 1) = true /\ weqb (weight h 1 1) (qc 4 1) = true.
Proof.
  set (ns := nodes_of_file exAdjLoop). exists exAdjLoop, ns.
  destruct (adjacencylist_to_edgelist (W := Qc) exAdjLoop) as [out| |] eqn:E1; try (vm_compute in E1; discriminate). exists out.
  destruct (load_adjacencylist (W := Qc) exAdjLoop) as [g| |] eqn:E2; try (vm_compute in E2; discriminate). exists g.
  assert (match adjacencylist_to_edgelist (W := Qc) exAdjLoop with Ok out => match load_edgelist (W := Qc) out with Ok h => weqb (weight h 1 1) (qc 4 1) | _ => false end | _ => false end = true) as H1 by (vm_compute; reflexivity).
  assert (match load_adjacencylist (W := Qc) exAdjLoop with Ok g => weqb (weight g 1 1) (qc 2 1) | _ => false end = true) as H2 by (vm_compute; reflexivity).
  rewrite E1 in H1. rewrite E2 in H2. destruct (load_edgelist (W := Qc) out) as [h| |] eqn:E3; try discriminate. exists h.
  split; [apply nodes_of_file_text; vm_compute; reflexivity|]. split; [|auto].
  apply (undirectedb_ok ns 2); vm_compute; reflexivity.
Qed.
Print Assumptions C40_self_loop_refuted.

(** ** C41 *)
(** Missing: ids outside the range of int, a malformed weight or neighbour at the end of the line, a fourth field, lines mixing separators,
    negative ids in adjacency lists (refutations below). *)
Theorem C41_malformed_edgelist_partial :
  forall (W : Type) `{Num W} `{!TextNum W} (file : text) good bad rest (es : list (nat * nat * W)),
  file_lines file = good ++ bad :: rest -> edgelist_text good es -> ~ comment_or_blank bad -> malformed_edge (W := W) bad ->
  load_edgelist (W := W) file = Throw RuntimeError.
Proof. exact @load_edgelist_malformed. Qed.
Print Assumptions C41_malformed_edgelist_partial.
Theorem C41_malformed_adjacencylist_partial :
  forall (W : Type) `{Num W} `{!TextNum W} (file : text) good bad rest (ns : list (nat * list (nat * W))),
  file_lines file = good ++ bad :: rest -> adjlist_text good ns -> ~ comment_or_blank bad -> malformed_adj (W := W) bad ->
  load_adjacencylist (W := W) file = Throw RuntimeError.
Proof. exact @load_adjacencylist_malformed. Qed.
Print Assumptions C41_malformed_adjacencylist_partial.
(** Every file whatsoever: a graph or one of three exceptions, no undefined behaviour. *)
Theorem C41_edgelist_outcomes :
  forall (W : Type) `{Num W} `{!TextNum W} (file : text),
  (exists g, load_edgelist (W := W) file = Ok g) \/ load_edgelist (W := W) file = Throw RuntimeError \/
  load_edgelist (W := W) file = Throw OutOfRange \/ load_edgelist (W := W) file = Throw DomainError.
Proof. exact @load_edgelist_outcomes. Qed.
Print Assumptions C41_edgelist_outcomes.
Theorem C41_adjacencylist_outcomes :
  forall (W : Type) `{Num W} `{!TextNum W} (file : text),
  (exists g, load_adjacencylist (W := W) file = Ok g) \/ load_adjacencylist (W := W) file = Throw RuntimeError \/
  load_adjacencylist (W := W) file = Throw OutOfRange \/ load_adjacencylist (W := W) file = Throw DomainError \/
  load_adjacencylist (W := W) file = UB /\
    exists ess e, adj_lines (read_lines file) = Ok ess /\ In e (concat ess) /\ (fst (fst e) < 0 \/ snd (fst e) < 0)%Z.
Proof. exact @load_adjacencylist_outcomes. Qed.
Print Assumptions C41_adjacencylist_outcomes.
Definition exBad : text := file_of ["# header"; "0 1 2.5"; "1 x"; "2 0"]%string.
Definition exBadAdj : text := file_of ["0: 1:2.5"; "1: 0:abc 2"; "2: 1"]%string.
Lemma free_here cs t : free_ofb cs t = true -> free_of cs t.
Proof. apply free_ofb_iff. Qed.
Example C41_hypotheses_met :
  (exists good rest (es : list (nat * nat * Qc)), file_lines exBad = good ++ txt "1 x" :: rest /\ edgelist_text good es /\
     ~ comment_or_blank (txt "1 x") /\ malformed_edge (W := Qc) (txt "1 x") /\ List.length es = 1) /\
  (exists good rest (ns : list (nat * list (nat * Qc))), file_lines exBadAdj = good ++ txt "1: 0:abc 2" :: rest /\ adjlist_text good ns /\
     ~ comment_or_blank (txt "1: 0:abc 2") /\ malformed_adj (W := Qc) (txt "1: 0:abc 2") /\ List.length ns = 1).
Proof.
  split.
  - exists [txt "# header"; txt "0 1 2.5"], [txt "2 0"], [(0, 1, match stod_qc (txt "2.5") with Ok w => w | _ => w0 end)].
    split; [vm_compute; reflexivity|]. split.
    { apply el_skip; [right; exists "#", (txt " header"); auto|]. apply el_edge; [apply is_content_true; reflexivity| |constructor].
      apply read_edge_text. vm_compute. reflexivity. }
    split; [apply is_content_true; reflexivity|]. split; [|reflexivity].
    apply (me_fields _ " " [txt "1"; txt "x"]).
    + right; left; reflexivity.
    + apply free_here. reflexivity.
    + apply (split_by_fields " " (txt "1 x")).
    + right. exists 1%Z. split; [reflexivity|]. left. reflexivity.
  - exists [txt "0: 1:2.5"], [txt "2: 1"], [(0, [(1, match stod_qc (txt "2.5") with Ok w => w | _ => w0 end)])].
    split; [vm_compute; reflexivity|]. split.
    { apply (nodes_of_file_text (file_of ["0: 1:2.5"]%string)). vm_compute. reflexivity. }
    split; [apply is_content_true; reflexivity|]. split; [|reflexivity].
    apply (ma_neighbour _ (txt "1") (txt " 0:abc 2") 1%Z [] (txt "0:abc") [txt "2"]); auto; try discriminate.
    + apply free_here. reflexivity.
    + apply (split_by_fields " " (txt " 0:abc 2")).
    + apply (nb_weight _ (txt "0") (txt "abc") 0%Z); auto. apply free_here. reflexivity.
Qed.
Definition loads (f : text) : bool := match load_edgelist (W := Qc) f with Ok _ => true | _ => false end.
(** A malformed weight at the end of a line and a fourth field are accepted; an id which does not fit int raises std::out_of_range;
    a negative weight raises std::domain_error although every line is well-formed. *)
Theorem C41_junk_accepted_refuted :
  loads (file_of ["0 1 abc"]%string) = true /\ loads (file_of ["0 1 1 9"]%string) = true /\
  loads (file_of ["0, 1, 1, x"]%string) = true.
Proof. repeat split; vm_compute; reflexivity. Qed.
Print Assumptions C41_junk_accepted_refuted.
Theorem C41_id_overflow_refuted :
  load_edgelist (W := Qc) (file_of ["0 2147483648"]%string) = Throw OutOfRange /\
  load_adjacencylist (W := Qc) (file_of ["0: 2147483648 1"]%string) = Throw OutOfRange.
Proof. split; vm_compute; reflexivity. Qed.
Print Assumptions C41_id_overflow_refuted.
Theorem C41_negative_weight_refuted : load_edgelist (W := Qc) (file_of ["0 1 -1"]%string) = Throw DomainError.
Proof. vm_compute. reflexivity. Qed.
Print Assumptions C41_negative_weight_refuted.
(** Adjacency lists: junk at the end of a line is ignored; a negative neighbour is an out-of-bounds write; a file which is not
    symmetric raises std::domain_error. *)
Theorem C41_adjacencylist_refuted :
  match load_adjacencylist (W := Qc) (file_of ["0: 1 abc"; "1: 0"]%string) with Ok _ => true | _ => false end = true /\
  load_adjacencylist (W := Qc) (file_of ["0: -1"]%string) = UB /\
  load_adjacencylist (W := Qc) (file_of ["0: 1"]%string) = Throw DomainError.
Proof. repeat split; vm_compute; reflexivity. Qed.
Print Assumptions C41_adjacencylist_refuted.
