(** Theorems C42-C45: AdjacencyListLocalGraph, queries on an adjacency list file on disk. *)
From Verif Require Import Base Num RSum Sparse SparseFacts Graph GraphFacts GraphSpec GraphProps1 GraphProps2 GraphProps4 GraphProps5 GraphExamples Cluster
  Text TextFacts GraphIO IOSpec GraphIOFacts GraphIOLoad GraphIOAdj TextQc IOExamples LocalDisk LocalDiskFacts LocalDiskSearch LocalDiskTop.
From Coq Require Import Ascii String List Sorting.Sorted QArith Qcanon.
Import ListNotations.
Local Close Scope Q_scope. Local Close Scope Qc_scope.
Local Open Scope nat_scope.
Local Open Scope char_scope.
Local Open Scope list_scope.

(** ** C42 *)
(** The caches never change an answer: for every file, history and query. *)
Theorem C42_caches_never_change_answers :
  forall (W : Type) `{Num W} `{!TextNum W} (fuel : nat) (file : text) (history : list query) (q : query) (st : dstate W),
  after fuel file history d_init = Some st ->
  result (ask fuel file q st) = result (ask fuel file q d_init).
Proof. intros W HN HT fuel file qs q st. exact (history_independent fuel file qs q st). Qed.
Print Assumptions C42_caches_never_change_answers.
(** [searchable]: ascending ids, the last line is a node line, no colon in comments.  [probes file] bounds the number of probes (see C44). *)
Theorem C42_neighbors_on_disk_partial :
  forall (W : Type) `{Num W} `{!TextNum W} (file : text) (ns : list (nat * list (nat * W))) fuel history st u nb,
  searchable file ns -> probes file <= fuel -> after fuel file history d_init = Some st -> In (u, nb) ns ->
  exists es, stably_sorted_by tgt (map (fun n => (u, fst n, snd n)) nb) es /\
    result (d_neighbors fuel file (Z.of_nat u) st) = Some (Ok (map zed es)).
Proof. exact @disk_neighbors. Qed.
Print Assumptions C42_neighbors_on_disk_partial.
(** The library's own converter writes searchable files. *)
Theorem C42_converted_files_are_searchable :
  forall (W : Type) `{Num W} `{!TextNum W} (file : text) (es : list (nat * nat * W)),
  edgelist_text (file_lines file) es -> (forall u v w, In (u, v, w) es -> printable w) ->
  es <> [] -> (forall l, In l (file_lines file) -> comment_or_blank l -> ~ In ":" l) ->
  exists out ns, (forall fuel, 2 * List.length (file_lines file) + 1 < fuel -> edgelist_to_adjacencylist (W := W) fuel file = Some (Ok out)) /\
    searchable out ns /\ forall e, In e (arcs ns) <-> In e (reversed_too es).
Proof. exact @converted_searchable. Qed.
Print Assumptions C42_converted_files_are_searchable.

Definition exDisk : text := file_of ["# nodes"; "0: 2 1:2.5"; ""; "1: 0:2.5"; "// more"; "2: 0"]%string.
Definition commentsb (ls : list text) : bool := forallb (fun l => is_content l || negb (existsb (fun c => c =? ":") l)) ls.
Lemma commentsb_ok ls : commentsb ls = true -> forall l, In l ls -> comment_or_blank l -> ~ In ":" l.
Proof.
  intros Hb l Hin Hc Hcol. unfold commentsb in Hb. rewrite forallb_forall in Hb. specialize (Hb l Hin).
  apply is_content_iff in Hc. rewrite Hc in Hb. cbn [orb] in Hb. apply negb_true_iff in Hb.
  assert (existsb (fun c => c =? ":") l = true); [|congruence]. apply existsb_exists. exists ":". auto.
Qed.
Lemma sortedb_ok l : (fix f (l : list nat) := match l with a :: ((b :: _) as r) => (a <? b)%nat && f r | _ => true end) l = true -> StronglySorted lt l.
Proof.
  intros Hb. apply Sorted_StronglySorted; [intros x y z; lia|]. revert Hb. induction l as [|a l IH]; intros Hb; [constructor|].
  destruct l as [|b l]; [repeat constructor|]. apply andb_prop in Hb. destruct Hb as [H1 H2]. apply Nat.ltb_lt in H1. constructor; auto.
Qed.
Lemma exDisk_searchable : searchable exDisk (nodes_of_file exDisk).
Proof.
  split; [apply nodes_of_file_text; vm_compute; reflexivity|]. split; [apply sortedb_ok; vm_compute; reflexivity|].
  split; [right; vm_compute; tauto|]. apply commentsb_ok. vm_compute. reflexivity.
Qed.
Example C42_hypotheses_met :
  searchable exDisk (nodes_of_file exDisk) /\ probes exDisk <= 8 /\ map fst (nodes_of_file exDisk) = [0; 1; 2] /\
  exists st es, after 8 exDisk [VertexExists 7; Degree 2; Neighbors 1]%Z d_init = Some st /\
    result (d_neighbors (W := Qc) 8 exDisk 0 st) = Some (Ok es) /\ map (fun '(_, b, _) => b) es = [1; 2]%Z.
Proof.
  split; [apply exDisk_searchable|]. split; [vm_compute; lia|]. split; [vm_compute; reflexivity|].
  destruct (after (W := Qc) 8 exDisk [VertexExists 7; Degree 2; Neighbors 1]%Z d_init) as [st|] eqn:E; [|vm_compute in E; discriminate].
  destruct (result (d_neighbors (W := Qc) 8 exDisk 0 st)) as [[es| |]|] eqn:E2.
  - exists st, es. split; auto. split; auto.
    assert (match after (W := Qc) 8 exDisk [VertexExists 7; Degree 2; Neighbors 1]%Z d_init with Some st =>
      match result (d_neighbors (W := Qc) 8 exDisk 0 st) with Some (Ok es) => map (fun '(_, b, _) => b) es | _ => [] end | None => [] end = [1; 2]%Z) as Hm by (vm_compute; reflexivity).
    now rewrite E, E2 in Hm.
  - exfalso. assert (match after (W := Qc) 8 exDisk [VertexExists 7; Degree 2; Neighbors 1]%Z d_init with Some st =>
      match result (d_neighbors (W := Qc) 8 exDisk 0 st) with Some (Ok es) => true | _ => false end | None => false end = true) as Hm by (vm_compute; reflexivity).
    now rewrite E, E2 in Hm.
  - exfalso. assert (match after (W := Qc) 8 exDisk [VertexExists 7; Degree 2; Neighbors 1]%Z d_init with Some st =>
      match result (d_neighbors (W := Qc) 8 exDisk 0 st) with Some (Ok es) => true | _ => false end | None => false end = true) as Hm by (vm_compute; reflexivity).
    now rewrite E, E2 in Hm.
  - exfalso. assert (match after (W := Qc) 8 exDisk [VertexExists 7; Degree 2; Neighbors 1]%Z d_init with Some st =>
      match result (d_neighbors (W := Qc) 8 exDisk 0 st) with Some (Ok es) => true | _ => false end | None => false end = true) as Hm by (vm_compute; reflexivity).
    now rewrite E, E2 in Hm.
Qed.
Definition exColon : text := file_of ["0: 1"; "# note: x"; "1: 0"]%string.
(** With a colon in a comment, a vertex of a file with ascending ids is not found: invalid_argument is thrown. *)
Theorem C42_comment_with_colon_refuted :
  exists (file : text) (ns : list (nat * list (nat * Qc))), adjlist_text (file_lines file) ns /\ StronglySorted lt (map fst ns) /\
    ends_with_node (file_lines file) /\ In 0 (map fst ns) /\
    forall fuel, 1 < fuel -> result (d_neighbors (W := Qc) fuel file 0 d_init) = Some (Throw InvalidArgument).
Proof.
  exists exColon, (nodes_of_file exColon).
  split; [apply nodes_of_file_text; vm_compute; reflexivity|]. split; [apply sortedb_ok; vm_compute; reflexivity|].
  split; [right; vm_compute; tauto|]. split; [vm_compute; auto|]. intros fuel Hf. destruct fuel as [|[|fuel]]; [lia|lia|]. vm_compute. reflexivity.
Qed.
Print Assumptions C42_comment_with_colon_refuted.

(** ** C43 *)
Theorem C43_present :
  forall (W : Type) `{Num W} `{!TextNum W} (file : text) (ns : list (nat * list (nat * W))) fuel history st u,
  searchable file ns -> probes file <= fuel -> after fuel file history d_init = Some st -> In u (map fst ns) ->
  result (d_vertex_exists fuel file (Z.of_nat u) st) = Some (Ok true).
Proof. exact @disk_present. Qed.
Print Assumptions C43_present.
(** Missing: v = -1, see below. *)
Theorem C43_absent_partial :
  forall (W : Type) `{Num W} `{!TextNum W} (file : text) (ns : list (nat * list (nat * W))) fuel history st v,
  searchable file ns -> probes file <= fuel -> after fuel file history d_init = Some st ->
  v <> (-1)%Z -> (forall u, In u (map fst ns) -> v <> Z.of_nat u) ->
  result (d_neighbors fuel file v st) = Some (Throw RuntimeError) /\ result (d_vertex_exists fuel file v st) = Some (Ok false).
Proof. exact @disk_absent. Qed.
Print Assumptions C43_absent_partial.
Example C43_hypotheses_met : searchable exDisk (nodes_of_file exDisk) /\ probes exDisk <= 8 /\ In 2 (map fst (nodes_of_file exDisk)) /\
  (forall u, In u (map fst (nodes_of_file exDisk)) -> 7%Z <> Z.of_nat u).
Proof. split; [apply exDisk_searchable|]. split; [vm_compute; lia|]. split; [vm_compute; tauto|]. intros u Hu. vm_compute in Hu. lia. Qed.
(** vertex_exists(-1) can be true, and neighbors(-1) then throws invalid_argument. *)
Theorem C43_minus_one_refuted :
  exists (file : text) (ns : list (nat * list (nat * Qc))), searchable file ns /\
    forall fuel, 1 < fuel -> result (d_vertex_exists (W := Qc) fuel file (-1) d_init) = Some (Ok true) /\
      result (d_neighbors (W := Qc) fuel file (-1) d_init) = Some (Throw InvalidArgument).
Proof.
  set (f := file_of ["0: 1"; "1: 0:1 2:2 3:4"]%string). exists f, (nodes_of_file f). split.
  - split; [apply nodes_of_file_text; vm_compute; reflexivity|]. split; [apply sortedb_ok; vm_compute; reflexivity|].
    split; [right; vm_compute; tauto|]. apply commentsb_ok. vm_compute. reflexivity.
  - intros fuel Hf. destruct fuel as [|[|fuel]]; [lia|lia|]. split; vm_compute; reflexivity.
Qed.
Print Assumptions C43_minus_one_refuted.

(** ** C44 *)
(** Every query after every history returns or throws runtime_error, invalid_argument or out_of_range, with at most
    log2 (size + 1) + 2 probes per search, whatever the ids in the file.  Missing: files not ending with a node line, see below. *)
Theorem C44_search_terminates_partial :
  forall (W : Type) `{Num W} `{!TextNum W} (file : text) fuel history q,
  ends_with_node (file_lines file) -> Nat.log2 (List.length file + 1) + 2 <= fuel ->
  exists (st : dstate W) o st', after fuel file history d_init = Some st /\ ask fuel file q st = Some (o, st') /\
    ((exists a, o = Ok a) \/ o = Throw RuntimeError \/ o = Throw InvalidArgument \/ o = Throw OutOfRange).
Proof. exact @disk_terminates. Qed.
Print Assumptions C44_search_terminates_partial.
Example C44_hypotheses_met : ends_with_node (file_lines exAdjFile) /\ Nat.log2 (List.length exAdjFile + 1) + 2 <= 8 /\ map fst (nodes_of_file exAdjFile) = [0; 2; 1].
Proof. split; [right; vm_compute; tauto|]. split; [vm_compute; lia|vm_compute; reflexivity]. Qed.
(** A comment or blank line at the end: the query never returns, although the file is a good adjacency list with ascending ids. *)
Theorem C44_trailing_line_refuted :
  (exists (file : text) (ns : list (nat * list (nat * Qc))) u, adjlist_text (file_lines file) ns /\ StronglySorted lt (map fst ns) /\ In u (map fst ns) /\
    last (file_lines file) [] = txt "# end" /\ forall fuel st, lookup (Z.of_nat u) (d_node st) = None -> d_loc st = [] -> d_neighbors (W := Qc) fuel file (Z.of_nat u) st = None) /\
  (exists (file : text) (ns : list (nat * list (nat * Qc))) u, adjlist_text (file_lines file) ns /\ StronglySorted lt (map fst ns) /\ In u (map fst ns) /\
    last (file_lines file) [] = [] /\ forall fuel st, lookup (Z.of_nat u) (d_node st) = None -> d_loc st = [] -> d_neighbors (W := Qc) fuel file (Z.of_nat u) st = None).
Proof.
  split.
  - set (f := file_of ["0: 1"; "1: 0"; "# end"]%string). exists f, (nodes_of_file f), 1.
    split; [apply nodes_of_file_text; vm_compute; reflexivity|]. split; [apply sortedb_ok; vm_compute; reflexivity|].
    split; [vm_compute; auto|]. split; [vm_compute; reflexivity|]. intros fuel [loc nd] El En. cbn in El, En. unfold d_neighbors, cbind. cbn [d_node]. 
    change (lookup 1 nd = None) in El. change (Z.of_nat 1) with 1%Z. rewrite El, En. destruct fuel; vm_compute; reflexivity.
  - set (f := file_of ["0: 1"; "1: 0"; ""]%string). exists f, (nodes_of_file f), 1.
    split; [apply nodes_of_file_text; vm_compute; reflexivity|]. split; [apply sortedb_ok; vm_compute; reflexivity|].
    split; [vm_compute; auto|]. split; [vm_compute; reflexivity|]. intros fuel [loc nd] El En. cbn in El, En. unfold d_neighbors, cbind. cbn [d_node].
    change (lookup 1 nd = None) in El. change (Z.of_nat 1) with 1%Z. rewrite El, En. destruct fuel; vm_compute; reflexivity.
Qed.
Print Assumptions C44_trailing_line_refuted.

(** ** C45 *)
(** neighbors, neighbors_unweighted, vertex_exists and, without self-loops, degree_unweighted agree (also for doubles); the exception for
    a missing vertex differs.  Missing: the self-loop in degree_unweighted, vertex -1, the graph without vertices. *)
Theorem C45_agrees_with_saved_graph_partial :
  forall (W : Type) `{PosNum W} `{!TextNum W} (g : graph W),
  reachable g -> weights_above_eps g -> int_ids g -> printable_weights g -> 0 < number_of_vertices g ->
  exists f, save_adjacencylist g = Ok f /\
  forall fuel history st, probes f <= fuel -> after fuel f history d_init = Some st ->
  (forall v, v < number_of_vertices g -> exists es ns k,
     neighbors g (Z.of_nat v) = Ok es /\ result (d_neighbors fuel f (Z.of_nat v) st) = Some (Ok (map zedge_of es)) /\
     neighbors_unweighted g (Z.of_nat v) = Ok ns /\ result (d_neighbors_unweighted fuel f (Z.of_nat v) st) = Some (Ok (map Z.of_nat ns)) /\
     degree_unweighted g (Z.of_nat v) = Ok k /\
     result (d_degree_unweighted fuel f (Z.of_nat v) st) = Some (Ok (Z.of_nat (k - if weqb (weight g v v) w0 then 0 else 1)))) /\
  (forall v, v <> (-1)%Z -> result (d_vertex_exists fuel f v st) = Some (Ok (vertex_exists g v))) /\
  (forall v, v <> (-1)%Z -> vertex_exists g v = false -> result (d_neighbors fuel f v st) = Some (Throw RuntimeError)).
Proof. exact @disk_agrees. Qed.
Print Assumptions C45_agrees_with_saved_graph_partial.
(** degree agrees, self-loops included (exact arithmetic). *)
Theorem C45_degree_agrees :
  forall (W : Type) `{ExactNum W} `{!TextNum W} (g : graph W),
  reachable g -> weights_above_eps g -> int_ids g -> printable_weights g -> 0 < number_of_vertices g ->
  exists f, save_adjacencylist g = Ok f /\
  forall fuel history st, probes f <= fuel -> after fuel f history d_init = Some st ->
  forall v, v < number_of_vertices g -> exists d, snd (degree g (Z.of_nat v)) = Ok d /\ result (d_degree fuel f (Z.of_nat v) st) = Some (Ok d).
Proof. exact @disk_degree. Qed.
Print Assumptions C45_degree_agrees.
Example C45_hypotheses_met :
  reachable exG /\ weights_above_eps exG /\ int_ids exG /\ printable_weights exG /\ 0 < number_of_vertices exG /\
  exists f st, save_adjacencylist exG = Ok f /\ after (W := Qc) 12 f [Neighbors 0; VertexExists (-3); Neighbors 17; Degree 2]%Z d_init = Some st /\ probes f <= 12.
Proof.
  split; [apply reachable_pos_reachable, exG_reachable|]. split; [apply exG_above|].
  split; [unfold int_ids; vm_compute; discriminate|]. split; [apply printable_all; vm_compute; reflexivity|]. split; [vm_compute; lia|].
  destruct (save_adjacencylist exG) as [f| |] eqn:E; try (vm_compute in E; discriminate).
  assert (match save_adjacencylist exG with Ok f => match after (W := Qc) 12 f [Neighbors 0; VertexExists (-3); Neighbors 17; Degree 2]%Z d_init with Some _ => (probes f <=? 12)%nat | None => false end | _ => false end = true) as Hm by (vm_compute; reflexivity).
  rewrite E in Hm. destruct (after (W := Qc) 12 f [Neighbors 0; VertexExists (-3); Neighbors 17; Degree 2]%Z d_init) as [st|] eqn:E2; [|discriminate].
  exists f, st. split; auto. split; auto. now apply Nat.leb_le.
Qed.
(** With a self-loop the unweighted degrees differ; the file saved for a graph without vertices makes every query hang. *)
Theorem C45_self_loop_degree_unweighted_refuted :
  exists f k, save_adjacencylist exG = Ok f /\ degree_unweighted exG 2 = Ok k /\
    result (d_degree_unweighted (W := Qc) 12 f 2 d_init) = Some (Ok (Z.of_nat k - 1)%Z).
Proof.
  destruct (save_adjacencylist exG) as [f| |] eqn:E; try (vm_compute in E; discriminate).
  destruct (degree_unweighted exG 2) as [k| |] eqn:E1; try (vm_compute in E1; discriminate). exists f, k. split; auto. split; auto.
  assert (match save_adjacencylist exG, degree_unweighted exG 2 with Ok f, Ok k => match result (d_degree_unweighted (W := Qc) 12 f 2 d_init) with Some (Ok z) => Z.eqb z (Z.of_nat k - 1) | _ => false end | _, _ => false end = true) as Hm by (vm_compute; reflexivity).
  rewrite E, E1 in Hm. destruct (result (d_degree_unweighted (W := Qc) 12 f 2 d_init)) as [[z| |]|]; try discriminate. apply Z.eqb_eq in Hm. now subst.
Qed.
Print Assumptions C45_self_loop_degree_unweighted_refuted.
Definition exEmpty : graph Qc := fresh_graph (sp_empty 0 0).
Theorem C45_empty_graph_refuted :
  exists g f, reachable g /\ number_of_vertices g = 0 /\ save_adjacencylist (W := Qc) g = Ok f /\
    forall fuel v, result (d_vertex_exists (W := Qc) fuel f v d_init) = None.
Proof.
  exists exEmpty. destruct (save_adjacencylist exEmpty) as [f| |] eqn:E; try (vm_compute in E; discriminate). exists f.
  split; [exists (sp_empty 0 0), exEmpty, []; split; [apply sp_empty_wf|]; split; [vm_compute; reflexivity|]; split; [constructor|reflexivity]|].
  split; [reflexivity|]. split; auto. vm_compute in E. injection E as <-. intros fuel v. destruct fuel; vm_compute; reflexivity.
Qed.
Print Assumptions C45_empty_graph_refuted.
