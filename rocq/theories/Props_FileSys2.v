(** C71 and C72: failures, and processes running at the same time.  Vocabulary: see Props_FileSys.v; [together p q d p' q' d']: running [p] and [q] at the
    same time on disk [d] can lead to [p'], [q'] and disk [d'] ([Done (Some (Ok _))]: returned; [Done (Some (Throw _))]: exception). *)
From Verif Require Import Base Num Sparse SparseFacts Graph GraphSpec GraphFacts GraphProps1 GraphExamples Cluster ClusterSweep ClusterExamples Text TextFacts TextQc
  GraphIO IOSpec GraphIOFacts GraphIOLoad GraphIOAdj GraphIOSort GraphIOConv GraphIOBack GraphIOBad IOExamples RandomGraph RandomFacts RandomTop RandomTop2 Data
  FileSys FileSysFacts FileSysTop FileSysSort FileSysMore Props_IO Props_FileSys.
From Coq Require Import Ascii String List Permutation QArith Qcanon.
Import ListNotations.
Local Close Scope Q_scope. Local Close Scope Qc_scope.
Local Open Scope nat_scope.
Local Open Scope list_scope.

(** ** C71 *)
(** An input file which does not exist: std::runtime_error and the disk is as before (adjacencylist_to_edgelist: see the refutation below). *)
Theorem C71_missing_input_partial :
  forall (W : Type) `{Num W} `{!TextNum W} (writable : name -> bool) (tmp : nat -> name) (i o : name) (d : disk) fuel grow, d i = None ->
  exec (load_edgelist_io (W := W) i) d = (d, Some (Throw RuntimeError)) /\
  exec (load_adjacencylist_io (W := W) i) d = (d, Some (Throw RuntimeError)) /\
  exec (load_matrix_io (W := W) grow i) d = (d, Some (Throw RuntimeError)) /\
  exec (copy_edgelist_io (W := W) writable i o) d = (d, Some (Throw RuntimeError)) /\
  exec (sort_edgelist_io (W := W) writable fuel tmp i) d = (d, Some (Throw RuntimeError)) /\
  exec (edgelist_to_adjacencylist_io (W := W) writable fuel tmp i o) d = (d, Some (Throw RuntimeError)).
Proof.
  intros W HN HT writable tmp i o d fuel grow E.
  assert (exec (copy_edgelist_io (W := W) writable i (tmp 0)) d = (d, Some (Throw RuntimeError))) as Hc.
  { unfold copy_edgelist_io. now rewrite exec_open_in, E. }
  split; [now rewrite load_edgelist_exec, E|]. split; [now rewrite load_adjacencylist_exec, E|]. split; [now rewrite load_matrix_exec, E|].
  split; [unfold copy_edgelist_io; now rewrite exec_open_in, E|]. split; [unfold sort_edgelist_io; now rewrite exec_open_in, E|].
  unfold edgelist_to_adjacencylist_io. now rewrite exec_ibind, Hc.
Qed.
Print Assumptions C71_missing_input_partial.
(** An output file which cannot be opened: std::runtime_error and the disk is as before (edgelist_to_adjacencylist: see below). *)
Theorem C71_unwritable_output_partial :
  forall (W : Type) `{Num W} `{!TextNum W} (writable : name -> bool) (i o : name) (d : disk), writable o = false ->
  (forall g : graph W, exec (save_edgelist_io writable g o) d = (d, Some (Throw RuntimeError)) /\
                       exec (save_adjacencylist_io writable g o) d = (d, Some (Throw RuntimeError))) /\
  (forall rows : list (list W), exec (save_matrix_io writable rows o) d = (d, Some (Throw RuntimeError))) /\
  exec (copy_edgelist_io (W := W) writable i o) d = (d, Some (Throw RuntimeError)) /\
  exec (adjacencylist_to_edgelist_io (W := W) writable i o) d = (d, Some (Throw RuntimeError)) /\
  (forall (St : Type) (G : rng W St) fuel sizes P exact s, exec (general_sbm_edgelist_io writable G fuel sizes P exact s o) d = (d, Some (Throw RuntimeError))).
Proof.
  intros W HN HT writable i o d Hw. split; [|split; [|split; [|split]]].
  - intros g. unfold save_edgelist_io, save_adjacencylist_io, open_out. rewrite Hw. split; [reflexivity|].
    now destruct (wloop _ _ _).
  - intros rows. unfold save_matrix_io, open_out. now rewrite Hw.
  - unfold copy_edgelist_io. rewrite exec_open_in. destruct (d i); auto. unfold open_out. now rewrite Hw.
  - unfold adjacencylist_to_edgelist_io. cbn [exec]. rewrite Hw. now destruct (d i).
  - intros. unfold general_sbm_edgelist_io, open_out. now rewrite Hw.
Qed.
Print Assumptions C71_unwritable_output_partial.
(** A line which does not parse: sort_edgelist throws before it touches anything; the conversions have written the lines before it, nothing else. *)
Theorem C71_malformed_input :
  forall (W : Type) `{Num W} `{!TextNum W} (writable : name -> bool) (tmp : nat -> name) (i o : name) (d : disk) t good bad rest, d i = Some t -> i <> o ->
  writable o = true -> read_lines t = good ++ bad :: rest ->
  (forall (es : list (Z * Z * W)) e, edge_lines good = Ok es -> is_content bad = true -> parse_edge_line (W := W) bad = Throw e ->
     exists e', (forall fuel, exec (sort_edgelist_io (W := W) writable fuel tmp i) d = (d, Some (Throw e'))) /\
     exists ls d', copy_dup_lines (W := W) good = Ok ls /\ exec (copy_edgelist_io (W := W) writable i o) d = (d', Some (Throw e')) /\
                   only_wrote d d' o (put_lines ls)) /\
  (forall (ls : list text) e, adj_to_el (W := W) good false = Ok ls -> is_content bad = true -> parse_adj_line (W := W) bad = Throw e ->
     exists e' d', exec (adjacencylist_to_edgelist_io (W := W) writable i o) d = (d', Some (Throw e')) /\ only_wrote d d' o (put_lines ls)).
Proof.
  intros W HN HT writable tmp i o d t good bad rest Ei Hn Hw Er. split.
  - intros es e Eg Hb Ep.
    assert (exists e', rethrow (parse_edge_line (W := W) bad) = Throw e') as [e' Ee]. { rewrite Ep. destruct e; cbn [rethrow]; eauto. }
    exists e'. split.
    + intros fuel. unfold sort_edgelist_io. rewrite exec_open_in, Ei. unfold lines_and_nodes. rewrite Er.
      assert (edge_lines (W := W) (good ++ bad :: rest) = Throw e') as ->; [|reflexivity].
      clear Er. revert es Eg. induction good as [|l good IH]; intros es Eg; cbn [app edge_lines] in *.
      * now rewrite Hb, Ee.
      * destruct (is_content l); [|eauto]. destruct (rethrow (parse_edge_line l)); try discriminate. cbn [obind] in *.
        destruct (edge_lines good) eqn:E; try discriminate. now rewrite (IH _ eq_refl).
    + assert (exists ls, copy_dup_lines (W := W) good = Ok ls /\ wloop copy_step tt good = (put_lines ls, Ok tt)) as (ls & Els & Ew).
      { clear Er. pose proof (wloop_copy (W := W) good) as Hc. assert (exists ls, copy_dup_lines (W := W) good = Ok ls) as [ls Els].
        { clear Hc. revert es Eg. induction good as [|l good IH]; intros es Eg; cbn [copy_dup_lines edge_lines] in *; eauto.
          destruct (is_content l).
          - destruct (rethrow (parse_edge_line l)) as [[[u v] w]| |]; try discriminate. cbn [obind] in *.
            destruct (edge_lines good); try discriminate. destruct (IH _ eq_refl) as [ls ->]. cbn [obind]. eauto.
          - destruct (IH _ Eg) as [ls ->]. cbn [obind]. eauto. }
        rewrite Els in Hc. eauto. }
      exists ls, (upd d o (Some (put_lines ls))). split; auto. split; [|apply only_wrote_upd].
      destruct (copy_exec writable i o d t Hn Ei Hw) as (t' & r & Et & Ex). rewrite Ex. rewrite Er, wloop_app, Ew in Et. cbn [wloop] in Et.
      unfold copy_step in Et at 1. rewrite Hb, Ee in Et. cbn [obind] in Et. rewrite app_nil_r in Et. now injection Et as <- <-.
  - intros ls e Eg Hb Ep.
    assert (exists e', rethrow (parse_adj_line (W := W) bad) = Throw e') as [e' Ee]. { rewrite Ep. destruct e; cbn [rethrow]; eauto. }
    exists e', (upd d o (Some (put_lines ls))). split; [|apply only_wrote_upd].
    destruct (adj_exec writable i o d t Hn Ei Hw) as (t' & r & Et & Ex). rewrite Ex. pose proof (wloop_adj (W := W) good false) as Hl. rewrite Eg in Hl.
    destruct Hl as [wc Hl]. rewrite Er, wloop_app, Hl in Et. cbn [wloop] in Et.
    unfold adj_to_el_step in Et at 1. rewrite Hb, Ee in Et. cbn [obind] in Et. rewrite app_nil_r in Et. now injection Et as <- <-.
Qed.
Print Assumptions C71_malformed_input.
(** adjacencylist_to_edgelist with an input which does not exist empties the output file before it throws. *)
Theorem C71_missing_input_empties_output_refuted :
  forall (W : Type) `{Num W} `{!TextNum W} (writable : name -> bool) (i o : name) (d : disk), d i = None -> writable o = true ->
  exists d', exec (adjacencylist_to_edgelist_io (W := W) writable i o) d = (d', Some (Throw RuntimeError)) /\ only_wrote d d' o [].
Proof.
  intros W HN HT writable i o d E Hw. exists (upd d o (Some [])). split; [|apply only_wrote_upd].
  unfold adjacencylist_to_edgelist_io. cbn [exec]. now rewrite E, Hw.
Qed.
Print Assumptions C71_missing_input_empties_output_refuted.
(** edgelist_to_adjacencylist with an output which cannot be opened returns normally and writes nothing. *)
Theorem C71_unwritable_output_ignored_refuted :
  forall (W : Type) `{Num W} `{!TextNum W} (writable : name -> bool) (tmp : nat -> name) (i o : name) (d : disk) t out fuel,
  d i = Some t -> writable o = false -> (forall k, writable (tmp k) = true /\ d (tmp k) = None /\ tmp (S k) <> tmp 0) ->
  edgelist_to_adjacencylist (W := W) fuel t = Some (Ok out) ->
  exec (edgelist_to_adjacencylist_io (W := W) writable fuel tmp i o) d = (d, Some (Ok tt)).
Proof.
  intros W HN HT writable tmp i o d t out fuel Ei Hw Ht Es.
  rewrite (el_exec writable tmp i o) with (t := t) (out := out); auto; try (intros k; apply Ht); [now rewrite Hw| |].
  - intros k E. destruct (Ht k) as (_ & Hk & _). rewrite E in Hk. congruence.
  - intros k E. destruct (Ht k) as (Hk & _ & _). rewrite E in Hk. congruence.
Qed.
Print Assumptions C71_unwritable_output_ignored_refuted.
(** edgelist_to_adjacencylist leaves its temporary file behind when the input does not parse. *)
Theorem C71_temporary_file_left_refuted :
  forall (W : Type) `{Num W} `{!TextNum W} (writable : name -> bool) (tmp : nat -> name) (i o : name) (d : disk) t e fuel,
  d i = Some t -> (forall k, writable (tmp k) = true /\ d (tmp k) = None /\ tmp k <> o /\ tmp (S k) <> tmp 0) ->
  copy_edgelist_duplicate_edges (W := W) t = Throw e ->
  exists c d', exec (edgelist_to_adjacencylist_io (W := W) writable fuel tmp i o) d = (d', Some (Throw e)) /\ only_wrote d d' (tmp 0) c.
Proof.
  intros W HN HT writable tmp i o d t e fuel Ei Ht Ec.
  destruct (el_exec_throw writable tmp i o) with (fuel := fuel) (d := d) (t := t) (e := e) as [c E]; auto; try (intros k; apply Ht).
  - intros k E. destruct (Ht k) as (_ & Hk & _). rewrite E in Hk. congruence.
  - exists c, (upd d (tmp 0) (Some c)). split; auto. apply only_wrote_upd.
Qed.
Print Assumptions C71_temporary_file_left_refuted.
(** general_sbm_edgelist with invalid parameters has replaced the file by a header when it throws. *)
Theorem C71_invalid_parameters_overwrite_refuted :
  forall (W : Type) `{PosNum W} `{!TextNum W} (writable : name -> bool) (St : Type) (G : rng W St) fuel sizes P exact s f d,
  ~ valid_sbm sizes P -> writable f = true -> dm_rows P = List.length sizes -> dm_cols P = List.length sizes ->
  exists d', exec (general_sbm_edgelist_io writable G fuel sizes P exact s f) d = (d', Some (Throw InvalidArgument)) /\
             only_wrote d d' f (put_lines (sbm_header sizes P)).
Proof.
  intros W HN HP HT writable St G fuel sizes P exact s f d Hv Hw Hr Hc. exists (upd d f (Some (put_lines (sbm_header sizes P)))).
  split; [now apply sbm_exec_invalid|apply only_wrote_upd].
Qed.
Print Assumptions C71_invalid_parameters_overwrite_refuted.
(** Converting a file in place empties it, whatever it held, and returns normally. *)
Theorem C71_in_place_refuted :
  forall (W : Type) `{Num W} `{!TextNum W} (writable : name -> bool) (f : name) (d : disk) t, d f = Some t -> writable f = true ->
  exists d1 d2, exec (copy_edgelist_io (W := W) writable f f) d = (d1, Some (Ok tt)) /\ only_wrote d d1 f [LF] /\
    exec (adjacencylist_to_edgelist_io (W := W) writable f f) d = (d2, Some (Ok tt)) /\ only_wrote d d2 f [LF].
Proof.
  intros W HN HT writable f d t E Hw. exists (upd d f (Some [LF])), (upd d f (Some [LF])). split; [|split; [apply only_wrote_upd|split; [|apply only_wrote_upd]]].
  - unfold copy_edgelist_io, open_out. rewrite exec_open_in, E, Hw. cbn [exec act]. rewrite upd_same. cbn. now rewrite upd_same, upd_upd.
  - unfold adjacencylist_to_edgelist_io. cbn [exec]. rewrite E, Hw. cbn [exec act]. rewrite upd_same. cbn. now rewrite upd_same, upd_upd.
Qed.
Print Assumptions C71_in_place_refuted.
Definition not_fout (f : name) : bool := if name_eq_dec f fout then false else true.
Definition exP2 : RandomGraph.dmat Qc := sbm_probs 1 (Q2Qc (3 # 2)) w0.
Example C71_hypotheses_met :
  (exists good bad rest es, read_lines exBad = good ++ bad :: rest /\ edge_lines (W := Qc) good = Ok es /\ List.length es = 1 /\ is_content bad = true /\
     parse_edge_line (W := Qc) bad = Throw InvalidArgument) /\
  (exists good bad rest ls, read_lines exBadAdj = good ++ bad :: rest /\ adj_to_el (W := Qc) good false = Ok ls /\ List.length ls = 1 /\ is_content bad = true /\
     parse_adj_line (W := Qc) bad = Throw InvalidArgument) /\
  copy_edgelist_duplicate_edges (W := Qc) exBad = Throw RuntimeError /\
  ends (edgelist_to_adjacencylist_io (W := Qc) not_fout 50 ftmp fin fout) (disk1 fin exFile) (fun d r => is_ok r && lacks d fout) = true /\
  ends (edgelist_to_adjacencylist_io (W := Qc) all_writable 50 ftmp fin fout) (disk1 fin exBad) (fun d r => negb (is_ok r) && negb (lacks d (ftmp 0))) = true /\
  ~ valid_sbm [4%Z] exP2.
Proof.
  split; [|split; [|split; [vm_compute; reflexivity|split; [vm_compute; reflexivity|split; [vm_compute; reflexivity|]]]]].
  - exists [txt "# header"; txt "0 1 2.5"], (txt "1 x"), [txt "2 0"; []].
    destruct (edge_lines (W := Qc) [txt "# header"; txt "0 1 2.5"]) as [es| |] eqn:E; try (vm_compute in E; discriminate).
    exists es. split; [reflexivity|]. split; [reflexivity|]. split; [|split; vm_compute; reflexivity].
    assert (match edge_lines (W := Qc) [txt "# header"; txt "0 1 2.5"] with Ok es => List.length es | _ => 0 end = 1) as Hl by (vm_compute; reflexivity). now rewrite E in Hl.
  - exists [txt "0: 1:2.5"], (txt "1: 0:abc 2"), [txt "2: 1"; []].
    destruct (adj_to_el (W := Qc) [txt "0: 1:2.5"] false) as [es| |] eqn:E; try (vm_compute in E; discriminate).
    exists es. split; [reflexivity|]. split; [reflexivity|]. split; [|split; vm_compute; reflexivity].
    assert (match adj_to_el (W := Qc) [txt "0: 1:2.5"] false with Ok es => List.length es | _ => 0 end = 1) as Hl by (vm_compute; reflexivity). now rewrite E in Hl.
  - rewrite <- valid_sbm_iff. vm_compute. discriminate.
Qed.

(** ** C72 *)
(** Two processes converting at the same time, with different outputs and temporary files (and neither writing the other's input): however they are interleaved,
    both files are what the calls alone produce, and nothing else is changed. *)
Theorem C72_concurrent_conversions :
  forall (W : Type) `{Num W} `{!TextNum W} (writable : name -> bool) (tmp1 tmp2 : nat -> name) (i1 o1 i2 o2 : name) (d d' : disk) t1 t2 out1 out2 fuel1 fuel2 r1 r2,
  d i1 = Some t1 -> d i2 = Some t2 -> writable o1 = true -> writable o2 = true ->
  (forall k, writable (tmp1 k) = true /\ d (tmp1 k) = None /\ tmp1 k <> o1 /\ tmp1 (S k) <> tmp1 0) ->
  (forall k, writable (tmp2 k) = true /\ d (tmp2 k) = None /\ tmp2 k <> o2 /\ tmp2 (S k) <> tmp2 0) ->
  edgelist_to_adjacencylist (W := W) fuel1 t1 = Some (Ok out1) -> edgelist_to_adjacencylist (W := W) fuel2 t2 = Some (Ok out2) ->
  o1 <> o2 -> i1 <> o2 -> i2 <> o1 -> (forall j k, tmp1 j <> tmp2 k /\ tmp1 j <> o2 /\ tmp2 k <> o1) ->
  together (edgelist_to_adjacencylist_io (W := W) writable fuel1 tmp1 i1 o1) (edgelist_to_adjacencylist_io (W := W) writable fuel2 tmp2 i2 o2) d (Done r1) (Done r2) d' ->
  r1 = Some (Ok tt) /\ r2 = Some (Ok tt) /\ d' o1 = Some out1 /\ d' o2 = Some out2 /\ forall f, f <> o1 -> f <> o2 -> d' f = d f.
Proof.
  intros W HN HT writable tmp1 tmp2 i1 o1 i2 o2 d d' t1 t2 out1 out2 fuel1 fuel2 r1 r2 E1 E2 Hw1 Hw2 Ht1 Ht2 Es1 Es2 Ho H12 H21 Hs Ht.
  assert (forall k, tmp1 k <> i1) as Hi1. { intros k E. destruct (Ht1 k) as (_ & Hk & _). rewrite E in Hk. congruence. }
  assert (forall k, tmp2 k <> i2) as Hi2. { intros k E. destruct (Ht2 k) as (_ & Hk & _). rewrite E in Hk. congruence. }
  assert (forall k, tmp2 k <> i1) as Hi21. { intros k E. destruct (Ht2 k) as (_ & Hk & _). rewrite E in Hk. congruence. }
  assert (forall k, tmp1 k <> i2) as Hi12. { intros k E. destruct (Ht1 k) as (_ & Hk & _). rewrite E in Hk. congruence. }
  pose proof (el_exec writable tmp1 i1 o1 Hi1 (fun k => proj1 (proj2 (proj2 (Ht1 k)))) (fun k => proj2 (proj2 (proj2 (Ht1 k)))) fuel1 d t1 out1 E1
    (fun k => proj1 (proj2 (Ht1 k))) (fun k => proj1 (Ht1 k)) Es1) as X1. rewrite Hw1 in X1.
  pose proof (el_exec writable tmp2 i2 o2 Hi2 (fun k => proj1 (proj2 (proj2 (Ht2 k)))) (fun k => proj2 (proj2 (proj2 (Ht2 k)))) fuel2 d t2 out2 E2
    (fun k => proj1 (proj2 (Ht2 k))) (fun k => proj1 (Ht2 k)) Es2) as X2. rewrite Hw2 in X2.
  eapply together_result in Ht; [| | |apply el_confined|apply el_confined]; [|intros f; cbv beta|intros f; cbv beta].
  - rewrite X1, X2 in Ht. cbn [fst snd] in Ht. destruct Ht as (-> & -> & F1 & F2 & F3). split; auto. split; auto.
    split; [rewrite F1 by auto; apply upd_same|]. split; [rewrite F2 by auto; apply upd_same|]. intros f Hf1 Hf2.
    assert ({d' f = d f} + {d' f <> d f}) as [Hd|Hd] by (repeat decide equality); auto. exfalso. apply Hd.
    apply F3; intros [Hf|Hf]; try contradiction; apply Hd; [rewrite F1 by auto|rewrite F2 by auto]; now apply upd_other.
  - intros [->|[k ->]]; intros [E|[E|[j E]]]; [congruence|congruence|exact (proj2 (proj2 (Hs 0 j)) (eq_sym E))|exact (Hi12 k E)|exact (proj1 (proj2 (Hs k 0)) E)|exact (proj1 (Hs k j) E)].
  - intros [->|[k ->]]; intros [E|[E|[j E]]]; [congruence|congruence|exact (proj1 (proj2 (Hs j 0)) (eq_sym E))|exact (Hi21 k E)|exact (proj2 (proj2 (Hs 0 k)) E)|exact (proj1 (Hs j k) (eq_sym E))].
Qed.
Print Assumptions C72_concurrent_conversions.
(** Two processes which read the same files and write different ones, in general: each behaves as if it were alone (save, load, copy, sort). *)
Theorem C72_concurrent_sorts :
  forall (W : Type) `{Num W} `{!TextNum W} (writable : name -> bool) (tmp1 tmp2 : nat -> name) (f1 f2 : name) (d d' : disk) t1 t2 out1 out2 fuel1 fuel2 r1 r2,
  d f1 = Some t1 -> d f2 = Some t2 -> writable f1 = true -> writable f2 = true ->
  (forall k, writable (tmp1 k) = true /\ d (tmp1 k) = None) -> (forall k, writable (tmp2 k) = true /\ d (tmp2 k) = None) ->
  sort_edgelist (W := W) fuel1 t1 = Some (Ok out1) -> sort_edgelist (W := W) fuel2 t2 = Some (Ok out2) ->
  f1 <> f2 -> (forall j k, tmp1 j <> tmp2 k) ->
  together (sort_edgelist_io (W := W) writable fuel1 tmp1 f1) (sort_edgelist_io (W := W) writable fuel2 tmp2 f2) d (Done r1) (Done r2) d' ->
  r1 = Some (Ok tt) /\ r2 = Some (Ok tt) /\ d' f1 = Some out1 /\ d' f2 = Some out2 /\ forall f, f <> f1 -> f <> f2 -> d' f = d f.
Proof.
  intros W HN HT writable tmp1 tmp2 f1 f2 d d' t1 t2 out1 out2 fuel1 fuel2 r1 r2 E1 E2 Hw1 Hw2 Ht1 Ht2 Es1 Es2 Hf Hs Ht.
  assert (forall k, tmp1 k <> f1) as Hi1. { intros k E. destruct (Ht1 k) as (_ & Hk). rewrite E in Hk. congruence. }
  assert (forall k, tmp2 k <> f2) as Hi2. { intros k E. destruct (Ht2 k) as (_ & Hk). rewrite E in Hk. congruence. }
  assert (forall k, tmp2 k <> f1) as Hi21. { intros k E. destruct (Ht2 k) as (_ & Hk). rewrite E in Hk. congruence. }
  assert (forall k, tmp1 k <> f2) as Hi12. { intros k E. destruct (Ht1 k) as (_ & Hk). rewrite E in Hk. congruence. }
  pose proof (sort_exec writable tmp1 f1 Hi1 fuel1 d t1 out1 E1 (fun k => proj2 (Ht1 k)) Hw1 (fun k => proj1 (Ht1 k)) Es1) as X1.
  pose proof (sort_exec writable tmp2 f2 Hi2 fuel2 d t2 out2 E2 (fun k => proj2 (Ht2 k)) Hw2 (fun k => proj1 (Ht2 k)) Es2) as X2.
  eapply together_result in Ht; [| | |apply sort_confined|apply sort_confined]; [|intros f; cbv beta|intros f; cbv beta].
  - rewrite X1, X2 in Ht. cbn [fst snd] in Ht. destruct Ht as (-> & -> & F1 & F2 & F3). split; auto. split; auto.
    split; [rewrite F1 by auto; apply upd_same|]. split; [rewrite F2 by auto; apply upd_same|]. intros f Hf1 Hf2.
    assert ({d' f = d f} + {d' f <> d f}) as [Hd|Hd] by (repeat decide equality); auto. exfalso. apply Hd.
    apply F3; intros [Hg|Hg]; try contradiction; apply Hd; [rewrite F1 by auto|rewrite F2 by auto]; now apply upd_other.
  - intros [->|[k ->]]; intros [E|[E|[j E]]]; auto; try (now apply (Hi21 j)); try (now apply (Hi12 k)); now apply (Hs k j).
  - intros [->|[k ->]]; intros [E|[E|[j E]]]; auto; try (now apply (Hi21 k)); try (now apply (Hi12 j)); now apply (Hs j k).
Qed.
Print Assumptions C72_concurrent_sorts.
(** Every pair of programs can finish (file operations never wait for each other). *)
Theorem C72_no_deadlock :
  forall (A B : Type) (p : io A) (q : io B) (d : disk), exists r1 r2 d', together p q d (Done r1) (Done r2) d'.
Proof. intros A B. exact together_progress. Qed.
Print Assumptions C72_no_deadlock.
(** std::rand is never seeded, so two processes choose the same temporary names.  Then sorting two files at the same time can replace one file by the other and lose both
    names: the first call returns normally and its file holds the edges of the other file; the second throws and its file is gone. *)
Definition fA : name := txt "a.txt".
Definition fB : name := txt "b.txt".
Definition diskAB : disk := fun g => if name_eq_dec g fA then Some (file_of ["0 1"]%string) else if name_eq_dec g fB then Some (file_of ["2 3"]%string) else None.
Definition clash : io unit * io unit * disk :=
  schedule [(true, 7); (false, 7); (true, 100); (false, 100)] (sort_edgelist_io (W := Qc) all_writable 50 ftmp fA) (sort_edgelist_io (W := Qc) all_writable 50 ftmp fB) diskAB.
Theorem C72_same_temporary_names_refuted :
  (exists d', together (sort_edgelist_io (W := Qc) all_writable 50 ftmp fA) (sort_edgelist_io (W := Qc) all_writable 50 ftmp fB) diskAB
                (Done (Some (Ok tt))) (Done (Some (Throw RuntimeError))) d' /\
     d' fA = diskAB fB /\ d' fB = None /\ d' (ftmp 0) = None) /\ diskAB fA <> diskAB fB.
Proof.
  split; [|vm_compute; discriminate].
  destruct clash as [[p q] d'] eqn:E. exists d'.
  assert (let '(p, q, d) := clash in p = Done (Some (Ok tt)) /\ q = Done (Some (Throw RuntimeError)) /\ d fA = diskAB fB /\ d fB = None /\ d (ftmp 0) = None) as Hc
    by (vm_compute; auto 6).
  rewrite E in Hc. destruct Hc as (-> & -> & Hd). split; auto. now apply schedule_together in E.
Qed.
Print Assumptions C72_same_temporary_names_refuted.
Definition ftmp2 : nat -> name := const_tmp 12 13.
Definition diskAC : disk := fun g => if name_eq_dec g fA then Some exFile else if name_eq_dec g fB then Some (file_of ["2 3"; "1 2 0.5"]%string) else None.
Example C72_hypotheses_met :
  (exists out, edgelist_to_adjacencylist (W := Qc) 50 exFile = Some (Ok out)) /\
  (exists out, edgelist_to_adjacencylist (W := Qc) 50 (file_of ["2 3"; "1 2 0.5"]%string) = Some (Ok out)) /\
  (let '(p, q, d) := schedule (concat (repeat [(true, 5); (false, 3)] 200))
      (edgelist_to_adjacencylist_io (W := Qc) all_writable 50 ftmp fA fin) (edgelist_to_adjacencylist_io (W := Qc) all_writable 50 ftmp2 fB fout) diskAC in
    match p, q with Done r1, Done r2 => is_ok r1 && is_ok r2 && has d fin (adj_of exFile) && has d fout (adj_of (file_of ["2 3"; "1 2 0.5"]%string)) | _, _ => false end = true) /\
  (forall j k, ftmp j <> ftmp2 k) /\ (forall k, ftmp2 (S k) <> ftmp2 0) /\
  (forall k, diskAC (ftmp k) = None /\ diskAC (ftmp2 k) = None /\ ftmp k <> fout /\ ftmp2 k <> fin).
Proof.
  split; [eexists; vm_compute; reflexivity|]. split; [eexists; vm_compute; reflexivity|]. split; [vm_compute; reflexivity|]. split; [|split].
  - intros j k E. apply const_tmp_inj in E; [|lia..]. destruct (j =? 0)%nat, (k =? 0)%nat; discriminate E.
  - intros k E. apply const_tmp_inj in E; [|lia..]. discriminate E.
  - intros k. split; [|split; [|split; discriminate]]; unfold diskAC;
      (destruct (name_eq_dec _ fA) as [E|_]; [discriminate E|]); destruct (name_eq_dec _ fB) as [E|_]; [discriminate E|reflexivity|discriminate E|reflexivity].
Qed.
