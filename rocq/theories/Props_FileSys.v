(** C69-C72: what the functions which read and write files do to the disk.  Vocabulary: FileSysFacts.v ([only_wrote], [unchanged], [initial_part]),
    FileSysSort.v ([old_or_part]), FileSysTop.v ([is_tmp]); [exec p d]: disk and result of running [p] alone; [crashes p d d']: [d'] is a disk which a crash during [p] can leave. *)
From Verif Require Import Base Num Sparse SparseFacts Graph GraphSpec GraphFacts GraphProps1 GraphExamples Cluster ClusterSweep ClusterExamples Text TextFacts TextQc
  GraphIO IOSpec GraphIOFacts GraphIOLoad GraphIOAdj GraphIOSort GraphIOConv GraphIOBack GraphIOBad IOExamples RandomGraph RandomFacts RandomTop RandomTop2 Data
  FileSys FileSysFacts FileSysTop FileSysSort FileSysMore.
From Coq Require Import Ascii String List Permutation QArith Qcanon.
Import ListNotations.
Local Close Scope Q_scope. Local Close Scope Qc_scope.
Local Open Scope nat_scope.
Local Open Scope list_scope.

(** ** C69 *)
Theorem C69_load :
  forall (W : Type) `{Num W} `{!TextNum W} (f : name) (d : disk) grow,
  exec (load_edgelist_io (W := W) f) d = (d, Some (match d f with Some t => load_edgelist t | None => Throw RuntimeError end)) /\
  exec (load_adjacencylist_io (W := W) f) d = (d, Some (match d f with Some t => load_adjacencylist t | None => Throw RuntimeError end)) /\
  exec (load_matrix_io (W := W) grow f) d = (d, Some (match d f with Some t => load_matrix grow t | None => Throw RuntimeError end)).
Proof. intros. split; [apply load_edgelist_exec|]. split; [apply load_adjacencylist_exec|apply load_matrix_exec]. Qed.
Print Assumptions C69_load.
Theorem C69_save :
  forall (W : Type) `{Num W} `{!TextNum W} (writable : name -> bool) (f : name) (d : disk), writable f = true ->
  (forall g : graph W, exists d', exec (save_edgelist_io writable g f) d = (d', Some (Ok tt)) /\ only_wrote d d' f (save_edgelist g)) /\
  (forall (g : graph W) t, save_adjacencylist g = Ok t -> exists d', exec (save_adjacencylist_io writable g f) d = (d', Some (Ok tt)) /\ only_wrote d d' f t) /\
  (forall rows : list (list W), exists d', exec (save_matrix_io writable rows f) d = (d', Some (Ok tt)) /\ only_wrote d d' f (save_matrix rows)).
Proof.
  intros W HN HT writable f d Hw. split; [|split].
  - intros g. exists (upd d f (Some (save_edgelist g))). split; [now apply save_edgelist_exec|apply only_wrote_upd].
  - intros g t E. exists (upd d f (Some t)). split; [now apply save_adjacencylist_exec|apply only_wrote_upd].
  - intros rows. exists (upd d f (Some (save_matrix rows))). split; [now apply save_matrix_exec|apply only_wrote_upd].
Qed.
Print Assumptions C69_save.
(** Saving and loading through the disk. *)
Theorem C69_save_then_load :
  forall (W : Type) `{PosNum W} `{!TextNum W} (writable : name -> bool) (f : name) (d : disk) (g : graph W), writable f = true ->
  reachable g -> weights_above_eps g -> int_ids g -> printable_weights g -> last_not_isolated g ->
  exists d' h, exec (ibind (save_adjacencylist_io writable g f) (fun _ => load_adjacencylist_io (W := W) f)) d = (d', Some (Ok h)) /\
    graph_eqb g h = true /\ forall f', f' <> f -> d' f' = d f'.
Proof.
  intros W HN HP HT writable f d g Hw Hr Ha Hi Hp Hl. destruct (adjacencylist_roundtrip g Hr Ha Hi Hp Hl) as (t & h & Es & El & Eq & _).
  exists (upd d f (Some t)), h. rewrite exec_ibind, (save_adjacencylist_exec writable g f t d Hw Es), load_adjacencylist_exec, upd_same, El.
  split; auto. split; auto. intros f' Hf. now apply upd_other.
Qed.
Print Assumptions C69_save_then_load.
Theorem C69_convert :
  forall (W : Type) `{Num W} `{!TextNum W} (writable : name -> bool) (i o : name) (d : disk) t out, i <> o -> d i = Some t -> writable o = true ->
  (copy_edgelist_duplicate_edges (W := W) t = Ok out ->
     exists d', exec (copy_edgelist_io (W := W) writable i o) d = (d', Some (Ok tt)) /\ only_wrote d d' o out) /\
  (adjacencylist_to_edgelist (W := W) t = Ok out ->
     exists d', exec (adjacencylist_to_edgelist_io (W := W) writable i o) d = (d', Some (Ok tt)) /\ only_wrote d d' o out).
Proof.
  intros W HN HT writable i o d t out Hn E Hw. split; intros Ec; exists (upd d o (Some out)).
  - split; [now apply (copy_exec_ok writable i o d t)|apply only_wrote_upd].
  - split; [now apply (adj_exec_ok writable i o d t)|apply only_wrote_upd].
Qed.
Print Assumptions C69_convert.
(** sort_edgelist replaces the file and leaves no temporary file. *)
Theorem C69_sort :
  forall (W : Type) `{Num W} `{!TextNum W} (writable : name -> bool) (tmp : nat -> name) (f : name) (d : disk) t out fuel,
  d f = Some t -> writable f = true -> (forall k, writable (tmp k) = true /\ d (tmp k) = None) ->
  sort_edgelist (W := W) fuel t = Some (Ok out) ->
  exists d', exec (sort_edgelist_io (W := W) writable fuel tmp f) d = (d', Some (Ok tt)) /\ only_wrote d d' f out.
Proof.
  intros W HN HT writable tmp f d t out fuel Ef Hw Ht Es. exists (upd d f (Some out)). split; [|apply only_wrote_upd].
  apply sort_exec with (t := t); auto; try (intros k; apply Ht). intros k E. destruct (Ht k) as [_ Hk]. rewrite E in Hk. congruence.
Qed.
Print Assumptions C69_sort.
(** edgelist_to_adjacencylist writes the output and leaves no temporary file; input and output may be the same file. *)
Theorem C69_edgelist_to_adjacencylist :
  forall (W : Type) `{Num W} `{!TextNum W} (writable : name -> bool) (tmp : nat -> name) (i o : name) (d : disk) t out fuel,
  d i = Some t -> writable o = true -> (forall k, writable (tmp k) = true /\ d (tmp k) = None /\ tmp k <> o /\ tmp (S k) <> tmp 0) ->
  edgelist_to_adjacencylist (W := W) fuel t = Some (Ok out) ->
  exists d', exec (edgelist_to_adjacencylist_io (W := W) writable fuel tmp i o) d = (d', Some (Ok tt)) /\ only_wrote d d' o out.
Proof.
  intros W HN HT writable tmp i o d t out fuel Ei Hw Ht Es. exists (upd d o (Some out)). split; [|apply only_wrote_upd].
  rewrite (el_exec writable tmp i o) with (t := t) (out := out); auto; try (intros k; apply Ht); [now rewrite Hw|].
  intros k E. destruct (Ht k) as (_ & Hk & _). rewrite E in Hk. congruence.
Qed.
Print Assumptions C69_edgelist_to_adjacencylist.
Theorem C69_general_sbm_edgelist :
  forall (W : Type) `{PosNum W} `{!TextNum W} (writable : name -> bool) (St : Type) (G : rng W St) fuel sizes P exact s f d t s',
  valid_sbm sizes P -> writable f = true -> general_sbm_edgelist G fuel sizes P exact s = Some (Ok (t, s')) ->
  exists d', exec (general_sbm_edgelist_io writable G fuel sizes P exact s f) d = (d', Some (Ok s')) /\ only_wrote d d' f t.
Proof. intros. exists (upd d f (Some t)). split; [now apply sbm_exec|apply only_wrote_upd]. Qed.
Print Assumptions C69_general_sbm_edgelist.
(** Whatever the outcome and wherever the call is interrupted, no other file is touched. *)
Theorem C69_frame :
  forall (W : Type) `{PosNum W} `{!TextNum W} (writable : name -> bool) (d d' : disk) (f i o : name) (tmp : nat -> name) (fuel : nat) (h : name),
  (forall g : graph W, crashes (save_edgelist_io writable g f) d d' \/ crashes (save_adjacencylist_io writable g f) d d' -> h <> f -> d' h = d h) /\
  (forall rows : list (list W), crashes (save_matrix_io writable rows f) d d' -> h <> f -> d' h = d h) /\
  (crashes (copy_edgelist_io (W := W) writable i o) d d' \/ crashes (adjacencylist_to_edgelist_io (W := W) writable i o) d d' -> h <> o -> d' h = d h) /\
  (crashes (sort_edgelist_io (W := W) writable fuel tmp f) d d' -> h <> f -> ~ is_tmp tmp h -> d' h = d h) /\
  (crashes (edgelist_to_adjacencylist_io (W := W) writable fuel tmp i o) d d' -> h <> o -> ~ is_tmp tmp h -> d' h = d h) /\
  (forall (St : Type) (G : rng W St) sizes P exact s, crashes (general_sbm_edgelist_io writable G fuel sizes P exact s f) d d' -> h <> f -> d' h = d h).
Proof.
  intros W HN HP HT writable d d' f i o tmp fuel h. split; [|split; [|split; [|split; [|split]]]].
  - intros g [Hc|Hc] Hh; [apply (confined_frame _ _ _ _ _ (proj1 (save_confined writable g f)) Hc)|apply (confined_frame _ _ _ _ _ (proj2 (save_confined writable g f)) Hc)]; auto.
  - intros rows Hc Hh. apply (confined_frame _ _ _ _ _ (save_matrix_confined writable rows f) Hc). auto.
  - intros [Hc|Hc] Hh; [apply (confined_frame _ _ _ _ _ (copy_confined writable i o) Hc)|apply (confined_frame _ _ _ _ _ (adj_confined writable i o) Hc)]; auto.
  - intros Hc Hh Ht. apply (confined_frame _ _ _ _ _ (sort_confined writable fuel tmp f) Hc). tauto.
  - intros Hc Hh Ht. apply (confined_frame _ _ _ _ _ (el_confined writable fuel tmp i o) Hc). tauto.
  - intros St G sizes P exact s Hc Hh. apply (confined_frame _ _ _ _ _ (sbm_confined writable G fuel sizes P exact s f) Hc). auto.
Qed.
Print Assumptions C69_frame.
(** Temporary names: in the temporary directory, with twenty letters and digits; a file with any other name is not one of them. *)
Theorem C69_temporary_names :
  forall dir rnd k, temp_shaped dir (temp_name dir rnd k).
Proof. exact temp_name_shaped. Qed.
Print Assumptions C69_temporary_names.

Definition fin : name := txt "in.txt".
Definition fout : name := txt "out.txt".
(** A generator which gives the name aaa..., then the name bbb... for ever. *)
Definition const_tmp (a b : nat) (k : nat) : name := temp_name (txt "/tmp/") (fun i => if (i <? 20)%nat then a else b) k.
Lemma const_tmp_inj a b c e j k : a < 62 -> b < 62 -> c < 62 -> e < 62 -> const_tmp a b j = const_tmp c e k -> (if (j =? 0)%nat then a else b) = (if (k =? 0)%nat then c else e).
Proof.
  intros Ha Hb Hc He E. unfold const_tmp, temp_name in E. apply app_inv_head in E. apply app_inv_head in E. unfold random_string in E.
  apply (f_equal (fun l => hd "0"%char l)) in E. assert (forall (f : nat -> ascii) n, hd "0"%char (map f (seq n 20)) = f n) as Hh by reflexivity. rewrite !Hh in E. clear Hh.
  assert (List.length charset = 62) as Hl by reflexivity. rewrite Hl in E.
  assert (forall x y n : nat, (if (20 * n <? 20)%nat then x else y) = (if (n =? 0)%nat then x else y)) as Hn.
  { intros x y n. destruct n; [reflexivity|]. destruct (Nat.ltb_spec (20 * S n) 20); [lia|reflexivity]. }
  rewrite !Hn in E. rewrite !Nat.mod_small in E by (match goal with |- context [(?n =? 0)%nat] => destruct (n =? 0)%nat; assumption end).
  revert E. assert (NoDup charset) as Hd. { unfold charset. vm_compute. repeat (constructor; [cbn; intuition discriminate|]). constructor. }
  intros E. eapply NoDup_nth in E; eauto; rewrite Hl; match goal with |- context [(?n =? 0)%nat] => destruct (n =? 0)%nat; assumption end.
Qed.
Definition ftmp : nat -> name := const_tmp 10 11.
Definition disk1 (f : name) (t : text) : disk := fun g => if name_eq_dec g f then Some t else None.
Definition all_writable (_ : name) : bool := true.
Definition ends {A} (p : io A) (d : disk) (P : disk -> option (outcome A) -> bool) : bool := let '(d', r) := exec p d in P d' r.
Definition has (d : disk) (f : name) (t : text) : bool := match d f with Some t' => if list_eq_dec ascii_dec t t' then true else false | None => false end.
Definition lacks (d : disk) (f : name) : bool := match d f with Some _ => false | None => true end.
Definition is_ok {A} (r : option (outcome A)) : bool := match r with Some (Ok _) => true | _ => false end.
Definition sorted_of (t : text) : text := match sort_edgelist (W := Qc) 50 t with Some (Ok o) => o | _ => [] end.
Definition adj_of (t : text) : text := match edgelist_to_adjacencylist (W := Qc) 50 t with Some (Ok o) => o | _ => [] end.
Example C69_hypotheses_met :
  ends (sort_edgelist_io (W := Qc) all_writable 50 ftmp fin) (disk1 fin exFile) (fun d r => is_ok r && has d fin (sorted_of exFile) && lacks d (ftmp 0) && negb (has d fin exFile)) = true /\
  ends (edgelist_to_adjacencylist_io (W := Qc) all_writable 50 ftmp fin fout) (disk1 fin exFile)
    (fun d r => is_ok r && has d fout (adj_of exFile) && has d fin exFile && lacks d (ftmp 0) && lacks d (ftmp 1)) = true /\
  ends (edgelist_to_adjacencylist_io (W := Qc) all_writable 50 ftmp fin fin) (disk1 fin exFile) (fun d r => is_ok r && has d fin (adj_of exFile)) = true /\
  (forall k, ftmp (S k) <> ftmp 0) /\ (forall k, ftmp k <> fin /\ ftmp k <> fout).
Proof.
  split; [vm_compute; reflexivity|]. split; [vm_compute; reflexivity|]. split; [vm_compute; reflexivity|]. split; [|split; discriminate].
  intros k E. apply const_tmp_inj in E; [|lia..]. discriminate E.
Qed.

(** ** C70 *)
(** Whenever sort_edgelist is interrupted, the file or a temporary file holds all edge lines. *)
Theorem C70_sort_never_loses_edges_partial :
  forall (W : Type) `{Num W} `{!TextNum W} (writable : name -> bool) (fuel : nat) (tmp : nat -> name) (f : name) (d d' : disk) file ps,
  (forall k, tmp k <> f) -> d f = Some file -> edge_lines_of (W := W) (file_lines file) ps ->
  crashes (sort_edgelist_io (W := W) writable fuel tmp f) d d' ->
  exists g t ps', (g = f \/ is_tmp tmp g) /\ d' g = Some t /\ edge_lines_of (W := W) (file_lines t) ps' /\ Permutation ps' ps.
Proof. intros. eapply sort_crash_safe; eauto. Qed.
Print Assumptions C70_sort_never_loses_edges_partial.
(** The file itself is missing at some crash point of every call: for the user it is gone. *)
Theorem C70_sorted_file_missing_refuted :
  forall (W : Type) `{Num W} `{!TextNum W} (writable : name -> bool) (fuel : nat) (tmp : nat -> name) (f : name) (d : disk) file ps,
  (forall k, tmp k <> f) -> writable (tmp 0) = true -> d f = Some file -> edge_lines_of (W := W) (file_lines file) ps ->
  exists d', crashes (sort_edgelist_io (W := W) writable (S fuel) tmp f) d d' /\ d' f = None.
Proof. intros. eapply sort_missing_window; eauto. Qed.
Print Assumptions C70_sorted_file_missing_refuted.
(** The inputs of the conversions survive every crash, and the output is the old one or an initial part of the new one. *)
Theorem C70_conversions_crash :
  forall (W : Type) `{Num W} `{!TextNum W} (writable : name -> bool) (i o : name) (d d' : disk) t out, i <> o -> d i = Some t ->
  (copy_edgelist_duplicate_edges (W := W) t = Ok out -> crashes (copy_edgelist_io (W := W) writable i o) d d' -> d' i = Some t /\ old_or_part d d' o out) /\
  (adjacencylist_to_edgelist (W := W) t = Ok out -> crashes (adjacencylist_to_edgelist_io (W := W) writable i o) d d' -> d' i = Some t /\ old_or_part d d' o out).
Proof.
  intros W HN HT writable i o d d' t out Hn E. split; intros Ec Hc; split.
  - rewrite <- E. apply (confined_frame _ _ _ _ _ (copy_confined writable i o) Hc). auto.
  - eapply copy_crash; eauto.
  - rewrite <- E. apply (confined_frame _ _ _ _ _ (adj_confined writable i o) Hc). auto.
  - eapply adj_crash; eauto.
Qed.
Print Assumptions C70_conversions_crash.
Theorem C70_edgelist_to_adjacencylist_crash :
  forall (W : Type) `{Num W} `{!TextNum W} (writable : name -> bool) (tmp : nat -> name) (i o : name) (d d' : disk) t out fuel, i <> o ->
  d i = Some t -> (forall k, writable (tmp k) = true /\ d (tmp k) = None /\ tmp k <> o /\ tmp (S k) <> tmp 0) ->
  edgelist_to_adjacencylist (W := W) fuel t = Some (Ok out) ->
  crashes (edgelist_to_adjacencylist_io (W := W) writable fuel tmp i o) d d' -> d' i = Some t /\ old_or_part d d' o out.
Proof.
  intros W HN HT writable tmp i o d d' t out fuel Hn Ei Ht Es Hc.
  assert (forall k, tmp k <> i) as Hi. { intros k E. destruct (Ht k) as (_ & Hk & _). rewrite E in Hk. congruence. }
  split.
  - rewrite <- Ei. apply (confined_frame _ _ _ _ _ (el_confined writable fuel tmp i o) Hc). intros [E|[k E]]; [auto|]. now apply (Hi k).
  - eapply el_crash; eauto; intros k; apply Ht.
Qed.
Print Assumptions C70_edgelist_to_adjacencylist_crash.
Theorem C70_save_crash :
  forall (W : Type) `{Num W} `{!TextNum W} (writable : name -> bool) (f : name) (d d' : disk),
  (forall g : graph W, crashes (save_edgelist_io writable g f) d d' -> old_or_part d d' f (save_edgelist g)) /\
  (forall (g : graph W) t, save_adjacencylist g = Ok t -> crashes (save_adjacencylist_io writable g f) d d' -> old_or_part d d' f t) /\
  (forall rows : list (list W), crashes (save_matrix_io writable rows f) d d' -> old_or_part d d' f (save_matrix rows)).
Proof. intros. split; [|split]; intros; [now apply save_edgelist_crash with (writable := writable)|now apply save_adjacencylist_crash with (writable := writable) (g := g)|now apply save_matrix_crash with (writable := writable)]. Qed.
Print Assumptions C70_save_crash.
(** Saving is not atomic: after a crash the old contents can be lost and the new file incomplete, yet load without complaint. *)
Theorem C70_torn_save_refuted :
  exists (g h : graph Qc) d', crashes (save_edgelist_io all_writable g fin) (disk1 fin exFile) d' /\ reachable g /\
    (exists t, d' fin = Some t /\ load_edgelist t = Ok h) /\ graph_eqb g h = false.
Proof.
  set (t1 := firstn (List.length (save_edgelist exW) - 4) (save_edgelist exW)).
  destruct (load_edgelist (W := Qc) t1) as [h| |] eqn:E; try (vm_compute in E; discriminate).
  exists exW, h, (upd (disk1 fin exFile) fin (Some t1)). split.
  - unfold save_edgelist_io, open_out. cbn [all_writable]. apply crash_act. cbn [act].
    rewrite <- (firstn_skipn (List.length (save_edgelist exW) - 4) (save_edgelist exW)) at 1. fold t1.
    replace (upd (disk1 fin exFile) fin (Some t1)) with (upd (upd (disk1 fin exFile) fin (Some [])) fin (Some ([] ++ t1))) by apply upd_upd.
    apply crashes_write_intro. apply upd_same.
  - split; [apply exW_reachable|]. split; [exists t1; split; [apply upd_same|exact E]|].
    assert (match load_edgelist (W := Qc) t1 with Ok h => graph_eqb exW h | _ => true end = false) as Hq by (vm_compute; reflexivity).
    now rewrite E in Hq.
Qed.
Print Assumptions C70_torn_save_refuted.
Example C70_hypotheses_met :
  (forall k, ftmp k <> fin) /\ (exists ps, edge_lines_of (W := Qc) (file_lines exFile) ps /\ List.length ps >= 4) /\
  copy_edgelist_duplicate_edges (W := Qc) exFile <> Throw RuntimeError /\
  (exists out, edgelist_to_adjacencylist (W := Qc) 50 exFile = Some (Ok out)).
Proof.
  split; [intros k; discriminate|]. split; [|split].
  - destruct (read_edge_lines (file_lines exFile)) as [ps|] eqn:E; [|vm_compute in E; discriminate]. exists ps. split; [now apply read_edge_lines_of|].
    assert (match read_edge_lines (file_lines exFile) with Some ps => 4 <=? List.length ps | None => false end = true) as Hl by (vm_compute; reflexivity).
    rewrite E in Hl. now apply Nat.leb_le in Hl.
  - vm_compute. discriminate.
  - eexists. vm_compute. reflexivity.
Qed.
