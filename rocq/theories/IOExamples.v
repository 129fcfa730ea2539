(** Concrete graph files for the non-vacuity examples and refutations. *)
From Verif Require Import Base Num Sparse SparseFacts Graph GraphSpec GraphFacts GraphProps1 GraphExamples Cluster ClusterExamples Text TextFacts TextQc
  GraphIO IOSpec GraphIOFacts GraphIOLoad GraphIOAdj GraphIOSort GraphIOConv.
From Coq Require Import Ascii String List Sorting.Sorted QArith Qcanon.
Import ListNotations.
Local Close Scope Q_scope. Local Close Scope Qc_scope.
Local Open Scope nat_scope.
Local Open Scope char_scope.
Local Open Scope list_scope.

(** Readers which establish the inductive descriptions of well-formed files. *)
Definition nat_id (o : outcome Z) : option nat := match o with Ok z => if (0 <=? z)%Z then Some (Z.to_nat z) else None | _ => None end.
Lemma nat_id_ok o n : nat_id o = Some n -> o = Ok (Z.of_nat n).
Proof.
  unfold nat_id. destruct o as [z| |]; try discriminate. destruct (Z.leb_spec 0 z); [|discriminate]. intros [= <-]. f_equal. lia.
Qed.
Definition delim_of (line : text) : ascii :=
  if existsb (Ascii.eqb ",") line then "," else if existsb (Ascii.eqb " ") line then " " else TAB.
Lemma delim_earlier line : is_delim (delim_of line) /\ free_of (earlier (delim_of line)) line.
Proof.
  assert (forall c, existsb (Ascii.eqb c) line = false -> ~ In c line) as Hn.
  { intros c E Hin. assert (existsb (Ascii.eqb c) line = true); [|congruence]. apply existsb_exists. exists c. split; auto. apply Ascii.eqb_refl. }
  unfold delim_of. destruct (existsb (Ascii.eqb ",") line) eqn:E1; [split; [left; reflexivity|intros c _ []]|].
  destruct (existsb (Ascii.eqb " ") line) eqn:E2.
  - split; [right; left; reflexivity|]. intros c Hc [<-|[]]. now apply (Hn ",").
  - split; [right; right; left; reflexivity|]. intros c Hc [<-|[<-|[]]]; [now apply (Hn ",")|now apply (Hn " ")].
Qed.
Lemma split_by_fields d line : split_by d line (filter nonempty (fst (fields d line) ++ [snd (fields d line)])).
Proof. destruct (fields_join d line) as (E & F1 & F2). exists (fst (fields d line)), (snd (fields d line)). auto. Qed.

Definition read_edge (line : text) : option (nat * nat * Qc) :=
  let d := delim_of line in
  match filter nonempty (fst (fields d line) ++ [snd (fields d line)]) with
  | [a; b] => match nat_id (stoi a), nat_id (stoi b) with Some u, Some v => Some (u, v, w1) | _, _ => None end
  | [a; b; c] => match nat_id (stoi a), nat_id (stoi b), stod c with Some u, Some v, Ok w => Some (u, v, w) | _, _, _ => None end
  | _ => None
  end.
Lemma read_edge_text line u v w : read_edge line = Some (u, v, w) -> edge_text line u v w.
Proof.
  unfold read_edge. destruct (delim_earlier line) as [Hd He]. pose proof (split_by_fields (delim_of line) line) as Hs.
  destruct (filter nonempty _) as [|a [|b [|c [|]]]]; try discriminate.
  - destruct (nat_id (stoi a)) as [x|] eqn:Ea; [|discriminate]. destruct (nat_id (stoi b)) as [y|] eqn:Eb; [|discriminate].
    intros [= <- <- <-]. apply nat_id_ok in Ea, Eb. eapply et_two; eauto.
  - destruct (nat_id (stoi a)) as [x|] eqn:Ea; [|discriminate]. destruct (nat_id (stoi b)) as [y|] eqn:Eb; [|discriminate].
    destruct (stod c) as [z| |] eqn:Ec; try discriminate. intros [= <- <- <-]. apply nat_id_ok in Ea, Eb. eapply et_three; eauto.
Qed.
Fixpoint read_edge_lines (ls : list text) : option (list (text * (nat * nat * Qc))) :=
  match ls with
  | [] => Some []
  | l :: r => if is_content l then match read_edge l, read_edge_lines r with Some e, Some es => Some ((l, e) :: es) | _, _ => None end
              else read_edge_lines r
  end.
Lemma read_edge_lines_of ls ps : read_edge_lines ls = Some ps -> edge_lines_of ls ps.
Proof.
  revert ps; induction ls as [|l ls IH]; intros ps; cbn [read_edge_lines]; [intros [= <-]; constructor|].
  destruct (is_content l) eqn:Ec.
  - destruct (read_edge l) as [[[u v] w]|] eqn:Ee; [|discriminate]. destruct (read_edge_lines ls) as [es|]; [|discriminate]. intros [= <-].
    apply elo_edge; auto using read_edge_text. now apply is_content_true.
  - intros E. apply elo_skip; auto. now apply is_content_iff.
Qed.
Definition edges_of_file (f : text) : list (nat * nat * Qc) :=
  match read_edge_lines (file_lines f) with Some ps => map snd ps | None => [] end.
Lemma edges_of_file_text f : (if read_edge_lines (file_lines f) then true else false) = true -> edgelist_text (file_lines f) (edges_of_file f).
Proof.
  unfold edges_of_file. destruct (read_edge_lines (file_lines f)) as [ps|] eqn:E; [|discriminate]. intros _.
  now apply edge_lines_of_text, read_edge_lines_of.
Qed.

Definition read_nbr (tok : text) : option (nat * Qc) :=
  match split1 ":" tok with
  | None => match nat_id (stoi tok) with Some v => Some (v, w1) | None => None end
  | Some (a, b) => match nat_id (stoi a), stod b with Some v, Ok w => Some (v, w) | _, _ => None end
  end.
Lemma split1_cases c t : match split1 c t with Some (a, b) => t = a ++ c :: b /\ free_of [c] a | None => free_of [c] t end.
Proof.
  induction t as [|x t IH]; cbn [split1]; [apply free_of_nil|]. destruct (Ascii.eqb_spec x c) as [->|Hne].
  - split; [reflexivity|apply free_of_nil].
  - destruct (split1 c t) as [[a b]|].
    + destruct IH as [-> Hf]. split; [reflexivity|]. apply free_of_cons. split; auto. intros [E|[]]. congruence.
    + apply free_of_cons. split; auto. intros [E|[]]. congruence.
Qed.
Lemma read_nbr_text tok n : read_nbr tok = Some n -> nbr_text tok (fst n) (snd n).
Proof.
  unfold read_nbr. pose proof (split1_cases ":" tok) as Hs. destruct (split1 ":" tok) as [[a b]|].
  - destruct Hs as [-> Hf]. destruct (nat_id (stoi a)) as [v|] eqn:Ea; [|discriminate]. destruct (stod b) as [w| |] eqn:Eb; try discriminate.
    intros [= <-]. apply nat_id_ok in Ea. eapply nt_weight; eauto.
  - destruct (nat_id (stoi tok)) as [v|] eqn:Ea; [|discriminate]. intros [= <-]. apply nat_id_ok in Ea. now apply nt_id.
Qed.
Fixpoint read_nbrs (ts : list text) : option (list (nat * Qc)) :=
  match ts with
  | [] => Some []
  | t :: r => match read_nbr t, read_nbrs r with Some n, Some ns => Some (n :: ns) | _, _ => None end
  end.
Lemma read_nbrs_text ts ns : read_nbrs ts = Some ns -> Forall2 (fun t n => nbr_text t (fst n) (snd n)) ts ns.
Proof.
  revert ns; induction ts as [|t ts IH]; intros ns; cbn [read_nbrs]; [intros [= <-]; constructor|].
  destruct (read_nbr t) as [n|] eqn:E; [|discriminate]. destruct (read_nbrs ts) as [r|]; [|discriminate]. intros [= <-].
  constructor; auto. now apply read_nbr_text.
Qed.
Definition read_node (line : text) : option (nat * list (nat * Qc)) :=
  match split1 ":" line with
  | None => None
  | Some (a, rest) => match nat_id (stoi a), read_nbrs (filter nonempty (fst (fields " " rest) ++ [snd (fields " " rest)])) with
                      | Some u, Some ns => Some (u, ns) | _, _ => None end
  end.
Fixpoint read_nodes (ls : list text) : option (list (nat * list (nat * Qc))) :=
  match ls with
  | [] => Some []
  | l :: r => if is_content l then match read_node l, read_nodes r with Some e, Some es => Some (e :: es) | _, _ => None end
              else read_nodes r
  end.
Definition nodes_of_file (f : text) : list (nat * list (nat * Qc)) :=
  match read_nodes (file_lines f) with Some ns => ns | None => [] end.
Lemma nodes_of_file_text f : (if read_nodes (file_lines f) then true else false) = true -> adjlist_text (file_lines f) (nodes_of_file f).
Proof.
  unfold nodes_of_file. generalize (file_lines f) as ls.
  assert (forall ls ns, read_nodes ls = Some ns -> adjlist_text ls ns) as Hg.
  { induction ls as [|l ls IH]; intros ns; cbn [read_nodes]; [intros [= <-]; constructor|]. destruct (is_content l) eqn:Ec.
    - destruct (read_node l) as [[u nb]|] eqn:En; [|discriminate]. destruct (read_nodes ls) as [r|]; [|discriminate]. intros [= <-].
      apply al_node; auto; [now apply is_content_true|]. unfold read_node in En. pose proof (split1_cases ":" l) as Hs.
      destruct (split1 ":" l) as [[a rest]|]; [|discriminate]. destruct Hs as [-> Hf].
      destruct (nat_id (stoi a)) as [x|] eqn:Ea; [|discriminate]. destruct (read_nbrs _) as [ns'|] eqn:Er; [|discriminate]. injection En as <- <-.
      apply nat_id_ok in Ea. eexists a, rest, _. split; [reflexivity|]. split; auto. split; auto. split; [apply split_by_fields|]. now apply read_nbrs_text.
    - intros E. apply al_skip; auto. now apply is_content_iff. }
  intros ls. destruct (read_nodes ls) eqn:E; [|discriminate]. intros _. auto.
Qed.

(** All stored weights of [g] are printable. *)
Definition printableb (w : Qc) : bool :=
  ok_is (stod (fmt w)) w && nonempty (fmt w) && free_ofb [","; " "; TAB; ":"; LF; CR] (fmt w).
Lemma printableb_ok w : printableb w = true -> printable w.
Proof.
  unfold printableb. intros E. apply andb_prop in E. destruct E as [E E3]. apply andb_prop in E. destruct E as [E1 E2].
  split; [now apply ok_is_eq|]. split; [destruct (fmt w); [discriminate|congruence]|]. now apply free_ofb_iff.
Qed.
Lemma printable_all (g : graph Qc) : forallb (fun c => forallb (fun e => printableb (snd e)) c) (sp_cols (g_adj g)) = true -> printable_weights g.
Proof.
  intros Hf i j v E. apply printableb_ok. rewrite forallb_forall in Hf. unfold sp_get in E.
  assert (In (i, v) (sp_col (g_adj g) j)) as Hin.
  { destruct (In_dec Nat.eq_dec i (map fst (sp_col (g_adj g) j))) as [Hi|Hi].
    - clear -E. induction (sp_col (g_adj g) j) as [|[a b] c IH]; [discriminate|]. simpl in E. destruct (Nat.eqb_spec a i) as [->|].
      + injection E as ->. now left.
      + right. auto.
    - clear -E. induction (sp_col (g_adj g) j) as [|[a b] c IH]; [discriminate|]. simpl in E. destruct (Nat.eqb_spec a i) as [->|].
      + injection E as ->. now left.
      + right. auto. }
  unfold sp_col in Hin. destruct (nth_in_or_default j (sp_cols (g_adj g)) []) as [Hn|Hn].
  - specialize (Hf _ Hn). rewrite forallb_forall in Hf. apply (Hf _ Hin).
  - rewrite Hn in Hin. destruct Hin.
Qed.
Lemma edges_printable f : forallb (fun e => printableb (snd e)) (edges_of_file f) = true ->
  forall u v w, In (u, v, w) (edges_of_file f) -> printable w.
Proof. intros Hf u v w Hin. rewrite forallb_forall in Hf. apply printableb_ok. apply (Hf _ Hin). Qed.

(** Lines joined with LF. *)
Definition file_of (ls : list string) : text := put_lines (map txt ls).
Definition exFile : text := file_of
  ["# a comment"; "2,0,2.5"; ""; "0, 1"; "// another comment"; "1 2 0.125"; "1  0  3"]%string.
Definition exLoopFile : text := file_of ["0 1 1"; "1 1 2"]%string.
Definition exAdjFile : text := file_of ["# nodes"; "0: 1:2.5 2"; ""; "2: 0 "; "1: 0:2.5"]%string.
Definition exAdjLoop : text := file_of ["0: 1:1"; "1: 0:1 1:2"]%string.
(** A path with weights 2.5 and 0.125. *)
Definition exW_M : sprs Qc := mkSprs 3 [[(1, qc 5 2)]; [(0, qc 5 2); (2, qc 1 8)]; [(1, qc 1 8)]].
Definition exW : graph Qc := fresh_graph exW_M.
Lemma exW_wf : sp_wf exW_M.
Proof. apply sp_wfb_iff. reflexivity. Qed.
Lemma exW_ok : make_graph exW_M = Ok exW.
Proof. vm_compute. reflexivity. Qed.
Lemma exW_reachable : reachable exW.
Proof. exists exW_M, exW, []. split; [apply exW_wf|]. split; [apply exW_ok|]. split; [constructor|reflexivity]. Qed.
