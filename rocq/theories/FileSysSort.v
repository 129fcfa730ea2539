(** Crash safety of sort_edgelist; the conversions through temporary files (C69-C71). *)
From Verif Require Import Base Num Sparse SparseFacts Graph GraphSpec GraphFacts GraphProps1 Cluster ClusterSweep Text TextFacts GraphIO IOSpec GraphIOFacts GraphIOLoad GraphIOAdj
  GraphIOSort GraphIOConv RandomGraph Data FileSys FileSysFacts FileSysTop.
From Coq Require Import Ascii String List FunctionalExtensionality Permutation.
Import ListNotations.
Local Open Scope nat_scope.
Local Open Scope list_scope.

Section SortCrash.
  Context {W : Type} `{Num W} `{!TextNum W}.

  Lemma filter_split_perm dp s : Permutation (filter (below (W := W) dp) s ++ filter (above (W := W) dp) s) s.
  Proof.
    induction s as [|x s IH]; [constructor|]. cbn [filter]. rewrite (below_above dp x). destruct (below dp x); cbn [negb app].
    - now constructor.
    - rewrite <- Permutation_middle. now constructor.
  Qed.
  Lemma split_all_perm segs : Permutation (concat (split_all (W := W) segs)) (concat segs).
  Proof.
    induction segs as [|s segs IH]; [constructor|]. unfold split_all. cbn [flat_map]. fold (split_all (W := W) segs). rewrite concat_app. cbn [concat].
    apply Permutation_app; auto. unfold split_seg. destruct (active s); cbn [concat]; rewrite app_nil_r; auto. apply filter_split_perm.
  Qed.
  (** The first pass. *)
  Lemma sort_pass_first file es : edge_lines (W := W) (file_lines file) = Ok es ->
    let ls := file_lines file in let M := ids_bound es in
    let c1 := filter (below (W := W) M) (contents ls) in let c2 := filter (above (W := W) M) (contents ls) in
    sort_pass (W := W) (S (List.length ls)) (read_lines file) [mkIvl 0 (List.length ls) 0 M] =
    Ok (lead ls ++ concat [c1; c2] ++ repeat [] 0, ivls_h (W := W) (List.length (lead ls)) [c1; c2]).
  Proof.
    intros Ees ls M c1 c2. destruct (edge_lines_parses ls es Ees) as [Hp Hb]. pose proof (ids_bound_nonneg es) as HM. fold M in Hb, HM.
    assert (List.length c1 + List.length c2 = List.length (contents ls)) as Hlen by apply filter_split_length.
    unfold sort_pass. cbn [sort_ivls i_start i_end i_min i_max Nat.max].
    rewrite read_lines_file. fold ls. rewrite line_range_same, Z.add_0_l. cbn [app].
    pose proof (line_range_app [] ls [[]]) as Er. simpl in Er. rewrite Er.
    rewrite scan_left by auto. cbn [obind]. rewrite scan_right by auto. cbn [obind]. fold c1 c2.
    rewrite app_length. cbn [List.length]. rewrite Nat.add_0_l.
    rewrite (new_ivl_active c1 _ _ 0%Z M); [|exact HM| |lia].
    2:{ intros x Hx. apply filter_In in Hx. destruct Hx as [Hx _]. specialize (Hb x Hx). lia. }
    rewrite (new_ivl_active c2 _ _ 0%Z M); [|exact HM| |lia].
    2:{ intros x Hx. apply filter_In in Hx. destruct Hx as [Hx _]. specialize (Hb x Hx). lia. }
    replace (S (List.length ls) - 1) with (List.length ls) by lia.
    rewrite line_range_same, app_nil_r. cbn [concat repeat]. rewrite !app_nil_r.
    f_equal. f_equal; [now rewrite <- app_assoc|]. cbn [ivls_h ivls_of]. unfold ivl_at. rewrite app_nil_r. reflexivity.
  Qed.
  (** The invariant of the passes: the edge lines are those of the file, in some order. *)
  Definition sort_inv (file : text) (M : Z) (t : text) (ivs : list ivl) : Prop :=
    let ls := file_lines file in
    (t = file /\ ivs = [mkIvl 0 (List.length ls) 0 M]) \/
    exists segs k, t = put_lines (lead ls ++ concat segs ++ repeat [] k) /\ ivs = ivls_h (W := W) (List.length (lead ls)) segs /\
      Forall (all_content (W := W)) segs /\ Forall (Forall one_line) segs /\
      List.length (lead ls) + List.length (concat segs) <= List.length ls /\ Permutation (concat segs) (contents ls).
  Lemma lead_one_line file : Forall one_line (lead (file_lines file)).
  Proof.
    pose proof (file_lines_one_line file) as Hol. apply Forall_forall. intros x Hx. rewrite Forall_forall in Hol. apply Hol. now apply lead_In.
  Qed.
  Lemma layout_one_line file segs k : Forall (Forall one_line) segs -> Forall one_line (lead (file_lines file) ++ concat segs ++ repeat [] k).
  Proof.
    intros Hs. apply Forall_app. split; [apply lead_one_line|]. apply Forall_app. split; [now apply concat_one_line|].
    apply Forall_forall. intros x Hx. apply repeat_spec in Hx. subst. apply free_of_nil.
  Qed.
  Lemma sort_inv_step file es : edge_lines (W := W) (file_lines file) = Ok es ->
    forall t ivs, sort_inv file (ids_bound es) t ivs ->
    exists out nivs, sort_pass (W := W) (S (List.length (file_lines file))) (read_lines t) ivs = Ok (out, nivs) /\ sort_inv file (ids_bound es) (put_lines out) nivs.
  Proof.
    intros Ees t ivs Hi. pose proof (file_lines_one_line file) as Hol. destruct (edge_lines_parses _ es Ees) as [Hp Hb].
    pose proof (contents_all _ Hp) as Hall. pose proof (lead_contents_length (file_lines file)) as Hlc.
    destruct Hi as [[-> ->]|(segs & k & -> & -> & Hc & Ho & Hl & HP)].
    - rewrite (sort_pass_first file es Ees). cbv zeta. eexists _, _. split; [reflexivity|]. right. eexists _, 0. split; [reflexivity|]. split; [reflexivity|].
      split; [constructor; [|constructor; [|constructor]]; now apply filter_content|]. split.
      { constructor; [|constructor; [|constructor]]; apply Forall_forall; intros x Hx; apply filter_In in Hx;
        destruct Hx as [Hx _]; apply filter_In in Hx; rewrite Forall_forall in Hol; apply Hol; tauto. }
      assert (Permutation (concat [filter (below (W := W) (ids_bound es)) (contents (file_lines file)); filter (above (W := W) (ids_bound es)) (contents (file_lines file))]) (contents (file_lines file))) as HP.
      { cbn [concat]. rewrite app_nil_r. apply filter_split_perm. }
      split; [|exact HP]. eapply Nat.le_trans; [|exact Hlc]. apply Nat.add_le_mono_l, Nat.eq_le_incl. exact (Permutation_length HP).
    - rewrite read_put_lines by (now apply layout_one_line).
      assert ((lead (file_lines file) ++ concat segs ++ repeat [] k) ++ [[]] = lead (file_lines file) ++ concat segs ++ repeat [] (k + 1)) as ->.
      { rewrite <- !app_assoc. do 2 f_equal. change [[]] with (repeat ([] : text) 1). apply repeat_app_blank. }
      rewrite sort_pass_segs by (auto using lead_nc). eexists _, _. split; [reflexivity|]. right.
      eexists (split_all segs), _. split; [reflexivity|]. split; [reflexivity|]. split; [now apply split_all_content|]. split; [now apply split_all_one_line|].
      split; [now rewrite split_all_length|]. now rewrite split_all_perm.
  Qed.

  (** Edge lines in the layout of an intermediate file. *)
  Lemma layout_edges (hd C : list text) k : no_content hd ->
    (forall l, In l C -> is_content l = true /\ edge_text (W := W) l (first (edge_of l)) (snd (fst (edge_of l))) (snd (edge_of l))) ->
    edge_lines_of (hd ++ C ++ repeat [] k) (map (fun l => (l, edge_of (W := W) l)) C).
  Proof.
    intros Hh HC. induction Hh as [|l hd Hl Hh IH]; cbn [app]; [|apply elo_skip; auto; now apply is_content_iff].
    induction C as [|l C IH]; cbn [map app].
    + induction k as [|k IH]; [constructor|]. apply elo_skip; [now left|exact IH].
    + destruct (HC l (or_introl eq_refl)) as [H1 H2]. destruct (edge_of l) as [[u v] w]. apply elo_edge; auto.
      * now apply is_content_true.
      * apply IH. intros x Hx. apply HC. now right.
  Qed.
  Lemma sort_inv_edges file es ps t ivs : edge_lines_of (W := W) (file_lines file) ps -> edge_lines (W := W) (file_lines file) = Ok es ->
    sort_inv file (ids_bound es) t ivs ->
    exists ps', edge_lines_of (W := W) (file_lines t) ps' /\ Permutation ps' ps.
  Proof.
    intros Hp Ees [[-> _]|(segs & k & -> & _ & Hc & Ho & Hl & HP)]; [eauto|].
    destruct (edge_lines_of_text _ _ Hp) as [Ht Eps]. destruct (edgelist_text_contents _ _ Ht) as [_ Hes].
    rewrite file_put_lines by (now apply layout_one_line).
    exists (map (fun l => (l, edge_of (W := W) l)) (concat segs)). split.
    - apply layout_edges; [apply lead_nc|]. intros l Hl'. apply (Permutation_in _ HP) in Hl'. split.
      + unfold contents in Hl'. apply filter_In in Hl'. tauto.
      + rewrite Forall_forall in Hes. auto.
    - rewrite Eps. now apply Permutation_map.
  Qed.

  Context (writable : name -> bool).
  Lemma lines_and_nodes_ok file es : edge_lines (W := W) (file_lines file) = Ok es ->
    lines_and_nodes (W := W) file = Ok (S (List.length (file_lines file)), ids_bound es).
  Proof.
    intros E. unfold lines_and_nodes. rewrite edge_lines_read, E. cbn [obind]. rewrite read_lines_file, app_length. cbn [List.length]. do 2 f_equal. lia.
  Qed.
  Theorem sort_crash_safe fuel tmp f d d' file ps : (forall i, tmp i <> f) -> d f = Some file -> edge_lines_of (W := W) (file_lines file) ps ->
    crashes (sort_edgelist_io (W := W) writable fuel tmp f) d d' ->
    exists g t ps', (g = f \/ is_tmp tmp g) /\ d' g = Some t /\ edge_lines_of (W := W) (file_lines t) ps' /\ Permutation ps' ps.
  Proof.
    intros Ht Ef Hp Hc. destruct (edge_lines_of_text _ _ Hp) as [Hel _]. pose proof (edge_lines_ok _ _ Hel) as Ees.
    unfold sort_edgelist_io, open_in in Hc. apply crashes_read in Hc. rewrite Ef, (lines_and_nodes_ok file _ Ees) in Hc.
    replace (S (List.length (file_lines file)) - 1) with (List.length (file_lines file)) in Hc by lia.
    apply (sort_loop_crash writable tmp f Ht (sort_inv file (ids_bound (map zed (map snd ps))))) with (t := file) in Hc; auto.
    - destruct Hc as (g & t & ivs & Hg & Ed & Hi). destruct (sort_inv_edges _ _ _ _ _ Hp Ees Hi) as (ps' & Hp' & HP). eauto 8.
    - now apply sort_inv_step.
    - left. split; reflexivity.
  Qed.
  (** Between the removal of the file and the end of the copy the file is missing. *)
  Theorem sort_missing_window fuel tmp f d file ps : (forall i, tmp i <> f) -> writable (tmp 0) = true -> d f = Some file -> edge_lines_of (W := W) (file_lines file) ps ->
    exists d', crashes (sort_edgelist_io (W := W) writable (S fuel) tmp f) d d' /\ d' f = None.
  Proof.
    intros Ht Hw Ef Hp. destruct (edge_lines_of_text _ _ Hp) as [Hel _]. pose proof (edge_lines_ok _ _ Hel) as Ees.
    assert (f <> tmp 0) as Hne by (intros E; now apply (Ht 0)).
    eexists. split.
    - unfold sort_edgelist_io, open_in. apply crash_read. rewrite Ef, (lines_and_nodes_ok file _ Ees). cbn [sort_loop_io].
      unfold open_out at 1. rewrite Hw. apply crash_act. cbn [act]. apply crash_read. rewrite upd_other, Ef by auto.
      replace (S (List.length (file_lines file)) - 1) with (List.length (file_lines file)) by lia.
      rewrite (sort_pass_first file _ Ees). cbv zeta. eapply crashes_write_after; [apply upd_same|]. apply crash_act. apply crash_here.
    - cbn [act]. apply upd_same.
  Qed.

  (** *** Crash states of the other functions *)
  Lemma crashes_create_write {A} f t (k : io A) d d' : crashes (write f t k) (upd d f (Some [])) d' ->
    (exists t1, initial_part t1 t /\ d' = upd d f (Some t1)) \/ crashes k (upd d f (Some t)) d'.
  Proof.
    intros Hc. apply (crashes_write _ _ _ _ _ []) in Hc; [|apply upd_same]. cbn [app] in Hc. rewrite !upd_upd in Hc.
    destruct Hc as [(t1 & t2 & -> & ->)|Hc]; [left|now right]. exists t1. rewrite upd_upd. split; auto. now exists t2.
  Qed.
  Lemma crashes_finish {A} (o : outcome A) d d' : crashes (finish o (iret tt)) d d' -> d' = d.
  Proof. destruct o; apply crashes_done. Qed.
  (** The output is as before, or holds an initial part of what the call would have written. *)
  Definition old_or_part (d d' : disk) (o : name) (t : text) : Prop := d' o = d o \/ exists t1, d' o = Some t1 /\ initial_part t1 t.
  Lemma save_edgelist_crash (g : graph W) f d d' : crashes (save_edgelist_io writable g f) d d' -> old_or_part d d' f (save_edgelist g).
  Proof.
    unfold save_edgelist_io, open_out. destruct (writable f); [|intros Hc; apply crashes_done in Hc; subst; now left].
    intros Hc. apply crashes_act in Hc. destruct Hc as [->|Hc]; [now left|]. cbn [act] in Hc. apply crashes_create_write in Hc. right.
    destruct Hc as [(t1 & Hp & ->)|Hc]; [exists t1; rewrite upd_same; auto|]. apply crashes_done in Hc as ->. exists (save_edgelist g). rewrite upd_same.
    auto using initial_part_refl.
  Qed.
  Lemma copy_crash i o d d' t out : i <> o -> d i = Some t -> copy_edgelist_duplicate_edges (W := W) t = Ok out ->
    crashes (copy_edgelist_io (W := W) writable i o) d d' -> old_or_part d d' o out.
  Proof.
    intros Hn Ei Eo Hc. unfold copy_edgelist_io, open_in in Hc. apply crashes_read in Hc. rewrite Ei in Hc. unfold open_out in Hc.
    destruct (writable o); [|apply crashes_done in Hc; subst; now left].
    apply crashes_act in Hc. destruct Hc as [->|Hc]; [now left|]. cbn [act] in Hc. apply crashes_read in Hc. rewrite upd_other, Ei in Hc by auto.
    unfold copy_edgelist_duplicate_edges in Eo. pose proof (wloop_copy (W := W) (read_lines t)) as Hw.
    destruct (copy_dup_lines (read_lines t)) as [ls| |]; try discriminate. cbn [obind] in Eo. injection Eo as <-. rewrite Hw in Hc.
    apply crashes_create_write in Hc. right.
    destruct Hc as [(t1 & Hp & ->)|Hc]; [exists t1; rewrite upd_same; auto|]. apply crashes_finish in Hc as ->. exists (put_lines ls). rewrite upd_same.
    auto using initial_part_refl.
  Qed.
  Lemma adj_crash i o d d' t out : i <> o -> d i = Some t -> adjacencylist_to_edgelist (W := W) t = Ok out ->
    crashes (adjacencylist_to_edgelist_io (W := W) writable i o) d d' -> old_or_part d d' o out.
  Proof.
    intros Hn Ei Eo Hc. unfold adjacencylist_to_edgelist_io in Hc. apply crashes_read in Hc. rewrite Ei in Hc.
    destruct (writable o); [|apply crashes_done in Hc; subst; now left].
    apply crashes_act in Hc. destruct Hc as [->|Hc]; [now left|]. cbn [act] in Hc. apply crashes_read in Hc. rewrite upd_other, Ei in Hc by auto.
    unfold adjacencylist_to_edgelist in Eo. pose proof (wloop_adj (W := W) (read_lines t) false) as Hw.
    destruct (adj_to_el (read_lines t) false) as [ls| |]; try discriminate. cbn [obind] in Eo. injection Eo as <-. destruct Hw as [wc' Hw]. rewrite Hw in Hc.
    apply crashes_create_write in Hc. right.
    destruct Hc as [(t1 & Hp & ->)|Hc]; [exists t1; rewrite upd_same; auto|]. apply crashes_finish in Hc as ->. exists (put_lines ls). rewrite upd_same.
    auto using initial_part_refl.
  Qed.

  (** *** edgelist_to_adjacencylist *)
  Section ElToAdj.
    Context (tmp : nat -> name) (i o : name).
    Hypothesis tmp_i : forall k, tmp k <> i.
    Hypothesis tmp_o : forall k, tmp k <> o.
    Hypothesis tmp_0 : forall k, tmp (S k) <> tmp 0.

    (** The state before the output is opened. *)
    Lemma el_sorted fuel d t c s : d i = Some t -> (forall k, d (tmp k) = None) -> (forall k, writable (tmp k) = true) ->
      copy_edgelist_duplicate_edges (W := W) t = Ok c -> sort_edgelist (W := W) fuel c = Some (Ok s) ->
      exec (copy_edgelist_io (W := W) writable i (tmp 0)) d = (upd d (tmp 0) (Some c), Some (Ok tt)) /\
      exec (sort_edgelist_io (W := W) writable fuel (fun k => tmp (S k)) (tmp 0)) (upd d (tmp 0) (Some c)) = (upd d (tmp 0) (Some s), Some (Ok tt)).
    Proof.
      intros Ei Et Hw Ec Es. split.
      - apply copy_exec_ok with (t := t); auto.
      - rewrite (sort_exec writable (fun k => tmp (S k)) (tmp 0) tmp_0 fuel _ c s); auto; [now rewrite upd_upd|apply upd_same|].
        intros k. rewrite upd_other by auto. auto.
    Qed.
    Lemma upd_tmp_gone d g x : d g = None -> upd (upd d g x) g None = d.
    Proof. intros E. rewrite upd_upd. now apply upd_id. Qed.
    Lemma el_exec fuel d t out : d i = Some t -> (forall k, d (tmp k) = None) -> (forall k, writable (tmp k) = true) ->
      edgelist_to_adjacencylist (W := W) fuel t = Some (Ok out) ->
      exec (edgelist_to_adjacencylist_io (W := W) writable fuel tmp i o) d =
      (if writable o then upd d o (Some out) else d, Some (Ok tt)).
    Proof.
      intros Ei Et Hw E. unfold edgelist_to_adjacencylist in E.
      destruct (copy_edgelist_duplicate_edges t) as [c| |] eqn:Ec; try discriminate.
      destruct (sort_edgelist fuel c) as [[s| |]|] eqn:Es; try discriminate. injection E as E.
      destruct (el_sorted fuel d t c s Ei Et Hw Ec Es) as [X1 X2].
      unfold edgelist_to_adjacencylist_io. rewrite exec_ibind, X1, exec_ibind, X2. cbn [exec]. rewrite upd_same.
      pose proof (wloop_el (W := W) (read_lines s) false (-1)%Z) as Hl. rewrite E in Hl. destruct Hl as [st' Hl].
      assert (tmp 0 <> o) as Hne by apply tmp_o.
      destruct (writable o) eqn:Ewo.
      - cbn [exec act]. rewrite upd_other, upd_same by auto. rewrite Hl. cbn [finish]. rewrite exec_create_write. cbn [exec act iret].
        rewrite (upd_swap _ (tmp 0) o) by auto. rewrite upd_upd. rewrite upd_id; [reflexivity|]. rewrite upd_other by auto. auto.
      - cbn [exec]. rewrite upd_same, Hl. cbn [finish exec act iret]. now rewrite upd_tmp_gone.
    Qed.
    (** A call which cannot parse its input: the output is untouched, the temporary file stays. *)
    Lemma el_exec_throw fuel d t e : d i = Some t -> (forall k, d (tmp k) = None) -> (forall k, writable (tmp k) = true) ->
      copy_edgelist_duplicate_edges (W := W) t = Throw e ->
      exists c, exec (edgelist_to_adjacencylist_io (W := W) writable fuel tmp i o) d = (upd d (tmp 0) (Some c), Some (Throw e)).
    Proof.
      intros Ei Et Hw Ec. assert (i <> tmp 0) as Hne by (intros E; now apply (tmp_i 0)).
      destruct (copy_exec_throw writable i (tmp 0) d t e Hne Ei (Hw 0) Ec) as (good & bad & rest & ls & _ & _ & _ & _ & X).
      exists (put_lines ls). unfold edgelist_to_adjacencylist_io. now rewrite exec_ibind, X.
    Qed.
    Lemma el_crash fuel d d' t out : d i = Some t -> (forall k, d (tmp k) = None) -> (forall k, writable (tmp k) = true) ->
      edgelist_to_adjacencylist (W := W) fuel t = Some (Ok out) ->
      crashes (edgelist_to_adjacencylist_io (W := W) writable fuel tmp i o) d d' -> old_or_part d d' o out.
    Proof.
      intros Ei Et Hw E Hc. unfold edgelist_to_adjacencylist in E.
      destruct (copy_edgelist_duplicate_edges t) as [c| |] eqn:Ec; try discriminate.
      destruct (sort_edgelist fuel c) as [[s| |]|] eqn:Es; try discriminate. injection E as E.
      destruct (el_sorted fuel d t c s Ei Et Hw Ec Es) as [X1 X2].
      assert (o <> tmp 0) as Hne by (intros F; now apply (tmp_o 0)).
      unfold edgelist_to_adjacencylist_io in Hc. apply crashes_ibind in Hc. destruct Hc as [Hc|(a & d1 & Ex & Hc)].
      { left. apply (confined_frame _ _ _ _ _ (copy_confined writable i (tmp 0)) Hc). auto. }
      rewrite X1 in Ex. injection Ex as <- <-. apply crashes_ibind in Hc. destruct Hc as [Hc|(a & d1 & Ex & Hc)].
      { left. rewrite (confined_frame _ _ _ _ _ (sort_confined writable fuel (fun k => tmp (S k)) (tmp 0)) Hc); [now apply upd_other|].
        intros [F|[k F]]; auto. now apply (tmp_o (S k)). }
      rewrite X2 in Ex. injection Ex as <- <-. apply crashes_read in Hc. rewrite upd_same in Hc.
      pose proof (wloop_el (W := W) (read_lines s) false (-1)%Z) as Hl. rewrite E in Hl. destruct Hl as [st' Hl].
      destruct (writable o) eqn:Ewo.
      - apply crashes_act in Hc. destruct Hc as [->|Hc]; [left; now apply upd_other|]. cbn [act] in Hc. apply crashes_read in Hc.
        rewrite upd_other, upd_same in Hc by auto. rewrite Hl in Hc. cbn [finish] in Hc. apply crashes_create_write in Hc. right.
        destruct Hc as [(t1 & Hp & ->)|Hc]; [exists t1; rewrite upd_same; auto|]. apply crashes_act in Hc.
        exists out. split; [|apply initial_part_refl]. destruct Hc as [->|Hc]; [apply upd_same|]. apply crashes_done in Hc as ->. cbn [act]. rewrite upd_other by auto. apply upd_same.
      - apply crashes_read in Hc. rewrite upd_same, Hl in Hc. cbn [finish] in Hc. apply crashes_act in Hc. left.
        destruct Hc as [->|Hc]; [now apply upd_other|]. apply crashes_done in Hc as ->. cbn [act]. rewrite !upd_other by auto. reflexivity.
    Qed.
  End ElToAdj.
End SortCrash.
