(** Adjacency list to edge list (C40); malformed files (C41). *)
From Verif Require Import Base Num Sparse SparseFacts Graph GraphFacts GraphSpec GraphProps1 GraphProps2 GraphProps4 Cluster ClusterSweep
  Text TextFacts GraphIO IOSpec GraphIOFacts GraphIOLoad GraphIOAdj GraphIOSort GraphIOConv.
From Coq Require Import Ascii String List Sorting.Sorted Permutation.
Import ListNotations.
Local Open Scope nat_scope.
Local Open Scope char_scope.
Local Open Scope list_scope.

Section Back.
  Context {W : Type} `{Num W} `{!TextNum W}.

  Definition forward (e : nat * nat * W) : bool := (fst (fst e) <=? snd (fst e))%nat.
  Lemma nbr_text_int tok v (w : W) : nbr_text tok v w -> (Z.of_nat v <= 2147483647)%Z.
  Proof.
    assert (forall a n, stoi a = Ok (Z.of_nat n) -> (Z.of_nat n <= 2147483647)%Z) as Hs.
    { intros a n E. destruct (stoi_cases a) as [(z & Ez & Hz)|[Ez|Ez]]; rewrite E in Ez; try discriminate. injection Ez as <-. lia. }
    intros [_ E _|a b _ _ E _]; eauto.
  Qed.
  Lemma adj_text_int l u (nb : list (nat * W)) : adj_text l u nb ->
    (Z.of_nat u <= 2147483647)%Z /\ forall v w, In (v, w) nb -> (Z.of_nat v <= 2147483647)%Z.
  Proof.
    intros (a & rest & toks & _ & _ & Ea & _ & Hf). split.
    - destruct (stoi_cases a) as [(z & Ez & Hz)|[Ez|Ez]]; rewrite Ea in Ez; try discriminate. injection Ez as <-. lia.
    - intros v w Hin. induction Hf as [|t n toks nb Ht Hf IH]; [destruct Hin|]. destruct Hin as [->|Hin]; auto.
      eapply nbr_text_int. exact Ht.
  Qed.
  Lemma forward_zed (l : list (nat * nat * W)) :
    map (fun '(u, v, w) => show_edge u v w) (filter (fun '(u, v, _) => (u <=? v)%Z) (map zed l)) =
    map (fun '(u, v, w) => show_edge (Z.of_nat u) (Z.of_nat v) w) (filter forward l).
  Proof.
    induction l as [|[[u v] w] l IH]; [reflexivity|]. cbn [map filter]. unfold zed at 1. unfold forward at 1. cbn [fst snd].
    destruct (Z.leb_spec (Z.of_nat u) (Z.of_nat v)), (Nat.leb_spec u v); try lia; cbn [map]; now rewrite IH.
  Qed.
  (** The edges written: the arcs from a smaller to a larger (or equal) id. *)
  Definition written (ns : list (nat * list (nat * W))) : list (nat * nat * W) := filter forward (loaded_arcs ns).
  Lemma written_cons n ns : written (n :: ns) = filter forward (sort_arcs (node_arcs n)) ++ written ns.
  Proof. unfold written, loaded_arcs. cbn [flat_map]. now rewrite filter_app. Qed.

  Lemma adj_to_el_spec ls ns : adjlist_text ls ns -> Forall one_line ls -> (forall u v w, In (u, v, w) (arcs ns) -> printable w) ->
    forall wc, exists out, adj_to_el (W := W) (ls ++ [[]]) wc = Ok out /\ edgelist_text out (written ns) /\ Forall one_line out.
  Proof.
    induction 1 as [|l ls ns Hc Ht IH|l ls u nb ns Hc Ha Ht IH]; intros Ho Hp wc; cbn [app adj_to_el].
    - cbn [is_content]. destruct wc; cbn [obind]; [exists []|exists [[]]]; repeat split; try constructor; try constructor; auto.
      apply free_of_nil.
    - apply Forall_cons_iff in Ho. destruct Ho as [Hl Ho]. apply is_content_iff in Hc as Ec. rewrite Ec.
      destruct (IH Ho Hp wc) as (out & E & T & O). rewrite E. destruct wc; cbn [obind].
      + exists out. auto.
      + exists (l :: out). repeat split; auto. apply el_skip; auto.
    - apply Forall_cons_iff in Ho. destruct Ho as [Hl Ho].
      assert (forall v w, In (v, w) nb -> printable w) as Hpn.
      { intros v w Hv. apply (Hp u v w). unfold arcs. cbn [flat_map]. apply in_or_app. left. apply in_map_iff. exists (v, w). auto. }
      destruct (IH Ho) with (wc := true) as (out & E & T & O).
      { intros a b w Hin. apply (Hp a b w). unfold arcs. cbn [flat_map]. apply in_or_app. now right. }
      apply is_content_true in Hc as Ec. rewrite Ec, (parse_adj_ok _ _ _ Ha), E. cbn [rethrow obind].
      rewrite forward_zed. eexists. split; [reflexivity|]. rewrite written_cons. unfold node_arcs. cbn [fst snd].
      destruct (adj_text_int _ _ _ Ha) as [Hu Hv].
      destruct (edgelist_text_edges (filter forward (sort_arcs (map (fun m => (u, fst m, snd m)) nb)))) as [T1 O1].
      { intros a b w Hin. apply filter_In in Hin. destruct Hin as [Hin _].
        apply (Permutation_in _ (Permutation_sym (sort_arcs_perm _))) in Hin. apply in_map_iff in Hin.
        destruct Hin as ([v x] & [= <- <- <-] & Hin). simpl in *. split; auto. split; eauto. }
      split; [now apply edgelist_text_app|]. apply Forall_app. auto.
  Qed.

  Lemma written_weights ns u v : u < v -> weights_between (written ns) u v = weights_on_lines ns u v.
  Proof.
    intros Huv. rewrite <- loaded_arcs_tvals. unfold written, weights_between, tvals. f_equal.
    induction (loaded_arcs ns) as [|[[a b] w] l IH]; [reflexivity|]. cbn [filter]. unfold forward at 1. cbn [fst snd].
    destruct (Nat.leb_spec a b); cbn [filter]; rewrite ?IH.
    - destruct (Nat.eqb_spec a u), (Nat.eqb_spec b v), (Nat.eqb_spec a v), (Nat.eqb_spec b u); simpl; auto; lia.
    - destruct (Nat.eqb_spec a u), (Nat.eqb_spec b v); simpl; auto; lia.
  Qed.
  Lemma written_diag ns u : no_self_loop_lines ns -> weights_between (written ns) u u = [].
  Proof.
    intros Hn. destruct (weights_between (written ns) u u) as [|w r] eqn:E; auto. exfalso.
    assert (In w (weights_between (written ns) u u)) as Hin by (rewrite E; now left).
    unfold weights_between in Hin. apply in_map_iff in Hin. destruct Hin as ([[a b] x] & <- & Hin). apply filter_In in Hin.
    destruct Hin as [Hin Heq]. unfold written in Hin. apply filter_In in Hin. destruct Hin as [Hin _].
    apply (Permutation_in _ (Permutation_sym (loaded_arcs_perm ns))) in Hin.
    assert (a = u /\ b = u) as [-> ->].
    { rewrite Bool.orb_diag in Heq. apply andb_prop in Heq. destruct Heq as [H1 H2]. apply Nat.eqb_eq in H1, H2. auto. }
    apply In_weights_on_lines in Hin. rewrite (Hn u) in Hin. destruct Hin.
  Qed.
  Lemma written_vertex_count ns : undirected ns -> vertex_count (written ns) = vertex_count (arcs ns).
  Proof.
    intros Hu. apply Nat.le_antisymm; apply vertex_count_le; intros a b w Hin.
    - unfold written in Hin. apply filter_In in Hin. destruct Hin as [Hin _].
      apply (Permutation_in _ (Permutation_sym (loaded_arcs_perm ns))) in Hin. eapply vertex_count_lt; eauto.
    - destruct (Nat.leb_spec a b) as [Hle|Hlt].
      + eapply vertex_count_lt. unfold written. apply filter_In. split; [eapply Permutation_in; [apply loaded_arcs_perm|exact Hin]|].
        unfold forward. simpl. now apply Nat.leb_le.
      + apply In_weights_on_lines in Hin. destruct (Hu b a) as [_ Hne].
        destruct (weights_on_lines ns b a) as [|x r] eqn:E; [rewrite (Hne eq_refl) in Hin; destruct Hin|].
        assert (In (b, a, x) (arcs ns)) as Hx by (apply weights_on_lines_In; rewrite E; now left).
        apply and_comm. eapply vertex_count_lt. unfold written. apply filter_In.
        split; [eapply Permutation_in; [apply loaded_arcs_perm|exact Hx]|].
        unfold forward. simpl. apply Nat.leb_le. lia.
  Qed.
End Back.

Section BackLoad.
  Context {W : Type} `{Num W} `{!PosNum W} `{!TextNum W}.
  (** C40. *)
  Theorem adjacencylist_to_edgelist_graph file ns :
    adjlist_text (file_lines file) ns -> (forall u v w, In (u, v, w) (arcs ns) -> printable w) ->
    undirected ns -> no_self_loop_lines ns ->
    (forall u v, weights_on_lines ns u v <> [] -> wltb (total (weights_on_lines ns u v)) w0 = false) ->
    exists out g h, adjacencylist_to_edgelist file = Ok out /\ load_adjacencylist file = Ok g /\ load_edgelist out = Ok h /\
      number_of_vertices h = number_of_vertices g /\ forall u v, weight h u v = weight g u v.
  Proof.
    intros Ht Hp Hu Hn Hpos.
    destruct (adj_to_el_spec _ _ Ht (file_lines_one_line file) Hp false) as (ls & E & T & O).
    destruct (load_adjacencylist_spec file ns Ht Hpos) as (g & Eg & Hng & _ & _ & Hg).
    { intros u v. f_equal. apply Hu. }
    assert (forall u v, u <> v -> total (weights_between (written ns) u v) = total (weights_on_lines ns u v) /\
       (weights_between (written ns) u v <> [] -> weights_on_lines ns u v <> [])) as Hw.
    { intros u v Hne. destruct (Nat.lt_ge_cases u v) as [Hlt|Hge].
      - rewrite written_weights by auto. auto.
      - rewrite weights_between_sym, written_weights by lia. split; [apply Hu|]. intros H1 H2. apply H1.
        destruct (Hu u v) as [_ Hx]. auto. }
    destruct (load_edgelist_spec (put_lines ls) (written ns)) as (h & Eh & Hnh & _ & _ & Hh1 & Hh2).
    - now rewrite file_put_lines.
    - intros u v Hne. destruct (Nat.eq_dec u v) as [->|Huv]; [rewrite written_diag in Hne by auto; congruence|].
      destruct (Hw u v Huv) as [-> Hw2]. auto.
    - intros u Hne. rewrite written_diag in Hne by auto. congruence.
    - exists (put_lines ls), g, h. unfold adjacencylist_to_edgelist. rewrite read_lines_file, E. cbn [obind].
      repeat split; auto.
      + rewrite Hnh, Hng. now apply written_vertex_count.
      + intros u v. destruct (Nat.eq_dec u v) as [->|Huv].
        * rewrite Hh2, Hg, written_diag by auto. now rewrite (Hn v).
        * rewrite Hh1, Hg by auto. now destruct (Hw u v Huv) as [-> _].
  Qed.
End BackLoad.
