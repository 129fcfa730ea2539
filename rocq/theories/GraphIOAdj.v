(** Adjacency list files: parsing, loading, round trip (C36). *)
From Verif Require Import Base Num Sparse SparseFacts Graph GraphFacts GraphSpec GraphProps1 GraphProps2 GraphProps4 Cluster ClusterSweep
  Text TextFacts GraphIO IOSpec GraphIOFacts GraphIOLoad.
From Coq Require Import Ascii String List Sorting.Sorted Permutation.
Import ListNotations.
Local Open Scope nat_scope.
Local Open Scope char_scope.
Local Open Scope list_scope.

Lemma stable_sort_map {A B} (f : A -> B) (lt : B -> B -> bool) l :
  stable_sort lt (map f l) = map f (stable_sort (fun a b => lt (f a) (f b)) l).
Proof.
  induction l as [|x l IH]; simpl; auto. rewrite IH. generalize (stable_sort (fun a b => lt (f a) (f b)) l) as m.
  induction m as [|y m IHm]; simpl; auto. destruct (lt (f y) (f x)); simpl; auto. now rewrite IHm.
Qed.
(** A stable sort keeps the order of the elements with a given key. *)
Lemma stable_sort_filter {A} (key : A -> nat) k l :
  filter (fun x => key x =? k)%nat (stable_sort (fun a b => key a <? key b)%nat l) = filter (fun x => key x =? k)%nat l.
Proof.
  induction l as [|x l IH]; simpl; auto. rewrite <- IH. generalize (stable_sort (fun a b => (key a <? key b)%nat) l) as m.
  induction m as [|y m IHm]; simpl; auto. destruct (Nat.ltb_spec (key y) (key x)) as [Hlt|Hge].
  - cbn [filter]. rewrite IHm. destruct (Nat.eqb_spec (key x) k), (Nat.eqb_spec (key y) k); auto. lia.
  - reflexivity.
Qed.
Lemma stable_sort_id {A} (lt : A -> A -> bool) l : StronglySorted (fun a b => lt b a = false) l -> stable_sort lt l = l.
Proof.
  induction 1 as [|x l Hs IH Hf]; simpl; auto. rewrite IH. destruct l as [|y l]; simpl; auto.
  inversion Hf as [|? ? Hy _]; subst. now rewrite Hy.
Qed.

Section Adj.
  Context {W : Type} `{Num W} `{!TextNum W}.
  Notation nedge := (nat * nat * W)%type.

  Definition tgt (e : nedge) : nat := snd (fst e).
  Definition sort_arcs (l : list nedge) : list nedge := stable_sort (fun a b => (tgt a <? tgt b)%nat) l.
  Lemma ins_ext {A} (f g : A -> A -> bool) x m : (forall a b, f a b = g a b) -> ins f x m = ins g x m.
  Proof. intros E. induction m as [|y m IH]; simpl; auto. now rewrite E, IH. Qed.
  Lemma sort_arcs_zed (l : list nedge) : stable_sort cmp_neighbors (map zed l) = map zed (sort_arcs l).
  Proof.
    rewrite stable_sort_map. f_equal. unfold sort_arcs. induction l as [|x l IH]; simpl; auto. rewrite IH.
    apply ins_ext. intros [[u v] w] [[u' v'] w']. unfold cmp_neighbors, tgt, zed. simpl.
    destruct (Z.ltb_spec (Z.of_nat v) (Z.of_nat v')), (Nat.ltb_spec v v'); auto; lia.
  Qed.
  Lemma sort_arcs_perm l : Permutation l (sort_arcs l).
  Proof. apply stable_sort_perm. Qed.
  Lemma sort_arcs_tvals l u v : tvals (sort_arcs l) u v = tvals l u v.
  Proof.
    unfold tvals. f_equal.
    assert (forall m : list nedge, filter (fun t : nedge => (fst (fst t) =? u)%nat && (snd (fst t) =? v)%nat) m =
      filter (fun t => (fst (fst t) =? u)%nat) (filter (fun t => (tgt t =? v)%nat) m)) as Hf.
    { induction m as [|t m IH]; simpl; auto. unfold tgt at 1. destruct (Nat.eqb (snd (fst t)) v); simpl.
      - rewrite andb_true_r, IH. reflexivity.
      - now rewrite andb_false_r. }
    rewrite !Hf. f_equal. unfold sort_arcs. apply stable_sort_filter.
  Qed.
  Lemma vertex_count_perm (a b : list nedge) : Permutation a b -> vertex_count a = vertex_count b.
  Proof.
    induction 1 as [|[[u v] w] a b _ IH|[[u v] w] [[u' v'] w'] a|a b c _ IH1 _ IH2]; auto.
    - rewrite !vertex_count_cons. now rewrite IH.
    - rewrite !vertex_count_cons. lia.
    - congruence.
  Qed.

  Lemma parse_adj_edge_ok tok u v w : nbr_text tok v w -> parse_adj_edge tok (Z.of_nat u) = Ok (zed (u, v, w)).
  Proof.
    intros [Hf Hs Hw|a b E Hf Hs Hw]; unfold parse_adj_edge, zed.
    - rewrite split1_none by auto. rewrite Hs. simpl. now subst.
    - subst tok. rewrite split1_app by auto. rewrite Hs. simpl. now rewrite Hw.
  Qed.
  Lemma parse_adj_edges_ok u (toks : list text) (nbrs : list (nat * W)) :
    Forall2 (fun t n => nbr_text t (fst n) (snd n)) (filter nonempty toks) nbrs ->
    parse_adj_edges toks (Z.of_nat u) = Ok (map (fun n => zed (u, fst n, snd n)) nbrs).
  Proof.
    revert nbrs. induction toks as [|t toks IH]; intros nbrs; simpl.
    - intros Hf. inversion Hf. reflexivity.
    - destruct t as [|c t]; simpl; [apply IH|]. intros Hf. inversion Hf as [|? [v w] ? nb Ht Hr]; subst. simpl in Ht.
      rewrite (parse_adj_edge_ok _ u _ _ Ht). simpl. now rewrite (IH _ Hr).
  Qed.
  Lemma parse_adj_edge_nil src : parse_adj_edge (W := W) [] src = Throw InvalidArgument.
  Proof. reflexivity. Qed.

  Lemma Forall2_snoc_inv {A B} (P : A -> B -> Prop) a x b : Forall2 P (a ++ [x]) b ->
    exists b' y, b = b' ++ [y] /\ Forall2 P a b' /\ P x y.
  Proof.
    intros Hf. apply Forall2_app_inv_l in Hf. destruct Hf as (b1 & b2 & H1 & H2 & ->).
    inversion H2 as [|? y ? ? Hxy Hnil]; subst. inversion Hnil; subst. eauto.
  Qed.

  Theorem parse_adj_ok line u nb : adj_text line u nb ->
    parse_adj_line line = Ok (map zed (sort_arcs (map (fun n => (u, fst n, snd n)) nb))).
  Proof.
    intros (a & rest & toks & -> & Hfa & Hs & (fs & l & -> & Hff & Hfl & ->) & Hn).
    unfold parse_adj_line. rewrite split1_app by auto. rewrite Hs. cbn [obind].
    rewrite fields_of_join by auto. rewrite filter_app in Hn. destruct l as [|c l].
    - simpl in Hn. rewrite app_nil_r in Hn. rewrite (parse_adj_edges_ok u fs nb Hn). cbn [obind].
      rewrite parse_adj_edge_nil. f_equal. rewrite <- sort_arcs_zed, map_map. reflexivity.
    - simpl in Hn. apply Forall2_snoc_inv in Hn. destruct Hn as (nb' & [v w] & -> & Hnb & Hl). simpl in Hl.
      rewrite (parse_adj_edges_ok u fs nb' Hnb). cbn [obind]. rewrite (parse_adj_edge_ok _ u _ _ Hl). f_equal.
      rewrite <- sort_arcs_zed, map_map, map_app. reflexivity.
  Qed.

  Definition node_arcs (n : nat * list (nat * W)) : list nedge := map (fun m => (fst n, fst m, snd m)) (snd n).
  Lemma arcs_node_arcs ns : arcs ns = flat_map node_arcs ns.
  Proof.
    unfold arcs, node_arcs. apply flat_map_ext. intros [u nb]. simpl. apply map_ext. intros [v w]. reflexivity.
  Qed.
  Lemma adj_lines_ok ls ns : adjlist_text ls ns -> adj_lines ls = Ok (map (fun n => map zed (sort_arcs (node_arcs n))) ns).
  Proof.
    induction 1 as [|l ls ns Hc _ IH|l ls u nb ns Hc Ht _ IH]; simpl; auto.
    - apply is_content_iff in Hc. now rewrite Hc.
    - apply is_content_true in Hc. rewrite Hc, (parse_adj_ok _ _ _ Ht). cbn [rethrow obind]. now rewrite IH.
  Qed.
  Lemma adj_lines_app a b :
    adj_lines (W := W) (a ++ b) = (do x <- adj_lines a; do y <- adj_lines b; Ok (x ++ y)).
  Proof.
    induction a as [|l a IH]; simpl.
    - destruct (adj_lines b); reflexivity.
    - destruct (is_content l); auto. destruct (rethrow (parse_adj_line l)) as [e| |]; cbn [obind]; auto.
      rewrite IH. destruct (adj_lines a); cbn [obind]; auto. destruct (adj_lines b); reflexivity.
  Qed.
  Lemma adj_lines_read f : adj_lines (W := W) (read_lines f) = adj_lines (file_lines f).
  Proof.
    rewrite read_lines_file, adj_lines_app. destruct (adj_lines (file_lines f)); simpl; auto. now rewrite app_nil_r.
  Qed.
  (** The arcs in the order in which they reach the matrix. *)
  Definition loaded_arcs (ns : list (nat * list (nat * W))) : list nedge := flat_map (fun n => sort_arcs (node_arcs n)) ns.
  Lemma loaded_arcs_perm ns : Permutation (arcs ns) (loaded_arcs ns).
  Proof.
    rewrite arcs_node_arcs. unfold loaded_arcs. induction ns as [|n ns IH]; simpl; auto.
    apply Permutation_app; auto. apply sort_arcs_perm.
  Qed.
  Lemma tvals_app' (a b : list nedge) u v : tvals (a ++ b) u v = tvals a u v ++ tvals b u v.
  Proof. unfold tvals. now rewrite filter_app, map_app. Qed.
  Lemma loaded_arcs_tvals ns u v : tvals (loaded_arcs ns) u v = weights_on_lines ns u v.
  Proof.
    assert (weights_on_lines ns u v = tvals (arcs ns) u v) as ->.
    { unfold weights_on_lines, tvals. f_equal. apply filter_ext. intros [[a b] w]. reflexivity. }
    rewrite arcs_node_arcs. unfold loaded_arcs. induction ns as [|n ns IH]; simpl; auto.
    now rewrite !tvals_app', sort_arcs_tvals, IH.
  Qed.
  Lemma concat_map_zed (f : nat * list (nat * W) -> list nedge) ns : concat (map (fun n => map zed (f n)) ns) = map zed (flat_map f ns).
  Proof. induction ns as [|n ns IH]; simpl; auto. now rewrite map_app, IH. Qed.
  Lemma unzed (es : list nedge) : map (fun '(u, v, w) => (Z.to_nat u, Z.to_nat v, w)) (map zed es) = es.
  Proof. induction es as [|[[u v] w] es IH]; simpl; auto. now rewrite !Nat2Z.id, IH. Qed.
  Lemma zed_nonneg (es : list nedge) : forallb (fun '(u, v, _) => (0 <=? u) && (0 <=? v))%Z (map zed es) = true.
  Proof.
    apply forallb_forall. intros e He. apply in_map_iff in He. destruct He as [[[u v] w] [<- _]]. simpl.
    apply andb_true_iff. split; apply Z.leb_le; lia.
  Qed.
  Lemma load_adj_triplets file ns : adjlist_text (file_lines file) ns ->
    load_adjacencylist file = from_triplets_graph (vertex_count (arcs ns)) (loaded_arcs ns).
  Proof.
    intros Ht. unfold load_adjacencylist. rewrite adj_lines_read, (adj_lines_ok _ _ Ht). cbn [obind].
    rewrite concat_map_zed. fold (loaded_arcs ns). rewrite zed_nonneg, ids_bound_zed, unzed.
    now rewrite (vertex_count_perm _ _ (loaded_arcs_perm ns)).
  Qed.
End Adj.

Section LoadAdj.
  Context {W : Type} `{Num W} `{!PosNum W} `{!TextNum W}.
  Implicit Types (g h : graph W) (A : sprs W).
  Notation nedge := (nat * nat * W)%type.

  Lemma load_adjacencylist_spec file ns : adjlist_text (file_lines file) ns ->
    (forall u v, weights_on_lines ns u v <> [] -> wltb (total (weights_on_lines ns u v)) w0 = false) ->
    (forall u v, above_eps (total (weights_on_lines ns u v)) = above_eps (total (weights_on_lines ns v u))) ->
    exists g, load_adjacencylist file = Ok g /\ number_of_vertices g = vertex_count (arcs ns) /\ weights_above_eps g /\ reachable g /\
      forall u v, weight g u v = above_eps (total (weights_on_lines ns u v)).
  Proof.
    intros Ht Hp Hs. rewrite (load_adj_triplets _ _ Ht).
    destruct (from_triplets_graph_spec (vertex_count (arcs ns)) (loaded_arcs ns) (fun i j => sum1 (tvals (loaded_arcs ns) i j)))
      as (g & E & En & Ha & Hr & Ew).
    - intros a b w Hin. eapply vertex_count_lt. eapply Permutation_in; [apply Permutation_sym, loaded_arcs_perm|exact Hin].
    - reflexivity.
    - intros i j v Hv. assert (v = total (tvals (loaded_arcs ns) i j)) as -> by (rewrite <- o0_sum1, Hv; reflexivity).
      rewrite loaded_arcs_tvals in *. apply Hp. intros E. rewrite E in Hv. discriminate.
    - intros i j. rewrite !o0_sum1, !loaded_arcs_tvals. apply Hs.
    - exists g. repeat split; auto. intros u v. now rewrite Ew, o0_sum1, loaded_arcs_tvals.
  Qed.

  (** ** C36 *)
  Lemma show_node_text (v : nat) (es : list (nat * W)) : (Z.of_nat v <= 2147483647)%Z ->
    (forall u w, In (u, w) es -> (Z.of_nat u <= 2147483647)%Z /\ printable w) ->
    let line := show_node (Z.of_nat v) (map (fun e => (Z.of_nat (fst e), snd e)) es) in
    adj_text line v es /\ one_line line /\ ~ comment_or_blank line.
  Proof.
    intros Hv He. unfold show_node, show_nbrs. rewrite map_map. cbn [fst snd].
    assert (0 <= Z.of_nat v)%Z as Hv0 by lia.
    pose proof (show_Z_free _ Hv0) as Fv. pose proof (show_Z_ne _ Hv0) as Nv. pose proof (stoi_show (Z.of_nat v) ltac:(lia)) as Sv.
    set (sv := show_Z (Z.of_nat v)) in *.
    set (tk := fun e : nat * W => show_Z (Z.of_nat (fst e)) ++ ":" :: fmt (snd e)).
    assert (concat (map (fun e => " " :: show_Z (Z.of_nat (fst e)) ++ ":" :: fmt (snd e)) es) =
            concat (map (fun t => " " :: t) (map tk es))) as ->.
    { rewrite map_map. reflexivity. }
    assert (forall e, In e es -> free_of [" "; LF; CR] (tk e) /\ tk e <> [] /\ nbr_text (tk e) (fst e) (snd e)) as Htk.
    { intros [u w] Hin. destruct (He u w Hin) as [Hu (Hw & Hne & Hf)]. unfold tk. cbn [fst snd].
      assert (0 <= Z.of_nat u)%Z as Hu0 by lia. pose proof (show_Z_free _ Hu0) as Fu. split; [|split].
      - apply free_of_app. split; [eapply free_of_sub; [|exact Fu]; simpl; tauto|]. apply free_of_cons.
        split; [simpl; intuition discriminate|]. eapply free_of_sub; [|exact Hf]; simpl; tauto.
      - destruct (show_Z (Z.of_nat u)); discriminate.
      - apply (nt_weight _ _ _ (show_Z (Z.of_nat u)) (fmt w)); auto.
        + eapply free_of_sub; [|exact Fu]; simpl; tauto.
        + apply stoi_show. lia. }
    assert (free_of [LF; CR] (concat (map (fun t => " " :: t) (map tk es)))) as Hfl.
    { assert (forall e, In e es -> free_of [LF; CR] (tk e)) as Hl.
      { intros e Hin. eapply free_of_sub; [|apply (Htk e Hin)]. simpl; tauto. }
      clear -Hl. induction es as [|e es IH]; [apply free_of_nil|].
      cbn [map concat]. apply free_of_app. split.
      - apply free_of_cons. split; [simpl; intuition discriminate|]. apply Hl. now left.
      - apply IH. intros e' Hin. apply Hl. now right. }
    split; [|split].
    - exists sv, (concat (map (fun t => " " :: t) (map tk es))), (map tk es). repeat split; auto.
      + eapply free_of_sub; [|exact Fv]; simpl; tauto.
      + assert (forall e, In e es -> free_of [" "] (tk e) /\ nonempty (tk e) = true) as Hl.
        { intros e Hin. destruct (Htk e Hin) as (T1 & T2 & _). split; [eapply free_of_sub; [|exact T1]; simpl; tauto|].
          destruct (tk e); [congruence|reflexivity]. }
        clear -Hl. exists (removelast ([] :: map tk es)), (last ([] :: map tk es) []).
        assert (forall l x, x ++ concat (map (fun t => " " :: t) l) = join_fields " " (removelast (x :: l)) (last (x :: l) [])) as Hj.
        { induction l as [|y l IH]; intros x.
          - unfold join_fields. simpl. now rewrite app_nil_r.
          - specialize (IH y). change (removelast (x :: y :: l)) with (x :: removelast (y :: l)).
            change (last (x :: y :: l) []) with (last (y :: l) []). unfold join_fields in *. cbn [map concat].
            rewrite <- !app_assoc. cbn [app]. now rewrite <- IH. }
        split; [apply (Hj (map tk es) [])|].
        assert (Forall (free_of [" "]) ([] :: map tk es)) as Hall.
        { constructor; [apply free_of_nil|]. apply Forall_forall. intros t Ht. apply in_map_iff in Ht. destruct Ht as [e [<- Hin]].
          now apply Hl. }
        assert ([] :: map tk es <> []) as Hnn by discriminate.
        rewrite (app_removelast_last [] Hnn) in Hall. apply Forall_app in Hall. destruct Hall as [Ha Hb].
        repeat split; auto; [inversion Hb; auto|].
        change (map tk es = filter nonempty (removelast ([] :: map tk es) ++ [last ([] :: map tk es) []])).
        rewrite <- (app_removelast_last [] Hnn). cbn [filter nonempty]. symmetry.
        clear -Hl. induction es as [|e es IH]; simpl; auto. rewrite (proj2 (Hl e (or_introl eq_refl))). f_equal. apply IH.
        intros e' Hin. apply Hl. now right.
      + clear -Htk. induction es as [|e es IH]; constructor.
        * apply Htk. now left.
        * apply IH. intros e' Hin. apply Htk. now right.
    - unfold one_line. apply free_of_app. split; [eapply free_of_sub; [|exact Fv]; simpl; tauto|].
      apply free_of_cons. split; [simpl; intuition discriminate|exact Hfl].
    - intros [E|(c & r & E & Hc)].
      + destruct sv; [congruence|discriminate].
      + destruct sv as [|c' su']; [congruence|]. simpl in E. injection E as -> _.
        apply free_of_cons in Fv. destruct Fv as [Fu _]. apply Fu. simpl. destruct Hc as [->| ->]; auto.
  Qed.

  Lemma adjlist_text_app a b es fs : adjlist_text (W := W) a es -> adjlist_text b fs -> adjlist_text (a ++ b) (es ++ fs).
  Proof.
    induction 1 as [|l ls es Hc _ IH|l ls u nb es Hc Ht _ IH]; intros Hb; simpl; auto.
    - apply al_skip; auto.
    - apply al_node; auto.
  Qed.
  (** What the saved file names: each vertex with the entries of its column. *)
  Definition columns g (vs : list nat) : list (nat * list (nat * W)) := map (fun v => (v, sp_col (g_adj g) v)) vs.

  Lemma neighbors_column g v : reachable g -> weights_above_eps g -> v < number_of_vertices g ->
    neighbors g (Z.of_nat v) = Ok (map (fun e => mkEdge v (fst e) (snd e)) (sp_col (g_adj g) v)).
  Proof.
    intros Hr Ha Hv. destruct (reachable_ok g Hr) as [Hok _]. pose proof Hok as (R & C & Hwf).
    rewrite neighbors_eq by auto. do 2 f_equal.
    assert (forall e, In e (sp_col (g_adj g) v) -> weqb (snd e) w0 = false) as He.
    { intros [i y] Hin. apply pn_nz, (Ha i v). apply In_col_get; auto. apply (sp_wf_col _ v Hwf). }
    induction (sp_col (g_adj g) v) as [|e c IH]; simpl; auto. rewrite (He e (or_introl eq_refl)). simpl. f_equal.
    apply IH. intros e' Hin. apply He. now right.
  Qed.
  Lemma save_nodes_ok g vs : reachable g -> weights_above_eps g -> int_ids g -> printable_weights g ->
    (forall v, In v vs -> v < number_of_vertices g) ->
    exists ls, save_nodes g vs = Ok ls /\ adjlist_text ls (columns g vs) /\ Forall one_line ls.
  Proof.
    intros Hr Ha Hi Hp. destruct (reachable_ok g Hr) as [(R & C & Hwf) _]. unfold int_ids, number_of_vertices in *.
    induction vs as [|v vs IH]; intros Hvs; simpl.
    - exists []. repeat split; constructor.
    - destruct IH as (ls & E & Ht & Hl); [intros; apply Hvs; now right|].
      rewrite neighbors_column by (auto; apply Hvs; now left). cbn [obind]. rewrite E. cbn [obind].
      rewrite map_map. cbn [v2 ewt].
      destruct (show_node_text v (sp_col (g_adj g) v)) as (T1 & T2 & T3).
      + specialize (Hvs v (or_introl eq_refl)). lia.
      + intros u w Hin. assert (sp_get (g_adj g) u v = Some w) as G by (apply In_col_get; auto; apply (sp_wf_col _ v Hwf)).
        destruct (sp_get_lt _ _ _ _ Hwf G). split; [lia|]. eapply Hp; eauto.
      + eexists. split; [reflexivity|]. split; [apply al_node; auto|constructor; auto].
  Qed.
  Lemma adj_header_text g : adjlist_text (adj_header g) [] /\ Forall one_line (adj_header g).
  Proof.
    unfold adj_header. split.
    - apply al_skip; [apply header_comment_1|]. apply al_skip; [apply header_comment_2|]. apply al_skip; [apply header_comment_3|].
      repeat (apply al_skip; [right; eexists; eexists; split; [reflexivity|auto]|]). constructor.
    - constructor; [apply header_comment_1|]. constructor; [apply header_comment_2|]. constructor; [apply header_comment_3|].
      repeat (constructor; [now apply one_line_txt|]). constructor.
  Qed.
  Lemma saved_adjlist_text g : reachable g -> weights_above_eps g -> int_ids g -> printable_weights g ->
    exists f, save_adjacencylist g = Ok f /\ adjlist_text (file_lines f) (columns g (seq 0 (number_of_vertices g))).
  Proof.
    intros Hr Ha Hi Hp. destruct (save_nodes_ok g (seq 0 (number_of_vertices g)) Hr Ha Hi Hp) as (ls & E & Ht & Hl).
    { intros v Hv. apply in_seq in Hv. lia. }
    unfold save_adjacencylist. rewrite E. cbn [obind]. eexists. split; [reflexivity|].
    destruct (adj_header_text g) as [H1 H2]. rewrite file_put_lines by (apply Forall_app; auto).
    change (columns g (seq 0 (number_of_vertices g))) with ([] ++ columns g (seq 0 (number_of_vertices g))).
    now apply adjlist_text_app.
  Qed.

  Lemma columns_weights g u v : reachable g ->
    weights_on_lines (columns g (seq 0 (number_of_vertices g))) u v =
    match sp_get (g_adj g) v u with Some w => [w] | None => [] end.
  Proof.
    intros Hr. destruct (reachable_ok g Hr) as [(R & C & Hwf) _]. unfold number_of_vertices.
    set (ns := columns g (seq 0 (g_n g))).
    assert (weights_on_lines ns u v = tvals (arcs ns) u v) as ->.
    { unfold weights_on_lines, tvals. f_equal. apply filter_ext. intros [[a b] w]. reflexivity. }
    rewrite arcs_node_arcs, tvals_flat_map. unfold ns, columns. clear ns.
    assert (forall k, tvals (node_arcs (k, sp_col (g_adj g) k)) u v =
      if Nat.eqb k u then match sp_get (g_adj g) v u with Some w => [w] | None => [] end else []) as Hk.
    { intros k. unfold tvals, node_arcs. cbn [fst snd]. destruct (Nat.eqb_spec k u) as [->|Hku].
      - unfold sp_get. assert (col_wf (sp_rows (g_adj g)) (sp_col (g_adj g) u)) as Hcw by (apply (sp_wf_col _ u Hwf)).
        destruct Hcw as [Hs _]. induction (sp_col (g_adj g) u) as [|[i w] c IH]; simpl; auto.
        inversion Hs as [|? ? Hs' Hlt]; subst. specialize (IH Hs'). rewrite Nat.eqb_refl. cbn [andb].
        destruct (Nat.eqb_spec i v) as [->|Hiv]; [|exact IH]. cbn [map snd]. f_equal. rewrite IH.
        assert (col_get c v = None) as ->; auto.
        apply col_get_None_iff. intros Hin. rewrite Forall_forall in Hlt. specialize (Hlt v Hin). lia.
      - assert (forall l : list (nat * W), filter (fun t : nedge => (fst (fst t) =? u)%nat && (snd (fst t) =? v)%nat)
                 (map (fun m => (k, fst m, snd m)) l) = []) as Hl.
        { induction l as [|[i w] l IHl]; simpl; auto. destruct (Nat.eqb_spec k u); [contradiction|]. exact IHl. }
        now rewrite Hl. }
    assert (forall vs, flat_map (fun x => tvals (node_arcs x) u v) (map (fun k => (k, sp_col (g_adj g) k)) vs) =
      flat_map (fun k => if Nat.eqb k u then match sp_get (g_adj g) v u with Some w => [w] | None => [] end else []) vs) as Hv.
    { induction vs as [|k vs IH]; simpl; auto. now rewrite Hk, IH. }
    rewrite Hv. destruct (Nat.lt_ge_cases u (g_n g)) as [Hu|Hu].
    - rewrite (flat_map_only _ _ u); [now rewrite Nat.eqb_refl|apply seq_NoDup|apply in_seq; lia|].
      intros x _ Hx. destruct (Nat.eqb_spec x u); [contradiction|reflexivity].
    - rewrite flat_map_none.
      + destruct (sp_get (g_adj g) v u) eqn:G; auto. apply sp_get_lt in G; auto. lia.
      + intros x Hx. apply in_seq in Hx. destruct (Nat.eqb_spec x u); [lia|reflexivity].
  Qed.
  Lemma weights_on_lines_In (ns : list (nat * list (nat * W))) u v w : In w (weights_on_lines ns u v) -> In (u, v, w) (arcs ns).
  Proof.
    unfold weights_on_lines. intros Hin. apply in_map_iff in Hin. destruct Hin as [[[a b] x] [<- Hin]].
    apply filter_In in Hin. destruct Hin as [Hin E]. apply andb_true_iff in E. destruct E as [E1 E2].
    apply Nat.eqb_eq in E1, E2. subst. exact Hin.
  Qed.
  Lemma In_weights_on_lines (ns : list (nat * list (nat * W))) u v w : In (u, v, w) (arcs ns) -> In w (weights_on_lines ns u v).
  Proof.
    intros Hin. unfold weights_on_lines. apply in_map_iff. exists (u, v, w). split; auto. apply filter_In. split; auto.
    now rewrite !Nat.eqb_refl.
  Qed.

  Lemma adjacencylist_roundtrip g : reachable g -> weights_above_eps g -> int_ids g -> printable_weights g -> last_not_isolated g ->
    exists f h, save_adjacencylist g = Ok f /\ load_adjacencylist f = Ok h /\ graph_eqb g h = true /\
      number_of_vertices h = number_of_vertices g /\ forall u v, weight h u v = weight g u v.
  Proof.
    intros Hr Ha Hi Hp Hlast. destruct (saved_adjlist_text g Hr Ha Hi Hp) as (f & Ef & Ht).
    pose proof (reachable_sym g Hr) as Hs. destruct (reachable_ok g Hr) as [Hok _]. pose proof Hok as (R & C & Hwf).
    set (ns := columns g (seq 0 (number_of_vertices g))) in *.
    assert (forall u v, total (weights_on_lines ns u v) = weight g u v) as Hw.
    { intros u v. unfold ns. rewrite columns_weights by auto. unfold weight, coeff. rewrite (Hs u v).
      destruct (sp_get (g_adj g) v u); reflexivity. }
    destruct (load_adjacencylist_spec f ns Ht) as (h & E & En & Hah & Hrh & Ew).
    - intros u v Hne. rewrite Hw. unfold ns in Hne. rewrite columns_weights in Hne by auto. unfold weight, coeff. rewrite (Hs u v).
      destruct (sp_get (g_adj g) v u) as [x|] eqn:G; [|congruence]. apply pn_pos. eapply Ha; eauto.
    - intros u v. rewrite !Hw. now rewrite (weight_sym g u v Hr).
    - exists f, h. split; auto. split; auto.
      assert (forall u v, weight h u v = weight g u v) as Hww.
      { intros u v. rewrite Ew, Hw. now apply weight_above. }
      assert (number_of_vertices h = number_of_vertices g) as Hnn.
      { rewrite En. assert (vertex_count (arcs ns) <= number_of_vertices g) as Hle.
        { destruct (vertex_count (arcs ns)) as [|m] eqn:Em; [lia|].
          destruct (vertex_count_attained _ _ Em) as (a & b & w & Hin & Hab). apply In_weights_on_lines in Hin.
          unfold ns in Hin. rewrite columns_weights in Hin by auto. destruct (sp_get (g_adj g) b a) as [x|] eqn:G; [|destruct Hin].
          apply sp_get_lt in G; auto. unfold number_of_vertices. lia. }
        destruct Hlast as [H0|[u Hu]]; [lia|]. destruct (sp_get (g_adj g) u (number_of_vertices g - 1)) as [x|] eqn:G; [|congruence].
        assert (In x (weights_on_lines ns (number_of_vertices g - 1) u)) as Hx.
        { unfold ns. rewrite columns_weights by auto. rewrite G. now left. }
        apply weights_on_lines_In in Hx. apply vertex_count_lt in Hx. lia. }
      split; [|split; auto]. apply graph_eqb_iff; auto.
      + apply (reachable_ok h Hrh).
      + now apply above_proper.
      + now apply above_proper.
  Qed.
End LoadAdj.
