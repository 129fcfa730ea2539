(** Loading and saving graph files: C34, C35, C36. *)
From Verif Require Import Base Num Sparse SparseFacts Graph GraphFacts GraphSpec GraphProps1 GraphProps2 GraphProps4 Cluster ClusterSweep
  Text TextFacts GraphIO IOSpec GraphIOFacts.
From Coq Require Import Ascii String List Sorting.Sorted Permutation.
Import ListNotations.
Local Open Scope nat_scope.
Local Open Scope char_scope.
Local Open Scope list_scope.

Lemma forall_one_line_app a b : one_line a -> one_line b -> one_line (a ++ b).
Proof. intros Ha Hb. apply free_of_app. auto. Qed.
Lemma one_line_txt (s : text) : forallb (fun c => negb (c =? LF) && negb (c =? CR)) s = true -> one_line s.
Proof.
  intros Hf c Hc Hin. rewrite forallb_forall in Hf. specialize (Hf c Hc). simpl in Hin.
  destruct Hin as [<-|[<-|[]]]; discriminate.
Qed.
Lemma show_Z_one_line z : (0 <= z)%Z -> one_line (show_Z z).
Proof. intros Hz. eapply free_of_sub; [|apply show_Z_free; exact Hz]. simpl. tauto. Qed.
Lemma show_nat_one_line n : one_line (show_nat n).
Proof. apply show_Z_one_line. lia. Qed.

Section Load.
  Context {W : Type} `{Num W} `{!PosNum W} `{!TextNum W}.
  Implicit Types (g h : graph W) (A : sprs W).

  (** ** C34 *)
  Lemma load_edgelist_spec file es : edgelist_text (file_lines file) es ->
    (forall u v, weights_between es u v <> [] -> wltb (total (weights_between es u v)) w0 = false) ->
    (forall u, weights_between es u u <> [] -> wltb (total (flat_map (fun w => [w; w]) (weights_between es u u))) w0 = false) ->
    exists g, load_edgelist file = Ok g /\ number_of_vertices g = vertex_count es /\ weights_above_eps g /\ reachable g /\
      (forall u v, u <> v -> weight g u v = above_eps (total (weights_between es u v))) /\
      (forall u, weight g u u = above_eps (total (flat_map (fun w => [w; w]) (weights_between es u u)))).
  Proof.
    intros Ht Hp Hpd. unfold load_edgelist. rewrite edge_lines_read, (edge_lines_ok _ _ Ht). cbn [obind].
    rewrite ids_bound_zed, el_triplets_zed. fold (both_ways es).
    destruct (from_triplets_graph_spec (vertex_count es) (both_ways es) (fun i j => sum1 (tvals (both_ways es) i j)))
      as (g & E & En & Ha & Hr & Ew).
    - intros a b w Hin. eapply both_ways_lt; [|exact Hin]. intros u v x. apply vertex_count_lt.
    - reflexivity.
    - intros i j v Hv. assert (v = total (tvals (both_ways es) i j)) as -> by (rewrite <- o0_sum1, Hv; reflexivity).
      destruct (Nat.eq_dec i j) as [->|Hne].
      + rewrite tvals_both_ways_diag in *. apply Hpd. intros E. rewrite E in Hv. discriminate.
      + rewrite tvals_both_ways in * by auto. apply Hp. intros E. rewrite E in Hv. discriminate.
    - intros i j. rewrite !o0_sum1. destruct (Nat.eq_dec i j) as [->|Hne]; auto.
      rewrite !tvals_both_ways by auto. now rewrite weights_between_sym.
    - exists g. repeat split; auto.
      + intros u v Hne. now rewrite Ew, o0_sum1, tvals_both_ways by auto.
      + intros u. now rewrite Ew, o0_sum1, tvals_both_ways_diag.
  Qed.

  (** ** C35 *)
  Lemma show_edge_text (u v : nat) (w : W) : (Z.of_nat u <= 2147483647)%Z -> (Z.of_nat v <= 2147483647)%Z -> printable w ->
    edge_text (show_edge (Z.of_nat u) (Z.of_nat v) w) u v w /\ one_line (show_edge (Z.of_nat u) (Z.of_nat v) w) /\
    ~ comment_or_blank (show_edge (Z.of_nat u) (Z.of_nat v) w).
  Proof.
    intros Hu Hv (Hw & Hne & Hf).
    assert (0 <= Z.of_nat u)%Z as Hu0 by lia. assert (0 <= Z.of_nat v)%Z as Hv0 by lia.
    pose proof (show_Z_free _ Hu0) as Fu. pose proof (show_Z_free _ Hv0) as Fv.
    pose proof (show_Z_ne _ Hu0) as Nu. pose proof (show_Z_ne _ Hv0) as Nv.
    pose proof (stoi_show (Z.of_nat u) ltac:(lia)) as Su. pose proof (stoi_show (Z.of_nat v) ltac:(lia)) as Sv.
    unfold show_edge. set (su := show_Z (Z.of_nat u)) in *. set (sv := show_Z (Z.of_nat v)) in *. split; [|split].
    - apply (et_three _ _ _ _ " " su sv (fmt w)); auto.
      + unfold is_delim; simpl; auto.
      + change (earlier " ") with [","]. simpl. repeat rewrite ?free_of_app, ?free_of_cons. repeat split;
          first [ solve [simpl; intuition discriminate] | eapply free_of_sub; [|exact Fu]; simpl; tauto | eapply free_of_sub; [|exact Fv]; simpl; tauto
                | eapply free_of_sub; [|exact Hf]; simpl; tauto | apply free_of_nil ].
      + exists [su; sv], (fmt w). repeat split.
        * unfold join_fields. simpl. rewrite app_nil_r, <- !app_assoc. reflexivity.
        * constructor; [|constructor; [|constructor]].
          -- eapply free_of_sub; [|exact Fu]. simpl; tauto.
          -- eapply free_of_sub; [|exact Fv]. simpl; tauto.
        * eapply free_of_sub; [|exact Hf]. simpl; tauto.
        * simpl. destruct su; [congruence|]. destruct sv; [congruence|]. destruct (fmt w); [congruence|]. reflexivity.
    - unfold one_line. simpl. repeat rewrite ?free_of_app, ?free_of_cons. repeat split;
          first [ solve [simpl; intuition discriminate] | eapply free_of_sub; [|exact Fu]; simpl; tauto | eapply free_of_sub; [|exact Fv]; simpl; tauto
                | eapply free_of_sub; [|exact Hf]; simpl; tauto | apply free_of_nil ].
    - intros [E|(c & r & E & Hc)].
      + destruct su; [congruence|discriminate].
      + destruct su as [|c' su']; [congruence|]. simpl in E. injection E as -> _.
        apply free_of_cons in Fu. destruct Fu as [Fu _]. apply Fu. simpl. destruct Hc as [->| ->]; auto.
  Qed.

  Lemma header_comment_1 : comment_or_blank header1 /\ one_line header1.
  Proof.
    split; [|now apply one_line_txt]. right. eexists; eexists. split; [unfold header1; simpl; reflexivity|]. auto.
  Qed.
  Lemma header_comment_2 g : comment_or_blank (header2 g) /\ one_line (header2 g).
  Proof.
    split; [right; eexists; eexists; split; [unfold header2; simpl; reflexivity|auto]|].
    apply forall_one_line_app; [now apply one_line_txt|apply show_nat_one_line].
  Qed.
  Lemma header_comment_3 g : comment_or_blank (header3 g) /\ one_line (header3 g).
  Proof.
    split; [right; eexists; eexists; split; [unfold header3; simpl; reflexivity|auto]|].
    apply forall_one_line_app; [now apply one_line_txt|apply show_nat_one_line].
  Qed.

  Lemma upper_In A i j w : In (i, j, w) (upper_entries A) -> sp_wf A -> i < j /\ j < sp_ncols A /\ sp_get A i j = Some w.
  Proof.
    intros Hin Hwf. unfold upper_entries in Hin. apply in_flat_map in Hin. destruct Hin as [k [Hk Hin]].
    apply in_map_iff in Hin. destruct Hin as [[i' w'] [[= -> -> ->] Hin]]. apply filter_In in Hin. destruct Hin as [Hin Hlt].
    apply Nat.ltb_lt in Hlt. simpl in Hlt. apply in_seq in Hk. repeat split; auto; [lia|].
    apply In_col_get; auto. apply (sp_wf_col A j Hwf).
  Qed.
  Lemma upper_weights A u v n : sp_square A n -> u < v ->
    weights_between (upper_entries A) u v = match sp_get A u v with Some w => [w] | None => [] end.
  Proof.
    intros (R & C & Hwf) Huv.
    assert (weights_between (upper_entries A) u v = tvals (upper_entries A) u v) as ->.
    { unfold weights_between, tvals. f_equal. apply filter_ext_in. intros [[i j] w] Hin.
      apply upper_In in Hin; auto. simpl. destruct Hin as (Hij & _).
      destruct (Nat.eqb_spec i v), (Nat.eqb_spec j u); simpl; try apply orb_false_r; lia. }
    unfold upper_entries. rewrite tvals_flat_map.
    assert (forall k, tvals (map (fun e => (fst e, k, snd e)) (filter (fun e => Nat.ltb (fst e) k) (sp_col A k))) u v
      = if Nat.eqb k v then match sp_get A u v with Some w => [w] | None => [] end else []) as Hk.
    { intros k. unfold tvals. destruct (Nat.eqb_spec k v) as [->|Hkv].
      - unfold sp_get. assert (col_wf (sp_rows A) (sp_col A v)) as Hcw by (apply (sp_wf_col A v Hwf)).
        destruct Hcw as [Hs _]. induction (sp_col A v) as [|[i w] c IH]; simpl; auto.
        inversion Hs as [|? ? Hs' Hlt]; subst. specialize (IH Hs'). destruct (Nat.ltb_spec i v) as [Hi|Hi]; simpl.
        + destruct (Nat.eqb_spec i u) as [->|Hiu]; simpl; [|exact IH]. rewrite Nat.eqb_refl. simpl. f_equal.
          rewrite IH. rewrite Forall_map in Hlt. assert (col_get c u = None) as ->; auto.
          apply col_get_None_iff. intros Hin. apply in_map_iff in Hin. destruct Hin as [e [He Hin]].
          rewrite Forall_forall in Hlt. specialize (Hlt e Hin). lia.
        + destruct (Nat.eqb_spec i u) as [->|Hiu]; [lia|exact IH].
      - assert (forall l : list (nat * W), filter (fun t : nat * nat * W => (fst (fst t) =? u)%nat && (snd (fst t) =? v)%nat)
                 (map (fun e => (fst e, k, snd e)) l) = []) as Hl.
        { induction l as [|[i w] l IHl]; simpl; auto. destruct (Nat.eqb_spec k v); [contradiction|].
          now rewrite andb_false_r. }
        now rewrite Hl. }
    erewrite flat_map_ext_in; [|intros k _; apply Hk].
    destruct (Nat.lt_ge_cases v (sp_ncols A)) as [Hv|Hv].
    - rewrite (flat_map_only _ _ v); [now rewrite Nat.eqb_refl|apply seq_NoDup|apply in_seq; lia|].
      intros x _ Hx. destruct (Nat.eqb_spec x v); [contradiction|reflexivity].
    - rewrite flat_map_none.
      + destruct (sp_get A u v) eqn:G; auto. apply sp_get_lt in G; auto. lia.
      + intros x Hx. apply in_seq in Hx. destruct (Nat.eqb_spec x v); [lia|reflexivity].
  Qed.

  Lemma edgelist_text_app a b es fs : edgelist_text (W := W) a es -> edgelist_text b fs -> edgelist_text (a ++ b) (es ++ fs).
  Proof.
    induction 1 as [|l ls es Hc _ IH|l ls u v w es Hc Ht _ IH]; intros Hb; simpl; auto.
    - apply el_skip; auto.
    - apply el_edge; auto.
  Qed.
  Lemma edgelist_text_edges (es : list (nat * nat * W)) :
    (forall u v w, In (u, v, w) es -> (Z.of_nat u <= 2147483647)%Z /\ (Z.of_nat v <= 2147483647)%Z /\ printable w) ->
    let ls := map (fun '(i, j, w) => show_edge (Z.of_nat i) (Z.of_nat j) w) es in
    edgelist_text ls es /\ Forall one_line ls.
  Proof.
    induction es as [|[[u v] w] es IH]; intros Hb; cbn [map]; [split; constructor|].
    destruct IH as [I1 I2]; [intros; apply Hb; now right|].
    destruct (Hb u v w (or_introl eq_refl)) as (B1 & B2 & B3).
    destruct (show_edge_text u v w B1 B2 B3) as (E1 & E2 & E3).
    split; [now apply el_edge|now constructor].
  Qed.

  (** Vertex ids fit in an int. *)
  Definition int_ids g : Prop := (Z.of_nat (number_of_vertices g) <= 2147483648)%Z.
  Definition printable_weights g : Prop := forall i j v, sp_get (g_adj g) i j = Some v -> printable v.
  (** The last vertex has a neighbour (or there is no vertex). *)
  Definition last_not_isolated g : Prop :=
    number_of_vertices g = 0 \/ exists u, sp_get (g_adj g) u (number_of_vertices g - 1) <> None.

  Lemma saved_edgelist_text g : reachable g -> int_ids g -> printable_weights g ->
    edgelist_text (file_lines (save_edgelist g)) (upper_entries (g_adj g)).
  Proof.
    intros Hr Hi Hp. destruct (reachable_ok g Hr) as [(R & C & Hwf) _]. unfold save_edgelist.
    destruct (edgelist_text_edges (upper_entries (g_adj g))) as [E1 E2].
    { intros u v w Hin. apply upper_In in Hin; auto. destruct Hin as (Huv & Hv & G). unfold int_ids, number_of_vertices in Hi.
      rewrite C in Hv. repeat split; try lia; eapply Hp; eauto. }
    rewrite file_put_lines.
    - change (upper_entries (g_adj g)) with ([] ++ upper_entries (g_adj g)). apply edgelist_text_app; [|exact E1].
      apply el_skip; [apply header_comment_1|]. apply el_skip; [apply header_comment_2|]. apply el_skip; [apply header_comment_3|].
      constructor.
    - apply Forall_app. split; [|exact E2].
      repeat constructor; [apply header_comment_1|apply header_comment_2|apply header_comment_3].
  Qed.

  Lemma weights_between_diag_upper g u : reachable g -> weights_between (upper_entries (g_adj g)) u u = [].
  Proof.
    intros Hr. destruct (reachable_ok g Hr) as [(R & C & Hwf) _].
    assert (forall t, In t (upper_entries (g_adj g)) -> fst (fst t) < snd (fst t)) as Hu.
    { intros [[i j] w] Hin. apply upper_In in Hin; auto. simpl. tauto. }
    unfold weights_between. induction (upper_entries (g_adj g)) as [|[[i j] w] l IH]; auto.
    pose proof (Hu (i, j, w) (or_introl eq_refl)) as Hij. simpl in Hij. cbn [filter].
    destruct (Nat.eqb_spec i u), (Nat.eqb_spec j u); simpl; try lia; apply IH; intros t Ht; apply Hu; now right.
  Qed.

  Lemma edgelist_roundtrip g : reachable g -> weights_above_eps g -> int_ids g -> printable_weights g ->
    (forall u, weight g u u = w0) -> last_not_isolated g ->
    exists h, load_edgelist (save_edgelist g) = Ok h /\ graph_eqb g h = true /\
      number_of_vertices h = number_of_vertices g /\ forall u v, weight h u v = weight g u v.
  Proof.
    intros Hr Ha Hi Hp Hl Hlast.
    pose proof (reachable_sym g Hr) as Hs.
    destruct (reachable_ok g Hr) as [Hok _]. pose proof Hok as (R & C & Hwf).
    assert (forall u v, u <> v -> total (weights_between (upper_entries (g_adj g)) u v) = weight g u v) as Hw.
    { assert (forall u v, u < v -> total (weights_between (upper_entries (g_adj g)) u v) = weight g u v) as Hlt.
      { intros u v Huv. rewrite (upper_weights _ _ _ _ Hok Huv). unfold weight, coeff. destruct (sp_get (g_adj g) u v); reflexivity. }
      intros u v Hne. destruct (Nat.lt_ge_cases u v) as [Huv|Huv]; [now apply Hlt|].
      rewrite weights_between_sym, Hlt by lia. unfold weight, coeff. now rewrite (Hs v u). }
    destruct (load_edgelist_spec (save_edgelist g) (upper_entries (g_adj g))) as (h & E & En & Hah & Hrh & Ew & Ewd).
    - now apply saved_edgelist_text.
    - intros u v. destruct (Nat.eq_dec u v) as [->|Hne].
      + rewrite weights_between_diag_upper by auto. congruence.
      + rewrite Hw by auto. intros Hb. unfold weight, coeff.
        destruct (sp_get (g_adj g) u v) as [x|] eqn:G; [apply pn_pos; eapply Ha; eauto|].
        exfalso. apply Hb. destruct (Nat.lt_ge_cases u v) as [Huv|Huv].
        * now rewrite (upper_weights _ _ _ _ Hok Huv), G.
        * rewrite weights_between_sym, (upper_weights _ v u _ Hok) by lia. rewrite Hs. now rewrite G.
    - intros u. rewrite weights_between_diag_upper by auto. congruence.
    - assert (forall u v, weight h u v = weight g u v) as Hww.
      { intros u v. destruct (Nat.eq_dec u v) as [->|Hne].
        - rewrite Ewd, weights_between_diag_upper by auto. simpl. unfold above_eps. rewrite pn_0. now rewrite Hl.
        - rewrite Ew, Hw by auto. now apply weight_above. }
      assert (number_of_vertices h = number_of_vertices g) as Hnn.
      { rewrite En. unfold number_of_vertices.
        assert (vertex_count (upper_entries (g_adj g)) <= g_n g) as Hle.
        { destruct (vertex_count (upper_entries (g_adj g))) as [|m] eqn:Em; [lia|].
          destruct (vertex_count_attained _ _ Em) as (a & b & w & Hin & Hab). apply upper_In in Hin; auto. lia. }
        destruct Hlast as [H0|[u Hu]]; unfold number_of_vertices in *; [lia|].
        destruct (sp_get (g_adj g) u (g_n g - 1)) as [x|] eqn:G; [|congruence].
        destruct (sp_get_lt _ _ _ _ Hwf G) as [Hlu Hlv].
        assert (u <> g_n g - 1) as Hne.
        { intros ->. specialize (Hl (g_n g - 1)). unfold weight, coeff in Hl. rewrite G in Hl. simpl in Hl.
          specialize (Ha _ _ _ G). rewrite Hl, pn_0 in Ha. discriminate. }
        assert (In (u, g_n g - 1, x) (upper_entries (g_adj g))) as Hin.
        { unfold upper_entries. apply in_flat_map. exists (g_n g - 1). split; [apply in_seq; lia|].
          apply in_map_iff. exists (u, x). split; auto. apply filter_In. split; [now apply col_get_In|]. apply Nat.ltb_lt. simpl. lia. }
        apply vertex_count_lt in Hin. lia. }
      exists h. split; auto. split; [|split; auto].
      apply graph_eqb_iff; auto.
      + apply (reachable_ok h Hrh).
      + now apply above_proper.
      + now apply above_proper.
  Qed.
End Load.
