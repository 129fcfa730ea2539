(** Queries on a searchable adjacency list file (C42-C45). *)
From Verif Require Import Base Num RSum Sparse SparseFacts Graph GraphFacts GraphSpec GraphProps1 GraphProps2 GraphProps4 GraphProps5 Cluster ClusterSweep
  Text TextFacts GraphIO IOSpec GraphIOFacts GraphIOLoad GraphIOAdj GraphIOSort GraphIOConv LocalDisk LocalDiskFacts LocalDiskSearch.
From Coq Require Import Ascii String List Sorting.Sorted Permutation Reals Lra.
Import ListNotations.
Local Open Scope nat_scope.
Local Open Scope char_scope.
Local Open Scope list_scope.

Section Top.
  Context {W : Type} `{Num W} `{!TextNum W}.
  Notation nedge := (nat * nat * W)%type.

  (** An adjacency list with ascending ids, whose last line is a node line and whose comments contain no colon. *)
  Definition searchable (file : text) (ns : list (nat * list (nat * W))) : Prop :=
    adjlist_text (file_lines file) ns /\ StronglySorted lt (map fst ns) /\ ends_with_node (file_lines file) /\
    (forall l, In l (file_lines file) -> comment_or_blank l -> ~ In ":" l).

  Lemma searchable_nodes file ns : adjlist_text (file_lines file) ns -> ends_with_node (file_lines file) ->
    (forall l, In l (file_lines file) -> comment_or_blank l -> ~ In ":" l) ->
    exists N, nodes file N /\
      Forall2 (fun n m => fst m = Z.of_nat (fst n) /\ adj_text (fst (getline (snd m))) (fst n) (snd n)) ns N.
  Proof.
    revert ns. induction file as [|t Ht IH] using lines_ind; intros ns Hadj He Hc.
    - inversion Hadj; subst. exists []. split; constructor.
    - pose proof (ends_tail t Ht He) as He'. rewrite file_lines_step in * by auto.
      assert (forall l, In l (file_lines (snd (getline t))) -> comment_or_blank l -> ~ In ":" l) as Hc' by (intros l Hin; apply Hc; now right).
      inversion Hadj as [|? ? ? Hcb Hrest E1|? ? u nb ns' Hcb Hl Hrest E1]; subst.
      + destruct (IH ns Hrest He' Hc') as (N & HN & HF). exists N. split; auto.
        assert (~ In ":" (fst (getline t))) as Hni by (apply Hc; [now left|auto]).
        apply nodes_skip; auto.
        * intros c Hin [<-|[]]. auto.
        * intros ->. apply nodes_nil_inv in HN. rewrite HN in He. destruct He as [He|He]; [discriminate|]. simpl in He. tauto.
      + destruct (IH ns' Hrest He' Hc') as (N & HN & HF). exists ((Z.of_nat u, t) :: N). split; [|constructor; auto].
        destruct Hl as (a & rest & toks & E & Hfa & Hs & _). eapply nodes_node; eauto.
  Qed.

  Lemma searchable_facts file ns : searchable file ns -> exists N, nodes file N /\
    Forall2 (fun n m => fst m = Z.of_nat (fst n) /\ adj_text (fst (getline (snd m))) (fst n) (snd n)) ns N /\
    StronglySorted Z.lt (map fst N) /\ Forall (fun n => (0 <= fst n)%Z) N /\ map fst N = map (fun n => Z.of_nat (fst n)) ns.
  Proof.
    intros (Hadj & Hs & He & Hc). destruct (searchable_nodes file ns Hadj He Hc) as (N & HN & HF). exists N. split; auto. split; auto.
    assert (map fst N = map (fun n => Z.of_nat (fst n)) ns) as Em.
    { clear -HF. induction HF as [|n m ns N [E _] _ IH]; simpl; [reflexivity|]. now rewrite E, IH. }
    repeat split; auto.
    - rewrite Em. clear -Hs. induction ns as [|n ns IH]; simpl in *; [constructor|]. inversion Hs as [|? ? Hs' Hf]; subst.
      constructor; auto. rewrite Forall_forall in *. intros z Hz. apply in_map_iff in Hz. destruct Hz as (m & <- & Hin).
      specialize (Hf (fst m) (in_map fst _ _ Hin)). lia.
    - clear -HF. induction HF as [|n m ns N [E _] _ IH]; constructor; auto. lia.
  Qed.

  Lemma Forall2_in_l {A B} (P : A -> B -> Prop) l l' x : Forall2 P l l' -> In x l -> exists y, In y l' /\ P x y.
  Proof. induction 1 as [|a b l l' Hab _ IH]; simpl; [tauto|]. intros [<-|Hin]; [eauto|]. destruct (IH Hin) as (y & ? & ?). eauto. Qed.

  Lemma pfind_present fuel file ns u nb : searchable file ns -> probes file <= fuel -> In (u, nb) ns ->
    exists s, pfind fuel file (Z.of_nat u) 0 (Z.of_nat (List.length file)) = Some (Ok s) /\ adj_text (fst (getline s)) u nb.
  Proof.
    intros Hsr Hf Hin. destruct (searchable_facts file ns Hsr) as (N & HN & HF & Hs & Hp & Em).
    destruct (Forall2_in_l _ _ _ _ HF Hin) as ([u' s] & Hin' & Eu & Ha). cbn [fst snd] in *. subst u'. exists s. split; auto.
    destruct Hsr as (_ & _ & He & _). destruct (pfind_ends_file file (Z.of_nat u) fuel He Hf) as (o & E & _). rewrite E. f_equal.
    destruct (position_of file N HN Hs Hp _ _ Hin') as (p & Hp1 & Hp2).
    eapply (pfind_found file N HN Hs Hp _ s p); eauto; lia.
  Qed.
  Lemma pfind_absent fuel file ns v : searchable file ns -> probes file <= fuel -> v <> (-1)%Z -> ~ In v (map (fun n => Z.of_nat (fst n)) ns) ->
    pfind fuel file v 0 (Z.of_nat (List.length file)) = Some (Throw RuntimeError).
  Proof.
    intros Hsr Hf Hv Hn. destruct (searchable_facts file ns Hsr) as (N & HN & HF & Hs & Hp & Em). rewrite <- Em in Hn.
    destruct Hsr as (_ & _ & He & _). destruct (pfind_ends_file file v fuel He Hf) as (o & E & _). rewrite E. f_equal.
    destruct (pfind_result file v fuel 0%Z (Z.of_nat (List.length file)) o ltac:(lia) ltac:(lia) E) as [->|(p & Hp0 & Hr)]; auto. exfalso.
    assert (p < Z.of_nat (List.length file) \/ p = Z.of_nat (List.length file))%Z as [Hlt|Heq] by lia.
    - destruct (probe_range file N HN p ltac:(lia)) as (N1 & N2 & EN & Eg & _). rewrite Eg in Hr.
      destruct Hr as [(r & Er & _)|[(e & Er & _)|[Er _]]]; try discriminate. injection Er as Er. destruct N2 as [|x N2]; simpl in Er; [congruence|].
      subst x. apply Hn. rewrite EN, map_app. apply in_or_app. right. now left.
    - unfold goto_next in Hr. rewrite Heq, Z.eqb_refl in Hr. destruct (Z.eqb_spec (Z.of_nat (List.length file)) 0) as [H0|H0]; cbn [andb negb] in Hr.
      + destruct file; [|simpl in H0; lia]. destruct Hr as [(r & Er & _)|[(e & Er & _)|[Er _]]]; congruence.
      + destruct Hr as [(r & Er & _)|[(e & Er & _)|[Er _]]]; discriminate.
  Qed.

  (** [sort_arcs] sorts by the neighbour, stably. *)
  Lemma sort_arcs_stable (l : list nedge) : stably_sorted_by tgt l (sort_arcs l).
  Proof.
    split; [|intros k; unfold sort_arcs; apply stable_sort_filter].
    assert (StronglySorted (stable_le (fun a b : nedge => (tgt a <? tgt b)%nat) (fun _ _ => True)) (sort_arcs l)) as Hs.
    { apply (stable_sort_sorted _ (fun _ => True)).
      - intros a b c _ _ _. rewrite !Nat.ltb_lt. lia.
      - intros a b c _ _ _. rewrite !Nat.ltb_lt. lia.
      - apply Forall_forall. auto.
      - induction l; constructor; auto. apply Forall_forall. auto. }
    revert Hs. apply StronglySorted_ind; [constructor|]. intros a r _ IH Hf. constructor; auto. eapply Forall_impl; [|exact Hf].
    intros b [Hb|[Hb _]]; [apply Nat.ltb_lt in Hb; lia|apply Nat.ltb_ge in Hb; lia].
  Qed.
  Lemma sort_arcs_sorted (l : list nedge) : StronglySorted lt (map tgt l) -> sort_arcs l = l.
  Proof.
    intros Hs. apply stable_sort_id. induction l as [|x l IH]; [constructor|]. simpl in Hs. inversion Hs as [|? ? Hs' Hf]; subst.
    constructor; auto. rewrite Forall_forall in *. intros y Hy. apply Nat.ltb_ge. specialize (Hf (tgt y) (in_map tgt _ _ Hy)). lia.
  Qed.

  Lemma pneighbors_present fuel file ns u nb : searchable file ns -> probes file <= fuel -> In (u, nb) ns ->
    pneighbors fuel file (Z.of_nat u) = Some (Ok (map zed (sort_arcs (map (fun n => (u, fst n, snd n)) nb)))).
  Proof.
    intros Hsr Hf Hin. destruct (pfind_present fuel file ns u nb Hsr Hf Hin) as (s & E & Ha). unfold pneighbors. rewrite E. simpl.
    now rewrite (parse_adj_ok _ _ _ Ha).
  Qed.
  Lemma pneighbors_absent fuel file ns v : searchable file ns -> probes file <= fuel -> v <> (-1)%Z -> ~ In v (map (fun n => Z.of_nat (fst n)) ns) ->
    pneighbors fuel file v = Some (Throw RuntimeError).
  Proof. intros Hsr Hf Hv Hn. unfold pneighbors. now rewrite (pfind_absent fuel file ns v). Qed.

  (** ** C42, C43 *)
  Theorem disk_neighbors file ns fuel qs st u nb :
    searchable file ns -> probes file <= fuel -> after fuel file qs d_init = Some st -> In (u, nb) ns ->
    exists es, stably_sorted_by tgt (map (fun n => (u, fst n, snd n)) nb) es /\
      result (d_neighbors fuel file (Z.of_nat u) st) = Some (Ok (map zed es)).
  Proof.
    intros Hsr Hf Ha Hin. exists (sort_arcs (map (fun n => (u, fst n, snd n)) nb)). split; [apply sort_arcs_stable|].
    rewrite (computes_result _ _ _ _ _ (neighbors_computes fuel file (Z.of_nat u)) (after_valid _ _ _ _ _ (valid_init fuel file) Ha)).
    now apply (pneighbors_present fuel file ns).
  Qed.
  Theorem disk_present file ns fuel qs st u :
    searchable file ns -> probes file <= fuel -> after fuel file qs d_init = Some st -> In u (map fst ns) ->
    result (d_vertex_exists fuel file (Z.of_nat u) st) = Some (Ok true).
  Proof.
    intros Hsr Hf Ha Hin. apply in_map_iff in Hin. destruct Hin as ([u' nb] & <- & Hin). cbn [fst].
    rewrite (computes_result _ _ _ _ _ (exists_computes fuel file (Z.of_nat u')) (after_valid _ _ _ _ _ (valid_init fuel file) Ha)).
    unfold pexists. destruct (pfind_present fuel file ns u' nb Hsr Hf Hin) as (s & -> & _). reflexivity.
  Qed.
  Theorem disk_absent file ns fuel qs st v :
    searchable file ns -> probes file <= fuel -> after fuel file qs d_init = Some st ->
    v <> (-1)%Z -> (forall u, In u (map fst ns) -> v <> Z.of_nat u) ->
    result (d_neighbors fuel file v st) = Some (Throw RuntimeError) /\ result (d_vertex_exists fuel file v st) = Some (Ok false).
  Proof.
    intros Hsr Hf Ha Hv Hn. pose proof (after_valid _ _ _ _ _ (valid_init fuel file) Ha) as Hval.
    assert (~ In v (map (fun n : nat * list (nat * W) => Z.of_nat (fst n)) ns)) as Hni.
    { intros Hin. apply in_map_iff in Hin. destruct Hin as (n & E & Hin). apply (Hn (fst n)); auto. now apply in_map. }
    split.
    - rewrite (computes_result _ _ _ _ _ (neighbors_computes fuel file v) Hval). now apply (pneighbors_absent fuel file ns).
    - rewrite (computes_result _ _ _ _ _ (exists_computes fuel file v) Hval). unfold pexists. now rewrite (pfind_absent fuel file ns v).
  Qed.

  (** The file written by edgelist_to_adjacencylist is searchable. *)
  Theorem converted_searchable file (es : list nedge) : edgelist_text (file_lines file) es -> (forall u v w, In (u, v, w) es -> printable w) ->
    es <> [] -> (forall l, In l (file_lines file) -> comment_or_blank l -> ~ In ":" l) ->
    exists out ns, (forall fuel, 2 * List.length (file_lines file) + 1 < fuel -> edgelist_to_adjacencylist (W := W) fuel file = Some (Ok out)) /\
      searchable out ns /\ forall e, In e (arcs ns) <-> In e (reversed_too es).
  Proof.
    intros Ht Hp Hne Hc. destruct (edgelist_to_adjacencylist_text file es Ht Hp) as (out & ns & E & T & S & _ & HI & _ & Hh).
    destruct (Hh Hne) as (hdr & El & Hhdr & Hns & Hnode). exists out, ns. split; auto. split; auto. split; auto. split; auto. rewrite El. split.
    - right. destruct (exists_last (l := ns) Hns) as (ns' & n & ->). rewrite map_app. cbn [map].
      change (hdr ++ [] :: map node_line ns' ++ [node_line n]) with (hdr ++ ([] :: map node_line ns') ++ [node_line n]).
      rewrite app_assoc, last_last. unfold node_line, show_node. apply in_or_app. right. now left.
    - intros l Hin Hcb. apply in_app_or in Hin. destruct Hin as [Hin|[<-|Hin]].
      + destruct (Hhdr l Hin) as [_ [->|Hl]]; [intros []|auto].
      + intros [].
      + exfalso. apply in_map_iff in Hin. destruct Hin as (n & <- & Hn). now apply (Hnode n).
  Qed.

  (** ** C44 *)
  Lemma stod_result' (t : text) : (exists w, stod t = Ok w) \/ good_throw (stod (W := W) t).
  Proof. destruct (stod_result (W := W) t) as [|[|]]; unfold good_throw; auto. Qed.
  Definition returns {A} (o : outcome A) : Prop := (exists a, o = Ok a) \/ good_throw o.
  Lemma returns_bind {A B} (o : outcome A) (f : A -> outcome B) : returns o -> (forall a, returns (f a)) -> returns (do x <- o; f x).
  Proof. intros [[a ->]|[->| ->]] Hf; simpl; auto; right; [now left|now right]. Qed.
  Lemma returns_stoi t : returns (stoi t).
  Proof. destruct (stoi_cases t) as [(z & -> & _)|[E|E]]; [left; eauto|right; left; auto|right; right; auto]. Qed.
  Lemma returns_ok {A} (a : A) : returns (Ok a).
  Proof. left. eauto. Qed.
  Lemma returns_adj_edge t src : returns (parse_adj_edge (W := W) t src).
  Proof.
    unfold parse_adj_edge. destruct (split1 ":" t) as [[a b]|].
    - apply returns_bind; [apply returns_stoi|]. intros z. apply returns_bind; [apply stod_result'|]. intros w. apply returns_ok.
    - apply returns_bind; [apply returns_stoi|]. intros z. apply returns_ok.
  Qed.
  Lemma returns_adj_edges toks src : returns (parse_adj_edges (W := W) toks src).
  Proof.
    induction toks as [|t toks IH]; simpl; [apply returns_ok|]. destruct t; auto.
    apply returns_bind; [apply returns_adj_edge|]. intros e. apply returns_bind; auto. intros es. apply returns_ok.
  Qed.
  Lemma returns_adj_line l : returns (parse_adj_line (W := W) l).
  Proof.
    unfold parse_adj_line. destruct (split1 ":" l) as [[a rest]|]; [|right; now left]. apply returns_bind; [apply returns_stoi|]. intros src.
    destruct (fields " " rest) as [toks lst]. apply returns_bind; [apply returns_adj_edges|]. intros es.
    destruct (returns_adj_edge lst src) as [[e ->]|[->| ->]]; apply returns_ok.
  Qed.

  Definition settles {A} (x : option (outcome A)) : Prop := exists o, x = Some o /\ good_outcome o.
  Lemma settles_bind {A B} (x : option (outcome A)) (f : A -> option (outcome B)) : settles x -> (forall a, settles (f a)) -> settles (pbind x f).
  Proof.
    intros (o & -> & Ho) Hf. destruct Ho as [[a ->]|[->|[->| ->]]]; simpl; auto; eexists; (split; [reflexivity|]); unfold good_outcome, good_throw; auto.
  Qed.
  Lemma settles_ok {A} (a : A) : settles (Some (Ok a)).
  Proof. eexists. split; [reflexivity|]. left. eauto. Qed.
  Lemma settles_map {A B} (f : A -> option (outcome B)) l : (forall a, settles (f a)) -> settles (pmap f l).
  Proof.
    intros Hf. induction l as [|x l IH]; simpl; [apply settles_ok|]. apply settles_bind; auto. intros y. apply settles_bind; auto.
    intros ys. apply settles_ok.
  Qed.
  Lemma settles_neighbors fuel file v : ends_with_node (file_lines file) -> probes file <= fuel -> settles (pneighbors fuel file v).
  Proof.
    intros He Hf. unfold pneighbors. apply settles_bind; [now apply pfind_ends_file|]. intros r. eexists. split; [reflexivity|].
    destruct (returns_adj_line (fst (getline r))) as [Ho|Ho]; unfold good_outcome; auto.
  Qed.
  Lemma settles_exists fuel file v : ends_with_node (file_lines file) -> probes file <= fuel -> settles (pexists fuel file v).
  Proof.
    intros He Hf. unfold pexists. destruct (pfind_ends_file file v fuel He Hf) as (o & -> & Ho).
    destruct Ho as [[a ->]|[->|[->| ->]]]; eexists; (split; [reflexivity|]); unfold good_outcome, good_throw; eauto.
  Qed.
  Lemma ask_settles fuel file q : ends_with_node (file_lines file) -> probes file <= fuel ->
    exists x, computes fuel file (ask fuel file q) x /\ settles x.
  Proof.
    intros He Hf. pose proof (neighbors_computes fuel file) as Hn. pose proof (exists_computes fuel file) as Hx.
    pose proof (fun v => settles_neighbors fuel file v He Hf) as Sn. pose proof (fun v => settles_exists fuel file v He Hf) as Sx.
    destruct q; simpl; unfold d_neighbors_unweighted, d_degrees, d_degrees_unweighted, d_degree, d_degree_unweighted;
      (eexists; split;
       [repeat first [apply Hn | apply Hx | apply computes_ret | apply computes_map; intros ? | apply computes_bind | intros ?]
       |repeat first [apply Sn | apply Sx | apply settles_ok | apply settles_map; intros ? | apply settles_bind | intros ?]]).
  Qed.
  Theorem disk_terminates file fuel qs q : ends_with_node (file_lines file) -> probes file <= fuel ->
    exists st o st', after fuel file qs d_init = Some st /\ ask fuel file q st = Some (o, st') /\ good_outcome o.
  Proof.
    intros He Hf. assert (forall qs st, valid fuel file st -> exists st', after fuel file qs st = Some st' /\ valid fuel file st') as Ha.
    { clear qs. induction qs as [|q' qs IH]; intros st Hv; simpl; [eauto|].
      destruct (ask_settles fuel file q' He Hf) as (x & Hc & o & Ex & _). specialize (Hc st Hv).
      destruct (ask fuel file q' st) as [[o' st']|]; [|congruence]. apply IH. apply Hc. }
    destruct (Ha qs d_init (valid_init fuel file)) as (st & E & Hv).
    destruct (ask_settles fuel file q He Hf) as (x & Hc & o & Ex & Ho). specialize (Hc st Hv).
    destruct (ask fuel file q st) as [[o' st']|] eqn:Ea; [|congruence]. destruct Hc as [Hc _]. rewrite Ex in Hc. injection Hc as <-.
    exists st, o, st'. split; [exact E|]. split; [exact Ea|exact Ho].
  Qed.
End Top.

Section Saved.
  Context {W : Type} `{Num W} `{!PosNum W} `{!TextNum W}.
  Implicit Types (g : graph W).

  Lemma save_nodes_last g vs v ls : save_nodes g (vs ++ [v]) = Ok ls ->
    exists ls' es, ls = ls' ++ [show_node (Z.of_nat v) es].
  Proof.
    revert ls. induction vs as [|x vs IH]; intros ls; simpl.
    - destruct (neighbors g (Z.of_nat v)); simpl; try discriminate. injection 1 as <-. exists [].
      eexists. reflexivity.
    - destruct (neighbors g (Z.of_nat x)); simpl; try discriminate. destruct (save_nodes g (vs ++ [v])) as [l| |]; simpl; try discriminate.
      injection 1 as <-. destruct (IH l eq_refl) as (ls' & es & ->). eexists (_ :: ls'), es. reflexivity.
  Qed.
  Lemma save_nodes_lines g vs ls : save_nodes g vs = Ok ls -> forall l, In l ls -> exists v es, l = show_node (Z.of_nat v) es.
  Proof.
    revert ls. induction vs as [|x vs IH]; intros ls; simpl.
    - injection 1 as <-. intros l [].
    - destruct (neighbors g (Z.of_nat x)); simpl; try discriminate. destruct (save_nodes g vs) as [ls'| |]; simpl; try discriminate.
      injection 1 as <-. intros l [<-|Hin]; eauto.
  Qed.
  Lemma show_node_content v (es : list (Z * W)) : ~ comment_or_blank (show_node (Z.of_nat v) es).
  Proof.
    assert (0 <= Z.of_nat v)%Z as Hv by lia. pose proof (show_Z_free _ Hv) as Hf. pose proof (show_Z_ne _ Hv) as Hn. unfold show_node.
    destruct (show_Z (Z.of_nat v)) as [|c r]; [congruence|]. apply free_of_cons in Hf. destruct Hf as [Hc _].
    intros [E|(c' & r' & E & Hc')]; [discriminate|]. simpl in E. injection E as <- _. apply Hc. simpl. destruct Hc' as [->| ->]; auto.
  Qed.
  Lemma header_no_colon g l : In l (adj_header g) -> ~ In ":" l.
  Proof.
    assert (forall n, ~ In ":" (show_nat n)) as Hs.
    { intros n Hin. apply (show_Z_free (Z.of_nat n) ltac:(lia) _ Hin). simpl. tauto. }
    assert (forall s : string, existsb (fun c => c =? ":") (txt s) = false -> ~ In ":" (txt s)) as Hb.
    { intros s E Hin. assert (existsb (fun c => c =? ":") (txt s) = true); [|congruence]. apply existsb_exists. exists ":". split; auto. }
    unfold adj_header, header1, header2, header3. cbn [In]. intros [<-|[<-|[<-|[<-|[<-|[<-|[<-|[]]]]]]]]; try (apply Hb; vm_compute; reflexivity).
    - intros Hc. apply in_app_or in Hc. destruct Hc as [Hc|Hc]; [|now apply Hs in Hc]. revert Hc. apply Hb. vm_compute. reflexivity.
    - intros Hc. apply in_app_or in Hc. destruct Hc as [Hc|Hc]; [|now apply Hs in Hc]. revert Hc. apply Hb. vm_compute. reflexivity.
  Qed.
  Lemma saved_searchable g : reachable g -> weights_above_eps g -> int_ids g -> printable_weights g -> 0 < number_of_vertices g ->
    exists f, save_adjacencylist g = Ok f /\ searchable f (columns g (seq 0 (number_of_vertices g))).
  Proof.
    intros Hr Ha Hi Hp Hn. destruct (save_nodes_ok g (seq 0 (number_of_vertices g)) Hr Ha Hi Hp) as (ls & E & Ht & Hl).
    { intros v Hv. apply in_seq in Hv. lia. }
    unfold save_adjacencylist. rewrite E. cbn [obind]. eexists. split; [reflexivity|].
    destruct (adj_header_text g) as [H1 H2]. unfold searchable. rewrite file_put_lines by (apply Forall_app; auto).
    repeat split.
    - change (columns g (seq 0 (number_of_vertices g))) with ([] ++ columns g (seq 0 (number_of_vertices g))).
      now apply adjlist_text_app.
    - unfold columns. rewrite map_map. cbn [fst]. rewrite map_id. clear. generalize 0. generalize (number_of_vertices g).
      induction n as [|n IH]; intros k; simpl; constructor; auto. apply Forall_forall. intros x Hx. apply in_seq in Hx. lia.
    - right. replace (number_of_vertices g) with (S (number_of_vertices g - 1)) in E by lia. rewrite seq_S in E.
      apply save_nodes_last in E. destruct E as (ls' & es & ->). rewrite app_assoc, last_last. unfold show_node. apply in_or_app. right. now left.
    - intros l Hin Hcb. apply in_app_or in Hin. destruct Hin as [Hin|Hin]; [now apply (header_no_colon g)|]. exfalso.
      destruct (save_nodes_lines g _ _ E l Hin) as (v & es & ->). now apply show_node_content in Hcb.
  Qed.

  Lemma column_sorted g v : reachable g -> sort_arcs (map (fun n => (v, fst n, snd n)) (sp_col (g_adj g) v)) = map (fun n => (v, fst n, snd n)) (sp_col (g_adj g) v).
  Proof.
    intros Hr. destruct (reachable_ok g Hr) as [(R & C & Hwf) _]. apply sort_arcs_sorted. rewrite map_map. unfold tgt. cbn [fst snd].
    apply (sp_wf_col _ v Hwf).
  Qed.

  (** ** C45 *)
  Definition zedge_of (e : edge W) : zedge W := (Z.of_nat (v1 e), Z.of_nat (v2 e), ewt e).
  Lemma saved_neighbors g f fuel v : reachable g -> weights_above_eps g ->
    searchable f (columns g (seq 0 (number_of_vertices g))) -> probes f <= fuel -> v < number_of_vertices g ->
    exists es, neighbors g (Z.of_nat v) = Ok es /\ pneighbors fuel f (Z.of_nat v) = Some (Ok (map zedge_of es)) /\
      es = map (fun e => mkEdge v (fst e) (snd e)) (sp_col (g_adj g) v).
  Proof.
    intros Hr Ha Hsr Hf Hv. eexists. split; [now apply neighbors_column|]. split; [|reflexivity].
    rewrite (pneighbors_present fuel f _ v (sp_col (g_adj g) v) Hsr Hf).
    - rewrite column_sorted by auto. do 2 f_equal. rewrite !map_map. apply map_ext. intros [b w]. reflexivity.
    - unfold columns. apply in_map_iff. exists v. split; auto. apply in_seq. lia.
  Qed.
  Theorem disk_agrees g : reachable g -> weights_above_eps g -> int_ids g -> printable_weights g -> 0 < number_of_vertices g ->
    exists f, save_adjacencylist g = Ok f /\
    forall fuel qs st, probes f <= fuel -> after fuel f qs d_init = Some st ->
    (forall v, v < number_of_vertices g -> exists es ns k,
       neighbors g (Z.of_nat v) = Ok es /\ result (d_neighbors fuel f (Z.of_nat v) st) = Some (Ok (map zedge_of es)) /\
       neighbors_unweighted g (Z.of_nat v) = Ok ns /\ result (d_neighbors_unweighted fuel f (Z.of_nat v) st) = Some (Ok (map Z.of_nat ns)) /\
       degree_unweighted g (Z.of_nat v) = Ok k /\
       result (d_degree_unweighted fuel f (Z.of_nat v) st) = Some (Ok (Z.of_nat (k - if weqb (weight g v v) w0 then 0 else 1)))) /\
    (forall v, v <> (-1)%Z -> result (d_vertex_exists fuel f v st) = Some (Ok (vertex_exists g v))) /\
    (forall v, v <> (-1)%Z -> vertex_exists g v = false -> result (d_neighbors fuel f v st) = Some (Throw RuntimeError)).
  Proof.
    intros Hr Ha Hi Hp Hn. destruct (saved_searchable g Hr Ha Hi Hp Hn) as (f & Ef & Hsr). exists f. split; auto.
    intros fuel qs st Hf Haf. pose proof (after_valid _ _ _ _ _ (valid_init fuel f) Haf) as Hval.
    assert (forall v u, In u (map fst (columns g (seq 0 (number_of_vertices g)))) -> vertex_exists g v = false -> v <> Z.of_nat u) as Hnot.
    { intros v u Hin Hv E. subst v. unfold columns in Hin. rewrite map_map in Hin. cbn [fst] in Hin. rewrite map_id in Hin. apply in_seq in Hin.
      unfold vertex_exists, number_of_vertices in *. destruct (Z.leb_spec 0 (Z.of_nat u)), (Z.ltb_spec (Z.of_nat u) (Z.of_nat (g_n g))); simpl in Hv; try lia; discriminate. }
    split; [|split].
    - intros v Hv. destruct (saved_neighbors g f fuel v Hr Ha Hsr Hf Hv) as (es & E1 & E2 & Ees).
      destruct (unweighted_agree g v Hr) as (es' & E1' & E3 & E4); auto.
      { intros i j y G. apply pn_nz. eapply Ha; eauto. }
      rewrite E1 in E1'. injection E1' as <-. exists es, (map v2 es), (List.length es + if weqb (weight g v v) w0 then 0 else 1).
      repeat split; auto.
      + rewrite (computes_result _ _ _ _ _ (neighbors_computes fuel f (Z.of_nat v)) Hval). exact E2.
      + unfold d_neighbors_unweighted.
        rewrite (computes_result _ _ _ _ _ (computes_bind fuel f _ _ _ _ (neighbors_computes fuel f (Z.of_nat v)) (fun a => computes_ret fuel f _)) Hval).
        rewrite E2. simpl. do 2 f_equal. rewrite !map_map. reflexivity.
      + unfold d_degree_unweighted.
        rewrite (computes_result _ _ _ _ _ (computes_bind fuel f _ _ _ _ (neighbors_computes fuel f (Z.of_nat v)) (fun a => computes_ret fuel f _)) Hval).
        rewrite E2. simpl. do 2 f_equal. rewrite map_length. lia.
    - intros v Hv. destruct (vertex_exists g v) eqn:Ev.
      + assert (0 <= v < Z.of_nat (number_of_vertices g))%Z as Hb.
        { unfold vertex_exists in Ev. apply andb_prop in Ev. destruct Ev as [E1 E2]. apply Z.leb_le in E1. apply Z.ltb_lt in E2. exact (conj E1 E2). }
        replace v with (Z.of_nat (Z.to_nat v)) by lia. eapply disk_present; eauto. unfold columns. rewrite map_map. cbn [fst]. rewrite map_id.
        apply in_seq. lia.
      + eapply disk_absent; eauto.
    - intros v Hv Ev. eapply disk_absent; eauto.
  Qed.
End Saved.

Section SavedExact.
  Context {W : Type} `{Num W} `{!ExactNum W} `{!TextNum W}.
  Implicit Types (g : graph W).
  Lemma fold_degree v (c : list (nat * W)) acc :
    toR (fold_left (fun d '(_, b, w) => if (b =? Z.of_nat v)%Z then wadd d (wmul (wadd w1 w1) w) else wadd d w)
           (map zedge_of (map (fun e => mkEdge v (fst e) (snd e)) c)) acc) =
    (toR acc + lsum (fun e => toR (snd e) + if Nat.eqb (fst e) v then toR (snd e) else 0) c)%R.
  Proof.
    revert acc. induction c as [|[b w] c IH]; intros acc; [simpl; lra|]. cbn [map fold_left zedge_of v1 v2 ewt lsum fst snd]. rewrite IH.
    destruct (Z.eqb_spec (Z.of_nat b) (Z.of_nat v)), (Nat.eqb_spec b v); try lia; rewrite ?toR_add, ?toR_mul, ?toR_add, ?toR_1; lra.
  Qed.
  Theorem disk_degree g : reachable g -> weights_above_eps g -> int_ids g -> printable_weights g -> 0 < number_of_vertices g ->
    exists f, save_adjacencylist g = Ok f /\
    forall fuel qs st, probes f <= fuel -> after fuel f qs d_init = Some st ->
    forall v, v < number_of_vertices g -> exists d, snd (degree g (Z.of_nat v)) = Ok d /\ result (d_degree fuel f (Z.of_nat v) st) = Some (Ok d).
  Proof.
    intros Hr Ha Hi Hp Hn. destruct (saved_searchable g Hr Ha Hi Hp Hn) as (f & Ef & Hsr). exists f. split; auto.
    intros fuel qs st Hf Haf v Hv. pose proof (after_valid _ _ _ _ _ (valid_init fuel f) Haf) as Hval.
    destruct (saved_neighbors g f fuel v Hr Ha Hsr Hf Hv) as (es & E1 & E2 & Ees).
    destruct (degree_exact g v Hr Hv) as (d & Ed & Rd). exists d. split; auto. unfold d_degree.
    rewrite (computes_result _ _ _ _ _ (computes_bind fuel f _ _ _ _ (neighbors_computes fuel f (Z.of_nat v)) (fun a => computes_ret fuel f _)) Hval).
    rewrite E2. cbn [pbind]. do 2 f_equal. apply toR_inj. rewrite Rd, Ees, fold_degree, toR_0.
    destruct (reachable_ok g Hr) as [(R & C & Hwf) _].
    rewrite (col_lsum (sp_rows (g_adj g)) _ (fun b w => toR w + if Nat.eqb b v then toR w else 0)%R) by (apply (sp_wf_col _ v Hwf)).
    unfold rdeg. unfold number_of_vertices in *. rewrite R. rewrite <- (rsum_delta' (g_n g) v (fun u => rw g v u)) by auto.
    rewrite <- rsum_plus, Rplus_0_l. apply rsum_ext. intros u Hu. rewrite (rw_sym g v u Hr). unfold rw, weight, coeff, o0. fold (sp_get (g_adj g) u v).
    rewrite (Nat.eqb_sym v u). destruct (sp_get (g_adj g) u v); [reflexivity|]. rewrite toR_0. destruct (Nat.eqb u v); lra.
  Qed.
End SavedExact.
