(** Conversions between edge lists and adjacency lists on disk (C38-C40). *)
From Verif Require Import Base Num Sparse SparseFacts Graph GraphFacts GraphSpec GraphProps1 GraphProps2 GraphProps4 Cluster ClusterSweep
  Text TextFacts GraphIO IOSpec GraphIOFacts GraphIOLoad GraphIOAdj GraphIOSort.
From Coq Require Import Ascii String List Sorting.Sorted Permutation.
Import ListNotations.
Local Open Scope nat_scope.
Local Open Scope char_scope.
Local Open Scope list_scope.

Section Copy.
  Context {W : Type} `{Num W} `{!TextNum W}.

  Lemma edge_text_int l u v (w : W) : edge_text l u v w -> (Z.of_nat u <= 2147483647)%Z /\ (Z.of_nat v <= 2147483647)%Z.
  Proof.
    assert (forall a n, stoi a = Ok (Z.of_nat n) -> (Z.of_nat n <= 2147483647)%Z) as Hs.
    { intros a n E. destruct (stoi_cases a) as [(z & Ez & Hz)|[Ez|Ez]]; rewrite E in Ez; try discriminate. injection Ez as <-. lia. }
    intros [d a b _ _ _ Ea Eb _|d a b c _ _ _ Ea Eb _]; eauto.
  Qed.

  (** Only the weights which get printed must be printable. *)
  Lemma copy_dup_spec ls es : edgelist_text ls es -> Forall one_line ls -> (forall u v w, In (u, v, w) es -> printable w) ->
    exists out, copy_dup_lines (W := W) ls = Ok out /\ both_directions (W := W) ls out /\
      edgelist_text out (reversed_too es) /\ Forall one_line out.
  Proof.
    induction 1 as [|l ls es Hc Ht IH|l ls u v w es Hc He Ht IH]; intros Ho Hp; cbn [copy_dup_lines].
    - exists []. repeat split; constructor.
    - apply Forall_cons_iff in Ho. destruct Ho as [Hl Ho]. destruct (IH Ho Hp) as (out & E & B & T & O).
      apply is_content_iff in Hc as Ec. rewrite Ec, E. cbn [obind]. exists (l :: out). repeat split; try (constructor; auto).
    - apply Forall_cons_iff in Ho. destruct Ho as [Hl Ho].
      destruct (IH Ho) as (out & E & B & T & O); [intros; eapply Hp; right; eassumption|].
      apply is_content_true in Hc as Ec. rewrite Ec, (parse_edge_ok _ _ _ _ He), E. cbn [rethrow obind].
      destruct (edge_text_int _ _ _ _ He) as [Hu Hv]. specialize (Hp u v w (or_introl eq_refl)).
      destruct (show_edge_text u v w Hu Hv Hp) as (T1 & O1 & N1). destruct (show_edge_text v u w Hv Hu Hp) as (T2 & O2 & N2).
      exists (show_edge (Z.of_nat u) (Z.of_nat v) w :: show_edge (Z.of_nat v) (Z.of_nat u) w :: out). split; [reflexivity|]. split.
      + eapply bd_edge; eauto.
      + split; [cbn [reversed_too flat_map app]; apply el_edge; auto; apply el_edge; auto|]. constructor; auto.
  Qed.
  Lemma copy_dup_app ls : copy_dup_lines (W := W) (ls ++ [[]]) = (do out <- copy_dup_lines ls; Ok (out ++ [[]])).
  Proof.
    induction ls as [|l ls IH]; [reflexivity|]. cbn [app copy_dup_lines]. destruct (is_content l).
    - destruct (rethrow (parse_edge_line l)) as [[[u v] w]| |]; cbn [obind]; auto. rewrite IH.
      destruct (copy_dup_lines ls); reflexivity.
    - rewrite IH. destruct (copy_dup_lines ls); reflexivity.
  Qed.
  (** C38. *)
  Theorem copy_edgelist_spec file es : edgelist_text (file_lines file) es -> (forall u v w, In (u, v, w) es -> printable w) ->
    exists out ls, copy_edgelist_duplicate_edges file = Ok out /\
      both_directions (W := W) (file_lines file) ls /\ file_lines out = ls ++ [[]] /\ edgelist_text ls (reversed_too es).
  Proof.
    intros Ht Hp. destruct (copy_dup_spec _ _ Ht (file_lines_one_line file) Hp) as (ls & E & B & T & O).
    exists (put_lines (ls ++ [[]])), ls. unfold copy_edgelist_duplicate_edges. rewrite read_lines_file, copy_dup_app, E. cbn [obind].
    repeat split; auto. apply file_put_lines. apply Forall_app. split; auto. constructor; [apply free_of_nil|constructor].
  Qed.

  (** ** From edges to node lines *)
  Fixpoint group (es : list (nat * nat * W)) : list (nat * list (nat * W)) :=
    match es with
    | [] => []
    | (u, v, w) :: r =>
      match group r with
      | (u', nb) :: gs => if (u =? u')%nat then (u, (v, w) :: nb) :: gs else (u, [(v, w)]) :: (u', nb) :: gs
      | [] => [(u, [(v, w)])]
      end
    end.
  Definition first (e : nat * nat * W) : nat := fst (fst e).
  Definition ascending (es : list (nat * nat * W)) : Prop := StronglySorted (fun a b => first a <= first b) es.

  Lemma arcs_group es : arcs (group es) = es.
  Proof.
    induction es as [|[[u v] w] es IH]; [reflexivity|]. cbn [group]. rewrite <- IH at 2.
    destruct (group es) as [|[u' nb] gs]; [reflexivity|]. destruct (Nat.eqb_spec u u') as [->|]; reflexivity.
  Qed.
  Lemma group_head e es : exists nb gs, group (e :: es) = (first e, nb) :: gs.
  Proof.
    destruct e as [[u v] w]. cbn [group]. destruct (group es) as [|[u' nb] gs]; [eauto|]. destruct (Nat.eqb u u'); eauto.
  Qed.
  Lemma group_ascending es : ascending es -> StronglySorted lt (map fst (group es)).
  Proof.
    induction 1 as [|[[u v] w] es Hs IH Hf]; [constructor|]. cbn [group].
    destruct es as [|e es]; [cbn [group map]; repeat constructor|].
    apply Forall_cons_iff in Hf. destruct Hf as [Hle _]. destruct (group_head e es) as (nb & gs & E). rewrite E in *. cbn [map fst] in *.
    destruct (Nat.eqb_spec u (first e)) as [->|Hne]; [exact IH|]. cbn [map fst]. constructor; [exact IH|].
    cbn [first fst] in Hle. inversion IH; subst. constructor; [unfold first in *; simpl in *; lia|].
    eapply Forall_impl; [|eassumption]. intros x Hx. unfold first in *. simpl in *. lia.
  Qed.

  Definition znb (nb : list (nat * W)) : list (Z * W) := map (fun e => (Z.of_nat (fst e), snd e)) nb.
  Definition node_line (n : nat * list (nat * W)) : text := show_node (Z.of_nat (fst n)) (znb (snd n)).
  Lemma node_line_eq a nb : node_line (a, nb) = show_Z (Z.of_nat a) ++ [":"] ++ show_nbrs (znb nb).
  Proof. reflexivity. Qed.
  (** What the conversion writes for the edges, after node [cur]. *)
  Fixpoint emit (cur : Z) (es : list (nat * nat * W)) : text :=
    match es with
    | [] => []
    | (u, v, w) :: r =>
      (if (cur <? Z.of_nat u)%Z then LF :: show_Z (Z.of_nat u) ++ [":"] else []) ++ show_nbrs [(Z.of_nat v, w)] ++
      emit (if (cur <? Z.of_nat u)%Z then Z.of_nat u else cur) r
    end.
  Lemma show_nbrs_cons v (w : W) nb : show_nbrs ((v, w) :: nb) = show_nbrs [(v, w)] ++ show_nbrs nb.
  Proof. unfold show_nbrs. cbn [map concat]. now rewrite app_nil_r. Qed.
  Lemma emit_cur u es : Forall (fun e => u <= first e) es -> ascending es ->
    emit (Z.of_nat u) es =
    match group es with
    | (u', nb) :: gs => if (u =? u')%nat then show_nbrs (znb nb) ++ concat (map (fun n => LF :: node_line n) gs)
                        else concat (map (fun n => LF :: node_line n) (group es))
    | [] => []
    end.
  Proof.
    revert u. induction es as [|[[a v] w] es IH]; intros u Hf Hs; [reflexivity|].
    apply Forall_cons_iff in Hf. destruct Hf as [Hle Hf]. unfold first in Hle. cbn [fst] in Hle.
    inversion Hs as [|? ? Hs' Hf']; subst.
    assert (Forall (fun e => a <= first e) es) as Hfa by (eapply Forall_impl; [|exact Hf']; intros x; unfold first; simpl; auto).
    cbn [emit]. specialize (IH a Hfa Hs').
    assert (show_nbrs [(Z.of_nat v, w)] ++ emit (Z.of_nat a) es =
            match group ((a, v, w) :: es) with (_, nb) :: gs => show_nbrs (znb nb) ++ concat (map (fun n => LF :: node_line n) gs) | [] => [] end) as E.
    { rewrite IH. cbn [group]. destruct (group es) as [|[a' nb] gs]; [cbn [znb map concat fst snd]; reflexivity|].
      destruct (Nat.eqb_spec a a') as [<-|].
      - cbn [znb map fst snd]. fold (znb nb). rewrite (show_nbrs_cons _ _ (znb nb)), <- app_assoc. reflexivity.
      - cbn [znb map fst snd]. reflexivity. }
    destruct (group_head (a, v, w) es) as (nb & gs & Eg). rewrite Eg in *. unfold first in *. cbn [fst] in *.
    destruct (Nat.eqb_spec u a) as [->|Hne].
    - rewrite Z.ltb_irrefl. cbn [app]. exact E.
    - destruct (Z.ltb_spec (Z.of_nat u) (Z.of_nat a)); [|lia]. rewrite E. cbn [map concat].
      rewrite (node_line_eq a nb). cbn [app]. rewrite <- !app_assoc. reflexivity.
  Qed.
  Lemma emit_start es : ascending es -> emit (-1) es = concat (map (fun n => LF :: node_line n) (group es)).
  Proof.
    intros Hs. destruct es as [|[[u v] w] es]; [reflexivity|]. cbn [emit].
    destruct (Z.ltb_spec (-1) (Z.of_nat u)); [|lia].
    assert (emit (Z.of_nat u) ((u, v, w) :: es) = show_nbrs [(Z.of_nat v, w)] ++ emit (Z.of_nat u) es) as E.
    { cbn [emit]. rewrite Z.ltb_irrefl. reflexivity. }
    rewrite <- E, emit_cur; auto.
    2:{ inversion Hs; subst. constructor; [unfold first; simpl; lia|]. eapply Forall_impl; [|eassumption]. unfold first. simpl. auto. }
    destruct (group_head (u, v, w) es) as (nb & gs & Eg). rewrite Eg. unfold first. cbn [fst]. rewrite Nat.eqb_refl.
    cbn [map concat]. rewrite (node_line_eq u nb). cbn [app]. rewrite <- !app_assoc. reflexivity.
  Qed.

  Lemma el_to_adj_hdr hdr ls : no_content hdr -> forall cur,
    el_to_adj (W := W) (hdr ++ ls) false cur = (do r <- el_to_adj ls false cur; Ok (put_lines hdr ++ r)).
  Proof.
    intros Hh cur. induction Hh as [|l hdr Hl Hh IH]; cbn [app el_to_adj].
    - unfold put_lines. simpl. now destruct (el_to_adj ls false cur).
    - rewrite Hl, IH. destruct (el_to_adj ls false cur); cbn [obind]; auto. rewrite put_lines_cons. unfold put_line.
      rewrite <- !app_assoc. reflexivity.
  Qed.
  Lemma el_to_adj_skip ls cur : no_content ls -> el_to_adj (W := W) ls true cur = Ok [].
  Proof. induction 1 as [|l ls Hl Hh IH]; cbn [el_to_adj]; auto. now rewrite Hl. Qed.
  Lemma el_to_adj_edges C es b : edgelist_text C es -> all_content (W := W) C -> no_content b -> forall wc cur, (wc = true \/ es <> []) ->
    el_to_adj (W := W) (C ++ b) wc cur = Ok (emit cur es).
  Proof.
    induction 1 as [|l ls es Hc Ht IH|l ls u v w es Hc He Ht IH]; intros Ha Hb wc cur Hw; cbn [app el_to_adj].
    - destruct Hw as [->|Hw]; [|congruence]. now apply el_to_adj_skip.
    - apply Forall_cons_iff in Ha. destruct Ha as [[Hl _] _]. apply is_content_iff in Hc. congruence.
    - apply is_content_true in Hc as Ec. apply Forall_cons_iff in Ha. destruct Ha as [_ Ha]. rewrite Ec, (parse_edge_ok _ _ _ _ He). cbn [rethrow obind].
      rewrite IH by auto. cbn [obind emit]. reflexivity.
  Qed.

  (** ** Lines and the edges they name *)
  Definition edge_of (l : text) : nat * nat * W :=
    match parse_edge_line l with Ok (u, v, w) => (Z.to_nat u, Z.to_nat v, w) | _ => (0, 0, w1) end.
  Lemma edge_of_text l u v w : edge_text l u v w -> edge_of l = (u, v, w).
  Proof. intros He. unfold edge_of. rewrite (parse_edge_ok _ _ _ _ He). now rewrite !Nat2Z.id. Qed.
  Lemma edgelist_text_contents ls es : edgelist_text ls es -> es = map edge_of (contents ls) /\ Forall (fun l => edge_text l (first (edge_of l)) (snd (fst (edge_of l))) (snd (edge_of l))) (contents ls).
  Proof.
    induction 1 as [|l ls es Hc Ht [IH1 IH2]|l ls u v w es Hc He Ht [IH1 IH2]]; cbn [contents filter].
    - split; [reflexivity|constructor].
    - apply is_content_iff in Hc. rewrite Hc. auto.
    - apply is_content_true in Hc. rewrite Hc. cbn [map]. fold (contents ls). rewrite (edge_of_text _ _ _ _ He). split; [now rewrite IH1|].
      constructor; auto. rewrite (edge_of_text _ _ _ _ He). exact He.
  Qed.
  Lemma edgelist_of_lines C : Forall (fun l => is_content l = true /\ edge_text l (first (edge_of l)) (snd (fst (edge_of l))) (snd (edge_of l))) C ->
    edgelist_text C (map edge_of C).
  Proof.
    induction 1 as [|l C [Hc He] Hf IH]; cbn [map]; [constructor|]. destruct (edge_of l) as [[u v] w] eqn:E.
    apply el_edge; auto; now apply is_content_true.
  Qed.
  Lemma first_id_edge l u v w : edge_text l u v w -> first_id (W := W) l = Z.of_nat u.
  Proof. intros He. unfold first_id. now rewrite (parse_edge_ok _ _ _ _ He). Qed.

  Lemma same_by_id_In a b l : same_by_id (W := W) a b -> In l a -> In l b.
  Proof.
    intros Hs Hl. assert (In l (filter (fun x => (first_id (W := W) x =? first_id (W := W) l)%Z) a)) as Hin.
    { apply filter_In. split; auto. apply Z.eqb_refl. }
    rewrite Hs in Hin. apply filter_In in Hin. tauto.
  Qed.
  Lemma same_by_id_sym a b : same_by_id (W := W) a b -> same_by_id (W := W) b a.
  Proof. intros Hs k. symmetry. apply Hs. Qed.
  Lemma tvals_same_by_id a b u v :
    Forall (fun l => first_id (W := W) l = Z.of_nat (first (edge_of l))) a -> Forall (fun l => first_id (W := W) l = Z.of_nat (first (edge_of l))) b ->
    same_by_id (W := W) a b -> tvals (map edge_of a) u v = tvals (map edge_of b) u v.
  Proof.
    intros Ha Hb Hs.
    assert (forall l, Forall (fun l => first_id (W := W) l = Z.of_nat (first (edge_of l))) l ->
      tvals (map edge_of l) u v = tvals (map edge_of (filter (fun x => (first_id (W := W) x =? Z.of_nat u)%Z) l)) u v) as Hg.
    { induction 1 as [|x l Hx Hl IH]; [reflexivity|]. cbn [filter]. unfold tvals in *. cbn [map filter].
      rewrite Hx. unfold first at 1. destruct (Nat.eqb_spec (fst (fst (edge_of x))) u) as [E|E].
      - rewrite E. rewrite Z.eqb_refl. cbn [andb map filter]. rewrite E, Nat.eqb_refl. cbn [andb].
        destruct (Nat.eqb (snd (fst (edge_of x))) v); cbn [map]; now rewrite IH.
      - destruct (Z.eqb_spec (Z.of_nat (fst (fst (edge_of x)))) (Z.of_nat u)); [lia|]. cbn [andb]. exact IH. }
    rewrite (Hg a Ha), (Hg b Hb). now rewrite Hs.
  Qed.

  Lemma vertex_count_le (es : list (nat * nat * W)) n : vertex_count es <= n <-> forall a b w, In (a, b, w) es -> a < n /\ b < n.
  Proof.
    induction es as [|[[u v] w] es IH]; [simpl; split; [intros _ a b w []|lia]|].
    rewrite vertex_count_cons. split.
    - intros Hle a b x [[= -> -> ->]|Hin]; [lia|]. apply IH with (w := x); auto. lia.
    - intros Hall. destruct (Hall u v w (or_introl eq_refl)). assert (vertex_count es <= n); [|lia].
      apply IH. intros a b x Hin. apply (Hall a b x). now right.
  Qed.
  Lemma vertex_count_In (a b : list (nat * nat * W)) : (forall e, In e a <-> In e b) -> vertex_count a = vertex_count b.
  Proof.
    intros Hi. apply Nat.le_antisymm; apply vertex_count_le; intros u v w Hin; eapply vertex_count_lt; apply Hi; exact Hin.
  Qed.
  Lemma vertex_count_reversed (es : list (nat * nat * W)) : vertex_count (reversed_too es) = vertex_count es.
  Proof.
    induction es as [|[[u v] w] es IH]; [reflexivity|]. unfold reversed_too. cbn [flat_map app]. fold (reversed_too es).
    rewrite !vertex_count_cons, IH. lia.
  Qed.

  (** Reading back node lines written after the header. *)
  Lemma file_node_lines hdr ns : Forall one_line hdr -> Forall one_line (map node_line ns) -> (forall n, In n ns -> node_line n <> []) ->
    file_lines (put_lines hdr ++ concat (map (fun n => LF :: node_line n) ns)) =
    hdr ++ match ns with [] => [] | _ => [] :: map node_line ns end.
  Proof.
    intros Hh Hn Hne. destruct ns as [|n0 ns]; [simpl; rewrite !app_nil_r; now apply file_put_lines|].
    assert (exists pre lst, map node_line (n0 :: ns) = pre ++ [lst]) as (pre & lst & E).
    { destruct (exists_last (l := map node_line (n0 :: ns))) as (pre & lst & E); [discriminate|eauto]. }
    assert (forall (l : list (nat * list (nat * W))) pre lst, map node_line l = pre ++ [lst] ->
       concat (map (fun n => LF :: node_line n) l) = put_lines ([] :: pre) ++ lst) as Hc.
    { clear. intros l. induction l as [|n l IH]; intros pre lst E; [destruct pre; discriminate|].
      cbn [map concat]. destruct pre as [|p pre]; cbn [app] in E.
      - injection E as E1 E2. rewrite E1. destruct l; [|discriminate]. cbn [map concat]. rewrite app_nil_r. reflexivity.
      - injection E as E1 E2. rewrite E1, (IH _ _ E2). cbn [app]. rewrite put_lines_cons, put_lines_cons. cbn [app].
        rewrite put_lines_cons. cbn [app]. rewrite <- app_assoc. reflexivity. }
    rewrite (Hc _ _ _ E), app_assoc, <- put_lines_app.
    assert (Forall one_line (hdr ++ [] :: pre) /\ one_line lst) as [H1 H2].
    { rewrite E in Hn. apply Forall_app in Hn. destruct Hn as [H1 H2]. inversion H2; subst. split; auto.
      apply Forall_app. split; auto. constructor; auto. apply free_of_nil. }
    assert (lst <> []) as H3.
    { assert (In lst (map node_line (n0 :: ns))) as Hin by (rewrite E; apply in_or_app; right; simpl; auto).
      apply in_map_iff in Hin. destruct Hin as (n & <- & Hin). apply Hne. exact Hin. }
    assert (put_lines (hdr ++ [] :: pre) = render (map (fun l => (l, ELF)) (hdr ++ [] :: pre))) as Er.
    { unfold put_lines, render. rewrite map_map. reflexivity. }
    unfold file_lines. rewrite Er, read_render; auto using unambiguous_uniform.
    2:{ apply Forall_map. exact H1. }
    rewrite map_map. cbn [fst]. rewrite map_id. destruct lst as [|c lst]; [congruence|].
    change [c :: lst; []] with ([c :: lst] ++ [[]]). rewrite app_assoc, removelast_last. rewrite E.
    rewrite <- app_assoc. reflexivity.
  Qed.

  (** C39: the node lines name exactly the edges of the file, in both directions. *)
  Theorem edgelist_to_adjacencylist_text file es :
    edgelist_text (file_lines file) es -> (forall u v w, In (u, v, w) es -> printable w) ->
    exists out ns, (forall fuel, 2 * List.length (file_lines file) + 1 < fuel -> edgelist_to_adjacencylist fuel file = Some (Ok out)) /\
      adjlist_text (file_lines out) ns /\ StronglySorted lt (map fst ns) /\
      vertex_count (arcs ns) = vertex_count es /\
      (forall e, In e (arcs ns) <-> In e (reversed_too es)) /\
      (forall u v, weights_on_lines ns u v = tvals (reversed_too es) u v) /\
      (es <> [] -> exists hdr, file_lines out = hdr ++ [] :: map node_line ns /\
         (forall l, In l hdr -> comment_or_blank l /\ (l = [] \/ In l (file_lines file))) /\ ns <> [] /\
         (forall n, In n ns -> ~ comment_or_blank (node_line n))).
  Proof.
    intros Ht Hp. destruct (copy_edgelist_spec file es Ht Hp) as (tmp & ls & Ecopy & B & Etmp & Tls).
    assert (edgelist_text (file_lines tmp) (reversed_too es)) as Ttmp.
    { rewrite Etmp. rewrite <- (app_nil_r (reversed_too es)). apply edgelist_text_app; auto. constructor; [now left|constructor]. }
    destruct (sort_edgelist_spec tmp _ (edge_lines_ok _ _ Ttmp)) as (C & k & Hsort & Hsame & Hrun).
    set (hdr := lead (file_lines tmp)) in *. set (cs := contents (file_lines tmp)) in *.
    destruct (edgelist_text_contents _ _ Ttmp) as [Ees Hes]. fold cs in Ees, Hes.
    assert (Forall (fun l => is_content l = true /\ edge_text l (first (edge_of l)) (snd (fst (edge_of l))) (snd (edge_of l))) C) as HC.
    { apply Forall_forall. intros l Hl. apply (same_by_id_In _ _ _ Hsame) in Hl. rewrite Forall_forall in Hes. split; auto.
      unfold cs, contents in Hl. apply filter_In in Hl. tauto. }
    pose proof (edgelist_of_lines C HC) as TC. set (es' := map edge_of C) in *.
    assert (forall l, edge_text l (first (edge_of l)) (snd (fst (edge_of l))) (snd (edge_of l)) -> first_id (W := W) l = Z.of_nat (first (edge_of l))) as Hfi.
    { intros l He. exact (first_id_edge _ _ _ _ He). }
    assert (Forall (fun l => first_id (W := W) l = Z.of_nat (first (edge_of l))) C) as HfC.
    { eapply Forall_impl; [|exact HC]. simpl. intros l [_ He]. auto. }
    assert (Forall (fun l => first_id (W := W) l = Z.of_nat (first (edge_of l))) cs) as Hfcs.
    { eapply Forall_impl; [|exact Hes]. simpl. auto. }
    assert (ascending es') as Hasc.
    { unfold ascending, es'. clear -Hsort HfC. induction Hsort as [|l C Hs IH Hf]; cbn [map]; constructor.
      - apply IH. now apply Forall_cons_iff in HfC.
      - apply Forall_cons_iff in HfC. destruct HfC as [El HfC]. apply Forall_map. rewrite Forall_forall in *.
        intros x Hx. specialize (Hf x Hx). simpl in Hf. rewrite El, (HfC x Hx) in Hf. lia. }
    assert (forall e, In e es' <-> In e (reversed_too es)) as HIn.
    { intros e. rewrite Ees. unfold es'. rewrite !in_map_iff. split; intros (l & E & Hl); exists l; split; auto.
      - eapply same_by_id_In; eauto.
      - eapply same_by_id_In; [apply same_by_id_sym; eauto|auto]. }
    assert (forall u v, tvals es' u v = tvals (reversed_too es) u v) as Htv.
    { intros u v. rewrite Ees. apply tvals_same_by_id; auto. }
    assert (Forall one_line hdr) as Hoh.
    { apply Forall_forall. intros x Hx. pose proof (file_lines_one_line tmp) as Ho. rewrite Forall_forall in Ho. apply Ho. now apply lead_In. }
    set (ns := group es').
    assert (forall u v w, In (u, v, w) es' -> (Z.of_nat u <= 2147483647)%Z /\ (Z.of_nat v <= 2147483647)%Z /\ printable w) as Hok.
    { intros u v w Hin. split; [|split].
      - unfold es' in Hin. apply in_map_iff in Hin. destruct Hin as (l & E & Hl). rewrite Forall_forall in HC.
        destruct (HC l Hl) as [_ He]. rewrite E in He. unfold first in He. simpl in He. apply edge_text_int in He. tauto.
      - unfold es' in Hin. apply in_map_iff in Hin. destruct Hin as (l & E & Hl). rewrite Forall_forall in HC.
        destruct (HC l Hl) as [_ He]. rewrite E in He. unfold first in He. simpl in He. apply edge_text_int in He. tauto.
      - apply HIn in Hin. unfold reversed_too in Hin. apply in_flat_map in Hin. destruct Hin as ([[a b] x] & Hin & [[= -> -> ->]|[[= -> -> ->]|[]]]); eauto. }
    assert (forall n, In n ns -> adj_text (node_line n) (fst n) (snd n) /\ one_line (node_line n) /\ ~ comment_or_blank (node_line n)) as Hnode.
    { intros [a nb] Hn. cbn [fst snd].
      assert (forall v w, In (v, w) nb -> In (a, v, w) es') as Hnb.
      { intros v w Hv. unfold ns in Hn. rewrite <- (arcs_group es'). unfold arcs. apply in_flat_map. exists (a, nb). split; auto.
        apply in_map_iff. exists (v, w). auto. }
      assert (nb <> []) as Hne.
      { clear -Hn. unfold ns in Hn. revert a nb Hn. induction es' as [|[[u v] w] r IH]; intros a nb Hn; [destruct Hn|].
        cbn [group] in Hn. destruct (group r) as [|[u' nb'] gs]; [destruct Hn as [[= -> <-]|[]]; discriminate|].
        destruct (Nat.eqb u u').
        - destruct Hn as [[= -> <-]|Hn]; [discriminate|]. apply (IH a nb). now right.
        - destruct Hn as [[= -> <-]|Hn]; [discriminate|]. apply (IH a nb). exact Hn. }
      unfold node_line, znb. cbn [fst snd]. apply show_node_text.
      - destruct nb as [|[v w] nb]; [congruence|]. apply (Hok a v w). apply Hnb. now left.
      - intros v w Hv. destruct (Hok a v w (Hnb v w Hv)) as (_ & H2 & H3). auto. }
    assert (adjlist_text (map node_line ns) ns) as Tn.
    { clear -Hnode. induction ns as [|[a nb] ns IH]; cbn [map]; [constructor|]. destruct (Hnode (a, nb)) as (T & _ & N); [now left|].
      apply al_node; auto. apply IH. intros n Hn. apply Hnode. now right. }
    assert (Forall one_line (map node_line ns)) as On.
    { apply Forall_map, Forall_forall. intros n Hn. apply Hnode. auto. }
    assert (forall n, In n ns -> node_line n <> []) as Hnn.
    { intros n Hn E. destruct (Hnode n Hn) as (_ & _ & Hnc). apply Hnc. left. exact E. }
    assert (no_content (repeat ([] : text) k ++ [[]])) as Hblank.
    { apply Forall_app. split; [|constructor; [reflexivity|constructor]]. apply Forall_forall. intros x Hx. apply repeat_spec in Hx. now subst. }
    assert (exists hdr' , no_content hdr' /\ Forall one_line hdr' /\ (C <> [] -> hdr' = hdr) /\
      el_to_adj (W := W) (hdr ++ C ++ repeat [] k ++ [[]]) false (-1) = Ok (put_lines hdr' ++ emit (-1) es')) as (hdr' & Hh' & Ho' & Ehdr & Eout).
    { destruct C as [|l0 C0] eqn:EC.
      - exists (hdr ++ repeat [] k ++ [[]]). split; [apply Forall_app; split; [apply lead_nc|exact Hblank]|].
        split; [apply Forall_app; split; auto; apply Forall_app; split;
                [apply Forall_forall; intros x Hx; apply repeat_spec in Hx; subst; apply free_of_nil|constructor; [apply free_of_nil|constructor]]|].
        split; [congruence|]. cbn [app]. pose proof (el_to_adj_hdr (hdr ++ repeat [] k ++ [[]]) []) as E. rewrite app_nil_r in E. rewrite E.
        + cbn [el_to_adj obind]. reflexivity.
        + apply Forall_app; split; [apply lead_nc|exact Hblank].
      - exists hdr. split; [apply lead_nc|]. split; auto. split; auto. rewrite el_to_adj_hdr by apply lead_nc.
        rewrite (el_to_adj_edges (l0 :: C0) es'); auto.
        + eapply Forall_impl; [|exact HC]. simpl. intros l [Hc He]. split; auto. eexists. apply (parse_edge_ok _ _ _ _ He).
        + right. unfold es'. discriminate. }
    exists (put_lines hdr' ++ emit (-1) es'), ns. split; [|split; [|split; [|split; [|split; [|split]]]]].
    - intros fuel Hfuel. unfold edgelist_to_adjacencylist. rewrite Ecopy.
      assert (List.length (file_lines tmp) <= 2 * List.length (file_lines file) + 1) as Hlen.
      { rewrite Etmp, app_length. cbn [List.length].
        assert (List.length ls <= 2 * List.length (file_lines file)); [|lia]. clear -B. induction B; cbn [List.length]; lia. }
      destruct (Hrun fuel ltac:(lia)) as [Er Ef]. rewrite Er. f_equal. rewrite read_lines_file, Ef, <- !app_assoc. exact Eout.
    - rewrite emit_start by auto. fold ns. rewrite file_node_lines by auto.
      rewrite <- (app_nil_l ns). apply adjlist_text_app.
      { clear -Hh'. induction Hh' as [|l h Hl Hh IH]; constructor; auto. now apply is_content_iff. }
      cbn [app]. destruct ns; [constructor|]. constructor; [now left|exact Tn].
    - now apply group_ascending.
    - unfold ns. rewrite arcs_group, <- (vertex_count_reversed es). now apply vertex_count_In.
    - unfold ns. rewrite arcs_group. exact HIn.
    - intros u v. unfold weights_on_lines, ns. rewrite arcs_group. rewrite <- Htv. unfold tvals. f_equal.
      apply filter_ext. intros [[a b] w]. reflexivity.
    - intros Hne. assert (C <> []) as HCne.
      { destruct es as [|[[u v] w] es0]; [congruence|]. intros EC. specialize (HIn (u, v, w)). unfold es' in HIn. rewrite EC in HIn.
        destruct HIn as [_ HIn]. apply HIn. unfold reversed_too. cbn [flat_map]. now left. }
      assert (ns <> []) as Hns.
      { unfold ns. destruct C as [|l0 C0]; [congruence|]. unfold es'. cbn [map]. destruct (group_head (edge_of l0) (map edge_of C0)) as (nb & gs & ->). discriminate. }
      exists hdr. rewrite (Ehdr HCne). rewrite emit_start by auto. fold ns. rewrite file_node_lines by auto.
      split; [destruct ns; [congruence|reflexivity]|]. split; [|split; [auto|intros n Hn; now apply Hnode]].
      intros l Hl. assert (is_content l = false) as Hlc.
      { pose proof (lead_nc (file_lines tmp)) as Hnc. fold hdr in Hnc. unfold no_content in Hnc. rewrite Forall_forall in Hnc. now apply Hnc. }
      apply is_content_iff in Hlc. split; auto. apply lead_In in Hl. rewrite Etmp in Hl. apply in_app_or in Hl. destruct Hl as [Hl|[<-|[]]]; auto. right.
      clear -B Hl Hlc. induction B as [|l' ls' out Hc B IH|l' ls' l1 l2 u v w out Hc He Hc1 He1 Hc2 He2 B IH]; [destruct Hl| |].
      + destruct Hl as [->|Hl]; [now left|right; auto].
      + destruct Hl as [->|[->|Hl]]; [contradiction|contradiction|right; auto].
  Qed.
End Copy.

Section ConvLoad.
  Context {W : Type} `{Num W} `{!PosNum W} `{!TextNum W}.
  Theorem edgelist_to_adjacencylist_graph file es :
    edgelist_text (file_lines file) es -> (forall u v w, In (u, v, w) es -> printable w) ->
    (forall u v, weights_between es u v <> [] -> wltb (total (weights_between es u v)) w0 = false) ->
    (forall u, weights_between es u u <> [] -> wltb (total (flat_map (fun w => [w; w]) (weights_between es u u))) w0 = false) ->
    exists out ns g h, (forall fuel, 2 * List.length (file_lines file) + 1 < fuel -> edgelist_to_adjacencylist fuel file = Some (Ok out)) /\
      adjlist_text (file_lines out) ns /\ StronglySorted lt (map fst ns) /\
      load_edgelist file = Ok g /\ load_adjacencylist out = Ok h /\
      number_of_vertices h = number_of_vertices g /\ forall u v, weight h u v = weight g u v.
  Proof.
    intros Ht Hp H1 H2. destruct (edgelist_to_adjacencylist_text file es Ht Hp) as (out & ns & Er & Tn & Hs & Hvc & HIn & Hw & _).
    destruct (load_edgelist_spec file es Ht H1 H2) as (g & Eg & Hng & _ & _ & Hg1 & Hg2).
    assert (forall u v, weights_on_lines ns u v = if (u =? v)%nat then flat_map (fun w => [w; w]) (weights_between es u u) else weights_between es u v) as Hwe.
    { intros u v. rewrite Hw. change (reversed_too es) with (both_ways es). destruct (Nat.eqb_spec u v) as [<-|Hne].
      - apply tvals_both_ways_diag.
      - now apply tvals_both_ways. }
    destruct (load_adjacencylist_spec out ns Tn) as (h & Eh & Hnh & _ & _ & Hh).
    - intros u v Hne. rewrite (Hwe u v) in Hne |- *. destruct (Nat.eqb u v); [|auto].
      apply H2. intros E. apply Hne. now rewrite E.
    - intros u v. destruct (Nat.eq_dec u v) as [->|Huv]; [reflexivity|]. rewrite !Hwe. destruct (Nat.eqb_spec u v); [congruence|].
      destruct (Nat.eqb_spec v u); [congruence|]. now rewrite weights_between_sym.
    - exists out, ns, g, h. repeat split; auto; [congruence|]. intros u v. rewrite Hh, Hwe.
      destruct (Nat.eqb_spec u v) as [<-|Huv]; [symmetry; apply Hg2|symmetry; now apply Hg1].
  Qed.
End ConvLoad.

Section SortStatement.
  Context {W : Type} `{Num W} `{!TextNum W}.
  Lemma edge_lines_of_text ls (ps : list (text * (nat * nat * W))) : edge_lines_of ls ps ->
    edgelist_text ls (map snd ps) /\ ps = map (fun l => (l, edge_of l)) (contents ls).
  Proof.
    induction 1 as [|l ls ps Hc Ht [IH1 IH2]|l ls u v w ps Hc He Ht [IH1 IH2]]; cbn [contents filter].
    - split; [constructor|reflexivity].
    - split; [apply el_skip; auto|]. apply is_content_iff in Hc. rewrite Hc. exact IH2.
    - split; [apply el_edge; auto|]. apply is_content_true in Hc. rewrite Hc. cbn [map]. fold (contents ls).
      rewrite (edge_of_text _ _ _ _ He). now rewrite IH2 at 1.
  Qed.
  Lemma lead_header ls : header_of ls (lead ls).
  Proof.
    split.
    - pose proof (lead_nc ls) as Hn. eapply Forall_impl; [|exact Hn]. intros l. apply is_content_iff.
    - induction ls as [|l ls IH]; cbn [lead]; [exists []; auto|]. destruct (is_content l) eqn:Ec.
      + exists (l :: ls). split; auto. right. exists l, ls. split; auto. now apply is_content_true.
      + destruct IH as (r & E & Hr). exists r. split; auto. cbn [app]. now rewrite <- E.
  Qed.
  Definition first_of (p : text * (nat * nat * W)) : nat := fst (fst (snd p)).
  (** C37. *)
  Theorem sort_edgelist_sorts file (ps : list (text * (nat * nat * W))) : edge_lines_of (file_lines file) ps ->
    exists out hdr ps' k, (forall fuel, List.length (file_lines file) < fuel -> sort_edgelist (W := W) fuel file = Some (Ok out)) /\
      header_of (file_lines file) hdr /\ stably_sorted_by first_of ps ps' /\
      file_lines out = hdr ++ map fst ps' ++ repeat [] k /\ edge_lines_of (file_lines out) ps'.
  Proof.
    intros Hp. destruct (edge_lines_of_text _ _ Hp) as [Ht Eps].
    destruct (sort_edgelist_spec file _ (edge_lines_ok _ _ Ht)) as (C & k & Hsort & Hsame & Hrun).
    destruct (edgelist_text_contents _ _ Ht) as [_ Hes].
    set (hdr := lead (file_lines file)) in *. set (cs := contents (file_lines file)) in *.
    assert (forall l, In l C -> In l cs) as Hin by (intros l; now apply same_by_id_In).
    assert (forall l, In l cs -> edge_text l (first (edge_of l)) (snd (fst (edge_of l))) (snd (edge_of l))) as Hcs by (now apply Forall_forall).
    assert (forall l, In l cs -> first_id (W := W) l = Z.of_nat (first (edge_of l))) as Hfi.
    { intros l Hl. exact (first_id_edge _ _ _ _ (Hcs l Hl)). }
    exists (put_lines (hdr ++ C ++ repeat [] k)), hdr, (map (fun l => (l, edge_of l)) C), k.
    assert (map fst (map (fun l => (l, edge_of l)) C) = C) as Efst by (rewrite map_map; apply map_id).
    split; [|split; [|split; [|split]]].
    - intros fuel Hf. now destruct (Hrun fuel Hf) as [-> _].
    - apply lead_header.
    - split.
      + assert (forall l, In l C -> first_id (W := W) l = Z.of_nat (first (edge_of l))) as HfC by auto.
        clear -Hsort HfC. induction Hsort as [|l C Hs IH Hf]; cbn [map]; constructor.
        * apply IH. intros x Hx. apply HfC. now right.
        * apply Forall_map. rewrite Forall_forall in *. intros x Hx. specialize (Hf x Hx). simpl in Hf.
          rewrite (HfC l (or_introl eq_refl)), (HfC x (or_intror Hx)) in Hf. unfold first_of. unfold first in Hf. simpl. lia.
      + intros id. rewrite Eps.
        assert (forall L, (forall l, In l L -> first_id (W := W) l = Z.of_nat (first (edge_of l))) ->
           filter (fun x => first_of x =? id)%nat (map (fun l => (l, edge_of l)) L) =
           map (fun l => (l, edge_of l)) (filter (fun l => (first_id (W := W) l =? Z.of_nat id)%Z) L)) as Hg.
        { induction L as [|x L IH]; intros HL; [reflexivity|]. cbn [map filter]. rewrite (HL x (or_introl eq_refl)), IH by (intros; apply HL; now right).
          unfold first_of at 1. unfold first. cbn [snd]. destruct (Nat.eqb_spec (fst (fst (edge_of x))) id).
          - destruct (Z.eqb_spec (Z.of_nat (fst (fst (edge_of x)))) (Z.of_nat id)); [reflexivity|lia].
          - destruct (Z.eqb_spec (Z.of_nat (fst (fst (edge_of x)))) (Z.of_nat id)); [lia|reflexivity]. }
        rewrite !Hg by auto. now rewrite Hsame.
    - rewrite Efst. now destruct (Hrun (S (List.length (file_lines file))) ltac:(lia)) as [_ ->].
    - destruct (Hrun (S (List.length (file_lines file))) ltac:(lia)) as [_ ->].
      pose proof (lead_header (file_lines file)) as [Hh _]. fold hdr in Hh.
      assert (forall l, In l C -> is_content l = true /\ edge_text l (first (edge_of l)) (snd (fst (edge_of l))) (snd (edge_of l))) as HC.
      { intros l Hl. apply Hin in Hl. split; auto. unfold cs, contents in Hl. apply filter_In in Hl. tauto. }
      clear -HC Hh. induction Hh as [|l hd Hl Hh IH]; cbn [app]; [|apply elo_skip; auto].
      induction C as [|l C IH]; cbn [map app].
      + induction k as [|k IH]; [constructor|]. apply elo_skip; [now left|exact IH].
      + destruct (HC l (or_introl eq_refl)) as [H1 H2]. destruct (edge_of l) as [[u v] w]. apply elo_edge; auto.
        * now apply is_content_true.
        * apply IH. intros x Hx. apply HC. now right.
  Qed.
End SortStatement.
