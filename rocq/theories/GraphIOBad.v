(** Malformed files (C41). *)
From Verif Require Import Base Num Sparse SparseFacts Graph GraphFacts GraphSpec GraphProps1 GraphProps2 GraphProps4 Cluster ClusterSweep
  Text TextFacts GraphIO IOSpec GraphIOFacts GraphIOLoad GraphIOAdj.
From Coq Require Import Ascii String List Sorting.Sorted Permutation.
Import ListNotations.
Local Open Scope nat_scope.
Local Open Scope char_scope.
Local Open Scope list_scope.

Section Bad.
  Context {W : Type} `{Num W} `{!TextNum W}.

  (** ** What can happen *)
  Definition parse_exc {A} (P : A -> Prop) (o : outcome A) : Prop :=
    match o with Ok a => P a | Throw InvalidArgument | Throw OutOfRange => True | _ => False end.
  Lemma stoi_exc t : parse_exc (fun _ => True) (stoi t).
  Proof. destruct (stoi_cases t) as [(z & -> & _)|[->| ->]]; exact I. Qed.
  Lemma stod_exc t : parse_exc (fun _ => True) (stod (W := W) t).
  Proof. destruct (stod_result (W := W) t) as [(z & ->)|[->| ->]]; exact I. Qed.
  Lemma parse_exc_bind {A B} P Q (o : outcome A) (f : A -> outcome B) :
    parse_exc P o -> (forall a, P a -> parse_exc Q (f a)) -> parse_exc Q (obind o f).
  Proof. destruct o as [a|[]|]; simpl; auto. Qed.
  Lemma parse_exc_True {A} P (o : outcome A) : parse_exc P o -> parse_exc (fun _ => True) o.
  Proof. destruct o as [a|[]|]; simpl; auto. Qed.

  Lemma el_token_exc (st : elst) t : parse_exc (fun _ => True) (el_token st t).
  Proof.
    destruct st as [[[n u] v] w]. unfold el_token. destruct t as [|c t]; [exact I|]. destruct n as [|[|[|n]]]; try exact I.
    - eapply parse_exc_bind; [apply stoi_exc|]. intros; exact I.
    - eapply parse_exc_bind; [apply stoi_exc|]. intros; exact I.
    - eapply parse_exc_bind; [apply stod_exc|]. intros; exact I.
  Qed.
  Lemma el_tokens_exc ts : forall st : elst, parse_exc (fun _ => True) (el_tokens st ts).
  Proof.
    induction ts as [|t ts IH]; intros st; [exact I|]. cbn [el_tokens]. eapply parse_exc_bind; [apply el_token_exc|]. auto.
  Qed.
  Lemma el_delim_exc d (sl : elst * text) : parse_exc (fun _ => True) (el_delim d sl).
  Proof.
    destruct sl as [[[[n u] v] w] line]. unfold el_delim. destruct (Nat.eqb n 0); [|exact I].
    destruct (fields d line) as [toks rest]. eapply parse_exc_bind; [apply el_tokens_exc|]. intros; exact I.
  Qed.
  Lemma finish_exc (st : elst) l : parse_exc (fun e : zedge W => (0 <= fst (fst e) /\ 0 <= snd (fst e))%Z) (finish st l).
  Proof.
    destruct st as [[[n u] v] w]. unfold finish.
    eapply parse_exc_bind with (P := fun _ => True).
    - destruct n as [|[|[|n]]]; try exact I.
      + eapply parse_exc_bind; [apply stoi_exc|]. intros; exact I.
      + pose proof (stod_exc l) as Hs. destruct (stod (W := W) l) as [x|[]|]; try exact I. exact Hs.
    - intros [[[n' u'] v'] w'] _. destruct (_ || _)%bool; [exact I|].
      destruct (Z.ltb_spec u' 0), (Z.ltb_spec v' 0); try exact I. simpl. lia.
  Qed.
  Lemma parse_edge_exc line : parse_exc (fun e : zedge W => (0 <= fst (fst e) /\ 0 <= snd (fst e))%Z) (parse_edge_line line).
  Proof.
    rewrite parse_edge_eq. do 3 (eapply parse_exc_bind; [apply el_delim_exc|intros ? _]). apply finish_exc.
  Qed.
  Definition load_exc {A} (P : A -> Prop) (o : outcome A) : Prop :=
    match o with Ok a => P a | Throw RuntimeError | Throw OutOfRange => True | _ => False end.
  Lemma rethrow_exc {A} P (o : outcome A) : parse_exc P o -> load_exc P (rethrow o).
  Proof. destruct o as [a|[]|]; simpl; auto. Qed.
  Lemma edge_lines_exc ls : load_exc (Forall (fun e : zedge W => (0 <= fst (fst e) /\ 0 <= snd (fst e))%Z)) (edge_lines ls).
  Proof.
    induction ls as [|l ls IH]; cbn [edge_lines]; [constructor|]. destruct (is_content l); [|exact IH].
    pose proof (rethrow_exc _ _ (parse_edge_exc l)) as He. destruct (rethrow (parse_edge_line l)) as [e|[]|]; cbn [obind]; auto.
    destruct (edge_lines ls) as [es|[]|]; cbn [obind load_exc] in *; auto.
  Qed.

  Lemma make_graph_exc (A : sprs W) : sp_rows A = sp_ncols A ->
    (exists g, make_graph A = Ok g) \/ make_graph A = Throw DomainError.
  Proof.
    intros E. unfold make_graph. rewrite E, Nat.eqb_refl. cbn [negb]. unfold adjacency_from_adj_or_lap.
    destruct (found_negative A); [destruct (positive_off_diagonal A); [now right|]; destruct (diagonally_dominant A); [|now right]|];
      cbn [obind negb]; destruct (is_symmetric _); eauto.
  Qed.
  Lemma from_triplets_exc n ts : (forall a b w, In (a, b, w) ts -> a < n /\ b < n) ->
    (exists g, from_triplets_graph (W := W) n ts = Ok g) \/ from_triplets_graph (W := W) n ts = Throw DomainError.
  Proof.
    intros Hok. unfold from_triplets_graph. destruct (set_from_triplets n n ts) as [A| |] eqn:EA.
    - destruct (set_from_triplets_shape _ _ _ _ EA) as (R & C & _). cbn [obind]. apply make_graph_exc. congruence.
    - unfold set_from_triplets in EA. destruct (triplets_ok n n ts); discriminate.
    - exfalso. unfold set_from_triplets in EA. assert (triplets_ok n n ts = true) as Ht; [|rewrite Ht in EA; discriminate].
      apply forallb_forall. intros [[a b] w] Hin. destruct (Hok a b w Hin). apply andb_true_iff. now rewrite !Nat.ltb_lt.
  Qed.
  Lemma ids_bound_lt (es : list (zedge W)) e : In e es -> (fst (fst e) < ids_bound es /\ snd (fst e) < ids_bound es)%Z.
  Proof.
    unfold ids_bound. assert (forall (l : list (zedge W)) n, (n <= fold_left (fun n '(u, v, _) => Z.max (Z.max n (u + 1)) (v + 1)) l n)%Z) as Hge.
    { induction l as [|[[u v] w] l IH]; intros n; cbn [fold_left]; [lia|]. eapply Z.le_trans; [|apply IH]. lia. }
    generalize 0%Z. induction es as [|[[u v] w] es IH]; intros n Hin; [destruct Hin|]. cbn [fold_left]. destruct Hin as [<-|Hin]; auto.
    pose proof (Hge es (Z.max (Z.max n (u + 1)) (v + 1))%Z). simpl. lia.
  Qed.
  (** Every file: the graph, or one of three exceptions. *)
  Theorem load_edgelist_outcomes file :
    (exists g, load_edgelist (W := W) file = Ok g) \/ load_edgelist (W := W) file = Throw RuntimeError \/
    load_edgelist (W := W) file = Throw OutOfRange \/ load_edgelist (W := W) file = Throw DomainError.
  Proof.
    unfold load_edgelist. pose proof (edge_lines_exc (read_lines file)) as He.
    destruct (edge_lines (read_lines file)) as [es|[]|]; cbn [obind load_exc] in *; auto; try contradiction.
    destruct (from_triplets_exc (Z.to_nat (ids_bound es)) (el_triplets es)) as [Hg|Hg]; auto.
    intros a b w Hin. unfold el_triplets in Hin. apply in_flat_map in Hin. destruct Hin as ([[u v] x] & Hin & Ht).
    rewrite Forall_forall in He. specialize (He _ Hin). pose proof (ids_bound_lt es _ Hin) as Hb. simpl in He, Hb.
    destruct Ht as [[= <- <- <-]|[[= <- <- <-]|[]]]; split; apply Z2Nat.inj_lt; lia.
  Qed.

  (** ** Malformed edge lines *)
  Lemma others_earlier d t : is_delim d -> free_of (others d) t -> free_of (earlier d) t.
  Proof. intros [<-|[<-|[<-|[]]]]; apply free_of_sub; unfold others, earlier; simpl; intuition. Qed.
  Lemma parse_no_tokens d line fs l : is_delim d -> free_of (others d) line -> line = join_fields d fs l ->
    Forall (free_of [d]) fs -> free_of [d] l -> filter nonempty fs = [] -> parse_edge_line (W := W) line = Throw InvalidArgument.
  Proof.
    intros Hd Ho E Hf Hl Hn. rewrite parse_edge_eq.
    assert (el_delim d (el_start (W := W), line) = Ok (el_start, l)) as E1.
    { rewrite E, el_delim_start by auto. rewrite el_tokens_filter, Hn. reflexivity. }
    assert (free_of (others d) l) as Hol.
    { intros c Hc. apply Ho. rewrite E. unfold join_fields. apply in_or_app. now right. }
    assert (forall c, In c (others d) -> free_of [c] line /\ free_of [c] l) as Hoth.
    { intros c Hc. split; eapply free_of_1; eauto. }
    destruct Hd as [<-|[<-|[<-|[]]]]; unfold others in Hoth; cbn in Hoth.
    - rewrite E1. cbn [obind]. destruct (Hoth " ") as [_ H1]; [tauto|]. destruct (Hoth TAB) as [_ H2]; [tauto|].
      rewrite (el_delim_absent " ") by auto. cbn [obind]. rewrite (el_delim_absent TAB) by auto. reflexivity.
    - destruct (Hoth ",") as [H1 _]; [tauto|]. destruct (Hoth TAB) as [_ H2]; [tauto|].
      rewrite (el_delim_absent ",") by auto. cbn [obind]. rewrite E1. cbn [obind]. rewrite (el_delim_absent TAB) by auto. reflexivity.
    - destruct (Hoth ",") as [H1 _]; [tauto|]. destruct (Hoth " ") as [H2 _]; [tauto|].
      rewrite (el_delim_absent ",") by auto. cbn [obind]. rewrite (el_delim_absent " ") by auto. cbn [obind]. rewrite E1. reflexivity.
  Qed.
  Lemma nonempty_tok st t : nonempty t = true -> el_token (W := W) st t =
    let '(n, u, v, w) := st in
      match n with
      | 0 => do u <- stoi t; Ok (1, u, v, w)
      | 1 => do v <- stoi t; Ok (2, u, v, w)
      | 2 => do w <- stod t; Ok (3, u, v, w)
      | _ => Ok (S n, u, v, w)
      end.
  Proof. destruct t; [discriminate|reflexivity]. Qed.
  Lemma el_tokens_many ts n u v (w : W) : 3 <= n -> el_tokens (n, u, v, w) ts = Ok (n + List.length (filter nonempty ts), u, v, w).
  Proof.
    rewrite el_tokens_filter. revert n. induction ts as [|t ts IH]; intros n Hn; cbn [filter].
    - simpl. now rewrite Nat.add_0_r.
    - destruct (nonempty t) eqn:Et; [|apply IH; lia]. cbn [el_tokens]. rewrite nonempty_tok by auto.
      destruct n as [|[|[|n]]]; try lia. cbn [obind]. rewrite IH by lia. cbn [List.length]. do 4 f_equal. lia.
  Qed.
  Lemma finish_bad n u v (w : W) l : (n = 2 -> False) -> (n = 1 -> False) -> (n = 0 \/ 3 < n \/ (u < 0)%Z \/ (v < 0)%Z) ->
    finish (n, u, v, w) l = Throw InvalidArgument.
  Proof.
    intros H2 H1 Hb. unfold finish. destruct n as [|[|[|n]]]; try (exfalso; auto; fail); [reflexivity|]. cbn [obind].
    destruct (Nat.ltb_spec (S (S (S n))) 2); [lia|]. destruct (Nat.ltb_spec 3 (S (S (S n)))); [reflexivity|]. cbn [orb].
    destruct (Z.ltb_spec u 0), (Z.ltb_spec v 0); try reflexivity. lia.
  Qed.
  Lemma filter_app_last fs l : filter nonempty (fs ++ [l]) = filter nonempty fs ++ match l with [] => [] | _ => [l] end.
  Proof. rewrite filter_app. destruct l; reflexivity. Qed.
  Lemma parse_edge_bad line : malformed_edge (W := W) line -> parse_edge_line (W := W) line = Throw InvalidArgument.
  Proof.
    intros [Hf|d ts Hd Ho (fs & l & E & Hfs & Hl & Ets) Hb].
    - rewrite parse_edge_eq. rewrite (el_delim_absent ",") by (eapply free_of_1; [|exact Hf]; simpl; auto). cbn [obind].
      rewrite (el_delim_absent " ") by (eapply free_of_1; [|exact Hf]; simpl; auto). cbn [obind].
      rewrite (el_delim_absent TAB) by (eapply free_of_1; [|exact Hf]; simpl; auto). reflexivity.
    - destruct (filter nonempty fs) as [|a F] eqn:EF; [eapply parse_no_tokens; eauto|].
      rewrite (parse_edge_split d line fs l) by (auto using others_earlier; rewrite EF; discriminate).
      rewrite el_tokens_filter, EF. pose proof (filter_nonempty_all fs _ EF) as Hne.
      rewrite filter_app_last, EF in Ets. subst ts. apply Forall_cons_iff in Hne. destruct Hne as [Ha HF].
      cbn [el_tokens]. rewrite nonempty_tok by auto. unfold el_start.
      clear -Hb Ha HF. destruct F as [|b F].
      + (* one token before the last delimiter *)
        cbn [el_tokens app]. destruct l as [|c l].
        * cbn [app bad_fields] in Hb. destruct (stoi_cases a) as [(z & Ez & _)|[Ez|Ez]]; rewrite Ez in *; cbn [obind]; [reflexivity|reflexivity|congruence].
        * set (t := c :: l) in *. cbn [app bad_fields] in Hb. destruct Hb as [->|(u & -> & Hb)]; [reflexivity|]. cbn [obind finish].
          destruct Hb as [->|(v & -> & Hb)]; [reflexivity|]. cbn [obind Nat.ltb Nat.leb orb].
          destruct (Z.ltb_spec u 0), (Z.ltb_spec v 0); try reflexivity. lia.
      + apply Forall_cons_iff in HF. destruct HF as [Hbn HF]. cbn [app bad_fields] in Hb.
        destruct Hb as [->|(u & -> & Hb)]; [reflexivity|]. cbn [obind el_tokens]. rewrite nonempty_tok by auto.
        destruct Hb as [->|(v & -> & Hb)]; [reflexivity|]. cbn [obind].
        destruct F as [|c F].
        * cbn [el_tokens obind app] in *. destruct l as [|x l].
          -- unfold finish. rewrite stod_nil. cbn [obind Nat.ltb Nat.leb orb].
             destruct (Z.ltb_spec u 0), (Z.ltb_spec v 0); try reflexivity. lia.
          -- destruct Hb as [Hneg (w & Ew)]. unfold finish. rewrite Ew. cbn [obind Nat.ltb Nat.leb orb].
             destruct (Z.ltb_spec u 0), (Z.ltb_spec v 0); try reflexivity. lia.
        * apply Forall_cons_iff in HF. destruct HF as [Hcn HF]. cbn [el_tokens]. rewrite nonempty_tok by auto.
          cbn [app] in Hb. destruct F as [|e F].
          -- destruct l as [|x l]; cbn [app] in Hb.
             ++ destruct Hb as [Hneg (w & ->)]. cbn [obind el_tokens]. apply finish_bad; lia.
             ++ destruct Hb as [->|((w & ->) & Hb)]; [reflexivity|]. cbn [obind el_tokens]. apply finish_bad; try lia.
                destruct Hb as [Hb|[Hb|Hb]]; auto. congruence.
          -- destruct Hb as [->|((w & ->) & Hb)]; [reflexivity|]. cbn [obind]. apply Forall_cons_iff in HF. destruct HF as [Hen HF].
             rewrite el_tokens_many by lia. cbn [obind filter]. rewrite Hen. cbn [List.length]. apply finish_bad; lia.
  Qed.
  Lemma edge_lines_bad good bad rest es : edgelist_text (W := W) good es -> ~ comment_or_blank bad -> malformed_edge (W := W) bad ->
    edge_lines (W := W) (good ++ bad :: rest) = Throw RuntimeError.
  Proof.
    intros Hg Hc Hb. rewrite edge_lines_app, (edge_lines_ok _ _ Hg). cbn [obind edge_lines].
    apply is_content_true in Hc. rewrite Hc, (parse_edge_bad _ Hb). reflexivity.
  Qed.
  Theorem load_edgelist_malformed file good bad rest es :
    file_lines file = good ++ bad :: rest -> edgelist_text (W := W) good es -> ~ comment_or_blank bad -> malformed_edge (W := W) bad ->
    load_edgelist (W := W) file = Throw RuntimeError.
  Proof.
    intros E Hg Hc Hb. unfold load_edgelist. rewrite edge_lines_read, E, (edge_lines_bad _ _ _ _ Hg Hc Hb). reflexivity.
  Qed.

  (** ** Malformed adjacency list lines *)
  Lemma parse_adj_edge_nbr_ok t src : nbr_ok (W := W) t -> exists e, parse_adj_edge (W := W) t src = Ok e.
  Proof.
    unfold parse_adj_edge. intros [v Hf E|a b v w -> Hf Ea Eb].
    - rewrite split1_none, E by auto. cbn [obind]. eauto.
    - rewrite split1_app, Ea by auto. cbn [obind]. rewrite Eb. cbn [obind]. eauto.
  Qed.
  Lemma parse_adj_edge_bad t src : nbr_bad (W := W) t -> parse_adj_edge (W := W) t src = Throw InvalidArgument.
  Proof.
    unfold parse_adj_edge. intros [Hf E|a b -> Hf Ea|a b v -> Hf Ea Eb].
    - rewrite split1_none, E by auto. reflexivity.
    - rewrite split1_app, Ea by auto. reflexivity.
    - rewrite split1_app, Ea by auto. cbn [obind]. rewrite Eb. reflexivity.
  Qed.
  Lemma parse_adj_edges_filter ts src : parse_adj_edges (W := W) ts src = parse_adj_edges (filter nonempty ts) src.
  Proof.
    induction ts as [|[|c t] ts IH]; cbn [parse_adj_edges filter nonempty]; auto.
    destruct (parse_adj_edge (c :: t) src); cbn [obind]; auto. now rewrite IH.
  Qed.
  Lemma parse_adj_edges_bad good bad more src : Forall (nbr_ok (W := W)) good -> nbr_bad (W := W) bad ->
    Forall (fun t => nonempty t = true) (good ++ bad :: more) ->
    parse_adj_edges (W := W) (good ++ bad :: more) src = Throw InvalidArgument.
  Proof.
    intros Hg Hb. induction Hg as [|t good Ht Hg IH]; cbn [app parse_adj_edges]; intros Hn; apply Forall_cons_iff in Hn; destruct Hn as [Ht1 Hn].
    - destruct bad as [|c bad]; [discriminate|]. now rewrite (parse_adj_edge_bad _ _ Hb).
    - destruct t as [|c t]; [discriminate|]. destruct (parse_adj_edge_nbr_ok (c :: t) src Ht) as [e ->]. cbn [obind]. now rewrite IH.
  Qed.
  Lemma parse_adj_bad line : malformed_adj (W := W) line -> parse_adj_line (W := W) line = Throw InvalidArgument.
  Proof.
    unfold parse_adj_line. intros [Hf|a rest -> Hf Ea|a rest u good bad more -> Hf Ea (fs & l & Er & Hfs & Hl & Ets) Hm Hg Hb].
    - now rewrite split1_none.
    - now rewrite split1_app, Ea.
    - rewrite split1_app, Ea by auto. cbn [obind]. subst rest. rewrite fields_of_join by auto.
      rewrite filter_app_last in Ets.
      assert (exists more', filter nonempty fs = good ++ bad :: more') as [more' EF].
      { destruct l as [|c l].
        - rewrite app_nil_r in Ets. eauto.
        - destruct (exists_last Hm) as (m' & x & Em). rewrite Em in Ets.
          replace (good ++ bad :: m' ++ [x]) with ((good ++ bad :: m') ++ [x]) in Ets by (rewrite <- app_assoc; reflexivity).
          apply app_inj_tail in Ets. destruct Ets as [Ets _]. eauto. }
      rewrite parse_adj_edges_filter, EF, parse_adj_edges_bad; auto.
      rewrite <- EF. eapply filter_nonempty_all. reflexivity.
  Qed.
  Theorem load_adjacencylist_malformed file good bad rest ns :
    file_lines file = good ++ bad :: rest -> adjlist_text (W := W) good ns -> ~ comment_or_blank bad -> malformed_adj (W := W) bad ->
    load_adjacencylist (W := W) file = Throw RuntimeError.
  Proof.
    intros E Hg Hc Hb. unfold load_adjacencylist. rewrite adj_lines_read, E, adj_lines_app, (adj_lines_ok _ _ Hg). cbn [obind adj_lines].
    apply is_content_true in Hc. rewrite Hc, (parse_adj_bad _ Hb). reflexivity.
  Qed.

  Lemma parse_adj_edge_exc t src : parse_exc (fun _ => True) (parse_adj_edge (W := W) t src).
  Proof.
    unfold parse_adj_edge. destruct (split1 ":" t) as [[a b]|].
    - eapply parse_exc_bind; [apply stoi_exc|intros v _]. eapply parse_exc_bind; [apply stod_exc|intros; exact I].
    - eapply parse_exc_bind; [apply stoi_exc|intros; exact I].
  Qed.
  Lemma parse_adj_edges_exc ts src : parse_exc (fun _ => True) (parse_adj_edges (W := W) ts src).
  Proof.
    induction ts as [|[|c t] ts IH]; cbn [parse_adj_edges]; [exact I|exact IH|].
    eapply parse_exc_bind; [apply parse_adj_edge_exc|intros e _]. eapply parse_exc_bind; [exact IH|intros; exact I].
  Qed.
  Lemma parse_adj_exc l : parse_exc (fun _ => True) (parse_adj_line (W := W) l).
  Proof.
    unfold parse_adj_line. destruct (split1 ":" l) as [[a rest]|]; [|exact I].
    eapply parse_exc_bind; [apply stoi_exc|intros u _]. destruct (fields " " rest) as [toks lst].
    eapply parse_exc_bind; [apply parse_adj_edges_exc|intros es _].
    pose proof (parse_adj_edge_exc lst u) as Hl. destruct (parse_adj_edge lst u) as [e|[]|]; try exact I; exact Hl.
  Qed.
  Lemma adj_lines_exc ls : load_exc (fun _ => True) (adj_lines (W := W) ls).
  Proof.
    induction ls as [|l ls IH]; cbn [adj_lines]; [exact I|]. destruct (is_content l); [|exact IH].
    pose proof (rethrow_exc _ _ (parse_adj_exc l)) as He. destruct (rethrow (parse_adj_line l)) as [e|[]|]; cbn [obind]; auto.
    destruct (adj_lines ls) as [es|[]|]; cbn [obind load_exc] in *; auto.
  Qed.
  (** Undefined behaviour only with a negative id. *)
  Theorem load_adjacencylist_outcomes file :
    (exists g, load_adjacencylist (W := W) file = Ok g) \/ load_adjacencylist (W := W) file = Throw RuntimeError \/
    load_adjacencylist (W := W) file = Throw OutOfRange \/ load_adjacencylist (W := W) file = Throw DomainError \/
    load_adjacencylist (W := W) file = UB /\
      exists ess e, adj_lines (read_lines file) = Ok ess /\ In e (concat ess) /\ (fst (fst e) < 0 \/ snd (fst e) < 0)%Z.
  Proof.
    unfold load_adjacencylist. pose proof (adj_lines_exc (read_lines file)) as He.
    destruct (adj_lines (read_lines file)) as [ess|[]|]; cbn [obind load_exc] in *; auto; try contradiction.
    match goal with |- context [if ?b then _ else _] => destruct b eqn:Ef end.
    - destruct (from_triplets_exc (Z.to_nat (ids_bound (concat ess))) (map (fun '(u, v, w) => (Z.to_nat u, Z.to_nat v, w)) (concat ess))) as [Hg|Hg]; auto.
      intros a b w Hin. apply in_map_iff in Hin. destruct Hin as ([[u v] x] & [= <- <- <-] & Hin).
      rewrite forallb_forall in Ef. specialize (Ef _ Hin). simpl in Ef. apply andb_prop in Ef. destruct Ef as [E1 E2].
      apply Z.leb_le in E1, E2. pose proof (ids_bound_lt (concat ess) _ Hin) as Hb. simpl in Hb. split; apply Z2Nat.inj_lt; lia.
    - do 4 right. split; auto. exists ess.
      assert (exists e, In e (concat ess) /\ (fst (fst e) < 0 \/ snd (fst e) < 0)%Z) as (e & Hin & Hneg); [|eauto].
      clear -Ef. induction (concat ess) as [|[[u v] w] l IH]; [discriminate|]. cbn [forallb] in Ef.
      destruct (Z.leb_spec 0 u), (Z.leb_spec 0 v); cbn [andb] in Ef.
      + destruct (IH Ef) as (e & Hin & Hn). exists e. split; auto. now right.
      + exists (u, v, w). split; [now left|]. simpl. lia.
      + exists (u, v, w). split; [now left|]. simpl. lia.
      + exists (u, v, w). split; [now left|]. simpl. lia.
  Qed.
End Bad.
