(** Facts about parsing and writing graph files. *)
From Verif Require Import Base Num Sparse SparseFacts Graph GraphFacts GraphSpec GraphProps1 GraphProps2 GraphProps4 Cluster Text TextFacts GraphIO IOSpec.
From Coq Require Import Ascii String List.
Import ListNotations.
Local Open Scope nat_scope.
Local Open Scope char_scope.
Local Open Scope list_scope.

Lemma is_content_iff l : is_content l = false <-> comment_or_blank l.
Proof.
  unfold is_content, comment_or_blank. destruct l as [|c r]; [tauto|].
  destruct (Ascii.eqb_spec c "#") as [->|H1].
  - simpl. split; auto. intros _. right. exists "#", r. auto.
  - destruct (Ascii.eqb_spec c "/") as [->|H2].
    + simpl. split; auto. intros _. right. exists "/", r. auto.
    + simpl. split; [discriminate|]. intros [Hx|(c' & r' & Hx & Hy)]; [discriminate|].
      injection Hx as -> ->. tauto.
Qed.
Lemma is_content_true l : is_content l = true <-> ~ comment_or_blank l.
Proof. rewrite <- is_content_iff. destruct (is_content l); split; congruence. Qed.

Section Facts.
  Context {W : Type} `{Num W} `{!TextNum W}.
  Notation elst := (@elst W).

  Lemma el_tokens_app (a b : list text) (st : elst) :
    el_tokens st (a ++ b) = (do st <- el_tokens st a; el_tokens st b).
  Proof.
    revert st; induction a as [|t a IH]; intros st; simpl; auto.
    destruct (el_token st t); simpl; auto.
  Qed.
  Lemma el_tokens_filter (ts : list text) (st : elst) : el_tokens st ts = el_tokens st (filter nonempty ts).
  Proof.
    revert st; induction ts as [|t ts IH]; intros st; auto.
    destruct t as [|c t]; cbn [filter nonempty el_tokens].
    - destruct st as [[[n u] v] w]. cbn [el_token obind]. apply IH.
    - destruct (el_token st (c :: t)); cbn [obind]; auto.
  Qed.

  (** repo: graphio.cpp:61-87, after the loop over the delimiters. *)
  Definition finish (st : elst) (line : text) : outcome (zedge W) :=
    let '(n, u, v, w) := st in
    do st <- match n with
             | 1 => do v <- stoi line; Ok (2, u, v, w)
             | 2 => match stod line with
                    | Ok w' => Ok (3, u, v, w')
                    | Throw _ => Ok (n, u, v, w)
                    | UB => UB
                    end
             | _ => Ok (n, u, v, w)
             end;
    let '(n, u, v, w) := st in
    if (Nat.ltb n 2 || Nat.ltb 3 n)%bool then Throw InvalidArgument
    else if ((u <? 0) || (v <? 0))%Z then Throw InvalidArgument
    else Ok (u, v, w).
  Definition el_start : elst := (0, (-1)%Z, (-1)%Z, w1).
  Definition tok_count (st : elst) : nat := fst (fst (fst st)).

  Lemma parse_edge_eq line :
    parse_edge_line line =
    (do sl <- el_delim "," (el_start, line); do sl <- el_delim " " sl; do sl <- el_delim TAB sl;
     finish (fst sl) (snd sl)).
  Proof.
    unfold parse_edge_line, finish, el_start.
    destruct (el_delim "," _) as [s1| |]; cbn [obind]; auto.
    destruct (el_delim " " s1) as [s2| |]; cbn [obind]; auto.
    destruct (el_delim TAB s2) as [[[[[n u] v] w] l]| |]; cbn [obind fst snd]; auto.
  Qed.
  Lemma el_delim_absent d (st : elst) line : free_of [d] line -> el_delim d (st, line) = Ok (st, line).
  Proof.
    intros Hf. destruct st as [[[n u] v] w]. unfold el_delim. rewrite fields_none by auto. simpl.
    now destruct (Nat.eqb n 0).
  Qed.
  Lemma el_delim_done d (st : elst) line : tok_count st <> 0 -> el_delim d (st, line) = Ok (st, line).
  Proof.
    destruct st as [[[n u] v] w]. unfold tok_count, el_delim. simpl. intros Hn.
    destruct (Nat.eqb_spec n 0); [contradiction|reflexivity].
  Qed.
  Lemma el_delim_start d fs l : Forall (free_of [d]) fs -> free_of [d] l ->
    el_delim d (el_start, join_fields d fs l) = (do st <- el_tokens el_start fs; Ok (st, l)).
  Proof. intros Hf Hl. unfold el_delim, el_start. rewrite fields_of_join by auto. reflexivity. Qed.

  Lemma el_token_step (st st' : elst) t : nonempty t = true -> el_token st t = Ok st' -> tok_count st' = S (tok_count st).
  Proof.
    destruct st as [[[n u] v] w]. destruct t as [|c t]; [discriminate|]. intros _.
    unfold el_token. destruct n as [|[|[|n]]].
    - destruct (stoi (c :: t)); simpl; intros E; inversion E; reflexivity.
    - destruct (stoi (c :: t)); simpl; intros E; inversion E; reflexivity.
    - destruct (stod (c :: t)); simpl; intros E; inversion E; reflexivity.
    - intros E; inversion E; reflexivity.
  Qed.
  Lemma el_tokens_count (ts : list text) (st st' : elst) : el_tokens st ts = Ok st' ->
    tok_count st' = tok_count st + List.length (filter nonempty ts).
  Proof.
    rewrite el_tokens_filter. revert st; induction ts as [|t ts IH]; intros st; simpl.
    - intros [= <-]. lia.
    - destruct (nonempty t) eqn:Et; simpl; [|apply IH].
      destruct (el_token st t) as [s1| |] eqn:E1; simpl; try discriminate. intros E.
      rewrite (IH _ E), (el_token_step _ _ _ Et E1). lia.
  Qed.
  Lemma free_of_1 d (cs : list ascii) t : In d cs -> free_of cs t -> free_of [d] t.
  Proof. intros Hd. apply free_of_sub. simpl. intros c [<-|[]]. exact Hd. Qed.

  Lemma parse_edge_split d line fs l : is_delim d -> free_of (earlier d) line ->
    line = join_fields d fs l -> Forall (free_of [d]) fs -> free_of [d] l -> filter nonempty fs <> [] ->
    parse_edge_line line = (do st <- el_tokens el_start fs; finish st l).
  Proof.
    intros Hd He E Hf Hl Hne. rewrite parse_edge_eq.
    assert (forall st, el_tokens el_start fs = Ok st -> tok_count st <> 0) as Hc.
    { intros st Est. rewrite (el_tokens_count _ _ _ Est). destruct (filter nonempty fs); [congruence|simpl; lia]. }
    assert (el_delim d (el_start, line) = (do st <- el_tokens el_start fs; Ok (st, l))) as E1.
    { rewrite E. now apply el_delim_start. }
    destruct Hd as [<-|[<-|[<-|[]]]].
    - rewrite E1. destruct (el_tokens el_start fs) as [st| |]; cbn [obind]; auto.
      rewrite el_delim_done by auto. cbn [obind]. rewrite el_delim_done by auto. reflexivity.
    - rewrite (el_delim_absent ","); [|eapply free_of_1; [|exact He]; simpl; auto]. cbn [obind]. rewrite E1.
      destruct (el_tokens el_start fs) as [st| |]; cbn [obind]; auto.
      rewrite el_delim_done by auto. reflexivity.
    - rewrite (el_delim_absent ","); [|eapply free_of_1; [|exact He]; simpl; auto]. cbn [obind].
      rewrite (el_delim_absent " "); [|eapply free_of_1; [|exact He]; simpl; auto]. cbn [obind]. rewrite E1.
      destruct (el_tokens el_start fs) as [st| |]; cbn [obind]; auto.
  Qed.

  Lemma el_token_0 u v (w : W) a ua : nonempty a = true -> stoi a = Ok ua -> el_token (0, u, v, w) a = Ok (1, ua, v, w).
  Proof. destruct a; [discriminate|]. intros _ E. unfold el_token. now rewrite E. Qed.
  Lemma el_token_1 u v (w : W) a va : nonempty a = true -> stoi a = Ok va -> el_token (1, u, v, w) a = Ok (2, u, va, w).
  Proof. destruct a; [discriminate|]. intros _ E. unfold el_token. now rewrite E. Qed.
  Lemma el_token_2 u v (w : W) a wa : nonempty a = true -> stod a = Ok wa -> el_token (2, u, v, w) a = Ok (3, u, v, wa).
  Proof. destruct a; [discriminate|]. intros _ E. unfold el_token. now rewrite E. Qed.

  Lemma finish_ok n u v (w : W) : n = 2 \/ n = 3 -> (0 <= u)%Z -> (0 <= v)%Z -> finish (n, u, v, w) [] = Ok (u, v, w).
  Proof.
    intros Hn Hu Hv. apply Z.ltb_ge in Hu, Hv. unfold finish.
    destruct Hn as [->| ->]; [rewrite stod_nil|]; cbn [obind Nat.ltb Nat.leb orb]; now rewrite Hu, Hv.
  Qed.

  Lemma filter_nonempty_all ts x : filter nonempty ts = x -> Forall (fun t => nonempty t = true) x.
  Proof. intros <-. apply Forall_forall. intros t Ht. now apply filter_In in Ht. Qed.

  Theorem parse_edge_ok line u v w : edge_text line u v w -> parse_edge_line line = Ok (Z.of_nat u, Z.of_nat v, w).
  Proof.
    intros Ht. destruct Ht as [d a b Hd He (fs & l & E & Hf & Hl & Ets) Ha Hb Hw|d a b c Hd He (fs & l & E & Hf & Hl & Ets) Ha Hb Hc].
    - pose proof (filter_nonempty_all _ _ (eq_sym Ets)) as Hne.
      apply Forall_cons_iff in Hne. destruct Hne as [Na Hne]. apply Forall_cons_iff in Hne. destruct Hne as [Nb _].
      rewrite filter_app in Ets. destruct l as [|x l].
      + simpl in Ets. rewrite app_nil_r in Ets.
        rewrite (parse_edge_split d line fs []) by (auto; rewrite <- Ets; discriminate).
        rewrite el_tokens_filter, <- Ets. unfold el_start. simpl.
        rewrite (el_token_0 _ _ _ _ _ Na Ha). simpl. rewrite (el_token_1 _ _ _ _ _ Nb Hb). simpl.
        rewrite stod_nil. simpl. destruct (Z.ltb_spec (Z.of_nat u) 0); [lia|]. destruct (Z.ltb_spec (Z.of_nat v) 0); [lia|].
        subst w. reflexivity.
      + simpl in Ets. assert (filter nonempty fs = [a] /\ x :: l = b) as [Ef El].
        { destruct (filter nonempty fs) as [|a1 [|b1 [|c1 r]]]; simpl in Ets; inversion Ets; auto. }
        rewrite (parse_edge_split d line fs (x :: l)) by (auto; rewrite Ef; discriminate).
        rewrite el_tokens_filter, Ef. unfold el_start. simpl el_tokens.
        rewrite (el_token_0 _ _ _ _ _ Na Ha). cbn [obind]. rewrite El. unfold finish. rewrite Hb. cbn [obind].
        cbn [Nat.ltb Nat.leb orb]. destruct (Z.ltb_spec (Z.of_nat u) 0); [lia|]. destruct (Z.ltb_spec (Z.of_nat v) 0); [lia|].
        subst w. reflexivity.
    - pose proof (filter_nonempty_all _ _ (eq_sym Ets)) as Hne.
      apply Forall_cons_iff in Hne. destruct Hne as [Na Hne]. apply Forall_cons_iff in Hne. destruct Hne as [Nb Hne].
      apply Forall_cons_iff in Hne. destruct Hne as [Nc _].
      rewrite filter_app in Ets. destruct l as [|x l].
      + simpl in Ets. rewrite app_nil_r in Ets.
        rewrite (parse_edge_split d line fs []) by (auto; rewrite <- Ets; discriminate).
        rewrite el_tokens_filter, <- Ets. unfold el_start. simpl el_tokens.
        rewrite (el_token_0 _ _ _ _ _ Na Ha). cbn [obind]. rewrite (el_token_1 _ _ _ _ _ Nb Hb). cbn [obind].
        rewrite (el_token_2 _ _ _ _ _ Nc Hc). cbn [obind]. apply finish_ok; lia.
      + simpl in Ets. assert (filter nonempty fs = [a; b] /\ x :: l = c) as [Ef El].
        { destruct (filter nonempty fs) as [|a1 [|b1 [|c1 [|d1 r]]]]; simpl in Ets; inversion Ets; auto. }
        rewrite (parse_edge_split d line fs (x :: l)) by (auto; rewrite Ef; discriminate).
        rewrite el_tokens_filter, Ef. unfold el_start. simpl el_tokens.
        rewrite (el_token_0 _ _ _ _ _ Na Ha). cbn [obind]. rewrite (el_token_1 _ _ _ _ _ Nb Hb). cbn [obind].
        rewrite El. unfold finish. rewrite Hc. cbn [obind].
        cbn [Nat.ltb Nat.leb orb]. destruct (Z.ltb_spec (Z.of_nat u) 0); [lia|]. destruct (Z.ltb_spec (Z.of_nat v) 0); [lia|].
        reflexivity.
  Qed.

  Definition zed (e : nat * nat * W) : zedge W := let '(u, v, w) := e in (Z.of_nat u, Z.of_nat v, w).

  Lemma edge_lines_ok ls es : edgelist_text ls es -> edge_lines ls = Ok (map zed es).
  Proof.
    induction 1 as [|l ls es Hc _ IH|l ls u v w es Hc Ht _ IH]; simpl; auto.
    - apply is_content_iff in Hc. now rewrite Hc.
    - apply is_content_true in Hc. rewrite Hc, (parse_edge_ok _ _ _ _ Ht). simpl. now rewrite IH.
  Qed.
  Lemma edge_lines_app a b :
    edge_lines (a ++ b) = (do x <- edge_lines (W := W) a; do y <- edge_lines b; Ok (x ++ y)).
  Proof.
    induction a as [|l a IH]; simpl.
    - destruct (edge_lines b); reflexivity.
    - destruct (is_content l); auto. destruct (rethrow (parse_edge_line l)) as [e| |]; cbn [obind]; auto.
      rewrite IH. destruct (edge_lines a); cbn [obind]; auto. destruct (edge_lines b); reflexivity.
  Qed.
  Lemma edge_lines_read f : edge_lines (W := W) (read_lines f) = edge_lines (file_lines f).
  Proof.
    rewrite read_lines_file, edge_lines_app. destruct (edge_lines (file_lines f)); simpl; auto. now rewrite app_nil_r.
  Qed.

  Lemma vertex_count_cons (u v : nat) (w : W) es : vertex_count ((u, v, w) :: es) = Nat.max (Nat.max (S u) (S v)) (vertex_count es).
  Proof. reflexivity. Qed.
  Lemma ids_bound_zed (es : list (nat * nat * W)) : Z.to_nat (ids_bound (map zed es)) = vertex_count es.
  Proof.
    unfold ids_bound.
    assert (forall l n, (0 <= n)%Z -> Z.to_nat (fold_left (fun n '(u, v, _) => Z.max (Z.max n (u + 1)) (v + 1)) (map zed l) n)
                        = Nat.max (Z.to_nat n) (vertex_count l)) as Hg.
    { induction l as [|[[u v] w] l IH]; intros n Hn; [simpl; lia|]. cbn [map fold_left zed]. rewrite IH by lia.
      rewrite vertex_count_cons. lia. }
    rewrite Hg by lia. reflexivity.
  Qed.
  Lemma vertex_count_lt (es : list (nat * nat * W)) a b w : In (a, b, w) es -> a < vertex_count es /\ b < vertex_count es.
  Proof.
    induction es as [|[[u v] x] es IH]; [simpl; tauto|]. rewrite vertex_count_cons. intros [[= <- <- <-]|Hin]; [lia|]. apply IH in Hin. lia.
  Qed.
  Lemma vertex_count_attained (es : list (nat * nat * W)) n : vertex_count es = S n -> exists a b w, In (a, b, w) es /\ (a = n \/ b = n).
  Proof.
    induction es as [|[[u v] x] es IH]; [discriminate|]. rewrite vertex_count_cons. intros E.
    destruct (Nat.eq_dec u n) as [->|Hu]; [exists n, v, x; simpl; auto|].
    destruct (Nat.eq_dec v n) as [->|Hv]; [exists u, n, x; simpl; auto|].
    destruct IH as (a & b & w & Hin & Hab); [lia|]. exists a, b, w. simpl. auto.
  Qed.

  Lemma el_triplets_zed (es : list (nat * nat * W)) :
    el_triplets (map zed es) = flat_map (fun '(u, v, w) => [(u, v, w); (v, u, w)]) es.
  Proof.
    induction es as [|[[u v] w] es IH]; auto. unfold el_triplets in *. cbn [map flat_map zed]. rewrite IH. now rewrite !Nat2Z.id.
  Qed.
  (** Both directions of each edge. *)
  Definition both_ways (es : list (nat * nat * W)) : list (triplet W) := flat_map (fun '(u, v, w) => [(u, v, w); (v, u, w)]) es.
  Lemma both_ways_lt es n a b w : (forall u v x, In (u, v, x) es -> u < n /\ v < n) -> In (a, b, w) (both_ways es) -> a < n /\ b < n.
  Proof.
    intros Hn Hin. unfold both_ways in Hin. apply in_flat_map in Hin. destruct Hin as [[[u v] x] [H1 H2]].
    apply Hn in H1. simpl in H2. destruct H2 as [[= <- <- <-]|[[= <- <- <-]|[]]]; tauto.
  Qed.
  Lemma weights_between_cons (a b : nat) (w : W) es u v : weights_between ((a, b, w) :: es) u v =
    (if ((a =? u)%nat && (b =? v)%nat) || ((a =? v)%nat && (b =? u)%nat) then [w] else []) ++ weights_between es u v.
  Proof. unfold weights_between. simpl. destruct (_ || _); reflexivity. Qed.
  Lemma weights_between_sym (es : list (nat * nat * W)) u v : weights_between es u v = weights_between es v u.
  Proof.
    induction es as [|[[a b] w] es IH]; auto. rewrite !weights_between_cons, IH. f_equal.
    rewrite orb_comm. reflexivity.
  Qed.
  Lemma tvals_both_ways es u v : u <> v -> tvals (both_ways es) u v = weights_between es u v.
  Proof.
    intros Hne. induction es as [|[[a b] w] es IH]; auto.
    unfold both_ways. simpl flat_map. fold (both_ways es). rewrite !tvals_cons, IH, weights_between_cons.
    destruct (Nat.eqb_spec a u), (Nat.eqb_spec b v), (Nat.eqb_spec a v), (Nat.eqb_spec b u); subst; simpl; auto; congruence.
  Qed.
  Lemma tvals_both_ways_diag es u : tvals (both_ways es) u u = flat_map (fun w => [w; w]) (weights_between es u u).
  Proof.
    induction es as [|[[a b] w] es IH]; auto.
    unfold both_ways. simpl flat_map. fold (both_ways es). rewrite !tvals_cons, IH, weights_between_cons.
    destruct (Nat.eqb_spec a u), (Nat.eqb_spec b u); subst; simpl; auto.
  Qed.
  Lemma o0_sum1 (l : list W) : o0 (sum1 l) = total l.
  Proof. destruct l; reflexivity. Qed.
End Facts.
