(** Graph algebra, subgraphs, disjoint unions and utilities (C17-C19, C21). *)
From Verif Require Import Base Num RSum Sparse SparseFacts Graph GraphFacts GraphSpec GraphProps1 GraphProps2 GraphProps4.
From Coq Require Import Sorting.Sorted Sorting.Permutation Reals Lra.

Section Exact.
  Context {W : Type} `{ExactNum W}.
  Implicit Types (g h : graph W) (M A : sprs W).

  Lemma pos_nonneg A : pos_entries A -> nonneg_entries A.
  Proof.
    intros Hp i j v G. specialize (Hp _ _ _ G). apply toR_ltb_false. rewrite toR_0. lra.
  Qed.
  Lemma above_pos g : weights_above_eps g -> pos_entries (g_adj g).
  Proof. intros Ha i j v G. apply eps_pos. eapply Ha; eauto. Qed.

  Lemma wadd_0_r (x : W) : wadd x w0 = x.
  Proof. apply toR_inj. rewrite toR_add, toR_0. lra. Qed.
  Lemma wadd_0_l (x : W) : wadd w0 x = x.
  Proof. apply toR_inj. rewrite toR_add, toR_0. lra. Qed.

  (** C17 *)
  Lemma graph_add_spec g h : reachable_pos g -> reachable_pos h -> number_of_vertices g = number_of_vertices h ->
    exists k, graph_add g h = Ok k /\ number_of_vertices k = number_of_vertices g /\
      forall i j, weight k i j = above_eps (wadd (weight g i j) (weight h i j)).
  Proof.
    unfold number_of_vertices. intros Hg Hh En. unfold graph_add. rewrite <- En, Nat.eqb_refl. cbn [negb].
    destruct (reachable_pos_inv g Hg) as [Pg _]. destruct (reachable_pos_inv h Hh) as [Ph _].
    destruct (reachable_pos_ok g Hg) as (R1 & C1 & W1). destruct (reachable_pos_ok h Hh) as (R2 & C2 & W2).
    pose proof (reachable_sym g (reachable_pos_reachable g Hg)) as S1.
    pose proof (reachable_sym h (reachable_pos_reachable h Hh)) as S2.
    assert (forall i j, coeff (sp_add (g_adj g) (g_adj h)) i j = wadd (weight g i j) (weight h i j)) as Hc.
    { intros i j. unfold coeff at 1, sp_add. rewrite sp_get_merge by (auto; congruence).
      unfold weight, coeff. destruct (sp_get (g_adj g) i j), (sp_get (g_adj h) i j); simpl; auto.
      now rewrite wadd_0_r. }
    destruct (make_graph_from_adjacency (sp_add (g_adj g) (g_adj h)) (g_n g)) as (k & E & Ek & _ & Ew).
    - split; [simpl; congruence|]. split; [unfold sp_add; rewrite sp_merge_ncols; congruence|].
      unfold sp_add. apply (sp_merge_wf wadd _ _ (g_n g) (g_n g)); auto; congruence.
    - intros i j v. unfold sp_add. rewrite sp_get_merge by (auto; congruence).
      destruct (sp_get (g_adj g) i j) as [x|] eqn:G1, (sp_get (g_adj h) i j) as [y|] eqn:G2; simpl; try discriminate;
      intros [= <-]; apply toR_ltb_false; rewrite toR_add, ?toR_0.
      + specialize (Pg _ _ _ G1). specialize (Ph _ _ _ G2). lra.
      + specialize (Pg _ _ _ G1). lra.
      + specialize (Ph _ _ _ G2). lra.
    - intros i j. rewrite !Hc. unfold weight, coeff. now rewrite (S1 i j), (S2 i j).
    - exists k. split; auto. split; auto. intros i j. now rewrite Ew, Hc.
  Qed.
  Lemma graph_add_above g h i j : reachable_pos g -> reachable_pos h ->
    weights_above_eps g -> weights_above_eps h ->
    above_eps (wadd (weight g i j) (weight h i j)) = wadd (weight g i j) (weight h i j).
  Proof.
    intros Hg Hh Ag Ah. unfold above_eps, weight, coeff.
    destruct (sp_get (g_adj g) i j) as [x|] eqn:G1, (sp_get (g_adj h) i j) as [y|] eqn:G2; simpl.
    - pose proof (Ag _ _ _ G1) as Hx. pose proof (Ah _ _ _ G2) as Hy.
      assert (wltb weps (wadd x y) = true) as ->; auto.
      apply toR_ltb in Hx, Hy. apply toR_ltb. rewrite toR_add. pose proof toR_eps. lra.
    - rewrite wadd_0_r, (Ag _ _ _ G1). reflexivity.
    - rewrite wadd_0_l, (Ah _ _ _ G2). reflexivity.
    - rewrite wadd_0_r, pn_0. reflexivity.
  Qed.
  Lemma graph_add_mismatch g h : number_of_vertices g <> number_of_vertices h -> graph_add g h = Throw InvalidArgument.
  Proof.
    unfold number_of_vertices, graph_add. intros Hn. destruct (Nat.eqb_spec (g_n g) (g_n h)); [contradiction|reflexivity].
  Qed.

  Lemma graph_scale_spec s g : reachable_pos g -> (0 <= toR s)%R ->
    exists k, graph_scale s g = Ok k /\ number_of_vertices k = number_of_vertices g /\
      forall i j, weight k i j = above_eps (wmul s (weight g i j)).
  Proof.
    intros Hg Hs. unfold graph_scale, number_of_vertices.
    destruct (reachable_pos_inv g Hg) as [Pg _]. destruct (reachable_pos_ok g Hg) as (R1 & C1 & W1).
    pose proof (reachable_sym g (reachable_pos_reachable g Hg)) as S1.
    assert (forall i j, coeff (sp_map (wmul s) (g_adj g)) i j = wmul s (weight g i j)) as Hc.
    { intros i j. unfold coeff at 1. rewrite sp_get_map. unfold weight, coeff. destruct (sp_get (g_adj g) i j); simpl; auto.
      apply toR_inj. rewrite toR_mul, !toR_0. lra. }
    destruct (make_graph_from_adjacency (sp_map (wmul s) (g_adj g)) (g_n g)) as (k & E & Ek & _ & Ew).
    - split; [simpl; congruence|]. split; [rewrite sp_map_ncols; congruence|]. now apply sp_map_wf.
    - intros i j v. rewrite sp_get_map. destruct (sp_get (g_adj g) i j) as [x|] eqn:G; [|discriminate].
      intros [= <-]. apply toR_ltb_false. rewrite toR_mul, toR_0. specialize (Pg _ _ _ G).
      apply Rmult_le_pos; lra.
    - intros i j. rewrite !Hc. unfold weight, coeff. now rewrite (S1 i j).
    - exists k. split; auto. split; auto. intros i j. now rewrite Ew, Hc.
  Qed.
  (** A negative scalar is refused as soon as the graph has an edge. *)
  Lemma graph_scale_negative s g u v : reachable_pos g -> (toR s < 0)%R -> rw g u v <> 0%R ->
    graph_scale s g = Throw DomainError.
  Proof.
    intros Hg Hs Hw. unfold graph_scale. apply (stored_iff_pos g u v Hg) in Hw.
    destruct (sp_get (g_adj g) u v) as [x|] eqn:G; [clear Hw|congruence].
    destruct (reachable_pos_inv g Hg) as [Pg _]. destruct (reachable_pos_ok g Hg) as (R1 & C1 & W1).
    destruct (sp_get_lt _ _ _ _ W1 G) as [Hu Hv].
    apply (make_graph_bad_laplacian _ (g_n g)).
    - split; [simpl; congruence|]. split; [rewrite sp_map_ncols; congruence|]. now apply sp_map_wf.
    - exists u, v, (wmul s x). rewrite sp_get_map, G. split; auto. apply toR_ltb. rewrite toR_mul, toR_0.
      specialize (Pg _ _ _ G). nra.
    - right. exists v. split; [lia|]. apply toR_ltb. rewrite toR_0, toR_wsum, lsum_map.
      unfold sp_map. rewrite sp_col_map by reflexivity. fold (sp_col (g_adj g) v). rewrite lsum_map. cbn [snd].
      rewrite (lsum_ext _ (fun e => toR s * toR (snd e))%R) by (intros; apply toR_mul).
      rewrite lsum_scal.
      assert (forall e, In e (sp_col (g_adj g) v) -> (0 < toR (snd e))%R) as He.
      { intros [i y] Hin. apply (Pg i v y). apply In_col_get; auto. apply (sp_wf_col _ v W1). }
      assert (toR x <= lsum (fun e => toR (snd e)) (sp_col (g_adj g) v))%R as Hge.
      { apply (lsum_ge_elt (fun e : nat * W => toR (snd e)) _ (u, x)).
        - intros e Hin. apply Rlt_le. now apply He.
        - now apply col_get_In. }
      specialize (Pg _ _ _ G). nra.
  Qed.
End Exact.

Section Pos.
  Context {W : Type} `{Num W} `{!PosNum W}.
  Implicit Types (g h : graph W) (M A : sprs W).

  (** ** C12, unweighted queries *)
  Lemma unweighted_agree g v : reachable g -> no_stored_zero g -> v < number_of_vertices g ->
    exists es, neighbors g (Z.of_nat v) = Ok es /\
      neighbors_unweighted g (Z.of_nat v) = Ok (map v2 es) /\
      degree_unweighted g (Z.of_nat v) = Ok (length es + if weqb (weight g v v) w0 then 0 else 1).
  Proof.
    unfold number_of_vertices. intros Hr Hz Hv. destruct (reachable_ok g Hr) as [Hok _].
    pose proof Hok as (R & C & Hwf).
    rewrite neighbors_eq, neighbors_unweighted_eq by auto.
    assert (filter (fun e => negb (weqb (snd e) w0)) (sp_col (g_adj g) v) = sp_col (g_adj g) v) as Ef.
    { assert (forall e, In e (sp_col (g_adj g) v) -> weqb (snd e) w0 = false) as He.
      { intros [i y] Hin. apply (Hz i v y). apply In_col_get; auto. apply (sp_wf_col _ v Hwf). }
      induction (sp_col (g_adj g) v) as [|e c IH]; simpl; auto.
      rewrite (He e (or_introl eq_refl)). simpl. f_equal. apply IH. intros e' He'. apply He. now right. }
    rewrite Ef. eexists. split; [reflexivity|]. split.
    - f_equal. rewrite map_map. reflexivity.
    - unfold degree_unweighted. rewrite check_vertex_ok by lia. rewrite Nat2Z.id. cbn [obind]. f_equal.
      rewrite degree_unweighted_col by lia. now rewrite map_length.
  Qed.

  (** ** C19 *)
  Definition shift_cols (n : nat) (cs : list (col W)) : list (col W) :=
    map (map (fun e => (n + fst e, snd e))) cs.
  Definition block_mat (A B : sprs W) (n m : nat) : sprs W := mkSprs (n + m) (sp_cols A ++ shift_cols n (sp_cols B)).

  Lemma starts_from_app s (a b : list (col W)) :
    starts_from s (a ++ b) = removelast (starts_from s a) ++ starts_from (s + length (concat a)) b.
  Proof.
    revert s; induction a as [|c a IH]; intros s; simpl.
    - now rewrite Nat.add_0_r.
    - rewrite IH, app_length. rewrite Nat.add_assoc.
      destruct (starts_from (s + length c) a) eqn:E; [destruct a; discriminate|reflexivity].
  Qed.
  Lemma starts_from_shift s (b : list (col W)) : starts_from s b = map (fun x => x + s) (starts_from 0 b).
  Proof.
    assert (forall t, starts_from (s + t) b = map (fun x => x + s) (starts_from t b)) as Hg.
    { induction b as [|c b IH]; intros t; simpl.
      - f_equal. lia.
      - f_equal; [lia|]. rewrite <- IH. f_equal. lia. }
    specialize (Hg 0). now rewrite Nat.add_0_r in Hg.
  Qed.
  Lemma starts_from_map_len s n (b : list (col W)) : starts_from s (shift_cols n b) = starts_from s b.
  Proof.
    revert s; induction b as [|c b IH]; intros s; simpl; auto. now rewrite map_length, IH.
  Qed.
  Lemma starts_from_pos s (b : list (col W)) x : In x (starts_from s b) -> s <= x.
  Proof.
    revert s; induction b as [|c b IH]; intros s; simpl.
    - intros [<-|[]]. lia.
    - intros [<-|Hin]; [lia|]. apply IH in Hin. lia.
  Qed.
  Lemma filter_all {T} (p : T -> bool) l : (forall x, In x l -> p x = true) -> filter p l = l.
  Proof.
    induction l as [|x l IH]; simpl; intros Hp; auto. rewrite (Hp x (or_introl eq_refl)). f_equal. apply IH. auto.
  Qed.

  (** The offsets pushed by disjoint_union when the first column of [h] is not empty. *)
  Lemma union_starts A B : (sp_cols B = [] \/ sp_col B 0 <> []) ->
    outer_starts A ++ map (fun s => s + last (outer_starts A) 0) (filter (fun s => negb (s =? 0)) (outer_starts B))
    = starts_from 0 (sp_cols A ++ sp_cols B).
  Proof.
    intros HB. rewrite starts_from_app. unfold outer_starts. rewrite starts_from_last. simpl (0 + _).
    set (off := length (concat (sp_cols A))).
    assert (starts_from 0 (sp_cols A) = removelast (starts_from 0 (sp_cols A)) ++ [off]) as EA.
    { change off with (0 + off). unfold off. rewrite <- (starts_from_last 0 (sp_cols A) 0). apply app_removelast_last.
      destruct (sp_cols A); discriminate. }
    rewrite EA at 1. rewrite <- app_assoc. f_equal.
    rewrite (starts_from_shift off). unfold sp_col in HB. destruct (sp_cols B) as [|c B']; [reflexivity|].
    destruct HB as [HB|HB]; [discriminate|]. simpl in HB. simpl. f_equal.
    f_equal. apply filter_all. intros x Hx. apply starts_from_pos in Hx.
    destruct c; [congruence|]. simpl in Hx. destruct x; [lia|reflexivity].
  Qed.

  Lemma block_square A B n m : sp_square A n -> sp_square B m -> sp_square (block_mat A B n m) (n + m).
  Proof.
    intros (R1 & C1 & W1) (R2 & C2 & W2). split; [reflexivity|]. split.
    - unfold sp_ncols, block_mat, shift_cols in *. simpl. now rewrite app_length, map_length, C1, C2.
    - unfold sp_wf, block_mat. simpl. apply Forall_app. split.
      + eapply Forall_impl; [|exact W1]. intros c [Hs Hf]. split; auto.
        eapply Forall_impl; [|exact Hf]. simpl. lia.
      + unfold shift_cols. apply Forall_map. eapply Forall_impl; [|exact W2]. intros c [Hs Hf]. rewrite R2 in Hf.
        unfold col_wf. rewrite map_map. simpl. clear W1 W2 R1 R2 C1 C2.
        induction c as [|[k v] c IH]; simpl in *; [split; constructor|].
        inversion Hs as [|? ? Hs' Hlt]; subst. inversion Hf as [|? ? Hk Hf']; subst.
        destruct (IH Hs' Hf') as [I1 I2]. split.
        * constructor; auto. rewrite Forall_map in Hlt |- *. eapply Forall_impl; [|exact Hlt]. simpl. lia.
        * constructor; auto. lia.
  Qed.
  Lemma col_get_shift n (c : col W) i :
    col_get (map (fun e => (n + fst e, snd e)) c) i = if i <? n then None else col_get c (i - n).
  Proof.
    induction c as [|[k v] c IH]; simpl; [now destruct (i <? n)|]. rewrite IH.
    destruct (Nat.ltb_spec i n) as [Hi|Hi].
    - destruct (Nat.eqb_spec (n + k) i); [lia|reflexivity].
    - destruct (Nat.eqb_spec (n + k) i), (Nat.eqb_spec k (i - n)); auto; lia.
  Qed.
  Lemma block_get A B n m i j : sp_square A n -> sp_square B m ->
    sp_get (block_mat A B n m) i j =
    if j <? n then sp_get A i j
    else if i <? n then None else sp_get B (i - n) (j - n).
  Proof.
    intros (R1 & C1 & W1) (R2 & C2 & W2). unfold sp_get, sp_col at 1, block_mat. cbn [sp_cols].
    unfold sp_ncols in C1. destruct (Nat.ltb_spec j n) as [Hj|Hj].
    - rewrite app_nth1 by lia. reflexivity.
    - rewrite app_nth2 by lia. rewrite C1. unfold shift_cols.
      change (@nil (nat * W)) with (map (fun e : nat * W => (n + fst e, snd e)) []) at 1.
      rewrite map_nth. rewrite col_get_shift. reflexivity.
  Qed.

  Lemma disjoint_union_block g h : sp_square (g_adj g) (g_n g) -> sp_square (g_adj h) (g_n h) ->
    (sp_cols (g_adj h) = [] \/ sp_col (g_adj h) 0 <> []) ->
    disjoint_union g h = make_graph (block_mat (g_adj g) (g_adj h) (g_n g) (g_n h)).
  Proof.
    intros Hg Hh Hc. unfold disjoint_union, make_graph_vectors. cbv zeta.
    rewrite union_starts by auto.
    pose proof (from_vectors_roundtrip _ _ (block_square _ _ _ _ Hg Hh)) as Hr.
    assert (outer_starts (block_mat (g_adj g) (g_adj h) (g_n g) (g_n h)) = starts_from 0 (sp_cols (g_adj g) ++ sp_cols (g_adj h))) as E1.
    { unfold outer_starts, block_mat. cbn [sp_cols]. rewrite !starts_from_app, starts_from_map_len. reflexivity. }
    assert (concat (shift_cols (g_n g) (sp_cols (g_adj h))) = map (fun e => (g_n g + fst e, snd e)) (concat (sp_cols (g_adj h)))) as E0.
    { unfold shift_cols. now rewrite concat_map. }
    assert (inner_indices (block_mat (g_adj g) (g_adj h) (g_n g) (g_n h)) =
            inner_indices (g_adj g) ++ map (fun k => k + g_n g) (inner_indices (g_adj h))) as E2.
    { unfold inner_indices, block_mat. cbn [sp_cols]. rewrite concat_app, map_app, E0, !map_map. f_equal.
      apply map_ext. intros e. simpl. lia. }
    assert (sp_values (block_mat (g_adj g) (g_adj h) (g_n g) (g_n h)) = sp_values (g_adj g) ++ sp_values (g_adj h)) as E3.
    { unfold sp_values, block_mat. cbn [sp_cols]. rewrite concat_app, map_app, E0, !map_map. reflexivity. }
    rewrite <- E1, <- E2, <- E3, Hr. reflexivity.
  Qed.

  Lemma disjoint_union_spec g h : reachable g -> reachable h -> nonneg_entries (g_adj g) -> nonneg_entries (g_adj h) ->
    (number_of_vertices h = 0 \/ exists u, sp_get (g_adj h) u 0 <> None) ->
    exists k, disjoint_union g h = Ok k /\
      number_of_vertices k = number_of_vertices g + number_of_vertices h /\
      forall i j, weight k i j =
        if (i <? number_of_vertices g) && (j <? number_of_vertices g) then above_eps (weight g i j)
        else if (i <? number_of_vertices g) || (j <? number_of_vertices g) then w0
        else above_eps (weight h (i - number_of_vertices g) (j - number_of_vertices g)).
  Proof.
    unfold number_of_vertices. intros Hg Hh Ng Nh Hc.
    destruct (reachable_ok g Hg) as [Sg _]. destruct (reachable_ok h Hh) as [Sh _]. unfold g_ok in Sg, Sh.
    pose proof (reachable_sym g Hg) as Yg. pose proof (reachable_sym h Hh) as Yh.
    rewrite disjoint_union_block; auto.
    2:{ destruct Hc as [Hc|[u Hu]].
        - left. destruct Sh as (_ & C & _). unfold sp_ncols in C. rewrite Hc in C. now apply length_zero_iff_nil.
        - right. intros E. apply Hu. unfold sp_get. now rewrite E. }
    set (B := block_mat (g_adj g) (g_adj h) (g_n g) (g_n h)).
    assert (forall i j, sp_get B i j = _) as HB by (intros; apply block_get; auto).
    assert (forall i j, coeff B i j =
        if (i <? g_n g) && (j <? g_n g) then weight g i j
        else if (i <? g_n g) || (j <? g_n g) then w0
        else weight h (i - g_n g) (j - g_n g)) as HBc.
    { intros i j. unfold coeff at 1. rewrite HB.
      destruct (Nat.ltb_spec j (g_n g)) as [Hj|Hj].
      - rewrite andb_true_r, orb_true_r. destruct (Nat.ltb_spec i (g_n g)); [reflexivity|].
        fold (coeff (g_adj g) i j). apply coeff_out; [apply Sg|]. destruct Sg as (R & _ & _). lia.
      - rewrite andb_false_r, orb_false_r. destruct (i <? g_n g); reflexivity. }
    destruct (make_graph_from_adjacency B (g_n g + g_n h)) as (k & E & Ek & _ & Ew).
    - now apply block_square.
    - intros i j v. rewrite HB. destruct (j <? g_n g); [apply Ng|]. destruct (i <? g_n g); [discriminate|apply Nh].
    - intros i j. rewrite !HBc.
      rewrite (andb_comm (j <? g_n g)), (orb_comm (j <? g_n g)).
      rewrite (weight_sym g i j Hg), (weight_sym h (i - g_n g) (j - g_n g) Hh). reflexivity.
    - exists k. split; auto. split; auto. intros i j. rewrite Ew, HBc.
      destruct (_ && _); auto. destruct (_ || _); auto. unfold above_eps. now rewrite pn_0.
  Qed.

  (** ** C18 *)
  Lemma dedup_In seen vs x : In x (dedup seen vs) <-> In x vs /\ ~ In x seen.
  Proof.
    revert seen; induction vs as [|v vs IH]; intros seen; simpl; [tauto|].
    destruct (existsb (Z.eqb v) seen) eqn:E.
    - apply existsb_exists in E. destruct E as [y [Hy Ey]]. apply Z.eqb_eq in Ey. subst y.
      rewrite IH. split; [tauto|]. intros [[->|Hin] Hn]; tauto.
    - assert (~ In v seen) as Hv.
      { intros Hin. assert (existsb (Z.eqb v) seen = true); [|congruence].
        apply existsb_exists. exists v. split; auto. apply Z.eqb_refl. }
      simpl. rewrite IH. simpl. destruct (Z.eq_dec v x) as [->|Hne]; [tauto|].
      split; [tauto|]. intros [[Hx|Hx] Hn]; [tauto|]. right. split; auto. tauto.
  Qed.
  Lemma dedup_NoDup seen vs : NoDup (dedup seen vs).
  Proof.
    revert seen; induction vs as [|v vs IH]; intros seen; simpl; [constructor|].
    destruct (existsb (Z.eqb v) seen); auto. constructor; auto. rewrite dedup_In. simpl. tauto.
  Qed.
  Lemma index_of_nth l k : NoDup l -> k < length l -> index_of (nth k l 0%Z) l = k.
  Proof.
    revert k; induction l as [|x l IH]; intros k Hd Hk; simpl in *; [lia|].
    inversion Hd as [|? ? Hx Hd']; subst. destruct k as [|k].
    - now rewrite Z.eqb_refl.
    - destruct (Z.eqb_spec x (nth k l 0%Z)) as [->|_].
      + exfalso. apply Hx. apply nth_In. lia.
      + f_equal. apply IH; auto. lia.
  Qed.
  Lemma index_of_In l v : In v l -> index_of v l < length l /\ nth (index_of v l) l 0%Z = v.
  Proof.
    induction l as [|x l IH]; simpl; [tauto|]. destruct (Z.eqb_spec x v) as [->|Hne].
    - intros _. split; [lia|auto].
    - intros [->|Hin]; [congruence|]. destruct (IH Hin). split; [lia|auto].
  Qed.
  Lemma mem_Z v l : existsb (Z.eqb v) l = true <-> In v l.
  Proof.
    rewrite existsb_exists. split.
    - intros [x [Hx E]]. apply Z.eqb_eq in E. now subst.
    - intros Hin. exists v. split; auto. apply Z.eqb_refl.
  Qed.

  Definition col_nz g v : col W := filter (fun e => negb (weqb (snd e) w0)) (sp_col (g_adj g) v).
  Lemma subgraph_triplets_ok g vset iter : g_ok g ->
    (forall v, In v iter -> (0 <= v < Z.of_nat (g_n g))%Z) ->
    subgraph_triplets g vset iter =
    Ok (flat_map (fun v => subgraph_triplets_of vset v
          (map (fun e => mkEdge (Z.to_nat v) (fst e) (snd e)) (col_nz g (Z.to_nat v)))) iter).
  Proof.
    intros Hok. induction iter as [|v r IH]; simpl; intros Hv; auto.
    assert (0 <= v < Z.of_nat (g_n g))%Z as Hv0 by (apply Hv; auto).
    rewrite <- (Z2Nat.id v) at 1 by lia. rewrite neighbors_eq by (auto; lia). cbn [obind].
    rewrite IH by (intros; apply Hv; auto). reflexivity.
  Qed.
  Lemma subgraph_triplets_bad g vset iter v : g_ok g -> In v iter -> ~ (0 <= v < Z.of_nat (g_n g))%Z ->
    subgraph_triplets g vset iter = Throw InvalidArgument.
  Proof.
    intros Hok. induction iter as [|x r IH]; simpl; intros Hin Hv; [tauto|].
    destruct (Z_le_dec 0 x) as [H0|H0]; [destruct (Z_lt_dec x (Z.of_nat (g_n g))) as [H1|H1]|].
    - rewrite <- (Z2Nat.id x) at 1 by lia. rewrite neighbors_eq by (auto; lia). cbn [obind].
      destruct Hin as [->|Hin]; [lia|]. now rewrite IH.
    - unfold neighbors. rewrite check_vertex_bad by lia. reflexivity.
    - unfold neighbors. rewrite check_vertex_bad by lia. reflexivity.
  Qed.

  Lemma subgraph_invalid g vs iter v : reachable g -> Permutation iter (dedup [] vs) -> In v vs ->
    ~ (0 <= v < Z.of_nat (number_of_vertices g))%Z -> subgraph g vs iter = Throw InvalidArgument.
  Proof.
    intros Hr Hp Hin Hv. unfold subgraph. destruct (reachable_ok g Hr) as [Hok _].
    rewrite (subgraph_triplets_bad g _ iter v); auto.
    eapply Permutation_in; [apply Permutation_sym; exact Hp|]. apply dedup_In. simpl. tauto.
  Qed.

  (** The distinct elements of [vs] appear in the order of their first occurrences. *)
  Lemma dedup_index seen pre vs : (forall x, In x seen <-> In x pre) ->
    StronglySorted (fun x y => index_of x (pre ++ vs) < index_of y (pre ++ vs)) (dedup seen vs) /\
    Forall (fun x => length pre <= index_of x (pre ++ vs)) (dedup seen vs).
  Proof.
    revert seen pre; induction vs as [|v vs IH]; intros seen pre Hs; simpl; [split; constructor|].
    assert (pre ++ v :: vs = (pre ++ [v]) ++ vs) as E by now rewrite <- app_assoc.
    destruct (existsb (Z.eqb v) seen) eqn:Ev.
    - destruct (IH seen (pre ++ [v])) as [I1 I2].
      + intros x. rewrite in_app_iff. simpl. apply mem_Z in Ev. rewrite Hs. rewrite Hs in Ev.
        split; [tauto|]. intros [Hx|[->|[]]]; auto.
      + rewrite <- E in I1, I2. split; auto. eapply Forall_impl; [|exact I2]. intros x. rewrite app_length. simpl. lia.
    - assert (~ In v pre) as Hv.
      { rewrite <- Hs. intros Hin. apply mem_Z in Hin. congruence. }
      assert (index_of v (pre ++ v :: vs) = length pre) as Ei.
      { clear - Hv. induction pre as [|x pre IH]; simpl; [now rewrite Z.eqb_refl|].
        destruct (Z.eqb_spec x v) as [->|]; [exfalso; apply Hv; now left|]. f_equal. apply IH. intros Hin. apply Hv. now right. }
      destruct (IH (v :: seen) (pre ++ [v])) as [I1 I2].
      + intros x. rewrite in_app_iff. simpl. rewrite Hs. tauto.
      + rewrite <- E in I1, I2. split; constructor; auto.
        * eapply Forall_impl; [|exact I2]. intros x. rewrite app_length, Ei. simpl. lia.
        * lia.
        * eapply Forall_impl; [|exact I2]. intros x. rewrite app_length. simpl. lia.
  Qed.

  Lemma index_of_before vs x y : In x vs -> index_of x vs < index_of y vs -> occurs_before vs x y.
  Proof.
    induction vs as [|v vs IH]; simpl; [tauto|]. intros Hin Hlt.
    destruct (Z.eqb_spec v x) as [->|Hx].
    - exists [], vs. simpl. auto.
    - destruct (Z.eqb_spec v y) as [->|Hy]; [lia|]. destruct Hin as [->|Hin]; [congruence|].
      destruct (IH Hin) as (a & b & -> & Ha & Hb); [lia|]. exists (v :: a), b. simpl. intuition.
  Qed.
  Lemma dedup_first vs : first_occurrences vs (dedup [] vs).
  Proof.
    assert (forall x, In x (dedup [] vs) <-> In x vs) as Hi by (intros x; rewrite dedup_In; simpl; tauto).
    split; [apply dedup_NoDup|]. split; [exact Hi|].
    destruct (dedup_index [] [] vs) as [Hd _]; [tauto|]. simpl in Hd.
    assert (forall l, (forall x, In x l -> In x vs) -> StronglySorted (fun x y => index_of x vs < index_of y vs) l ->
      StronglySorted (occurs_before vs) l) as Hg.
    { induction l as [|x l IH]; intros Hl Hs; constructor; inversion Hs as [|? ? Hs' Hf]; subst.
      - apply IH; auto. intros; apply Hl; now right.
      - eapply Forall_impl; [|exact Hf]. intros y Hy. apply index_of_before; auto. apply Hl. now left. }
    apply Hg; auto. intros x. apply Hi.
  Qed.

  Lemma flat_map_col_pick (c : col W) m n : col_wf n c ->
    flat_map (fun e => if fst e =? m then [snd e] else []) c = match col_get c m with Some w => [w] | None => [] end.
  Proof.
    induction c as [|[k v] c IH]; intros [Hs Hf]; [reflexivity|].
    cbn [map fst] in Hs, Hf. inversion Hs as [|? ? Hs' Hlt]; subst. inversion Hf; subst.
    cbn [flat_map fst snd col_get]. rewrite IH by (split; auto). destruct (Nat.eqb_spec k m) as [->|]; [|reflexivity].
    now rewrite col_get_none_lt.
  Qed.

  Lemma sub_tvals_one g vset (a : Z) k l :
    g_ok g -> NoDup vset -> (forall x, In x vset -> (0 <= x < Z.of_nat (g_n g))%Z) -> In a vset ->
    k < length vset -> l < length vset ->
    tvals (subgraph_triplets_of vset a
            (map (fun e => mkEdge (Z.to_nat a) (fst e) (snd e)) (col_nz g (Z.to_nat a)))) k l =
    if (a =? Z.min (nth k vset 0%Z) (nth l vset 0%Z))%Z
    then match col_get (col_nz g (Z.to_nat a)) (Z.to_nat (Z.max (nth k vset 0%Z) (nth l vset 0%Z))) with
         | Some w => [w] | None => [] end
    else [].
  Proof.
    intros Hok Hd Hval Ha Hk Hl. set (v := nth k vset 0%Z). set (u := nth l vset 0%Z).
    assert (In v vset) as Hv by (apply nth_In; auto). assert (In u vset) as Hu by (apply nth_In; auto).
    pose proof (Hval _ Hv) as Bv. pose proof (Hval _ Hu) as Bu. pose proof (Hval _ Ha) as Ba.
    assert (forall x, In x vset -> (index_of x vset =? k) = (x =? v)%Z) as Ik.
    { intros x Hx. destruct (Nat.eqb_spec (index_of x vset) k) as [E|E].
      - symmetry. apply Z.eqb_eq. unfold v. rewrite <- E. symmetry. apply index_of_In; auto.
      - symmetry. apply Z.eqb_neq. intros ->. apply E. now apply index_of_nth. }
    assert (forall x, In x vset -> (index_of x vset =? l) = (x =? u)%Z) as Il.
    { intros x Hx. destruct (Nat.eqb_spec (index_of x vset) l) as [E|E].
      - symmetry. apply Z.eqb_eq. unfold u. rewrite <- E. symmetry. apply index_of_In; auto.
      - symmetry. apply Z.eqb_neq. intros ->. apply E. now apply index_of_nth. }
    unfold subgraph_triplets_of. rewrite tvals_flat_map, flat_map_concat_map, map_map, <- flat_map_concat_map.
    cbn [v2 ewt].
    assert (col_wf (g_n g) (col_nz g (Z.to_nat a))) as Hcw.
    { destruct Hok as (R & C & Hwf). rewrite <- R. apply filter_wf. now apply sp_wf_col. }
    destruct (Z.eqb_spec a (Z.min v u)) as [Ea|Ea].
    - rewrite <- (flat_map_col_pick _ _ _ Hcw). apply flat_map_ext_in. intros [b w] Hin. cbn [fst snd].
      assert (b < g_n g) as Hb.
      { destruct Hcw as [_ Hf]. rewrite Forall_forall in Hf. apply Hf. now apply (in_map fst _ (b, w)). }
      destruct (Nat.eqb_spec b (Z.to_nat (Z.max v u))) as [Eb|Eb].
      + assert (Z.of_nat b = Z.max v u) as Eb' by lia. rewrite Eb'.
        assert (In (Z.max v u) vset) as Hm by (destruct (Z.max_spec v u) as [[_ ->]|[_ ->]]; auto).
        rewrite (proj2 (mem_Z _ _) Hm). rewrite andb_true_r. destruct (Z.leb_spec a (Z.max v u)); [|lia].
        rewrite tvals_cons. rewrite (Ik a Ha), (Il _ Hm).
        destruct (Z.ltb_spec a (Z.max v u)) as [Hlt|Hge].
        * rewrite tvals_cons, tvals_nil, (Ik _ Hm), (Il a Ha).
          destruct (Z.eqb_spec a v), (Z.eqb_spec (Z.max v u) u), (Z.eqb_spec (Z.max v u) v), (Z.eqb_spec a u);
          cbn [andb app]; try reflexivity; lia.
        * rewrite tvals_nil. destruct (Z.eqb_spec a v), (Z.eqb_spec (Z.max v u) u); cbn [andb app]; try reflexivity; lia.
      + destruct ((a <=? Z.of_nat b)%Z && existsb (Z.eqb (Z.of_nat b)) vset) eqn:E; [|reflexivity].
        apply andb_true_iff in E. destruct E as [Eab Em]. apply Z.leb_le in Eab. apply mem_Z in Em.
        rewrite tvals_cons, (Ik a Ha), (Il _ Em).
        destruct (Z.ltb_spec a (Z.of_nat b)) as [Hlt|Hge].
        * rewrite tvals_cons, tvals_nil, (Ik _ Em), (Il a Ha).
          destruct (Z.eqb_spec a v), (Z.eqb_spec (Z.of_nat b) u), (Z.eqb_spec (Z.of_nat b) v), (Z.eqb_spec a u);
          cbn [andb app]; try reflexivity; lia.
        * rewrite tvals_nil. destruct (Z.eqb_spec a v), (Z.eqb_spec (Z.of_nat b) u); cbn [andb app]; try reflexivity; lia.
    - apply flat_map_none. intros [b w] Hin. cbn [fst snd].
      destruct ((a <=? Z.of_nat b)%Z && existsb (Z.eqb (Z.of_nat b)) vset) eqn:E; [|reflexivity].
      apply andb_true_iff in E. destruct E as [Eab Em]. apply Z.leb_le in Eab. apply mem_Z in Em.
      rewrite tvals_cons, (Ik a Ha), (Il _ Em).
      destruct (Z.ltb_spec a (Z.of_nat b)) as [Hlt|Hge].
      + rewrite tvals_cons, tvals_nil, (Ik _ Em), (Il a Ha).
        destruct (Z.eqb_spec a v), (Z.eqb_spec (Z.of_nat b) u), (Z.eqb_spec (Z.of_nat b) v), (Z.eqb_spec a u);
        cbn [andb app]; try reflexivity; lia.
      + rewrite tvals_nil. destruct (Z.eqb_spec a v), (Z.eqb_spec (Z.of_nat b) u); cbn [andb app]; try reflexivity; lia.
  Qed.

  Lemma subgraph_spec g vs iter : reachable g -> nonneg_entries (g_adj g) ->
    (forall v, In v vs -> (0 <= v < Z.of_nat (number_of_vertices g))%Z) ->
    Permutation iter (dedup [] vs) ->
    exists k, subgraph g vs iter = Ok k /\ number_of_vertices k = length (dedup [] vs) /\
      forall a b, a < length (dedup [] vs) -> b < length (dedup [] vs) ->
        weight k a b = above_eps (weight g (Z.to_nat (nth a (dedup [] vs) 0%Z)) (Z.to_nat (nth b (dedup [] vs) 0%Z))).
  Proof.
    intros Hr Hn Hval Hp. unfold subgraph. set (ds := dedup [] vs) in *.
    destruct (reachable_ok g Hr) as [Hok _]. pose proof (reachable_sym g Hr) as Hs.
    assert (NoDup ds) as Hd by apply dedup_NoDup.
    assert (forall x, In x ds -> (0 <= x < Z.of_nat (g_n g))%Z) as Hds.
    { intros x Hx. apply Hval. apply dedup_In in Hx. tauto. }
    assert (forall x, In x iter <-> In x ds) as Hit.
    { intros x. split; intros Hx; [eapply Permutation_in|eapply Permutation_in; [apply Permutation_sym|]]; eauto. }
    assert (NoDup iter) as Hdi by (eapply Permutation_NoDup; [apply Permutation_sym; exact Hp|auto]).
    rewrite subgraph_triplets_ok by (auto; intros; apply Hds, Hit; auto). cbn [obind].
    set (ts := flat_map _ iter).
    set (F := fun a b => let v := nth a ds 0%Z in let u := nth b ds 0%Z in
          if (a <? length ds) && (b <? length ds) then
            match sp_get (g_adj g) (Z.to_nat v) (Z.to_nat u) with
            | Some w => if weqb w w0 then None else Some w | None => None end
          else None).
    assert (forall a b w, In (a, b, w) ts -> a < length ds /\ b < length ds) as Hin.
    { intros a b w Ht. unfold ts in Ht. apply in_flat_map in Ht. destruct Ht as [x [Hx Ht]].
      unfold subgraph_triplets_of in Ht. apply in_flat_map in Ht. destruct Ht as [e [He Ht]].
      destruct (_ && _) eqn:E; [|destruct Ht]. apply andb_true_iff in E. destruct E as [_ Em]. apply mem_Z in Em.
      pose proof (proj1 (index_of_In ds x (proj1 (Hit x) Hx))). pose proof (proj1 (index_of_In ds _ Em)).
      destruct Ht as [[= <- <- <-]|Ht]; [auto|].
      destruct (_ <? _)%Z; [|destruct Ht]. destruct Ht as [[= <- <- <-]|[]]. auto. }
    assert (forall a b, sum1 (tvals ts a b) = F a b) as HF.
    { intros a b. unfold F. cbv zeta.
      destruct (Nat.ltb_spec a (length ds)) as [Ha|Ha]; [destruct (Nat.ltb_spec b (length ds)) as [Hb|Hb]|]; cbn [andb].
      - unfold ts. rewrite tvals_flat_map.
        set (v := nth a ds 0%Z). set (u := nth b ds 0%Z).
        assert (In v ds) as Hv by (apply nth_In; auto). assert (In u ds) as Hu by (apply nth_In; auto).
        assert (In (Z.min v u) ds) as Hm by (destruct (Z.min_spec v u) as [[_ ->]|[_ ->]]; auto).
        rewrite (flat_map_only _ _ (Z.min v u)); [|auto|now apply Hit|].
        + rewrite sub_tvals_one; auto. fold v u. rewrite Z.eqb_refl.
          assert (sp_get (g_adj g) (Z.to_nat v) (Z.to_nat u) =
                  sp_get (g_adj g) (Z.to_nat (Z.max v u)) (Z.to_nat (Z.min v u))) as ->.
          { destruct (Z.max_spec v u) as [[Hlt ->]|[Hle ->]].
            - rewrite Z.min_l by lia. apply Hs.
            - rewrite Z.min_r by lia. reflexivity. }
          destruct Hok as (R & C & Hwf).
          unfold col_nz. rewrite (col_get_filter (fun e => negb (weqb (snd e) w0)));
            [|apply (sp_wf_col _ _ Hwf)].
          fold (sp_get (g_adj g) (Z.to_nat (Z.max v u)) (Z.to_nat (Z.min v u))).
          destruct (sp_get _ _ _) as [w|]; [|reflexivity]. simpl. destruct (weqb w w0); reflexivity.
        + intros x Hx Hne. rewrite sub_tvals_one; auto; [|now apply Hit]. fold v u.
          destruct (Z.eqb_spec x (Z.min v u)); [contradiction|reflexivity].
      - destruct (tvals ts a b) as [|w r] eqn:E; [reflexivity|]. exfalso.
        assert (In w (tvals ts a b)) as Hw by (rewrite E; now left). unfold tvals in Hw.
        apply in_map_iff in Hw. destruct Hw as [[[a' b'] w'] [_ Hw]]. apply filter_In in Hw. destruct Hw as [Hw Eab].
        simpl in Eab. apply andb_true_iff in Eab. destruct Eab as [E1 E2]. apply Nat.eqb_eq in E1, E2. subst.
        apply Hin in Hw. lia.
      - destruct (tvals ts a b) as [|w r] eqn:E; [reflexivity|]. exfalso.
        assert (In w (tvals ts a b)) as Hw by (rewrite E; now left). unfold tvals in Hw.
        apply in_map_iff in Hw. destruct Hw as [[[a' b'] w'] [_ Hw]]. apply filter_In in Hw. destruct Hw as [Hw Eab].
        simpl in Eab. apply andb_true_iff in Eab. destruct Eab as [E1 E2]. apply Nat.eqb_eq in E1, E2. subst.
        apply Hin in Hw. lia. }
    destruct (from_triplets_graph_spec (length ds) ts F) as (k & E & En & _ & _ & Ew); auto.
    - intros a b v. unfold F. cbv zeta. destruct (_ && _); [|discriminate].
      destruct (sp_get _ _ _) as [w|] eqn:G; [|discriminate]. destruct (weqb w w0); [discriminate|].
      intros [= <-]. eapply Hn; eauto.
    - intros a b. unfold F. cbv zeta. rewrite (andb_comm (b <? _)). rewrite (Hs (Z.to_nat (nth b ds 0%Z))). reflexivity.
    - exists k. split; [exact E|]. split; auto. intros a b Ha Hb. rewrite Ew. unfold F. cbv zeta.
      apply Nat.ltb_lt in Ha, Hb. rewrite Ha, Hb. cbn [andb]. unfold weight, coeff.
      destruct (sp_get _ _ _) as [w|]; [|reflexivity]. destruct (weqb w w0) eqn:E0; [|reflexivity].
      simpl. unfold above_eps. rewrite pn_0. destruct (wltb weps w) eqn:Ew'; [|reflexivity].
      rewrite pn_nz in E0 by exact Ew'. discriminate.
  Qed.

  (** ** C21 *)
  Lemma sprs_to_vec_spec M n : sp_wf M ->
    ((n < 1)%Z -> sprs_to_vec M n = Throw InvalidArgument) /\
    ((1 <= n)%Z -> exists l, sprs_to_vec M n = Ok l /\ length l = Z.to_nat n /\
        forall i, i < Z.to_nat n -> nth i l w0 = coeff M i 0).
  Proof.
    intros Hwf. unfold sprs_to_vec. split; intros Hn.
    - destruct (Z.ltb_spec n 1); [reflexivity|lia].
    - destruct (Z.ltb_spec n 1); [lia|]. eexists. split; [reflexivity|]. split.
      + now rewrite map_length, seq_length.
      + intros i Hi. match goal with |- context [map ?f _] => set (F := f) end.
        rewrite (nth_indep _ w0 (F 0)) by (rewrite map_length, seq_length; lia).
        rewrite map_nth, seq_nth by lia. unfold F. simpl (0 + i). destruct (Nat.ltb_spec i (sp_rows M)); [reflexivity|].
        symmetry. apply coeff_out; auto. lia.
  Qed.
End Pos.

Section Exact2.
  Context {W : Type} `{ExactNum W}.
  Lemma add_vectors_spec (a b : list W) :
    length (add_vectors a b) = Nat.max (length a) (length b) /\
    forall i, toR (nth i (add_vectors a b) w0) = (toR (nth i a w0) + toR (nth i b w0))%R.
  Proof.
    unfold add_vectors. split; [now rewrite map_length, seq_length|]. intros i.
    destruct (Nat.lt_ge_cases i (Nat.max (length a) (length b))) as [Hi|Hi].
    - match goal with |- context [map ?f _] => set (F := f) end.
      rewrite (nth_indep _ w0 (F 0)) by (rewrite map_length, seq_length; lia).
      rewrite map_nth, seq_nth by lia. simpl. unfold F. cbv zeta.
      destruct (Nat.ltb_spec i (length a)), (Nat.ltb_spec i (length b)); rewrite ?toR_add, ?toR_0.
      + lra.
      + rewrite (nth_overflow b) by lia. rewrite toR_0. lra.
      + rewrite (nth_overflow a) by lia. rewrite toR_0. lra.
      + lia.
    - rewrite !nth_overflow by (rewrite ?map_length, ?seq_length; lia). rewrite toR_0. lra.
  Qed.
End Exact2.

Section Extra.
  Context {W : Type} `{ExactNum W}.
  Lemma graph_eqb_exact (g h : graph W) : reachable_pos g -> reachable_pos h ->
    (graph_eqb g h = true <->
     number_of_vertices g = number_of_vertices h /\ forall i j, weight g i j = weight h i j).
  Proof.
    intros Hg Hh.
    assert (forall k : graph W, reachable_pos k -> proper_weights k) as Hp.
    { intros k Hk i j v G. destruct (reachable_pos_inv k Hk) as [Pk _]. specialize (Pk _ _ _ G). repeat split.
      - now apply toR_eqb.
      - intros y Ey. apply toR_inj. now apply toR_eqb.
      - intros ->. rewrite toR_0 in Pk. lra. }
    apply graph_eqb_iff; auto; now apply reachable_pos_ok.
  Qed.
  Lemma is_symmetric_exact (M : sprs W) : sp_wf M ->
    (is_symmetric M = true <-> forall i j, rcoeff M i j = rcoeff M j i).
  Proof.
    intros Hwf. rewrite is_symmetric_spec by auto. unfold rcoeff. split.
    - intros Hs i j. destruct (sp_get M i j) as [v|] eqn:G.
      + specialize (Hs i j v G). apply toR_eqb in Hs. rewrite <- Hs. unfold coeff. now rewrite G.
      + destruct (sp_get M j i) as [v|] eqn:G'.
        * specialize (Hs j i v G'). apply toR_eqb in Hs. rewrite <- Hs. unfold coeff. now rewrite G'.
        * unfold coeff. now rewrite G, G'.
    - intros Hs i j v G. apply toR_eqb. rewrite <- Hs. unfold coeff. now rewrite G.
  Qed.
End Extra.

Section Extra2.
  Context {W : Type} `{Num W}.
  Lemma subgraph_invalid_any (g : graph W) vs ds iter v : reachable g ->
    first_occurrences vs ds -> Permutation iter ds -> In v vs ->
    ~ (0 <= v < Z.of_nat (number_of_vertices g))%Z -> subgraph g vs iter = Throw InvalidArgument.
  Proof.
    intros Hr (_ & Hin & _) Hp Hv Hn. unfold subgraph. destruct (reachable_ok g Hr) as [Hok _].
    rewrite (subgraph_triplets_bad g _ iter v); auto.
    eapply Permutation_in; [apply Permutation_sym; exact Hp|]. now apply Hin.
  Qed.
End Extra2.
