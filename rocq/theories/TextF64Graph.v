(** Saving and loading a graph whose weights are changed by printing (C75). *)
From Verif Require Import Base Num RSum Sparse SparseFacts Graph GraphFacts GraphSpec GraphProps1 GraphProps2 GraphProps4 Cluster ClusterSweep
  Text TextFacts TextQc GraphIO IOSpec GraphIOFacts GraphIOLoad GraphIOAdj FloatFacts TextF64 TextF64Facts TextF64Top.
From Coq Require Import ZArith Reals Lra Lia SpecFloat Ascii String List.
From Flocq Require Import Core BinarySingleNaN.
Import ListNotations.
Local Open Scope nat_scope.
Local Open Scope char_scope.
Local Open Scope list_scope.

Section Reread.
  Context {W : Type} `{Num W} `{!PosNum W} `{!TextNum W}.
  Implicit Types (g h : graph W) (A : sprs W).

  Lemma sp_prune_all (p : W -> bool) A : sp_wf A -> (forall i j v, sp_get A i j = Some v -> p v = true) -> sp_prune p A = A.
  Proof.
    intros Hwf Hp. destruct A as [n cs]. unfold sp_prune. cbn [sp_rows sp_cols]. f_equal.
    assert (forall c, In c cs -> filter (fun e => p (snd e)) c = c) as Hc.
    { intros c Hin. destruct (In_nth cs c [] Hin) as (k & Hk & Ec).
      assert (forall e, In e c -> p (snd e) = true) as He.
      { intros [i v] He. apply (Hp i k). apply In_col_get; [apply (sp_wf_col _ k Hwf)|]. unfold sp_col. cbn [sp_cols]. rewrite Ec. exact He. }
      clear - He. induction c as [|e c IH]; auto. cbn [filter]. rewrite (He e (or_introl eq_refl)). f_equal. apply IH. intros e' H'. apply He. now right. }
    clear - Hc. induction cs as [|c cs IH]; auto. cbn [map]. rewrite (Hc c (or_introl eq_refl)). f_equal. apply IH. intros c' H'. apply Hc. now right.
  Qed.
  Lemma sp_col_sp_map (f : W -> W) A k : sp_col (sp_map f A) k = map (fun e => (fst e, f (snd e))) (sp_col A k).
  Proof. unfold sp_col, sp_map. cbn [sp_cols]. now rewrite <- (map_nth (map (fun e => (fst e, f (snd e)))) (sp_cols A) []). Qed.
  Lemma upper_map (f : W -> W) A : upper_entries (sp_map f A) = map (fun '(i, j, w) => (i, j, f w)) (upper_entries A).
  Proof.
    unfold upper_entries. rewrite sp_map_ncols. induction (seq 0 (sp_ncols A)) as [|k l IH]; auto. cbn [flat_map]. rewrite map_app, <- IH. f_equal. clear IH.
    rewrite sp_col_sp_map. induction (sp_col A k) as [|[i w] c IHc]; auto. cbn [map filter fst snd]. destruct (Nat.ltb i k); cbn [map fst snd]; now rewrite IHc.
  Qed.

  Variable rho : W -> W.
  Definition reread_weights g : Prop := forall i j w, sp_get (g_adj g) i j = Some w -> fmt (rho w) = fmt w /\ printable (rho w) /\ wltb weps (rho w) = true.

  Lemma reread_graph g : reachable g -> reread_weights g ->
    exists g', reachable g' /\ weights_above_eps g' /\ number_of_vertices g' = number_of_vertices g /\ g_adj g' = sp_map rho (g_adj g).
  Proof.
    intros Hr Hw. destruct (reachable_ok g Hr) as [Hok _]. pose proof Hok as (R & C & Hwf). pose proof (reachable_sym g Hr) as Hs.
    assert (forall i j v, sp_get (sp_map rho (g_adj g)) i j = Some v -> wltb weps v = true) as Hp.
    { intros i j v. rewrite sp_get_map. destruct (sp_get (g_adj g) i j) as [w|] eqn:G; [|discriminate]. intros [= <-]. eapply Hw; eauto. }
    destruct (make_graph_from_adjacency (sp_map rho (g_adj g)) (g_n g)) as (g' & E & En & Eg & _).
    - split; [exact R|]. split; [now rewrite sp_map_ncols|now apply sp_map_wf].
    - intros i j v G. apply pn_pos. eapply Hp; eauto.
    - intros i j. unfold coeff. now rewrite !sp_get_map, (Hs i j).
    - destruct (constructed_above_eps _ g' (sp_map_wf rho _ Hwf) E) as [Hr' Ha']. exists g'. split; [exact Hr'|]. split; [exact Ha'|]. split; [exact En|].
      rewrite Eg. cbn [g_adj fresh_graph]. apply sp_prune_all; [now apply sp_map_wf|exact Hp].
  Qed.
  Lemma reread_printable g g' : reread_weights g -> g_adj g' = sp_map rho (g_adj g) -> printable_weights g'.
  Proof.
    intros Hw E i j v. rewrite E, sp_get_map. destruct (sp_get (g_adj g) i j) as [w|] eqn:G; [|discriminate]. intros [= <-]. eapply Hw; eauto.
  Qed.
  Lemma reread_last g g' : number_of_vertices g' = number_of_vertices g -> g_adj g' = sp_map rho (g_adj g) -> last_not_isolated g -> last_not_isolated g'.
  Proof.
    intros En E [H0|[u Hu]]; [left; congruence|]. right. exists u. rewrite E, En, sp_get_map. destruct (sp_get _ _ _); [discriminate|congruence].
  Qed.
  Lemma reread_weight g g' u v : g_adj g' = sp_map rho (g_adj g) -> weight g' u v = match sp_get (g_adj g) u v with Some w => rho w | None => w0 end.
  Proof. intros E. unfold weight, coeff. rewrite E, sp_get_map. destruct (sp_get (g_adj g) u v); reflexivity. Qed.

  Lemma load_edgelist_same f f' (es : list (nat * nat * W)) : edgelist_text (file_lines f) es -> edgelist_text (file_lines f') es -> load_edgelist f = load_edgelist (W := W) f'.
  Proof. intros H1 H2. unfold load_edgelist. now rewrite !edge_lines_read, (edge_lines_ok _ _ H1), (edge_lines_ok _ _ H2). Qed.
  Lemma load_adjacencylist_same f f' (ns : list (nat * list (nat * W))) : adjlist_text (file_lines f) ns -> adjlist_text (file_lines f') ns ->
    load_adjacencylist f = load_adjacencylist (W := W) f'.
  Proof. intros H1 H2. now rewrite (load_adj_triplets _ _ H1), (load_adj_triplets _ _ H2). Qed.

  Theorem edgelist_reread g : reachable g -> int_ids g -> reread_weights g -> (forall u, sp_get (g_adj g) u u = None) -> last_not_isolated g ->
    exists h, load_edgelist (save_edgelist g) = Ok h /\ number_of_vertices h = number_of_vertices g /\
      forall u v, weight h u v = match sp_get (g_adj g) u v with Some w => rho w | None => w0 end.
  Proof.
    intros Hr Hi Hw Hl Hlast. destruct (reread_graph g Hr Hw) as (g' & Hr' & Ha' & En & E). pose proof (reread_printable g g' Hw E) as Hp'.
    destruct (edgelist_roundtrip g') as (h & Eh & _ & Nh & Wh); auto.
    - unfold int_ids. now rewrite En.
    - intros u. rewrite (reread_weight g g' u u E). now rewrite Hl.
    - now apply (reread_last g g').
    - exists h. split; [|split; [congruence|intros u v; rewrite Wh; now apply reread_weight]].
      rewrite <- Eh. assert (int_ids g') as Hi' by (unfold int_ids; now rewrite En). apply (load_edgelist_same _ _ (upper_entries (g_adj g'))); [|now apply saved_edgelist_text].
      destruct (reachable_ok g Hr) as [(R & C & Hwf) _].
      assert (map (fun '(i, j, w) => show_edge (Z.of_nat i) (Z.of_nat j) w) (upper_entries (g_adj g)) =
              map (fun '(i, j, w) => show_edge (Z.of_nat i) (Z.of_nat j) w) (upper_entries (g_adj g'))) as Em.
      { rewrite E, upper_map, map_map. apply map_ext_in. intros [[i j] w] Hin. apply upper_In in Hin; auto. destruct Hin as (_ & _ & G).
        unfold show_edge. now rewrite (proj1 (Hw _ _ _ G)). }
      unfold save_edgelist. rewrite Em. destruct (reachable_ok g' Hr') as [(R' & C' & Hwf') _].
      destruct (edgelist_text_edges (upper_entries (g_adj g'))) as [E1 E2].
      { intros u v w Hin. apply upper_In in Hin; auto. destruct Hin as (Huv & Hv & G). unfold int_ids, number_of_vertices in Hi'.
        rewrite C' in Hv. repeat split; try lia; eapply Hp'; eauto. }
      rewrite file_put_lines.
      + change (upper_entries (g_adj g')) with ([] ++ upper_entries (g_adj g')) at 2. apply edgelist_text_app; [|exact E1].
        apply el_skip; [apply header_comment_1|]. apply el_skip; [apply header_comment_2|]. apply el_skip; [apply header_comment_3|]. constructor.
      + apply Forall_app. split; [|exact E2]. repeat constructor; [apply header_comment_1|apply header_comment_2|apply header_comment_3].
  Qed.

  Theorem adjacencylist_reread g : reachable g -> weights_above_eps g -> int_ids g -> reread_weights g -> last_not_isolated g ->
    exists f h, save_adjacencylist g = Ok f /\ load_adjacencylist f = Ok h /\ number_of_vertices h = number_of_vertices g /\
      forall u v, weight h u v = match sp_get (g_adj g) u v with Some w => rho w | None => w0 end.
  Proof.
    intros Hr Ha Hi Hw Hlast. destruct (reread_graph g Hr Hw) as (g' & Hr' & Ha' & En & E). pose proof (reread_printable g g' Hw E) as Hp'.
    assert (int_ids g') as Hi' by (unfold int_ids; now rewrite En).
    destruct (adjacencylist_roundtrip g') as (f' & h & Ef & Eh & _ & Nh & Wh); auto; [now apply (reread_last g g')|].
    destruct (reachable_ok g Hr) as [(R & C & Hwf) _]. destruct (reachable_ok g' Hr') as [(R' & C' & Hwf') _].
    assert (forall vs, (forall v, In v vs -> v < number_of_vertices g) -> save_nodes g vs = save_nodes g' vs) as Es.
    { induction vs as [|v vs IH]; intros Hvs; auto. cbn [save_nodes]. assert (v < number_of_vertices g) as Hv by (apply Hvs; now left).
      rewrite (neighbors_column g v), (neighbors_column g' v) by (auto; congruence). cbn [obind]. rewrite IH by (intros; apply Hvs; now right).
      destruct (save_nodes g' vs); auto. cbn [obind]. f_equal. f_equal. unfold show_node. f_equal. f_equal. unfold show_nbrs. f_equal. rewrite !map_map. cbn [v2 ewt].
      rewrite E, sp_col_sp_map, map_map. apply map_ext_in. intros [i w] Hin. cbn [fst snd].
      assert (sp_get (g_adj g) i v = Some w) as G by (apply In_col_get; auto; apply (sp_wf_col _ v Hwf)). now rewrite (proj1 (Hw _ _ _ G)). }
    destruct (save_nodes_ok g' (seq 0 (number_of_vertices g')) Hr' Ha' Hi' Hp') as (ls & El & Ht & Hol); [intros v Hv; apply in_seq in Hv; lia|].
    assert (save_nodes g (seq 0 (number_of_vertices g)) = Ok ls) as El'.
    { rewrite Es by (intros v Hv; apply in_seq in Hv; lia). now rewrite <- En. }
    exists (put_lines (adj_header g ++ ls)), h. unfold save_adjacencylist. rewrite El'. cbn [obind]. split; [reflexivity|].
    split; [|split; [congruence|intros u v; rewrite Wh; now apply reread_weight]].
    rewrite <- Eh. apply (load_adjacencylist_same _ _ (columns g' (seq 0 (number_of_vertices g')))).
    - destruct (adj_header_text g) as [H1 H2]. rewrite file_put_lines by (apply Forall_app; auto).
      change (columns g' (seq 0 (number_of_vertices g'))) with ([] ++ columns g' (seq 0 (number_of_vertices g'))). now apply adjlist_text_app.
    - destruct (saved_adjlist_text g' Hr' Ha' Hi' Hp') as (f2 & E2 & T2). rewrite Ef in E2. injection E2 as <-. exact T2.
  Qed.
End Reread.

Section Loaded.
  Context {W : Type} `{Num W} `{!PosNum W} `{!TextNum W}.
  Lemma from_triplets_reachable n (ts : list (triplet W)) g : from_triplets_graph n ts = Ok g -> reachable g /\ weights_above_eps g.
  Proof.
    unfold from_triplets_graph. destruct (set_from_triplets n n ts) as [A| |] eqn:E; try discriminate. cbn [obind]. intros Eg.
    destruct (set_from_triplets_shape _ _ _ _ E) as (_ & _ & Hwf). now apply (constructed_above_eps A).
  Qed.
  Lemma load_edgelist_reachable f (g : graph W) : load_edgelist f = Ok g -> reachable g /\ weights_above_eps g.
  Proof. unfold load_edgelist. destruct (edge_lines _); try discriminate. cbn [obind]. apply from_triplets_reachable. Qed.
  Lemma load_adjacencylist_reachable f (g : graph W) : load_adjacencylist f = Ok g -> reachable g /\ weights_above_eps g.
  Proof. unfold load_adjacencylist. destruct (adj_lines _); try discriminate. cbn [obind]. destruct (forallb _ _); [|discriminate]. apply from_triplets_reachable. Qed.
  (** The stored entries of a graph without stored zeros are the non-zero weights. *)
  Lemma stored_iff (g : graph W) u v w : weights_above_eps g -> sp_get (g_adj g) u v = Some w <-> (weight g u v = w /\ w <> w0).
  Proof.
    intros Ha. unfold weight, coeff. destruct (sp_get (g_adj g) u v) as [x|] eqn:G.
    - cbn. split; [intros [= ->]; split; auto; intros ->; specialize (Ha _ _ _ G); rewrite pn_0 in Ha; discriminate|intros [-> _]; reflexivity].
    - cbn. split; [discriminate|]. intros [E Ne]. congruence.
  Qed.
End Loaded.

(** ** Doubles *)
Section Doubles.
  Local Open Scope R_scope.
  (** The double read back from the printed text. *)
  Definition reread (w : f64) : f64 := match stod_f64 (fmt_f64 w) with Ok y => y | _ => w end.
  (** Stored weights are finite doubles, clearly above the threshold 1e-10 and at most 1e308. *)
  Definition savable_weights (g : graph f64) : Prop := forall i j w, sp_get (g_adj g) i j = Some w -> dbl w /\ 1001 / 10000000000000 <= f2r w <= p10 308.

  Lemma eps_dbl : dbl weps. Proof. split; reflexivity. Qed.
  Lemma eps_val : f2r weps <= 10000001 / 100000000000000000.
  Proof.
    change (@weps f64 NumF64) with f64_eps. unfold f64_eps, f2r, SF2R, F2R. cbn [cond_Zopp Fnum Fexp]. change (-86)%Z with (- (86))%Z. rewrite bpow_opp, <- (IZR_Zpower radix2 86) by lia.
    set (p := IZR (radix2 ^ 86)). assert (0 < p) as Hp by (apply IZR_lt; reflexivity).
    apply (Rmult_le_reg_r p); [exact Hp|]. rewrite Rmult_assoc, Rinv_l, Rmult_1_r by lra.
    apply (Rmult_le_reg_r 100000000000000000); [lra|]. replace (10000001 / 100000000000000000 * p * 100000000000000000) with (10000001 * p) by field. unfold p. rewrite <- !mult_IZR. apply IZR_le. vm_compute. discriminate.
  Qed.
  Lemma savable_range w : 1001 / 10000000000000 <= f2r w <= p10 308 -> printed_range w.
  Proof.
    intros [H1 H2]. unfold printed_range. rewrite Rabs_pos_eq by lra. split; [|exact H2]. eapply Rle_trans; [|exact H1].
    assert (p10 (-307) <= p10 (-10)) as Hm by (apply bpow_le; lia). eapply Rle_trans; [exact Hm|]. unfold p10. cbn. lra.
  Qed.
  Lemma reread_spec w : dbl w -> 1001 / 10000000000000 <= f2r w <= p10 308 ->
    stod_f64 (fmt_f64 w) = Ok (reread w) /\ dbl (reread w) /\ Rabs (f2r (reread w) - f2r w) <= 501 / 100000000 * f2r w /\
    fmt_f64 (reread w) = fmt_f64 w /\ printable (reread w) /\ wltb weps (reread w) = true.
  Proof.
    intros Dw Hw. pose proof (savable_range w Hw) as Hp. destruct (print_read_error w Dw Hp) as (y & Ey & Dy & Hy). unfold reread. rewrite Ey.
    split; [reflexivity|]. split; [exact Dy|]. rewrite (Rabs_pos_eq (f2r w)) in Hy by lra. split; [exact Hy|].
    destruct (print_idempotent w y Dw Hp Ey) as [E1 E2]. split; [exact E1|]. split.
    - unfold printable. change (@stod f64 TextF64) with stod_f64. change (@fmt f64 TextF64) with fmt_f64. split; [exact E2|]. rewrite E1. now apply fmt_token.
    - apply fltb_spec; [exact eps_dbl|exact Dy|]. pose proof eps_val. apply Rabs_le_inv in Hy. lra.
  Qed.
  Lemma savable_reread g : savable_weights g -> reread_weights reread g.
  Proof.
    intros Hs i j w G. destruct (Hs i j w G) as [Dw Hw]. destruct (reread_spec w Dw Hw) as (_ & _ & _ & A & B & C). auto.
  Qed.
End Doubles.

(** ** Whole graphs of doubles *)
Section Whole.
  Local Open Scope R_scope.
  (** [h] has the same vertices and edges as [g], and its weights differ by a relative error of at most 5.01e-6. *)
  Definition six_digit_copy (g h : graph f64) : Prop :=
    number_of_vertices h = number_of_vertices g /\
    forall u v, (weight h u v = w0 <-> weight g u v = w0) /\ Rabs (f2r (weight h u v) - f2r (weight g u v)) <= 501 / 100000000 * f2r (weight g u v).

  Lemma savable_above g : savable_weights g -> weights_above_eps g.
  Proof.
    intros Hs i j w G. destruct (Hs i j w G) as [Dw [Hw _]]. apply fltb_spec; [exact eps_dbl|exact Dw|]. pose proof eps_val. lra.
  Qed.
  Lemma reread_copy g h : savable_weights g -> number_of_vertices h = number_of_vertices g ->
    (forall u v, weight h u v = match sp_get (g_adj g) u v with Some w => reread w | None => w0 end) -> six_digit_copy g h.
  Proof.
    intros Hs En Ew. split; [exact En|]. intros u v. rewrite Ew. unfold weight, coeff. destruct (sp_get (g_adj g) u v) as [w|] eqn:G.
    - cbn [o0]. destruct (Hs u v w G) as [Dw Hw]. destruct (reread_spec w Dw Hw) as (_ & _ & A & _ & _ & B). split; [|exact A].
      split; intros E; exfalso; [rewrite E in B; discriminate|]. pose proof (savable_above g Hs u v w G) as Ha. rewrite E in Ha. discriminate.
    - cbn [o0]. split; [tauto|]. change (f2r w0) with 0. rewrite Rminus_0_r, Rabs_R0. lra.
  Qed.
  Lemma reread_copy_printable g h : savable_weights g -> weights_above_eps h ->
    (forall u v, weight h u v = match sp_get (g_adj g) u v with Some w => reread w | None => w0 end) -> printable_weights h.
  Proof.
    intros Hs Ha Ew i j v G. apply (stored_iff h i j v Ha) in G. destruct G as [G Hv]. rewrite Ew in G.
    destruct (sp_get (g_adj g) i j) as [w|] eqn:E; [|congruence]. subst v. destruct (Hs i j w E) as [Dw Hw]. apply (reread_spec w Dw Hw).
  Qed.
  Lemma copy_last g h : six_digit_copy g h -> weights_above_eps g -> weights_above_eps h -> last_not_isolated g -> last_not_isolated h.
  Proof.
    intros [En Hc] Hg Hh [H0|[u Hu]]; [left; congruence|]. right. exists u. rewrite En.
    destruct (sp_get (g_adj g) u (number_of_vertices g - 1)) as [w|] eqn:G; [|congruence].
    apply (stored_iff g _ _ _ Hg) in G. destruct G as [G Hw]. intros E.
    destruct (Hc u (number_of_vertices g - 1)%nat) as [[A _] _]. apply Hw. rewrite <- G. apply A. unfold weight, coeff. now rewrite E.
  Qed.

  Theorem save_load_edgelist g : reachable g -> int_ids g -> savable_weights g -> (forall u, weight g u u = w0) -> last_not_isolated g ->
    exists h, load_edgelist (save_edgelist g) = Ok h /\ six_digit_copy g h /\
      exists h', load_edgelist (save_edgelist h) = Ok h' /\ graph_eqb h h' = true /\ forall u v, weight h' u v = weight h u v.
  Proof.
    intros Hr Hi Hs Hl Hlast. pose proof (savable_above g Hs) as Ha. destruct (edgelist_reread reread g) as (h & Eh & En & Ew); auto.
    - now apply savable_reread.
    - intros u. specialize (Hl u). unfold weight, coeff in Hl. destruct (sp_get (g_adj g) u u) as [w|] eqn:G; auto. cbn in Hl. subst. specialize (Ha _ _ _ G). discriminate.
    - exists h. split; [exact Eh|]. pose proof (reread_copy g h Hs En Ew) as Hc. split; [exact Hc|].
      destruct (load_edgelist_reachable _ _ Eh) as [Hrh Hah].
      destruct (edgelist_roundtrip h) as (h' & E1 & E2 & _ & E3); auto.
      + unfold int_ids. now rewrite En.
      + now apply (reread_copy_printable g h).
      + intros u. apply (proj1 (proj2 Hc u u)), Hl.
      + now apply (copy_last g h).
      + exists h'. auto.
  Qed.
  Theorem save_load_adjacencylist g : reachable g -> int_ids g -> savable_weights g -> last_not_isolated g ->
    exists f h, save_adjacencylist g = Ok f /\ load_adjacencylist f = Ok h /\ six_digit_copy g h /\
      exists f' h', save_adjacencylist h = Ok f' /\ load_adjacencylist f' = Ok h' /\ graph_eqb h h' = true /\ forall u v, weight h' u v = weight h u v.
  Proof.
    intros Hr Hi Hs Hlast. pose proof (savable_above g Hs) as Ha. destruct (adjacencylist_reread reread g) as (f & h & Ef & Eh & En & Ew); auto; [now apply savable_reread|].
    exists f, h. split; [exact Ef|]. split; [exact Eh|]. pose proof (reread_copy g h Hs En Ew) as Hc. split; [exact Hc|].
    destruct (load_adjacencylist_reachable _ _ Eh) as [Hrh Hah].
    destruct (adjacencylist_roundtrip h) as (f' & h' & E0 & E1 & E2 & _ & E3); auto.
    - unfold int_ids. now rewrite En.
    - now apply (reread_copy_printable g h).
    - now apply (copy_last g h).
    - exists f', h'. auto.
  Qed.
End Whole.
