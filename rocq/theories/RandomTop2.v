(** Approximate sampling (exact arithmetic), files, and the two-parameter model. *)
From Verif Require Import Base Num RSum Sparse SparseFacts Graph GraphSpec GraphFacts GraphProps1 GraphProps2 Text TextFacts GraphIO IOSpec
  GraphIOFacts GraphIOLoad RandomGraph RandomFacts RandomTop.
From Coq Require Import Ascii String List Sorting.Sorted Reals Lra.
Import ListNotations.
Local Open Scope nat_scope.
Local Open Scope list_scope.

Section Stages.
  Context {W : Type} `{Num W} {St : Type} (G : rng W St).
  Lemma stages_evs_from fuel P exact e sts : forall s, In e (fst (stages_evs G fuel P exact sts s)) ->
    exists st s0, In st sts /\ In e (fst (stage_evs G fuel P exact st s0)).
  Proof.
    induction sts as [|st sts IH]; intros s; cbn [stages_evs]; [simpl; tauto|].
    destruct (stage_evs G fuel P exact st s) as [l [s'|]] eqn:E.
    - specialize (IH s'). destruct (stages_evs G fuel P exact sts s') as [l' o']. simpl in *. rewrite in_app_iff. intros [Hin|Hin].
      + exists st, s. rewrite E. auto.
      + destruct (IH Hin) as (st' & s0 & H1 & H2). eauto.
    - simpl. intros Hin. exists st, s. rewrite E. auto.
  Qed.
  Lemma stages_evs_all fuel P exact st sts : In st sts -> forall s l s', stages_evs G fuel P exact sts s = (l, Some s') ->
    exists s0, incl (fst (stage_evs G fuel P exact st s0)) l.
  Proof.
    induction sts as [|a sts IH]; intros Hin s l s'; [destruct Hin|]. cbn [stages_evs].
    destruct (stage_evs G fuel P exact a s) as [la [sa|]] eqn:E; [|discriminate].
    destruct (stages_evs G fuel P exact sts sa) as [l' o'] eqn:E'. intros Eq. injection Eq as <- ->. destruct Hin as [->|Hin].
    - exists s. rewrite E. simpl. apply incl_appl, incl_refl.
    - destruct (IH Hin sa l' s' E') as [s0 Hs0]. exists s0. apply incl_appr. exact Hs0.
  Qed.
End Stages.

Section ExactSbm.
  Context {W : Type} `{ExactNum W} {St : Type} (G : rng W St).

  (** Contract of std::generate_canonical: samples lie in [0,1). *)
  Definition rng_unit : Prop := forall s, wltb (fst (unif01 G s)) w0 = false /\ wltb (fst (unif01 G s)) w1 = true.

  Lemma wnat1 : wadd w0 w1 = w1.
  Proof. apply toR_inj. rewrite toR_add, toR_0. lra. Qed.
  Lemma fold_counts l : forall m, Forall (fun e : ev => direct e = false) l ->
    fold_left (fun (o : option W) e => Some (if direct e then w1 else wadd (o0 o) w1)) l (Some (wnat m)) = Some (wnat (List.length l + m)).
  Proof.
    induction l as [|e l IH]; intros m Hl; [reflexivity|]. apply Forall_cons_iff in Hl. destruct Hl as [He Hl]. cbn [fold_left]. rewrite He. simpl o0.
    change (wadd (wnat m) w1) with (wnat (S m)). rewrite IH by auto. do 2 f_equal. simpl. lia.
  Qed.
  Lemma cell_count n l i j : good_evs n l ->
    fold_left (cell i j) l None = match nhits l i j with 0 => None | S m => Some (wnat (W := W) (S m)) end.
  Proof.
    intros Hg. rewrite fold_cell. unfold nhits. destruct (hits_cases n l i j Hg) as [->|[(e & -> & He)|Hf]].
    - reflexivity.
    - cbn [fold_left List.length]. rewrite He. f_equal. simpl. now rewrite wnat1.
    - destruct (filter (hits i j) l) as [|e r]; [reflexivity|]. apply Forall_cons_iff in Hf. destruct Hf as [He Hf]. cbn [fold_left]. rewrite He.
      change (wadd (o0 None) w1) with (wnat (W := W) 1). rewrite fold_counts by auto. cbn [List.length]. do 2 f_equal. lia.
  Qed.
  Lemma wnat_above m : wltb weps (wnat (W := W) (S m)) = true.
  Proof.
    apply toR_ltb. rewrite toR_wnat, S_INR. pose proof toR_eps1. pose proof (pos_INR m). lra.
  Qed.
  Lemma above_eps_wnat m : above_eps (wnat (W := W) m) = wnat m.
  Proof. unfold above_eps. destruct m as [|m]; [simpl; now rewrite pn_0|]. now rewrite wnat_above. Qed.

  Lemma general_sbm_counts fuel sizes P exact s l o : valid_sbm sizes P -> rng_picks G -> sbm_evs G fuel sizes P exact s = (l, o) ->
    match o with
    | Some s' => exists g, general_sbm G fuel sizes P exact s = Some (Ok (g, s')) /\ number_of_vertices g = nsum (nsizes sizes) /\
                   forall i j, weight g i j = wnat (nhits l i j)
    | None => general_sbm G fuel sizes P exact s = None
    end.
  Proof.
    intros Hv Hp E. pose proof (sbm_evs_good G fuel sizes P exact s Hv Hp) as Hg. rewrite E in Hg. simpl in Hg.
    destruct (general_sbm_matrix G fuel sizes P exact s l o Hv E Hg) as (M & Hsq & HM & Eg). destruct o as [s'|]; [|exact Eg].
    assert (forall i j, coeff M i j = wnat (nhits l i j)) as Hc.
    { intros i j. unfold coeff. rewrite HM, (cell_count _ _ _ _ Hg). destruct (nhits l i j); reflexivity. }
    destruct (make_graph_from_adjacency M _ Hsq) as (g & Emk & En & _ & Ew).
    - intros i j v Gv. rewrite HM, (cell_count _ _ _ _ Hg) in Gv. destruct (nhits l i j); [discriminate|]. injection Gv as <-. apply pn_pos, wnat_above.
    - intros i j. rewrite !Hc. unfold nhits. now rewrite filter_hits_sym.
    - exists g. rewrite Eg, Emk. split; [reflexivity|]. split; auto. intros i j. now rewrite Ew, Hc, above_eps_wnat.
  Qed.

  (** The stage of a pair of vertices. *)
  Lemma stage_of sizes i j : Forall (fun z => (1 <= z)%Z) sizes -> i < j -> j < nsum (nsizes sizes) ->
    exists st, In st (plan 0 0 (nsizes sizes)) /\ In (i, j) (tosses st).
  Proof.
    intros Hs Hij Hj. assert (In (i, j) (flat_map tosses (plan 0 0 (nsizes sizes)))) as Hin by (apply In_plan; lia).
    apply in_flat_map in Hin. exact Hin.
  Qed.
  Lemma stage_probs sizes st i j : Forall (fun z => (1 <= z)%Z) sizes -> In st (plan 0 0 (nsizes sizes)) -> In (i, j) (tosses st) ->
    s_ci st = block (nsizes sizes) i /\ s_oi st = block (nsizes sizes) j /\
    nth (block (nsizes sizes) i) sizes 0%Z = Z.of_nat (s_tn st) /\ nth (block (nsizes sizes) j) sizes 0%Z = Z.of_nat (s_on st).
  Proof.
    intros Hs Hst Hij. destruct (plan_block (nsizes sizes) 0 0 st i j (nsizes_pos _ Hs) Hst Hij) as (E1 & E2 & E3 & E4).
    rewrite !Nat.sub_0_r, !Nat.add_0_l in *. repeat split; auto.
    - unfold nsizes in E3 at 1. rewrite nth_error_map in E3. destruct (nth_error sizes (block (nsizes sizes) i)) as [a|] eqn:Ea; [|discriminate].
      simpl in E3. injection E3 as E3. rewrite (nth_error_nth _ _ _ Ea). apply nth_error_In in Ea. rewrite Forall_forall in Hs. apply Hs in Ea. lia.
    - unfold nsizes in E4 at 1. rewrite nth_error_map in E4. destruct (nth_error sizes (block (nsizes sizes) j)) as [a|] eqn:Ea; [|discriminate].
      simpl in E4. injection E4 as E4. rewrite (nth_error_nth _ _ _ Ea). apply nth_error_In in Ea. rewrite Forall_forall in Hs. apply Hs in Ea. lia.
  Qed.
  (** Events on the pair (i,j) come from its own stage. *)
  Lemma event_stage fuel sizes P exact s i j e : valid_sbm sizes P -> rng_picks G -> i < j ->
    In e (fst (sbm_evs G fuel sizes P exact s)) -> hits i j e = true ->
    exists st s0, In st (plan 0 0 (nsizes sizes)) /\ In (i, j) (tosses st) /\ In e (fst (stage_evs G fuel P exact st s0)).
  Proof.
    intros Hv Hp Hij Hin Hh. destruct (sbm_evs_good G fuel sizes P exact s Hv Hp) as [Hg _]. rewrite Forall_forall in Hg. pose proof (Hg e Hin) as Hge.
    apply stages_evs_from in Hin. destruct Hin as (st & s0 & Hst & He). exists st, s0. split; auto. split; auto.
    pose proof Hv as (Hs & _). pose proof (proj1 (Forall_forall _ _) (plan_pos (nsizes sizes) 0 0 (nsizes_pos _ Hs)) st Hst) as (Ho & Ht & Hn).
    destruct (stage_evs_range G fuel P exact st s0 Hp Ho Ht Hn) as [Hr _]. rewrite Forall_forall in Hr. specialize (Hr e He). unfold in_tosses in Hr.
    apply hits_norm in Hh; [|tauto]. rewrite Hh, Nat.min_l, Nat.max_r in Hr by lia. exact Hr.
  Qed.
  Lemma nhits_0 l i j : (forall e, In e l -> hits i j e = false) -> nhits l i j = 0.
  Proof.
    intros Hf. unfold nhits. induction l as [|e l IH]; auto. simpl. rewrite (Hf e) by (simpl; auto). apply IH. intros; apply Hf; now right.
  Qed.
  Lemma nhits_0_prob fuel sizes P exact s i j : valid_sbm sizes P -> rng_picks G -> rng_unit -> i < j ->
    dm_at P (block (nsizes sizes) i) (block (nsizes sizes) j) = w0 -> nhits (fst (sbm_evs G fuel sizes P exact s)) i j = 0.
  Proof.
    intros Hv Hp Hu Hij Hz0. apply nhits_0. intros e He. destruct (hits i j e) eqn:Eh; auto.
    destruct (event_stage _ _ _ _ _ i j e Hv Hp Hij He Eh) as (st & s0 & Hst & Ht & Hin). pose proof Hv as (Hs & _).
    destruct (stage_probs sizes st i j Hs Hst Ht) as (E1 & E2 & _). rewrite <- E1, <- E2 in Hz0. exfalso. unfold stage_evs in Hin. cbv zeta in Hin. rewrite Hz0 in Hin.
    destruct (use_binomial exact (s_tn st) (s_on st) w0).
    - unfold binomial_evs in Hin. cbv zeta in Hin. assert (wltb (wmul w0 (wnat (max_edges (s_tn st) (s_on st) (s_ts st) (s_os st)))) w1 = true) as El.
      { apply toR_ltb. rewrite toR_mul, toR_0, toR_1. lra. }
      rewrite El in Hin. destruct Hin.
    - cbn [fst] in Hin. destruct (run_tosses_spec G (fun _ _ => w0) (tosses st) s0) as (I1 & _). destruct (I1 e Hin) as (t & a & b & _ & _ & Ed).
      unfold draw in Ed. destruct (Hu (skip G t s0)). congruence.
  Qed.
  (** Pairs of clusters sampled with coins. *)
  Definition coin_block (sizes : list Z) (P : dmat W) (exact : bool) (c d : nat) : Prop :=
    exact = true \/ (nth c sizes 0 * nth d sizes 0 < 10000)%Z \/ wltb (dm_at P c d) (wdiv w1 (wadd w1 w1)) = false.
  Lemma coin_stage sizes P exact st i j : Forall (fun z => (1 <= z)%Z) sizes -> In st (plan 0 0 (nsizes sizes)) -> In (i, j) (tosses st) ->
    coin_block sizes P exact (block (nsizes sizes) i) (block (nsizes sizes) j) ->
    use_binomial exact (s_tn st) (s_on st) (dm_at P (s_ci st) (s_oi st)) = false.
  Proof.
    intros Hs Hst Ht Hc. destruct (stage_probs sizes st i j Hs Hst Ht) as (E1 & E2 & E3 & E4). unfold use_binomial. destruct Hc as [->|[Hm|Hm]].
    - now rewrite andb_false_r.
    - rewrite E3, E4 in Hm. destruct (Z.leb_spec 10000 (Z.of_nat (s_tn st) * Z.of_nat (s_on st))); [lia|reflexivity].
    - rewrite E1, E2. unfold whalf. rewrite Hm. now rewrite andb_false_r.
  Qed.
  Lemma nhits_coin fuel sizes P exact s i j : valid_sbm sizes P -> rng_picks G -> i < j ->
    coin_block sizes P exact (block (nsizes sizes) i) (block (nsizes sizes) j) -> nhits (fst (sbm_evs G fuel sizes P exact s)) i j <= 1.
  Proof.
    intros Hv Hp Hij Hc. pose proof (sbm_evs_good G fuel sizes P exact s Hv Hp) as Hg. unfold nhits.
    destruct (hits_cases _ _ i j Hg) as [->|[(e & -> & _)|Hf]]; [simpl; lia|simpl; lia|].
    destruct (filter (hits i j) (fst (sbm_evs G fuel sizes P exact s))) as [|e r] eqn:Ef; [simpl; lia|]. exfalso.
    assert (In e (filter (hits i j) (fst (sbm_evs G fuel sizes P exact s)))) as Hin by (rewrite Ef; now left). apply filter_In in Hin. destruct Hin as [Hin Hh].
    destruct (event_stage _ _ _ _ _ i j e Hv Hp Hij Hin Hh) as (st & s0 & Hst & Ht & Hie). pose proof Hv as (Hs & _).
    unfold stage_evs in Hie. cbv zeta in Hie. rewrite (coin_stage sizes P exact st i j Hs Hst Ht Hc) in Hie. cbn [fst] in Hie.
    destruct (run_tosses_spec G (fun _ _ => dm_at P (s_ci st) (s_oi st)) (tosses st) s0) as (I1 & _). destruct (I1 e Hie) as (t & a & b & _ & -> & _).
    apply Forall_cons_iff in Hf. destruct Hf as [Hf _]. discriminate Hf.
  Qed.
  Lemma nhits_1_prob fuel sizes P exact s l s' i j : valid_sbm sizes P -> rng_picks G -> rng_unit -> i < j -> j < nsum (nsizes sizes) ->
    sbm_evs G fuel sizes P exact s = (l, Some s') ->
    dm_at P (block (nsizes sizes) i) (block (nsizes sizes) j) = w1 -> nhits l i j = 1.
  Proof.
    intros Hv Hp Hu Hij Hj E H1. pose proof Hv as (Hs & _).
    assert (coin_block sizes P exact (block (nsizes sizes) i) (block (nsizes sizes) j)) as Hc.
    { right. right. rewrite H1. destruct (wltb w1 (wdiv w1 (wadd w1 w1))) eqn:Ew; auto. apply toR_ltb in Ew.
      rewrite toR_div, toR_add, toR_1 in Ew by (rewrite toR_add, toR_1; lra). lra. }
    pose proof (nhits_coin fuel sizes P exact s i j Hv Hp Hij Hc) as Hle. rewrite E in Hle. simpl in Hle.
    destruct (stage_of sizes i j Hs Hij Hj) as (st & Hst & Ht). destruct (stages_evs_all G fuel P exact st _ Hst _ _ _ E) as [s0 Hi].
    assert (In (true, i, j) l) as Hin.
    { apply Hi. unfold stage_evs. cbv zeta. rewrite (coin_stage sizes P exact st i j Hs Hst Ht Hc). cbn [fst].
      destruct (stage_probs sizes st i j Hs Hst Ht) as (E1 & E2 & _). rewrite E1, E2, H1.
      destruct (run_tosses_spec G (fun _ _ => w1) (tosses st) s0) as (_ & I2 & _). destruct (In_nth_error _ _ Ht) as [t Hn]. apply (I2 t i j Hn). apply Hu. }
    assert (In (true, i, j) (filter (hits i j) l)) as Hf by (apply filter_In; split; auto; simpl; now rewrite !Nat.eqb_refl).
    unfold nhits in *. destruct (filter (hits i j) l); [destruct Hf|simpl in *; lia].
  Qed.

  Lemma general_sbm_multigraph fuel sizes P exact s r : valid_sbm sizes P -> rng_picks G -> rng_unit ->
    general_sbm G fuel sizes P exact s = Some r ->
    exists g s', r = Ok (g, s') /\ Z.of_nat (number_of_vertices g) = zsum sizes /\
      (forall i j, weight g i j = weight g j i) /\ (forall i, weight g i i = w0) /\
      (forall i j, exists m, weight g i j = wnat m) /\
      (forall i j, i < j -> coin_block sizes P exact (block (nsizes sizes) i) (block (nsizes sizes) j) -> weight g i j = w0 \/ weight g i j = w1) /\
      (forall i j, i < j -> dm_at P (block (nsizes sizes) i) (block (nsizes sizes) j) = w0 -> weight g i j = w0) /\
      (forall i j, i < j -> j < number_of_vertices g -> dm_at P (block (nsizes sizes) i) (block (nsizes sizes) j) = w1 -> weight g i j = w1).
  Proof.
    intros Hv Hp Hu Er. pose proof Hv as (Hs & _). destruct (sbm_evs G fuel sizes P exact s) as [l o] eqn:E.
    pose proof (general_sbm_counts fuel sizes P exact s l o Hv Hp E) as Hc. pose proof (sbm_evs_good G fuel sizes P exact s Hv Hp) as Hg. rewrite E in Hg. simpl in Hg.
    destruct o as [s'|]; [|congruence]. destruct Hc as (g & Eg & En & Ew). rewrite Er in Eg. injection Eg as ->. exists g, s'. split; [reflexivity|].
    split; [now rewrite En, (zsum_nsum sizes Hs)|]. repeat split.
    - intros i j. rewrite !Ew. unfold nhits. now rewrite filter_hits_sym.
    - intros i. rewrite Ew. unfold nhits. now rewrite (hits_diag _ _ i Hg).
    - intros i j. eauto.
    - intros i j Hij Hc. rewrite Ew. pose proof (nhits_coin fuel sizes P exact s i j Hv Hp Hij Hc) as Hle. rewrite E in Hle. simpl in Hle.
      destruct (nhits l i j) as [|[|m]]; [left; reflexivity|right; simpl; apply wnat1|lia].
    - intros i j Hij H0'. rewrite Ew. pose proof (nhits_0_prob fuel sizes P exact s i j Hv Hp Hu Hij H0') as Hz. rewrite E in Hz. simpl in Hz. now rewrite Hz.
    - intros i j Hij Hj H1. rewrite Ew. rewrite (nhits_1_prob fuel sizes P exact s l s' i j Hv Hp Hu Hij ltac:(lia) E H1). simpl. apply wnat1.
  Qed.
End ExactSbm.

(** ** C48: the file *)
Section File.
  Context {W : Type} `{ExactNum W} `{!TextNum W} {St : Type} (G : rng W St).

  Definition ev_edges (l : list ev) : list (nat * nat * W) := map (fun e => (snd (fst e), snd e, w1)) l.
  Lemma ev_weights l u v : weights_between (ev_edges l) u v = repeat w1 (nhits l u v).
  Proof.
    unfold weights_between, nhits, ev_edges. induction l as [|[[d a] b] l IH]; auto. cbn [map filter fst snd]. unfold hits at 1.
    rewrite (Nat.eqb_sym u a), (Nat.eqb_sym v b), (Nat.eqb_sym u b), (Nat.eqb_sym v a), (andb_comm (b =? u) (a =? v)).
    destruct ((a =? u) && (b =? v) || (a =? v) && (b =? u)); cbn [map repeat List.length]; [f_equal|]; exact IH.
  Qed.
  Lemma total_ones m : total (repeat (w1 (W := W)) m) = wnat m.
  Proof.
    destruct m as [|m]; [reflexivity|]. cbn [repeat total]. assert (forall k, fold_left wadd (repeat w1 m) (wnat (W := W) k) = wnat (m + k)) as Hk.
    { induction m as [|m IH]; intros k; [reflexivity|]. cbn [repeat fold_left]. change (wadd (wnat k) w1) with (wnat (W := W) (S k)). rewrite IH. f_equal. lia. }
    rewrite <- (wnat1) at 2. change (wadd w0 w1) with (wnat (W := W) 1). rewrite Hk. f_equal. lia.
  Qed.
  Lemma vertex_count_le (es : list (nat * nat * W)) n : (forall u v w, In (u, v, w) es -> u < n /\ v < n) -> vertex_count es <= n.
  Proof.
    induction es as [|[[u v] w] es IH]; intros Hb; cbn [vertex_count fold_right]; [lia|].
    pose proof (Hb u v w (or_introl eq_refl)). specialize (IH (fun a b c Hin => Hb a b c (or_intror Hin))). unfold vertex_count in IH. lia.
  Qed.
  (** Facts about the textual forms of the numbers written: the integer 1 reads back as the weight 1, and the
      probabilities in the header contain no line break. *)
  Definition prints_ok (P : dmat W) : Prop :=
    fmt (w1 : W) = txt "1" /\ stod (txt "1") = Ok (w1 : W) /\ forall i j, one_line (fmt (dm_at P i j)).
  Lemma header_ok sizes P : Forall (fun z => (1 <= z)%Z) sizes -> prints_ok P ->
    Forall (fun l => comment_or_blank l /\ one_line l) (sbm_header sizes P).
  Proof.
    intros Hs (_ & _ & Hf).
    assert (forall s t, comment_or_blank (txt (String "#" s) ++ t)) as Hc by (intros s t; right; exists "#"%char, (txt s ++ t); split; auto).
    assert (forall s, comment_or_blank (txt (String "#" s))) as Hc' by (intros s; right; exists "#"%char, (txt s); split; auto).
    assert (forall ls, Forall one_line ls -> one_line (List.concat ls)) as Hcc.
    { induction ls as [|l ls IH]; intros Hl; [apply free_of_nil|]. apply Forall_cons_iff in Hl. simpl. apply forall_one_line_app; [tauto|]. apply IH. tauto. }
    assert (one_line [" "%char]) as Hsp by (apply one_line_txt; reflexivity).
    assert (0 <= zsum sizes)%Z by (rewrite zsum_nsum by auto; lia).
    unfold sbm_header. cbv zeta. apply Forall_app. split.
    - constructor; [split; [apply Hc'|apply one_line_txt; reflexivity]|].
      constructor; [split; [apply Hc|apply forall_one_line_app; [apply one_line_txt; reflexivity|now apply show_Z_one_line]]|].
      constructor; [split; [apply Hc|apply forall_one_line_app; [apply one_line_txt; reflexivity|apply show_nat_one_line]]|constructor].
    - destruct (List.length sizes <=? 20).
      + apply Forall_app. split.
        * constructor; [|constructor; [split; [apply Hc'|apply one_line_txt; reflexivity]|constructor]].
          split; [apply Hc|]. apply forall_one_line_app; [apply one_line_txt; reflexivity|]. apply Hcc. apply Forall_map. eapply Forall_impl; [|exact Hs].
          intros z Hz. apply forall_one_line_app; auto. apply show_Z_one_line. cbv beta in Hz. lia.
        * apply Forall_map. apply Forall_forall. intros i _. split; [apply Hc|]. apply forall_one_line_app; [apply one_line_txt; reflexivity|].
          apply Hcc. apply Forall_map. apply Forall_forall. intros j _. apply forall_one_line_app; auto.
      + constructor; [split; [apply Hc'|apply one_line_txt; reflexivity]|constructor].
  Qed.
  Lemma general_sbm_edgelist_evs fuel sizes P exact s : valid_sbm sizes P ->
    general_sbm_edgelist G fuel sizes P exact s =
    match sbm_evs G fuel sizes P exact s with
    | (l, Some s') => Some (Ok (put_lines (sbm_header sizes P ++ ev_lines l), s'))
    | (_, None) => None
    end.
  Proof.
    intros Hv. unfold general_sbm_edgelist. cbv zeta. pose proof Hv as (_ & Hr & Hc & _). rewrite Hr, Hc, Nat.ltb_irrefl. simpl orb. rewrite andb_false_r.
    rewrite general_sbm_internal_evs by auto. destruct (sbm_evs G fuel sizes P exact s) as [l o]. rewrite res_of_bind, apply_evs_file.
    destruct o as [s'|]; [|reflexivity]. cbn [snd]. unfold ret, put_lines. now rewrite map_app, concat_app.
  Qed.
  Lemma edgelist_text_skips a b es : Forall comment_or_blank a -> edgelist_text (W := W) b es -> edgelist_text (a ++ b) es.
  Proof. induction a as [|l a IH]; intros Ha Hb; simpl; auto. apply Forall_cons_iff in Ha. apply el_skip; tauto. Qed.

  Lemma sbm_file_loads fuel sizes P exact s g s' : valid_sbm sizes P -> rng_picks G -> prints_ok P -> (zsum sizes <= 2147483648)%Z ->
    general_sbm G fuel sizes P exact s = Some (Ok (g, s')) ->
    exists file h, general_sbm_edgelist G fuel sizes P exact s = Some (Ok (file, s')) /\ load_edgelist file = Ok h /\
      (forall u v, weight h u v = weight g u v) /\ number_of_vertices h <= number_of_vertices g /\
      (forall u, weight g u (number_of_vertices g - 1) <> w0 -> number_of_vertices h = number_of_vertices g).
  Proof.
    intros Hv Hp Hpr Hz Eg. pose proof Hv as (Hs & _). pose proof Hpr as (Hf1 & Hf2 & _). rewrite (zsum_nsum sizes Hs) in Hz.
    destruct (sbm_evs G fuel sizes P exact s) as [l o] eqn:E.
    pose proof (general_sbm_counts G fuel sizes P exact s l o Hv Hp E) as Hc. pose proof (sbm_evs_good G fuel sizes P exact s Hv Hp) as Hg. rewrite E in Hg. simpl in Hg.
    destruct o as [s1|]; [|congruence]. destruct Hc as (g1 & Eg1 & En & Ew). rewrite Eg in Eg1. injection Eg1 as <- <-.
    assert (forall u v w, In (u, v, w) (ev_edges l) -> w = w1 /\ u < nsum (nsizes sizes) /\ v < nsum (nsizes sizes)) as Hb.
    { intros u v w Hin. apply in_map_iff in Hin. destruct Hin as (e & Ee & He). injection Ee as <- <- <-. destruct Hg as [Hg _]. rewrite Forall_forall in Hg. specialize (Hg e He). tauto. }
    assert (printable (w1 : W)) as Hp1.
    { split; [rewrite Hf1; exact Hf2|]. rewrite Hf1. split; [discriminate|]. intros c Hc. simpl in Hc. destruct Hc as [<-|[]]. simpl. intuition discriminate. }
    destruct (edgelist_text_edges (ev_edges l)) as [T1 T2].
    { intros u v w Hin. destruct (Hb u v w Hin) as (-> & B1 & B2). unfold nsizes in *. repeat split; try lia; apply Hp1. }
    assert (map (fun '(i, j, w) => show_edge (Z.of_nat i) (Z.of_nat j) w) (ev_edges l) = ev_lines l) as El.
    { unfold ev_edges, ev_lines. rewrite map_map. apply map_ext. intros e. unfold show_edge, sbm_line, show_nat. now rewrite Hf1. }
    cbv zeta in T1, T2. rewrite El in T1, T2.
    pose proof (header_ok sizes P Hs Hpr) as Hh.
    exists (put_lines (sbm_header sizes P ++ ev_lines l)). rewrite general_sbm_edgelist_evs, E by auto.
    assert (forall u v, total (weights_between (ev_edges l) u v) = wnat (nhits l u v)) as Ht by (intros u v; rewrite ev_weights; apply total_ones).
    assert (forall m, wltb (wnat (W := W) m) w0 = false) as Hnn.
    { intros m. destruct (wltb (wnat m) w0) eqn:Ex; auto. apply toR_ltb in Ex. rewrite toR_wnat, toR_0 in Ex. pose proof (pos_INR m). lra. }
    assert (forall u, weights_between (ev_edges l) u u = []) as Hd by (intros u; rewrite ev_weights; unfold nhits; now rewrite (hits_diag _ _ u Hg)).
    destruct (load_edgelist_spec (put_lines (sbm_header sizes P ++ ev_lines l)) (ev_edges l)) as (h & Eh & Enh & _ & _ & Ewh & Ewd).
    - rewrite file_put_lines.
      + apply edgelist_text_skips; auto. eapply Forall_impl; [|exact Hh]. simpl. tauto.
      + apply Forall_app. split; auto. eapply Forall_impl; [|exact Hh]. simpl. tauto.
    - intros u v _. rewrite Ht. apply Hnn.
    - intros u Hne. rewrite Hd in Hne. congruence.
    - exists h. split; [reflexivity|]. split; auto. split.
      { intros u v. destruct (Nat.eq_dec u v) as [->|Hne].
        - rewrite Ewd, Hd. simpl. rewrite Ew. unfold nhits. rewrite (hits_diag _ _ v Hg). unfold above_eps. now destruct (wltb weps w0).
        - rewrite Ewh, Ht, Ew by auto. apply above_eps_wnat. }
      assert (vertex_count (ev_edges l) <= nsum (nsizes sizes)) as Hle by (apply vertex_count_le; intros u v w Hin; apply Hb in Hin; tauto).
      split; [lia|]. intros u Hu. rewrite Ew in Hu. rewrite Enh. rewrite En in *. apply Nat.le_antisymm; auto.
      destruct (nhits l u (nsum (nsizes sizes) - 1)) as [|m] eqn:Eh'; [simpl in Hu; congruence|]. unfold nhits in Eh'.
      destruct (filter (hits u (nsum (nsizes sizes) - 1)) l) as [|e r] eqn:Ef; [discriminate|].
      assert (In e (filter (hits u (nsum (nsizes sizes) - 1)) l)) as Hin by (rewrite Ef; now left). apply filter_In in Hin. destruct Hin as [Hin Hhit].
      assert (In (snd (fst e), snd e, w1) (ev_edges l)) as Hie by (apply in_map_iff; exists e; auto).
      pose proof (vertex_count_lt _ _ _ _ Hie) as [V1 V2]. destruct e as [[d a] b]. simpl in *. apply orb_true_iff in Hhit. rewrite !andb_true_iff, !Nat.eqb_eq in Hhit. lia.
  Qed.
End File.

(** ** The two-parameter model *)
Section TwoParam.
  Context {W : Type} `{Num W}.
  Lemma sbm_nk_ok_iff n k : sbm_nk_ok n k = true <-> (1 <= n /\ 1 <= k /\ k <= n / 2)%Z.
  Proof.
    unfold sbm_nk_ok. rewrite andb_true_iff, !negb_true_iff, orb_false_iff, !Z.ltb_ge. split.
    - intros (H1 & H2 & H3). rewrite Z.quot_div_nonneg in H3 by lia. auto.
    - intros (H1 & H2 & H3). rewrite Z.quot_div_nonneg by lia. auto.
  Qed.
  Lemma sbm_sizes_pos n k : (1 <= k)%Z -> (k <= n / 2)%Z -> Forall (fun z => (1 <= z)%Z) (sbm_sizes n k).
  Proof.
    intros H1 H2. apply Forall_forall. intros z Hz. apply repeat_spec in Hz. subst z.
    apply Z.div_le_lower_bound; [lia|]. assert (2 * (n / 2) <= n)%Z by (apply Z.mul_div_le; lia). lia.
  Qed.
  Lemma sbm_sizes_sum n k : (1 <= k)%Z -> (k <= n / 2)%Z -> zsum (sbm_sizes n k) = (k * (n / k))%Z.
  Proof.
    intros H1 H2. rewrite zsum_nsum by (now apply sbm_sizes_pos). unfold sbm_sizes.
    assert (0 <= n / k)%Z. { apply Z.div_pos; [|lia]. assert (2 * (n / 2) <= n)%Z by (apply Z.mul_div_le; lia). lia. }
    replace k with (Z.of_nat (Z.to_nat k)) at 3 by lia.
    generalize (n / k)%Z, (Z.to_nat k), H0. clear. intros z m Hz. induction m as [|m IH]; [reflexivity|]. cbn [repeat map]. unfold nsum in *. cbn [fold_right]. lia.
  Qed.
  Lemma block_repeat m k v : 1 <= m -> v < k * m -> block (repeat m k) v = v / m.
  Proof.
    intros Hm. revert v; induction k as [|k IH]; intros v Hv; [lia|]. cbn [repeat block]. destruct (Nat.ltb_spec v m) as [Hl|Hl].
    - now rewrite Nat.div_small.
    - rewrite IH by (simpl in Hv; lia). replace v with ((v - m) + 1 * m) at 2 by lia. rewrite Nat.div_add by lia. lia.
  Qed.
  Lemma sbm_valid n k (p q : W) : (1 <= k)%Z -> (k <= n / 2)%Z -> wltb p w0 = false -> wltb w1 p = false -> wltb q w0 = false -> wltb w1 q = false ->
    valid_sbm (sbm_sizes n k) (sbm_probs k p q).
  Proof.
    intros H1 H2 P0 P1 Q0 Q1. split; [now apply sbm_sizes_pos|]. unfold sbm_sizes. rewrite repeat_length. simpl. repeat split; destruct (i =? j); auto.
  Qed.
  Lemma nsizes_sbm n k : nsizes (sbm_sizes n k) = repeat (Z.to_nat (n / k)) (Z.to_nat k).
  Proof. unfold nsizes, sbm_sizes. generalize (Z.to_nat k). induction n0 as [|m IH]; simpl; congruence. Qed.
End TwoParam.
