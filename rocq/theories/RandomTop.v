(** Properties of the generated graphs and files. *)
From Verif Require Import Base Num RSum Sparse SparseFacts Graph GraphSpec GraphFacts GraphProps1 GraphProps2 Text TextFacts GraphIO IOSpec
  GraphIOFacts GraphIOLoad RandomGraph RandomFacts.
From Coq Require Import Ascii String List Sorting.Sorted Reals Lra.
Import ListNotations.
Local Open Scope nat_scope.
Local Open Scope list_scope.

Lemma zsum_nsum_from sizes a : Forall (fun z => (1 <= z)%Z) sizes ->
  fold_left Z.add sizes a = (a + Z.of_nat (nsum (map Z.to_nat sizes)))%Z.
Proof.
  revert a; induction sizes as [|z r IH]; intros a Hs; simpl; [lia|]. apply Forall_cons_iff in Hs. destruct Hs as [Hz Hs].
  rewrite IH by auto. unfold nsum. simpl. lia.
Qed.
Lemma zsum_nsum sizes : Forall (fun z => (1 <= z)%Z) sizes -> zsum sizes = Z.of_nat (nsum (map Z.to_nat sizes)).
Proof. intros Hs. unfold zsum. now rewrite zsum_nsum_from. Qed.

(** ** C47 *)
Lemma push_labels_eq sizes : forall c acc, push_labels c sizes acc = acc ++ map (fun v => c + block sizes v) (seq 0 (nsum sizes)).
Proof.
  induction sizes as [|sz r IH]; intros c acc; cbn [push_labels].
  - simpl. now rewrite app_nil_r.
  - rewrite IH, <- app_assoc. f_equal. unfold nsum. cbn [fold_right]. fold (nsum r). rewrite seq_app, map_app. f_equal.
    + apply list_eq_nth with (d := c); [now rewrite repeat_length, map_length, seq_length|]. intros k Hk. rewrite repeat_length in Hk.
      rewrite nth_repeat_any. destruct (Nat.ltb_spec k sz); [|lia].
      rewrite (nth_map_seq (fun v => c + block (sz :: r) v)) by auto. simpl. destruct (Nat.ltb_spec k sz); lia.
    + rewrite Nat.add_0_l. apply list_eq_nth with (d := c); [now rewrite !map_length, !seq_length|]. intros k Hk. rewrite map_length, seq_length in Hk.
      rewrite (nth_map_seq (fun v => S c + block r v)) by auto.
      rewrite nth_indep with (d' := (fun v => c + block (sz :: r) v) 0) by (now rewrite map_length, seq_length).
      rewrite (map_nth (fun v => c + block (sz :: r) v)), seq_nth by auto. simpl. destruct (Nat.ltb_spec (sz + k) sz); [lia|]. replace (sz + k - sz) with k by lia. lia.
Qed.
Lemma general_labels_spec sizes : Forall (fun z => (1 <= z)%Z) sizes ->
  exists labels, general_sbm_gt_labels sizes = Ok labels /\ Z.of_nat (List.length labels) = zsum sizes /\
    forall v c, nth_error labels v = Some c ->
      c < List.length sizes /\ (zsum (firstn c sizes) <= Z.of_nat v < zsum (firstn (S c) sizes))%Z.
Proof.
  intros Hs. unfold general_sbm_gt_labels. assert (forallb (fun z => (1 <=? z)%Z) sizes = true) as ->.
  { apply forallb_forall. intros z Hz. apply Z.leb_le. rewrite Forall_forall in Hs. auto. }
  eexists. split; [reflexivity|]. rewrite push_labels_eq. rewrite app_nil_l, map_length, seq_length. split; [now rewrite zsum_nsum|].
  intros v c Hn. assert (v < nsum (map Z.to_nat sizes)) as Hv.
  { pose proof (proj1 (nth_error_Some _ _) (fun E => ltac:(rewrite Hn in E; discriminate E))) as Hl. rewrite map_length, seq_length in Hl; exact Hl. }
  rewrite nth_error_map in Hn. rewrite nth_error_nth' with (d := 0) in Hn by (now rewrite seq_length). rewrite seq_nth in Hn by auto. simpl in Hn. injection Hn as Hn.
  apply block_spec in Hn; auto. rewrite !firstn_map in Hn.
  assert (forall m, Forall (fun z => (1 <= z)%Z) (firstn m sizes)) as Hf.
  { intros m. apply Forall_forall. intros z Hz. rewrite Forall_forall in Hs. apply Hs. rewrite <- (firstn_skipn m sizes). apply in_app_iff. auto. }
  rewrite !zsum_nsum by auto. split; [|lia].
  destruct (Nat.lt_ge_cases c (List.length sizes)) as [Hc|Hc]; auto. rewrite !firstn_all2 in Hn by lia. lia.
Qed.

Section Valid.
  Context {W : Type} `{Num W}.
  (** The parameters are valid: sizes at least 1, a k by k matrix, and no probability is below 0 or above 1. *)
  Definition valid_sbm (sizes : list Z) (P : dmat W) : Prop :=
    Forall (fun z => (1 <= z)%Z) sizes /\ dm_rows P = List.length sizes /\ dm_cols P = List.length sizes /\
    forall i j, i < List.length sizes -> j < List.length sizes -> wltb (dm_at P i j) w0 = false /\ wltb w1 (dm_at P i j) = false.
  Lemma valid_sbm_iff sizes P : sbm_params_ok sizes P = true <-> valid_sbm sizes P.
  Proof.
    unfold sbm_params_ok, valid_sbm. rewrite !andb_true_iff, !Nat.eqb_eq, !forallb_forall. split.
    - intros ((H1 & H2 & H3) & H4). repeat split; auto.
      + apply Forall_forall. intros z Hz. apply Z.leb_le. auto.
      + specialize (H4 i). rewrite in_seq, forallb_forall in H4. specialize (H4 ltac:(lia) j). rewrite in_seq in H4. specialize (H4 ltac:(lia)).
        apply negb_true_iff, orb_false_iff in H4. tauto.
      + specialize (H4 i). rewrite in_seq, forallb_forall in H4. specialize (H4 ltac:(lia) j). rewrite in_seq in H4. specialize (H4 ltac:(lia)).
        apply negb_true_iff, orb_false_iff in H4. tauto.
    - intros (H1 & H2 & H3 & H4). repeat split; auto.
      + intros z Hz. apply Z.leb_le. rewrite Forall_forall in H1. auto.
      + intros i Hi. apply in_seq in Hi. apply forallb_forall. intros j Hj. apply in_seq in Hj. apply negb_true_iff, orb_false_iff. apply H4; lia.
  Qed.
  Definition nsizes (sizes : list Z) : list nat := map Z.to_nat sizes.
  Lemma nsizes_pos sizes : Forall (fun z => (1 <= z)%Z) sizes -> Forall (fun x => 1 <= x) (nsizes sizes).
  Proof. intros Hs. apply Forall_map. eapply Forall_impl; [|exact Hs]. simpl. lia. Qed.
End Valid.

Section Top.
  Context {W : Type} `{Num W} `{!TextNum W} {St : Type} (G : rng W St).

  Definition sbm_evs fuel (sizes : list Z) P exact s := stages_evs G fuel P exact (plan 0 0 (nsizes sizes)) s.

  Lemma general_sbm_internal_evs fuel k sizes P exact s : valid_sbm sizes P ->
    general_sbm_internal G fuel k sizes P exact s = res_of (sbm_evs fuel sizes P exact s) k.
  Proof.
    intros Hv. unfold general_sbm_internal. apply valid_sbm_iff in Hv. rewrite Hv. simpl. apply sbm_outer_evs.
  Qed.
  Lemma general_sbm_invalid fuel sizes P exact s : (0 <= zsum sizes)%Z -> ~ valid_sbm sizes P ->
    general_sbm G fuel sizes P exact s = Some (Throw InvalidArgument).
  Proof.
    intros Hz Hv. unfold general_sbm. destruct (Z.ltb_spec (zsum sizes) 0); [lia|].
    unfold general_sbm_internal. destruct (sbm_params_ok sizes P) eqn:E; [apply valid_sbm_iff in E; tauto|]. reflexivity.
  Qed.

  (** In range, distinct end points, direct pairs unique. *)
  Definition good_evs (n : nat) (l : list ev) : Prop :=
    Forall (fun e => snd (fst e) < n /\ snd e < n /\ snd (fst e) <> snd e) l /\ uniq l.
  Lemma general_sbm_matrix fuel sizes P exact s l o : valid_sbm sizes P -> sbm_evs fuel sizes P exact s = (l, o) ->
    good_evs (nsum (nsizes sizes)) l ->
    exists M, sp_square M (nsum (nsizes sizes)) /\ (forall i j, sp_get M i j = fold_left (cell i j) l None) /\
      general_sbm G fuel sizes P exact s =
        match o with Some s' => Some (omap (fun g => (g, s')) (make_graph M)) | None => None end.
  Proof.
    intros Hv E [Hg Hu]. unfold general_sbm. pose proof Hv as (Hs & _). rewrite (zsum_nsum sizes Hs).
    destruct (Z.ltb_spec (Z.of_nat (nsum (map Z.to_nat sizes))) 0); [lia|]. rewrite Nat2Z.id. fold (nsizes sizes).
    rewrite general_sbm_internal_evs, E by auto. rewrite res_of_bind.
    destruct (apply_evs_mat (nsum (nsizes sizes)) l (sp_empty (nsum (nsizes sizes)) (nsum (nsizes sizes))) None) as (M & o' & EM & Hsq & HM); auto.
    - repeat split; [apply sp_empty_ncols|apply sp_empty_wf].
    - intros; rewrite !sp_get_empty; auto.
    - rewrite EM. exists M. split; auto. split.
      + intros i j. rewrite HM, sp_get_empty. reflexivity.
      + destruct o; reflexivity.
  Qed.

  Lemma sbm_evs_good fuel sizes P exact s : valid_sbm sizes P -> rng_picks G -> good_evs (nsum (nsizes sizes)) (fst (sbm_evs fuel sizes P exact s)).
  Proof.
    intros (Hs & _) Hp. unfold sbm_evs. destruct (stages_evs_range G fuel P exact (plan 0 0 (nsizes sizes)) Hp) with (s := s) as [R1 R2].
    - apply plan_pos. now apply nsizes_pos.
    - apply NoDup_plan.
    - split; auto. eapply Forall_impl; [|exact R1]. intros [[d u] v]. simpl. rewrite In_plan. lia.
  Qed.

  (** ** Cells *)
  Definition nhits (l : list ev) (i j : nat) : nat := List.length (filter (hits i j) l).
  Lemma fold_cell i j l : forall o : option W, fold_left (cell i j) l o =
    fold_left (fun o e => Some (if direct e then w1 else wadd (o0 o) w1)) (filter (hits i j) l) o.
  Proof.
    induction l as [|e l IH]; intros o; cbn [fold_left filter]; auto. rewrite IH. unfold cell. destruct (hits i j e); reflexivity.
  Qed.
  Lemma FOP_filter {A} (R : A -> A -> Prop) f l : ForallOrdPairs R l -> ForallOrdPairs R (filter f l).
  Proof.
    induction 1 as [|x l Hx Hl IH]; simpl; [constructor|]. destruct (f x); auto. constructor; auto.
    apply Forall_forall. intros y Hy. apply filter_In in Hy. rewrite Forall_forall in Hx. apply Hx. tauto.
  Qed.
  (** The events on one pair: none, one direct, or only counted ones. *)
  Lemma hits_cases n l i j : good_evs n l ->
    filter (hits i j) l = [] \/ (exists e, filter (hits i j) l = [e] /\ direct e = true) \/ Forall (fun e => direct e = false) (filter (hits i j) l).
  Proof.
    intros [Hg Hu]. apply (FOP_filter _ (hits i j)) in Hu.
    assert (Forall (fun e => norm e = (Nat.min i j, Nat.max i j)) (filter (hits i j) l)) as Hn.
    { apply Forall_forall. intros e He. apply filter_In in He. destruct He as [He1 He2]. rewrite Forall_forall in Hg. apply hits_norm; auto. now apply Hg. }
    clear Hg. induction (filter (hits i j) l) as [|e r IH]; [auto|]. right. inversion Hu as [|? ? Hu1 Hu2]; subst.
    apply Forall_cons_iff in Hn. destruct Hn as [Hn1 Hn2].
    assert (r <> [] -> Forall (fun e => direct e = false) (e :: r)) as Hr.
    { intros Hr. assert (forall e', In e' r -> direct e || direct e' = false) as Hd.
      { intros e' He'. rewrite Forall_forall in Hu1, Hn2. destruct (direct e || direct e') eqn:Ed; auto. exfalso. apply (Hu1 e' He' Ed). rewrite Hn1. symmetry. now apply Hn2. }
      constructor; [destruct r as [|e' r]; [congruence|]; specialize (Hd e' (or_introl eq_refl)); apply orb_false_iff in Hd; tauto|].
      apply Forall_forall. intros e' He'. specialize (Hd e' He'). apply orb_false_iff in Hd. tauto. }
    destruct r as [|e' r]; [|right; apply Hr; discriminate]. destruct (direct e) eqn:Ed; [left; eauto|right; auto].
  Qed.
  Lemma hits_diag n l i : good_evs n l -> filter (hits i i) l = [].
  Proof.
    intros [Hg _]. induction l as [|[[d u] v] l IH]; auto. apply Forall_cons_iff in Hg. destruct Hg as [(_ & _ & Hne) Hg]. simpl in *.
    destruct (Nat.eqb_spec i u), (Nat.eqb_spec i v); simpl; try lia; auto.
  Qed.
  Lemma hits_sym i j e : hits i j e = hits j i e.
  Proof. destruct e as [[d u] v]. simpl. destruct (i =? u), (j =? v), (i =? v), (j =? u); reflexivity. Qed.
  Lemma filter_hits_sym i j l : filter (hits i j) l = filter (hits j i) l.
  Proof. induction l as [|e l IH]; simpl; auto. rewrite hits_sym, IH. reflexivity. Qed.
End Top.

(** ** Direct sampling, any arithmetic *)
Section Direct.
  Context {W : Type} `{Num W} `{!PosNum W} {St : Type} (G : rng W St).
  Implicit Type sizes : list Z.

  (** Every pair of clusters is sampled with one coin per pair of vertices. *)
  Definition coin_per_pair (sizes : list Z) (P : dmat W) (exact : bool) : Prop :=
    exact = true \/
    forall i j, i <= j -> j < List.length sizes ->
      (nth i sizes 0 * nth j sizes 0 < 10000)%Z \/ wltb (dm_at P i j) (wdiv w1 (wadd w1 w1)) = false.
  Lemma coin_per_pair_plan sizes P exact st i j : Forall (fun z => (1 <= z)%Z) sizes -> coin_per_pair sizes P exact ->
    In st (plan 0 0 (nsizes sizes)) -> In (i, j) (tosses st) ->
    use_binomial exact (s_tn st) (s_on st) (dm_at P (s_ci st) (s_oi st)) = false /\
    dm_at P (s_ci st) (s_oi st) = dm_at P (block (nsizes sizes) i) (block (nsizes sizes) j).
  Proof.
    intros Hs Hc Hst Hij. destruct (plan_block (nsizes sizes) 0 0 st i j (nsizes_pos _ Hs) Hst Hij) as (E1 & E2 & E3 & E4).
    rewrite !Nat.sub_0_r, !Nat.add_0_l in *. split; [|now rewrite E1, E2].
    unfold use_binomial. destruct Hc as [->|Hc]; [now rewrite andb_false_r|].
    rewrite <- E1 in E3. rewrite <- E2 in E4. unfold nsizes in E3, E4. rewrite nth_error_map in E3, E4.
    destruct (nth_error sizes (s_ci st)) as [a|] eqn:Ea; [|discriminate]. destruct (nth_error sizes (s_oi st)) as [b|] eqn:Eb; [|discriminate].
    simpl in E3, E4. injection E3 as E3. injection E4 as E4.
    assert (s_ci st <= s_oi st) as Hle.
    { pose proof (proj1 (Forall_forall _ _) (plan_ok (nsizes sizes) 0 0) st Hst) as Ho. unfold stage_ok in Ho. lia. }
    assert (s_oi st < List.length sizes) as Hl by (apply nth_error_Some; congruence).
    pose proof (nth_error_In _ _ Ea) as Ia. pose proof (nth_error_In _ _ Eb) as Ib. rewrite Forall_forall in Hs. apply Hs in Ia, Ib.
    destruct (Hc (s_ci st) (s_oi st) Hle Hl) as [Hm|Hm].
    - rewrite (nth_error_nth _ _ _ Ea), (nth_error_nth _ _ _ Eb) in Hm. rewrite <- E3, <- E4. rewrite !Z2Nat.id by lia.
      destruct (Z.leb_spec 10000 (a * b)); [lia|]. reflexivity.
    - unfold whalf. rewrite Hm. now rewrite andb_false_r.
  Qed.

  Definition all_pairs (sizes : list Z) : list (nat * nat) := flat_map tosses (plan 0 0 (nsizes sizes)).

  Lemma direct_hits prob ps s i j : (forall a b, In (a, b) ps -> a < b) -> NoDup ps -> i < j ->
    filter (hits i j) (fst (run_tosses G prob ps s)) =
    if existsb (fun e => (snd (fst e) =? i) && (snd e =? j)) (fst (run_tosses G prob ps s)) then [(true, i, j)] else [].
  Proof.
    intros Hlt Hn Hij.
    pose proof (run_tosses_sub G prob ps s) as Hnd. rewrite map_map in Hnd.
    erewrite map_ext_in with (g := fun p => p) in Hnd by (intros [a b] Hin; simpl; pose proof (Hlt a b Hin); rewrite Nat.min_l, Nat.max_r by lia; reflexivity).
    rewrite map_id in Hnd. specialize (Hnd Hn). destruct (run_tosses_spec G prob ps s) as (Hsp & _).
    assert (forall e, In e (fst (run_tosses G prob ps s)) -> exists a b, e = (true, a, b) /\ a < b) as He.
    { intros e Hin. destruct (Hsp e Hin) as (t & a & b & Ht & -> & _). exists a, b. split; auto. apply Hlt. eapply nth_error_In; eauto. }
    clear Hsp Hn Hlt. induction (fst (run_tosses G prob ps s)) as [|e l IH]; [reflexivity|].
    destruct (He e (or_introl eq_refl)) as (a & b & -> & Hab). simpl in Hnd. apply NoDup_cons_iff in Hnd. destruct Hnd as [Hni Hnd].
    rewrite Nat.min_l, Nat.max_r in Hni by lia. specialize (IH Hnd (fun e Hin => He e (or_intror Hin))). cbn [filter existsb fst snd].
    unfold hits at 1. rewrite (Nat.eqb_sym i a), (Nat.eqb_sym j b). destruct (Nat.eqb_spec a i) as [->|Ha].
    - destruct (Nat.eqb_spec b j) as [->|Hb]; simpl.
      + f_equal. rewrite IH. destruct (existsb (fun e => (snd (fst e) =? i) && (snd e =? j)) l) eqn:Ex; auto.
        apply existsb_exists in Ex. destruct Ex as (e & Hin & Ee). apply andb_true_iff in Ee. rewrite !Nat.eqb_eq in Ee. destruct Ee as [Ee1 Ee2].
        exfalso. apply Hni. apply in_map_iff. exists e. split; auto. destruct (He e (or_intror Hin)) as (x & y & -> & Hxy). simpl in *. subst. f_equal; lia.
      + destruct (Nat.eqb_spec i b); [lia|]. simpl. exact IH.
    - simpl. destruct (Nat.eqb_spec i b) as [->|Hb]; simpl; [|exact IH]. destruct (Nat.eqb_spec j a); [lia|]. exact IH.
  Qed.

  (** Matrix-level result for any event list of directly sampled pairs. *)
  Lemma make_graph_unit n (M : sprs W) (f : nat -> nat -> bool) : sp_square M n ->
    (forall i j, f i j = f j i) -> (forall i j, sp_get M i j = if f i j then Some w1 else None) ->
    exists g, make_graph M = Ok g /\ number_of_vertices g = n /\ forall i j, weight g i j = if f i j then w1 else w0.
  Proof.
    intros Hsq Hs HM.
    destruct (make_graph_from_adjacency M n Hsq) as (g & E & En & _ & Ew).
    - intros i j v Hv. rewrite HM in Hv. destruct (f i j); [|discriminate]. injection Hv as <-. apply pn_pos, pn_1.
    - intros i j. unfold coeff. rewrite !HM, Hs. reflexivity.
    - exists g. split; auto. split; auto. intros i j. rewrite Ew. unfold coeff, above_eps. rewrite HM. destruct (f i j); simpl; [now rewrite pn_1|now rewrite pn_0].
  Qed.

  Lemma general_sbm_coins_full sizes fuel P exact s : valid_sbm sizes P -> coin_per_pair sizes P exact ->
    exists g, general_sbm G fuel sizes P exact s = Some (Ok (g, skip G (List.length (all_pairs sizes)) s)) /\
      Z.of_nat (number_of_vertices g) = zsum sizes /\
      (forall t i j, nth_error (all_pairs sizes) t = Some (i, j) ->
         weight g i j = (if wltb (draw G s t) (dm_at P (block (nsizes sizes) i) (block (nsizes sizes) j)) then w1 else w0) /\
         weight g j i = weight g i j) /\
      (forall i, weight g i i = w0) /\ reachable_pos g.
  Proof.
    intros Hv Hc. pose proof Hv as (Hs & _).
    set (prob := fun i j => dm_at P (block (nsizes sizes) i) (block (nsizes sizes) j)).
    assert (sbm_evs G fuel sizes P exact s = (fst (run_tosses G prob (all_pairs sizes) s), Some (snd (run_tosses G prob (all_pairs sizes) s)))) as E.
    { unfold sbm_evs, all_pairs. apply stages_evs_direct.
      - intros st Hst. assert (tosses st <> [] \/ tosses st = []) as [Ht|Ht] by (destruct (tosses st); auto; left; discriminate).
        + destruct (tosses st) as [|[i j] r] eqn:Et; [congruence|]. eapply (coin_per_pair_plan sizes P exact st i j); eauto. rewrite Et. now left.
        + unfold use_binomial. destruct (Z.leb_spec 10000 (Z.of_nat (s_tn st) * Z.of_nat (s_on st))) as [Hge|]; [|reflexivity]. exfalso.
          pose proof (proj1 (Forall_forall _ _) (plan_ok (nsizes sizes) 0 0) st Hst) as Ho. destruct st as [ci oi tn on ts os]. simpl in *.
          assert (~ In (ts, os + on - 1) (tosses (mkStage ci oi tn on ts os))) as Hni by (rewrite Ht; simpl; tauto).
          apply Hni. unfold stage_ok in Ho. simpl in Ho. assert (0 < tn) by nia. assert (0 < on) by nia. assert (tn = 1 -> on = 1 -> False) by (intros -> ->; simpl in Hge; lia).
          apply In_tosses; [tauto|]. destruct Ho as [(-> & -> & ->)|Ho]; [|lia]. assert (tn <> 1) by tauto. lia.
      - intros st i j Hst Hij. symmetry. apply (coin_per_pair_plan sizes P exact st i j); auto. }
    assert (forall a b, In (a, b) (all_pairs sizes) <-> a < b /\ b < nsum (nsizes sizes)) as Hin.
    { intros a b. unfold all_pairs. rewrite In_plan. lia. }
    pose proof (NoDup_plan (nsizes sizes) 0 0 : NoDup (all_pairs sizes)) as Hnd.
    destruct (run_tosses_spec G prob (all_pairs sizes) s) as (T1 & T2 & T3).
    assert (forall a b, In (a, b) (all_pairs sizes) -> a < b) as Hlt by (intros a b Ha; apply Hin in Ha; tauto).
    destruct (general_sbm_matrix G fuel sizes P exact s _ _ Hv E) as (M & Hsq & HM & Eg).
    { split.
      - apply Forall_forall. intros e He. destruct (T1 e He) as (t & i & j & Ht & -> & _). apply nth_error_In, Hin in Ht. simpl. lia.
      - apply uniq_nodup, run_tosses_sub. rewrite map_map. erewrite map_ext_in with (g := fun p => p); [rewrite map_id; exact Hnd|].
        intros [a b] Ha. simpl. apply Hlt in Ha. rewrite Nat.min_l, Nat.max_r by lia. reflexivity. }
    set (l := fst (run_tosses G prob (all_pairs sizes) s)) in *.
    set (f := fun i j => existsb (fun e : ev => (snd (fst e) =? Nat.min i j) && (snd e =? Nat.max i j)) l).
    assert (forall i j, sp_get M i j = if f i j then Some w1 else None) as HM2.
    { intros i j. rewrite HM, fold_cell. assert (forall i j, i < j -> filter (hits i j) l = if f i j then [(true, i, j)] else []) as Hfl.
      { intros a b Hab. unfold f. rewrite Nat.min_l, Nat.max_r by lia. now apply direct_hits. }
      destruct (Nat.lt_trichotomy i j) as [Hij|[->|Hij]].
      - rewrite Hfl by auto. destruct (f i j); reflexivity.
      - assert (filter (hits j j) l = []) as ->.
        { apply (hits_diag (nsum (nsizes sizes))). split.
          - apply Forall_forall. intros e He. destruct (T1 e He) as (t & a & b & Ht & -> & _). apply nth_error_In, Hin in Ht. simpl. lia.
          - apply uniq_nodup, run_tosses_sub. rewrite map_map. erewrite map_ext_in with (g := fun p => p); [rewrite map_id; exact Hnd|].
            intros [a b] Ha. simpl. apply Hlt in Ha. rewrite Nat.min_l, Nat.max_r by lia. reflexivity. }
        assert (f j j = false) as ->; [|reflexivity]. unfold f. destruct (existsb _ l) eqn:Ex; auto. apply existsb_exists in Ex.
        destruct Ex as (e & He & Ee). destruct (T1 e He) as (t & a & b & Ht & -> & _). apply nth_error_In, Hlt in Ht. simpl in Ee.
        apply andb_true_iff in Ee. rewrite !Nat.eqb_eq in Ee. lia.
      - rewrite filter_hits_sym, Hfl by auto. unfold f. rewrite (Nat.min_comm j i), (Nat.max_comm j i). destruct (existsb _ l); reflexivity. }
    destruct (make_graph_unit _ M f Hsq) as (g & Emk & En & Ew); [|exact HM2|].
    { intros i j. unfold f. now rewrite (Nat.min_comm j i), (Nat.max_comm j i). }
    exists g. split; [rewrite Eg, Emk; simpl; now rewrite T3|]. split; [rewrite En, (zsum_nsum sizes Hs); reflexivity|]. split.
    - intros t i j Ht. pose proof (Hlt i j (nth_error_In _ _ Ht)) as Hij. rewrite !Ew. split.
      + assert (f i j = wltb (draw G s t) (prob i j)) as ->; [|reflexivity].
        unfold f. rewrite Nat.min_l, Nat.max_r by lia. destruct (wltb (draw G s t) (prob i j)) eqn:Ed.
        * apply existsb_exists. exists (true, i, j). split; [apply (T2 t i j Ht Ed)|]. simpl. now rewrite !Nat.eqb_refl.
        * destruct (existsb _ l) eqn:Ex; auto. apply existsb_exists in Ex. destruct Ex as (e & He & Ee).
          destruct (T1 e He) as (t' & a & b & Ht' & -> & Ed'). simpl in Ee. apply andb_true_iff in Ee. rewrite !Nat.eqb_eq in Ee. destruct Ee as [-> ->].
          assert (t' = t) as ->; [|congruence]. apply (proj1 (NoDup_nth_error (all_pairs sizes)) Hnd); [apply nth_error_Some; congruence|congruence].
      + unfold f. now rewrite (Nat.min_comm j i), (Nat.max_comm j i).
    - split; [|exists M, g, []; split; [apply Hsq|]; split; [exact Emk|]; split; [constructor|reflexivity]].
      intros i. rewrite Ew. unfold f. rewrite Nat.min_id, Nat.max_id. destruct (existsb _ l) eqn:Ex; auto. apply existsb_exists in Ex.
      destruct Ex as (e & He & Ee). destruct (T1 e He) as (t & a & b & Ht & -> & _). apply nth_error_In, Hlt in Ht. simpl in Ee.
      apply andb_true_iff in Ee. rewrite !Nat.eqb_eq in Ee. lia.
  Qed.
  Lemma general_sbm_coins sizes fuel P exact s : valid_sbm sizes P -> coin_per_pair sizes P exact ->
    exists g, general_sbm G fuel sizes P exact s = Some (Ok (g, skip G (List.length (all_pairs sizes)) s)) /\
      Z.of_nat (number_of_vertices g) = zsum sizes /\
      (forall t i j, nth_error (all_pairs sizes) t = Some (i, j) ->
         weight g i j = (if wltb (draw G s t) (dm_at P (block (nsizes sizes) i) (block (nsizes sizes) j)) then w1 else w0) /\
         weight g j i = weight g i j) /\
      (forall i, weight g i i = w0).
  Proof. intros Hv Hc. destruct (general_sbm_coins_full sizes fuel P exact s Hv Hc) as (g & A & B & C & D & _). exists g. auto. Qed.
End Direct.
