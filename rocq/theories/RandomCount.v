(** The number of edges drawn by the approximate sampler of the block model (C74). *)
From Verif Require Import Base Num RSum Sparse SparseFacts Graph GraphSpec GraphFacts GraphProps1 GraphProps2 Text TextFacts GraphIO IOSpec
  GraphIOFacts GraphIOLoad RandomGraph RandomFacts RandomTop RandomTop2.
From Coq Require Import Ascii String List Sorting.Sorted Reals Lra.
Import ListNotations.
Local Open Scope nat_scope.
Local Open Scope list_scope.

Lemma NoDup_app_remove_l {A} (a b : list A) : NoDup (a ++ b) -> NoDup b.
Proof. induction a as [|x a IH]; auto. simpl. intros Hn. apply NoDup_cons_iff in Hn. tauto. Qed.
Lemma NoDup_app_remove_r {A} (a b : list A) : NoDup (a ++ b) -> NoDup a.
Proof. induction a as [|x a IH]; [constructor|]. simpl. intros Hn. apply NoDup_cons_iff in Hn. destruct Hn as [H1 H2]. constructor; auto. intros Hi. apply H1, in_app_iff. auto. Qed.
Definition stage_at (ns : list nat) (a b : nat) : stage := mkStage a b (nth a ns 0) (nth b ns 0) (nsum (firstn a ns)) (nsum (firstn b ns)).
Lemma plan_inner_at ci tn ts others : forall oi os b, b < List.length others ->
  In (mkStage ci (oi + b) tn (nth b others 0) ts (os + nsum (firstn b others))) (plan_inner ci tn ts oi os others).
Proof.
  induction others as [|on r IH]; intros oi os b Hb; [simpl in Hb; lia|]. cbn [plan_inner]. destruct b as [|b].
  - left. cbn [nth firstn nsum fold_right]. now rewrite !Nat.add_0_r.
  - right. simpl in Hb. specialize (IH (S oi) (os + on) b ltac:(lia)). cbn [nth firstn]. unfold nsum in *. cbn [fold_right].
    rewrite Nat.add_assoc. replace (oi + S b) with (S oi + b) by lia. exact IH.
Qed.
Lemma plan_at ns : forall ci ts a b, a <= b < List.length ns ->
  In (mkStage (ci + a) (ci + b) (nth a ns 0) (nth b ns 0) (ts + nsum (firstn a ns)) (ts + nsum (firstn b ns))) (plan ci ts ns).
Proof.
  induction ns as [|tn r IH]; intros ci ts a b Hab; [simpl in Hab; lia|]. cbn [plan]. apply in_app_iff. destruct a as [|a].
  - left. pose proof (plan_inner_at ci tn ts (tn :: r) ci ts b ltac:(lia)) as Hp. cbn [nth firstn]. change (nsum []) with 0. rewrite !Nat.add_0_r. exact Hp.
  - right. destruct b as [|b]; [lia|]. simpl in Hab. specialize (IH (S ci) (ts + tn) a b ltac:(lia)). cbn [nth firstn]. unfold nsum in *. cbn [fold_right].
    rewrite !Nat.add_assoc. replace (ci + S a) with (S ci + a) by lia. replace (ci + S b) with (S ci + b) by lia. exact IH.
Qed.
Lemma nsum_firstn_S ns a : a < List.length ns -> nsum (firstn (S a) ns) = nsum (firstn a ns) + nth a ns 0.
Proof.
  revert a; induction ns as [|x ns IH]; intros a Ha; [simpl in Ha; lia|]. destruct a as [|a]; [cbn; lia|]. simpl in Ha.
  specialize (IH a ltac:(lia)). change (firstn (S (S a)) (x :: ns)) with (x :: firstn (S a) ns). cbn [firstn nth]. unfold nsum in *. cbn [fold_right]. cbn [firstn] in IH. lia.
Qed.
Lemma nsum_firstn_le ns a : nsum (firstn a ns) <= nsum ns.
Proof.
  revert a; induction ns as [|x ns IH]; intros a; [destruct a; cbn; lia|]. destruct a as [|a]; [cbn; lia|]. specialize (IH a). cbn [firstn]. unfold nsum in *. cbn [fold_right]. lia.
Qed.
Lemma nsum_firstn_mono ns a b : a <= b -> nsum (firstn a ns) <= nsum (firstn b ns).
Proof. intros Hab. pose proof (nsum_firstn_le (firstn b ns) a) as Hl. rewrite firstn_firstn, Nat.min_l in Hl by lia. exact Hl. Qed.
Lemma tosses_at ns a b i j : a <= b < List.length ns -> j < nsum ns ->
  In (i, j) (tosses (stage_at ns a b)) <-> i < j /\ block ns i = a /\ block ns j = b.
Proof.
  intros Hab Hj. unfold stage_at. rewrite In_tosses.
  - pose proof (nsum_firstn_S ns a ltac:(lia)) as Sa. pose proof (nsum_firstn_S ns b ltac:(lia)) as Sb.
    rewrite <- Sa, <- Sb. split.
    + intros (H1 & H2 & H3). split; [lia|]. split; apply block_spec; lia.
    + intros (H1 & H2 & H3). apply block_spec in H2; [|lia]. apply block_spec in H3; [|lia]. lia.
  - destruct (Nat.eq_dec a b) as [->|Hne]; [left; auto|right]. split; [lia|]. rewrite <- nsum_firstn_S by lia. apply nsum_firstn_mono. lia.
Qed.

(** Events of a pair of clusters. *)
Definition between (ns : list nat) (a b : nat) (e : ev) : bool := (block ns (fst (norm e)) =? a) && (block ns (snd (norm e)) =? b).

Section Count.
  Context {W : Type} `{Num W} {St : Type} (G : rng W St).
  Lemma filter_none {A} (f : A -> bool) l : (forall x, In x l -> f x = false) -> filter f l = [].
  Proof. induction l as [|x l IH]; intros Hf; auto. cbn [filter]. rewrite (Hf x) by (simpl; auto). apply IH. intros; apply Hf; now right. Qed.
  Lemma filter_all {A} (f : A -> bool) l : (forall x, In x l -> f x = true) -> filter f l = l.
  Proof. induction l as [|x l IH]; intros Hf; auto. cbn [filter]. rewrite (Hf x) by (simpl; auto). f_equal. apply IH. intros; apply Hf; now right. Qed.
  Lemma evs_between fuel (sizes : list Z) P exact s l s' a b : valid_sbm sizes P -> rng_picks G ->
    sbm_evs G fuel sizes P exact s = (l, Some s') -> a <= b < List.length sizes ->
    exists s0 s1, stage_evs G fuel P exact (stage_at (nsizes sizes) a b) s0 = (filter (between (nsizes sizes) a b) l, Some s1).
  Proof.
    intros Hv Hp E Hab. pose proof Hv as (Hs & _). pose proof (nsizes_pos _ Hs) as Hpos. assert (List.length (nsizes sizes) = List.length sizes) as Hlen by apply map_length.
    set (ns := nsizes sizes) in *. assert (In (stage_at ns a b) (plan 0 0 ns)) as Hin.
    { pose proof (plan_at ns 0 0 a b ltac:(lia)) as Hp'. exact Hp'. }
    pose proof (NoDup_plan ns 0 0) as Hnd. pose proof (plan_pos ns 0 0 Hpos) as Hok.
    unfold sbm_evs in E. fold ns in E. destruct (in_split _ _ Hin) as (p1 & p2 & Hsp). rewrite Hsp in *.
    set (st := stage_at ns a b) in *.
    rewrite stages_evs_app in E. destruct (stages_evs G fuel P exact p1 s) as [l1 [s1|]] eqn:E1; cbn [fst snd] in E; [|discriminate].
    cbn [stages_evs] in E. destruct (stage_evs G fuel P exact st s1) as [l2 [s2|]] eqn:E2; cbn [fst snd] in E; [|discriminate].
    destruct (stages_evs G fuel P exact p2 s2) as [l3 [s3|]] eqn:E3; cbn [fst snd] in E; [|discriminate]. injection E as <- <-.
    exists s1, s2. rewrite E2. do 2 f_equal. apply Forall_app in Hok. destruct Hok as [Hok1 Hok2]. apply Forall_cons_iff in Hok2. destruct Hok2 as [(O1 & O2 & O3) Hok2].
    rewrite flat_map_app in Hnd. cbn [flat_map] in Hnd.
    assert (forall x, In x (tosses st) -> ~ In x (flat_map tosses p1) /\ ~ In x (flat_map tosses p2)) as Hdis.
    { intros x Hx. split; intros Hy.
      - clear - Hnd Hx Hy. induction (flat_map tosses p1) as [|y q IH]; [destruct Hy|]. simpl in Hnd. apply NoDup_cons_iff in Hnd. destruct Hnd as [Hn Hnd].
        destruct Hy as [->|Hy]; auto. apply Hn. rewrite !in_app_iff. auto.
      - apply NoDup_app_remove_l in Hnd. clear - Hnd Hx Hy. induction (tosses st) as [|y q IH]; [destruct Hx|]. simpl in Hnd. apply NoDup_cons_iff in Hnd. destruct Hnd as [Hn Hnd].
        destruct Hx as [->|Hx]; auto. apply Hn. rewrite !in_app_iff. auto. }
    assert (forall q, (forall x, In x q -> In x (plan 0 0 ns)) -> forall e, In (norm e) (flat_map tosses q) -> fst (norm e) < snd (norm e) /\ snd (norm e) < nsum ns) as Hrange.
    { intros q Hq e He. apply in_flat_map in He. destruct He as (st' & Hst' & He). destruct (norm e) as [i j].
      assert (In (i, j) (flat_map tosses (plan 0 0 ns))) as Hf by (apply in_flat_map; eauto). apply In_plan in Hf. cbn [fst snd]. lia. }
    assert (forall e, fst (norm e) < snd (norm e) -> snd (norm e) < nsum ns -> between ns a b e = true <-> In (norm e) (tosses st)) as Hb.
    { intros e H1 H2. unfold between. rewrite andb_true_iff, !Nat.eqb_eq. destruct (norm e) as [i j]. cbn [fst snd] in *. unfold st. rewrite tosses_at by (rewrite ?Hlen; lia). tauto. }
    assert (forall x, In x p1 -> In x (plan 0 0 ns)) as Q1 by (intros x Hx; rewrite Hsp; apply in_app_iff; auto).
    assert (forall x, In x p2 -> In x (plan 0 0 ns)) as Q2 by (intros x Hx; rewrite Hsp; apply in_app_iff; simpl; auto).
    pose proof (proj1 (stages_evs_range G fuel P exact p1 Hp Hok1 (NoDup_app_remove_r _ _ Hnd) s)) as R1. rewrite E1 in R1. cbn [fst] in R1. rewrite Forall_forall in R1.
    assert (NoDup (flat_map tosses p2)) as Hnd2 by (apply NoDup_app_remove_l in Hnd; now apply NoDup_app_remove_l in Hnd).
    pose proof (proj1 (stages_evs_range G fuel P exact p2 Hp Hok2 Hnd2 s2)) as R3. rewrite E3 in R3. cbn [fst] in R3. rewrite Forall_forall in R3.
    pose proof (proj1 (stage_evs_range G fuel P exact st s1 Hp O1 O2 O3)) as R2. rewrite E2 in R2. cbn [fst] in R2. rewrite Forall_forall in R2.
    rewrite !filter_app, (filter_none _ l1), (filter_all _ l2), (filter_none _ l3); [now rewrite app_nil_r| | |].
    - intros e He. specialize (R3 e He). destruct (Hrange p2 Q2 e R3) as [X1 X2]. destruct (between ns a b e) eqn:Eb; auto. apply Hb in Eb; auto. exfalso. exact (proj2 (Hdis _ Eb) R3).
    - intros e He. specialize (R2 e He). destruct (Hrange [st]) with (e := e) as [X1 X2]; [intros x [<-|[]]; rewrite Hsp; apply in_app_iff; simpl; auto|simpl; rewrite app_nil_r; exact R2|].
      apply Hb; auto.
    - intros e He. specialize (R1 e He). destruct (Hrange p1 Q1 e R1) as [X1 X2]. destruct (between ns a b e) eqn:Eb; auto. apply Hb in Eb; auto. exfalso. exact (proj1 (Hdis _ Eb) R1).
  Qed.
  Lemma bin_evs_length fuel tn on ts os : forall m s l s', bin_evs G fuel m tn on ts os s = (l, Some s') -> List.length l = m.
  Proof.
    induction m as [|m IH]; intros s l s' E; cbn [bin_evs] in E; [now injection E as <- <-|].
    destruct (distinct_pair G fuel tn on ts os s) as [[[u v] s1]|]; [|discriminate]. destruct (bin_evs G fuel m tn on ts os s1) as [l1 o] eqn:E1.
    injection E as <- ->. simpl. f_equal. eauto.
  Qed.
End Count.

Section Total.
  Local Open Scope R_scope.
  Lemma nhits_sum n (f : nat -> nat -> bool) l : Forall (fun e : ev => snd (fst e) < n /\ snd e < n /\ snd (fst e) <> snd e)%nat l ->
    rsum n (fun i => rsum n (fun j => if ((i <? j)%nat && f i j)%bool then INR (nhits l i j) else 0)) =
    INR (List.length (filter (fun e => f (fst (norm e)) (snd (norm e))) l)).
  Proof.
    induction 1 as [|e l He Hl IH].
    - cbn [filter List.length INR]. apply rsum_zero. intros i Hi. apply rsum_zero. intros j Hj. now destruct (_ && _)%bool.
    - assert (forall i j, INR (nhits (e :: l) i j) = (if hits i j e then 1 else 0) + INR (nhits l i j)) as Hn.
      { intros i j. unfold nhits. cbn [filter]. destruct (hits i j e); [cbn [List.length]; rewrite S_INR|]; lra. }
      rewrite (rsum_ext n _ (fun i => rsum n (fun j => if ((i <? j)%nat && f i j)%bool then (if hits i j e then 1 else 0) else 0) +
                                      rsum n (fun j => if ((i <? j)%nat && f i j)%bool then INR (nhits l i j) else 0))).
      2:{ intros i Hi. rewrite <- rsum_plus. apply rsum_ext. intros j Hj. rewrite Hn. destruct (_ && _)%bool; lra. }
      rewrite rsum_plus, IH. cbn [filter].
      assert (forall i j, (i < j)%nat -> hits i j e = ((i =? fst (norm e)) && (j =? snd (norm e)))%bool%nat) as Hh.
      { intros i j Hij. apply eq_true_iff_eq. rewrite (hits_norm i j e) by tauto. rewrite Nat.min_l, Nat.max_r by lia. rewrite andb_true_iff, !Nat.eqb_eq.
        destruct (norm e) as [x y]. cbn [fst snd]. split; [intros [= -> ->]; auto|intros [-> ->]; auto]. }
      assert (fst (norm e) < snd (norm e) /\ snd (norm e) < n)%nat as [N1 N2].
      { destruct e as [[d u] v]. cbn [norm fst snd] in *. lia. }
      rewrite (rsum_ext n _ (fun i => if Nat.eqb i (fst (norm e)) then (if f i (snd (norm e)) then 1 else 0) else 0)).
      2:{ intros i Hi. destruct (Nat.eqb_spec i (fst (norm e))) as [->|Hne].
          - rewrite <- (rsum_delta n (snd (norm e)) (fun j => if f (fst (norm e)) j then 1 else 0) N2). apply rsum_ext. intros j Hj.
            destruct (Nat.eqb_spec j (snd (norm e))) as [->|Hj'].
            + destruct (Nat.ltb_spec (fst (norm e)) (snd (norm e))); [|lia]. cbn [andb]. rewrite Hh by auto. rewrite !Nat.eqb_refl. reflexivity.
            + destruct (Nat.ltb_spec (fst (norm e)) j); [|reflexivity]. cbn [andb]. rewrite Hh by auto.
              destruct (Nat.eqb_spec j (snd (norm e))); [contradiction|]. rewrite andb_false_r. now destruct (f _ _).
          - apply rsum_zero. intros j Hj. destruct (Nat.ltb_spec i j); [|reflexivity]. cbn [andb]. rewrite Hh by auto.
            destruct (Nat.eqb_spec i (fst (norm e))); [contradiction|]. cbn [andb]. now destruct (f i j). }
      rewrite rsum_delta by lia. destruct (f (fst (norm e)) (snd (norm e))); [cbn [List.length]; rewrite S_INR|]; lra.
  Qed.
End Total.

Section Top.
  Context {W : Type} `{ExactNum W} {St : Type} (G : rng W St).
  (** The sum of the weights of the edges between clusters [a] and [b]. *)
  Definition edges_between (sizes : list Z) (g : graph W) (a b : nat) : R :=
    let n := number_of_vertices g in
    rsum n (fun i => rsum n (fun j => if ((i <? j) && ((block (nsizes sizes) i =? a) && (block (nsizes sizes) j =? b)))%bool then toR (weight g i j) else 0%R)).
  Lemma approximate_edges fuel sizes P exact s g s' a b : valid_sbm sizes P -> rng_picks G -> general_sbm G fuel sizes P exact s = Some (Ok (g, s')) ->
    a <= b < List.length sizes ->
    use_binomial exact (nth a (nsizes sizes) 0) (nth b (nsizes sizes) 0) (dm_at P a b) = true ->
    let M := if a =? b then nth a (nsizes sizes) 0 * nth b (nsizes sizes) 0 / 2 else nth a (nsizes sizes) 0 * nth b (nsizes sizes) 0 in
    let mean := wmul (dm_at P a b) (wnat M) in
    if wltb mean w1 then edges_between sizes g a b = 0%R
    else exists s0, edges_between sizes g a b = INR (Z.to_nat (Z.max 0 (Z.min (Z.of_nat M) (fst (gauss G mean (wsqrt (wmul (wsub w1 (dm_at P a b)) mean)) s0))))).
  Proof.
    intros Hv Hp Eg Hab Hu M mean. destruct (sbm_evs G fuel sizes P exact s) as [l o] eqn:E.
    pose proof (general_sbm_counts G fuel sizes P exact s l o Hv Hp E) as Hc. destruct o as [s1|]; [|congruence].
    destruct Hc as (g' & Eg' & En & Ew). rewrite Eg in Eg'. injection Eg' as <- <-.
    destruct (evs_between G fuel sizes P exact s l s' a b Hv Hp E Hab) as (s0 & s2 & Es).
    assert (edges_between sizes g a b = INR (List.length (filter (between (nsizes sizes) a b) l))) as ->.
    { unfold edges_between, between. rewrite En, <- (nhits_sum (nsum (nsizes sizes)) (fun i j => (block (nsizes sizes) i =? a) && (block (nsizes sizes) j =? b))).
      - apply rsum_ext. intros i Hi. apply rsum_ext. intros j Hj. now rewrite Ew, toR_wnat.
      - pose proof (sbm_evs_good G fuel sizes P exact s Hv Hp) as [Hg _]. rewrite E in Hg. exact Hg. }
    unfold stage_evs in Es. cbn [stage_at s_ci s_oi s_tn s_on s_ts s_os] in Es. rewrite Hu in Es. unfold binomial_evs in Es.
    assert (max_edges (nth a (nsizes sizes) 0) (nth b (nsizes sizes) 0) (nsum (firstn a (nsizes sizes))) (nsum (firstn b (nsizes sizes))) = M) as EM.
    { unfold max_edges, M. assert ((nsum (firstn a (nsizes sizes)) =? nsum (firstn b (nsizes sizes))) = (a =? b)) as ->; [|reflexivity].
      destruct (Nat.eqb_spec a b) as [->|Hne]; [apply Nat.eqb_refl|]. apply Nat.eqb_neq.
      assert (List.length (nsizes sizes) = List.length sizes) as Hl by apply map_length.
      pose proof (nsum_firstn_S (nsizes sizes) a ltac:(lia)). pose proof (nsum_firstn_mono (nsizes sizes) (S a) b ltac:(lia)).
      pose proof (nsizes_pos _ (proj1 Hv)) as Hpos. rewrite Forall_forall in Hpos. assert (1 <= nth a (nsizes sizes) 0) by (apply Hpos, nth_In; lia). lia. }
    rewrite EM in Es. fold mean in Es. destruct (wltb mean w1).
    - injection Es as Es _. rewrite <- Es. reflexivity.
    - exists s0. destruct (gauss G mean _ s0) as [raw s3]. cbn [fst]. apply bin_evs_length in Es. now rewrite Es.
  Qed.
End Top.
