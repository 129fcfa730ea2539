(** C74: how many edges the approximate sampler of the block model draws. *)
From Verif Require Import Base Num RSum Sparse SparseFacts Graph GraphSpec GraphFacts GraphProps1 GraphProps2 GraphExamples Text TextFacts GraphIO IOSpec
  GraphIOFacts GraphIOLoad RandomGraph RandomFacts RandomTop RandomTop2 RandomCount TextQc Props_Random.
From Coq Require Import Ascii String List Reals Lra QArith Qcanon Qreals.
Import ListNotations.
Local Close Scope Q_scope.
Local Close Scope Qc_scope.
Local Open Scope nat_scope.
Local Open Scope list_scope.

(** [edges_between sizes g a b] is the sum of the weights of the pairs i < j with i in cluster a and j in cluster b.

    For clusters a <= b with at least 10000 ordered pairs of vertices and a probability below 1/2, general_sbm with the default [exact = false]
    draws no edge at all if the mean p * M is below one, and otherwise one normal variable of mean p * M and standard deviation
    sqrt((1 - p) * p * M), rounded down and cut off at 0 and M, where M is the number of pairs (half of n_a^2 within one cluster):
    that many edges, counted with multiplicity, join the two clusters. *)
Theorem C74_number_of_edges_partial :
  forall (W : Type) `{ExactNum W} (St : Type) (G : rng W St) (fuel : nat) (sizes : list Z) (P : dmat W) (s : St) (g : graph W) (s' : St) (a b : nat),
  valid_sbm sizes P -> (forall n s, 0 < n -> fst (pick G n s) < n) ->
  general_sbm G fuel sizes P false s = Some (Ok (g, s')) ->
  a <= b < List.length sizes ->
  (10000 <= nth a sizes 0 * nth b sizes 0)%Z -> wltb (dm_at P a b) whalf = true ->
  let n_a := Z.to_nat (nth a sizes 0%Z) in
  let n_b := Z.to_nat (nth b sizes 0%Z) in
  let M := if a =? b then n_a * n_a / 2 else n_a * n_b in
  let p := dm_at P a b in
  let mean := wmul p (wnat M) in
  if wltb mean w1 then edges_between sizes g a b = 0%R
  else exists s0, edges_between sizes g a b =
    INR (Z.to_nat (Z.max 0 (Z.min (Z.of_nat M) (fst (gauss G mean (wsqrt (wmul (wsub w1 p) mean)) s0))))).
Proof.
  intros W HN HE St G fuel sizes P s g s' a b Hv Hp Eg Hab Hbig Hlow n_a n_b M p mean.
  assert (forall c, c < List.length sizes -> nth c (nsizes sizes) 0 = Z.to_nat (nth c sizes 0%Z)) as Hn.
  { intros c Hc. unfold nsizes. rewrite (nth_indep _ 0 (Z.to_nat 0%Z)) by (now rewrite map_length). now rewrite map_nth. }
  assert (forall c, c < List.length sizes -> (1 <= nth c sizes 0)%Z) as Hpos.
  { intros c Hc. destruct Hv as [Hs _]. rewrite Forall_forall in Hs. apply Hs, nth_In, Hc. }
  pose proof (approximate_edges G fuel sizes P false s g s' a b Hv Hp Eg Hab) as Ha. rewrite !Hn in Ha by lia. fold n_a n_b in Ha.
  assert (use_binomial false n_a n_b (dm_at P a b) = true) as Hu.
  { unfold use_binomial. fold p in Hlow |- *. rewrite Hlow. cbn [negb]. rewrite !andb_true_r. apply Z.leb_le. unfold n_a, n_b.
    rewrite !Z2Nat.id; [exact Hbig| |]; (eapply Z.le_trans; [|apply Hpos; lia]; lia). }
  specialize (Ha Hu). cbv zeta in Ha. subst M. destruct (Nat.eqb_spec a b) as [Eab|Hne].
  - assert (n_b = n_a) as Enb by (unfold n_a, n_b; now rewrite Eab). rewrite Enb in Ha. exact Ha.
  - exact Ha.
Qed.
Print Assumptions C74_number_of_edges_partial.

(** A generator whose normal samples are their mean, rounded down. *)
Definition exMean : rng Qc nat :=
  mkRng (fun s => (qc (Z.of_nat (s mod 4)) 4, S s)) (fun m _ s => ((Qnum m / Z.pos (Qden m))%Z, s)) (fun n s => (if s mod 2 =? 0 then 3 mod n else 5 mod n, S s)).
Lemma exMean_picks n s : 0 < n -> fst (pick exMean n s) < n.
Proof. intros Hn. cbn [pick exMean fst]. destruct (s mod 2 =? 0); apply Nat.mod_upper_bound; lia. Qed.
Definition quarter : dmat Qc := mkDmat 1 1 (fun _ _ => qc 1 4).
Lemma quarter_valid : valid_sbm [100]%Z quarter.
Proof. apply valid_sbm_iff. vm_compute. reflexivity. Qed.
Lemma quarter_runs : exists g s', general_sbm exMean 5 [100]%Z quarter false 0 = Some (Ok (g, s')).
Proof.
  destruct (sbm_evs exMean 5 [100]%Z quarter false 0) as [l o] eqn:E.
  pose proof (general_sbm_counts exMean 5 [100]%Z quarter false 0 l o quarter_valid exMean_picks E) as Hc.
  destruct o as [s1|]; [destruct Hc as (g & Eg & _); eauto|]. exfalso.
  assert ((match snd (sbm_evs exMean 5 [100]%Z quarter false 0) with Some _ => true | None => false end) = true) as Hs by (vm_compute; reflexivity).
  rewrite E in Hs. discriminate.
Qed.
Example C74_hypotheses_met :
  valid_sbm [100]%Z quarter /\ (forall n s, 0 < n -> fst (pick exMean n s) < n) /\ (10000 <= nth 0 [100] 0 * nth 0 [100] 0)%Z /\
  wltb (dm_at quarter 0 0) whalf = true /\ wltb (wmul (dm_at quarter 0 0) (wnat (100 * 100 / 2))) w1 = false /\
  exists g s', general_sbm exMean 5 [100]%Z quarter false 0 = Some (Ok (g, s')) /\ edges_between [100]%Z g 0 0 = 1250%R.
Proof.
  split; [exact quarter_valid|]. split; [exact exMean_picks|]. split; [vm_compute; discriminate|]. split; [vm_compute; reflexivity|]. split; [vm_compute; reflexivity|].
  destruct quarter_runs as (g & s' & Eg). exists g, s'. split; [exact Eg|].
  pose proof (C74_number_of_edges_partial Qc nat exMean 5 [100]%Z quarter 0 g s' 0 0 quarter_valid exMean_picks Eg ltac:(simpl; lia) ltac:(vm_compute; discriminate) ltac:(vm_compute; reflexivity)) as Hc.
  cbv zeta in Hc. change (nth 0 [100]%Z 0%Z) with 100%Z in Hc. change (0 =? 0) with true in Hc. cbv iota in Hc.
  match type of Hc with context [if ?c then _ else _] => destruct c eqn:Hf end; [exfalso; vm_compute in Hf; discriminate|].
  destruct Hc as (s0 & Hc). rewrite Hc.
  match goal with |- INR ?m = _ => assert (Z.of_nat m = 1250%Z) as Em by (vm_compute; reflexivity) end.
  rewrite INR_IZR_INZ, Em. reflexivity.
Qed.

(** The documentation promises each edge with probability p, so p * n * (n - 1) / 2 edges are expected within a cluster of n vertices; the
    sampler aims at p * n^2 / 2 (random.cpp:152 halves n * n): with samples equal to their mean, 1250 edges instead of 1237.5. *)
Theorem C74_expected_edges_refuted :
  exists (St : Type) (G : rng Qc St) (fuel : nat) (sizes : list Z) (P : dmat Qc) (s : St) (g : graph Qc) (s' : St),
  valid_sbm sizes P /\ (forall n s, 0 < n -> fst (pick G n s) < n) /\
  (forall mean dev s, fst (gauss G mean dev s) = (Qnum mean / Z.pos (Qden mean))%Z) /\
  general_sbm G fuel sizes P false s = Some (Ok (g, s')) /\ sizes = [100]%Z /\
  (edges_between sizes g 0 0 - toR (dm_at P 0 0) * (100 * 99 / 2) = 125 / 10)%R.
Proof.
  destruct C74_hypotheses_met as (_ & _ & _ & _ & _ & g & s' & Eg & Ee).
  exists nat, exMean, 5, [100]%Z, quarter, 0, g, s'. split; [exact quarter_valid|]. split; [exact exMean_picks|]. split; [reflexivity|]. split; [exact Eg|]. split; [reflexivity|].
  rewrite Ee. assert (toR (dm_at quarter 0 0) = (1 / 4)%R) as ->; [|lra]. cbn. unfold QcR, Q2R. cbn. lra.
Qed.
Print Assumptions C74_expected_edges_refuted.
