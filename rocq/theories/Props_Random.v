(** Theorems C46-C48: the stochastic block model generators (stag_lib/random.cpp). *)
From Verif Require Import Base Num RSum Sparse SparseFacts Graph GraphSpec GraphFacts GraphProps1 GraphProps2 GraphExamples Text TextFacts TextQc GraphIO IOSpec
  GraphIOFacts GraphIOLoad IOExamples RandomGraph RandomFacts RandomTop RandomTop2 FloorDiv.
From Coq Require Reals.
From Flocq Require Raux.
From Coq Require Import Ascii String List Sorting.Sorted QArith Qcanon.
Import ListNotations.
Local Close Scope Q_scope. Local Close Scope Qc_scope.
Local Open Scope nat_scope.
Local Open Scope list_scope.

(** ** C46 *)
(** The pairs of vertices are examined in an order that depends on the cluster sizes only; the t-th pair (i,j) is an edge of weight 1 exactly
    when the t-th sample [draw G s t] of the generator is below the probability for the clusters of i and j; there is no other edge.
    Any arithmetic (in particular doubles), any generator. *)
Theorem C46_one_coin_per_pair :
  forall (sizes : list Z), exists pairs : list (nat * nat),
  NoDup pairs /\ (forall i j, In (i, j) pairs <-> i < j /\ j < nsum (nsizes sizes)) /\
  forall (W : Type) (HN : Num W) (HP : PosNum W) (St : Type) (G : rng W St) (fuel : nat) (P : dmat W) (exact : bool) (s : St),
  valid_sbm sizes P -> coin_per_pair sizes P exact ->
  exists g, general_sbm G fuel sizes P exact s = Some (Ok (g, skip G (List.length pairs) s)) /\
    Z.of_nat (number_of_vertices g) = zsum sizes /\
    (forall t i j, nth_error pairs t = Some (i, j) ->
       weight g i j = (if wltb (draw G s t) (dm_at P (block (nsizes sizes) i) (block (nsizes sizes) j)) then w1 else w0) /\
       weight g j i = weight g i j) /\
    (forall i, weight g i i = w0).
Proof.
  intros sizes. exists (all_pairs sizes). split; [apply NoDup_plan|]. split; [intros i j; unfold all_pairs; rewrite In_plan; lia|].
  intros W HN HP St G fuel P exact s Hv Hc. now apply general_sbm_coins.
Qed.
Print Assumptions C46_one_coin_per_pair.

(** sbm(n,k,p,q,exact): clusters of n/k consecutive vertices. *)
Theorem C46_sbm_one_coin_per_pair :
  forall (n k : Z), (1 <= k)%Z -> (k <= n / 2)%Z -> exists pairs : list (nat * nat),
  NoDup pairs /\ (forall i j, In (i, j) pairs <-> i < j /\ (Z.of_nat j < k * (n / k))%Z) /\
  forall (W : Type) (HN : Num W) (HP : PosNum W) (St : Type) (G : rng W St) (fuel : nat) (p q : W) (s : St),
  wltb p w0 = false -> wltb w1 p = false -> wltb q w0 = false -> wltb w1 q = false ->
  exists g, sbm G fuel n k p q true s = Some (Ok (g, skip G (List.length pairs) s)) /\
    Z.of_nat (number_of_vertices g) = (k * (n / k))%Z /\
    (forall t i j, nth_error pairs t = Some (i, j) ->
       weight g i j = (if wltb (draw G s t) (if (Z.of_nat i / (n / k) =? Z.of_nat j / (n / k))%Z then p else q) then w1 else w0) /\
       weight g j i = weight g i j) /\
    (forall i, weight g i i = w0).
Proof.
  intros n k H1 H2. exists (all_pairs (sbm_sizes n k)). pose proof (sbm_sizes_pos n k H1 H2) as Hs. pose proof (sbm_sizes_sum n k H1 H2) as Hsum.
  assert (forall i j, In (i, j) (all_pairs (sbm_sizes n k)) <-> i < j /\ (Z.of_nat j < k * (n / k))%Z) as Hin.
  { intros i j. unfold all_pairs. rewrite In_plan, <- Hsum, (zsum_nsum _ Hs). unfold nsizes. lia. }
  split; [apply NoDup_plan|]. split; [exact Hin|].
  intros W HN HP St G fuel p q s P0 P1 Q0 Q1. unfold sbm. assert (1 <= n)%Z as Hn by (assert (2 * (n / 2) <= n)%Z by (apply Z.mul_div_le; lia); lia).
  rewrite (proj2 (sbm_nk_ok_iff n k)) by auto. rewrite P0, P1, Q0, Q1. simpl negb. simpl orb. cbv iota.
  destruct (general_sbm_coins G (sbm_sizes n k) fuel (sbm_probs k p q) true s) as (g & Eg & En & Ew & Ed); [now apply sbm_valid|now left|].
  exists g. split; [exact Eg|]. split; [congruence|]. split; [|exact Ed]. intros t i j Ht. destruct (Ew t i j Ht) as [E1 E2]. split; [|exact E2].
  rewrite E1. apply nth_error_In, Hin in Ht. destruct Ht as [Hij Hj]. rewrite nsizes_sbm.
  assert (2 * (n / 2) <= n)%Z by (apply Z.mul_div_le; lia). assert (1 <= n / k)%Z as Hm by (apply Z.div_le_lower_bound; lia).
  assert (Z.of_nat i / (n / k) = Z.of_nat (block (repeat (Z.to_nat (n / k)) (Z.to_nat k)) i) /\ Z.of_nat j / (n / k) = Z.of_nat (block (repeat (Z.to_nat (n / k)) (Z.to_nat k)) j))%Z as [-> ->].
  { rewrite !block_repeat by nia. rewrite !Nat2Z.inj_div, !Z2Nat.id by lia. auto. }
  unfold sbm_probs. cbn [dm_at]. destruct (Nat.eqb_spec (block (repeat (Z.to_nat (n / k)) (Z.to_nat k)) i) (block (repeat (Z.to_nat (n / k)) (Z.to_nat k)) j)) as [->|Hne].
  - now rewrite Z.eqb_refl.
  - assert ((Z.of_nat (block (repeat (Z.to_nat (n / k)) (Z.to_nat k)) i) =? Z.of_nat (block (repeat (Z.to_nat (n / k)) (Z.to_nat k)) j))%Z = false) as -> by (apply Z.eqb_neq; lia). reflexivity.
Qed.
Print Assumptions C46_sbm_one_coin_per_pair.

(** erdos_renyi(n,p,exact): exactly n vertices, every pair with probability p. *)
Theorem C46_erdos_renyi_one_coin_per_pair :
  forall (n : Z), (2 <= n)%Z -> exists pairs : list (nat * nat),
  NoDup pairs /\ (forall i j, In (i, j) pairs <-> i < j /\ (Z.of_nat j < n)%Z) /\
  forall (W : Type) (HN : Num W) (HP : PosNum W) (St : Type) (G : rng W St) (fuel : nat) (p : W) (s : St),
  wltb p w0 = false -> wltb w1 p = false -> wltb (w0 : W) w0 = false ->
  exists g, erdos_renyi G fuel n p true s = Some (Ok (g, skip G (List.length pairs) s)) /\
    Z.of_nat (number_of_vertices g) = n /\
    (forall t i j, nth_error pairs t = Some (i, j) ->
       weight g i j = (if wltb (draw G s t) p then w1 else w0) /\ weight g j i = weight g i j) /\
    (forall i, weight g i i = w0).
Proof.
  intros n Hn. assert (1 <= n / 2)%Z as H2 by (apply Z.div_le_lower_bound; lia).
  destruct (C46_sbm_one_coin_per_pair n 1 ltac:(lia) H2) as (pairs & Hnd & Hin & Hrun). rewrite Z.div_1_r in *.
  assert (forall i j, In (i, j) pairs <-> i < j /\ (Z.of_nat j < n)%Z) as Hin' by (intros i j; rewrite Hin, Z.mul_1_l; reflexivity).
  exists pairs. split; [exact Hnd|]. split; [exact Hin'|].
  intros W HN HP St G fuel p s P0 P1 Q0. unfold erdos_renyi.
  assert (wltb (w1 : W) w0 = false) as Q1 by apply pn_pos, pn_1.
  destruct (Hrun W HN HP St G fuel p w0 s P0 P1 Q0 Q1) as (g & Eg & En & Ew & Ed). exists g. split; [exact Eg|]. split; [lia|]. split; [|exact Ed].
  intros t i j Ht. destruct (Ew t i j Ht) as [E1 E2]. split; [|exact E2]. rewrite E1. apply nth_error_In, Hin' in Ht.
  rewrite !Z.div_small by lia. reflexivity.
Qed.
Print Assumptions C46_erdos_renyi_one_coin_per_pair.

(** All parameters, the approximate sampler included, in exact arithmetic: every result is a symmetric graph without self-loops on the requested
    vertices whose weights are natural numbers; 0 or 1 between clusters sampled with coins; probability 0 gives no edge and probability 1 every edge.
    Missing: weights of pairs of clusters sampled by the approximate method can exceed 1 (refuted below); termination of its rejection loop depends on the generator. *)
Theorem C46_simple_graph_partial :
  forall (W : Type) `{ExactNum W} (St : Type) (G : rng W St) (fuel : nat) (sizes : list Z) (P : dmat W) (exact : bool) (s : St) r,
  valid_sbm sizes P ->
  (forall n s, 0 < n -> fst (pick G n s) < n) ->
  (forall s, wltb (fst (unif01 G s)) w0 = false /\ wltb (fst (unif01 G s)) w1 = true) ->
  general_sbm G fuel sizes P exact s = Some r ->
  exists g s', r = Ok (g, s') /\ Z.of_nat (number_of_vertices g) = zsum sizes /\
    (forall i j, weight g i j = weight g j i) /\ (forall i, weight g i i = w0) /\
    (forall i j, exists m, weight g i j = wnat m) /\
    (forall i j, i < j -> coin_block sizes P exact (block (nsizes sizes) i) (block (nsizes sizes) j) -> weight g i j = w0 \/ weight g i j = w1) /\
    (forall i j, i < j -> dm_at P (block (nsizes sizes) i) (block (nsizes sizes) j) = w0 -> weight g i j = w0) /\
    (forall i j, i < j -> j < number_of_vertices g -> dm_at P (block (nsizes sizes) i) (block (nsizes sizes) j) = w1 -> weight g i j = w1).
Proof. intros W HN HE St G fuel sizes P exact s r Hv Hp Hu E. eapply general_sbm_multigraph; eauto. Qed.
Print Assumptions C46_simple_graph_partial.

(** Bad parameters. *)
Theorem C46_invalid_parameters :
  forall (W : Type) `{Num W} (St : Type) (G : rng W St) (fuel : nat) (sizes : list Z) (P : dmat W) (exact : bool) (s : St),
  (0 <= zsum sizes)%Z -> ~ valid_sbm sizes P -> general_sbm G fuel sizes P exact s = Some (Throw InvalidArgument).
Proof. intros. now apply general_sbm_invalid. Qed.
Print Assumptions C46_invalid_parameters.
Theorem C46_invalid_sbm_parameters :
  forall (W : Type) `{Num W} (St : Type) (G : rng W St) (fuel : nat) (n k : Z) (p q : W) (exact : bool) (s : St),
  (n < 1)%Z \/ (k < 1)%Z \/ (n / 2 < k)%Z \/ wltb p w0 = true \/ wltb w1 p = true \/ wltb q w0 = true \/ wltb w1 q = true ->
  sbm G fuel n k p q exact s = Some (Throw InvalidArgument).
Proof.
  intros W HN St G fuel n k p q exact s Hb. unfold sbm. destruct (sbm_nk_ok n k) eqn:E; [|reflexivity]. apply sbm_nk_ok_iff in E. simpl negb. cbv iota.
  destruct (wltb p w0 || wltb w1 p) eqn:Ep; [reflexivity|]. destruct (wltb q w0 || wltb w1 q) eqn:Eq; [reflexivity|].
  apply orb_false_iff in Ep, Eq. destruct Ep, Eq. exfalso. destruct Hb as [Hb|[Hb|[Hb|[Hb|[Hb|[Hb|Hb]]]]]]; try lia; congruence.
Qed.
Print Assumptions C46_invalid_sbm_parameters.

(** The cluster size computed in doubles is the integer quotient: [rnd64] rounds to the nearest double. *)
Theorem C46_cluster_size_in_doubles :
  forall n k : Z, (0 <= n < 2 ^ 53)%Z -> (1 <= k < 2 ^ 53)%Z ->
  Raux.Zfloor (rnd64 (Rdefinitions.Rdiv (rnd64 (Rdefinitions.IZR n)) (rnd64 (Rdefinitions.IZR k)))) = (n / k)%Z.
Proof. exact floor_division. Qed.
Print Assumptions C46_cluster_size_in_doubles.

(** A concrete generator: canonical samples 0, 1/4, 1/2, 3/4, ..., two edges from the approximate sampler, picks in turn. *)
Definition exRng : rng Qc nat :=
  mkRng (fun s => (qc (Z.of_nat (s mod 4)) 4, S s)) (fun _ _ s => (2%Z, s)) (fun n s => (s mod n, S s)).
(** The same two vertices for every edge of the approximate sampler. *)
Definition exRng2 : rng Qc nat :=
  mkRng (fun s => (qc (Z.of_nat (s mod 4)) 4, S s)) (fun _ _ s => (2%Z, s)) (fun n s => (if s mod 2 =? 0 then 3 mod n else 5 mod n, S s)).
Definition exP : dmat Qc := mkDmat 2 2 (fun i j => if i =? j then qc 3 4 else qc 1 4).

Example C46_hypotheses_met :
  valid_sbm [3; 2]%Z exP /\ coin_per_pair [3; 2]%Z exP false /\
  (forall n s, 0 < n -> fst (pick exRng n s) < n) /\
  (forall s, wltb (fst (unif01 exRng s)) w0 = false /\ wltb (fst (unif01 exRng s)) w1 = true) /\
  exists g, general_sbm exRng 5 [3; 2]%Z exP false 0 = Some (Ok (g, 10)) /\ number_of_vertices g = 5 /\
    weqb (weight g 0 1) w1 = true /\ weqb (weight g 0 4) w1 = true /\ weqb (weight g 1 4) w0 = true.
Proof.
  split; [|split; [|split; [|split]]].
  - apply valid_sbm_iff. vm_compute. reflexivity.
  - right. intros i j Hij Hj. left. simpl in Hj. destruct j as [|[|j]]; destruct i as [|[|i]]; simpl; lia.
  - intros n s Hn. simpl. apply Nat.mod_upper_bound. lia.
  - intros s. assert (s mod 4 < 4) as Hs by (apply Nat.mod_upper_bound; lia). cbn [unif01 exRng fst].
    destruct (s mod 4) as [|[|[|[|m]]]]; [vm_compute; auto..|lia].
  - eexists. split; [vm_compute; reflexivity|]. vm_compute. auto.
Qed.

(** sbm(5, 2, ...) has 4 vertices. *)
Theorem C46_vertex_count_refuted :
  exists (St : Type) (G : rng Qc St) (fuel : nat) (n k : Z) (p q : Qc) (s : St) g s',
  (forall n s, 0 < n -> fst (pick G n s) < n) /\
  sbm G fuel n k p q true s = Some (Ok (g, s')) /\ Z.of_nat (number_of_vertices g) <> n.
Proof.
  exists nat, exRng, 5, 5%Z, 2%Z, (qc 1 2), (qc 1 4), 0. eexists. eexists.
  split; [intros n s Hn; simpl; apply Nat.mod_upper_bound; lia|]. split; [vm_compute; reflexivity|]. vm_compute. discriminate.
Qed.
Print Assumptions C46_vertex_count_refuted.

(** The approximate sampler can choose a pair twice: weight 2. *)
Theorem C46_repeated_edge_refuted :
  exists (St : Type) (G : rng Qc St) (fuel : nat) (sizes : list Z) (P : dmat Qc) (s : St) g s' i j,
  valid_sbm sizes P /\ (forall n s, 0 < n -> fst (pick G n s) < n) /\
  (forall s, wltb (fst (unif01 G s)) w0 = false /\ wltb (fst (unif01 G s)) w1 = true) /\
  general_sbm G fuel sizes P false s = Some (Ok (g, s')) /\ weqb (weight g i j) (wadd w1 w1) = true.
Proof.
  exists nat, exRng2, 5, [100]%Z, (mkDmat 1 1 (fun _ _ => qc 1 4)), 0. eexists. eexists. exists 3, 5.
  split; [apply valid_sbm_iff; vm_compute; reflexivity|].
  split; [intros n s Hn; cbn [pick exRng2 fst]; destruct (s mod 2 =? 0); apply Nat.mod_upper_bound; lia|].
  split.
  - intros s. assert (s mod 4 < 4) as Hs by (apply Nat.mod_upper_bound; lia). cbn [unif01 exRng2 fst].
    destruct (s mod 4) as [|[|[|[|m]]]]; [vm_compute; auto..|lia].
  - split; [vm_compute; reflexivity|]. vm_compute. reflexivity.
Qed.
Print Assumptions C46_repeated_edge_refuted.

(** erdos_renyi(1, p) is refused. *)
Theorem C46_one_vertex_refuted :
  forall (W : Type) `{Num W} (St : Type) (G : rng W St) (fuel : nat) (p : W) (exact : bool) (s : St),
  erdos_renyi G fuel 1 p exact s = Some (Throw InvalidArgument).
Proof. reflexivity. Qed.
Print Assumptions C46_one_vertex_refuted.

(** ** C47 *)
(** One label per vertex; the label of v is the index of the block of consecutive vertices containing v. *)
Theorem C47_ground_truth_labels :
  forall (sizes : list Z), Forall (fun z => (1 <= z)%Z) sizes ->
  exists labels, general_sbm_gt_labels sizes = Ok labels /\ Z.of_nat (List.length labels) = zsum sizes /\
    forall v c, nth_error labels v = Some c ->
      c < List.length sizes /\ (zsum (firstn c sizes) <= Z.of_nat v < zsum (firstn (S c) sizes))%Z.
Proof. exact general_labels_spec. Qed.
Print Assumptions C47_ground_truth_labels.
(** The labels are the clusters used by the generator: see [block] in C46. *)
Theorem C47_labels_are_generator_blocks :
  forall (sizes : list Z) labels, general_sbm_gt_labels sizes = Ok labels ->
  forall v, v < List.length labels -> nth v labels 0 = block (nsizes sizes) v.
Proof.
  intros sizes labels E v Hv. unfold general_sbm_gt_labels in E. destruct (forallb _ sizes); [|discriminate]. injection E as <-.
  rewrite push_labels_eq in *. simpl app in *. rewrite map_length, seq_length in Hv. now rewrite (nth_map_seq (fun v => 0 + block (map Z.to_nat sizes) v)) by auto.
Qed.
Print Assumptions C47_labels_are_generator_blocks.
Theorem C47_sbm_labels :
  forall (n k : Z), (1 <= k)%Z -> (k <= n / 2)%Z ->
  exists labels, sbm_gt_labels n k = Ok labels /\ Z.of_nat (List.length labels) = (k * (n / k))%Z /\
    forall v, v < List.length labels -> Z.of_nat (nth v labels 0) = (Z.of_nat v / (n / k))%Z.
Proof.
  intros n k H1 H2. pose proof (sbm_sizes_pos n k H1 H2) as Hs. destruct (general_labels_spec _ Hs) as (labels & E & El & _).
  assert (2 * (n / 2) <= n)%Z by (apply Z.mul_div_le; lia). assert (1 <= n / k)%Z as Hm by (apply Z.div_le_lower_bound; lia).
  exists labels. unfold sbm_gt_labels. rewrite (proj2 (sbm_nk_ok_iff n k)) by lia. split; [exact E|]. rewrite (sbm_sizes_sum n k H1 H2) in El. split; [exact El|].
  intros v Hv. rewrite (C47_labels_are_generator_blocks _ _ E v Hv), nsizes_sbm, block_repeat by nia. now rewrite Nat2Z.inj_div, Z2Nat.id by lia.
Qed.
Print Assumptions C47_sbm_labels.
Theorem C47_invalid_sizes :
  forall (sizes : list Z), (exists z, In z sizes /\ (z < 1)%Z) -> general_sbm_gt_labels sizes = Throw InvalidArgument.
Proof.
  intros sizes (z & Hz & Hl). unfold general_sbm_gt_labels. destruct (forallb _ sizes) eqn:E; [|reflexivity]. rewrite forallb_forall in E. apply E, Z.leb_le in Hz. lia.
Qed.
Print Assumptions C47_invalid_sizes.
Example C47_hypotheses_met :
  Forall (fun z => (1 <= z)%Z) [3; 1; 2]%Z /\ general_sbm_gt_labels [3; 1; 2]%Z = Ok [0; 0; 0; 1; 2; 2] /\
  sbm_gt_labels 7 3 = Ok [0; 0; 1; 1; 2; 2].
Proof. split; [repeat constructor; lia|]. split; reflexivity. Qed.

(** ** C48 *)
(** The file written by general_sbm_edgelist, when loaded, gives the graph that general_sbm returns for the same state of the generator, except that isolated
    vertices at the end are lost (an edge list cannot represent them). *)
Theorem C48_file_equals_memory :
  forall (W : Type) `{ExactNum W} `{!TextNum W} (St : Type) (G : rng W St) (fuel : nat) (sizes : list Z) (P : dmat W) (exact : bool) (s s' : St) g,
  valid_sbm sizes P -> (forall n s, 0 < n -> fst (pick G n s) < n) -> prints_ok P -> (zsum sizes <= 2147483648)%Z ->
  general_sbm G fuel sizes P exact s = Some (Ok (g, s')) ->
  exists file h, general_sbm_edgelist G fuel sizes P exact s = Some (Ok (file, s')) /\ load_edgelist file = Ok h /\
    (forall u v, weight h u v = weight g u v) /\ number_of_vertices h <= number_of_vertices g /\
    (forall u, weight g u (number_of_vertices g - 1) <> w0 -> number_of_vertices h = number_of_vertices g).
Proof. intros. now apply sbm_file_loads. Qed.
Print Assumptions C48_file_equals_memory.

Example C48_hypotheses_met :
  valid_sbm [3; 2]%Z exP /\ prints_ok exP /\
  exists g f h, general_sbm exRng 5 [3; 2]%Z exP false 0 = Some (Ok (g, 10)) /\
    general_sbm_edgelist exRng 5 [3; 2]%Z exP false 0 = Some (Ok (f, 10)) /\ load_edgelist f = Ok h /\ graph_eqb g h = true.
Proof.
  split; [apply valid_sbm_iff; vm_compute; reflexivity|]. split.
  - split; [vm_compute; reflexivity|]. split; [vm_compute; reflexivity|]. intros i j. unfold exP. cbn [dm_at].
    destruct (i =? j); apply one_line_txt; vm_compute; reflexivity.
  - eexists. eexists. eexists. split; [vm_compute; reflexivity|]. split; [vm_compute; reflexivity|]. split; [vm_compute; reflexivity|]. vm_compute. reflexivity.
Qed.
