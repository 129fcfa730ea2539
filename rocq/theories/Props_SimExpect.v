(** Theorems C77: expected edge weights of approximate_similarity_graph (stag_lib/cluster.cpp:626-905). The distribution of the random draws is [Eall] in SimExpect.v:
    every vertex draws its two samples from the tree, independently of the other vertices; at an inner node the number of samples sent to the left child is binomial; at a
    leaf every sample has its own uniform number in [0,1]. *)
From Verif Require Import Base Num RSum Sparse SparseFacts Graph GraphSpec GraphFacts GraphProps4 Cluster ClusterCC ClusterSpec ClusterSweep ClusterPR ClusterPR2 ThreadPool ThreadPoolFacts ThreadPoolTop Kde KdeFacts KdeFacts2 KdeFacts3 KdeFacts4 Props_Kde SimGraph SimGraphFacts SimGraphFacts2 SimGraphFacts3 SimGraphFacts4 SimGraphTop Props_Sim LshOffset SimExpect.
From Coq Require Import ZArith Permutation Reals Lra Lia List.
From Coquelicot Require Import Coquelicot.
Import ListNotations.
Local Open Scope nat_scope.

(** The kernel of two rows of the data. *)
Definition kernel (a : R) (data : list (list R)) (u v : nat) : R := exp (- a * dist2 (nth u data []) (nth v data [])).
(** The share of v among the rows lo..hi, seen from u: the kernel values of u are added up in row order and cut off at the fraction (m-1)/m of their total, where m = hi-lo+1. *)
Definition share (a : R) (data : list (list R)) (lo hi u v : nat) : R :=
  let upto w := lsum (kernel a data u) (seq lo (w - lo)) in
  let cut := (INR (hi - lo) / INR (hi + 1 - lo) * upto (hi + 1)%nat)%R in
  if (lo <=? v) && (v <=? hi) then (Rmin (upto (v + 1)%nat) cut - Rmin (upto v) cut)%R else 0%R.

Lemma cut_tw a data lo hi u : lo <= hi -> (INR (hi - lo) / INR (hi + 1 - lo) * lsum (kernel a data u) (seq lo (hi + 1 - lo)))%R = tw a data (Leaf lo hi) (nth u data []).
Proof.
  intros L. rewrite leaf_tw by auto. unfold cum, kernel, kern. rewrite <- !INR_IZR_INZ. field. apply not_0_INR. lia.
Qed.
Lemma share_kept a data lo hi u v : lo <= hi -> share a data lo hi u v = kept a data lo hi (nth u data []) v.
Proof. intros L. unfold share, kept. cbv zeta. rewrite cut_tw by auto. reflexivity. Qed.
Lemma leaf_of_ok nc n v : 2 <= n -> v < n -> fst (leaf_of nc n v) <= v <= snd (leaf_of nc n v) /\ snd (leaf_of nc n v) < n.
Proof.
  intros Hn Hv. pose proof (Nat.div_mod (n - 1) 2 ltac:(lia)). pose proof (Nat.mod_upper_bound (n - 1) 2 ltac:(lia)). unfold leaf_of. destruct (_ <? nc)%Z; cbn [fst snd]; [lia|]. destruct (Nat.leb_spec v ((n - 1) / 2)); cbn [fst snd]; lia.
Qed.

(** ** The expected weight *)
(** For 2 <= n <= 2*nc (node cutoff nc, 5000 by default): the call returns a graph whose weights are those of [degrees] and two samples per vertex, cut off below 1e-10; for
    these degrees the expected weight of u-v, before the cut, is 2/5 of (share of v for u + share of u for v), shares taken in the leaf of the vertex drawn. *)
Theorem C77_expected_weight_partial :
  forall (unif : R -> Prop) (ord : nat -> nat -> nat -> list nat -> list nat) (T : nat) (a : R) (data : list (list R)) (nc : Z) (r : outcome (graph R)),
  (forall x, unif x -> (0 <= x < 1)%R) -> (forall c i l set, Permutation (ord c i l set) set) -> 1 <= T -> (0 < a)%R -> (2 <= nc)%Z ->
  2 <= length data -> (Z.of_nat (length data) <= 2 * nc)%Z -> asg unif ord T a data nc r ->
  exists t g degrees samples, r = Ok g /\
    (forall u v, u < length data -> v < length data -> weight g u v = above_eps (asg_weight degrees samples u v)) /\
    forall u v, u < length data -> v < length data ->
      let '(lu, hu) := leaf_of nc (length data) u in let '(lv, hv) := leaf_of nc (length data) v in
      Eall a data t (seq 0 (length data)) (fun smp => asg_weight degrees smp u v) = (2 / 5 * (share a data lv hv u v + share a data lu hu v u))%R.
Proof.
  intros unif ord T a data nc r Hu Hord HT Ha Hnc Hn Hs A.
  destruct (asg_small unif ord T a data nc Hu Hord HT Ha Hnc Hn r Hs A) as (t & g & B & E & degrees & samples & Ed & _ & _ & _ & _ & _ & Ew).
  exists t, g, degrees, samples. split; auto. split.
  - intros u v Lu Lv. rewrite Ew. apply Nat.ltb_lt in Lu, Lv. now rewrite Lu, Lv.
  - intros u v Lu Lv.
    assert (forall q, no_zero a data t q) as Nz by (intros q; apply (small_no_zero T a data 0 nc HT Hnc 0 (length data - 1)); auto; lia).
    rewrite (expected_weight T a data nc HT Ha Hnc Hn t B Nz degrees u v Ed Lu Lv).
    rewrite !(small_share T a data nc HT Hnc Hn Hs t) by auto.
    destruct (leaf_of_ok nc (length data) u Hn Lu) as [F1 _]. destruct (leaf_of_ok nc (length data) v Hn Lv) as [F2 _].
    destruct (leaf_of nc (length data) u) as [lu hu], (leaf_of nc (length data) v) as [lv hv]. cbn [fst snd] in *. rewrite !share_kept by lia. reflexivity.
Qed.
Print Assumptions C77_expected_weight_partial.

(** The leaves: the rows in at most two consecutive blocks. *)
Theorem C77_leaves :
  forall (nc : Z) (n v : nat), 2 <= n -> v < n -> let '(lo, hi) := leaf_of nc n v in
  lo <= v <= hi /\ hi < n /\ ((Z.of_nat n <= nc)%Z -> lo = 0 /\ hi = n - 1) /\ forall w, lo <= w <= hi -> leaf_of nc n w = (lo, hi).
Proof.
  intros nc n v Hn Hv. pose proof (leaf_of_ok nc n v Hn Hv) as [F1 F2]. destruct (leaf_of nc n v) as [lo hi] eqn:E. cbn [fst snd] in *. split; auto. split; auto.
  unfold leaf_of in *. destruct (Z.ltb_spec (Z.of_nat (n - 1)) nc).
  - inversion E; subst. auto.
  - split; [intros; exfalso; lia|]. intros w Hw. set (m := (n - 1) / 2) in *. clearbody m. destruct (Nat.leb_spec v m); injection E as <- <-; destruct (Nat.leb_spec w m); try reflexivity; exfalso; lia.
Qed.
Print Assumptions C77_leaves.

(** A share lies between 0 and the kernel value; the shares of a leaf add up to (m-1)/m of the kernel values of its m points. *)
Theorem C77_shares :
  forall (a : R) (data : list (list R)) (lo hi u : nat), lo <= hi ->
  (forall v, 0 <= share a data lo hi u v <= kernel a data u v)%R /\
  lsum (share a data lo hi u) (seq lo (hi + 1 - lo)) = (INR (hi - lo) / INR (hi + 1 - lo) * lsum (kernel a data u) (seq lo (hi + 1 - lo)))%R.
Proof.
  intros a data lo hi u L. split.
  - intros v. rewrite share_kept by auto. apply kept_range.
  - rewrite (lsum_ext _ (kept a data lo hi (nth u data []))) by (intros; now apply share_kept). rewrite kept_sum by auto. symmetry. now apply cut_tw.
Qed.
Print Assumptions C77_shares.

(** Before the cut-off the share is the kernel value; after it, nothing. *)
Theorem C77_share_full :
  forall (a : R) (data : list (list R)) (lo hi u v : nat), lo <= v <= hi ->
  (INR (hi + 1 - lo) * lsum (kernel a data u) (seq lo (v + 1 - lo)) <= INR (hi - lo) * lsum (kernel a data u) (seq lo (hi + 1 - lo)))%R ->
  share a data lo hi u v = kernel a data u v.
Proof.
  intros a data lo hi u v L H. rewrite share_kept by lia. apply kept_all; auto. rewrite <- cut_tw by lia. change (cum a data lo (nth u data []) (v + 1)) with (lsum (kernel a data u) (seq lo (v + 1 - lo))).
  assert (0 < INR (hi + 1 - lo))%R by (apply lt_0_INR; lia). apply (Rmult_le_reg_l (INR (hi + 1 - lo))); auto.
  replace (INR (hi + 1 - lo) * (INR (hi - lo) / INR (hi + 1 - lo) * lsum (kernel a data u) (seq lo (hi + 1 - lo))))%R with (INR (hi - lo) * lsum (kernel a data u) (seq lo (hi + 1 - lo)))%R by (field; lra). exact H.
Qed.
Print Assumptions C77_share_full.

(** So every expected weight is at most 4/5 of the kernel of the two points, and it is exactly that when neither is cut off for the other. *)
Theorem C77_at_most :
  forall (a : R) (data : list (list R)) (lu hu lv hv u v : nat), lu <= hu -> lv <= hv ->
  (2 / 5 * (share a data lv hv u v + share a data lu hu v u) <= 4 / 5 * kernel a data u v)%R.
Proof.
  intros a data lu hu lv hv u v L1 L2. pose proof (proj2 (proj1 (C77_shares a data lv hv u L2) v)). pose proof (proj2 (proj1 (C77_shares a data lu hu v L1) u)) as H1.
  assert (kernel a data v u = kernel a data u v) as E by (unfold kernel; now rewrite Props_Sim.dist2_sym). rewrite E in H1. lra.
Qed.
Print Assumptions C77_at_most.

(** ** Larger data sets *)
(** For any tree the constructor builds, any node cutoff nc >= 2 and any number of samples: the expected number of times v is drawn is the number of samples times [prob], provided
    that no inner node has estimate 0 for the query point (C54: that case is undefined). *)
Theorem C77_tree_sampling :
  forall (T : nat) (a : R) (data : list (list R)) (dc nc depth : Z) (lo hi : nat) (t : ktree) (q : list R) (num v : nat),
  1 <= T -> (0 < a)%R -> (2 <= nc)%Z -> build T a data dc nc depth lo hi t -> lo <= hi < length data -> no_zero a data t q ->
  Etree a data t q num (fun s => INR (count_occ Nat.eq_dec s v)) = (INR num * prob a data t q v)%R.
Proof.
  intros T a data dc nc depth lo hi t q num v HT Ha Hnc B L Nz. rewrite (tree_expect T a data dc nc HT Ha Hnc depth lo hi t q v v 1 0 B L Nz num 0); [lra|].
  intros s _ _. unfold occurrences. lra.
Qed.
Print Assumptions C77_tree_sampling.

(** The expectation is an average over answers that the sampling code can give ([tree_samples]: any uniform numbers, any binomial numbers in range). *)
Theorem C77_support :
  forall (T : nat) (a : R) (data : list (list R)) (dc nc : Z) (unif : R -> Prop) (H : list entry) (i : nat) (depth : Z) (lo hi : nat) (t : ktree) (num : nat) (f g : list nat -> R),
  1 <= T -> (0 < a)%R -> (2 <= nc)%Z -> (forall x, (0 < x < 1)%R -> unif x) -> (forall t i v, In (t, i, v) H -> tree_weight a data t (nth i data []) = Ok v) ->
  build T a data dc nc depth lo hi t -> lo <= hi < length data -> no_zero a data t (nth i data []) ->
  (forall s, tree_samples unif a data H t i num (Ok s) -> f s = g s) ->
  Etree a data t (nth i data []) num f = Etree a data t (nth i data []) num g.
Proof. intros T a data dc nc unif H i depth lo hi t num f g HT Ha Hnc Hu HH B L Nz. now apply (tree_support T a data dc nc HT Ha Hnc unif H i Hu HH depth lo hi t B L Nz). Qed.
Print Assumptions C77_support.

(** ** Refutations *)
(** Sampling is not proportional to the kernel: the last point of a leaf is never drawn by a point whose kernel to it is at most the average over the leaf. *)
Theorem C77_last_point_never_sampled_refuted :
  forall (a : R) (data : list (list R)) (lo hi u : nat), lo <= hi ->
  (INR (hi + 1 - lo) * kernel a data u hi <= lsum (kernel a data u) (seq lo (hi + 1 - lo)))%R -> share a data lo hi u hi = 0%R.
Proof.
  intros a data lo hi u L H. rewrite share_kept by auto. apply kept_none. rewrite <- cut_tw by auto. change (cum a data lo (nth u data []) hi) with (lsum (kernel a data u) (seq lo (hi - lo))).
  assert (lsum (kernel a data u) (seq lo (hi + 1 - lo)) = lsum (kernel a data u) (seq lo (hi - lo)) + kernel a data u hi)%R as E.
  { replace (hi + 1 - lo) with (hi - lo + 1) by lia. rewrite seq_app, lsum_app. cbn [seq lsum]. replace (lo + (hi - lo)) with hi by lia. lra. }
  rewrite E in *. set (x := lsum (kernel a data u) (seq lo (hi - lo))) in *. set (k := kernel a data u hi) in *. clearbody x k.
  assert (0 < INR (hi + 1 - lo))%R by (apply lt_0_INR; lia). apply (Rmult_le_reg_l (INR (hi + 1 - lo))); auto.
  replace (INR (hi + 1 - lo) * (INR (hi - lo) / INR (hi + 1 - lo) * (x + k)))%R with (INR (hi - lo) * (x + k))%R by (field; lra).
  replace (hi + 1 - lo) with (S (hi - lo)) in * by lia. rewrite S_INR in *. lra.
Qed.
Print Assumptions C77_last_point_never_sampled_refuted.

(** n equal points, 3 <= n <= nc: all kernel values are 1, yet the expected weight of the edges to the last point is half of that of the others, and the last point alone has no
    self-loop. *)
Lemma lsum_one {A} (f : A -> R) l : (forall x, In x l -> f x = 1%R) -> lsum f l = INR (length l).
Proof. induction l as [|x l IH]; intros H; [reflexivity|]. cbn [lsum length]. rewrite S_INR, H, IH; [lra|intros; apply H; now right|apply in_eq]. Qed.
Lemma nth_repeat_lt {A} (x d : A) n i : i < n -> nth i (repeat x n) d = x.
Proof. revert i. induction n as [|n IH]; intros [|i] H; cbn [repeat nth]; auto; try lia. apply IH. lia. Qed.
Theorem C77_equal_points_refuted :
  forall (a : R) (p : list R) (n u v : nat), 3 <= n -> u < n -> v < n ->
  kernel a (repeat p n) u v = 1%R /\ share a (repeat p n) 0 (n - 1) u v = if v =? n - 1 then 0%R else 1%R.
Proof.
  intros a p n u v Hn Hu Hv. set (data := repeat p n).
  assert (forall w, w < n -> kernel a data u w = 1%R) as K by (intros w Hw; unfold kernel, data; rewrite !nth_repeat_lt by auto; rewrite dist2_refl, Rmult_0_r; apply exp_0).
  assert (forall m, m <= n -> lsum (kernel a data u) (seq 0 m) = INR m) as S by (intros m Hm; rewrite lsum_one; [now rewrite seq_length|intros w I; apply in_seq in I; apply K; lia]).
  split; [now apply K|]. destruct (Nat.eqb_spec v (n - 1)) as [->|N].
  - apply C77_last_point_never_sampled_refuted; [lia|]. rewrite K, S by lia. rewrite Nat.sub_0_r. lra.
  - rewrite C77_share_full; [now apply K|lia|]. rewrite !Nat.sub_0_r, !S by lia. replace (n - 1 + 1) with n by lia. rewrite (Rmult_comm (INR n)). apply Rmult_le_compat_r; [apply pos_INR|apply le_INR; lia].
Qed.
Print Assumptions C77_equal_points_refuted.

(** ** The hypotheses are met *)
Definition pt (x : R) : list R := x :: nil.
Definition exPts : list (list R) := map pt (0 :: 1 :: 2 :: 3 :: nil)%R.
Definition exSame : list (list R) := repeat (pt 0%R) 3.
Example C77_hypotheses_met : exists r, asg (fun x => (0 <= x < 1)%R) (fun _ _ _ s => s) 2 1%R exPts 2 r /\ 2 <= length exPts /\ (Z.of_nat (length exPts) <= 2 * 2)%Z.
Proof. destruct (Props_Sim.C54_completes (fun x => (0 <= x < 1)%R) (fun _ _ _ s => s) 2 1%R exPts 2 0%R) as [r H]; [lia|lia|simpl; lia|lra|]. exists r. split; auto. simpl. lia. Qed.
(** Three equal points, one leaf: 4/5 between the first two, 2/5 to the last. *)
Example C77_three_points : forall r, asg (fun x => (0 <= x < 1)%R) (fun _ _ _ s => s) 2 1%R exSame 5000 r ->
  exists t g degrees, r = Ok g /\ let E u v := Eall 1%R exSame t (seq 0 3) (fun smp => asg_weight degrees smp u v) in E 0 1 = (4 / 5)%R /\ E 0 2 = (2 / 5)%R /\ E 2 2 = 0%R.
Proof.
  intros r A. destruct (C77_expected_weight_partial (fun x => (0 <= x < 1)%R) (fun _ _ _ s => s) 2 1%R exSame 5000 r ltac:(auto) ltac:(auto) ltac:(lia) ltac:(lra) ltac:(lia) ltac:(simpl; lia) ltac:(simpl length; lia) A) as (t & g & degrees & samples & E & _ & H).
  exists t, g, degrees. split; auto. change (length exSame) with 3 in H.
  pose proof (fun u v => C77_equal_points_refuted 1%R (pt 0%R) 3 u v ltac:(lia)) as Q. change (repeat (pt 0%R) 3) with exSame in Q. change (3 - 1) with 2 in Q.
  cbv zeta. split; [|split].
  - specialize (H 0 1 ltac:(lia) ltac:(lia)). change (leaf_of 5000 3 0) with (0, 2) in H. change (leaf_of 5000 3 1) with (0, 2) in H. cbv iota in H. rewrite H. rewrite (proj2 (Q 0 1 ltac:(lia) ltac:(lia))), (proj2 (Q 1 0 ltac:(lia) ltac:(lia))). cbn [Nat.eqb]. lra.
  - specialize (H 0 2 ltac:(lia) ltac:(lia)). change (leaf_of 5000 3 0) with (0, 2) in H. change (leaf_of 5000 3 2) with (0, 2) in H. cbv iota in H. rewrite H. rewrite (proj2 (Q 0 2 ltac:(lia) ltac:(lia))), (proj2 (Q 2 0 ltac:(lia) ltac:(lia))). cbn [Nat.eqb]. lra.
  - specialize (H 2 2 ltac:(lia) ltac:(lia)). change (leaf_of 5000 3 2) with (0, 2) in H. change (leaf_of 5000 3 2) with (0, 2) in H. cbv iota in H. rewrite H. rewrite (proj2 (Q 2 2 ltac:(lia) ltac:(lia))). cbn [Nat.eqb]. lra.
Qed.
