(** Theorems C95: the law of the samples of approximate_similarity_graph and the concentration of the cuts of its graph (stag_lib/cluster.cpp:626-905). The draws of the code are
    [Eall] of SimExpect.v, as in C77. *)
From Verif Require Import Base Num RSum Sparse SparseFacts Graph GraphSpec GraphFacts GraphProps4 Cluster ClusterCC ClusterSpec ClusterSweep ClusterPR ClusterPR2 ThreadPool ThreadPoolFacts ThreadPoolTop Kde KdeFacts KdeFacts2 KdeFacts3 KdeFacts4 Props_Kde SimGraph SimGraphFacts SimGraphFacts2 SimGraphFacts3 SimGraphFacts4 SimGraphTop Props_Sim LshOffset SimExpect Props_SimExpect AsgLaw AsgConc AsgCut.
From Coq Require Import ZArith Permutation Reals Lra Lia List.
From Coquelicot Require Import Coquelicot.
Import ListNotations.
Local Open Scope nat_scope.

(** The weight of the cut between the vertices in A and the others. *)
Definition cut_weight (n : nat) (w : nat -> nat -> R) (A : nat -> bool) : R := rsum n (fun u => rsum n (fun v => if A u && negb (A v) then w u v else 0%R)).

(** ** The law of the samples *)
(** For any tree that the constructor builds, any number of samples and any query for which no inner node has estimate 0: the samples are independent draws, v with probability
    [prob] (a distribution), up to their order. *)
Theorem C95_tree_law :
  forall (T : nat) (a : R) (data : list (list R)) (dc nc depth : Z) (lo hi : nat) (t : ktree) (q : list R) (num : nat) (f : list nat -> R),
  1 <= T -> (0 < a)%R -> (2 <= nc)%Z -> build T a data dc nc depth lo hi t -> lo <= hi < length data -> no_zero a data t q -> symmetric f ->
  (forall v, (0 <= prob a data t q v)%R) /\ rsum (length data) (prob a data t q) = 1%R /\
  Etree a data t q num f = Eiid (length data) (prob a data t q) num f.
Proof.
  intros T a data dc nc depth lo hi t q num f HT Ha Hnc B L Nz Sf. split; [|split].
  - intros v. now apply (prob_nonneg T a data dc nc HT Ha Hnc depth lo hi).
  - now apply (prob_one T a data dc nc HT Ha Hnc depth lo hi).
  - now apply (tree_law T a data dc nc HT Ha Hnc depth lo hi).
Qed.
Print Assumptions C95_tree_law.

(** Up to twice the node cutoff: the call returns a graph made of degrees and of two samples per vertex; the degree of u is the sum of its shares, and every vertex u draws two
    vertices independently, v with probability share(u,v) / degree(u). *)
Theorem C95_law :
  forall (unif : R -> Prop) (ord : nat -> nat -> nat -> list nat -> list nat) (T : nat) (a : R) (data : list (list R)) (nc : Z) (r : outcome (graph R)),
  (forall x, unif x -> (0 <= x < 1)%R) -> (forall c i l set, Permutation (ord c i l set) set) -> 1 <= T -> (0 < a)%R -> (2 <= nc)%Z ->
  2 <= length data -> (Z.of_nat (length data) <= 2 * nc)%Z -> asg unif ord T a data nc r ->
  exists t g degrees samples, r = Ok g /\
    (forall u, u < length data -> length (samples u) = 2 /\ forall k, In k (samples u) -> k < length data) /\
    (forall u v, u < length data -> v < length data -> weight g u v = above_eps (asg_weight degrees samples u v)) /\
    (forall u, u < length data -> nth u degrees 0%R = all_shares a data nc u /\ (0 < nth u degrees 0)%R) /\
    forall F, order_free (seq 0 (length data)) F ->
      Eall a data t (seq 0 (length data)) F = Eprod (length data) (fun u v => shares a data nc u v / all_shares a data nc u)%R 2 (seq 0 (length data)) F.
Proof.
  intros unif ord T a data nc r Hu Hord HT Ha Hnc Hn Hs A.
  destruct (asg_small unif ord T a data nc Hu Hord HT Ha Hnc Hn r Hs A) as (t & g & B & E & degrees & samples & Ed & _ & Sm & _ & _ & _ & Ew).
  exists t, g, degrees, samples. split; auto. split; [|split; [|split]].
  - intros u Hv. destruct (Sm u Hv) as (L & K & _). auto.
  - intros u v Lu Lv. rewrite Ew. apply Nat.ltb_lt in Lu, Lv. now rewrite Lu, Lv.
  - intros u Hv. split; [now apply (degree_shares T a data nc HT Ha Hnc Hn Hs t B)|now apply (degree_pos T a data nc HT Ha Hnc Hn Hs t B)].
  - intros F HF. now apply (law T a data nc HT Ha Hnc Hn Hs t B degrees Ed).
Qed.
Print Assumptions C95_law.

(** ** Concentration *)
(** For every vector x and every M > 0 that bounds the contribution of a sample, (sum of the kernel values of u) / 5 * (x_u - x_v)^2: the energy of x in the graph returned is, with
    probability at least 1 - exp(-eps^2 mu / (3M)), below (1+eps) mu, and, with probability at least 1 - exp(-eps^2 mu / (2M)), above (1-eps) mu less the effect of the cut at 1e-10;
    mu is the energy of x for the expected weights. *)
Theorem C95_energy :
  forall (unif : R -> Prop) (ord : nat -> nat -> nat -> list nat -> list nat) (T : nat) (a : R) (data : list (list R)) (nc : Z) (r : outcome (graph R)),
  (forall x, unif x -> (0 <= x < 1)%R) -> (forall c i l set, Permutation (ord c i l set) set) -> 1 <= T -> (0 < a)%R -> (2 <= nc)%Z ->
  2 <= length data -> (Z.of_nat (length data) <= 2 * nc)%Z -> asg unif ord T a data nc r ->
  let n := length data in
  exists t g degrees samples, r = Ok g /\
    (forall u v, u < n -> v < n -> weight g u v = above_eps (asg_weight degrees samples u v)) /\
    forall (x : nat -> R) (M D eps : R), (0 < M)%R -> (0 <= eps <= 1)%R ->
      (forall u v, u < n -> v < n -> (rsum n (kernel a data u) / 5 * (x u - x v) ^ 2 <= M)%R) -> (forall u v, u < n -> v < n -> ((x u - x v) ^ 2 <= D)%R) ->
      let mu := energy n (fun u v => 2 / 5 * (shares a data nc u v + shares a data nc v u))%R x in
      let graph_energy smp := energy n (fun u v => above_eps (asg_weight degrees smp u v)) x in
      (Eall a data t (seq 0 n) (fun smp => if Rle_dec ((1 + eps) * mu) (graph_energy smp) then 1 else 0) <= exp (- (eps ^ 2 * mu / (3 * M))))%R /\
      (Eall a data t (seq 0 n) (fun smp => if Rle_dec (graph_energy smp) ((1 - eps) * mu - 2 * INR n / 10 ^ 10 * D) then 1 else 0) <= exp (- (eps ^ 2 * mu / (2 * M))))%R.
Proof.
  intros unif ord T a data nc r Hu Hord HT Ha Hnc Hn Hs A n.
  destruct (asg_small unif ord T a data nc Hu Hord HT Ha Hnc Hn r Hs A) as (t & g & B & E & degrees & samples & Ed & _ & Sm & _ & _ & _ & Ew).
  exists t, g, degrees, samples. split; auto. split.
  - intros u v Lu Lv. rewrite Ew. apply Nat.ltb_lt in Lu, Lv. unfold n in *. now rewrite Lu, Lv.
  - intros x M D eps HM He Hx HD. cbv zeta. split.
    + now apply (upper_tail T a data nc HT Ha Hnc Hn Hs t B degrees Ed x M).
    + apply (lower_tail T a data nc HT Ha Hnc Hn Hs t B degrees Ed x M); auto. lra.
Qed.
Print Assumptions C95_energy.

Lemma Eall_ext a data t is : forall F G, (forall smp, F smp = G smp) -> Eall a data t is F = Eall a data t is G.
Proof. induction is as [|i is IH]; intros F G E; cbn [Eall]; [apply E|]. apply Etree_ext. intros s. apply IH. intros. apply E. Qed.
Definition ind (A : nat -> bool) (u : nat) : R := if A u then 1%R else 0%R.
Lemma energy_ind n w A : (forall u v, u < n -> v < n -> w u v = w v u) -> energy n w (ind A) = cut_weight n w A.
Proof.
  intros Sw. unfold energy, cut_weight. set (c := fun u v => if A u && negb (A v) then w u v else 0%R).
  assert (rsum n (fun u => rsum n (fun v => w u v * (ind A u - ind A v) ^ 2)) = rsum n (fun u => rsum n (c u)) + rsum n (fun u => rsum n (fun v => c v u)))%R as ->.
  { rewrite <- rsum_plus. apply rsum_ext. intros u Hu. rewrite <- rsum_plus. apply rsum_ext. intros v Hv. unfold c, ind. rewrite (Sw v u) by auto. destruct (A u), (A v); cbn [andb negb]; ring. }
  assert (rsum n (fun u => rsum n (fun v => c v u)) = rsum n (fun u => rsum n (c u))) as -> by (rewrite (rsum_swap n n (fun u v => c v u)); reflexivity).
  change (rsum n (fun u => rsum n (fun v => if A u && negb (A v) then w u v else 0%R))) with (rsum n (fun u => rsum n (c u))). field.
Qed.
(** Cuts: if the kernel values of every point add up to at most d, the cut of every set A of vertices in the graph returned exceeds (1+eps) mu with probability at most
    exp(-5 eps^2 mu / (3d)) and is below (1-eps) mu - 2n/10^10 with probability at most exp(-5 eps^2 mu / (2d)), mu its expected value. *)
Theorem C95_cuts :
  forall (unif : R -> Prop) (ord : nat -> nat -> nat -> list nat -> list nat) (T : nat) (a : R) (data : list (list R)) (nc : Z) (r : outcome (graph R)),
  (forall x, unif x -> (0 <= x < 1)%R) -> (forall c i l set, Permutation (ord c i l set) set) -> 1 <= T -> (0 < a)%R -> (2 <= nc)%Z ->
  2 <= length data -> (Z.of_nat (length data) <= 2 * nc)%Z -> asg unif ord T a data nc r ->
  let n := length data in
  exists t g degrees samples, r = Ok g /\
    (forall u v, u < n -> v < n -> weight g u v = above_eps (asg_weight degrees samples u v)) /\
    forall (A : nat -> bool) (d eps : R), (forall u, u < n -> (rsum n (kernel a data u) <= d)%R) -> (0 <= eps <= 1)%R ->
      let mu := cut_weight n (fun u v => 2 / 5 * (shares a data nc u v + shares a data nc v u))%R A in
      let graph_cut smp := cut_weight n (fun u v => above_eps (asg_weight degrees smp u v)) A in
      Eall a data t (seq 0 n) (fun smp => cut_weight n (asg_weight degrees smp) A) = mu /\
      (Eall a data t (seq 0 n) (fun smp => if Rle_dec ((1 + eps) * mu) (graph_cut smp) then 1 else 0) <= exp (- (5 * eps ^ 2 * mu / (3 * d))))%R /\
      (Eall a data t (seq 0 n) (fun smp => if Rle_dec (graph_cut smp) ((1 - eps) * mu - 2 * INR n / 10 ^ 10) then 1 else 0) <= exp (- (5 * eps ^ 2 * mu / (2 * d))))%R.
Proof.
  intros unif ord T a data nc r Hu Hord HT Ha Hnc Hn Hs As n.
  destruct (asg_small unif ord T a data nc Hu Hord HT Ha Hnc Hn r Hs As) as (t & g & B & E & degrees & samples & Ed & _ & Sm & _ & _ & _ & Ew).
  exists t, g, degrees, samples. split; auto. split.
  { intros u v Lu Lv. rewrite Ew. apply Nat.ltb_lt in Lu, Lv. unfold n in *. now rewrite Lu, Lv. }
  intros A d eps Hd He. cbv zeta.
  assert (forall smp u v, asg_weight degrees smp u v = asg_weight degrees smp v u) as Sw by (intros; unfold asg_weight; ring).
  assert (forall smp, cut_weight n (fun u v => above_eps (asg_weight degrees smp u v)) A = energy n (fun u v => above_eps (asg_weight degrees smp u v)) (ind A)) as E1
    by (intros; symmetry; apply energy_ind; intros; now rewrite Sw).
  assert (forall smp, cut_weight n (asg_weight degrees smp) A = energy n (asg_weight degrees smp) (ind A)) as E2 by (intros; symmetry; now apply energy_ind).
  assert (cut_weight n (fun u v => 2 / 5 * (shares a data nc u v + shares a data nc v u))%R A = energy n (mean_weight a data nc) (ind A)) as ->
    by (symmetry; apply energy_ind; intros; unfold mean_weight; ring).
  assert (forall u v, ((ind A u - ind A v) ^ 2 <= 1)%R) as I1 by (intros u v; unfold ind; destruct (A u), (A v); lra).
  assert (0 < d)%R as Hd0.
  { apply Rlt_le_trans with (2 := Hd 0%nat ltac:(lia)). apply Rlt_le_trans with (kernel a data 0 0); [apply exp_pos|].
    apply (rsum_ge_elt n (kernel a data 0) 0); [intros; left; apply exp_pos|lia]. }
  assert (forall u v, u < n -> v < n -> (rsum n (kernel a data u) / 5 * (ind A u - ind A v) ^ 2 <= d / 5)%R) as Hx.
  { intros u v Hu' Hv. specialize (Hd u Hu'). specialize (I1 u v). pose proof (sq_nonneg (ind A u - ind A v)).
    apply Rle_trans with (d / 5 * (ind A u - ind A v) ^ 2)%R; [apply Rmult_le_compat_r; lra|]. rewrite <- (Rmult_1_r (d / 5)) at 2. apply Rmult_le_compat_l; lra. }
  split; [|split].
  - erewrite Eall_ext; [apply (energy_mean T a data nc HT Ha Hnc Hn Hs t B degrees Ed (ind A))|exact E2].
  - erewrite Eall_ext; [|intros smp; rewrite E1; reflexivity].
    eapply Rle_trans; [apply (upper_tail T a data nc HT Ha Hnc Hn Hs t B degrees Ed (ind A) (d / 5)); auto; lra|]. apply Req_le. f_equal. f_equal. unfold n. field. lra.
  - erewrite Eall_ext; [|intros smp; rewrite E1; reflexivity].
    eapply Rle_trans; [|apply Req_le, (f_equal exp (y := (- (5 * eps ^ 2 * energy n (mean_weight a data nc) (ind A) / (2 * d)))%R) (x := (- (eps ^ 2 * energy n (mean_weight a data nc) (ind A) / (2 * (d / 5))))%R)); field; lra].
    rewrite <- (Rmult_1_r (2 * INR n / 10 ^ 10)). apply (lower_tail T a data nc HT Ha Hnc Hn Hs t B degrees Ed (ind A) (d / 5)); auto; lra.
Qed.
Print Assumptions C95_cuts.

(** ** The hypotheses are met *)
(** Three equal points, default cutoff: a run exists, and the cut of vertex 0, whose expected weight is 6/5, reaches twice this with probability at most exp(-2/3). *)
Lemma same_shares u v : u < 3 -> v < 3 -> shares 1 exSame 5000 u v = if v =? 2 then 0%R else 1%R.
Proof.
  intros Hu Hv. unfold shares. change (length exSame) with 3. change (leaf_of 5000 3 v) with (0, 2). cbv iota.
  exact (proj2 (C77_equal_points_refuted 1%R (pt 0%R) 3 u v ltac:(lia) Hu Hv)).
Qed.
Lemma same_kernel u v : u < 3 -> v < 3 -> kernel 1 exSame u v = 1%R.
Proof. intros Hu Hv. exact (proj1 (C77_equal_points_refuted 1%R (pt 0%R) 3 u v ltac:(lia) Hu Hv)). Qed.
Example C95_hypotheses_met : exists r, asg (fun x => (0 <= x < 1)%R) (fun _ _ _ s => s) 2 1%R exSame 5000 r /\
  exists t g degrees, r = Ok g /\ (forall u, u < 3 -> (rsum 3 (kernel 1 exSame u) <= 3)%R) /\
    cut_weight 3 (fun u v => 2 / 5 * (shares 1 exSame 5000 u v + shares 1 exSame 5000 v u))%R (fun u => u =? 0) = (6 / 5)%R /\
    (Eall 1%R exSame t (seq 0 3) (fun smp => if Rle_dec (12 / 5) (cut_weight 3 (fun u v => above_eps (asg_weight degrees smp u v)) (fun u => u =? 0)) then 1 else 0) <= exp (- (2 / 3)))%R.
Proof.
  destruct (Props_Sim.C54_completes (fun x => (0 <= x < 1)%R) (fun _ _ _ s => s) 2 1%R exSame 5000 0%R) as [r A]; [lia|lia|simpl; lia|lra|]. exists r. split; [exact A|].
  destruct (C95_cuts (fun x => (0 <= x < 1)%R) (fun _ _ _ s => s) 2 1%R exSame 5000 r ltac:(auto) ltac:(auto) ltac:(lia) ltac:(lra) ltac:(lia) ltac:(simpl; lia) ltac:(simpl length; lia) A) as (t & g & degrees & samples & E & _ & H).
  exists t, g, degrees. split; [exact E|]. change (length exSame) with 3 in H.
  assert (forall u, u < 3 -> (rsum 3 (kernel 1 exSame u) <= 3)%R) as K by (intros u Hu; unfold rsum; cbn [seq lsum]; rewrite !same_kernel by lia; lra).
  assert (cut_weight 3 (fun u v => 2 / 5 * (shares 1 exSame 5000 u v + shares 1 exSame 5000 v u))%R (fun u => u =? 0) = (6 / 5)%R) as C.
  { unfold cut_weight, rsum. cbn [seq lsum Nat.eqb andb negb]. rewrite !same_shares by lia. cbn [Nat.eqb]. lra. }
  split; [exact K|]. split; [exact C|]. destruct (H (fun u => u =? 0) 3%R 1%R K ltac:(lra)) as (_ & U & _). rewrite C in U.
  replace ((1 + 1) * (6 / 5))%R with (12 / 5)%R in U by lra. eapply Rle_trans; [exact U|]. apply Req_le. f_equal. field.
Qed.
