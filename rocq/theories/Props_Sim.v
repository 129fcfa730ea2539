(** Theorems C53-C54: similarity graphs (stag_lib/cluster.cpp:626-1005). *)
From Verif Require Import Base Num RSum Sparse SparseFacts Graph GraphSpec GraphFacts GraphProps4 Cluster ClusterSweep ThreadPool ThreadPoolFacts ThreadPoolTop Kde KdeFacts KdeFacts3 KdeFacts4 SimGraph SimGraphFacts SimGraphFacts2 SimGraphFacts3 SimGraphFacts4 SimGraphTop.
From Coq Require Import ZArith Permutation Reals Lra.
Local Open Scope nat_scope.

(** ** C53 *)
(** In any arithmetic in which exp never returns a negative number (true of doubles): for every number T >= 1 of hardware threads and every schedule the result is
    a graph on the data points, the weight of i-j being the kernel of the two points if it is above EPSILON and 0 otherwise. *)
Theorem C53_graph :
  forall (W : Type) (HN : Num W) (HP : PosNum W) (HK : KNum W) (T : nat) (a : W) (data : list (list W)) (r : outcome (graph W)),
  1 <= T -> (forall c : W, wltb (wexp c) w0 = false) -> similarity_graph T a data r ->
  exists g, r = Ok g /\ number_of_vertices g = length data /\ weights_above_eps g /\ reachable g /\
    forall i j, weight g i j = if (i <? length data) && (j <? length data)
      then above_eps (gaussian_kernel a (nth (Nat.min i j) data []) (nth (Nat.max i j) data [])) else w0.
Proof. intros W HN HP HK. exact similarity_spec. Qed.
Print Assumptions C53_graph.

Theorem C53_completes :
  forall (W : Type) (HN : Num W) (HP : PosNum W) (HK : KNum W) (T : nat) (a : W) (data : list (list W)),
  1 <= T -> exists r, similarity_graph T a data r.
Proof. intros W HN HP HK. exact similarity_exists. Qed.
Print Assumptions C53_completes.

(** Independence of the number of threads. *)
Theorem C53_thread_count :
  forall (W : Type) (HN : Num W) (HP : PosNum W) (HK : KNum W) (T T' : nat) (a : W) (data : list (list W)) (r r' : outcome (graph W)),
  1 <= T -> 1 <= T' -> similarity_graph T a data r -> similarity_graph T' a data r' -> r = r'.
Proof. intros W HN HP HK T T' a data r r' HT HT' S S'. rewrite (similarity_unique T a data r HT S), (similarity_unique T' a data r' HT' S'). reflexivity. Qed.
Print Assumptions C53_thread_count.

Lemma dist2_sym u v : dist2 u v = dist2 v u.
Proof. unfold dist2. rewrite Nat.min_comm. apply rsum_ext. intros i _. ring. Qed.

(** Over the reals. *)
Theorem C53_graph_reals :
  forall (T : nat) (a : R) (data : list (list R)) (r : outcome (graph R)),
  1 <= T -> similarity_graph T a data r ->
  exists g, r = Ok g /\ number_of_vertices g = length data /\
    forall i j, i < length data -> j < length data ->
      let k := exp (- a * dist2 (nth i data []) (nth j data [])) in
      weight g i j = if Rlt_dec (/ 10000000000) k then k else 0%R.
Proof.
  intros T a data r HT S. destruct (similarity_spec T a data r HT) as (g & E & En & _ & _ & Ew); auto.
  { intros c. cbn [wltb wexp w0 NumR KNumR]. apply not_true_iff_false. rewrite R_ltb_true. pose proof (exp_pos c). lra. }
  exists g. split; auto. split; auto. intros i j Hi Hj k. rewrite Ew. apply Nat.ltb_lt in Hi, Hj. unfold point in *. rewrite Hi, Hj. cbn [andb]. unfold sim_weight, above_eps. rewrite !gaussian_kernel_R. unfold point in *.
  assert (gauss a (nth (Nat.min i j) data []) (nth (Nat.max i j) data []) = k) as ->.
  { unfold k, gauss. destruct (Nat.le_ge_cases i j); [rewrite Nat.min_l, Nat.max_r by lia; reflexivity|]. rewrite Nat.min_r, Nat.max_l by lia. now rewrite dist2_sym. }
  cbn [wltb weps NumR]. unfold R_ltb. destruct (Rlt_dec _ _); reflexivity.
Qed.
Print Assumptions C53_graph_reals.

(** "the similarity graph of the data is a complete graph [...] such that the weight between vertex i and j is k(x_i, x_j)" (cluster.h:385-386): every vertex also gets a
    self-loop of weight 1, ... *)
Theorem C53_self_loops_refuted :
  forall (T : nat) (a : R) (data : list (list R)) (r : outcome (graph R)) (i : nat),
  1 <= T -> similarity_graph T a data r -> i < length data -> exists g, r = Ok g /\ weight g i i = 1%R.
Proof.
  intros T a data r i HT S Hi. destruct (C53_graph_reals T a data r HT S) as (g & E & _ & Ew). exists g. split; auto. rewrite Ew by auto. rewrite dist2_refl, Rmult_0_r, exp_0.
  destruct (Rlt_dec _ _) as [|N]; auto. exfalso. apply N. lra.
Qed.
Print Assumptions C53_self_loops_refuted.

(** ... and pairs of points at a distance with a * d^2 >= 10 ln 10 are not connected. *)
Theorem C53_missing_edges_refuted :
  forall (T : nat) (a : R) (data : list (list R)) (r : outcome (graph R)) (i j : nat),
  1 <= T -> similarity_graph T a data r -> i < length data -> j < length data ->
  (ln 10000000000 <= a * dist2 (nth i data []) (nth j data []))%R -> exists g, r = Ok g /\ weight g i j = 0%R.
Proof.
  intros T a data r i j HT S Hi Hj Hd. destruct (C53_graph_reals T a data r HT S) as (g & E & _ & Ew). exists g. split; auto. rewrite Ew by auto. cbv zeta.
  destruct (Rlt_dec _ _) as [L|]; auto. exfalso. apply (Rlt_not_le _ _ L). rewrite <- (exp_ln 10000000000) by lra. rewrite <- exp_Ropp.
  destruct (Rle_lt_or_eq_dec _ _ Hd) as [Lt|Eq]; [left; apply exp_increasing; lra|right; f_equal; lra].
Qed.
Print Assumptions C53_missing_edges_refuted.

(** hardware_concurrency() = 0: undefined for every non-empty data set. *)
Theorem C53_no_hardware_threads_refuted :
  forall (W : Type) (HN : Num W) (HK : KNum W) (a : W) (x : list W) (data : list (list W)) (r : outcome (graph W)),
  similarity_graph 0 a (x :: data) r -> r = UB.
Proof. intros W HN HK a x data r S. exact S. Qed.
Print Assumptions C53_no_hardware_threads_refuted.

Example C53_hypotheses_met : exists r, similarity_graph 2 1%R [[0]; [1]; [2]; [3]; [4]; [5]; [6]]%R r /\ (forall c : R, wltb (wexp c) w0 = false).
Proof.
  destruct (C53_completes R _ _ _ 2 1%R [[0]; [1]; [2]; [3]; [4]; [5]; [6]]%R ltac:(lia)) as [r H]. exists r. split; auto.
  intros c. cbn [wltb wexp w0 NumR KNumR]. apply not_true_iff_false. rewrite R_ltb_true. pose proof (exp_pos c). lra.
Qed.

(** ** C54 *)
(** The parallel loop of sample_asg_edges, any arithmetic: for every number T >= 1 of workers and every interleaving of their writes to the shared array, the array at
    the end holds, for the j-th sample of vertex i, the edge in both directions, in its own two slots; no slot is left over. *)
Theorem C54_slots :
  forall (W : Type) (HN : Num W) (epn : nat) (w5 : W) (degrees : list W) (samples : nat -> list nat) (n T : nat) (z : triplet W) (s : st),
  1 <= T ->
  reach (fun c => map write (chunk_writes epn w5 degrees samples (chunk_rows n T (n / T) c) (chunk_start (n / T) c))) T true (par_prog T) (repeat z (2 * (n * epn))) s ->
  m s = MEnd ->
  length (sh s) = 2 * (n * epn) /\
  forall i j, i < n -> j < epn ->
    nth_error (sh s) (2 * (i * epn + j)) = Some (i, nth j (samples i) 0, wdiv (nth i degrees w0) w5) /\
    nth_error (sh s) (2 * (i * epn + j) + 1) = Some (nth j (samples i) 0, i, wdiv (nth i degrees w0) w5).
Proof. intros W HN epn w5 degrees samples n T z s HT R E. rewrite (parallel_writes epn w5 degrees samples n T z s HT R E). apply flat_slots. Qed.
Print Assumptions C54_slots.

(** Every completed schedule exists. *)
Theorem C54_slots_completes :
  forall (W : Type) (HN : Num W) (epn : nat) (w5 : W) (degrees : list W) (samples : nat -> list nat) (n T : nat) (z : triplet W),
  1 <= T -> exists s,
  reach (fun c => map write (chunk_writes epn w5 degrees samples (chunk_rows n T (n / T) c) (chunk_start (n / T) c))) T true (par_prog T) (repeat z (2 * (n * epn))) s /\ m s = MEnd.
Proof. intros W HN. exact parallel_writes_exist. Qed.
Print Assumptions C54_slots_completes.

(** Over the reals, for the uniform draws in [0, 1), every outcome of the other random choices (the permutations, the hash functions, the binomial draws), every
    schedule of the threads and every history of the caches: either the call has undefined behaviour, or every vertex gets exactly two samples, which are vertices, and
    the graph is symmetric, the weight of u-v being a fifth of the estimated degree of u for each time that u sampled v, plus the same for v. *)
Theorem C54_graph_partial :
  forall (unif : R -> Prop) (ord : nat -> nat -> nat -> list nat -> list nat) (T : nat) (a : R) (data : list (list R)) (nc : Z) (r : outcome (graph R)),
  (forall x, unif x -> (0 <= x < 1)%R) -> (forall c i l set, Permutation (ord c i l set) set) -> 1 <= T -> (0 < a)%R -> (2 <= nc)%Z -> 2 <= length data ->
  asg unif ord T a data nc r ->
  r = UB \/ exists g degrees samples, r = Ok g /\ number_of_vertices g = length data /\ (forall u v, weight g u v = weight g v u) /\
    length degrees = length data /\ Forall (fun d => (0 <= d)%R) degrees /\
    (forall u, u < length data -> length (samples u) = 2 /\ forall v, In v (samples u) -> v < length data) /\
    forall u v, u < length data -> v < length data ->
      let x := (nth u degrees 0 / 5 * INR (count_occ Nat.eq_dec (samples u) v) + nth v degrees 0 / 5 * INR (count_occ Nat.eq_dec (samples v) u))%R in
      weight g u v = if Rlt_dec (/ 10000000000) x then x else 0%R.
Proof.
  intros unif ord T a data nc r Hu Hord HT Ha Hnc Hn A.
  destruct (asg_ok unif ord T a data nc Hu Hord HT Ha Hnc Hn r A) as (t & B & [(g & E & degrees & samples & Fd & Pd & Hs & En & _ & _ & Ew)|(E & _)]); [right|left; exact E].
  exists g, degrees, samples. split; auto. split; auto.
  assert (forall x : R, above_eps x = if Rlt_dec (/ 10000000000) x then x else 0%R) as Ea by (intros x; unfold above_eps; cbn [wltb weps w0 NumR]; unfold R_ltb; now destruct (Rlt_dec _ _)).
  split. { intros u v. rewrite !Ew, (andb_comm (v <? _)). unfold asg_weight. now rewrite Rplus_comm. }
  split. { apply (f_equal (@length _)) in Fd. now rewrite !map_length in Fd. }
  split; auto. split. { intros u Lu. destruct (Hs u Lu) as (L1 & L2 & _). auto. }
  intros u v Lu Lv. rewrite Ew. apply Nat.ltb_lt in Lu, Lv. rewrite Lu, Lv. cbn [andb]. rewrite Ea. reflexivity.
Qed.
Print Assumptions C54_graph_partial.

(** No undefined behaviour for up to twice as many points as the node cutoff (5000 by default, so 10000 points). *)
Theorem C54_small_data :
  forall (unif : R -> Prop) (ord : nat -> nat -> nat -> list nat -> list nat) (T : nat) (a : R) (data : list (list R)) (nc : Z) (r : outcome (graph R)),
  (forall x, unif x -> (0 <= x < 1)%R) -> (forall c i l set, Permutation (ord c i l set) set) -> 1 <= T -> (0 < a)%R -> (2 <= nc)%Z -> 2 <= length data ->
  (Z.of_nat (length data) <= 2 * nc)%Z -> asg unif ord T a data nc r -> r <> UB.
Proof. intros unif ord T a data nc r Hu Hord HT Ha Hnc Hn Hs A. destruct (asg_small unif ord T a data nc Hu Hord HT Ha Hnc Hn r Hs A) as (t & g & _ & -> & _). discriminate. Qed.
Print Assumptions C54_small_data.

(** A call can always be completed. *)
Theorem C54_completes :
  forall (unif : R -> Prop) (ord : nat -> nat -> nat -> list nat -> list nat) (T : nat) (a : R) (data : list (list R)) (nc : Z) (x0 : R),
  1 <= T -> (2 <= nc)%Z -> 2 <= length data -> unif x0 -> exists r, asg unif ord T a data nc r.
Proof. intros unif ord T a data nc x0 HT Hnc Hn U. exact (asg_exists unif ord T a data nc HT Hnc Hn x0 U). Qed.
Print Assumptions C54_completes.

(** The caches shared by the threads are transparent: whatever estimates were inserted before, in whatever order, a call of estimate_weight on a node of the tree returns the
    node's own estimate for the row. *)
Theorem C54_caches :
  forall (ord : nat -> nat -> nat -> list nat -> list nat) (T : nat) (a : R) (data : list (list R)) (dc nc depth : Z) (lo hi : nat) (root : ktree) (H : list entry) (t : ktree) (i : nat) (o : outcome R),
  1 <= T -> (2 <= nc)%Z -> (forall c i l set, Permutation (ord c i l set) set) -> lo <= hi ->
  build T a data dc nc depth lo hi root -> hist ord T a data root H -> ev a data H t i o -> o = tree_weight a data t (nth i data []).
Proof. intros ord T a data dc nc depth lo hi root H t i o HT Hnc Hord Hle B Hh. apply ev_ok. exact (hist_ok T a data dc nc ord HT Hnc Hord depth lo hi root H B Hle Hh). Qed.
Print Assumptions C54_caches.

(** The estimated degrees when there is one leaf: (n-1)/n times the sum of the kernel values. *)
Theorem C54_degrees_one_leaf :
  forall (a : R) (data : list (list R)) (i : nat), 1 <= length data ->
  tree_weight a data (Leaf 0 (length data - 1)) (nth i data []) =
  Ok (INR (length data - 1) * (lsum (fun j => exp (- a * dist2 (nth i data []) (nth j data [])))%R (seq 0 (length data)) / INR (length data)))%R.
Proof.
  intros a data i Hn. cbn [tree_weight]. rewrite leaf_weight_R by lia. f_equal. unfold leaf_total. rewrite !Nat.sub_0_r. replace (length data - 1 + 1) with (length data) by lia. now rewrite <- !INR_IZR_INZ.
Qed.
Print Assumptions C54_degrees_one_leaf.

(** Refutations. No vertex and one vertex: the conversion of log(0) to an integer is undefined. *)
Theorem C54_too_few_points_refuted :
  forall (unif : R -> Prop) (ord : nat -> nat -> nat -> list nat -> list nat) (T : nat) (a : R) (data : list (list R)) (nc : Z) (r : outcome (graph R)),
  length data <= 1 -> asg unif ord T a data nc r -> r = UB.
Proof. intros unif ord T a data nc r Hn. unfold asg. rewrite edges_per_node_few by auto. auto. Qed.
Print Assumptions C54_too_few_points_refuted.

(** Many equal points: the parameter of the binomial distribution is 0/0, outside its domain, whatever the random choices. *)
Theorem C54_equal_points_refuted :
  forall (unif : R -> Prop) (ord : nat -> nat -> nat -> list nat -> list nat) (T : nat) (a : R) (q : list R) (n : nat) (nc : Z) (r : outcome (graph R)),
  (forall x, unif x -> (0 <= x < 1)%R) -> (forall c i l set, Permutation (ord c i l set) set) -> 1 <= T -> (0 < a)%R -> (2 <= nc)%Z ->
  (2 * nc + 2 <= Z.of_nat n)%Z -> asg unif ord T a (repeat q n) nc r -> r = UB.
Proof.
  intros unif ord T a q n nc r Hu Hord HT Ha Hnc Hn A. eapply (asg_identical unif ord T a (repeat q n) nc Hu Hord HT Ha Hnc); eauto; rewrite ?repeat_length; try lia.
  intros x I. exact (repeat_spec _ _ _ I).
Qed.
Print Assumptions C54_equal_points_refuted.

(** Self-loops: with two points the first one always samples itself (the degree estimate leaves out one of the points). *)
Theorem C54_self_loop_refuted :
  forall (unif : R -> Prop) (ord : nat -> nat -> nat -> list nat -> list nat) (T : nat) (a : R) (p q : list R) (nc : Z) (r : outcome (graph R)),
  (forall x, unif x -> (0 <= x < 1)%R) -> (forall c i l set, Permutation (ord c i l set) set) -> 1 <= T -> (0 < a)%R -> (2 <= nc)%Z ->
  asg unif ord T a [p; q] nc r -> exists g, r = Ok g /\ (2 / 5 <= weight g 0 0)%R.
Proof.
  intros unif ord T a p q nc r Hu Hord HT Ha Hnc A. destruct (asg_small unif ord T a [p; q] nc Hu Hord HT Ha Hnc ltac:(simpl; lia) r ltac:(simpl length; lia) A) as (t & g & B & E & Rg).
  exists g. split; auto. refine (asg_two_points unif T a [p; q] nc Hu HT Ha Hnc _ t g eq_refl B Rg); simpl; lia.
Qed.
Print Assumptions C54_self_loop_refuted.

Example C54_hypotheses_met :
  exists r, asg (fun x => (0 <= x < 1)%R) (fun _ _ _ s => s) 2 1%R [[0]; [1]; [2]; [3]; [4]; [5]; [6]; [7]; [8]]%R 2 r.
Proof. apply (C54_completes _ _ _ _ _ _ 0%R); [lia|lia|simpl; lia|lra]. Qed.
