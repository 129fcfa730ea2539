(** Theorems C81-C82: threads and shared data, at the level of single accesses (stag_lib/cluster.cpp:673-932, kde.cpp:285-443, lsh.cpp:106-182).

    Runs are the interleavings of Threads.v: [steps _ s0 s] says that s can be reached from s0 by steps of single threads, [race s l] that two threads are about to access the
    object l in s and one of them modifies it, [finished s] that all tasks have ended, [undefined s] that one of them has reached undefined behaviour. *)
From Verif Require Import Base Num RSum Sparse SparseFacts Graph GraphSpec GraphFacts GraphProps4 Cluster ClusterSweep ThreadPool ThreadPoolFacts ThreadPoolTop Kde KdeFacts KdeFacts2 KdeFacts3 KdeFacts4 KdeAcc6 SimGraph SimGraphFacts SimGraphFacts2 SimGraphFacts3 SimGraphFacts4 SimGraphTop
  Threads ThreadsFacts AsgThreads AsgThreadsFacts AsgThreadsTop KdeThreads KdeThreadsTop.
From Coq Require Import ZArith Permutation Reals Lra.
Local Open Scope nat_scope.

(** ** C81: the threads of approximate_similarity_graph *)
(** The chunks cover every row exactly once, whatever the number of threads. *)
Theorem C81_chunks :
  forall (n T P : nat) (chunks : list (list nat * nat)), chunk_plan n T = Ok (P, chunks) ->
  1 <= P /\ concat (map fst chunks) = seq 0 n /\ forall rows start, In (rows, start) chunks -> exists len, rows = seq start len.
Proof. intros n T P chunks E. destruct (chunk_plan_ok n T P chunks E) as [A B C]. split; auto. split; auto. intros rows st I. destruct (C rows st I) as (len & -> & _). eauto. Qed.
Print Assumptions C81_chunks.
Theorem C81_chunks_exist :
  forall (n T : nat), 1 <= T -> exists P chunks, chunk_plan n T = Ok (P, chunks) /\ P <= T /\ (T * 2 < n -> P = T /\ length chunks = T).
Proof.
  intros n T HT. unfold chunk_plan. destruct (n <=? T * 2) eqn:L; [exists 1, [(seq 0 n, 0)]; apply Nat.leb_le in L; repeat split; auto; lia|].
  unfold chunk_size. destruct (Nat.eqb_spec T 0); [lia|]. cbn [obind]. eexists _, _. split; [reflexivity|]. split; auto. intros _. split; auto. now rewrite map_length, seq_length.
Qed.
Print Assumptions C81_chunks_exist.

(** In every reachable state of every run the only object that two threads can be about to access, one of them writing, is the global random number generator: the caches
    of the tree (read and extended by all threads) and the vector of edges are free of data races. Missing: the generator (C81_generator_race_refuted). *)
Theorem C81_races_partial :
  forall (W : Type) (HN : Num W) (HK : KNum W) (unif : W -> Prop) (a : W) (data : list (list W)) (lr : path -> bool) (tree : ktree) (epn : nat) (degrees : list W)
    (T P : nat) (chunks : list (list nat * nat)) (c0 : path -> nat -> option W) (s : st) (l : aloc),
  chunk_plan (length data) T = Ok (P, chunks) ->
  steps path_dec (asg_start unif a data lr tree epn degrees P chunks c0) s -> race s l -> l = LRng.
Proof.
  intros W HN HK unif a data lr tree epn degrees T P chunks c0 s l E.
  exact (run_race unif (fun _ _ _ x => x) T a data lr tree epn degrees P chunks (chunk_plan_ok _ _ _ _ E) c0 s l).
Qed.
Print Assumptions C81_races_partial.

(** No deadlock: while some task has not ended (and none has reached undefined behaviour) some thread can go on. *)
Theorem C81_no_deadlock :
  forall (W : Type) (HN : Num W) (HK : KNum W) (unif : W -> Prop) (x0 : W) (a : W) (data : list (list W)) (lr : path -> bool) (tree : ktree) (epn : nat) (degrees : list W)
    (T P : nat) (chunks : list (list nat * nat)) (c0 : path -> nat -> option W) (s : st),
  unif x0 -> chunk_plan (length data) T = Ok (P, chunks) ->
  steps path_dec (asg_start unif a data lr tree epn degrees P chunks c0) s -> finished s \/ undefined s \/ exists s', step path_dec s s'.
Proof. intros W HN HK unif x0 a data lr tree epn degrees T P chunks c0 s U E. exact (run_progress unif x0 U a data lr tree epn degrees P chunks (chunk_plan_ok _ _ _ _ E) c0 s). Qed.
Print Assumptions C81_no_deadlock.

(** Termination: no run is infinite, under any scheduler. *)
Theorem C81_terminates :
  forall (W : Type) (HN : Num W) (HK : KNum W) (unif : W -> Prop) (a : W) (data : list (list W)) (lr : path -> bool) (tree : ktree) (epn : nat) (degrees : list W)
    (P : nat) (chunks : list (list nat * nat)) (c0 : path -> nat -> option W) (run : nat -> st),
  run 0 = asg_start unif a data lr tree epn degrees P chunks c0 -> ~ forall k, step path_dec (run k) (run (S k)).
Proof.
  intros W HN HK unif a data lr tree epn degrees P chunks c0 run _ St. assert (forall s, Acc (fun s' s => step path_dec s s') s -> forall k, run k <> s) as A.
  { induction 1 as [s _ IH]. intros k E. subst s. exact (IH _ (St k) (S k) eq_refl). }
  exact (A (run 0) (no_infinite_run path_dec (run 0)) 0 eq_refl).
Qed.
Print Assumptions C81_terminates.

(** Every task is run exactly once. *)
Theorem C81_tasks_once :
  forall (W : Type) (HN : Num W) (HK : KNum W) (unif : W -> Prop) (a : W) (data : list (list W)) (lr : path -> bool) (tree : ktree) (epn : nat) (degrees : list W)
    (P : nat) (chunks : list (list nat * nat)) (c0 : path -> nat -> option W) (s : st),
  steps path_dec (asg_start unif a data lr tree epn degrees P chunks c0) s -> finished s -> Permutation (done s) (seq 0 (length chunks)).
Proof. intros W HN HK unif a data lr tree epn degrees P chunks c0 s St F. pose proof (finished_once path_dec _ _ _ _ St F) as A. now rewrite map_length in A. Qed.
Print Assumptions C81_tasks_once.

(** The result of every interleaving is a result of the sequential description used in C54 (accesses to the generator taken as atomic) ... *)
Theorem C81_result :
  forall (W : Type) (HN : Num W) (HK : KNum W) (unif : W -> Prop) (x0 : W) (ord : nat -> nat -> nat -> list nat -> list nat) (lr : path -> bool) (T : nat) (a : W) (data : list (list W)) (nc : Z) (r : outcome (graph W)),
  unif x0 -> asg_threads unif ord lr T a data nc r -> asg unif ord T a data nc r.
Proof. intros W HN HK unif x0 ord lr T a data nc r U. exact (asg_threads_asg unif x0 U ord T a data lr nc r). Qed.
Print Assumptions C81_result.

(** ... so that, over the reals and for up to twice as many points as the node cutoff, every interleaving of the threads returns the graph of two samples for every vertex,
    the weight of u-v being a fifth of the estimated degree of u for each time that u sampled v, plus the same for v. *)
Theorem C81_graph :
  forall (unif : R -> Prop) (x0 : R) (ord : nat -> nat -> nat -> list nat -> list nat) (lr : path -> bool) (T : nat) (a : R) (data : list (list R)) (nc : Z) (r : outcome (graph R)),
  (forall x, unif x -> (0 <= x < 1)%R) -> unif x0 -> (forall c i l set, Permutation (ord c i l set) set) -> 1 <= T -> (0 < a)%R -> (2 <= nc)%Z -> 2 <= length data ->
  (Z.of_nat (length data) <= 2 * nc)%Z -> asg_threads unif ord lr T a data nc r ->
  exists g degrees samples, r = Ok g /\ number_of_vertices g = length data /\ (forall u v, weight g u v = weight g v u) /\
    length degrees = length data /\ Forall (fun d => (0 <= d)%R) degrees /\
    (forall u, u < length data -> length (samples u) = 2 /\ forall v, In v (samples u) -> v < length data) /\
    forall u v, u < length data -> v < length data ->
      let x := (nth u degrees 0 / 5 * INR (count_occ Nat.eq_dec (samples u) v) + nth v degrees 0 / 5 * INR (count_occ Nat.eq_dec (samples v) u))%R in
      weight g u v = if Rlt_dec (/ 10000000000) x then x else 0%R.
Proof.
  intros unif x0 ord lr T a data nc r Hu U Hord HT Ha Hnc Hn Hs A. apply (asg_threads_asg unif x0 U) in A.
  destruct (asg_small unif ord T a data nc Hu Hord HT Ha Hnc Hn r Hs A) as (t & g & B & E & degrees & samples & Fd & Pd & Sm & En & _ & _ & Ew).
  exists g, degrees, samples. split; auto. split; auto.
  assert (forall x : R, above_eps x = if Rlt_dec (/ 10000000000) x then x else 0%R) as Ea by (intros x; unfold above_eps; cbn [wltb weps w0 NumR]; unfold R_ltb; now destruct (Rlt_dec _ _)).
  split. { intros u v. rewrite !Ew, (andb_comm (v <? _)). unfold asg_weight. now rewrite Rplus_comm. }
  split. { apply (f_equal (@length _)) in Fd. now rewrite !map_length in Fd. }
  split; auto. split. { intros u Lu. destruct (Sm u Lu) as (L1 & L2 & _). auto. }
  intros u v Lu Lv. rewrite Ew. apply Nat.ltb_lt in Lu, Lv. rewrite Lu, Lv. cbn [andb]. rewrite Ea. reflexivity.
Qed.
Print Assumptions C81_graph.

(** The global generator is read and modified by all threads without synchronisation: as soon as there are two hardware threads and more than 2T points, a data race on it is
    reachable in the first step of two workers. *)
Theorem C81_generator_race_refuted :
  forall (W : Type) (HN : Num W) (HK : KNum W) (unif : W -> Prop) (a : W) (data : list (list W)) (lr : path -> bool) (tree : ktree) (epn : nat) (degrees : list W)
    (T : nat) (c0 : path -> nat -> option W),
  2 <= T -> T * 2 < length data ->
  exists P chunks s, chunk_plan (length data) T = Ok (P, chunks) /\ steps path_dec (asg_start unif a data lr tree epn degrees P chunks c0) s /\ race s LRng.
Proof.
  intros W HN HK unif a data lr tree epn degrees T c0 HT Hn. destruct (C81_chunks_exist (length data) T ltac:(lia)) as (P & chunks & E & _ & Q). destruct (Q Hn) as [-> L].
  destruct chunks as [|c1 [|c2 cs]]; cbn [length] in L; try lia. destruct (run_rng_race unif a data lr tree epn degrees c0 T c1 c2 cs HT) as (s & A & B). exists T, (c1 :: c2 :: cs), s. auto.
Qed.
Print Assumptions C81_generator_race_refuted.

(** A call can always be completed, from every state that a run has reached. *)
Theorem C81_can_end :
  forall (W : Type) (HN : Num W) (HK : KNum W) (unif : W -> Prop) (x0 : W) (a : W) (data : list (list W)) (lr : path -> bool) (tree : ktree) (epn : nat) (degrees : list W)
    (T P : nat) (chunks : list (list nat * nat)) (c0 : path -> nat -> option W) (s : st),
  unif x0 -> chunk_plan (length data) T = Ok (P, chunks) ->
  steps path_dec (asg_start unif a data lr tree epn degrees P chunks c0) s -> exists s', steps path_dec s s' /\ (finished s' \/ undefined s').
Proof. intros W HN HK unif x0 a data lr tree epn degrees T P chunks c0 s U E. exact (run_ends unif x0 U a data lr tree epn degrees P chunks (chunk_plan_ok _ _ _ _ E) c0 s). Qed.
Print Assumptions C81_can_end.

(** Nine points and two threads: runs exist. *)
Example C81_hypotheses_met :
  exists r, asg_threads (fun x => (0 <= x < 1)%R) (fun _ _ _ s => s) (fun _ => true) 2 1%R [[0]; [1]; [2]; [3]; [4]; [5]; [6]; [7]; [8]]%R 5 r.
Proof.
  unfold asg_threads. set (data := [[0]; [1]; [2]; [3]; [4]; [5]; [6]; [7]; [8]]%R). change (length data) with 9. rewrite edges_per_node_two by lia. change (2 <? 1)%Z with false. cbv iota. change (Z.to_nat 2) with 2. rewrite depth_cutoff_zero.
  destruct (build_exists 2 1%R data 0 5 ltac:(lia) ltac:(lia) 0 0 (9 - 1) ltac:(lia)) as [t B]. destruct (ewc_exists (fun _ _ _ s => s) 2 1%R data t ltac:(lia)) as (degs & c0 & Ew).
  destruct degs as [degrees|e|].
  - destruct (C81_chunks_exist 9 2 ltac:(lia)) as (P & chunks & E & _).
    destruct (C81_can_end R _ _ (fun x => (0 <= x < 1)%R) 0%R 1%R data (fun _ => true) t 2 degrees 2 P chunks c0 _ ltac:(lra) E (steps_refl _ _)) as (s & St & [F|U]).
    + eexists. exists t, (Ok degrees), c0. split; [exact B|]. split; [exact Ew|]. rewrite E. exists s. split; [exact St|]. left. split; [exact F|reflexivity].
    + exists UB. exists t, (Ok degrees), c0. split; [exact B|]. split; [exact Ew|]. rewrite E. exists s. split; [exact St|]. right. split; [exact U|reflexivity].
  - exists UB. exists t, (Throw e), c0. repeat split; auto.
  - exists UB. exists t, UB, c0. repeat split; auto.
Qed.

(** ** C82: the threads of the construction of a CKNS estimator *)
(** In every reachable state the grid of hash units is free of data races; the generator is the only other shared object that is modified. *)
Theorem C82_races_partial :
  forall (W : Type) (HN : Num W) (HK : KNum W) (params : Z -> Z -> nat * nat) (hash_of : nat -> nat -> nat -> list W -> list (list W -> Z)) (T : nat) (a min_mu : W) (copies : list (list (list W))) (n offset : Z) (s : st) (l : kloc),
  steps unit_dec (init_start params hash_of T a min_mu copies n offset) s -> race s l -> l = KRng.
Proof. intros W HN HK params hash_of T a min_mu copies n offset s l. exact (init_race params hash_of a min_mu copies n offset T s l). Qed.
Print Assumptions C82_races_partial.

(** No deadlock and no undefined behaviour of a task; ... *)
Theorem C82_no_deadlock :
  forall (W : Type) (HN : Num W) (HK : KNum W) (params : Z -> Z -> nat * nat) (hash_of : nat -> nat -> nat -> list W -> list (list W -> Z)) (T : nat) (a min_mu : W) (copies : list (list (list W))) (n offset : Z) (s : st),
  1 <= T -> steps unit_dec (init_start params hash_of T a min_mu copies n offset) s -> ~ undefined s /\ (finished s \/ exists s', step unit_dec s s').
Proof. intros W HN HK params hash_of T a min_mu copies n offset s HT St. split; [exact (init_no_undef params hash_of a min_mu copies n offset T s St)|exact (init_progress params hash_of a min_mu copies n offset T s HT St)]. Qed.
Print Assumptions C82_no_deadlock.

(** ... every run is finite and can be completed. *)
Theorem C82_terminates :
  forall (W : Type) (HN : Num W) (HK : KNum W) (params : Z -> Z -> nat * nat) (hash_of : nat -> nat -> nat -> list W -> list (list W -> Z)) (T : nat) (a min_mu : W) (copies : list (list (list W))) (n offset : Z) (run : nat -> st),
  run 0 = init_start params hash_of T a min_mu copies n offset -> ~ forall k, step unit_dec (run k) (run (S k)).
Proof.
  intros W HN HK params hash_of T a min_mu copies n offset run _ St. assert (forall s, Acc (fun s' s => step unit_dec s s') s -> forall k, run k <> s) as A.
  { induction 1 as [s _ IH]. intros k E. subst s. exact (IH _ (St k) (S k) eq_refl). }
  exact (A (run 0) (no_infinite_run unit_dec (run 0)) 0 eq_refl).
Qed.
Print Assumptions C82_terminates.
Theorem C82_can_end :
  forall (W : Type) (HN : Num W) (HK : KNum W) (params : Z -> Z -> nat * nat) (hash_of : nat -> nat -> nat -> list W -> list (list W -> Z)) (T : nat) (a min_mu : W) (copies : list (list (list W))) (n offset : Z) (s : st),
  1 <= T -> steps unit_dec (init_start params hash_of T a min_mu copies n offset) s -> exists s', steps unit_dec s s' /\ finished s'.
Proof. intros W HN HK params hash_of T a min_mu copies n offset s. exact (init_ends params hash_of a min_mu copies n offset T s). Qed.
Print Assumptions C82_can_end.

(** When all threads have ended, whatever the interleaving, the cell of every level and copy holds one hash unit for each j = 0, ..., J, made from that copy of the data
    (with some hash functions hs): no unit is lost, duplicated or stored in a wrong cell. *)
Theorem C82_result :
  forall (W : Type) (HN : Num W) (HK : KNum W) (params : Z -> Z -> nat * nat) (hash_of : nat -> nat -> nat -> list W -> list (list W -> Z)) (T : nat) (a min_mu : W) (copies : list (list (list W))) (n offset : Z) (s : st),
  steps unit_dec (init_start params hash_of T a min_mu copies n offset) s -> finished s ->
  exists hs : nat -> nat -> nat -> list (list W -> Z), forall level copy, level < iterations_of n min_mu -> copy < length copies ->
    let log_nmu := (max_log_nmu_of (W := W) n - Z.of_nat level * 2)%Z in
    Permutation (nth copy (nth level (shared s) []) [])
      (map (fun j => hunit_new a (nth copy copies []) log_nmu (Z.of_nat j) offset (hs copy level j)) (seq 0 (Z.to_nat (ckns_J (W := W) n log_nmu + 1)))).
Proof. intros W HN HK params hash_of T a min_mu copies n offset s. exact (init_result params hash_of a min_mu copies n offset T s). Qed.
Print Assumptions C82_result.

(** With two threads, at least 6002 points and the default parameters (min_mu = 1/n, no offset, several copies) a data race on the generator is reachable. *)
Theorem C82_generator_race_refuted :
  forall (params : Z -> Z -> nat * nat) (hash_of : nat -> nat -> nat -> list R -> list (list R -> Z)) (T : nat) (a : R) (n : nat) (copies : list (list (list R))),
  2 <= T -> (6002 <= Z.of_nat n)%Z -> 2 <= length copies -> (forall c, In c copies -> length c = n) -> (forall J j, 1 <= fst (params J j)) ->
  exists s, steps unit_dec (init_start params hash_of T a (/ INR n)%R copies (Z.of_nat n) 0) s /\ race s KRng.
Proof. exact default_race. Qed.
Print Assumptions C82_generator_race_refuted.

(** A run with three threads exists. *)
Example C82_hypotheses_met :
  exists s, steps unit_dec (init_start (fun _ _ => (2, 3)) (fun _ _ _ _ => []) 3 1%R (1 / 4)%R [[[0]; [1]; [2]; [3]]; [[3]; [2]; [1]; [0]]]%R 4 0) s /\ finished s.
Proof. apply (C82_can_end R _ _ (fun _ _ => (2, 3)) (fun _ _ _ _ => []) 3 1%R (1/4)%R _ 4 0 _ ltac:(lia) (steps_refl _ _)). Qed.
