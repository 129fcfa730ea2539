(** Theorems C49-C52, C60: kernel density estimation (stag_lib/kde.cpp, lsh.cpp). *)
From Verif Require Import Base Num RSum Cluster ClusterSweep ThreadPool ThreadPoolTop FloorDiv Kde KdeFacts KdeFacts2 KdeFacts3 KdeFacts4.
From Coq Require Import ZArith Permutation Reals Lra Sorted SpecFloat.
Local Open Scope nat_scope.

Lemma Forall2_len {A B} (P : A -> B -> Prop) l l' : Forall2 P l l' -> length l = length l'.
Proof. induction 1; simpl; congruence. Qed.
Lemma filter_id {T} (p : T -> bool) l : (forall x, In x l -> p x = true) -> filter p l = l.
Proof. induction l as [|x l IH]; simpl; intros A; auto. rewrite (A x) by now left. f_equal. apply IH. intros; apply A; now right. Qed.

(** ** C49 *)
(** For every number T >= 1 of hardware threads, the only possible result of query(matrix), whatever the interleaving of the threads, is the list of
    the answers to the single rows; in any arithmetic. And there is a result: the call can always be completed. *)
Theorem C49_matrix_query :
  forall (W : Type) (HN : Num W) (HK : KNum W) (T : nat) (k : exact_kde) (qs : list point) (r : outcome (list W)),
  1 <= T -> exact_query_matrix T k qs r -> r = Ok (map (exact_query k) qs).
Proof. intros W HN HK. exact exact_matrix_unique. Qed.
Print Assumptions C49_matrix_query.

Theorem C49_matrix_query_completes :
  forall (W : Type) (HN : Num W) (HK : KNum W) (T : nat) (k : exact_kde) (qs : list point),
  1 <= T -> exact_query_matrix T k qs (Ok (map (exact_query k) qs)).
Proof. intros W HN HK T k qs HT. destruct (exact_matrix_exists T k qs HT) as [r R]. rewrite <- (exact_matrix_unique T k qs r HT R). exact R. Qed.
Print Assumptions C49_matrix_query_completes.

(** Over the reals the answer is the average of the kernel values exp(-a |q - x|^2), a number in (0, 1]. *)
Theorem C49_value :
  forall (data : list (list R)) (a : R) (q : list R),
  exact_query (exact_kde_new data a) q = (lsum (fun x => exp (- a * dist2 q x)) data / INR (length data))%R /\
  ((0 <= a)%R -> data <> [] -> (0 < exact_query (exact_kde_new data a) q <= 1)%R).
Proof. intros data a q. split; [apply exact_query_R|apply exact_query_range]. Qed.
Print Assumptions C49_value.

(** The chunk size floor((double) rows / (double) T) is computed exactly. *)
Theorem C49_chunk_size :
  forall rows T : Z, (0 <= rows < 2 ^ 53)%Z -> (1 <= T < 2 ^ 53)%Z ->
  Raux.Zfloor (rnd64 (rnd64 (IZR rows) / rnd64 (IZR T))) = (rows / T)%Z.
Proof. exact floor_division. Qed.
Print Assumptions C49_chunk_size.

(** When std::thread::hardware_concurrency() returns 0 (which the C++ standard allows) the division by it is undefined behaviour. *)
Theorem C49_no_hardware_threads_refuted :
  forall (W : Type) (HN : Num W) (HK : KNum W) (k : exact_kde) (qs : list point) (r : outcome (list W)),
  exact_query_matrix 0 k qs r -> r = UB.
Proof. intros W HN HK k qs r. unfold exact_query_matrix. rewrite (proj2 (Nat.ltb_ge _ _)) by lia. auto. Qed.
Print Assumptions C49_no_hardware_threads_refuted.

Example C49_hypotheses_met : exact_query_matrix 2 (exact_kde_new [[0; 0]; [1; 2]]%R 1%R) [[0; 1]; [1; 1]; [2; 1]]%R
   (Ok (map (exact_query (exact_kde_new [[0; 0]; [1; 2]]%R 1%R)) [[0; 1]; [1; 1]; [2; 1]]%R)).
Proof. apply C49_matrix_query_completes. lia. Qed.

(** ** C50 *)
(** query(matrix) of an initialised estimator: for every T >= 1, every interleaving and every iteration order of the hash sets (one permutation for
    each chunk and loop) the result is, row by row, the answer to query(row). *)
Theorem C50_matrix_query :
  forall (W : Type) (HN : Num W) (HK : KNum W) (ord : nat -> nat -> nat -> list nat -> list nat) (T : nat) (k : ckns) (qs : list point) (r : outcome (list W)),
  1 <= T -> 1 <= c_k1 k -> (forall c i l set, Permutation (ord c i l set) set) ->
  ckns_query_matrix ord T k qs r -> exists vs, r = Ok vs /\ map Ok vs = map (ckns_query k) qs.
Proof. intros W HN HK. exact ckns_matrix_unique. Qed.
Print Assumptions C50_matrix_query.

Theorem C50_matrix_query_completes :
  forall (W : Type) (HN : Num W) (HK : KNum W) (ord : nat -> nat -> nat -> list nat -> list nat) (T : nat) (k : ckns) (qs : list point),
  1 <= T -> exists r, ckns_query_matrix ord T k qs r.
Proof. intros W HN HK. exact ckns_matrix_exists. Qed.
Print Assumptions C50_matrix_query_completes.

(** Construction: the units are added to the table by concurrent tasks in an arbitrary order; in exact arithmetic the answers do not depend on it, nor on
    the number of threads (given the permuted copies and the hash functions). *)
Theorem C50_construction :
  forall (W : Type) (HN : Num W) (HE : ExactNum W) (HK : KNum W) (T T' : nat) (a min_mu : W) (copies : list (list point)) (n offset : Z)
    (hs : nat -> nat -> nat -> list (point -> Z)) (k k' : ckns) (q : point),
  ckns_init T a min_mu copies n offset hs k -> ckns_init T' a min_mu copies n offset hs k' -> ckns_query k q = ckns_query k' q.
Proof. intros W HN HE HK T T' a min_mu copies n offset hs k k' q. exact (init_query T T' a min_mu copies n offset hs k k' q). Qed.
Print Assumptions C50_construction.

(** In any arithmetic every cell of the table ends up with exactly its units, one for each shell, in some order. *)
Theorem C50_construction_units :
  forall (W : Type) (HN : Num W) (HK : KNum W) (T : nat) (a min_mu : W) (copies : list (list point)) (n offset : Z)
    (hs : nat -> nat -> nat -> list (point -> Z)) (k : ckns) (lni iter : nat),
  ckns_init T a min_mu copies n offset hs k -> lni < c_iters k -> iter < c_k1 k ->
  Permutation (nth iter (nth lni (c_units k) []) [])
    (map (fun j => hunit_new a (nth iter copies []) (max_log_nmu_of n - Z.of_nat lni * 2) (Z.of_nat j) offset (hs iter lni j)) (shells k lni)).
Proof. intros W HN HK. exact init_units. Qed.
Print Assumptions C50_construction_units.

Theorem C50_construction_completes :
  forall (W : Type) (HN : Num W) (HK : KNum W) (T : nat) (a min_mu : W) (copies : list (list point)) (n offset : Z)
    (hs : nat -> nat -> nat -> list (point -> Z)),
  1 <= T -> exists k, ckns_init T a min_mu copies n offset hs k.
Proof. intros W HN HK. exact init_exists. Qed.
Print Assumptions C50_construction_completes.

(** With hardware_concurrency() = 0 the constructor never returns once there is a unit to build. *)
Theorem C50_no_hardware_threads_refuted :
  forall (W : Type) (HN : Num W) (HK : KNum W) (a min_mu : W) (copies : list (list point)) (n offset : Z)
    (hs : nat -> nat -> nat -> list (point -> Z)) (k : ckns),
  init_tasks n (max_log_nmu_of n) (iterations_of n min_mu) (length copies) <> [] ->
  ~ ckns_init 0 a min_mu copies n offset hs k.
Proof. intros W HN HK. exact init_no_threads. Qed.
Print Assumptions C50_no_hardware_threads_refuted.

(** On a single data point the documented constructors choose K1 = ceil(log(1)/eps^2) = 0 copies, and every query reads the median of an empty vector. *)
Theorem C50_single_point_refuted :
  forall (T : nat) (a eps : R) (offset : Z) (hs : nat -> nat -> nat -> list (list R -> Z)) (copies : list (list (list R))) (k : ckns) (q : list R),
  Z.of_nat (length copies) = default_k1 1 eps -> ckns_init T a 1%R copies 1 offset hs k -> ckns_query k q = UB.
Proof.
  intros T a eps offset hs copies k q E I. rewrite default_k1_one in E. destruct copies as [|c copies]; [|simpl in E; lia].
  refine (ckns_no_copies T a 1%R 1 offset hs k q _ I). rewrite iterations_one. lia.
Qed.
Print Assumptions C50_single_point_refuted.

Example C50_hypotheses_met : exists k : @ckns R, ckns_init 4 1%R (1 / 4)%R [[[0]; [1]]; [[1]; [0]]]%R 2 0 (fun _ _ _ => []) k /\ 1 <= c_k1 k /\
  exists r, ckns_query_matrix (fun _ _ _ s => s) 4 k [[0]; [1]; [2]; [3]; [4]]%R r.
Proof.
  destruct (C50_construction_completes R _ _ 4 1%R (1 / 4)%R [[[0]; [1]]; [[1]; [0]]]%R 2 0 (fun _ _ _ => []) ltac:(lia)) as [k I]. exists k. split; auto.
  destruct (init_fields _ _ _ _ _ _ _ _ I) as (_ & _ & _ & ->). split; [simpl; lia|]. apply C50_matrix_query_completes. lia.
Qed.

(** ** C51 *)
(** For any hash functions and any data: the points that collide with q in at least one table, one occurrence for each data point. *)
Theorem C51_near_neighbors :
  forall (W : Type) (HN : Num W) (HK : KNum W) (hs : list (point -> Z)) (pts : list (list W)) (q : list W),
  Permutation (get_near_neighbors (e2lsh_new hs pts) q) (filter (fun x => existsb (fun h => (h x =? h q)%Z) hs) pts).
Proof. intros W HN HK. exact near_neighbors_spec. Qed.
Print Assumptions C51_near_neighbors.

(** So a data point equal to the query is found, as often as it occurs, if there is a table. *)
Theorem C51_finds_itself :
  forall (W : Type) (HN : Num W) (HK : KNum W) (h : point -> Z) (hs : list (point -> Z)) (pts : list (list W)) (q : list W)
    (dec : forall x y : list W, {x = y} + {x <> y}),
  count_occ dec (get_near_neighbors (e2lsh_new (h :: hs) pts) q) q = count_occ dec pts q.
Proof.
  intros W HN HK h hs pts q dec.
  pose proof (proj1 (Permutation_count_occ dec _ _) (near_neighbors_spec (h :: hs) pts q) q) as ->.
  induction pts as [|x pts IH]; auto. cbn [filter count_occ]. destruct (dec x q) as [->|N].
  - replace (existsb _ _) with true by (symmetry; cbn [existsb]; now rewrite Z.eqb_refl). cbn [count_occ]. destruct (dec q q); [|congruence]. now rewrite IH.
  - destruct (existsb _ _); auto. cbn [count_occ]. destruct (dec x q); [congruence|auto].
Qed.
Print Assumptions C51_finds_itself.

(** The library's hash functions are of this kind: instance with the functions of MultiLSHFunction. *)
Theorem C51_multi_lsh :
  forall (W : Type) (HN : Num W) (HK : KNum W) (params : list (list (list W * W * Z))) (pts : list (list W)) (q : list W),
  Permutation (get_near_neighbors (e2lsh_new (map multi_lsh_apply params) pts) q)
    (filter (fun x => existsb (fun rows => (multi_lsh_apply rows x =? multi_lsh_apply rows q)%Z) params) pts).
Proof.
  intros W HN HK params pts q. rewrite near_neighbors_spec. erewrite filter_ext; [reflexivity|]. intros x. induction params as [|p ps IH]; auto. cbn [map existsb]. now rewrite IH.
Qed.
Print Assumptions C51_multi_lsh.

Example C51_hypotheses_met :
  get_near_neighbors (e2lsh_new (W := nat) [fun p => Z.of_nat (nth 0 p 0); fun p => Z.of_nat (nth 1 p 0)] [[1; 2]; [3; 4]; [1; 5]; [7; 5]; [1; 5]]) [1; 5]
  = [[1; 2]; [1; 5]; [1; 5]; [7; 5]].
Proof. reflexivity. Qed.

(** ** C52 *)
(** Any arithmetic: valid indices, in increasing order, at most one for each threshold. *)
Theorem C52_indices :
  forall (W : Type) (HN : Num W) (HK : KNum W) (k : exact_kde) (q : point) (degree : W) (rs : list W),
  ex_min k <= ex_max k -> length (ex_data k) = ex_max k - ex_min k ->
  let r := sample_neighbors k q degree rs in
  length r <= length rs /\ (forall x, In x r -> ex_min k <= x < ex_max k) /\ StronglySorted le r.
Proof.
  intros W HN HK k q degree rs Hm Hl r. unfold r, sample_neighbors.
  destruct (sample_loop_any (map (gaussian_kernel (ex_a k) q) (firstn (ex_max k - ex_min k) (ex_data k))) (ex_min k) w0 (stable_sort wltb (map (fun r => wmul degree r) rs))) as (A & B & C).
  rewrite <- (Permutation_length (stable_sort_perm _ _)), map_length in A. split; auto. split; auto.
  intros x I. apply B in I. rewrite map_length, firstn_length in I. lia.
Qed.
Print Assumptions C52_indices.

(** Over the reals, for an estimator over a range of data points: the thresholds degree * r, sorted, are answered by the first index at which the running sum of
    kernel values exceeds them; thresholds that no running sum exceeds get no answer. [S i] is the running sum up to index i. *)
Theorem C52_samples :
  forall (data : list (list R)) (a : R) (lo hi : nat) (q : list R) (degree : R) (rs : list R),
  lo <= hi <= length data -> (0 <= degree)%R -> (forall r, In r rs -> (0 <= r)%R) ->
  let S := fun i => lsum (fun j => exp (- a * dist2 q (nth j data [])))%R (seq lo (i + 1 - lo)) in
  let total := lsum (fun j => exp (- a * dist2 q (nth j data [])))%R (seq lo (hi - lo)) in
  exists ts, Permutation ts (map (fun r => degree * r)%R rs) /\ StronglySorted Rle ts /\
    Forall2 (fun t x => lo <= x < hi /\ (t < S x)%R /\ forall y, lo <= y < x -> (S y <= t)%R)
      (filter (fun t => if Rlt_dec t total then true else false) ts)
      (sample_neighbors (exact_kde_range data a lo hi) q degree rs).
Proof.
  intros data a lo hi q degree rs Hh Hd Hr S total.
  destruct (sample_neighbors_spec (EN := ExactR) (exact_kde_range data a lo hi) q degree rs) as (ts & P & Ss & F).
  { intros c. cbn. left. apply exp_pos. }
  { intros r I. cbn. apply Rmult_le_pos; auto. }
  exists ts. split; auto. split; auto. cbn [ex_max ex_min ex_data ex_a exact_kde_range] in F. unfold point in F.
  set (ks := map (gaussian_kernel a q) (firstn (hi - lo) (map (fun i => nth i data []) (seq lo (hi - lo))))).
  assert (F' : Forall2 (fun t x => lo <= x /\ first_above (EN := ExactR) ks t (x - lo)) (filter (fun t => if Rlt_dec t (lsum (toR (ExactNum := ExactR)) ks) then true else false) ts)
    (sample_neighbors (exact_kde_range data a lo hi) q degree rs)) by exact F. clear F. rename F' into F.
  assert (ks = map (fun j => exp (- a * dist2 q (nth j data [])))%R (seq lo (hi - lo))) as Ek.
  { unfold ks. rewrite firstn_all2 by (rewrite map_length, seq_length; lia). rewrite map_map. apply map_ext. intros j. rewrite gaussian_kernel_R. reflexivity. }
  assert (forall d, d < hi - lo -> lsum (toR (ExactNum := ExactR)) (firstn (Datatypes.S d) ks) = S (lo + d)) as ES.
  { intros d L. rewrite Ek, firstn_map, lsum_map. unfold S. replace (lo + d + 1 - lo) with (Datatypes.S d) by lia.
    replace (firstn (Datatypes.S d) (seq lo (hi - lo))) with (seq lo (Datatypes.S d)); [reflexivity|]. replace (hi - lo) with (Datatypes.S d + (hi - lo - Datatypes.S d)) by lia.
    rewrite seq_app, firstn_app, seq_length, Nat.sub_diag, firstn_O, app_nil_r. symmetry. apply firstn_all2. rewrite seq_length. lia. }
  assert (lsum (toR (ExactNum := ExactR)) ks = total) as Et by (rewrite Ek, lsum_map; reflexivity).
  assert (length ks = hi - lo) as El by (rewrite Ek, map_length, seq_length; reflexivity). rewrite Et in F.
  eapply Forall2_impl_in; [|exact F]. cbv beta. intros t x _ _ (B1 & B2 & B3 & B4). rewrite El in B2. split; [lia|]. rewrite ES in B3 by auto.
  replace (lo + (x - lo)) with x in B3 by lia. split; auto. intros y Hy. specialize (B4 (y - lo) ltac:(lia)). rewrite ES in B4 by lia. now replace (lo + (y - lo)) with y in B4 by lia.
Qed.
Print Assumptions C52_samples.

(** As many samples as thresholds when degree is the sum of the kernel values and 0 <= r < 1 for every r. *)
Theorem C52_count :
  forall (data : list (list R)) (a : R) (lo hi : nat) (q : list R) (rs : list R),
  lo < hi <= length data -> (forall r, In r rs -> (0 <= r < 1)%R) ->
  let total := lsum (fun j => exp (- a * dist2 q (nth j data [])))%R (seq lo (hi - lo)) in
  length (sample_neighbors (exact_kde_range data a lo hi) q total rs) = length rs.
Proof.
  intros data a lo hi q rs Hh Hr total.
  assert (0 < total)%R as Ht.
  { unfold total. replace (hi - lo) with (Datatypes.S (hi - lo - 1)) by lia. cbn [seq lsum]. pose proof (exp_pos (- a * dist2 q (nth lo data []))).
    assert (0 <= lsum (fun j => exp (- a * dist2 q (nth j data [])))%R (seq (Datatypes.S lo) (hi - lo - 1)))%R by (apply lsum_nonneg; intros; left; apply exp_pos). lra. }
  destruct (C52_samples data a lo hi q total rs ltac:(lia) ltac:(lra) ltac:(intros r I; specialize (Hr r I); lra)) as (ts & P & _ & F).
  apply Forall2_len in F. rewrite <- F. fold total.
  rewrite filter_id; [rewrite (Permutation_length P); apply map_length|].
  intros t I. apply (Permutation_in _ P) in I. apply in_map_iff in I as (r & <- & I). specialize (Hr r I). destruct (Rlt_dec _ _) as [|N]; auto. exfalso. apply N.
  rewrite <- (Rmult_1_r total) at 2. apply Rmult_lt_compat_l; lra.
Qed.
Print Assumptions C52_count.

Example C52_hypotheses_met : 0 < 2 <= length [[0%R]; [1%R]; [2%R]] /\ (forall r, In r [0; 1/2; 1/4]%R -> (0 <= r < 1)%R).
Proof. split; [simpl; lia|]. intros r [<-|[<-|[<-|[]]]]; lra. Qed.

(** ** C60 *)
Local Open Scope R_scope.
(** The shells of a level: shell j (1 <= j <= J) is the annulus r_(j-1) < |q-x|^2 <= r_j, shell 0 is everything beyond r_J, with r_j = j * 0.69314718056 / a.
    Every positive distance is in exactly one shell. *)
Theorem C60_shells_partition :
  forall (a : R) (J : Z) (d : R), 0 < a -> (0 <= J)%Z -> 0 < d -> exists! j : Z, (0 <= j <= J)%Z /\ in_shell a J j d = true.
Proof. exact shells_partition. Qed.
Print Assumptions C60_shells_partition.

(** The answer of one hash unit: the sum of the kernel values of the points of its shell among the first floor(p n) points of its copy of the data (only those that
    collide with the query if the unit uses hash tables), divided by the sampling probability p. *)
Theorem C60_unit_answer :
  forall (a : R) (data : list (list R)) (log_nmu j offset : Z) (hs : list (list R -> Z)) (q : list R),
  0 < a -> (0 <= j)%Z -> data <> [] ->
  let n := Z.of_nat (length data) in
  let p := ckns_p_sampling j log_nmu n offset in
  let num := Z.to_nat (Int_part (p * IZR n)) in
  hunit_query (hunit_new a data log_nmu j offset hs) q =
  lsum (fun x => if in_shell a (ckns_J n log_nmu) j (dist2 q x) then exp (- a * dist2 q x) / p else 0)
    (candidates j hs q (firstn num data)).
Proof. exact hunit_query_R. Qed.
Print Assumptions C60_unit_answer.

(** Expectation over the random order of the copy (without hash tables): the shell's kernel sum, times the factor num / (p n) that comes from rounding the number of
    samples down. *)
Theorem C60_unit_expectation :
  forall (a : R) (data : list (list R)) (F : list (list (list R))) (log_nmu j offset : Z) (hs : list (list R -> Z)) (q : list R),
  let n := Z.of_nat (length data) in
  let p := ckns_p_sampling j log_nmu n offset in
  let num := Z.to_nat (Int_part (p * IZR n)) in
  0 < a -> (0 <= j)%Z -> data <> [] -> balanced data F -> (j = 0%Z \/ (Z.of_nat num <= 3000)%Z) ->
  lsum (fun c => hunit_query (hunit_new a c log_nmu j offset hs) q) F / INR (length F) =
  INR num / (p * INR (length data)) * lsum (fun x => if in_shell a (ckns_J n log_nmu) j (dist2 q x) then exp (- a * dist2 q x) else 0) data.
Proof. exact unit_mean. Qed.
Print Assumptions C60_unit_expectation.

(** Data points equal to the query are in no shell: if all data points equal q, every estimate at q is 0 although the density is 1, however the estimator was built. *)
Theorem C60_identical_points_refuted :
  forall (T : nat) (a min_mu : R) (copies : list (list (list R))) (n : nat) (offset : Z) (hs : nat -> nat -> nat -> list (list R -> Z)) (k : ckns) (q : list R),
  0 < a -> (1 <= n)%nat -> copies <> [] -> (forall c, In c copies -> c = repeat q n) ->
  ckns_init T a min_mu copies (Z.of_nat n) offset hs k ->
  ckns_query k q = Ok 0 /\ exact_query (exact_kde_new (repeat q n) a) q = 1.
Proof.
  intros T a min_mu copies n offset hs k q Ha Hn Nc A I. split.
  - eapply ckns_same; eauto. intros c Ic. rewrite (A c Ic). split; [apply repeat_length|]. intros x Ix. now apply repeat_spec in Ix.
  - rewrite exact_query_R, repeat_length. rewrite (lsum_ext _ (fun _ => 1)).
    + rewrite lsum_const, repeat_length. field. apply not_0_INR. lia.
    + intros x Ix. apply repeat_spec in Ix as ->. unfold gauss. rewrite dist2_refl, Rmult_0_r. apply exp_0.
Qed.
Print Assumptions C60_identical_points_refuted.

(** With the default offset the outer shell should be estimated from one sample (p = 1/n); for n = 49 the double computation floor(1.0/49*49) gives none, so everything
    beyond the last radius is ignored. *)
Theorem C60_outer_shell_doubles_refuted :
  forall (K : KNum f64) (log_nmu : Z),
  wofZ (KNum := K) 49 = S754_finite false 6896136929411072 (-47) -> wpow2 (KNum := K) 0 = w1 ->
  (forall x : f64, wleb w0 x = true -> wltb x w1 = true -> wfloor (KNum := K) x = 0%Z) ->
  num_sampled (ckns_p_sampling 0 log_nmu 49 0) 49 = 0%Z.
Proof. exact outer_shell_49. Qed.
Print Assumptions C60_outer_shell_doubles_refuted.

Example C60_hypotheses_met :
  balanced [[0]; [1]; [5]] [[[0]; [1]; [5]]; [[1]; [5]; [0]]; [[5]; [0]; [1]]] /\
  exists k, ckns_init 4 1 (1 / 4) [repeat [3] 5; repeat [3] 5] 5 0 (fun _ _ _ => []) k.
Proof.
  split.
  - exists 1%nat. split; [lia|]. split; [repeat constructor|]. intros i Hi. simpl in Hi. destruct i as [|[|[|i]]]; [| | |lia]; simpl.
    + reflexivity.
    + apply (Permutation_app_comm [[1]; [5]] [[0]]).
    + apply (Permutation_app_comm [[5]] [[0]; [1]]).
  - apply C50_construction_completes. lia.
Qed.
