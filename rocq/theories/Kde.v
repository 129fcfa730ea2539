(** Kernel density estimation: stag_lib/kde.cpp, stag_lib/lsh.cpp, DataPoint of stag_lib/data.cpp.

    A data point is the list of its coordinates, a DenseMat (row-major, definitions.h:51-52) the list of its rows; DataPoint objects only
    point into such rows (data.cpp:26-29, 47-56), which are never written after construction, so the list of coordinates is all there is to
    a point.  All points of a computation have the same dimension: the code only asserts it (kde.cpp:53, 75), with different dimensions it
    reads out of bounds. *)
From Verif Require Import Base Num Cluster ThreadPool ThreadPoolTop.
From Coq Require Import ZArith.

(** The floating-point functions used by the estimators. *)
Class KNum (W : Type) := {
  wexp : W -> W;            (* exp *)
  wlog : W -> W;            (* log *)
  wlog2 : W -> W;           (* log2 *)
  wfloor : W -> Z;          (* floor, converted to an integer *)
  wceil : W -> Z;           (* ceil, converted to an integer *)
  wofZ : Z -> W;            (* conversion of an integer *)
  wpow2 : Z -> W;           (* pow(2, k) *)
  wLOG_TWO : W;             (* the constant LOG_TWO, 0.69314718056, kde.cpp:18 *)
  w13 : W }.                (* the literal 1.3 *)

Section Kde.
  Context {W : Type} `{Num W} `{KNum W}.

  Definition point := list W.

  (** kde.cpp:52-61 *)
  Definition squared_distance (u v : point) : W :=
    fold_left (fun r xy => wadd r (wmul (wsub (fst xy) (snd xy)) (wsub (fst xy) (snd xy)))) (combine u v) w0.

  (** kde.cpp:72-84: -1 as soon as the partial sum is above max_dist *)
  Fixpoint sqd_at_most (uv : list (W * W)) (r max_dist : W) : W :=
    match uv with
    | [] => r
    | (x, y) :: uv' => let r' := wadd r (wmul (wsub x y) (wsub x y)) in
                       if wltb max_dist r' then wopp w1 else sqd_at_most uv' r' max_dist
    end.
  Definition squared_distance_at_most (u v : point) (max_dist : W) : W := sqd_at_most (combine u v) w0 max_dist.

  (** kde.cpp:86-88 and 90-93 *)
  Definition gaussian_kernel_sq (a c : W) : W := wexp (wopp (wmul a c)).
  Definition gaussian_kernel (a : W) (u v : point) : W := gaussian_kernel_sq a (squared_distance u v).

  (** ** Exact KDE *)
  (** kde.cpp:629-637 *)
  Definition gaussian_kde_exact (a : W) (data : list point) (q : point) : W :=
    wdiv (fold_left (fun total x => wadd total (gaussian_kernel a q x)) data w0) (wofZ (Z.of_nat (length data))).

  (** class ExactGaussianKDE; constructors kde.cpp:639-644 (all rows) and 646-655 (rows min_idx .. max_idx - 1) *)
  Record exact_kde := mkExact { ex_min : nat; ex_max : nat; ex_data : list point; ex_a : W }.
  Definition exact_kde_new (data : list point) (a : W) : exact_kde := mkExact 0 (length data) data a.
  Definition exact_kde_range (data : list point) (a : W) (min_idx max_idx : nat) : exact_kde :=
    mkExact min_idx max_idx (map (fun i => nth i data []) (seq min_idx (max_idx - min_idx))) a.

  (** kde.cpp:657-659 *)
  Definition exact_query (k : exact_kde) (q : point) : W := gaussian_kde_exact (ex_a k) (ex_data k) q.

  (** ** Splitting a loop over rows between threads.
      kde.cpp:468-492, 715-746; cluster.cpp:885-912, 956-986. T = std::thread::hardware_concurrency().
      chunk_size = floor((StagReal) rows / (StagReal) T): see FloorDiv.v for why this is rows / T; for T = 0 the conversion of
      an infinite or NaN quotient to an integer is undefined behaviour. *)
  Definition chunk_size (rows T : nat) : outcome nat := if T =? 0 then UB else Ok (rows / T).
  (** first row and number of rows of a chunk; kde.cpp:478-482 *)
  Definition chunk_start (cs c : nat) : nat := c * cs.
  Definition chunk_len (rows T cs c : nat) : nat := (if c =? T - 1 then rows else c * cs + cs) - c * cs.
  (** The rows of a chunk, in order. *)
  Definition chunk_rows (rows T cs c : nat) : list nat := seq (chunk_start cs c) (chunk_len rows T cs c).

  (** results[next_index] = res; next_index++ for the values of all futures in order, kde.cpp:494-503, 748-757;
      writing behind the end of the vector is undefined behaviour. *)
  Definition store_results (rows : nat) (vals : list W) : outcome (list W) :=
    if length vals <=? rows then Ok (vals ++ repeat w0 (rows - length vals)) else UB.

  (** ExactGaussianKDE::query(matrix), kde.cpp:698-764. [r] is a possible result on a machine with T hardware threads
      (one for each outcome of the scheduling of the pool). *)
  Definition exact_query_matrix (T : nat) (k : exact_kde) (qs : list point) (r : outcome (list W)) : Prop :=
    if length qs <? T then r = Ok (map (exact_query k) qs)
    else match chunk_size (length qs) T with
         | Ok cs => exists chunks : list (list W),
             par_results T false (fun c => map (fun i => gaussian_kde_exact (ex_a k) (ex_data k) (nth i qs [])) (chunk_rows (length qs) T cs c)) T chunks /\
             r = store_results (length qs) (concat chunks)
         | _ => r = UB
         end.

  (** ** Sampling a neighbour; ExactGaussianKDE::sample_neighbors, kde.cpp:661-696.
      std::sort is modelled by insertion sort (equal targets are indistinguishable), std::lower_bound on the sorted deque by taking the longest prefix of
      elements below [total]. *)
  Fixpoint take_below (total : W) (targets : list W) : nat :=
    match targets with
    | [] => 0
    | t :: ts => if wltb t total then 1 + take_below total ts else 0
    end.
  (** repo: kde.cpp:671-689: the loop over the data points. *)
  Fixpoint sample_loop (i : nat) (ks : list W) (total : W) (targets : list W) : list nat :=
    match ks with
    | [] => []
    | k :: ks' =>
        let total' := wadd total k in
        let c := take_below total' targets in
        let targets' := skipn c targets in
        repeat i c ++ match targets' with [] => [] | _ => sample_loop (i + 1) ks' total' targets' end
    end.
  (** repo: kde.cpp:661-696. *)
  Definition sample_neighbors (k : exact_kde) (q : point) (degree : W) (rs : list W) : list nat :=
    sample_loop (ex_min k) (map (gaussian_kernel (ex_a k) q) (firstn (ex_max k - ex_min k) (ex_data k))) w0
      (stable_sort wltb (map (fun r => wmul degree r) rs)).

  (** ** Locality sensitive hashing *)
  (** LSHFunction::apply, lsh.cpp:75-84: a is the random vector (already divided by 4), b the offset *)
  Definition lsh_apply (av : list W) (b : W) (p : point) : Z :=
    wfloor (wadd (fold_left (fun v xa => wadd v (wmul (fst xa) (snd xa))) (combine p av) w0) b).
  (** MultiLSHFunction::apply, lsh.cpp:125-134: rows of rand_proj, rand_offset, uhash_vector. The integer arithmetic is unbounded here, 64-bit in
      the code. Eigen's product may add the terms of a row in another order. *)
  Definition multi_lsh_apply (rows : list (list W * W * Z)) (p : point) : Z :=
    fold_left (fun h r => (h + snd r * lsh_apply (fst (fst r)) (snd (fst r)) p)%Z) rows 0%Z.

  (** class E2LSH: one hash function and one table (bucket -> indices of points) for each of the L tables. lsh.h:167-247 *)
  Record e2lsh := mkE2 { e_hash : list (point -> Z); e_tables : list (list (Z * list nat)); e_points : list point }.

  (** hashTables[l][h].push_back(i), after creating an empty bucket if needed. lsh.cpp:164-167 *)
  Fixpoint bucket_add (h : Z) (i : nat) (t : list (Z * list nat)) : list (Z * list nat) :=
    match t with
    | [] => [(h, [i])]
    | (h', is) :: t' => if (h' =? h)%Z then (h', is ++ [i]) :: t' else (h', is) :: bucket_add h i t'
    end.
  Fixpoint bucket_get (h : Z) (t : list (Z * list nat)) : option (list nat) :=
    match t with [] => None | (h', is) :: t' => if (h' =? h)%Z then Some is else bucket_get h t' end.

  (** Constructor, lsh.cpp:139-170, for given hash functions (the outcome of initialise_hash_functions, lsh.cpp:172-182). *)
  Definition e2lsh_new (hs : list (point -> Z)) (pts : list point) : e2lsh :=
    mkE2 hs
      (fold_left (fun tabs i => map (fun ht => bucket_add (fst ht (nth i pts [])) i (snd ht)) (combine hs tabs)) (seq 0 (length pts)) (map (fun _ => []) hs))
      pts.

  (** get_near_neighbors, lsh.cpp:188-207: returns the indices; the points are looked up below. *)
  Fixpoint near_scan (cands near : list nat) : list nat :=
    match cands with
    | [] => near
    | c :: cs => near_scan cs (if existsb (Nat.eqb c) near then near else near ++ [c])
    end.
  Definition near_indices (e : e2lsh) (q : point) : list nat :=
    fold_left (fun near ht => match bucket_get (fst ht q) (snd ht) with Some is => near_scan is near | None => near end)
      (combine (e_hash e) (e_tables e)) [].
  Definition get_near_neighbors (e : e2lsh) (q : point) : list point := map (fun i => nth i (e_points e) []) (near_indices e q).

  (** ** The CKNS estimator *)
  (** kde.cpp:107-110 *)
  Definition ckns_J (n log_nmu : Z) : Z := (wceil (wlog2 (wofZ n)) - log_nmu)%Z.
  (** MIN(1, x), definitions.h:21 *)
  Definition wmin1 (x : W) : W := if wltb w1 x then w1 else x.
  (** kde.cpp:120-125 *)
  Definition ckns_p_sampling (j log_nmu n offset : Z) : W :=
    if (j =? 0)%Z then wmin1 (wdiv (wpow2 (- offset)) (wofZ n))
    else wmin1 (wmul (wpow2 (- (j + offset))) (wpow2 (- log_nmu))).
  (** kde.cpp:127-129 *)
  Definition rj_squared (j : Z) (a : W) : W := wdiv (wmul (wofZ j) wLOG_TWO) a.

  (** class CKNSGaussianKDEHashUnit *)
  Record hunit := mkUnit { u_n : Z; u_a : W; u_log_nmu : Z; u_j : Z; u_J : Z; u_offset : Z;
    u_final : bool; u_below : bool; u_data : list point; u_lsh : option e2lsh }.

  (** starting_idx and num_sampled_points, kde.cpp:190-198. The cast in [(StagInt) (1 - 2 * p_sampling) * n] applies to the
      parenthesis only; it truncates, which is floor for the non-negative number here. *)
  Definition num_sampled (p : W) (n : Z) : Z := wfloor (wmul p (wofZ n)).
  Definition starting_idx (p : W) (n : Z) : Z :=
    if wleb p (wdiv w1 (wadd w1 w1)) then (wfloor (wsub w1 (wmul (wadd w1 w1) p)) * n)%Z else 0%Z.

  (** HASH_UNIT_CUTOFF, kde.cpp:32 *)
  Definition hash_unit_cutoff : Z := 3000%Z.

  (** The rows starting_idx .. starting_idx + num - 1 of the data, kde.cpp:200-204 *)
  Definition sampled_points (data : list point) (start num : Z) : list point :=
    map (fun i => nth i data []) (seq (Z.to_nat start) (Z.to_nat num)).

  (** Constructor, kde.cpp:169-230. [hs] stands for the hash functions drawn for this unit (E2LSH's constructor); their number (kde.cpp:142-155) is
      not modelled. *)
  Definition hunit_new (a : W) (data : list point) (log_nmu j offset : Z) (hs : list (point -> Z)) : hunit :=
    let n := Z.of_nat (length data) in
    let p := ckns_p_sampling j log_nmu n offset in
    let pts := sampled_points data (starting_idx p n) (num_sampled p n) in
    if (j =? 0)%Z then mkUnit n a log_nmu j (ckns_J n log_nmu) offset true false pts None
    else if (Z.of_nat (length pts) <=? hash_unit_cutoff)%Z then mkUnit n a log_nmu j (ckns_J n log_nmu) offset false true pts None
    else mkUnit n a log_nmu j (ckns_J n log_nmu) offset false false [] (Some (e2lsh_new hs pts)).

  (** query_neighbors, kde.cpp:232-269 *)
  Definition inner_radius (u : hunit) : W :=
    if (1 <? u_j u)%Z then rj_squared (u_j u - 1) (u_a u)
    else if (u_j u =? 0)%Z then rj_squared (u_J u) (u_a u)
    else w0.
  Definition query_neighbors (u : hunit) (q : point) (nbrs : list point) : W :=
    let p := ckns_p_sampling (u_j u) (u_log_nmu u) (u_n u) (u_offset u) in
    fold_left (fun total x =>
      let d := if u_final u then squared_distance q x else squared_distance_at_most q x (rj_squared (u_j u) (u_a u)) in
      if wltb (inner_radius u) d then wadd total (wdiv (gaussian_kernel_sq (u_a u) d) p) else total) nbrs w0.

  (** kde.cpp:271-278 *)
  Definition hunit_query (u : hunit) (q : point) : W :=
    if u_below u || u_final u then query_neighbors u q (u_data u)
    else query_neighbors u q (match u_lsh u with Some e => get_near_neighbors e q | None => [] end).

  (** class CKNSGaussianKDE: hash_units[log_nmu_iter][iter] is the list of units of that cell. kde.h *)
  Record ckns := mkCkns { c_n : Z; c_max_log_nmu : Z; c_iters : nat; c_k1 : nat; c_units : list (list (list hunit)) }.
  Definition c_unit_query (k : ckns) (lni iter : nat) (j : nat) (q : point) : W :=
    match nth_error (nth iter (nth lni (c_units k) []) []) j with Some u => hunit_query u q | None => w0 end.

  (** median, kde.cpp:448-453: std::nth_element puts the element of rank size/2 there; v[0] of an empty vector is undefined. *)
  Definition median (v : list W) : outcome W :=
    match v with [] => UB | _ => Ok (nth (length v / 2) (stable_sort wltb v) w0) end.

  (** log_nmu of an iteration, kde.cpp:345, 529, 596; number of shells, kde.cpp:346, 530, 597 *)
  Definition log_nmu_of (k : ckns) (lni : nat) : Z := (c_max_log_nmu k - Z.of_nat lni * 2)%Z.
  Definition shells (k : ckns) (lni : nat) : list nat := seq 0 (Z.to_nat (ckns_J (c_n k) (log_nmu_of k lni) + 1)).
  (** log(mu) >= 1.3 * log_nmu, kde.cpp:559, 615 *)
  Definition accepts (k : ckns) (lni : nat) (mu : W) : bool := wleb (wmul w13 (wofZ (log_nmu_of k lni))) (wlog mu).

  (** Estimate of one copy, kde.cpp:602-609 *)
  Definition iter_estimate (k : ckns) (q : point) (lni iter : nat) : W :=
    fold_left (fun s j => wadd s (c_unit_query k lni iter j q)) (shells k lni) w0.

  (** CKNSGaussianKDE::query(point), kde.cpp:588-624 *)
  Fixpoint ckns_query_loop (k : ckns) (q : point) (lnis : list nat) (last : W) : outcome W :=
    match lnis with
    | [] => Ok (wdiv last (wofZ (c_n k)))
    | lni :: rest =>
        do mu <- median (map (iter_estimate k q lni) (seq 0 (c_k1 k)));
        if accepts k lni mu then Ok (wdiv mu (wofZ (c_n k))) else ckns_query_loop k q rest mu
    end.
  Definition ckns_query (k : ckns) (q : point) : outcome W := ckns_query_loop k q (seq 0 (c_iters k)) w0.

  (** chunk_query, kde.cpp:511-586. [ord] is the iteration order of the hash set unsolved_queries: any function that permutes its argument; the first argument
      distinguishes the loops over the set. Maps from row numbers are functions. *)
  Definition fupd {B} (f : nat -> B) (i : nat) (v : B) : nat -> B := fun x => if x =? i then v else f x.

  (** the triple loop kde.cpp:541-550 *)
  Definition add_estimates (k : ckns) (qs : list point) (lni : nat) (order : nat -> list nat) (est : nat -> list W) : nat -> list W :=
    fold_left (fun est iter =>
      fold_left (fun est j =>
        fold_left (fun est i => fupd est i (upd_nth (est i) iter (fun v => wadd v (c_unit_query k lni iter j (nth i qs [])))))
          (order (iter * length (shells k lni) + j)) est) (shells k lni) est) (seq 0 (c_k1 k)) est.

  Record cq_state := mkCq { cq_results : list W; cq_unsolved : list nat; cq_last : nat -> W }.

  (** kde.cpp:552-577: the medians; returns the new results, the newly solved rows and last_mu_estimates *)
  Fixpoint solve_rows (k : ckns) (lni chunk_start : nat) (est : nat -> list W) (rows : list nat) (res : list W) (solved : list nat) (last : nat -> W)
    : outcome (list W * list nat * (nat -> W)) :=
    match rows with
    | [] => Ok (res, solved, last)
    | i :: rows' =>
        do mu <- median (est i);
        if accepts k lni mu
        then solve_rows k lni chunk_start est rows' (upd_nth res (i - chunk_start) (fun _ => wdiv mu (wofZ (c_n k)))) (solved ++ [i]) (fupd last i mu)
        else solve_rows k lni chunk_start est rows' res solved (fupd last i mu)
    end.

  (** repo: kde.cpp:529-578: one iteration of the outer loop. *)
  Definition chunk_iteration (ord : nat -> list nat -> list nat) (k : ckns) (qs : list point) (chunk_start lni : nat) (s : cq_state) : outcome cq_state :=
    let est := add_estimates k qs lni (fun c => ord (2 + c) (cq_unsolved s)) (fun _ => repeat w0 (c_k1 k)) in
    do r <- solve_rows k lni chunk_start est (ord 0 (cq_unsolved s)) (cq_results s) [] (cq_last s);
    let '(res, solved, last) := r in
    Ok (mkCq res (filter (fun i => negb (existsb (Nat.eqb i) solved)) (cq_unsolved s)) last).

  (** repo: kde.cpp:526-579: the outer loop. *)
  Fixpoint chunk_loop (ord : nat -> nat -> list nat -> list nat) (k : ckns) (qs : list point) (chunk_start : nat) (lnis : list nat) (s : cq_state) : outcome cq_state :=
    match lnis with
    | [] => Ok s
    | lni :: rest => do s' <- chunk_iteration (ord lni) k qs chunk_start lni s; chunk_loop ord k qs chunk_start rest s'
    end.

  (** repo: kde.cpp:511-586. *)
  Definition chunk_query (ord : nat -> nat -> list nat -> list nat) (k : ckns) (qs : list point) (start len : nat) : outcome (list W) :=
    do s <- chunk_loop ord k qs start (seq 0 (c_iters k)) (mkCq (repeat w0 len) (seq start len) (fun _ => w0));
    Ok (fold_left (fun res i => upd_nth res (i - start) (fun _ => wdiv (cq_last s i) (wofZ (c_n k)))) (ord (c_iters k) 1 (cq_unsolved s)) (cq_results s)).

  (** all futures' values, or undefined behaviour if a task had undefined behaviour *)
  Fixpoint sequence {A} (l : list (outcome A)) : outcome (list A) :=
    match l with [] => Ok [] | x :: l' => do y <- x; do ys <- sequence l'; Ok (y :: ys) end.

  (** CKNSGaussianKDE::query(matrix), kde.cpp:455-509 *)
  Definition ckns_query_matrix (ord : nat -> nat -> nat -> list nat -> list nat) (T : nat) (k : ckns) (qs : list point) (r : outcome (list W)) : Prop :=
    if length qs <? T then r = chunk_query (ord 0) k qs 0 (length qs)
    else match chunk_size (length qs) T with
         | Ok cs => exists chunks : list (outcome (list W)),
             par_results T false (fun c => chunk_query (ord c) k qs (chunk_start cs c) (chunk_len (length qs) T cs c)) T chunks /\
             r = (do vs <- sequence chunks; store_results (length qs) (concat vs))
         | _ => r = UB
         end.

  (** *** Construction of the estimator, CKNSGaussianKDE::initialize, kde.cpp:285-380, and add_hash_unit, kde.cpp:429-443.
      [copies] are the k1 permuted copies of the data (kde.cpp:326-334; the permutation is arbitrary), [hs] the hash functions drawn for the
      unit of a task. One task for each (iter, log_nmu_iter, j), pushed in this order; it appends its unit to a cell while holding hash_units_mutex. *)
  Definition init_tasks (n max_log_nmu : Z) (iters k1 : nat) : list (nat * nat * nat) :=
    flat_map (fun iter => flat_map (fun lni =>
      map (fun j => (iter, lni, j)) (seq 0 (Z.to_nat (ckns_J n (max_log_nmu - Z.of_nat lni * 2) + 1)))) (seq 0 iters)) (seq 0 k1).

  (** repo: kde.cpp:437-438: the hash unit made by one task. *)
  Definition task_unit (a : W) (copies : list (list point)) (max_log_nmu offset : Z) (hs : nat -> nat -> nat -> list (point -> Z)) (iter lni j : nat) : hunit :=
    hunit_new a (nth iter copies []) (max_log_nmu - Z.of_nat lni * 2) (Z.of_nat j) offset (hs iter lni j).

  (** repo: kde.cpp:440. *)
  Definition push_unit (lni iter : nat) (u : hunit) (grid : list (list (list hunit))) : list (list (list hunit)) :=
    upd_nth grid lni (fun row => upd_nth row iter (fun cell => cell ++ [u])).

  (** repo: kde.cpp:360-366: the task. *)
  Definition init_body (units : nat -> nat -> nat -> hunit) (tasks : list (nat * nat * nat)) (t : nat)
    : list (list (list (list hunit)) -> list (list (list hunit))) :=
    match nth_error tasks t with Some (iter, lni, j) => [push_unit lni iter (units iter lni j)] | None => [] end.

  (** min_log_nmu, max_log_nmu, num_log_nmu_iterations, kde.cpp:310-314 *)
  Definition max_log_nmu_of (n : Z) : Z := wceil (wlog2 (wofZ n)).
  Definition iterations_of (n : Z) (min_mu : W) : nat :=
    Z.to_nat (- ((- (max_log_nmu_of n - wfloor (wlog2 (wmul (wofZ n) min_mu)))) / 2) + 1).

  (** [k] is a possible result of the construction with T hardware threads. *)
  Definition ckns_init (T : nat) (a min_mu : W) (copies : list (list point)) (n offset : Z) (hs : nat -> nat -> nat -> list (point -> Z)) (k : ckns) : Prop :=
    let mx := max_log_nmu_of n in
    let its := iterations_of n min_mu in
    let k1 := length copies in
    let tasks := init_tasks n mx its k1 in
    exists s, reach (init_body (task_unit a copies mx offset hs) tasks) T false (par_prog (length tasks)) (repeat (repeat [] k1) its) s /\
      m s = MEnd /\ k = mkCkns n mx its k1 (sh s).
End Kde.
