(** Similarity graphs: stag_lib/cluster.cpp:626-1005. *)
From Verif Require Import Base Num Sparse Graph Cluster ThreadPool ThreadPoolTop Kde.
From Coq Require Import ZArith Permutation.

Section Sim.
  Context {W : Type} `{Num W} `{KNum W}.
  Notation point := (@point W).
  Notation triplet := (nat * nat * W)%type.

  (** ** similarity_graph, cluster.cpp:935-1005 *)
  (** The two loops over i in a range of rows and j in i .. n-1; cluster.cpp:943-953 and 977-987. *)
  Definition sim_rows (a : W) (data : list point) (rows : list nat) : list triplet :=
    flat_map (fun i => flat_map (fun j =>
      let w := gaussian_kernel a (nth i data []) (nth j data []) in
      (i, j, w) :: if i =? j then [] else [(j, i, w)]) (seq i (length data - i))) rows.

  (** [r] is a possible result with T hardware threads. The pool is stopped by its destructor (stop(true)). *)
  Definition similarity_graph (T : nat) (a : W) (data : list point) (r : outcome (graph W)) : Prop :=
    let n := length data in
    if n <=? T * 2 then r = from_triplets_graph n (sim_rows a data (seq 0 n))
    else match chunk_size n T with
         | Ok cs => exists chunks : list (list triplet),
             par_results T true (fun c => sim_rows a data (chunk_rows n T cs c)) T chunks /\ r = from_triplets_graph n (concat chunks)
         | _ => r = UB
         end.

  (** ** approximate_similarity_graph, cluster.cpp:626-932 *)
  (** class KDETreeEntry. A node covers the rows lo .. hi (inclusive). [Leaf]: below_cutoff, with the exact estimator; [Node] has an estimator iff its depth is above
      depth_cutoff. cluster.cpp:628-671, 775-789 *)
  Inductive ktree : Type :=
  | Leaf (lo hi : nat)
  | Node (lo hi : nat) (est : option (@ckns W)) (left right : ktree).

  (** Constructor, cluster.cpp:630-671, with T hardware threads. The estimator is built from K1 permuted copies of the rows lo .. hi and arbitrary hash functions.
      The differences max_idx - min_idx are integers: a range may be empty (hi = lo - 1 as an integer), which happens only for node_cutoff <= 0. *)
  Definition rows_of (data : list point) (lo hi : nat) : list point := map (fun i => nth i data []) (seq lo (hi + 1 - lo)).
  Inductive build (T : nat) (a : W) (data : list point) (depth_cutoff : Z) (node_cutoff : Z) : Z -> nat -> nat -> ktree -> Prop :=
  | build_leaf depth lo hi : (Z.of_nat hi - Z.of_nat lo < node_cutoff)%Z -> build T a data depth_cutoff node_cutoff depth lo hi (Leaf lo hi)
  | build_node depth lo hi est l r :
      (node_cutoff <= Z.of_nat hi - Z.of_nat lo)%Z ->
      match est with
      | None => (depth <= depth_cutoff)%Z
      | Some k => (depth_cutoff < depth)%Z /\ exists copies hs,
          Z.of_nat (length copies) = wceil (wmul w1 (wlog (wofZ (Z.of_nat hi - Z.of_nat lo)))) /\
          (forall c, In c copies -> Permutation c (rows_of data lo hi)) /\
          ckns_init T a (wdiv w1 (wofZ (Z.of_nat hi - Z.of_nat lo))) copies (Z.of_nat (hi + 1 - lo)) 0 hs k
      end ->
      build T a data depth_cutoff node_cutoff (depth + 1) lo ((lo + hi) / 2) l ->
      build T a data depth_cutoff node_cutoff (depth + 1) ((lo + hi) / 2 + 1) hi r ->
      build T a data depth_cutoff node_cutoff depth lo hi (Node lo hi est l r).

  (** n_node, cluster.cpp:636 *)
  Definition n_node (lo hi : nat) : W := wofZ (Z.of_nat hi - Z.of_nat lo).
  Definition leaf_kde (a : W) (data : list point) (lo hi : nat) : exact_kde := exact_kde_range data a lo (hi + 1).

  (** estimate_weight without the cache, cluster.cpp:673-700 *)
  Fixpoint tree_weight (a : W) (data : list point) (t : ktree) (q : point) : outcome W :=
    match t with
    | Leaf lo hi => Ok (wmul (n_node lo hi) (exact_query (leaf_kde a data lo hi) q))
    | Node lo hi (Some k) _ _ => do v <- ckns_query k q; Ok (wmul (n_node lo hi) v)
    | Node _ _ None l r => do x <- tree_weight a data l q; do y <- tree_weight a data r q; Ok (wadd x y)
    end.

  (** estimate_weights(data): the matrix queries of all rows, cluster.cpp:702-741 *)
  Inductive ews (ord : nat -> nat -> nat -> list nat -> list nat) (T : nat) (a : W) (data : list point) : ktree -> outcome (list W) -> Prop :=
  | ews_leaf lo hi r : exact_query_matrix T (leaf_kde a data lo hi) data r ->
      ews ord T a data (Leaf lo hi) (do vs <- r; Ok (map (fun v => wmul (n_node lo hi) v) vs))
  | ews_est lo hi k l r v : ckns_query_matrix ord T k data v ->
      ews ord T a data (Node lo hi (Some k) l r) (do vs <- v; Ok (map (fun v => wmul (n_node lo hi) v) vs))
  | ews_sum lo hi l r x y : ews ord T a data l x -> ews ord T a data r y ->
      ews ord T a data (Node lo hi None l r) (do xs <- x; do ys <- y; Ok (map (fun p => wadd (fst p) (snd p)) (combine xs ys))).

  (** estimate_weight with the cache, cluster.cpp:673-700. [H] is the history of all insertions (node, row, value) into the caches, by any thread. A lookup may miss
      (the entry may have been inserted later) or find an entry of the history; cache_mutex makes the accesses atomic. [ev H t i v]: a call for row i may return v. *)
  Definition entry := (ktree * nat * W)%type.
  Inductive ev (a : W) (data : list point) (H : list entry) : ktree -> nat -> outcome W -> Prop :=
  | ev_hit t i v : In (t, i, v) H -> ev a data H t i (Ok v)
  | ev_leaf lo hi i : ev a data H (Leaf lo hi) i (Ok (wmul (n_node lo hi) (exact_query (leaf_kde a data lo hi) (nth i data []))))
  | ev_est lo hi k l r i : ev a data H (Node lo hi (Some k) l r) i (do v <- ckns_query k (nth i data []); Ok (wmul (n_node lo hi) v))
  | ev_sum lo hi l r i x y : ev a data H l i x -> ev a data H r i y ->
      ev a data H (Node lo hi None l r) i (do x' <- x; do y' <- y; Ok (wadd x' y')).

  (** the nodes of a tree *)
  Inductive subtree : ktree -> ktree -> Prop :=
  | sub_refl t : subtree t t
  | sub_left t lo hi est l r : subtree t l -> subtree t (Node lo hi est l r)
  | sub_right t lo hi est l r : subtree t r -> subtree t (Node lo hi est l r).
  (** Possible histories of the caches of the nodes of the tree [root]: insertions by estimate_weight (cluster.cpp:692) and by estimate_weights
      (cluster.cpp:732-734), in any order and as often as one likes. *)
  Inductive hist (ord : nat -> nat -> nat -> list nat -> list nat) (T : nat) (a : W) (data : list point) (root : ktree) : list entry -> Prop :=
  | hist_nil : hist ord T a data root []
  | hist_insert H t i v : hist ord T a data root H -> subtree t root -> ev a data H t i (Ok v) -> hist ord T a data root (H ++ [(t, i, v)])
  | hist_all H t vs : hist ord T a data root H -> subtree t root -> ews ord T a data t (Ok vs) ->
      hist ord T a data root (H ++ map (fun iv => (t, fst iv, snd iv)) (combine (seq 0 (length vs)) vs)).

  (** sample_neighbors, cluster.cpp:743-773: [tree_samples t i num r] means that r is a possible answer for row i, for some outcomes of the random draws: [unif] of
      uniform_real_distribution(0,1), any value in 0 .. num of the binomial distribution. The two estimates at a node are only used for its parameter
      left / (left + right), for which std::binomial_distribution requires 0 <= p <= 1. *)
  Definition binomial_ok (x y : W) : bool := negb (weqb (wadd x y) w0) && wleb w0 (wdiv x (wadd x y)) && wleb (wdiv x (wadd x y)) w1.
  Fixpoint tree_samples (unif : W -> Prop) (a : W) (data : list point) (H : list entry) (t : ktree) (i num : nat) (r : outcome (list nat)) : Prop :=
    match t with
    | Leaf lo hi => exists rs d, length rs = num /\ (forall x, In x rs -> unif x) /\ ev a data H t i d /\
        r = (do deg <- d; Ok (sample_neighbors (leaf_kde a data lo hi) (nth i data []) deg rs))
    | Node lo hi est lt rt => exists x y nl ls rs, ev a data H lt i x /\ ev a data H rt i y /\ nl <= num /\
        (if nl =? 0 then ls = Ok [] else tree_samples unif a data H lt i nl ls) /\
        (if nl <? num then tree_samples unif a data H rt i (num - nl) rs else rs = Ok []) /\
        r = (do x' <- x; do y' <- y; if binomial_ok x' y' then do a1 <- ls; do a2 <- rs; Ok (a1 ++ a2) else UB)
    end.

  (** sample_asg_edges, cluster.cpp:791-833: the writes into the shared array of edges for the rows of a chunk, given the degrees and the samples of each row;
      too few samples: read beyond the end of node_samples. next_index starts at 2 * chunk_start * edges_per_node and is incremented at every write. *)
  Definition row_writes (epn : nat) (w5 : W) (degrees : list W) (samples : nat -> list nat) (i : nat) : list triplet :=
    let w := wdiv (nth i degrees w0) w5 in
    flat_map (fun j => [(i, nth j (samples i) 0, w); (nth j (samples i) 0, i, w)]) (seq 0 epn).
  Definition chunk_writes (epn : nat) (w5 : W) (degrees : list W) (samples : nat -> list nat) (rows : list nat) (start : nat) : list (nat * triplet) :=
    combine (seq (2 * (start * epn)) (length rows * (2 * epn))) (flat_map (row_writes epn w5 degrees samples) rows).
  Definition write (x : nat * triplet) (edges : list triplet) : list triplet := upd_nth edges (fst x) (fun _ => snd x).

  (** edges_per_node, cluster.cpp:838: MIN((StagInt) (3 * log(n)), 2) *)
  Definition edges_per_node (n : nat) : Z := Z.min (wfloor (wmul (wofZ 3) (wlog (wofZ (Z.of_nat n))))) 2.

  (** approximate_similarity_graph, cluster.cpp:835-924, for n >= 2 rows ((StagInt) log(edges_per_node) needs edges_per_node >= 1; it is 2 then, and the cutoff 0).
      [r] is a possible result. *)
  Definition asg (unif : W -> Prop) (ord : nat -> nat -> nat -> list nat -> list nat) (T : nat) (a : W) (data : list point) (node_cutoff : Z) (r : outcome (graph W)) : Prop :=
    let n := length data in
    if (edges_per_node n <? 1)%Z then r = UB else
    let epn := Z.to_nat (edges_per_node n) in
    exists t degs, build T a data (wfloor (wlog (wofZ (edges_per_node n)))) node_cutoff 0 0 (n - 1) t /\ ews ord T a data t degs /\
      exists H (samples : nat -> outcome (list nat)), hist ord T a data t H /\ (forall i, i < n -> tree_samples unif a data H t i epn (samples i)) /\
      match degs with
      | Ok degrees =>
          if forallb (fun i => match samples i with Ok s => epn <=? length s | _ => false end) (seq 0 n) then
            let smp i := match samples i with Ok s => s | _ => [] end in
            let edges0 := repeat (0, 0, w0) (2 * (n * epn)) in
            let w5 := wofZ 5 in
            if n <=? T * 2 then r = from_triplets_graph n (fold_left (fun e x => write x e) (chunk_writes epn w5 degrees smp (seq 0 n) 0) edges0)
            else match chunk_size n T with
                 | Ok cs => exists s, reach (fun c => map write (chunk_writes epn w5 degrees smp (chunk_rows n T cs c) (chunk_start cs c))) T true (par_prog T) edges0 s /\
                     m s = MEnd /\ r = from_triplets_graph n (sh s)
                 | _ => r = UB
                 end
          else r = UB
      | _ => r = UB
      end.
End Sim.
