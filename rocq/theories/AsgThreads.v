(** approximate_similarity_graph at the level of single accesses to the shared data: stag_lib/cluster.cpp:673-932, run by interleaved threads (Threads.v).

    SimGraph.v describes the same code by a history of the caches; here every lock, every access to a cache, to the array of edges and to the global random number
    generator is a step of its own, and the threads are interleaved arbitrarily. *)
From Verif Require Import Base Num Sparse Graph Cluster ThreadPool ThreadPoolFacts Kde SimGraph Threads.
From Coq Require Import ZArith.
Local Open Scope nat_scope.

(** A node of the tree, as the way from the root: true = left_child, false = right_child. *)
Definition path := list bool.
Definition path_dec : forall p q : path, {p = q} + {p <> q} := list_eq_dec Bool.bool_dec.

(** Shared objects: the map cached_weights of a node (cluster.cpp:785), an element of the vector of edges (cluster.cpp:876), the global generator (random.cpp:11).
    The data, the tree without the caches, the estimators and the degrees are only read while the threads run. *)
Inductive aloc : Type := LCache (p : path) | LSlot (k : nat) | LRng.

Section Asg.
  Context {W : Type} `{Num W} `{KNum W}.
  Notation point := (@point W).
  Notation triplet := (nat * nat * W)%type.
  Notation ktree := (@ktree W).

  Record amem : Type := mkmem { caches : path -> nat -> option W; edges : list triplet }.
  Notation prog := (@prog aloc path amem).

  Definition cput (c : path -> nat -> option W) (p : path) (i : nat) (v : W) : path -> nat -> option W :=
    fun p' i' => if path_dec p' p then if i' =? i then Some v else c p' i' else c p' i'.

  (** cached_weights.contains(q_id), cluster.cpp:676 *)
  Definition r_contains (p : path) (i : nat) (s : amem) (x : bool) (s' : amem) : Prop := s' = s /\ x = match caches s p i with Some _ => true | None => false end.
  (** cached_weights[q_id] as a value, cluster.cpp:696: inserts 0 when the key is missing *)
  Definition r_get (p : path) (i : nat) (s : amem) (x : W) (s' : amem) : Prop :=
    match caches s p i with Some v => x = v /\ s' = s | None => x = w0 /\ s' = mkmem (cput (caches s) p i w0) (edges s) end.
  (** cached_weights[q_id] = weight, cluster.cpp:692 *)
  Definition r_insert (p : path) (i : nat) (v : W) (s : amem) (x : unit) (s' : amem) : Prop := s' = mkmem (cput (caches s) p i v) (edges s).
  (** A draw from the global generator with a distribution of support D. The state of the generator is not modelled. *)
  Definition r_draw {X : Type} (D : X -> Prop) (s : amem) (x : X) (s' : amem) : Prop := D x /\ s' = s.
  (** edges[next_index] = EdgeTriplet(...), cluster.cpp:819, 821 *)
  Definition r_store (k : nat) (e : triplet) (s : amem) (x : unit) (s' : amem) : Prop := s' = mkmem (caches s) (upd_nth (edges s) k (fun _ => e)).

  Variable unif : W -> Prop.
  Variable a : W.
  Variable data : list point.
  (** evaluation order of the two calls in left_child->estimate_weight(..) + right_child->estimate_weight(..), cluster.cpp:685: unspecified in C++ *)
  Variable lr : path -> bool.

  (** estimate_weight, cluster.cpp:673-700; k is what the caller does with the value *)
  Fixpoint est (t : ktree) (p : path) (i : nat) (k : W -> prog) {struct t} : prog :=
    Lock p (Op bool (LCache p) false (r_contains p i) (fun b =>
      if b then Op W (LCache p) true (r_get p i) (fun v => Unlock p (k v))
      else Unlock p (
        let insert v := Lock p (Op unit (LCache p) true (r_insert p i v) (fun _ => Unlock p (k v))) in
        match t with
        | Leaf lo hi => insert (wmul (n_node lo hi) (exact_query (leaf_kde a data lo hi) (nth i data [])))
        | Node lo hi (Some e) _ _ => match ckns_query e (nth i data []) with Ok v => insert (wmul (n_node lo hi) v) | _ => Undef end
        | Node _ _ None l r =>
            if lr p then est l (p ++ [true]) i (fun x => est r (p ++ [false]) i (fun y => insert (wadd x y)))
            else est r (p ++ [false]) i (fun y => est l (p ++ [true]) i (fun x => insert (wadd x y)))
        end))).

  (** the loop of draws, cluster.cpp:745-748 *)
  Fixpoint draws (num : nat) (k : list W -> prog) : prog :=
    match num with 0 => k [] | S num => Op W LRng true (r_draw unif) (fun x => draws num (fun xs => k (x :: xs))) end.

  (** KDETreeEntry::sample_neighbors, cluster.cpp:743-773; a parameter of std::binomial_distribution outside [0, 1] is undefined behaviour *)
  Fixpoint samp (t : ktree) (p : path) (i num : nat) (k : list nat -> prog) {struct t} : prog :=
    match t with
    | Leaf lo hi => draws num (fun rs => est t p i (fun deg => k (sample_neighbors (leaf_kde a data lo hi) (nth i data []) deg rs)))
    | Node lo hi e l r => est l (p ++ [true]) i (fun x => est r (p ++ [false]) i (fun y =>
        if binomial_ok x y then
          Op nat LRng true (r_draw (fun m => m <= num)) (fun nl =>
            let right ls := if nl <? num then samp r (p ++ [false]) i (num - nl) (fun rs => k (ls ++ rs)) else k (ls ++ []) in
            if nl =? 0 then right [] else samp l (p ++ [true]) i nl right)
        else Undef))
    end.

  Variable root : ktree.
  Variable epn : nat.                  (* edges_per_node *)
  Variable degrees : list W.
  Variable size : nat.                 (* edges.size() *)

  (** the writes of a row, cluster.cpp:813-823; beyond the end of the vector: undefined behaviour *)
  Fixpoint store_all (l : list (nat * triplet)) (k : prog) : prog :=
    match l with
    | [] => k
    | (j, e) :: l => if j <? size then Op unit (LSlot j) true (r_store j e) (fun _ => store_all l k) else Undef
    end.

  (** the loop over the rows of a chunk, cluster.cpp:807-832; the progress bar is not modelled *)
  Fixpoint rows_prog (rows : list nat) (next_index : nat) (k : prog) : prog :=
    match rows with
    | [] => k
    | i :: rows => samp root [] i epn (fun s =>
        if epn <=? length s then store_all (combine (seq next_index (2 * epn)) (row_writes epn (wofZ 5) degrees (fun _ => s) i)) (rows_prog rows (next_index + 2 * epn) k) else Undef)
    end.

  (** sample_asg_edges, cluster.cpp:791-833; the first draw is for progress_offset (line 802), whose value is not used otherwise *)
  Definition task (rows : list nat) (start : nat) : prog := Op W LRng true (r_draw unif) (fun _ => rows_prog rows (2 * (start * epn)) Stop).
End Asg.

Section Top.
  Context {W : Type} `{Num W} `{KNum W}.
  Notation point := (@point W).
  Notation triplet := (nat * nat * W)%type.
  Notation ktree := (@ktree W).

  (** estimate_weights(data) with what it leaves in the caches, cluster.cpp:702-741 *)
  Inductive ews_caches (ord : nat -> nat -> nat -> list nat -> list nat) (T : nat) (a : W) (data : list point) : ktree -> outcome (list W) -> (path -> nat -> option W) -> Prop :=
  | ewc_leaf lo hi r c : exact_query_matrix T (leaf_kde a data lo hi) data r ->
      let w := (do vs <- r; Ok (map (fun v => wmul (n_node lo hi) v) vs)) in
      (forall p i, c p i = match p, w with [], Ok vs => nth_error vs i | _, _ => None end) ->
      ews_caches ord T a data (Leaf lo hi) w c
  | ewc_est lo hi k l r v c : ckns_query_matrix ord T k data v ->
      let w := (do vs <- v; Ok (map (fun v => wmul (n_node lo hi) v) vs)) in
      (forall p i, c p i = match p, w with [], Ok vs => nth_error vs i | _, _ => None end) ->
      ews_caches ord T a data (Node lo hi (Some k) l r) w c
  | ewc_sum lo hi l r x y cl cr c : ews_caches ord T a data l x cl -> ews_caches ord T a data r y cr ->
      let w := (do xs <- x; do ys <- y; Ok (map (fun p => wadd (fst p) (snd p)) (combine xs ys))) in
      (forall p i, c p i = match p with [] => match w with Ok vs => nth_error vs i | _ => None end | true :: p => cl p i | false :: p => cr p i end) ->
      ews_caches ord T a data (Node lo hi None l r) w c.

  (** The work of the threads: the number of workers and, for each task, the rows and chunk_start. A small number of rows is handled by the calling thread alone.
      cluster.cpp:875-912 *)
  Definition chunk_plan (n T : nat) : outcome (nat * list (list nat * nat)) :=
    if n <=? T * 2 then Ok (1, [(seq 0 n, 0)])
    else do cs <- chunk_size n T; Ok (T, map (fun c => (chunk_rows n T cs c, chunk_start cs c)) (seq 0 T)).

  (** the tasks and the memory at the start *)
  Definition asg_start (unif : W -> Prop) (a : W) (data : list point) (lr : path -> bool) (t : ktree) (epn : nat) (degrees : list W) (P : nat) (chunks : list (list nat * nat))
    (c0 : path -> nat -> option W) : st :=
    start P (map (fun c => task unif a data lr t epn degrees (2 * (length data * epn)) (fst c) (snd c)) chunks) (mkmem c0 (repeat (0, 0, w0) (2 * (length data * epn)))).

  (** approximate_similarity_graph, cluster.cpp:835-924: r is the result of some interleaving. *)
  Definition asg_threads (unif : W -> Prop) (ord : nat -> nat -> nat -> list nat -> list nat) (lr : path -> bool) (T : nat) (a : W) (data : list point) (node_cutoff : Z) (r : outcome (graph W)) : Prop :=
    let n := length data in
    if (edges_per_node n <? 1)%Z then r = UB else
    let epn := Z.to_nat (edges_per_node n) in
    exists t degs c0, build T a data (wfloor (wlog (wofZ (edges_per_node n)))) node_cutoff 0 0 (n - 1) t /\ ews_caches ord T a data t degs c0 /\
      match degs with
      | Ok degrees =>
          match chunk_plan n T with
          | Ok (P, chunks) => exists s, steps path_dec (asg_start unif a data lr t epn degrees P chunks c0) s /\
              (finished s /\ r = from_triplets_graph n (edges (shared s)) \/ undefined s /\ r = UB)
          | _ => r = UB
          end
      | _ => r = UB
      end.
End Top.
