(** Model of stag::Graph (stag_lib/graph.cpp, stag_lib/graph.h). *)
From Verif Require Import Base Num Sparse.

(** A lazily computed matrix member and its "initialised" flag.
    repo: graph.h private members [lap_init_]/[laplacian_matrix_], ... *)
Record cache (W : Type) : Type := mkCache { c_init : bool; c_mat : sprs W }.

(** repo: graph.h class Graph, private data members. *)
Record graph (W : Type) : Type := mkGraph {
  g_n : nat;               (* number_of_vertices_ *)
  g_adj : sprs W;          (* adjacency_matrix_ *)
  g_loops : bool;          (* has_self_loops_ *)
  g_lap : cache W; g_slap : cache W; g_nlap : cache W; g_nslap : cache W;
  g_deg : cache W; g_inv : cache W; g_lrw : cache W }.
Arguments mkCache {W}. Arguments c_init {W}. Arguments c_mat {W}.
Arguments mkGraph {W}. Arguments g_n {W}. Arguments g_adj {W}. Arguments g_loops {W}. Arguments g_lap {W}. Arguments g_slap {W}. Arguments g_nlap {W}.
Arguments g_nslap {W}. Arguments g_deg {W}. Arguments g_inv {W}. Arguments g_lrw {W}.

Section Graph.
  Context {W : Type} `{Num W}.

  (** repo: stag_lib/graph.h struct edge. *)
  Record edge : Type := mkEdge { v1 : nat; v2 : nat; ewt : W }.

  Local Notation cache := (cache W).
  Local Notation graph := (graph W).

  Definition no_cache : cache := mkCache false (sp_empty 0 0).

  (** repo: graph.cpp:39-53, the scan over all stored entries:
      [found_negative_value], [positive_off_diagonal_value] (set by the else
      branch, hence also by a stored 0) and [diagonally_dominant]. *)
  Definition found_negative (M : sprs W) : bool :=
    existsb (fun c => existsb (fun e => wltb (snd e) w0) c) (sp_cols M).
  Definition positive_off_diagonal (M : sprs W) : bool :=
    existsb (fun '(k, c) => existsb (fun e => negb (wltb (snd e) w0) && negb (fst e =? k)) c)
            (combine (seq 0 (sp_ncols M)) (sp_cols M)).
  Definition diagonally_dominant (M : sprs W) : bool :=
    forallb (fun c => negb (wltb (wsum (map snd c)) w0)) (sp_cols M).

  (** repo: graph.cpp:26-85 adjacency_from_adj_or_lap. *)
  Definition adjacency_from_adj_or_lap (M : sprs W) : outcome (sprs W) :=
    do A <- (if found_negative M then
               if positive_off_diagonal M then Throw DomainError
               else if negb (diagonally_dominant M) then Throw DomainError
               else Ok (fold_left (fun A i => coeffRef_set A i i (sp_rowsum M i))
                                  (seq 0 (sp_ncols M)) (sp_map wopp M))
             else Ok M);
    Ok (sp_prune (fun v => wltb weps v) A).

  (** repo: graph.cpp:95-101 (and 118-124, 263-270): is some diagonal entry != 0? *)
  Definition scan_self_loops (n : nat) (A : sprs W) : bool :=
    existsb (fun i => negb (weqb (coeff A i i) w0)) (seq 0 n).

  (** The object with adjacency matrix [A] and no cached matrix.
      repo: graph.cpp:91-110. *)
  Definition fresh_graph (A : sprs W) : graph :=
    let n := sp_ncols A in
    mkGraph n A (scan_self_loops n A) no_cache no_cache no_cache no_cache no_cache no_cache no_cache.

  (** repo: graph.cpp:87-114 Graph::Graph(const SprsMat&), with self_test_
      (475-480).  Simplification: a non-square matrix is reported as undefined
      behaviour (isSymmetric and coeff(i,i) access entries out of range). *)
  Definition make_graph (M : sprs W) : outcome graph :=
    if negb (sp_rows M =? sp_ncols M) then UB
    else do A <- adjacency_from_adj_or_lap M;
         if is_symmetric A then Ok (fresh_graph A) else Throw DomainError.

  (** repo: graph.cpp:116-145 Graph::Graph(outerStarts, innerIndices, values). *)
  Definition make_graph_vectors (st inn : list nat) (vals : list W) : outcome graph :=
    do M <- from_vectors st inn vals; make_graph M.

  (** ** Lazily computed matrices *)

  (** repo: graph.cpp:566-583 initialise_degree_matrix_. *)
  Definition deg_mat (A : sprs W) : sprs W :=
    sp_diag (sp_ncols A) (fun i => wadd (sp_rowsum A i) (coeff A i i)).
  Definition init_deg (g : graph) : graph :=
    if c_init (g_deg g) then g
    else mkGraph (g_n g) (g_adj g) (g_loops g) (g_lap g) (g_slap g) (g_nlap g) (g_nslap g)
                 (mkCache true (deg_mat (g_adj g))) (g_inv g) (g_lrw g).

  (** repo: graph.cpp:482-496 initialise_laplacian_. *)
  Definition init_lap (g : graph) : graph :=
    if c_init (g_lap g) then g
    else let g := init_deg g in
         mkGraph (g_n g) (g_adj g) (g_loops g) (mkCache true (sp_sub (c_mat (g_deg g)) (g_adj g)))
                 (g_slap g) (g_nlap g) (g_nslap g) (g_deg g) (g_inv g) (g_lrw g).

  (** repo: graph.cpp:498-512 initialise_signless_laplacian_. *)
  Definition init_slap (g : graph) : graph :=
    if c_init (g_slap g) then g
    else let g := init_deg g in
         mkGraph (g_n g) (g_adj g) (g_loops g) (g_lap g)
                 (mkCache true (sp_add (c_mat (g_deg g)) (g_adj g)))
                 (g_nlap g) (g_nslap g) (g_deg g) (g_inv g) (g_lrw g).

  Definition identity_mat (n : nat) : sprs W := sp_diag n (fun _ => w1).
  (** repo: graph.cpp:522-527: diag(1 / sqrt(degree_matrix_.coeff(i,i))). *)
  Definition sqrt_inv_deg (n : nat) (D : sprs W) : sprs W :=
    sp_diag n (fun i => wdiv w1 (wsqrt (coeff D i i))).

  (** repo: graph.cpp:514-538 initialise_normalised_laplacian_. *)
  Definition init_nlap (g : graph) : graph :=
    if c_init (g_nlap g) then g
    else let g := init_deg g in
         let S := sqrt_inv_deg (g_n g) (c_mat (g_deg g)) in
         mkGraph (g_n g) (g_adj g) (g_loops g) (g_lap g) (g_slap g)
                 (mkCache true (sp_sub (identity_mat (g_n g)) (sp_mul (sp_mul S (g_adj g)) S)))
                 (g_nslap g) (g_deg g) (g_inv g) (g_lrw g).

  (** repo: graph.cpp:540-564 initialise_normalised_signless_laplacian_. *)
  Definition init_nslap (g : graph) : graph :=
    if c_init (g_nslap g) then g
    else let g := init_deg g in
         let S := sqrt_inv_deg (g_n g) (c_mat (g_deg g)) in
         mkGraph (g_n g) (g_adj g) (g_loops g) (g_lap g) (g_slap g) (g_nlap g)
                 (mkCache true (sp_add (identity_mat (g_n g)) (sp_mul (sp_mul S (g_adj g)) S)))
                 (g_deg g) (g_inv g) (g_lrw g).

  (** repo: graph.cpp:585-600 initialise_inverse_degree_matrix_. *)
  Definition init_inv (g : graph) : graph :=
    if c_init (g_inv g) then g
    else let g := init_deg g in
         mkGraph (g_n g) (g_adj g) (g_loops g) (g_lap g) (g_slap g) (g_nlap g) (g_nslap g) (g_deg g)
                 (mkCache true (sp_diag (sp_ncols (g_adj g)) (fun i => wdiv w1 (coeff (c_mat (g_deg g)) i i))))
                 (g_lrw g).

  Definition whalf : W := wdiv w1 (wadd w1 w1).   (* the literal 1./2 *)
  (** repo: graph.cpp:602-619 initialise_lazy_random_walk_matrix_. *)
  Definition init_lrw (g : graph) : graph :=
    if c_init (g_lrw g) then g
    else let g := init_inv g in
         mkGraph (g_n g) (g_adj g) (g_loops g) (g_lap g) (g_slap g) (g_nlap g) (g_nslap g) (g_deg g) (g_inv g)
                 (mkCache true (sp_add (sp_map (wmul whalf) (identity_mat (g_n g)))
                                       (sp_mul (sp_map (wmul whalf) (g_adj g)) (c_mat (g_inv g))))).

  (** The seven matrix queries.  repo: graph.cpp:147-188.  Each returns the
      updated object and the matrix the returned pointer designates. *)
  Inductive matq : Type := QLap | QSLap | QNLap | QNSLap | QDeg | QInv | QLrw.
  Definition mat_query (q : matq) (g : graph) : graph * sprs W :=
    match q with
    | QLap => let g := init_lap g in (g, c_mat (g_lap g))
    | QSLap => let g := init_slap g in (g, c_mat (g_slap g))
    | QNLap => let g := init_nlap g in (g, c_mat (g_nlap g))
    | QNSLap => let g := init_nslap g in (g, c_mat (g_nslap g))
    | QDeg => let g := init_deg g in (g, c_mat (g_deg g))
    | QInv => let g := init_inv g in (g, c_mat (g_inv g))
    | QLrw => let g := init_lrw g in (g, c_mat (g_lrw g))
    end.

  (** repo: graph.cpp:190-202 total_volume. *)
  Definition total_volume (g : graph) : graph * W :=
    let g := init_deg g in (g, wsum (sp_values (c_mat (g_deg g)))).
  (** repo: graph.cpp:204-206 average_degree. *)
  Definition average_degree (g : graph) : graph * W :=
    let '(g, v) := total_volume g in (g, wdiv v (wnat (g_n g))).
  (** repo: graph.cpp:208-210. *)
  Definition number_of_vertices (g : graph) : nat := g_n g.
  (** repo: graph.cpp:212-229. *)
  Definition number_of_edges (g : graph) : nat :=
    let nnz := sp_nnz (g_adj g) in
    if g_loops g
    then (nnz + length (filter (fun i => negb (weqb (coeff (g_adj g) i i) w0)) (seq 0 (g_n g)))) / 2
    else nnz / 2.

  (** ** Updates *)

  (** repo: graph.cpp:231-250 add_edge. A negative index is out of bounds in
      coeffRef: undefined behaviour. *)
  Definition add_edge (g : graph) (i j : Z) (w : W) : outcome graph :=
    if ((i <? 0) || (j <? 0))%Z then UB
    else
      let i := Z.to_nat i in let j := Z.to_nat j in
      let n := Nat.max (g_n g) (S (Nat.max i j)) in
      let A := sp_resize (g_adj g) n n in
      let A := coeffRef_add A i j w in
      let A := coeffRef_add A j i w in
      let loops := if i =? j then true else g_loops g in
      Ok (mkGraph n A loops
            (mkCache false (c_mat (g_lap g))) (mkCache false (c_mat (g_slap g)))
            (mkCache false (c_mat (g_nlap g))) (mkCache false (c_mat (g_nslap g)))
            (mkCache false (c_mat (g_deg g))) (mkCache false (c_mat (g_inv g)))
            (mkCache false (c_mat (g_lrw g)))).

  (** repo: graph.cpp:252-282 remove_edge.  The debug assertion
      [assert(has_self_loops_)] of line 261 is a no-op in release builds. *)
  Definition remove_edge (g : graph) (i j : Z) : outcome graph :=
    if ((Z.of_nat (g_n g) <=? i) || (Z.of_nat (g_n g) <=? j))%Z then Ok g
    else if ((i <? 0) || (j <? 0))%Z then UB
    else
      let i := Z.to_nat i in let j := Z.to_nat j in
      let A := coeffRef_set (g_adj g) i j w0 in
      let A := coeffRef_set A j i w0 in
      let A := sp_prune0 A in
      let loops := if i =? j then scan_self_loops (g_n g) A else g_loops g in
      Ok (mkGraph (g_n g) A loops
            (mkCache false (c_mat (g_lap g))) (mkCache false (c_mat (g_slap g)))
            (mkCache false (c_mat (g_nlap g))) (mkCache false (c_mat (g_nslap g)))
            (mkCache false (c_mat (g_deg g))) (mkCache false (c_mat (g_inv g)))
            (mkCache false (c_mat (g_lrw g)))).

  Definition has_self_loops (g : graph) : bool := g_loops g.   (* repo: graph.cpp:284-286 *)

  (** ** Local queries *)

  (** repo: graph.cpp:294-304 check_vertex_argument. *)
  Definition check_vertex (g : graph) (v : Z) : outcome nat :=
    if (Z.of_nat (g_n g) <=? v)%Z then Throw InvalidArgument
    else if (v <? 0)%Z then Throw InvalidArgument
    else Ok (Z.to_nat v).

  (** repo: graph.cpp:332-339 degree. *)
  Definition degree (g : graph) (v : Z) : graph * outcome W :=
    match check_vertex g v with
    | Ok v => let g := init_deg g in (g, Ok (coeff (c_mat (g_deg g)) v v))
    | Throw e => (g, Throw e)
    | UB => (g, UB)
    end.
  (** repo: graph.cpp:310-318 degrees: degree of each vertex in order, the first exception propagates. *)
  Fixpoint degrees (g : graph) (vs : list Z) : graph * outcome (list W) :=
    match vs with
    | [] => (g, Ok [])
    | v :: r =>
      match degree g v with
      | (g, Ok d) => match degrees g r with
                     | (g, Ok ds) => (g, Ok (d :: ds))
                     | (g, Throw e) => (g, Throw e)
                     | (g, UB) => (g, UB)
                     end
      | (g, Throw e) => (g, Throw e)
      | (g, UB) => (g, UB)
      end
    end.

  Definition self_loop_count (A : sprs W) (v : nat) : nat :=
    if weqb (coeff A v v) w0 then 0 else 1.
  (** repo: graph.cpp:341-353 degree_unweighted (reads the outer index array). *)
  Definition degree_unweighted_nat (A : sprs W) (v : nat) : nat :=
    nth (S v) (outer_starts A) 0 - nth v (outer_starts A) 0 + self_loop_count A v.
  Definition degree_unweighted (g : graph) (v : Z) : outcome nat :=
    do v <- check_vertex g v; Ok (degree_unweighted_nat (g_adj g) v).
  (** repo: graph.cpp:320-329 degrees_unweighted. *)
  Fixpoint degrees_unweighted (g : graph) (vs : list Z) : outcome (list nat) :=
    match vs with
    | [] => Ok []
    | v :: r => do d <- degree_unweighted g v; do ds <- degrees_unweighted g r; Ok (d :: ds)
    end.

  (** The [len] compressed entries from position [start] on. *)
  Definition entries_at (A : sprs W) (start len : nat) : col W :=
    firstn len (skipn start (concat (sp_cols A))).

  (** repo: graph.cpp:355-378 neighbors. *)
  Definition neighbors (g : graph) (v : Z) : outcome (list edge) :=
    do v <- check_vertex g v;
    let A := g_adj g in
    let start := nth v (outer_starts A) 0 in
    let len := degree_unweighted_nat A v - self_loop_count A v in
    Ok (map (fun e => mkEdge v (fst e) (snd e))
            (filter (fun e => negb (weqb (snd e) w0)) (entries_at A start len))).

  (** repo: graph.cpp:380-395 neighbors_unweighted. *)
  Definition neighbors_unweighted (g : graph) (v : Z) : outcome (list nat) :=
    do v <- check_vertex g v;
    let A := g_adj g in
    let start := nth v (outer_starts A) 0 in
    let len := degree_unweighted_nat A v - self_loop_count A v in
    Ok (map fst (entries_at A start len)).

  (** repo: graph.cpp:397-399 vertex_exists. *)
  Definition vertex_exists (g : graph) (v : Z) : bool :=
    ((0 <=? v) && (v <? Z.of_nat (g_n g)))%Z.

  (** ** Derived graphs *)

  (** repo: graph.cpp:404-413: distinct vertices in order of first occurrence
      ([old_to_new_id] gives the position in this list). *)
  Fixpoint dedup (seen : list Z) (vs : list Z) : list Z :=
    match vs with
    | [] => []
    | v :: r => if existsb (Z.eqb v) seen then dedup seen r else v :: dedup (v :: seen) r
    end.
  Fixpoint index_of (v : Z) (l : list Z) : nat :=
    match l with [] => 0 | x :: r => if (x =? v)%Z then 0 else S (index_of v r) end.

  (** repo: graph.cpp:415-430: triplets contributed by one vertex of the set. *)
  Definition subgraph_triplets_of (vset : list Z) (v : Z) (es : list edge) : list (triplet W) :=
    flat_map (fun e =>
      let u := Z.of_nat (v2 e) in
      if ((v <=? u) && existsb (Z.eqb u) vset)%Z then
        (index_of v vset, index_of u vset, ewt e) ::
        (if (v <? u)%Z then [(index_of u vset, index_of v vset, ewt e)] else [])
      else []) es.
  (** repo: graph.cpp:416-431: the loop over the vertices of the set. *)
  Fixpoint subgraph_triplets (g : graph) (vset : list Z) (iter : list Z) : outcome (list (triplet W)) :=
    match iter with
    | [] => Ok []
    | v :: r => do es <- neighbors g v;
                do ts <- subgraph_triplets g vset r;
                Ok (subgraph_triplets_of vset v es ++ ts)
    end.
  (** repo: graph.cpp:401-437 subgraph.  [iter] is the iteration order of the
      std::unordered_set, an unspecified permutation of the distinct vertices. *)
  Definition subgraph (g : graph) (vs : list Z) (iter : list Z) : outcome graph :=
    let vset := dedup [] vs in
    do ts <- subgraph_triplets g vset iter;
    do A <- set_from_triplets (length vset) (length vset) ts;
    make_graph A.

  (** repo: graph.cpp:439-469 disjoint_union. *)
  Definition disjoint_union (g h : graph) : outcome graph :=
    let vals := sp_values (g_adj g) ++ sp_values (g_adj h) in
    let st := outer_starts (g_adj g) in
    let off := last st 0 in
    let st' := st ++ map (fun s => s + off) (filter (fun s => negb (s =? 0)) (outer_starts (g_adj h))) in
    let inn := inner_indices (g_adj g) ++ map (fun k => k + g_n g) (inner_indices (g_adj h)) in
    make_graph_vectors st' inn vals.

  (** Equality of vectors of doubles uses == elementwise. *)
  Fixpoint list_eqb {A} (eqb : A -> A -> bool) (a b : list A) : bool :=
    match a, b with
    | [], [] => true
    | x :: a', y :: b' => eqb x y && list_eqb eqb a' b'
    | _, _ => false
    end.
  (** repo: graph.cpp:624-629 operator==, 631-633 operator!=. *)
  Definition graph_eqb (g h : graph) : bool :=
    list_eqb Nat.eqb (outer_starts (g_adj g)) (outer_starts (g_adj h)) &&
    list_eqb Nat.eqb (inner_indices (g_adj g)) (inner_indices (g_adj h)) &&
    list_eqb weqb (sp_values (g_adj g)) (sp_values (g_adj h)).
  Definition graph_neqb (g h : graph) : bool := negb (graph_eqb g h).
  (** repo: graph.cpp:635-641 operator== / != on edges. *)
  Definition edge_eqb (e f : edge) : bool :=
    (v1 e =? v1 f) && (v2 e =? v2 f) && weqb (ewt e) (ewt f).

  (** repo: graph.cpp:906-911 operator+. *)
  Definition graph_add (g h : graph) : outcome graph :=
    if negb (g_n g =? g_n h) then Throw InvalidArgument
    else make_graph (sp_add (g_adj g) (g_adj h)).
  (** repo: graph.h:707-720 scalar * graph, graph * scalar. *)
  Definition graph_scale (s : W) (g : graph) : outcome graph :=
    make_graph (sp_map (wmul s) (g_adj g)).

  (** ** Standard graphs *)
  Definition from_triplets_graph (n : nat) (ts : list (triplet W)) : outcome graph :=
    do A <- set_from_triplets n n ts; make_graph A.

  (** repo: graph.cpp:825-836 cycle_graph. *)
  Definition cycle_triplets (n : nat) : list (triplet W) :=
    flat_map (fun i => [(i, (i + n + 1) mod n, w1); (i, (i + n - 1) mod n, w1)]) (seq 0 n).
  Definition cycle_graph (n : Z) : outcome graph :=
    if (n <? 2)%Z then Throw InvalidArgument
    else from_triplets_graph (Z.to_nat n) (cycle_triplets (Z.to_nat n)).

  (** repo: graph.cpp:838-852 complete_graph. *)
  Definition complete_triplets (n : nat) : list (triplet W) :=
    flat_map (fun i => flat_map (fun j => if i =? j then [] else [(i, j, w1)]) (seq 0 n)) (seq 0 n).
  Definition complete_graph (n : Z) : outcome graph :=
    if (n <? 2)%Z then Throw InvalidArgument
    else from_triplets_graph (Z.to_nat n) (complete_triplets (Z.to_nat n)).

  (** repo: graph.cpp:854-877 barbell_graph. *)
  Definition barbell_triplets (n : nat) : list (triplet W) :=
    flat_map (fun i => flat_map (fun j => if i =? j then [] else [(i, j, w1); (n + i, n + j, w1)])
                                (seq 0 n)) (seq 0 n)
    ++ [(n - 1, n, w1); (n, n - 1, w1)].
  Definition barbell_graph (n : Z) : outcome graph :=
    if (n <? 2)%Z then Throw InvalidArgument
    else from_triplets_graph (2 * Z.to_nat n) (barbell_triplets (Z.to_nat n)).

  (** repo: graph.cpp:879-893 star_graph. *)
  Definition star_triplets (n : nat) : list (triplet W) :=
    flat_map (fun i => [(0, i, w1); (i, 0, w1)]) (seq 1 (n - 1)).
  Definition star_graph (n : Z) : outcome graph :=
    if (n <? 2)%Z then Throw InvalidArgument
    else from_triplets_graph (Z.to_nat n) (star_triplets (Z.to_nat n)).

  (** repo: graph.cpp:895-901 identity_graph. *)
  Definition identity_graph (n : Z) : outcome graph :=
    if (n <? 1)%Z then Throw InvalidArgument
    else make_graph (identity_mat (Z.to_nat n)).

  (** ** Histories of calls on one Graph object *)
  Inductive gop : Type :=
  | OpAdd (i j : Z) (w : W)
  | OpRemove (i j : Z)
  | OpMat (q : matq)
  | OpVolume
  | OpAverage
  | OpDegree (v : Z)
  | OpDegrees (vs : list Z).
  (** State after one call; [None] is undefined behaviour.  A call that throws
      leaves the object as it was (the caller may catch the exception). The const
      queries (neighbors, number_of_edges, ...) do not change the object. *)
  Definition gstep (g : graph) (o : gop) : option graph :=
    match o with
    | OpAdd i j w => match add_edge g i j w with Ok g' => Some g' | Throw _ => Some g | UB => None end
    | OpRemove i j => match remove_edge g i j with Ok g' => Some g' | Throw _ => Some g | UB => None end
    | OpMat q => Some (fst (mat_query q g))
    | OpVolume => Some (fst (total_volume g))
    | OpAverage => Some (fst (average_degree g))
    | OpDegree v => Some (fst (degree g v))
    | OpDegrees vs => Some (fst (degrees g vs))
    end.
  (** A sequence of calls. *)
  Fixpoint grun (g : graph) (ops : list gop) : option graph :=
    match ops with
    | [] => Some g
    | o :: r => match gstep g o with Some g' => grun g' r | None => None end
    end.
End Graph.
Arguments edge W : clear implicits.
Arguments gop W : clear implicits.
