(** Model of the graph-local part of stag_lib/cluster.cpp: connected components,
    approximate PageRank, sweep sets, conductance, local clustering. *)
From Verif Require Import Base Num Sparse Graph.

(** Stable sort, characterised by the relation [lt]: elements that are not ordered keep
    their order.  repo: std::stable_sort (used in cluster.cpp:309, graphio.cpp:496). *)
Section StableSort.
  Context {A : Type} (lt : A -> A -> bool).
  Fixpoint ins (x : A) (l : list A) : list A :=
    match l with
    | [] => [x]
    | y :: r => if lt y x then y :: ins x r else x :: y :: r
    end.
  (** repo: std::stable_sort, by insertion. *)
  Definition stable_sort (l : list A) : list A := fold_right ins [] l.
End StableSort.

Section Cluster.
  Context {W : Type} `{Num W}.

  (** repo: graph.h:51-125 class LocalGraph: the answers of the virtual queries.
      Simplification: a query has no observable effect on later queries; for Graph
      this is theorem C08_queries_do_not_change_the_graph, for
      AdjacencyListLocalGraph see LocalDisk.v. *)
  Record lgraph : Type := mkLG {
    lg_exists : Z -> bool;
    lg_degree : Z -> outcome W;
    lg_neighbors : Z -> outcome (list (edge W));
    lg_nunw : Z -> outcome (list nat) }.

  (** A Graph used through its LocalGraph interface. *)
  Definition lg_of_graph (g : graph W) : lgraph :=
    mkLG (vertex_exists g) (fun v => snd (degree g v)) (neighbors g) (neighbors_unweighted g).

  (** repo: graph.cpp:310-318 (Graph::degrees), 793-799 (AdjacencyListLocalGraph::degrees). *)
  Fixpoint lg_degrees (lg : lgraph) (vs : list nat) : outcome (list W) :=
    match vs with
    | [] => Ok []
    | v :: r => do d <- lg_degree lg (Z.of_nat v); do ds <- lg_degrees lg r; Ok (d :: ds)
    end.

  (** ** Connected components *)

  Definition zmem (x : Z) (l : list Z) : bool := existsb (Z.eqb x) l.

  (** repo: cluster.cpp:588-595, the body of the loop over the neighbours.
      State: component_set (as a list), component_vec (reversed), frontier (back first). *)
  Fixpoint cc_scan (ns : list Z) (set vec frontier : list Z) : list Z * list Z * list Z :=
    match ns with
    | [] => (set, vec, frontier)
    | n :: r => if zmem n set then cc_scan r set vec frontier
                else cc_scan r (n :: set) (n :: vec) (n :: frontier)
    end.
  (** repo: cluster.cpp:578-597; [fuel] bounds the number of iterations, [None] = not finished. *)
  Fixpoint cc_loop (fuel : nat) (lg : lgraph) (set vec frontier : list Z) : option (outcome (list Z)) :=
    match frontier with
    | [] => Some (Ok (rev vec))
    | v :: fr =>
      match fuel with
      | 0 => None
      | S fuel' =>
        match lg_nunw lg v with
        | Ok ns => let '(set, vec, fr) := cc_scan (map Z.of_nat ns) set vec fr in cc_loop fuel' lg set vec fr
        | Throw e => Some (Throw e)
        | UB => Some UB
        end
      end
    end.
  (** repo: cluster.cpp:571-600 connected_component. *)
  Definition connected_component (fuel : nat) (lg : lgraph) (v : Z) : option (outcome (list Z)) :=
    cc_loop fuel lg [v] [v] [v].

  (** repo: cluster.cpp:610-620: the loop over the vertices v, ..., v+k-1. *)
  Fixpoint ccs_loop (fuel : nat) (lg : lgraph) (v k : nat) (found : list Z) (comps : list (list Z))
    : option (outcome (list (list Z))) :=
    match k with
    | 0 => Some (Ok (rev comps))
    | S k' =>
      if zmem (Z.of_nat v) found then ccs_loop fuel lg (S v) k' found comps
      else match connected_component fuel lg (Z.of_nat v) with
           | Some (Ok c) => ccs_loop fuel lg (S v) k' (c ++ found) (c :: comps)
           | Some (Throw e) => Some (Throw e)
           | Some UB => Some UB
           | None => None
           end
    end.
  (** repo: cluster.cpp:602-623 connected_components. *)
  Definition connected_components (fuel : nat) (g : graph W) : option (outcome (list (list Z))) :=
    ccs_loop fuel (lg_of_graph g) 0 (number_of_vertices g) [] [].
  (** repo: graph.cpp:288-292 is_connected. *)
  Definition is_connected (fuel : nat) (g : graph W) : option (outcome bool) :=
    match connected_component fuel (lg_of_graph g) 0 with
    | Some (Ok c) => Some (Ok (Z.of_nat (length c) =? Z.of_nat (number_of_vertices g))%Z)
    | Some (Throw e) => Some (Throw e)
    | Some UB => Some UB
    | None => None
    end.

  (** ** Approximate PageRank *)

  (** Sparse column vectors. *)
  Definition vget (x : sprs W) (u : nat) : W := coeff x u 0.
  (** repo: x.coeffRef(u, 0) = v. *)
  Definition vset (x : sprs W) (u : nat) (v : W) : sprs W := coeffRef_set x u 0 v.
  (** repo: conservativeResize(u + 1, 1) of a vector that is too short. *)
  Definition vgrow (x : sprs W) (u : nat) : sprs W :=
    if sp_rows x <=? u then sp_resize x (S u) 1 else x.

  (** repo: cluster.cpp:181-194: one neighbour.  [(1 - alpha) * w * r(u) / (deg * 2)]. *)
  Definition push_edge (alpha deg : W) (u : nat) (r : sprs W) (e : edge W) : sprs W :=
    let v := v2 e in
    let r := vgrow r v in
    vset r v (wadd (vget r v)
                   (wdiv (wmul (wmul (wsub w1 alpha) (ewt e)) (vget r u)) (wmul deg (wadd w1 w1)))).
  (** repo: cluster.cpp:171-199 push. *)
  Definition push (lg : lgraph) (p r : sprs W) (alpha : W) (u : nat) : outcome (sprs W * sprs W) :=
    let p := vgrow p u in
    let p := vset p u (wadd (vget p u) (wmul alpha (vget r u))) in
    do deg <- lg_degree lg (Z.of_nat u);
    do es <- lg_neighbors lg (Z.of_nat u);
    let r := fold_left (push_edge alpha deg u) es r in
    let r := vset r u (wdiv (wmul (wsub w1 alpha) (vget r u)) (wadd w1 w1)) in
    Ok (p, r).

  Definition nmem (x : nat) (l : list nat) : bool := existsb (Nat.eqb x) l.
  Definition nerase (x : nat) (l : list nat) : list nat := filter (fun y => negb (y =? x)) l.

  (** repo: cluster.cpp:233-244: initial queue, from the stored entries of the seed. *)
  Fixpoint apr_init (eps : W) (r : sprs W) (us : list nat) (ds : list W) (q mem : list nat)
    : outcome (list nat * list nat) :=
    match us, ds with
    | [], _ => Ok (q, mem)
    | u :: us', d :: ds' =>
      if wleb (wmul eps d) (vget r u) && negb (weqb d w0)
      then apr_init eps r us' ds' (q ++ [u]) (u :: mem)
      else apr_init eps r us' ds' q mem
    | _ :: _, [] => Throw OutOfRange     (* degrees.at *)
    end.
  (** repo: cluster.cpp:275-284: queue the neighbours ([ds]: their degrees, by position). *)
  Fixpoint apr_scan (eps : W) (r : sprs W) (es : list (edge W)) (ds : list W) (q mem : list nat)
    : outcome (list nat * list nat) :=
    match es, ds with
    | [], _ => Ok (q, mem)
    | e :: es', d :: ds' =>
      let v := v2 e in
      if wleb (wmul eps d) (vget r v) && negb (nmem v mem)
      then apr_scan eps r es' ds' (q ++ [v]) (v :: mem)
      else apr_scan eps r es' ds' q mem
    | _ :: _, [] => Throw OutOfRange
    end.
  (** repo: cluster.cpp:248-285: body of the while loop for the popped vertex [u]. *)
  Definition apr_step (lg : lgraph) (alpha eps : W) (p r : sprs W) (u : nat) (q mem : list nat)
    : outcome (sprs W * sprs W * list nat * list nat) :=
    let mem := nerase u mem in
    do pr <- push lg p r alpha u;
    let '(p, r) := pr in
    do d <- lg_degree lg (Z.of_nat u);
    let '(q, mem) := if wleb (wmul eps d) (vget r u) then (u :: q, u :: mem) else (q, mem) in
    do ns <- lg_nunw lg (Z.of_nat u);
    do ds <- lg_degrees lg ns;
    do es <- lg_neighbors lg (Z.of_nat u);
    do qm <- apr_scan eps r es ds q mem;
    Ok (p, r, fst qm, snd qm).
  (** repo: cluster.cpp:248-286: the while loop. *)
  Fixpoint apr_loop (fuel : nat) (lg : lgraph) (alpha eps : W) (p r : sprs W) (q mem : list nat)
    : option (outcome (sprs W * sprs W)) :=
    match q with
    | [] => Some (Ok (p, r))
    | u :: q' =>
      match fuel with
      | 0 => None
      | S fuel' =>
        match apr_step lg alpha eps p r u q' mem with
        | Ok (p, r, q, mem) => apr_loop fuel' lg alpha eps p r q mem
        | Throw e => Some (Throw e)
        | UB => Some UB
        end
      end
    end.
  (** repo: cluster.cpp:201-291 approximate_pagerank.  A seed matrix without column is UB. *)
  Definition approximate_pagerank (fuel : nat) (lg : lgraph) (s : sprs W) (alpha eps : W)
    : option (outcome (sprs W * sprs W)) :=
    if 1 <? sp_ncols s then Some (Throw InvalidArgument)
    else if negb (lg_exists lg (Z.of_nat (sp_rows s) - 1)) then Some (Throw InvalidArgument)
    else if wltb alpha w0 || wltb w1 alpha then Some (Throw InvalidArgument)
    else if wleb eps w0 then Some (Throw InvalidArgument)
    else if sp_ncols s =? 0 then Some UB
    else
      match lg_degrees lg (inner_indices s) with
      | Ok ds =>
        match apr_init eps s (inner_indices s) ds [] [] with
        | Ok (q, mem) => apr_loop fuel lg alpha eps (sp_empty (sp_rows s) 1) s q mem
        | Throw e => Some (Throw e)
        | UB => Some UB
        end
      | Throw e => Some (Throw e)
      | UB => Some UB
      end.

  (** ** Sweep sets *)

  (** repo: cluster.cpp:337-341: [cut_weight -= 2 * e.weight] for the neighbours already in the set. *)
  Definition sweep_cut (set : list nat) (es : list (edge W)) (cut : W) : W :=
    fold_left (fun c e => if nmem (v2 e) set then wsub c (wmul (wadd w1 w1) (ewt e)) else c) es cut.
  (** repo: cluster.cpp:344-349 the denominator (std::min(a,b) is b < a ? b : a). *)
  Definition sweep_den (tot vol : W) : W :=
    if weqb tot w0 then vol
    else let c := wsub tot vol in if wltb c vol then c else vol.
  (** repo: cluster.cpp:325-355 the sweep loop.  [set]: vertices so far; [k] = current_idx. *)
  Fixpoint sweep_loop (lg : lgraph) (tot : W) (vs : list nat) (ds : list W)
           (set : list nat) (cut vol best : W) (best_idx k : nat) : outcome nat :=
    match vs, ds with
    | [], _ => Ok best_idx
    | v :: vs', d :: ds' =>
      let set := v :: set in
      let vol := wadd vol d in
      let cut := wadd cut d in
      do es <- lg_neighbors lg (Z.of_nat v);
      let cut := sweep_cut set es cut in
      let den := sweep_den tot vol in
      if wltb w0 den && wltb (wdiv cut den) best
      then sweep_loop lg tot vs' ds' set cut vol (wdiv cut den) (S k) (S k)
      else sweep_loop lg tot vs' ds' set cut vol best best_idx (S k)
    | _ :: _, [] => Throw OutOfRange
    end.
  (** repo: cluster.cpp:305-310: stored indices, stably sorted by decreasing value. *)
  Definition sweep_order (x : sprs W) : list nat :=
    stable_sort (fun i j => wltb (vget x j) (vget x i)) (inner_indices x).
  (** repo: cluster.cpp:296-357 sweep_set_conductance_inner. *)
  Definition sweep_set_inner (lg : lgraph) (x : sprs W) (tot : W) : outcome (list nat) :=
    let vs := sweep_order x in
    do ds <- lg_degrees lg vs;
    do k <- sweep_loop lg tot vs ds [] w0 w0 (wadd w1 w1) 0 0;
    Ok (firstn k vs).
  (** repo: cluster.cpp:359-372, the overloads. *)
  Definition sweep_set_graph (g : graph W) (x : sprs W) : outcome (list nat) :=
    sweep_set_inner (lg_of_graph g) x (snd (total_volume g)).
  Definition sweep_set_local (lg : lgraph) (x : sprs W) : outcome (list nat) :=
    sweep_set_inner lg x w0.

  (** ** Conductance.  repo: cluster.cpp:518-546. *)
  Fixpoint cond_loop (lg : lgraph) (set cluster : list Z) (cut vol : W) : outcome (W * W) :=
    match cluster with
    | [] => Ok (cut, vol)
    | v :: r =>
      do es <- lg_neighbors lg v;
      let deg := fold_left (fun a e => wadd a (ewt e)) es w0 in
      let cut := fold_left (fun c e => if zmem (Z.of_nat (v2 e)) set then c else wadd c (ewt e)) es cut in
      cond_loop lg set r cut (wadd vol deg)
    end.
  (** repo: cluster.cpp:518-546 conductance. *)
  Definition conductance (lg : lgraph) (cluster : list Z) : outcome W :=
    do cv <- cond_loop lg cluster cluster w0 w0;
    if weqb (snd cv) w0 then Ok w0 else Ok (wdiv (fst cv) (snd cv)).

  (** ** Local clustering *)

  (** repo: cluster.cpp:138-145: divide each stored entry by the degree. *)
  Definition div_entries (x : sprs W) (ds : list W) : sprs W :=
    mkSprs (sp_rows x)
           [map (fun p => (fst (fst p), wdiv (snd (fst p)) (snd p))) (combine (sp_col x 0) ds)].
  (** repo: cluster.cpp:117-150 local_cluster_acl. *)
  Definition local_cluster_acl (fuel : nat) (lg : lgraph) (seed : Z) (locality error : W)
    : option (outcome (list nat)) :=
    if negb (lg_exists lg seed) then Some (Throw InvalidArgument)
    else if wltb locality w0 || wltb w1 locality then Some (Throw InvalidArgument)
    else if wleb error w0 then Some (Throw InvalidArgument)
    else if (seed <? 0)%Z then Some UB
    else
      let u := Z.to_nat seed in
      let s := vset (sp_empty (S u) 1) u w1 in
      match approximate_pagerank fuel lg s locality error with
      | Some (Ok (p, _)) =>
        Some (do ds <- lg_degrees lg (inner_indices p);
              sweep_set_local lg (div_entries p ds))
      | Some (Throw e) => Some (Throw e)
      | Some UB => Some UB
      | None => None
      end.
  (** repo: cluster.cpp:111-115, the overload with the default error [c0001] = 0.001. *)
  Definition local_cluster_acl_default (c0001 : W) (fuel : nat) (lg : lgraph) (seed : Z) (locality : W) :=
    local_cluster_acl fuel lg seed locality c0001.
  (** repo: cluster.cpp:96-106 local_cluster; [c001] is the literal 0.01. *)
  Definition local_cluster (c001 : W) (fuel : nat) (lg : lgraph) (seed : Z) (target : W)
    : option (outcome (list nat)) :=
    if wleb target w0 then Some (Throw InvalidArgument)
    else local_cluster_acl fuel lg seed c001 (wdiv w1 target).
End Cluster.
Arguments lgraph W : clear implicits.
