(** Model of the AdjacencyListLocalGraph class (graph.cpp:646-820, graph.h): queries on an adjacency list file on disk.
    The file is its contents and does not change; failure to open it (graph.cpp:692-695) is not modelled.
    A computation gives [None] when it does not return. *)
From Verif Require Import Base Num Sparse Graph Cluster Text GraphIO.
From Coq Require Import Ascii String List.
Import ListNotations.
Local Open Scope nat_scope.
Local Open Scope char_scope.
Local Open Scope list_scope.

(** repo: graph.cpp:654-680, the loop of goto_next_content_line, reading from [r]: the id of the next content
    line and what is unread when the position is reset to the start of that line.
    At the end of the file safeGetline gives empty lines and the loop at 665-668 never ends ([None]):
    the test at 658 compares the end of the file with the start of the last line read, so it can only succeed
    the first time.  [fuel]: the length of [r]. *)
Fixpoint scan_content (fuel : nat) (r : text) : option (outcome (Z * text)) :=
  match fuel, r with
  | _, [] => None
  | 0, _ => None
  | S f, _ =>
    let '(l, r') := getline r in
    match l with
    | [] => scan_content f r'
    | _ => match split1 ":" l with
           | Some (tok, _) => Some (do id <- stoi tok; Ok (id, r))
           | None => scan_content f r'
           end
    end
  end.
(** repo: graph.cpp:646-684 goto_next_content_line, the reader being at position [p].  Reading a line at the very
    end sets eofbit, after which tellg gives -1 and the loop at 665-668 never ends. *)
Definition goto_next (file : text) (p : Z) : option (outcome (Z * text)) :=
  let len := Z.of_nat (List.length file) in
  if ((p =? len) && negb (p =? 0))%Z then None
  else let r := if (p =? 0)%Z then file else snd (getline (skipn (Z.to_nat p) file)) in
       match r with
       | [] => Some (Ok ((-1)%Z, []))
       | _ => scan_content (List.length r) r
       end.

Section LocalDisk.
  Context {W : Type} `{Num W} `{!TextNum W}.

  (** repo: graph.h, fileloc_to_node_id_ and node_id_to_edgelist_.  (Between two calls the position of the stream plays no role.) *)
  Record dstate : Type := mkD { d_loc : list (Z * Z); d_node : list (Z * list (zedge W)) }.
  (** repo: graph.cpp:687-700, the constructor. *)
  Definition d_init : dstate := mkD [] [].
  (** repo: std::unordered_map::find. *)
  Fixpoint lookup {A} (k : Z) (m : list (Z * A)) : option A :=
    match m with
    | [] => None
    | (x, a) :: r => if (x =? k)%Z then Some a else lookup k r
    end.

  (** The result of a call: the value or exception, and the caches afterwards. *)
  Definition call (A : Type) : Type := dstate -> option (outcome A * dstate).
  (** No effect. *)
  Definition cret {A} (o : outcome A) : call A := fun st => Some (o, st).
  (** One call after the other. *)
  Definition cbind {A B} (c : call A) (f : A -> call B) : call B := fun st =>
    match c st with
    | Some (Ok a, st) => f a st
    | Some (Throw e, st) => Some (Throw e, st)
    | Some (UB, st) => Some (UB, st)
    | None => None
    end.

  (** repo: graph.cpp:710-743, the loop of find_vertex; gives the unread text.  Simplification: positions below 2^53, so that [floor] is exact. *)
  Fixpoint find_loop (fuel : nat) (file : text) (v mn mx : Z) : call text := fun st =>
    match fuel with
    | 0 => None
    | S f =>
      if (mx <? mn)%Z then Some (Throw RuntimeError, st)
      else
        let p := ((mx + mn) / 2)%Z in
        let next id r st :=
          if (id =? v)%Z then Some (Ok r, st)
          else if ((id =? -1) || (v <? id))%Z then find_loop f file v mn (p - 1) st
          else find_loop f file v (p + 1) mx st in
        match lookup p (d_loc st) with
        | Some id =>
          if (id =? v)%Z
          then match goto_next file p with
               | Some (Ok (_, r)) => next id r st
               | Some (Throw e) => Some (Throw e, st)
               | Some UB => Some (UB, st)
               | None => None
               end
          else next id [] st
        | None =>
          match goto_next file p with
          | Some (Ok (id, r)) => next id r (mkD ((p, id) :: d_loc st) (d_node st))
          | Some (Throw e) => Some (Throw e, st)
          | Some UB => Some (UB, st)
          | None => None
          end
        end
    end.
  (** repo: graph.cpp:702-744 find_vertex. *)
  Definition find_vertex (fuel : nat) (file : text) (v : Z) : call text :=
    find_loop fuel file v 0 (Z.of_nat (List.length file)).
  (** repo: graph.cpp:746-766 neighbors. *)
  Definition d_neighbors (fuel : nat) (file : text) (v : Z) : call (list (zedge W)) := fun st =>
    match lookup v (d_node st) with
    | Some es => Some (Ok es, st)
    | None =>
      cbind (find_vertex fuel file v)
        (fun r => cbind (cret (parse_adj_line (fst (getline r))))
          (fun es st => Some (Ok es, mkD (d_loc st) ((v, es) :: d_node st)))) st
    end.
  (** repo: graph.cpp:768-775 neighbors_unweighted. *)
  Definition d_neighbors_unweighted fuel file v : call (list Z) :=
    cbind (d_neighbors fuel file v) (fun es => cret (Ok (map (fun '(_, b, _) => b) es))).
  (** repo: graph.cpp:777-786 degree. *)
  Definition d_degree fuel file v : call W :=
    cbind (d_neighbors fuel file v) (fun es => cret (Ok
      (fold_left (fun d '(_, b, w) => if (b =? v)%Z then wadd d (wmul (wadd w1 w1) w) else wadd d w) es w0))).
  (** repo: graph.cpp:788-791 degree_unweighted. *)
  Definition d_degree_unweighted fuel file v : call Z :=
    cbind (d_neighbors fuel file v) (fun es => cret (Ok (Z.of_nat (List.length es)))).
  Fixpoint call_map {A B} (f : A -> call B) (l : list A) : call (list B) :=
    match l with
    | [] => cret (Ok [])
    | x :: r => cbind (f x) (fun y => cbind (call_map f r) (fun ys => cret (Ok (y :: ys))))
    end.
  (** repo: graph.cpp:793-799 degrees, 801-807 degrees_unweighted. *)
  Definition d_degrees fuel file vs : call (list W) := call_map (d_degree fuel file) vs.
  Definition d_degrees_unweighted fuel file vs : call (list Z) := call_map (d_degree_unweighted fuel file) vs.
  (** repo: graph.cpp:809-816 vertex_exists. *)
  Definition d_vertex_exists fuel file v : call bool := fun st =>
    match find_vertex fuel file v st with
    | Some (Ok _, st) => Some (Ok true, st)
    | Some (Throw RuntimeError, st) => Some (Ok false, st)
    | Some (Throw e, st) => Some (Throw e, st)
    | Some (UB, st) => Some (UB, st)
    | None => None
    end.

  (** ** Histories *)
  Inductive query : Type :=
  | Neighbors (v : Z) | NeighborsUnweighted (v : Z) | Degree (v : Z) | DegreeUnweighted (v : Z)
  | Degrees (vs : list Z) | DegreesUnweighted (vs : list Z) | VertexExists (v : Z).
  Inductive answer : Type :=
  | Edges (es : list (zedge W)) | Ids (vs : list Z) | Weight (w : W) | Count (n : Z) | Weights (ws : list W) | Counts (ns : list Z) | Bool (b : bool).
  (** A query to the object. repo: graph.h public methods of AdjacencyListLocalGraph. *)
  Definition ask (fuel : nat) (file : text) (q : query) : call answer :=
    match q with
    | Neighbors v => cbind (d_neighbors fuel file v) (fun x => cret (Ok (Edges x)))
    | NeighborsUnweighted v => cbind (d_neighbors_unweighted fuel file v) (fun x => cret (Ok (Ids x)))
    | Degree v => cbind (d_degree fuel file v) (fun x => cret (Ok (Weight x)))
    | DegreeUnweighted v => cbind (d_degree_unweighted fuel file v) (fun x => cret (Ok (Count x)))
    | Degrees vs => cbind (d_degrees fuel file vs) (fun x => cret (Ok (Weights x)))
    | DegreesUnweighted vs => cbind (d_degrees_unweighted fuel file vs) (fun x => cret (Ok (Counts x)))
    | VertexExists v => cbind (d_vertex_exists fuel file v) (fun x => cret (Ok (Bool x)))
    end.
  (** The caches after a history of queries, each of which returned or threw. *)
  Fixpoint after (fuel : nat) (file : text) (qs : list query) (st : dstate) : option dstate :=
    match qs with
    | [] => Some st
    | q :: r => match ask fuel file q st with Some (_, st) => after fuel file r st | None => None end
    end.
End LocalDisk.
Arguments dstate W : clear implicits.
