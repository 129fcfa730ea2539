(** Model of the command line tools stagtools/adj2edge.cpp, edge2adj.cpp and sbm.cpp.  A program returns its exit status; an
    exception which leaves main is [Throw] (std::terminate kills the process; every line written before has been flushed by std::endl).
    What is printed on the standard output is not modelled. *)
From Verif Require Import Base Num Sparse Graph Cluster Text GraphIO RandomGraph FileSys.
From Coq Require Import Ascii String List.
Import ListNotations.
Local Open Scope list_scope.

(** repo: <cerrno> EINVAL. *)
Definition EINVAL : Z := 22.

Section Tools.
  Context {W : Type} `{Num W} `{!TextNum W} (writable : name -> bool).
  (** repo: stagtools/adj2edge.cpp:20-42 main; [argv] includes the program name. *)
  Definition adj2edge_main (argv : list text) : io Z :=
    match argv with
    | [_; adj_fname; edge_fname] => ibind (adjacencylist_to_edgelist_io (W := W) writable adj_fname edge_fname) (fun _ => iret 0%Z)
    | _ => iret EINVAL
    end.
  (** repo: stagtools/edge2adj.cpp:21-43 main. *)
  Definition edge2adj_main (fuel : nat) (tmp : nat -> name) (argv : list text) : io Z :=
    match argv with
    | [_; edge_fname; adj_fname] => ibind (edgelist_to_adjacencylist_io (W := W) writable fuel tmp edge_fname adj_fname) (fun _ => iret 0%Z)
    | _ => iret EINVAL
    end.
  (** repo: stagtools/sbm.cpp:39-48: the arguments. *)
  Definition sbm_args (n k p q : text) : outcome (Z * Z * W * W) :=
    do n <- stoi n; do k <- stoi k; do p <- stod p; do q <- stod q; Ok (n, k, p, q).
  (** repo: stagtools/sbm.cpp:23-67 main.  [floor(((double) n) / ((double) k))] of two ints is the integer quotient (FloorDiv.v); k = 0 converts an
      infinity or NaN to an integer and k < 0 gives Eigen a negative size: undefined. *)
  Definition sbm_main {St} (G : rng W St) (fuel : nat) (s : St) (argv : list text) : io Z :=
    match argv with
    | [_; edge_fname; n; k; p; q] =>
      match sbm_args n k p q with
      | Ok (n, k, p, q) =>
        if (k <=? 0)%Z then Done (Some UB)
        else ibind (general_sbm_edgelist_io writable G fuel (sbm_sizes n k) (sbm_probs k p q) false s edge_fname) (fun _ => iret 0%Z)
      | Throw _ => iret EINVAL
      | UB => Done (Some UB)
      end
    | _ => iret EINVAL
    end.
End Tools.
