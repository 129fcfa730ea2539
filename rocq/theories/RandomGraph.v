(** Model of stag_lib/random.cpp: the stochastic block model generators.

    Simplifications.  Integers are unbounded: the products and sums of cluster sizes are assumed to fit in
    StagInt (64 bit).  [floor((StagReal) n / (StagReal) k)] is integer division, which is what it computes for n < 2^53.
    [adj_mat->reserve(estimate_sbm_neighbours(..))] (random.cpp:36-67, 245-249) only reserves capacity and is
    omitted.  The global generator (random.cpp:10-15) is an arbitrary state machine [rng]. *)
From Verif Require Import Base Num Sparse Graph Text GraphIO.
From Coq Require Import Ascii String List.
Import ListNotations.
Local Open Scope nat_scope.
Local Open Scope char_scope.
Local Open Scope list_scope.

(** Loops that may run for ever are given fuel: [None] = not finished. *)
Definition run (A : Type) : Type := option (outcome A).
Definition ret {A} (a : A) : run A := Some (Ok a).
Definition rbind {A B} (r : run A) (f : A -> run B) : run B :=
  match r with Some (Ok a) => f a | Some (Throw e) => Some (Throw e) | Some UB => Some UB | None => None end.

(** repo: Eigen::MatrixXd ([DenseMat]), only rows(), cols() and element access. *)
Record dmat (W : Type) : Type := mkDmat { dm_rows : nat; dm_cols : nat; dm_at : nat -> nat -> W }.
Arguments mkDmat {W}. Arguments dm_rows {W}. Arguments dm_cols {W}. Arguments dm_at {W}.

(** The random number generator with the three distributions used by random.cpp:
    [unif01]: std::generate_canonical, [gauss m d]: floor of a std::normal_distribution(m,d) sample converted to StagInt,
    [pick n]: std::uniform_int_distribution(0, n-1). *)
Record rng (W St : Type) : Type := mkRng {
  unif01 : St -> W * St;
  gauss : W -> W -> St -> Z * St;
  pick : nat -> St -> nat * St }.
Arguments mkRng {W St}. Arguments unif01 {W St}. Arguments gauss {W St}. Arguments pick {W St}.

Section RandomGraph.
  Context {W : Type} `{Num W} `{!TextNum W} {St : Type} (G : rng W St).

  (** The two output parameters of the generators: adjacency matrix and edge list stream, each possibly null.
      repo: random.cpp:86-87 parameters adj_mat, edgelist_os. *)
  Definition sink : Type := option (sprs W) * option text.

  (** repo: Eigen [M.insert(i,j) = w]; the entry must not exist (Eigen documents this as a precondition). *)
  Definition sp_insert (M : sprs W) (i j : nat) (w : W) : outcome (sprs W) :=
    match sp_get M i j with Some _ => UB | None => Ok (coeffRef_set M i j w) end.

  (** repo: random.cpp:114-116, 183-185: the edge line.  The weight is the int literal 1. *)
  Definition sbm_line (i j : nat) : text := show_nat i ++ [" "] ++ show_nat j ++ [" "] ++ txt "1".
  Definition write_line (o : option text) (l : text) : option text := option_map (fun t => t ++ put_line l) o.

  (** repo: random.cpp:109-116. *)
  Definition emit_insert (i j : nat) (k : sink) : outcome sink :=
    do m <- match fst k with
            | None => Ok None
            | Some M => do M1 <- sp_insert M i j w1; do M2 <- sp_insert M1 j i w1; Ok (Some M2)
            end;
    Ok (m, write_line (snd k) (sbm_line i j)).

  (** repo: random.cpp:178-185. *)
  Definition emit_count (i j : nat) (k : sink) : sink :=
    (option_map (fun M => coeffRef_add (coeffRef_add M i j w1) j i w1) (fst k), write_line (snd k) (sbm_line i j)).

  (** repo: libstdc++ std::bernoulli_distribution: a canonical sample below p. *)
  Definition bernoulli (p : W) (s : St) : bool * St := let (u, s') := unif01 G s in (wltb u p, s').

  (** repo: random.cpp:101-119, the inner loop over j. *)
  Fixpoint direct_row (same : bool) (p : W) (i : nat) (js : list nat) (k : sink) (s : St) : outcome (sink * St) :=
    match js with
    | [] => Ok (k, s)
    | j :: r =>
      if same && (j <=? i)%nat then direct_row same p i r k s
      else let (b, s') := bernoulli p s in
           if b then do k' <- emit_insert i j k; direct_row same p i r k' s'
           else direct_row same p i r k s'
    end.
  (** repo: random.cpp:99-119, the outer loop over i. *)
  Fixpoint direct_rows (same : bool) (p : W) (is js : list nat) (k : sink) (s : St) : outcome (sink * St) :=
    match is with
    | [] => Ok (k, s)
    | i :: r => do (k', s') <- direct_row same p i js k s; direct_rows same p r js k' s'
    end.
  (** repo: random.cpp:86-120 sample_edges_directly. *)
  Definition sample_edges_directly (k : sink) (ci oi tn on ts os : nat) (p : W) (s : St) : outcome (sink * St) :=
    direct_rows (ci =? oi)%nat p (seq ts tn) (seq os on) k s.

  (** repo: random.cpp:168-176, the while loop. *)
  Fixpoint distinct_pair (fuel : nat) (tn on ts os : nat) (s : St) : option (nat * nat * St) :=
    match fuel with
    | O => None
    | S f => let (a, s1) := pick G tn s in
             let (b, s2) := pick G on s1 in
             if (ts + a =? os + b)%nat then distinct_pair f tn on ts os s2 else Some (ts + a, os + b, s2)
    end.
  (** repo: random.cpp:166-187, the for loop over the edges. *)
  Fixpoint binomial_loop (fuel : nat) (m : nat) (tn on ts os : nat) (k : sink) (s : St) : option (sink * St) :=
    match m with
    | O => Some (k, s)
    | S m' => match distinct_pair fuel tn on ts os s with
              | None => None
              | Some (u, v, s') => binomial_loop fuel m' tn on ts os (emit_count u v k) s'
              end
    end.
  (** repo: random.cpp:144-145 max_edges. *)
  Definition max_edges (tn on ts os : nat) : nat := if (ts =? os)%nat then (tn * on) / 2 else tn * on.
  (** repo: random.cpp:134-188 sample_edges_binomial. *)
  Definition sample_edges_binomial (fuel : nat) (k : sink) (tn on ts os : nat) (p : W) (s : St) : run (sink * St) :=
    let me := max_edges tn on ts os in
    let expected := wmul p (wnat me) in
    if wltb expected w1 then ret (k, s)
    else let (raw, s') := gauss G expected (wsqrt (wmul (wsub w1 p) expected)) s in
         let m := Z.to_nat (Z.max 0 (Z.min (Z.of_nat me) raw)) in
         option_map Ok (binomial_loop fuel m tn on ts os k s').

  (** repo: random.cpp:269-270: is the approximate sampler used for this pair of clusters? *)
  Definition use_binomial (exact : bool) (tn on : nat) (p : W) : bool :=
    (10000 <=? Z.of_nat tn * Z.of_nat on)%Z && wltb p whalf && negb exact.

  (** repo: random.cpp:258-292, the loop over other_cluster_idx. *)
  Fixpoint sbm_inner (fuel : nat) (P : dmat W) (exact : bool) (ci tn ts : nat) (oi os : nat) (others : list nat)
      (k : sink) (s : St) : run (sink * St) :=
    match others with
    | [] => ret (k, s)
    | on :: r =>
      let p := dm_at P ci oi in
      rbind (if use_binomial exact tn on p then sample_edges_binomial fuel k tn on ts os p s
             else Some (sample_edges_directly k ci oi tn on ts os p s))
            (fun '(k', s') => sbm_inner fuel P exact ci tn ts (S oi) (os + on) r k' s')
    end.
  (** repo: random.cpp:252-296, the loop over cluster_idx. *)
  Fixpoint sbm_outer (fuel : nat) (P : dmat W) (exact : bool) (ci ts : nat) (sizes : list nat) (k : sink) (s : St) : run (sink * St) :=
    match sizes with
    | [] => ret (k, s)
    | tn :: r =>
      rbind (sbm_inner fuel P exact ci tn ts ci ts sizes k s)
            (fun '(k', s') => sbm_outer fuel P exact (S ci) (ts + tn) r k' s')
    end.

  (** repo: random.cpp:229-243, the checks of general_sbm_internal. *)
  Definition sbm_params_ok (sizes : list Z) (P : dmat W) : bool :=
    forallb (fun z => (1 <=? z)%Z) sizes &&
    ((dm_rows P =? List.length sizes)%nat && (dm_cols P =? List.length sizes)%nat) &&
    forallb (fun i => forallb (fun j => negb (wltb (dm_at P i j) w0 || wltb w1 (dm_at P i j))) (seq 0 (List.length sizes)))
            (seq 0 (List.length sizes)).
  (** repo: random.cpp:222-301 general_sbm_internal. *)
  Definition general_sbm_internal (fuel : nat) (k : sink) (sizes : list Z) (P : dmat W) (exact : bool) (s : St) : run (sink * St) :=
    if negb (sbm_params_ok sizes P) then Some (Throw InvalidArgument)
    else sbm_outer fuel P exact 0 0 (map Z.to_nat sizes) k s.

  Definition zsum (l : list Z) : Z := fold_left Z.add l 0%Z.
  (** repo: random.cpp:303-318 general_sbm.  A negative total makes the matrix constructor (before the checks)
      violate Eigen's precondition. *)
  Definition general_sbm (fuel : nat) (sizes : list Z) (P : dmat W) (exact : bool) (s : St) : run (graph W * St) :=
    let n := zsum sizes in
    if (n <? 0)%Z then Some UB
    else rbind (general_sbm_internal fuel (Some (sp_empty (Z.to_nat n) (Z.to_nat n)), None) sizes P exact s)
           (fun '(k, s') => match fst k with
                            | Some M => Some (omap (fun g => (g, s')) (make_graph M))
                            | None => Some UB   (* unreachable *)
                            end).

  (** repo: random.cpp:205-217: the parameters that sbm passes to general_sbm. *)
  Definition sbm_sizes (n k : Z) : list Z := repeat (n / k)%Z (Z.to_nat k).
  Definition sbm_probs (k : Z) (p q : W) : dmat W :=
    mkDmat (Z.to_nat k) (Z.to_nat k) (fun i j => if (i =? j)%nat then p else q).
  Definition sbm_nk_ok (n k : Z) : bool := negb (n <? 1)%Z && negb ((k <? 1)%Z || (Z.quot n 2 <? k)%Z).
  (** repo: random.cpp:194-220 sbm. *)
  Definition sbm (fuel : nat) (n k : Z) (p q : W) (exact : bool) (s : St) : run (graph W * St) :=
    if negb (sbm_nk_ok n k) then Some (Throw InvalidArgument)
    else if wltb p w0 || wltb w1 p then Some (Throw InvalidArgument)
    else if wltb q w0 || wltb w1 q then Some (Throw InvalidArgument)
    else general_sbm fuel (sbm_sizes n k) (sbm_probs k p q) exact s.
  (** repo: random.cpp:329-331 erdos_renyi. *)
  Definition erdos_renyi (fuel : nat) (n : Z) (p : W) (exact : bool) (s : St) : run (graph W * St) :=
    sbm fuel n 1 p w0 exact s.

  (** repo: random.cpp:344-366, the header of the edge list file. *)
  Definition sbm_header (sizes : list Z) (P : dmat W) : list text :=
    let k := List.length sizes in
    [txt "# This graph was generated from a stochastic block model with the following parameters.";
     txt "#    n = " ++ show_Z (zsum sizes);
     txt "#    k = " ++ show_nat k] ++
    (if (k <=? 20)%nat then
       [txt "#    cluster sizes = " ++ concat (map (fun z => show_Z z ++ [" "]) sizes);
        txt "#    probability matrix = "] ++
       map (fun i => txt "#        " ++ concat (map (fun j => fmt (dm_at P i j) ++ [" "]) (seq 0 k))) (seq 0 k)
     else [txt "# (Probability matrix omitted as it is too large.)"]).
  (** repo: random.cpp:333-376 general_sbm_edgelist: content of the file written.  Simplification: the file can be
      opened; printing an element outside of the probability matrix is undefined behaviour.  (When the checks fail the file keeps
      the header; the outcome is only the exception.) *)
  Definition general_sbm_edgelist (fuel : nat) (sizes : list Z) (P : dmat W) (exact : bool) (s : St) : run (text * St) :=
    let k := List.length sizes in
    if (k <=? 20)%nat && ((dm_rows P <? k)%nat || (dm_cols P <? k)%nat) then Some UB
    else rbind (general_sbm_internal fuel (None, Some (put_lines (sbm_header sizes P))) sizes P exact s)
      (fun '(k, s') => match snd k with Some t => ret (t, s') | None => Some UB (* unreachable *) end).
End RandomGraph.

(** repo: random.cpp:399-415 general_sbm_gt_labels: the nested push_back loops. *)
Fixpoint push_labels (c : nat) (sizes : list nat) (labels : list nat) : list nat :=
  match sizes with
  | [] => labels
  | sz :: r => push_labels (S c) r (labels ++ repeat c sz)
  end.
Definition general_sbm_gt_labels (sizes : list Z) : outcome (list nat) :=
  if forallb (fun z => (1 <=? z)%Z) sizes then Ok (push_labels 0 (map Z.to_nat sizes) []) else Throw InvalidArgument.
(** repo: random.cpp:384-397 sbm_gt_labels. *)
Definition sbm_gt_labels (n k : Z) : outcome (list nat) :=
  if negb (sbm_nk_ok n k) then Throw InvalidArgument
  else general_sbm_gt_labels (sbm_sizes n k).
