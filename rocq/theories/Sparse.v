(** Model of the Eigen sparse matrices used by STAG.

    repo: stag_lib/definitions.h: [typedef Eigen::SparseMatrix<StagReal,
    Eigen::ColMajor, StagInt> SprsMat].  A compressed column-major sparse matrix
    is modelled as a number of rows and a list of columns, each column the list of
    its stored (row, value) entries in storage order.  A stored value may be 0
    ("explicit zero").  Assumed of Eigen: the behaviour stated in the comment of
    each operation. *)
From Verif Require Import Base Num.
From Coq Require Import Sorting.Sorted.

(** Declared outside the section so that the universe of W is not fixed. *)
Record sprs (W : Type) : Type := mkSprs { sp_rows : nat; sp_cols : list (list (nat * W)) }.
Arguments mkSprs {W}. Arguments sp_rows {W}. Arguments sp_cols {W}.

Section Sparse.
  Context {W : Type} `{Num W}.

  Local Notation col := (list (nat * W)).
  Local Notation sprs := (sprs W).

  (** repo: Eigen [SparseMatrix::cols()] / [outerSize()]. *)
  Definition sp_ncols (M : sprs) : nat := length (sp_cols M).

  (** repo: Eigen compressed storage: row indices strictly increase inside each
      column and are below [rows()]. *)
  Definition col_wf (n : nat) (c : col) : Prop :=
    StronglySorted lt (map fst c) /\ Forall (fun k => k < n) (map fst c).
  Definition sp_wf (M : sprs) : Prop := Forall (col_wf (sp_rows M)) (sp_cols M).
  Definition sp_square (M : sprs) (n : nat) : Prop := sp_rows M = n /\ sp_ncols M = n /\ sp_wf M.

  (** Stored entry of a column, if any. *)
  Fixpoint col_get (c : col) (i : nat) : option W :=
    match c with
    | [] => None
    | (k, v) :: r => if Nat.eqb k i then Some v else col_get r i
    end.
  Definition o0 (o : option W) : W := match o with Some v => v | None => w0 end.
  Definition sp_col (M : sprs) (j : nat) : col := nth j (sp_cols M) [].
  (** Is entry (i,j) stored? *)
  Definition sp_get (M : sprs) (i j : nat) : option W := col_get (sp_col M j) i.
  (** repo: Eigen [SparseMatrix::coeff(i,j)]: stored value or 0. *)
  Definition coeff (M : sprs) (i j : nat) : W := o0 (sp_get M i j).

  (** Insert or replace in row order. *)
  Fixpoint col_upsert (c : col) (i : nat) (f : option W -> W) : col :=
    match c with
    | [] => [(i, f None)]
    | (k, v) :: r =>
      if i <? k then (i, f None) :: (k, v) :: r
      else if i =? k then (k, f (Some v)) :: r
      else (k, v) :: col_upsert r i f
    end.
  Definition sp_upsert (M : sprs) (i j : nat) (f : option W -> W) : sprs :=
    mkSprs (sp_rows M) (upd_nth (sp_cols M) j (fun c => col_upsert c i f)).

  (** repo: Eigen [M.coeffRef(i,j) += w]: inserts 0 when absent, then adds. *)
  Definition coeffRef_add (M : sprs) (i j : nat) (w : W) : sprs :=
    sp_upsert M i j (fun o => wadd (o0 o) w).
  (** repo: Eigen [M.coeffRef(i,j) = w], and [M.insert(i,j) = w]. *)
  Definition coeffRef_set (M : sprs) (i j : nat) (w : W) : sprs :=
    sp_upsert M i j (fun _ => w).

  (** repo: Eigen [SparseMatrix(rows, cols)]: no stored entry. *)
  Definition sp_empty (r c : nat) : sprs := mkSprs r (repeat [] c).

  (** repo: Eigen [conservativeResize(r,c)] used only for growing
      (graph.cpp:233); kept general enough: truncates columns and rows. *)
  Definition sp_resize (M : sprs) (r c : nat) : sprs :=
    mkSprs r (map (fun cl => filter (fun e => fst e <? r) cl)
                  (firstn c (sp_cols M ++ repeat [] (c - sp_ncols M)))).

  (** repo: Eigen [prune(pred)]: keeps the stored entries whose value satisfies
      the predicate.  [prune(0.0)] keeps exactly the entries that are not
      [<= 0] in absolute value, i.e. not equal to zero. *)
  Definition sp_prune (p : W -> bool) (M : sprs) : sprs :=
    mkSprs (sp_rows M) (map (filter (fun e => p (snd e))) (sp_cols M)).
  Definition sp_prune0 : sprs -> sprs := sp_prune (fun v => negb (weqb v w0)).

  (** repo: Eigen unary minus and scalar product: pattern kept, values mapped. *)
  Definition sp_map (f : W -> W) (M : sprs) : sprs :=
    mkSprs (sp_rows M) (map (map (fun e => (fst e, f (snd e)))) (sp_cols M)).

  (** repo: Eigen [A + B], [A - B]: union of the patterns; an entry absent from
      one operand counts as 0; results that are 0 stay stored. *)
  Fixpoint col_merge (f : W -> W -> W) (a : col) : col -> col :=
    fix inner (b : col) : col :=
      match a, b with
      | [], _ => map (fun e => (fst e, f w0 (snd e))) b
      | _, [] => map (fun e => (fst e, f (snd e) w0)) a
      | (i, x) :: a', (j, y) :: b' =>
        match Nat.compare i j with
        | Lt => (i, f x w0) :: col_merge f a' b
        | Eq => (i, f x y) :: col_merge f a' b'
        | Gt => (j, f w0 y) :: inner b'
        end
      end.
  (** repo: Eigen A + B and A - B, column by column (as above). *)
  Definition sp_merge (f : W -> W -> W) (A B : sprs) : sprs :=
    mkSprs (sp_rows A) (map (fun p => col_merge f (fst p) (snd p)) (combine (sp_cols A) (sp_cols B))).
  Definition sp_add := sp_merge wadd.
  Definition sp_sub := sp_merge wsub.

  (** repo: Eigen sparse * sparse (ConservativeSparseSparseProduct): column j of
      A*B accumulates, over the stored (k,y) of column j of B and the stored (i,x)
      of column k of A, the products x*y; first contribution stored as is. *)
  Definition col_axpy (acc : col) (a : col) (y : W) : col :=
    fold_left (fun r e => col_upsert r (fst e)
                 (fun o => match o with None => wmul (snd e) y
                                      | Some s => wadd s (wmul (snd e) y) end)) a acc.
  (** repo: Eigen A * B (as above): one column of the product. *)
  Definition col_mul (A : sprs) (b : col) : col :=
    fold_left (fun acc e => col_axpy acc (sp_col A (fst e)) (snd e)) b [].
  Definition sp_mul (A B : sprs) : sprs :=
    mkSprs (sp_rows A) (map (col_mul A) (sp_cols B)).

  (** repo: Eigen [M * VectorXd::Ones(M.cols())], i-th component: columns in
      ascending order, [res(i) += value * 1] for the stored entries. *)
  Definition sp_rowsum (M : sprs) (i : nat) : W :=
    fold_left (fun acc c => match col_get c i with
                            | Some v => wadd acc (wmul v w1) | None => acc end)
              (sp_cols M) w0.

  (** repo: Eigen [setFromTriplets]: duplicates are summed in list order.
      Out-of-range indices are undefined behaviour (see [triplets_ok]). *)
  Local Notation triplet := (nat * nat * W)%type.
  Definition add_triplet (M : sprs) (t : triplet) : sprs :=
    let '(i, j, v) := t in
    sp_upsert M i j (fun o => match o with None => v | Some s => wadd s v end).
  Definition triplets_ok (r c : nat) (ts : list triplet) : bool :=
    forallb (fun '(i, j, _) => (i <? r) && (j <? c)) ts.
  (** repo: Eigen setFromTriplets, called in graph.cpp:435, graphio.cpp, random.cpp, cluster.cpp. *)
  Definition set_from_triplets (r c : nat) (ts : list triplet) : outcome sprs :=
    if triplets_ok r c ts then Ok (fold_left add_triplet ts (sp_empty r c)) else UB.

  (** Diagonal matrix with every diagonal entry stored.
      repo: loops of [insert(i,i) = d(i)] (graph.cpp:573-581, 591-596), diagonal
      [setFromTriplets] (graph.cpp:522-527) and [setIdentity]. *)
  Definition sp_diag (n : nat) (d : nat -> W) : sprs :=
    mkSprs n (map (fun i => [(i, d i)]) (seq 0 n)).

  (** repo: stag_lib/utility.cpp:9-37 (sprsMatInnerIndices, sprsMatOuterStarts,
      sprsMatValues): the three compressed vectors. *)
  Definition inner_indices (M : sprs) : list nat := map fst (concat (sp_cols M)).
  Definition sp_values (M : sprs) : list W := map snd (concat (sp_cols M)).
  Fixpoint starts_from (s : nat) (cs : list col) : list nat :=
    match cs with [] => [s] | c :: r => s :: starts_from (s + length c) r end.
  Definition outer_starts (M : sprs) : list nat := starts_from 0 (sp_cols M).
  (** repo: Eigen [nonZeros()]: number of stored entries. *)
  Definition sp_nnz (M : sprs) : nat := length (concat (sp_cols M)).

  (** Boolean well-formedness (used for the data given to Eigen::Map). *)
  Fixpoint incr_from (lo : nat) (n : nat) (c : col) : bool :=
    match c with
    | [] => true
    | (k, _) :: r => (lo <=? k) && (k <? n) && incr_from (S k) n r
    end.
  (** As above, all columns. *)
  Definition sp_wfb (M : sprs) : bool := forallb (incr_from 0 (sp_rows M)) (sp_cols M).

  (** Entries between two positions of the compressed arrays. *)
  Fixpoint split_cols (starts : list nat) (es : col) : list col :=
    match starts with
    | s :: ((t :: _) as r) => firstn (t - s) es :: split_cols r (skipn (t - s) es)
    | _ => []
    end.
  (** The outer starts do not decrease. repo: required by Eigen::Map, utility.cpp:77. *)
  Fixpoint nondecr (l : list nat) : bool :=
    match l with
    | x :: ((y :: _) as r) => (x <=? y) && nondecr r
    | _ => true
    end.
  (** repo: stag_lib/utility.cpp:63-85 sprsMatFromVectors.  The function checks
      only the lengths; any other malformed CSC data is undefined behaviour of
      Eigen::Map (here: first start not 0, decreasing starts, unsorted or
      out-of-range row indices; an empty [column_starts], whose [back()] is
      undefined).  Simplification: vector elements are non-negative. *)
  Definition from_vectors (starts inner : list nat) (vals : list W) : outcome sprs :=
    match rev starts with
    | [] => UB
    | last :: _ =>
      if negb (length inner =? length vals) then Throw InvalidArgument
      else if negb (last =? length inner) then Throw InvalidArgument
      else
        let n := length starts - 1 in
        let M := mkSprs n (split_cols starts (combine inner vals)) in
        if (hd 1 starts =? 0) && nondecr starts && sp_wfb M then Ok M else UB
    end.

  (** repo: stag_lib/utility.cpp:87-102 isSymmetric: compares every stored entry
      with the transposed coefficient. *)
  Definition is_symmetric (M : sprs) : bool :=
    forallb (fun '(k, c) => forallb (fun e => weqb (snd e) (coeff M k (fst e))) c)
            (combine (seq 0 (sp_ncols M)) (sp_cols M)).

  (** repo: stag_lib/utility.cpp:45-61 sprsMatToVec (n may be negative). *)
  Definition sprs_to_vec (M : sprs) (n : Z) : outcome (list W) :=
    if (n <? 1)%Z then Throw InvalidArgument
    else Ok (map (fun i => if i <? sp_rows M then coeff M i 0 else w0) (seq 0 (Z.to_nat n))).
  (** repo: stag_lib/utility.cpp:39-43. *)
  Definition sprs_to_vec_default (M : sprs) : outcome (list W) :=
    sprs_to_vec M (Z.of_nat (sp_rows M)).

  (** repo: stag_lib/utility.h:82-95 addVectors ([this_entry = 0] then [+=]). *)
  Definition add_vectors (a b : list W) : list W :=
    map (fun i => let t := w0 in
                  let t := if i <? length a then wadd t (nth i a w0) else t in
                  if i <? length b then wadd t (nth i b w0) else t)
        (seq 0 (Nat.max (length a) (length b))).
End Sparse.
(** A column: stored (row, value) entries in storage order. *)
Notation col W := (list (nat * W)%type).
Notation triplet W := (nat * nat * W)%type.
