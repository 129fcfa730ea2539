(** Model of the clustering metrics of stag_lib/cluster.cpp.  [double] arithmetic is modelled by
    real arithmetic with [None] for a NaN or infinite result; integer arithmetic is exact with
    [UB] for signed overflow of [StagInt] (int64_t). *)
From Verif Require Import Base Cluster.
From Coq Require Import Reals.
Local Open Scope Z_scope.

(** Signed 64-bit arithmetic. repo: stag_lib/definitions.h StagInt. *)
Definition i64 (z : Z) : outcome Z :=
  if (- 9223372036854775808 <=? z) && (z <=? 9223372036854775807) then Ok z else UB.

(** repo: cluster.cpp:377-383 nChoose2. *)
Definition nChoose2 (n : Z) : outcome Z :=
  if n <? 0 then Throw InvalidArgument
  else if n <? 2 then Ok 0
  else do m <- i64 (n * (n - 1)); Ok (m / 2).

(** repo: cluster.cpp:393-405: number of clusters, continued from [k]. *)
Fixpoint scan_labels (k : Z) (l : list Z) : outcome Z :=
  match l with
  | [] => Ok k
  | x :: r => if x <? 0 then Throw InvalidArgument
              else scan_labels (if k - 1 <? x then x + 1 else k) r
  end.
(** repo: cluster.cpp:417-419: contingency(i, j)++.  The matrix is a function; its entries are
    [int], bounded by the length of the vectors, whose overflow at 2^31 is not modelled. *)
Definition table : Type := Z -> Z -> Z.
Definition tbl_inc (t : table) (p : Z * Z) : table :=
  fun a b => if (a =? fst p) && (b =? snd p) then t a b + 1 else t a b.
(** repo: cluster.cpp:385-422 contingency_table. *)
Definition contingency_table (gt labels : list Z) : outcome (Z * table) :=
  if negb (Nat.eqb (length labels) (length gt)) then Throw InvalidArgument
  else do k <- scan_labels 1 gt;
       do k <- scan_labels k labels;
       Ok (k, fold_left tbl_inc (combine gt labels) (fun _ _ => 0)).

(** repo: cluster.cpp:424-431 compute_cluster_sizes; operator[] of a missing key gives 0. *)
Definition sizes : Type := Z -> Z.
Definition size_inc (s : sizes) (x : Z) : sizes := fun a => if a =? x then s a + 1 else s a.
Definition cluster_sizes (l : list Z) : sizes := fold_left size_inc l (fun _ => 0).

(** [for (i ...) acc += f i] on int64; the loops over i and j run through [list_prod] row by row. *)
Fixpoint isum {A} (f : A -> outcome Z) (is : list A) (acc : Z) : outcome Z :=
  match is with
  | [] => Ok acc
  | i :: r => do x <- f i; do acc <- i64 (acc + x); isum f r acc
  end.
(** 0, ..., k-1. *)
Definition upto (k : Z) : list Z := map Z.of_nat (seq 0 (Z.to_nat k)).

(** Division of doubles with the undefined results left out (None). *)
Definition odiv (a b : option R) : option R :=
  match a, b with
  | Some x, Some y => if Req_EM_T y 0 then None else Some (x / y)%R
  | _, _ => None
  end.
Definition osub (a b : option R) : option R :=
  match a, b with Some x, Some y => Some (x - y)%R | _, _ => None end.

(** repo: cluster.cpp:433-463 adjusted_rand_index. *)
Definition adjusted_rand_index (gt labels : list Z) : outcome (option R) :=
  let gs := cluster_sizes gt in
  let ls := cluster_sizes labels in
  do kt <- contingency_table gt labels;
  let '(k, t) := kt in
  do c1 <- isum (fun ij => nChoose2 (t (fst ij) (snd ij))) (list_prod (upto k) (upto k)) 0;
  do c2 <- isum (fun i => nChoose2 (gs i)) (upto k) 0;
  do c3 <- isum (fun i => nChoose2 (ls i)) (upto k) 0;
  do nC2 <- nChoose2 (Z.of_nat (length gt));
  do prod <- i64 (c2 * c3);
  do sum <- i64 (c2 + c3);
  let e := odiv (Some (IZR prod)) (Some (IZR nC2)) in
  Ok (odiv (osub (Some (IZR c1)) e) (osub (Some (IZR sum / 2)%R) e)).

Definition log2 (x : R) : R := (ln x / ln 2)%R.
(** repo: cluster.cpp:465-484 entropy.  [order]: the keys of the unordered_map in its iteration order. *)
Definition entropy (order : list Z) (labels : list Z) : R :=
  let N := INR (length labels) in
  let s := cluster_sizes labels in
  fold_left (fun h i => if 0 <? s i then (h + (IZR (s i) / N) * log2 (N / IZR (s i)))%R else h) order 0%R.
(** repo: cluster.cpp:486-507 mutual_information. *)
Definition mutual_information (gt labels : list Z) : outcome R :=
  let gs := cluster_sizes gt in
  let ls := cluster_sizes labels in
  do kt <- contingency_table gt labels;
  let '(k, t) := kt in
  let N := INR (length labels) in
  Ok (fold_left (fun mi ij =>
        let n := t (fst ij) (snd ij) in
        if 0 <? n
        then (mi + (IZR n / N) * log2 ((N * IZR n) / (IZR (gs (fst ij)) * IZR (ls (snd ij)))))%R
        else mi) (list_prod (upto k) (upto k)) 0%R).
(** repo: cluster.cpp:509-516 normalised_mutual_information. *)
Definition normalised_mutual_information (ord1 ord2 gt labels : list Z) : outcome (option R) :=
  do mi <- mutual_information gt labels;
  Ok (odiv (Some mi) (Some ((entropy ord1 gt + entropy ord2 labels) / 2)%R)).

(** ** symmetric_difference.  repo: cluster.cpp:548-566. *)
(** std::unique on a sorted vector: keep the first of each run of equal elements. *)
Fixpoint uniq (l : list Z) : list Z :=
  match l with
  | [] => []
  | x :: r => match r with
              | y :: _ => if x =? y then uniq r else x :: uniq r
              | [] => [x]
              end
  end.
(** std::set_symmetric_difference on sorted ranges. *)
Fixpoint symdiff (s : list Z) : list Z -> list Z :=
  fix go (t : list Z) : list Z :=
    match s, t with
    | [], _ => t
    | _, [] => s
    | x :: s', y :: t' => if x <? y then x :: symdiff s' t
                          else if y <? x then y :: go t'
                          else symdiff s' t'
    end.
(** repo: cluster.cpp:548-566 symmetric_difference. *)
Definition symmetric_difference (S T : list Z) : list Z :=
  let S := uniq (stable_sort Z.ltb S) in
  let T := uniq (stable_sort Z.ltb T) in
  symdiff S T.
