(** Vocabulary for the statements about eigenvalues (no code is modelled here). *)
From Verif Require Import Base Num RSum Sparse Graph GraphSpec Spectrum.
From Coq Require Import Reals Sorting.Sorted.
Local Open Scope nat_scope.

(** Component of a vector given as a list. *)
Definition vx (v : list R) (i : nat) : R := nth i v 0%R.
Definition dot (n : nat) (x y : nat -> R) : R := rsum n (fun i => x i * y i)%R.
(** (M x)_i *)
Definition mulv (n : nat) (M : nat -> nat -> R) (x : nat -> R) (i : nat) : R := rsum n (fun j => M i j * x j)%R.
(** M^t x *)
Fixpoint mpow (n : nat) (M : nat -> nat -> R) (t : nat) (x : nat -> R) : nat -> R :=
  match t with 0 => x | S t => mulv n M (mpow n M t x) end.
Definition eigenpair (n : nat) (M : nat -> nat -> R) (l : R) (x : nat -> R) : Prop :=
  forall i, i < n -> mulv n M x i = (l * x i)%R.

(** A complete system of eigenvectors of an n by n matrix: n eigenpairs with orthonormal vectors, in which every vector
    can be expanded. *)
Definition eigen_system (n : nat) (M : nat -> nat -> R) (E : list (R * list R)) : Prop :=
  length E = n /\
  Forall (fun p => length (snd p) = n /\ eigenpair n M (fst p) (vx (snd p))) E /\
  (forall a b d, a < n -> b < n -> dot n (vx (snd (nth a E d))) (vx (snd (nth b E d))) = if a =? b then 1%R else 0%R) /\
  (forall x i, i < n -> x i = lsum (fun p => dot n x (vx (snd p)) * vx (snd p) i)%R E).

(** The first [num] eigenpairs of a complete system ordered by [ord]. *)
Definition leading (ord : R -> R -> Prop) (n : nat) (M : nat -> nat -> R) (num : nat) (r : list (R * list R)) : Prop :=
  exists E, eigen_system n M E /\ StronglySorted ord (map fst E) /\ r = firstn num E.

Definition decreasing_magnitude (a b : R) : Prop := (Rabs b <= Rabs a)%R.
Definition order_of (which : sort_rule) (a b : R) : Prop :=
  match which with Largest => (b <= a)%R | Smallest => (a <= b)%R end.

(** The symmetric matrix the solver works on: Spectra::SparseSymMatProd with Eigen::Upper reads the upper triangle
    (spectrum.h:44). *)
Definition upper_sym (M : sprs R) (i j : nat) : R := coeff M (Nat.min i j) (Nat.max i j).
(** What is assumed of the eigensolver: on a square matrix a converged result consists of the [num] eigenpairs of largest
    magnitude, in decreasing order of magnitude. *)
Definition solver_contract (solver : eigen_solver (W := R)) : Prop :=
  forall M n num ncv r, sp_square M n -> (1 <= num < Z.of_nat n)%Z -> solver M num ncv = Some r ->
    leading decreasing_magnitude n (upper_sym M) (Z.to_nat num) r.

(** The graph matrices. *)
Definition matrix_of_graph (mat : graph_mat) (g : graph R) (u v : nat) : R :=
  match mat with
  | MatAdjacency => rw g u v
  | MatLaplacian => ((if u =? v then rdeg g u else 0) - rw g u v)%R
  | MatNormalisedLaplacian =>
    ((if u =? v then 1 else 0) - (if Req_EM_T (rw g u v) 0 then 0 else rw g u v / sqrt (rdeg g u * rdeg g v)))%R
  end.
