(** Model of stag_lib/spectrum.cpp.  The eigensolver (Spectra::SymEigsSolver) is a parameter. *)
From Verif Require Import Base Num Sparse Graph.

(** repo: spectrum.h:67 and 73. *)
Inductive sort_rule : Type := Largest | Smallest.
Inductive graph_mat : Type := MatAdjacency | MatLaplacian | MatNormalisedLaplacian.

Section Spectrum.
  Context {W : Type} `{Num W}.

  (** repo: spectrum.h:58 EigenSystem.  Simplification: the vector of eigenvalues and the matrix whose columns are
      the eigenvectors are one list of (value, vector) pairs. *)
  Definition esystem : Type := list (W * list W).
  (** Spectra::SymEigsSolver with LargestMagn: matrix, number of values, subspace dimension; [None] when
      it does not converge (info() != Successful). *)
  Definition eigen_solver : Type := sprs W -> Z -> Z -> option esystem.

  (** repo: spectrum.cpp:23-60 compute_eigensystem_largestmag. *)
  Definition largestmag (solver : eigen_solver) (M : sprs W) (num : Z) (offset : W) (invert : bool) : outcome esystem :=
    if ((num <? 1) || (Z.of_nat (sp_rows M) <=? num))%Z then Throw InvalidArgument
    else
      let ncv := Z.min (10 * num) (Z.of_nat (sp_rows M)) in
      match solver M num ncv with
      | None => Throw RuntimeError
      | Some es =>
        Ok (if negb (weqb offset w0) || invert
            then map (fun p => let l := wadd (fst p) offset in
                               (if invert then wmul l (wopp w1) else l, snd p)) es
            else es)
      end.

  (** repo: spectrum.cpp:68-72: largest degree. *)
  Fixpoint max_degree (g : graph W) (vs : list nat) (m : W) : graph W * outcome W :=
    match vs with
    | [] => (g, Ok m)
    | v :: r => match degree g (Z.of_nat v) with
                | (g, Ok d) => max_degree g r (if wltb m d then d else m)
                | (g, Throw e) => (g, Throw e)
                | (g, UB) => (g, UB)
                end
    end.
  (** repo: spectrum.cpp:79-81, 87-89, 101-103, 116-118: a multiple of the identity is added on the diagonal. *)
  Definition shift_diag (n : nat) (M : sprs W) (c : W) : sprs W :=
    fold_left (fun A i => coeffRef_add A i i c) (seq 0 n) M.

  (** repo: spectrum.cpp:62-130 compute_eigensystem.  Returns the updated graph object. *)
  Definition compute_eigensystem (solver : eigen_solver) (g : graph W) (mat : graph_mat) (num : Z) (which : sort_rule)
    : graph W * outcome esystem :=
    if ((num <? 1) || (Z.of_nat (number_of_vertices g) <=? num))%Z then (g, Throw InvalidArgument)
    else
      let n := number_of_vertices g in
      let two := wadd w1 w1 in
      match max_degree g (seq 0 n) w0 with
      | (g, Ok dmax) =>
        match mat, which with
        | MatAdjacency, Largest =>
          (g, largestmag solver (shift_diag n (g_adj g) dmax) num (wopp dmax) false)
        | MatAdjacency, Smallest =>
          (g, largestmag solver (shift_diag n (sp_map wopp (g_adj g)) dmax) num (wopp dmax) true)
        | MatLaplacian, Largest =>
          let '(g, L) := mat_query QLap g in (g, largestmag solver L num w0 false)
        | MatLaplacian, Smallest =>
          let '(g, L) := mat_query QLap g in
          (g, largestmag solver (shift_diag n (sp_map wopp L) (wmul two dmax)) num (wopp (wmul two dmax)) true)
        | MatNormalisedLaplacian, Largest =>
          let '(g, L) := mat_query QNLap g in (g, largestmag solver L num w0 false)
        | MatNormalisedLaplacian, Smallest =>
          let '(g, L) := mat_query QNLap g in
          (g, largestmag solver (shift_diag n (sp_map wopp L) two) num (wopp two) true)
        end
      | (g, Throw e) => (g, Throw e)
      | (g, UB) => (g, UB)
      end.
  (** repo: spectrum.cpp:132-140 compute_eigenvectors, compute_eigenvalues. *)
  Definition compute_eigenvectors (solver : eigen_solver) g mat num which : graph W * outcome (list (list W)) :=
    let '(g, o) := compute_eigensystem solver g mat num which in (g, omap (map snd) o).
  Definition compute_eigenvalues (solver : eigen_solver) g mat num which : graph W * outcome (list W) :=
    let '(g, o) := compute_eigensystem solver g mat num which in (g, omap (map fst) o).

  (** ** Power method *)
  (** repo: Eigen [M * x]: columns in ascending order, res(i) += value * x(j) for the stored entries. *)
  Definition mat_vec (M : sprs W) (x : list W) : list W :=
    map (fun i => fold_left (fun acc p => match col_get (fst p) i with
                                          | Some v => wadd acc (wmul v (snd p)) | None => acc end)
                            (combine (sp_cols M) x) w0)
        (seq 0 (sp_rows M)).
  (** Eigen squaredNorm(), dot(), norm() and normalize() (which leaves a vector with squared norm 0 as it is).
      Simplification: Eigen adds in an unspecified, vectorised order. *)
  Definition vdot (x y : list W) : W := fold_left (fun a p => wadd a (wmul (fst p) (snd p))) (combine x y) w0.
  Definition sq_norm (x : list W) : W := vdot x x.
  Definition normalize (x : list W) : list W :=
    let z := sq_norm x in if wltb w0 z then map (fun a => wdiv a (wsqrt z)) x else x.
  (** repo: spectrum.cpp:172-173: one iteration. *)
  Definition power_step (M : sprs W) (x : list W) : list W := normalize (mat_vec M x).
  (** repo: spectrum.cpp:165-177 power_method(mat, num_iterations, initial_vector). *)
  Definition power_method (M : sprs W) (num : Z) (x : list W) : outcome (list W) :=
    if (num <? 0)%Z then Throw InvalidArgument
    else if negb (Nat.eqb (sp_rows M) (sp_ncols M)) then Throw InvalidArgument
    else if negb (Nat.eqb (length x) (sp_rows M)) then Throw InvalidArgument
    else Ok (Nat.iter (Z.to_nat num) (power_step M) x).
  (** repo: spectrum.cpp:179-192, the overloads: [iters n] is 10 * (int) ceil(log(n)), [unit_vec n] the random unit
      vector. *)
  Definition power_method_default (iters : nat -> Z) (M : sprs W) (x : list W) := power_method M (iters (sp_rows M)) x.
  Definition power_method_random (random_vec : nat -> list W) (M : sprs W) (num : Z) :=
    power_method M num (random_vec (sp_rows M)).

  (** repo: spectrum.cpp:194-202 rayleigh_quotient: (v' M) v / norm(v)^2. *)
  Definition vec_mat (x : list W) (M : sprs W) : list W :=
    map (fun c => fold_left (fun acc e => wadd acc (wmul (nth (fst e) x w0) (snd e))) c w0) (sp_cols M).
  Definition norm (x : list W) : W := wsqrt (sq_norm x).
  Definition rayleigh_quotient (M : sprs W) (x : list W) : outcome W :=
    if negb (Nat.eqb (sp_rows M) (sp_ncols M)) then Throw InvalidArgument
    else if negb (Nat.eqb (length x) (sp_rows M)) then Throw InvalidArgument
    else if weqb (norm x) w0 then Throw InvalidArgument
    else Ok (wdiv (vdot (vec_mat x M) x) (wmul (norm x) (norm x))).
End Spectrum.
