(** Eigensystems, power method, Rayleigh quotient (stag_lib/spectrum.cpp): C56, C62, C63.  Over the real numbers. *)
From Verif Require Import Base Num RSum Sparse SparseFacts Graph GraphSpec GraphFacts GraphProps1 GraphProps2 GraphProps3 GraphProps4 GraphExamples Spectrum SpectrumSpec SpectrumFacts SpectrumPower SpectrumConv SpectrumExamples.
From Coq Require Import Reals Lra Sorting.Sorted.
Local Open Scope nat_scope.

(** ** C56: compute_eigensystem
    The eigensolver is any function meeting [solver_contract]: if it converges it returns the requested number of
    eigenpairs of largest magnitude of the operator it is given. *)
Theorem C56_eigensystem : forall (solver : eigen_solver (W := R)), solver_contract solver ->
  forall (g : graph R) mat num which, reachable_pos g -> (1 <= num < Z.of_nat (number_of_vertices g))%Z ->
    match snd (compute_eigensystem solver g mat num which) with
    | Ok r => leading (order_of which) (number_of_vertices g) (matrix_of_graph mat g) (Z.to_nat num) r
    | Throw e => e = RuntimeError
    | UB => False
    end.
Proof.
  intros solver SC g mat num which Hr Hn. pose proof (compute_eigensystem_spec solver SC g mat num which Hr Hn) as P.
  destruct (compute_eigensystem solver g mat num which) as [g' o]. apply P.
Qed.
Print Assumptions C56_eigensystem.
(** The same without [leading]: the number of pairs asked for, each an eigenpair of the matrix asked for; unit, mutually
    orthogonal vectors; values in the documented order; and no eigenvalue left out that comes before a returned one. *)
Theorem C56_eigenpairs_in_order_none_missed : forall (solver : eigen_solver (W := R)), solver_contract solver ->
  forall (g : graph R) mat num which r, reachable_pos g -> (1 <= num < Z.of_nat (number_of_vertices g))%Z ->
    snd (compute_eigensystem solver g mat num which) = Ok r ->
    let n := number_of_vertices g in let M := matrix_of_graph mat g in
    length r = Z.to_nat num /\
    (forall p, In p r -> length (snd p) = n /\ eigenpair n M (fst p) (vx (snd p))) /\
    (forall a b d, a < length r -> b < length r ->
       dot n (vx (snd (nth a r d))) (vx (snd (nth b r d))) = if a =? b then 1%R else 0%R) /\
    StronglySorted (order_of which) (map fst r) /\
    (forall mu x, eigenpair n M mu x -> (exists i, i < n /\ x i <> 0%R) ->
       In mu (map fst r) \/ (forall p, In p r -> order_of which (fst p) mu)).
Proof.
  intros solver SC g mat num which r Hr Hn E. pose proof (C56_eigensystem solver SC g mat num which Hr Hn) as P.
  rewrite E in P. cbv zeta.
  destruct (leading_facts _ _ _ _ _ P) as (L & Q & O & S' & C).
  - lia.
  - intros i j _ _. apply matrix_sym. now apply reachable_pos_reachable.
  - rewrite L. repeat split; auto; intros; apply Q; auto.
Qed.
Print Assumptions C56_eigenpairs_in_order_none_missed.
Theorem C56_graph_unchanged : forall (solver : eigen_solver (W := R)), solver_contract solver ->
  forall (g : graph R) mat num which, reachable_pos g -> (1 <= num < Z.of_nat (number_of_vertices g))%Z ->
    forall u v, weight (fst (compute_eigensystem solver g mat num which)) u v = weight g u v.
Proof.
  intros solver SC g mat num which Hr Hn u v. pose proof (compute_eigensystem_spec solver SC g mat num which Hr Hn) as P.
  destruct (compute_eigensystem solver g mat num which) as [g' o]. destruct P as ((_ & E & _) & _).
  unfold weight. cbn [fst]. now rewrite <- E.
Qed.
Print Assumptions C56_graph_unchanged.
Theorem C56_invalid_number : forall (solver : eigen_solver (W := R)) (g : graph R) mat num which,
  (num < 1 \/ Z.of_nat (number_of_vertices g) <= num)%Z ->
  snd (compute_eigensystem solver g mat num which) = Throw InvalidArgument /\
  snd (compute_eigenvectors solver g mat num which) = Throw InvalidArgument /\
  snd (compute_eigenvalues solver g mat num which) = Throw InvalidArgument.
Proof.
  intros solver g mat num which Hn. pose proof (compute_eigensystem_invalid solver g mat num which Hn) as E.
  unfold compute_eigenvectors, compute_eigenvalues. destruct (compute_eigensystem solver g mat num which) as [g' o]. cbn [snd] in *.
  rewrite E. auto.
Qed.
Print Assumptions C56_invalid_number.
(** compute_eigenvectors and compute_eigenvalues are the two halves of the result. *)
Theorem C56_projections : forall (solver : eigen_solver (W := R)) (g : graph R) mat num which r,
  snd (compute_eigensystem solver g mat num which) = Ok r ->
  snd (compute_eigenvectors solver g mat num which) = Ok (map snd r) /\
  snd (compute_eigenvalues solver g mat num which) = Ok (map fst r).
Proof.
  intros solver g mat num which r E. unfold compute_eigenvectors, compute_eigenvalues.
  destruct (compute_eigensystem solver g mat num which) as [g' o]. cbn [snd] in *. now rewrite E.
Qed.
Print Assumptions C56_projections.
(** A solver which meets the contract and converges on the edge of weight 4. *)
Example C56_hypotheses_met : solver_contract solver2 /\ reachable_pos exR /\ number_of_vertices exR = 2 /\
  exists r, snd (compute_eigensystem solver2 exR MatAdjacency 1 Smallest) = Ok r.
Proof. split; [exact solver2_contract|]. split; [exact exR_reachable|]. split; [reflexivity|]. apply exR_eigen_runs. Qed.

(** ** C62: the power method *)
Theorem C62_power : forall (M : sprs R) n num x, sp_square M n -> length x = n -> (0 <= num)%Z ->
  exists y, power_method M num x = Ok y /\ length y = n /\
    (num = 0%Z -> y = x) /\
    (forall z, z = mpow n (coeff M) (Z.to_nat num) (vx x) -> (0 < num)%Z ->
      (forall i, i < n -> vx y i = if Req_EM_T (dot n z z) 0 then 0%R else (z i / sqrt (dot n z z))%R) /\
      dot n (vx y) (vx y) = if Req_EM_T (dot n z z) 0 then 0%R else 1%R).
Proof. exact power_method_spec. Qed.
Print Assumptions C62_power.
Theorem C62_invalid_arguments : forall (M : sprs R) num x,
  (num < 0)%Z \/ sp_rows M <> sp_ncols M \/ length x <> sp_rows M -> power_method M num x = Throw InvalidArgument.
Proof. exact power_method_invalid. Qed.
Print Assumptions C62_invalid_arguments.
(** On a symmetric positive semidefinite matrix one more iteration never lowers the Rayleigh quotient. *)
Theorem C62_rayleigh_monotone : forall (M : sprs R) n num x y y', sp_square M n -> length x = n -> (0 <= num)%Z ->
  (forall i j, i < n -> j < n -> coeff M i j = coeff M j i) -> (forall v, (0 <= quad n (coeff M) v)%R) ->
  power_method M num x = Ok y -> power_method M (num + 1) x = Ok y' -> dot n (vx y') (vx y') <> 0%R ->
  exists q q', rayleigh_quotient M y = Ok q /\ rayleigh_quotient M y' = Ok q' /\ (q <= q')%R.
Proof. exact power_rayleigh_mono. Qed.
Print Assumptions C62_rayleigh_monotone.
(** Convergence: the squared cosine of the angle to the dominant eigenvector differs from 1 by at most
    (rho / |lambda_1|)^(2t) times a constant of the start vector, where rho bounds the other eigenvalues. *)
Theorem C62_convergence : forall (M : sprs R) n num x y p1 E' rho,
  sp_square M n -> (forall i j, i < n -> j < n -> coeff M i j = coeff M j i) ->
  eigen_system n (coeff M) (p1 :: E') ->
  (forall q, In q E' -> (Rabs (fst q) <= rho)%R) -> (0 <= rho < Rabs (fst p1))%R ->
  length x = n -> dot n (vx x) (vx (snd p1)) <> 0%R ->
  (0 < num)%Z -> power_method M num x = Ok y ->
  (1 - (rho / Rabs (fst p1)) ^ (2 * Z.to_nat num) *
       ((dot n (vx x) (vx x) - dot n (vx x) (vx (snd p1)) ^ 2) / dot n (vx x) (vx (snd p1)) ^ 2)
   <= dot n (vx y) (vx (snd p1)) ^ 2 <= 1)%R.
Proof. exact power_converges. Qed.
Print Assumptions C62_convergence.
(** The matrix [[2 1] [1 2]] with eigenvalues 3 and 1, from the vector (1, 0). *)
Definition exP : sprs R := mkSprs 2 [[(0, 2%R); (1, 1%R)]; [(0, 1%R); (1, 2%R)]].
Example C62_hypotheses_met : sp_square exP 2 /\ (forall i j, i < 2 -> j < 2 -> coeff exP i j = coeff exP j i) /\
  eigen_system 2 (coeff exP) [pair_plus 2 1; pair_minus 2 1] /\ (forall v, (0 <= quad 2 (coeff exP) v)%R) /\
  dot 2 (vx [1%R; 0%R]) (vx (snd (pair_plus 2 1))) <> 0%R /\ (0 <= 1 < Rabs (fst (pair_plus 2 1)))%R.
Proof.
  assert (EM : forall i j, i < 2 -> j < 2 -> coeff exP i j = m2 2 1 i j) by (intros [|[|i]] [|[|j]] Hi Hj; try lia; reflexivity).
  split; [repeat split; apply sp_wfb_iff; reflexivity|].
  split; [intros [|[|i]] [|[|j]] Hi Hj; try lia; reflexivity|].
  split; [apply (eigen_system_ext 2 (m2 2 1)); auto; apply system2; now left|]. split; [|split].
  - intros v. rewrite (quad_ext 2 _ (m2 2 1)) by auto. unfold quad. rewrite rsum2, !rsum2. unfold m2. cbn [Nat.eqb]. nra.
  - unfold dot. rewrite rsum2. unfold vx. cbn [nth snd pair_plus]. pose proof s2_sq. nra.
  - unfold pair_plus. cbn [fst]. rewrite Rabs_pos_eq; lra.
Qed.

(** ** C63: the Rayleigh quotient *)
Theorem C63_rayleigh : forall (M : sprs R) n x, sp_square M n -> length x = n ->
  rayleigh_quotient M x =
    if Req_EM_T (dot n (vx x) (vx x)) 0 then Throw InvalidArgument
    else Ok (quad n (coeff M) (vx x) / dot n (vx x) (vx x))%R.
Proof. exact rayleigh_spec. Qed.
Print Assumptions C63_rayleigh.
Theorem C63_invalid_arguments : forall (M : sprs R) x,
  sp_rows M <> sp_ncols M \/ length x <> sp_rows M -> rayleigh_quotient M x = Throw InvalidArgument.
Proof. exact rayleigh_invalid. Qed.
Print Assumptions C63_invalid_arguments.
Theorem C63_eigenvector : forall (M : sprs R) n x l, sp_square M n -> length x = n -> dot n (vx x) (vx x) <> 0%R ->
  eigenpair n (coeff M) l (vx x) -> rayleigh_quotient M x = Ok l.
Proof. exact rayleigh_eigen. Qed.
Print Assumptions C63_eigenvector.
Theorem C63_scale_invariant : forall (M : sprs R) n x c, sp_square M n -> length x = n -> c <> 0%R ->
  rayleigh_quotient M (map (Rmult c) x) = rayleigh_quotient M x.
Proof. exact rayleigh_scale. Qed.
Print Assumptions C63_scale_invariant.
(** On the Laplacians of a graph: between 0 and 2 * the largest degree, and between 0 and 2. *)
Theorem C63_laplacian_bounds : forall (g : graph R) x q d, reachable_pos g -> length x = number_of_vertices g ->
  (forall v, v < number_of_vertices g -> (rdeg g v <= d)%R) ->
  rayleigh_quotient (snd (mat_query QLap g)) x = Ok q -> (0 <= q <= 2 * d)%R.
Proof. exact rayleigh_lap_bounds. Qed.
Print Assumptions C63_laplacian_bounds.
Theorem C63_normalised_laplacian_bounds : forall (g : graph R) x q, reachable_pos g -> length x = number_of_vertices g ->
  rayleigh_quotient (snd (mat_query QNLap g)) x = Ok q -> (0 <= q <= 2)%R.
Proof. exact rayleigh_nlap_bounds. Qed.
Print Assumptions C63_normalised_laplacian_bounds.
Example C63_hypotheses_met : reachable_pos exR /\ rayleigh_quotient (snd (mat_query QLap exR)) [1%R; 0%R] = Ok 4%R /\
  rayleigh_quotient exP [0%R; 0%R] = Throw InvalidArgument.
Proof.
  pose proof (reachable_pos_reachable _ exR_reachable) as Hr. split; [exact exR_reachable|].
  assert (D : forall a b, dot 2 (vx [a; b]) (vx [a; b]) = (a * a + b * b)%R) by (intros; unfold dot; rewrite rsum2; reflexivity).
  split.
  - rewrite (query_formula exR QLap Hr). rewrite (rayleigh_spec _ 2); [|now apply (lap_square exR QLap Hr); left|reflexivity].
    rewrite D. destruct (Req_EM_T (1 * 1 + 0 * 0) 0); [lra|]. f_equal.
    rewrite (quad_ext 2 _ (matrix_of_graph MatLaplacian exR)).
    + unfold quad. rewrite rsum2, !rsum2. unfold matrix_of_graph, vx. cbn [nth Nat.eqb]. rewrite (exR_deg 0) by lia.
      rewrite (exR_pos 0) by lia. field.
    + intros i j Hi Hj. now apply (lap_entries exR i j exR_reachable).
  - rewrite (rayleigh_spec _ 2); [|repeat split; apply sp_wfb_iff; reflexivity|reflexivity].
    rewrite D. destruct (Req_EM_T (0 * 0 + 0 * 0) 0); [reflexivity|lra].
Qed.
