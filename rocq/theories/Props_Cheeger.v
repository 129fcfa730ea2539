(** cheeger_cut (stag_lib/cluster.cpp): C58, C64. *)
From Verif Require Import Base Num RSum Sparse SparseFacts Graph GraphSpec GraphFacts GraphProps1 GraphProps2 GraphProps3 GraphExamples
  Cluster ClusterSpec ClusterInst ClusterExamples Spectrum SpectrumSpec SpectrumFacts Cheeger CheegerFacts CheegerTop CheegerIneq CheegerExamples.
From Coq Require Import Reals Lra Sorting.Sorted Sorting.Permutation SpecFloat.
Local Open Scope nat_scope.

(** ** C58 *)
(** One label, 0 or 1, per vertex, in any arithmetic (doubles included) and whatever the eigensolver returns, as long as
    it returns the number of vectors it was asked for and vectors of the right length.  The only possible failure is
    that of the eigensystem. *)
Theorem C58_labels : forall (W : Type) (HN : Num W) (HP : PosNum W) (solver : eigen_solver (W := W)) (g : graph W),
  solver_shape solver -> reachable g -> no_stored_zero g ->
  match snd (cheeger_cut solver g) with
  | Ok labels => length labels = number_of_vertices g /\ Forall (fun l => l = 0 \/ l = 1)%Z labels
  | Throw e => snd (compute_eigensystem solver g MatNormalisedLaplacian 2 Smallest) = Throw e
  | UB => snd (compute_eigensystem solver g MatNormalisedLaplacian 2 Smallest) = UB
  end.
Proof. intros W HN HP solver g. exact (cheeger_labels solver g). Qed.
Print Assumptions C58_labels.
(** Graphs with less than three vertices are refused. *)
Theorem C58_small_graph : forall (W : Type) (HN : Num W) (solver : eigen_solver (W := W)) (g : graph W),
  number_of_vertices g < 3 -> snd (cheeger_cut solver g) = Throw InvalidArgument.
Proof.
  intros W HN solver g Hn. unfold cheeger_cut, compute_eigensystem. change (2 <? 1)%Z with false.
  destruct (Z.leb_spec (Z.of_nat (number_of_vertices g)) 2); [reflexivity|lia].
Qed.
Print Assumptions C58_small_graph.
(** The graph is not changed: whatever happens, the number of vertices and the adjacency matrix are those of before and
    the graph still answers every query correctly. *)
Theorem C58_graph_unchanged : forall (W : Type) (HN : Num W) (solver : eigen_solver (W := W)) (g : graph W), reachable g ->
  let g' := fst (cheeger_cut solver g) in
  reachable g' /\ number_of_vertices g' = number_of_vertices g /\ g_adj g' = g_adj g.
Proof.
  intros W HN solver g Hr g'. destruct (reachable_ok g Hr) as [_ Hc].
  assert (Q : qreach g g').
  { unfold g', cheeger_cut. pose proof (compute_eigensystem_q solver g MatNormalisedLaplacian 2 Smallest) as Q1.
    destruct (compute_eigensystem solver g MatNormalisedLaplacian 2 Smallest) as [g1 o]. cbn [fst] in Q1.
    destruct o as [es|e|]; auto. destruct (second_vector es) as [x|e|]; auto.
    assert (QS : forall vs h vec, qreach h (fst (scale_loop h vs vec))).
    { induction vs as [|v vs IH]; intros h vec; cbn [scale_loop]; [constructor|].
      assert (Q : qreach h (fst (degree h (Z.of_nat v)))) by (apply (q_step h h (OpDegree (Z.of_nat v))); [constructor|exact I|reflexivity]).
      destruct (degree h (Z.of_nat v)) as [h1 o]. cbn [fst] in *. destruct o; auto. eapply qreach_trans; [exact Q|apply IH]. }
    specialize (QS (seq 0 (number_of_vertices g1)) g1 (sparse_view x)).
    destruct (scale_loop g1 _ _) as [g2 o2]. cbn [fst] in QS. pose proof (qreach_trans _ _ _ Q1 QS) as Q2.
    destruct o2 as [vec|e|]; auto. cbn [fst]. apply (q_step g g2 OpVolume); [exact Q2|exact I|reflexivity]. }
  destruct (qreach_base g g' Hc Q) as [_ (B1 & B2 & _)]. split; [|split].
  - eapply qreach_reachable; [|exact Hr|exact Q]. auto.
  - symmetry. exact B1.
  - symmetry. exact B2.
Qed.
Print Assumptions C58_graph_unchanged.
(** Which vertices get label 1, over the real numbers and for a graph without isolated vertices: list the vertices in
    decreasing order of x(v) / sqrt(degree(v)), x a second eigenvector of the normalised Laplacian, ties by vertex number;
    the labelled set is the first proper prefix of that list of least conductance. *)
Theorem C58_label_one_is_sweep_set : forall (solver : eigen_solver (W := R)) (g : graph R), solver_contract solver -> reachable_pos g ->
  3 <= number_of_vertices g -> (forall v, v < number_of_vertices g -> rdeg g v <> 0%R) ->
  let n := number_of_vertices g in
  match snd (cheeger_cut solver g) with
  | Ok labels => exists p q order k,
      leading (order_of Smallest) n (matrix_of_graph MatNormalisedLaplacian g) 2 [p; q] /\
      Permutation (seq 0 n) order /\
      StronglySorted (listed_before (fun i => vx (snd q) i / sqrt (rdeg g i))%R) order /\
      1 <= k < n /\
      (forall j, 1 <= j < n -> (gcond g (firstn k order) <= gcond g (firstn j order))%R /\
                               (j < k -> (gcond g (firstn k order) < gcond g (firstn j order))%R)) /\
      labels = map (fun i => if in_dec Nat.eq_dec i (firstn k order) then 1%Z else 0%Z) (seq 0 n)
  | Throw e => e = RuntimeError
  | UB => False
  end.
Proof. exact cheeger_sweep. Qed.
Print Assumptions C58_label_one_is_sweep_set.
Example C58_hypotheses_met : solver_contract solver3 /\ reachable_pos exT /\ 3 <= number_of_vertices exT /\
  (forall v, v < number_of_vertices exT -> rdeg exT v <> 0%R) /\ exists labels, snd (cheeger_cut solver3 exT) = Ok labels.
Proof.
  split; [exact solver3_contract|]. split; [exact exT_reachable|]. split; [vm_compute; lia|]. split; [|exact exT_cut_runs].
  intros v Hv. rewrite exT_deg by exact Hv. lra.
Qed.
(** With an isolated vertex the vector handed to the sweep contains a NaN: sqrt(1/0) * 0.  The comparison used to sort the
    vertices is then no strict weak order (vertex 4 is equivalent to 0 and to 3, but 0 is listed before 3), which
    std::stable_sort requires: the order, hence the cut, is not defined by the library. *)
Theorem C58_isolated_vertex_doubles_refuted : exists (solver : eigen_solver (W := f64)) (g : graph f64),
  solver_shape solver /\ reachable_pos g /\
  match compute_eigensystem solver g MatNormalisedLaplacian 2 Smallest with
  | (g1, Ok es) =>
    match second_vector es with
    | Ok x =>
      match scale_loop g1 (seq 0 (number_of_vertices g1)) (sparse_view x) with
      | (_, Ok vec) =>
        let before i j := wltb (vget vec j) (vget vec i) in
        nth 4 x w0 = S754_zero false /\ vget vec 4 = S754_nan /\
        before 0 4 = false /\ before 4 0 = false /\ before 4 3 = false /\ before 3 4 = false /\ before 0 3 = true
      | _ => False
      end
    | _ => False
    end
  | _ => False
  end.
Proof.
  exists solverP4, exP4. split; [exact solverP4_shape|]. split; [exact exP4_reachable|].
  vm_compute. repeat split.
Qed.
Print Assumptions C58_isolated_vertex_doubles_refuted.

(** ** C64 *)
(** On a connected graph without self-loops the conductance of the labelled set is at most sqrt(2 lambda_2), and no set has
    conductance below lambda_2 / 2; hence the cut is within the quadratic factor of the best one. *)
Theorem C64_cheeger_inequality : forall (solver : eigen_solver (W := R)) (g : graph R), solver_contract solver -> reachable_pos g ->
  3 <= number_of_vertices g -> (forall v, v < number_of_vertices g -> rw g v v = 0%R) ->
  (forall u v, u < number_of_vertices g -> v < number_of_vertices g -> connected g u v) ->
  let n := number_of_vertices g in
  match snd (cheeger_cut solver g) with
  | Ok labels => exists p q cut,
      leading (order_of Smallest) n (matrix_of_graph MatNormalisedLaplacian g) 2 [p; q] /\
      labels = map (fun i => if in_dec Nat.eq_dec i cut then 1%Z else 0%Z) (seq 0 n) /\
      NoDup cut /\ (forall v, In v cut -> v < n) /\ 1 <= length cut < n /\
      (gcond g cut <= sqrt (2 * fst q))%R /\
      (forall other, NoDup other -> (forall v, In v other -> v < n) -> 1 <= length other < n ->
         (fst q / 2 <= gcond g other)%R /\ (gcond g cut <= 2 * sqrt (gcond g other))%R)
  | Throw e => e = RuntimeError
  | UB => False
  end.
Proof. exact cheeger_inequality. Qed.
Print Assumptions C64_cheeger_inequality.
Example C64_hypotheses_met : solver_contract solver3 /\ reachable_pos exT /\ 3 <= number_of_vertices exT /\
  (forall v, v < number_of_vertices exT -> rw exT v v = 0%R) /\
  (forall u v, u < number_of_vertices exT -> v < number_of_vertices exT -> connected exT u v) /\
  exists labels, snd (cheeger_cut solver3 exT) = Ok labels.
Proof.
  split; [exact solver3_contract|]. split; [exact exT_reachable|]. split; [vm_compute; lia|]. split; [|split; [|exact exT_cut_runs]].
  - intros v Hv. rewrite exT_rw by exact Hv. now rewrite Nat.eqb_refl.
  - exact exT_connected.
Qed.
