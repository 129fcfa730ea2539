(** cheeger_cut (stag_lib/cluster.cpp) on graphs with several connected components: C86. *)
From Verif Require Import Base Num RSum Sparse Graph GraphSpec GraphProps1 ClusterSpec ClusterExamples Spectrum SpectrumSpec Cheeger RecoverTop RecoverExamples CheegerComp.
From Coq Require Import Reals Lra.
Local Open Scope nat_scope.

(** ** C86 *)
(** On a graph with at least two connected components (no self-loops, no isolated vertices, at least three vertices) the second
    eigenvalue is 0, and unless the second vector the eigensolver returned happens to be a multiple of the vector of the square
    roots of the degrees, the cut is exact: both labels occur and connected vertices have the same label. *)
Theorem C86_disconnected_partial : forall (solver : eigen_solver (W := R)) (g : graph R) c comp, solver_contract solver -> reachable_pos g ->
  3 <= number_of_vertices g -> (forall v, v < number_of_vertices g -> rw g v v = 0%R) ->
  (forall v, v < number_of_vertices g -> rdeg g v <> 0%R) -> components g c comp -> 2 <= c ->
  let n := number_of_vertices g in
  match snd (cheeger_cut solver g) with
  | Ok labels => exists p q,
      snd (compute_eigensystem solver g MatNormalisedLaplacian 2 Smallest) = Ok [p; q] /\ fst q = 0%R /\
      ((exists s, forall v, v < n -> vx (snd q) v = (s * sqrt (rdeg g v))%R) \/
       (length labels = n /\ In 0%Z labels /\ In 1%Z labels /\
        forall u v, u < n -> v < n -> connected g u v -> nth u labels 0%Z = nth v labels 0%Z))
  | Throw e => e = RuntimeError
  | UB => False
  end.
Proof. exact cheeger_components. Qed.
Print Assumptions C86_disconnected_partial.
Example C86_hypotheses_met : solver_contract exD_solver /\ reachable_pos exD /\ 3 <= number_of_vertices exD /\
  (forall v, v < number_of_vertices exD -> rw exD v v = 0%R) /\ (forall v, v < number_of_vertices exD -> rdeg exD v <> 0%R) /\
  components exD 2 exD_comp /\ (exists labels, snd (cheeger_cut exD_solver exD) = Ok labels) /\
  (forall p q, snd (compute_eigensystem exD_solver exD MatNormalisedLaplacian 2 Smallest) = Ok [p; q] ->
     ~ exists s, forall v, v < number_of_vertices exD -> vx (snd q) v = (s * sqrt (rdeg exD v))%R).
Proof.
  assert (H4 : number_of_vertices exD = 4) by reflexivity. rewrite H4.
  split; [exact exD_solver_contract|]. split; [exact exD_reachable|]. split; [lia|]. split; [|split; [|split; [exact exD_components|split; [exact exD_cut_runs|]]]].
  - intros v Hv. rewrite exD_rw by auto. destruct v as [|[|[|[|v]]]]; try lia; reflexivity.
  - intros v Hv. rewrite exD_deg by auto. destruct (exD_comp v =? 0); lra.
  - intros p q E (s & Hs). apply (table_vectors 4 2 exD_A exD_E) in E. cbn [map firstn exD_E snd] in E. injection E as _ Eq.
    pose proof (Hs 0 ltac:(lia)) as A0. pose proof (Hs 1 ltac:(lia)) as A1. rewrite exD_deg in A0, A1 by lia. rewrite Eq in A0, A1.
    unfold vx in A0, A1. cbn [nth exD_comp Nat.eqb] in A0, A1. rewrite (sqrt_of 1 1) in A0 by lra. rewrite (sqrt_of 4 2) in A1 by lra.
    pose proof SpectrumExamples.s2_sq. nra.
Qed.
(** In general it is false, although the eigensolver is exact: the eigenspace of 0 has one dimension per component, and the two
    vectors returned may be any orthonormal ones of that space.  If the second is the vector of the square roots of the degrees,
    the sweep is by vertex number.  The graph has the edges {0,2} of weight 1 and {1,3} of weight 4; the labelled set is {0}, of
    conductance 1, and the connected vertices 0 and 2 are separated, although {0,2} has conductance 0. *)
Theorem C86_disconnected_refuted : exists (solver : eigen_solver (W := R)) (g : graph R) comp, solver_contract solver /\ reachable_pos g /\
  3 <= number_of_vertices g /\ (forall v, v < number_of_vertices g -> rw g v v = 0%R) /\ (forall v, v < number_of_vertices g -> rdeg g v <> 0%R) /\
  components g 2 comp /\ connected g 0 2 /\
  snd (cheeger_cut solver g) = Ok [1; 0; 0; 0]%Z /\ gcond g [0] = 1%R /\ gcond g [0; 2] = 0%R.
Proof.
  exists exD_solver2, exD, exD_comp. destruct C86_hypotheses_met as (_ & H1 & H2 & H3 & H4 & H5 & _).
  split; [exact exD_solver2_contract|]. repeat (split; [assumption|]). split; [|exact exD_bad_cut].
  apply step_edge. rewrite exD_rw by lia. cbn. lra.
Qed.
Print Assumptions C86_disconnected_refuted.
