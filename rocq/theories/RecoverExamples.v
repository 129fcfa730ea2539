(** Runs of spectral_cluster on graphs with two components (C84). *)
From Verif Require Import Base Num RSum Sparse SparseFacts Graph GraphSpec GraphFacts GraphProps1 GraphProps2 GraphProps3 GraphProps4 GraphExamples Cluster ClusterSpec ClusterInst ClusterExamples
  Spectrum SpectrumSpec SpectrumFacts SpectrumPower SpectrumExamples CheegerIneq KMeans KMeansFacts KMeansSpec KMeansLloyd KMeansTop MTFacts RecoverKM RecoverTop.
From Coq Require Import Reals Lra Psatz Relations Sorting.Sorted.
Local Open Scope nat_scope.

(** ** An eigensolver for one matrix, given with its eigenvectors *)
Section Table.
  Variables (n num : nat) (A : nat -> nat -> R) (E : list (R * list R)).
  Definition is_table (M : sprs R) : Prop := Forall (fun p => coeff M (fst p) (snd p) = A (fst p) (snd p)) (upper_pairs n).
  Definition table_solver : eigen_solver (W := R) := fun M k _ =>
    if Nat.eqb (sp_rows M) n && Z.eqb k (Z.of_nat num) then
      if Forall_dec (fun p => coeff M (fst p) (snd p) = A (fst p) (snd p)) (fun p => Req_EM_T _ _) (upper_pairs n) then Some (firstn num E) else None
    else None.
  Lemma table_contract : (forall i j, i < n -> j < n -> A i j = A j i) -> eigen_system n A E -> StronglySorted decreasing_magnitude (map fst E) ->
    solver_contract table_solver.
  Proof.
    intros HA HE Hs M m k ncv r (Rr & _) Hk. unfold table_solver. rewrite Rr.
    destruct (Nat.eqb_spec m n) as [->|]; [|discriminate]. destruct (Z.eqb_spec k (Z.of_nat num)) as [->|]; [|discriminate]. cbn [andb].
    destruct (Forall_dec _ _ _) as [F|]; [|discriminate]. intros [= <-]. rewrite Nat2Z.id. exists E. split; [|auto].
    apply (eigen_system_ext n A); auto. intros i j Hi Hj. unfold upper_sym. rewrite Forall_forall in F.
    destruct (Nat.le_gt_cases i j) as [L|L].
    - rewrite Nat.min_l, Nat.max_r by lia. apply (F (i, j)). apply in_upper_pairs. lia.
    - rewrite Nat.min_r, Nat.max_l by lia. rewrite HA by auto. apply (F (j, i)). apply in_upper_pairs. lia.
  Qed.
  Lemma table_runs (g : graph R) : reachable_pos g -> number_of_vertices g = n -> 1 <= num < n ->
    (forall i j, i <= j -> j < n -> A i j = ((if i =? j then 2 else 0) - matrix_of_graph MatNormalisedLaplacian g i j)%R) ->
    exists r, snd (compute_eigensystem table_solver g MatNormalisedLaplacian (Z.of_nat num) Smallest) = Ok r.
  Proof.
    intros Hp Hgn Hnum HA. pose proof (reachable_pos_reachable _ Hp) as Hr. destruct (reachable_ok g Hr) as [Hsq Hc].
    change (number_of_vertices g) with (g_n g) in Hgn.
    unfold compute_eigensystem. change (number_of_vertices g) with (g_n g). rewrite Hgn.
    destruct (Z.ltb_spec (Z.of_nat num) 1); [lia|]. destruct (Z.leb_spec (Z.of_nat n) (Z.of_nat num)); [lia|]. cbn [orb]. cbv zeta.
    destruct (max_degree_spec g (seq 0 n) Hr (fun v Hv => ltac:(apply in_seq in Hv; lia)) g w0 Hc (same_base_refl g))
      as (g1 & d & Eq & C1 & S1 & _). rewrite Eq.
    destruct (mat_query_spec QNLap g1 C1) as (C2 & S2 & E2). destruct (mat_query QNLap g1) as [g2 L]. cbn [fst snd] in *. subst L.
    assert (EA : g_adj g1 = g_adj g) by (destruct S1 as (_ & -> & _); reflexivity). rewrite EA.
    assert (SL : sp_square (sp_map wopp (mat_formula QNLap (g_adj g))) n) by (rewrite <- Hgn; apply sp_map_square, (lap_square g); auto).
    pose proof (shift_diag_square n _ (wadd w1 w1) SL) as (R1 & _ & _).
    unfold largestmag. rewrite R1. destruct (Z.ltb_spec (Z.of_nat num) 1); [lia|]. destruct (Z.leb_spec (Z.of_nat n) (Z.of_nat num)); [lia|]. cbn [orb].
    set (M := shift_diag n _ _) in *. unfold table_solver. rewrite R1, Nat.eqb_refl, Z.eqb_refl. cbn [andb].
    destruct (Forall_dec _ _ _) as [F|N]; [eexists; reflexivity|]. exfalso. apply N. apply Forall_forall. intros [i j] Hij. apply in_upper_pairs in Hij.
    cbn [fst snd]. unfold M. rewrite shift_diag_coeff by (auto; lia). rewrite opp_coeff.
    destruct (lap_entries g i j Hp) as [_ ->]; [lia|lia|]. rewrite HA by lia. cbn [wadd w1 NumR]. destruct (i =? j); lra.
  Qed.
End Table.

(** A graph given by its matrix, with weights above the threshold. *)
Lemma graph_of (M : sprs R) n : sp_square M n -> (forall i j v, sp_get M i j = Some v -> (1 <= v)%R) -> (forall i j, coeff M i j = coeff M j i) ->
  reachable_pos (fresh_graph M).
Proof.
  intros Hs Hv Hsym. destruct (make_graph_from_adjacency M n) as (g & E & _ & Eg & _).
  - exact Hs.
  - intros i j v G. apply Hv in G. change (R_ltb v 0 = false). unfold R_ltb. destruct (Rlt_dec v 0); [lra|reflexivity].
  - intros i j. now rewrite Hsym.
  - assert (g = fresh_graph M) as ->.
    { rewrite Eg. f_equal. apply prune_all; [|apply Hs].
      intros i j v G. apply Hv in G. change (R_ltb (/ 10000000000) v = true). unfold R_ltb. destruct (Rlt_dec (/ 10000000000) v); [reflexivity|lra]. }
    exists M, (fresh_graph M), []. repeat split; auto. apply Hs.
Qed.

(** ** Two edges: {0,2} of weight 1 and {1,3} of weight 4 *)
Definition exD_M : sprs R := mkSprs 4 [[(2, 1%R)]; [(3, 4%R)]; [(0, 1%R)]; [(1, 4%R)]].
Definition exD : graph R := fresh_graph exD_M.
Definition exD_comp (v : nat) : nat := match v with 0 => 0 | 1 => 1 | 2 => 0 | _ => 1 end.
Lemma exD_square : sp_square exD_M 4.
Proof. split; [reflexivity|]. split; [reflexivity|]. apply sp_wfb_iff. reflexivity. Qed.
Lemma exD_reachable : reachable_pos exD.
Proof.
  apply (graph_of exD_M 4 exD_square).
  - intros i j v. unfold exD_M, sp_get, sp_col. simpl. destruct j as [|[|[|[|[|j]]]]]; simpl; try discriminate; destruct i as [|[|[|[|i]]]]; simpl; try discriminate; intros [= <-]; lra.
  - intros i j. unfold coeff, sp_get, sp_col, exD_M. simpl. destruct i as [|[|[|[|[|i]]]]], j as [|[|[|[|[|j]]]]]; reflexivity.
Qed.
Lemma rsum4 f : rsum 4 f = (f 0%nat + f 1%nat + f 2%nat + f 3%nat)%R.
Proof. unfold rsum. simpl. ring. Qed.
Definition exD_w (u v : nat) : R := match u, v with 0, 2 => 1 | 2, 0 => 1 | 1, 3 => 4 | 3, 1 => 4 | _, _ => 0 end%R.
Lemma exD_rw u v : u < 4 -> v < 4 -> rw exD u v = exD_w u v.
Proof. intros Hu Hv. destruct u as [|[|[|[|u]]]], v as [|[|[|[|v]]]]; try lia; reflexivity. Qed.
Lemma exD_deg v : v < 4 -> rdeg exD v = if exD_comp v =? 0 then 1%R else 4%R.
Proof.
  intros Hv. unfold rdeg. change (g_n exD) with 4. rewrite rsum4, !exD_rw by lia. destruct v as [|[|[|[|v]]]]; try lia; cbn; lra.
Qed.
Lemma step_edge (g : graph R) u v : rw g u v <> 0%R -> connected g u v.
Proof. intros N. apply rt_step. now apply rw_adjacent. Qed.
(** No edge leaves a component. *)
Lemma connected_comp (g : graph R) (comp : nat -> nat) : reachable_pos g ->
  (forall u v, u < number_of_vertices g -> v < number_of_vertices g -> rw g u v <> 0%R -> comp u = comp v) ->
  forall u v, connected g u v -> comp u = comp v.
Proof.
  intros Hr He u v C. unfold connected in C. induction C as [a b H|a|a b c _ IH1 _ IH2]; [|reflexivity|congruence].
  destruct (adjacent_rw g Hr a b H) as (N & Ha & Hb). auto.
Qed.
Lemma exD_components : components exD 2 exD_comp.
Proof.
  split; [|split].
  - intros v _. destruct v as [|[|[|v]]]; cbn; lia.
  - intros [|[|c]] Hc; [exists 0|exists 1|lia]; (split; [vm_compute; lia|reflexivity]).
  - intros u v Hu Hv. change (u < 4) in Hu. change (v < 4) in Hv. split.
    + intros E. destruct u as [|[|[|[|u]]]], v as [|[|[|[|v]]]]; try lia; try discriminate E; try apply rt_refl;
        apply step_edge; rewrite exD_rw by lia; cbn; lra.
    + apply (connected_comp exD exD_comp exD_reachable). intros a b Ha Hb. change (a < 4) in Ha. change (b < 4) in Hb. rewrite exD_rw by auto.
      destruct a as [|[|[|[|a]]]], b as [|[|[|[|b]]]]; try lia; cbn; intros N; try reflexivity; exfalso; apply N; reflexivity.
Qed.
Definition exD_A (i j : nat) : R := match i, j with 0, 0 => 1 | 1, 1 => 1 | 2, 2 => 1 | 3, 3 => 1 | 0, 2 => 1 | 2, 0 => 1 | 1, 3 => 1 | 3, 1 => 1 | _, _ => 0 end%R.
Definition exD_E : list (R * list R) :=
  [(2%R, [s2; 0%R; s2; 0%R]); (2%R, [0%R; s2; 0%R; s2]); (0%R, [s2; 0%R; (- s2)%R; 0%R]); (0%R, [0%R; s2; 0%R; (- s2)%R])].
Lemma exD_system : eigen_system 4 exD_A exD_E.
Proof.
  pose proof s2_sq as Q. split; [reflexivity|]. split; [|split].
  - repeat constructor; intros [|[|[|[|i]]]] Hi; try lia; unfold mulv; rewrite rsum4; unfold vx, exD_A; cbn [nth snd fst]; ring.
  - intros [|[|[|[|x]]]] [|[|[|[|y]]]] d Hx Hy; try lia; unfold dot; rewrite rsum4; unfold vx; cbn [nth snd exD_E Nat.eqb]; nra.
  - intros x i Hi. unfold exD_E. cbn [lsum]. unfold dot. rewrite !rsum4. unfold vx.
    destruct i as [|[|[|[|i]]]]; [| | | |lia]; cbn [nth snd];
      match goal with |- ?l = _ => transitivity (2 * l * (s2 * s2))%R; [rewrite Q; field|ring] end.
Qed.
Definition exD_solver : eigen_solver (W := R) := table_solver 4 2 exD_A exD_E.
Lemma exD_solver_contract : solver_contract exD_solver.
Proof.
  apply table_contract.
  - intros [|[|[|[|i]]]] [|[|[|[|j]]]] Hi Hj; try lia; reflexivity.
  - exact exD_system.
  - unfold exD_E. cbn [map fst]. repeat (apply SSorted_cons || apply SSorted_nil || apply Forall_cons || apply Forall_nil);
      unfold decreasing_magnitude; rewrite ?Rabs_R0; try lra; rewrite (Rabs_right 2) by lra; lra.
Qed.
Lemma sqrt_of x y : (0 <= y)%R -> (y * y = x)%R -> sqrt x = y.
Proof. intros Hy <-. now apply sqrt_square. Qed.
Lemma exD_runs : exists r, snd (compute_eigensystem exD_solver exD MatNormalisedLaplacian 2 Smallest) = Ok r.
Proof.
  apply (table_runs 4 2 exD_A exD_E exD exD_reachable eq_refl ltac:(lia)).
  intros i j Hij Hj. unfold matrix_of_graph. rewrite exD_rw, !exD_deg by lia.
  assert (S1 : sqrt (1 * 1) = 1%R) by (apply sqrt_of; lra). assert (S4 : sqrt (4 * 4) = 4%R) by (apply sqrt_of; lra).
  destruct i as [|[|[|[|i]]]], j as [|[|[|[|j]]]]; try lia; cbn [exD_w exD_A exD_comp Nat.eqb]; rewrite ?S1, ?S4; destruct (Req_EM_T _ 0); lra.
Qed.
Lemma exD_cluster_runs : exists labels, snd (spectral_cluster IZR unit_ofR truncR (fun c => c) exD_solver exD 2) = Ok labels.
Proof.
  destruct exD_runs as (r0 & Er).
  pose proof (spectral_cluster_labels IZR unit_ofR truncR (fun c => c) exD_solver exD 2 4 eq_refl ltac:(vm_compute; split; congruence) (first_choice 4 ltac:(lia))) as P.
  destruct (snd (spectral_cluster IZR unit_ofR truncR (fun c => c) exD_solver exD 2)) as [labels|e|]; [eauto| |]; rewrite Er in P; discriminate.
Qed.
