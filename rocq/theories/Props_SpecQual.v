(** C92: spectral clustering finds well separated clusters. *)
From Verif Require Import Base Num RSum Sparse SparseFacts Graph GraphSpec GraphFacts GraphProps1 GraphProps2 GraphProps3 GraphExamples
  Spectrum SpectrumSpec SpectrumFacts SpectrumExamples KMeans KMeansFacts KMeansTop MTFacts RecoverTop RecoverExamples KppMath Kpp KppTop SpecQual.
From Coq Require Import Reals Lra Psatz Lia List Sorting.Sorted.
Import ListNotations.
Local Open Scope nat_scope.

(** Let the vertices be divided into k clusters of at most [smax] vertices, and let lam be the (k+1)-st smallest eigenvalue of the
    normalised Laplacian.  If spectral_cluster(g, k) returns labels, the number of misplaced vertices is at most
    4 smax (energy of the clusters / lam + the k-means cost of the labels among the rows of the eigenvector matrix);
    and if this number is below 1, the labels give exactly the clusters. *)
Theorem C92_misplaced (bump : R -> R) (solver : eigen_solver (W := R)) (g : graph R) k s lam smax labels :
  solver_contract solver -> reachable_pos g ->
  (forall v, v < number_of_vertices g -> rw g v v = 0%R) -> (forall v, v < number_of_vertices g -> rdeg g v <> 0%R) ->
  1 <= k -> 2 * k <= number_of_vertices g -> (Z.of_nat k <= 21474836)%Z ->
  clustering (number_of_vertices g) k s -> nth_eigenvalue (number_of_vertices g) (matrix_of_graph MatNormalisedLaplacian g) k lam -> (0 < lam)%R ->
  (forall j, j < k -> (cluster_size (number_of_vertices g) s j <= smax)%R) ->
  snd (spectral_cluster IZR unit_ofR truncR bump solver g (Z.of_nat k)) = Ok labels ->
  exists vecs, snd (compute_eigenvectors solver g MatNormalisedLaplacian (Z.of_nat k) Smallest) = Ok vecs /\
    let bound := (4 * smax * (rsum k (cluster_energy g s) / lam + labels_cost k (rows_of (number_of_vertices g) vecs) (map Z.to_nat labels)))%R in
    (misplaced (number_of_vertices g) s labels <= bound)%R /\
    ((bound < 1)%R -> forall u v, u < number_of_vertices g -> v < number_of_vertices g -> (nth u labels 0%Z = nth v labels 0%Z <-> s u = s v)).
Proof. intros. now apply (spectral_misplaced bump solver g k s lam smax). Qed.
(** With independent uniform numbers in place of those of the generator seeded with 42, the expected number of misplaced vertices is at
    most 4 smax (1 + 8 (2 + ln k)) (energy of the clusters) / lam, *)
Theorem C92_expected (bump : R -> R) (solver : eigen_solver (W := R)) (g : graph R) k s lam smax bad vecs :
  (forall c, (1 <= c)%R -> bump c = c) -> solver_contract solver -> reachable_pos g ->
  (forall v, v < number_of_vertices g -> rw g v v = 0%R) -> (forall v, v < number_of_vertices g -> rdeg g v <> 0%R) ->
  1 <= k -> 2 * k <= number_of_vertices g -> (Z.of_nat k <= 21474836)%Z ->
  clustering (number_of_vertices g) k s -> nth_eigenvalue (number_of_vertices g) (matrix_of_graph MatNormalisedLaplacian g) k lam -> (0 < lam)%R ->
  (forall j, j < k -> (cluster_size (number_of_vertices g) s j <= smax)%R) ->
  snd (compute_eigenvectors solver g MatNormalisedLaplacian (Z.of_nat k) Smallest) = Ok vecs ->
  exists e, is_mean k (fun us => value_or bad (misplaced (number_of_vertices g) s) (snd (spectral_cluster_with bump solver g (Z.of_nat k) us))) e /\
    (e <= 4 * smax * (1 + 8 * (2 + ln (INR k))) * (rsum k (cluster_energy g s) / lam))%R.
Proof. intros. now apply (spectral_expected bump solver g k s lam smax) with (vecs := vecs). Qed.
(** and the probability that the labels are not exactly the clusters is at most the same number. *)
Theorem C92_probability (bump : R -> R) (solver : eigen_solver (W := R)) (g : graph R) k s lam smax vecs :
  (forall c, (1 <= c)%R -> bump c = c) -> solver_contract solver -> reachable_pos g ->
  (forall v, v < number_of_vertices g -> rw g v v = 0%R) -> (forall v, v < number_of_vertices g -> rdeg g v <> 0%R) ->
  1 <= k -> 2 * k <= number_of_vertices g -> (Z.of_nat k <= 21474836)%Z ->
  clustering (number_of_vertices g) k s -> nth_eigenvalue (number_of_vertices g) (matrix_of_graph MatNormalisedLaplacian g) k lam -> (0 < lam)%R ->
  (forall j, j < k -> (cluster_size (number_of_vertices g) s j <= smax)%R) ->
  snd (compute_eigenvectors solver g MatNormalisedLaplacian (Z.of_nat k) Smallest) = Ok vecs ->
  exists e, is_mean k (fun us => value_or 1%R (fun labels => if recovers (number_of_vertices g) s labels then 0%R else 1%R) (snd (spectral_cluster_with bump solver g (Z.of_nat k) us))) e /\
    (e <= 4 * smax * (1 + 8 * (2 + ln (INR k))) * (rsum k (cluster_energy g s) / lam))%R.
Proof. intros. now apply (spectral_probability bump solver g k s lam smax) with (vecs := vecs). Qed.
(** [recovers] says what it should. *)
Theorem C92_recovers n s labels : recovers n s labels = true <-> forall u v, u < n -> v < n -> (nth u labels 0%Z = nth v labels 0%Z <-> s u = s v).
Proof. exact (recovers_iff n s labels). Qed.
(** The call is the one with the numbers of the generator. *)
Theorem C92_randomness bump (solver : eigen_solver (W := R)) g k :
  spectral_cluster IZR unit_ofR truncR bump solver g k = spectral_cluster_with bump solver g k (unit_draws (mt_init 42) (Z.to_nat k)).
Proof. exact (spectral_cluster_draws bump solver g k). Qed.
(** The energy of a cluster whose vertices have the same degree is its conductance: (weight of the edges that leave it) / volume. *)
Theorem C92_conductance (g : graph R) k s j d : reachable_pos g ->
  (forall v, v < number_of_vertices g -> rdeg g v <> 0%R) -> clustering (number_of_vertices g) k s -> j < k ->
  (forall u, u < number_of_vertices g -> s u = j -> rdeg g u = d) -> cluster_energy g s j = cluster_conductance g s j.
Proof. intros Hr NI Hs Hj Hd. now apply (energy_conductance g k s Hr NI Hs j d). Qed.
(** The (k+1)-st eigenvalue is determined by the matrix. *)
Theorem C92_eigenvalue_unique n M k l l' : (forall i j, i < n -> j < n -> M i j = M j i) -> nth_eigenvalue n M k l -> nth_eigenvalue n M k l' -> l = l'.
Proof.
  intros Sy (E & S & T & <-) (E' & S' & T' & <-). f_equal. now apply (ev_unique n M Sy).
Qed.

(** ** A ring of four vertices with two strong and two weak edges *)
Definition ring_M : sprs R := mkSprs 4 [[(1, 1000%R); (3, 1%R)]; [(0, 1000%R); (2, 1%R)]; [(1, 1%R); (3, 1000%R)]; [(0, 1%R); (2, 1000%R)]].
Definition ring : graph R := fresh_graph ring_M.
Definition ring_w (u v : nat) : R := match u, v with 0, 1 | 1, 0 | 2, 3 | 3, 2 => 1000 | 1, 2 | 2, 1 | 0, 3 | 3, 0 => 1 | _, _ => 0 end%R.
Definition ring_s (v : nat) : nat := match v with 0 | 1 => 0 | _ => 1 end.
Lemma ring_square : sp_square ring_M 4.
Proof. split; [reflexivity|]. split; [reflexivity|]. apply sp_wfb_iff. reflexivity. Qed.
Lemma ring_reachable : reachable_pos ring.
Proof.
  apply (graph_of ring_M 4 ring_square).
  - intros i j v. unfold ring_M, sp_get, sp_col. simpl. destruct j as [|[|[|[|[|j]]]]]; simpl; try discriminate; destruct i as [|[|[|[|i]]]]; simpl; try discriminate; intros [= <-]; lra.
  - intros i j. unfold coeff, sp_get, sp_col, ring_M. simpl. destruct i as [|[|[|[|[|i]]]]], j as [|[|[|[|[|j]]]]]; reflexivity.
Qed.
Lemma ring_rw u v : u < 4 -> v < 4 -> rw ring u v = ring_w u v.
Proof. intros Hu Hv. destruct u as [|[|[|[|u]]]], v as [|[|[|[|v]]]]; try lia; reflexivity. Qed.
Lemma ring_deg v : v < 4 -> rdeg ring v = 1001%R.
Proof. intros Hv. unfold rdeg. change (g_n ring) with 4. rewrite rsum4, !ring_rw by lia. destruct v as [|[|[|[|v]]]]; try lia; cbn; lra. Qed.
Lemma ring_nlap i j : i < 4 -> j < 4 -> matrix_of_graph MatNormalisedLaplacian ring i j = ((if i =? j then 1 else 0) - ring_w i j / 1001)%R.
Proof.
  intros Hi Hj. unfold matrix_of_graph. rewrite ring_rw, !ring_deg by auto. assert (sqrt (1001 * 1001) = 1001)%R as -> by (apply sqrt_of; lra).
  destruct (Req_EM_T (ring_w i j) 0) as [->|]; [|reflexivity]. lra.
Qed.
Definition ring_A (i j : nat) : R := ((if i =? j then 1 else 0) + ring_w i j / 1001)%R.
Definition ring_v (a : nat) : list R := match a with 0 => [1; 1; 1; 1] | 1 => [1; 1; -1; -1] | 2 => [1; -1; -1; 1] | _ => [1; -1; 1; -1] end%R.
Definition half (a : nat) : list R := map (fun x => x / 2)%R (ring_v a).
Definition ring_E : list (R * list R) := [(2%R, half 0); ((2000/1001)%R, half 1); ((2/1001)%R, half 2); (0%R, half 3)].
Definition ring_F : list (R * list R) := [(0%R, half 0); ((2/1001)%R, half 1); ((2000/1001)%R, half 2); (2%R, half 3)].
Ltac ring_eigen :=
  split; [reflexivity|]; split; [repeat constructor; intros [|[|[|[|i]]]] Hi; try lia; unfold mulv; rewrite rsum4; rewrite ?ring_nlap by lia; unfold vx, ring_A; cbn [nth snd fst half ring_v map Nat.eqb ring_w]; lra|]; split;
  [intros [|[|[|[|x]]]] [|[|[|[|y]]]] d Hx Hy; try lia; unfold dot; rewrite rsum4; unfold vx; cbn [nth snd ring_E ring_F Nat.eqb half ring_v map]; lra
  |intros x i Hi; cbn [lsum ring_E ring_F]; unfold dot; rewrite !rsum4; unfold vx; destruct i as [|[|[|[|i]]]]; [| | | |lia]; cbn [nth snd half ring_v map]; lra].
Lemma ring_system : eigen_system 4 ring_A ring_E.
Proof. ring_eigen. Qed.
Lemma ring_system_nlap : eigen_system 4 (matrix_of_graph MatNormalisedLaplacian ring) ring_F.
Proof. ring_eigen. Qed.
Definition ring_solver : eigen_solver (W := R) := table_solver 4 2 ring_A ring_E.
Lemma ring_solver_contract : solver_contract ring_solver.
Proof.
  apply table_contract.
  - intros [|[|[|[|i]]]] [|[|[|[|j]]]] Hi Hj; try lia; reflexivity.
  - exact ring_system.
  - unfold ring_E. cbn [map fst]. repeat (apply SSorted_cons || apply SSorted_nil || apply Forall_cons || apply Forall_nil);
      unfold decreasing_magnitude; rewrite ?Rabs_R0; rewrite ?Rabs_right by lra; lra.
Qed.
Lemma ring_runs : exists r, snd (compute_eigensystem ring_solver ring MatNormalisedLaplacian 2 Smallest) = Ok r.
Proof.
  apply (table_runs 4 2 ring_A ring_E ring ring_reachable eq_refl ltac:(lia)).
  intros i j Hij Hj. rewrite ring_nlap by lia. unfold ring_A. destruct (i =? j); lra.
Qed.
Lemma ring_eigenvalue : nth_eigenvalue 4 (matrix_of_graph MatNormalisedLaplacian ring) 2 (2000/1001).
Proof.
  exists ring_F. split; [exact ring_system_nlap|]. split; [|reflexivity]. unfold ring_F. cbn [map fst].
  repeat (apply SSorted_cons || apply SSorted_nil || apply Forall_cons || apply Forall_nil); lra.
Qed.
Lemma ring_clustering : clustering 4 2 ring_s.
Proof. split; [intros [|[|u]] _; cbn; lia|]. intros [|[|j]] Hj; [exists 0|exists 2|lia]; cbn; lia. Qed.
Lemma ring_size j : j < 2 -> (cluster_size 4 ring_s j <= 2)%R.
Proof. intros Hj. unfold cluster_size. rewrite rsum4. destruct j as [|[|j]]; [| |lia]; cbn; lra. Qed.
Lemma ring_energy : rsum 2 (cluster_energy ring ring_s) = (2 / 1001)%R.
Proof.
  assert (forall j, j < 2 -> cluster_energy ring ring_s j = (1 / 1001)%R) as E.
  { intros j Hj. rewrite (C92_conductance ring 2 ring_s j 1001 ring_reachable) ; [| |exact ring_clustering|exact Hj|].
    - unfold cluster_conductance, cluster_cut, cluster_volume. change (number_of_vertices ring) with 4. rewrite !rsum4, !ring_rw, !ring_deg by lia.
      destruct j as [|[|j]]; [| |lia]; cbn [ring_s Nat.eqb andb negb ring_w]; lra.
    - intros v Hv. change (v < 4) in Hv. rewrite ring_deg by auto. lra.
    - intros u Hu _. now apply ring_deg. }
  unfold rsum. cbn [seq lsum]. rewrite !E by lia. lra.
Qed.
Example C92_hypotheses_met : solver_contract ring_solver /\ reachable_pos ring /\ (forall v, v < 4 -> rw ring v v = 0%R) /\ (forall v, v < 4 -> rdeg ring v <> 0%R) /\
  clustering 4 2 ring_s /\ nth_eigenvalue 4 (matrix_of_graph MatNormalisedLaplacian ring) 2 (2000/1001) /\ (forall j, j < 2 -> (cluster_size 4 ring_s j <= 2)%R) /\
  (exists vecs, snd (compute_eigenvectors ring_solver ring MatNormalisedLaplacian 2 Smallest) = Ok vecs) /\
  (exists labels, snd (spectral_cluster IZR unit_ofR truncR (fun c => c) ring_solver ring 2) = Ok labels).
Proof.
  split; [exact ring_solver_contract|]. split; [exact ring_reachable|]. split; [intros [|[|[|[|v]]]] Hv; try lia; reflexivity|].
  split; [intros v Hv; rewrite ring_deg by auto; lra|]. split; [exact ring_clustering|]. split; [exact ring_eigenvalue|]. split; [exact ring_size|].
  destruct ring_runs as (r0 & Er). split.
  - exists (map snd r0). unfold compute_eigenvectors. destruct (compute_eigensystem ring_solver ring MatNormalisedLaplacian 2 Smallest). cbn [snd] in *. subst. reflexivity.
  - pose proof (spectral_cluster_labels IZR unit_ofR truncR (fun c => c) ring_solver ring 2 4 eq_refl ltac:(vm_compute; split; congruence) (first_choice 4 ltac:(lia))) as P.
    destruct (snd (spectral_cluster IZR unit_ofR truncR (fun c => c) ring_solver ring 2)) as [labels|e|]; [eauto| |]; rewrite Er in P; discriminate.
Qed.
(** The two strong pairs are found with probability at least 4/5. *)
Example C92_ring : exists e, is_mean 2 (fun us => value_or 1%R (fun labels => if recovers 4 ring_s labels then 0%R else 1%R) (snd (spectral_cluster_with (fun c => c) ring_solver ring 2 us))) e /\ (e <= 1 / 5)%R.
Proof.
  destruct C92_hypotheses_met as (H1 & H2 & H3 & H4 & H5 & H6 & H7 & (vecs & H8) & _).
  destruct (C92_probability (fun c => c) ring_solver ring 2 ring_s (2000/1001) 2 vecs (fun c _ => eq_refl) H1 H2 H3 H4 ltac:(lia) ltac:(cbn; lia) ltac:(lia) H5 H6 ltac:(lra) H7 H8) as (e & M & L).
  exists e. split; [exact M|]. rewrite ring_energy in L. eapply Rle_trans; [exact L|].
  assert (ln (INR 2) <= 1)%R.
  { cbn [INR]. replace (1+1)%R with 2%R by ring. rewrite <- (ln_exp 1). apply Rlt_le, ln_increasing; [lra|]. pose proof (exp_ineq1 1 ltac:(lra)). lra. }
  lra.
Qed.
Print Assumptions C92_misplaced.
Print Assumptions C92_expected.
Print Assumptions C92_probability.
Print Assumptions C92_recovers.
Print Assumptions C92_randomness.
Print Assumptions C92_conductance.
Print Assumptions C92_eigenvalue_unique.
