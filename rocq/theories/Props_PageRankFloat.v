(** C78: approximate PageRank and local clustering in double arithmetic. *)
From Verif Require Import Base Num RSum Sparse SparseFacts Graph GraphSpec GraphFacts GraphProps1 Cluster ClusterSpec Ppr FloatFacts GraphFloat PageRankFloat PageRankFloat2.
From Coq Require Import ZArith Reals Lra Lia SpecFloat.
From Flocq Require Import Core BinarySingleNaN.
Local Open Scope R_scope.

(** Vocabulary: [f2r] is the real number a finite double stands for, [dbl x]: x is a finite double, [u64] = 2^-53;
    [fw g] are the weights and [fdeg g] the exact degrees; [fv x k] is entry k of a vector and [seed_mass] its exact sum;
    [is_ppr n M alpha s q]: q = alpha s + (1-alpha) q M exactly, i.e. q is the PageRank vector of s for the walk M;
    [lzw n w] is the lazy walk on the weights w.  [pr_graph g kap delta]: weights finite and at least 2^-100, no self-loop,
    the computed degrees are within a factor kap of the exact ones, and 0 or between delta and 2^100. *)

(** Termination: the number of pushes is below 4/(alpha eps delta), as long as alpha eps delta is not of the order of the rounding errors. *)
Theorem C78_terminates :
  forall (g : graph f64) (kap delta : R) (alpha eps : f64),
  pr_graph g kap delta -> 0 <= kap < 1 -> 0 < delta -> dbl alpha -> dbl eps ->
  0 < f2r alpha <= 1 -> 0 < f2r eps <= bpow radix2 100 ->
  4 * (20 * u64 + kap) <= f2r alpha * f2r eps * delta ->
  forall fuel (s : sprs f64), vwf s -> (forall k, dbl (vget s k) /\ 0 <= fv s k) ->
  seed_mass (number_of_vertices g) s <= 1 -> (0 < sp_rows s <= number_of_vertices g)%nat ->
  4 < INR fuel * (f2r alpha * f2r eps * delta) ->
  exists p r, approximate_pagerank fuel (lg_of_graph g) s alpha eps = Some (Ok (p, r)).
Proof. exact graph_pagerank_double_total. Qed.
Print Assumptions C78_terminates.

(** Accuracy: all results are finite and non-negative, the residual satisfies the documented bound up to rounding, and p is a
    degree-weighted eps-approximation of the exact PageRank vector, up to a rounding error of 4(20*2^-53+kap)/(alpha eps delta). *)
Theorem C78_accuracy :
  forall (g : graph f64) (kap delta : R) (alpha eps : f64),
  pr_graph g kap delta -> 0 <= kap < 1 -> 0 < delta -> dbl alpha -> dbl eps ->
  0 < f2r alpha <= 1 -> 0 < f2r eps <= bpow radix2 100 ->
  4 * (20 * u64 + kap) <= f2r alpha * f2r eps * delta ->
  forall fuel (s p r : sprs f64) (q : nat -> R), vwf s -> (forall k, dbl (vget s k) /\ 0 <= fv s k) ->
  seed_mass (number_of_vertices g) s <= 1 ->
  approximate_pagerank fuel (lg_of_graph g) s alpha eps = Some (Ok (p, r)) ->
  is_ppr (number_of_vertices g) (lzw (number_of_vertices g) (fw g)) (f2r alpha) (fv s) q ->
  let err := 4 * (20 * u64 + kap) / (f2r alpha * f2r eps * delta) in
  let tol := f2r eps * (1 + u64) / (1 - kap) in
  (forall k, dbl (vget p k) /\ 0 <= fv p k) /\ (forall k, dbl (vget r k) /\ 0 <= fv r k) /\
  (forall v, (v < number_of_vertices g)%nat -> 0 < fdeg g v -> fv r v < tol * fdeg g v) /\
  (forall v, (v < number_of_vertices g)%nat -> 0 < fdeg g v -> fv p v - err <= q v <= fv p v + tol * fdeg g v + err).
Proof. exact graph_pagerank_double. Qed.
Print Assumptions C78_accuracy.

(** The exact PageRank vector the accuracy is measured against exists and is unique. *)
Theorem C78_reference_exists :
  forall (g : graph f64) (kap delta : R) (alpha : R) (s : nat -> R),
  pr_graph g kap delta -> 0 < alpha <= 1 ->
  (exists q, is_ppr (number_of_vertices g) (lzw (number_of_vertices g) (fw g)) alpha s q) /\
  forall q q', is_ppr (number_of_vertices g) (lzw (number_of_vertices g) (fw g)) alpha s q ->
    is_ppr (number_of_vertices g) (lzw (number_of_vertices g) (fw g)) alpha s q' -> forall v, (v < number_of_vertices g)%nat -> q v = q' v.
Proof.
  intros g kap delta alpha s G Ha. pose proof (fw_nn g kap delta G) as Wn. split.
  - apply ppr_exists; auto; [now apply lzw_nonneg|apply lzw_sub].
  - intros q q'. apply ppr_unique; auto; [now apply lzw_nonneg|apply lzw_sub].
Qed.
Print Assumptions C78_reference_exists.

(** Integer weights with total volume at most 2^53: the degrees are exact. *)
Theorem C78_integer_weights :
  forall g : graph f64, reachable g -> int_weights g -> no_stored_zero g -> fvol g <= two53 -> (forall v, fw g v v = 0) -> pr_graph g 0 1.
Proof. exact int_pr_graph. Qed.
Print Assumptions C78_integer_weights.
(** Other weights: n+1 roundings per degree. *)
Theorem C78_real_weights :
  forall (g : graph f64) (mu : R), reachable g ->
  (forall i j x, sp_get (g_adj g) i j = Some x -> dbl x /\ bpow radix2 (-100) <= f2r x) ->
  (forall v, fw g v v = 0) -> (1 + u64) ^ (number_of_vertices g + 1) - 1 <= / 2 -> 0 < mu ->
  (forall v, (v < number_of_vertices g)%nat -> fdeg g v = 0 \/ mu <= fdeg g v <= bpow radix2 99) ->
  pr_graph g (2 * ((1 + u64) ^ (number_of_vertices g + 1) - 1)) (mu / 2).
Proof. exact real_pr_graph. Qed.
Print Assumptions C78_real_weights.

(** local_cluster returns on such graphs for targets between 2^-10 and 2^39, after at most 401 target pushes. *)
Theorem C78_local_cluster_returns :
  forall (g : graph f64) fuel seed (target : f64),
  reachable g -> int_weights g -> no_stored_zero g -> fvol g <= two53 -> (forall v, fw g v v = 0) ->
  (seed < number_of_vertices g)%nat -> dbl target -> / 1024 <= f2r target <= IZR (2 ^ 39) -> 401 * f2r target < INR fuel ->
  exists l, local_cluster c001_f64 fuel (lg_of_graph g) (Z.of_nat seed) target = Some (Ok l).
Proof. exact local_cluster_double_total. Qed.
Print Assumptions C78_local_cluster_returns.

(** Without a lower bound on alpha the claim is false: with exact arithmetic every positive alpha terminates (C26), but with
    alpha = 2^-60 and eps = 1/2 on a single edge of weight 1 the double computation never returns. *)
Theorem C78_tiny_alpha_refuted :
  exists (g : graph f64) (s : sprs f64) (alpha eps : f64),
  pr_graph g 0 1 /\ vwf s /\ (forall k, dbl (vget s k) /\ 0 <= fv s k) /\ seed_mass (number_of_vertices g) s = 1 /\
  dbl alpha /\ f2r alpha = bpow radix2 (-60) /\ dbl eps /\ f2r eps = / 2 /\
  forall fuel, approximate_pagerank fuel (lg_of_graph g) s alpha eps = None.
Proof.
  exists k2, k2_seed, tiny, half. destruct k2_int as [I Z]. destruct k2_vol as (V & L & _).
  assert (Hfv : forall k, vget k2_seed k = if (k =? 0)%nat then w1 else w0) by (intros [|k]; reflexivity).
  assert (dbl w1) as D1 by (split; vm_compute; reflexivity).
  split; [apply int_pr_graph; auto; [apply k2_reachable|]|].
  { rewrite V. change 2 with (bpow radix2 1). unfold two53. apply bpow_le. lia. }
  split; [split; [reflexivity|]; unfold sp_wf, k2_seed; simpl; repeat constructor|]. split; [|split].
  - intros k. unfold fv. rewrite Hfv. destruct (k =? 0)%nat; split; auto using dbl_0; [rewrite f2r_1|rewrite f2r_0]; lra.
  - unfold seed_mass. change (number_of_vertices k2) with 2%nat. unfold rsum. cbn [seq lsum fold_right map]. unfold fv. rewrite !Hfv. cbn [Nat.eqb]. rewrite f2r_1, f2r_0. lra.
  - split; [split; vm_compute; reflexivity|]. split; [|split; [split; vm_compute; reflexivity|split; [|exact k2_diverges]]].
    + unfold f2r, tiny. cbn [SF2R]. change 4503599627370496%positive with (2 ^ 52)%positive. unfold F2R. cbn [Fnum Fexp cond_Zopp].
      change (Zpos (2 ^ 52)) with (Zpower radix2 52). rewrite IZR_Zpower, bp by lia. reflexivity.
    + unfold f2r, half. cbn [SF2R]. unfold F2R. cbn [Fnum Fexp cond_Zopp]. change 4503599627370496%Z with (Zpower radix2 52).
      rewrite IZR_Zpower, bp by lia. reflexivity.
Qed.
Print Assumptions C78_tiny_alpha_refuted.

(** The hypotheses are met by a weighted triangle with an isolated vertex, alpha = 1/8, eps = 1/64; the run returns a non-trivial vector. *)
Definition exJ_M : sprs f64 := mkSprs 4 [[(1%nat, zf 1); (2%nat, zf 3)]; [(0%nat, zf 1); (2%nat, zf 2)]; [(0%nat, zf 3); (1%nat, zf 2)]; []].
Definition exJ : graph f64 := fresh_graph exJ_M.
Definition f_eighth : f64 := S754_finite false 4503599627370496 (-55).
Definition f_64th : f64 := S754_finite false 4503599627370496 (-58).
Definition exJ_seed : sprs f64 := vset (sp_empty 1 1) 0%nat w1.
Lemma exJ_reachable : reachable exJ.
Proof. exists exJ_M, exJ, []. split; [unfold sp_wf, exJ_M; simpl; repeat constructor|]. split; [vm_compute; reflexivity|]. split; [constructor|reflexivity]. Qed.
Lemma exJ_int : int_weights exJ /\ no_stored_zero exJ.
Proof.
  assert (forall i j v, sp_get (g_adj exJ) i j = Some v -> v = zf 1 \/ v = zf 2 \/ v = zf 3) as Hs.
  { intros i j v. unfold sp_get, sp_col. destruct j as [|[|[|[|j]]]]; cbn [exJ fresh_graph g_adj exJ_M sp_cols nth col_get];
      [repeat destruct (Nat.eqb _ _)|repeat destruct (Nat.eqb _ _)|repeat destruct (Nat.eqb _ _)| |destruct j];
      intros E; try discriminate; injection E as <-; auto. }
  assert (forall z, (0 < z < 5)%Z -> isint (zf z) /\ 0 <= f2r (zf z)) as Hz.
  { intros z Hz. assert (small_int z) as S by (unfold small_int; lia). split; [now exists z|]. rewrite (proj2 (zf_spec z S)). apply (IZR_le 0). lia. }
  split; intros i j v G; destruct (Hs i j v G) as [->|[->| ->]]; try (apply Hz; lia); reflexivity.
Qed.
Lemma zfR z : (0 < z < 5)%Z -> f2r (zf z) = IZR z.
Proof. intros Hz. apply zf_spec. unfold small_int. lia. Qed.
Example C78_hypotheses_met :
  pr_graph exJ 0 1 /\ vwf exJ_seed /\ (forall k, dbl (vget exJ_seed k) /\ 0 <= fv exJ_seed k) /\
  seed_mass (number_of_vertices exJ) exJ_seed = 1 /\ dbl f_eighth /\ f2r f_eighth = / 8 /\ dbl f_64th /\ f2r f_64th = / 64 /\
  4 * (20 * u64 + 0) <= f2r f_eighth * f2r f_64th * 1 /\
  (exists p r, approximate_pagerank 60 (lg_of_graph exJ) exJ_seed f_eighth f_64th = Some (Ok (p, r)) /\ vget p 1%nat <> w0 /\ vget r 2%nat <> w0) /\
  local_cluster c001_f64 2000 (lg_of_graph exJ) 0 (zf 128) = Some (Ok [0; 2; 1]%nat).
Proof.
  destruct exJ_int as [I Z].
  assert (Hfv : forall k, vget exJ_seed k = if (k =? 0)%nat then w1 else w0) by (intros [|k]; reflexivity).
  assert (dbl w1) as D1 by (split; vm_compute; reflexivity).
  assert (L : forall v, fw exJ v v = 0) by (intros [|[|[|[|[|v]]]]]; try apply f2r_0; destruct v; apply f2r_0).
  assert (V : fvol exJ = 12).
  { unfold fvol, fdeg. change (number_of_vertices exJ) with 4%nat. unfold rsum. cbn [seq lsum fold_right map]. rewrite !L.
    assert (forall u v x, weight exJ u v = x -> fw exJ u v = f2r x) as Ew by (intros u v x <-; reflexivity).
    rewrite (Ew 0%nat 1%nat (zf 1) eq_refl), (Ew 0%nat 2%nat (zf 3) eq_refl), (Ew 0%nat 3%nat w0 eq_refl), (Ew 1%nat 0%nat (zf 1) eq_refl),
      (Ew 1%nat 2%nat (zf 2) eq_refl), (Ew 1%nat 3%nat w0 eq_refl), (Ew 2%nat 0%nat (zf 3) eq_refl), (Ew 2%nat 1%nat (zf 2) eq_refl), (Ew 2%nat 3%nat w0 eq_refl),
      (Ew 3%nat 0%nat w0 eq_refl), (Ew 3%nat 1%nat w0 eq_refl), (Ew 3%nat 2%nat w0 eq_refl).
    rewrite !f2r_0, !zfR by lia. lra. }
  assert (E8 : f2r f_eighth = / 8).
  { unfold f2r, f_eighth. cbn [SF2R]. unfold F2R. cbn [Fnum Fexp cond_Zopp]. change 4503599627370496%Z with (Zpower radix2 52). rewrite IZR_Zpower, bp by lia. reflexivity. }
  assert (E64 : f2r f_64th = / 64).
  { unfold f2r, f_64th. cbn [SF2R]. unfold F2R. cbn [Fnum Fexp cond_Zopp]. change 4503599627370496%Z with (Zpower radix2 52). rewrite IZR_Zpower, bp by lia. reflexivity. }
  split; [apply int_pr_graph; auto; [apply exJ_reachable|]|].
  { rewrite V. apply Rle_trans with (bpow radix2 4); [change (bpow radix2 4) with 16; lra|]. unfold two53. apply bpow_le. lia. }
  split; [split; [reflexivity|]; unfold sp_wf, exJ_seed; simpl; repeat constructor|]. split; [|split].
  - intros k. unfold fv. rewrite Hfv. destruct (k =? 0)%nat; split; auto using dbl_0; [rewrite f2r_1|rewrite f2r_0]; lra.
  - unfold seed_mass. change (number_of_vertices exJ) with 4%nat. unfold rsum. cbn [seq lsum fold_right map]. unfold fv. rewrite !Hfv. cbn [Nat.eqb]. rewrite f2r_1, !f2r_0. lra.
  - split; [split; vm_compute; reflexivity|]. split; [exact E8|]. split; [split; vm_compute; reflexivity|]. split; [exact E64|]. split; [|split].
    + rewrite E8, E64. assert (u64 <= / 1048576); [|lra]. change (/ 1048576) with (bpow radix2 (-20)). unfold u64. apply bpow_le. lia.
    + destruct (approximate_pagerank 60 (lg_of_graph exJ) exJ_seed f_eighth f_64th) as [[[p r]| |]|] eqn:E;
        [|vm_compute in E; discriminate|vm_compute in E; discriminate|vm_compute in E; discriminate].
      exists p, r. split; [reflexivity|]. vm_compute in E. injection E as <- <-. split; vm_compute; discriminate.
    + vm_compute. reflexivity.
Qed.
