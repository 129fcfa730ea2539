(** C89: the normalised Laplacians, inverse degrees and lazy random walk of Graph in IEEE double arithmetic. *)
From Verif Require Import Base Num RSum Sparse SparseFacts Graph GraphSpec GraphFacts GraphProps1 GraphProps2 GraphExamples FloatFacts GraphFloat PageRankFloat KdeFloat Props_Float MatFloat.
From Coq Require Import ZArith Reals Lra Lia SpecFloat.
From Flocq Require Import Core BinarySingleNaN.
Local Open Scope R_scope.

(** [fw g u v]: the stored weight as a real; [fdeg g v]: its exact degree (a self-loop counts twice); [row_entries g v]: the number of
    stored neighbours; [gam k] = (1 + 2^-53)^k - 1; [moderate g]: the stored weights are doubles between 2^-300 and 2^300, at most 2^40
    vertices; [joined g u v]: the graph stores an edge or self-loop between u and v. *)
(** *** Where there is no edge the entry is the exact entry of the identity, an isolated vertex included. *)
Theorem C89_no_edge_partial (g : graph f64) (signless : bool) u v : reachable g ->
  (u < number_of_vertices g)%nat -> (v < number_of_vertices g)%nat -> ~ joined g u v ->
  coeff (snd (mat_query (if signless then QNSLap else QNLap) g)) u v = if Nat.eqb u v then w1 else w0.
Proof. intros Hr. exact (norm_absent g Hr signless u v). Qed.
(** *** An edge u-v: relative error of at most r_u + r_v + 8 roundings. *)
Theorem C89_edge_partial (g : graph f64) (signless : bool) u v : reachable g -> moderate g -> joined g u v -> u <> v ->
  Rabs (f2r (coeff (snd (mat_query (if signless then QNSLap else QNLap) g)) u v)
        - (if signless then 1 else -1) * (fw g u v / sqrt (fdeg g u * fdeg g v)))
  <= gam (row_entries g u + row_entries g v + 8) * (fw g u v / sqrt (fdeg g u * fdeg g v)).
Proof. intros Hr Hm. exact (norm_off g Hr Hm signless u v). Qed.
(** *** A self-loop: the diagonal entry is 1 -/+ w/d up to an absolute error of 2 r_v + 9 roundings. *)
Theorem C89_self_loop_partial (g : graph f64) (signless : bool) v : reachable g -> moderate g -> joined g v v ->
  Rabs (f2r (coeff (snd (mat_query (if signless then QNSLap else QNLap) g)) v v)
        - (1 + (if signless then 1 else -1) * (fw g v v / fdeg g v))) <= gam (2 * row_entries g v + 9).
Proof. intros Hr Hm. exact (norm_diag g Hr Hm signless v). Qed.
(** *** Inverse degrees. *)
Theorem C89_inverse_degree (g : graph f64) u v : reachable g -> moderate g ->
  (u < number_of_vertices g)%nat -> (v < number_of_vertices g)%nat -> (exists w, joined g v w) ->
  (u <> v -> coeff (snd (mat_query QInv g)) u v = w0) /\
  (u = v -> Rabs (f2r (coeff (snd (mat_query QInv g)) u v) - / fdeg g v) <= gam (row_entries g v + 2) * / fdeg g v).
Proof. intros Hr Hm. exact (inverse_error g Hr Hm u v). Qed.
(** *** The lazy random walk: every entry finite with a relative error of r_v + 5 roundings; a column sums to 1 (less w_vv / 2 d_v for a
    self-loop, counted twice in the degree) up to r_v + 5 roundings. *)
Theorem C89_lazy_walk (g : graph f64) u v : reachable g -> moderate g -> (u < number_of_vertices g)%nat -> (v < number_of_vertices g)%nat ->
  dbl (coeff (snd (mat_query QLrw g)) u v) /\
  let true_entry := (if Nat.eqb u v then / 2 else 0) + fw g u v / (2 * fdeg g v) in
  Rabs (f2r (coeff (snd (mat_query QLrw g)) u v) - true_entry) <= gam (row_entries g v + 5) * true_entry.
Proof. intros Hr Hm. exact (walk_error g Hr Hm u v). Qed.
Theorem C89_lazy_walk_columns (g : graph f64) v : reachable g -> moderate g -> (v < number_of_vertices g)%nat -> (exists w, joined g v w) ->
  Rabs (rsum (number_of_vertices g) (fun u => f2r (coeff (snd (mat_query QLrw g)) u v)) - (1 - fw g v v / (2 * fdeg g v)))
  <= gam (row_entries g v + 5).
Proof. intros Hr Hm. exact (walk_column g Hr Hm v). Qed.
(** *** Symmetry: exact for unit weights, ... *)
Theorem C89_unit_weights_symmetric (g : graph f64) (signless : bool) u v : reachable g -> unit_weights g ->
  INR (number_of_vertices g) <= bpow radix2 40 -> (u < number_of_vertices g)%nat -> (v < number_of_vertices g)%nat ->
  coeff (snd (mat_query (if signless then QNSLap else QNLap) g)) u v = coeff (snd (mat_query (if signless then QNSLap else QNLap) g)) v u.
Proof. exact (unit_symmetric g signless u v). Qed.

(** *** ... but not in general: on the path with two edges of weight 3 the entries (0,1) and (1,0) of the normalised Laplacian differ. *)
Definition exW_M : sprs f64 := mkSprs 3 [[(1, zf 3)]; [(0, zf 3); (2, zf 3)]; [(1, zf 3)]]%nat.
Definition exW : graph f64 := fresh_graph exW_M.
Lemma exW_reachable : reachable exW.
Proof.
  exists exW_M, exW, []. split; [unfold sp_wf, exW_M; simpl; repeat constructor|]. split; [vm_compute; reflexivity|]. split; [constructor|reflexivity].
Qed.
Lemma exW_weights i j v : sp_get (g_adj exW) i j = Some v -> v = zf 3.
Proof.
  unfold sp_get, sp_col. destruct j as [|[|[|j]]]; cbn [exW fresh_graph g_adj exW_M sp_cols nth col_get];
    repeat match goal with |- context [Nat.eqb ?a i] => destruct (Nat.eqb a i) end; intros E; try discriminate;
    try (injection E as <-; reflexivity); now destruct j.
Qed.
Lemma small_moderate (z : Z) : (1 <= z <= 5)%Z -> dbl (zf z) /\ bpow radix2 (-300) <= f2r (zf z) <= bpow radix2 300.
Proof.
  intros Hz. destruct (zf_spec z) as [D E]; [unfold small_int; lia|]. split; auto. rewrite E.
  assert (1 <= IZR z <= 5) as [A B] by (split; [apply (IZR_le 1)|apply (IZR_le _ 5)]; lia).
  split; [apply Rle_trans with (2 := A); change 1 with (bpow radix2 0); apply bpow_le; lia|].
  apply Rle_trans with (1 := B). apply Rle_trans with (bpow radix2 3); [simpl; lra|apply bpow_le; lia].
Qed.
Lemma three_moderate (g : graph f64) : number_of_vertices g = 3%nat -> INR (number_of_vertices g) <= bpow radix2 40.
Proof. intros ->. simpl (INR 3). apply Rle_trans with (bpow radix2 2); [simpl; lra|apply bpow_le; lia]. Qed.
Theorem C89_symmetric_refuted : exists (g : graph f64) (u v : nat), reachable g /\ moderate g /\
  (u < number_of_vertices g)%nat /\ (v < number_of_vertices g)%nat /\ (forall i j, weight g i j = weight g j i) /\
  weqb (coeff (snd (mat_query QNLap g)) u v) (coeff (snd (mat_query QNLap g)) v u) = false.
Proof.
  exists exW, 0%nat, 1%nat. split; [exact exW_reachable|]. split.
  { split; [|now apply three_moderate]. intros i j v G. rewrite (exW_weights i j v G). apply small_moderate. lia. }
  split; [vm_compute; lia|]. split; [vm_compute; lia|].
  split; [|vm_compute; reflexivity]. intros i j. unfold weight, coeff. now rewrite (reachable_sym exW exW_reachable i j).
Qed.

(** *** Without the bound on the weights the degree may overflow: two edges of weight 1.5 * 2^1023 (finite) at one vertex, and the edge
    disappears from the normalised Laplacian. *)
Definition big : f64 := S754_finite false 6755399441055744 971.
Definition exB_M : sprs f64 := mkSprs 3 [[(1, big)]; [(0, big); (2, big)]; [(1, big)]]%nat.
Definition exB : graph f64 := fresh_graph exB_M.
Theorem C89_overflow_refuted : exists (g : graph f64) (u v : nat), reachable g /\ finite_weights g /\ joined g u v /\ u <> v /\
  f2r (coeff (snd (mat_query QNLap g)) u v) = 0 /\ 0 < fw g u v / sqrt (fdeg g u * fdeg g v).
Proof.
  assert (dbl big /\ 0 < f2r big) as [D P] by (split; [split; vm_compute; reflexivity|unfold f2r, big; cbn [SF2R]; now apply F2R_gt_0]).
  assert (reachable exB) as Hr.
  { exists exB_M, exB, []. split; [unfold sp_wf, exB_M; simpl; repeat constructor|]. split; [vm_compute; reflexivity|]. split; [constructor|reflexivity]. }
  assert (finite_weights exB) as Hf.
  { intros i j v. unfold sp_get, sp_col. destruct j as [|[|[|j]]]; cbn [exB fresh_graph g_adj exB_M sp_cols nth col_get];
      repeat match goal with |- context [Nat.eqb ?a i] => destruct (Nat.eqb a i) end; intros E; try discriminate;
      try (injection E as <-; split; [exact D|lra]); now destruct j. }
  exists exB, 0%nat, 1%nat. split; auto. split; auto. split; [unfold joined; vm_compute; discriminate|]. split; [lia|]. split.
  { assert (coeff (snd (mat_query QNLap exB)) 0 1 = w0) as -> by (vm_compute; reflexivity). apply f2r_0. }
  assert (fw exB 0 1 = f2r big /\ fw exB 1 0 = f2r big) as [E01 E10] by (split; reflexivity).
  assert (0 < fdeg exB 0 /\ 0 < fdeg exB 1) as [P0 P1].
  { unfold fdeg. change (number_of_vertices exB) with 3%nat. unfold rsum. cbn [seq lsum].
    pose proof (fw_nonneg exB 0 0 Hf). pose proof (fw_nonneg exB 0 2 Hf). pose proof (fw_nonneg exB 1 1 Hf). pose proof (fw_nonneg exB 1 2 Hf). split; lra. }
  rewrite E01. apply Rdiv_lt_0_compat; auto. apply sqrt_lt_R0. now apply Rmult_lt_0_compat.
Qed.
(** *** An isolated vertex: its inverse degree is +infinity. *)
Definition exZ_M : sprs f64 := mkSprs 3 [[(1, w1)]; [(0, w1)]; []]%nat.
Definition exZ : graph f64 := fresh_graph exZ_M.
Lemma exZ_reachable : reachable exZ.
Proof.
  exists exZ_M, exZ, []. split; [unfold sp_wf, exZ_M; simpl; repeat constructor|]. split; [vm_compute; reflexivity|]. split; [constructor|reflexivity].
Qed.
Theorem C89_isolated_inverse_refuted : exists (g : graph f64) (v : nat), reachable g /\ (v < number_of_vertices g)%nat /\
  (forall w, ~ joined g v w) /\ coeff (snd (mat_query QInv g)) v v = S754_infinity false.
Proof.
  exists exZ, 2%nat. split; [exact exZ_reachable|]. split; [vm_compute; lia|]. split; [|vm_compute; reflexivity].
  intros w. unfold joined, sp_get, sp_col. destruct w as [|[|[|w]]]; cbn; try tauto. now destruct w.
Qed.
(** The hypotheses are met by exI (weights 1, 5 and a self-loop of weight 3 at vertex 1) and exZ (unit weights, one isolated vertex). *)
Example C89_hypotheses_met :
  reachable exI /\ moderate exI /\ joined exI 0 1 /\ joined exI 1 1 /\ ~ joined exI 1 2 /\ row_entries exI 1 = 2%nat /\
  reachable exZ /\ unit_weights exZ /\ moderate exZ /\ ~ joined exZ 2 2.
Proof.
  split; [exact exI_reachable|]. split.
  { split; [|now apply three_moderate]. intros i j v G.
    assert (v = zf 1 \/ v = zf 3 \/ v = zf 5) as [->|[->| ->]]; try (apply small_moderate; lia).
    revert G. unfold sp_get, sp_col. destruct j as [|[|[|j]]]; cbn [exI fresh_graph g_adj exI_M sp_cols nth col_get];
      repeat match goal with |- context [Nat.eqb ?a i] => destruct (Nat.eqb a i) end; intros E; try discriminate;
      try (injection E as <-; tauto); now destruct j. }
  split; [unfold joined; vm_compute; discriminate|]. split; [unfold joined; vm_compute; discriminate|]. split; [unfold joined; vm_compute; tauto|].
  split; [vm_compute; reflexivity|]. split; [exact exZ_reachable|].
  assert (unit_weights exZ) as Hu.
  { intros i j v. unfold sp_get, sp_col. destruct j as [|[|[|j]]]; cbn [exZ fresh_graph g_adj exZ_M sp_cols nth col_get];
      repeat match goal with |- context [Nat.eqb ?a i] => destruct (Nat.eqb a i) end; intros E; try discriminate;
      try (injection E as <-; reflexivity); now destruct j. }
  split; auto. split; [apply unit_moderate; auto; now apply three_moderate|]. unfold joined; vm_compute; tauto.
Qed.
Print Assumptions C89_no_edge_partial.
Print Assumptions C89_edge_partial.
Print Assumptions C89_self_loop_partial.
Print Assumptions C89_inverse_degree.
Print Assumptions C89_lazy_walk.
Print Assumptions C89_lazy_walk_columns.
Print Assumptions C89_unit_weights_symmetric.
Print Assumptions C89_symmetric_refuted.
Print Assumptions C89_overflow_refuted.
Print Assumptions C89_isolated_inverse_refuted.
