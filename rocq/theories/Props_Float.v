(** C67: Graph with IEEE doubles: rounding errors, exactness on integer weights. *)
From Verif Require Import Base Num RSum Sparse SparseFacts Graph GraphSpec GraphFacts GraphProps1 GraphProps2 GraphExamples FloatFacts GraphFloat.
From Coq Require Import ZArith Reals Lra Lia SpecFloat.
From Flocq Require Import Core BinarySingleNaN.
Local Open Scope R_scope.

(** *** C67: finite non-negative doubles, no overflow: relative error of one rounding per addition. *)
Theorem C67_degree_rounding (g : graph f64) v : reachable g -> finite_weights g -> (v < number_of_vertices g)%nat ->
  (1 + u64) ^ (row_entries g v + 1) * fdeg g v < overflow ->
  exists d, snd (degree g (Z.of_nat v)) = Ok d /\ dbl d /\
    Rabs (f2r d - fdeg g v) <= gam (row_entries g v + 1) * fdeg g v.
Proof. exact (degree_error g v). Qed.
Theorem C67_volume_rounding (g : graph f64) : reachable g -> finite_weights g ->
  (1 + u64) ^ (2 * number_of_vertices g + 1) * fvol g < overflow ->
  dbl (snd (total_volume g)) /\
  Rabs (f2r (snd (total_volume g)) - fvol g) <= gam (2 * number_of_vertices g + 1) * fvol g.
Proof. exact (volume_error g). Qed.
Theorem C67_laplacian_rounding (g : graph f64) u v : reachable g -> finite_weights g ->
  (u < number_of_vertices g)%nat -> (v < number_of_vertices g)%nat ->
  (u <> v -> f2r (coeff (snd (mat_query QLap g)) u v) = - fw g u v) /\
  (u = v -> (1 + u64) ^ (row_entries g v + 2) * fdeg g v < overflow ->
     Rabs (f2r (coeff (snd (mat_query QLap g)) u v) - (fdeg g v - fw g v v)) <= gam (row_entries g v + 2) * fdeg g v).
Proof. exact (laplacian_error g u v). Qed.

(** *** C67: integer weights of total volume at most 2^53: everything is exact. *)
Theorem C67_integer_degree (g : graph f64) v : reachable g -> int_weights g -> fvol g <= two53 -> (v < number_of_vertices g)%nat ->
  exists d, snd (degree g (Z.of_nat v)) = Ok d /\ f2r d = fdeg g v.
Proof. intros Hr Hi Hv Hn. destruct (int_degree g Hr Hi Hv v Hn) as (d & A & _ & B). exists d. auto. Qed.
Theorem C67_integer_volume (g : graph f64) : reachable g -> int_weights g -> fvol g <= two53 ->
  f2r (snd (total_volume g)) = fvol g.
Proof. intros Hr Hi Hv. apply (int_volume g Hr Hi Hv). Qed.
Theorem C67_integer_average_degree (g : graph f64) : reachable g -> int_weights g -> fvol g <= two53 ->
  (0 < number_of_vertices g)%nat -> (Z.of_nat (number_of_vertices g) <= 2 ^ 53)%Z ->
  f2r (snd (average_degree g)) = rnd64 (fvol g / INR (number_of_vertices g)).
Proof. exact (int_average g). Qed.
Theorem C67_integer_laplacian (g : graph f64) u v : reachable g -> int_weights g -> fvol g <= two53 ->
  (u < number_of_vertices g)%nat -> (v < number_of_vertices g)%nat ->
  f2r (coeff (snd (mat_query QLap g)) u v) = (if Nat.eqb u v then fdeg g u else 0) - fw g u v.
Proof. intros Hr Hi Hv Hu Hw. apply (int_laplacian g Hr Hi Hv u v Hu Hw). Qed.
(** The Laplacian of a graph with positive integer weights, handed to the constructor, gives the graph back
    (false for arbitrary doubles: C03_laplacian_round_trip_doubles_refuted). *)
Theorem C67_integer_laplacian_round_trip (g : graph f64) : reachable g -> int_weights g -> no_stored_zero g -> fvol g <= two53 ->
  exists g', make_graph (snd (mat_query QLap g)) = Ok g' /\
    number_of_vertices g' = number_of_vertices g /\ forall i j, weight g' i j = weight g i j.
Proof. intros Hr Hi Hz Hv. exact (int_round_trip g Hr Hi Hv Hz). Qed.

Definition exI_M : sprs f64 := mkSprs 3 [[(1, zf 1); (2, zf 5)]; [(0, zf 1); (1, zf 3)]; [(0, zf 5)]]%nat.
Definition exI : graph f64 := fresh_graph exI_M.
Lemma exI_wf : sp_wf exI_M.
Proof. unfold sp_wf, exI_M; simpl. repeat constructor. Qed.
Lemma exI_reachable : reachable exI.
Proof. exists exI_M, exI, []. split; [apply exI_wf|]. split; [vm_compute; reflexivity|]. split; [constructor|reflexivity]. Qed.
Example C67_hypotheses_met :
  reachable exI /\ int_weights exI /\ finite_weights exI /\ no_stored_zero exI /\ fvol exI = 18 /\ fvol exI <= two53 /\
  fdeg exI 1 = 7 /\ snd (degree exI 1) = Ok (zf 7) /\ snd (total_volume exI) = zf 18.
Proof.
  assert (forall z, small_int z -> f2r (zf z) = IZR z) as F by (intros z Hz; now apply zf_spec).
  assert (forall i j v, sp_get (g_adj exI) i j = Some v -> v = zf 1 \/ v = zf 3 \/ v = zf 5) as Hs.
  { intros i j v. unfold sp_get, sp_col. destruct j as [|[|[|j]]]; cbn [exI fresh_graph g_adj exI_M sp_cols nth col_get];
      repeat match goal with |- context [Nat.eqb ?a i] => destruct (Nat.eqb a i) end; intros E; try discriminate;
      try (injection E as <-; tauto); now destruct j. }
  assert (int_weights exI) as Hi.
  { intros i j v G. destruct (Hs i j v G) as [->|[->| ->]];
      (split; [eexists; split; [|reflexivity]; unfold small_int; simpl; lia|rewrite F by (unfold small_int; simpl; lia); lra]). }
  assert (forall u v, (u < 3)%nat -> (v < 3)%nat -> fw exI u v =
     match u, v with O, S O | S O, O => 1%R | O, S (S O) | S (S O), O => 5%R | S O, S O => 3%R | _, _ => 0%R end) as Hw.
  { intros u v Hu Hv. unfold fw, weight, coeff, sp_get, sp_col.
    destruct u as [|[|[|u]]]; try lia; destruct v as [|[|[|v]]]; try lia;
      cbn [exI fresh_graph g_adj exI_M sp_cols nth col_get Nat.eqb o0]; try (rewrite F by (unfold small_int; simpl; lia)); reflexivity. }
  assert (fvol exI = 18) as Ev.
  { unfold fvol, fdeg. change (number_of_vertices exI) with 3%nat. unfold rsum. cbn [seq lsum]. rewrite !Hw by lia. lra. }
  split; [apply exI_reachable|]. split; [exact Hi|]. split; [now apply int_finite|]. split.
  { intros i j v G. destruct (Hs i j v G) as [->|[->| ->]]; vm_compute; reflexivity. }
  split; [exact Ev|]. split; [rewrite Ev; unfold two53; rewrite <- B53; apply IZR_le; lia|]. split.
  { unfold fdeg. change (number_of_vertices exI) with 3%nat. unfold rsum. cbn [seq lsum]. rewrite !Hw by lia. lra. }
  split; vm_compute; reflexivity.
Qed.
(** Nothing overflows for weights 0.7 and 0.1 either, where the sums are inexact. *)
Lemma small_no_overflow k x : (k <= 64)%nat -> 0 <= x <= 1024 -> (1 + u64) ^ k * x < overflow.
Proof.
  intros Hk Hx. pose proof u64_pos as U. assert (u64 <= 1) by (unfold u64; change 1 with (bpow radix2 0); apply bpow_le; lia).
  apply Rle_lt_trans with (bpow radix2 64 * bpow radix2 10).
  - apply Rmult_le_compat; try lra; [apply pow_le; lra| |rewrite <- (IZR_Zpower radix2 10) by lia; simpl; lra].
    apply Rle_trans with (2 ^ k); [apply pow_incr; lra|]. apply Rle_trans with (2 ^ 64); [apply Rle_pow; [lra|lia]|].
    rewrite <- (IZR_Zpower radix2 64) by lia. rewrite pow_IZR. apply IZR_le. vm_compute. discriminate.
  - unfold overflow. rewrite <- bpow_plus. apply bpow_lt. lia.
Qed.
Example C67_rounding_hypotheses_met :
  reachable exF /\ finite_weights exF /\ (1 < number_of_vertices exF)%nat /\ 0 < fdeg exF 1 /\ (1 + u64) ^ (row_entries exF 1 + 2) * fdeg exF 1 < overflow /\ (1 + u64) ^ (2 * number_of_vertices exF + 1) * fvol exF < overflow.
Proof.
  assert (dbl f07 /\ 0 < f2r f07 <= 1 /\ dbl f01 /\ 0 < f2r f01 <= 1) as (D7 & B7 & D1 & B1).
  { assert (forall m e, (Z.pos m <= 2 ^ (- e))%Z -> (e <= 0)%Z -> 0 < f2r (S754_finite false m e) <= 1) as Q.
    { intros m e Hm He. unfold f2r. cbn [SF2R]. split; [now apply F2R_gt_0|]. unfold F2R. cbn [Fnum Fexp cond_Zopp].
      apply Rle_trans with (bpow radix2 (- e) * bpow radix2 e).
      - apply Rmult_le_compat_r; [apply bpow_ge_0|]. rewrite <- (IZR_Zpower radix2 (- e)) by lia. apply IZR_le. exact Hm.
      - rewrite <- bpow_plus. replace (- e + e)%Z with 0%Z by lia. simpl. lra. }
    split; [split; vm_compute; reflexivity|]. split; [apply Q; lia|]. split; [split; vm_compute; reflexivity|]. apply Q; lia. }
  assert (forall u v, (u < 3)%nat -> (v < 3)%nat -> fw exF u v =
     match u, v with O, S O | S O, O => f2r f07 | S (S O), S O | S O, S (S O) => f2r f01 | _, _ => 0%R end) as Hw.
  { intros u v Hu Hv. unfold fw, weight, coeff, sp_get, sp_col.
    destruct u as [|[|[|u]]]; try lia; destruct v as [|[|[|v]]]; try lia; reflexivity. }
  assert (fdeg exF 0 = f2r f07 /\ fdeg exF 1 = f2r f07 + f2r f01 /\ fdeg exF 2 = f2r f01) as (E0 & E1 & E2).
  { unfold fdeg. change (number_of_vertices exF) with 3%nat. unfold rsum. cbn [seq lsum]. rewrite !Hw by lia. lra. }
  split; [destruct exF_reachable as (M & g0 & ops & A & B & C & D); exists M, g0, ops; split; auto; split; auto; split; auto;
          apply Forall_forall; trivial|].
  split.
  { intros i j v. unfold sp_get, sp_col. destruct j as [|[|[|j]]]; cbn [exF fresh_graph g_adj exF_M sp_cols nth col_get];
      repeat match goal with |- context [Nat.eqb ?a i] => destruct (Nat.eqb a i) end; intros E; try discriminate;
      try (injection E as <-; split; auto; lra); now destruct j. }
  split; [vm_compute; lia|]. split; [lra|]. split; [apply small_no_overflow; [vm_compute; lia|lra]|].
  apply small_no_overflow; [vm_compute; lia|]. unfold fvol. change (number_of_vertices exF) with 3%nat. unfold rsum. cbn [seq lsum].
  rewrite E0, E1, E2. lra.
Qed.
Print Assumptions C67_degree_rounding.
Print Assumptions C67_volume_rounding.
Print Assumptions C67_laplacian_rounding.
Print Assumptions C67_integer_degree.
Print Assumptions C67_integer_volume.
Print Assumptions C67_integer_average_degree.
Print Assumptions C67_integer_laplacian.
Print Assumptions C67_integer_laplacian_round_trip.
