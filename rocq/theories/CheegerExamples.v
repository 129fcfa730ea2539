(** A run of cheeger_cut on a triangle, and the isolated vertex in doubles. *)
From Verif Require Import Base Num RSum Sparse SparseFacts Graph GraphSpec GraphFacts GraphProps1 GraphProps2 GraphProps3 GraphProps4 GraphExamples Cluster ClusterSpec ClusterInst ClusterExamples
  Spectrum SpectrumSpec SpectrumFacts SpectrumPower SpectrumExamples Cheeger CheegerFacts CheegerTop CheegerIneq.
From Coq Require Import Reals Lra Psatz Relations Sorting.Sorted SpecFloat.
Local Open Scope nat_scope.

Definition s3 : R := (/ sqrt 3)%R.
Definition s6 : R := (/ sqrt 6)%R.
Lemma s3_sq : (s3 * s3 = / 3)%R.
Proof. unfold s3. rewrite <- Rinv_mult, sqrt_sqrt by lra. reflexivity. Qed.
Lemma s6_sq : (s6 * s6 = / 6)%R.
Proof. unfold s6. rewrite <- Rinv_mult, sqrt_sqrt by lra. reflexivity. Qed.
Definition e1 (a b : R) : R * list R := ((a + 2 * b)%R, [s3; s3; s3]).
Definition e2 (a b : R) : R * list R := ((a - b)%R, [s2; (- s2)%R; 0%R]).
Definition e3 (a b : R) : R * list R := ((a - b)%R, [s6; s6; (- (2 * s6))%R]).
Definition m3 (a b : R) (i j : nat) : R := if i =? j then a else b.
Lemma rsum3 f : rsum 3 f = (f 0%nat + f 1%nat + f 2%nat)%R.
Proof. unfold rsum. simpl. ring. Qed.
Lemma system3 a b : eigen_system 3 (m3 a b) [e1 a b; e2 a b; e3 a b].
Proof.
  pose proof s2_sq as Q2. pose proof s3_sq as Q3. pose proof s6_sq as Q6.
  split; [reflexivity|]. split; [|split].
  - repeat constructor; intros [|[|[|i]]] Hi; try lia; unfold mulv; rewrite rsum3; unfold vx, m3; simpl; ring.
  - intros [|[|[|x]]] [|[|[|y]]] d Hx Hy; try lia; unfold dot; rewrite rsum3; unfold vx; cbn [nth snd e1 e2 e3 Nat.eqb]; nra.
  - intros x i Hi. cbn [lsum]. unfold dot. rewrite !rsum3. unfold vx.
    destruct i as [|[|[|i]]]; [| | |lia]; cbn [nth snd e1 e2 e3].
    + transitivity ((s3 * s3) * (x 0%nat + x 1%nat + x 2%nat) + (s2 * s2) * (x 0%nat - x 1%nat) + (s6 * s6) * (x 0%nat + x 1%nat - 2 * x 2%nat))%R; [rewrite Q2, Q3, Q6; field|ring].
    + transitivity ((s3 * s3) * (x 0%nat + x 1%nat + x 2%nat) - (s2 * s2) * (x 0%nat - x 1%nat) + (s6 * s6) * (x 0%nat + x 1%nat - 2 * x 2%nat))%R; [rewrite Q2, Q3, Q6; field|ring].
    + transitivity ((s3 * s3) * (x 0%nat + x 1%nat + x 2%nat) - 2 * (s6 * s6) * (x 0%nat + x 1%nat - 2 * x 2%nat))%R; [rewrite Q3, Q6; field|ring].
Qed.
(** An eigensolver for three by three matrices with equal diagonal and equal other entries. *)
Definition uniform3 (M : sprs R) (a b : R) : Prop :=
  coeff M 0 0 = a /\ coeff M 1 1 = a /\ coeff M 2 2 = a /\ coeff M 0 1 = b /\ coeff M 0 2 = b /\ coeff M 1 2 = b.
Lemma uniform3_dec M a b : {uniform3 M a b} + {~ uniform3 M a b}.
Proof.
  unfold uniform3.
  destruct (Req_EM_T (coeff M 0 0) a); [|right; tauto]. destruct (Req_EM_T (coeff M 1 1) a); [|right; tauto].
  destruct (Req_EM_T (coeff M 2 2) a); [|right; tauto]. destruct (Req_EM_T (coeff M 0 1) b); [|right; tauto].
  destruct (Req_EM_T (coeff M 0 2) b); [|right; tauto]. destruct (Req_EM_T (coeff M 1 2) b); [|right; tauto]. left; tauto.
Defined.
Definition solver3 : eigen_solver (W := R) := fun M num _ =>
  if Nat.eqb (sp_rows M) 3 && Z.eqb num 2 then
    let a := coeff M 0 0 in let b := coeff M 0 1 in
    if uniform3_dec M a b then if Rle_dec (Rabs (a - b)) (Rabs (a + 2 * b)) then Some [e1 a b; e2 a b] else None
    else None
  else None.
Lemma solver3_contract : solver_contract solver3.
Proof.
  intros M n num ncv r (Rr & Cc & Wf) Hnum. unfold solver3. rewrite Rr.
  destruct (Nat.eqb_spec n 3) as [->|]; [|discriminate]. destruct (Z.eqb_spec num 2) as [->|]; [|discriminate]. cbn [andb]. cbv zeta.
  set (a := coeff M 0 0) in *. set (b := coeff M 0 1). destruct (uniform3_dec M a b) as [(U1 & U2 & U3 & U4 & U5 & U6)|]; [|discriminate].
  destruct (Rle_dec (Rabs (a - b)) (Rabs (a + 2 * b))) as [L|]; [|discriminate]. intros [= <-].
  exists [e1 a b; e2 a b; e3 a b]. split; [|split; [|reflexivity]].
  - apply (eigen_system_ext 3 (m3 a b)); [|apply system3].
    intros [|[|[|i]]] [|[|[|j]]] Hi Hj; try lia; unfold upper_sym, m3; simpl; auto.
  - apply SSorted_cons; [apply SSorted_cons; [apply SSorted_cons; [apply SSorted_nil|]|]|];
      repeat apply Forall_cons; try apply Forall_nil; unfold decreasing_magnitude; cbn [fst e1 e2 e3]; lra.
Qed.

(** The triangle with weights 1. *)
Definition exT_M : sprs R := mkSprs 3 [[(1, 1%R); (2, 1%R)]; [(0, 1%R); (2, 1%R)]; [(0, 1%R); (1, 1%R)]].
Definition exT : graph R := fresh_graph exT_M.
Lemma exT_square : sp_square exT_M 3.
Proof. split; [reflexivity|]. split; [reflexivity|]. apply sp_wfb_iff. reflexivity. Qed.
Lemma exT_entry i j v : sp_get exT_M i j = Some v -> v = 1%R.
Proof.
  unfold exT_M, sp_get, sp_col. simpl. destruct j as [|[|[|[|j]]]]; simpl; try discriminate; destruct i as [|[|[|i]]]; simpl; try discriminate; now intros [= <-].
Qed.
Lemma exT_reachable : reachable_pos exT.
Proof.
  destruct (make_graph_from_adjacency exT_M 3) as (g & E & _ & Eg & _).
  - apply exT_square.
  - intros i j v G. apply exT_entry in G. subst. change (R_ltb 1 0 = false). unfold R_ltb. destruct (Rlt_dec 1 0); [lra|reflexivity].
  - intros i j. unfold coeff, sp_get, sp_col, exT_M. simpl. destruct i as [|[|[|[|i]]]], j as [|[|[|[|j]]]]; reflexivity.
  - assert (g = exT) as ->.
    { rewrite Eg. unfold exT. f_equal. apply prune_all; [|apply exT_square].
      intros i j v G. apply exT_entry in G. subst. change (R_ltb (/ 10000000000) 1 = true). unfold R_ltb. destruct (Rlt_dec (/ 10000000000) 1); [reflexivity|lra]. }
    exists exT_M, exT, []. repeat split; auto. apply exT_square.
Qed.
Lemma exT_rw u v : u < 3 -> v < 3 -> rw exT u v = if u =? v then 0%R else 1%R.
Proof. intros Hu Hv. destruct u as [|[|[|u]]], v as [|[|[|v]]]; try lia; reflexivity. Qed.
Lemma exT_deg v : v < 3 -> rdeg exT v = 2%R.
Proof.
  intros Hv. unfold rdeg. change (g_n exT) with 3. rewrite rsum3, !exT_rw by lia. destruct v as [|[|[|v]]]; try lia; cbn [Nat.eqb]; lra.
Qed.
Lemma exT_connected u v : u < 3 -> v < 3 -> connected exT u v.
Proof.
  intros Hu Hv. destruct (Nat.eq_dec u v) as [->|N]; [apply rt_refl|]. apply rt_step. unfold adjacent.
  destruct (weqb (weight exT u v) w0) eqn:E; auto. apply (toR_eqb (weight exT u v) w0) in E. change (rw exT u v = 0%R) in E.
  rewrite exT_rw in E by auto. destruct (Nat.eqb_spec u v); [tauto|lra].
Qed.
Lemma exT_eigen_runs : exists r, snd (compute_eigensystem solver3 exT MatNormalisedLaplacian 2 Smallest) = Ok r.
Proof.
  pose proof exT_reachable as Hp. pose proof (reachable_pos_reachable _ Hp) as Hr. destruct (reachable_ok exT Hr) as [Hsq Hc].
  unfold compute_eigensystem.
  change (number_of_vertices exT) with 3. change ((2 <? 1)%Z || (Z.of_nat 3 <=? 2)%Z) with false. cbv iota zeta.
  destruct (max_degree_spec exT (seq 0 3) Hr (fun v Hv => proj2 (proj1 (in_seq _ _ _) Hv)) exT w0 Hc (same_base_refl exT))
    as (g1 & d & E & C1 & S1 & _). rewrite E.
  destruct (mat_query_spec QNLap g1 C1) as (C2 & S2 & E2). destruct (mat_query QNLap g1) as [g2 L]. cbn [fst snd] in *. subst L.
  assert (EA : g_adj g1 = g_adj exT) by (destruct S1 as (_ & -> & _); reflexivity). rewrite EA.
  assert (SL : sp_square (sp_map wopp (mat_formula QNLap (g_adj exT))) 3) by (apply sp_map_square, (lap_square exT); auto).
  pose proof (shift_diag_square 3 _ (wadd w1 w1) SL) as (R1 & _ & _).
  unfold largestmag. rewrite R1. change ((2 <? 1)%Z || (Z.of_nat 3 <=? 2)%Z) with false. cbv iota.
  set (M := shift_diag 3 _ _) in *.
  assert (EM : forall i j, i < 3 -> j < 3 -> coeff M i j = if i =? j then 1%R else (/ 2)%R).
  { intros i j Hi Hj. unfold M. rewrite shift_diag_coeff by auto. rewrite opp_coeff.
    destruct (lap_entries exT i j Hp Hi Hj) as [_ ->]. unfold matrix_of_graph. rewrite exT_rw, !exT_deg by auto.
    cbn [wadd w1 NumR]. destruct (i =? j); destruct (Req_EM_T _ 0); try lra.
    replace (2 * 2)%R with (Rsqr 2) by (unfold Rsqr; ring). rewrite sqrt_Rsqr by lra. lra. }
  unfold solver3. rewrite R1. cbn [Nat.eqb Z.eqb andb Pos.eqb]. cbv zeta.
  destruct (uniform3_dec M (coeff M 0 0) (coeff M 0 1)) as [U|N].
  - destruct (Rle_dec _ _) as [|N]; [eexists; reflexivity|]. exfalso. apply N. rewrite !EM by lia. cbn [Nat.eqb].
    rewrite !Rabs_right; lra.
  - exfalso. apply N. unfold uniform3. rewrite !EM by lia. cbn [Nat.eqb]. repeat split; reflexivity.
Qed.
Lemma exT_cut_runs : exists labels, snd (cheeger_cut solver3 exT) = Ok labels.
Proof.
  destruct exT_eigen_runs as (r & Er).
  pose proof (compute_eigensystem_spec solver3 solver3_contract exT MatNormalisedLaplacian 2 Smallest exT_reachable ltac:(vm_compute; split; congruence)) as P.
  assert (SH : length r = 2 /\ forall p, In p r -> length (snd p) = 3).
  { destruct (compute_eigensystem solver3 exT MatNormalisedLaplacian 2 Smallest) as [g1 o]. cbn [snd] in Er. subst o. destruct P as (_ & _ & P).
    destruct (leading_facts _ _ _ _ _ P) as (L & Q & _); [vm_compute; lia|intros; apply matrix_sym, reachable_pos_reachable, exT_reachable|].
    split; [exact L|]. intros p Hp. now apply Q. }
  destruct SH as [L Q]. destruct r as [|p [|q [|? ?]]]; try discriminate.
  destruct (reachable_ok exT (reachable_pos_reachable _ exT_reachable)) as [_ Hc].
  destruct (cheeger_steps solver3 exT p q Hc Er) as (g' & vec & Qr & Hw & Hk & _ & E & _).
  { destruct (wltb _ _); apply Q; [now left|right; now left]. }
  destruct (qreach_base exT g' Hc Qr) as [C' (B1 & B2 & B3)].
  assert (Hr' : reachable_pos g') by (eapply qreach_reachable; [|exact exT_reachable|exact Qr]; intros [] Ho; cbn in *; tauto).
  destruct (sweep_set_any g' vec (reachable_pos_reachable _ Hr')) as (cut & Es & Hcut); auto.
  { now apply pos_no_zero. }
  { intros k Hkk. rewrite <- B1. now apply Hk. }
  rewrite E, Es. cbn [obind]. destruct (mark_spec cut (repeat 0%Z (g_n exT))) as (cl & Em & _).
  { rewrite repeat_length, B1. exact Hcut. }
  eauto.
Qed.

(** ** An isolated vertex, in doubles
    The path 0-1-2-3 with an isolated vertex 4.  The second eigenvector of its normalised Laplacian is zero at vertex 4. *)
Definition fl1 : f64 := S754_finite false 4503599627370496 (-52).
Definition exP4_M : sprs f64 := mkSprs 5 [[(1, fl1)]; [(0, fl1); (2, fl1)]; [(1, fl1); (3, fl1)]; [(2, fl1)]; []].
Definition exP4 : graph f64 := fresh_graph exP4_M.
Lemma exP4_reachable : reachable_pos exP4.
Proof. exists exP4_M, exP4, []. repeat split; auto. apply sp_wfb_iff. reflexivity. Qed.
Definition fa : f64 := S754_finite false 5200308914369309 (-53).
Definition fb : f64 := S754_finite false 7354347395230783 (-54).
Definition fneg (x : f64) : f64 := match x with S754_finite s m e => S754_finite (negb s) m e | _ => x end.
(** The two leading eigenpairs of 2I - N, correctly rounded: values 2 and 3/2. *)
Definition solverP4 : eigen_solver (W := f64) := fun M num _ =>
  if Nat.eqb (sp_rows M) 5 && Z.eqb num 2 then
    Some [(S754_finite false 4503599627370496 (-51), [fb; fa; fa; fb; S754_zero false]);
          (S754_finite false 6755399441055744 (-52), [fa; fb; fneg fb; fneg fa; S754_zero false])]
  else None.
Lemma solverP4_shape : solver_shape solverP4.
Proof.
  intros M num ncv r. unfold solverP4. destruct (Nat.eqb_spec (sp_rows M) 5) as [->|]; [|discriminate].
  destruct (Z.eqb_spec num 2) as [->|]; [|discriminate]. intros [= <-]. split; [reflexivity|]. repeat constructor.
Qed.
Definition exP4_vec : outcome (sprs f64) :=
  match compute_eigensystem solverP4 exP4 MatNormalisedLaplacian 2 Smallest with
  | (g, Ok es) => match second_vector es with
                  | Ok x => snd (scale_loop g (seq 0 5) (sparse_view x))
                  | _ => UB end
  | _ => UB
  end.
Lemma exP4_nan : match exP4_vec with Ok v => vget v 4 = S754_nan | _ => False end.
Proof. vm_compute. reflexivity. Qed.
