(** Rounding in the Graph class: the normalised Laplacians, the inverse degree matrix and the lazy random walk matrix computed with IEEE doubles (C89). *)
From Verif Require Import Base Num RSum Sparse SparseFacts Graph GraphSpec GraphFacts GraphProps1 GraphProps2 GraphProps3 FloatFacts GraphFloat PageRankFloat KdeFloat.
From Coq Require Import ZArith Reals Lra Lia SpecFloat.
From Flocq Require Import Core BinarySingleNaN Relative.
Local Open Scope R_scope.

Local Instance Hprec : FLX.Prec_gt_0 53 := eq_refl _.
Local Instance Hmax : Prec_lt_emax 53 1024 := eq_refl _.

(** ** Square root *)
Lemma sqrt_equiv (x : binary_float 53 1024) : SFsqrt 53 1024 (B2SF x) = B2SF (Bsqrt mode_NE x).
Proof.
  destruct x as [sx|sx| |sx mx ex Bx]; try reflexivity; [now destruct sx|]. destruct sx; [reflexivity|].
  simpl. rewrite B2SF_SF2B. set (melz := SFsqrt_core_binary _ _ _ _). case melz as [[mz ez] lz]. apply binary_round_aux_equiv.
Qed.
Lemma fsqrt_spec x : dbl x -> 0 < f2r x -> dbl (wsqrt x) /\ f2r (wsqrt x) = rnd64 (sqrt (f2r x)).
Proof.
  intros Dx Px. destruct (dbl_bin x Dx) as (a & <- & Fa & Ea).
  change (wsqrt (B2SF a)) with (SFsqrt 53 1024 (B2SF a)). rewrite sqrt_equiv.
  destruct (Bsqrt_correct 53 1024 Hprec Hmax mode_NE a) as (P1 & P2 & _).
  assert (is_finite (Bsqrt mode_NE a) = true) as F.
  { rewrite P2. destruct a as [s|s| |[] m e H]; try reflexivity; try discriminate. exfalso. rewrite <- Ea in Px.
    cbn [B2R] in Px. assert (F2R (Float radix2 (cond_Zopp true (Z.pos m)) e) < 0) by (now apply F2R_lt_0). lra. }
  destruct (bin_dbl _ F) as [D E]. split; auto. rewrite E, P1, Ea. reflexivity.
Qed.

(** ** Numbers within k roundings of each other *)
Definition rel (k : nat) (x : f64) (z : R) : Prop :=
  dbl x /\ 0 < z /\ f2r x <= (1 + u64) ^ k * z /\ z <= (1 + u64) ^ k * f2r x.
Lemma rel_pos k x z : rel k x z -> 0 < f2r x.
Proof. intros (_ & P & _ & L). pose proof (pow_u_ge1 k). destruct (Rle_dec (f2r x) 0); [|lra]. exfalso. nra. Qed.
Lemma rel_weaken k k' x z : (k <= k')%nat -> rel k x z -> rel k' x z.
Proof.
  intros L Hr. pose proof (rel_pos _ _ _ Hr) as Px. destruct Hr as (D & P & A & B). pose proof u64_pos.
  assert ((1 + u64) ^ k <= (1 + u64) ^ k') by (apply Rle_pow; [lra|auto]). repeat split; try apply D; auto; nra.
Qed.
Lemma rel_error k x z : rel k x z -> Rabs (f2r x - z) <= gam k * z.
Proof.
  intros Hr. pose proof (rel_pos _ _ _ Hr) as Px. destruct Hr as (D & P & A & B). unfold gam. pose proof (pow_u_ge1 k). apply Rabs_le. split; [|lra].
  set (q := (1 + u64) ^ k) in *. assert (f2r x * q <= q * z * q) by nra.
  assert (z - f2r x <= (q - 1) * f2r x) by lra. destruct (Rle_dec (f2r x) z); nra.
Qed.
Lemma rnd_both m : bpow radix2 (-1000) <= m -> rnd64 m <= (1 + u64) * m /\ m <= (1 + u64) * rnd64 m.
Proof.
  intros H. pose proof (bpow_gt_0 radix2 (-1000)) as B0. pose proof u64_pos as U. pose proof u64_small as U2.
  destruct (relative_error_N_FLT'_ex radix2 (-1074) 53 eq_refl (fun z => negb (Z.even z)) m) as (e & eta & He & Ht & Hz & E).
  assert (u_ro radix2 53 = u64) as Eu by (unfold u_ro, u64; change (/ 2) with (bpow radix2 (-1)); rewrite <- bpow_plus; reflexivity).
  rewrite Eu in He. unfold rnd64. change ZnearestE with (Znearest (fun z => negb (Z.even z))). rewrite E. apply Rabs_le_inv in He. apply Rabs_le_inv in Ht.
  assert (/ 2 * bpow radix2 (-1074) <= u64 / 2 * m) as Tm.
  { apply Rle_trans with (u64 / 2 * bpow radix2 (-1000)); [|apply Rmult_le_compat_l; lra]. unfold u64, Rdiv. rewrite (Rmult_comm (bpow radix2 (-53))), Rmult_assoc, bp.
    apply Rmult_le_compat_l; [lra|]. apply bpow_le. lia. }
  assert (u64 / (1 + u64) <= u64) as L1.
  { apply (Rmult_le_reg_r (1 + u64)); [lra|]. unfold Rdiv. rewrite Rmult_assoc, Rinv_l, Rmult_1_r by lra. nra. }
  assert ((1 + u64) * (1 - u64 / (1 + u64)) = 1) as L2 by (field; lra).
  apply Rmult_integral in Hz. destruct Hz as [-> | ->]; [|nra]. assert (0 <= u64 * m * (1 - u64)) by (apply Rmult_le_pos; [apply Rmult_le_pos; lra|lra]). nra.
Qed.
Lemma rel_round k z m : (1 + u64) ^ k <= 2 -> bpow radix2 (-900) <= z <= bpow radix2 900 ->
  m <= (1 + u64) ^ k * z -> z <= (1 + u64) ^ k * m ->
  in_range (rnd64 m) /\ rnd64 m <= (1 + u64) ^ (S k) * z /\ z <= (1 + u64) ^ (S k) * rnd64 m.
Proof.
  intros K [Z1 Z2] A B. pose proof (bpow_gt_0 radix2 (-900)) as B0. pose proof u64_pos as U. pose proof u64_small as U2. pose proof (pow_u_ge1 k) as K1.
  assert (0 < m) as Pm by (destruct (Rle_dec m 0); [|lra]; exfalso; nra).
  assert (bpow radix2 (-1000) <= m) as Lm.
  { apply Rle_trans with (bpow radix2 (-901)); [apply bpow_le; lia|]. assert (bpow radix2 (-900) = 2 * bpow radix2 (-901)) as E by (change 2 with (bpow radix2 1); rewrite bp; f_equal; lia). nra. }
  destruct (rnd_both m Lm) as [R1 R2]. cbn [pow]. assert (0 <= rnd64 m) by (apply rnd_nonneg; lra). split; [|split].
  - unfold in_range. rewrite Rabs_pos_eq by auto. apply Rle_lt_trans with (bpow radix2 2 * bpow radix2 900).
    + change (bpow radix2 2) with 4. assert (m <= 2 * bpow radix2 900) by nra. nra.
    + rewrite bp. apply bpow_lt. lia.
  - apply Rle_trans with (1 := R1). rewrite Rmult_assoc. apply Rmult_le_compat_l; lra.
  - apply Rle_trans with (1 := B). replace ((1 + u64) * (1 + u64) ^ k * rnd64 m) with ((1 + u64) ^ k * ((1 + u64) * rnd64 m)) by ring. apply Rmult_le_compat_l; lra.
Qed.
Lemma rel_mul k j x y z t : (1 + u64) ^ (k + j) <= 2 -> rel k x z -> rel j y t -> bpow radix2 (-900) <= z * t <= bpow radix2 900 ->
  rel (S (k + j)) (wmul x y) (z * t).
Proof.
  intros K X Y Hr. pose proof (rel_pos _ _ _ X) as Px. pose proof (rel_pos _ _ _ Y) as Py.
  destruct X as (Dx & Pz & X1 & X2), Y as (Dy & Pt & Y1 & Y2). pose proof (pow_u_ge1 k). pose proof (pow_u_ge1 j).
  destruct (rel_round (k + j) (z * t) (f2r x * f2r y) K Hr) as (R0 & R1 & R2).
  - rewrite pow_add. replace ((1 + u64) ^ k * (1 + u64) ^ j * (z * t)) with ((1 + u64) ^ k * z * ((1 + u64) ^ j * t)) by ring. apply Rmult_le_compat; lra.
  - rewrite pow_add. replace ((1 + u64) ^ k * (1 + u64) ^ j * (f2r x * f2r y)) with ((1 + u64) ^ k * f2r x * ((1 + u64) ^ j * f2r y)) by ring. apply Rmult_le_compat; lra.
  - destruct (fmul_spec x y Dx Dy R0) as [D E]. split; auto. split; [now apply Rmult_lt_0_compat|]. now rewrite E.
Qed.
Lemma rel_div k j x y z t : (1 + u64) ^ (k + j) <= 2 -> rel k x z -> rel j y t -> bpow radix2 (-900) <= z / t <= bpow radix2 900 ->
  rel (S (k + j)) (wdiv x y) (z / t).
Proof.
  intros K X Y Hr. pose proof (rel_pos _ _ _ X) as Px. pose proof (rel_pos _ _ _ Y) as Py.
  destruct X as (Dx & Pz & X1 & X2), Y as (Dy & Pt & Y1 & Y2). pose proof (pow_u_ge1 k) as K1. pose proof (pow_u_ge1 j) as J1.
  destruct (rel_round (k + j) (z / t) (f2r x / f2r y) K Hr) as (R0 & R1 & R2).
  - rewrite pow_add. set (a := (1 + u64) ^ k) in *. set (b := (1 + u64) ^ j) in *.
    apply (Rmult_le_reg_r (f2r y * t)); [now apply Rmult_lt_0_compat|]. replace (f2r x / f2r y * (f2r y * t)) with (f2r x * t) by (field; lra).
    replace (a * b * (z / t) * (f2r y * t)) with ((a * z) * (b * f2r y)) by (field; lra). apply Rmult_le_compat; lra.
  - rewrite pow_add. set (a := (1 + u64) ^ k) in *. set (b := (1 + u64) ^ j) in *.
    apply (Rmult_le_reg_r (f2r y * t)); [now apply Rmult_lt_0_compat|]. replace (z / t * (f2r y * t)) with (z * f2r y) by (field; lra).
    replace (a * b * (f2r x / f2r y) * (f2r y * t)) with ((a * f2r x) * (b * t)) by (field; lra). apply Rmult_le_compat; lra.
  - destruct (fdiv_spec x y Dx Dy ltac:(lra) R0) as [D E]. split; auto. split; [now apply Rdiv_lt_0_compat|]. now rewrite E.
Qed.
Lemma rel_sqrt k x z : (1 + u64) ^ k <= 2 -> rel k x z -> bpow radix2 (-900) <= sqrt z <= bpow radix2 900 -> rel (S k) (wsqrt x) (sqrt z).
Proof.
  intros K X Hr. pose proof (rel_pos _ _ _ X) as Px. destruct X as (Dx & Pz & X1 & X2). pose proof (pow_u_ge1 k) as K1.
  assert (G : forall a b, 0 < a -> 0 < b -> a <= (1 + u64) ^ k * b -> sqrt a <= (1 + u64) ^ k * sqrt b).
  { intros a b Pa Pb L. apply Rle_trans with (sqrt ((1 + u64) ^ k * b)); [now apply sqrt_le_1_alt|]. rewrite sqrt_mult by lra.
    apply Rmult_le_compat_r; [apply sqrt_pos|]. rewrite <- (sqrt_Rsqr ((1 + u64) ^ k)) at 2 by lra. apply sqrt_le_1_alt. unfold Rsqr. nra. }
  destruct (rel_round k (sqrt z) (sqrt (f2r x)) K Hr) as (R0 & R1 & R2); [now apply G..|].
  destruct (fsqrt_spec x Dx Px) as [D E]. split; auto. split; [now apply sqrt_lt_R0|]. now rewrite E.
Qed.
Lemma rel_exact x : dbl x -> 0 < f2r x -> rel 0 x (f2r x).
Proof. intros D P. split; auto. split; auto. simpl. lra. Qed.
(** Sums of non-negative doubles. *)
Definition rel0 (k : nat) (x : f64) (z : R) : Prop :=
  dbl x /\ 0 <= f2r x /\ 0 <= z /\ f2r x <= (1 + u64) ^ k * z /\ z <= (1 + u64) ^ k * f2r x.
Lemma rel0_add k x y z t : rel0 k x z -> rel0 k y t -> (1 + u64) ^ (S k) * (z + t) < overflow -> rel0 (S k) (wadd x y) (z + t).
Proof.
  intros (Dx & Px & Pz & X1 & X2) (Dy & Py & Pt & Y1 & Y2) Ho. pose proof (pow_u_ge1 k) as K1. pose proof u64_pos as U. cbn [pow] in *.
  assert (Rabs (rnd64 (f2r x + f2r y) - (f2r x + f2r y)) <= u64 / (1 + u64) * (f2r x + f2r y)) as RE.
  { destruct (Plus_error.FLT_plus_error_N_ex radix2 (-1074) 53 (fun z => negb (Z.even z)) (f2r x) (f2r y)) as (eps & He & E); [now apply dbl_format..|].
    unfold rnd64. change ZnearestE with (Znearest (fun z => negb (Z.even z))). rewrite E.
    replace ((f2r x + f2r y) * (1 + eps) - (f2r x + f2r y)) with (eps * (f2r x + f2r y)) by ring.
    rewrite Rabs_mult, (Rabs_pos_eq (f2r x + f2r y)) by lra. apply Rmult_le_compat_r; [lra|].
    assert (u_ro radix2 53 = u64) as Eu by (unfold u_ro, u64; change (/ 2) with (bpow radix2 (-1)); rewrite <- bpow_plus; reflexivity).
    rewrite Eu in He. exact He. }
  apply Rabs_le_inv in RE. set (s := f2r x + f2r y) in *. set (q := (1 + u64) ^ k) in *.
  assert (u64 / (1 + u64) <= u64) as L1.
  { apply (Rmult_le_reg_r (1 + u64)); [lra|]. unfold Rdiv. rewrite Rmult_assoc, Rinv_l, Rmult_1_r by lra. nra. }
  assert ((1 + u64) * (1 - u64 / (1 + u64)) = 1) as L2 by (field; lra).
  assert (0 <= s <= q * (z + t)) as S1 by (unfold s; lra). assert (z + t <= q * s) as S2 by (unfold s; lra).
  assert (0 <= rnd64 s) as P0 by (apply rnd_nonneg; lra).
  assert (rnd64 s <= (1 + u64) * s) as R1 by nra. assert (s <= (1 + u64) * rnd64 s) as R2 by nra.
  assert (rnd64 s <= (1 + u64) * q * (z + t)) as R3 by (rewrite Rmult_assoc; apply Rle_trans with (1 := R1); apply Rmult_le_compat_l; lra).
  destruct (fadd_spec x y Dx Dy) as [D E]; [fold s; unfold in_range; rewrite Rabs_pos_eq by auto; unfold overflow in Ho; lra|].
  split; auto. fold s in E. rewrite E. split; auto. split; [lra|]. split; auto.
  apply Rle_trans with (1 := S2). cbn [pow]. fold q. rewrite (Rmult_comm (1 + u64)), Rmult_assoc. apply Rmult_le_compat_l; lra.
Qed.
Lemma rel0_weaken k k' x z : (k <= k')%nat -> rel0 k x z -> rel0 k' x z.
Proof.
  intros L (D & Px & P & A & B). pose proof u64_pos.
  assert ((1 + u64) ^ k <= (1 + u64) ^ k') by (apply Rle_pow; [lra|auto]). repeat split; try apply D; auto; nra.
Qed.
Lemma rel0_exact k x : dbl x -> 0 <= f2r x -> rel0 k x (f2r x).
Proof. intros D P. apply (rel0_weaken 0); [lia|]. repeat split; try apply D; auto; simpl; lra. Qed.
Lemma rel0_rel k x z : rel0 k x z -> 0 < z -> rel k x z.
Proof. intros (D & Px & P & A & B) Pz. repeat split; auto; apply D. Qed.
Lemma rel0_fold l : (forall x, In x l -> dbl x /\ 0 <= f2r x) -> forall k acc S, rel0 k acc S ->
  (1 + u64) ^ (k + length l) * (S + lsum f2r l) < overflow ->
  rel0 (k + length l) (fold_left wadd l acc) (S + lsum f2r l).
Proof.
  induction l as [|x l IH]; intros Hl k acc S Ha Hr; cbn [fold_left lsum length] in *.
  - rewrite Nat.add_0_r, Rplus_0_r. exact Ha.
  - replace (k + Datatypes.S (length l))%nat with (Datatypes.S k + length l)%nat in * by lia.
    replace (S + (f2r x + lsum f2r l)) with ((S + f2r x) + lsum f2r l) in * by ring.
    assert (0 <= lsum f2r l) by (apply lsum_nonneg; intros y Hy; apply Hl; now right).
    destruct (Hl x (or_introl eq_refl)) as [Dx Px]. assert (0 <= S) by apply Ha.
    apply IH; auto; [intros y Hy; apply Hl; now right|]. apply rel0_add; auto; [now apply rel0_exact|]. apply Rle_lt_trans with (2 := Hr).
    pose proof u64_pos. assert ((1 + u64) ^ Datatypes.S k <= (1 + u64) ^ (Datatypes.S k + length l)) by (apply Rle_pow; [lra|lia]).
    apply Rmult_le_compat; try lra. apply pow_le. lra.
Qed.

Lemma rsum_abs_le n f : Rabs (rsum n f) <= rsum n (fun i => Rabs (f i)).
Proof.
  induction n as [|n IH]; [rewrite !rsum_0, Rabs_R0; lra|]. rewrite !rsum_S. apply Rle_trans with (1 := Rabs_triang _ _). lra.
Qed.
(** ** The graph *)
(** Stored weights are doubles between 2^-300 and 2^300, and there are at most 2^40 vertices. *)
Definition moderate (g : graph f64) : Prop :=
  (forall i j v, sp_get (g_adj g) i j = Some v -> dbl v /\ bpow radix2 (-300) <= f2r v <= bpow radix2 300) /\
  INR (number_of_vertices g) <= bpow radix2 40.
(** An edge (or self-loop) joins u and v. *)
Definition joined (g : graph f64) (u v : nat) : Prop := sp_get (g_adj g) u v <> None.

Section Entries.
  Variable g : graph f64.
  Hypothesis Hr : reachable g.
  Hypothesis Hm : moderate g.
  Let n := number_of_vertices g.

  Lemma mod_finite : finite_weights g.
  Proof. intros i j v G. destruct (proj1 Hm i j v G) as (D & L & _). split; auto. pose proof (bpow_gt_0 radix2 (-300)). lra. Qed.
  Lemma mod_fw u v : fw g u v <= bpow radix2 300.
  Proof.
    unfold fw, weight, coeff. destruct (sp_get (g_adj g) u v) as [x|] eqn:G; cbn [o0]; [now apply (proj1 Hm u v)|]. rewrite f2r_0. apply bpow_ge_0.
  Qed.
  Lemma pow_two k : INR k <= bpow radix2 45 -> (1 + u64) ^ k <= 2.
  Proof.
    intros Hk. assert (INR k * u64 <= bpow radix2 (-8)) as L.
    { apply Rle_trans with (bpow radix2 45 * u64); [apply Rmult_le_compat_r; [apply Rlt_le, u64_pos|auto]|]. unfold u64. rewrite bp. apply bpow_le. lia. }
    assert (bpow radix2 (-8) <= / 4) by (simpl; lra). destruct (pow_small k); lra.
  Qed.
  Lemma entries_le v : INR (row_entries g v) <= bpow radix2 40.
  Proof. apply Rle_trans with (2 := proj2 Hm). apply le_INR, row_entries_le. Qed.
  Lemma entries_small u v : (1 + u64) ^ (row_entries g u + row_entries g v + 16) <= 2.
  Proof.
    apply pow_two. rewrite !plus_INR. pose proof (entries_le u). pose proof (entries_le v).
    assert (bpow radix2 45 = 32 * bpow radix2 40) as -> by (change 32 with (bpow radix2 5); rewrite bp; f_equal; lia).
    assert (16 <= bpow radix2 40) by (change 16 with (bpow radix2 4); apply bpow_le; lia). simpl (INR 16). lra.
  Qed.
  Lemma entries_small1 v k : (k <= 16)%nat -> (1 + u64) ^ (row_entries g v + k) <= 2.
  Proof.
    intros Hk. apply Rle_trans with (2 := entries_small v v). apply Rle_pow; [pose proof u64_pos; lra|lia].
  Qed.
  Lemma fdeg_hi v : fdeg g v <= bpow radix2 342.
  Proof.
    unfold fdeg. fold n. assert (rsum n (fw g v) <= INR n * bpow radix2 300) as L.
    { apply Rle_trans with (rsum n (fun _ => bpow radix2 300)); [apply rsum_le; intros; apply mod_fw|]. rewrite rsum_const. lra. }
    pose proof (mod_fw v v). pose proof (proj2 Hm) as Hn. fold n in Hn. pose proof (bpow_gt_0 radix2 300).
    assert (INR n * bpow radix2 300 <= bpow radix2 340) by (apply Rle_trans with (bpow radix2 40 * bpow radix2 300); [apply Rmult_le_compat_r; lra|rewrite bp; apply bpow_le; lia]).
    assert (bpow radix2 300 <= bpow radix2 340) by (apply bpow_le; lia).
    assert (bpow radix2 342 = 4 * bpow radix2 340) as -> by (change 4 with (bpow radix2 2); rewrite bp; f_equal; lia). pose proof (bpow_gt_0 radix2 340). lra.
  Qed.
  Lemma joined_lt u v : joined g u v -> (u < n)%nat /\ (v < n)%nat.
  Proof.
    unfold joined. destruct (sp_get (g_adj g) u v) as [x|] eqn:G; [|congruence]. intros _. destruct (reachable_ok g Hr) as [(R0 & C & Hw) _].
    destruct (sp_get_lt _ _ _ _ Hw G). unfold n, number_of_vertices. lia.
  Qed.
  Lemma joined_sym u v : joined g u v -> joined g v u.
  Proof. unfold joined. now rewrite (reachable_sym g Hr v u). Qed.
  Lemma joined_fw u v : joined g u v -> exists x, sp_get (g_adj g) u v = Some x /\ f2r x = fw g u v /\ dbl x /\ bpow radix2 (-300) <= fw g u v <= bpow radix2 300.
  Proof.
    unfold joined, fw, weight, coeff. destruct (sp_get (g_adj g) u v) as [x|] eqn:G; [|congruence]. intros _. exists x. split; auto. cbn [o0]. split; auto. now apply (proj1 Hm u v).
  Qed.
  Lemma not_joined_fw u v : ~ joined g u v -> sp_get (g_adj g) u v = None /\ fw g u v = 0.
  Proof. unfold joined, fw, weight, coeff. destruct (sp_get (g_adj g) u v) as [x|] eqn:G; intros N; [exfalso; apply N; discriminate|]. auto. Qed.
  Lemma fw_le_deg u v : (v < n)%nat -> fw g u v <= fdeg g u.
  Proof.
    intros Hv. unfold fdeg. fold n. pose proof (fw_nonneg g u u mod_finite).
    pose proof (rsum_ge_elt n (fw g u) v (fun x _ => fw_nonneg g u x mod_finite) Hv). lra.
  Qed.
  Lemma fdeg_lo u v : joined g u v -> bpow radix2 (-300) <= fdeg g u.
  Proof. intros J. destruct (joined_fw u v J) as (_ & _ & _ & _ & L & _). apply Rle_trans with (1 := L). apply fw_le_deg. now apply (joined_lt u v). Qed.
  Lemma deg_rel v : bpow radix2 (-300) <= fdeg g v -> rel (row_entries g v + 1) (deg_val g v) (fdeg g v).
  Proof.
    intros L. pose proof (bpow_gt_0 radix2 (-300)) as P. apply rel0_rel; [|lra].
    assert (forall k, (k <= 16)%nat -> forall z, 0 <= z <= fdeg g v -> (1 + u64) ^ (row_entries g v + k) * z < overflow) as Ho.
    { intros k Hk z Hz. pose proof (entries_small1 v k Hk). pose proof (pow_u_ge1 (row_entries g v + k)). pose proof (fdeg_hi v).
      apply Rle_lt_trans with (bpow radix2 1 * bpow radix2 342); [apply Rmult_le_compat; try lra; change (bpow radix2 1) with 2; lra|]. rewrite bp. apply bpow_lt. lia. }
    pose proof (fw_nonneg g v v mod_finite) as Pv.
    assert (0 <= rsum n (fw g v)) as Ps by (apply rsum_nonneg; intros; apply fw_nonneg, mod_finite).
    destruct (reachable_ok g Hr) as [(_ & C & Hw) _].
    unfold deg_val. replace (row_entries g v + 1)%nat with (S (row_entries g v)) by lia. unfold fdeg. fold n. apply rel0_add.
    - rewrite rowsum_fold by (intros k x G; now apply (mod_finite v k)). 
      assert (rsum n (fw g v) = 0 + lsum f2r (row_list (g_adj g) v)) as E.
      { rewrite (row_list_sum _ v f2r) by reflexivity. rewrite C. unfold n, number_of_vertices. rewrite Rplus_0_l. reflexivity. }
      rewrite <- (row_list_length g v Hr), E. unfold wsum.
      apply (rel0_fold (row_list (g_adj g) v)) with (k := 0%nat).
      + intros x Hx. destruct (row_list_in _ _ _ Hx) as [k G]. now apply (mod_finite v k).
      + rewrite <- f2r_0. apply rel0_exact; [exact dbl_0|rewrite f2r_0; lra].
      + rewrite (row_list_length g v Hr), <- E. rewrite Nat.add_0_l. specialize (Ho 0%nat ltac:(lia)). rewrite Nat.add_0_r in Ho. apply Ho.
        unfold fdeg. fold n. lra.
    - apply rel0_exact; [|exact Pv]. unfold weight, coeff. destruct (sp_get (g_adj g) v v) as [x|] eqn:G; [now apply (mod_finite v v)|exact dbl_0].
    - specialize (Ho 1%nat ltac:(lia)). rewrite Nat.add_1_r in Ho. apply Ho. unfold fdeg. fold n. lra.
  Qed.
  Lemma rel_one : rel 0 w1 1.
  Proof. rewrite <- f2r_1. apply rel_exact; [exact dbl_1|rewrite f2r_1; lra]. Qed.

  (** 1 / sqrt(degree) *)
  Definition isd (v : nat) : f64 := wdiv w1 (wsqrt (deg_val g v)).
  Lemma sqrt_bpow e : sqrt (bpow radix2 (2 * e)) = bpow radix2 e.
  Proof. replace (2 * e)%Z with (e + e)%Z by lia. rewrite bpow_plus. apply sqrt_square, bpow_ge_0. Qed.
  Lemma sqrt_range v : bpow radix2 (-300) <= fdeg g v -> bpow radix2 (-150) <= sqrt (fdeg g v) <= bpow radix2 171.
  Proof.
    intros L. split; [rewrite <- (sqrt_bpow (-150))|rewrite <- (sqrt_bpow 171)]; apply sqrt_le_1_alt; [exact L|apply fdeg_hi].
  Qed.
  Lemma inv_range a b x : bpow radix2 a <= x <= bpow radix2 b -> bpow radix2 (- b) <= 1 / x <= bpow radix2 (- a).
  Proof.
    intros [A B]. pose proof (bpow_gt_0 radix2 a). rewrite !bpow_opp. unfold Rdiv. rewrite Rmult_1_l. split; apply Rinv_le_contravar; auto; lra.
  Qed.
  Lemma isd_rel v : bpow radix2 (-300) <= fdeg g v -> rel (row_entries g v + 3) (isd v) (1 / sqrt (fdeg g v)).
  Proof.
    intros L. pose proof (sqrt_range v L) as Rs.
    assert (rel (row_entries g v + 2) (wsqrt (deg_val g v)) (sqrt (fdeg g v))) as A.
    { replace (row_entries g v + 2)%nat with (S (row_entries g v + 1)) by lia. apply rel_sqrt; [apply entries_small1; lia|now apply deg_rel|].
      split; [apply Rle_trans with (2 := proj1 Rs)|apply Rle_trans with (1 := proj2 Rs)]; apply bpow_le; lia. }
    replace (row_entries g v + 3)%nat with (S (0 + (row_entries g v + 2))) by lia. unfold isd. apply rel_div; auto using rel_one.
    - simpl. apply entries_small1. lia.
    - destruct (inv_range _ _ _ Rs) as [I1 I2]. split; [apply Rle_trans with (2 := I1)|apply Rle_trans with (1 := I2)]; apply bpow_le; lia.
  Qed.
  (** (1/sqrt d_u) w (1/sqrt d_v) *)
  Definition nrm_val (u v : nat) (x : f64) : f64 := wmul (wmul (isd u) x) (isd v).
  Lemma nrm_rel u v x : joined g u v -> sp_get (g_adj g) u v = Some x ->
    rel (row_entries g u + row_entries g v + 8) (nrm_val u v x) (fw g u v / sqrt (fdeg g u * fdeg g v)).
  Proof.
    intros J G. destruct (joined_fw u v J) as (x' & G' & Ex & Dx & Lx & Hx). assert (x' = x) as -> by congruence. clear G'.
    pose proof (fdeg_lo u v J) as Lu. pose proof (fdeg_lo v u (joined_sym u v J)) as Lv.
    pose proof (sqrt_range u Lu) as Ru. pose proof (sqrt_range v Lv) as Rv. pose proof (inv_range _ _ _ Ru) as Iu. pose proof (inv_range _ _ _ Rv) as Iv.
    pose proof (bpow_gt_0 radix2 (-150)) as B150. pose proof (bpow_gt_0 radix2 (-300)) as B300. pose proof (bpow_gt_0 radix2 (-171)) as B171.
    assert (forall a b a' b' y z, bpow radix2 a <= y <= bpow radix2 b -> bpow radix2 a' <= z <= bpow radix2 b' -> bpow radix2 (a + a') <= y * z <= bpow radix2 (b + b')) as Hmul.
    { intros a b a' b' y z Y Z. rewrite !bpow_plus. pose proof (bpow_gt_0 radix2 a). pose proof (bpow_gt_0 radix2 a'). split; apply Rmult_le_compat; lra. }
    pose proof (Hmul _ _ _ _ _ _ Iu (conj Lx Hx)) as M1. pose proof (Hmul _ _ _ _ _ _ M1 Iv) as M2.
    assert (fw g u v / sqrt (fdeg g u * fdeg g v) = (1 / sqrt (fdeg g u)) * fw g u v * (1 / sqrt (fdeg g v))) as ->.
    { rewrite sqrt_mult by lra. field. lra. }
    apply (rel_weaken (S (S (row_entries g u + 3 + 0) + (row_entries g v + 3)))); [lia|].
    unfold nrm_val. apply rel_mul.
    - apply Rle_trans with (2 := entries_small u v). apply Rle_pow; [pose proof u64_pos; lra|lia].
    - apply rel_mul.
      + apply Rle_trans with (2 := entries_small u v). apply Rle_pow; [pose proof u64_pos; lra|lia].
      + now apply isd_rel.
      + rewrite <- Ex. apply rel_exact; auto. rewrite Ex. lra.
      + split; [apply Rle_trans with (2 := proj1 M1)|apply Rle_trans with (1 := proj2 M1)]; apply bpow_le; lia.
    - now apply isd_rel.
    - split; [apply Rle_trans with (2 := proj1 M2)|apply Rle_trans with (1 := proj2 M2)]; apply bpow_le; lia.
  Qed.
  Lemma nrm_get u v : (u < n)%nat -> (v < n)%nat -> sp_get (nrm_mat (g_adj g)) u v = option_map (nrm_val u v) (sp_get (g_adj g) u v).
  Proof.
    intros Hu Hv. destruct (reachable_ok g Hr) as [(Rr & C & Hwf) _]. unfold nrm_mat. cbv zeta. unfold sqrt_inv_deg. rewrite C.
    rewrite sp_get_mul_diag_r; [|now apply sp_mul_diag_l_wf|now rewrite sp_mul_ncols]. rewrite sp_get_mul_diag_l by auto.
    assert (forall w, (w < n)%nat -> coeff (deg_mat (g_adj g)) w w = deg_val g w) as Ed.
    { intros w Hw. unfold coeff at 1, deg_mat. rewrite sp_get_diag, C, Nat.eqb_refl. destruct (Nat.ltb_spec w (g_n g)) as [|N]; [reflexivity|exfalso; apply (Nat.lt_irrefl w); apply Nat.lt_le_trans with n; auto]. }
    rewrite !Ed by auto. destruct (sp_get (g_adj g) u v); reflexivity.
  Qed.
  Lemma norm_formula (signless : bool) u v : (u < n)%nat -> (v < n)%nat ->
    coeff (snd (mat_query (if signless then QNSLap else QNLap) g)) u v =
    let i := if Nat.eqb u v then w1 else w0 in
    match sp_get (g_adj g) u v with
    | Some x => (if signless then wadd else wsub) i (nrm_val u v x)
    | None => i end.
  Proof.
    intros Hu Hv. pose proof (nrm_get u v Hu Hv) as Hn. destruct (reachable_ok g Hr) as [(Rr & C & Hwf) Hc].
    rewrite query_formula by auto. cbv zeta.
    assert (sp_wf (nrm_mat (g_adj g))) as Hnwf.
    { unfold nrm_mat. cbv zeta. apply sp_mul_diag_r_wf; [|now rewrite sp_mul_ncols, C]. apply sp_mul_diag_l_wf; auto. now rewrite C. }
    assert (sp_ncols (identity_mat (W := f64) (sp_ncols (g_adj g))) = sp_ncols (nrm_mat (g_adj g))) as Hcols.
    { unfold identity_mat, nrm_mat. cbv zeta. rewrite sp_mul_ncols. unfold sqrt_inv_deg. now rewrite !sp_diag_ncols. }
    assert (sp_get (identity_mat (W := f64) (sp_ncols (g_adj g))) u v = if Nat.eqb u v then Some w1 else None) as Hid.
    { unfold identity_mat. rewrite sp_get_diag, C. destruct (Nat.eqb_spec u v) as [->|]; cbn [andb]; [|reflexivity].
      destruct (Nat.ltb_spec v (g_n g)) as [|N]; [reflexivity|exfalso; apply (Nat.lt_irrefl v); apply Nat.lt_le_trans with n; auto]. }
    unfold coeff at 1. destruct signless; cbn [mat_formula]; unfold sp_add, sp_sub;
      (rewrite sp_get_merge by (auto; apply sp_diag_wf)); rewrite Hid, Hn;
      destruct (Nat.eqb u v), (sp_get (g_adj g) u v); try reflexivity; vm_compute; reflexivity.
  Qed.

  (** 0 + x and 0 - x are exact. *)
  Lemma add0 x : dbl x -> f2r (wadd w0 x) = f2r x.
  Proof.
    intros D. destruct (fadd_spec w0 x dbl_0 D) as [_ E]; rewrite f2r_0, Rplus_0_l, rnd_dbl in * by auto; [now apply dbl_range|exact E].
  Qed.
  Lemma sub0 x : dbl x -> f2r (wsub w0 x) = - f2r x.
  Proof.
    intros Dx. assert (rnd64 (f2r w0 - f2r x) = - f2r x) as E.
    { rewrite f2r_0. replace (0 - f2r x) with (- f2r x) by ring. apply rnd_format. apply generic_format_opp. now apply dbl_format. }
    destruct (fsub_spec w0 x dbl_0 Dx) as [_ Ev]; [|now rewrite Ev]. rewrite E. unfold in_range. rewrite Rabs_Ropp. now apply dbl_range.
  Qed.
  Lemma one_pm (signless : bool) x : dbl x -> 0 <= f2r x <= 2 ->
    Rabs (f2r ((if signless then wadd else wsub) w1 x) - (1 + (if signless then 1 else -1) * f2r x)) <= u64 * (1 + f2r x).
  Proof.
    intros D Hx. pose proof u64_pos. pose proof u64_small. assert (4 < bpow radix2 1024) as B by (change 4 with (bpow radix2 2); apply bpow_lt; lia).
    destruct signless.
    - pose proof (add_rel_error w1 x dbl_1 D) as E. rewrite f2r_1, (Rabs_pos_eq (1 + f2r x)) in E by lra.
      destruct (fadd_spec w1 x dbl_1 D) as [_ Ev].
      { rewrite f2r_1. unfold in_range. rewrite Rabs_pos_eq by (apply rnd_nonneg; lra). apply Rabs_le_inv in E. nra. }
      rewrite Ev, f2r_1, Rmult_1_l. exact E.
    - pose proof (sub_rel_error w1 x dbl_1 D) as E. rewrite f2r_1 in E. assert (Rabs (1 - f2r x) <= 1 + f2r x) as A by (apply Rabs_le; lra).
      destruct (fsub_spec w1 x dbl_1 D) as [_ Ev].
      { rewrite f2r_1. unfold in_range. apply Rle_lt_trans with (2 := B).
        replace (rnd64 (1 - f2r x)) with ((rnd64 (1 - f2r x) - (1 - f2r x)) + (1 - f2r x)) by ring. apply Rle_trans with (1 := Rabs_triang _ _). nra. }
      rewrite Ev, f2r_1. replace (1 + -1 * f2r x) with (1 - f2r x) by ring. apply Rle_trans with (1 := E). nra.
  Qed.
  Lemma loop_half v : (v < n)%nat -> 2 * fw g v v <= fdeg g v.
  Proof.
    intros Hv. unfold fdeg. fold n. pose proof (rsum_ge_elt n (fw g v) v (fun x _ => fw_nonneg g v x mod_finite) Hv). lra.
  Qed.

  (** The normalised Laplacian (and signless) entry by entry. *)
  Theorem norm_absent (signless : bool) u v : (u < n)%nat -> (v < n)%nat -> ~ joined g u v ->
    coeff (snd (mat_query (if signless then QNSLap else QNLap) g)) u v = if Nat.eqb u v then w1 else w0.
  Proof. intros Hu Hv N. rewrite norm_formula by auto. cbv zeta. now rewrite (proj1 (not_joined_fw u v N)). Qed.
  Theorem norm_off (signless : bool) u v : joined g u v -> u <> v ->
    Rabs (f2r (coeff (snd (mat_query (if signless then QNSLap else QNLap) g)) u v)
          - (if signless then 1 else -1) * (fw g u v / sqrt (fdeg g u * fdeg g v)))
    <= gam (row_entries g u + row_entries g v + 8) * (fw g u v / sqrt (fdeg g u * fdeg g v)).
  Proof.
    intros J N. destruct (joined_lt u v J) as [Hu Hv]. rewrite norm_formula by auto. cbv zeta. destruct (joined_fw u v J) as (x & G & _). rewrite G.
    destruct (Nat.eqb_spec u v); [contradiction|]. pose proof (nrm_rel u v x J G) as Rl. pose proof (rel_error _ _ _ Rl) as E. destruct Rl as (D & _).
    destruct signless; [rewrite add0, Rmult_1_l by auto; exact E|]. rewrite sub0 by auto.
    replace (- f2r (nrm_val u v x) - -1 * (fw g u v / sqrt (fdeg g u * fdeg g v))) with (- (f2r (nrm_val u v x) - fw g u v / sqrt (fdeg g u * fdeg g v))) by ring.
    now rewrite Rabs_Ropp.
  Qed.
  Theorem norm_diag (signless : bool) v : joined g v v ->
    Rabs (f2r (coeff (snd (mat_query (if signless then QNSLap else QNLap) g)) v v)
          - (1 + (if signless then 1 else -1) * (fw g v v / fdeg g v))) <= gam (2 * row_entries g v + 9).
  Proof.
    intros J. destruct (joined_lt v v J) as [Hv _]. rewrite norm_formula by auto. cbv zeta. destruct (joined_fw v v J) as (x & G & _). rewrite G, Nat.eqb_refl.
    pose proof (nrm_rel v v x J G) as Rl. pose proof (fdeg_lo v v J) as Ld. pose proof (bpow_gt_0 radix2 (-300)).
    rewrite sqrt_square in Rl by lra. pose proof (rel_error _ _ _ Rl) as E. pose proof (rel_pos _ _ _ Rl) as P. destruct Rl as (D & Pz & _).
    replace (row_entries g v + row_entries g v + 8)%nat with (2 * row_entries g v + 8)%nat in E by lia.
    assert (fw g v v / fdeg g v <= / 2) as Hh.
    { apply (Rmult_le_reg_r (fdeg g v)); [lra|]. unfold Rdiv. rewrite Rmult_assoc, Rinv_l, Rmult_1_r by lra. pose proof (loop_half v Hv). lra. }
    set (K := (2 * row_entries g v + 8)%nat) in *. set (z := fw g v v / fdeg g v) in *. set (y := f2r (nrm_val v v x)) in *.
    assert (gam (2 * row_entries g v + 9) = gam K + u64 + u64 * gam K) as ->.
    { replace (2 * row_entries g v + 9)%nat with (S K) by (unfold K; lia). unfold gam. cbn [pow]. ring. }
    assert (gam K <= 1) as G1 by (unfold gam; pose proof (entries_small v v); assert ((1 + u64) ^ K <= (1 + u64) ^ (row_entries g v + row_entries g v + 16)) by (apply Rle_pow; [pose proof u64_pos; lra|unfold K; lia]); lra).
    assert (8 * u64 <= gam K) as G8.
    { unfold gam. apply Rle_trans with ((1 + u64) ^ 8 - 1); [pose proof (poly 8 u64 u64_pos) as Q; simpl (INR 8) in Q; lra|].
      assert ((1 + u64) ^ 8 <= (1 + u64) ^ K) by (apply Rle_pow; [pose proof u64_pos; lra|unfold K; lia]). lra. }
    pose proof u64_pos. pose proof E as E'. apply Rabs_le_inv in E'. assert (y <= 2) by nra.
    pose proof (one_pm signless _ D ltac:(fold y; lra)) as O. fold y in O.
    replace (f2r ((if signless then wadd else wsub) w1 (nrm_val v v x)) - (1 + (if signless then 1 else -1) * z)) with
      ((f2r ((if signless then wadd else wsub) w1 (nrm_val v v x)) - (1 + (if signless then 1 else -1) * y)) + (if signless then 1 else -1) * (y - z)) by ring.
    apply Rle_trans with (1 := Rabs_triang _ _).
    assert (Rabs ((if signless then 1 else -1) * (y - z)) = Rabs (y - z)) as -> by (destruct signless; [now rewrite Rmult_1_l|replace (-1 * (y - z)) with (- (y - z)) by ring; apply Rabs_Ropp]).
    assert (u64 * (1 + y) <= u64 * (3 / 2 + gam K / 2)) by (apply Rmult_le_compat_l; [lra|nra]). nra.
  Qed.

  (** Inverse degrees. *)
  Lemma inv_rel v : bpow radix2 (-300) <= fdeg g v -> rel (row_entries g v + 2) (wdiv w1 (deg_val g v)) (1 / fdeg g v).
  Proof.
    intros L. replace (row_entries g v + 2)%nat with (S (0 + (row_entries g v + 1))) by lia. apply rel_div; auto using rel_one, deg_rel.
    - simpl. apply entries_small1. lia.
    - destruct (inv_range _ _ _ (conj L (fdeg_hi v))) as [I1 I2]. split; [apply Rle_trans with (2 := I1)|apply Rle_trans with (1 := I2)]; apply bpow_le; lia.
  Qed.
  Lemma inv_get u v : (u < n)%nat -> (v < n)%nat -> sp_get (inv_mat (g_adj g)) u v = if Nat.eqb u v then Some (wdiv w1 (deg_val g v)) else None.
  Proof.
    intros Hu Hv. destruct (reachable_ok g Hr) as [(Rr & C & Hwf) _]. unfold inv_mat. rewrite sp_get_diag, C.
    destruct (Nat.eqb_spec u v) as [->|]; cbn [andb]; [|reflexivity]. unfold coeff, deg_mat. rewrite sp_get_diag, C, Nat.eqb_refl.
    destruct (Nat.ltb_spec v (g_n g)) as [|N]; [reflexivity|exfalso; apply (Nat.lt_irrefl v); apply Nat.lt_le_trans with n; auto].
  Qed.
  Theorem inverse_error u v : (u < n)%nat -> (v < n)%nat -> (exists w, joined g v w) ->
    (u <> v -> coeff (snd (mat_query QInv g)) u v = w0) /\
    (u = v -> Rabs (f2r (coeff (snd (mat_query QInv g)) u v) - / fdeg g v) <= gam (row_entries g v + 2) * / fdeg g v).
  Proof.
    intros Hu Hv [w J]. rewrite query_formula by auto. cbn [mat_formula]. unfold coeff. rewrite inv_get by auto. split.
    - intros N. destruct (Nat.eqb_spec u v); [contradiction|reflexivity].
    - intros ->. rewrite Nat.eqb_refl. cbn [o0]. replace (/ fdeg g v) with (1 / fdeg g v) by (unfold Rdiv; ring). apply rel_error, inv_rel. now apply (fdeg_lo v w).
  Qed.

  (** The lazy random walk. *)
  Lemma half_val : dbl (@whalf f64 _) /\ f2r whalf = / 2.
  Proof.
    split; [split; vm_compute; reflexivity|]. assert (@whalf f64 _ = S754_finite false 4503599627370496 (-53)) as -> by (vm_compute; reflexivity).
    unfold f2r. cbn [SF2R]. unfold F2R. cbn [Fnum Fexp cond_Zopp]. change 4503599627370496%Z with (Zpower radix2 52). rewrite IZR_Zpower by lia. rewrite bp. simpl. lra.
  Qed.
  Definition walk_val (v : nat) (x : f64) : f64 := wmul (wmul whalf x) (wdiv w1 (deg_val g v)).
  Lemma walk_formula u v : (u < n)%nat -> (v < n)%nat ->
    coeff (snd (mat_query QLrw g)) u v =
    let i := if Nat.eqb u v then whalf else w0 in
    match sp_get (g_adj g) u v with Some x => wadd i (walk_val v x) | None => i end.
  Proof.
    intros Hu Hv. destruct (reachable_ok g Hr) as [(Rr & C & Hwf) Hc]. rewrite query_formula by auto. cbn [mat_formula]. cbv zeta.
    unfold coeff, sp_add. rewrite sp_get_merge.
    - unfold identity_mat. rewrite sp_get_map, sp_get_diag, C.
      assert (forall w, (w < n)%nat -> coeff (deg_mat (g_adj g)) w w = deg_val g w) as Ed.
      { intros w Hw. unfold coeff at 1, deg_mat. rewrite sp_get_diag, C, Nat.eqb_refl. destruct (Nat.ltb_spec w (g_n g)) as [|N]; [reflexivity|exfalso; apply (Nat.lt_irrefl w); apply Nat.lt_le_trans with n; auto]. }
      unfold inv_mat. rewrite sp_get_mul_diag_r; [|now apply sp_map_wf|apply sp_map_ncols]. rewrite Ed, sp_get_map by auto.
      destruct (Nat.eqb_spec u v) as [->|]; cbn [andb].
      + destruct (Nat.ltb_spec v (g_n g)) as [|N]; [|exfalso; apply (Nat.lt_irrefl v); apply Nat.lt_le_trans with n; auto].
        assert (@wmul f64 _ whalf w1 = whalf) as E1 by (vm_compute; reflexivity).
        assert (@wadd f64 _ whalf w0 = whalf) as E2 by (vm_compute; reflexivity).
        destruct (sp_get (g_adj g) v v); cbn [option_map omerge o0]; [now rewrite E1|now rewrite E1, E2].
      + destruct (sp_get (g_adj g) u v); reflexivity.
    - apply sp_map_wf, sp_diag_wf.
    - apply sp_mul_diag_r_wf; [now apply sp_map_wf|apply sp_map_ncols].
    - unfold identity_mat, inv_mat. now rewrite sp_map_ncols, sp_mul_ncols, !sp_diag_ncols.
  Qed.
  Lemma walk_rel u v x : joined g u v -> sp_get (g_adj g) u v = Some x -> rel (row_entries g v + 4) (walk_val v x) (fw g u v / (2 * fdeg g v)).
  Proof.
    intros J G. destruct (joined_fw u v J) as (x' & G' & Ex & Dx & Lx & Hx). assert (x' = x) as -> by congruence. clear G'.
    pose proof (fdeg_lo v u (joined_sym u v J)) as Lv. pose proof (fdeg_hi v) as Uv. pose proof (bpow_gt_0 radix2 (-300)) as B300.
    destruct half_val as [Dh Eh]. destruct (inv_range _ _ _ (conj Lv Uv)) as [I1 I2].
    assert (bpow radix2 (-301) <= / 2 * fw g u v <= bpow radix2 300) as M1.
    { replace (bpow radix2 (-301)) with (/ 2 * bpow radix2 (-300)) by (change (/ 2) with (bpow radix2 (-1)); rewrite bp; f_equal; lia). lra. }
    assert (bpow radix2 (-643) <= / 2 * fw g u v * (1 / fdeg g v) <= bpow radix2 600) as M2.
    { change (-643)%Z with (-301 + Z.opp 342)%Z. change 600%Z with (300 + Z.opp (-300))%Z. rewrite !bpow_plus. pose proof (bpow_gt_0 radix2 (-301)). pose proof (bpow_gt_0 radix2 (Z.opp 342)).
      split; apply Rmult_le_compat; lra. }
    replace (fw g u v / (2 * fdeg g v)) with (/ 2 * fw g u v * (1 / fdeg g v)) by (field; lra).
    apply (rel_weaken (S (S (0 + 0) + (row_entries g v + 2)))); [lia|]. unfold walk_val. apply rel_mul.
    - apply Rle_trans with (2 := entries_small1 v 3 ltac:(lia)). apply Rle_pow; [pose proof u64_pos; lra|lia].
    - apply rel_mul.
      + simpl. lra.
      + rewrite <- Eh. apply rel_exact; auto. lra.
      + rewrite <- Ex. apply rel_exact; auto. lra.
      + split; [apply Rle_trans with (2 := proj1 M1)|apply Rle_trans with (1 := proj2 M1)]; apply bpow_le; lia.
    - now apply inv_rel.
    - split; [apply Rle_trans with (2 := proj1 M2)|apply Rle_trans with (1 := proj2 M2)]; apply bpow_le; lia.
  Qed.
  Definition walk_true (u v : nat) : R := (if Nat.eqb u v then / 2 else 0) + fw g u v / (2 * fdeg g v).
  Theorem walk_error u v : (u < n)%nat -> (v < n)%nat ->
    dbl (coeff (snd (mat_query QLrw g)) u v) /\
    Rabs (f2r (coeff (snd (mat_query QLrw g)) u v) - walk_true u v) <= gam (row_entries g v + 5) * walk_true u v.
  Proof.
    intros Hu Hv. rewrite walk_formula by auto. cbv zeta. destruct half_val as [Dh Eh]. pose proof u64_pos as U.
    assert (0 <= gam (row_entries g v + 5)) as G0 by (unfold gam; pose proof (pow_u_ge1 (row_entries g v + 5)); lra).
    destruct (sp_get (g_adj g) u v) as [x|] eqn:G.
    - assert (J : joined g u v) by (unfold joined; rewrite G; discriminate). pose proof (walk_rel u v x J G) as Rl.
      unfold walk_true. destruct (Nat.eqb_spec u v) as [->|N].
      + pose proof (rel_pos _ _ _ Rl) as Pw. pose proof (fdeg_lo v v J) as Ld. pose proof (bpow_gt_0 radix2 (-300)).
        assert (rel (S (row_entries g v + 4)) (wadd whalf (walk_val v x)) (/ 2 + fw g v v / (2 * fdeg g v))) as A.
        { destruct Rl as (D & Pz & L1 & L2). apply rel0_rel; [|lra]. apply rel0_add.
          - rewrite <- Eh. apply rel0_exact; auto. lra.
          - repeat split; auto; try apply D; lra.
          - replace (S (row_entries g v + 4)) with (row_entries g v + 5)%nat by lia. pose proof (entries_small1 v 5 ltac:(lia)). pose proof (pow_u_ge1 (row_entries g v + 5)).
            assert (fw g v v / (2 * fdeg g v) <= 1).
            { apply (Rmult_le_reg_r (2 * fdeg g v)); [lra|]. unfold Rdiv. rewrite Rmult_assoc, Rinv_l, Rmult_1_r by lra. pose proof (loop_half v Hv). lra. }
            unfold overflow. apply Rle_lt_trans with (bpow radix2 2); [change (bpow radix2 2) with 4; nra|apply bpow_lt; lia]. }
        replace (S (row_entries g v + 4)) with (row_entries g v + 5)%nat in A by lia. split; [apply A|now apply rel_error].
      + rewrite Rplus_0_l. assert (D : dbl (walk_val v x)) by apply Rl. split.
        * destruct (fadd_spec w0 (walk_val v x) dbl_0 D) as [Da _]; auto. rewrite f2r_0, Rplus_0_l, rnd_dbl by auto. now apply dbl_range.
        * rewrite add0 by auto. apply rel_error. apply (rel_weaken (row_entries g v + 4)); [lia|auto].
    - assert (NJ : ~ joined g u v) by (unfold joined; rewrite G; tauto). unfold walk_true. rewrite (proj2 (not_joined_fw u v NJ)). unfold Rdiv. rewrite Rmult_0_l, Rplus_0_r.
      destruct (Nat.eqb u v); [rewrite Eh|rewrite f2r_0]; (split; [first [exact Dh|exact dbl_0]|]); rewrite Rminus_eq_0, Rabs_R0; apply Rmult_le_pos; auto; lra.
  Qed.
  Lemma fw_sym u v : fw g u v = fw g v u.
  Proof. pose proof (reachable_sym g Hr) as S. unfold fw, weight, coeff. now rewrite (S u v). Qed.
  Theorem walk_column v : (v < n)%nat -> (exists w, joined g v w) ->
    Rabs (rsum n (fun u => f2r (coeff (snd (mat_query QLrw g)) u v)) - (1 - fw g v v / (2 * fdeg g v))) <= gam (row_entries g v + 5).
  Proof.
    intros Hv [w J]. pose proof (fdeg_lo v w J) as Ld. pose proof (bpow_gt_0 radix2 (-300)) as B.
    assert (rsum n (fun u => walk_true u v) = 1 - fw g v v / (2 * fdeg g v)) as Es.
    { unfold walk_true. rewrite rsum_plus, (rsum_delta n v (fun _ => / 2)) by auto.
      rewrite (rsum_ext n (fun u => fw g u v / (2 * fdeg g v)) (fun u => fw g v u * / (2 * fdeg g v))) by (intros; rewrite fw_sym; reflexivity).
      rewrite rsum_scal_r. assert (rsum n (fw g v) = fdeg g v - fw g v v) as E by (unfold fdeg; fold n; lra).
      transitivity (/ 2 + rsum n (fw g v) * / (2 * fdeg g v)); [reflexivity|]. rewrite E. field. lra. }
    rewrite <- Es. rewrite <- rsum_minus.
    apply Rle_trans with (rsum n (fun u => gam (row_entries g v + 5) * walk_true u v)).
    - apply Rle_trans with (rsum n (fun u => Rabs (f2r (coeff (snd (mat_query QLrw g)) u v) - walk_true u v))); [apply rsum_abs_le|].
      apply rsum_le. intros u Hu. now apply walk_error.
    - rewrite rsum_scal, Es. assert (0 <= gam (row_entries g v + 5)) by (unfold gam; pose proof (pow_u_ge1 (row_entries g v + 5)); lra).
      assert (0 <= fw g v v / (2 * fdeg g v)) by (apply Rmult_le_pos; [apply fw_nonneg, mod_finite|left; apply Rinv_0_lt_compat; lra]). nra.
  Qed.
End Entries.

(** ** Symmetry *)
Lemma fmul_comm (x y : f64) : wmul x y = wmul y x.
Proof.
  destruct x as [sx|sx| |sx mx ex], y as [sy|sy| |sy my ey]; try reflexivity; cbn; try (now rewrite xorb_comm).
  now rewrite xorb_comm, Pos.mul_comm, Z.add_comm.
Qed.
Definition unit_weights (g : graph f64) : Prop := forall i j v, sp_get (g_adj g) i j = Some v -> v = w1.
Theorem norm_unit_symmetric (g : graph f64) (signless : bool) u v : reachable g -> unit_weights g ->
  (forall w, (w < number_of_vertices g)%nat -> (exists z, joined g w z) -> dbl (isd g w)) ->
  (u < number_of_vertices g)%nat -> (v < number_of_vertices g)%nat ->
  coeff (snd (mat_query (if signless then QNSLap else QNLap) g)) u v = coeff (snd (mat_query (if signless then QNSLap else QNLap) g)) v u.
Proof.
  intros Hr Hu1 Hd Hu Hv. rewrite !norm_formula by auto. cbv zeta. rewrite (reachable_sym g Hr v u). rewrite (Nat.eqb_sym v u).
  destruct (sp_get (g_adj g) u v) as [x|] eqn:G; [|reflexivity]. pose proof (Hu1 _ _ _ G) as ->.
  assert (dbl (isd g u)) as Du by (apply Hd; auto; exists v; unfold joined; rewrite G; discriminate).
  assert (dbl (isd g v)) as Dv by (apply Hd; auto; exists u; unfold joined; rewrite (reachable_sym g Hr v u), G; discriminate).
  unfold nrm_val. rewrite (fmul_1 (isd g u) Du), (fmul_1 (isd g v) Dv). now rewrite (fmul_comm (isd g v)).
Qed.
Lemma unit_moderate (g : graph f64) : unit_weights g -> INR (number_of_vertices g) <= bpow radix2 40 -> moderate g.
Proof.
  intros Hu Hn. split; auto. intros i j v G. rewrite (Hu _ _ _ G). split; [exact dbl_1|]. rewrite f2r_1. change 1 with (bpow radix2 0). split; apply bpow_le; lia.
Qed.
Theorem unit_symmetric (g : graph f64) (signless : bool) u v : reachable g -> unit_weights g -> INR (number_of_vertices g) <= bpow radix2 40 ->
  (u < number_of_vertices g)%nat -> (v < number_of_vertices g)%nat ->
  coeff (snd (mat_query (if signless then QNSLap else QNLap) g)) u v = coeff (snd (mat_query (if signless then QNSLap else QNLap) g)) v u.
Proof.
  intros Hr Hu Hn Lu Lv. apply norm_unit_symmetric; auto. intros w _ [z J]. pose proof (unit_moderate g Hu Hn) as Hm.
  apply (isd_rel g Hr Hm w). now apply (fdeg_lo g Hr Hm w z).
Qed.
