(* Range, monotonicity and accuracy of the LSH collision probabilities. *)
From Coq Require Import Reals Lra Psatz Lia.
From Coquelicot Require Import Coquelicot.
From Verif Require Import LshProb LshProbFacts.
Local Open Scope R_scope.

Notation A := TWO_ROOT_TWO.
Notation B := TWO_ROOT_TWOPI.

Lemma div_ge : forall a b c : R, 0 < c -> a * c <= b -> a <= b / c.
Proof. intros a b c P H. now apply Rle_div_r. Qed.
Lemma div_le : forall a b c : R, 0 < c -> a <= b * c -> a / c <= b.
Proof. intros a b c P H. now apply Rle_div_l. Qed.

(* ---------- numeric constants ---------- *)
Lemma exp8 : 2600 <= exp 8.
Proof.
  assert (H : 33 / 32 <= exp (/ 32)).
  { left. eapply Rle_lt_trans; [|apply exp_ineq1; lra]. lra. }
  assert (E : forall n, (33 / 32) ^ n <= exp (INR n * / 32)).
  { induction n as [|n IH]; [simpl; rewrite Rmult_0_l, exp_0; lra|].
    rewrite S_INR, Rmult_plus_distr_r, Rmult_1_l, exp_plus.
    assert (0 <= (33 / 32) ^ n) by (apply pow_le; lra).
    rewrite (Rmult_comm (exp _)). change ((33 / 32) ^ S n) with (33 / 32 * (33 / 32) ^ n).
    apply Rmult_le_compat; lra. }
  specialize (E 256%nat). replace (INR 256 * / 32) with 8 in E by (simpl; lra).
  eapply Rle_trans; [|exact E].
  replace 256%nat with (2 * (2 * (2 * (2 * (2 * (2 * (2 * 2)))))))%nat by reflexivity.
  rewrite !pow_mult.
  assert (SQ : forall a b x, 0 <= a -> a * a >= b -> a <= x -> b <= x ^ 2).
  { intros a b x P Q L. simpl. nra. }
  apply (SQ 51); try lra.
Qed.

Lemma expm8 : 0 < exp (- 8) <= / 2600.
Proof.
  split; [apply exp_pos|]. replace (exp (- 8)) with (/ exp 8) by (rewrite <- exp_Ropp; f_equal; lra).
  apply Rinv_le_contravar; [lra | apply exp8].
Qed.

Lemma expm8_small : forall c, 0 < c <= 1 -> 0 < exp (- (8 / (c * c))) <= / 2600.
Proof.
  intros c H. split; [apply exp_pos|].
  eapply Rle_trans; [|apply expm8].
  assert (8 <= 8 / (c * c)).
  { destruct H as [H1 H2]. apply div_ge; [apply Rmult_lt_0_compat; lra|]. assert (c * c <= 1) by nra. lra. }
  destruct (Req_dec (8 / (c * c)) 8) as [E8|N]; [rewrite E8; right; f_equal; lra|].
  left. apply exp_increasing. lra.
Qed.

Lemma A_val : 28284271 / 10000000 <= A <= 28284272 / 10000000 /\ A * A <= 8.
Proof. unfold TWO_ROOT_TWO. lra. Qed.

Lemma B_val : 5013256 / 1000000 <= B <= 5013257 / 1000000.
Proof. unfold TWO_ROOT_TWOPI. lra. Qed.

Lemma slopeA : 3 / 2 * (1 / 1) <= 2 * A / sqrt PI <= 4.
Proof.
  destruct A_val as [HA _]. assert (S := sqrtPI_bounds).
  split; [apply div_ge | apply div_le]; lra.
Qed.

(* ---------- unfolding the code ---------- *)
Lemma lsh_even : forall c, lsh_collision (- c) = lsh_collision c.
Proof.
  intro c. unfold lsh_collision.
  assert (E : (if Rlt_dec (- c) 0 then - - c else - c) = (if Rlt_dec c 0 then - c else c)).
  { destruct (Rlt_dec (- c) 0), (Rlt_dec c 0); lra. }
  rewrite E. reflexivity.
Qed.

Lemma lsh_small : forall c, 0 <= c < 1 -> lsh_collision c = 1 - 2 / 10 * c.
Proof.
  intros c H. unfold lsh_collision. cbv zeta.
  destruct (Rlt_dec c 0); [lra|]. destruct (Rlt_dec c 1); lra.
Qed.

Lemma lsh_large : forall c, 1 <= c ->
  lsh_collision c = erf (A / c) - c / B * (1 - exp (- (8 / (c * c)))).
Proof.
  intros c H. unfold lsh_collision. cbv zeta.
  destruct (Rlt_dec c 0); [lra|]. destruct (Rlt_dec c 1); [lra|].
  apply closed_form_simpl. lra.
Qed.

(* with x = 1/c *)
Definition pinv (x : R) : R := erf (A * x) - (1 - exp (- (8 * (x * x)))) / (B * x).

Lemma lsh_pinv : forall c, 1 <= c -> lsh_collision c = pinv (/ c).
Proof.
  intros c H. rewrite lsh_large by assumption. unfold pinv.
  destruct B_val as [HB _].
  replace (8 * (/ c * / c)) with (8 / (c * c)) by (field; lra).
  unfold Rdiv at 1. f_equal. field. lra.
Qed.

Lemma gauss_A : forall x, exp (- (8 * (x * x))) <= exp (- ((A * x) * (A * x))).
Proof.
  intro x. destruct A_val as [_ HA].
  assert (- (8 * (x * x)) <= - ((A * x) * (A * x))) by nra.
  destruct (Req_dec (- (8 * (x * x))) (- ((A * x) * (A * x)))) as [->|N]; [lra|].
  left. apply exp_increasing. lra.
Qed.

Lemma erf_lin_lower : forall y, 0 <= y -> 2 / sqrt PI * y * exp (- (y * y)) <= erf y.
Proof.
  intros y H. rewrite erf_gint.
  assert (SP := sqrtPI_pos).
  assert (y * exp (- (y * y)) <= gint y).
  { unfold gint.
    assert (E : RInt (fun _ => exp (- (y * y))) 0 y = y * exp (- (y * y))).
    { rewrite RInt_const. unfold scal; simpl; unfold mult; simpl. ring. }
    rewrite <- E. apply RInt_le; [lra | apply ex_RInt_const | apply gauss_ex |].
    intros x Hx. unfold gauss. left. apply exp_increasing. nra. }
  assert (0 < 2 / sqrt PI) by (apply Rdiv_lt_0_compat; lra).
  nra.
Qed.

Lemma erf_lin_upper : forall y, 0 <= y -> erf y <= 2 / sqrt PI * y.
Proof.
  intros y H. rewrite erf_gint. assert (SP := sqrtPI_pos).
  assert (gint y <= y).
  { unfold gint.
    assert (E : RInt (fun _ => 1) 0 y = y).
    { rewrite RInt_const. unfold scal; simpl; unfold mult; simpl. ring. }
    rewrite <- E at 2. apply RInt_le; [lra | apply gauss_ex | apply ex_RInt_const |].
    intros x Hx. unfold gauss. rewrite <- exp_0 at 1. left. apply exp_increasing. nra. }
  assert (0 < 2 / sqrt PI) by (apply Rdiv_lt_0_compat; lra).
  nra.
Qed.

Lemma erfA_derive : forall x,
  is_derive (fun x => erf (A * x)) x (A * (2 / sqrt PI * exp (- ((A * x) * (A * x))))).
Proof.
  intro x. apply (is_derive_comp erf (fun x => A * x) x); [apply erf_derive|].
  auto_derive; [exact I|]. ring.
Qed.

(* positivity *)
Definition hfun (x : R) : R := x * erf (A * x) - (1 - exp (- (8 * (x * x)))) / B.

Lemma hfun_derive : forall x, is_derive hfun x
  ((erf (A * x) + x * (A * (2 / sqrt PI * exp (- ((A * x) * (A * x)))))) - 16 * x * exp (- (8 * (x * x))) / B).
Proof.
  intro x. unfold hfun. destruct B_val as [HB _].
  apply (is_derive_minus (fun x => x * erf (A * x)) (fun x => (1 - exp (- (8 * (x * x)))) / B) x).
  - replace (erf (A * x) + x * (A * (2 / sqrt PI * exp (- ((A * x) * (A * x))))))
      with (1 * erf (A * x) + x * (A * (2 / sqrt PI * exp (- ((A * x) * (A * x)))))) by ring.
    apply (is_derive_mult (fun x => x) (fun x => erf (A * x)) x 1).
    + apply (is_derive_id (K := R_AbsRing)).
    + apply erfA_derive.
    + intros; apply Rmult_comm.
  - auto_derive; [lra|]. field. lra.
Qed.

Lemma hfun_pos : forall x, 0 < x -> 0 < hfun x.
Proof.
  intros x Hx.
  assert (E0 : hfun 0 = 0).
  { unfold hfun. replace (- (8 * (0 * 0))) with 0 by ring. rewrite exp_0. unfold Rdiv. ring. }
  set (dh := fun x => (erf (A * x) + x * (A * (2 / sqrt PI * exp (- ((A * x) * (A * x)))))) - 16 * x * exp (- (8 * (x * x))) / B).
  assert (P : forall z, 0 < z -> 0 < dh z).
  { intros z Hz. unfold dh.
    assert (HA := A_val). assert (HB := B_val).
    assert (L := erf_lin_lower (A * z) ltac:(nra)).
    assert (G := gauss_A z).
    assert (S := slopeA).
    set (g := exp (- ((A * z) * (A * z)))) in *. set (e := exp (- (8 * (z * z)))) in *.
    assert (e0 : 0 < e) by apply exp_pos.
    replace (2 / sqrt PI * (A * z) * g) with (2 * A / sqrt PI * (z * g)) in L by (unfold Rdiv; ring).
    replace (z * (A * (2 / sqrt PI * g))) with (2 * A / sqrt PI * (z * g)) by (unfold Rdiv; ring).
    assert (16 * z * e / B <= 16 / 5 * (z * e)).
    { apply div_le; [lra|]. assert (0 < z * e) by nra. nra. }
    assert (Y : 16 * z * e / B < 2 * (2 * A / sqrt PI * (z * g)) + 0).
    2: lra.
    assert (sl : 319 / 100 <= 2 * A / sqrt PI).
    { assert (SB := sqrtPI_bounds). apply div_ge; lra. }
    assert (z * e <= z * g) by (apply Rmult_le_compat_l; lra).
    assert (0 < z * e) by nra. nra. }
  destruct (MVT_gen hfun 0 x dh) as (c & I & E).
  - intros y _. apply hfun_derive.
  - intros y _. apply continuity_pt_filterlim. apply (ex_derive_continuous hfun).
    eexists. apply hfun_derive.
  - rewrite Rmin_left, Rmax_right in I by lra. rewrite E0 in E.
    destruct (Req_dec c 0) as [->|N].
    + assert (D0 : dh 0 = 0).
      { unfold dh. rewrite Rmult_0_r, erf_0. unfold Rdiv. ring. }
      (* use the mid point instead *)
      assert (H2 : hfun 0 <= hfun (x / 2)).
      { apply (incr_from_derive hfun dh); [lra | intros; apply hfun_derive|].
        intros y Hy. destruct (Req_dec y 0) as [->|]; [lra|]. left. apply P. lra. }
      destruct (MVT_gen hfun (x / 2) x dh) as (c' & I' & E').
      * intros y _. apply hfun_derive.
      * intros y _. apply continuity_pt_filterlim. apply (ex_derive_continuous hfun).
        eexists. apply hfun_derive.
      * rewrite Rmin_left, Rmax_right in I' by lra.
        assert (Q := P c' ltac:(lra)). nra.
    + assert (Q := P c ltac:(lra)). nra.
Qed.

Lemma pinv_pos : forall x, 0 < x -> 0 < pinv x.
Proof.
  intros x Hx. assert (H := hfun_pos x Hx). destruct B_val as [HB _].
  replace (pinv x) with (hfun x / x).
  - apply Rdiv_lt_0_compat; assumption.
  - unfold hfun, pinv. field. lra.
Qed.

(* monotonicity *)
Lemma pinv_derive : forall x, 0 < x -> is_derive pinv x
  (A * (2 / sqrt PI * exp (- ((A * x) * (A * x))))
   - (16 * x * exp (- (8 * (x * x))) / (B * x) - (1 - exp (- (8 * (x * x)))) / (B * (x * x)))).
Proof.
  intros x Hx. unfold pinv. destruct B_val as [HB _].
  apply (is_derive_minus (fun x => erf (A * x)) (fun x => (1 - exp (- (8 * (x * x)))) / (B * x)) x).
  - apply erfA_derive.
  - auto_derive; [nra|]. field. split; lra.
Qed.

Lemma pinv_incr : forall x y, 0 < x -> x <= y -> pinv x <= pinv y.
Proof.
  intros x y Hx L.
  eapply (incr_from_derive pinv _ x y L).
  - intros z Hz. apply pinv_derive. lra.
  - intros z Hz. cbv beta. assert (Zp : 0 < z) by lra.
    assert (HA := A_val). assert (HB := B_val). assert (G := gauss_A z).
    set (g := exp (- ((A * z) * (A * z)))) in *. set (e := exp (- (8 * (z * z)))) in *.
    assert (e0 : 0 < e) by apply exp_pos.
    replace (A * (2 / sqrt PI * g)) with (2 * A / sqrt PI * g) by (unfold Rdiv; ring).
    replace (16 * z * e / (B * z)) with (16 * e / B) by (field; lra).
    assert (sl : 319 / 100 <= 2 * A / sqrt PI).
    { assert (SB := sqrtPI_bounds). apply div_ge; lra. }
    assert (K : 8 * e / B <= (1 - e) / (B * (z * z))).
    { apply div_ge; [nra|].
      replace (8 * e / B * (B * (z * z))) with (8 * (z * z) * e) by (field; lra).
      assert (X := exp_ineq1_le (8 * (z * z))).
      assert (Y : exp (8 * (z * z)) * e = 1).
      { unfold e. rewrite <- exp_plus. replace (8 * (z * z) + - (8 * (z * z))) with 0 by ring. apply exp_0. }
      assert ((1 + 8 * (z * z)) * e <= 1) by (rewrite <- Y; apply Rmult_le_compat_r; lra).
      lra. }
    assert (16 * e / B - 8 * e / B <= 8 / 5 * e).
    { replace (16 * e / B - 8 * e / B) with (8 * e / B) by (field; lra).
      apply div_le; nra. }
    nra.
Qed.

(* ---------- LSHFunction::collision_probability ---------- *)
Lemma lsh_zero : lsh_collision 0 = 1.
Proof. rewrite lsh_small by lra. lra. Qed.

Lemma lsh_pos : forall c, 0 < lsh_collision c.
Proof.
  assert (W : forall c, 0 <= c -> 0 < lsh_collision c).
  { intros c H. destruct (Rlt_le_dec c 1).
    - rewrite lsh_small by lra. lra.
    - rewrite lsh_pinv by lra. apply pinv_pos. apply Rinv_0_lt_compat. lra. }
  intro c. destruct (Rle_lt_dec 0 c); [now apply W|].
  rewrite <- lsh_even. apply W. lra.
Qed.

Lemma lsh_lt_1 : forall c, c <> 0 -> lsh_collision c < 1.
Proof.
  assert (W : forall c, 0 < c -> lsh_collision c < 1).
  { intros c H. destruct (Rlt_le_dec c 1).
    - rewrite lsh_small by lra. lra.
    - rewrite lsh_large by lra. destruct B_val as [HB _].
      assert (E := erf_le_1 (A / c)).
      assert (exp (- (8 / (c * c))) < 1).
      { rewrite <- exp_0. apply exp_increasing.
        assert (0 < 8 / (c * c)) by (apply Rdiv_lt_0_compat; nra). lra. }
      assert (0 < c / B) by (apply Rdiv_lt_0_compat; lra).
      nra. }
  intros c N. destruct (Rlt_le_dec 0 c); [now apply W|].
  rewrite <- lsh_even. apply W. lra.
Qed.

Lemma lsh_range : forall c, 0 < lsh_collision c <= 1.
Proof.
  intro c. split; [apply lsh_pos|].
  destruct (Req_dec c 0) as [->|N]; [rewrite lsh_zero; lra|].
  left. now apply lsh_lt_1.
Qed.

Lemma lsh_mono_small : forall c d, 0 <= c -> c <= d -> d < 1 -> lsh_collision d <= lsh_collision c.
Proof. intros c d H L M. rewrite !lsh_small by lra. lra. Qed.

Lemma lsh_mono_large : forall c d, 1 <= c -> c <= d -> lsh_collision d <= lsh_collision c.
Proof.
  intros c d H L. rewrite !lsh_pinv by lra. apply pinv_incr.
  - apply Rinv_0_lt_compat. lra.
  - apply Rinv_le_contravar; lra.
Qed.

Lemma lsh_at_1 : 8001 / 10000 <= lsh_collision 1 <= 802 / 1000.
Proof.
  rewrite lsh_large by lra.
  replace (A / 1) with A by field. replace (8 / (1 * 1)) with 8 by field.
  assert (E := expm8). assert (HB := B_val). assert (HA := A_val).
  assert (L := erf_sqr A). assert (N := erf_nonneg A ltac:(lra)). assert (U := erf_le_1 A).
  assert (G : gauss A <= / 2000).
  { unfold gauss. 
    assert (Q : exp (- (A * A)) = exp (- 8) * exp (8 - A * A)).
    { rewrite <- exp_plus. f_equal. ring. }
    assert (QE : exp (8 - A * A) <= 11 / 10).
    { assert (T := exp_ineq1_le (- (8 - A * A))). rewrite exp_Ropp in T.
      assert (P := exp_pos (8 - A * A)).
      assert (10 / 11 <= / exp (8 - A * A)). { unfold TWO_ROOT_TWO in *. lra. }
      rewrite <- (Rinv_inv (exp (8 - A * A))).
      replace (11 / 10) with (/ (10 / 11)) by field.
      apply Rinv_le_contravar; lra. }
    rewrite Q. assert (P := exp_pos (8 - A * A)). nra. }
  assert (LB : 9997 / 10000 <= erf A) by nra.
  assert (C1 : 199 / 1000 <= 1 / B <= 1995 / 10000).
  { split; [apply div_ge | apply div_le]; lra. }
  destruct C1 as [C1 C2]. destruct E as [E1 E2].
  assert (0 < 1 / B * exp (- 8)) by (apply Rmult_lt_0_compat; lra).
  assert (1 / B * exp (- 8) <= 1995 / 10000 * / 2600) by (apply Rmult_le_compat; lra).
  replace (exp (- (8))) with (exp (- 8)) by (f_equal; lra).
  split; lra.
Qed.

Lemma lsh_bound_decay : forall c, 1 <= c -> lsh_collision c <= 4 / c.
Proof.
  intros c H. rewrite lsh_large by assumption. destruct B_val as [HB _].
  assert (HA := A_val). assert (S := slopeA).
  assert (E := erf_lin_upper (A / c) ltac:(apply Rlt_le, Rdiv_lt_0_compat; lra)).
  assert (exp (- (8 / (c * c))) < 1).
  { rewrite <- exp_0. apply exp_increasing.
    assert (0 < 8 / (c * c)) by (apply Rdiv_lt_0_compat; nra). lra. }
  assert (0 < c / B) by (apply Rdiv_lt_0_compat; lra).
  assert (2 / sqrt PI * (A / c) <= 4 / c).
  { replace (2 / sqrt PI * (A / c)) with (2 * A / sqrt PI / c).
    - apply div_le; [lra|]. replace (4 / c * c) with 4 by (field; lra). lra.
    - assert (Q := sqrtPI_pos). field. split; lra. }
  nra.
Qed.

(* ---------- accuracy ---------- *)
Lemma erf_lipschitz : forall x y, Rabs (erf x - erf y) <= 2 / sqrt PI * Rabs (x - y).
Proof.
  assert (SP := sqrtPI_pos). assert (K : 0 < 2 / sqrt PI) by (apply Rdiv_lt_0_compat; lra).
  assert (W : forall x y, x <= y -> erf y - erf x <= 2 / sqrt PI * (y - x)).
  { intros x y L.
    assert (M := incr_from_derive (fun t => 2 / sqrt PI * t - erf t)
        (fun t => 2 / sqrt PI - 2 / sqrt PI * exp (- (t * t))) x y L).
    cbv beta in M.
    assert (2 / sqrt PI * x - erf x <= 2 / sqrt PI * y - erf y); [apply M|lra].
    - intros t _. apply (is_derive_minus (fun t => 2 / sqrt PI * t) erf t); [|apply erf_derive].
      auto_derive; [exact I|]. ring.
    - intros t _. assert (exp (- (t * t)) <= 1).
      { destruct (Req_dec t 0) as [->|N].
        - replace (- (0 * 0)) with 0 by ring. rewrite exp_0. lra.
        - left. rewrite <- exp_0. apply exp_increasing. nra. }
      nra. }
  intros x y. destruct (Rle_lt_dec x y) as [L|L].
  - assert (I := erf_incr x y L). specialize (W x y L).
    rewrite (Rabs_left1 (erf x - erf y)) by lra. rewrite (Rabs_left1 (x - y)) by lra. lra.
  - assert (I := erf_incr y x ltac:(lra)). specialize (W y x ltac:(lra)).
    rewrite !Rabs_right by lra. lra.
Qed.

Lemma A_close : Rabs (A - 2 * sqrt 2) <= / 1000000.
Proof.
  assert (S := sqrt2_sqr). assert (P := sqrt2_pos).
  assert (14142135 / 10000000 <= sqrt 2 <= 14142136 / 10000000) by (split; nra).
  unfold TWO_ROOT_TWO. apply Rabs_le. lra.
Qed.

Lemma B_inv_close : Rabs (1 / B - 1 / (2 * sqrt (2 * PI))) <= / 1000000 /\ 
  1993 / 10000 <= 1 / (2 * sqrt (2 * PI)) <= 1996 / 10000.
Proof.
  destruct PI_bounds as [P1 P2].
  assert (S : sqrt (2 * PI) * sqrt (2 * PI) = 2 * PI) by (apply sqrt_sqrt; lra).
  assert (SB : 2506626 / 1000000 <= sqrt (2 * PI) <= 2506632 / 1000000).
  { rewrite <- (sqrt_square (2506626 / 1000000)) by lra.
    rewrite <- (sqrt_square (2506632 / 1000000)) by lra.
    split; apply sqrt_le_1_alt; lra. }
  assert (L1 : 1 / (2 * sqrt (2 * PI)) <= 1994714 / 10000000).
  { apply div_le; lra. }
  assert (L2 : 1994708 / 10000000 <= 1 / (2 * sqrt (2 * PI))).
  { apply div_ge; lra. }
  assert (L3 : 1994711 / 10000000 <= 1 / B <= 1994712 / 10000000).
  { unfold TWO_ROOT_TWOPI. lra. }
  split; [apply Rabs_le|]; lra.
Qed.

Lemma lsh_accurate_large : forall c, 1 <= c -> Rabs (lsh_collision c - true_collision c) <= / 100000.
Proof.
  intros c H. rewrite true_collision_closed by lra. rewrite lsh_large by assumption.
  unfold closed_form.
  replace (- (1 / (2 * sqrt (2 * PI)) * (c * exp (- (8 / (c * c)))) * (exp (8 / (c * c)) - 1)))
   with (- (1 / (2 * sqrt (2 * PI)) * c * exp (- (8 / (c * c))) * (exp (8 / (c * c)) - 1))) by ring.
  rewrite closed_form_simpl by lra.
  assert (EL := erf_lipschitz (A / c) (2 * sqrt 2 / c)).
  assert (SB := sqrtPI_bounds).
  assert (S2 : 2 / sqrt PI <= 12 / 10) by (apply div_le; lra).
  assert (S2p : 0 < 2 / sqrt PI) by (apply Rdiv_lt_0_compat; lra).
  assert (AC : Rabs (A / c - 2 * sqrt 2 / c) <= / 1000000).
  { replace (A / c - 2 * sqrt 2 / c) with ((A - 2 * sqrt 2) * / c) by (field; lra).
    rewrite Rabs_mult. assert (Q := A_close).
    rewrite (Rabs_right (/ c)) by (left; apply Rinv_0_lt_compat; lra).
    assert (/ c <= 1) by (rewrite <- Rinv_1; apply Rinv_le_contravar; lra).
    assert (0 < / c) by (apply Rinv_0_lt_compat; lra).
    assert (0 <= Rabs (A - 2 * sqrt 2)) by apply Rabs_pos. nra. }
  assert (E1 : Rabs (erf (A / c) - erf (2 * sqrt 2 / c)) <= 2 / 1000000).
  { assert (0 <= Rabs (A / c - 2 * sqrt 2 / c)) by apply Rabs_pos. nra. }
  destruct B_inv_close as [BC _]. destruct B_val as [HB _].
  set (B0 := 2 * sqrt (2 * PI)) in *.
  set (e := exp (- (8 / (c * c)))) in *.
  assert (Q : 0 <= c * (1 - e) <= 8).
  { assert (0 < 8 / (c * c)) by (apply Rdiv_lt_0_compat; nra).
    assert (T := exp_ineq1_le (- (8 / (c * c)))). fold e in T.
    assert (e < 1). { unfold e. rewrite <- exp_0. apply exp_increasing. lra. }
    split; [nra|].
    assert (c * (1 - e) <= c * (8 / (c * c))) by nra.
    replace (c * (8 / (c * c))) with (8 / c) in * by (field; lra).
    assert (8 / c <= 8) by (apply div_le; lra). lra. }
  replace (erf (A / c) - c / B * (1 - e) - (erf (2 * sqrt 2 / c) - c / B0 * (1 - e)))
    with ((erf (A / c) - erf (2 * sqrt 2 / c)) - (1 / B - 1 / B0) * (c * (1 - e)))
    by (unfold Rdiv; ring).
  eapply Rle_trans; [apply Rabs_triang|]. rewrite Rabs_Ropp, Rabs_mult.
  rewrite (Rabs_right (c * (1 - e))) by lra.
  assert (0 <= Rabs (1 / B - 1 / B0)) by apply Rabs_pos. nra.
Qed.

Lemma lsh_accurate_small : forall c, 0 < c < 1 -> Rabs (lsh_collision c - true_collision c) <= / 1000.
Proof.
  intros c H. rewrite true_collision_closed by lra. rewrite lsh_small by lra.
  unfold closed_form.
  replace (- (1 / (2 * sqrt (2 * PI)) * (c * exp (- (8 / (c * c)))) * (exp (8 / (c * c)) - 1)))
   with (- (1 / (2 * sqrt (2 * PI)) * c * exp (- (8 / (c * c))) * (exp (8 / (c * c)) - 1))) by ring.
  rewrite closed_form_simpl by lra.
  destruct B_inv_close as [_ BV]. set (B0 := 2 * sqrt (2 * PI)) in *.
  assert (E := expm8_small c ltac:(lra)).
  assert (S2 := sqrt2_sqr). assert (S2p := sqrt2_pos).
  assert (LE := erf_lower (2 * sqrt 2 / c) ltac:(apply Rlt_le, Rdiv_lt_0_compat; lra)).
  assert (UE := erf_le_1 (2 * sqrt 2 / c)).
  assert (GE : gauss (2 * sqrt 2 / c) = exp (- (8 / (c * c)))).
  { unfold gauss. f_equal. f_equal. replace 8 with (4 * (sqrt 2 * sqrt 2)) by (rewrite S2; ring).
    field. lra. }
  rewrite GE in LE. set (e := exp (- (8 / (c * c)))) in *.
  replace (c / B0 * (1 - e)) with (1 / B0 * (c * (1 - e))) by (unfold Rdiv; ring).
  assert (Q : c * (1 - / 2600) <= c * (1 - e) <= c) by nra.
  apply Rabs_le. split; nra.
Qed.

Lemma true_collision_range : forall c, 0 < c -> 0 <= true_collision c <= 1.
Proof.
  intros c H. 
  assert (P : 0 < / sqrt (2 * PI)).
  { apply Rinv_0_lt_compat, sqrt_lt_R0. assert (Q := PI_RGT_0). lra. }
  assert (C : forall t, continuous (fun t => / c * half_normal_density (t / c) * (1 - t / 4)) t).
  { intro t. apply (ex_derive_continuous (fun t => / c * half_normal_density (t / c) * (1 - t / 4))).
    unfold half_normal_density. auto_derive. exact I. }
  split.
  - unfold true_collision. apply RInt_ge_0; [lra | |].
    + apply (ex_RInt_continuous (V := R_CompleteNormedModule)). intros; apply C.
    + intros t Ht. unfold half_normal_density.
      assert (0 < exp (- (t / c * (t / c)) / 2)) by apply exp_pos.
      apply Rmult_le_pos; [|lra].
      apply Rlt_le. apply Rmult_lt_0_compat; [now apply Rinv_0_lt_compat|]. nra.
  - rewrite true_collision_closed by assumption. unfold closed_form.
    replace (- (1 / (2 * sqrt (2 * PI)) * (c * exp (- (8 / (c * c)))) * (exp (8 / (c * c)) - 1)))
     with (- (1 / (2 * sqrt (2 * PI)) * c * exp (- (8 / (c * c))) * (exp (8 / (c * c)) - 1))) by ring.
    rewrite closed_form_simpl by lra.
    assert (UE := erf_le_1 (2 * sqrt 2 / c)).
    assert (exp (- (8 / (c * c))) < 1).
    { rewrite <- exp_0. apply exp_increasing.
      assert (0 < 8 / (c * c)) by (apply Rdiv_lt_0_compat; nra). lra. }
    assert (0 < c / (2 * sqrt (2 * PI))).
    { apply Rdiv_lt_0_compat; [lra|]. assert (0 < sqrt (2 * PI)); [|lra].
      apply sqrt_lt_R0. assert (Q := PI_RGT_0). lra. }
    nra.
Qed.

(* ---------- E2LSH ---------- *)
Lemma pow_range : forall p n, 0 <= p <= 1 -> 0 <= p ^ n <= 1.
Proof.
  intros p n H. induction n as [|n IH]; simpl; [lra|]. nra.
Qed.

Lemma pow_anti : forall p m n, 0 <= p <= 1 -> (m <= n)%nat -> p ^ n <= p ^ m.
Proof.
  intros p m n H L. induction L as [|n L IH]; [lra|]. simpl.
  assert (R := pow_range p n H). nra.
Qed.

Lemma pow_mono_base : forall p q n, 0 <= p -> p <= q -> p ^ n <= q ^ n.
Proof. intros. apply pow_incr. lra. Qed.

Lemma pow_lip : forall p q n, 0 <= p <= 1 -> 0 <= q <= 1 -> Rabs (p ^ n - q ^ n) <= INR n * Rabs (p - q).
Proof.
  intros p q n Hp Hq. induction n as [|n IH].
  - simpl. rewrite Rminus_eq_0, Rabs_R0. lra.
  - rewrite S_INR. simpl pow.
    replace (p * p ^ n - q * q ^ n) with (p * (p ^ n - q ^ n) + (p - q) * q ^ n) by ring.
    eapply Rle_trans; [apply Rabs_triang|]. rewrite !Rabs_mult.
    assert (R := pow_range q n Hq).
    rewrite (Rabs_right p) by lra. rewrite (Rabs_right (q ^ n)) by lra.
    assert (0 <= Rabs (p ^ n - q ^ n)) by apply Rabs_pos.
    assert (0 <= Rabs (p - q)) by apply Rabs_pos. nra.
Qed.

Definition or_of_ands (K L : nat) (p : R) : R := 1 - (1 - p ^ K) ^ L.

Lemma or_range : forall K L p, 0 <= p <= 1 -> 0 <= or_of_ands K L p <= 1.
Proof.
  intros K L p H. unfold or_of_ands.
  assert (R := pow_range p K H).
  assert (Q := pow_range (1 - p ^ K) L ltac:(lra)). lra.
Qed.

Lemma or_mono_L : forall K L L' p, 0 <= p <= 1 -> (L <= L')%nat -> or_of_ands K L p <= or_of_ands K L' p.
Proof.
  intros K L L' p H N. unfold or_of_ands. assert (R := pow_range p K H).
  assert (Q := pow_anti (1 - p ^ K) L L' ltac:(lra) N). lra.
Qed.

Lemma or_anti_K : forall K K' L p, 0 <= p <= 1 -> (K <= K')%nat -> or_of_ands K' L p <= or_of_ands K L p.
Proof.
  intros K K' L p H N. unfold or_of_ands.
  assert (R := pow_range p K H). assert (R' := pow_range p K' H).
  assert (Q := pow_anti p K K' H N).
  assert (T := pow_mono_base (1 - p ^ K) (1 - p ^ K') L ltac:(lra) ltac:(lra)). lra.
Qed.

Lemma or_mono_p : forall K L p q, 0 <= p -> p <= q -> q <= 1 -> or_of_ands K L p <= or_of_ands K L q.
Proof.
  intros K L p q H N M. unfold or_of_ands.
  assert (R := pow_range p K ltac:(lra)). assert (R' := pow_range q K ltac:(lra)).
  assert (Q := pow_mono_base p q K H N).
  assert (T := pow_mono_base (1 - q ^ K) (1 - p ^ K) L ltac:(lra) ltac:(lra)). lra.
Qed.

Lemma or_lip : forall K L p q, 0 <= p <= 1 -> 0 <= q <= 1 ->
  Rabs (or_of_ands K L p - or_of_ands K L q) <= INR K * INR L * Rabs (p - q).
Proof.
  intros K L p q Hp Hq. unfold or_of_ands.
  assert (Rp := pow_range p K Hp). assert (Rq := pow_range q K Hq).
  replace (1 - (1 - p ^ K) ^ L - (1 - (1 - q ^ K) ^ L)) with (- ((1 - p ^ K) ^ L - (1 - q ^ K) ^ L)) by ring.
  rewrite Rabs_Ropp.
  eapply Rle_trans; [apply pow_lip; lra|].
  replace (1 - p ^ K - (1 - q ^ K)) with (- (p ^ K - q ^ K)) by ring. rewrite Rabs_Ropp.
  assert (T := pow_lip p q K Hp Hq).
  assert (0 <= INR L) by apply pos_INR. nra.
Qed.
