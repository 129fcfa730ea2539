(* Facts about the collision probabilities of LshProb.v. *)
From Coq Require Import Reals Lra Psatz.
From Coquelicot Require Import Coquelicot.
From Verif Require Import LshProb.
Local Open Scope R_scope.

(* ---------- pi ---------- *)
Lemma PI_bounds : 314159 / 100000 <= PI <= 31416 / 10000.
Proof.
  assert (H := PI_2_3_7_ineq 3). revert H.
  unfold sum_f_R0, tg_alt, PI_2_3_7_tg, Ratan_seq. cbn [Nat.mul Nat.add pow INR]. lra.
Qed.

Lemma sqrtPI_pos : 0 < sqrt PI.
Proof. apply sqrt_lt_R0. apply PI_RGT_0. Qed.

Lemma sqrtPI_sqr : sqrt PI * sqrt PI = PI.
Proof. apply sqrt_sqrt. left; apply PI_RGT_0. Qed.

Lemma sqrtPI_bounds : 177245 / 100000 <= sqrt PI <= 177246 / 100000.
Proof.
  destruct PI_bounds as [H1 H2].
  rewrite <- (sqrt_square (177245 / 100000)) by lra.
  rewrite <- (sqrt_square (177246 / 100000)) by lra.
  split; apply sqrt_le_1_alt; lra.
Qed.

(* ---------- the Gaussian integral ---------- *)
Definition gauss (t : R) : R := exp (- (t * t)).
Definition gint (x : R) : R := RInt gauss 0 x.

Lemma gauss_cont : forall t, continuous gauss t.
Proof.
  intro t. apply (ex_derive_continuous gauss). unfold gauss. auto_derive. exact I.
Qed.

Lemma gauss_ex : forall a b, ex_RInt gauss a b.
Proof. intros. apply (ex_RInt_continuous (V := R_CompleteNormedModule)). intros. apply gauss_cont. Qed.

Lemma gint_derive : forall x, is_derive gint x (gauss x).
Proof.
  intro x. apply (is_derive_RInt gauss gint 0 x).
  - apply filter_forall. intro b. apply (RInt_correct gauss 0 b). apply gauss_ex.
  - apply gauss_cont.
Qed.

Definition hker (x s : R) : R := exp (- (x * x) * (1 + s * s)) / (1 + s * s).
Definition hint (x : R) : R := RInt (hker x) 0 1.

Lemma hker_cont : forall x s, continuous (hker x) s.
Proof.
  intros x s. apply (ex_derive_continuous (hker x)). unfold hker. auto_derive. nra.
Qed.

Lemma hker_ex : forall x a b, ex_RInt (hker x) a b.
Proof. intros. apply (ex_RInt_continuous (V := R_CompleteNormedModule)). intros. apply hker_cont. Qed.

Lemma hker_derive : forall x s,
  is_derive (fun u => hker u s) x (- 2 * x * exp (- (x * x) * (1 + s * s))).
Proof.
  intros x s. unfold hker. auto_derive; [exact I|]. field. nra.
Qed.

Lemma cont2_exp : forall x s,
  continuity_2d_pt (fun u v => - 2 * u * exp (- (u * u) * (1 + v * v))) x s.
Proof.
  intros x s.
  apply continuity_2d_pt_mult.
  - apply continuity_2d_pt_mult; [apply continuity_2d_pt_const | apply continuity_2d_pt_id1].
  - apply (continuity_1d_2d_pt_comp exp (fun u v => - (u * u) * (1 + v * v))).
    + apply derivable_continuous_pt. apply derivable_pt_exp.
    + apply continuity_2d_pt_mult.
      * apply continuity_2d_pt_opp. apply continuity_2d_pt_mult; apply continuity_2d_pt_id1.
      * apply continuity_2d_pt_plus; [apply continuity_2d_pt_const|].
        apply continuity_2d_pt_mult; apply continuity_2d_pt_id2.
Qed.

Lemma hint_derive : forall x, is_derive hint x (- 2 * gauss x * gint x).
Proof.
  intro x.
  replace (- 2 * gauss x * gint x)
    with (RInt (fun t => Derive (fun u => hker u t) x) 0 1).
  - apply (is_derive_RInt_param hker 0 1 x).
    + apply filter_forall. intros y t _. eexists. apply hker_derive.
    + intros t _. eapply continuity_2d_pt_ext; [|apply cont2_exp].
      intros u v. symmetry. apply is_derive_unique. apply hker_derive.
    + apply filter_forall. intro y. apply hker_ex.
  - assert (E := RInt_comp_lin (V := R_CompleteNormedModule) gauss x 0 0 1 (gauss_ex _ _)).
    assert (X := ex_RInt_comp_lin gauss x 0 0 1 (gauss_ex _ _)).
    assert (G : gint x = RInt gauss (x * 0 + 0) (x * 1 + 0)).
    { unfold gint. rewrite Rmult_0_r, Rmult_1_r, !Rplus_0_r.
      reflexivity. }
    rewrite G. 
    rewrite <- E. symmetry.
    etransitivity; [symmetry; apply (RInt_scal (V := R_CompleteNormedModule) _ 0 1 (- 2 * gauss x) X)|].
    symmetry.
    apply RInt_ext. intros s _. etransitivity; [apply is_derive_unique, hker_derive|].
    unfold scal; simpl; unfold mult; simpl. unfold gauss.
    replace (- (x * x) * (1 + s * s)) with (- (x * x) + - ((x * s + 0) * (x * s + 0))) by ring.
    rewrite exp_plus. ring.
Qed.

(* A function with zero derivative is constant. *)
Lemma zero_derive_const : forall (f : R -> R),
  (forall x, is_derive f x 0) -> forall a b, f a = f b.
Proof.
  intros f H a b.
  destruct (Req_dec a b) as [->|N]; [reflexivity|].
  destruct (MVT_gen f a b (fun _ => 0)) as (c & _ & E).
  - intros x _. apply H.
  - intros x _. apply continuity_pt_filterlim.
    apply (ex_derive_continuous f). exists 0. apply H.
  - lra.
Qed.

Lemma hint_0 : hint 0 = PI / 4.
Proof.
  unfold hint.
  assert (E : is_RInt (hker 0) 0 1 (minus (atan 1) (atan 0))).
  { apply (is_RInt_derive (V := R_CompleteNormedModule) atan (hker 0) 0 1).
    - intros x _. apply is_derive_ext_loc with (f := atan).
      { apply filter_forall. reflexivity. }
      replace (hker 0 x) with (/ (1 + x ^ 2)).
      + apply is_derive_Reals. apply derivable_pt_lim_atan.
      + unfold hker. replace (- (0 * 0) * (1 + x * x)) with 0 by ring. rewrite exp_0.
        field. nra.
    - intros. apply hker_cont. }
  rewrite (is_RInt_unique _ _ _ _ E). unfold minus; simpl. unfold plus, opp; simpl.
  rewrite atan_1, atan_0. lra.
Qed.

Lemma gauss_identity : forall x, gint x * gint x + hint x = PI / 4.
Proof.
  intro x.
  assert (Z := zero_derive_const (fun x => gint x * gint x + hint x)).
  cbv beta in Z.
  assert (D : forall y, is_derive (fun x => gint x * gint x + hint x) y 0).
  { intro y.
    assert (D1 := gint_derive y). assert (D2 := hint_derive y).
    replace 0 with ((gauss y * gint y + gint y * gauss y) + - 2 * gauss y * gint y) by ring.
    apply (is_derive_plus (fun x => gint x * gint x) hint y).
    - apply (is_derive_mult gint gint y (gauss y) (gauss y) D1 D1).
      intros; apply Rmult_comm.
    - exact D2. }
  rewrite (Z D x 0). rewrite hint_0. unfold gint. rewrite RInt_point.
  unfold zero; simpl. ring.
Qed.

Lemma hint_nonneg : forall x, 0 <= hint x.
Proof.
  intro x. unfold hint. apply RInt_ge_0; [lra | apply hker_ex |].
  intros s _. unfold hker. apply Rlt_le, Rdiv_lt_0_compat; [apply exp_pos | nra].
Qed.

Lemma hint_upper : forall x, hint x <= gauss x * (PI / 4).
Proof.
  intro x. rewrite <- hint_0. unfold hint.
  apply Rle_trans with (RInt (fun s => scal (gauss x) (hker 0 s)) 0 1).
  - apply RInt_le; [lra | apply hker_ex | |].
    + apply (ex_RInt_scal (V := R_CompleteNormedModule)). apply hker_ex.
    + intros s _. unfold scal; simpl; unfold mult; simpl. unfold hker, gauss.
      replace (- (0 * 0) * (1 + s * s)) with 0 by ring. rewrite exp_0.
      unfold Rdiv. rewrite <- Rmult_assoc. apply Rmult_le_compat_r.
      { left. apply Rinv_0_lt_compat. nra. }
      rewrite Rmult_1_r.
      destruct (Req_dec (x * s) 0) as [Z|N].
      * right. f_equal. replace (- (x * x) * (1 + s * s)) with (- (x*x) - (x * s) * (x * s)) by ring.
        rewrite Z. ring.
      * left. apply exp_increasing. nra.
  - right. rewrite (RInt_scal (V := R_CompleteNormedModule)) by apply hker_ex. reflexivity.
Qed.

(* ---------- erf ---------- *)
Lemma erf_gint : forall x, erf x = 2 / sqrt PI * gint x.
Proof.
  intro x. unfold erf, gint.
  rewrite <- (RInt_scal (V := R_CompleteNormedModule) gauss) by apply gauss_ex.
  reflexivity.
Qed.

Lemma erf_derive : forall x, is_derive erf x (2 / sqrt PI * exp (- (x * x))).
Proof.
  intro x. apply is_derive_ext with (f := fun x => scal (2 / sqrt PI) (gint x)).
  - intro t. rewrite erf_gint. reflexivity.
  - apply (is_derive_scal gint x). apply gint_derive.
Qed.

Lemma erf_0 : erf 0 = 0.
Proof. unfold erf. rewrite RInt_point. reflexivity. Qed.

Lemma erf_sqr : forall x, 1 - gauss x <= erf x * erf x <= 1.
Proof.
  intro x. rewrite erf_gint.
  assert (G := gauss_identity x). assert (A := hint_nonneg x). assert (B := hint_upper x).
  assert (P := PI_RGT_0). assert (S := sqrtPI_sqr). assert (SP := sqrtPI_pos).
  replace (2 / sqrt PI * gint x * (2 / sqrt PI * gint x)) with (4 / PI * (gint x * gint x)).
  2: { rewrite <- S at 1. field. lra. }
  replace (gint x * gint x) with (PI / 4 - hint x) by lra.
  replace (4 / PI * (PI / 4 - hint x)) with (1 - 4 / PI * hint x) by (field; lra).
  assert (Q : 0 < 4 / PI) by (apply Rdiv_lt_0_compat; lra).
  split; [|nra].
  assert (4 / PI * hint x <= 4 / PI * (gauss x * (PI / 4))) by (apply Rmult_le_compat_l; lra).
  replace (4 / PI * (gauss x * (PI / 4))) with (gauss x) in * by (field; lra). lra.
Qed.

Lemma incr_from_derive : forall (f df : R -> R) a b,
  a <= b -> (forall x, a <= x <= b -> is_derive f x (df x)) ->
  (forall x, a <= x <= b -> 0 <= df x) -> f a <= f b.
Proof.
  intros f df a b L D N.
  destruct (Req_dec a b) as [->|NE]; [lra|].
  destruct (MVT_gen f a b df) as (c & I & E).
  - intros x Hx. apply D. rewrite Rmin_left, Rmax_right in Hx by lra. lra.
  - intros x Hx. apply continuity_pt_filterlim.
    apply (ex_derive_continuous f). exists (df x). apply D.
    rewrite Rmin_left, Rmax_right in Hx by lra. lra.
  - rewrite Rmin_left, Rmax_right in I by lra. specialize (N c I). nra.
Qed.

Lemma erf_incr : forall x y, x <= y -> erf x <= erf y.
Proof.
  intros x y L.
  apply (incr_from_derive erf (fun x => 2 / sqrt PI * exp (- (x * x))) x y L).
  - intros. apply erf_derive.
  - intros z _. apply Rlt_le, Rmult_lt_0_compat; [|apply exp_pos].
    apply Rdiv_lt_0_compat; [lra | apply sqrtPI_pos].
Qed.

Lemma erf_nonneg : forall x, 0 <= x -> 0 <= erf x.
Proof. intros x H. rewrite <- erf_0. now apply erf_incr. Qed.

Lemma erf_le_1 : forall x, erf x <= 1.
Proof. intro x. destruct (erf_sqr x) as [_ H]. nra. Qed.

Lemma erf_lower : forall x, 0 <= x -> 1 - gauss x <= erf x.
Proof.
  intros x H. destruct (erf_sqr x) as [A _]. assert (B := erf_nonneg x H).
  assert (C := erf_le_1 x). nra.
Qed.

(* ---------- the documented closed form ---------- *)
Definition closed_form (c : R) : R :=
  - (1 / (2 * sqrt (2 * PI)) * (c * exp (- (8 / (c * c)))) * (exp (8 / (c * c)) - 1))
  + erf (2 * sqrt 2 / c).

Lemma closed_form_simpl : forall A B c, c <> 0 ->
  - ((1 / B) * c * exp (- (8 / (c * c))) * (exp (8 / (c * c)) - 1)) + erf (A / c)
  = erf (A / c) - c / B * (1 - exp (- (8 / (c * c)))).
Proof.
  intros A B c N.
  assert (E : exp (- (8 / (c * c))) * exp (8 / (c * c)) = 1).
  { rewrite <- exp_plus. replace (- (8 / (c * c)) + 8 / (c * c)) with 0 by ring. apply exp_0. }
  unfold Rdiv in *. 
  replace (1 * / B * c * exp (- (8 * / (c * c))) * (exp (8 * / (c * c)) - 1))
    with (/ B * c * (exp (- (8 * / (c * c))) * exp (8 * / (c * c))) - / B * c * exp (- (8 * / (c * c)))) by ring.
  rewrite E. ring.
Qed.

Lemma sqrt2_sqr : sqrt 2 * sqrt 2 = 2.
Proof. apply sqrt_sqrt; lra. Qed.
Lemma sqrt2_pos : 0 < sqrt 2.
Proof. apply sqrt_lt_R0; lra. Qed.

Lemma true_collision_closed : forall c, 0 < c -> true_collision c = closed_form c.
Proof.
  intros c Hc. unfold true_collision.
  assert (S2 := sqrt2_sqr). assert (S2p := sqrt2_pos).
  assert (SP := sqrtPI_pos).
  assert (E2P : sqrt (2 * PI) = sqrt 2 * sqrt PI) by (apply sqrt_mult; [lra | left; apply PI_RGT_0]).
  set (F := fun t => erf (t / (sqrt 2 * c)) + c / (2 * sqrt (2 * PI)) * exp (- (t * t) / (2 * (c * c)))).
  set (f := fun t => / c * half_normal_density (t / c) * (1 - t / 4)).
  assert (D : forall t, is_derive F t (f t)).
  { intro t. unfold F.
    assert (D1 : is_derive (fun t => erf (t / (sqrt 2 * c))) t
              (/ (sqrt 2 * c) * (2 / sqrt PI * exp (- (t / (sqrt 2 * c) * (t / (sqrt 2 * c))))))).
    { apply (is_derive_comp erf (fun t => t / (sqrt 2 * c)) t); [apply erf_derive|].
      auto_derive; [exact I|]. field. nra. }
    assert (D2 : is_derive (fun t => c / (2 * sqrt (2 * PI)) * exp (- (t * t) / (2 * (c * c)))) t
              (c / (2 * sqrt (2 * PI)) * ((- t / (c * c)) * exp (- (t * t) / (2 * (c * c)))))).
    { auto_derive; [exact I|]. 
      unfold Rdiv at 4. set (ex := exp _). field. rewrite E2P. assert (0 < sqrt 2 * sqrt PI) by nra. repeat split; nra. }
    replace (f t) with ((/ (sqrt 2 * c) * (2 / sqrt PI * exp (- (t / (sqrt 2 * c) * (t / (sqrt 2 * c))))))
       + (c / (2 * sqrt (2 * PI)) * ((- t / (c * c)) * exp (- (t * t) / (2 * (c * c)))))).
    { apply (is_derive_plus (fun t => erf (t / (sqrt 2 * c))) _ t); assumption. }
    unfold f, half_normal_density. rewrite E2P.
    replace (- (t / (sqrt 2 * c) * (t / (sqrt 2 * c)))) with (- (t * t) / (2 * (c * c))).
    2: { rewrite <- S2 at 1. field. lra. }
    replace (- (t / c * (t / c)) / 2) with (- (t * t) / (2 * (c * c))) by (field; lra).
    set (ex := exp (- (t * t) / (2 * (c * c)))).
    field. lra. }
  assert (C : forall t, continuous f t).
  { intro t. apply (ex_derive_continuous f). unfold f, half_normal_density. auto_derive. exact I. }
  assert (R := is_RInt_derive (V := R_CompleteNormedModule) F f 0 4 (fun x _ => D x) (fun x _ => C x)).
  rewrite (is_RInt_unique _ _ _ _ R).
  unfold closed_form.
  replace (- (1 / (2 * sqrt (2 * PI)) * (c * exp (- (8 / (c * c)))) * (exp (8 / (c * c)) - 1)))
   with (- (1 / (2 * sqrt (2 * PI)) * c * exp (- (8 / (c * c))) * (exp (8 / (c * c)) - 1))) by ring.
  rewrite closed_form_simpl by lra.
  unfold F, minus; simpl; unfold plus, opp; simpl.
  replace (0 / (sqrt 2 * c)) with 0 by (field; lra). rewrite erf_0.
  replace (- (0 * 0) / (2 * (c * c))) with 0 by (field; lra). rewrite exp_0.
  replace (4 / (sqrt 2 * c)) with (2 * sqrt 2 / c).
  2: { replace 4 with (2 * (sqrt 2 * sqrt 2)) by (rewrite S2; ring). field. lra. }
  replace (- (4 * 4) / (2 * (c * c))) with (- (8 / (c * c))) by (field; lra).
  ring.
Qed.
