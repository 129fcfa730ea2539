(** Exact kernel density estimation in IEEE double arithmetic (C87): rounding analysis of the Num-generic model of
    stag_lib/kde.cpp:52-61, 86-93, 629-696 at binary64. *)
From Verif Require Import Base Num RSum Cluster FloatFacts Kde KdeFacts3 SimExpect PageRankFloat.
From Coq Require Import ZArith Reals Lra Lia Psatz SpecFloat.
From Flocq Require Import Core BinarySingleNaN Relative.
Local Open Scope R_scope.

(** The C library: integers convert exactly, exp of a number that is not positive is a number in [0,1] with absolute error at
    most [eps] (2^-53 for a correctly rounded exp). *)
Definition libm_ok (K : KNum f64) (eps : R) : Prop :=
  0 <= eps /\ (forall z, small_int z -> wofZ z = zf z) /\
  (forall x, dbl x -> f2r x <= 0 -> dbl (wexp x) /\ 0 <= f2r (wexp x) <= 1 /\ Rabs (f2r (wexp x) - exp (f2r x)) <= eps).

Definition eta : R := bpow radix2 (-1075).
Lemma eta_pos : 0 < eta. Proof. apply bpow_gt_0. Qed.
Lemma rnd_err x : Rabs (rnd64 x - x) <= u64 * Rabs x + eta.
Proof.
  destruct (relative_error_N_FLT'_ex radix2 (-1074) 53 eq_refl (fun z => negb (Z.even z)) x) as (e & h & He & Hh & _ & E).
  unfold rnd64. change ZnearestE with (Znearest (fun z => negb (Z.even z))). rewrite E.
  replace (x * (1 + e) + h - x) with (e * x + h) by ring. eapply Rle_trans; [apply Rabs_triang|]. rewrite Rabs_mult.
  assert (Hu : u_ro radix2 53 = u64) by (unfold u_ro, u64; change (/ 2) with (bpow radix2 (-1)); rewrite <- bpow_plus; reflexivity).
  rewrite Hu in He. pose proof u64_pos. assert (Rabs e <= u64).
  { eapply Rle_trans; [exact He|]. apply (Rmult_le_reg_r (1 + u64)); [lra|]. unfold Rdiv. rewrite Rmult_assoc, Rinv_l by lra. nra. }
  assert (Hh' : / 2 * bpow radix2 (-1074) = eta) by (unfold eta; change (/ 2) with (bpow radix2 (-1)); rewrite <- bpow_plus; reflexivity).
  rewrite Hh' in Hh. pose proof (Rabs_pos x). nra.
Qed.
Lemma rnd_le x e : (-1074 <= e)%Z -> Rabs x <= bpow radix2 e -> Rabs (rnd64 x) <= bpow radix2 e.
Proof.
  intros He H. unfold rnd64. apply abs_round_le_generic; auto; [apply FLT_exp_valid; reflexivity|apply valid_rnd_N|].
  apply generic_format_bpow. unfold FLT_exp. lia.
Qed.
Lemma fits x e : (-1074 <= e < 1024)%Z -> Rabs x <= bpow radix2 e -> in_range (rnd64 x).
Proof. intros He H. eapply Rle_lt_trans; [apply rnd_le; [|exact H]; lia|]. apply bpow_lt. lia. Qed.

(** Powers of 1 + u. *)
Lemma pow_small k : INR k * u64 <= / 2 -> 1 <= (1 + u64) ^ k <= 1 + 2 * (INR k * u64).
Proof.
  pose proof u64_pos as Hu. intros Hk. split; [apply pow_u_ge1|].
  assert (G : forall j, INR j * u64 < 1 -> (1 + u64) ^ j * (1 - INR j * u64) <= 1).
  { induction j as [|j IH]; intros Hj; [simpl; lra|]. rewrite S_INR in *. specialize (IH ltac:(lra)). cbn [pow].
    pose proof (pow_u_ge1 j). pose proof (pos_INR j).
    assert ((1 + u64) * (1 - (INR j + 1) * u64) <= 1 - INR j * u64) by (pose proof (Rmult_le_pos _ _ (pos_INR j) (Rlt_le _ _ Hu)); nra). nra. }
  specialize (G k ltac:(lra)). set (x := INR k * u64) in *. assert (0 <= x) by (apply Rmult_le_pos; [apply pos_INR|lra]).
  apply (Rmult_le_reg_r (1 - x)); [lra|]. eapply Rle_trans; [exact G|]. nra.
Qed.

(** [x] approximates [S] with [k] roundings and [t] lost by underflow. *)
Definition approx_to (k : nat) (t : R) (x : f64) (S : R) : Prop :=
  dbl x /\ 0 <= f2r x /\ 0 <= S /\ 0 <= t /\ Rabs (f2r x - S) <= (1 + u64) ^ k * (S + t) - S.
Ltac app_split := split; [|split; [|split; [|split]]].
Lemma app_upper k t x S : approx_to k t x S -> f2r x <= (1 + u64) ^ k * (S + t).
Proof. intros (_ & _ & _ & _ & E). apply Rabs_le_inv in E. lra. Qed.
Lemma app_weaken k k' t t' x S : (k <= k')%nat -> t <= t' -> approx_to k t x S -> approx_to k' t' x S.
Proof.
  intros Hk Ht (D & P & Q & T & E). app_split; auto; [lra|]. eapply Rle_trans; [exact E|]. apply Rplus_le_compat_r.
  pose proof u64_pos. apply Rmult_le_compat; try lra; [left; apply pow_lt; lra|]. apply Rle_pow; lra || lia.
Qed.
Lemma app_add k t t' x y S S' e : approx_to k t x S -> approx_to k t' y S' -> (-1074 <= e < 1024)%Z -> (1 + u64) ^ k * (S + S' + (t + t')) <= bpow radix2 e ->
  approx_to (k + 1) (t + t') (wadd x y) (S + S').
Proof.
  intros A B He Hb. pose proof (app_upper _ _ _ _ A) as U1. pose proof (app_upper _ _ _ _ B) as U2.
  destruct A as (D1 & P1 & Q1 & T1 & E1), B as (D2 & P2 & Q2 & T2 & E2). pose proof u64_pos as Hu. pose proof (pow_u_ge1 k) as Hk.
  destruct (fadd_spec x y D1 D2) as [D Ev]; [apply (fits _ e He); rewrite Rabs_pos_eq by lra; lra|].
  app_split; auto; try lra; [rewrite Ev; apply rnd_nonneg; lra|]. rewrite Ev.
  pose proof (add_rel_error x y D1 D2) as RE. rewrite (Rabs_pos_eq (f2r x + f2r y)) in RE by lra.
  replace (rnd64 (f2r x + f2r y) - (S + S')) with ((rnd64 (f2r x + f2r y) - (f2r x + f2r y)) + ((f2r x - S) + (f2r y - S'))) by ring.
  eapply Rle_trans; [apply Rabs_triang|]. eapply Rle_trans; [apply Rplus_le_compat; [exact RE|apply Rabs_triang]|].
  replace ((1 + u64) ^ (k + 1)) with ((1 + u64) ^ k * (1 + u64)) by (rewrite pow_add; ring).
  assert (u64 * (f2r x + f2r y) <= u64 * ((1 + u64) ^ k * (S + S' + (t + t')))) by (apply Rmult_le_compat_l; lra). lra.
Qed.
Lemma app_scale k t x S a e : approx_to k t x S -> dbl a -> 0 <= f2r a -> (-1074 <= e < 1024)%Z -> f2r a * ((1 + u64) ^ k * (S + t)) <= bpow radix2 e ->
  approx_to (k + 1) (f2r a * t + eta) (wmul a x) (f2r a * S).
Proof.
  intros A Da Ha He Hb. pose proof (app_upper _ _ _ _ A) as U1. destruct A as (D1 & P1 & Q1 & T1 & E1).
  pose proof u64_pos as Hu. pose proof (pow_u_ge1 k) as Hk. pose proof eta_pos as Hh.
  assert (P : 0 <= f2r a * f2r x) by (now apply Rmult_le_pos).
  assert (U : f2r a * f2r x <= f2r a * ((1 + u64) ^ k * (S + t))) by (apply Rmult_le_compat_l; lra).
  destruct (fmul_spec a x Da D1) as [D Ev]; [apply (fits _ e He); rewrite Rabs_pos_eq by lra; lra|].
  assert (0 <= f2r a * S) by (now apply Rmult_le_pos). assert (0 <= f2r a * t) by (now apply Rmult_le_pos).
  app_split; auto; try lra; [rewrite Ev; apply rnd_nonneg; lra|]. rewrite Ev.
  pose proof (rnd_err (f2r a * f2r x)) as RE. rewrite (Rabs_pos_eq (f2r a * f2r x)) in RE by lra.
  replace (rnd64 (f2r a * f2r x) - f2r a * S) with ((rnd64 (f2r a * f2r x) - f2r a * f2r x) + f2r a * (f2r x - S)) by ring.
  eapply Rle_trans; [apply Rabs_triang|]. rewrite Rabs_mult, (Rabs_pos_eq (f2r a)) by lra.
  assert (f2r a * Rabs (f2r x - S) <= f2r a * ((1 + u64) ^ k * (S + t) - S)) by (apply Rmult_le_compat_l; lra).
  replace ((1 + u64) ^ (k + 1)) with ((1 + u64) ^ k * (1 + u64)) by (rewrite pow_add; ring).
  assert (u64 * (f2r a * f2r x) <= u64 * (f2r a * ((1 + u64) ^ k * (S + t)))) by (apply Rmult_le_compat_l; lra).
  assert (1 <= (1 + u64) ^ k * (1 + u64)) by nra.
  assert (eta <= (1 + u64) ^ k * (1 + u64) * eta) by nra. lra.
Qed.

(** One term of the squared distance. *)
Lemma app_square x y : dbl x -> dbl y -> Rabs (f2r x) <= bpow radix2 400 -> Rabs (f2r y) <= bpow radix2 400 ->
  approx_to 3 eta (wmul (wsub x y) (wsub x y)) ((f2r x - f2r y) ^ 2).
Proof.
  intros Dx Dy Hx Hy. pose proof u64_pos as Hu. pose proof eta_pos as Hh.
  assert (Hd : Rabs (f2r x - f2r y) <= bpow radix2 401).
  { replace (f2r x - f2r y) with (f2r x + - f2r y) by ring. eapply Rle_trans; [apply Rabs_triang|]. rewrite Rabs_Ropp.
    change 401%Z with (1 + 400)%Z. rewrite bpow_plus. change (bpow radix2 1) with 2. lra. }
  destruct (fsub_spec x y Dx Dy) as [D Ev]; [apply (fits _ 401); [lia|exact Hd]|].
  pose proof (sub_rel_error x y Dx Dy) as SE. set (z := f2r x - f2r y) in *. set (d := wsub x y) in *. rewrite <- Ev in SE.
  assert (Hz : Rabs (f2r d) <= bpow radix2 401) by (rewrite Ev; apply rnd_le; [lia|exact Hd]).
  assert (Hs : Rabs (f2r d * f2r d) <= bpow radix2 802).
  { rewrite Rabs_mult. change 802%Z with (401 + 401)%Z. rewrite bpow_plus. pose proof (Rabs_pos (f2r d)). apply Rmult_le_compat; lra. }
  destruct (fmul_spec d d D D) as [D2 E2]; [apply (fits _ 802); [lia|exact Hs]|].
  assert (Psq : forall r, 0 <= r * r) by (intros r; apply Rle_0_sqr).
  app_split; auto; try lra; [rewrite E2; apply rnd_nonneg; apply Psq|simpl; rewrite Rmult_1_r; apply Psq|]. rewrite E2.
  pose proof (rnd_err (f2r d * f2r d)) as RE. rewrite (Rabs_pos_eq (f2r d * f2r d)) in RE by apply Psq.
  replace (rnd64 (f2r d * f2r d) - z ^ 2) with ((rnd64 (f2r d * f2r d) - f2r d * f2r d) + (f2r d * f2r d - z * z)) by ring.
  eapply Rle_trans; [apply Rabs_triang|].
  set (w := Rabs z) in *. assert (Hw : 0 <= w) by apply Rabs_pos.
  assert (Ww : w * w = z * z) by (unfold w; rewrite <- Rabs_mult; apply Rabs_pos_eq, Psq).
  assert (U : Rabs (f2r d) <= (1 + u64) * w).
  { replace (f2r d) with ((f2r d - z) + z) by ring. eapply Rle_trans; [apply Rabs_triang|]. fold w. lra. }
  assert (A1 : f2r d * f2r d <= (1 + u64) ^ 2 * (w * w)).
  { replace (f2r d * f2r d) with (Rabs (f2r d) * Rabs (f2r d)) by (rewrite <- Rabs_mult; apply Rabs_pos_eq, Psq).
    pose proof (Rabs_pos (f2r d)). replace ((1 + u64) ^ 2 * (w * w)) with (((1 + u64) * w) * ((1 + u64) * w)) by ring. apply Rmult_le_compat; lra. }
  assert (A2 : Rabs (f2r d * f2r d - z * z) <= ((1 + u64) ^ 2 - 1) * (w * w)).
  { replace (f2r d * f2r d - z * z) with ((f2r d - z) * (f2r d + z)) by ring. rewrite Rabs_mult.
    assert (Rabs (f2r d + z) <= (2 + u64) * w) by (eapply Rle_trans; [apply Rabs_triang|]; fold w; lra).
    replace (((1 + u64) ^ 2 - 1) * (w * w)) with ((u64 * w) * ((2 + u64) * w)) by ring. apply Rmult_le_compat; auto; apply Rabs_pos. }
  assert (B1 : 1 <= (1 + u64) ^ 3) by apply pow_u_ge1.
  replace (z ^ 2) with (w * w) by (rewrite Ww; ring). pose proof (Psq w).
  assert (u64 * (f2r d * f2r d) <= u64 * ((1 + u64) ^ 2 * (w * w))) by (apply Rmult_le_compat_l; lra).
  assert (eta <= (1 + u64) ^ 3 * eta) by nra. replace ((1 + u64) ^ 3) with ((1 + u64) ^ 2 * (1 + u64)) in * by ring. lra.
Qed.

(** ** The squared distance *)
Definition coords_ok (p : list f64) : Prop := Forall (fun x => dbl x /\ Rabs (f2r x) <= bpow radix2 400) p.
Lemma bpow_INR k : (0 <= k)%Z -> IZR (2 ^ k) = bpow radix2 k.
Proof. intros Hk. rewrite <- IZR_Zpower by auto. reflexivity. Qed.
Lemma sq_loop uv : forall k t acc S, Forall (fun xy => (dbl (fst xy) /\ Rabs (f2r (fst xy)) <= bpow radix2 400) /\ (dbl (snd xy) /\ Rabs (f2r (snd xy)) <= bpow radix2 400)) uv ->
  (3 <= k)%nat -> approx_to k t acc S -> (1 + u64) ^ (k + length uv) <= 2 -> S + INR (length uv) * bpow radix2 802 + (t + INR (length uv) * eta) <= bpow radix2 900 ->
  approx_to (k + length uv) (t + INR (length uv) * eta)
    (fold_left (fun r xy => wadd r (wmul (wsub (fst xy) (snd xy)) (wsub (fst xy) (snd xy)))) uv acc)
    (S + lsum (fun xy => (f2r (fst xy) - f2r (snd xy)) ^ 2) uv).
Proof.
  pose proof u64_pos as Hu. pose proof eta_pos as Hh.
  induction uv as [|[x y] uv IH]; intros k t acc S F Hk A Hp Hb.
  - cbn [fold_left lsum length]. rewrite Nat.add_0_r, Rplus_0_r. cbn [INR]. replace (t + 0 * eta) with t by ring. exact A.
  - inversion F as [|? ? [[Dx Hx] [Dy Hy]] F']; subst. cbn [fst snd] in *. cbn [fold_left lsum fst snd].
    assert (Le : length ((x, y) :: uv) = Datatypes.S (length uv)) by reflexivity. rewrite Le in *. rewrite S_INR in *.
    pose proof (app_square x y Dx Dy Hx Hy) as Q.
    assert (Z : (f2r x - f2r y) ^ 2 <= bpow radix2 802).
    { assert (Hd : Rabs (f2r x - f2r y) <= bpow radix2 401).
      { replace (f2r x - f2r y) with (f2r x + - f2r y) by ring. eapply Rle_trans; [apply Rabs_triang|]. rewrite Rabs_Ropp.
        change 401%Z with (1 + 400)%Z. rewrite bpow_plus. change (bpow radix2 1) with 2. lra. }
      rewrite <- Rsqr_pow2, Rsqr_abs. unfold Rsqr. change 802%Z with (401 + 401)%Z. rewrite bpow_plus. pose proof (Rabs_pos (f2r x - f2r y)). apply Rmult_le_compat; lra. }
    pose proof (pos_INR (length uv)). pose proof (bpow_gt_0 radix2 802).
    assert (0 <= INR (length uv) * bpow radix2 802) by (apply Rmult_le_pos; lra).
    assert (0 <= INR (length uv) * eta) by (apply Rmult_le_pos; lra).
    pose proof A as (_ & _ & S0 & T0 & _). pose proof Q as (_ & _ & Q0 & _ & _).
    assert (Pk : (1 + u64) ^ k <= 2).
    { eapply Rle_trans; [|exact Hp]. apply Rle_pow; lra || lia. }
    assert (A' : approx_to (k + 1) (t + eta) (wadd acc (wmul (wsub x y) (wsub x y))) (S + (f2r x - f2r y) ^ 2)).
    { apply (app_add k t eta acc _ S _ 901); auto; [apply (app_weaken 3 k eta eta); auto; lra|lia|].
      change 901%Z with (1 + 900)%Z. rewrite bpow_plus. change (bpow radix2 1) with 2. pose proof (pow_u_ge1 k). apply Rmult_le_compat; lra. }
    specialize (IH (k + 1)%nat (t + eta) _ _ F' ltac:(lia) A').
    replace (k + Datatypes.S (length uv))%nat with (k + 1 + length uv)%nat by lia.
    replace (t + (INR (length uv) + 1) * eta) with (t + eta + INR (length uv) * eta) by ring.
    replace (S + ((f2r x - f2r y) ^ 2 + lsum (fun xy => (f2r (fst xy) - f2r (snd xy)) ^ 2) uv))
      with (S + (f2r x - f2r y) ^ 2 + lsum (fun xy => (f2r (fst xy) - f2r (snd xy)) ^ 2) uv) by ring.
    apply IH; [replace (k + 1 + length uv)%nat with (k + Datatypes.S (length uv))%nat by lia; exact Hp|]. lra.
Qed.
Lemma dist2_combine (u v : list f64) : dist2 (map f2r u) (map f2r v) = lsum (fun xy => (f2r (fst xy) - f2r (snd xy)) ^ 2) (combine u v).
Proof.
  unfold dist2. rewrite !map_length. revert v. induction u as [|x u IH]; intros [|y v]; try reflexivity.
  cbn [length Nat.min combine lsum fst snd map]. rewrite rsum_first. cbn [nth]. f_equal. rewrite <- IH. reflexivity.
Qed.

(** ** The kernel *)
Lemma x_exp x : 0 <= x -> x * exp (- x) <= / 2.
Proof.
  intros Hx. assert (E1 : 2 <= exp 1) by (pose proof (exp_ineq1_le 1); lra).
  assert (G : 2 * x <= exp x).
  { replace x with (1 + (x - 1)) at 2 by ring. rewrite exp_plus. pose proof (exp_ineq1_le (x - 1)). pose proof (exp_pos (x - 1)). nra. }
  apply (Rmult_le_reg_r (exp x)); [apply exp_pos|]. rewrite Rmult_assoc, <- exp_plus, Rplus_opp_l, exp_0. lra.
Qed.
Lemma exp_diff a b : a <= b -> exp b - exp a <= (b - a) * exp b.
Proof.
  intros Hab. pose proof (exp_ineq1_le (a - b)) as H. pose proof (exp_pos b).
  replace (exp a) with (exp b * exp (a - b)) by (rewrite <- exp_plus; f_equal; ring). nra.
Qed.
Lemma exp_perturb s s' d t : 0 <= s -> 0 <= s' -> 0 <= t -> 0 <= d <= / 4 -> Rabs (s' - s) <= (1 + d) * (s + t) - s ->
  Rabs (exp (- s') - exp (- s)) <= d + 2 * t.
Proof.
  intros Hs Hs' Ht Hd E. apply Rabs_le_inv in E.
  assert (P : forall x, 0 <= x -> exp (- x) <= 1) by (intros x Hx; rewrite <- exp_0; destruct (Req_dec x 0) as [->|]; [right; f_equal; ring|left; apply exp_increasing; lra]).
  pose proof (exp_pos (- s)) as P1. pose proof (exp_pos (- s')) as P2. pose proof (x_exp s Hs) as X1. pose proof (x_exp s' Hs') as X2.
  pose proof (P s Hs) as L1. pose proof (P s' Hs') as L2.
  destruct (Rle_dec s s') as [L|L].
  - pose proof (exp_diff (- s') (- s) ltac:(lra)) as D. assert (M : exp (- s') <= exp (- s)) by (destruct (Req_dec s s') as [->|]; [lra|left; apply exp_increasing; lra]).
    rewrite Rabs_left1 by lra. assert (B : (- s - - s') * exp (- s) <= (d * s + (1 + d) * t) * exp (- s)) by (apply Rmult_le_compat_r; lra).
    assert (B2 : d * (s * exp (- s)) <= d * / 2) by (apply Rmult_le_compat_l; lra).
    assert (B3 : (1 + d) * t * exp (- s) <= (1 + d) * t) by (rewrite <- (Rmult_1_r ((1 + d) * t)) at 2; apply Rmult_le_compat_l; [apply Rmult_le_pos; lra|lra]).
    assert (B4 : (1 + d) * t <= 2 * t) by nra. lra.
  - pose proof (exp_diff (- s) (- s') ltac:(lra)) as D. assert (M : exp (- s) <= exp (- s')) by (left; apply exp_increasing; lra).
    rewrite Rabs_pos_eq by lra.
    (* s - s' <= d s + (1+d) t and s (1-d) <= s' + (1+d) t *)
    assert (S1 : s - s' <= d * s + (1 + d) * t) by lra.
    assert (S2 : s <= 4 / 3 * (s' + (1 + d) * t)).
    { assert ((1 - d) * s <= s' + (1 + d) * t) by lra. assert (3 / 4 * s <= (1 - d) * s) by nra. lra. }
    assert (S3 : s - s' <= d * (4 / 3 * s') + 2 * t).
    { assert (d * s <= d * (4 / 3 * (s' + (1 + d) * t))) by (apply Rmult_le_compat_l; lra).
      assert (T1 : (1 + d) * t <= 5 / 4 * t) by nra. assert (T2 : d * (4 / 3 * ((1 + d) * t)) <= / 4 * (4 / 3 * (5 / 4 * t))).
      { assert (0 <= (1 + d) * t) by (apply Rmult_le_pos; lra). apply Rmult_le_compat; lra. }
      lra. }
    assert (B : (- s' - - s) * exp (- s') <= (d * (4 / 3 * s') + 2 * t) * exp (- s')) by (apply Rmult_le_compat_r; lra).
    assert (B2 : d * (4 / 3) * (s' * exp (- s')) <= d * (4 / 3) * / 2) by (apply Rmult_le_compat_l; lra).
    assert (B3 : 2 * t * exp (- s') <= 2 * t * 1) by (apply Rmult_le_compat_l; lra). lra.
Qed.
Lemma fopp_spec (x : f64) : dbl x -> dbl (wopp x) /\ f2r (wopp x) = - f2r x.
Proof.
  intros D. destruct (dbl_bin x D) as (b & <- & Fb & Eb).
  assert (E : @wopp f64 _ (B2SF b) = B2SF (Bopp b)) by (destruct b; reflexivity).
  assert (Fo : is_finite (Bopp b) = true) by (destruct b; auto). destruct (bin_dbl _ Fo) as [D2 E2].
  rewrite E. split; auto. rewrite E2. rewrite <- Eb. apply B2R_Bopp.
Qed.
(** All sizes for which the analysis is made. *)
Definition two49 : R := bpow radix2 49.
Section K.
  Context (K : KNum f64) (eps : R).
  Hypothesis HK : libm_ok K eps.

  Lemma kernel_error (a : f64) (q x : list f64) d : dbl a -> 0 <= f2r a <= bpow radix2 100 -> coords_ok q -> coords_ok x -> length q = d -> length x = d -> INR d <= two49 ->
    let k := gaussian_kernel a q x in
    dbl k /\ 0 <= f2r k <= 1 /\
    Rabs (f2r k - exp (- (f2r a * dist2 (map f2r q) (map f2r x)))) <= (INR d + 5) * bpow radix2 (-52) + eps.
  Proof.
    intros Da Ha Hq Hx Lq Lx Hd k. pose proof u64_pos as Hu. pose proof eta_pos as Hh. pose proof (pos_INR d) as Pd.
    assert (B52 : 2 * u64 = bpow radix2 (-52)) by (unfold u64; change 2 with (bpow radix2 1); rewrite <- bpow_plus; reflexivity).
    assert (HU : two49 * u64 = bpow radix2 (-4)) by (unfold two49, u64; rewrite <- bpow_plus; reflexivity).
    change (bpow radix2 (-4)) with (/ 16) in HU.
    assert (U3 : u64 <= / 1024) by (unfold u64; apply Rle_trans with (bpow radix2 (-10)); [apply bpow_le; lia|simpl; lra]).
    assert (Du : INR d * u64 <= / 16) by (rewrite <- HU; apply Rmult_le_compat_r; lra).
    assert (PS : forall j, (j <= d + 4)%nat -> 1 <= (1 + u64) ^ j <= 1 + 2 * ((INR d + 4) * u64)).
    { intros j Hj. assert (INR j <= INR d + 4) by (replace 4 with (INR 4) by (simpl; lra); rewrite <- plus_INR; now apply le_INR).
      assert (INR j * u64 <= (INR d + 4) * u64) by (apply Rmult_le_compat_r; lra).
      pose proof (pow_small j ltac:(lra)). lra. }
    set (uv := combine q x). assert (Lu : length uv = d) by (unfold uv; rewrite combine_length; lia).
    assert (Fu : Forall (fun xy => (dbl (fst xy) /\ Rabs (f2r (fst xy)) <= bpow radix2 400) /\ (dbl (snd xy) /\ Rabs (f2r (snd xy)) <= bpow radix2 400)) uv).
    { unfold coords_ok in *. rewrite Forall_forall in *. intros [y z] Hi. unfold uv in Hi. cbn [fst snd].
      split; [apply Hq; eapply in_combine_l; eauto|apply Hx; eapply in_combine_r; eauto]. }
    assert (A0 : approx_to 3 0 w0 0).
    { app_split; try lra; [exact dbl_0|rewrite f2r_0; lra|]. rewrite f2r_0, Rminus_0_r, Rabs_R0. lra. }
    assert (E850 : two49 * bpow radix2 802 = bpow radix2 851) by (unfold two49; rewrite <- bpow_plus; reflexivity).
    assert (Dl : INR d * bpow radix2 802 <= bpow radix2 852) by (apply Rle_trans with (bpow radix2 851); [rewrite <- E850; apply Rmult_le_compat_r; [apply bpow_ge_0|auto]|apply bpow_le; lia]).
    assert (Dh : INR d * eta <= bpow radix2 (-1025)).
    { apply Rle_trans with (bpow radix2 (-1026)); [|apply bpow_le; lia]. replace (bpow radix2 (-1026)) with (two49 * eta) by (unfold two49, eta; rewrite <- bpow_plus; reflexivity). apply Rmult_le_compat_r; lra. }
    assert (B1 : bpow radix2 (-1025) <= 1) by (change 1 with (bpow radix2 0); apply bpow_le; lia).
    assert (B2 : 1 <= bpow radix2 852) by (change 1 with (bpow radix2 0); apply bpow_le; lia).
    assert (B3 : 2 * bpow radix2 852 <= bpow radix2 900) by (change 2 with (bpow radix2 1); rewrite <- bpow_plus; apply bpow_le; lia).
    pose proof (PS (3 + d)%nat ltac:(lia)) as P3.
    pose proof (sq_loop uv 3 0 w0 0 Fu ltac:(lia) A0) as A. rewrite Lu in A. specialize (A ltac:(lra) ltac:(lra)).
    rewrite !Rplus_0_l in A. unfold uv in A. rewrite <- dist2_combine in A. fold (squared_distance q x) in A.
    set (D := dist2 (map f2r q) (map f2r x)) in *. set (c := squared_distance q x) in *.
    assert (DD : 0 <= D) by apply A.
    assert (DB : D <= bpow radix2 852).
    { eapply Rle_trans; [|exact Dl]. unfold D. rewrite dist2_combine, <- Lu. fold uv. clear - Fu.
      induction uv as [|[y z] l IH]; [cbn [lsum length INR]; lra|]. inversion Fu as [|? ? [[_ Hy] [_ Hz]] F']; subst. specialize (IH F').
      cbn [fst snd] in *. cbn [lsum fst snd]. change (length ((y, z) :: l)) with (Datatypes.S (length l)). rewrite S_INR.
      assert (Hd : Rabs (f2r y - f2r z) <= bpow radix2 401).
      { replace (f2r y - f2r z) with (f2r y + - f2r z) by ring. eapply Rle_trans; [apply Rabs_triang|]. rewrite Rabs_Ropp.
        change 401%Z with (1 + 400)%Z. rewrite bpow_plus. change (bpow radix2 1) with 2. lra. }
      assert ((f2r y - f2r z) ^ 2 <= bpow radix2 802); [|lra].
      rewrite <- Rsqr_pow2, Rsqr_abs. unfold Rsqr. change 802%Z with (401 + 401)%Z. rewrite bpow_plus. pose proof (Rabs_pos (f2r y - f2r z)). apply Rmult_le_compat; lra. }
    pose proof (bpow_gt_0 radix2 100) as P100. pose proof (bpow_gt_0 radix2 852) as P852.
    assert (C1 : f2r a * ((1 + u64) ^ (3 + d) * (D + INR d * eta)) <= bpow radix2 1000).
    { replace (bpow radix2 1000) with (bpow radix2 100 * bpow radix2 900) by (rewrite <- bpow_plus; reflexivity).
      assert (0 <= INR d * eta) by (apply Rmult_le_pos; lra).
      apply Rmult_le_compat; try lra; [apply Rmult_le_pos; lra|].
      apply Rle_trans with (2 * (2 * bpow radix2 852)); [apply Rmult_le_compat; lra|]. 
      replace (2 * (2 * bpow radix2 852)) with (bpow radix2 854); [apply bpow_le; lia|]. change 854%Z with (2 + 852)%Z. rewrite bpow_plus. change (bpow radix2 2) with 4. ring. }
    pose proof (app_scale (3 + d) (INR d * eta) c D a 1000 A Da (proj1 Ha) ltac:(lia) C1) as S1.
    set (t := f2r a * (INR d * eta) + eta) in *.
    assert (Ht : 0 <= t <= bpow radix2 (-900)).
    { assert (0 <= INR d * eta) by (apply Rmult_le_pos; lra). assert (0 <= f2r a * (INR d * eta)) by (apply Rmult_le_pos; lra).
      split; [unfold t; lra|]. assert (f2r a * (INR d * eta) <= bpow radix2 100 * bpow radix2 (-1025)) by (apply Rmult_le_compat; lra).
      rewrite <- bpow_plus in H1. change (100 + -1025)%Z with (-925)%Z in H1.
      assert (bpow radix2 (-925) <= bpow radix2 (-901)) by (apply bpow_le; lia). assert (eta <= bpow radix2 (-901)) by (apply bpow_le; lia).
      assert (bpow radix2 (-900) = 2 * bpow radix2 (-901)) by (change 2 with (bpow radix2 1); rewrite <- bpow_plus; reflexivity). unfold t. lra. }
    destruct S1 as (D1 & N1 & N2 & N3 & E1). destruct (fopp_spec _ D1) as [D2 E2].
    destruct HK as (He & _ & Hexp). destruct (Hexp (wopp (wmul a c)) D2 ltac:(rewrite E2; lra)) as (D3 & R3 & E3).
    change (wexp (wopp (wmul a c))) with k in D3, R3, E3. split; [exact D3|]. split; [exact R3|].
    rewrite E2 in E3. replace (3 + d + 1)%nat with (d + 4)%nat in E1 by lia. pose proof (PS (d + 4)%nat ltac:(lia)) as P4.
    assert (E1' : Rabs (f2r (wmul a c) - f2r a * D) <= (1 + 2 * ((INR d + 4) * u64)) * (f2r a * D + t) - f2r a * D).
    { eapply Rle_trans; [exact E1|]. apply Rplus_le_compat_r. apply Rmult_le_compat_r; lra. }
    pose proof (exp_perturb (f2r a * D) (f2r (wmul a c)) (2 * ((INR d + 4) * u64)) t N2 N1 ltac:(lra) ltac:(split; [|lra]; apply Rmult_le_pos; [lra|]; apply Rmult_le_pos; lra) E1') as X.
    replace (f2r k - exp (- (f2r a * D))) with ((f2r k - exp (- f2r (wmul a c))) + (exp (- f2r (wmul a c)) - exp (- (f2r a * D)))) by ring.
    eapply Rle_trans; [apply Rabs_triang|].
    assert (bpow radix2 (-900) <= u64) by (apply bpow_le; lia). rewrite <- B52. lra.
  Qed.

  (** ** The sum and the mean *)
  Lemma sum_loop (ks : list f64) : forall k acc S, Forall (fun x => dbl x /\ 0 <= f2r x <= 1) ks -> approx_sum k acc S ->
    (1 + u64) ^ (k + length ks) <= 2 -> S + INR (length ks) <= bpow radix2 60 ->
    approx_sum (k + length ks) (fold_left wadd ks acc) (S + lsum f2r ks).
  Proof.
    pose proof u64_pos as Hu. induction ks as [|x ks IH]; intros k acc S F A Hp Hb.
    - cbn [fold_left lsum length]. rewrite Nat.add_0_r, Rplus_0_r. exact A.
    - inversion F as [|? ? [Dx Hx] F']; subst. cbn [fold_left lsum]. change (length (x :: ks)) with (Datatypes.S (length ks)) in *. rewrite S_INR in Hb.
      pose proof (pos_INR (length ks)).
      replace (k + Datatypes.S (length ks))%nat with (k + 1 + length ks)%nat in * by lia.
      assert (A' : approx_sum (k + 1) (wadd acc x) (S + f2r x)).
      { apply approx_step; auto; [apply Hx|]. pose proof A as (_ & _ & S0 & _).
        apply Rle_lt_trans with (2 * bpow radix2 60).
        - apply Rmult_le_compat; try lra; [left; apply pow_lt; lra|]. eapply Rle_trans; [|exact Hp]. apply Rle_pow; lra || lia.
        - change 2 with (bpow radix2 1). rewrite <- bpow_plus. apply bpow_lt. lia. }
      replace (S + (f2r x + lsum f2r ks)) with (S + f2r x + lsum f2r ks) by ring. apply IH; auto. lra.
  Qed.
  Lemma fold_kernel (a : f64) q (data : list (list f64)) : forall acc,
    fold_left (fun total x => wadd total (gaussian_kernel a q x)) data acc = fold_left wadd (map (gaussian_kernel a q) data) acc.
  Proof. induction data as [|x data IH]; intros acc; cbn [fold_left map]; auto. Qed.

  (** What the sum of the kernels is. *)
  Definition kernel_sum (a : f64) (data : list (list f64)) (q : list f64) : f64 := fold_left wadd (map (gaussian_kernel a q) data) w0.
  Definition input_ok (a : f64) (data : list (list f64)) (q : list f64) (d : nat) : Prop :=
    dbl a /\ 0 <= f2r a <= bpow radix2 100 /\ coords_ok q /\ length q = d /\
    Forall (fun x => coords_ok x /\ length x = d) data /\ (1 <= length data)%nat /\ INR (length data) <= two49 /\ INR d <= two49.
  Lemma kernels_ok a data q d : input_ok a data q d -> Forall (fun x => dbl x /\ 0 <= f2r x <= 1) (map (gaussian_kernel a q) data).
  Proof.
    intros (Da & Ha & Hq & Lq & Hx & _ & _ & Hd). rewrite Forall_forall in *. intros y Hy. apply in_map_iff in Hy. destruct Hy as (x & <- & Hi).
    destruct (Hx x Hi) as [Cx Lx]. destruct (kernel_error a q x d) as (D & R & _); auto.
  Qed.
  Lemma sum_facts a data q d : input_ok a data q d ->
    approx_sum (length data) (kernel_sum a data q) (lsum (fun x => f2r (gaussian_kernel a q x)) data) /\
    0 <= lsum (fun x => f2r (gaussian_kernel a q x)) data <= INR (length data) /\ (1 + u64) ^ length data <= 1 + 2 * (INR (length data) * u64) /\
    INR (length data) * u64 <= / 16.
  Proof.
    intros HI. pose proof (kernels_ok a data q d HI) as F. destruct HI as (_ & _ & _ & _ & _ & _ & HN & _).
    pose proof u64_pos as Hu. pose proof (pos_INR (length data)) as PN.
    assert (HU : two49 * u64 = bpow radix2 (-4)) by (unfold two49, u64; rewrite <- bpow_plus; reflexivity).
    change (bpow radix2 (-4)) with (/ 16) in HU.
    assert (Du : INR (length data) * u64 <= / 16) by (rewrite <- HU; apply Rmult_le_compat_r; lra).
    pose proof (pow_small (length data) ltac:(lra)) as PS.
    assert (G : forall l, Forall (fun x => dbl x /\ 0 <= f2r x <= 1) l -> 0 <= lsum f2r l <= INR (length l)).
    { induction l as [|x l IH]; intros Fl; [cbn [lsum length INR]; lra|].
      inversion Fl as [|? ? [_ Hx] F']; subst. specialize (IH F'). cbn [lsum]. change (length (x :: l)) with (Datatypes.S (length l)). rewrite S_INR. lra. }
    specialize (G _ F). rewrite map_length, lsum_map in G.
    pose proof (sum_loop (map (gaussian_kernel a q) data) 0 w0 0 F) as A. rewrite map_length, lsum_map in A. rewrite !Rplus_0_l in A. rewrite Nat.add_0_l in A. unfold Kde.point in *.
    split; [|split; [|split; [lra|exact Du]]].
    - apply A; [apply approx_exact; [exact dbl_0|rewrite f2r_0; lra]| |].
      + lra.
      + eapply Rle_trans; [exact HN|]. apply bpow_le. lia.
    - exact G.
  Qed.
  Lemma count_small (data : list (list f64)) : INR (length data) <= two49 -> small_int (Z.of_nat (length data)).
  Proof.
    intros H. unfold small_int. rewrite Z.abs_eq by lia. apply le_IZR. rewrite <- INR_IZR_INZ. eapply Rle_trans; [exact H|].
    rewrite bpow_INR by lia. apply bpow_le. lia.
  Qed.
  Theorem query_error (a : f64) (data : list (list f64)) (q : list f64) d : input_ok a data q d ->
    let n := length data in
    let r := exact_query (exact_kde_new data a) q in
    dbl r /\ 0 <= f2r r /\
    Rabs (f2r r - lsum (fun x => exp (- (f2r a * dist2 (map f2r q) (map f2r x)))) data / INR n) <= (INR n + INR d + 7) * bpow radix2 (-52) + eps.
  Proof.
    intros HI n r. pose proof u64_pos as Hu. pose proof eta_pos as Hh.
    destruct (sum_facts a data q d HI) as (A & SB & PS & NU). pose proof HI as (Da & Ha & Hq & Lq & Hx & H1 & HN & Hd).
    assert (B52 : 2 * u64 = bpow radix2 (-52)) by (unfold u64; change 2 with (bpow radix2 1); rewrite <- bpow_plus; reflexivity).
    fold n in A, SB, PS, NU, HN, H1. assert (Pn : 1 <= INR n) by (replace 1 with (INR 1) by reflexivity; now apply le_INR).
    set (SK := lsum (fun x => f2r (gaussian_kernel a q x)) data) in *. set (T := kernel_sum a data q) in *.
    set (SE := lsum (fun x => exp (- (f2r a * dist2 (map f2r q) (map f2r x)))) data).
    destruct (zf_spec (Z.of_nat n) (count_small data HN)) as [Dz Ez]. rewrite <- INR_IZR_INZ in Ez.
    assert (Er : r = wdiv T (zf (Z.of_nat n))).
    { unfold r, exact_query, gaussian_kde_exact. cbn [ex_a ex_data exact_kde_new]. rewrite fold_kernel. destruct HK as (_ & HZ & _). rewrite HZ by (apply count_small; exact HN). reflexivity. }
    pose proof (approx_upper _ _ _ A) as UT. destruct A as (DT & PT & _ & ET). pose proof (pow_u_ge1 n) as Pw.
    assert (U2 : f2r T <= 2 * INR n).
    { eapply Rle_trans; [exact UT|]. apply Rmult_le_compat; lra. }
    assert (Q2 : 0 <= f2r T / INR n <= 2).
    { split; [unfold Rdiv; apply Rmult_le_pos; [lra|left; apply Rinv_0_lt_compat; lra]|]. apply (Rmult_le_reg_r (INR n)); [lra|]. unfold Rdiv. rewrite Rmult_assoc, Rinv_l by lra. lra. }
    destruct (fdiv_spec T (zf (Z.of_nat n)) DT Dz) as [Dr Erv]; [rewrite Ez; lra| |].
    { rewrite Ez. apply (fits _ 1); [lia|]. rewrite Rabs_pos_eq by lra. change (bpow radix2 1) with 2. lra. }
    rewrite Ez in Erv. rewrite <- Er in Dr, Erv. split; [exact Dr|]. split; [rewrite Erv; apply rnd_nonneg; lra|].
    pose proof (rnd_err (f2r T / INR n)) as RE. rewrite <- Erv in RE. rewrite (Rabs_pos_eq (f2r T / INR n)) in RE by lra.
    assert (KE : Rabs (SK - SE) <= INR n * ((INR d + 5) * bpow radix2 (-52) + eps)).
    { unfold SK, SE, n. clear - HK Da Ha Hq Lq Hx Hd Hu. induction data as [|x l IH]; [cbn [lsum length INR]; rewrite Rminus_diag_eq, Rabs_R0 by reflexivity; lra|].
      inversion Hx as [|? ? [Cx Lx] Hx']; subst. specialize (IH Hx'). cbn [lsum]. change (length (x :: l)) with (Datatypes.S (length l)). rewrite S_INR.
      destruct (kernel_error a q x (length q) Da Ha Hq Cx eq_refl Lx Hd) as (_ & _ & E).
      match goal with |- Rabs (?p + ?s - (?p' + ?s')) <= _ => replace (p + s - (p' + s')) with ((p - p') + (s - s')) by ring end.
      eapply Rle_trans; [apply Rabs_triang|]. lra. }
    replace (f2r r - SE / INR n) with ((f2r r - f2r T / INR n) + ((f2r T - SK) / INR n + (SK - SE) / INR n)) by (field; lra).
    eapply Rle_trans; [apply Rabs_triang|]. eapply Rle_trans; [apply Rplus_le_compat_l, Rabs_triang|].
    assert (In' : 0 < / INR n) by (apply Rinv_0_lt_compat; lra).
    unfold Rdiv. rewrite !Rabs_mult, (Rabs_pos_eq (/ INR n)) by lra.
    assert (X1 : Rabs (f2r T - SK) * / INR n <= 2 * (INR n * u64)).
    { apply (Rmult_le_reg_r (INR n)); [lra|]. rewrite Rmult_assoc, Rinv_l, Rmult_1_r by lra. eapply Rle_trans; [exact ET|].
      apply Rmult_le_compat; lra. }
    assert (X2 : Rabs (SK - SE) * / INR n <= (INR d + 5) * bpow radix2 (-52) + eps).
    { apply (Rmult_le_reg_r (INR n)); [lra|]. rewrite Rmult_assoc, Rinv_l, Rmult_1_r by lra. lra. }
    assert (X3 : eta <= u64) by (apply bpow_le; lia). unfold Rdiv in RE. 
    assert (X4 : u64 * (f2r T * / INR n) <= u64 * 2) by (apply Rmult_le_compat_l; unfold Rdiv in Q2; lra).
    rewrite <- B52 in *. lra.
  Qed.

  (** ** Sampling from a leaf: the target never reaches the sum of the kernels *)
  Lemma degree_below a data q d : input_ok a data q d -> bpow radix2 (-900) <= f2r (kernel_sum a data q) ->
    let deg := wmul (zf (Z.of_nat (length data) - 1)) (gaussian_kde_exact a data q) in
    dbl deg /\ 0 <= f2r deg /\ f2r deg < f2r (kernel_sum a data q) /\ ((2 <= length data)%nat -> bpow radix2 (-951) <= f2r deg).
  Proof.
    intros HI HL deg. pose proof u64_pos as Hu. destruct (sum_facts a data q d HI) as (A & SB & PS & NU). pose proof HI as (_ & _ & _ & _ & _ & H1 & HN & _).
    set (n := length data) in *. assert (Pn : 1 <= INR n) by (replace 1 with (INR 1) by reflexivity; now apply le_INR).
    set (T := kernel_sum a data q) in *. pose proof (approx_upper _ _ _ A) as UT. destruct A as (DT & PT & _ & _). pose proof (pow_u_ge1 n) as Pw.
    pose proof (bpow_gt_0 radix2 (-900)) as P900.
    pose proof (count_small data HN) as Sn. fold n in Sn. destruct (zf_spec (Z.of_nat n) Sn) as [Dz Ez]. rewrite <- INR_IZR_INZ in Ez.
    assert (Sn1 : small_int (Z.of_nat n - 1)) by (unfold small_int in *; lia). destruct (zf_spec _ Sn1) as [Dz1 Ez1]. rewrite minus_IZR, <- INR_IZR_INZ in Ez1.
    assert (Er : gaussian_kde_exact a data q = wdiv T (zf (Z.of_nat n))).
    { unfold gaussian_kde_exact. rewrite fold_kernel. destruct HK as (_ & HZ & _). rewrite HZ by exact Sn. reflexivity. }
    assert (HN9 : INR n <= bpow radix2 49) by exact HN.
    assert (U2 : f2r T <= 2 * INR n) by (eapply Rle_trans; [exact UT|]; apply Rmult_le_compat; lra).
    assert (In' : 0 < / INR n) by (apply Rinv_0_lt_compat; lra).
    assert (Q2 : 0 <= f2r T / INR n <= 2).
    { split; [unfold Rdiv; apply Rmult_le_pos; lra|]. apply (Rmult_le_reg_r (INR n)); [lra|]. unfold Rdiv. rewrite Rmult_assoc, Rinv_l by lra. lra. }
    assert (Q1 : bpow radix2 (-949) <= f2r T / INR n).
    { apply (Rmult_le_reg_r (INR n)); [lra|]. unfold Rdiv. rewrite Rmult_assoc, Rinv_l, Rmult_1_r by lra.
      apply Rle_trans with (bpow radix2 (-949) * bpow radix2 49); [apply Rmult_le_compat_l; [apply bpow_ge_0|lra]|]. rewrite <- bpow_plus. exact HL. }
    destruct (fdiv_spec T (zf (Z.of_nat n)) DT Dz) as [Dr Erv]; [rewrite Ez; lra| |].
    { rewrite Ez. apply (fits _ 1); [lia|]. rewrite Rabs_pos_eq by lra. change (bpow radix2 1) with 2. lra. }
    rewrite Ez in Erv. rewrite <- Er in Dr, Erv. set (v := gaussian_kde_exact a data q) in *.
    assert (L1000 : bpow radix2 (-1000) <= bpow radix2 (-949)) by (apply bpow_le; lia).
    pose proof (rnd_rel (f2r T / INR n) ltac:(right; lra)) as RE. rewrite <- Erv in RE. apply Rabs_le_inv in RE.
    assert (U3 : u64 <= / 1024) by (unfold u64; apply Rle_trans with (bpow radix2 (-10)); [apply bpow_le; lia|simpl; lra]).
    set (x := f2r T / INR n) in *. assert (Ex : x * INR n = f2r T) by (unfold x; field; lra).
    assert (V1 : f2r v <= (1 + u64) * x) by lra. assert (ux : 0 <= u64 * x) by (apply Rmult_le_pos; lra).
    assert (ux2 : u64 * x <= / 1024 * x) by (apply Rmult_le_compat_r; lra).
    assert (E949 : bpow radix2 (-949) = 2 * bpow radix2 (-950)) by (change 2 with (bpow radix2 1); rewrite <- bpow_plus; reflexivity).
    assert (E950 : bpow radix2 (-950) = 2 * bpow radix2 (-951)) by (change 2 with (bpow radix2 1); rewrite <- bpow_plus; reflexivity).
    assert (L951 : bpow radix2 (-1000) <= bpow radix2 (-951)) by (apply bpow_le; lia).
    pose proof (bpow_gt_0 radix2 (-1000)) as P1000.
    assert (V2 : bpow radix2 (-950) <= f2r v) by lra.
    assert (PV : 0 <= (INR n - 1) * f2r v) by (apply Rmult_le_pos; lra).
    assert (BV : (INR n - 1) * f2r v <= bpow radix2 60).
    { apply Rle_trans with (bpow radix2 49 * 4); [apply Rmult_le_compat; lra|]. change 4 with (bpow radix2 2). rewrite <- bpow_plus. apply bpow_le. lia. }
    destruct (fmul_spec (zf (Z.of_nat n - 1)) v Dz1 Dr) as [Dd Ed].
    { rewrite Ez1. apply (fits _ 60); [lia|]. rewrite Rabs_pos_eq; lra. }
    rewrite Ez1 in Ed. fold deg in Dd, Ed. split; [exact Dd|]. split; [rewrite Ed; now apply rnd_nonneg|].
    assert (G2 : (2 <= n)%nat -> bpow radix2 (-950) <= (INR n - 1) * f2r v).
    { intros N2. assert (2 <= INR n) by (replace 2 with (INR 2) by (simpl; lra); now apply le_INR).
      rewrite <- (Rmult_1_l (bpow radix2 (-950))). apply Rmult_le_compat; lra. }
    assert (RD : (INR n - 1) * f2r v = 0 \/ bpow radix2 (-1000) <= (INR n - 1) * f2r v).
    { destruct (Nat.eq_dec n 1) as [E|NE]; [left; rewrite E; simpl; ring|right]. specialize (G2 ltac:(lia)). lra. }
    pose proof (rnd_rel _ RD) as RE2. rewrite <- Ed in RE2. apply Rabs_le_inv in RE2.
    assert (u64 * ((INR n - 1) * f2r v) <= / 1024 * ((INR n - 1) * f2r v)) by (apply Rmult_le_compat_r; lra).
    split; [|intros N2; specialize (G2 N2); lra].
    assert (D2 : f2r deg <= (1 + u64) * ((INR n - 1) * f2r v)) by lra.
    assert (D3 : (1 + u64) * ((INR n - 1) * f2r v) <= (1 + u64) * ((INR n - 1) * ((1 + u64) * x))) by (apply Rmult_le_compat_l; [lra|]; apply Rmult_le_compat_l; lra).
    assert (D4 : (1 + u64) * ((INR n - 1) * (1 + u64)) < INR n).
    { assert ((INR n - 1) * u64 <= / 16) by (assert (INR n * u64 - u64 <= / 16) by lra; lra). 
      replace ((1 + u64) * ((INR n - 1) * (1 + u64))) with ((INR n - 1) + 2 * ((INR n - 1) * u64) + u64 * ((INR n - 1) * u64)) by ring.
      assert (0 <= (INR n - 1) * u64) by (apply Rmult_le_pos; lra).
      assert (u64 * ((INR n - 1) * u64) <= 1 * ((INR n - 1) * u64)) by (apply Rmult_le_compat_r; lra). lra. }
    assert (D5 : (1 + u64) * ((INR n - 1) * ((1 + u64) * x)) < f2r T).
    { rewrite <- Ex. replace ((1 + u64) * ((INR n - 1) * ((1 + u64) * x))) with (x * ((1 + u64) * ((INR n - 1) * (1 + u64)))) by ring.
      apply Rmult_lt_compat_l; lra. }
    lra.
  Qed.
  Lemma degree_error a data q d : input_ok a data q d ->
    let n := length data in
    let deg := wmul (zf (Z.of_nat n - 1)) (gaussian_kde_exact a data q) in
    Rabs (f2r deg - INR (n - 1) * (lsum (fun x => exp (- (f2r a * dist2 (map f2r q) (map f2r x)))) data / INR n)) <=
    INR n * ((INR n + INR d + 9) * bpow radix2 (-52) + eps).
  Proof.
    intros HI n deg. pose proof u64_pos as Hu. pose proof eta_pos as Hh. pose proof HI as (_ & _ & _ & _ & _ & H1 & HN & Hd).
    destruct (query_error a data q d HI) as (Dv & Pv & Ev). change (exact_query (exact_kde_new data a) q) with (gaussian_kde_exact a data q) in *. fold n in Ev, H1, HN.
    set (v := gaussian_kde_exact a data q) in *. set (mean := lsum (fun x => exp (- (f2r a * dist2 (map f2r q) (map f2r x)))) data / INR n) in *.
    assert (B52 : 2 * u64 = bpow radix2 (-52)) by (unfold u64; change 2 with (bpow radix2 1); rewrite <- bpow_plus; reflexivity).
    assert (Pn : 1 <= INR n) by (replace 1 with (INR 1) by reflexivity; now apply le_INR).
    destruct HK as (He & HZ & _).
    assert (V4 : f2r v <= 3).
    { destruct (sum_facts a data q d HI) as (A & SB & PS & NU). fold n in A, SB, PS, NU. pose proof (approx_upper _ _ _ A) as UT. destruct A as (DT & PT & _ & _).
      pose proof (pow_u_ge1 n) as Pw. set (T := kernel_sum a data q) in *.
      assert (U2 : f2r T <= 2 * INR n) by (eapply Rle_trans; [exact UT|]; apply Rmult_le_compat; lra).
      pose proof (count_small data HN) as Sn. fold n in Sn. destruct (zf_spec (Z.of_nat n) Sn) as [Dz Ez]. rewrite <- INR_IZR_INZ in Ez.
      assert (Er : v = wdiv T (zf (Z.of_nat n))).
      { unfold v, gaussian_kde_exact. rewrite fold_kernel. rewrite HZ by exact Sn. reflexivity. }
      assert (In' : 0 < / INR n) by (apply Rinv_0_lt_compat; lra).
      assert (Q2 : 0 <= f2r T / INR n <= 2).
      { split; [unfold Rdiv; apply Rmult_le_pos; lra|]. apply (Rmult_le_reg_r (INR n)); [lra|]. unfold Rdiv. rewrite Rmult_assoc, Rinv_l by lra. lra. }
      destruct (fdiv_spec T (zf (Z.of_nat n)) DT Dz) as [Dr Erv]; [rewrite Ez; lra| |].
      { rewrite Ez. apply (fits _ 1); [lia|]. rewrite Rabs_pos_eq by lra. change (bpow radix2 1) with 2. lra. }
      rewrite Ez, <- Er in Erv. pose proof (rnd_le (f2r T / INR n) 1 ltac:(lia)) as RL. rewrite (Rabs_pos_eq (f2r T / INR n)) in RL by lra.
      change (bpow radix2 1) with 2 in RL. specialize (RL ltac:(lra)). apply Rabs_le_inv in RL. lra. }
    assert (Sn1 : small_int (Z.of_nat n - 1)) by (pose proof (count_small data HN); unfold small_int in *; lia).
    destruct (zf_spec _ Sn1) as [Dz1 Ez1]. rewrite minus_IZR, <- INR_IZR_INZ in Ez1.
    assert (HN9 : INR n <= bpow radix2 49) by exact HN.
    assert (PV : 0 <= (INR n - 1) * f2r v) by (apply Rmult_le_pos; lra).
    assert (BV : (INR n - 1) * f2r v <= bpow radix2 60).
    { apply Rle_trans with (bpow radix2 49 * 4); [apply Rmult_le_compat; lra|]. change 4 with (bpow radix2 2). rewrite <- bpow_plus. apply bpow_le. lia. }
    destruct (fmul_spec (zf (Z.of_nat n - 1)) v Dz1 Dv) as [Dd Ed].
    { rewrite Ez1. apply (fits _ 60); [lia|]. rewrite Rabs_pos_eq; lra. }
    rewrite Ez1 in Ed. fold deg in Dd, Ed. pose proof (rnd_err ((INR n - 1) * f2r v)) as RE. rewrite <- Ed in RE. rewrite (Rabs_pos_eq ((INR n - 1) * f2r v)) in RE by lra.
    rewrite minus_INR by exact H1. change (INR 1) with 1.
    replace (f2r deg - (INR n - 1) * mean) with ((f2r deg - (INR n - 1) * f2r v) + (INR n - 1) * (f2r v - mean)) by ring.
    eapply Rle_trans; [apply Rabs_triang|]. rewrite Rabs_mult, (Rabs_pos_eq (INR n - 1)) by lra.
    set (e1 := (INR n + INR d + 7) * bpow radix2 (-52) + eps) in *.
    assert (E1 : (INR n - 1) * Rabs (f2r v - mean) <= INR n * e1).
    { apply Rmult_le_compat; try lra. apply Rabs_pos. }
    assert (E2 : u64 * ((INR n - 1) * f2r v) <= u64 * (INR n * 3)) by (apply Rmult_le_compat_l; [lra|]; apply Rmult_le_compat; lra).
    assert (E3 : eta <= u64 * 1) by (rewrite Rmult_1_r; apply bpow_le; lia).
    assert (E4 : u64 * 1 <= u64 * INR n) by (apply Rmult_le_compat_l; lra).
    unfold e1 in *. rewrite <- B52 in *. lra.
  Qed.
  Lemma target_below (deg r T : f64) : dbl deg -> 0 <= f2r deg -> dbl r -> 0 <= f2r r <= 1 -> dbl T -> f2r deg < f2r T -> wltb (wmul deg r) T = true.
  Proof.
    intros Dd Pd Dr Hr DT L. assert (B : 0 <= f2r deg * f2r r <= f2r deg).
    { split; [apply Rmult_le_pos; lra|]. rewrite <- (Rmult_1_r (f2r deg)) at 2. apply Rmult_le_compat_l; lra. }
    assert (M : rnd64 (f2r deg * f2r r) <= f2r deg).
    { rewrite <- (rnd_dbl deg Dd) at 2. unfold rnd64. apply round_le; [apply FLT_exp_valid; reflexivity|apply valid_rnd_N|]. lra. }
    pose proof (rnd_nonneg _ (proj1 B)) as P0. pose proof (dbl_range deg Dd) as RG. unfold in_range in RG. rewrite (Rabs_pos_eq _ Pd) in RG.
    destruct (fmul_spec deg r Dd Dr) as [Dm Em]; [unfold in_range; rewrite Rabs_pos_eq by auto; lra|].
    apply fltb_spec; auto. rewrite Em. lra.
  Qed.
End K.

(** Whatever the arithmetic: if all targets are below the sum, every target gives a sample. *)
Section Loop.
  Context {W : Type} `{Num W} `{!PosNum W} `{KNum W}.
  Lemma take_below_all (t : W) l : Forall (fun x => wltb x t = true) l -> take_below t l = length l.
  Proof. induction 1 as [|x l E _ IH]; [reflexivity|]. cbn [take_below length]. now rewrite E, IH. Qed.
  Lemma sample_loop_length (ks : list W) : forall i total targets, ks <> [] -> Forall (fun t => wltb t (fold_left wadd ks total) = true) targets ->
    length (sample_loop i ks total targets) = length targets.
  Proof.
    induction ks as [|k ks IH]; intros i total targets Hk F; [congruence|]. cbn [sample_loop fold_left] in *.
    set (c := take_below (wadd total k) targets). rewrite app_length, repeat_length.
    assert (L : (c + length (skipn c targets) = length targets)%nat).
    { pose proof (take_below_le (wadd total k) targets) as Lc. fold c in Lc. rewrite skipn_length. lia. }
    destruct ks as [|k' ks].
    - cbn [fold_left] in F. assert (c = length targets) by (apply take_below_all; exact F).
      destruct (skipn c targets) eqn:E; cbn [sample_loop length] in *; lia.
    - assert (Fs : Forall (fun t => wltb t (fold_left wadd (k' :: ks) (wadd total k)) = true) (skipn c targets)).
      { rewrite Forall_forall in *. intros x Hx. apply F. rewrite <- (firstn_skipn c targets). apply in_or_app. now right. }
      destruct (skipn c targets) as [|t ts] eqn:E; [cbn [length] in *; lia|]. rewrite IH; [lia|discriminate|exact Fs].
  Qed.
  Lemma sample_loop_ids (ks : list W) : forall i total targets x, In x (sample_loop i ks total targets) -> (i <= x < i + length ks)%nat.
  Proof.
    induction ks as [|k ks IH]; intros i total targets x Hx; [destruct Hx|]. cbn [sample_loop length] in *. apply in_app_or in Hx as [Hx|Hx].
    - apply repeat_spec in Hx. lia.
    - destruct (skipn _ targets); [destruct Hx|]. apply IH in Hx. lia.
  Qed.
End Loop.
