(** The power method without a spectral gap (C102). *)
From Verif Require Import Base Num RSum Sparse SparseFacts Graph GraphSpec Spectrum SpectrumSpec SpectrumFacts SpectrumPower.
From Coq Require Import Reals Lra Psatz.
From Flocq Require Import Core.
Local Open Scope nat_scope.

(** repo: spectrum.cpp:179-183: the number of iterations of the overloads without one, 10 * (int) ceil(log(n)).
    Simplification: the logarithm is the real one. *)
Definition default_iterations (n : nat) : Z := (10 * Zceil (ln (INR n)))%Z.

Section Moments.
  Variables (n : nat) (M : nat -> nat -> R).
  Hypothesis HM : forall i j, i < n -> j < n -> M i j = M j i.
  Hypothesis HP : psd n M.
  Variable x : nat -> R.
  Local Notation z t := (mpow n M t x).
  Local Notation s t := (dot n (mpow n M t x) (mpow n M t x)).
  Local Notation h t := (quad n M (mpow n M t x)).
  Lemma cs_even t : (h t ^ 2 <= s t * s (S t))%R.
  Proof. rewrite quad_dot. apply dot_cs. Qed.
  Lemma cs_odd t : (s (S t) ^ 2 <= h t * h (S t))%R.
  Proof.
    pose proof (form_cs n M HM (z t) (z (S t)) HP) as C. replace (dot n (z t) (mulv n M (z (S t)))) with (s (S t)) in C; [exact C|].
    symmetry. exact (dot_mulv_sym n M HM (z t) (z (S t))).
  Qed.
  Lemma moments t : (0 < s t)%R -> (s t <= (h t / s t) ^ (2 * t) * s 0)%R.
  Proof.
    induction t as [|t IH]; intros P1; [change (2 * 0) with 0; cbn [pow]; rewrite Rmult_1_l; apply Rle_refl|].
    pose proof (cs_even t) as C1. pose proof (cs_odd t) as C2.
    pose proof (HP (z t)) as H0. pose proof (HP (z (S t))) as H1. pose proof (dot_nonneg n (z t)) as S0.
    pose proof (rayleigh_step n M (z t) HM HP) as RS. change (mulv n M (z t)) with (z (S t)) in RS.
    assert (0 < s (S t) ^ 2)%R as PS by (apply pow_lt; exact P1).
    assert (0 < h t)%R as PH by (destruct H0 as [|E]; [assumption|rewrite <- E in C2; lra]).
    assert (0 < h t ^ 2)%R as PH2 by (apply pow_lt; exact PH).
    assert (0 < s t)%R as P0 by (destruct S0 as [|E]; [assumption|rewrite <- E in C1; lra]).
    specialize (IH P0). specialize (RS ltac:(lra)).
    set (r0 := (h t / s t)%R) in *. set (r1 := (h (S t) / s (S t))%R) in *.
    assert (0 < r0)%R as PR by (apply Rdiv_lt_0_compat; assumption).
    (* s (t+1) <= r1 h t <= r1^2 s t *)
    assert (s (S t) <= r1 * h t)%R as L1.
    { apply Rmult_le_reg_r with (s (S t)); [lra|]. replace (r1 * h t * s (S t))%R with (h t * h (S t))%R by (unfold r1; field; lra). replace (s (S t) * s (S t))%R with (s (S t) ^ 2)%R by ring. exact C2. }
    assert (h t <= r1 * s t)%R as L2.
    { replace (h t) with (r0 * s t)%R by (unfold r0; field; lra). apply Rmult_le_compat_r; lra. }
    assert (s (S t) <= r1 * (r1 * s t))%R as L3 by (eapply Rle_trans; [exact L1|]; apply Rmult_le_compat_l; lra).
    eapply Rle_trans; [exact L3|]. replace (2 * S t) with (S (S (2 * t))) by lia. cbn [pow]. rewrite !Rmult_assoc.
    apply Rmult_le_compat_l; [lra|]. apply Rmult_le_compat_l; [lra|].
    eapply Rle_trans; [exact IH|]. apply Rmult_le_compat_r; [apply dot_nonneg|]. apply pow_incr. lra.
  Qed.
  Lemma component l v t : eigenpair n M l v -> dot n (z t) v = (l ^ t * dot n x v)%R.
  Proof.
    intros E. induction t as [|t IH]; [cbn [mpow pow]; ring|]. cbn [mpow pow]. rewrite <- (dot_mulv_sym n M HM (z t) v).
    rewrite (dot_ext n _ (z t) _ (fun i => l * v i)%R) by auto. rewrite dot_sym, dot_scal_l, dot_sym, IH. ring.
  Qed.
End Moments.

(** The Rayleigh quotient of the result of t iterations from x. *)
Theorem power_quality (M : sprs R) n num x y l v : sp_square M n -> (forall i j, i < n -> j < n -> coeff M i j = coeff M j i) -> psd n (coeff M) ->
  length x = n -> (0 <= num)%Z -> eigenpair n (coeff M) l v -> dot n v v = 1%R -> (0 < l)%R -> dot n (vx x) v <> 0%R -> power_method M num x = Ok y ->
  exists q, rayleigh_quotient M y = Ok q /\ (0 <= q)%R /\ (l ^ (2 * Z.to_nat num) * dot n (vx x) v ^ 2 <= q ^ (2 * Z.to_nat num) * dot n (vx x) (vx x))%R.
Proof.
  intros Hs Hsy P Hx Hn E V1 PL N Hy. set (t := Z.to_nat num).
  assert (Nat.iter t (power_step M) x = y) as EY.
  { pose proof Hs as (Hr & Hc & _). unfold power_method in Hy. rewrite Hr, Hc, Hx, !Nat.eqb_refl in Hy. cbn [negb] in Hy. destruct (Z.ltb_spec num 0); [lia|]. now injection Hy. }
  destruct (power_iter n M x Hs Hx t) as (c & Hc & Lc & Ec & _). rewrite EY in Lc, Ec.
  set (z := mpow n (coeff M) t (vx x)) in *.
  pose proof (component n (coeff M) Hsy (vx x) l v t E) as C. fold z in C.
  assert (l ^ (2 * t) * dot n (vx x) v ^ 2 <= dot n z z)%R as LS.
  { pose proof (dot_cs n z v) as CS. rewrite V1, Rmult_1_r, C in CS. replace (l ^ (2 * t))%R with (l ^ t * l ^ t)%R by (rewrite <- pow_add; f_equal; lia).
    eapply Rle_trans; [|exact CS]. right. ring. }
  assert (0 < dot n z z)%R as PZ.
  { eapply Rlt_le_trans; [|exact LS]. apply Rmult_lt_0_compat; [now apply pow_lt|]. rewrite <- Rsqr_pow2. now apply Rsqr_pos_lt. }
  assert (dot n (vx y) (vx y) = c * c * dot n z z)%R as Ed by (rewrite (dot_ext n _ (fun i => c * z i)%R _ (fun i => c * z i)%R) by auto; apply dot_scal).
  assert (dot n (vx y) (vx y) <> 0)%R as NY.
  { rewrite Ed. assert (0 < c * c * dot n z z)%R; [|lra]. apply Rmult_lt_0_compat; [now apply Rmult_lt_0_compat|assumption]. }
  rewrite (rayleigh_spec M n) by auto. destruct (Req_EM_T _ 0); [contradiction|]. eexists. split; [reflexivity|].
  rewrite (quad_ext_vec n _ (vx y) (fun i => c * z i)%R) by auto. rewrite quad_scal, Ed.
  replace (c * c * quad n (coeff M) z / (c * c * dot n z z))%R with (quad n (coeff M) z / dot n z z)%R by (field; split; lra).
  split; [apply Rmult_le_pos; [apply P|left; now apply Rinv_0_lt_compat]|].
  eapply Rle_trans; [exact LS|]. exact (moments n (coeff M) Hsy P (vx x) t PZ).
Qed.
(** The form with a root: share of the start in the direction v at least exp(-a). *)
Lemma quality_exp q l t a (d : R) : (0 <= q)%R -> (0 < l)%R -> 0 < t -> (0 < d)%R -> forall b, (exp (- a) * d <= b ^ 2)%R ->
  (l ^ (2 * t) * b ^ 2 <= q ^ (2 * t) * d)%R -> (l * exp (- a / (2 * INR t)) <= q)%R.
Proof.
  intros Pq Pl Pt Pd b Hb Hq. destruct (Rle_dec (l * exp (- a / (2 * INR t))) q) as [|N]; [assumption|exfalso]. apply Rnot_le_lt in N.
  assert (0 < INR t)%R as PT by (apply (lt_INR 0); lia).
  assert (q ^ (2 * t) < (l * exp (- a / (2 * INR t))) ^ (2 * t))%R as L.
  { destruct t as [|t]; [lia|]. replace (2 * S t) with (S (2 * t + 1)) by lia. cbn [pow]. apply Rle_lt_trans with (q * (l * exp (- a / (2 * INR (S t)))) ^ (2 * t + 1))%R.
    - apply Rmult_le_compat_l; [assumption|]. apply pow_incr. lra.
    - apply Rmult_lt_compat_r; [apply pow_lt; apply Rmult_lt_0_compat; [assumption|apply exp_pos]|exact N]. }
  rewrite Rpow_mult_distr in L. replace (exp (- a / (2 * INR t)) ^ (2 * t))%R with (exp (- a)) in L.
  - assert (l ^ (2 * t) * (exp (- a) * d) <= l ^ (2 * t) * b ^ 2)%R by (apply Rmult_le_compat_l; [left; now apply pow_lt|assumption]).
    assert (q ^ (2 * t) * d < l ^ (2 * t) * exp (- a) * d)%R by (apply Rmult_lt_compat_r; assumption). lra.
  - rewrite <- Rpower_pow by apply exp_pos. unfold Rpower. rewrite ln_exp. f_equal. rewrite mult_INR. cbn [INR]. field. lra.
Qed.
