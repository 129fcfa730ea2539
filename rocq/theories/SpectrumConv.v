(** Convergence of the power method (C62). *)
From Verif Require Import Base Num RSum Sparse SparseFacts Graph GraphSpec Spectrum SpectrumSpec SpectrumFacts SpectrumPower.
From Coq Require Import Reals Lra Psatz.
Local Open Scope nat_scope.

Section Conv.
  Variables (n : nat) (M : nat -> nat -> R) (E : list (R * list R)).
  Hypothesis HE : eigen_system n M E.
  Hypothesis HM : forall i j, i < n -> j < n -> M i j = M j i.

  Lemma parseval x y : dot n x y = lsum (fun p => dot n x (vx (snd p)) * dot n y (vx (snd p)))%R E.
  Proof.
    destruct HE as (_ & _ & _ & Hc). unfold dot at 1.
    rewrite (rsum_ext n _ (fun i => lsum (fun p => dot n x (vx (snd p)) * (y i * vx (snd p) i)) E)%R).
    - unfold rsum. rewrite lsum_swap. apply lsum_ext. intros p _. rewrite lsum_scal. reflexivity.
    - intros i Hi. rewrite (Hc x i Hi) at 1. rewrite <- lsum_scal_r. apply lsum_ext. intros. ring.
  Qed.
  Lemma mulv_component x p : In p E -> dot n (mulv n M x) (vx (snd p)) = (fst p * dot n x (vx (snd p)))%R.
  Proof.
    intros Hi. rewrite <- dot_mulv_sym by auto. destruct HE as (_ & Hp & _). rewrite Forall_forall in Hp. destruct (Hp p Hi) as [_ P].
    unfold dot. rewrite <- rsum_scal. apply rsum_ext. intros k Hk. rewrite P by auto. ring.
  Qed.
  Lemma mpow_component x p t : In p E -> dot n (mpow n M t x) (vx (snd p)) = (fst p ^ t * dot n x (vx (snd p)))%R.
  Proof.
    intros Hi. induction t as [|t IH]; simpl; [ring|]. rewrite mulv_component, IH by auto. ring.
  Qed.
End Conv.

Lemma pow2_gt_0 (a : R) : a <> 0%R -> (0 < a ^ 2)%R.
Proof. intros. rewrite <- Rsqr_pow2. now apply Rsqr_pos_lt. Qed.

Theorem power_converges (M : sprs R) n num x y p1 E' rho :
  sp_square M n -> (forall i j, i < n -> j < n -> coeff M i j = coeff M j i) ->
  eigen_system n (coeff M) (p1 :: E') ->
  (forall q, In q E' -> (Rabs (fst q) <= rho)%R) -> (0 <= rho < Rabs (fst p1))%R ->
  length x = n -> dot n (vx x) (vx (snd p1)) <> 0%R ->
  (0 < num)%Z -> power_method M num x = Ok y ->
  (1 - (rho / Rabs (fst p1)) ^ (2 * Z.to_nat num) *
       ((dot n (vx x) (vx x) - dot n (vx x) (vx (snd p1)) ^ 2) / dot n (vx x) (vx (snd p1)) ^ 2)
   <= dot n (vx y) (vx (snd p1)) ^ 2 <= 1)%R.
Proof.
  intros Hs Hsy HE Hrho Hgap Hx Hc Hn Hy. set (t := Z.to_nat num). set (c := dot n (vx x) (vx (snd p1))) in *.
  set (l := fst p1) in *. set (S := lsum (fun q => (fst q ^ t * dot n (vx x) (vx (snd q))) ^ 2)%R E').
  set (z := mpow n (coeff M) t (vx x)).
  destruct (power_method_spec M n num x Hs Hx ltac:(lia)) as (y0 & E0 & L0 & _ & V). rewrite E0 in Hy. injection Hy as <-.
  destruct (V z eq_refl Hn) as [Vy Ny].
  assert (Nz : dot n z z = ((l ^ t * c) ^ 2 + S)%R).
  { rewrite (parseval n (coeff M) _ HE). cbn [lsum]. unfold z. rewrite (mpow_component n (coeff M) _ HE Hsy _ p1) by now left.
    fold l c. f_equal; [ring|]. unfold S. apply lsum_ext. intros q Hq. rewrite (mpow_component n (coeff M) _ HE Hsy _ q) by now right. ring. }
  assert (S0 : (0 <= S)%R) by (apply lsum_nonneg; intros; apply pow2_ge_0).
  assert (l0 : l <> 0%R) by (intros E; fold l in Hgap; rewrite E, Rabs_R0 in Hgap; lra).
  assert (lt0 : (0 < (l ^ t * c) ^ 2)%R). { apply pow2_gt_0. apply Rmult_integral_contrapositive_currified; [now apply pow_nonzero|auto]. }
  assert (Nz0 : dot n z z <> 0%R) by (rewrite Nz; lra).
  destruct (Req_EM_T (dot n z z) 0) as [|_]; [contradiction|].
  assert (Ey : (dot n (vx y0) (vx (snd p1)) ^ 2 = (l ^ t * c) ^ 2 / ((l ^ t * c) ^ 2 + S))%R).
  { rewrite (dot_ext n _ (fun i => / sqrt (dot n z z) * z i)%R _ (vx (snd p1))); auto; [|intros i Hi; rewrite Vy by auto; unfold Rdiv; ring].
    rewrite dot_scal_l. unfold z at 3. rewrite (mpow_component n (coeff M) _ HE Hsy _ p1) by now left. fold l c.
    rewrite Rpow_mult_distr, pow_inv, pow2_sqrt by (pose proof (dot_nonneg n z); lra). rewrite Nz. unfold Rdiv. ring. }
  assert (Ex : (dot n (vx x) (vx x) - c ^ 2 = lsum (fun q => dot n (vx x) (vx (snd q)) ^ 2) E')%R).
  { rewrite (parseval n (coeff M) _ HE). cbn [lsum]. fold c.
    rewrite (lsum_ext (fun p => dot n (vx x) (vx (snd p)) * dot n (vx x) (vx (snd p)))%R (fun q => dot n (vx x) (vx (snd q)) ^ 2)%R) by (intros; ring). ring. }
  assert (SR : (S <= rho ^ (2 * t) * (dot n (vx x) (vx x) - c ^ 2))%R).
  { rewrite Ex, <- lsum_scal. apply lsum_le. intros q Hq. rewrite Rpow_mult_distr. apply Rmult_le_compat_r; [apply pow2_ge_0|].
    rewrite <- pow_mult, Nat.mul_comm, !pow_mult. apply pow_incr. split; [apply pow2_ge_0|].
    rewrite <- (pow2_abs (fst q)). apply pow_incr. split; [apply Rabs_pos|auto]. }
  rewrite Ey. set (A := ((l ^ t * c) ^ 2)%R) in *.
  assert (EA : (A = Rabs l ^ (2 * t) * c ^ 2)%R).
  { unfold A. rewrite Rpow_mult_distr. f_equal. rewrite <- pow_mult, Nat.mul_comm, !pow_mult. now rewrite pow2_abs. }
  assert (Rp : (0 < Rabs l ^ (2 * t))%R) by (apply pow_lt, Rabs_pos_lt; auto).
  assert (c2 : (0 < c ^ 2)%R) by (apply pow2_gt_0; auto).
  split.
  - assert (X : ((rho / Rabs l) ^ (2 * t) * ((dot n (vx x) (vx x) - c ^ 2) / c ^ 2) = rho ^ (2 * t) * (dot n (vx x) (vx x) - c ^ 2) / A)%R).
    { unfold Rdiv at 1. rewrite Rpow_mult_distr, pow_inv, EA. field. split; [lra|].
      apply Rgt_not_eq. exact Rp. }
    rewrite X. assert (Q : (S / (A + S) <= rho ^ (2 * t) * (dot n (vx x) (vx x) - c ^ 2) / A)%R).
    { apply Rle_trans with (S / A)%R.
      - unfold Rdiv. apply Rmult_le_compat_l; auto. apply Rinv_le_contravar; lra.
      - unfold Rdiv. apply Rmult_le_compat_r; auto. apply Rlt_le, Rinv_0_lt_compat. auto. }
    replace (A / (A + S))%R with (1 - S / (A + S))%R by (field; lra). lra.
  - apply (Rmult_le_reg_r (A + S)); [lra|]. replace (A / (A + S) * (A + S))%R with A by (field; lra). lra.
Qed.
