(** The seeding of k-means++ (Arthur and Vassilvitskii, 2007): expected cost against any clustering. Pure mathematics, no code is modelled here. *)
From Verif Require Import Base RSum.
From Coq Require Import Reals Lra Lia List Permutation.
Import ListNotations.
Local Open Scope nat_scope.

(** 1 + 1/2 + ... + 1/t *)
Fixpoint harm (t : nat) : R := match t with 0 => 0%R | S t => (harm t + / INR (S t))%R end.
Lemma harm_nonneg t : (0 <= harm t)%R.
Proof. induction t as [|t IH]; cbn [harm]; [lra|]. assert (0 < / INR (S t))%R by (apply Rinv_0_lt_compat, lt_0_INR; lia). lra. Qed.
Lemma harm_ln t : 1 <= t -> (harm t <= 1 + ln (INR t))%R.
Proof.
  induction t as [|t IH]; intros Ht; [lia|]. destruct (Nat.eq_dec t 0) as [->|N].
  - cbn [harm INR]. rewrite ln_1, Rinv_1. lra.
  - specialize (IH ltac:(lia)). cbn [harm]. assert (0 < INR t)%R by (apply lt_0_INR; lia). assert (0 < INR (S t))%R by (apply lt_0_INR; lia).
    assert (ln (INR t / INR (S t)) <= - / INR (S t))%R as L.
    { assert (0 < INR t / INR (S t))%R as P by (apply Rdiv_lt_0_compat; auto).
      pose proof (exp_ineq1_le (ln (INR t / INR (S t)))) as E. rewrite exp_ln in E by auto.
      assert (INR t / INR (S t) = 1 - / INR (S t))%R as Q by (rewrite S_INR in *; field; lra). lra. }
    unfold Rdiv in L. rewrite ln_mult, ln_Rinv in L; auto; [lra|]. now apply Rinv_0_lt_compat.
Qed.
Lemma harm_bound K : 1 <= K -> (1 + harm (K - 1) <= 2 + ln (INR K))%R.
Proof.
  intros HK. destruct (Nat.eq_dec K 1) as [->|N]; [cbn; rewrite ln_1; lra|].
  pose proof (harm_ln (K - 1) ltac:(lia)) as A. assert (ln (INR (K - 1)) <= ln (INR K))%R; [|lra].
  left. apply ln_increasing; [apply lt_0_INR; lia|apply lt_INR; lia].
Qed.

(** Sum of squares against square of the sum. *)
Lemma cauchy_count {A} (f : A -> R) l : (lsum f l * lsum f l <= INR (length l) * lsum (fun x => f x * f x) l)%R.
Proof.
  induction l as [|x l IH]; [cbn [lsum length INR]; lra|]. cbn [lsum length]. rewrite S_INR.
  assert (2 * f x * lsum f l <= INR (length l) * (f x * f x) + lsum (fun x => f x * f x) l)%R; [|nra].
  clear IH. induction l as [|y l IH]; [cbn [lsum length INR]; lra|]. cbn [lsum length]. rewrite S_INR.
  assert (0 <= (f x - f y) * (f x - f y))%R by apply Rle_0_sqr. nra.
Qed.

Section Kpp.
  Variable n : nat.
  Hypothesis npos : 1 <= n.
  Variable d : nat -> nat -> R.
  Hypothesis d_nonneg : forall i j, (0 <= d i j)%R.
  Hypothesis d_tri : forall i j k, (d i k <= 2 * d i j + 2 * d j k)%R.

  (** Distance of i to the nearest of the centres c and C. *)
  Fixpoint md (c : nat) (C : list nat) (i : nat) : R := match C with [] => d i c | a :: C => Rmin (d i a) (md c C i) end.
  Definition phi (c : nat) (C : list nat) : R := rsum n (md c C).
  (** Probability that i is the next centre: its distance over the sum (if that is 0 the last point is taken). *)
  Definition wt (c : nat) (C : list nat) (i : nat) : R :=
    if Req_EM_T (phi c C) 0 then if i =? n - 1 then 1%R else 0%R else (md c C i / phi c C)%R.
  (** Expected value of a function of the centres after t more of them have been drawn. *)
  Fixpoint Ex (t : nat) (c : nat) (C : list nat) (F : list nat -> R) : R :=
    match t with 0 => F C | S t => rsum n (fun i => wt c C i * Ex t c (i :: C) F)%R end.

  Lemma md_nonneg c C i : (0 <= md c C i)%R.
  Proof. induction C as [|a C IH]; cbn [md]; auto. unfold Rmin. destruct (Rle_dec _ _); auto. Qed.
  Lemma md_mono c C a i : (md c (a :: C) i <= md c C i)%R.
  Proof. cbn [md]. apply Rmin_r. Qed.
  Lemma md_tri c C a x : (md c C a <= 2 * md c C x + 2 * d a x)%R.
  Proof.
    induction C as [|b C IH]; cbn [md].
    - pose proof (d_tri a x c). lra.
    - pose proof (d_tri a x b). unfold Rmin. destruct (Rle_dec (d a b) (md c C a)), (Rle_dec (d x b) (md c C x)); lra.
  Qed.
  Lemma phi_nonneg c C : (0 <= phi c C)%R.
  Proof. apply rsum_nonneg. intros. apply md_nonneg. Qed.
  Lemma phi_mono c C a : (phi c (a :: C) <= phi c C)%R.
  Proof. apply rsum_le. intros. apply md_mono. Qed.
  Lemma wt_nonneg c C i : (0 <= wt c C i)%R.
  Proof.
    unfold wt. destruct (Req_EM_T (phi c C) 0) as [E|E]; [destruct (i =? n - 1); lra|]. pose proof (phi_nonneg c C). pose proof (md_nonneg c C i).
    apply Rmult_le_pos; auto. left. apply Rinv_0_lt_compat. lra.
  Qed.
  Lemma wt_sum c C : rsum n (wt c C) = 1%R.
  Proof.
    unfold wt. destruct (Req_EM_T (phi c C) 0) as [E|E].
    - rewrite (rsum_delta n (n - 1) (fun _ => 1%R)); auto. lia.
    - unfold Rdiv. rewrite rsum_scal_r. fold (phi c C). field. auto.
  Qed.
  Lemma Ex_mono t : forall c C F G, (forall C', (forall i, In i C' -> i < n \/ In i C) -> length C' = t + length C -> (F C' <= G C')%R) -> (Ex t c C F <= Ex t c C G)%R.
  Proof.
    induction t as [|t IH]; intros c C F G A; cbn [Ex]; [apply A; auto|]. apply rsum_le. intros i Hi. apply Rmult_le_compat_l; [apply wt_nonneg|].
    apply IH. intros C' B L. apply A; [|cbn [length] in L; lia]. intros j J. destruct (B j J) as [|[->|]]; auto.
  Qed.
  Lemma Ex_phi t : forall c C, (Ex t c C (phi c) <= phi c C)%R.
  Proof.
    induction t as [|t IH]; intros c C; cbn [Ex]; [lra|]. apply Rle_trans with (rsum n (fun i => wt c C i * phi c C)%R).
    - apply rsum_le. intros i _. apply Rmult_le_compat_l; [apply wt_nonneg|]. eapply Rle_trans; [apply IH|apply phi_mono].
    - rewrite rsum_scal_r, wt_sum. lra.
  Qed.

  (** *** A clustering: labels, and a cost for each cluster *)
  Variable lab : nat -> nat.
  Variable opt : nat -> R.
  Definition cls (A : nat) : list nat := filter (fun i => lab i =? A) (seq 0 n).
  Hypothesis opt_nonneg : forall A, (0 <= opt A)%R.
  Hypothesis opt_pairs : forall A, (lsum (fun a => lsum (fun x => d a x) (cls A)) (cls A) <= 2 * INR (length (cls A)) * opt A)%R.

  Definition mass (c : nat) (C : list nat) (A : nat) : R := lsum (md c C) (cls A).
  Lemma mass_nonneg c C A : (0 <= mass c C A)%R.
  Proof. apply lsum_nonneg. intros. apply md_nonneg. Qed.
  Lemma mass_mono c C a A : (mass c (a :: C) A <= mass c C A)%R.
  Proof. apply lsum_le. intros. apply md_mono. Qed.

  (** A centre drawn from a cluster: the expected new cost of that cluster. *)
  Lemma draw_in_cluster c C A : (lsum (fun a => md c C a * mass c (a :: C) A) (cls A) <= 8 * opt A * mass c C A)%R.
  Proof.
    destruct (cls A) as [|a0 S'] eqn:E; [cbn [lsum]; pose proof (mass_nonneg c C A); pose proof (opt_nonneg A); nra|].
    rewrite <- E in *. set (S := cls A) in *. set (M := mass c C A). set (q := fun a => mass c (a :: C) A). set (s := INR (length S)).
    assert (0 < s)%R as Hs by (unfold s; apply lt_0_INR; rewrite E; cbn [length]; lia).
    assert (0 <= M)%R as HM by apply mass_nonneg.
    set (T := lsum (fun a => lsum (fun x => d a x) S) S). pose proof (opt_pairs A) as Op. fold S T s in Op.
    assert (forall a, 0 <= q a)%R as Hq by (intros; apply mass_nonneg).
    assert (forall a, q a <= M)%R as HqM by (intros; apply mass_mono).
    assert (forall a, q a <= lsum (fun x => d x a) S)%R as Hqd by (intros a; unfold q, mass; apply lsum_le; intros x _; cbn [md]; apply Rmin_l).
    assert (forall a, s * md c C a <= 2 * M + 2 * lsum (fun x => d a x) S)%R as Ha.
    { intros a. unfold M, mass. fold S. rewrite <- !lsum_scal, <- lsum_plus. unfold s. rewrite Rmult_comm, <- lsum_const. apply lsum_le. intros x _. apply md_tri. }
    assert (s * lsum (fun a => md c C a * q a) S <= 4 * M * T)%R as Main.
    { rewrite <- lsum_scal. apply Rle_trans with (lsum (fun a => 2 * M * lsum (fun x => d x a) S + 2 * M * lsum (fun x => d a x) S) S)%R.
      - apply lsum_le. intros a _. specialize (Ha a). specialize (Hq a). specialize (HqM a). specialize (Hqd a).
        assert (0 <= lsum (fun x => d a x) S)%R as Hd by (apply lsum_nonneg; auto).
        apply Rle_trans with ((2 * M + 2 * lsum (fun x => d a x) S) * q a)%R.
        + rewrite <- Rmult_assoc. apply Rmult_le_compat_r; auto.
        + rewrite Rmult_plus_distr_r. apply Rplus_le_compat; [apply Rmult_le_compat_l; [lra|auto]|].
          apply Rle_trans with (2 * lsum (fun x => d a x) S * M)%R; [apply Rmult_le_compat_l; [lra|auto]|right; ring].
      - rewrite lsum_plus, !lsum_scal. assert (lsum (fun a => lsum (fun x => d x a) S) S = T) as ->; [|fold T; lra]. unfold T. apply lsum_swap. }
    apply (Rmult_le_reg_l s); auto. eapply Rle_trans; [exact Main|]. assert (4 * M * T <= 4 * M * (2 * s * opt A))%R by (apply Rmult_le_compat_l; [lra|exact Op]). lra.
  Qed.

  Definition inU (U : list nat) (A : nat) : bool := existsb (Nat.eqb A) U.
  Lemma inU_spec U A : inU U A = true <-> In A U.
  Proof. unfold inU. rewrite existsb_exists. split; [intros (x & I & E); apply Nat.eqb_eq in E; now subst|intros I; exists A; split; auto; apply Nat.eqb_refl]. Qed.
  (** Cost of the points whose cluster is in U, or is not. *)
  Definition unc (c : nat) (C : list nat) (U : list nat) : R := lsum (mass c C) U.
  Lemma split_sum (f : nat -> R) U : NoDup U -> rsum n f = (lsum f (filter (fun i => negb (inU U (lab i))) (seq 0 n)) + lsum (fun A => lsum f (cls A)) U)%R.
  Proof.
    intros ND. unfold rsum, cls. induction (seq 0 n) as [|i l IH].
    - cbn [filter lsum]. rewrite lsum_0; [lra|]. reflexivity.
    - cbn [lsum]. rewrite IH. clear IH.
      assert (lsum (fun A => lsum f (filter (fun i => lab i =? A) (i :: l))) U = lsum (fun A => (if lab i =? A then f i else 0) + lsum f (filter (fun i => lab i =? A) l))%R U) as ->.
      { apply lsum_ext. intros A _. cbn [filter]. destruct (lab i =? A); cbn [lsum]; lra. }
      rewrite lsum_plus.
      assert (lsum (fun A => if lab i =? A then f i else 0%R) U = if inU U (lab i) then f i else 0%R) as ->.
      { clear - ND. induction U as [|B U IH]; [reflexivity|]. inversion ND as [|x y N1 N2]; subst. cbn [lsum inU existsb]. rewrite (IH N2). unfold inU.
        destruct (Nat.eqb_spec (lab i) B) as [E|E]; cbn [orb]; [|lra]. subst B. fold (inU U (lab i)). destruct (inU U (lab i)) eqn:Q; [|lra]. apply inU_spec in Q. contradiction. }
      cbn [filter]. destruct (inU U (lab i)); cbn [negb lsum]; lra.
  Qed.

  Lemma lsum_remove (f : nat -> R) U A : NoDup U -> In A U -> lsum f U = (f A + lsum f (remove Nat.eq_dec A U))%R.
  Proof.
    induction U as [|B U IH]; [intros _ []|]. intros ND I. inversion ND as [|x y N1 N2]; subst. cbn [remove lsum]. destruct (Nat.eq_dec A B) as [->|N].
    - rewrite notin_remove by auto. reflexivity.
    - destruct I as [->|I]; [congruence|]. cbn [lsum]. rewrite (IH N2 I). lra.
  Qed.
  Lemma remove_nodup U A : NoDup U -> NoDup (remove Nat.eq_dec A U).
  Proof.
    induction U as [|B U IH]; intros ND; [constructor|]. inversion ND as [|x y N1 N2]; subst. cbn [remove]. destruct (Nat.eq_dec A B); auto. constructor; auto.
    intros I. apply in_remove in I as [I _]. auto.
  Qed.
  Lemma remove_length U A : NoDup U -> In A U -> length U = S (length (remove Nat.eq_dec A U)).
  Proof.
    induction U as [|B U IH]; [intros _ []|]. intros ND I. inversion ND as [|x y N1 N2]; subst. cbn [remove length]. destruct (Nat.eq_dec A B) as [->|N].
    - now rewrite notin_remove.
    - destruct I as [->|I]; [congruence|]. cbn [length]. now rewrite (IH N2 I).
  Qed.

  Definition bound (t : nat) (c : nat) (C U : list nat) : R :=
    ((phi c C - unc c C U + 8 * lsum opt U) * (1 + harm t) + INR (length U - t) / INR (length U) * unc c C U)%R.

  Lemma unc_nonneg c C U : (0 <= unc c C U)%R.
  Proof. apply lsum_nonneg. intros. apply mass_nonneg. Qed.
  Lemma cov_eq c C U : NoDup U -> (phi c C - unc c C U = lsum (md c C) (filter (fun i => negb (inU U (lab i))) (seq 0 n)))%R.
  Proof. intros ND. unfold phi, unc, mass. rewrite (split_sum (md c C) U ND). lra. Qed.
  Lemma cov_nonneg c C U : NoDup U -> (0 <= phi c C - unc c C U)%R.
  Proof. intros ND. rewrite cov_eq by auto. apply lsum_nonneg. intros. apply md_nonneg. Qed.
  Lemma cov_mono c C a U : NoDup U -> (phi c (a :: C) - unc c (a :: C) U <= phi c C - unc c C U)%R.
  Proof. intros ND. rewrite !cov_eq by auto. apply lsum_le. intros. apply md_mono. Qed.
  Lemma unc_mono c C a U : (unc c (a :: C) U <= unc c C U)%R.
  Proof. apply lsum_le. intros. apply mass_mono. Qed.
  Lemma optU_nonneg U : (0 <= lsum opt U)%R.
  Proof. apply lsum_nonneg. auto. Qed.
  Lemma ratio_nonneg a b : (0 <= INR a / INR b)%R.
  Proof. destruct b; [cbn [INR]; unfold Rdiv; rewrite Rinv_0; lra|]. apply Rmult_le_pos; [apply pos_INR|]. left. apply Rinv_0_lt_compat, lt_0_INR. lia. Qed.

  Lemma Ex_bound t : forall c C U, NoDup U -> t <= length U -> (Ex t c C (phi c) <= bound t c C U)%R.
  Proof.
    induction t as [|t IH]; intros c C U ND Ht.
    - cbn [Ex]. unfold bound. cbn [harm]. rewrite Nat.sub_0_r. pose proof (optU_nonneg U). pose proof (unc_nonneg c C U). destruct U as [|A U].
      + unfold unc in *. cbn [lsum] in *. rewrite Rmult_0_r. lra.
      + set (u := INR (length (A :: U))). assert (0 < u)%R by (apply lt_0_INR; cbn [length]; lia). replace (u / u)%R with 1%R by (field; lra). lra.
    - set (u := length U) in *. assert (0 < INR u)%R as Hu by (apply lt_0_INR; lia).
      set (pc := (phi c C - unc c C U)%R). set (pu := unc c C U). set (o := (8 * lsum opt U)%R). set (h := (1 + harm t)%R).
      assert (0 <= pc)%R as Hpc by (apply cov_nonneg; auto). assert (0 <= pu)%R as Hpu by apply unc_nonneg. assert (0 <= o)%R as Ho by (unfold o; pose proof (optU_nonneg U); lra).
      assert (1 <= h)%R as Hh by (unfold h; pose proof (harm_nonneg t); lra). assert (phi c C = pc + pu)%R as Ephi by (unfold pc, pu; lra).
      unfold bound. fold u pc pu o. cbn [harm]. fold h. set (r := (/ INR (S t))%R). assert (0 < r)%R as Hr by (apply Rinv_0_lt_compat, lt_0_INR; lia).
      destruct (Req_EM_T (phi c C) 0) as [E0|E0].
      { eapply Rle_trans; [apply Ex_phi|]. rewrite E0. assert (0 <= (pc + o) * (1 + (harm t + r)))%R by (apply Rmult_le_pos; [lra|unfold h in Hh; lra]).
        assert (0 <= INR (u - S t) / INR u * pu)%R by (apply Rmult_le_pos; [apply ratio_nonneg|auto]). lra. }
      assert (0 < phi c C)%R as Hphi by (pose proof (phi_nonneg c C); lra).
      assert (Ex (S t) c C (phi c) = rsum n (fun i => md c C i * Ex t c (i :: C) (phi c))%R / phi c C)%R as ->.
      { cbn [Ex]. unfold Rdiv. rewrite <- rsum_scal_r. apply rsum_ext. intros i _. unfold wt. destruct (Req_EM_T (phi c C) 0); [contradiction|]. unfold Rdiv. ring. }
      apply (Rmult_le_reg_r (phi c C)); auto. unfold Rdiv at 1. rewrite Rmult_assoc, Rinv_l, Rmult_1_r by auto.
      rewrite (split_sum _ U ND).
      (* a centre from a cluster that is not in U *)
      set (B1 := ((pc + o) * h + INR (u - t) / INR u * pu)%R).
      assert (lsum (fun i => md c C i * Ex t c (i :: C) (phi c))%R (filter (fun i => negb (inU U (lab i))) (seq 0 n)) <= pc * B1)%R as P1.
      { unfold pc at 1. rewrite cov_eq by auto. rewrite <- lsum_scal_r. apply lsum_le. intros i _. apply Rmult_le_compat_l; [apply md_nonneg|].
        eapply Rle_trans; [apply (IH c (i :: C) U ND); unfold u in Ht; lia|]. unfold bound, B1. fold u h o. apply Rplus_le_compat.
        - apply Rmult_le_compat_r; [lra|]. pose proof (cov_mono c C i U ND). fold pc in H. lra.
        - apply Rmult_le_compat_l; [apply ratio_nonneg|apply unc_mono]. }
      (* a centre from a cluster of U *)
      set (kp := (INR (u - 1 - t) / INR (u - 1))%R). assert (0 <= kp)%R as Hkp by apply ratio_nonneg.
      assert (lsum (fun A => lsum (fun i => md c C i * Ex t c (i :: C) (phi c))%R (cls A)) U <= lsum (fun A => mass c C A * ((pc + o) * h) + kp * (mass c C A * (pu - mass c C A)))%R U)%R as P2.
      { apply lsum_le. intros A IA. pose proof (remove_nodup U A ND) as ND'. pose proof (remove_length U A ND IA) as L'. set (U' := remove Nat.eq_dec A U) in *.
        set (M := mass c C A). assert (0 <= M)%R as HM by apply mass_nonneg.
        assert (unc c C U = M + unc c C U')%R as Eu by (unfold unc; apply lsum_remove; auto).
        pose proof (lsum_remove opt U A ND IA) as Eo. fold U' in Eo.
        apply Rle_trans with (lsum (fun i => h * (md c C i * mass c (i :: C) A) + ((pc + (o - 8 * opt A)) * h + kp * (pu - M)) * md c C i)%R (cls A)).
        - apply lsum_le. intros i _.
          apply Rle_trans with (md c C i * ((pc + mass c (i :: C) A + (o - 8 * opt A)) * h + kp * (pu - M)))%R; [|right; ring].
          apply Rmult_le_compat_l; [apply md_nonneg|]. eapply Rle_trans; [apply (IH c (i :: C) U' ND'); unfold u in Ht; lia|]. unfold bound. fold h.
          assert (unc c (i :: C) U = mass c (i :: C) A + unc c (i :: C) U')%R as Eu' by (unfold unc; apply lsum_remove; auto).
          apply Rplus_le_compat.
          + apply Rmult_le_compat_r; [lra|]. pose proof (cov_mono c C i U ND) as Cm. fold pc in Cm. unfold o. lra.
          + assert (length U' = u - 1) as -> by (unfold u; lia). fold kp. apply Rmult_le_compat_l; auto. unfold pu. pose proof (unc_mono c C i U'). lra.
        - rewrite lsum_plus, !lsum_scal. fold (mass c C A). fold M. pose proof (draw_in_cluster c C A) as Dr. fold M in Dr.
          assert (h * lsum (fun a => md c C a * mass c (a :: C) A)%R (cls A) <= h * (8 * opt A * M))%R by (apply Rmult_le_compat_l; lra). lra. }
      assert (lsum (fun A => mass c C A * ((pc + o) * h) + kp * (mass c C A * (pu - mass c C A)))%R U = pu * ((pc + o) * h) + kp * (pu * pu - lsum (fun A => mass c C A * mass c C A) U))%R as E2.
      { rewrite lsum_plus, lsum_scal_r, lsum_scal. f_equal. f_equal. rewrite (lsum_ext _ (fun A => pu * mass c C A - mass c C A * mass c C A)%R) by (intros; ring). now rewrite lsum_minus, lsum_scal. }
      rewrite E2 in P2. set (Q := lsum (fun A => mass c C A * mass c C A)%R U) in *.
      pose proof (cauchy_count (mass c C) U) as Cs. fold (unc c C U) pu u Q in Cs.
      assert (kp * (pu * pu - Q) <= INR (u - S t) / INR u * (pu * pu))%R as P3.
      { destruct (Nat.eq_dec u 1) as [U1|U1].
        - assert (kp = 0)%R as -> by (unfold kp; replace (u - 1 - t) with 0 by lia; cbn [INR]; unfold Rdiv; ring). replace (u - S t) with 0 by lia. cbn [INR]. unfold Rdiv. rewrite !Rmult_0_l. lra.
        - assert (0 < INR (u - 1))%R as Hu1 by (apply lt_0_INR; lia).
          assert (pu * pu - Q <= (INR u - 1) / INR u * (pu * pu))%R as X.
          { apply (Rmult_le_reg_l (INR u)); auto. replace (INR u * ((INR u - 1) / INR u * (pu * pu)))%R with ((INR u - 1) * (pu * pu))%R by (field; lra). lra. }
          apply Rle_trans with (kp * ((INR u - 1) / INR u * (pu * pu)))%R; [apply Rmult_le_compat_l; auto|]. right. unfold kp.
          assert (u - 1 - t = u - S t) as -> by lia. replace (INR u - 1)%R with (INR (u - 1)) by (rewrite minus_INR by lia; reflexivity). field. lra. }
      assert (INR (u - t) = INR (u - S t) + 1)%R as Eut by (rewrite <- S_INR; f_equal; lia).
      set (k2 := (INR (u - S t) / INR u)%R) in *.
      assert (B1 = (pc + o) * h + (k2 + / INR u) * pu)%R as EB by (unfold B1, k2; rewrite Eut; field; lra).
      assert (/ INR u <= r)%R as Hur by (apply Rinv_le_contravar; [apply lt_0_INR; lia|apply le_INR; lia]).
      assert (0 < / INR u)%R as Hiu by now apply Rinv_0_lt_compat.
      eapply Rle_trans; [apply Rplus_le_compat; [exact P1|exact P2]|]. rewrite EB, Ephi.
      assert (pc * (/ INR u * pu) <= (pc + o) * r * (pc + pu))%R as P4.
      { apply Rle_trans with (pc * (r * (pc + pu)))%R; [apply Rmult_le_compat_l; auto; apply Rmult_le_compat; lra|]. rewrite Rmult_assoc. apply Rmult_le_compat_r; [|lra]. apply Rmult_le_pos; lra. }
      replace ((pc + o) * (1 + (harm t + r)))%R with ((pc + o) * h + (pc + o) * r)%R by (unfold h; ring).
      replace ((((pc + o) * h + (pc + o) * r + k2 * pu)) * (pc + pu))%R with ((pc + o) * h * (pc + pu) + (pc + o) * r * (pc + pu) + k2 * (pu * pu) + k2 * pu * pc)%R by ring.
      replace (pc * ((pc + o) * h + (k2 + / INR u) * pu))%R with ((pc + o) * h * pc + k2 * pu * pc + pc * (/ INR u * pu))%R by ring. lra.
  Qed.

  (** The first centre uniform, K - 1 more: at most 8 (2 + ln K) times the cost of the clustering. *)
  Theorem kpp_bound K : 1 <= K -> (forall i, i < n -> lab i < K) ->
    (rsum n (fun i => / INR n * Ex (K - 1) i [] (phi i)) <= 8 * (2 + ln (INR K)) * rsum K opt)%R.
  Proof.
    intros HK Hlab. set (O := rsum K opt). set (h := (1 + harm (K - 1))%R). assert (1 <= h)%R as Hh by (unfold h; pose proof (harm_nonneg (K - 1)); lra).
    assert (0 < INR n)%R as Hn by (apply lt_0_INR; lia). assert (0 <= O)%R as HO by (apply rsum_nonneg; auto).
    assert (rsum n (fun i => / INR n * Ex (K - 1) i [] (phi i)) <= 8 * h * O)%R as A.
    { rewrite rsum_scal. apply (Rmult_le_reg_l (INR n)); auto. rewrite <- Rmult_assoc, Rinv_r, Rmult_1_l by lra.
      apply Rle_trans with (rsum n (fun i => (lsum (fun x => d x i) (cls (lab i)) + 8 * (O - opt (lab i))) * h)%R).
      - apply rsum_le. intros i Hi. set (U := remove Nat.eq_dec (lab i) (seq 0 K)). pose proof (seq_NoDup K 0) as ND.
        assert (In (lab i) (seq 0 K)) as I by (apply in_seq; specialize (Hlab i Hi); lia).
        pose proof (remove_nodup _ (lab i) ND) as ND'. pose proof (remove_length _ (lab i) ND I) as L. rewrite seq_length in L. fold U in ND', L.
        eapply Rle_trans; [apply (Ex_bound (K - 1) i [] U ND'); lia|]. unfold bound. fold h. assert (length U - (K - 1) = 0) as -> by lia. cbn [INR]. unfold Rdiv. rewrite !Rmult_0_l, Rplus_0_r.
        apply Rmult_le_compat_r; [lra|]. pose proof (lsum_remove opt _ _ ND I) as Eo. fold (rsum K opt) O U in Eo.
        assert (unc i [] (seq 0 K) = mass i [] (lab i) + unc i [] U)%R as Eu by (unfold unc; apply lsum_remove; auto).
        assert (phi i [] = unc i [] (seq 0 K))%R as Ep.
        { unfold phi, unc, mass. rewrite (split_sum (md i []) (seq 0 K) ND).
          assert (filter (fun j => negb (inU (seq 0 K) (lab j))) (seq 0 n) = []) as ->; [|cbn [lsum]; lra].
          clear - Hlab. assert (forall j, In j (seq 0 n) -> negb (inU (seq 0 K) (lab j)) = false) as B.
          { intros j Ij. apply in_seq in Ij. apply negb_false_iff, inU_spec, in_seq. specialize (Hlab j ltac:(lia)). lia. }
          induction (seq 0 n) as [|j l IH]; [reflexivity|]. cbn [filter]. rewrite B by (now left). apply IH. intros; apply B. now right. }
        rewrite Ep, Eu. unfold mass. cbn [md]. change (md i []) with (fun x => d x i). lra.
      - rewrite rsum_scal_r. rewrite (split_sum _ (seq 0 K) (seq_NoDup K 0)).
        assert (filter (fun j => negb (inU (seq 0 K) (lab j))) (seq 0 n) = []) as ->.
        { clear - Hlab. assert (forall j, In j (seq 0 n) -> negb (inU (seq 0 K) (lab j)) = false) as B.
          { intros j Ij. apply in_seq in Ij. apply negb_false_iff, inU_spec, in_seq. specialize (Hlab j ltac:(lia)). lia. }
          induction (seq 0 n) as [|j l IH]; [reflexivity|]. cbn [filter]. rewrite B by (now left). apply IH. intros; apply B. now right. }
        cbn [lsum]. rewrite Rplus_0_l.
        apply Rle_trans with (lsum (fun A => 8 * INR (length (cls A)) * O)%R (seq 0 K) * h)%R.
        + apply Rmult_le_compat_r; [lra|]. apply lsum_le. intros A _.
          rewrite (lsum_ext _ (fun i => lsum (fun x => d x i) (cls A) + 8 * (O - opt A))%R).
          2:{ intros i Ii. unfold cls in Ii. apply filter_In in Ii as [_ Ii]. apply Nat.eqb_eq in Ii. now rewrite Ii. }
          rewrite lsum_plus, lsum_const. pose proof (opt_pairs A) as Op. rewrite lsum_swap in Op. pose proof (opt_nonneg A). pose proof (pos_INR (length (cls A))).
          assert (0 <= INR (length (cls A)) * opt A)%R by (apply Rmult_le_pos; auto).
          match goal with |- (?X + _ <= _)%R => assert (X <= 2 * INR (length (cls A)) * opt A)%R by exact Op end. lra.
        + assert (lsum (fun A => 8 * INR (length (cls A)) * O)%R (seq 0 K) = 8 * INR n * O)%R as ->; [|lra].
          rewrite lsum_scal_r, lsum_scal. f_equal. f_equal.
          assert (rsum n (fun _ => 1%R) = lsum (fun A => lsum (fun _ => 1%R) (cls A)) (seq 0 K)) as E.
          { rewrite (split_sum _ (seq 0 K) (seq_NoDup K 0)). assert (filter (fun j => negb (inU (seq 0 K) (lab j))) (seq 0 n) = []) as ->; [|cbn [lsum]; lra].
            clear - Hlab. assert (forall j, In j (seq 0 n) -> negb (inU (seq 0 K) (lab j)) = false) as B.
            { intros j Ij. apply in_seq in Ij. apply negb_false_iff, inU_spec, in_seq. specialize (Hlab j ltac:(lia)). lia. }
            induction (seq 0 n) as [|j l IH]; [reflexivity|]. cbn [filter]. rewrite B by (now left). apply IH. intros; apply B. now right. }
          rewrite rsum_const in E. rewrite Rmult_1_r in E. rewrite E. apply lsum_ext. intros A _. rewrite lsum_const. lra. }
    eapply Rle_trans; [exact A|]. apply Rmult_le_compat_r; auto. pose proof (harm_bound K HK). fold h in H. lra.
  Qed.
End Kpp.
