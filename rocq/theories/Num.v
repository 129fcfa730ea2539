(** Arithmetic on edge weights.

    repo: stag_lib/definitions.h ([StagReal] = double, [EPSILON] = 1e-10).
    Every weight computation of the library is modelled through the operational
    class [Num]; theorems which do not need algebra are proved for an arbitrary
    [Num], in particular for IEEE binary64 (instance [NumF64], given by
    Coq.Floats.SpecFloat).  Theorems that need algebra assume [ExactNum], i.e.
    exact arithmetic. *)
From Verif Require Import Base.
From Coq Require Import Reals QArith Qcanon Lra SpecFloat Qreals.

Class Num (W : Type) := {
  w0 : W; w1 : W;
  wadd : W -> W -> W; wsub : W -> W -> W; wmul : W -> W -> W; wdiv : W -> W -> W;
  wopp : W -> W; wsqrt : W -> W;
  weqb : W -> W -> bool; wltb : W -> W -> bool; wleb : W -> W -> bool;
  weps : W }.

(** The only facts about comparisons that the structural theorems need; they are true of
    IEEE doubles (instance below): a number above EPSILON is neither NaN nor a
    zero, so comparing equal to it means being it; it is not negative; 1 is above EPSILON, 0 is not. *)
Class PosNum (W : Type) `{Num W} := {
  pn_eq : forall x y : W, wltb weps x = true -> weqb x y = true -> x = y;
  pn_refl : forall x : W, wltb weps x = true -> weqb x x = true;
  pn_pos : forall x : W, wltb weps x = true -> wltb x w0 = false;
  pn_1 : wltb weps w1 = true;
  pn_0 : wltb weps w0 = false;
  pn_00 : weqb w0 w0 = true }.

(** Exact arithmetic: an injective homomorphism into the reals. *)
Class ExactNum (W : Type) `{Num W} := {
  toR : W -> R;
  toR_inj : forall x y, toR x = toR y -> x = y;
  toR_0 : toR w0 = 0%R;
  toR_1 : toR w1 = 1%R;
  toR_add : forall x y, toR (wadd x y) = (toR x + toR y)%R;
  toR_sub : forall x y, toR (wsub x y) = (toR x - toR y)%R;
  toR_mul : forall x y, toR (wmul x y) = (toR x * toR y)%R;
  toR_div : forall x y, toR y <> 0%R -> toR (wdiv x y) = (toR x / toR y)%R;
  toR_opp : forall x, toR (wopp x) = (- toR x)%R;
  toR_eqb : forall x y, weqb x y = true <-> toR x = toR y;
  toR_ltb : forall x y, wltb x y = true <-> (toR x < toR y)%R;
  toR_leb : forall x y, wleb x y = true <-> (toR x <= toR y)%R;
  toR_eps : (0 < toR weps)%R;
  toR_eps1 : (toR weps < 1)%R }.

Global Instance ExactNum_PosNum (W : Type) `{ExactNum W} : PosNum W.
Proof.
  constructor.
  - intros x y _ E. apply toR_inj. now apply toR_eqb.
  - intros x _. now apply toR_eqb.
  - intros x E. destruct (wltb x w0) eqn:E0; auto. apply toR_ltb in E, E0. rewrite toR_0 in E0.
    pose proof toR_eps. lra.
  - apply toR_ltb. rewrite toR_1. apply toR_eps1.
  - destruct (wltb weps w0) eqn:E; auto. apply toR_ltb in E. rewrite toR_0 in E.
    pose proof toR_eps. lra.
  - now apply toR_eqb.
Qed.

(** ** Rationals: executable and exact. *)
Definition Qc_eqb (x y : Qc) : bool := Qeq_bool x y.
Definition Qc_leb (x y : Qc) : bool := Qle_bool x y.
Definition Qc_ltb (x y : Qc) : bool := negb (Qle_bool y x).

Global Instance NumQc : Num Qc := {
  w0 := Q2Qc 0; w1 := Q2Qc 1;
  wadd := Qcplus; wsub := Qcminus; wmul := Qcmult; wdiv := Qcdiv; wopp := Qcopp;
  wsqrt := fun x => x (* no rational square root; never used in a theorem *);
  weqb := Qc_eqb; wltb := Qc_ltb; wleb := Qc_leb;
  weps := Q2Qc (1 # 10000000000) }.

Definition QcR (x : Qc) : R := Q2R (this x).

Lemma QcR_Q2Qc q : QcR (Q2Qc q) = Q2R q.
Proof. unfold QcR. apply Qreals.Qeq_eqR. simpl. apply Qred_correct. Qed.

Lemma QcR_inj x y : QcR x = QcR y -> x = y.
Proof. intros E. apply Qc_is_canon. now apply Qreals.eqR_Qeq. Qed.

Lemma QcR_add x y : QcR (x + y)%Qc = (QcR x + QcR y)%R.
Proof. unfold Qcplus. rewrite QcR_Q2Qc. apply Qreals.Q2R_plus. Qed.
Lemma QcR_mul x y : QcR (x * y)%Qc = (QcR x * QcR y)%R.
Proof. unfold Qcmult. rewrite QcR_Q2Qc. apply Qreals.Q2R_mult. Qed.
Lemma QcR_opp x : QcR (- x)%Qc = (- QcR x)%R.
Proof. unfold Qcopp. rewrite QcR_Q2Qc. apply Qreals.Q2R_opp. Qed.
Lemma QcR_inv x : QcR x <> 0%R -> QcR (/ x)%Qc = (/ QcR x)%R.
Proof.
  intros E. unfold Qcinv. rewrite QcR_Q2Qc. apply Qreals.Q2R_inv.
  intros E'. apply E. unfold QcR. rewrite (Qreals.Qeq_eqR _ _ E'). apply RMicromega.Q2R_0.
Qed.

Global Instance ExactQc : ExactNum Qc.
Proof.
  refine {| toR := QcR |}.
  - apply QcR_inj.
  - simpl. rewrite QcR_Q2Qc. apply RMicromega.Q2R_0.
  - simpl. rewrite QcR_Q2Qc. apply RMicromega.Q2R_1.
  - apply QcR_add.
  - intros x y. simpl. unfold Qcminus. rewrite QcR_add, QcR_opp. reflexivity.
  - apply QcR_mul.
  - intros x y E. simpl. unfold Qcdiv. rewrite QcR_mul, QcR_inv by exact E. reflexivity.
  - apply QcR_opp.
  - intros x y. simpl. unfold Qc_eqb. rewrite Qeq_bool_iff. unfold QcR. split.
    + apply Qreals.Qeq_eqR.
    + apply Qreals.eqR_Qeq.
  - intros x y. simpl. unfold Qc_ltb. rewrite negb_true_iff.
    split.
    + intros E. apply Qreals.Qlt_Rlt. apply Qnot_le_lt. intros E'.
      apply Qle_bool_iff in E'. congruence.
    + intros E. apply Qreals.Rlt_Qlt in E. destruct (Qle_bool y x) eqn:Ey; auto.
      apply Qle_bool_iff in Ey. exfalso. eapply Qlt_not_le; eauto.
  - intros x y. simpl. unfold Qc_leb. rewrite Qle_bool_iff. split.
    + apply Qreals.Qle_Rle.
    + apply Qreals.Rle_Qle.
  - simpl. rewrite QcR_Q2Qc. unfold Q2R. simpl. lra.
  - simpl. rewrite QcR_Q2Qc. unfold Q2R. simpl. lra.
Defined.

(** ** Real numbers (for sqrt, exp, ln). *)
Definition R_eqb (x y : R) : bool := if Req_EM_T x y then true else false.
Definition R_ltb (x y : R) : bool := if Rlt_dec x y then true else false.
Definition R_leb (x y : R) : bool := if Rle_dec x y then true else false.
Global Instance NumR : Num R := {
  w0 := 0%R; w1 := 1%R;
  wadd := Rplus; wsub := Rminus; wmul := Rmult; wdiv := Rdiv; wopp := Ropp; wsqrt := sqrt;
  weqb := R_eqb; wltb := R_ltb; wleb := R_leb;
  weps := (/ 10000000000)%R }.

Global Instance ExactR : ExactNum R.
Proof.
  refine {| toR := fun x => x |}; simpl; auto; intros;
  unfold R_eqb, R_ltb, R_leb;
  repeat match goal with |- context [if ?d then _ else _] => destruct d end;
  try (split; congruence || tauto); try lra.
Defined.

(** ** IEEE 754 binary64 with round-to-nearest-even: [StagReal] = double.
    repo: stag_lib/definitions.h. *)
Definition f64 := spec_float.
Definition f64_eps : f64 := S754_finite false 7737125245533627 (-86).
Global Instance NumF64 : Num f64 := {
  w0 := S754_zero false;
  w1 := S754_finite false 4503599627370496 (-52);
  wadd := SFadd 53 1024; wsub := SFsub 53 1024; wmul := SFmul 53 1024; wdiv := SFdiv 53 1024;
  wopp := SFopp; wsqrt := SFsqrt 53 1024;
  weqb := SFeqb; wltb := SFltb; wleb := SFleb;
  weps := f64_eps }.

Lemma SFeqb_fin s m e y : SFeqb (S754_finite s m e) y = true -> y = S754_finite s m e.
Proof.
  unfold SFeqb, SFcompare.
  destruct y as [s'|s'| |s' m' e']; try (destruct s, s'; discriminate); try (destruct s; discriminate); try discriminate.
  destruct s, s'; try discriminate;
    destruct (Z.compare e e') eqn:Ee; try discriminate; apply Z.compare_eq in Ee; subst;
    destruct (Pos.compare_cont Eq m m') eqn:Em; simpl; try discriminate;
    apply Pos.compare_eq in Em; subst; reflexivity.
Qed.

Global Instance PosF64 : PosNum f64.
Proof.
  constructor.
  - intros x y Hx E. destruct x as [s|s| |s m e]; simpl in *.
    + destruct s; discriminate Hx.
    + destruct s; [discriminate Hx|]. destruct y as [s'|s'| |s' m' e']; try (destruct s'; discriminate E); try discriminate E.
      destruct s'; [discriminate E|reflexivity].
    + discriminate Hx.
    + symmetry. now apply SFeqb_fin.
  - intros x Hx. destruct x as [s|s| |s m e]; simpl in *; try (destruct s; discriminate Hx || reflexivity).
    + discriminate Hx.
    + unfold SFeqb, SFcompare. rewrite Z.compare_refl.
      assert (Pos.compare_cont Eq m m = Eq) as -> by apply Pos.compare_refl.
      destruct s; reflexivity.
  - intros x Hx. destruct x as [s|s| |s m e]; simpl in *; try (destruct s; discriminate Hx || reflexivity); reflexivity.
  - reflexivity.
  - reflexivity.
  - reflexivity.
Qed.

Section Derived.
  Context {W : Type} `{Num W}.
  (** Left-to-right summation starting from 0, as every [acc += x] loop does. *)
  Definition wsum (l : list W) : W := fold_left wadd l w0.
  (** repo: [static_cast<double>(int)] conversions of counts. *)
  Fixpoint wnat (n : nat) : W := match n with O => w0 | S k => wadd (wnat k) w1 end.
End Derived.
