(* The random offset of LSHFunction::apply (stag_lib/lsh.cpp:62-84): the hash
   value of a point with (scaled) projection u is floor(u + b) with b uniform in
   [0, 1).  Probability over b that two projections u, v get the same value. *)
From Coq Require Import Reals Lra Psatz Lia ZArith.
From Coquelicot Require Import Coquelicot.
From Flocq Require Import Core.Raux.
Local Open Scope R_scope.

(* lsh.cpp:81-83: return (StagInt) floor(value + b) *)
Definition lsh_bucket (b value : R) : Z := Zfloor (value + b).

Definition same_bucket (u v b : R) : R := if Z.eq_dec (lsh_bucket b u) (lsh_bucket b v) then 1 else 0.

Lemma is_RInt_cst_on : forall (f : R -> R) k a b, a <= b ->
  (forall x, a < x < b -> f x = k) -> is_RInt f a b ((b - a) * k).
Proof.
  intros f k a b L H.
  apply (is_RInt_ext (V := R_NormedModule) (fun _ => k)).
  - rewrite Rmin_left, Rmax_right by assumption. intros x Hx. symmetry. now apply H.
  - exact (is_RInt_const (V := R_NormedModule) a b k).
Qed.

Lemma is_RInt_three : forall (f : R -> R) k1 k2 k3 p q, 0 <= p -> p <= q -> q <= 1 ->
  (forall x, 0 < x < p -> f x = k1) -> (forall x, p < x < q -> f x = k2) -> (forall x, q < x < 1 -> f x = k3) ->
  is_RInt f 0 1 (p * k1 + (q - p) * k2 + (1 - q) * k3).
Proof.
  intros f k1 k2 k3 p q H1 H2 H3 F1 F2 F3.
  assert (I1 := is_RInt_cst_on f k1 0 p H1 F1).
  assert (I2 := is_RInt_cst_on f k2 p q H2 F2).
  assert (I3 := is_RInt_cst_on f k3 q 1 H3 F3).
  assert (C := is_RInt_Chasles (V := R_NormedModule) f 0 p q _ _ I1 I2).
  assert (D := is_RInt_Chasles (V := R_NormedModule) f 0 q 1 _ _ C I3).
  unfold plus in D; simpl in D. rewrite Rminus_0_r in D. exact D.
Qed.

Lemma floor_is : forall x z, IZR z <= x < IZR z + 1 -> Zfloor x = z.
Proof. intros x z H. apply Zfloor_imp. rewrite plus_IZR. exact H. Qed.

Lemma offset_le : forall u v, u <= v ->
  is_RInt (same_bucket u v) 0 1 (Rmax 0 (1 - (v - u))).
Proof.
  intros u v L. set (z := Zfloor u).
  assert (Z1 : IZR z <= u) by apply Zfloor_lb.
  assert (Z2 : u < IZR z + 1) by apply Zfloor_ub.
  destruct (Rle_lt_dec 1 (v - u)) as [B|S].
  - rewrite Rmax_left by lra.
    replace 0 with ((1 - 0) * 0) at 2 by ring. apply is_RInt_cst_on; [lra|].
    intros b _. unfold same_bucket. destruct Z.eq_dec as [E|]; [exfalso|reflexivity].
    unfold lsh_bucket in E.
    assert (X := Zfloor_lb (v + b)). assert (Y := Zfloor_ub (u + b)).
    assert (X' := Zfloor_ub (v + b)). assert (Y' := Zfloor_lb (u + b)). rewrite E in Y, Y'.
    lra.
  - rewrite Rmax_right by lra.
    set (p := IZR z + 1 - u).
    destruct (Rle_lt_dec (v - IZR z) 1) as [C|C].
    + replace (1 - (v - u)) with ((p - (v - u)) * 1 + (p - (p - (v - u))) * 0 + (1 - p) * 1) by ring.
      apply is_RInt_three; unfold p; try lra.
      * intros b Hb. unfold same_bucket, lsh_bucket.
        rewrite (floor_is (u + b) z) by lra. rewrite (floor_is (v + b) z) by lra.
        destruct Z.eq_dec; [reflexivity|congruence].
      * intros b Hb. unfold same_bucket, lsh_bucket.
        rewrite (floor_is (u + b) z) by lra. rewrite (floor_is (v + b) (z + 1)) by (rewrite plus_IZR; lra).
        destruct Z.eq_dec; [lia|reflexivity].
      * intros b Hb. unfold same_bucket, lsh_bucket.
        rewrite (floor_is (u + b) (z + 1)) by (rewrite plus_IZR; lra).
        rewrite (floor_is (v + b) (z + 1)) by (rewrite plus_IZR; lra).
        destruct Z.eq_dec; [reflexivity|congruence].
    + replace (1 - (v - u)) with (p * 0 + ((1 + p - (v - u)) - p) * 1 + (1 - (1 + p - (v - u))) * 0) by ring.
      apply is_RInt_three; unfold p; try lra.
      * intros b Hb. unfold same_bucket, lsh_bucket.
        rewrite (floor_is (u + b) z) by lra. rewrite (floor_is (v + b) (z + 1)) by (rewrite plus_IZR; lra).
        destruct Z.eq_dec; [lia|reflexivity].
      * intros b Hb. unfold same_bucket, lsh_bucket.
        rewrite (floor_is (u + b) (z + 1)) by (rewrite plus_IZR; lra).
        rewrite (floor_is (v + b) (z + 1)) by (rewrite plus_IZR; lra).
        destruct Z.eq_dec; [reflexivity|congruence].
      * intros b Hb. unfold same_bucket, lsh_bucket.
        rewrite (floor_is (u + b) (z + 1)) by (rewrite plus_IZR; lra).
        rewrite (floor_is (v + b) (z + 2)) by (rewrite plus_IZR; lra).
        destruct Z.eq_dec; [lia|reflexivity].
Qed.

Lemma offset_probability : forall u v,
  is_RInt (same_bucket u v) 0 1 (Rmax 0 (1 - Rabs (u - v))).
Proof.
  intros u v. destruct (Rle_lt_dec u v) as [L|L].
  - replace (Rabs (u - v)) with (v - u) by (rewrite Rabs_left1; lra). now apply offset_le.
  - replace (Rabs (u - v)) with (u - v) by (rewrite Rabs_right; lra).
    apply (is_RInt_ext (V := R_NormedModule) (same_bucket v u)).
    + intros x _. unfold same_bucket. destruct Z.eq_dec, Z.eq_dec; congruence.
    + apply offset_le. lra.
Qed.
