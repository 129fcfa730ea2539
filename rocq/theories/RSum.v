(** Finite sums of reals and of naturals. *)
From Verif Require Import Base.
From Coq Require Import Reals Lra Permutation.
Local Open Scope R_scope.

(** Sum of [f x] over the elements of a list; [rsum n f] = f 0 + ... + f (n-1). *)
Fixpoint lsum {A} (f : A -> R) (l : list A) : R :=
  match l with [] => 0 | x :: r => f x + lsum f r end.
Definition rsum (n : nat) (f : nat -> R) : R := lsum f (seq 0 n).

Section L.
  Context {A : Type}.
  Implicit Types (f g : A -> R) (l : list A).
  Lemma lsum_ext f g l : (forall x, In x l -> f x = g x) -> lsum f l = lsum g l.
  Proof.
    induction l as [|x l IH]; simpl; intros E; auto.
    rewrite (E x (or_introl eq_refl)), IH; auto.
  Qed.
  Lemma lsum_plus f g l : lsum (fun x => f x + g x) l = lsum f l + lsum g l.
  Proof. induction l as [|x l IH]; simpl; [lra|]. rewrite IH. lra. Qed.
  Lemma lsum_minus f g l : lsum (fun x => f x - g x) l = lsum f l - lsum g l.
  Proof. induction l as [|x l IH]; simpl; [lra|]. rewrite IH. lra. Qed.
  Lemma lsum_scal c f l : lsum (fun x => c * f x) l = c * lsum f l.
  Proof. induction l as [|x l IH]; simpl; [lra|]. rewrite IH. lra. Qed.
  Lemma lsum_scal_r c f l : lsum (fun x => f x * c) l = lsum f l * c.
  Proof. induction l as [|x l IH]; simpl; [lra|]. rewrite IH. lra. Qed.
  Lemma lsum_0 f l : (forall x, In x l -> f x = 0) -> lsum f l = 0.
  Proof.
    induction l as [|x l IH]; simpl; intros E; auto.
    rewrite (E x (or_introl eq_refl)), IH; auto. lra.
  Qed.
  Lemma lsum_app f l1 l2 : lsum f (l1 ++ l2) = lsum f l1 + lsum f l2.
  Proof. induction l1 as [|x l IH]; simpl; [lra|]. rewrite IH. lra. Qed.
  Lemma lsum_nonneg f l : (forall x, In x l -> 0 <= f x) -> 0 <= lsum f l.
  Proof.
    induction l as [|x l IH]; simpl; intros E; [lra|].
    pose proof (E x (or_introl eq_refl)). assert (0 <= lsum f l) by (apply IH; auto). lra.
  Qed.
  Lemma lsum_le f g l : (forall x, In x l -> f x <= g x) -> lsum f l <= lsum g l.
  Proof.
    induction l as [|x l IH]; simpl; intros E; [lra|].
    pose proof (E x (or_introl eq_refl)). assert (lsum f l <= lsum g l) by (apply IH; auto). lra.
  Qed.
  Lemma lsum_perm f l l' : Permutation l l' -> lsum f l = lsum f l'.
  Proof. induction 1; simpl; lra. Qed.
  Lemma lsum_ge_elt f l x : (forall y, In y l -> 0 <= f y) -> In x l -> f x <= lsum f l.
  Proof.
    induction l as [|y l IH]; simpl; [tauto|]. intros Hf [->|Hx].
    - assert (0 <= lsum f l) by (apply lsum_nonneg; auto). lra.
    - assert (f x <= lsum f l) by (apply IH; auto). pose proof (Hf y (or_introl eq_refl)). lra.
  Qed.
  Lemma lsum_filter (p : A -> bool) f l :
    lsum f (filter p l) = lsum (fun x => if p x then f x else 0) l.
  Proof. induction l as [|x l IH]; simpl; auto. destruct (p x); simpl; rewrite IH; lra. Qed.
  Lemma lsum_opp f l : lsum (fun x => - f x) l = - lsum f l.
  Proof. induction l as [|x l IH]; simpl; lra. Qed.
  Lemma lsum_const c l : lsum (fun _ => c) l = c * INR (length l).
  Proof. induction l as [|x l IH]; [simpl; lra|]. cbn [lsum length]. rewrite S_INR, IH. lra. Qed.
End L.
Lemma lsum_map {A B} (f : B -> R) (h : A -> B) l : lsum f (map h l) = lsum (fun x => f (h x)) l.
Proof. induction l as [|x l IH]; simpl; auto. now rewrite IH. Qed.
Lemma lsum_flat_map {A B} (f : B -> R) (h : A -> list B) l :
  lsum f (flat_map h l) = lsum (fun x => lsum f (h x)) l.
Proof. induction l as [|x l IH]; simpl; auto. now rewrite lsum_app, IH. Qed.
Lemma lsum_swap {A B} (f : A -> B -> R) l m :
  lsum (fun x => lsum (f x) m) l = lsum (fun y => lsum (fun x => f x y) l) m.
Proof.
  induction l as [|x l IH]; simpl.
  - symmetry. apply lsum_0. auto.
  - rewrite IH. now rewrite lsum_plus.
Qed.

Lemma rsum_S n f : rsum (S n) f = rsum n f + f n.
Proof. unfold rsum. rewrite seq_S, lsum_app. simpl. lra. Qed.
Lemma rsum_0 f : rsum 0 f = 0.
Proof. reflexivity. Qed.
Lemma rsum_ext n f g : (forall k, (k < n)%nat -> f k = g k) -> rsum n f = rsum n g.
Proof. intros E. apply lsum_ext. intros k Hk. apply in_seq in Hk. apply E. lia. Qed.
Lemma rsum_plus n f g : rsum n (fun k => f k + g k) = rsum n f + rsum n g.
Proof. apply lsum_plus. Qed.
Lemma rsum_minus n f g : rsum n (fun k => f k - g k) = rsum n f - rsum n g.
Proof. apply lsum_minus. Qed.
Lemma rsum_scal n c f : rsum n (fun k => c * f k) = c * rsum n f.
Proof. apply lsum_scal. Qed.
Lemma rsum_scal_r n c f : rsum n (fun k => f k * c) = rsum n f * c.
Proof. apply lsum_scal_r. Qed.
Lemma rsum_zero n f : (forall k, (k < n)%nat -> f k = 0) -> rsum n f = 0.
Proof. intros E. apply lsum_0. intros k Hk. apply in_seq in Hk. apply E. lia. Qed.
Lemma rsum_nonneg n f : (forall k, (k < n)%nat -> 0 <= f k) -> 0 <= rsum n f.
Proof. intros E. apply lsum_nonneg. intros k Hk. apply in_seq in Hk. apply E. lia. Qed.
Lemma rsum_le n f g : (forall k, (k < n)%nat -> f k <= g k) -> rsum n f <= rsum n g.
Proof. intros E. apply lsum_le. intros k Hk. apply in_seq in Hk. apply E. lia. Qed.
Lemma rsum_swap n m f : rsum n (fun i => rsum m (f i)) = rsum m (fun j => rsum n (fun i => f i j)).
Proof. apply lsum_swap. Qed.
Lemma rsum_delta n k f : (k < n)%nat -> rsum n (fun i => if Nat.eqb i k then f i else 0) = f k.
Proof.
  intros Hk. induction n as [|n IH]; [lia|]. rewrite rsum_S.
  destruct (Nat.eq_dec k n) as [->|Hn].
  - rewrite rsum_zero, Nat.eqb_refl; [lra|]. intros i Hi. destruct (Nat.eqb_spec i n); [lia|auto].
  - rewrite IH by lia. destruct (Nat.eqb_spec n k); [lia|lra].
Qed.
Lemma rsum_delta' n k f : (k < n)%nat -> rsum n (fun i => if Nat.eqb k i then f i else 0) = f k.
Proof.
  intros Hk. rewrite <- (rsum_delta n k f Hk). apply rsum_ext. intros i _. now rewrite Nat.eqb_sym.
Qed.
Lemma rsum_ge_elt n f k : (forall i, (i < n)%nat -> 0 <= f i) -> (k < n)%nat -> f k <= rsum n f.
Proof.
  intros Hf Hk. apply lsum_ge_elt; [|apply in_seq; lia]. intros y Hy. apply in_seq in Hy. apply Hf. lia.
Qed.
Lemma rsum_const n c : rsum n (fun _ => c) = INR n * c.
Proof. unfold rsum. rewrite lsum_const, seq_length. lra. Qed.
Lemma rsum_opp n f : rsum n (fun k => - f k) = - rsum n f.
Proof. apply lsum_opp. Qed.

(** Pairs (i,j) with i <= j < n. *)
Definition upper_pairs (n : nat) : list (nat * nat) :=
  flat_map (fun j => map (fun i => (i, j)) (seq 0 (S j))) (seq 0 n).
Lemma in_upper_pairs n i j : In (i, j) (upper_pairs n) <-> (i <= j < n)%nat.
Proof.
  unfold upper_pairs. rewrite in_flat_map. split.
  - intros [k [Hk Hin]]. apply in_seq in Hk. apply in_map_iff in Hin.
    destruct Hin as [l [[= <- <-] Hl]]. apply in_seq in Hl. lia.
  - intros Hij. exists j. split; [apply in_seq; lia|]. apply in_map_iff. exists i. split; auto.
    apply in_seq. lia.
Qed.
Lemma lsum_upper_pairs n (f : nat * nat -> R) :
  lsum f (upper_pairs n) = rsum n (fun j => rsum (S j) (fun i => f (i, j))).
Proof.
  unfold upper_pairs. rewrite lsum_flat_map. apply lsum_ext. intros j _. apply lsum_map.
Qed.
(** For symmetric f: sum over all ordered pairs + diagonal = 2 * sum over i <= j. *)
Lemma rsum_sym_upper n (f : nat -> nat -> R) :
  (forall i j, f i j = f j i) ->
  rsum n (fun i => rsum n (f i)) + rsum n (fun i => f i i)
  = 2 * lsum (fun p => f (fst p) (snd p)) (upper_pairs n).
Proof.
  intros Hs. rewrite lsum_upper_pairs. simpl.
  induction n as [|n IH]; [unfold rsum; simpl; lra|].
  rewrite !rsum_S.
  rewrite (rsum_ext n (fun i => rsum (S n) (f i)) (fun i => rsum n (f i) + f i n))
    by (intros; apply rsum_S).
  rewrite rsum_plus.
  rewrite (rsum_ext n (f n) (fun i => f i n)) by (intros; apply Hs). lra.
Qed.
Lemma NoDup_flat_map_disj {A B} (h : A -> list B) l :
  NoDup l -> (forall a, In a l -> NoDup (h a)) ->
  (forall a b x, In a l -> In b l -> In x (h a) -> In x (h b) -> a = b) ->
  NoDup (flat_map h l).
Proof.
  induction l as [|a l IH]; simpl; intros Hnd Hh Hd; [constructor|].
  inversion Hnd; subst.
  assert (H' : NoDup (flat_map h l)) by (apply IH; eauto).
  assert (Hdis : forall x, In x (h a) -> ~ In x (flat_map h l)).
  { intros x Hx Hin. apply in_flat_map in Hin. destruct Hin as (b & Hb & Hxb).
    assert (a = b) by (eapply Hd; eauto). subst; tauto. }
  specialize (Hh a (or_introl eq_refl)). revert Hh Hdis. generalize (h a) as m.
  induction m as [|y m IHm]; simpl; auto. intros Hm Hdis. inversion Hm; subst.
  constructor; [|apply IHm; auto]. rewrite in_app_iff. intros [?|?]; [tauto|].
  apply (Hdis y); auto.
Qed.
Lemma upper_pairs_NoDup n : NoDup (upper_pairs n).
Proof.
  apply NoDup_flat_map_disj.
  - apply seq_NoDup.
  - intros j _. apply FinFun.Injective_map_NoDup; [|apply seq_NoDup]. now intros x y [= ->].
  - intros a b [i j] _ _ Ha Hb. apply in_map_iff in Ha, Hb.
    destruct Ha as (? & [= _ <-] & _), Hb as (? & [= _ <-] & _). auto.
Qed.
