(** Outcomes of the modelled C++ functions, and small list utilities. *)
From Coq Require Export List Arith ZArith Lia Bool.
Export ListNotations.

(** The C++ exception classes that the modelled functions can throw.
    repo: the [throw] statements of stag_lib/*.cpp, and std::stoi / std::stol /
    std::stod, which throw std::invalid_argument or std::out_of_range. *)
Inductive exn : Type :=
| InvalidArgument   (* std::invalid_argument *)
| DomainError       (* std::domain_error *)
| RuntimeError      (* std::runtime_error *)
| OutOfRange.       (* std::out_of_range *)

(** Result of a call: a value, an exception, or undefined behaviour
    (out-of-bounds access etc. in the release build, where [assert] is a no-op). *)
Inductive outcome (A : Type) : Type :=
| Ok (a : A)
| Throw (e : exn)
| UB.
Arguments Ok {A} a.
Arguments Throw {A} e.
Arguments UB {A}.

Definition obind {A B} (o : outcome A) (f : A -> outcome B) : outcome B :=
  match o with Ok a => f a | Throw e => Throw e | UB => UB end.
Notation "'do' x <- o ; f" := (obind o (fun x => f))
  (at level 200, x pattern, o at level 100, f at level 200, right associativity).

Definition omap {A B} (f : A -> B) (o : outcome A) : outcome B :=
  match o with Ok a => Ok (f a) | Throw e => Throw e | UB => UB end.

Definition is_ok {A} (o : outcome A) : bool := match o with Ok _ => true | _ => false end.

(** [nth] element of a list of columns, updated by a function. *)
Fixpoint upd_nth {A} (l : list A) (k : nat) (f : A -> A) : list A :=
  match l, k with
  | [], _ => []
  | a :: r, 0 => f a :: r
  | a :: r, S k' => a :: upd_nth r k' f
  end.

Lemma upd_nth_length {A} (l : list A) k f : length (upd_nth l k f) = length l.
Proof. revert k; induction l as [|a l IH]; intros [|k]; simpl; auto. Qed.

Lemma nth_upd_nth {A} (l : list A) k f d j :
  k < length l ->
  nth j (upd_nth l k f) d = if Nat.eqb j k then f (nth k l d) else nth j l d.
Proof.
  revert k j; induction l as [|a l IH]; intros k j Hk; simpl in *; [lia|].
  destruct k as [|k]; destruct j as [|j]; simpl; auto.
  apply IH; lia.
Qed.

Lemma upd_nth_out {A} (l : list A) k f : length l <= k -> upd_nth l k f = l.
Proof.
  revert k; induction l as [|a l IH]; intros [|k] Hk; simpl in *; auto; [lia|].
  f_equal; apply IH; lia.
Qed.

Lemma upd_nth_ext {A} (l : list A) k f g :
  (forall x, In x l -> f x = g x) -> upd_nth l k f = upd_nth l k g.
Proof.
  revert k; induction l as [|a l IH]; intros [|k] H; simpl; auto.
  - now rewrite (H a (or_introl eq_refl)).
  - f_equal; apply IH; intros; apply H; now right.
Qed.

Lemma nth_repeat_any {A} (x : A) n j d : nth j (repeat x n) d = if j <? n then x else d.
Proof.
  revert j; induction n as [|n IH]; intros [|j]; simpl; auto.
  rewrite IH. reflexivity.
Qed.

Lemma list_eq_nth {A} (l1 l2 : list A) d :
  length l1 = length l2 -> (forall k, k < length l1 -> nth k l1 d = nth k l2 d) -> l1 = l2.
Proof. intros Hl H. apply nth_ext with (d := d) (d' := d); auto. Qed.

Lemma Forall_nth_iff {A} (P : A -> Prop) l d :
  Forall P l <-> forall k, k < length l -> P (nth k l d).
Proof.
  split.
  - intros H k Hk. rewrite Forall_forall in H. apply H. now apply nth_In.
  - intros H. apply Forall_forall. intros x Hx.
    destruct (In_nth l x d Hx) as [k [Hk <-]]. now apply H.
Qed.

Lemma nth_map_seq {A} (f : nat -> A) n k d : k < n -> nth k (map f (seq 0 n)) d = f k.
Proof.
  intros Hk. rewrite nth_indep with (d' := f 0) by (now rewrite map_length, seq_length).
  rewrite map_nth. now rewrite seq_nth by auto.
Qed.

Lemma upd_nth_id {A} (l : list A) k : upd_nth l k (fun x => x) = l.
Proof. revert k; induction l as [|a l IH]; intros [|k]; simpl; auto. now rewrite IH. Qed.

Lemma upd_nth_twice {A} (l : list A) k f g : upd_nth (upd_nth l k f) k g = upd_nth l k (fun x => g (f x)).
Proof. revert k; induction l as [|a l IH]; intros [|k]; simpl; auto. now rewrite IH. Qed.

Lemma upd_nth_mid {A} (l1 : list A) x l2 f : upd_nth (l1 ++ x :: l2) (length l1) f = l1 ++ f x :: l2.
Proof. induction l1 as [|a l1 IH]; simpl; auto. now rewrite IH. Qed.
