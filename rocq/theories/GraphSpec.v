(** Vocabulary used in the statements about Graph (no code is modelled here). *)
From Verif Require Import Base Num RSum Sparse Graph.
From Coq Require Import Sorting.Sorted Reals.

Section Spec.
  Context {W : Type} `{Num W}.

  (** Edge weight between two vertices: what [adjacency()->coeff(u,v)] returns. *)
  Definition weight (g : graph W) (u v : nat) : W := coeff (g_adj g) u v.

  (** Values not above EPSILON are dropped by the constructors. *)
  Definition above_eps (x : W) : W := if wltb weps x then x else w0.

  (** A Graph object obtained from any constructor call on a well-formed matrix followed by
      any sequence of calls that all satisfy [allowed]. *)
  Definition reachable_by (allowed : gop W -> Prop) (g : graph W) : Prop :=
    exists M g0 ops, sp_wf M /\ make_graph M = Ok g0 /\ Forall allowed ops /\ grun g0 ops = Some g.
  Definition reachable : graph W -> Prop := reachable_by (fun _ => True).

  (** Every added weight is positive. *)
  Definition positive_op (o : gop W) : Prop :=
    match o with OpAdd _ _ w => wltb w0 w = true | _ => True end.
  Definition reachable_pos : graph W -> Prop := reachable_by positive_op.
End Spec.

(** Real-valued views, for exact arithmetic. *)
Section SpecR.
  Context {W : Type} `{ExactNum W}.
  (** Coefficient of a matrix and edge weight, as real numbers. *)
  Definition rcoeff (M : sprs W) i j : R := toR (coeff M i j).
  Definition rw (g : graph W) u v : R := toR (weight g u v).
  (** Degree: incident weights, the self-loop counted twice. *)
  Definition rdeg (g : graph W) v : R := (rsum (g_n g) (fun u => rw g v u) + rw g v v)%R.
End SpecR.

(** x' m x *)
Definition quad (n : nat) (m : nat -> nat -> R) (x : nat -> R) : R :=
  rsum n (fun u => rsum n (fun v => x u * m u v * x v))%R.

Section Spec2.
  Context {W : Type} `{Num W}.
  (** Every stored weight exceeds EPSILON (true of every constructed graph). *)
  Definition weights_above_eps (g : graph W) : Prop :=
    forall i j v, sp_get (g_adj g) i j = Some v -> wltb weps v = true.
  (** No stored entry is negative. *)
  Definition nonneg_entries (M : sprs W) : Prop :=
    forall i j v, sp_get M i j = Some v -> wltb v w0 = false.
  (** No explicit zero is stored. *)
  Definition no_stored_zero (g : graph W) : Prop :=
    forall i j v, sp_get (g_adj g) i j = Some v -> weqb v w0 = false.
End Spec2.

(** [x] occurs in [vs] and [y] does not occur before the first [x]. *)
Definition occurs_before (vs : list Z) (x y : Z) : Prop :=
  exists a b, vs = a ++ x :: b /\ ~ In x a /\ ~ In y a.
(** [ds] lists the distinct elements of [vs] in the order of their first occurrences. *)
Definition first_occurrences (vs ds : list Z) : Prop :=
  NoDup ds /\ (forall x, In x ds <-> In x vs) /\ StronglySorted (occurs_before vs) ds.
