(** Vocabulary for the statement about spectral clustering (no code is modelled here). *)
From Verif Require Import Base Num RSum SpectrumSpec.
From Coq Require Import Reals.
Local Open Scope nat_scope.

(** Squared Euclidean distance in dimension [D]. *)
Definition sqd (D : nat) (x c : list R) : R := rsum D (fun d => (vx x d - vx c d) ^ 2)%R.
(** The centre point [i] is assigned to. *)
Definition centre (C : list (list R)) (z : list nat) (i : nat) : list R := nth (nth i z 0) C [].
(** Every point has the label of a nearest centre, the first one in case of a tie. *)
Definition nearest (D : nat) (X C : list (list R)) (z : list nat) : Prop :=
  length z = length X /\
  forall i, i < length X -> nth i z 0 < length C /\
    forall j, j < length C ->
      (sqd D (nth i X []) (centre C z i) <= sqd D (nth i X []) (nth j C []))%R /\
      (j < nth i z 0 -> (sqd D (nth i X []) (centre C z i) < sqd D (nth i X []) (nth j C []))%R).
(** Number of points with label [k], and sum of their coordinate [d]. *)
Definition size_of (X : list (list R)) (z : list nat) (k : nat) : R :=
  rsum (length X) (fun i => if nth i z 0 =? k then 1%R else 0%R).
Definition sum_of (X : list (list R)) (z : list nat) (k d : nat) : R :=
  rsum (length X) (fun i => if nth i z 0 =? k then vx (nth i X []) d else 0%R).
(** The centres are the means of the clusters; that of an empty cluster is the origin. *)
Definition means (D K : nat) (X : list (list R)) (z : list nat) (C : list (list R)) : Prop :=
  length C = K /\
  forall k d, k < K -> d < D ->
    (size_of X z k = 0%R -> vx (nth k C []) d = 0%R) /\
    (size_of X z k <> 0%R -> vx (nth k C []) d = (sum_of X z k d / size_of X z k)%R).
(** The k-means objective. *)
Definition cost (D : nat) (X C : list (list R)) (z : list nat) : R :=
  rsum (length X) (fun i => sqd D (nth i X []) (centre C z i)).
Definition square_sum (D : nat) (X : list (list R)) : R := rsum (length X) (fun i => dot D (vx (nth i X [])) (vx (nth i X []))).

(** [z] is the result of T >= 1 rounds of Lloyd's algorithm started from K of the points: in each round the points are
    assigned to the nearest centres and the centres replaced by the means; the objective never increases; it stops
    after [limit] rounds, or when the objective does not change (in the first round it is compared with 0; for
    dimensions above 16 the library leaves the squared norms of the points out of the objective). *)
Definition lloyd_result (D K limit : nat) (X : list (list R)) (z : list nat) : Prop :=
  exists (T : nat) (C : nat -> list (list R)) (lab : nat -> list nat),
    1 <= T <= limit /\ z = lab (T - 1) /\
    length (C 0) = K /\ (forall c, In c (C 0) -> In c X) /\
    (forall t, t < T -> nearest D X (C t) (lab t) /\ means D K X (lab t) (C (S t))) /\
    (forall t, S t < T -> (cost D X (C (S t)) (lab (S t)) <= cost D X (C t) (lab t))%R) /\
    (T < limit -> T = 1 -> cost D X (C 0) (lab 0) = if D <=? 16 then 0%R else square_sum D X) /\
    (T < limit -> 1 < T -> cost D X (C (T - 1)) (lab (T - 1)) = cost D X (C (T - 2)) (lab (T - 2))) /\
    (forall t, 1 <= t -> t + 1 < T -> cost D X (C t) (lab t) <> cost D X (C (t - 1)) (lab (t - 1))).
