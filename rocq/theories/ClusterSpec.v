(** Vocabulary for the statements about local graphs (no code is modelled here). *)
From Verif Require Import Base Num RSum Sparse Graph GraphSpec Cluster.
From Coq Require Import Reals.

Section Spec.
  Context {W : Type} `{Num W}.
  (** The answers of a local graph for an existing vertex. *)
  Definition lg_has (lg : lgraph W) (v : nat) : Prop := lg_exists lg (Z.of_nat v) = true.
  Definition nbe (lg : lgraph W) (v : nat) : list (edge W) :=
    match lg_neighbors lg (Z.of_nat v) with Ok es => es | _ => [] end.
  Definition nb (lg : lgraph W) (v : nat) : list nat := map v2 (nbe lg v).
  Definition dg (lg : lgraph W) (v : nat) : W :=
    match lg_degree lg (Z.of_nat v) with Ok d => d | _ => w0 end.

  (** What the library relies on of a LocalGraph: an existing vertex has a degree and a list of
      neighbours, which exist; the two neighbour queries agree; a missing vertex is refused. *)
  Record lg_ok (lg : lgraph W) : Prop := {
    lo_neg : forall z, lg_exists lg z = true -> (0 <= z)%Z;
    lo_neigh : forall v, lg_has lg v -> lg_neighbors lg (Z.of_nat v) = Ok (nbe lg v);
    lo_nunw : forall v, lg_has lg v -> lg_nunw lg (Z.of_nat v) = Ok (nb lg v);
    lo_deg : forall v, lg_has lg v -> lg_degree lg (Z.of_nat v) = Ok (dg lg v);
    lo_closed : forall v u, lg_has lg v -> In u (nb lg v) -> lg_has lg u;
    lo_bad : forall v, ~ lg_has lg v -> exists e, lg_degree lg (Z.of_nat v) = Throw e }.

  (** Stored positions of a sparse vector. *)
  Definition vkeys (x : sprs W) : list nat := map fst (sp_col x 0).
  Definition vwf (x : sprs W) : Prop := sp_ncols x = 1 /\ sp_wf x.
End Spec.

Section SpecR.
  Context {W : Type} `{ExactNum W}.
  (** A weighted undirected graph given by its weight function; [nb] lists exactly the
      vertices at positive weight, the degree counts a self-loop twice. *)
  Record lg_spec (lg : lgraph W) (w : nat -> nat -> R) : Prop := {
    ls_ok : lg_ok lg;
    ls_sym : forall u v, w u v = w v u;
    ls_nonneg : forall u v, (0 <= w u v)%R;
    ls_nodup : forall v, lg_has lg v -> NoDup (nb lg v);
    ls_nb : forall v u, lg_has lg v -> (In u (nb lg v) <-> (0 < w v u)%R);
    ls_wt : forall v e, lg_has lg v -> In e (nbe lg v) -> toR (ewt e) = w v (v2 e);
    ls_deg : forall v, lg_has lg v -> toR (dg lg v) = (lsum (w v) (nb lg v) + w v v)%R }.

  Definition rv (x : sprs W) (u : nat) : R := toR (vget x u).
  (** Degree as a real number. *)
  Definition ldeg (lg : lgraph W) (v : nat) : R := toR (dg lg v).
  (** Sum over the stored entries of a vector. *)
  Definition vsum (f : nat -> R -> R) (x : sprs W) : R :=
    lsum (fun e => f (fst e) (toR (snd e))) (sp_col x 0).
  Definition vmass (x : sprs W) : R := vsum (fun _ t => t) x.

  (** Lazy random walk: probability of moving from [u] to [v]. *)
  Definition lazy_step (lg : lgraph W) (w : nat -> nat -> R) (u v : nat) : R :=
    ((if u =? v then / 2 else 0) + w u v / (2 * ldeg lg u))%R.
  (** One step of the lazy walk applied to a distribution with finite support. *)
  Definition walk (lg : lgraph W) (w : nat -> nat -> R) (x : sprs W) (v : nat) : R :=
    vsum (fun u t => t * lazy_step lg w u v)%R x.
End SpecR.

(** Volume, cut and conductance of a set of vertices, given as a list without duplicates. *)
Section Cuts.
  Context {W : Type} `{ExactNum W}.
  Definition notin (S : list nat) (v : nat) : R := if in_dec Nat.eq_dec v S then 0%R else 1%R.
  (** Local graphs: sums over the neighbours. *)
  Definition lvol (lg : lgraph W) (S : list nat) : R := lsum (ldeg lg) S.
  Definition lcut (lg : lgraph W) (w : nat -> nat -> R) (S : list nat) : R :=
    lsum (fun u => lsum (fun v => w u v * notin S v)%R (nb lg u)) S.
  (** Graphs: sums over all vertices. *)
  Definition gvol (g : graph W) (S : list nat) : R := lsum (rdeg g) S.
  Definition gcut (g : graph W) (S : list nat) : R :=
    lsum (fun u => rsum (number_of_vertices g) (fun v => rw g u v * notin S v)%R) S.
  Definition gtotal (g : graph W) : R := rsum (number_of_vertices g) (rdeg g).
  (** w(S, V-S) / min(vol S, vol (V-S)) *)
  Definition gcond (g : graph W) (S : list nat) : R := (gcut g S / Rmin (gvol g S) (gtotal g - gvol g S))%R.
End Cuts.
