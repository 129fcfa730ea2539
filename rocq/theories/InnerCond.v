(** Clusters of large inner conductance: the (k+1)-st eigenvalue of the normalised Laplacian is large (C97). *)
From Verif Require Import Base Num RSum Sparse SparseFacts Graph GraphSpec GraphFacts GraphProps1 GraphProps2 GraphProps3
  Spectrum SpectrumSpec SpectrumFacts SpectrumPower SpectrumConv CheegerMath CheegerSpectral CheegerIneq CheegerComp KMeans RecoverTop KppMath Kpp KppTop SpecQual InnerMath.
From Coq Require Import Reals Lra Psatz Lia List Permutation Sorting.Sorted.
Import ListNotations.
Local Open Scope nat_scope.

(** ** Vocabulary: the clusters are s u = j; A is a set of vertices *)
(** Weight of the edges from u to its own cluster. *)
Definition inner_degree (g : graph R) (s : nat -> nat) (u : nat) : R := rsum (number_of_vertices g) (fun v => if s v =? s u then rw g u v else 0%R).
(** Sum of the inner degrees over the part of cluster j in A. *)
Definition inner_volume (g : graph R) (s : nat -> nat) (j : nat) (A : nat -> bool) : R :=
  rsum (number_of_vertices g) (fun u => if (s u =? j) && A u then inner_degree g s u else 0%R).
(** Weight between the part of cluster j in A and the rest of the cluster. *)
Definition split_cut (g : graph R) (s : nat -> nat) (j : nat) (A : nat -> bool) : R :=
  rsum (number_of_vertices g) (fun u => rsum (number_of_vertices g) (fun v => if ((s u =? j) && A u) && ((s v =? j) && negb (A v)) then rw g u v else 0%R)).
(** Each of the k clusters, as a graph of its own, has conductance at least phi. *)
Definition inner_conductance (g : graph R) (k : nat) (s : nat -> nat) (phi : R) : Prop :=
  forall j A, j < k -> (phi * Rmin (inner_volume g s j A) (inner_volume g s j (fun u => negb (A u))) <= split_cut g s j A)%R.

(** ** A vector with k linear conditions and small Rayleigh quotient *)
Section Courant.
  Variables (n : nat) (M : nat -> nat -> R) (E : list (R * list R)).
  Hypothesis HE : eigen_system n M E.
  Hypothesis Hs : StronglySorted Rle (map fst E).
  Hypothesis Msym : forall i j, i < n -> j < n -> M i j = M j i.
  Variables (k : nat) (c : nat -> nat -> R).
  Hypothesis Hk : k < n.
  Let D : R * list R := (0%R, []).
  Local Notation e i := (vx (snd (nth i E D))).
  Lemma constrained : exists x, (0 < dot n x x)%R /\ (quad n M x <= nth k (map fst E) 0 * dot n x x)%R /\ forall j, j < k -> dot n (c j) x = 0%R.
  Proof.
    destruct HE as (HL & _ & HO & _).
    destruct (homogeneous k (S k) (fun j i => dot n (c j) (e i))) as (a & (i0 & Hi0 & Ni0) & Ha); [lia|].
    set (x := fun u => rsum (S k) (fun i => a i * e i u)%R). exists x.
    assert (forall z, dot n z x = rsum (S k) (fun i => a i * dot n z (e i)))%R as DX.
    { intros z. unfold dot, x. rewrite (rsum_ext n _ (fun u => rsum (S k) (fun i => z u * (a i * e i u)))%R) by (intros; now rewrite rsum_scal).
      rewrite rsum_swap. apply rsum_ext. intros i _. rewrite <- rsum_scal. apply rsum_ext. intros. ring. }
    assert (forall p, p < n -> dot n x (e p) = if p <? S k then a p else 0%R) as DE.
    { intros p Hp. rewrite dot_sym, DX. rewrite (rsum_ext (S k) _ (fun i => if p =? i then a i else 0%R)).
      - destruct (Nat.ltb_spec p (S k)); [now rewrite rsum_delta'|]. apply rsum_zero. intros i Hi. destruct (Nat.eqb_spec p i); [lia|reflexivity].
      - intros i Hi. rewrite (HO p i D) by lia. destruct (p =? i); ring. }
    assert (forall f : R * list R -> R, lsum f E = rsum n (fun i => f (nth i E D))) as LR by (intros f; rewrite <- HL; symmetry; apply rsum_nth).
    assert (dot n x x = rsum n (fun i => dot n x (e i) ^ 2))%R as EX.
    { rewrite (parseval n M E HE x x), LR. apply rsum_ext. intros. ring. }
    assert (quad n M x = rsum n (fun i => fst (nth i E D) * dot n x (e i) ^ 2))%R as EQ.
    { rewrite quad_dot, (parseval n M E HE x (mulv n M x)), LR. apply rsum_ext. intros i Hi.
      rewrite (mulv_component n M E HE Msym x (nth i E D)) by (apply nth_In; lia). ring. }
    split; [|split].
    - rewrite EX. apply Rlt_le_trans with (dot n x (e i0) ^ 2)%R.
      + rewrite DE by lia. destruct (Nat.ltb_spec i0 (S k)); [|lia]. rewrite <- Rsqr_pow2. now apply Rsqr_pos_lt.
      + apply (rsum_ge_elt n (fun i => dot n x (e i) ^ 2)%R); [intros; apply pow2_ge_0|lia].
    - rewrite EQ, EX, <- rsum_scal. apply rsum_le. intros i Hi. rewrite DE by auto. destruct (Nat.ltb_spec i (S k)) as [Li|]; [|right; ring].
      apply Rmult_le_compat_r; [apply pow2_ge_0|]. destruct (Nat.eq_dec i k) as [->|]; [right; symmetry; apply (map_nth fst E D)|].
      pose proof (ss_nth _ (fst D) (map fst E) Hs i k ltac:(lia) ltac:(rewrite map_length; lia)) as SN. rewrite (map_nth fst E D i) in SN. exact SN.
    - intros j Hj. rewrite DX. rewrite <- (Ha j Hj). apply rsum_ext. intros. ring.
  Qed.
End Courant.

Section G.
  Variables (g : graph R) (k : nat) (s : nat -> nat) (phi rho lam : R).
  Hypothesis Hr : reachable_pos g.
  Local Notation n := (number_of_vertices g).
  Hypothesis noloop : forall v, v < n -> rw g v v = 0%R.
  Hypothesis noiso : forall v, v < n -> rdeg g v <> 0%R.
  Hypothesis Hk : k < n.
  Hypothesis Hs : forall u, u < n -> s u < k.
  Hypothesis Hphi : (0 < phi)%R.
  Hypothesis Hin : inner_conductance g k s phi.
  Hypothesis Hrho : forall u, u < n -> (rho * rdeg g u <= inner_degree g s u)%R.
  Local Notation M := (matrix_of_graph MatNormalisedLaplacian g).
  Hypothesis Hlam : nth_eigenvalue n M k lam.

  Lemma one_cluster j (f : nat -> R) : j < k -> rsum k (fun i => if i =? j then f i else 0%R) = f j.
  Proof. intros Hj. now apply rsum_delta. Qed.
  Theorem inner_eigenvalue : (phi ^ 2 * rho <= 2 * lam)%R.
  Proof.
    destruct Hlam as (E & HE & HS & El). pose proof (reachable_pos_reachable g Hr) as Hr'.
    assert (forall u v, rw g u v = rw g v u) as WS by (intros; now apply rw_sym).
    assert (forall u v, (0 <= rw g u v)%R) as WN by (intros; now apply rw_nonneg).
    assert (forall u, u < n -> (0 < rdeg g u)%R) as DP by (exact (deg_pos g Hr noiso)).
    assert (forall u, u < n -> (0 < rt (rdeg g) u)%R) as RP by (intros u Hu; apply sqrt_lt_R0; auto).
    assert (forall u, u < n -> (rt (rdeg g) u * rt (rdeg g) u = rdeg g u)%R) as RS by (intros u Hu; apply sqrt_sqrt, Rlt_le; auto).
    assert (forall i j, i < n -> j < n -> M i j = M j i) as MS.
    { intros i j Hi Hj. rewrite !(nlap_form g Hr noiso) by auto. rewrite (WS i j), Nat.eqb_sym. f_equal. f_equal. apply Rmult_comm. }
    destruct (constrained n M E HE HS MS k (fun j u => if s u =? j then inner_degree g s u / rt (rdeg g) u else 0)%R Hk) as (x & PX & QX & OX). rewrite El in QX.
    set (y := fun u => (x u / rt (rdeg g) u)%R).
    assert (forall u, u < n -> x u = (rt (rdeg g) u * y u)%R) as XY by (intros u Hu; unfold y; pose proof (RP u Hu); field; lra).
    pose proof (quad_scaled n (rw g) (rdeg g) M WS DP (rdeg_noloop g noloop) (nlap_form g Hr noiso) y) as QS.
    assert (quad n M x = quad n M (fun i => rt (rdeg g) i * y i)%R) as EQ by (unfold quad; apply rsum_ext; intros u Hu; apply rsum_ext; intros v Hv; now rewrite !XY).
    rewrite EQ in QX. set (F := rsum n (fun i => rsum n (fun v => rw g i v * (y i - y v) ^ 2)%R)) in *.
    assert (dot n x x = rsum n (fun u => rdeg g u * y u ^ 2))%R as EX by (unfold dot; apply rsum_ext; intros u Hu; rewrite !XY, <- (RS u Hu) by auto; ring).
    (* cluster by cluster *)
    set (Yj := fun j => rsum n (fun u => if s u =? j then din n (rw g) (fun v => s v =? j) u * y u ^ 2 else 0)%R).
    set (Fj := fun j => rsum n (fun u => rsum n (fun v => if (s u =? j) && (s v =? j) then rw g u v * (y u - y v) ^ 2 else 0))%R).
    assert (forall j u, s u = j -> din n (rw g) (fun v => s v =? j) u = inner_degree g s u) as DI by (intros j u <-; reflexivity).
    assert (forall j, j < k -> (phi ^ 2 * Yj j <= Fj j)%R) as CL.
    { intros j Hj. apply (inner_form n (rw g) (fun v => s v =? j) phi y WS WN Hphi).
      - intros A. pose proof (Hin j A Hj) as H.
        assert (forall B, inner_volume g s j B = dvol n (rw g) (fun v => s v =? j) B) as EV.
        { intros B. unfold inner_volume, dvol. apply rsum_ext. intros u _. destruct (Nat.eqb_spec (s u) j) as [Eu|]; cbn [andb]; [|reflexivity]. now rewrite DI. }
        rewrite !EV in H. exact H.
      - etransitivity; [|exact (OX j Hj)]. unfold dot. apply rsum_ext. intros u Hu. cbv beta. destruct (Nat.eqb_spec (s u) j) as [Eu|]; [|ring]. rewrite DI by auto. unfold y. pose proof (RP u Hu). field. lra. }
    assert (rsum k Fj <= F)%R as SF.
    { unfold Fj, F. rewrite (rsum_swap k n). apply rsum_le. intros u Hu. rewrite (rsum_swap k n). apply rsum_le. intros v Hv.
      assert (0 <= rw g u v * (y u - y v) ^ 2)%R as P0 by (apply Rmult_le_pos; [auto|apply pow2_ge_0]).
      rewrite (rsum_ext k _ (fun i => if i =? s u then (if s v =? i then rw g u v * (y u - y v) ^ 2 else 0)%R else 0%R)) by (intros i _; rewrite (Nat.eqb_sym (s u) i); destruct (i =? s u), (s v =? i); reflexivity).
      rewrite one_cluster by auto. destruct (s v =? s u); lra. }
    assert (rho * dot n x x <= rsum k Yj)%R as SY.
    { rewrite EX. unfold Yj. rewrite (rsum_swap k n), <- rsum_scal. apply rsum_le. intros u Hu.
      rewrite (rsum_ext k _ (fun i => if i =? s u then (inner_degree g s u * y u ^ 2)%R else 0%R)).
      - rewrite one_cluster by auto. rewrite <- Rmult_assoc. apply Rmult_le_compat_r; [apply pow2_ge_0|auto].
      - intros i _. rewrite (Nat.eqb_sym (s u) i). destruct (Nat.eqb_spec i (s u)) as [->|]; [|reflexivity]. now rewrite DI. }
    assert (phi ^ 2 * rsum k Yj <= rsum k Fj)%R as SC by (rewrite <- rsum_scal; now apply rsum_le).
    assert (0 < phi ^ 2)%R by (now apply pow_lt). apply (Rmult_le_reg_r (dot n x x)); [exact PX|].
    apply Rle_trans with (phi ^ 2 * rsum k Yj)%R; [rewrite Rmult_assoc; apply Rmult_le_compat_l; lra|]. lra.
  Qed.
End G.
