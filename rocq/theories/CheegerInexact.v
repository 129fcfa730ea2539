(** cheeger_cut with an eigensolver that is not exact (C93). *)
From Verif Require Import Base Num RSum Sparse SparseFacts Graph GraphSpec GraphFacts GraphProps1 GraphProps2 GraphProps3 Cluster ClusterSpec ClusterInst ClusterSweep ClusterTop ClusterExamples
  Spectrum SpectrumSpec SpectrumFacts SpectrumPower SpectrumConv Cheeger CheegerFacts CheegerMath CheegerSpectral CheegerTop CheegerIneq RecoverTop SpecQual.
From Coq Require Import Reals Lra Psatz Lia List Permutation Sorting.Sorted.
Import ListNotations.
Local Open Scope nat_scope.

(** ** Specification *)
(** The vector cheeger_cut works with when the eigensystem is [p; q]: that of the larger value, q in case of a tie. *)
Definition chosen (p q : R * list R) : R * list R := if Rlt_dec (fst q) (fst p) then p else q.
(** The square roots of the degrees: the vector with eigenvalue 0 of the normalised Laplacian. *)
Definition root_degrees (g : graph R) (v : nat) : R := sqrt (rdeg g v).
(** Squared length of the part of x orthogonal to the square roots of the degrees. *)
Definition spread (g : graph R) (x : nat -> R) : R :=
  (dot (number_of_vertices g) x x - dot (number_of_vertices g) x (root_degrees g) ^ 2 / dot (number_of_vertices g) (root_degrees g) (root_degrees g))%R.
(** A proper cut of the n vertices, and the labels that describe it. *)
Definition proper_cut (n : nat) (cut : list nat) : Prop := NoDup cut /\ (forall v, In v cut -> v < n) /\ 1 <= length cut < n.
Definition labels_of (n : nat) (cut : list nat) : list Z := map (fun i => if in_dec Nat.eq_dec i cut then 1%Z else 0%Z) (seq 0 n).

(** ** The sweep over any vector *)
Lemma inexact_sweep (solver : eigen_solver (W := R)) (g : graph R) p q : reachable_pos g -> 3 <= number_of_vertices g ->
  (forall v, v < number_of_vertices g -> rdeg g v <> 0%R) -> snd (compute_eigensystem solver g MatNormalisedLaplacian 2 Smallest) = Ok [p; q] ->
  let x := if wltb (fst q) (fst p) then snd p else snd q in let n := number_of_vertices g in length x = n ->
  exists labels order k, snd (cheeger_cut solver g) = Ok labels /\ Permutation (seq 0 n) order /\
      StronglySorted (listed_before (fun i => vx x i / sqrt (rdeg g i))%R) order /\
      1 <= k < n /\
      (forall j, 1 <= j < n -> (gcond g (firstn k order) <= gcond g (firstn j order))%R /\
                               (j < k -> (gcond g (firstn k order) < gcond g (firstn j order))%R)) /\
      (forall j, 1 <= j < n -> (0 < gden g (firstn j order))%R) /\
      labels = map (fun i => if in_dec Nat.eq_dec i (firstn k order) then 1%Z else 0%Z) (seq 0 n).
Proof.
  intros Hr Hn3 Hd Ees x n Lq. pose proof (reachable_pos_reachable g Hr) as Hr'. destruct (reachable_ok g Hr') as [_ Hc].
  assert (Hd' : forall v, v < n -> (0 < rdeg g v)%R).
  { intros v Hv. pose proof (rdeg_nonneg g v Hr). specialize (Hd v Hv). lra. }
  destruct (cheeger_steps solver g p q Hc) as (g' & vec & Q & Hw & Hk & Hv & E & _); [exact Ees|exact Lq|]. fold x in Hv. clearbody x.
  destruct (qreach_base g g' Hc Q) as [C' B].
  assert (Hrg' : reachable_pos g').
  { eapply qreach_reachable; [|exact Hr|exact Q]. intros [] Ho; cbn in *; tauto. }
  pose proof B as (B1 & B2 & B3).
  destruct (sweep_set_graph_spec g' vec Hrg' Hw) as (order & k & Hp & Hss & Es & Hkl & Hbest & _).
  { unfold number_of_vertices. intros i Hi. rewrite <- B1. now apply Hk. }
  rewrite E, Es. cbn [obind].
  assert (NDk : NoDup (vkeys vec)) by (apply ss_lt_nodup; now apply vkeys_sorted).
  assert (Ps : Permutation (seq 0 n) order).
  { eapply perm_trans; [|exact Hp]. apply NoDup_Permutation; [apply seq_NoDup|exact NDk|]. intros i. rewrite in_seq, Hk. unfold n, number_of_vertices. lia. }
  assert (Lo : length order = n) by (rewrite <- (Permutation_length Ps); apply seq_length).
  assert (Hden : forall j, 1 <= j < n -> (0 < gden g (firstn j order))%R).
  { intros j Hj. unfold gden. rewrite (prefix_vol n order Ps g j), (prefix_tot n order Ps g eq_refl) by lia. rewrite pvol_compl.
    assert (Ha : forall i, i < n -> (0 < rdeg g (at_ order i))%R) by (intros i Hi; apply Hd', (at_lt n order Ps); auto).
    apply Rmin_glb_lt.
    - eapply Rlt_le_trans; [|apply (rsum_ge_elt n (fun i => rdeg g (at_ order i) * indic (i <? j))%R 0)]; try lia.
      + cbv beta. destruct (Nat.ltb_spec 0 j); [|lia]. unfold indic. specialize (Ha 0 ltac:(lia)). lra.
      + intros i Hi. specialize (Ha i Hi). destruct (i <? j); unfold indic; lra.
    - eapply Rlt_le_trans; [|apply (rsum_ge_elt n (fun i => rdeg g (at_ order i) * indic (j <=? i))%R (n - 1))]; try lia.
      + cbv beta. destruct (Nat.leb_spec j (n - 1)); [|lia]. unfold indic. specialize (Ha (n - 1) ltac:(lia)). lra.
      + intros i Hi. specialize (Ha i Hi). destruct (j <=? i); unfold indic; lra. }
  assert (Hden' : forall j, 1 <= j < n -> (0 < gden g' (firstn j order))%R) by (intros j Hj; destruct (same_gcond g g' (firstn j order) B) as [_ ->]; auto).
  assert (Hkn : 1 <= k < n).
  { destruct (Hbest 1 ltac:(lia) (Hden' 1 ltac:(lia))) as (H1 & H2 & _). split; auto.
    destruct (Nat.eq_dec k n) as [->|]; [|lia]. exfalso. rewrite <- Lo, firstn_all in H2.
    unfold gden in H2. pose proof (Rmin_r (gvol g' order) (gtotal g' - gvol g' order)).
    assert (gtotal g' = gvol g' order); [|lra]. unfold gtotal, gvol, number_of_vertices. rewrite <- B1. apply lsum_perm. exact Ps. }
  destruct (mark_spec (firstn k order) (repeat 0%Z (g_n g))) as (cl & Em & L & G).
  { rewrite repeat_length. intros i Hi. change (g_n g) with n.
    assert (In i order) by (rewrite <- (firstn_skipn k order); apply in_app_iff; now left).
    eapply Permutation_in in H; [|apply Permutation_sym, Ps]. apply in_seq in H. lia. }
  rewrite Em. rewrite repeat_length in *. eexists; exists order, k. split; [reflexivity|]. split; [exact Ps|]. split; [|split; [exact Hkn|split; [|split; [exact Hden|]]]].
  - eapply ss_impl_in; [|exact Hss]. 
    assert (EV : forall i, In i order -> rv vec i = (vx x i / sqrt (rdeg g i))%R).
    { intros i Hi. eapply Permutation_in in Hi; [|apply Permutation_sym, Ps]. apply in_seq in Hi. unfold rv. cbn [toR ExactR].
      rewrite Hv by (unfold n, number_of_vertices in Hi; lia). rewrite degv_R by (auto; unfold n, number_of_vertices in Hi; lia).
      assert (Ez : (if weqb (nth i x w0) w0 then w0 else nth i x w0) = vx x i).
      { unfold vx. destruct (weqb (nth i x w0) w0) eqn:Ew; [|reflexivity]. apply (toR_eqb (nth i x w0) w0) in Ew. symmetry. exact Ew. }
      rewrite Ez. cbn [wmul wsqrt wdiv w1 NumR]. specialize (Hd' i ltac:(unfold n in *; lia)).
      unfold Rdiv at 1. rewrite Rmult_1_l, sqrt_inv. unfold Rdiv. ring. }
    intros i j Hi Hj [Lt|[Eq Lt]]; unfold listed_before; rewrite !EV in * by auto; [now left|now right].
  - intros j Hj. destruct (Hbest j ltac:(lia) (Hden' j Hj)) as (_ & _ & H1 & H2).
    destruct (same_gcond g g' (firstn k order) B) as [<- _]. destruct (same_gcond g g' (firstn j order) B) as [<- _]. auto.
  - apply (nth_ext _ _ 0%Z 0%Z); [rewrite map_length, seq_length; exact L|]. intros i Hi. rewrite L in Hi.
    rewrite G by auto. rewrite nth_map_seq by exact Hi. destruct (in_dec Nat.eq_dec i (firstn k order)); [reflexivity|]. apply nth_repeat.
Qed.

Section V.
  Variable g : graph R.
  Hypothesis Hr : reachable_pos g.
  Local Notation n := (number_of_vertices g).
  Local Notation N := (matrix_of_graph MatNormalisedLaplacian g).
  Hypothesis noloop : forall v, v < n -> rw g v v = 0%R.
  Hypothesis noiso : forall v, v < n -> rdeg g v <> 0%R.
  Hypothesis n_pos : 0 < n.
  Lemma root_sq v : v < n -> (root_degrees g v * root_degrees g v = rdeg g v)%R.
  Proof. intros Hv. apply sqrt_sqrt. pose proof (dpos g Hr noiso v Hv). lra. Qed.
  Lemma root_pos v : v < n -> (0 < root_degrees g v)%R.
  Proof. intros Hv. apply sqrt_lt_R0. now apply dpos. Qed.
  Lemma root_norm : (0 < dot n (root_degrees g) (root_degrees g))%R.
  Proof.
    eapply Rlt_le_trans; [|apply (rsum_ge_elt n (fun i => root_degrees g i * root_degrees g i)%R 0)]; auto.
    - pose proof (root_pos 0 n_pos). nra.
    - intros i _. nra.
  Qed.
  Lemma nlap_psd x : (0 <= quad n N x)%R.
  Proof. exact (quad_nonneg n (rw g) (rdeg g) N (wsym g Hr) (wnn g Hr) (dpos g Hr noiso) (degs g noloop) (nlap_form g Hr noiso) x). Qed.

  Section X.
    Variables (x : nat -> R) (order : list nat) (phi : R).
    Hypothesis Hp : Permutation (seq 0 n) order.
    Hypothesis Hs : StronglySorted (listed_before (fun i => x i / sqrt (rdeg g i))%R) order.
    Hypothesis Hden : forall j, 1 <= j < n -> (0 < gden g (firstn j order))%R.
    Hypothesis Hphi : forall j, 1 <= j < n -> (phi <= gcond g (firstn j order))%R.
    Hypothesis Hx : (0 < spread g x)%R.
    Lemma sweep_lam lam : (0 < lam)%R -> (quad n N x <= lam * spread g x)%R -> (phi <= sqrt (2 * lam))%R.
    Proof.
      intros Hlam HQ. set (y := fun i => (x i / sqrt (rdeg g i))%R) in *. set (o := at_ order).
      assert (Lo : length order = n) by (rewrite <- (Permutation_length Hp); apply seq_length).
      assert (Ex : forall i, i < n -> (x i = root_degrees g i * y i)%R) by (intros i Hi; unfold y; pose proof (root_pos i Hi) as P; unfold root_degrees in *; field; lra).
      assert (EQ : forall f, rsum n (fun i => f (o i)) = rsum n f) by (intros f; symmetry; apply (rsum_order n order Hp)).
      set (D := dot n (root_degrees g) (root_degrees g)). pose proof root_norm as PD. fold D in PD. set (c := (dot n x (root_degrees g) / D)%R).
      assert (ED : rsum n (rdeg g) = D) by (apply rsum_ext; intros i Hi; symmetry; now apply root_sq).
      assert (Es : rsum n (fun i => rdeg g i * y i)%R = dot n x (root_degrees g)).
      { apply rsum_ext. intros i Hi. rewrite (Ex i Hi), <- (root_sq i Hi). ring. }
      assert (ES : rsum n (fun i => rdeg g i * (y i - c) ^ 2)%R = spread g x).
      { rewrite (rsum_ext n _ (fun i => x i * x i - 2 * c * (rdeg g i * y i) + c * c * rdeg g i)%R).
        - rewrite rsum_plus, rsum_minus, !rsum_scal, Es, ED. fold (dot n x x). unfold spread. fold D. unfold c. field. lra.
        - intros i Hi. rewrite (Ex i Hi), <- (root_sq i Hi). ring. }
      apply (hard_direction n (fun i k => rw g (o i) (o k)) (fun i => rdeg g (o i)) (fun i => (y (o i) - c)%R) lam phi).
      - intros. apply wsym. exact Hr.
      - intros. apply wnn. exact Hr.
      - intros i Hi. rewrite (EQ (fun v => rw g (o i) v)). apply (degs g noloop). now apply (at_lt n order Hp).
      - intros i. apply rdeg_nonneg. exact Hr.
      - intros j Hj. assert (B : listed_before y (o j) (o (S j))) by exact (ss_adjacent _ 0 order Hs j ltac:(lia)). destruct B as [|[]]; lra.
      - rewrite (EQ (fun i => rdeg g i * (y i - c))%R).
        rewrite (rsum_ext n _ (fun i => rdeg g i * y i - c * rdeg g i)%R) by (intros; ring). rewrite rsum_minus, rsum_scal, Es, ED. unfold c. field. lra.
      - rewrite (EQ (fun i => rdeg g i * (y i - c) ^ 2)%R), ES.
        rewrite (rsum_ext n _ (fun i => rsum n (fun k => rw g (o i) k * (y (o i) - y k) ^ 2))%R)
          by (intros i _; rewrite (EQ (fun k => rw g (o i) k * (y (o i) - c - (y k - c)) ^ 2)%R); apply rsum_ext; intros; ring).
        rewrite (EQ (fun i => rsum n (fun k => rw g i k * (y i - y k) ^ 2)%R)).
        pose proof (quad_scaled n (rw g) (rdeg g) N (wsym g Hr) (dpos g Hr noiso) (degs g noloop) (nlap_form g Hr noiso) y) as Q. rewrite <- Q.
        assert (quad n N (fun i => rt (rdeg g) i * y i)%R = quad n N x) as ->; [|lra].
        unfold quad. apply rsum_ext. intros i Hi. apply rsum_ext. intros k Hk. rewrite (Ex i Hi), (Ex k Hk). reflexivity.
      - exact Hlam.
      - rewrite (EQ (fun i => rdeg g i * (y i - c) ^ 2)%R), ES. exact Hx.
      - intros j Hj. specialize (Hphi j Hj). specialize (Hden j Hj). unfold gcond in Hphi. unfold gden in Hden.
        rewrite (prefix_vol n order Hp g j), (prefix_tot n order Hp g eq_refl) in * by lia. rewrite (prefix_cut n order Hp g eq_refl j) in Hphi by lia.
        fold o in Hphi, Hden. set (m := Rmin (pvol n (fun i => rdeg g (o i)) j) _) in *.
        apply Rmult_le_compat_r with (r := m) in Hphi; [|lra]. unfold Rdiv in Hphi. rewrite Rmult_assoc, Rinv_l, Rmult_1_r in Hphi by lra. exact Hphi.
    Qed.
    Lemma sweep_rayleigh : (phi <= sqrt (2 * quad n N x / spread g x))%R.
    Proof.
      pose proof (nlap_psd x) as Q0. destruct (Rle_lt_or_eq_dec _ _ Q0) as [Q1|E].
      - replace (2 * quad n N x / spread g x)%R with (2 * (quad n N x / spread g x))%R by (field; lra). apply sweep_lam; [now apply Rdiv_lt_0_compat|]. right. field. lra.
      - rewrite <- E. replace (2 * 0 / spread g x)%R with 0%R by (field; lra). rewrite sqrt_0. destruct (Rle_dec phi 0) as [|P]; auto. exfalso.
        assert (phi <= sqrt (2 * (phi ^ 2 / 8)))%R as B by (apply sweep_lam; [nra|rewrite <- E; apply Rmult_le_pos; [nra|lra]]).
        replace (2 * (phi ^ 2 / 8))%R with ((phi / 2) * (phi / 2))%R in B by field. rewrite sqrt_square in B by lra. lra.
    Qed.
  End X.
  (** The Rayleigh quotient from the residual and the angle with the square roots of the degrees. *)
  Lemma rayleigh_bound x mu delta eta : (0 < dot n x x)%R -> (0 <= delta)%R -> (0 <= eta < 1)%R ->
    (dot n (fun i => mulv n N x i - mu * x i) (fun i => mulv n N x i - mu * x i) <= delta ^ 2 * dot n x x)%R ->
    (dot n x (root_degrees g) ^ 2 <= eta ^ 2 * (dot n x x * dot n (root_degrees g) (root_degrees g)))%R ->
    (0 < spread g x)%R /\ (0 <= mu + delta)%R /\ (quad n N x / spread g x <= (mu + delta) / (1 - eta ^ 2))%R.
  Proof.
    intros Px Pd He Hres Hang. pose proof root_norm as PD. set (xx := dot n x x) in *. set (D := dot n (root_degrees g) (root_degrees g)) in *.
    set (res := fun i => (mulv n N x i - mu * x i)%R) in *.
    assert (quad n N x <= (mu + delta) * xx)%R as Q.
    { rewrite quad_dot. assert (dot n x (mulv n N x) = mu * xx + dot n x res)%R as ->.
      { unfold dot, xx, res. unfold dot. rewrite <- rsum_scal, <- rsum_plus. apply rsum_ext. intros i _. ring. }
      assert (dot n x res <= delta * xx)%R; [|lra]. pose proof (dot_cs n x res) as C. fold xx in C.
      assert (dot n x res ^ 2 <= (delta * xx) ^ 2)%R as C2 by (eapply Rle_trans; [exact C|]; replace ((delta * xx) ^ 2)%R with (xx * (delta ^ 2 * xx))%R by ring; apply Rmult_le_compat_l; [lra|exact Hres]).
      destruct (Rle_dec (dot n x res) (delta * xx)) as [|F]; auto. exfalso. assert (0 <= delta * xx)%R by (apply Rmult_le_pos; lra). nra. }
    pose proof (nlap_psd x) as Q0.
    assert (0 < 1 - eta ^ 2)%R as Pe by nra.
    assert ((1 - eta ^ 2) * xx <= spread g x)%R as Sp.
    { unfold spread. fold xx D. assert (dot n x (root_degrees g) ^ 2 / D <= eta ^ 2 * xx)%R; [|lra].
      apply Rmult_le_reg_r with D; [exact PD|]. unfold Rdiv. rewrite Rmult_assoc, Rinv_l, Rmult_1_r by lra. lra. }
    assert (0 < (1 - eta ^ 2) * xx)%R as Pm by (apply Rmult_lt_0_compat; lra).
    assert (0 <= mu + delta)%R as Pmu.
    { destruct (Rle_dec 0 (mu + delta)) as [|F]; auto. exfalso. apply Rnot_le_lt in F. assert ((mu + delta) * xx < 0)%R by nra. lra. }
    split; [lra|]. split; [exact Pmu|]. apply Rmult_le_reg_r with (spread g x); [lra|]. unfold Rdiv at 1. rewrite Rmult_assoc, Rinv_l, Rmult_1_r by lra.
    eapply Rle_trans; [exact Q|]. apply Rle_trans with ((mu + delta) / (1 - eta ^ 2) * ((1 - eta ^ 2) * xx))%R; [right; field; lra|].
    apply Rmult_le_compat_l; [|exact Sp]. apply Rle_mult_inv_pos; auto.
  Qed.
End V.

Lemma chosen_eq p q : (if wltb (fst q) (fst p) then snd p else snd q) = snd (chosen p q).
Proof. unfold chosen. change (wltb (fst q) (fst p)) with (R_ltb (fst q) (fst p)). unfold R_ltb. destruct (Rlt_dec (fst q) (fst p)); reflexivity. Qed.
(** ** Theorems *)
Theorem inexact_cut (solver : eigen_solver (W := R)) (g : graph R) p q : reachable_pos g -> 3 <= number_of_vertices g ->
  (forall v, v < number_of_vertices g -> rw g v v = 0%R) -> (forall v, v < number_of_vertices g -> rdeg g v <> 0%R) ->
  snd (compute_eigensystem solver g MatNormalisedLaplacian 2 Smallest) = Ok [p; q] -> length (snd (chosen p q)) = number_of_vertices g ->
  let n := number_of_vertices g in let x := vx (snd (chosen p q)) in
  exists cut, snd (cheeger_cut solver g) = Ok (labels_of n cut) /\ proper_cut n cut /\
    ((0 < spread g x)%R -> (gcond g cut <= sqrt (2 * quad n (matrix_of_graph MatNormalisedLaplacian g) x / spread g x))%R).
Proof.
  intros Hr Hn NL NI Ees Lx n x. rewrite <- chosen_eq in Lx. destruct (inexact_sweep solver g p q Hr Hn NI Ees Lx) as (labels & order & k & E & Hp & Hs & Hk & Hb & Hd & El).
  rewrite chosen_eq in Hs. fold n in Hp, Hk, Hb, Hd, El. exists (firstn k order).
  assert (Lo : length order = n) by (rewrite <- (Permutation_length Hp); apply seq_length).
  split; [now rewrite E, El|]. split.
  - split; [apply nodup_firstn, (o_nodup n order Hp)|]. split; [|rewrite firstn_length; lia].
    intros v Hv. assert (I : In v order) by (rewrite <- (firstn_skipn k order); apply in_app_iff; now left).
    eapply Permutation_in in I; [|apply Permutation_sym, Hp]. apply in_seq in I. lia.
  - intros Hx. apply (sweep_rayleigh g Hr NL NI ltac:(lia) x order); auto. intros j Hj. now apply Hb.
Qed.
Theorem inexact_cut_residual (solver : eigen_solver (W := R)) (g : graph R) p q mu delta eta : reachable_pos g -> 3 <= number_of_vertices g ->
  (forall v, v < number_of_vertices g -> rw g v v = 0%R) -> (forall v, v < number_of_vertices g -> rdeg g v <> 0%R) ->
  snd (compute_eigensystem solver g MatNormalisedLaplacian 2 Smallest) = Ok [p; q] -> length (snd (chosen p q)) = number_of_vertices g ->
  let n := number_of_vertices g in let x := vx (snd (chosen p q)) in let N := matrix_of_graph MatNormalisedLaplacian g in
  (0 < dot n x x)%R -> (0 <= delta)%R -> (0 <= eta < 1)%R ->
  (dot n (fun i => mulv n N x i - mu * x i) (fun i => mulv n N x i - mu * x i) <= delta ^ 2 * dot n x x)%R ->
  (dot n x (root_degrees g) ^ 2 <= eta ^ 2 * (dot n x x * dot n (root_degrees g) (root_degrees g)))%R ->
  exists cut, snd (cheeger_cut solver g) = Ok (labels_of n cut) /\ proper_cut n cut /\
    (gcond g cut <= sqrt (2 * (mu + delta) / (1 - eta ^ 2)))%R /\
    (forall lam tau, (forall u v, u < n -> v < n -> connected g u v) -> nth_eigenvalue n N 1 lam -> (mu <= lam + tau)%R ->
       forall other, proper_cut n other -> (gcond g cut <= sqrt ((4 * gcond g other + 2 * (tau + delta)) / (1 - eta ^ 2)))%R).
Proof.
  intros Hr Hn NL NI Ees Lx n x N Px Pd He Hres Hang.
  destruct (inexact_cut solver g p q Hr Hn NL NI Ees Lx) as (cut & E & Pc & B). fold n x N in E, Pc, B.
  destruct (rayleigh_bound g Hr NL NI ltac:(lia) x mu delta eta Px Pd He Hres Hang) as (Sp & Pm & Rb). fold n N in Rb. specialize (B Sp).
  assert (0 < 1 - eta ^ 2)%R as Pe by nra. exists cut. split; [exact E|]. split; [exact Pc|].
  pose proof (nlap_psd g Hr NL NI x) as Q0. fold n N in Q0.
  assert (forall a, (mu + delta <= a)%R -> (gcond g cut <= sqrt (2 * a / (1 - eta ^ 2)))%R) as G.
  { intros a Ha. eapply Rle_trans; [exact B|]. apply sqrt_le_1.
    - apply Rle_mult_inv_pos; lra.
    - apply Rle_mult_inv_pos; lra.
    - replace (2 * quad n N x / spread g x)%R with (2 * (quad n N x / spread g x))%R by (field; lra).
      apply Rle_trans with (2 * ((mu + delta) / (1 - eta ^ 2)))%R; [lra|]. replace (2 * a / (1 - eta ^ 2))%R with (2 * (a / (1 - eta ^ 2)))%R by (field; lra).
      apply Rmult_le_compat_l; [lra|]. apply Rmult_le_compat_r; [left; now apply Rinv_0_lt_compat|lra]. }
  split; [apply G; lra|]. intros lam tau Co Hl Ht other (ND & Hi & Hlen).
  destruct Hl as (E0 & Sys & Sor & El). destruct E0 as [|e1 [|e2 E']]; try (destruct Sys as (Ls & _); cbn in Ls; fold n in Hn; lia). cbn [map nth] in El. subst lam.
  assert (Ex : exists v, v < n /\ ~ In v other).
  { destruct (Forall_Exists_dec (fun v => In v other) (fun v => in_dec Nat.eq_dec v other) (seq 0 n)) as [F|X].
    - exfalso. rewrite Forall_forall in F. pose proof (NoDup_incl_length (seq_NoDup n 0) F). rewrite seq_length in H. lia.
    - apply Exists_exists in X. destruct X as (v & Hv & NN). exists v. apply in_seq in Hv. split; [lia|auto]. }
  assert (Ey : exists v, v < n /\ In v other).
  { destruct other as [|v other]; [simpl in Hlen; lia|]. exists v. split; [apply Hi|]; now left. }
  pose proof (easy_direction g Hr NL Co other ND Hi ltac:(fold n; lia) Ey Ex e1 e2 E' Sys Sor) as Easy.
  replace (4 * gcond g other + 2 * (tau + delta))%R with (2 * (2 * gcond g other + tau + delta))%R by ring. apply G. lra.
Qed.
