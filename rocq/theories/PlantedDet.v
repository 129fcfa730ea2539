(** Graphs whose degrees and cuts are close to those of the planted partition (deterministic part of C98). *)
From Verif Require Import Base Num RSum Sparse SparseFacts Graph GraphSpec GraphFacts GraphProps1 GraphProps2 GraphProps3
  Spectrum SpectrumSpec SpectrumFacts SpectrumPower SpectrumConv CheegerMath CheegerSpectral CheegerIneq KMeans RecoverTop KppMath Kpp KppTop SpecQual InnerMath InnerCond
  RandomDist AsgLaw AsgConc RandomConc.
From Coq Require Import Reals Lra Psatz Lia List Permutation Sorting.Sorted.
Import ListNotations.
Local Open Scope nat_scope.

Lemma rsum_add a b f : rsum (a + b) f = (rsum a f + rsum b (fun i => f (a + i)%nat))%R.
Proof.
  induction b as [|b IH]; [rewrite Nat.add_0_r, rsum_0; ring|]. rewrite Nat.add_succ_r, !rsum_S, IH. ring.
Qed.
Lemma block_sum k sz j : 0 < sz -> rsum (k * sz) (fun v => indb (v / sz =? j)) = if j <? k then INR sz else 0%R.
Proof.
  intros Hz. induction k as [|k IH]; [rewrite rsum_0; destruct (Nat.ltb_spec j 0); [lia|reflexivity]|].
  replace (S k * sz) with (k * sz + sz) by lia. rewrite rsum_add, IH.
  rewrite (rsum_ext sz _ (fun _ => indb (k =? j))).
  - rewrite rsum_const. unfold indb. destruct (Nat.eqb_spec k j), (Nat.ltb_spec j k), (Nat.ltb_spec j (S k)); try lia; ring.
  - intros i Hi. f_equal. f_equal. replace (k * sz + i) with (i + k * sz) by lia. rewrite Nat.div_add by lia. rewrite Nat.div_small by auto. reflexivity.
Qed.

Section Planted.
  Variables (g : graph R) (k sz : nat) (p q eps : R).
  Hypothesis Hr : reachable_pos g.
  Local Notation n := (k * sz).
  Local Notation s := (fun u => u / sz).
  Hypothesis Hn : number_of_vertices g = n.
  Hypothesis noloop : forall v, v < n -> rw g v v = 0%R.
  Hypothesis Hk : 1 <= k.
  Hypothesis Hsz : 2 <= sz.
  Hypothesis Hp : (0 < p)%R.
  Hypothesis Hq : (0 <= q)%R.
  Hypothesis Heps : (0 < eps <= 1 / 10)%R.
  (** Expected inner degree, degree, and share of the degree that leaves the cluster. *)
  Local Notation D := (p * (INR sz - 1))%R.
  Local Notation dbar := (p * (INR sz - 1) + q * (INR n - INR sz))%R.
  Local Notation C j := (fun u => s u =? j).
  Definition part (j : nat) (A : nat -> bool) : R := rsum n (fun u => indb ((u / sz =? j) && A u)).
  Hypothesis E1 : forall j A, j < k -> (exists u, u < n /\ s u = j /\ A u = true) -> (exists u, u < n /\ s u = j /\ A u = false) ->
    ((1 - eps) * (p * part j A * part j (fun u => negb (A u))) < split_cut g s j A)%R.
  Hypothesis E2 : forall u, u < n -> (inner_degree g s u < (1 + eps) * D)%R.
  Hypothesis E3 : forall u, u < n -> ((1 - eps) * dbar < rdeg g u < (1 + eps) * dbar)%R.
  Hypothesis E4 : forall j, j < k -> (cluster_cut g s j < q * INR sz * (INR n - INR sz) + eps ^ 2 * (dbar * INR sz))%R.

  Lemma sz_pos : (2 <= INR sz)%R.
  Proof. change 2%R with (INR 2). now apply le_INR. Qed.
  Lemma n_ge : (INR sz <= INR n)%R.
  Proof. apply le_INR. nia. Qed.
  Lemma D_pos : (0 < D)%R.
  Proof. pose proof sz_pos. apply Rmult_lt_0_compat; lra. Qed.
  Lemma dbar_ge : (D <= dbar)%R.
  Proof. pose proof n_ge. assert (0 <= q * (INR n - INR sz))%R by (apply Rmult_le_pos; lra). lra. Qed.
  Lemma s_lt u : u < n -> s u < k.
  Proof. intros Hu. apply Nat.div_lt_upper_bound; nia. Qed.
  Lemma part_split j A : j < k -> (part j A + part j (fun u => negb (A u)) = INR sz)%R.
  Proof.
    intros Hj. unfold part. rewrite <- rsum_plus. rewrite (rsum_ext n _ (fun v => indb (v / sz =? j))).
    - rewrite block_sum by lia. apply Nat.ltb_lt in Hj. now rewrite Hj.
    - intros u _. destruct (u / sz =? j), (A u); cbn; ring.
  Qed.
  Lemma part_nonneg j A : (0 <= part j A)%R.
  Proof. apply rsum_nonneg. intros u _. unfold indb. destruct (_ && _); lra. Qed.
  Lemma wnn u v : (0 <= rw g u v)%R. Proof. now apply rw_nonneg. Qed.
  Lemma wsym u v : rw g u v = rw g v u. Proof. apply rw_sym. now apply reachable_pos_reachable. Qed.
  Lemma inner_low u : u < n -> ((1 - eps) * D <= inner_degree g s u)%R.
  Proof.
    intros Hu. set (A := fun v => v =? u). assert (part (s u) A = 1)%R as EA.
    { unfold part. rewrite (rsum_ext n _ (fun v => if v =? u then 1%R else 0%R)); [now apply (rsum_delta n u (fun _ => 1%R))|].
      intros v _. unfold A. destruct (Nat.eqb_spec v u) as [->|]; [now rewrite Nat.eqb_refl|now rewrite Bool.andb_false_r]. }
    pose proof (part_split (s u) A (s_lt u Hu)) as PS. cbv beta in PS, EA. rewrite EA in PS.
    assert (exists v, v < n /\ s v = s u /\ A v = false) as NA.
    { destruct (Nat.eq_dec (u mod sz) 0) as [Z|NZ].
      - exists (S u). assert (u = sz * (u / sz)) as Eu by (rewrite (Nat.div_mod u sz) at 1; lia). pose proof (s_lt u Hu) as L. cbn beta in L.
        assert (S u / sz = u / sz) as Es by (symmetry; apply (Nat.div_unique (S u) sz (u / sz) 1); lia).
        split; [nia|]. split; [exact Es|]. unfold A. apply Nat.eqb_neq. lia.
      - exists (u - 1). split; [lia|]. split; [|unfold A; apply Nat.eqb_neq; destruct u; [now rewrite Nat.mod_0_l in NZ by lia|lia]].
        cbv beta. symmetry. apply (Nat.div_unique (u - 1) sz (u / sz) (u mod sz - 1)); [pose proof (Nat.mod_upper_bound u sz); lia|]. rewrite (Nat.div_mod u sz) at 1 by lia. lia. }
    pose proof (E1 (s u) A (s_lt u Hu) ltac:(exists u; unfold A; rewrite Nat.eqb_refl; auto) NA) as L. cbv beta in L. rewrite EA in L.
    assert (split_cut g s (s u) A <= inner_degree g s u)%R as LE.
    { unfold split_cut, inner_degree. rewrite Hn.
      apply Rle_trans with (rsum n (fun v => if v =? u then rsum n (fun v' => if s v' =? s u then rw g u v' else 0) else 0))%R.
      - apply rsum_le. intros v Hv. unfold A at 1. destruct (Nat.eqb_spec v u) as [->|Ne].
        + rewrite Nat.eqb_refl. cbn [andb]. apply rsum_le. intros v' _. destruct (s v' =? s u); cbn [andb]; [|lra]. destruct (negb (A v')); [lra|apply wnn].
        + rewrite Bool.andb_false_r. cbn [andb]. rewrite rsum_zero; [lra|auto].
      - right. now apply rsum_delta. }
    replace (part (u / sz) (fun v => negb (A v))) with (INR sz - 1)%R in L by lra. lra.
  Qed.
  Lemma deg_positive u : u < n -> (0 < rdeg g u)%R.
  Proof. intros Hu. destruct (E3 u Hu) as [L _]. pose proof D_pos. pose proof dbar_ge. assert (0 < (1 - eps) * dbar)%R by (apply Rmult_lt_0_compat; lra). lra. Qed.

  (** ** Inner conductance *)
  Lemma volume_le j A : (inner_volume g s j A <= (1 + eps) * D * part j A)%R.
  Proof.
    unfold inner_volume, part. rewrite Hn, <- rsum_scal. apply rsum_le. intros u Hu. unfold indb.
    destruct ((u / sz =? j) && A u); [|lra]. pose proof (E2 u Hu). lra.
  Qed.
  Lemma empty_volume j A : (forall u, u < n -> s u = j -> A u = false) -> inner_volume g s j A = 0%R.
  Proof. intros H. unfold inner_volume. rewrite Hn. apply rsum_zero. intros u Hu. destruct (Nat.eqb_spec (u / sz) j) as [Eu|]; [rewrite (H u Hu Eu)|]; reflexivity. Qed.
  Lemma split_nonneg j A : (0 <= split_cut g s j A)%R.
  Proof. apply rsum_nonneg. intros u _. apply rsum_nonneg. intros v _. destruct (_ && _); [apply wnn|lra]. Qed.
  Lemma volume_nonneg j A : (0 <= inner_volume g s j A)%R.
  Proof. apply rsum_nonneg. intros u _. destruct (_ && _); [|lra]. apply rsum_nonneg. intros v _. destruct (_ =? _); [apply wnn|lra]. Qed.
  Lemma all_or_some j (A : nat -> bool) : (exists u, u < n /\ s u = j /\ A u = true) \/ (forall u, u < n -> s u = j -> A u = false).
  Proof.
    generalize n. intros m. induction m as [|m [(u & Hu & Eu & Au)|IH]].
    - right. intros; lia.
    - left. exists u. auto.
    - destruct (Nat.eq_dec (m / sz) j) as [Em|Nm].
      + destruct (A m) eqn:Am; [left; exists m; auto|]. right. intros u Hu Eu. destruct (Nat.eq_dec u m) as [->|]; [exact Am|apply IH; auto; lia].
      + right. intros u Hu Eu. destruct (Nat.eq_dec u m) as [->|]; [contradiction|apply IH; auto; lia].
  Qed.
  Theorem planted_conductance : inner_conductance g k s ((1 - eps) / (2 * (1 + eps))).
  Proof.
    intros j A Hj. set (phi := ((1 - eps) / (2 * (1 + eps)))%R). assert (0 < phi)%R as Pp by (unfold phi; apply Rdiv_lt_0_compat; lra).
    pose proof (split_nonneg j A) as SN.
    destruct (all_or_some j A) as [HA|ZA].
    - destruct (all_or_some j (fun u => negb (A u))) as [HB|ZB].
      + pose proof (E1 j A Hj HA) as L. assert (exists u, u < n /\ s u = j /\ A u = false) as HB' by (destruct HB as (u & ? & ? & Au); exists u; apply Bool.negb_true_iff in Au; auto). specialize (L HB').
        pose proof (part_split j A Hj) as PS. pose proof (part_nonneg j A) as Pa. pose proof (part_nonneg j (fun u => negb (A u))) as Pb.
        pose proof (volume_le j A) as Va. pose proof (volume_le j (fun u => negb (A u))) as Vb.
        set (a := part j A) in *. set (b := part j (fun u => negb (A u))) in *. set (va := inner_volume g s j A) in *. set (vb := inner_volume g s j (fun u => negb (A u))) in *.
        eapply Rle_trans; [|left; exact L].
        apply Rle_trans with (phi * ((1 + eps) * D * Rmin a b))%R.
        * apply Rmult_le_compat_l; [lra|]. unfold Rmin. destruct (Rle_dec va vb), (Rle_dec a b); lra.
        * replace (phi * ((1 + eps) * D * Rmin a b))%R with ((1 - eps) * p * (((INR sz - 1) / 2) * Rmin a b))%R by (unfold phi; field; lra).
          replace ((1 - eps) * (p * a * b))%R with ((1 - eps) * p * (a * b))%R by ring. apply Rmult_le_compat_l; [apply Rmult_le_pos; lra|].
          unfold Rmin. destruct (Rle_dec a b); [rewrite (Rmult_comm _ a)|]; apply Rle_trans with (INR sz / 2 * Rmin a b)%R; unfold Rmin; destruct (Rle_dec a b); nra.
      + rewrite (empty_volume j (fun u => negb (A u)) ZB). unfold Rmin. pose proof (volume_nonneg j A). destruct (Rle_dec _ 0); nra.
    - rewrite (empty_volume j A ZA). unfold Rmin. pose proof (volume_nonneg j (fun u => negb (A u))). destruct (Rle_dec 0 _); nra.
  Qed.
  Local Notation rho := ((1 - eps) * D / ((1 + eps) * dbar))%R.
  Lemma rho_pos : (0 < rho)%R.
  Proof. pose proof D_pos. pose proof dbar_ge. apply Rdiv_lt_0_compat; apply Rmult_lt_0_compat; lra. Qed.
  Lemma planted_share u : u < n -> (rho * rdeg g u <= inner_degree g s u)%R.
  Proof.
    intros Hu. destruct (E3 u Hu) as [_ L]. eapply Rle_trans; [|apply (inner_low u Hu)]. pose proof D_pos. pose proof dbar_ge. pose proof rho_pos as Rp.
    apply Rle_trans with (rho * ((1 + eps) * dbar))%R; [apply Rmult_le_compat_l; lra|]. right. field. split; lra.
  Qed.
  Lemma constants : ((D / dbar) / 8 <= rho * ((1 - eps) / (2 * (1 + eps))) ^ 2)%R.
  Proof.
    pose proof D_pos. pose proof dbar_ge.
    replace (rho * ((1 - eps) / (2 * (1 + eps))) ^ 2)%R with (D / dbar * (((1 - eps) / (1 + eps)) ^ 3 / 4))%R by (field; split; lra).
    assert (0 < D / dbar)%R by (apply Rdiv_lt_0_compat; lra).
    unfold Rdiv at 2. apply Rmult_le_compat_l; [lra|].
    assert (9 / 11 <= (1 - eps) / (1 + eps))%R as L by (apply (Rmult_le_reg_r (1 + eps)); [lra|]; unfold Rdiv at 2; rewrite Rmult_assoc, Rinv_l by lra; lra).
    set (z := ((1 - eps) / (1 + eps))%R) in *. clearbody z. pose proof (pow_incr (9 / 11) z 3 ltac:(lra)) as P3. replace ((9 / 11) ^ 3)%R with (729 / 1331)%R in P3 by field. lra.
  Qed.
  (** ** Energies *)
  Lemma energy_terms a b d : (0 < d)%R -> ((1 - eps) * d <= a <= (1 + eps) * d)%R -> ((1 - eps) * d <= b <= (1 + eps) * d)%R ->
    ((/ sqrt a - / sqrt b) ^ 2 <= 7 / 5 * eps ^ 2 / d)%R.
  Proof.
    intros Hd Ha Hb. assert (9 / 10 * d <= (1 - eps) * d)%R as L9 by (apply Rmult_le_compat_r; lra).
    assert (0 < a)%R as Pa by lra. assert (0 < b)%R as Pb by lra.
    pose proof (sqrt_lt_R0 a Pa) as Sa. pose proof (sqrt_lt_R0 b Pb) as Sb. pose proof (sqrt_sqrt a ltac:(lra)) as Qa. pose proof (sqrt_sqrt b ltac:(lra)) as Qb.
    assert ((/ sqrt a - / sqrt b) ^ 2 = (b - a) ^ 2 / ((sqrt a + sqrt b) ^ 2 * (a * b)))%R as ->.
    { rewrite <- Qa at 2 4. rewrite <- Qb at 2 4. field. repeat split; lra. }
    assert ((b - a) ^ 2 <= 4 * eps ^ 2 * d ^ 2)%R as N1.
    { assert (- (2 * eps * d) <= b - a <= 2 * eps * d)%R as B by lra. replace (4 * eps ^ 2 * d ^ 2)%R with ((2 * eps * d) ^ 2)%R by ring. apply pow_maj_Rabs. apply Rabs_le. lra. }
    assert (4 * (9 / 10 * d) <= (sqrt a + sqrt b) ^ 2)%R as N2.
    { assert (9 / 10 * d <= sqrt a * sqrt b)%R as G.
      { rewrite <- sqrt_mult by lra. rewrite <- (sqrt_square (9 / 10 * d)) by lra. apply sqrt_le_1_alt. apply Rmult_le_compat; lra. }
      replace ((sqrt a + sqrt b) ^ 2)%R with (sqrt a * sqrt a + sqrt b * sqrt b + 2 * (sqrt a * sqrt b))%R by ring. rewrite Qa, Qb. lra. }
    assert ((9 / 10 * d) * (9 / 10 * d) <= a * b)%R as N3 by (apply Rmult_le_compat; lra).
    apply Rle_trans with ((4 * eps ^ 2 * d ^ 2) / (4 * (9 / 10 * d) * ((9 / 10 * d) * (9 / 10 * d))))%R.
    - unfold Rdiv. apply Rmult_le_compat.
      + apply pow2_ge_0.
      + left. apply Rinv_0_lt_compat. apply Rmult_lt_0_compat; [apply pow_lt; lra|apply Rmult_lt_0_compat; lra].
      + exact N1.
      + apply Rinv_le_contravar; [repeat apply Rmult_lt_0_compat; lra|]. apply Rmult_le_compat; try lra. apply Rmult_le_pos; lra.
    - replace (4 * eps ^ 2 * d ^ 2 / (4 * (9 / 10 * d) * (9 / 10 * d * (9 / 10 * d))))%R with (1000 / 729 * (eps ^ 2 / d))%R by (field; lra).
      replace (7 / 5 * eps ^ 2 / d)%R with (7 / 5 * (eps ^ 2 / d))%R by (field; lra). apply Rmult_le_compat_r; [|lra].
      apply Rmult_le_pos; [apply pow2_ge_0|left; now apply Rinv_0_lt_compat].
  Qed.
  Local Notation phiq := (q * (INR n - INR sz) / dbar)%R.
  Lemma size_eq j : j < k -> cluster_size n s j = INR sz.
  Proof. intros Hj. unfold cluster_size. change (rsum n (fun u => indb (u / sz =? j)) = INR sz). rewrite block_sum by lia. apply Nat.ltb_lt in Hj. now rewrite Hj. Qed.
  Theorem planted_energy j : j < k -> (cluster_energy g s j <= 2 * (phiq + eps ^ 2))%R.
  Proof.
    intros Hj. pose proof D_pos as PD. pose proof dbar_ge as PB. pose proof sz_pos as PS. set (d := dbar) in *. assert (0 < d)%R as Pd by lra.
    unfold cluster_energy. rewrite Hn, (size_eq j Hj).
    set (x := fun u => if s u =? j then (/ sqrt (rdeg g u))%R else 0%R).
    set (out := fun u v => if (s u =? j) && negb (s v =? j) then rw g u v else 0%R).
    set (inn := fun u v => if (s u =? j) && (s v =? j) then rw g u v else 0%R).
    assert (forall u, u < n -> ((1 - eps) * d <= rdeg g u <= (1 + eps) * d)%R) as HD by (intros u Hu; destruct (E3 u Hu); lra).
    assert (forall u, u < n -> ((/ sqrt (rdeg g u)) ^ 2 <= 10 / 9 / d)%R) as HI.
    { intros u Hu. destruct (HD u Hu) as [L _]. pose proof (deg_positive u Hu) as P. replace ((/ sqrt (rdeg g u)) ^ 2)%R with (/ rdeg g u)%R.
      - replace (10 / 9 / d)%R with (/ (9 / 10 * d))%R by (field; lra). apply Rinv_le_contravar; [lra|]. apply Rle_trans with ((1 - eps) * d)%R; [apply Rmult_le_compat_r; lra|lra].
      - rewrite <- (sqrt_sqrt (rdeg g u)) at 1 by lra. pose proof (sqrt_lt_R0 _ P). field. lra. }
    assert (rsum n (fun u => rsum n (fun v => rw g u v * (x u - x v) ^ 2)) <= 10 / 9 / d * (2 * cluster_cut g s j) + 7 / 5 * eps ^ 2 / d * rsum n (fun u => rsum n (inn u)))%R as B.
    { assert (cluster_cut g s j = rsum n (fun u => rsum n (fun v => out v u)))%R as Ec2 by (unfold cluster_cut; rewrite Hn; apply (rsum_swap n n out)).
      assert (2 * cluster_cut g s j = rsum n (fun u => rsum n (fun v => out u v + out v u)))%R as ->.
      { replace (2 * cluster_cut g s j)%R with (cluster_cut g s j + cluster_cut g s j)%R by ring. rewrite Ec2 at 2. unfold cluster_cut. rewrite Hn, <- rsum_plus. apply rsum_ext. intros u _. now rewrite <- rsum_plus. }
      rewrite <- !rsum_scal, <- rsum_plus. apply rsum_le. intros u Hu. rewrite <- !rsum_scal, <- rsum_plus. apply rsum_le. intros v Hv.
      pose proof (wnn u v) as W. unfold x, out, inn. destruct (s u =? j), (s v =? j); cbn [andb negb].
      - rewrite Rplus_0_r, Rmult_0_r, Rplus_0_l, Rmult_comm. apply Rmult_le_compat_r; [exact W|]. apply energy_terms; auto.
      - rewrite Rminus_0_r, Rmult_0_r, !Rplus_0_r, Rmult_comm. apply Rmult_le_compat_r; [exact W|auto].
      - rewrite (wsym v u). replace (0 - / sqrt (rdeg g v))%R with (- / sqrt (rdeg g v))%R by ring. rewrite Rmult_0_r, Rplus_0_l, Rplus_0_r, Rmult_comm. apply Rmult_le_compat_r; [exact W|]. rewrite <- (Rsqr_pow2 (- _)), <- Rsqr_neg, Rsqr_pow2. auto.
      - rewrite Rminus_0_r. lra. }
    assert (rsum n (fun u => rsum n (inn u)) <= INR sz * ((1 + eps) * D))%R as BI.
    { apply Rle_trans with (rsum n (fun u => indb (u / sz =? j) * ((1 + eps) * D))%R).
      - apply rsum_le. intros u Hu. unfold inn, indb. destruct (Nat.eqb_spec (u / sz) j) as [Eu|]; cbn [andb].
        + pose proof (E2 u Hu) as L. unfold inner_degree in L. rewrite Hn, Eu in L. lra.
        + rewrite rsum_zero; [lra|auto].
      - rewrite rsum_scal_r, block_sum by lia. destruct (Nat.ltb_spec j k); [lra|lia]. }
    pose proof (E4 j Hj) as BC. fold d in BC. set (cc := cluster_cut g s j) in *. set (ii := rsum n (fun u => rsum n (inn u))) in *.
    apply Rle_trans with ((10 / 9 / d * (2 * (q * INR sz * (INR n - INR sz) + eps ^ 2 * (d * INR sz))) + 7 / 5 * eps ^ 2 / d * (INR sz * ((1 + eps) * D))) / (2 * INR sz))%R.
    - apply (Rmult_le_compat_r (/ (2 * INR sz))); [left; apply Rinv_0_lt_compat; lra|]. eapply Rle_trans; [exact B|]. apply Rplus_le_compat.
      + apply Rmult_le_compat_l; [left; repeat apply Rdiv_lt_0_compat; lra|lra].
      + apply Rmult_le_compat_l; [|exact BI]. pose proof (pow2_ge_0 eps). apply Rmult_le_pos; [lra|left; now apply Rinv_0_lt_compat].
    - replace ((10 / 9 / d * (2 * (q * INR sz * (INR n - INR sz) + eps ^ 2 * (d * INR sz))) + 7 / 5 * eps ^ 2 / d * (INR sz * ((1 + eps) * D))) / (2 * INR sz))%R
        with (10 / 9 * (q * (INR n - INR sz) / d) + 10 / 9 * eps ^ 2 + 7 / 10 * eps ^ 2 * ((1 + eps) * (D / d)))%R by (field; split; lra).
      pose proof n_ge as NG. assert (0 <= q * (INR n - INR sz) / d)%R as P1 by (apply Rmult_le_pos; [apply Rmult_le_pos; lra|left; now apply Rinv_0_lt_compat]).
      assert (0 <= D / d <= 1)%R as P2. { split; [apply Rmult_le_pos; [lra|left; now apply Rinv_0_lt_compat]|]. apply (Rmult_le_reg_r d); auto. unfold Rdiv. rewrite Rmult_assoc, Rinv_l by lra. lra. }
      assert ((1 + eps) * (D / d) <= 11 / 10)%R as P3 by (apply Rle_trans with ((1 + eps) * 1)%R; [apply Rmult_le_compat_l; lra|lra]).
      pose proof (pow2_ge_0 eps) as P4. assert (7 / 10 * eps ^ 2 * ((1 + eps) * (D / d)) <= 7 / 10 * eps ^ 2 * (11 / 10))%R by (apply Rmult_le_compat_l; lra). lra.
  Qed.
End Planted.
