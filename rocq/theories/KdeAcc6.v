(** Accuracy of the CKNS estimator: full sampling, default parameters, and what goes wrong (C80). *)
From Verif Require Import Base Num RSum Cluster ClusterSweep ThreadPool ThreadPoolTop Kde KdeFacts KdeFacts2 KdeFacts3 KdeFacts4 KdeAcc1 KdeAcc2 KdeAcc3 KdeAcc4 KdeAcc5.
From Coq Require Import ZArith Permutation Reals Lra Sorted FinFun.
Local Open Scope R_scope.

Lemma powerRZ_mono u v : (u <= v)%Z -> powerRZ 2 u <= powerRZ 2 v.
Proof.
  intros H. replace v with (u + (v - u))%Z by lia. rewrite powerRZ_add by lra. assert (0 < powerRZ 2 u) by (apply powerRZ_lt; lra).
  assert (1 <= powerRZ 2 (v - u)) by (rewrite <- (Z2Nat.id (v - u)) by lia; rewrite <- pow_powerRZ; apply pow_R1_Rle; lra). rewrite <- (Rmult_1_r (powerRZ 2 u)) at 1. apply Rmult_le_compat_l; lra.
Qed.

(** ** Full sampling *)
Lemma full_p n lni j o : (1 <= n)%nat -> (o <= - max_log_nmu_of (W := R) (Z.of_nat n))%Z -> (j <= 2 * lni)%nat -> unit_p (Z.of_nat n) (lev n lni) (Z.of_nat j) o = 1.
Proof.
  intros Hn Ho Lj. set (L := max_log_nmu_of (W := R) (Z.of_nat n)) in *. destruct (max_log_bound n Hn) as [_ [B1 _]]. fold L in B1. assert (0 < INR n) as H0 by (apply lt_0_INR; lia).
  unfold unit_p, ckns_p_sampling, wmin1. cbn [wltb NumR w1 wdiv wmul wpow2 KNumR wofZ]. rewrite <- INR_IZR_INZ.
  assert (forall x, 1 <= x -> (if R_ltb 1 x then 1 else x) = 1) as A.
  { intros x Hx. destruct (R_ltb 1 x) eqn:E; auto. apply not_true_iff_false in E. rewrite R_ltb_true in E. lra. }
  destruct (Z.of_nat j =? 0)%Z; apply A.
  - apply (Rmult_le_reg_r (INR n)); auto. unfold Rdiv. rewrite Rmult_assoc, Rinv_l, Rmult_1_r, Rmult_1_l by lra. eapply Rle_trans; [exact B1|]. apply powerRZ_mono. lia.
  - rewrite <- powerRZ_add by lra. change 1 with (powerRZ 2 0). apply powerRZ_mono. unfold lev. fold L. lia.
Qed.

Lemma full_plain a c q lni o : 0 < a -> c <> [] -> (o <= - max_log_nmu_of (W := R) (Z.of_nat (length c)))%Z ->
  plain a (length c) (lev (length c) lni) o q c = others a q c.
Proof.
  intros Ha Nc Ho. set (n := length c) in *. assert (1 <= n)%nat as Hn by (unfold n; destruct c; [congruence|simpl; lia]).
  unfold plain. rewrite (others_shells a n (lev n lni) q Ha c). apply lsum_ext. intros j Ij. apply in_seq in Ij. rewrite J_lev in Ij.
  pose proof (full_p n lni j o Hn Ho ltac:(lia)) as Ep.
  assert (unit_num (Z.of_nat n) (lev n lni) (Z.of_nat j) o = n) as En.
  { unfold unit_num. rewrite Ep, Rmult_1_l, (Int_part_unique (IZR (Z.of_nat n)) (Z.of_nat n)) by lra. now rewrite Nat2Z.id. }
  rewrite En. change (firstn n c) with (firstn (length c) c). rewrite firstn_all. apply lsum_ext. intros x _. rewrite Ep. destruct (in_shell _ _ _ _); auto. field.
Qed.

(** The copies may be in any order; if the tables find everything (no unit of at most 3000 points uses any) the answer is the density of the points other than q. *)
Lemma full_query T a min_mu data copies offset hs k q : 0 < a -> data <> [] -> 0 < min_mu <= 1 -> copies <> [] -> (forall c, In c copies -> Permutation data c) ->
  (offset <= - max_log_nmu_of (W := R) (Z.of_nat (length data)))%Z ->
  (forall iter lni j x, In x data -> (3000 < length data)%nat -> exists h, In h (hs iter lni j) /\ h x = h q) ->
  ckns_init T a min_mu copies (Z.of_nat (length data)) offset hs k -> ckns_query k q = Ok (others a q data / INR (length data)).
Proof.
  intros Ha Nd Hm Nc Pc Ho Hr I. set (n := length data) in *. assert (1 <= n)%nat as Hn by (unfold n; destruct data; [congruence|simpl; lia]).
  destruct (init_fields _ _ _ _ _ _ _ _ I) as (F1 & F2 & F3 & F4). pose proof (iters_pos n min_mu Hn Hm) as Hi.
  assert (1 <= c_k1 k)%nat as Hk by (rewrite F4; destruct copies; [congruence|simpl; lia]).
  assert (forall c, In c copies -> length c = n) as Lc by (intros c Ic; symmetry; apply Permutation_length; auto).
  destruct (query_level k q Hk ltac:(lia)) as (lni & mu & Ll & Em & Eq & _). rewrite Eq, F1, <- INR_IZR_INZ. do 2 f_equal.
  apply median_in in Em. apply in_map_iff in Em as (iter & <- & Ii). apply in_seq in Ii.
  rewrite (init_level _ _ _ _ _ _ _ _ q lni iter Lc I Ll ltac:(lia)). set (c := nth iter copies []). assert (In c copies) as Ic by (apply nth_In; lia).
  rewrite level_eq_plain; auto; [|rewrite J_lev; lia|].
  - pose proof (Lc c Ic) as L1. rewrite <- L1. rewrite full_plain; auto.
    + unfold others. apply lsum_perm. symmetry. auto.
    + intros E. rewrite E in L1. simpl in L1. lia.
    + unfold point in *. rewrite L1. exact Ho.
  - intros j x _ Ix _. destruct (Nat.le_gt_cases n 3000) as [L|G].
    + left. eapply Nat.le_trans; [apply unit_num_le; auto|exact L].
    + right. apply Hr; auto. eapply Permutation_in; [symmetry; apply Pc; eauto|exact Ix].
Qed.

(** ** The answering level and the answer *)
Lemma exp_13 (l : Z) y : (0 < l)%Z -> 0 <= y -> 13 / 10 * IZR l <= ln y -> powerRZ 2 l <= Rpower y (ln 2 * 10 / 13).
Proof.
  intros Hl Hy H. assert (0 < IZR l) by (apply IZR_lt; lia). assert (0 < y) as Hy'.
  { destruct Hy as [Hy| <-]; auto. exfalso. unfold ln in H. destruct (Rlt_dec 0 0) as [C|C]; [lra|]. lra. }
  assert (0 < ln 2) by (rewrite <- ln_1; apply ln_increasing; lra).
  replace (powerRZ 2 l) with (exp (IZR l * ln 2)).
  - unfold Rpower. assert (IZR l * ln 2 <= ln 2 * 10 / 13 * ln y) as [L|L].
    + replace (ln 2 * 10 / 13 * ln y) with (10 / 13 * ln y * ln 2) by field. apply Rmult_le_compat_r; lra.
    + left. now apply exp_increasing.
    + right. now rewrite L.
  - rewrite <- (Z2Nat.id l) by lia. rewrite <- pow_powerRZ, <- INR_IZR_INZ. generalize (Z.to_nat l) as k. induction k as [|k IH]; [simpl; rewrite Rmult_0_l; apply exp_0|].
    rewrite S_INR, Rmult_plus_distr_r, exp_plus, IH, Rmult_1_l, exp_ln by lra. simpl. ring.
Qed.

(** With min_mu = 1/n the last level has log_nmu 0 or -1, all others a positive one. *)
Lemma log2_one_n n : (1 <= n)%nat -> wfloor (W := R) (wlog2 (wmul (wofZ (Z.of_nat n)) (/ INR n))) = 0%Z.
Proof.
  intros Hn. cbn [wfloor wlog2 wmul wofZ KNumR NumR]. unfold R_floor, R_log2. rewrite <- INR_IZR_INZ, Rinv_r by (apply not_0_INR; lia). rewrite ln_1. apply Int_part_unique. unfold Rdiv. lra.
Qed.

Lemma default_levels n lni : (1 <= n)%nat -> let its := iterations_of (W := R) (Z.of_nat n) (/ INR n) in (lni < its)%nat ->
  (-1 <= lev n lni)%Z /\ (lni = (its - 1)%nat /\ (lev n lni <= 0)%Z \/ (lni < its - 1)%nat /\ (0 < lev n lni)%Z).
Proof.
  intros Hn its L. unfold its, iterations_of in *. rewrite log2_one_n in * by auto. unfold lev. destruct (max_log_bound n Hn) as [B0 _]. set (M := max_log_nmu_of (W := R) (Z.of_nat n)) in *.
  rewrite Z.sub_0_r in *. pose proof (Z.div_mod (- M) 2 ltac:(lia)) as D. pose proof (Z.mod_pos_bound (- M) 2 ltac:(lia)) as E. lia.
Qed.

Lemma spread_bound n lni v : (1 <= n)%nat -> (lni < iterations_of (W := R) (Z.of_nat n) (/ INR n))%nat -> 0 <= v ->
  (lni = (iterations_of (W := R) (Z.of_nat n) (/ INR n) - 1)%nat \/ 13 / 10 * IZR (lev n lni) <= ln (INR n * v)) ->
  spread (lev n lni) 0 <= 2 * Rmax 1 (Rpower (INR n * v) (ln 2 * 10 / 13)).
Proof.
  intros Hn Ll Hv Hacc. destruct (default_levels n lni Hn Ll) as [B0 B]. cbv zeta in B. unfold spread. rewrite Z.add_0_r. pose proof (Rmax_l 1 (Rpower (INR n * v) (ln 2 * 10 / 13))) as M1. apply Rmax_lub; [lra|].
  rewrite powerRZ_add by lra. change (powerRZ 2 1) with (2 * 1). rewrite Rmult_1_r, Rmult_comm. apply Rmult_le_compat_l; [lra|]. destruct B as [[_ B]|[Lt B]].
  - eapply Rle_trans; [|exact M1]. change 1 with (powerRZ 2 0). apply powerRZ_mono. lia.
  - destruct Hacc as [E|Hacc]; [lia|]. eapply Rle_trans; [|apply Rmax_r]. apply exp_13; auto. apply Rmult_le_pos; [apply pos_INR|auto].
Qed.

(** Default parameters, n a power of two *)
Lemma default_accuracy a data q K e : 0 < a -> length data = (2 ^ e)%nat -> (1 <= K)%nat -> let n := length data in
  exists bad : list (list (list nat)),
  INR (length bad) <= INR (iterations_of (W := R) (Z.of_nat n) (/ INR n)) * (INR (fact n) / 2) ^ K /\
  forall T hs k ps, length ps = K -> Forall (fun s => Permutation (seq 0 n) s) ps -> ~ In ps bad ->
  ckns_init T a (/ INR n) (map (arrange data) ps) (Z.of_nat n) 0 hs k ->
  exists v, ckns_query k q = Ok v /\ 0 <= v /\
    let t := 4 * sqrt (2 * Rmax 1 (Rpower (INR n * v) (ln 2 * 10 / 13)) * others a q data) in
    INR n * v <= others a q data + t /\
    (recall a data q 0 K (iterations_of (W := R) (Z.of_nat n) (/ INR n)) hs -> Rabs (INR n * v - others a q data) <= t).
Proof.
  intros Ha En HK n. assert (1 <= n)%nat as Hn by (unfold n; rewrite En; apply Nat.neq_0_lt_0, Nat.pow_nonzero; lia). assert (data <> []) as Nd by (intros E; unfold n in Hn; rewrite E in Hn; simpl in Hn; lia).
  assert (1 <= INR n) as H1 by (change 1 with (INR 1); apply le_INR; lia).
  assert (0 < / INR n <= 1) as Hm by (split; [apply Rinv_0_lt_compat; lra|rewrite <- Rinv_1; apply Rinv_le_contravar; lra]).
  exists (bad_perms a data q 0 K (iterations_of (W := R) (Z.of_nat n) (/ INR n))). split; [apply bad_perms_few; auto|].
  intros T hs k ps Lp Fp Nb I. destruct (query_accuracy a data q 0 K Ha Nd T (/ INR n) hs k ps Hm HK Lp Fp Nb I) as (lni & v & Ll & Eq & Hacc & Hv & Hu & Hr).
  exists v. split; auto. split; auto. intros t. fold n in Hu, Hr, Hacc, Ll.
  assert (copy_mean a n (lev n lni) 0 q data = others a q data) as Ec.
  { apply (copy_mean_pow2 a n (lev n lni) 0 q Ha Hn ltac:(rewrite J_lev; lia) data eq_refl e En). lia. }
  assert (tol a (lev n lni) 0 q data <= t) as Et.
  { unfold tol, t. apply Rmult_le_compat_l; [lra|]. apply sqrt_le_1_alt. apply Rmult_le_compat_r; [apply others_nonneg|]. apply spread_bound; auto. }
  rewrite Ec in Hu, Hr. split; [lra|]. intros R. specialize (Hr R). lra.
Qed.

(** From the absolute to a relative error *)
Lemma ln2_lt_13 : 0 < ln 2 * 10 / 13 < 1.
Proof.
  assert (0 < ln 2) by (rewrite <- ln_1; apply ln_increasing; lra). split; [lra|].
  assert (ln 2 <= LOG2c) as L. { rewrite <- (ln_exp LOG2c). destruct exp_LOG2c as [E|E]; [left; apply ln_increasing; lra|right; now rewrite <- E]. }
  unfold LOG2c in L. lra.
Qed.

Lemma relative_error S y eps : let b := ln 2 * 10 / 13 in 0 < eps <= 1 -> 0 < S -> 0 <= y -> 32 * (1 + eps) / eps ^ 2 < Rpower S (1 - b) ->
  Rabs (y - S) <= 4 * sqrt (2 * Rmax 1 (Rpower y b) * S) -> (1 - eps) * S <= y <= (1 + eps) * S.
Proof.
  intros b He HS Hy HB H. pose proof ln2_lt_13 as Hb. fold b in Hb. clearbody b.
  assert (0 < eps ^ 2) as He2 by (apply pow_lt; lra).
  assert (32 * (1 + eps) < eps ^ 2 * Rpower S (1 - b)) as HB2.
  { apply (Rmult_lt_compat_l (eps ^ 2)) in HB; auto. replace (eps ^ 2 * (32 * (1 + eps) / eps ^ 2)) with (32 * (1 + eps)) in HB by (field; lra). exact HB. }
  assert (1 <= S) as HS1.
  { destruct (Rle_dec 1 S) as [|N]; auto. exfalso. apply Rnot_le_lt in N. assert (Rpower S (1 - b) <= 1).
    { unfold Rpower. assert (ln S < 0) by (rewrite <- ln_1; apply ln_increasing; lra). apply Rle_trans with (exp 0); [|rewrite exp_0; lra]. left. apply exp_increasing. assert (0 < (1 - b) * (- ln S)) by (apply Rmult_lt_0_compat; lra). lra. }
    assert (eps ^ 2 * Rpower S (1 - b) <= eps ^ 2 * 1) by (apply Rmult_le_compat_l; lra). assert (eps ^ 2 <= 1) by (rewrite <- (pow1 2); apply pow_incr; lra). lra. }
  assert (S = Rpower S b * Rpower S (1 - b)) as ES by (rewrite <- Rpower_plus; replace (b + (1 - b)) with 1 by ring; now rewrite Rpower_1).
  assert (0 < Rpower S b) as HPb by apply exp_pos. assert (0 < Rpower S (1 - b)) as HPc by apply exp_pos.
  assert (1 <= Rpower S b) as HPb1.
  { unfold Rpower. rewrite <- exp_0. assert (0 <= ln S) by (rewrite <- ln_1; destruct HS1 as [C| <-]; [left; apply ln_increasing; lra|lra]).
    assert (0 <= b * ln S) as [C|C] by (apply Rmult_le_pos; lra); [left; now apply exp_increasing|right; now rewrite <- C]. }
  assert ((y - S) ^ 2 <= 32 * Rmax 1 (Rpower y b) * S) as Sq.
  { rewrite <- (pow2_abs (y - S)). assert (0 <= 2 * Rmax 1 (Rpower y b) * S) as P0 by (pose proof (Rmax_l 1 (Rpower y b)); apply Rmult_le_pos; lra).
    apply Rle_trans with ((4 * sqrt (2 * Rmax 1 (Rpower y b) * S)) ^ 2); [apply pow_incr; split; [apply Rabs_pos|exact H]|].
    rewrite Rpow_mult_distr, pow2_sqrt by auto. right. ring. }
  split.
  - destruct (Rle_dec ((1 - eps) * S) y) as [|N]; auto. exfalso. apply Rnot_le_lt in N.
    assert (Rmax 1 (Rpower y b) <= Rpower S b) as M.
    { apply Rmax_lub; auto. destruct Hy as [Hy| <-].
      - unfold Rpower. assert (y < S) as Lys by (assert (0 < eps * S) by (apply Rmult_lt_0_compat; lra); lra). assert (ln y < ln S) by now apply ln_increasing.
        left. apply exp_increasing. apply Rmult_lt_compat_l; lra.
      - assert (ln 0 = 0) as Z0 by (unfold ln; destruct (Rlt_dec 0 0) as [C|]; [destruct (Rlt_irrefl _ C)|reflexivity]). unfold Rpower at 1. rewrite Z0, Rmult_0_r, exp_0. exact HPb1. }
    assert ((eps * S) ^ 2 < (y - S) ^ 2) as L1.
    { replace ((y - S) ^ 2) with ((S - y) ^ 2) by ring. assert (0 < eps * S) by (apply Rmult_lt_0_compat; lra). assert (eps * S < S - y) as L0 by lra. revert L0 H0. clear.
      intros L0 P. replace ((eps * S) ^ 2) with (eps * S * (eps * S)) by ring. replace ((S - y) ^ 2) with ((S - y) * (S - y)) by ring. apply Rmult_le_0_lt_compat; lra. }
    assert (32 * Rmax 1 (Rpower y b) * S <= 32 * Rpower S b * S) as L2 by (apply Rmult_le_compat_r; lra).
    assert (32 * Rpower S b * S < (eps * S) ^ 2) as L3; [|lra].
    replace ((eps * S) ^ 2) with (eps ^ 2 * S * S) by ring. apply Rmult_lt_compat_r; [lra|]. rewrite ES at 2.
    replace (eps ^ 2 * (Rpower S b * Rpower S (1 - b))) with (eps ^ 2 * Rpower S (1 - b) * Rpower S b) by ring. apply Rmult_lt_compat_r; auto.
    assert (0 < eps) by lra. lra.
  - destruct (Rle_dec y ((1 + eps) * S)) as [|N]; auto. exfalso. apply Rnot_le_lt in N.
    set (u := y / S). assert (y = u * S) as Ey by (unfold u; field; lra). assert (1 + eps < u) as Hu by (apply (Rmult_lt_reg_r S); [lra|]; rewrite <- Ey; exact N).
    assert (Rmax 1 (Rpower y b) <= u * Rpower S b) as M.
    { apply Rmax_lub; [apply Rle_trans with (u * 1); [lra|apply Rmult_le_compat_l; lra]|]. 
      rewrite Ey. rewrite <- Rpower_mult_distr by lra. apply Rmult_le_compat_r; [lra|]. unfold Rpower. rewrite <- (exp_ln u) at 2 by lra.
      assert (0 < ln u) by (rewrite <- ln_1; apply ln_increasing; lra). left. apply exp_increasing. rewrite <- (Rmult_1_l (ln u)) at 2. apply Rmult_lt_compat_r; lra. }
    assert ((y - S) ^ 2 = (u - 1) ^ 2 * (S * S)) as E1 by (rewrite Ey; ring). rewrite E1 in Sq.
    assert ((u - 1) ^ 2 * (S * S) <= 32 * (u * Rpower S b) * S) as L2 by (eapply Rle_trans; [exact Sq|]; apply Rmult_le_compat_r; lra).
    assert ((u - 1) ^ 2 * S <= 32 * (u * Rpower S b)) as L3 by (apply (Rmult_le_reg_r S); [lra|]; lra). rewrite ES in L3 at 1.
    assert ((u - 1) ^ 2 * Rpower S (1 - b) <= 32 * u) as L4 by (apply (Rmult_le_reg_r (Rpower S b)); [lra|]; lra).
    assert (eps ^ 2 * u <= (1 + eps) * (u - 1) ^ 2) as L5.
    { assert (0 <= (u - (1 + eps)) * ((1 + eps) * u - 1)) by (apply Rmult_le_pos; [lra|]; assert (0 <= eps * u) by (apply Rmult_le_pos; lra); lra).
      replace ((1 + eps) * (u - 1) ^ 2) with (eps ^ 2 * u + (u - (1 + eps)) * ((1 + eps) * u - 1)) by ring. lra. }
    assert (32 * (1 + eps) * u < eps ^ 2 * Rpower S (1 - b) * u) as L6 by (apply Rmult_lt_compat_r; lra).
    assert (eps ^ 2 * u * Rpower S (1 - b) <= (1 + eps) * (u - 1) ^ 2 * Rpower S (1 - b)) as L7 by (apply Rmult_le_compat_r; lra).
    assert ((1 + eps) * ((u - 1) ^ 2 * Rpower S (1 - b)) <= (1 + eps) * (32 * u)) as L8 by (apply Rmult_le_compat_l; lra). lra.
Qed.
