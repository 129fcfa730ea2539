(** Theorems C80: accuracy of the estimates of stag::CKNSGaussianKDE (stag_lib/kde.h:31-37,136-140,161-165, kde.cpp:140-420,570-630). *)
From Verif Require Import Base Num RSum Cluster ClusterSweep ThreadPool ThreadPoolTop Kde KdeFacts KdeFacts2 KdeFacts3 KdeFacts4 KdeAcc1 KdeAcc2 KdeAcc3 KdeAcc4 KdeAcc5 KdeAcc6 KdeAcc7.
From Coq Require Import ZArith Permutation Reals Lra Sorted.
Local Open Scope R_scope.

(** ** Specification *)
(** The kernel density of [q]: the average of exp(-a |q - x|^2) over the data points (C49_value: the answer of ExactGaussianKDE). *)
Definition density (a : R) (data : list (list R)) (q : list R) : R := lsum (fun x => exp (- a * dist2 q x)) data / INR (length data).

(** [q] is no data point. (A data point equal to [q] is in no shell, since the shells are open on the inside: see C60.) *)
Definition apart (data : list (list R)) (q : list R) : Prop := forall x, In x data -> 0 < dist2 q x.

(** The rows of the data matrix in the order given by the permutation [s] of the row numbers. *)
Definition reorder (data : list (list R)) (s : list nat) : list (list R) := map (fun i => nth i data []) s.

(** [ps] is one of the (n!)^K equally likely outcomes of shuffling the n rows K times. *)
Definition shuffles (data : list (list R)) (K : nat) (ps : list (list nat)) : Prop :=
  length ps = K /\ Forall (Permutation (seq 0 (length data))) ps.

(** The locality sensitive hash tables do their job: the unit of shell j finds the data points within the outer radius of the shell. (Tables are only used
    by units with more than 3000 points.) *)
Definition tables_find (a : R) (data : list (list R)) (q : list R) (hs : nat -> nat -> nat -> list (list R -> Z)) : Prop :=
  (3000 < length data)%nat ->
  forall iter lni j x, In x data -> dist2 q x <= radius2 a (Z.of_nat j) -> exists h, In h (hs iter lni j) /\ h x = h q.

Lemma others_density a data q : data <> [] -> apart data q -> others a q data = INR (length data) * density a data q.
Proof.
  intros Nd Ap. assert (0 < INR (length data)) by (apply lt_0_INR; destruct data; [congruence|simpl; lia]). unfold others, density.
  transitivity (lsum (fun x => exp (- a * dist2 q x)) data); [|field; lra]. apply lsum_ext. intros x Ix. rewrite (proj2 (R_ltb_true _ _) (Ap x Ix)). reflexivity.
Qed.

Lemma tables_find_recall a data q K its hs : data <> [] -> tables_find a data q hs -> recall a data q 0 K its hs.
Proof.
  intros Nd F iter lni j x Hi Hl Hj Ix Hs Hn. apply F; auto.
  - eapply Nat.lt_le_trans; [exact Hn|]. apply unit_num_le. destruct data; [congruence|simpl; lia].
  - apply in_shell_true in Hs; [|lia]. lra.
Qed.

(** ** C80 *)
(** Whatever the copies, hash tables, offset and interleaving of the constructing threads, every answer is a number between 0 and 2. *)
Theorem C80_range :
  forall (T : nat) (a min_mu : R) (copies : list (list (list R))) (n : nat) (offset : Z) (hs : nat -> nat -> nat -> list (list R -> Z)) (k : ckns) (q : list R),
  0 < a -> (1 <= n)%nat -> 0 < min_mu <= 1 -> copies <> [] -> (forall c, In c copies -> length c = n) ->
  ckns_init T a min_mu copies (Z.of_nat n) offset hs k -> exists v, ckns_query k q = Ok v /\ 0 <= v <= 2.
Proof. exact query_range. Qed.
Print Assumptions C80_range.

(** A sampling offset of -ceil(log2 n) or less switches sampling off: every answer is the exact kernel density. *)
Theorem C80_full_sampling :
  forall (T : nat) (a min_mu : R) (data : list (list R)) (copies : list (list (list R))) (offset : Z) (hs : nat -> nat -> nat -> list (list R -> Z)) (k : ckns) (q : list R),
  0 < a -> data <> [] -> apart data q -> 0 < min_mu <= 1 -> copies <> [] -> (forall c, In c copies -> Permutation data c) ->
  INR (length data) <= powerRZ 2 (- offset) ->
  (forall iter lni j x, In x data -> (3000 < length data)%nat -> exists h, In h (hs iter lni j) /\ h x = h q) ->
  ckns_init T a min_mu copies (Z.of_nat (length data)) offset hs k -> ckns_query k q = Ok (density a data q).
Proof.
  intros T a min_mu data copies offset hs k q Ha Nd Ap Hm Nc Hp Ho F I.
  assert (1 <= length data)%nat as Hn by (destruct data; [congruence|simpl; lia]).
  assert (offset <= - max_log_nmu_of (W := R) (Z.of_nat (length data)))%Z as HO.
  { destruct (max_log_bound (length data) Hn) as [B0 [_ B2]]. set (L := max_log_nmu_of _) in *. apply Z.nlt_ge. intros C.
    pose proof (powerRZ_mono (- offset) (L - 1) ltac:(lia)) as M. assert (powerRZ 2 L = 2 * powerRZ 2 (L - 1)) as E.
    { transitivity (powerRZ 2 (1 + (L - 1))); [f_equal; lia|]. rewrite powerRZ_add by lra. simpl. ring. }
    rewrite E in B2. lra. }
  rewrite (full_query T a min_mu data copies offset hs k q Ha Nd Hm Nc Hp HO F I). rewrite others_density by auto. apply f_equal.
  assert (forall x y : R, y <> 0 -> y * x / y = x) as Hc by (intros; field; auto). apply Hc. apply not_0_INR. unfold point. lia.
Qed.
Print Assumptions C80_full_sampling.

(** With n a power of two, one copy and min_mu = 1 (a single level) the estimator is unbiased: the answers [v s], averaged over the n! equally likely
    permutations s of the rows, give the exact density. *)
Theorem C80_unbiased :
  forall (a : R) (data : list (list R)) (q : list R) (e : nat) (v : list nat -> R),
  0 < a -> length data = (2 ^ e)%nat -> apart data q ->
  (forall s, Permutation (seq 0 (length data)) s ->
     exists T hs k, ckns_init T a 1 [reorder data s] (Z.of_nat (length data)) 0 hs k /\ ckns_query k q = Ok (v s)) ->
  forall all : list (list nat), NoDup all -> (forall s, In s all <-> Permutation (seq 0 (length data)) s) ->
  lsum v all / INR (length all) = density a data q.
Proof.
  intros a data q e v Ha Ln Ap Hv all Nall Hall. set (n := length data) in *.
  assert (1 <= n)%nat as Hn by (rewrite Ln; pose proof (Nat.pow_nonzero 2 e); lia).
  assert (data <> []) as Nd by (intros ->; unfold n in Hn; simpl in Hn; lia).
  assert (Permutation all (perms (seq 0 n))) as P.
  { apply NoDup_Permutation; auto; [apply perms_NoDup, seq_NoDup|]. intros s. rewrite Hall, perms_spec. reflexivity. }
  assert (max_log_nmu_of (W := R) (Z.of_nat n) = Z.of_nat e) as HL.
  { destruct (max_log_bound n Hn) as [B0 [B1 B2]]. set (L := max_log_nmu_of _) in *. rewrite Ln, pow_INR in B1, B2. change (INR 2) with 2 in B1, B2. rewrite pow_powerRZ in B1, B2.
    assert (Z.of_nat e <= L)%Z. { apply Z.nlt_ge. intros C. pose proof (powerRZ_mono (L + 1) (Z.of_nat e) ltac:(lia)) as M. rewrite powerRZ_add in M by lra. change (powerRZ 2 1) with (2 * 1) in M. assert (0 < powerRZ 2 L) by (apply powerRZ_lt; lra). lra. }
    assert (L <= Z.of_nat e)%Z; [|lia]. apply Z.nlt_ge. intros C. pose proof (powerRZ_mono (Z.of_nat e + 1) L ltac:(lia)) as M. rewrite powerRZ_add in M by lra. change (powerRZ 2 1) with (2 * 1) in M. lra. }
  assert (iterations_of (W := R) (Z.of_nat n) 1 = 1%nat) as Hits.
  { unfold iterations_of. rewrite HL. cbn [wmul wofZ NumR KNumR wfloor wlog2]. rewrite Rmult_1_r, <- INR_IZR_INZ, Ln, pow_INR.
    replace (R_floor (R_log2 (INR 2 ^ e))) with (Z.of_nat e); [rewrite Z.sub_diag; reflexivity|]. symmetry. unfold R_floor, R_log2. change (INR 2) with 2. rewrite ln_pow by lra.
    replace (INR e * ln 2 / ln 2) with (INR e) by (field; pose proof ln_lt_2; lra). apply Int_part_unique. rewrite <- INR_IZR_INZ. lra. }
  assert (0 <= ckns_J (W := R) (Z.of_nat n) (lev n 0))%Z as HJ by (rewrite J_lev; lia).
  assert (forall s, In s (perms (seq 0 n)) -> v s = plain a n (lev n 0) 0 q (arrange data s) / INR n) as Hs.
  { intros s Is. apply perms_spec in Is. destruct (Hv s Is) as (T & hs & k & I & Q). destruct (init_fields _ _ _ _ _ _ _ _ I) as (F1 & F2 & F3 & F4). rewrite Hits in F3. simpl in F4.
    destruct (query_level k q ltac:(lia) ltac:(lia)) as (lni & mu & Ll & Em & Eq & _). apply median_in in Em. apply in_map_iff in Em as (iter & E & Ii). apply in_seq in Ii.
    assert (length (reorder data s) = n) as Lr by (unfold reorder; rewrite map_length, <- (Permutation_length Is), seq_length; reflexivity).
    rewrite (init_level T a 1 [reorder data s] n 0 hs k q lni iter) in E; [|intros c [<-|[]]; exact Lr|exact I|lia|lia]. assert (lni = 0%nat) as -> by lia. assert (iter = 0%nat) as -> by lia. cbn [nth] in E.
    rewrite (level_eq_plain a n (lev n 0) 0 q Ha Hn HJ) in E; auto.
    - rewrite Eq in Q. inversion Q as [Q']. rewrite <- E, F1, <- INR_IZR_INZ. reflexivity.
    - intros j x Hj. rewrite J_lev in Hj. simpl in Hj. lia. }
  rewrite (lsum_perm _ _ _ P), (Permutation_length P), (lsum_ext _ (fun s => plain a n (lev n 0) 0 q (arrange data s) * / INR n) _ Hs), lsum_scal_r.
  rewrite (plain_mean a n (lev n 0) 0 q Ha Hn data eq_refl), (copy_mean_pow2 a n (lev n 0) 0 q Ha Hn HJ data eq_refl e Ln ltac:(lia)), others_density by auto. rewrite (F_length n).
  fold n. field. split; [apply not_0_INR; lia|apply INR_fact_neq_0].
Qed.
Print Assumptions C80_unbiased.

(** Default parameters (min_mu = 1/n, offset 0), n a power of two. All but a fraction (number of levels) / 2^K of the (n!)^K equally likely outcomes of
    the K shuffles satisfy, for this [q], for all hash tables that do their job and any interleaving of the threads: the answer v and the density d
    satisfy |n v - n d| <= 4 sqrt (2 max(1, (n v)^0.533..) n d). Even with arbitrary hash tables v is not larger than that. *)
Theorem C80_accuracy :
  forall (a : R) (data : list (list R)) (q : list R) (K e : nat),
  0 < a -> length data = (2 ^ e)%nat -> (1 <= K)%nat -> apart data q ->
  let n := INR (length data) in
  let d := density a data q in
  exists bad : list (list (list nat)),
    INR (length bad) <= (INR e / 2 + 2) / 2 ^ K * INR (fact (length data)) ^ K /\
    forall (T : nat) (hs : nat -> nat -> nat -> list (list R -> Z)) (k : ckns) (ps : list (list nat)),
      shuffles data K ps -> ~ In ps bad ->
      ckns_init T a (/ n) (map (reorder data) ps) (Z.of_nat (length data)) 0 hs k ->
      exists v, ckns_query k q = Ok v /\ 0 <= v /\
        let t := 4 * sqrt (2 * Rmax 1 (Rpower (n * v) (ln 2 * 10 / 13)) * (n * d)) in
        n * v <= n * d + t /\ (tables_find a data q hs -> Rabs (n * v - n * d) <= t).
Proof.
  intros a data q K e Ha Ln HK Ap n d. assert (1 <= length data)%nat as Hn by (rewrite Ln; pose proof (Nat.pow_nonzero 2 e); lia).
  assert (data <> []) as Nd by (intros ->; simpl in Hn; lia).
  destruct (default_accuracy a data q K e Ha Ln HK) as (bad & B & H). fold n in B, H. exists bad. split.
  - eapply Rle_trans; [exact B|]. unfold Rdiv at 1. rewrite Rpow_mult_distr. assert (INR (iterations_of (W := R) (Z.of_nat (length data)) (/ n)) <= INR e / 2 + 2) as HI.
    { unfold iterations_of, n. rewrite log2_one_n by auto. rewrite Z.sub_0_r.
      assert (max_log_nmu_of (W := R) (Z.of_nat (length data)) <= Z.of_nat e)%Z as HL.
      { destruct (max_log_bound _ Hn) as [B0 [B1 B2]]. set (L := max_log_nmu_of _) in *. rewrite Ln, pow_INR in B2. change (INR 2) with 2 in B2. rewrite pow_powerRZ in B2.
        apply Z.nlt_ge. intros C. pose proof (powerRZ_mono (Z.of_nat e + 1) L ltac:(lia)) as M. rewrite powerRZ_add in M by lra. change (powerRZ 2 1) with (2 * 1) in M. lra. }
      set (L := max_log_nmu_of _) in *. assert (Z.to_nat (- (- L / 2) + 1) <= Z.to_nat ((Z.of_nat e + 4) / 2))%nat as Z.
      { clearbody L. clear - HL. assert (- (- L / 2) + 1 <= (Z.of_nat e + 4) / 2)%Z by (Z.div_mod_to_equations; lia). lia. }
      apply le_INR in Z. eapply Rle_trans; [exact Z|]. rewrite INR_IZR_INZ, Z2Nat.id by (apply Z.div_pos; lia). rewrite INR_IZR_INZ.
      assert (2 * ((Z.of_nat e + 4) / 2) <= Z.of_nat e + 4)%Z as Z2 by (Z.div_mod_to_equations; lia). apply IZR_le in Z2. rewrite mult_IZR, plus_IZR in Z2. lra. }
    unfold Rdiv at 2. rewrite pow_inv. assert (0 < / 2 ^ K) by (apply Rinv_0_lt_compat, pow_lt; lra). assert (0 < INR (fact (length data)) ^ K) by (apply pow_lt, INR_fact_lt_0).
    rewrite (Rmult_comm (INR (fact _) ^ K)), <- Rmult_assoc. apply Rmult_le_compat_r; [lra|]. unfold Rdiv in *. apply Rmult_le_compat_r; [left; assumption|exact HI].
  - intros T hs k ps [Lp Fp] Nb I. destruct (H T hs k ps Lp Fp Nb I) as (v & Q & V0 & V1 & V2). exists v. split; auto. split; auto. rewrite others_density in V1, V2 by auto. fold n d in V1, V2. split; auto.
    intros F. apply V2. now apply tables_find_recall.
Qed.
Print Assumptions C80_accuracy.

(** So for queries with n times their density large enough compared with epsilon the documented guarantee holds with probability at least
    1 - (log2(n)/2 + 2) / 2^K. Partial: the documentation claims it for all queries of density at least min_mu and all n, which is false (below). *)
Theorem C80_large_densities_partial :
  forall (a : R) (data : list (list R)) (q : list R) (K e : nat) (eps : R),
  0 < a -> length data = (2 ^ e)%nat -> (1 <= K)%nat -> apart data q -> 0 < eps <= 1 ->
  let n := INR (length data) in
  let d := density a data q in
  32 * (1 + eps) / eps ^ 2 < Rpower (n * d) (1 - ln 2 * 10 / 13) ->
  exists bad : list (list (list nat)),
    INR (length bad) <= (INR e / 2 + 2) / 2 ^ K * INR (fact (length data)) ^ K /\
    forall (T : nat) (hs : nat -> nat -> nat -> list (list R -> Z)) (k : ckns) (ps : list (list nat)),
      shuffles data K ps -> ~ In ps bad -> tables_find a data q hs ->
      ckns_init T a (/ n) (map (reorder data) ps) (Z.of_nat (length data)) 0 hs k ->
      exists v, ckns_query k q = Ok v /\ (1 - eps) * d <= v <= (1 + eps) * d.
Proof.
  intros a data q K e eps Ha Ln HK Ap He n d Hd. destruct (C80_accuracy a data q K e Ha Ln HK Ap) as (bad & B & H). exists bad. split; auto. intros T hs k ps Sh Nb F I.
  destruct (H T hs k ps Sh Nb I) as (v & Q & V0 & _ & V2). specialize (V2 F). fold n d in V2. exists v. split; auto.
  assert (1 <= length data)%nat as Hn by (rewrite Ln; pose proof (Nat.pow_nonzero 2 e); lia). assert (0 < n) as Hn0 by (apply lt_0_INR; lia).
  assert (0 < n * d) as Hnd. { unfold d, density. fold n. replace (n * _) with (lsum (fun x => exp (- a * dist2 q x)) data) by (field; lra). destruct data as [|x data']; [simpl in Hn; lia|]. cbn [lsum]. pose proof (exp_pos (- a * dist2 q x)). pose proof (lsum_nonneg (fun x => exp (- a * dist2 q x)) data' (fun y _ => Rlt_le _ _ (exp_pos _))). lra. }
  destruct (relative_error (n * d) (n * v) eps He Hnd) as [L U]; auto; [apply Rmult_le_pos; lra|]. split; apply (Rmult_le_reg_l n); auto; lra.
Qed.
Print Assumptions C80_large_densities_partial.

(** The number of copies of the constructors, K1 = ceil(ln n / eps^2), makes the fraction of bad outcomes at most (log2(n)/2 + 2) / n^(ln 2 / eps^2). *)
Theorem C80_default_probability :
  forall (n : nat) (eps : R), (2 <= n)%nat -> 0 < eps ->
  let K := Z.to_nat (default_k1 (Z.of_nat n) eps) in
  (1 <= K)%nat /\ / 2 ^ K <= / Rpower (INR n) (ln 2 / eps ^ 2).
Proof.
  intros n eps Hn He K. assert (0 < ln (INR n)) as Hl by (rewrite <- ln_1; apply ln_increasing; [lra|]; apply lt_1_INR; lia). assert (0 < eps * eps) as He2 by (apply Rmult_lt_0_compat; lra).
  assert (ln (INR n) / (eps * eps) <= INR K) as HK.
  { unfold K, default_k1. cbn [wceil wdiv wmul w1 wlog wofZ KNumR NumR]. rewrite Rmult_1_l, <- INR_IZR_INZ. unfold R_ceil. set (x := ln (INR n) / (eps * eps)).
    assert (x <= IZR (- Int_part (- x))) as Hx by (pose proof (Int_part_bounds (- x)); rewrite opp_IZR; lra).
    rewrite INR_IZR_INZ. eapply Rle_trans; [exact Hx|]. apply IZR_le. lia. }
  assert (0 < ln (INR n) / (eps * eps)) as H0 by (apply Rdiv_lt_0_compat; auto). split.
  - apply INR_le. simpl. assert (0 < INR K) as P by lra. apply (INR_lt 0) in P. apply (le_INR 1). lia.
  - assert (0 < ln 2) as L2 by (rewrite <- ln_1; apply ln_increasing; lra). apply Rinv_le_contravar; [apply exp_pos|]. rewrite <- (Rpower_pow K 2) by lra. unfold Rpower.
    assert (ln 2 / eps ^ 2 * ln (INR n) <= INR K * ln 2) as [X|X].
    + replace (ln 2 / eps ^ 2 * ln (INR n)) with (ln (INR n) / (eps * eps) * ln 2) by (field; lra). apply Rmult_le_compat_r; lra.
    + left. now apply exp_increasing.
    + right. now f_equal.
Qed.
Print Assumptions C80_default_probability.

(** The documented default of epsilon is 0.5; the constructor without an epsilon argument uses 1, and so builds fewer copies for every n >= 3. *)
Theorem C80_default_epsilon_refuted :
  forall n : nat, (3 <= n)%nat -> (default_k1 (Z.of_nat n) (eps_default (W := R)) < default_k1 (Z.of_nat n) (1 / 2)%R)%Z.
Proof.
  intros n Hn. assert (1 <= ln (INR n)) as Hl.
  { apply Rnot_lt_le. intros C. apply exp_increasing in C. rewrite exp_ln in C by (apply lt_0_INR; lia). pose proof exp_le_3. apply le_INR in Hn. simpl in Hn. lra. }
  unfold default_k1, eps_default. cbn [wceil wdiv wmul w1 wlog wofZ KNumR NumR]. rewrite <- INR_IZR_INZ. unfold R_ceil. set (x := ln (INR n)) in *.
  pose proof (Int_part_bounds (- (1 * x / (1 * 1)))) as B1. pose proof (Int_part_bounds (- (1 * x / (1 / 2 * (1 / 2))))) as B2. set (i := Int_part _) in *. set (j := Int_part (- (1 * x / (1 / 2 * (1 / 2))))) in *.
  replace (- (1 * x / (1 * 1))) with (- x) in B1 by field. replace (- (1 * x / (1 / 2 * (1 / 2)))) with (- (4 * x)) in B2 by field.
  assert (IZR j < IZR i) as Z by lra. apply lt_IZR in Z. lia.
Qed.
Print Assumptions C80_default_epsilon_refuted.

(** When n is not a power of two the last shell of the last level has probability 1/2^ceil(log2 n) < 1/n and so no samples at all: if all the data
    points lie in it, every answer is 0, whatever the number of copies and the permutations. *)
Theorem C80_zero_answers :
  forall (a : R) (n : nat) (q : list R) (T : nat) (copies : list (list (list R))) (hs : nat -> nat -> nat -> list (list R -> Z)) (k : ckns),
  0 < a -> (1 <= n)%nat -> (forall e, n <> (2 ^ e)%nat) ->
  let J := (2 * (iterations_of (W := R) (Z.of_nat n) (/ INR n) - 1))%nat in
  copies <> [] ->
  (forall c, In c copies -> length c = n /\ forall x, In x c -> radius2 a (Z.of_nat J - 1) < dist2 q x <= radius2 a (Z.of_nat J)) ->
  ckns_init T a (/ INR n) copies (Z.of_nat n) 0 hs k -> ckns_query k q = Ok 0.
Proof. intros a n q T copies hs k Ha Hn Np J Nc Hc I. exact (zero_query a n q Ha Hn Np T copies hs k Nc Hc I). Qed.
Print Assumptions C80_zero_answers.

Lemma three_its : iterations_of (W := R) 3 (/ INR 3) = 2%nat.
Proof.
  unfold iterations_of. change 3%Z with (Z.of_nat 3). rewrite log2_one_n by lia. assert (max_log_nmu_of (W := R) (Z.of_nat 3) = 2%Z) as ->; [|reflexivity].
  destruct (max_log_bound 3 ltac:(lia)) as [B0 [B1 B2]]. set (L := max_log_nmu_of _) in *. simpl in B1, B2.
  assert (L <= 2)%Z. { apply Z.nlt_ge. intros C. pose proof (powerRZ_mono 3 L ltac:(lia)) as M. simpl in M. lra. }
  assert (2 <= L)%Z; [|lia]. apply Z.nlt_ge. intros C. pose proof (powerRZ_mono L 1 ltac:(lia)) as M. simpl in M. lra.
Qed.

Lemma exp_m1 : 1 / 3 <= exp (-1).
Proof.
  replace (exp (-1)) with (/ exp 1) by (rewrite <- exp_Ropp; f_equal; lra). unfold Rdiv. rewrite Rmult_1_l. apply Rinv_le_contravar; [apply exp_pos|apply exp_le_3].
Qed.

(** Three points at distance 1: the density is 1/e, above the default min_mu = 1/3, and every answer is 0, however many copies there are. *)
Theorem C80_zero_refuted :
  exists (data : list (list R)) (q : list R),
  length data = 3%nat /\ apart data q /\ density 1 data q = exp (-1) /\ / INR (length data) <= density 1 data q /\
  forall T copies hs k, copies <> [] -> (forall c, In c copies -> Permutation data c) ->
    ckns_init T 1 (/ INR (length data)) copies (Z.of_nat (length data)) 0 hs k -> ckns_query k q = Ok 0.
Proof.
  set (data := cons (cons 1 (cons 0 nil)) (cons (cons 0 (cons 1 nil)) (cons (cons (-1) (cons 0 nil)) nil)) : list (list R)).
  exists data, (cons 0 (cons 0 nil)).
  assert (forall x, In x data -> dist2 (cons 0 (cons 0 nil)) x = 1) as D1. { intros x [<-|[<-|[<-|[]]]]; unfold dist2, rsum; simpl; ring. }
  assert (density 1 data (cons 0 (cons 0 nil)) = exp (-1)) as E.
  { unfold density. rewrite (lsum_ext _ (fun _ => exp (-1))); [|intros x Ix; rewrite (D1 x Ix); f_equal; lra]. rewrite lsum_const. change (length data) with 3%nat. simpl. field. }
  split; [reflexivity|]. split; [intros x Ix; rewrite (D1 x Ix); lra|]. split; auto. rewrite E. change (length data) with 3%nat. split.
  - replace (/ INR 3) with (1 / 3) by (simpl; field). exact exp_m1.
  - intros T copies hs k Nc Hc I. change (Z.of_nat 3) with 3%Z in I.
    apply (C80_zero_answers 1 3 (cons 0 (cons 0 nil)) T copies hs k); [lra|lia| |exact Nc| |exact I].
    + intros e. destruct e as [|[|e]]; simpl; lia.
    + intros c Ic. specialize (Hc c Ic). split; [rewrite <- (Permutation_length Hc); reflexivity|]. intros x Ix. apply (Permutation_in _ (Permutation_sym Hc)) in Ix. rewrite (D1 x Ix).
      change (Z.of_nat 3) with 3%Z. rewrite three_its. unfold radius2, LOG2c. simpl. lra.
Qed.
Print Assumptions C80_zero_refuted.

(** Nor is n a power of two enough: for every epsilon < 1/3 there are four points and a query of density at least min_mu = 1/4 for which no answer is
    ever within the factor, whatever the number K1 of copies, the permutations and the hash tables. *)
Theorem C80_relative_error_refuted :
  forall eps : R, 0 < eps < 1 / 3 ->
  exists (data : list (list R)) (q : list R),
  length data = 4%nat /\ apart data q /\ / INR (length data) <= density 1 data q /\
  forall T copies hs k, copies <> [] -> (forall c, In c copies -> Permutation data c) ->
    ckns_init T 1 (/ INR (length data)) copies (Z.of_nat (length data)) 0 hs k ->
    exists v, ckns_query k q = Ok v /\ ~ (1 - eps) * density 1 data q <= v <= (1 + eps) * density 1 data q.
Proof.
  intros eps He. set (D := 1 + 2 / (1 - 3 * eps)). assert (2 < 2 / (1 - 3 * eps)) as HD0.
  { apply (Rmult_lt_reg_r (1 - 3 * eps)); [lra|]. replace (2 / (1 - 3 * eps) * (1 - 3 * eps)) with 2 by (field; lra). lra. }
  set (data := cons (cons 1 nil) (cons (cons 1 nil) (cons (cons (-1) nil) (cons (cons (sqrt D) nil) nil))) : list (list R)). set (q := cons 0 nil : list R).
  assert (dist2 q (cons (sqrt D) nil) = D) as DD. { unfold dist2, rsum; simpl. transitivity (sqrt D * sqrt D); [ring|]. apply sqrt_sqrt. unfold D. lra. }
  assert (forall x, In x data -> near_or_far D q x) as NF. { intros x [<-|[<-|[<-|[<-|[]]]]]; [left|left|left|right; exact DD]; unfold dist2, rsum; simpl; ring. }
  assert (density 1 data q = (3 * exp (-1) + exp (- D)) / 4) as Ed.
  { unfold density. unfold data at 1. cbn [lsum]. rewrite DD. replace (dist2 q (cons 1 nil)) with 1 by (unfold dist2, rsum; simpl; ring). replace (dist2 q (cons (-1) nil)) with 1 by (unfold dist2, rsum; simpl; ring).
    replace (- (1) * 1) with (-1) by lra. replace (- (1) * D) with (- D) by ring. change (length data) with 4%nat. simpl. field. }
  pose proof exp_m1 as E1. pose proof (exp_pos (- D)) as ED.
  assert (exp (- D) < (1 - 3 * eps) / 2 * exp (-1)) as EE.
  { replace (- D) with (- (2 / (1 - 3 * eps)) + -1) by (unfold D; ring). rewrite exp_plus. apply Rmult_lt_compat_r; [apply exp_pos|]. rewrite exp_Ropp.
    replace ((1 - 3 * eps) / 2) with (/ (2 / (1 - 3 * eps))) by (field; lra). apply Rinv_lt_contravar; [apply Rmult_lt_0_compat; [lra|apply exp_pos]|].
    pose proof (exp_ineq1 (2 / (1 - 3 * eps)) ltac:(lra)). lra. }
  exists data, q. split; [reflexivity|]. split; [|split].
  - intros x Ix. destruct (NF x Ix) as [->| ->]; unfold D in *; lra.
  - change (length data) with 4%nat. rewrite Ed. change (INR 4) with (1 + 1 + 1 + 1). lra.
  - change (length data) with 4%nat. intros T copies hs k Nc Hc I. rewrite Ed.
    assert (2 * LOG2c < D) as HD by (unfold LOG2c, D; lra).
    assert (0 < exp (-1)) as P1 by apply exp_pos.
    assert (0 < eps * exp (-1)) by (apply Rmult_lt_0_compat; lra). assert (0 < eps * exp (- D)) by (apply Rmult_lt_0_compat; lra).
    assert (eps * exp (- D) < 1 / 3 * exp (- D)) by (apply Rmult_lt_compat_r; lra).
    destruct (four_query D q HD T copies hs k Nc) as [Q|Q]; auto.
    + intros c Ic. specialize (Hc c Ic). split; [rewrite <- (Permutation_length Hc); reflexivity|]. intros x Ix. apply NF. now apply (Permutation_in _ (Permutation_sym Hc)).
    + exists (exp (-1)). split; auto. lra.
    + exists (exp (- D)). split; auto. lra.
Qed.
Print Assumptions C80_relative_error_refuted.

(** *** The hypotheses can be met *)
(** The construction of the theorems above always has a result. *)
Example C80_constructed : forall (a min_mu : R) copies n offset hs, exists k, ckns_init 4 a min_mu copies n offset hs k.
Proof. intros. apply init_exists. lia. Qed.

(** For every epsilon there are data sets with a large enough density: for example 2^e points at distance 1 from the query. *)
Example C80_hypotheses_met : forall eps, 0 < eps <= 1 -> exists (data : list (list R)) (q : list R) (e : nat),
  length data = (2 ^ e)%nat /\ apart data q /\ 32 * (1 + eps) / eps ^ 2 < Rpower (INR (length data) * density 1 data q) (1 - ln 2 * 10 / 13).
Proof.
  intros eps He. set (M := 32 * (1 + eps) / eps ^ 2). assert (0 < M) as HM. { apply Rdiv_lt_0_compat; [lra|apply pow_lt; lra]. } pose proof ln2_lt_13 as Hb. set (b := ln 2 * 10 / 13) in *.
  assert (0 < ln 2) as Hl by (rewrite <- ln_1; apply ln_increasing; lra).
  assert (exists e : nat, (1 + M / (1 - b)) / ln 2 < INR e) as [e Hx].
  { destruct (archimed ((1 + M / (1 - b)) / ln 2)) as [A _]. exists (Z.to_nat (up ((1 + M / (1 - b)) / ln 2))). rewrite INR_IZR_INZ. eapply Rlt_le_trans; [exact A|]. apply IZR_le. lia. }
  set (q := cons 0 nil : list R). set (x := cons 1 nil : list R). assert (dist2 q x = 1) as D1 by (unfold dist2, rsum; simpl; ring).
  exists (repeat x (2 ^ e)), q, e. rewrite repeat_length. split; auto. split.
  - intros y Iy. apply repeat_spec in Iy as ->. rewrite D1. lra.
  - assert (INR (2 ^ e) <> 0) as Nz by (apply not_0_INR, Nat.pow_nonzero; lia). unfold density. rewrite repeat_length.
    rewrite (lsum_ext _ (fun _ => exp (-1))); [|intros y Iy; apply repeat_spec in Iy as ->; rewrite D1; f_equal; lra]. rewrite lsum_const, repeat_length.
    replace (INR (2 ^ e) * (exp (-1) * INR (2 ^ e) / INR (2 ^ e))) with (exp (-1) * INR (2 ^ e)) by (field; auto).
    unfold Rpower. rewrite ln_mult; [|apply exp_pos|apply lt_0_INR; pose proof (Nat.pow_nonzero 2 e); lia]. rewrite ln_exp, pow_INR, ln_pow by (simpl; lra). change (INR 2) with 2.
    assert (M / (1 - b) < -1 + INR e * ln 2) as H1.
    { apply (Rmult_lt_compat_r (ln 2)) in Hx; auto. replace ((1 + M / (1 - b)) / ln 2 * ln 2) with (1 + M / (1 - b)) in Hx by (field; lra). lra. }
    apply (Rmult_lt_compat_l (1 - b)) in H1; [|lra]. replace ((1 - b) * (M / (1 - b))) with M in H1 by (field; lra).
    eapply Rlt_trans; [exact H1|]. set (y := (1 - b) * _) in *. pose proof (exp_ineq1 y ltac:(lra)). lra.
Qed.

(** A structure as in the refuted theorems exists. *)
Example C80_refuted_met : exists k, ckns_init 4 1 (/ INR 3) [[[1; 0]; [0; 1]; [-1; 0]]; [[0; 1]; [1; 0]; [-1; 0]]]%R 3 0 (fun _ _ _ => []) k.
Proof. apply init_exists. lia. Qed.
