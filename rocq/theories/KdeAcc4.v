(** Accuracy of the CKNS estimator: range, mean and variance of the estimate of a copy, the answer of a query (C80). *)
From Verif Require Import Base Num RSum Cluster ClusterSweep ThreadPool ThreadPoolTop Kde KdeFacts KdeFacts2 KdeFacts3 KdeFacts4 KdeAcc1 KdeAcc2 KdeAcc3.
From Coq Require Import ZArith Permutation Reals Lra Sorted FinFun.
Local Open Scope R_scope.

(** The copy of the data in the order s *)
Definition arrange (data : list (list R)) (s : list nat) : list (list R) := map (fun i => nth i data []) s.

Section Copy.
  Variables (a : R) (n : nat) (l o : Z) (q : list R).
  Hypothesis Ha : 0 < a.
  Hypothesis Hn : (1 <= n)%nat.
  Hypothesis HJ : (0 <= ckns_J (W := R) (Z.of_nat n) l)%Z.
  Let N := Z.of_nat n.
  Let J := Z.to_nat (ckns_J (W := R) N l).
  Let p (j : nat) := unit_p N l (Z.of_nat j) o.
  Let num (j : nat) := unit_num N l (Z.of_nat j) o.
  Let hit (j : nat) (x : list R) := in_shell a (Z.of_nat J) (Z.of_nat j) (dist2 q x).

  Lemma EJ : ckns_J (W := R) N l = Z.of_nat J.
  Proof. unfold J. now rewrite Z2Nat.id. Qed.

  Lemma EJ' : Z.of_nat J = (max_log_nmu_of (W := R) N - l)%Z.
  Proof. rewrite <- EJ. reflexivity. Qed.

  (** the sum of the answers of the units of a copy *)
  Definition level (c : list (list R)) (hs : nat -> list (list R -> Z)) : R :=
    lsum (fun j => hunit_query (hunit_new a c l (Z.of_nat j) o (hs j)) q) (seq 0 (S J)).
  (** the same if no hash tables are used *)
  Definition plain (c : list (list R)) : R :=
    lsum (fun j => lsum (fun x => if hit j x then gauss a q x / p j else 0) (firstn (num j) c)) (seq 0 (S J)).

  Lemma p_range j : 0 < p j <= 1.
  Proof. apply unit_p_range. unfold N. lia. Qed.

  Lemma term_nonneg j x : 0 <= (if hit j x then gauss a q x / p j else 0).
  Proof. destruct (hit j x); [|lra]. apply Rmult_le_pos; [left; apply gauss_pos|left; apply Rinv_0_lt_compat, p_range]. Qed.

  Lemma lsum_filter_le {A} (f : A -> R) (b : A -> bool) c : (forall x, 0 <= f x) -> lsum f (filter b c) <= lsum f c.
  Proof. intros Hf. induction c as [|x c IH]; simpl; [lra|]. pose proof (Hf x). destruct (b x); cbn [lsum]; lra. Qed.

  Lemma unit_eq c hs j : length c = n ->
    hunit_query (hunit_new a c l (Z.of_nat j) o hs) q = lsum (fun x => if hit j x then gauss a q x / p j else 0) (candidates (Z.of_nat j) hs q (firstn (num j) c)).
  Proof.
    intros Lc. assert (c <> []) as Nc by (intros ->; simpl in Lc; lia). rewrite hunit_query_R; [|exact Ha|lia|exact Nc]. unfold point in *. rewrite Lc. fold N. rewrite EJ. reflexivity.
  Qed.

  Lemma level_nonneg c hs : length c = n -> 0 <= level c hs.
  Proof. intros Lc. apply lsum_nonneg. intros j _. rewrite unit_eq by auto. apply lsum_nonneg. intros x _. apply term_nonneg. Qed.

  Lemma level_le_plain c hs : length c = n -> level c hs <= plain c.
  Proof.
    intros Lc. apply lsum_le. intros j _. rewrite unit_eq by auto. unfold candidates. destruct (_ || _); [apply Rle_refl|]. apply lsum_filter_le. apply term_nonneg.
  Qed.

  Lemma level_eq_plain c hs : length c = n ->
    (forall j x, (1 <= j <= J)%nat -> In x c -> hit j x = true -> (num j <= 3000)%nat \/ exists h, In h (hs j) /\ h x = h q) -> level c hs = plain c.
  Proof.
    intros Lc Hr. apply lsum_ext. intros j Ij. apply in_seq in Ij. rewrite unit_eq by auto. unfold candidates. destruct (_ || _) eqn:E; auto. apply orb_false_iff in E as [E1 E2].
    apply Z.eqb_neq in E1. apply Z.leb_gt in E2. rewrite firstn_length in E2. rewrite lsum_filter. apply lsum_ext. intros x Ix. apply firstn_In in Ix. destruct (hit j x) eqn:Eh; [|destruct (existsb _ _); reflexivity].
    destruct (Hr j x ltac:(lia) Ix Eh) as [L|(h & Ih & E)]; [lia|]. replace (existsb _ _) with true; auto. symmetry. apply existsb_exists. exists h. split; auto. apply Z.eqb_eq. exact E.
  Qed.

  (** *** Range *)
  Lemma unit_bound j c B : length c = n -> (forall x, hit j x = true -> gauss a q x <= B) -> 0 <= B ->
    lsum (fun x => if hit j x then gauss a q x / p j else 0) (firstn (num j) c) <= INR n * B.
  Proof.
    intros Lc HB B0. pose proof (p_range j) as Hp. apply Rle_trans with (lsum (fun _ => B / p j) (firstn (num j) c)).
    - apply lsum_le. intros x _. destruct (hit j x) eqn:E; [|apply Rmult_le_pos; auto; left; apply Rinv_0_lt_compat; lra]. apply Rmult_le_compat_r; [left; apply Rinv_0_lt_compat; lra|auto].
    - rewrite lsum_const. pose proof (unit_num_le n l (Z.of_nat j) o Hn) as Lk. fold N (num j) in Lk. rewrite firstn_length_le by lia.
      pose proof (unit_num_bound n l (Z.of_nat j) o Hn) as Bk. fold N (num j) (p j) in Bk.
      replace (B / p j * INR (num j)) with (B * (INR (num j) / p j)) by (field; lra). rewrite (Rmult_comm (INR n) B). apply Rmult_le_compat_l; auto.
      apply (Rmult_le_reg_r (p j)); [lra|]. replace (INR (num j) / p j * p j) with (INR (num j)) by (field; lra). lra.
  Qed.

  Lemma halves k : (1 / 2) ^ k + lsum (fun j => (1 / 2) ^ (j - 1)) (seq 1 k) = 2 - (1 / 2) ^ k.
  Proof.
    induction k as [|k IH]; [simpl; lra|]. rewrite seq_S, lsum_app. cbn [lsum]. replace (1 + k - 1)%nat with k by lia. cbn [pow]. lra.
  Qed.

  Lemma plain_range c : length c = n -> 0 <= plain c <= 2 * INR n.
  Proof.
    intros Lc. split; [apply lsum_nonneg; intros j _; apply lsum_nonneg; intros x _; apply term_nonneg|].
    assert (0 < INR n) by (apply lt_0_INR; lia).
    apply Rle_trans with (INR n * (2 - (1 / 2) ^ J)); [|assert (0 < (1 / 2) ^ J) by (apply pow_lt; lra); rewrite (Rmult_comm 2); apply Rmult_le_compat_l; lra].
    rewrite <- halves, Rmult_plus_distr_l, <- lsum_scal. unfold plain. cbn [seq lsum]. apply Rplus_le_compat.
    - apply unit_bound; auto; [|apply pow_le; lra]. intros x E. pose proof (shell_kernel a (Z.of_nat J) 0 q x Ha ltac:(lia) E) as K. cbn [Nat.eqb] in K. now rewrite Nat2Z.id in K.
    - apply lsum_le. intros j Ij. apply in_seq in Ij. apply unit_bound; auto; [|apply pow_le; lra]. intros x E. pose proof (shell_kernel a (Z.of_nat J) j q x Ha ltac:(lia) E) as K.
      destruct (Nat.eqb_spec j 0); [lia|auto].
  Qed.

  (** *** As a weighted sum over the data *)
  Variable data : list (list R).
  Hypothesis Ld : length data = n.
  Let pt (x : nat) := nth x data [].
  Let far (x : nat) := R_ltb 0 (dist2 q (pt x)).
  Let sh (x : nat) := shell_of a J (dist2 q (pt x)).
  Definition cw (x : nat) : R := if far x then gauss a q (pt x) / p (sh x) else 0.
  Definition cm (x : nat) : nat := num (sh x).

  Lemma cw_nonneg x : 0 <= cw x.
  Proof. unfold cw. destruct (far x); [|lra]. apply Rmult_le_pos; [left; apply gauss_pos|left; apply Rinv_0_lt_compat, p_range]. Qed.
  Lemma cm_le x : (cm x <= n)%nat.
  Proof. apply unit_num_le. exact Hn. Qed.

  Lemma plain_wsum s : In s (perms (seq 0 n)) -> plain (arrange data s) = wsumX n cw cm s.
  Proof.
    intros Is. pose proof (F_len n s Is) as Ls.
    transitivity (rsum n (fun x => lsum (fun j => if hit j (pt x) then gauss a q (pt x) / p j * within s x (num j) else 0) (seq 0 (S J)))).
    - unfold plain, rsum. rewrite lsum_swap. apply lsum_ext. intros j _. unfold arrange. rewrite firstn_map, lsum_map.
      pose proof (unit_num_le n l (Z.of_nat j) o Hn) as Lk. fold N (num j) in Lk.
      rewrite (lsum_firstn_nth _ (num j) s 0%nat) by lia. change (rsum (num j) (fun i => if hit j (nth (nth i s 0%nat) data []) then gauss a q (nth (nth i s 0%nat) data []) / p j else 0) =
        rsum n (fun x => if hit j (pt x) then gauss a q (pt x) / p j * within s x (num j) else 0)).
      transitivity (rsum (num j) (fun i => rsum n (fun x => if (nth i s 0%nat =? x)%nat then (if hit j (pt x) then gauss a q (pt x) / p j else 0) else 0))).
      + apply rsum_ext. intros i Li. rewrite (rsum_delta' n (nth i s 0%nat) (fun x => if hit j (pt x) then gauss a q (pt x) / p j else 0)); [reflexivity|]. apply F_at; auto. lia.
      + rewrite rsum_swap. apply rsum_ext. intros x Lx. unfold within. destruct (hit j (pt x)).
        * rewrite <- rsum_scal. apply rsum_ext. intros i _. unfold KdeAcc1.ind. destruct (_ =? _)%nat; ring.
        * apply rsum_zero. intros i _. destruct (_ =? _)%nat; reflexivity.
    - unfold wsumX. apply rsum_ext. intros x Lx. unfold hit. rewrite (shell_sum a J (dist2 q (pt x)) (fun j => gauss a q (pt x) / p j * within s x (num j)) Ha).
      unfold cw, cm, sh, far. cbv beta. destruct (R_ltb 0 (dist2 q (pt x))); ring.
  Qed.

  (** sum of the kernel values of the data points different from q *)
  Definition others : R := lsum (fun x => if R_ltb 0 (dist2 q x) then gauss a q x else 0) data.
  Lemma others_rsum : others = rsum n (fun x => if far x then gauss a q (pt x) else 0).
  Proof.
    unfold others. rewrite <- (firstn_all data) at 1. rewrite (lsum_firstn_nth _ (length data) data []) by lia. rewrite Ld. reflexivity.
  Qed.
  Lemma others_nonneg : 0 <= others.
  Proof. apply lsum_nonneg. intros x _. destruct (R_ltb _ _); [left; apply gauss_pos|lra]. Qed.

  (** mean over all orders: the shells' kernel sums, scaled by the rounding of the number of samples *)
  Definition copy_mean : R := lsum (fun j => INR (num j) / (p j * INR n) * lsum (fun x => if hit j x then gauss a q x else 0) data) (seq 0 (S J)).

  Lemma copy_mean_eq : meanX n cw cm = copy_mean.
  Proof.
    unfold copy_mean. transitivity (rsum n (fun x => lsum (fun j => if hit j (pt x) then INR (num j) / (p j * INR n) * gauss a q (pt x) else 0) (seq 0 (S J)))).
    - unfold meanX. apply rsum_ext. intros x Lx. unfold hit. rewrite (shell_sum a J (dist2 q (pt x)) (fun j => INR (num j) / (p j * INR n) * gauss a q (pt x)) Ha).
      unfold cw, cm, sh, far. cbv beta. destruct (R_ltb 0 (dist2 q (pt x))); [|ring]. pose proof (p_range (shell_of a J (dist2 q (pt x)))). assert (0 < INR n) by (apply lt_0_INR; lia). field. lra.
    - unfold rsum. rewrite lsum_swap. apply lsum_ext. intros j _. rewrite <- lsum_scal.
      transitivity (lsum (fun x => if hit j x then INR (num j) / (p j * INR n) * gauss a q x else 0) (firstn n data)).
      + rewrite (lsum_firstn_nth _ n data []) by lia. reflexivity.
      + rewrite <- Ld, firstn_all. apply lsum_ext. intros x _. destruct (hit j x); ring.
  Qed.

  Lemma plain_mean : lsum (fun s => plain (arrange data s)) (perms (seq 0 n)) = INR (fact n) * copy_mean.
  Proof.
    rewrite <- copy_mean_eq, <- wsumX_mean by (intros; apply cm_le). apply lsum_ext. intros s I. now apply plain_wsum.
  Qed.

  Lemma variance_term x : (x < n)%nat -> cw x * cw x * (INR (cm x) / INR n) <= (if far x then gauss a q (pt x) else 0) * spread l o.
  Proof.
    intros Lx. unfold cw. destruct (far x) eqn:Ef; [|lra]. apply R_ltb_true in Ef. destruct (shell_of_spec a J (dist2 q (pt x)) Ha Ef) as [Ls Hs]. fold (sh x) in Ls, Hs.
    pose proof (proj2 (Hs (sh x) Ls) eq_refl) as Hin. pose proof (p_range (sh x)) as Hp. pose proof (gauss_pos a q (pt x)) as Hg. assert (0 < INR n) as H0 by (apply lt_0_INR; lia).
    assert (gauss a q (pt x) / p (sh x) <= spread l o) as K.
    { unfold p, N. apply kernel_over_p; auto. fold N. rewrite EJ. exact Hin. }
    pose proof (unit_num_bound n l (Z.of_nat (sh x)) o Hn) as Bk. fold N in Bk. fold (num (sh x)) (p (sh x)) (cm x) in Bk.
    apply Rle_trans with (gauss a q (pt x) * (gauss a q (pt x) / p (sh x))); [|apply Rmult_le_compat_l; lra].
    replace (gauss a q (pt x) / p (sh x) * (gauss a q (pt x) / p (sh x)) * (INR (cm x) / INR n))
      with (gauss a q (pt x) * (gauss a q (pt x) / p (sh x)) * (INR (cm x) / (p (sh x) * INR n))) by (field; lra).
    rewrite <- (Rmult_1_r (gauss a q (pt x) * (gauss a q (pt x) / p (sh x)))) at 2. apply Rmult_le_compat_l.
    - apply Rmult_le_pos; [lra|]. apply Rmult_le_pos; [lra|left; apply Rinv_0_lt_compat; lra].
    - apply (Rmult_le_reg_r (p (sh x) * INR n)); [apply Rmult_lt_0_compat; lra|]. replace (INR (cm x) / (p (sh x) * INR n) * (p (sh x) * INR n)) with (INR (cm x)) by (field; lra). lra.
  Qed.

  Lemma variance_total : rsum n (fun x => cw x * cw x * (INR (cm x) / INR n)) <= others * spread l o.
  Proof. rewrite others_rsum, <- rsum_scal_r. apply rsum_le. exact variance_term. Qed.

  Lemma plain_variance : lsum (fun s => (plain (arrange data s) - copy_mean) ^ 2) (perms (seq 0 n)) <= INR (fact n) * (spread l o * others).
  Proof.
    rewrite <- copy_mean_eq. rewrite (lsum_ext _ (fun s => (wsumX n cw cm s - meanX n cw cm) ^ 2)) by (intros s I; now rewrite plain_wsum).
    eapply Rle_trans; [apply wsumX_variance; intros; [apply cw_nonneg|apply cm_le]|]. apply Rmult_le_compat_l; [apply pos_INR|]. rewrite Rmult_comm. exact variance_total.
  Qed.

  Definition tol : R := 4 * sqrt (spread l o * others).

  Lemma plain_chebyshev : INR (length (filter (fun s => off copy_mean tol (plain (arrange data s))) (perms (seq 0 n)))) <= INR (length (perms (seq 0 n))) / 16.
  Proof.
    rewrite (F_length n). pose proof (NF_pos n) as HF. pose proof others_nonneg as H0. pose proof (spread_ge_1 l o) as Hs.
    assert (filter (fun s => off copy_mean tol (plain (arrange data s))) (perms (seq 0 n)) =
      filter (fun s => if Rle_dec (Rabs (wsumX n cw cm s - meanX n cw cm)) tol then false else true) (perms (seq 0 n))) as E.
    { apply filter_ext_in. intros s I. unfold off. rewrite copy_mean_eq, plain_wsum by auto. reflexivity. }
    destruct H0 as [H0|H0].
    - rewrite E. eapply Rle_trans; [apply (wsumX_chebyshev n cw cm (fun x _ => cw_nonneg x) (fun x _ => cm_le x) (others * spread l o) tol); [|exact variance_total]|].
      + unfold tol. apply Rmult_lt_0_compat; [lra|]. apply sqrt_lt_R0. apply Rmult_lt_0_compat; lra.
      + right. unfold tol. rewrite Rpow_mult_distr, pow2_sqrt by (apply Rmult_le_pos; lra). field. lra.
    - replace (filter _ _) with (@nil (list nat)); [simpl; lra|]. rewrite E. symmetry.
      assert (forall x, (x < n)%nat -> cw x = 0) as Z.
      { intros x Lx. unfold cw. destruct (far x) eqn:Ef; auto. exfalso. pose proof (rsum_ge_elt n (fun x => if far x then gauss a q (pt x) else 0) x) as G. rewrite <- others_rsum, <- H0 in G.
        cbv beta in G. rewrite Ef in G. pose proof (gauss_pos a q (pt x)). assert (gauss a q (pt x) <= 0); [|lra]. apply G; auto. intros y _. destruct (far y); [left; apply gauss_pos|lra]. }
      assert (forall s, wsumX n cw cm s - meanX n cw cm = 0) as D.
      { intros s. unfold wsumX, meanX. rewrite !rsum_zero; [ring| |]; intros x Lx; rewrite Z by auto; ring. }
      generalize (perms (seq 0 n)) as L. induction L as [|s L IH]; auto. cbn [filter]. rewrite D, Rabs_R0. destruct (Rle_dec 0 tol) as [|Nt]; auto.
      exfalso. apply Nt. unfold tol. apply Rmult_le_pos; [lra|apply sqrt_pos].
  Qed.

  (** *** The mean and the kernel sum *)
  Lemma factor_le_1 j : INR (num j) / (p j * INR n) <= 1.
  Proof.
    pose proof (p_range j). assert (0 < INR n) by (apply lt_0_INR; lia). pose proof (unit_num_bound n l (Z.of_nat j) o Hn) as Bk. fold N in Bk. fold (num j) (p j) in Bk.
    apply (Rmult_le_reg_r (p j * INR n)); [apply Rmult_lt_0_compat; lra|]. replace (INR (num j) / (p j * INR n) * (p j * INR n)) with (INR (num j)) by (field; lra). lra.
  Qed.

  Lemma others_shells : others = lsum (fun j => lsum (fun x => if hit j x then gauss a q x else 0) data) (seq 0 (S J)).
  Proof.
    rewrite lsum_swap. unfold others. apply lsum_ext. intros x _. unfold hit. now rewrite (shell_sum a J (dist2 q x) (fun _ => gauss a q x) Ha).
  Qed.

  Lemma shell_kernels_nonneg j : 0 <= lsum (fun x => if hit j x then gauss a q x else 0) data.
  Proof. apply lsum_nonneg. intros x _. destruct (hit j x); [left; apply gauss_pos|lra]. Qed.

  Lemma copy_mean_le : copy_mean <= others.
  Proof.
    rewrite others_shells. apply lsum_le. intros j _. rewrite <- (Rmult_1_l (lsum (fun x => if hit j x then _ else 0) data)) at 2. apply Rmult_le_compat_r; [apply shell_kernels_nonneg|apply factor_le_1].
  Qed.

  Lemma copy_mean_ge r : (forall j, (j <= J)%nat -> r <= INR (num j) / (p j * INR n)) -> r * others <= copy_mean.
  Proof.
    intros Hr. rewrite others_shells, <- lsum_scal. apply lsum_le. intros j Ij. apply in_seq in Ij. apply Rmult_le_compat_r; [apply shell_kernels_nonneg|]. apply Hr. lia.
  Qed.

  (** the exact number of samples *)
  Lemma num_exact j z : (0 <= z)%Z -> p j * INR n = IZR z -> INR (num j) = p j * INR n.
  Proof.
    intros Hz E. unfold num, unit_num. fold (p j). replace (IZR N) with (INR n) by (unfold N; now rewrite <- INR_IZR_INZ). rewrite E, (Int_part_unique (IZR z) z) by lra.
    now rewrite INR_IZR_INZ, Z2Nat.id.
  Qed.
  Lemma num_round j r : 0 < r -> r <= p j * INR n -> 1 - / r <= INR (num j) / (p j * INR n).
  Proof.
    intros H0 Hr. set (y := p j * INR n) in *.
    assert (y - 1 <= INR (num j)) as B.
    { unfold num, unit_num. fold (p j). replace (IZR N) with (INR n) by (unfold N; now rewrite <- INR_IZR_INZ). fold y. pose proof (Int_part_bounds y) as B.
      assert (-1 < Int_part y)%Z by (apply lt_IZR; lra). rewrite INR_IZR_INZ, Z2Nat.id by lia. lra. }
    apply Rle_trans with (1 - / y); [|].
    - pose proof (Rinv_le_contravar r y H0 Hr). lra.
    - apply (Rmult_le_reg_r y); [lra|]. replace (INR (num j) / y * y) with (INR (num j)) by (field; lra). replace ((1 - / y) * y) with (y - 1) by (field; lra). exact B.
  Qed.

  Lemma copy_mean_pow2 e : n = (2 ^ e)%nat -> (o <= 0)%Z -> copy_mean = others.
  Proof.
    intros En Ho. apply Rle_antisym; [apply copy_mean_le|]. rewrite <- (Rmult_1_l others). apply copy_mean_ge. intros j Lj.
    assert (0 < INR n) as H0 by (apply lt_0_INR; lia). pose proof (p_range j) as Hp.
    assert (INR n = powerRZ 2 (Z.of_nat e)) as Ep by (rewrite En, pow_INR, <- pow_powerRZ; reflexivity).
    assert (max_log_nmu_of (W := R) N = Z.of_nat e) as Em.
    { destruct (max_log_bound n Hn) as [B0 [B1 B2]]. fold N in B0, B1, B2. set (L := max_log_nmu_of N) in *. rewrite <- (Z2Nat.id L) in * by auto. f_equal. rewrite Ep in B1, B2. rewrite <- !pow_powerRZ in B1, B2.
      apply Nat.le_antisymm.
      - apply Nat.lt_succ_r. apply Nat.nle_gt. intros C. pose proof (Rle_pow 2 _ _ ltac:(lra) C) as D. cbn [pow] in D. lra.
      - apply Nat.nlt_ge. intros C. pose proof (Rlt_pow 2 _ _ ltac:(lra) C) as D. lra. }
    assert (exists z, (0 <= z)%Z /\ p j * INR n = IZR z) as (z & Hz & E).
    { assert (forall k, (0 <= k)%Z -> exists z, (0 <= z)%Z /\ powerRZ 2 k = IZR z) as P2.
      { intros k Hk. exists (2 ^ k)%Z. split; [apply Z.pow_nonneg; lia|]. rewrite <- (Z2Nat.id k) by auto. rewrite <- pow_powerRZ, <- pow_IZR. reflexivity. }
      destruct (unit_p_big N l (Z.of_nat j) o ltac:(unfold N; lia) ltac:(lia)) as [Ej|Ej]; fold (p j) in Ej; rewrite Ej.
      - exists N. split; [unfold N; lia|]. rewrite Rmult_1_l. unfold N. now rewrite <- INR_IZR_INZ.
      - destruct (Z.eqb_spec (Z.of_nat j) 0) as [Zj|Nj].
        + unfold N. rewrite <- INR_IZR_INZ. replace (powerRZ 2 (- o) / INR n * INR n) with (powerRZ 2 (- o)) by (field; lra). apply P2. lia.
        + rewrite Ep, <- powerRZ_add by lra. apply P2. pose proof EJ' as HEJ. rewrite Em in HEJ. clear - HEJ Lj Ho Nj. lia. }
    rewrite (num_exact j z Hz E). apply Req_le. field. lra.
  Qed.

  Lemma copy_mean_offset : (o <= -1)%Z -> (1 - powerRZ 2 (o + 1)) * others <= copy_mean.
  Proof.
    intros Ho. apply copy_mean_ge. intros j Lj. assert (0 < INR n) as H0 by (apply lt_0_INR; lia). pose proof (p_range j) as Hp.
    assert (0 < powerRZ 2 (o + 1)) as Hpos by (apply powerRZ_lt; lra).
    destruct (unit_p_big N l (Z.of_nat j) o ltac:(unfold N; lia) ltac:(lia)) as [Ej|Ej]; fold (p j) in Ej.
    - rewrite (num_exact j N); [|unfold N; lia|rewrite Ej, Rmult_1_l; unfold N; now rewrite <- INR_IZR_INZ]. replace (p j * INR n / (p j * INR n)) with 1 by (field; lra). lra.
    - replace (1 - powerRZ 2 (o + 1)) with (1 - / powerRZ 2 (- (o + 1))) by (rewrite powerRZ_neg', Rinv_inv; reflexivity). apply num_round; [apply powerRZ_lt; lra|]. rewrite Ej.
      destruct (Z.eqb_spec (Z.of_nat j) 0) as [Zj|Nj].
      + unfold N. rewrite <- INR_IZR_INZ. replace (powerRZ 2 (- o) / INR n * INR n) with (powerRZ 2 (- o)) by (field; lra). replace (- o)%Z with (- (o + 1) + 1)%Z by lia. rewrite powerRZ_add by lra.
        assert (0 < powerRZ 2 (- (o + 1))) by (apply powerRZ_lt; lra). change (powerRZ 2 1) with (2 * 1). lra.
      + destruct (max_log_bound n Hn) as [_ [_ B2]]. fold N in B2. set (L := max_log_nmu_of N) in *.
        assert (powerRZ 2 (L - 1) <= INR n) as B3 by (unfold Z.sub; rewrite powerRZ_add by lra; replace (powerRZ 2 (-(1))) with (/ 2) by (simpl; field); lra).
        apply Rle_trans with (powerRZ 2 (- (Z.of_nat j + o + l)) * powerRZ 2 (L - 1)); [|apply Rmult_le_compat_l; [left; apply powerRZ_lt; lra|exact B3]].
        rewrite <- powerRZ_add by lra. assert (- (o + 1) <= - (Z.of_nat j + o + l) + (L - 1))%Z as Lz by (pose proof EJ' as HEJ; fold L in HEJ; clearbody L; clear - HEJ Lj Ho Nj; lia).
        assert (forall u v, (0 <= u <= v)%Z -> powerRZ 2 u <= powerRZ 2 v) as Mono.
        { intros u v Huv. rewrite <- (Z2Nat.id u), <- (Z2Nat.id v) by lia. rewrite <- !pow_powerRZ. apply Rle_pow; [lra|]. lia. }
        apply Mono. lia.
  Qed.
End Copy.
