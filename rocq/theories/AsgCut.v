(** Concentration of the cuts of approximate_similarity_graph (C95). *)
From Verif Require Import Base Num RSum Sparse SparseFacts Graph GraphSpec GraphFacts GraphProps4 Cluster ClusterCC ClusterSpec ClusterSweep ClusterPR ClusterPR2 ThreadPool ThreadPoolFacts ThreadPoolTop Kde KdeFacts KdeFacts2 KdeFacts3 KdeFacts4 Props_Kde SimGraph SimGraphFacts SimGraphFacts2 SimGraphFacts3 SimGraphFacts4 SimGraphTop Props_Sim LshOffset SimExpect Props_SimExpect AsgLaw AsgConc.
From Coq Require Import ZArith Permutation Reals Lra Lia List.
From Coquelicot Require Import Coquelicot.
Import ListNotations.
Local Open Scope nat_scope.

(** ** Specification *)
(** The energy of x: the sum over the pairs u < v of w(u,v) (x_u - x_v)^2, for symmetric w. For x the indicator of a set it is the weight of the cut. *)
Definition energy (n : nat) (w : nat -> nat -> R) (x : nat -> R) : R := (rsum n (fun u => rsum n (fun v => w u v * (x u - x v) ^ 2)) / 2)%R.
(** The share of v for u in the leaf of v. *)
Definition shares (a : R) (data : list (list R)) (nc : Z) (u v : nat) : R :=
  let '(lo, hi) := leaf_of nc (length data) v in share a data lo hi u v.
Definition all_shares (a : R) (data : list (list R)) (nc : Z) (u : nat) : R := rsum (length data) (shares a data nc u).
(** The expected weight of u-v (C77). *)
Definition mean_weight (a : R) (data : list (list R)) (nc : Z) (u v : nat) : R := (2 / 5 * (shares a data nc u v + shares a data nc v u))%R.

(** ** Sums *)
Lemma occ_sum n (h : nat -> R) s : (forall k, In k s -> k < n) -> rsum n (fun v => occurrences v s * h v)%R = lsum h s.
Proof.
  induction s as [|k s IH]; intros Hk.
  - cbn [lsum]. rewrite (rsum_ext n _ (fun _ => 0%R)) by (intros; unfold occurrences; cbn [count_occ INR]; ring). rewrite rsum_const. ring.
  - cbn [lsum]. rewrite (rsum_ext n _ (fun v => (if v =? k then h v else 0) + occurrences v s * h v)%R).
    + rewrite rsum_plus, IH by (intros; apply Hk; now right). f_equal. unfold rsum. rewrite (lsum_delta_list h) by apply seq_NoDup.
      assert (nmem k (seq 0 n) = true) as -> by (apply nmem_In, in_seq; specialize (Hk k ltac:(now left)); lia). reflexivity.
    + intros v _. rewrite !occ_lsum. cbn [lsum]. rewrite (Nat.eqb_sym k v). destruct (v =? k); ring.
Qed.
Lemma energy_two n (w : nat -> nat -> R) x c : (forall u v, u < n -> v < n -> w u v = (c u v + c v u)%R) ->
  energy n w x = rsum n (fun u => rsum n (fun v => c u v * (x u - x v) ^ 2))%R.
Proof.
  intros E. unfold energy. rewrite (rsum_ext n _ (fun u => rsum n (fun v => c u v * (x u - x v) ^ 2) + rsum n (fun v => c v u * (x u - x v) ^ 2))%R).
  - rewrite rsum_plus. rewrite (rsum_swap n n (fun u v => c v u * (x u - x v) ^ 2)%R).
    rewrite (rsum_ext n (fun v => rsum n (fun u => c v u * (x u - x v) ^ 2)%R) (fun u => rsum n (fun v => c u v * (x u - x v) ^ 2)%R)); [field|].
    intros u _. apply rsum_ext. intros v _. ring.
  - intros u Hu. rewrite <- rsum_plus. apply rsum_ext. intros v Hv. rewrite E by auto. ring.
Qed.
Lemma energy_le n w w' x : (forall u v, u < n -> v < n -> (w u v <= w' u v)%R) -> (energy n w x <= energy n w' x)%R.
Proof.
  intros H. unfold energy. apply Rmult_le_compat_r; [lra|]. apply rsum_le. intros u Hu. apply rsum_le. intros v Hv. apply Rmult_le_compat_r; [|now apply H].
  replace ((x u - x v) ^ 2)%R with (Rsqr (x u - x v)) by (unfold Rsqr; ring). apply Rle_0_sqr.
Qed.
Lemma energy_samples degrees smp x n : (forall u, u < n -> forall k, In k (smp u) -> k < n) ->
  energy n (asg_weight degrees smp) x = total (fun u v => nth u degrees 0 / 5 * (x u - x v) ^ 2)%R (seq 0 n) smp.
Proof.
  intros Hs. rewrite (energy_two n _ x (fun u v => nth u degrees 0 / 5 * occurrences v (smp u))%R) by reflexivity.
  unfold total. apply lsum_ext. intros u Hu. apply in_seq in Hu. rewrite <- (occ_sum n) by (apply Hs; lia). apply rsum_ext. intros v _. ring.
Qed.
(** What the cut at 1e-10 may take away. *)
Lemma sq_nonneg y : (0 <= y ^ 2)%R.
Proof. replace (y ^ 2)%R with (Rsqr y) by (unfold Rsqr; ring). apply Rle_0_sqr. Qed.
Lemma occ_all n s : (forall k, In k s -> k < n) -> rsum n (fun v => occurrences v s) = INR (length s).
Proof.
  intros Hk. rewrite (rsum_ext n _ (fun v => occurrences v s * 1)%R) by (intros; ring). rewrite (occ_sum n (fun _ => 1%R)) by auto. clear Hk.
  induction s as [|k s IH]; [reflexivity|]. cbn [lsum length]. rewrite S_INR, IH. ring.
Qed.
Lemma above_eps_R (w : R) : (0 <= w)%R -> (w - 1 / 10 ^ 10 <= above_eps w <= w)%R.
Proof.
  intros Hw. unfold above_eps. destruct (wltb weps w) eqn:E; [split; [|lra]; assert (0 < 1 / 10 ^ 10)%R by (apply Rdiv_lt_0_compat; [lra|apply pow_lt; lra]); lra|].
  change (@w0 R _) with 0%R. split; [|lra]. destruct (Rle_dec w (1 / 10 ^ 10)) as [|N]; [lra|]. exfalso. apply Rnot_le_gt in N.
  assert (wltb weps w = true) as C; [|congruence]. apply R_ltb_true. cbn. lra.
Qed.
Lemma above_eps_nonneg (w : R) : (0 <= w)%R -> (0 <= above_eps w)%R.
Proof. intros Hw. unfold above_eps. destruct (wltb weps w); [exact Hw|change (@w0 R _) with 0%R; lra]. Qed.
Lemma energy_cut degrees smp x n D : (forall u, u < n -> (0 <= nth u degrees 0)%R) -> (forall u, u < n -> length (smp u) = 2 /\ forall k, In k (smp u) -> k < n) ->
  (forall u v, u < n -> v < n -> ((x u - x v) ^ 2 <= D)%R) ->
  (energy n (asg_weight degrees smp) x - 2 * INR n / 10 ^ 10 * D <= energy n (fun u v => above_eps (asg_weight degrees smp u v)) x <= energy n (asg_weight degrees smp) x)%R.
Proof.
  intros Hd Hs HD.
  assert (forall u v, u < n -> v < n -> (0 <= asg_weight degrees smp u v)%R) as W0.
  { intros u v Hu Hv. unfold asg_weight. assert (forall k s, (0 <= occurrences k s)%R) as O by (intros; apply pos_INR).
    apply Rplus_le_le_0_compat; apply Rmult_le_pos; auto; apply Rmult_le_pos; try lra; auto. }
  split; [|apply energy_le; intros u v Hu Hv; apply above_eps_R; now apply W0].
  set (cnt := fun u v => (occurrences v (smp u) + occurrences u (smp v))%R).
  assert (energy n (asg_weight degrees smp) x <= energy n (fun u v => above_eps (asg_weight degrees smp u v)) x + 1 / 10 ^ 10 * energy n cnt x)%R as A.
  { assert (energy n (fun u v => above_eps (asg_weight degrees smp u v)) x + 1 / 10 ^ 10 * energy n cnt x = energy n (fun u v => above_eps (asg_weight degrees smp u v) + 1 / 10 ^ 10 * cnt u v) x)%R as ->.
    { unfold energy. rewrite (rsum_ext n (fun u => rsum n (fun v => (above_eps (asg_weight degrees smp u v) + 1 / 10 ^ 10 * cnt u v) * (x u - x v) ^ 2))%R
        (fun u => rsum n (fun v => above_eps (asg_weight degrees smp u v) * (x u - x v) ^ 2) + 1 / 10 ^ 10 * rsum n (fun v => cnt u v * (x u - x v) ^ 2))%R).
      - rewrite rsum_plus, rsum_scal. unfold Rdiv. ring.
      - intros u _. rewrite <- rsum_scal, <- rsum_plus. apply rsum_ext. intros v _. ring. }
    apply energy_le. intros u v Hu Hv. pose proof (above_eps_R _ (W0 u v Hu Hv)) as Q. unfold cnt, asg_weight in *.
    assert (0 < 1 / 10 ^ 10)%R by (apply Rdiv_lt_0_compat; [lra|apply pow_lt; lra]).
    pose proof (above_eps_nonneg _ (W0 u v Hu Hv)) as Q0. unfold asg_weight in Q0.
    unfold occurrences in *. destruct (count_occ Nat.eq_dec (smp u) v) as [|c1]; [destruct (count_occ Nat.eq_dec (smp v) u) as [|c2]|].
    - change (INR 0) with 0%R in *. lra.
    - assert (1 <= INR 0 + INR (S c2))%R by (rewrite S_INR; cbn [INR]; pose proof (pos_INR c2); lra).
      apply Rle_trans with (2 := Rplus_le_compat_l _ _ _ (Rmult_le_compat_l (1 / 10 ^ 10) 1 _ ltac:(lra) H0)). lra.
    - assert (1 <= INR (S c1) + INR (count_occ Nat.eq_dec (smp v) u))%R by (rewrite S_INR; pose proof (pos_INR c1); pose proof (pos_INR (count_occ Nat.eq_dec (smp v) u)); lra).
      apply Rle_trans with (2 := Rplus_le_compat_l _ _ _ (Rmult_le_compat_l (1 / 10 ^ 10) 1 _ ltac:(lra) H0)). lra. }
  assert (energy n cnt x <= 2 * INR n * D)%R as C.
  { rewrite (energy_two n cnt x (fun u v => occurrences v (smp u))) by reflexivity.
    apply Rle_trans with (rsum n (fun u => 2 * D)%R); [|rewrite rsum_const; apply Req_le; ring]. apply rsum_le. intros u Hu. destruct (Hs u Hu) as [Hl Hk].
    apply Rle_trans with (rsum n (fun v => occurrences v (smp u) * D)%R); [apply rsum_le; intros v Hv; apply Rmult_le_compat_l; [apply pos_INR|now apply HD]|].
    rewrite rsum_scal_r, occ_all, Hl by auto. cbn [INR]. lra. }
  assert (0 < 1 / 10 ^ 10)%R as P by (apply Rdiv_lt_0_compat; [lra|apply pow_lt; lra]). apply (Rmult_le_compat_l (1 / 10 ^ 10)) in C; [|lra].
  replace (2 * INR n / 10 ^ 10 * D)%R with (1 / 10 ^ 10 * (2 * INR n * D))%R by (field; apply pow_nonzero; lra). lra.
Qed.

(** ** The tails *)
Section Small.
  Variable T : nat.
  Variable a : R.
  Variable data : list (list R).
  Variable nc : Z.
  Hypothesis HT : 1 <= T.
  Hypothesis Ha : (0 < a)%R.
  Hypothesis Hnc : (2 <= nc)%Z.
  Hypothesis Hn : 2 <= length data.
  Hypothesis Hs : (Z.of_nat (length data) <= 2 * nc)%Z.
  Notation n := (length data).
  Variable t : ktree (W := R).
  Hypothesis B : build T a data 0 nc 0 0 (n - 1) t.
  Variable degrees : list R.
  Hypothesis Ed : map Ok degrees = map (tree_weight a data t) data.
  Notation p := (fun i => prob a data t (nth i data [])).
  Notation S := (shares a data nc).

  Lemma tree_nz q : no_zero a data t q.
  Proof. apply (small_no_zero T a data 0 nc HT Hnc 0 (n - 1)); auto; lia. Qed.
  Lemma share_prob u v : u < n -> v < n -> (nth u degrees 0 * p u v = S u v)%R.
  Proof.
    intros Hu Hv. rewrite (nth_degrees a data t degrees u Ed Hu). rewrite (small_share T a data nc HT Hnc Hn Hs t) by auto. unfold shares.
    destruct (leaf_of_ok nc n v Hn Hv) as [F _]. destruct (leaf_of nc n v) as [lo hi]. cbn [fst snd] in *. rewrite share_kept by lia. reflexivity.
  Qed.
  Lemma p_one u : rsum n (p u) = 1%R.
  Proof. apply (prob_one T a data 0 nc HT Ha Hnc 0 0 (n - 1)); auto; [lia|apply tree_nz]. Qed.
  Lemma p_nonneg u v : (0 <= p u v)%R.
  Proof. apply (prob_nonneg T a data 0 nc HT Ha Hnc 0 0 (n - 1)); auto; [lia|apply tree_nz]. Qed.
  Lemma degree_shares u : u < n -> nth u degrees 0%R = all_shares a data nc u.
  Proof.
    intros Hu. unfold all_shares. rewrite <- (rsum_ext n (fun v => nth u degrees 0 * p u v)%R) by (intros; now apply share_prob). rewrite rsum_scal, p_one. ring.
  Qed.
  Lemma shares_range u v : v < n -> (0 <= S u v <= kernel a data u v)%R.
  Proof.
    intros Hv. unfold shares. destruct (leaf_of_ok nc n v Hn Hv) as [F _]. destruct (leaf_of nc n v) as [lo hi]. cbn [fst snd] in *. apply C77_shares. lia.
  Qed.
  Lemma degree_le u : u < n -> (0 <= nth u degrees 0 <= rsum n (kernel a data u))%R.
  Proof.
    intros Hu. rewrite degree_shares by auto. unfold all_shares. split; [apply rsum_nonneg; intros; now apply shares_range|]. apply rsum_le. intros. now apply shares_range.
  Qed.
  Lemma degree_pos u : u < n -> (0 < nth u degrees 0)%R.
  Proof.
    intros Hu. rewrite (nth_degrees a data t degrees u Ed Hu). set (q := nth u data []).
    pose proof (Nat.div_mod (0 + (n - 1)) 2 ltac:(lia)) as D1. pose proof (Nat.mod_upper_bound (0 + (n - 1)) 2 ltac:(lia)) as D2.
    destruct (tw_ok T a data 0 nc HT Ha Hnc _ _ _ _ q B ltac:(lia)) as [E0 P0].
    pose proof (tree_nz q) as Nz. clear Ed. inversion B as [depth lo' hi' L|depth lo' hi' est l r L E Bl Br]; subst t.
    - apply (leaf_tw_range a data 0 (n - 1) q); lia.
    - cbn [no_zero] in Nz. destruct Nz as (Nz & _).
      destruct (tw_ok T a data 0 nc HT Ha Hnc _ _ _ _ q Bl ltac:(lia)) as [El Pl]. destruct (tw_ok T a data 0 nc HT Ha Hnc _ _ _ _ q Br ltac:(lia)) as [Er Pr].
      specialize (Nz _ _ El Er). destruct est as [k|]; [destruct E as (E & _); lia|]. unfold tw at 1. cbn [tree_weight]. rewrite El, Er. cbn. lra.
  Qed.
  Lemma p_share u v : u < n -> v < n -> p u v = (S u v / all_shares a data nc u)%R.
  Proof. intros Hu Hv. rewrite <- degree_shares, <- share_prob by auto. pose proof (degree_pos u Hu). field. lra. Qed.

  Lemma Eprod_ext_p N q q' num is : (forall i v, In i is -> v < N -> q i v = q' i v) -> forall F, Eprod N q num is F = Eprod N q' num is F.
  Proof.
    induction is as [|i is IH]; intros E F; cbn [Eprod]; [reflexivity|]. rewrite (Eiid_ext_p N (q i) (q' i)) by (intros; apply E; auto; now left).
    apply Eiid_ext. intros s _ _. apply IH. intros. apply E; auto. now right.
  Qed.
  Lemma law F : order_free (seq 0 n) F -> Eall a data t (seq 0 n) F = Eprod n (fun u v => S u v / all_shares a data nc u)%R 2 (seq 0 n) F.
  Proof.
    intros HF. rewrite (all_law T a data nc HT Ha Hnc Hn t B tree_nz (seq 0 n)) by (auto; apply seq_NoDup). apply Eprod_ext_p. intros i v Hi Hv. apply in_seq in Hi. apply p_share; lia.
  Qed.

  Variables (x : nat -> R) (M : R).
  Hypothesis HM : (0 < M)%R.
  Hypothesis Hx : forall u v, u < n -> v < n -> (rsum n (kernel a data u) / 5 * (x u - x v) ^ 2 <= M)%R.
  Notation mu := (energy n (mean_weight a data nc) x).
  Notation y := (fun u v => nth u degrees 0 / 5 * (x u - x v) ^ 2)%R.

  Lemma y_range i v : In i (seq 0 n) -> v < n -> (0 <= y i v <= M)%R.
  Proof.
    intros Hi Hv. apply in_seq in Hi. pose proof (degree_le i ltac:(lia)) as Hd. pose proof (sq_nonneg (x i - x v)) as Hq. split.
    - apply Rmult_le_pos; [lra|auto].
    - eapply Rle_trans; [|apply (Hx i v); [lia|auto]]. apply Rmult_le_compat_r; auto. lra.
  Qed.
  Lemma mu_total : mu = (INR 2 * lsum (fun i => rsum n (fun v => p i v * y i v)) (seq 0 n))%R.
  Proof.
    rewrite (energy_two n _ x (fun u v => 2 / 5 * S u v)%R) by (intros; unfold mean_weight; ring). rewrite <- lsum_scal. apply lsum_ext. intros u Hu. apply in_seq in Hu.
    rewrite <- rsum_scal. apply rsum_ext. intros v Hv. rewrite <- share_prob by (auto; lia). cbn [INR]. field.
  Qed.
  Lemma energy_perm s s' : (forall i, In i (seq 0 n) -> Permutation (s i) (s' i)) -> forall u v, u < n -> v < n -> asg_weight degrees s u v = asg_weight degrees s' u v.
  Proof.
    intros P u v Hu Hv. unfold asg_weight, occurrences. rewrite (proj1 (Permutation_count_occ Nat.eq_dec _ _) (P u ltac:(apply in_seq; lia)) v).
    now rewrite (proj1 (Permutation_count_occ Nat.eq_dec _ _) (P v ltac:(apply in_seq; lia)) u).
  Qed.
  Lemma energy_ext w w' : (forall u v, u < n -> v < n -> w u v = w' u v) -> energy n w x = energy n w' x.
  Proof. intros E. unfold energy. f_equal. apply rsum_ext. intros u Hu. apply rsum_ext. intros v Hv. now rewrite E. Qed.

  (** The energy of the graph returned for the samples smp. *)
  Notation ge smp := (energy n (fun u v => above_eps (asg_weight degrees smp u v)) x).
  Lemma ge_free (b : R -> R) : order_free (seq 0 n) (fun smp => b (ge smp)).
  Proof. intros s s' P. rewrite (energy_ext _ (fun u v => above_eps (asg_weight degrees s' u v))); [reflexivity|]. intros u v Hu Hv. f_equal. now apply energy_perm. Qed.
  Lemma ge_cut smp D : (forall i, In i (seq 0 n) -> length (smp i) = 2 /\ forall k, In k (smp i) -> k < n) -> (forall u v, u < n -> v < n -> ((x u - x v) ^ 2 <= D)%R) ->
    (total y (seq 0 n) smp - 2 * INR n / 10 ^ 10 * D <= ge smp <= total y (seq 0 n) smp)%R.
  Proof.
    intros Hp HD. rewrite <- (energy_samples degrees smp x n) by (intros u Hu; apply Hp; apply in_seq; lia). apply energy_cut; auto.
    - intros u Hu. now apply degree_le.
    - intros u Hu. apply Hp, in_seq. lia.
  Qed.
  Lemma x_bound : exists D, forall u v, u < n -> v < n -> ((x u - x v) ^ 2 <= D)%R.
  Proof.
    assert (forall m, exists K, (0 <= K)%R /\ forall u, u < m -> (Rabs (x u) <= K)%R) as A.
    { induction m as [|m (K & K0 & HK)]; [exists 0%R; split; [lra|intros; lia]|]. exists (K + Rabs (x m))%R. pose proof (Rabs_pos (x m)). split; [lra|]. intros u Hu.
      destruct (Nat.eq_dec u m) as [->|]; [lra|]. specialize (HK u ltac:(lia)). lra. }
    destruct (A n) as (K & K0 & HK). exists ((2 * K) ^ 2)%R. intros u v Hu Hv. pose proof (HK u Hu) as H1. pose proof (HK v Hv) as H2.
    rewrite <- (pow2_abs (x u - x v)). apply pow_incr. split; [apply Rabs_pos|]. pose proof (Rabs_triang (x u) (- x v)) as H3. rewrite Rabs_Ropp in H3. unfold Rminus. lra.
  Qed.
  Lemma energy_mean : Eall a data t (seq 0 n) (fun smp => energy n (asg_weight degrees smp) x) = mu.
  Proof.
    rewrite (all_law T a data nc HT Ha Hnc Hn t B tree_nz (seq 0 n)); [|apply seq_NoDup|].
    - rewrite mu_total. rewrite <- (Rplus_0_l (INR 2 * _)). rewrite <- (Eprod_mean n p y 2 (seq 0 n) (seq_NoDup _ _) (fun i _ => p_one i)).
      apply Rle_antisym; apply Eprod_mono; auto using seq_NoDup, p_nonneg; intros smp Hp; rewrite Rplus_0_l; rewrite (energy_samples degrees smp x n) by (intros u Hu; apply Hp; apply in_seq; lia); lra.
    - intros s s' P. apply energy_ext. now apply energy_perm.
  Qed.
  Lemma upper_tail eps : (0 <= eps <= 1)%R ->
    (Eall a data t (seq 0 n) (fun smp => if Rle_dec ((1 + eps) * mu) (ge smp) then 1 else 0) <= exp (- (eps ^ 2 * mu / (3 * M))))%R.
  Proof.
    intros He. rewrite (all_law T a data nc HT Ha Hnc Hn t B tree_nz (seq 0 n)); [|apply seq_NoDup|].
    - eapply Rle_trans; [|apply (chernoff_upper n 2 p y (seq 0 n) M mu); auto using seq_NoDup, p_nonneg, p_one, y_range, mu_total].
      destruct x_bound as [D HD]. apply Eprod_mono; auto using seq_NoDup, p_nonneg. intros smp Hp. pose proof (ge_cut smp D Hp HD).
      destruct (Rle_dec _ (ge smp)), (Rle_dec _ (total _ _ _)); lra.
    - exact (ge_free (fun e => if Rle_dec ((1 + eps) * mu) e then 1 else 0)%R).
  Qed.
  Lemma lower_tail eps D : (0 <= eps)%R -> (forall u v, u < n -> v < n -> ((x u - x v) ^ 2 <= D)%R) ->
    (Eall a data t (seq 0 n) (fun smp => if Rle_dec (ge smp) ((1 - eps) * mu - 2 * INR n / 10 ^ 10 * D) then 1 else 0) <= exp (- (eps ^ 2 * mu / (2 * M))))%R.
  Proof.
    intros He HD. rewrite (all_law T a data nc HT Ha Hnc Hn t B tree_nz (seq 0 n)); [|apply seq_NoDup|].
    - eapply Rle_trans; [|apply (chernoff_lower n 2 p y (seq 0 n) M mu); auto using seq_NoDup, p_nonneg, p_one, y_range, mu_total].
      apply Eprod_mono; auto using seq_NoDup, p_nonneg. intros smp Hp. pose proof (ge_cut smp D Hp HD).
      destruct (Rle_dec (ge smp) _), (Rle_dec (total _ _ _) _); lra.
    - exact (ge_free (fun e => if Rle_dec e ((1 - eps) * mu - 2 * INR n / 10 ^ 10 * D) then 1 else 0)%R).
  Qed.
End Small.
