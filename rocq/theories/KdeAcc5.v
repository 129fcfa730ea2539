(** Accuracy of the CKNS estimator: the answer of a query (C80). *)
From Verif Require Import Base Num RSum Cluster ClusterSweep ThreadPool ThreadPoolTop Kde KdeFacts KdeFacts2 KdeFacts3 KdeFacts4 KdeAcc1 KdeAcc2 KdeAcc3 KdeAcc4.
From Coq Require Import ZArith Permutation Reals Lra Sorted FinFun.
Local Open Scope R_scope.

(** log_nmu of level lni *)
Definition lev (n lni : nat) : Z := (max_log_nmu_of (W := R) (Z.of_nat n) - Z.of_nat lni * 2)%Z.

Lemma J_lev n lni : ckns_J (W := R) (Z.of_nat n) (lev n lni) = (Z.of_nat lni * 2)%Z.
Proof. apply J_init. Qed.

Lemma init_level T a min_mu copies n offset hs k q lni iter : (forall c, In c copies -> length c = n) ->
  ckns_init T a min_mu copies (Z.of_nat n) offset hs k -> (lni < c_iters k)%nat -> (iter < c_k1 k)%nat ->
  iter_estimate k q lni iter = level a n (lev n lni) offset q (nth iter copies []) (hs iter lni).
Proof.
  intros Lc I Hl Hi. pose proof (init_units _ _ _ _ _ _ _ _ lni iter I Hl Hi) as P. destruct (init_fields _ _ _ _ _ _ _ _ I) as (F1 & F2 & F3 & F4).
  rewrite iter_estimate_cell; [|apply Permutation_length in P; now rewrite map_length in P]. rewrite fold_add_R. cbn [w0 NumR]. rewrite Rplus_0_l, (lsum_perm _ _ _ P), lsum_map.
  unfold level. replace (shells k lni) with (seq 0 (S (Z.to_nat (ckns_J (W := R) (Z.of_nat n) (lev n lni))))).
  - apply lsum_ext. intros j _. unfold task_unit. reflexivity.
  - unfold shells, log_nmu_of. rewrite F1, F2. fold (lev n lni). rewrite J_lev. f_equal. lia.
Qed.

(** Which level answers. *)
Lemma query_level (k : @ckns R) q : (1 <= c_k1 k)%nat -> (1 <= c_iters k)%nat ->
  exists lni mu, (lni < c_iters k)%nat /\ median (map (iter_estimate k q lni) (seq 0 (c_k1 k))) = Ok mu /\ ckns_query k q = Ok (mu / IZR (c_n k)) /\
    (lni = (c_iters k - 1)%nat \/ accepts k lni mu = true).
Proof.
  intros Hk Hi. unfold ckns_query.
  assert (forall m s last, (1 <= m)%nat -> (s + m = c_iters k)%nat -> exists lni mu, (lni < c_iters k)%nat /\ median (map (iter_estimate k q lni) (seq 0 (c_k1 k))) = Ok mu /\
    ckns_query_loop k q (seq s m) last = Ok (mu / IZR (c_n k)) /\ (lni = (c_iters k - 1)%nat \/ accepts k lni mu = true)) as A; [|apply (A (c_iters k) 0%nat w0); lia].
  induction m as [|m IH]; intros s last Hm E; [lia|]. cbn [seq ckns_query_loop].
  destruct (median_some (map (iter_estimate k q s) (seq 0 (c_k1 k)))) as [mu Em]; [intros Z; apply map_eq_nil in Z; destruct (c_k1 k); [lia|discriminate]|].
  rewrite Em. cbn [obind]. destruct (accepts k s mu) eqn:Ea.
  - exists s, mu. split; [lia|]. split; auto.
  - destruct m as [|m].
    + exists s, mu. split; [lia|]. split; auto. split; [reflexivity|left; lia].
    + apply IH; lia.
Qed.

Lemma iters_pos n min_mu : (1 <= n)%nat -> 0 < min_mu <= 1 -> (1 <= iterations_of (W := R) (Z.of_nat n) min_mu)%nat.
Proof.
  intros Hn Hm. unfold iterations_of. assert (wfloor (wlog2 (wmul (wofZ (Z.of_nat n)) min_mu)) <= max_log_nmu_of (W := R) (Z.of_nat n))%Z as L.
  { unfold max_log_nmu_of. cbn [wfloor wceil wlog2 wmul wofZ KNumR NumR]. unfold R_floor, R_ceil, R_log2. rewrite <- INR_IZR_INZ.
    assert (1 <= INR n) by (change 1 with (INR 1); apply le_INR; lia). assert (0 < ln 2) by (rewrite <- ln_1; apply ln_increasing; lra).
    assert (ln (INR n * min_mu) / ln 2 <= ln (INR n) / ln 2) as B.
    { apply Rmult_le_compat_r; [left; now apply Rinv_0_lt_compat|]. assert (INR n * min_mu <= INR n) as [C|C].
      - rewrite <- (Rmult_1_r (INR n)) at 2. apply Rmult_le_compat_l; lra.
      - left. apply ln_increasing; auto. apply Rmult_lt_0_compat; lra.
      - right. now rewrite C. }
    pose proof (Int_part_bounds (ln (INR n * min_mu) / ln 2)). pose proof (Int_part_bounds (- (ln (INR n) / ln 2))).
    apply le_IZR. rewrite opp_IZR. lra. }
  set (d := (max_log_nmu_of (W := R) (Z.of_nat n) - _)%Z). assert (0 <= d)%Z by (unfold d; lia). pose proof (Z.div_le_upper_bound (- d) 2 0 ltac:(lia) ltac:(lia)). lia.
Qed.

(** ** Range of the answers: whatever the copies and hash functions *)
Lemma query_range T a min_mu copies n offset hs k q : 0 < a -> (1 <= n)%nat -> 0 < min_mu <= 1 -> copies <> [] -> (forall c, In c copies -> length c = n) ->
  ckns_init T a min_mu copies (Z.of_nat n) offset hs k -> exists v, ckns_query k q = Ok v /\ 0 <= v <= 2.
Proof.
  intros Ha Hn Hm Nc Lc I. destruct (init_fields _ _ _ _ _ _ _ _ I) as (F1 & F2 & F3 & F4). pose proof (iters_pos n min_mu Hn Hm) as Hi.
  assert (1 <= c_k1 k)%nat as Hk by (rewrite F4; destruct copies; [congruence|simpl; lia]).
  destruct (query_level k q Hk ltac:(lia)) as (lni & mu & Ll & Em & Eq & _). exists (mu / IZR (c_n k)). split; auto. apply median_in in Em. apply in_map_iff in Em as (iter & <- & Ii). apply in_seq in Ii.
  rewrite (init_level _ _ _ _ _ _ _ _ q lni iter Lc I Ll ltac:(lia)), F1, <- INR_IZR_INZ. assert (0 < INR n) as H0 by (apply lt_0_INR; lia).
  assert (length (nth iter copies []) = n) as L1 by (apply Lc, nth_In; lia). assert (0 <= ckns_J (W := R) (Z.of_nat n) (lev n lni))%Z as HJ by (rewrite J_lev; lia).
  pose proof (level_nonneg a n (lev n lni) offset q Ha Hn HJ (nth iter copies []) (hs iter lni) L1) as B0.
  pose proof (level_le_plain a n (lev n lni) offset q Ha Hn HJ (nth iter copies []) (hs iter lni) L1) as B1.
  pose proof (plain_range a n (lev n lni) offset q Ha Hn (nth iter copies []) L1) as B2. split.
  - apply Rmult_le_pos; auto. left. now apply Rinv_0_lt_compat.
  - apply (Rmult_le_reg_r (INR n)); auto. unfold Rdiv. rewrite Rmult_assoc, Rinv_l, Rmult_1_r by lra. lra.
Qed.

(** ** The bad choices of the permutations *)
Section Query.
  Variables (a : R) (data : list (list R)) (q : list R) (offset : Z) (K : nat).
  Hypothesis Ha : 0 < a.
  Hypothesis Nd : data <> [].
  Let n := length data.
  Definition bad_at (lni : nat) (s : list nat) : bool := off (copy_mean a n (lev n lni) offset q data) (tol a (lev n lni) offset q data) (plain a n (lev n lni) offset q (arrange data s)).
  Definition bad_perms (its : nat) : list (list (list nat)) :=
    flat_map (fun lni => filter (fun t => (K <=? 2 * length (filter (bad_at lni) t))%nat) (tuples K (perms (seq 0 n)))) (seq 0 its).

  Lemma n_pos : (1 <= n)%nat.
  Proof. unfold n. destruct data; [congruence|simpl; lia]. Qed.

  Lemma bad_perms_few its : INR (length (bad_perms its)) <= INR its * (INR (fact n) / 2) ^ K.
  Proof.
    pose proof n_pos as Hn. unfold bad_perms. assert (forall L, INR (length (flat_map (fun lni => filter (fun t => (K <=? 2 * length (filter (bad_at lni) t))%nat) (tuples K (perms (seq 0 n)))) L)) <= INR (length L) * (INR (fact n) / 2) ^ K) as A.
    { induction L as [|lni L IH]; [simpl; lra|]. cbn [flat_map length]. rewrite app_length, plus_INR, S_INR, Rmult_plus_distr_r, Rmult_1_l, Rplus_comm. apply Rplus_le_compat; auto.
      assert (INR (fact n) = INR (length (perms (seq 0 n)))) as -> by (symmetry; apply (F_length n)).
      apply amplify. apply (plain_chebyshev a n (lev n lni) offset q Ha Hn); [rewrite J_lev; lia|reflexivity]. }
    specialize (A (seq 0 its)). now rewrite seq_length in A.
  Qed.

  (** every shell point is found: by the hash tables of the units that use them *)
  Definition recall (its : nat) (hs : nat -> nat -> nat -> list (list R -> Z)) : Prop :=
    forall iter lni j x, (iter < K)%nat -> (lni < its)%nat -> (1 <= j <= 2 * lni)%nat -> In x data ->
      in_shell a (2 * Z.of_nat lni) (Z.of_nat j) (dist2 q x) = true -> (3000 < unit_num (Z.of_nat n) (lev n lni) (Z.of_nat j) offset)%nat -> exists h, In h (hs iter lni j) /\ h x = h q.

  Lemma arrange_In s x : In s (perms (seq 0 n)) -> In x (arrange data s) -> In x data.
  Proof.
    intros Is I. apply in_map_iff in I as (i & <- & Ii). apply perms_spec in Is. apply (Permutation_in _ (Permutation_sym Is)) in Ii. apply in_seq in Ii. apply nth_In. fold n. lia.
  Qed.
  Lemma arrange_length s : In s (perms (seq 0 n)) -> length (arrange data s) = n.
  Proof. intros Is. unfold arrange. rewrite map_length. apply (F_len n s Is). Qed.

  Lemma filter_map_length {A B} (p : B -> bool) (f : A -> B) t : length (filter p (map f t)) = length (filter (fun x => p (f x)) t).
  Proof. induction t as [|x t IH]; simpl; auto. destruct (p (f x)); simpl; now rewrite IH. Qed.

  Lemma map_seq_nth {A B} (f : A -> B) t d : map (fun i => f (nth i t d)) (seq 0 (length t)) = map f t.
  Proof. induction t as [|x t IH]; simpl; auto. f_equal. rewrite <- seq_shift, map_map. exact IH. Qed.

  Lemma filter_seq_le (f : nat -> R) (pp : R -> bool) (t : list (list nat)) (g : list nat -> bool) :
    (forall i, (i < length t)%nat -> pp (f i) = true -> g (nth i t []) = true) -> (length (filter pp (map f (seq 0 (length t)))) <= length (filter g t))%nat.
  Proof.
    intros H. rewrite filter_map_length. assert (map (fun i => nth i t []) (seq 0 (length t)) = t) as Et by (rewrite (map_seq_nth (fun x => x) t []); apply map_id).
    assert (length (filter g t) = length (filter (fun i => g (nth i t [])) (seq 0 (length t)))) as ->.
    { transitivity (length (filter g (map (fun i => nth i t []) (seq 0 (length t))))); [now rewrite Et|apply filter_map_length]. }
    clear Et.
    assert (forall i, In i (seq 0 (length t)) -> pp (f i) = true -> g (nth i t []) = true) as H' by (intros i Ii; apply in_seq in Ii; apply H; lia). clear H.
    induction (seq 0 (length t)) as [|i L IH]; simpl; auto. assert (forall j, In j L -> pp (f j) = true -> g (nth j t []) = true) as H2 by (intros; apply H'; auto; now right). specialize (IH H2).
    destruct (pp (f i)) eqn:E; [rewrite (H' i (or_introl eq_refl) E); simpl; lia|]. destruct (g _); simpl; lia.
  Qed.

  Lemma query_accuracy T min_mu hs k ps : 0 < min_mu <= 1 -> (1 <= K)%nat -> length ps = K -> Forall (fun s => Permutation (seq 0 n) s) ps ->
    ~ In ps (bad_perms (iterations_of (W := R) (Z.of_nat n) min_mu)) -> ckns_init T a min_mu (map (arrange data) ps) (Z.of_nat n) offset hs k ->
    exists lni v, (lni < iterations_of (W := R) (Z.of_nat n) min_mu)%nat /\ ckns_query k q = Ok v /\
      (lni = (iterations_of (W := R) (Z.of_nat n) min_mu - 1)%nat \/ 13 / 10 * IZR (lev n lni) <= ln (INR n * v)) /\ 0 <= v /\
      INR n * v <= copy_mean a n (lev n lni) offset q data + tol a (lev n lni) offset q data /\
      (recall (iterations_of (W := R) (Z.of_nat n) min_mu) hs -> Rabs (INR n * v - copy_mean a n (lev n lni) offset q data) <= tol a (lev n lni) offset q data).
  Proof.
    intros Hm HK Lp Fp Nb I. pose proof n_pos as Hn. destruct (init_fields _ _ _ _ _ _ _ _ I) as (F1 & F2 & F3 & F4). pose proof (iters_pos n min_mu Hn Hm) as Hi. rewrite map_length, Lp in F4.
    set (its := iterations_of (W := R) (Z.of_nat n) min_mu) in *.
    assert (forall c, In c (map (arrange data) ps) -> length c = n) as Lc.
    { intros c Ic. apply in_map_iff in Ic as (s & <- & Is). apply arrange_length. apply perms_spec. rewrite Forall_forall in Fp. now apply Fp. }
    destruct (query_level k q ltac:(lia) ltac:(lia)) as (lni & mu & Ll & Em & Eq & Hacc). rewrite F3 in *. rewrite F1, <- INR_IZR_INZ in Eq. assert (0 < INR n) as H0 by (apply lt_0_INR; lia).
    exists lni, (mu / INR n). assert (INR n * (mu / INR n) = mu) as Emu by (field; lra). rewrite Emu.
    set (l := lev n lni) in *. set (mean := copy_mean a n l offset q data). set (t := tol a l offset q data). assert (0 <= ckns_J (W := R) (Z.of_nat n) l)%Z as HJ by (unfold l; rewrite J_lev; lia).
    (* the estimates of the copies *)
    assert (forall iter, (iter < K)%nat -> In (nth iter ps []) (perms (seq 0 n))) as Ps.
    { intros iter Hit. apply perms_spec. rewrite Forall_forall in Fp. apply Fp, nth_In. lia. }
    assert (forall iter, (iter < K)%nat -> iter_estimate k q lni iter = level a n l offset q (arrange data (nth iter ps [])) (hs iter lni)) as El.
    { intros iter Hit. rewrite (init_level _ _ _ _ _ _ _ _ q lni iter Lc I ltac:(lia) ltac:(lia)). fold l. f_equal.
      rewrite (nth_indep _ [] (arrange data [])) by (rewrite map_length; lia). apply map_nth. }
    assert (2 * length (filter (bad_at lni) ps) < K)%nat as Good.
    { apply Nat.nle_gt. intros C. apply Nb. unfold bad_perms. apply in_flat_map. exists lni. split; [apply in_seq; lia|]. apply filter_In. split; [|now apply Nat.leb_le].
      apply tuples_spec. split; auto. eapply Forall_impl; [|exact Fp]. intros s. apply perms_spec. }
    split; auto. split; auto. split.
    { destruct Hacc as [->|Hacc]; auto. right. unfold accepts in Hacc. cbn [wleb wmul w13 wofZ wlog NumR KNumR] in Hacc. apply R_leb_true in Hacc. unfold log_nmu_of in Hacc. rewrite F2 in Hacc. exact Hacc. }
    split.
    { apply Rmult_le_pos; [|left; now apply Rinv_0_lt_compat]. apply median_in in Em. apply in_map_iff in Em as (iter & <- & Ii). apply in_seq in Ii. rewrite El by lia.
      apply level_nonneg; auto. apply arrange_length, Ps. lia. }
    split.
    - apply (median_at_most _ _ _ Em). rewrite F4, map_length, seq_length. eapply Nat.le_lt_trans; [|exact Good]. apply Nat.mul_le_mono_l. rewrite <- Lp. apply filter_seq_le.
      intros i Hit. rewrite Lp in Hit. rewrite El by auto. unfold above, bad_at, off. fold l mean t.
      pose proof (level_le_plain a n l offset q Ha Hn HJ (arrange data (nth i ps [])) (hs i lni) (arrange_length _ (Ps i Hit))) as B.
      destruct (Rle_dec (level a n l offset q (arrange data (nth i ps [])) (hs i lni)) (mean + t)) as [|Nle]; [discriminate|]. intros _.
      destruct (Rle_dec (Rabs (plain a n l offset q (arrange data (nth i ps [])) - mean)) t) as [L2|]; auto. exfalso. apply Nle.
      pose proof (Rle_abs (plain a n l offset q (arrange data (nth i ps [])) - mean)). lra.
    - intros Hr. apply (median_near _ _ _ _ Em). rewrite F4, map_length, seq_length. eapply Nat.le_lt_trans; [|exact Good]. apply Nat.mul_le_mono_l. rewrite <- Lp. apply filter_seq_le.
      intros i Hit. rewrite Lp in Hit. rewrite El by auto. unfold bad_at. fold l mean t. rewrite level_eq_plain; auto; [apply arrange_length, Ps; auto|].
      intros j x Hj Ix Hx. destruct (Nat.le_gt_cases (unit_num (Z.of_nat n) l (Z.of_nat j) offset) 3000) as [|G]; auto. right.
      assert (Z.to_nat (ckns_J (W := R) (Z.of_nat n) l) = (2 * lni)%nat) as EJl by (unfold l; rewrite J_lev; lia). rewrite EJl in Hj, Hx.
      apply (Hr i lni j x); auto; try lia. { eapply arrange_In; [apply Ps; eauto|exact Ix]. } rewrite <- Hx. f_equal. lia.
  Qed.
End Query.
