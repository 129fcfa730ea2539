(** The tree of estimators of approximate_similarity_graph over the reals: estimates, cached estimates, samples. *)
From Verif Require Import Base Num RSum Sparse SparseFacts Graph GraphSpec GraphFacts GraphProps4 Cluster ClusterSweep ThreadPool ThreadPoolFacts ThreadPoolTop Kde KdeFacts KdeFacts2 KdeFacts3 KdeFacts4 Props_Kde SimGraph SimGraphFacts SimGraphFacts2.
From Coq Require Import ZArith Permutation Reals Lra.
Local Open Scope nat_scope.

Lemma median_nonneg (v : list R) : v <> [] -> (forall x, In x v -> (0 <= x)%R) -> exists m, median v = Ok m /\ (0 <= m)%R.
Proof.
  intros N A. unfold median. destruct v as [|y w]; [congruence|]. set (v := y :: w) in *. eexists. split; [reflexivity|].
  destruct (nth_in_or_default (length v / 2) (stable_sort wltb v) w0) as [I|D]; [|rewrite D; apply Rle_refl].
  apply A. eapply Permutation_in; [symmetry; apply stable_sort_perm|exact I].
Qed.

Lemma hunit_query_nonneg a data l j o hs q : (0 < a)%R -> (0 <= j)%Z -> data <> [] -> (0 <= hunit_query (hunit_new a data l j o hs) q)%R.
Proof.
  intros Ha Hj N. rewrite hunit_query_R by auto. apply lsum_nonneg. intros x _. destruct (in_shell _ _ _ _); [|lra].
  pose proof (unit_p_range (Z.of_nat (length data)) l j o ltac:(destruct data; [congruence|simpl length; lia])) as Hp.
  left. apply Rdiv_lt_0_compat; [apply gauss_range; lra|lra].
Qed.

(** An estimator built from at least one copy answers every query, with a non-negative number. *)
Lemma ckns_nonneg T a min_mu copies n offset hs k q : (0 < a)%R -> (1 <= n)%Z -> copies <> [] -> (forall c, In c copies -> c <> []) ->
  ckns_init T a min_mu copies n offset hs k -> exists v, ckns_query k q = Ok v /\ (0 <= v)%R.
Proof.
  intros Ha Hn Nc A I. destruct (init_fields _ _ _ _ _ _ _ _ I) as (F1 & F2 & F3 & F4).
  assert (forall lni iter, (lni < c_iters k)%nat -> (iter < c_k1 k)%nat -> (0 <= iter_estimate k q lni iter)%R) as Z.
  { intros lni iter Hl Hi. pose proof (init_units _ _ _ _ _ _ _ _ lni iter I Hl Hi) as P.
    rewrite iter_estimate_cell; [|apply Permutation_length in P; now rewrite map_length in P]. rewrite fold_add_R. cbn [w0 NumR]. rewrite Rplus_0_l. apply lsum_nonneg.
    intros u Iu. apply (Permutation_in _ P) in Iu. apply in_map_iff in Iu as (j & <- & Ij). unfold task_unit.
    apply hunit_query_nonneg; auto; try lia. apply A, nth_In. congruence. }
  assert (0 < IZR (c_n k))%R as Hc by (rewrite F1; apply (IZR_lt 0); lia).
  unfold ckns_query. assert (forall lni, In lni (seq 0 (c_iters k)) -> (lni < c_iters k)%nat) as B by (intros l Il; apply in_seq in Il; lia).
  assert (0 <= (w0 : R))%R as H0 by (cbn; lra). revert H0. generalize (w0 : R) as last.
  induction (seq 0 (c_iters k)) as [|lni L IH]; intros last H0; cbn [ckns_query_loop].
  - eexists. split; [reflexivity|]. cbn [wdiv wofZ KNumR NumR]. apply Rmult_le_pos; auto. left. now apply Rinv_0_lt_compat.
  - destruct (median_nonneg (map (iter_estimate k q lni) (seq 0 (c_k1 k)))) as (mu & -> & Hm).
    + intros E. apply map_eq_nil in E. rewrite F4 in E. destruct copies; [congruence|discriminate].
    + intros x Ix. apply in_map_iff in Ix as (it & <- & Ii). apply in_seq in Ii. apply Z; [apply B; now left|lia].
    + cbn [obind]. destruct (accepts k lni mu).
      * eexists. split; [reflexivity|]. cbn [wdiv wofZ KNumR NumR]. apply Rmult_le_pos; auto. left. now apply Rinv_0_lt_compat.
      * apply IH; auto. intros l Il. apply B. now right.
Qed.

Lemma ln_ceil_pos (m : Z) : (2 <= m)%Z -> (1 <= R_ceil (1 * ln (IZR m)))%Z.
Proof.
  intros Hm. unfold R_ceil. assert (0 < ln (IZR m))%R as L. { rewrite <- ln_1. apply ln_increasing; [lra|]. apply (IZR_lt 1); lia. }
  pose proof (Int_part_bounds (- (1 * ln (IZR m)))) as [B1 _]. assert (IZR (Int_part (- (1 * ln (IZR m)))) < 0)%R as B2 by lra. apply (lt_IZR _ 0) in B2. lia.
Qed.

(** ** Leaves *)
Definition leaf_total (data : list (list R)) (a : R) (lo hi : nat) (q : list R) : R := lsum (fun j => exp (- a * dist2 q (nth j data [])))%R (seq lo (hi + 1 - lo)).

Lemma leaf_total_pos data a lo hi q : lo <= hi -> (0 < leaf_total data a lo hi q)%R.
Proof.
  intros L. unfold leaf_total. replace (hi + 1 - lo) with (S (hi - lo)) by lia. cbn [seq lsum]. pose proof (exp_pos (- a * dist2 q (nth lo data []))).
  assert (0 <= lsum (fun j => exp (- a * dist2 q (nth j data [])))%R (seq (S lo) (hi - lo)))%R by (apply lsum_nonneg; intros; left; apply exp_pos). lra.
Qed.

Lemma leaf_weight_R data a lo hi q : lo <= hi ->
  wmul (n_node lo hi) (exact_query (leaf_kde a data lo hi) q) = (IZR (Z.of_nat (hi - lo)) * (leaf_total data a lo hi q / IZR (Z.of_nat (hi + 1 - lo))))%R.
Proof.
  intros L. unfold n_node. replace (Z.of_nat hi - Z.of_nat lo)%Z with (Z.of_nat (hi - lo)) by lia. cbn [wmul wofZ NumR KNumR]. f_equal.
  unfold exact_query, gaussian_kde_exact, leaf_kde, exact_kde_range. cbn [ex_a ex_data]. rewrite map_length, seq_length. cbn [wdiv wofZ NumR KNumR]. f_equal.
  rewrite fold_add_R. cbn [w0 NumR]. rewrite Rplus_0_l, lsum_map. unfold leaf_total. apply lsum_ext. intros j _. rewrite gaussian_kernel_R. reflexivity.
Qed.

Lemma leaf_weight_range data a lo hi q : lo <= hi -> let d := wmul (n_node lo hi) (exact_query (leaf_kde a data lo hi) q) in
  (0 <= d < leaf_total data a lo hi q)%R /\ (lo < hi -> (0 < d)%R).
Proof.
  intros L d. unfold d. rewrite leaf_weight_R by auto. pose proof (leaf_total_pos data a lo hi q L) as P. set (t := leaf_total _ _ _ _ _) in *.
  replace (hi + 1 - lo) with (hi - lo + 1) by lia. rewrite Nat2Z.inj_add, plus_IZR. set (m := IZR (Z.of_nat (hi - lo))). assert (0 <= m)%R as Hm by (apply (IZR_le 0); lia). change (IZR (Z.of_nat 1)) with 1%R.
  assert (0 < / (m + 1))%R by (apply Rinv_0_lt_compat; lra). assert (0 < t * / (m + 1))%R by now apply Rmult_lt_0_compat. split; [split|].
  - apply Rmult_le_pos; [lra|]. unfold Rdiv. lra.
  - assert (t = (m + 1) * (t / (m + 1)))%R as E by (field; lra). rewrite E at 2. apply Rmult_lt_compat_r; [unfold Rdiv; lra|lra].
  - intros Ll. apply Rmult_lt_0_compat; [unfold m; apply (IZR_lt 0); lia|unfold Rdiv; lra].
Qed.

  Lemma nth_map_ok (f : list R -> outcome R) l vs i : map Ok vs = map f l -> i < length l -> f (nth i l []) = Ok (nth i vs 0%R).
  Proof.
    intros E Hi. assert (length vs = length l) as L by (apply (f_equal (@length _)) in E; now rewrite !map_length in E).
    rewrite <- (map_nth f l [] i), <- E. rewrite (nth_indep (map Ok vs) (f []) (Ok 0%R)) by (rewrite map_length; lia). apply (map_nth Ok).
  Qed.

(** ** The tree *)
Section Tree.
  Variable T : nat.
  Variable a : R.
  Variable data : list (list R).
  Variable dc nc : Z.
  Variable ord : nat -> nat -> nat -> list nat -> list nat.
  Hypothesis HT : 1 <= T.
  Hypothesis Ha : (0 < a)%R.
  Hypothesis Hnc : (2 <= nc)%Z.
  Hypothesis Hord : forall c i l s, Permutation (ord c i l s) s.
  Notation build := (build T a data dc nc).

  Lemma est_copies lo hi (copies : list (list (list R))) : (nc <= Z.of_nat hi - Z.of_nat lo)%Z ->
    Z.of_nat (length copies) = wceil (wmul w1 (wlog (wofZ (Z.of_nat hi - Z.of_nat lo)))) -> (forall c, In c copies -> Permutation c (rows_of data lo hi)) ->
    1 <= length copies /\ forall c, In c copies -> c <> [].
  Proof.
    intros Hn E A. cbn [wceil wmul w1 wlog wofZ KNumR NumR] in E. pose proof (ln_ceil_pos (Z.of_nat hi - Z.of_nat lo) ltac:(lia)). split; [lia|].
    intros c I Ec. subst c. apply A, Permutation_length in I. unfold rows_of in I. rewrite map_length, seq_length in I. simpl in I. lia.
  Qed.

  Lemma tree_weight_ok depth lo hi t : build depth lo hi t -> lo <= hi -> forall q, exists v, tree_weight a data t q = Ok v /\ (0 <= v)%R.
  Proof.
    induction 1 as [depth lo hi L|depth lo hi est l r L E Bl IHl Br IHr]; intros Hle q; cbn [tree_weight].
    - eexists. split; [reflexivity|]. apply (leaf_weight_range data a lo hi q Hle).
    - destruct est as [k|].
      + destruct E as (_ & copies & hs & Ek & Pc & I). destruct (est_copies lo hi copies L Ek Pc) as [Lc Nc].
        destruct (ckns_nonneg T a _ copies (Z.of_nat (hi + 1 - lo)) 0 hs k q Ha ltac:(lia) ltac:(intros ->; simpl in Lc; lia) Nc I) as (v & -> & Hv). cbn [obind].
        eexists. split; [reflexivity|]. unfold n_node. cbn [wmul wofZ KNumR NumR]. apply Rmult_le_pos; auto. apply (IZR_le 0). lia.
      + pose proof (Nat.div_mod (lo + hi) 2 ltac:(lia)). pose proof (Nat.mod_upper_bound (lo + hi) 2 ltac:(lia)).
        destruct (IHl ltac:(lia) q) as (x & -> & Hx). destruct (IHr ltac:(lia) q) as (y & -> & Hy). cbn [obind]. eexists. split; [reflexivity|]. cbn [wadd NumR]. lra.
  Qed.

  Lemma map_combine_add (xs ys : list R) (f g : list R -> outcome R) l : map Ok xs = map f l -> map Ok ys = map g l ->
    map Ok (map (fun p => wadd (fst p) (snd p)) (combine xs ys)) = map (fun q => do x <- f q; do y <- g q; Ok (wadd x y)) l.
  Proof.
    revert xs ys. induction l as [|q l IH]; intros [|x xs] [|y ys] E1 E2; try discriminate; auto. cbn [map] in E1, E2. injection E1 as E1 E1'. injection E2 as E2 E2'.
    cbn [map combine]. rewrite IH by auto. rewrite <- E1, <- E2. reflexivity.
  Qed.

  Lemma ews_ok depth lo hi t r : build depth lo hi t -> lo <= hi -> ews ord T a data t r -> exists vs, r = Ok vs /\ map Ok vs = map (tree_weight a data t) data.
  Proof.
    intros B. revert r. induction B as [depth lo hi L|depth lo hi est l r L E Bl IHl Br IHr]; intros res Hle Ew.
    - inversion Ew as [lo' hi' r' Q| |]; subst. apply exact_matrix_unique in Q; auto. subst r'. cbn [obind]. eexists. split; [reflexivity|]. rewrite !map_map. reflexivity.
    - destruct est as [k|].
      + inversion Ew as [|lo' hi' k' l' r' v Q|]; subst. destruct E as (_ & copies & hs & Ek & Pc & I). destruct (est_copies lo hi copies L Ek Pc) as [Lc Nc].
        destruct (init_fields _ _ _ _ _ _ _ _ I) as (_ & _ & _ & F4).
        destruct (ckns_matrix_unique ord T k data v HT ltac:(rewrite F4; exact Lc) Hord Q) as (vs & -> & F). cbn [obind]. eexists. split; [reflexivity|].
        cbn [tree_weight]. clear - F. revert F. generalize data at 1 2 as l. induction vs as [|v vs IH]; intros [|q l] F; try discriminate; auto. cbn [map] in *. injection F as F F'. rewrite IH with (l := l) by auto. now rewrite <- F.
      + inversion Ew as [| |lo' hi' l' r' x y Ex Ey]; subst. pose proof (Nat.div_mod (lo + hi) 2 ltac:(lia)). pose proof (Nat.mod_upper_bound (lo + hi) 2 ltac:(lia)).
        destruct (IHl x ltac:(lia) Ex) as (xs & -> & Fx). destruct (IHr y ltac:(lia) Ey) as (ys & -> & Fy). cbn [obind]. eexists. split; [reflexivity|].
        cbn [tree_weight]. now apply map_combine_add.
  Qed.

  Lemma ews_exist t : exists r, ews ord T a data t r.
  Proof.
    induction t as [lo hi|lo hi [k|] l [rl IHl] r [rr IHr]].
    - destruct (exact_matrix_exists T (leaf_kde a data lo hi) data HT) as [r R]. eexists. constructor. exact R.
    - destruct (ckns_matrix_exists ord T k data HT) as [v V]. eexists. constructor. exact V.
    - eexists. constructor; eauto.
  Qed.

  Lemma build_subtree depth lo hi root t : build depth lo hi root -> lo <= hi -> subtree t root -> exists d l h, build d l h t /\ lo <= l /\ l <= h /\ h <= hi.
  Proof.
    intros B. induction B as [depth lo hi L|depth lo hi est l r L E Bl IHl Br IHr]; intros Hle Sub.
    - inversion Sub; subst. exists depth, lo, hi. split; [now constructor|lia].
    - pose proof (Nat.div_mod (lo + hi) 2 ltac:(lia)). pose proof (Nat.mod_upper_bound (lo + hi) 2 ltac:(lia)).
      inversion Sub; subst.
      + exists depth, lo, hi. split; [now constructor|lia].
      + destruct IHl as (d & l0 & h0 & B & ?); auto; [lia|]. exists d, l0, h0. split; auto. lia.
      + destruct IHr as (d & l0 & h0 & B & ?); auto; [lia|]. exists d, l0, h0. split; auto. lia.
  Qed.

  (** The caches are transparent: whatever was inserted before, by whichever thread, the answer is the node's estimate. *)
  Lemma ev_ok H : (forall t i v, In (t, i, v) H -> tree_weight a data t (nth i data []) = Ok v) -> forall t i o, ev a data H t i o -> o = tree_weight a data t (nth i data []).
  Proof. intros A t i o E. induction E as [t i v I| | |lo hi l r i x y Ex IHx Ey IHy]; auto; [symmetry; now apply A|]. subst. reflexivity. Qed.


  Lemma hist_ok depth lo hi root H : build depth lo hi root -> lo <= hi -> hist ord T a data root H -> forall t i v, In (t, i, v) H -> tree_weight a data t (nth i data []) = Ok v.
  Proof.
    intros B Hle Hh. induction Hh as [|H t0 i0 v0 Hh IH Sub E|H t0 vs Hh IH Sub E]; intros t i v I; [destruct I| |]; apply in_app_or in I as [I|I]; auto.
    - destruct I as [I|[]]. injection I as <- <- <-. apply ev_ok in E; auto.
    - apply in_map_iff in I as ([j v'] & I & J). cbn [fst snd] in I. injection I as <- <- <-. destruct (build_subtree _ _ _ _ _ B Hle Sub) as (d & l & h & Bt & ?).
      destruct (ews_ok d l h t0 (Ok vs) Bt ltac:(lia) E) as (vs' & Ev & F). injection Ev as <-. pose proof (in_combine_l _ _ _ _ J) as Jl. apply in_seq in Jl.
      assert (length vs = length data) as L by (apply (f_equal (@length _)) in F; now rewrite !map_length in F).
      rewrite (nth_map_ok _ _ vs) by (auto; lia). f_equal.
      destruct (In_nth _ _ (0, 0%R) J) as (k & Lk & Ek). rewrite combine_length, seq_length in Lk. rewrite combine_nth in Ek by now rewrite seq_length. injection Ek as Ek1 Ek2.
      rewrite seq_nth in Ek1 by lia. simpl in Ek1. subst. reflexivity.
  Qed.

  Lemma ev_exists H t i : exists o, ev a data H t i o.
  Proof. induction t as [lo hi|lo hi [k|] l [x IHl] r [y IHr]]; eexists; [apply ev_leaf|apply ev_est|apply ev_sum; eauto]. Qed.
End Tree.
