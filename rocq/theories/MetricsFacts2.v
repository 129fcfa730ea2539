(** Final statements about the clustering metrics. *)
From Verif Require Import Base RSum Cluster Metrics MetricsFacts ClusterSweep.
From Coq Require Import Reals Lra Sorting.Permutation Sorting.Sorted.
Local Open Scope R_scope.

(** Hubert and Arabie: (index - expected index) / (maximum index - expected index). *)
Definition hubert_arabie (index gt_pairs label_pairs all_pairs : R) : R :=
  (index - gt_pairs * label_pairs / all_pairs) /
  ((gt_pairs + label_pairs) / 2 - gt_pairs * label_pairs / all_pairs).
Definition ha_defined (gt_pairs label_pairs all_pairs : R) : Prop :=
  all_pairs <> 0 /\ (gt_pairs + label_pairs) / 2 - gt_pairs * label_pairs / all_pairs <> 0.
Definition few_points (l : list Z) : Prop := (Z.of_nat (length l) <= ari_max_points)%Z.

Lemma ari_value gt l : valid_labels gt l -> few_points gt ->
  (ha_defined (INR (pA gt)) (INR (pB l)) (INR (pT gt)) ->
     adjusted_rand_index gt l = Ok (Some (hubert_arabie (INR (pI gt l)) (INR (pA gt)) (INR (pB l)) (INR (pT gt))))) /\
  (~ ha_defined (INR (pA gt)) (INR (pB l)) (INR (pT gt)) -> adjusted_rand_index gt l = Ok None).
Proof.
  intros Hv Hn. rewrite (ari_small gt l Hv Hn). unfold ha_defined, hubert_arabie, odiv, osub.
  destruct (Req_EM_T (INR (pT gt)) 0) as [E|E].
  - split; [intros [? _]; tauto|]. intros _. reflexivity.
  - destruct (Req_EM_T _ 0) as [E2|E2].
    + split; [intros [_ ?]; tauto|]. reflexivity.
    + split; [reflexivity|]. tauto.
Qed.
Lemma ari_symmetric gt l : few_points gt -> adjusted_rand_index gt l = adjusted_rand_index l gt.
Proof.
  intros Hn. destruct (contingency_spec gt l) as [[Hv _]|[Hv _]].
  - pose proof Hv as (El & _ & _). rewrite (ari_small gt l Hv Hn), (ari_small l gt (valid_sym _ _ Hv)).
    + rewrite (pI_sym l gt). unfold pA, pB, pT. rewrite El.
      rewrite (Rmult_comm (INR (same_pairs Z.eqb gt))), (Rplus_comm (INR (same_pairs Z.eqb gt))). reflexivity.
    + unfold few_points in *. now rewrite El.
  - rewrite (ari_invalid gt l Hv). rewrite ari_invalid; auto. intros Hv'. apply Hv. now apply valid_sym.
Qed.
(** Renaming the labels of one clustering injectively. *)
Definition renaming (s : Z -> Z) (l : list Z) : Prop :=
  (forall x, In x l -> 0 <= s x)%Z /\ (forall x y, In x l -> In y l -> s x = s y -> x = y).
Lemma combine_map_l (s : Z -> Z) gt (l : list Z) : combine (map s gt) l = map (fun p => (s (fst p), snd p)) (combine gt l).
Proof. revert l; induction gt as [|x gt IH]; intros [|y l]; simpl; auto. now rewrite IH. Qed.
Lemma ari_rename s gt l : valid_labels gt l -> few_points gt -> renaming s gt ->
  adjusted_rand_index (map s gt) l = adjusted_rand_index gt l.
Proof.
  intros Hv Hn [Hs0 Hinj]. pose proof Hv as (El & Hg & Hl).
  assert (Hv' : valid_labels (map s gt) l).
  { repeat split; auto; [now rewrite map_length|]. apply Forall_forall. intros y Hy. apply in_map_iff in Hy.
    destruct Hy as (x & <- & Hx). auto. }
  rewrite (ari_small gt l Hv Hn), (ari_small (map s gt) l Hv') by (unfold few_points in *; now rewrite map_length).
  assert (E1 : pI (map s gt) l = pI gt l).
  { unfold pI. rewrite combine_map_l. apply same_pairs_map; try apply eqb2_ok.
    intros [a b] [c d] Ha Hc [= E ->]. simpl in *. f_equal. apply Hinj; auto; eapply in_combine_l; eauto. }
  assert (E2 : pA (map s gt) = pA gt) by (apply same_pairs_map; auto using Zeqb_ok).
  assert (E3 : pT (map s gt) = pT gt) by (unfold pT; now rewrite map_length).
  now rewrite E1, E2, E3.
Qed.
(** Two clusterings inducing the same partition of the points. *)
Definition same_partition (gt l : list Z) : Prop :=
  forall p q, In p (combine gt l) -> In q (combine gt l) -> (fst p = fst q <-> snd p = snd q).
Lemma same_partition_pairs gt l : valid_labels gt l -> same_partition gt l -> pI gt l = pA gt /\ pI gt l = pB l.
Proof.
  intros (El & _ & _) Hp. unfold pI, pA, pB. split.
  - rewrite <- (combine_fst gt l El) at 2. symmetry. apply same_pairs_fst_eq. intros. now apply Hp.
  - rewrite <- (combine_snd gt l El) at 2. symmetry.
    rewrite <- (same_pairs_swap (combine gt l)).
    assert (map snd (combine gt l) = map fst (map (fun p => (snd p, fst p)) (combine gt l))) as -> by (now rewrite map_map).
    apply same_pairs_fst_eq. intros p q Hi Hj. apply in_map_iff in Hi, Hj.
    destruct Hi as (a & <- & Ha), Hj as (b & <- & Hb). simpl. intros. now apply Hp.
Qed.
Lemma ari_one gt l : valid_labels gt l -> few_points gt -> same_partition gt l ->
  (0 < pA gt < pT gt)%nat -> adjusted_rand_index gt l = Ok (Some 1).
Proof.
  intros Hv Hn Hp Ht. destruct (same_partition_pairs gt l Hv Hp) as [EA EB].
  assert (Hd : INR (pA gt) - INR (pA gt) * INR (pA gt) / INR (pT gt) <> 0).
  { assert (0 < INR (pA gt)) by (apply (lt_INR 0); lia). assert (INR (pA gt) < INR (pT gt)) by (apply lt_INR; lia).
    intros E. assert (INR (pA gt) * (INR (pT gt) - INR (pA gt)) = 0).
    { apply Rmult_eq_reg_r with (/ INR (pT gt)); [|apply Rinv_neq_0_compat; lra].
      replace (INR (pA gt) * (INR (pT gt) - INR (pA gt)) * / INR (pT gt)) with (INR (pA gt) - INR (pA gt) * INR (pA gt) / INR (pT gt)) by (field; lra).
      lra. }
    apply Rmult_integral in H1. lra. }
  destruct (ari_value gt l Hv Hn) as [Hval _]. rewrite Hval.
  - rewrite EA. unfold hubert_arabie. rewrite <- EB, EA. f_equal. f_equal.
    replace ((INR (pA gt) + INR (pA gt)) / 2) with (INR (pA gt)) by lra. now apply Rinv_r.
  - rewrite <- EB, EA. split; [apply not_0_INR; lia|].
    replace ((INR (pA gt) + INR (pA gt)) / 2) with (INR (pA gt)) by lra. exact Hd.
Qed.
Lemma ari_le_one gt l x : valid_labels gt l -> few_points gt -> adjusted_rand_index gt l = Ok (Some x) -> x <= 1.
Proof.
  intros Hv Hn E. destruct (ari_value gt l Hv Hn) as [H1 H2].
  assert (Hdec : ha_defined (INR (pA gt)) (INR (pB l)) (INR (pT gt)) \/ ~ ha_defined (INR (pA gt)) (INR (pB l)) (INR (pT gt))).
  { unfold ha_defined. destruct (Req_EM_T (INR (pT gt)) 0); [tauto|].
    destruct (Req_EM_T ((INR (pA gt) + INR (pB l)) / 2 - INR (pA gt) * INR (pB l) / INR (pT gt)) 0); tauto. }
  destruct Hdec as [Hd|Hd]; [|rewrite (H2 Hd) in E; discriminate]. rewrite (H1 Hd) in E. injection E as <-.
  destruct (pI_le gt l Hv) as (HIA & HIB & HA & HB). apply le_INR in HIA, HIB, HA, HB. destruct Hd as [HT Hden].
  unfold hubert_arabie. set (e := INR (pA gt) * INR (pB l) / INR (pT gt)) in *.
  assert (He : e <= (INR (pA gt) + INR (pB l)) / 2).
  { pose proof (pos_INR (pA gt)). pose proof (pos_INR (pB l)). pose proof (pos_INR (pT gt)).
    assert (e <= INR (pA gt)).
    { unfold e. apply Rmult_le_reg_r with (INR (pT gt)); [lra|]. unfold Rdiv. rewrite Rmult_assoc, Rinv_l, Rmult_1_r by auto.
      apply Rmult_le_compat_l; lra. }
    assert (e <= INR (pB l)).
    { unfold e. apply Rmult_le_reg_r with (INR (pT gt)); [lra|]. unfold Rdiv. rewrite Rmult_assoc, Rinv_l, Rmult_1_r by auto.
      rewrite (Rmult_comm (INR (pB l))). apply Rmult_le_compat_r; lra. }
    lra. }
  assert (0 < (INR (pA gt) + INR (pB l)) / 2 - e) by lra.
  apply Rmult_le_reg_r with ((INR (pA gt) + INR (pB l)) / 2 - e); [lra|].
  unfold Rdiv at 1. rewrite Rmult_assoc, Rinv_l, Rmult_1_r by lra. lra.
Qed.

(** Failures. *)
Lemma same_pairs_repeat n : same_pairs Z.eqb (repeat 0%Z n) = choose2 n.
Proof.
  induction n as [|n IH]; [reflexivity|]. cbn [repeat same_pairs]. rewrite IH, choose2_S. f_equal.
  unfold occ. clear. induction n as [|n IH]; simpl; auto.
Qed.
Lemma valid_repeat n : valid_labels (repeat 0%Z n) (repeat 0%Z n).
Proof. repeat split; auto; apply Forall_forall; intros x Hx; apply repeat_spec in Hx; lia. Qed.
Lemma ari_overflow n : (77937 <= Z.of_nat n)%Z -> (Z.of_nat (n * (n - 1)) <= max64)%Z ->
  adjusted_rand_index (repeat 0%Z n) (repeat 0%Z n) = UB.
Proof.
  intros Hn Hb. rewrite ari_eval by (auto using valid_repeat; now rewrite repeat_length).
  unfold pA, pB. rewrite same_pairs_repeat.
  assert (E : i64 (Z.of_nat (choose2 n * choose2 n)) = UB).
  { unfold i64. assert ((Z.of_nat (choose2 n * choose2 n) <=? 9223372036854775807)%Z = false) as ->; [|now rewrite andb_false_r].
    apply Z.leb_gt. pose proof (choose2_double n) as Hd.
    assert (77937 * 77936 <= Z.of_nat (n * (n - 1)))%Z.
    { rewrite Nat2Z.inj_mul. replace (Z.of_nat (n - 1)) with (Z.of_nat n - 1)%Z by lia. nia. }
    rewrite Hd, Nat2Z.inj_mul in H. rewrite Nat2Z.inj_mul. nia. }
  now rewrite E.
Qed.
Lemma ari_one_cluster_nan n : (2 <= n)%nat -> (Z.of_nat n <= ari_max_points)%Z ->
  adjusted_rand_index (repeat 0%Z n) (repeat 0%Z n) = Ok None.
Proof.
  intros H2 Hn. apply ari_value; [apply valid_repeat|unfold few_points; now rewrite repeat_length|].
  unfold ha_defined, pA, pB, pT. rewrite same_pairs_repeat, repeat_length. intros [HT Hd]. apply Hd. field. exact HT.
Qed.

(** ** Mutual information *)
Lemma lsum_div {A} (f : A -> R) l c : lsum f l / c = lsum (fun x => f x * / c) l.
Proof. symmetry. apply lsum_scal_r. Qed.
(** Empirical probabilities. *)
Definition pr1 (l : list Z) (i : Z) : R := INR (occ Z.eqb i l) / INR (length l).
Definition pr2 (gt l : list Z) (i j : Z) : R := INR (occ eqb2 (i, j) (combine gt l)) / INR (length l).
(** Textbook mutual information over label alphabets U and V (0 log 0 = 0). *)
Definition mi_spec (U V gt l : list Z) : R :=
  lsum (fun ij => pr2 gt l (fst ij) (snd ij) * log2 (pr2 gt l (fst ij) (snd ij) / (pr1 gt (fst ij) * pr1 l (snd ij)))) (list_prod U V).
Definition entropy_spec (U l : list Z) : R := lsum (fun i => pr1 l i * log2 (/ pr1 l i)) U.

(** Sum over the points. *)
Definition mi_points (gt l : list Z) : R :=
  lsum (fun p => log2 (INR (length l) * INR (occ eqb2 p (combine gt l)) / (INR (occ Z.eqb (fst p) gt) * INR (occ Z.eqb (snd p) l))))
       (combine gt l) / INR (length l).
Definition entropy_points (l : list Z) : R := lsum (fun x => log2 (INR (length l) / INR (occ Z.eqb x l))) l / INR (length l).

Lemma fold_cond_sum {A} (c : A -> bool) (f : A -> R) l : forall a,
  fold_left (fun acc x => if c x then acc + f x else acc) l a = a + lsum (fun x => if c x then f x else 0) l.
Proof. induction l as [|x l IH]; intros a; simpl; [lra|]. rewrite IH. destruct (c x); lra. Qed.

Lemma mi_code gt l : valid_labels gt l -> mutual_information gt l = Ok (mi_points gt l).
Proof.
  intros Hv. unfold mutual_information. destruct (contingency_spec gt l) as [(_ & k & t & -> & Hg & Hl & Hp & Ht)|[Hn _]]; [|tauto].
  cbn [obind]. f_equal.
  rewrite (fold_cond_sum (fun ij => (0 <? t (fst ij) (snd ij))%Z)
    (fun ij => IZR (t (fst ij) (snd ij)) / INR (length l) *
       log2 (INR (length l) * IZR (t (fst ij) (snd ij)) / (IZR (cluster_sizes gt (fst ij)) * IZR (cluster_sizes l (snd ij)))))).
  unfold mi_points. rewrite Rplus_0_l. rewrite lsum_div.
  rewrite <- (lsum_occ eqb2 eqb2_ok _ (combine gt l) (list_prod (upto k) (upto k)));
    [|apply list_prod_NoDup; apply upto_NoDup|auto].
  apply lsum_ext. intros [i j] _. cbn [fst snd]. rewrite Ht, !cluster_sizes_occ, <- !INR_IZR_INZ.
  destruct (Z.ltb_spec 0 (Z.of_nat (occ eqb2 (i, j) (combine gt l)))).
  - unfold Rdiv. rewrite Rmult_assoc, (Rmult_comm (/ INR (length l))), <- !Rmult_assoc. reflexivity.
  - assert (occ eqb2 (i, j) (combine gt l) = 0%nat) as -> by lia. simpl. lra.
Qed.
Lemma mi_invalid gt l : ~ valid_labels gt l -> mutual_information gt l = Throw InvalidArgument.
Proof. intros Hn. unfold mutual_information. destruct (contingency_spec gt l) as [[? _]|[_ ->]]; [tauto|reflexivity]. Qed.

Lemma incl_prod (gt l U V : list Z) : incl gt U -> incl l V -> incl (combine gt l) (list_prod U V).
Proof.
  intros HU HV [x y] Hp. apply in_prod; [apply HU; eapply in_combine_l; eauto|apply HV; eapply in_combine_r; eauto].
Qed.
Lemma INR_pos n : (0 < n)%nat -> 0 < INR n.
Proof. apply lt_0_INR. Qed.
Lemma in_len {A} (x : A) l : In x l -> (0 < length l)%nat.
Proof. destruct l; simpl; [tauto|lia]. Qed.

Lemma point_pos gt l p : length l = length gt -> In p (combine gt l) ->
  0 < INR (length l) /\ 0 < INR (occ eqb2 p (combine gt l)) /\ 0 < INR (occ Z.eqb (fst p) gt) /\ 0 < INR (occ Z.eqb (snd p) l).
Proof.
  intros El Hp. destruct p as [x y]. repeat split; apply INR_pos.
  - apply in_combine_r in Hp. eapply in_len; eauto.
  - apply occ_pos; auto using eqb2_ok.
  - apply occ_pos; auto using Zeqb_ok. eapply in_combine_l; eauto.
  - apply occ_pos; auto using Zeqb_ok. eapply in_combine_r; eauto.
Qed.
Lemma mi_points_spec U V gt l : valid_labels gt l -> NoDup U -> NoDup V -> incl gt U -> incl l V ->
  mi_points gt l = mi_spec U V gt l.
Proof.
  intros (El & _ & _) HU HV IU IV. unfold mi_spec, mi_points.
  rewrite <- (lsum_occ eqb2 eqb2_ok _ (combine gt l) (list_prod U V)); [|now apply list_prod_NoDup|now apply incl_prod].
  rewrite lsum_div. apply lsum_ext. intros [i j] _. cbn [fst snd]. unfold pr2.
  destruct (Nat.eq_dec (occ eqb2 (i, j) (combine gt l)) 0) as [E|E]; [rewrite E; simpl; lra|].
  assert (Hin : In (i, j) (combine gt l)).
  { destruct (filter (eqb2 (i, j)) (combine gt l)) as [|p ps] eqn:Ef.
    - unfold occ in E. rewrite Ef in E. simpl in E. lia.
    - assert (In p (filter (eqb2 (i, j)) (combine gt l))) as Hp by (rewrite Ef; now left).
      apply filter_In in Hp. destruct Hp as [Hp Hq]. apply eqb2_ok in Hq. now subst. }
  destruct (point_pos gt l (i, j) El Hin) as (HN & Hn & Ha & Hb). cbn [fst snd] in *.
  unfold pr1. rewrite <- El.
  replace (INR (occ eqb2 (i, j) (combine gt l)) / INR (length l) / (INR (occ Z.eqb i gt) / INR (length l) * (INR (occ Z.eqb j l) / INR (length l))))
    with (INR (length l) * INR (occ eqb2 (i, j) (combine gt l)) / (INR (occ Z.eqb i gt) * INR (occ Z.eqb j l)))
    by (field; repeat split; lra).
  unfold Rdiv. lra.
Qed.
Lemma mi_points_sym gt l : length l = length gt -> mi_points gt l = mi_points l gt.
Proof.
  intros El. unfold mi_points. rewrite El. f_equal. rewrite (combine_swap gt l). rewrite lsum_map.
  apply lsum_ext. intros [x y] Hp. cbn [fst snd]. f_equal.
  assert (occ eqb2 (y, x) (map (fun p => (snd p, fst p)) (combine gt l)) = occ eqb2 (x, y) (combine gt l)) as ->.
  { unfold occ. clear. induction (combine gt l) as [|[a b] ps IH]; simpl; auto.
    assert (eqb2 (y, x) (b, a) = eqb2 (x, y) (a, b)) as -> by (unfold eqb2; simpl; apply andb_comm).
    destruct (eqb2 (x, y) (a, b)); simpl; now rewrite IH. }
  f_equal. apply Rmult_comm.
Qed.
Lemma occ_map {A B} (ea : A -> A -> bool) (eb : B -> B -> bool) (f : A -> B) x l :
  (forall x y, ea x y = true <-> x = y) -> (forall x y, eb x y = true <-> x = y) ->
  (forall y, In y l -> f x = f y -> x = y) -> occ eb (f x) (map f l) = occ ea x l.
Proof.
  intros Ha Hb Hx. unfold occ. induction l as [|y l IH]; simpl; auto.
  assert (eb (f x) (f y) = ea x y) as ->.
  { apply eq_true_iff_eq. rewrite Ha, Hb. split; [apply Hx; now left|now intros ->]. }
  destruct (ea x y); simpl; rewrite IH; auto; intros; apply Hx; simpl; auto.
Qed.
Lemma mi_points_rename s gt l : length l = length gt -> (forall x y, In x gt -> In y gt -> s x = s y -> x = y) ->
  mi_points (map s gt) l = mi_points gt l.
Proof.
  intros El Hinj. unfold mi_points. f_equal. rewrite combine_map_l, lsum_map. apply lsum_ext. intros [x y] Hp. cbn [fst snd].
  assert (Hx : In x gt) by (eapply in_combine_l; eauto). f_equal. f_equal.
  - f_equal. f_equal. rewrite (occ_map eqb2 eqb2 (fun p => (s (fst p), snd p)) (x, y)); auto using eqb2_ok.
    intros [a b] Hab [= E ->]. f_equal. apply Hinj; auto. eapply in_combine_l; eauto.
  - f_equal. f_equal. apply (occ_map Z.eqb Z.eqb s x); auto using Zeqb_ok.
Qed.

Lemma ln2_pos : 0 < ln 2.
Proof. rewrite <- ln_1. apply ln_increasing; lra. Qed.
Lemma log2_le x y : 0 < x -> x <= y -> log2 x <= log2 y.
Proof.
  intros Hx Hxy. unfold log2, Rdiv. apply Rmult_le_compat_r; [left; apply Rinv_0_lt_compat, ln2_pos|].
  destruct Hxy as [Hlt| ->]; [left; now apply ln_increasing|lra].
Qed.
(** ln x >= 1 - 1/x *)
Lemma ln_lower x : 0 < x -> 1 - / x <= ln x.
Proof.
  intros Hx. pose proof (exp_ineq1_le (- ln x)) as He. rewrite exp_Ropp, exp_ln in He by auto. lra.
Qed.
Lemma occ_pair_le gt l p : length l = length gt ->
  (occ eqb2 p (combine gt l) <= occ Z.eqb (fst p) gt)%nat /\ (occ eqb2 p (combine gt l) <= occ Z.eqb (snd p) l)%nat.
Proof.
  intros El. revert l El. induction gt as [|x gt IH]; intros [|y l] El; try discriminate; [unfold occ; simpl; lia|].
  injection El as El. destruct (IH l El) as [H1 H2]. simpl combine. rewrite !occ_cons. unfold eqb2 at 1 3. cbn [fst snd].
  destruct (fst p =? x)%Z, (snd p =? y)%Z; simpl; lia.
Qed.
Lemma mi_nonneg gt l : valid_labels gt l -> 0 <= mi_points gt l.
Proof.
  intros (El & _ & _). unfold mi_points. destruct (Nat.eq_dec (length l) 0) as [E0|E0].
  { assert (combine gt l = []) as -> by (destruct l; [destruct gt; auto|discriminate]). simpl. unfold Rdiv. lra. }
  assert (HN : 0 < INR (length l)) by (apply INR_pos; lia).
  apply Rmult_le_pos; [|left; now apply Rinv_0_lt_compat].
  set (g := fun p => INR (occ Z.eqb (fst p) gt) * INR (occ Z.eqb (snd p) l) / (INR (length l) * INR (occ eqb2 p (combine gt l)))).
  assert (Hge : lsum (fun p => (1 - g p) / ln 2) (combine gt l) <=
     lsum (fun p => log2 (INR (length l) * INR (occ eqb2 p (combine gt l)) / (INR (occ Z.eqb (fst p) gt) * INR (occ Z.eqb (snd p) l)))) (combine gt l)).
  { apply lsum_le. intros p Hp. destruct (point_pos gt l p El Hp) as (_ & Hn & Ha & Hb). unfold log2, Rdiv.
    apply Rmult_le_compat_r; [left; apply Rinv_0_lt_compat, ln2_pos|].
    set (x := INR (length l) * INR (occ eqb2 p (combine gt l)) * / (INR (occ Z.eqb (fst p) gt) * INR (occ Z.eqb (snd p) l))).
    assert (Hx : 0 < x) by (apply Rmult_lt_0_compat; [now apply Rmult_lt_0_compat|apply Rinv_0_lt_compat; now apply Rmult_lt_0_compat]).
    assert (g p = / x) as -> by (unfold g, x; field; repeat split; lra). now apply ln_lower. }
  eapply Rle_trans; [|exact Hge]. unfold Rdiv. rewrite lsum_scal_r.
  apply Rmult_le_pos; [|left; apply Rinv_0_lt_compat, ln2_pos].
  rewrite lsum_minus, lsum_const. rewrite combine_length, El, Nat.min_id, <- El, Rmult_1_l.
  assert (Hg : lsum g (combine gt l) <= INR (length l)); [|lra].
  set (U := nodup Z.eq_dec gt). set (V := nodup Z.eq_dec l).
  rewrite <- (lsum_occ eqb2 eqb2_ok g (combine gt l) (list_prod U V)).
  2:{ apply list_prod_NoDup; apply NoDup_nodup. }
  2:{ apply incl_prod; intros x Hx; now apply nodup_In. }
  apply Rle_trans with (lsum (fun p => INR (occ Z.eqb (fst p) gt) * INR (occ Z.eqb (snd p) l) / INR (length l)) (list_prod U V)).
  - apply lsum_le. intros p _. pose proof (pos_INR (occ Z.eqb (fst p) gt)). pose proof (pos_INR (occ Z.eqb (snd p) l)).
    assert (0 <= INR (occ Z.eqb (fst p) gt) * INR (occ Z.eqb (snd p) l) / INR (length l)).
    { apply Rmult_le_pos; [now apply Rmult_le_pos|left; now apply Rinv_0_lt_compat]. }
    destruct (Nat.eq_dec (occ eqb2 p (combine gt l)) 0) as [E|E].
    + rewrite E. simpl. lra.
    + apply Req_le. unfold g. field. split; [lra|]. apply not_0_INR. auto.
  - assert (Hprod : forall (a b : Z -> R), lsum (fun p => a (fst p) * b (snd p)) (list_prod U V) = lsum a U * lsum b V).
    { intros a b. clear. induction U as [|x U IH]; simpl; [lra|]. rewrite lsum_app, lsum_map, IH. cbn [fst snd].
      rewrite lsum_scal. lra. }
    unfold Rdiv. rewrite lsum_scal_r. rewrite (Hprod (fun i => INR (occ Z.eqb i gt)) (fun j => INR (occ Z.eqb j l))).
    assert (Hs : forall m, lsum (fun i => INR (occ Z.eqb i m)) (nodup Z.eq_dec m) = INR (length m)).
    { intros m. transitivity (lsum (fun i => INR (occ Z.eqb i m) * 1) (nodup Z.eq_dec m)); [apply lsum_ext; intros; lra|].
      rewrite (lsum_occ Z.eqb Zeqb_ok (fun _ => 1)); [rewrite lsum_const; lra|apply NoDup_nodup|intros x Hx; now apply nodup_In]. }
    unfold U, V. rewrite !Hs, <- El. apply Req_le. field. lra.
Qed.
Lemma mi_le_entropy gt l : valid_labels gt l -> mi_points gt l <= entropy_points gt /\ mi_points gt l <= entropy_points l.
Proof.
  assert (Hgen : forall gt l, valid_labels gt l -> mi_points gt l <= entropy_points gt).
  { clear gt l. intros gt l (El & _ & _). unfold mi_points, entropy_points. rewrite <- El.
    destruct (Nat.eq_dec (length l) 0) as [E0|E0].
    { assert (gt = []) as -> by (destruct gt; [auto|simpl in El; lia]). simpl. lra. }
    assert (HN : 0 < INR (length l)) by (apply INR_pos; lia).
    apply Rmult_le_compat_r; [left; now apply Rinv_0_lt_compat|].
    replace (lsum (fun x : Z => log2 (INR (length l) / INR (occ Z.eqb x gt))) gt)
      with (lsum (fun x : Z => log2 (INR (length l) / INR (occ Z.eqb x gt))) (map fst (combine gt l))) by now rewrite (combine_fst gt l El).
    rewrite lsum_map. apply lsum_le. intros p Hp.
    destruct (point_pos gt l p El Hp) as (_ & Hn & Ha & Hb). destruct (occ_pair_le gt l p El) as [_ Hle].
    apply le_INR in Hle. apply log2_le.
    - apply Rmult_lt_0_compat; [now apply Rmult_lt_0_compat|apply Rinv_0_lt_compat; now apply Rmult_lt_0_compat].
    - apply Rmult_le_reg_r with (INR (occ Z.eqb (fst p) gt) * INR (occ Z.eqb (snd p) l)); [now apply Rmult_lt_0_compat|].
      replace (INR (length l) * INR (occ eqb2 p (combine gt l)) / (INR (occ Z.eqb (fst p) gt) * INR (occ Z.eqb (snd p) l)) * (INR (occ Z.eqb (fst p) gt) * INR (occ Z.eqb (snd p) l)))
        with (INR (length l) * INR (occ eqb2 p (combine gt l))) by (field; lra).
      replace (INR (length l) / INR (occ Z.eqb (fst p) gt) * (INR (occ Z.eqb (fst p) gt) * INR (occ Z.eqb (snd p) l)))
        with (INR (length l) * INR (occ Z.eqb (snd p) l)) by (field; lra).
      apply Rmult_le_compat_l; lra. }
  intros Hv. split; [now apply Hgen|]. pose proof Hv as (El & _ & _). rewrite mi_points_sym by auto.
  apply Hgen. now apply valid_sym.
Qed.

(** Entropy: the iteration order of the map is irrelevant. *)
Definition map_order (order labels : list Z) : Prop := Permutation order (nodup Z.eq_dec labels).
Lemma entropy_code order l : map_order order l -> entropy order l = entropy_points l.
Proof.
  intros Hp. unfold entropy.
  rewrite (fold_cond_sum (fun i => (0 <? cluster_sizes l i)%Z)
    (fun i => IZR (cluster_sizes l i) / INR (length l) * log2 (INR (length l) / IZR (cluster_sizes l i)))).
  rewrite Rplus_0_l, (lsum_perm _ _ _ Hp). unfold entropy_points. rewrite lsum_div.
  rewrite <- (lsum_occ Z.eqb Zeqb_ok _ l (nodup Z.eq_dec l)); [|apply NoDup_nodup|intros x Hx; now apply nodup_In].
  apply lsum_ext. intros i _. rewrite cluster_sizes_occ, <- INR_IZR_INZ.
  destruct (Z.ltb_spec 0 (Z.of_nat (occ Z.eqb i l))).
  - unfold Rdiv. rewrite Rmult_assoc, (Rmult_comm (/ INR (length l))), <- !Rmult_assoc. reflexivity.
  - assert (occ Z.eqb i l = 0%nat) as -> by lia. simpl. lra.
Qed.
Lemma entropy_points_spec U l : NoDup U -> incl l U -> entropy_points l = entropy_spec U l.
Proof.
  intros HU IU. unfold entropy_points, entropy_spec. rewrite lsum_div.
  rewrite <- (lsum_occ Z.eqb Zeqb_ok _ l U) by auto. apply lsum_ext. intros i _. unfold pr1.
  destruct (Nat.eq_dec (occ Z.eqb i l) 0) as [E|E]; [rewrite E; simpl; lra|].
  assert (0 < INR (occ Z.eqb i l)) by (apply INR_pos; lia).
  assert (0 < INR (length l)) by (apply INR_pos; pose proof (occ_le Z.eqb i l); lia).
  replace (/ (INR (occ Z.eqb i l) / INR (length l))) with (INR (length l) / INR (occ Z.eqb i l)) by (field; lra).
  unfold Rdiv. lra.
Qed.
Lemma entropy_nonneg l : 0 <= entropy_points l.
Proof.
  unfold entropy_points. destruct (Nat.eq_dec (length l) 0) as [E0|E0].
  { destruct l; [simpl; unfold Rdiv; lra|discriminate]. }
  assert (HN : 0 < INR (length l)) by (apply INR_pos; lia).
  apply Rmult_le_pos; [|left; now apply Rinv_0_lt_compat]. apply lsum_nonneg. intros x Hx.
  assert (Hp : 0 < INR (occ Z.eqb x l)) by (apply INR_pos, occ_pos; auto using Zeqb_ok).
  assert (Hle : INR (occ Z.eqb x l) <= INR (length l)) by (apply le_INR, occ_le).
  replace 0 with (log2 1) by (unfold log2; rewrite ln_1; unfold Rdiv; lra). apply log2_le; [lra|].
  apply Rmult_le_reg_r with (INR (occ Z.eqb x l)); auto. unfold Rdiv. rewrite Rmult_assoc, Rinv_l by lra. lra.
Qed.
Lemma nmi_code o1 o2 gt l : valid_labels gt l -> map_order o1 gt -> map_order o2 l ->
  normalised_mutual_information o1 o2 gt l =
    Ok (if Req_EM_T ((entropy_points gt + entropy_points l) / 2) 0 then None
        else Some (mi_points gt l / ((entropy_points gt + entropy_points l) / 2))).
Proof.
  intros Hv H1 H2. unfold normalised_mutual_information. rewrite mi_code by auto. cbn [obind].
  rewrite (entropy_code o1 gt H1), (entropy_code o2 l H2). unfold odiv. destruct (Req_EM_T _ 0); reflexivity.
Qed.
Lemma nmi_range o1 o2 gt l x : valid_labels gt l -> map_order o1 gt -> map_order o2 l ->
  normalised_mutual_information o1 o2 gt l = Ok (Some x) -> 0 <= x <= 1.
Proof.
  intros Hv H1 H2. rewrite (nmi_code o1 o2 gt l Hv H1 H2). destruct (Req_EM_T _ 0) as [|Hne]; [discriminate|]. intros [= <-].
  pose proof (mi_nonneg gt l Hv). destruct (mi_le_entropy gt l Hv). 
  set (h := (entropy_points gt + entropy_points l) / 2) in *.
  assert (Hh : mi_points gt l <= h) by (unfold h; lra). assert (0 < h) by lra. split.
  - apply Rmult_le_pos; [lra|]. left. now apply Rinv_0_lt_compat.
  - apply Rmult_le_reg_r with h; auto. unfold Rdiv. rewrite Rmult_assoc, Rinv_l by lra. lra.
Qed.
(** Same partition: MI equals the entropy. *)
Lemma lsum_fst (f : Z -> R) (gt l : list Z) : length l = length gt -> lsum f gt = lsum (fun p => f (fst p)) (combine gt l).
Proof. intros El. rewrite <- (lsum_map f fst), (combine_fst gt l El). reflexivity. Qed.
Lemma lsum_snd (f : Z -> R) (gt l : list Z) : length l = length gt -> lsum f l = lsum (fun p => f (snd p)) (combine gt l).
Proof. intros El. rewrite <- (lsum_map f snd), (combine_snd gt l El). reflexivity. Qed.
Lemma mi_same_partition gt l : valid_labels gt l -> same_partition gt l ->
  mi_points gt l = entropy_points gt /\ entropy_points gt = entropy_points l.
Proof.
  intros Hv Hsp. pose proof Hv as (El & _ & _).
  assert (Hocc : forall p, In p (combine gt l) -> occ eqb2 p (combine gt l) = occ Z.eqb (fst p) gt /\ occ eqb2 p (combine gt l) = occ Z.eqb (snd p) l).
  { intros p Hp. rewrite <- (combine_fst gt l El) at 2. rewrite <- (combine_snd gt l El) at 4. split; symmetry.
    - apply (occ_map eqb2 Z.eqb fst p); auto using eqb2_ok, Zeqb_ok. intros q Hq E. destruct p, q; simpl in *. f_equal; auto.
      apply (Hsp _ _ Hp Hq). auto.
    - apply (occ_map eqb2 Z.eqb snd p); auto using eqb2_ok, Zeqb_ok. intros q Hq E. destruct p, q; simpl in *. f_equal; auto.
      apply (Hsp _ _ Hp Hq). auto. }
  unfold mi_points, entropy_points. rewrite <- El. split; f_equal.
  - rewrite (lsum_fst _ gt l El). apply lsum_ext. intros p Hp. f_equal.
    destruct (Hocc p Hp) as [E1 E2]. destruct (point_pos gt l p El Hp) as (HN & Hn & Ha & Hb).
    rewrite E2. field. split; lra.
  - rewrite (lsum_fst _ gt l El), (lsum_snd _ gt l El). apply lsum_ext. intros p Hp.
    destruct (Hocc p Hp) as [E1 E2]. rewrite <- E1, E2. reflexivity.
Qed.
Lemma nmi_one o1 o2 gt l : valid_labels gt l -> map_order o1 gt -> map_order o2 l -> same_partition gt l ->
  entropy_points gt <> 0 -> normalised_mutual_information o1 o2 gt l = Ok (Some 1).
Proof.
  intros Hv H1 H2 Hsp Hne. rewrite (nmi_code o1 o2 gt l Hv H1 H2). destruct (mi_same_partition gt l Hv Hsp) as [-> <-].
  replace ((entropy_points gt + entropy_points gt) / 2) with (entropy_points gt) by lra.
  destruct (Req_EM_T (entropy_points gt) 0); [tauto|]. f_equal. f_equal. now apply Rinv_r.
Qed.

(** ** symmetric_difference *)
Local Open Scope Z_scope.
Lemma sort_Z_sorted l : StronglySorted Z.le (stable_sort Z.ltb l).
Proof.
  assert (Hs : StronglySorted (stable_le Z.ltb (fun _ _ => True)) (stable_sort Z.ltb l)).
  { apply (stable_sort_sorted _ (fun _ => True)).
    - intros a b c _ _ _. rewrite !Z.ltb_lt. lia.
    - intros a b c _ _ _. rewrite !Z.ltb_lt. lia.
    - apply Forall_forall. auto.
    - induction l; constructor; auto. apply Forall_forall. auto. }
  induction Hs as [|x m Hs IH Hf]; constructor; auto. rewrite Forall_forall in *. intros y Hy.
  destruct (Hf y Hy) as [Hlt|[Hge _]]; [apply Z.ltb_lt in Hlt|apply Z.ltb_ge in Hge]; lia.
Qed.
Lemma uniq_spec l : StronglySorted Z.le l -> StronglySorted Z.lt (uniq l) /\ forall x, In x (uniq l) <-> In x l.
Proof.
  intros Hs. induction Hs as [|x l Hs [IH IHin] Hf]; simpl; [split; [constructor|tauto]|].
  destruct l as [|y l]; [split; [repeat constructor|simpl; tauto]|].
  inversion Hf as [|? ? Hxy Hxl]; subst. destruct (Z.eqb_spec x y) as [->|Hne].
  - split; auto. intros z. rewrite IHin. simpl. tauto.
  - split.
    + constructor; auto. apply Forall_forall. intros z Hz. apply IHin in Hz. inversion Hs as [|? ? Hs' Hfy]; subst.
      destruct Hz as [<-|Hz]; [lia|]. rewrite Forall_forall in Hfy. specialize (Hfy z Hz). lia.
    + intros z. change (x = z \/ In z (uniq (y :: l)) <-> x = z \/ In z (y :: l)). rewrite IHin. tauto.
Qed.
Lemma symdiff_spec : forall s t, StronglySorted Z.lt s -> StronglySorted Z.lt t ->
  StronglySorted Z.lt (symdiff s t) /\ forall x, In x (symdiff s t) <-> (In x s /\ ~ In x t) \/ (In x t /\ ~ In x s).
Proof.
  induction s as [|a s IHs].
  { intros t _ Ht. destruct t; simpl; (split; [auto|intros; simpl; tauto]). }
  induction t as [|b t IHt]; intros Hs Ht; [simpl; split; [auto|intros; simpl; tauto]|].
  inversion Hs as [|? ? Hs' Hfa]; subst. inversion Ht as [|? ? Ht' Hfb]; subst.
  pose proof (proj1 (Forall_forall _ _) Hfa) as Ha. pose proof (proj1 (Forall_forall _ _) Hfb) as Hb.
  change (symdiff (a :: s) (b :: t)) with (if a <? b then a :: symdiff s (b :: t) else if b <? a then b :: symdiff (a :: s) t else symdiff s t).
  destruct (Z.ltb_spec a b) as [Hab|Hab].
  - destruct (IHs (b :: t) Hs' Ht) as [S1 S2]. split.
    + constructor; auto. apply Forall_forall. intros z Hz. apply S2 in Hz. simpl in Hz.
      destruct Hz as [[Hz _]|[[<-|Hz] _]]; auto. specialize (Hb z Hz). lia.
    + intros x. cbn [In]. rewrite S2. cbn [In]. split.
      * intros [<-|[[Hx Hn]|[Hx Hn]]].
        -- left. split; auto. intros [E|E]; [lia|]. specialize (Hb a E). lia.
        -- left. tauto.
        -- right. split; auto. intros [<-|?]; [|tauto]. destruct Hx as [E|E]; [lia|]. specialize (Hb a E). lia.
      * intros [[[<-|Hx] Hn]|[Hx Hn]]; tauto.
  - destruct (Z.ltb_spec b a) as [Hba|Hba].
    + destruct (IHt Hs Ht') as [S1 S2]. split.
      * constructor; auto. apply Forall_forall. intros z Hz. apply S2 in Hz. simpl in Hz.
        destruct Hz as [[[<-|Hz] _]|[Hz _]]; auto. specialize (Ha z Hz). lia.
      * intros x. cbn [In]. rewrite S2. cbn [In]. split.
        -- intros [<-|[[Hx Hn]|[Hx Hn]]].
           ++ right. split; auto. intros [E|E]; [lia|]. specialize (Ha b E). lia.
           ++ left. split; auto. intros [<-|?]; [|tauto]. destruct Hx as [E|E]; [lia|]. specialize (Ha b E). lia.
           ++ right. tauto.
        -- intros [[Hx Hn]|[[<-|Hx] Hn]]; tauto.
    + assert (a = b) as -> by lia. destruct (IHs t Hs' Ht') as [S1 S2]. split; auto. intros x. rewrite S2. simpl. split.
      * intros [[Hx Hn]|[Hx Hn]]; [left|right]; (split; [auto|]); intros [<-|?]; try tauto;
          [specialize (Ha b Hx)|specialize (Hb b Hx)]; lia.
      * intros [[[<-|Hx] Hn]|[[<-|Hx] Hn]]; tauto.
Qed.
Lemma symmetric_difference_spec S T :
  StronglySorted Z.lt (symmetric_difference S T) /\
  forall x, In x (symmetric_difference S T) <-> (In x S /\ ~ In x T) \/ (In x T /\ ~ In x S).
Proof.
  unfold symmetric_difference.
  destruct (uniq_spec _ (sort_Z_sorted S)) as [S1 I1]. destruct (uniq_spec _ (sort_Z_sorted T)) as [S2 I2].
  destruct (symdiff_spec _ _ S1 S2) as [S3 I3]. split; auto. intros x. rewrite I3, I1, I2.
  assert (forall l, In x (stable_sort Z.ltb l) <-> In x l) as E.
  { intros l. pose proof (stable_sort_perm Z.ltb l) as P.
    split; intros Hx; [apply (Permutation_in x (Permutation_sym P) Hx)|apply (Permutation_in x P Hx)]. }
  rewrite !E. tauto.
Qed.
