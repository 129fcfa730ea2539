(** Proofs about the clustering metrics. *)
From Verif Require Import Base RSum Cluster Metrics ClusterSweep.
From Coq Require Import Reals Lra Sorting.Permutation Sorting.Sorted.

(** ** Specification vocabulary *)
(** Number of occurrences. *)
Definition occ {A} (eqb : A -> A -> bool) (x : A) (l : list A) : nat := length (filter (eqb x) l).
(** Number of pairs of positions p < q holding equal elements. *)
Fixpoint same_pairs {A} (eqb : A -> A -> bool) (l : list A) : nat :=
  match l with
  | [] => 0
  | x :: r => occ eqb x r + same_pairs eqb r
  end.
Definition eqb2 (p q : Z * Z) : bool := ((fst p =? fst q) && (snd p =? snd q))%Z.
Definition choose2 (n : nat) : nat := n * (n - 1) / 2.

Lemma choose2_S n : choose2 (S n) = n + choose2 n.
Proof.
  unfold choose2. destruct n as [|n]; [reflexivity|].
  replace (S (S n) * (S (S n) - 1)) with (S n * (S n - 1) + (S n) * 2) by (simpl; nia).
  rewrite Nat.div_add by lia. lia.
Qed.

Section Occ.
  Context {A : Type} (eqb : A -> A -> bool).
  Hypothesis eqb_ok : forall x y, eqb x y = true <-> x = y.

  Lemma occ_cons x y l : occ eqb x (y :: l) = (if eqb x y then 1 else 0) + occ eqb x l.
  Proof. unfold occ. simpl. destruct (eqb x y); reflexivity. Qed.
  Lemma eqb_refl' x : eqb x x = true.
  Proof. now apply eqb_ok. Qed.
  Lemma same_pairs_le l : same_pairs eqb l <= choose2 (length l).
  Proof.
    induction l as [|x l IH]; simpl; [unfold choose2; simpl; lia|]. rewrite choose2_S.
    assert (occ eqb x l <= length l); [|lia]. unfold occ. clear. induction l as [|y l IH]; simpl; [lia|]. destruct (eqb x y); simpl; lia.
  Qed.
  Lemma occ_le x l : occ eqb x l <= length l.
  Proof. unfold occ. clear. induction l as [|y l IH]; simpl; [lia|]. destruct (eqb x y); simpl; lia. Qed.

  (** Sum over any list of keys covering the elements. *)
  Definition nsum (f : A -> nat) (ks : list A) : nat := fold_right (fun k a => f k + a) 0 ks.
  Lemma nsum_plus f g ks : nsum (fun k => f k + g k) ks = nsum f ks + nsum g ks.
  Proof. induction ks as [|k ks IH]; simpl; auto. rewrite IH. lia. Qed.
  Lemma nsum_ext f g ks : (forall k, In k ks -> f k = g k) -> nsum f ks = nsum g ks.
  Proof. induction ks as [|k ks IH]; simpl; intros E; auto. Qed.
  Lemma nsum_0 ks : nsum (fun _ => 0) ks = 0.
  Proof. induction ks; simpl; auto. Qed.
  Lemma nsum_delta f x ks : NoDup ks -> In x ks -> nsum (fun k => if eqb k x then f k else 0) ks = f x.
  Proof.
    induction ks as [|k ks IH]; simpl; [tauto|]. intros Hn Hi. inversion Hn; subst. destruct (eqb k x) eqn:E.
    - apply eqb_ok in E. subst. rewrite (nsum_ext _ (fun _ => 0)).
      + rewrite nsum_0. lia.
      + intros k Hk. destruct (eqb k x) eqn:E; auto. apply eqb_ok in E. subst. tauto.
    - destruct Hi as [->|Hi]; [rewrite eqb_refl' in E; discriminate|]. rewrite IH; auto.
  Qed.
  Lemma nsum_choose2 l ks : NoDup ks -> incl l ks -> nsum (fun k => choose2 (occ eqb k l)) ks = same_pairs eqb l.
  Proof.
    intros Hn. induction l as [|x l IH]; intros Hi.
    - simpl. rewrite (nsum_ext _ (fun _ => 0)); [apply nsum_0|reflexivity].
    - simpl. rewrite <- IH by (intros y Hy; apply Hi; now right).
      rewrite <- (nsum_delta (fun k => occ eqb k l) x ks Hn) by (apply Hi; now left).
      rewrite <- nsum_plus. apply nsum_ext. intros k _. rewrite occ_cons.
      destruct (eqb k x); simpl plus; [now rewrite choose2_S|reflexivity].
  Qed.
  Lemma lsum_occ (f : A -> R) l ks : NoDup ks -> incl l ks -> lsum (fun k => INR (occ eqb k l) * f k)%R ks = lsum f l.
  Proof.
    intros Hn. induction l as [|x l IH]; intros Hi.
    - simpl. apply lsum_0. intros. simpl. lra.
    - cbn [lsum]. rewrite <- IH by (intros y Hy; apply Hi; now right).
      assert (E : f x = lsum (fun k => if eqb k x then f k else 0)%R ks).
      { assert (Hx : In x ks) by (apply Hi; now left). clear -Hn Hx eqb_ok.
        induction ks as [|k ks IH]; simpl in *; [tauto|]. inversion Hn; subst. destruct (eqb k x) eqn:E.
        - apply eqb_ok in E. subst. rewrite lsum_0; [lra|]. intros k Hk. destruct (eqb k x) eqn:E; auto.
          apply eqb_ok in E. subst. tauto.
        - destruct Hx as [->|Hx]; [rewrite eqb_refl' in E; discriminate|]. rewrite <- IH by auto. lra. }
      rewrite E, <- lsum_plus. apply lsum_ext. intros k _. rewrite occ_cons.
      destruct (eqb k x); rewrite plus_INR; simpl; lra.
  Qed.
  Lemma occ_pos x l : In x l -> 0 < occ eqb x l.
  Proof.
    intros Hi. induction l as [|y l IH]; [destruct Hi|]. rewrite occ_cons. destruct Hi as [->|Hi].
    - rewrite eqb_refl'. lia.
    - specialize (IH Hi). lia.
  Qed.
End Occ.

Lemma Zeqb_ok x y : Z.eqb x y = true <-> x = y.
Proof. apply Z.eqb_eq. Qed.
Lemma eqb2_ok p q : eqb2 p q = true <-> p = q.
Proof.
  unfold eqb2. rewrite andb_true_iff, !Z.eqb_eq. destruct p, q; simpl. split; [intros [-> ->]; auto|intros [= -> ->]; auto].
Qed.

(** Relating the numbers of equal pairs of two lists. *)
Lemma same_pairs_map {A B} (ea : A -> A -> bool) (eb : B -> B -> bool) (f : A -> B) l :
  (forall x y, ea x y = true <-> x = y) -> (forall x y, eb x y = true <-> x = y) ->
  (forall x y, In x l -> In y l -> f x = f y -> x = y) -> same_pairs eb (map f l) = same_pairs ea l.
Proof.
  intros Ha Hb. induction l as [|x l IH]; intros Hi; simpl; auto. rewrite IH by (intros; apply Hi; simpl; auto). f_equal.
  unfold occ. assert (Hx : forall y, In y l -> f x = f y -> x = y) by (intros; apply Hi; simpl; auto). clear IH Hi.
  induction l as [|y l IH]; simpl; auto.
  assert (eb (f x) (f y) = ea x y) as ->.
  { apply eq_true_iff_eq. rewrite Ha, Hb. split; [apply Hx; now left|now intros ->]. }
  destruct (ea x y); simpl; rewrite IH; auto; intros; apply Hx; simpl; auto.
Qed.
Lemma same_pairs_fst_le ps : same_pairs eqb2 ps <= same_pairs Z.eqb (map fst ps).
Proof.
  induction ps as [|p ps IH]; simpl; auto. assert (occ eqb2 p ps <= occ Z.eqb (fst p) (map fst ps)); [|lia].
  clear IH. unfold occ. induction ps as [|q ps IH]; simpl; auto. unfold eqb2 at 1. destruct (fst p =? fst q)%Z; simpl; [|auto].
  destruct (snd p =? snd q)%Z; simpl; lia.
Qed.
Lemma same_pairs_snd_le ps : same_pairs eqb2 ps <= same_pairs Z.eqb (map snd ps).
Proof.
  induction ps as [|p ps IH]; simpl; auto. assert (occ eqb2 p ps <= occ Z.eqb (snd p) (map snd ps)); [|lia].
  clear IH. unfold occ. induction ps as [|q ps IH]; simpl; auto. unfold eqb2 at 1. destruct (fst p =? fst q)%Z, (snd p =? snd q)%Z; simpl; lia.
Qed.
Lemma same_pairs_fst_eq ps : (forall p q, In p ps -> In q ps -> fst p = fst q -> snd p = snd q) ->
  same_pairs Z.eqb (map fst ps) = same_pairs eqb2 ps.
Proof.
  intros Hf. apply same_pairs_map; [apply eqb2_ok|apply Zeqb_ok|]. intros p q Hp Hq E.
  destruct p, q; simpl in *. f_equal; auto. apply (Hf _ _ Hp Hq E).
Qed.
Lemma same_pairs_swap ps : same_pairs eqb2 (map (fun p => (snd p, fst p)) ps) = same_pairs eqb2 ps.
Proof. apply same_pairs_map; try apply eqb2_ok. intros [] [] _ _ [= -> ->]. reflexivity. Qed.
Lemma combine_swap {A B} (a : list A) (b : list B) : combine b a = map (fun p => (snd p, fst p)) (combine a b).
Proof. revert b; induction a as [|x a IH]; intros [|y b]; simpl; auto. now rewrite IH. Qed.
Lemma combine_fst {A B} (a : list A) (b : list B) : length b = length a -> map fst (combine a b) = a.
Proof. revert b; induction a as [|x a IH]; intros [|y b]; simpl; try discriminate; auto. intros [= E]. now rewrite IH. Qed.
Lemma combine_snd {A B} (a : list A) (b : list B) : length b = length a -> map snd (combine a b) = b.
Proof. revert b; induction a as [|x a IH]; intros [|y b]; simpl; try discriminate; auto. intros [= E]. now rewrite IH. Qed.

(** ** The code computes occurrence counts *)
Lemma tbl_occ ps : forall t a b, fold_left tbl_inc ps t a b = (t a b + Z.of_nat (occ eqb2 (a, b) ps))%Z.
Proof.
  induction ps as [|p ps IH]; intros t a b; cbn [fold_left]; [simpl; lia|]. rewrite IH, occ_cons. unfold tbl_inc, eqb2 at 2. cbn [fst snd].
  destruct ((a =? fst p) && (b =? snd p))%Z; lia.
Qed.
Lemma sizes_occ l : forall s a, fold_left size_inc l s a = (s a + Z.of_nat (occ Z.eqb a l))%Z.
Proof.
  induction l as [|x l IH]; intros s a; cbn [fold_left]; [simpl; lia|]. rewrite IH, occ_cons. unfold size_inc.
  destruct (a =? x)%Z; lia.
Qed.
Lemma cluster_sizes_occ l a : cluster_sizes l a = Z.of_nat (occ Z.eqb a l).
Proof. unfold cluster_sizes. now rewrite sizes_occ. Qed.
Lemma scan_labels_spec l : forall k,
  (Forall (fun x => 0 <= x)%Z l /\ exists k', scan_labels k l = Ok k' /\ (k <= k')%Z /\ Forall (fun x => x < k')%Z l) \/
  (~ Forall (fun x => 0 <= x)%Z l /\ scan_labels k l = Throw InvalidArgument).
Proof.
  induction l as [|x l IH]; intros k; simpl.
  - left. split; auto. exists k. repeat split; auto. lia.
  - destruct (Z.ltb_spec x 0).
    + right. split; auto. intros Hf. inversion Hf; subst. lia.
    + destruct (IH (if (k - 1 <? x)%Z then (x + 1)%Z else k)) as [(Hf & k' & E & Hle & Hl)|(Hn & E)].
      * left. split; [constructor; auto|]. exists k'. split; auto.
        destruct (Z.ltb_spec (k - 1) x); split; try lia; constructor; auto; lia.
      * right. split; auto. intros Hf. inversion Hf; subst. tauto.
Qed.
Definition valid_labels (gt l : list Z) : Prop :=
  length l = length gt /\ Forall (fun x => 0 <= x)%Z gt /\ Forall (fun x => 0 <= x)%Z l.
Lemma upto_In k i : In i (upto k) <-> (0 <= i < k)%Z.
Proof.
  unfold upto. rewrite in_map_iff. split.
  - intros (j & <- & Hj). apply in_seq in Hj. lia.
  - intros Hi. exists (Z.to_nat i). split; [lia|]. apply in_seq. lia.
Qed.
Lemma upto_NoDup k : NoDup (upto k).
Proof. unfold upto. apply FinFun.Injective_map_NoDup; [intros x y E; lia|apply seq_NoDup]. Qed.
Lemma list_prod_NoDup {A B} (a : list A) (b : list B) : NoDup a -> NoDup b -> NoDup (list_prod a b).
Proof.
  intros Ha Hb. induction Ha as [|x a Hx Ha IH]; simpl; [constructor|].
  apply ClusterCC.nodup_app; auto.
  - apply FinFun.Injective_map_NoDup; auto. intros u v [= ->]. auto.
  - intros p Hp Hq. apply in_map_iff in Hp. destruct Hp as (y & <- & _). apply in_prod_iff in Hq. tauto.
Qed.
Lemma contingency_spec gt l :
  (valid_labels gt l /\ exists k t, contingency_table gt l = Ok (k, t) /\
     incl gt (upto k) /\ incl l (upto k) /\ incl (combine gt l) (list_prod (upto k) (upto k)) /\
     (forall i j, t i j = Z.of_nat (occ eqb2 (i, j) (combine gt l)))) \/
  (~ valid_labels gt l /\ contingency_table gt l = Throw InvalidArgument).
Proof.
  unfold contingency_table, valid_labels. destruct (Nat.eqb_spec (length l) (length gt)) as [El|El]; cbn [negb].
  2:{ right. split; [tauto|reflexivity]. }
  destruct (scan_labels_spec gt 1) as [(Hg & k1 & E1 & Hk1 & Hl1)|(Hn & ->)].
  2:{ right. split; [tauto|reflexivity]. }
  rewrite E1. cbn [obind]. destruct (scan_labels_spec l k1) as [(Hl & k2 & E2 & Hk2 & Hl2)|(Hn & ->)].
  2:{ right. split; [tauto|reflexivity]. }
  rewrite E2. cbn [obind]. left. split; auto. exists k2. eexists. split; [reflexivity|].
  rewrite Forall_forall in *.
  assert (I1 : incl gt (upto k2)).
  { intros x Hx. apply upto_In. specialize (Hg x Hx). specialize (Hl1 x Hx). simpl in *. lia. }
  assert (I2 : incl l (upto k2)).
  { intros x Hx. apply upto_In. specialize (Hl x Hx). specialize (Hl2 x Hx). simpl in *. lia. }
  split; auto. split; auto. split.
  - intros [x y] Hp. apply in_prod; [apply I1; eapply in_combine_l; eauto|apply I2; eapply in_combine_r; eauto].
  - intros i j. now rewrite tbl_occ.
Qed.

Definition max64 : Z := 9223372036854775807%Z.
Lemma i64_ok z : (0 <= z <= max64)%Z -> i64 z = Ok z.
Proof.
  unfold i64, max64. intros Hz.
  assert ((- 9223372036854775808 <=? z)%Z = true) as -> by (apply Z.leb_le; lia).
  assert ((z <=? 9223372036854775807)%Z = true) as -> by (apply Z.leb_le; lia). reflexivity.
Qed.
Lemma choose2_double n : n * (n - 1) = choose2 n * 2.
Proof.
  induction n as [|n IH]; [reflexivity|]. rewrite choose2_S. destruct n as [|n]; [reflexivity|]. simpl in *. nia.
Qed.
Lemma nChoose2_spec n : (Z.of_nat (n * (n - 1)) <= max64)%Z -> nChoose2 (Z.of_nat n) = Ok (Z.of_nat (choose2 n)).
Proof.
  intros Hb. unfold nChoose2. destruct (Z.ltb_spec (Z.of_nat n) 0); [lia|].
  destruct (Z.ltb_spec (Z.of_nat n) 2).
  - destruct n as [|[|n]]; try lia; reflexivity.
  - replace (Z.of_nat n * (Z.of_nat n - 1))%Z with (Z.of_nat (n * (n - 1))) by nia.
    rewrite i64_ok by lia. cbn [obind]. rewrite choose2_double, Nat2Z.inj_mul. now rewrite Z.div_mul by lia.
Qed.
Lemma choose2_mono a b : a <= b -> choose2 a <= choose2 b.
Proof. intros Hab. unfold choose2. apply Nat.div_le_mono; [lia|]. apply Nat.mul_le_mono; lia. Qed.
Lemma isum_ok {A} (f : A -> outcome Z) (h : A -> nat) (is : list A) : forall acc, (0 <= acc)%Z ->
  (forall i, In i is -> f i = Ok (Z.of_nat (h i))) -> (acc + Z.of_nat (nsum h is) <= max64)%Z ->
  isum f is acc = Ok (acc + Z.of_nat (nsum h is))%Z.
Proof.
  induction is as [|i is IH]; intros acc Ha Hf Hb; simpl in *; [f_equal; lia|].
  rewrite Hf by auto. cbn [obind]. rewrite i64_ok by lia. cbn [obind]. rewrite IH; auto; try lia. f_equal. lia.
Qed.

(** The largest number of points for which no intermediate product can overflow. *)
Definition ari_max_points : Z := 77936%Z.
Lemma choose2_bound n : (Z.of_nat n <= ari_max_points)%Z -> (Z.of_nat (choose2 n) <= 3036971080)%Z /\ (Z.of_nat (n * (n - 1)) <= max64)%Z.
Proof.
  unfold ari_max_points, max64. intros Hn. pose proof (choose2_double n) as E.
  assert (Z.of_nat (n * (n - 1)) <= 6073942160)%Z.
  { destruct n as [|n]; [simpl; lia|]. rewrite Nat2Z.inj_mul. replace (Z.of_nat (S n - 1)) with (Z.of_nat (S n) - 1)%Z by lia. nia. }
  split; [|lia]. rewrite E in H. rewrite Nat2Z.inj_mul in H. lia.
Qed.

Section Ari.
  Variables gt l : list Z.
  Hypothesis Hv : valid_labels gt l.
  (** Numbers of pairs of points together in both clusterings, in gt, in l; number of pairs. *)
  Definition pI : nat := same_pairs eqb2 (combine gt l).
  Definition pA : nat := same_pairs Z.eqb gt.
  Definition pB : nat := same_pairs Z.eqb l.
  Definition pT : nat := choose2 (length gt).

  Lemma pI_le : pI <= pA /\ pI <= pB /\ pA <= pT /\ pB <= pT.
  Proof.
    destruct Hv as (El & _ & _). unfold pI, pA, pB, pT. repeat split.
    - rewrite <- (combine_fst gt l El) at 2. apply same_pairs_fst_le.
    - rewrite <- (combine_snd gt l El) at 2. apply same_pairs_snd_le.
    - apply same_pairs_le.
    - rewrite <- El. apply same_pairs_le.
  Qed.

  Lemma ari_eval (Hsz : (Z.of_nat (length gt * (length gt - 1)) <= max64)%Z) :
    adjusted_rand_index gt l =
      do prod <- i64 (Z.of_nat (pA * pB));
      do sum <- i64 (Z.of_nat (pA + pB));
      Ok (odiv (osub (Some (INR pI)) (odiv (Some (IZR prod)) (Some (INR pT))))
               (osub (Some (IZR sum / 2)%R) (odiv (Some (IZR prod)) (Some (INR pT))))).
  Proof.
    unfold adjusted_rand_index. destruct (contingency_spec gt l) as [(_ & k & t & -> & Hg & Hl & Hp & Ht)|[Hn _]]; [|tauto].
    cbn [obind]. destruct Hv as (El & _ & _). pose proof pI_le as (HIA & HIB & HA & HB).
    pose proof (choose2_double (length gt)) as Hd.
    assert (Hmono : forall c, c <= length gt -> nChoose2 (Z.of_nat c) = Ok (Z.of_nat (choose2 c))).
    { intros c Hc. apply nChoose2_spec. eapply Z.le_trans; [|exact Hsz]. apply inj_le. apply Nat.mul_le_mono; lia. }
    assert (HTb : (Z.of_nat pT <= max64)%Z) by (unfold pT; lia).
    rewrite (isum_ok _ (fun ij => choose2 (occ eqb2 ij (combine gt l)))); [|lia| |].
    2:{ intros [i j] _. cbn [fst snd]. rewrite Ht. apply Hmono. eapply Nat.le_trans; [apply occ_le|]. rewrite combine_length. lia. }
    2:{ rewrite nsum_choose2; [|apply eqb2_ok|apply list_prod_NoDup; apply upto_NoDup|auto]. fold pI. lia. }
    rewrite nsum_choose2; [|apply eqb2_ok|apply list_prod_NoDup; apply upto_NoDup|auto]. fold pI. cbn [obind].
    rewrite (isum_ok _ (fun i => choose2 (occ Z.eqb i gt))); [|lia| |].
    2:{ intros i _. rewrite cluster_sizes_occ. apply Hmono. apply occ_le. }
    2:{ rewrite nsum_choose2; [|apply Zeqb_ok|apply upto_NoDup|auto]. fold pA. lia. }
    rewrite nsum_choose2; [|apply Zeqb_ok|apply upto_NoDup|auto]. fold pA. cbn [obind].
    rewrite (isum_ok _ (fun i => choose2 (occ Z.eqb i l))); [|lia| |].
    2:{ intros i _. rewrite cluster_sizes_occ. apply Hmono. rewrite <- El. apply occ_le. }
    2:{ rewrite nsum_choose2; [|apply Zeqb_ok|apply upto_NoDup|auto]. fold pB. lia. }
    rewrite nsum_choose2; [|apply Zeqb_ok|apply upto_NoDup|auto]. fold pB. cbn [obind].
    rewrite Hmono by auto. fold pT. cbn [obind]. rewrite !Z.add_0_l, !INR_IZR_INZ, Nat2Z.inj_mul, Nat2Z.inj_add. reflexivity.
  Qed.
  Lemma ari_small : (Z.of_nat (length gt) <= ari_max_points)%Z ->
    adjusted_rand_index gt l =
      Ok (odiv (osub (Some (INR pI)) (odiv (Some (INR pA * INR pB)%R) (Some (INR pT))))
               (osub (Some ((INR pA + INR pB) / 2)%R) (odiv (Some (INR pA * INR pB)%R) (Some (INR pT))))).
  Proof.
    intros Hn. destruct (choose2_bound _ Hn) as [Hc Hsz]. rewrite ari_eval by auto.
    destruct pI_le as (_ & _ & HA & HB). fold pT in Hc.
    rewrite i64_ok. 2:{ split; [lia|]. unfold max64. rewrite Nat2Z.inj_mul. nia. }
    cbn [obind]. rewrite i64_ok. 2:{ split; [lia|]. unfold max64. lia. }
    cbn [obind]. rewrite <- !INR_IZR_INZ, mult_INR, plus_INR. reflexivity.
  Qed.
End Ari.

Lemma ari_invalid gt l : ~ valid_labels gt l -> adjusted_rand_index gt l = Throw InvalidArgument.
Proof.
  intros Hn. unfold adjusted_rand_index. destruct (contingency_spec gt l) as [[? _]|[_ ->]]; [tauto|reflexivity].
Qed.
Lemma pI_sym gt l : pI gt l = pI l gt.
Proof. unfold pI. rewrite (combine_swap l gt). now rewrite same_pairs_swap. Qed.
Lemma valid_sym gt l : valid_labels gt l -> valid_labels l gt.
Proof. intros (? & ? & ?). repeat split; auto. Qed.
