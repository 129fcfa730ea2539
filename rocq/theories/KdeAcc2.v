(** Accuracy of the CKNS estimator: medians of independent copies, and the estimate of a copy as a sum over the data (C80). *)
From Verif Require Import Base Num RSum Cluster ClusterSweep ThreadPool ThreadPoolTop Kde KdeFacts KdeFacts2 KdeFacts3 KdeFacts4 KdeAcc1.
From Coq Require Import ZArith Permutation Reals Lra Sorted FinFun.
Local Open Scope nat_scope.

Lemma nth_skipn' {A} k i (l : list A) d : nth i (skipn k l) d = nth (k + i) l d.
Proof. revert l. induction k as [|k IH]; intros [|x l]; simpl; auto. destruct i; reflexivity. Qed.
Lemma nth_firstn' {A} k i (l : list A) d : i < k -> nth i (firstn k l) d = nth i l d.
Proof. revert i l. induction k as [|k IH]; intros i [|x l] L; simpl; auto; try lia. destruct i; auto. apply IH. lia. Qed.

(** ** K independent choices *)
Fixpoint tuples {A} (K : nat) (F : list A) : list (list A) :=
  match K with 0 => [[]] | S K' => flat_map (fun x => map (cons x) (tuples K' F)) F end.

Lemma tuples_spec {A} K (F : list A) t : In t (tuples K F) <-> length t = K /\ Forall (fun x => In x F) t.
Proof.
  revert t. induction K as [|K IH]; intros t; cbn [tuples].
  - split; [intros [<-|[]]; auto|]. intros [E _]. destruct t; [now left|discriminate].
  - rewrite in_flat_map. split.
    + intros (x & Ix & I). apply in_map_iff in I as (t' & <- & I). apply IH in I as [<- Ft]. split; auto.
    + intros [E Ft]. destruct t as [|x t]; [discriminate|]. inversion Ft; subst. exists x. split; auto. apply in_map. apply IH. split; auto.
Qed.

Section Amplify.
  Local Open Scope R_scope.
  Context {A : Type}.
  Variable F : list A.
  Variable bad : A -> bool.

  Definition wt (t : list A) : R := fold_right (fun x r => (if bad x then 16 else 1) * r) 1 t.

  Lemma wt_pos t : 0 < wt t.
  Proof. induction t as [|x t IH]; simpl; [lra|]. destruct (bad x); lra. Qed.

  Lemma wt_ge t : 16 ^ length (filter bad t) <= wt t.
  Proof. induction t as [|x t IH]; simpl; [lra|]. pose proof (wt_pos t). destruct (bad x); simpl; lra. Qed.

  Lemma wt_sum K : lsum wt (tuples K F) = lsum (fun x => if bad x then 16 else 1) F ^ K.
  Proof.
    induction K as [|K IH]; [simpl; lra|]. cbn [tuples]. rewrite lsum_flat_map. cbn [pow]. rewrite <- IH, <- lsum_scal_r. apply lsum_ext. intros x _.
    rewrite lsum_map. cbn [wt fold_right]. fold wt. now rewrite lsum_scal.
  Qed.

  Lemma bad_weight : lsum (fun x => if bad x then 16 else 1) F = INR (length F) + 15 * INR (length (filter bad F)).
  Proof. induction F as [|x L IH]; [simpl; lra|]. cbn [lsum filter]. rewrite IH. destruct (bad x); cbn [length]; rewrite ?S_INR; lra. Qed.

  (** At most a fraction 2^-K of the choices has a majority of bad components, if at most 1/16 of F is bad. *)
  Lemma amplify K : INR (length (filter bad F)) <= INR (length F) / 16 ->
    INR (length (filter (fun t => (K <=? 2 * length (filter bad t))%nat) (tuples K F))) <= (INR (length F) / 2) ^ K.
  Proof.
    intros H. set (Q := filter _ _). assert (INR (length Q) * 4 ^ K <= lsum wt (tuples K F)) as B.
    { unfold Q. generalize (tuples K F) as L. induction L as [|t L IH]; [simpl; lra|]. cbn [filter lsum]. pose proof (wt_pos t). destruct (Nat.leb_spec K (2 * length (filter bad t))) as [L1|L1]; [|lra].
      cbn [length]. rewrite S_INR. assert (4 ^ K <= wt t); [|lra]. eapply Rle_trans; [|apply wt_ge]. replace 16 with (4 ^ 2) by ring. rewrite <- pow_mult. apply Rle_pow; [lra|auto]. }
    rewrite wt_sum, bad_weight in B.
    assert ((INR (length F) + 15 * INR (length (filter bad F))) ^ K <= (2 * INR (length F)) ^ K) as C.
    { apply pow_incr. pose proof (pos_INR (length F)). pose proof (pos_INR (length (filter bad F))). lra. }
    apply (Rmult_le_reg_r (4 ^ K)); [apply pow_lt; lra|]. rewrite <- Rpow_mult_distr. replace (INR (length F) / 2 * 4) with (2 * INR (length F)) by field. lra.
  Qed.
End Amplify.

(** ** The median of the copies *)
Section Median.
  Local Open Scope R_scope.

  Lemma sortR (v : list R) : StronglySorted Rle (stable_sort wltb v).
  Proof. exact (sort_sorted (EN := ExactR) v). Qed.

  Lemma filter_length_perm {A} (p : A -> bool) l l' : Permutation l l' -> length (filter p l) = length (filter p l').
  Proof. induction 1; simpl; auto; repeat (destruct (p _); simpl); congruence || lia. Qed.
  Lemma filter_length_app {A} (p : A -> bool) l l' : length (filter p (l ++ l')) = (length (filter p l) + length (filter p l'))%nat.
  Proof. now rewrite filter_app, app_length. Qed.
  Lemma filter_all {A} (p : A -> bool) l : (forall x, In x l -> p x = true) -> length (filter p l) = length l.
  Proof. induction l as [|x l IH]; intros H; auto. simpl. rewrite (H x) by now left. simpl. rewrite IH; auto. intros; apply H; now right. Qed.

  Lemma sorted_nth (s : list R) i j : StronglySorted Rle s -> (i <= j < length s)%nat -> nth i s 0 <= nth j s 0.
  Proof.
    intros Ss. revert i j. induction Ss as [|x s Ss IH Fx]; intros i j L; [simpl in L; lia|]. destruct i as [|i], j as [|j]; simpl in *; try lia; try lra.
    - rewrite Forall_forall in Fx. apply Fx. apply nth_In. lia.
    - apply IH. lia.
  Qed.

  Lemma median_eq (v : list R) x : median v = Ok x -> (1 <= length v)%nat /\ x = nth (length v / 2) (stable_sort wltb v) 0.
  Proof. intros E. destruct v as [|y w]; [discriminate|]. split; [simpl; lia|]. assert (forall u u' : R, Ok u = Ok u' -> u = u') as I by (intros ? ? I; now injection I). symmetry. apply I. exact E. Qed.
  (** a median with property p (upwards or downwards closed) shares it with half of the values *)
  Lemma median_up (p : R -> bool) v x : (forall y z, y <= z -> p y = true -> p z = true) -> median v = Ok x -> p x = true -> (length v <= 2 * length (filter p v))%nat.
  Proof.
    intros U E Px. apply median_eq in E as [L0 ->]. pose proof (sortR v) as Ss. pose proof (stable_sort_perm wltb v) as P.
    rewrite (filter_length_perm p _ _ P), (Permutation_length P). set (s := stable_sort wltb v) in *. assert (length v = length s) as El by exact (Permutation_length P). rewrite El in Px.
    rewrite <- (firstn_skipn (length s / 2) s) at 2. rewrite filter_length_app. rewrite (filter_all p (skipn _ _)).
    - rewrite skipn_length. pose proof (Nat.div_mod (length s) 2 ltac:(lia)). pose proof (Nat.mod_upper_bound (length s) 2 ltac:(lia)). lia.
    - intros z Iz. apply (In_nth _ _ 0) in Iz as (i & Li & <-). rewrite skipn_length in Li. rewrite nth_skipn'. eapply U; [|exact Px]. apply sorted_nth; auto. lia.
  Qed.
  Lemma median_down (p : R -> bool) v x : (forall y z, y <= z -> p z = true -> p y = true) -> median v = Ok x -> p x = true -> (length v <= 2 * length (filter p v))%nat.
  Proof.
    intros U E Px. apply median_eq in E as [L0 ->]. pose proof (sortR v) as Ss. pose proof (stable_sort_perm wltb v) as P.
    rewrite (filter_length_perm p _ _ P), (Permutation_length P). set (s := stable_sort wltb v) in *. assert (length v = length s) as El by exact (Permutation_length P). rewrite El in Px.
    assert (1 <= length s)%nat as L1 by lia. pose proof (Nat.div_lt (length s) 2 ltac:(lia) ltac:(lia)) as Ld.
    rewrite <- (firstn_skipn (S (length s / 2)) s) at 2. rewrite filter_length_app. rewrite (filter_all p (firstn _ _)).
    - rewrite firstn_length. pose proof (Nat.div_mod (length s) 2 ltac:(lia)). pose proof (Nat.mod_upper_bound (length s) 2 ltac:(lia)). lia.
    - intros z Iz. apply (In_nth _ _ 0) in Iz as (i & Li & <-). rewrite firstn_length in Li. rewrite nth_firstn' by lia. eapply U; [|exact Px]. apply sorted_nth; auto. lia.
  Qed.

  Lemma median_in (v : list R) x : median v = Ok x -> In x v.
  Proof.
    intros E. apply median_eq in E as [L0 ->]. eapply Permutation_in; [symmetry; apply (stable_sort_perm wltb)|].
    apply nth_In. rewrite <- (Permutation_length (stable_sort_perm wltb v)). apply Nat.div_lt; lia.
  Qed.
  Lemma median_some (v : list R) : v <> [] -> exists x, median v = Ok x.
  Proof. intros N. destruct v; [congruence|]. unfold median. eauto. Qed.

  (** the median is at most a bound if fewer than half of the values exceed it *)
  Definition above (hi y : R) : bool := if Rle_dec y hi then false else true.
  Definition off (c t y : R) : bool := if Rle_dec (Rabs (y - c)) t then false else true.

  Lemma median_at_most v x hi : median v = Ok x -> (2 * length (filter (above hi) v) < length v)%nat -> x <= hi.
  Proof.
    intros E L. destruct (above hi x) eqn:D; [|unfold above in D; destruct (Rle_dec x hi); [auto|discriminate]]. exfalso.
    enough (length v <= 2 * length (filter (above hi) v))%nat by lia. apply median_up with x; auto.
    intros y z Lyz. unfold above. destruct (Rle_dec y hi); [discriminate|]. intros _. destruct (Rle_dec z hi); auto. exfalso. lra.
  Qed.
  Lemma filter_length_le {A} (p p' : A -> bool) l : (forall x, p x = true -> p' x = true) -> (length (filter p l) <= length (filter p' l))%nat.
  Proof. intros H. induction l as [|x l IH]; simpl; auto. destruct (p x) eqn:E; [rewrite (H x E); simpl; lia|]. destruct (p' x); simpl; lia. Qed.

  Lemma median_near v x c t : median v = Ok x -> (2 * length (filter (off c t) v) < length v)%nat -> Rabs (x - c) <= t.
  Proof.
    intros E L. assert (x <= c + t).
    { apply (median_at_most v x (c + t) E). eapply Nat.le_lt_trans; [|exact L]. apply Nat.mul_le_mono_l, filter_length_le. intros y. unfold above, off.
      destruct (Rle_dec y (c + t)); [discriminate|]. intros _. destruct (Rle_dec (Rabs (y - c)) t) as [H|]; auto. exfalso. pose proof (Rle_abs (y - c)). lra. }
    assert (c - t <= x).
    { set (p := fun y => if Rle_dec (c - t) y then false else true). destruct (p x) eqn:D; [|unfold p in D; destruct (Rle_dec (c - t) x); [auto|discriminate]]. exfalso.
      enough (length v <= 2 * length (filter (off c t) v))%nat by lia. transitivity (2 * length (filter p v))%nat.
      - apply median_down with x; auto. intros y z Lyz. unfold p. destruct (Rle_dec (c - t) z); [discriminate|]. intros _. destruct (Rle_dec (c - t) y); auto. exfalso. lra.
      - apply Nat.mul_le_mono_l, filter_length_le. intros y. unfold p, off. destruct (Rle_dec (c - t) y); [discriminate|]. intros _.
        destruct (Rle_dec (Rabs (y - c)) t) as [H'|]; auto. exfalso. pose proof (Rle_abs (- (y - c))). rewrite Rabs_Ropp in H0. lra. }
    apply Rabs_le. lra.
  Qed.
End Median.
