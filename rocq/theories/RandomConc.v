(** Concentration for the random graph generators: most tapes give a graph whose cuts are close to their means. *)
From Verif Require Import Base Num RSum Sparse SparseFacts Graph GraphSpec GraphFacts GraphProps1 GraphProps2 RandomGraph RandomFacts RandomTop RandomTop2 RandomDist AsgLaw AsgConc.
From Coq Require Import Reals Lra Psatz Lia List Permutation.
Import ListNotations.
Local Open Scope nat_scope.

(** ** Vocabulary *)
(** All but a fraction delta of the N^m tapes satisfy Q. *)
Definition all_but (N m : nat) (delta : R) (Q : list nat -> Prop) : Prop :=
  exists S : list (list nat), NoDup S /\ (forall t, In t S -> is_tape N m t /\ Q t) /\ ((1 - delta) * INR N ^ m <= INR (length S))%R.
(** Sum over the pairs i < j < n. *)
Definition pair_sum (n : nat) (f : nat -> nat -> R) : R := rsum n (fun j => rsum j (fun i => f i j)).
(** Weight between the vertices in A and the vertices in B. *)
Definition cut_between (n : nat) (w : nat -> nat -> R) (A B : nat -> bool) : R :=
  rsum n (fun u => rsum n (fun v => if A u && B v then w u v else 0%R)).
Definition count (n : nat) (A : nat -> bool) : nat := length (filter A (seq 0 n)).

(** ** Averages over tapes *)
Definition tapes (N m : nat) : list (list nat) := choices (repeat (seq 0 N) m).
Definition unif (N : nat) (_ : nat) : R := (/ INR N)%R.
Definition Etape (N m : nat) (f : list nat -> R) : R := Eiid N (unif N) m f.
Definition indb (b : bool) : R := if b then 1%R else 0%R.
Lemma tapes_in N m t : In t (tapes N m) <-> is_tape N m t.
Proof.
  unfold tapes, is_tape. rewrite choices_in. revert t. induction m as [|m IH]; intros t; cbn [repeat].
  - split; [intros H; inversion H; split; auto|intros [L _]; destruct t; [constructor|discriminate]].
  - split.
    + intros H. inversion H; subst. apply IH in H4 as [L F]. split; [cbn; lia|]. constructor; auto. apply in_seq in H3. lia.
    + intros [L F]. destruct t as [|x t]; [discriminate|]. inversion F; subst. constructor; [apply in_seq; lia|]. apply IH. split; auto.
Qed.
Lemma tapes_nodup N m : NoDup (tapes N m).
Proof. apply choices_NoDup. apply Forall_forall. intros l Hl. apply repeat_spec in Hl. subst. apply seq_NoDup. Qed.
Lemma tapes_length N m : INR (length (tapes N m)) = (INR N ^ m)%R.
Proof. unfold tapes. rewrite choices_length. induction m as [|m IH]; cbn [repeat fold_right pow]; [reflexivity|]. now rewrite IH, seq_length. Qed.
Lemma lsum_filter_ind {A} (b : A -> bool) l : INR (length (filter b l)) = lsum (fun x => indb (b x)) l.
Proof. induction l as [|x l IH]; cbn [filter lsum]; [reflexivity|]. unfold indb at 1. destruct (b x); [cbn [length]; rewrite S_INR, IH; ring|rewrite IH; ring]. Qed.
Lemma Etape_tapes N m : 0 < N -> forall f, Etape N m f = (lsum f (tapes N m) / INR N ^ m)%R.
Proof.
  intros HN. assert (INR N <> 0)%R as NZ by (apply not_0_INR; lia). unfold Etape.
  induction m as [|m IH]; intros f; cbn [Eiid].
  - unfold tapes. cbn [repeat choices lsum pow]. field.
  - unfold tapes. cbn [repeat choices]. fold (tapes N m). rewrite lsum_flat_map. unfold Rdiv. rewrite <- lsum_scal_r. unfold rsum. apply lsum_ext. intros v _.
    rewrite IH. rewrite lsum_map. unfold unif. assert (INR N ^ m <> 0)%R by (now apply pow_nonzero). cbn [pow]. field. auto.
Qed.
Lemma unif_nonneg N v : (0 <= unif N v)%R.
Proof. unfold unif. destruct N; [cbn; rewrite Rinv_0; lra|]. left. apply Rinv_0_lt_compat. apply lt_0_INR. lia. Qed.
Lemma unif_sum N : 0 < N -> rsum N (unif N) = 1%R.
Proof. intros HN. unfold unif. rewrite rsum_const. apply Rinv_r. apply not_0_INR. lia. Qed.
Lemma Etape_mono N m f g : (forall t, is_tape N m t -> (f t <= g t)%R) -> (Etape N m f <= Etape N m g)%R.
Proof.
  intros H. apply Eiid_mono; [intros; apply unif_nonneg|]. intros s L K. apply H. split; auto. apply Forall_forall. auto.
Qed.
(** Failure with average at most delta: all but a fraction delta of the tapes are good. *)
Lemma all_but_intro N m delta (bad : list nat -> bool) (Q : list nat -> Prop) : 0 < N -> (Etape N m (fun t => indb (bad t)) <= delta)%R ->
  (forall t, is_tape N m t -> bad t = false -> Q t) -> all_but N m delta Q.
Proof.
  intros HN HE HQ. exists (filter (fun t => negb (bad t)) (tapes N m)). split; [apply NoDup_filter, tapes_nodup|]. split.
  - intros t Ht. apply filter_In in Ht as [Ht Hb]. apply tapes_in in Ht. split; auto. apply HQ; auto. now destruct (bad t).
  - rewrite lsum_filter_ind. rewrite Etape_tapes in HE by auto. assert (0 < INR N)%R as PN by (now apply lt_0_INR). pose proof (pow_lt _ m PN) as PP.
    assert (lsum (fun t => indb (bad t)) (tapes N m) <= delta * INR N ^ m)%R as H1.
    { apply (Rmult_le_compat_r (INR N ^ m)) in HE; [|lra]. unfold Rdiv in HE. rewrite Rmult_assoc, Rinv_l, Rmult_1_r in HE by lra. exact HE. }
    assert (lsum (fun t => indb (negb (bad t))) (tapes N m) + lsum (fun t => indb (bad t)) (tapes N m) = INR N ^ m)%R as H2.
    { rewrite <- lsum_plus, <- tapes_length. rewrite <- (Rmult_1_l (INR _)), <- lsum_const. apply lsum_ext. intros t _. unfold indb. destruct (bad t); cbn [negb]; ring. }
    lra.
Qed.
Lemma Etape_union {A} N m (b : A -> list nat -> bool) l : (Etape N m (fun t => indb (existsb (fun a => b a t) l)) <= lsum (fun a => Etape N m (fun t => indb (b a t))) l)%R.
Proof.
  induction l as [|a l IH]; cbn [existsb lsum].
  - apply Rle_trans with (Etape N m (fun _ => 0 * 0 + 0 * 0)%R); [apply Etape_mono; intros; unfold indb; lra|]. unfold Etape. rewrite (Eiid_lin N (unif N) m (fun _ => 0%R) (fun _ => 0%R) 0 0). lra.
  - apply Rle_trans with (Etape N m (fun t => 1 * indb (b a t) + 1 * indb (existsb (fun a => b a t) l))%R).
    + apply Etape_mono. intros t _. unfold indb. destruct (b a t), (existsb (fun a0 => b a0 t) l); cbn [orb]; lra.
    + unfold Etape. rewrite (Eiid_lin N (unif N) m (fun t => indb (b a t)) (fun t => indb (existsb (fun a => b a t) l)) 1 1). fold (Etape N m (fun t => indb (b a t))). unfold Etape in IH. lra.
Qed.
Lemma Etape_or N m b1 b2 : (Etape N m (fun t => indb (b1 t || b2 t)) <= Etape N m (fun t => indb (b1 t)) + Etape N m (fun t => indb (b2 t)))%R.
Proof.
  pose proof (Etape_union N m (fun (b : list nat -> bool) t => b t) [b1; b2]) as H. cbn [existsb lsum] in H.
  eapply Rle_trans; [|eapply Rle_trans; [exact H|]]; [|lra]. apply Etape_mono. intros t _. unfold indb. destruct (b1 t), (b2 t); cbn [orb]; lra.
Qed.
Lemma all_but_mono N m d d' (Q Q' : list nat -> Prop) : 0 < N -> (d <= d')%R -> (forall t, is_tape N m t -> Q t -> Q' t) -> all_but N m d Q -> all_but N m d' Q'.
Proof.
  intros HN Hd HQ (S & ND & Hin & L). exists S. split; auto. split; [intros t Ht; destruct (Hin t Ht); auto|].
  eapply Rle_trans; [|exact L]. apply Rmult_le_compat_r; [apply pow_le, pos_INR|lra].
Qed.

(** ** Chernoff bounds for the coins of a tape *)
Definition hit (N : nat) (p : R) (x : nat) : R := if Rlt_dec (INR x / INR N) p then 1%R else 0%R.
Definition chance (N : nat) (p : R) : R := (INR (below N p) / INR N)%R.
Lemma hit_mean N p : 0 < N -> rsum N (fun x => unif N x * hit N p x)%R = chance N p.
Proof.
  intros HN. unfold unif, chance, below. rewrite rsum_scal. unfold rsum. rewrite lsum_filter_ind. rewrite (lsum_ext _ (fun x => indb (if Rlt_dec (INR x / INR N) p then true else false))); [field; apply not_0_INR; lia|].
  intros x _. unfold hit, indb. now destruct (Rlt_dec _ _).
Qed.
Lemma Eiid_Eprod N p m : forall a f, Eiid N p m f = Eprod N (fun _ => p) 1 (seq a m) (fun smp => f (map (fun k => hd 0 (smp k)) (seq a m))).
Proof.
  induction m as [|m IH]; intros a f; cbn [Eiid seq Eprod map]; [reflexivity|]. apply rsum_ext. intros v _. f_equal. rewrite (IH (S a) (fun s => f (v :: s))).
  assert (forall is F G, (forall smp, F smp = G smp) -> Eprod N (fun _ => p) 1 is F = Eprod N (fun _ => p) 1 is G) as X by (intros; now apply Eprod_ext_fun).
  apply X. intros smp. rewrite Nat.eqb_refl. cbn [hd]. do 2 f_equal. apply map_ext_in. intros k Hk. apply in_seq in Hk. destruct (Nat.eqb_spec k a); [lia|reflexivity].
Qed.
Lemma rsum_seq_map (f : nat -> nat -> R) m (smp : nat -> list nat) : rsum m (fun k => f k (nth k (map (fun k => hd 0 (smp k)) (seq 0 m)) 0)) = lsum (fun k => f k (hd 0 (smp k))) (seq 0 m).
Proof.
  unfold rsum. apply lsum_ext. intros k Hk. apply in_seq in Hk. f_equal. now rewrite nth_map_seq by lia.
Qed.
Section Coins.
  Variables (N m : nat) (p c : nat -> R) (M T eps : R).
  Hypothesis HN : 0 < N.
  Hypothesis HM : (0 < M)%R.
  Hypothesis Hc : forall k, k < m -> (0 <= c k <= M)%R.
  Definition coins (t : list nat) : R := rsum m (fun k => c k * hit N (p k) (nth k t 0%nat))%R.
  Definition coins_mean : R := rsum m (fun k => c k * chance N (p k))%R.
  Let y (k x : nat) : R := (c k * hit N (p k) x)%R.
  Lemma y_bounds k v : In k (seq 0 m) -> v < N -> (0 <= y k v <= M)%R.
  Proof. intros Hk _. apply in_seq in Hk. unfold y, hit. specialize (Hc k ltac:(lia)). destruct (Rlt_dec _ _); lra. Qed.
  Lemma y_mean : coins_mean = (INR 1 * lsum (fun k => rsum N (fun v => unif N v * y k v)) (seq 0 m))%R.
  Proof.
    unfold coins_mean, rsum at 1. cbn [INR]. rewrite Rmult_1_l. apply lsum_ext. intros k _. unfold y.
    rewrite (rsum_ext N _ (fun v => c k * (unif N v * hit N (p k) v))%R) by (intros; ring). now rewrite rsum_scal, hit_mean.
  Qed.
  Lemma total_singletons smp : (forall k, In k (seq 0 m) -> length (smp k) = 1) -> total y (seq 0 m) smp = coins (map (fun k => hd 0 (smp k)) (seq 0 m)).
  Proof.
    intros H. unfold coins. transitivity (lsum (fun k => y k (hd 0 (smp k))) (seq 0 m)); [|symmetry; exact (rsum_seq_map y m smp)]. unfold total. apply lsum_ext. intros k Hk. specialize (H k Hk). destruct (smp k) as [|x [|x' l]]; try discriminate.
    cbn [lsum hd]. ring.
  Qed.
  Lemma Etape_coins (ev : R -> R) : (Etape N m (fun t => ev (coins t)) <= Eprod N (fun _ => unif N) 1 (seq 0 m) (fun smp => ev (total y (seq 0 m) smp)))%R.
  Proof.
    unfold Etape. rewrite (Eiid_Eprod N (unif N) m 0). apply Eprod_mono; [intros; apply unif_nonneg|apply seq_NoDup|]. intros smp H. rewrite total_singletons; [lra|]. intros k Hk. now apply H.
  Qed.
  Lemma coins_upper : (coins_mean <= T)%R -> (0 <= eps <= 1)%R ->
    (Etape N m (fun t => indb (if Rle_dec (coins_mean + eps * T) (coins t) then true else false)) <= exp (- (eps ^ 2 * T / (3 * M))))%R.
  Proof.
    intros HT He. set (z := (2 / 3 * eps)%R). assert (0 <= z <= 2 / 3)%R as Hz by (unfold z; lra). assert (0 <= z / M)%R as Hz2 by (apply Rmult_le_pos; [lra|left; now apply Rinv_0_lt_compat]).
    apply Rle_trans with (Etape N m (fun t => exp (- (z / M * (coins_mean + eps * T))) * exp (z / M * coins t))%R).
    - apply Etape_mono. intros t _. rewrite <- exp_plus. destruct (Rle_dec _ _) as [L|_]; [|left; apply exp_pos]. cbn [indb].
      rewrite <- exp_0 at 1. apply exp_mono. apply (Rmult_le_compat_l (z / M)) in L; auto. lra.
    - eapply Rle_trans; [apply (Etape_coins (fun v => exp (- (z / M * (coins_mean + eps * T))) * exp (z / M * v))%R)|].
      eapply Rle_trans; [apply (mgf N 1 (fun _ => unif N) y (seq 0 m) M coins_mean (seq_NoDup m 0)); auto|].
      + intros; apply unif_nonneg.
      + intros. now apply unif_sum.
      + exact y_bounds.
      + exact y_mean.
      + left. apply exp_pos.
      + rewrite <- exp_plus. apply exp_mono. pose proof (exp_above z Hz) as Ez. pose proof (exp_ineq1_le z) as El.
        assert (0 <= coins_mean)%R as Mn by (apply rsum_nonneg; intros k Hk; apply Rmult_le_pos; [now apply Hc|]; unfold chance; apply Rmult_le_pos; [apply pos_INR|apply (unif_nonneg N 0)]).
        replace (- (z / M * (coins_mean + eps * T)) + (exp z - 1) / M * coins_mean)%R with (/ M * (coins_mean * (exp z - 1 - z) - z * eps * T))%R by (field; lra).
        replace (- (eps ^ 2 * T / (3 * M)))%R with (/ M * (- (eps ^ 2 * T / 3)))%R by (field; lra). apply Rmult_le_compat_l; [left; now apply Rinv_0_lt_compat|].
        apply Rle_trans with (T * (3 / 4 * z ^ 2) - z * eps * T)%R; [|unfold z; lra].
        apply Rplus_le_compat_r. apply Rle_trans with (T * (exp z - 1 - z))%R; [apply Rmult_le_compat_r; lra|apply Rmult_le_compat_l; lra].
  Qed.
  Lemma coins_lower : (0 <= eps)%R ->
    (Etape N m (fun t => indb (if Rle_dec (coins t) ((1 - eps) * coins_mean) then true else false)) <= exp (- (eps ^ 2 * coins_mean / (2 * M))))%R.
  Proof.
    intros He. eapply Rle_trans; [apply (Etape_coins (fun v => indb (if Rle_dec v ((1 - eps) * coins_mean) then true else false)))|].
    eapply Rle_trans; [|apply (chernoff_lower N 1 (fun _ => unif N) y (seq 0 m) M coins_mean (seq_NoDup m 0)); auto].
    - right. apply Eprod_ext_fun. intros smp. now destruct (Rle_dec _ _).
    - intros; apply unif_nonneg.
    - intros. now apply unif_sum.
    - exact y_bounds.
    - exact y_mean.
  Qed.
End Coins.

(** ** Sums over pairs *)
Lemma pair_sum_canon n f : pair_sum n f = lsum (fun q => f (fst q) (snd q)) (canon n).
Proof. unfold pair_sum, canon, rsum at 1. rewrite lsum_flat_map. apply lsum_ext. intros j _. rewrite lsum_map. reflexivity. Qed.
Lemma rsum_pairs n (f : nat -> nat -> R) : rsum n (fun u => rsum n (f u)) = (pair_sum n (fun i j => f i j + f j i) + rsum n (fun i => f i i))%R.
Proof.
  unfold pair_sum. induction n as [|n IH]; [unfold rsum; cbn; lra|]. rewrite !rsum_S.
  rewrite (rsum_ext n (fun i => rsum (S n) (f i)) (fun i => rsum n (f i) + f i n)%R) by (intros; apply rsum_S). rewrite rsum_plus, IH, rsum_plus. lra.
Qed.
Lemma pair_sum_ext n f g : (forall i j, i < j -> j < n -> f i j = g i j) -> pair_sum n f = pair_sum n g.
Proof. intros H. apply rsum_ext. intros j Hj. apply rsum_ext. intros i Hi. now apply H. Qed.
Lemma pair_sum_le n f g : (forall i j, i < j -> j < n -> (f i j <= g i j)%R) -> (pair_sum n f <= pair_sum n g)%R.
Proof. intros H. apply rsum_le. intros j Hj. apply rsum_le. intros i Hi. now apply H. Qed.
Lemma between_pairs n w A B : (forall u v, u < n -> v < n -> w u v = w v u) -> (forall u, A u && B u = false) ->
  cut_between n w A B = pair_sum n (fun i j => (indb (A i && B j || A j && B i) * w i j)%R).
Proof.
  intros Sw D. unfold cut_between. rewrite rsum_pairs. rewrite (rsum_zero n (fun i => if A i && B i then w i i else 0%R)) by (intros; now rewrite D).
  rewrite Rplus_0_r. apply pair_sum_ext. intros i j Hi Hj. rewrite (Sw j i) by lia. pose proof (D i). pose proof (D j). unfold indb. destruct (A i), (A j), (B i), (B j); cbn [andb orb] in *; try discriminate; ring.
Qed.

(** ** Subsets *)
Fixpoint subsets (l : list nat) : list (list nat) := match l with [] => [[]] | a :: r => map (cons a) (subsets r) ++ subsets r end.
Lemma subsets_filter A l : In (filter A l) (subsets l).
Proof. induction l as [|a l IH]; cbn [filter subsets]; [now left|]. apply in_or_app. destruct (A a); [left; now apply in_map|now right]. Qed.
Lemma subsets_sum x l : lsum (fun s => x ^ length s)%R (subsets l) = ((1 + x) ^ length l)%R.
Proof.
  induction l as [|a l IH]; cbn [subsets length pow]; [cbn; ring|]. rewrite lsum_app, lsum_map. cbn [length pow]. rewrite lsum_scal, IH. ring.
Qed.
Lemma subsets_nonempty_sum x l : (lsum (fun s => match s with [] => 0 | _ => x ^ length s end) (subsets l) = (1 + x) ^ length l - 1)%R.
Proof.
  rewrite <- subsets_sum. induction l as [|a l IH]; cbn [subsets]; [cbn; ring|]. rewrite !lsum_app, !lsum_map, IH. lra.
Qed.
Lemma pow_exp x n : (0 <= x)%R -> ((1 + x) ^ n <= exp (INR n * x))%R.
Proof.
  intros Hx. induction n as [|n IH]; [cbn; rewrite Rmult_0_l, exp_0; lra|]. rewrite S_INR. cbn [pow].
  replace ((INR n + 1) * x)%R with (x + INR n * x)%R by ring. rewrite exp_plus. apply Rmult_le_compat; [lra|apply pow_le; lra|apply exp_ineq1_le|exact IH].
Qed.
Lemma exp_pow a k : exp (INR k * a) = (exp a ^ k)%R.
Proof. induction k as [|k IH]; [cbn; now rewrite Rmult_0_l, exp_0|]. rewrite S_INR. cbn [pow]. rewrite <- IH, <- exp_plus. f_equal. ring. Qed.
Definition mem (l : list nat) (v : nat) : bool := existsb (Nat.eqb v) l.
Lemma mem_filter A l v : mem (filter A l) v = mem l v && A v.
Proof.
  unfold mem. induction l as [|a l IH]; cbn [filter existsb]; [reflexivity|]. destruct (A a) eqn:E; cbn [existsb]; rewrite IH; destruct (Nat.eqb_spec v a) as [->|]; cbn [orb andb]; auto; rewrite E; cbn; auto. now rewrite Bool.andb_false_r.
Qed.
Lemma mem_in l v : mem l v = true <-> In v l.
Proof. unfold mem. rewrite existsb_exists. split; [intros (x & I & E); apply Nat.eqb_eq in E; now subst|intros I; exists v; split; auto; apply Nat.eqb_refl]. Qed.
Lemma count_rsum n A : INR (count n A) = rsum n (fun u => indb (A u)).
Proof. unfold count, rsum. apply lsum_filter_ind. Qed.
