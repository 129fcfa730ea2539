(** Expected edge weights of approximate_similarity_graph (C77): the random draws of sample_neighbors (cluster.cpp:743-773) read as independent uniform numbers and binomial numbers. *)
From Verif Require Import Base Num RSum Sparse SparseFacts Graph GraphSpec GraphFacts GraphProps4 Cluster ClusterCC ClusterSpec ClusterSweep ClusterPR ClusterPR2 ThreadPool ThreadPoolFacts ThreadPoolTop Kde KdeFacts KdeFacts2 KdeFacts3 KdeFacts4 Props_Kde SimGraph SimGraphFacts SimGraphFacts2 SimGraphFacts3 SimGraphFacts4 SimGraphTop LshOffset.
From Coq Require Import ZArith Permutation Reals Lra Lia List.
From Coquelicot Require Import Coquelicot.
Import ListNotations.
Local Open Scope nat_scope.

(** ** Expectations *)
(** Expected value of a function of [num] independent uniform draws from [0,1]. *)
Fixpoint Eunif (num : nat) (f : list R -> R) : R :=
  match num with 0 => f [] | S m => RInt (V := R_CompleteNormedModule) (fun x => Eunif m (fun rs => f (x :: rs))) 0 1 end.
(** Expected value of a function of a binomial number: [n] trials with success probability [p]. *)
Definition Ebinom (n : nat) (p : R) (g : nat -> R) : R := rsum (S n) (fun k => (Binomial.C n k * p ^ k * (1 - p) ^ (n - k)) * g k)%R.

Section Expect.
  Variable a : R.
  Variable data : list (list R).
  (** The estimate of a node. *)
  Definition tw (t : ktree) (q : list R) : R := match tree_weight a data t q with Ok v => v | _ => 0%R end.
  (** Expected value of a function of the answer of sample_neighbors(q, num) at a node; cluster.cpp:743-773 with random draws in place of [tree_samples]'s arbitrary ones. *)
  Fixpoint Etree (t : ktree) (q : list R) (num : nat) (f : list nat -> R) : R :=
    match t with
    | Leaf lo hi => Eunif num (fun rs => f (sample_neighbors (leaf_kde a data lo hi) q (tw t q) rs))
    | Node lo hi est l r => Ebinom num (tw l q / (tw l q + tw r q)) (fun nl =>
        (if nl =? 0 then fun g => g [] else Etree l q nl) (fun ls =>
        (if nl <? num then Etree r q (num - nl) else fun g => g []) (fun rs => f (ls ++ rs))))
    end.

  (** Kernel value, and the part of the kernel value of v that the truncated total leaves. *)
  Definition kern (q : list R) (j : nat) : R := exp (- a * dist2 q (nth j data [])).
  Definition cum (lo : nat) (q : list R) (v : nat) : R := lsum (kern q) (seq lo (v - lo)).
  Definition kept (lo hi : nat) (q : list R) (v : nat) : R :=
    let d := tw (Leaf lo hi) q in if (lo <=? v) && (v <=? hi) then (Rmin (cum lo q (v + 1)) d - Rmin (cum lo q v) d)%R else 0%R.
  (** Probability that one sample of a node is v. *)
  Fixpoint prob (t : ktree) (q : list R) (v : nat) : R :=
    match t with
    | Leaf lo hi => if lo =? hi then (if v =? lo then 1 else 0)%R else (kept lo hi q v / tw t q)%R
    | Node lo hi est l r => (tw l q / (tw l q + tw r q) * prob l q v + tw r q / (tw l q + tw r q) * prob r q v)%R
    end.
End Expect.

(** ** Uniform draws *)
Lemma Eunif_sum (g : R -> R) L : is_RInt g 0 1 L -> forall num c (F : list R -> R),
  (forall rs, length rs = num -> (forall x, In x rs -> (0 < x < 1)%R) -> F rs = (c + lsum g rs)%R) -> Eunif num F = (c + INR num * L)%R.
Proof.
  intros HL. induction num as [|m IH]; intros c F HF.
  - cbn [Eunif]. rewrite HF by (auto; intros x []). cbn [lsum INR]. lra.
  - cbn [Eunif]. apply is_RInt_unique. apply (is_RInt_ext (V := R_NormedModule) (fun x => (c + INR m * L) + g x)%R).
    + rewrite Rmin_left, Rmax_right by lra. intros x Hx. rewrite (IH (c + g x)%R); [lra|]. intros rs Hl Hr.
      rewrite HF; [cbn [lsum]; lra|cbn [length]; now rewrite Hl|]. intros y [<-|I]; auto.
    + replace (c + INR (S m) * L)%R with ((1 - 0) * (c + INR m * L) + L)%R by (rewrite S_INR; ring).
      apply (is_RInt_plus (V := R_NormedModule)); [exact (is_RInt_const (V := R_NormedModule) 0 1 _)|exact HL].
Qed.
Lemma Eunif_ext num : forall F G, (forall rs, length rs = num -> (forall x, In x rs -> (0 < x < 1)%R) -> F rs = G rs) -> Eunif num F = Eunif num G.
Proof.
  induction num as [|m IH]; intros F G E; cbn [Eunif]; [apply E; auto; intros x []|].
  apply (RInt_ext (V := R_CompleteNormedModule)). rewrite Rmin_left, Rmax_right by lra. intros x Hx. apply IH. intros rs Hl Hr. apply E; [cbn [length]; now rewrite Hl|]. intros y [<-|I]; auto.
Qed.
(** ** Binomial numbers *)
Lemma Ebinom_ext n p f g : (forall k, k <= n -> f k = g k) -> Ebinom n p f = Ebinom n p g.
Proof. intros E. unfold Ebinom. apply rsum_ext. intros k Hk. rewrite E by lia. reflexivity. Qed.
(** The same by adding one trial at a time. *)
Fixpoint trials (n : nat) (p : R) (g : nat -> R) : R :=
  match n with 0 => g 0 | S n' => (p * trials n' p (fun k => g (S k)) + (1 - p) * trials n' p g)%R end.
Lemma C_edges n : Binomial.C n 0 = 1%R /\ Binomial.C n n = 1%R.
Proof.
  assert (INR (fact n) <> 0%R) as Hf by apply INR_fact_neq_0.
  unfold Binomial.C. rewrite Nat.sub_0_r, Nat.sub_diag. cbn [fact INR]. split; field; auto.
Qed.
Lemma rsum_first n f : rsum (S n) f = (f 0%nat + rsum n (fun k => f (S k)))%R.
Proof. unfold rsum. cbn [seq lsum]. rewrite <- seq_shift, lsum_map. reflexivity. Qed.
Lemma Ebinom_step n p g : Ebinom (S n) p g = (p * Ebinom n p (fun k => g (S k)) + (1 - p) * Ebinom n p g)%R.
Proof.
  unfold Ebinom. destruct n as [|n].
  - unfold rsum. cbn [seq lsum Nat.sub pow]. destruct (C_edges 0) as [A _], (C_edges 1) as [B D]. rewrite A, B, D. ring.
  - rewrite (rsum_S (S (S n))), rsum_first. rewrite (rsum_S (S n)) with (f := fun k => (Binomial.C (S n) k * p ^ k * (1 - p) ^ (S n - k) * g (S k))%R).
    rewrite (rsum_first (S n) (fun k => (Binomial.C (S n) k * p ^ k * (1 - p) ^ (S n - k) * g k)%R)).
    destruct (C_edges (S n)) as [A B], (C_edges (S (S n))) as [A' B']. rewrite A, B, A', B', !Nat.sub_diag, !Nat.sub_0_r.
    rewrite (rsum_ext (S n) (fun k => (Binomial.C (S (S n)) (S k) * p ^ S k * (1 - p) ^ (S (S n) - S k) * g (S k))%R)
      (fun k => p * (Binomial.C (S n) k * p ^ k * (1 - p) ^ (S n - k) * g (S k)) + (1 - p) * (Binomial.C (S n) (S k) * p ^ S k * (1 - p) ^ (S n - S k) * g (S k)))%R).
    + rewrite rsum_plus, !rsum_scal. cbn [pow]. ring.
    + intros k Hk. rewrite <- (pascal (S n) k) by lia. replace (S (S n) - S k) with (S n - k) by lia. replace (S n - k) with (S (S n - S k)) by lia. cbn [pow]. ring.
Qed.
Lemma Ebinom_trials n p : forall g, Ebinom n p g = trials n p g.
Proof.
  induction n as [|n IH]; intros g.
  - unfold Ebinom, rsum. cbn [seq lsum Nat.sub pow trials]. destruct (C_edges 0) as [A _]. rewrite A. ring.
  - rewrite Ebinom_step, !IH. reflexivity.
Qed.
Lemma Ebinom_affine n p c b : Ebinom n p (fun k => c + b * INR k)%R = (c + b * (INR n * p))%R.
Proof.
  rewrite Ebinom_trials. revert c. induction n as [|n IH]; intros c; [cbn [trials INR]; ring|].
  cbn [trials]. rewrite IH.
  assert (trials n p (fun k => c + b * INR (S k))%R = ((c + b) + b * (INR n * p))%R) as ->; [|rewrite S_INR; ring].
  rewrite <- IH. clear. assert (forall f g, (forall k, f k = g k) -> trials n p f = trials n p g) as Ext.
  { induction n as [|n IH]; intros f g E; cbn [trials]; [apply E|]. rewrite (IH f g E). now rewrite (IH (fun k => f (S k)) (fun k => g (S k))). }
  apply Ext. intros k. rewrite S_INR. ring.
Qed.

(** ** One leaf *)
Section Leaf.
  Variable a : R.
  Variable data : list (list R).
  Notation tw := (tw a data). Notation cum := (cum a data). Notation kern := (kern a data). Notation kept := (kept a data).

  Lemma kern_pos q j : (0 < kern q j)%R.
  Proof. apply exp_pos. Qed.
  Lemma cum_S lo q v : lo <= v -> cum lo q (v + 1) = (cum lo q v + kern q v)%R.
  Proof. intros L. unfold cum. replace (v + 1 - lo) with (v - lo + 1) by lia. rewrite seq_app, lsum_app. cbn [seq lsum]. replace (lo + (v - lo)) with v by lia. lra. Qed.
  Lemma cum_mono lo q u v : u <= v -> (cum lo q u <= cum lo q v)%R.
  Proof.
    intros L. induction L as [|v L IH]; [lra|]. apply Rle_trans with (1 := IH). destruct (Nat.le_gt_cases lo v) as [Hl|Hl].
    - rewrite <- Nat.add_1_r, cum_S by auto. pose proof (kern_pos q v). lra.
    - unfold cum. replace (v - lo) with 0 by lia. replace (S v - lo) with 0 by lia. lra.
  Qed.
  Lemma cum_0 lo q : cum lo q lo = 0%R.
  Proof. unfold cum. rewrite Nat.sub_diag. reflexivity. Qed.
  Lemma leaf_tw lo hi q : lo <= hi -> tw (Leaf lo hi) q = (IZR (Z.of_nat (hi - lo)) * (cum lo q (hi + 1) / IZR (Z.of_nat (hi + 1 - lo))))%R.
  Proof. intros L. unfold tw. cbn [tree_weight]. now rewrite leaf_weight_R. Qed.
  Lemma leaf_tw_range lo hi q : lo <= hi -> (0 <= tw (Leaf lo hi) q < cum lo q (hi + 1))%R /\ (lo < hi -> (0 < tw (Leaf lo hi) q)%R).
  Proof. intros L. exact (leaf_weight_range data a lo hi q L). Qed.

  (** The draws that give v. *)
  Definition hit (lo : nat) (q : list R) (v : nat) (t : R) : R := if Rle_dec (cum lo q v) t then if Rlt_dec t (cum lo q (v + 1)) then 1%R else 0%R else 0%R.
  Lemma leaf_count lo hi q d rs v : lo <= hi < length data -> (0 <= d < cum lo q (hi + 1))%R -> (forall x, In x rs -> (0 <= x < 1)%R) -> lo <= v <= hi ->
    occurrences v (sample_neighbors (leaf_kde a data lo hi) q d rs) = lsum (fun r => hit lo q v (d * r)) rs.
  Proof.
    intros Hh Hd Hr Hv. unfold leaf_kde.
    destruct (C52_samples data a lo (hi + 1) q d rs ltac:(lia) ltac:(lra) ltac:(intros x I; specialize (Hr x I); lra)) as (ts & P & _ & F).
    fold (kern q) in F. fold (cum lo q (hi + 1)) in F. rewrite filter_id in F.
    - transitivity (lsum (hit lo q v) (map (fun r => d * r)%R rs)); [|now rewrite lsum_map]. rewrite <- (lsum_perm _ _ _ P). rewrite occ_lsum.
      assert (forall t, In t ts -> (0 <= t)%R) as Hpos.
      { intros t I. apply (Permutation_in _ P) in I. apply in_map_iff in I as (r & <- & I). specialize (Hr r I). apply Rmult_le_pos; lra. }
      clear P. induction F as [|t x ts' xs (B & Ht & Hy) F IH]; [reflexivity|]. cbn [lsum]. rewrite IH by (intros; apply Hpos; now right). f_equal.
      fold (kern q) in Ht. fold (cum lo q (x + 1)) in Ht.
      assert (forall y, lo <= y < x -> (cum lo q (y + 1) <= t)%R) as Hy' by (intros y I; exact (Hy y I)).
      unfold hit. destruct (Nat.eqb_spec x v) as [->|N].
      + destruct (Rle_dec (cum lo q v) t) as [_|C]; [destruct (Rlt_dec t (cum lo q (v + 1))); [auto|tauto]|]. exfalso. apply C.
        destruct (Nat.eq_dec v lo) as [->|]; [rewrite cum_0; apply Hpos; now left|specialize (Hy' (v - 1) ltac:(lia)); now replace (v - 1 + 1) with v in Hy' by lia].
      + destruct (Rle_dec (cum lo q v) t) as [C|]; auto. destruct (Rlt_dec t (cum lo q (v + 1))) as [D|]; auto. exfalso.
        destruct (Nat.lt_gt_cases x v) as [[Lt|Gt] _]; auto.
        * pose proof (cum_mono lo q (x + 1) v ltac:(lia)). lra.
        * specialize (Hy' v ltac:(lia)). lra.
    - intros t I. apply (Permutation_in _ P) in I. apply in_map_iff in I as (r & <- & I). specialize (Hr r I). destruct (Rlt_dec _ _) as [|N]; auto. exfalso. apply N.
      apply Rle_lt_trans with d; [|fold (kern q); fold (cum lo q (hi + 1)); lra]. rewrite <- (Rmult_1_r d) at 2. apply Rmult_le_compat_l; lra.
  Qed.
  Lemma hit_integral lo q v d : (0 < d)%R -> lo <= v ->
    is_RInt (fun r => hit lo q v (d * r)) 0 1 ((Rmin (cum lo q (v + 1)) d - Rmin (cum lo q v) d) / d)%R.
  Proof.
    intros Hd Hv. pose proof (cum_mono lo q v (v + 1) ltac:(lia)) as Hm.
    assert (0 <= cum lo q v)%R as H0 by (unfold cum; apply lsum_nonneg; intros; left; apply exp_pos).
    set (A := cum lo q v) in *. set (B := cum lo q (v + 1)) in *.
    set (p := (Rmin A d / d)%R). set (p' := (Rmin B d / d)%R).
    assert (p * d = Rmin A d)%R as Ep by (unfold p; field; lra). assert (p' * d = Rmin B d)%R as Ep' by (unfold p'; field; lra).
    assert (0 <= p)%R by (apply Rmult_le_pos; [unfold Rmin; destruct (Rle_dec A d); lra|left; now apply Rinv_0_lt_compat]).
    assert (p <= p')%R by (apply Rmult_le_compat_r; [left; now apply Rinv_0_lt_compat|unfold Rmin; destruct (Rle_dec A d), (Rle_dec B d); lra]).
    assert (p' <= 1)%R by (apply (Rmult_le_reg_r d); [auto|]; rewrite Ep'; pose proof (Rmin_r B d); lra).
    replace ((Rmin B d - Rmin A d) / d)%R with (p * 0 + (p' - p) * 1 + (1 - p') * 0)%R by (unfold p, p'; field; lra).
    apply is_RInt_three; auto; intros x Hx; unfold hit; fold A B.
    - destruct (Rle_dec A (d * x)) as [C|]; auto. exfalso. assert (x * d < p * d)%R by (apply Rmult_lt_compat_r; lra). pose proof (Rmin_l A d). lra.
    - assert (p * d < x * d < p' * d)%R as [X1 X2] by (split; apply Rmult_lt_compat_r; lra).
      assert (x * d < d)%R by (rewrite <- (Rmult_1_l d) at 2; apply Rmult_lt_compat_r; lra).
      destruct (Rle_dec A (d * x)) as [C|C]; [|exfalso; apply C; rewrite Ep in X1; unfold Rmin in X1; destruct (Rle_dec A d); lra].
      destruct (Rlt_dec (d * x) B) as [D|D]; [auto|]. exfalso. apply D. pose proof (Rmin_l B d). lra.
    - assert (p' * d < x * d)%R as X1 by (apply Rmult_lt_compat_r; lra). assert (x * d < 1 * d)%R as X2 by (apply Rmult_lt_compat_r; lra).
      destruct (Rle_dec A (d * x)) as [C|]; auto. destruct (Rlt_dec (d * x) B) as [D|]; auto. exfalso. rewrite Ep' in X1. unfold Rmin in X1. destruct (Rle_dec B d); lra.
  Qed.
  (** Every vertex is hit by the draws of a set of measure [prob]. *)
  Lemma leaf_indicator lo hi q v : lo <= hi < length data -> exists g, is_RInt g 0 1 (prob a data (Leaf lo hi) q v) /\
    forall rs, (forall x, In x rs -> (0 < x < 1)%R) -> occurrences v (sample_neighbors (leaf_kde a data lo hi) q (tw (Leaf lo hi) q) rs) = lsum g rs.
  Proof.
    intros Hh. cbn [prob]. destruct (leaf_tw_range lo hi q ltac:(lia)) as [Hd Hd1]. set (d := tw (Leaf lo hi) q) in *.
    destruct (Nat.le_gt_cases lo v) as [Lv|Lv]; [destruct (Nat.le_gt_cases v hi) as [Lh|Lh]|].
    - exists (fun r => hit lo q v (d * r)). split; [|intros rs Hr; apply leaf_count; auto; intros x I; specialize (Hr x I); lra].
      destruct (Nat.eqb_spec lo hi) as [E|E].
      + assert (v = lo) as -> by lia. rewrite Nat.eqb_refl. assert (d = 0%R) as Ed by (unfold d; rewrite leaf_tw by lia; subst hi; rewrite Nat.sub_diag; cbn [Z.of_nat]; lra).
        replace 1%R with ((1 - 0) * 1)%R at 2 by ring. apply is_RInt_cst_on; [lra|]. intros x Hx. unfold hit. rewrite Ed, Rmult_0_l, cum_0. rewrite cum_S, cum_0 by lia. pose proof (kern_pos q lo).
        destruct (Rle_dec 0 0); [|lra]. destruct (Rlt_dec 0 (0 + kern q lo)); lra.
      + unfold kept. fold d. apply Nat.leb_le in Lv as Lv', Lh as Lh'. rewrite Lv', Lh'. cbn [andb]. apply (hit_integral lo q v d); auto. apply Hd1. lia.
    - exists (fun _ => 0%R). split.
      + assert ((if lo =? hi then if v =? lo then 1 else 0 else kept lo hi q v / d)%R = ((1 - 0) * 0)%R) as ->; [|apply is_RInt_cst_on; [lra|auto]].
        unfold kept. destruct (Nat.leb_spec v hi); [lia|]. rewrite andb_false_r. destruct (lo =? hi); [destruct (Nat.eqb_spec v lo); [lia|ring]|unfold Rdiv; ring].
      + intros rs Hr. destruct (leaf_samples data a lo hi q d rs Hh Hd) as [_ L2]; [intros x I; specialize (Hr x I); lra|].
        rewrite occ_lsum. rewrite !lsum_0; auto. intros x I. apply L2 in I. destruct (Nat.eqb_spec x v); [lia|auto].
    - exists (fun _ => 0%R). split.
      + assert ((if lo =? hi then if v =? lo then 1 else 0 else kept lo hi q v / d)%R = ((1 - 0) * 0)%R) as ->; [|apply is_RInt_cst_on; [lra|auto]].
        unfold kept. destruct (Nat.leb_spec lo v); [lia|]. cbn [andb]. destruct (lo =? hi); [destruct (Nat.eqb_spec v lo); [lia|ring]|unfold Rdiv; ring].
      + intros rs Hr. destruct (leaf_samples data a lo hi q d rs Hh Hd) as [_ L2]; [intros x I; specialize (Hr x I); lra|].
        rewrite occ_lsum. rewrite !lsum_0; auto. intros x I. apply L2 in I. destruct (Nat.eqb_spec x v); [lia|auto].
  Qed.
  Lemma leaf_expect lo hi q u v al be num c (f : list nat -> R) : lo <= hi < length data ->
    (forall s, length s = num -> (forall k, In k s -> lo <= k <= hi) -> f s = (c + (al * occurrences v s + be * occurrences u s))%R) ->
    Etree a data (Leaf lo hi) q num f = (c + INR num * (al * prob a data (Leaf lo hi) q v + be * prob a data (Leaf lo hi) q u))%R.
  Proof.
    intros Hh Hf. destruct (leaf_tw_range lo hi q ltac:(lia)) as [Hd _].
    destruct (leaf_indicator lo hi q v Hh) as (g1 & I1 & E1). destruct (leaf_indicator lo hi q u Hh) as (g2 & I2 & E2). cbn [Etree].
    apply (Eunif_sum (fun x => al * g1 x + be * g2 x)%R).
    - apply (is_RInt_plus (V := R_NormedModule)); apply (is_RInt_scal (V := R_NormedModule)); auto.
    - intros rs Hl Hr. destruct (leaf_samples data a lo hi q (tw (Leaf lo hi) q) rs Hh Hd) as [L1 L2]; [intros x I; specialize (Hr x I); lra|].
      rewrite Hf by (auto; lia). rewrite E1, E2 by auto. rewrite lsum_plus, !lsum_scal. reflexivity.
  Qed.
End Leaf.

(** ** Trees *)
Section Tree.
  Variable T : nat.
  Variable a : R.
  Variable data : list (list R).
  Variable dc nc : Z.
  Hypothesis HT : 1 <= T.
  Hypothesis Ha : (0 < a)%R.
  Hypothesis Hnc : (2 <= nc)%Z.
  Notation build := (build T a data dc nc).
  Notation tw := (tw a data). Notation no_zero := (no_zero a data).

  Lemma occ_app v l l' : occurrences v (l ++ l') = (occurrences v l + occurrences v l')%R.
  Proof. unfold occurrences. now rewrite count_occ_app, plus_INR. Qed.
  Lemma tw_ok depth lo hi t q : build depth lo hi t -> lo <= hi -> tree_weight a data t q = Ok (tw t q) /\ (0 <= tw t q)%R.
  Proof. intros B L. destruct (tree_weight_ok T a data dc nc HT Ha Hnc _ _ _ _ B L q) as (v & E & Hv). unfold SimExpect.tw. rewrite E. auto. Qed.

  Lemma tree_expect depth lo hi t q u v al be : build depth lo hi t -> lo <= hi < length data -> no_zero t q -> forall num c (f : list nat -> R),
    (forall s, length s = num -> (forall k, In k s -> lo <= k <= hi) -> f s = (c + (al * occurrences v s + be * occurrences u s))%R) ->
    Etree a data t q num f = (c + INR num * (al * prob a data t q v + be * prob a data t q u))%R.
  Proof.
    intros B. induction B as [depth lo hi L|depth lo hi est l r L E Bl IHl Br IHr]; intros Hle Nz num c f Hf.
    - now apply leaf_expect.
    - cbn [SimGraphFacts4.no_zero] in Nz. destruct Nz as (Nz & Nl & Nr).
      pose proof (Nat.div_mod (lo + hi) 2 ltac:(lia)). pose proof (Nat.mod_upper_bound (lo + hi) 2 ltac:(lia)).
      destruct (tw_ok _ _ _ _ q Bl ltac:(lia)) as [Ex Hx]. destruct (tw_ok _ _ _ _ q Br ltac:(lia)) as [Ey Hy]. specialize (Nz _ _ Ex Ey).
      cbn [Etree prob]. set (x := tw l q) in *. set (y := tw r q) in *.
      set (Pl := (al * prob a data l q v + be * prob a data l q u)%R) in *. set (Pr := (al * prob a data r q v + be * prob a data r q u)%R) in *.
      rewrite (Ebinom_ext num (x / (x + y)) _ (fun nl => (c + INR num * Pr) + (Pl - Pr) * INR nl)%R).
      + rewrite Ebinom_affine. unfold Pl, Pr. field. exact Nz.
      + intros nl Hnl.
        assert (forall ls, length ls = nl -> (forall k, In k ls -> lo <= k <= (lo + hi) / 2) ->
          (if nl <? num then Etree a data r q (num - nl) else fun g => g []) (fun rs => f (ls ++ rs)) = ((c + INR (num - nl) * Pr) + (al * occurrences v ls + be * occurrences u ls))%R) as HR.
        { intros ls Hl Hk. destruct (Nat.ltb_spec nl num) as [Lt|Ge].
          - rewrite (IHr ltac:(lia) Nr (num - nl) (c + (al * occurrences v ls + be * occurrences u ls))%R).
            + fold Pr. ring.
            + intros rs Hl' Hk'. rewrite Hf; [rewrite !occ_app; ring|rewrite app_length; lia|]. intros k I. apply in_app_or in I as [I|I]; [apply Hk in I|apply Hk' in I]; lia.
          - rewrite app_nil_r. rewrite Hf; [|lia|intros k I; apply Hk in I; lia]. replace (num - nl) with 0 by lia. cbn [INR]. ring. }
        replace (c + INR num * Pr + (Pl - Pr) * INR nl)%R with ((c + INR (num - nl) * Pr) + INR nl * Pl)%R by (rewrite minus_INR by lia; ring).
        destruct (Nat.eqb_spec nl 0) as [->|Hn0].
        * rewrite HR by (auto; intros k []). unfold occurrences. cbn [count_occ INR]. ring.
        * unfold Pl. apply (IHl ltac:(lia) Nl nl (c + INR (num - nl) * Pr)%R). exact HR.
  Qed.

  (** The expectation only looks at answers that [tree_samples] allows. *)
  Lemma tree_support (unif : R -> Prop) H i : (forall x, (0 < x < 1)%R -> unif x) -> (forall t i v, In (t, i, v) H -> tree_weight a data t (nth i data []) = Ok v) ->
    forall depth lo hi t, build depth lo hi t -> lo <= hi < length data -> no_zero t (nth i data []) -> forall num (f g : list nat -> R),
    (forall s, tree_samples unif a data H t i num (Ok s) -> f s = g s) ->
    Etree a data t (nth i data []) num f = Etree a data t (nth i data []) num g.
  Proof.
    intros Hu HH depth lo hi t B. induction B as [depth lo hi L|depth lo hi est l r L E Bl IHl Br IHr]; intros Hle Nz num f g Hf.
    - cbn [Etree]. apply Eunif_ext. intros rs Hl Hr. apply Hf. cbn [tree_samples]. exists rs, (Ok (tw (Leaf lo hi) (nth i data []))).
      split; auto. split; [auto|]. split; [|reflexivity]. destruct (ev_exists a data H (Leaf lo hi) i) as [o Eo].
      pose proof (ev_ok a data H HH _ _ _ Eo) as ->. destruct (tw_ok depth lo hi (Leaf lo hi) (nth i data []) ltac:(now constructor) ltac:(lia)) as [Ew _]. now rewrite Ew in Eo.
    - cbn [SimGraphFacts4.no_zero] in Nz. destruct Nz as (Nz & Nl & Nr).
      pose proof (Nat.div_mod (lo + hi) 2 ltac:(lia)). pose proof (Nat.mod_upper_bound (lo + hi) 2 ltac:(lia)).
      destruct (tw_ok _ _ _ _ (nth i data []) Bl ltac:(lia)) as [Ex Hx]. destruct (tw_ok _ _ _ _ (nth i data []) Br ltac:(lia)) as [Ey Hy]. specialize (Nz _ _ Ex Ey).
      cbn [Etree]. apply Ebinom_ext. intros nl Hnl.
      assert (forall ls, (if nl =? 0 then Ok ls = Ok [] else tree_samples unif a data H l i nl (Ok ls)) ->
        (if nl <? num then Etree a data r (nth i data []) (num - nl) else fun g => g []) (fun rs => f (ls ++ rs)) =
        (if nl <? num then Etree a data r (nth i data []) (num - nl) else fun g => g []) (fun rs => g (ls ++ rs))) as HR.
      { intros ls Hls.
        assert (forall rs, (if nl <? num then tree_samples unif a data H r i (num - nl) (Ok rs) else Ok rs = Ok []) -> f (ls ++ rs) = g (ls ++ rs)) as Hrs.
        { intros rs Hrs. apply Hf. cbn [tree_samples]. destruct (ev_exists a data H l i) as [o1 E1]. destruct (ev_exists a data H r i) as [o2 E2].
          exists o1, o2, nl, (Ok ls), (Ok rs). split; auto. split; auto. split; auto. split; auto. split; auto.
          rewrite (ev_ok a data H HH _ _ _ E1), (ev_ok a data H HH _ _ _ E2), Ex, Ey. cbn [obind]. now rewrite binomial_ok_R by auto. }
        destruct (nl <? num); [|now apply Hrs]. apply IHr; auto. lia. }
      destruct (nl =? 0); [now apply HR|]. apply IHl; auto. lia.
  Qed.
End Tree.

(** ** All vertices *)
(** Expected value of a function of the samples of the vertices [is], drawn independently, two for each. *)
Fixpoint Eall (a : R) (data : list (list R)) (t : ktree (W := R)) (is : list nat) (F : (nat -> list nat) -> R) : R :=
  match is with
  | [] => F (fun _ => [])
  | i :: is' => Etree a data t (nth i data []) 2 (fun s => Eall a data t is' (fun smp => F (fun j => if j =? i then s else smp j)))
  end.
(** The leaf that holds row v, for up to twice the node cutoff. *)
Definition leaf_of (nc : Z) (n v : nat) : nat * nat :=
  if (Z.of_nat (n - 1) <? nc)%Z then (0, n - 1) else if v <=? (n - 1) / 2 then (0, (n - 1) / 2) else ((n - 1) / 2 + 1, n - 1).

Section All.
  Variable T : nat.
  Variable a : R.
  Variable data : list (list R).
  Variable nc : Z.
  Hypothesis HT : 1 <= T.
  Hypothesis Ha : (0 < a)%R.
  Hypothesis Hnc : (2 <= nc)%Z.
  Hypothesis Hn : 2 <= length data.
  Notation n := (length data).
  Notation build := (build T a data 0 nc).
  Variable t : ktree (W := R).
  Hypothesis B : build 0 0 (n - 1) t.
  Hypothesis Nz : forall q, no_zero a data t q.
  Notation row i := (nth i data []).

  Definition proper (is : list nat) (smp : nat -> list nat) : Prop := forall i, In i is -> length (smp i) = 2 /\ forall k, In k (smp i) -> k < n.
  Lemma all_expect u v (al be : nat -> R) is : NoDup is -> forall c F,
    (forall smp, proper is smp -> F smp = (c + lsum (fun i => al i * occurrences v (smp i) + be i * occurrences u (smp i)) is)%R) ->
    Eall a data t is F = (c + lsum (fun i => 2 * (al i * prob a data t (row i) v + be i * prob a data t (row i) u)) is)%R.
  Proof.
    induction is as [|i is IH]; intros Hd c F HF; cbn [Eall lsum].
    - rewrite HF by (intros i []). cbn [lsum]. reflexivity.
    - inversion Hd as [|? ? Hi Hd']; subst. set (R := lsum (fun i => 2 * (al i * prob a data t (row i) v + be i * prob a data t (row i) u))%R is) in *.
      rewrite (tree_expect T a data 0 nc HT Ha Hnc 0 0 (n - 1) t (row i) u v (al i) (be i) B ltac:(lia) (Nz _) 2 (c + R)%R).
      + cbn [INR]. ring.
      + intros s Hl Hk. rewrite (IH Hd' (c + (al i * occurrences v s + be i * occurrences u s))%R); [fold R; ring|].
        intros smp Hp. rewrite HF.
        * cbn [lsum]. rewrite Nat.eqb_refl. rewrite <- Rplus_assoc. f_equal. apply lsum_ext. intros j Hj. destruct (Nat.eqb_spec j i) as [->|]; [tauto|reflexivity].
        * intros j [<-|Hj]; [rewrite Nat.eqb_refl; split; auto; intros k I; apply Hk in I; lia|]. destruct (Nat.eqb_spec j i) as [->|]; [tauto|]. now apply Hp.
  Qed.

  Lemma nth_degrees degrees i : map Ok degrees = map (tree_weight a data t) data -> i < n -> nth i degrees 0%R = tw a data t (row i).
  Proof. intros E Hi. unfold tw. now rewrite (nth_map_ok (tree_weight a data t) data degrees i E Hi). Qed.

  Lemma expected_weight degrees u v : map Ok degrees = map (tree_weight a data t) data -> u < n -> v < n ->
    Eall a data t (seq 0 n) (fun smp => asg_weight degrees smp u v) =
    (2 / 5 * (tw a data t (row u) * prob a data t (row u) v + tw a data t (row v) * prob a data t (row v) u))%R.
  Proof.
    intros E Hu Hv.
    rewrite (all_expect u v (fun i => if i =? u then nth u degrees 0 / 5 else 0)%R (fun i => if i =? v then nth v degrees 0 / 5 else 0)%R (seq 0 n) ltac:(apply seq_NoDup) 0%R).
    - rewrite Rplus_0_l.
      rewrite (lsum_ext _ (fun i => (if i =? u then 2 * (nth u degrees 0 / 5 * prob a data t (row i) v) else 0) + (if i =? v then 2 * (nth v degrees 0 / 5 * prob a data t (row i) u) else 0))%R)
        by (intros i _; destruct (i =? u), (i =? v); ring).
      rewrite lsum_plus. rewrite (lsum_delta_list (fun i => 2 * (nth u degrees 0 / 5 * prob a data t (row i) v))%R) by apply seq_NoDup.
      rewrite (lsum_delta_list (fun i => 2 * (nth v degrees 0 / 5 * prob a data t (row i) u))%R) by apply seq_NoDup.
      assert (nmem u (seq 0 n) = true) as -> by (apply nmem_In, in_seq; lia). assert (nmem v (seq 0 n) = true) as -> by (apply nmem_In, in_seq; lia).
      rewrite !nth_degrees by auto. field.
    - intros smp Hp. rewrite Rplus_0_l. unfold asg_weight.
      rewrite (lsum_ext _ (fun i => (if i =? u then nth u degrees 0 / 5 * occurrences v (smp i) else 0) + (if i =? v then nth v degrees 0 / 5 * occurrences u (smp i) else 0))%R)
        by (intros i _; destruct (i =? u), (i =? v); ring).
      rewrite lsum_plus. rewrite (lsum_delta_list (fun i => nth u degrees 0 / 5 * occurrences v (smp i))%R) by apply seq_NoDup.
      rewrite (lsum_delta_list (fun i => nth v degrees 0 / 5 * occurrences u (smp i))%R) by apply seq_NoDup.
      assert (nmem u (seq 0 n) = true) as -> by (apply nmem_In, in_seq; lia). assert (nmem v (seq 0 n) = true) as -> by (apply nmem_In, in_seq; lia). reflexivity.
  Qed.
End All.

(** ** Leaves *)
Section Kept.
  Variable a : R.
  Variable data : list (list R).
  Lemma leaf_share lo hi q v : lo <= hi -> (tw a data (Leaf lo hi) q * prob a data (Leaf lo hi) q v = kept a data lo hi q v)%R.
  Proof.
    intros L. cbn [prob]. destruct (Nat.eqb_spec lo hi) as [E|E].
    - assert (tw a data (Leaf lo hi) q = 0%R) as Ed by (rewrite leaf_tw by lia; subst hi; rewrite Nat.sub_diag; cbn [Z.of_nat]; lra).
      unfold kept. rewrite Ed, Rmult_0_l. destruct ((lo <=? v) && (v <=? hi)); auto.
      assert (forall w, (0 <= cum a data lo q w)%R) as H0 by (intros w; unfold cum; apply lsum_nonneg; intros; left; apply exp_pos).
      rewrite !Rmin_right by apply H0. ring.
    - destruct (leaf_tw_range a data lo hi q L) as [_ Hd]. specialize (Hd ltac:(lia)). field. lra.
  Qed.
  Lemma kept_out lo hi q v : ~ (lo <= v <= hi) -> kept a data lo hi q v = 0%R.
  Proof. intros N. unfold kept. destruct (Nat.leb_spec lo v), (Nat.leb_spec v hi); cbn [andb]; auto. lia. Qed.

  (** The kept part: all of the kernel value, none of it, or something in between. *)
  Lemma kept_range lo hi q v : (0 <= kept a data lo hi q v <= kern a data q v)%R.
  Proof.
    unfold kept. destruct (Nat.leb_spec lo v) as [L|L], (Nat.leb_spec v hi) as [L2|L2]; cbn [andb]; try (pose proof (kern_pos a data q v); lra).
    rewrite cum_S by auto. pose proof (kern_pos a data q v). set (d := tw a data (Leaf lo hi) q). unfold Rmin. destruct (Rle_dec _ d), (Rle_dec _ d); lra.
  Qed.
  Lemma kept_all lo hi q v : lo <= v <= hi -> (cum a data lo q (v + 1) <= tw a data (Leaf lo hi) q)%R -> kept a data lo hi q v = kern a data q v.
  Proof.
    intros [L L2] Hc. unfold kept. apply Nat.leb_le in L as L', L2 as L2'. rewrite L', L2'. cbn [andb]. rewrite cum_S in * by auto. pose proof (kern_pos a data q v). rewrite !Rmin_left by lra. ring.
  Qed.
  Lemma kept_none lo hi q v : (tw a data (Leaf lo hi) q <= cum a data lo q v)%R -> kept a data lo hi q v = 0%R.
  Proof.
    intros Hc. unfold kept. destruct ((lo <=? v) && (v <=? hi)); auto. pose proof (cum_mono a data lo q v (v + 1) ltac:(lia)). rewrite !Rmin_right by lra. ring.
  Qed.
  Lemma kept_sum lo hi q : lo <= hi -> lsum (kept a data lo hi q) (seq lo (hi + 1 - lo)) = tw a data (Leaf lo hi) q.
  Proof.
    intros L. destruct (leaf_tw_range a data lo hi q L) as [Hd _]. set (d := tw a data (Leaf lo hi) q) in *.
    assert (forall m, m <= hi + 1 - lo -> lsum (kept a data lo hi q) (seq lo m) = Rmin (cum a data lo q (lo + m)) d) as H.
    { induction m as [|m IH]; intros Hm.
      - cbn [seq lsum]. rewrite Nat.add_0_r, cum_0. rewrite Rmin_left; lra.
      - rewrite <- Nat.add_1_r, seq_app, lsum_app, IH by lia. cbn [seq lsum]. unfold kept. fold d.
        destruct (Nat.leb_spec lo (lo + m)); [|lia]. destruct (Nat.leb_spec (lo + m) hi); [|lia]. cbn [andb]. rewrite <- Nat.add_assoc. ring. }
    rewrite H by lia. replace (lo + (hi + 1 - lo)) with (hi + 1) by lia. apply Rmin_right. lra.
  Qed.
End Kept.

(** ** Up to twice the node cutoff *)
Section Small.
  Variable T : nat.
  Variable a : R.
  Variable data : list (list R).
  Variable nc : Z.
  Hypothesis HT : 1 <= T.
  Hypothesis Ha : (0 < a)%R.
  Hypothesis Hnc : (2 <= nc)%Z.
  Hypothesis Hn : 2 <= length data.
  Hypothesis Hs : (Z.of_nat (length data) <= 2 * nc)%Z.
  Notation n := (length data).

  Lemma small_share t q v : build T a data 0 nc 0 0 (n - 1) t -> v < n ->
    (tw a data t q * prob a data t q v = kept a data (fst (leaf_of nc n v)) (snd (leaf_of nc n v)) q v)%R.
  Proof.
    intros B Hv. pose proof (Nat.div_mod (0 + (n - 1)) 2 ltac:(lia)) as D1. pose proof (Nat.mod_upper_bound (0 + (n - 1)) 2 ltac:(lia)) as D2.
    inversion B as [depth lo' hi' L|depth lo' hi' est l r L E Bl Br]; subst.
    - unfold leaf_of. destruct (Z.ltb_spec (Z.of_nat (n - 1)) nc); [|lia]. cbn [fst snd]. apply leaf_share; lia.
    - inversion Bl as [? ? ? Ll|]; subst; [|exfalso; lia]. inversion Br as [? ? ? Lr|]; subst; [|exfalso; lia].
      pose proof (small_no_zero T a data 0 nc HT Hnc 0 (n - 1) _ q B eq_refl ltac:(lia) ltac:(lia)) as Nz. cbn [no_zero] in Nz. destruct Nz as (Nz & _).
      cbn [Nat.add] in *. set (m := (n - 1) / 2) in *.
      assert (tree_weight a data (Leaf 0 m) q = Ok (tw a data (Leaf 0 m) q)) as Ex by reflexivity.
      assert (tree_weight a data (Leaf (m + 1) (n - 1)) q = Ok (tw a data (Leaf (m + 1) (n - 1)) q)) as Ey by reflexivity.
      specialize (Nz _ _ Ex Ey).
      destruct est as [k|]; [destruct E as (E & _); lia|].
      assert (tw a data (Node 0 (n - 1) None (Leaf 0 m) (Leaf (m + 1) (n - 1))) q = (tw a data (Leaf 0 m) q + tw a data (Leaf (m + 1) (n - 1)) q)%R) as -> by reflexivity.
      change (prob a data (Node 0 (n - 1) None (Leaf 0 m) (Leaf (m + 1) (n - 1))) q v) with
        (tw a data (Leaf 0 m) q / (tw a data (Leaf 0 m) q + tw a data (Leaf (m + 1) (n - 1)) q) * prob a data (Leaf 0 m) q v +
         tw a data (Leaf (m + 1) (n - 1)) q / (tw a data (Leaf 0 m) q + tw a data (Leaf (m + 1) (n - 1)) q) * prob a data (Leaf (m + 1) (n - 1)) q v)%R.
      pose proof (leaf_share a data 0 m q v ltac:(lia)) as S1. pose proof (leaf_share a data (m + 1) (n - 1) q v ltac:(lia)) as S2.
      set (x := tw a data (Leaf 0 m) q) in *. set (y := tw a data (Leaf (m + 1) (n - 1)) q) in *.
      set (p1 := prob a data (Leaf 0 m) q v) in *. set (p2 := prob a data (Leaf (m + 1) (n - 1)) q v) in *.
      replace ((x + y) * (x / (x + y) * p1 + y / (x + y) * p2))%R with (x * p1 + y * p2)%R by (field; exact Nz). rewrite S1, S2.
      unfold leaf_of. destruct (Z.ltb_spec (Z.of_nat (n - 1)) nc); [lia|]. fold m. destruct (Nat.leb_spec v m) as [L1|L1]; cbn [fst snd].
      + rewrite (kept_out a data (m + 1) (n - 1)) by lia. ring.
      + rewrite (kept_out a data 0 m) by lia. ring.
  Qed.

End Small.
