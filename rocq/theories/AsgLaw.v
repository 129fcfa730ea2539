(** The law of the random draws of approximate_similarity_graph (C95): the two samples of a vertex are independent draws from [prob] (SimExpect.v), vertex by vertex. *)
From Verif Require Import Base Num RSum Sparse SparseFacts Graph GraphSpec GraphFacts GraphProps4 Cluster ClusterCC ClusterSpec ClusterSweep ClusterPR ClusterPR2 ThreadPool ThreadPoolFacts ThreadPoolTop Kde KdeFacts KdeFacts2 KdeFacts3 KdeFacts4 Props_Kde SimGraph SimGraphFacts SimGraphFacts2 SimGraphFacts3 SimGraphFacts4 SimGraphTop LshOffset SimExpect.
From Coq Require Import ZArith Permutation Reals Lra Lia List.
From Coquelicot Require Import Coquelicot.
Import ListNotations.
Local Open Scope nat_scope.

(** ** Independent draws *)
(** Expected value of a function of [num] independent draws from 0..N-1, v with probability p v. *)
Fixpoint Eiid (N : nat) (p : nat -> R) (num : nat) (f : list nat -> R) : R :=
  match num with 0 => f [] | S m => rsum N (fun v => p v * Eiid N p m (fun s => f (v :: s)))%R end.
(** Expected value of a function of [num] such draws for every i in [is], with probabilities p i. *)
Fixpoint Eprod (N : nat) (p : nat -> nat -> R) (num : nat) (is : list nat) (F : (nat -> list nat) -> R) : R :=
  match is with
  | [] => F (fun _ => [])
  | i :: is' => Eiid N (p i) num (fun s => Eprod N p num is' (fun smp => F (fun j => if j =? i then s else smp j)))
  end.
(** Functions that do not depend on the order of the draws. *)
Definition symmetric (f : list nat -> R) : Prop := forall s s', Permutation s s' -> f s = f s'.

Lemma Eiid_ext N p num : forall f g, (forall s, length s = num -> (forall k, In k s -> k < N) -> f s = g s) -> Eiid N p num f = Eiid N p num g.
Proof.
  induction num as [|m IH]; intros f g E; cbn [Eiid]; [apply E; auto; intros k []|]. apply rsum_ext. intros v Hv. f_equal. apply IH. intros s Hl Hk. apply E; [cbn [length]; now rewrite Hl|].
  intros k [<-|I]; auto.
Qed.
Lemma Eiid_ext_p N p p' num : (forall v, v < N -> p v = p' v) -> forall f, Eiid N p num f = Eiid N p' num f.
Proof. intros E. induction num as [|m IH]; intros f; cbn [Eiid]; [reflexivity|]. apply rsum_ext. intros v Hv. rewrite E by auto. f_equal. apply IH. Qed.
Lemma Eiid_lin N p num : forall f g c d, Eiid N p num (fun s => c * f s + d * g s)%R = (c * Eiid N p num f + d * Eiid N p num g)%R.
Proof.
  induction num as [|m IH]; intros f g c d; cbn [Eiid]; [reflexivity|].
  rewrite <- !rsum_scal, <- rsum_plus. apply rsum_ext. intros v _. rewrite (IH (fun s => f (v :: s)) (fun s => g (v :: s))). ring.
Qed.
Lemma Eiid_sum N p num m : forall (f : nat -> list nat -> R) (c : nat -> R), Eiid N p num (fun s => rsum m (fun w => c w * f w s)%R) = rsum m (fun w => c w * Eiid N p num (f w))%R.
Proof.
  induction num as [|k IH]; intros f c; cbn [Eiid]; [reflexivity|].
  rewrite (rsum_ext N _ (fun v => rsum m (fun w => c w * (p v * Eiid N p k (fun s => f w (v :: s)))))%R).
  - rewrite rsum_swap. apply rsum_ext. intros w _. now rewrite rsum_scal.
  - intros v _. rewrite IH, <- rsum_scal. apply rsum_ext. intros w _. ring.
Qed.
Lemma Eiid_mono N p num : (forall v, v < N -> (0 <= p v)%R) -> forall f g, (forall s, length s = num -> (forall k, In k s -> k < N) -> (f s <= g s)%R) -> (Eiid N p num f <= Eiid N p num g)%R.
Proof.
  intros Hp. induction num as [|m IH]; intros f g E; cbn [Eiid]; [apply E; auto; intros k []|]. apply rsum_le. intros v Hv. apply Rmult_le_compat_l; auto. apply IH.
  intros s Hl Hk. apply E; [cbn [length]; now rewrite Hl|]. intros k [<-|I]; auto.
Qed.
Lemma Eiid_const N p num c : rsum N p = 1%R -> Eiid N p num (fun _ => c) = c.
Proof. intros Hp. induction num as [|m IH]; cbn [Eiid]; [reflexivity|]. rewrite IH, rsum_scal_r, Hp. ring. Qed.
(** The first draw may be put anywhere. *)
Lemma perm_cons_app (v : nat) ls rs : Permutation (ls ++ v :: rs) (v :: ls ++ rs).
Proof. symmetry. apply Permutation_middle. Qed.

(** ** Uniform numbers in a leaf *)
Lemma is_RInt_lsum (g : nat -> R -> R) (P c : nat -> R) l : (forall v, In v l -> is_RInt (g v) 0 1 (P v)) ->
  is_RInt (V := R_NormedModule) (fun x => lsum (fun v => g v x * c v)%R l) 0 1 (lsum (fun v => P v * c v)%R l).
Proof.
  induction l as [|v l IH]; intros H; cbn [lsum].
  - replace 0%R with ((1 - 0) * 0)%R at 2 by ring. exact (is_RInt_const (V := R_NormedModule) 0 1 0%R).
  - apply (is_RInt_plus (V := R_NormedModule)); [|apply IH; intros; apply H; now right].
    apply (is_RInt_ext (V := R_NormedModule) (fun x => scal (c v) (g v x))); [intros x _; apply Rmult_comm|]. replace (P v * c v)%R with (scal (c v) (P v)) by (apply Rmult_comm).
    apply (is_RInt_scal (V := R_NormedModule)). apply H. now left.
Qed.

Section Leaf.
  Variable a : R.
  Variable data : list (list R).
  Notation tw := (tw a data).
  Definition pick (lo hi : nat) (q : list R) (r : R) : nat := hd 0 (sample_neighbors (leaf_kde a data lo hi) q (tw (Leaf lo hi) q) (r :: nil)).
  Lemma pick_one lo hi q r : lo <= hi < length data -> (0 < r < 1)%R ->
    sample_neighbors (leaf_kde a data lo hi) q (tw (Leaf lo hi) q) (r :: nil) = pick lo hi q r :: nil /\ lo <= pick lo hi q r <= hi.
  Proof.
    intros Hh Hr. destruct (leaf_tw_range a data lo hi q ltac:(lia)) as [Hd _].
    destruct (leaf_samples data a lo hi q (tw (Leaf lo hi) q) (r :: nil) Hh Hd) as [L1 L2]; [intros x [<-|[]]; lra|]. unfold pick.
    destruct (sample_neighbors _ _ _ _) as [|x [|y l]] eqn:E in *; try discriminate L1. split; [reflexivity|]. apply L2. now left.
  Qed.
  Lemma pick_measure lo hi q v : lo <= hi < length data -> is_RInt (fun r => if pick lo hi q r =? v then 1%R else 0%R) 0 1 (prob a data (Leaf lo hi) q v).
  Proof.
    intros Hh. destruct (leaf_indicator a data lo hi q v Hh) as (g & I & E). apply (is_RInt_ext (V := R_NormedModule) g); [|exact I].
    rewrite Rmin_left, Rmax_right by lra. intros x Hx. specialize (E (x :: nil) ltac:(intros y [<-|[]]; auto)). destruct (pick_one lo hi q x Hh Hx) as [P _]. rewrite P in E.
    rewrite occ_lsum in E. cbn [lsum] in E. rewrite !Rplus_0_r in E. symmetry. exact E.
  Qed.
  Lemma leaf_perm lo hi q rs : lo <= hi < length data -> (forall x, In x rs -> (0 < x < 1)%R) ->
    Permutation (sample_neighbors (leaf_kde a data lo hi) q (tw (Leaf lo hi) q) rs) (map (pick lo hi q) rs).
  Proof.
    intros Hh Hr. apply (Permutation_count_occ Nat.eq_dec). intros v. apply INR_eq. change (occurrences v (sample_neighbors (leaf_kde a data lo hi) q (tw (Leaf lo hi) q) rs) = occurrences v (map (pick lo hi q) rs)).
    destruct (leaf_indicator a data lo hi q v Hh) as (g & I & E). rewrite E by auto. rewrite occ_lsum, lsum_map. apply lsum_ext. intros x Hx.
    specialize (E (x :: nil) ltac:(intros y [<-|[]]; auto)). destruct (pick_one lo hi q x Hh (Hr x Hx)) as [P _]. rewrite P, occ_lsum in E. cbn [lsum] in E. lra.
  Qed.
  Lemma leaf_law lo hi q num : lo <= hi < length data -> forall f, symmetric f -> Etree a data (Leaf lo hi) q num f = Eiid (length data) (prob a data (Leaf lo hi) q) num f.
  Proof.
    intros Hh f Sf. cbn [Etree].
    assert (forall F G, (forall rs, (forall x, In x rs -> (0 < x < 1)%R) -> F rs = G (map (pick lo hi q) rs)) -> Eunif num F = Eiid (length data) (prob a data (Leaf lo hi) q) num G) as K.
    { clear f Sf. induction num as [|m IH]; intros F G E; cbn [Eunif Eiid]; [apply E; intros x []|].
      apply is_RInt_unique. apply (is_RInt_ext (V := R_NormedModule) (fun x => lsum (fun v => (if pick lo hi q x =? v then 1 else 0) * Eiid (length data) (prob a data (Leaf lo hi) q) m (fun s => G (v :: s)))%R (seq 0 (length data)))).
      - rewrite Rmin_left, Rmax_right by lra. intros x Hx. destruct (pick_one lo hi q x Hh Hx) as [_ P]. rewrite (IH _ (fun s => G (pick lo hi q x :: s))).
        + etransitivity; [apply (lsum_ext _ (fun v => if v =? pick lo hi q x then Eiid (length data) (prob a data (Leaf lo hi) q) m (fun s => G (v :: s)) else 0)%R)|].
          * intros v _. rewrite Nat.eqb_sym. destruct (v =? pick lo hi q x); ring.
          * rewrite (lsum_delta_list (fun v => Eiid (length data) (prob a data (Leaf lo hi) q) m (fun s => G (v :: s)))) by apply seq_NoDup.
            assert (nmem (pick lo hi q x) (seq 0 (length data)) = true) as -> by (apply nmem_In, in_seq; lia). reflexivity.
        + intros rs Hr. apply (E (x :: rs)). intros y [<-|I]; auto.
      - apply (is_RInt_lsum (fun v r => if pick lo hi q r =? v then 1%R else 0%R) (prob a data (Leaf lo hi) q)). intros v _. now apply pick_measure. }
    apply K. intros rs Hr. apply Sf. now apply leaf_perm.
  Qed.
End Leaf.

(** ** Binomial splitting *)
Lemma Ebinom_sum n x N (c : nat -> R) (h : nat -> nat -> R) : Ebinom n x (fun k => rsum N (fun v => c v * h v k)%R) = rsum N (fun v => c v * Ebinom n x (h v))%R.
Proof.
  unfold Ebinom. rewrite (rsum_ext (S n) _ (fun k => rsum N (fun v => c v * (Binomial.C n k * x ^ k * (1 - x) ^ (n - k) * h v k)))%R).
  - rewrite rsum_swap. apply rsum_ext. intros v _. now rewrite rsum_scal.
  - intros k _. rewrite <- rsum_scal. apply rsum_ext. intros v _. ring.
Qed.
Lemma binom_split N pl pr x num : forall f, symmetric f ->
  Ebinom num x (fun nl => Eiid N pl nl (fun ls => Eiid N pr (num - nl) (fun rs => f (ls ++ rs)))) = Eiid N (fun v => x * pl v + (1 - x) * pr v)%R num f.
Proof.
  induction num as [|n IH]; intros f Sf.
  - unfold Ebinom, rsum. cbn [seq lsum Nat.sub pow Eiid app]. destruct (C_edges 0) as [A _]. rewrite A. ring.
  - rewrite Ebinom_step. cbn [Eiid].
    assert (forall v, symmetric (fun s => f (v :: s))) as Sv by (intros v s s' P; apply Sf; now constructor).
    assert (Ebinom n x (fun k => rsum N (fun v => pl v * Eiid N pl k (fun s => Eiid N pr (S n - S k) (fun rs => f ((v :: s) ++ rs))))%R) =
      rsum N (fun v => pl v * Eiid N (fun v => x * pl v + (1 - x) * pr v)%R n (fun s => f (v :: s)))%R) as ->.
    { rewrite Ebinom_sum. apply rsum_ext. intros v _. f_equal. rewrite <- IH by apply Sv. reflexivity. }
    assert (Ebinom n x (fun nl => Eiid N pl nl (fun ls => Eiid N pr (S n - nl) (fun rs => f (ls ++ rs)))) =
      rsum N (fun v => pr v * Eiid N (fun v => x * pl v + (1 - x) * pr v)%R n (fun s => f (v :: s)))%R) as ->.
    { rewrite (Ebinom_ext n x _ (fun k => rsum N (fun v => pr v * Eiid N pl k (fun ls => Eiid N pr (n - k) (fun rs => f (v :: ls ++ rs))))%R)).
      - rewrite Ebinom_sum. apply rsum_ext. intros v _. f_equal. rewrite <- IH by apply Sv. reflexivity.
      - intros k Hk. replace (S n - k) with (S (n - k)) by lia. cbn [Eiid]. rewrite <- Eiid_sum. apply Eiid_ext. intros ls _ _. apply rsum_ext. intros v _. f_equal. apply Eiid_ext.
        intros rs _ _. apply Sf. apply perm_cons_app. }
    rewrite <- !rsum_scal, <- rsum_plus. apply rsum_ext. intros v _. ring.
Qed.

(** ** Trees *)
Section Tree.
  Variable T : nat.
  Variable a : R.
  Variable data : list (list R).
  Variable dc nc : Z.
  Hypothesis HT : 1 <= T.
  Hypothesis Ha : (0 < a)%R.
  Hypothesis Hnc : (2 <= nc)%Z.
  Notation build := (build T a data dc nc).
  Notation tw := (tw a data). Notation no_zero := (no_zero a data).

  Lemma Etree_ext t q : forall num f g, (forall s, f s = g s) -> Etree a data t q num f = Etree a data t q num g.
  Proof.
    induction t as [lo hi|lo hi est l IHl r IHr]; intros num f g E; cbn [Etree].
    - apply Eunif_ext. intros. apply E.
    - apply Ebinom_ext. intros k _. assert (forall ls, (if k <? num then Etree a data r q (num - k) else fun h => h []) (fun rs => f (ls ++ rs)) = (if k <? num then Etree a data r q (num - k) else fun h => h []) (fun rs => g (ls ++ rs))) as A.
      { intros ls. destruct (k <? num); [apply IHr; intros; apply E|apply E]. }
      destruct (k =? 0); [apply A|apply IHl; intros; apply A].
  Qed.
  Lemma tree_law depth lo hi t q : build depth lo hi t -> lo <= hi < length data -> no_zero t q -> forall num f, symmetric f ->
    Etree a data t q num f = Eiid (length data) (prob a data t q) num f.
  Proof.
    intros B. induction B as [depth lo hi L|depth lo hi est l r L E Bl IHl Br IHr]; intros Hle Nz num f Sf.
    - now apply leaf_law.
    - cbn [SimGraphFacts4.no_zero] in Nz. destruct Nz as (Nz & Nl & Nr).
      pose proof (Nat.div_mod (lo + hi) 2 ltac:(lia)). pose proof (Nat.mod_upper_bound (lo + hi) 2 ltac:(lia)).
      destruct (tw_ok T a data dc nc HT Ha Hnc _ _ _ _ q Bl ltac:(lia)) as [Ex Hx]. destruct (tw_ok T a data dc nc HT Ha Hnc _ _ _ _ q Br ltac:(lia)) as [Ey Hy]. specialize (Nz _ _ Ex Ey).
      specialize (IHl ltac:(lia) Nl). specialize (IHr ltac:(lia) Nr). cbn [Etree prob]. set (x := tw l q) in *. set (y := tw r q) in *.
      rewrite (Eiid_ext_p _ _ (fun v => x / (x + y) * prob a data l q v + (1 - x / (x + y)) * prob a data r q v)%R) by (intros v _; field; auto).
      rewrite <- binom_split by auto. apply Ebinom_ext. intros k Hk.
      assert (forall ls, (if k <? num then Etree a data r q (num - k) else fun h => h []) (fun rs => f (ls ++ rs)) = Eiid (length data) (prob a data r q) (num - k) (fun rs => f (ls ++ rs))) as A.
      { intros ls. destruct (Nat.ltb_spec k num).
        - apply IHr. intros s s' P. apply Sf. now apply Permutation_app_head.
        - replace (num - k) with 0 by lia. reflexivity. }
      destruct (Nat.eqb_spec k 0) as [->|].
      + apply A.
      + rewrite IHl.
        * apply Eiid_ext. intros s _ _. apply A.
        * intros s s' P. rewrite !A. apply Eiid_ext. intros rs _ _. apply Sf. now apply Permutation_app_tail.
  Qed.
  Lemma prob_nonneg depth lo hi t q v : build depth lo hi t -> lo <= hi -> no_zero t q -> (0 <= prob a data t q v)%R.
  Proof.
    intros B. induction B as [depth lo hi L|depth lo hi est l r L E Bl IHl Br IHr]; intros Hle Nz.
    - cbn [prob]. destruct (Nat.eqb_spec lo hi); [destruct (v =? lo); lra|]. destruct (leaf_tw_range a data lo hi q Hle) as [_ Hd]. specialize (Hd ltac:(lia)).
      pose proof (kept_range a data lo hi q v). apply Rmult_le_pos; [lra|left; now apply Rinv_0_lt_compat].
    - cbn [SimGraphFacts4.no_zero] in Nz. destruct Nz as (Nz & Nl & Nr).
      pose proof (Nat.div_mod (lo + hi) 2 ltac:(lia)). pose proof (Nat.mod_upper_bound (lo + hi) 2 ltac:(lia)).
      destruct (tw_ok T a data dc nc HT Ha Hnc _ _ _ _ q Bl ltac:(lia)) as [Ex Hx]. destruct (tw_ok T a data dc nc HT Ha Hnc _ _ _ _ q Br ltac:(lia)) as [Ey Hy]. specialize (Nz _ _ Ex Ey).
      specialize (IHl ltac:(lia) Nl). specialize (IHr ltac:(lia) Nr). cbn [prob]. set (x := tw l q) in *. set (y := tw r q) in *.
      assert (0 < x + y)%R by lra. assert (0 < / (x + y))%R by now apply Rinv_0_lt_compat.
      apply Rplus_le_le_0_compat; apply Rmult_le_pos; auto; apply Rmult_le_pos; lra.
  Qed.
  Lemma prob_one depth lo hi t q : build depth lo hi t -> lo <= hi < length data -> no_zero t q -> rsum (length data) (prob a data t q) = 1%R.
  Proof.
    intros B Hle Nz. pose proof (tree_law depth lo hi t q B Hle Nz 1 (fun _ => 1%R) ltac:(intros s s' _; reflexivity)) as E. cbn [Eiid] in E.
    rewrite (rsum_ext _ (fun v => prob a data t q v * 1)%R (prob a data t q)) in E by (intros; ring). rewrite <- E.
    rewrite (tree_expect T a data dc nc HT Ha Hnc depth lo hi t q 0 0 0 0 B Hle Nz 1 1%R); [cbn [INR]; ring|]. intros. ring.
  Qed.
End Tree.

(** ** All vertices *)
Definition order_free (is : list nat) (F : (nat -> list nat) -> R) : Prop :=
  forall s s', (forall i, In i is -> Permutation (s i) (s' i)) -> F s = F s'.
Section All.
  Variable T : nat.
  Variable a : R.
  Variable data : list (list R).
  Variable nc : Z.
  Hypothesis HT : 1 <= T.
  Hypothesis Ha : (0 < a)%R.
  Hypothesis Hnc : (2 <= nc)%Z.
  Hypothesis Hn : 2 <= length data.
  Notation n := (length data).
  Variable t : ktree (W := R).
  Hypothesis B : build T a data 0 nc 0 0 (n - 1) t.
  Hypothesis Nz : forall q, no_zero a data t q.
  Lemma Eprod_ext_fun N p num is : forall F G, (forall smp, F smp = G smp) -> Eprod N p num is F = Eprod N p num is G.
  Proof. induction is as [|i is IH]; intros F G E; cbn [Eprod]; [apply E|]. apply Eiid_ext. intros s _ _. apply IH. intros. apply E. Qed.
  Lemma all_law is : NoDup is -> forall F, order_free is F -> Eall a data t is F = Eprod n (fun i => prob a data t (nth i data [])) 2 is F.
  Proof.
    induction is as [|i is IH]; intros Hd F HF; cbn [Eall Eprod]; [reflexivity|]. inversion Hd as [|? ? Hi Hd']; subst.
    assert (forall s, order_free is (fun smp => F (fun j => if j =? i then s else smp j))) as O.
    { intros s s1 s2 P. apply HF. intros j [<-|I]; [now rewrite Nat.eqb_refl|]. destruct (j =? i); auto. }
    rewrite (Etree_ext a data t _ _ _ (fun s => Eprod n (fun i => prob a data t (nth i data [])) 2 is (fun smp => F (fun j => if j =? i then s else smp j)))) by (intros s; now apply IH).
    apply (tree_law T a data 0 nc HT Ha Hnc 0 0 (n - 1)); auto; [lia|].
    intros s s' P. apply Eprod_ext_fun. intros smp. apply HF. intros j [<-|I]; [now rewrite Nat.eqb_refl|]. destruct (j =? i); auto.
  Qed.
End All.
