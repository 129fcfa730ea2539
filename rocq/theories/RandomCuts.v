(** Random graphs with one coin for each pair: weighted sums, all cuts at once, connectivity. *)
From Verif Require Import Base Num RSum Sparse SparseFacts Graph GraphSpec GraphFacts GraphProps1 GraphProps2 ClusterExamples RandomGraph RandomFacts RandomTop RandomTop2 RandomDist RecoverTop AsgLaw AsgConc RandomConc.
From Coq Require Import Reals Lra Psatz Lia List Permutation.
Import ListNotations.
Local Open Scope nat_scope.

(** Expected weight of the pair u, v if the pair i < j is an edge with probability prob i j, on tapes with numbers below N. *)
Definition mean_weight (N : nat) (prob : nat -> nat -> R) (u v : nat) : R :=
  if u =? v then 0%R else (INR (below N (prob (Nat.min u v) (Nat.max u v))) / INR N)%R.
(** [run] makes a graph with n vertices, with one coin for each pair. *)
Definition coin_graphs (N n : nat) (pairs : list (nat * nat)) (prob : nat -> nat -> R) (run : list nat -> option (outcome (graph R * list nat))) : Prop :=
  NoDup pairs /\ (forall i j, In (i, j) pairs <-> i < j /\ j < n) /\
  forall t, exists g s', run t = Some (Ok (g, s')) /\ number_of_vertices g = n /\ reachable_pos g /\ (forall v, rw g v v = 0%R) /\
    forall k i j, nth_error pairs k = Some (i, j) -> rw g i j = hit N (prob i j) (nth k t 0).

Lemma filter_shorter {A} (f : A -> bool) l : length (filter f l) <= length l.
Proof. induction l as [|x l IH]; cbn [filter length]; auto. destruct (f x); cbn [length]; lia. Qed.
Section Coin.
  Variables (N n : nat) (pairs : list (nat * nat)) (prob : nat -> nat -> R) (run : list nat -> option (outcome (graph R * list nat))).
  Hypothesis HN : 0 < N.
  Hypothesis HG : coin_graphs N n pairs prob run.
  Local Notation m := (length pairs).
  Definition pth (k : nat) : R := let q := nth k pairs (0, 0) in prob (fst q) (snd q).
  Definition cth (c : nat -> nat -> R) (k : nat) : R := let q := nth k pairs (0, 0) in c (fst q) (snd q).
  Lemma pairs_canon : Permutation pairs (canon n).
  Proof. destruct HG as (H1 & H2 & _). now apply pairs_perm. Qed.
  Lemma m_pairs : m = n * (n - 1) / 2.
  Proof.
    rewrite (Permutation_length pairs_canon). unfold canon. assert (forall l, length (flat_map (fun j => map (fun i => (i, j)) (seq 0 j)) l) = nsum l) as H.
    { induction l as [|j l IH]; cbn [flat_map nsum fold_right]; auto. rewrite app_length, map_length, seq_length, IH. reflexivity. }
    rewrite H. apply (Nat.div_unique_exact (n * (n - 1)) 2); [lia|]. clear H HG. induction n as [|k IH]; auto.
    rewrite seq_S. assert (nsum (seq 0 k ++ [0 + k]) = nsum (seq 0 k) + k) as E by (clear; induction (seq 0 k) as [|x l IH]; cbn [app nsum fold_right] in *; [lia|unfold nsum in *; lia]).
    rewrite E. nia.
  Qed.
  Lemma pair_in k : k < m -> fst (nth k pairs (0, 0)) < snd (nth k pairs (0, 0)) /\ snd (nth k pairs (0, 0)) < n.
  Proof. intros Hk. destruct HG as (_ & H2 & _). apply H2. rewrite <- surjective_pairing. now apply nth_In. Qed.
  Lemma sum_pairs (f : nat -> nat -> R) : rsum m (cth f) = pair_sum n f.
  Proof.
    rewrite pair_sum_canon, <- (lsum_perm _ _ _ pairs_canon). exact (rsum_nth (fun q => f (fst q) (snd q)) pairs (0, 0)).
  Qed.
  (** What the coins add up to. *)
  Lemma graph_coins t g s' c : run t = Some (Ok (g, s')) -> coins N m pth (cth c) t = pair_sum n (fun i j => c i j * rw g i j)%R.
  Proof.
    intros E. destruct HG as (_ & _ & H3). destruct (H3 t) as (g' & s'' & E' & _ & _ & _ & Hw). rewrite E in E'. injection E' as <- <-.
    rewrite <- sum_pairs. apply rsum_ext. intros k Hk. unfold cth. rewrite (Hw k (fst (nth k pairs (0, 0))) (snd (nth k pairs (0, 0)))); [reflexivity|].
    rewrite <- surjective_pairing. now apply nth_error_nth'.
  Qed.
  Lemma mean_coins c : coins_mean N m pth (cth c) = pair_sum n (fun i j => c i j * mean_weight N prob i j)%R.
  Proof.
    rewrite <- sum_pairs. apply rsum_ext. intros k Hk. destruct (pair_in k Hk) as [L _]. unfold cth, mean_weight. destruct (Nat.eqb_spec (fst (nth k pairs (0, 0))) (snd (nth k pairs (0, 0)))); [lia|].
    rewrite Nat.min_l, Nat.max_r by lia. reflexivity.
  Qed.
  Lemma coef_bounds c M : (forall i j, i < j -> j < n -> (0 <= c i j <= M)%R) -> forall k, k < m -> (0 <= cth c k <= M)%R.
  Proof. intros H k Hk. destruct (pair_in k Hk). now apply H. Qed.
  Lemma run_graph t : exists g s', run t = Some (Ok (g, s')) /\ number_of_vertices g = n /\ reachable_pos g /\ (forall v, rw g v v = 0%R).
  Proof. destruct HG as (_ & _ & H3). destruct (H3 t) as (g & s' & A & B & C & D & _). exists g, s'. auto. Qed.
  Lemma mean_weight_sym u v : mean_weight N prob u v = mean_weight N prob v u.
  Proof. unfold mean_weight. rewrite (Nat.eqb_sym v u), (Nat.min_comm v u), (Nat.max_comm v u). reflexivity. Qed.
  Lemma mean_weight_bounds u v : (0 <= mean_weight N prob u v <= 1)%R.
  Proof.
    unfold mean_weight. destruct (u =? v); [lra|]. assert (0 < INR N)%R as PN by (now apply lt_0_INR). pose proof (pos_INR (below N (prob (Nat.min u v) (Nat.max u v)))) as P.
    assert (INR (below N (prob (Nat.min u v) (Nat.max u v))) <= INR N)%R as L.
    { apply le_INR. unfold below. rewrite <- (seq_length N 0) at 2. apply filter_shorter. }
    split; [apply Rmult_le_pos; [auto|left; now apply Rinv_0_lt_compat]|]. apply (Rmult_le_reg_r (INR N)); auto. unfold Rdiv. rewrite Rmult_assoc, Rinv_l; lra.
  Qed.

  (** ** One weighted sum *)
  Lemma weighted_sum c M eps : (0 < M)%R -> (forall i j, i < j -> j < n -> (0 <= c i j <= M)%R) -> (0 <= eps <= 1)%R ->
    let mu := pair_sum n (fun i j => c i j * mean_weight N prob i j)%R in
    all_but N m (exp (- (eps ^ 2 * mu / (3 * M))) + exp (- (eps ^ 2 * mu / (2 * M)))) (fun t => exists g s', run t = Some (Ok (g, s')) /\
      ((1 - eps) * mu < pair_sum n (fun i j => c i j * rw g i j) < (1 + eps) * mu)%R).
  Proof.
    intros HM Hc He mu. pose proof (coef_bounds c M Hc) as Hk. pose proof (mean_coins c) as Em. fold mu in Em.
    apply (all_but_intro N m _ (fun t => (if Rle_dec (mu + eps * mu) (coins N m pth (cth c) t) then true else false) || (if Rle_dec (coins N m pth (cth c) t) ((1 - eps) * mu) then true else false))); auto.
    - eapply Rle_trans; [apply Etape_or|]. apply Rplus_le_compat; rewrite <- Em.
      + apply (coins_upper N m pth (cth c) M (coins_mean N m pth (cth c)) eps); auto. lra.
      + apply (coins_lower N m pth (cth c) M eps); auto. lra.
    - intros t _ Hb. destruct (run_graph t) as (g & s' & E & _). exists g, s'. split; auto. rewrite <- (graph_coins t g s' c E).
      apply Bool.orb_false_iff in Hb as [H1 H2]. destruct (Rle_dec _ _) as [|H1']; [discriminate|]. destruct (Rle_dec (coins _ _ _ _ _) _) as [|H2']; [discriminate|]. lra.
  Qed.
  Lemma average c : Etape N m (coins N m pth (cth c)) = pair_sum n (fun i j => c i j * mean_weight N prob i j)%R.
  Proof.
    rewrite <- mean_coins. unfold Etape. rewrite (Eiid_Eprod N (unif N) m 0). set (y := fun k x => (cth c k * hit N (pth k) x)%R).
    transitivity (Eprod N (fun _ => unif N) 1 (seq 0 m) (fun smp => 0 + total y (seq 0 m) smp)%R).
    - apply Rle_antisym; (apply Eprod_mono; [intros; apply unif_nonneg|apply seq_NoDup|]; intros smp Hs; pose proof (total_singletons N m pth (cth c) smp (fun k Hk => proj1 (Hs k Hk))) as Et; fold y in Et; rewrite Et; lra).
    - rewrite Eprod_mean; [|apply seq_NoDup|intros; now apply unif_sum]. rewrite Rplus_0_l. symmetry. exact (y_mean N m pth (cth c) HN).
  Qed.

  (** ** All sets at once *)
  Section Sets.
    Variables (Rel : R -> R -> Prop) (kappa q : R) (C : nat -> bool).
    Hypothesis Rel_dec : forall a b, {Rel a b} + {~ Rel a b}.
    Hypothesis Hkappa : (0 <= kappa)%R.
    Hypothesis Hq : forall i j, i < j -> j < n -> C i = true -> C j = true -> (q <= mean_weight N prob i j)%R.
    Hypothesis Hq0 : (0 <= q)%R.
    Hypothesis Htest : forall c, (forall i j, i < j -> j < n -> (0 <= c i j <= 1)%R) ->
      (Etape N m (fun t => indb (if Rel_dec (coins_mean N m pth (cth c)) (coins N m pth (cth c) t) then true else false)) <= exp (- (kappa * coins_mean N m pth (cth c))))%R.
    Local Notation L := (filter C (seq 0 n)).
    Local Notation mm := (count n C).
    Definition side (S : list nat) (i j : nat) : R := indb (mem S i && (C j && negb (mem S j)) || mem S j && (C i && negb (mem S i))).
    Definition bad_set (S : list nat) (t : list nat) : bool :=
      match S with [] => false | _ => if 2 * length S <=? mm then (if Rel_dec (coins_mean N m pth (cth (side S))) (coins N m pth (cth (side S)) t) then true else false) else false end.
    Lemma side_between S w : (forall u v, u < n -> v < n -> w u v = w v u) -> pair_sum n (fun i j => side S i j * w i j)%R = cut_between n w (mem S) (fun v => C v && negb (mem S v)).
    Proof. intros Sw. rewrite between_pairs; auto. intros u. destruct (mem S u), (C u); reflexivity. Qed.
    Lemma subset_props S : In S (subsets L) -> NoDup S /\ incl S L.
    Proof.
      assert (forall l, NoDup l -> In S (subsets l) -> NoDup S /\ incl S l) as G.
      { clear. intros l. revert S. induction l as [|a l IH]; intros S Hd Hi; cbn [subsets] in Hi; [destruct Hi as [<-|[]]; split; [constructor|easy]|].
        inversion Hd; subst. apply in_app_or in Hi as [Hi|Hi].
        - apply in_map_iff in Hi as (S' & <- & Hi). destruct (IH S' H2 Hi) as [N1 I1]. split; [constructor; auto; intros I; now apply H1, I1|]. intros x [<-|I]; [now left|right; auto].
        - destruct (IH S H2 Hi) as [N1 I1]. split; auto. intros x I. right. auto. }
      apply G. apply NoDup_filter, seq_NoDup.
    Qed.
    Lemma rsum_mem S : NoDup S -> (forall v, In v S -> v < n) -> rsum n (fun v => indb (mem S v)) = INR (length S).
    Proof.
      intros Hd Hi. rewrite <- count_rsum. unfold count. f_equal. apply Permutation_length. apply NoDup_Permutation; [apply NoDup_filter, seq_NoDup|auto|].
      intros v. rewrite filter_In, mem_in, in_seq. split; [tauto|]. intros I. split; auto. specialize (Hi v I). lia.
    Qed.
    Lemma side_mean S : In S (subsets L) -> 2 * length S <= mm -> (q * INR (length S) * INR mm / 2 <= coins_mean N m pth (cth (side S)))%R.
    Proof.
      intros Hi H2. destruct (subset_props S Hi) as [Hd Hin]. rewrite mean_coins.
      assert (forall v, In v S -> v < n /\ C v = true) as Hv by (intros v I; apply Hin in I; apply filter_In in I as [I1 I2]; apply in_seq in I1; split; [lia|auto]).
      assert (rsum n (fun v => indb (C v && negb (mem S v))) = INR mm - INR (length S))%R as E2.
      { rewrite count_rsum, <- (rsum_mem S Hd) by (intros; now apply Hv). rewrite <- rsum_minus. apply rsum_ext. intros v _. unfold indb. destruct (mem S v) eqn:E; [apply mem_in in E; rewrite (proj2 (Hv v E)); cbn; lra|]. destruct (C v); cbn; lra. }
      assert (pair_sum n (fun i j => side S i j * q)%R = q * INR (length S) * (INR mm - INR (length S)))%R as E1.
      { rewrite (side_between S (fun _ _ => q)) by auto. unfold cut_between.
        rewrite (rsum_ext n _ (fun u => indb (mem S u) * (q * (INR mm - INR (length S))))%R).
        - rewrite rsum_scal_r, rsum_mem; [ring|auto|intros; now apply Hv].
        - intros u _. rewrite <- E2, <- rsum_scal, <- rsum_scal. apply rsum_ext. intros v _. unfold indb. destruct (mem S u), (C v && negb (mem S v)); cbn [andb]; ring. }
      apply Rle_trans with (pair_sum n (fun i j => side S i j * q)%R).
      - rewrite E1. apply le_INR in H2. rewrite mult_INR in H2. cbn [INR] in H2. pose proof (pos_INR (length S)) as P.
        replace (q * INR (length S) * INR mm / 2)%R with (q * INR (length S) * (INR mm / 2))%R by field. apply Rmult_le_compat_l; [now apply Rmult_le_pos|lra].
      - apply pair_sum_le. intros i j Hij Hj. unfold side, indb. destruct (mem S i && (C j && negb (mem S j)) || mem S j && (C i && negb (mem S i))) eqn:E; [|lra]. rewrite !Rmult_1_l. apply Hq; auto.
        + apply Bool.orb_true_iff in E as [E|E]; rewrite !Bool.andb_true_iff in E; [apply (Hv i); apply mem_in; tauto|tauto].
        + apply Bool.orb_true_iff in E as [E|E]; rewrite !Bool.andb_true_iff in E; [tauto|apply (Hv j); apply mem_in; tauto].
    Qed.
    Lemma sets_fail : (Etape N m (fun t => indb (existsb (fun S => bad_set S t) (subsets L))) <= exp (INR mm * exp (- (kappa * q * INR mm / 2))) - 1)%R.
    Proof.
      eapply Rle_trans; [apply (Etape_union N m bad_set)|]. set (x := exp (- (kappa * q * INR mm / 2))). pose proof (exp_pos (- (kappa * q * INR mm / 2))) as Px. fold x in Px.
      apply Rle_trans with (lsum (fun S => match S with [] => 0 | _ => x ^ length S end)%R (subsets L)).
      - apply lsum_le. intros S Hi. unfold bad_set. destruct S as [|a S].
        + cbn [indb]. unfold Etape. rewrite (Eiid_const N (unif N) m 0%R) by (now apply unif_sum). lra.
        + set (A := a :: S) in *. destruct (Nat.leb_spec (2 * length A) mm) as [H2|H2].
          * eapply Rle_trans; [apply (Htest (side A))|]; [intros; unfold side, indb; destruct (_ || _); lra|]. unfold x. rewrite <- exp_pow. apply exp_mono.
            pose proof (side_mean A Hi H2) as G. apply (Rmult_le_compat_l kappa) in G; auto. lra.
          * cbn [indb]. unfold Etape. rewrite (Eiid_const N (unif N) m 0%R) by (now apply unif_sum). apply pow_le. lra.
      - rewrite subsets_nonempty_sum. pose proof (pow_exp x mm ltac:(lra)) as G. change (length L) with mm. lra.
    Qed.
    Lemma bad_set_nonempty S t : S <> [] -> 2 * length S <= mm -> bad_set S t = if Rel_dec (coins_mean N m pth (cth (side S))) (coins N m pth (cth (side S)) t) then true else false.
    Proof. intros NE H2. apply Nat.leb_le in H2. unfold bad_set. rewrite H2. destruct S; [congruence|reflexivity]. Qed.
    Lemma sets_good t g s' A : run t = Some (Ok (g, s')) -> existsb (fun S => bad_set S t) (subsets L) = false ->
      (exists u, u < n /\ C u = true /\ A u = true) -> (exists u, u < n /\ C u = true /\ A u = false) ->
      ~ Rel (cut_between n (mean_weight N prob) (fun v => C v && A v) (fun v => C v && negb (A v))) (cut_between n (rw g) (fun v => C v && A v) (fun v => C v && negb (A v))).
    Proof.
      intros E Hb HA HB. destruct (run_graph t) as (g' & s'' & E' & En & Hr & Hl). rewrite E in E'. injection E' as <- <-. pose proof (reachable_pos_reachable g Hr) as Hr'.
      assert (forall A, (exists u, u < n /\ C u = true /\ A u = true) -> 2 * length (filter A L) <= mm ->
        ~ Rel (cut_between n (mean_weight N prob) (fun v => C v && A v) (fun v => C v && negb (A v))) (cut_between n (rw g) (fun v => C v && A v) (fun v => C v && negb (A v)))) as G.
      { clear HA HB A. intros A (u & Hu & Cu & Au) H2. set (S := filter A L) in *.
        assert (bad_set S t = false) as Hf.
        { destruct (bad_set S t) eqn:X; auto. rewrite <- Hb. symmetry. apply existsb_exists. exists S. split; auto. apply subsets_filter. }
        assert (In u S) as Iu by (apply filter_In; split; auto; apply filter_In; split; auto; apply in_seq; lia).
        assert (S <> []) as NE by (intros Z; rewrite Z in Iu; destruct Iu). rewrite (bad_set_nonempty S t NE H2) in Hf.
        destruct (Rel_dec _ _) as [|NR]; [discriminate|]. rewrite (graph_coins t g s' (side S) E), mean_coins in NR.
        rewrite !side_between in NR; [|intros; now apply rw_sym|intros; apply mean_weight_sym].
        assert (forall w, cut_between n w (mem S) (fun v => C v && negb (mem S v)) = cut_between n w (fun v => C v && A v) (fun v => C v && negb (A v))) as EB.
        { intros w. unfold cut_between. assert (forall v, v < n -> mem S v = C v && A v) as M.
          { intros v Hv. unfold S. rewrite !mem_filter. assert (mem (seq 0 n) v = true) as -> by (apply mem_in, in_seq; lia). reflexivity. }
          apply rsum_ext. intros a0 Ha. apply rsum_ext. intros v Hv. rewrite !M by auto. destruct (C a0), (A a0), (C v), (A v); reflexivity. }
        now rewrite !EB in NR. }
      destruct (le_lt_dec (2 * length (filter A L)) mm) as [H2|H2]; [now apply G|].
      assert (length (filter A L) + length (filter (fun v => negb (A v)) L) = mm) as Hs.
      { unfold count. generalize L. clear. intros l. induction l as [|x l IH]; cbn [filter length]; auto. destruct (A x); cbn [negb length]; lia. }
      assert (forall w, (forall u v, w u v = w v u) -> cut_between n w (fun v => C v && A v) (fun v => C v && negb (A v)) = cut_between n w (fun v => C v && negb (A v)) (fun v => C v && negb (negb (A v)))) as EB.
      { intros w Sw. unfold cut_between. rewrite (rsum_swap n n). apply rsum_ext. intros u _. apply rsum_ext. intros v _. rewrite (Sw v u). destruct (C u), (A u), (C v), (A v); reflexivity. }
      rewrite !EB; [|intros; now apply rw_sym|intros; apply mean_weight_sym]. apply (G (fun v => negb (A v))); [|lia].
      destruct HB as (u & Hu & Cu & Au). exists u. rewrite Au. auto.
    Qed.
  End Sets.
End Coin.
