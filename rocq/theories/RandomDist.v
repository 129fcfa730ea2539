(** The distribution of the stochastic block model generators when every pair gets its own coin. *)
From Verif Require Import Base Num RSum Sparse Graph GraphSpec RandomGraph RandomFacts RandomTop RandomTop2.
From Coq Require Import Reals Lra Lia List Permutation.
Import ListNotations.
Local Open Scope nat_scope.

(** ** Vocabulary *)
(** Product of f 0 .. f (n-1). *)
Definition rprod (n : nat) (f : nat -> R) : R := fold_right (fun i acc => (f i * acc)%R) 1%R (seq 0 n).
(** Product over the pairs i < j < n. *)
Definition pair_prod (n : nat) (f : nat -> nat -> R) : R := rprod n (fun j => rprod j (fun i => f i j)).
(** A tape: [m] numbers below [N], one for each canonical sample x/N of the generator. *)
Definition is_tape (N m : nat) (t : list nat) : Prop := length t = m /\ Forall (fun x => x < N) t.
(** A generator whose canonical samples are read from the tape. *)
Definition reads_tape (N : nat) (G : rng R (list nat)) : Prop :=
  forall t, unif01 G t = ((INR (hd 0%nat t) / INR N)%R, tl t).
(** How many of the N samples 0, 1/N, .., (N-1)/N are below p. *)
Definition below (N : nat) (p : R) : nat :=
  length (filter (fun x => if Rlt_dec (INR x / INR N) p then true else false) (seq 0 N)).

(** ** Counting the samples below p *)
Lemma below_interval N p : (0 < N) -> (0 <= p <= 1)%R ->
  exists a, a <= N /\ (forall x, x < N -> ((INR x / INR N < p)%R <-> x < a)) /\ (p * INR N <= INR a < p * INR N + 1)%R.
Proof.
  intros HN Hp. assert (0 < INR N)%R as PN by (now apply lt_0_INR).
  assert (0 <= p * INR N <= INR N)%R as HpN by (split; [apply Rmult_le_pos; lra|rewrite <- (Rmult_1_l (INR N)) at 2; apply Rmult_le_compat_r; lra]).
  set (z := (- (up (- (p * INR N)) - 1))%Z). destruct (archimed (- (p * INR N))) as [A1 A2].
  assert (p * INR N <= IZR z < p * INR N + 1)%R as Hz by (unfold z; rewrite opp_IZR, minus_IZR; lra).
  assert (0 <= z)%Z as Z0 by (apply le_IZR; lra).
  assert (z <= Z.of_nat N)%Z as ZN.
  { assert (z < Z.of_nat N + 1)%Z; [|lia]. apply lt_IZR. rewrite plus_IZR, <- INR_IZR_INZ. lra. }
  assert (INR (Z.to_nat z) = IZR z) as Ez by (rewrite INR_IZR_INZ, Z2Nat.id by lia; reflexivity).
  exists (Z.to_nat z). split; [lia|]. split; [|rewrite Ez; lra].
  intros x Hx. assert ((INR x / INR N < p)%R <-> (INR x < p * INR N)%R) as ->.
  { split; intros H.
    - apply (Rmult_lt_compat_r (INR N)) in H; [|lra]. unfold Rdiv in H. rewrite Rmult_assoc, Rinv_l, Rmult_1_r in H by lra. exact H.
    - apply (Rmult_lt_reg_r (INR N)); [lra|]. unfold Rdiv. rewrite Rmult_assoc, Rinv_l, Rmult_1_r by lra. exact H. }
  split; intros H.
  - apply INR_lt. rewrite Ez. lra.
  - assert (INR x + 1 <= INR (Z.to_nat z))%R by (rewrite <- S_INR; apply le_INR; lia). rewrite Ez in *. lra.
Qed.
Lemma filter_ltb_seq N a : a <= N -> length (filter (fun x => x <? a) (seq 0 N)) = a.
Proof.
  intros Ha. replace N with (a + (N - a)) by lia. rewrite seq_app, filter_app, app_length. cbn [plus].
  assert (forall b k, length (filter (fun x => x <? a) (seq b k)) = if b + k <=? a then k else a - b) as E.
  { intros b k. revert b. induction k as [|k IH]; intros b; cbn [seq filter]; [destruct (Nat.leb_spec (b + 0) a); cbn; lia|].
    destruct (Nat.ltb_spec b a) as [L|L]; cbn [length]; rewrite IH; destruct (Nat.leb_spec (S b + k) a); destruct (Nat.leb_spec (b + S k) a); lia. }
  rewrite !E. destruct (Nat.leb_spec (0 + a) a); [|lia]. destruct (Nat.leb_spec (a + (N - a)) a); lia.
Qed.
Lemma below_bounds N p : 0 < N -> (0 <= p <= 1)%R -> below N p <= N /\ (p * INR N <= INR (below N p) < p * INR N + 1)%R.
Proof.
  intros HN Hp. destruct (below_interval N p HN Hp) as (a & Ha & Hx & Hb).
  assert (below N p = a) as ->; [|auto]. unfold below. transitivity (length (filter (fun x => x <? a) (seq 0 N))); [|now apply filter_ltb_seq]. f_equal. apply filter_ext_in. intros x Hin.
  apply in_seq in Hin. destruct (Rlt_dec (INR x / INR N) p) as [L|L]; rewrite Hx in L by lia; symmetry; [apply Nat.ltb_lt|apply Nat.ltb_ge]; lia.
Qed.
Lemma below_grid N a p : 0 < N -> a <= N -> (p = INR a / INR N)%R -> below N p = a.
Proof.
  intros HN Ha ->. assert (0 < INR N)%R as PN by (now apply lt_0_INR).
  assert (0 <= INR a <= INR N)%R as B by (split; [apply pos_INR|now apply le_INR]).
  assert (INR a / INR N * INR N = INR a)%R as E by (field; lra).
  destruct (below_bounds N (INR a / INR N) HN) as [_ H].
  - split; apply (Rmult_le_reg_r (INR N)); try lra; rewrite E; lra.
  - rewrite E in H. assert (INR (below N (INR a / INR N)) < INR (S a))%R by (rewrite S_INR; lra). apply INR_lt in H0.
    assert (INR a <= INR (below N (INR a / INR N)))%R as L by lra. apply INR_le in L. lia.
Qed.

(** ** Choosing one element from each of several lists *)
Fixpoint choices {A} (ls : list (list A)) : list (list A) :=
  match ls with [] => [[]] | l :: r => flat_map (fun x => map (cons x) (choices r)) l end.
Lemma choices_in {A} (ls : list (list A)) t : In t (choices ls) <-> Forall2 (fun x l => In x l) t ls.
Proof.
  revert t; induction ls as [|l ls IH]; intros t; cbn [choices].
  - split; [intros [<-|[]]; constructor|inversion 1; now left].
  - rewrite in_flat_map. split.
    + intros (x & Hx & Ht). apply in_map_iff in Ht. destruct Ht as (t' & <- & Ht). constructor; auto. now apply IH.
    + inversion 1; subst. exists x. split; auto. apply in_map. now apply IH.
Qed.
Lemma choices_NoDup {A} (ls : list (list A)) : Forall (@NoDup A) ls -> NoDup (choices ls).
Proof.
  induction 1 as [|l ls Hl _ IH]; cbn [choices]; [constructor; [easy|constructor]|].
  induction Hl as [|x l Hx Hl IHl]; cbn [flat_map]; [constructor|]. apply NoDup_app_intro.
  - apply FinFun.Injective_map_NoDup; auto. intros a b; now injection 1.
  - exact IHl.
  - intros t H1 H2. apply in_map_iff in H1. destruct H1 as (t1 & <- & _). apply in_flat_map in H2. destruct H2 as (y & Hy & Ht).
    apply in_map_iff in Ht. destruct Ht as (t2 & E & _). injection E as -> _. contradiction.
Qed.
Lemma choices_length {A} (ls : list (list A)) : INR (length (choices ls)) = fold_right (fun l acc => (INR (length l) * acc)%R) 1%R ls.
Proof.
  induction ls as [|l ls IH]; cbn [choices fold_right]; [cbn; lra|]. rewrite <- IH. clear IH. induction l as [|x l IHl]; cbn [flat_map length].
  - cbn. lra.
  - rewrite app_length, map_length, plus_INR, IHl, S_INR. lra.
Qed.

(** ** Products *)
Lemma fold_prod_perm {A} (f : A -> R) l l' : Permutation l l' ->
  fold_right (fun x acc => (f x * acc)%R) 1%R l = fold_right (fun x acc => (f x * acc)%R) 1%R l'.
Proof. induction 1; cbn [fold_right]; try congruence; try lra. Qed.
Lemma fold_prod_app {A} (f : A -> R) l l' : fold_right (fun x acc => (f x * acc)%R) 1%R (l ++ l') =
  (fold_right (fun x acc => (f x * acc)%R) 1%R l * fold_right (fun x acc => (f x * acc)%R) 1%R l')%R.
Proof. induction l; cbn [app fold_right]; [lra|rewrite IHl; lra]. Qed.
Definition canon (n : nat) : list (nat * nat) := flat_map (fun j => map (fun i => (i, j)) (seq 0 j)) (seq 0 n).
Lemma canon_in n i j : In (i, j) (canon n) <-> i < j /\ j < n.
Proof.
  unfold canon. rewrite in_flat_map. split.
  - intros (k & Hk & Hi). apply in_map_iff in Hi. destruct Hi as (a & [= -> ->] & Ha). apply in_seq in Hk, Ha. lia.
  - intros [H1 H2]. exists j. split; [apply in_seq; lia|]. apply in_map_iff. exists i. split; auto. apply in_seq. lia.
Qed.
Lemma canon_NoDup n : NoDup (canon n).
Proof.
  unfold canon. assert (forall l, NoDup l -> NoDup (flat_map (fun j => map (fun i => (i, j)) (seq 0 j)) l)) as H; [|apply H, seq_NoDup].
  induction 1 as [|j l Hj Hl IH]; cbn [flat_map]; [constructor|]. apply NoDup_app_intro; auto.
  - apply FinFun.Injective_map_NoDup; [|apply seq_NoDup]. intros a b; now injection 1.
  - intros [a b] H1 H2. apply in_map_iff in H1. destruct H1 as (? & [= _ <-] & _). apply in_flat_map in H2. destruct H2 as (k & Hk & H2).
    apply in_map_iff in H2. destruct H2 as (? & [= _ <-] & _). contradiction.
Qed.
Lemma pair_prod_canon n f : pair_prod n f = fold_right (fun x acc => (f (fst x) (snd x) * acc)%R) 1%R (canon n).
Proof.
  unfold pair_prod, rprod, canon. induction (seq 0 n) as [|j l IH]; cbn [fold_right flat_map]; auto.
  rewrite fold_prod_app, IH. f_equal. clear. induction (seq 0 j) as [|i l IH]; cbn [map fold_right fst snd]; auto. now rewrite IH.
Qed.
Lemma pairs_perm (pairs : list (nat * nat)) n : NoDup pairs -> (forall i j, In (i, j) pairs <-> i < j /\ j < n) -> Permutation pairs (canon n).
Proof.
  intros Hn Hi. apply NoDup_Permutation; auto; [apply canon_NoDup|]. intros [i j]. now rewrite Hi, canon_in.
Qed.

(** ** The tape *)
Lemma skip_tape N G m : reads_tape N G -> forall t, skip G m t = skipn m t.
Proof.
  intros Hg. induction m as [|m IH]; intros t; cbn [skip]; auto. rewrite Hg. cbn [snd]. rewrite IH. destruct t; cbn; auto. now rewrite skipn_nil.
Qed.
Lemma draw_tape N G t k : reads_tape N G -> draw G t k = (INR (nth k t 0%nat) / INR N)%R.
Proof.
  intros Hg. unfold draw. rewrite (skip_tape N) by auto. rewrite Hg. cbn [fst]. do 2 f_equal.
  revert k; induction t as [|x t IH]; intros [|k]; cbn; auto.
Qed.
Definition okb (N : nat) (p : R) (e : bool) (x : nat) : bool := Bool.eqb (if Rlt_dec (INR x / INR N) p then true else false) e.
Lemma okb_count N p e : 0 < N -> INR (length (filter (okb N p e) (seq 0 N))) = (if e then INR (below N p) else INR N - INR (below N p))%R.
Proof.
  intros HN. unfold below. set (f := fun x => if Rlt_dec (INR x / INR N) p then true else false).
  assert (length (filter f (seq 0 N)) + length (filter (fun x => negb (f x)) (seq 0 N)) = N) as Hs.
  { rewrite <- (seq_length N 0) at 3. induction (seq 0 N) as [|x l IH]; cbn [filter length]; auto. destruct (f x); cbn [negb length]; lia. }
  destruct e.
  - do 2 f_equal. apply filter_ext. intros x. unfold okb. fold (f x). now destruct (f x).
  - pose proof (f_equal INR Hs) as HI. rewrite plus_INR in HI. assert (filter (okb N p false) (seq 0 N) = filter (fun x => negb (f x)) (seq 0 N)) as ->.
    { apply filter_ext. intros x. unfold okb. fold (f x). now destruct (f x). }
    lra.
Qed.

Section Dist.
  Variables (sizes : list Z) (P : dmat R) (exact : bool) (N fuel : nat) (G : rng R (list nat)) (E : nat -> nat -> bool).
  Hypothesis Hv : valid_sbm sizes P.
  Hypothesis Hc : coin_per_pair sizes P exact.
  Hypothesis HN : 0 < N.
  Hypothesis HG : reads_tape N G.
  Let n := Z.to_nat (zsum sizes).
  Let prob i j : R := dm_at P (block (nsizes sizes) i) (block (nsizes sizes) j).
  Lemma n_sum : n = nsum (nsizes sizes).
  Proof. destruct Hv as (Hs & _). unfold n. rewrite (zsum_nsum sizes Hs). apply Nat2Z.id. Qed.
  Let pairs := all_pairs sizes.
  Lemma pairs_in i j : In (i, j) pairs <-> i < j /\ j < n.
  Proof. rewrite n_sum. unfold pairs, all_pairs. rewrite In_plan. lia. Qed.
  Lemma pairs_nodup : NoDup pairs. Proof. apply NoDup_plan. Qed.
  Definition good_tapes : list (list nat) := choices (map (fun q => filter (okb N (prob (fst q) (snd q)) (E (fst q) (snd q))) (seq 0 N)) pairs).
  Lemma tape_graph t : exists g, general_sbm G fuel sizes P exact t = Some (Ok (g, skip G (length pairs) t)) /\
    forall k i j, nth_error pairs k = Some (i, j) -> weight g i j = if Rlt_dec (INR (nth k t 0%nat) / INR N) (prob i j) then 1%R else 0%R.
  Proof.
    destruct (general_sbm_coins G sizes fuel P exact t Hv Hc) as (g & Eg & _ & Hw & _). exists g. split; [exact Eg|].
    intros k i j Hk. destruct (Hw k i j Hk) as [-> _]. rewrite (draw_tape N) by auto. fold (prob i j).
    destruct (Rlt_dec _ _) as [L|L].
    - assert (wltb (INR (nth k t 0%nat) / INR N)%R (prob i j) = true) as -> by (now apply (toR_ltb (W := R))). reflexivity.
    - destruct (wltb (INR (nth k t 0%nat) / INR N)%R (prob i j)) eqn:B; [|reflexivity]. apply (toR_ltb (W := R)) in B. contradiction.
  Qed.
  Lemma Forall2_nth {A B} (Q : A -> B -> Prop) (a : list A) (b : list B) (da : A) :
    Forall2 Q a b <-> length a = length b /\ forall k y, nth_error b k = Some y -> Q (nth k a da) y.
  Proof.
    split.
    - induction 1 as [|x y a b Hxy _ [L IH]]; [split; auto; intros [|k]; discriminate|]. split; [cbn; lia|].
      intros [|k] z; cbn; [now intros [= <-]|apply IH].
    - revert b; induction a as [|x a IH]; intros [|y b] [L Hk]; cbn in L; try lia; constructor.
      + apply (Hk 0 y). reflexivity.
      + apply IH. split; [lia|]. intros k z. apply (Hk (S k)).
  Qed.
  Lemma good_tapes_in t : In t good_tapes <-> is_tape N (length pairs) t /\
    exists g s', general_sbm G fuel sizes P exact t = Some (Ok (g, s')) /\
      forall i j, i < j -> j < n -> weight g i j = if E i j then 1%R else 0%R.
  Proof.
    unfold good_tapes. rewrite choices_in, (Forall2_nth _ _ _ 0), map_length. destruct (tape_graph t) as (g & Eg & Hw). split.
    - intros [L Hk]. split.
      + split; auto. apply Forall_forall. intros x Hx. apply (In_nth _ _ 0) in Hx. destruct Hx as (k & Hlt & <-).
        destruct (nth_error pairs k) as [q|] eqn:Eq; [|apply nth_error_None in Eq; lia].
        specialize (Hk k _ (map_nth_error _ _ _ Eq)). apply filter_In in Hk. destruct Hk as [Hk _]. apply in_seq in Hk. lia.
      + exists g. eexists. split; [exact Eg|]. intros i j H1 H2. assert (In (i, j) pairs) as Hin by (now apply pairs_in).
        apply In_nth_error in Hin. destruct Hin as [k Ek]. rewrite (Hw k i j Ek). specialize (Hk k _ (map_nth_error _ _ _ Ek)).
        apply filter_In in Hk. destruct Hk as [_ Hk]. cbn [fst snd] in Hk. unfold okb in Hk. apply Bool.eqb_prop in Hk.
        rewrite <- Hk. now destruct (Rlt_dec _ _).
    - intros [[L F] (g' & s' & Eg' & Hw')]. rewrite Eg in Eg'. assert (g' = g) as -> by congruence. split; auto.
      intros k y Hk. rewrite nth_error_map in Hk. destruct (nth_error pairs k) as [[i j]|] eqn:Eq; [|discriminate].
      cbn [option_map fst snd] in Hk. injection Hk as <-. apply filter_In. split.
      + apply in_seq. cbn. split; [lia|]. rewrite Forall_forall in F. apply F. apply nth_In. rewrite L. apply nth_error_Some. congruence.
      + pose proof (nth_error_In _ _ Eq) as Hin. apply pairs_in in Hin. pose proof (Hw k i j Eq) as E1. rewrite (Hw' i j) in E1 by tauto.
        unfold okb. destruct (Rlt_dec _ _); destruct (E i j); auto; exfalso; lra.
  Qed.
  Theorem sbm_distribution : exists S : list (list nat), NoDup S /\
    (forall t, In t S <-> is_tape N (n * (n - 1) / 2) t /\
       exists g s', general_sbm G fuel sizes P exact t = Some (Ok (g, s')) /\
         forall i j, i < j -> j < n -> weight g i j = if E i j then 1%R else 0%R) /\
    (INR (length S) / INR N ^ (n * (n - 1) / 2) =
       pair_prod n (fun i j => if E i j then INR (below N (prob i j)) / INR N else 1 - INR (below N (prob i j)) / INR N))%R.
  Proof.
    assert (Permutation pairs (canon n)) as Hp by (apply pairs_perm; [apply pairs_nodup|apply pairs_in]).
    assert (length pairs = n * (n - 1) / 2) as Lp.
    { rewrite (Permutation_length Hp). clear. unfold canon. assert (forall l, length (flat_map (fun j => map (fun i => (i, j)) (seq 0 j)) l) = nsum l) as H.
      { induction l as [|j l IH]; cbn [flat_map nsum fold_right]; auto. rewrite app_length, map_length, seq_length, IH. reflexivity. }
      rewrite H. apply (Nat.div_unique_exact (n * (n - 1)) 2); [lia|]. clear H. induction n as [|m IH]; auto.
      rewrite seq_S. assert (nsum (seq 0 m ++ [0 + m]) = nsum (seq 0 m) + m) as E by (clear; induction (seq 0 m) as [|x l IH]; cbn [app nsum fold_right] in *; [lia|unfold nsum in *; lia]).
      rewrite E. nia. }
    exists good_tapes. split; [|split].
    - apply choices_NoDup. apply Forall_forall. intros l Hl. apply in_map_iff in Hl. destruct Hl as (q & <- & _). apply NoDup_filter, seq_NoDup.
    - rewrite <- Lp. apply good_tapes_in.
    - rewrite <- Lp, pair_prod_canon. set (f := fun q : nat * nat => if E (fst q) (snd q) then (INR (below N (prob (fst q) (snd q))) / INR N)%R else (1 - INR (below N (prob (fst q) (snd q))) / INR N)%R).
      match goal with |- _ = ?r => change r with (fold_right (fun x acc => (f x * acc)%R) 1%R (canon n)) end.
      rewrite <- (fold_prod_perm f _ _ Hp). unfold good_tapes. rewrite choices_length. clear Lp Hp.
      assert (INR N <> 0)%R as NZ by (apply not_0_INR; lia).
      induction pairs as [|q l IH]; cbn [map fold_right length pow]; [field|]. rewrite <- IH. rewrite okb_count by auto. unfold f.
      assert (INR N ^ length l <> 0)%R by (now apply pow_nonzero). destruct (E (fst q) (snd q)); field; auto.
  Qed.
End Dist.

(** ** sbm and erdos_renyi *)
(** Number of pairs i < j < n with E i j. *)
Definition edge_count (n : nat) (E : nat -> nat -> bool) : nat := length (filter (fun q => E (fst q) (snd q)) (canon n)).
Lemma pair_prod_ext n f g : (forall i j, i < j -> j < n -> f i j = g i j) -> pair_prod n f = pair_prod n g.
Proof.
  intros H. rewrite !pair_prod_canon. assert (forall i j, In (i, j) (canon n) -> f i j = g i j) as Hc by (intros i j Hi; apply canon_in in Hi; now apply H).
  induction (canon n) as [|[i j] l IH]; cbn [fold_right fst snd]; auto. rewrite IH by (intros; apply Hc; now right). rewrite (Hc i j) by (now left). reflexivity.
Qed.
Lemma pair_prod_const n (E : nat -> nat -> bool) (a b : R) : pair_prod n (fun i j => if E i j then a else b : R) = (a ^ edge_count n E * b ^ (n * (n - 1) / 2 - edge_count n E))%R.
Proof.
  assert (length (canon n) = n * (n - 1) / 2) as L.
  { unfold canon. assert (forall l, length (flat_map (fun j => map (fun i => (i, j)) (seq 0 j)) l) = nsum l) as H.
    { induction l as [|j l IH]; cbn [flat_map nsum fold_right]; auto. rewrite app_length, map_length, seq_length, IH. reflexivity. }
    rewrite H. apply (Nat.div_unique_exact (n * (n - 1)) 2); [lia|]. clear H. induction n as [|m IH]; auto.
    rewrite seq_S. assert (nsum (seq 0 m ++ [0 + m]) = nsum (seq 0 m) + m) as E0 by (clear; induction (seq 0 m) as [|x l IH]; cbn [app nsum fold_right] in *; [lia|unfold nsum in *; lia]).
    rewrite E0. nia. }
  rewrite <- L, pair_prod_canon. unfold edge_count. clear L. induction (canon n) as [|q l IH]; cbn [fold_right filter length]; [cbn; lra|].
  rewrite IH. assert (length (filter (fun q => E (fst q) (snd q)) l) <= length l) as Le
    by (clear; induction l as [|x l IH]; cbn [filter length]; auto; destruct (E (fst x) (snd x)); cbn [length]; lia).
  destruct (E (fst q) (snd q)); cbn [length].
  - cbn [pow Nat.sub]. ring.
  - rewrite Nat.sub_succ_l by auto. cbn [pow]. ring.
Qed.
Theorem sbm_nk_distribution (n k : Z) (p q : R) (N fuel : nat) (G : rng R (list nat)) (E : nat -> nat -> bool) :
  (1 <= k)%Z -> (k <= n / 2)%Z -> (0 <= p <= 1)%R -> (0 <= q <= 1)%R -> 0 < N -> reads_tape N G ->
  let n' := Z.to_nat (k * (n / k)) in
  exists S : list (list nat), NoDup S /\
    (forall t, In t S <-> is_tape N (n' * (n' - 1) / 2) t /\
       exists g s', sbm G fuel n k p q true t = Some (Ok (g, s')) /\
         forall i j, i < j -> j < n' -> weight g i j = if E i j then 1%R else 0%R) /\
    (INR (length S) / INR N ^ (n' * (n' - 1) / 2) =
       pair_prod n' (fun i j => let r := if (Z.of_nat i / (n / k) =? Z.of_nat j / (n / k))%Z then p else q in
         if E i j then INR (below N r) / INR N else 1 - INR (below N r) / INR N))%R.
Proof.
  intros H1 H2 Hp Hq HN HG n'.
  assert (wltb p w0 = false /\ wltb w1 p = false /\ wltb q w0 = false /\ wltb w1 q = false) as (P0 & P1 & Q0 & Q1).
  { assert (forall a b : R, (b <= a)%R -> wltb a b = false) as F.
    { intros a b L. destruct (wltb a b) eqn:B; auto. apply (toR_ltb (W := R)) in B. cbn [toR ExactR] in B. lra. }
    repeat split; apply F; cbn; lra. }
  pose proof (sbm_sizes_sum n k H1 H2) as Hsum.
  destruct (sbm_distribution (sbm_sizes n k) (sbm_probs k p q) true N fuel G E) as (Sx & ND & Hin & Hcount); auto.
  { now apply sbm_valid. } { now left. }
  rewrite Hsum in Hin, Hcount. fold n' in Hin, Hcount. exists Sx. split; [exact ND|].
  assert (1 <= n)%Z as Hn by (assert (2 * (n / 2) <= n)%Z by (apply Z.mul_div_le; lia); lia).
  assert (forall t, sbm G fuel n k p q true t = general_sbm G fuel (sbm_sizes n k) (sbm_probs k p q) true t) as Es.
  { intros t. unfold sbm. rewrite (proj2 (sbm_nk_ok_iff n k)) by auto. rewrite P0, P1, Q0, Q1. reflexivity. }
  split; [intros t; rewrite Es; apply Hin|]. rewrite Hcount. apply pair_prod_ext. intros i j Hij Hj. cbv zeta.
  assert (2 * (n / 2) <= n)%Z by (apply Z.mul_div_le; lia). assert (1 <= n / k)%Z as Hm by (apply Z.div_le_lower_bound; lia).
  rewrite nsizes_sbm.
  assert (forall v, (v < n')%nat -> Z.of_nat v / (n / k) = Z.of_nat (block (repeat (Z.to_nat (n / k)) (Z.to_nat k)) v))%Z as Hb.
  { intros v Hv. rewrite block_repeat by (unfold n' in Hv; nia). rewrite Nat2Z.inj_div, Z2Nat.id by lia. reflexivity. }
  rewrite (Hb i), (Hb j) by lia. cbn [sbm_probs dm_at].
  destruct (Nat.eqb_spec (block (repeat (Z.to_nat (n / k)) (Z.to_nat k)) i) (block (repeat (Z.to_nat (n / k)) (Z.to_nat k)) j)) as [->|Hne].
  - rewrite Z.eqb_refl. reflexivity.
  - destruct (Z.eqb_spec (Z.of_nat (block (repeat (Z.to_nat (n / k)) (Z.to_nat k)) i)) (Z.of_nat (block (repeat (Z.to_nat (n / k)) (Z.to_nat k)) j))); [lia|reflexivity].
Qed.
(** erdos_renyi(n, p): with p = a/N on the grid, exactly p^m (1-p)^(n(n-1)/2 - m) for every graph with m edges. *)
Theorem erdos_renyi_distribution (n : Z) (N a fuel : nat) (G : rng R (list nat)) (E : nat -> nat -> bool) :
  (2 <= n)%Z -> a <= N -> 0 < N -> reads_tape N G ->
  let n' := Z.to_nat n in let p := (INR a / INR N)%R in
  exists S : list (list nat), NoDup S /\
    (forall t, In t S <-> is_tape N (n' * (n' - 1) / 2) t /\
       exists g s', erdos_renyi G fuel n p true t = Some (Ok (g, s')) /\
         forall i j, i < j -> j < n' -> weight g i j = if E i j then 1%R else 0%R) /\
    (INR (length S) / INR N ^ (n' * (n' - 1) / 2) = p ^ edge_count n' E * (1 - p) ^ (n' * (n' - 1) / 2 - edge_count n' E))%R.
Proof.
  intros Hn Ha HN HG n' p. assert (0 < INR N)%R as PN by (now apply lt_0_INR).
  assert (0 <= INR a <= INR N)%R as B by (split; [apply pos_INR|now apply le_INR]).
  assert (INR a / INR N * INR N = INR a)%R as Ep by (field; lra).
  assert (0 <= p <= 1)%R as Hp by (unfold p; split; apply (Rmult_le_reg_r (INR N)); try lra; rewrite Ep; lra).
  assert (1 <= n / 2)%Z as H2 by (apply Z.div_le_lower_bound; lia).
  destruct (sbm_nk_distribution n 1 p 0 N fuel G E) as (Sx & ND & Hin & Hcount); auto; [lia|lra|].
  rewrite Z.div_1_r, Z.mul_1_l in Hin, Hcount. fold n' in Hin, Hcount. exists Sx. split; [exact ND|]. split; [exact Hin|].
  rewrite Hcount. rewrite <- pair_prod_const. apply pair_prod_ext. intros i j Hij Hj. cbv zeta.
  rewrite !Z.div_small by (unfold n' in Hj; lia). cbn [Z.eqb]. rewrite (below_grid N a p HN Ha eq_refl). reflexivity.
Qed.
