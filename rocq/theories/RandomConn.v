(** All cuts of a random graph are close to their means; connectivity; the generators of stag. *)
From Verif Require Import Base Num RSum Sparse SparseFacts Graph GraphSpec GraphFacts GraphProps1 GraphProps2 Cluster ClusterCC ClusterSpec ClusterInst ClusterExamples RandomGraph RandomFacts RandomTop RandomTop2 RandomDist RecoverTop AsgLaw AsgConc RandomConc RandomCuts.
From Coq Require Import Reals Lra Psatz Lia List Permutation Relations.
Import ListNotations.
Local Open Scope nat_scope.

(** A set of vertices that is neither empty nor everything. *)
Definition proper (n : nat) (A : nat -> bool) : Prop := (exists u, u < n /\ A u = true) /\ (exists u, u < n /\ A u = false).
(** Weight of the edges between A and the other vertices. *)
Definition cut (n : nat) (w : nat -> nat -> R) (A : nat -> bool) : R := rsum n (fun u => rsum n (fun v => if A u && negb (A v) then w u v else 0%R)).

Section Cuts.
  Variables (N n : nat) (pairs : list (nat * nat)) (prob : nat -> nat -> R) (run : list nat -> option (outcome (graph R * list nat))).
  Hypothesis HN : 0 < N.
  Hypothesis HG : coin_graphs N n pairs prob run.
  Local Notation m := (length pairs).
  Definition low (eps mean x : R) : Prop := (x <= (1 - eps) * mean)%R.
  Definition high (eps mean x : R) : Prop := (mean + eps * mean <= x)%R.
  Lemma low_dec eps a b : {low eps a b} + {~ low eps a b}. Proof. apply Rle_dec. Defined.
  Lemma high_dec eps a b : {high eps a b} + {~ high eps a b}. Proof. apply Rle_dec. Defined.
  Lemma mean_pos c : (forall i j, i < j -> j < n -> (0 <= c i j <= 1)%R) -> (0 <= coins_mean N m (pth pairs prob) (cth pairs c))%R.
  Proof.
    intros Hc. apply rsum_nonneg. intros k Hk. apply Rmult_le_pos; [now apply (coef_bounds N n pairs prob run HG c 1 Hc k Hk)|]. unfold chance. apply Rmult_le_pos; [apply pos_INR|apply (unif_nonneg N 0)].
  Qed.
  Lemma test_low eps : (0 <= eps)%R -> forall c, (forall i j, i < j -> j < n -> (0 <= c i j <= 1)%R) ->
    (Etape N m (fun t => indb (if low_dec eps (coins_mean N m (pth pairs prob) (cth pairs c)) (coins N m (pth pairs prob) (cth pairs c) t) then true else false)) <= exp (- (eps ^ 2 / 2 * coins_mean N m (pth pairs prob) (cth pairs c))))%R.
  Proof.
    intros He c Hc. eapply Rle_trans; [|eapply Rle_trans; [apply (coins_lower N m (pth pairs prob) (cth pairs c) 1 eps HN Rlt_0_1); auto|]].
    - apply Etape_mono. intros t _. destruct (low_dec _ _ _) as [L|L], (Rle_dec _ _) as [L'|L']; cbn [indb]; try lra; unfold low in L; tauto.
    - intros k Hk. now apply (coef_bounds N n pairs prob run HG c 1 Hc).
    - apply exp_mono. lra.
  Qed.
  Lemma test_high eps : (0 <= eps <= 1)%R -> forall c, (forall i j, i < j -> j < n -> (0 <= c i j <= 1)%R) ->
    (Etape N m (fun t => indb (if high_dec eps (coins_mean N m (pth pairs prob) (cth pairs c)) (coins N m (pth pairs prob) (cth pairs c) t) then true else false)) <= exp (- (eps ^ 2 / 3 * coins_mean N m (pth pairs prob) (cth pairs c))))%R.
  Proof.
    intros He c Hc. eapply Rle_trans; [|eapply Rle_trans; [apply (coins_upper N m (pth pairs prob) (cth pairs c) 1 (coins_mean N m (pth pairs prob) (cth pairs c)) eps HN Rlt_0_1); auto|]].
    - apply Etape_mono. intros t _. destruct (high_dec _ _ _) as [L|L], (Rle_dec _ _) as [L'|L']; cbn [indb]; try lra; unfold high in L; tauto.
    - intros k Hk. now apply (coef_bounds N n pairs prob run HG c 1 Hc).
    - lra.
    - apply exp_mono. lra.
  Qed.
  Lemma count_all : count n (fun _ => true) = n.
  Proof. unfold count. rewrite <- (seq_length n 0) at 2. f_equal. induction (seq 0 n) as [|x l IH]; cbn [filter]; congruence. Qed.
  Lemma all_true_cut w A : cut_between n w (fun v => true && A v) (fun v => true && negb (A v)) = cut n w A.
  Proof. reflexivity. Qed.
  Lemma all_cuts q eps : (0 <= q)%R -> (forall i j, i < j -> j < n -> (q <= mean_weight N prob i j)%R) -> (0 <= eps <= 1)%R ->
    all_but N m (2 * (exp (INR n * exp (- (eps ^ 2 * q * INR n / 6))) - 1)) (fun t => exists g s', run t = Some (Ok (g, s')) /\
      forall A, proper n A -> ((1 - eps) * cut n (mean_weight N prob) A < cut n (rw g) A < (1 + eps) * cut n (mean_weight N prob) A)%R).
  Proof.
    intros Hq0 Hq He. pose proof count_all as Ec.
    set (lo := fun t => existsb (fun S => bad_set N n pairs prob (low eps) (fun _ => true) (low_dec eps) S t) (subsets (filter (fun _ => true) (seq 0 n)))).
    set (hi := fun t => existsb (fun S => bad_set N n pairs prob (high eps) (fun _ => true) (high_dec eps) S t) (subsets (filter (fun _ => true) (seq 0 n)))).
    assert (Etape N m (fun t => indb (lo t)) <= exp (INR n * exp (- (eps ^ 2 / 2 * q * INR n / 2))) - 1)%R as H1.
    { pose proof (sets_fail N n pairs prob run HN HG (low eps) (eps ^ 2 / 2) q (fun _ => true) (low_dec eps) ltac:(pose proof (pow2_ge_0 eps); lra) ltac:(auto) Hq0 (test_low eps ltac:(lra))) as F. rewrite Ec in F. exact F. }
    assert (Etape N m (fun t => indb (hi t)) <= exp (INR n * exp (- (eps ^ 2 / 3 * q * INR n / 2))) - 1)%R as H2.
    { pose proof (sets_fail N n pairs prob run HN HG (high eps) (eps ^ 2 / 3) q (fun _ => true) (high_dec eps) ltac:(pose proof (pow2_ge_0 eps); lra) ltac:(auto) Hq0 (test_high eps He)) as F. rewrite Ec in F. exact F. }
    apply (all_but_intro N m _ (fun t => lo t || hi t) _ HN).
    - eapply Rle_trans; [apply Etape_or|]. assert (0 <= eps ^ 2 * q * INR n)%R as P by (apply Rmult_le_pos; [apply Rmult_le_pos; [apply pow2_ge_0|auto]|apply pos_INR]).
      assert (exp (INR n * exp (- (eps ^ 2 / 2 * q * INR n / 2))) <= exp (INR n * exp (- (eps ^ 2 * q * INR n / 6))))%R by (apply exp_mono, Rmult_le_compat_l; [apply pos_INR|]; apply exp_mono; lra).
      assert (exp (INR n * exp (- (eps ^ 2 / 3 * q * INR n / 2))) <= exp (INR n * exp (- (eps ^ 2 * q * INR n / 6))))%R by (apply exp_mono, Rmult_le_compat_l; [apply pos_INR|]; apply exp_mono; lra).
      lra.
    - intros t _ Hb. apply Bool.orb_false_iff in Hb as [B1 B2]. destruct (run_graph N n pairs prob run HG t) as (g & s' & E & _). exists g, s'. split; auto. intros A [PA PB].
      assert (exists u, u < n /\ true = true /\ A u = true) as PA' by (destruct PA as (u & ? & ?); exists u; auto). assert (exists u, u < n /\ true = true /\ A u = false) as PB' by (destruct PB as (u & ? & ?); exists u; auto).
      pose proof (sets_good N n pairs prob run HN HG (low eps) (fun _ => true) (low_dec eps) t g s' A E B1 PA' PB') as G1.
      pose proof (sets_good N n pairs prob run HN HG (high eps) (fun _ => true) (high_dec eps) t g s' A E B2 PA' PB') as G2.
      rewrite !all_true_cut in G1, G2. unfold low in G1. unfold high in G2. lra.
  Qed.

  (** ** Connectivity *)
  Lemma rsum_pos_term k f : (0 < rsum k f)%R -> exists i, i < k /\ (0 < f i)%R.
  Proof.
    induction k as [|k IH]; [rewrite rsum_0; lra|]. rewrite rsum_S. intros H. destruct (Rlt_dec 0 (f k)) as [L|L]; [exists k; split; [lia|auto]|].
    destruct IH as (i & Hi & Fi); [lra|]. exists i. split; [lia|auto].
  Qed.
  Lemma cuts_connected g fuel : reachable_pos g -> number_of_vertices g = n -> 0 < n <= fuel -> (forall A, proper n A -> (0 < cut n (rw g) A)%R) -> is_connected fuel g = Some (Ok true).
  Proof.
    intros Hr En Hf Hc. pose proof (reachable_pos_reachable g Hr) as Hr'. unfold number_of_vertices in En.
    destruct (is_connected_spec g fuel Hr') as (b & Eb & Hb); [rewrite En; lia|]. rewrite Eb. do 2 f_equal. apply Hb.
    destruct (graph_component g fuel 0 Hr') as (l & _ & Hd & Hl); [rewrite En; lia|].
    assert (forall v, v < n -> gpath g 0 v) as Hall.
    { intros v Hv. destruct (mem l v) eqn:Ev; [apply Hl; now apply mem_in|exfalso]. assert (0 < cut n (rw g) (mem l))%R as P.
      { apply Hc. split; [exists 0; split; [lia|]; apply mem_in, Hl, rt_refl|exists v; auto]. }
      unfold cut in P. apply rsum_pos_term in P as (u & Hu & P). apply rsum_pos_term in P as (x & Hx & P).
      destruct (mem l u) eqn:Eu; cbn [andb] in P; [|lra]. destruct (mem l x) eqn:Ex; cbn [negb] in P; [lra|].
      assert (stored_edge g u x) as Hs.
      { unfold stored_edge. intros Z. unfold rw, weight, coeff in P. rewrite Z in P. cbn in P. lra. }
      assert (mem l x = true); [|congruence]. apply mem_in, Hl. eapply rt_trans; [apply Hl, mem_in, Eu|now apply rt_step]. }
    intros u v Hu Hv. rewrite En in Hu, Hv. eapply rt_trans; [apply gpath_sym; [auto|now apply Hall]|now apply Hall].
  Qed.
  Lemma connectivity q fuel : (0 <= q)%R -> (forall i j, i < j -> j < n -> (q <= mean_weight N prob i j)%R) -> 0 < n <= fuel ->
    all_but N m (exp (INR n * exp (- (q * INR n / 4))) - 1) (fun t => exists g s', run t = Some (Ok (g, s')) /\ is_connected fuel g = Some (Ok true)).
  Proof.
    intros Hq0 Hq Hf. pose proof count_all as Ec.
    set (lo := fun t => existsb (fun S => bad_set N n pairs prob (low 1) (fun _ => true) (low_dec 1) S t) (subsets (filter (fun _ => true) (seq 0 n)))).
    apply (all_but_intro N m _ lo _ HN).
    - eapply Rle_trans; [apply (sets_fail N n pairs prob run HN HG (low 1) (1 ^ 2 / 2) q (fun _ => true) (low_dec 1)); auto; [lra|apply test_low; lra]|]. rewrite Ec.
      apply Req_le. do 3 f_equal. f_equal. field.
    - intros t _ Hb. destruct (run_graph N n pairs prob run HG t) as (g & s' & E & En & Hr & _). exists g, s'. split; auto. apply cuts_connected; auto. intros A [PA PB].
      assert (exists u, u < n /\ true = true /\ A u = true) as PA' by (destruct PA as (u & ? & ?); exists u; auto). assert (exists u, u < n /\ true = true /\ A u = false) as PB' by (destruct PB as (u & ? & ?); exists u; auto).
      pose proof (sets_good N n pairs prob run HN HG (low 1) (fun _ => true) (low_dec 1) t g s' A E Hb PA' PB') as G1. rewrite !all_true_cut in G1. unfold low in G1. lra.
  Qed.
End Cuts.

(** ** The generators *)
Lemma hit_weight N G t k (p : R) : reads_tape N G -> (if wltb (draw G t k) p then w1 else w0 : R) = hit N p (nth k t 0).
Proof.
  intros HG. rewrite (draw_tape N) by auto. unfold hit. destruct (Rlt_dec _ _) as [L|L].
  - assert (wltb (INR (nth k t 0%nat) / INR N)%R p = true) as -> by (now apply (toR_ltb (W := R))). reflexivity.
  - destruct (wltb (INR (nth k t 0%nat) / INR N)%R p) eqn:B; [|reflexivity]. apply (toR_ltb (W := R)) in B. contradiction.
Qed.
Lemma general_sbm_coin_graphs sizes P exact N fuel G : valid_sbm sizes P -> coin_per_pair sizes P exact -> 0 < N -> reads_tape N G ->
  coin_graphs N (Z.to_nat (zsum sizes)) (all_pairs sizes) (fun i j => dm_at P (block (nsizes sizes) i) (block (nsizes sizes) j)) (general_sbm G fuel sizes P exact).
Proof.
  intros Hv Hc HN HG. split; [apply NoDup_plan|]. split; [exact (pairs_in sizes P N Hv HN)|]. intros t. destruct (general_sbm_coins_full G sizes fuel P exact t Hv Hc) as (g & Eg & En & Hw & Hl & Hr).
  exists g. eexists. split; [exact Eg|]. split; [lia|]. split; [exact Hr|]. split; [intros v; unfold rw; rewrite Hl; reflexivity|].
  intros k i j Hk. unfold rw. destruct (Hw k i j Hk) as [-> _]. now apply hit_weight.
Qed.
Lemma sbm_coin_graphs n k (p q : R) N fuel G : (1 <= k)%Z -> (k <= n / 2)%Z -> (0 <= p <= 1)%R -> (0 <= q <= 1)%R -> 0 < N -> reads_tape N G ->
  coin_graphs N (Z.to_nat (k * (n / k))) (all_pairs (sbm_sizes n k)) (fun i j => if (Z.of_nat i / (n / k) =? Z.of_nat j / (n / k))%Z then p else q) (sbm G fuel n k p q true).
Proof.
  intros H1 H2 Hp Hq HN HG.
  assert (wltb p w0 = false /\ wltb w1 p = false /\ wltb q w0 = false /\ wltb w1 q = false) as (P0 & P1 & Q0 & Q1).
  { assert (forall a b : R, (b <= a)%R -> wltb a b = false) as F.
    { intros a b L. destruct (wltb a b) eqn:B; auto. apply (toR_ltb (W := R)) in B. cbn [toR ExactR] in B. lra. }
    repeat split; apply F; cbn; lra. }
  pose proof (sbm_sizes_sum n k H1 H2) as Hsum.
  destruct (general_sbm_coin_graphs (sbm_sizes n k) (sbm_probs k p q) true N fuel G) as (A & B & C); auto; [now apply sbm_valid|now left|]. rewrite Hsum in B, C.
  split; [exact A|]. split; [exact B|]. intros t. destruct (C t) as (g & s' & Eg & En & Hr & Hl & Hw). exists g, s'.
  assert (1 <= n)%Z as Hn by (assert (2 * (n / 2) <= n)%Z by (apply Z.mul_div_le; lia); lia).
  split; [unfold sbm; rewrite (proj2 (sbm_nk_ok_iff n k)) by auto; rewrite P0, P1, Q0, Q1; exact Eg|]. split; [exact En|]. split; [exact Hr|]. split; [exact Hl|].
  intros e i j He. rewrite (Hw e i j He). apply nth_error_In in He. apply B in He as [Hij Hj]. f_equal. rewrite nsizes_sbm.
  assert (2 * (n / 2) <= n)%Z by (apply Z.mul_div_le; lia). assert (1 <= n / k)%Z as Hm by (apply Z.div_le_lower_bound; lia).
  assert (forall v, (v < Z.to_nat (k * (n / k)))%nat -> Z.of_nat v / (n / k) = Z.of_nat (block (repeat (Z.to_nat (n / k)) (Z.to_nat k)) v))%Z as Hb.
  { intros v Hv. rewrite block_repeat by nia. rewrite Nat2Z.inj_div, Z2Nat.id by lia. reflexivity. }
  rewrite (Hb i), (Hb j) by lia. cbn [sbm_probs dm_at].
  destruct (Nat.eqb_spec (block (repeat (Z.to_nat (n / k)) (Z.to_nat k)) i) (block (repeat (Z.to_nat (n / k)) (Z.to_nat k)) j)) as [->|Hne].
  - rewrite Z.eqb_refl. reflexivity.
  - destruct (Z.eqb_spec (Z.of_nat (block (repeat (Z.to_nat (n / k)) (Z.to_nat k)) i)) (Z.of_nat (block (repeat (Z.to_nat (n / k)) (Z.to_nat k)) j))); [lia|reflexivity].
Qed.
