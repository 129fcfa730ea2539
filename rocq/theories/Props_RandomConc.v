(** C96: concentration and connectivity of the generated random graphs (stag_lib/random.cpp). *)
From Verif Require Import Base Num RSum Sparse SparseFacts Graph GraphSpec GraphFacts GraphProps1 GraphProps2 Cluster ClusterCC ClusterSpec ClusterInst ClusterExamples RandomGraph RandomFacts RandomTop RandomTop2 RandomDist Props_RandomDist RecoverTop AsgLaw AsgConc RandomConc RandomCuts RandomConn.
From Coq Require Import Reals Lra Psatz Lia List.
Import ListNotations.
Local Open Scope nat_scope.

(** The tapes are those of C68: the canonical samples of the generator are uniform on the grid 0, 1/N, .., (N-1)/N.  [mean_weight N prob u v] is the probability of the edge {u,v},
    [all_but N m delta Q] says that at most a fraction delta of the N^m tapes violates Q. *)

(** The average over all tapes of any weighted sum of the edges. *)
Theorem C96_average :
  forall (sizes : list Z) (P : dmat R) (exact : bool) (N fuel : nat) (G : rng R (list nat)) (c : nat -> nat -> R),
  valid_sbm sizes P -> coin_per_pair sizes P exact -> 0 < N -> reads_tape N G ->
  let n := Z.to_nat (zsum sizes) in
  let prob i j := dm_at P (block (nsizes sizes) i) (block (nsizes sizes) j) in
  exists S : list (list nat), NoDup S /\ (forall t, In t S <-> is_tape N (n * (n - 1) / 2) t) /\
    (lsum (fun t => match general_sbm G fuel sizes P exact t with Some (Ok (g, _)) => pair_sum n (fun i j => c i j * rw g i j)%R | _ => 0%R end) S / INR N ^ (n * (n - 1) / 2) =
      pair_sum n (fun i j => c i j * mean_weight N prob i j))%R.
Proof.
  intros sizes P exact N fuel G c Hv Hc HN HG n prob. pose proof (general_sbm_coin_graphs sizes P exact N fuel G Hv Hc HN HG) as CG.
  pose proof (m_pairs _ _ _ _ _ HN CG) as Em. fold n in Em. exists (tapes N (n * (n - 1) / 2)). split; [apply tapes_nodup|]. split; [apply tapes_in|].
  rewrite <- Em. rewrite <- (average N n (all_pairs sizes) prob _ HN CG c), (Etape_tapes N (length (all_pairs sizes)) HN). f_equal. apply lsum_ext. intros t _.
  destruct (run_graph _ _ _ _ _ CG t) as (g & s' & E & _). rewrite E. symmetry. exact (graph_coins _ _ _ _ _ CG t g s' c E).
Qed.
Print Assumptions C96_average.

(** A weighted sum of the edges with coefficients between 0 and M (number of edges, degree of a vertex, one cut) is within (1 +- eps) of its mean mu. *)
Theorem C96_weighted_sum :
  forall (sizes : list Z) (P : dmat R) (exact : bool) (N fuel : nat) (G : rng R (list nat)) (c : nat -> nat -> R) (M eps : R),
  valid_sbm sizes P -> coin_per_pair sizes P exact -> 0 < N -> reads_tape N G ->
  let n := Z.to_nat (zsum sizes) in
  let prob i j := dm_at P (block (nsizes sizes) i) (block (nsizes sizes) j) in
  (0 < M)%R -> (forall i j, i < j -> j < n -> (0 <= c i j <= M)%R) -> (0 <= eps <= 1)%R ->
  let mu := pair_sum n (fun i j => c i j * mean_weight N prob i j)%R in
  all_but N (n * (n - 1) / 2) (exp (- (eps ^ 2 * mu / (3 * M))) + exp (- (eps ^ 2 * mu / (2 * M)))) (fun t => exists g s', general_sbm G fuel sizes P exact t = Some (Ok (g, s')) /\
    ((1 - eps) * mu < pair_sum n (fun i j => c i j * rw g i j) < (1 + eps) * mu)%R).
Proof.
  intros sizes P exact N fuel G c M eps Hv Hc HN HG n prob HM Hb He mu. pose proof (general_sbm_coin_graphs sizes P exact N fuel G Hv Hc HN HG) as CG.
  pose proof (m_pairs _ _ _ _ _ HN CG) as Em. fold n in Em. rewrite <- Em. now apply (weighted_sum N n (all_pairs sizes) prob _ HN CG c M eps).
Qed.
Print Assumptions C96_weighted_sum.

(** All cuts at once: if every pair has probability at least q, the weight between A and the other vertices is within (1 +- eps) of its mean for every set A. *)
Theorem C96_all_cuts :
  forall (sizes : list Z) (P : dmat R) (exact : bool) (N fuel : nat) (G : rng R (list nat)) (q eps : R),
  valid_sbm sizes P -> coin_per_pair sizes P exact -> 0 < N -> reads_tape N G ->
  let n := Z.to_nat (zsum sizes) in
  let prob i j := dm_at P (block (nsizes sizes) i) (block (nsizes sizes) j) in
  (0 <= q)%R -> (forall i j, i < j -> j < n -> (q <= mean_weight N prob i j)%R) -> (0 <= eps <= 1)%R ->
  all_but N (n * (n - 1) / 2) (2 * (exp (INR n * exp (- (eps ^ 2 * q * INR n / 6))) - 1)) (fun t => exists g s', general_sbm G fuel sizes P exact t = Some (Ok (g, s')) /\
    forall A, proper n A -> ((1 - eps) * cut n (mean_weight N prob) A < cut n (rw g) A < (1 + eps) * cut n (mean_weight N prob) A)%R).
Proof.
  intros sizes P exact N fuel G q eps Hv Hc HN HG n prob Hq0 Hq He. pose proof (general_sbm_coin_graphs sizes P exact N fuel G Hv Hc HN HG) as CG.
  pose proof (m_pairs _ _ _ _ _ HN CG) as Em. fold n in Em. rewrite <- Em. now apply (all_cuts N n (all_pairs sizes) prob _ HN CG q eps).
Qed.
Print Assumptions C96_all_cuts.

(** Connectivity: is_connected answers true. *)
Theorem C96_connected :
  forall (sizes : list Z) (P : dmat R) (exact : bool) (N fuel cfuel : nat) (G : rng R (list nat)) (q : R),
  valid_sbm sizes P -> coin_per_pair sizes P exact -> 0 < N -> reads_tape N G ->
  let n := Z.to_nat (zsum sizes) in
  let prob i j := dm_at P (block (nsizes sizes) i) (block (nsizes sizes) j) in
  (0 <= q)%R -> (forall i j, i < j -> j < n -> (q <= mean_weight N prob i j)%R) -> 0 < n <= cfuel ->
  all_but N (n * (n - 1) / 2) (exp (INR n * exp (- (q * INR n / 4))) - 1) (fun t => exists g s', general_sbm G fuel sizes P exact t = Some (Ok (g, s')) /\
    is_connected cfuel g = Some (Ok true)).
Proof.
  intros sizes P exact N fuel cfuel G q Hv Hc HN HG n prob Hq0 Hq Hf. pose proof (general_sbm_coin_graphs sizes P exact N fuel G Hv Hc HN HG) as CG.
  pose proof (m_pairs _ _ _ _ _ HN CG) as Em. fold n in Em. rewrite <- Em. now apply (connectivity N n (all_pairs sizes) prob _ HN CG q cfuel).
Qed.
Print Assumptions C96_connected.

(** The probability of a pair is its entry of the matrix, to within 1/N. *)
Theorem C96_mean_weight : forall N prob u v, 0 < N -> (0 <= prob (Nat.min u v) (Nat.max u v) <= 1)%R -> u <> v ->
  (prob (Nat.min u v) (Nat.max u v) <= mean_weight N prob u v < prob (Nat.min u v) (Nat.max u v) + 1 / INR N)%R.
Proof.
  intros N prob u v HN Hp Ne. unfold mean_weight. destruct (Nat.eqb_spec u v); [contradiction|]. now apply (C68_coin_bias N _ HN Hp).
Qed.
Print Assumptions C96_mean_weight.

Lemma erdos_renyi_coin_graphs n (p : R) N fuel G : (2 <= n)%Z -> (0 <= p <= 1)%R -> 0 < N -> reads_tape N G ->
  coin_graphs N (Z.to_nat n) (all_pairs (sbm_sizes n 1)) (fun _ _ => p) (erdos_renyi G fuel n p true).
Proof.
  intros Hn Hp HN HG. assert (1 <= n / 2)%Z as H2 by (apply Z.div_le_lower_bound; lia).
  destruct (sbm_coin_graphs n 1 p 0 N fuel G ltac:(lia) H2 Hp ltac:(lra) HN HG) as (A & B & C). rewrite Z.div_1_r, Z.mul_1_l in B, C.
  split; [exact A|]. split; [exact B|]. intros t. destruct (C t) as (g & s' & Eg & En & Hr & Hl & Hw). exists g, s'. repeat (split; [assumption|]).
  intros k i j Hk. rewrite (Hw k i j Hk). apply nth_error_In in Hk. apply B in Hk as [L1 L2]. rewrite !Z.div_small by lia. reflexivity.
Qed.
(** erdos_renyi(n, p): the graph is connected on all but a fraction 2 delta of the tapes if p n >= 4 ln(n / delta). *)
Theorem C96_erdos_renyi_connected :
  forall (n : Z) (p delta : R) (N fuel cfuel : nat) (G : rng R (list nat)),
  (2 <= n)%Z -> (0 <= p <= 1)%R -> 0 < N -> reads_tape N G -> Z.to_nat n <= cfuel -> (0 < delta <= 1 / 2)%R -> (4 * ln (IZR n / delta) <= p * IZR n)%R ->
  let m := Z.to_nat n * (Z.to_nat n - 1) / 2 in
  all_but N m (2 * delta) (fun t => exists g s', erdos_renyi G fuel n p true t = Some (Ok (g, s')) /\ is_connected cfuel g = Some (Ok true)).
Proof.
  intros n p delta N fuel cfuel G Hn Hp HN HG Hf Hd Hpn m. pose proof (erdos_renyi_coin_graphs n p N fuel G Hn Hp HN HG) as CG.
  pose proof (m_pairs _ _ _ _ _ HN CG) as Em. fold m in Em. rewrite <- Em.
  assert (IZR n = INR (Z.to_nat n)) as En by (rewrite INR_IZR_INZ, Z2Nat.id by lia; reflexivity). rewrite En in Hpn.
  assert (0 < INR (Z.to_nat n))%R as Pn by (apply lt_0_INR; lia).
  refine (all_but_mono N _ _ _ _ _ HN _ _ (connectivity N _ _ _ _ HN CG p cfuel _ _ _)); [|intros t _ H; exact H|lra| |lia].
  - assert (exp (- (p * INR (Z.to_nat n) / 4)) <= delta / INR (Z.to_nat n))%R as L.
    { apply Rle_trans with (exp (- ln (INR (Z.to_nat n) / delta))); [apply exp_mono; lra|]. rewrite exp_Ropp, exp_ln by (apply Rdiv_lt_0_compat; lra). apply Req_le. field. lra. }
    apply (Rmult_le_compat_l (INR (Z.to_nat n))) in L; [|lra]. replace (INR (Z.to_nat n) * (delta / INR (Z.to_nat n)))%R with delta in L by (field; lra).
    pose proof (exp_mono _ _ L) as L2. pose proof (exp_above delta ltac:(lra)) as L3. nra.
  - intros i j Hij Hj. pose proof (C96_mean_weight N (fun _ _ => p) i j HN Hp ltac:(lia)). lra.
Qed.
Print Assumptions C96_erdos_renyi_connected.
(** The number of edges of erdos_renyi(n, p), p on the grid. *)
Theorem C96_erdos_renyi_edges :
  forall (n : Z) (a N fuel : nat) (eps : R) (G : rng R (list nat)),
  (2 <= n)%Z -> a <= N -> 0 < N -> reads_tape N G -> (0 <= eps <= 1)%R ->
  let n' := Z.to_nat n in let p := (INR a / INR N)%R in let mu := (p * (INR n' * (INR n' - 1) / 2))%R in
  all_but N (n' * (n' - 1) / 2) (2 * exp (- (eps ^ 2 * mu / 3))) (fun t => exists g s', erdos_renyi G fuel n p true t = Some (Ok (g, s')) /\
    ((1 - eps) * mu < pair_sum n' (rw g) < (1 + eps) * mu)%R).
Proof.
  intros n a N fuel eps G Hn Ha HN HG He n' p mu. assert (0 < INR N)%R as PN by (now apply lt_0_INR).
  assert (0 <= INR a <= INR N)%R as B by (split; [apply pos_INR|now apply le_INR]). assert (INR a / INR N * INR N = INR a)%R as Ep by (field; lra).
  assert (0 <= p <= 1)%R as Hp by (unfold p; split; apply (Rmult_le_reg_r (INR N)); try lra; rewrite Ep; lra).
  pose proof (erdos_renyi_coin_graphs n p N fuel G Hn Hp HN HG) as CG. fold n' in CG. pose proof (m_pairs _ _ _ _ _ HN CG) as Em. rewrite <- Em.
  assert (pair_sum n' (fun i j => 1 * mean_weight N (fun _ _ => p) i j)%R = mu) as Emu.
  { rewrite (pair_sum_ext n' _ (fun _ _ => p)).
    - unfold pair_sum, mu. rewrite (rsum_ext n' _ (fun j => INR j * p)%R) by (intros; apply rsum_const). rewrite rsum_scal_r.
      assert (forall k, rsum k INR = INR k * (INR k - 1) / 2)%R as Es by (induction k as [|k IH]; [rewrite rsum_0; cbn; lra|rewrite rsum_S, IH, S_INR; field]). rewrite Es. ring.
    - intros i j Hij _. unfold mean_weight. destruct (Nat.eqb_spec i j); [lia|]. rewrite (below_grid N a p HN Ha eq_refl). fold p. ring. }
  pose proof (weighted_sum N n' _ (fun _ _ => p) _ HN CG (fun _ _ => 1%R) 1 eps Rlt_0_1 ltac:(intros; lra) He) as W. cbv beta zeta in W. rewrite Emu in W.
  refine (all_but_mono N _ _ _ _ _ HN _ _ W).
  - assert (0 <= mu)%R as Pm. { unfold mu. apply Rmult_le_pos; [tauto|]. assert (1 <= INR n')%R by (replace 1%R with (INR 1) by reflexivity; apply le_INR; unfold n'; lia). nra. }
    pose proof (pow2_ge_0 eps) as P2. assert (0 <= eps ^ 2 * mu)%R by (now apply Rmult_le_pos).
    assert (exp (- (eps ^ 2 * mu / (3 * 1))) <= exp (- (eps ^ 2 * mu / 3)))%R by (apply exp_mono; lra). assert (exp (- (eps ^ 2 * mu / (2 * 1))) <= exp (- (eps ^ 2 * mu / 3)))%R by (apply exp_mono; lra). lra.
  - intros t _ (g & s' & E & L). exists g, s'. split; [exact E|]. rewrite (pair_sum_ext n' (fun i j => 1 * rw g i j)%R (rw g)) in L by (intros; ring). exact L.
Qed.
Print Assumptions C96_erdos_renyi_edges.

(** A block model on three vertices, and erdos_renyi(1000, 1/2): connected on all but one in a million tapes. *)
Example C96_hypotheses_met :
  valid_sbm [2; 1]%Z exTapeP /\ coin_per_pair [2; 1]%Z exTapeP true /\ reads_tape 4 (exTapeG 4) /\
  (forall i j, i < j -> j < 3 -> (1 / 4 <= mean_weight 4 (fun i j => dm_at exTapeP (block (nsizes [2; 1]%Z) i) (block (nsizes [2; 1]%Z) j)) i j)%R) /\
  (4 * ln (IZR 1000 / (1 / 2000000)) <= 1 / 2 * IZR 1000)%R.
Proof.
  destruct C68_hypotheses_met as (A & B & C & D & E & _). split; [exact A|]. split; [exact B|]. split; [exact C|]. split.
  - intros i j Hij Hj. unfold mean_weight. destruct (Nat.eqb_spec i j); [lia|]. rewrite Nat.min_l, Nat.max_r by lia.
    assert (INR (below 4 (1 / 4)) / INR 4 = 1 / 4)%R as E1 by (rewrite E; cbn; lra). assert (INR (below 4 (3 / 4)) / INR 4 = 3 / 4)%R as E3 by (rewrite D; cbn; lra).
    unfold exTapeP, dm_at. destruct (_ =? _); rewrite ?E1, ?E3; lra.
  - assert (ln (1000 / (1 / 2000000)) <= 31 * ln 2)%R as L.
    { replace (31 * ln 2)%R with (INR 31 * ln 2)%R by (cbn [INR]; lra). rewrite <- ln_pow by lra. apply Rlt_le, ln_increasing; lra. }
    assert (ln 2 <= 1)%R by (rewrite <- (ln_exp 1); apply Rlt_le, ln_increasing; [lra|]; pose proof (exp_ineq1 1 ltac:(lra)); lra). lra.
Qed.
