(** C99: the conductance of all sets of a random graph, and clustering it (stag_lib/random.cpp, stag_lib/cluster.cpp). *)
From Verif Require Import Base Num RSum Sparse SparseFacts Graph GraphSpec GraphFacts GraphProps1 GraphProps2 Cluster ClusterCC ClusterSpec ClusterInst ClusterExamples
  Spectrum SpectrumSpec Cheeger RandomGraph RandomFacts RandomTop RandomTop2 RandomDist Props_RandomDist RecoverTop AsgLaw AsgConc RandomConc RandomCuts RandomConn Props_RandomConc PlantedDet RandomPhi Props_Planted.
From Coq Require Import Reals Lra Psatz Lia List.
Import ListNotations.
Local Open Scope nat_scope.

(** The tapes are those of C68; mean_weight N prob u v is the probability of the edge {u,v}; set_cut, set_volume and set_conductance (RandomPhi.v) are
    w(S, V - S), vol(S) and w(S, V - S) / min(vol S, vol (V - S)) for the weights w. *)
Section Tapes.
  Variables (sizes : list Z) (P : dmat R) (exact : bool) (N fuel : nat) (G : rng R (list nat)) (q eps : R).
  Hypothesis Hv : valid_sbm sizes P.
  Hypothesis Hc : coin_per_pair sizes P exact.
  Hypothesis HN : 0 < N.
  Hypothesis HG : reads_tape N G.
  Local Notation n := (Z.to_nat (zsum sizes)).
  Local Notation W := (mean_weight N (fun i j => dm_at P (block (nsizes sizes) i) (block (nsizes sizes) j))).
  Hypothesis Hn : 2 <= n.
  Hypothesis Hq0 : (0 < q)%R.
  Hypothesis Hq : forall i j, i < j -> j < n -> (q <= W i j)%R.
  Hypothesis He : (0 <= eps < 1)%R.
  Lemma W_sym u v : W u v = W v u.
  Proof. unfold mean_weight. rewrite (Nat.eqb_sym v u), (Nat.min_comm v u), (Nat.max_comm v u). reflexivity. Qed.
  Lemma good_tapes : all_but N (n * (n - 1) / 2) (2 * (exp (INR n * exp (- (eps ^ 2 * q * INR n / 6))) - 1)) (fun t => exists g s', general_sbm G fuel sizes P exact t = Some (Ok (g, s')) /\
    number_of_vertices g = n /\ reachable_pos g /\ (forall v, rw g v v = 0%R) /\
    (forall v, W v v = 0%R) /\ (forall u v, u < n -> v < n -> u <> v -> (q <= W u v)%R) /\ (forall u v, (0 <= W u v)%R) /\
    forall A, proper n A -> ((1 - eps) * cut n W A < cut n (rw g) A < (1 + eps) * cut n W A)%R).
  Proof.
    refine (all_but_mono N _ _ _ _ _ HN (Rle_refl _) _ (C96_all_cuts sizes P exact N fuel G q eps Hv Hc HN HG ltac:(lra) Hq ltac:(lra))).
    intros t _ (g & s' & E & HA). destruct (general_sbm_coin_graphs sizes P exact N fuel G Hv Hc HN HG) as (_ & _ & CG). destruct (CG t) as (g' & s'' & E' & En & Hr & Hl & _).
    rewrite E in E'. injection E' as <- <-. exists g, s'. split; [exact E|]. split; [exact En|]. split; [exact Hr|]. split; [exact Hl|].
    split; [intros v; unfold mean_weight; now rewrite Nat.eqb_refl|]. split; [|split; [|exact HA]].
    - intros u v Hu Hv' Ne. destruct (Nat.lt_total u v) as [L|[L|L]]; [now apply Hq|contradiction|rewrite W_sym; now apply Hq].
    - intros u v. unfold mean_weight. destruct (u =? v); [lra|]. apply Rmult_le_pos; [apply pos_INR|left; apply Rinv_0_lt_compat, lt_0_INR; exact HN].
  Qed.
End Tapes.

(** Every set of vertices at once: its conductance in the graph is within the factor (1+eps)/(1-eps) of its conductance in the block model. *)
Theorem C99_conductance :
  forall (sizes : list Z) (P : dmat R) (exact : bool) (N fuel : nat) (G : rng R (list nat)) (q eps : R),
  valid_sbm sizes P -> coin_per_pair sizes P exact -> 0 < N -> reads_tape N G ->
  let n := Z.to_nat (zsum sizes) in
  let W := mean_weight N (fun i j => dm_at P (block (nsizes sizes) i) (block (nsizes sizes) j)) in
  2 <= n -> (0 < q)%R -> (forall i j, i < j -> j < n -> (q <= W i j)%R) -> (0 <= eps < 1)%R ->
  let r := ((1 + eps) / (1 - eps))%R in
  all_but N (n * (n - 1) / 2) (2 * (exp (INR n * exp (- (eps ^ 2 * q * INR n / 6))) - 1)) (fun t => exists g s', general_sbm G fuel sizes P exact t = Some (Ok (g, s')) /\
    forall S, vertex_set n S -> 1 <= length S < n -> (/ r * set_conductance n W S <= gcond g S <= r * set_conductance n W S)%R).
Proof.
  intros sizes P exact N fuel G q eps Hv Hc HN HG n W Hn Hq0 Hq He r. refine (all_but_mono N _ _ _ _ _ HN (Rle_refl _) _ (good_tapes sizes P exact N fuel G q eps Hv Hc HN HG Hq0 Hq He)).
  intros t _ (g & s' & E & En & Hr & Hl & W1 & W2 & W3 & HA). exists g, s'. split; [exact E|]. fold n W in En, W1, W2, W3, HA. rewrite <- En in *. apply (graph_conductance g W eps q); auto.
Qed.
Print Assumptions C99_conductance.

(** cheeger_cut on such a graph: the labelled set is within the quadratic factor of the best set of the block model. *)
Theorem C99_cheeger :
  forall (solver : eigen_solver (W := R)) (sizes : list Z) (P : dmat R) (exact : bool) (N fuel : nat) (G : rng R (list nat)) (q eps : R),
  solver_contract solver -> valid_sbm sizes P -> coin_per_pair sizes P exact -> 0 < N -> reads_tape N G ->
  let n := Z.to_nat (zsum sizes) in
  let W := mean_weight N (fun i j => dm_at P (block (nsizes sizes) i) (block (nsizes sizes) j)) in
  3 <= n -> (0 < q)%R -> (forall i j, i < j -> j < n -> (q <= W i j)%R) -> (0 <= eps < 1)%R ->
  let r := ((1 + eps) / (1 - eps))%R in
  all_but N (n * (n - 1) / 2) (2 * (exp (INR n * exp (- (eps ^ 2 * q * INR n / 6))) - 1)) (fun t => exists g s', general_sbm G fuel sizes P exact t = Some (Ok (g, s')) /\
    match snd (cheeger_cut solver g) with
    | Ok labels => exists S, vertex_set n S /\ 1 <= length S < n /\ labels = map (fun i => if in_dec Nat.eq_dec i S then 1%Z else 0%Z) (seq 0 n) /\
        forall T, vertex_set n T -> 1 <= length T < n -> (set_conductance n W S <= 2 * r * sqrt (r * set_conductance n W T))%R
    | Throw e => e = RuntimeError
    | UB => False
    end).
Proof.
  intros solver sizes P exact N fuel G q eps SC Hv Hc HN HG n W Hn Hq0 Hq He r. refine (all_but_mono N _ _ _ _ _ HN (Rle_refl _) _ (good_tapes sizes P exact N fuel G q eps Hv Hc HN HG Hq0 Hq He)).
  intros t _ (g & s' & E & En & Hr & Hl & W1 & W2 & W3 & HA). exists g, s'. split; [exact E|]. fold n W in En, W1, W2, W3, HA. rewrite <- En in *. apply (cheeger_on_mean g W eps q); auto. lia.
Qed.
Print Assumptions C99_cheeger.

(** local_cluster on such a graph: for every set C of small conductance in the block model there are seeds with at least a 1/(2r) share of its volume
    from which local_cluster returns a set of small conductance in the block model, for every target volume of at least 8 (1 + eps) vol(C).
    dmin is a lower bound on the expected degrees. *)
Theorem C99_local_cluster :
  forall (c001 dmin : R) (sizes : list Z) (P : dmat R) (exact : bool) (N fuel : nat) (G : rng R (list nat)) (q eps : R),
  c001 = (1 / 100)%R -> valid_sbm sizes P -> coin_per_pair sizes P exact -> 0 < N -> reads_tape N G ->
  let n := Z.to_nat (zsum sizes) in
  let W := mean_weight N (fun i j => dm_at P (block (nsizes sizes) i) (block (nsizes sizes) j)) in
  2 <= n -> (0 < q)%R -> (forall i j, i < j -> j < n -> (q <= W i j)%R) -> (0 <= eps < 1)%R ->
  (0 < dmin)%R -> (forall v, v < n -> (dmin <= rsum n (W v))%R) ->
  let r := ((1 + eps) / (1 - eps))%R in
  all_but N (n * (n - 1) / 2) (2 * (exp (INR n * exp (- (eps ^ 2 * q * INR n / 6))) - 1)) (fun t => exists g s', general_sbm G fuel sizes P exact t = Some (Ok (g, s')) /\
    forall C, vertex_set n C -> 1 <= length C -> (r * (set_cut n W C / set_volume n W C) <= 1 / 1000)%R ->
    exists seeds, NoDup seeds /\ incl seeds C /\ (set_volume n W C <= 2 * r * set_volume n W seeds)%R /\
    forall seed, In seed seeds -> forall target, (8 * (1 + eps) * set_volume n W C <= target)%R ->
      exists M, forall lfuel, M <= lfuel -> exists l, local_cluster c001 lfuel (lg_of_graph g) (Z.of_nat seed) target = Some (Ok l) /\
        l <> [] /\ vertex_set n l /\ ((1 - eps) * set_volume n W l <= 21 / 10 * target)%R /\
        ((set_cut n W l / set_volume n W l) ^ 2 <= r ^ 2 * (ln (4 * r * (set_volume n W C / dmin)) / 17))%R).
Proof.
  intros c001 dmin sizes P exact N fuel G q eps Ec Hv Hc HN HG n W Hn Hq0 Hq He Hd Hdm r. refine (all_but_mono N _ _ _ _ _ HN (Rle_refl _) _ (good_tapes sizes P exact N fuel G q eps Hv Hc HN HG Hq0 Hq He)).
  intros t _ (g & s' & E & En & Hr & Hl & W1 & W2 & W3 & HA). exists g, s'. split; [exact E|]. fold n W in En, W1, W2, W3, HA. rewrite <- En in *. intros C HC LC Hphi. apply (local_on_mean g W eps q); auto.
Qed.
Print Assumptions C99_local_cluster.

(** Two blocks of 10^8 vertices, p = 1/2, q = 2^-12: all but a thousandth of the tapes are good for eps = 1/10, and the first block
    meets the hypothesis of C99_local_cluster. *)
Section TwoBlocks.
  Variables (N sz : nat) (p q : R).
  Hypothesis Hsz : 2 <= sz.
  Local Notation sizes := [Z.of_nat sz; Z.of_nat sz].
  Local Notation W := (mean_weight N (fun i j => dm_at (sbm_probs 2 p q) (block (nsizes sizes) i) (block (nsizes sizes) j))).
  Lemma two_W u v : u < 2 * sz -> v < 2 * sz -> W u v = if u =? v then 0%R else if u / sz =? v / sz then chance N p else chance N q.
  Proof.
    intros Hu Hv. unfold mean_weight. destruct (u =? v); auto. assert (nsizes sizes = repeat sz 2) as -> by (cbn [nsizes map repeat]; now rewrite !Nat2Z.id).
    rewrite !block_repeat by lia. cbn [sbm_probs dm_at].
    destruct (Nat.min_spec u v) as [[L ->]|[L ->]], (Nat.max_spec u v) as [[L' ->]|[L' ->]]; try lia; destruct (Nat.eqb_spec (u / sz) (v / sz)), (Nat.eqb_spec (v / sz) (u / sz)); try congruence; reflexivity.
  Qed.
  Local Notation C := (seq 0 sz).
  Lemma first_set : vertex_set (2 * sz) C.
  Proof. split; [apply seq_NoDup|]. intros v Hv. apply in_seq in Hv. lia. Qed.
  Lemma two_out u : u < sz -> rsum sz (fun i => W u (sz + i)) = (INR sz * chance N q)%R.
  Proof.
    intros Hu. rewrite <- rsum_const. apply rsum_ext. intros i Hi. rewrite two_W by lia. destruct (Nat.eqb_spec u (sz + i)); [lia|].
    rewrite (Nat.div_small u) by lia. destruct (Nat.eqb_spec 0 ((sz + i) / sz)) as [E|]; auto. assert (1 <= (sz + i) / sz) by (apply Nat.div_le_lower_bound; lia). lia.
  Qed.
  Lemma two_in u : u < sz -> rsum sz (fun i => W u i) = ((INR sz - 1) * chance N p)%R.
  Proof.
    intros Hu. rewrite (rsum_ext sz _ (fun i => chance N p - if i =? u then chance N p else 0)%R).
    - rewrite rsum_minus, rsum_const, (rsum_delta sz u (fun _ => chance N p)) by auto. ring.
    - intros i Hi. rewrite two_W by lia. rewrite (Nat.eqb_sym i u). destruct (u =? i); [ring|]. rewrite !Nat.div_small by lia. cbn. ring.
  Qed.
  Lemma two_cut : set_cut (2 * sz) W C = (INR sz * (INR sz * chance N q))%R.
  Proof.
    unfold set_cut. change (lsum (fun u => rsum (2 * sz) (fun v => W u v * notin C v)%R) C) with (rsum sz (fun u => rsum (2 * sz) (fun v => W u v * notin C v)%R)). rewrite <- rsum_const. apply rsum_ext. intros u Hu.
    replace (2 * sz) with (sz + sz) by lia. rewrite rsum_add, <- (two_out u Hu). rewrite (rsum_zero sz).
    - rewrite Rplus_0_l. apply rsum_ext. intros i Hi. unfold notin. destruct (in_dec _ _ _) as [I|]; [apply in_seq in I; lia|ring].
    - intros v Hv. unfold notin. destruct (in_dec _ _ _) as [|NI]; [ring|]. exfalso. apply NI, in_seq. lia.
  Qed.
  Lemma two_volume : set_volume (2 * sz) W C = (INR sz * ((INR sz - 1) * chance N p + INR sz * chance N q))%R.
  Proof.
    unfold set_volume. change (lsum (fun u => rsum (2 * sz) (W u)) C) with (rsum sz (fun u => rsum (2 * sz) (W u))). rewrite <- rsum_const. apply rsum_ext. intros u Hu.
    replace (2 * sz) with (sz + sz) by lia. rewrite rsum_add, two_out, <- (two_in u Hu) by auto. reflexivity.
  Qed.
End TwoBlocks.
Lemma exp_80 x : (80 <= x)%R -> (exp (- x) <= 1 / 1000000000000000000)%R.
Proof.
  intros H. rewrite exp_Ropp. assert (3 ^ 40 <= exp x)%R as L.
  { replace x with (INR 40 * (x / 40))%R by (rewrite INR_IZR_INZ; cbn [Z.of_nat Pos.of_succ_nat Pos.succ]; field). rewrite exp_times. apply pow_incr. pose proof (exp_ineq1_le (x / 40)). lra. }
  apply Rle_trans with (/ 3 ^ 40)%R; [apply Rinv_le_contravar; [apply pow_lt; lra|exact L]|]. unfold Rdiv. rewrite Rmult_1_l. apply Rinv_le_contravar; [lra|]. lra.
Qed.
Example C99_hypotheses_met :
  let sz := Z.to_nat 100000000 in let sizes := [Z.of_nat sz; Z.of_nat sz] in let P := sbm_probs 2 (1 / 2)%R (1 / 4096)%R in let N := Z.to_nat 1048576 in
  let q := (1 / 4096)%R in let eps := (1 / 10)%R in let n := Z.to_nat (zsum sizes) in
  let W := mean_weight N (fun i j => dm_at P (block (nsizes sizes) i) (block (nsizes sizes) j)) in let r := ((1 + eps) / (1 - eps))%R in
  valid_sbm sizes P /\ coin_per_pair sizes P true /\ 0 < N /\ reads_tape N (exTapeG N) /\ 3 <= n /\ (0 < q)%R /\ (forall i j, i < j -> j < n -> (q <= W i j)%R) /\
  (2 * (exp (INR n * exp (- (eps ^ 2 * q * INR n / 6))) - 1) <= 1 / 1000)%R /\
  (forall v, v < n -> (10000 <= rsum n (W v))%R) /\
  vertex_set n (seq 0 sz) /\ (r * (set_cut n W (seq 0 sz) / set_volume n W (seq 0 sz)) <= 1 / 1000)%R.
Proof.
  intros sz sizes P N q eps n W r. assert (0 < N) as HN by (unfold N; lia). assert (INR N = 1048576)%R as IN by (unfold N; rewrite INR_IZR_INZ, Z2Nat.id by lia; reflexivity).
  assert (INR sz = 100000000)%R as Is by (unfold sz; rewrite INR_IZR_INZ, Z2Nat.id by lia; reflexivity). assert (2 <= sz) as Hsz by (unfold sz; lia).
  assert (1 <= Z.of_nat sz)%Z as Hz by (unfold sz; lia). clearbody sz.
  assert (n = 2 * sz) as En by (unfold n, zsum, sizes; cbn [fold_left]; lia). assert (INR n = 200000000)%R as I2 by (rewrite En, mult_INR, Is; cbn [INR]; lra).
  assert (chance N (1 / 2) = 1 / 2)%R as Ep.
  { unfold chance. rewrite (below_grid N (Z.to_nat 524288) (1 / 2) HN); [|unfold N; lia|]; rewrite (INR_IZR_INZ (Z.to_nat 524288)), Z2Nat.id, IN by lia; lra. }
  assert (chance N (1 / 4096) = 1 / 4096)%R as Eq.
  { unfold chance. rewrite (below_grid N (Z.to_nat 256) (1 / 4096) HN); [|unfold N; lia|]; rewrite (INR_IZR_INZ (Z.to_nat 256)), Z2Nat.id, IN by lia; lra. }
  clearbody N.
  assert (forall a b : R, (b <= a)%R -> wltb a b = false) as F.
  { intros a b L. destruct (wltb a b) eqn:B; auto. apply (toR_ltb (W := R)) in B. cbn [toR ExactR] in B. lra. }
  assert (forall i j, i < n -> j < n -> i <> j -> (q <= W i j)%R) as HW.
  { intros i j Hi Hj Ne. unfold W, P, sizes. rewrite two_W by (auto; lia). destruct (Nat.eqb_spec i j); [contradiction|]. destruct (_ =? _); rewrite ?Ep, ?Eq; unfold q; lra. }
  split.
  { split; [unfold sizes; repeat constructor; exact Hz|]. split; [reflexivity|]. split; [reflexivity|]. intros i j _ _. unfold P. cbn [sbm_probs dm_at]. destruct (i =? j); split; apply F; cbn; lra. }
  split; [now left|]. split; [exact HN|]. split; [intros t; reflexivity|]. split; [lia|]. split; [unfold q; lra|]. split; [intros i j Hi Hj; apply HW; lia|].
  split; [|split; [|split]].
  - rewrite I2. unfold eps, q. assert (exp (- ((1 / 10) ^ 2 * (1 / 4096) * 200000000 / 6)) <= 1 / 1000000000000000000)%R as A by (apply exp_80; lra).
    pose proof (exp_pos (- ((1 / 10) ^ 2 * (1 / 4096) * 200000000 / 6))) as A0. set (a := exp (- ((1 / 10) ^ 2 * (1 / 4096) * 200000000 / 6))) in *. clearbody a.
    pose proof (exp_small (200000000 * a) ltac:(lra)) as X. lra.
  - intros v Hv. apply Rle_trans with (rsum n (fun u => q - if u =? v then q else 0))%R.
    + rewrite rsum_minus, rsum_const, (rsum_delta n v (fun _ => q)) by auto. rewrite I2. unfold q. lra.
    + apply rsum_le. intros u Hu. destruct (Nat.eqb_spec u v) as [->|Ne]; [|rewrite Rminus_0_r; apply HW; auto].
      unfold W, mean_weight. rewrite Nat.eqb_refl. lra.
  - rewrite En. now apply first_set.
  - rewrite En. unfold W, P, sizes. rewrite two_cut, two_volume, Ep, Eq, Is by auto. unfold r, eps.
    replace (100000000 * (100000000 * (1 / 4096)) / (100000000 * ((100000000 - 1) * (1 / 2) + 100000000 * (1 / 4096))))%R with ((100000000 * (1 / 4096)) / ((100000000 - 1) * (1 / 2) + 100000000 * (1 / 4096)))%R by (field; lra).
    replace ((1 + 1 / 10) / (1 - 1 / 10))%R with (11 / 9)%R by field. apply (Rmult_le_reg_r ((100000000 - 1) * (1 / 2) + 100000000 * (1 / 4096))); [lra|]. unfold Rdiv at 2. rewrite !Rmult_assoc, Rinv_l by lra. lra.
Qed.
