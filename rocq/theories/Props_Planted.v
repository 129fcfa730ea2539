(** C98: spectral clustering of the graphs of stag::sbm (stag_lib/random.cpp, stag_lib/cluster.cpp). *)
From Verif Require Import Base Num RSum Sparse SparseFacts Graph GraphSpec GraphFacts GraphProps1 GraphProps2 GraphProps3 RandomGraph RandomFacts RandomTop RandomTop2 RandomDist Props_Random Props_RandomDist
  Spectrum SpectrumSpec SpectrumFacts SpectrumExamples KMeans KMeansFacts KMeansTop RecoverTop RecoverExamples KppMath Kpp KppTop SpecQual InnerMath InnerCond Props_SpecQual Props_InnerCond
  AsgLaw AsgConc RandomConc RandomCuts RandomConn PlantedDet PlantedProb Props_RandomConc.
From Coq Require Import Reals Lra Psatz Lia List.
Import ListNotations.
Local Open Scope nat_scope.

Section Planted.
  Variables (g : graph R) (k sz N : nat) (p0 q0 eps : R).
  Hypothesis HN : 0 < N.
  Hypothesis Hk : 1 <= k.
  Hypothesis Hsz : 2 <= sz.
  Hypothesis Hp : (0 < chance N p0)%R.
  Hypothesis Heps : (0 < eps <= 1 / 10)%R.
  Hypothesis HP : planted_like N k sz p0 q0 eps g.
  Local Notation n := (k * sz).
  Local Notation s := (fun u => u / sz).
  Local Notation p := (chance N p0).
  Local Notation q := (chance N q0).
  Local Notation D := (p * (INR sz - 1))%R.
  Local Notation dbar := (p * (INR sz - 1) + q * (INR n - INR sz))%R.
  Local Notation phiq := (q * (INR n - INR sz) / dbar)%R.
  Local Notation phi := ((1 - eps) / (2 * (1 + eps)))%R.
  Local Notation rho := ((1 - eps) * D / ((1 + eps) * dbar))%R.
  Lemma planted_facts : number_of_vertices g = n /\ reachable_pos g /\ (forall v, v < n -> rw g v v = 0%R) /\ (forall v, v < n -> rdeg g v <> 0%R) /\ clustering n k s /\
    inner_conductance g k s phi /\ (0 < phi)%R /\ (0 < rho)%R /\ (forall u, u < n -> (rho * rdeg g u <= inner_degree g s u)%R) /\
    ((1 - phiq) / 8 <= rho * phi ^ 2)%R /\ (0 < 1 - phiq)%R /\ (forall j, j < k -> (cluster_energy g s j <= 2 * (phiq + eps ^ 2))%R) /\ (0 <= phiq)%R.
  Proof.
    destruct HP as (Hr & Hn & HL & E1 & E2 & E3 & E4). pose proof (chance_nonneg N HN q0) as Hq.
    pose proof (D_pos sz p Hsz Hp) as PD.
    pose proof (dbar_ge g k sz p q Hn Hk Hsz Hq) as PB.
    assert (1 - phiq = D / dbar)%R as EQ by (field; lra).
    split; [exact Hn|]. split; [exact Hr|]. split; [exact HL|]. split.
    { intros v Hv. pose proof (deg_positive g k sz p q eps Hn Hk Hsz Hp Hq Heps E3 v Hv). lra. }
    split.
    { split; [intros u Hu; cbv beta; apply Nat.div_lt_upper_bound; nia|]. intros j Hj. exists (j * sz). split; [nia|]. cbv beta. apply Nat.div_mul. lia. }
    split; [now apply (planted_conductance g k sz p eps)|]. split; [apply Rdiv_lt_0_compat; lra|].
    split; [exact (rho_pos g k sz p q eps Hn Hk Hsz Hp Hq Heps)|]. split; [intros u Hu; now apply (planted_share g k sz p q eps)|].
    split; [rewrite EQ; exact (constants g k sz p q eps Hn Hk Hsz Hp Hq Heps)|]. split; [rewrite EQ; apply Rdiv_lt_0_compat; lra|].
    split; [intros j Hj; now apply (planted_energy g k sz p q eps)|].
    assert (INR sz <= INR n)%R by (apply le_INR; nia). apply Rmult_le_pos; [apply Rmult_le_pos; lra|left; apply Rinv_0_lt_compat; lra].
  Qed.
End Planted.

(** The coins of sbm: vertices u and v are joined with probability p' in the same block and q' in different blocks. *)
Lemma sbm_blocks n k (p q : R) N fuel G : (1 <= k)%Z -> (k <= n / 2)%Z -> (0 <= p <= 1)%R -> (0 <= q <= 1)%R -> 0 < N -> reads_tape N G ->
  let K := Z.to_nat k in let sz := Z.to_nat (n / k) in
  2 <= sz /\ Z.to_nat (k * (n / k)) = K * sz /\
  coin_graphs N (K * sz) (all_pairs (sbm_sizes n k)) (fun i j => if i / sz =? j / sz then p else q) (sbm G fuel n k p q true).
Proof.
  intros H1 H2 Hp Hq HN HG K sz. assert (2 * (n / 2) <= n)%Z by (apply Z.mul_div_le; lia). assert (2 <= n / k)%Z as Hs by (apply Z.div_le_lower_bound; nia).
  assert (Z.to_nat (k * (n / k)) = K * sz) as E by (unfold K, sz; rewrite Z2Nat.inj_mul by lia; reflexivity).
  split; [unfold sz; lia|]. split; [exact E|]. pose proof (sbm_coin_graphs n k p q N fuel G H1 H2 Hp Hq HN HG) as (A & B & C). rewrite E in B, C.
  split; [exact A|]. split; [exact B|]. intros t. destruct (C t) as (g & s' & Eg & En & Hr & Hl & Hw). exists g, s'. repeat (split; [assumption|]).
  intros e i j He. rewrite (Hw e i j He). f_equal. replace (n / k)%Z with (Z.of_nat sz) by (unfold sz; lia). rewrite <- !Nat2Z.inj_div.
  destruct (Nat.eqb_spec (i / sz) (j / sz)) as [->|Ne]; [now rewrite Z.eqb_refl|]. destruct (Z.eqb_spec (Z.of_nat (i / sz)) (Z.of_nat (j / sz))); [lia|reflexivity].
Qed.

(** sbm(n, k, p, q, true) with sz = n / k vertices in each of the k blocks; p' and q' are the probabilities of a random number below p and q
    (within 1/N of p and q, C68), D and dbar are the expected degree inside the block and the expected degree, phiq is the expected share of
    the degree that leaves the block.  For all but a fraction delta of the tapes, the (k+1)-st eigenvalue of the normalised Laplacian
    of the graph is at least (1 - phiq) / 16: *)
Theorem C98_eigenvalue :
  forall (n k : Z) (p q eps : R) (N fuel : nat) (G : rng R (list nat)),
  (1 <= k)%Z -> (k <= n / 2)%Z -> (0 <= p <= 1)%R -> (0 <= q <= 1)%R -> 0 < N -> reads_tape N G -> (0 < eps <= 1 / 10)%R ->
  let K := Z.to_nat k in let sz := Z.to_nat (n / k) in let V := K * sz in
  let p' := chance N p in let q' := chance N q in (0 < p')%R ->
  let D := (p' * (INR sz - 1))%R in let dbar := (D + q' * (INR V - INR sz))%R in let phiq := (q' * (INR V - INR sz) / dbar)%R in
  all_but N (V * (V - 1) / 2)
    (INR K * (exp (INR sz * exp (- (eps ^ 2 * p' * INR sz / 4))) - 1) + 3 * INR V * exp (- (eps ^ 2 * D / 3)) + INR K * exp (- (eps ^ 4 * D * INR sz / 3)))
    (fun t => exists g s', sbm G fuel n k p q true t = Some (Ok (g, s')) /\ number_of_vertices g = V /\
      forall lam, nth_eigenvalue V (matrix_of_graph MatNormalisedLaplacian g) K lam -> ((1 - phiq) / 16 <= lam)%R).
Proof.
  intros n k p q eps N fuel G H1 H2 Hp Hq HN HG He K sz V p' q' Pp D dbar phiq. destruct (sbm_blocks n k p q N fuel G H1 H2 Hp Hq HN HG) as (Hsz & EV & CG). fold K sz in Hsz, EV, CG.
  assert (1 <= K) as HK by (unfold K; lia).
  pose proof (m_pairs _ _ _ _ _ HN CG) as Em. fold V in Em. rewrite <- Em.
  refine (all_but_mono N _ _ _ _ _ HN (Rle_refl _) _ (planted_tapes N K sz _ p q eps _ HN CG HK Hsz He)).
  intros t _ (g & s' & E & HP). exists g, s'. split; [exact E|]. destruct (planted_facts g K sz N p q eps HN HK Hsz Pp He HP) as (Hn & Hr & HL & NI & HC & HI & P1 & P2 & HS & HB & P3 & _).
  split; [exact Hn|]. intros lam Hlam. pose proof (C97_eigenvalue g K (fun u => u / sz) ((1 - eps) / (2 * (1 + eps)))%R ((1 - eps) * (p' * (INR sz - 1)) / ((1 + eps) * (p' * (INR sz - 1) + q' * (INR V - INR sz))))%R lam Hr) as C. rewrite Hn in C. fold V in C.
  specialize (C HL NI ltac:(unfold V; nia) (proj1 HC) P1 HI HS Hlam).
  set (r := (((1 - eps) * (p' * (INR sz - 1)) / ((1 + eps) * (p' * (INR sz - 1) + q' * (INR V - INR sz)))) * ((1 - eps) / (2 * (1 + eps))) ^ 2)%R) in C. assert ((1 - phiq) / 8 <= r)%R as HR by exact HB. clearbody r. lra.
Qed.
Print Assumptions C98_eigenvalue.
(** and, with independent uniform numbers in place of those of the generator seeded with 42 in k-means, the expected number of vertices that
    spectral_cluster misplaces with respect to the labels of sbm_gt_labels is at most 128 (17 + 8 ln k) V (phiq + eps^2) / (1 - phiq). *)
Theorem C98_recovery :
  forall (bump : R -> R) (solver : eigen_solver (W := R)) (n k : Z) (p q eps bad : R) (N fuel : nat) (G : rng R (list nat)) (labels : list nat),
  (forall c, (1 <= c)%R -> bump c = c) -> solver_contract solver ->
  (1 <= k)%Z -> (k <= n / 2)%Z -> (k <= 21474836)%Z -> (0 <= p <= 1)%R -> (0 <= q <= 1)%R -> 0 < N -> reads_tape N G -> (0 < eps <= 1 / 10)%R ->
  sbm_gt_labels n k = Ok labels ->
  let K := Z.to_nat k in let sz := Z.to_nat (n / k) in let V := K * sz in
  let p' := chance N p in let q' := chance N q in (0 < p')%R ->
  let D := (p' * (INR sz - 1))%R in let dbar := (D + q' * (INR V - INR sz))%R in let phiq := (q' * (INR V - INR sz) / dbar)%R in
  all_but N (V * (V - 1) / 2)
    (INR K * (exp (INR sz * exp (- (eps ^ 2 * p' * INR sz / 4))) - 1) + 3 * INR V * exp (- (eps ^ 2 * D / 3)) + INR K * exp (- (eps ^ 4 * D * INR sz / 3)))
    (fun t => exists g s', sbm G fuel n k p q true t = Some (Ok (g, s')) /\
      forall vecs, snd (compute_eigenvectors solver g MatNormalisedLaplacian k Smallest) = Ok vecs ->
      exists e, is_mean K (fun us => value_or bad (misplaced V (fun u => nth u labels 0)) (snd (spectral_cluster_with bump solver g k us))) e /\
        (e <= 128 * (17 + 8 * ln (INR K)) * INR V * ((phiq + eps ^ 2) / (1 - phiq)))%R).
Proof.
  intros bump solver n k p q eps bad N fuel G labels B1 SC H1 H2 H3 Hp Hq HN HG He Hlab K sz V p' q' Pp D dbar phiq.
  destruct (sbm_blocks n k p q N fuel G H1 H2 Hp Hq HN HG) as (Hsz & EV & CG). fold K sz in Hsz, EV, CG.
  assert (1 <= K) as HK by (unfold K; lia).
  assert (forall u, u < V -> nth u labels 0 = u / sz) as HL.
  { destruct (C47_sbm_labels n k H1 H2) as (labels' & El & Ln & Hv). rewrite Hlab in El. injection El as <-. intros u Hu.
    assert (2 * (n / 2) <= n)%Z by (apply Z.mul_div_le; lia). assert (2 <= n / k)%Z by (apply Z.div_le_lower_bound; nia).
    specialize (Hv u ltac:(unfold V in Hu; lia)). replace (n / k)%Z with (Z.of_nat sz) in Hv by (unfold sz; lia). rewrite <- Nat2Z.inj_div in Hv. lia. }
  assert (forall z, misplaced V (fun u => nth u labels 0) z = misplaced V (fun u => u / sz) z) as HM.
  { intros z. unfold misplaced. apply rsum_ext. intros u Hu. assert (agreeing V (fun u => nth u labels 0) z u = agreeing V (fun u => u / sz) z u) as ->; [|reflexivity].
    unfold agreeing. apply rsum_ext. intros v Hv. now rewrite !HL. }
  pose proof (m_pairs _ _ _ _ _ HN CG) as Em. fold V in Em. rewrite <- Em.
  refine (all_but_mono N _ _ _ _ _ HN (Rle_refl _) _ (planted_tapes N K sz _ p q eps _ HN CG HK Hsz He)).
  intros t _ (g & s' & E & HP). exists g, s'. split; [exact E|]. intros vecs Hv. destruct (planted_facts g K sz N p q eps HN HK Hsz Pp He HP) as (Hn & Hr & HL0 & NI & HC & HI & P1 & P2 & HS & HB & P3 & HE & P4).
  change (0 < 1 - phiq)%R in P3. change (forall j, j < K -> (cluster_energy g (fun u => (u / sz)%nat) j <= 2 * (phiq + eps ^ 2))%R) in HE. change (0 <= phiq)%R in P4.
  pose proof (C97_expected bump solver g K (fun u => u / sz) ((1 - eps) / (2 * (1 + eps)))%R ((1 - eps) * (p' * (INR sz - 1)) / ((1 + eps) * (p' * (INR sz - 1) + q' * (INR V - INR sz))))%R (INR sz) bad vecs B1 SC Hr) as C. rewrite Hn in C. fold V in C. replace (Z.of_nat K) with k in C by (unfold K; lia).
  destruct (C HL0 NI HK ltac:(unfold V; nia) H3 HC P1 P2 HI HS) as (e & Me & Le); [|exact Hv|].
  { intros j Hj. right. unfold V. apply (size_eq g); auto. }
  exists e. split.
  - apply (is_mean_ext K _ _ _) with (2 := Me). intros us L _. destruct (snd (spectral_cluster_with bump solver g k us)); cbn [value_or]; auto.
  - eapply Rle_trans; [exact Le|]. set (r := ((1 - eps) * (p' * (INR sz - 1)) / ((1 + eps) * (p' * (INR sz - 1) + q' * (INR V - INR sz))) * ((1 - eps) / (2 * (1 + eps))) ^ 2)%R).
    assert ((1 - phiq) / 8 <= r)%R as HR by exact HB. clearbody r.
    assert (0 <= ln (INR K))%R as Pl.
    { assert (1 <= INR K)%R by (change 1%R with (INR 1); apply le_INR; lia). destruct (Rle_lt_or_eq_dec 1 (INR K)) as [L1|<-]; auto; [left; rewrite <- ln_1; apply ln_increasing; lra|rewrite ln_1; lra]. }
    assert (rsum K (cluster_energy g (fun u => (u / sz)%nat)) <= INR K * (2 * (phiq + eps ^ 2)))%R as ES by (rewrite <- rsum_const; apply rsum_le; exact HE).
    pose proof (pow2_ge_0 eps) as P5.
    assert (rsum K (cluster_energy g (fun u => (u / sz)%nat)) / r <= INR K * (2 * (phiq + eps ^ 2)) * (8 / (1 - phiq)))%R as EB.
    { unfold Rdiv at 1. apply Rle_trans with (INR K * (2 * (phiq + eps ^ 2)) * / r)%R.
      - apply Rmult_le_compat_r; [left; apply Rinv_0_lt_compat; lra|exact ES].
      - apply Rmult_le_compat_l; [apply Rmult_le_pos; [apply pos_INR|lra]|]. replace (8 / (1 - phiq))%R with (/ ((1 - phiq) / 8))%R by (field; lra). apply Rinv_le_contravar; lra. }
    replace (128 * (17 + 8 * ln (INR K)) * INR V * ((phiq + eps ^ 2) / (1 - phiq)))%R with (8 * INR sz * (1 + 8 * (2 + ln (INR K))) * (INR K * (2 * (phiq + eps ^ 2)) * (8 / (1 - phiq))))%R.
    + apply Rmult_le_compat_l; [|exact EB]. apply Rmult_le_pos; [|lra]. pose proof (pos_INR sz). lra.
    + unfold V. rewrite mult_INR. field. lra.
Qed.
Print Assumptions C98_recovery.
(** The call made by the library, with the numbers of the generator seeded with 42: for the same tapes at most
    128 V (phiq + eps^2) / (1 - phiq) + 4 sz (k-means cost of the labels) vertices are misplaced. *)
Theorem C98_labels :
  forall (bump : R -> R) (solver : eigen_solver (W := R)) (n k : Z) (p q eps : R) (N fuel : nat) (G : rng R (list nat)) (labels : list nat),
  solver_contract solver ->
  (1 <= k)%Z -> (k <= n / 2)%Z -> (k <= 21474836)%Z -> (0 <= p <= 1)%R -> (0 <= q <= 1)%R -> 0 < N -> reads_tape N G -> (0 < eps <= 1 / 10)%R ->
  sbm_gt_labels n k = Ok labels ->
  let K := Z.to_nat k in let sz := Z.to_nat (n / k) in let V := K * sz in
  let p' := chance N p in let q' := chance N q in (0 < p')%R ->
  let D := (p' * (INR sz - 1))%R in let dbar := (D + q' * (INR V - INR sz))%R in let phiq := (q' * (INR V - INR sz) / dbar)%R in
  all_but N (V * (V - 1) / 2)
    (INR K * (exp (INR sz * exp (- (eps ^ 2 * p' * INR sz / 4))) - 1) + 3 * INR V * exp (- (eps ^ 2 * D / 3)) + INR K * exp (- (eps ^ 4 * D * INR sz / 3)))
    (fun t => exists g s', sbm G fuel n k p q true t = Some (Ok (g, s')) /\
      forall found, snd (spectral_cluster IZR unit_ofR truncR bump solver g k) = Ok found ->
      exists vecs, snd (compute_eigenvectors solver g MatNormalisedLaplacian k Smallest) = Ok vecs /\
        (misplaced V (fun u => nth u labels 0%nat) found <=
           128 * INR V * ((phiq + eps ^ 2) / (1 - phiq)) + 4 * INR sz * labels_cost K (rows_of V vecs) (map Z.to_nat found))%R).
Proof.
  intros bump solver n k p q eps N fuel G labels SC H1 H2 H3 Hp Hq HN HG He Hlab K sz V p' q' Pp D dbar phiq.
  destruct (sbm_blocks n k p q N fuel G H1 H2 Hp Hq HN HG) as (Hsz & EV & CG). fold K sz in Hsz, EV, CG.
  assert (1 <= K) as HK by (unfold K; lia).
  assert (forall u, u < V -> nth u labels 0 = u / sz) as HL.
  { destruct (C47_sbm_labels n k H1 H2) as (labels' & El & Ln & Hv). rewrite Hlab in El. injection El as <-. intros u Hu.
    assert (2 * (n / 2) <= n)%Z by (apply Z.mul_div_le; lia). assert (2 <= n / k)%Z by (apply Z.div_le_lower_bound; nia).
    specialize (Hv u ltac:(unfold V in Hu; lia)). replace (n / k)%Z with (Z.of_nat sz) in Hv by (unfold sz; lia). rewrite <- Nat2Z.inj_div in Hv. lia. }
  assert (forall z, misplaced V (fun u => nth u labels 0) z = misplaced V (fun u => u / sz) z) as HM.
  { intros z. unfold misplaced. apply rsum_ext. intros u Hu. assert (agreeing V (fun u => nth u labels 0) z u = agreeing V (fun u => u / sz) z u) as ->; [|reflexivity].
    unfold agreeing. apply rsum_ext. intros v Hv. now rewrite !HL. }
  pose proof (m_pairs _ _ _ _ _ HN CG) as Em. fold V in Em. rewrite <- Em.
  refine (all_but_mono N _ _ _ _ _ HN (Rle_refl _) _ (planted_tapes N K sz _ p q eps _ HN CG HK Hsz He)).
  intros t _ (g & s' & E & HP). exists g, s'. split; [exact E|]. intros found Hf. destruct (planted_facts g K sz N p q eps HN HK Hsz Pp He HP) as (Hn & Hr & HL0 & NI & HC & HI & P1 & P2 & HS & HB & P3 & HE & P4).
  change (0 < 1 - phiq)%R in P3. change (forall j, j < K -> (cluster_energy g (fun u => (u / sz)%nat) j <= 2 * (phiq + eps ^ 2))%R) in HE. change (0 <= phiq)%R in P4.
  pose proof (C97_misplaced bump solver g K (fun u => u / sz) ((1 - eps) / (2 * (1 + eps)))%R ((1 - eps) * (p' * (INR sz - 1)) / ((1 + eps) * (p' * (INR sz - 1) + q' * (INR V - INR sz))))%R (INR sz) found SC Hr) as C. rewrite Hn in C. fold V in C. replace (Z.of_nat K) with k in C by (unfold K; lia).
  destruct (C HL0 NI HK ltac:(unfold V; nia) H3 HC P1 P2 HI HS) as (vecs & Ev & B); [|exact Hf|].
  { intros j Hj. right. unfold V. apply (size_eq g); auto. }
  exists vecs. split; [exact Ev|]. rewrite HM. eapply Rle_trans; [exact B|].
  set (r := ((1 - eps) * (p' * (INR sz - 1)) / ((1 + eps) * (p' * (INR sz - 1) + q' * (INR V - INR sz))) * ((1 - eps) / (2 * (1 + eps))) ^ 2)%R).
  assert ((1 - phiq) / 8 <= r)%R as HR by exact HB. clearbody r.
  assert (rsum K (cluster_energy g (fun u => (u / sz)%nat)) <= INR K * (2 * (phiq + eps ^ 2)))%R as ES by (rewrite <- rsum_const; apply rsum_le; exact HE).
  pose proof (pow2_ge_0 eps) as P5. set (c := labels_cost K (rows_of V vecs) (map Z.to_nat found)). clearbody c.
  assert (2 * rsum K (cluster_energy g (fun u => (u / sz)%nat)) / r <= 2 * (INR K * (2 * (phiq + eps ^ 2))) * (8 / (1 - phiq)))%R as EB.
  { unfold Rdiv at 1. apply Rle_trans with (2 * (INR K * (2 * (phiq + eps ^ 2))) * / r)%R.
    - apply Rmult_le_compat_r; [left; apply Rinv_0_lt_compat; lra|lra].
    - apply Rmult_le_compat_l; [apply Rmult_le_pos; [lra|apply Rmult_le_pos; [apply pos_INR|lra]]|]. replace (8 / (1 - phiq))%R with (/ ((1 - phiq) / 8))%R by (field; lra). apply Rinv_le_contravar; lra. }
  replace (128 * INR V * ((phiq + eps ^ 2) / (1 - phiq)) + 4 * INR sz * c)%R with (4 * INR sz * (2 * (INR K * (2 * (phiq + eps ^ 2))) * (8 / (1 - phiq)) + c))%R.
  - apply Rmult_le_compat_l; [pose proof (pos_INR sz); lra|]. now apply Rplus_le_compat_r.
  - unfold V. rewrite mult_INR. field. lra.
Qed.
Print Assumptions C98_labels.
(** In particular (k = 1) the graphs of erdos_renyi have a spectral gap: the second eigenvalue is at least 1/16. *)
Theorem C98_erdos_renyi :
  forall (n : Z) (p eps : R) (N fuel : nat) (G : rng R (list nat)),
  (2 <= n)%Z -> (0 <= p <= 1)%R -> 0 < N -> reads_tape N G -> (0 < eps <= 1 / 10)%R ->
  let V := Z.to_nat n in let p' := chance N p in (0 < p')%R -> let D := (p' * (INR V - 1))%R in
  all_but N (V * (V - 1) / 2)
    (exp (INR V * exp (- (eps ^ 2 * p' * INR V / 4))) - 1 + 3 * INR V * exp (- (eps ^ 2 * D / 3)) + exp (- (eps ^ 4 * D * INR V / 3)))
    (fun t => exists g s', erdos_renyi G fuel n p true t = Some (Ok (g, s')) /\ number_of_vertices g = V /\
      forall lam, nth_eigenvalue V (matrix_of_graph MatNormalisedLaplacian g) 1 lam -> (1 / 16 <= lam)%R).
Proof.
  intros n p eps N fuel G Hn Hp HN HG He V p' Pp D. assert (1 <= n / 2)%Z as H2 by (apply Z.div_le_lower_bound; lia).
  pose proof (C98_eigenvalue n 1 p 0 eps N fuel G ltac:(lia) H2 Hp ltac:(lra) HN HG He) as C. cbv zeta in C. rewrite Z.div_1_r in C. fold V in C. change (Z.to_nat 1) with 1 in C. rewrite !Nat.mul_1_l in C.
  fold p' in C. specialize (C Pp). fold D in C. refine (all_but_mono N _ _ _ _ _ HN _ _ C); [right; cbn [INR]; ring|].
  intros t _ (g & s' & E & Hv & H). exists g, s'. split; [exact E|]. split; [exact Hv|]. intros lam Hl. specialize (H lam Hl).
  replace (INR V - INR V)%R with 0%R in H by ring. unfold Rdiv at 2 in H. rewrite Rmult_0_r, Rmult_0_l, Rminus_0_r in H. exact H.
Qed.
Print Assumptions C98_erdos_renyi.

(** Two blocks of 10^8 vertices, p = 1/2, q = 2^-20, samples in multiples of 2^-20, eps = 1/100: all but a thousandth of the tapes are good,
    and on average less than half of the vertices are misplaced. *)
Lemma exp_times m x : exp (INR m * x) = (exp x ^ m)%R.
Proof. induction m as [|m IH]; [cbn [INR pow]; rewrite Rmult_0_l; apply exp_0|]. rewrite S_INR, Rmult_plus_distr_r, Rmult_1_l, Rplus_comm, exp_plus, IH. reflexivity. Qed.
Lemma exp_big x : (1000 <= x)%R -> (exp (- x) <= 1 / 100000000000000000000)%R.
Proof.
  intros H. rewrite exp_Ropp. assert (100 ^ 10 <= exp x)%R as L.
  { replace x with (INR 10 * (x / 10))%R by (cbn [INR]; field). rewrite exp_times. apply pow_incr. pose proof (exp_ineq1_le (x / 10)). lra. }
  replace (1 / 100000000000000000000)%R with (/ 100 ^ 10)%R by (unfold Rdiv; rewrite Rmult_1_l; f_equal; ring). apply Rinv_le_contravar; [|exact L]. apply pow_lt. lra.
Qed.
Lemma exp_small x : (0 <= x <= 1 / 2)%R -> (exp x - 1 <= 2 * x)%R.
Proof.
  intros H. pose proof (exp_ineq1_le (- x)) as A. pose proof (exp_pos x) as P. assert (exp x * exp (- x) = 1)%R as E by (rewrite <- exp_plus, Rplus_opp_r; apply exp_0).
  assert (exp x * (1 - x) <= 1)%R as B by (rewrite <- E; apply Rmult_le_compat_l; lra).
  assert ((1 + 2 * x) * (1 - x) >= 1)%R as C by nra. nra.
Qed.
Example C98_hypotheses_met :
  let N := Z.to_nat 1048576 in let p := (1 / 2)%R in let q := (1 / 1048576)%R in let eps := (1 / 100)%R in let n := 200000000%Z in let k := 2%Z in
  let K := Z.to_nat k in let sz := Z.to_nat (n / k) in let V := K * sz in let p' := chance N p in let q' := chance N q in
  let D := (p' * (INR sz - 1))%R in let dbar := (D + q' * (INR V - INR sz))%R in let phiq := (q' * (INR V - INR sz) / dbar)%R in
  0 < N /\ reads_tape N (exTapeG N) /\ (0 < eps <= 1 / 10)%R /\ (1 <= k)%Z /\ (k <= n / 2)%Z /\ (exists labels, sbm_gt_labels n k = Ok labels) /\ p' = (1 / 2)%R /\ q' = (1 / 1048576)%R /\
  (INR K * (exp (INR sz * exp (- (eps ^ 2 * p' * INR sz / 4))) - 1) + 3 * INR V * exp (- (eps ^ 2 * D / 3)) + INR K * exp (- (eps ^ 4 * D * INR sz / 3)) <= 1 / 1000)%R /\
  ((1 - phiq) / 16 >= 1 / 17)%R /\ (128 * (17 + 8 * ln (INR K)) * INR V * ((phiq + eps ^ 2) / (1 - phiq)) <= INR V / 2)%R.
Proof.
  intros N p q eps n k K sz V p' q' D dbar phiq. assert (0 < N) as HN by (unfold N; lia). assert (INR N = 1048576)%R as IN by (unfold N; rewrite INR_IZR_INZ, Z2Nat.id by lia; reflexivity).
  assert (INR K = 2)%R as IK by reflexivity. assert (INR sz = 100000000)%R as Is by (unfold sz; change (n / k)%Z with 100000000%Z; rewrite INR_IZR_INZ, Z2Nat.id by lia; reflexivity).
  assert (INR V = 200000000)%R as IV by (unfold V; rewrite mult_INR, IK, Is; lra).
  assert (p' = 1 / 2)%R as Ep.
  { unfold p', chance. rewrite (below_grid N (Z.to_nat 524288) p HN); [|unfold N; lia|]; rewrite (INR_IZR_INZ (Z.to_nat 524288)), Z2Nat.id, IN by lia; unfold p; lra. }
  assert (q' = 1 / 1048576)%R as Eq.
  { unfold q', chance. rewrite (below_grid N 1 q HN); [|lia|]; cbn [INR]; rewrite IN; unfold q; lra. }
  split; [exact HN|]. split; [intros t; reflexivity|]. split; [unfold eps; lra|]. split; [unfold k; lia|]. split; [apply Z.leb_le; reflexivity|].
  split; [destruct (C47_sbm_labels n k ltac:(unfold k; lia) ltac:(apply Z.leb_le; reflexivity)) as (l & E & _); now exists l|].
  split; [exact Ep|]. split; [exact Eq|].
  assert (D = 99999999 / 2)%R as ED by (unfold D; rewrite Ep, Is; lra). assert (dbar = 99999999 / 2 + 100000000 / 1048576)%R as EB by (unfold dbar; rewrite ED, Eq, IV, Is; lra).
  assert (0 <= phiq <= 1 / 100000)%R as HP.
  { unfold phiq. rewrite EB, Eq, IV, Is. split; [apply Rmult_le_pos; [lra|left; apply Rinv_0_lt_compat; lra]|]. apply Rmult_le_reg_r with (99999999 / 2 + 100000000 / 1048576)%R; [lra|]. unfold Rdiv at 1. rewrite Rmult_assoc, Rinv_l by lra. lra. }
  split; [|split].
  - rewrite Ep, ED, IK, Is, IV. unfold eps.
    assert (exp (- ((1 / 100) ^ 2 * (1 / 2) * 100000000 / 4)) <= 1 / 100000000000000000000)%R as A by (apply exp_big; lra).
    assert (exp (- ((1 / 100) ^ 2 * (99999999 / 2) / 3)) <= 1 / 100000000000000000000)%R as B by (apply exp_big; lra).
    assert (exp (- ((1 / 100) ^ 4 * (99999999 / 2) * 100000000 / 3)) <= 1 / 100000000000000000000)%R as C by (apply exp_big; lra).
    pose proof (exp_pos (- ((1 / 100) ^ 2 * (1 / 2) * 100000000 / 4))) as A0.
    set (a := exp (- ((1 / 100) ^ 2 * (1 / 2) * 100000000 / 4))) in *. set (b := exp (- ((1 / 100) ^ 2 * (99999999 / 2) / 3))) in *. set (c := exp (- ((1 / 100) ^ 4 * (99999999 / 2) * 100000000 / 3))) in *. clearbody a b c.
    pose proof (exp_small (100000000 * a) ltac:(lra)) as X. lra.
  - lra.
  - rewrite IK, IV. assert (ln 2 <= 1)%R as L by (rewrite <- (ln_exp 1); apply Rlt_le, ln_increasing; [lra|]; pose proof (exp_ineq1 1 ltac:(lra)); lra).
    assert (0 <= ln 2)%R as L0 by (rewrite <- ln_1; apply Rlt_le, ln_increasing; lra).
    assert (0 <= (phiq + eps ^ 2) / (1 - phiq) <= 12 / 100000)%R as F.
    { unfold eps. split; [apply Rmult_le_pos; [lra|left; apply Rinv_0_lt_compat; lra]|]. apply Rmult_le_reg_r with (1 - phiq)%R; [lra|]. unfold Rdiv at 1. rewrite Rmult_assoc, Rinv_l by lra. lra. }
    set (f := ((phiq + eps ^ 2) / (1 - phiq))%R) in *. clearbody f. assert ((17 + 8 * ln 2) * f <= 25 * (12 / 100000))%R by (apply Rmult_le_compat; lra). lra.
Qed.
