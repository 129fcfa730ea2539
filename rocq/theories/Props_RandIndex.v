(** C100: the adjusted Rand index measures the misplaced points. *)
From Verif Require Import Base Num RSum Sparse SparseFacts Graph GraphSpec GraphFacts GraphProps1 GraphProps2 GraphProps3 Spectrum SpectrumSpec SpectrumFacts SpectrumExamples
  KMeans KMeansFacts KMeansSpec KMeansTop MTFacts RecoverTop Cluster Metrics MetricsFacts MetricsFacts2 ClusterSweep KppMath Kpp KppTop SpecQual PlantedDet RandomConc RandIndex Props_SpecQual.
From Coq Require Import Reals Lra Psatz Lia List Bool ZArith.
From Coquelicot Require Import Coquelicot.
Import ListNotations.
Local Open Scope nat_scope.

(** The value, when it is a number, is between -1 and 1; *)
Theorem C100_range gt l x : valid_labels gt l -> few_points gt -> adjusted_rand_index gt l = Ok (Some x) -> (-1 <= x <= 1)%R.
Proof. intros Hv Hn E. exact (ari_range gt l Hv Hn x E). Qed.
(** it is 1 exactly if the two clusterings put the same points together. *)
Theorem C100_one gt l x : valid_labels gt l -> few_points gt -> adjusted_rand_index gt l = Ok (Some x) ->
  (x = 1%R <-> forall u v, u < length gt -> v < length gt -> (nth u l 0%Z = nth v l 0%Z <-> nth u gt 0%Z = nth v gt 0%Z)).
Proof. intros Hv Hn E. exact (ari_one_iff gt l Hv Hn x E). Qed.
(** Let k clusters of gt be numbered from 0 to k-1, with more points in each than are misplaced by the labels l, also from 0 to k-1; and let
    at most half of the pairs of points be together in gt.  Then the index is at least 1 - m (n-1) / (number of pairs together in gt). *)
Theorem C100_misplaced gt l k : few_points gt -> (forall x, In x gt -> (0 <= x < Z.of_nat k)%Z) -> labels_below l (length gt) k ->
  (forall j, j < k -> (misplaced (length gt) (true_cluster gt) l < cluster_size (length gt) (true_cluster gt) j)%R) ->
  0 < same_pairs Z.eqb gt -> 2 * same_pairs Z.eqb gt <= choose2 (length gt) ->
  exists x, adjusted_rand_index gt l = Ok (Some x) /\
    (1 - misplaced (length gt) (true_cluster gt) l * (INR (length gt) - 1) / INR (same_pairs Z.eqb gt) <= x)%R.
Proof.
  intros Hn HG HL Hf P0 P1. pose proof (labels_valid gt l k HG HL) as Hv. destruct (ari_from_pairs gt l Hv Hn P0 P1) as (x & Ex & Lx).
  exists x. split; [exact Ex|]. eapply Rle_trans; [|exact Lx]. apply Rplus_le_compat_l, Ropp_le_contravar. change (same_pairs Z.eqb gt) with (pA gt) in *.
  unfold Rdiv. apply Rmult_le_compat_r; [left; apply Rinv_0_lt_compat, (lt_INR 0); exact P0|]. exact (discordant gt l Hv k HG (proj2 HL) Hf).
Qed.
(** Clusters of equal size: 1 - 2 m / (size - 1), for any labels from 0 to k-1. *)
Theorem C100_balanced gt l k sz : few_points gt -> balanced gt k sz -> 2 <= k -> 2 <= sz -> labels_below l (length gt) k ->
  exists x, adjusted_rand_index gt l = Ok (Some x) /\ (1 - 2 * misplaced (length gt) (true_cluster gt) l / (INR sz - 1) <= x <= 1)%R.
Proof. intros Hn Hb Hk Hs Hl. exact (ari_balanced gt l k sz Hb Hk Hs Hn Hl). Qed.
Print Assumptions C100_range.
Print Assumptions C100_one.
Print Assumptions C100_misplaced.
Print Assumptions C100_balanced.

(** ** Spectral clustering *)
Lemma labels_from_nat (gt : list Z) k (z : list nat) : length z = length gt -> (forall u, u < length gt -> nth u z 0 < k) -> labels_below (map Z.of_nat z) (length gt) k.
Proof.
  intros L H. split; [now rewrite map_length|]. intros x Hx. apply in_map_iff in Hx. destruct Hx as (y & <- & Hy).
  apply (In_nth z y 0) in Hy. destruct Hy as (u & Hu & <-). specialize (H u ltac:(lia)). lia.
Qed.
Lemma balanced_clustering gt k sz : balanced gt k sz -> 1 <= sz -> clustering (length gt) k (true_cluster gt).
Proof.
  intros Hb Hs. pose proof Hb as (_ & HG & HO). split.
  - intros u Hu. exact (s_lt gt k HG u Hu).
  - intros j Hj. assert (In (Z.of_nat j) gt) as Hi.
    { specialize (HO j Hj). unfold occ in HO. destruct (filter (Z.eqb (Z.of_nat j)) gt) as [|y r] eqn:E; [cbn in HO; lia|].
      assert (In y (filter (Z.eqb (Z.of_nat j)) gt)) as I by (rewrite E; now left). apply filter_In in I. destruct I as [I1 I2]. apply Z.eqb_eq in I2. now subst. }
    apply (In_nth gt _ 0%Z) in Hi. destruct Hi as (u & Hu & E). exists u. split; [exact Hu|]. unfold true_cluster. rewrite E. apply Nat2Z.id.
Qed.
(** The labels of spectral_cluster: with k clusters of sz vertices each, the index is at least
    1 - 8 sz/(sz-1) (energy of the clusters / lam + k-means cost of the labels). *)
Theorem C100_spectral (bump : R -> R) (solver : eigen_solver (W := R)) (g : graph R) gt k sz lam labels :
  solver_contract solver -> reachable_pos g -> length gt = number_of_vertices g ->
  (forall v, v < number_of_vertices g -> rw g v v = 0%R) -> (forall v, v < number_of_vertices g -> rdeg g v <> 0%R) ->
  few_points gt -> balanced gt k sz -> 2 <= k -> 2 <= sz -> (Z.of_nat k <= 21474836)%Z ->
  nth_eigenvalue (number_of_vertices g) (matrix_of_graph MatNormalisedLaplacian g) k lam -> (0 < lam)%R ->
  snd (spectral_cluster IZR unit_ofR truncR bump solver g (Z.of_nat k)) = Ok labels ->
  exists x vecs, adjusted_rand_index gt labels = Ok (Some x) /\
    snd (compute_eigenvectors solver g MatNormalisedLaplacian (Z.of_nat k) Smallest) = Ok vecs /\
    (1 - 8 * INR sz / (INR sz - 1) * (rsum k (cluster_energy g (true_cluster gt)) / lam + labels_cost k (rows_of (number_of_vertices g) vecs) (map Z.to_nat labels)) <= x <= 1)%R.
Proof.
  intros SC Hr Hg NL NI Hn Hb Hk Hs Kb Hlam Pl E.
  assert (2 * k <= number_of_vertices g) as K2 by (rewrite <- Hg; destruct Hb as (-> & _); nia).
  pose proof (balanced_clustering gt k sz Hb ltac:(lia)) as Hc. pose proof (balanced_size gt k sz Hb) as Hsz. rewrite Hg in Hc, Hsz.
  destruct (C92_misplaced bump solver g k (true_cluster gt) lam (INR sz) labels SC Hr NL NI ltac:(lia) K2 Kb Hc Hlam Pl) as (vecs & Ev & Bm & _); auto; [intros j Hj; right; now apply Hsz|].
  assert (labels_below labels (length gt) k) as HL.
  { pose proof (spectral_cluster_labels IZR unit_ofR truncR bump solver g (Z.of_nat k) (number_of_vertices g) eq_refl) as P. rewrite E in P.
    destruct P as [P1 P2]; [split; [lia|apply Z.div_le_lower_bound; lia]|apply first_choice; lia|]. split; [lia|]. rewrite Forall_forall in P2. exact P2. }
  destruct (C100_balanced gt labels k sz Hn Hb Hk Hs HL) as (x & Ex & B1 & B2). rewrite Hg in B1. exists x, vecs. split; [exact Ex|]. split; [exact Ev|]. split; [|exact B2].
  eapply Rle_trans; [|exact B1]. apply Rplus_le_compat_l, Ropp_le_contravar. pose proof (sz_large sz Hs) as S2. set (c := (rsum k _ / lam + labels_cost k _ _)%R) in *. clearbody c.
  apply Rmult_le_reg_r with (INR sz - 1)%R; [lra|]. replace (2 * misplaced (number_of_vertices g) (true_cluster gt) labels / (INR sz - 1) * (INR sz - 1))%R with (2 * misplaced (number_of_vertices g) (true_cluster gt) labels)%R by (field; lra).
  replace (8 * INR sz / (INR sz - 1) * c * (INR sz - 1))%R with (8 * INR sz * c)%R by (field; lra). lra.
Qed.
Print Assumptions C100_spectral.
(** 1 - index. *)
Definition index_loss (gt labels : list Z) : R := match adjusted_rand_index gt labels with Ok (Some x) => (1 - x)%R | _ => 2%R end.
Lemma is_mean_scal num : forall F v c, is_mean num F v -> is_mean num (fun us => (c * F us)%R) (c * v)%R.
Proof.
  induction num as [|m IH]; intros F v c; cbn [is_mean]; [now intros ->|]. intros (h & A & B). exists (fun x => (c * h x)%R). split.
  - intros x Hx. apply (IH (fun rs => F (x :: rs))). now apply A.
  - exact (is_RInt_scal h 0 1 c v B).
Qed.
(** With independent uniform numbers in place of those of the generator seeded with 42, 1 - index is on average at most
    8 sz/(sz-1) (1 + 8 (2 + ln k)) (energy of the clusters) / lam. *)
Theorem C100_expected (bump : R -> R) (solver : eigen_solver (W := R)) (g : graph R) gt k sz lam bad vecs :
  (forall c, (1 <= c)%R -> bump c = c) -> solver_contract solver -> reachable_pos g -> length gt = number_of_vertices g ->
  (forall v, v < number_of_vertices g -> rw g v v = 0%R) -> (forall v, v < number_of_vertices g -> rdeg g v <> 0%R) ->
  few_points gt -> balanced gt k sz -> 2 <= k -> 2 <= sz -> (Z.of_nat k <= 21474836)%Z ->
  nth_eigenvalue (number_of_vertices g) (matrix_of_graph MatNormalisedLaplacian g) k lam -> (0 < lam)%R ->
  snd (compute_eigenvectors solver g MatNormalisedLaplacian (Z.of_nat k) Smallest) = Ok vecs ->
  exists e, is_mean k (fun us => value_or bad (index_loss gt) (snd (spectral_cluster_with bump solver g (Z.of_nat k) us))) e /\
    (e <= 8 * INR sz / (INR sz - 1) * (1 + 8 * (2 + ln (INR k))) * (rsum k (cluster_energy g (true_cluster gt)) / lam))%R.
Proof.
  intros B1 SC Hr Hg NL NI Hn Hb Hk Hs Kb Hlam Pl Ev.
  assert (2 * k <= number_of_vertices g) as K2 by (rewrite <- Hg; destruct Hb as (-> & _); nia).
  pose proof (balanced_clustering gt k sz Hb ltac:(lia)) as Hc. pose proof (balanced_size gt k sz Hb) as Hsz. rewrite Hg in Hc, Hsz. pose proof (sz_large sz Hs) as S2.
  destruct (expected_of bump solver g k (true_cluster gt) lam (INR sz) SC Hr NL NI ltac:(lia) K2 Kb Hc Hlam Pl ltac:(intros j Hj; right; now apply Hsz) B1
    (fun labels => ((INR sz - 1) / 2 * index_loss gt labels)%R) ((INR sz - 1) / 2 * bad)%R vecs Ev) as (e & Me & Le).
  - intros z Lz Hz. rewrite <- Hg in Lz, Hz. destruct (C100_balanced gt (map Z.of_nat z) k sz Hn Hb Hk Hs (labels_from_nat gt k z Lz Hz)) as (x & Ex & C1 & C2).
    unfold index_loss. rewrite Ex. rewrite Hg in C1. set (m := misplaced _ _ _) in *. clearbody m.
    apply Rle_trans with ((INR sz - 1) / 2 * (2 * m / (INR sz - 1)))%R; [apply Rmult_le_compat_l; lra|right; field; lra].
  - exists (2 / (INR sz - 1) * e)%R. split.
    + apply (is_mean_ext k _ _ _) with (2 := is_mean_scal k _ e (2 / (INR sz - 1))%R Me). intros us L _. cbv beta.
      destruct (snd (spectral_cluster_with bump solver g (Z.of_nat k) us)); cbn [value_or]; field; lra.
    + apply Rle_trans with (2 / (INR sz - 1) * (4 * INR sz * (1 + 8 * (2 + ln (INR k))) * (rsum k (cluster_energy g (true_cluster gt)) / lam)))%R.
      * apply Rmult_le_compat_l; [|exact Le]. apply Rmult_le_pos; [lra|]. left. apply Rinv_0_lt_compat. lra.
      * right. field. split; lra.
Qed.
Print Assumptions C100_expected.

(** ** Examples *)
(** Six points in two clusters of three, one of them misplaced: the bound 1 - 2/2 = 0 holds, the index is 7/22 (scaled counts 4, 6, 7 of 15 pairs). *)
Example C100_hypotheses_met : let gt := [0; 0; 0; 1; 1; 1]%Z in let l := [0; 0; 1; 1; 1; 1]%Z in
  valid_labels gt l /\ few_points gt /\ balanced gt 2 3 /\ labels_below l (length gt) 2 /\ misplaced (length gt) (true_cluster gt) l = 1%R /\
  (forall j, j < 2 -> (misplaced (length gt) (true_cluster gt) l < cluster_size (length gt) (true_cluster gt) j)%R) /\
  same_pairs Z.eqb gt = 6 /\ choose2 (length gt) = 15 /\ (exists x, adjusted_rand_index gt l = Ok (Some x) /\ (0 <= x < 1)%R).
Proof.
  cbv zeta. set (gt := [0; 0; 0; 1; 1; 1]%Z). set (l := [0; 0; 1; 1; 1; 1]%Z).
  assert (balanced gt 2 3) as Hb.
  { split; [reflexivity|]. split; [intros x Hx; cbn in Hx; repeat destruct Hx as [<-|Hx]; try contradiction; lia|]. intros [|[|j]] Hj; [reflexivity|reflexivity|lia]. }
  assert (labels_below l (length gt) 2) as Hl by (split; [reflexivity|intros x Hx; cbn in Hx; repeat destruct Hx as [<-|Hx]; try contradiction; lia]).
  assert (few_points gt) as Hn by (unfold few_points, ari_max_points; cbn; lia).
  assert (misplaced (length gt) (true_cluster gt) l = 1%R) as Hm.
  { unfold misplaced, rsum, agreeing, peers, rsum, gt, l. cbn. change (Pos.to_nat 1) with 1%nat. cbn. repeat match goal with |- context [Rle_dec ?a ?b] => destruct (Rle_dec a b); [try (exfalso; lra)|try (exfalso; lra)] end.
    ring. }
  pose proof (labels_valid gt l 2 (proj1 (proj2 Hb)) Hl) as Hv.
  split; [exact Hv|]. split; [exact Hn|]. split; [exact Hb|]. split; [exact Hl|]. split; [exact Hm|].
  split; [intros j Hj; rewrite Hm, (balanced_size gt 2 3 Hb j Hj); cbn [INR]; lra|]. split; [reflexivity|]. split; [reflexivity|].
  destruct (C100_balanced gt l 2 3 Hn Hb ltac:(lia) ltac:(lia) Hl) as (x & Ex & L & U). exists x. split; [exact Ex|]. rewrite Hm in L. cbn [INR] in L. split; [lra|].
  destruct (Rle_lt_or_eq_dec x 1 U) as [|E]; auto. exfalso. pose proof (proj1 (C100_one gt l x Hv Hn Ex) E 2 3 ltac:(cbn; lia) ltac:(cbn; lia)) as C. cbn in C. destruct C as [C _]. discriminate (C eq_refl).
Qed.
(** The ring of four vertices of C92: the adjusted Rand index of spectral_cluster(g, 2) is on average at least 4/5 (up to the share of runs
    that the theorem allows to fail). *)
Example C100_ring : exists e, is_mean 2 (fun us => value_or 2%R (index_loss [0; 0; 1; 1]%Z) (snd (spectral_cluster_with (fun c => c) ring_solver ring 2 us))) e /\ (e <= 4 / 5)%R.
Proof.
  destruct C92_hypotheses_met as (H1 & H2 & H3 & H4 & H5 & H6 & H7 & (vecs & H8) & _).
  assert (balanced [0; 0; 1; 1]%Z 2 2) as Hb.
  { split; [reflexivity|]. split; [intros x Hx; cbn in Hx; repeat destruct Hx as [<-|Hx]; try contradiction; lia|]. intros [|[|j]] Hj; [reflexivity|reflexivity|lia]. }
  destruct (C100_expected (fun c => c) ring_solver ring [0; 0; 1; 1]%Z 2 2 (2000/1001) 2 vecs (fun c _ => eq_refl) H1 H2 eq_refl H3 H4) as (e & M & L); auto; try lia; try lra.
  - unfold few_points, ari_max_points. cbn. lia.
  - exists e. split; [exact M|]. eapply Rle_trans; [exact L|].
    rewrite (rsum_ext 2 (cluster_energy ring (true_cluster [0; 0; 1; 1]%Z)) (cluster_energy ring ring_s)).
    + rewrite ring_energy. assert (ln (INR 2) <= 1)%R.
      { cbn [INR]. replace (1+1)%R with 2%R by ring. rewrite <- (ln_exp 1). apply Rlt_le, ln_increasing; [lra|]. pose proof (exp_ineq1 1 ltac:(lra)). lra. }
      cbn [INR] in *. replace (1 + 1 - 1)%R with 1%R by ring. lra.
    + intros j _. unfold cluster_energy. change (number_of_vertices ring) with 4.
      assert (forall u, u < 4 -> true_cluster [0; 0; 1; 1]%Z u = ring_s u) as ES by (intros [|[|[|[|u]]]] Hu; try lia; reflexivity).
      replace (cluster_size 4 (true_cluster [0; 0; 1; 1]%Z) j) with (cluster_size 4 ring_s j).
      * apply (f_equal (fun x => (x / (2 * cluster_size 4 ring_s j))%R)). apply rsum_ext. intros u Hu. apply rsum_ext. intros v Hw. now rewrite !ES.
      * unfold cluster_size. apply rsum_ext. intros u Hu. now rewrite ES.
Qed.
