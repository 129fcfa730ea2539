(** Spectral clustering with an eigensolver that is not exact (C94). *)
From Verif Require Import Base Num RSum Sparse SparseFacts Graph GraphSpec GraphFacts GraphProps1 GraphProps2 GraphProps3
  Spectrum SpectrumSpec SpectrumFacts SpectrumPower SpectrumConv CheegerSpectral CheegerIneq KMeans KMeansFacts KMeansSpec KMeansLloyd KMeansTop MTFacts RecoverMath RecoverTop KppMath Kpp KppTop PartMath SpecQual.
From Coq Require Import Reals Lra Psatz Lia List Permutation Sorting.Sorted.
Import ListNotations.
Local Open Scope nat_scope.

(** ** Specification *)
(** The k vectors are those of some orthonormal basis of the span of the first k eigenvectors, up to a total squared error of eps2:
    Q is an orthogonal k x k matrix and vector i is close to sum_j Q(i,j) f_j, f_0, f_1, ... eigenvectors in the order of the eigenvalues. *)
Definition nearly_leading (n : nat) (M : nat -> nat -> R) (k : nat) (vecs : list (list R)) (eps2 : R) : Prop :=
  length vecs = k /\ exists (E : list (R * list R)) (Q : nat -> nat -> R),
    eigen_system n M E /\ StronglySorted Rle (map fst E) /\
    (forall j l, j < k -> l < k -> rsum k (fun i => Q i j * Q i l)%R = if j =? l then 1%R else 0%R) /\
    (rsum k (fun i => rsum n (fun u => (vx (nth i vecs []) u - rsum k (fun j => Q i j * vx (snd (nth j E (0%R, []))) u)) ^ 2)) <= eps2)%R.

(** ** Rotations *)
Lemma vari_scal_sum n c (Q : nat -> R) (f : nat -> nat -> R) k : vari n c (fun u => rsum k (fun j => Q j * f j u)%R) = rsum n (fun u => rsum k (fun j => Q j * resid n c (f j) u)%R ^ 2)%R.
Proof.
  unfold vari, dot. apply rsum_ext. intros u _. assert (resid n c (fun u => rsum k (fun j => Q j * f j u)%R) u = rsum k (fun j => Q j * resid n c (f j) u)%R) as -> by exact (resid_sum n c Q f (seq 0 k) u). ring.
Qed.
Lemma rotate_squares k (Q : nat -> nat -> R) (v : nat -> R) : (forall j l, j < k -> l < k -> rsum k (fun i => Q i j * Q i l)%R = if j =? l then 1%R else 0%R) ->
  rsum k (fun i => rsum k (fun j => Q i j * v j)%R ^ 2)%R = rsum k (fun j => v j ^ 2)%R.
Proof.
  intros HQ. rewrite (rsum_ext k _ (fun i => rsum k (fun j => rsum k (fun l => v j * v l * (Q i j * Q i l)))%R)).
  - rewrite rsum_swap. apply rsum_ext. intros j Hj. rewrite rsum_swap.
    rewrite (rsum_ext k _ (fun l => if j =? l then v j * v l else 0)%R) by (intros l Hl; rewrite rsum_scal, HQ by auto; destruct (j =? l); ring).
    rewrite (rsum_delta' k j (fun l => v j * v l)%R Hj). ring.
  - intros i _. replace (rsum k (fun j => Q i j * v j) ^ 2)%R with (rsum k (fun j => Q i j * v j) * rsum k (fun l => Q i l * v l))%R by ring.
    rewrite <- rsum_scal_r. apply rsum_ext. intros j _. rewrite <- rsum_scal. apply rsum_ext. intros l _. ring.
Qed.
Lemma vari_rotate n c k (Q : nat -> nat -> R) (f : nat -> nat -> R) : (forall j l, j < k -> l < k -> rsum k (fun i => Q i j * Q i l)%R = if j =? l then 1%R else 0%R) ->
  rsum k (fun i => vari n c (fun u => rsum k (fun j => Q i j * f j u)%R)) = rsum k (fun j => vari n c (f j)).
Proof.
  intros HQ. rewrite (rsum_ext k _ (fun i => rsum n (fun u => rsum k (fun j => Q i j * resid n c (f j) u)%R ^ 2)%R)) by (intros i _; apply vari_scal_sum).
  rewrite rsum_swap. rewrite (rsum_ext n _ (fun u => rsum k (fun j => resid n c (f j) u ^ 2)%R)) by (intros u _; now apply rotate_squares).
  rewrite rsum_swap. apply rsum_ext. intros j _. unfold vari, dot. apply rsum_ext. intros u _. ring.
Qed.
Lemma vari_close n c K (x y : nat -> R) : (forall u, u < n -> c u < K) -> (vari n c x <= 2 * vari n c y + 2 * rsum n (fun u => (x u - y u) ^ 2))%R.
Proof.
  intros Hc. rewrite (vari_ext n c x (fun u => y u + (x u - y u))%R) by (intros; ring). eapply Rle_trans; [apply vari_plus|].
  apply Rplus_le_compat_l, Rmult_le_compat_l; [lra|]. eapply Rle_trans; [apply (vari_le n c K); auto|]. right. apply rsum_ext. intros u _. ring.
Qed.
Lemma labels_cost_vecs n (vecs : list (list R)) z : labels_cost (length vecs) (rows_of n vecs) z = rsum (length vecs) (fun i => vari n (fun u => nth u z 0) (vx (nth i vecs []))).
Proof.
  pose proof (labels_cost_vari n (map (fun v => (0%R, v)) vecs) z) as P. rewrite map_length, map_map in P. cbn [snd] in P. rewrite map_id in P. rewrite P.
  rewrite lsum_map. cbn [snd]. symmetry. exact (rsum_nth (fun v => vari n (fun u => nth u z 0) (vx v)) vecs []).
Qed.
Section Near.
  Variables (g : graph R) (k : nat) (s : nat -> nat) (lam smax : R).
  Hypothesis Hr : reachable_pos g.
  Local Notation n := (number_of_vertices g).
  Hypothesis noloop : forall v, v < n -> rw g v v = 0%R.
  Hypothesis noiso : forall v, v < n -> rdeg g v <> 0%R.
  Hypothesis Hs : clustering n k s.
  Hypothesis Hlam : nth_eigenvalue n (matrix_of_graph MatNormalisedLaplacian g) k lam.
  Hypothesis lam_pos : (0 < lam)%R.
  Hypothesis Hsmax : forall j, j < k -> (cluster_size n s j <= smax)%R.
  Hypothesis Hk : k < n.
  Local Notation M := (matrix_of_graph MatNormalisedLaplacian g).
  Local Notation bound := (rsum k (cluster_energy g s) / lam)%R.
  Variables (vecs : list (list R)) (eps2 : R).
  Hypothesis Hnear : nearly_leading n M k vecs eps2.
  Local Notation X := (rows_of n vecs).
  (** The cost of labels on the exact and on the inexact rows. *)
  Lemma near_costs : exists r, leading (order_of Smallest) n M k r /\ forall z K, (forall u, u < n -> nth u z 0 < K) ->
    (labels_cost k (rows_of n (map snd r)) z <= 2 * labels_cost k X z + 2 * eps2)%R /\ (labels_cost k X z <= 2 * labels_cost k (rows_of n (map snd r)) z + 2 * eps2)%R.
  Proof.
    destruct Hnear as (Lv & E & Q & Sys & Sor & HQ & HE). exists (firstn k E). assert (leading (order_of Smallest) n M k (firstn k E)) as HL by (exists E; auto). split; [exact HL|].
    intros z K Hz. pose proof (F_length n M E Sys k Hk) as LF. set (a := fun u => nth u z 0). set (f := fun j => vx (snd (nth j E (0%R, [])))).
    assert (labels_cost k X z = rsum k (fun i => vari n a (vx (nth i vecs [])))) as -> by (pose proof (labels_cost_vecs n vecs z) as P; rewrite Lv in P; exact P).
    assert (labels_cost k (rows_of n (map snd (firstn k E))) z = rsum k (fun j => vari n a (f j))) as ->.
    { pose proof (labels_cost_vecs n (map snd (firstn k E)) z) as P. rewrite map_length, LF in P. rewrite P. apply rsum_ext. intros j Hj. f_equal. unfold f. f_equal.
      change (@nil R) with (snd (0%R, @nil R)) at 1. rewrite map_nth. f_equal. apply nth_firstn. exact Hj. }
    rewrite <- (vari_rotate n a k Q f HQ). set (w := fun i u => rsum k (fun j => Q i j * f j u)%R).
    assert (forall i u, (vx (nth i vecs []) u - w i u) ^ 2 = (w i u - vx (nth i vecs []) u) ^ 2)%R as Sw by (intros; ring).
    change (rsum k (fun i => rsum n (fun u => (vx (nth i vecs []) u - w i u) ^ 2)) <= eps2)%R in HE.
    change (rsum k (fun i => vari n a (fun u => rsum k (fun j => (Q i j * f j u)%R)))) with (rsum k (fun i => vari n a (w i))).
    split.
    - apply Rle_trans with (rsum k (fun i => 2 * vari n a (vx (nth i vecs [])) + 2 * rsum n (fun u => (vx (nth i vecs []) u - w i u) ^ 2))%R).
      + apply rsum_le. intros i _. rewrite (rsum_ext n _ (fun u => (w i u - vx (nth i vecs []) u) ^ 2)%R) by (intros; apply Sw). now apply (vari_close n a K).
      + rewrite rsum_plus, !rsum_scal. lra.
    - apply Rle_trans with (rsum k (fun i => 2 * vari n a (w i) + 2 * rsum n (fun u => (vx (nth i vecs []) u - w i u) ^ 2))%R).
      + apply rsum_le. intros i _. now apply (vari_close n a K).
      + rewrite rsum_plus, !rsum_scal. lra.
  Qed.
  Lemma near_labels z K : (forall u, u < n -> nth u z 0 < K) -> (misplaced n s (map Z.of_nat z) <= 4 * smax * (bound + 2 * eps2 + 2 * labels_cost k X z))%R.
  Proof.
    intros Hz. destruct near_costs as (r & HL & C). destruct (C z K Hz) as [C1 _].
    assert (0 <= smax)%R as Ps.
    { assert (0 < k) as K0 by (destruct Hs as [S1 _]; specialize (S1 0); lia). pose proof (Hsmax 0 K0). pose proof (size_pos g k s Hs 0 K0). lra. }
    eapply Rle_trans; [apply (labels_few g k s lam smax Hr noloop noiso Hs Hlam lam_pos Hsmax Hk r HL z K Hz)|]. apply Rmult_le_compat_l; lra.
  Qed.
  Lemma near_planted : (labels_cost k X (map s (seq 0 n)) <= 2 * bound + 2 * eps2)%R.
  Proof.
    destruct near_costs as (r & HL & C). destruct (C (map s (seq 0 n)) k) as [_ C2]; [intros u Hu; rewrite nth_map_seq by auto; now apply Hs|].
    pose proof (planted_cost g k s lam Hr noloop noiso Hs Hlam lam_pos Hk r HL). lra.
  Qed.
  Lemma near_dim x : In x X -> length x = k.
  Proof. intros I. unfold rows_of in I. apply in_map_iff in I as (i & <- & _). rewrite map_length. apply Hnear. Qed.
End Near.

Section Calls.
  Variables (bump : R -> R) (solver : eigen_solver (W := R)) (g : graph R) (k : nat) (s : nat -> nat) (lam smax : R).
  Hypothesis Hr : reachable_pos g.
  Local Notation n := (number_of_vertices g).
  Hypothesis noloop : forall v, v < n -> rw g v v = 0%R.
  Hypothesis noiso : forall v, v < n -> rdeg g v <> 0%R.
  Hypothesis Hk1 : 1 <= k.
  Hypothesis Hk2 : 2 * k <= n.
  Hypothesis Hb : (Z.of_nat k <= 21474836)%Z.
  Hypothesis Hs : clustering n k s.
  Hypothesis Hlam : nth_eigenvalue n (matrix_of_graph MatNormalisedLaplacian g) k lam.
  Hypothesis lam_pos : (0 < lam)%R.
  Hypothesis Hsmax : forall j, j < k -> (cluster_size n s j <= smax)%R.
  Local Notation M := (matrix_of_graph MatNormalisedLaplacian g).
  Local Notation bound := (rsum k (cluster_energy g s) / lam)%R.
  Variables (vecs : list (list R)) (eps2 : R).
  Hypothesis Ev : snd (compute_eigenvectors solver g MatNormalisedLaplacian (Z.of_nat k) Smallest) = Ok vecs.
  Hypothesis Hnear : nearly_leading n M k vecs eps2.
  Theorem near_misplaced : exists labels, snd (spectral_cluster IZR unit_ofR truncR bump solver g (Z.of_nat k)) = Ok labels /\
      let total := (4 * smax * (bound + 2 * eps2 + 2 * labels_cost k (rows_of n vecs) (map Z.to_nat labels)))%R in
      (misplaced n s labels <= total)%R /\
      ((total < 1)%R -> forall u v, u < n -> v < n -> (nth u labels 0%Z = nth v labels 0%Z <-> s u = s v)).
  Proof.
    rewrite spectral_cluster_draws, (with_steps bump solver g k Hk1 Hk2 Hb _ _ Ev). rewrite Nat2Z.id. pose proof (rows_of_length n vecs) as LX.
    pose proof (kmeans_with_words bump (rows_of n vecs) k k (Z.of_nat k * 100) 42 Hk1) as W. replace (Z.to_nat (Z.of_nat k * 100)) with (k * 100) in W by lia.
    destruct (run_kmeans_ok IZR unit_ofR truncR bump (rows_of n vecs) k k (Z.of_nat k * 100) 42) as (z & Eo & L & F).
    - lia.
    - unfold randint. pose proof first_draw_42 as D0. destruct (mt_draw (mt_init 42)) as [st y]. cbn [snd] in *. subst y. rewrite LX. apply first_choice. lia.
    - rewrite Eo in W. rewrite <- W. cbn [omap]. exists (map Z.of_nat z). split; [reflexivity|].
      assert (forall u, u < n -> nth u z 0 < k) as Hz by (intros u Hu; rewrite Forall_forall in F; apply F, nth_In; lia).
      rewrite map_map, (map_ext _ (fun x => x)) by (intros; apply Nat2Z.id). rewrite map_id. cbv zeta.
      pose proof (near_labels g k s lam smax Hr noloop noiso Hs Hlam lam_pos Hsmax ltac:(lia) vecs eps2 Hnear z k Hz) as B. split; [exact B|].
      intros Lt. apply recovers_iff. destruct Hs as [S1 S2]. apply (misplaced_exact n k s z S2 S1 Hz). lra.
  Qed.
  Hypothesis bump1 : forall c, (1 <= c)%R -> bump c = c.
  Local Notation limit := (4 * smax * ((1 + 32 * (2 + ln (INR k))) * bound + (2 + 32 * (2 + ln (INR k))) * eps2))%R.
  Lemma near_expected_of (f : list Z -> R) bad :
    (forall z, length z = n -> (forall u, u < n -> nth u z 0 < k) -> (f (map Z.of_nat z) <= misplaced n s (map Z.of_nat z))%R) ->
    exists e, is_mean k (fun us => value_or bad f (snd (spectral_cluster_with bump solver g (Z.of_nat k) us))) e /\ (e <= limit)%R.
  Proof.
    intros Hf. set (X := rows_of n vecs). assert (LX : length X = n) by apply rows_of_length.
    assert (0 <= smax)%R as Ps by (pose proof (Hsmax 0 ltac:(lia)); pose proof (size_pos g k s Hs 0 ltac:(lia)); lra).
    assert (forall x, In x X -> length x = k) as HX by (intros x; now apply (near_dim g k vecs eps2)).
    set (z0 := map s (seq 0 n)). assert (forall i, i < length X -> nth i z0 0 < k) as Hz0 by (rewrite LX; intros i Hi; unfold z0; rewrite nth_map_seq by auto; now apply (proj1 Hs)).
    destruct (affine_quality k X HX k (map (mean_point k X z0) (seq 0 k)) z0
      (fun o => value_or bad f (omap (map Z.of_nat) (obind o (fun Mu => lloyd bump k k X (k * 100) Mu (repeat 0%nat (length X)) 0%R)))) (4 * smax * (bound + 2 * eps2))%R (8 * smax)%R) as (e & Me & Le).
    - lia.
    - exact Hz0.
    - lra.
    - intros Mu LM IM. cbn [obind]. destruct (lloyd_improves k X HX bump bump1 k (k * 100) Mu ltac:(lia) Hk1 ltac:(lia) LM IM) as (out & Eo & Lo & Ho & B).
      rewrite Eo. cbn [omap value_or]. rewrite LX in *. eapply Rle_trans; [now apply Hf|].
      eapply Rle_trans; [apply (near_labels g k s lam smax Hr noloop noiso Hs Hlam lam_pos Hsmax ltac:(lia) vecs eps2 Hnear out k Ho)|]. fold X.
      replace (4 * smax * (bound + 2 * eps2 + 2 * labels_cost k X out))%R with (4 * smax * (bound + 2 * eps2) + 8 * smax * labels_cost k X out)%R by ring.
      apply Rplus_le_compat_l. apply Rmult_le_compat_l; [lra|exact B].
    - exists e. split.
      + apply (is_mean_ext k _ _ _) with (2 := Me). intros us L _. rewrite (with_steps bump solver g k Hk1 Hk2 Hb us vecs Ev). fold X. unfold kmeans_with. now rewrite L.
      + eapply Rle_trans; [exact Le|]. rewrite <- labels_cost_is_cost by exact Hz0.
        pose proof (near_planted g k s lam Hr noloop noiso Hs Hlam lam_pos ltac:(lia) vecs eps2 Hnear) as PC. fold X z0 in PC.
        assert (0 <= ln (INR k))%R as Pl.
        { assert (1 <= INR k)%R by (change 1%R with (INR 1); apply le_INR; lia). destruct (Rle_lt_or_eq_dec 1 (INR k)) as [L1|<-]; auto; [left; rewrite <- ln_1; apply ln_increasing; lra|rewrite ln_1; lra]. }
        set (c := (2 + ln (INR k))%R) in *. assert (0 <= c)%R by (unfold c; lra). clearbody c. set (G := bound) in *. clearbody G.
        replace (4 * smax * ((1 + 32 * c) * G + (2 + 32 * c) * eps2))%R with (4 * smax * (G + 2 * eps2) + 8 * smax * (8 * c * (2 * G + 2 * eps2)))%R by ring.
        apply Rplus_le_compat_l. apply Rmult_le_compat_l; [lra|]. apply Rmult_le_compat_l; lra.
  Qed.
  Theorem near_expected bad :
    exists e, is_mean k (fun us => value_or bad (misplaced n s) (snd (spectral_cluster_with bump solver g (Z.of_nat k) us))) e /\ (e <= limit)%R.
  Proof. apply (near_expected_of (misplaced n s) bad). intros. lra. Qed.
  Theorem near_probability :
    exists e, is_mean k (fun us => value_or 1 (fun labels => if recovers n s labels then 0%R else 1%R) (snd (spectral_cluster_with bump solver g (Z.of_nat k) us))) e /\ (e <= limit)%R.
  Proof.
    apply (near_expected_of (fun labels => if recovers n s labels then 0%R else 1%R) 1%R). intros z Lz Hz.
    destruct (recovers n s (map Z.of_nat z)) eqn:Er; [apply rsum_nonneg; intros u _; destruct (Rle_dec _ _); lra|].
    destruct (Rlt_le_dec (misplaced n s (map Z.of_nat z)) 1) as [L|]; auto. destruct Hs as [S1 S2]. rewrite (misplaced_exact n k s z S2 S1 Hz L) in Er. discriminate.
  Qed.
End Calls.
