(** Spectral clustering of a graph with several components (C84). *)
From Verif Require Import Base Num RSum Sparse SparseFacts Graph GraphSpec GraphFacts GraphProps1 GraphProps2 GraphProps3 Cluster ClusterSpec ClusterInst ClusterExamples
  Spectrum SpectrumSpec SpectrumFacts SpectrumPower SpectrumConv CheegerFacts CheegerSpectral CheegerIneq KMeans KMeansFacts KMeansSpec KMeansLloyd KMeansTop MTFacts RecoverMath RecoverKM.
From Coq Require Import Reals Lra Psatz Relations Sorting.Sorted.
Local Open Scope nat_scope.

(** [comp] numbers the connected components 0, ..., k-1. *)
Definition components (g : graph R) (k : nat) (comp : nat -> nat) : Prop :=
  (forall v, v < number_of_vertices g -> comp v < k) /\
  (forall c, c < k -> exists v, v < number_of_vertices g /\ comp v = c) /\
  (forall u v, u < number_of_vertices g -> v < number_of_vertices g -> (comp u = comp v <-> connected g u v)).
(** Total degree of the component numbered [c]. *)
Definition comp_volume (g : graph R) (comp : nat -> nat) (c : nat) : R :=
  rsum (number_of_vertices g) (fun v => if comp v =? c then rdeg g v else 0%R).
(** Inner product of the rows [u] and [v] of the matrix with the given columns. *)
Definition row_product (vecs : list (list R)) (u v : nat) : R := lsum (fun x => vx x u * vx x v)%R vecs.

Lemma rsum_nth {A} (f : A -> R) l d : rsum (length l) (fun i => f (nth i l d)) = lsum f l.
Proof.
  unfold rsum. rewrite <- (lsum_map f (fun i => nth i l d)). f_equal.
  apply (nth_ext _ _ d d); [now rewrite map_length, seq_length|]. intros i Hi. rewrite map_length, seq_length in Hi. now rewrite nth_map_seq.
Qed.

Section G.
  Variables (g : graph R) (k : nat) (comp : nat -> nat).
  Hypothesis Hr : reachable_pos g.
  Let n := number_of_vertices g.
  Hypothesis noloop : forall v, v < n -> rw g v v = 0%R.
  Hypothesis noiso : forall v, v < n -> rdeg g v <> 0%R.
  Hypothesis HC : components g k comp.

  Lemma deg_pos v : v < n -> (0 < rdeg g v)%R.
  Proof. intros Hv. pose proof (rdeg_nonneg g v Hr). specialize (noiso v Hv). lra. Qed.
  Lemma nlap_form u v : u < n -> v < n -> matrix_of_graph MatNormalisedLaplacian g u v =
    ((if u =? v then 1 else 0) - rw g u v / (sqrt (rdeg g u) * sqrt (rdeg g v)))%R.
  Proof.
    intros Hu Hv. unfold matrix_of_graph. pose proof (deg_pos u Hu). pose proof (deg_pos v Hv).
    rewrite sqrt_mult by lra. destruct (Req_EM_T (rw g u v) 0) as [E|]; [|reflexivity]. rewrite E. unfold Rdiv. now rewrite Rmult_0_l.
  Qed.
  Lemma rw_adjacent u v : rw g u v <> 0%R -> adjacent g u v.
  Proof.
    intros N. unfold adjacent. destruct (weqb (weight g u v) w0) eqn:E; auto. apply (toR_eqb (weight g u v) w0) in E. contradiction.
  Qed.
  Lemma comp_edge u v : u < n -> v < n -> rw g u v <> 0%R -> comp u = comp v.
  Proof. intros Hu Hv N. apply HC; auto. apply rt_step. now apply rw_adjacent. Qed.
  Lemma comp_conn u v : u < n -> v < n -> comp u = comp v -> clos_refl_trans nat (fun a b => rw g a b <> 0%R /\ a < n /\ b < n) u v.
  Proof.
    intros Hu Hv C. destruct HC as (_ & _ & Hc). apply (Hc u v Hu Hv) in C. unfold connected in C. clear Hu Hv.
    induction C as [a b H|a|a b c _ IH1 _ IH2]; [apply rt_step; now apply (adjacent_rw g Hr)|apply rt_refl|eapply rt_trans; eauto].
  Qed.
  Section E.
    Variable E : list (R * list R).
    Hypothesis sys : eigen_system n (matrix_of_graph MatNormalisedLaplacian g) E.
    Hypothesis sorted : StronglySorted Rle (map fst E).
    Let w_sym u v := rw_sym g u v (reachable_pos_reachable g Hr).
    Let w_nn u v := rw_nonneg g u v Hr.
    Let deg := rdeg_noloop g noloop.
    Lemma gram_graph u v : u < n -> v < n ->
      row_product (map snd (firstn k E)) u v = if comp u =? comp v then (sqrt (rdeg g u) * sqrt (rdeg g v) / comp_volume g comp (comp u))%R else 0%R.
    Proof.
      intros Hu Hv. unfold row_product. rewrite lsum_map. destruct HC as (H1 & H2 & _).
      exact (gram_rows n k (rw g) (rdeg g) _ comp w_sym w_nn deg_pos deg nlap_form comp_edge comp_conn H1 H2 E sys sorted u v Hu Hv).
    Qed.
    Lemma value_zero j : j < n -> (fst (nth j E (0%R, [])) = 0%R <-> j < k) /\ (0 <= fst (nth j E (0%R, [])))%R.
    Proof.
      destruct HC as (H1 & H2 & _). intros Hj. set (p := nth j E (0%R, [])).
      pose proof (values_nonneg n (rw g) (rdeg g) _ w_sym w_nn deg_pos deg nlap_form E sys) as NN.
      pose proof (kernel_firstn n k (rw g) (rdeg g) _ comp w_sym w_nn deg_pos deg nlap_form comp_edge comp_conn H1 H2 E sys sorted) as KF.
      pose proof (kernel_length n k (rw g) (rdeg g) _ comp w_sym w_nn deg_pos deg nlap_form comp_edge comp_conn H1 H2 E sys) as KL.
      destruct sys as (Ls & _). assert (Hp : In p E) by (apply nth_In; lia). split; [|now apply NN].
      pose proof (firstn_skipn k E) as FS. assert (Lf : length (firstn k E) = k) by (rewrite KF; exact KL).
      split.
      - intros Z. destruct (Nat.lt_ge_cases j k) as [|Ge]; auto. exfalso.
        assert (In1 : In p (skipn k E)).
        { unfold p. rewrite <- FS at 1. rewrite app_nth2 by lia. apply nth_In. rewrite skipn_length. lia. }
        pose proof KF as KF2. unfold kernel in KF2. rewrite <- FS in KF2 at 2. rewrite filter_app in KF2.
        assert (F1 : filter zero_value (firstn k E) = firstn k E).
        { rewrite KF. unfold kernel. clear. induction E as [|q l IH]; [reflexivity|]. cbn [filter]. destruct (zero_value q) eqn:Q; auto. cbn [filter]. rewrite Q. now f_equal. }
        rewrite F1 in KF2. assert (F2 : filter zero_value (skipn k E) = []).
        { apply (app_inv_head (firstn k E)). rewrite app_nil_r. now symmetry. }
        assert (In2 : In p (filter zero_value (skipn k E))).
        { apply filter_In. split; auto. unfold zero_value. destruct (Req_EM_T (fst p) 0); tauto. }
        rewrite F2 in In2. destruct In2.
      - intros Hk. assert (In1 : In p (firstn k E)).
        { unfold p. rewrite <- FS at 1. rewrite app_nth1 by lia. apply nth_In. lia. }
        rewrite KF in In1. apply in_kernel in In1. tauto.
    Qed.
  End E.
  Lemma comp_volume_pos v : v < n -> (0 < comp_volume g comp (comp v))%R.
  Proof. intros Hv. exact (cvol_pos n (rdeg g) comp deg_pos v Hv). Qed.

  Lemma leading_gram r u v : leading (order_of Smallest) n (matrix_of_graph MatNormalisedLaplacian g) k r -> u < n -> v < n ->
    row_product (map snd r) u v = if comp u =? comp v then (sqrt (rdeg g u) * sqrt (rdeg g v) / comp_volume g comp (comp u))%R else 0%R.
  Proof. intros (E & Sys & Sor & ->). now apply gram_graph. Qed.
  (** Squared distance of two rows. *)
  Lemma row_distance (r : list (R * list R)) u v : length r = k -> u < n -> v < n ->
    sqd k (nth u (rows_of n (map snd r)) []) (nth v (rows_of n (map snd r)) []) =
    (row_product (map snd r) u u - 2 * row_product (map snd r) u v + row_product (map snd r) v v)%R.
  Proof.
    intros L Hu Hv. unfold rows_of. rewrite !nth_map_seq by auto. unfold sqd. rewrite <- L.
    rewrite (rsum_ext _ _ (fun d => (vx (snd (nth d r (0%R, []))) u - vx (snd (nth d r (0%R, []))) v) ^ 2)%R).
    - rewrite (rsum_nth (fun p => (vx (snd p) u - vx (snd p) v) ^ 2)%R). unfold row_product. rewrite !lsum_map.
      rewrite <- lsum_scal, <- lsum_minus, <- lsum_plus. apply lsum_ext. intros. ring.
    - intros d Hd. rewrite !map_map. unfold vx.
      rewrite (nth_indep (map (fun x => nth u (snd x) w0) r) 0%R (nth u (snd (0%R, [])) w0)) by (rewrite map_length; lia).
      rewrite (nth_indep (map (fun x => nth v (snd x) w0) r) 0%R (nth v (snd (0%R, [])) w0)) by (rewrite map_length; lia).
      rewrite (map_nth (fun x => nth u (snd x) w0)), (map_nth (fun x => nth v (snd x) w0)). reflexivity.
  Qed.
  (** All vertices of a component have the same degree. *)
  Hypothesis regular : forall u v, u < n -> v < n -> comp u = comp v -> rdeg g u = rdeg g v.
  Lemma rows_places r : leading (order_of Smallest) n (matrix_of_graph MatNormalisedLaplacian g) k r -> length r = k -> forall u v, u < n -> v < n ->
    (comp u = comp v <-> sqd k (nth u (rows_of n (map snd r)) []) (nth v (rows_of n (map snd r)) []) = 0%R).
  Proof.
    intros HL L u v Hu Hv. rewrite row_distance by auto. rewrite !(leading_gram r _ _ HL) by auto. rewrite !Nat.eqb_refl.
    pose proof (comp_volume_pos u Hu) as Pu. pose proof (comp_volume_pos v Hv) as Pv.
    pose proof (sqrt_lt_R0 _ (deg_pos u Hu)) as Su. pose proof (sqrt_lt_R0 _ (deg_pos v Hv)) as Sv.
    split.
    - intros C. rewrite <- C, (regular u v Hu Hv C), Nat.eqb_refl. field. lra.
    - intros Z. destruct (Nat.eqb_spec (comp u) (comp v)) as [|N]; auto. exfalso.
      assert (0 < sqrt (rdeg g u) * sqrt (rdeg g u) / comp_volume g comp (comp u))%R by (apply Rdiv_lt_0_compat; nra).
      assert (0 < sqrt (rdeg g v) * sqrt (rdeg g v) / comp_volume g comp (comp v))%R by (apply Rdiv_lt_0_compat; nra).
      lra.
  Qed.
End G.

Theorem kernel_values (solver : eigen_solver (W := R)) (g : graph R) k comp num : solver_contract solver -> reachable_pos g ->
  (forall v, v < number_of_vertices g -> rw g v v = 0%R) -> (forall v, v < number_of_vertices g -> rdeg g v <> 0%R) ->
  components g k comp -> (1 <= num < Z.of_nat (number_of_vertices g))%Z ->
  match snd (compute_eigenvalues solver g MatNormalisedLaplacian num Smallest) with
  | Ok vals => length vals = Z.to_nat num /\
      forall j, j < Z.to_nat num -> (nth j vals 0%R = 0%R <-> j < k) /\ (0 <= nth j vals 0)%R
  | Throw e => e = RuntimeError
  | UB => False
  end.
Proof.
  intros SC Hr NL NI HC Hn. pose proof (compute_eigensystem_spec solver SC g MatNormalisedLaplacian num Smallest Hr Hn) as P.
  unfold compute_eigenvalues. destruct (compute_eigensystem solver g MatNormalisedLaplacian num Smallest) as [g' o]. destruct P as (_ & _ & P).
  destruct o as [r|e|]; cbn [omap snd]; auto. destruct P as (E & Sys & Sor & ->). pose proof Sys as (Ls & _).
  assert (L : length (firstn (Z.to_nat num) E) = Z.to_nat num) by (rewrite firstn_length; lia).
  split; [now rewrite map_length|]. intros j Hj.
  assert (Ej : nth j (map fst (firstn (Z.to_nat num) E)) 0%R = fst (nth j E (0%R, []))).
  { rewrite (nth_indep _ 0%R (fst (0%R, @nil R))) by (rewrite map_length; lia). rewrite (map_nth fst). f_equal.
    rewrite <- (firstn_skipn (Z.to_nat num) E) at 2. rewrite app_nth1; auto. lia. }
  rewrite Ej. apply (value_zero g k comp Hr NL NI HC E Sys Sor). lia.
Qed.
Theorem embedding_products (solver : eigen_solver (W := R)) (g : graph R) k comp : solver_contract solver -> reachable_pos g ->
  (forall v, v < number_of_vertices g -> rw g v v = 0%R) -> (forall v, v < number_of_vertices g -> rdeg g v <> 0%R) ->
  components g k comp -> 1 <= k < number_of_vertices g ->
  match snd (compute_eigenvectors solver g MatNormalisedLaplacian (Z.of_nat k) Smallest) with
  | Ok vecs => length vecs = k /\ forall u v, u < number_of_vertices g -> v < number_of_vertices g ->
      row_product vecs u v = if comp u =? comp v then (sqrt (rdeg g u) * sqrt (rdeg g v) / comp_volume g comp (comp u))%R else 0%R
  | Throw e => e = RuntimeError
  | UB => False
  end.
Proof.
  intros SC Hr NL NI HC Hk. pose proof (compute_eigensystem_spec solver SC g MatNormalisedLaplacian (Z.of_nat k) Smallest Hr ltac:(lia)) as P.
  unfold compute_eigenvectors. destruct (compute_eigensystem solver g MatNormalisedLaplacian (Z.of_nat k) Smallest) as [g' o]. destruct P as (_ & _ & P).
  destruct o as [r|e|]; cbn [omap snd]; auto. rewrite Nat2Z.id in P.
  destruct (leading_facts _ _ _ _ _ P) as (Lr & _); [lia|intros; apply matrix_sym; now apply reachable_pos_reachable|].
  split; [now rewrite map_length|]. intros u v Hu Hv. exact (leading_gram g k comp Hr NL NI HC r u v P Hu Hv).
Qed.

(** The first words of the generator seeded with 42 are below 2^32-1. *)
Fixpoint words_ok (s : mt_state) (f : nat) : bool :=
  match f with 0 => true | S f => let '(s', y) := mt_draw s in negb (Z.eqb y 4294967295) && words_ok s' f end.
Lemma words_ok_nth f : forall s, words_ok s f = true -> forall j, j < f -> mt_nth s j <> 4294967295%Z.
Proof.
  induction f as [|f IH]; intros s H j Hj; [lia|]. cbn [words_ok] in H.
  assert (E0 : mt_nth s 0 = snd (mt_draw s)) by reflexivity. pose proof (mt_nth_S s) as ES.
  destruct (mt_draw s) as [s' y]. cbn [fst snd] in *. apply Bool.andb_true_iff in H. destruct H as [H1 H2].
  destruct j as [|j].
  - rewrite E0. apply Bool.negb_true_iff in H1. now apply Z.eqb_neq.
  - rewrite ES. apply IH; auto. lia.
Qed.
Lemma words_42 : words_ok (mt_init 42) (100 * 100) = true.
Proof. vm_compute. reflexivity. Qed.

Section Top.
  Variable bump : R -> R.
  Hypothesis bump1 : forall c, (1 <= c)%R -> bump c = c.
  Theorem spectral_recovers (solver : eigen_solver (W := R)) (g : graph R) k comp : solver_contract solver -> reachable_pos g ->
    (forall v, v < number_of_vertices g -> rw g v v = 0%R) ->
    components g k comp -> 1 <= k -> 2 * k <= number_of_vertices g -> (Z.of_nat k <= 21474836)%Z ->
    (forall u v, u < number_of_vertices g -> v < number_of_vertices g -> comp u = comp v -> rdeg g u = rdeg g v) ->
    (forall v, v < number_of_vertices g -> rdeg g v <> 0%R) ->
    (forall j, 1 <= j -> j < k -> mt_nth (mt_init 42) j <> 4294967295%Z) ->
    match snd (spectral_cluster IZR unit_ofR truncR bump solver g (Z.of_nat k)) with
    | Ok labels => length labels = number_of_vertices g /\
        forall u v, u < number_of_vertices g -> v < number_of_vertices g -> (nth u labels 0%Z = nth v labels 0%Z <-> connected g u v)
    | Throw e => e = RuntimeError
    | UB => False
    end.
  Proof.
    intros SC Hr NL HC Hk1 Hk Hb Rg NI Hw. set (n := number_of_vertices g) in *. set (kz := Z.of_nat k).
    assert (Hn : (1 <= kz < Z.of_nat n)%Z) by (unfold kz; lia).
    pose proof (compute_eigensystem_spec solver SC g MatNormalisedLaplacian kz Smallest Hr Hn) as P.
    pose proof (compute_eigensystem_n solver g MatNormalisedLaplacian kz Smallest) as Ng.
    unfold spectral_cluster, compute_eigenvectors. fold n. destruct (Z.ltb_spec kz 1); [lia|].
    assert (Hd : (kz <= Z.of_nat n / 2)%Z) by (apply Z.div_le_lower_bound; unfold kz; lia).
    destruct (Z.ltb_spec (Z.of_nat n / 2) kz); [lia|]. cbn [orb].
    destruct (compute_eigensystem solver g MatNormalisedLaplacian kz Smallest) as [g' o]. destruct P as (_ & _ & P).
    destruct o as [r|e|]; cbn [omap snd]; [|exact P|exact P]. cbn [fst] in Ng. rewrite Ng. fold n. assert (Ek : Z.to_nat kz = k) by (unfold kz; apply Nat2Z.id).
    rewrite Ek in *.
    destruct (leading_facts _ _ _ _ _ P) as (Lr & _); [lia|intros; apply matrix_sym; now apply reachable_pos_reachable|].
    set (X := rows_of n (map snd r)) in *.
    assert (LX : length X = n) by apply rows_of_length.
    assert (HD : forall x, In x X -> length x = k).
    { intros x Hx. unfold X, rows_of in Hx. apply in_map_iff in Hx. destruct Hx as (i & <- & _). rewrite !map_length. exact Lr. }
    destruct (run_kmeans_ok IZR unit_ofR truncR bump X k k (to_int32 (kz * 100)) 42) as (out & E & L & F).
    - lia.
    - unfold randint. pose proof first_draw_42 as D0. destruct (mt_draw (mt_init 42)) as [s y]. cbn [snd] in *. subst y.
      rewrite LX. apply first_choice. lia.
    - rewrite E. cbn [omap]. rewrite to_int32_small in E by (unfold kz; lia). split; [rewrite map_length; lia|]. intros u v Hu Hv.
      destruct HC as (H1 & H2 & H3). fold n in H1, H2, H3. rewrite <- (H3 u v Hu Hv).
      assert (Hc' : components g k comp) by (repeat split; auto; now apply H3).
      assert (RK := run_kmeans_locations k k X comp HD).
      rewrite LX in RK. rewrite <- (RK (fun i j Hi Hj => rows_places g k comp Hr NL NI Hc' Rg r P Lr i j Hi Hj)
         H1 H2 bump bump1 (kz * 100)%Z out ltac:(lia) Hk1 ltac:(unfold kz; lia) Hw E u v Hu Hv).
      assert (En : forall i, nth i (map Z.of_nat out) 0%Z = Z.of_nat (nth i out 0)) by (intros i; exact (map_nth Z.of_nat out 0 i)).
      rewrite !En. lia.
  Qed.
End Top.

(** The steps of a successful call. *)
Lemma spectral_cluster_steps bump (solver : eigen_solver (W := R)) (g : graph R) k labels : solver_contract solver -> reachable_pos g ->
  1 <= k -> 2 * k <= number_of_vertices g -> (Z.of_nat k <= 21474836)%Z ->
  snd (spectral_cluster IZR unit_ofR truncR bump solver g (Z.of_nat k)) = Ok labels ->
  exists r out, leading (order_of Smallest) (number_of_vertices g) (matrix_of_graph MatNormalisedLaplacian g) k r /\ length r = k /\
    run_kmeans IZR unit_ofR truncR bump (rows_of (number_of_vertices g) (map snd r)) k k (Z.of_nat k * 100) 42 = Ok out /\
    labels = map Z.of_nat out.
Proof.
  intros SC Hr Hk1 Hk Hb. set (n := number_of_vertices g) in *. set (kz := Z.of_nat k).
  assert (Hn : (1 <= kz < Z.of_nat n)%Z) by (unfold kz; lia).
  pose proof (compute_eigensystem_spec solver SC g MatNormalisedLaplacian kz Smallest Hr Hn) as P.
  pose proof (compute_eigensystem_n solver g MatNormalisedLaplacian kz Smallest) as Ng.
  unfold spectral_cluster, compute_eigenvectors. fold n. destruct (Z.ltb_spec kz 1); [lia|].
  assert (Hd : (kz <= Z.of_nat n / 2)%Z) by (apply Z.div_le_lower_bound; unfold kz; lia).
  destruct (Z.ltb_spec (Z.of_nat n / 2) kz); [lia|]. cbn [orb].
  destruct (compute_eigensystem solver g MatNormalisedLaplacian kz Smallest) as [g' o]. destruct P as (_ & _ & P).
  destruct o as [r|e|]; cbn [omap snd]; [|discriminate|discriminate]. cbn [fst] in Ng. rewrite Ng. fold n. assert (Ek : Z.to_nat kz = k) by (unfold kz; apply Nat2Z.id).
  rewrite Ek in *. rewrite to_int32_small by (unfold kz; lia).
  destruct (leading_facts _ _ _ _ _ P) as (Lr & _); [lia|intros; apply matrix_sym; now apply reachable_pos_reachable|].
  destruct (run_kmeans IZR unit_ofR truncR bump (rows_of n (map snd r)) k k (kz * 100) 42) as [out|e|] eqn:E; cbn [omap]; try discriminate.
  intros [= <-]. exists r, out. auto.
Qed.
