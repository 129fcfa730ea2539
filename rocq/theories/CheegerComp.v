(** cheeger_cut on a graph with several connected components (C86). *)
From Verif Require Import Base Num RSum Sparse SparseFacts Graph GraphSpec GraphFacts GraphProps1 GraphProps2 GraphProps3 Cluster ClusterSpec ClusterPR ClusterSweep ClusterInst ClusterExamples
  Spectrum SpectrumSpec SpectrumFacts SpectrumPower SpectrumConv SpectrumExamples Cheeger CheegerFacts CheegerMath CheegerSpectral CheegerTop CheegerIneq RecoverMath RecoverTop RecoverExamples.
From Coq Require Import Reals Lra Psatz Relations Sorting.Sorted Sorting.Permutation.
Local Open Scope nat_scope.

Lemma ss_nth {A} (P : A -> A -> Prop) d l : StronglySorted P l -> forall i j, i < j -> j < length l -> P (nth i l d) (nth j l d).
Proof.
  induction 1 as [|a l Hs IH Hf]; intros i j Hij Hj; simpl in Hj; [lia|]. destruct j as [|j]; [lia|]. destruct i as [|i].
  - rewrite Forall_forall in Hf. apply Hf. cbn [nth]. apply nth_In. lia.
  - cbn [nth]. apply IH; lia.
Qed.
(** A non-increasing sequence that is not constant drops somewhere. *)
Lemma drop_exists (f : nat -> R) m : (forall i, S i <= m -> (f (S i) <= f i)%R) -> f 0 <> f m -> exists j, 1 <= j <= m /\ (f j < f (j - 1)%nat)%R.
Proof.
  induction m as [|m IH]; intros Hm N; [congruence|]. destruct (Req_dec (f (S m)) (f m)) as [E|E].
  - destruct IH as (j & Hj & Hd); [intros; apply Hm; lia|congruence|]. exists j. split; [lia|auto].
  - exists (S m). split; [lia|]. replace (S m - 1) with m by lia. specialize (Hm m ltac:(lia)). lra.
Qed.

Theorem cheeger_components (solver : eigen_solver (W := R)) (g : graph R) c comp : solver_contract solver -> reachable_pos g ->
  3 <= number_of_vertices g -> (forall v, v < number_of_vertices g -> rw g v v = 0%R) ->
  (forall v, v < number_of_vertices g -> rdeg g v <> 0%R) -> components g c comp -> 2 <= c ->
  let n := number_of_vertices g in
  match snd (cheeger_cut solver g) with
  | Ok labels => exists p q,
      snd (compute_eigensystem solver g MatNormalisedLaplacian 2 Smallest) = Ok [p; q] /\ fst q = 0%R /\
      ((exists s, forall v, v < n -> vx (snd q) v = (s * sqrt (rdeg g v))%R) \/
       (length labels = n /\ In 0%Z labels /\ In 1%Z labels /\
        forall u v, u < n -> v < n -> connected g u v -> nth u labels 0%Z = nth v labels 0%Z))
  | Throw e => e = RuntimeError
  | UB => False
  end.
Proof.
  intros SC Hr Hn NL NI HC Hc n. pose proof (cheeger_sweep_es solver g SC Hr Hn NI) as P. cbv zeta in P. fold n in P.
  destruct (snd (cheeger_cut solver g)) as [labels|e|]; auto.
  destruct P as (p & q & order & k & Ees & L & Hp & Hs & Hk & Hb & El). exists p, q. split; [exact Ees|].
  pose proof (deg_pos g Hr NI) as D. fold n in D.
  assert (Lo : length order = n) by (rewrite <- (Permutation_length Hp); apply seq_length).
  destruct L as (E & Sys & Sor & Er). destruct E as [|e1 [|e2 E']]; try discriminate. cbn [firstn] in Er. injection Er as <- <-.
  destruct (value_zero g c comp Hr NL NI HC (p :: q :: E') Sys Sor 1) as [[_ Z0] _]; [lia|]. specialize (Z0 ltac:(lia)). cbn [nth fst] in Z0.
  split; [exact Z0|].
  set (y := fun i => (vx (snd q) i / sqrt (rdeg g i))%R) in *.
  assert (Ey : forall u v, u < n -> v < n -> connected g u v -> y u = y v).
  { intros u v Hu Hv C. apply (kernel_const n (rw g) (rdeg g) (matrix_of_graph MatNormalisedLaplacian g) comp
      (fun a b => rw_sym g a b (reachable_pos_reachable g Hr)) (fun a b => rw_nonneg g a b Hr) D (rdeg_noloop g NL) (nlap_form g Hr NI)
      (comp_conn g c comp Hr HC) (p :: q :: E') Sys q u v); auto; [right; now left|]. now apply HC. }
  assert (Rt : forall i, i < n -> (0 < sqrt (rdeg g i))%R) by (intros i Hi; apply sqrt_lt_R0; auto).
  set (f := fun j => y (at_ order j)).
  assert (Mono : forall i j, i < j -> j < n -> (f j <= f i)%R).
  { intros i j Hij Hj. pose proof (ss_nth _ 0 order Hs i j Hij ltac:(lia)) as B. unfold f, at_. destruct B as [|[]]; lra. }
  destruct (Req_dec (f 0) (f (n - 1))) as [Eq|Ne].
  - left. exists (f 0). intros v Hv.
    assert (I : In v order) by (eapply Permutation_in; [exact Hp|]; apply in_seq; lia).
    apply (In_nth _ _ 0) in I. destruct I as (j & Hj & <-). rewrite Lo in Hj. change (nth j order 0) with (at_ order j) in *.
    assert (f j = f 0).
    { destruct (Nat.eq_dec j 0) as [->|]; auto. destruct (Nat.eq_dec j (n - 1)) as [->|]; auto.
      pose proof (Mono 0 j ltac:(lia) Hj). pose proof (Mono j (n - 1) ltac:(lia) ltac:(lia)). lra. }
    rewrite <- H. unfold f, y. specialize (Rt _ Hv). field. lra.
  - right. destruct (drop_exists f (n - 1)) as (j & Hj & Hd); [intros; apply Mono; lia|auto|].
    assert (Gj : gcond g (firstn j order) = 0%R).
    { unfold gcond. rewrite (prefix_cut n order Hp g eq_refl j) by lia. replace (pcut _ _ j) with 0%R; [unfold Rdiv; ring|]. symmetry.
      unfold pcut. apply rsum_zero. intros a Ha. apply rsum_zero. intros b Hb'.
      destruct (Nat.ltb_spec a j) as [Laj|]; cbn [andb indic]; [|ring]. destruct (Nat.leb_spec j b) as [Ljb|]; cbn [andb indic]; [|ring].
      destruct (Req_dec (rw g (at_ order a) (at_ order b)) 0) as [->|N]; [ring|]. exfalso.
      assert (Ef : f a = f b).
      { unfold f. apply Ey; try (apply (at_lt n order Hp); lia). now apply step_edge. }
      assert (f (j - 1)%nat <= f a)%R by (destruct (Nat.eq_dec a (j - 1)) as [->|]; [lra|apply Mono; lia]).
      assert (f b <= f j)%R by (destruct (Nat.eq_dec b j) as [->|]; [lra|apply Mono; lia]). lra. }
    set (S := firstn k order) in *.
    assert (ND : NoDup S) by (apply nodup_firstn, (o_nodup n order Hp)).
    assert (In' : forall v, In v S -> v < n).
    { intros v Hv. assert (I : In v order) by (rewrite <- (firstn_skipn k order); apply in_app_iff; now left).
      eapply Permutation_in in I; [|apply Permutation_sym, Hp]. apply in_seq in I. lia. }
    assert (Den : (0 < Rmin (gvol g S) (gtotal g - gvol g S))%R).
    { unfold S. rewrite (prefix_vol n order Hp g k), (prefix_tot n order Hp g eq_refl) by lia. rewrite pvol_compl.
      assert (Ha : forall i, i < n -> (0 < rdeg g (at_ order i))%R) by (intros i Hi; apply D, (at_lt n order Hp); auto).
      apply Rmin_glb_lt.
      - eapply Rlt_le_trans; [|apply (rsum_ge_elt n (fun i => rdeg g (at_ order i) * indic (i <? k))%R 0)]; try lia.
        + cbv beta. destruct (Nat.ltb_spec 0 k); [|lia]. unfold indic. specialize (Ha 0 ltac:(lia)). lra.
        + intros i Hi. specialize (Ha i Hi). destruct (i <? k); unfold indic; lra.
      - eapply Rlt_le_trans; [|apply (rsum_ge_elt n (fun i => rdeg g (at_ order i) * indic (k <=? i))%R (n - 1))]; try lia.
        + cbv beta. destruct (Nat.leb_spec k (n - 1)); [|lia]. unfold indic. specialize (Ha (n - 1) ltac:(lia)). lra.
        + intros i Hi. specialize (Ha i Hi). destruct (k <=? i); unfold indic; lra. }
    assert (Cut : gcut g S = 0%R).
    { destruct (Hb j ltac:(lia)) as [B _]. rewrite Gj in B. unfold gcond in B.
      assert (0 <= gcut g S)%R.
      { apply lsum_nonneg. intros u _. apply rsum_nonneg. intros v _. pose proof (rw_nonneg g u v Hr). unfold notin. destruct (in_dec Nat.eq_dec v S); lra. }
      destruct (Req_dec (gcut g S) 0) as [|N]; auto. exfalso.
      assert (0 < gcut g S / Rmin (gvol g S) (gtotal g - gvol g S))%R by (apply Rdiv_lt_0_compat; lra). lra. }
    assert (NoCross : forall u v, In u S -> v < n -> ~ In v S -> rw g u v = 0%R).
    { intros u v Hu Hv Nv. assert (T : (rsum n (fun v => rw g u v * notin S v) <= 0)%R).
      { rewrite <- Cut. unfold gcut. fold n. clear - Hr Hu. induction S as [|a l IH]; [destruct Hu|].
        assert (NN : forall T u, (0 <= rsum n (fun v => rw g u v * notin T v))%R).
        { intros T w. apply rsum_nonneg. intros v _. pose proof (rw_nonneg g w v Hr). unfold notin. destruct (in_dec Nat.eq_dec v T); lra. }
        apply (lsum_ge_elt (fun u => rsum n (fun v => rw g u v * notin (a :: l) v))%R); auto. }
      assert (T2 : (rw g u v * notin S v <= 0)%R).
      { eapply Rle_trans; [|exact T]. apply (rsum_ge_elt n (fun v => rw g u v * notin S v)%R v); auto.
        intros i _. pose proof (rw_nonneg g u i Hr). unfold notin. destruct (in_dec Nat.eq_dec i S); lra. }
      unfold notin in T2. destruct (in_dec Nat.eq_dec v S); [tauto|]. pose proof (rw_nonneg g u v Hr). lra. }
    assert (Closed : forall u v, u < n -> v < n -> connected g u v -> (In u S <-> In v S)).
    { intros u v _ _ C. unfold connected in C. induction C as [a b H|a|a b d _ IH1 _ IH2]; [|tauto|tauto].
      destruct (adjacent_rw g Hr a b H) as (N & Ha & Hb'). split; intros Hi.
      - destruct (in_dec Nat.eq_dec b S); auto. exfalso. apply N. now apply NoCross.
      - destruct (in_dec Nat.eq_dec a S); auto. exfalso. apply N. rewrite rw_sym by (now apply reachable_pos_reachable). now apply NoCross. }
    assert (Lab : forall v, v < n -> nth v labels 0%Z = if in_dec Nat.eq_dec v S then 1%Z else 0%Z) by (intros v Hv; rewrite El; now rewrite nth_map_seq).
    assert (LL : length labels = n) by (rewrite El; now rewrite map_length, seq_length).
    split; [exact LL|]. split; [|split].
    + assert (Hv : at_ order (n - 1) < n) by (apply (at_lt n order Hp); lia).
      replace 0%Z with (nth (at_ order (n - 1)) labels 0%Z); [apply nth_In; lia|]. rewrite Lab by auto.
      destruct (in_dec Nat.eq_dec (at_ order (n - 1)) S) as [I|]; auto. apply (in_prefix n order Hp) in I; lia.
    + assert (Hv : at_ order 0 < n) by (apply (at_lt n order Hp); lia).
      replace 1%Z with (nth (at_ order 0) labels 0%Z); [apply nth_In; lia|]. rewrite Lab by auto.
      destruct (in_dec Nat.eq_dec (at_ order 0) S) as [I|N]; auto. exfalso. apply N. apply (in_prefix n order Hp); lia.
    + intros u v Hu Hv C. rewrite !Lab by auto. destruct (Closed u v Hu Hv C) as [C1 C2].
      destruct (in_dec Nat.eq_dec u S), (in_dec Nat.eq_dec v S); tauto.
Qed.

(** ** The vectors of a table solver *)
Lemma table_vectors n num A E (g : graph R) mat which r :
  snd (compute_eigensystem (table_solver n num A E) g mat (Z.of_nat num) which) = Ok r -> map snd r = map snd (firstn num E).
Proof.
  assert (LM : forall M off inv r', largestmag (table_solver n num A E) M (Z.of_nat num) off inv = Ok r' -> map snd r' = map snd (firstn num E)).
  { intros M off inv r'. unfold largestmag. destruct ((Z.of_nat num <? 1) || _)%Z; [discriminate|]. unfold table_solver.
    destruct (_ && _); [|discriminate]. destruct (Forall_dec _ _ _); [|discriminate]. intros [= <-].
    destruct (_ || _); [rewrite map_map; apply map_ext; intros []; reflexivity|reflexivity]. }
  unfold compute_eigensystem. destruct (_ || _); [discriminate|]. destruct (max_degree _ _ _) as [g1 [d|e|]]; [|discriminate|discriminate].
  destruct mat, which; try destruct (mat_query _ g1) as [g2 L]; cbn [snd]; apply LM.
Qed.
Lemma cut_runs (solver : eigen_solver (W := R)) (g : graph R) r : solver_contract solver -> reachable_pos g -> 3 <= number_of_vertices g ->
  snd (compute_eigensystem solver g MatNormalisedLaplacian 2 Smallest) = Ok r -> exists labels, snd (cheeger_cut solver g) = Ok labels.
Proof.
  intros SC Hr Hn Er.
  pose proof (compute_eigensystem_spec solver SC g MatNormalisedLaplacian 2 Smallest Hr ltac:(lia)) as P.
  assert (SH : length r = 2 /\ forall p, In p r -> length (snd p) = number_of_vertices g).
  { destruct (compute_eigensystem solver g MatNormalisedLaplacian 2 Smallest) as [g1 o]. cbn [snd] in Er. subst o. destruct P as (_ & _ & P).
    destruct (leading_facts _ _ _ _ _ P) as (L & Q & _); [change (Z.to_nat 2) with 2; lia|intros; now apply matrix_sym, reachable_pos_reachable|].
    split; [exact L|]. intros p Hp. now apply Q. }
  destruct SH as [L Q]. destruct r as [|p [|q [|? ?]]]; try discriminate.
  destruct (reachable_ok g (reachable_pos_reachable _ Hr)) as [_ Hc].
  destruct (cheeger_steps solver g p q Hc Er) as (g' & vec & Qr & Hw & Hk & _ & E & _).
  { destruct (wltb _ _); apply Q; [now left|right; now left]. }
  destruct (qreach_base g g' Hc Qr) as [C' (B1 & B2 & B3)].
  assert (Hr' : reachable_pos g') by (eapply qreach_reachable; [|exact Hr|exact Qr]; intros [] Ho; cbn in *; tauto).
  destruct (sweep_set_any g' vec (reachable_pos_reachable _ Hr')) as (cut & Es & Hcut); auto.
  { now apply pos_no_zero. }
  { intros k Hkk. rewrite <- B1. now apply Hk. }
  rewrite E, Es. cbn [obind]. destruct (mark_spec cut (repeat 0%Z (g_n g))) as (cl & Em & _).
  { rewrite repeat_length, B1. exact Hcut. }
  eauto.
Qed.
Lemma exD_cut_runs : exists labels, snd (cheeger_cut exD_solver exD) = Ok labels.
Proof. destruct exD_runs as (r & Er). apply (cut_runs exD_solver exD r exD_solver_contract exD_reachable); auto. vm_compute. lia. Qed.

(** ** Another basis of the same eigenspace: the second vector is D^(1/2) 1 *)
Definition s10 : R := (/ sqrt 10)%R.
Lemma s10_sq : (s10 * s10 = / 10)%R.
Proof. unfold s10. rewrite <- Rinv_mult, sqrt_sqrt by lra. reflexivity. Qed.
Definition exD_E2 : list (R * list R) :=
  [(2%R, [2 * s10; - s10; 2 * s10; - s10]%R); (2%R, [s10; 2 * s10; s10; 2 * s10]%R); (0%R, [s2; 0%R; (- s2)%R; 0%R]); (0%R, [0%R; s2; 0%R; (- s2)%R])].
Lemma exD_system2 : eigen_system 4 exD_A exD_E2.
Proof.
  pose proof s2_sq as Q. pose proof s10_sq as Q'. split; [reflexivity|]. split; [|split].
  - repeat constructor; intros [|[|[|[|i]]]] Hi; try lia; unfold mulv; rewrite rsum4; unfold vx, exD_A; cbn [nth snd fst]; ring.
  - intros [|[|[|[|x]]]] [|[|[|[|y]]]] d Hx Hy; try lia; unfold dot; rewrite rsum4; unfold vx; cbn [nth snd exD_E2 Nat.eqb]; nra.
  - intros x i Hi. unfold exD_E2. cbn [lsum]. unfold dot. rewrite !rsum4. unfold vx.
    destruct i as [|[|[|[|i]]]]; [| | | |lia]; cbn [nth snd].
    + transitivity ((5 * x 0%nat + 5 * x 2%nat) * (s10 * s10) + (x 0%nat - x 2%nat) * (s2 * s2))%R; [rewrite Q, Q'; field|ring].
    + transitivity ((5 * x 1%nat + 5 * x 3%nat) * (s10 * s10) + (x 1%nat - x 3%nat) * (s2 * s2))%R; [rewrite Q, Q'; field|ring].
    + transitivity ((5 * x 0%nat + 5 * x 2%nat) * (s10 * s10) - (x 0%nat - x 2%nat) * (s2 * s2))%R; [rewrite Q, Q'; field|ring].
    + transitivity ((5 * x 1%nat + 5 * x 3%nat) * (s10 * s10) - (x 1%nat - x 3%nat) * (s2 * s2))%R; [rewrite Q, Q'; field|ring].
Qed.
Definition exD_solver2 : eigen_solver (W := R) := table_solver 4 2 exD_A exD_E2.
Lemma exD_solver2_contract : solver_contract exD_solver2.
Proof.
  apply table_contract.
  - intros [|[|[|[|i]]]] [|[|[|[|j]]]] Hi Hj; try lia; reflexivity.
  - exact exD_system2.
  - unfold exD_E2. cbn [map fst]. repeat (apply SSorted_cons || apply SSorted_nil || apply Forall_cons || apply Forall_nil);
      unfold decreasing_magnitude; rewrite ?Rabs_R0; try lra; rewrite (Rabs_right 2) by lra; lra.
Qed.
Lemma exD_runs2 : exists r, snd (compute_eigensystem exD_solver2 exD MatNormalisedLaplacian 2 Smallest) = Ok r.
Proof.
  apply (table_runs 4 2 exD_A exD_E2 exD exD_reachable eq_refl ltac:(lia)).
  intros i j Hij Hj. unfold matrix_of_graph. rewrite exD_rw, !exD_deg by lia.
  assert (S1 : sqrt (1 * 1) = 1%R) by (apply sqrt_of; lra). assert (S4 : sqrt (4 * 4) = 4%R) by (apply sqrt_of; lra).
  destruct i as [|[|[|[|i]]]], j as [|[|[|[|j]]]]; try lia; cbn [exD_w exD_A exD_comp Nat.eqb]; rewrite ?S1, ?S4; destruct (Req_EM_T _ 0); lra.
Qed.
Lemma sorted_seq n o : Permutation (seq 0 n) o -> StronglySorted lt o -> o = seq 0 n.
Proof.
  intros P S. pose proof (ss_seq 0 n) as S2. revert o P S. generalize (seq 0 n), S2. clear.
  intros l S2. induction S2 as [|a l S2 IH F]; intros o P S; [now apply Permutation_nil|].
  inversion S as [|b o' S' F']; subst; [now apply Permutation_sym, Permutation_nil_cons in P|].
  rewrite Forall_forall in F, F'.
  assert (a = b) as ->.
  { destruct (Permutation_in _ P (or_introl eq_refl)) as [|I1]; [auto|]. destruct (Permutation_in _ (Permutation_sym P) (or_introl eq_refl)) as [|I2]; [auto|].
    specialize (F _ I2). specialize (F' _ I1). lia. }
  f_equal. apply IH; auto. eapply Permutation_cons_inv, P.
Qed.
Lemma exD_cond (T : list nat) : gcond exD T = (lsum (fun u => (exD_w u 0%nat * notin T 0%nat + exD_w u 1%nat * notin T 1%nat + exD_w u 2%nat * notin T 2%nat + exD_w u 3%nat * notin T 3%nat)) T
    / Rmin (lsum (fun v => if exD_comp v =? 0 then 1 else 4) T) (10 - lsum (fun v => if exD_comp v =? 0 then 1 else 4) T))%R \/ exists v, In v T /\ 4 <= v.
Proof.
  destruct (Exists_dec (fun v => 4 <= v) T (fun v => le_dec 4 v)) as [X|X].
  - right. apply Exists_exists in X. destruct X as (v & H1 & H2). eauto.
  - left. assert (HT : forall v, In v T -> v < 4) by (intros v Hv; destruct (le_lt_dec 4 v); auto; exfalso; apply X, Exists_exists; eauto).
    unfold gcond. apply f_equal2.
    + unfold gcut. apply lsum_ext. intros u Hu. change (number_of_vertices exD) with 4. rewrite rsum4, !exD_rw by (auto; lia). reflexivity.
    + assert (Ev : gvol exD T = lsum (fun v => if exD_comp v =? 0 then 1 else 4)%R T) by (apply lsum_ext; intros v Hv; apply exD_deg; auto).
      assert (Et : gtotal exD = 10%R) by (unfold gtotal; change (number_of_vertices exD) with 4; rewrite rsum4, !exD_deg by lia; cbn; lra).
      now rewrite Ev, Et.
Qed.
Lemma exD_cond_of (T : list nat) (a b : R) : (forall v, In v T -> v < 4) ->
  lsum (fun u => (exD_w u 0%nat * notin T 0%nat + exD_w u 1%nat * notin T 1%nat + exD_w u 2%nat * notin T 2%nat + exD_w u 3%nat * notin T 3%nat))%R T = a ->
  lsum (fun v => if exD_comp v =? 0 then 1 else 4)%R T = b -> gcond exD T = (a / Rmin b (10 - b))%R.
Proof. intros HT <- <-. destruct (exD_cond T) as [->|(v & Hv & L)]; [reflexivity|]. specialize (HT v Hv). lia. Qed.
Theorem exD_bad_cut : snd (cheeger_cut exD_solver2 exD) = Ok [1; 0; 0; 0]%Z /\ gcond exD [0] = 1%R /\ gcond exD [0; 2] = 0%R.
Proof.
  assert (G1 : gcond exD [0] = 1%R).
  { rewrite (exD_cond_of [0] 1 1); [rewrite Rmin_left; lra|intros v [<-|[]]; lia| |]; cbn; lra. }
  assert (G2 : gcond exD [0; 1] = 1%R).
  { rewrite (exD_cond_of [0; 1] 5 5); [rewrite Rmin_left; lra|intros v [<-|[<-|[]]]; lia| |]; cbn; lra. }
  assert (G3 : gcond exD [0; 1; 2] = 1%R).
  { rewrite (exD_cond_of [0; 1; 2] 4 6); [rewrite Rmin_right; lra|intros v [<-|[<-|[<-|[]]]]; lia| |]; cbn; lra. }
  assert (G02 : gcond exD [0; 2] = 0%R).
  { rewrite (exD_cond_of [0; 2] 0 2); [unfold Rdiv; ring|intros v [<-|[<-|[]]]; lia| |]; cbn; lra. }
  split; [|split; [exact G1|exact G02]].
  assert (NI : forall v, v < number_of_vertices exD -> rdeg exD v <> 0%R).
  { intros v Hv. rewrite exD_deg by exact Hv. destruct (exD_comp v =? 0); lra. }
  pose proof (cheeger_sweep_es exD_solver2 exD exD_solver2_contract exD_reachable ltac:(vm_compute; lia) NI) as P. cbv zeta in P.
  destruct exD_runs2 as (r & Er). destruct (cut_runs exD_solver2 exD r exD_solver2_contract exD_reachable ltac:(vm_compute; lia) Er) as (labels & El).
  rewrite El in P. rewrite El. change (number_of_vertices exD) with 4 in P.
  destruct P as (p & q & order & k & Ees & _ & Hp & Hs & Hk & Hb & ->).
  apply (table_vectors 4 2 exD_A exD_E2) in Ees. cbn [map firstn exD_E2 snd] in Ees. injection Ees as _ Eq.
  assert (Eo : order = seq 0 4).
  { apply sorted_seq; auto. eapply ss_impl_in; [|exact Hs]. intros a b Ha Hb' H.
    assert (Hy : forall v, In v order -> (vx (snd q) v / sqrt (rdeg exD v))%R = s10).
    { intros v Hv. eapply Permutation_in in Hv; [|apply Permutation_sym, Hp]. apply in_seq in Hv. rewrite exD_deg by lia. rewrite Eq.
      assert (S1 : sqrt 1 = 1%R) by (apply sqrt_of; lra). assert (S4 : sqrt 4 = 2%R) by (apply sqrt_of; lra).
      destruct v as [|[|[|[|v]]]]; try lia; unfold vx; cbn [nth exD_comp Nat.eqb]; rewrite ?S1, ?S4; field. }
    unfold listed_before in H. rewrite !Hy in H by auto. destruct H as [|[]]; [lra|auto]. }
  subst order. assert (k = 1) as ->.
  { destruct (Nat.eq_dec k 1) as [|N]; auto. exfalso. destruct (Hb 1 ltac:(lia)) as [_ H]. specialize (H ltac:(lia)).
    change (firstn 1 (seq 0 4)) with [0] in H. rewrite G1 in H.
    assert (k = 2 \/ k = 3) as [-> | ->] by lia; cbn [firstn seq] in H; [rewrite G2 in H|rewrite G3 in H]; lra. }
  reflexivity.
Qed.
