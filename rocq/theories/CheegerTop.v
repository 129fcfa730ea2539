(** cheeger_cut over the real numbers: the sweep set (C58) and Cheeger's inequality (C64). *)
From Verif Require Import Base Num RSum Sparse SparseFacts Graph GraphSpec GraphFacts GraphProps1 GraphProps2 GraphProps3 Cluster ClusterSpec ClusterPR ClusterSweep ClusterInst ClusterExamples
  Spectrum SpectrumSpec SpectrumFacts SpectrumPower SpectrumConv Cheeger CheegerFacts CheegerMath CheegerSpectral.
From Coq Require Import Reals Lra Psatz Relations Sorting.Sorted Sorting.Permutation.
Local Open Scope nat_scope.

(** ** Sums along an order of the vertices *)
Section Order.
  Variables (n : nat) (o : list nat).
  Hypothesis perm : Permutation (seq 0 n) o.
  Definition at_ (i : nat) : nat := nth i o 0.
  Lemma o_length : length o = n.
  Proof. rewrite <- (Permutation_length perm). apply seq_length. Qed.
  Lemma o_nodup : NoDup o.
  Proof. eapply Permutation_NoDup; [exact perm|apply seq_NoDup]. Qed.
  Lemma at_lt i : i < n -> at_ i < n.
  Proof.
    intros Hi. assert (I : In (at_ i) o) by (apply nth_In; rewrite o_length; auto).
    eapply Permutation_in in I; [|apply Permutation_sym, perm]. apply in_seq in I. lia.
  Qed.
  Lemma o_map : o = map at_ (seq 0 n).
  Proof.
    apply (nth_ext _ _ 0 0); [rewrite map_length, seq_length; apply o_length|]. intros i Hi. rewrite o_length in Hi. rewrite nth_map_seq by auto. reflexivity.
  Qed.
  Lemma rsum_order f : rsum n f = rsum n (fun i => f (at_ i)).
  Proof. unfold rsum. rewrite (lsum_perm f _ _ perm). rewrite o_map at 1. apply lsum_map. Qed.
  Lemma lsum_prefix f j : j <= n -> lsum f (firstn j o) = rsum n (fun i => f (at_ i) * indic (i <? j))%R.
  Proof.
    intros Hj. rewrite o_map at 1. rewrite firstn_map, lsum_map.
    assert (F : firstn j (seq 0 n) = seq 0 j).
    { replace n with (j + (n - j)) by lia. rewrite seq_app, firstn_app, seq_length, firstn_all2 by (rewrite seq_length; lia).
      replace (j - j) with 0 by lia. cbn [firstn]. apply app_nil_r. }
    rewrite F. unfold rsum. replace n with (j + (n - j)) by lia. rewrite seq_app, lsum_app.
    rewrite (lsum_ext (fun i => f (at_ i) * indic (i <? j))%R (fun i => f (at_ i)) (seq 0 j)).
    - rewrite (lsum_0 _ (seq (0 + j) (n - j))); [lra|]. intros i Hi. apply in_seq in Hi. destruct (Nat.ltb_spec i j); [lia|]. unfold indic. lra.
    - intros i Hi. apply in_seq in Hi. destruct (Nat.ltb_spec i j); [|lia]. unfold indic. lra.
  Qed.
  Lemma in_prefix j k : k < n -> In (at_ k) (firstn j o) <-> k < j.
  Proof.
    intros Hk. pose proof o_nodup as ND. pose proof o_length as L. split.
    - intros Hi. destruct (le_lt_dec j k) as [Hjk|]; auto. exfalso.
      assert (I2 : In (at_ k) (skipn j o)).
      { unfold at_. assert (Eo : nth k o 0 = nth (k - length (firstn j o)) (skipn j o) 0).
        { rewrite <- (firstn_skipn j o) at 1. apply app_nth2. rewrite firstn_length. lia. }
        rewrite Eo. apply nth_In. rewrite firstn_length, skipn_length. lia. }
      pose proof o_nodup as ND'. rewrite <- (firstn_skipn j o) in ND'.
      clear ND. induction (firstn j o) as [|x l IH]; [destruct Hi|]. cbn [app] in ND'. inversion ND' as [|? ? Hn ND2]; subst.
      destruct Hi as [->|Hi]; [apply Hn, in_app_iff; auto|apply IH; auto].
    - intros Hj. unfold at_. assert (E : nth k o 0 = nth k (firstn j o) 0).
      { rewrite <- (firstn_skipn j o) at 1. apply app_nth1. rewrite firstn_length. lia. }
      rewrite E. apply nth_In. rewrite firstn_length. lia.
  Qed.
  Lemma notin_prefix j k : k < n -> notin (firstn j o) (at_ k) = indic (j <=? k).
  Proof.
    intros Hk. unfold notin. destruct (in_dec Nat.eq_dec (at_ k) (firstn j o)) as [I|I]; destruct (Nat.leb_spec j k); auto; exfalso.
    - apply in_prefix in I; lia.
    - apply I, in_prefix; lia.
  Qed.
  Variable g : graph R.
  Hypothesis gn : number_of_vertices g = n.
  Lemma prefix_vol j : j <= n -> gvol g (firstn j o) = pvol n (fun i => rdeg g (at_ i)) j.
  Proof. intros Hj. unfold gvol, pvol. now apply lsum_prefix. Qed.
  Lemma prefix_tot : gtotal g = ptot n (fun i => rdeg g (at_ i)).
  Proof. unfold gtotal, ptot. rewrite gn. apply rsum_order. Qed.
  Lemma prefix_cut j : j <= n -> gcut g (firstn j o) = pcut n (fun i k => rw g (at_ i) (at_ k)) j.
  Proof.
    intros Hj. unfold gcut, pcut. rewrite lsum_prefix by auto. rewrite gn. apply rsum_ext. intros i Hi.
    rewrite rsum_order, <- rsum_scal_r. apply rsum_ext. intros k Hk. rewrite notin_prefix by auto.
    destruct (i <? j), (j <=? k); cbn [andb indic]; ring.
  Qed.
End Order.

(** ** C58 over the real numbers *)
(** Position [i] is before [j]: larger value, or equal value and smaller index. *)
Definition listed_before (y : nat -> R) (i j : nat) : Prop := (y j < y i)%R \/ (y j = y i /\ i < j).
Lemma ss_impl_in {A} (P Q : A -> A -> Prop) l : (forall a b, In a l -> In b l -> P a b -> Q a b) -> StronglySorted P l -> StronglySorted Q l.
Proof.
  induction l as [|x l IH]; intros HPQ Hs; constructor; inversion Hs as [|? ? Hs' Hf]; subst.
  - apply IH; auto. intros a b Ha Hb. apply HPQ; now right.
  - rewrite Forall_forall in *. intros b Hb. apply HPQ; [now left|now right|auto].
Qed.
Lemma degv_R (g : graph R) v : reachable g -> v < g_n g -> degv g v = rdeg g v.
Proof.
  intros Hr Hv. unfold degv. destruct (reachable_ok g Hr) as [Hok _].
  pose proof (deg_mat_coeff g v v Hok) as Ed. unfold rcoeff in Ed. cbn [toR ExactR] in Ed. rewrite Ed, Nat.eqb_refl.
  cbn [andb]. destruct (Nat.ltb_spec v (g_n g)); [reflexivity|lia].
Qed.
Lemma same_rw (g g' : graph R) : same_base g g' -> forall u v, rw g' u v = rw g u v.
Proof. intros (_ & E & _) u v. unfold rw, weight. now rewrite E. Qed.
Lemma same_rdeg (g g' : graph R) : same_base g g' -> forall u, rdeg g' u = rdeg g u.
Proof. intros B u. unfold rdeg. rewrite (same_rw g g' B). pose proof B as (<- & _). f_equal. apply rsum_ext. intros v _. now apply same_rw. Qed.
Lemma same_gvol (g g' : graph R) S : same_base g g' -> gvol g' S = gvol g S.
Proof. intros B. apply lsum_ext. intros. now apply same_rdeg. Qed.
Lemma same_gcut (g g' : graph R) S : same_base g g' -> gcut g' S = gcut g S.
Proof. intros B. apply lsum_ext. intros u _. unfold number_of_vertices. pose proof B as (<- & _). apply rsum_ext. intros v _. now rewrite (same_rw g g' B). Qed.
Lemma same_gtotal (g g' : graph R) : same_base g g' -> gtotal g' = gtotal g.
Proof. intros B. unfold gtotal, number_of_vertices. pose proof B as (<- & _). apply rsum_ext. intros. now apply same_rdeg. Qed.
Lemma same_gcond (g g' : graph R) S : same_base g g' -> gcond g' S = gcond g S /\ gden g' S = gden g S.
Proof. intros B. unfold gcond, gden. now rewrite (same_gvol g g' S B), (same_gcut g g' S B), (same_gtotal g g' B). Qed.

(** As in C58, with the vectors the eigensolver returned. *)
Lemma cheeger_sweep_es (solver : eigen_solver (W := R)) (g : graph R) : solver_contract solver -> reachable_pos g ->
  3 <= number_of_vertices g -> (forall v, v < number_of_vertices g -> rdeg g v <> 0%R) ->
  let n := number_of_vertices g in
  match snd (cheeger_cut solver g) with
  | Ok labels => exists p q order k,
      snd (compute_eigensystem solver g MatNormalisedLaplacian 2 Smallest) = Ok [p; q] /\
      leading (order_of Smallest) n (matrix_of_graph MatNormalisedLaplacian g) 2 [p; q] /\
      Permutation (seq 0 n) order /\
      StronglySorted (listed_before (fun i => vx (snd q) i / sqrt (rdeg g i))%R) order /\
      1 <= k < n /\
      (forall j, 1 <= j < n -> (gcond g (firstn k order) <= gcond g (firstn j order))%R /\
                               (j < k -> (gcond g (firstn k order) < gcond g (firstn j order))%R)) /\
      labels = map (fun i => if in_dec Nat.eq_dec i (firstn k order) then 1%Z else 0%Z) (seq 0 n)
  | Throw e => e = RuntimeError
  | UB => False
  end.
Proof.
  intros SC Hr Hn3 Hd n. pose proof (reachable_pos_reachable g Hr) as Hr'. destruct (reachable_ok g Hr') as [_ Hc].
  assert (Hd' : forall v, v < n -> (0 < rdeg g v)%R).
  { intros v Hv. pose proof (rdeg_nonneg g v Hr). specialize (Hd v Hv). lra. }
  pose proof (compute_eigensystem_spec solver SC g MatNormalisedLaplacian 2 Smallest Hr ltac:(unfold n in *; lia)) as P.
  destruct (compute_eigensystem solver g MatNormalisedLaplacian 2 Smallest) as [g1 es] eqn:Ees. destruct P as (_ & _ & P).
  destruct es as [r|e|]; [|unfold cheeger_cut; rewrite Ees; exact P|destruct P].
  fold n in P. change (Z.to_nat 2) with 2 in P.
  destruct (leading_facts _ _ _ _ _ P) as (Lr & Hpair & _ & Hs & _); [lia|intros; now apply matrix_sym|].
  destruct r as [|p [|q [|? ?]]]; try discriminate.
  assert (Hpq : (fst p <= fst q)%R).
  { inversion Hs as [|? ? _ F]; subst. inversion F; subst. assumption. }
  assert (Ex : (if wltb (fst q) (fst p) then snd p else snd q) = snd q).
  { destruct (wltb (fst q) (fst p)) eqn:L; auto. apply (toR_ltb (fst q) (fst p)) in L. cbn [toR ExactR] in L. lra. }
  assert (Lq : length (snd q) = n) by (apply Hpair; right; now left).
  destruct (cheeger_steps solver g p q Hc) as (g' & vec & Q & Hw & Hk & Hv & E & _); [now rewrite Ees|rewrite Ex; exact Lq|].
  rewrite Ex in Hv. destruct (qreach_base g g' Hc Q) as [C' B].
  assert (Hrg' : reachable_pos g').
  { eapply qreach_reachable; [|exact Hr|exact Q]. intros [] Ho; cbn in *; tauto. }
  pose proof B as (B1 & B2 & B3).
  destruct (sweep_set_graph_spec g' vec Hrg' Hw) as (order & k & Hp & Hss & Es & Hkl & Hbest & _).
  { unfold number_of_vertices. intros i Hi. rewrite <- B1. now apply Hk. }
  rewrite E, Es. cbn [obind].
  assert (NDk : NoDup (vkeys vec)) by (apply ss_lt_nodup; now apply vkeys_sorted).
  assert (Ps : Permutation (seq 0 n) order).
  { eapply perm_trans; [|exact Hp]. apply NoDup_Permutation; [apply seq_NoDup|exact NDk|]. intros i. rewrite in_seq, Hk. unfold n, number_of_vertices. lia. }
  assert (Lo : length order = n) by (rewrite <- (Permutation_length Ps); apply seq_length).
  assert (Hden : forall j, 1 <= j < n -> (0 < gden g (firstn j order))%R).
  { intros j Hj. unfold gden. rewrite (prefix_vol n order Ps g j), (prefix_tot n order Ps g eq_refl) by lia. rewrite pvol_compl.
    assert (Ha : forall i, i < n -> (0 < rdeg g (at_ order i))%R) by (intros i Hi; apply Hd', (at_lt n order Ps); auto).
    apply Rmin_glb_lt.
    - eapply Rlt_le_trans; [|apply (rsum_ge_elt n (fun i => rdeg g (at_ order i) * indic (i <? j))%R 0)]; try lia.
      + cbv beta. destruct (Nat.ltb_spec 0 j); [|lia]. unfold indic. specialize (Ha 0 ltac:(lia)). lra.
      + intros i Hi. specialize (Ha i Hi). destruct (i <? j); unfold indic; lra.
    - eapply Rlt_le_trans; [|apply (rsum_ge_elt n (fun i => rdeg g (at_ order i) * indic (j <=? i))%R (n - 1))]; try lia.
      + cbv beta. destruct (Nat.leb_spec j (n - 1)); [|lia]. unfold indic. specialize (Ha (n - 1) ltac:(lia)). lra.
      + intros i Hi. specialize (Ha i Hi). destruct (j <=? i); unfold indic; lra. }
  assert (Hden' : forall j, 1 <= j < n -> (0 < gden g' (firstn j order))%R) by (intros j Hj; destruct (same_gcond g g' (firstn j order) B) as [_ ->]; auto).
  assert (Hkn : 1 <= k < n).
  { destruct (Hbest 1 ltac:(lia) (Hden' 1 ltac:(lia))) as (H1 & H2 & _). split; auto.
    destruct (Nat.eq_dec k n) as [->|]; [|lia]. exfalso. rewrite <- Lo, firstn_all in H2.
    unfold gden in H2. pose proof (Rmin_r (gvol g' order) (gtotal g' - gvol g' order)).
    assert (gtotal g' = gvol g' order); [|lra]. unfold gtotal, gvol, number_of_vertices. rewrite <- B1. apply lsum_perm. exact Ps. }
  destruct (mark_spec (firstn k order) (repeat 0%Z (g_n g))) as (cl & Em & L & G).
  { rewrite repeat_length. intros i Hi. change (g_n g) with n.
    assert (In i order) by (rewrite <- (firstn_skipn k order); apply in_app_iff; now left).
    eapply Permutation_in in H; [|apply Permutation_sym, Ps]. apply in_seq in H. lia. }
  rewrite Em. rewrite repeat_length in *. exists p, q, order, k. split; [reflexivity|]. split; [exact P|]. split; [exact Ps|]. split; [|split; [exact Hkn|split]].
  - eapply ss_impl_in; [|exact Hss]. 
    assert (EV : forall i, In i order -> rv vec i = (vx (snd q) i / sqrt (rdeg g i))%R).
    { intros i Hi. eapply Permutation_in in Hi; [|apply Permutation_sym, Ps]. apply in_seq in Hi. unfold rv. cbn [toR ExactR].
      rewrite Hv by (unfold n, number_of_vertices in Hi; lia). rewrite degv_R by (auto; unfold n, number_of_vertices in Hi; lia).
      assert (Ez : (if weqb (nth i (snd q) w0) w0 then w0 else nth i (snd q) w0) = vx (snd q) i).
      { unfold vx. destruct (weqb (nth i (snd q) w0) w0) eqn:Ew; [|reflexivity]. apply (toR_eqb (nth i (snd q) w0) w0) in Ew. symmetry. exact Ew. }
      rewrite Ez. cbn [wmul wsqrt wdiv w1 NumR]. specialize (Hd' i ltac:(unfold n in *; lia)).
      unfold Rdiv at 1. rewrite Rmult_1_l, sqrt_inv. unfold Rdiv. ring. }
    intros i j Hi Hj [Lt|[Eq Lt]]; unfold listed_before; rewrite !EV in * by auto; [now left|now right].
  - intros j Hj. destruct (Hbest j ltac:(lia) (Hden' j Hj)) as (_ & _ & H1 & H2).
    destruct (same_gcond g g' (firstn k order) B) as [<- _]. destruct (same_gcond g g' (firstn j order) B) as [<- _]. auto.
  - apply (nth_ext _ _ 0%Z 0%Z); [rewrite map_length, seq_length; exact L|]. intros i Hi. rewrite L in Hi.
    rewrite G by auto. rewrite nth_map_seq by exact Hi. destruct (in_dec Nat.eq_dec i (firstn k order)); [reflexivity|]. apply nth_repeat.
Qed.
Theorem cheeger_sweep (solver : eigen_solver (W := R)) (g : graph R) : solver_contract solver -> reachable_pos g ->
  3 <= number_of_vertices g -> (forall v, v < number_of_vertices g -> rdeg g v <> 0%R) ->
  let n := number_of_vertices g in
  match snd (cheeger_cut solver g) with
  | Ok labels => exists p q order k,
      leading (order_of Smallest) n (matrix_of_graph MatNormalisedLaplacian g) 2 [p; q] /\
      Permutation (seq 0 n) order /\
      StronglySorted (listed_before (fun i => vx (snd q) i / sqrt (rdeg g i))%R) order /\
      1 <= k < n /\
      (forall j, 1 <= j < n -> (gcond g (firstn k order) <= gcond g (firstn j order))%R /\
                               (j < k -> (gcond g (firstn k order) < gcond g (firstn j order))%R)) /\
      labels = map (fun i => if in_dec Nat.eq_dec i (firstn k order) then 1%Z else 0%Z) (seq 0 n)
  | Throw e => e = RuntimeError
  | UB => False
  end.
Proof.
  intros SC Hr Hn Hd n. pose proof (cheeger_sweep_es solver g SC Hr Hn Hd) as P. cbv zeta in P. fold n in P.
  destruct (snd (cheeger_cut solver g)) as [labels|e|]; auto. destruct P as (p & q & order & k & _ & P). now exists p, q, order, k.
Qed.
