(** Cheeger's inequality for the set found by cheeger_cut (C64). *)
From Verif Require Import Base Num RSum Sparse SparseFacts Graph GraphSpec GraphFacts GraphProps1 GraphProps2 GraphProps3 Cluster ClusterSpec ClusterPR ClusterSweep ClusterInst ClusterExamples
  Spectrum SpectrumSpec SpectrumFacts SpectrumPower SpectrumConv Cheeger CheegerFacts CheegerMath CheegerSpectral CheegerTop.
From Coq Require Import Reals Lra Psatz Relations Sorting.Sorted Sorting.Permutation.
Local Open Scope nat_scope.

Lemma ss_adjacent {A} (P : A -> A -> Prop) d l : StronglySorted P l -> forall j, S j < length l -> P (nth j l d) (nth (S j) l d).
Proof.
  induction 1 as [|a l Hs IH Hf]; intros j Hj; simpl in Hj; [lia|]. destruct j as [|j].
  - rewrite Forall_forall in Hf. apply Hf. cbn [nth]. apply nth_In. lia.
  - apply (IH j). lia.
Qed.
Section G.
  Variable g : graph R.
  Hypothesis Hr : reachable_pos g.
  Let n := number_of_vertices g.
  Hypothesis noloop : forall v, v < n -> rw g v v = 0%R.
  Hypothesis conn : forall u v, u < n -> v < n -> connected g u v.

  Lemma rdeg_noloop u : u < n -> rdeg g u = rsum n (rw g u).
  Proof. intros Hu. unfold rdeg. rewrite noloop by auto. rewrite Rplus_0_r. reflexivity. Qed.
  Lemma adjacent_rw u v : adjacent g u v -> rw g u v <> 0%R /\ u < n /\ v < n.
  Proof.
    intros Ha. pose proof (reachable_pos_reachable g Hr) as Hr'.
    assert (N : rw g u v <> 0%R).
    { intros E. unfold adjacent in Ha. assert (Et : weqb (weight g u v) w0 = true) by (apply (toR_eqb (weight g u v) w0); exact E). congruence. }
    split; [exact N|]. split.
    - destruct (le_lt_dec n u) as [L|]; auto. exfalso. apply N. rewrite rw_sym by auto. now apply rw_out.
    - destruct (le_lt_dec n v) as [L|]; auto. exfalso. apply N. now apply rw_out.
  Qed.
  Lemma conn' u v : u < n -> v < n -> clos_refl_trans nat (fun a b => rw g a b <> 0%R /\ a < n /\ b < n) u v.
  Proof.
    intros Hu Hv. pose proof (conn u v Hu Hv) as C. unfold connected in C. clear Hu Hv.
    induction C as [a b H|a|a b c _ IH1 _ IH2]; [apply rt_step; now apply adjacent_rw|apply rt_refl|eapply rt_trans; eauto].
  Qed.
  Lemma degree_pos : 2 <= n -> forall v, v < n -> (0 < rdeg g v)%R.
  Proof.
    intros Hn v Hv. pose proof (rdeg_nonneg g v Hr) as P. destruct (Req_dec (rdeg g v) 0) as [E|]; [|lra]. exfalso.
    assert (Hu : exists u, u < n /\ u <> v) by (destruct v; [exists 1|exists 0]; lia). destruct Hu as (u & Hu & Nu).
    pose proof (conn' v u Hv Hu) as C. apply clos_rt_rt1n in C. inversion C as [|b c (Hw & _ & Hb)]; subst; [tauto|].
    apply Hw. rewrite rw_sym by (now apply reachable_pos_reachable). now apply rdeg_zero.
  Qed.
  Lemma nlap_eq u v : 2 <= n -> u < n -> v < n -> matrix_of_graph MatNormalisedLaplacian g u v =
    ((if u =? v then 1 else 0) - rw g u v / (sqrt (rdeg g u) * sqrt (rdeg g v)))%R.
  Proof.
    intros Hn Hu Hv. unfold matrix_of_graph. pose proof (degree_pos Hn u Hu). pose proof (degree_pos Hn v Hv).
    rewrite sqrt_mult by lra. destruct (Req_EM_T (rw g u v) 0) as [E|]; [|reflexivity]. rewrite E. unfold Rdiv. now rewrite Rmult_0_l.
  Qed.

  (** ** Sets of vertices *)
  Section T.
    Variable T : list nat.
    Hypothesis ND : NoDup T.
    Hypothesis Hin : forall v, In v T -> v < n.
    Definition yes (i : nat) : R := (1 - notin T i)%R.
    Lemma yes_cases i : (yes i = 1%R /\ notin T i = 0%R /\ In i T) \/ (yes i = 0%R /\ notin T i = 1%R /\ ~ In i T).
    Proof. unfold yes, notin. destruct (in_dec Nat.eq_dec i T); [left|right]; repeat split; auto; lra. Qed.
    Lemma lsum_set f : lsum f T = rsum n (fun i => f i * yes i)%R.
    Proof.
      unfold rsum. transitivity (lsum (fun x => if nmem x T then f x else 0)%R (seq 0 n)).
      - rewrite <- lsum_inter; auto using seq_NoDup. apply lsum_ext. intros x Hx. apply Hin in Hx.
        destruct (nmem x (seq 0 n)) eqn:E; auto. apply nmem_false in E. exfalso. apply E, in_seq. lia.
      - apply lsum_ext. intros x _. unfold yes. rewrite notin_nmem. destruct (nmem x T); lra.
    Qed.
    Hypothesis Hn : 2 <= n.
    Hypothesis Hne : exists v, v < n /\ In v T.
    Hypothesis Hpr : exists v, v < n /\ ~ In v T.
    Lemma vol_pos : (0 < gvol g T)%R.
    Proof.
      destruct Hne as (v & Hv & Hi). unfold gvol. rewrite lsum_set. pose proof (degree_pos Hn) as D.
      eapply Rlt_le_trans; [|apply (rsum_ge_elt n (fun i => rdeg g i * yes i)%R v)]; auto.
      - cbv beta. specialize (D v Hv). destruct (yes_cases v) as [(-> & _)|(_ & _ & C)]; [lra|tauto].
      - intros i Hi'. specialize (D i Hi'). destruct (yes_cases i) as [(-> & _)|(-> & _)]; lra.
    Qed.
    Lemma covol_eq : (gtotal g - gvol g T)%R = rsum n (fun i => rdeg g i * notin T i)%R.
    Proof. unfold gtotal, gvol. rewrite lsum_set. fold n. rewrite <- rsum_minus. apply rsum_ext. intros i _. unfold yes. ring. Qed.
    Lemma covol_pos : (0 < gtotal g - gvol g T)%R.
    Proof.
      destruct Hpr as (v & Hv & Hi). rewrite covol_eq. pose proof (degree_pos Hn) as D.
      eapply Rlt_le_trans; [|apply (rsum_ge_elt n (fun i => rdeg g i * notin T i)%R v)]; auto.
      - cbv beta. specialize (D v Hv). destruct (yes_cases v) as [(_ & _ & C)|(_ & -> & _)]; [tauto|lra].
      - intros i Hi'. specialize (D i Hi'). destruct (yes_cases i) as [(_ & -> & _)|(_ & -> & _)]; lra.
    Qed.
    Lemma cut_double (a b : R) :
      rsum n (fun i => rsum n (fun k => rw g i k * ((a * yes i - b * notin T i) - (a * yes k - b * notin T k)) ^ 2))%R = (2 * (a + b) ^ 2 * gcut g T)%R.
    Proof.
      unfold gcut. rewrite lsum_set. fold n.
      assert (E : rsum n (fun u => rsum n (fun v => rw g u v * notin T v) * yes u)%R = rsum n (fun u => rsum n (fun v => rw g u v * (yes u * notin T v)))%R).
      { apply rsum_ext. intros u _. rewrite <- rsum_scal_r. apply rsum_ext. intros v _. ring. }
      rewrite E. set (F := fun u v => (rw g u v * (yes u * notin T v))%R).
      assert (E2 : rsum n (fun u => rsum n (F u)) = rsum n (fun u => rsum n (fun v => F v u))) by apply rsum_swap.
      transitivity ((a + b) ^ 2 * (rsum n (fun u => rsum n (F u)) + rsum n (fun u => rsum n (fun v => F v u))))%R; [|rewrite <- E2; fold F; change (rsum n (fun u => rsum n (fun v => rw g u v * (yes u * notin T v)))%R) with (rsum n (fun u => rsum n (F u))); ring].
      rewrite <- rsum_plus, <- rsum_scal. apply rsum_ext. intros i _. rewrite <- rsum_plus, <- rsum_scal. apply rsum_ext. intros k _.
      unfold F. rewrite (rw_sym g k i) by (now apply reachable_pos_reachable).
      destruct (yes_cases i) as [(-> & -> & _)|(-> & -> & _)], (yes_cases k) as [(-> & -> & _)|(-> & -> & _)]; ring.
    Qed.
    (** The easy direction: half the second eigenvalue is a lower bound of the conductance. *)
    Lemma easy_direction p q E' : eigen_system n (matrix_of_graph MatNormalisedLaplacian g) (p :: q :: E') ->
      StronglySorted Rle (map fst (p :: q :: E')) -> (fst q <= 2 * gcond g T)%R.
    Proof.
      intros Sys Sor. pose proof (reachable_pos_reachable g Hr) as Hr'.
      pose proof vol_pos as V1. pose proof covol_pos as V2. set (v1 := gvol g T) in *. set (v2 := (gtotal g - v1)%R) in *.
      set (y := fun i => (/ v1 * yes i - / v2 * notin T i)%R).
      assert (D1 : rsum n (fun i => rdeg g i * yes i)%R = v1) by (unfold v1, gvol; now rewrite lsum_set).
      assert (D2 : rsum n (fun i => rdeg g i * notin T i)%R = v2) by (unfold v2, v1; now rewrite covol_eq).
      pose proof (second_minimal n (rw g) (rdeg g) (matrix_of_graph MatNormalisedLaplacian g)
        (fun u v => rw_sym g u v Hr') (fun u v => rw_nonneg g u v Hr) (degree_pos Hn) rdeg_noloop
        (fun u v Hu Hv => nlap_eq u v Hn Hu Hv) conn' p q E' Sys Sor y) as B.
      assert (O : rsum n (fun i => rdeg g i * y i)%R = 0%R).
      { unfold y. rewrite (rsum_ext n _ (fun i => / v1 * (rdeg g i * yes i) - / v2 * (rdeg g i * notin T i))%R) by (intros; ring).
        rewrite rsum_minus, !rsum_scal, D1, D2. field. lra. }
      specialize (B O).
      assert (S2 : rsum n (fun i => rdeg g i * y i ^ 2)%R = (/ v1 + / v2)%R).
      { unfold y. rewrite (rsum_ext n _ (fun i => / v1 ^ 2 * (rdeg g i * yes i) + / v2 ^ 2 * (rdeg g i * notin T i))%R).
        - rewrite rsum_plus, !rsum_scal, D1, D2. field. lra.
        - intros i _. destruct (yes_cases i) as [(-> & -> & _)|(-> & -> & _)]; field; lra. }
      rewrite S2 in B. unfold y in B. rewrite cut_double in B.
      assert (Hs : (0 < / v1 + / v2)%R) by (pose proof (Rinv_0_lt_compat v1 V1); pose proof (Rinv_0_lt_compat v2 V2); lra).
      assert (B2 : (fst q <= (/ v1 + / v2) * gcut g T)%R) by (apply Rmult_le_reg_r with (2 * (/ v1 + / v2))%R; [lra|]; nra).
      eapply Rle_trans; [exact B2|]. unfold gcond. fold v1 v2.
      assert (C0 : (0 <= gcut g T)%R).
      { apply lsum_nonneg. intros u _. apply rsum_nonneg. intros v _. pose proof (rw_nonneg g u v Hr). destruct (yes_cases v) as [(_ & -> & _)|(_ & -> & _)]; lra. }
      assert (M1 : (/ v1 <= / Rmin v1 v2)%R) by (apply Rinv_le_contravar; [now apply Rmin_glb_lt|apply Rmin_l]).
      assert (M2 : (/ v2 <= / Rmin v1 v2)%R) by (apply Rinv_le_contravar; [now apply Rmin_glb_lt|apply Rmin_r]).
      unfold Rdiv. nra.
    Qed.
  End T.

  (** ** The hard direction *)
  Lemma sweep_conductance p q E' order phi : 2 <= n -> eigen_system n (matrix_of_graph MatNormalisedLaplacian g) (p :: q :: E') ->
    StronglySorted Rle (map fst (p :: q :: E')) ->
    Permutation (seq 0 n) order -> StronglySorted (listed_before (fun i => vx (snd q) i / sqrt (rdeg g i))%R) order ->
    (forall j, 1 <= j < n -> (phi <= gcond g (firstn j order))%R) -> (phi <= sqrt (2 * fst q))%R.
  Proof.
    intros Hn Sys Sor Hp Hs Hphi. pose proof (reachable_pos_reachable g Hr) as Hr'. pose proof (degree_pos Hn) as D.
    set (y := fun i => (vx (snd q) i / sqrt (rdeg g i))%R) in *. set (o := at_ order).
    assert (Lo : length order = n) by (rewrite <- (Permutation_length Hp); apply seq_length).
    assert (Rt : forall i, i < n -> (0 < sqrt (rdeg g i))%R) by (intros i Hi; apply sqrt_lt_R0; auto).
    assert (Ex : forall i, i < n -> (vx (snd q) i = rt (rdeg g) i * y i)%R) by (intros i Hi; unfold y, rt; specialize (Rt i Hi); field; lra).
    assert (EQ : forall f, rsum n (fun i => f (o i)) = rsum n f) by (intros f; symmetry; apply (rsum_order n order Hp)).
    assert (HK := fun u v Hu Hv => nlap_eq u v Hn Hu Hv).
    assert (RT : forall i, i < n -> (rt (rdeg g) i * rt (rdeg g) i = rdeg g i)%R) by (intros i Hi; apply sqrt_sqrt; specialize (D i Hi); lra).
    assert (Nq : rsum n (fun i => rdeg g i * y i ^ 2)%R = 1%R).
    { destruct Sys as (Ls & _ & O & _). specialize (O 1 1 p ltac:(lia) ltac:(lia)). cbn [nth Nat.eqb] in O. rewrite <- O. unfold dot.
      apply rsum_ext. intros i Hi. rewrite !Ex by auto. rewrite <- (RT i Hi). ring. }
    apply (hard_direction n (fun i k => rw g (o i) (o k)) (fun i => rdeg g (o i)) (fun i => y (o i)) (fst q) phi).
    - intros. now apply rw_sym.
    - intros. now apply rw_nonneg.
    - intros i Hi. rewrite (EQ (fun v => rw g (o i) v)). apply rdeg_noloop. now apply (at_lt n order Hp).
    - intros i. apply rdeg_nonneg. exact Hr.
    - intros j Hj. assert (B : listed_before y (o j) (o (S j))).
      { exact (ss_adjacent _ 0 order Hs j ltac:(lia)). }
      destruct B as [|[]]; lra.
    - rewrite (EQ (fun i => rdeg g i * y i)%R).
      pose proof (second_orth n (rw g) (rdeg g) (matrix_of_graph MatNormalisedLaplacian g)
        (fun u v => rw_sym g u v Hr') (fun u v => rw_nonneg g u v Hr) (degree_pos Hn) rdeg_noloop
        (fun u v Hu Hv => nlap_eq u v Hn Hu Hv) conn' p q E' Sys Sor) as O. rewrite <- O. unfold dot. apply rsum_ext. intros i Hi.
      rewrite Ex by auto. rewrite <- (RT i Hi). ring.
    - right. rewrite (EQ (fun i => rdeg g i * y i ^ 2)%R), Nq.
      rewrite (rsum_ext n _ (fun i => rsum n (fun k => rw g (o i) k * (y (o i) - y k) ^ 2))%R) by (intros i _; apply (EQ (fun k => rw g (o i) k * (y (o i) - y k) ^ 2)%R)).
      rewrite (EQ (fun i => rsum n (fun k => rw g i k * (y i - y k) ^ 2)%R)).
      pose proof (quad_scaled n (rw g) (rdeg g) (matrix_of_graph MatNormalisedLaplacian g)
        (fun u v => rw_sym g u v Hr') (degree_pos Hn) rdeg_noloop (fun u v Hu Hv => nlap_eq u v Hn Hu Hv) y) as Q. rewrite <- Q.
      rewrite <- (eigen_quad n _ _ q Sys (or_intror (or_introl eq_refl))). rewrite Rmult_1_r. f_equal.
      unfold quad. apply rsum_ext. intros i Hi. apply rsum_ext. intros k Hk. now rewrite !Ex by auto.
    - apply (second_pos n (rw g) (rdeg g) (matrix_of_graph MatNormalisedLaplacian g)
        (fun u v => rw_sym g u v Hr') (fun u v => rw_nonneg g u v Hr) (degree_pos Hn) rdeg_noloop
        (fun u v Hu Hv => nlap_eq u v Hn Hu Hv) conn' p q E' Sys Sor).
    - rewrite (EQ (fun i => rdeg g i * y i ^ 2)%R), Nq. lra.
    - intros j Hj. specialize (Hphi j Hj). unfold gcond in Hphi.
      rewrite (prefix_vol n order Hp g j), (prefix_tot n order Hp g eq_refl), (prefix_cut n order Hp g eq_refl j) in Hphi by lia.
      set (m := Rmin (pvol n (fun i => rdeg g (at_ order i)) j) (ptot n (fun i => rdeg g (at_ order i)) - pvol n (fun i => rdeg g (at_ order i)) j)) in *.
      fold o in m. assert (Hm : (0 < m)%R).
      { unfold m, o. rewrite <- (prefix_vol n order Hp g j), <- (prefix_tot n order Hp g eq_refl) by lia.
        assert (I1 : forall v, In v (firstn j order) -> v < n).
        { intros v Hv. assert (I : In v order) by (rewrite <- (firstn_skipn j order); apply in_app_iff; now left).
          eapply Permutation_in in I; [|apply Permutation_sym, Hp]. apply in_seq in I. lia. }
        assert (I2 : NoDup (firstn j order)) by (apply nodup_firstn, (o_nodup n order Hp)).
        apply Rmin_glb_lt.
        - apply vol_pos; auto. exists (at_ order 0). split; [apply (at_lt n order Hp); lia|]. apply (in_prefix n order Hp); lia.
        - apply covol_pos; auto. exists (at_ order (n - 1)). split; [apply (at_lt n order Hp); lia|]. rewrite (in_prefix n order Hp) by lia. lia. }
      apply Rmult_le_compat_r with (r := m) in Hphi; [|lra]. unfold Rdiv in Hphi. rewrite Rmult_assoc, Rinv_l, Rmult_1_r in Hphi by lra. exact Hphi.
  Qed.
End G.

Theorem cheeger_inequality (solver : eigen_solver (W := R)) (g : graph R) : solver_contract solver -> reachable_pos g ->
  3 <= number_of_vertices g -> (forall v, v < number_of_vertices g -> rw g v v = 0%R) ->
  (forall u v, u < number_of_vertices g -> v < number_of_vertices g -> connected g u v) ->
  let n := number_of_vertices g in
  match snd (cheeger_cut solver g) with
  | Ok labels => exists p q cut,
      leading (order_of Smallest) n (matrix_of_graph MatNormalisedLaplacian g) 2 [p; q] /\
      labels = map (fun i => if in_dec Nat.eq_dec i cut then 1%Z else 0%Z) (seq 0 n) /\
      NoDup cut /\ (forall v, In v cut -> v < n) /\ 1 <= length cut < n /\
      (gcond g cut <= sqrt (2 * fst q))%R /\
      (forall other, NoDup other -> (forall v, In v other -> v < n) -> 1 <= length other < n ->
         (fst q / 2 <= gcond g other)%R /\ (gcond g cut <= 2 * sqrt (gcond g other))%R)
  | Throw e => e = RuntimeError
  | UB => False
  end.
Proof.
  intros SC Hr Hn NL Co n.
  pose proof (degree_pos g Hr Co ltac:(lia)) as D.
  pose proof (cheeger_sweep solver g SC Hr Hn (fun v Hv => Rgt_not_eq _ _ (D v Hv))) as P. cbv zeta in P. fold n in P.
  destruct (snd (cheeger_cut solver g)) as [labels|e|]; auto.
  destruct P as (p & q & order & k & L & Hp & Hs & Hk & Hb & El). exists p, q, (firstn k order).
  split; [exact L|]. split; [exact El|].
  assert (I2 : NoDup (firstn k order)) by (apply nodup_firstn, (o_nodup n order Hp)).
  assert (Lo : length order = n) by (rewrite <- (Permutation_length Hp); apply seq_length).
  assert (I1 : forall v, In v (firstn k order) -> v < n).
  { intros v Hv. assert (I : In v order) by (rewrite <- (firstn_skipn k order); apply in_app_iff; now left).
    eapply Permutation_in in I; [|apply Permutation_sym, Hp]. apply in_seq in I. lia. }
  split; [exact I2|]. split; [exact I1|]. split; [rewrite firstn_length; lia|].
  destruct L as (E & Sys & Sor & Er). destruct E as [|e1 [|e2 E']]; try discriminate. cbn [firstn] in Er. injection Er as <- <-.
  assert (Hc : (gcond g (firstn k order) <= sqrt (2 * fst q))%R).
  { apply (sweep_conductance g Hr NL Co p q E' order); auto; [fold n; lia|]. intros j Hj. now apply Hb. }
  split; [exact Hc|]. intros other ND Hi Hlen.
  assert (Ex : exists v, v < n /\ ~ In v other).
  { destruct (Forall_Exists_dec (fun v => In v other) (fun v => in_dec Nat.eq_dec v other) (seq 0 n)) as [F|X].
    - exfalso. rewrite Forall_forall in F. pose proof (NoDup_incl_length (seq_NoDup n 0) F). rewrite seq_length in H. lia.
    - apply Exists_exists in X. destruct X as (v & Hv & N). exists v. apply in_seq in Hv. split; [lia|auto]. }
  assert (Ey : exists v, v < n /\ In v other).
  { destruct other as [|v other]; [simpl in Hlen; lia|]. exists v. split; [apply Hi|]; now left. }
  pose proof (easy_direction g Hr NL Co other ND Hi ltac:(fold n; lia) Ey Ex p q E' Sys Sor) as Easy.
  split; [lra|]. eapply Rle_trans; [exact Hc|]. replace 2%R with (sqrt (2 * 2)) at 2 by (apply sqrt_square; lra).
  assert (Q0 : (0 < fst q)%R).
  { apply (second_pos n (rw g) (rdeg g) (matrix_of_graph MatNormalisedLaplacian g)
        (fun u v => rw_sym g u v (reachable_pos_reachable g Hr)) (fun u v => rw_nonneg g u v Hr) D (rdeg_noloop g NL)
        (fun u v Hu Hv => nlap_eq g Hr Co u v ltac:(fold n; lia) Hu Hv) (conn' g Hr Co) p q E' Sys Sor). }
  rewrite <- sqrt_mult by lra. apply sqrt_le_1; lra.
Qed.
