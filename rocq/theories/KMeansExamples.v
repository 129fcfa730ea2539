(** A run of spectral_cluster, and the defect of the random integers of KMeansRex. *)
From Verif Require Import Base Num RSum Sparse SparseFacts Graph GraphSpec GraphFacts GraphProps1 GraphProps2 GraphProps3 GraphProps4 GraphExamples Spectrum SpectrumSpec SpectrumFacts SpectrumPower SpectrumExamples KMeans KMeansFacts KMeansSpec KMeansLloyd KMeansTop.
From Coq Require Import Reals Lra Psatz.
Local Open Scope nat_scope.

(** The solver converges on the normalised Laplacian of the edge of weight 4. *)
Lemma exR_nlap_runs : exists r, snd (compute_eigensystem solver2 exR MatNormalisedLaplacian 1 Smallest) = Ok r.
Proof.
  pose proof exR_reachable as Hp. pose proof (reachable_pos_reachable _ exR_reachable) as Hr. destruct (reachable_ok exR Hr) as [Hsq Hc].
  unfold compute_eigensystem.
  change (number_of_vertices exR) with 2. change ((1 <? 1)%Z || (Z.of_nat 2 <=? 1)%Z) with false. cbv iota zeta.
  destruct (max_degree_spec exR (seq 0 2) Hr (fun v Hv => proj2 (proj1 (in_seq _ _ _) Hv)) exR w0 Hc (same_base_refl exR))
    as (g1 & d & E & C1 & S1 & _). rewrite E.
  destruct (mat_query_spec QNLap g1 C1) as (C2 & S2 & E2). destruct (mat_query QNLap g1) as [g2 L]. cbn [fst snd] in *. subst L.
  assert (EA : g_adj g1 = g_adj exR) by (destruct S1 as (_ & -> & _); reflexivity). rewrite EA.
  assert (SL : sp_square (sp_map wopp (mat_formula QNLap (g_adj exR))) 2) by (apply sp_map_square, (lap_square exR); auto).
  pose proof (shift_diag_square 2 _ (wadd w1 w1) SL) as (R1 & _ & _).
  unfold largestmag. rewrite R1. change ((1 <? 1)%Z || (Z.of_nat 2 <=? 1)%Z) with false. cbv iota.
  unfold solver2. rewrite R1. cbn [Nat.eqb Z.eqb andb Pos.eqb].
  match goal with |- context [Req_EM_T ?a ?b] => destruct (Req_EM_T a b) as [Eq|N]; [eexists; reflexivity|] end.
  exfalso. apply N. rewrite !shift_diag_coeff by (auto; lia). f_equal.
Qed.
Lemma exR_cluster_runs bump : (forall c, (1 <= c)%R -> bump c = c) ->
  snd (spectral_cluster IZR unit_ofR truncR bump solver2 exR 1) = Ok [0%Z; 0%Z].
Proof.
  intros Hb.
  pose proof (spectral_cluster_labels IZR unit_ofR truncR bump solver2 exR 1 2 eq_refl ltac:(vm_compute; split; congruence) (first_choice 2 ltac:(lia))) as P.
  destruct exR_nlap_runs as (r & Er).
  destruct (snd (spectral_cluster IZR unit_ofR truncR bump solver2 exR 1)) as [l|e|].
  - destruct P as (L & F). destruct l as [|a [|b [|c l]]]; try discriminate.
    inversion F as [|? ? Ha F']; subst. inversion F' as [|? ? Hb' _]; subst. replace a with 0%Z by lia. replace b with 0%Z by lia. reflexivity.
  - rewrite Er in P. discriminate.
  - rewrite Er in P. discriminate.
Qed.
(** A state of the generator whose next word is 2^32-1: the random integer below n is n. *)
Definition mt_top : mt_state := mkMT (repeat 316513203%Z 624) 0.
Lemma mt_top_draw : snd (mt_draw mt_top) = 4294967295%Z.
Proof. vm_compute. reflexivity. Qed.
Lemma randint_top n : snd (randint IZR unit_ofR truncR mt_top n) = n.
Proof.
  unfold randint. pose proof mt_top_draw as E. destruct (mt_draw mt_top) as [s y]. cbn [snd] in *. subst y.
  unfold unit_ofR, truncR. cbn [wmul NumR]. replace (IZR n * (IZR 4294967295 * (1 / IZR 4294967295)))%R with (IZR n) by (field; lra).
  unfold Int_part. pose proof (archimed (IZR n)) as [A B].
  rewrite <- (tech_up (IZR n) (n + 1)); [lia| |]; rewrite plus_IZR; lra.
Qed.
