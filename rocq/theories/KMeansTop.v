(** spectral_cluster over the reals (C57). *)
From Verif Require Import Base Num RSum Sparse Graph GraphSpec GraphFacts GraphProps1 GraphProps2 Spectrum SpectrumSpec SpectrumFacts KMeans KMeansFacts KMeansSpec KMeansLloyd KdeFacts4.
From Coq Require Import Reals Lra Psatz.
Local Open Scope nat_scope.

(** The exact counterparts of the conversions. *)
Definition unit_ofR (y : Z) : R := (IZR y * (1 / IZR 4294967295))%R.
Definition truncR (r : R) : Z := Int_part r.
Lemma first_choice n : 1 <= n -> (0 <= truncR (wmul (IZR (Z.of_nat n)) (unit_ofR 1608637542)) < Z.of_nat n)%Z.
Proof.
  intros Hn. unfold truncR, unit_ofR. cbn [wmul NumR]. set (r := (IZR (Z.of_nat n) * (IZR 1608637542 * (1 / IZR 4294967295)))%R).
  assert (Hz : (1 <= IZR (Z.of_nat n))%R) by (apply IZR_le; lia).
  assert (Hr : (0 <= r < IZR (Z.of_nat n))%R).
  { unfold r. assert (Hq : (0 <= IZR 1608637542 * (1 / IZR 4294967295) < 1)%R) by lra. nra. }
  destruct (base_Int_part r) as [B1 B2].
  split.
  - apply Zlt_succ_le. apply lt_IZR. unfold Z.succ. rewrite plus_IZR. lra.
  - apply lt_IZR. lra.
Qed.
Lemma to_int32_small k : (0 <= k <= 21474836)%Z -> to_int32 (k * 100) = (k * 100)%Z.
Proof. intros Hk. unfold to_int32. rewrite Z.mod_small; lia. Qed.

Section Top.
  Variable bump : R -> R.
  Hypothesis bump1 : forall c, (1 <= c)%R -> bump c = c.
  Lemma run_kmeans_lloyd X D K niter : 1 <= K -> 1 <= length X -> (1 <= niter)%Z -> (forall x, In x X -> length x = D) ->
    forall out, run_kmeans IZR unit_ofR truncR bump X D K niter 42 = Ok out -> lloyd_result D K (Z.to_nat niter) X out.
  Proof.
    intros HK HX Hn HD out. unfold run_kmeans.
    destruct (plusplus_ok IZR unit_ofR truncR (mt_init 42) X K HK) as (s & Mu & E & L & I).
    { unfold randint. pose proof first_draw_42 as F. destruct (mt_draw (mt_init 42)) as [s y]. cbn [snd] in *. subst y. now apply first_choice. }
    rewrite E. cbn [snd]. replace (Z.to_nat niter) with (S (Z.to_nat niter - 1)) by lia. intros El.
    destruct (lloyd_trace bump bump1 D K X HD (Z.to_nat niter - 1) Mu _ _ out L (fun c Hc => HD c (I c Hc)) El)
      as (T & C & lab & HT & Ho & HC & H1 & H2 & H3 & H4 & _ & H5).
    exists T, C, lab. split; [lia|]. split; [auto|]. rewrite HC. split; [auto|]. split; [auto|]. split; [auto|]. split; [auto|].
    split; [|split; auto]. intros Hl HT1. specialize (H3 Hl HT1). rewrite shift_total in H3. rewrite <- HC. cbn [w0 NumR] in H3. lra.
  Qed.
  Theorem spectral_cluster_spec (solver : eigen_solver (W := R)) (g : graph R) k : solver_contract solver -> reachable_pos g ->
    (1 <= k <= Z.of_nat (number_of_vertices g) / 2)%Z -> (k <= 21474836)%Z ->
    match snd (spectral_cluster IZR unit_ofR truncR bump solver g k) with
    | Ok labels => exists r z, labels = map Z.of_nat z /\
        leading (order_of Smallest) (number_of_vertices g) (matrix_of_graph MatNormalisedLaplacian g) (Z.to_nat k) r /\
        lloyd_result (Z.to_nat k) (Z.to_nat k) (Z.to_nat (100 * k)) (rows_of (number_of_vertices g) (map snd r)) z
    | Throw e => e = RuntimeError
    | UB => False
    end.
  Proof.
    intros SC Hr Hk Hb. set (n := number_of_vertices g) in *.
    assert (Hn : (1 <= k < Z.of_nat n)%Z). { pose proof (Z.mul_div_le (Z.of_nat n) 2 ltac:(lia)). lia. }
    pose proof (compute_eigensystem_spec solver SC g MatNormalisedLaplacian k Smallest Hr Hn) as P.
    pose proof (compute_eigensystem_n solver g MatNormalisedLaplacian k Smallest) as Ng.
    unfold spectral_cluster, compute_eigenvectors. fold n. destruct (Z.ltb_spec k 1); [lia|]. destruct (Z.ltb_spec (Z.of_nat n / 2) k); [lia|]. cbn [orb].
    destruct (compute_eigensystem solver g MatNormalisedLaplacian k Smallest) as [g' o]. destruct P as (_ & _ & P).
    destruct o as [r|e|]; cbn [omap snd]; [|exact P|exact P]. cbn [fst] in Ng. rewrite Ng. fold n.
    destruct (leading_facts _ _ _ _ _ P) as (Lr & _); [lia|intros; apply matrix_sym; now apply reachable_pos_reachable|].
    assert (HD : forall x, In x (rows_of n (map snd r)) -> length x = Z.to_nat k).
    { intros x Hx. unfold rows_of in Hx. apply in_map_iff in Hx. destruct Hx as (i & <- & _). rewrite !map_length. exact Lr. }
    destruct (run_kmeans_ok IZR unit_ofR truncR bump (rows_of n (map snd r)) (Z.to_nat k) (Z.to_nat k) (to_int32 (k * 100)) 42) as (out & E & L & F).
    - lia.
    - unfold randint. pose proof first_draw_42 as D0. destruct (mt_draw (mt_init 42)) as [s y]. cbn [snd] in *. subst y.
      rewrite rows_of_length. apply first_choice. lia.
    - rewrite E. cbn [omap]. exists r, out. split; [reflexivity|]. split; [exact P|].
      rewrite to_int32_small in E by lia. rewrite (Z.mul_comm 100). apply (run_kmeans_lloyd _ _ _ (k * 100)); auto; try lia.
      rewrite rows_of_length. lia.
  Qed.
End Top.
