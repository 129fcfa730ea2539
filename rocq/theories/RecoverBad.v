(** A graph with two components that spectral_cluster does not separate (C84). *)
From Verif Require Import Base Num RSum Sparse SparseFacts Graph GraphSpec GraphFacts GraphProps1 GraphProps2 GraphProps3 GraphProps4 GraphExamples Cluster ClusterSpec ClusterInst ClusterExamples
  Spectrum SpectrumSpec SpectrumFacts SpectrumPower SpectrumExamples CheegerIneq KMeans KMeansFacts KMeansSpec KMeansLloyd KMeansTop MTFacts KdeFacts4 RecoverKM RecoverTop RecoverExamples.
From Coq Require Import Reals Lra Psatz Relations Sorting.Sorted.
Local Open Scope nat_scope.

(** The edge {0,2} of weight 1, and the path 1 - 3 - 4 with weights 49 and 576. *)
Definition exB_M : sprs R := mkSprs 5 [[(2, 1%R)]; [(3, 49%R)]; [(0, 1%R)]; [(1, 49%R); (4, 576%R)]; [(3, 576%R)]].
Definition exB : graph R := fresh_graph exB_M.
Definition exB_comp (v : nat) : nat := match v with 0 => 0 | 2 => 0 | _ => 1 end.
Lemma exB_square : sp_square exB_M 5.
Proof. split; [reflexivity|]. split; [reflexivity|]. apply sp_wfb_iff. reflexivity. Qed.
Lemma exB_reachable : reachable_pos exB.
Proof.
  apply (graph_of exB_M 5 exB_square).
  - intros i j v. unfold exB_M, sp_get, sp_col. simpl. destruct j as [|[|[|[|[|[|j]]]]]]; simpl; try discriminate; destruct i as [|[|[|[|[|i]]]]]; simpl; try discriminate; intros [= <-]; lra.
  - intros i j. unfold coeff, sp_get, sp_col, exB_M. simpl. destruct i as [|[|[|[|[|[|i]]]]]], j as [|[|[|[|[|[|j]]]]]]; reflexivity.
Qed.
Lemma rsum5 f : rsum 5 f = (f 0%nat + f 1%nat + f 2%nat + f 3%nat + f 4%nat)%R.
Proof. unfold rsum. simpl. ring. Qed.
Definition exB_w (u v : nat) : R :=
  match u, v with 0, 2 => 1 | 2, 0 => 1 | 1, 3 => 49 | 3, 1 => 49 | 3, 4 => 576 | 4, 3 => 576 | _, _ => 0 end%R.
Lemma exB_rw u v : u < 5 -> v < 5 -> rw exB u v = exB_w u v.
Proof. intros Hu Hv. destruct u as [|[|[|[|[|u]]]]], v as [|[|[|[|[|v]]]]]; try lia; reflexivity. Qed.
Definition exB_d (v : nat) : R := match v with 0 => 1 | 1 => 49 | 2 => 1 | 3 => 625 | _ => 576 end%R.
Definition exB_rt (v : nat) : R := match v with 0 => 1 | 1 => 7 | 2 => 1 | 3 => 25 | _ => 24 end%R.
Lemma exB_deg v : v < 5 -> rdeg exB v = exB_d v.
Proof.
  intros Hv. unfold rdeg. change (g_n exB) with 5. rewrite rsum5, !exB_rw by lia. destruct v as [|[|[|[|[|v]]]]]; try lia; cbn; lra.
Qed.
Lemma exB_sqrt v : sqrt (exB_d v) = exB_rt v.
Proof. apply sqrt_of; destruct v as [|[|[|[|v]]]]; cbn; lra. Qed.
Lemma exB_noloop v : v < 5 -> rw exB v v = 0%R.
Proof. intros Hv. rewrite exB_rw by auto. destruct v as [|[|[|[|[|v]]]]]; try lia; reflexivity. Qed.
Lemma exB_noiso v : v < 5 -> rdeg exB v <> 0%R.
Proof. intros Hv. rewrite exB_deg by auto. destruct v as [|[|[|[|v]]]]; cbn; lra. Qed.
Lemma exB_components : components exB 2 exB_comp.
Proof.
  split; [|split].
  - intros v _. destruct v as [|[|[|v]]]; cbn; lia.
  - intros [|[|c]] Hc; [exists 0|exists 1|lia]; (split; [vm_compute; lia|reflexivity]).
  - intros u v Hu Hv. change (u < 5) in Hu. change (v < 5) in Hv.
    assert (ST : forall a b, a < 5 -> b < 5 -> exB_w a b <> 0%R -> connected exB a b) by (intros a b Ha Hb N; apply step_edge; now rewrite exB_rw).
    assert (S02 : connected exB 0 2) by (apply ST; try lia; cbn; lra). assert (S20 : connected exB 2 0) by (apply ST; try lia; cbn; lra).
    assert (S13 : connected exB 1 3) by (apply ST; try lia; cbn; lra). assert (S31 : connected exB 3 1) by (apply ST; try lia; cbn; lra).
    assert (S34 : connected exB 3 4) by (apply ST; try lia; cbn; lra). assert (S43 : connected exB 4 3) by (apply ST; try lia; cbn; lra).
    split.
    + intros E. destruct u as [|[|[|[|[|u]]]]], v as [|[|[|[|[|v]]]]]; try lia; try discriminate E; try apply rt_refl; try assumption; eapply rt_trans; eassumption.
    + apply (connected_comp exB exB_comp exB_reachable). intros a b Ha Hb. change (a < 5) in Ha. change (b < 5) in Hb. rewrite exB_rw by auto.
      destruct a as [|[|[|[|[|a]]]]], b as [|[|[|[|[|b]]]]]; try lia; cbn; intros N; try reflexivity; exfalso; apply N; reflexivity.
Qed.
Definition exB_A (i j : nat) : R :=
  if i =? j then 1%R else match i, j with 0, 2 => 1 | 2, 0 => 1 | 1, 3 => 7 / 25 | 3, 1 => 7 / 25 | 3, 4 => 24 / 25 | 4, 3 => 24 / 25 | _, _ => 0 end%R.
Definition exB_E : list (R * list R) :=
  [(2%R, [s2; 0; s2; 0; 0]%R); (2%R, [0; 7 / 25 * s2; 0; s2; 24 / 25 * s2]%R); (1%R, [0; 24 / 25; 0; 0; - (7 / 25)]%R);
   (0%R, [s2; 0; - s2; 0; 0]%R); (0%R, [0; - (7 / 25 * s2); 0; s2; - (24 / 25 * s2)]%R)].
Lemma exB_system : eigen_system 5 exB_A exB_E.
Proof.
  pose proof s2_sq as Q. split; [reflexivity|]. split; [|split].
  - repeat constructor; intros [|[|[|[|[|i]]]]] Hi; try lia; unfold mulv; rewrite rsum5; unfold vx, exB_A; cbn [nth snd fst Nat.eqb]; field.
  - intros [|[|[|[|[|x]]]]] [|[|[|[|[|y]]]]] d Hx Hy; try lia; unfold dot; rewrite rsum5; unfold vx; cbn [nth snd exB_E Nat.eqb]; nra.
  - intros x i Hi. unfold exB_E. cbn [lsum]. unfold dot. rewrite !rsum5. unfold vx.
    destruct i as [|[|[|[|[|i]]]]]; [| | | | |lia]; cbn [nth snd].
    + transitivity (2 * x 0%nat * (s2 * s2))%R; [rewrite Q; field|ring].
    + transitivity (2 * (7 / 25) * (7 / 25 * x 1%nat + 24 / 25 * x 4%nat) * (s2 * s2) + 24 / 25 * (24 / 25 * x 1%nat - 7 / 25 * x 4%nat))%R; [rewrite Q; field|ring].
    + transitivity (2 * x 2%nat * (s2 * s2))%R; [rewrite Q; field|ring].
    + transitivity (2 * x 3%nat * (s2 * s2))%R; [rewrite Q; field|ring].
    + transitivity (2 * (24 / 25) * (7 / 25 * x 1%nat + 24 / 25 * x 4%nat) * (s2 * s2) - 7 / 25 * (24 / 25 * x 1%nat - 7 / 25 * x 4%nat))%R; [rewrite Q; field|ring].
Qed.
Definition exB_solver : eigen_solver (W := R) := table_solver 5 2 exB_A exB_E.
Lemma exB_solver_contract : solver_contract exB_solver.
Proof.
  apply table_contract.
  - intros [|[|[|[|[|i]]]]] [|[|[|[|[|j]]]]] Hi Hj; try lia; reflexivity.
  - exact exB_system.
  - unfold exB_E. cbn [map fst]. repeat (apply SSorted_cons || apply SSorted_nil || apply Forall_cons || apply Forall_nil);
      unfold decreasing_magnitude; rewrite ?Rabs_R0, ?Rabs_R1, ?(Rabs_right 2) by lra; lra.
Qed.
Lemma exB_runs : exists r, snd (compute_eigensystem exB_solver exB MatNormalisedLaplacian 2 Smallest) = Ok r.
Proof.
  apply (table_runs 5 2 exB_A exB_E exB exB_reachable eq_refl ltac:(lia)).
  intros i j Hij Hj. unfold matrix_of_graph. rewrite exB_rw, !exB_deg by lia.
  assert (S : forall a b, sqrt (exB_d a * exB_d b) = (exB_rt a * exB_rt b)%R).
  { intros a b. apply sqrt_of; destruct a as [|[|[|[|a]]]], b as [|[|[|[|b]]]]; cbn; lra. }
  rewrite S. destruct i as [|[|[|[|[|i]]]]], j as [|[|[|[|[|j]]]]]; try lia; cbn [exB_w exB_A exB_rt Nat.eqb]; destruct (Req_EM_T _ 0); lra.
Qed.

(** ** The run *)
Lemma second_draw_42 : snd (mt_draw (fst (mt_draw (mt_init 42)))) = 3421126067%Z.
Proof. vm_compute. reflexivity. Qed.
Section Run.
  (** Five points in the plane with the inner products of the embedding. *)
  Variable a b : nat -> R.
  Let pt i : list R := [a i; b i].
  Let X := map pt (seq 0 5).
  Hypothesis gram : forall i j, i < 5 -> j < 5 -> (a i * a j + b i * b j = if exB_comp i =? exB_comp j then exB_rt i * exB_rt j / (if exB_comp i =? 0 then 2 else 1250) else 0)%R.
  Variable bump : R -> R.
  Hypothesis bump1 : forall c, (1 <= c)%R -> bump c = c.
  Lemma X_nth i : i < 5 -> nth i X [] = pt i.
  Proof. intros Hi. unfold X. rewrite (nth_map_seq pt 5 i []) by auto. reflexivity. Qed.
  Lemma sqd2 x y : sqd 2 x y = ((vx x 0%nat - vx y 0%nat) ^ 2 + (vx x 1%nat - vx y 1%nat) ^ 2)%R.
  Proof. unfold sqd. apply rsum2. Qed.
  Lemma sqd_pts i j : sqd 2 (pt i) (pt j) = ((a i * a i + b i * b i) - 2 * (a i * a j + b i * b j) + (a j * a j + b j * b j))%R.
  Proof. rewrite sqd2. unfold vx, pt. cbn [nth]. ring. Qed.
  Lemma XD x : In x X -> length x = 2.
  Proof. intros Hx. unfold X in Hx. apply in_map_iff in Hx. destruct Hx as (i & <- & _). reflexivity. Qed.
  Lemma start_bad : snd (plusplus IZR unit_ofR truncR (mt_init 42) X 2) = Ok [pt 1; pt 3].
  Proof.
    unfold plusplus, randint. pose proof first_draw_42 as D0. pose proof second_draw_42 as D1.
    destruct (mt_draw (mt_init 42)) as [s y]. cbn [fst snd] in *. subst y. change (length X) with 5.
    assert (C : truncR (wmul (IZR (Z.of_nat 5)) (unit_ofR 1608637542)) = 1%Z).
    { unfold truncR, unit_ofR. cbn [wmul NumR]. change (Z.of_nat 5) with 5%Z. apply Int_part_unique. lra. }
    rewrite C. change (1 <? 0)%Z with false. cbv iota. change (Z.to_nat 1) with 1. change (nth_error X 1) with (Some (pt 1)). cbv iota.
    change (2 - 1) with 1. cbn [plusplus_loop]. unfold discrete_rand. destruct (mt_draw s) as [s1 y]. cbn [snd] in D1. subst y.
    assert (Em : map (fun x => sqdist x (pt 1)) X = map (fun i => sqd 2 (pt i) (pt 1)) (seq 0 5)).
    { unfold X. rewrite map_map. apply map_ext. intros i. apply sqdist_sqd; reflexivity. }
    rewrite Em. cbn [seq map].
    rewrite !sqd_pts. repeat rewrite gram by lia. cbn [exB_comp exB_rt Nat.eqb]. rewrite vsum_lsum. cbn [lsum].
    set (r := wmul _ _). assert (Er : (1.24 < r < 1.26)%R) by (unfold r, unit_ofR; cbn [wmul NumR]; lra). clearbody r.
    cbn [pick].
    repeat match goal with |- context [wleb ?x r] => let L := fresh "L" in
      (assert (L : wleb x r = true) by (apply (proj2 (toR_leb x r)); cbn [toR ExactR wadd NumR]; lra)) ||
      (assert (L : wleb x r = false) by (destruct (wleb x r) eqn:Q; auto; apply (proj1 (toR_leb x r)) in Q; cbn [toR ExactR wadd NumR] in Q; lra));
      rewrite L; clear L end.
    cbv iota. change (nth_error X 3) with (Some (pt 3)). cbv iota. reflexivity.
  Qed.
  Definition bad_labels : list nat := [0; 0; 0; 1; 1].
  (** Points 0, 1, 2 are nearer to the first centre, 3 and 4 to the second. *)
  Definition splits (C : list (list R)) : Prop := length C = 2 /\
    forall i, i < 5 -> if i <? 3 then (sqd 2 (pt i) (nth 0 C []) < sqd 2 (pt i) (nth 1 C []))%R
                       else (sqd 2 (pt i) (nth 1 C []) < sqd 2 (pt i) (nth 0 C []))%R.
  Lemma splits_labels C z : nearest 2 X C z -> splits C -> z = bad_labels.
  Proof.
    intros [Lz N] [LC S]. change (length X) with 5 in *.
    assert (G : forall i, i < 5 -> nth i z 0 = if i <? 3 then 0 else 1).
    { intros i Hi. destruct (N i Hi) as [Hl Hn]. rewrite LC in *. rewrite X_nth in Hn by auto. specialize (S i Hi).
      pose proof (Hn 0 ltac:(lia)) as [N0 _]. pose proof (Hn 1 ltac:(lia)) as [N1 _]. unfold centre in *.
      destruct (nth i z 0) as [|[|m]]; [| |lia]; destruct (i <? 3); auto; lra. }
    apply (nth_ext _ _ 0 0); [rewrite Lz; reflexivity|]. intros i Hi. rewrite Lz in Hi. rewrite G by exact Hi.
    destruct i as [|[|[|[|[|i]]]]]; try reflexivity. lia.
  Qed.
  Lemma splits_start : splits [pt 1; pt 3].
  Proof.
    split; [reflexivity|]. cbn [nth]. intros i Hi. rewrite !sqd_pts. rewrite !gram by lia.
    destruct i as [|[|[|[|[|i]]]]]; try lia; cbn [exB_comp exB_rt Nat.eqb Nat.ltb Nat.leb]; lra.
  Qed.
  Lemma splits_means C : means 2 2 X bad_labels C -> splits C.
  Proof.
    intros [LC M]. split; [exact LC|].
    assert (Sz0 : size_of X bad_labels 0 = 3%R) by (unfold size_of; change (length X) with 5; rewrite rsum5; cbn [nth bad_labels Nat.eqb]; lra).
    assert (Sz1 : size_of X bad_labels 1 = 2%R) by (unfold size_of; change (length X) with 5; rewrite rsum5; cbn [nth bad_labels Nat.eqb]; lra).
    assert (Su0 : forall d, sum_of X bad_labels 0 d = (vx (pt 0) d + vx (pt 1) d + vx (pt 2) d)%R).
    { intros d. unfold sum_of. change (length X) with 5. rewrite rsum5, !X_nth by lia. cbn [nth bad_labels Nat.eqb]. lra. }
    assert (Su1 : forall d, sum_of X bad_labels 1 d = (vx (pt 3) d + vx (pt 4) d)%R).
    { intros d. unfold sum_of. change (length X) with 5. rewrite rsum5, !X_nth by lia. cbn [nth bad_labels Nat.eqb]. lra. }
    assert (V0 : forall d, d < 2 -> vx (nth 0 C []) d = ((vx (pt 0) d + vx (pt 1) d + vx (pt 2) d) / 3)%R).
    { intros d Hd. destruct (M 0 d ltac:(lia) Hd) as [_ E]. rewrite E by lra. now rewrite Su0, Sz0. }
    assert (V1 : forall d, d < 2 -> vx (nth 1 C []) d = ((vx (pt 3) d + vx (pt 4) d) / 2)%R).
    { intros d Hd. destruct (M 1 d ltac:(lia) Hd) as [_ E]. rewrite E by lra. now rewrite Su1, Sz1. }
    assert (D0 : forall i, sqd 2 (pt i) (nth 0 C []) =
      ((a i * a i + b i * b i) - 2 / 3 * ((a i * a 0%nat + b i * b 0%nat) + (a i * a 1%nat + b i * b 1%nat) + (a i * a 2%nat + b i * b 2%nat)) +
       1 / 9 * ((a 0%nat * a 0%nat + b 0%nat * b 0%nat) + (a 1%nat * a 1%nat + b 1%nat * b 1%nat) + (a 2%nat * a 2%nat + b 2%nat * b 2%nat) +
                2 * (a 0%nat * a 1%nat + b 0%nat * b 1%nat) + 2 * (a 0%nat * a 2%nat + b 0%nat * b 2%nat) + 2 * (a 1%nat * a 2%nat + b 1%nat * b 2%nat)))%R).
    { intros i. rewrite sqd2, !V0 by lia. unfold vx, pt. cbn [nth]. field. }
    assert (D1 : forall i, sqd 2 (pt i) (nth 1 C []) =
      ((a i * a i + b i * b i) - ((a i * a 3%nat + b i * b 3%nat) + (a i * a 4%nat + b i * b 4%nat)) +
       1 / 4 * ((a 3%nat * a 3%nat + b 3%nat * b 3%nat) + (a 4%nat * a 4%nat + b 4%nat * b 4%nat) + 2 * (a 3%nat * a 4%nat + b 3%nat * b 4%nat)))%R).
    { intros i. rewrite sqd2, !V1 by lia. unfold vx, pt. cbn [nth]. field. }
    intros i Hi. rewrite D0, D1. rewrite !gram by lia.
    destruct i as [|[|[|[|[|i]]]]]; try lia; cbn [exB_comp exB_rt Nat.eqb Nat.ltb Nat.leb]; lra.
  Qed.
  Lemma run_bad niter out : (1 <= niter)%Z -> run_kmeans IZR unit_ofR truncR bump X 2 2 niter 42 = Ok out -> out = bad_labels.
  Proof.
    intros Hni. unfold run_kmeans. rewrite start_bad. replace (Z.to_nat niter) with (S (Z.to_nat niter - 1)) by lia. intros El.
    destruct (lloyd_trace bump bump1 2 2 X XD (Z.to_nat niter - 1) [pt 1; pt 3] _ _ out eq_refl (fun c Hc => ltac:(destruct Hc as [<-|[<-|[]]]; reflexivity)) El) as (T & C & lab & HT & Ho & HC0 & H1 & _).
    assert (G : forall t, t < T -> splits (C t)).
    { induction t as [|t IHt]; intros Ht; [rewrite HC0; apply splits_start|].
      destruct (H1 t ltac:(lia)) as [N M]. rewrite (splits_labels _ _ N (IHt ltac:(lia))) in M. now apply splits_means. }
    subst out. destruct (H1 (T - 1) ltac:(lia)) as [N _]. eapply splits_labels; [exact N|]. apply G. lia.
  Qed.
End Run.

Lemma exB_volumes c : comp_volume exB exB_comp c = if c =? 0 then 2%R else if c =? 1 then 1250%R else 0%R.
Proof.
  unfold comp_volume. change (number_of_vertices exB) with 5. rewrite rsum5, !exB_deg by lia.
  destruct c as [|[|c]]; cbn; lra.
Qed.
Theorem exB_labels bump : (forall c, (1 <= c)%R -> bump c = c) ->
  snd (spectral_cluster IZR unit_ofR truncR bump exB_solver exB 2) = Ok [0%Z; 0%Z; 0%Z; 1%Z; 1%Z].
Proof.
  intros Hb. destruct exB_runs as (r0 & Er).
  pose proof (spectral_cluster_spec bump Hb exB_solver exB 2 exB_solver_contract exB_reachable ltac:(vm_compute; split; congruence) ltac:(lia)) as P.
  pose proof (spectral_cluster_labels IZR unit_ofR truncR bump exB_solver exB 2 5 eq_refl ltac:(vm_compute; split; congruence) (first_choice 5 ltac:(lia))) as P2.
  destruct (snd (spectral_cluster IZR unit_ofR truncR bump exB_solver exB 2)) as [labels|e|] eqn:E; [|rewrite Er in P2; discriminate|destruct P].
  destruct (spectral_cluster_steps bump exB_solver exB 2 labels exB_solver_contract exB_reachable ltac:(lia) ltac:(vm_compute; lia) ltac:(lia) E)
    as (r & out & HL & Lr & HK & ->). f_equal. change [0%Z; 0%Z; 0%Z; 1%Z; 1%Z] with (map Z.of_nat bad_labels). f_equal.
  pose proof (fun u v => leading_gram exB 2 exB_comp exB_reachable exB_noloop exB_noiso exB_components r u v HL) as G.
  change (number_of_vertices exB) with 5 in *.
  destruct r as [|p [|q [|]]]; try discriminate.
  apply (run_bad (fun i => nth i (snd p) w0) (fun i => nth i (snd q) w0)) with (bump := bump) (niter := (Z.of_nat 2 * 100)%Z); auto; [|lia].
  intros i j Hi Hj. specialize (G i j Hi Hj). unfold row_product in G. cbn [map lsum] in G. rewrite !exB_deg, !exB_sqrt, exB_volumes in G by auto.
  unfold vx in G. cbn [w0 NumR]. rewrite <- (Rplus_0_r (nth i (snd q) 0 * nth j (snd q) 0)%R), <- Rplus_assoc. rewrite Rplus_assoc, G.
  destruct i as [|[|[|[|[|i]]]]]; try lia; reflexivity.
Qed.
