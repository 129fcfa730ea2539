(** C79: sweep sets, conductance and the set returned by local clustering, in double arithmetic. *)
From Verif Require Import Base Num RSum Sparse SparseFacts Graph GraphSpec GraphFacts GraphProps1 Cluster ClusterSpec Ppr FloatFacts GraphFloat PageRankFloat PageRankFloat2 SweepFloat SweepFloat2.
From Coq Require Import ZArith Reals Lra Lia SpecFloat Sorting.Sorted Permutation.
From Flocq Require Import Core BinarySingleNaN.
Local Open Scope R_scope.

(** Vocabulary: [fw g] are the weights, [fdeg g] the exact degrees, [fvol g] their sum; for a list S of distinct vertices
    [fvolS g S] is the exact sum of the degrees in S, [fcut g S] the exact weight between S and its complement,
    [fgden g S] = min(vol S, vol V - vol S) and [fgcond g S] = cut / that; [rnd64] is rounding to nearest double, [u64] = 2^-53;
    [fbefore f i j]: f j < f i, or f j = f i and i < j. *)

(** Sweep set of a graph with integer weights and total volume at most 2^53, for a vector of finite doubles: the entries are
    considered in decreasing order (ties by index), and the prefix returned has the least conductance after one rounding, the
    shortest one if several have.  Without the rounding its conductance is within a factor (1+2^-53)/(1-2^-53) of the best. *)
Theorem C79_sweep_set :
  forall g : graph f64, reachable g -> int_weights g -> fvol g <= two53 ->
  forall x : sprs f64, vwf x -> (forall k, In k (vkeys x) -> (k < number_of_vertices g)%nat /\ dbl (vget x k)) ->
  exists order k, Permutation (vkeys x) order /\ StronglySorted (fbefore (fv x)) order /\
    sweep_set_graph g x = Ok (firstn k order) /\ (k <= length order)%nat /\
    (forall j, (1 <= j <= length order)%nat -> 0 < fgden g (firstn j order) ->
      (1 <= k)%nat /\ 0 < fgden g (firstn k order) /\
      rnd64 (fgcond g (firstn k order)) <= rnd64 (fgcond g (firstn j order)) /\
      ((j < k)%nat -> rnd64 (fgcond g (firstn k order)) < rnd64 (fgcond g (firstn j order))) /\
      fgcond g (firstn k order) * (1 - u64) <= fgcond g (firstn j order) * (1 + u64)) /\
    ((forall j, (1 <= j <= length order)%nat -> ~ 0 < fgden g (firstn j order)) -> k = 0%nat).
Proof. exact sweep_graph_float. Qed.
Print Assumptions C79_sweep_set.

(** The same for the sweep without a total volume, which compares cut(S)/vol(S). *)
Theorem C79_local_sweep_set :
  forall g : graph f64, reachable g -> int_weights g -> fvol g <= two53 ->
  forall x : sprs f64, vwf x -> (forall k, In k (vkeys x) -> (k < number_of_vertices g)%nat /\ dbl (vget x k)) ->
  exists order k, Permutation (vkeys x) order /\ StronglySorted (fbefore (fv x)) order /\
    sweep_set_local (lg_of_graph g) x = Ok (firstn k order) /\ (k <= length order)%nat /\
    (forall j, (1 <= j <= length order)%nat -> 0 < fvolS g (firstn j order) ->
      (1 <= k)%nat /\ 0 < fvolS g (firstn k order) /\
      rnd64 (fcut g (firstn k order) / fvolS g (firstn k order)) <= rnd64 (fcut g (firstn j order) / fvolS g (firstn j order)) /\
      ((j < k)%nat -> rnd64 (fcut g (firstn k order) / fvolS g (firstn k order)) < rnd64 (fcut g (firstn j order) / fvolS g (firstn j order))) /\
      fcut g (firstn k order) / fvolS g (firstn k order) * (1 - u64) <= fcut g (firstn j order) / fvolS g (firstn j order) * (1 + u64)) /\
    ((forall j, (1 <= j <= length order)%nat -> ~ 0 < fvolS g (firstn j order)) -> k = 0%nat).
Proof. exact sweep_local_float. Qed.
Print Assumptions C79_local_sweep_set.

(** conductance(g, S) for distinct vertices: the quotient of the exact cut and the exact sum of incident weights (a self-loop
    counted once), correctly rounded, hence within a relative error of 2^-53; 0 if that sum is 0. *)
Theorem C79_conductance :
  forall g : graph f64, reachable g -> int_weights g -> fvol g <= two53 ->
  forall S, NoDup S -> (forall v, In v S -> (v < number_of_vertices g)%nat) ->
  exists c, conductance (lg_of_graph g) (map Z.of_nat S) = Ok c /\ dbl c /\
    let vol := lsum (fun u => rsum (number_of_vertices g) (fw g u)) S in
    (vol = 0 -> f2r c = 0) /\
    (vol <> 0 -> f2r c = rnd64 (fcut g S / vol) /\ Rabs (f2r c - fcut g S / vol) <= u64 * (fcut g S / vol)).
Proof. exact conductance_float. Qed.
Print Assumptions C79_conductance.

(** local_cluster_acl: the best prefix, as above, of the vertices of the approximate PageRank vector p in decreasing order of the double p(v)/deg(v). *)
Theorem C79_local_cluster_acl :
  forall g : graph f64, reachable g -> int_weights g -> no_stored_zero g -> fvol g <= two53 -> (forall v, fw g v v = 0) ->
  forall fuel seed (alpha eps : f64) p r, (seed < number_of_vertices g)%nat -> dbl alpha -> dbl eps ->
  0 < f2r alpha <= 1 -> 0 < f2r eps <= bpow radix2 100 -> 80 * u64 <= f2r alpha * f2r eps ->
  approximate_pagerank fuel (lg_of_graph g) (vset (sp_empty (S seed) 1) seed w1) alpha eps = Some (Ok (p, r)) ->
  exists order k, Permutation (vkeys p) order /\
    StronglySorted (fbefore (fun v => rnd64 (fv p v / fdeg g v))) order /\
    local_cluster_acl fuel (lg_of_graph g) (Z.of_nat seed) alpha eps = Some (Ok (firstn k order)) /\
    (k <= length order)%nat /\ (order <> [] -> (1 <= k)%nat) /\
    forall j, (1 <= j <= length order)%nat ->
      0 < fvolS g (firstn j order) /\
      rnd64 (fcut g (firstn k order) / fvolS g (firstn k order)) <= rnd64 (fcut g (firstn j order) / fvolS g (firstn j order)) /\
      ((j < k)%nat -> rnd64 (fcut g (firstn k order) / fvolS g (firstn k order)) < rnd64 (fcut g (firstn j order) / fvolS g (firstn j order))) /\
      fcut g (firstn k order) / fvolS g (firstn k order) * (1 - u64) <= fcut g (firstn j order) / fvolS g (firstn j order) * (1 + u64).
Proof. exact local_acl_float. Qed.
Print Assumptions C79_local_cluster_acl.

(** The bound on the volume is needed: with weights 8, 1 and 2^53
    (each of them an exact double) the set returned has conductance 1/5, while the prefix of its first two vertices has 1/17. *)
Definition en (i : nat) (z : Z) : nat * Z := (i, z).
Definition exL_c : list (list (nat * Z)) :=
  [[en 1 8]; [en 0 8; en 7 1]; [en 3 9007199254740992]; [en 2 9007199254740992; en 4 1; en 5 1; en 6 1]; [en 3 1]; [en 3 1]; [en 3 1]; [en 1 1]; [en 9 8]; [en 8 8]].
Definition exL : graph f64 := zG exL_c.
Definition exL_x : sprs f64 := mkSprs 4 [[(0%nat, zf 4); (1%nat, zf 3); (2%nat, zf 2); (3%nat, zf 1)]].
Lemma exL_reachable : reachable exL.
Proof. exists (zM exL_c), exL, []. split; [unfold sp_wf; vm_compute; repeat (constructor; try lia)|]. split; [vm_compute; reflexivity|]. split; [constructor|reflexivity]. Qed.
Theorem C79_large_volume_refuted :
  exists (g : graph f64) (x : sprs f64), reachable g /\ int_weights g /\ no_stored_zero g /\ (forall v, fw g v v = 0) /\
  vwf x /\ StronglySorted (fbefore (fv x)) [0; 1; 2; 3]%nat /\ vkeys x = [0; 1; 2; 3]%nat /\
  sweep_set_graph g x = Ok [0; 1; 2; 3]%nat /\ fgcond g [0; 1; 2; 3]%nat = / 5 /\ fgcond g [0; 1]%nat = / 17.
Proof.
  exists exL, exL_x. assert (K : zok exL_c = true) by (vm_compute; reflexivity). destruct (zG_int exL_c K) as [I Z].
  split; [apply exL_reachable|]. split; [exact I|]. split; [exact Z|]. split.
  { intros v. unfold exL. rewrite zG_fw by auto. unfold exL_c, zw. do 10 (destruct v as [|v]; [reflexivity|]). destruct v; reflexivity. }
  split; [split; [reflexivity|]; unfold sp_wf; vm_compute; repeat (constructor; try lia)|].
  assert (F : fv exL_x 0 = 4 /\ fv exL_x 1 = 3 /\ fv exL_x 2 = 2 /\ fv exL_x 3 = 1).
  { repeat split; apply (zf_spec _); unfold small_int; lia. }
  destruct F as (F0 & F1 & F2 & F3). split.
  { repeat (apply SSorted_cons || apply Forall_cons || apply Forall_nil || apply SSorted_nil); unfold fbefore; rewrite ?F0, ?F1, ?F2, ?F3; left; lra. }
  split; [reflexivity|]. split; [vm_compute; reflexivity|].
  unfold fgcond, fgden, exL. rewrite !zG_fvolS, !zG_fcut, zG_fvol by auto.
  split.
  - match goal with |- IZR ?a / Rmin (IZR ?b) (IZR ?c - _) = _ => let a' := eval vm_compute in a in let b' := eval vm_compute in b in let c' := eval vm_compute in c in
      change a with a'; change b with b'; change c with c' end.
    unfold Rmin. destruct (Rle_dec _ _); lra.
  - match goal with |- IZR ?a / Rmin (IZR ?b) (IZR ?c - _) = _ => let a' := eval vm_compute in a in let b' := eval vm_compute in b in let c' := eval vm_compute in c in
      change a with a'; change b with b'; change c with c' end.
    unfold Rmin. destruct (Rle_dec _ _); lra.
Qed.
Print Assumptions C79_large_volume_refuted.

(** The hypotheses are met: a path of weights 8, 1, 4 with a self-loop of weight 2 on vertex 1, and a vector with a tie. *)
Definition exM_c : list (list (nat * Z)) := [[en 1 8]; [en 0 8; en 1 2; en 2 1]; [en 1 1; en 3 4]; [en 2 4]].
Definition exM : graph f64 := zG exM_c.
Definition exM_x : sprs f64 := mkSprs 4 [[(0%nat, zf 2); (1%nat, zf 5); (2%nat, zf 2)]].
Lemma exM_reachable : reachable exM.
Proof. exists (zM exM_c), exM, []. split; [unfold sp_wf; vm_compute; repeat (constructor; try lia)|]. split; [vm_compute; reflexivity|]. split; [constructor|reflexivity]. Qed.
Definition exP_c : list (list (nat * Z)) := [[en 1 8]; [en 0 8; en 2 1]; [en 1 1; en 3 4]; [en 2 4]].
Definition f_8th : f64 := S754_finite false 4503599627370496 (-55).
Example C79_hypotheses_met :
  reachable exM /\ int_weights exM /\ fvol exM <= two53 /\ vwf exM_x /\
  (forall k, In k (vkeys exM_x) -> (k < number_of_vertices exM)%nat /\ dbl (vget exM_x k)) /\
  sweep_set_graph exM exM_x = Ok [1; 0]%nat /\ fgcond exM [1; 0]%nat = / 9 /\
  (exists c, conductance (lg_of_graph exM) [1; 0]%Z = Ok c /\ f2r c = rnd64 (1 / 19)) /\
  (exists p r, approximate_pagerank 100 (lg_of_graph (zG exP_c)) (vset (sp_empty 1 1) 0%nat w1) f_8th f_8th = Some (Ok (p, r)) /\ vkeys p = [0%nat]) /\
  (forall v, fw (zG exP_c) v v = 0) /\ fvol (zG exP_c) <= two53.
Proof.
  assert (K : zok exM_c = true) by (vm_compute; reflexivity). assert (K' : zok exP_c = true) by (vm_compute; reflexivity).
  destruct (zG_int exM_c K) as [I Z].
  assert (V : fvol exM <= two53).
  { unfold exM. rewrite zG_fvol by auto. match goal with |- IZR ?a <= _ => let a' := eval vm_compute in a in change a with a' end.
    unfold two53. rewrite <- B53. apply IZR_le. lia. }
  split; [apply exM_reachable|]. split; [exact I|]. split; [exact V|].
  split; [split; [reflexivity|]; unfold sp_wf; vm_compute; repeat (constructor; try lia)|]. split.
  { intros k [<-|[<-|[<-|[]]]]; (split; [vm_compute; lia|split; vm_compute; reflexivity]). }
  split; [vm_compute; reflexivity|]. split.
  { unfold fgcond, fgden, exM. rewrite !zG_fvolS, !zG_fcut, zG_fvol by auto.
    match goal with |- IZR ?a / Rmin (IZR ?b) (IZR ?c - _) = _ => let a' := eval vm_compute in a in let b' := eval vm_compute in b in let c' := eval vm_compute in c in
      change a with a'; change b with b'; change c with c' end.
    unfold Rmin. destruct (Rle_dec _ _); lra. }
  split.
  { destruct (conductance_float exM exM_reachable I V [1; 0]%nat) as (c & E & _ & _ & H2).
    { repeat constructor; simpl; intuition discriminate. }
    { intros v [<-|[<-|[]]]; vm_compute; lia. }
    exists c. split; [exact E|]. assert (F : fincS exM [1; 0]%nat = 19).
    { unfold fincS. change (number_of_vertices exM) with 4%nat. unfold exM. unfold rsum. cbn [seq lsum]. rewrite !zG_fw by auto. vm_compute. lra. }
    rewrite F in H2. assert (C : fcut exM [1; 0]%nat = 1) by (unfold exM; rewrite zG_fcut by auto; vm_compute; lra). rewrite C in H2. apply H2. lra. }
  split.
  { destruct (approximate_pagerank 100 (lg_of_graph (zG exP_c)) (vset (sp_empty 1 1) 0%nat w1) f_8th f_8th) as [[[p r]| |]|] eqn:E;
      [|vm_compute in E; discriminate|vm_compute in E; discriminate|vm_compute in E; discriminate].
    exists p, r. split; [reflexivity|]. vm_compute in E. injection E as <- <-. vm_compute. reflexivity. }
  split.
  - intros v. rewrite zG_fw by auto. unfold exP_c, zw. do 4 (destruct v as [|v]; [reflexivity|]). destruct v; reflexivity.
  - rewrite zG_fvol by auto. match goal with |- IZR ?a <= _ => let a' := eval vm_compute in a in change a with a' end.
    unfold two53. rewrite <- B53. apply IZR_le. lia.
Qed.
