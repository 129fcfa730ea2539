(** Concrete objects used in the non-vacuity examples and in the refutations. *)
From Verif Require Import Base Num RSum Sparse SparseFacts Graph GraphSpec GraphFacts GraphProps1 GraphProps2 GraphProps4.
From Coq Require Import QArith Qcanon Reals Lra SpecFloat.
Local Close Scope Q_scope. Local Close Scope Qc_scope. Local Open Scope nat_scope.

Definition qc (a : Z) (b : positive) : Qc := Q2Qc (a # b).
(** Three vertices, edges {0,1} of weight 2 and {1,2} of weight 1/2, a self-loop of weight 3 at 2. *)
Definition exM : sprs Qc :=
  mkSprs 3 [[(1, qc 2 1)]; [(0, qc 2 1); (2, qc 1 2)]; [(1, qc 1 2); (2, qc 3 1)]].
Definition exG : graph Qc := fresh_graph exM.
Definition exOps : list (gop Qc) :=
  [OpMat QLap; OpAdd 0 3 (qc 5 1); OpDegree 3; OpMat QLrw; OpRemove 1 2; OpVolume].
Definition exG2 : graph Qc := match grun exG exOps with Some g => g | None => exG end.

Lemma exM_square : sp_square exM 3.
Proof. split; [reflexivity|]. split; [reflexivity|]. apply sp_wfb_iff. reflexivity. Qed.
Lemma exG_ok : make_graph exM = Ok exG.
Proof. vm_compute. reflexivity. Qed.
Lemma exG_reachable : reachable_pos exG.
Proof. exists exM, exG, []. repeat split; auto. apply exM_square. Qed.
Lemma exG2_runs : match grun exG exOps with Some _ => true | None => false end = true.
Proof. vm_compute. reflexivity. Qed.
Lemma exG2_reachable : reachable_pos exG2.
Proof.
  exists exM, exG, exOps. split; [apply exM_square|]. split; [apply exG_ok|].
  split; [repeat constructor|]. unfold exG2. pose proof exG2_runs as E.
  destruct (grun exG exOps); [reflexivity|discriminate].
Qed.
Lemma exG_above : weights_above_eps exG.
Proof. eapply (constructed_above_eps exM exG); [apply exM_square|apply exG_ok]. Qed.

(** Two isolated vertices. *)
Definition exIso : graph Qc := fresh_graph (sp_empty 2 2).
Lemma exIso_ok : make_graph (sp_empty 2 2 : sprs Qc) = Ok exIso.
Proof. reflexivity. Qed.
Lemma exIso_reachable : reachable_pos exIso.
Proof. exists (sp_empty 2 2), exIso, []. repeat split; auto. apply sp_empty_wf. Qed.

(** The single edge {0,1} of weight 1. *)
Definition exE : graph Qc := fresh_graph (mkSprs 2 [[(1, qc 1 1)]; [(0, qc 1 1)]]).
Lemma exE_wf : sp_wf (mkSprs 2 [[(1, qc 1 1)]; [(0, qc 1 1)]]).
Proof. apply sp_wfb_iff. reflexivity. Qed.
Lemma exE_ok : make_graph (mkSprs 2 [[(1, qc 1 1)]; [(0, qc 1 1)]]) = Ok exE.
Proof. vm_compute. reflexivity. Qed.
Lemma exE_reachable : reachable_pos exE.
Proof. exists (mkSprs 2 [[(1, qc 1 1)]; [(0, qc 1 1)]]), exE, []. repeat split; auto. apply exE_wf. Qed.

(** The path 0 -0.7- 1 -0.1- 2 in IEEE doubles. *)
Definition f07 : f64 := S754_finite false 6305039478318694 (-53).
Definition f01 : f64 := S754_finite false 7205759403792794 (-56).
Definition exF_M : sprs f64 := mkSprs 3 [[(1, f07)]; [(0, f07); (2, f01)]; [(1, f01)]].
Definition exF : graph f64 := fresh_graph exF_M.
Lemma exF_wf : sp_wf exF_M.
Proof. apply sp_wfb_iff. reflexivity. Qed.
Lemma exF_ok : make_graph exF_M = Ok exF.
Proof. vm_compute. reflexivity. Qed.
Lemma exF_reachable : reachable_pos exF.
Proof. exists exF_M, exF, []. repeat split; auto. apply exF_wf. Qed.

(** A graph of doubles with an isolated vertex. *)
Definition exF0 : graph f64 := fresh_graph (sp_empty 1 1).
Lemma exF0_reachable : reachable_pos exF0.
Proof. exists (sp_empty 1 1), exF0, []. repeat split; auto. apply sp_empty_wf. Qed.

(** Real graph: edge {0,1} of weight 4. *)
Definition exR_M : sprs R := mkSprs 2 [[(1, 4%R)]; [(0, 4%R)]].
Definition exR : graph R := fresh_graph exR_M.
Lemma exR_wf : sp_square exR_M 2.
Proof. split; [reflexivity|]. split; [reflexivity|]. apply sp_wfb_iff. reflexivity. Qed.
Lemma exR_reachable : reachable_pos exR.
Proof.
  destruct (make_graph_from_adjacency exR_M 2) as (g & E & _ & Eg & _).
  - apply exR_wf.
  - intros i j v. unfold exR_M, sp_get, sp_col. simpl.
    assert (R_ltb 4 0 = false) as E4 by (unfold R_ltb; destruct (Rlt_dec 4 0); [lra|reflexivity]).
    destruct j as [|[|[|j]]]; simpl; try discriminate.
    + destruct i as [|[|i]]; simpl; try discriminate. intros [= <-]. exact E4.
    + destruct i as [|[|i]]; simpl; try discriminate. intros [= <-]. exact E4.
  - intros i j. unfold coeff, sp_get, sp_col, exR_M. simpl.
    destruct i as [|[|[|i]]], j as [|[|[|j]]]; reflexivity.
  - assert (g = exR) as ->.
    { rewrite Eg. unfold exR. f_equal. apply prune_all; [|apply exR_wf].
      intros i j v. unfold exR_M, sp_get, sp_col. simpl.
      assert (R_ltb (/ 10000000000) 4 = true) as E4.
      { unfold R_ltb. destruct (Rlt_dec (/ 10000000000) 4) as [|Hn]; [reflexivity|]. exfalso. apply Hn. lra. }
      destruct j as [|[|[|j]]]; simpl; try discriminate.
      + destruct i as [|[|i]]; simpl; try discriminate. intros [= <-]. exact E4.
      + destruct i as [|[|i]]; simpl; try discriminate. intros [= <-]. exact E4. }
    exists exR_M, exR, []. repeat split; auto. apply exR_wf.
Qed.
Lemma exR_deg v : v < 2 -> rdeg exR v = 4%R.
Proof.
  intros Hv. unfold rdeg, rsum, rw, weight, coeff, sp_get, sp_col. simpl.
  destruct v as [|[|v]]; simpl; [lra|lra|lia].
Qed.
(** The result is a graph in which [i],[j] have weight [q]. *)
Definition has_weight (o : outcome (graph Qc)) i j q : bool :=
  match o with Ok k => weqb (weight k i j) q | _ => false end.
Definition has_vertices (o : outcome (graph Qc)) n : bool :=
  match o with Ok k => number_of_vertices k =? n | _ => false end.
