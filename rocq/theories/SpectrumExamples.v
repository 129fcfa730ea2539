(** A concrete eigensolver, for two by two matrices with equal diagonal entries, meeting the contract. *)
From Verif Require Import Base Num RSum Sparse SparseFacts Graph GraphSpec GraphFacts GraphProps1 GraphProps2 GraphProps3 GraphProps4 GraphExamples Spectrum SpectrumSpec SpectrumFacts SpectrumPower.
From Coq Require Import Reals Lra Psatz Sorting.Sorted.
Local Open Scope nat_scope.

Definition s2 : R := (/ sqrt 2)%R.
Lemma s2_sq : (s2 * s2 = / 2)%R.
Proof. unfold s2. rewrite <- Rinv_mult, sqrt_sqrt by lra. reflexivity. Qed.
Definition pair_plus (a b : R) : R * list R := ((a + b)%R, [s2; s2]).
Definition pair_minus (a b : R) : R * list R := ((a - b)%R, [s2; (- s2)%R]).
Definition solver2 : eigen_solver (W := R) := fun M num _ =>
  if Nat.eqb (sp_rows M) 2 && Z.eqb num 1 then
    if Req_EM_T (coeff M 0 0) (coeff M 1 1) then
      let a := coeff M 0 0 in let b := coeff M 0 1 in
      Some [if Rle_dec (Rabs (a - b)) (Rabs (a + b)) then pair_plus a b else pair_minus a b]
    else None
  else None.

Lemma rsum2 f : rsum 2 f = (f 0%nat + f 1%nat)%R.
Proof. unfold rsum. simpl. ring. Qed.
Definition m2 (a b : R) (i j : nat) : R := if i =? j then a else b.
Lemma system2 a b (E : list (R * list R)) :
  E = [pair_plus a b; pair_minus a b] \/ E = [pair_minus a b; pair_plus a b] -> eigen_system 2 (m2 a b) E.
Proof.
  intros HE. pose proof s2_sq as Q.
  assert (P1 : length (snd (pair_plus a b)) = 2 /\ eigenpair 2 (m2 a b) (fst (pair_plus a b)) (vx (snd (pair_plus a b)))).
  { split; [reflexivity|]. intros [|[|i]] Hi; [| |lia]; unfold mulv; rewrite rsum2; unfold vx, m2; simpl; ring. }
  assert (P2 : length (snd (pair_minus a b)) = 2 /\ eigenpair 2 (m2 a b) (fst (pair_minus a b)) (vx (snd (pair_minus a b)))).
  { split; [reflexivity|]. intros [|[|i]] Hi; [| |lia]; unfold mulv; rewrite rsum2; unfold vx, m2; simpl; ring. }
  split; [destruct HE as [-> | ->]; reflexivity|]. split; [|split].
  - destruct HE as [-> | ->]; repeat constructor; apply P1 || apply P2.
  - intros [|[|x]] [|[|y]] d Hx Hy; try lia; destruct HE as [-> | ->]; unfold dot; rewrite rsum2; unfold vx; cbn [nth snd pair_plus pair_minus Nat.eqb]; fold s2; lra.
  - intros x [|[|i]] Hi; [| |lia]; destruct HE as [-> | ->]; cbn [lsum]; unfold dot; rewrite !rsum2; unfold vx; cbn [nth snd pair_plus pair_minus]; match goal with |- ?l = _ => transitivity (2 * l * (s2 * s2))%R; [rewrite Q; field|ring] end.
Qed.
Lemma solver2_contract : solver_contract solver2.
Proof.
  intros M n num ncv r (Rr & Cc & Wf) Hnum. unfold solver2. rewrite Rr.
  destruct (Nat.eqb_spec n 2) as [->|]; [|discriminate]. destruct (Z.eqb_spec num 1) as [->|]; [|discriminate]. cbn [andb].
  destruct (Req_EM_T (coeff M 0 0) (coeff M 1 1)) as [Ed|]; [|discriminate].
  set (a := coeff M 0 0) in *. set (b := coeff M 0 1). cbv zeta.
  assert (EM : forall i j, i < 2 -> j < 2 -> upper_sym M i j = m2 a b i j).
  { intros [|[|i]] [|[|j]] Hi Hj; try lia; unfold upper_sym, m2; simpl; auto. }
  intros [= <-]. destruct (Rle_dec (Rabs (a - b)) (Rabs (a + b))) as [L|L].
  - exists [pair_plus a b; pair_minus a b]. split; [|split; [|reflexivity]].
    + apply (eigen_system_ext 2 (m2 a b)); auto. apply system2. now left.
    + constructor; [repeat constructor|]. constructor; [exact L|constructor].
  - exists [pair_minus a b; pair_plus a b]. split; [|split; [|reflexivity]].
    + apply (eigen_system_ext 2 (m2 a b)); auto. apply system2. now right.
    + constructor; [repeat constructor|]. constructor; [unfold decreasing_magnitude; simpl; lra|constructor].
Qed.
Lemma exR_pos : forall v, v < 2 -> rw exR v v = 0%R.
Proof. intros [|[|v]] Hv; [reflexivity|reflexivity|lia]. Qed.
(** The call on the edge of weight 4 succeeds. *)
Lemma exR_eigen_runs which : exists r, snd (compute_eigensystem solver2 exR MatAdjacency 1 which) = Ok r.
Proof.
  pose proof (reachable_pos_reachable _ exR_reachable) as Hr. destruct (reachable_ok exR Hr) as [Hsq Hc].
  unfold compute_eigensystem.
  change (number_of_vertices exR) with 2. cbn [Z.ltb Z.leb Z.of_nat orb Z.compare Pos.compare Pos.compare_cont Pos.of_succ_nat Pos.succ].
  change (Z.of_nat 2 <=? 1)%Z with false. cbv iota.
  destruct (max_degree_spec exR (seq 0 2) Hr (fun v Hv => proj2 (proj1 (in_seq _ _ _) Hv)) exR w0 Hc (same_base_refl exR))
    as (g1 & d & E & C1 & S1 & _). rewrite E.
  assert (Ea : g_adj g1 = g_adj exR) by (destruct S1 as (_ & <- & _); reflexivity).
  assert (D : forall s, (s = g_adj exR \/ s = sp_map wopp (g_adj exR)) -> forall off inv, exists r, largestmag solver2 (shift_diag 2 s d) 1 off inv = Ok r).
  { intros s Hs off inv. assert (Ss : sp_square s 2) by (destruct Hs as [-> | ->]; [exact Hsq|now apply sp_map_square]).
    pose proof (shift_diag_square 2 s d Ss) as (R1 & _ & _).
    unfold largestmag. rewrite R1. cbn [Z.ltb Z.leb Z.of_nat orb Z.compare Pos.compare Pos.compare_cont Pos.of_succ_nat Pos.succ].
    unfold solver2. rewrite R1. cbn [Nat.eqb Z.eqb andb Pos.eqb].
    destruct (Req_EM_T (coeff (shift_diag 2 s d) 0 0) (coeff (shift_diag 2 s d) 1 1)) as [Eq|N]; [eexists; reflexivity|].
    exfalso. apply N. rewrite !shift_diag_coeff by (auto; lia). f_equal. destruct Hs as [-> | ->]; reflexivity. }
  destruct which; cbn [snd]; rewrite Ea; apply D; auto.
Qed.
