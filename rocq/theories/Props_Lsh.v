(** Theorems C65, C66: collision probabilities of the Euclidean locality-sensitive hash functions (stag_lib/lsh.cpp:60-101, 209-217) and the
    hash-table parameters the CKNS estimator derives from them (stag_lib/kde.cpp:142-155). *)
From Coq Require Import Reals Lra Lia ZArith List.
From Coquelicot Require Import Coquelicot.
From Verif Require Import LshProb LshProbFacts LshProbTop LshOffset LshParams LshParamsFacts Base Num RSum Kde KdeFacts3.
Import ListNotations.
Local Open Scope R_scope.
Ltac asR := match goal with |- ?a = ?b => change (@eq R a b) end.

(** ** C65 *)
(** The documentation's integral (lsh.h:97-105, with the density of |N(0,1)|) and its closed form (lsh.h:107-109) are the same number. *)
Theorem C65_documented_formulas_agree :
  forall c : R, 0 < c ->
  RInt (fun t => / c * (2 / sqrt (2 * PI) * exp (- (t / c) ^ 2 / 2)) * (1 - t / 4)) 0 4 =
  - (1 / (2 * sqrt (2 * PI)) * (c * exp (- (8 / c ^ 2))) * (exp (8 / c ^ 2) - 1)) + erf (2 * sqrt 2 / c).
Proof.
  intros c Hc. pose proof (true_collision_closed c Hc) as T. unfold true_collision, closed_form in T.
  replace (c ^ 2) with (c * c) by ring. rewrite <- T. apply RInt_ext. intros x _. unfold half_normal_density.
  replace (- (x / c) ^ 2 / 2) with (- (x / c * (x / c)) / 2) by (cbn [pow]; unfold Rdiv; ring).
  unfold Rdiv; asR; ring.
Qed.
Print Assumptions C65_documented_formulas_agree.

(** collision_probability(c) is within 1/1000 of that probability for every distance c > 0, and within 1/100000 if c >= 1. *)
Theorem C65_accuracy :
  forall c : R, 0 < c ->
  let p := RInt (fun t => / c * (2 / sqrt (2 * PI) * exp (- (t / c) ^ 2 / 2)) * (1 - t / 4)) 0 4 in
  Rabs (lsh_collision c - p) <= / 1000 /\ (1 <= c -> Rabs (lsh_collision c - p) <= / 100000).
Proof.
  intros c Hc p.
  assert (p = true_collision c) as ->.
  { apply RInt_ext. intros x _. unfold half_normal_density.
    replace (- (x / c) ^ 2 / 2) with (- (x / c * (x / c)) / 2) by (cbn [pow]; unfold Rdiv; ring). unfold Rdiv; asR; ring. }
  split; [|apply lsh_accurate_large].
  destruct (Rlt_le_dec c 1) as [L|L]; [apply lsh_accurate_small; lra|]. pose proof (lsh_accurate_large c L). lra.
Qed.
Print Assumptions C65_accuracy.

(** The documentation calls f "the probability density function of the Gaussian distribution". With that density the integral is half the
    probability: the value differs from the code's at every distance c >= 1 by p(c)/2, and at small distances by almost 1/2. *)
Theorem C65_documented_density_refuted :
  (forall c : R, 0 < c ->
   RInt (fun t => / c * (1 / sqrt (2 * PI) * exp (- (t / c) ^ 2 / 2)) * (1 - t / 4)) 0 4 =
   / 2 * RInt (fun t => / c * (2 / sqrt (2 * PI) * exp (- (t / c) ^ 2 / 2)) * (1 - t / 4)) 0 4) /\
  3 / 10 < lsh_collision 1 - RInt (fun t => / 1 * (1 / sqrt (2 * PI) * exp (- (t / 1) ^ 2 / 2)) * (1 - t / 4)) 0 4.
Proof.
  assert (forall c : R, 0 < c ->
   RInt (fun t => / c * (1 / sqrt (2 * PI) * exp (- (t / c) ^ 2 / 2)) * (1 - t / 4)) 0 4 =
   / 2 * RInt (fun t => / c * (2 / sqrt (2 * PI) * exp (- (t / c) ^ 2 / 2)) * (1 - t / 4)) 0 4) as H.
  { intros c Hc.
    assert (ex_RInt (fun t => / c * (2 / sqrt (2 * PI) * exp (- (t / c) ^ 2 / 2)) * (1 - t / 4)) 0 4) as X.
    { apply (ex_RInt_continuous (V := R_CompleteNormedModule)). intros z _.
      apply (ex_derive_continuous (fun t => / c * (2 / sqrt (2 * PI) * exp (- (t / c) ^ 2 / 2)) * (1 - t / 4))). auto_derive. exact I. }
    etransitivity; [|apply (RInt_scal (V := R_CompleteNormedModule) _ 0 4 (/ 2) X)].
    apply RInt_ext. intros x _. unfold scal; simpl; unfold mult; simpl. unfold Rdiv. asR. field. 
    assert (0 < sqrt (2 * PI)) by (apply sqrt_lt_R0; pose proof PI_RGT_0; lra). split; lra. }
  split; [exact H|]. rewrite H by lra.
  pose proof (proj1 (C65_accuracy 1 Rlt_0_1)) as Q. cbv zeta in Q. apply Rabs_le_between in Q. pose proof lsh_at_1. lra.
Qed.
Print Assumptions C65_documented_density_refuted.

(** The factor 1 - t/4: over the uniform offset b in [0,1), LSHFunction::apply gives two points the same value with probability 1 - d if their scaled
    projections (the code divides the Gaussian vector by 4) differ by d <= 1, and never if they differ by more. *)
Theorem C65_offset :
  forall (av : list R) (x y : list R),
  let proj := fun p => fold_left (fun v xa => v + fst xa * snd xa) (combine p av) 0 in
  is_RInt (fun b => if Z.eq_dec (lsh_apply av b x) (lsh_apply av b y) then 1 else 0) 0 1 (Rmax 0 (1 - Rabs (proj x - proj y))).
Proof. intros av x y proj. exact (offset_probability (proj x) (proj y)). Qed.
Print Assumptions C65_offset.

(** The value is a probability: it is even in c, 1 at distance 0, strictly between 0 and 1 elsewhere, and tends to 0. *)
Theorem C65_probability :
  lsh_collision 0 = 1 /\
  (forall c, lsh_collision (- c) = lsh_collision c) /\
  (forall c, c <> 0 -> 0 < lsh_collision c < 1) /\
  (forall c, 1 <= c -> lsh_collision c <= 4 / c).
Proof.
  split; [exact lsh_zero|]. split; [exact lsh_even|]. split; [|exact lsh_bound_decay].
  intros c N. split; [apply lsh_pos|now apply lsh_lt_1].
Qed.
Print Assumptions C65_probability.

(** Closer points collide at least as often, if both distances are below 1 or both at least 1, or the larger one has probability at most 0.8. *)
Theorem C65_monotone_partial :
  forall c d : R, 0 <= c <= d -> (d < 1 \/ 1 <= c \/ lsh_collision d <= 8 / 10) -> lsh_collision d <= lsh_collision c.
Proof. exact lsh_mono. Qed.
Print Assumptions C65_monotone_partial.

(** Between the two branches it is not monotone: at distance 1 the value is larger than at every distance in [0.9996, 1). *)
Theorem C65_monotone_refuted :
  forall c : R, 9996 / 10000 <= c < 1 -> lsh_collision c < lsh_collision 1.
Proof. intros c H. pose proof lsh_at_1. rewrite lsh_small by lra. lra. Qed.
Print Assumptions C65_monotone_refuted.

(** E2LSH::collision_probability(K, L, c) is 1 - (1 - p(c)^K)^L, a number in [0,1], larger with more tables L, smaller with more functions K per table,
    and within K L / 1000 of the value the exact p(c) would give. *)
Theorem C65_table_probability :
  forall (K L : nat) (c : R),
  e2lsh_collision K L c = 1 - (1 - lsh_collision c ^ K) ^ L /\
  0 <= e2lsh_collision K L c <= 1 /\
  (forall L', (L <= L')%nat -> e2lsh_collision K L c <= e2lsh_collision K L' c) /\
  (forall K', (K <= K')%nat -> e2lsh_collision K' L c <= e2lsh_collision K L c) /\
  (forall d, lsh_collision d <= lsh_collision c -> e2lsh_collision K L d <= e2lsh_collision K L c) /\
  (0 < c ->
   let p := RInt (fun t => / c * (2 / sqrt (2 * PI) * exp (- (t / c) ^ 2 / 2)) * (1 - t / 4)) 0 4 in
   Rabs (e2lsh_collision K L c - (1 - (1 - p ^ K) ^ L)) <= INR K * INR L / 1000).
Proof.
  intros K L c. pose proof (lsh_range c) as R. assert (0 <= lsh_collision c <= 1) as R' by lra.
  split; [reflexivity|]. split; [now apply (or_range K L)|].
  split; [intros; now apply (or_mono_L K)|]. split; [intros; now apply (or_anti_K K)|].
  split; [intros d Hd; pose proof (lsh_range d); apply (or_mono_p K L); lra|].
  intros Hc p. pose proof (proj1 (C65_accuracy c Hc)) as Q. cbv zeta in Q. fold p in Q.
  assert (p = true_collision c) as E.
  { apply RInt_ext. intros x _. unfold half_normal_density.
    replace (- (x / c) ^ 2 / 2) with (- (x / c * (x / c)) / 2) by (cbn [pow]; unfold Rdiv; ring). unfold Rdiv; asR; ring. }
  assert (0 <= p <= 1) as P by (rewrite E; now apply true_collision_range).
  eapply Rle_trans; [exact (or_lip K L (lsh_collision c) p R' P)|].
  unfold Rdiv. apply Rmult_le_compat_l; [|exact Q]. apply Rmult_le_pos; apply pos_INR.
Qed.
Print Assumptions C65_table_probability.

Example C65_hypotheses_met :
  (0 < 2 /\ 0 <= 1 / 4 <= 1 / 2 /\ 1 / 2 < 1) /\ lsh_collision (1 / 2) = 9 / 10 /\ lsh_collision (1 / 4) = 95 / 100 /\
  e2lsh_collision 2 3 (1 / 2) = 993141 / 1000000 /\ 8001 / 10000 <= lsh_collision 1 <= 802 / 1000.
Proof.
  unfold e2lsh_collision. rewrite !lsh_small by lra. pose proof lsh_at_1. lra.
Qed.

(** ** C66 *)
(** For every level 1 <= j <= J, kernel parameter a > 0 and K2 > 0 the parameters are well defined: the collision probability at the level's radius
    r_j = sqrt(j ln 2 / a) is strictly between 0 and 1 (so its logarithm is defined and not 0), and K, L >= 1. *)
Theorem C66_parameters_well_defined :
  forall (J j : Z) (a K2 : R), (1 <= j <= J)%Z -> 0 < a -> 0 < K2 ->
  let '(K, L) := ckns_lsh_params J j a K2 in
  0 < lsh_collision (sqrt (IZR j * ln 2 / a)) < 1 /\ (1 <= K)%nat /\ (1 <= L)%nat.
Proof.
  intros J j a K2 H Ha HK. pose proof (params_pos J j a K2 H Ha HK) as P. destruct (ckns_lsh_params J j a K2) as [K L].
  split; [apply (pj_range j a); [lia|exact Ha]|exact P].
Qed.
Print Assumptions C66_parameters_well_defined.

(** If a single hash function collides at distance r_j with probability at least 2^-phi, phi = ceil(j (J - j + 1) / J), then K is the largest number
    of functions for which a whole table still does, and every point within distance r_j of the query (and, if r_j >= 1, at distance >= 1 or such that
    p(r_j) <= 0.8) is found with probability at least 1 - e^-K2; for the default K2 = ln n this is 1 - 1/n. *)
Theorem C66_detection_partial :
  forall (J j : Z) (a K2 c : R), (1 <= j <= J)%Z -> 0 < a -> 0 < K2 ->
  let r := sqrt (IZR j * ln 2 / a) in
  let phi := Raux.Zceil (IZR j / IZR J * IZR (J - j + 1)) in
  let '(K, L) := ckns_lsh_params J j a K2 in
  / powerRZ 2 phi <= lsh_collision r ->
  0 <= c <= r -> (r < 1 \/ 1 <= c \/ lsh_collision r <= 8 / 10) ->
  / powerRZ 2 phi <= lsh_collision r ^ K /\ lsh_collision r ^ (S K) < / powerRZ 2 phi /\
  K2 * powerRZ 2 phi <= INR L < K2 * powerRZ 2 phi + 1 /\
  1 - exp (- K2) <= e2lsh_collision K L c.
Proof.
  intros J j a K2 c H Ha HK r phi.
  pose proof (params_K J j a K2 H Ha) as PK. pose proof (params_L J j a K2 H Ha HK) as PL.
  pose proof (fun X Y => params_detect J j a K2 c H Ha HK X Y) as PD. cbv zeta in PK.
  destruct (ckns_lsh_params J j a K2) as [K L]. cbn [fst snd] in *.
  intros Q Hc D. destruct (PK Q) as [K1 K3]. repeat split; auto; try apply PL.
  apply PD; auto. now apply lsh_mono.
Qed.
Print Assumptions C66_detection_partial.

(** Without that hypothesis the guarantee fails: for every level and every delta > 0, all small enough kernel parameters a give tables that find a point at
    distance r_j (kernel value 2^-j) with probability at most delta. *)
Theorem C66_detection_refuted :
  forall (J j : Z) (K2 delta : R), (1 <= j <= J)%Z -> 0 < K2 -> 0 < delta ->
  exists a0 : R, 0 < a0 /\ forall a : R, 0 < a <= a0 ->
    let '(K, L) := ckns_lsh_params J j a K2 in e2lsh_collision K L (sqrt (IZR j * ln 2 / a)) <= delta.
Proof.
  intros J j K2 delta H HK HD. destruct (params_miss J j K2 delta H HK HD) as (a0 & A & P). exists a0. split; [exact A|].
  intros a Ha. specialize (P a Ha). destruct (ckns_lsh_params J j a K2) as [K L]. exact P.
Qed.
Print Assumptions C66_detection_refuted.

(** The hypotheses of C66_detection_partial hold for instance at every level of every kernel with j ln 2 < a (there r_j < 1). *)
Example C66_hypotheses_met :
  forall (J j : Z) (a : R), (1 <= j <= J)%Z -> IZR j * ln 2 < a ->
  0 < a /\ sqrt (IZR j * ln 2 / a) < 1 /\
  / powerRZ 2 (Raux.Zceil (IZR j / IZR J * IZR (J - j + 1))) <= lsh_collision (sqrt (IZR j * ln 2 / a)).
Proof.
  intros J j a H Ha. assert (1 <= IZR j) as Hj by (apply IZR_le; lia). pose proof ln2_pos as L2.
  assert (0 < IZR j * ln 2) as P by (apply Rmult_lt_0_compat; lra).
  assert (sqrt (IZR j * ln 2 / a) < 1) as S.
  { rewrite <- sqrt_1. apply sqrt_lt_1_alt. split; [apply Rlt_le, Rdiv_lt_0_compat; lra|].
    apply Rmult_lt_reg_r with a; [lra|]. unfold Rdiv. rewrite Rmult_assoc, Rinv_l by lra. lra. }
  split; [lra|]. split; [exact S|].
  rewrite lsh_small by (split; [apply sqrt_pos|exact S]).
  apply Rle_trans with (/ 2); [|lra].
  destruct (phi_pos J j H) as [F _]. unfold lsh_phi in F.
  set (phi := Raux.Zceil (IZR j / IZR J * IZR (J - j + 1))) in *.
  apply Rinv_le_contravar; [lra|]. replace 2 with (powerRZ 2 1) at 1 by (simpl; ring).
  rewrite !powerRZ_Rpower by lra. apply Rle_Rpower; [lra|]. now apply IZR_le.
Qed.
