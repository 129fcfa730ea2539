(** The adjusted Rand index of stag_lib/cluster.cpp in double arithmetic (C101). *)
From Verif Require Import Base Num RSum Cluster Metrics MetricsFacts MetricsFacts2 ClusterSweep FloatFacts PageRankFloat KdeFloat RandIndex.
From Coq Require Import ZArith Reals Lra Psatz Lia List Bool SpecFloat.
From Flocq Require Import Core BinarySingleNaN.
Import ListNotations.
Local Open Scope R_scope.

(** repo: cluster.cpp:433-463 adjusted_rand_index.  The counts are exact int64 values, with [UB] for overflow; [zf] is the conversion
    of an int64 to double, and the divisions and subtractions of the return statement round.  [(c2 + c3) / 2] is a division by the int 2, converted to double. *)
Definition adjusted_rand_index_f64 (gt labels : list Z) : outcome f64 :=
  let gs := cluster_sizes gt in
  let ls := cluster_sizes labels in
  do kt <- contingency_table gt labels;
  let '(k, t) := kt in
  do c1 <- isum (fun ij => nChoose2 (t (fst ij) (snd ij))) (list_prod (upto k) (upto k)) 0%Z;
  do c2 <- isum (fun i => nChoose2 (gs i)) (upto k) 0%Z;
  do c3 <- isum (fun i => nChoose2 (ls i)) (upto k) 0%Z;
  do nC2 <- nChoose2 (Z.of_nat (length gt));
  do prod <- i64 (c2 * c3)%Z;
  do sum <- i64 (c2 + c3)%Z;
  let e := wdiv (zf prod) (zf nC2) in
  Ok (wdiv (wsub (zf c1) e) (wsub (wdiv (zf sum) (zf 2)) e)).

(** The value from the numbers of pairs. *)
Definition ari64 (I A B T : Z) : f64 :=
  let e := wdiv (zf (A * B)) (zf T) in wdiv (wsub (zf I) e) (wsub (wdiv (zf (A + B)) (zf 2)) e).

Section Ari.
  Variables gt l : list Z.
  Hypothesis Hv : valid_labels gt l.
  Local Notation I := (Z.of_nat (pI gt l)). Local Notation A := (Z.of_nat (pA gt)).
  Local Notation B := (Z.of_nat (pB l)). Local Notation T := (Z.of_nat (pT gt)).
  Lemma ari64_eval : few_points gt -> adjusted_rand_index_f64 gt l = Ok (ari64 I A B T).
  Proof.
    intros Hn. destruct (choose2_bound _ Hn) as [Hc Hsz].
    unfold adjusted_rand_index_f64. destruct (contingency_spec gt l) as [(_ & k & t & -> & Hg & Hl & Hp & Ht)|[Hn' _]]; [|tauto].
    cbn [obind]. destruct Hv as (El & _ & _). pose proof (pI_le gt l Hv) as (HIA & HIB & HA & HB).
    pose proof (choose2_double (length gt)) as Hd.
    assert (Hmono : forall c, (c <= length gt)%nat -> nChoose2 (Z.of_nat c) = Ok (Z.of_nat (choose2 c))).
    { intros c Hcl. apply nChoose2_spec. eapply Z.le_trans; [|exact Hsz]. apply inj_le. apply Nat.mul_le_mono; lia. }
    assert (HTb : (Z.of_nat (pT gt) <= max64)%Z) by (unfold pT; lia).
    rewrite (isum_ok _ (fun ij => choose2 (occ eqb2 ij (combine gt l)))); [|lia| |].
    2:{ intros [i j] _. cbn [fst snd]. rewrite Ht. apply Hmono. eapply Nat.le_trans; [apply occ_le|]. rewrite combine_length. lia. }
    2:{ rewrite nsum_choose2; [|apply eqb2_ok|apply list_prod_NoDup; apply upto_NoDup|auto]. fold (pI gt l). lia. }
    rewrite nsum_choose2; [|apply eqb2_ok|apply list_prod_NoDup; apply upto_NoDup|auto]. fold (pI gt l). cbn [obind].
    rewrite (isum_ok _ (fun i => choose2 (occ Z.eqb i gt))); [|lia| |].
    2:{ intros i _. rewrite cluster_sizes_occ. apply Hmono. apply occ_le. }
    2:{ rewrite nsum_choose2; [|apply Zeqb_ok|apply upto_NoDup|auto]. fold (pA gt). lia. }
    rewrite nsum_choose2; [|apply Zeqb_ok|apply upto_NoDup|auto]. fold (pA gt). cbn [obind].
    rewrite (isum_ok _ (fun i => choose2 (occ Z.eqb i l))); [|lia| |].
    2:{ intros i _. rewrite cluster_sizes_occ. apply Hmono. rewrite <- El. apply occ_le. }
    2:{ rewrite nsum_choose2; [|apply Zeqb_ok|apply upto_NoDup|auto]. fold (pB l). lia. }
    rewrite nsum_choose2; [|apply Zeqb_ok|apply upto_NoDup|auto]. fold (pB l). cbn [obind].
    rewrite Hmono by auto. fold (pT gt) in *. cbn [obind]. rewrite !Z.add_0_l.
    rewrite i64_ok. 2:{ split; [nia|]. unfold max64. nia. }
    cbn [obind]. rewrite i64_ok. 2:{ split; [lia|]. unfold max64. lia. }
    reflexivity.
  Qed.
End Ari.
Lemma ari64_invalid gt l : ~ valid_labels gt l -> adjusted_rand_index_f64 gt l = Throw InvalidArgument.
Proof.
  intros Hn. unfold adjusted_rand_index_f64. destruct (contingency_spec gt l) as [[? _]|[_ ->]]; [tauto|reflexivity].
Qed.
Lemma ari64_symmetric gt l : few_points gt -> adjusted_rand_index_f64 gt l = adjusted_rand_index_f64 l gt.
Proof.
  intros Hn. destruct (contingency_spec gt l) as [[Hv _]|[Hv _]].
  - pose proof Hv as (El & _ & _). rewrite (ari64_eval gt l Hv Hn), (ari64_eval l gt (valid_sym _ _ Hv)).
    + rewrite (pI_sym l gt). unfold pA, pB, pT. rewrite El. unfold ari64. now rewrite Z.mul_comm, Z.add_comm.
    + unfold few_points in *. now rewrite El.
  - rewrite (ari64_invalid gt l Hv). rewrite ari64_invalid; auto. intros Hv'. apply Hv. now apply valid_sym.
Qed.
Lemma ari64_rename s gt l : valid_labels gt l -> few_points gt -> renaming s gt ->
  adjusted_rand_index_f64 (map s gt) l = adjusted_rand_index_f64 gt l.
Proof.
  intros Hv Hn [Hs0 Hinj]. pose proof Hv as (El & Hg & Hl).
  assert (Hv' : valid_labels (map s gt) l).
  { repeat split; auto; [now rewrite map_length|]. apply Forall_forall. intros y Hy. apply in_map_iff in Hy.
    destruct Hy as (x & <- & Hx). auto. }
  rewrite (ari64_eval gt l Hv Hn), (ari64_eval (map s gt) l Hv') by (unfold few_points in *; now rewrite map_length).
  assert (E1 : pI (map s gt) l = pI gt l).
  { unfold pI. rewrite combine_map_l. apply same_pairs_map; try apply eqb2_ok.
    intros [a b] [c d] Ha Hc [= E ->]. simpl in *. f_equal. apply Hinj; auto; eapply in_combine_l; eauto. }
  assert (E2 : pA (map s gt) = pA gt) by (apply same_pairs_map; auto using Zeqb_ok).
  assert (E3 : pT (map s gt) = pT gt) by (unfold pT; now rewrite map_length).
  now rewrite E1, E2, E3.
Qed.

(** ** Rounding *)
Lemma zf_round z : (0 <= z <= 2 ^ 63)%Z -> dbl (zf z) /\ f2r (zf z) = rnd64 (IZR z).
Proof.
  intros Hz. pose proof (binary_normalize_correct 53 1024 Hprec Hmax mode_NE z 0 false) as P.
  assert (F2R (Float radix2 z 0) = IZR z) as EF by (unfold F2R; simpl; lra). rewrite EF in P. cbv zeta in P.
  change (round radix2 (SpecFloat.fexp 53 1024) (round_mode mode_NE) (IZR z)) with (rnd64 (IZR z)) in P.
  assert (in_range (rnd64 (IZR z))) as IR.
  { apply (fits _ 63); [lia|]. rewrite Rabs_pos_eq by (apply (IZR_le 0); lia). change (bpow radix2 63) with (IZR (2 ^ 63)). apply IZR_le. lia. }
  rewrite Rlt_bool_true in P by exact IR. destruct P as (P1 & P2 & _). rewrite zf_bin. destruct (bin_dbl (zbin z) P2) as [D E]. split; [exact D|]. rewrite E. exact P1.
Qed.
Lemma u64_val : u64 = / 9007199254740992. Proof. unfold u64. cbn [bpow]. f_equal. Qed.
Lemma pos_int_big z : (0 < z)%Z -> bpow radix2 (-1000) <= IZR z.
Proof. intros H. apply Rle_trans with (bpow radix2 0); [apply bpow_le; lia|]. cbn [bpow]. apply IZR_le. lia. Qed.
(** Sums halve exactly. *)
Lemma half_int z : (0 <= z <= 2 ^ 53)%Z -> dbl (wdiv (zf z) (zf 2)) /\ f2r (wdiv (zf z) (zf 2)) = IZR z / 2.
Proof.
  intros Hz. destruct (zf_spec z) as [Dz Ez]; [unfold small_int; lia|]. destruct (zf_spec 2) as [D2 E2]; [unfold small_int; lia|].
  assert (rnd64 (IZR z / 2) = IZR z / 2) as ER.
  { destruct (Z.eq_dec z (2 ^ 53)) as [->|N].
    - apply rnd_format. replace (IZR (2 ^ 53) / 2) with (bpow radix2 52) by (cbn [bpow]; change (2 ^ 53)%Z with (2 * Z.pow_pos radix2 52)%Z; rewrite mult_IZR; lra).
      apply generic_format_FLT_bpow; [exact Hprec|lia].
    - apply rnd_format, generic_format_FLT. exists (Float radix2 z (-1)); simpl; [unfold F2R; simpl; lra| |]; lia. }
  assert (0 <= IZR z) as Pz by (apply (IZR_le 0); lia).
  destruct (fdiv_spec (zf z) (zf 2) Dz D2) as [D E]; [rewrite E2; lra| |split; [exact D|rewrite E, Ez, E2; exact ER]].
  rewrite Ez, E2, ER. unfold in_range. apply Rle_lt_trans with (bpow radix2 53); [|apply bpow_lt; lia].
  rewrite Rabs_pos_eq by lra. change (bpow radix2 53) with (IZR (2 ^ 53)). pose proof (IZR_le z (2 ^ 53) ltac:(lia)). lra.
Qed.

(** Admissible numbers of pairs. *)
Definition pair_counts (I A B T : Z) : Prop := (0 <= I <= A /\ I <= B /\ A <= T /\ B <= T /\ 0 < T <= 3036971080)%Z /\ (A + B - I <= T)%Z.
Lemma rel_trans x y z u : 0 <= z -> 0 <= u <= / 16 -> Rabs (x - y) <= u * y -> Rabs (y - z) <= u * z -> 0 <= y -> Rabs (x - z) <= 3 * u * z.
Proof.
  intros Pz Pu H1 H2 Py. apply Rabs_le_inv in H1, H2. apply Rabs_le.
  assert (u * y <= u * (z + u * z)) by (apply Rmult_le_compat_l; lra).
  assert (u * (u * z) <= 1 * (u * z)) by (apply Rmult_le_compat_r; [apply Rmult_le_pos; lra|lra]). lra.
Qed.
Section Value.
  Variables I A B T : Z.
  Hypothesis H : pair_counts I A B T.
  Local Notation e := (wdiv (zf (A * B)) (zf T)).
  Local Notation E := (IZR A * IZR B / IZR T).
  Lemma reals : 0 <= IZR I /\ IZR I <= IZR A /\ IZR I <= IZR B /\ IZR A <= IZR T /\ IZR B <= IZR T /\ 1 <= IZR T <= 3036971080.
  Proof. destruct H as ((H1 & H2 & H3 & H4 & H5) & H6). repeat split; apply IZR_le; lia. Qed.
  Lemma expected_index : dbl e /\ Rabs (f2r e - E) <= 3 * u64 * E /\ 0 <= f2r e <= 4000000000.
  Proof.
    pose proof reals as (R1 & R2 & R3 & R4 & R5 & R6). destruct H as ((H1 & H2 & H3 & H4 & H5) & H6).
    destruct (zf_round (A * B)) as [DP EP]; [nia|]. destruct (zf_spec T) as [DT ET]; [unfold small_int; lia|].
    pose proof u64_val as UV. assert (0 <= u64 <= / 16) as PU by (rewrite UV; lra).
    rewrite mult_IZR in EP. assert (0 <= IZR A * IZR B) as PAB by (apply Rmult_le_pos; lra).
    assert (Rabs (f2r (zf (A * B)) - IZR A * IZR B) <= u64 * (IZR A * IZR B)) as RP.
    { rewrite EP. apply rnd_rel. rewrite <- mult_IZR. destruct (Z.eq_dec (A * B) 0) as [->|]; [now left|right; apply pos_int_big; nia]. }
    assert (0 <= f2r (zf (A * B))) as PP by (rewrite EP; now apply rnd_nonneg).
    set (P := f2r (zf (A * B))) in *.
    assert (P / IZR T = 0 \/ bpow radix2 (-1000) <= P / IZR T) as PB.
    { destruct (Z.eq_dec (A * B) 0) as [E0|E0].
      - left. rewrite <- mult_IZR, E0 in EP. rewrite EP. unfold rnd64. rewrite round_0 by apply valid_rnd_N. unfold Rdiv. ring.
      - right. assert (1 <= IZR A * IZR B) as L1 by (rewrite <- mult_IZR; apply IZR_le; nia).
        assert (/ 2 <= P). { apply Rabs_le_inv in RP. assert (u64 * (IZR A * IZR B) <= / 2 * (IZR A * IZR B)) by (apply Rmult_le_compat_r; lra). lra. }
        apply Rle_trans with (bpow radix2 (-40)); [apply bpow_le; lia|]. apply Rmult_le_reg_r with (IZR T); [lra|]. unfold Rdiv. rewrite Rmult_assoc, Rinv_l, Rmult_1_r by lra.
        apply Rle_trans with (bpow radix2 (-40) * 3036971080); [apply Rmult_le_compat_l; [apply bpow_ge_0|lra]|]. cbn [bpow]. change (Z.pow_pos radix2 40) with 1099511627776%Z. lra. }
    assert (0 <= P / IZR T) as PQ by (apply Rmult_le_pos; [exact PP|left; apply Rinv_0_lt_compat; lra]).
    assert (0 <= E) as PE by (apply Rmult_le_pos; [exact PAB|left; apply Rinv_0_lt_compat; lra]).
    assert (E <= IZR T) as EL.
    { apply Rmult_le_reg_r with (IZR T); [lra|]. unfold Rdiv. rewrite Rmult_assoc, Rinv_l, Rmult_1_r by lra. apply Rmult_le_compat; lra. }
    assert (Rabs (P / IZR T - E) <= u64 * E) as RQ.
    { replace (P / IZR T - E) with ((P - IZR A * IZR B) * / IZR T) by (field; lra). rewrite Rabs_mult, (Rabs_pos_eq (/ IZR T)) by (left; apply Rinv_0_lt_compat; lra).
      replace (u64 * E) with (u64 * (IZR A * IZR B) * / IZR T) by (field; lra). apply Rmult_le_compat_r; [left; apply Rinv_0_lt_compat; lra|exact RP]. }
    pose proof (rnd_rel _ PB) as RR.
    assert (Rabs (rnd64 (P / IZR T) - E) <= 3 * u64 * E) as RE by (apply (rel_trans _ (P / IZR T)); auto).
    destruct (fdiv_spec (zf (A * B)) (zf T) DP DT) as [DE EE].
    - rewrite ET. lra.
    - rewrite ET. fold P. apply (fits _ 40); [lia|]. rewrite Rabs_pos_eq by exact PQ. apply Rabs_le_inv in RQ. cbn [bpow]. change (Z.pow_pos radix2 40) with 1099511627776%Z.
      assert (u64 * E <= / 16 * E) by (apply Rmult_le_compat_r; lra). lra.
    - rewrite ET in EE. fold P in EE. split; [exact DE|]. rewrite EE. split; [exact RE|]. split; [now apply rnd_nonneg|]. apply Rabs_le_inv in RE.
      assert (3 * u64 * E <= 3 * / 16 * E) by (apply Rmult_le_compat_r; lra). lra.
  Qed.
  (** Numerator and denominator. *)
  Lemma minus_e x y : dbl x -> f2r x = y -> 0 <= y <= 4000000000 ->
    dbl (wsub x e) /\ f2r (wsub x e) = rnd64 (y - f2r e) /\ Rabs (f2r (wsub x e) - (y - f2r e)) <= u64 * Rabs (y - f2r e).
  Proof.
    intros Dx Ex Hy. destruct expected_index as (DE & RE & LE).
    destruct (fsub_spec x e Dx DE) as [D F].
    - rewrite Ex. apply (fits _ 40); [lia|]. cbn [bpow]. change (Z.pow_pos radix2 40) with 1099511627776%Z. apply Rabs_le. lra.
    - rewrite Ex in F. split; [exact D|]. split; [exact F|]. rewrite F, <- Ex. now apply sub_rel_error.
  Qed.
  Lemma top_part : dbl (wsub (zf I) e) /\ f2r (wsub (zf I) e) = rnd64 (IZR I - f2r e) /\ Rabs (f2r (wsub (zf I) e) - (IZR I - f2r e)) <= u64 * Rabs (IZR I - f2r e).
  Proof.
    pose proof reals as (R1 & R2 & R3 & R4 & R5 & R6). destruct H as ((H1 & H2 & H3 & H4 & H5) & H6).
    destruct (zf_spec I) as [DI EI]; [unfold small_int; lia|]. apply minus_e; auto. lra.
  Qed.
  Lemma bottom_part : let S := (IZR A + IZR B) / 2 in let d := wsub (wdiv (zf (A + B)) (zf 2)) e in
    dbl d /\ f2r d = rnd64 (S - f2r e) /\ Rabs (f2r d - (S - f2r e)) <= u64 * Rabs (S - f2r e).
  Proof.
    cbv zeta. pose proof reals as (R1 & R2 & R3 & R4 & R5 & R6). destruct H as ((H1 & H2 & H3 & H4 & H5) & H6).
    destruct (half_int (A + B)) as [DS ES]; [lia|]. rewrite plus_IZR in ES. apply minus_e; auto. lra.
  Qed.

  (** Same partition. *)
  Lemma ari64_one : I = A -> I = B -> (0 < I)%Z -> (I < T)%Z -> ari64 I A B T = w1.
  Proof.
    intros EA EB P0 P1. destruct top_part as (D1 & F1 & _). destruct bottom_part as (D2 & F2 & G2). unfold ari64.
    pose proof reals as (R1 & R2 & R3 & R4 & R5 & R6). destruct expected_index as (DE & RE & LE). pose proof u64_val as UV.
    assert (IZR I + 1 <= IZR T) as LT by (rewrite <- plus_IZR; apply IZR_le; lia). assert (1 <= IZR I) as LI by (apply IZR_le; lia).
    assert (IZR A = IZR I /\ IZR B = IZR I) as [RA RB] by (rewrite <- EA, <- EB; auto). rewrite RA, RB in *.
    replace ((IZR I + IZR I) / 2) with (IZR I) in * by lra.
    assert (f2r e < IZR I) as Lt.
    { apply Rabs_le_inv in RE. set (a := IZR I) in *. set (t := IZR T) in *. clearbody a t.
      assert (a * a / t <= a - a * / t) as L1.
      { replace (a - a * / t) with (a * (t - 1) / t) by (field; lra). unfold Rdiv. apply Rmult_le_compat_r; [left; apply Rinv_0_lt_compat; lra|]. apply Rmult_le_compat_l; lra. }
      assert (3 * u64 * (a * a / t) <= 3 * u64 * a) as L2.
      { apply Rmult_le_compat_l; [rewrite UV; lra|]. assert (0 <= a * / t) by (apply Rmult_le_pos; [lra|left; apply Rinv_0_lt_compat; lra]). lra. }
      assert (a * (3 * u64) < a * / t) as L3.
      { apply Rmult_lt_compat_l; [lra|]. apply Rlt_le_trans with (/ 3036971080); [rewrite UV; lra|]. apply Rinv_le_contravar; lra. }
      lra. }
    set (d := wsub (wdiv (zf (A + B)) (zf 2)) e) in *. assert (f2r (wsub (zf I) e) = f2r d) as EQ by (rewrite F1, F2; reflexivity).
    assert (f2r d <> 0) as NZ.
    { intros Z0. rewrite Z0 in G2. rewrite (Rabs_pos_eq (IZR I - f2r e)) in G2 by lra. apply Rabs_le_inv in G2.
      assert (u64 * (IZR I - f2r e) < 1 * (IZR I - f2r e)) by (apply Rmult_lt_compat_r; [lra|rewrite UV; lra]). lra. }
    assert (rnd64 1 = 1) as R1' by (apply (rnd_int 1); unfold small_int; simpl; lia).
    destruct (fdiv_spec (wsub (zf I) e) d D1 D2 NZ) as [DR ER].
    - rewrite EQ. unfold Rdiv. rewrite Rinv_r by exact NZ. rewrite R1'. apply (int_range 1). unfold small_int; simpl; lia.
    - rewrite EQ in ER. unfold Rdiv in ER. rewrite Rinv_r in ER by exact NZ. rewrite R1' in ER. rewrite <- zf_1. apply zf_complete; auto; [unfold small_int; simpl; lia|].
      intros X. rewrite X in ER. cbn in ER. lra.
  Qed.

  (** Rounding error. *)
  Lemma ari64_error_round rho : let S := (IZR A + IZR B) / 2 in let D := S - E in 0 < D -> S <= rho * D -> rho <= bpow radix2 49 ->
    dbl (ari64 I A B T) /\ Rabs (f2r (ari64 I A B T) - hubert_arabie (IZR I) (IZR A) (IZR B) (IZR T)) <= 24 * rho * u64 /\
    f2r (ari64 I A B T) = rnd64 (f2r (wsub (zf I) e) / f2r (wsub (wdiv (zf (A + B)) (zf 2)) e)).
  Proof.
    cbv zeta. intros PD HR HB. destruct top_part as (D1 & _ & G1). destruct bottom_part as (D2 & _ & G2). unfold ari64.
    pose proof reals as (R1 & R2 & R3 & R4 & R5 & R6). destruct expected_index as (DE & RE & LE). pose proof u64_val as UV.
    unfold hubert_arabie.
    set (num := wsub (zf I) e) in *. set (den := wsub (wdiv (zf (A + B)) (zf 2)) e) in *.
    assert (IZR A * IZR B / IZR T <= IZR A /\ IZR A * IZR B / IZR T <= IZR B) as [EA EB].
    { split; (apply Rmult_le_reg_r with (IZR T); [lra|]); unfold Rdiv; rewrite Rmult_assoc, Rinv_l, Rmult_1_r by lra.
      - apply Rmult_le_compat_l; lra.
      - rewrite Rmult_comm. apply Rmult_le_compat_l; lra. }
    assert (0 <= E) as PE by (apply Rmult_le_pos; [apply Rmult_le_pos; lra|left; apply Rinv_0_lt_compat; lra]).
    set (Ex := E) in *. set (S := (IZR A + IZR B) / 2) in *. set (D := S - Ex) in *.
    assert (Ex <= S) as ES by (unfold S; lra). assert (IZR I <= S) as IS by (unfold S; lra). assert (0 <= S) as PS by lra.
    change (bpow radix2 49) with (IZR 562949953421312) in HB.
    assert (1 <= rho) as R1'.
    { destruct (Rle_dec 1 rho) as [|N]; [auto|exfalso]. assert (rho * D < 1 * D) by (apply Rmult_lt_compat_r; lra). unfold D in *. lra. }
    set (ur := u64 * rho). assert (16 * ur <= 1) as UR by (unfold ur; rewrite UV; lra). assert (u64 <= ur) as UL by (unfold ur; rewrite UV; lra).
    assert (0 < u64) as PU by (rewrite UV; lra). assert (u64 <= / 1000000) as SU by (rewrite UV; lra).
    assert (u64 * S <= ur * D) as SD by (unfold ur; rewrite Rmult_assoc; apply Rmult_le_compat_l; [lra|exact HR]).
    assert (0 <= u64 * S) as PUS by (apply Rmult_le_pos; lra).
    assert (forall y, 0 <= y <= S -> forall w, Rabs (w - (y - f2r e)) <= u64 * Rabs (y - f2r e) -> Rabs (w - (y - Ex)) <= 5 * ur * D) as Part.
    { intros y Hy w Hw. assert (Rabs (y - f2r e) <= S + 3 * u64 * S) as L1.
      { apply Rabs_le_inv in RE. assert (3 * u64 * Ex <= 3 * u64 * S) by (apply Rmult_le_compat_l; lra). apply Rabs_le. lra. }
      assert (u64 * Rabs (y - f2r e) <= u64 * S + 3 * u64 * (u64 * S)) as L2.
      { replace (u64 * S + 3 * u64 * (u64 * S)) with (u64 * (S + 3 * u64 * S)) by ring. apply Rmult_le_compat_l; lra. }
      assert (3 * u64 * (u64 * S) <= / 2 * (u64 * S)) as L3 by (apply Rmult_le_compat_r; [apply Rmult_le_pos; lra|lra]).
      assert (3 * u64 * Ex <= 3 * (u64 * S)) as L4 by (rewrite Rmult_assoc; apply Rmult_le_compat_l; [lra|]; apply Rmult_le_compat_l; lra).
      replace (w - (y - Ex)) with ((w - (y - f2r e)) + (Ex - f2r e)) by ring. eapply Rle_trans; [apply Rabs_triang|]. rewrite (Rabs_minus_sym Ex). lra. }
    pose proof (Part _ (conj R1 IS) _ G1) as N1. pose proof (Part _ (conj PS (Rle_refl S)) _ G2) as N2. fold D in N2. clear Part.
    assert (0 < ur * D) as PUD by (apply Rmult_lt_0_compat; lra).
    assert (16 * (ur * D) <= D) as UD by (rewrite <- Rmult_assoc; rewrite <- (Rmult_1_l D) at 2; apply Rmult_le_compat_r; lra).
    assert (D / 2 <= f2r den) as PDen by (apply Rabs_le_inv in N2; lra).
    set (x := (IZR I - Ex) / D). assert (x * D = IZR I - Ex) as Ex' by (unfold x; field; lra).
    assert (Rabs (IZR I - Ex) <= rho * D) as NX by (apply Rabs_le; lra).
    assert (x <= 1) as X1.
    { apply Rmult_le_reg_r with D; [lra|]. rewrite Ex'. unfold D. lra. }
    assert (- 1 <= x) as X0.
    { apply Rmult_le_reg_r with D; [lra|]. rewrite Ex'. unfold D.
      assert (Ex * IZR T = IZR A * IZR B) as EeT by (unfold Ex; field; lra).
      assert (2 * Ex <= IZR I + S); [|lra].
      assert (IZR A + IZR B - IZR I <= IZR T) as IE by (rewrite <- plus_IZR, <- minus_IZR; apply IZR_le; exact (proj2 H)).
      unfold S. set (a := IZR A) in *. set (b := IZR B) in *. set (t := IZR T) in *. set (i := IZR I) in *. set (y := Ex) in *. clearbody a b t i y.
      apply Rmult_le_reg_r with t; [lra|]. rewrite Rmult_assoc, EeT.
      assert (4 * (a * b) <= (a + b) * (a + b))%R as AG by (pose proof (Rle_0_sqr (a - b)) as Q; unfold Rsqr in Q; lra).
      destruct (Rle_dec (a + b) t) as [C|C].
      - assert ((a + b) * (a + b) <= (a + b) * t)%R by (apply Rmult_le_compat_l; lra). assert (0 <= i * t)%R by (apply Rmult_le_pos; lra). lra.
      - assert ((a + b - t) * t <= i * t)%R by (apply Rmult_le_compat_r; lra).
        assert (0 <= (a + b - t) * (2 * t - (a + b)))%R by (apply Rmult_le_pos; lra). lra. }
    set (q := f2r num / f2r den).
    assert (Rabs (q - x) <= 20 * ur) as QX.
    { replace (q - x) with (((f2r num - (IZR I - Ex)) - x * (f2r den - D)) / f2r den) by (rewrite <- Ex'; unfold q; field; lra).
      unfold Rdiv. rewrite Rabs_mult, Rabs_inv, (Rabs_pos_eq (f2r den)) by lra. apply Rmult_le_reg_r with (f2r den); [lra|]. rewrite Rmult_assoc, Rinv_l, Rmult_1_r by lra.
      apply Rle_trans with (10 * ur * D).
      - unfold Rminus at 1. eapply Rle_trans; [apply Rabs_triang|]. rewrite Rabs_Ropp, Rabs_mult. assert (Rabs x <= 1) by (apply Rabs_le; lra).
        assert (Rabs x * Rabs (f2r den - D) <= 1 * Rabs (f2r den - D)) by (apply Rmult_le_compat_r; [apply Rabs_pos|lra]). lra.
      - replace (10 * ur * D) with (20 * ur * (D / 2)) by field. apply Rmult_le_compat_l; lra. }
    assert (Rabs q <= 3) as Q3 by (apply Rabs_le_inv in QX; apply Rabs_le; lra).
    destruct (fdiv_spec num den D1 D2) as [DR ER]; [lra| |].
    - fold q. apply (fits _ 2); [lia|]. cbn [bpow]. change (Z.pow_pos radix2 2) with 4%Z. lra.
    - fold q in ER. split; [exact DR|]. split; [|exact ER]. rewrite ER. pose proof (rnd_err q) as RQ.
      assert (eta <= u64) as EU by (unfold eta, u64; apply bpow_le; lia).
      assert (u64 * Rabs q <= 3 * u64) by (rewrite (Rmult_comm 3); apply Rmult_le_compat_l; lra).
      replace (rnd64 q - x) with ((rnd64 q - q) + (q - x)) by ring. eapply Rle_trans; [apply Rabs_triang|].
      replace (24 * rho * u64) with (24 * ur) by (unfold ur; ring). lra.
  Qed.
  Lemma ari64_error rho : let S := (IZR A + IZR B) / 2 in let D := S - E in 0 < D -> S <= rho * D -> rho <= bpow radix2 49 ->
    dbl (ari64 I A B T) /\ Rabs (f2r (ari64 I A B T) - hubert_arabie (IZR I) (IZR A) (IZR B) (IZR T)) <= 24 * rho * u64.
  Proof. cbv zeta. intros H1 H2 H3. destruct (ari64_error_round rho H1 H2 H3) as (X & Y & _). now split. Qed.
  (** The result does not exceed 1. *)
  Lemma ari64_at_most_one rho : let S := (IZR A + IZR B) / 2 in let D := S - E in 0 < D -> S <= rho * D -> rho <= bpow radix2 49 -> f2r (ari64 I A B T) <= 1.
  Proof.
    cbv zeta. intros PD HR HB. destruct top_part as (D1 & F1 & G1). destruct bottom_part as (D2 & F2 & G2). unfold ari64.
    pose proof reals as (R1 & R2 & R3 & R4 & R5 & R6). destruct expected_index as (DE & RE & LE). pose proof u64_val as UV.
    set (num := wsub (zf I) e) in *. set (den := wsub (wdiv (zf (A + B)) (zf 2)) e) in *.
    assert (0 <= E) as PE by (apply Rmult_le_pos; [apply Rmult_le_pos; lra|left; apply Rinv_0_lt_compat; lra]).
    set (Ex := E) in *. set (S := (IZR A + IZR B) / 2) in *. assert (IZR I <= S) as IS by (unfold S; lra).
    change (bpow radix2 49) with (IZR 562949953421312) in HB.
    assert (3 * u64 * Ex <= 3 * u64 * S) as L0 by (apply Rmult_le_compat_l; [rewrite UV|]; lra).
    assert (u64 * S <= u64 * (rho * (S - Ex))) as L1 by (apply Rmult_le_compat_l; [rewrite UV|]; lra).
    assert (16 * (u64 * rho) <= 1) as L2 by (rewrite UV; lra).
    assert (16 * (u64 * rho) * (S - Ex) <= 1 * (S - Ex)) as L3 by (apply Rmult_le_compat_r; lra).
    assert (f2r e < S) as Lt by (apply Rabs_le_inv in RE; lra).
    assert (0 < f2r den) as P2.
    { rewrite (Rabs_pos_eq (S - f2r e)) in G2 by lra. apply Rabs_le_inv in G2. assert (u64 * (S - f2r e) < 1 * (S - f2r e)) by (apply Rmult_lt_compat_r; [lra|rewrite UV; lra]). lra. }
    assert (f2r num <= f2r den) as L by (rewrite F1, F2; apply round_le; [apply FLT_exp_valid; reflexivity|apply valid_rnd_N|lra]).
    destruct (ari64_error_round rho PD HR HB) as (_ & _ & ER). fold num den in ER. unfold ari64 in ER. fold num den in ER. rewrite ER.
    set (q := f2r num / f2r den).
    assert (q <= 1) as Q1 by (apply Rmult_le_reg_r with (f2r den); [exact P2|]; unfold q, Rdiv; rewrite Rmult_assoc, Rinv_l by lra; lra).
    rewrite <- (rnd_int 1) by (unfold small_int; simpl; lia). apply round_le; [apply FLT_exp_valid; reflexivity|apply valid_rnd_N|exact Q1].
  Qed.
End Value.

(** ** Counts of pairs: labels are all equal, or at most T - (n - 1) pairs are together. *)
Lemma occ_not_all (a : Z) l : (exists x, In x l /\ x <> a) -> (occ Z.eqb a l < length l)%nat.
Proof.
  induction l as [|y l IH]; intros (x & Hx & N); [destruct Hx|]. rewrite occ_cons. cbn [length]. destruct Hx as [->|Hx].
  - destruct (Z.eqb_spec a x); [congruence|]. pose proof (occ_le Z.eqb a l). lia.
  - specialize (IH (ex_intro _ x (conj Hx N))). destruct (a =? y)%Z; lia.
Qed.
Lemma pairs_gap (l : list Z) : (exists a, forall x, In x l -> x = a) \/ (same_pairs Z.eqb l + (length l - 1) <= choose2 (length l))%nat.
Proof.
  induction l as [|a l IH]; [left; exists 0%Z; intros x []|]. cbn [same_pairs length]. rewrite choose2_S.
  destruct (existsb (fun x => negb (x =? a)%Z) l) eqn:X.
  - right. apply existsb_exists in X. destruct X as (x & Hx & N). apply negb_true_iff, Z.eqb_neq in N.
    destruct IH as [(b & Hb)|IH].
    + assert (occ Z.eqb a l = 0)%nat as ->.
      { pose proof (Hb x Hx). subst b. unfold occ. clear -Hb N. induction l as [|y l IHl]; [reflexivity|]. cbn [filter]. pose proof (Hb y ltac:(now left)).
        destruct (Z.eqb_spec a y); [congruence|]. apply IHl. intros z Hz. apply Hb. now right. }
      pose proof (same_pairs_le Z.eqb l). lia.
    + pose proof (occ_not_all a l (ex_intro _ x (conj Hx N))). lia.
  - left. exists a. intros x [->|Hx]; [reflexivity|]. destruct (Z.eqb_spec x a) as [|N]; [auto|exfalso].
    assert (existsb (fun x => negb (x =? a)%Z) l = true) as C; [|congruence]. apply existsb_exists. exists x. split; [exact Hx|]. now apply negb_true_iff, Z.eqb_neq.
Qed.
Lemma pairs_const (l : list Z) a : (forall x, In x l -> x = a) -> same_pairs Z.eqb l = choose2 (length l).
Proof.
  induction l as [|y l IH]; intros Ha; [reflexivity|]. cbn [same_pairs length]. rewrite choose2_S, IH by (intros; apply Ha; now right). f_equal.
  pose proof (Ha y ltac:(now left)). subst y. unfold occ. assert (forall x, In x l -> x = a) as Hb by (intros; apply Ha; now right). clear -Hb.
  induction l as [|y l IH]; [reflexivity|]. cbn [filter]. pose proof (Hb y ltac:(now left)). subst y. rewrite Z.eqb_refl. cbn [length]. f_equal. apply IH. intros; apply Hb; now right.
Qed.
Lemma pairs_gap' (l : list Z) : same_pairs Z.eqb l = choose2 (length l) \/ (same_pairs Z.eqb l + (length l - 1) <= choose2 (length l))%nat.
Proof. destruct (pairs_gap l) as [(a & Ha)|]; [left; now apply (pairs_const l a)|now right]. Qed.

Section Final.
  Variables gt l : list Z.
  Hypothesis Hv : valid_labels gt l.
  Hypothesis Hn : few_points gt.
  Local Notation n := (length gt).
  Local Notation I := (INR (pI gt l)). Local Notation A := (INR (pA gt)). Local Notation B := (INR (pB l)). Local Notation T := (INR (pT gt)).
  Lemma counts_ok : (0 < pT gt)%nat -> pair_counts (Z.of_nat (pI gt l)) (Z.of_nat (pA gt)) (Z.of_nat (pB l)) (Z.of_nat (pT gt)).
  Proof.
    intros P. destruct (pI_le gt l Hv) as (H1 & H2 & H3 & H4). destruct (choose2_bound _ Hn) as [Hc _]. fold (pT gt) in Hc. split; [lia|].
    pose proof (incl_excl gt l Hv) as IE. rewrite !INR_IZR_INZ, <- plus_IZR, <- minus_IZR in IE. now apply le_IZR.
  Qed.
  (** The denominator is far from 0, unless both clusterings consist of one cluster, or both of single points. *)
  Lemma denominator_gap : (0 < pT gt)%nat -> (pA gt = pT gt /\ pB l = pT gt) \/ (pA gt = 0 /\ pB l = 0)%nat \/
    (0 < (A + B) / 2 - A * B / T /\ (A + B) / 2 <= INR n * ((A + B) / 2 - A * B / T)).
  Proof.
    intros P. pose proof (sum_T gt) as ST. pose proof Hv as (El & _ & _).
    assert (2 <= n)%nat as N2. { unfold pT in P. destruct (length gt) as [|[|m]]; [cbn in P; lia|cbn in P; lia|lia]. }
    assert (2 <= INR n) as N2' by (apply (le_INR 2); exact N2). apply (lt_INR 0) in P. cbn [INR] in P.
    destruct (pI_le gt l Hv) as (_ & _ & H3 & H4). apply le_INR in H3, H4.
    assert (pA gt = pT gt \/ A + (INR n - 1) <= T) as [CA|CA].
    { destruct (pairs_gap' gt) as [E|G]; [now left|right]. apply le_INR in G. rewrite plus_INR, minus_INR in G by lia. exact G. }
    all: assert (pB l = pT gt \/ B + (INR n - 1) <= T) as [CB|CB] by
     (destruct (pairs_gap' l) as [E|G]; [left; unfold pB, pT; now rewrite E, El|right]; rewrite El in G; apply le_INR in G; rewrite plus_INR, minus_INR in G by lia; exact G).
    - now left.
    - right. right. rewrite CA. replace ((T + B) / 2 - T * B / T) with ((T - B) / 2) by (field; lra). split; [lra|].
      assert (INR n * (INR n - 1) <= INR n * (T - B)) by (apply Rmult_le_compat_l; lra). lra.
    - right. right. rewrite CB. replace ((A + T) / 2 - A * T / T) with ((T - A) / 2) by (field; lra). split; [lra|].
      assert (INR n * (INR n - 1) <= INR n * (T - A)) by (apply Rmult_le_compat_l; lra). lra.
    - right. pose proof (pos_INR (pA gt)) as PA. pose proof (pos_INR (pB l)) as PB.
      destruct (Nat.eq_dec (pA gt + pB l) 0) as [Z0|Z0]; [left; lia|right]. assert (1 <= A + B) as L1 by (rewrite <- plus_INR; apply (le_INR 1); lia).
      set (a := A) in *. set (b := B) in *. set (t := T) in *. set (m := INR n) in *. clearbody a b t m.
      set (D := (a + b) / 2 - a * b / t). assert (D * (2 * t) = a * (t - b) + b * (t - a)) as ED by (unfold D; field; lra).
      assert (a * (m - 1) <= a * (t - b)) by (apply Rmult_le_compat_l; lra). assert (b * (m - 1) <= b * (t - a)) by (apply Rmult_le_compat_l; lra).
      assert ((a + b) * (m - 1) <= D * (2 * t)) as LD by lra.
      assert (0 < (a + b) * (m - 1)) as PM by (apply Rmult_lt_0_compat; lra).
      assert (0 < D) as PD by (apply Rmult_lt_reg_r with (2 * t); lra). split; [exact PD|].
      replace (2 * t) with (m * (m - 1)) in LD by lra. rewrite <- Rmult_assoc in LD. apply Rmult_le_reg_r in LD; lra.
  Qed.
  Lemma ari_none_cases : adjusted_rand_index gt l = Ok None <-> (n < 2)%nat \/ (pA gt = pT gt /\ pB l = pT gt) \/ (pA gt = 0 /\ pB l = 0)%nat.
  Proof.
    destruct (ari_value gt l Hv Hn) as [H1 H2]. destruct (Nat.eq_dec (pT gt) 0) as [T0|T0].
    - split; intros _.
      + left. unfold pT in T0. destruct (length gt) as [|[|m]] eqn:E; try lia. rewrite choose2_S in T0. lia.
      + apply H2. intros [X _]. rewrite T0 in X. now apply X.
    - assert (0 < T) as PT by (apply (lt_INR 0); lia). assert (2 <= n)%nat as N2 by (unfold pT in T0; destruct (length gt) as [|[|m]]; [now cbn in T0|now cbn in T0|lia]).
      split.
      + intros E. destruct (denominator_gap ltac:(lia)) as [C|[C|[C _]]]; [now right; left|now right; right|exfalso].
        rewrite H1 in E; [discriminate|]. split; lra.
      + intros [C|[[CA CB]|[CA CB]]]; [lia| |]; apply H2; intros [_ X]; apply X; rewrite CA, CB.
        * field. lra.
        * cbn [INR]. unfold Rdiv. ring.
  Qed.
  (** The double result against the exact value. *)
  Lemma ari64_accurate x : adjusted_rand_index gt l = Ok (Some x) ->
    exists v, adjusted_rand_index_f64 gt l = Ok v /\ dbl v /\ Rabs (f2r v - x) <= 24 * INR n * u64 /\ f2r v <= 1.
  Proof.
    intros E. rewrite (ari64_eval gt l Hv Hn). eexists. split; [reflexivity|]. destruct (ari_value gt l Hv Hn) as [H1 H2].
    assert (0 < pT gt)%nat as P. { destruct (Nat.eq_dec (pT gt) 0) as [T0|]; [exfalso|lia]. rewrite H2 in E; [discriminate|]. intros [X _]. rewrite T0 in X. now apply X. }
    destruct (denominator_gap P) as [C|[C|[C1 C2]]].
    1,2: exfalso; assert (adjusted_rand_index gt l = Ok None) as X by (apply ari_none_cases; tauto); congruence.
    rewrite H1 in E by (split; [apply (lt_INR 0) in P; cbn [INR] in P; lra|lra]). injection E as <-.
    pose proof (ari64_error _ _ _ _ (counts_ok P) (INR n)) as F. pose proof (ari64_at_most_one _ _ _ _ (counts_ok P) (INR n)) as F2. rewrite <- !INR_IZR_INZ in F. rewrite <- !INR_IZR_INZ in F2.
    cbv zeta in F, F2. assert (INR n <= bpow radix2 49) as HB; [|destruct (F C1 C2 HB) as [Fa Fb]; split; [exact Fa|]; split; [exact Fb|exact (F2 C1 C2 HB)]].
    change (bpow radix2 49) with (IZR 562949953421312). rewrite INR_IZR_INZ. apply IZR_le. unfold few_points, ari_max_points in Hn. lia.
  Qed.
  Lemma ari64_same : same_partition gt l -> (0 < pA gt < pT gt)%nat -> adjusted_rand_index_f64 gt l = Ok w1.
  Proof.
    intros Hp Ht. destruct (same_partition_pairs gt l Hv Hp) as [EA EB]. rewrite (ari64_eval gt l Hv Hn). f_equal.
    apply ari64_one; [apply counts_ok|..]; lia.
  Qed.
  Lemma ari64_nan : adjusted_rand_index gt l = Ok None -> (Z.of_nat n <= 13777)%Z -> adjusted_rand_index_f64 gt l = Ok S754_nan.
  Proof.
    intros E Hs. rewrite (ari64_eval gt l Hv Hn). f_equal. destruct (pI_le gt l Hv) as (P1 & P2 & P3 & P4).
    destruct (Nat.eq_dec (pT gt) 0) as [T0|T0].
    { assert (pA gt = 0 /\ pB l = 0 /\ pI gt l = 0)%nat as (-> & -> & ->) by lia. rewrite T0. vm_compute. reflexivity. }
    apply ari_none_cases in E. destruct E as [C|[[CA CB]|[CA CB]]].
    - exfalso. unfold pT in T0. destruct (length gt) as [|[|m]]; [now cbn in T0|now cbn in T0|lia].
    - assert (pI gt l = pT gt) as EI. { destruct (counts_ok ltac:(lia)) as [_ H6]. lia. }
      rewrite EI, CA, CB. assert (0 < Z.of_nat (pT gt) <= 94895976)%Z as Ht.
      { split; [lia|]. unfold pT. pose proof (choose2_double n) as Hd. destruct (length gt) as [|m]; [cbn; lia|].
        replace (S m - 1)%nat with m in Hd by lia. nia. }
      set (t := Z.of_nat (pT gt)) in *. clearbody t. unfold ari64.
      assert (small_int t /\ small_int (t * t) /\ small_int (t + t)) as (S1 & S2 & S3) by (unfold small_int; repeat split; nia).
      destruct (zf_spec t S1) as [D1 E1], (zf_spec _ S2) as [D2 E2].
      assert (1 <= IZR t) as T1 by (apply IZR_le; lia).
      assert (wdiv (zf (t * t)) (zf t) = zf t) as ->.
      { assert (rnd64 (IZR (t * t) / IZR t) = IZR t) as ER by (rewrite mult_IZR; replace (IZR t * IZR t / IZR t) with (IZR t) by (field; lra); now apply rnd_int).
        destruct (fdiv_spec (zf (t * t)) (zf t) D2 D1) as [D3 E3]; [lra|rewrite E2, E1, ER; now apply int_range|].
        rewrite E2, E1, ER in E3. apply zf_complete; auto. intros X. rewrite X in E3. cbn in E3. lra. }
      assert (wdiv (zf (t + t)) (zf 2) = zf t) as ->.
      { destruct (half_int (t + t)) as [D3 E3]; [lia|]. rewrite plus_IZR in E3. apply zf_complete; auto; [lra|]. intros X. rewrite X in E3. cbn in E3. lra. }
      rewrite zf_sub by (auto; now rewrite Z.sub_diag). rewrite Z.sub_diag. reflexivity.
    - assert (pI gt l = 0)%nat as -> by lia. rewrite CA, CB. assert (small_int (Z.of_nat (pT gt))) as S1.
      { destruct (choose2_bound _ Hn) as [Hc _]. fold (pT gt) in Hc. unfold small_int. lia. }
      destruct (zf_spec _ S1) as [D1 E1]. unfold ari64. cbn [Z.of_nat Z.mul Z.add].
      assert (wdiv (zf 0) (zf (Z.of_nat (pT gt))) = w0) as ->; [|reflexivity].
      assert (1 <= f2r (zf (Z.of_nat (pT gt)))) as L1 by (rewrite E1; apply IZR_le; lia). destruct (zf (Z.of_nat (pT gt))) as [s|s| |s m e]; cbn in L1; try lra.
      destruct s; [|reflexivity]. exfalso. assert (F2R (Float radix2 (cond_Zopp true (Z.pos m)) e) < 0) as L by (now apply F2R_lt_0). unfold F2R in *. cbn in *. lra.
  Qed.
End Final.
(** One cluster of 13778 points. *)
Lemma ari64_one_cluster n : Z.of_nat n = 13778%Z -> adjusted_rand_index_f64 (repeat 0%Z n) (repeat 0%Z n) = Ok w1.
Proof.
  intros En. rewrite ari64_eval by (auto using valid_repeat; unfold few_points, ari_max_points; rewrite repeat_length; lia). f_equal.
  assert (Z.of_nat (choose2 n) = 94909753)%Z as E.
  { pose proof (choose2_double n) as Hd. apply (f_equal Z.of_nat) in Hd. rewrite !Nat2Z.inj_mul, Nat2Z.inj_sub in Hd by lia. rewrite En in Hd. lia. }
  assert (pI (repeat 0%Z n) (repeat 0%Z n) = choose2 n) as EI.
  { pose proof (counts_ok (repeat 0%Z n) (repeat 0%Z n) (valid_repeat n)) as [_ H6].
    - unfold few_points, ari_max_points; rewrite repeat_length; lia.
    - unfold pT. rewrite repeat_length. lia.
    - destruct (pI_le _ _ (valid_repeat n)) as (L & _). unfold pA, pB, pT in *. rewrite same_pairs_repeat, ?repeat_length in *. lia. }
  rewrite EI. unfold pA, pB, pT. rewrite same_pairs_repeat, repeat_length, E. vm_compute. reflexivity.
Qed.
