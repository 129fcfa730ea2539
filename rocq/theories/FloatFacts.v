(** Facts about the binary64 arithmetic [NumF64] (Coq.Floats.SpecFloat), by way of Flocq:
    every operation is the correctly rounded real operation. *)
From Verif Require Import Base Num RSum.
From Coq Require Import ZArith Reals Lra Lia SpecFloat.
From Flocq Require Import Core BinarySingleNaN Plus_error Relative.
Local Open Scope R_scope.

(** [dbl x]: [x] is the encoding of a finite double (canonical mantissa, exponent in range, not NaN, not an infinity). *)
Definition dbl (x : f64) : Prop := SpecFloat.valid_binary 53 1024 x = true /\ is_finite_SF x = true.
(** The real number denoted by a finite double. *)
Definition f2r (x : f64) : R := SF2R radix2 x.
(** Rounding to binary64, nearest even. *)
Definition rnd64 (x : R) : R := round radix2 (FLT_exp (-1074) 53) ZnearestE x.
(** Unit roundoff 2^-53. *)
Definition u64 : R := bpow radix2 (-53).
(** Numbers below the overflow threshold. *)
Definition in_range (x : R) : Prop := Rabs x < bpow radix2 1024.

Local Instance Hprec : FLX.Prec_gt_0 53 := eq_refl _.
Local Instance Hmax : Prec_lt_emax 53 1024 := eq_refl _.

(* The next four are the correspondence between SpecFloat and Flocq (as in Flocq.IEEE754.PrimFloat, which we
   do not load because it needs the axioms of primitive floats). *)
Lemma round_nearest_even_equiv s m l : round_nearest_even m l = choice_mode mode_NE s m l.
Proof. case l; [reflexivity|intro c]. case c; [ | reflexivity..]. now simpl; unfold Round.cond_incr; case Z.even. Qed.
Lemma binary_round_aux_equiv sx mx ex lx :
  SpecFloat.binary_round_aux 53 1024 sx mx ex lx = binary_round_aux 53 1024 mode_NE sx mx ex lx.
Proof.
  unfold SpecFloat.binary_round_aux, binary_round_aux. set (mrse' := shr_fexp _ _ _ _ _).
  case mrse'; intros mrs' e'; simpl. now rewrite (round_nearest_even_equiv sx).
Qed.
Lemma binary_round_equiv s m e : SpecFloat.binary_round 53 1024 s m e = binary_round 53 1024 mode_NE s m e.
Proof.
  unfold SpecFloat.binary_round, binary_round, shl_align_fexp. set (mez := shl_align _ _ _); case mez as [mz ez].
  apply binary_round_aux_equiv.
Qed.
Lemma binary_normalize_equiv m e szero :
  SpecFloat.binary_normalize 53 1024 m e szero = B2SF (binary_normalize 53 1024 Hprec Hmax mode_NE m e szero).
Proof.
  case m as [ | p | p]; [now simpl|..]; simpl; rewrite B2SF_SF2B; apply binary_round_equiv.
Qed.

Notation bin := (binary_float 53 1024).
Lemma add_equiv (x y : bin) : SFadd 53 1024 (B2SF x) (B2SF y) = B2SF (Bplus mode_NE x y).
Proof.
  destruct x as [sx|sx| |sx mx ex Bx]; destruct y as [sy|sy| |sy my ey By]; [now (trivial || simpl; case Bool.eqb)..|].
  apply binary_normalize_equiv.
Qed.
Lemma sub_equiv (x y : bin) : SFsub 53 1024 (B2SF x) (B2SF y) = B2SF (Bminus mode_NE x y).
Proof.
  destruct x as [sx|sx| |sx mx ex Bx]; destruct y as [sy|sy| |sy my ey By]; [now (trivial || simpl; case Bool.eqb)..|].
  simpl. unfold Zminus. rewrite <- cond_Zopp_negb. apply binary_normalize_equiv.
Qed.
Lemma mul_equiv (x y : bin) : SFmul 53 1024 (B2SF x) (B2SF y) = B2SF (Bmult mode_NE x y).
Proof.
  destruct x as [sx|sx| |sx mx ex Bx]; destruct y as [sy|sy| |sy my ey By]; [now trivial..|].
  simpl. rewrite B2SF_SF2B. apply binary_round_aux_equiv.
Qed.
Lemma div_equiv (x y : bin) : SFdiv 53 1024 (B2SF x) (B2SF y) = B2SF (Bdiv mode_NE x y).
Proof.
  destruct x as [sx|sx| |sx mx ex Bx]; destruct y as [sy|sy| |sy my ey By]; [now trivial..|].
  simpl. rewrite B2SF_SF2B. set (melz := SFdiv_core_binary _ _ _ _ _ _). case melz as [[mz ez] lz].
  apply binary_round_aux_equiv.
Qed.

Lemma dbl_bin x : dbl x -> exists b : bin, B2SF b = x /\ is_finite b = true /\ B2R b = f2r x.
Proof.
  intros [V F]. exists (SF2B x V). rewrite B2SF_SF2B, is_finite_SF2B, B2R_SF2B. auto.
Qed.
Lemma bin_dbl (b : bin) : is_finite b = true -> dbl (B2SF b) /\ f2r (B2SF b) = B2R b.
Proof.
  intros F. split; [split|]; [apply valid_binary_B2SF|now rewrite is_finite_SF_B2SF|apply SF2R_B2SF].
Qed.
Lemma dbl_format x : dbl x -> generic_format radix2 (FLT_exp (-1074) 53) (f2r x).
Proof. intros D. destruct (dbl_bin x D) as (b & _ & _ & <-). apply (generic_format_B2R 53 1024 b). Qed.
Lemma dbl_range x : dbl x -> in_range (f2r x).
Proof. intros D. destruct (dbl_bin x D) as (b & _ & _ & <-). apply (abs_B2R_lt_emax 53 1024 b). Qed.
Lemma rnd_format x : generic_format radix2 (FLT_exp (-1074) 53) x -> rnd64 x = x.
Proof. intros G. apply round_generic; [apply valid_rnd_N|exact G]. Qed.
Lemma rnd_dbl x : dbl x -> rnd64 (f2r x) = f2r x.
Proof. intros D. apply rnd_format. now apply dbl_format. Qed.

(** ** The operations *)
Lemma fadd_spec x y : dbl x -> dbl y -> in_range (rnd64 (f2r x + f2r y)) ->
  dbl (wadd x y) /\ f2r (wadd x y) = rnd64 (f2r x + f2r y).
Proof.
  intros Dx Dy Hr. destruct (dbl_bin x Dx) as (a & <- & Fa & Ea), (dbl_bin y Dy) as (b & <- & Fb & Eb).
  change (wadd (B2SF a) (B2SF b)) with (SFadd 53 1024 (B2SF a) (B2SF b)). rewrite add_equiv.
  pose proof (Bplus_correct 53 1024 Hprec Hmax mode_NE a b Fa Fb) as P.
  rewrite Rlt_bool_true in P by (rewrite Ea, Eb; exact Hr). destruct P as (P1 & P2 & _).
  destruct (bin_dbl _ P2) as [D E]. split; auto. rewrite E, P1, Ea, Eb. reflexivity.
Qed.
Lemma fsub_spec x y : dbl x -> dbl y -> in_range (rnd64 (f2r x - f2r y)) ->
  dbl (wsub x y) /\ f2r (wsub x y) = rnd64 (f2r x - f2r y).
Proof.
  intros Dx Dy Hr. destruct (dbl_bin x Dx) as (a & <- & Fa & Ea), (dbl_bin y Dy) as (b & <- & Fb & Eb).
  change (wsub (B2SF a) (B2SF b)) with (SFsub 53 1024 (B2SF a) (B2SF b)). rewrite sub_equiv.
  pose proof (Bminus_correct 53 1024 Hprec Hmax mode_NE a b Fa Fb) as P.
  rewrite Rlt_bool_true in P by (rewrite Ea, Eb; exact Hr). destruct P as (P1 & P2 & _).
  destruct (bin_dbl _ P2) as [D E]. split; auto. rewrite E, P1, Ea, Eb. reflexivity.
Qed.
Lemma fmul_spec x y : dbl x -> dbl y -> in_range (rnd64 (f2r x * f2r y)) ->
  dbl (wmul x y) /\ f2r (wmul x y) = rnd64 (f2r x * f2r y).
Proof.
  intros Dx Dy Hr. destruct (dbl_bin x Dx) as (a & <- & Fa & Ea), (dbl_bin y Dy) as (b & <- & Fb & Eb).
  change (wmul (B2SF a) (B2SF b)) with (SFmul 53 1024 (B2SF a) (B2SF b)). rewrite mul_equiv.
  pose proof (Bmult_correct 53 1024 Hprec Hmax mode_NE a b) as P.
  rewrite Rlt_bool_true in P by (rewrite Ea, Eb; exact Hr). destruct P as (P1 & P2 & _).
  rewrite Fa, Fb in P2.
  destruct (bin_dbl _ P2) as [D E]. split; auto. rewrite E, P1, Ea, Eb. reflexivity.
Qed.
Lemma fdiv_spec x y : dbl x -> dbl y -> f2r y <> 0 -> in_range (rnd64 (f2r x / f2r y)) ->
  dbl (wdiv x y) /\ f2r (wdiv x y) = rnd64 (f2r x / f2r y).
Proof.
  intros Dx Dy Hz Hr. destruct (dbl_bin x Dx) as (a & <- & Fa & Ea), (dbl_bin y Dy) as (b & <- & Fb & Eb).
  change (wdiv (B2SF a) (B2SF b)) with (SFdiv 53 1024 (B2SF a) (B2SF b)). rewrite div_equiv.
  pose proof (Bdiv_correct 53 1024 Hprec Hmax mode_NE a b) as P.
  rewrite Eb in P. specialize (P Hz). rewrite Rlt_bool_true in P by (rewrite Ea; exact Hr). destruct P as (P1 & P2 & _).
  rewrite Fa in P2. destruct (bin_dbl _ P2) as [D E]. split; auto. rewrite E, P1, Ea. reflexivity.
Qed.

Lemma f2r_0 : f2r w0 = 0. Proof. reflexivity. Qed.
Lemma f2r_1 : f2r w1 = 1.
Proof.
  unfold f2r. cbn [SF2R w1 NumF64]. unfold F2R. cbn [Fnum Fexp cond_Zopp].
  change 4503599627370496%Z with (2 ^ 52)%Z. change (2 ^ 52)%Z with (Zpower radix2 52). rewrite IZR_Zpower by lia. rewrite <- bpow_plus. reflexivity.
Qed.
Lemma dbl_0 : dbl w0. Proof. now split. Qed.
Lemma dbl_1 : dbl w1. Proof. split; vm_compute; reflexivity. Qed.

(** Comparisons of finite doubles are comparisons of the reals. *)
Lemma fcmp_spec x y : dbl x -> dbl y -> SFcompare x y = Some (Rcompare (f2r x) (f2r y)).
Proof.
  intros Dx Dy. destruct (dbl_bin x Dx) as (a & <- & Fa & Ea), (dbl_bin y Dy) as (b & <- & Fb & Eb).
  rewrite <- Ea, <- Eb. apply (Bcompare_correct 53 1024 a b Fa Fb).
Qed.
Lemma fltb_spec x y : dbl x -> dbl y -> wltb x y = true <-> f2r x < f2r y.
Proof.
  intros Dx Dy. change (wltb x y) with (SFltb x y). unfold SFltb. rewrite fcmp_spec by auto.
  destruct (Rcompare_spec (f2r x) (f2r y)); split; intros; try discriminate; try reflexivity; lra.
Qed.
Lemma fleb_spec x y : dbl x -> dbl y -> wleb x y = true <-> f2r x <= f2r y.
Proof.
  intros Dx Dy. change (wleb x y) with (SFleb x y). unfold SFleb. rewrite fcmp_spec by auto.
  destruct (Rcompare_spec (f2r x) (f2r y)); split; intros; try discriminate; try reflexivity; lra.
Qed.
Lemma feqb_spec x y : dbl x -> dbl y -> weqb x y = true <-> f2r x = f2r y.
Proof.
  intros Dx Dy. change (weqb x y) with (SFeqb x y). unfold SFeqb. rewrite fcmp_spec by auto.
  destruct (Rcompare_spec (f2r x) (f2r y)); split; intros; try discriminate; try reflexivity; lra.
Qed.

(** ** Integers of absolute value up to 2^53 are exact *)
Definition zf (z : Z) : f64 := SpecFloat.binary_normalize 53 1024 z 0 false.
Definition small_int (z : Z) : Prop := (Z.abs z <= 2 ^ 53)%Z.
Definition zbin (z : Z) : bin := binary_normalize 53 1024 Hprec Hmax mode_NE z 0 false.

Lemma int_format z : small_int z -> generic_format radix2 (FLT_exp (-1074) 53) (IZR z).
Proof.
  intros Hz. destruct (Z.eq_dec (Z.abs z) (2 ^ 53)) as [E|E].
  - assert (z = 2 ^ 53 \/ z = - 2 ^ 53)%Z as [-> | ->] by lia.
    + change (2 ^ 53)%Z with (Zpower radix2 53). rewrite IZR_Zpower by lia. apply generic_format_FLT_bpow; [exact Hprec|lia].
    + rewrite opp_IZR. apply generic_format_opp. change (2 ^ 53)%Z with (Zpower radix2 53). rewrite IZR_Zpower by lia.
      apply generic_format_FLT_bpow; [exact Hprec|lia].
  - apply generic_format_FLT. unfold small_int in Hz. exists (Float radix2 z 0); simpl; [unfold F2R; simpl; lra| |]; lia.
Qed.
Lemma rnd_int z : small_int z -> rnd64 (IZR z) = IZR z.
Proof. intros. apply rnd_format. now apply int_format. Qed.
Lemma int_range z : small_int z -> in_range (IZR z).
Proof.
  intros Hz. unfold in_range. rewrite <- abs_IZR. apply Rle_lt_trans with (IZR (2 ^ 53)); [now apply IZR_le|].
  change (2 ^ 53)%Z with (Zpower radix2 53). rewrite IZR_Zpower by lia. apply bpow_lt. lia.
Qed.
Lemma zbin_spec z : small_int z -> B2R (zbin z) = IZR z /\ is_finite (zbin z) = true /\ Bsign (zbin z) = (z <? 0)%Z.
Proof.
  intros Hz. pose proof (binary_normalize_correct 53 1024 Hprec Hmax mode_NE z 0 false) as P.
  assert (F2R (Float radix2 z 0) = IZR z) as EF by (unfold F2R; simpl; lra). rewrite EF in P. cbv zeta in P.
  change (round radix2 (SpecFloat.fexp 53 1024) (round_mode mode_NE) (IZR z)) with (rnd64 (IZR z)) in P.
  rewrite rnd_int in P by auto. rewrite Rlt_bool_true in P by (now apply int_range).
  destruct P as (P1 & P2 & P3). split; [exact P1|split; [exact P2|]]. unfold zbin. rewrite P3.
  destruct (Z.ltb_spec z 0) as [L|L].
  - rewrite Rcompare_Lt; auto. now apply (IZR_lt z 0).
  - destruct (Z.eq_dec z 0) as [->|]; [rewrite Rcompare_Eq; auto|rewrite Rcompare_Gt; auto; apply (IZR_lt 0 z); lia].
Qed.
Lemma zf_bin z : zf z = B2SF (zbin z). Proof. apply binary_normalize_equiv. Qed.
Lemma zf_spec z : small_int z -> dbl (zf z) /\ f2r (zf z) = IZR z.
Proof.
  intros Hz. destruct (zbin_spec z Hz) as (A & B & _). rewrite zf_bin. destruct (bin_dbl _ B) as [D E]. split; auto. now rewrite E.
Qed.
Lemma zf_0 : zf 0 = w0. Proof. reflexivity. Qed.
Lemma zf_1 : zf 1 = w1. Proof. vm_compute. reflexivity. Qed.
Lemma zf_inj a b : small_int a -> small_int b -> zf a = zf b -> a = b.
Proof. intros Ha Hb E. apply eq_IZR. rewrite <- (proj2 (zf_spec a Ha)), <- (proj2 (zf_spec b Hb)). now rewrite E. Qed.
(** A finite double whose value is an integer up to 2^53, and which is not -0, is [zf z]. *)
Lemma zf_complete x z : small_int z -> dbl x -> f2r x = IZR z -> x <> S754_zero true -> x = zf z.
Proof.
  intros Hz Dx E Hn. destruct (dbl_bin x Dx) as (b & <- & Fb & Eb). rewrite zf_bin. f_equal.
  destruct (zbin_spec z Hz) as (A & B & C). apply B2R_Bsign_inj; auto; [congruence|].
  rewrite C. rewrite <- Eb in E. clear -E Fb Hn. destruct b as [s|s| |s m e H]; try discriminate.
  - destruct s; [now contradiction Hn|]. cbn in E. apply (eq_IZR 0 z) in E. subst. reflexivity.
  - cbn [Bsign]. cbn [B2R] in E. destruct s.
    + assert (F2R (Float radix2 (cond_Zopp true (Z.pos m)) e) < 0) as L by (now apply F2R_lt_0).
      rewrite E in L. apply (lt_IZR z 0) in L. symmetry. now apply Z.ltb_lt.
    + assert (0 < F2R (Float radix2 (cond_Zopp false (Z.pos m)) e)) as L by (now apply F2R_gt_0).
      rewrite E in L. apply (lt_IZR 0 z) in L. symmetry. apply Z.ltb_ge. lia.
Qed.

Lemma zf_add a b : small_int a -> small_int b -> small_int (a + b) -> wadd (zf a) (zf b) = zf (a + b).
Proof.
  intros Ha Hb Hab. destruct (zbin_spec a Ha) as (A1 & A2 & A3), (zbin_spec b Hb) as (B1 & B2 & B3), (zbin_spec _ Hab) as (C1 & C2 & C3).
  rewrite !zf_bin. change (wadd (B2SF (zbin a)) (B2SF (zbin b))) with (SFadd 53 1024 (B2SF (zbin a)) (B2SF (zbin b))). rewrite add_equiv. f_equal.
  pose proof (Bplus_correct 53 1024 Hprec Hmax mode_NE _ _ A2 B2) as P. rewrite A1, B1, <- plus_IZR in P.
  change (round radix2 (SpecFloat.fexp 53 1024) (round_mode mode_NE) (IZR (a + b))) with (rnd64 (IZR (a + b))) in P.
  rewrite rnd_int in P by auto. rewrite Rlt_bool_true in P by (now apply int_range). destruct P as (P1 & P2 & P3).
  apply B2R_Bsign_inj; auto; [congruence|]. rewrite P3, A3, B3, C3.
  destruct (Z.compare_spec (a + b) 0) as [E|L|L].
  - rewrite E, Rcompare_Eq by reflexivity. change (0 <? 0)%Z with false. destruct (Z.ltb_spec a 0), (Z.ltb_spec b 0); auto; lia.
  - rewrite Rcompare_Lt by (now apply (IZR_lt _ 0)). symmetry. now apply Z.ltb_lt.
  - rewrite Rcompare_Gt by (now apply (IZR_lt 0)). symmetry. apply Z.ltb_ge. lia.
Qed.
Lemma zf_sub a b : small_int a -> small_int b -> small_int (a - b) -> wsub (zf a) (zf b) = zf (a - b).
Proof.
  intros Ha Hb Hab. destruct (zbin_spec a Ha) as (A1 & A2 & A3), (zbin_spec b Hb) as (B1 & B2 & B3), (zbin_spec _ Hab) as (C1 & C2 & C3).
  rewrite !zf_bin. change (wsub (B2SF (zbin a)) (B2SF (zbin b))) with (SFsub 53 1024 (B2SF (zbin a)) (B2SF (zbin b))). rewrite sub_equiv. f_equal.
  pose proof (Bminus_correct 53 1024 Hprec Hmax mode_NE _ _ A2 B2) as P. rewrite A1, B1, <- minus_IZR in P.
  change (round radix2 (SpecFloat.fexp 53 1024) (round_mode mode_NE) (IZR (a - b))) with (rnd64 (IZR (a - b))) in P.
  rewrite rnd_int in P by auto. rewrite Rlt_bool_true in P by (now apply int_range). destruct P as (P1 & P2 & P3).
  apply B2R_Bsign_inj; auto; [congruence|]. rewrite P3, A3, B3, C3.
  destruct (Z.compare_spec (a - b) 0) as [E|L|L].
  - rewrite E, Rcompare_Eq by reflexivity. change (0 <? 0)%Z with false. destruct (Z.ltb_spec a 0), (Z.ltb_spec b 0); auto; lia.
  - rewrite Rcompare_Lt by (now apply (IZR_lt _ 0)). symmetry. now apply Z.ltb_lt.
  - rewrite Rcompare_Gt by (now apply (IZR_lt 0)). symmetry. apply Z.ltb_ge. lia.
Qed.
(** Multiplication by 1 is exact on every finite double. *)
Lemma fmul_1 x : dbl x -> wmul x w1 = x.
Proof.
  intros Dx. destruct (dbl_bin x Dx) as (b & <- & Fb & Eb).
  destruct (dbl_bin w1 dbl_1) as (o & Eo & Fo & Ro). rewrite f2r_1 in Ro. rewrite <- Eo.
  change (wmul (B2SF b) (B2SF o)) with (SFmul 53 1024 (B2SF b) (B2SF o)). rewrite mul_equiv. f_equal.
  pose proof (Bmult_correct 53 1024 Hprec Hmax mode_NE b o) as P. rewrite Ro, Rmult_1_r in P.
  change (round radix2 (SpecFloat.fexp 53 1024) (round_mode mode_NE) (B2R b)) with (rnd64 (B2R b)) in P.
  rewrite rnd_format in P by (apply (generic_format_B2R 53 1024 b)). rewrite Rlt_bool_true in P by (apply (abs_B2R_lt_emax 53 1024 b)).
  destruct P as (P1 & P2 & P3). rewrite Fb, Fo in P2.
  apply B2R_Bsign_inj; auto. rewrite P3.
  - assert (Bsign o = false) as -> by (destruct o; cbn in Eo; try discriminate; injection Eo as -> _ _; reflexivity). apply xorb_false_r.
  - destruct (Bmult mode_NE b o); try discriminate; reflexivity.
Qed.

Lemma wsum_int (l : list Z) : Forall (fun z => (0 <= z)%Z) l -> (fold_right Z.add 0 l <= 2 ^ 53)%Z ->
  wsum (map zf l) = zf (fold_right Z.add 0%Z l).
Proof.
  intros Hp Hb. unfold wsum. rewrite <- zf_0.
  assert (forall l a, Forall (fun z => (0 <= z)%Z) l -> (0 <= a)%Z -> (a + fold_right Z.add 0 l <= 2 ^ 53)%Z ->
    fold_left wadd (map zf l) (zf a) = zf (a + fold_right Z.add 0%Z l)) as G; [|now rewrite (G l 0%Z)].
  clear. induction l as [|z l IH]; intros a Hp Ha Hb; cbn [fold_left fold_right map] in *.
  - now rewrite Z.add_0_r.
  - inversion Hp as [|? ? Hz Hl]; subst.
    assert (0 <= fold_right Z.add 0 l)%Z as Hs by (clear -Hl; induction Hl; cbn; lia).
    rewrite zf_add by (unfold small_int; lia). rewrite IH by (auto; lia). f_equal. lia.
Qed.

(** ** Rounding error of sums of non-negative doubles *)
Lemma u64_pos : 0 < u64. Proof. apply bpow_gt_0. Qed.
Lemma add_rel_error x y : dbl x -> dbl y -> Rabs (rnd64 (f2r x + f2r y) - (f2r x + f2r y)) <= u64 * Rabs (f2r x + f2r y).
Proof.
  intros Dx Dy. destruct (FLT_plus_error_N_ex radix2 (-1074) 53 (fun z => negb (Z.even z)) (f2r x) (f2r y)) as (eps & He & E);
    [now apply dbl_format..|].
  unfold rnd64. change ZnearestE with (Znearest (fun z => negb (Z.even z))). rewrite E.
  replace ((f2r x + f2r y) * (1 + eps) - (f2r x + f2r y)) with (eps * (f2r x + f2r y)) by ring.
  rewrite Rabs_mult. apply Rmult_le_compat_r; [apply Rabs_pos|].
  assert (u_ro radix2 53 = u64) as Eu by (unfold u_ro, u64; change (/ 2) with (bpow radix2 (-1)); rewrite <- bpow_plus; reflexivity).
  rewrite Eu in He. pose proof u64_pos. apply (Rle_trans _ _ _ He).
  apply (Rmult_le_reg_r (1 + u64)); [lra|]. unfold Rdiv. rewrite Rmult_assoc, Rinv_l, Rmult_1_r by lra. nra.
Qed.
Lemma rnd_nonneg x : 0 <= x -> 0 <= rnd64 x.
Proof. intros Hx. rewrite <- (round_0 radix2 (FLT_exp (-1074) 53) ZnearestE). apply round_le; auto; [apply FLT_exp_valid; reflexivity|apply valid_rnd_N]. Qed.
Lemma sub_rel_error x y : dbl x -> dbl y -> Rabs (rnd64 (f2r x - f2r y) - (f2r x - f2r y)) <= u64 * Rabs (f2r x - f2r y).
Proof.
  intros Dx Dy. destruct (FLT_plus_error_N_ex radix2 (-1074) 53 (fun z => negb (Z.even z)) (f2r x) (- f2r y)) as (eps & He & E);
    [now apply dbl_format|apply generic_format_opp; now apply dbl_format|].
  unfold rnd64. change ZnearestE with (Znearest (fun z => negb (Z.even z))). change (f2r x - f2r y) with (f2r x + - f2r y). rewrite E.
  replace ((f2r x + - f2r y) * (1 + eps) - (f2r x + - f2r y)) with (eps * (f2r x + - f2r y)) by ring.
  rewrite Rabs_mult. apply Rmult_le_compat_r; [apply Rabs_pos|].
  assert (u_ro radix2 53 = u64) as Eu by (unfold u_ro, u64; change (/ 2) with (bpow radix2 (-1)); rewrite <- bpow_plus; reflexivity).
  rewrite Eu in He. pose proof u64_pos. apply (Rle_trans _ _ _ He).
  apply (Rmult_le_reg_r (1 + u64)); [lra|]. unfold Rdiv. rewrite Rmult_assoc, Rinv_l, Rmult_1_r by lra. nra.
Qed.

(** [acc] approximates [S] with [k] roundings. *)
Definition approx_sum (k : nat) (acc : f64) (S : R) : Prop :=
  dbl acc /\ 0 <= f2r acc /\ 0 <= S /\ Rabs (f2r acc - S) <= ((1 + u64) ^ k - 1) * S.
Lemma approx_upper k acc S : approx_sum k acc S -> f2r acc <= (1 + u64) ^ k * S.
Proof. intros (_ & _ & _ & E). apply Rabs_le_inv in E. lra. Qed.
Lemma pow_u_ge1 k : 1 <= (1 + u64) ^ k.
Proof. pose proof u64_pos. apply pow_R1_Rle. lra. Qed.
Lemma approx_step k acc S x : approx_sum k acc S -> dbl x -> 0 <= f2r x -> (1 + u64) ^ (k + 1) * (S + f2r x) < bpow radix2 1024 ->
  approx_sum (k + 1) (wadd acc x) (S + f2r x).
Proof.
  intros Ha Dx Hx Hr. pose proof (approx_upper _ _ _ Ha) as U. destruct Ha as (Da & Pa & PS & E).
  pose proof u64_pos as Hu. pose proof (pow_u_ge1 k) as Hk.
  pose proof (add_rel_error acc x Da Dx) as RE. rewrite (Rabs_pos_eq (f2r acc + f2r x)) in RE by lra.
  assert (f2r acc + f2r x <= (1 + u64) ^ k * (S + f2r x)) as U2 by nra.
  assert (0 <= rnd64 (f2r acc + f2r x)) as Hnn by (apply rnd_nonneg; lra).
  replace ((1 + u64) ^ (k + 1)) with ((1 + u64) ^ k * (1 + u64)) in * by (rewrite pow_add; ring).
  assert (rnd64 (f2r acc + f2r x) <= (1 + u64) ^ k * (1 + u64) * (S + f2r x)) as U3.
  { apply Rabs_le_inv in RE. nra. }
  destruct (fadd_spec acc x Da Dx) as [D Ev]; [unfold in_range; rewrite Rabs_pos_eq; lra|].
  split; auto. rewrite Ev. split; auto. split; [lra|].
  replace (rnd64 (f2r acc + f2r x) - (S + f2r x)) with ((rnd64 (f2r acc + f2r x) - (f2r acc + f2r x)) + (f2r acc - S)) by ring.
  apply (Rle_trans _ _ _ (Rabs_triang _ _)).
  assert (u64 * (f2r acc + f2r x) <= u64 * ((1 + u64) ^ k * (S + f2r x))) by (apply Rmult_le_compat_l; lra).
  replace (pow (1 + u64) (k + 1)) with ((1 + u64) ^ k * (1 + u64)) by (rewrite pow_add; ring).
  assert (0 <= ((1 + u64) ^ k - 1) * f2r x) by (apply Rmult_le_pos; lra). nra.
Qed.
Lemma approx_weaken k k' acc S : (k <= k')%nat -> approx_sum k acc S -> approx_sum k' acc S.
Proof.
  intros L (D & P & Q & E). split; auto. split; auto. split; auto. apply (Rle_trans _ _ _ E). apply Rmult_le_compat_r; auto.
  pose proof u64_pos. enough ((1 + u64) ^ k <= (1 + u64) ^ k') by lra. apply Rle_pow; auto. lra.
Qed.
Lemma approx_start x : dbl x -> 0 <= f2r x -> approx_sum 0 (wadd w0 x) (f2r x).
Proof.
  intros D P. destruct (fadd_spec w0 x dbl_0 D) as [D' E].
  - rewrite f2r_0, Rplus_0_l, rnd_dbl by auto. now apply dbl_range.
  - rewrite f2r_0, Rplus_0_l, rnd_dbl in E by auto. split; auto. rewrite E. split; auto. split; auto.
    rewrite Rminus_diag_eq by auto. rewrite Rabs_R0. simpl. lra.
Qed.
Lemma approx_exact x : dbl x -> 0 <= f2r x -> approx_sum 0 x (f2r x).
Proof. intros D P. split; auto. split; auto. split; auto. rewrite Rminus_diag_eq by auto. rewrite Rabs_R0. simpl. lra. Qed.
