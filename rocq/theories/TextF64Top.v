(** Reading back the six-digit text of a double (C75). *)
From Verif Require Import Base Num RSum FloatFacts Text TextFacts TextQc TextF64 TextF64Facts IOSpec.
From Coq Require Import ZArith Reals Lra Lia SpecFloat Ascii String List.
From Flocq Require Import Core BinarySingleNaN Relative.
Import ListNotations.
Local Open Scope nat_scope.
Local Open Scope char_scope.
Local Open Scope list_scope.
Definition minus : text := ["-"].

Local Instance Hprec2 : FLX.Prec_gt_0 53 := eq_refl _.
Local Instance Hmax2 : Prec_lt_emax 53 1024 := eq_refl _.

Section Round.
  Local Open Scope R_scope.
  Definition sgn (s : bool) (x : R) : R := if s then - x else x.
  Lemma rnd_opp x : rnd64 (- x) = - rnd64 x.
  Proof. unfold rnd64. apply round_NE_opp. Qed.
  Lemma rnd_sgn s x : rnd64 (sgn s x) = sgn s (rnd64 x).
  Proof. destruct s; [apply rnd_opp|reflexivity]. Qed.
  Lemma abs_sgn s x : Rabs (sgn s x) = Rabs x.
  Proof. destruct s; [apply Rabs_Ropp|reflexivity]. Qed.
  Lemma round_ratio_spec neg num den : in_range (rnd64 (IZR (Zpos num) / IZR (Zpos den))) ->
    dbl (round_ratio neg num den) /\ f2r (round_ratio neg num den) = sgn neg (rnd64 (IZR (Zpos num) / IZR (Zpos den))) /\ sign_SF (round_ratio neg num den) = neg.
  Proof.
    intros Hr. unfold round_ratio. pose proof (Bdiv_correct_aux 53 1024 Hprec2 Hmax2 mode_NE neg num 0 false den 0) as P. cbv zeta in P.
    destruct (SFdiv_core_binary 53 1024 (Zpos num) 0 (Zpos den) 0) as [[mz ez] lz]. rewrite binary_round_aux_equiv.
    assert (F2R (Float radix2 (cond_Zopp neg (Zpos num)) 0) / F2R (Float radix2 (cond_Zopp false (Zpos den)) 0) = sgn neg (IZR (Zpos num) / IZR (Zpos den))) as E.
    { unfold F2R. cbn [Fnum Fexp bpow]. rewrite !Rmult_1_r. cbn [cond_Zopp]. destruct neg; cbn [cond_Zopp sgn]; [rewrite opp_IZR|]; unfold Rdiv; ring. }
    rewrite E in P. change (round radix2 (SpecFloat.fexp 53 1024) (round_mode mode_NE) ?x) with (rnd64 x) in P. rewrite rnd_sgn in P.
    rewrite Rlt_bool_true in P by (rewrite abs_sgn; exact Hr). destruct P as (P1 & P2 & P3 & P4). rewrite Bool.xorb_false_r in *.
    split; [split; assumption|]. split; assumption.
  Qed.
  Lemma rnd_rel x : bpow radix2 (-1022) <= Rabs x -> Rabs (rnd64 x - x) <= u64 * Rabs x.
  Proof.
    intros Hx. pose proof (relative_error_N_FLT radix2 (-1074) 53 eq_refl (fun z => negb (Z.even z)) x Hx) as Hr.
    replace u64 with (/ 2 * bpow radix2 (-53 + 1)); [exact Hr|]. unfold u64. replace (-53 + 1)%Z with (1 + -53)%Z by lia. rewrite bpow_plus. change (bpow radix2 1) with 2. lra.
  Qed.
  Lemma u64_val : u64 <= / 1000000000000000.
  Proof. unfold u64. cbn. apply Rinv_le; lra. Qed.
  Lemma u64_pos : 0 < u64. Proof. apply bpow_gt_0. Qed.
  Lemma small_lo : bpow radix2 (-1022) * 4 <= p10 (-307).
  Proof.
    replace (bpow radix2 (-1022) * 4) with (bpow radix2 (-1020)).
    - rewrite !bpow_opp with (e := 1020%Z) || idtac. change (-1020)%Z with (- (1020))%Z. change (-307)%Z with (- (307))%Z. rewrite !bpow_opp. apply Rinv_le; [apply bpow_gt_0|].
      rewrite <- (p10_Z 307) by lia. rewrite <- (IZR_Zpower radix2 1020) by lia. apply IZR_le. vm_compute. discriminate.
    - change (-1020)%Z with (-1022 + 2)%Z. rewrite bpow_plus. reflexivity.
  Qed.
  Lemma big_hi : p10 308 * 2 <= bpow radix2 1024 * 2 - bpow radix2 1020.
  Proof.
    rewrite <- (p10_Z 308) by lia. rewrite <- (IZR_Zpower radix2 1024), <- (IZR_Zpower radix2 1020) by lia. rewrite <- !mult_IZR, <- minus_IZR. apply IZR_le. vm_compute. discriminate.
  Qed.
  Lemma big_hi2 : p10 308 * (1 + / 1000) < bpow radix2 1024.
  Proof.
    rewrite <- (p10_Z 308) by lia. rewrite <- (IZR_Zpower radix2 1024) by lia.
    apply (Rmult_lt_reg_r 1000); [lra|]. replace (IZR (10 ^ 308) * (1 + / 1000) * 1000) with (IZR (10 ^ 308) * 1001) by field.
    rewrite <- !mult_IZR. apply IZR_lt. vm_compute. reflexivity.
  Qed.
  (** Decimals in this range are read without overflow or underflow. *)
  Definition readable (d : R) : Prop := p10 (-307) / 2 <= d <= p10 308 * (1 + / 10000).
  Lemma readable_range d : readable d -> bpow radix2 (-1022) * 2 <= d /\ in_range (rnd64 d) /\ bpow radix2 (-1022) <= rnd64 d /\ Rabs (rnd64 d - d) <= u64 * d.
  Proof.
    intros [H1 H2]. pose proof small_lo as Hlo. pose proof (bpow_gt_0 radix2 (-1022)) as Hp. pose proof (p10_pos 308) as Hp8. assert (bpow radix2 (-1022) * 2 <= d) as Hd by lra.
    assert (Rabs d = d) as Ea by (apply Rabs_pos_eq; lra).
    pose proof (rnd_rel d) as Hr. rewrite Ea in Hr. specialize (Hr ltac:(lra)). pose proof u64_val as Hu. pose proof u64_pos as Hu0. pose proof (Rabs_le_inv _ _ Hr) as [R1 R2].
    assert (u64 * d <= / 1000000000000000 * d) as Hud by (apply Rmult_le_compat_r; lra).
    split; [exact Hd|]. split; [|split; [lra|exact Hr]].
    unfold in_range. rewrite Rabs_pos_eq by lra. pose proof big_hi2. apply Rle_lt_trans with (p10 308 * (1 + / 1000)); [|assumption]. lra.
  Qed.
  Lemma normal_mantissa s m e : dbl (S754_finite s m e) -> bpow radix2 (-1022) <= Rabs (f2r (S754_finite s m e)) -> (2 ^ 52 <= Zpos m)%Z.
  Proof.
    intros [V F] Hx. destruct (Z.lt_ge_cases (Zpos m) (2 ^ 52)) as [Hlt|]; [|lia]. exfalso.
    cbn [SpecFloat.valid_binary] in V. unfold SpecFloat.bounded in V. apply andb_true_iff in V. destruct V as [C _]. unfold SpecFloat.canonical_mantissa in C.
    apply Zeq_bool_eq in C. unfold SpecFloat.fexp, SpecFloat.emin in C.
    assert (Zpos (digits2_pos m) <= 52)%Z as Hdig.
    { rewrite Zpos_digits2_pos. apply Zdigits_le_Zpower. rewrite Z.abs_eq by lia. exact Hlt. }
    assert (e = -1074)%Z as -> by lia. apply Rle_not_lt in Hx. apply Hx. unfold f2r, SF2R. rewrite <- F2R_Zabs. unfold F2R. cbn [Fnum Fexp].
    replace (Z.abs (cond_Zopp s (Zpos m))) with (Zpos m) by (destruct s; reflexivity). change (-1022)%Z with (52 + -1074)%Z. rewrite bpow_plus.
    apply Rmult_lt_compat_r; [apply bpow_gt_0|]. rewrite <- (IZR_Zpower radix2 52) by lia. apply IZR_lt. exact Hlt.
  Qed.
  Lemma in_range_result_ok x num den : dbl x -> bpow radix2 (-1022) <= Rabs (f2r x) -> in_range_result x num den = Ok x.
  Proof.
    intros Hd Hx. pose proof (bpow_gt_0 radix2 (-1022)). destruct x as [s|s| |s m e]; unfold in_range_result.
    - unfold f2r in Hx. cbn [SF2R] in Hx. rewrite Rabs_R0 in Hx. lra.
    - destruct Hd as [_ F]. discriminate.
    - reflexivity.
    - pose proof (normal_mantissa s m e Hd Hx) as Hm. destruct (Z.ltb_spec (Zpos m) (2 ^ 52)); [lia|reflexivity].
  Qed.
  (** Reading a text which denotes a decimal in the range: the nearest double. *)
  Lemma stod_denotes (neg : bool) t d : denotes t d -> readable d -> (forall c r, t = c :: r -> is_digit c) ->
    exists y, stod_f64 ((if neg then minus else []) ++ t) = Ok y /\ dbl y /\ f2r y = sgn neg (rnd64 d) /\ sign_SF y = neg.
  Proof.
    intros (z & e & Es & Hz & Ed) Hd Ht. destruct (readable_range d Hd) as (Hlo & Hr & Hn & Hrel). pose proof (bpow_gt_0 radix2 (-1022)) as Hp.
    assert (skip_spaces ((if neg then minus else []) ++ t) = (if neg then minus else []) ++ t /\ scan_sign ((if neg then minus else []) ++ t) = (neg, t)) as [E1 E2].
    { destruct neg; [split; reflexivity|]. cbn [app]. destruct t as [|c r]; [split; reflexivity|]. specialize (Ht c r eq_refl). split; cbn [skip_spaces scan_sign].
      - now rewrite digit_not_space.
      - apply digit_not_punct in Ht. destruct (Ascii.eqb_spec c "-"); [exfalso; apply Ht; subst; simpl; tauto|].
        destruct (Ascii.eqb_spec c "+"); [exfalso; apply Ht; subst; simpl; tauto|reflexivity]. }
    unfold stod_f64. rewrite E1, E2, Es. assert (0 < d) as Hd0 by lra.
    assert (z <> 0)%Z as Hz0 by (intros ->; rewrite Rmult_0_l in Ed; lra).
    set (num := if (0 <=? e)%Z then (z * 10 ^ e)%Z else z). set (den := if (0 <=? e)%Z then 1%Z else (10 ^ (- e))%Z).
    assert (0 < num /\ 0 < den)%Z as [Pn Pd].
    { unfold num, den. destruct (Z.leb_spec 0 e).
      - split; [|lia]. apply Z.mul_pos_pos; [lia|]. apply Z.pow_pos_nonneg; lia.
      - split; [lia|]. apply Z.pow_pos_nonneg; lia. }
    assert (IZR (Zpos (Z.to_pos num)) / IZR (Zpos (Z.to_pos den)) = d) as Eq.
    { rewrite !Z2Pos.id by lia. rewrite <- Ed. unfold num, den. destruct (Z.leb_spec 0 e).
      - rewrite mult_IZR, p10_Z by lia. field.
      - rewrite p10_Z by lia. rewrite bpow_opp. pose proof (p10_pos e). field. lra. }
    pose proof (round_ratio_spec neg (Z.to_pos num) (Z.to_pos den)) as Hrr. rewrite Eq in Hrr. destruct (Hrr Hr) as (D & F & S).
    destruct z as [|p|p]; [congruence| |lia]. exists (round_ratio neg (Z.to_pos num) (Z.to_pos den)). split; [|auto].
    apply in_range_result_ok; [exact D|]. rewrite F, abs_sgn, Rabs_pos_eq by lra. exact Hn.
  Qed.
  Lemma layout_starts m e c r : (100000 <= m < 1000000)%Z -> layout m e = c :: r -> is_digit c.
  Proof.
    intros Hm. pose proof (show_Z_digits m ltac:(lia)) as Hd. pose proof (show_Z_len6 m Hm) as H6. unfold layout. destruct (show_Z m) as [|d0 ds]; [discriminate|].
    apply Forall_cons_iff in Hd. destruct Hd as [Hc _].
    destruct ((-4 <=? e) && (e <? 6))%Z eqn:Eb.
    - destruct (Z.ltb_spec e 0); [intros [= <- _]; apply zero_digit|].
      destruct (Z.to_nat (e + 1)) eqn:Ek; [lia|]. cbn [firstn app]. intros [= <- _]. exact Hc.
    - cbn [firstn app]. intros [= <- _]. exact Hc.
  Qed.
  Lemma stod_layout (neg : bool) m e : (100000 <= m < 1000000)%Z -> readable (IZR m * p10 (e - 5)) ->
    exists y, stod_f64 ((if neg then minus else []) ++ layout m e) = Ok y /\ dbl y /\ f2r y = sgn neg (rnd64 (IZR m * p10 (e - 5))) /\ sign_SF y = neg.
  Proof.
    intros Hm Hr. apply stod_denotes; [now apply layout_denotes|exact Hr|]. intros c r E. eapply layout_starts; eauto.
  Qed.

  (** ** Printing *)
  Lemma fmt_layout x : dbl x -> f2r x <> 0 -> exists num den, (0 < num)%Z /\ (0 < den)%Z /\ Rabs (f2r x) = IZR num / IZR den /\
    fmt_f64 x = (if sign_SF x then minus else []) ++ layout (fst (six num den)) (snd (six num den)).
  Proof.
    intros [V F] Hx. destruct x as [s|s| |s m e]; [now elim Hx|discriminate|discriminate|]. clear V F Hx.
    assert (Rabs (f2r (S754_finite s m e)) = IZR (Zpos m) * bpow radix2 e) as Ea.
    { unfold f2r, SF2R. rewrite <- F2R_Zabs. unfold F2R. cbn [Fnum Fexp]. f_equal. destruct s; reflexivity. }
    rewrite Ea. cbn [fmt_f64 sign_SF]. destruct (Z.leb_spec 0 e) as [He|He].
    - exists (Zpos m * 2 ^ e)%Z, 1%Z. assert (0 < 2 ^ e)%Z by (apply Z.pow_pos_nonneg; lia). split; [lia|]. split; [lia|]. split; [|unfold minus; now rewrite fmt_pos_layout].
      rewrite mult_IZR. change (2 ^ e)%Z with (Zpower radix2 e). rewrite IZR_Zpower by lia. field.
    - exists (Zpos m), (2 ^ (- e))%Z. assert (0 < 2 ^ (- e))%Z by (apply Z.pow_pos_nonneg; lia). split; [lia|]. split; [lia|]. split; [|now rewrite fmt_pos_layout].
      change (2 ^ (- e))%Z with (Zpower radix2 (- e)). rewrite IZR_Zpower by lia. rewrite bpow_opp. pose proof (bpow_gt_0 radix2 e). field. lra.
  Qed.
  Lemma sgn_abs x : dbl x -> f2r x = sgn (sign_SF x) (Rabs (f2r x)).
  Proof.
    intros [_ F]. destruct x as [s|s| |s m e]; try discriminate.
    - unfold f2r. cbn [SF2R]. rewrite Rabs_R0. destruct s; cbn [sgn sign_SF]; lra.
    - unfold f2r, SF2R. rewrite <- F2R_Zabs. cbn [sign_SF]. destruct s; cbn [sgn cond_Zopp Z.abs Z.opp]; [|reflexivity]. rewrite <- F2R_Zopp. reflexivity.
  Qed.
  Lemma dbl_inj x y : dbl x -> dbl y -> f2r x <> 0 -> f2r x = f2r y -> x = y.
  Proof.
    intros Dx Dy Hne E. destruct (dbl_bin x Dx) as (a & <- & Fa & Ea), (dbl_bin y Dy) as (b & <- & Fb & Eb).
    f_equal. assert (forall c : binary_float 53 1024, is_finite c = true -> B2R c <> 0 -> is_finite_strict c = true) as Hs.
    { intros c Fc Hc. destruct c; try discriminate; [now elim Hc|reflexivity]. }
    apply B2R_inj; [apply Hs; congruence|apply Hs; congruence|congruence].
  Qed.
  Definition printed_range (x : f64) : Prop := p10 (-307) <= Rabs (f2r x) <= p10 308.
  Lemma err_u : u64 * (1 + 5 / 1000000) + 5 / 1000000 <= 501 / 100000000.
  Proof. pose proof u64_val. lra. Qed.
  (** The printed text denotes a six-digit decimal near the number; reading it gives the nearest double of that decimal. *)
  Lemma print_read x : dbl x -> printed_range x ->
    exists m e y, (100000 <= m < 1000000)%Z /\ fmt_f64 x = (if sign_SF x then minus else []) ++ layout m e /\
      Rabs (IZR m * p10 (e - 5) - Rabs (f2r x)) <= 5 / 1000000 * Rabs (f2r x) /\ readable (IZR m * p10 (e - 5)) /\
      stod_f64 (fmt_f64 x) = Ok y /\ dbl y /\ f2r y = sgn (sign_SF x) (rnd64 (IZR m * p10 (e - 5))) /\ sign_SF y = sign_SF x.
  Proof.
    intros Dx [R1 R2]. pose proof (p10_pos (-307)) as Hp. pose proof (p10_pos 308) as Hp8. assert (f2r x <> 0) as Hx0 by (intros E; rewrite E, Rabs_R0 in R1; lra).
    destruct (fmt_layout x Dx Hx0) as (num & den & Hn & Hd & Ea & Ef). destruct (six_spec num den Hn Hd) as [Hm He]. rewrite <- Ea in He.
    set (m := fst (six num den)) in *. set (e := snd (six num den)) in *. set (a := Rabs (f2r x)) in *.
    assert (readable (IZR m * p10 (e - 5))) as Hr by (apply Rabs_le_inv in He; split; lra).
    destruct (stod_layout (sign_SF x) m e Hm Hr) as (y & Ey & Dy & Fy & Sy). exists m, e, y. rewrite Ef. repeat (split; auto).
  Qed.
  Theorem print_read_error x : dbl x -> printed_range x ->
    exists y, stod_f64 (fmt_f64 x) = Ok y /\ dbl y /\ Rabs (f2r y - f2r x) <= 501 / 100000000 * Rabs (f2r x).
  Proof.
    intros Dx Hr. destruct (print_read x Dx Hr) as (m & e & y & Hm & Ef & He & Hd & Ey & Dy & Fy & Sy). exists y. split; [exact Ey|]. split; [exact Dy|].
    rewrite Fy, (sgn_abs x Dx) at 1. set (a := Rabs (f2r x)) in *. set (d := IZR m * p10 (e - 5)) in *.
    assert (sgn (sign_SF x) (rnd64 d) - sgn (sign_SF x) a = sgn (sign_SF x) (rnd64 d - a)) as -> by (destruct (sign_SF x); cbn [sgn]; lra).
    rewrite abs_sgn. destruct (readable_range d Hd) as (_ & _ & _ & Hrel). pose proof (Rabs_le_inv _ _ He) as [A1 A2].
    replace (rnd64 d - a) with ((rnd64 d - d) + (d - a)) by ring. eapply Rle_trans; [apply Rabs_triang|]. pose proof u64_pos.
    assert (0 <= a) by apply Rabs_pos. assert (u64 * d <= u64 * ((1 + 5 / 1000000) * a)) by (apply Rmult_le_compat_l; lra).
    pose proof err_u as Hu. apply (Rmult_le_compat_r a) in Hu; [|assumption]. lra.
  Qed.
  (** A double nearest to a decimal with at most six digits survives. *)
  Lemma six_of_decimal x m e : dbl x -> readable (IZR m * p10 (e - 5)) -> (100000 <= m < 1000000)%Z ->
    Rabs (f2r x) = rnd64 (IZR m * p10 (e - 5)) -> fmt_f64 x = (if sign_SF x then minus else []) ++ layout m e.
  Proof.
    intros Dx Hd Hm Ex. destruct (readable_range _ Hd) as (Hlo & _ & Hn & Hrel). pose proof (bpow_gt_0 radix2 (-1022)) as Hp.
    assert (f2r x <> 0) as Hx0 by (intros E; rewrite E, Rabs_R0 in Ex; lra).
    destruct (fmt_layout x Dx Hx0) as (num & den & Hnu & Hde & Ea & Ef). rewrite Ef.
    assert (six num den = (m, e)) as ->; [|reflexivity]. apply six_decimal; auto. rewrite <- Ea, Ex. eapply Rle_trans; [exact Hrel|].
    apply Rmult_le_compat_r; [lra|]. pose proof u64_val. lra.
  Qed.
  Lemma decimal_survives x m e : dbl x -> readable (IZR m * p10 (e - 5)) -> (100000 <= m < 1000000)%Z ->
    Rabs (f2r x) = rnd64 (IZR m * p10 (e - 5)) -> stod_f64 (fmt_f64 x) = Ok x.
  Proof.
    intros Dx Hd Hm Ex. rewrite (six_of_decimal x m e Dx Hd Hm Ex). destruct (stod_layout (sign_SF x) m e Hm Hd) as (y & -> & Dy & Fy & _). f_equal.
    symmetry. apply dbl_inj; auto.
    - intros E. rewrite E, Rabs_R0 in Ex. destruct (readable_range _ Hd) as (_ & _ & Hn & _). pose proof (bpow_gt_0 radix2 (-1022)). lra.
    - rewrite Fy, <- Ex. now apply sgn_abs.
  Qed.
  (** Any decimal with at most six digits has a six-digit form. *)
  Lemma normalise m k : (0 < m < 1000000)%Z -> exists m' e, (100000 <= m' < 1000000)%Z /\ IZR m' * p10 (e - 5) = IZR m * p10 k.
  Proof.
    intros Hm. destruct (show_Z_len m ltac:(lia)) as (n & _ & Hn).
    assert (n <= 5)%nat as Hn5.
    { destruct (Nat.le_gt_cases n 5) as [|Hgt]; auto. exfalso. pose proof (Z.pow_le_mono_r 10 6 (Z.of_nat n) ltac:(lia) ltac:(lia)) as Hp. change (10 ^ 6)%Z with 1000000%Z in Hp. lia. }
    exists (m * 10 ^ (5 - Z.of_nat n))%Z, (k + Z.of_nat n)%Z. split.
    - assert (10 ^ Z.of_nat n * 10 ^ (5 - Z.of_nat n) = 100000)%Z as E5 by (rewrite <- Z.pow_add_r by lia; replace (Z.of_nat n + (5 - Z.of_nat n))%Z with 5%Z by lia; reflexivity).
      assert (0 < 10 ^ (5 - Z.of_nat n))%Z by (apply Z.pow_pos_nonneg; lia). rewrite (Nat2Z.inj_succ n), Z.pow_succ_r in Hn by lia. nia.
    - rewrite mult_IZR, p10_Z by lia. rewrite Rmult_assoc, p10_add. do 2 f_equal. lia.
  Qed.
  Theorem six_digits_survive x m k : dbl x -> (0 < m < 1000000)%Z -> p10 (-307) <= IZR m * p10 k <= p10 308 ->
    Rabs (f2r x) = rnd64 (IZR m * p10 k) -> stod_f64 (fmt_f64 x) = Ok x.
  Proof.
    intros Dx Hm Hk Ex. destruct (normalise m k Hm) as (m' & e & Hm' & E). rewrite <- E in *. apply (decimal_survives x m' e); auto.
    pose proof (p10_pos (-307)). pose proof (p10_pos 308). split; lra.
  Qed.
  (** Printing the number read back gives the same text: saving twice changes nothing more. *)
  Theorem print_idempotent x y : dbl x -> printed_range x -> stod_f64 (fmt_f64 x) = Ok y -> fmt_f64 y = fmt_f64 x /\ stod_f64 (fmt_f64 y) = Ok y.
  Proof.
    intros Dx Hr Ey. destruct (print_read x Dx Hr) as (m & e & y' & Hm & Ef & _ & Hd & Ey' & Dy & Fy & Sy). rewrite Ey in Ey'. injection Ey' as <-.
    destruct (readable_range _ Hd) as (_ & _ & Hn & _). pose proof (bpow_gt_0 radix2 (-1022)).
    assert (Rabs (f2r y) = rnd64 (IZR m * p10 (e - 5))) as Ea by (rewrite Fy, abs_sgn; apply Rabs_pos_eq; lra).
    assert (fmt_f64 y = fmt_f64 x) as E by (rewrite (six_of_decimal y m e Dy Hd Hm Ea), Ef, Sy; reflexivity). split; [exact E|]. now rewrite E.
  Qed.
  Theorem survives_iff x : dbl x -> printed_range x ->
    (stod_f64 (fmt_f64 x) = Ok x <-> exists m k, (0 < m < 1000000)%Z /\ Rabs (f2r x) = rnd64 (IZR m * p10 k)).
  Proof.
    intros Dx Hr. pose proof Hr as [R1 R2]. split.
    - intros Ex. destruct (print_read x Dx Hr) as (m & e & y & Hm & Ef & He & Hd & Ey & Dy & Fy & Sy). rewrite Ex in Ey. injection Ey as <-.
      exists m, (e - 5)%Z. split; [lia|]. destruct (readable_range _ Hd) as (_ & _ & Hn & _). pose proof (bpow_gt_0 radix2 (-1022)).
      rewrite Fy, abs_sgn. apply Rabs_pos_eq. lra.
    - intros (m & k & Hm & Ex). destruct (normalise m k Hm) as (m' & e & Hm' & E). rewrite <- E in *. apply (decimal_survives x m' e); auto.
      set (d := IZR m' * p10 (e - 5)) in *. pose proof (p10_pos (-307)). pose proof (p10_pos 308). pose proof small_lo as Hlo. pose proof (bpow_gt_0 radix2 (-1022)) as Hp.
      assert (0 < d) as Hd0 by (unfold d; apply Rmult_lt_0_compat; [apply IZR_lt; lia|apply p10_pos]).
      destruct (Rlt_le_dec d (bpow radix2 (-1022))) as [Hsm|Hbig].
      + exfalso. assert (rnd64 d <= bpow radix2 (-1022)) as Hle; [|lra].
        rewrite <- (round_generic radix2 (FLT_exp (-1074) 53) ZnearestE (bpow radix2 (-1022))).
        * apply round_le; [apply FLT_exp_valid; reflexivity|apply valid_rnd_N|lra].
        * apply generic_format_bpow. vm_compute. discriminate.
      + pose proof (rnd_rel d) as Hrel. rewrite (Rabs_pos_eq d) in Hrel by lra. specialize (Hrel Hbig). apply Rabs_le_inv in Hrel. pose proof u64_val.
        assert (u64 * d <= / 1000000000000000 * d) by (apply Rmult_le_compat_r; lra). split; lra.
  Qed.
  (** The text is an ordinary token. *)
  Lemma token_free c : is_digit c \/ In c ["."; "e"; "+"; "-"] -> ~ In c [","; " "; TAB; ":"; LF; CR].
  Proof.
    intros [Hd|Hi] Hin.
    - apply (digit_not_punct c Hd). simpl in Hin. repeat (destruct Hin as [<-|Hin]; [simpl; tauto|]). destruct Hin.
    - simpl in Hi, Hin. repeat (destruct Hi as [<-|Hi]; [repeat (destruct Hin as [Hin|Hin]; [discriminate|]); destruct Hin|]). destruct Hi.
  Qed.
  Lemma digits_token t : Forall is_digit t -> forall c, In c t -> is_digit c \/ In c ["."; "e"; "+"; "-"].
  Proof. intros Ht c Hc. rewrite Forall_forall in Ht. left. auto. Qed.
  Lemma layout_token m e c : (0 <= m)%Z -> In c (layout m e) -> is_digit c \/ In c ["."; "e"; "+"; "-"].
  Proof.
    intros Hm. pose proof (show_Z_digits m Hm) as Hd. unfold layout. set (ds := show_Z m) in *.
    assert (forall k, Forall is_digit (strip_zeros (skipn k ds))) as Hs.
    { intros k. destruct (skipn_digits k ds Hd) as [Hk _]. now destruct (strip_zeros_spec _ Hk) as (n & _ & Hs). }
    assert (forall k, Forall is_digit (firstn k ds)) as Hf by (intros k; now apply skipn_digits).
    assert (forall k, In c (match strip_zeros (skipn k ds) with [] => [] | f => "." :: f end) -> is_digit c \/ In c ["."; "e"; "+"; "-"]) as Hdot.
    { intros k. specialize (Hs k). destruct (strip_zeros (skipn k ds)) as [|b0 b]; [intros []|]. intros [<-|Hi]; [right; simpl; auto|]. now apply (digits_token _ Hs). }
    destruct ((-4 <=? e) && (e <? 6))%Z.
    - destruct (e <? 0)%Z.
      + rewrite !in_app_iff. intros [Hi|[Hi|Hi]].
        * cbn in Hi. destruct Hi as [<-|[<-|[]]]; [left; apply zero_digit|right; simpl; auto].
        * apply repeat_spec in Hi. subst. left. apply zero_digit.
        * specialize (Hs 0%nat). cbn [skipn] in Hs. now apply (digits_token _ Hs).
      + rewrite in_app_iff. intros [Hi|Hi]; [now apply (digits_token _ (Hf (Z.to_nat (e + 1))))|now apply (Hdot (Z.to_nat (e + 1)))].
    - rewrite !in_app_iff. intros [Hi|[Hi|[<-|[<-|Hi]]]].
      + now apply (digits_token _ (Hf 1%nat)).
      + now apply (Hdot 1%nat).
      + right. simpl. auto.
      + right. destruct (e <? 0)%Z; simpl; auto.
      + apply in_app_iff in Hi. destruct Hi as [Hi|Hi]; [destruct (Z.abs e <? 10)%Z; [destruct Hi as [<-|[]]; left; apply zero_digit|destruct Hi]|].
        apply (digits_token (show_Z (Z.abs e))); auto. apply show_Z_digits. lia.
  Qed.
  Lemma layout_ne m e : (100000 <= m < 1000000)%Z -> layout m e <> [].
  Proof.
    intros Hm. pose proof (show_Z_len6 m Hm) as H6. unfold layout. destruct (show_Z m) as [|d0 ds]; [discriminate|].
    destruct ((-4 <=? e) && (e <? 6))%Z eqn:Eb; [|discriminate]. destruct (Z.ltb_spec e 0); [discriminate|]. destruct (Z.to_nat (e + 1)) eqn:Ek; [lia|discriminate].
  Qed.
  Lemma fmt_token x : dbl x -> printed_range x -> fmt_f64 x <> [] /\ free_of [","; " "; TAB; ":"; LF; CR] (fmt_f64 x).
  Proof.
    intros Dx Hr. destruct (print_read x Dx Hr) as (m & e & y & Hm & Ef & _). rewrite Ef. split.
    - intros E. apply app_eq_nil in E. now apply (layout_ne m e Hm).
    - intros c Hc. apply token_free. apply in_app_iff in Hc. destruct Hc as [Hc|Hc].
      + destruct (sign_SF x); [destruct Hc as [<-|[]]; right; simpl; auto|destruct Hc].
      + apply (layout_token m e); [lia|exact Hc].
  Qed.
  Theorem printable_iff x : dbl x -> printed_range x ->
    (printable x <-> exists m k, (0 < m < 1000000)%Z /\ Rabs (f2r x) = rnd64 (IZR m * p10 k)).
  Proof.
    intros Dx Hr. rewrite <- survives_iff by auto. unfold printable. change (@stod f64 TextF64) with stod_f64. change (@fmt f64 TextF64) with fmt_f64.
    pose proof (fmt_token x Dx Hr). tauto.
  Qed.
End Round.
