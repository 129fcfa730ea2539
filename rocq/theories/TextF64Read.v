(** Reading any decimal text as a double (C75). *)
From Verif Require Import Base Num RSum FloatFacts Text TextFacts TextQc TextF64 TextF64Facts TextF64Top IOSpec.
From Coq Require Import ZArith Reals Lra Lia SpecFloat Ascii String List.
From Flocq Require Import Core BinarySingleNaN.
Import ListNotations.
Local Open Scope nat_scope.
Local Open Scope char_scope.
Local Open Scope list_scope.
Local Instance Hprec3 : FLX.Prec_gt_0 53 := eq_refl _.
Local Instance Hmax3 : Prec_lt_emax 53 1024 := eq_refl _.

(** Specification: digits, most significant first, and the decimal texts. *)
Definition numeral (ds : list nat) : text := map (fun d => ascii_of_nat (48 + d)) ds.
Definition digits (ds : list nat) : Prop := Forall (fun d => d < 10) ds.
Definition value (ds : list nat) : Z := fold_left (fun acc d => (10 * acc + Z.of_nat d)%Z) ds 0%Z.
Definition sign_text (neg : bool) : text := if neg then ["-"] else [].
(** [-]a.b and [-]a.be[-]c, after white space and before anything that is not part of the number. *)
Definition decimal (neg : bool) (a b : list nat) (ex : option (bool * list nat)) : text :=
  sign_text neg ++ numeral a ++ "." :: numeral b ++ match ex with Some (en, c) => "e" :: sign_text en ++ numeral c | None => [] end.
Definition exponent (ex : option (bool * list nat)) : Z :=
  match ex with Some (en, c) => if en then (- value c)%Z else value c | None => 0%Z end.
Definition decimal_value (a b : list nat) (ex : option (bool * list nat)) : R :=
  (IZR (value (a ++ b)) * bpow r10 (exponent ex - Z.of_nat (List.length b)))%R.

Lemma numeral_digit d : d < 10 -> digit_of (ascii_of_nat (48 + d)) = Some (Z.of_nat d).
Proof. intros H. do 10 (destruct d as [|d]; [reflexivity|]). lia. Qed.
Lemma numeral_is_digit ds : digits ds -> Forall is_digit (numeral ds).
Proof. induction 1 as [|d ds Hd H IH]; constructor; auto. exists (Z.of_nat d). now apply numeral_digit. Qed.
Lemma scan_numeral ds : forall rest acc k, digits ds -> (forall c r, rest = c :: r -> digit_of c = None) ->
  scan_digits (numeral ds ++ rest) acc k = (fold_left (fun acc d => (10 * acc + Z.of_nat d)%Z) ds acc, k + List.length ds, rest).
Proof.
  induction ds as [|d ds IH]; intros rest acc k H Hr; cbn [numeral map app].
  - cbn [fold_left List.length]. rewrite Nat.add_0_r. destruct rest as [|c r]; [reflexivity|]. cbn [scan_digits]. now rewrite (Hr c r eq_refl).
  - apply Forall_cons_iff in H. destruct H as [Hd H]. cbn [scan_digits]. rewrite numeral_digit by auto. fold (numeral ds). rewrite IH by auto.
    cbn [fold_left List.length]. f_equal. f_equal; [f_equal; lia|lia].
Qed.
Lemma value_nonneg ds : forall acc, (0 <= acc)%Z -> (0 <= fold_left (fun acc d => (10 * acc + Z.of_nat d)%Z) ds acc)%Z.
Proof. induction ds as [|d ds IH]; intros acc H; cbn [fold_left]; auto. apply IH. lia. Qed.
Lemma scan_exp_numeral (en : bool) c : digits c -> c <> [] -> scan_exp ("e" :: sign_text en ++ numeral c) = if en then (- value c)%Z else value c.
Proof.
  intros Hc Hne. cbn [scan_exp]. change ("e" =? "e") with true. cbn [orb].
  assert (scan_sign (sign_text en ++ numeral c) = (en, numeral c)) as ->.
  { destruct en; [reflexivity|]. cbn [sign_text app]. destruct c as [|d c]; [congruence|]. pose proof (Forall_inv (numeral_is_digit _ Hc)) as Ht. cbn [numeral map] in *.
    cbn [scan_sign]. apply digit_not_punct in Ht. destruct (Ascii.eqb_spec (ascii_of_nat (48 + d)) "-") as [E|]; [exfalso; apply Ht; rewrite E; simpl; tauto|].
    destruct (Ascii.eqb_spec (ascii_of_nat (48 + d)) "+") as [E|]; [exfalso; apply Ht; rewrite E; simpl; tauto|reflexivity]. }
  pose proof (scan_numeral c [] 0%Z 0 Hc ltac:(discriminate)) as E. rewrite app_nil_r in E. rewrite E. destruct c; [congruence|]. cbn [List.length plus Nat.eqb]. reflexivity.
Qed.
Lemma nodig_cons c0 rest : digit_of c0 = None -> forall c r, c0 :: rest = c :: r -> digit_of c = None.
Proof. intros H c r E. injection E as <- _. exact H. Qed.
Definition exp_ok (ex : option (bool * list nat)) : Prop := match ex with Some (_, c) => digits c /\ c <> [] | None => True end.
Lemma scan_decimal_text a b ex : digits a -> digits b -> a ++ b <> [] -> exp_ok ex ->
  scan_decimal (numeral a ++ "." :: numeral b ++ match ex with Some (en, c) => "e" :: sign_text en ++ numeral c | None => [] end) =
  Some (value (a ++ b), (exponent ex - Z.of_nat (List.length b))%Z).
Proof.
  intros Ha Hb Hne Hx. unfold scan_decimal. set (rest := match ex with Some _ => _ | None => _ end).
  rewrite scan_numeral; [|exact Ha|apply nodig_cons; reflexivity]. change ("." =? ".") with true. cbv iota.
  rewrite scan_numeral; [|exact Hb|unfold rest; destruct ex as [[en c]|]; [apply nodig_cons; reflexivity|discriminate]].
  assert (Nat.eqb (0 + List.length a + (0 + List.length b)) 0 = false) as -> by (apply Nat.eqb_neq; intros Z; apply Hne; destruct a; [destruct b; [reflexivity|discriminate]|discriminate]).
  f_equal. f_equal.
  - unfold value. now rewrite fold_left_app.
  - f_equal. unfold rest. destruct ex as [[en c]|]; [|reflexivity]. destruct Hx. now apply scan_exp_numeral.
Qed.
Lemma decimal_head (neg : bool) a b ex : digits a -> skip_spaces (decimal neg a b ex) = decimal neg a b ex /\
  scan_sign (decimal neg a b ex) = (neg, numeral a ++ "." :: numeral b ++ match ex with Some (en, c) => "e" :: sign_text en ++ numeral c | None => [] end).
Proof.
  intros Ha. unfold decimal. destruct neg; [split; reflexivity|]. cbn [sign_text app]. destruct a as [|d a]; [split; reflexivity|].
  pose proof (Forall_inv (numeral_is_digit _ Ha)) as Ht. cbn [numeral map app] in *. cbn [skip_spaces scan_sign]. rewrite digit_not_space by auto. split; auto.
  apply digit_not_punct in Ht. destruct (Ascii.eqb_spec (ascii_of_nat (48 + d)) "-") as [E|]; [exfalso; apply Ht; rewrite E; simpl; tauto|].
  destruct (Ascii.eqb_spec (ascii_of_nat (48 + d)) "+") as [E|]; [exfalso; apply Ht; rewrite E; simpl; tauto|reflexivity].
Qed.
Lemma skip_all sp t : Forall (fun c => is_space c = true) sp -> skip_spaces (sp ++ t) = skip_spaces t.
Proof. induction 1 as [|c sp Hc H IH]; [reflexivity|]. cbn [app skip_spaces]. now rewrite Hc. Qed.

Lemma zmatch {A} (z : Z) (u v : A) : z <> 0%Z -> match z with 0%Z => u | Zpos _ => v | Zneg _ => v end = v.
Proof. destruct z; congruence. Qed.
Section Round.
  Local Open Scope R_scope.
  Lemma round_ratio_overflow neg num den : bpow radix2 1024 <= rnd64 (IZR (Zpos num) / IZR (Zpos den)) -> round_ratio neg num den = S754_infinity neg.
  Proof.
    intros Hr. unfold round_ratio. pose proof (Bdiv_correct_aux 53 1024 Hprec3 Hmax3 mode_NE neg num 0 false den 0) as P. cbv zeta in P.
    destruct (SFdiv_core_binary 53 1024 (Zpos num) 0 (Zpos den) 0) as [[mz ez] lz]. rewrite binary_round_aux_equiv.
    assert (F2R (Float radix2 (cond_Zopp neg (Zpos num)) 0) / F2R (Float radix2 (cond_Zopp false (Zpos den)) 0) = sgn neg (IZR (Zpos num) / IZR (Zpos den))) as E.
    { unfold F2R. cbn [Fnum Fexp bpow]. rewrite !Rmult_1_r. cbn [cond_Zopp]. destruct neg; cbn [cond_Zopp sgn]; [rewrite opp_IZR|]; unfold Rdiv; ring. }
    rewrite E in P. change (round radix2 (SpecFloat.fexp 53 1024) (round_mode mode_NE) ?x) with (rnd64 x) in P. rewrite rnd_sgn in P.
    rewrite Rlt_bool_false in P by (rewrite abs_sgn; apply Rle_trans with (1 := Hr); apply Rle_abs). destruct P as (_ & P). rewrite Bool.xorb_false_r in *. rewrite P. reflexivity.
  Qed.
  Lemma exactly_spec m e num den : exactly m e num den = true <-> IZR (Zpos m) * bpow radix2 e = IZR (Zpos num) / IZR (Zpos den).
  Proof.
    assert (0 < IZR (Zpos den)) by (apply IZR_lt; lia). unfold exactly. destruct (Z.leb_spec 0 e) as [He|He]; rewrite Z.eqb_eq.
    - rewrite <- (IZR_Zpower radix2 e) by auto. change (Zpower radix2 e) with (2 ^ e)%Z. rewrite <- mult_IZR. split.
      + intros Hq. apply (Rmult_eq_reg_r (IZR (Zpos den))); [|lra]. rewrite <- mult_IZR, Hq. field. lra.
      + intros Hq. apply eq_IZR. rewrite mult_IZR, Hq. field. lra.
    - pose proof (bpow_gt_0 radix2 e). assert (IZR (2 ^ (- e)) = / bpow radix2 e) as Ei.
      { change (2 ^ (- e))%Z with (Zpower radix2 (- e)). rewrite IZR_Zpower by lia. apply bpow_opp. }
      split.
      + intros Hq. apply (f_equal IZR) in Hq. rewrite !mult_IZR, Ei in Hq. apply (Rmult_eq_reg_r (IZR (Zpos den))); [|lra].
        replace (IZR (Zpos m) * bpow radix2 e * IZR (Zpos den)) with (IZR (Zpos m) * IZR (Zpos den) * bpow radix2 e) by ring. rewrite Hq. field. lra.
      + intros Hq. apply eq_IZR. rewrite !mult_IZR, Ei. apply (Rmult_eq_reg_r (bpow radix2 e)); [|lra].
        replace (IZR (Zpos m) * IZR (Zpos den) * bpow radix2 e) with (IZR (Zpos m) * bpow radix2 e * IZR (Zpos den)) by ring. rewrite Hq. field. lra.
  Qed.
  Lemma small_mantissa s m e : dbl (S754_finite s m e) -> Rabs (f2r (S754_finite s m e)) < bpow radix2 (-1022) -> (Zpos m < 2 ^ 52)%Z.
  Proof.
    intros [V _] Hx. destruct (Z.lt_ge_cases (Zpos m) (2 ^ 52)) as [|Hge]; [lia|]. exfalso. apply Rlt_not_le in Hx. apply Hx.
    cbn [SpecFloat.valid_binary] in V. unfold SpecFloat.bounded in V. apply andb_true_iff in V. destruct V as [C _]. unfold SpecFloat.canonical_mantissa in C.
    apply Zeq_bool_eq in C. unfold SpecFloat.fexp, SpecFloat.emin in C. assert (-1074 <= e)%Z by lia.
    unfold f2r, SF2R. rewrite <- F2R_Zabs. unfold F2R. cbn [Fnum Fexp]. replace (Z.abs (cond_Zopp s (Zpos m))) with (Zpos m) by (destruct s; reflexivity).
    change (-1022)%Z with (52 + -1074)%Z. rewrite bpow_plus. apply Rmult_le_compat; try apply bpow_ge_0; [|now apply bpow_le].
    rewrite <- (IZR_Zpower radix2 52) by lia. apply IZR_le. exact Hge.
  Qed.
  (** [sp]: white space in front. *)
  Theorem reads_decimal sp (neg : bool) a b ex : Forall (fun c => is_space c = true) sp -> digits a -> digits b -> (a ++ b <> [])%list -> exp_ok ex ->
    let x := decimal_value a b ex in
    let t := (sp ++ decimal neg a b ex)%list in
    (x = 0 -> stod_f64 t = Ok (S754_zero neg)) /\
    (bpow radix2 (-1022) <= rnd64 x < bpow radix2 1024 \/ (0 < x /\ rnd64 x = x /\ x < bpow radix2 1024) ->
       exists y, stod_f64 t = Ok y /\ dbl y /\ f2r y = (if neg then - rnd64 x else rnd64 x)) /\
    (bpow radix2 1024 <= rnd64 x \/ (0 < x /\ rnd64 x < bpow radix2 (-1022) /\ rnd64 x <> x) -> stod_f64 t = Throw OutOfRange).
  Proof.
    intros Hsp Ha Hb Hne Hx x t. unfold stod_f64, t. rewrite skip_all by auto. destruct (decimal_head neg a b ex Ha) as [-> ->]. rewrite scan_decimal_text by auto.
    unfold x, decimal_value. set (z := value (a ++ b)). set (e := (exponent ex - Z.of_nat (List.length b))%Z).
    assert (0 <= z)%Z as Hz by (apply value_nonneg; lia). clear x t. pose proof (p10_pos e) as Pe. set (x := IZR z * p10 e).
    destruct (Z.eq_dec z 0) as [Z0|Z0].
    { rewrite Z0 in *. assert (x = 0) as Ex by (unfold x; rewrite Z0; ring). rewrite Ex. assert (rnd64 0 = 0) as E0 by (apply round_0, valid_rnd_N). rewrite E0.
      pose proof (bpow_gt_0 radix2 (-1022)). pose proof (bpow_gt_0 radix2 1024). split; [reflexivity|]. split; [intros [?|?]; lra|intros [?|?]; lra]. }
    rewrite (zmatch z _ _ Z0). assert (0 < z)%Z as Pz by lia. assert (0 < x) as Px by (apply Rmult_lt_0_compat; [now apply IZR_lt|auto]).
    set (num := if (0 <=? e)%Z then (z * 10 ^ e)%Z else z). set (den := if (0 <=? e)%Z then 1%Z else (10 ^ (- e))%Z).
    assert (0 < num /\ 0 < den)%Z as [Pn Pd].
    { unfold num, den. destruct (Z.leb_spec 0 e).
      - split; [|lia]. apply Z.mul_pos_pos; [lia|]. apply Z.pow_pos_nonneg; lia.
      - split; [lia|]. apply Z.pow_pos_nonneg; lia. }
    assert (IZR (Zpos (Z.to_pos num)) / IZR (Zpos (Z.to_pos den)) = x) as Eq.
    { rewrite !Z2Pos.id by lia. unfold x, num, den. destruct (Z.leb_spec 0 e).
      - rewrite mult_IZR, p10_Z by lia. field.
      - rewrite p10_Z by lia. rewrite bpow_opp. field. lra. }
    change (0%R) with (IZR 0). assert (0 <= rnd64 x) as Rp by (apply rnd_nonneg; lra).
    pose proof (round_ratio_spec neg (Z.to_pos num) (Z.to_pos den)) as Hrr. rewrite Eq in Hrr.
    pose proof (round_ratio_overflow neg (Z.to_pos num) (Z.to_pos den)) as Hov. rewrite Eq in Hov.
    set (y := round_ratio neg (Z.to_pos num) (Z.to_pos den)) in *.
    assert (in_range (rnd64 x) <-> rnd64 x < bpow radix2 1024) as Hin by (unfold in_range; rewrite Rabs_pos_eq by auto; tauto).
    pose proof (bpow_gt_0 radix2 (-1022)) as Bp. split; [lra|]. split.
    - intros Hc. assert (in_range (rnd64 x)) as Hr by (apply Hin; destruct Hc as [[_ ?]|[_ [-> ?]]]; auto). destruct (Hrr Hr) as (D & F & _). exists y.
      split; [|split; [exact D|exact F]]. destruct Hc as [[Hn _]|[_ [Hex _]]].
      + apply in_range_result_ok; [exact D|]. rewrite F, abs_sgn, Rabs_pos_eq by lra. exact Hn.
      + assert (f2r y <> 0) as Hy by (rewrite F, Hex; destruct neg; cbn [sgn]; lra).
        destruct y as [s|s| |s m e']; [now elim Hy|destruct D as [_ ?]; discriminate|reflexivity|].
        cbn [in_range_result]. assert (exactly m e' (Z.to_pos num) (Z.to_pos den) = true) as ->; [|cbn [negb]; now rewrite Bool.andb_false_r].
        apply exactly_spec. rewrite Eq. apply (f_equal Rabs) in F. rewrite abs_sgn, Hex, (Rabs_pos_eq x) in F by lra. rewrite <- F.
        unfold f2r, SF2R. rewrite <- F2R_Zabs. unfold F2R. cbn [Fnum Fexp]. f_equal. destruct s; reflexivity.
    - intros [Ho|(_ & Hsm & Hne2)].
      + rewrite (Hov Ho). reflexivity.
      + assert (rnd64 x < bpow radix2 1024) as Hlt by (apply Rlt_trans with (1 := Hsm); apply bpow_lt; lia).
        destruct (Hrr (proj2 Hin Hlt)) as (D & F & _). destruct y as [s|s| |s m e']; [reflexivity|reflexivity|destruct D as [_ ?]; discriminate|].
        cbn [in_range_result]. apply (f_equal Rabs) in F. rewrite abs_sgn, (Rabs_pos_eq (rnd64 x)) in F by lra.
        assert (Zpos m < 2 ^ 52)%Z as Hm by (apply (small_mantissa s m e' D); rewrite F; exact Hsm). apply Z.ltb_lt in Hm. rewrite Hm. cbn [andb].
        destruct (exactly m e' (Z.to_pos num) (Z.to_pos den)) eqn:Ee; [|reflexivity]. exfalso. apply Hne2. rewrite <- F. apply exactly_spec in Ee. rewrite Eq in Ee. rewrite <- Ee.
        unfold f2r, SF2R. rewrite <- F2R_Zabs. unfold F2R. cbn [Fnum Fexp]. f_equal. destruct s; reflexivity.
  Qed.
End Round.

(** The words inf and nan in any capitalisation. *)
Definition one_of (c : ascii) (p : ascii * ascii) : Prop := c = fst p \/ c = snd p.
Theorem reads_words c1 c2 c3 (neg : bool) rest :
  (one_of c1 ("i", "I") -> one_of c2 ("n", "N") -> one_of c3 ("f", "F") -> stod_f64 (sign_text neg ++ c1 :: c2 :: c3 :: rest) = Ok (S754_infinity neg)) /\
  (one_of c1 ("n", "N") -> one_of c2 ("a", "A") -> one_of c3 ("n", "N") -> stod_f64 (sign_text neg ++ c1 :: c2 :: c3 :: rest) = Ok S754_nan).
Proof.
  split; intros [-> | ->] [-> | ->] [-> | ->]; destruct neg; reflexivity.
Qed.
(** Anything whose first character is no digit, point, sign, white space or one of i and n is refused. *)
Theorem refuses_words c rest : (forall d, digit_of c <> Some d) -> ~ In c [".";"-";"+";"i";"I";"n";"N"] -> is_space c = false -> stod_f64 (c :: rest) = Throw InvalidArgument.
Proof.
  intros Hd Hn Hs. unfold stod_f64. cbn [skip_spaces]. rewrite Hs. cbn [scan_sign]. cbn [In] in Hn.
  destruct (Ascii.eqb_spec c "-") as [->|]; [exfalso; tauto|]. destruct (Ascii.eqb_spec c "+") as [->|]; [exfalso; tauto|].
  unfold scan_decimal. cbn [scan_digits]. destruct (digit_of c) as [d|] eqn:Ed; [now elim (Hd d)|].
  destruct (Ascii.eqb_spec c ".") as [->|]; [exfalso; tauto|]. cbn [plus Nat.eqb]. change (txt "inf") with ["i"; "n"; "f"]. change (txt "nan") with ["n"; "a"; "n"]. cbn [starts_with].
  assert (("i" =? lower c) = false /\ ("n" =? lower c) = false) as [-> ->]; [|reflexivity].
  clear -Hn. destruct c as [[] [] [] [] [] [] [] []]; (split; [reflexivity|reflexivity]) || (exfalso; apply Hn; simpl; tauto).
Qed.
