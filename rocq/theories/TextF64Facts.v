(** Facts about the text of doubles (C75): decimal digits, the six-digit form, and correct rounding on reading. *)
From Verif Require Import Base Num RSum FloatFacts Text TextFacts TextQc TextF64.
From Coq Require Import ZArith Reals Lra Lia SpecFloat Ascii String List.
From Flocq Require Import Core BinarySingleNaN Relative.
Import ListNotations.
Local Open Scope nat_scope.
Local Open Scope char_scope.
Local Open Scope list_scope.

Local Instance Hprec' : FLX.Prec_gt_0 53 := eq_refl _.
Local Instance Hmax' : Prec_lt_emax 53 1024 := eq_refl _.

(** ** Digits *)
Definition dval (t : text) : Z := fst (fst (scan_digits t 0 0)).
Lemma scan_dval t rest acc k : Forall is_digit t -> (forall c r, rest = c :: r -> digit_of c = None) ->
  scan_digits (t ++ rest) acc k = ((acc * 10 ^ Z.of_nat (List.length t) + dval t)%Z, k + List.length t, rest).
Proof.
  intros Ht Hr. destruct (scan_digits_app t [] 0%Z 0 Ht) as [z1 E1]; [discriminate|].
  assert (dval t = z1) as ->. { unfold dval. rewrite <- (app_nil_r t), E1. cbn [fst]. lia. }
  assert (forall acc k, scan_digits (t ++ rest) acc k = let '(v, kk, _) := scan_digits (t ++ []) acc k in scan_digits rest v kk) as Hc.
  { clear E1 acc k. induction Ht as [|c t [d Hd] Ht IH]; intros a k; [reflexivity|]. cbn [app scan_digits]. rewrite Hd. apply IH. }
  rewrite Hc, E1. destruct rest as [|c r]; cbn [scan_digits]; [reflexivity|]. now rewrite (Hr c r eq_refl).
Qed.
Lemma dval_app a b : Forall is_digit a -> Forall is_digit b -> dval (a ++ b) = (dval a * 10 ^ Z.of_nat (List.length b) + dval b)%Z.
Proof.
  intros Ha Hb. unfold dval at 1. rewrite <- (app_nil_r (a ++ b)), scan_dval by (try discriminate; now apply Forall_app).
  cbn [fst]. rewrite Z.mul_0_l, Z.add_0_l. unfold dval at 1.
  assert (scan_digits (a ++ b) 0 0 = scan_digits b (dval a) (List.length a)) as ->.
  { clear Hb. assert (forall acc k, scan_digits (a ++ b) acc k = let '(v, kk, _) := scan_digits (a ++ []) acc k in scan_digits b v kk) as Hc.
    { induction Ha as [|c t [d Hd] Ht IH]; intros acc k; [reflexivity|]. cbn [app scan_digits]. rewrite Hd. apply IH. }
    rewrite Hc, scan_dval by (auto || discriminate). now rewrite Z.mul_0_l, Z.add_0_l. }
  rewrite <- (app_nil_r b) at 1. rewrite scan_dval by (auto || discriminate). reflexivity.
Qed.
Lemma dval_bounds t : Forall is_digit t -> (0 <= dval t < 10 ^ Z.of_nat (List.length t))%Z.
Proof.
  induction 1 as [|c t [d Hd] Ht IH]; [vm_compute; split; congruence|].
  change (c :: t) with ([c] ++ t). assert (is_digit c) as Hc by (now exists d). rewrite dval_app by auto. rewrite app_length.
  assert (dval [c] = d) as ->. { unfold dval. cbn [scan_digits]. rewrite Hd. cbn [fst]. lia. }
  assert (0 <= d <= 9)%Z as Hdd. { unfold digit_of in Hd. destruct (_ && _)%bool eqn:Eb; [|discriminate]. injection Hd as <-. apply andb_true_iff in Eb. lia. }
  cbn [List.length]. rewrite Nat2Z.inj_add, Z.pow_add_r by lia. change (10 ^ Z.of_nat 1)%Z with 10%Z. nia.
Qed.
Lemma dval_show z : (0 <= z)%Z -> dval (show_Z z) = z.
Proof.
  intros Hz. destruct (show_Z_spec z Hz) as (ds & -> & _ & Hd & Hs). unfold dval. rewrite <- (app_nil_r ds), Hs by discriminate. cbn [fst]. lia.
Qed.
Lemma show_Z_digits z : (0 <= z)%Z -> Forall is_digit (show_Z z).
Proof. intros Hz. now destruct (show_Z_spec z Hz) as (ds & -> & _ & Hd & _). Qed.
Lemma show_digits_len fuel : forall z acc, (0 < z < 10 ^ Z.of_nat fuel)%Z ->
  exists n, List.length (show_digits fuel z acc) = S n + List.length acc /\ (10 ^ Z.of_nat n <= z < 10 ^ Z.of_nat (S n))%Z.
Proof.
  induction fuel as [|f IH]; intros z acc Hz; [change (10 ^ Z.of_nat 0)%Z with 1%Z in Hz; lia|]. cbn [show_digits].
  destruct (Z.ltb_spec z 10) as [Hlt|Hge].
  - exists 0. split; [reflexivity|]. change (10 ^ Z.of_nat 0)%Z with 1%Z. change (10 ^ Z.of_nat 1)%Z with 10%Z. lia.
  - rewrite Nat2Z.inj_succ, Z.pow_succ_r in Hz by lia. pose proof (Z.div_mod z 10 ltac:(lia)) as Hdm. pose proof (Z.mod_pos_bound z 10 ltac:(lia)) as Hm.
    destruct (IH (z / 10)%Z (digit_char (z mod 10) :: acc)) as (n & E & Hn); [nia|].
    exists (S n). split; [rewrite E; cbn [List.length]; lia|]. rewrite (Nat2Z.inj_succ (S n)), Z.pow_succ_r by lia.
    rewrite (Nat2Z.inj_succ n), Z.pow_succ_r in * by lia. nia.
Qed.
Lemma show_Z_len z : (0 < z)%Z -> exists n, List.length (show_Z z) = S n /\ (10 ^ Z.of_nat n <= z < 10 ^ Z.of_nat (S n))%Z.
Proof.
  intros Hz. unfold show_Z. destruct (Z.ltb_spec z 0); [lia|]. destruct (show_digits_len (S (Z.to_nat (Z.log2 z))) z []) as (n & E & Hn).
  - split; [lia|]. rewrite Nat2Z.inj_succ, Z2Nat.id by apply Z.log2_nonneg. pose proof (Z.log2_spec z ltac:(lia)) as [_ Hl].
    eapply Z.lt_le_trans; [exact Hl|]. apply Z.pow_le_mono_l. lia.
  - exists n. rewrite E. cbn [List.length]. split; [lia|auto].
Qed.
Lemma show_Z_len6 m : (100000 <= m < 1000000)%Z -> List.length (show_Z m) = 6.
Proof.
  intros Hm. destruct (show_Z_len m ltac:(lia)) as (n & -> & Hn). f_equal.
  destruct (Nat.lt_trichotomy n 5) as [Hlt|[->|Hgt]]; auto; exfalso.
  - pose proof (Z.pow_le_mono_r 10 (Z.of_nat (S n)) 5 ltac:(lia) ltac:(lia)) as Hp. change (10 ^ 5)%Z with 100000%Z in Hp. lia.
  - pose proof (Z.pow_le_mono_r 10 6 (Z.of_nat n) ltac:(lia) ltac:(lia)) as Hp. change (10 ^ 6)%Z with 1000000%Z in Hp. lia.
Qed.
Lemma zero_digit : is_digit "0". Proof. now exists 0%Z. Qed.
Lemma dval_zeros n : dval (repeat "0" n) = 0%Z.
Proof.
  assert (Forall is_digit (repeat "0" n)) as Hd by (apply Forall_forall; intros c Hc; apply repeat_spec in Hc; subst; apply zero_digit).
  induction n as [|n IH]; [reflexivity|]. apply Forall_cons_iff in Hd. destruct Hd as [H1 H2]. specialize (IH H2).
  change (repeat "0" (S n)) with (["0"] ++ repeat "0" n). rewrite dval_app by (auto; constructor; auto). rewrite IH. reflexivity.
Qed.
Lemma zeros_digits n : Forall is_digit (repeat "0" n).
Proof. apply Forall_forall. intros c Hc. apply repeat_spec in Hc. subst. apply zero_digit. Qed.
Lemma strip_zeros_spec t : Forall is_digit t -> exists n, t = strip_zeros t ++ repeat "0" n /\ Forall is_digit (strip_zeros t).
Proof.
  induction 1 as [|c t Hc Ht (n & E & Hs)]; [exists 0; split; [reflexivity|constructor]|]. cbn [strip_zeros].
  destruct (strip_zeros t) as [|c' r'] eqn:Es.
  - destruct (Ascii.eqb_spec c "0") as [->|Hne].
    + exists (S n). cbn [app] in *. split; [now rewrite E at 1|constructor].
    + exists n. split; [cbn [app] in *; now rewrite E at 1|repeat constructor; auto].
  - exists n. split; [rewrite E at 1; reflexivity|now constructor].
Qed.
Lemma dval_strip t : Forall is_digit t -> (dval (strip_zeros t) * 10 ^ Z.of_nat (List.length t - List.length (strip_zeros t)))%Z = dval t /\
  List.length (strip_zeros t) <= List.length t.
Proof.
  intros Ht. destruct (strip_zeros_spec t Ht) as (n & E & Hs). set (s := strip_zeros t) in *.
  assert (List.length t = List.length s + n) as El by (rewrite E at 1; now rewrite app_length, repeat_length).
  split; [|lia]. rewrite El, Nat.add_sub_swap, Nat.sub_diag by lia. cbn [Nat.add].
  transitivity (dval (s ++ repeat "0" n)); [|now rewrite <- E]. rewrite dval_app by (auto using zeros_digits). rewrite dval_zeros, repeat_length. lia.
Qed.

(** ** The six-digit form *)
(** The text of m * 10^(e-5), where m has six digits. *)
Definition layout (m e : Z) : text :=
  let ds := show_Z m in
  if ((-4 <=? e) && (e <? 6))%Z then
    if (e <? 0)%Z then txt "0." ++ repeat "0" (Z.to_nat (- e - 1)) ++ strip_zeros ds
    else let k := Z.to_nat (e + 1) in
         firstn k ds ++ match strip_zeros (skipn k ds) with [] => [] | f => "." :: f end
  else
    firstn 1 ds ++ match strip_zeros (skipn 1 ds) with [] => [] | f => "." :: f end ++
    "e" :: (if (e <? 0)%Z then "-" else "+") :: (if (Z.abs e <? 10)%Z then ["0"] else []) ++ show_Z (Z.abs e).
Definition six (num den : Z) : Z * Z :=
  let e := exponent10 num den in
  let m := scaled num den (5 - e) in
  if (m =? 1000000)%Z then (100000%Z, (e + 1)%Z) else (m, e).
Lemma fmt_pos_layout num den : fmt_pos num den = layout (fst (six num den)) (snd (six num den)).
Proof. unfold fmt_pos, six, layout. destruct (scaled num den _ =? 1000000)%Z; reflexivity. Qed.

Definition r10 : radix := Build_radix 10 (eq_refl _).
Notation p10 := (bpow r10).
Lemma p10_Z (n : Z) : (0 <= n)%Z -> IZR (10 ^ n) = p10 n.
Proof. intros Hn. change 10%Z with (radix_val r10). apply IZR_Zpower. exact Hn. Qed.

(** What [scan_decimal] makes of a text: the real number it denotes. *)
Definition denotes (t : text) (x : R) : Prop := exists z e, scan_decimal t = Some (z, e) /\ (0 <= z)%Z /\ (IZR z * p10 e = x)%R.
Lemma no_digit_dot : digit_of "." = None. Proof. reflexivity. Qed.
Lemma scan_frac a b rest : Forall is_digit a -> Forall is_digit b -> a <> [] -> (forall c r, rest = c :: r -> digit_of c = None /\ c <> ".") ->
  scan_decimal (a ++ match b with [] => [] | f => "." :: f end ++ rest) =
  Some ((dval a * 10 ^ Z.of_nat (List.length b) + dval b)%Z, (scan_exp rest - Z.of_nat (List.length b))%Z).
Proof.
  intros Ha Hb Hne Hr. assert (forall n, Nat.eqb (List.length a + n) 0 = false) as Hz by (intros n; destruct a; [congruence|reflexivity]).
  unfold scan_decimal. destruct b as [|b0 b].
  - cbn [app]. rewrite scan_dval by (auto; intros c r E; now apply (Hr c r)). rewrite Z.mul_0_l, Z.add_0_l, Nat.add_0_l.
    change (Z.of_nat (List.length (@nil ascii))) with 0%Z. rewrite Z.pow_0_r. change (dval []) with 0%Z.
    destruct rest as [|c r].
    + rewrite Hz. apply f_equal, f_equal2; [lia|]. cbn [scan_exp]. lia.
    + destruct (Ascii.eqb_spec c "."); [exfalso; now apply (proj2 (Hr c r eq_refl))|]. rewrite Hz. apply f_equal, f_equal2; lia.
  - set (bb := b0 :: b) in *. change (a ++ ("." :: bb) ++ rest) with (a ++ "." :: (bb ++ rest)).
    rewrite scan_dval by (auto; intros c r [= <- <-]; reflexivity). rewrite Z.mul_0_l, Z.add_0_l, Nat.add_0_l, Ascii.eqb_refl.
    rewrite scan_dval by (auto; intros c r E; now apply (Hr c r)). rewrite Nat.add_0_l, Hz. reflexivity.
Qed.
Lemma skipn_digits n t : Forall is_digit t -> Forall is_digit (skipn n t) /\ Forall is_digit (firstn n t).
Proof. intros Ht. rewrite <- (firstn_skipn n t) in Ht. apply Forall_app in Ht. tauto. Qed.
Lemma split_value k ds : Forall is_digit ds -> k <= List.length ds ->
  let b := strip_zeros (skipn k ds) in
  (IZR (dval (firstn k ds) * 10 ^ Z.of_nat (List.length b) + dval b) * p10 (- Z.of_nat (List.length b)) = IZR (dval ds) * p10 (Z.of_nat k - Z.of_nat (List.length ds)))%R.
Proof.
  intros Hd Hk b. destruct (skipn_digits k ds Hd) as [Hs Hf]. destruct (dval_strip _ Hs) as [Ev Hl]. fold b in Ev, Hl.
  assert (List.length (skipn k ds) = List.length ds - k) as Esk by apply skipn_length. rewrite Esk in *.
  rewrite <- (firstn_skipn k ds) at 2. rewrite dval_app, Esk, <- Ev by auto. set (p := List.length ds - k) in *. set (q := List.length b) in *.
  replace (Z.of_nat k - Z.of_nat (List.length ds))%Z with (- Z.of_nat p)%Z by lia.
  rewrite !plus_IZR, !mult_IZR, !p10_Z by lia. rewrite !Rmult_plus_distr_r. 
  assert (forall x n, x * p10 n * p10 (- n) = x)%R as Hc by (intros x n; rewrite Rmult_assoc, <- bpow_plus, Z.add_opp_diag_r; cbn [bpow]; lra).
  rewrite !Hc. f_equal. rewrite Nat2Z.inj_sub by lia. rewrite Rmult_assoc, <- bpow_plus. do 2 f_equal. lia.
Qed.
Lemma scan_exp_text e : scan_exp ("e" :: (if (e <? 0)%Z then "-" else "+") :: (if (Z.abs e <? 10)%Z then ["0"] else []) ++ show_Z (Z.abs e)) = e.
Proof.
  cbn [scan_exp]. change ("e" =? "e") with true. cbn [orb].
  assert (scan_sign ((if (e <? 0)%Z then "-" else "+") :: (if (Z.abs e <? 10)%Z then ["0"] else []) ++ show_Z (Z.abs e)) =
          ((e <? 0)%Z, (if (Z.abs e <? 10)%Z then ["0"] else []) ++ show_Z (Z.abs e))) as -> by (destruct (e <? 0)%Z; reflexivity).
  set (pre := if (Z.abs e <? 10)%Z then ["0"] else []). assert (Forall is_digit pre) as Hp by (unfold pre; destruct (_ <? 10)%Z; repeat constructor; apply zero_digit).
  assert (dval pre = 0%Z) as Ep by (unfold pre; destruct (_ <? 10)%Z; reflexivity).
  pose proof (show_Z_digits (Z.abs e) ltac:(lia)) as Hd.
  assert (Forall is_digit (pre ++ show_Z (Z.abs e))) as Hall by (now apply Forall_app).
  rewrite <- (app_nil_r (pre ++ _)), scan_dval by (auto || discriminate). rewrite dval_app, Ep, dval_show by (auto; lia).
  rewrite app_length, Nat.add_0_l. destruct (Nat.eqb_spec (List.length pre + List.length (show_Z (Z.abs e))) 0) as [E|_].
  - exfalso. pose proof (show_Z_ne (Z.abs e) ltac:(lia)). destruct (show_Z (Z.abs e)); [congruence|simpl in E; lia].
  - destruct (Z.ltb_spec e 0); lia.
Qed.
Lemma layout_denotes m e : (100000 <= m < 1000000)%Z -> denotes (layout m e) (IZR m * p10 (e - 5)).
Proof.
  intros Hm. pose proof (show_Z_len6 m Hm) as H6. pose proof (show_Z_digits m ltac:(lia)) as Hd. pose proof (dval_show m ltac:(lia)) as Ev. unfold layout.
  set (ds := show_Z m) in *. destruct ((-4 <=? e) && (e <? 6))%Z eqn:Eb.
  - apply andb_true_iff in Eb. destruct (Z.ltb_spec e 0) as [Hneg|Hpos].
    + set (zs := repeat "0" (Z.to_nat (- e - 1))). destruct (dval_strip ds Hd) as [E1 El]. destruct (strip_zeros_spec ds Hd) as (n & _ & Hs). set (s := strip_zeros ds) in *.
      assert (s <> []) as Hne. { intros E. rewrite E in E1. change (dval []) with 0%Z in E1. lia. }
      assert (Forall is_digit (zs ++ s)) as Hzs by (apply Forall_app; split; [apply zeros_digits|exact Hs]).
      pose proof (scan_frac ["0"] (zs ++ s) []) as Hf. destruct (zs ++ s) as [|b0 b] eqn:Ezs; [apply app_eq_nil in Ezs; tauto|]. rewrite <- Ezs in *.
      unfold denotes. do 2 eexists. split; [|split].
      * transitivity (scan_decimal (["0"] ++ ("." :: zs ++ s) ++ [])); [f_equal; cbn [txt list_ascii_of_string app]; now rewrite app_nil_r|].
        apply Hf; auto; try discriminate. repeat constructor. apply zero_digit.
      * change (dval ["0"]) with 0%Z. pose proof (dval_bounds (zs ++ s) Hzs). lia.
      * change (dval ["0"]) with 0%Z. rewrite Z.mul_0_l, Z.add_0_l. cbn [scan_exp]. rewrite dval_app by (auto; apply zeros_digits). unfold zs at 1. rewrite dval_zeros, Z.mul_0_l, Z.add_0_l.
        rewrite app_length. unfold zs. rewrite repeat_length. rewrite <- Ev, <- E1, H6, mult_IZR, p10_Z by lia. rewrite Rmult_assoc, <- bpow_plus. do 2 f_equal.
        rewrite Nat2Z.inj_add, Nat2Z.inj_sub, Z2Nat.id by lia. lia.
    + set (k := Z.to_nat (e + 1)). destruct (skipn_digits k ds Hd) as [Hsk Hfk]. destruct (strip_zeros_spec _ Hsk) as (n & _ & Hs).
      pose proof (split_value k ds Hd ltac:(lia)) as Hsv. cbv zeta in Hsv. set (b := strip_zeros (skipn k ds)) in *.
      exists (dval (firstn k ds) * 10 ^ Z.of_nat (List.length b) + dval b)%Z, (scan_exp [] - Z.of_nat (List.length b))%Z. split; [|split].
      * pose proof (scan_frac (firstn k ds) b []) as Hf. rewrite app_nil_r in Hf.
        assert (firstn k ds <> []) as Hne. { intros E. assert (List.length (firstn k ds) = 0) as E0 by now rewrite E. rewrite firstn_length in E0. lia. }
        destruct b as [|b0 b]; apply Hf; auto; discriminate.
      * pose proof (dval_bounds _ Hfk). pose proof (dval_bounds _ Hs). nia.
      * cbn [scan_exp]. rewrite Z.sub_0_l, Hsv, Ev, H6. do 2 f_equal. lia.
  - destruct (skipn_digits 1 ds Hd) as [Hsk Hfk]. destruct (strip_zeros_spec _ Hsk) as (n & _ & Hs).
    pose proof (split_value 1 ds Hd ltac:(lia)) as Hsv. cbv zeta in Hsv. set (b := strip_zeros (skipn 1 ds)) in *. set (rest := "e" :: _).
    exists (dval (firstn 1 ds) * 10 ^ Z.of_nat (List.length b) + dval b)%Z, (scan_exp rest - Z.of_nat (List.length b))%Z. split; [|split].
    + pose proof (scan_frac (firstn 1 ds) b rest) as Hf.
      assert (firstn 1 ds <> []) as Hne. { intros E. assert (List.length (firstn 1 ds) = 0) as E0 by now rewrite E. rewrite firstn_length in E0. lia. }
      assert (forall c r, rest = c :: r -> digit_of c = None /\ c <> ".") as Hr by (intros c r [= <- <-]; split; [reflexivity|discriminate]).
      destruct b as [|b0 b]; apply Hf; auto.
    + pose proof (dval_bounds _ Hfk). pose proof (dval_bounds _ Hs). nia.
    + unfold rest. rewrite scan_exp_text. unfold Z.sub at 1. rewrite bpow_plus, (Rmult_comm (p10 e)), <- Rmult_assoc, Hsv.
      rewrite Ev, H6, Rmult_assoc, <- bpow_plus. do 2 f_equal. lia.
Qed.

(** ** Rounding to six digits *)
Section Six.
  Local Open Scope R_scope.
  Lemma p10_pos k : 0 < p10 k. Proof. apply bpow_gt_0. Qed.
  Lemma p10_add a b : p10 a * p10 b = p10 (a + b). Proof. symmetry. apply bpow_plus. Qed.
  Lemma show_Z_p10 z : (0 < z)%Z -> p10 (Z.of_nat (List.length (show_Z z)) - 1) <= IZR z < p10 (Z.of_nat (List.length (show_Z z))).
  Proof.
    intros Hz. destruct (show_Z_len z Hz) as (n & -> & [H1 H2]). replace (Z.of_nat (S n) - 1)%Z with (Z.of_nat n) by lia.
    rewrite <- !p10_Z by lia. split; [now apply IZR_le|now apply IZR_lt].
  Qed.
  Lemma exponent10_spec num den : (0 < num)%Z -> (0 < den)%Z ->
    p10 (exponent10 num den) <= IZR num / IZR den < p10 (exponent10 num den + 1).
  Proof.
    intros Hn Hd. destruct (show_Z_p10 num Hn) as [N1 N2]. destruct (show_Z_p10 den Hd) as [D1 D2]. unfold exponent10.
    set (a := Z.of_nat (List.length (show_Z num))) in *. set (b := Z.of_nat (List.length (show_Z den))) in *.
    apply IZR_lt in Hn, Hd. set (x := IZR num / IZR den).
    assert (IZR num = x * IZR den) as Ex by (unfold x; field; lra).
    assert (p10 (a - b - 1) < x) as Hlo.
    { apply (Rmult_lt_reg_r (IZR den)); [lra|]. rewrite <- Ex. apply Rlt_le_trans with (p10 (a - 1)); [|exact N1].
      replace (a - 1)%Z with (a - b - 1 + b)%Z by lia. rewrite <- p10_add. apply Rmult_lt_compat_l; [apply p10_pos|lra]. }
    assert (x < p10 (a - b + 1)) as Hhi.
    { apply (Rmult_lt_reg_r (IZR den)); [lra|]. rewrite <- Ex. apply Rlt_le_trans with (p10 a); [exact N2|].
      replace a with (a - b + 1 + (b - 1))%Z at 1 by lia. rewrite <- p10_add. apply Rmult_le_compat_l; [apply Rlt_le, p10_pos|lra]. }
    set (e := (a - b)%Z) in *.
    assert ((if (0 <=? e)%Z then (den * 10 ^ e <=? num)%Z else (den <=? num * 10 ^ (- e))%Z) = true <-> p10 e <= x) as Hge.
    { destruct (Z.leb_spec 0 e) as [He|He]; rewrite Z.leb_le; split.
      - intros Hle. apply IZR_le in Hle. rewrite mult_IZR, p10_Z in Hle by lia. apply (Rmult_le_reg_r (IZR den)); [lra|]. rewrite <- Ex. lra.
      - intros Hle. apply le_IZR. rewrite mult_IZR, p10_Z by lia. rewrite Ex, Rmult_comm. apply Rmult_le_compat_r; lra.
      - intros Hle. apply IZR_le in Hle. rewrite mult_IZR, p10_Z in Hle by lia. apply (Rmult_le_reg_r (IZR den * p10 (- e))).
        + apply Rmult_lt_0_compat; [lra|apply p10_pos].
        + rewrite <- Rmult_assoc, <- (Rmult_assoc x), <- Ex. replace (p10 e * IZR den * p10 (- e)) with (IZR den * p10 (e + - e)) by (rewrite <- p10_add; ring).
          rewrite Z.add_opp_diag_r. cbn [bpow]. lra.
      - intros Hle. apply le_IZR. rewrite mult_IZR, p10_Z by lia. rewrite Ex.
        replace (IZR den) with (p10 (e + - e) * IZR den) at 1 by (rewrite Z.add_opp_diag_r; cbn [bpow]; lra). rewrite <- p10_add.
        replace (p10 e * p10 (- e) * IZR den) with (p10 e * (p10 (- e) * IZR den)) by ring. replace (x * IZR den * p10 (- e)) with (x * (p10 (- e) * IZR den)) by ring.
        apply Rmult_le_compat_r; [|exact Hle]. apply Rmult_le_pos; [apply Rlt_le, p10_pos|lra]. }
    match goal with |- context [if ?c then e else _] => destruct c eqn:Ec end.
    - split; [now apply Hge|exact Hhi].
    - replace (e - 1 + 1)%Z with e by lia. split; [lra|]. destruct (Rle_lt_dec (p10 e) x) as [Hle|]; [|lra]. apply Hge in Hle. congruence.
  Qed.
  Lemma round_div_spec n d : (0 < d)%Z -> Rabs (IZR (round_div n d) - IZR n / IZR d) <= / 2.
  Proof.
    intros Hd. unfold round_div. pose proof (Z.div_mod n d ltac:(lia)) as E. pose proof (Z.mod_pos_bound n d Hd) as Hm.
    set (q := (n / d)%Z) in *. set (r := (n mod d)%Z) in *. assert (0 < IZR d) as Hd' by now apply IZR_lt.
    assert (IZR n / IZR d = IZR q + IZR r / IZR d) as ->. { rewrite E, plus_IZR, mult_IZR. field. lra. }
    assert (0 <= IZR r / IZR d < 1) as Hr.
    { split; [apply Rmult_le_pos; [apply IZR_le; lia|apply Rlt_le, Rinv_0_lt_compat, Hd']|].
      apply (Rmult_lt_reg_r (IZR d)); [lra|]. unfold Rdiv. rewrite Rmult_assoc, Rinv_l, Rmult_1_l, Rmult_1_r by lra. apply IZR_lt. lia. }
    assert (forall c, (2 * r <= c)%Z -> c = d -> IZR r / IZR d <= / 2) as Hlow.
    { intros c Hc ->. apply (Rmult_le_reg_r (2 * IZR d)); [lra|]. replace (IZR r / IZR d * (2 * IZR d)) with (2 * IZR r) by (field; lra).
      replace (/ 2 * (2 * IZR d)) with (IZR d) by field. rewrite <- mult_IZR. now apply IZR_le. }
    assert ((d <= 2 * r)%Z -> / 2 <= IZR r / IZR d) as Hhigh.
    { intros Hc. apply (Rmult_le_reg_r (2 * IZR d)); [lra|]. replace (IZR r / IZR d * (2 * IZR d)) with (2 * IZR r) by (field; lra).
      replace (/ 2 * (2 * IZR d)) with (IZR d) by field. rewrite <- mult_IZR. now apply IZR_le. }
    assert ((2 * r <= d)%Z -> Rabs (IZR q - (IZR q + IZR r / IZR d)) <= / 2) as A.
    { intros Hc. specialize (Hlow d Hc eq_refl). unfold Rabs. destruct (Rcase_abs _); lra. }
    assert ((d <= 2 * r)%Z -> Rabs (IZR (q + 1) - (IZR q + IZR r / IZR d)) <= / 2) as B.
    { intros Hc. specialize (Hhigh Hc). rewrite plus_IZR. unfold Rabs. destruct (Rcase_abs _); lra. }
    destruct (Z.ltb_spec (2 * r) d); [apply A; lia|]. destruct (Z.ltb_spec d (2 * r)); [apply B; lia|].
    destruct (Z.even q); [apply A; lia|apply B; lia].
  Qed.
  Lemma scaled_spec num den k : (0 < den)%Z -> Rabs (IZR (scaled num den k) - IZR num / IZR den * p10 k) <= / 2.
  Proof.
    intros Hd. assert (0 < IZR den) as Hd' by now apply IZR_lt. unfold scaled. destruct (Z.leb_spec 0 k) as [Hk|Hk].
    - replace (IZR num / IZR den * p10 k) with (IZR (num * 10 ^ k) / IZR den); [now apply round_div_spec|]. rewrite mult_IZR, p10_Z by lia. field. lra.
    - assert (0 < 10 ^ (- k))%Z as Hp by (apply Z.pow_pos_nonneg; lia).
      replace (IZR num / IZR den * p10 k) with (IZR num / IZR (den * 10 ^ (- k))); [apply round_div_spec; nia|].
      rewrite mult_IZR, p10_Z by lia. pose proof (p10_pos (- k)). replace (p10 k) with (/ p10 (- k)); [field; lra|].
      rewrite <- bpow_opp. f_equal. lia.
  Qed.
  Lemma p10_5 : p10 5 = 100000. Proof. cbn. lra. Qed.
  Lemma p10_6 : p10 6 = 1000000. Proof. cbn. lra. Qed.
  (** Six digits: the relative error is at most 5 * 10^-6. *)
  Lemma six_spec num den : (0 < num)%Z -> (0 < den)%Z ->
    (100000 <= fst (six num den) < 1000000)%Z /\
    Rabs (IZR (fst (six num den)) * p10 (snd (six num den) - 5) - IZR num / IZR den) <= 5 / 1000000 * (IZR num / IZR den).
  Proof.
    intros Hn Hd. destruct (exponent10_spec num den Hn Hd) as [E1 E2]. unfold six. set (e := exponent10 num den) in *. set (x := IZR num / IZR den) in *.
    pose proof (scaled_spec num den (5 - e) Hd) as Hs. fold x in Hs. set (m := scaled num den (5 - e)) in *.
    pose proof (p10_pos (5 - e)) as Pp. pose proof (p10_pos (e - 5)) as Pq.
    assert (p10 (5 - e) * p10 (e - 5) = 1) as Pi by (rewrite p10_add; replace (5 - e + (e - 5))%Z with 0%Z by lia; reflexivity).
    assert (100000 <= x * p10 (5 - e) < 1000000) as [B1 B2].
    { rewrite <- p10_5, <- p10_6. replace (p10 5) with (p10 e * p10 (5 - e)) by (rewrite p10_add; f_equal; lia).
      replace (p10 6) with (p10 (e + 1) * p10 (5 - e)) by (rewrite p10_add; f_equal; lia). split; [apply Rmult_le_compat_r; lra|apply Rmult_lt_compat_r; lra]. }
    assert (100000 <= m <= 1000000)%Z as [M1 M2].
    { apply Rabs_le_inv in Hs. split.
      - destruct (Z.lt_ge_cases m 100000) as [Hlt|]; [|lia]. assert (m <= 99999)%Z as Hle by lia. apply IZR_le in Hle. lra.
      - destruct (Z.lt_ge_cases 1000000 m) as [Hlt|]; [|lia]. assert (1000001 <= m)%Z as Hle by lia. apply IZR_le in Hle. lra. }
    assert (Rabs (IZR m * p10 (e - 5) - x) <= 5 / 1000000 * x) as Herr.
    { replace (IZR m * p10 (e - 5) - x) with ((IZR m - x * p10 (5 - e)) * p10 (e - 5)) by (rewrite Rmult_minus_distr_r, Rmult_assoc, Pi; ring).
      rewrite Rabs_mult, (Rabs_pos_eq (p10 (e - 5))) by lra. apply Rle_trans with (/ 2 * p10 (e - 5)); [apply Rmult_le_compat_r; lra|].
      assert (p10 e = 100000 * p10 (e - 5)) as E5 by (rewrite <- p10_5, p10_add; f_equal; lia). lra. }
    destruct (Z.eqb_spec m 1000000) as [Em|Em]; cbn [fst snd].
    - split; [lia|]. rewrite Em in Herr. replace (100000 * p10 (e + 1 - 5)) with (1000000 * p10 (e - 5)); [exact Herr|].
      replace (e + 1 - 5)%Z with (1 + (e - 5))%Z by lia. rewrite bpow_plus. change (p10 1) with 10. ring.
    - split; [lia|exact Herr].
  Qed.
  (** The nearest double of a decimal with six digits prints as that decimal. *)
  Lemma six_decimal num den m E : (0 < num)%Z -> (0 < den)%Z -> (100000 <= m < 1000000)%Z ->
    Rabs (IZR num / IZR den - IZR m * p10 (E - 5)) <= / 10000000 * (IZR m * p10 (E - 5)) -> six num den = (m, E).
  Proof.
    intros Hn Hd Hm Hx. destruct (exponent10_spec num den Hn Hd) as [E1 E2]. unfold six. set (e := exponent10 num den) in *. set (x := IZR num / IZR den) in *.
    pose proof (fun k => scaled_spec num den k Hd) as Hs. fold x in Hs. set (d := IZR m * p10 (E - 5)) in *.
    assert (100000 <= IZR m <= 999999) as [Mm1 Mm2] by (split; apply IZR_le; lia). pose proof (p10_pos (E - 5)) as Pq.
    assert (p10 E = 100000 * p10 (E - 5)) as PE by (rewrite <- p10_5, p10_add; f_equal; lia).
    assert (p10 (E + 1) = 1000000 * p10 (E - 5)) as PE1 by (rewrite <- p10_6, p10_add; f_equal; lia).
    assert (p10 (E - 1) = 10000 * p10 (E - 5)) as PEm. { replace 10000 with (p10 4) by (cbn; lra). rewrite p10_add. f_equal. lia. }
    apply Rabs_le_inv in Hx. assert (100000 * p10 (E - 5) <= d <= 999999 * p10 (E - 5)) as [D1 D2].
    { unfold d. split; apply Rmult_le_compat_r; lra. }
    assert (forall k z r, Rabs (IZR (scaled num den k) - r) <= / 2 -> Rabs (r - IZR z) < / 2 -> scaled num den k = z) as Huniq.
    { intros k z r H1 H2. apply Rabs_le_inv in H1. apply Rabs_lt_inv in H2. assert (-1 < IZR (scaled num den k - z) < 1) as [U1 U2] by (rewrite minus_IZR; lra).
      apply lt_IZR in U1, U2. lia. }
    destruct (Rle_lt_dec (p10 E) x) as [Hle|Hlt].
    - assert (e = E) as Ee.
      { assert (E < e + 1)%Z by (apply (lt_bpow r10); lra). assert (e < E + 1)%Z by (apply (lt_bpow r10); lra). lia. }
      rewrite Ee in *. assert (scaled num den (5 - E) = m) as ->.
      { apply (Huniq _ _ _ (Hs (5 - E)%Z)). assert (p10 (5 - E) * p10 (E - 5) = 1) as Pi by (rewrite p10_add; replace (5 - E + (E - 5))%Z with 0%Z by lia; reflexivity).
        assert (IZR m = d * p10 (5 - E)) as Em by (unfold d; rewrite Rmult_assoc, (Rmult_comm (p10 (E - 5))), Pi; ring).
        rewrite Em, <- Rmult_minus_distr_r, Rabs_mult, (Rabs_pos_eq (p10 (5 - E))) by apply Rlt_le, p10_pos.
        apply Rle_lt_trans with (/ 10000000 * d * p10 (5 - E)); [apply Rmult_le_compat_r; [apply Rlt_le, p10_pos|apply Rabs_le; lra]|]. rewrite Rmult_assoc, <- Em. lra. }
      destruct (Z.eqb_spec m 1000000); [lia|reflexivity].
    - assert (m = 100000)%Z as Em.
      { destruct (Z.eq_dec m 100000) as [|Hne]; auto. exfalso. assert (100001 <= IZR m) as M1 by (apply IZR_le; lia).
        assert (100001 * p10 (E - 5) <= d) by (unfold d; apply Rmult_le_compat_r; lra). lra. }
      assert (e = E - 1)%Z as Ee.
      { assert (E - 1 < e + 1)%Z by (apply (lt_bpow r10); lra). assert (e < E)%Z by (apply (lt_bpow r10); lra). lia. }
      rewrite Ee in *. assert (scaled num den (5 - (E - 1)) = 1000000%Z) as ->.
      { apply (Huniq _ _ _ (Hs (5 - (E - 1))%Z)). assert (p10 (5 - (E - 1)) * p10 (E - 5) = 10) as Pi.
        { rewrite p10_add; replace (5 - (E - 1) + (E - 5))%Z with 1%Z by lia; reflexivity. }
        assert (1000000 = d * p10 (5 - (E - 1))) as E6 by (unfold d; rewrite Em, Rmult_assoc, (Rmult_comm (p10 (E - 5))), Pi; lra).
        rewrite E6 at 1. rewrite <- Rmult_minus_distr_r, Rabs_mult, (Rabs_pos_eq (p10 (5 - (E - 1)))) by apply Rlt_le, p10_pos.
        apply Rle_lt_trans with (/ 10000000 * d * p10 (5 - (E - 1))); [apply Rmult_le_compat_r; [apply Rlt_le, p10_pos|apply Rabs_le; lra]|]. rewrite Rmult_assoc, <- E6. lra. }
      rewrite Z.eqb_refl, Em. f_equal. lia.
  Qed.
End Six.
