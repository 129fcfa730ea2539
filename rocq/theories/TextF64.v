(** An instance of [TextNum] with binary64: std::stod and [os << x] as the C library does them (correctly rounded, six significant
    digits as printf %g).  Simplification: hexadecimal floating-point text is left out ("0x10" is read as 0), and NaNs have no sign and no payload. *)
From Verif Require Import Base Num Text TextFacts TextQc.
From Coq Require Import ZArith Ascii String List SpecFloat.
Import ListNotations.
Local Open Scope nat_scope.
Local Open Scope char_scope.
Local Open Scope list_scope.

(** ** Reading *)
(** An unsigned decimal number: the digits [z] and the power [e] of ten, [z * 10^e]; [None] if there is no digit. *)
Definition scan_decimal (r : text) : option (Z * Z) :=
  let '(z, k, r) := scan_digits r 0 0 in
  let '(z, k', r) := match r with
                    | c :: r' => if c =? "." then scan_digits r' z 0 else (z, 0, r)
                    | [] => (z, 0, r)
                    end in
  if Nat.eqb (k + k') 0 then None else Some (z, (scan_exp r - Z.of_nat k')%Z).
(** Does the text begin with a word, in any case? *)
Definition lower (c : ascii) : ascii :=
  let n := nat_of_ascii c in if (65 <=? n)%nat && (n <=? 90)%nat then ascii_of_nat (n + 32) else c.
Fixpoint starts_with (w t : text) : bool :=
  match w, t with
  | [], _ => true
  | x :: w', c :: t' => (x =? lower c) && starts_with w' t'
  | _ :: _, [] => false
  end.
(** [num / den] rounded to nearest, ties to even. *)
Definition round_ratio (neg : bool) (num den : positive) : f64 :=
  let '(mz, ez, lz) := SFdiv_core_binary 53 1024 (Zpos num) 0 (Zpos den) 0 in
  SpecFloat.binary_round_aux 53 1024 neg mz ez lz.
(** Is the finite double [m * 2^e] equal to [num / den]? *)
Definition exactly (m : positive) (e : Z) (num den : positive) : bool :=
  if (0 <=? e)%Z then (Zpos m * 2 ^ e * Zpos den =? Zpos num)%Z else (Zpos m * Zpos den =? Zpos num * 2 ^ (- e))%Z.
(** The C library reports ERANGE, which std::stod turns into out_of_range, when the result overflows, and when it is subnormal or zero and not exact. *)
Definition in_range_result (x : f64) (num den : positive) : outcome f64 :=
  match x with
  | S754_infinity _ | S754_zero _ => Throw OutOfRange
  | S754_finite _ m e => if (Zpos m <? 2 ^ 52)%Z && negb (exactly m e num den) then Throw OutOfRange else Ok x
  | S754_nan => Ok x
  end.
(** repo: std::stod (graphio.cpp:53, 69, 450; data.cpp:116, 128). *)
Definition stod_f64 (t : text) : outcome f64 :=
  let '(neg, r) := scan_sign (skip_spaces t) in
  match scan_decimal r with
  | None => if starts_with (txt "inf") r then Ok (S754_infinity neg)
            else if starts_with (txt "nan") r then Ok S754_nan
            else Throw InvalidArgument
  | Some (Z0, _) => Ok (S754_zero neg)
  | Some (z, e) =>
    let num := if (0 <=? e)%Z then (z * 10 ^ e)%Z else z in
    let den := if (0 <=? e)%Z then 1%Z else (10 ^ (- e))%Z in
    in_range_result (round_ratio neg (Z.to_pos num) (Z.to_pos den)) (Z.to_pos num) (Z.to_pos den)
  end.

(** ** Writing *)
(** repo: [os << w] of a double with the default flags and precision 6 (graphio.cpp:162, 198-199, 576, 612, 666; data.cpp:73). *)
Definition fmt_f64 (x : f64) : text :=
  match x with
  | S754_zero s => if s then ["-"; "0"] else ["0"]
  | S754_infinity s => (if s then ["-"] else []) ++ txt "inf"
  | S754_nan => txt "nan"
  | S754_finite s m e =>
    (if s then ["-"] else []) ++
    (if (0 <=? e)%Z then fmt_pos (Zpos m * 2 ^ e) 1 else fmt_pos (Zpos m) (2 ^ (- e)))
  end.

Lemma stod_f64_result t : (exists w, stod_f64 t = Ok w) \/ stod_f64 t = Throw InvalidArgument \/ stod_f64 t = Throw OutOfRange.
Proof.
  assert (forall x a b, (exists w, in_range_result x a b = Ok w) \/ in_range_result x a b = Throw InvalidArgument \/ in_range_result x a b = Throw OutOfRange) as R.
  { intros x a b. unfold in_range_result. destruct x as [s|s| |s m e]; eauto. destruct (_ && _); eauto. }
  unfold stod_f64. destruct (scan_sign _) as [neg r]. destruct (scan_decimal r) as [[z e]|].
  - destruct z; eauto.
  - destruct (starts_with _ _); eauto. destruct (starts_with _ _); eauto.
Qed.
Global Instance TextF64 : TextNum f64 := {| stod := stod_f64; fmt := fmt_f64; stod_nil := eq_refl; stod_result := stod_f64_result |}.
