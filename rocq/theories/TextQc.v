(** An instance of [TextNum] with exact rationals: decimal notation with optional exponent, printed like
    C++ streams do by default (six significant digits, as printf %g).  Used for the examples and refutations.
    Simplification: hexadecimal, infinities, NaN and overflow of std::stod are left out. *)
From Verif Require Import Base Num Text TextFacts.
From Coq Require Import Ascii String List QArith Qcanon.
Import ListNotations.
Local Close Scope Q_scope. Local Close Scope Qc_scope.
Local Open Scope nat_scope.
Local Open Scope char_scope.
Local Open Scope list_scope.

Definition pow10 (e : Z) : Q := if (0 <=? e)%Z then (10 ^ e)%Z # 1 else 1 # Z.to_pos (10 ^ (- e))%Z.
Definition scan_exp (t : text) : Z :=
  match t with
  | c :: r => if (c =? "e") || (c =? "E")
              then let '(neg, r) := scan_sign r in
                   let '(z, k, _) := scan_digits r 0 0 in
                   if Nat.eqb k 0 then 0%Z else if neg then (- z)%Z else z
              else 0%Z
  | [] => 0%Z
  end.
Definition stod_qc (t : text) : outcome Qc :=
  let '(neg, r) := scan_sign (skip_spaces t) in
  let '(z, k, r) := scan_digits r 0 0 in
  let '(z, k', r) := match r with
                    | c :: r' => if c =? "." then scan_digits r' z 0 else (z, 0, r)
                    | [] => (z, 0, r)
                    end in
  if Nat.eqb (k + k') 0 then Throw InvalidArgument
  else let q := Qmult (z # 1) (pow10 (scan_exp r - Z.of_nat k')) in
       Ok (Q2Qc (if neg then Qopp q else q)).

(** [n / d] rounded to the nearest integer, ties to even. *)
Definition round_div (n d : Z) : Z :=
  let q := (n / d)%Z in let r := (n mod d)%Z in
  if (2 * r <? d)%Z then q else if (d <? 2 * r)%Z then (q + 1)%Z else if Z.even q then q else (q + 1)%Z.
Definition scaled (num den : Z) (e : Z) : Z :=
  if (0 <=? e)%Z then round_div (num * 10 ^ e) den else round_div num (den * 10 ^ (- e)).
(** Decimal exponent of num / den: the guess from the number of digits, or one less. *)
Definition exponent10 (num den : Z) : Z :=
  let e := (Z.of_nat (List.length (show_Z num)) - Z.of_nat (List.length (show_Z den)))%Z in
  let ge := if (0 <=? e)%Z then (den * 10 ^ e <=? num)%Z else (den <=? num * 10 ^ (- e))%Z in
  if ge then e else (e - 1)%Z.
Fixpoint strip_zeros (t : text) : text :=
  match t with
  | [] => []
  | c :: r => match strip_zeros r with
              | [] => if c =? "0" then [] else [c]
              | r' => c :: r'
              end
  end.
Definition fmt_pos (num den : Z) : text :=
  let e := exponent10 num den in
  let m := scaled num den (5 - e) in
  let '(m, e) := if (m =? 1000000)%Z then (100000%Z, (e + 1)%Z) else (m, e) in
  let ds := show_Z m in
  if ((-4 <=? e) && (e <? 6))%Z then
    if (e <? 0)%Z then txt "0." ++ repeat "0" (Z.to_nat (- e - 1)) ++ strip_zeros ds
    else let k := Z.to_nat (e + 1) in
         firstn k ds ++ match strip_zeros (skipn k ds) with [] => [] | f => "." :: f end
  else
    firstn 1 ds ++ match strip_zeros (skipn 1 ds) with [] => [] | f => "." :: f end ++
    "e" :: (if (e <? 0)%Z then "-" else "+") :: (if (Z.abs e <? 10)%Z then ["0"] else []) ++ show_Z (Z.abs e).
Definition fmt_qc (x : Qc) : text :=
  let n := Qnum (this x) in let d := Z.pos (Qden (this x)) in
  if (n =? 0)%Z then ["0"] else if (n <? 0)%Z then "-" :: fmt_pos (- n) d else fmt_pos n d.

Global Instance TextQc : TextNum Qc.
Proof.
  refine {| stod := stod_qc; fmt := fmt_qc |}.
  - reflexivity.
  - intros t. unfold stod_qc. destruct (scan_sign _) as [neg r]. destruct (scan_digits r 0 0) as [[z k] r'].
    destruct (match r' with [] => _ | _ => _ end) as [[z' k'] r2]. destruct (Nat.eqb (k + k') 0); eauto.
Defined.

Definition ok_is (o : outcome Qc) (w : Qc) : bool := match o with Ok x => weqb x w | _ => false end.
Lemma ok_is_eq o w : ok_is o w = true -> o = Ok w.
Proof.
  unfold ok_is. destruct o as [x| |]; try discriminate. intros E. f_equal. apply Qc_is_canon.
  now apply Qeq_bool_iff.
Qed.
Definition free_ofb (cs : list ascii) (t : text) : bool := forallb (fun c => negb (existsb (Ascii.eqb c) cs)) t.
Lemma free_ofb_iff cs t : free_ofb cs t = true -> free_of cs t.
Proof.
  unfold free_ofb. rewrite forallb_forall. intros Hf c Hc Hin. specialize (Hf c Hc). apply negb_true_iff in Hf.
  assert (existsb (Ascii.eqb c) cs = true) as E; [|congruence]. apply existsb_exists. exists c. split; auto. apply Ascii.eqb_refl.
Qed.
