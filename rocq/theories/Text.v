(** Text files: line reading, integer and weight conversion, tokenisation. *)
From Verif Require Import Base Num.
From Coq Require Import Ascii String List.
Import ListNotations.
Local Open Scope nat_scope.
Local Open Scope char_scope.
Local Open Scope list_scope.

(** The contents of a file: a list of bytes. *)
Definition text : Type := list ascii.
Definition txt (s : string) : text := list_ascii_of_string s.

Definition LF : ascii := "010".
Definition CR : ascii := "013".
Definition TAB : ascii := "009".

(** repo: utility.cpp:104-135 safeGetline: the line and what remains unread.
    At the end of the input the line is empty. *)
Fixpoint getline (t : text) : text * text :=
  match t with
  | [] => ([], [])
  | c :: r => if c =? LF then ([], r)
              else if c =? CR then ([], match r with d :: r' => if d =? LF then r' else r | [] => r end)
              else let '(l, r') := getline r in (c :: l, r')
  end.
(** repo: [while (safeGetline(is, line))] (graphio.cpp:107, 191, 234, 518, 600, 649, data.cpp:156):
    the successive values of [line].  safeGetline sets eofbit, and not failbit, when it finds the end of
    the input at once, so the loop body runs one last time with an empty line; the next call
    fails in the sentry.  [fuel] is the length of the text. *)
Fixpoint read_lines_f (fuel : nat) (t : text) : list text :=
  match t, fuel with
  | [], _ => [[]]
  | _, 0 => []
  | _, S f => let '(l, r) := getline t in l :: read_lines_f f r
  end.
Definition read_lines (t : text) : list text := read_lines_f (length t) t.

(** ** Numbers *)
Definition is_space (c : ascii) : bool :=
  (c =? " ") || (c =? TAB) || (c =? LF) || (c =? "011") || (c =? "012") || (c =? CR).
Definition digit_of (c : ascii) : option Z :=
  let n := Z.of_nat (nat_of_ascii c) in
  if ((48 <=? n) && (n <=? 57))%Z then Some (n - 48)%Z else None.
Fixpoint skip_spaces (t : text) : text :=
  match t with c :: r => if is_space c then skip_spaces r else t | [] => [] end.
(** Longest prefix of digits: value continued from [acc], number of digits, rest. *)
Fixpoint scan_digits (t : text) (acc : Z) (k : nat) : Z * nat * text :=
  match t with
  | c :: r => match digit_of c with
              | Some d => scan_digits r (acc * 10 + d)%Z (S k)
              | None => (acc, k, t)
              end
  | [] => (acc, k, [])
  end.
Definition scan_sign (t : text) : bool * text :=
  match t with
  | c :: r => if c =? "-" then (true, r) else if c =? "+" then (false, r) else (false, t)
  | [] => (false, [])
  end.
(** repo: std::stoi (graphio.cpp:51, 52, 63, 444, 448, 473; graph.cpp:674): leading white space, a
    sign, decimal digits; the rest of the string is ignored. *)
Definition stoi (t : text) : outcome Z :=
  let '(neg, r) := scan_sign (skip_spaces t) in
  let '(z, k, _) := scan_digits r 0 0 in
  if Nat.eqb k 0 then Throw InvalidArgument
  else let z := if neg then (- z)%Z else z in
       if ((-2147483648 <=? z) && (z <=? 2147483647))%Z then Ok z else Throw OutOfRange.

Definition digit_char (d : Z) : ascii := ascii_of_nat (Z.to_nat (48 + d)).
Fixpoint show_digits (fuel : nat) (z : Z) (acc : text) : text :=
  match fuel with
  | 0 => acc
  | S f => let acc := digit_char (z mod 10) :: acc in
           if (z <? 10)%Z then acc else show_digits f (z / 10)%Z acc
  end.
(** repo: [os << n] for StagInt n. *)
Definition show_Z (z : Z) : text :=
  if (z <? 0)%Z then "-" :: show_digits (S (Z.to_nat (Z.log2 (- z)))) (- z)%Z []
  else show_digits (S (Z.to_nat (Z.log2 z))) z [].
Definition show_nat (n : nat) : text := show_Z (Z.of_nat n).

(** Textual weights.  [stod]: std::stod; [fmt]: [os << w] with the default precision.  The
    conversions between text and binary64 are not modelled: the theorems hold for every pair of functions with the two
    properties below (std::stod throws invalid_argument when there is nothing to convert, out_of_range, or
    returns a number), and name what else they need; [TextQc] is an instance with exact rationals. *)
Class TextNum (W : Type) := {
  stod : text -> outcome W;
  fmt : W -> text;
  stod_nil : stod [] = Throw InvalidArgument;
  stod_result : forall t, (exists w, stod t = Ok w) \/ stod t = Throw InvalidArgument \/ stod t = Throw OutOfRange }.

(** ** Tokens *)
(** repo: std::string::find(char), substr and erase (graphio.cpp:440-450, 468-474). *)
Fixpoint split1 (c : ascii) (t : text) : option (text * text) :=
  match t with
  | [] => None
  | x :: r => if x =? c then Some ([], r)
              else match split1 c r with Some (a, b) => Some (x :: a, b) | None => None end
  end.
(** The tokens produced by repeatedly splitting on the delimiter [c], and what is left of the line.
    repo: the loops [while ((split_pos = line.find(delimiter)) != npos)] of graphio.cpp:41-57, 477-484. *)
Fixpoint fields (c : ascii) (t : text) : list text * text :=
  match t with
  | [] => ([], [])
  | x :: r =>
    let '(ts, l) := fields c r in
    if x =? c then ([] :: ts, l)
    else match ts with
         | [] => ([], x :: l)
         | a :: ts' => ((x :: a) :: ts', l)
         end
  end.

(** [os << line << std::endl]. *)
Definition put_line (l : text) : text := l ++ [LF].
Definition put_lines (ls : list text) : text := concat (map put_line ls).
