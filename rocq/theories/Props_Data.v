(** Data files and data points (stag_lib/data.cpp): C55, C61. *)
From Verif Require Import Base Num Text TextFacts TextQc GraphIO IOSpec Data DataFacts.
From Coq Require Import Ascii String List QArith Qcanon.
Import ListNotations.
Local Close Scope Q_scope. Local Close Scope Qc_scope.
Local Open Scope nat_scope.
Local Open Scope char_scope.
Local Open Scope list_scope.

(** ** C55: load_matrix and save_matrix
    [grow n] is the number of rows ceil(1.1 * n) the buffer gets when row [n] does not fit; only
    [n <= grow n] is used. *)

(** A file of well-formed rows of one length: the matrix of those rows, in order, every cell written. *)
Theorem C55_rows : forall (W : Type) (NW : Num W) (TW : TextNum W) (grow : nat -> nat), (forall n, n <= grow n) ->
  forall (f : text) (rows : list (list W)) (c : nat),
    rows_text (file_lines f) rows -> rows <> [] -> Forall (fun r => List.length r = c) rows ->
    load_matrix grow f = Ok {| drows := List.length rows; dcols := c; cells := map (map Some) rows |}.
Proof. intros. now apply load_matrix_rows. Qed.
Print Assumptions C55_rows.

(** Rows of different lengths: runtime_error. *)
Theorem C55_ragged : forall (W : Type) (NW : Num W) (TW : TextNum W) (grow : nat -> nat), (forall n, n <= grow n) ->
  forall (f : text) (rows : list (list W)),
    rows_text (file_lines f) rows -> (exists r r', In r rows /\ In r' rows /\ List.length r <> List.length r') ->
    load_matrix (W := W) grow f = Throw RuntimeError.
Proof. intros. eapply load_matrix_ragged; eauto. Qed.
Print Assumptions C55_ragged.

(** A row with a field, not the last, which is not a number: an exception, whatever the other lines are. *)
Theorem C55_malformed_field : forall (W : Type) (NW : Num W) (TW : TextNum W) (grow : nat -> nat), (forall n, n <= grow n) ->
  forall (f line : text) (e : exn), In line (file_lines f) -> ~ comment_or_blank line -> bad_row (W := W) line e ->
    exists e', load_matrix (W := W) grow f = Throw e'.
Proof. intros. eapply load_matrix_bad_any; eauto. Qed.
Print Assumptions C55_malformed_field.

(** Which exception: std::stod's, if nothing was wrong before. *)
Theorem C55_malformed_field_exception : forall (W : Type) (NW : Num W) (TW : TextNum W) (grow : nat -> nat), (forall n, n <= grow n) ->
  forall (f : text) before line after (rows : list (list W)) e,
    file_lines f = before ++ line :: after -> rows_text before rows ->
    (forall r r', In r rows -> In r' rows -> List.length r = List.length r') ->
    ~ comment_or_blank line -> bad_row (W := W) line e ->
    load_matrix (W := W) grow f = Throw e.
Proof. intros. eapply load_matrix_bad; eauto. Qed.
Print Assumptions C55_malformed_field_exception.

(** Every file at all: an exception, or a matrix with one row for each line which is neither blank nor a comment,
    and no uninitialised cell; never undefined behaviour. *)
Definition content_lines (f : text) : list text :=
  filter (fun l => match l with [] => false | c :: _ => negb (c =? "#") && negb (c =? "/") end) (file_lines f).
Theorem C55_total : forall (W : Type) (NW : Num W) (TW : TextNum W) (grow : nat -> nat), (forall n, n <= grow n) ->
  forall f : text,
    (exists e, load_matrix (W := W) grow f = Throw e) \/
    exists (rows : list (list W)) c,
      load_matrix grow f = Ok {| drows := List.length rows; dcols := c; cells := map (map Some) rows |} /\
      Forall (fun r => List.length r = c) rows /\ List.length rows = List.length (content_lines f).
Proof. intros. now apply load_matrix_total. Qed.
Print Assumptions C55_total.

(** Saving and loading: the dimensions, and each entry as its text reads back. *)
Theorem C55_save_load : forall (W : Type) (NW : Num W) (TW : TextNum W) (grow : nat -> nat), (forall n, n <= grow n) ->
  forall (rows rows' : list (list W)) c, rows <> [] -> 0 < c -> Forall (fun r => List.length r = c) rows ->
    Forall2 (Forall2 prints_as) rows rows' ->
    load_matrix grow (save_matrix rows) = Ok {| drows := List.length rows'; dcols := c; cells := map (map Some) rows' |}.
Proof. intros. now apply save_load. Qed.
Print Assumptions C55_save_load.

(** ceil(11 n / 10). *)
Definition grow11 (n : nat) : nat := (11 * n + 9) / 10.
Lemma grow11_enough n : n <= grow11 n.
Proof. unfold grow11. apply Nat.div_le_lower_bound; lia. Qed.

Definition q (n d : Z) : Qc := Q2Qc (n # Z.to_pos d).
Definition csv_eqb (o : outcome (dmat (W := Qc))) (r c : nat) (rows : list (list Qc)) : bool :=
  match o with
  | Ok m => Nat.eqb (drows m) r && Nat.eqb (dcols m) c &&
            (fix eq_rows (a : list (list (option Qc))) b := match a, b with
             | [], [] => true
             | x :: a, y :: b => (fix eq_row (a : list (option Qc)) b := match a, b with
                                  | [], [] => true
                                  | Some x :: a, y :: b => weqb x y && eq_row a b
                                  | _, _ => false end) x y && eq_rows a b
             | _, _ => false end) (cells m) rows
  | _ => false
  end.

(** The hypotheses are met: a file with a comment, blank lines, both kinds of line ends, extra separators. *)
Definition file1 : text := txt "# points" ++ LF :: txt "1,2.5, -3" ++ CR :: LF :: LF :: txt "4 5  6 ".
Example C55_hypotheses_met : exists rows : list (list Qc),
  rows_text (file_lines file1) rows /\ rows <> [] /\ Forall (fun r => List.length r = 3) rows /\
  csv_eqb (load_matrix grow11 file1) 2 3 [[q 1 1; q 5 2; q (-3) 1]; [q 4 1; q 5 1; q 6 1]] = true.
Proof.
  assert (D : forall t (w : Qc), ok_is (stod t) w = true -> stod t = Ok w) by (intros; now apply ok_is_eq).
  exists [[q 1 1; q 5 2; q (-3) 1]; [q 4 1; q 5 1; q 6 1]].
  split; [|split; [discriminate|split; [repeat constructor|vm_compute; reflexivity]]].
  replace (file_lines file1) with [txt "# points"; txt "1,2.5, -3"; []; txt "4 5  6 "] by (vm_compute; reflexivity).
  apply rt_skip; [right; do 2 eexists; split; [reflexivity|now left]|].
  apply rt_row; [intros [E|(c & r & E & [-> | ->])]; discriminate E| |].
  { exists ",", [txt "1"; txt "2.5"; txt " -3"]. split; [now left|]. split; [intros c _ []|]. split.
    - exists [txt "1"; txt "2.5"], (txt " -3"). split; [reflexivity|]. split; [|split; [|reflexivity]].
      + repeat constructor; apply free_ofb_iff; reflexivity.
      + apply free_ofb_iff; reflexivity.
    - split; [left; simpl; lia|]. repeat constructor; apply D; vm_compute; reflexivity. }
  apply rt_skip; [now left|].
  apply rt_row; [intros [E|(c & r & E & [-> | ->])]; discriminate E| |constructor].
  exists " ", [txt "4"; txt "5"; txt "6"]. split; [right; now left|]. split; [apply free_ofb_iff; reflexivity|]. split.
  - exists [txt "4"; txt "5"; []; txt "6"], []. split; [reflexivity|]. split; [|split; [apply free_of_nil|reflexivity]].
    repeat constructor; apply free_ofb_iff; reflexivity.
  - split; [left; simpl; lia|]. repeat constructor; apply D; vm_compute; reflexivity.
Qed.
Example C55_malformed_hypotheses_met : bad_row (W := Qc) (txt "1,x,3") InvalidArgument /\ ~ comment_or_blank (txt "1,x,3").
Proof.
  split; [|intros [E|(c & r & E & [-> | ->])]; discriminate E].
  exists ",", [txt "1"], (txt "x"), [txt "3"]. split; [now left|]. split; [intros c _ []|]. split.
  - exists [txt "1"; txt "x"], (txt "3"). split; [reflexivity|].
    split; [|split; [apply free_ofb_iff; reflexivity|reflexivity]].
    repeat constructor; apply free_ofb_iff; reflexivity.
  - split; [discriminate|]. split; [|reflexivity]. constructor; [|constructor].
    eexists. apply ok_is_eq with (w := q 1 1). vm_compute. reflexivity.
Qed.
Example C55_save_load_hypotheses_met : prints_as (q 1 2) (q 1 2) /\ prints_as (q (-7) 1) (q (-7) 1).
Proof.
  split; (split; [apply ok_is_eq; vm_compute; reflexivity|]); (split; [intros E; vm_compute in E; discriminate E|]);
    (split; [apply free_ofb_iff; vm_compute; reflexivity|]).
  - intros [E|(c & r & E & [-> | ->])]; vm_compute in E; discriminate E.
  - intros [E|(c & r & E & [-> | ->])]; vm_compute in E; discriminate E.
Qed.

(** The header promises std::runtime_error when the file cannot be parsed; a malformed field escapes as std::stod's
    std::invalid_argument. *)
Theorem C55_malformed_is_runtime_error_refuted :
  load_matrix (W := Qc) grow11 (txt "1,x,3") = Throw InvalidArgument.
Proof. vm_compute. reflexivity. Qed.
(** A malformed last field is dropped without notice. *)
Theorem C55_malformed_last_field_refuted :
  csv_eqb (load_matrix (W := Qc) grow11 (txt "1,2,x")) 1 2 [[q 1 1; q 2 1]] = true.
Proof. vm_compute. reflexivity. Qed.
(** With two kinds of separator on a line, values disappear. *)
Theorem C55_mixed_separators_refuted :
  csv_eqb (load_matrix (W := Qc) grow11 (txt "1 2,3")) 1 2 [[q 1 1; q 3 1]] = true.
Proof. vm_compute. reflexivity. Qed.
(** A line of text is a row without values. *)
Theorem C55_words_refuted :
  load_matrix (W := Qc) grow11 (txt "hello" ++ LF :: txt "hello" ) = Ok {| drows := 2; dcols := 0; cells := [[]; []] |}.
Proof. vm_compute. reflexivity. Qed.
(** A matrix without rows or without columns comes back with no rows and one column. *)
Theorem C55_save_load_empty_refuted :
  load_matrix (W := Qc) grow11 (save_matrix []) = Ok {| drows := 0; dcols := 1; cells := [] |} /\
  load_matrix (W := Qc) grow11 (save_matrix [[]; []; []]) = Ok {| drows := 0; dcols := 1; cells := [] |}.
Proof. split; vm_compute; reflexivity. Qed.
(** Entries are written with six digits: 1000001 comes back as 1000000. *)
Theorem C55_save_load_entries_refuted :
  csv_eqb (load_matrix grow11 (save_matrix [[q 1000001 1]])) 1 1 [[q 1000000 1]] = true.
Proof. vm_compute. reflexivity. Qed.
Print Assumptions C55_save_load_entries_refuted.

(** ** C61: data points are views of the rows of the matrix *)
(** Whatever the memory contains, the points read as the rows of the matrix, in order. *)
Theorem C61_datapoints_are_rows : forall (W : Type) (h : memory (W := W)) (m : mat_in_mem),
  map (to_vector h) (matrix_to_datapoints m) =
  map (fun i => map (fun j => coeff h m i j) (seq 0 (mm_cols m))) (seq 0 (mm_rows m)).
Proof. intros. apply datapoints_rows. Qed.
Print Assumptions C61_datapoints_are_rows.
(** The same for the constructor from a row index. *)
Theorem C61_row_point : forall (W : Type) (h : memory (W := W)) (m : mat_in_mem) i,
  to_vector h (row_point m i) = map (fun j => coeff h m i j) (seq 0 (mm_cols m)).
Proof. intros. unfold to_vector, coeff, address. simpl. apply map_ext. intros j. unfold address. f_equal. lia. Qed.
Print Assumptions C61_row_point.
(** A later write to the entry (i, j) is seen in the coordinate j of the point i, and in no other. *)
Theorem C61_datapoints_are_views : forall (W : Type) (h : memory (W := W)) (m : mat_in_mem) i j v,
  i < mm_rows m -> j < mm_cols m ->
  forall i' j' d, i' < mm_rows m -> j' < mm_cols m ->
    nth j' (to_vector (store h (address m i j) v) (nth i' (matrix_to_datapoints m) d)) v =
    if (Nat.eqb i' i && Nat.eqb j' j)%bool then v else nth j' (to_vector h (nth i' (matrix_to_datapoints m) d)) v.
Proof. intros. now apply datapoints_alias. Qed.
Print Assumptions C61_datapoints_are_views.
Example C61_hypotheses_met :
  let m := {| mm_rows := 2; mm_cols := 3; mm_data := 10 |} in
  let h := fun a => a * a in
  map (to_vector h) (matrix_to_datapoints m) = [[100; 121; 144]; [169; 196; 225]] /\
  map (to_vector (store h (address m 1 2) 7)) (matrix_to_datapoints m) = [[100; 121; 144]; [169; 196; 7]].
Proof. split; reflexivity. Qed.
