(** Model of stag_lib/data.cpp.  A file is its contents (a [text]); failures to open a file are not modelled. *)
From Verif Require Import Base Num Text GraphIO.
From Coq Require Import Ascii String List.
Import ListNotations.
Local Open Scope nat_scope.
Local Open Scope char_scope.
Local Open Scope list_scope.

Section Data.
  Context {W : Type} `{Num W} `{!TextNum W}.

  (** repo: definitions.h:51-52 DenseMat.  A cell is [None] until it is written: Eigen's constructor and
      conservativeResize leave new cells uninitialised. *)
  Record dmat : Type := { drows : nat; dcols : nat; cells : list (list (option W)) }.
  (** [DenseMat data(r, c)]. *)
  Definition new_dmat (r c : nat) : dmat := {| drows := r; dcols := c; cells := repeat (repeat None c) r |}.
  (** First [k] elements of [l], completed with copies of [d]. *)
  Definition fit {A} (d : A) (k : nat) (l : list A) : list A := firstn k l ++ repeat d (k - List.length l).
  (** [conservativeResize(NoChange, c)] and [conservativeResize(r, NoChange)]. *)
  Definition resize_cols (c : nat) (m : dmat) : dmat :=
    {| drows := drows m; dcols := c; cells := map (fit None c) (cells m) |}.
  (** repo: conservativeResize(r, NoChange), as above. *)
  Definition resize_rows (r : nat) (m : dmat) : dmat :=
    {| drows := r; dcols := dcols m; cells := fit (repeat None (dcols m)) r (cells m) |}.
  (** [data.coeffRef(i, j) = v]: undefined outside the matrix (the assertion is off in a release build). *)
  Definition set_cell (i j : nat) (v : W) (m : dmat) : outcome dmat :=
    if (Nat.ltb i (drows m) && Nat.ltb j (dcols m))%bool
    then Ok {| drows := drows m; dcols := dcols m;
               cells := upd_nth (cells m) i (fun row => upd_nth row j (fun _ => Some v)) |}
    else UB.
  (** repo: data.cpp:177-179, 185-187: the tokens are written from column [j]. *)
  Fixpoint set_cells (i j : nat) (vs : list W) (m : dmat) : outcome dmat :=
    match vs with
    | [] => Ok m
    | v :: r => do m <- set_cell i j v m; set_cells i (S j) r m
    end.

  (** repo: data.cpp:106-120: the tokens of the line, parsed in turn; empty ones are skipped. *)
  Fixpoint csv_tokens (acc : list W) (toks : list text) : outcome (list W) :=
    match toks with
    | [] => Ok acc
    | [] :: r => csv_tokens acc r
    | t :: r => do v <- stod t; csv_tokens (acc ++ [v]) r
    end.
  (** repo: data.cpp:102-122: one delimiter, tried only if no token was found yet. *)
  Definition csv_delim (c : ascii) (st : list W * text) : outcome (list W * text) :=
    let '(vs, line) := st in
    match vs with
    | [] => let '(toks, rest) := fields c line in do vs <- csv_tokens [] toks; Ok (vs, rest)
    | _ => Ok st
    end.
  (** repo: data.cpp:91-137 parse_numeric_csv_content_line. *)
  Definition parse_csv_line (line : text) : outcome (list W) :=
    do st <- csv_delim "," ([], line);
    do st <- csv_delim " " st;
    do st <- csv_delim TAB st;
    let '(vs, rest) := st in
    match stod rest with
    | Ok v => Ok (vs ++ [v])
    | Throw _ => Ok vs
    | UB => UB
    end.

  (** repo: data.cpp:150-152: num_cols ([None] for -1), num_rows, data. *)
  Definition mst : Type := option nat * nat * dmat.
  (** repo: data.cpp:157-189: one content line.  [grow n] is ceil(1.1 * n), computed with doubles. *)
  Definition load_row (grow : nat -> nat) (st : mst) (line : text) : outcome mst :=
    let '(nc, nr, m) := st in
    do vs <- parse_csv_line line;
    let '(c, m) := match nc with
                   | None => (List.length vs, resize_cols (List.length vs) m)
                   | Some c => (c, m)
                   end in
    if negb (Nat.eqb c (List.length vs)) then Throw RuntimeError
    else
      let nr := S nr in
      let m := if Nat.leb nr (drows m) then m else resize_rows (grow nr) m in
      do m <- set_cells (nr - 1) 0 vs m;
      Ok (Some c, nr, m).
  (** repo: data.cpp:156-190: the loop over the lines. *)
  Fixpoint load_rows (grow : nat -> nat) (st : mst) (ls : list text) : outcome mst :=
    match ls with
    | [] => Ok st
    | l :: r => if is_content l then do st <- load_row grow st l; load_rows grow st r else load_rows grow st r
    end.
  (** repo: data.cpp:139-196 load_matrix. *)
  Definition load_matrix (grow : nat -> nat) (f : text) : outcome dmat :=
    do st <- load_rows grow (None, 0, new_dmat 1 1) (read_lines f);
    let '(_, nr, m) := st in Ok (resize_rows nr m).

  (** repo: data.cpp:61-80 save_matrix: each entry is followed by a space. *)
  Definition save_matrix (rows : list (list W)) : text :=
    put_lines (map (fun r => concat (map (fun x => fmt x ++ [" "]) r)) rows).
End Data.

(** ** Data points *)
Section DataPoints.
  Context {W : Type}.
  (** Memory: addresses to doubles.  repo: data.h:81-89 DataPoint: a dimension and the address of the first
      coordinate. *)
  Definition memory : Type := nat -> W.
  Record datapoint : Type := { dp_dim : nat; dp_coords : nat }.
  (** A row-major dense matrix in memory: repo: definitions.h:51-52; the address of the element (i, j). *)
  Record mat_in_mem : Type := { mm_rows : nat; mm_cols : nat; mm_data : nat }.
  Definition address (m : mat_in_mem) (i j : nat) : nat := mm_data m + i * mm_cols m + j.
  (** [data.coeff(i, j)]. *)
  Definition coeff (h : memory) (m : mat_in_mem) (i j : nat) : W := h (address m i j).
  (** repo: data.cpp:26-29 DataPoint(all_data, row_index). *)
  Definition row_point (m : mat_in_mem) (i : nat) : datapoint :=
    {| dp_dim := mm_cols m; dp_coords := address m i 0 |}.
  (** repo: data.cpp:36-42 to_vector. *)
  Definition to_vector (h : memory) (p : datapoint) : list W :=
    map (fun k => h (dp_coords p + k)) (seq 0 (dp_dim p)).
  (** repo: data.cpp:47-56 matrix_to_datapoints. *)
  Definition matrix_to_datapoints (m : mat_in_mem) : list datapoint :=
    map (fun i => {| dp_dim := mm_cols m; dp_coords := address m i 0 |}) (seq 0 (mm_rows m)).
  (** Writing an element. *)
  Definition store (h : memory) (a : nat) (v : W) : memory := fun b => if Nat.eqb b a then v else h b.
End DataPoints.
