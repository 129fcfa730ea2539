(** The functions which read and write files, as programs acting on a disk (graphio.cpp, random.cpp, data.cpp,
    utility.cpp) one action at a time, so that the states left by exceptions, crashes and concurrent processes are part of the model. *)
From Verif Require Import Base Num Sparse Graph Cluster Text GraphIO RandomGraph Data.
From Coq Require Import Ascii String List.
Import ListNotations.
Local Open Scope nat_scope.
Local Open Scope char_scope.
Local Open Scope list_scope.

(** ** Disks *)
(** File names, and the contents of the existing regular files.  Simplification: two names are the same file only if they
    are equal (no links); directories, permissions and sizes are reduced to [writable] below. *)
Definition name : Type := text.
Definition name_eq_dec (a b : name) : {a = b} + {a <> b} := list_eq_dec ascii_dec a b.
Definition disk : Type := name -> option text.
Definition upd (d : disk) (f : name) (o : option text) : disk := fun g => if name_eq_dec g f then o else d g.
(** [Create]: a std::ofstream is opened (the file is created, or truncated); [Append]: one character reaches the file;
    [Delete]: std::filesystem::remove. *)
Inductive action : Type :=
| Create (f : name)
| Append (f : name) (c : ascii)
| Delete (f : name).
(** Simplification: a character written to a file which has been removed is lost. *)
Definition act (a : action) (d : disk) : disk :=
  match a with
  | Create f => upd d f (Some [])
  | Append f c => match d f with Some t => upd d f (Some (t ++ [c])) | None => d end
  | Delete f => upd d f None
  end.

(** ** Programs *)
(** A program is finished ([None]: a loop of the model ran out of fuel), reads a file (all of it, or learns that it
    does not exist), or acts on the disk.  Simplification: the characters written to a stream reach the file one by one and in
    order, at the latest when the stream is closed (process crashes; the loss of data the operating system holds is not modelled). *)
Inductive io (A : Type) : Type :=
| Done (r : option (outcome A))
| Read (f : name) (k : option text -> io A)
| Act (a : action) (k : io A).
Arguments Done {A} r.
Arguments Read {A} f k.
Arguments Act {A} a k.

Fixpoint ibind {A B} (p : io A) (q : A -> io B) : io B :=
  match p with
  | Done (Some (Ok a)) => q a
  | Done (Some (Throw e)) => Done (Some (Throw e))
  | Done (Some UB) => Done (Some UB)
  | Done None => Done None
  | Read f k => Read f (fun o => ibind (k o) q)
  | Act a k => Act a (ibind k q)
  end.
Definition iret {A} (a : A) : io A := Done (Some (Ok a)).
Definition ithrow {A} (e : exn) : io A := Done (Some (Throw e)).

(** Execution alone. *)
Fixpoint exec {A} (p : io A) (d : disk) : disk * option (outcome A) :=
  match p with
  | Done r => (d, r)
  | Read f k => exec (k (d f)) d
  | Act a k => exec k (act a d)
  end.
(** The disks a crash can leave: after any number of the actions. *)
Inductive crashes {A} : io A -> disk -> disk -> Prop :=
| crash_here p d : crashes p d d
| crash_read f k d d' : crashes (k (d f)) d d' -> crashes (Read f k) d d'
| crash_act a k d d' : crashes k (act a d) d' -> crashes (Act a k) d d'.
(** One step of a program; two programs running at the same time, in any interleaving. *)
Inductive istep {A} : io A -> disk -> io A -> disk -> Prop :=
| step_read f k d : istep (Read f k) d (k (d f)) d
| step_act a k d : istep (Act a k) d k (act a d).
Inductive together {A B} : io A -> io B -> disk -> io A -> io B -> disk -> Prop :=
| tg_refl p q d : together p q d p q d
| tg_left p q d p1 d1 p2 q2 d2 : istep p d p1 d1 -> together p1 q d1 p2 q2 d2 -> together p q d p2 q2 d2
| tg_right p q d q1 d1 p2 q2 d2 : istep q d q1 d1 -> together p q1 d1 p2 q2 d2 -> together p q d p2 q2 d2.

(** Writing a text. *)
Definition write {A} (f : name) (t : text) (k : io A) : io A := fold_right (fun c p => Act (Append f c) p) k t.
(** A loop over lines which writes and may throw: what has been written, and the outcome.  Each line is parsed before anything is written for it. *)
Fixpoint wloop {L S : Type} (step : S -> L -> outcome (text * S)) (st : S) (ls : list L) : text * outcome S :=
  match ls with
  | [] => ([], Ok st)
  | l :: r =>
    match step st l with
    | Ok (t, st') => let '(t', o) := wloop step st' r in (t ++ t', o)
    | Throw e => ([], Throw e)
    | UB => ([], UB)
    end
  end.
Definition finish {S A} (o : outcome S) (k : io A) : io A :=
  match o with Ok _ => k | Throw e => ithrow e | UB => Done (Some UB) end.

(** ** Temporary files *)
(** repo: utility.cpp:137-151 random_string: [n] characters chosen by std::rand() ([rnd i] is its [i]-th value). *)
Definition charset : text := txt "0123456789ABCDEFGHIJKLMNOPQRSTUVWXYZabcdefghijklmnopqrstuvwxyz".
Definition random_string (rnd : nat -> nat) (start n : nat) : text :=
  map (fun i => nth (rnd i mod List.length charset) charset "0") (seq start n).
(** repo: utility.cpp:153-163 getTempFilename: the [k]-th name.  [dir]: std::filesystem::temp_directory_path() with the separator. *)
Definition temp_name (dir : text) (rnd : nat -> nat) (k : nat) : name :=
  dir ++ txt "stag_temp_file." ++ random_string rnd (20 * k) 20.

Section FileSys.
  Context {W : Type} `{Num W} `{!TextNum W}.
  (** [writable f]: a stream on [f] can be opened for writing. *)
  Context (writable : name -> bool).

  (** repo: std::ofstream os(f); if (!os.is_open()) throw std::runtime_error (graphio.cpp:143-148, 183-186, 554-559,
      random.cpp:338-343, data.cpp:62-68). *)
  Definition open_out {A} (f : name) (k : io A) : io A := if writable f then Act (Create f) k else ithrow RuntimeError.
  (** repo: std::ifstream is(f); if (!is.is_open()) throw std::runtime_error (graphio.cpp:92-97, 177-180, 503-508,
      data.cpp:141-146).  A file which exists can be read. *)
  Definition open_in {A} (f : name) (k : text -> io A) : io A :=
    Read f (fun o => match o with Some t => k t | None => ithrow RuntimeError end).

  (** repo: graphio.cpp:90-139 load_edgelist; graphio.cpp:501-550 load_adjacencylist. *)
  Definition load_edgelist_io (f : name) : io (graph W) := open_in f (fun t => Done (Some (load_edgelist t))).
  Definition load_adjacencylist_io (f : name) : io (graph W) := open_in f (fun t => Done (Some (load_adjacencylist t))).
  (** repo: data.cpp:139-196 load_matrix; data.cpp:61-80 save_matrix. *)
  Definition load_matrix_io (grow : nat -> nat) (f : name) : io (Data.dmat (W := W)) :=
    open_in f (fun t => Done (Some (load_matrix grow t))).
  Definition save_matrix_io (rows : list (list W)) (f : name) : io unit := open_out f (write f (save_matrix rows) (iret tt)).

  (** repo: graphio.cpp:141-169 save_edgelist. *)
  Definition save_edgelist_io (g : graph W) (f : name) : io unit := open_out f (write f (save_edgelist g) (iret tt)).
  (** repo: graphio.cpp:552-584 save_adjacencylist. *)
  Definition save_node_step (g : graph W) (_ : unit) (v : nat) : outcome (text * unit) :=
    do es <- neighbors g (Z.of_nat v);
    Ok (put_line (show_node (Z.of_nat v) (map (fun e => (Z.of_nat (v2 e), ewt e)) es)), tt).
  Definition save_adjacencylist_io (g : graph W) (f : name) : io unit :=
    let '(t, o) := wloop (save_node_step g) tt (seq 0 (number_of_vertices g)) in
    open_out f (write f (put_lines (adj_header g)) (write f t (finish o (iret tt)))).

  (** repo: graphio.cpp:188-207: one line. *)
  Definition copy_step (_ : unit) (l : text) : outcome (text * unit) :=
    if is_content l
    then do e <- rethrow (parse_edge_line (W := W) l);
         let '(u, v, w) := e in Ok (put_lines [show_edge u v w; show_edge v u w], tt)
    else Ok (put_line l, tt).
  (** repo: graphio.cpp:175-213 copy_edgelist_duplicate_edges.  The input is opened first and read after the output has been
      opened (so after it has been truncated, if the two names are the same; a file removed after it was opened can still be read). *)
  Definition copy_edgelist_io (infile outfile : name) : io unit :=
    open_in infile (fun t0 =>
    open_out outfile (
    Read infile (fun o =>
      let '(t, r) := wloop copy_step tt (read_lines (match o with Some t => t | None => t0 end)) in
      write outfile t (finish r (iret tt))))).

  (** repo: std::filesystem::copy(a, b) (graphio.cpp:426): throws if [a] does not exist or [b] exists. *)
  Definition copy_file {A} (a b : name) (k : io A) : io A :=
    open_in a (fun t => Read b (fun o => match o with
                                          | Some _ => ithrow RuntimeError
                                          | None => open_out b (write b t k)
                                          end)).
  (** repo: graphio.cpp:280-428: the passes.  [tmp k]: the [k]-th temporary name.  Simplification: what a pass wrote to the
      temporary file before a line failed to parse is left out; no pass reads a line which does not parse (FileSysFacts.v). *)
  Fixpoint sort_loop_io (fuel : nat) (tmp : nat -> name) (k : nat) (f : name) (num_lines : nat) (ivs : list ivl) : io unit :=
    match ivs with
    | [] => iret tt
    | _ =>
      match fuel with
      | 0 => Done None
      | S fuel =>
        open_out (tmp k) (
        open_in f (fun t =>
          match sort_pass (W := W) num_lines (read_lines t) ivs with
          | Ok (out, nivs) =>
              write (tmp k) (put_lines out) (
              Act (Delete f) (
              copy_file (tmp k) f (
              Act (Delete (tmp k)) (
              sort_loop_io fuel tmp (S k) f num_lines nivs))))
          | Throw e => ithrow e
          | UB => Done (Some UB)
          end))
      end
    end.
  (** repo: graphio.cpp:269-429 sort_edgelist. *)
  Definition sort_edgelist_io (fuel : nat) (tmp : nat -> name) (f : name) : io unit :=
    open_in f (fun t =>
      match lines_and_nodes (W := W) t with
      | Ok (num_lines, max_id) => sort_loop_io fuel tmp 0 f num_lines [mkIvl 0 (num_lines - 1) 0 max_id]
      | Throw e => ithrow e
      | UB => Done (Some UB)
      end).

  (** repo: graphio.cpp:599-623: one line; the state is written_content. *)
  Definition adj_to_el_step (wc : bool) (l : text) : outcome (text * bool) :=
    if is_content l
    then do es <- rethrow (parse_adj_line (W := W) l);
         Ok (put_lines (map (fun '(u, v, w) => show_edge u v w) (filter (fun '(u, v, _) => (u <=? v)%Z) es)), true)
    else Ok (if wc then [] else put_line l, wc).
  (** repo: graphio.cpp:586-629 adjacencylist_to_edgelist.  Both streams are opened before either is checked. *)
  Definition adjacencylist_to_edgelist_io (infile outfile : name) : io unit :=
    Read infile (fun o0 =>
    let body :=
      match o0 with
      | None => ithrow RuntimeError
      | Some t0 =>
        if writable outfile
        then Read infile (fun o =>
               let '(t, r) := wloop adj_to_el_step false (read_lines (match o with Some t => t | None => t0 end)) in
               write outfile t (finish r (iret tt)))
        else ithrow RuntimeError
      end in
    if writable outfile then Act (Create outfile) body else body).

  (** repo: graphio.cpp:650-676: one line of the sorted file; the state is written_content and current_node. *)
  Definition el_to_adj_step (st : bool * Z) (l : text) : outcome (text * (bool * Z)) :=
    let '(wc, cur) := st in
    if is_content l
    then do e <- rethrow (parse_edge_line (W := W) l);
         let '(u, v, w) := e in
         Ok ((if (cur <? u)%Z then LF :: show_Z u ++ [":"] else []) ++ show_nbrs [(v, w)],
             (true, if (cur <? u)%Z then u else cur))
    else Ok (if wc then [] else put_line l, st).
  (** repo: graphio.cpp:631-684 edgelist_to_adjacencylist.  Neither stream is checked: a missing input is read as an empty
      sequence of lines, an output which cannot be opened drops what is written to it. *)
  Definition edgelist_to_adjacencylist_io (fuel : nat) (tmp : nat -> name) (infile outfile : name) : io unit :=
    let t := tmp 0 in
    ibind (copy_edgelist_io infile t) (fun _ =>
    ibind (sort_edgelist_io fuel (fun k => tmp (S k)) t) (fun _ =>
    Read t (fun o0 =>
    let body := Read t (fun o =>
      let ls := match o0, o with None, _ => [] | Some _, Some c => read_lines c | Some c, None => read_lines c end in
      let '(out, r) := wloop el_to_adj_step (false, (-1)%Z) ls in
      let rest := finish r (Act (Delete t) (iret tt)) in
      if writable outfile then write outfile out rest else rest) in
    if writable outfile then Act (Create outfile) body else body))).

  (** repo: random.cpp:333-376 general_sbm_edgelist: the header is written before the parameters are checked. *)
  Section Sbm.
    Context {St : Type} (G : rng W St).
    Definition general_sbm_edgelist_io (fuel : nat) (sizes : list Z) (P : RandomGraph.dmat W) (exact : bool) (s : St) (f : name) : io St :=
      let k := List.length sizes in
      open_out f (
      if (k <=? 20)%nat && ((dm_rows P <? k)%nat || (dm_cols P <? k)%nat) then Done (Some UB)
      else write f (put_lines (sbm_header sizes P)) (
           match general_sbm_internal G fuel (None, Some []) sizes P exact s with
           | Some (Ok (k, s')) => write f (match snd k with Some t => t | None => [] end) (iret s')
           | Some (Throw e) => ithrow e
           | Some UB => Done (Some UB)
           | None => Done None
           end)).
  End Sbm.
End FileSys.
