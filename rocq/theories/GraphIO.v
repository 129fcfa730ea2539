(** Model of stag_lib/graphio.cpp.  A file is its contents (a [text]) and a function writing a file returns the
    new contents.  The operations on the disk (missing files, what is left when a function throws or crashes, temporary files) are modelled
    in FileSys.v on top of these functions. *)
From Verif Require Import Base Num Sparse Graph Cluster Text.
From Coq Require Import Ascii String List.
Import ListNotations.
Local Open Scope nat_scope.
Local Open Scope char_scope.
Local Open Scope list_scope.

Section GraphIO.
  Context {W : Type} `{Num W} `{!TextNum W}.

  (** repo: graph.h struct edge, as read from a file. *)
  Definition zedge : Type := Z * Z * W.

  (** ** Edge lists *)
  (** repo: graphio.cpp:29-32: num_tokens_found, u, v, weight. *)
  Definition elst : Type := nat * Z * Z * W.
  (** repo: graphio.cpp:46-56: one token. *)
  Definition el_token (st : elst) (tok : text) : outcome elst :=
    match tok with
    | [] => Ok st
    | _ =>
      let '(n, u, v, w) := st in
      match n with
      | 0 => do u <- stoi tok; Ok (1, u, v, w)
      | 1 => do v <- stoi tok; Ok (2, u, v, w)
      | 2 => do w <- stod tok; Ok (3, u, v, w)
      | _ => Ok (S n, u, v, w)
      end
    end.
  (** All tokens of a line, as above. *)
  Fixpoint el_tokens (st : elst) (toks : list text) : outcome elst :=
    match toks with
    | [] => Ok st
    | t :: r => do st <- el_token st t; el_tokens st r
    end.
  (** repo: graphio.cpp:37-59: one delimiter. *)
  Definition el_delim (c : ascii) (sl : elst * text) : outcome (elst * text) :=
    let '((n, u, v, w), line) := sl in
    if Nat.eqb n 0
    then let '(toks, rest) := fields c line in do st <- el_tokens (n, u, v, w) toks; Ok (st, rest)
    else Ok sl.
  (** repo: graphio.cpp:22-88 parse_edgelist_content_line. *)
  Definition parse_edge_line (line : text) : outcome zedge :=
    do sl <- el_delim "," ((0, (-1)%Z, (-1)%Z, w1), line);
    do sl <- el_delim " " sl;
    do sl <- el_delim TAB sl;
    let '((n, u, v, w), line) := sl in
    do st <- match n with
             | 1 => do v <- stoi line; Ok (2, u, v, w)
             | 2 => match stod line with
                    | Ok w' => Ok (3, u, v, w')
                    | Throw _ => Ok (n, u, v, w)
                    | UB => UB
                    end
             | _ => Ok (n, u, v, w)
             end;
    let '(n, u, v, w) := st in
    if (Nat.ltb n 2 || Nat.ltb 3 n)%bool then Throw InvalidArgument
    else if ((u <? 0) || (v <? 0))%Z then Throw InvalidArgument
    else Ok (u, v, w).

  (** repo: [line[0] != '#' && line[0] != '/' && line.length() > 0]. *)
  Definition is_content (line : text) : bool :=
    match line with [] => false | c :: _ => negb (c =? "#") && negb (c =? "/") end.
  (** repo: the [catch (std::invalid_argument &e)] blocks which rethrow std::runtime_error. *)
  Definition rethrow {A} (o : outcome A) : outcome A :=
    match o with Throw InvalidArgument => Throw RuntimeError | o => o end.

  (** The edges of the content lines, in order. *)
  Fixpoint edge_lines (ls : list text) : outcome (list zedge) :=
    match ls with
    | [] => Ok []
    | l :: r => if is_content l
                then do e <- rethrow (parse_edge_line l); do es <- edge_lines r; Ok (e :: es)
                else edge_lines r
    end.
  (** repo: graphio.cpp:104, 121-122 (and 230, 244-245): largest id plus one. *)
  Definition ids_bound (es : list zedge) : Z :=
    fold_left (fun n '(u, v, _) => Z.max (Z.max n (u + 1)) (v + 1)) es 0%Z.
  Definition el_triplets (es : list zedge) : list (triplet W) :=
    flat_map (fun '(u, v, w) => [(Z.to_nat u, Z.to_nat v, w); (Z.to_nat v, Z.to_nat u, w)]) es.
  (** repo: graphio.cpp:90-139 load_edgelist (the ids are non-negative, see parse_edge_line). *)
  Definition load_edgelist (file : text) : outcome (graph W) :=
    do es <- edge_lines (read_lines file);
    from_triplets_graph (Z.to_nat (ids_bound es)) (el_triplets es).

  Definition header1 : text := txt "# This file was automatically generated by the STAG library.".
  Definition header2 (g : graph W) : text := txt "#   number of vertices = " ++ show_nat (number_of_vertices g).
  Definition header3 (g : graph W) : text := txt "#   number of edges = " ++ show_nat (number_of_edges g).
  (** repo: graphio.cpp:162, 198: [os << u << " " << v << " " << weight]. *)
  Definition show_edge (u v : Z) (w : W) : text := show_Z u ++ [" "] ++ show_Z v ++ [" "] ++ fmt w.
  (** repo: graphio.cpp:155-165: stored entries above the diagonal, column by column. *)
  Definition upper_entries (A : sprs W) : list (nat * nat * W) :=
    flat_map (fun k => map (fun e => (fst e, k, snd e)) (filter (fun e => Nat.ltb (fst e) k) (sp_col A k)))
             (seq 0 (sp_ncols A)).
  (** repo: graphio.cpp:141-169 save_edgelist. *)
  Definition save_edgelist (g : graph W) : text :=
    put_lines ([header1; header2 g; header3 g] ++
               map (fun '(i, j, w) => show_edge (Z.of_nat i) (Z.of_nat j) w) (upper_entries (g_adj g))).

  (** repo: graphio.cpp:175-213 copy_edgelist_duplicate_edges. *)
  Fixpoint copy_dup_lines (ls : list text) : outcome (list text) :=
    match ls with
    | [] => Ok []
    | l :: r =>
      if is_content l
      then do e <- rethrow (parse_edge_line l);
           let '(u, v, w) := e in
           do ls <- copy_dup_lines r; Ok (show_edge u v w :: show_edge v u w :: ls)
      else do ls <- copy_dup_lines r; Ok (l :: ls)
    end.
  Definition copy_edgelist_duplicate_edges (file : text) : outcome text :=
    do ls <- copy_dup_lines (read_lines file); Ok (put_lines ls).

  (** repo: graphio.cpp:221-256 get_edgelist_lines_and_nodes. *)
  Definition lines_and_nodes (file : text) : outcome (nat * Z) :=
    let ls := read_lines file in
    do es <- edge_lines ls; Ok (length ls, ids_bound es).

  (** repo: graphio.cpp:262-267 EdgelistSortInterval. *)
  Record ivl : Type := mkIvl { i_start : nat; i_end : nat; i_min : Z; i_max : Z }.
  (** repo: graphio.cpp:325-353 and 373-395, the scans of one interval.  [left]: first scan
      (keep [2 * v1 < double_pivot] and header comments) or second ([>=], no comments).
      Result: lines written, in order, written_content, min and max. *)
  Fixpoint sort_scan (left : bool) (dp : Z) (ls : list text) (wc : bool) (mn mx : Z)
    : outcome (list text * bool * Z * Z) :=
    match ls with
    | [] => Ok ([], wc, mn, mx)
    | l :: r =>
      if is_content l then
        do e <- rethrow (parse_edge_line l);
        let '(u, _, _) := e in
        let wc := if left then true else wc in
        if (if left then (2 * u <? dp)%Z else (dp <=? 2 * u)%Z)
        then do x <- sort_scan left dp r wc (if (u <? mn)%Z then u else mn) (if (mx <? u)%Z then u else mx);
             let '(out, wc, mn, mx) := x in Ok (l :: out, wc, mn, mx)
        else sort_scan left dp r wc mn mx
      else if left && negb wc
           then do x <- sort_scan left dp r wc mn mx;
                let '(out, wc, mn, mx) := x in Ok (l :: out, wc, mn, mx)
           else sort_scan left dp r wc mn mx
    end.
  (** Lines [a, b) of the file; past the end safeGetline gives an empty line. *)
  Definition line_range (L : list text) (a b : nat) : list text :=
    map (fun i => nth i L []) (seq a (b - a)).
  (** repo: graphio.cpp:356-363 and 398-405. *)
  Definition new_ivl (s e : nat) (mn mx : Z) : list ivl :=
    if (Nat.ltb 1 (e - s) && (mn <? mx)%Z)%bool then [mkIvl s e mn mx] else [].
  (** repo: graphio.cpp:304-406: the loop over the intervals.  State: current_input_line, the output
      lines, written_content, new_intervals.  Simplification: reading is by line number; the stream positions
      saved by tellg and restored by seekg are those of line [i_start]. *)
  Fixpoint sort_ivls (L : list text) (ivs : list ivl) (cur : nat) (out : list text) (wc : bool) (nivs : list ivl)
    : outcome (nat * list text * list ivl) :=
    match ivs with
    | [] => Ok (cur, out, nivs)
    | iv :: r =>
      let dp := (i_min iv + i_max iv)%Z in
      let out := out ++ line_range L cur (i_start iv) in
      let cur := Nat.max cur (i_start iv) in
      let ls := line_range L cur (i_end iv) in
      do x <- sort_scan true dp ls wc (i_max iv) (i_min iv);
      let '(o1, wc, mn1, mx1) := x in
      do y <- sort_scan false dp (line_range L (i_start iv) (i_end iv)) wc (i_max iv) (i_min iv);
      let '(o2, wc, mn2, mx2) := y in
      let s1 := length out in
      let s2 := s1 + length o1 in
      let s3 := s2 + length o2 in
      sort_ivls L r (Nat.max (i_start iv) (i_end iv)) (out ++ o1 ++ o2) wc
                (nivs ++ new_ivl s1 s2 mn1 mx1 ++ new_ivl s2 s3 mn2 mx2)
    end.
  (** repo: graphio.cpp:280-428: one iteration of the while loop, on the lines of the file. *)
  Definition sort_pass (num_lines : nat) (L : list text) (ivs : list ivl) : outcome (list text * list ivl) :=
    do x <- sort_ivls L ivs 0 [] false [];
    let '(cur, out, nivs) := x in
    Ok (out ++ line_range L cur (num_lines - 1), nivs).
  Fixpoint sort_loop (fuel : nat) (num_lines : nat) (file : text) (ivs : list ivl) : option (outcome text) :=
    match ivs with
    | [] => Some (Ok file)
    | _ =>
      match fuel with
      | 0 => None
      | S f => match sort_pass num_lines (read_lines file) ivs with
               | Ok (out, nivs) => sort_loop f num_lines (put_lines out) nivs
               | Throw e => Some (Throw e)
               | UB => Some UB
               end
      end
    end.
  (** repo: graphio.cpp:269-429 sort_edgelist: the new contents of the file. *)
  Definition sort_edgelist (fuel : nat) (file : text) : option (outcome text) :=
    match lines_and_nodes file with
    | Ok (num_lines, max_id) => sort_loop fuel num_lines file [mkIvl 0 (num_lines - 1) 0 max_id]
    | Throw e => Some (Throw e)
    | UB => Some UB
    end.

  (** ** Adjacency lists *)
  (** repo: graphio.cpp:435-454 parse_adjacencylist_edge. *)
  Definition parse_adj_edge (tok : text) (src : Z) : outcome zedge :=
    match split1 ":" tok with
    | None => do v <- stoi tok; Ok (src, v, w1)
    | Some (a, b) => do v <- stoi a; do w <- stod b; Ok (src, v, w)
    end.
  Fixpoint parse_adj_edges (toks : list text) (src : Z) : outcome (list zedge) :=
    match toks with
    | [] => Ok []
    | t :: r => match t with
                | [] => parse_adj_edges r src
                | _ => do e <- parse_adj_edge t src; do es <- parse_adj_edges r src; Ok (e :: es)
                end
    end.
  (** repo: graphio.cpp:459-461 cmp_neighbors. *)
  Definition cmp_neighbors (a b : zedge) : bool := (snd (fst a) <? snd (fst b))%Z.
  (** repo: graphio.cpp:464-499 parse_adjacencylist_content_line. *)
  Definition parse_adj_line (line : text) : outcome (list zedge) :=
    match split1 ":" line with
    | None => Throw InvalidArgument
    | Some (a, rest) =>
      do src <- stoi a;
      let '(toks, last) := fields " " rest in
      do es <- parse_adj_edges toks src;
      match parse_adj_edge last src with
      | Ok e => Ok (stable_sort cmp_neighbors (es ++ [e]))
      | Throw _ => Ok (stable_sort cmp_neighbors es)
      | UB => UB
      end
    end.
  (** All lines of the file, as above. *)
  Fixpoint adj_lines (ls : list text) : outcome (list (list zedge)) :=
    match ls with
    | [] => Ok []
    | l :: r => if is_content l
                then do e <- rethrow (parse_adj_line l); do es <- adj_lines r; Ok (e :: es)
                else adj_lines r
    end.
  (** repo: graphio.cpp:501-550 load_adjacencylist.  A negative id is an out-of-bounds index in setFromTriplets. *)
  Definition load_adjacencylist (file : text) : outcome (graph W) :=
    do ess <- adj_lines (read_lines file);
    let es := concat ess in
    if forallb (fun '(u, v, _) => (0 <=? u) && (0 <=? v))%Z es
    then from_triplets_graph (Z.to_nat (ids_bound es)) (map (fun '(u, v, w) => (Z.to_nat u, Z.to_nat v, w)) es)
    else UB.
  (** repo: graphio.cpp:575-577: " v2:weight" for each neighbour. *)
  Definition show_nbrs (es : list (Z * W)) : text :=
    concat (map (fun '(v, w) => " " :: show_Z v ++ ":" :: fmt w) es).
  Definition show_node (v : Z) (es : list (Z * W)) : text := show_Z v ++ ":" :: show_nbrs es.
  Definition adj_header (g : graph W) : list text :=
    [header1; header2 g; header3 g; txt "#";
     txt "# This file is formatted as a STAG adjacency list. For more information,";
     txt "# see the STAG documentation."; txt "#"].
  (** repo: graphio.cpp:572-580. *)
  Fixpoint save_nodes (g : graph W) (vs : list nat) : outcome (list text) :=
    match vs with
    | [] => Ok []
    | v :: r => do es <- neighbors g (Z.of_nat v);
                do ls <- save_nodes g r;
                Ok (show_node (Z.of_nat v) (map (fun e => (Z.of_nat (v2 e), ewt e)) es) :: ls)
    end.
  (** repo: graphio.cpp:552-584 save_adjacencylist. *)
  Definition save_adjacencylist (g : graph W) : outcome text :=
    do ls <- save_nodes g (seq 0 (number_of_vertices g)); Ok (put_lines (adj_header g ++ ls)).

  (** repo: graphio.cpp:586-629 adjacencylist_to_edgelist.  [wc] = written_content. *)
  Fixpoint adj_to_el (ls : list text) (wc : bool) : outcome (list text) :=
    match ls with
    | [] => Ok []
    | l :: r =>
      if is_content l
      then do es <- rethrow (parse_adj_line l);
           do rest <- adj_to_el r true;
           Ok (map (fun '(u, v, w) => show_edge u v w) (filter (fun '(u, v, _) => (u <=? v)%Z) es) ++ rest)
      else if wc then adj_to_el r wc
           else do rest <- adj_to_el r wc; Ok (l :: rest)
    end.
  Definition adjacencylist_to_edgelist (file : text) : outcome text :=
    do ls <- adj_to_el (read_lines file) false; Ok (put_lines ls).

  (** repo: graphio.cpp:646-676: characters written for the sorted edge list. *)
  Fixpoint el_to_adj (ls : list text) (wc : bool) (cur : Z) : outcome text :=
    match ls with
    | [] => Ok []
    | l :: r =>
      if is_content l
      then do e <- rethrow (parse_edge_line l);
           let '(u, v, w) := e in
           do rest <- el_to_adj r true (if (cur <? u)%Z then u else cur);
           Ok ((if (cur <? u)%Z then LF :: show_Z u ++ [":"] else []) ++ show_nbrs [(v, w)] ++ rest)
      else if wc then el_to_adj r wc cur
           else do rest <- el_to_adj r wc cur; Ok (put_line l ++ rest)
    end.
  (** repo: graphio.cpp:631-684 edgelist_to_adjacencylist. *)
  Definition edgelist_to_adjacencylist (fuel : nat) (file : text) : option (outcome text) :=
    match copy_edgelist_duplicate_edges file with
    | Ok tmp => match sort_edgelist fuel tmp with
                | Some (Ok sorted) => Some (el_to_adj (read_lines sorted) false (-1)%Z)
                | Some (Throw e) => Some (Throw e)
                | Some UB => Some UB
                | None => None
                end
    | Throw e => Some (Throw e)
    | UB => Some UB
    end.
End GraphIO.
Arguments zedge W : clear implicits.
