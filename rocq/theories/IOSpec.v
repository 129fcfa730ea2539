(** Vocabulary for the statements about graph files (no code is modelled here). *)
From Verif Require Import Base Num Sparse Graph GraphSpec Text TextFacts.
From Coq Require Import Ascii String List.
Import ListNotations.
Local Open Scope nat_scope.
Local Open Scope char_scope.
Local Open Scope list_scope.

(** [ts]: the non-empty fields of [line] separated by the character [d]. *)
Definition nonempty (t : text) : bool := match t with [] => false | _ => true end.
Definition split_by (d : ascii) (line : text) (ts : list text) : Prop :=
  exists fs l, line = join_fields d fs l /\ Forall (free_of [d]) fs /\ free_of [d] l /\ ts = filter nonempty (fs ++ [l]).

(** The field separators of an edge list; a line with a comma is comma separated, otherwise one with a space is
    space separated, otherwise it is tab separated: [earlier d] must not occur in it. *)
Definition earlier (d : ascii) : list ascii :=
  if d =? "," then [] else if d =? " " then [","] else [","; " "].
Definition is_delim (d : ascii) : Prop := In d [","; " "; TAB].

Definition comment_or_blank (line : text) : Prop :=
  line = [] \/ exists c r, line = c :: r /\ (c = "#" \/ c = "/").

Section IOSpec.
  Context {W : Type} `{Num W} `{!TextNum W}.

  (** The textual form of a weight reads back as the weight, and is an ordinary non-empty token. *)
  Definition printable (w : W) : Prop :=
    stod (fmt w) = Ok w /\ fmt w <> [] /\ free_of [","; " "; TAB; ":"; LF; CR] (fmt w).

  (** A well-formed edge line: two ids, and maybe a weight (1 if absent). *)
  Inductive edge_text (line : text) (u v : nat) (w : W) : Prop :=
  | et_two d a b : is_delim d -> free_of (earlier d) line -> split_by d line [a; b] ->
      stoi a = Ok (Z.of_nat u) -> stoi b = Ok (Z.of_nat v) -> w = w1 -> edge_text line u v w
  | et_three d a b c : is_delim d -> free_of (earlier d) line -> split_by d line [a; b; c] ->
      stoi a = Ok (Z.of_nat u) -> stoi b = Ok (Z.of_nat v) -> stod c = Ok w -> edge_text line u v w.

  (** The lines of an edge list file and the edges they name, in order. *)
  Inductive edgelist_text : list text -> list (nat * nat * W) -> Prop :=
  | el_nil : edgelist_text [] []
  | el_skip l ls es : comment_or_blank l -> edgelist_text ls es -> edgelist_text (l :: ls) es
  | el_edge l ls u v w es : ~ comment_or_blank l -> edge_text l u v w -> edgelist_text ls es ->
      edgelist_text (l :: ls) ((u, v, w) :: es).

  (** Weights of the edges naming [u] and [v], in either order. *)
  Definition weights_between (es : list (nat * nat * W)) (u v : nat) : list W :=
    map snd (filter (fun '(a, b, _) => ((a =? u)%nat && (b =? v)%nat) || ((a =? v)%nat && (b =? u)%nat)) es).
  (** Sum of a list in order; nothing for the empty list. *)
  Definition total (ws : list W) : W := match ws with [] => w0 | w :: r => fold_left wadd r w end.
  (** Largest id plus one. *)
  Definition vertex_count (es : list (nat * nat * W)) : nat :=
    fold_right (fun '(a, b, _) n => Nat.max (Nat.max (S a) (S b)) n) 0 es.
End IOSpec.

Section AdjSpec.
  Context {W : Type} `{Num W} `{!TextNum W}.
  (** One neighbour of an adjacency list line: an id, or an id and a weight. *)
  Inductive nbr_text (tok : text) (v : nat) (w : W) : Prop :=
  | nt_id : free_of [":"] tok -> stoi tok = Ok (Z.of_nat v) -> w = w1 -> nbr_text tok v w
  | nt_weight a b : tok = a ++ ":" :: b -> free_of [":"] a -> stoi a = Ok (Z.of_nat v) -> stod b = Ok w -> nbr_text tok v w.
  (** A well-formed adjacency list line: an id, a colon, and neighbours separated by spaces. *)
  Definition adj_text (line : text) (u : nat) (nbrs : list (nat * W)) : Prop :=
    exists a rest toks, line = a ++ ":" :: rest /\ free_of [":"] a /\ stoi a = Ok (Z.of_nat u) /\
      split_by " " rest toks /\ Forall2 (fun t n => nbr_text t (fst n) (snd n)) toks nbrs.
  Inductive adjlist_text : list text -> list (nat * list (nat * W)) -> Prop :=
  | al_nil : adjlist_text [] []
  | al_skip l ls ns : comment_or_blank l -> adjlist_text ls ns -> adjlist_text (l :: ls) ns
  | al_node l ls u nb ns : ~ comment_or_blank l -> adj_text l u nb -> adjlist_text ls ns ->
      adjlist_text (l :: ls) ((u, nb) :: ns).
  (** The directed edges named by an adjacency list, line by line. *)
  Definition arcs (ns : list (nat * list (nat * W))) : list (nat * nat * W) :=
    flat_map (fun '(u, nb) => map (fun '(v, w) => (u, v, w)) nb) ns.
  (** Weights given to the neighbour [v] on the lines of [u]. *)
  Definition weights_on_lines (ns : list (nat * list (nat * W))) (u v : nat) : list W :=
    map snd (filter (fun '(a, b, _) => (a =? u)%nat && (b =? v)%nat) (arcs ns)).
End AdjSpec.

Section ConvSpec.
  Context {W : Type} `{Num W} `{!TextNum W}.
  (** [out]: the lines [ls] with each edge line replaced by a line naming the edge and a line naming it reversed. *)
  Inductive both_directions : list text -> list text -> Prop :=
  | bd_nil : both_directions [] []
  | bd_skip l ls out : comment_or_blank l -> both_directions ls out -> both_directions (l :: ls) (l :: out)
  | bd_edge l ls l1 l2 u v (w : W) out : ~ comment_or_blank l -> edge_text l u v w ->
      ~ comment_or_blank l1 -> edge_text l1 u v w -> ~ comment_or_blank l2 -> edge_text l2 v u w ->
      both_directions ls out -> both_directions (l :: ls) (l1 :: l2 :: out).
  (** Both directions of each edge, in order. *)
  Definition reversed_too (es : list (nat * nat * W)) : list (nat * nat * W) :=
    flat_map (fun '(u, v, w) => [(u, v, w); (v, u, w)]) es.
  (** An adjacency list which gives each edge at both its ends, with the same total weight. *)
  Definition undirected (ns : list (nat * list (nat * W))) : Prop :=
    forall u v, total (weights_on_lines ns u v) = total (weights_on_lines ns v u) /\
                (weights_on_lines ns u v = [] -> weights_on_lines ns v u = []).
  Definition no_self_loop_lines (ns : list (nat * list (nat * W))) : Prop := forall u, weights_on_lines ns u u = [].
End ConvSpec.

Section BadSpec.
  Context {W : Type} `{Num W} `{!TextNum W}.
  Definition others (d : ascii) : list ascii := filter (fun c => negb (c =? d)) [","; " "; TAB].
  (** Fields which do not form an edge: too few, not numbers, negative ids, or more than four.  (Numbers outside
      the range of int are excluded: see C41_id_overflow_refuted.) *)
  Definition bad_fields (ts : list text) : Prop :=
    match ts with
    | [] => True
    | [a] => stoi a <> Throw OutOfRange
    | a :: b :: r =>
      stoi a = Throw InvalidArgument \/
      exists u, stoi a = Ok u /\
        (stoi b = Throw InvalidArgument \/
         exists v, stoi b = Ok v /\
           match r with
           | [] => (u < 0 \/ v < 0)%Z
           | [c] => (u < 0 \/ v < 0)%Z /\ exists w : W, stod c = Ok w
           | c :: _ :: rr => stod (W := W) c = Throw InvalidArgument \/
                             (exists w : W, stod c = Ok w) /\ ((u < 0)%Z \/ (v < 0)%Z \/ rr <> [])
           end)
    end.
  (** A malformed line which uses at most one kind of separator. *)
  Inductive malformed_edge (line : text) : Prop :=
  | me_no_separator : free_of [","; " "; TAB] line -> malformed_edge line
  | me_fields d ts : is_delim d -> free_of (others d) line -> split_by d line ts -> bad_fields ts -> malformed_edge line.

  Inductive nbr_ok (tok : text) : Prop :=
  | no_id v : free_of [":"] tok -> stoi tok = Ok v -> nbr_ok tok
  | no_weight a b v (w : W) : tok = a ++ ":" :: b -> free_of [":"] a -> stoi a = Ok v -> stod b = Ok w -> nbr_ok tok.
  Inductive nbr_bad (tok : text) : Prop :=
  | nb_id : free_of [":"] tok -> stoi tok = Throw InvalidArgument -> nbr_bad tok
  | nb_idw a b : tok = a ++ ":" :: b -> free_of [":"] a -> stoi a = Throw InvalidArgument -> nbr_bad tok
  | nb_weight a b v : tok = a ++ ":" :: b -> free_of [":"] a -> stoi a = Ok v -> stod (W := W) b = Throw InvalidArgument -> nbr_bad tok.
  (** An adjacency list line without colon, with a bad id, or with a bad neighbour which is not the last one. *)
  Inductive malformed_adj (line : text) : Prop :=
  | ma_no_colon : free_of [":"] line -> malformed_adj line
  | ma_id a rest : line = a ++ ":" :: rest -> free_of [":"] a -> stoi a = Throw InvalidArgument -> malformed_adj line
  | ma_neighbour a rest u good bad more : line = a ++ ":" :: rest -> free_of [":"] a -> stoi a = Ok u ->
      split_by " " rest (good ++ bad :: more) -> more <> [] -> Forall nbr_ok good -> nbr_bad bad -> malformed_adj line.
End BadSpec.

(** [b] is [a] sorted by [key], elements with the same key staying in order. *)
Definition stably_sorted_by {A} (key : A -> nat) (a b : list A) : Prop :=
  Sorted.StronglySorted (fun x y => key x <= key y) b /\
  forall k, filter (fun x => key x =? k)%nat b = filter (fun x => key x =? k)%nat a.
(** The comment and blank lines before the first edge line. *)
Definition header_of (ls hdr : list text) : Prop :=
  Forall comment_or_blank hdr /\ exists r, ls = hdr ++ r /\ (r = [] \/ exists l r', r = l :: r' /\ ~ comment_or_blank l).
(** The edge lines of a file with the edges they name. *)
Inductive edge_lines_of {W} `{Num W} `{!TextNum W} : list text -> list (text * (nat * nat * W)) -> Prop :=
| elo_nil : edge_lines_of [] []
| elo_skip l ls ps : comment_or_blank l -> edge_lines_of ls ps -> edge_lines_of (l :: ls) ps
| elo_edge l ls u v w ps : ~ comment_or_blank l -> edge_text l u v w -> edge_lines_of ls ps ->
    edge_lines_of (l :: ls) ((l, (u, v, w)) :: ps).
