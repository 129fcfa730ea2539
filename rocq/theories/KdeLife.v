(** Who owns the data behind an estimator: the objects of kde.h and lsh.h with the pointers they hold, in a heap that the user's program allocates, overwrites
    and frees.

    A DataPoint is a pointer to the first coordinate of a row (data.h:31-89); in Kde.v it is replaced by the coordinates, here it is a block of the heap and a row number.
    A block is the storage of one DenseMat: the list of its rows.  Blocks are never given out twice, so that an access to freed memory is visible (it is undefined
    behaviour in any case).  Elements are written a row at a time. *)
From Verif Require Import Base Num Cluster ThreadPool ThreadPoolTop Kde.
From Coq Require Import ZArith Permutation.
Local Open Scope nat_scope.

Section Life.
  Context {W : Type} `{Num W} `{KNum W}.
  Notation point := (@point W).

  (** ** Memory *)
  Definition heap := nat -> option (list point).
  (** a DataPoint, data.h:81-89: block and row *)
  Definition dptr : Type := nat * nat.
  Definition hset (h : heap) (b : nat) (v : option (list point)) : heap := fun x => if x =? b then v else h x.
  Definition free_all (h : heap) (bs : list nat) : heap := fold_left (fun h b => hset h b None) bs h.

  (** Reading the coordinates behind a DataPoint: undefined if the storage was freed, or behind its end. kde.cpp:56-59, 77-82 *)
  Definition load (h : heap) (p : dptr) : outcome point :=
    match h (fst p) with
    | Some rows => match nth_error rows (snd p) with Some r => Ok r | None => UB end
    | None => UB
    end.
  Fixpoint load_all (h : heap) (ps : list dptr) : outcome (list point) :=
    match ps with [] => Ok [] | p :: ps' => do x <- load h p; do xs <- load_all h ps'; Ok (x :: xs) end.

  (** ** Objects *)
  (** class E2LSH, lsh.h:167-247: the points are pointers (member [points], lsh.h:238), the tables hold row numbers computed when it was built *)
  Record plsh := mkPL { pl_L : nat; pl_hash : list (point -> Z); pl_tables : list (list (Z * list nat)); pl_points : list dptr }.
  (** E2LSH's constructor, lsh.cpp:139-170: the coordinates are read to compute the hash values *)
  Definition plsh_new (h : heap) (hs : list (point -> Z)) (ps : list dptr) : outcome plsh :=
    do pts <- load_all h ps; Ok (mkPL (length hs) hs (e_tables (e2lsh_new hs pts)) ps).
  (** get_near_neighbors, lsh.cpp:188-207: copies of the DataPoints, the data is not read; points[i] behind the end is undefined, and
      so is lshFunctions[l] (its length is pl_L = parameterL unless the object was moved from) *)
  Fixpoint pick (ps : list dptr) (is : list nat) : outcome (list dptr) :=
    match is with [] => Ok [] | i :: is' => match nth_error ps i with Some p => do r <- pick ps is'; Ok (p :: r) | None => UB end end.
  Definition plsh_near (e : plsh) (q : point) : outcome (list dptr) :=
    if length (pl_hash e) <? pl_L e then UB else pick (pl_points e) (near_indices (mkE2 (pl_hash e) (pl_tables e) []) q).

  (** class CKNSGaussianKDEHashUnit, kde.h:102-123 *)
  Record punit := mkPU { pu_n : Z; pu_a : W; pu_log_nmu : Z; pu_j : Z; pu_J : Z; pu_offset : Z;
    pu_final : bool; pu_below : bool; pu_all : list dptr; pu_lsh : option plsh }.
  (** Constructor, kde.cpp:169-230: [data] points to the matrix stored in block [b], that has [rows] rows. See [hunit_new]. *)
  Definition punit_new (h : heap) (a : W) (b rows : nat) (log_nmu j offset : Z) (hs : list (point -> Z)) : outcome punit :=
    let n := Z.of_nat rows in
    let p := ckns_p_sampling j log_nmu n offset in
    let ps := map (fun i => (b, i)) (seq (Z.to_nat (starting_idx p n)) (Z.to_nat (num_sampled p n))) in
    if (j =? 0)%Z then Ok (mkPU n a log_nmu j (ckns_J n log_nmu) offset true false ps None)
    else if (Z.of_nat (length ps) <=? hash_unit_cutoff)%Z then Ok (mkPU n a log_nmu j (ckns_J n log_nmu) offset false true ps None)
    else do e <- plsh_new h hs ps; Ok (mkPU n a log_nmu j (ckns_J n log_nmu) offset false false [] (Some e)).
  (** query and query_neighbors, kde.cpp:232-278: the coordinates are read now *)
  Definition punit_query (h : heap) (u : punit) (q : point) : outcome W :=
    do ps <- (if pu_below u || pu_final u then Ok (pu_all u) else match pu_lsh u with Some e => plsh_near e q | None => Ok [] end);
    do pts <- load_all h ps;
    Ok (query_neighbors (mkUnit (pu_n u) (pu_a u) (pu_log_nmu u) (pu_j u) (pu_J u) (pu_offset u) (pu_final u) (pu_below u) [] None) q pts).

  (** class CKNSGaussianKDE, kde.h:278-289: hash_units and the counters; data_copies is [owned] below *)
  Record pckns := mkPC { pc_n : Z; pc_max : Z; pc_iters : nat; pc_k1 : nat; pc_units : list (list (list punit)) }.

  (** an estimator object of the user's program *)
  Inductive obj : Type :=
  | OExact (a : W) (all_data : list dptr)          (* ExactGaussianKDE, kde.h:302-389 *)
  | OLsh (e : plsh)                                (* E2LSH *)
  | OCkns (owned : list nat) (k : pckns).          (* CKNSGaussianKDE: the blocks of data_copies, and the rest *)

  Definition pc_unit_query (h : heap) (k : pckns) (lni iter j : nat) (q : point) : outcome W :=
    match nth_error (pc_units k) lni with
    | Some row => match nth_error row iter with
                  | Some cell => match nth_error cell j with Some u => punit_query h u q | None => UB end
                  | None => UB
                  end
    | None => UB
    end.
  Definition pc_log_nmu (k : pckns) (lni : nat) : Z := (pc_max k - Z.of_nat lni * 2)%Z.
  (** kde.cpp:602-609 *)
  Definition pc_estimate (h : heap) (k : pckns) (q : point) (lni iter : nat) : outcome W :=
    fold_left (fun s j => do s <- s; do v <- pc_unit_query h k lni iter j q; Ok (wadd s v))
      (seq 0 (Z.to_nat (ckns_J (pc_n k) (pc_log_nmu k lni) + 1))) (Ok w0).
  (** CKNSGaussianKDE::query(point), kde.cpp:588-624 *)
  Fixpoint pc_query_loop (h : heap) (k : pckns) (q : point) (lnis : list nat) (last : W) : outcome W :=
    match lnis with
    | [] => Ok (wdiv last (wofZ (pc_n k)))
    | lni :: rest =>
        do es <- sequence (map (pc_estimate h k q lni) (seq 0 (pc_k1 k)));
        do mu <- median es;
        if wleb (wmul w13 (wofZ (pc_log_nmu k lni))) (wlog mu) then Ok (wdiv mu (wofZ (pc_n k))) else pc_query_loop h k q rest mu
    end.
  Definition pc_query (h : heap) (k : pckns) (q : point) : outcome W := pc_query_loop h k q (seq 0 (pc_iters k)) w0.

  (** CKNSGaussianKDE::initialize, kde.cpp:285-380: the data copies are in the blocks [bs], of [rows] rows each. See [ckns_init]. *)
  Definition gpush {U} (lni iter : nat) (u : U) (grid : list (list (list U))) : list (list (list U)) :=
    upd_nth grid lni (fun row => upd_nth row iter (fun cell => cell ++ [u])).
  Definition pinit_body (units : nat -> nat -> nat -> punit) (tasks : list (nat * nat * nat)) (t : nat)
    : list (list (list (list punit)) -> list (list (list punit))) :=
    match nth_error tasks t with Some (iter, lni, j) => [gpush lni iter (units iter lni j)] | None => [] end.
  Definition pckns_init (T : nat) (h : heap) (a min_mu : W) (bs : list nat) (rows : nat) (offset : Z) (hs : nat -> nat -> nat -> list (point -> Z)) (k : pckns) : Prop :=
    let n := Z.of_nat rows in
    let mx := max_log_nmu_of n in
    let its := iterations_of n min_mu in
    let k1 := length bs in
    let tasks := init_tasks n mx its k1 in
    exists units s,
      (forall iter lni j, In (iter, lni, j) tasks ->
        punit_new h a (nth iter bs 0) rows (mx - Z.of_nat lni * 2) (Z.of_nat j) offset (hs iter lni j) = Ok (units iter lni j)) /\
      reach (pinit_body units tasks) T false (par_prog (length tasks)) (repeat (repeat [] k1) its) s /\
      m s = MEnd /\ k = mkPC n mx its k1 (sh s).

  (** ** The user's program *)
  Record state := mkS {
    mem : heap;
    fresh : nat;                       (* blocks from this number on were never allocated *)
    mats : nat -> option nat;          (* the program's matrices: variable -> block *)
    objs : nat -> option obj }.        (* the program's estimators *)
  Definition start : state := mkS (fun _ => None) 0 (fun _ => None) (fun _ => None).

  (** rows min_idx .. max_idx - 1 *)
  Definition slice {A} (l : list A) (lo hi : nat) : list A := firstn (hi - lo) (skipn lo l).

  Inductive op : Type :=
  | MatNew (v : nat) (rows : list point)               (* DenseMat v = rows *)
  | MatWrite (v i : nat) (x : point)                   (* v.row(i) = x *)
  | MatResize (v : nat) (rows : list point)            (* v = a matrix of another size *)
  | MatDestroy (v : nat)                               (* end of the life of v *)
  | NewExact (o v : nat) (a : W) (lo hi : nat)         (* ExactGaussianKDE o(&v, a[, lo, hi]) *)
  | NewLsh (o v : nat) (hs : list (point -> Z))        (* E2LSH o(K, L, matrix_to_datapoints(&v)) *)
  | NewCkns (o v T : nat) (a min_mu : W) (offset : Z) (lo hi : nat) (copies : list (list point)) (hs : nat -> nat -> nat -> list (point -> Z))
                                                       (* CKNSGaussianKDE o(&v, a, min_mu, K1, K2, offset, lo, hi) *)
  | Copy (o o' : nat)                                  (* auto o' = o *)
  | Move (o o' : nat)                                  (* o' = std::move(o) *)
  | Destroy (o : nat).                                 (* end of the life of o *)

  Definition fset {A} (f : nat -> option A) (i : nat) (v : option A) : nat -> option A := fun x => if x =? i then v else f x.
  (** the storage freed by the destructor of an object: kde.h:279, DataPoints do not own anything (data.h:42-45) *)
  Definition owned_by (x : option obj) : list nat := match x with Some (OCkns ow _) => ow | _ => [] end.
  (** An object after its members were moved from: the vectors are empty, the counters keep their values. kde.h:278-289 (implicit move operations) *)
  Definition moved_from (x : obj) : obj :=
    match x with
    | OExact a _ => OExact a []
    | OLsh e => OLsh (mkPL (pl_L e) [] [] [])
    | OCkns _ k => OCkns [] (mkPC (pc_n k) (pc_max k) (pc_iters k) (pc_k1 k) [])
    end.
  (** storage for the matrices [ms], in new blocks *)
  Fixpoint alloc (h : heap) (next : nat) (ms : list (list point)) : heap :=
    match ms with [] => h | m :: ms' => alloc (hset h next (Some m)) (S next) ms' end.

  Inductive step : state -> op -> state -> Prop :=
  | s_new s v rows : mats s v = None ->
      step s (MatNew v rows) (mkS (hset (mem s) (fresh s) (Some rows)) (S (fresh s)) (fset (mats s) v (Some (fresh s))) (objs s))
  | s_write s v b rows i x : mats s v = Some b -> mem s b = Some rows -> i < length rows ->
      step s (MatWrite v i x) (mkS (hset (mem s) b (Some (upd_nth rows i (fun _ => x)))) (fresh s) (mats s) (objs s))
  | s_resize s v b rows : mats s v = Some b ->
      step s (MatResize v rows) (mkS (hset (hset (mem s) b None) (fresh s) (Some rows)) (S (fresh s)) (fset (mats s) v (Some (fresh s))) (objs s))
  | s_destroy_mat s v b : mats s v = Some b ->
      step s (MatDestroy v) (mkS (hset (mem s) b None) (fresh s) (fset (mats s) v None) (objs s))
  (** kde.cpp:639-655: pointers into the caller's matrix *)
  | s_exact s o v b rows a lo hi : objs s o = None -> mats s v = Some b -> mem s b = Some rows -> lo <= hi <= length rows ->
      step s (NewExact o v a lo hi) (mkS (mem s) (fresh s) (mats s) (fset (objs s) o (Some (OExact a (map (fun i => (b, i)) (seq lo (hi - lo)))))))
  (** lsh.cpp:139-170 on matrix_to_datapoints(data), data.cpp:47-56 *)
  | s_lsh s o v b rows hs e : objs s o = None -> mats s v = Some b -> mem s b = Some rows ->
      plsh_new (mem s) hs (map (fun i => (b, i)) (seq 0 (length rows))) = Ok e ->
      step s (NewLsh o v hs) (mkS (mem s) (fresh s) (mats s) (fset (objs s) o (Some (OLsh e))))
  (** kde.cpp:326-334: the copies are permutations of the rows, in new matrices; then the units are built from these *)
  | s_ckns s o v b rows T a min_mu offset lo hi copies hs k : objs s o = None -> mats s v = Some b -> mem s b = Some rows -> lo < hi <= length rows ->
      Forall (Permutation (slice rows lo hi)) copies ->
      pckns_init T (alloc (mem s) (fresh s) copies) a min_mu (seq (fresh s) (length copies)) (hi - lo) offset hs k ->
      step s (NewCkns o v T a min_mu offset lo hi copies hs)
        (mkS (alloc (mem s) (fresh s) copies) (fresh s + length copies) (mats s) (fset (objs s) o (Some (OCkns (seq (fresh s) (length copies)) k))))
  (** implicit copy constructors: all members are copied, so the matrices get new storage and the DataPoints the same pointers. kde.h:143-290, 302-389, data.h:31-89 *)
  | s_copy s o o' x ms : objs s o = Some x -> objs s o' = None -> map (mem s) (owned_by (Some x)) = map Some ms ->
      step s (Copy o o') (mkS (alloc (mem s) (fresh s) ms) (fresh s + length ms) (mats s)
        (fset (objs s) o' (Some match x with OCkns _ k => OCkns (seq (fresh s) (length ms)) k | _ => x end)))
  (** implicit move constructor or assignment: the buffers of the vectors change hands, those of an object o' that existed are freed. kde.h:143-290 *)
  | s_move s o o' x : o <> o' -> objs s o = Some x ->
      step s (Move o o') (mkS (free_all (mem s) (owned_by (objs s o'))) (fresh s) (mats s) (fset (fset (objs s) o (Some (moved_from x))) o' (Some x)))
  | s_destroy s o x : objs s o = Some x ->
      step s (Destroy o) (mkS (free_all (mem s) (owned_by (Some x))) (fresh s) (mats s) (fset (objs s) o None)).

  Inductive steps : state -> list op -> state -> Prop :=
  | steps_nil s : steps s [] s
  | steps_cons s o s' l s'' : step s o s' -> steps s' l s'' -> steps s (o :: l) s''.

  (** ** What the program observes *)
  (** o.query(q) for a point q with the given coordinates; kde.cpp:588-624, 657-659. No object of that name, or of another class: not a program ([UB]). *)
  Definition query (s : state) (o : nat) (q : point) : outcome W :=
    match objs s o with
    | Some (OExact a ps) => do pts <- load_all (mem s) ps; Ok (gaussian_kde_exact a pts q)
    | Some (OCkns _ k) => pc_query (mem s) k q
    | _ => UB
    end.
  (** o.get_near_neighbors(q), and the coordinates of the returned points if the program reads them *)
  Definition near (s : state) (o : nat) (q : point) : outcome (list dptr) :=
    match objs s o with Some (OLsh e) => plsh_near e q | _ => UB end.
  (** the current contents of a matrix *)
  Definition contents (s : state) (v : nat) : option (list point) := match mats s v with Some b => mem s b | None => None end.

  (** ** Reading a history *)
  (** The object that holds the estimator once called [o]: the target of the last move; [None] once it was destroyed or overwritten. *)
  Definition holder1 (c : option nat) (e : op) : option nat :=
    match c with
    | None => None
    | Some o => match e with
                | Move x y => if x =? o then Some y else if y =? o then None else Some o
                | Destroy x => if x =? o then None else Some o
                | _ => Some o
                end
    end.
  Definition holder (hist : list op) (o : nat) : option nat := fold_left holder1 hist (Some o).
  (** The objects that hold it or a copy (of a copy ...) of it. *)
  Definition holders1 (l : list nat) (e : op) : list nat :=
    match e with
    | Copy x y => if existsb (Nat.eqb x) l then y :: l else l
    | Move x y => let r := filter (fun z => negb (z =? x) && negb (z =? y)) l in if existsb (Nat.eqb x) l then y :: r else r
    | Destroy x => filter (fun z => negb (z =? x)) l
    | _ => l
    end.
  Definition holders (hist : list op) (o : nat) : list nat := fold_left holders1 hist [o].
  (** The matrix variable [v] was neither destroyed nor given a new size. *)
  Definition keeps_storage (v : nat) (e : op) : bool :=
    match e with MatResize x _ => negb (x =? v) | MatDestroy x => negb (x =? v) | _ => true end.
End Life.
