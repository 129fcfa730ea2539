(** Model of stag_lib/KMeansRex (k-means) and of stag::spectral_cluster. *)
From Verif Require Import Base Num Sparse Graph Spectrum.

(** ** The random number generator
    repo: KMeansRex/mersenneTwister2002.h.  Simplification: the static state is passed around; a word is a [Z]. *)
Record mt_state : Type := mkMT { mt_words : list Z; mt_pos : nat }.
Definition mask32 : Z := 4294967295.
(** repo: mersenneTwister2002.h:60-73 my_init_genrand. *)
Definition mt_next_seed (prev : Z) (i : nat) : Z :=
  Z.land (1812433253 * Z.lxor prev (Z.shiftr prev 30) + Z.of_nat i) mask32.
Fixpoint mt_fill (fuel i : nat) (prev : Z) : list Z :=
  match fuel with 0 => [] | S f => let w := mt_next_seed prev i in w :: mt_fill f (S i) w end.
Definition mt_init (seed : Z) : mt_state :=
  let w := Z.land seed mask32 in mkMT (w :: mt_fill 623 1 w) 624.
(** repo: mersenneTwister2002.h:158-176: all 624 words are renewed, in place, word kk from the words kk, kk+1 and kk+397
    (modulo 624). *)
Definition mt_twist_word (ws : list Z) (kk : nat) : Z :=
  let get i := nth (i mod 624) ws 0%Z in
  let y := Z.lor (Z.land (get kk) 2147483648) (Z.land (get (kk + 1)) 2147483647) in
  Z.lxor (Z.lxor (get (kk + 397)) (Z.shiftr y 1)) (if Z.odd y then 2567483615 else 0).
Fixpoint set_nth {A} (i : nat) (x : A) (l : list A) : list A :=
  match l, i with [], _ => [] | _ :: r, 0 => x :: r | y :: r, S i => y :: set_nth i x r end.
Definition mt_twist (ws : list Z) : list Z :=
  fold_left (fun ws kk => set_nth kk (mt_twist_word ws kk) ws) (seq 0 624) ws.
(** repo: mersenneTwister2002.h:180-184: tempering. *)
Definition mt_temper (y : Z) : Z :=
  let y := Z.lxor y (Z.shiftr y 11) in
  let y := Z.lxor y (Z.land (Z.shiftl y 7) 2636928640) in
  let y := Z.lxor y (Z.land (Z.shiftl y 15) 4022730752) in
  Z.lxor y (Z.shiftr y 18).
(** repo: mersenneTwister2002.h:152-186 my_genrand_double, without the final division: the 32-bit word. *)
Definition mt_draw (s : mt_state) : mt_state * Z :=
  let s := if 624 <=? mt_pos s then mkMT (mt_twist (mt_words s)) 0 else s in
  (mkMT (mt_words s) (S (mt_pos s)), mt_temper (nth (mt_pos s) (mt_words s) 0%Z)).

(** ** k-means *)
Section KMeans.
  Context {W : Type} `{Num W}.
  (** [of_Z]: conversion int -> double; [unit_of y] is y*(1.0/4294967295.0), mersenneTwister2002.h:185;
      [trunc] is the cast (int); [bump c] is c + 1e-100 (KMeansRexCore.cpp:214). *)
  Variables (of_Z : Z -> W) (unit_of : Z -> W) (trunc : W -> Z) (bump : W -> W).

  (** repo: KMeansRexCore.cpp:86-90 randint(0, high). *)
  Definition randint (s : mt_state) (high : Z) : mt_state * Z :=
    let '(s, y) := mt_draw s in (s, trunc (wmul (of_Z high) (unit_of y))).
  (** repo: KMeansRexCore.cpp:92-108 discrete_rand.  [rest] = entries newk+1 .. K-1. *)
  Fixpoint pick (r cursum : W) (newk : nat) (rest : list W) : nat :=
    match rest with
    | [] => newk
    | x :: rest' => if wleb cursum r then pick r (wadd cursum x) (S newk) rest' else newk
    end.
  (** repo: p.sum(). *)
  Definition vsum (p : list W) : W := fold_left wadd p w0.
  (** repo: KMeansRexCore.cpp:92-108 discrete_rand. *)
  Definition discrete_rand (s : mt_state) (p : list W) : mt_state * outcome nat :=
    let '(s, y) := mt_draw s in
    match p with
    | [] => (s, UB)                              (* p(0) of an empty array *)
    | x :: rest => (s, Ok (pick (wmul (vsum p) (unit_of y)) x 0 rest))
    end.

  (** (x - mu).square().sum() *)
  Definition sqdist (x mu : list W) : W :=
    fold_left (fun a p => wadd a (wmul (wsub (fst p) (snd p)) (wsub (fst p) (snd p)))) (combine x mu) w0.
  Definition wmin (a b : W) : W := if wltb b a then b else a.
  (** repo: KMeansRexCore.cpp:155-164: the loop of sampleRowsPlusPlus; [last] = Mu.row(kk-1), [mind] = minDist. *)
  Fixpoint plusplus_loop (s : mt_state) (X : list (list W)) (fuel : nat) (last : list W) (mind : option (list W))
    : mt_state * outcome (list (list W)) :=
    match fuel with
    | 0 => (s, Ok [])
    | S f =>
      let cur := map (fun x => sqdist x last) X in
      let mind := match mind with None => cur | Some m => map (fun p => wmin (fst p) (snd p)) (combine cur m) end in
      match discrete_rand s mind with
      | (s, Ok c) =>
        match nth_error X c with
        | None => (s, UB)
        | Some row => let '(s, o) := plusplus_loop s X f row (Some mind) in (s, omap (cons row) o)
        end
      | (s, Throw e) => (s, Throw e)
      | (s, UB) => (s, UB)
      end
    end.
  (** repo: KMeansRexCore.cpp:142-165 sampleRowsPlusPlus, for K <= N. *)
  Definition plusplus (s : mt_state) (X : list (list W)) (K : nat) : mt_state * outcome (list (list W)) :=
    let '(s, c) := randint s (Z.of_nat (length X)) in
    if (c <? 0)%Z then (s, UB)
    else match nth_error X (Z.to_nat c) with
         | None => (s, UB)                       (* X.row(choice) out of bounds *)
         | Some row => let '(s, o) := plusplus_loop s X (K - 1) row None in (s, omap (cons row) o)
         end.

  (** repo: KMeansRexCore.cpp:176-190 pairwise_distance: one row of Dist. *)
  Definition wdot (x y : list W) : W := fold_left (fun a p => wadd a (wmul (fst p) (snd p))) (combine x y) w0.
  Definition dist_row (D : nat) (x : list W) (Mu : list (list W)) : list W :=
    if D <=? 16 then map (sqdist x) Mu
    else map (fun mu => wadd (wmul (wopp (wadd w1 w1)) (wdot x mu)) (wdot mu mu)) Mu.
  (** Eigen minCoeff(&index): the first smallest entry.  [None] on an empty row. *)
  Fixpoint argmin_from (best : W) (bi i : nat) (l : list W) : W * nat :=
    match l with
    | [] => (best, bi)
    | x :: r => if wltb x best then argmin_from x i (S i) r else argmin_from best bi (S i) r
    end.
  Definition argmin (l : list W) : option (W * nat) :=
    match l with [] => None | x :: r => Some (argmin_from x 0 1 r) end.
  (** repo: KMeansRexCore.cpp:192-203 assignClosest: total and labels. *)
  Fixpoint assign_closest (D : nat) (X Mu : list (list W)) (total : W) : outcome (W * list nat) :=
    match X with
    | [] => Ok (total, [])
    | x :: r => match argmin (dist_row D x Mu) with
                | None => UB
                | Some (d, i) => omap (fun p => (fst p, i :: snd p)) (assign_closest D r Mu (wadd total d))
                end
    end.
  (** repo: KMeansRexCore.cpp:206-218 calc_Mu.  Simplification: centre by centre; the rows of a cluster are added in the same
      order, starting from 0. *)
  Definition vadd (a b : list W) : list W := map (fun p => wadd (fst p) (snd p)) (combine a b).
  Definition centre_of (D : nat) (X : list (list W)) (Z : list nat) (k : nat) : list W :=
    let acc := fold_left (fun a p => if Nat.eqb (snd p) k then (vadd (fst a) (fst p), wadd (snd a) w1) else a)
                         (combine X Z) (repeat w0 D, w0) in
    map (fun a => wdiv a (bump (snd acc))) (fst acc).
  Definition calc_mu (D K : nat) (X : list (list W)) (Z : list nat) : list (list W) :=
    map (centre_of D X Z) (seq 0 K).
  (** repo: KMeansRexCore.cpp:221-234 run_lloyd; [Z] is the label array before the iteration. *)
  Fixpoint lloyd (D K : nat) (X : list (list W)) (fuel : nat) (Mu : list (list W)) (Z : list nat) (prev : W) : outcome (list nat) :=
    match fuel with
    | 0 => Ok Z
    | S f => match assign_closest D X Mu w0 with
             | Ok (total, Z') =>
               let Mu' := calc_mu D K X Z' in
               if weqb prev total then Ok Z' else lloyd D K X f Mu' Z' total
             | Throw e => Throw e
             | UB => UB
             end
    end.
  (** repo: KMeansRexCore.cpp:242-252 RunKMeans with initname "plusplus" and Z zero. *)
  Definition run_kmeans (X : list (list W)) (D K : nat) (niter seed : Z) : outcome (list nat) :=
    match snd (plusplus (mt_init seed) X K) with
    | Ok Mu => lloyd D K X (Z.to_nat niter) Mu (repeat 0 (length X)) w0
    | Throw e => Throw e
    | UB => UB
    end.

  (** Conversion of StagInt to int. *)
  Definition to_int32 (z : Z) : Z := ((z + 2147483648) mod 4294967296 - 2147483648)%Z.
  (** The n by k matrix whose columns are the eigenvectors, by rows. *)
  Definition rows_of (n : nat) (vecs : list (list W)) : list (list W) :=
    map (fun i => map (fun v => nth i v w0) vecs) (seq 0 n).
  (** repo: cluster.cpp:37-65 spectral_cluster.  Simplification: the numbers of vertices and clusters fit in an int. *)
  Definition spectral_cluster (solver : eigen_solver (W := W)) (g : graph W) (k : Z) : graph W * outcome (list Z) :=
    if ((k <? 1) || (Z.of_nat (number_of_vertices g) / 2 <? k))%Z then (g, Throw InvalidArgument)
    else
      match compute_eigenvectors solver g MatNormalisedLaplacian k Smallest with
      | (g, Ok vecs) =>
        let K := Z.to_nat k in
        (g, omap (map Z.of_nat) (run_kmeans (rows_of (number_of_vertices g) vecs) K K (to_int32 (k * 100)) 42))
      | (g, Throw e) => (g, Throw e)
      | (g, UB) => (g, UB)
      end.
End KMeans.
(** The first word after seeding with 42. *)
Lemma first_draw_42 : snd (mt_draw (mt_init 42)) = 1608637542%Z.
Proof. vm_compute. reflexivity. Qed.
