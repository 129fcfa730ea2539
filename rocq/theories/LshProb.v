(* Model of the collision probabilities of the Euclidean LSH functions.

   Modelled: stag_lib/lsh.cpp:18-22 (constants), 86-101
   (LSHFunction::collision_probability), 209-217 (E2LSH::collision_probability,
   both overloads).

   Simplification: the computation is read over the real numbers R (the C++
   code uses doubles); [exp] and [pow] with an unsigned exponent are the real
   functions, and [erf] is the error function 2/sqrt(pi) * int_0^x e^(-t^2) dt
   (the meaning the C++ standard gives to std::erf). *)
From Coq Require Import Reals Lra Psatz.
From Coquelicot Require Import Coquelicot.
Local Open Scope R_scope.

(* std::erf *)
Definition erf (x : R) : R := RInt (fun t => 2 / sqrt PI * exp (- (t * t))) 0 x.

(* lsh.cpp:18-19 *)
Definition TWO_ROOT_TWOPI : R := 50132565 / 10000000.
Definition TWO_ROOT_TWO : R := 2828427124 / 1000000000.

(* lsh.cpp:86-101, stag::LSHFunction::collision_probability(c) *)
Definition lsh_collision (c0 : R) : R :=
  let c := if Rlt_dec c0 0 then - c0 else c0 in
  if Rlt_dec c 1 then 1 - 2 / 10 * c
  else
    let e := 8 / (c * c) in
    - ((1 / TWO_ROOT_TWOPI) * c * exp (- e) * (exp e - 1)) + erf (TWO_ROOT_TWO / c).

(* lsh.cpp:209-213, stag::E2LSH::collision_probability(K, L, distance); the
   member overload (lsh.cpp:215-217) calls it with parameterK, parameterL. *)
Definition e2lsh_collision (K L : nat) (distance : R) : R :=
  let pc := lsh_collision distance in
  1 - (1 - pc ^ K) ^ L.

(* ---- specification ---- *)

(* Density of |X| for X ~ N(0,1). *)
Definition half_normal_density (t : R) : R := 2 * (/ sqrt (2 * PI) * exp (- (t * t) / 2)).

(* lsh.h:93-103: the collision probability of two points at distance c under
   h(x) = floor((<a,x> + b) / 4), a Gaussian, b uniform in [0,4]: the
   projections of the two points differ by c|X|, and two numbers at distance
   t <= 4 share a bucket with probability 1 - t/4. *)
Definition true_collision (c : R) : R :=
  RInt (fun t => / c * half_normal_density (t / c) * (1 - t / 4)) 0 4.
