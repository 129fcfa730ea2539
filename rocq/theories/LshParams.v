(* Model of the choice of the hash-table parameters in the CKNS estimator.

   Modelled: stag_lib/kde.cpp:142-155, ckns_gaussian_create_lsh_params, over R
   (the C++ code uses doubles).  log is the natural logarithm, log2 the base-2
   logarithm, floor and ceil round to integers; the conversions to StagUInt are
   exact because both numbers are non-negative integers. The function is only
   called with 1 <= j <= J (kde.cpp:213-223: the j = 0 unit uses no table). *)
From Coq Require Import Reals Lra Psatz Lia ZArith.
From Coquelicot Require Import Coquelicot.
From Flocq Require Import Core.Raux.
From Verif Require Import LshProb.
Local Open Scope R_scope.

Definition log2R (x : R) : R := ln x / ln 2.

(* kde.cpp:144 *)
Definition lsh_rj (j : Z) (a : R) : R := sqrt (IZR j * ln 2 / a).

(* kde.cpp:148 *)
Definition lsh_phi (J j : Z) : Z := Zceil (IZR j / IZR J * IZR (J - j + 1)).

(* kde.cpp:142-155; the result is {K, L}. *)
Definition ckns_lsh_params (J j : Z) (a K2_constant : R) : nat * nat :=
  let r_j := lsh_rj j a in
  let p_j := lsh_collision r_j in
  let phi_j := IZR (lsh_phi J j) in
  let k_j := Z.max 1 (Zfloor (- phi_j / log2R p_j)) in
  let K_2 := Zceil (K2_constant * powerRZ 2 (lsh_phi J j)) in
  (Z.to_nat k_j, Z.to_nat K_2).
