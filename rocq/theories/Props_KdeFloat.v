(** Kernel density estimation and similarity graphs in IEEE double arithmetic (stag_lib/kde.cpp, cluster.cpp): C87, C88.
    [dbl x]: x is a finite double; [f2r x]: its value; [libm_ok K eps]: exp of a number that is not positive is a finite double between
    0 and 1, within [eps] of the true value, and integers up to 2^53 convert exactly; [coords_ok p]: finite coordinates of size at most
    2^400; [two49] = 2^49. *)
From Verif Require Import Base Num RSum Graph GraphSpec FloatFacts Kde KdeFacts3 SimGraph KdeFloat AsgFloat LibmF64.
From Coq Require Import ZArith Reals Lra Lia.
From Flocq Require Import Core.
Local Open Scope R_scope.

(** ** C87 *)
(** One kernel value. *)
Theorem C87_kernel :
  forall (K : KNum f64) (eps : R) (a : f64) (q x : list f64) (d : nat), libm_ok K eps ->
  dbl a -> 0 <= f2r a <= bpow radix2 100 -> coords_ok q -> coords_ok x -> length q = d -> length x = d -> INR d <= two49 ->
  let k := gaussian_kernel a q x in
  dbl k /\ 0 <= f2r k <= 1 /\
  Rabs (f2r k - exp (- (f2r a * dist2 (map f2r q) (map f2r x)))) <= (INR d + 5) * bpow radix2 (-52) + eps.
Proof. intros K eps a q x d HK. exact (kernel_error K eps HK a q x d). Qed.
Print Assumptions C87_kernel.

(** The density returned by ExactGaussianKDE::query is within (n + d + 7) 2^-52 + eps of the mean of the n true kernel values. *)
Theorem C87_query :
  forall (K : KNum f64) (eps : R) (a : f64) (data : list (list f64)) (q : list f64) (d : nat), libm_ok K eps ->
  dbl a -> 0 <= f2r a <= bpow radix2 100 -> coords_ok q -> length q = d -> Forall (fun x => coords_ok x /\ length x = d) data ->
  (1 <= length data)%nat -> INR (length data) <= two49 -> INR d <= two49 ->
  let n := length data in
  let r := exact_query (exact_kde_new data a) q in
  dbl r /\ 0 <= f2r r /\
  Rabs (f2r r - lsum (fun x => exp (- (f2r a * dist2 (map f2r q) (map f2r x)))) data / INR n) <= (INR n + INR d + 7) * bpow radix2 (-52) + eps.
Proof.
  intros K eps a data q d HK Da Ra Cq Lq Fd N1 N2 D2. apply (query_error K eps HK a data q d).
  unfold input_ok. split; [exact Da|]. split; [exact Ra|]. split; [exact Cq|]. split; [exact Lq|]. split; [exact Fd|]. split; [exact N1|]. split; [exact N2|exact D2].
Qed.
Print Assumptions C87_query.

(** similarity_graph: for every number of threads and every schedule the weight of i-j is a double within (d + 5) 2^-52 + eps of the
    true kernel value if it is above EPSILON (as a double), and 0 otherwise. *)
Theorem C87_similarity_graph :
  forall (K : KNum f64) (eps : R) (a : f64) (data : list (list f64)) (d T : nat) (r : outcome (graph f64)), libm_ok K eps ->
  dbl a /\ 0 <= f2r a <= bpow radix2 100 -> Forall (fun x => coords_ok x /\ length x = d) data -> INR d <= two49 -> (1 <= T)%nat ->
  similarity_graph T a data r ->
  exists g, r = Ok g /\ number_of_vertices g = length data /\ reachable g /\
    forall i j, (i < length data)%nat -> (j < length data)%nat -> exists y, dbl y /\ 0 <= f2r y <= 1 /\
      Rabs (f2r y - exp (- (f2r a * dist2 (map f2r (nth i data [])) (map f2r (nth j data []))))) <= (INR d + 5) * bpow radix2 (-52) + eps /\
      weight g i j = if wltb weps y then y else w0.
Proof. intros K eps a data d T r HK Ha Fd Hd HT. exact (similarity_doubles K eps a data d T r HK Ha Fd Hd HT). Qed.
Print Assumptions C87_similarity_graph.

(** A correctly rounded exp meets the contract with eps = 2^-52; four points of the plane. *)
Definition exK : list (list f64) := [[zf 0; zf 0]; [zf 3; zf 4]; [zf (-2); zf 1]; [zf 3; zf 5]].
Lemma exK_coords : Forall (fun x => coords_ok x /\ length x = 2%nat) exK.
Proof.
  assert (C : forall z, (Z.abs z <= 8)%Z -> dbl (zf z) /\ Rabs (f2r (zf z)) <= bpow radix2 400).
  { intros z Hz. destruct (zf_spec z) as [D E]; [unfold small_int; lia|]. split; [exact D|]. rewrite E, <- abs_IZR. apply Rle_trans with 8; [now apply IZR_le|].
    change 8 with (bpow radix2 3). apply bpow_le. lia. }
  unfold exK, coords_ok. repeat (apply Forall_cons || apply Forall_nil || (split; [|reflexivity])); apply C; simpl; lia.
Qed.
Example C87_hypotheses_met : libm_ok libm (bpow radix2 (-52)) /\ (dbl w1 /\ 0 <= f2r w1 <= bpow radix2 100) /\
  coords_ok (nth 1 exK []) /\ length (nth 1 exK []) = 2%nat /\ Forall (fun x => coords_ok x /\ length x = 2%nat) exK /\
  (1 <= length exK)%nat /\ INR (length exK) <= two49 /\ INR 2 <= two49 /\ exists r, @similarity_graph f64 _ libm 2 w1 exK r.
Proof.
  assert (B : forall k, (k <= 4)%nat -> INR k <= two49).
  { intros k Hk. apply Rle_trans with 4; [replace 4 with (INR 4) by (simpl; lra); now apply le_INR|]. unfold two49. change 4 with (bpow radix2 2). apply bpow_le. lia. }
  split; [exact libm_exp|]. split; [split; [exact dbl_1|]; rewrite f2r_1; split; [lra|change 1 with (bpow radix2 0); apply bpow_le; lia]|].
  pose proof exK_coords as F. assert (I : In (nth 1 exK []) exK) by (right; left; reflexivity). rewrite Forall_forall in F. destruct (F _ I) as [C L].
  split; [exact C|]. split; [exact L|]. split; [exact exK_coords|]. split; [simpl; lia|]. split; [apply B; simpl; lia|]. split; [apply B; lia|].
  apply (@SimGraphFacts.similarity_exists f64 _ libm). lia.
Qed.

(** ** C88 *)
(** approximate_similarity_graph on 2 to node_cutoff points (5000 by default), uniform draws being doubles in [0, 1]: for every number of threads, schedule, history of
    the caches and draws there is no undefined behaviour; the graph is exactly symmetric; every vertex gets exactly two samples, which are vertices; its degree is within
    n ((n + d + 9) 2^-52 + eps) of (n-1)/n times the sum of the true kernel values; the weight of u-v is the double sum of a fifth of u's degree for each time that u sampled v
    and the same for v, with a relative error of at most 2^-49, cut off at EPSILON. *)
Theorem C88_graph :
  forall (K : KNum f64) (eps : R) (a : f64) (data : list (list f64)) (d : nat) (unif : f64 -> Prop) (ord : nat -> nat -> nat -> list nat -> list nat) (T : nat) (nc : Z)
    (r : outcome (graph f64)),
  libm_ok K eps -> eps <= / 4 -> dbl a /\ 0 <= f2r a <= bpow radix2 100 -> Forall (fun x => coords_ok x /\ length x = d) data -> INR d <= two49 ->
  INR (length data) <= two49 -> (2 <= length data)%nat -> (1 <= T)%nat -> (Z.of_nat (length data) <= nc)%Z -> edges_per_node (W := f64) (length data) = 2%Z ->
  (forall x, unif x -> dbl x /\ 0 <= f2r x <= 1) -> asg unif ord T a data nc r ->
  let n := length data in
  exists g degrees samples, r = Ok g /\ number_of_vertices g = n /\ reachable g /\ (forall u v, weight g u v = weight g v u) /\ length degrees = n /\
    (forall u, (u < n)%nat -> dbl (nth u degrees w0) /\ 0 < f2r (nth u degrees w0) /\
       Rabs (f2r (nth u degrees w0) - INR (n - 1) * (lsum (fun x => exp (- (f2r a * dist2 (map f2r (nth u data [])) (map f2r x)))) data / INR n)) <=
       INR n * ((INR n + INR d + 9) * bpow radix2 (-52) + eps)) /\
    (forall u, (u < n)%nat -> length (samples u) = 2%nat /\ forall v, In v (samples u) -> (v < n)%nat) /\
    forall u v, (u < n)%nat -> (v < n)%nat ->
      let x := f2r (nth u degrees w0) / 5 * INR (count_occ Nat.eq_dec (samples u) v) + f2r (nth v degrees w0) / 5 * INR (count_occ Nat.eq_dec (samples v) u) in
      exists y, dbl y /\ Rabs (f2r y - x) <= bpow radix2 (-49) * x /\ weight g u v = if wltb weps y then y else w0.
Proof. intros K eps a data d unif ord T nc r HK He Ha Fd Hd Hn H2. exact (asg_doubles K eps HK He a data d Ha Fd Hd Hn H2 unif ord T nc r). Qed.
Print Assumptions C88_graph.

Theorem C88_completes :
  forall (K : KNum f64) (a : f64) (data : list (list f64)) (unif : f64 -> Prop) (ord : nat -> nat -> nat -> list nat -> list nat) (T : nat) (nc : Z) (x0 : f64),
  (1 <= T)%nat -> (Z.of_nat (length data) <= nc)%Z -> (2 <= length data)%nat -> edges_per_node (W := f64) (length data) = 2%Z -> unif x0 ->
  exists r, asg unif ord T a data nc r.
Proof. intros K a data unif ord T nc x0. exact (asg_leaf_exists unif ord T a data nc x0). Qed.
Print Assumptions C88_completes.
(** With correctly rounded exp and log: the four points above, draws of 1/2 and 1. *)
Example C88_hypotheses_met : libm_ok libm (bpow radix2 (-52)) /\ bpow radix2 (-52) <= / 4 /\ (2 <= length exK)%nat /\ INR (length exK) <= two49 /\
  (forall n, (2 <= n)%nat -> INR n <= two49 -> @edges_per_node f64 _ libm n = 2%Z) /\
  exists (unif : f64 -> Prop), (forall x, unif x -> dbl x /\ 0 <= f2r x <= 1) /\ unif w1 /\ exists r, @asg f64 _ libm unif (fun _ _ _ l => l) 2 w1 exK 5000 r.
Proof.
  assert (B : INR (length exK) <= two49).
  { apply Rle_trans with 4; [simpl; lra|]. unfold two49. change 4 with (bpow radix2 2). apply bpow_le. lia. }
  split; [exact libm_exp|]. split; [change (/ 4) with (bpow radix2 (-2)); apply bpow_le; lia|]. split; [simpl; lia|]. split; [exact B|]. split; [exact libm_edges|].
  exists (fun x => dbl x /\ 0 <= f2r x <= 1). split; [auto|]. assert (U : dbl w1 /\ 0 <= f2r w1 <= 1) by (split; [exact dbl_1|rewrite f2r_1; lra]). split; [exact U|].
  apply (C88_completes libm w1 exK _ _ 2 5000 w1); [lia|simpl; lia|simpl; lia|apply libm_edges; [simpl; lia|exact B]|exact U].
Qed.
