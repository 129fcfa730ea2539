(** C68: the distribution of the generated graphs (stag_lib/random.cpp). *)
From Verif Require Import Base Num RSum Sparse Graph GraphSpec RandomGraph RandomFacts RandomTop RandomTop2 RandomDist.
From Coq Require Import Reals Lra Lia List.
Import ListNotations.
Local Open Scope nat_scope.

(** *** C68: every pair has its own coin and the coins are independent.
    A generator whose canonical samples are uniform on the grid 0, 1/N, .., (N-1)/N (N = 2^53 for doubles) is a uniformly chosen tape.  Among the
    N^(n(n-1)/2) tapes, the set S of those on which the graph with edge set E is returned has relative size the product over the pairs i < j of
    the probability of that pair: p = below N (p_ij) / N for an edge, 1 - p for a non-edge. *)
Theorem C68_general_sbm_distribution :
  forall (sizes : list Z) (P : dmat R) (exact : bool) (N fuel : nat) (G : rng R (list nat)) (E : nat -> nat -> bool),
  valid_sbm sizes P -> coin_per_pair sizes P exact -> 0 < N -> reads_tape N G ->
  let n := Z.to_nat (zsum sizes) in
  let prob i j := dm_at P (block (nsizes sizes) i) (block (nsizes sizes) j) in
  exists S : list (list nat), NoDup S /\
    (forall t, In t S <-> is_tape N (n * (n - 1) / 2) t /\
       exists g s', general_sbm G fuel sizes P exact t = Some (Ok (g, s')) /\
         forall i j, i < j -> j < n -> weight g i j = if E i j then 1%R else 0%R) /\
    (INR (length S) / INR N ^ (n * (n - 1) / 2) =
       pair_prod n (fun i j => if E i j then INR (below N (prob i j)) / INR N else 1 - INR (below N (prob i j)) / INR N))%R.
Proof. exact sbm_distribution. Qed.
Print Assumptions C68_general_sbm_distribution.
Theorem C68_sbm_distribution :
  forall (n k : Z) (p q : R) (N fuel : nat) (G : rng R (list nat)) (E : nat -> nat -> bool),
  (1 <= k)%Z -> (k <= n / 2)%Z -> (0 <= p <= 1)%R -> (0 <= q <= 1)%R -> 0 < N -> reads_tape N G ->
  let n' := Z.to_nat (k * (n / k)) in
  exists S : list (list nat), NoDup S /\
    (forall t, In t S <-> is_tape N (n' * (n' - 1) / 2) t /\
       exists g s', sbm G fuel n k p q true t = Some (Ok (g, s')) /\
         forall i j, i < j -> j < n' -> weight g i j = if E i j then 1%R else 0%R) /\
    (INR (length S) / INR N ^ (n' * (n' - 1) / 2) =
       pair_prod n' (fun i j => let r := if (Z.of_nat i / (n / k) =? Z.of_nat j / (n / k))%Z then p else q in
         if E i j then INR (below N r) / INR N else 1 - INR (below N r) / INR N))%R.
Proof. exact sbm_nk_distribution. Qed.
Print Assumptions C68_sbm_distribution.
Theorem C68_erdos_renyi_distribution :
  forall (n : Z) (N a fuel : nat) (G : rng R (list nat)) (E : nat -> nat -> bool),
  (2 <= n)%Z -> a <= N -> 0 < N -> reads_tape N G ->
  let n' := Z.to_nat n in let p := (INR a / INR N)%R in
  exists S : list (list nat), NoDup S /\
    (forall t, In t S <-> is_tape N (n' * (n' - 1) / 2) t /\
       exists g s', erdos_renyi G fuel n p true t = Some (Ok (g, s')) /\
         forall i j, i < j -> j < n' -> weight g i j = if E i j then 1%R else 0%R) /\
    (INR (length S) / INR N ^ (n' * (n' - 1) / 2) = p ^ edge_count n' E * (1 - p) ^ (n' * (n' - 1) / 2 - edge_count n' E))%R.
Proof. exact erdos_renyi_distribution. Qed.
Print Assumptions C68_erdos_renyi_distribution.
(** A coin of bias p on the grid comes up with probability p, to within 1/N; exactly p if p is on the grid. *)
Theorem C68_coin_bias : forall (N : nat) (p : R), 0 < N -> (0 <= p <= 1)%R ->
  (p <= INR (below N p) / INR N < p + 1 / INR N)%R /\ forall a, a <= N -> p = (INR a / INR N)%R -> below N p = a.
Proof.
  intros N p HN Hp. destruct (below_bounds N p HN Hp) as [_ [A B]]. assert (0 < INR N)%R as PN by (now apply lt_0_INR). split.
  - assert (INR (below N p) / INR N * INR N = INR (below N p))%R as E by (field; lra).
    split; [apply (Rmult_le_reg_r (INR N)); [lra|rewrite E; lra]|apply (Rmult_lt_reg_r (INR N)); [lra|rewrite E]].
    rewrite Rmult_plus_distr_r. unfold Rdiv. rewrite Rmult_assoc, Rinv_l by lra. lra.
  - intros a Ha Ea. now apply below_grid.
Qed.
Print Assumptions C68_coin_bias.

Definition exTapeG (N : nat) : rng R (list nat) :=
  mkRng (fun t => ((INR (hd 0%nat t) / INR N)%R, tl t)) (fun _ _ t => (0%Z, t)) (fun n t => (hd 0 t mod n, tl t)).
Definition exTapeP : dmat R := mkDmat 2 2 (fun i j => if i =? j then (3/4)%R else (1/4)%R).
Example C68_hypotheses_met :
  valid_sbm [2; 1]%Z exTapeP /\ coin_per_pair [2; 1]%Z exTapeP true /\ reads_tape 4 (exTapeG 4) /\
  below 4 (3/4) = 3 /\ below 4 (1/4) = 1 /\ Z.to_nat (zsum [2; 1]%Z) = 3 /\
  is_tape 4 (3 * (3 - 1) / 2) [0; 3; 1].
Proof.
  assert (forall a b : R, (b <= a)%R -> wltb a b = false) as F.
  { intros a b L. destruct (wltb a b) eqn:B; auto. apply (toR_ltb (W := R)) in B. cbn [toR ExactR] in B. lra. }
  split; [|split; [now left|]].
  - split; [repeat constructor; lia|]. split; [reflexivity|]. split; [reflexivity|]. intros i j _ _. cbn [exTapeP dm_at].
    destruct (i =? j); split; apply F; cbn; lra.
  - split; [intros t; reflexivity|]. split; [apply below_grid; [lia|lia|cbn; lra]|]. split; [apply below_grid; [lia|lia|cbn; lra]|].
    split; [reflexivity|]. split; [reflexivity|]. repeat constructor.
Qed.
