(** Samples and result of approximate_similarity_graph over the reals. *)
From Verif Require Import Base Num RSum Sparse SparseFacts Graph GraphSpec GraphFacts GraphProps4 Cluster ClusterSweep ClusterPR2 ThreadPool ThreadPoolFacts ThreadPoolTop Kde KdeFacts KdeFacts2 KdeFacts3 KdeFacts4 Props_Kde SimGraph SimGraphFacts SimGraphFacts2 SimGraphFacts3.
From Coq Require Import ZArith Permutation Reals Lra.
Local Open Scope nat_scope.

Lemma R_eqb_true x y : R_eqb x y = true <-> x = y.
Proof. unfold R_eqb. destruct (Req_EM_T x y); split; congruence. Qed.

Definition unit_interval (unif : R -> Prop) : Prop := forall x, unif x -> (0 <= x < 1)%R.

Lemma binomial_ok_R x y : (0 <= x)%R -> (0 <= y)%R -> (x + y <> 0)%R -> binomial_ok x y = true.
Proof.
  intros Hx Hy N. unfold binomial_ok. cbn [weqb wleb wadd wdiv w0 w1 NumR].
  assert (R_eqb (x + y) 0 = false) as -> by (apply not_true_iff_false; rewrite R_eqb_true; auto). cbn [negb andb].
  assert (0 < / (x + y))%R by (apply Rinv_0_lt_compat; lra). apply andb_true_iff. rewrite !R_leb_true. split; [apply Rmult_le_pos; lra|].
  apply (Rmult_le_reg_r (x + y)); [lra|]. unfold Rdiv. rewrite Rmult_assoc, Rinv_l; lra.
Qed.

Lemma leaf_samples data a lo hi q d rs : lo <= hi < length data -> (0 <= d < leaf_total data a lo hi q)%R -> (forall x, In x rs -> (0 <= x < 1)%R) ->
  let s := sample_neighbors (leaf_kde a data lo hi) q d rs in length s = length rs /\ forall k, In k s -> lo <= k <= hi.
Proof.
  intros Hh Hd Hr s. unfold s, leaf_kde.
  destruct (C52_samples data a lo (hi + 1) q d rs ltac:(lia) ltac:(lra) ltac:(intros x I; specialize (Hr x I); lra)) as (ts & P & _ & F).
  fold (leaf_total data a lo hi q) in F. rewrite filter_id in F.
  - split.
    + apply Forall2_len in F. rewrite <- F, (Permutation_length P). apply map_length.
    + intros k I. clear P. induction F as [|t x ts' xs (B & _) F IH]; [destruct I|]. destruct I as [<-|I]; auto. lia.
  - intros t I. apply (Permutation_in _ P) in I. apply in_map_iff in I as (r & <- & I). specialize (Hr r I). destruct (Rlt_dec _ _) as [|N]; auto. exfalso. apply N.
    apply Rle_lt_trans with d; [|lra]. rewrite <- (Rmult_1_r d) at 2. apply Rmult_le_compat_l; lra.
Qed.

Section Samples.
  Variable T : nat.
  Variable a : R.
  Variable data : list (list R).
  Variable dc nc : Z.
  Variable unif : R -> Prop.
  Hypothesis HT : 1 <= T.
  Hypothesis Ha : (0 < a)%R.
  Hypothesis Hnc : (2 <= nc)%Z.
  Hypothesis Hu : unit_interval unif.
  Notation build := (build T a data dc nc).

  (** no inner node whose two children both estimate 0 for q *)
  Fixpoint no_zero (t : ktree) (q : list R) : Prop :=
    match t with
    | Leaf _ _ => True
    | Node _ _ _ l r => (forall x y, tree_weight a data l q = Ok x -> tree_weight a data r q = Ok y -> (x + y <> 0)%R) /\ no_zero l q /\ no_zero r q
    end.

  Lemma samples_ok H : (forall t i v, In (t, i, v) H -> tree_weight a data t (nth i data []) = Ok v) ->
    forall depth lo hi t, build depth lo hi t -> lo <= hi < length data -> forall i num r, tree_samples unif a data H t i num r ->
    (exists s, r = Ok s /\ length s = num /\ forall k, In k s -> lo <= k <= hi) \/ (r = UB /\ ~ no_zero t (nth i data [])).
  Proof.
    intros HH depth lo hi t B. induction B as [depth lo hi L|depth lo hi est l r L E Bl IHl Br IHr]; intros Hle i num res Sm.
    - cbn [tree_samples] in Sm. destruct Sm as (rs & d & Er & Ur & Ed & ->). apply (ev_ok a data H HH) in Ed. cbn [tree_weight] in Ed. subst d. cbn [obind]. left. eexists. split; [reflexivity|].
      rewrite <- Er. apply leaf_samples; auto. apply (leaf_weight_range data a lo hi); lia.
    - cbn [tree_samples] in Sm. destruct Sm as (x & y & nl & ls & rs & Ex & Ey & Hn & Hl & Hr & ->). apply (ev_ok a data H HH) in Ex, Ey. subst x y.
      pose proof (Nat.div_mod (lo + hi) 2 ltac:(lia)). pose proof (Nat.mod_upper_bound (lo + hi) 2 ltac:(lia)).
      destruct (tree_weight_ok T a data dc nc HT Ha Hnc _ _ _ _ Bl ltac:(lia) (nth i data [])) as (x & Ex & Hx).
      destruct (tree_weight_ok T a data dc nc HT Ha Hnc _ _ _ _ Br ltac:(lia) (nth i data [])) as (y & Ey & Hy). rewrite Ex, Ey. cbn [obind].
      destruct (Req_dec (x + y) 0) as [Z|NZ].
      { right. split.
        - replace (binomial_ok x y) with false; auto. symmetry. unfold binomial_ok. cbn [weqb wadd w0 NumR]. assert (R_eqb (x + y) 0 = true) as -> by now apply R_eqb_true. reflexivity.
        - cbn [no_zero]. intros (F & _). exact (F x y Ex Ey Z). }
      rewrite binomial_ok_R by auto.
      assert ((exists s, ls = Ok s /\ length s = nl /\ forall k, In k s -> lo <= k <= hi) \/ (ls = UB /\ ~ no_zero l (nth i data []))) as [(sl & -> & Ll & Al)|(-> & Nl)].
      { destruct (nl =? 0) eqn:En.
        - apply Nat.eqb_eq in En. subst. left. exists []. split; [auto|split; [auto|intros k []]].
        - destruct (IHl ltac:(lia) _ _ _ Hl) as [(s & Es & Ls & As)|U]; auto. left. exists s. split; auto. split; auto. intros k I. apply As in I. lia. }
      + assert ((exists s, rs = Ok s /\ length s = num - nl /\ forall k, In k s -> lo <= k <= hi) \/ (rs = UB /\ ~ no_zero r (nth i data []))) as [(sr & -> & Lr & Ar)|(-> & Nr)].
        { destruct (nl <? num) eqn:En.
          - destruct (IHr ltac:(lia) _ _ _ Hr) as [(s & Es & Ls & As)|U]; auto. left. exists s. split; auto. split; auto. intros k I. apply As in I. lia.
          - apply Nat.ltb_ge in En. subst rs. left. exists []. split; [auto|split; [simpl; lia|intros k []]]. }
        * left. cbn [obind]. eexists. split; [reflexivity|]. rewrite app_length. split; [lia|]. intros k I. apply in_app_or in I as [I|I]; auto.
        * right. cbn [obind]. split; auto. cbn [no_zero]. tauto.
      + right. cbn [obind]. split; auto. cbn [no_zero]. tauto.
  Qed.

  Lemma samples_exist H x0 : unif x0 -> forall t i num, exists r, tree_samples unif a data H t i num r.
  Proof.
    intros U0. induction t as [lo hi|lo hi est l IHl r IHr]; intros i num; cbn [tree_samples].
    - destruct (ev_exists a data H (Leaf lo hi) i) as [d Ed]. eexists. exists (repeat x0 num), d. rewrite repeat_length. split; auto. split; [intros x I; apply repeat_spec in I; now subst|]. split; [exact Ed|reflexivity].
    - destruct (ev_exists a data H l i) as [x Ex]. destruct (ev_exists a data H r i) as [y Ey].
      destruct (IHr i (num - 0)) as [rs Rs]. eexists. exists x, y, 0, (Ok []), (if 0 <? num then rs else Ok []). split; [exact Ex|]. split; [exact Ey|]. split; [lia|]. split; [reflexivity|]. split; [|reflexivity].
      destruct (0 <? num); auto.
  Qed.

  (** Without estimators below the root the sums are positive. *)
  Lemma small_no_zero lo hi t q : build 0 lo hi t -> dc = 0%Z -> lo <= hi -> (Z.of_nat hi - Z.of_nat lo < 2 * nc)%Z -> no_zero t q.
  Proof.
    intros B Ed Hle Hs. inversion B as [depth lo' hi' L|depth lo' hi' est l r L E Bl Br]; subst; cbn [no_zero]; auto.
    pose proof (Nat.div_mod (lo + hi) 2 ltac:(lia)). pose proof (Nat.mod_upper_bound (lo + hi) 2 ltac:(lia)).
    inversion Bl as [? ? ? Ll|]; subst; [|exfalso; lia]. inversion Br as [? ? ? Lr|]; subst; [|exfalso; lia]. cbn [no_zero]. repeat split; auto.
    intros x y Ex Ey. cbn [tree_weight] in Ex, Ey.
    assert (forall u v : R, Ok u = Ok v -> u = v) as inj by (intros u v Q; congruence). apply inj in Ex, Ey. rewrite <- Ex, <- Ey.
    pose proof (proj2 (leaf_weight_range data a lo ((lo + hi) / 2) q ltac:(lia)) ltac:(lia)) as P1. pose proof (proj1 (leaf_weight_range data a ((lo + hi) / 2 + 1) hi q ltac:(lia))) as P2.
    cbv zeta in P1, P2. lra.
  Qed.

  Lemma build_exists : forall depth lo hi, lo <= hi -> exists t, build depth lo hi t.
  Proof.
    intros depth lo hi. remember (hi - lo) as d eqn:Ed. revert depth lo hi Ed. induction d as [d IH] using lt_wf_ind. intros depth lo hi Ed Hle.
    destruct (Z.lt_ge_cases (Z.of_nat hi - Z.of_nat lo) nc) as [L|L]; [eexists; now constructor|].
    pose proof (Nat.div_mod (lo + hi) 2 ltac:(lia)). pose proof (Nat.mod_upper_bound (lo + hi) 2 ltac:(lia)).
    destruct (IH ((lo + hi) / 2 - lo) ltac:(lia) (depth + 1)%Z lo ((lo + hi) / 2) ltac:(lia) ltac:(lia)) as [l Bl].
    destruct (IH (hi - ((lo + hi) / 2 + 1)) ltac:(lia) (depth + 1)%Z ((lo + hi) / 2 + 1) hi ltac:(lia) ltac:(lia)) as [r Br].
    destruct (Z.le_gt_cases depth dc) as [C|C].
    - exists (Node lo hi None l r). now constructor.
    - set (K1 := wceil (wmul w1 (wlog (wofZ (Z.of_nat hi - Z.of_nat lo))))). set (copies := repeat (rows_of data lo hi) (Z.to_nat K1)).
      destruct (init_exists T a (wdiv w1 (wofZ (Z.of_nat hi - Z.of_nat lo))) copies (Z.of_nat (hi + 1 - lo)) 0 (fun _ _ _ => []) HT) as [k I].
      exists (Node lo hi (Some k) l r). constructor; auto. split; auto. exists copies, (fun _ _ _ => []). split; [|split; auto].
      + unfold copies. rewrite repeat_length. apply Z2Nat.id. pose proof (ln_ceil_pos (Z.of_nat hi - Z.of_nat lo) ltac:(lia)). unfold K1. cbn [wceil wmul w1 wlog wofZ KNumR NumR]. lia.
      + intros c Ic. apply repeat_spec in Ic. subst. apply Permutation_refl.
  Qed.
End Samples.

(** ** Two samples per vertex *)
Lemma exp_2_lt_8 : (exp 2 < 8)%R.
Proof.
  assert (exp (-2) = exp (-1/16) ^ 32)%R as E.
  { replace (-2)%R with (INR 32 * (-1/16))%R by (simpl; lra). generalize 32 as k. induction k as [|k IH]; [simpl; rewrite Rmult_0_l; apply exp_0|].
    rewrite S_INR. replace ((INR k + 1) * (-1 / 16))%R with (INR k * (-1/16) + -1/16)%R by lra. rewrite exp_plus, IH. simpl. lra. }
  assert (1 / 8 < exp (-2))%R as L.
  { rewrite E. apply Rlt_le_trans with ((15/16) ^ 32)%R; [simpl; lra|]. apply pow_incr. split; [lra|]. pose proof (exp_ineq1_le (-1/16)). lra. }
  replace 2%R with (- -2)%R by lra. rewrite exp_Ropp. pose proof (exp_pos (-2)). apply (Rmult_lt_reg_l (exp (-2))); auto. rewrite Rinv_r; lra.
Qed.

Lemma three_ln n : 2 <= n -> (2 <= 3 * ln (IZR (Z.of_nat n)))%R.
Proof.
  intros Hn. apply Rle_trans with (3 * ln 2)%R.
  - assert (2 < ln 8)%R as L by (rewrite <- (ln_exp 2); apply ln_increasing; [apply exp_pos|apply exp_2_lt_8]).
    assert (ln 8 = 3 * ln 2)%R; [|lra]. replace 8%R with (2 * (2 * 2))%R by lra. rewrite !ln_mult by lra. lra.
  - apply Rmult_le_compat_l; [lra|]. destruct (Nat.eq_dec n 2) as [->|N]; [right; reflexivity|]. left. apply ln_increasing; [lra|]. apply (IZR_lt 2). lia.
Qed.

Lemma edges_per_node_two n : 2 <= n -> edges_per_node (W := R) n = 2%Z.
Proof.
  intros Hn. unfold edges_per_node. cbn [wfloor wmul wofZ wlog KNumR NumR]. unfold R_floor. pose proof (three_ln n Hn) as L.
  pose proof (Int_part_bounds (3 * ln (IZR (Z.of_nat n)))) as [_ B]. assert (1 < IZR (Int_part (3 * ln (IZR (Z.of_nat n)))))%R as B' by lra. apply (lt_IZR 1) in B'. lia.
Qed.

Lemma edges_per_node_few n : n <= 1 -> edges_per_node (W := R) n = 0%Z.
Proof.
  intros Hn. unfold edges_per_node. cbn [wfloor wmul wofZ wlog KNumR NumR]. unfold R_floor. assert (ln (IZR (Z.of_nat n)) = 0)%R as ->.
  { destruct n as [|[|n]]; [|apply ln_1|lia]. simpl. unfold ln. destruct (Rlt_dec 0 0) as [F|F]; [exfalso; exact (Rlt_irrefl _ F)|reflexivity]. }
  rewrite Rmult_0_r, (Int_part_unique 0 0) by lra. reflexivity.
Qed.

Lemma depth_cutoff_zero : wfloor (wlog (wofZ 2 : R)) = 0%Z.
Proof.
  cbn [wfloor wlog wofZ KNumR]. unfold R_floor. apply Int_part_unique. split.
  - rewrite <- ln_1. left. apply ln_increasing; lra.
  - assert (ln 2 < 1)%R; [|lra]. rewrite <- (ln_exp 1). apply ln_increasing; [lra|]. pose proof (exp_ineq1 1 ltac:(lra)). lra.
Qed.

(** ** The weights of the graph *)
Definition occurrences (v : nat) (l : list nat) : R := INR (count_occ Nat.eq_dec l v).

Lemma occ_lsum v l : occurrences v l = lsum (fun x => if x =? v then 1%R else 0%R) l.
Proof.
  unfold occurrences. induction l as [|x l IH]; [reflexivity|]. cbn [count_occ lsum]. destruct (Nat.eq_dec x v) as [->|N].
  - rewrite Nat.eqb_refl, S_INR, IH. lra.
  - apply Nat.eqb_neq in N. rewrite N, IH. lra.
Qed.

Lemma row_sum degrees samples i u v : length (samples i) = 2 ->
  lsum (fun x => x) (tvals (row_writes 2 5%R degrees samples i) u v) =
  (nth i degrees 0 / 5 * ((if i =? u then occurrences v (samples i) else 0) + (if i =? v then occurrences u (samples i) else 0)))%R.
Proof.
  intros L. rewrite !occ_lsum. destruct (samples i) as [|s0 [|s1 [|]]] eqn:Es; try discriminate. unfold row_writes. rewrite Es. cbn [seq flat_map nth app wdiv NumR w0]. rewrite !tvals_cons. change (tvals [] u v) with (@nil R).
  rewrite (Nat.eqb_sym s0 u), (Nat.eqb_sym s1 u), (Nat.eqb_sym s0 v), (Nat.eqb_sym s1 v). cbn [lsum].
  repeat match goal with |- context [Nat.eqb ?u ?v] => destruct (Nat.eqb_spec u v) end; cbn [andb lsum app]; first [lra | exfalso; lia].
Qed.
