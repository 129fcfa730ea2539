(** Approximate PageRank in double arithmetic: comparison with the exact personalised PageRank. *)
From Verif Require Import Base Num RSum Sparse SparseFacts Graph GraphSpec GraphFacts GraphProps1 GraphProps2 GraphProps5 Cluster ClusterSpec ClusterCC ClusterPR ClusterPR2 ClusterSweep ClusterInst Ppr ClusterTop FloatFacts GraphFloat PageRankFloat.
From Coq Require Import ZArith Reals Lra Lia SpecFloat.
From Flocq Require Import Core BinarySingleNaN Relative.
Local Open Scope R_scope.

(** ** The dual of PageRank on a symmetric weighted graph *)
(** Lazy walk: stay with probability 1/2, otherwise move along an edge with probability proportional to its weight. *)
Definition lzw (n : nat) (w : nat -> nat -> R) (u v : nat) : R := (if (u =? v)%nat then / 2 else 0) + w u v / (2 * rsum n (w u)).

Lemma max_exists n (h : nat -> R) : (0 < n)%nat -> exists k, (k < n)%nat /\ forall j, (j < n)%nat -> h j <= h k.
Proof.
  induction n as [|n IH]; [lia|]. intros _. destruct n as [|n].
  - exists 0%nat. split; [lia|]. intros j Hj. replace j with 0%nat by lia. lra.
  - destruct IH as (k & Hk & M); [lia|]. destruct (Rle_dec (h (S n)) (h k)) as [L|L].
    + exists k. split; [lia|]. intros j Hj. destruct (Nat.eq_dec j (S n)) as [->|]; auto. apply M. lia.
    + exists (S n). split; [lia|]. intros j Hj. destruct (Nat.eq_dec j (S n)) as [->|]; [lra|]. specialize (M j). assert (h j <= h k) by (apply M; lia). lra.
Qed.

Section Dual.
  Variable n : nat.
  Variable w : nat -> nat -> R.
  Variable alpha : R.
  Hypothesis Wsym : forall u v, w u v = w v u.
  Hypothesis Wnn : forall u v, 0 <= w u v.
  Hypothesis Ha : 0 < alpha <= 1.
  Let D (k : nat) : R := rsum n (w k).
  Let M := lzw n w.
  Lemma D_nonneg u : 0 <= D u. Proof. apply rsum_nonneg; auto. Qed.
  Lemma D_zero u v : (v < n)%nat -> D u = 0 -> w u v = 0.
  Proof. intros Hv E. pose proof (rsum_ge_elt n (w u) v (fun k _ => Wnn u k) Hv) as L. fold (D u) in L. specialize (Wnn u v). lra. Qed.
  Lemma lzw_nonneg u v : 0 <= M u v.
  Proof.
    unfold M, lzw. fold (D u). assert (0 <= w u v / (2 * D u)).
    { pose proof (D_nonneg u). destruct (Req_dec (D u) 0) as [E|E].
      - rewrite E, Rmult_0_r. unfold Rdiv. rewrite Rinv_0. lra.
      - apply Rmult_le_pos; auto. left. apply Rinv_0_lt_compat. lra. }
    destruct (u =? v)%nat; lra.
  Qed.
  Lemma lzw_sub u : (u < n)%nat -> rsum n (M u) <= 1.
  Proof.
    intros Hu. unfold M, lzw. rewrite rsum_plus. rewrite (rsum_delta' n u (fun _ => / 2)) by auto. unfold Rdiv. rewrite rsum_scal_r. fold (D u).
    destruct (Req_dec (D u) 0) as [E|E]; [rewrite E; lra|]. rewrite Rinv_mult. replace (D u * (/ 2 * / D u)) with (/ 2) by (field; auto). lra.
  Qed.
  Lemma lzw_apply u (h : nat -> R) : (u < n)%nat -> rsum n (fun k => M u k * h k) = h u / 2 + rsum n (fun k => w u k * h k) / (2 * D u).
  Proof.
    intros Hu. unfold M, lzw. fold (D u). transitivity (rsum n (fun k => (if (u =? k)%nat then h k / 2 else 0) + w u k * h k * / (2 * D u))).
    - apply rsum_ext. intros k _. destruct (u =? k)%nat; unfold Rdiv; ring.
    - rewrite rsum_plus. rewrite (rsum_delta' n u (fun k => h k / 2)) by auto. rewrite rsum_scal_r. reflexivity.
  Qed.

  (** The probability that the walk from k, stopped with probability alpha before every step, stops at v. *)
  Definition is_stop (v : nat) (h : nat -> R) : Prop :=
    (forall k, 0 <= h k <= 1) /\ (forall k, (k < n)%nat -> D k = 0 -> h k = 0) /\ (forall k, (n <= k)%nat -> h k = 0) /\
    forall k, (k < n)%nat -> 0 < D k -> h k = alpha * (if (k =? v)%nat then 1 else 0) + (1 - alpha) * rsum n (fun j => M k j * h j).

  Lemma stop_exists v : (v < n)%nat -> 0 < D v -> exists h, is_stop v h.
  Proof.
    intros Hv Dv.
    destruct (ppr_exists_nonneg n M alpha lzw_nonneg lzw_sub Ha (fun k => if (k =? v)%nat then 1 else 0)) as (q & Hq & Q0).
    { intros u. destruct (u =? v)%nat; lra. }
    set (h := fun k => if lt_dec k n then (if Req_EM_T (D k) 0 then 0 else q k * D v / D k) else 0).
    assert (Hh0 : forall k, 0 <= h k).
    { intros k. unfold h. destruct (lt_dec k n); [|lra]. pose proof (D_nonneg k). destruct (Req_EM_T (D k) 0); [lra|].
      apply Rmult_le_pos; [apply Rmult_le_pos; auto; lra|left; apply Rinv_0_lt_compat; lra]. }
    assert (Heq : forall k, (k < n)%nat -> 0 < D k -> h k = alpha * (if (k =? v)%nat then 1 else 0) + (1 - alpha) * rsum n (fun j => M k j * h j)).
    { intros k Hk Dk. rewrite lzw_apply by auto.
      assert (E : q k = alpha * (if (k =? v)%nat then 1 else 0) + (1 - alpha) * (q k / 2 + rsum n (fun u => w k u * h u) / (2 * D v))).
      { rewrite (Hq k Hk) at 1. f_equal. f_equal.
        transitivity (rsum n (fun u => (if (u =? k)%nat then q u / 2 else 0) + w k u * h u * / (2 * D v))).
        - apply rsum_ext. intros u Hu. unfold M, lzw. fold (D u). rewrite (Wsym k u). unfold h. destruct (lt_dec u n); [|lia].
          destruct (Req_EM_T (D u) 0) as [E|E].
          + rewrite (D_zero u k Hk E). destruct (u =? k)%nat; unfold Rdiv; ring.
          + destruct (u =? k)%nat; field; lra.
        - rewrite rsum_plus. rewrite (rsum_delta n k (fun u => q u / 2)) by auto. rewrite rsum_scal_r. reflexivity. }
      assert (Eh : h k = q k * D v / D k).
      { unfold h. destruct (lt_dec k n); [|lia]. destruct (Req_EM_T (D k) 0); [lra|reflexivity]. }
      rewrite Eh at 1. rewrite E. rewrite Eh. destruct (Nat.eqb_spec k v) as [->|]; field; lra. }
    exists h. repeat split; auto.
    - destruct (max_exists n h) as (m & Hm & Mx); [lia|].
      assert (h m <= 1).
      { destruct (Req_dec (D m) 0) as [E|E].
        - unfold h. destruct (lt_dec m n); [|lia]. destruct (Req_EM_T (D m) 0); [lra|tauto].
        - pose proof (D_nonneg m) as Dm. pose proof (Heq m Hm ltac:(lra)) as E1.
          assert (rsum n (fun j => M m j * h j) <= h m).
          { apply Rle_trans with (rsum n (fun j => M m j * h m)).
            - apply rsum_le. intros j Hj. apply Rmult_le_compat_l; [apply lzw_nonneg|auto].
            - rewrite rsum_scal_r. rewrite <- (Rmult_1_l (h m)) at 2. apply Rmult_le_compat_r; auto. apply lzw_sub; auto. }
          assert ((1 - alpha) * rsum n (fun j => M m j * h j) <= (1 - alpha) * h m) by (apply Rmult_le_compat_l; lra).
          assert (alpha * (if (m =? v)%nat then 1 else 0) <= alpha) by (destruct (m =? v)%nat; lra).
          assert (alpha * h m <= alpha * 1) by lra. apply Rmult_le_reg_l in H2; lra. }
      destruct (lt_dec k n) as [Hk|Hk]; [apply Rle_trans with (h m); auto|]. unfold h. destruct (lt_dec k n); [tauto|lra].
    - intros k Hk E. unfold h. destruct (lt_dec k n); [|lia]. destruct (Req_EM_T (D k) 0); [lra|tauto].
    - intros k Hk. unfold h. destruct (lt_dec k n); [lia|lra].
  Qed.
  (** PageRank of v = expected stopping probability at v from the starting distribution. *)
  Lemma stop_ppr v h s q : (v < n)%nat -> 0 < D v -> is_stop v h -> is_ppr n M alpha s q -> q v = rsum n (fun k => s k * h k).
  Proof.
    intros Hv Dv (H1 & H2 & _ & H3) Hq.
    assert (E : rsum n (fun k => q k * h k) = alpha * rsum n (fun k => s k * h k) + (rsum n (fun u => q u * h u) - alpha * q v)).
    { rewrite (rsum_ext n (fun k => q k * h k) (fun k => alpha * (s k * h k) + rsum n (fun u => q u * ((1 - alpha) * (M u k * h k))))) at 1.
      - rewrite rsum_plus, rsum_scal. f_equal. rewrite rsum_swap.
        assert (alpha * q v = rsum n (fun u => if (u =? v)%nat then alpha * q u else 0)) as -> by (rewrite (rsum_delta n v (fun u => alpha * q u)); auto).
        rewrite <- rsum_minus. apply rsum_ext. intros u Hu. rewrite rsum_scal. rewrite rsum_scal. destruct (Req_dec (D u) 0) as [Z|Z].
        + rewrite lzw_apply by auto. rewrite (H2 u Hu Z). rewrite (rsum_zero n (fun k => w u k * h k)) by (intros k Hk; rewrite (D_zero u k Hk Z); lra).
          destruct (Nat.eqb_spec u v) as [->|]; [lra|]. unfold Rdiv. lra.
        + pose proof (D_nonneg u). pose proof (H3 u Hu ltac:(lra)) as E. destruct (u =? v)%nat.
          * replace ((1 - alpha) * rsum n (fun k => M u k * h k)) with (h u - alpha) by lra. ring.
          * replace ((1 - alpha) * rsum n (fun k => M u k * h k)) with (h u) by lra. ring.
      - intros k Hk. rewrite (Hq k Hk) at 1. rewrite Rmult_plus_distr_r, Rmult_assoc. f_equal.
        rewrite <- rsum_scal, <- rsum_scal_r. apply rsum_ext. intros u _. ring. }
    assert (alpha * q v = alpha * rsum n (fun k => s k * h k)) as E2 by lra. apply Rmult_eq_reg_l in E2; lra.
  Qed.
  (** PageRank of a residual bounded by c times the degrees. *)
  Lemma ppr_small c s q v : 0 <= c -> (v < n)%nat -> 0 < D v -> (forall k, (k < n)%nat -> 0 <= s k) ->
    (forall k, (k < n)%nat -> 0 < D k -> s k <= c * D k) -> is_ppr n M alpha s q -> 0 <= q v <= c * D v.
  Proof.
    intros Hc Hv Dv S0 S1 Hq. split; [apply (ppr_nonneg n M alpha lzw_nonneg lzw_sub Ha s); auto|].
    set (d := fun u => if Req_EM_T (D u) 0 then s u else c * D u).
    apply Rle_trans with (d v); [|unfold d; destruct (Req_EM_T (D v) 0); lra].
    apply (ppr_below n M alpha lzw_nonneg lzw_sub Ha s); auto. intros x Hx.
    assert (Esum : rsum n (fun u => d u * M u x) = d x / 2 + c * (D x / 2)).
    { transitivity (rsum n (fun u => (if (u =? x)%nat then d u / 2 else 0) + w x u * (c * / 2))).
      - apply rsum_ext. intros u Hu. unfold M, lzw. fold (D u). rewrite (Wsym x u).
        assert (d u * (w u x / (2 * D u)) = w u x * (c * / 2)) as <-.
        { unfold d. destruct (Req_EM_T (D u) 0) as [E0|E0].
          - rewrite (D_zero u x Hx E0). unfold Rdiv. lra.
          - field. auto. }
        destruct (u =? x)%nat; lra.
      - rewrite rsum_plus, rsum_scal_r. rewrite (rsum_delta n x (fun u => d u / 2)) by auto. fold (D x). lra. }
    rewrite Esum. unfold d. pose proof (D_nonneg x) as Dx. destruct (Req_EM_T (D x) 0) as [E0|E0].
    - rewrite E0. pose proof (S0 x Hx). assert (0 <= (1 - alpha) * s x) by (apply Rmult_le_pos; lra).
      assert (alpha * s x <= s x) by (rewrite <- (Rmult_1_l (s x)) at 2; apply Rmult_le_compat_r; lra). lra.
    - pose proof (S1 x Hx ltac:(lra)). assert (alpha * s x <= alpha * (c * D x)) by (apply Rmult_le_compat_l; lra). lra.
  Qed.
End Dual.

(** ** Graphs with double weights *)
Record pr_graph (g : graph f64) (kap delta : R) : Prop := {
  pg_reach : reachable g;
  pg_wt : forall i j x, sp_get (g_adj g) i j = Some x -> dbl x /\ bpow radix2 (-100) <= f2r x;
  pg_loop : forall v, fw g v v = 0;
  pg_deg : forall v, (v < number_of_vertices g)%nat -> exists d, snd (degree g (Z.of_nat v)) = Ok d /\ dbl d /\
    (f2r d = 0 \/ delta <= f2r d <= bpow radix2 100) /\ Rabs (f2r d - fdeg g v) <= kap * f2r d }.

Section OnGraph.
  Variable g : graph f64.
  Variables kap delta : R.
  Hypothesis G : pr_graph g kap delta.
  Hypothesis Hkap : 0 <= kap < 1.
  Hypothesis Hdelta : 0 < delta.
  Let n := number_of_vertices g.
  Lemma pg_finite : finite_weights g.
  Proof. intros i j v E. destruct (pg_wt _ _ _ G i j v E). split; auto. pose proof (bpow_gt_0 radix2 (-100)). lra. Qed.
  Lemma pg_nozero : no_stored_zero g.
  Proof.
    intros i j v E. destruct (pg_wt _ _ _ G i j v E) as [Dv L]. destruct (weqb v w0) eqn:Z; auto.
    apply feqb_spec in Z; auto using dbl_0. rewrite f2r_0 in Z. pose proof (bpow_gt_0 radix2 (-100)). lra.
  Qed.
  Lemma fw_sym u v : fw g u v = fw g v u.
  Proof. unfold fw, weight, coeff. now rewrite (reachable_sym g (pg_reach _ _ _ G) u v). Qed.
  Lemma fw_nn u v : 0 <= fw g u v. Proof. apply fw_nonneg, pg_finite. Qed.
  Lemma fw_cases u v : fw g u v = 0 \/ (bpow radix2 (-100) <= fw g u v /\ weqb (weight g u v) w0 = false).
  Proof.
    unfold fw, weight, coeff. destruct (sp_get (g_adj g) u v) as [x|] eqn:E; cbn [o0]; [|left; apply f2r_0].
    right. split; [now apply (pg_wt _ _ _ G u v)|]. now apply (pg_nozero u v).
  Qed.
  Lemma fdeg_sum v : fdeg g v = rsum n (fw g v).
  Proof. unfold fdeg. rewrite (pg_loop _ _ _ G). fold n. lra. Qed.
  Lemma pg_nbe v : (v < n)%nat -> NoDup (nb (lg_of_graph g) v) /\
    (forall u, In u (nb (lg_of_graph g) v) <-> (u < n)%nat /\ 0 < fw g v u) /\
    (forall e, In e (nbe (lg_of_graph g) v) -> ewt e = weight g v (v2 e)).
  Proof.
    intros Hv. destruct (neighbors_exact g v (pg_reach _ _ _ G) Hv) as (es & E & Hss & He).
    unfold nb, nbe. simpl. rewrite E. split; [now apply ss_lt_nodup|]. split.
    - intros u. rewrite in_map_iff. pose proof (bpow_gt_0 radix2 (-100)). split.
      + intros (e & <- & Hin). apply He in Hin. destruct Hin as (_ & Hu & Ew & Hne). split; auto.
        destruct (fw_cases v (v2 e)) as [Z|[L _]]; [|lra]. exfalso. unfold fw in Z. rewrite <- Ew in Z.
        assert (dbl (ewt e)) as De.
        { rewrite Ew. apply (weight_approx g v (v2 e) pg_finite). }
        enough (weqb (ewt e) w0 = true) by congruence. apply feqb_spec; auto using dbl_0.
      + intros [Hu Hp]. exists (mkEdge v u (weight g v u)). split; auto. apply He. simpl.
        repeat split; auto. destruct (fw_cases v u) as [Z|[L Nz]]; [lra|auto].
    - intros e Hin. apply He in Hin. tauto.
  Qed.
  Lemma pg_lsum v f : (v < n)%nat -> (forall u, fw g v u = 0 -> f u = 0) -> lsum f (nb (lg_of_graph g) v) = rsum n f.
  Proof.
    intros Hv Hf. destruct (pg_nbe v Hv) as (Hnd & Hin & _). unfold rsum.
    transitivity (lsum (fun u => if nmem u (nb (lg_of_graph g) v) then f u else 0) (seq 0 n)).
    - rewrite <- lsum_inter; auto using seq_NoDup. apply lsum_ext. intros u Hu.
      apply Hin in Hu. destruct (nmem u (seq 0 n)) eqn:E; auto. apply nmem_false in E. exfalso. apply E, in_seq. lia.
    - apply lsum_ext. intros u Hu. apply in_seq in Hu. destruct (nmem u (nb (lg_of_graph g) v)) eqn:E; auto.
      symmetry. apply Hf. apply nmem_false in E. rewrite Hin in E. pose proof (fw_nn v u). destruct (Req_dec (fw g v u) 0); auto. exfalso. apply E. split; [lia|lra].
  Qed.
  Lemma pg_esum v h : (v < n)%nat -> lsum (fun e => f2r (ewt e) * h (v2 e)) (nbe (lg_of_graph g) v) = rsum n (fun u => fw g v u * h u).
  Proof.
    intros Hv. destruct (pg_nbe v Hv) as (_ & _ & He). rewrite <- (pg_lsum v (fun u => fw g v u * h u)) by (auto; intros u ->; lra).
    unfold nb. rewrite lsum_map. apply lsum_ext. intros e Hin. unfold fw. now rewrite (He e Hin).
  Qed.
  Lemma pg_dg v : (v < n)%nat -> dbl (dg (lg_of_graph g) v) /\ (f2r (dg (lg_of_graph g) v) = 0 \/ delta <= f2r (dg (lg_of_graph g) v) <= bpow radix2 100) /\
    Rabs (f2r (dg (lg_of_graph g) v) - fdeg g v) <= kap * f2r (dg (lg_of_graph g) v).
  Proof. intros Hv. destruct (pg_deg _ _ _ G v Hv) as (d & E & H). unfold dg. simpl. rewrite E. exact H. Qed.
  Lemma pg_dg_pos v : (v < n)%nat -> (0 < fdeg g v <-> 0 < f2r (dg (lg_of_graph g) v)).
  Proof.
    intros Hv. destruct (pg_dg v Hv) as (_ & Hd & Hk). apply Rabs_le_inv in Hk. split; intros P.
    - destruct Hd as [Z|]; [|lra]. rewrite Z in Hk. lra.
    - assert (kap * f2r (dg (lg_of_graph g) v) < 1 * f2r (dg (lg_of_graph g) v)) by (apply Rmult_lt_compat_r; lra). lra.
  Qed.
  Lemma pg_flg : flg_spec (lg_of_graph g) kap delta.
  Proof.
    constructor.
    - apply graph_lg_ok; [apply (pg_reach _ _ _ G)|apply pg_nozero].
    - intros v Hv. apply graph_has in Hv. now apply pg_nbe.
    - intros v Hv. apply graph_has in Hv. destruct (pg_nbe v Hv) as (_ & Hin & _). rewrite Hin, (pg_loop _ _ _ G). lra.
    - intros v e Hv He. apply graph_has in Hv. destruct (pg_nbe v Hv) as (_ & Hin & Hw). rewrite (Hw e He).
      assert (In (v2 e) (nb (lg_of_graph g) v)) as I by (apply in_map_iff; eauto). apply Hin in I. destruct I as [_ P]. split.
      + apply (weight_approx g v (v2 e) pg_finite).
      + fold (fw g v (v2 e)). destruct (fw_cases v (v2 e)); lra.
    - intros v Hv. apply graph_has in Hv. destruct (pg_dg v Hv) as (? & ? & _). auto.
    - intros v Hv. apply graph_has in Hv. destruct (pg_dg v Hv) as (_ & _ & Hk).
      rewrite (lsum_ext _ (fun e => f2r (ewt e) * one (v2 e))) by (intros; unfold one; lra). rewrite (pg_esum v one Hv).
      rewrite (rsum_ext _ _ (fw g v)) by (intros; unfold one; lra). rewrite <- fdeg_sum. now rewrite Rabs_minus_sym.
    - intros v u Hv Hu. apply graph_has in Hv. destruct (pg_nbe v Hv) as (_ & Hin & _). apply Hin in Hu. destruct Hu as [Hu P].
      apply pg_dg_pos; auto. rewrite fdeg_sum. apply Rlt_le_trans with (fw g u v); [now rewrite fw_sym|].
      apply (rsum_ge_elt n (fw g u)); auto. intros; apply fw_nn.
  Qed.
End OnGraph.

Lemma fsum_rsum n a (x : sprs f64) : vwf x -> (forall k, In k (vkeys x) -> (k < n)%nat) -> fsum a x = rsum n (fun k => fv x k * a k).
Proof.
  intros Hx Hk. pose proof (vkeys_sorted x Hx) as Hss. pose proof (ss_lt_nodup _ Hss) as Hnd.
  transitivity (lsum (fun k => fv x k * a k) (vkeys x)).
  - unfold fsum, vkeys. rewrite lsum_map. apply lsum_ext. intros [k t] He. cbn [fst snd].
    unfold fv, vget, coeff, sp_get. rewrite (In_col_get (sp_col x 0) k t); auto.
  - unfold rsum. transitivity (lsum (fun k => if nmem k (vkeys x) then fv x k * a k else 0) (seq 0 n)).
    + rewrite <- lsum_inter; auto using seq_NoDup. apply lsum_ext. intros k Hin.
      destruct (nmem k (seq 0 n)) eqn:E; auto. apply nmem_false in E. exfalso. apply E, in_seq. specialize (Hk k Hin). lia.
    + apply lsum_ext. intros k _. destruct (nmem k (vkeys x)) eqn:E; auto.
      apply nmem_false in E. unfold fv. rewrite vget_keys by auto. rewrite f2r_0. ring.
Qed.

(** Total weight of a seed vector. *)
Definition seed_mass (n : nat) (s : sprs f64) : R := rsum n (fv s).

Section Accuracy.
  Variable g : graph f64.
  Variables kap delta : R.
  Variables alpha eps : f64.
  Hypothesis G : pr_graph g kap delta.
  Hypothesis Hkap : 0 <= kap < 1.
  Hypothesis Hdelta : 0 < delta.
  Hypothesis Da : dbl alpha.
  Hypothesis De : dbl eps.
  Hypothesis Ha : 0 < f2r alpha <= 1.
  Hypothesis He : 0 < f2r eps <= bpow radix2 100.
  Hypothesis Hbig : 4 * (20 * u64 + kap) <= f2r alpha * f2r eps * delta.
  Let n := number_of_vertices g.
  Let lg := lg_of_graph g.

  Lemma stop_dual v h : (v < n)%nat -> 0 < fdeg g v -> is_stop n (fw g) (f2r alpha) v h ->
    dual lg (f2r alpha) kap (fun k => if (k =? v)%nat then 1 else 0) h.
  Proof.
    intros Hv Dv (H1 & H2 & H0 & H3). split; [|split].
    - intros k. destruct (k =? v)%nat; [rewrite Rabs_R1|rewrite Rabs_R0]; lra.
    - intros k. rewrite Rabs_pos_eq; apply H1.
    - intros u Hu Du. apply graph_has in Hu. fold n in Hu.
      assert (0 < fdeg g u) as Fu by (apply (pg_dg_pos g kap delta G Hkap Hdelta u Hu); exact Du).
      rewrite (fdeg_sum g kap delta G) in Fu. fold n in Fu.
      rewrite (H3 u Hu Fu). rewrite lzw_apply by auto. unfold fstep, lg. rewrite (pg_esum g kap delta G Hkap u h Hu). fold n.
      destruct (pg_dg g kap delta G u Hu) as (_ & _ & Hk). fold lg in Hk, Du |- *. rewrite (fdeg_sum g kap delta G) in Hk. fold n in Hk.
      set (S := rsum n (fun k => fw g u k * h k)). set (F := rsum n (fw g u)) in *. set (dd := f2r (dg lg u)) in *.
      match goal with |- Rabs ?x <= _ => replace x with ((1 - f2r alpha) * ((S / F) * ((dd - F) / (2 * dd)))) by (field; split; lra) end.
      assert (0 <= S <= F) as SF.
      { split; [apply rsum_nonneg; intros; apply Rmult_le_pos; [apply (fw_nn g kap delta G)|apply H1]|].
        unfold S, F. apply rsum_le. intros k _. rewrite <- (Rmult_1_r (fw g u k)) at 2. apply Rmult_le_compat_l; [apply (fw_nn g kap delta G)|apply H1]. }
      assert (0 <= S / F <= 1) as Q.
      { split; [apply Rmult_le_pos; [lra|left; apply Rinv_0_lt_compat; lra]|]. apply Rmult_le_reg_r with F; [lra|]. unfold Rdiv. rewrite Rmult_assoc, Rinv_l by lra. lra. }
      assert (Rabs ((dd - F) / (2 * dd)) <= kap) as K.
      { unfold Rdiv. rewrite Rabs_mult. rewrite (Rabs_pos_eq (/ (2 * dd))) by (left; apply Rinv_0_lt_compat; lra).
        apply Rmult_le_reg_r with (2 * dd); [lra|]. rewrite Rmult_assoc, Rinv_l by lra. assert (0 <= kap * dd) by (apply Rmult_le_pos; lra). lra. }
      rewrite !Rabs_mult. rewrite (Rabs_pos_eq (1 - f2r alpha)) by lra. rewrite (Rabs_pos_eq (S / F)) by lra.
      apply Rle_trans with (1 * (1 * Rabs ((dd - F) / (2 * dd)))); [|lra].
      apply Rmult_le_compat; try lra; [apply Rmult_le_pos; [lra|apply Rabs_pos]|]. apply Rmult_le_compat_r; [apply Rabs_pos|lra].
  Qed.

  (** Error of the double computation. *)
  Definition pr_error : R := 4 * (20 * u64 + kap) / (f2r alpha * f2r eps * delta).

  Lemma seed_mass_ok (s : sprs f64) : vwf s -> (forall k, In k (vkeys s) -> (k < n)%nat) -> fmass s = seed_mass n s.
  Proof. intros Hv Hk. unfold fmass. rewrite (fsum_rsum n one s Hv Hk). apply rsum_ext. intros. unfold one. lra. Qed.

  Theorem graph_pagerank_double fuel (s p r : sprs f64) (q : nat -> R) : vwf s -> (forall k, dbl (vget s k) /\ 0 <= fv s k) -> seed_mass n s <= 1 ->
    approximate_pagerank fuel lg s alpha eps = Some (Ok (p, r)) ->
    is_ppr n (lzw n (fw g)) (f2r alpha) (fv s) q ->
    (forall k, dbl (vget p k) /\ 0 <= fv p k) /\ (forall k, dbl (vget r k) /\ 0 <= fv r k) /\
    (forall v, (v < n)%nat -> 0 < fdeg g v -> fv r v < f2r eps * (1 + u64) / (1 - kap) * fdeg g v) /\
    (forall v, (v < n)%nat -> 0 < fdeg g v -> fv p v - pr_error <= q v <= fv p v + f2r eps * (1 + u64) / (1 - kap) * fdeg g v + pr_error).
  Proof.
    intros Hv Os Hm E Hq. pose proof (pg_flg g kap delta G Hkap Hdelta) as Hs. pose proof (fs_ok _ _ _ Hs) as Hlg.
    destruct (apr_return _ _ _ _ _ _ _ E) as (_ & _ & _ & _ & _ & (ds & q0 & mem & Ed & _) & _).
    assert (Hks : forall k, In k (vkeys s) -> (k < n)%nat) by (intros k Hk; apply graph_has; apply (apr_keys_exist lg s ds Hlg Hv Ed k Hk)).
    destruct (apr_post _ _ _ _ _ _ _ Hlg Hv E) as (Hp & Hr & Hkp & Hkr & _).
    assert (Hkp' : forall k, In k (vkeys p) -> (k < n)%nat) by (intros k Hk; apply graph_has; apply Hkp; auto).
    assert (Hkr' : forall k, In k (vkeys r) -> (k < n)%nat) by (intros k Hk; apply graph_has; apply Hkr; auto).
    rewrite <- (seed_mass_ok s Hv Hks) in Hm.
    destruct (pagerank_double_result lg kap delta alpha eps Hs (proj1 Hkap) Hdelta Da De Ha He Hbig fuel s p r Hv Os Hm E) as (Op & Or & Rs & _ & Hd).
    assert (Hres : forall v, (v < n)%nat -> 0 < fdeg g v -> fv r v < f2r eps * (1 + u64) / (1 - kap) * fdeg g v).
    { intros v Hvn Dv. assert (0 < f2r (dg lg v)) as P by (apply (pg_dg_pos g kap delta G Hkap Hdelta v Hvn); auto).
      pose proof (Rs v (proj2 (graph_has g v) Hvn) P) as L. apply Rlt_le_trans with (1 := L).
      destruct (pg_dg g kap delta G v Hvn) as (_ & _ & K). apply Rabs_le_inv in K. fold lg in K. pose proof u64_pos.
      assert (f2r (dg lg v) <= fdeg g v / (1 - kap)) as B.
      { apply Rmult_le_reg_r with (1 - kap); [lra|]. unfold Rdiv. rewrite Rmult_assoc, Rinv_l by lra. lra. }
      apply Rle_trans with (f2r eps * (1 + u64) * f2r (dg lg v)); [right; ring|].
      replace (f2r eps * (1 + u64) / (1 - kap) * fdeg g v) with (f2r eps * (1 + u64) * (fdeg g v / (1 - kap))) by (field; lra).
      apply Rmult_le_compat_l; [apply Rmult_le_pos; lra|exact B]. }
    split; [exact Op|]. split; [exact Or|]. split; [exact Hres|].
    intros v Hvn Dv. pose proof Dv as Dv'. rewrite (fdeg_sum g kap delta G) in Dv'. fold n in Dv'.
    pose proof (fw_sym g kap delta G) as Ws. pose proof (fw_nn g kap delta G) as Wn.
    destruct (stop_exists n (fw g) (f2r alpha) Ws Wn Ha v Hvn Dv') as (h & Hh).
    pose proof (stop_dual v h Hvn Dv Hh) as Hdu.
    specialize (Hd _ h kap (proj1 Hkap) Hdu).
    rewrite (fsum_rsum n _ p Hp Hkp'), (fsum_rsum n _ r Hr Hkr'), (fsum_rsum n _ s Hv Hks) in Hd.
    rewrite <- (stop_ppr n (fw g) (f2r alpha) Wn Ha v h (fv s) q Hvn Dv' Hh Hq) in Hd.
    destruct (ppr_exists n (lzw n (fw g)) (f2r alpha) (lzw_nonneg n (fw g) Wn) (lzw_sub n (fw g)) Ha (fv r)) as [qr Hqr].
    rewrite <- (stop_ppr n (fw g) (f2r alpha) Wn Ha v h (fv r) qr Hvn Dv' Hh Hqr) in Hd.
    rewrite (rsum_ext n _ (fun k => if (k =? v)%nat then fv p k else 0)) in Hd by (intros k _; destruct (k =? v)%nat; lra).
    rewrite (rsum_delta n v (fv p)) in Hd by exact Hvn.
    change (cerr delta alpha eps kap) with pr_error in Hd. apply Rabs_le_inv in Hd.
    assert (0 <= qr v <= f2r eps * (1 + u64) / (1 - kap) * fdeg g v).
    { rewrite (fdeg_sum g kap delta G). fold n. pose proof u64_pos.
      apply (ppr_small n (fw g) (f2r alpha) Ws Wn Ha _ (fv r)); auto.
      - apply Rmult_le_pos; [apply Rmult_le_pos; lra|left; apply Rinv_0_lt_compat; lra].
      - intros k _. apply Or.
      - intros k Hk Dk. left. assert (Dk' := Dk). unfold n in Dk'. rewrite <- (fdeg_sum g kap delta G) in Dk'.
        pose proof (Hres k Hk Dk') as L. rewrite (fdeg_sum g kap delta G) in L. exact L. }
    lra.
  Qed.

  Theorem graph_pagerank_double_total fuel (s : sprs f64) : vwf s -> (forall k, dbl (vget s k) /\ 0 <= fv s k) -> seed_mass n s <= 1 ->
    (0 < sp_rows s <= n)%nat -> 4 < INR fuel * (f2r alpha * f2r eps * delta) ->
    exists p r, approximate_pagerank fuel lg s alpha eps = Some (Ok (p, r)).
  Proof.
    intros Hv Os Hm Hrw Hf. pose proof (pg_flg g kap delta G Hkap Hdelta) as Hs.
    assert (Hks : forall k, In k (vkeys s) -> (k < n)%nat).
    { intros k Hk. destruct Hv as [Hc Hw]. pose proof (sp_wf_col s 0 Hw) as [_ Hlt]. unfold vkeys in Hk. rewrite Forall_forall in Hlt. specialize (Hlt _ Hk). cbv beta in Hlt. lia. }
    pose proof (seed_mass_ok s Hv Hks) as Em. rewrite <- Em in Hm.
    apply (pagerank_double_total lg kap delta alpha eps Hs (proj1 Hkap) Hdelta Da De Ha He Hbig fuel s); auto.
    - intros k Hk. apply graph_has. auto.
    - unfold lg. cbn [lg_exists lg_of_graph]. apply vertex_exists_spec. fold n. unfold n, number_of_vertices in *. lia.
    - apply Rle_lt_trans with 1; [exact Hm|]. lra.
  Qed.
End Accuracy.

(** ** Which graphs qualify *)
Lemma int_pr_graph g : reachable g -> int_weights g -> no_stored_zero g -> fvol g <= two53 -> (forall v, fw g v v = 0) -> pr_graph g 0 1.
Proof.
  intros Hr Hi Hz Hvol Hl.
  assert (Hge : forall z, small_int z -> 0 <= f2r (zf z) -> f2r (zf z) <> 0 -> 1 <= f2r (zf z)).
  { intros z Hz0 P N. rewrite (proj2 (zf_spec z Hz0)) in *. apply (le_IZR 0) in P. apply (IZR_le 1). enough (z <> 0)%Z by lia. intros ->. now apply N. }
  constructor; auto.
  - intros i j x E. destruct (Hi i j x E) as [I P]. split; [now apply isint_dbl|]. destruct I as (z & Hz0 & ->).
    apply Rle_trans with 1; [change 1 with (bpow radix2 0); apply bpow_le; lia|]. apply Hge; auto. intros Z.
    pose proof (Hz i j _ E) as Nz. enough (weqb (zf z) w0 = true) by congruence. apply feqb_spec; [now apply zf_spec|apply dbl_0|now rewrite f2r_0].
  - intros v Hv. destruct (int_degree g Hr Hi Hvol v Hv) as (d & E & I & Ed). exists d. split; auto. split; [now apply isint_dbl|].
    pose proof (deg_le_vol g Hi Hvol v Hv) as L. pose proof (fdeg_nonneg g v (int_finite g Hi)) as P. split.
    + destruct (Req_dec (f2r d) 0) as [|N]; auto. right. destruct I as (z & Hz0 & ->). split; [apply Hge; auto; lra|].
      rewrite Ed. apply Rle_trans with (1 := L). unfold two53. apply bpow_le. lia.
    + rewrite Ed, Rminus_diag_eq by reflexivity. rewrite Rabs_R0. lra.
Qed.
(** Arbitrary weights: the rounding error of the degrees enters. *)
Lemma real_pr_graph g mu : reachable g -> (forall i j x, sp_get (g_adj g) i j = Some x -> dbl x /\ bpow radix2 (-100) <= f2r x) ->
  (forall v, fw g v v = 0) -> gam (number_of_vertices g + 1) <= / 2 -> 0 < mu ->
  (forall v, (v < number_of_vertices g)%nat -> fdeg g v = 0 \/ mu <= fdeg g v <= bpow radix2 99) ->
  pr_graph g (2 * gam (number_of_vertices g + 1)) (mu / 2).
Proof.
  intros Hr Hw Hl Hg Hmu Hd. set (n := number_of_vertices g) in *.
  assert (Hf : finite_weights g).
  { intros i j v E. destruct (Hw i j v E). split; auto. pose proof (bpow_gt_0 radix2 (-100)). lra. }
  assert (G0 : 0 <= gam (n + 1)) by (unfold gam; pose proof (pow_u_ge1 (n + 1)); lra).
  constructor; auto. intros v Hv.
  assert (Hle : (row_entries g v + 1 <= n + 1)%nat) by (pose proof (row_entries_le g v); unfold n; lia).
  assert (Gm : gam (row_entries g v + 1) <= gam (n + 1)).
  { unfold gam. pose proof u64_pos. assert ((1 + u64) ^ (row_entries g v + 1) <= (1 + u64) ^ (n + 1)) by (apply Rle_pow; [lra|lia]). lra. }
  pose proof (fdeg_nonneg g v Hf) as P.
  assert (B99 : fdeg g v <= bpow radix2 99) by (pose proof (bpow_gt_0 radix2 99); destruct (Hd v Hv) as [Z|]; lra).
  destruct (degree_error g v Hr Hf Hv) as (d & E & Dd & Er).
  { assert ((1 + u64) ^ (row_entries g v + 1) <= 2) by (unfold gam in Gm, Hg; lra).
    apply Rle_lt_trans with (2 * bpow radix2 99).
    - apply Rmult_le_compat; auto. pose proof (pow_u_ge1 (row_entries g v + 1)). lra.
    - change 2 with (bpow radix2 1). rewrite bp. unfold overflow. apply bpow_lt. lia. }
  exists d. split; auto. split; auto.
  assert (gam (row_entries g v + 1) * fdeg g v <= gam (n + 1) * fdeg g v) as E1 by (apply Rmult_le_compat_r; auto).
  assert (gam (n + 1) * fdeg g v <= / 2 * fdeg g v) as E2 by (apply Rmult_le_compat_r; auto).
  apply Rabs_le_inv in Er. split.
  - destruct (Hd v Hv) as [Z|[L U]]; [left; rewrite Z in *; lra|right]. split; [lra|].
    change 100%Z with (1 + 99)%Z. rewrite <- bp. change (bpow radix2 1) with 2. lra.
  - apply Rabs_le. assert (fdeg g v <= 2 * f2r d) by lra.
    assert (gam (n + 1) * fdeg g v <= gam (n + 1) * (2 * f2r d)) by (apply Rmult_le_compat_l; auto). lra.
Qed.

(** ** local_cluster in doubles *)
Definition c001_f64 : f64 := S754_finite false 5764607523034235 (-59).
Lemma c001_spec : dbl c001_f64 /\ / 100 <= f2r c001_f64 <= / 99.
Proof.
  split; [split; vm_compute; reflexivity|]. unfold f2r, c001_f64. cbn [SF2R]. unfold F2R. cbn [Fnum Fexp cond_Zopp].
  replace (bpow radix2 (-59)) with (/ IZR (2 ^ 59)) by reflexivity. split; lra.
Qed.
Lemma sweep_loop_total {W} `{Num W} (lg : lgraph W) tot : lg_ok lg -> forall vs ds set cut vol best bi k, (forall v, In v vs -> lg_has lg v) ->
  length ds = length vs -> exists j, sweep_loop lg tot vs ds set cut vol best bi k = Ok j.
Proof.
  intros Hlg. induction vs as [|v vs IH]; intros ds set cut vol best bi k Hv Hl; [now exists bi|].
  destruct ds as [|d ds]; [discriminate|]. cbn [sweep_loop]. rewrite (lo_neigh lg Hlg v) by (apply Hv; now left). cbn [obind].
  destruct (wltb w0 _ && wltb _ best)%bool; apply IH; (now injection Hl) || (intros; apply Hv; now right).
Qed.
Lemma sweep_local_total {W} `{Num W} (lg : lgraph W) x tot : lg_ok lg -> (forall v, In v (inner_indices x) -> lg_has lg v) ->
  exists l, sweep_set_inner lg x tot = Ok l.
Proof.
  intros Hlg Hk. unfold sweep_set_inner.
  assert (Hv : forall v, In v (sweep_order x) -> lg_has lg v).
  { intros v Hin. apply Hk. eapply Permutation.Permutation_in; [|exact Hin]. apply Permutation.Permutation_sym, stable_sort_perm. }
  rewrite (lg_degrees_ok lg Hlg _ Hv). cbn [obind].
  destruct (sweep_loop_total lg tot Hlg (sweep_order x) (map (dg lg) (sweep_order x)) [] w0 w0 (wadd w1 w1) 0%nat 0%nat Hv (map_length _ _)) as [j ->].
  cbn [obind]. eauto.
Qed.
Lemma local_cluster_acl_after {W} `{Num W} (lg : lgraph W) fuel seed locality error p r : lg_ok lg -> lg_has lg seed ->
  wltb locality w0 = false -> wltb w1 locality = false -> wleb error w0 = false ->
  approximate_pagerank fuel lg (vset (sp_empty (S seed) 1) seed w1) locality error = Some (Ok (p, r)) ->
  exists l, local_cluster_acl fuel lg (Z.of_nat seed) locality error = Some (Ok l).
Proof.
  intros Hlg Hh E1 E2 E3 E. unfold local_cluster_acl. assert (lg_exists lg (Z.of_nat seed) = true) as -> by exact Hh.
  rewrite E1, E2, E3. cbn [negb orb]. destruct (Z.ltb_spec (Z.of_nat seed) 0); [lia|]. rewrite Nat2Z.id. rewrite E.
  destruct (seed_wf seed (w1 : W)) as [Hsw _]. destruct (apr_post lg _ _ _ _ _ _ Hlg Hsw E) as (Hp & _ & Hkp & _).
  assert (Hi : forall v, In v (inner_indices p) -> lg_has lg v) by (intros v Hv; apply Hkp; now rewrite <- inner_vkeys').
  rewrite (lg_degrees_ok lg Hlg _ Hi). cbn [obind].
  assert (Hlen : length (map (dg lg) (inner_indices p)) = length (vkeys p)) by (rewrite map_length, inner_vkeys' by auto; auto).
  destruct (sweep_local_total lg (div_entries p (map (dg lg) (inner_indices p))) w0 Hlg) as [l El].
  - intros v Hv. rewrite inner_vkeys' in Hv by (now apply div_entries_wf). rewrite div_entries_keys in Hv by auto. auto.
  - unfold sweep_set_local. rewrite El. eauto.
Qed.
Theorem local_cluster_double_total g fuel seed (target : f64) : reachable g -> int_weights g -> no_stored_zero g -> fvol g <= two53 -> (forall v, fw g v v = 0) ->
  (seed < number_of_vertices g)%nat -> dbl target -> / 1024 <= f2r target <= IZR (2 ^ 39) -> 401 * f2r target < INR fuel ->
  exists l, local_cluster c001_f64 fuel (lg_of_graph g) (Z.of_nat seed) target = Some (Ok l).
Proof.
  intros Hr Hi Hz Hvol Hl Hs Dt Ht Hf. pose proof (int_pr_graph g Hr Hi Hz Hvol Hl) as G. destruct c001_spec as [Dc Hc].
  destruct dbl_1 as [D1a D1b]. assert (dbl w1) as D1 by (split; auto).
  pose proof u64_pos as U0. pose proof u64_small as U1.
  assert (Hinv : IZR (2 ^ 39) * bpow radix2 (-39) = 1) by (change (2 ^ 39)%Z with (Zpower radix2 39); rewrite IZR_Zpower, bp by lia; reflexivity).
  pose proof (bpow_gt_0 radix2 (-39)) as B39.
  assert (Et : f2r w1 / f2r target = / f2r target) by (rewrite f2r_1; unfold Rdiv; ring).
  assert (Hq : bpow radix2 (-39) <= / f2r target <= 1024).
  { split.
    - apply Rmult_le_reg_r with (f2r target); [lra|]. rewrite Rinv_l by lra. rewrite <- Hinv, Rmult_comm. apply Rmult_le_compat_r; lra.
    - rewrite <- (Rinv_inv 1024). apply Rinv_le; lra. }
  destruct (near_div 0 w1 target 1 ltac:(lia)) as (De & _ & E).
  { rewrite <- f2r_1. apply near_exact; auto. rewrite f2r_1. lra. }
  { exact Dt. } { lra. }
  { right. unfold Rdiv. rewrite Rmult_1_l. split.
    - apply Rle_trans with (2 := proj1 Hq). unfold lo900. apply bpow_le. lia.
    - apply Rle_trans with (1 := proj2 Hq). change 1024 with (bpow radix2 10). unfold hi900. apply bpow_le. lia. }
  rewrite pow_1, pow_1 in E. unfold Rdiv in E. rewrite Rmult_1_l in E. set (eps := wdiv w1 target) in *.
  assert (/ f2r target * u64 <= 1024 * / 1024) as Q1 by (apply Rmult_le_compat; try lra; pose proof (Rinv_0_lt_compat (f2r target)); lra).
  assert (0 < / f2r target) as Q0 by (apply Rinv_0_lt_compat; lra).
  assert (/ f2r target * u64 <= / f2r target * / 1024) as Q2 by (apply Rmult_le_compat_l; lra).
  assert (He : 0 < f2r eps <= bpow radix2 100).
  { split; [lra|]. apply Rle_trans with 2048; [lra|]. change 2048 with (bpow radix2 11). apply bpow_le. lia. }
  assert (Hlow : / f2r target * (1023 / 1024) <= f2r eps) by lra.
  assert (Hcr : / 100 * (/ f2r target * (1023 / 1024)) <= f2r c001_f64 * f2r eps).
  { apply Rmult_le_compat; lra. }
  assert (Hbig : 4 * (20 * u64 + 0) <= f2r c001_f64 * f2r eps * 1).
  { assert (80 * u64 <= / 100 * (bpow radix2 (-39) * (1023 / 1024))); [|lra].
    replace u64 with (bpow radix2 (-39) * bpow radix2 (-14)) by (rewrite bp; reflexivity). change (bpow radix2 (-14)) with (/ IZR (2 ^ 14)).
    replace (IZR (2 ^ 14)) with 16384 by reflexivity. lra. }
  destruct (seed_wf seed (w1 : f64)) as [Hsw Hsk].
  assert (Hfv : forall k, vget (vset (sp_empty (S seed) 1) seed (w1 : f64)) k = if (k =? seed)%nat then w1 else w0).
  { intros k. rewrite vget_vset by (split; [apply sp_empty_ncols|apply sp_empty_wf]). destruct (k =? seed)%nat; reflexivity. }
  destruct (graph_pagerank_double_total g 0 1 c001_f64 eps G ltac:(lra) ltac:(lra) Dc De ltac:(lra) He Hbig fuel (vset (sp_empty (S seed) 1) seed w1)) as (p & r & Ep); auto.
  - intros k. unfold fv. rewrite Hfv. destruct (k =? seed)%nat; split; auto using dbl_0; [rewrite f2r_1|rewrite f2r_0]; lra.
  - unfold seed_mass. rewrite (rsum_ext _ _ (fun k => if (k =? seed)%nat then 1 else 0)).
    + rewrite (rsum_delta _ seed (fun _ => 1)) by exact Hs. lra.
    + intros k _. unfold fv. rewrite Hfv. destruct (k =? seed)%nat; [apply f2r_1|apply f2r_0].
  - change (sp_rows (vset (sp_empty (S seed) 1) seed (w1 : f64))) with (S seed). lia.
  - rewrite Rmult_1_r. apply Rlt_le_trans with (401 * f2r target * (/ 100 * (/ f2r target * (1023 / 1024)))).
    + replace (401 * f2r target * (/ 100 * (/ f2r target * (1023 / 1024)))) with (401 * 1023 / 102400) by (field; lra). lra.
    + apply Rmult_le_compat; lra.
  - unfold local_cluster. fold eps. assert (wleb target w0 = false) as ->.
    { destruct (wleb target w0) eqn:X; auto. apply fleb_spec in X; auto using dbl_0. rewrite f2r_0 in X. lra. }
    apply (local_cluster_acl_after (lg_of_graph g) fuel seed c001_f64 eps p r).
    + apply graph_lg_ok; auto.
    + now apply graph_has.
    + vm_compute. reflexivity.
    + vm_compute. reflexivity.
    + destruct (wleb eps w0) eqn:X; auto. apply fleb_spec in X; auto using dbl_0. rewrite f2r_0 in X. lra.
    + exact Ep.
Qed.

(** ** A tiny teleport probability: 1 - alpha rounds to 1 and the push loop never ends *)
Lemma apr_step_p {W} `{Num W} (lg : lgraph W) alpha eps p1 p2 r u q mem p' r' q' mem' :
  apr_step lg alpha eps p1 r u q mem = Ok (p', r', q', mem') -> exists p'', apr_step lg alpha eps p2 r u q mem = Ok (p'', r', q', mem').
Proof.
  unfold apr_step, push. destruct (lg_degree lg (Z.of_nat u)) as [d| |]; cbn [obind]; try discriminate.
  destruct (lg_neighbors lg (Z.of_nat u)) as [es| |]; cbn [obind]; try discriminate.
  destruct (wleb _ _); destruct (lg_nunw lg (Z.of_nat u)) as [ns| |]; cbn [obind]; try discriminate;
    destruct (lg_degrees lg ns) as [ds| |]; cbn [obind]; try discriminate;
    match goal with |- context [apr_scan ?a ?b ?c ?d ?e ?f] => destruct (apr_scan a b c d e f) as [qm| |] end; cbn [obind]; try discriminate;
    intros E; injection E as <- <- <- <-; eexists; reflexivity.
Qed.
Definition k2_M : sprs f64 := mkSprs 2 [[(1%nat, zf 1)]; [(0%nat, zf 1)]].
Definition k2 : graph f64 := fresh_graph k2_M.
Definition tiny : f64 := S754_finite false 4503599627370496 (-112).
Definition half : f64 := S754_finite false 4503599627370496 (-53).
Definition k2_seed : sprs f64 := vset (sp_empty 1 1) 0%nat w1.
Definition pr_state : Type := (sprs f64 * list nat * list nat)%type.
Definition k2_step (x : pr_state) : option pr_state :=
  let '(r, q, mem) := x in
  match q with [] => None | u :: q' =>
    match apr_step (lg_of_graph k2) tiny half (sp_empty 2 1) r u q' mem with Ok (_, r', q'', mem') => Some (r', q'', mem') | _ => None end end.
Fixpoint k2_run (n : nat) (x : pr_state) : option pr_state :=
  match n with O => Some x | S n' => match k2_step x with Some y => k2_run n' y | None => None end end.
Lemma k2_run_plus n m x : k2_run (n + m) x = match k2_run n x with Some y => k2_run m y | None => None end.
Proof. revert x; induction n as [|n IH]; intros x; cbn [k2_run plus]; auto. destruct (k2_step x); auto. Qed.
Lemma k2_loop : forall fuel x p, (forall n, k2_run n x <> None) -> apr_loop fuel (lg_of_graph k2) tiny half p (fst (fst x)) (snd (fst x)) (snd x) = None.
Proof.
  induction fuel as [|fuel IH]; intros [[r q] mem] p Hn; cbn [fst snd]; pose proof (Hn 1%nat) as H1; cbn [k2_run] in H1; cbn [apr_loop];
    destruct q as [|u q']; try (now exfalso; apply H1); auto.
  unfold k2_step in H1.
  destruct (apr_step (lg_of_graph k2) tiny half (sp_empty 2 1) r u q' mem) as [[[[p1 r'] q''] mem']| |] eqn:E; try (now exfalso; apply H1).
  destruct (apr_step_p _ _ _ _ p _ _ _ _ _ _ _ _ E) as [p'' ->].
  apply (IH (r', q'', mem')). intros n Hx. apply (Hn (S n)). cbn [k2_run]. unfold k2_step. rewrite E. exact Hx.
Qed.
Lemma k2_cycle_runs x : k2_run 2 x = Some x -> forall n, k2_run n x <> None.
Proof.
  intros E. assert (forall k, k2_run (2 * k) x = Some x) as Ek.
  { induction k as [|k IH]; auto. replace (2 * S k)%nat with (2 + 2 * k)%nat by lia. now rewrite k2_run_plus, E. }
  assert (E1 : k2_run 1 x <> None).
  { intros E1. assert (k2_run (1 + 1) x = None) by (rewrite k2_run_plus, E1; reflexivity). cbn [plus] in *. congruence. }
  intros n. destruct (Nat.Even_or_Odd n) as [[k ->]|[k ->]]; [now rewrite Ek|]. now rewrite k2_run_plus, Ek.
Qed.
Lemma k2_runs_prefix m x y : k2_run m x = Some y -> (forall n, k2_run n y <> None) -> forall n, k2_run n x <> None.
Proof.
  intros E Hy n Hn. apply (Hy n). pose proof (k2_run_plus n m x) as P. rewrite Hn in P.
  rewrite Nat.add_comm, k2_run_plus, E in P. exact P.
Qed.
Definition k2_far : pr_state := match k2_run 60 (k2_seed, [0%nat], [0%nat]) with Some x => x | None => (k2_seed, [], []) end.
Lemma k2_diverges fuel : approximate_pagerank fuel (lg_of_graph k2) k2_seed tiny half = None.
Proof.
  assert (approximate_pagerank fuel (lg_of_graph k2) k2_seed tiny half = apr_loop fuel (lg_of_graph k2) tiny half (sp_empty 1 1) k2_seed [0%nat] [0%nat]) as ->.
  { unfold approximate_pagerank.
    assert (lg_degrees (lg_of_graph k2) (inner_indices k2_seed) = Ok [zf 1]) as -> by (vm_compute; reflexivity).
    assert (apr_init half k2_seed (inner_indices k2_seed) [zf 1] [] [] = Ok ([0%nat], [0%nat])) as -> by (vm_compute; reflexivity).
    reflexivity. }
  apply (k2_loop fuel (k2_seed, [0%nat], [0%nat]) (sp_empty 1 1)).
  apply (k2_runs_prefix 60 _ k2_far); [vm_compute; reflexivity|]. apply k2_cycle_runs. vm_compute. reflexivity.
Qed.
Lemma k2_int : int_weights k2 /\ no_stored_zero k2.
Proof.
  assert (forall i j v, sp_get (g_adj k2) i j = Some v -> v = zf 1) as Hs.
  { intros i j v. unfold sp_get, sp_col. destruct j as [|[|j]]; cbn [k2 fresh_graph g_adj k2_M sp_cols nth col_get];
      [destruct (Nat.eqb _ _)|destruct (Nat.eqb _ _)|destruct j]; intros E; try discriminate; now injection E as <-. }
  split; intros i j v G; rewrite (Hs i j v G).
  - split; [exists 1%Z; split; [unfold small_int; lia|reflexivity]|]. rewrite (proj2 (zf_spec 1 ltac:(unfold small_int; lia))). lra.
  - reflexivity.
Qed.
Lemma k2_reachable : reachable k2.
Proof. exists k2_M, k2, []. split; [unfold sp_wf, k2_M; simpl; repeat constructor|]. split; [vm_compute; reflexivity|]. split; [constructor|reflexivity]. Qed.
Lemma k2_fw u v : fw k2 u v = (if ((u =? 0) && (v =? 1) || (u =? 1) && (v =? 0))%nat%bool then 1 else 0).
Proof.
  unfold fw, weight, coeff, sp_get, sp_col. pose proof (proj2 (zf_spec 1 ltac:(unfold small_int; lia))) as E1.
  destruct v as [|[|v]]; cbn [k2 fresh_graph g_adj k2_M sp_cols nth col_get].
  - destruct u as [|[|u]]; cbn; try apply f2r_0. exact E1.
  - destruct u as [|[|u]]; cbn; try apply f2r_0. exact E1.
  - destruct v; destruct u as [|[|u]]; cbn; apply f2r_0.
Qed.
Lemma k2_vol : fvol k2 = 2 /\ (forall v, fw k2 v v = 0) /\ fdeg k2 0 = 1 /\ fdeg k2 1 = 1.
Proof.
  assert (forall v, fw k2 v v = 0) as L by (intros [|[|v]]; rewrite k2_fw; reflexivity).
  split; [|split; [exact L|]]; unfold fvol, fdeg; change (number_of_vertices k2) with 2%nat; unfold rsum; cbn [seq lsum fold_right map]; rewrite ?k2_fw; cbn; lra.
Qed.
