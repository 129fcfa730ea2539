(** Facts about the KDE model: chunks, exact queries, CKNS queries. *)
From Verif Require Import Base Num Cluster ThreadPool ThreadPoolTop Kde.
From Coq Require Import ZArith Permutation.

Lemma concat_prefix_chunks cs t : concat (map (fun c => seq (c * cs) cs) (seq 0 t)) = seq 0 (t * cs).
Proof.
  induction t as [|t IH]; auto. rewrite seq_S, map_app, concat_app, IH. simpl. rewrite app_nil_r.
  replace (cs + t * cs) with (t * cs + cs) by lia. now rewrite seq_app.
Qed.

(** The chunks of the threads, one after the other, are all the rows in order. *)
Lemma concat_chunks rows T : 1 <= T -> concat (map (chunk_rows rows T (rows / T)) (seq 0 T)) = seq 0 rows.
Proof.
  intros HT. destruct T as [|t]; [lia|]. pose proof (Nat.mul_div_le rows (S t) ltac:(lia)) as Hcs. revert Hcs. generalize (rows / S t) as cs. intros cs Hcs.
  rewrite seq_S, map_app, concat_app. simpl app.
  rewrite (map_ext_in _ (fun c => seq (c * cs) cs)).
  - rewrite concat_prefix_chunks. cbn [map concat]. rewrite app_nil_r. unfold chunk_rows, chunk_start, chunk_len. replace (S t - 1) with t by lia. rewrite Nat.eqb_refl.
    change (seq (t * cs) (rows - t * cs)) with (seq (0 + t * cs) (rows - t * cs)). rewrite <- (seq_app (t * cs) (rows - t * cs) 0). f_equal. nia.
  - intros c I. apply in_seq in I. unfold chunk_rows, chunk_start, chunk_len. assert (c =? S t - 1 = false) as -> by (apply Nat.eqb_neq; lia). f_equal. lia.
Qed.

Section Facts.
  Context {W : Type} `{Num W} `{KNum W}.

  Lemma store_all rows (vals : list W) : length vals = rows -> store_results rows vals = Ok vals.
  Proof. intros <-. unfold store_results. rewrite Nat.leb_refl, Nat.sub_diag. simpl. now rewrite app_nil_r. Qed.

  Lemma map_nth_all {A B} (f : A -> B) (l : list A) d : map (fun i => f (nth i l d)) (seq 0 (length l)) = map f l.
  Proof.
    induction l as [|x l IH]; auto. simpl. f_equal. rewrite <- seq_shift, map_map. apply IH.
  Qed.

  (** *** Exact queries *)
  Lemma exact_matrix_unique T k qs r : 1 <= T -> exact_query_matrix T k qs r -> r = Ok (map (exact_query k) qs).
  Proof.
    intros HT. unfold exact_query_matrix. destruct (length qs <? T); auto. unfold chunk_size.
    assert (T =? 0 = false) as -> by (apply Nat.eqb_neq; lia). intros (chunks & P & ->). apply par_results_unique in P. subst chunks.
    rewrite <- (map_map (chunk_rows (length qs) T (length qs / T))), <- concat_map, concat_chunks by auto.
    rewrite map_nth_all. apply store_all. now rewrite map_length.
  Qed.

  Lemma exact_matrix_exists T k qs : 1 <= T -> exists r, exact_query_matrix T k qs r.
  Proof.
    intros HT. unfold exact_query_matrix. destruct (length qs <? T); eauto. unfold chunk_size.
    assert (T =? 0 = false) as -> by (apply Nat.eqb_neq; lia). eexists. eexists. split; [apply par_results_exist; auto|reflexivity].
  Qed.

  (** *** The estimates of a chunk are those of the single rows *)
  Section Chunk.
    Variable k : @ckns W.
    Variable qs : list (@point W).

    Lemma fold_order_est (g : nat -> list W -> list W) order est i : NoDup order ->
      fold_left (fun est i => fupd est i (g i (est i))) order est i = if existsb (Nat.eqb i) order then g i (est i) else est i.
    Proof.
      intros Nd. revert est. induction Nd as [|x l N Nd IH]; intros est; simpl; auto. rewrite IH. unfold fupd.
      destruct (Nat.eqb_spec i x) as [->|Ne]; simpl; auto.
      assert (existsb (Nat.eqb x) l = false) as ->; auto. apply not_true_iff_false. rewrite existsb_exists. intros (y & I & E). apply Nat.eqb_eq in E. now subst.
    Qed.

    Lemma existsb_In i l : existsb (Nat.eqb i) l = true <-> In i l.
    Proof. rewrite existsb_exists. split; [intros (y & I & E); apply Nat.eqb_eq in E; now subst|intros I; exists i; split; auto; apply Nat.eqb_refl]. Qed.

    Variable lni : nat.
    Variable U : list nat.
    Hypothesis Nd : NoDup U.
    Variable order : nat -> list nat.
    Hypothesis Ho : forall c, Permutation (order c) U.

    Lemma order_In c i : In i U -> existsb (Nat.eqb i) (order c) = true.
    Proof. intros I. apply existsb_In. eapply Permutation_in; [symmetry; apply Ho|auto]. Qed.
    Lemma order_Nd c : NoDup (order c).
    Proof. eapply Permutation_NoDup; [symmetry; apply Ho|auto]. Qed.

    Lemma shell_loop iter js est i : In i U ->
      fold_left (fun est j => fold_left (fun est i => fupd est i (upd_nth (est i) iter (fun v => wadd v (c_unit_query k lni iter j (nth i qs [])))))
          (order (iter * length (shells k lni) + j)) est) js est i
      = upd_nth (est i) iter (fun v => fold_left (fun s j => wadd s (c_unit_query k lni iter j (nth i qs []))) js v).
    Proof.
      intros I. revert est. induction js as [|j js IH]; intros est; simpl.
      - rewrite upd_nth_id. reflexivity.
      - rewrite IH. rewrite (fold_order_est (fun i l => upd_nth l iter (fun v => wadd v (c_unit_query k lni iter j (nth i qs []))))) by apply order_Nd.
        rewrite (order_In _ _ I). rewrite upd_nth_twice. reflexivity.
    Qed.

    Lemma add_estimates_row i : In i U ->
      add_estimates k qs lni order (fun _ => repeat w0 (c_k1 k)) i = map (iter_estimate k (nth i qs []) lni) (seq 0 (c_k1 k)).
    Proof.
      intros I. unfold add_estimates.
      enough (forall its est, fold_left (fun est iter =>
        fold_left (fun est j =>
          fold_left (fun est i => fupd est i (upd_nth (est i) iter (fun v => wadd v (c_unit_query k lni iter j (nth i qs [])))))
            (order (iter * length (shells k lni) + j)) est) (shells k lni) est) its est i
        = fold_left (fun l iter => upd_nth l iter (fun v => fold_left (fun s j => wadd s (c_unit_query k lni iter j (nth i qs []))) (shells k lni) v)) its (est i)) as ->.
      - enough (forall m (l0 : list W), fold_left (fun l iter => upd_nth l iter (fun v => fold_left (fun s j => wadd s (c_unit_query k lni iter j (nth i qs []))) (shells k lni) v))
            (seq (length l0) m) (l0 ++ repeat w0 m) = l0 ++ map (iter_estimate k (nth i qs []) lni) (seq (length l0) m)) as A by (apply (A (c_k1 k) [])).
        induction m as [|m IH]; intros l0; simpl; auto. rewrite upd_nth_mid.
        specialize (IH (l0 ++ [iter_estimate k (nth i qs []) lni (length l0)])). rewrite app_length in IH. simpl in IH. rewrite Nat.add_1_r in IH.
        rewrite <- !app_assoc in IH. simpl in IH. exact IH.
      - induction its as [|it its IH]; intros est; simpl; auto. rewrite IH. f_equal. apply (shell_loop it (shells k lni) est i I).
    Qed.
  End Chunk.

  (** *** Solving the rows of a chunk *)
  Section Solve.
    Variable k : @ckns W.
    Variable qs : list (@point W).
    Variables start len : nat.
    Definition in_range i := start <= i < start + len.

    Lemma upd_other (res : list W) (i j : nat) v : in_range i -> in_range j -> i <> j ->
      nth (j - start) (upd_nth res (i - start) (fun _ => v)) w0 = nth (j - start) res w0.
    Proof.
      unfold in_range. intros Hi Hj N. destruct (Nat.lt_ge_cases (i - start) (length res)) as [L|L].
      - rewrite nth_upd_nth by auto. destruct (Nat.eqb_spec (j - start) (i - start)); [lia|auto].
      - now rewrite upd_nth_out.
    Qed.

    Lemma solve_rows_ok lni est mu rows : NoDup rows -> (forall i, In i rows -> in_range i /\ median (est i) = Ok (mu i)) ->
      forall res solved last, length res = len -> exists res' last',
      solve_rows k lni start est rows res solved last = Ok (res', solved ++ filter (fun i => accepts k lni (mu i)) rows, last') /\
      length res' = len /\
      (forall i, in_range i -> nth (i - start) res' w0 = if existsb (Nat.eqb i) rows && accepts k lni (mu i) then wdiv (mu i) (wofZ (c_n k)) else nth (i - start) res w0) /\
      (forall i, last' i = if existsb (Nat.eqb i) rows then mu i else last i).
    Proof.
      induction 1 as [|x rows N Nd IH]; intros A res solved last L; simpl.
      - exists res, last. rewrite app_nil_r. auto.
      - destruct (A x (or_introl eq_refl)) as [Rx Mx]. rewrite Mx. simpl.
        assert (forall i, In i rows -> in_range i /\ median (est i) = Ok (mu i)) as A' by (intros i I; apply A; now right).
        assert (existsb (Nat.eqb x) rows = false) as Ex by (apply not_true_iff_false; rewrite existsb_In; auto).
        destruct (accepts k lni (mu x)) eqn:Ac.
        + edestruct (IH A' (upd_nth res (x - start) (fun _ => wdiv (mu x) (wofZ (c_n k)))) (solved ++ [x]) (fupd last x (mu x))) as (res' & last' & E & L' & B & C); [now rewrite upd_nth_length|].
          exists res', last'. rewrite E, <- app_assoc. simpl. split; auto. split; auto. split.
          * intros i Ri. rewrite B by auto. destruct (Nat.eqb_spec i x) as [->|Ne]; simpl.
            -- rewrite Ex, Ac. simpl. rewrite nth_upd_nth by (unfold in_range in *; lia). now rewrite Nat.eqb_refl.
            -- rewrite upd_other by auto. reflexivity.
          * intros i. rewrite C. unfold fupd. destruct (Nat.eqb_spec i x) as [->|Ne]; simpl; auto. now rewrite Ex.
        + edestruct (IH A' res solved (fupd last x (mu x))) as (res' & last' & E & L' & B & C); [auto|].
          exists res', last'. rewrite E. split; auto. split; auto. split.
          * intros i Ri. rewrite B by auto. destruct (Nat.eqb_spec i x) as [->|Ne]; simpl; auto. now rewrite Ex, Ac.
          * intros i. rewrite C. unfold fupd. destruct (Nat.eqb_spec i x) as [->|Ne]; simpl; auto. now rewrite Ex.
    Qed.

    Hypothesis Hk : 1 <= c_k1 k.
    Variable ord : nat -> nat -> list nat -> list nat.
    Hypothesis Hord : forall a b l, Permutation (ord a b l) l.

    Definition row_med (lni i : nat) : W := nth (c_k1 k / 2) (stable_sort wltb (map (iter_estimate k (nth i qs []) lni) (seq 0 (c_k1 k)))) w0.

    Lemma median_row lni i : median (map (iter_estimate k (nth i qs []) lni) (seq 0 (c_k1 k))) = Ok (row_med lni i).
    Proof.
      unfold median, row_med. destruct (map _ _) eqn:E; [apply (f_equal (@length W)) in E; rewrite map_length, seq_length in E; simpl in E; lia|].
      rewrite <- E, map_length, seq_length. reflexivity.
    Qed.

    Definition fin (s : @cq_state W) (i : nat) : W :=
      if existsb (Nat.eqb i) (cq_unsolved s) then wdiv (cq_last s i) (wofZ (c_n k)) else nth (i - start) (cq_results s) w0.

    Definition good (s : @cq_state W) : Prop :=
      NoDup (cq_unsolved s) /\ (forall i, In i (cq_unsolved s) -> in_range i) /\ length (cq_results s) = len.

    Lemma chunk_loop_ok lnis : forall s, good s -> exists s', chunk_loop ord k qs start lnis s = Ok s' /\ good s' /\
      forall i, in_range i ->
        if existsb (Nat.eqb i) (cq_unsolved s) then ckns_query_loop k (nth i qs []) lnis (cq_last s i) = Ok (fin s' i)
        else fin s' i = fin s i.
    Proof.
      induction lnis as [|lni lnis IH]; intros s (G1 & G2 & G3); cbn [chunk_loop ckns_query_loop].
      - exists s. split; auto. split; [split; [auto|split; auto]|]. intros i Ri. unfold fin. destruct (existsb (Nat.eqb i) (cq_unsolved s)); auto.
      - set (est := add_estimates k qs lni (fun c => ord lni (2 + c) (cq_unsolved s)) (fun _ => repeat w0 (c_k1 k))).
        assert (forall i, In i (cq_unsolved s) -> est i = map (iter_estimate k (nth i qs []) lni) (seq 0 (c_k1 k))) as He
          by (intros i I; eapply add_estimates_row; eauto).
        edestruct (solve_rows_ok lni est (row_med lni) (ord lni 0 (cq_unsolved s))) with (res := cq_results s) (solved := @nil nat) (last := cq_last s) as (res' & last' & E & L' & B & C).
        { eapply Permutation_NoDup; [symmetry; apply Hord|auto]. }
        { intros i I. assert (In i (cq_unsolved s)) as I' by (eapply Permutation_in; [apply Hord|eauto]). split; auto. rewrite He by auto. apply median_row. }
        { auto. }
        assert (forall i, existsb (Nat.eqb i) (ord lni 0 (cq_unsolved s)) = existsb (Nat.eqb i) (cq_unsolved s)) as Eo.
        { intros i. apply eq_true_iff_eq. rewrite !existsb_In. split; apply Permutation_in; [apply Hord|symmetry; apply Hord]. }
        set (sol := filter (fun i => accepts k lni (row_med lni i)) (ord lni 0 (cq_unsolved s))) in *. simpl in E.
        set (s1 := mkCq res' (filter (fun i => negb (existsb (Nat.eqb i) sol)) (cq_unsolved s)) last').
        assert (chunk_iteration (ord lni) k qs start lni s = Ok s1) as Ei by (unfold chunk_iteration; fold est; rewrite E; reflexivity).
        rewrite Ei. cbn [obind].
        assert (forall i, existsb (Nat.eqb i) sol = existsb (Nat.eqb i) (cq_unsolved s) && accepts k lni (row_med lni i)) as Esol.
        { intros i. apply eq_true_iff_eq. rewrite andb_true_iff, !existsb_In. unfold sol. rewrite filter_In. rewrite <- !existsb_In, Eo. tauto. }
        assert (forall i, existsb (Nat.eqb i) (cq_unsolved s1) = existsb (Nat.eqb i) (cq_unsolved s) && negb (accepts k lni (row_med lni i))) as Eu.
        { intros i. apply eq_true_iff_eq. rewrite andb_true_iff, !existsb_In. simpl. rewrite filter_In, Esol. rewrite <- existsb_In.
          destruct (existsb (Nat.eqb i) (cq_unsolved s)), (accepts k lni (row_med lni i)); simpl; intuition congruence. }
        assert (good s1) as G'.
        { split; [|split; [|auto]]; simpl; [now apply NoDup_filter|]. intros i I. apply filter_In in I as [I _]. auto. }
        destruct (IH s1 G') as (s' & Es & Gs & A). exists s'. split; auto. split; auto. intros i Ri. specialize (A i Ri). specialize (Eu i).
        specialize (B i Ri). specialize (C i). rewrite Eo in B, C.
        destruct (existsb (Nat.eqb i) (cq_unsolved s)) eqn:Eus; simpl in *.
        + rewrite median_row. cbn [obind]. destruct (accepts k lni (row_med lni i)); simpl in Eu; rewrite Eu in A.
          * rewrite A. unfold fin. simpl in Eu |- *. rewrite Eu. now rewrite B.
          * rewrite <- A. f_equal. simpl. auto.
        + rewrite Eu in A. rewrite A. unfold fin. simpl in Eu |- *. rewrite Eu, Eus. exact B.
    Qed.

    Lemma final_writes (f : nat -> W) order : NoDup order -> (forall i, In i order -> in_range i) -> forall res, length res = len ->
      length (fold_left (fun res i => upd_nth res (i - start) (fun _ => f i)) order res) = len /\
      forall i, in_range i -> nth (i - start) (fold_left (fun res i => upd_nth res (i - start) (fun _ => f i)) order res) w0 =
        if existsb (Nat.eqb i) order then f i else nth (i - start) res w0.
    Proof.
      induction 1 as [|x l N Nd IH]; intros A res L; simpl; auto.
      assert (forall i, In i l -> in_range i) as A' by (intros; apply A; now right).
      destruct (IH A' (upd_nth res (x - start) (fun _ => f x))) as [L' B]; [now rewrite upd_nth_length|]. split; auto.
      intros i Ri. rewrite B by auto. destruct (Nat.eqb_spec i x) as [->|Ne]; simpl.
      - assert (existsb (Nat.eqb x) l = false) as -> by (apply not_true_iff_false; rewrite existsb_In; auto).
        rewrite nth_upd_nth by (unfold in_range in *; lia). now rewrite Nat.eqb_refl.
      - destruct (existsb (Nat.eqb i) l); auto. apply upd_other; auto. apply A. now left.
    Qed.

    Lemma chunk_query_ok : exists vs, chunk_query ord k qs start len = Ok vs /\ length vs = len /\
      forall i, in_range i -> ckns_query k (nth i qs []) = Ok (nth (i - start) vs w0).
    Proof.
      unfold chunk_query.
      destruct (chunk_loop_ok (seq 0 (c_iters k)) (mkCq (repeat w0 len) (seq start len) (fun _ => w0))) as (s' & E & (G1 & G2 & G3) & A).
      { split; [apply seq_NoDup|split; [|apply repeat_length]]. simpl. intros i I. apply in_seq in I. unfold in_range. lia. }
      rewrite E. cbn [obind].
      destruct (final_writes (fun i => wdiv (cq_last s' i) (wofZ (c_n k))) (ord (c_iters k) 1 (cq_unsolved s'))) with (res := cq_results s') as [L B].
      { eapply Permutation_NoDup; [symmetry; apply Hord|auto]. }
      { intros i I. apply G2. eapply Permutation_in; [apply Hord|eauto]. }
      { auto. }
      eexists. split; [reflexivity|]. split; [exact L|]. intros i Ri. rewrite B by auto. specialize (A i Ri). simpl in A.
      assert (existsb (Nat.eqb i) (seq start len) = true) as Ex by (apply existsb_In, in_seq; unfold in_range in Ri; lia). rewrite Ex in A.
      unfold ckns_query. rewrite A. unfold fin.
      assert (existsb (Nat.eqb i) (ord (c_iters k) 1 (cq_unsolved s')) = existsb (Nat.eqb i) (cq_unsolved s')) as ->; auto.
      apply eq_true_iff_eq. rewrite !existsb_In. split; apply Permutation_in; [apply Hord|symmetry; apply Hord].
    Qed.
  End Solve.

  (** *** Matrix queries *)
  Lemma sequence_all {A} (l : list (outcome A)) vs : l = map Ok vs -> sequence l = Ok vs.
  Proof. intros ->. induction vs as [|v vs IH]; simpl; auto. now rewrite IH. Qed.

  Lemma chunk_values k qs ord start len : 1 <= c_k1 k -> (forall a b l, Permutation (ord a b l) l) ->
    exists vs, chunk_query ord k qs start len = Ok vs /\ map Ok vs = map (fun i => ckns_query k (nth i qs [])) (seq start len).
  Proof.
    intros Hk Hord. destruct (chunk_query_ok k qs start len Hk ord Hord) as (vs & E & L & A). exists vs. split; auto.
    apply list_eq_nth with (d := UB); [now rewrite !map_length, seq_length|]. intros i Hi. rewrite map_length in Hi.
    rewrite (nth_indep _ UB (Ok w0)) by (rewrite map_length; lia). rewrite map_nth.
    rewrite (nth_indep _ UB ((fun i => ckns_query k (nth i qs [])) 0)) by (rewrite map_length, seq_length; lia).
    rewrite (map_nth (fun i => ckns_query k (nth i qs []))). rewrite seq_nth by lia. rewrite A by (unfold in_range; lia). do 2 f_equal. lia.
  Qed.

  Lemma map_Ok_inj {A} (a b : list A) : map Ok a = map Ok b -> a = b.
  Proof. revert b. induction a as [|x a IH]; intros [|y b] F; try discriminate; auto. simpl in F. injection F as -> F. f_equal; auto. Qed.

  (** All rows have an answer *)
  Lemma rows_answer k (qs : list (@point W)) : 1 <= c_k1 k -> exists vs, map (ckns_query k) qs = map Ok vs.
  Proof.
    intros Hk. destruct (chunk_values k qs (fun _ _ l => l) 0 (length qs) Hk) as (vs & _ & E); [auto|]. exists vs. now rewrite E, (map_nth_all (ckns_query k)).
  Qed.

  Lemma ckns_matrix_unique ord T k qs r : 1 <= T -> 1 <= c_k1 k -> (forall c a b l, Permutation (ord c a b l) l) ->
    ckns_query_matrix ord T k qs r -> exists vs, r = Ok vs /\ map Ok vs = map (ckns_query k) qs.
  Proof.
    intros HT Hk Hord. unfold ckns_query_matrix. destruct (length qs <? T).
    { intros ->. destruct (chunk_values k qs (ord 0) 0 (length qs) Hk (Hord 0)) as (vs & E & F). exists vs. rewrite E, F. split; auto. apply map_nth_all. }
    unfold chunk_size. assert (T =? 0 = false) as -> by (apply Nat.eqb_neq; lia). intros (chunks & P & ->). apply par_results_unique in P.
    assert (exists vss, chunks = map Ok vss /\ map (map (@Ok W)) vss = map (fun c => map (fun i => ckns_query k (nth i qs [])) (chunk_rows (length qs) T (length qs / T) c)) (seq 0 T)) as (vss & -> & F).
    { subst chunks. generalize (seq 0 T) as l. induction l as [|c l IH]; [exists []; auto|]. destruct IH as (vss & E1 & E2).
      destruct (chunk_values k qs (ord c) (chunk_start (length qs / T) c) (chunk_len (length qs) T (length qs / T) c) Hk (Hord c)) as (vs & E & F).
      exists (vs :: vss). simpl. rewrite E, E1, E2, F. split; auto. }
    rewrite (sequence_all _ vss eq_refl). cbn [obind].
    assert (map Ok (concat vss) = map (ckns_query k) qs) as G.
    { rewrite concat_map, F, <- (map_map (chunk_rows (length qs) T (length qs / T))), <- concat_map, concat_chunks by auto. apply map_nth_all. }
    exists (concat vss). split; auto. apply store_all. apply (f_equal (@length _)) in G. now rewrite !map_length in G.
  Qed.

  Lemma ckns_matrix_exists ord T k qs : 1 <= T -> exists r, ckns_query_matrix ord T k qs r.
  Proof.
    intros HT. unfold ckns_query_matrix. destruct (length qs <? T); eauto. unfold chunk_size.
    assert (T =? 0 = false) as -> by (apply Nat.eqb_neq; lia). eexists. eexists. split; [apply par_results_exist; auto|reflexivity].
  Qed.
End Facts.
