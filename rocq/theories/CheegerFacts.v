(** Facts about the model of cheeger_cut, in any arithmetic. *)
From Verif Require Import Base Num RSum Sparse SparseFacts Graph GraphSpec GraphFacts GraphProps1 GraphProps2 GraphProps5 Cluster ClusterSpec ClusterCC ClusterPR ClusterSweep ClusterInst Spectrum Cheeger.
From Coq Require Import Sorting.Sorted Sorting.Permutation.
Local Open Scope nat_scope.

Section Any.
  Context {W : Type} `{Num W}.

  (** ** A sequence of queries *)
  Definition is_query (o : gop W) : Prop := match o with OpAdd _ _ _ | OpRemove _ _ => False | _ => True end.
  Inductive qreach (g : graph W) : graph W -> Prop :=
  | q_refl : qreach g g
  | q_step g1 o g2 : qreach g g1 -> is_query o -> gstep g1 o = Some g2 -> qreach g g2.
  Lemma qreach_trans g g1 g2 : qreach g g1 -> qreach g1 g2 -> qreach g g2.
  Proof. intros A B. induction B; auto. econstructor; eauto. Qed.
  Lemma grun_snoc ops : forall g g1 o g2, grun g ops = Some g1 -> gstep g1 o = Some g2 -> grun g (ops ++ [o]) = Some g2.
  Proof.
    induction ops as [|p ops IH]; intros g g1 o g2; cbn [grun app].
    - intros [= ->] ->. reflexivity.
    - destruct (gstep g p) as [g'|]; [|discriminate]. apply IH.
  Qed.
  Lemma qreach_reachable (A : gop W -> Prop) g g' : (forall o, is_query o -> A o) -> reachable_by A g -> qreach g g' -> reachable_by A g'.
  Proof.
    intros HA Hr Q. induction Q as [|g1 o g2 Q IH Hq E]; auto. destruct IH as (M & g0 & ops & Hw & Em & Hf & Er).
    exists M, g0, (ops ++ [o]). split; [exact Hw|]. split; [exact Em|]. split; [apply Forall_app; split; auto|].
    eapply grun_snoc; eauto.
  Qed.
  Lemma qreach_base g g' : caches_ok g -> qreach g g' -> caches_ok g' /\ same_base g g'.
  Proof.
    intros Hc Q. induction Q as [|g1 o g2 Q IH Hq E]; [split; auto using same_base_refl|]. destruct IH as [C B].
    assert (P : caches_ok g2 /\ same_base g1 g2).
    { destruct o; cbn [is_query] in Hq; try tauto; cbn [gstep] in E; injection E as <-.
      - destruct (mat_query_spec q g1 C) as (X & Y & _). auto.
      - destruct (init_deg_spec g1 C) as (X & Y & _). auto.
      - unfold average_degree, total_volume. cbn [fst]. destruct (init_deg_spec g1 C) as (X & Y & _). auto.
      - apply degree_base; auto.
      - apply degrees_base; auto. }
    destruct P as [C2 B2]. split; [exact C2|]. eapply same_base_trans; eauto.
  Qed.
  Lemma max_degree_q vs : forall g m, qreach g (fst (max_degree g vs m)).
  Proof.
    induction vs as [|v vs IH]; intros g m; cbn [max_degree]; [constructor|].
    assert (Q : qreach g (fst (degree g (Z.of_nat v)))) by (apply (q_step g g (OpDegree (Z.of_nat v))); [constructor|exact I|reflexivity]).
    destruct (degree g (Z.of_nat v)) as [g1 o]. cbn [fst] in *. destruct o; cbn [fst]; auto. eapply qreach_trans; [exact Q|apply IH].
  Qed.
  Lemma compute_eigensystem_q solver (g : graph W) mat num which : qreach g (fst (compute_eigensystem solver g mat num which)).
  Proof.
    unfold compute_eigensystem. destruct ((num <? 1) || _)%Z; [constructor|].
    pose proof (max_degree_q (seq 0 (number_of_vertices g)) g w0) as Q. destruct (max_degree g _ w0) as [g1 o]. cbn [fst] in Q.
    destruct o as [d|e|]; auto.
    assert (QM : forall q, qreach g (fst (mat_query q g1))) by (intros q; apply (q_step g g1 (OpMat q)); auto; exact I).
    destruct mat, which; cbn [fst]; auto.
    - specialize (QM QLap). now destruct (mat_query QLap g1).
    - specialize (QM QLap). now destruct (mat_query QLap g1).
    - specialize (QM QNLap). now destruct (mat_query QNLap g1).
    - specialize (QM QNLap). now destruct (mat_query QNLap g1).
  Qed.

  (** ** The scaled vector *)
  Lemma ss_filter_keys (p : nat * W -> bool) c : StronglySorted lt (map fst c) -> StronglySorted lt (map fst (filter p c)).
  Proof.
    induction c as [|e c IH]; cbn [map filter]; intros Hs; [constructor|]. inversion Hs as [|? ? Hs' Hf]; subst.
    destruct (p e); [|auto]. cbn [map]. constructor; auto. rewrite Forall_forall in *. intros x Hx. apply Hf.
    apply in_map_iff in Hx. destruct Hx as (q & <- & Hq). apply filter_In in Hq. now apply in_map.
  Qed.
  Lemma combine_fst {A B} (l : list A) (m : list B) : length l = length m -> map fst (combine l m) = l.
  Proof. revert m. induction l as [|a l IH]; intros [|b m] L; simpl in *; try discriminate; auto. f_equal. apply IH. lia. Qed.
  Lemma ss_seq a n : StronglySorted lt (seq a n).
  Proof. revert a. induction n as [|n IH]; intros a; simpl; constructor; auto. apply Forall_forall. intros x Hx. apply in_seq in Hx. lia. Qed.
  Lemma sparse_view_wf (x : list W) : vwf (sparse_view x).
  Proof.
    split; [reflexivity|]. unfold sp_wf, sparse_view. cbn [sp_cols sp_rows]. constructor; [|constructor].
    assert (E : map fst (combine (seq 0 (length x)) x) = seq 0 (length x)) by (apply combine_fst; now rewrite seq_length).
    split; [apply ss_filter_keys; rewrite E; apply ss_seq|].
    rewrite Forall_forall. intros k Hk. apply in_map_iff in Hk. destruct Hk as (q & <- & Hq). apply filter_In in Hq. destruct Hq as [Hq _].
    apply (in_map fst) in Hq. rewrite E in Hq. apply in_seq in Hq. lia.
  Qed.
  Lemma sparse_view_get (x : list W) i : i < length x ->
    vget (sparse_view x) i = if weqb (nth i x w0) w0 then w0 else nth i x w0.
  Proof.
    intros Hi. unfold vget, coeff, sp_get, sp_col, sparse_view. cbn [sp_cols nth].
    assert (E : map fst (combine (seq 0 (length x)) x) = seq 0 (length x)) by (apply combine_fst; now rewrite seq_length).
    rewrite col_get_filter by (rewrite E; apply ss_seq).
    assert (G : col_get (combine (seq 0 (length x)) x) i = Some (nth i x w0)).
    { apply col_get_Some_iff; [rewrite E; apply ss_seq|].
      assert (Q : nth i (combine (seq 0 (length x)) x) (0, w0) = (i, nth i x w0)).
      { rewrite combine_nth by (now rewrite seq_length). now rewrite seq_nth. }
      rewrite <- Q. apply nth_In. rewrite combine_length, seq_length. lia. }
    rewrite G. cbn [snd]. destruct (weqb (nth i x w0) w0); reflexivity.
  Qed.
  (** The degree read from a graph whose caches are valid. *)
  Definition degv (g : graph W) (v : nat) : W := coeff (deg_mat (g_adj g)) v v.
  Lemma degree_degv (g : graph W) v : caches_ok g -> v < g_n g ->
    exists g', degree g (Z.of_nat v) = (g', Ok (degv g v)) /\ qreach g g'.
  Proof.
    intros Hc Hv. exists (fst (degree g (Z.of_nat v))). split.
    - unfold degree. rewrite check_vertex_ok by lia. cbn [fst]. destruct (init_deg_spec g Hc) as (_ & _ & ->). now rewrite Nat2Z.id.
    - apply (q_step g g (OpDegree (Z.of_nat v))); [constructor|exact I|reflexivity].
  Qed.
  Lemma scale_loop_spec vs : forall (g : graph W) vec, caches_ok g -> vwf vec -> NoDup vs ->
    (forall v, In v vs -> v < g_n g /\ v < sp_rows vec) ->
    exists g' vec', scale_loop g vs vec = (g', Ok vec') /\ qreach g g' /\ vwf vec' /\
      (forall k, In k (vkeys vec') <-> In k vs \/ In k (vkeys vec)) /\
      (forall k, In k vs -> vget vec' k = wmul (wsqrt (wdiv w1 (degv g k))) (vget vec k)) /\
      (forall k, ~ In k vs -> vget vec' k = vget vec k).
  Proof.
    induction vs as [|v vs IH]; intros g vec Hc Hw Hnd Hv; cbn [scale_loop].
    - exists g, vec. split; [reflexivity|]. split; [constructor|]. split; [exact Hw|]. split; [intros k; simpl; tauto|].
      split; [intros k []|auto].
    - destruct (Hv v (or_introl eq_refl)) as [Hvn Hvr]. destruct (degree_degv g v Hc Hvn) as (g1 & E1 & Q1). rewrite E1.
      inversion Hnd as [|? ? Hnv Hnd']; subst. destruct (qreach_base g g1 Hc Q1) as [C1 (B1 & B2 & B3)].
      set (t := wmul (wsqrt (wdiv w1 (degv g v))) (vget vec v)).
      assert (Er : sp_rows (vset vec v t) = sp_rows vec) by reflexivity.
      destruct (IH g1 (vset vec v t) C1 (vset_wf vec v t Hw Hvr) Hnd') as (g' & vec' & E & Q & Hw' & Hk & Hg & Ho).
      { intros u Hu. rewrite Er, <- B1. apply Hv. now right. }
      exists g', vec'. split; [exact E|]. split; [eapply qreach_trans; eauto|]. split; [exact Hw'|]. split; [|split].
      + intros k. rewrite Hk, vkeys_vset by auto. simpl. intuition.
      + intros k [<-|Hi].
        * rewrite Ho by auto. rewrite vget_vset by auto. now rewrite Nat.eqb_refl.
        * rewrite Hg by auto. rewrite vget_vset by auto. destruct (Nat.eqb_spec k v) as [->|]; [tauto|].
          unfold degv. now rewrite <- B2.
      + intros k Hi. simpl in Hi. rewrite Ho by tauto. rewrite vget_vset by auto. destruct (Nat.eqb_spec k v) as [->|]; [tauto|reflexivity].
  Qed.

  (** ** The labels *)
  Lemma mark_spec cut : forall cl, (forall i, In i cut -> i < length cl) ->
    exists cl', mark cut cl = Ok cl' /\ length cl' = length cl /\
      forall i, i < length cl -> nth i cl' 0%Z = if in_dec Nat.eq_dec i cut then 1%Z else nth i cl 0%Z.
  Proof.
    induction cut as [|i cut IH]; intros cl Hi; cbn [mark].
    - exists cl. split; [reflexivity|]. split; [reflexivity|]. intros j _. destruct (in_dec Nat.eq_dec j []) as [[]|]; reflexivity.
    - pose proof (Hi i (or_introl eq_refl)) as Hb. destruct (Nat.ltb_spec i (length cl)); [|lia].
      destruct (IH (upd_nth cl i (fun _ => 1%Z))) as (cl' & E & L & G).
      { intros j Hj. rewrite upd_nth_length. apply Hi. now right. }
      rewrite upd_nth_length in *. exists cl'. split; [exact E|]. split; [exact L|]. intros j Hj. rewrite G by auto.
      rewrite nth_upd_nth by auto. destruct (Nat.eqb_spec j i) as [->|N].
      + destruct (in_dec Nat.eq_dec i cut), (in_dec Nat.eq_dec i (i :: cut)) as [|F]; auto; exfalso; apply F; now left.
      + destruct (in_dec Nat.eq_dec j cut) as [I|I], (in_dec Nat.eq_dec j (i :: cut)) as [I'|I']; auto; exfalso; simpl in I'.
        * apply I'. now right.
        * destruct I' as [->|]; tauto.
  Qed.
  (** The sweep always returns a prefix of its order. *)
  Lemma sweep_loop_any (lg : lgraph W) tot vs : lg_ok lg -> (forall v, In v vs -> lg_has lg v) ->
    forall set cut vol best bi k, exists b, sweep_loop lg tot vs (map (dg lg) vs) set cut vol best bi k = Ok b.
  Proof.
    intros Hlg. induction vs as [|v vs IH]; intros Hv set cut vol best bi k; cbn [sweep_loop map]; [eauto|].
    rewrite (lo_neigh lg Hlg) by (apply Hv; now left). cbn [obind].
    destruct (_ && _); apply IH; intros u Hu; apply Hv; now right.
  Qed.
  Lemma sweep_set_any (g : graph W) (vec : sprs W) `{!PosNum W} : reachable g -> no_stored_zero g -> vwf vec ->
    (forall k, In k (vkeys vec) -> k < g_n g) ->
    exists cut, sweep_set_graph g vec = Ok cut /\ forall i, In i cut -> i < g_n g.
  Proof.
    intros Hr Hz Hw Hk. pose proof (graph_lg_ok g Hr Hz) as Hlg.
    assert (Hs : forall v, In v (sweep_order vec) -> v < g_n g).
    { intros v Hv. apply Hk. unfold sweep_order in Hv.
      eapply Permutation_in in Hv; [|apply Permutation_sym, stable_sort_perm].
      destruct Hw as [Hc _]. unfold inner_indices, vkeys, sp_col, sp_ncols in *.
      destruct (sp_cols vec) as [|c [|? ?]]; simpl in *; try discriminate. now rewrite app_nil_r in Hv. }
    unfold sweep_set_graph, sweep_set_inner.
    rewrite (lg_degrees_ok _ Hlg) by (intros v Hv; apply graph_has; unfold number_of_vertices; auto). cbn [obind].
    destruct (sweep_loop_any (lg_of_graph g) (snd (total_volume g)) (sweep_order vec) Hlg
      (fun v Hv => proj2 (graph_has g v) (Hs v Hv)) [] w0 w0 (wadd w1 w1) 0 0) as (b & ->).
    cbn [obind]. eexists. split; [reflexivity|]. intros i Hi. apply Hs.
    rewrite <- (firstn_skipn b (sweep_order vec)). apply in_app_iff. now left.
  Qed.

  (** What is needed of the solver here: two vectors with one entry per row. *)
  Definition solver_shape (solver : eigen_solver (W := W)) : Prop :=
    forall M num ncv r, solver M num ncv = Some r -> length r = Z.to_nat num /\ Forall (fun p => length (snd p) = sp_rows M) r.
  Lemma shift_diag_rows n (M : sprs W) c : sp_rows (shift_diag n M c) = sp_rows M.
  Proof. unfold shift_diag. generalize (seq 0 n). intros l. revert M. induction l as [|i l IH]; intros M; simpl; auto. rewrite IH. reflexivity. Qed.
  Lemma eigensystem_shape solver (g : graph W) r : solver_shape solver -> caches_ok g ->
    snd (compute_eigensystem solver g MatNormalisedLaplacian 2 Smallest) = Ok r ->
    exists p q, r = [p; q] /\ length (snd p) = g_n g /\ length (snd q) = g_n g.
  Proof.
    intros HS Hc. unfold compute_eigensystem. destruct ((2 <? 1) || _)%Z; [discriminate|].
    pose proof (max_degree_q (seq 0 (number_of_vertices g)) g w0) as Q. destruct (max_degree g _ w0) as [g1 o]. cbn [fst] in Q.
    destruct o as [d|e|]; try discriminate. destruct (qreach_base g g1 Hc Q) as [C1 (B1 & B2 & _)].
    destruct (mat_query_spec QNLap g1 C1) as (C2 & _ & E2). destruct (mat_query QNLap g1) as [g2 L]. cbn [fst snd] in *. subst L.
    unfold largestmag. destruct ((2 <? 1) || _)%Z; [discriminate|].
    match goal with |- context [solver ?M ?n ?c] => destruct (solver M n c) as [es|] eqn:Es end; [|discriminate].
    apply HS in Es. rewrite shift_diag_rows in Es.
    assert (Er : sp_rows (sp_map wopp (mat_formula QNLap (g_adj g1))) = g_n g).
    { cbn. rewrite B1. destruct C1 as [-> _]. reflexivity. }
    rewrite Er in Es. destruct Es as [L F]. change (Z.to_nat 2) with 2 in L.
    destruct es as [|p [|q [|? ?]]]; try discriminate. inversion F as [|? ? Fp F']; subst. inversion F' as [|? ? Fq _]; subst.
    rewrite Bool.orb_true_r. intros [= <-]. cbn [map]. eexists. eexists. split; [reflexivity|]. auto.
  Qed.
  (** The steps of cheeger_cut after the eigensystem. *)
  Lemma cheeger_steps solver (g : graph W) p q : caches_ok g ->
    snd (compute_eigensystem solver g MatNormalisedLaplacian 2 Smallest) = Ok [p; q] ->
    let x := if wltb (fst q) (fst p) then snd p else snd q in length x = g_n g ->
    exists g' vec, qreach g g' /\ vwf vec /\ (forall k, In k (vkeys vec) <-> k < g_n g) /\
      (forall k, k < g_n g -> vget vec k = wmul (wsqrt (wdiv w1 (degv g k))) (if weqb (nth k x w0) w0 then w0 else nth k x w0)) /\
      snd (cheeger_cut solver g) = (do cut <- sweep_set_graph g' vec; mark cut (repeat 0%Z (g_n g))) /\
      qreach g (fst (cheeger_cut solver g)).
  Proof.
    intros Hc E x Hx. unfold cheeger_cut. pose proof (compute_eigensystem_q solver g MatNormalisedLaplacian 2 Smallest) as Q1.
    destruct (compute_eigensystem solver g MatNormalisedLaplacian 2 Smallest) as [g1 o]. cbn [fst snd] in *. subst o.
    cbn [second_vector]. fold x. destruct (qreach_base g g1 Hc Q1) as [C1 (B1 & B2 & _)].
    destruct (scale_loop_spec (seq 0 (number_of_vertices g1)) g1 (sparse_view x) C1 (sparse_view_wf x) (seq_NoDup _ _))
      as (g2 & vec & E2 & Q2 & Hw & Hk & Hg & _).
    { unfold number_of_vertices. intros v Hv. apply in_seq in Hv. cbn [sparse_view sp_rows]. lia. }
    rewrite E2. destruct (qreach_base g1 g2 C1 Q2) as [C2 (B3 & B4 & _)].
    exists g2, vec. split; [eapply qreach_trans; eauto|]. split; [exact Hw|]. unfold number_of_vertices in *. rewrite <- B1 in *.
    split; [|split; [|split]].
    - intros k. rewrite Hk, in_seq. split; [|lia]. intros [?|Hv]; [lia|].
      pose proof (sparse_view_wf x) as [_ Wf]. pose proof (sp_wf_col _ 0 Wf) as [_ Hb]. rewrite Forall_forall in Hb.
      apply Hb in Hv. cbn [sparse_view sp_rows] in Hv. lia.
    - intros k Hk'. rewrite Hg by (apply in_seq; lia). rewrite sparse_view_get by lia. unfold degv. now rewrite <- B2.
    - cbn [snd]. now rewrite <- B3.
    - cbn [fst]. eapply qreach_trans; [exact Q1|]. apply (q_step _ g2 OpVolume); auto. exact I.
  Qed.
  (** A label 0 or 1 for every vertex, in any arithmetic; the only failure is that of the eigensystem. *)
  Theorem cheeger_labels solver (g : graph W) `{!PosNum W} : solver_shape solver -> reachable g -> no_stored_zero g ->
    match snd (cheeger_cut solver g) with
    | Ok labels => length labels = number_of_vertices g /\ Forall (fun l => l = 0 \/ l = 1)%Z labels
    | Throw e => snd (compute_eigensystem solver g MatNormalisedLaplacian 2 Smallest) = Throw e
    | UB => snd (compute_eigensystem solver g MatNormalisedLaplacian 2 Smallest) = UB
    end.
  Proof.
    intros HS Hr Hz. destruct (reachable_ok g Hr) as [_ Hc].
    destruct (snd (compute_eigensystem solver g MatNormalisedLaplacian 2 Smallest)) as [r|e|] eqn:Er.
    - destruct (eigensystem_shape solver g r HS Hc Er) as (p & q & -> & Lp & Lq).
      destruct (cheeger_steps solver g p q Hc Er) as (g' & vec & Q & Hw & Hk & _ & E & _); [destruct (wltb _ _); auto|].
      destruct (qreach_base g g' Hc Q) as [C' (B1 & B2 & B3)].
      assert (Hr' : reachable g') by (eapply qreach_reachable; [|exact Hr|exact Q]; auto).
      destruct (sweep_set_any g' vec Hr') as (cut & Es & Hcut); auto.
      { unfold no_stored_zero in *. now rewrite <- B2. }
      { intros k Hkk. rewrite <- B1. now apply Hk. }
      rewrite E, Es. cbn [obind]. destruct (mark_spec cut (repeat 0%Z (g_n g))) as (cl & Em & L & G).
      { rewrite repeat_length, B1. exact Hcut. }
      rewrite Em. rewrite repeat_length in *. split; [exact L|]. apply Forall_forall. intros l Hl.
      destruct (In_nth _ _ 0%Z Hl) as (i & Hi & <-). rewrite L in Hi. rewrite G by auto.
      destruct (in_dec Nat.eq_dec i cut); [now right|]. left. apply nth_repeat.
    - unfold cheeger_cut. destruct (compute_eigensystem solver g MatNormalisedLaplacian 2 Smallest) as [g1 o]. cbn [snd] in Er. subst o. reflexivity.
    - unfold cheeger_cut. destruct (compute_eigensystem solver g MatNormalisedLaplacian 2 Smallest) as [g1 o]. cbn [snd] in Er. subst o. reflexivity.
  Qed.
End Any.
