(** A Graph used as a LocalGraph; final statements about sweep sets and conductance. *)
From Verif Require Import Base Num RSum Sparse SparseFacts Graph GraphSpec GraphFacts GraphProps1 GraphProps2 GraphProps5
  Cluster ClusterSpec ClusterCC ClusterPR ClusterPR2 ClusterSweep.
From Coq Require Import Sorting.Sorted Sorting.Permutation Reals Lra.

Lemma ss_lt_nodup l : StronglySorted lt l -> NoDup l.
Proof.
  induction 1 as [|x l Hs IH Hf]; constructor; auto. intros Hi. rewrite Forall_forall in Hf.
  specialize (Hf x Hi). lia.
Qed.

Section Inst.
  Context {W : Type} `{Num W}.

  Lemma graph_has (g : graph W) v : lg_has (lg_of_graph g) v <-> v < number_of_vertices g.
  Proof. unfold lg_has. simpl. rewrite vertex_exists_spec. lia. Qed.

  Lemma graph_degree_ok (g : graph W) v : v < number_of_vertices g ->
    exists d, snd (degree g (Z.of_nat v)) = Ok d.
  Proof.
    intros Hv. unfold degree. rewrite check_vertex_ok by (unfold number_of_vertices in Hv; lia).
    simpl. eauto.
  Qed.

  Lemma graph_lg_ok `{!PosNum W} (g : graph W) : reachable g -> no_stored_zero g -> lg_ok (lg_of_graph g).
  Proof.
    intros Hr Hz. constructor.
    - intros z Hz'. simpl in Hz'. apply vertex_exists_spec in Hz'. lia.
    - intros v Hv. apply graph_has in Hv. destruct (neighbors_exact g v Hr Hv) as (es & E & _).
      unfold nbe. simpl. now rewrite E.
    - intros v Hv. apply graph_has in Hv. destruct (unweighted_agree g v Hr Hz Hv) as (es & E & E2 & _).
      unfold nb, nbe. simpl. now rewrite E, E2.
    - intros v Hv. apply graph_has in Hv. destruct (graph_degree_ok g v Hv) as [d E].
      unfold dg. simpl. now rewrite E.
    - intros v u Hv Hu. apply graph_has in Hv. apply graph_has.
      destruct (neighbors_exact g v Hr Hv) as (es & E & _ & He).
      unfold nb, nbe in Hu. simpl in Hu. rewrite E in Hu. apply in_map_iff in Hu.
      destruct Hu as (e & <- & Hin). now apply He in Hin.
    - intros v Hv. rewrite graph_has in Hv. exists InvalidArgument. simpl.
      destruct (local_queries_invalid g (Z.of_nat v)) as (_ & _ & _ & -> & _); [lia|reflexivity].
  Qed.
End Inst.

Section InstR.
  Context {W : Type} `{ExactNum W}.
  Local Open Scope R_scope.

  Lemma pos_no_zero (g : graph W) : reachable_pos g -> no_stored_zero g.
  Proof.
    intros Hr i j v G. destruct (reachable_pos_inv g Hr) as [Hp _]. specialize (Hp _ _ _ G).
    destruct (weqb v w0) eqn:E; auto. apply toR_eqb in E. rewrite toR_0 in E. lra.
  Qed.
  Lemma rw_nonneg (g : graph W) u v : reachable_pos g -> 0 <= rw g u v.
  Proof.
    intros Hr. destruct (reachable_pos_inv g Hr) as [Hp _]. unfold rw, weight, coeff.
    destruct (sp_get (g_adj g) u v) as [x|] eqn:G; simpl; [|rewrite toR_0; lra].
    specialize (Hp _ _ _ G). lra.
  Qed.
  Lemma graph_nb (g : graph W) v : reachable_pos g -> (v < number_of_vertices g)%nat ->
    NoDup (nb (lg_of_graph g) v) /\
    (forall u, In u (nb (lg_of_graph g) v) <-> (u < number_of_vertices g)%nat /\ 0 < rw g v u) /\
    (forall e, In e (nbe (lg_of_graph g) v) -> toR (ewt e) = rw g v (v2 e)).
  Proof.
    intros Hr Hv. pose proof (reachable_pos_reachable g Hr) as Hr'.
    destruct (neighbors_exact g v Hr' Hv) as (es & E & Hss & He).
    unfold nb, nbe. simpl. rewrite E. split; [now apply ss_lt_nodup|]. split.
    - intros u. rewrite in_map_iff. split.
      + intros (e & <- & Hin). apply He in Hin. destruct Hin as (_ & Hu & Ew & Hne). split; auto.
        pose proof (rw_nonneg g v (v2 e) Hr). unfold rw in *. rewrite <- Ew in *.
        destruct (Req_dec (toR (ewt e)) 0) as [E0|]; [|lra]. rewrite <- toR_0 in E0.
        apply toR_eqb in E0. congruence.
      + intros [Hu Hp]. exists (mkEdge v u (weight g v u)). split; auto. apply He. simpl.
        repeat split; auto. destruct (weqb (weight g v u) w0) eqn:E0; auto.
        apply toR_eqb in E0. rewrite toR_0 in E0. unfold rw in Hp. lra.
    - intros e Hin. apply He in Hin. destruct Hin as (_ & _ & Ew & _). unfold rw. now rewrite <- Ew.
  Qed.
  Lemma rw_out (g : graph W) v u : reachable g -> (number_of_vertices g <= u)%nat -> rw g v u = 0.
  Proof.
    intros Hr Hu. destruct (reachable_ok g Hr) as [(R & C & Hwf) _]. unfold rw, weight, coeff, sp_get, sp_col.
    rewrite nth_overflow; [simpl; apply toR_0|]. unfold number_of_vertices, sp_ncols in *. lia.
  Qed.
  Lemma lsum_nb (g : graph W) v f : reachable_pos g -> (v < number_of_vertices g)%nat ->
    (forall u, rw g v u = 0 -> f u = 0) ->
    lsum f (nb (lg_of_graph g) v) = rsum (number_of_vertices g) f.
  Proof.
    intros Hr Hv Hf. destruct (graph_nb g v Hr Hv) as (Hnd & Hin & _).
    assert (Ef : forall u, ~ In u (nb (lg_of_graph g) v) -> (u < number_of_vertices g)%nat -> f u = 0).
    { intros u Hn Hu. apply Hf. rewrite Hin in Hn. pose proof (rw_nonneg g v u Hr).
      destruct (Rle_lt_or_eq_dec _ _ H1); [tauto|auto]. }
    unfold rsum.
    transitivity (lsum (fun u => if nmem u (nb (lg_of_graph g) v) then f u else 0) (seq 0 (number_of_vertices g))).
    - rewrite <- lsum_inter; auto using seq_NoDup. apply lsum_ext. intros u Hu.
      apply Hin in Hu. destruct (nmem u (seq 0 (number_of_vertices g))) eqn:E; auto.
      apply nmem_false in E. exfalso. apply E, in_seq. lia.
    - apply lsum_ext. intros u Hu. apply in_seq in Hu. destruct (nmem u (nb (lg_of_graph g) v)) eqn:E; auto.
      symmetry. apply Ef; [now apply nmem_false|lia].
  Qed.
  Lemma graph_ldeg (g : graph W) v : reachable g -> (v < number_of_vertices g)%nat ->
    ldeg (lg_of_graph g) v = rdeg g v.
  Proof.
    intros Hr Hv. destruct (degree_exact g v Hr Hv) as (d & E & Ed). unfold ldeg, dg. simpl. now rewrite E.
  Qed.
  Lemma graph_lg_spec (g : graph W) : reachable_pos g -> lg_spec (lg_of_graph g) (rw g).
  Proof.
    intros Hr. pose proof (reachable_pos_reachable g Hr) as Hr'. constructor.
    - apply graph_lg_ok; auto. now apply pos_no_zero.
    - intros u v. now apply rw_sym.
    - intros u v. now apply rw_nonneg.
    - intros v Hv. apply graph_has in Hv. now apply graph_nb.
    - intros v u Hv. apply graph_has in Hv. destruct (graph_nb g v Hr Hv) as (_ & Hin & _). rewrite Hin.
      split; [tauto|]. intros Hp. split; auto. destruct (le_lt_dec (number_of_vertices g) u); auto.
      rewrite rw_out in Hp by auto. lra.
    - intros v e Hv He. apply graph_has in Hv. now apply graph_nb.
    - intros v Hv. apply graph_has in Hv. fold (ldeg (lg_of_graph g) v). rewrite graph_ldeg by auto.
      rewrite lsum_nb; auto.
  Qed.
  Lemma graph_lvol (g : graph W) S : reachable g -> (forall v, In v S -> (v < number_of_vertices g)%nat) ->
    lvol (lg_of_graph g) S = gvol g S.
  Proof. intros Hr HS. apply lsum_ext. intros v Hv. apply graph_ldeg; auto. Qed.
  Lemma graph_lcut (g : graph W) S : reachable_pos g -> (forall v, In v S -> (v < number_of_vertices g)%nat) ->
    lcut (lg_of_graph g) (rw g) S = gcut g S.
  Proof.
    intros Hr HS. apply lsum_ext. intros v Hv. apply lsum_nb; auto. intros u ->. lra.
  Qed.
  (** The cut is at most the volume of the complement. *)
  Lemma gcut_le_compl (g : graph W) S : reachable_pos g -> NoDup S ->
    (forall v, In v S -> (v < number_of_vertices g)%nat) -> gcut g S <= gtotal g - gvol g S.
  Proof.
    intros Hr Hnd HS. unfold gcut, gtotal, gvol.
    assert (E : lsum (rdeg g) S = rsum (number_of_vertices g) (fun v => rdeg g v * (1 - notin S v))).
    { unfold rsum. transitivity (lsum (fun x => if nmem x S then rdeg g x else 0) (seq 0 (number_of_vertices g))).
      - rewrite <- lsum_inter; auto using seq_NoDup. apply lsum_ext. intros x Hx. apply HS in Hx.
        destruct (nmem x (seq 0 (number_of_vertices g))) eqn:E; auto. apply nmem_false in E. exfalso.
        apply E, in_seq. lia.
      - apply lsum_ext. intros x _. rewrite notin_nmem. destruct (nmem x S); lra. }
    rewrite E, <- rsum_minus. unfold rsum at 1. rewrite lsum_swap. fold (rsum (number_of_vertices g)
      (fun y => lsum (fun x => rw g x y * notin S y) S)).
    apply rsum_le. intros y Hy. rewrite lsum_scal_r.
    assert (Hle : lsum (fun x => rw g x y) S <= rdeg g y).
    { unfold rdeg. pose proof (rw_nonneg g y y Hr).
      assert (lsum (fun x => rw g x y) S <= rsum (g_n g) (fun u => rw g y u)); [|lra].
      apply Rle_trans with (lsum (fun x => if nmem x S then rw g y x else 0) (seq 0 (g_n g))).
      - rewrite <- lsum_inter; auto using seq_NoDup. apply Req_le. apply lsum_ext. intros x Hx.
        rewrite rw_sym by (now apply reachable_pos_reachable). apply HS in Hx. unfold number_of_vertices in Hx.
        destruct (nmem x (seq 0 (g_n g))) eqn:E'; auto. apply nmem_false in E'. exfalso. apply E', in_seq. lia.
      - apply lsum_le. intros x _. pose proof (rw_nonneg g y x Hr). destruct (nmem x S); lra. }
    rewrite notin_nmem. destruct (nmem y S); lra.
  Qed.
End InstR.

(** ** Sweep sets: statement for any local graph *)
Section SweepFinal.
  Context {W : Type} `{ExactNum W}.
  Local Open Scope R_scope.
  (** [i] is listed before [j]: larger value, or same value and smaller index. *)
  Definition sweep_before (x : sprs W) (i j : nat) : Prop := rv x j < rv x i \/ (rv x j = rv x i /\ (i < j)%nat).

  Lemma inner_vkeys (x : sprs W) : vwf x -> inner_indices x = vkeys x.
  Proof.
    intros [Hc _]. unfold inner_indices, vkeys, sp_col, sp_ncols in *.
    destruct (sp_cols x) as [|c [|? ?]]; simpl in *; try discriminate. now rewrite app_nil_r.
  Qed.
  Lemma vkeys_sorted (x : sprs W) : vwf x -> StronglySorted lt (vkeys x).
  Proof. intros [_ Hw]. apply (sp_wf_col x 0 Hw). Qed.
  Lemma sweep_order_spec (x : sprs W) : vwf x ->
    Permutation (vkeys x) (sweep_order x) /\ StronglySorted (sweep_before x) (sweep_order x).
  Proof.
    intros Hx. unfold sweep_order. rewrite inner_vkeys by auto. split; [apply stable_sort_perm|].
    assert (Hs : StronglySorted (stable_le (fun i j => wltb (vget x j) (vget x i)) lt)
                  (stable_sort (fun i j => wltb (vget x j) (vget x i)) (vkeys x))).
    { apply (stable_sort_sorted _ (fun _ => True)).
      - intros a b c _ _ _ Hab Hbc. apply toR_ltb in Hab, Hbc. apply toR_ltb. lra.
      - intros a b c _ _ _ Hac. apply toR_ltb in Hac.
        destruct (Rlt_le_dec (toR (vget x b)) (toR (vget x a))) as [?|?]; [left|right]; apply toR_ltb; lra.
      - apply Forall_forall. auto.
      - now apply vkeys_sorted. }
    clear -Hs. induction Hs as [|i l Hs IH Hf]; constructor; auto.
    rewrite Forall_forall in *. intros j Hj. destruct (Hf j Hj) as [Hlt|[Hge Hl]]; unfold sweep_before, rv.
    - left. now apply toR_ltb.
    - apply toR_ltb_false in Hge. destruct (Req_dec (toR (vget x j)) (toR (vget x i))); [right; auto|left; lra].
  Qed.

  Lemma sweep_set_spec (lg : lgraph W) w (x : sprs W) (tot : W) : lg_spec lg w -> vwf x ->
    (forall k, In k (vkeys x) -> lg_has lg k) ->
    (toR tot = 0 \/ forall S, NoDup S -> incl S (vkeys x) -> lcut lg w S <= toR tot - lvol lg S) ->
    exists order k,
      Permutation (vkeys x) order /\ StronglySorted (sweep_before x) order /\
      sweep_set_inner lg x tot = Ok (firstn k order) /\ (k <= length order)%nat /\
      (forall j, (1 <= j <= length order)%nat -> 0 < pden lg (toR tot) (firstn j order) ->
        (1 <= k)%nat /\ 0 < pden lg (toR tot) (firstn k order) /\
        pcond lg w (toR tot) (firstn k order) <= pcond lg w (toR tot) (firstn j order) /\
        ((j < k)%nat -> pcond lg w (toR tot) (firstn k order) < pcond lg w (toR tot) (firstn j order))) /\
      ((forall j, (1 <= j <= length order)%nat -> ~ 0 < pden lg (toR tot) (firstn j order)) -> k = 0%nat).
  Proof.
    intros Hs Hx Hk Htot. destruct (sweep_order_spec x Hx) as [Hp Hss].
    assert (Hnd : NoDup (sweep_order x)).
    { eapply Permutation_NoDup; [exact Hp|]. apply ss_lt_nodup. now apply vkeys_sorted. }
    assert (Hhas : forall v, In v (sweep_order x) -> lg_has lg v).
    { intros v Hv. apply Hk. eapply Permutation_in; [apply Permutation_sym; exact Hp|auto]. }
    destruct (sweep_loop_spec lg w Hs tot (sweep_order x) Hnd Hhas (sweep_order x) [] w0 w0 (wadd w1 w1) 0%nat)
      as (k & b & E & Hb); auto.
    - rewrite toR_0. reflexivity.
    - rewrite toR_0. reflexivity.
    - left. split; auto. rewrite toR_add, toR_1. split; [lra|]. intros j Hj. simpl in Hj. lia.
    - exists (sweep_order x), k. split; auto. split; auto. split.
      { unfold sweep_set_inner. rewrite (lg_degrees_ok lg (ls_ok lg w Hs)) by auto. cbn [obind].
        simpl rev in E. simpl length in E. rewrite E. reflexivity. }
      assert (Hle1 : forall j, 0 < pden lg (toR tot) (firstn j (sweep_order x)) ->
                pcond lg w (toR tot) (firstn j (sweep_order x)) <= 1).
      { intros j Hd. unfold pcond. apply Rmult_le_reg_r with (pden lg (toR tot) (firstn j (sweep_order x))); auto.
        unfold Rdiv. rewrite Rmult_assoc, Rinv_l by lra. rewrite Rmult_1_r, Rmult_1_l.
        assert (Hin : forall v, In v (firstn j (sweep_order x)) -> In v (sweep_order x)).
        { intros v Hv. rewrite <- (firstn_skipn j (sweep_order x)). apply in_app_iff. now left. }
        unfold pden, rden. destruct (Req_EM_T (toR tot) 0) as [E0|E0].
        - apply (lcut_le_lvol lg w Hs). auto.
        - apply Rmin_glb.
          + apply (lcut_le_lvol lg w Hs). auto.
          + destruct Htot as [?|Htot]; [tauto|]. apply Htot.
            * now apply nodup_firstn.
            * intros v Hv. eapply Permutation_in; [apply Permutation_sym; exact Hp|auto]. }
      destruct Hb as [(-> & _ & Hall)|(Hbi & Hpb & Eb & H2 & Hall & Hstr)].
      + split; [lia|]. split; auto. intros j Hj Hd. exfalso.
        specialize (Hall j Hj Hd). specialize (Hle1 j Hd). lra.
      + split; [lia|]. split.
        * intros j Hj Hd. split; [lia|]. split; auto. rewrite <- Eb. split; [auto|]. intros Hlt. apply Hstr; auto. lia.
        * intros Hno. exfalso. apply (Hno k); auto.
  Qed.

  (** The same for a Graph, in terms of its weights only. *)
  Definition gden (g : graph W) (S : list nat) : R := Rmin (gvol g S) (gtotal g - gvol g S).
  Lemma sweep_set_graph_spec (g : graph W) (x : sprs W) : reachable_pos g -> vwf x ->
    (forall k, In k (vkeys x) -> (k < number_of_vertices g)%nat) ->
    exists order k,
      Permutation (vkeys x) order /\ StronglySorted (sweep_before x) order /\
      sweep_set_graph g x = Ok (firstn k order) /\ (k <= length order)%nat /\
      (forall j, (1 <= j <= length order)%nat -> 0 < gden g (firstn j order) ->
        (1 <= k)%nat /\ 0 < gden g (firstn k order) /\
        gcond g (firstn k order) <= gcond g (firstn j order) /\
        ((j < k)%nat -> gcond g (firstn k order) < gcond g (firstn j order))) /\
      ((forall j, (1 <= j <= length order)%nat -> ~ 0 < gden g (firstn j order)) -> k = 0%nat).
  Proof.
    intros Hr Hx Hk. pose proof (reachable_pos_reachable g Hr) as Hr'.
    assert (Et : toR (snd (total_volume g)) = gtotal g) by (apply total_volume_exact; auto).
    destruct (sweep_set_spec (lg_of_graph g) (rw g) x (snd (total_volume g)) (graph_lg_spec g Hr) Hx)
      as (order & k & Hp & Hss & E & Hkl & Hbest & Hnone).
    - intros v Hv. apply graph_has. auto.
    - right. intros S HS Hi. rewrite Et, graph_lcut, graph_lvol by auto. apply gcut_le_compl; auto.
    - rewrite Et in *.
      assert (Hin : forall j v, In v (firstn j order) -> (v < number_of_vertices g)%nat).
      { intros j v Hv. apply Hk. eapply Permutation_in; [apply Permutation_sym; exact Hp|].
        rewrite <- (firstn_skipn j order). apply in_app_iff. now left. }
      assert (Ed : forall j, pden (lg_of_graph g) (gtotal g) (firstn j order) = gden g (firstn j order)
                    \/ (~ 0 < pden (lg_of_graph g) (gtotal g) (firstn j order) /\ ~ 0 < gden g (firstn j order))).
      { intros j. unfold pden, gden, rden. rewrite graph_lvol by eauto.
        destruct (Req_EM_T (gtotal g) 0) as [E0|E0]; [|now left]. right.
        assert (Hv0 : gvol g (firstn j order) <= 0).
        { assert (Hz : forall v, In v (firstn j order) -> rdeg g v = 0).
          { intros v Hv. apply Hin in Hv.
            assert (Hnn : forall u, (u < number_of_vertices g)%nat -> 0 <= rdeg g u).
            { intros u Hu. unfold rdeg. pose proof (rw_nonneg g u u Hr).
              assert (0 <= rsum (g_n g) (fun u0 => rw g u u0)) by (apply rsum_nonneg; intros; now apply rw_nonneg).
              lra. }
            pose proof (rsum_ge_elt _ (rdeg g) v Hnn Hv) as Hge. fold (gtotal g) in Hge. specialize (Hnn v Hv). lra. }
          unfold gvol. rewrite lsum_0 by auto. lra. }
        split; [lra|]. pose proof (Rmin_l (gvol g (firstn j order)) (gtotal g - gvol g (firstn j order))). lra. }
      assert (Ed' : forall j, 0 < gden g (firstn j order) ->
                pden (lg_of_graph g) (gtotal g) (firstn j order) = gden g (firstn j order)).
      { intros j Hd. destruct (Ed j) as [?|[_ ?]]; tauto. }
      assert (Ec : forall j, 0 < gden g (firstn j order) ->
                pcond (lg_of_graph g) (rw g) (gtotal g) (firstn j order) = gcond g (firstn j order)).
      { intros j Hd. unfold pcond, gcond. rewrite (Ed' j Hd). rewrite graph_lcut by eauto. reflexivity. }
      exists order, k. split; auto. split; auto. split; [exact E|]. split; auto. split.
      + intros j Hj Hd. destruct (Hbest j Hj) as (H1k & Hdk & Hle & Hlt); [now rewrite Ed'|].
        assert (Hdk' : 0 < gden g (firstn k order)).
        { destruct (Ed k) as [<-|[? _]]; tauto. }
        rewrite !Ec in * by auto. auto.
      + intros Hno. apply Hnone. intros j Hj Hd. apply (Hno j Hj). destruct (Ed j) as [<-|[? _]]; tauto.
  Qed.
  Lemma sweep_set_local_spec (lg : lgraph W) w (x : sprs W) : lg_spec lg w -> vwf x ->
    (forall k, In k (vkeys x) -> lg_has lg k) ->
    exists order k,
      Permutation (vkeys x) order /\ StronglySorted (sweep_before x) order /\
      sweep_set_local lg x = Ok (firstn k order) /\ (k <= length order)%nat /\
      (forall j, (1 <= j <= length order)%nat -> 0 < lvol lg (firstn j order) ->
        (1 <= k)%nat /\ 0 < lvol lg (firstn k order) /\
        lcut lg w (firstn k order) / lvol lg (firstn k order) <= lcut lg w (firstn j order) / lvol lg (firstn j order) /\
        ((j < k)%nat -> lcut lg w (firstn k order) / lvol lg (firstn k order) < lcut lg w (firstn j order) / lvol lg (firstn j order))) /\
      ((forall j, (1 <= j <= length order)%nat -> ~ 0 < lvol lg (firstn j order)) -> k = 0%nat).
  Proof.
    intros Hs Hx Hk. destruct (sweep_set_spec lg w x w0 Hs Hx Hk) as (order & k & Hrest); [left; apply toR_0|].
    exists order, k. unfold pcond, pden, rden in Hrest. rewrite toR_0 in Hrest.
    destruct (Req_EM_T 0 0) as [_|?]; [|tauto]. exact Hrest.
  Qed.

  (** ** Conductance *)
  Lemma cond_cut_fold (set : list Z) es (c : W) :
    toR (fold_left (fun c e => if zmem (Z.of_nat (v2 e)) set then c else wadd c (ewt e)) es c) =
    toR c + lsum (fun e => if zmem (Z.of_nat (v2 e)) set then 0 else toR (ewt e)) es.
  Proof.
    revert c; induction es as [|e es IH]; intros c; simpl; [lra|]. rewrite IH.
    destruct (zmem _ _); [lra|]. rewrite toR_add. lra.
  Qed.
  Lemma cond_deg_fold es (c : W) :
    toR (fold_left (fun a (e : edge W) => wadd a (ewt e)) es c) = toR c + lsum (fun e => toR (ewt e)) es.
  Proof. revert c; induction es as [|e es IH]; intros c; simpl; [lra|]. rewrite IH, toR_add. lra. Qed.
  Lemma zmem_of_nat v S : zmem (Z.of_nat v) (map Z.of_nat S) = nmem v S.
  Proof.
    apply eq_true_iff_eq. rewrite zmem_In, nmem_In, in_map_iff. split.
    - intros (x & E & Hx). apply Nat2Z.inj in E. now subst.
    - intros Hv. eauto.
  Qed.
  Lemma cond_loop_spec (lg : lgraph W) w S : lg_spec lg w -> forall cl cut vol,
    (forall v, In v cl -> lg_has lg v) ->
    exists c v, cond_loop lg (map Z.of_nat S) (map Z.of_nat cl) cut vol = Ok (c, v) /\
      toR c = toR cut + lsum (fun u => lsum (fun v => w u v * notin S v) (nb lg u)) cl /\
      toR v = toR vol + lsum (fun u => lsum (w u) (nb lg u)) cl.
  Proof.
    intros Hs. induction cl as [|u cl IH]; intros cut vol Hcl; cbn [map cond_loop lsum].
    - exists cut, vol. split; auto. split; lra.
    - assert (Hu : lg_has lg u) by (apply Hcl; now left).
      rewrite (lo_neigh lg (ls_ok lg w Hs)) by auto. cbn [obind].
      match goal with |- context [cond_loop _ _ _ ?c ?d] => destruct (IH c d) as (c' & v' & E & Ec & Ev) end;
        [intros; apply Hcl; now right|].
      exists c', v'. split; [exact E|].
      rewrite toR_add, cond_deg_fold, toR_0 in Ev. rewrite cond_cut_fold in Ec. rewrite Ec, Ev.
      unfold nb. rewrite !lsum_map.
      assert (E1 : lsum (fun e => if zmem (Z.of_nat (v2 e)) (map Z.of_nat S) then 0 else toR (ewt e)) (nbe lg u) =
                   lsum (fun e => w u (v2 e) * notin S (v2 e)) (nbe lg u)).
      { apply lsum_ext. intros e He. rewrite zmem_of_nat, notin_nmem, (ls_wt lg w Hs u e Hu He).
        destruct (nmem (v2 e) S); lra. }
      assert (E2 : lsum (fun e => toR (ewt e)) (nbe lg u) = lsum (fun e => w u (v2 e)) (nbe lg u)).
      { apply lsum_ext. intros e He. now rewrite (ls_wt lg w Hs u e Hu He). }
      rewrite E1, E2. split; lra.
  Qed.
  Lemma conductance_spec (lg : lgraph W) w S : lg_spec lg w -> (forall v, w v v = 0) ->
    (forall v, In v S -> lg_has lg v) ->
    exists c, conductance lg (map Z.of_nat S) = Ok c /\
      (lvol lg S = 0 -> toR c = 0) /\ (lvol lg S <> 0 -> toR c = lcut lg w S / lvol lg S).
  Proof.
    intros Hs Hnl HS. unfold conductance.
    destruct (cond_loop_spec lg w S Hs S w0 w0 HS) as (c & v & E & Ec & Ev). rewrite E. cbn [obind fst snd].
    assert (Elv : toR v = lvol lg S).
    { rewrite Ev, toR_0, Rplus_0_l. apply lsum_ext. intros u Hu. unfold ldeg.
      rewrite (ls_deg lg w Hs) by auto. rewrite Hnl. lra. }
    assert (Elc : toR c = lcut lg w S) by (rewrite Ec, toR_0, Rplus_0_l; reflexivity).
    destruct (weqb v w0) eqn:E0.
    - apply toR_eqb in E0. rewrite toR_0, Elv in E0. exists w0. split; auto. split; [intros; apply toR_0|tauto].
    - assert (lvol lg S <> 0) as Hne.
      { intros E'. rewrite <- Elv, <- toR_0 in E'. apply toR_eqb in E'. congruence. }
      exists (wdiv c v). split; auto. split; [tauto|]. intros _. rewrite toR_div by (now rewrite Elv).
      now rewrite Elc, Elv.
  Qed.
  (** For a Graph, no hypothesis on self-loops: the code divides by the sum of incident weights,
      in which a self-loop counts once. *)
  Lemma conductance_graph_spec (g : graph W) S : reachable_pos g ->
    (forall v, In v S -> (v < number_of_vertices g)%nat) -> (forall v, In v S -> rw g v v = 0) ->
    exists c, conductance (lg_of_graph g) (map Z.of_nat S) = Ok c /\
      (gvol g S = 0 -> toR c = 0) /\ (gvol g S <> 0 -> toR c = gcut g S / gvol g S).
  Proof.
    intros Hr HS Hnl. unfold conductance. pose proof (reachable_pos_reachable g Hr) as Hr'.
    destruct (cond_loop_spec (lg_of_graph g) (rw g) S (graph_lg_spec g Hr) S w0 w0) as (c & v & E & Ec & Ev).
    { intros v Hv. apply graph_has. auto. }
    rewrite E. cbn [obind fst snd].
    assert (Elv : toR v = gvol g S).
    { rewrite Ev, toR_0, Rplus_0_l. apply lsum_ext. intros u Hu. rewrite lsum_nb; auto. unfold rdeg.
      rewrite (Hnl u Hu), Rplus_0_r. reflexivity. }
    assert (Elc : toR c = gcut g S).
    { rewrite Ec, toR_0, Rplus_0_l. apply lsum_ext. intros u Hu. rewrite lsum_nb; auto. intros x ->. lra. }
    destruct (weqb v w0) eqn:E0.
    - apply toR_eqb in E0. rewrite toR_0, Elv in E0. exists w0. split; auto. split; [intros; apply toR_0|tauto].
    - assert (gvol g S <> 0) as Hne.
      { intros E'. rewrite <- Elv, <- toR_0 in E'. apply toR_eqb in E'. congruence. }
      exists (wdiv c v). split; auto. split; [tauto|]. intros _. rewrite toR_div by (now rewrite Elv).
      now rewrite Elc, Elv.
  Qed.
End SweepFinal.
