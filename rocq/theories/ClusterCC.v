(** Proofs about connected components. *)
From Verif Require Import Base Num Sparse SparseFacts Graph GraphSpec GraphFacts GraphProps1 GraphProps5 Cluster.
From Coq Require Import Sorting.Sorted Relations.

Lemma concat_perm {A} (l l' : list (list A)) :
  Permutation.Permutation l l' -> Permutation.Permutation (concat l) (concat l').
Proof.
  induction 1; simpl; auto.
  - now apply Permutation.Permutation_app_head.
  - rewrite !app_assoc. apply Permutation.Permutation_app_tail, Permutation.Permutation_app_comm.
  - eapply Permutation.perm_trans; eauto.
Qed.
Lemma nodup_app {A} (a b : list A) : NoDup a -> NoDup b -> (forall x, In x a -> ~ In x b) -> NoDup (a ++ b).
Proof.
  induction a as [|x a IH]; simpl; auto. intros Ha Hb Hd. inversion Ha; subst. constructor.
  - rewrite in_app_iff. intros [?|?]; [tauto|]. apply (Hd x); auto.
  - apply IH; auto.
Qed.

Section CC.
  Context {W : Type} `{Num W}.
  Local Open Scope Z_scope.

  (** [y] is listed by neighbors_unweighted(x). *)
  Definition lg_edge (lg : lgraph W) (x y : Z) : Prop :=
    exists ns, lg_nunw lg x = Ok ns /\ In y (map Z.of_nat ns).
  Definition lg_path (lg : lgraph W) : Z -> Z -> Prop := clos_refl_trans Z (lg_edge lg).

  Lemma zmem_In x l : zmem x l = true <-> In x l.
  Proof.
    unfold zmem. rewrite existsb_exists. split.
    - intros [y [Hy E]]. apply Z.eqb_eq in E. now subst.
    - intros Hx. exists x. split; auto. apply Z.eqb_refl.
  Qed.
  Lemma zmem_false x l : zmem x l = false <-> ~ In x l.
  Proof. rewrite <- zmem_In. destruct (zmem x l); split; congruence. Qed.

  Lemma cc_scan_spec ns : forall vec fr,
    exists new, cc_scan ns vec vec fr = (new ++ vec, new ++ vec, new ++ fr) /\
      (NoDup vec -> NoDup (new ++ vec)) /\
      (forall x, In x new <-> In x ns /\ ~ In x vec).
  Proof.
    induction ns as [|n ns IH]; intros vec fr; simpl.
    - exists []. simpl. repeat split; auto; try contradiction. tauto.
    - destruct (zmem n vec) eqn:E.
      + apply zmem_In in E. destruct (IH vec fr) as (new & -> & Hnd & Hin).
        exists new. split; [reflexivity|]. split; auto. intros x. rewrite Hin. split.
        * tauto.
        * intros [[->|?] ?]; tauto.
      + apply zmem_false in E. destruct (IH (n :: vec) (n :: fr)) as (new & -> & Hnd & Hin).
        exists (new ++ [n]). rewrite <- !app_assoc. simpl. split; [reflexivity|]. split.
        * intros Hv. apply Hnd. now constructor.
        * intros x. rewrite in_app_iff, Hin. simpl. split.
          -- intros [[? ?]|[->|[]]]; tauto.
          -- intros [[->|?] Hx]; [tauto|]. destruct (Z.eq_dec n x); [subst; tauto|]. left. split; auto.
             intros [?|?]; tauto.
  Qed.

  (** Partial correctness, for every local graph. *)
  Lemma cc_loop_correct (lg : lgraph W) v : forall fuel vec fr l,
    NoDup vec -> incl fr vec -> In v vec ->
    (forall x, In x vec -> lg_path lg v x) ->
    (forall x, In x vec -> ~ In x fr -> exists ns, lg_nunw lg x = Ok ns /\ incl (map Z.of_nat ns) vec) ->
    cc_loop fuel lg vec vec fr = Some (Ok l) ->
    NoDup l /\ forall x, In x l <-> lg_path lg v x.
  Proof.
    induction fuel as [|fuel IH]; intros vec fr l Hnd Hfr Hv Hp Hc; destruct fr as [|u fr]; simpl; try discriminate.
    1,2: intros [= <-]; split; [now apply NoDup_rev|]; intros x; rewrite <- in_rev; split; [apply Hp|];
      intros Hx; apply clos_rt_rtn1 in Hx; induction Hx as [|y z Hyz _ IHx]; [exact Hv|];
      destruct (Hc y IHx) as (ns & E & Hi); [simpl; tauto|]; destruct Hyz as (ns' & E' & Hin);
      rewrite E in E'; injection E' as <-; now apply Hi.
    destruct (lg_nunw lg u) as [ns| |] eqn:E; try discriminate.
    destruct (cc_scan_spec (map Z.of_nat ns) vec fr) as (new & -> & Hnd' & Hin).
    apply IH.
    - auto.
    - intros x Hx. apply in_app_iff in Hx. apply in_app_iff. destruct Hx; auto. right. apply Hfr. now right.
    - apply in_app_iff. auto.
    - intros x Hx. apply in_app_iff in Hx. destruct Hx as [Hx|Hx]; [|auto].
      apply Hin in Hx. destruct Hx as [Hx _]. eapply rt_trans; [apply Hp, Hfr; left; reflexivity|].
      apply rt_step. exists ns. auto.
    - intros x Hx Hnf. destruct (Z.eq_dec x u) as [->|Hne].
      + exists ns. split; auto. intros y Hy. apply in_app_iff.
        destruct (in_dec Z.eq_dec y vec); [auto|]. left. apply Hin. auto.
      + apply in_app_iff in Hx. destruct Hx as [Hx|Hx].
        * exfalso. apply Hnf. apply in_app_iff. auto.
        * destruct (Hc x Hx) as (ns' & E' & Hi).
          -- intros [->|Hf]; [tauto|]. apply Hnf. apply in_app_iff. auto.
          -- exists ns'. split; auto. intros y Hy. apply in_app_iff. right. now apply Hi.
  Qed.
  Lemma connected_component_correct fuel (lg : lgraph W) v l :
    connected_component fuel lg v = Some (Ok l) -> NoDup l /\ forall x, In x l <-> lg_path lg v x.
  Proof.
    apply cc_loop_correct.
    - constructor; [auto|constructor].
    - apply incl_refl.
    - now left.
    - intros x [->|[]]. apply rt_refl.
    - intros x [->|[]] Hn. exfalso. apply Hn. now left.
  Qed.

  (** Termination when the explored part is contained in a finite closed set. *)
  Lemma cc_loop_total (lg : lgraph W) (V : list Z) :
    (forall x, In x V -> exists ns, lg_nunw lg x = Ok ns /\ incl (map Z.of_nat ns) V) ->
    forall fuel vec fr, NoDup vec -> incl vec V -> incl fr vec ->
    (length V + length fr <= fuel + length vec)%nat ->
    exists l, cc_loop fuel lg vec vec fr = Some (Ok l).
  Proof.
    intros HV. induction fuel as [|fuel IH]; intros vec fr Hnd Hi Hf Hl; destruct fr as [|u fr]; simpl; eauto.
    - pose proof (NoDup_incl_length Hnd Hi) as Hlen. simpl in Hl. lia.
    - destruct (HV u) as (ns & E & Hns); [apply Hi, Hf; now left|]. rewrite E.
      destruct (cc_scan_spec (map Z.of_nat ns) vec fr) as (new & -> & Hnd' & Hin).
      apply IH.
      + auto.
      + intros x Hx. apply in_app_iff in Hx. destruct Hx as [Hx|Hx]; [|auto]. apply Hin in Hx. apply Hns, Hx.
      + intros x Hx. apply in_app_iff in Hx. apply in_app_iff. destruct Hx; auto. right. apply Hf. now right.
      + simpl in Hl. rewrite !app_length. lia.
  Qed.

  (** ** Graphs *)
  (** Two vertices are joined by an edge: an entry of the adjacency matrix is stored. *)
  Definition stored_edge (g : graph W) (u v : nat) : Prop := sp_get (g_adj g) u v <> None.
  Definition gpath (g : graph W) : nat -> nat -> Prop := clos_refl_trans nat (stored_edge g).

  Definition all_vertices (g : graph W) : list Z := map Z.of_nat (seq 0 (g_n g)).
  Lemma all_vertices_In g x : In x (all_vertices g) <-> 0 <= x < Z.of_nat (g_n g).
  Proof.
    unfold all_vertices. rewrite in_map_iff. split.
    - intros (k & <- & Hk). apply in_seq in Hk. lia.
    - intros Hx. exists (Z.to_nat x). split; [lia|]. apply in_seq. lia.
  Qed.
  Lemma col_get_In_fst (c : col W) i : col_get c i <> None <-> In i (map fst c).
  Proof.
    induction c as [|[k v] c IH]; simpl; [tauto|].
    destruct (Nat.eqb_spec k i) as [->|Hne]; [split; [auto|discriminate]|].
    rewrite IH. split; [auto|]. intros [?|?]; [congruence|auto].
  Qed.
  Lemma graph_edges g u : reachable g -> (u < g_n g)%nat ->
    exists ns, lg_nunw (lg_of_graph g) (Z.of_nat u) = Ok ns /\
      (forall v, In v ns <-> stored_edge g v u) /\ incl (map Z.of_nat ns) (all_vertices g).
  Proof.
    intros Hr Hu. destruct (reachable_ok g Hr) as [Hok _].
    simpl. rewrite neighbors_unweighted_eq by auto. eexists. split; [reflexivity|].
    assert (forall v, In v (map fst (sp_col (g_adj g) u)) <-> stored_edge g v u) as Hin.
    { intros v. unfold stored_edge, sp_get. symmetry. apply col_get_In_fst. }
    split; [exact Hin|].
    intros x Hx. apply in_map_iff in Hx. destruct Hx as (k & <- & Hk). apply all_vertices_In.
    destruct Hok as (Hrow & Hcol & Hwf). unfold sp_wf in Hwf. rewrite Forall_nth_iff with (d := []) in Hwf.
    assert (col_wf (sp_rows (g_adj g)) (sp_col (g_adj g) u)) as [_ Hb].
    { apply Hwf. unfold sp_ncols in Hcol. lia. }
    rewrite Forall_forall in Hb. specialize (Hb k Hk). lia.
  Qed.
  Lemma stored_edge_bound g u v : reachable g -> stored_edge g u v -> (u < g_n g /\ v < g_n g)%nat.
  Proof.
    intros Hr Hs. destruct (reachable_ok g Hr) as [(Hrow & Hcol & Hwf) _].
    destruct (Nat.lt_ge_cases v (g_n g)) as [Hv|Hv].
    - destruct (graph_edges g v Hr Hv) as (ns & _ & Hin & Hi). split; auto.
      apply Hin in Hs. specialize (Hi (Z.of_nat u) (in_map _ _ _ Hs)). apply all_vertices_In in Hi. lia.
    - exfalso. apply Hs. unfold sp_get, sp_col. rewrite nth_overflow; [reflexivity|].
      unfold sp_ncols in Hcol. lia.
  Qed.
  Lemma stored_edge_sym `{!PosNum W} g u v : reachable g -> stored_edge g u v -> stored_edge g v u.
  Proof.
    intros Hr Hs. pose proof (reachable_sym g Hr) as Hsym. unfold stored_edge in *.
    intros E. apply Hs. rewrite <- E. apply Hsym.
  Qed.
  Lemma lg_path_graph `{!PosNum W} g u x : reachable g -> (u < g_n g)%nat ->
    lg_path (lg_of_graph g) (Z.of_nat u) x <-> exists v, x = Z.of_nat v /\ gpath g u v.
  Proof.
    intros Hr Hu. split.
    - intros Hp. apply clos_rt_rtn1 in Hp. induction Hp as [|y z Hyz _ (v & -> & IH)].
      + exists u. split; auto. apply rt_refl.
      + assert (v < g_n g)%nat as Hv.
        { clear -Hr Hu IH. apply clos_rt_rtn1 in IH. inversion IH; subst; auto. now destruct (stored_edge_bound g y v Hr H0). }
        destruct Hyz as (ns & E & Hin). destruct (graph_edges g v Hr Hv) as (ns' & E' & Hin' & _).
        rewrite E in E'. injection E' as <-. apply in_map_iff in Hin. destruct Hin as (k & <- & Hk).
        exists k. split; auto. eapply rt_trans; [exact IH|]. apply rt_step. apply stored_edge_sym; auto.
        now apply Hin'.
    - intros (v & -> & Hp). apply clos_rt_rtn1 in Hp. induction Hp as [|y z Hyz _ IH]; [apply rt_refl|].
      eapply rt_trans; [exact IH|]. apply rt_step.
      destruct (stored_edge_bound g y z Hr Hyz) as [Hy _].
      destruct (graph_edges g y Hr Hy) as (ns & E & Hin & _). exists ns. split; [exact E|].
      apply in_map. apply Hin. now apply stored_edge_sym.
  Qed.
  Lemma component_total g fuel u : reachable g -> (u < g_n g <= fuel)%nat ->
    exists l, connected_component fuel (lg_of_graph g) (Z.of_nat u) = Some (Ok l).
  Proof.
    intros Hr Hu. apply (cc_loop_total _ (all_vertices g)).
    - intros x Hx. apply all_vertices_In in Hx.
      destruct (graph_edges g (Z.to_nat x) Hr) as (ns & E & _ & Hi); [lia|].
      rewrite Z2Nat.id in E by lia. eauto.
    - constructor; [auto|constructor].
    - intros x [<-|[]]. apply all_vertices_In. lia.
    - apply incl_refl.
    - simpl. unfold all_vertices. rewrite map_length, seq_length. lia.
  Qed.
  Lemma graph_component `{!PosNum W} g fuel u : reachable g -> (u < g_n g <= fuel)%nat ->
    exists l, connected_component fuel (lg_of_graph g) (Z.of_nat u) = Some (Ok (map Z.of_nat l)) /\
      NoDup l /\ forall v, In v l <-> gpath g u v.
  Proof.
    intros Hr Hu. destruct (component_total g fuel u Hr Hu) as [l E].
    destruct (connected_component_correct _ _ _ _ E) as [Hnd Hin].
    assert (l = map Z.of_nat (map Z.to_nat l)) as El.
    { rewrite map_map. rewrite <- (map_id l) at 1. apply map_ext_in. intros x Hx. apply Hin in Hx.
      apply lg_path_graph in Hx; [|auto|lia]. destruct Hx as (v & -> & _). lia. }
    exists (map Z.to_nat l). rewrite <- El. split; [exact E|]. split.
    - rewrite El in Hnd. eapply NoDup_map_inv; eauto.
    - intros v. split.
      + intros Hv. apply (in_map Z.of_nat) in Hv. rewrite <- El in Hv. apply Hin in Hv.
        apply lg_path_graph in Hv; [|auto|lia]. destruct Hv as (v' & E' & Hp).
        apply Nat2Z.inj in E'. now subst.
      + intros Hp. rewrite <- (Nat2Z.id v). apply in_map. apply Hin. apply lg_path_graph; [auto|lia|eauto].
  Qed.

  (** ** connected_components *)
  Lemma gpath_sym `{!PosNum W} g u v : reachable g -> gpath g u v -> gpath g v u.
  Proof.
    intros Hr Hp. apply clos_rt_rtn1 in Hp. induction Hp as [|y z Hyz _ IH]; [apply rt_refl|].
    eapply rt_trans; [|exact IH]. apply rt_step. now apply stored_edge_sym.
  Qed.
  Lemma gpath_bound g u v : reachable g -> (u < g_n g)%nat -> gpath g u v -> (v < g_n g)%nat.
  Proof.
    intros Hr Hu Hp. apply clos_rt_rtn1 in Hp. inversion Hp as [|y z Hyz]; subst; auto.
    now destruct (stored_edge_bound g y v Hr Hyz).
  Qed.

  Definition zcomps (cs : list (list nat)) : list (list Z) := map (map Z.of_nat) cs.
  (** The list of lists [cs] is a partition into components of the vertices it mentions. *)
  Definition comps_ok (g : graph W) (cs : list (list nat)) : Prop :=
    Forall (fun c => c <> [] /\ exists u, (u < g_n g)%nat /\ NoDup c /\ forall v, In v c <-> gpath g u v) cs /\
    NoDup (concat cs).

  Lemma In_map_of_nat v l : In (Z.of_nat v) (map Z.of_nat l) <-> In v l.
  Proof.
    split; [|apply in_map]. intros Hin. apply in_map_iff in Hin. destruct Hin as (k & E & Hk).
    apply Nat2Z.inj in E. now subst.
  Qed.

  Lemma ccs_loop_spec `{!PosNum W} g fuel : reachable g -> (g_n g <= fuel)%nat ->
    forall k v found cs,
    (v + k = g_n g)%nat ->
    (forall x, In x found <-> In x (concat (zcomps cs))) ->
    comps_ok g cs -> (forall u, (u < v)%nat -> In u (concat cs)) ->
    exists cs', ccs_loop fuel (lg_of_graph g) v k found (zcomps cs) = Some (Ok (zcomps cs')) /\
      comps_ok g cs' /\ (forall u, (u < g_n g)%nat -> In u (concat cs')).
  Proof.
    intros Hr Hfu. induction k as [|k IH]; intros v found cs Hvk Hfound Hok Hcov; simpl.
    - exists (rev cs). split; [unfold zcomps; now rewrite map_rev|].
      assert (Permutation.Permutation (concat cs) (concat (rev cs))) as Hperm.
      { apply concat_perm, Permutation.Permutation_rev. }
      split; [|intros u Hu; eapply Permutation.Permutation_in; [exact Hperm|apply Hcov; lia]].
      destruct Hok as [Hf Hnd]. split; [now apply Forall_rev|].
      eapply Permutation.Permutation_NoDup; eauto.
    - destruct (zmem (Z.of_nat v) found) eqn:Em.
      + apply IH; auto; [lia|]. intros u Hu. destruct (Nat.eq_dec u v) as [->|]; [|apply Hcov; lia].
        apply zmem_In in Em. apply Hfound in Em. unfold zcomps in Em. rewrite <- concat_map in Em.
        now apply In_map_of_nat in Em.
      + destruct (graph_component g fuel v Hr) as (l & -> & Hnd & Hin); [lia|].
        assert (Hv : ~ In v (concat cs)).
        { apply zmem_false in Em. intros Hv. apply Em, Hfound. unfold zcomps. rewrite <- concat_map.
          now apply In_map_of_nat. }
        destruct Hok as [Hf Hndc].
        apply (IH (S v) (map Z.of_nat l ++ found) (l :: cs)).
        * lia.
        * intros x. simpl. rewrite !in_app_iff, Hfound. tauto.
        * split.
          -- constructor; auto. split; [|exists v; split; [lia|auto]].
             intros ->. apply (Hin v). apply rt_refl.
          -- simpl. apply nodup_app; auto. intros x Hx Hxc. apply Hin in Hx.
             apply in_concat in Hxc. destruct Hxc as (c & Hc & Hxc).
             rewrite Forall_forall in Hf. destruct (Hf c Hc) as (_ & u & Hu & _ & Huc).
             apply Hv. apply in_concat. exists c. split; auto. apply Huc. apply Huc in Hxc.
             eapply rt_trans; [exact Hxc|]. now apply gpath_sym.
        * intros u Hu. simpl. apply in_app_iff. destruct (Nat.eq_dec u v) as [->|].
          -- left. apply Hin, rt_refl.
          -- right. apply Hcov. lia.
  Qed.
  Lemma graph_components `{!PosNum W} g fuel : reachable g -> (g_n g <= fuel)%nat ->
    exists cs, connected_components fuel g = Some (Ok (zcomps cs)) /\
      comps_ok g cs /\ (forall u, In u (concat cs) <-> (u < g_n g)%nat).
  Proof.
    intros Hr Hf. destruct (ccs_loop_spec g fuel Hr Hf (g_n g) 0%nat [] []) as (cs & E & Hok & Hcov).
    - reflexivity.
    - simpl. tauto.
    - split; constructor.
    - lia.
    - exists cs. split; [exact E|]. split; [exact Hok|]. intros u. split; [|auto].
      intros Hu. apply in_concat in Hu. destruct Hu as (c & Hc & Huc).
      destruct Hok as [Hfo _]. rewrite Forall_forall in Hfo. destruct (Hfo c Hc) as (_ & v & Hv & _ & Hin).
      apply Hin in Huc. now apply (gpath_bound g v u).
  Qed.
  Lemma is_connected_spec `{!PosNum W} g fuel : reachable g -> (0 < g_n g <= fuel)%nat ->
    exists b, is_connected fuel g = Some (Ok b) /\
      (b = true <-> forall u v, (u < g_n g)%nat -> (v < g_n g)%nat -> gpath g u v).
  Proof.
    intros Hr Hf. unfold is_connected. change 0%Z with (Z.of_nat 0).
    destruct (graph_component g fuel 0%nat Hr) as (l & -> & Hnd & Hin); [lia|].
    eexists. split; [reflexivity|]. rewrite map_length. unfold number_of_vertices. rewrite Z.eqb_eq.
    assert (Hincl : incl l (seq 0 (g_n g))).
    { intros x Hx. apply in_seq. apply Hin in Hx. apply (gpath_bound g 0%nat x) in Hx; [lia|auto|lia]. }
    split.
    - intros E. assert (incl (seq 0 (g_n g)) l) as Hi.
      { apply NoDup_length_incl; auto. rewrite seq_length. lia. }
      intros u v Hu Hv. apply rt_trans with 0%nat.
      + apply gpath_sym; auto. apply Hin, Hi, in_seq. lia.
      + apply Hin, Hi, in_seq. lia.
    - intros Hall. assert (incl (seq 0 (g_n g)) l) as Hi.
      { intros x Hx. apply in_seq in Hx. apply Hin, Hall; lia. }
      pose proof (NoDup_incl_length Hnd Hincl). pose proof (NoDup_incl_length (seq_NoDup (g_n g) 0) Hi).
      rewrite seq_length in *. lia.
  Qed.
  Lemma is_connected_empty g fuel : (0 < fuel)%nat -> g_n g = 0%nat -> is_connected fuel g = Some (Throw InvalidArgument).
  Proof.
    intros Hf E. unfold is_connected, connected_component. destruct fuel; [lia|]. simpl.
    unfold neighbors_unweighted, check_vertex. now rewrite E.
  Qed.
End CC.
