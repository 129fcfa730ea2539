(** Proofs of the structural properties of Graph (any arithmetic). *)
From Verif Require Import Base Num Sparse SparseFacts Graph GraphFacts GraphSpec.
From Coq Require Import Sorting.Sorted.

Section P.
  Context {W : Type} `{Num W}.
  Implicit Types (g h : graph W) (M A : sprs W).

  Lemma reachable_by_mono (P Q : gop W -> Prop) g :
    (forall o, P o -> Q o) -> reachable_by P g -> reachable_by Q g.
  Proof.
    intros HPQ (M & g0 & ops & ? & ? & Hf & ?). exists M, g0, ops. repeat split; auto.
    eapply Forall_impl; eauto.
  Qed.
  Lemma reachable_by_any P g : reachable_by P g -> reachable g.
  Proof. apply reachable_by_mono. auto. Qed.

  Lemma reachable_ok g : reachable g -> g_ok g /\ caches_ok g.
  Proof.
    intros (M & g0 & ops & Hwf & E & _ & Er).
    destruct (make_graph_ok M g0 Hwf E) as [Hok _].
    destruct (make_graph_fresh M g0 E) as [A ->].
    eapply grun_caches; eauto. apply fresh_caches_ok.
  Qed.

  Lemma reachable_induction (P : graph W -> Prop) (allowed : gop W -> Prop) :
    (forall g h, same_base g h -> P g -> P h) ->
    (forall M g, sp_wf M -> make_graph M = Ok g -> P g) ->
    (forall g i j w g', g_ok g -> P g -> allowed (OpAdd i j w) -> add_edge g i j w = Ok g' -> P g') ->
    (forall g i j g', g_ok g -> P g -> allowed (OpRemove i j) -> remove_edge g i j = Ok g' -> P g') ->
    forall g, reachable_by allowed g -> P g.
  Proof.
    intros Hb Hm Ha Hr g (M & g0 & ops & Hwf & E & Hf & Er).
    destruct (make_graph_ok M g0 Hwf E) as [Hok _].
    assert (caches_ok g0) as Hc by (destruct (make_graph_fresh M g0 E) as [A ->]; apply fresh_caches_ok).
    eapply (grun_ind P allowed); eauto.
  Qed.

  Section WithPos.
    Context `{!PosNum W}.

    Lemma reachable_sym g : reachable g -> sp_sym (g_adj g).
    Proof.
      revert g. apply (reachable_induction (fun g => sp_sym (g_adj g))).
      - intros g1 h (_ & E & _) Hs. now rewrite <- E.
      - apply make_graph_sym.
      - intros g1 i j w g' Hok Hs _ E. eapply add_edge_sym; eauto.
      - intros g1 i j g' Hok Hs _ E. eapply remove_edge_sym; eauto. apply pn_00.
    Qed.

    Lemma weight_sym g u v : reachable g -> weight g u v = weight g v u.
    Proof. intros Hr. unfold weight, coeff. now rewrite (reachable_sym g Hr u v). Qed.

    (** C01 *)
    Lemma coeff_prune_eps M i j : sp_wf M -> coeff (sp_prune (fun v => wltb weps v) M) i j = above_eps (coeff M i j).
    Proof.
      intros Hwf. unfold coeff, above_eps. rewrite sp_get_prune by auto.
      destruct (sp_get M i j) as [v|]; simpl.
      - now destruct (wltb weps v).
      - now rewrite pn_0.
    Qed.

    Lemma make_graph_from_adjacency M n :
      sp_square M n ->
      (forall i j v, sp_get M i j = Some v -> wltb v w0 = false) ->
      (forall i j, above_eps (coeff M i j) = above_eps (coeff M j i)) ->
      exists g, make_graph M = Ok g /\ number_of_vertices g = n /\
                g = fresh_graph (sp_prune (fun v => wltb weps v) M) /\
                forall i j, weight g i j = above_eps (coeff M i j).
    Proof.
      intros Hsq Hn Hs. destruct Hsq as (R & C & Hwf).
      assert (is_symmetric (sp_prune (fun v => wltb weps v) M) = true) as Hsym.
      { apply is_symmetric_spec; [now apply sp_prune_wf|].
        intros i j v G. rewrite coeff_prune_eps by auto. rewrite sp_get_prune in G by auto.
        rewrite <- Hs. unfold coeff. destruct (sp_get M i j) as [u|]; [|discriminate].
        destruct (wltb weps u) eqn:Eu; [|discriminate]. injection G as ->.
        unfold above_eps. simpl. rewrite Eu. now apply pn_refl. }
      rewrite (make_graph_nonneg M n) by (repeat split; auto). rewrite Hsym.
      eexists. split; [reflexivity|]. split; [|split; [reflexivity|]].
      - unfold number_of_vertices, fresh_graph. simpl. rewrite sp_prune_ncols. exact C.
      - intros i j. unfold weight, fresh_graph. simpl. now apply coeff_prune_eps.
    Qed.

    (** C02 *)
    Lemma make_graph_asymmetric M n i j :
      sp_square M n ->
      (forall a b v, sp_get M a b = Some v -> wltb v w0 = false) ->
      wltb weps (coeff M i j) = true -> weqb (coeff M i j) (coeff M j i) = false ->
      make_graph M = Throw DomainError.
    Proof.
      intros Hsq Hn Hgt Hne. rewrite (make_graph_nonneg M n) by auto.
      destruct Hsq as (R & C & Hwf).
      destruct (is_symmetric (sp_prune (fun v => wltb weps v) M)) eqn:Es; [|reflexivity]. exfalso.
      rewrite is_symmetric_spec in Es by (now apply sp_prune_wf).
      assert (sp_get M i j = Some (coeff M i j)) as G.
      { unfold coeff in *. destruct (sp_get M i j); auto. simpl in Hgt. rewrite pn_0 in Hgt. discriminate. }
      specialize (Es i j (coeff M i j)). rewrite coeff_prune_eps in Es by auto.
      rewrite sp_get_prune, G, Hgt in Es by auto. specialize (Es eq_refl).
      unfold above_eps in Es. destruct (wltb weps (coeff M j i)); [congruence|].
      pose proof (pn_eq _ _ Hgt Es) as E0. rewrite E0, pn_0 in Hgt. discriminate.
    Qed.
  End WithPos.

  (** C04 *)
  Lemma make_graph_bad_laplacian M n :
    sp_square M n ->
    (exists i j v, sp_get M i j = Some v /\ wltb v w0 = true) ->
    ((exists i j v, i <> j /\ sp_get M i j = Some v /\ wltb v w0 = false) \/
     (exists j, j < n /\ wltb (wsum (map snd (sp_col M j))) w0 = true)) ->
    make_graph M = Throw DomainError.
  Proof.
    intros (R & C & Hwf) Hneg Hbad. unfold make_graph. rewrite R, C, Nat.eqb_refl. simpl.
    unfold adjacency_from_adj_or_lap. rewrite (proj2 (found_negative_spec M Hwf) Hneg).
    destruct (positive_off_diagonal M) eqn:Ep; [reflexivity|].
    destruct Hbad as [(i & j & v & Hij & G & Hv)|(j & Hj & Hv)].
    - exfalso. destruct (sp_get_lt _ _ _ _ Hwf G) as [Hi Hj].
      assert (positive_off_diagonal M = true) as Et; [|congruence].
      unfold positive_off_diagonal. apply existsb_exists. exists (j, sp_col M j). split.
      + unfold sp_ncols in *. rewrite (In_combine_seq _ 0 j _ []). split; [lia|]. now rewrite Nat.sub_0_r.
      + apply existsb_exists. exists (i, v). split; [now apply col_get_In|]. simpl. rewrite Hv. simpl.
        destruct (Nat.eqb_spec i j); [contradiction|reflexivity].
    - destruct (diagonally_dominant M) eqn:Ed; [|reflexivity]. exfalso.
      unfold diagonally_dominant in Ed. rewrite forallb_forall in Ed.
      specialize (Ed (sp_col M j)). rewrite Hv in Ed. simpl in Ed.
      assert (false = true) by (apply Ed; apply nth_In; unfold sp_ncols in *; lia). discriminate.
  Qed.

  (** Constructor from vectors *)
  Lemma make_graph_vectors_mismatch st inn vals :
    st <> [] -> (length inn <> length vals \/ last st 0 <> length inn) ->
    make_graph_vectors st inn vals = Throw InvalidArgument.
  Proof.
    intros Hne Hbad. unfold make_graph_vectors, from_vectors.
    destruct (exists_last Hne) as [st' [l ->]]. rewrite rev_app_distr. simpl.
    rewrite last_last in Hbad.
    destruct (Nat.eqb_spec (length inn) (length vals)) as [E1|]; [|reflexivity]. simpl.
    destruct (Nat.eqb_spec l (length inn)) as [E2|]; [|reflexivity].
    exfalso. destruct Hbad; auto.
  Qed.

  (** C06 *)
  Lemma add_edge_total g i j w : (0 <= i)%Z -> (0 <= j)%Z -> exists g', add_edge g i j w = Ok g'.
  Proof.
    intros Hi Hj. unfold add_edge.
    destruct (Z.ltb_spec i 0); [lia|]. destruct (Z.ltb_spec j 0); [lia|]. simpl. eauto.
  Qed.
  Lemma add_edge_n g i j w g' : add_edge g i j w = Ok g' ->
    g_n g' = Nat.max (g_n g) (S (Nat.max (Z.to_nat i) (Z.to_nat j))).
  Proof.
    unfold add_edge. if_goal E; [discriminate|]. now intros [= <-].
  Qed.
  Lemma add_edge_effect g i j w : reachable g -> i <> j ->
    exists g', add_edge g (Z.of_nat i) (Z.of_nat j) w = Ok g' /\
      number_of_vertices g' = Nat.max (number_of_vertices g) (S (Nat.max i j)) /\
      weight g' i j = wadd (weight g i j) w /\
      weight g' j i = wadd (weight g j i) w /\
      forall a b, ~ (a = i /\ b = j) -> ~ (a = j /\ b = i) -> weight g' a b = weight g a b.
  Proof.
    intros Hr Hij. destruct (reachable_ok g Hr) as [Hok _].
    destruct (add_edge_total g (Z.of_nat i) (Z.of_nat j) w) as [g' E]; [lia|lia|].
    exists g'. split; auto. pose proof (fun a b => add_edge_get _ _ _ _ _ a b Hok E) as Hget.
    cbv zeta in Hget. rewrite !Nat2Z.id in Hget.
    split; [|split; [|split]].
    - unfold number_of_vertices. rewrite (add_edge_n _ _ _ _ _ E). now rewrite !Nat2Z.id.
    - unfold weight, coeff. rewrite Hget. destruct (Nat.eqb_spec i j); [lia|].
      rewrite !Nat.eqb_refl. reflexivity.
    - unfold weight, coeff. rewrite Hget. destruct (Nat.eqb_spec i j); [lia|].
      rewrite !Nat.eqb_refl. cbn [andb]. rewrite orb_true_r. reflexivity.
    - intros a b Hab Hba. unfold weight, coeff. rewrite Hget.
      destruct (Nat.eqb_spec i j); [lia|]. cbn [andb].
      destruct (Nat.eqb_spec a i); destruct (Nat.eqb_spec b j); cbn [andb orb]; try (exfalso; lia);
        destruct (Nat.eqb_spec a j); destruct (Nat.eqb_spec b i); cbn [andb orb]; try (exfalso; lia); reflexivity.
  Qed.
  Lemma add_self_loop_effect g i w : reachable g ->
    exists g', add_edge g (Z.of_nat i) (Z.of_nat i) w = Ok g' /\
      number_of_vertices g' = Nat.max (number_of_vertices g) (S i) /\
      weight g' i i = wadd (wadd (weight g i i) w) w /\
      forall a b, ~ (a = i /\ b = i) -> weight g' a b = weight g a b.
  Proof.
    intros Hr. destruct (reachable_ok g Hr) as [Hok _].
    destruct (add_edge_total g (Z.of_nat i) (Z.of_nat i) w) as [g' E]; [lia|lia|].
    exists g'. split; auto. pose proof (fun a b => add_edge_get _ _ _ _ _ a b Hok E) as Hget.
    cbv zeta in Hget. rewrite !Nat2Z.id in Hget.
    split; [|split].
    - unfold number_of_vertices. rewrite (add_edge_n _ _ _ _ _ E). rewrite !Nat2Z.id. lia.
    - unfold weight, coeff. rewrite Hget. rewrite !Nat.eqb_refl. reflexivity.
    - intros a b Hab. unfold weight, coeff. rewrite Hget. rewrite Nat.eqb_refl. cbn [andb].
      destruct (Nat.eqb_spec a i); destruct (Nat.eqb_spec b i); cbn [andb orb]; try (exfalso; lia); reflexivity.
  Qed.

  (** C07 *)
  Lemma remove_edge_effect `{!PosNum W} g i j : reachable g ->
    i < number_of_vertices g -> j < number_of_vertices g ->
    exists g', remove_edge g (Z.of_nat i) (Z.of_nat j) = Ok g' /\
      number_of_vertices g' = number_of_vertices g /\
      weight g' i j = w0 /\ weight g' j i = w0 /\
      (forall a b, sp_get (g_adj g') a b <> None -> weqb (weight g' a b) w0 = false) /\
      forall a b, ~ (a = i /\ b = j) -> ~ (a = j /\ b = i) ->
        weight g' a b = if weqb (weight g a b) w0 then w0 else weight g a b.
  Proof.
    unfold number_of_vertices. intros Hr Hi Hj. destruct (reachable_ok g Hr) as [Hok _].
    assert (exists g', remove_edge g (Z.of_nat i) (Z.of_nat j) = Ok g' /\ g_n g' = g_n g) as (g' & E & En).
    { unfold remove_edge. destruct (Z.leb_spec (Z.of_nat (g_n g)) (Z.of_nat i)); [lia|].
      destruct (Z.leb_spec (Z.of_nat (g_n g)) (Z.of_nat j)); [lia|].
      destruct (Z.ltb_spec (Z.of_nat i) 0); [lia|]. destruct (Z.ltb_spec (Z.of_nat j) 0); [lia|].
      simpl. eexists. split; reflexivity. }
    exists g'. split; auto. split; auto.
    pose proof (fun a b Hi' Hj' => remove_edge_get g (Z.of_nat i) (Z.of_nat j) g' a b pn_00 Hok Hi' Hj' E) as Hget0.
    assert (0 <= Z.of_nat i < Z.of_nat (g_n g))%Z as Hi' by lia.
    assert (0 <= Z.of_nat j < Z.of_nat (g_n g))%Z as Hj' by lia.
    pose proof (fun a b => Hget0 a b Hi' Hj') as Hget.
    rewrite !Nat2Z.id in Hget. unfold weight, coeff. split; [|split; [|split]].
    - rewrite Hget, !Nat.eqb_refl. reflexivity.
    - rewrite Hget, !Nat.eqb_refl. cbn [andb]. now rewrite orb_true_r.
    - intros a b. rewrite Hget. destruct (_ || _); [congruence|].
      destruct (sp_get (g_adj g) a b) as [v|]; [|congruence]. destruct (weqb v w0) eqn:Ev; [congruence|]. auto.
    - intros a b Hab Hba. rewrite Hget.
      replace (((a =? i) && (b =? j)) || ((a =? j) && (b =? i))) with false.
      + destruct (sp_get (g_adj g) a b) as [v|]; simpl.
        * destruct (weqb v w0); reflexivity.
        * now rewrite pn_00.
      + destruct (Nat.eqb_spec a i); destruct (Nat.eqb_spec b j); cbn [andb orb]; try (exfalso; lia);
          destruct (Nat.eqb_spec a j); destruct (Nat.eqb_spec b i); cbn [andb orb]; try (exfalso; lia); reflexivity.
  Qed.
  Lemma remove_edge_absent g i j :
    (Z.of_nat (number_of_vertices g) <= i \/ Z.of_nat (number_of_vertices g) <= j)%Z ->
    remove_edge g i j = Ok g.
  Proof.
    unfold number_of_vertices. intros Hij. unfold remove_edge.
    destruct (Z.leb_spec (Z.of_nat (g_n g)) i); [reflexivity|].
    destruct (Z.leb_spec (Z.of_nat (g_n g)) j); [reflexivity|lia].
  Qed.

  (** C08 *)
  Lemma caches_coherent g q : reachable g ->
    snd (mat_query q g) = snd (mat_query q (fresh_graph (g_adj g))).
  Proof.
    intros Hr. destruct (reachable_ok g Hr) as [_ Hc].
    destruct (mat_query_spec q g Hc) as (_ & _ & ->).
    now destruct (mat_query_spec q _ (fresh_caches_ok (g_adj g))) as (_ & _ & ->).
  Qed.
  Lemma query_formula g q : reachable g -> snd (mat_query q g) = mat_formula q (g_adj g).
  Proof. intros Hr. apply mat_query_spec. now apply reachable_ok. Qed.
  Lemma query_no_effect g q : reachable g ->
    let g' := fst (mat_query q g) in
    g_n g' = g_n g /\ g_adj g' = g_adj g /\ g_loops g' = g_loops g.
  Proof.
    intros Hr. cbv zeta. destruct (reachable_ok g Hr) as [_ Hc].
    destruct (mat_query_spec q g Hc) as (_ & (A & B & C) & _). auto.
  Qed.

  (** C09, direction valid for any arithmetic: no self-loop is missed. *)
  Lemma scan_self_loops_spec n A :
    scan_self_loops n A = true <-> exists i, i < n /\ weqb (coeff A i i) w0 = false.
  Proof.
    unfold scan_self_loops. rewrite existsb_exists. split.
    - intros [i [Hi Hn]]. apply in_seq in Hi. apply negb_true_iff in Hn. exists i. split; [lia|auto].
    - intros [i [Hi Hn]]. exists i. rewrite in_seq, Hn. split; [lia|auto].
  Qed.
  Lemma no_missed_loop `{!PosNum W} g : reachable g -> has_self_loops g = false ->
    forall v, weqb (weight g v v) w0 = true.
  Proof.
    intros Hr. unfold has_self_loops, weight.
    revert g Hr. apply (reachable_induction (fun g => g_loops g = false -> forall v, weqb (coeff (g_adj g) v v) w0 = true)).
    - intros g h (_ & E & El) Hg. now rewrite <- El, <- E.
    - intros M g Hwf E. destruct (make_graph_ok M g Hwf E) as [(R & C & Hw) En].
      destruct (make_graph_fresh M g E) as [A ->]. simpl in *. intros Hl v.
      destruct (weqb (coeff A v v) w0) eqn:Ev; auto. exfalso.
      assert (v < sp_ncols A) as Hv.
      { destruct (lt_dec v (sp_ncols A)); auto. exfalso. rewrite coeff_out in Ev by (auto; lia).
        rewrite pn_00 in Ev. discriminate. }
      assert (scan_self_loops (sp_ncols A) A = true); [|congruence].
      apply scan_self_loops_spec. eauto.
    - intros g i j w g' Hok HP _ E Hl v.
      unfold coeff. rewrite (add_edge_get _ _ _ _ _ v v Hok E). cbv zeta.
      assert (g_loops g = false /\ (Z.to_nat i =? Z.to_nat j) = false) as [Hl0 Hne].
      { unfold add_edge in E. if_hyp E E1; [discriminate|]. injection E as <-. simpl in Hl.
        destruct (Z.to_nat i =? Z.to_nat j); [discriminate|]. auto. }
      rewrite Hne. cbn [andb]. apply Nat.eqb_neq in Hne.
      destruct (Nat.eqb_spec v (Z.to_nat i)); destruct (Nat.eqb_spec v (Z.to_nat j)); cbn [andb orb];
        try (exfalso; lia); apply (HP Hl0).
    - intros g i j g' Hok HP _ E Hl v.
      destruct (((Z.of_nat (g_n g) <=? i) || (Z.of_nat (g_n g) <=? j))%Z) eqn:E1.
      { unfold remove_edge in E. rewrite E1 in E. injection E as <-. now apply HP. }
      destruct (((i <? 0) || (j <? 0))%Z) eqn:E2.
      { unfold remove_edge in E. rewrite E1, E2 in E. discriminate. }
      pose proof E as E'. unfold remove_edge in E. rewrite E1, E2 in E.
      apply orb_false_iff in E1, E2. rewrite !Z.leb_gt in E1. rewrite !Z.ltb_ge in E2.
      pose proof (remove_edge_ok _ _ _ _ Hok E') as (R' & C' & Hw').
      destruct (Nat.eqb_spec (Z.to_nat i) (Z.to_nat j)) as [Eij|Eij].
      + assert (g_loops g' = scan_self_loops (g_n g') (g_adj g')) as Hscan.
        { injection E as <-. simpl. reflexivity. }
        rewrite Hscan in Hl. destruct (weqb (coeff (g_adj g') v v) w0) eqn:Ev; auto. exfalso.
        assert (v < g_n g') as Hv.
        { destruct (lt_dec v (g_n g')); auto. exfalso. rewrite coeff_out in Ev by (auto; lia).
          rewrite pn_00 in Ev. discriminate. }
        assert (scan_self_loops (g_n g') (g_adj g') = true); [|congruence].
        apply scan_self_loops_spec. eauto.
      + assert (g_loops g' = g_loops g) as El by (injection E as <-; reflexivity).
        rewrite El in Hl. specialize (HP Hl v). unfold coeff in *.
        assert (0 <= i < Z.of_nat (g_n g))%Z as Hi' by lia.
        assert (0 <= j < Z.of_nat (g_n g))%Z as Hj' by lia.
        rewrite (remove_edge_get g i j g' v v pn_00 Hok Hi' Hj' E').
        destruct (_ || _); [apply pn_00|].
        destruct (sp_get (g_adj g) v v) as [x|]; [|apply pn_00]. simpl in HP. rewrite HP. apply pn_00.
  Qed.

  (** C12 *)
  Lemma neighbors_exact `{!PosNum W} g v : reachable g -> v < number_of_vertices g ->
    exists es, neighbors g (Z.of_nat v) = Ok es /\
      StronglySorted lt (map v2 es) /\
      forall e, In e es <->
        v1 e = v /\ v2 e < number_of_vertices g /\ ewt e = weight g v (v2 e) /\ weqb (ewt e) w0 = false.
  Proof.
    unfold number_of_vertices. intros Hr Hv. destruct (reachable_ok g Hr) as [Hok _].
    pose proof (reachable_sym g Hr) as Hs.
    destruct Hok as (R & C & Hwf).
    rewrite neighbors_eq by (unfold g_ok, sp_square; auto).
    eexists. split; [reflexivity|]. pose proof (sp_wf_col (g_adj g) v Hwf) as [Hso Hlt].
    split.
    - rewrite map_map. simpl. now apply filter_sorted.
    - intros [a b x]. simpl. rewrite in_map_iff. split.
      + intros [[k y] [[= <- <- <-] Hin]]. apply filter_In in Hin. destruct Hin as [Hin Hnz].
        simpl in Hnz. apply negb_true_iff in Hnz.
        apply (In_col_get _ _ _ Hso) in Hin. fold (sp_get (g_adj g) k v) in Hin.
        destruct (sp_get_lt _ _ _ _ Hwf Hin) as [Hk _].
        repeat split; auto; [lia|]. unfold weight, coeff. rewrite Hs, Hin. reflexivity.
      + intros (-> & Hb & Hx & Hnz). exists (b, x). split; auto. apply filter_In. simpl. rewrite Hnz.
        split; auto. apply col_get_In. fold (sp_get (g_adj g) b v).
        unfold weight, coeff in Hx. rewrite Hs in Hx.
        destruct (sp_get (g_adj g) b v) as [y|]; simpl in Hx; [congruence|].
        subst x. rewrite pn_00 in Hnz. discriminate.
  Qed.
  Lemma local_queries_invalid g v : ~ (0 <= v < Z.of_nat (number_of_vertices g))%Z ->
    neighbors g v = Throw InvalidArgument /\
    neighbors_unweighted g v = Throw InvalidArgument /\
    degree_unweighted g v = Throw InvalidArgument /\
    degree g v = (g, Throw InvalidArgument) /\
    vertex_exists g v = false.
  Proof.
    unfold number_of_vertices. intros Hv.
    unfold neighbors, neighbors_unweighted, degree_unweighted, degree.
    rewrite check_vertex_bad by auto. repeat split. unfold vertex_exists.
    destruct (Z.leb_spec 0 v); destruct (Z.ltb_spec v (Z.of_nat (g_n g))); auto; lia.
  Qed.
  Lemma vertex_exists_spec g v : vertex_exists g v = true <-> (0 <= v < Z.of_nat (number_of_vertices g))%Z.
  Proof.
    unfold vertex_exists, number_of_vertices. rewrite andb_true_iff, Z.leb_le, Z.ltb_lt. tauto.
  Qed.

  (** degrees / degrees_unweighted: one answer per vertex asked, in that order. *)
  Lemma degree_same_base g h v : caches_ok g -> caches_ok h -> same_base g h -> snd (degree h v) = snd (degree g v).
  Proof.
    intros Cg Ch (B1 & B2 & B3). unfold degree, check_vertex, vertex_exists. rewrite <- B1.
    destruct (init_deg_spec g Cg) as (_ & _ & Eg). destruct (init_deg_spec h Ch) as (_ & _ & Eh).
    repeat match goal with |- context [if ?b then _ else _] => destruct b end; cbn [snd]; auto; now rewrite Eg, Eh, B2.
  Qed.
  Lemma degrees_in_order_aux vs g h : caches_ok g -> caches_ok h -> same_base g h ->
    match snd (degrees h vs) with
    | Ok ds => Forall2 (fun v d => snd (degree g v) = Ok d) vs ds
    | Throw e => e = InvalidArgument /\ exists v, In v vs /\ ~ (0 <= v < Z.of_nat (number_of_vertices g))%Z
    | UB => False
    end.
  Proof.
    revert h. induction vs as [|v vs IH]; intros h Cg Ch Hb; [cbn; constructor|].
    cbn [degrees]. pose proof (degree_same_base g h v Cg Ch Hb) as Ed. destruct (degree_base h v Ch) as [C1 B1].
    destruct (degree h v) as [h1 r] eqn:E. cbn [fst snd] in *.
    assert (same_base g h1) as Hb1 by (destruct Hb as (A1 & A2 & A3); destruct B1 as (D1 & D2 & D3); unfold same_base; repeat split; congruence).
    specialize (IH h1 Cg C1 Hb1).
    destruct (Z_lt_ge_dec v 0) as [Hn|Hn]; [|destruct (Z_lt_ge_dec v (Z.of_nat (number_of_vertices g))) as [Hl|Hl]].
    - destruct (local_queries_invalid g v) as (_ & _ & _ & D & _); [lia|]. rewrite D in Ed. cbn [snd] in Ed. subst r.
      cbn [snd]. split; auto. exists v. split; [now left|lia].
    - unfold degree in Ed. rewrite check_vertex_ok in Ed by (unfold number_of_vertices in Hl; lia). cbn [snd] in Ed. subst r.
      assert (snd (degree g v) = Ok (coeff (c_mat (g_deg (init_deg g))) (Z.to_nat v) (Z.to_nat v))) as Dv
        by (unfold degree; rewrite check_vertex_ok by (unfold number_of_vertices in Hl; lia); reflexivity).
      destruct (degrees h1 vs) as [h2 [ds|e|]]; cbn [snd] in *.
      + now constructor.
      + destruct IH as (-> & x & Hx & Hv). split; auto. exists x. split; [now right|exact Hv].
      + exact IH.
    - destruct (local_queries_invalid g v) as (_ & _ & _ & D & _); [lia|]. rewrite D in Ed. cbn [snd] in Ed. subst r.
      cbn [snd]. split; auto. exists v. split; [now left|lia].
  Qed.
  Lemma degrees_in_order g vs : reachable g ->
    match snd (degrees g vs) with
    | Ok ds => Forall2 (fun v d => snd (degree g v) = Ok d) vs ds
    | Throw e => e = InvalidArgument /\ exists v, In v vs /\ ~ (0 <= v < Z.of_nat (number_of_vertices g))%Z
    | UB => False
    end.
  Proof. intros Hr. destruct (reachable_ok g Hr) as [_ C]. apply degrees_in_order_aux; auto. apply same_base_refl. Qed.
  Lemma degrees_unweighted_in_order g vs :
    match degrees_unweighted g vs with
    | Ok ds => Forall2 (fun v d => degree_unweighted g v = Ok d) vs ds
    | Throw e => e = InvalidArgument /\ exists v, In v vs /\ ~ (0 <= v < Z.of_nat (number_of_vertices g))%Z
    | UB => False
    end.
  Proof.
    induction vs as [|v vs IH]; [cbn; constructor|]. cbn [degrees_unweighted].
    destruct (vertex_exists g v) eqn:Ev.
    - apply vertex_exists_spec in Ev. assert (exists d, degree_unweighted g v = Ok d) as [d Ed]
        by (unfold degree_unweighted; rewrite check_vertex_ok by (unfold number_of_vertices in Ev; lia); cbn; eauto).
      rewrite Ed. cbn [obind]. destruct (degrees_unweighted g vs) as [ds|e|]; cbn [obind].
      + now constructor.
      + destruct IH as (-> & x & Hx & Hv). split; auto. exists x. split; [now right|exact Hv].
      + exact IH.
    - assert (~ (0 <= v < Z.of_nat (number_of_vertices g))%Z) as Hv by (intros Hv; apply vertex_exists_spec in Hv; congruence).
      destruct (local_queries_invalid g v Hv) as (_ & _ & -> & _). cbn. split; auto. exists v. split; [now left|auto].
  Qed.
End P.
