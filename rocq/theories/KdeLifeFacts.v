(** Proofs about KdeLife.v: units and estimators built in memory answer as those of Kde.v. *)
From Verif Require Import Base Num Cluster ThreadPool ThreadPoolFacts ThreadPoolTop Kde KdeFacts KdeFacts2 KdeFacts3 KdeLife.
From Coq Require Import ZArith Permutation.
Local Open Scope nat_scope.

(** ** Two pools whose tasks do related things end in related states *)
Section Sim.
  Context {S S' : Type} (body : nat -> list (S -> S)) (body' : nat -> list (S' -> S')) (R : S -> S' -> Prop).
  Hypothesis Hb : forall t k f, nth_error (body t) k = Some f -> exists f', nth_error (body' t) k = Some f' /\ forall x y, R x y -> R (f x) (f' y).
  Hypothesis Hn : forall t k, nth_error (body t) k = None -> nth_error (body' t) k = None.

  Definition with_sh (a : @ThreadPool.st S) (y : S') : @ThreadPool.st S' := mkst (q a) (ws a) (mtx a) (m a) (isDone a) (flags a) y (tr a).

  Lemma sim_reach P w prog s0 s0' a : R s0 s0' -> reach body P w prog s0 a -> exists y, R (sh a) y /\ reach body' P w prog s0' (with_sh a y).
  Proof.
    intros R0. induction 1 as [|a b Ra (y & Ry & IH) St].
    - exists s0'. split; auto. apply reach_init.
    - destruct St as [[M|[i Wst]]|Sp].
      + exists y. split; [destruct M; exact Ry|]. eapply reach_step; [exact IH|]. left; left. destruct M; unfold with_sh; cbn in *; econstructor; eauto.
      + assert (exists y', R (sh b) y' /\ wstep body' i (with_sh a y) (with_sh b y')) as (y' & Ry' & St).
        { destruct Wst; unfold with_sh; cbn in *; try (exists y; split; [exact Ry|econstructor; eauto]; fail).
          - destruct (Hb _ _ _ H0) as (f' & E & Rf). exists (f' y). split; [now apply Rf|]. econstructor; eauto. }
        exists y'. split; auto. eapply reach_step; [exact IH|]. left; right; eauto.
      + exists y. split; [destruct Sp; exact Ry|]. eapply reach_step; [exact IH|]. right. destruct Sp; unfold with_sh; cbn in *; econstructor; eauto.
  Qed.
End Sim.

Section Units.
  Context {W : Type} `{Num W} `{KNum W}.
  Notation point := (@point W).

  (** ** Loading *)
  Lemma load_all_rows (h : heap) b (rows : list point) is : h b = Some rows -> (forall i, In i is -> i < length rows) ->
    load_all h (map (fun i => (b, i)) is) = Ok (map (fun i => nth i rows []) is).
  Proof.
    intros Hb. induction is as [|i is IH]; intros A; auto. cbn [map load_all]. unfold load at 1. cbn [fst snd]. rewrite Hb.
    destruct (nth_error rows i) as [r|] eqn:E; [|apply nth_error_None in E; specialize (A i (or_introl eq_refl)); lia].
    rewrite (nth_error_nth _ _ _ E). cbn [obind]. rewrite IH by (intros; apply A; now right). reflexivity.
  Qed.

  Lemma load_all_inside (h : heap) b (rows : list point) is pts : h b = Some rows -> load_all h (map (fun i => (b, i)) is) = Ok pts ->
    forall i, In i is -> i < length rows.
  Proof.
    intros Hb. revert pts. induction is as [|i is IH]; intros pts E i' Ii; [destruct Ii|]. cbn [map load_all] in E. unfold load at 1 in E. cbn [fst snd] in E. rewrite Hb in E.
    destruct (nth_error rows i) as [r|] eqn:En; [|discriminate]. cbn [obind] in E. destruct (load_all _ _) as [xs| |]; try discriminate.
    destruct Ii as [<-|Ii]; [apply nth_error_Some; congruence|eapply IH; eauto].
  Qed.

  Lemma load_all_freed (h : @heap W) b is : h b = None -> is <> [] -> load_all h (map (fun i => (b, i)) is) = UB.
  Proof. intros Hb. destruct is as [|i is]; [congruence|]. intros _. cbn. unfold load. cbn. now rewrite Hb. Qed.

  Lemma pick_map b is0 is : (forall i, In i is -> i < length is0) -> pick (map (fun i => (b, i)) is0) is = Ok (map (fun i => (b, nth i is0 0)) is).
  Proof.
    induction is as [|i is IH]; intros A; auto. cbn [pick map]. rewrite nth_error_map.
    destruct (nth_error is0 i) as [x|] eqn:E; [|apply nth_error_None in E; specialize (A i (or_introl eq_refl)); lia]. cbn [option_map].
    rewrite IH by (intros; apply A; now right). cbn [obind]. now rewrite (nth_error_nth _ _ _ E).
  Qed.

  Lemma near_tables hs (pts : list point) x q : near_indices (mkE2 hs (e_tables (e2lsh_new hs pts)) x) q = near_indices (e2lsh_new hs pts) q.
  Proof. reflexivity. Qed.

  (** ** One unit *)
  Lemma query_neighbors_fields (u u' : hunit) q l : u_n u = u_n u' -> u_a u = u_a u' -> u_log_nmu u = u_log_nmu u' -> u_j u = u_j u' -> u_J u = u_J u' ->
    u_offset u = u_offset u' -> u_final u = u_final u' -> query_neighbors u q l = query_neighbors u' q l.
  Proof. intros E1 E2 E3 E4 E5 E6 E7. unfold query_neighbors, inner_radius. now rewrite E1, E2, E3, E4, E5, E6, E7. Qed.

  (** the rows that a unit looks at are rows of its matrix, kde.cpp:199-204 (the assertions) *)
  Definition sampling_inside (rows : nat) : Prop := forall j l o, let n := Z.of_nat rows in let p := ckns_p_sampling j l n o in
    Z.to_nat (starting_idx p n) + Z.to_nat (num_sampled p n) <= rows.

  Lemma punit_query_ok (h : heap) a b (data : list point) l j o hs u : h b = Some data -> sampling_inside (length data) ->
    punit_new h a b (length data) l j o hs = Ok u ->
    forall (h' : heap) q, h' b = Some data -> punit_query h' u q = Ok (hunit_query (hunit_new a data l j o hs) q).
  Proof.
    intros Hb In1 E h' q Hb'. specialize (In1 j l o). cbv zeta in In1. unfold punit_new, hunit_new in *. cbv zeta in *.
    set (n := Z.of_nat (length data)) in *. set (p := ckns_p_sampling j l n o) in *.
    set (is := seq (Z.to_nat (starting_idx p n)) (Z.to_nat (num_sampled p n))) in *.
    assert (forall i, In i is -> i < length data) as Ii by (intros i Hi; apply in_seq in Hi; lia).
    assert (length (map (fun i => (b, i)) is) = length (sampled_points data (starting_idx p n) (num_sampled p n))) as EL by (unfold sampled_points; now rewrite !map_length).
    rewrite <- EL. destruct (j =? 0)%Z; [|destruct (_ <=? _)%Z].
    - injection E as <-. unfold punit_query. cbn [pu_below pu_final orb obind pu_all]. rewrite (load_all_rows _ _ data) by auto. reflexivity.
    - injection E as <-. unfold punit_query. cbn [pu_below pu_final orb obind pu_all]. rewrite (load_all_rows _ _ data) by auto. reflexivity.
    - unfold plsh_new in E. rewrite (load_all_rows _ _ data) in E by auto. cbn [obind] in E. remember (e_tables (e2lsh_new hs (map (fun i => nth i data []) is))) as tabs eqn:Et. injection E as <-.
      unfold punit_query. cbn [pu_below pu_final orb pu_lsh]. unfold plsh_near. cbn [pl_hash pl_L pl_points pl_tables]. rewrite Nat.ltb_irrefl, Et.
      change (map (fun i => nth i data []) is) with (sampled_points data (starting_idx p n) (num_sampled p n)). set (pts := sampled_points data (starting_idx p n) (num_sampled p n)) in *.
      rewrite near_tables. destruct (near_spec hs pts q) as [_ Ns].
      rewrite pick_map by (intros i Hi; apply Ns in Hi as [Hi _]; rewrite <- EL, map_length in Hi; exact Hi). cbn [obind].
      set (ni := near_indices (e2lsh_new hs pts) q) in *.
      assert (map (fun i => (b, nth i is 0)) ni = map (fun i => (b, i)) (map (fun i => nth i is 0) ni)) as -> by (now rewrite map_map).
      rewrite (load_all_rows _ _ data); auto.
      2:{ intros i Hi. apply in_map_iff in Hi as (x & <- & Hx). apply Ii, nth_In. apply Ns in Hx as [Hx _]. now rewrite <- EL, map_length in Hx. }
      cbn [obind]. unfold hunit_query. cbn [u_below u_final orb u_lsh]. unfold get_near_neighbors. f_equal.
      change (e_points (e2lsh_new hs pts)) with pts. fold ni.
      assert (map (fun i => nth i data []) (map (fun i => nth i is 0) ni) = map (fun i => nth i pts []) ni) as ->.
      { rewrite map_map. apply map_ext_in. intros i Hi. apply Ns in Hi as [Hi _]. unfold pts, sampled_points in *. fold is in Hi |- *. rewrite map_length in Hi.
        rewrite (nth_indep (map (fun i => nth i data []) is) [] (nth 0 data [])) by (now rewrite map_length). now rewrite (map_nth (fun i => nth i data [])). }
      reflexivity.
  Qed.
End Units.

Section Estimator.
  Context {W : Type} `{Num W} `{KNum W}.
  Notation point := (@point W).

  Lemma upd_nth_Forall2 {A B} (R : A -> B -> Prop) (f : A -> A) (g : B -> B) l l' i : (forall x y, R x y -> R (f x) (g y)) -> Forall2 R l l' -> Forall2 R (upd_nth l i f) (upd_nth l' i g).
  Proof. intros Hf F. revert i. induction F; intros [|i]; cbn; constructor; auto. Qed.

  Definition rel_grid {A B} (R : A -> B -> Prop) : list (list (list A)) -> list (list (list B)) -> Prop := Forall2 (Forall2 (Forall2 R)).

  Lemma gpush_rel {A} (R : A -> @hunit W -> Prop) lni iter u u' g g' : R u u' -> rel_grid R g g' -> rel_grid R (gpush lni iter u g) (push_unit lni iter u' g').
  Proof.
    intros Ru Rg. unfold gpush, push_unit. apply upd_nth_Forall2; auto. intros x y Rx. apply upd_nth_Forall2; auto.
    intros x' y' Rx'. apply Forall2_app; auto.
  Qed.

  Lemma Forall2_repeat {A B} (R : A -> B -> Prop) x y n : R x y -> Forall2 R (repeat x n) (repeat y n).
  Proof. intros Rx. induction n; cbn; constructor; auto. Qed.

  Lemma Forall2_nth_error {A B} (R : A -> B -> Prop) l l' i y : Forall2 R l l' -> nth_error l' i = Some y -> exists x, nth_error l i = Some x /\ R x y.
  Proof. intros F. revert i. induction F; intros [|i]; cbn; try discriminate; eauto. intros [= <-]. eauto. Qed.

  Lemma median_seq (es : list (outcome W)) l : es = map Ok l -> sequence es = Ok l.
  Proof. intros ->. induction l as [|x l IH]; cbn; auto. now rewrite IH. Qed.

  (** The estimator in memory answers as the estimator on values, as long as its copies of the data are in place. *)
  Lemma pckns_ok T (h : heap) a min_mu bs (copies : list (list point)) rows o hs k : sampling_inside rows -> Forall (fun c => length c = rows) copies ->
    map h bs = map Some copies -> pckns_init T h a min_mu bs rows o hs k ->
    exists k', ckns_init T a min_mu copies (Z.of_nat rows) o hs k' /\
      forall (h' : heap) q, map h' bs = map Some copies -> pc_query h' k q = ckns_query k' q.
  Proof.
    intros In1 Fl Eb (units & s & Hu & Rs & Em & ->).
    assert (length bs = length copies) as EL by (apply (f_equal (@length _)) in Eb; now rewrite !map_length in Eb).
    set (n := Z.of_nat rows) in *. set (mx := max_log_nmu_of n) in *. set (its := iterations_of n min_mu) in *. rewrite EL in *.
    set (tasks := init_tasks n mx its (length copies)) in *.
    set (R := fun (u : punit) (u' : @hunit W) => forall (h' : heap) q, map h' bs = map Some copies -> punit_query h' u q = Ok (hunit_query u' q)).
    assert (forall iter lni j, In (iter, lni, j) tasks -> R (units iter lni j) (task_unit a copies mx o hs iter lni j)) as RU.
    { intros iter lni j It. specialize (Hu _ _ _ It).
      assert (iter < length copies) as Hi.
      { unfold tasks, init_tasks in It. apply in_flat_map in It as (x & Hx & It). apply in_flat_map in It as (y & Hy & It). apply in_map_iff in It as (z & [= -> -> ->] & _).
        apply in_seq in Hx. lia. }
      assert (forall h' : heap, map h' bs = map Some copies -> h' (nth iter bs 0) = Some (nth iter copies [])) as Hc.
      { intros h' E'. assert (nth iter (map h' bs) (h' 0) = nth iter (map Some copies) (h' 0)) as En by (now rewrite E'). rewrite map_nth in En. rewrite En.
        rewrite (nth_indep _ (h' 0) (Some [])) by (now rewrite map_length). now rewrite (map_nth Some). }
      assert (length (nth iter copies []) = rows) as Er by (rewrite Forall_forall in Fl; apply Fl, nth_In; auto).
      rewrite <- Er in Hu. intros h' q E'. unfold task_unit. eapply punit_query_ok; [apply Hc, Eb| |exact Hu|apply Hc, E']. now rewrite Er. }
    destruct (sim_reach (pinit_body units tasks) (init_body (task_unit a copies mx o hs) tasks) (rel_grid R)) with (P := T) (w := false) (prog := par_prog (length tasks))
      (s0 := repeat (repeat [] (length copies)) its : list (list (list (@punit W)))) (s0' := repeat (repeat [] (length copies)) its : list (list (list (@hunit W)))) (a := s) as (g & Rg & Rg').
    - intros t i f E. unfold pinit_body, init_body in *. destruct (nth_error tasks t) as [[[iter lni] j]|] eqn:Et; [|destruct i; discriminate].
      destruct i as [|i]; [|destruct i; discriminate]. injection E as <-. eexists. split; [reflexivity|]. intros x y Rxy. apply gpush_rel; auto. apply RU. eapply nth_error_In; eauto.
    - intros t i E. unfold pinit_body, init_body in *. destruct (nth_error tasks t) as [[[iter lni] j]|]; destruct i as [|[|i]]; try discriminate; reflexivity.
    - apply Forall2_repeat, Forall2_repeat. constructor.
    - exact Rs.
    - set (k' := mkCkns n mx its (length copies) g). assert (ckns_init T a min_mu copies n o hs k') as I.
      { exists (with_sh s g). split; [exact Rg'|]. split; [exact Em|reflexivity]. }
      exists k'. split; auto. intros h' q E'. unfold pc_query, ckns_query. cbn [pc_iters c_iters k']. fold its.
      assert (forall lni, In lni (seq 0 its) -> lni < its) as A by (intros l L; apply in_seq in L; lia). revert A.
      generalize (seq 0 its) as L. generalize w0 as z. intros z L. revert z. induction L as [|lni L IH]; intros z A; [reflexivity|].
      cbn [pc_query_loop ckns_query_loop]. cbn [pc_k1 c_k1 k'].
      rewrite (median_seq _ (map (iter_estimate k' q lni) (seq 0 (length copies)))).
      + cbn [obind]. destruct (median _); auto. cbn [obind]. unfold accepts, log_nmu_of, pc_log_nmu. cbn [c_max_log_nmu k' pc_max c_n pc_n]. destruct (wleb _ _); auto.
        apply IH. intros l Hl. apply A. now right.
      + rewrite map_map. apply map_ext_in. intros iter Hi. apply in_seq in Hi. destruct Hi as [_ Hi]. cbn in Hi.
        pose proof (init_units _ _ _ _ _ _ _ _ lni iter I (A _ (or_introl eq_refl)) Hi) as Pu. apply Permutation_length in Pu. rewrite map_length in Pu.
        unfold pc_estimate, iter_estimate. unfold shells in Pu. rewrite seq_length in Pu. change (c_n k') with n in Pu. change (pc_n _) with n.
        change (ckns_J n (pc_log_nmu {| pc_n := n; pc_max := mx; pc_iters := its; pc_k1 := length copies; pc_units := sh s |} lni)) with (ckns_J n (log_nmu_of k' lni)).
        unfold shells. change (c_n k') with n. set (N := Z.to_nat (ckns_J n (log_nmu_of k' lni) + 1)) in *.
        assert (forall j, In j (seq 0 N) -> pc_unit_query h' {| pc_n := n; pc_max := mx; pc_iters := its; pc_k1 := length copies; pc_units := sh s |} lni iter j q = Ok (c_unit_query k' lni iter j q)) as Q.
        { intros j Hj. apply in_seq in Hj. destruct Hj as [_ Hj]. cbn in Hj. unfold c_unit_query. fold (cell (c_units k') lni iter).
          destruct (nth_error (cell (c_units k') lni iter) j) as [u'|] eqn:Eu; [|apply nth_error_None in Eu; lia].
          unfold cell in Eu. cbn [c_units k'] in Eu. unfold pc_unit_query. cbn [pc_units].
          assert (exists row', nth_error g lni = Some row' /\ exists cell', nth_error row' iter = Some cell' /\ nth_error cell' j = Some u') as (row' & E1 & cell' & E2 & E3).
          { destruct (nth_error g lni) as [row'|] eqn:E1.
            - rewrite (nth_error_nth _ _ _ E1) in Eu. exists row'. split; auto. destruct (nth_error row' iter) as [cell'|] eqn:E2.
              + rewrite (nth_error_nth _ _ _ E2) in Eu. eauto.
              + apply nth_error_None in E2. rewrite (nth_overflow _ _ E2) in Eu. destruct j; discriminate.
            - apply nth_error_None in E1. rewrite (nth_overflow _ _ E1) in Eu. destruct iter, j; discriminate. }
          destruct (Forall2_nth_error _ _ _ _ _ Rg E1) as (row & -> & Rr). destruct (Forall2_nth_error _ _ _ _ _ Rr E2) as (cl & -> & Rc).
          destruct (Forall2_nth_error _ _ _ _ _ Rc E3) as (u & -> & Ru). apply Ru. exact E'. }
        revert Q. generalize (seq 0 N) as J. generalize w0 as z0. intros z0 J. revert z0. induction J as [|j J IHJ]; intros z0 Q; [reflexivity|]. cbn [fold_left].
        rewrite (Q j (or_introl eq_refl)). cbn [obind]. apply IHJ. intros j' Hj'. apply Q. now right.
  Qed.
End Estimator.
