(** Estimators whose data was freed; existence of histories; the real numbers. *)
From Verif Require Import Base Num RSum Cluster ThreadPool ThreadPoolFacts ThreadPoolTop Kde KdeFacts KdeFacts2 KdeFacts3 KdeFacts4 KdeAcc3 KdeAcc5 KdeLife KdeLifeFacts KdeLifeTop.
From Coq Require Import ZArith Permutation Reals Lra.
Local Open Scope nat_scope.

Section Freed.
  Context {W : Type} `{Num W} `{KNum W}.
  Notation point := (@point W).

  (** queries do not throw *)
  Lemma load_nothrow (h : @heap W) p e : load h p <> Throw e.
  Proof. unfold load. destruct (h (fst p)) as [r|]; [|discriminate]. destruct (nth_error r _); discriminate. Qed.
  Lemma load_all_nothrow (h : @heap W) ps e : load_all h ps <> Throw e.
  Proof.
    revert e. induction ps as [|p ps IH]; intros e; cbn; [discriminate|]. destruct (load h p) eqn:E; cbn; try discriminate; [|now apply load_nothrow in E].
    destruct (load_all h ps) eqn:E2; cbn; try discriminate. now destruct (IH e0).
  Qed.
  Lemma pick_nothrow ps is e : pick ps is <> Throw e.
  Proof. revert e. induction is as [|i is IH]; intros e; cbn; [discriminate|]. destruct (nth_error ps i); [|discriminate]. destruct (pick ps is) eqn:E; cbn; try discriminate. now destruct (IH e0). Qed.
  Lemma punit_nothrow (h : @heap W) u q e : punit_query h u q <> Throw e.
  Proof.
    unfold punit_query. destruct (if _ : bool then _ else _) eqn:E; cbn; try discriminate.
    - destruct (load_all h a) eqn:E2; cbn; try discriminate. now apply load_all_nothrow in E2.
    - destruct (_ || _); [discriminate|]. destruct (pu_lsh u); [|discriminate]. unfold plsh_near in E. destruct (_ <? _); [discriminate|]. now apply pick_nothrow in E.
  Qed.
  Lemma pc_unit_nothrow (h : @heap W) k lni iter j q e : pc_unit_query h k lni iter j q <> Throw e.
  Proof.
    unfold pc_unit_query. destruct (nth_error _ lni) as [r|]; [|discriminate]. destruct (nth_error r iter) as [c|]; [|discriminate]. destruct (nth_error c j); [|discriminate]. apply punit_nothrow.
  Qed.

  Lemma fold_ub (f : nat -> outcome W) l : (forall j e, f j <> Throw e) -> forall s, (s = UB \/ (exists z, s = Ok z)) -> (s = UB \/ exists j, In j l /\ f j = UB) ->
    fold_left (fun s j => do s <- s; do v <- f j; Ok (wadd s v)) l s = UB.
  Proof.
    intros Nt. induction l as [|j l IH]; intros s Hs HU.
    - destruct HU as [->|(? & [] & _)]. reflexivity.
    - cbn [fold_left]. apply IH.
      + destruct Hs as [->|[z ->]]; [now left|]. cbn. destruct (f j) eqn:E; cbn; [right; eauto|now apply Nt in E|now left].
      + destruct HU as [->|(j' & [->|Ij] & E)]; [left; reflexivity| |right; eauto]. left. destruct Hs as [->|[z ->]]; [reflexivity|]. cbn. now rewrite E.
  Qed.

  (** An estimator whose first unit looks at some point has undefined behaviour once its copies of the data are freed. *)
  Lemma pckns_freed T (h : @heap W) a min_mu bs rows o hs k : 1 <= length bs -> 1 <= iterations_of (Z.of_nat rows) min_mu ->
    ckns_J (Z.of_nat rows) (max_log_nmu_of (Z.of_nat rows)) = 0%Z ->
    1 <= Z.to_nat (num_sampled (ckns_p_sampling 0 (max_log_nmu_of (Z.of_nat rows)) (Z.of_nat rows) o) (Z.of_nat rows)) ->
    pckns_init T h a min_mu bs rows o hs k ->
    forall (h' : @heap W) q, (forall b, In b bs -> h' b = None) -> pc_query h' k q = UB.
  Proof.
    intros Lb Li EJ Ln (units & s & Hu & Rs & Em & ->) h' q Hf. set (n := Z.of_nat rows) in *. set (mx := max_log_nmu_of n) in *. set (its := iterations_of n min_mu) in *.
    set (k1 := length bs) in *. set (tasks := init_tasks n mx its k1) in *.
    set (tu := task_unit (W := W) a (repeat [] k1) mx o hs).
    set (R := fun (u : punit) (u' : @hunit W) => exists iter lni j, In (iter, lni, j) tasks /\ u = units iter lni j /\ u' = tu iter lni j).
    destruct (sim_reach (pinit_body units tasks) (init_body tu tasks) (rel_grid R)) with (P := T) (w := false) (prog := par_prog (length tasks))
      (s0 := repeat (repeat [] k1) its : list (list (list (@punit W)))) (s0' := repeat (repeat [] k1) its : list (list (list (@hunit W)))) (a := s) as (g & Rg & Rg').
    - intros t i f E. unfold pinit_body, init_body in *. destruct (nth_error tasks t) as [[[iter lni] j]|] eqn:Et; [|destruct i; discriminate].
      destruct i as [|i]; [|destruct i; discriminate]. injection E as <-. eexists. split; [reflexivity|]. intros x y Rxy. apply gpush_rel; auto.
      exists iter, lni, j. split; auto. eapply nth_error_In; eauto.
    - intros t i E. unfold pinit_body, init_body in *. destruct (nth_error tasks t) as [[[iter lni] j]|]; destruct i as [|[|i]]; try discriminate; reflexivity.
    - apply Forall2_repeat, Forall2_repeat. constructor.
    - exact Rs.
    - set (k' := mkCkns n mx its k1 g). assert (ckns_init T a min_mu (repeat [] k1) n o hs k') as I.
      { exists (with_sh s g). rewrite repeat_length. split; [exact Rg'|]. split; [exact Em|]. unfold k'. reflexivity. }
      pose proof (init_units _ _ _ _ _ _ _ _ 0 0 I Li Lb) as Pu. fold mx in Pu. fold tu in Pu.
      assert (shells k' 0 = [0]) as Es.
      { unfold shells, log_nmu_of. cbn [c_n c_max_log_nmu k']. replace (mx - Z.of_nat 0 * 2)%Z with mx by lia. rewrite EJ. reflexivity. }
      rewrite Es in Pu. cbn [map] in Pu. apply Permutation_sym, Permutation_length_1_inv in Pu. unfold cell in Pu. cbn [c_units k'] in Pu.
      assert (exists row', nth_error g 0 = Some row' /\ exists cell', nth_error row' 0 = Some cell' /\ nth_error cell' 0 = Some (tu 0 0 0)) as (row' & E1 & cell' & E2 & E3).
      { destruct g as [|row' g']; [discriminate|]. cbn [nth] in Pu. exists row'. split; auto. destruct row' as [|c' r']; [discriminate|]. cbn [nth] in Pu. exists c'. split; auto. now rewrite Pu. }
      destruct (Forall2_nth_error _ _ _ _ _ Rg E1) as (row & F1 & Rr). destruct (Forall2_nth_error _ _ _ _ _ Rr E2) as (cl & F2 & Rc).
      destruct (Forall2_nth_error _ _ _ _ _ Rc E3) as (u & F3 & (iter & lni & j & It & -> & Eu)).
      assert (u_j (tu 0 0 0) = 0%Z /\ u_j (tu iter lni j) = Z.of_nat j /\ u_log_nmu (tu iter lni j) = (mx - Z.of_nat lni * 2)%Z /\ u_log_nmu (tu 0 0 0) = (mx - Z.of_nat 0 * 2)%Z) as (U1 & U2 & U3 & U4).
      { unfold tu, task_unit, hunit_new. repeat split; repeat destruct (_ =? _)%Z; repeat destruct (_ <=? _)%Z; reflexivity. }
      assert (j = 0 /\ lni = 0) as [-> ->] by (rewrite <- Eu in U2, U3; split; lia).
      specialize (Hu _ _ _ It). replace (mx - Z.of_nat 0 * 2)%Z with mx in Hu by lia. unfold punit_new in Hu. fold n in Hu. change (Z.of_nat 0 =? 0)%Z with true in Hu. cbv iota in Hu.
      injection Hu as Hu.
      assert (iter < k1) as Hi.
      { unfold tasks, init_tasks in It. apply in_flat_map in It as (x & Hx & It). apply in_flat_map in It as (y & Hy & It). apply in_map_iff in It as (z & [= -> -> ->] & _). apply in_seq in Hx. lia. }
      unfold pc_query. cbn [pc_iters]. fold its. destruct its as [|its']; [lia|]. cbn [seq pc_query_loop pc_k1].
      replace k1 with (S (k1 - 1)) by lia. cbn [seq map sequence].
      assert (pc_estimate h' {| pc_n := n; pc_max := mx; pc_iters := S its'; pc_k1 := S (k1 - 1); pc_units := sh s |} q 0 0 = UB) as ->; [|reflexivity].
      unfold pc_estimate. apply (fold_ub (fun j => pc_unit_query h' {| pc_n := n; pc_max := mx; pc_iters := S its'; pc_k1 := S (k1 - 1); pc_units := sh s |} 0 0 j q)).
      + intros. apply pc_unit_nothrow.
      + right. eauto.
      + right. exists 0. split.
        * unfold pc_log_nmu. cbn [pc_n pc_max]. replace (mx - Z.of_nat 0 * 2)%Z with mx by lia. rewrite EJ. now left.
        * unfold pc_unit_query. cbn [pc_units]. rewrite F1, F2, F3, <- Hu. unfold punit_query. cbn [pu_below pu_final orb obind pu_all].
          rewrite load_all_freed; auto.
          -- apply Hf, nth_In. exact Hi.
          -- intros E. apply (f_equal (@length _)) in E. rewrite seq_length in E. cbn [length] in E. change (Z.of_nat 0) with 0%Z in E. lia.
  Qed.

  (** The construction succeeds on any machine with a thread. *)
  Lemma pckns_exists T (h : @heap W) a min_mu bs (copies : list (list point)) rows o hs : 1 <= T -> sampling_inside (W := W) rows -> Forall (fun c => length c = rows) copies ->
    map h bs = map Some copies -> exists k, pckns_init T h a min_mu bs rows o hs k.
  Proof.
    intros HT In1 Fl Eb. unfold pckns_init. set (n := Z.of_nat rows). set (mx := max_log_nmu_of n). set (its := iterations_of n min_mu).
    set (tasks := init_tasks n mx its (length bs)).
    set (units := fun iter lni j => match punit_new h a (nth iter bs 0) rows (mx - Z.of_nat lni * 2) (Z.of_nat j) o (hs iter lni j) with Ok u => u | _ => mkPU n a 0 0 0 0 true true [] None end).
    assert (length bs = length copies) as EL by (apply (f_equal (@length _)) in Eb; now rewrite !map_length in Eb).
    assert (forall iter lni j, In (iter, lni, j) tasks -> punit_new h a (nth iter bs 0) rows (mx - Z.of_nat lni * 2) (Z.of_nat j) o (hs iter lni j) = Ok (units iter lni j)) as Hu.
    { intros iter lni j It.
      assert (iter < length copies) as Hi.
      { unfold tasks, init_tasks in It. apply in_flat_map in It as (x & Hx & It). apply in_flat_map in It as (y & Hy & It). apply in_map_iff in It as (z & [= -> -> ->] & _).
        apply in_seq in Hx. lia. }
      assert (h (nth iter bs 0) = Some (nth iter copies [])) as Hc.
      { assert (nth iter (map h bs) (h 0) = nth iter (map Some copies) (h 0)) as En by (now rewrite Eb). rewrite map_nth in En. rewrite En.
        rewrite (nth_indep _ (h 0) (Some [])) by (now rewrite map_length). now rewrite (map_nth Some). }
      assert (length (nth iter copies []) = rows) as Er by (rewrite Forall_forall in Fl; apply Fl, nth_In; auto).
      unfold units. unfold punit_new. destruct (_ =? _)%Z; auto. destruct (_ <=? _)%Z; auto. unfold plsh_new. rewrite (load_all_rows _ _ _ _ Hc); [reflexivity|].
      intros i Ii. apply in_seq in Ii. rewrite Er. specialize (In1 (Z.of_nat j) (mx - Z.of_nat lni * 2)%Z o). cbv zeta in In1. lia. }
    destruct (can_finish (pinit_body units tasks) T false (par_prog (length tasks)) (repeat (repeat [] (length bs)) its)
      (init T (par_prog (length tasks)) (repeat (repeat [] (length bs)) its))) as (kk & s & E & Em); auto.
    - rewrite cmd_pushes_par. apply seq_NoDup.
    - apply gets_ok_par.
    - constructor.
    - eexists. exists units, s. split; [exact Hu|]. split; [eapply exec_reach; eauto; constructor|]. split; [exact Em|reflexivity].
  Qed.

  (** ** The storage of an estimator that was destroyed or overwritten is free *)
  Lemma free_all_in (h : @heap W) bs x : In x bs -> free_all h bs x = None.
  Proof.
    revert h. induction bs as [|b bs IH]; intros h I; [destruct I|]. destruct I as [->|I].
    - unfold free_all. cbn [fold_left]. apply (free_all_none (hset h x None) bs). apply hset_eq.
    - unfold free_all in *. cbn [fold_left]. now apply IH.
  Qed.

  Lemma gone_steps s hist s' : steps s hist s' -> forall o x b, inv s -> objs s o = Some x -> holder (W := W) hist o = None -> In b (owned_by (Some x)) -> mem s' b = None.
  Proof.
    induction 1 as [|s e s1 l s2 St Sts IH]; intros o x b I Eo Eh Ib; [discriminate|].
    unfold holder in Eh. cbn [fold_left] in Eh. fold (holder1 (Some o) e) in Eh. pose proof (inv_step _ _ _ I St) as I1. destruct (holder1 (Some o) e) as [o1|] eqn:E1.
    - destruct (keep_step _ _ _ _ _ _ I St Eo E1) as [A _]. eapply IH; eauto.
    - assert (b < fresh s) as Lb by (rewrite <- Eo in Ib; now destruct (i_own _ I _ _ Ib)).
      assert (fresh s <= fresh s1) as Lf by (destruct St; cbn; lia).
      eapply freed_steps; [exact Sts|exact I1|lia|]. destruct St; cbn [holder1] in E1; try discriminate; cbn [mem].
      + destruct (Nat.eqb_spec o0 o) as [->|]; [discriminate|]. destruct (Nat.eqb_spec o' o) as [->|]; [|discriminate]. apply free_all_in. now rewrite Eo.
      + destruct (Nat.eqb_spec o0 o) as [->|]; [|discriminate]. apply free_all_in. congruence.
  Qed.

  Theorem copy_without_original h0 s0 o v T a min_mu offset lo hi copies hs s1 : 1 <= length copies -> 1 <= iterations_of (Z.of_nat (hi - lo)) min_mu ->
    ckns_J (Z.of_nat (hi - lo)) (max_log_nmu_of (Z.of_nat (hi - lo))) = 0%Z ->
    1 <= Z.to_nat (num_sampled (ckns_p_sampling 0 (max_log_nmu_of (Z.of_nat (hi - lo))) (Z.of_nat (hi - lo)) offset) (Z.of_nat (hi - lo))) ->
    steps (@start W) h0 s0 -> step s0 (NewCkns o v T a min_mu offset lo hi copies hs) s1 ->
    forall hist s2 p q, steps s1 hist s2 -> holder hist o = None -> In p (holders hist o) -> query s2 p q = UB.
  Proof.
    intros Lc Li EJ Ln St0 St1 hist s2 p q St Eh Ip. pose proof (inv_steps _ _ _ inv_start St0) as I0. pose proof (inv_step _ _ _ I0 St1) as I1. inversion St1; subst.
    set (x := OCkns (seq (fresh s0) (length copies)) k) in *.
    assert (objs (mkS (alloc (mem s0) (fresh s0) copies) (fresh s0 + length copies) (mats s0) (fset (objs s0) o (Some x))) o = Some x) as Eo by (cbn; apply fset_eq).
    assert (view (objs s2 p) = view (Some x)) as Ev.
    { eapply (views_steps _ _ _ St [o]); [discriminate| |exact Ip]. intros ? [<-|[]]. now rewrite Eo. }
    unfold query. unfold view, x in Ev. destruct (objs s2 p) as [[| |ow kk]|]; try discriminate. injection Ev as ->.
    eapply pckns_freed; [| | | |eassumption|]; auto; [now rewrite seq_length|]. intros b' Ib. eapply gone_steps; eauto.
  Qed.
End Freed.

(** ** With real numbers *)
Lemma sampling_inside_R n : 1 <= n -> sampling_inside (W := R) n.
Proof.
  intros Hn j l o. cbv zeta. pose proof (unit_p_range (Z.of_nat n) l j o ltac:(lia)) as Hp. unfold unit_p in Hp. rewrite starting_idx_R by auto.
  change (Z.to_nat (num_sampled (ckns_p_sampling j l (Z.of_nat n) o) (Z.of_nat n))) with (unit_num (Z.of_nat n) l j o). pose proof (unit_num_le n l j o Hn). lia.
Qed.

Lemma first_level_R n : ckns_J (W := R) (Z.of_nat n) (max_log_nmu_of (W := R) (Z.of_nat n)) = 0%Z.
Proof. unfold ckns_J, max_log_nmu_of. lia. Qed.

Lemma first_unit_R n o : 1 <= n -> (o <= 0)%Z ->
  1 <= Z.to_nat (num_sampled (W := R) (ckns_p_sampling 0 (max_log_nmu_of (W := R) (Z.of_nat n)) (Z.of_nat n) o) (Z.of_nat n)).
Proof.
  intros Hn Ho. unfold num_sampled. cbn [wfloor KNumR wmul NumR wofZ]. unfold R_floor.
  assert (0 < INR n)%R as Hp by (apply lt_0_INR; lia).
  assert (1 <= ckns_p_sampling (W := R) 0 (max_log_nmu_of (W := R) (Z.of_nat n)) (Z.of_nat n) o * IZR (Z.of_nat n))%R as L.
  { rewrite <- INR_IZR_INZ. unfold ckns_p_sampling, wmin1. change (0 =? 0)%Z with true. cbv iota. cbn [wltb NumR w1 wdiv wpow2 KNumR wofZ]. rewrite <- INR_IZR_INZ.
    destruct (R_ltb _ _) eqn:E.
    - rewrite Rmult_1_l. change 1%R with (INR 1). apply le_INR. lia.
    - unfold Rdiv. rewrite Rmult_assoc, Rinv_l, Rmult_1_r by lra. replace (- o)%Z with (Z.of_nat (Z.to_nat (- o))) by lia. rewrite <- pow_powerRZ. apply pow_R1_Rle. lra. }
  set (y := (_ * _)%R) in *. pose proof (Int_part_bounds y) as B. assert (0 < Int_part y + 0)%Z by (apply lt_IZR; rewrite plus_IZR; assert (IZR 0 = 0)%R by reflexivity; lra). lia.
Qed.
