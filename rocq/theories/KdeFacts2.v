(** Construction of the CKNS estimator, E2LSH, neighbour sampling. *)
From Verif Require Import Base Num RSum GraphProps4 Cluster ThreadPool ThreadPoolFacts ThreadPoolTop Kde KdeFacts.
From Coq Require Import ZArith Permutation Reals Lra.
Local Open Scope nat_scope.

Lemma nth_repeat_lt {A} (x : A) n i d : i < n -> nth i (repeat x n) d = x.
Proof. intros L. rewrite (nth_indep _ d x) by (now rewrite repeat_length). apply nth_repeat. Qed.
Lemma flat_map_flat_map {A B C} (f : B -> list C) (h : A -> list B) l : flat_map f (flat_map h l) = flat_map (fun x => flat_map f (h x)) l.
Proof. induction l as [|x l IH]; simpl; auto. now rewrite flat_map_app, IH. Qed.
Lemma flat_map_map {A B C} (f : B -> list C) (h : A -> B) l : flat_map f (map h l) = flat_map (fun x => f (h x)) l.
Proof. induction l as [|x l IH]; simpl; auto. now rewrite IH. Qed.

Section Init.
  Context {W : Type} `{Num W} `{KNum W}.
  Notation hunit := (@hunit W).
  Variable units : nat -> nat -> nat -> hunit.
  Variable tasks : list (nat * nat * nat).

  Definition cell (g : list (list (list hunit))) (lni iter : nat) : list hunit := nth iter (nth lni g []) [].

  (** the units appended to cell (lni, iter) by an operation *)
  Definition op_units (lni iter : nat) (o : nat * nat) : list hunit :=
    match snd o with
    | 0 => match nth_error tasks (fst o) with Some (it, ln, j) => if (ln =? lni) && (it =? iter) then [units it ln j] else [] | None => [] end
    | _ => []
    end.

  Definition shaped (its k1 : nat) (g : list (list (list hunit))) : Prop := length g = its /\ forall l, l < its -> length (nth l g []) = k1.

  Lemma cell_push its k1 g lni iter it ln u : shaped its k1 g -> lni < its -> iter < k1 ->
    cell (push_unit ln it u g) lni iter = cell g lni iter ++ if (ln =? lni) && (it =? iter) then [u] else [].
  Proof.
    intros [S1 S2] Hl Hi. unfold cell, push_unit. destruct (Nat.lt_ge_cases ln (length g)) as [L|L].
    - rewrite nth_upd_nth by auto. rewrite (Nat.eqb_sym lni). destruct (Nat.eqb_spec ln lni) as [->|N]; simpl; [|now rewrite app_nil_r].
      destruct (Nat.lt_ge_cases it (length (nth lni g []))) as [L2|L2].
      + rewrite nth_upd_nth by auto. rewrite (Nat.eqb_sym iter). destruct (Nat.eqb_spec it iter) as [->|N]; simpl; auto. now rewrite app_nil_r.
      + rewrite upd_nth_out by auto. rewrite S2 in L2 by auto. destruct (Nat.eqb_spec it iter); [lia|]. now rewrite app_nil_r.
    - rewrite upd_nth_out by auto. destruct (Nat.eqb_spec ln lni); [lia|]. simpl. now rewrite app_nil_r.
  Qed.

  Lemma shaped_push its k1 g ln it u : shaped its k1 g -> shaped its k1 (push_unit ln it u g).
  Proof.
    intros [S1 S2]. unfold shaped, push_unit. rewrite upd_nth_length. split; auto. intros l Hl.
    destruct (Nat.lt_ge_cases ln (length g)) as [L|L]; [|rewrite upd_nth_out; auto].
    rewrite nth_upd_nth by auto. destruct (Nat.eqb_spec l ln) as [->|N]; auto. rewrite upd_nth_length. auto.
  Qed.

  Lemma cell_fold its k1 lni iter : lni < its -> iter < k1 -> forall L g, shaped its k1 g ->
    cell (fold_left (run_op (init_body units tasks)) L g) lni iter = cell g lni iter ++ flat_map (op_units lni iter) L.
  Proof.
    intros Hl Hi. induction L as [|[t kk] L IH]; intros g Sg; simpl; [now rewrite app_nil_r|].
    unfold run_op at 2. simpl. unfold init_body. unfold op_units at 1. simpl. destruct (nth_error tasks t) as [[[it ln] j]|].
    - destruct kk as [|kk]; simpl.
      + rewrite IH by now apply shaped_push. rewrite (cell_push its k1) by auto. now rewrite <- app_assoc.
      + destruct kk; now rewrite IH.
    - destruct kk; rewrite IH; auto.
  Qed.

  (** the units that belong in a cell *)
  Definition task_units (lni iter : nat) (t : nat * nat * nat) : list hunit :=
    let '(it, ln, j) := t in if (ln =? lni) && (it =? iter) then [units it ln j] else [].

  Lemma op_units_seq lni iter : forall pre post, tasks = pre ++ post ->
    flat_map (op_units lni iter) (sequential (init_body units tasks) (seq (length pre) (length post))) = flat_map (task_units lni iter) post.
  Proof.
    intros pre post. revert pre. induction post as [|[[it ln] j] post IH]; intros pre E; auto. cbn [length seq flat_map sequential].
    unfold sequential in IH |- *. cbn [flat_map]. rewrite flat_map_app. specialize (IH (pre ++ [(it, ln, j)])). rewrite app_length in IH. cbn [length] in IH. rewrite Nat.add_1_r in IH.
    rewrite IH by (now rewrite <- app_assoc). f_equal.
    assert (nth_error tasks (length pre) = Some (it, ln, j)) as En by (rewrite E, nth_error_app2, Nat.sub_diag by lia; reflexivity).
    unfold init_body. rewrite En. cbn. unfold op_units. cbn. rewrite En. rewrite app_nil_r. reflexivity.
  Qed.

  (** Every final state has, in every cell, a permutation of the units of that cell. *)
  Lemma init_cell its k1 T s lni iter : lni < its -> iter < k1 ->
    reach (init_body units tasks) T false (par_prog (length tasks)) (repeat (repeat [] k1) its) s -> m s = MEnd ->
    Permutation (cell (sh s) lni iter) (flat_map (task_units lni iter) tasks).
  Proof.
    intros Hl Hi R E. rewrite (sh_inv _ _ _ _ _ _ R).
    assert (shaped its k1 (repeat (repeat [] k1) its)) as Sh.
    { split; [apply repeat_length|]. intros l L. rewrite nth_repeat_lt by auto. apply repeat_length. }
    rewrite (cell_fold its k1) by auto. unfold cell. rewrite (nth_repeat_lt _ _ _ _ Hl), (nth_repeat_lt _ _ _ _ Hi). simpl.
    rewrite <- (op_units_seq lni iter [] tasks eq_refl). simpl. apply Permutation_flat_map.
    pose proof (final_perm (init_body units tasks) T false (par_prog (length tasks)) (repeat (repeat [] k1) its)) as F. rewrite cmd_pushes_par in F.
    apply F; auto; [apply seq_NoDup|apply waited_par].
  Qed.
End Init.

Section InitTasks.
  Context {W : Type} `{Num W} `{KNum W}.

  Lemma init_tasks_cell (units : nat -> nat -> nat -> @hunit W) n mx its k1 lni iter : lni < its -> iter < k1 ->
    flat_map (task_units units lni iter) (init_tasks n mx its k1) = map (units iter lni) (seq 0 (Z.to_nat (ckns_J n (mx - Z.of_nat lni * 2) + 1))).
  Proof.
    intros Hl Hi. unfold init_tasks. rewrite flat_map_flat_map.
    rewrite (flat_map_only _ _ iter); [|apply seq_NoDup|apply in_seq; lia|].
    - rewrite flat_map_flat_map. rewrite (flat_map_only _ _ lni); [|apply seq_NoDup|apply in_seq; lia|].
      + rewrite flat_map_map. induction (seq _ _) as [|j l IH]; auto. simpl. rewrite !Nat.eqb_refl. simpl. now f_equal.
      + intros x _ N. rewrite flat_map_map. apply flat_map_none. intros j _. simpl. apply Nat.eqb_neq in N as ->. reflexivity.
    - intros x _ N. rewrite flat_map_flat_map. apply flat_map_none. intros y _. rewrite flat_map_map. apply flat_map_none. intros j _. simpl.
      apply Nat.eqb_neq in N as ->. now rewrite andb_false_r.
  Qed.

  (** The estimate of a copy adds the answers of the units of its cell, in the order in which they were put there. *)
  Lemma iter_estimate_cell k q lni iter : length (cell (c_units k) lni iter) = length (shells k lni) ->
    iter_estimate k q lni iter = fold_left (fun s u => wadd s (hunit_query u q)) (cell (c_units k) lni iter) w0.
  Proof.
    intros L. unfold iter_estimate, shells in *. rewrite seq_length in L. rewrite <- L. unfold c_unit_query. fold (cell (c_units k) lni iter).
    generalize (cell (c_units k) lni iter) as l. clear L.
    enough (forall l pre z, fold_left (fun s j => wadd s match nth_error (pre ++ l) j with Some u => hunit_query u q | None => w0 end) (seq (length pre) (length l)) z
      = fold_left (fun s u => wadd s (hunit_query u q)) l z) as A by (intros l; apply (A l [] w0)).
    induction l as [|u l IH]; intros pre z; auto. cbn [length seq fold_left]. rewrite nth_error_app2, Nat.sub_diag by lia. cbn [nth_error].
    specialize (IH (pre ++ [u])). rewrite app_length in IH. cbn [length] in IH. rewrite Nat.add_1_r, <- app_assoc in IH. apply IH.
  Qed.

  Lemma fold_wadd_perm {EN : ExactNum W} {A} (f : A -> W) l l' : Permutation l l' ->
    fold_left (fun s u => wadd s (f u)) l w0 = fold_left (fun s u => wadd s (f u)) l' w0.
  Proof.
    intros P. apply toR_inj.
    assert (forall l z, toR (fold_left (fun s u => wadd s (f u)) l z) = (toR z + lsum (fun u => toR (f u)) l)%R) as A0.
    { clear. induction l as [|u l IH]; intros z; simpl; [unfold lsum; simpl; ring|]. rewrite IH, toR_add. cbn. ring. }
    rewrite !A0. f_equal. clear A0. now apply lsum_perm.
  Qed.
End InitTasks.

Section InitTop.
  Context {W : Type} `{Num W} `{KNum W}.

  Lemma shells_mk n mx its k1 (g : list (list (list hunit))) lni :
    shells (mkCkns n mx its k1 g) lni = seq 0 (Z.to_nat (ckns_J n (mx - Z.of_nat lni * 2) + 1)).
  Proof. reflexivity. Qed.

  (** All results of the construction hold, cell by cell, the same units up to order. *)
  Lemma init_units T a min_mu copies n offset hs k lni iter : ckns_init T a min_mu copies n offset hs k -> lni < c_iters k -> iter < c_k1 k ->
    Permutation (cell (c_units k) lni iter) (map (task_unit a copies (max_log_nmu_of n) offset hs iter lni) (shells k lni)).
  Proof.
    intros (s & R & E & ->) Hl Hi. cbn [c_units c_iters c_k1] in *. rewrite shells_mk.
    rewrite <- (init_tasks_cell (task_unit a copies (max_log_nmu_of n) offset hs) n (max_log_nmu_of n) (iterations_of n min_mu) (length copies)) by auto.
    eapply init_cell; eauto.
  Qed.

  Lemma init_fields T a min_mu copies n offset hs k : ckns_init T a min_mu copies n offset hs k ->
    c_n k = n /\ c_max_log_nmu k = max_log_nmu_of n /\ c_iters k = iterations_of n min_mu /\ c_k1 k = length copies.
  Proof. intros (s & R & E & ->). auto. Qed.

  Lemma init_estimates {EN : ExactNum W} T T' a min_mu copies n offset hs k k' q lni iter :
    ckns_init T a min_mu copies n offset hs k -> ckns_init T' a min_mu copies n offset hs k' -> lni < c_iters k -> iter < c_k1 k ->
    iter_estimate k q lni iter = iter_estimate k' q lni iter.
  Proof.
    intros I I' Hl Hi. destruct (init_fields _ _ _ _ _ _ _ _ I) as (F1 & F2 & F3 & F4), (init_fields _ _ _ _ _ _ _ _ I') as (F1' & F2' & F3' & F4').
    pose proof (init_units _ _ _ _ _ _ _ _ lni iter I Hl Hi) as P. pose proof (init_units _ _ _ _ _ _ _ _ lni iter I' ltac:(congruence) ltac:(congruence)) as P'.
    assert (shells k lni = shells k' lni) as Es by (unfold shells, log_nmu_of; congruence). rewrite <- Es in P'.
    rewrite !iter_estimate_cell.
    - apply fold_wadd_perm. etransitivity; [exact P|now symmetry].
    - apply Permutation_length in P'. rewrite map_length in P'. congruence.
    - apply Permutation_length in P. now rewrite map_length in P.
  Qed.

  Lemma init_query {EN : ExactNum W} T T' a min_mu copies n offset hs k k' q :
    ckns_init T a min_mu copies n offset hs k -> ckns_init T' a min_mu copies n offset hs k' -> ckns_query k q = ckns_query k' q.
  Proof.
    intros I I'. destruct (init_fields _ _ _ _ _ _ _ _ I) as (F1 & F2 & F3 & F4), (init_fields _ _ _ _ _ _ _ _ I') as (F1' & F2' & F3' & F4').
    unfold ckns_query. rewrite F3, F3'. assert (forall lni, In lni (seq 0 (iterations_of n min_mu)) -> lni < c_iters k) as A by (intros l L; apply in_seq in L; lia).
    revert A. generalize (seq 0 (iterations_of n min_mu)) as L. generalize w0 as z. intros z L. revert z. induction L as [|lni L IH]; intros z A; simpl; [congruence|].
    rewrite F4, F4'. rewrite (map_ext_in _ (iter_estimate k' q lni)).
    - destruct (median _); simpl; auto. unfold accepts, log_nmu_of. rewrite F1, F1', F2, F2'. destruct (wleb _ _); auto. apply IH. intros l Il. apply A. now right.
    - intros it Ii. apply in_seq in Ii. eapply init_estimates; eauto; [apply A; now left|lia].
  Qed.

  (** A result exists for every positive number of threads. *)
  Lemma init_exists T a min_mu copies n offset hs : 1 <= T -> exists k, ckns_init T a min_mu copies n offset hs k.
  Proof.
    intros HT. unfold ckns_init. set (tasks := init_tasks _ _ _ _).
    destruct (can_finish (init_body (task_unit a copies (max_log_nmu_of n) offset hs) tasks) T false (par_prog (length tasks)) (repeat (repeat [] (length copies)) (iterations_of n min_mu))
      (init T (par_prog (length tasks)) (repeat (repeat [] (length copies)) (iterations_of n min_mu)))) as (k & s & E & Em); auto.
    - rewrite cmd_pushes_par. apply seq_NoDup.
    - apply gets_ok_par.
    - constructor.
    - eexists. exists s. split; [|split; [exact Em|reflexivity]]. eapply exec_reach; eauto. constructor.
  Qed.

  (** Without hardware threads the constructor waits forever, as soon as there is a unit to build. *)
  Lemma init_no_threads a min_mu copies n offset hs k : init_tasks n (max_log_nmu_of n) (iterations_of n min_mu) (length copies) <> [] ->
    ~ ckns_init 0 a min_mu copies n offset hs k.
  Proof.
    intros N (s & R & E & _). eapply no_worker_get_hangs; [|exact R|exact E]. instantiate (1 := 0). unfold par_prog. apply in_or_app. right. apply in_map.
    apply in_seq. destruct (init_tasks _ _ _ _); [congruence|simpl; lia].
  Qed.
End InitTop.
