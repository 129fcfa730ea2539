(** Theorem C59: the thread pool (stag_lib/multithreading/ctpl_stl.h). *)
From Verif Require Import Base ThreadPool ThreadPoolFacts ThreadPoolTop.
From Coq Require Import Permutation.

Notation count t l := (count_occ Nat.eq_dec l t).

(** Every task pushed before stop(true) is taken by exactly one worker, exactly once, all its operations are executed in order and
    once each, and it is finished before stop(true) returns; for every number P >= 1 of workers, tasks, and every interleaving.
    [tr a] is the sequence of events of an execution that led to state [a]. *)
Theorem C59_exactly_once :
  forall (S : Type) (body : nat -> list (S -> S)) (P : nat) (prog : list cmd) (s0 : S) (a : st) (before after : list event),
  1 <= P -> NoDup (cmd_pushes prog) ->
  reach body P true prog s0 a -> tr a = before ++ EStopped :: after ->
  pushes before = cmd_pushes prog /\ after = [] /\ drops before = [] /\
  forall t, In t (cmd_pushes prog) ->
    count t (starts before) = 1 /\ count t (finishes before) = 1 /\ ops t before = seq 0 (length (body t)).
Proof.
  intros S body P prog s0 a e1 e2 HP Nd R E. destruct (stopped_end _ _ _ _ _ _ _ _ R E) as [Em ->].
  assert (waited P true prog) as Hw by now left.
  destruct (flow_inv _ _ _ _ _ a R) as (I1 & _). rewrite Em in I1. cbn [to_push] in I1. rewrite app_nil_r in I1.
  pose proof (wait_no_drop _ _ _ _ _ a R eq_refl HP) as D. rewrite E in D, I1. rewrite drops_app in D. cbn in D. rewrite app_nil_r in D.
  unfold pushes in I1. rewrite flat_map_app in I1. cbn in I1. rewrite app_nil_r in I1.
  repeat split; auto.
  - destruct (final_counts body P true prog s0 Nd Hw a R Em t) as [C _]. rewrite E, starts_app in C. cbn in C. rewrite app_nil_r in C. unfold cnt in C. rewrite C.
    apply NoDup_count_occ'; auto.
  - destruct (final_counts body P true prog s0 Nd Hw a R Em t) as [_ C]. rewrite E, finishes_app in C. cbn in C. rewrite app_nil_r in C. unfold cnt in C. rewrite C.
    apply NoDup_count_occ'; auto.
  - pose proof (final_ops body P true prog s0 Nd Hw a R Em t) as C. rewrite E, ops_app in C. cbn in C. rewrite app_nil_r in C. rewrite C.
    destruct (in_dec Nat.eq_dec t (cmd_pushes prog)); tauto.
Qed.
Print Assumptions C59_exactly_once.

(** At any time, for both kinds of stop, even without workers: no task is started or finished twice, only pushed tasks are started, and the
    operations of a task are executed in order, each at most once. *)
Theorem C59_at_most_once :
  forall (S : Type) (body : nat -> list (S -> S)) (P : nat) (w : bool) (prog : list cmd) (s0 : S) (a : st),
  NoDup (cmd_pushes prog) -> reach body P w prog s0 a ->
  NoDup (starts (tr a)) /\ NoDup (finishes (tr a)) /\
  (forall t, In t (starts (tr a)) -> In t (cmd_pushes prog)) /\
  (forall t, exists k, k <= length (body t) /\ ops t (tr a) = seq 0 k).
Proof.
  intros S body P w prog s0 a Nd R. destruct (flow_inv _ _ _ _ _ a R) as (I1 & I2 & I3). destruct (ops_inv body P w prog s0 Nd a R) as (A1 & A2 & A3 & A4).
  assert (forall t, cnt t (pushes (tr a)) <= count t (cmd_pushes prog)) as L by (intros t; unfold cnt; rewrite <- I1, count_occ_app; lia).
  pose proof (proj1 (NoDup_count_occ Nat.eq_dec _) Nd) as Nd'.
  split; [apply (NoDup_count_occ Nat.eq_dec)|split; [apply (NoDup_count_occ Nat.eq_dec)|split]].
  - intros t. specialize (I2 t). specialize (L t). specialize (Nd' t). unfold cnt in *. lia.
  - intros t. specialize (I2 t). specialize (I3 t). specialize (L t). specialize (Nd' t). unfold cnt in *. lia.
  - intros t I. apply In_cnt in I. apply In_cnt. specialize (I2 t). specialize (L t). unfold cnt in *. lia.
  - intros t. destruct (in_dec Nat.eq_dec t (starts (tr a))) as [I|N].
    + apply In_cnt in I. rewrite I3 in I. destruct (Nat.eq_dec (cnt t (finishes (tr a))) 0) as [Z|Z].
      * assert (In t (holding (ws a))) as H by (apply In_cnt; lia). unfold holding in H. apply in_flat_map in H as (x & H & Ht). apply In_nth_error in H as [i H].
        destruct x; simpl in Ht; try tauto; destruct Ht as [->|[]].
        -- destruct (A1 _ _ _ H). eauto.
        -- exists 0. rewrite (A2 _ _ H). split; auto. lia.
      * exists (length (body t)). split; auto. apply A3. apply In_cnt. lia.
    + exists 0. rewrite (A4 _ N). split; auto. lia.
Qed.
Print Assumptions C59_at_most_once.

(** No deadlock, no lost wake-up: as long as the owner of the pool has not finished, some thread can make a step that is not a spurious wake-up
    (every future waited for must have been pushed). *)
Theorem C59_no_deadlock :
  forall (S : Type) (body : nat -> list (S -> S)) (P : nat) (w : bool) (prog : list cmd) (s0 : S) (a : st),
  1 <= P -> NoDup (cmd_pushes prog) ->
  (forall pre t post, prog = pre ++ Get t :: post -> In t (cmd_pushes pre)) ->
  reach body P w prog s0 a -> m a <> MEnd -> exists b, pstep body w a b.
Proof. intros S body P w prog s0 a HP Nd G R N. exact (progress body P w prog s0 a R HP G N). Qed.
Print Assumptions C59_no_deadlock.

(** Termination: the length of an execution is bounded by a number that depends on the program only, plus five steps for each spurious wake-up. *)
Theorem C59_termination :
  forall (S : Type) (body : nat -> list (S -> S)) (P : nat) (w : bool) (prog : list cmd) (s0 : S), exists bound : nat,
  forall n k a, exec body w n k (init P prog s0) a -> n <= bound + 5 * k.
Proof.
  intros. exists (mu body P (init P prog s0)). intros n k a E. pose proof (exec_bound body P w prog s0 n k _ _ (reach_init _ _ _ _ _) E). lia.
Qed.
Print Assumptions C59_termination.

(** A program that pushes tasks and waits for all the futures (every parallel loop of the library) runs all of them, even with stop(false);
    if operations of different tasks commute, the data they leave behind is that of running the tasks one after the other in the order of the
    pushes, whatever the schedule. *)
Theorem C59_schedule_independent :
  forall (S : Type) (body : nat -> list (S -> S)) (P : nat) (w : bool) (prog : list cmd) (s0 : S) (a : st),
  NoDup (cmd_pushes prog) -> (forall t, In t (cmd_pushes prog) -> In (Get t) prog) ->
  (forall t t' f f' s, t <> t' -> In f (body t) -> In f' (body t') -> f (f' s) = f' (f s)) ->
  reach body P w prog s0 a -> m a = MEnd ->
  sh a = fold_left (fun s t => fold_left (fun s f => f s) (body t) s) (cmd_pushes prog) s0.
Proof. intros S body P w prog s0 a Nd G C R E. exact (final_shared body P w prog s0 Nd (or_intror G) a R E C). Qed.
Print Assumptions C59_schedule_independent.

(** The hypotheses are met, and the end is reached: two workers, three tasks of two operations each. *)
Example C59_hypotheses_met :
  let body := fun t => [fun s : list nat => t :: s; fun s => t + 10 :: s] in
  let prog := [Push 0; Push 1; Get 0; Push 2; Get 2; Get 1] in
  NoDup (cmd_pushes prog) /\ (forall pre t post, prog = pre ++ Get t :: post -> In t (cmd_pushes pre)) /\
  exists a before, reach body 2 true prog [] a /\ tr a = before ++ EStopped :: [] /\ m a = MEnd.
Proof.
  intros body prog.
  assert (NoDup (cmd_pushes prog)) as Nd. { unfold prog; simpl. repeat constructor; simpl; intuition lia. }
  assert (forall pre t post, prog = pre ++ Get t :: post -> In t (cmd_pushes pre)) as G.
  { intros pre t post E. unfold prog in E. clear Nd.
    repeat (destruct pre as [|? pre]; simpl in E; [inversion E; subst; simpl; auto 6; fail|inversion E as [[E1 E2]]; subst; clear E; rename E2 into E]). }
  split; auto. split; auto.
  destruct (can_finish body 2 true prog [] (init 2 prog [])) as (n & b & E & Eb); auto; [constructor|].
  assert (reach body 2 true prog [] b) as R by (eapply exec_reach; [|eauto]; constructor).
  pose proof (stopped_last _ _ _ _ _ b R) as L. rewrite Eb in L. destruct L as (e & L & _). eauto.
Qed.

(** Without a worker (hardware_concurrency() = 0 is allowed by the standard) waiting for a future never ends, and stop(true) deletes the tasks
    without running them, contrary to the comment "all the functions in the queue are run". *)
Theorem C59_no_workers_refuted :
  (forall (S : Type) (body : nat -> list (S -> S)) (w : bool) prog s0 a t, In (Get t) prog -> reach body 0 w prog s0 a -> m a <> MEnd) /\
  (forall (S : Type) (body : nat -> list (S -> S)) s0, exists a, reach body 0 true [Push 0] s0 a /\ tr a = [EPush 0; EDrop 0; EStopped]).
Proof.
  split.
  - intros. eapply no_worker_get_hangs; eauto.
  - intros S body s0.
    assert (forall a b, reach body 0 true [Push 0] s0 a -> mstep true a b -> reach body 0 true [Push 0] s0 b) as St by (intros a b R St; eapply reach_step; [eauto|]; left; now left).
    eexists. split.
    + eapply St; [eapply St; [eapply St; [eapply St; [eapply St; [eapply St; [eapply St; [eapply St; [eapply St; [apply reach_init|]|]|]|]|]|]|]|]|].
      * apply m_push.
      * apply m_push_lock.
      * apply m_push_notify_nobody. simpl. tauto.
      * apply m_stop_wait. reflexivity.
      * apply m_stop_lock.
      * apply m_stop_notify.
      * apply m_join_end. simpl. lia.
      * apply m_clear2_some.
      * apply m_clear2_none.
    + reflexivity.
Qed.
Print Assumptions C59_no_workers_refuted.

(** stop(false) may delete tasks that are still in the queue. *)
Theorem C59_stop_now_drops :
  forall (S : Type) (body : nat -> list (S -> S)) s0, exists a, reach body 1 false [Push 0] s0 a /\ m a = MStopLock /\ tr a = [EPush 0; EDrop 0].
Proof.
  intros S body s0.
  assert (forall a b, reach body 1 false [Push 0] s0 a -> mstep false a b -> reach body 1 false [Push 0] s0 b) as St by (intros a b R St; eapply reach_step; [eauto|]; left; now left).
  eexists. split; [|split].
  + eapply St; [eapply St; [eapply St; [eapply St; [eapply St; [eapply St; [eapply St; [eapply St; [apply reach_init|]|]|]|]|]|]|]|].
    * apply m_push.
    * apply m_push_lock.
    * apply m_push_notify_nobody. simpl. intuition discriminate.
    * apply m_stop_now. reflexivity.
    * apply m_flags_set. simpl. lia.
    * apply m_flags_end. simpl. lia.
    * apply m_clear_some.
    * apply m_clear_none.
  + reflexivity.
  + reflexivity.
Qed.
Print Assumptions C59_stop_now_drops.
