(** The thread pool of stag_lib/multithreading/ctpl_stl.h as a transition system.

    One main thread (the code that owns the pool) and [P] workers interleave arbitrarily; one step is one access to shared
    data: an operation on the task queue (protected by the queue's own mutex, so atomic), locking/unlocking the pool mutex,
    a wait or notify on the condition variable, reading or writing an atomic flag, one micro-operation of a task.

    Simplifications: the main thread runs a fixed list of push / future.get() calls and then stop(w), which is what every use of
    the pool in the library does (kde.cpp, cluster.cpp), where w = false for an explicit pool.stop() and w = true for the
    destructor; resize() is only modelled as called by the constructor; the counter nWaiting (only read by n_idle()) and the
    flag isStop (only read by a second stop()) are left out; tasks do not throw (a packaged_task would store the exception).
    Memory is sequentially consistent (all shared accesses are under a mutex or atomic). *)
From Verif Require Import Base.
From Coq Require Import Permutation.

Section Pool.
  Context {S : Type}.
  (** The program of task t: micro-operations on the data shared by the tasks. *)
  Variable body : nat -> list (S -> S).
  (** Number of workers: the constructor's nThreads. *)
  Variable P : nat.
  (** The argument isWait of the final stop. *)
  Variable w : bool.

  Inductive event : Type :=
  | EPush (t : nat)                (* push put task t in the queue *)
  | EStart (i t : nat)             (* worker i took task t *)
  | EOp (t k : nat)                (* the k-th micro-operation of task t was executed *)
  | EFinish (t : nat)              (* task t is finished, its future is ready *)
  | EGot (t : nat)                 (* main's future.get() on task t returned *)
  | EDrop (t : nat)                (* stop deleted task t without running it *)
  | EStopped.                      (* stop returned *)

  (** Program counter of a worker: ctpl_stl.h:202-227 (the lambda of set_thread). *)
  Inductive wst : Type :=
  | WPop                           (* about to call q.pop outside the lock (209, 217) *)
  | WRun (t k : nat)               (* running task t, about to do its k-th operation (213) *)
  | WFlag                          (* about to read _flag after a task (214) *)
  | WLock                          (* about to lock the pool mutex (220) *)
  | WPred                          (* holds the mutex, about to pop inside the wait predicate (222) *)
  | WPred2                         (* holds the mutex, pop found nothing, about to read isDone and _flag (222) *)
  | WSleep                         (* blocked in cv.wait, mutex released (222) *)
  | WWake                          (* notified, about to lock the mutex again (222) *)
  | WUnlockRun (t : nat)           (* holds the mutex and task t, about to unlock (223, end of the loop body) *)
  | WUnlockExit                    (* holds the mutex, about to unlock and return (225) *)
  | WExit.                         (* returned *)

  Inductive cmd : Type := Push (t : nat) | Get (t : nat).

  (** Program counter of the main thread. push: ctpl_stl.h:181-191; stop: ctpl_stl.h:135-163. *)
  Inductive mst : Type :=
  | MCmd (cs : list cmd)           (* about to run the first of cs, or stop(w) if there is none *)
  | MPushLock (cs : list cmd)      (* in push, after q.push, about to lock the mutex (186) *)
  | MPushNotify (cs : list cmd)    (* in push, holds the mutex, about to notify_one and unlock (187) *)
  | MFlags (i : nat)               (* in stop(false), about to set flags[i] (136-138) *)
  | MClear                         (* in stop(false), clear_queue (139) *)
  | MStopLock                      (* in stop, about to lock (147) *)
  | MStopNotify                    (* in stop, about to notify_all and unlock (148) *)
  | MJoin (i : nat)                (* in stop, about to join thread i (150-153) *)
  | MClear2                        (* in stop, the second clear_queue (156) *)
  | MEnd.                          (* stop has returned *)

  Inductive holder : Type := HW (i : nat) | HM.

  Record st : Type := mkst {
    q : list nat;                  (* the task queue *)
    ws : list wst;                 (* the workers *)
    mtx : option holder;           (* the pool mutex *)
    m : mst;                       (* main thread *)
    isDone : bool;
    flags : list bool;
    sh : S;                        (* data shared by the tasks *)
    tr : list event }.             (* what happened so far (ghost), oldest first *)

  Definition set_w (i : nat) (x : wst) (l : list wst) : list wst := upd_nth l i (fun _ => x).

  (** notify_all: every sleeping worker wakes up *)
  Definition wake_all (l : list wst) : list wst := map (fun x => match x with WSleep => WWake | _ => x end) l.

  (** The state after the constructor (ctpl_stl.h:69, 86-97): all workers started, about to pop. Workers that start before the
      constructor returns are covered: the main thread may be delayed arbitrarily. *)
  Definition init (prog : list cmd) (s0 : S) : st :=
    mkst [] (repeat WPop P) None (MCmd prog) false (repeat false P) s0 [].

  (** One step of a worker. ctpl_stl.h:202-227 *)
  Inductive wstep (i : nat) : st -> st -> Prop :=
  | w_pop_some q' t l x mm dn fl s e : nth_error l i = Some WPop ->
      wstep i (mkst (t :: q') l x mm dn fl s e) (mkst q' (set_w i (WRun t 0) l) x mm dn fl s (e ++ [EStart i t]))
  | w_pop_none l x mm dn fl s e : nth_error l i = Some WPop ->
      wstep i (mkst [] l x mm dn fl s e) (mkst [] (set_w i WLock l) x mm dn fl s e)
  | w_op qq l x mm dn fl s e t k f : nth_error l i = Some (WRun t k) -> nth_error (body t) k = Some f ->
      wstep i (mkst qq l x mm dn fl s e) (mkst qq (set_w i (WRun t (k + 1)) l) x mm dn fl (f s) (e ++ [EOp t k]))
  | w_finish qq l x mm dn fl s e t k : nth_error l i = Some (WRun t k) -> nth_error (body t) k = None ->
      wstep i (mkst qq l x mm dn fl s e) (mkst qq (set_w i WFlag l) x mm dn fl s (e ++ [EFinish t]))
  | w_flag_set qq l x mm dn fl s e : nth_error l i = Some WFlag -> nth i fl false = true ->
      wstep i (mkst qq l x mm dn fl s e) (mkst qq (set_w i WExit l) x mm dn fl s e)
  | w_flag_unset qq l x mm dn fl s e : nth_error l i = Some WFlag -> nth i fl false = false ->
      wstep i (mkst qq l x mm dn fl s e) (mkst qq (set_w i WPop l) x mm dn fl s e)
  | w_lock qq l mm dn fl s e : nth_error l i = Some WLock ->
      wstep i (mkst qq l None mm dn fl s e) (mkst qq (set_w i WPred l) (Some (HW i)) mm dn fl s e)
  | w_relock qq l mm dn fl s e : nth_error l i = Some WWake ->
      wstep i (mkst qq l None mm dn fl s e) (mkst qq (set_w i WPred l) (Some (HW i)) mm dn fl s e)
  | w_pred_some q' t l x mm dn fl s e : nth_error l i = Some WPred ->
      wstep i (mkst (t :: q') l x mm dn fl s e) (mkst q' (set_w i (WUnlockRun t) l) x mm dn fl s (e ++ [EStart i t]))
  | w_pred_none l x mm dn fl s e : nth_error l i = Some WPred ->
      wstep i (mkst [] l x mm dn fl s e) (mkst [] (set_w i WPred2 l) x mm dn fl s e)
  | w_pred2_exit qq l x mm dn fl s e : nth_error l i = Some WPred2 -> dn || nth i fl false = true ->
      wstep i (mkst qq l x mm dn fl s e) (mkst qq (set_w i WUnlockExit l) x mm dn fl s e)
  | w_pred2_sleep qq l x mm dn fl s e : nth_error l i = Some WPred2 -> dn || nth i fl false = false ->
      wstep i (mkst qq l x mm dn fl s e) (mkst qq (set_w i WSleep l) None mm dn fl s e)
  | w_unlock_run qq l x mm dn fl s e t : nth_error l i = Some (WUnlockRun t) ->
      wstep i (mkst qq l x mm dn fl s e) (mkst qq (set_w i (WRun t 0) l) None mm dn fl s e)
  | w_unlock_exit qq l x mm dn fl s e : nth_error l i = Some WUnlockExit ->
      wstep i (mkst qq l x mm dn fl s e) (mkst qq (set_w i WExit l) None mm dn fl s e).

  (** One step of the main thread. push ctpl_stl.h:181-191, get = std::future::get, stop ctpl_stl.h:135-163 *)
  Inductive mstep : st -> st -> Prop :=
  | m_push qq l x t cs dn fl s e :
      mstep (mkst qq l x (MCmd (Push t :: cs)) dn fl s e) (mkst (qq ++ [t]) l x (MPushLock cs) dn fl s (e ++ [EPush t]))
  | m_push_lock qq l cs dn fl s e :
      mstep (mkst qq l None (MPushLock cs) dn fl s e) (mkst qq l (Some HM) (MPushNotify cs) dn fl s e)
  | m_push_notify_one qq l x cs dn fl s e i : nth_error l i = Some WSleep ->
      mstep (mkst qq l x (MPushNotify cs) dn fl s e) (mkst qq (set_w i WWake l) None (MCmd cs) dn fl s e)
  | m_push_notify_nobody qq l x cs dn fl s e : ~ In WSleep l ->
      mstep (mkst qq l x (MPushNotify cs) dn fl s e) (mkst qq l None (MCmd cs) dn fl s e)
  | m_get qq l x t cs dn fl s e : In (EFinish t) e ->
      mstep (mkst qq l x (MCmd (Get t :: cs)) dn fl s e) (mkst qq l x (MCmd cs) dn fl s (e ++ [EGot t]))
  | m_stop_wait qq l x dn fl s e : w = true ->
      mstep (mkst qq l x (MCmd []) dn fl s e) (mkst qq l x MStopLock true fl s e)
  | m_stop_now qq l x dn fl s e : w = false ->
      mstep (mkst qq l x (MCmd []) dn fl s e) (mkst qq l x (MFlags 0) dn fl s e)
  | m_flags_set qq l x i dn fl s e : i < length l ->
      mstep (mkst qq l x (MFlags i) dn fl s e) (mkst qq l x (MFlags (i + 1)) dn (upd_nth fl i (fun _ => true)) s e)
  | m_flags_end qq l x i dn fl s e : length l <= i ->
      mstep (mkst qq l x (MFlags i) dn fl s e) (mkst qq l x MClear dn fl s e)
  | m_clear_some t q' l x dn fl s e :
      mstep (mkst (t :: q') l x MClear dn fl s e) (mkst q' l x MClear dn fl s (e ++ [EDrop t]))
  | m_clear_none l x dn fl s e :
      mstep (mkst [] l x MClear dn fl s e) (mkst [] l x MStopLock dn fl s e)
  | m_stop_lock qq l dn fl s e :
      mstep (mkst qq l None MStopLock dn fl s e) (mkst qq l (Some HM) MStopNotify dn fl s e)
  | m_stop_notify qq l x dn fl s e :
      mstep (mkst qq l x MStopNotify dn fl s e) (mkst qq (wake_all l) None (MJoin 0) dn fl s e)
  | m_join qq l x i dn fl s e : nth_error l i = Some WExit ->
      mstep (mkst qq l x (MJoin i) dn fl s e) (mkst qq l x (MJoin (i + 1)) dn fl s e)
  | m_join_end qq l x i dn fl s e : length l <= i ->
      mstep (mkst qq l x (MJoin i) dn fl s e) (mkst qq l x MClear2 dn fl s e)
  | m_clear2_some t q' l x dn fl s e :
      mstep (mkst (t :: q') l x MClear2 dn fl s e) (mkst q' l x MClear2 dn fl s (e ++ [EDrop t]))
  | m_clear2_none l x dn fl s e :
      mstep (mkst [] l x MClear2 dn fl s e) (mkst [] l x MEnd dn fl s (e ++ [EStopped])).

  (** A waiting thread may wake up without being notified. *)
  Inductive spurious : st -> st -> Prop :=
  | w_spurious i qq l x mm dn fl s e : nth_error l i = Some WSleep ->
      spurious (mkst qq l x mm dn fl s e) (mkst qq (set_w i WWake l) x mm dn fl s e).

  (** A step of some thread that is not a spurious wake-up. *)
  Definition pstep (a b : st) : Prop := mstep a b \/ exists i, wstep i a b.
  Definition step (a b : st) : Prop := pstep a b \/ spurious a b.

  (** The states of all executions of the pool with main program [prog]. *)
  Inductive reach (prog : list cmd) (s0 : S) : st -> Prop :=
  | reach_init : reach prog s0 (init prog s0)
  | reach_step a b : reach prog s0 a -> step a b -> reach prog s0 b.

  (** ** Reading a trace *)
  Definition pushes (e : list event) : list nat := flat_map (fun x => match x with EPush t => [t] | _ => [] end) e.
  Definition starts (e : list event) : list nat := flat_map (fun x => match x with EStart _ t => [t] | _ => [] end) e.
  Definition finishes (e : list event) : list nat := flat_map (fun x => match x with EFinish t => [t] | _ => [] end) e.
  Definition drops (e : list event) : list nat := flat_map (fun x => match x with EDrop t => [t] | _ => [] end) e.
  (** indices of the operations of task t executed so far, in order *)
  Definition ops (t : nat) (e : list event) : list nat :=
    flat_map (fun x => match x with EOp t' k => if t' =? t then [k] else [] | _ => [] end) e.
  (** all operations executed so far, in order *)
  Definition all_ops (e : list event) : list (nat * nat) :=
    flat_map (fun x => match x with EOp t k => [(t, k)] | _ => [] end) e.
  Definition cmd_pushes (cs : list cmd) : list nat := flat_map (fun c => match c with Push t => [t] | _ => [] end) cs.
  Definition run_op (s : S) (o : nat * nat) : S := nth (snd o) (body (fst o)) (fun s => s) s.
End Pool.
Arguments step {S} body w _ _.
