(** C90: several threads query one Graph object. *)
From Verif Require Import Base Num Sparse Graph GraphSpec GraphFacts GraphProps1 GraphExamples ThreadPool ThreadPoolFacts Threads ThreadsFacts GraphThreads GraphThreadsTop.
From Coq Require Import ZArith QArith Qcanon.
Local Open Scope nat_scope.

(** Every Graph object a client can make, any queries [warm] made by one thread first, and then any number of threads that make queries of those kinds at the same time, in any interleaving:
    no data race, the object does not change, no deadlock, and every thread gets the answers that a single thread gets from the original object.
    Missing: queries that have not been made before (refuted below). *)
Theorem C90_warmed_up_partial {W : Set} `{Num W} (g : graph W) (warm : list gquery) (qss : list (list gquery)) (P : nat) s :
  reachable g -> (forall qs q, In qs qss -> In q qs -> In q warm) ->
  steps udec (start P (clients qss) (mkgm (after g warm) (fun _ => []))) s ->
  (forall l, ~ race s l) /\ obj (shared s) = after g warm /\ (0 < P -> finished s \/ exists s', step udec s s') /\
  (finished s -> forall t, t < length qss -> ans (shared s) t = map (fun q => snd (ask q g)) (nth t qss [])).
Proof. intros R Wm St. apply (warm_run g warm qss (fun _ => []) P s); auto. now apply reachable_ok. Qed.
Print Assumptions C90_warmed_up_partial.

(** Queries that compute no matrix are never a problem: adjacency, sizes, neighbours and unweighted degrees, of any graph. *)
Definition plain (q : @gquery) : Prop := match q with GAdj | GVertices | GEdges | GLoops | GExists _ | GDegU _ | GNeigh _ | GNeighU _ => True | _ => False end.
Theorem C90_plain_queries {W : Set} `{Num W} (g : graph W) (qss : list (list gquery)) (P : nat) s :
  (forall qs q, In qs qss -> In q qs -> plain q) ->
  steps udec (start P (clients qss) (mkgm g (fun _ => []))) s ->
  (forall l, ~ race s l) /\ obj (shared s) = g /\ (0 < P -> finished s \/ exists s', step udec s s') /\
  (finished s -> forall t, t < length qss -> ans (shared s) t = map (fun q => snd (ask q g)) (nth t qss [])).
Proof. intros Pl St. apply (ready_run g qss) with (a0 := fun _ => []) (P := P) (s := s); auto. intros qs q I J m. specialize (Pl qs q I J). destruct q; destruct Pl; intros []. Qed.
Print Assumptions C90_plain_queries.

(** With one thread the access-level programs are the sequential code: clients served one after the other, each with the answers and the effects of Graph.v. *)
Theorem C90_one_thread {W : Set} `{Num W} (g : graph W) (qss : list (list gquery)) s :
  steps udec (start 1 (clients qss) (mkgm g (fun _ => []))) s ->
  (finished s \/ exists s', step udec s s') /\
  (finished s -> obj (shared s) = after g (concat qss) /\ forall u, ans (shared s) u = serial 0 g qss u).
Proof. exact (one_thread g qss (fun _ => []) s). Qed.
Print Assumptions C90_one_thread.
(** Every run ends. *)
Theorem C90_terminates {W : Set} `{Num W} (s : @st gloc unit (@gmem W)) : Acc (fun s' s => step udec s s') s.
Proof. apply no_infinite_run. Qed.

(** Without the warm-up: whatever the graph, if a matrix has not been computed yet and two threads both begin with a query that needs it, there is a run with a data race. *)
Theorem C90_cold_refuted {W : Set} `{Num W} (g : graph W) m q1 qs1 q2 qs2 qss P :
  2 <= P -> c_init (get_cache m g) = false -> In m (needs g q1) -> In m (needs g q2) ->
  exists s, steps udec (start P (clients ((q1 :: qs1) :: (q2 :: qs2) :: qss)) (mkgm g (fun _ => []))) s /\ race s (LFlag m).
Proof. apply cold_race. Qed.
Print Assumptions C90_cold_refuted.

(** And a wrong answer even if every access is atomic: one edge of weight 1; the second thread asks for the degree of vertex 0 twice, and is told 1 and then 0. *)
Notation qgmem := (@gmem Qc).
Lemma go (s0 s1 s2 : @st gloc unit qgmem) : step udec s0 s1 -> steps udec s1 s2 -> steps udec s0 s2.
Proof. intros A B. eapply steps_trans; [apply steps_one; exact A|exact B]. Qed.
Theorem C90_wrong_answer_refuted : snd (ask (GDegree 0) exE) = AOReal (Ok (qc 1 1)) /\
  exists s : @st gloc unit qgmem, steps udec (start 2 (clients [[GDegree 0]; [GDegree 0; GDegree 0]]) (mkgm exE (fun _ => []))) s /\ finished s /\
    ans (shared s) 0 = [AOReal (Ok (qc 1 1))] /\ ans (shared s) 1 = [AOReal (Ok (qc 1 1)); AOReal (Ok (qc 0 1))].
Proof.
  split; [vm_compute; repeat f_equal; apply Qc_is_canon; reflexivity|].
  assert (exists d f sh, steps udec (start 2 (clients [[GDegree 0]; [GDegree 0; GDegree 0]]) (mkgm exE (fun _ => []))) (mkst [] [None; None] d f sh) /\
    ans sh 0 = [AOReal (Ok (qc 1 1))] /\ ans sh 1 = [AOReal (Ok (qc 1 1)); AOReal (Ok (qc 0 1))]) as (d & f & sh & St & A & B).
  2:{ eexists. split; [exact St|]. split; [|split; assumption]. split; [reflexivity|]. cbn [ws]. intros o [<-|[<-|[]]]; reflexivity. }
  do 3 eexists. split.
  - eapply go; [eapply (s_take _ 0); reflexivity|]. cbn [set upd_nth].
    eapply go; [eapply (s_take _ 1); reflexivity|]. cbn [set upd_nth].
    (* the first thread reads the flag and the adjacency matrix *)
    do 3 (eapply go; [eapply (s_op _ 0); [reflexivity|split; reflexivity]|]; cbn [set upd_nth]).
    (* the second thread makes its first query *)
    do 3 (eapply go; [eapply (s_op _ 1); [reflexivity|split; reflexivity]|]; cbn [set upd_nth]).
    do 3 (eapply go; [eapply (s_op _ 1) with (x := tt); [reflexivity|reflexivity]|]; cbn [set upd_nth]).
    eapply go; [eapply (s_op _ 1); [reflexivity|split; reflexivity]|]; cbn [set upd_nth].
    eapply go; [eapply (s_op _ 1) with (x := tt); [reflexivity|reflexivity]|]; cbn [set upd_nth].
    (* it begins the second one and finds the flag set *)
    do 2 (eapply go; [eapply (s_op _ 1); [reflexivity|split; reflexivity]|]; cbn [set upd_nth]).
    (* the first thread empties the matrix *)
    eapply go; [eapply (s_op _ 0) with (x := tt); [reflexivity|reflexivity]|]; cbn [set upd_nth].
    (* the second thread reads it *)
    eapply go; [eapply (s_op _ 1); [reflexivity|split; reflexivity]|]; cbn [set upd_nth].
    eapply go; [eapply (s_op _ 1) with (x := tt); [reflexivity|reflexivity]|]; cbn [set upd_nth].
    eapply go; [eapply (s_finish _ 1); reflexivity|]. cbn [set upd_nth].
    (* and the first thread goes on to the end *)
    do 2 (eapply go; [eapply (s_op _ 0) with (x := tt); [reflexivity|reflexivity]|]; cbn [set upd_nth]).
    eapply go; [eapply (s_op _ 0); [reflexivity|split; reflexivity]|]; cbn [set upd_nth].
    eapply go; [eapply (s_op _ 0) with (x := tt); [reflexivity|reflexivity]|]; cbn [set upd_nth].
    eapply go; [eapply (s_finish _ 0); reflexivity|]. cbn [set upd_nth].
    apply steps_refl.
  - split; vm_compute; repeat f_equal; apply Qc_is_canon; reflexivity.
Qed.
Print Assumptions C90_wrong_answer_refuted.

(** The hypotheses: the single edge, warmed up with degree(0), then two threads that ask for degrees and volume; and the cold object. *)
Example C90_hypotheses_met :
  let qss := [[GDegree 0; GVolume]; [GVolume; GNeigh 1; GDegree 0]] in let warm := [GDegree 0; GVolume; GNeigh 1] in
  reachable exE /\ (forall qs q, In qs qss -> In q qs -> In q warm) /\
  steps udec (start 2 (clients qss) (mkgm (after exE warm) (fun _ => []))) (start 2 (clients qss) (mkgm (after exE warm) (fun _ => []))) /\
  c_init (get_cache QDeg exE) = false /\ In QDeg (needs exE (GDegree 0)) /\ In QDeg (needs exE GVolume) /\ plain (GNeigh 1).
Proof.
  cbv zeta. split; [|split; [|split; [apply steps_refl|]]].
  - destruct exE_reachable as (M & g0 & ops & A). exists M, g0, ops. repeat split; try apply A. destruct A as (_ & _ & A & _). clear - A. induction A; constructor; auto.
  - intros qs q [<-|[<-|[]]] I; simpl in I; simpl; intuition.
  - repeat split; left; reflexivity.
Qed.
