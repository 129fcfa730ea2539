(** GraphThreads.v, continued: one thread is the sequential code of Graph.v; a warm-up makes the queries of all threads read-only; without it there is a data race. *)
From Verif Require Import Base Num Sparse Graph GraphSpec GraphFacts ThreadPool ThreadPoolFacts Threads ThreadsFacts GraphThreads.
From Coq Require Import ZArith Permutation.
Local Open Scope nat_scope.

Section Top.
  Context {W : Set} `{Num W}.
  Notation graph := (graph W).
  Notation answer := (@answer W).
  Notation gmem := (@gmem W).
  Notation prog := (@prog gloc unit gmem).
  Notation st := (@st gloc unit gmem).
  Notation step := (@step gloc unit gmem udec).
  Notation steps := (@steps gloc unit gmem udec).

  (** The object after the queries, asked one after the other, and the answers. *)
  Definition after (g : graph) (qs : list gquery) : graph := fold_left (fun g q => fst (ask q g)) qs g.
  Fixpoint answers (g : graph) (qs : list gquery) : list answer :=
    match qs with [] => [] | q :: qs => snd (ask q g) :: answers (fst (ask q g)) qs end.

  (** *** One thread *)
  Fixpoint wp (p : prog) (Q : gmem -> Prop) (s : gmem) : Prop :=
    match p with
    | Stop => Q s
    | Op X l w R k => (exists x s', R s x s') /\ forall x s', R s x s' -> wp (k x) Q s'
    | _ => False
    end.
  Lemma wp_base k Q s : wp (k (obj s)) Q s -> wp (base k) Q s.
  Proof. intros A. split; [exists (obj s), s; split; reflexivity|]. intros x s' [-> ->]. exact A. Qed.
  Lemma wp_flag q k Q s : wp (k (c_init (get_cache q (obj s)))) Q s -> wp (flag q k) Q s.
  Proof. intros A. split; [eexists _, s; split; reflexivity|]. intros x s' [-> ->]. exact A. Qed.
  Lemma wp_mat q k Q s : wp (k (c_mat (get_cache q (obj s)))) Q s -> wp (mat q k) Q s.
  Proof. intros A. split; [eexists _, s; split; reflexivity|]. intros x s' [-> ->]. exact A. Qed.
  Lemma wp_store q M k Q s : wp k Q (mkgm (put_mat q M (obj s)) (ans s)) -> wp (store q M k) Q s.
  Proof. intros A. split; [exists tt; eexists; reflexivity|]. intros x s' ->. exact A. Qed.
  Lemma wp_set_flag q k Q s : wp k Q (mkgm (put_flag q (obj s)) (ans s)) -> wp (set_flag q k) Q s.
  Proof. intros A. split; [exists tt; eexists; reflexivity|]. intros x s' ->. exact A. Qed.

  Lemma wp_init_deg k Q s : wp k Q (mkgm (init_deg (obj s)) (ans s)) -> wp (init_deg_p k) Q s.
  Proof.
    intros A. apply wp_flag. unfold init_deg in A. destruct s as [g a]. cbn [obj ans get_cache] in *. destruct (c_init (g_deg g)); [exact A|].
    apply wp_base, wp_store, wp_store, wp_set_flag. exact A.
  Qed.
  Lemma wp_init_inv k Q s : wp k Q (mkgm (init_inv (obj s)) (ans s)) -> wp (init_inv_p k) Q s.
  Proof.
    intros A. apply wp_flag. unfold init_inv in A. destruct s as [g a]. cbn [obj ans get_cache] in *. destruct (c_init (g_inv g)); [exact A|].
    apply wp_init_deg. cbn [obj ans]. set (g1 := init_deg g) in *. apply wp_base, wp_store, wp_mat, wp_store, wp_set_flag. exact A.
  Qed.
  Lemma wp_init_lrw k Q s : wp k Q (mkgm (init_lrw (obj s)) (ans s)) -> wp (init_lrw_p k) Q s.
  Proof.
    intros A. apply wp_flag. unfold init_lrw in A. destruct s as [g a]. cbn [obj ans get_cache] in *. destruct (c_init (g_lrw g)); [exact A|].
    apply wp_init_inv. cbn [obj ans]. set (g1 := init_inv g) in *. apply wp_base, wp_store, wp_mat, wp_store, wp_set_flag. exact A.
  Qed.
  Lemma wp_init q k Q s : wp k Q (mkgm (fst (mat_query q (obj s))) (ans s)) -> wp (init_p q k) Q s.
  Proof.
    intros A. destruct q; cbn [mat_query fst init_p] in *; try (now apply wp_init_deg || now apply wp_init_inv || now apply wp_init_lrw); apply wp_flag;
      destruct s as [g a]; cbn [obj ans get_cache] in *.
    - unfold init_lap in A. destruct (c_init (g_lap g)); [exact A|]. apply wp_init_deg. cbn [obj ans]. set (g1 := init_deg g) in *. apply wp_mat, wp_base, wp_store, wp_set_flag. exact A.
    - unfold init_slap in A. destruct (c_init (g_slap g)); [exact A|]. apply wp_init_deg. cbn [obj ans]. set (g1 := init_deg g) in *. apply wp_mat, wp_base, wp_store, wp_set_flag. exact A.
    - unfold init_nlap in A. destruct (c_init (g_nlap g)); [exact A|]. apply wp_init_deg. cbn [obj ans]. set (g1 := init_deg g) in *. apply wp_mat, wp_base, wp_store, wp_set_flag. exact A.
    - unfold init_nslap in A. destruct (c_init (g_nslap g)); [exact A|]. apply wp_init_deg. cbn [obj ans]. set (g1 := init_deg g) in *. apply wp_mat, wp_base, wp_store, wp_set_flag. exact A.
  Qed.
  Lemma wp_query q k Q s : wp (k (snd (ask q (obj s)))) Q (mkgm (fst (ask q (obj s))) (ans s)) -> wp (query_p q k) Q s.
  Proof.
    intros A. destruct s as [g a]. cbn [obj ans] in *. destruct q; try (apply wp_base; exact A); cbn [query_p].
    - apply wp_init, wp_mat. cbn [obj ans]. destruct q; exact A.
    - apply wp_init_deg, wp_mat. exact A.
    - apply wp_init_deg, wp_mat, wp_base. exact A.
    - apply wp_base. cbn [obj]. cbn [ask] in A. unfold degree in A. destruct (check_vertex g v); [|exact A..]. apply wp_init_deg, wp_mat. exact A.
  Qed.
  Definition add_ans (a : nat -> list answer) (t : nat) (l : list answer) : nat -> list answer := fun u => if u =? t then a u ++ l else a u.
  Lemma wp_client t qs : forall (Q : gmem -> Prop) s, (forall a, (forall u, a u = add_ans (ans s) t (answers (obj s) qs) u) -> Q (mkgm (after (obj s) qs) a)) -> wp (client t qs) Q s.
  Proof.
    induction qs as [|q qs IH]; intros Q [g a] A.
    - cbn [client wp]. apply A. intros u. unfold add_ans. cbn [answers ans]. destruct (u =? t); auto. now rewrite app_nil_r.
    - cbn [client]. apply wp_query. cbn [obj ans]. split; [exists tt; eexists; reflexivity|]. intros x s' ->. apply IH. cbn [obj ans]. intros b E. apply A. intros u. rewrite E. unfold add_ans. cbn [obj ans answers].
      destruct (u =? t); auto. now rewrite <- app_assoc.
  Qed.

  (** All tasks of a queue, one after the other. *)
  Fixpoint wpq (ps : list (nat * prog)) (Q : gmem -> Prop) (s : gmem) : Prop := match ps with [] => Q s | tp :: ps => wp (snd tp) (wpq ps Q) s end.
  Definition one_worker (Q : gmem -> Prop) (s : st) : Prop :=
    match ws s with
    | [None] => wpq (queue s) Q (shared s)
    | [Some (t, p)] => wp p (wpq (queue s) Q) (shared s)
    | _ => False
    end.
  Lemma one_worker_step Q s s' : one_worker Q s -> step s s' -> one_worker Q s'.
  Proof.
    intros I St. unfold one_worker in *.
    destruct St as [i t p q l d f s E|i t q l d f s E|i t m k q l d f s E F|i t m k q l d f s E F|i t X lc w R k x q l d f s s' E HR]; cbn [ws queue shared] in *;
      (destruct l as [|[[u pu]|] [|o l]]; try contradiction; destruct i as [|[|i]]; try discriminate E; cbn in E; try discriminate E; cbn [set upd_nth]).
    - exact I.
    - injection E as -> ->. exact I.
    - injection E as -> ->. destruct I.
    - injection E as -> ->. destruct I.
    - injection E as -> ->. destruct I as [_ I]. now apply I.
  Qed.
  Lemma one_worker_steps Q s s' : steps s s' -> one_worker Q s -> one_worker Q s'.
  Proof. intros A. induction A as [|s s' s'' _ IH St]; auto. intros I. eapply one_worker_step; [apply IH; exact I|exact St]. Qed.
  Lemma one_worker_progress Q s : one_worker Q s -> finished s \/ exists s', step s s'.
  Proof.
    intros I. destruct s as [q l d f sh]. unfold one_worker in I. cbn [ws queue shared] in I. destruct l as [|[[u p]|] [|o l]]; try contradiction.
    - right. destruct p as [| |m k|m k|X lc w R k]; try destruct I.
      + eexists. eapply (s_finish _ 0). reflexivity.
      + destruct H0 as (x & s' & HR). eexists. eapply (s_op _ 0); [reflexivity|exact HR].
    - destruct q as [|[t p] q]; [|right; eexists; eapply (s_take _ 0); reflexivity]. left. split; auto. cbn [ws]. intros o [<-|[]]. reflexivity.
  Qed.

  Fixpoint serial (t : nat) (g : graph) (qss : list (list gquery)) (u : nat) : list answer :=
    match qss with
    | [] => []
    | qs :: qss => (if u =? t then answers g qs else []) ++ serial (S t) (after g qs) qss u
    end.
  Lemma wpq_clients qss : forall t0 (Q : gmem -> Prop) s,
    (forall a, (forall u, a u = ans s u ++ serial t0 (obj s) qss u) -> Q (mkgm (after (obj s) (concat qss)) a)) ->
    wpq (combine (seq t0 (length qss)) (map (fun tq => client (fst tq) (snd tq)) (combine (seq t0 (length qss)) qss))) Q s.
  Proof.
    induction qss as [|qs qss IH]; intros t0 Q s A.
    - cbn. destruct s as [g a]. apply (A a). intros u. now rewrite app_nil_r.
    - cbn [length seq combine map fst snd wpq]. apply wp_client. intros a E. apply IH. cbn [obj ans]. intros b Eb.
      assert (after (after (obj s) qs) (concat qss) = after (obj s) (concat (qs :: qss))) as -> by (unfold after; cbn [concat]; now rewrite fold_left_app).
      apply A. intros u. rewrite Eb, E. unfold add_ans. cbn [serial]. destruct (u =? t0); cbn [Datatypes.app]; [now rewrite <- app_assoc|reflexivity].
  Qed.
  (** One thread: the clients are served one after the other, with the answers and the effects of the sequential code. *)
  Theorem one_thread g qss a0 s : steps (start 1 (clients qss) (mkgm g a0)) s ->
    (finished s \/ exists s', step s s') /\
    (finished s -> obj (shared s) = after g (concat qss) /\ forall u, ans (shared s) u = a0 u ++ serial 0 g qss u).
  Proof.
    intros St. set (Q := fun m : gmem => obj m = after g (concat qss) /\ forall u, ans m u = a0 u ++ serial 0 g qss u).
    assert (one_worker Q (start 1 (clients qss) (mkgm g a0))) as I0.
    { unfold one_worker, start. cbn [ws repeat queue shared]. rewrite clients_length. apply wpq_clients. intros a E. split; [reflexivity|exact E]. }
    pose proof (one_worker_steps Q _ _ St I0) as I. split; [eapply one_worker_progress; exact I|]. intros [Fq Fw]. unfold one_worker in I.
    destruct (ws s) as [|[[t p]|] [|o l]] eqn:Ew; try contradiction.
    - exfalso. specialize (Fw (Some (t, p)) (or_introl eq_refl)). discriminate.
    - rewrite Fq in I. exact I.
  Qed.

  (** *** A warm-up *)
  Lemma init_mono q (g : graph) m : c_init (get_cache m g) = true -> c_init (get_cache m (fst (mat_query q g))) = true.
  Proof.
    assert (forall g : graph, c_init (get_cache m g) = true -> c_init (get_cache m (init_deg g)) = true) as Md.
    { intros h A. unfold init_deg. destruct (c_init (g_deg h)); auto. destruct m; cbn [get_cache c_init] in *; auto. }
    assert (forall g : graph, c_init (get_cache m g) = true -> c_init (get_cache m (init_inv g)) = true) as Mi.
    { intros h A. unfold init_inv. destruct (c_init (g_inv h)); auto. apply Md in A. set (h1 := init_deg h) in *. destruct m; cbn [get_cache c_init] in *; auto. }
    intros A. destruct q; cbn [mat_query fst]; auto.
    - unfold init_lap. destruct (c_init (g_lap g)); auto. apply Md in A. set (h1 := init_deg g) in *. destruct m; cbn [get_cache c_init] in *; auto.
    - unfold init_slap. destruct (c_init (g_slap g)); auto. apply Md in A. set (h1 := init_deg g) in *. destruct m; cbn [get_cache c_init] in *; auto.
    - unfold init_nlap. destruct (c_init (g_nlap g)); auto. apply Md in A. set (h1 := init_deg g) in *. destruct m; cbn [get_cache c_init] in *; auto.
    - unfold init_nslap. destruct (c_init (g_nslap g)); auto. apply Md in A. set (h1 := init_deg g) in *. destruct m; cbn [get_cache c_init] in *; auto.
    - unfold init_lrw. destruct (c_init (g_lrw g)); auto. apply Mi in A. set (h1 := init_inv g) in *. destruct m; cbn [get_cache c_init] in *; auto.
  Qed.
  Lemma init_done q (g : graph) : c_init (get_cache q (fst (mat_query q g))) = true.
  Proof.
    destruct q; cbn [mat_query fst get_cache]; unfold init_lap, init_slap, init_nlap, init_nslap, init_deg, init_inv, init_lrw;
      repeat match goal with |- context [if ?b then _ else _] => destruct b eqn:? end; auto.
  Qed.
  Lemma init_n q (g : graph) : g_n (fst (mat_query q g)) = g_n g.
  Proof.
    destruct q; cbn [mat_query fst]; unfold init_lap, init_slap, init_nlap, init_nslap, init_lrw, init_inv, init_deg;
      repeat match goal with |- context [if ?b then _ else _] => destruct b eqn:? end; auto.
  Qed.
  (** The effect of a query on the object is that of at most one matrix query. *)
  Lemma ask_effect q (g : graph) : (fst (ask q g) = g /\ needs g q = []) \/ exists m, fst (ask q g) = fst (mat_query m g) /\ needs g q = [m].
  Proof.
    destruct q; try (left; split; reflexivity).
    - right. exists q. split; [|reflexivity]. cbn [ask]. now destruct (mat_query q g).
    - right. exists QDeg. split; reflexivity.
    - right. exists QDeg. split; reflexivity.
    - cbn [ask needs]. unfold degree. destruct (check_vertex g v); [right; exists QDeg; split; reflexivity|left; split; reflexivity..].
  Qed.
  Lemma ask_n q (g : graph) : g_n (fst (ask q g)) = g_n g.
  Proof. destruct (ask_effect q g) as [[-> _]|(m & -> & _)]; auto. apply init_n. Qed.
  Lemma needs_n (g h : graph) q : g_n g = g_n h -> needs g q = needs h q.
  Proof. intros E. destruct q; auto. cbn [needs]. unfold check_vertex. now rewrite E. Qed.
  Lemma ask_ready q (g : graph) : ready (fst (ask q g)) q.
  Proof.
    intros m I. rewrite (needs_n _ g) in I by apply ask_n. destruct (ask_effect q g) as [[_ E]|(m' & E & N)].
    - rewrite E in I. destruct I.
    - rewrite N in I. destruct I as [->|[]]. rewrite E. apply init_done.
  Qed.
  Lemma ask_keeps q q' (g : graph) : ready g q -> ready (fst (ask q' g)) q.
  Proof.
    intros R m I. rewrite (needs_n _ g) in I by apply ask_n. apply R in I. destruct (ask_effect q' g) as [[-> _]|(m' & -> & _)]; auto. now apply init_mono.
  Qed.
  Lemma after_keeps qs q : forall g : graph, ready g q -> ready (after g qs) q.
  Proof. induction qs as [|q' qs IH]; intros g R; auto. apply IH. now apply ask_keeps. Qed.
  Lemma after_ready qs q : forall g : graph, In q qs -> ready (after g qs) q.
  Proof. induction qs as [|q' qs IH]; intros g I; [destruct I|]. change (ready (after (fst (ask q' g)) qs) q). destruct I as [->|I]; [apply after_keeps; exact (ask_ready q g)|now apply IH]. Qed.
  Lemma ask_ok q (g : graph) : caches_ok g -> caches_ok (fst (ask q g)) /\ same_base g (fst (ask q g)).
  Proof. intros C. destruct (ask_effect q g) as [[-> _]|(m & -> & _)]; [split; [exact C|apply same_base_refl]|]. destruct (mat_query_spec m g C) as (A & B & _). auto. Qed.
  Lemma after_ok qs : forall g : graph, caches_ok g -> caches_ok (after g qs) /\ same_base g (after g qs).
  Proof.
    induction qs as [|q qs IH]; intros g C; [split; [exact C|apply same_base_refl]|]. destruct (ask_ok q g C) as [A B]. destruct (IH _ A) as [A' B']. split; auto. eapply same_base_trans; eauto.
  Qed.
  Lemma total_volume_val (g : graph) : caches_ok g -> snd (total_volume g) = wsum (sp_values (deg_mat (g_adj g))).
  Proof. intros C. destruct (init_deg_spec g C) as (_ & _ & E). unfold total_volume. cbn [snd]. now rewrite E. Qed.
  (** The answer does not depend on which matrices are in the object already. *)
  Lemma ask_same q (g h : graph) : caches_ok g -> caches_ok h -> same_base g h -> snd (ask q g) = snd (ask q h).
  Proof.
    intros Cg Ch (E1 & E2 & E3). destruct q; cbn [ask snd].
    - now rewrite E2.
    - unfold number_of_vertices. now rewrite E1.
    - unfold number_of_edges. now rewrite E1, E2, E3.
    - unfold has_self_loops. now rewrite E3.
    - unfold vertex_exists. now rewrite E1.
    - unfold degree_unweighted, check_vertex. now rewrite E1, E2.
    - unfold neighbors, check_vertex. now rewrite E1, E2.
    - unfold neighbors_unweighted, check_vertex. now rewrite E1, E2.
    - destruct (mat_query_spec q g Cg) as (_ & _ & A). destruct (mat_query_spec q h Ch) as (_ & _ & B). destruct (mat_query q g), (mat_query q h). cbn [snd] in *. congruence.
    - pose proof (total_volume_val g Cg) as A. pose proof (total_volume_val h Ch) as B. destruct (total_volume g), (total_volume h). cbn [snd] in *. congruence.
    - pose proof (total_volume_val g Cg) as A. pose proof (total_volume_val h Ch) as B.
      destruct (init_deg_spec g Cg) as (_ & (G1 & _) & _). destruct (init_deg_spec h Ch) as (_ & (H1 & _) & _).
      unfold average_degree. assert (fst (total_volume g) = init_deg g) as Fg by reflexivity. assert (fst (total_volume h) = init_deg h) as Fh by reflexivity.
      destruct (total_volume g), (total_volume h). cbn [snd fst] in *. do 2 f_equal; congruence.
    - unfold degree, check_vertex. rewrite E1. destruct (_ <=? v)%Z; [reflexivity|]. destruct (v <? 0)%Z; [reflexivity|]. cbn [snd].
      destruct (init_deg_spec g Cg) as (_ & _ & A). destruct (init_deg_spec h Ch) as (_ & _ & B). now rewrite A, B, E2.
  Qed.
  (** After each kind of query has been made once by one thread, all threads can make them at the same time. *)
  Theorem warm_run g warm qss a0 P s : caches_ok g -> (forall qs q, In qs qss -> In q qs -> In q warm) ->
    steps (start P (clients qss) (mkgm (after g warm) a0)) s ->
    (forall l, ~ race s l) /\ obj (shared s) = after g warm /\ (0 < P -> finished s \/ exists s', step s s') /\
    (finished s -> forall t, t < length qss -> ans (shared s) t = a0 t ++ map (fun q => snd (ask q g)) (nth t qss [])).
  Proof.
    intros C Wm St. destruct (after_ok warm g C) as [Ca Ba]. destruct (ready_run (after g warm) qss) with (a0 := a0) (P := P) (s := s) as (A & B & D & E); auto.
    - intros qs q I J. apply after_ready. eauto.
    - split; auto. split; auto. split; auto. intros F t Ht. rewrite (E F t Ht). f_equal. apply map_ext. intros q. symmetry. now apply ask_same.
  Qed.

  (** *** Without it: a data race *)
  Inductive solo : prog -> gmem -> prog -> gmem -> Prop :=
  | solo_refl p s : solo p s p s
  | solo_op (X : Type) l w (R : gmem -> X -> gmem -> Prop) k s x s1 p' s' : R s x s1 -> solo (k x) s1 p' s' -> solo (Op X l w R k) s p' s'.
  Lemma solo_trans p s p1 s1 p2 s2 : solo p s p1 s1 -> solo p1 s1 p2 s2 -> solo p s p2 s2.
  Proof. induction 1; auto. intros. econstructor; eauto. Qed.
  Lemma set_same (l : list (option (nat * prog))) i y : nth_error l i = Some y -> set l i y = l.
  Proof. revert i. unfold set. induction l as [|z l IH]; intros [|i] E; simpl in *; try discriminate; [now injection E as ->|]. now rewrite IH. Qed.
  Lemma solo_steps p s p' s' : solo p s p' s' -> forall q l d f i t, nth_error l i = Some (Some (t, p)) -> steps (mkst q l d f s) (mkst q (set l i (Some (t, p'))) d f s').
  Proof.
    induction 1 as [p s|X lc w R k s x s1 p' s' HR _ IH]; intros q l d f i t E.
    - rewrite set_same by exact E. apply steps_refl.
    - eapply steps_trans; [apply steps_one; eapply s_op; [exact E|exact HR]|]. rewrite <- (set_set l i (Some (t, k x)) (Some (t, p'))). apply IH. eapply nth_set_same; eauto.
  Qed.
  Lemma solo_base k s p' s' : solo (k (obj s)) s p' s' -> solo (base k) s p' s'.
  Proof. intros A. econstructor; [split; reflexivity|exact A]. Qed.
  Lemma solo_flag q k s p' s' : solo (k (c_init (get_cache q (obj s)))) s p' s' -> solo (flag q k) s p' s'.
  Proof. intros A. econstructor; [split; reflexivity|exact A]. Qed.
  Lemma solo_mat q k s p' s' : solo (k (c_mat (get_cache q (obj s)))) s p' s' -> solo (mat q k) s p' s'.
  Proof. intros A. econstructor; [split; reflexivity|exact A]. Qed.
  Lemma solo_store q M k s p' s' : solo k (mkgm (put_mat q M (obj s)) (ans s)) p' s' -> solo (store q M k) s p' s'.
  Proof. intros A. eapply (solo_op _ _ _ _ _ _ tt); [reflexivity|exact A]. Qed.
  Lemma solo_set_flag q k s p' s' : solo k (mkgm (put_flag q (obj s)) (ans s)) p' s' -> solo (set_flag q k) s p' s'.
  Proof. intros A. eapply (solo_op _ _ _ _ _ _ tt); [reflexivity|exact A]. Qed.
  Lemma solo_init_deg k s : exists s', solo (init_deg_p k) s k s'.
  Proof.
    destruct (c_init (get_cache QDeg (obj s))) eqn:E.
    - eexists. apply solo_flag. rewrite E. apply solo_refl.
    - eexists. apply solo_flag. rewrite E. apply solo_base, solo_store, solo_store, solo_set_flag, solo_refl.
  Qed.
  Lemma solo_init_inv k s : exists s', solo (init_inv_p k) s k s'.
  Proof.
    destruct (c_init (get_cache QInv (obj s))) eqn:E.
    - eexists. apply solo_flag. rewrite E. apply solo_refl.
    - destruct (solo_init_deg (base (fun g => store QInv (sp_empty (sp_ncols (g_adj g)) (sp_ncols (g_adj g))) (
        mat QDeg (fun D => store QInv (sp_diag (sp_ncols (g_adj g)) (fun i => wdiv w1 (coeff D i i))) (set_flag QInv k))))) s) as [s1 A].
      eexists. apply solo_flag. rewrite E. eapply solo_trans; [exact A|]. apply solo_base, solo_store, solo_mat, solo_store, solo_set_flag, solo_refl.
  Qed.
  (** A thread that finds a matrix missing comes to the write of its flag. *)
  Lemma solo_init q k s : c_init (get_cache q (obj s)) = false -> exists s' k', solo (init_p q k) s (set_flag q k') s'.
  Proof.
    intros E. assert (forall f, exists s' k', solo (init_from_deg q f k) s (set_flag q k') s') as G.
    { intros f. destruct (solo_init_deg (mat QDeg (fun D => base (fun g => store q (f g D) (set_flag q k)))) s) as [s1 A]. eexists _, _.
      apply solo_flag. rewrite E. eapply solo_trans; [exact A|]. apply solo_mat, solo_base, solo_store, solo_refl. }
    destruct q; try apply G.
    - eexists _, _. apply solo_flag. rewrite E. apply solo_base, solo_store, solo_store, solo_refl.
    - destruct (solo_init_deg (base (fun g => store QInv (sp_empty (sp_ncols (g_adj g)) (sp_ncols (g_adj g))) (
        mat QDeg (fun D => store QInv (sp_diag (sp_ncols (g_adj g)) (fun i => wdiv w1 (coeff D i i))) (set_flag QInv k))))) s) as [s1 A].
      eexists _, _. apply solo_flag. rewrite E. eapply solo_trans; [exact A|]. apply solo_base, solo_store, solo_mat, solo_store, solo_refl.
    - destruct (solo_init_inv (base (fun g => store QLrw (sp_empty (g_n g) (g_n g)) (
        mat QInv (fun I => store QLrw (sp_add (sp_map (wmul whalf) (identity_mat (g_n g))) (sp_mul (sp_map (wmul whalf) (g_adj g)) I)) (set_flag QLrw k))))) s) as [s1 A].
      eexists _, _. apply solo_flag. rewrite E. eapply solo_trans; [exact A|]. apply solo_base, solo_store, solo_mat, solo_store, solo_refl.
  Qed.
  (** Every query that needs a matrix first reads its flag, without having changed anything. *)
  Lemma solo_query q m k s : In m (needs (obj s) q) -> exists k', solo (query_p q k) s (init_p m k') s.
  Proof.
    destruct q; cbn [needs query_p]; try (intros []; fail).
    - intros [<-|[]]. eexists. apply solo_refl.
    - intros [<-|[]]. eexists. apply solo_refl.
    - intros [<-|[]]. eexists. apply solo_refl.
    - destruct (check_vertex (obj s) v) eqn:C; try (intros []; fail). intros [<-|[]]. eexists. apply solo_base. rewrite C. apply solo_refl.
  Qed.
  Lemma init_flag m (k : prog) : exists k', init_p m k = flag m k'.
  Proof. destruct m; eexists; reflexivity. Qed.
  Theorem cold_race g m q1 qs1 q2 qs2 qss a0 P : 2 <= P -> c_init (get_cache m g) = false -> In m (needs g q1) -> In m (needs g q2) ->
    exists s, steps (start P (clients ((q1 :: qs1) :: (q2 :: qs2) :: qss)) (mkgm g a0)) s /\ race s (LFlag m).
  Proof.
    intros HP Ei N1 N2. destruct P as [|[|P]]; [lia..|]. unfold start. rewrite clients_length. unfold clients. cbn [length seq combine map fst snd client repeat].
    set (rest := combine (seq 2 (length qss)) _).
    set (k1 := fun a => Op unit (LAns 0) true (w_ans 0 a) (fun _ => client 0 qs1)). set (k2 := fun a => Op unit (LAns 1) true (w_ans 1 a) (fun _ => client 1 qs2)).
    set (s0 := mkgm g a0). destruct (solo_query q1 m k1 s0 N1) as [k1' S1]. destruct (solo_query q2 m k2 s0 N2) as [k2' S2].
    destruct (solo_init m k1' s0 Ei) as (s1 & k1'' & S1'). destruct (init_flag m k2') as [k2'' E2]. rewrite E2 in S2.
    exists (mkst rest (Some (0, set_flag m k1'') :: Some (1, flag m k2'') :: repeat None P) [] (fun _ => None) s1). split.
    - eapply steps_trans; [apply steps_one; eapply (s_take _ 0); reflexivity|]. cbn [set upd_nth].
      eapply steps_trans; [apply steps_one; eapply (s_take _ 1); reflexivity|]. cbn [set upd_nth].
      eapply steps_trans; [eapply (solo_steps _ _ _ _ S2 _ _ _ _ 1); reflexivity|]. cbn [set upd_nth].
      eapply steps_trans; [eapply (solo_steps _ _ _ _ S1 _ _ _ _ 0); reflexivity|]. cbn [set upd_nth].
      apply (solo_steps _ _ _ _ S1' rest (Some (0, init_p m k1') :: Some (1, flag m k2'') :: repeat None P) [] (fun _ => None) 0 0). reflexivity.
    - unfold race. cbn [ws]. exists 0, 1. do 10 eexists. split; [discriminate|]. split; [reflexivity|]. split; [reflexivity|]. reflexivity.
  Qed.
End Top.
