(** What the users of the pool get: exactly-once execution, termination, schedule-independence. *)
From Verif Require Import Base ThreadPool ThreadPoolFacts.
From Coq Require Import Permutation.

Section Top.
  Context {S : Type}.
  Variable body : nat -> list (S -> S).
  Variable P : nat.
  Variable w : bool.
  Notation st := (@st S).

  (** An execution of n steps, k of which are spurious wake-ups. *)
  Inductive exec : nat -> nat -> st -> st -> Prop :=
  | exec_nil a : exec 0 0 a a
  | exec_step n k a b c : exec n k a b -> pstep body w b c -> exec (n + 1) k a c
  | exec_spurious n k a b c : exec n k a b -> spurious b c -> exec (n + 1) (k + 1) a c.

  Lemma exec_reach prog s0 n k a b : reach body P w prog s0 a -> exec n k a b -> reach body P w prog s0 b.
  Proof.
    intros R E. induction E as [a|n k a b c E IH St|n k a b c E IH St]; auto.
    - eapply reach_step; [now apply IH|]. now left.
    - eapply reach_step; [now apply IH|]. now right.
  Qed.

  Lemma reach_exec prog s0 b : reach body P w prog s0 b -> exists n k, exec n k (init P prog s0) b.
  Proof.
    induction 1 as [|a b R (n & k & E) [St|St]].
    - exists 0, 0. constructor.
    - exists (n + 1), k. econstructor; eauto.
    - exists (n + 1), (k + 1). econstructor 3; eauto.
  Qed.

  Lemma exec_bound prog s0 n k a b : reach body P w prog s0 a -> exec n k a b -> n + mu body P b <= mu body P a + 5 * k.
  Proof.
    intros R E. induction E as [a|n k a b c E IH St|n k a b c E IH St]; [lia| |].
    - assert (reach body P w prog s0 b) by (eapply exec_reach; eauto). pose proof (mu_decreases body P w prog s0 b c H St). specialize (IH R). lia.
    - pose proof (spurious_mu body P _ _ St). specialize (IH R). lia.
  Qed.

  Lemma exec_app n1 k1 n2 k2 a b c : exec n1 k1 a b -> exec n2 k2 b c -> exec (n1 + n2) (k1 + k2) a c.
  Proof.
    intros E1 E2. induction E2 as [b|n k b c d E IH St|n k b c d E IH St].
    - now rewrite !Nat.add_0_r.
    - rewrite Nat.add_assoc. econstructor; eauto.
    - rewrite !Nat.add_assoc. econstructor 3; eauto.
  Qed.

  (** From every reachable state the main thread can be brought to the end. *)
  Lemma can_finish prog s0 a : NoDup (cmd_pushes prog) -> 1 <= P -> gets_ok prog -> reach body P w prog s0 a ->
    exists n b, exec n 0 a b /\ m b = MEnd.
  Proof.
    intros Nd HP G. remember (mu body P a) as k eqn:Ek. revert a Ek. induction k as [k IH] using lt_wf_ind. intros a Ek R.
    assert (m a = MEnd \/ m a <> MEnd) as [E|N] by (destruct (m a); auto; right; discriminate).
    { exists 0, a. split; [constructor|auto]. }
    destruct (progress body P w prog s0 a R HP G N) as [b St].
    assert (reach body P w prog s0 b) as Rb by (eapply reach_step; eauto; now left).
    pose proof (mu_decreases body P w prog s0 a b R St).
    destruct (IH (mu body P b) ltac:(lia) b eq_refl Rb) as (n & c & E & Ec).
    exists (1 + n), c. split; auto. change 0 with (0 + 0) at 2. eapply exec_app; eauto. change 1 with (0 + 1). econstructor; [constructor|auto].
  Qed.
End Top.

(** ** Interleavings *)
Section Inter.
  Context {S : Type}.
  Variable body : nat -> list (S -> S).

  Definition proj (t : nat) (L : list (nat * nat)) : list nat := flat_map (fun o => if fst o =? t then [snd o] else []) L.

  Lemma ops_proj t e : ops t e = proj t (all_ops e).
  Proof.
    unfold ops, proj, all_ops. induction e as [|x e IH]; auto. simpl. rewrite IH. destruct x; auto.
  Qed.

  (** the operations of the tasks of [ts], task after task *)
  Definition sequential (ts : list nat) : list (nat * nat) := flat_map (fun t => map (pair t) (seq 0 (length (body t)))) ts.

  Lemma proj_filter t L : map (pair t) (proj t L) = filter (fun o => fst o =? t) L.
  Proof.
    induction L as [|[u k] L IH]; auto. simpl. destruct (Nat.eqb_spec u t) as [->|N]; simpl; [now rewrite IH|auto].
  Qed.

  Lemma filter_split {A} (f : A -> bool) l : Permutation l (filter f l ++ filter (fun x => negb (f x)) l).
  Proof.
    induction l as [|x l IH]; simpl; auto. destruct (f x); simpl; [now constructor|]. rewrite <- Permutation_middle. now constructor.
  Qed.

  Lemma proj_filter_other t u L : t <> u -> proj u (filter (fun o => negb (fst o =? t)) L) = proj u L.
  Proof.
    intros N. induction L as [|[v k] L IH]; auto. simpl. destruct (Nat.eqb_spec v t) as [->|Nv]; simpl; rewrite IH; auto.
    apply Nat.eqb_neq in N as ->. reflexivity.
  Qed.

  Lemma proj_filter_same t L : proj t (filter (fun o => negb (fst o =? t)) L) = [].
  Proof.
    induction L as [|[v k] L IH]; auto. simpl. destruct (Nat.eqb_spec v t) as [->|Nv]; simpl; auto. apply Nat.eqb_neq in Nv as ->. auto.
  Qed.

  Lemma proj_nil L : (forall t, proj t L = []) -> L = [].
  Proof. destruct L as [|[t k] L]; auto. intros F. specialize (F t). simpl in F. now rewrite Nat.eqb_refl in F. Qed.

  Lemma inter_perm ts : NoDup ts -> forall L, (forall t, proj t L = if in_dec Nat.eq_dec t ts then seq 0 (length (body t)) else []) ->
    Permutation L (sequential ts).
  Proof.
    induction 1 as [|t ts N Nd IH]; intros L A.
    - rewrite (proj_nil L); auto.
    - simpl. rewrite (filter_split (fun o => fst o =? t)). rewrite <- proj_filter. rewrite A. destruct (in_dec Nat.eq_dec t (t :: ts)) as [_|F]; [|exfalso; apply F; now left].
      apply Permutation_app_head. apply IH. intros u. destruct (Nat.eq_dec t u) as [<-|Nu].
      + rewrite proj_filter_same. now destruct (in_dec Nat.eq_dec t ts).
      + rewrite proj_filter_other by auto. rewrite A. destruct (in_dec Nat.eq_dec u (t :: ts)) as [[?|?]|F], (in_dec Nat.eq_dec u ts) as [?|F2]; try congruence; try tauto.
        exfalso. apply F. now right.
  Qed.

  Hypothesis comm : forall t t' f f' s, t <> t' -> In f (body t) -> In f' (body t') -> f (f' s) = f' (f s).

  Lemma run_op_comm o o' s : fst o <> fst o' -> run_op body (run_op body s o) o' = run_op body (run_op body s o') o.
  Proof.
    intros N. unfold run_op. destruct o as [t k], o' as [t' k']. simpl in *.
    destruct (nth_in_or_default k (body t) (fun s => s)) as [I|E]; [|now rewrite E].
    destruct (nth_in_or_default k' (body t') (fun s => s)) as [I'|E]; [|now rewrite E].
    symmetry. now apply (comm t t').
  Qed.

  Lemma fold_comm o L s : (forall o', In o' L -> fst o' <> fst o) -> fold_left (run_op body) L (run_op body s o) = run_op body (fold_left (run_op body) L s) o.
  Proof.
    revert s. induction L as [|o' L IH]; intros s A; simpl; auto. rewrite run_op_comm by (apply not_eq_sym, A; now left). apply IH. intros x I. apply A. now right.
  Qed.

  Lemma fold_extract t L s : fold_left (run_op body) L s =
    fold_left (run_op body) (filter (fun o => negb (fst o =? t)) L) (fold_left (run_op body) (filter (fun o => fst o =? t) L) s).
  Proof.
    revert s. induction L as [|o L IH]; intros s; auto. cbn [fold_left filter]. rewrite IH. destruct (Nat.eqb_spec (fst o) t) as [E|N]; cbn [negb fold_left]; auto.
    f_equal. apply fold_comm. intros o' I. apply filter_In in I as [_ I]. apply Nat.eqb_eq in I. congruence.
  Qed.

  Lemma inter_fold ts : NoDup ts -> forall L s, (forall t, proj t L = if in_dec Nat.eq_dec t ts then seq 0 (length (body t)) else []) ->
    fold_left (run_op body) L s = fold_left (run_op body) (sequential ts) s.
  Proof.
    induction 1 as [|t ts N Nd IH]; intros L s A.
    - rewrite (proj_nil L); auto.
    - simpl. rewrite fold_left_app. rewrite (fold_extract t). rewrite <- proj_filter. rewrite A. destruct (in_dec Nat.eq_dec t (t :: ts)) as [_|F]; [|exfalso; apply F; now left].
      apply IH. intros u. destruct (Nat.eq_dec t u) as [<-|Nu].
      + rewrite proj_filter_same. now destruct (in_dec Nat.eq_dec t ts).
      + rewrite proj_filter_other by auto. rewrite A. destruct (in_dec Nat.eq_dec u (t :: ts)) as [[?|?]|F], (in_dec Nat.eq_dec u ts) as [?|F2]; try congruence; try tauto.
        exfalso. apply F. now right.
  Qed.
End Inter.

(** A run of one task, start to end. *)
Definition run_task {S} (body : nat -> list (S -> S)) (s : S) (t : nat) : S := fold_left (fun s f => f s) (body t) s.

Lemma fold_task {S} (body : nat -> list (S -> S)) t l : forall k s, (forall j, nth_error (body t) (k + j) = nth_error l j) ->
  fold_left (run_op body) (map (pair t) (seq k (length l))) s = fold_left (fun s f => f s) l s.
Proof.
  induction l as [|f l IH]; intros k s A; auto. simpl. rewrite IH.
  - f_equal. unfold run_op. simpl. specialize (A 0). rewrite Nat.add_0_r in A. now rewrite (nth_error_nth _ _ _ A).
  - intros j. specialize (A (Datatypes.S j)). simpl in A. now rewrite Nat.add_succ_r in A.
Qed.

Lemma fold_sequential {S} (body : nat -> list (S -> S)) ts s :
  fold_left (run_op body) (sequential body ts) s = fold_left (run_task body) ts s.
Proof.
  revert s. induction ts as [|t ts IH]; intros s; auto. simpl. rewrite fold_left_app, IH. f_equal.
  unfold run_task. apply (fold_task body t (body t) 0). reflexivity.
Qed.

(** ** Final states *)
Section Final.
  Context {S : Type}.
  Variable body : nat -> list (S -> S).
  Variable P : nat.
  Variable w : bool.
  Variable prog : list cmd.
  Variable s0 : S.
  Notation reach := (reach body P w prog s0).

  (** Either the pool is stopped with stop(true) and has a worker, or every future is waited for. *)
  Definition waited : Prop := (w = true /\ 1 <= P) \/ (forall t, In t (cmd_pushes prog) -> In (Get t) prog).

  Hypothesis Nd : NoDup (cmd_pushes prog).
  Hypothesis Hw : waited.
  Variable a : @st S.
  Hypothesis R : reach a.
  Hypothesis E : m a = MEnd.

  Lemma final_counts t : cnt t (starts (tr a)) = cnt t (cmd_pushes prog) /\ cnt t (finishes (tr a)) = cnt t (cmd_pushes prog).
  Proof.
    pose proof (end_all body P w prog s0 a R E t) as EA. destruct (flow_inv body P w prog s0 a R) as (I1 & I2 & I3). specialize (I2 t). specialize (I3 t).
    rewrite E in I1. simpl in I1. rewrite app_nil_r in I1. rewrite I1 in I2.
    assert (cnt t (drops (tr a)) = 0).
    { destruct Hw as [[Ew HP]|G]; [rewrite (wait_no_drop body P w prog s0 a R Ew HP); reflexivity|].
      destruct (Nat.eq_dec (cnt t (drops (tr a))) 0) as [|N]; auto. exfalso.
      assert (In t (cmd_pushes prog)) as I by (apply In_cnt; lia).
      pose proof (all_got body P w prog s0 Nd a R E t (G t I)) as F. apply In_cnt in F.
      pose proof (flow_le1 body P w prog s0 Nd a t R). lia. }
    pose proof (join_inv body P w prog s0 a R) as J. unfold joininv in J. rewrite E in J. destruct (lock_inv body P w prog s0 a R) as (L0 & _).
    rewrite (holding_exit P _ L0 J) in I3. change (cnt t []) with 0 in I3. lia.
  Qed.

  Lemma final_ops t : ops t (tr a) = if in_dec Nat.eq_dec t (cmd_pushes prog) then seq 0 (length (body t)) else [].
  Proof.
    destruct (ops_inv body P w prog s0 Nd a R) as (_ & _ & A3 & A4). destruct (final_counts t) as [C1 C2].
    destruct (in_dec Nat.eq_dec t (cmd_pushes prog)) as [I|N].
    - apply A3. apply In_cnt. apply In_cnt in I. lia.
    - apply A4. rewrite In_cnt. rewrite In_cnt in N. lia.
  Qed.

  Lemma final_perm : Permutation (all_ops (tr a)) (sequential body (cmd_pushes prog)).
  Proof. apply inter_perm; auto. intros t. rewrite <- ops_proj. apply final_ops. Qed.

  Lemma final_shared : (forall t t' f f' s, t <> t' -> In f (body t) -> In f' (body t') -> f (f' s) = f' (f s)) ->
    sh a = fold_left (run_task body) (cmd_pushes prog) s0.
  Proof.
    intros C. rewrite (sh_inv body P w prog s0 a R), <- fold_sequential. apply inter_fold; auto. intros t. rewrite <- ops_proj. apply final_ops.
  Qed.

  (** The same when only the tasks of the program commute. *)
  Lemma final_shared_in : (forall t t' f f' s, t <> t' -> In t (cmd_pushes prog) -> In t' (cmd_pushes prog) -> In f (body t) -> In f' (body t') -> f (f' s) = f' (f s)) ->
    sh a = fold_left (run_task body) (cmd_pushes prog) s0.
  Proof.
    intros C. set (body' := fun t => if in_dec Nat.eq_dec t (cmd_pushes prog) then body t else []).
    assert (forall t, In t (cmd_pushes prog) -> body' t = body t) as Eb by (intros t I; unfold body'; now destruct (in_dec Nat.eq_dec t (cmd_pushes prog))).
    rewrite (sh_inv body P w prog s0 a R).
    assert (forall t, proj t (all_ops (tr a)) = if in_dec Nat.eq_dec t (cmd_pushes prog) then seq 0 (length (body' t)) else []) as Pr.
    { intros t. rewrite <- ops_proj, final_ops. unfold body'. now destruct (in_dec Nat.eq_dec t (cmd_pushes prog)). }
    assert (forall L s, (forall o, In o L -> In (fst o) (cmd_pushes prog)) -> fold_left (run_op body) L s = fold_left (run_op body') L s) as Ef.
    { induction L as [|o L IH]; intros s A; simpl; auto. rewrite IH by (intros; apply A; now right). f_equal. unfold run_op. now rewrite (Eb (fst o)) by apply (A o), in_eq. }
    rewrite Ef.
    - rewrite (inter_fold body') with (ts := cmd_pushes prog); auto.
      + rewrite fold_sequential. generalize s0. assert (forall t, In t (cmd_pushes prog) -> In t (cmd_pushes prog)) as A by auto. revert A.
        generalize (cmd_pushes prog) at 1 3 4 as l. induction l as [|t l IH]; intros A s; simpl; auto. rewrite IH by (intros; apply A; now right). f_equal. unfold run_task. now rewrite Eb by apply A, in_eq.
      + intros t t' f f' s N I I'. unfold body' in I, I'. destruct (in_dec Nat.eq_dec t (cmd_pushes prog)); [|destruct I]. destruct (in_dec Nat.eq_dec t' (cmd_pushes prog)); [|destruct I']. now apply (C t t').
    - intros [t k] I. destruct (in_dec Nat.eq_dec t (cmd_pushes prog)) as [|F]; auto. exfalso. specialize (Pr t). destruct (in_dec Nat.eq_dec t (cmd_pushes prog)); [auto|].
      assert (In k (proj t (all_ops (tr a)))) as I2. { unfold proj. apply in_flat_map. exists (t, k). split; auto. simpl. rewrite Nat.eqb_refl. now left. } rewrite Pr in I2. destruct I2.
  Qed.
End Final.

Lemma upd_nth_comm {A} (l : list A) i j f g : i <> j -> upd_nth (upd_nth l j g) i f = upd_nth (upd_nth l i f) j g.
Proof. revert i j. induction l as [|x l IH]; intros [|i] [|j] N; simpl; auto; try congruence. f_equal. apply IH. congruence. Qed.

(** ** The parallel loops of the library: push N tasks, get the N futures in order, stop.
    kde.cpp:466-506, 711-758, cluster.cpp:875-912, 941-998: the value of future t is what task t returns. *)
Section Par.
  Context {V : Type}.

  (** the future of task t receives f t *)
  Definition par_body (f : nat -> V) (t : nat) : list (list (option V) -> list (option V)) := [fun s => upd_nth s t (fun _ => Some (f t))].
  Definition par_prog (N : nat) : list cmd := map Push (seq 0 N) ++ map Get (seq 0 N).

  (** [par_results P w f N r]: some execution of the pool with P workers ends, and the futures hold the values r. *)
  Definition par_results (P : nat) (w : bool) (f : nat -> V) (N : nat) (r : list V) : Prop :=
    exists a, reach (par_body f) P w (par_prog N) (repeat None N) a /\ m a = MEnd /\ sh a = map Some r.

  Lemma cmd_pushes_par N : cmd_pushes (par_prog N) = seq 0 N.
  Proof.
    unfold par_prog, cmd_pushes. rewrite flat_map_app. generalize (seq 0 N) as l. intros l.
    assert (forall l, flat_map (fun c => match c with Push t => [t] | Get _ => [] end) (map Push l) = l) as -> by (intros k; induction k; simpl; congruence).
    assert (forall l, flat_map (fun c => match c with Push t => [t] | Get _ => [] end) (map Get l) = []) as -> by (intros k; induction k; simpl; congruence).
    apply app_nil_r.
  Qed.

  Lemma get_after_pushes l g pre t post : map Push l ++ map Get g = pre ++ Get t :: post -> exists pre', pre = map Push l ++ pre' /\ In t g.
  Proof.
    revert pre. induction l as [|x l IH]; intros pre E; simpl in *.
    - exists pre. split; auto. assert (In (Get t) (map Get g)) as I by (rewrite E; apply in_or_app; right; now left).
      apply in_map_iff in I as (u & Eu & I). now injection Eu as ->.
    - destruct pre as [|c pre]; simpl in E; [discriminate|]. injection E as <- E. destruct (IH pre E) as (pre' & -> & I). exists pre'. auto.
  Qed.

  Lemma gets_ok_par N : gets_ok (par_prog N).
  Proof.
    intros pre t post E. unfold par_prog in E. destruct (get_after_pushes _ _ _ _ _ E) as (pre' & -> & I).
    unfold cmd_pushes. rewrite flat_map_app. apply in_or_app. left. apply in_flat_map. exists (Push t). split; [now apply in_map|now left].
  Qed.

  Lemma waited_par P w N : waited P w (par_prog N).
  Proof. right. intros t I. rewrite cmd_pushes_par in I. unfold par_prog. apply in_or_app. right. now apply in_map. Qed.

  Lemma par_comm (f : nat -> V) t t' g g' s : t <> t' -> In g (par_body f t) -> In g' (par_body f t') -> g (g' s) = g' (g s).
  Proof.
    intros N [<-|[]] [<-|[]]. now apply upd_nth_comm.
  Qed.

  Lemma run_par f N l : length l = N -> fold_left (run_task (par_body f)) (seq 0 N) l = map (fun t => Some (f t)) (seq 0 N).
  Proof.
    intros L. subst N.
    enough (forall l k l0, length l0 = k -> fold_left (run_task (par_body f)) (seq k (length l)) (l0 ++ l) = l0 ++ map (fun t => Some (f t)) (seq k (length l))) as A by (apply (A l 0 []); reflexivity).
    clear. induction l as [|x l IH]; intros k l0 L; simpl; auto.
    assert (run_task (par_body f) (l0 ++ x :: l) k = (l0 ++ [Some (f k)]) ++ l) as ->.
    { unfold run_task, par_body. simpl. rewrite <- app_assoc. simpl. clear IH. revert k L. generalize (f : nat -> V). intros g.
      intros k L. generalize (g k) as v. intros v. revert k L. induction l0 as [|y l0 IH]; intros k <-; simpl; auto. f_equal. now apply IH. }
    rewrite IH by (rewrite app_length; simpl; lia). now rewrite <- app_assoc.
  Qed.

  (** Whatever the schedule, the futures hold the values of the tasks. *)
  Lemma par_results_unique P w f N r : par_results P w f N r -> r = map f (seq 0 N).
  Proof.
    intros (a & R & E & Es). rewrite (final_shared (par_body f) P w (par_prog N) (repeat None N)) in Es; auto.
    - rewrite cmd_pushes_par, run_par in Es by apply repeat_length. rewrite <- (map_map f Some) in Es.
      assert (forall (a b : list V), map Some a = map Some b -> a = b) as inj. { intros u. induction u as [|x u IH]; intros [|y v] F; try discriminate; auto. simpl in F. injection F as -> F. f_equal; auto. }
      symmetry. now apply inj.
    - rewrite cmd_pushes_par. apply seq_NoDup.
    - apply waited_par.
    - intros. eapply par_comm; eauto.
  Qed.

  (** With at least one worker the loop always can and (apart from spurious wake-ups) must come to an end. *)
  Lemma par_results_exist P w f N : 1 <= P -> par_results P w f N (map f (seq 0 N)).
  Proof.
    intros HP. destruct (can_finish (par_body f) P w (par_prog N) (repeat None N) (init P (par_prog N) (repeat None N))) as (n & b & E & Eb); auto.
    - rewrite cmd_pushes_par. apply seq_NoDup.
    - apply gets_ok_par.
    - constructor.
    - exists b. assert (reach (par_body f) P w (par_prog N) (repeat None N) b) as R by (eapply exec_reach; [|eauto]; constructor). split; auto. split; auto.
      rewrite (final_shared (par_body f) P w (par_prog N) (repeat None N)); auto.
      + rewrite cmd_pushes_par, run_par by apply repeat_length. now rewrite map_map.
      + rewrite cmd_pushes_par. apply seq_NoDup.
      + apply waited_par.
      + intros. eapply par_comm; eauto.
  Qed.
End Par.

(** ** A pool without workers (std::thread::hardware_concurrency() may return 0) *)
Section NoWorkers.
  Context {S : Type}.
  Variable body : nat -> list (S -> S).
  Variable w : bool.

  Lemma no_worker_nothing prog s0 a : reach body 0 w prog s0 a -> finishes (tr a) = [] /\ all_ops (tr a) = [] /\ sh a = s0.
  Proof.
    induction 1 as [|a b R (A & B & C) St]; [now repeat split|].
    assert (forall i, nth_error (ws a) i = None) as W by (intros i; destruct (lock_inv body 0 w prog s0 a R) as (L0 & _); apply nth_error_None; lia).
    destruct St as [[St|[i St]]|St].
    - destruct St; cbn [tr ws sh] in *; unfold finishes, all_ops in *; rewrite ?flat_map_app; cbn [flat_map]; rewrite ?app_nil_r; auto; rewrite W in *; discriminate.
    - specialize (W i). destruct St; cbn [ws] in *; congruence.
    - destruct St. cbn [ws] in *. rewrite W in *. discriminate.
  Qed.

  Lemma no_worker_get_hangs prog s0 a t : In (Get t) prog -> reach body 0 w prog s0 a -> m a <> MEnd.
  Proof.
    intros I R E. destruct (no_worker_nothing prog s0 a R) as [F _].
    destruct (got_inv body 0 w prog s0 a R) as (pre & Ep & _ & G). rewrite E in Ep. simpl in Ep. rewrite app_nil_r in Ep. subst pre.
    specialize (G t I). rewrite F in G. destruct G.
  Qed.
End NoWorkers.

(** ** Order of events around the return of stop *)
Section Order.
  Context {S : Type}.
  Variable body : nat -> list (S -> S).
  Variable P : nat.
  Variable w : bool.
  Variable prog : list cmd.
  Variable s0 : S.
  Notation reach := (reach body P w prog s0).

  Lemma stopped_last a : reach a -> if match m a with MEnd => true | _ => false end then exists e, tr a = e ++ [EStopped] /\ ~ In EStopped e else ~ In EStopped (tr a).
  Proof.
    induction 1 as [|a b R IH St]; [simpl; tauto|].
    destruct (lock_inv body P w prog s0 a R) as (L0 & _). pose proof (join_inv body P w prog s0 a R) as J. unfold joininv in J.
    assert (m a = MEnd -> forall i x, nth_error (ws a) i = Some x -> x = WExit) as X.
    { intros E i x F. rewrite E in J. rewrite J in F; [congruence|]. rewrite <- L0. apply nth_error_Some. congruence. }
    clear J.
    destruct St as [[St|[i St]]|St]; destruct St; cbn [m tr ws] in *; try (rewrite in_app_iff; intros [F|[F|[]]]; [auto|discriminate]); auto;
      try (destruct mm; auto; try (rewrite in_app_iff; intros [F|[F|[]]]; [auto|discriminate]); fail);
      try (destruct mm; try (specialize (X eq_refl _ _ H); discriminate); try (rewrite in_app_iff; intros [F|[F|[]]]; [auto|discriminate]); auto; fail).
    exists e. auto.
  Qed.

  Lemma stopped_end a e1 e2 : reach a -> tr a = e1 ++ EStopped :: e2 -> m a = MEnd /\ e2 = [].
  Proof.
    intros R E. pose proof (stopped_last a R) as L. destruct (m a); try (exfalso; apply L; rewrite E; apply in_or_app; right; now left).
    split; auto. destruct L as (e & L & N). rewrite E in L. destruct e2 as [|x e2]; auto. exfalso. apply N.
    destruct (@exists_last _ (x :: e2) ltac:(discriminate)) as (e3 & y & E3). rewrite E3 in L. 
    change (e1 ++ EStopped :: e3 ++ [y]) with (e1 ++ (EStopped :: e3) ++ [y]) in L. rewrite app_assoc in L. apply app_inj_tail in L as [L _]. rewrite <- L. apply in_or_app. right. now left.
  Qed.
End Order.
