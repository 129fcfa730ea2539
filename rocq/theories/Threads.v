(** Interleaving semantics of tasks on a thread pool, with mutexes and data races.

    A task is a program: a tree of accesses to shared locations, mutex operations and, at the leaves, the end of the task or undefined behaviour.
    [P] workers take the tasks from the queue in order and run them interleaved arbitrarily, one access at a time. This is the pool of
    multithreading/ctpl_stl.h (ThreadPool.v, where each task is shown to be run exactly once) without the pool's own synchronisation. *)
From Verif Require Import Base ThreadPoolFacts.

Section Threads.
  (** Shared locations, mutexes, contents of the memory. *)
  Context {loc mtx mem : Type}.
  Variable mtx_dec : forall a b : mtx, {a = b} + {a <> b}.

  Inductive prog : Type :=
  | Stop                                             (* the task ends *)
  | Undef                                            (* undefined behaviour *)
  | Lock (m : mtx) (k : prog)                        (* std::mutex::lock *)
  | Unlock (m : mtx) (k : prog)                      (* std::mutex::unlock *)
  | Op (X : Type) (l : loc) (w : bool) (R : mem -> X -> mem -> Prop) (k : X -> prog).
                                                     (* access to location l, which modifies it if w: any x and mem' with R mem x mem' *)

  Record st : Type := mkst {
    queue : list (nat * prog);                       (* tasks not yet started, with their numbers *)
    ws : list (option (nat * prog));                 (* the workers: idle, or number and rest of the task *)
    done : list nat;                                 (* the finished tasks *)
    locks : mtx -> option nat;                       (* the worker that owns a mutex *)
    shared : mem }.

  Definition set (l : list (option (nat * prog))) (i : nat) (x : option (nat * prog)) : list (option (nat * prog)) := upd_nth l i (fun _ => x).
  Definition put (f : mtx -> option nat) (m : mtx) (o : option nat) : mtx -> option nat := fun x => if mtx_dec x m then o else f x.

  Inductive step : st -> st -> Prop :=
  | s_take i t p q l d f s : nth_error l i = Some None -> step (mkst ((t, p) :: q) l d f s) (mkst q (set l i (Some (t, p))) d f s)
  | s_finish i t q l d f s : nth_error l i = Some (Some (t, Stop)) -> step (mkst q l d f s) (mkst q (set l i None) (d ++ [t]) f s)
  | s_lock i t m k q l d f s : nth_error l i = Some (Some (t, Lock m k)) -> f m = None -> step (mkst q l d f s) (mkst q (set l i (Some (t, k))) d (put f m (Some i)) s)
  | s_unlock i t m k q l d f s : nth_error l i = Some (Some (t, Unlock m k)) -> f m = Some i -> step (mkst q l d f s) (mkst q (set l i (Some (t, k))) d (put f m None) s)
  | s_op i t X lc w R k x q l d f s s' : nth_error l i = Some (Some (t, Op X lc w R k)) -> R s x s' -> step (mkst q l d f s) (mkst q (set l i (Some (t, k x))) d f s').

  Inductive steps : st -> st -> Prop :=
  | steps_refl s : steps s s
  | steps_next s s' s'' : steps s s' -> step s' s'' -> steps s s''.

  (** P idle workers and the tasks ps, numbered from 0, in the queue. *)
  Definition start (P : nat) (ps : list prog) (s0 : mem) : st := mkst (combine (seq 0 (length ps)) ps) (repeat None P) [] (fun _ => None) s0.

  (** All tasks have ended. *)
  Definition finished (s : st) : Prop := queue s = [] /\ forall o, In o (ws s) -> o = None.
  Definition undefined (s : st) : Prop := exists t, In (Some (t, Undef)) (ws s).

  (** A data race on location l: two workers are about to access it and one of them modifies it. *)
  Definition race (s : st) (l : loc) : Prop :=
    exists i j t u X Y wi wj Ri Rj ki kj, i <> j /\ nth_error (ws s) i = Some (Some (t, Op X l wi Ri ki)) /\ nth_error (ws s) j = Some (Some (u, Op Y l wj Rj kj)) /\ wi || wj = true.

  (** *** Lock discipline *)
  Variable guard : loc -> option mtx.
  Variable exempt : loc -> Prop.

  Fixpoint safe (own : loc -> Prop) (h : option mtx) (p : prog) : Prop :=
    match p with
    | Stop => h = None
    | Undef => True
    | Lock m k => h = None /\ safe own (Some m) k
    | Unlock m k => h = Some m /\ safe own None k
    | Op X l w R k => (exempt l \/ (exists m, guard l = Some m /\ h = Some m) \/ own l) /\ forall x, safe own h (k x)
    end.

  (** every access can be carried out *)
  Fixpoint total (p : prog) : Prop :=
    match p with
    | Stop | Undef => True
    | Lock m k | Unlock m k => total k
    | Op X l w R k => (forall s, exists x s', R s x s') /\ forall x, total (k x)
    end.

  Variable own : nat -> loc -> Prop.
  Hypothesis own_disjoint : forall t u l, own t l -> own u l -> t = u.
  Hypothesis own_guard : forall t l, own t l -> guard l = None.

  Record inv (hf : nat -> option mtx) (s : st) : Prop := {
    i_queue : forall t p, In (t, p) (queue s) -> safe (own t) None p;
    i_run : forall i t p, nth_error (ws s) i = Some (Some (t, p)) -> safe (own t) (hf i) p;
    i_idle : forall i, (nth_error (ws s) i = Some None \/ nth_error (ws s) i = None) -> hf i = None;
    i_locks : forall m i, locks s m = Some i <-> hf i = Some m;
    i_queue_ids : NoDup (map fst (queue s));
    i_apart : forall i t p q, nth_error (ws s) i = Some (Some (t, p)) -> ~ In (t, q) (queue s);
    i_ids : forall i j t p q, nth_error (ws s) i = Some (Some (t, p)) -> nth_error (ws s) j = Some (Some (t, q)) -> i = j }.

  Definition hset (hf : nat -> option mtx) (i : nat) (o : option mtx) : nat -> option mtx := fun j => if j =? i then o else hf j.

  Lemma nth_set l i j x y : nth_error (set l i x) j = Some y -> (j = i /\ y = x /\ i < length l) \/ (j <> i /\ nth_error l j = Some y).
  Proof.
    unfold set. rewrite nth_error_upd. destruct (Nat.eqb_spec i j) as [<-|N].
    - destruct (nth_error l i) eqn:E; simpl; [|discriminate]. intros A. injection A as <-. left. split; auto. split; auto. apply nth_error_Some. congruence.
    - intros A. right. split; auto.
  Qed.
  Lemma nth_set_same l i x z : nth_error l i = Some z -> nth_error (set l i x) i = Some x.
  Proof. intros A. unfold set. rewrite nth_error_upd, Nat.eqb_refl, A. reflexivity. Qed.
  Lemma nth_set_other l i j x : j <> i -> nth_error (set l i x) j = nth_error l j.
  Proof. intros N. unfold set. rewrite nth_error_upd. destruct (Nat.eqb_spec i j); congruence. Qed.
  Lemma nth_set_none l i j x z : nth_error l i = Some z -> (nth_error (set l i x) j = None <-> nth_error l j = None).
  Proof. intros A. unfold set. rewrite nth_error_upd. destruct (Nat.eqb_spec i j) as [<-|N]; [|tauto]. rewrite A. simpl. split; discriminate. Qed.

  Lemma step_inv hf s s' : inv hf s -> step s s' -> exists hf', inv hf' s'.
  Proof.
    intros I St. destruct St as [i t p q l d f s E|i t q l d f s E|i t m k q l d f s E F|i t m k q l d f s E F|i t X lc w R k x q l d f s s' E HR];
      destruct I as [Iq Ir Ii Il Iqi Ia Iid]; cbn [queue ws locks] in *.
    - exists hf. assert (hf i = None) as Hn by (apply Ii; auto). split; cbn [queue ws locks].
      + intros u p' A. apply Iq. now right.
      + intros j u p' A. apply nth_set in A as [(-> & [= -> ->] & _)|(N & A)]; [rewrite Hn; apply Iq; now left|eapply Ir; eauto].
      + intros j A. destruct (Nat.eq_dec j i) as [->|N]; auto. apply Ii. rewrite nth_set_other in A; auto.
      + exact Il.
      + cbn [map fst] in Iqi. inversion Iqi. assumption.
      + intros j u p' p'' A B. apply nth_set in A as [(-> & [= -> ->] & _)|(N & A)].
        * cbn [map fst] in Iqi. inversion Iqi as [|x y Nx _ Ex]. apply Nx. apply in_map_iff. exists (t, p''). auto.
        * apply (Ia j u p' p'' A). right. exact B.
      + intros j j' u p' p'' A B. apply nth_set in A as [(-> & [= -> ->] & _)|(N & A)]; apply nth_set in B as [(-> & Eb & _)|(N' & B)]; auto.
        * exfalso. apply (Ia j' t p'' p B). left. reflexivity.
        * injection Eb as -> ->. exfalso. apply (Ia j t p' p A). left. reflexivity.
        * eapply Iid; eauto.
    - exists hf. assert (hf i = None) as Hn by (specialize (Ir i t Stop E); exact Ir). split; cbn [queue ws locks]; auto.
      + intros j u p A. apply nth_set in A as [(-> & [=] & _)|(N & A)]. eapply Ir; eauto.
      + intros j A. destruct (Nat.eq_dec j i) as [->|N]; auto. apply Ii. rewrite nth_set_other in A; auto.
      + intros j u p q' A. apply nth_set in A as [(-> & [=] & _)|(N & A)]. eapply Ia; eauto.
      + intros j j' u p q' A B. apply nth_set in A as [(-> & [=] & _)|(N & A)]. apply nth_set in B as [(-> & [=] & _)|(N' & B)]. eapply Iid; eauto.
    - destruct (Ir i t _ E) as [Hn Sk]. exists (hset hf i (Some m)). split; cbn [queue ws locks]; auto.
      + intros j u p A. unfold hset. apply nth_set in A as [(-> & [= -> ->] & _)|(N & A)]; [now rewrite Nat.eqb_refl|]. rewrite (proj2 (Nat.eqb_neq _ _) N). eapply Ir; eauto.
      + intros j A. unfold hset. destruct (Nat.eqb_spec j i) as [->|N].
        * exfalso. rewrite (nth_set_same l i _ _ E) in A. destruct A; discriminate.
        * apply Ii. now rewrite nth_set_other in A.
      + intros m' j. unfold put, hset. destruct (mtx_dec m' m) as [->|Nm]; destruct (Nat.eqb_spec j i) as [->|N]; try tauto.
        * split; [congruence|]. intros A. apply Il in A. congruence.
        * rewrite Il. split; [congruence|]. intros [= ->]. congruence.
        * apply Il.
      + intros j u p q' A. apply nth_set in A as [(-> & [= -> ->] & _)|(N & A)]; eapply Ia; eauto.
      + intros j j' u p q' A B. apply nth_set in A as [(-> & [= -> ->] & _)|(N & A)]; apply nth_set in B as [(-> & Eb & _)|(N' & B)]; auto; [eapply Iid; eauto| |eapply Iid; eauto].
        injection Eb as -> ->. eapply Iid; eauto.
    - destruct (Ir i t _ E) as [Hn Sk]. exists (hset hf i None). split; cbn [queue ws locks]; auto.
      + intros j u p A. unfold hset. apply nth_set in A as [(-> & [= -> ->] & _)|(N & A)]; [now rewrite Nat.eqb_refl|]. rewrite (proj2 (Nat.eqb_neq _ _) N). eapply Ir; eauto.
      + intros j A. unfold hset. destruct (Nat.eqb_spec j i) as [->|N]; auto. apply Ii. now rewrite nth_set_other in A.
      + intros m' j. unfold put, hset. destruct (mtx_dec m' m) as [->|Nm]; destruct (Nat.eqb_spec j i) as [->|N]; try tauto.
        * split; congruence.
        * split; [congruence|]. intros A. apply Il in A. congruence.
        * rewrite Il. rewrite Hn. split; congruence.
        * apply Il.
      + intros j u p q' A. apply nth_set in A as [(-> & [= -> ->] & _)|(N & A)]; eapply Ia; eauto.
      + intros j j' u p q' A B. apply nth_set in A as [(-> & [= -> ->] & _)|(N & A)]; apply nth_set in B as [(-> & Eb & _)|(N' & B)]; auto; [eapply Iid; eauto| |eapply Iid; eauto].
        injection Eb as -> ->. eapply Iid; eauto.
    - destruct (Ir i t _ E) as [_ Sk]. exists hf. split; cbn [queue ws locks]; auto.
      + intros j u p A. apply nth_set in A as [(-> & [= -> ->] & _)|(N & A)]; [apply Sk|eapply Ir; eauto].
      + intros j A. destruct (Nat.eq_dec j i) as [->|N]; [|apply Ii; now rewrite nth_set_other in A]. exfalso. rewrite (nth_set_same l i _ _ E) in A. destruct A; discriminate.
      + intros j u p q' A. apply nth_set in A as [(-> & [= -> ->] & _)|(N & A)]; eapply Ia; eauto.
      + intros j j' u p q' A B. apply nth_set in A as [(-> & [= -> ->] & _)|(N & A)]; apply nth_set in B as [(-> & Eb & _)|(N' & B)]; auto; [eapply Iid; eauto| |eapply Iid; eauto].
        injection Eb as -> ->. eapply Iid; eauto.
  Qed.

  Lemma combine_seq_fst {A} (l : list A) : forall n, map fst (combine (seq n (length l)) l) = seq n (length l).
  Proof. induction l as [|x l IH]; intros n; simpl; auto. now rewrite IH. Qed.

  Lemma nth_repeat_none P i : nth_error (repeat (@None (nat * prog)) P) i = Some None \/ nth_error (repeat (@None (nat * prog)) P) i = None.
  Proof. revert i. induction P; intros [|i]; simpl; auto. Qed.

  Lemma in_combine_seq {A} (l : list A) t p n : In (t, p) (combine (seq n (length l)) l) -> n <= t /\ nth_error l (t - n) = Some p.
  Proof.
    revert n. induction l as [|x l IH]; intros n; simpl; [tauto|]. intros [[= <- <-]|A1]; [rewrite Nat.sub_diag; auto|]. apply IH in A1 as [A1 B]. split; [lia|]. replace (t - n) with (S (t - S n)) by lia. exact B.
  Qed.

  Lemma start_inv P ps s0 : (forall t p, nth_error ps t = Some p -> safe (own t) None p) -> inv (fun _ => None) (start P ps s0).
  Proof.
    intros Sf. split; cbn [start queue ws locks].
    - intros t p A. apply in_combine_seq in A as [_ A]. rewrite Nat.sub_0_r in A. auto.
    - intros i t p A. destruct (nth_repeat_none P i) as [B|B]; rewrite B in A; discriminate.
    - auto.
    - intros m i. split; discriminate.
    - rewrite combine_seq_fst. apply seq_NoDup.
    - intros i t p q A. destruct (nth_repeat_none P i) as [B|B]; rewrite B in A; discriminate.
    - intros i j t p q A. destruct (nth_repeat_none P i) as [B|B]; rewrite B in A; discriminate.
  Qed.

  Lemma steps_inv s s' : steps s s' -> (exists hf, inv hf s) -> exists hf, inv hf s'.
  Proof. induction 1 as [|s s' s'' _ IH St]; auto. intros I. destruct (IH I) as [hf I']. eapply step_inv; eauto. Qed.

  (** Races only on exempted locations. *)
  Lemma inv_race hf s l : inv hf s -> race s l -> exempt l.
  Proof.
    intros I (i & j & t & u & X & Y & wi & wj & Ri & Rj & ki & kj & N & A & B & _).
    destruct (i_run _ _ I i t _ A) as [Sa _]. destruct (i_run _ _ I j u _ B) as [Sb _].
    destruct Sa as [Sa|[(m & Ga & Ha)|Oa]]; auto; destruct Sb as [Sb|[(m' & Gb & Hb)|Ob]]; auto; exfalso.
    - assert (m = m') as <- by congruence. apply (i_locks _ _ I) in Ha. apply (i_locks _ _ I) in Hb. congruence.
    - apply own_guard in Ob. congruence.
    - apply own_guard in Oa. congruence.
    - pose proof (own_disjoint _ _ _ Oa Ob) as <-. apply N. eapply (i_ids _ _ I); eauto.
  Qed.

  (** No deadlock: while not all tasks have ended and none has reached undefined behaviour, some worker can go on. *)
  Definition all_total (s : st) : Prop := (forall t p, In (t, p) (queue s) -> total p) /\ forall i t p, nth_error (ws s) i = Some (Some (t, p)) -> total p.

  Lemma all_total_step s s' : all_total s -> step s s' -> all_total s'.
  Proof.
    intros [Tq Tr] St. destruct St as [i t p q l d f s E|i t q l d f s E|i t m k q l d f s E F|i t m k q l d f s E F|i t X lc w R k x q l d f s s' E HR]; cbn [queue ws] in *; split; cbn [queue ws]; auto.
    - intros u p' A. apply (Tq u). now right.
    - intros j u p' A. apply nth_set in A as [(-> & [= -> ->] & _)|(N & A)]; [apply (Tq t); now left|eapply Tr; eauto].
    - intros j u p' A. apply nth_set in A as [(-> & [=] & _)|(N & A)]; eapply Tr; eauto.
    - intros j u p' A. apply nth_set in A as [(-> & [= -> ->] & _)|(N & A)]; [apply (Tr _ _ _ E)|eapply Tr; eauto].
    - intros j u p' A. apply nth_set in A as [(-> & [= -> ->] & _)|(N & A)]; [apply (Tr _ _ _ E)|eapply Tr; eauto].
    - intros j u p' A. apply nth_set in A as [(-> & [= -> ->] & _)|(N & A)]; [apply (Tr _ _ _ E)|eapply Tr; eauto].
  Qed.

  Lemma all_total_steps s s' : all_total s -> steps s s' -> all_total s'.
  Proof. intros T St. induction St as [|s s' s'' _ IH St]; auto. eapply all_total_step; [apply IH, T|exact St]. Qed.

  Lemma inv_progress hf s : inv hf s -> all_total s -> ws s <> [] -> finished s \/ undefined s \/ exists s', step s s'.
  Proof.
    intros I [Tq Tr] Nw. destruct s as [q l d f sh]. cbn [ws queue] in *.
    destruct (existsb (fun o => match o with Some _ => true | None => false end) l) eqn:Ex.
    - apply existsb_exists in Ex as ([[t p]|] & Io & Eo); [|discriminate]. apply In_nth_error in Io as [i Ei]. pose proof (i_run _ _ I i t p Ei) as Sp. pose proof (Tr i t p Ei) as Tp.
      destruct p as [| |m k|m k|X lc w R k].
      + right. right. eexists. eapply s_finish; eauto.
      + right. left. exists t. cbn [ws]. eapply nth_error_In; eauto.
      + destruct (f m) as [j|] eqn:Fm.
        * assert (hf j = Some m) as Hj by (apply (i_locks _ _ I); exact Fm).
          destruct (nth_error l j) as [[[u p]|]|] eqn:Ej.
          -- pose proof (i_run _ _ I j u p Ej) as Sj. pose proof (Tr j u p Ej) as Tj. rewrite Hj in Sj. destruct p as [| |m' k'|m' k'|X lc w R k'].
             ++ discriminate.
             ++ right. left. exists u. cbn [ws]. eapply nth_error_In; eauto.
             ++ destruct Sj as [Sj _]. discriminate.
             ++ destruct Sj as [[= <-] _]. right. right. eexists. eapply s_unlock; eauto.
             ++ destruct Tj as [Tj _]. destruct (Tj sh) as (x & s' & HR). right. right. eexists. eapply s_op; eauto.
          -- rewrite (i_idle _ _ I j) in Hj by (cbn [ws]; auto). discriminate.
          -- rewrite (i_idle _ _ I j) in Hj by (cbn [ws]; auto). discriminate.
        * right. right. eexists. eapply s_lock; eauto.
      + destruct Sp as [Hm _]. right. right. eexists. eapply s_unlock; eauto. apply (i_locks _ _ I). exact Hm.
      + destruct Tp as [Tp _]. destruct (Tp sh) as (x & s' & HR). right. right. eexists. eapply s_op; eauto.
    - assert (forall o, In o l -> o = None) as An.
      { intros [o|] Io; auto. exfalso. apply not_true_iff_false in Ex. apply Ex. apply existsb_exists. exists (Some o). auto. }
      destruct q as [|[t p] q]; [left; split; auto|]. destruct l as [|o l]; [congruence|]. right. right. eexists. eapply (s_take 0). simpl. f_equal. apply An. now left.
  Qed.

  (** *** Termination: there is no infinite run *)
  Definition sub (q p : prog) : Prop :=
    match p with Lock _ k | Unlock _ k => q = k | Op X _ _ _ k => exists x, q = k x | _ => False end.
  Lemma sub_wf p : Acc sub p.
  Proof. induction p; constructor; intros y S; simpl in S; try contradiction; try (subst; assumption). destruct S as [x ->]. auto. Qed.

  (** progress of one worker *)
  Definition osub (x y : option (nat * prog)) : Prop :=
    match y, x with
    | Some (_, p), None => p = Stop
    | Some (t, p), Some (u, q) => t = u /\ sub q p
    | _, _ => False
    end.
  Lemma osub_wf o : Acc osub o.
  Proof.
    assert (Acc osub None) as A0 by (constructor; intros [[t p]|]; simpl; tauto).
    destruct o as [[t p]|]; auto. induction (sub_wf p) as [p _ IH]. constructor. intros [[u q]|]; simpl; [|auto]. intros [<- S]. auto.
  Qed.

  Inductive lsub : list (option (nat * prog)) -> list (option (nat * prog)) -> Prop :=
  | lsub_here x y l : osub x y -> lsub (x :: l) (y :: l)
  | lsub_there x l l' : lsub l' l -> lsub (x :: l') (x :: l).
  Lemma lsub_wf l : Acc lsub l.
  Proof.
    induction l as [|o l IH]; [constructor; intros y S; inversion S|].
    revert o. induction IH as [l _ IHl]. intros o. induction (osub_wf o) as [o _ IHo]. constructor. intros y S. inversion S as [x y' l' Ho|x l0 l' Hl]; subst; auto.
  Qed.
  Lemma lsub_set l i x y : nth_error l i = Some y -> osub x y -> lsub (set l i x) l.
  Proof. revert i. induction l as [|z l IH]; intros [|i] E S; simpl in E; try discriminate; [injection E as ->; now constructor|]. unfold set in *. simpl. constructor. auto. Qed.

  Lemma no_infinite_run s : Acc (fun s' s => step s s') s.
  Proof.
    destruct s as [q l d f sh]. revert l d f sh. induction q as [|[t p] q IHq]; intros l; induction (lsub_wf l) as [l _ IHl]; intros d f sh; constructor; intros s' St.
    - inversion St; subst; apply IHl; eapply lsub_set; [eassumption|simpl; auto|eassumption|simpl; auto|eassumption|simpl; auto|eassumption|simpl]. split; auto. eexists; reflexivity.
    - inversion St; subst; [apply IHq| | | |].
      all: apply IHl; eapply lsub_set; [eassumption|]; simpl; auto. split; auto. eexists; reflexivity.
  Qed.
End Threads.
