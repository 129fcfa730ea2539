(** Facts about interleaved tasks (Threads.v): every task is run exactly once; a worker can run alone; a Kripke-style rule for what the tasks compute. *)
From Verif Require Import Base ThreadPoolFacts Threads.
From Coq Require Import Permutation.

Lemma combine_app_eq {A B} (a1 a2 : list A) (b1 b2 : list B) : length a1 = length b1 -> combine (a1 ++ a2) (b1 ++ b2) = combine a1 b1 ++ combine a2 b2.
Proof. revert b1. induction a1 as [|x a1 IH]; intros [|y b1] E; simpl in *; try discriminate; auto. f_equal. apply IH. lia. Qed.

Section Ids.
  Context {loc mtx mem : Type}.
  Variable mtx_dec : forall a b : mtx, {a = b} + {a <> b}.
  Notation prog := (@prog loc mtx mem).
  Notation st := (@st loc mtx mem).
  Notation step := (step mtx_dec).
  Notation steps := (steps mtx_dec).

  Lemma steps_trans (s s' s'' : st) : steps s s' -> steps s' s'' -> steps s s''.
  Proof. intros A B. induction B as [|a b c B IH Sc]; auto. eapply steps_next; [apply IH, A|exact Sc]. Qed.
  Lemma steps_one (s s' : st) : step s s' -> steps s s'.
  Proof. intros A. eapply steps_next; [apply steps_refl|exact A]. Qed.

  (** the numbers of the running tasks *)
  Definition rid (o : option (nat * prog)) : list nat := match o with Some (t, _) => [t] | None => [] end.
  Definition running (l : list (option (nat * prog))) : list nat := flat_map rid l.
  Lemma running_set l i x y : nth_error l i = Some y -> Permutation (rid x ++ running l) (rid y ++ running (set l i x)).
  Proof.
    revert i. induction l as [|z l IH]; intros [|i] E; simpl in E; try discriminate.
    - injection E as ->. unfold set. simpl. apply Permutation_app_swap_app.
    - unfold set in *. simpl. etransitivity; [apply Permutation_app_swap_app|]. etransitivity; [|apply Permutation_app_swap_app]. apply Permutation_app_head. auto.
  Qed.

  Definition ids (s : st) : list nat := map fst (queue s) ++ running (ws s) ++ done s.
  Lemma ids_step (s s' : st) : step s s' -> Permutation (ids s) (ids s').
  Proof.
    intros St. destruct St as [i t p q l d f s E|i t q l d f s E|i t m k q l d f s E F|i t m k q l d f s E F|i t X lc w R k x q l d f s s' E HR]; unfold ids; cbn [queue ws done map fst].
    - pose proof (running_set l i (Some (t, p)) None E) as P. simpl in P. simpl. etransitivity; [apply Permutation_middle|]. apply Permutation_app_head. change (t :: running l ++ d) with ((t :: running l) ++ d). now apply Permutation_app_tail.
    - pose proof (running_set l i None (Some (t, Stop)) E) as P. simpl in P. apply Permutation_app_head. etransitivity; [apply Permutation_app_tail; exact P|]. simpl. rewrite app_assoc. apply Permutation_cons_append.
    - pose proof (running_set l i (Some (t, k)) _ E) as P. simpl in P. apply Permutation_cons_inv in P. apply Permutation_app_head. now apply Permutation_app_tail.
    - pose proof (running_set l i (Some (t, k)) _ E) as P. simpl in P. apply Permutation_cons_inv in P. apply Permutation_app_head. now apply Permutation_app_tail.
    - pose proof (running_set l i (Some (t, k x)) _ E) as P. simpl in P. apply Permutation_cons_inv in P. apply Permutation_app_head. now apply Permutation_app_tail.
  Qed.
  Lemma ids_steps (s s' : st) : steps s s' -> Permutation (ids s) (ids s').
  Proof. induction 1 as [|s s' s'' _ IH St]; auto. etransitivity; [exact IH|now apply ids_step]. Qed.
  Lemma running_none P : running (repeat None P) = [].
  Proof. induction P; auto. Qed.
  Lemma ids_start P ps s0 : ids (start P ps s0) = seq 0 (length ps).
  Proof. unfold ids, start. cbn [queue ws done]. now rewrite combine_seq_fst, running_none, !app_nil_r. Qed.
  Lemma running_in l t : In t (running l) <-> exists p, In (Some (t, p)) l.
  Proof.
    unfold running. rewrite in_flat_map. split.
    - intros ([[u p]|] & I & J); simpl in J; [|tauto]. destruct J as [->|[]]. eauto.
    - intros [p I]. exists (Some (t, p)). simpl. auto.
  Qed.

  Lemma ws_length_step (s s' : st) : step s s' -> length (ws s') = length (ws s).
  Proof. intros St. destruct St; cbn [ws]; unfold set; try (rewrite upd_nth_length); reflexivity. Qed.
  Lemma ws_length_steps (s s' : st) : steps s s' -> length (ws s') = length (ws s).
  Proof. induction 1 as [|s s' s'' _ IH St]; auto. rewrite (ws_length_step _ _ St). exact IH. Qed.

  (** every task is run exactly once *)
  Lemma finished_once P ps s0 (s : st) : steps (start P ps s0) s -> finished s -> Permutation (done s) (seq 0 (length ps)).
  Proof.
    intros St [Fq Fw]. apply ids_steps in St. rewrite ids_start in St. symmetry. etransitivity; [exact St|]. unfold ids. rewrite Fq. simpl.
    assert (running (ws s) = []) as ->; auto. unfold running. revert Fw. generalize (ws s). induction l as [|o l IH]; intros Fw; auto. simpl. rewrite (Fw o (or_introl eq_refl)). apply IH. intros x I. apply Fw. now right.
  Qed.
End Ids.

(** *** A worker alone *)
Section Alone.
  Context {loc mtx mem : Type}.
  Variable mtx_dec : forall a b : mtx, {a = b} + {a <> b}.
  Notation prog := (@prog loc mtx mem).
  Notation steps := (steps mtx_dec).
  Variable guard : loc -> option mtx.
  Variable exempt : loc -> Prop.

  Fixpoint defined (p : prog) : Prop :=
    match p with
    | Stop => True
    | Undef => False
    | Lock m k | Unlock m k => defined k
    | Op X l w R k => forall x, defined (k x)
    end.

  Lemma set_set (l : list (option (nat * prog))) i x y : set (set l i x) i y = set l i y.
  Proof. unfold set. revert i. induction l as [|z l IH]; intros [|i]; simpl; auto. now rewrite IH. Qed.

  Definition held (i : nat) (h : option mtx) (f : mtx -> option nat) : Prop := forall m, f m = if match h with Some m' => if mtx_dec m m' then true else false | None => false end then Some i else None.

  Lemma run_alone own i t p : forall h q l d f s z, safe guard exempt own h p -> total p -> defined p -> nth_error l i = Some z -> held i h f ->
    exists f' s', steps (mkst q (set l i (Some (t, p))) d f s) (mkst q (set l i None) (d ++ [t]) f' s') /\ held i None f'.
  Proof.
    induction p as [| |m k IH|m k IH|X lc w R k IH]; intros h q l d f s z Sf Tt Df E Hh; simpl in Sf, Tt, Df.
    - subst h. exists f, s. split; auto. apply steps_one. rewrite <- (set_set l i (Some (t, Stop)) None). apply s_finish. eapply nth_set_same; eauto.
    - contradiction.
    - destruct Sf as [-> Sf]. destruct (IH (Some m) q l d (put mtx_dec f m (Some i)) s z Sf Tt Df E) as (f' & s' & St & Hf').
      { intros m'. unfold put. destruct (mtx_dec m' m); auto. }
      exists f', s'. split; auto. eapply steps_trans; [|exact St]. apply steps_one. rewrite <- (set_set l i (Some (t, Lock m k)) (Some (t, k))). apply s_lock; [eapply nth_set_same; eauto|]. rewrite Hh. reflexivity.
    - destruct Sf as [-> Sf]. destruct (IH None q l d (put mtx_dec f m None) s z Sf Tt Df E) as (f' & s' & St & Hf').
      { intros m'. unfold put. destruct (mtx_dec m' m) as [|N]; auto. rewrite Hh. destruct (mtx_dec m' m); [congruence|reflexivity]. }
      exists f', s'. split; auto. eapply steps_trans; [|exact St]. apply steps_one. rewrite <- (set_set l i (Some (t, Unlock m k)) (Some (t, k))). apply s_unlock; [eapply nth_set_same; eauto|]. rewrite Hh. destruct (mtx_dec m m); congruence.
    - destruct Sf as [_ Sf]. destruct Tt as [Tt Tk]. destruct (Tt s) as (x & s1 & HR). destruct (IH x h q l d f s1 z (Sf x) (Tk x) (Df x) E Hh) as (f' & s' & St & Hf').
      exists f', s'. split; auto. eapply steps_trans; [|exact St]. apply steps_one. rewrite <- (set_set l i (Some (t, Op X lc w R k)) (Some (t, k x))). eapply s_op; [eapply nth_set_same; eauto|exact HR].
  Qed.

  (** an idle worker takes and runs the first tasks of the queue *)
  Lemma run_queue own i q1 : forall q2 l d f s, (forall t p, In (t, p) q1 -> safe guard exempt (own t) None p /\ total p /\ defined p) -> nth_error l i = Some None -> held i None f ->
    exists d' f' s', steps (mkst (q1 ++ q2) l d f s) (mkst q2 l d' f' s') /\ held i None f'.
  Proof.
    induction q1 as [|[t p] q1 IH]; intros q2 l d f s A E Hh; [exists d, f, s; split; auto; constructor|].
    destruct (A t p (or_introl eq_refl)) as (Sf & Tt & Df). destruct (run_alone (own t) i t p None (q1 ++ q2) l d f s None Sf Tt Df E Hh) as (f1 & s1 & St1 & H1).
    assert (set l i None = l) as El. { unfold set. clear - E. revert i E. induction l as [|o l IH]; intros [|i] E; simpl in *; try discriminate; [injection E as ->; auto|f_equal; auto]. }
    rewrite El in St1. destruct (IH q2 l (d ++ [t]) f1 s1) as (d' & f' & s' & St2 & H2); auto. { intros. apply A. now right. }
    exists d', f', s'. split; auto. eapply steps_trans; [|exact St2]. eapply steps_trans; [apply steps_one; eapply (s_take _ i); exact E|exact St1].
  Qed.

  (** Two tasks that begin with a write to the same location race. *)
  Lemma race_reachable own P (ps1 ps2 ps3 : list prog) X Y l w (R1 : mem -> X -> mem -> Prop) k1 (R2 : mem -> Y -> mem -> Prop) k2 s0 : 2 <= P ->
    (forall t p, nth_error (ps1 ++ Op X l true R1 k1 :: ps2) t = Some p -> t <> length ps1 -> safe guard exempt (own t) None p /\ total p /\ defined p) ->
    exists s, steps (start P (ps1 ++ Op X l true R1 k1 :: ps2 ++ Op Y l w R2 k2 :: ps3) s0) s /\ race s l.
  Proof.
    intros HP A. unfold start. set (p1 := Op X l true R1 k1) in *. set (p2 := Op Y l w R2 k2).
    set (a := length ps1). set (b := length ps2).
    assert (forall (r : list prog) n, combine (seq n (length (ps1 ++ r))) (ps1 ++ r) = combine (seq n a) ps1 ++ combine (seq (n + a) (length r)) r) as Sp.
    { intros r n. unfold a. rewrite app_length, seq_app. apply combine_app_eq. apply seq_length. }
    assert (forall (r : list prog) n, combine (seq n (length (ps2 ++ r))) (ps2 ++ r) = combine (seq n b) ps2 ++ combine (seq (n + b) (length r)) r) as Sp2.
    { intros r n. unfold b. rewrite app_length, seq_app. apply combine_app_eq. apply seq_length. }
    rewrite Sp. cbn [length seq combine plus]. rewrite Sp2. cbn [length seq combine].
    destruct P as [|[|P]]; try lia. cbn [repeat]. set (l0 := None :: None :: repeat None P).
    edestruct (run_queue own 0 (combine (seq 0 a) ps1)) as (d1 & f1 & s1 & St1 & H1); [| | |].
    4: { 
    edestruct (run_queue own 1 (combine (seq (S a) b) ps2)) as (d2 & f2 & s2 & St2 & H2); cycle 3.
    - eexists. split.
      + eapply steps_trans; [exact St1|]. eapply steps_trans; [apply steps_one; eapply (s_take _ 0); reflexivity|]. eapply steps_trans; [exact St2|]. apply steps_one. eapply (s_take _ 1). reflexivity.
      + exists 0, 1, a, (S a + b), X, Y, true, w, R1, R2, k1, k2. split; [lia|]. split; [reflexivity|]. split; [reflexivity|]. reflexivity.
    - intros t p I. unfold b in I. apply in_combine_seq in I as [I J]. apply (A t p); [|fold a; lia]. rewrite nth_error_app2 by (fold a; lia). fold a. replace (t - a) with (S (t - S a)) by lia. exact J.
    - reflexivity.
    - intros m. apply H1. }
    - intros t p I. unfold a in I. pose proof (in_combine_l _ _ _ _ I) as Iu. apply in_seq in Iu. apply in_combine_seq in I as [I J]. rewrite Nat.sub_0_r in J. apply (A t p); [|lia]. rewrite nth_error_app1 by lia. exact J.
    - reflexivity.
    - intros m. reflexivity.
  Qed.
End Alone.

(** *** What the tasks compute *)
Section Kripke.
  Context {loc mtx mem : Type}.
  Variable mtx_dec : forall a b : mtx, {a = b} + {a <> b}.
  Notation prog := (@prog loc mtx mem).
  Notation st := (@st loc mtx mem).
  Notation steps := (steps mtx_dec).
  (** Worlds: what is known about the memory; knowledge only grows. *)
  Context {world : Type} (le : world -> world -> Prop) (agree : world -> mem -> Prop).
  Hypothesis le_refl : forall w, le w w.
  Hypothesis le_trans : forall a b c, le a b -> le b c -> le a c.
  (** Output: a part of the memory that is changed by effects only. *)
  Context {O E : Type} (out : mem -> O) (app : O -> E -> O).

  Section Good.
    Variable post : world -> list E -> Prop.
    Variable bad : world -> Prop.
    Fixpoint good (w : world) (es : list E) (p : prog) : Prop :=
      match p with
      | Stop => post w es
      | Undef => bad w
      | Lock _ k | Unlock _ k => good w es k
      | Op X l wr R k => forall w' s x s', le w w' -> agree w' s -> R s x s' ->
          exists w'' add, le w' w'' /\ agree w'' s' /\ out s' = fold_left app add (out s) /\ good w'' (es ++ add) (k x)
      end.
    Hypothesis post_mono : forall w w' es, le w w' -> post w es -> post w' es.
    Hypothesis bad_mono : forall w w', le w w' -> bad w -> bad w'.
    Lemma good_mono p : forall w w' es, le w w' -> good w es p -> good w' es p.
    Proof.
      induction p as [| |m k IH|m k IH|X lc wr R k IH]; intros w w' es L G; simpl in *; eauto.
    Qed.
  End Good.

  Variable post : nat -> world -> list E -> Prop.
  Variable bad : nat -> world -> Prop.
  Hypothesis post_mono : forall t w w' es, le w w' -> post t w es -> post t w' es.
  Hypothesis bad_mono : forall t w w', le w w' -> bad t w -> bad t w'.

  Record ok (N : nat) (o0 : O) (w0 : world) (s : st) (w : world) (g : nat -> list E) (L : list E) : Prop := {
    k_le : le w0 w;
    k_agree : agree w (shared s);
    k_out : out (shared s) = fold_left app L o0;
    k_perm : Permutation L (concat (map g (seq 0 N)));
    k_ids : Permutation (ids s) (seq 0 N);
    k_queue : forall t p, In (t, p) (queue s) -> g t = [] /\ good (post t) (bad t) w [] p;
    k_run : forall i t p, nth_error (ws s) i = Some (Some (t, p)) -> good (post t) (bad t) w (g t) p;
    k_done : forall t, In t (done s) -> post t w (g t) }.

  Definition gset (g : nat -> list E) (t : nat) (x : list E) : nat -> list E := fun u => if u =? t then x else g u.
  Lemma concat_gset g t add n : forall a, a <= t < a + n -> Permutation (concat (map (gset g t (g t ++ add)) (seq a n))) (concat (map g (seq a n)) ++ add).
  Proof.
    induction n as [|n IH]; intros a Ha; [lia|]. simpl. destruct (Nat.eq_dec a t) as [->|N].
    - unfold gset at 1. rewrite Nat.eqb_refl. assert (map (gset g t (g t ++ add)) (seq (S t) n) = map g (seq (S t) n)) as ->.
      { apply map_ext_in. intros u Iu. apply in_seq in Iu. unfold gset. destruct (Nat.eqb_spec u t); [lia|reflexivity]. }
      rewrite <- !app_assoc. apply Permutation_app_head. apply Permutation_app_comm.
    - unfold gset at 1. rewrite (proj2 (Nat.eqb_neq _ _) N). rewrite <- app_assoc. apply Permutation_app_head. apply IH. lia.
  Qed.

  Lemma nodup_app_notin {A} (l1 l2 : list A) x : NoDup (l1 ++ l2) -> In x l1 -> ~ In x l2.
  Proof. intros ND I1 I2. apply in_split in I2 as (u & v & ->). rewrite app_assoc in ND. apply NoDup_remove_2 in ND. apply ND. rewrite !in_app_iff. auto. Qed.

  Lemma ids_apart N (s : st) : Permutation (ids s) (seq 0 N) ->
    (forall t, In t (map fst (queue s)) -> ~ In t (running (ws s)) /\ ~ In t (done s)) /\ (forall t, In t (running (ws s)) -> ~ In t (done s)) /\ NoDup (running (ws s)).
  Proof.
    intros P. assert (NoDup (ids s)) as ND by (eapply Permutation_NoDup; [symmetry; exact P|apply seq_NoDup]). unfold ids in ND. split; [|split].
    - intros t I. pose proof (nodup_app_notin _ _ _ ND I) as J. rewrite in_app_iff in J. tauto.
    - intros t I. assert (NoDup (running (ws s) ++ done s)) as ND2 by (clear - ND; induction (map fst (queue s)); auto; inversion ND; auto). apply (nodup_app_notin _ _ _ ND2 I).
    - assert (NoDup (running (ws s) ++ done s)) as ND2 by (clear - ND; induction (map fst (queue s)); auto; inversion ND; auto). clear - ND2. induction (running (ws s)); [constructor|]. simpl in ND2. inversion ND2 as [|x y Nx Ny]; subst. constructor; auto. rewrite in_app_iff in Nx. tauto.
  Qed.
  Lemma running_other (l : list (option (nat * prog))) i j t p q : NoDup (running l) -> nth_error l i = Some (Some (t, p)) -> nth_error l j = Some (Some (t, q)) -> i = j :> nat.
  Proof.
    intros ND A B. destruct (Nat.eq_dec i j) as [|N]; auto. exfalso. revert i j A B N. induction l as [|o l IH]; intros [|i] [|j] A B N; simpl in *; try discriminate; try lia.
    - injection A as ->. simpl in ND. inversion ND as [|x y Nx Ny]; subst. apply Nx. apply running_in. exists q. eapply nth_error_In; eauto.
    - injection B as ->. simpl in ND. inversion ND as [|x y Nx Ny]; subst. apply Nx. apply running_in. exists p. eapply nth_error_In; eauto.
    - apply (IH) with (i := i) (j := j); auto. clear - ND. unfold running in *. simpl in ND. destruct o as [[u r]|]; simpl in ND; auto. inversion ND; auto.
  Qed.

  Lemma ok_step N o0 w0 s s' w g L : ok N o0 w0 s w g L -> step mtx_dec s s' -> exists w' g' L', ok N o0 w0 s' w' g' L'.
  Proof.
    intros K St. pose proof (ids_step mtx_dec _ _ St) as Pi. destruct K as [Kl Ka Ko Kp Ki Kq Kr Kd].
    assert (Permutation (ids s') (seq 0 N)) as Ki' by (etransitivity; [symmetry; exact Pi|exact Ki]).
    destruct St as [i t p q l d f s E0|i t q l d f s E0|i t m k q l d f s E0 F|i t m k q l d f s E0 F|i t X lc wr R k x q l d f s s' E0 HR]; cbn [queue ws done locks shared] in *.
    - exists w, g, L. split; cbn [queue ws done shared]; auto.
      + intros u p' A. apply Kq. now right.
      + intros j u p' A. apply nth_set in A as [(-> & [= -> ->] & _)|(Nj & A)]; [|eauto]. destruct (Kq t p (or_introl eq_refl)) as [G0 G]. now rewrite G0.
    - exists w, g, L. split; cbn [queue ws done shared]; auto.
      + intros j u p' A. apply nth_set in A as [(-> & [=] & _)|(Nj & A)]. eauto.
      + intros u A. apply in_app_iff in A as [A|[<-|[]]]; auto. apply (Kr i t Stop E0).
    - exists w, g, L. split; cbn [queue ws done shared]; auto.
      intros j u p' A. apply nth_set in A as [(-> & [= -> ->] & _)|(Nj & A)]; [|eauto]. apply (Kr i t _ E0).
    - exists w, g, L. split; cbn [queue ws done shared]; auto.
      intros j u p' A. apply nth_set in A as [(-> & [= -> ->] & _)|(Nj & A)]; [|eauto]. apply (Kr i t _ E0).
    - pose proof (Kr i t _ E0) as G. simpl in G. destruct (G w s x s' (le_refl w) Ka HR) as (w' & add & Lw & Ag & Eo & Gk).
      assert (In t (running l)) as It by (apply running_in; exists (Op X lc wr R k); eapply nth_error_In; eauto).
      destruct (ids_apart _ _ Ki) as (D1 & D2 & D3). cbn [queue ws done] in D1, D2, D3.
      assert (t < N) as Ht.
      { assert (In t (seq 0 N)) as I by (apply (Permutation_in _ Ki); unfold ids; cbn [queue ws done]; rewrite !in_app_iff; auto). apply in_seq in I. lia. }
      exists w', (gset g t (g t ++ add)), (L ++ add). split; cbn [queue ws done shared]; auto.
      + eapply le_trans; eauto.
      + rewrite Eo, Ko, fold_left_app. reflexivity.
      + etransitivity; [apply Permutation_app_tail; exact Kp|]. symmetry. apply concat_gset. lia.
      + intros u p' A. destruct (Kq u p' A) as [G0 G1]. unfold gset. destruct (Nat.eqb_spec u t) as [->|Nu].
        * exfalso. destruct (D1 t) as [D _]; [apply in_map_iff; exists (t, p'); auto|auto].
        * split; auto. eapply good_mono; [apply post_mono|apply bad_mono|exact Lw|exact G1].
      + intros j u p' A. apply nth_set in A as [(-> & [= -> ->] & _)|(Nj & A)].
        * unfold gset. rewrite Nat.eqb_refl. exact Gk.
        * unfold gset. destruct (Nat.eqb_spec u t) as [->|Nu].
          -- exfalso. apply Nj. symmetry. eapply running_other; eauto.
          -- eapply good_mono; [apply post_mono|apply bad_mono|exact Lw|eauto].
      + intros u A. unfold gset. destruct (Nat.eqb_spec u t) as [->|Nu]; [exfalso; eapply D2; eauto|]. eapply post_mono; eauto.
  Qed.

  Lemma ok_steps N o0 w0 s s' w g L : ok N o0 w0 s w g L -> steps s s' -> exists w' g' L', ok N o0 w0 s' w' g' L'.
  Proof. intros K St. revert w g L K. induction St as [|s s' s'' _ IH St]; intros w g L K; [eauto|]. destruct (IH w g L K) as (w1 & g1 & L1 & K1). eapply ok_step; eauto. Qed.

  Lemma ok_start P ps s0 w0 : agree w0 s0 -> (forall t p, nth_error ps t = Some p -> good (post t) (bad t) w0 [] p) -> ok (length ps) (out s0) w0 (start P ps s0) w0 (fun _ => []) [].
  Proof.
    intros A G. split; auto.
    - assert (forall m, concat (map (fun _ : nat => @nil E) m) = []) as -> by (induction m; auto). constructor.
    - rewrite ids_start. reflexivity.
    - intros t p I. cbn [queue start] in I. apply in_combine_seq in I as [_ I]. rewrite Nat.sub_0_r in I. split; auto.
    - intros i t p B. cbn [ws start] in B. destruct (nth_repeat_none (loc := loc) (mtx := mtx) (mem := mem) P i) as [C|C]; rewrite C in B; discriminate.
    - intros t [].
  Qed.

  Theorem run_finished P ps s0 w0 s : agree w0 s0 -> (forall t p, nth_error ps t = Some p -> good (post t) (bad t) w0 [] p) -> steps (start P ps s0) s -> finished s ->
    exists w g L, le w0 w /\ agree w (shared s) /\ (forall t, t < length ps -> post t w (g t)) /\
      Permutation L (concat (map g (seq 0 (length ps)))) /\ out (shared s) = fold_left app L (out s0).
  Proof.
    intros A G St Fn. destruct (ok_steps _ _ _ _ _ _ _ _ (ok_start P ps s0 w0 A G) St) as (w & g & L & K). exists w, g, L.
    destruct K as [Kl Ka Ko Kp Ki Kq Kr Kd]. repeat split; auto. intros t Ht. apply Kd. eapply Permutation_in; [symmetry; eapply finished_once; eauto|]. apply in_seq. lia.
  Qed.

  Theorem run_undefined P ps s0 w0 s : agree w0 s0 -> (forall t p, nth_error ps t = Some p -> good (post t) (bad t) w0 [] p) -> steps (start P ps s0) s -> undefined s ->
    exists w t, le w0 w /\ agree w (shared s) /\ t < length ps /\ bad t w.
  Proof.
    intros A G St [t I]. destruct (ok_steps _ _ _ _ _ _ _ _ (ok_start P ps s0 w0 A G) St) as (w & g & L & K).
    destruct K as [Kl Ka Ko Kp Ki Kq Kr Kd]. exists w, t. split; auto. split; auto. split.
    - assert (In t (seq 0 (length ps))) as J by (apply (Permutation_in _ Ki); unfold ids; rewrite !in_app_iff; right; left; apply running_in; eauto). apply in_seq in J. lia.
    - apply In_nth_error in I as [i I]. exact (Kr i t _ I).
  Qed.
End Kripke.
