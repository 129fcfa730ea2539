(** Invariants of the thread pool model. *)
From Verif Require Import Base ThreadPool.
From Coq Require Import Permutation.

Lemma nth_error_upd {A} (l : list A) i j (f : A -> A) :
  nth_error (upd_nth l i f) j = if i =? j then option_map f (nth_error l j) else nth_error l j.
Proof.
  revert i j. induction l as [|a l IH]; intros [|i] [|j]; simpl; auto; destruct (i =? j); auto.
Qed.

Lemma nth_error_set i j x l : nth_error (set_w i x l) j = if i =? j then option_map (fun _ => x) (nth_error l j) else nth_error l j.
Proof. unfold set_w. apply nth_error_upd. Qed.

Lemma set_w_length i x l : length (set_w i x l) = length l.
Proof. apply upd_nth_length. Qed.

Lemma set_w_split i x l y : nth_error l i = Some y ->
  exists l1 l2, l = l1 ++ y :: l2 /\ length l1 = i /\ set_w i x l = l1 ++ x :: l2.
Proof.
  revert i. induction l as [|a l IH]; intros [|i] E; simpl in *; try discriminate.
  - injection E as ->. exists [], l. auto.
  - destruct (IH i E) as (l1 & l2 & -> & L & E2). exists (a :: l1), l2. simpl. unfold set_w in *. simpl. rewrite E2. repeat split; auto.
Qed.

(** add a fact once *)
Ltac learn p :=
  let T := type of p in
  match goal with H : T |- _ => fail 1 | _ => pose proof p end.

Section Facts.
  Context {S : Type}.
  Variable body : nat -> list (S -> S).
  Variable P : nat.
  Variable w : bool.
  Variable prog : list cmd.
  Variable s0 : S.
  Notation reach := (reach body P w prog s0).
  Notation st := (@st S).

  (** ** Flow of tasks *)
  Definition held (x : wst) : list nat := match x with WRun t _ | WUnlockRun t => [t] | _ => [] end.
  Definition holding (l : list wst) : list nat := flat_map held l.
  Definition to_push (mm : mst) : list nat :=
    match mm with MCmd cs | MPushLock cs | MPushNotify cs => cmd_pushes cs | _ => [] end.

  Definition cnt (x : nat) (l : list nat) : nat := count_occ Nat.eq_dec l x.
  Definition flow (a : st) : Prop :=
    pushes (tr a) ++ to_push (m a) = cmd_pushes prog /\
    (forall x, cnt x (pushes (tr a)) = cnt x (q a) + cnt x (starts (tr a)) + cnt x (drops (tr a))) /\
    (forall x, cnt x (starts (tr a)) = cnt x (holding (ws a)) + cnt x (finishes (tr a))).

  Lemma cnt_app x l1 l2 : cnt x (l1 ++ l2) = cnt x l1 + cnt x l2.
  Proof. apply count_occ_app. Qed.

  Lemma cnt_cons x t l : cnt x (t :: l) = (if Nat.eq_dec t x then 1 else 0) + cnt x l.
  Proof. unfold cnt. simpl. destruct (Nat.eq_dec t x); auto. Qed.

  Lemma cnt_holding x i z y l : nth_error l i = Some y ->
    cnt x (holding (set_w i z l)) + cnt x (held y) = cnt x (holding l) + cnt x (held z).
  Proof.
    intros E. destruct (set_w_split i z l y E) as (l1 & l2 & -> & _ & ->). unfold holding. rewrite !flat_map_app. simpl.
    rewrite !cnt_app. lia.
  Qed.

  Lemma holding_wake l : holding (wake_all l) = holding l.
  Proof. unfold holding, wake_all. induction l as [|x l IH]; simpl; auto. rewrite IH. destruct x; auto. Qed.

  Lemma flow_inv a : reach a -> flow a.
  Proof.
    induction 1 as [|a b R IH St].
    { unfold flow, init. simpl. split; auto. split; [reflexivity|]. intros x. enough (holding (repeat WPop P) = []) as -> by reflexivity.
      clear. induction P; simpl; auto. }
    destruct IH as (I1 & I2 & I3).
    assert (forall x l, cnt x l = cnt x l) as _ by auto.
    destruct St as [[St|[i St]]|St]; destruct St; unfold flow in *; cbn [q ws m tr to_push] in *;
      unfold pushes, starts, finishes, drops in *; rewrite ?flat_map_app; cbn [flat_map app cmd_pushes] in *; rewrite ?app_nil_r in *;
      (split; [try rewrite <- app_assoc; exact I1|split; intros y; specialize (I2 y); specialize (I3 y)]);
      rewrite ?cnt_app in *; cbn [app] in *;
      repeat match goal with H : nth_error _ ?i = Some _ |- context [holding (set_w ?i ?z _)] =>
        pose proof (cnt_holding y i z _ _ H); clear H end; rewrite ?holding_wake; cbn [held] in *;
      repeat match goal with H : context [cnt _ (_ :: _)] |- _ => rewrite cnt_cons in H end; rewrite ?cnt_cons; change (cnt y []) with 0 in *;
      repeat match goal with |- context [Nat.eq_dec ?a ?b] => destruct (Nat.eq_dec a b) end; rewrite ?cnt_app in *; try lia.
  Qed.

  Lemma set_eq i x y l : nth_error l i = Some y -> nth_error (set_w i x l) i = Some x.
  Proof. intros E. now rewrite nth_error_set, Nat.eqb_refl, E. Qed.

  Lemma set_neq i j x l : i <> j -> nth_error (set_w i x l) j = nth_error l j.
  Proof. intros E. rewrite nth_error_set. now apply Nat.eqb_neq in E as ->. Qed.

  Lemma set_inv i j x z l : nth_error (set_w i x l) j = Some z -> (i = j /\ z = x /\ exists y, nth_error l i = Some y) \/ (i <> j /\ nth_error l j = Some z).
  Proof.
    rewrite nth_error_set. destruct (Nat.eqb_spec i j) as [->|N].
    - destruct (nth_error l j) eqn:E; simpl; intros F; [injection F as <-; left; eauto|discriminate].
    - auto.
  Qed.

  Lemma wake_inv l j z : nth_error (wake_all l) j = Some z ->
    (z = WWake /\ nth_error l j = Some WSleep) \/ (z <> WSleep /\ nth_error l j = Some z).
  Proof.
    unfold wake_all. rewrite nth_error_map. destruct (nth_error l j) as [y|]; simpl; [|discriminate].
    intros E. injection E as <-. destruct y; auto; right; split; auto; discriminate.
  Qed.

  Lemma wake_fwd l j z : nth_error l j = Some z -> z <> WSleep -> nth_error (wake_all l) j = Some z.
  Proof. intros E N. unfold wake_all. rewrite nth_error_map, E. simpl. destruct z; auto; congruence. Qed.

  (** ** Operations of one task *)
  Lemma In_cnt x l : In x l <-> 1 <= cnt x l.
  Proof. unfold cnt. rewrite (count_occ_In Nat.eq_dec). lia. Qed.

  Lemma cnt_hold1 l i x t : nth_error l i = Some x -> held x = [t] -> 1 <= cnt t (holding l).
  Proof.
    intros E H. apply In_cnt. unfold holding. apply in_flat_map. exists x. split; [eapply nth_error_In; eauto|]. rewrite H. now left.
  Qed.

  Lemma cnt_hold2 l i j x y t : nth_error l i = Some x -> nth_error l j = Some y -> i <> j -> held x = [t] -> held y = [t] -> 2 <= cnt t (holding l).
  Proof.
    intros E F N Hx Hy. pose proof (cnt_holding t i WExit x l E) as C. rewrite Hx in C. cbn [held] in C.
    assert (1 <= cnt t (holding (set_w i WExit l))) as C2 by (eapply (cnt_hold1 _ j y); auto; now rewrite set_neq).
    rewrite cnt_cons in C. change (cnt t []) with 0 in C. destruct (Nat.eq_dec t t); [lia|congruence].
  Qed.

  Hypothesis Hnd : NoDup (cmd_pushes prog).

  Lemma flow_le1 a t : reach a -> cnt t (q a) + cnt t (holding (ws a)) + cnt t (finishes (tr a)) + cnt t (drops (tr a)) <= 1.
  Proof.
    intros R. destruct (flow_inv a R) as (I1 & I2 & I3). specialize (I2 t). specialize (I3 t).
    assert (cnt t (pushes (tr a)) <= 1); [|lia].
    rewrite (NoDup_count_occ Nat.eq_dec) in Hnd. specialize (Hnd t). rewrite <- I1 in Hnd. rewrite count_occ_app in Hnd. unfold cnt. lia.
  Qed.

  Definition opsinv (a : st) : Prop :=
    (forall i t k, nth_error (ws a) i = Some (WRun t k) -> ops t (tr a) = seq 0 k /\ k <= length (body t)) /\
    (forall i t, nth_error (ws a) i = Some (WUnlockRun t) -> ops t (tr a) = []) /\
    (forall t, In t (finishes (tr a)) -> ops t (tr a) = seq 0 (length (body t))) /\
    (forall t, ~ In t (starts (tr a)) -> ops t (tr a) = []).

  Lemma ops_app t e1 e2 : ops t (e1 ++ e2) = ops t e1 ++ ops t e2.
  Proof. apply flat_map_app. Qed.
  Lemma starts_app e1 e2 : starts (e1 ++ e2) = starts e1 ++ starts e2.
  Proof. apply flat_map_app. Qed.
  Lemma finishes_app e1 e2 : finishes (e1 ++ e2) = finishes e1 ++ finishes e2.
  Proof. apply flat_map_app. Qed.

  Ltac lookup :=
    repeat match goal with
    | H : nth_error (set_w ?i ?x ?l) ?j = Some ?z |- _ => apply set_inv in H as [(?&?&(?&?))|(?&H)]; subst
    | H : nth_error (wake_all ?l) ?j = Some ?z |- _ => apply wake_inv in H as [(?&H)|(?&H)]; subst
    | H : Some _ = Some _ |- _ => injection H; clear H; intros; subst
    | H : WRun _ _ = WRun _ _ |- _ => injection H; clear H; intros; subst
    | H : WUnlockRun _ = WUnlockRun _ |- _ => injection H; clear H; intros; subst
    | H : @eq wst _ _ |- _ => discriminate H
    end.

  Lemma ops_inv a : reach a -> opsinv a.
  Proof.
    intros R. assert (R0 := R). induction R as [|a b R IH St].
    { repeat split; simpl; intros; try tauto; match goal with H : nth_error _ _ = _ |- _ => apply nth_error_In, repeat_spec in H; discriminate end. }
    specialize (IH R). destruct (flow_inv a R) as (_ & I2 & I3). pose proof (fun t => flow_le1 a t R) as L1. clear R0.
    destruct IH as (A1 & A2 & A3 & A4).
    destruct St as [[St|[i St]]|St]; destruct St; unfold opsinv; cbn [q ws m tr] in *;
      rewrite ?starts_app, ?finishes_app; cbn [starts finishes flat_map]; rewrite ?app_nil_r;
      (split; [|split; [|split]]); intros; rewrite ?ops_app; cbn [ops flat_map]; rewrite ?app_nil_r; lookup; eauto.

    - split; [|lia]. apply A4. rewrite In_cnt. specialize (L1 t). specialize (I3 t). rewrite cnt_cons in L1. destruct (Nat.eq_dec t t); [lia|congruence].
    - apply A4. intros F. apply H0. apply in_or_app. now left.
    - destruct (A1 _ _ _ H) as [E L]. rewrite Nat.eqb_refl, E. split; [now rewrite seq_app|].
      apply Nat.le_succ_l in H3 || idtac. assert (k < length (body t)); [|lia]. apply nth_error_Some. congruence.
    - destruct (Nat.eqb_spec t t0) as [<-|N]; [|rewrite app_nil_r; eauto]. exfalso.
      match goal with N : ?a <> ?j, H : nth_error l ?a = Some _, H' : nth_error l ?j = Some _ |- _ => pose proof (cnt_hold2 l a j _ _ t H H' N eq_refl eq_refl) end.
      specialize (L1 t). lia.
    - destruct (Nat.eqb_spec t t0) as [<-|N]; [|rewrite app_nil_r; eauto]. exfalso.
      match goal with N : ?a <> ?j, H : nth_error l ?a = Some _, H' : nth_error l ?j = Some _ |- _ => pose proof (cnt_hold2 l a j _ _ t H H' N eq_refl eq_refl) end.
      specialize (L1 t). lia.
    - destruct (Nat.eqb_spec t t0) as [<-|N]; [|rewrite app_nil_r; eauto]. exfalso.
      match goal with H : In t (finishes e) |- _ => apply In_cnt in H end. pose proof (cnt_hold1 l _ _ t H eq_refl). specialize (L1 t). lia.
    - destruct (Nat.eqb_spec t t0) as [<-|N]; [|rewrite app_nil_r; eauto]. exfalso.
      match goal with H : ~ In t (starts e) |- _ => apply H end. apply In_cnt. pose proof (cnt_hold1 l _ _ t H eq_refl). specialize (I3 t). lia.
    - match goal with H : In t0 (_ ++ [t]) |- _ => apply in_app_iff in H as [H|[<-|[]]] end; [auto|]. destruct (A1 _ _ _ H) as [E L]. rewrite E. f_equal.
      apply nth_error_None in H0. lia.
    - apply A4. rewrite In_cnt. specialize (L1 t). specialize (I3 t). rewrite cnt_cons in L1. destruct (Nat.eq_dec t t); [lia|congruence].
    - apply A4. intros F. apply H0. apply in_or_app. now left.
    - split; [|lia]. simpl. eauto.
  Qed.

  (** ** The shared data *)
  Lemma sh_inv a : reach a -> sh a = fold_left (run_op body) (all_ops (tr a)) s0.
  Proof.
    induction 1 as [|a b R IH St]; [reflexivity|].
    destruct St as [[St|[i St]]|St]; destruct St; cbn [sh tr] in *; unfold all_ops in *; rewrite ?flat_map_app; cbn [flat_map]; rewrite ?app_nil_r; auto.
    rewrite fold_left_app. cbn [fold_left app]. rewrite <- IH. unfold run_op. simpl. now rewrite (nth_error_nth _ _ _ H0).
  Qed.

  (** ** Control *)
  Definition inlock (x : wst) : bool := match x with WPred | WPred2 | WUnlockRun _ | WUnlockExit => true | _ => false end.
  Definition mlock (x : mst) : bool := match x with MPushNotify _ | MStopNotify => true | _ => false end.

  Definition lockinv (a : st) : Prop :=
    length (ws a) = P /\ length (flags a) = P /\
    (forall i x, nth_error (ws a) i = Some x -> (inlock x = true <-> mtx a = Some (HW i))) /\
    (mlock (m a) = true <-> mtx a = Some HM) /\
    (forall i, mtx a = Some (HW i) -> i < P).

  Lemma lock_inv a : reach a -> lockinv a.
  Proof.
    induction 1 as [|a b R IH St].
    { unfold lockinv, init. simpl. rewrite !repeat_length. repeat split; auto; try discriminate;
      apply nth_error_In, repeat_spec in H; subst; discriminate. }
    destruct IH as (A0 & A1 & A2 & A3 & A4).
    destruct St as [[St|[i St]]|St]; destruct St; unfold lockinv; cbn [ws mtx m flags mlock] in *; rewrite ?set_w_length, ?upd_nth_length;
      (split; [auto; try (unfold wake_all; now rewrite map_length)|split; [auto|split; [|split]]]); intros; lookup;
      repeat match goal with H : nth_error _ _ = Some _ |- _ => learn (A2 _ _ H) end; cbn [inlock] in *;
      try (match goal with |- _ < _ => solve [eauto | discriminate | lookup; apply nth_error_Some; congruence] end); try solve [auto; intuition congruence].
  Qed.

  Definition flags_all (b : bool) (fl : list bool) : Prop := forall i, i < P -> nth i fl false = b.
  Definition phase (a : st) : Prop :=
    match m a with
    | MCmd _ | MPushLock _ | MPushNotify _ => isDone a = false /\ flags_all false (flags a)
    | MFlags k => w = false /\ isDone a = false /\ forall i, i < k -> i < P -> nth i (flags a) false = true
    | MClear => w = false /\ isDone a = false /\ flags_all true (flags a)
    | _ => (w = true /\ isDone a = true /\ flags_all false (flags a)) \/ (w = false /\ isDone a = false /\ flags_all true (flags a))
    end.

  Lemma phase_inv a : reach a -> phase a.
  Proof.
    induction 1 as [|a b R IH St].
    { unfold phase, init, flags_all. simpl. split; auto. intros i L. rewrite nth_repeat_any. now destruct (i <? P). }
    destruct (lock_inv a R) as (L0 & L1 & _).
    destruct St as [[St|[i St]]|St]; destruct St; unfold phase in *; cbn [m isDone flags ws] in *; try solve [intuition auto].
    - repeat split; intuition auto. lia.
    - destruct IH as (A & B & C). repeat split; auto. intros j Lj LP. rewrite nth_upd_nth by lia.
      destruct (Nat.eqb_spec j i); auto. apply C; lia.
    - destruct IH as (A & B & C). repeat split; auto. intros j Lj. apply C; lia.
  Qed.

  Definition exitinv (a : st) : Prop :=
    (forall i x, nth_error (ws a) i = Some x -> x = WUnlockExit \/ x = WExit -> (isDone a = true /\ q a = []) \/ nth i (flags a) false = true) /\
    (forall i, nth_error (ws a) i = Some WPred2 -> q a = [] \/ exists cs, m a = MPushLock cs).

  Lemma exit_inv a : reach a -> exitinv a.
  Proof.
    induction 1 as [|a b R IH St].
    { split; intros i; intros; apply nth_error_In, repeat_spec in H; subst; try discriminate. destruct H0; discriminate. }
    destruct (lock_inv a R) as (L0 & L1 & L2 & _). pose proof (phase_inv a R) as Ph.
    destruct IH as (A & B).
    destruct St as [[St|[i St]]|St]; destruct St; unfold exitinv, phase in *; cbn [m isDone flags ws q mtx] in *; (split; intros); lookup;
      try solve [eauto]; try solve [match goal with H : _ \/ _ |- _ => destruct H; discriminate end];
      try (match goal with H : nth_error _ ?i = Some WPred2 |- _ \/ (exists _, _) =>
        destruct (B _ H) as [|[? ?]]; try discriminate; [now left|pose proof (proj1 (L2 _ _ H) eq_refl); discriminate] end);
      try (match goal with H : nth_error _ ?i = Some WPred2 |- _ \/ (exists _, _) =>
        destruct (B _ H) as [|[? ?]]; try discriminate; eauto end);
      try (match goal with H : nth_error _ ?i = Some ?x, H' : ?x = WUnlockExit \/ ?x = WExit |- _ =>
        destruct (A _ _ H H') as [[? ?]|?]; try discriminate; auto; destruct Ph; congruence end).
    - destruct (A _ _ H0 H1) as [[? ?]|?]; auto. right. rewrite nth_upd_nth by lia. now destruct (i0 =? i).
    - apply orb_true_iff in H0 as [-> | ->]; [|now right]. destruct (B _ H) as [|[? ->]]; auto. destruct Ph; discriminate.
  Qed.

  (** ** After the notification of stop *)
  Definition joininv (a : st) : Prop :=
    match m a with
    | MJoin k => ~ In WSleep (ws a) /\ forall i, i < k -> i < P -> nth_error (ws a) i = Some WExit
    | MClear2 | MEnd => forall i, i < P -> nth_error (ws a) i = Some WExit
    | _ => True
    end.

  Lemma join_set mm l i x y :
    (match mm with
     | MJoin k => ~ In WSleep l /\ forall i, i < k -> i < P -> nth_error l i = Some WExit
     | MClear2 | MEnd => forall i, i < P -> nth_error l i = Some WExit
     | _ => True
     end) ->
    nth_error l i = Some y -> y <> WExit -> (x <> WSleep \/ forall k, mm <> MJoin k) ->
    match mm with
    | MJoin k => ~ In WSleep (set_w i x l) /\ forall j, j < k -> j < P -> nth_error (set_w i x l) j = Some WExit
    | MClear2 | MEnd => forall j, j < P -> nth_error (set_w i x l) j = Some WExit
    | _ => True
    end.
  Proof.
    intros A E N C. assert (forall j, nth_error l j = Some WExit -> nth_error (set_w i x l) j = Some WExit) as K.
    { intros j F. rewrite set_neq; auto. intros ->. congruence. }
    destruct mm; auto. destruct A as [A1 A2]. split; auto. destruct C as [C|C]; [|now destruct (C i0)].
    intros F. apply In_nth_error in F as [j F]. lookup; [congruence|]. apply A1. eapply nth_error_In; eauto.
  Qed.

  Lemma join_inv a : reach a -> joininv a.
  Proof.
    induction 1 as [|a b R IH St]; [exact I|].
    destruct (lock_inv a R) as (L0 & L1 & L2 & _). pose proof (phase_inv a R) as Ph.
    destruct St as [[St|[i St]]|St]; destruct St; unfold joininv, phase in *; cbn [m isDone flags ws q mtx] in *; auto;
      try (eapply join_set; [exact IH|eassumption|discriminate|left; discriminate]).
    - split; [|lia]. intros F. apply In_nth_error in F as [j F]. apply wake_inv in F as [[? ?]|[? ?]]; congruence.
    - destruct IH as [A B]. split; auto. intros j Lj LP. destruct (Nat.eq_dec j i) as [->|]; auto. apply B; lia.
    - destruct IH as [A B]. intros j Lj. apply B; lia.
    - eapply join_set; [exact IH|eassumption|discriminate|right]. intros k ->.
      assert (i < P) as Li by (rewrite <- L0; apply nth_error_Some; congruence).
      destruct Ph as [(_&->&_)|(_&_&F)]; [discriminate|]. rewrite (F i Li), orb_true_r in H0. discriminate.
  Qed.

  (** ** No lost wake-up *)
  Definition awake (x : wst) : bool := match x with WSleep | WExit | WUnlockExit | WPred2 => false | _ => true end.
  Definition wakeinv (a : st) : Prop :=
    forall cs, m a = MCmd cs -> q a <> [] -> 1 <= P -> exists i x, nth_error (ws a) i = Some x /\ awake x = true.

  Lemma wake_set (l : list wst) i x y : (exists j z, nth_error l j = Some z /\ awake z = true) -> nth_error l i = Some y -> awake x = true \/ awake y = false ->
    exists j z, nth_error (set_w i x l) j = Some z /\ awake z = true.
  Proof.
    intros (j & z & E & A) F C. destruct (Nat.eq_dec i j) as [->|N].
    - exists j, x. split; [eapply set_eq; eauto|]. destruct C; congruence.
    - exists j, z. now rewrite set_neq.
  Qed.

  Lemma wake_invariant a : reach a -> wakeinv a.
  Proof.
    induction 1 as [|a b R IH St]; [intros cs _ F; now destruct F|].
    destruct (lock_inv a R) as (L0 & L1 & L2 & L3 & _). pose proof (phase_inv a R) as Ph. destruct (exit_inv a R) as [X1 X2].
    destruct St as [[St|[i St]]|St]; destruct St; unfold wakeinv, phase in *; cbn [m isDone flags ws q mtx] in *; intros cc Em Hq HP; try discriminate;
      try (subst mm); try (exfalso; congruence); try solve [eauto];
      try (eapply wake_set; [eapply IH; eauto; congruence|eassumption|auto; fail]).
    - exists i, WWake. split; auto. eapply set_eq; eauto.
    - destruct l as [|x0 l]; [simpl in L0; lia|]. exists 0, x0. split; auto. destruct Ph as [-> Fl].
      destruct x0; auto; exfalso.
      + pose proof (proj1 (L2 0 _ eq_refl) eq_refl). pose proof (proj1 L3 eq_refl). congruence.
      + apply H. now left.
      + destruct (X1 0 _ eq_refl (or_introl eq_refl)) as [[? _]|F]; [discriminate|]. rewrite Fl in F by lia. discriminate.
      + destruct (X1 0 _ eq_refl (or_intror eq_refl)) as [[? _]|F]; [discriminate|]. rewrite Fl in F by lia. discriminate.
    - exfalso. destruct Ph as [_ Fl]. rewrite Fl in H0; [discriminate|]. rewrite <- L0. apply nth_error_Some. congruence.
  Qed.

  (** ** Every pushed task is executed before stop(true) returns *)
  Lemma cnt_zero l : (forall x, cnt x l = 0) -> l = [].
  Proof. destruct l as [|x l]; auto. intros F. specialize (F x). rewrite cnt_cons in F. destruct (Nat.eq_dec x x); [lia|congruence]. Qed.

  Lemma drops_app e1 e2 : drops (e1 ++ e2) = drops e1 ++ drops e2.
  Proof. apply flat_map_app. Qed.

  Lemma wait_no_drop a : reach a -> w = true -> 1 <= P -> drops (tr a) = [].
  Proof.
    intros R Hw HP. induction R as [|a b R IH St]; [reflexivity|].
    destruct (lock_inv a R) as (L0 & L1 & L2 & L3 & _). pose proof (phase_inv a R) as Ph. pose proof (join_inv a R) as J. destruct (exit_inv a R) as [X1 X2].
    destruct St as [[St|[i St]]|St]; destruct St; unfold phase, joininv in *; cbn [m isDone flags ws q mtx tr] in *; rewrite ?drops_app; cbn [drops flat_map]; rewrite ?app_nil_r; auto.
    - destruct Ph; congruence.
    - exfalso. destruct Ph as [(_&_&F)|(?&_)]; [|congruence]. destruct (X1 0 _ (J 0 HP) (or_intror eq_refl)) as [[_ ?]|G]; [discriminate|].
      rewrite (F 0 HP) in G. discriminate.
  Qed.

  Lemma holding_exit l : length l = P -> (forall i, i < P -> nth_error l i = Some WExit) -> holding l = [].
  Proof.
    intros L A. assert (forall x, In x l -> x = WExit) as B.
    { intros x F. apply In_nth_error in F as [i F]. assert (i < P) by (rewrite <- L; apply nth_error_Some; congruence). rewrite A in F by auto. congruence. }
    clear -B. induction l as [|x l IH]; auto. simpl. rewrite (B x) by now left. simpl. apply IH. intros y F. apply B. now right.
  Qed.

  Lemma end_queue_empty a : reach a -> m a = MEnd -> q a = [].
  Proof.
    induction 1 as [|a b R IH St]; [discriminate|].
    destruct St as [[St|[i St]]|St]; destruct St; cbn [m q] in *; intros F; subst; try discriminate; auto; specialize (IH eq_refl); try discriminate.
  Qed.

  (** at the end every pushed task is finished or dropped *)
  Lemma end_all a : reach a -> m a = MEnd -> forall x, cnt x (cmd_pushes prog) = cnt x (finishes (tr a)) + cnt x (drops (tr a)).
  Proof.
    intros R E x. destruct (flow_inv a R) as (I1 & I2 & I3). specialize (I2 x). specialize (I3 x). rewrite E in I1. simpl in I1. rewrite app_nil_r in I1. rewrite <- I1.
    rewrite (end_queue_empty a R E) in I2. change (cnt x []) with 0 in I2.
    destruct (lock_inv a R) as (L0 & _). pose proof (join_inv a R) as J. unfold joininv in J. rewrite E in J.
    rewrite (holding_exit _ L0 J) in I3. change (cnt x []) with 0 in I3. lia.
  Qed.

  (** ** Futures *)
  Definition rest (mm : mst) : list cmd := match mm with MCmd cs | MPushLock cs | MPushNotify cs => cs | _ => [] end.

  Lemma got_inv a : reach a -> exists pre, prog = pre ++ rest (m a) /\ pushes (tr a) = cmd_pushes pre /\ forall t, In (Get t) pre -> In t (finishes (tr a)).
  Proof.
    induction 1 as [|a b R IH St]; [exists []; simpl; repeat split; auto; tauto|].
    destruct IH as (pre & E & F & G).
    assert (pushes_app : forall e1 e2, pushes (e1 ++ e2) = pushes e1 ++ pushes e2) by (intros; apply flat_map_app).
    assert (cp_app : forall e1 e2, cmd_pushes (e1 ++ e2) = cmd_pushes e1 ++ cmd_pushes e2) by (intros; apply flat_map_app).
    destruct St as [[St|[i St]]|St]; destruct St; cbn [m rest tr] in *; rewrite ?pushes_app, ?finishes_app; cbn [pushes finishes flat_map]; rewrite ?app_nil_r; eauto.
    - exists (pre ++ [Push t]). rewrite <- app_assoc, cp_app, F. repeat split; auto. intros t' I. apply in_app_iff in I as [I|[I|[]]]; [auto|discriminate].
    - exists (pre ++ [Get t]). rewrite <- app_assoc, cp_app, F, app_nil_r. repeat split; auto. intros t' I. apply in_app_iff in I as [I|[I|[]]]; [auto|].
      injection I as <-. unfold finishes. apply in_flat_map. exists (EFinish t). split; auto. now left.
    - exists pre. repeat split; auto. intros t' I. apply in_or_app. left. auto.
  Qed.

  Lemma all_got a : reach a -> m a = MEnd -> forall t, In (Get t) prog -> In t (finishes (tr a)).
  Proof. intros R E t I. destruct (got_inv a R) as (pre & Ep & _ & G). rewrite E in Ep. simpl in Ep. rewrite app_nil_r in Ep. subst. auto. Qed.

  Lemma early_no_drop a : reach a -> match m a with MCmd _ | MPushLock _ | MPushNotify _ | MFlags _ => drops (tr a) = [] | _ => True end.
  Proof.
    induction 1 as [|a b R IH St]; [reflexivity|].
    destruct St as [[St|[i St]]|St]; destruct St; cbn [m tr] in *; rewrite ?drops_app; cbn [drops flat_map]; rewrite ?app_nil_r; auto.
  Qed.

  (** ** No deadlock *)
  Definition gets_ok : Prop := forall pre t post, prog = pre ++ Get t :: post -> In t (cmd_pushes pre).

  Lemma holder_steps a : reach a -> mtx a <> None -> exists b, pstep body w a b.
  Proof.
    intros R E. destruct (lock_inv a R) as (L0 & L1 & L2 & L3 & L4). destruct a as [qq l x mm dn fl s e]. cbn [mtx ws m q flags isDone sh tr] in *.
    destruct x as [[i|]|]; [| |congruence].
    - specialize (L4 i eq_refl). destruct (nth_error l i) as [x|] eqn:Ei; [|apply nth_error_None in Ei; lia].
      pose proof (proj2 (L2 i x Ei) eq_refl) as IL. destruct x; try discriminate.
      + destruct qq; eexists; right; exists i; [eapply w_pred_none|eapply w_pred_some]; eauto.
      + destruct (dn || nth i fl false) eqn:D; eexists; right; exists i; [eapply w_pred2_exit|eapply w_pred2_sleep]; eauto.
      + eexists; right; exists i; eapply w_unlock_run; eauto.
      + eexists; right; exists i; eapply w_unlock_exit; eauto.
    - pose proof (proj2 L3 eq_refl) as IL. destruct mm; try discriminate.
      + destruct (in_dec (fun a b : wst => ltac:(decide equality; apply Nat.eq_dec) : {a = b} + {a <> b}) WSleep l) as [F|F].
        * apply In_nth_error in F as [i F]. eexists. left. eapply m_push_notify_one; eauto.
        * eexists. left. eapply m_push_notify_nobody; eauto.
      + eexists. left. eapply m_stop_notify.
  Qed.

  Lemma worker_steps a i x : reach a -> nth_error (ws a) i = Some x -> x <> WSleep -> x <> WExit -> exists b, pstep body w a b.
  Proof.
    intros R E N1 N2. destruct (mtx a) as [h|] eqn:Em; [apply holder_steps; auto; congruence|].
    destruct (lock_inv a R) as (L0 & L1 & L2 & L3 & L4). destruct a as [qq l mx mm dn fl s e]. cbn [mtx ws m q flags isDone sh tr] in *. subst mx.
    destruct x; try congruence; try (pose proof (proj1 (L2 i _ E) eq_refl); discriminate).
    - destruct qq; eexists; right; exists i; [eapply w_pop_none|eapply w_pop_some]; eauto.
    - destruct (nth_error (body t) k) eqn:Ek; eexists; right; exists i; [eapply w_op|eapply w_finish]; eauto.
    - destruct (nth i fl false) eqn:Ef; eexists; right; exists i; [eapply w_flag_set|eapply w_flag_unset]; eauto.
    - eexists; right; exists i. eapply w_lock; eauto.
    - eexists; right; exists i. eapply w_relock; eauto.
  Qed.

  Lemma progress a : reach a -> 1 <= P -> gets_ok -> m a <> MEnd -> exists b, pstep body w a b.
  Proof.
    intros R HP G N. destruct (mtx a) as [h|] eqn:Em; [apply holder_steps; auto; congruence|].
    pose proof (join_inv a R) as J. pose proof (wake_invariant a R) as Wk. destruct (flow_inv a R) as (_ & F2 & F3). pose proof (early_no_drop a R) as D.
    destruct (got_inv a R) as (pre & Ep & Epu & _). destruct (lock_inv a R) as (L0 & L1 & L2 & L3 & L4).
    assert (forall i x, nth_error (ws a) i = Some x -> x <> WSleep -> x <> WExit -> exists b, pstep body w a b) as WS by (intros; eapply worker_steps; eauto).
    destruct a as [qq l mx mm dn fl s e]. cbn [mtx ws m q flags isDone sh tr] in *. subst mx. unfold joininv in J. unfold wakeinv in Wk. cbn [m ws q] in J, Wk.
    destruct mm; cbn [rest] in *; try congruence.
    - destruct cs as [|[t|t] cs].
      + destruct w eqn:Ew; eexists; left; [now eapply m_stop_wait|now eapply m_stop_now].
      + eexists; left; eapply m_push.
      + destruct (in_dec Nat.eq_dec t (finishes e)) as [I|I].
        { eexists. left. eapply m_get. unfold finishes in I. apply in_flat_map in I as (ev & I1 & I2). destruct ev; simpl in I2; try tauto. destruct I2 as [->|[]]. auto. }
        rewrite In_cnt in I. specialize (G _ _ _ Ep). rewrite <- Epu, In_cnt in G. specialize (F2 t). specialize (F3 t). rewrite D in F2. change (cnt t []) with 0 in F2.
        destruct (Nat.eq_dec (cnt t qq) 0) as [Z|Z].
        * assert (1 <= cnt t (holding l)) as Hh by lia. rewrite <- In_cnt in Hh. unfold holding in Hh. apply in_flat_map in Hh as (x & Ix & Ht).
          apply In_nth_error in Ix as [i Ix]. apply (WS i x Ix); destruct x; simpl in Ht; try tauto; discriminate.
        * destruct (Wk _ eq_refl) as (i & x & Ex & Ax); auto. { intros ->. now apply Z. }
          apply (WS i x Ex); destruct x; discriminate.
    - eexists. left. eapply m_push_lock.
    - pose proof (proj1 L3 eq_refl). discriminate.
    - destruct (Nat.lt_ge_cases i (length l)); eexists; left; [eapply m_flags_set|eapply m_flags_end]; eauto.
    - destruct qq; eexists; left; constructor.
    - eexists; left; constructor.
    - eexists; left; constructor.
    - destruct (Nat.lt_ge_cases i (length l)) as [Li|Li]; [|eexists; left; eapply m_join_end; eauto].
      destruct (nth_error l i) as [x|] eqn:Ei; [|apply nth_error_None in Ei; lia]. destruct J as [J1 J2].
      destruct x; try (apply (WS i _ Ei); discriminate).
      + destruct J1. eapply nth_error_In; eauto.
      + eexists. left. eapply m_join; eauto.
    - destruct qq; eexists; left; constructor.
  Qed.

  (** ** Termination *)
  Definition len (t : nat) : nat := length (body t).
  Definition wrank (x : wst) : nat :=
    match x with
    | WUnlockRun t => 11 + len t | WRun t k => 10 + (len t - k) | WFlag => 9 | WPop => 8 | WLock => 7 | WWake => 7 | WPred => 6 | WPred2 => 5
    | WSleep => 3 | WUnlockExit => 1 | WExit => 0
    end.
  Definition nsum (f : nat -> nat) (l : list nat) : nat := list_sum (map f l).
  Definition crank (cs : list cmd) : nat := 7 + 6 * P + list_sum (map (fun c => match c with Push t => 27 + len t | Get _ => 1 end) cs).
  Definition mrank (mm : mst) : nat :=
    match mm with
    | MCmd cs => crank cs | MPushLock cs => 6 + crank cs | MPushNotify cs => 5 + crank cs
    | MFlags i => 6 + 5 * P + (P - i) | MClear => 5 + 5 * P | MStopLock => 4 + 5 * P | MStopNotify => 3 + 5 * P
    | MJoin i => 2 + (P - i) | MClear2 => 1 | MEnd => 0
    end.
  Definition mu (a : st) : nat := mrank (m a) + list_sum (map (fun t => 20 + len t) (q a)) + list_sum (map wrank (ws a)).

  Lemma list_sum_set i x y l : nth_error l i = Some y -> list_sum (map wrank (set_w i x l)) + wrank y = list_sum (map wrank l) + wrank x.
  Proof.
    intros E. destruct (set_w_split i x l y E) as (l1 & l2 & -> & _ & ->). rewrite !map_app, !list_sum_app. simpl. lia.
  Qed.

  Lemma list_sum_wake l : list_sum (map wrank (wake_all l)) <= list_sum (map wrank l) + 4 * length l.
  Proof. unfold wake_all. induction l as [|x l IH]; simpl; auto. destruct x; simpl in *; lia. Qed.

  Lemma list_sum_cons x l : list_sum (x :: l) = x + list_sum l.
  Proof. reflexivity. Qed.

  Lemma mu_decreases a b : reach a -> pstep body w a b -> mu b < mu a.
  Proof.
    intros R St. destruct (lock_inv a R) as (L0 & _). destruct St as [St|[i St]]; destruct St; unfold mu; cbn [m q ws mrank] in *;
      rewrite ?map_app, ?list_sum_app; cbn [map app]; rewrite ?list_sum_cons; change (list_sum []) with 0;
      repeat match goal with H : nth_error _ ?i = Some _ |- context [set_w ?i ?z _] => pose proof (list_sum_set i z _ _ H); clear H end; cbn [wrank] in *;
      unfold crank; cbn [map]; rewrite ?list_sum_cons; try lia.
    - pose proof (list_sum_wake l). lia.
    - assert (i < length l) by (apply nth_error_Some; congruence). lia.
    - assert (k < len t) by (apply nth_error_Some; congruence). lia.
  Qed.

  Lemma spurious_mu a b : spurious a b -> mu b = mu a + 4.
  Proof. intros []. unfold mu. cbn [m q ws]. pose proof (list_sum_set i WWake _ _ H). cbn [wrank] in *. lia. Qed.
End Facts.
