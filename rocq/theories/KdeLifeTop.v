(** Proofs about the histories of KdeLife.v. *)
From Verif Require Import Base Num Cluster ThreadPool ThreadPoolFacts ThreadPoolTop Kde KdeFacts KdeFacts2 KdeFacts3 KdeLife KdeLifeFacts.
From Coq Require Import ZArith Permutation.
Local Open Scope nat_scope.

Section Top.
  Context {W : Type} `{Num W} `{KNum W}.
  Notation point := (@point W).
  Notation heap := (@heap W).
  Notation state := (@state W).

  Lemma hset_eq (h : heap) b v : hset h b v b = v.
  Proof. unfold hset. now rewrite Nat.eqb_refl. Qed.
  Lemma hset_ne (h : heap) b v x : x <> b -> hset h b v x = h x.
  Proof. intros N. unfold hset. now apply Nat.eqb_neq in N as ->. Qed.
  Lemma fset_eq {A} (f : nat -> option A) i v : fset f i v i = v.
  Proof. unfold fset. now rewrite Nat.eqb_refl. Qed.
  Lemma fset_ne {A} (f : nat -> option A) i v x : x <> i -> fset f i v x = f x.
  Proof. intros N. unfold fset. now apply Nat.eqb_neq in N as ->. Qed.

  Lemma free_all_out (h : heap) bs x : ~ In x bs -> free_all h bs x = h x.
  Proof.
    revert h. induction bs as [|b bs IH]; intros h Ni; auto. unfold free_all in *. cbn [fold_left]. rewrite IH by (intros I; apply Ni; now right).
    apply hset_ne. intros ->. apply Ni. now left.
  Qed.
  Lemma free_all_none (h : heap) bs x : h x = None -> free_all h bs x = None.
  Proof.
    revert h. induction bs as [|b bs IH]; intros h Hx; auto. unfold free_all in *. cbn [fold_left]. apply IH. unfold hset. destruct (x =? b); auto.
  Qed.

  Lemma alloc_low (ms : list (list point)) : forall h next x, x < next -> alloc h next ms x = h x.
  Proof. induction ms as [|m ms IH]; intros h next x L; auto. cbn. rewrite IH by lia. apply hset_ne. lia. Qed.
  Lemma alloc_high (ms : list (list point)) : forall h next x, next + length ms <= x -> alloc h next ms x = h x.
  Proof. induction ms as [|m ms IH]; intros h next x L; auto. cbn in *. rewrite IH by lia. apply hset_ne. lia. Qed.
  Lemma alloc_map (ms : list (list point)) : forall h next, map (alloc h next ms) (seq next (length ms)) = map Some ms.
  Proof.
    induction ms as [|m ms IH]; intros h next; auto. cbn [alloc length seq map]. rewrite IH. f_equal. rewrite alloc_low by lia. apply hset_eq.
  Qed.
  Lemma alloc_some (ms : list (list point)) h next x : In x (seq next (length ms)) -> alloc h next ms x <> None.
  Proof.
    intros I E. assert (In None (map Some ms)) as J by (rewrite <- (alloc_map ms h next), <- E; now apply in_map). apply in_map_iff in J as (? & ? & _). discriminate.
  Qed.

  (** ** The invariant of all histories *)
  Record inv (s : state) : Prop := {
    i_fresh : forall b, fresh s <= b -> mem s b = None;
    i_mat : forall v b, mats s v = Some b -> b < fresh s /\ mem s b <> None;
    i_mat_inj : forall v v' b, mats s v = Some b -> mats s v' = Some b -> v = v';
    i_own : forall o b, In b (owned_by (objs s o)) -> b < fresh s /\ mem s b <> None;
    i_sep : forall v o b, mats s v = Some b -> ~ In b (owned_by (objs s o));
    i_uniq : forall o o' b, In b (owned_by (objs s o)) -> In b (owned_by (objs s o')) -> o = o' }.

  Lemma inv_start : inv (@start W).
  Proof. constructor; cbn; auto; discriminate || (intros; contradiction). Qed.

  Ltac fs := repeat match goal with
    | Hx : context [fset _ ?i _ ?j] |- _ => unfold fset in Hx
    | |- context [fset _ ?i _ ?j] => unfold fset
    end.

  Lemma inv_mat_change s v bo rows (I : inv s) : (mats s v = None \/ mats s v = Some bo) -> (forall b, mats s v = Some b -> b = bo) ->
    inv (mkS (hset (match mats s v with Some b => hset (mem s) b None | None => mem s end) (fresh s) (Some rows)) (S (fresh s)) (fset (mats s) v (Some (fresh s))) (objs s)).
  Proof.
    intros _ _. destruct I as [I1 I2 I3 I4 I5 I6].
    set (h1 := match mats s v with Some b => hset (mem s) b None | None => mem s end).
    assert (forall b, mats s v <> Some b -> h1 b = mem s b) as Hh.
    { intros b N. unfold h1. destruct (mats s v) as [b'|]; auto. apply hset_ne. congruence. }
    constructor; cbn [mem fresh mats objs].
    - intros b L. rewrite hset_ne by lia. unfold h1. destruct (mats s v) as [b'|]; [|apply I1; lia]. unfold hset. destruct (b =? b'); auto. apply I1; lia.
    - intros v' b E. fs. destruct (Nat.eqb_spec v' v) as [->|N].
      + injection E as <-. rewrite hset_eq. split; [lia|discriminate].
      + destruct (I2 _ _ E). split; [lia|]. rewrite hset_ne by lia. rewrite Hh; auto. intros E'. apply N. eapply I3; eauto.
    - intros v1 v2 b E1 E2. fs. destruct (Nat.eqb_spec v1 v), (Nat.eqb_spec v2 v); subst; auto.
      + injection E1 as <-. destruct (I2 _ _ E2). lia.
      + injection E2 as <-. destruct (I2 _ _ E1). lia.
      + eapply I3; eauto.
    - intros o b Ib. destruct (I4 _ _ Ib). split; [lia|]. rewrite hset_ne by lia. rewrite Hh; auto. intros E. eapply I5; eauto.
    - intros v' o b E. fs. destruct (Nat.eqb_spec v' v) as [->|N]; [|eauto]. injection E as <-. intros Ib. destruct (I4 _ _ Ib). lia.
    - eauto.
  Qed.

  Lemma inv_step s e s' : inv s -> step s e s' -> inv s'.
  Proof.
    intros I St. destruct St.
    - pose proof (inv_mat_change s v 0 rows I) as J. rewrite H1 in J. apply J; auto; discriminate.
    - destruct I as [I1 I2 I3 I4 I5 I6]. constructor; cbn [mem fresh mats objs]; auto.
      + intros b' L. rewrite hset_ne; auto. destruct (I2 _ _ H1). lia.
      + intros v' b' E. destruct (I2 _ _ E). split; auto. unfold hset. destruct (b' =? b); auto. discriminate.
      + intros o b' Ib. destruct (I4 _ _ Ib). split; auto. unfold hset. destruct (b' =? b); auto. discriminate.
    - pose proof (inv_mat_change s v b rows I) as J. rewrite H1 in J. apply J; auto. congruence.
    - destruct I as [I1 I2 I3 I4 I5 I6]. constructor; cbn [mem fresh mats objs]; auto.
      + intros b' L. unfold hset. destruct (b' =? b); auto.
      + intros v' b' E. fs. destruct (Nat.eqb_spec v' v) as [->|N]; [discriminate|]. destruct (I2 _ _ E). split; auto. rewrite hset_ne; auto. intros ->. apply N. eapply I3; eauto.
      + intros v1 v2 b' E1 E2. fs. destruct (v1 =? v), (v2 =? v); try discriminate. eauto.
      + intros o b' Ib. destruct (I4 _ _ Ib). split; auto. rewrite hset_ne; auto. intros ->. eapply I5; eauto.
      + intros v' o b' E. fs. destruct (v' =? v); [discriminate|]. eauto.
    - destruct I as [I1 I2 I3 I4 I5 I6]. constructor; cbn [mem fresh mats objs]; auto.
      + intros o' b' Ib. fs. destruct (o' =? o); [destruct Ib|eauto].
      + intros v' o' b' E Ib. fs. destruct (o' =? o); [destruct Ib|]. eapply I5; eauto.
      + intros o1 o2 b' Ib1 Ib2. fs. destruct (o1 =? o), (o2 =? o); try destruct Ib1; try destruct Ib2. eauto.
    - destruct I as [I1 I2 I3 I4 I5 I6]. constructor; cbn [mem fresh mats objs]; auto.
      + intros o' b' Ib. fs. destruct (o' =? o); [destruct Ib|eauto].
      + intros v' o' b' E Ib. fs. destruct (o' =? o); [destruct Ib|]. eapply I5; eauto.
      + intros o1 o2 b' Ib1 Ib2. fs. destruct (o1 =? o), (o2 =? o); try destruct Ib1; try destruct Ib2. eauto.
    - destruct I as [I1 I2 I3 I4 I5 I6]. constructor; cbn [mem fresh mats objs]; auto.
      + intros b' L. rewrite alloc_high by lia. apply I1. lia.
      + intros v' b' E. destruct (I2 _ _ E). split; [lia|]. rewrite alloc_low by lia. auto.
      + intros o' b' Ib. fs. destruct (o' =? o).
        * cbn [owned_by] in Ib. split; [apply in_seq in Ib; lia|now apply alloc_some].
        * destruct (I4 _ _ Ib). split; [lia|]. rewrite alloc_low by lia. auto.
      + intros v' o' b' E Ib. fs. destruct (o' =? o); [|eapply I5; eauto]. cbn [owned_by] in Ib. apply in_seq in Ib. destruct (I2 _ _ E). lia.
      + intros o1 o2 b' Ib1 Ib2. fs. destruct (Nat.eqb_spec o1 o), (Nat.eqb_spec o2 o); subst; auto.
        * cbn [owned_by] in Ib1. apply in_seq in Ib1. destruct (I4 _ _ Ib2). lia.
        * cbn [owned_by] in Ib2. apply in_seq in Ib2. destruct (I4 _ _ Ib1). lia.
        * eauto.
    - destruct I as [I1 I2 I3 I4 I5 I6].
      assert (forall b', In b' (owned_by (Some match x with OCkns _ k => OCkns (seq (fresh s) (length ms)) k | _ => x end)) -> In b' (seq (fresh s) (length ms))) as Ho.
      { intros b'. destruct x; cbn; auto; contradiction. }
      constructor; cbn [mem fresh mats objs]; auto.
      + intros b' L. rewrite alloc_high by lia. apply I1. lia.
      + intros v' b' E. destruct (I2 _ _ E). split; [lia|]. rewrite alloc_low by lia. auto.
      + intros o2 b' Ib. fs. destruct (o2 =? o').
        * apply Ho in Ib. split; [apply in_seq in Ib; lia|now apply alloc_some].
        * destruct (I4 _ _ Ib). split; [lia|]. rewrite alloc_low by lia. auto.
      + intros v' o2 b' E Ib. fs. destruct (o2 =? o'); [|eapply I5; eauto]. apply Ho in Ib. apply in_seq in Ib. destruct (I2 _ _ E). lia.
      + intros o1 o2 b' Ib1 Ib2. fs. destruct (Nat.eqb_spec o1 o'), (Nat.eqb_spec o2 o'); subst; auto.
        * apply Ho in Ib1. apply in_seq in Ib1. destruct (I4 _ _ Ib2). lia.
        * apply Ho in Ib2. apply in_seq in Ib2. destruct (I4 _ _ Ib1). lia.
        * eauto.
    - destruct I as [I1 I2 I3 I4 I5 I6].
      assert (owned_by (Some (moved_from x)) = []) as Em by (destruct x; reflexivity).
      constructor; cbn [mem fresh mats objs]; auto.
      + intros b' L. apply free_all_none. auto.
      + intros v' b' E. destruct (I2 _ _ E). split; auto. rewrite free_all_out; eauto.
      + intros o2 b' Ib. fs. destruct (Nat.eqb_spec o2 o') as [->|N1]; [|destruct (Nat.eqb_spec o2 o) as [->|N2]].
        * rewrite <- H2 in Ib. destruct (I4 _ _ Ib). split; auto. rewrite free_all_out; auto. intros J. apply H1. eapply I6; eauto.
        * rewrite Em in Ib. destruct Ib.
        * destruct (I4 _ _ Ib). split; auto. rewrite free_all_out; auto. intros J. apply N1. eapply I6; eauto.
      + intros v' o2 b' E Ib. fs. destruct (o2 =? o'); [rewrite <- H2 in Ib; eapply I5; eauto|]. destruct (o2 =? o); [rewrite Em in Ib; destruct Ib|eapply I5; eauto].
      + intros o1 o2 b' Ib1 Ib2. fs. destruct (Nat.eqb_spec o1 o'), (Nat.eqb_spec o2 o'); subst; auto.
        * rewrite <- H2 in Ib1. destruct (Nat.eqb_spec o2 o) as [->|N2]; [rewrite Em in Ib2; destruct Ib2|]. exfalso. apply N2. eapply I6; eauto.
        * rewrite <- H2 in Ib2. destruct (Nat.eqb_spec o1 o) as [->|N2]; [rewrite Em in Ib1; destruct Ib1|]. exfalso. apply N2. eapply I6; eauto.
        * destruct (o1 =? o); [rewrite Em in Ib1; destruct Ib1|]. destruct (o2 =? o); [rewrite Em in Ib2; destruct Ib2|]. eauto.
    - destruct I as [I1 I2 I3 I4 I5 I6]. constructor; cbn [mem fresh mats objs]; auto.
      + intros b' L. apply free_all_none. auto.
      + intros v' b' E. destruct (I2 _ _ E). split; auto. rewrite free_all_out; auto. rewrite <- H1. eauto.
      + intros o2 b' Ib. fs. destruct (Nat.eqb_spec o2 o) as [->|N]; [destruct Ib|]. destruct (I4 _ _ Ib). split; auto. rewrite free_all_out; auto.
        rewrite <- H1. intros J. apply N. eapply I6; eauto.
      + intros v' o2 b' E Ib. fs. destruct (o2 =? o); [destruct Ib|]. eapply I5; eauto.
      + intros o1 o2 b' Ib1 Ib2. fs. destruct (o1 =? o), (o2 =? o); try destruct Ib1; try destruct Ib2. eauto.
  Qed.

  Lemma inv_steps s l s' : inv s -> steps s l s' -> inv s'.
  Proof. intros I St. revert I. induction St; auto. intros I. apply IHSt. eapply inv_step; eauto. Qed.

  (** ** The holder keeps its object and its storage *)
  Lemma keep_step s e s' o o' x : inv s -> step s e s' -> objs s o = Some x -> holder1 (Some o) e = Some o' ->
    objs s' o' = Some x /\ forall b, In b (owned_by (Some x)) -> mem s' b = mem s b.
  Proof.
    intros [I1 I2 I3 I4 I5 I6] St Eo Eh.
    assert (forall b, In b (owned_by (Some x)) -> b < fresh s) as Lt by (intros b Ib; rewrite <- Eo in Ib; now destruct (I4 _ _ Ib)).
    assert (forall b v, mats s v = Some b -> ~ In b (owned_by (Some x))) as Sp by (intros b v E; rewrite <- Eo; eauto).
    destruct St; cbn [holder1] in Eh; cbn [mem objs].
    - injection Eh as <-. split; auto. intros b Ib. apply hset_ne. specialize (Lt _ Ib). lia.
    - injection Eh as <-. split; auto. intros b' Ib. apply hset_ne. intros ->. eapply Sp; eauto.
    - injection Eh as <-. split; auto. intros b' Ib. rewrite hset_ne by (specialize (Lt _ Ib); lia). apply hset_ne. intros ->. eapply Sp; eauto.
    - injection Eh as <-. split; auto. intros b' Ib. apply hset_ne. intros ->. eapply Sp; eauto.
    - injection Eh as <-. split; auto. rewrite fset_ne; auto. congruence.
    - injection Eh as <-. split; auto. rewrite fset_ne; auto. congruence.
    - injection Eh as <-. split; [rewrite fset_ne; auto; congruence|]. intros b' Ib. apply alloc_low. auto.
    - injection Eh as <-. split; [rewrite fset_ne; auto; congruence|]. intros b' Ib. apply alloc_low. auto.
    - destruct (Nat.eqb_spec o0 o) as [->|N1].
      + injection Eh as ->. rewrite fset_eq. split; [congruence|]. intros b' Ib. apply free_all_out. intros J. apply H1. eapply I6; eauto. now rewrite Eo.
      + destruct (Nat.eqb_spec o'0 o) as [->|N2]; [discriminate|]. injection Eh as <-. rewrite !fset_ne by auto. split; auto.
        intros b' Ib. apply free_all_out. intros J. apply N2. eapply I6; eauto. now rewrite Eo.
    - destruct (Nat.eqb_spec o0 o) as [->|N1]; [discriminate|]. injection Eh as <-. rewrite fset_ne by auto. split; auto.
      intros b' Ib. apply free_all_out. rewrite <- H1. intros J. apply N1. eapply I6; eauto. now rewrite Eo.
  Qed.

  Lemma holder_none hist : fold_left (holder1 (W := W)) hist None = (None : option nat).
  Proof. induction hist as [|e hist IH]; auto. Qed.

  Lemma keep_steps s hist s' : steps s hist s' -> forall o p x, inv s -> objs s o = Some x -> holder (W := W) hist o = Some p ->
    objs s' p = Some x /\ forall b, In b (owned_by (Some x)) -> mem s' b = mem s b.
  Proof.
    induction 1 as [|s e s1 l s2 St Sts IH]; intros o p x I Eo Eh.
    - injection Eh as <-. auto.
    - unfold holder in Eh. cbn [fold_left] in Eh. fold (holder1 (Some o) e) in Eh. destruct (holder1 (Some o) e) as [o1|] eqn:E1.
      + destruct (keep_step _ _ _ _ _ _ I St Eo E1) as [A B]. destruct (IH o1 p x (inv_step _ _ _ I St) A Eh) as [A' B']. split; auto.
        intros b Ib. rewrite B', B; auto.
      + rewrite holder_none in Eh. discriminate.
  Qed.

  (** ** All objects that hold it or a copy have the same pointers *)
  Definition view (x : option obj) : option (@obj W) := match x with Some (OCkns _ k) => Some (OCkns [] k) | _ => x end.

  Lemma query_view (s : state) p p' q : view (objs s p) = view (objs s p') -> query s p q = query s p' q.
  Proof. unfold query, view. destruct (objs s p) as [[| |]|], (objs s p') as [[| |]|]; intros [=]; subst; auto. Qed.

  Lemma existsb_eqb x l : existsb (Nat.eqb x) l = true <-> In x l.
  Proof. rewrite existsb_exists. split; [intros (y & Iy & E); apply Nat.eqb_eq in E as ->; auto|intros I; exists x; split; auto; apply Nat.eqb_refl]. Qed.

  Lemma views_step s e s' l x : step s e s' -> x <> None -> (forall p, In p l -> view (objs s p) = x) -> forall p, In p (holders1 l e) -> view (objs s' p) = x.
  Proof.
    intros St Nx A.
    assert (forall p, In p l -> objs s p <> None) as Al by (intros p Ip E; specialize (A p Ip); rewrite E in A; now apply Nx).
    destruct St; cbn [holders1 objs]; auto; intros p Ip.
    - rewrite fset_ne; auto. intros ->. now apply (Al o).
    - rewrite fset_ne; auto. intros ->. now apply (Al o).
    - rewrite fset_ne; auto. intros ->. now apply (Al o).
    - destruct (Nat.eq_dec p o') as [->|N].
      + rewrite fset_eq. destruct (existsb (Nat.eqb o) l) eqn:E.
        * apply existsb_eqb in E. rewrite <- (A o E), H1. destruct x0; reflexivity.
        * exfalso. now apply (Al o').
      + rewrite fset_ne by auto. apply A. destruct (existsb _ _); auto. destruct Ip as [<-|]; [congruence|auto].
    - assert (In p (filter (fun z => negb (z =? o) && negb (z =? o')) l) -> view (fset (fset (objs s) o (Some (moved_from x0))) o' (Some x0) p) = x) as B.
      { intros J. apply filter_In in J as [J1 J2]. apply andb_prop in J2 as [J2 J3]. apply negb_true_iff in J2, J3. apply Nat.eqb_neq in J2, J3. rewrite !fset_ne by auto. auto. }
      destruct (existsb (Nat.eqb o) l) eqn:E; auto. destruct Ip as [<-|Ip]; auto. rewrite fset_eq. apply existsb_eqb in E. rewrite <- (A o E), H2. reflexivity.
    - apply filter_In in Ip as [J1 J2]. apply negb_true_iff in J2. apply Nat.eqb_neq in J2. rewrite fset_ne by auto. auto.
  Qed.

  Lemma views_steps s hist s' : steps s hist s' -> forall l x, x <> None -> (forall p, In p l -> view (objs s p) = x) ->
    forall p, In p (fold_left holders1 hist l) -> view (objs s' p) = x.
  Proof.
    induction 1 as [|s e s1 l0 s2 St Sts IH]; intros l x Nx A p Ip; auto. cbn [fold_left] in Ip. eapply IH; [exact Nx| |exact Ip]. eapply views_step; eauto.
  Qed.

  Lemma holder_in_holders hist : forall o p l, In o l -> fold_left holder1 hist (Some o) = Some p -> In p (fold_left (holders1 (W := W)) hist l).
  Proof.
    induction hist as [|e hist IH]; intros o p l Io E; [injection E as <-; auto|]. cbn [fold_left] in E |- *.
    assert (forall o', holder1 (Some o) e = Some o' -> In o' (holders1 l e)) as A.
    { intros o' E'. destruct e; cbn [holder1 holders1] in *; try (injection E' as <-; auto; fail).
      - injection E' as <-. destruct (existsb _ _); auto. now right.
      - destruct (Nat.eqb_spec o0 o) as [->|N1].
        + injection E' as <-. assert (existsb (Nat.eqb o) l = true) as -> by (now apply existsb_eqb). now left.
        + destruct (Nat.eqb_spec o'0 o) as [->|N2]; [discriminate|]. injection E' as <-.
          assert (In o (filter (fun z => negb (z =? o0) && negb (z =? o'0)) l)) as J.
          { apply filter_In. split; auto. apply andb_true_intro. split; apply negb_true_iff, Nat.eqb_neq; auto. }
          destruct (existsb _ _); auto. now right.
      - destruct (Nat.eqb_spec o0 o) as [->|N1]; [discriminate|]. injection E' as <-. apply filter_In. split; auto. apply negb_true_iff, Nat.eqb_neq; auto. }
    destruct (holder1 (Some o) e) as [o'|] eqn:E1; [|rewrite holder_none in E; discriminate]. eapply IH; eauto.
  Qed.

  (** ** CKNS estimators *)
  Lemma slice_length {A} (l : list A) lo hi : lo <= hi <= length l -> length (slice l lo hi) = hi - lo.
  Proof. intros L. unfold slice. rewrite firstn_length, skipn_length. lia. Qed.

  Theorem ckns_value h0 s0 o v T a min_mu offset lo hi copies hs s1 : sampling_inside (W := W) (hi - lo) ->
    steps (@start W) h0 s0 -> step s0 (NewCkns o v T a min_mu offset lo hi copies hs) s1 ->
    exists rows k, contents s0 v = Some rows /\ lo < hi <= length rows /\ Forall (Permutation (slice rows lo hi)) copies /\
      ckns_init T a min_mu copies (Z.of_nat (hi - lo)) offset hs k /\
      forall hist s2 p0 p q, steps s1 hist s2 -> holder hist o = Some p0 -> In p (holders hist o) -> query s2 p q = ckns_query k q.
  Proof.
    intros Hin St0 St1. pose proof (inv_steps _ _ _ inv_start St0) as I0. pose proof (inv_step _ _ _ I0 St1) as I1. inversion St1; subst.
    destruct (pckns_ok T (alloc (mem s0) (fresh s0) copies) a min_mu (seq (fresh s0) (length copies)) copies (hi - lo) offset hs k) as (k' & Ik & Q); auto.
    - eapply Forall_impl; [|eassumption]. intros c Pc. apply Permutation_length in Pc. rewrite <- Pc. apply slice_length. lia.
    - apply alloc_map.
    - exists rows, k'. repeat match goal with |- _ /\ _ => split end; auto; try lia.
      { unfold contents. now match goal with E : mats s0 v = Some _ |- _ => rewrite E end. }
      intros hist s2 p0 p q St Eh Ip. set (x := OCkns (seq (fresh s0) (length copies)) k) in *.
      assert (objs (mkS (alloc (mem s0) (fresh s0) copies) (fresh s0 + length copies) (mats s0) (fset (objs s0) o (Some x))) o = Some x) as Eo by (cbn; apply fset_eq).
      destruct (keep_steps _ _ _ St _ _ _ I1 Eo Eh) as [Ep Em]. cbn [owned_by x] in Em.
      assert (view (objs s2 p) = view (Some x)) as Ev.
      { eapply (views_steps _ _ _ St [o]); [discriminate| |exact Ip]. intros ? [<-|[]]. now rewrite Eo. }
      unfold query. unfold view, x in Ev. destruct (objs s2 p) as [[| |ow kk]|]; try discriminate. injection Ev as ->. apply Q.
      rewrite <- (alloc_map copies (mem s0) (fresh s0)). apply map_ext_in. intros b2 Ib. now apply Em.
  Qed.

  (** ** Matrices *)
  Lemma mat_keep_step s e s' v b rows : inv s -> step s e s' -> mats s v = Some b -> mem s b = Some rows -> keeps_storage v e = true ->
    mats s' v = Some b /\ exists rows', mem s' b = Some rows' /\ length rows' = length rows.
  Proof.
    intros [I1 I2 I3 I4 I5 I6] St Ev Eb K. destruct (I2 _ _ Ev) as [Lb _].
    destruct St; cbn [keeps_storage] in K; cbn [mats mem]; eauto.
    - assert (v0 <> v) by congruence. rewrite fset_ne by auto. split; auto. rewrite hset_ne by lia. eauto.
    - split; auto. destruct (Nat.eq_dec b b0) as [<-|N].
      + rewrite hset_eq. eexists. split; [reflexivity|]. rewrite upd_nth_length. congruence.
      + rewrite hset_ne by auto. eauto.
    - apply negb_true_iff, Nat.eqb_neq in K. rewrite fset_ne by auto. split; auto. rewrite hset_ne by lia. rewrite hset_ne; eauto. intros <-. apply K. eapply I3; eauto.
    - apply negb_true_iff, Nat.eqb_neq in K. rewrite fset_ne by auto. split; auto. rewrite hset_ne; eauto. intros <-. apply K. eapply I3; eauto.
    - rewrite alloc_low by auto. eauto.
    - rewrite alloc_low by auto. eauto.
    - rewrite free_all_out by eauto. eauto.
    - rewrite free_all_out; eauto. rewrite <- H1. eauto.
  Qed.

  Lemma freed_step s e s' b : inv s -> step s e s' -> b < fresh s -> mem s b = None -> b < fresh s' /\ mem s' b = None.
  Proof.
    intros I St Lb Eb. destruct St; cbn [fresh mem]; try (split; [lia|]); auto.
    - rewrite hset_ne by lia. auto.
    - rewrite hset_ne; auto. congruence.
    - rewrite hset_ne by lia. unfold hset. destruct (b =? b0); auto.
    - unfold hset. destruct (b =? b0); auto.
    - rewrite alloc_low by lia. auto.
    - rewrite alloc_low by lia. auto.
    - apply free_all_none; auto.
    - apply free_all_none; auto.
  Qed.

  Lemma freed_steps s hist s' b : steps s hist s' -> inv s -> b < fresh s -> mem s b = None -> mem s' b = None.
  Proof.
    induction 1 as [|s e s1 l s2 St Sts IH]; intros I Lb Eb; auto. destruct (freed_step _ _ _ _ I St Lb Eb). apply IH; auto. eapply inv_step; eauto.
  Qed.

  Lemma mat_steps s hist s' : steps s hist s' -> forall v b rows, inv s -> mats s v = Some b -> mem s b = Some rows ->
    if forallb (keeps_storage v) hist then mats s' v = Some b /\ exists rows', mem s' b = Some rows' /\ length rows' = length rows else mem s' b = None.
  Proof.
    induction 1 as [|s e s1 l s2 St Sts IH]; intros v b rows I Ev Eb; cbn [forallb]; eauto.
    destruct (keeps_storage v e) eqn:K; cbn [andb].
    - destruct (mat_keep_step _ _ _ _ _ _ I St Ev Eb K) as (Ev' & rows' & Eb' & El). specialize (IH v b rows' (inv_step _ _ _ I St) Ev' Eb'). rewrite El in IH. exact IH.
    - pose proof (inv_step _ _ _ I St) as I'. pose proof (i_mat _ I _ _ Ev) as [Lb _]. eapply freed_steps; [exact Sts|exact I'| |];
        destruct St; cbn [keeps_storage] in K; try discriminate; apply negb_false_iff, Nat.eqb_eq in K; subst; rewrite Ev in H1; injection H1 as <-; cbn [fresh mem]; try lia.
      + rewrite hset_ne by lia. apply hset_eq.
      + apply hset_eq.
  Qed.

  (** ** Exact estimators *)
  Theorem exact_current h0 s0 o v a lo hi s1 : steps (@start W) h0 s0 -> step s0 (NewExact o v a lo hi) s1 ->
    forall hist s2 p q, steps s1 hist s2 -> In p (holders hist o) ->
      if forallb (keeps_storage v) hist
      then exists rows, contents s2 v = Some rows /\ hi <= length rows /\ query s2 p q = Ok (exact_query (exact_kde_range rows a lo hi) q)
      else lo < hi -> query s2 p q = UB.
  Proof.
    intros St0 St1 hist s2 p q St Ip. pose proof (inv_steps _ _ _ inv_start St0) as I0. pose proof (inv_step _ _ _ I0 St1) as I1. inversion St1; subst.
    assert (view (objs s2 p) = view (Some (OExact a (map (fun i => (b, i)) (seq lo (hi - lo)))))) as Ev.
    { eapply (views_steps _ _ _ St [o]); [discriminate| |exact Ip]. intros ? [<-|[]]. cbn [objs]. now rewrite fset_eq. }
    pose proof (mat_steps _ _ _ St v b rows I1) as M. cbn [mats mem] in M. specialize (M ltac:(assumption) ltac:(assumption)).
    unfold query. unfold view in Ev. destruct (objs s2 p) as [[a' ps| |]|]; try discriminate. injection Ev as -> ->.
    destruct (forallb _ _).
    - destruct M as (Em & rows' & Eb & El). exists rows'. unfold contents. rewrite Em. split; auto. split; [lia|].
      rewrite (load_all_rows _ _ rows') by (auto; intros i Hi; apply in_seq in Hi; lia). cbn [obind]. reflexivity.
    - intros L. rewrite load_all_freed; auto. intros E. apply (f_equal (@length _)) in E. rewrite seq_length in E. cbn in E. lia.
  Qed.

  (** ** E2LSH *)
  Theorem lsh_as_built h0 s0 o v hs s1 : steps (@start W) h0 s0 -> step s0 (NewLsh o v hs) s1 ->
    exists b rows, mats s0 v = Some b /\ contents s0 v = Some rows /\
    forall hist s2 p q, steps s1 hist s2 -> In p (holders hist o) ->
      let found := near_indices (e2lsh_new hs rows) q in
      near s2 p q = Ok (map (fun i => (b, i)) found) /\
      if forallb (keeps_storage v) hist
      then exists rows', contents s2 v = Some rows' /\ length rows' = length rows /\ load_all (mem s2) (map (fun i => (b, i)) found) = Ok (map (fun i => nth i rows' []) found)
      else found <> [] -> load_all (mem s2) (map (fun i => (b, i)) found) = UB.
  Proof.
    intros St0 St1. pose proof (inv_steps _ _ _ inv_start St0) as I0. pose proof (inv_step _ _ _ I0 St1) as I1. inversion St1; subst.
    exists b, rows. split; auto. split; [unfold contents; now match goal with E : mats s0 v = Some _ |- _ => rewrite E end|]. intros hist s2 p q St Ip found.
    assert (view (objs s2 p) = view (Some (OLsh e))) as Ev.
    { eapply (views_steps _ _ _ St [o]); [discriminate| |exact Ip]. intros ? [<-|[]]. cbn [objs]. now rewrite fset_eq. }
    assert (forall i, In i found -> i < length rows) as Hf by (intros i Hi; apply (proj2 (near_spec hs rows q)) in Hi; tauto).
    split.
    - unfold near. unfold view in Ev. destruct (objs s2 p) as [[|e'|]|]; try discriminate. injection Ev as ->.
      match goal with E : plsh_new _ _ _ = Ok _ |- _ => rename E into H9 end. unfold plsh_new in H9. rewrite (load_all_rows _ _ rows) in H9 by (auto; intros i Hi; apply in_seq in Hi; lia). cbn [obind] in H9.
      assert (map (fun i => nth i rows []) (seq 0 (length rows)) = rows) as Er.
      { apply (nth_ext _ _ [] []); [now rewrite map_length, seq_length|]. intros i Li. rewrite map_length, seq_length in Li.
        rewrite (nth_indep _ [] (nth 0 rows [])) by (now rewrite map_length, seq_length). rewrite (map_nth (fun i => nth i rows [])). now rewrite seq_nth. }
      rewrite Er in H9. remember (e_tables (e2lsh_new hs rows)) as tabs eqn:Et. injection H9 as <-. unfold plsh_near. cbn [pl_hash pl_L pl_points pl_tables]. rewrite Nat.ltb_irrefl, Et.
      rewrite near_tables. fold found. rewrite pick_map by (intros i Hi; rewrite seq_length; auto). f_equal. apply map_ext_in. intros i Hi. rewrite seq_nth by auto. reflexivity.
    - pose proof (mat_steps _ _ _ St v b rows I1) as M. cbn [mats mem] in M. specialize (M ltac:(assumption) ltac:(assumption)).
      destruct (forallb _ _).
      + destruct M as (Em & rows' & Eb & El). exists rows'. unfold contents. rewrite Em. split; auto. split; auto. apply load_all_rows; auto. intros i Hi. rewrite El. auto.
      + intros N. apply load_all_freed; auto.
  Qed.

  (** ** Moved-from estimators *)
  Theorem moved_from_ub h0 s0 o o' s1 : steps (@start W) h0 s0 -> step s0 (Move o o') s1 ->
    forall ow k, objs s0 o = Some (OCkns ow k) -> 1 <= pc_iters k -> 1 <= pc_k1 k -> (0 <= ckns_J (pc_n k) (pc_max k))%Z ->
    forall q, query s1 o q = UB.
  Proof.
    intros _ St1 ow k Eo Hi Hk HJ q. inversion St1; subst. unfold query. cbn [objs]. rewrite fset_ne by auto. rewrite fset_eq.
    assert (x = OCkns ow k) as -> by congruence. cbn [moved_from]. unfold pc_query. cbn [pc_iters].
    destruct (pc_iters k) as [|its]; [lia|]. cbn [seq pc_query_loop pc_k1]. destruct (pc_k1 k) as [|k1]; [lia|]. cbn [seq map sequence].
    unfold pc_estimate at 1. unfold pc_log_nmu. cbn [pc_n pc_max]. replace (pc_max k - Z.of_nat 0 * 2)%Z with (pc_max k) by lia.
    replace (Z.to_nat (ckns_J (pc_n k) (pc_max k) + 1)) with (S (Z.to_nat (ckns_J (pc_n k) (pc_max k)))) by lia. cbn [seq fold_left obind]. unfold pc_unit_query at 2. cbn [pc_units nth_error obind].
    assert (forall (l : list nat) (f : nat -> outcome W), fold_left (fun s j => do s <- s; do v <- f j; Ok (wadd s v)) l UB = UB) as A by (intros l f; induction l; auto).
    rewrite A. reflexivity.
  Qed.
End Top.
