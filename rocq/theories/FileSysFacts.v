(** Generic facts about programs acting on a disk (FileSys.v). *)
From Verif Require Import Base Num Sparse Graph Cluster Text TextFacts GraphIO RandomGraph Data FileSys.
From Coq Require Import Ascii String List FunctionalExtensionality.
Import ListNotations.
Local Open Scope nat_scope.
Local Open Scope list_scope.

(** ** Specification vocabulary *)
(** The disk [d'] is [d] except that the file [f] now exists and contains [t]. *)
Definition only_wrote (d d' : disk) (f : name) (t : text) : Prop := d' f = Some t /\ forall g, g <> f -> d' g = d g.
Definition unchanged (d d' : disk) : Prop := forall g, d' g = d g.
(** [a] is an initial part of [b]. *)
Definition initial_part (a b : text) : Prop := exists r, b = a ++ r.

(** ** Disks *)
Lemma upd_same d f o : upd d f o f = o.
Proof. unfold upd. destruct (name_eq_dec f f); congruence. Qed.
Lemma upd_other d f o g : g <> f -> upd d f o g = d g.
Proof. unfold upd. destruct (name_eq_dec g f); congruence. Qed.
Lemma upd_upd d f o o' : upd (upd d f o) f o' = upd d f o'.
Proof. extensionality g. unfold upd. now destruct (name_eq_dec g f). Qed.
Lemma upd_id d f o : d f = o -> upd d f o = d.
Proof. intros E. extensionality g. unfold upd. destruct (name_eq_dec g f); congruence. Qed.
Lemma upd_swap d f g o o' : f <> g -> upd (upd d f o) g o' = upd (upd d g o') f o.
Proof. intros Hn. extensionality h. unfold upd. destruct (name_eq_dec h f), (name_eq_dec h g); congruence. Qed.
Lemma only_wrote_upd d f t : only_wrote d (upd d f (Some t)) f t.
Proof. split; [apply upd_same|]. intros g Hg. now apply upd_other. Qed.
Lemma initial_part_refl t : initial_part t t.
Proof. exists []. now rewrite app_nil_r. Qed.
Lemma initial_part_app a b : initial_part a (a ++ b).
Proof. now exists b. Qed.

(** ** Execution *)
Lemma exec_write {A} f t (k : io A) d s : d f = Some s -> exec (write f t k) d = exec k (upd d f (Some (s ++ t))).
Proof.
  revert d s; induction t as [|c t IH]; intros d s E; unfold write; cbn [fold_right].
  - rewrite app_nil_r, upd_id by auto. reflexivity.
  - fold (write f t k). cbn [exec act]. rewrite E. rewrite (IH _ (s ++ [c])) by apply upd_same. now rewrite upd_upd, <- app_assoc.
Qed.
Lemma exec_ibind {A B} (p : io A) (q : A -> io B) d :
  exec (ibind p q) d =
  match exec p d with
  | (d', Some (Ok a)) => exec (q a) d'
  | (d', Some (Throw e)) => (d', Some (Throw e))
  | (d', Some UB) => (d', Some UB)
  | (d', None) => (d', None)
  end.
Proof.
  revert d; induction p as [[[a|e|]|]|f k IH|a k IH]; intros d; cbn [ibind exec]; auto.
Qed.

(** ** Crashes *)
Lemma exec_crashes {A} (p : io A) d : crashes p d (fst (exec p d)).
Proof. revert d; induction p as [r|f k IH|a k IH]; intros d; cbn [exec]; constructor; auto. Qed.
Lemma crashes_done {A} (r : option (outcome A)) d d' : crashes (Done r) d d' -> d' = d.
Proof. inversion 1; auto. Qed.
Lemma crashes_read {A} f (k : option text -> io A) d d' : crashes (Read f k) d d' -> crashes (k (d f)) d d'.
Proof. inversion 1; subst; auto. constructor. Qed.
Lemma crashes_act {A} a (k : io A) d d' : crashes (Act a k) d d' -> d' = d \/ crashes k (act a d) d'.
Proof. inversion 1; subst; auto. Qed.
Lemma crashes_write {A} f t (k : io A) d d' s : d f = Some s -> crashes (write f t k) d d' ->
  (exists t1 t2, t = t1 ++ t2 /\ d' = upd d f (Some (s ++ t1))) \/ crashes k (upd d f (Some (s ++ t))) d'.
Proof.
  revert d s; induction t as [|c t IH]; intros d s E; unfold write; cbn [fold_right].
  - intros Hc. right. rewrite app_nil_r, upd_id by auto. exact Hc.
  - fold (write f t k). intros Hc. apply crashes_act in Hc. destruct Hc as [->|Hc].
    + left. exists [], (c :: t). split; auto. now rewrite app_nil_r, upd_id.
    + cbn [act] in Hc. rewrite E in Hc. apply (IH _ (s ++ [c])) in Hc; [|apply upd_same]. rewrite upd_upd, <- app_assoc in Hc.
      destruct Hc as [(t1 & t2 & -> & ->)|Hc]; [|now right]. left. exists (c :: t1), t2. split; auto.
      now rewrite upd_upd, <- app_assoc.
Qed.
Lemma crashes_write_intro {A} f t1 t2 (k : io A) d s : d f = Some s -> crashes (write f (t1 ++ t2) k) d (upd d f (Some (s ++ t1))).
Proof.
  revert d s; induction t1 as [|c t IH]; intros d s E.
  - rewrite app_nil_r, upd_id by auto. constructor.
  - unfold write. cbn [app fold_right]. fold (write f (t ++ t2) k). apply crash_act. cbn [act]. rewrite E.
    replace (upd d f (Some (s ++ c :: t))) with (upd (upd d f (Some (s ++ [c]))) f (Some ((s ++ [c]) ++ t)))
      by (rewrite upd_upd, <- app_assoc; reflexivity).
    apply IH, upd_same.
Qed.
Lemma crashes_write_after {A} f t (k : io A) d s d' : d f = Some s -> crashes k (upd d f (Some (s ++ t))) d' -> crashes (write f t k) d d'.
Proof.
  revert d s; induction t as [|c t IH]; intros d s E.
  - rewrite app_nil_r, upd_id by auto. auto.
  - intros Hc. unfold write. cbn [fold_right]. fold (write f t k). apply crash_act. cbn [act]. rewrite E.
    apply (IH _ (s ++ [c])); [apply upd_same|]. now rewrite upd_upd, <- app_assoc.
Qed.
Lemma crashes_ibind {A B} (p : io A) (q : A -> io B) d d' : crashes (ibind p q) d d' ->
  crashes p d d' \/ exists a d1, exec p d = (d1, Some (Ok a)) /\ crashes (q a) d1 d'.
Proof.
  revert d; induction p as [[[a|e|]|]|f k IH|a k IH]; intros d; cbn [ibind exec]; intros Hc.
  - right. eauto.
  - apply crashes_done in Hc as ->. left. constructor.
  - apply crashes_done in Hc as ->. left. constructor.
  - apply crashes_done in Hc as ->. left. constructor.
  - apply crashes_read in Hc. apply IH in Hc. destruct Hc as [Hc|Hc]; [left; now constructor|right; auto].
  - apply crashes_act in Hc. destruct Hc as [->|Hc]; [left; constructor|]. apply IH in Hc.
    destruct Hc as [Hc|Hc]; [left; now constructor|right; auto].
Qed.

(** ** Footprints *)
Definition target (a : action) : name := match a with Create f | Append f _ | Delete f => f end.
(** The program reads files of [R] or [M], and modifies files of [M] only. *)
Fixpoint confined {A} (R M : name -> Prop) (p : io A) : Prop :=
  match p with
  | Done _ => True
  | Read f k => (R f \/ M f) /\ forall o, confined R M (k o)
  | Act a k => M (target a) /\ confined R M k
  end.
Lemma act_other a d g : g <> target a -> act a d g = d g.
Proof. destruct a as [f|f c|f]; cbn [act target]; intros Hg; [now apply upd_other| |now apply upd_other]. destruct (d f); auto. now apply upd_other. Qed.
Lemma confined_frame {A} (R M : name -> Prop) (p : io A) d d' : confined R M p -> crashes p d d' -> forall g, ~ M g -> d' g = d g.
Proof.
  intros Hc Hx. revert Hc. induction Hx as [|f k d d' Hx IH|a k d d' Hx IH]; cbn [confined]; intros Hc g Hg; auto.
  - apply IH; auto. apply Hc.
  - rewrite IH by tauto. apply act_other. intros ->. tauto.
Qed.
Lemma confined_ibind {A B} R M (p : io A) (q : A -> io B) : confined R M p -> (forall a, confined R M (q a)) -> confined R M (ibind p q).
Proof.
  intros Hp Hq. induction p as [[[a|e|]|]|f k IH|a k IH]; cbn [ibind confined] in *; auto.
  - split; [tauto|]. intros o. apply IH. apply Hp.
  - split; [tauto|]. apply IH. tauto.
Qed.
Lemma confined_write {A} (R M : name -> Prop) f t (k : io A) : M f -> confined R M k -> confined R M (write f t k).
Proof. intros Hf Hk. induction t as [|c t IH]; cbn [write fold_right confined target] in *; auto. Qed.
Lemma confined_finish {A S} (R M : name -> Prop) (o : outcome S) (k : io A) : confined R M k -> confined R M (finish o k).
Proof. destruct o; cbn [finish ithrow confined]; auto. Qed.
Lemma confined_weaken {A} (R M R' M' : name -> Prop) (p : io A) : (forall f, M f -> M' f) -> (forall f, R f -> R' f \/ M' f) ->
  confined R M p -> confined R' M' p.
Proof.
  intros HM HR. induction p as [r|f k IH|a k IH]; cbn [confined]; auto.
  - intros [[Hf|Hf] Hk]; split; auto.
  - intros [Ha Hk]. auto.
Qed.
(** What a program does depends only on the files of its footprint. *)
Lemma confined_determined {A} (R M : name -> Prop) (p : io A) d1 d2 : confined R M p -> (forall f, R f \/ M f -> d1 f = d2 f) ->
  snd (exec p d1) = snd (exec p d2) /\ forall f, R f \/ M f -> fst (exec p d1) f = fst (exec p d2) f.
Proof.
  revert d1 d2; induction p as [r|f k IH|a k IH]; cbn [confined exec]; intros d1 d2 Hc Hd; auto.
  - rewrite (Hd f) by tauto. apply IH; auto. apply Hc.
  - apply IH; [tauto|]. intros f Hf. specialize (Hd f Hf) as Hdf. destruct Hc as [Ha _].
    destruct (name_eq_dec f (target a)) as [->|Hn]; [|now rewrite !act_other by auto].
    destruct a as [g|g c|g]; cbn [act target] in *; rewrite ?upd_same; auto.
    rewrite <- Hdf. destruct (d1 g) eqn:E; rewrite ?upd_same; auto; congruence.
Qed.

(** ** Two programs at the same time *)
Lemma istep_exec {A} (p : io A) d p1 d1 : istep p d p1 d1 -> exec p1 d1 = exec p d.
Proof. inversion 1; reflexivity. Qed.
Section Together.
  Context {A B : Type} (R1 M1 R2 M2 : name -> Prop).
  Hypothesis sep1 : forall f, M1 f -> ~ (R2 f \/ M2 f).
  Hypothesis sep2 : forall f, M2 f -> ~ (R1 f \/ M1 f).
  (** [d] is what the two programs see; [e1] and [e2] the disks they would see alone. *)
  Lemma together_shadow (p : io A) (q : io B) d p' q' d' : together p q d p' q' d' ->
    confined R1 M1 p -> confined R2 M2 q ->
    forall e1 e2 d0, (forall f, R1 f \/ M1 f -> d f = e1 f) -> (forall f, R2 f \/ M2 f -> d f = e2 f) ->
      (forall f, ~ M1 f -> ~ M2 f -> d f = d0 f) ->
    confined R1 M1 p' /\ confined R2 M2 q' /\
    exists e1' e2', exec p' e1' = exec p e1 /\ exec q' e2' = exec q e2 /\
      (forall f, R1 f \/ M1 f -> d' f = e1' f) /\ (forall f, R2 f \/ M2 f -> d' f = e2' f) /\
      (forall f, ~ M1 f -> ~ M2 f -> d' f = d0 f).
  Proof.
    induction 1 as [p q d|p q d p1 d1 p2 q2 d2 Hs Ht IH|p q d q1 d1 p2 q2 d2 Hs Ht IH]; intros Hp Hq e1 e2 d0 He1 He2 H0.
    - split; [auto|]. split; [auto|]. exists e1, e2. auto 6.
    - inversion Hs as [f k dd Ek Ed|a k dd Ek Ed]; subst; cbn [confined] in Hp.
      + destruct (IH (proj2 Hp (d1 f)) Hq e1 e2 d0 He1 He2 H0) as (C1 & C2 & e1' & e2' & E1 & E2 & I).
        split; auto. split; auto. exists e1', e2'. split; auto. rewrite E1. cbn [exec]. rewrite (He1 f) by tauto. reflexivity.
      + destruct Hp as [Ha Hp].
        destruct (IH Hp Hq (act a e1) e2 d0) as (C1 & C2 & e1' & e2' & E1 & E2 & I).
        * intros f Hf. specialize (He1 f Hf). destruct (name_eq_dec f (target a)) as [->|Hn]; [|now rewrite !act_other by auto].
          destruct a as [g|g c|g]; cbn [act target] in *; rewrite ?upd_same; auto.
          rewrite <- He1. destruct (d g) eqn:E; rewrite ?upd_same; auto; congruence.
        * intros f Hf. rewrite act_other; auto. intros ->. now apply (sep1 _ Ha).
        * intros f Hf1 Hf2. rewrite act_other; auto. intros ->. auto.
        * split; auto. split; auto. exists e1', e2'. split; auto.
    - inversion Hs as [f k dd Ek Ed|a k dd Ek Ed]; subst; cbn [confined] in Hq.
      + destruct (IH Hp (proj2 Hq (d1 f)) e1 e2 d0 He1 He2 H0) as (C1 & C2 & e1' & e2' & E1 & E2 & I).
        split; auto. split; auto. exists e1', e2'. split; auto. rewrite E2. cbn [exec]. rewrite (He2 f) by tauto. auto.
      + destruct Hq as [Ha Hq].
        destruct (IH Hp Hq e1 (act a e2) d0) as (C1 & C2 & e1' & e2' & E1 & E2 & I).
        * intros f Hf. rewrite act_other; auto. intros ->. now apply (sep2 _ Ha).
        * intros f Hf. specialize (He2 f Hf). destruct (name_eq_dec f (target a)) as [->|Hn]; [|now rewrite !act_other by auto].
          destruct a as [g|g c|g]; cbn [act target] in *; rewrite ?upd_same; auto.
          rewrite <- He2. destruct (d g) eqn:E; rewrite ?upd_same; auto; congruence.
        * intros f Hf1 Hf2. rewrite act_other; auto. intros ->. auto.
        * split; auto. split; auto. exists e1', e2'. split; auto.
  Qed.
  Lemma together_result (p : io A) (q : io B) d r1 r2 d' : together p q d (Done r1) (Done r2) d' ->
    confined R1 M1 p -> confined R2 M2 q ->
    r1 = snd (exec p d) /\ r2 = snd (exec q d) /\
    (forall f, R1 f \/ M1 f -> d' f = fst (exec p d) f) /\ (forall f, R2 f \/ M2 f -> d' f = fst (exec q d) f) /\
    (forall f, ~ M1 f -> ~ M2 f -> d' f = d f).
  Proof.
    intros Ht Hp Hq. destruct (together_shadow _ _ _ _ _ _ Ht Hp Hq d d d) as (_ & _ & e1 & e2 & E1 & E2 & I1 & I2 & I3); auto.
    cbn [exec] in E1, E2. rewrite <- E1, <- E2. cbn [fst snd]. auto 6.
  Qed.
End Together.
(** There is no deadlock. *)
Lemma together_progress {A B} (p : io A) (q : io B) d : exists r1 r2 d', together p q d (Done r1) (Done r2) d'.
Proof.
  revert q d; induction p as [r1|f k IH|a k IH]; intros q d.
  - revert d; induction q as [r2|f k IH|a k IH]; intros d.
    + exists r1, r2, d. constructor.
    + destruct (IH (d f) d) as (a1 & a2 & d' & Ht). exists a1, a2, d'. eapply tg_right; [constructor|exact Ht].
    + destruct (IH (act a d)) as (a1 & a2 & d' & Ht). exists a1, a2, d'. eapply tg_right; [constructor|exact Ht].
  - destruct (IH (d f) q d) as (a1 & a2 & d' & Ht). exists a1, a2, d'. eapply tg_left; [constructor|exact Ht].
  - destruct (IH q (act a d)) as (a1 & a2 & d' & Ht). exists a1, a2, d'. eapply tg_left; [constructor|exact Ht].
Qed.
