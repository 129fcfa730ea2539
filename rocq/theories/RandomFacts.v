(** Proofs about the block model generators: the events (edges sampled) of a run. *)
From Verif Require Import Base Num Sparse SparseFacts Graph GraphSpec Text TextFacts GraphIO RandomGraph.
From Coq Require Import Ascii String List Sorting.Sorted.
Import ListNotations.
Local Open Scope nat_scope.
Local Open Scope list_scope.

(** The pairs for which a coin is tossed. *)
Definition tosses_of (same : bool) (is js : list nat) : list (nat * nat) :=
  flat_map (fun i => map (pair i) (filter (fun j => negb (same && (j <=? i))) js)) is.

Record stage : Type := mkStage { s_ci : nat; s_oi : nat; s_tn : nat; s_on : nat; s_ts : nat; s_os : nat }.
Definition tosses (st : stage) : list (nat * nat) :=
  tosses_of (s_ci st =? s_oi st) (seq (s_ts st) (s_tn st)) (seq (s_os st) (s_on st)).
Fixpoint plan_inner (ci tn ts oi os : nat) (others : list nat) : list stage :=
  match others with
  | [] => []
  | on :: r => mkStage ci oi tn on ts os :: plan_inner ci tn ts (S oi) (os + on) r
  end.
Fixpoint plan (ci ts : nat) (sizes : list nat) : list stage :=
  match sizes with
  | [] => []
  | tn :: r => plan_inner ci tn ts ci ts sizes ++ plan (S ci) (ts + tn) r
  end.
Definition nsum (l : list nat) : nat := fold_right Nat.add 0 l.
(** Index of the consecutive block of lengths [sizes] that contains [v]. *)
Fixpoint block (sizes : list nat) (v : nat) : nat :=
  match sizes with [] => 0 | sz :: r => if v <? sz then 0 else S (block r (v - sz)) end.

Lemma NoDup_app_intro {A} (a b : list A) : NoDup a -> NoDup b -> (forall x, In x a -> ~ In x b) -> NoDup (a ++ b).
Proof.
  induction 1 as [|x a Hx Ha IH]; intros Hb Hd; simpl; auto. constructor.
  - rewrite in_app_iff. intros [E|E]; [tauto|]. apply (Hd x); simpl; auto.
  - apply IH; auto. intros y Hy. apply Hd. now right.
Qed.
Lemma In_tosses_of same is js i j : In (i, j) (tosses_of same is js) <-> In i is /\ In j js /\ (same = true -> i < j).
Proof.
  unfold tosses_of. rewrite in_flat_map. split.
  - intros (x & Hx & Hin). apply in_map_iff in Hin. destruct Hin as (y & E & Hy). injection E as -> ->.
    apply filter_In in Hy. destruct Hy as [Hy Hf]. repeat split; auto. intros ->. simpl in Hf.
    destruct (Nat.leb_spec j i); [discriminate|lia].
  - intros (Hi & Hj & Hs). exists i. split; auto. apply in_map. apply filter_In. split; auto.
    destruct same; simpl; auto. specialize (Hs eq_refl). destruct (Nat.leb_spec j i); [lia|reflexivity].
Qed.
Lemma NoDup_tosses_of same is js : NoDup is -> NoDup js -> NoDup (tosses_of same is js).
Proof.
  intros Hi Hj. induction Hi as [|i is Hni Hi IH]; simpl; [constructor|]. apply NoDup_app_intro; auto.
  - apply FinFun.Injective_map_NoDup; [intros a b E; congruence|]. now apply NoDup_filter.
  - intros [a b] Ha Hb. apply in_map_iff in Ha. destruct Ha as (y & E & _). injection E as -> ->.
    apply (In_tosses_of same is js) in Hb. tauto.
Qed.

Definition good_head (ci tn ts oi os : nat) : Prop := (oi = ci /\ os = ts) \/ (ci < oi /\ ts + tn <= os).
Lemma In_tosses ci tn ts oi os on i j : (oi = ci /\ os = ts /\ on = tn) \/ (ci < oi /\ ts + tn <= os) ->
  In (i, j) (tosses (mkStage ci oi tn on ts os)) <-> ts <= i < ts + tn /\ os <= j < os + on /\ i < j.
Proof.
  intros Hh. unfold tosses; simpl. rewrite In_tosses_of, !in_seq. destruct (Nat.eqb_spec ci oi) as [E|E].
  - intuition lia.
  - intuition (try lia; try congruence).
Qed.
Lemma NoDup_tosses st : NoDup (tosses st).
Proof. apply NoDup_tosses_of; apply seq_NoDup. Qed.

(** Every stage is about two blocks, the first one not after the second. *)
Definition stage_ok (st : stage) : Prop :=
  (s_oi st = s_ci st /\ s_os st = s_ts st /\ s_on st = s_tn st) \/ (s_ci st < s_oi st /\ s_ts st + s_tn st <= s_os st).
Lemma plan_inner_ok ci tn ts others : forall oi os, ci < oi -> ts + tn <= os -> Forall stage_ok (plan_inner ci tn ts oi os others).
Proof.
  induction others as [|on r IH]; intros oi os H1 H2; simpl; constructor.
  - right. simpl. auto.
  - apply IH; lia.
Qed.
Lemma plan_ok sizes : forall ci ts, Forall stage_ok (plan ci ts sizes).
Proof.
  induction sizes as [|tn r IH]; intros ci ts; simpl; [constructor|]. constructor.
  - left. simpl. auto.
  - apply Forall_app. split; [apply plan_inner_ok; lia|apply IH].
Qed.
Lemma In_plan_inner ci tn ts others : forall oi os i j, ci < oi -> ts + tn <= os ->
  In (i, j) (flat_map tosses (plan_inner ci tn ts oi os others)) <-> ts <= i < ts + tn /\ os <= j < os + nsum others /\ i < j.
Proof.
  induction others as [|on r IH]; intros oi os i j H1 H2; cbn [plan_inner flat_map nsum fold_right].
  - simpl. intuition lia.
  - rewrite in_app_iff, In_tosses by auto. rewrite IH by lia. unfold nsum. lia.
Qed.
Lemma In_plan sizes : forall ci ts i j, In (i, j) (flat_map tosses (plan ci ts sizes)) <-> ts <= i /\ i < j /\ j < ts + nsum sizes.
Proof.
  induction sizes as [|tn r IH]; intros ci ts i j.
  - simpl. intuition lia.
  - cbn [plan plan_inner]. simpl app. cbn [flat_map]. rewrite flat_map_app, !in_app_iff, In_tosses by (left; auto).
    rewrite In_plan_inner by lia. rewrite IH. unfold nsum. simpl. lia.
Qed.
Lemma NoDup_plan_inner ci tn ts others : forall oi os, ci < oi -> ts + tn <= os ->
  NoDup (flat_map tosses (plan_inner ci tn ts oi os others)).
Proof.
  induction others as [|on r IH]; intros oi os H1 H2; cbn [plan_inner flat_map]; [constructor|].
  apply NoDup_app_intro; [apply NoDup_tosses|apply IH; lia|].
  intros [i j] Ha Hb. apply In_tosses in Ha; auto. apply In_plan_inner in Hb; lia.
Qed.
Lemma NoDup_plan sizes : forall ci ts, NoDup (flat_map tosses (plan ci ts sizes)).
Proof.
  induction sizes as [|tn r IH]; intros ci ts; [constructor|].
  cbn [plan plan_inner]. simpl app. cbn [flat_map]. rewrite flat_map_app. apply NoDup_app_intro; [apply NoDup_tosses| |].
  - apply NoDup_app_intro; [apply NoDup_plan_inner; lia|apply IH|].
    intros [i j] Ha Hb. apply In_plan_inner in Ha; try lia. apply In_plan in Hb. lia.
  - intros [i j] Ha Hb. apply In_tosses in Ha; [|left; auto]. rewrite in_app_iff, In_plan_inner, In_plan in Hb by lia. lia.
Qed.

(** ** Blocks *)
Lemma block_spec sizes : forall v c, v < nsum sizes ->
  (block sizes v = c <-> nsum (firstn c sizes) <= v < nsum (firstn (S c) sizes)).
Proof.
  induction sizes as [|sz r IH]; intros v c Hv; [simpl in Hv; lia|].
  cbn [block]. unfold nsum in *. cbn [fold_right] in Hv. destruct (Nat.ltb_spec v sz) as [Hlt|Hge].
  - destruct c as [|c]; cbn [firstn fold_right]; split; try lia; try discriminate.
  - destruct c as [|c].
    + cbn [firstn fold_right]. split; [discriminate|lia].
    + specialize (IH (v - sz) c ltac:(lia)).
      change (firstn (S (S c)) (sz :: r)) with (sz :: firstn (S c) r). change (firstn (S c) (sz :: r)) with (sz :: firstn c r).
      cbn [fold_right]. split.
      * intros E. injection E as E. apply IH in E. lia.
      * intros E. f_equal. apply IH. lia.
Qed.
Lemma plan_inner_head ci tn ts others : forall oi os st, In st (plan_inner ci tn ts oi os others) -> s_ci st = ci /\ s_ts st = ts /\ s_tn st = tn.
Proof.
  induction others as [|on r IH]; intros oi os st; simpl; [tauto|]. intros [<-|Hin]; [auto|]. eapply IH; eauto.
Qed.
Lemma plan_inner_other ci tn ts others : forall oi os st j, In st (plan_inner ci tn ts oi os others) -> s_os st <= j < s_os st + s_on st ->
  Forall (fun x => 1 <= x) others ->
  os <= j /\ s_oi st = oi + block others (j - os) /\ nth_error others (block others (j - os)) = Some (s_on st).
Proof.
  induction others as [|on r IH]; intros oi os st j; simpl; [tauto|]. intros [<-|Hin] Hj Hp; simpl in *.
  - destruct (Nat.ltb_spec (j - os) on); [|lia]. rewrite Nat.add_0_r. simpl. repeat split; lia.
  - apply Forall_cons_iff in Hp. destruct Hp as [Hp1 Hp]. destruct (IH _ _ _ _ Hin Hj Hp) as (E1 & E2 & E3).
    destruct (Nat.ltb_spec (j - os) on); [lia|]. replace (j - os - on) with (j - (os + on)) by lia. rewrite E2. simpl. split; [lia|]. split; [lia|exact E3].
Qed.
Lemma plan_block sizes : forall ci ts st i j, Forall (fun x => 1 <= x) sizes -> In st (plan ci ts sizes) -> In (i, j) (tosses st) ->
  s_ci st = ci + block sizes (i - ts) /\ s_oi st = ci + block sizes (j - ts) /\
  nth_error sizes (block sizes (i - ts)) = Some (s_tn st) /\ nth_error sizes (block sizes (j - ts)) = Some (s_on st).
Proof.
  induction sizes as [|tn r IH]; intros ci ts st i j Hp; [simpl; tauto|].
  intros Hin Hij. pose proof (proj1 (Forall_forall _ _) (plan_ok (tn :: r) ci ts) st Hin) as Hok.
  destruct st as [c o t q a b]. unfold stage_ok in Hok. simpl in Hok. pose proof Hij as Hij'. apply In_tosses in Hij'; [|tauto].
  cbn [plan] in Hin. apply in_app_iff in Hin. destruct Hin as [Hin|Hin].
  - destruct (plan_inner_head _ _ _ _ _ _ _ Hin) as (E1 & E2 & E3). simpl in E1, E2, E3. subst c a t.
    destruct (plan_inner_other _ _ _ _ _ _ _ j Hin) as (_ & E4 & E5); simpl; [lia|exact Hp|]. simpl in E4, E5.
    destruct (Nat.ltb_spec (i - ts) tn); [|lia]. rewrite Nat.add_0_r. repeat split; auto.
  - apply Forall_cons_iff in Hp. destruct Hp as [Hp1 Hp]. destruct (IH _ _ _ _ _ Hp Hin Hij) as (E1 & E2 & E3 & E4).
    assert (In (i, j) (flat_map tosses (plan (S ci) (ts + tn) r))) as Hf by (apply in_flat_map; eauto).
    apply In_plan in Hf. simpl. destruct (Nat.ltb_spec (i - ts) tn); [lia|]. destruct (Nat.ltb_spec (j - ts) tn); [lia|].
    replace (i - ts - tn) with (i - (ts + tn)) by lia. replace (j - ts - tn) with (j - (ts + tn)) by lia.
    simpl in *. repeat split; try lia; auto.
Qed.

(** ** Events *)
Definition ev : Type := bool * nat * nat.
Definition norm (e : ev) : nat * nat := let '(_, u, v) := e in (Nat.min u v, Nat.max u v).
Definition direct (e : ev) : bool := fst (fst e).
(** A direct event is the only one for its pair. *)
Definition uniq : list ev -> Prop := ForallOrdPairs (fun e e' => direct e || direct e' = true -> norm e <> norm e').
Lemma FOP_app {A} (R : A -> A -> Prop) a b :
  ForallOrdPairs R a -> ForallOrdPairs R b -> (forall x y, In x a -> In y b -> R x y) -> ForallOrdPairs R (a ++ b).
Proof.
  induction 1 as [|x a Hx Ha IH]; intros Hb Hd; simpl; auto. constructor.
  - apply Forall_app. split; auto. apply Forall_forall. intros y Hy. apply Hd; simpl; auto.
  - apply IH; auto. intros y z Hy Hz. apply Hd; simpl; auto.
Qed.
Lemma uniq_all_count l : Forall (fun e => direct e = false) l -> uniq l.
Proof.
  induction l as [|e l IH]; intros Hl; [constructor|]. apply Forall_cons_iff in Hl. destruct Hl as [He Hl]. constructor.
  - eapply Forall_impl; [|exact Hl]. simpl. intros e' E'. rewrite He, E'. discriminate.
  - now apply IH.
Qed.
Lemma uniq_nodup l : NoDup (map norm l) -> uniq l.
Proof.
  induction l as [|e l IH]; intros Hl; [constructor|]. simpl in Hl. apply NoDup_cons_iff in Hl. destruct Hl as [He Hl]. constructor.
  - apply Forall_forall. intros e' He' _ E. apply He. rewrite E. now apply in_map.
  - now apply IH.
Qed.

Section RF.
  Context {W : Type} `{Num W} `{!TextNum W} {St : Type} (G : rng W St).

  Definition apply_ev (e : ev) (k : sink (W := W)) : outcome (sink (W := W)) :=
    let '(d, u, v) := e in if d then emit_insert u v k else Ok (emit_count u v k).
  Fixpoint apply_evs (l : list ev) (k : sink (W := W)) : outcome (sink (W := W)) :=
    match l with [] => Ok k | e :: r => do k' <- apply_ev e k; apply_evs r k' end.
  Lemma apply_evs_app a b k : apply_evs (a ++ b) k = do k' <- apply_evs a k; apply_evs b k'.
  Proof. revert k; induction a as [|e a IH]; intros k; simpl; auto. destruct (apply_ev e k); simpl; auto. Qed.

  (** Tossing one coin for each pair of a list. *)
  Fixpoint run_tosses (prob : nat -> nat -> W) (ps : list (nat * nat)) (s : St) : list ev * St :=
    match ps with
    | [] => ([], s)
    | (i, j) :: r =>
      let (b, s') := bernoulli G (prob i j) s in
      let (l, s'') := run_tosses prob r s' in
      (if b then (true, i, j) :: l else l, s'')
    end.
  Lemma run_tosses_app prob a b s :
    run_tosses prob (a ++ b) s = (fst (run_tosses prob a s) ++ fst (run_tosses prob b (snd (run_tosses prob a s))),
                                  snd (run_tosses prob b (snd (run_tosses prob a s)))).
  Proof.
    revert s; induction a as [|[i j] a IH]; intros s; simpl.
    - now destruct (run_tosses prob b s).
    - destruct (bernoulli G (prob i j) s) as [c s']. rewrite IH. destruct (run_tosses prob a s') as [l s'']. simpl. destruct c; reflexivity.
  Qed.
  Lemma run_tosses_ext f g ps s : (forall i j, In (i, j) ps -> f i j = g i j) -> run_tosses f ps s = run_tosses g ps s.
  Proof.
    revert s; induction ps as [|[i j] ps IH]; intros s Hf; simpl; auto.
    rewrite (Hf i j) by (simpl; auto). destruct (bernoulli G (g i j) s) as [c s']. rewrite IH; [reflexivity|]. intros; apply Hf; now right.
  Qed.

  (** The t-th canonical sample. *)
  Fixpoint skip (t : nat) (s : St) : St := match t with O => s | S t' => skip t' (snd (unif01 G s)) end.
  Definition draw (s : St) (t : nat) : W := fst (unif01 G (skip t s)).
  Lemma run_tosses_spec prob ps : forall s,
    (forall e, In e (fst (run_tosses prob ps s)) ->
       exists t i j, nth_error ps t = Some (i, j) /\ e = (true, i, j) /\ wltb (draw s t) (prob i j) = true) /\
    (forall t i j, nth_error ps t = Some (i, j) -> wltb (draw s t) (prob i j) = true -> In (true, i, j) (fst (run_tosses prob ps s))) /\
    snd (run_tosses prob ps s) = skip (length ps) s.
  Proof.
    induction ps as [|[i j] ps IH]; intros s.
    - simpl. repeat split; try tauto. intros [|t]; discriminate.
    - destruct (IH (snd (unif01 G s))) as (I1 & I2 & I3). cbn [run_tosses]. unfold bernoulli.
      destruct (unif01 G s) as [u s'] eqn:Ec. simpl in I1, I2, I3. destruct (run_tosses prob ps s') as [l s''] eqn:El. simpl in I1, I2, I3.
      assert (draw s 0 = u) as D0 by (unfold draw; simpl; now rewrite Ec).
      assert (forall t, draw s (S t) = draw s' t) as DS by (intros t; unfold draw; simpl; now rewrite Ec).
      split; [|split].
      + intros e He. assert (e = (true, i, j) /\ wltb u (prob i j) = true \/ In e l) as [[-> E]|E].
        { simpl in He. destruct (wltb u (prob i j)); [destruct He as [<-|He]; auto|auto]. }
        * exists 0, i, j. rewrite D0. auto.
        * destruct (I1 e E) as (t & a & b & E1 & E2 & E3). exists (S t), a, b. rewrite DS. auto.
      + intros t a b Hn Hw. simpl. destruct t as [|t].
        * simpl in Hn. injection Hn as -> ->. rewrite D0 in Hw. rewrite Hw. now left.
        * rewrite DS in Hw. simpl in Hn. specialize (I2 t a b Hn Hw). destruct (wltb u (prob i j)); [now right|auto].
      + simpl. now rewrite Ec.
  Qed.
  Lemma run_tosses_sub prob ps s : NoDup (map norm (map (fun p => (true, fst p, snd p)) ps)) -> NoDup (map norm (fst (run_tosses prob ps s))).
  Proof.
    revert s; induction ps as [|[i j] ps IH]; intros s Hn; simpl; [constructor|].
    simpl in Hn. apply NoDup_cons_iff in Hn. destruct Hn as [Hni Hn].
    unfold bernoulli. destruct (unif01 G s) as [u s']. specialize (IH s' Hn). pose proof (run_tosses_spec prob ps s') as (I1 & _).
    destruct (run_tosses prob ps s') as [l s'']. simpl in *. destruct (wltb u (prob i j)); auto.
    simpl. constructor; auto. intros Hin. apply Hni. apply in_map_iff in Hin. destruct Hin as (e & E & He).
    destruct (I1 e He) as (t & a & b & E1 & -> & _). rewrite <- E. apply in_map_iff. exists (true, a, b). split; [reflexivity|].
    apply in_map_iff. exists (a, b). split; auto. apply nth_error_In in E1. exact E1.
  Qed.

  Lemma direct_row_evs same p i js : forall k s,
    direct_row G same p i js k s =
    (let r := run_tosses (fun _ _ => p) (map (pair i) (filter (fun j => negb (same && (j <=? i))) js)) s in
     do k' <- apply_evs (fst r) k; Ok (k', snd r)).
  Proof.
    induction js as [|j js IH]; intros k s; cbn [direct_row filter]; [reflexivity|].
    destruct (same && (j <=? i)); cbn [negb map run_tosses]; [apply IH|].
    destruct (bernoulli G p s) as [b s']. destruct b.
    - specialize (fun k => IH k s'). destruct (run_tosses (fun _ _ => p) _ s') as [l s'']. cbn [fst snd apply_evs] in *. unfold apply_ev.
      destruct (emit_insert i j k) as [k'|e|]; cbn [obind]; auto.
    - specialize (IH k s'). destruct (run_tosses (fun _ _ => p) _ s') as [l s'']. exact IH.
  Qed.
  Lemma direct_rows_evs same p is js : forall k s,
    direct_rows G same p is js k s =
    (let r := run_tosses (fun _ _ => p) (tosses_of same is js) s in do k' <- apply_evs (fst r) k; Ok (k', snd r)).
  Proof.
    induction is as [|i is IH]; intros k s; cbn [direct_rows tosses_of flat_map]; [reflexivity|].
    rewrite direct_row_evs. cbv zeta. rewrite run_tosses_app. cbn [fst snd].
    set (r := run_tosses (fun _ _ => p) (map (pair i) _) s). rewrite apply_evs_app.
    destruct (apply_evs (fst r) k) as [k'|e|]; cbn [obind]; auto.
  Qed.

  Fixpoint bin_evs (fuel m : nat) (tn on ts os : nat) (s : St) : list ev * option St :=
    match m with
    | O => ([], Some s)
    | S m' => match distinct_pair G fuel tn on ts os s with
              | None => ([], None)
              | Some (u, v, s') => let (l, o) := bin_evs fuel m' tn on ts os s' in ((false, u, v) :: l, o)
              end
    end.
  Definition res_of (r : list ev * option St) (k : sink (W := W)) : run (sink (W := W) * St) :=
    match apply_evs (fst r) k with
    | Ok k' => match snd r with Some s' => ret (k', s') | None => None end
    | Throw e => Some (Throw e)
    | UB => Some UB
    end.
  Lemma binomial_loop_evs fuel m tn on ts os : forall k s,
    option_map Ok (binomial_loop G fuel m tn on ts os k s) = res_of (bin_evs fuel m tn on ts os s) k.
  Proof.
    induction m as [|m IH]; intros k s; cbn [binomial_loop bin_evs]; [reflexivity|].
    destruct (distinct_pair G fuel tn on ts os s) as [[[u v] s']|]; [|reflexivity].
    rewrite IH. destruct (bin_evs fuel m tn on ts os s') as [l o]. reflexivity.
  Qed.
  Definition binomial_evs (fuel : nat) (tn on ts os : nat) (p : W) (s : St) : list ev * option St :=
    let me := max_edges tn on ts os in
    let expected := wmul p (wnat me) in
    if wltb expected w1 then ([], Some s)
    else let (raw, s') := gauss G expected (wsqrt (wmul (wsub w1 p) expected)) s in
         bin_evs fuel (Z.to_nat (Z.max 0 (Z.min (Z.of_nat me) raw))) tn on ts os s'.
  Lemma sample_edges_binomial_evs fuel tn on ts os p k s :
    sample_edges_binomial G fuel k tn on ts os p s = res_of (binomial_evs fuel tn on ts os p s) k.
  Proof.
    unfold sample_edges_binomial, binomial_evs. cbv zeta. destruct (wltb _ w1); [reflexivity|].
    destruct (gauss G _ _ s) as [raw s']. apply binomial_loop_evs.
  Qed.

  Definition stage_evs (fuel : nat) (P : dmat W) (exact : bool) (st : stage) (s : St) : list ev * option St :=
    let p := dm_at P (s_ci st) (s_oi st) in
    if use_binomial exact (s_tn st) (s_on st) p then binomial_evs fuel (s_tn st) (s_on st) (s_ts st) (s_os st) p s
    else let r := run_tosses (fun _ _ => p) (tosses st) s in (fst r, Some (snd r)).
  Fixpoint stages_evs (fuel : nat) (P : dmat W) (exact : bool) (sts : list stage) (s : St) : list ev * option St :=
    match sts with
    | [] => ([], Some s)
    | st :: r => let (l, o) := stage_evs fuel P exact st s in
                 match o with
                 | Some s' => let (l', o') := stages_evs fuel P exact r s' in (l ++ l', o')
                 | None => (l, None)
                 end
    end.
  Lemma stages_evs_app fuel P exact a b s :
    stages_evs fuel P exact (a ++ b) s =
    match snd (stages_evs fuel P exact a s) with
    | Some s' => (fst (stages_evs fuel P exact a s) ++ fst (stages_evs fuel P exact b s'), snd (stages_evs fuel P exact b s'))
    | None => (fst (stages_evs fuel P exact a s), None)
    end.
  Proof.
    revert s; induction a as [|st a IH]; intros s; cbn [app stages_evs].
    - simpl. now destruct (stages_evs fuel P exact b s).
    - destruct (stage_evs fuel P exact st s) as [l [s'|]]; [|reflexivity]. rewrite IH.
      destruct (stages_evs fuel P exact a s') as [l' [s''|]]; simpl; [|reflexivity]. now rewrite app_assoc.
  Qed.
  Lemma res_of_bind {B} l o k (f : sink (W := W) * St -> run B) :
    rbind (res_of (l, o) k) f = match apply_evs l k with
                                | Ok k' => match o with Some s' => f (k', s') | None => None end
                                | Throw e => Some (Throw e) | UB => Some UB end.
  Proof. unfold res_of. simpl. destruct (apply_evs l k); simpl; auto. destruct o; reflexivity. Qed.

  Lemma sbm_inner_evs fuel P exact ci tn ts others : forall oi os k s,
    sbm_inner G fuel P exact ci tn ts oi os others k s = res_of (stages_evs fuel P exact (plan_inner ci tn ts oi os others) s) k.
  Proof.
    induction others as [|on r IH]; intros oi os k s; cbn [sbm_inner plan_inner stages_evs]; [reflexivity|].
    assert ((if use_binomial exact tn on (dm_at P ci oi) then sample_edges_binomial G fuel k tn on ts os (dm_at P ci oi) s
             else Some (sample_edges_directly G k ci oi tn on ts os (dm_at P ci oi) s)) =
            res_of (stage_evs fuel P exact (mkStage ci oi tn on ts os) s) k) as ->.
    { unfold stage_evs. simpl. destruct (use_binomial exact tn on (dm_at P ci oi)); [apply sample_edges_binomial_evs|].
      unfold sample_edges_directly. rewrite direct_rows_evs. unfold res_of, tosses. simpl. now destruct (apply_evs _ k). }
    destruct (stage_evs fuel P exact (mkStage ci oi tn on ts os) s) as [l o]. rewrite res_of_bind. destruct o as [s'|].
    - specialize (fun k => IH (S oi) (os + on) k s'). destruct (stages_evs fuel P exact (plan_inner ci tn ts (S oi) (os + on) r) s') as [l' o'].
      unfold res_of in *. cbn [fst snd] in *. rewrite apply_evs_app. destruct (apply_evs l k); cbn [obind]; auto.
    - unfold res_of. cbn [fst snd]. destruct (apply_evs l k); reflexivity.
  Qed.
  Lemma sbm_outer_evs fuel P exact sizes : forall ci ts k s,
    sbm_outer G fuel P exact ci ts sizes k s = res_of (stages_evs fuel P exact (plan ci ts sizes) s) k.
  Proof.
    induction sizes as [|tn r IH]; intros ci ts k s; cbn [sbm_outer plan]; [reflexivity|].
    rewrite stages_evs_app, sbm_inner_evs.
    destruct (stages_evs fuel P exact (plan_inner ci tn ts ci ts (tn :: r)) s) as [l o]. rewrite res_of_bind. cbn [fst snd]. destruct o as [s'|].
    - unfold res_of. cbn [fst snd]. rewrite apply_evs_app. destruct (apply_evs l k); cbn [obind]; auto. rewrite IH. reflexivity.
    - unfold res_of. cbn [fst snd]. destruct (apply_evs l k); reflexivity.
  Qed.

  (** ** Where the events lie *)
  Definition rng_picks : Prop := forall n s, 0 < n -> fst (pick G n s) < n.
  Lemma distinct_pair_range fuel tn on ts os : rng_picks -> 0 < tn -> 0 < on -> forall s u v s',
    distinct_pair G fuel tn on ts os s = Some (u, v, s') -> ts <= u < ts + tn /\ os <= v < os + on /\ u <> v.
  Proof.
    intros Hp Ht Ho. induction fuel as [|f IH]; intros s u v s'; cbn [distinct_pair]; [discriminate|].
    pose proof (Hp tn s Ht) as H1. destruct (pick G tn s) as [a s1]. pose proof (Hp on s1 Ho) as H2. destruct (pick G on s1) as [b s2].
    simpl in H1, H2. destruct (Nat.eqb_spec (ts + a) (os + b)); [apply IH|]. intros E. injection E as <- <- <-. lia.
  Qed.
  Lemma bin_evs_range fuel tn on ts os : rng_picks -> 0 < tn -> 0 < on -> forall m s,
    Forall (fun e => direct e = false /\ ts <= snd (fst e) < ts + tn /\ os <= snd e < os + on /\ snd (fst e) <> snd e)
           (fst (bin_evs fuel m tn on ts os s)) /\ List.length (fst (bin_evs fuel m tn on ts os s)) <= m.
  Proof.
    intros Hp Ht Ho. induction m as [|m IH]; intros s; cbn [bin_evs]; [split; [constructor|simpl; lia]|].
    destruct (distinct_pair G fuel tn on ts os s) as [[[u v] s']|] eqn:E; [|split; [constructor|simpl; lia]].
    apply distinct_pair_range in E; auto. destruct (IH s') as [I1 I2]. destruct (bin_evs fuel m tn on ts os s') as [l o]. simpl in *.
    split; [constructor; auto|lia].
  Qed.

  Definition in_tosses (st : stage) (e : ev) : Prop := In (norm e) (tosses st).
  Lemma stage_evs_range fuel P exact st s : rng_picks -> stage_ok st -> 0 < s_tn st -> 0 < s_on st ->
    Forall (in_tosses st) (fst (stage_evs fuel P exact st s)) /\ uniq (fst (stage_evs fuel P exact st s)).
  Proof.
    intros Hp Hok Ht Ho. unfold stage_evs. cbv zeta. destruct (use_binomial exact (s_tn st) (s_on st) (dm_at P (s_ci st) (s_oi st))).
    - unfold binomial_evs. cbv zeta. destruct (wltb _ w1); [split; constructor|]. destruct (gauss G _ _ s) as [raw s'].
      set (m := Z.to_nat _). destruct (bin_evs_range fuel (s_tn st) (s_on st) (s_ts st) (s_os st) Hp Ht Ho m s') as [Hb _].
      split.
      + eapply Forall_impl; [|exact Hb]. intros [[d u] v] (_ & H1 & H2 & H3). simpl in *. unfold in_tosses, norm.
        destruct st as [ci oi tn on ts os]. unfold stage_ok in Hok. simpl in *. apply In_tosses; [tauto|]. lia.
      + apply uniq_all_count. eapply Forall_impl; [|exact Hb]. simpl. tauto.
    - assert (forall i j, In (i, j) (tosses st) -> i < j) as Hlt.
      { intros i j Hin. destruct st as [ci oi tn on ts os]. unfold stage_ok in Hok. simpl in *. apply In_tosses in Hin; [lia|tauto]. }
      cbn [fst]. split.
      + apply Forall_forall. intros e He. destruct (run_tosses_spec (fun _ _ => dm_at P (s_ci st) (s_oi st)) (tosses st) s) as (I1 & _).
        destruct (I1 e He) as (t & i & j & E1 & -> & _). apply nth_error_In in E1. unfold in_tosses, norm. pose proof (Hlt i j E1).
        rewrite Nat.min_l, Nat.max_r by lia. exact E1.
      + apply uniq_nodup, run_tosses_sub. rewrite map_map. erewrite map_ext_in; [rewrite map_id; apply NoDup_tosses|].
        intros [i j] Hin. simpl. pose proof (Hlt i j Hin). rewrite Nat.min_l, Nat.max_r by lia. reflexivity.
  Qed.
  Lemma stages_evs_range fuel P exact sts : rng_picks -> Forall (fun st => stage_ok st /\ 0 < s_tn st /\ 0 < s_on st) sts ->
    NoDup (flat_map tosses sts) -> forall s,
    Forall (fun e => In (norm e) (flat_map tosses sts)) (fst (stages_evs fuel P exact sts s)) /\ uniq (fst (stages_evs fuel P exact sts s)).
  Proof.
    intros Hp. induction sts as [|st sts IH]; intros Hok Hn s; cbn [stages_evs]; [split; constructor|].
    apply Forall_cons_iff in Hok. destruct Hok as [(H1 & H2 & H3) Hok]. cbn [flat_map] in *.
    assert (NoDup (flat_map tosses sts) /\ forall x, In x (tosses st) -> ~ In x (flat_map tosses sts)) as [Hn2 Hd].
    { clear - Hn. induction (tosses st) as [|x l IHl]; simpl in *; auto. apply NoDup_cons_iff in Hn. destruct Hn as [Hx Hn].
      destruct (IHl Hn) as [E1 E2]. split; auto. intros y [<-|Hy]; auto. rewrite in_app_iff in Hx. tauto. }
    destruct (stage_evs_range fuel P exact st s Hp H1 H2 H3) as [R1 R2].
    destruct (stage_evs fuel P exact st s) as [l [s'|]]; simpl in R1, R2.
    - specialize (IH Hok Hn2 s'). destruct (stages_evs fuel P exact sts s') as [l' o']. simpl in *. destruct IH as [I1 I2]. split.
      + apply Forall_app. split.
        * eapply Forall_impl; [|exact R1]. unfold in_tosses. intros e He. apply in_app_iff. auto.
        * eapply Forall_impl; [|exact I1]. simpl. intros e He. apply in_app_iff. auto.
      + apply FOP_app; auto. intros x y Hx Hy _ E. rewrite Forall_forall in R1, I1. specialize (R1 x Hx). specialize (I1 y Hy). simpl in I1.
        unfold in_tosses in R1. rewrite E in R1. eapply Hd; eauto.
    - simpl. split; auto. eapply Forall_impl; [|exact R1]. unfold in_tosses. intros e He. apply in_app_iff. auto.
  Qed.
  Lemma plan_pos sizes : forall ci ts, Forall (fun x => 1 <= x) sizes ->
    Forall (fun st => stage_ok st /\ 0 < s_tn st /\ 0 < s_on st) (plan ci ts sizes).
  Proof.
    assert (forall ci tn ts others oi os, 1 <= tn -> Forall (fun x => 1 <= x) others ->
              Forall (fun st => 0 < s_tn st /\ 0 < s_on st) (plan_inner ci tn ts oi os others)) as Hi.
    { intros ci tn ts others; induction others as [|on r IH]; intros oi os Ht Ho; simpl; constructor.
      - apply Forall_cons_iff in Ho. simpl. lia.
      - apply IH; auto. apply Forall_cons_iff in Ho. tauto. }
    intros ci ts Hs. assert (Forall (fun st => 0 < s_tn st /\ 0 < s_on st) (plan ci ts sizes)) as Hp.
    { revert ci ts; induction sizes as [|tn r IH]; intros ci ts; [constructor|]. cbn [plan]. apply Forall_app.
      pose proof Hs as Hs'. apply Forall_cons_iff in Hs'. split; [apply Hi; tauto|apply IH; tauto]. }
    pose proof (plan_ok sizes ci ts) as Ho. rewrite Forall_forall in *. intros st Hin. specialize (Hp st Hin). specialize (Ho st Hin). tauto.
  Qed.

  (** ** All pairs tossed directly *)
  Lemma stages_evs_direct fuel P exact prob sts :
    (forall st, In st sts -> use_binomial exact (s_tn st) (s_on st) (dm_at P (s_ci st) (s_oi st)) = false) ->
    (forall st i j, In st sts -> In (i, j) (tosses st) -> prob i j = dm_at P (s_ci st) (s_oi st)) ->
    forall s, stages_evs fuel P exact sts s =
      (fst (run_tosses prob (flat_map tosses sts) s), Some (snd (run_tosses prob (flat_map tosses sts) s))).
  Proof.
    induction sts as [|st sts IH]; intros Hb Hpr s; cbn [stages_evs flat_map]; [reflexivity|].
    unfold stage_evs. rewrite (Hb st) by (simpl; auto). cbv zeta.
    rewrite (run_tosses_ext (fun _ _ => dm_at P (s_ci st) (s_oi st)) prob) by (intros i j Hij; symmetry; apply Hpr; simpl; auto).
    rewrite run_tosses_app. cbn [fst snd]. rewrite IH; [reflexivity| |].
    - intros; apply Hb; now right.
    - intros; apply Hpr; simpl; auto.
  Qed.

  (** ** The matrix and the file after the events *)
  Definition hits (i j : nat) (e : ev) : bool :=
    let '(_, u, v) := e in ((i =? u) && (j =? v)) || ((i =? v) && (j =? u)).
  Definition cell (i j : nat) (o : option W) (e : ev) : option W :=
    if hits i j e then Some (if direct e then w1 else wadd (o0 o) w1) else o.
  Lemma hits_norm i j e : snd (fst e) <> snd e -> hits i j e = true <-> norm e = (Nat.min i j, Nat.max i j).
  Proof.
    destruct e as [[d u] v]. simpl. intros Hne. rewrite orb_true_iff, !andb_true_iff, !Nat.eqb_eq. split.
    - intros [[-> ->]|[-> ->]]; f_equal; lia.
    - intros E. injection E as E1 E2. lia.
  Qed.
  Lemma apply_ev_mat n M o e :
    sp_square M n -> snd (fst e) < n -> snd e < n -> snd (fst e) <> snd e ->
    (direct e = true -> sp_get M (snd (fst e)) (snd e) = None /\ sp_get M (snd e) (snd (fst e)) = None) ->
    exists M', apply_ev e (Some M, o) = Ok (Some M', write_line o (sbm_line (snd (fst e)) (snd e))) /\ sp_square M' n /\
      forall i j, sp_get M' i j = cell i j (sp_get M i j) e.
  Proof.
    destruct e as [[d u] v]. cbn [fst snd direct]. intros (Rr & Rc & Hwf) Hu Hv Hne Hf. unfold apply_ev.
    assert (forall f, sp_square (sp_upsert (sp_upsert M u v f) v u f) n) as Hsq.
    { intros f. split; [exact Rr|]. split; [rewrite !sp_upsert_ncols; exact Rc|].
      apply sp_upsert_wf; [rewrite sp_upsert_rows; lia|]. apply sp_upsert_wf; [lia|exact Hwf]. }
    assert (forall f i j, sp_get (sp_upsert (sp_upsert M u v f) v u f) i j =
              if (i =? u) && (j =? v) || (i =? v) && (j =? u) then Some (f (sp_get M i j)) else sp_get M i j) as Hg.
    { intros f i j. rewrite sp_get_upsert; [|apply sp_upsert_wf; [lia|exact Hwf]|rewrite sp_upsert_ncols; lia].
      rewrite !sp_get_upsert by (auto; lia).
      destruct (Nat.eqb_spec i v), (Nat.eqb_spec j u), (Nat.eqb_spec i u), (Nat.eqb_spec j v); simpl; subst; try lia; try reflexivity.
      destruct (Nat.eqb_spec v u); simpl; [lia|reflexivity]. }
    destruct d.
    - destruct (Hf eq_refl) as [F1 F2]. unfold emit_insert. cbn [fst snd]. unfold sp_insert. rewrite F1. cbn [obind].
      assert (sp_get (coeffRef_set M u v w1) v u = None) as ->.
      { unfold coeffRef_set. rewrite sp_get_upsert by (auto; lia). destruct (Nat.eqb_spec v u); simpl; [lia|exact F2]. }
      cbn [obind]. eexists. split; [reflexivity|]. split; [apply Hsq|]. intros i j. unfold coeffRef_set. rewrite Hg. unfold cell, hits. simpl. reflexivity.
    - unfold emit_count. cbn [fst snd option_map]. eexists. split; [reflexivity|]. unfold coeffRef_add. split; [apply Hsq|].
      intros i j. rewrite Hg. unfold cell, hits. simpl. reflexivity.
  Qed.
  Definition ev_lines (l : list ev) : list text := map (fun e => sbm_line (snd (fst e)) (snd e)) l.
  Lemma apply_evs_mat n l : forall M o, sp_square M n -> Forall (fun e => snd (fst e) < n /\ snd e < n /\ snd (fst e) <> snd e) l -> uniq l ->
    (forall e, In e l -> direct e = true -> sp_get M (snd (fst e)) (snd e) = None /\ sp_get M (snd e) (snd (fst e)) = None) ->
    exists M' o', apply_evs l (Some M, o) = Ok (Some M', o') /\ sp_square M' n /\
      forall i j, sp_get M' i j = fold_left (cell i j) l (sp_get M i j).
  Proof.
    induction l as [|e l IH]; intros M o Hsq Hr Hu Hf; [exists M, o; simpl; auto|].
    apply Forall_cons_iff in Hr. destruct Hr as [(H1 & H2 & H3) Hr]. inversion Hu as [|? ? Hu1 Hu2]; subst.
    destruct (apply_ev_mat n M o e Hsq H1 H2 H3) as (M1 & E1 & Hsq1 & G1); [apply Hf; simpl; auto|].
    cbn [apply_evs]. rewrite E1. cbn [obind]. destruct (IH M1 (write_line o (sbm_line (snd (fst e)) (snd e))) Hsq1 Hr Hu2) as (M' & o' & E2 & Hsq2 & G2).
    - intros e' He' Hd. rewrite !G1. pose proof (proj1 (Forall_forall _ _) Hu1 e' He' ltac:(rewrite Hd; apply orb_true_r)) as Hne.
      destruct (Hf e' (or_intror He') Hd) as [F1 F2]. rewrite F1, F2. unfold cell.
      assert (hits (snd (fst e')) (snd e') e = false) as ->.
      { destruct (hits (snd (fst e')) (snd e') e) eqn:Eh; auto. apply hits_norm in Eh; auto. exfalso. apply Hne. rewrite Eh. now destruct e' as [[? ?] ?]. }
      assert (hits (snd e') (snd (fst e')) e = false) as ->.
      { destruct (hits (snd e') (snd (fst e')) e) eqn:Eh; auto. apply hits_norm in Eh; auto. exfalso. apply Hne. rewrite Eh. destruct e' as [[? ?] ?].
        simpl. f_equal; [apply Nat.min_comm|apply Nat.max_comm]. }
      auto.
    - exists M', o'. split; [exact E2|]. split; auto. intros i j. rewrite G2, G1. reflexivity.
  Qed.
  Lemma apply_evs_file l : forall t, apply_evs l (None, Some t) = Ok (None, Some (t ++ put_lines (ev_lines l))).
  Proof.
    induction l as [|e l IH]; intros t.
    - simpl. unfold put_lines. simpl. now rewrite app_nil_r.
    - cbn [apply_evs]. assert (apply_ev e (None, Some t) = Ok (None, Some (t ++ put_line (sbm_line (snd (fst e)) (snd e))))) as ->
        by (destruct e as [[[] u] v]; reflexivity).
      cbn [obind]. rewrite IH. unfold put_lines, ev_lines. simpl. now rewrite <- app_assoc.
  Qed.
End RF.
