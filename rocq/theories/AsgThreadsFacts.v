(** The threads of approximate_similarity_graph: lock discipline and refinement of the model of SimGraph.v. *)
From Verif Require Import Base Num Sparse Graph Cluster ThreadPool ThreadPoolFacts ThreadPoolTop Kde KdeFacts SimGraph SimGraphFacts SimGraphFacts2 Threads ThreadsFacts AsgThreads.
From Coq Require Import ZArith Permutation.
Local Open Scope nat_scope.

Definition notOk {A} (o : outcome A) : Prop := forall v, o <> Ok v.
Lemma notOk_bind {A B} (o : outcome A) (f : A -> outcome B) : notOk o -> notOk (do x <- o; f x).
Proof. destruct o; intros N v; simpl; try discriminate. exfalso. eapply N; reflexivity. Qed.
Lemma notOk_bind2 {A B} (o : outcome A) (f : A -> outcome B) : (forall x, notOk (f x)) -> notOk (do x <- o; f x).
Proof. destruct o; intros N v; simpl; try discriminate. apply N. Qed.

Section Facts.
  Context {W : Type} `{Num W} `{KNum W}.
  Notation point := (@point W).
  Notation triplet := (nat * nat * W)%type.
  Notation ktree := (@ktree W).
  Notation amem := (@amem W).
  Notation prog := (@prog aloc path amem).

  Fixpoint node_at (t : ktree) (p : path) {struct p} : option ktree :=
    match p with
    | [] => Some t
    | b :: p => match t with Node _ _ _ l r => node_at (if b then l else r) p | Leaf _ _ => None end
    end.
  Lemma node_at_app t p q t' : node_at t p = Some t' -> node_at t (p ++ q) = node_at t' q.
  Proof. revert t. induction p as [|b p IH]; intros t E; simpl in *; [now injection E as ->|]. destruct t; [discriminate|]. auto. Qed.
  Lemma node_at_subtree t p t' : node_at t p = Some t' -> subtree t' t.
  Proof. revert t. induction p as [|b p IH]; intros t E; simpl in *; [injection E as ->; constructor|]. destruct t as [|lo hi e l r]; [discriminate|]. destruct b; [apply sub_left|apply sub_right]; auto. Qed.

  Variable unif : W -> Prop.
  Variable x0 : W.
  Hypothesis unif_x0 : unif x0.
  Variable ord : nat -> nat -> nat -> list nat -> list nat.
  Variable T : nat.
  Variable a : W.
  Variable data : list point.
  Variable lr : path -> bool.
  Variable root : ktree.

  Notation ev := (ev a data).
  Notation hist := (hist ord T a data root).
  Notation tree_samples := (tree_samples unif a data).
  Notation est := (est a data lr).
  Notation samp := (samp unif a data lr).

  Lemma ev_mono H1 H2 t i o : incl H1 H2 -> ev H1 t i o -> ev H2 t i o.
  Proof. intros I E. induction E; [apply ev_hit; auto|apply ev_leaf|apply ev_est|apply ev_sum; auto]. Qed.
  Lemma ev_some H1 t i : exists o, ev H1 t i o.
  Proof. induction t as [lo hi|lo hi [k|] l [x IHl] r [y IHr]]; eexists; [apply ev_leaf|apply ev_est|apply ev_sum; eauto]. Qed.
  Lemma samples_mono H1 H2 t : incl H1 H2 -> forall i num o, tree_samples H1 t i num o -> tree_samples H2 t i num o.
  Proof.
    intros I. induction t as [lo hi|lo hi e l IHl r IHr]; intros i num o; cbn [SimGraph.tree_samples].
    - intros (rs & d & A & B & C & D). exists rs, d. eauto using ev_mono.
    - intros (x & y & nl & ls & rs & A & B & C & D & E & F). exists x, y, nl, ls, rs. split; [eapply ev_mono; eauto|]. split; [eapply ev_mono; eauto|]. split; auto.
      split; [destruct (nl =? 0); auto|]. split; auto. destruct (nl <? num); auto.
  Qed.
  Lemma samples_some H1 t : forall i num, exists r, tree_samples H1 t i num r.
  Proof.
    induction t as [lo hi|lo hi e l IHl r IHr]; intros i num; cbn [SimGraph.tree_samples].
    - destruct (ev_some H1 (Leaf lo hi) i) as [d Ed]. eexists. exists (repeat x0 num), d. rewrite repeat_length. split; auto. split; [intros x I; apply repeat_spec in I; now subst|]. split; [exact Ed|reflexivity].
    - destruct (ev_some H1 l i) as [x Ex]. destruct (ev_some H1 r i) as [y Ey].
      destruct (IHr i (num - 0)) as [rs Rs]. eexists. exists x, y, 0, (Ok []), (if 0 <? num then rs else Ok []). split; [exact Ex|]. split; [exact Ey|]. split; [lia|]. split; [reflexivity|]. split; [|reflexivity].
      destruct (0 <? num); auto.
  Qed.

  (** *** Worlds: the history of the caches, and keys that are present *)
  Definition world := (list (@entry W) * list (path * nat))%type.
  Definition wle (w w' : world) : Prop := incl (fst w) (fst w') /\ incl (snd w) (snd w').
  Definition agree (w : world) (s : amem) : Prop :=
    hist (fst w) /\ (forall p i v, caches s p i = Some v -> exists t, node_at root p = Some t /\ In (t, i, v) (fst w)) /\ forall p i, In (p, i) (snd w) -> caches s p i <> None.
  Lemma wle_refl w : wle w w. Proof. split; apply incl_refl. Qed.
  Lemma wle_trans u v w : wle u v -> wle v w -> wle u w. Proof. intros [A B] [C D]. split; eapply incl_tran; eauto. Qed.
  Definition app (e : list triplet) (x : nat * triplet) : list triplet := write x e.

  Section Good.
    Variable post : world -> list (nat * triplet) -> Prop.
    Variable bad : world -> Prop.
    Notation good := (good wle agree edges app post bad).

    Lemma wput H1 K s p i v t : agree (H1, K) s -> node_at root p = Some t -> ev H1 t i (Ok v) -> agree (H1 ++ [(t, i, v)], K) (mkmem (cput (caches s) p i v) (edges s)).
    Proof.
      intros (A & B & C) E V. split; [|split]; cbn [fst snd caches].
      - apply hist_insert; auto. eapply node_at_subtree; eauto.
      - intros p' i' v'. unfold cput. destruct (path_dec p' p) as [->|Np].
        + destruct (Nat.eqb_spec i' i) as [->|Ni]; intros E'.
          * injection E' as <-. exists t. split; auto. apply in_or_app. right. now left.
          * destruct (B p i' v' E') as (t' & A1 & A2). exists t'. split; auto. apply in_or_app. auto.
        + intros E'. destruct (B p' i' v' E') as (t' & A1 & A2). exists t'. split; auto. apply in_or_app. auto.
      - intros p' i' I. specialize (C p' i' I). unfold cput. destruct (path_dec p' p); auto. destruct (i' =? i); auto. discriminate.
    Qed.

    Lemma insert_good p i t v k w es : node_at root p = Some t -> ev (fst w) t i (Ok v) -> (forall w', wle w w' -> ev (fst w') t i (Ok v) -> good w' es (k v)) ->
      good w es (Lock p (Op unit (LCache p) true (r_insert p i v) (fun _ => Unlock p (k v)))).
    Proof.
      intros E V G. cbn [ThreadsFacts.good]. intros [H1 K1] s x s' L A R. unfold r_insert in R. subst s'.
      assert (ev H1 t i (Ok v)) as V1 by (eapply ev_mono; [apply L|exact V]).
      exists (H1 ++ [(t, i, v)], K1), []. split; [split; cbn [fst snd]; [apply incl_appl|]; apply incl_refl|]. split; [apply wput; auto|]. split; [reflexivity|]. rewrite app_nil_r.
      apply G; [eapply wle_trans; [exact L|]|]. { split; cbn [fst snd]; [apply incl_appl|]; apply incl_refl. } cbn [fst]. eapply ev_mono; [apply incl_appl, incl_refl|exact V1].
    Qed.

    Lemma est_good t : forall p i k w es, node_at root p = Some t -> (forall w' v, wle w w' -> ev (fst w') t i (Ok v) -> good w' es (k v)) ->
      (forall w' o, wle w w' -> ev (fst w') t i o -> notOk o -> bad w') -> good w es (est t p i k).
    Proof.
      induction t as [lo hi|lo hi e l IHl r IHr]; intros p i k w es E Gk Gb.
      - cbn [AsgThreads.est ThreadsFacts.good]. intros [H1 K1] s x s' L A [-> ->]. destruct (caches s p i) as [v|] eqn:Ec.
        + exists (H1, (p, i) :: K1), []. split; [split; cbn [fst snd]; [apply incl_refl|apply incl_tl, incl_refl]|]. destruct A as (A1 & A2 & A3). split.
          { split; [|split]; auto. intros p' i' [[= <- <-]|I]; cbn [fst snd] in *; auto. congruence. }
          split; [reflexivity|]. rewrite app_nil_r. intros w' s2 x s2' L2 B R. unfold r_get in R. destruct B as (B1 & B2 & B3). destruct (caches s2 p i) as [v2|] eqn:E2; [|exfalso; apply (B3 p i); auto; apply L2; now left].
          destruct R as [-> ->]. exists w', []. split; [apply wle_refl|]. split; [repeat split; auto|]. split; [reflexivity|]. rewrite app_nil_r. destruct (B2 _ _ _ E2) as (t' & Et & I2).
          assert (t' = Leaf lo hi) as -> by congruence. apply Gk; [|now apply ev_hit]. eapply wle_trans; [exact L|]. eapply wle_trans; [|exact L2]. split; cbn [fst snd]; [apply incl_refl|apply incl_tl, incl_refl].
        + exists (H1, K1), []. split; [apply wle_refl|]. split; auto. split; [reflexivity|]. rewrite app_nil_r. apply (insert_good p i (Leaf lo hi)); auto; [apply ev_leaf|]. intros w' L' V. apply Gk; auto. eapply wle_trans; eauto.
      - assert (node_at root (p ++ [true]) = Some l) as El by (rewrite (node_at_app _ _ _ _ E); reflexivity).
        assert (node_at root (p ++ [false]) = Some r) as Er by (rewrite (node_at_app _ _ _ _ E); reflexivity).
        cbn [AsgThreads.est ThreadsFacts.good]. intros [H1 K1] s x s' L A [-> ->]. destruct (caches s p i) as [v|] eqn:Ec.
        + exists (H1, (p, i) :: K1), []. split; [split; cbn [fst snd]; [apply incl_refl|apply incl_tl, incl_refl]|]. destruct A as (A1 & A2 & A3). split.
          { split; [|split]; auto. intros p' i' [[= <- <-]|I]; cbn [fst snd] in *; auto. congruence. }
          split; [reflexivity|]. rewrite app_nil_r. intros w' s2 x s2' L2 B R. unfold r_get in R. destruct B as (B1 & B2 & B3). destruct (caches s2 p i) as [v2|] eqn:E2; [|exfalso; apply (B3 p i); auto; apply L2; now left].
          destruct R as [-> ->]. exists w', []. split; [apply wle_refl|]. split; [repeat split; auto|]. split; [reflexivity|]. rewrite app_nil_r. destruct (B2 _ _ _ E2) as (t' & Et & I2).
          assert (t' = Node lo hi e l r) as -> by congruence. apply Gk; [|now apply ev_hit]. eapply wle_trans; [exact L|]. eapply wle_trans; [|exact L2]. split; cbn [fst snd]; [apply incl_refl|apply incl_tl, incl_refl].
        + exists (H1, K1), []. split; [apply wle_refl|]. split; auto. split; [reflexivity|]. rewrite app_nil_r. clear A Ec s. destruct e as [e|].
          * pose proof (ev_est a data H1 lo hi e l r i) as V. destruct (ckns_query e (nth i data [])) as [v|x|] eqn:Eq; cbn [obind] in V.
            -- apply (insert_good p i (Node lo hi (Some e) l r)); auto. intros w' L' V'. apply Gk; auto. eapply wle_trans; eauto.
            -- cbn [ThreadsFacts.good]. eapply Gb; [exact L|exact V|discriminate].
            -- cbn [ThreadsFacts.good]. eapply Gb; [exact L|exact V|discriminate].
          * destruct (lr p).
            -- apply IHl; auto.
               ++ intros w2 vx L2 Vx. apply IHr; auto.
                  ** intros w3 vy L3 Vy. apply (insert_good p i (Node lo hi None l r)); auto.
                     { change (Ok (wadd vx vy)) with (do x' <- Ok vx; do y' <- Ok vy; Ok (wadd x' y')). apply ev_sum; auto. eapply ev_mono; [apply L3|exact Vx]. }
                     intros w' L' V'. apply Gk; auto. eapply wle_trans; [exact L|]. eapply wle_trans; [exact L2|]. eapply wle_trans; eauto.
                  ** intros w3 o L3 Vy N. eapply Gb; [eapply wle_trans; [exact L|]; eapply wle_trans; eauto|apply ev_sum; [eapply ev_mono; [apply L3|exact Vx]|exact Vy]|]. cbn [obind]. now apply notOk_bind.
               ++ intros w2 o L2 Vx N. destruct (ev_some (fst w2) r i) as [y Vy]. eapply Gb; [eapply wle_trans; eauto|apply ev_sum; [exact Vx|exact Vy]|]. now apply notOk_bind.
            -- apply IHr; auto.
               ++ intros w2 vy L2 Vy. apply IHl; auto.
                  ** intros w3 vx L3 Vx. apply (insert_good p i (Node lo hi None l r)); auto.
                     { change (Ok (wadd vx vy)) with (do x' <- Ok vx; do y' <- Ok vy; Ok (wadd x' y')). apply ev_sum; auto. eapply ev_mono; [apply L3|exact Vy]. }
                     intros w' L' V'. apply Gk; auto. eapply wle_trans; [exact L|]. eapply wle_trans; [exact L2|]. eapply wle_trans; eauto.
                  ** intros w3 o L3 Vx N. eapply Gb; [eapply wle_trans; [exact L|]; eapply wle_trans; eauto|apply ev_sum; [exact Vx|eapply ev_mono; [apply L3|exact Vy]]|]. now apply notOk_bind.
               ++ intros w2 o L2 Vy N. destruct (ev_some (fst w2) l i) as [x Vx]. eapply Gb; [eapply wle_trans; eauto|apply ev_sum; [exact Vx|exact Vy]|]. apply notOk_bind2. intros x'. now apply notOk_bind.
    Qed.

    Lemma draws_good num : forall k w es, (forall w' rs, wle w w' -> length rs = num -> (forall x, In x rs -> unif x) -> good w' es (k rs)) -> good w es (draws unif num k).
    Proof.
      induction num as [|num IH]; intros k w es G; [apply G; auto; [apply wle_refl|intros x []]|]. cbn [draws ThreadsFacts.good]. intros w' s x s' L A [U ->].
      exists w', []. split; [apply wle_refl|]. split; auto. split; [reflexivity|]. rewrite app_nil_r. apply IH. intros w2 rs L2 Len U2. apply G; [eapply wle_trans; eauto|simpl; congruence|]. intros y [<-|I]; auto.
    Qed.

    Lemma samp_good t : forall p i num k w es, node_at root p = Some t -> (forall w' s, wle w w' -> tree_samples (fst w') t i num (Ok s) -> good w' es (k s)) ->
      (forall w' o, wle w w' -> tree_samples (fst w') t i num o -> notOk o -> bad w') -> good w es (samp t p i num k).
    Proof.
      induction t as [lo hi|lo hi e l IHl r IHr]; intros p i num k w es E Gk Gb.
      - cbn [AsgThreads.samp]. apply draws_good. intros w1 rs L1 Len U. apply est_good; auto.
        + intros w2 d L2 V. apply Gk; [eapply wle_trans; eauto|]. cbn [SimGraph.tree_samples]. exists rs, (Ok d). auto.
        + intros w2 o L2 V N. eapply Gb; [eapply wle_trans; eauto|cbn [SimGraph.tree_samples]; exists rs, o; split; [auto|]; split; [auto|]; split; [auto|reflexivity]|apply notOk_bind; exact N].
      - assert (node_at root (p ++ [true]) = Some l) as El by (rewrite (node_at_app _ _ _ _ E); reflexivity).
        assert (node_at root (p ++ [false]) = Some r) as Er by (rewrite (node_at_app _ _ _ _ E); reflexivity).
        cbn [AsgThreads.samp]. apply est_good; auto.
        + intros w1 x L1 Vx. apply est_good; auto.
          * intros w2 y L2 Vy. assert (ev (fst w2) l i (Ok x)) as Vx2 by (eapply ev_mono; [apply L2|exact Vx]). assert (wle w w2) as L02 by (eapply wle_trans; eauto). clear Vx L1 L2 w1.
            destruct (binomial_ok x y) eqn:Bo.
            -- cbn [ThreadsFacts.good]. intros w3 s nl s' L3 A [Hnl ->]. exists w3, []. split; [apply wle_refl|]. split; auto. split; [reflexivity|]. rewrite app_nil_r.
               assert (ev (fst w3) l i (Ok x)) as Vx3 by (eapply ev_mono; [apply L3|exact Vx2]). assert (ev (fst w3) r i (Ok y)) as Vy3 by (eapply ev_mono; [apply L3|exact Vy]). assert (wle w w3) as L03 by (eapply wle_trans; eauto). clear Vx2 Vy L02 L3 w2 A s.
               assert (forall w4 ls, wle w3 w4 -> (if nl =? 0 then Ok ls = Ok [] else tree_samples (fst w4) l i nl (Ok ls)) ->
                 good w4 es (if nl <? num then samp r (p ++ [false]) i (num - nl) (fun rs => k (ls ++ rs)) else k (ls ++ []))) as Right.
               { intros w4 ls L4 Tl. destruct (nl <? num) eqn:Hr.
                 - apply IHr; auto.
                   + intros w5 rs L5 Tr. apply Gk; [eapply wle_trans; [exact L03|]; eapply wle_trans; eauto|]. cbn [SimGraph.tree_samples]. assert (wle w3 w5) as L35 by (eapply wle_trans; eauto). exists (Ok x), (Ok y), nl, (Ok ls), (Ok rs).
                     split; [eapply ev_mono; [apply L35|exact Vx3]|]. split; [eapply ev_mono; [apply L35|exact Vy3]|]. split; auto. split; [destruct (nl =? 0); auto; eapply samples_mono; [apply L5|exact Tl]|]. rewrite Hr. split; auto. cbn [obind]. now rewrite Bo.
                   + intros w5 o L5 Tr N. eapply Gb; [eapply wle_trans; [exact L03|]; eapply wle_trans; eauto| |]. cbn [SimGraph.tree_samples]. assert (wle w3 w5) as L35 by (eapply wle_trans; eauto). exists (Ok x), (Ok y), nl, (Ok ls), o.
                     split; [eapply ev_mono; [apply L35|exact Vx3]|]. split; [eapply ev_mono; [apply L35|exact Vy3]|]. split; auto. split; [destruct (nl =? 0); auto; eapply samples_mono; [apply L5|exact Tl]|]. rewrite Hr. split; auto. cbn [obind]. rewrite Bo. apply notOk_bind. exact N.
                 - apply Gk; [eapply wle_trans; eauto|]. cbn [SimGraph.tree_samples]. exists (Ok x), (Ok y), nl, (Ok ls), (Ok []). split; [eapply ev_mono; [apply L4|exact Vx3]|]. split; [eapply ev_mono; [apply L4|exact Vy3]|]. split; auto. split; auto. rewrite Hr. split; auto. cbn [obind]. now rewrite Bo. }
               destruct (nl =? 0) eqn:Hz; [apply Right; [apply wle_refl|reflexivity]|]. apply IHl; auto.
               intros w4 o L4 Tl N. destruct (samples_some (fst w4) r i (num - nl)) as [rs Rs]. eapply Gb; [eapply wle_trans; eauto| |]. cbn [SimGraph.tree_samples].
               { exists (Ok x), (Ok y), nl, o, (if nl <? num then rs else Ok []). split; [eapply ev_mono; [apply L4|exact Vx3]|]. split; [eapply ev_mono; [apply L4|exact Vy3]|]. split; auto. rewrite Hz. split; auto. split; [destruct (nl <? num); auto|]. reflexivity. }
               cbn [obind]. rewrite Bo. apply notOk_bind. exact N.
            -- cbn [ThreadsFacts.good]. destruct (samples_some (fst w2) r i (num - 0)) as [rs Rs]. apply (Gb w2 UB L02); [|discriminate]. cbn [SimGraph.tree_samples]. exists (Ok x), (Ok y), 0, (Ok []), (if 0 <? num then rs else Ok []).
               repeat split; auto; [lia|destruct (0 <? num); auto|]. cbn [obind]. now rewrite Bo.
          * intros w2 o L2 Vy N. destruct (samples_some (fst w2) r i (num - 0)) as [rs Rs]. eapply Gb; [eapply wle_trans; eauto| |]. cbn [SimGraph.tree_samples]. { exists (Ok x), o, 0, (Ok []), (if 0 <? num then rs else Ok []).
            split; [eapply ev_mono; [apply L2|exact Vx]|]. split; auto. split; [lia|]. split; [reflexivity|]. split; [destruct (0 <? num); auto|reflexivity]. } cbn [obind]. now apply notOk_bind.
        + intros w1 o L1 Vx N. destruct (samples_some (fst w1) r i (num - 0)) as [rs Rs]. destruct (ev_some (fst w1) r i) as [y Vy]. eapply Gb; [exact L1| |]. cbn [SimGraph.tree_samples]. { exists o, y, 0, (Ok []), (if 0 <? num then rs else Ok []).
          split; auto. split; auto. split; [lia|]. split; [reflexivity|]. split; [destruct (0 <? num); auto|reflexivity]. } now apply notOk_bind.
    Qed.

    Variable epn : nat.
    Variable degrees : list W.
    Variable size : nat.
    Notation rows_prog := (rows_prog unif a data lr root epn degrees size).
    Notation rw := (row_writes epn (wofZ 5) degrees).

    Lemma store_good l : forall k w es, (forall x, In x l -> fst x < size) -> (forall w', wle w w' -> good w' (es ++ l) k) -> good w es (store_all size l k).
    Proof.
      induction l as [|[j e] l IH]; intros k w es B G; [cbn [store_all]; rewrite <- (app_nil_r es); apply G, wle_refl|]. cbn [store_all].
      pose proof (B _ (or_introl eq_refl)) as Bj. cbn [fst] in Bj. apply Nat.ltb_lt in Bj. rewrite Bj. cbn [ThreadsFacts.good]. intros w' s x s' L A R. unfold r_store in R. subst s'.
      exists w', [(j, e)]. split; [apply wle_refl|]. split; [exact A|]. split; [reflexivity|]. apply IH; [intros x' I; apply B; now right|]. intros w2 L2. rewrite <- app_assoc. apply G. eapply wle_trans; eauto.
    Qed.

    Lemma rw_ext s1 s2 i : s1 i = s2 i -> rw s1 i = rw s2 i.
    Proof. unfold row_writes. intros ->. reflexivity. Qed.
    Lemma rw_ext_all s1 s2 rows : (forall i, In i rows -> s1 i = s2 i) -> flat_map (rw s1) rows = flat_map (rw s2) rows.
    Proof. induction rows as [|i rows IH]; intros E; simpl; auto. rewrite (rw_ext s1 s2 i) by (apply E; now left). f_equal. apply IH. intros. apply E. now right. Qed.

    Definition few (o : outcome (list nat)) : Prop := forall s, o = Ok s -> length s < epn.

    Lemma rows_good rows : forall next k w es, NoDup rows -> next + length rows * (2 * epn) <= size ->
      (forall w' smp, wle w w' -> (forall i, In i rows -> tree_samples (fst w') root i epn (Ok (smp i)) /\ epn <= length (smp i)) ->
         good w' (es ++ combine (seq next (length rows * (2 * epn))) (flat_map (rw smp) rows)) k) ->
      (forall w' i o, wle w w' -> In i rows -> tree_samples (fst w') root i epn o -> few o -> bad w') ->
      good w es (rows_prog rows next k).
    Proof.
      induction rows as [|i rows IH]; intros next k w es ND Sz G Gb.
      - cbn [AsgThreads.rows_prog]. specialize (G w (fun _ => []) (wle_refl w)). cbn [length flat_map seq combine Nat.mul] in G. rewrite app_nil_r in G. apply G. intros i [].
      - cbn [AsgThreads.rows_prog]. cbn [length] in Sz. inversion ND as [|? ? Ni ND']; subst. apply samp_good; [reflexivity| |].
        + intros w1 s L1 Ts. destruct (epn <=? length s) eqn:Le.
          * apply Nat.leb_le in Le. apply store_good.
            { intros [j e] I. cbn [fst]. apply in_combine_l in I. apply in_seq in I. nia. }
            intros w2 L2. apply IH; auto; [nia| |].
            -- intros w3 smp L3 A. rewrite <- app_assoc. set (smp' := fun j => if j =? i then s else smp j).
               assert (combine (seq next (2 * epn)) (rw (fun _ => s) i) ++ combine (seq (next + 2 * epn) (length rows * (2 * epn))) (flat_map (rw smp) rows) = combine (seq next (length (i :: rows) * (2 * epn))) (flat_map (rw smp') (i :: rows))) as ->.
               { cbn [length flat_map]. rewrite (rw_ext (fun _ => s) smp' i) by (unfold smp'; now rewrite Nat.eqb_refl). rewrite (rw_ext_all smp smp' rows).
                 2: { intros j I. unfold smp'. destruct (Nat.eqb_spec j i); [congruence|reflexivity]. }
                 replace (S (length rows) * (2 * epn)) with (2 * epn + length rows * (2 * epn)) by lia. symmetry. apply combine_app_seq. apply row_writes_length. }
               apply G; [eapply wle_trans; [exact L1|]; eapply wle_trans; eauto|]. intros j [<-|I]; unfold smp'.
               ++ rewrite Nat.eqb_refl. split; auto. eapply samples_mono; [|exact Ts]. eapply wle_trans; eauto.
               ++ destruct (Nat.eqb_spec j i); [congruence|]. auto.
            -- intros w3 j o L3 I Tj F. eapply (Gb w3 j o); eauto; [eapply wle_trans; [exact L1|]; eapply wle_trans; eauto|now right].
          * cbn [ThreadsFacts.good]. eapply (Gb w1 i); eauto; [now left|]. intros s' [= <-]. now apply Nat.leb_gt.
        + intros w1 o L1 Ts N. eapply (Gb w1 i o); eauto; [now left|]. intros s Es. exfalso. eapply N; eauto.
    Qed.
  End Good.

  (** *** Lock discipline: a cache is accessed under the mutex of its node, an element of the edges only by one task, the generator by everyone *)
  Definition guard (l : aloc) : option path := match l with LCache p => Some p | _ => None end.
  Definition exempt (l : aloc) : Prop := l = LRng.
  Section Safe.
    Variable own : aloc -> Prop.
    Notation safe := (safe guard exempt own).

    Lemma cache_ok p : exempt (LCache p) \/ (exists m, guard (LCache p) = Some m /\ Some p = Some m) \/ own (LCache p).
    Proof. right. left. exists p. auto. Qed.
    Lemma rng_ok h : exempt LRng \/ (exists m, guard LRng = Some m /\ h = Some m) \/ own LRng.
    Proof. left. reflexivity. Qed.

    Lemma insert_safe p i v (k : W -> prog) : safe None (k v) -> safe None (Lock p (Op unit (LCache p) true (r_insert p i v) (fun _ => Unlock p (k v)))).
    Proof. intros S. cbn [Threads.safe]. split; auto. split; [apply cache_ok|]. auto. Qed.
    Lemma est_safe t : forall p i k, (forall v, safe None (k v)) -> safe None (est t p i k).
    Proof.
      induction t as [lo hi|lo hi e l IHl r IHr]; intros p i k Sk; cbn [AsgThreads.est]; cbn [Threads.safe]; (split; [reflexivity|]); (split; [apply cache_ok|]); intros [|]; cbn [Threads.safe];
        try (split; [apply cache_ok|]; intros v; split; [reflexivity|apply Sk]); (split; [reflexivity|]).
      - split; [reflexivity|]. split; [apply cache_ok|]. intros _. split; [reflexivity|]. apply Sk.
      - destruct e as [e|]; [destruct (ckns_query e (nth i data [])); [apply insert_safe; apply Sk|exact I|exact I]|].
        destruct (lr p); [apply IHl; intros; apply IHr; intros; apply insert_safe; apply Sk|apply IHr; intros; apply IHl; intros; apply insert_safe; apply Sk].
    Qed.
    Lemma draws_safe num : forall k, (forall v, safe None (k v)) -> safe None (draws unif num k).
    Proof. induction num as [|num IH]; intros k Sk; cbn [draws Threads.safe]; auto. split; [apply rng_ok|]. auto. Qed.
    Lemma samp_safe t : forall p i num k, (forall v, safe None (k v)) -> safe None (samp t p i num k).
    Proof.
      induction t as [lo hi|lo hi e l IHl r IHr]; intros p i num k Sk; cbn [AsgThreads.samp].
      - apply draws_safe. intros rs. apply est_safe. auto.
      - apply est_safe. intros x. apply est_safe. intros y. destruct (binomial_ok x y); [|exact I]. cbn [Threads.safe]. split; [apply rng_ok|]. intros nl.
        assert (forall ls, safe None (if nl <? num then samp r (p ++ [false]) i (num - nl) (fun rs => k (ls ++ rs)) else k (ls ++ []))) as Right by (intros ls; destruct (nl <? num); auto).
        destruct (nl =? 0); auto.
    Qed.
    Lemma store_safe size (l : list (nat * triplet)) : forall k, (forall x, In x l -> own (LSlot (fst x))) -> safe None k -> safe None (store_all size l k).
    Proof. induction l as [|[j e] l IH]; intros k O Sk; cbn [store_all]; auto. destruct (j <? size); [|exact I]. cbn [Threads.safe]. split; [right; right; apply (O (j, e)); now left|]. intros _. apply IH; auto. intros. apply O. now right. Qed.
    Lemma rows_safe epn degrees size rows : forall next k, (forall j, next <= j < next + length rows * (2 * epn) -> own (LSlot j)) -> safe None k -> safe None (rows_prog unif a data lr root epn degrees size rows next k).
    Proof.
      induction rows as [|i rows IH]; intros next k O Sk; cbn [rows_prog]; auto. apply samp_safe. intros s. destruct (epn <=? length s); [|exact I]. apply store_safe.
      - intros [j e] Ij. apply in_combine_l in Ij. apply in_seq in Ij. apply O. cbn [length fst]. nia.
      - apply IH; auto. intros j Hj. apply O. cbn [length]. nia.
    Qed.
  End Safe.

  (** *** Every access can be carried out *)
  Lemma est_total t : forall p i k, (forall v, total (k v)) -> total (est t p i k).
  Proof.
    assert (forall p i s, exists x s', r_contains (W := W) p i s x s') as T1 by (intros; do 2 eexists; split; reflexivity).
    assert (forall p i s, exists x s', r_get (W := W) p i s x s') as T2 by (intros p i s; unfold r_get; destruct (caches s p i); do 2 eexists; split; reflexivity).
    assert (forall p i v s, exists x s', r_insert (W := W) p i v s x s') as T3 by (intros; exists tt; eexists; reflexivity).
    induction t as [lo hi|lo hi e l IHl r IHr]; intros p i k Sk; cbn [AsgThreads.est]; cbn [total]; (split; [apply T1|]); intros [|]; cbn [total]; try (split; [apply T2|intros v; apply Sk]).
    - split; [apply T3|auto].
    - destruct e as [e|]; [destruct (ckns_query e (nth i data [])); cbn [total]; try exact I; (split; [apply T3|auto])|].
      destruct (lr p); [apply IHl; intros; apply IHr; intros; cbn [total]; split; [apply T3|auto]|apply IHr; intros; apply IHl; intros; cbn [total]; split; [apply T3|auto]].
  Qed.
  Lemma draw_total {X} (D : X -> Prop) y : D y -> forall s : amem, exists x s', r_draw D s x s'.
  Proof. intros Dy s. exists y, s. split; auto. Qed.
  Lemma draws_total num : forall k, (forall v, total (k v)) -> total (draws unif num k).
  Proof. induction num as [|num IH]; intros k Sk; cbn [draws total]; auto. split; [eapply draw_total; eauto|auto]. Qed.
  Lemma samp_total t : forall p i num k, (forall v, total (k v)) -> total (samp t p i num k).
  Proof.
    induction t as [lo hi|lo hi e l IHl r IHr]; intros p i num k Sk; cbn [AsgThreads.samp].
    - apply draws_total. intros rs. apply est_total. auto.
    - apply est_total. intros x. apply est_total. intros y. destruct (binomial_ok x y); [|exact I]. cbn [total]. split; [eapply (draw_total (fun m => m <= num) 0); lia|]. intros nl.
      assert (forall ls, total (if nl <? num then samp r (p ++ [false]) i (num - nl) (fun rs => k (ls ++ rs)) else k (ls ++ []))) as Right by (intros ls; destruct (nl <? num); auto).
      destruct (nl =? 0); auto.
  Qed.
  Lemma store_total size l : forall k, total k -> total (store_all (W := W) size l k).
  Proof. induction l as [|[j e] l IH]; intros k Sk; cbn [store_all]; auto. destruct (j <? size); [|exact I]. cbn [total]. split; [|auto]. intros s. exists tt. eexists. reflexivity. Qed.
  Lemma rows_total epn degrees size rows : forall next k, total k -> total (rows_prog unif a data lr root epn degrees size rows next k).
  Proof. induction rows as [|i rows IH]; intros next k Sk; cbn [rows_prog]; auto. apply samp_total. intros s. destruct (epn <=? length s); [|exact I]. apply store_total. auto. Qed.
  Lemma task_total epn degrees size rows start : total (task unif a data lr root epn degrees size rows start).
  Proof. unfold task. cbn [total]. split; [eapply draw_total; eauto|]. intros _. apply rows_total. exact I. Qed.
End Facts.
