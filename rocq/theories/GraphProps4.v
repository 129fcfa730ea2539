(** Equality, algebra, derived and standard graphs (C16-C21). *)
From Verif Require Import Base Num RSum Sparse SparseFacts Graph GraphFacts GraphSpec GraphProps1 GraphProps2.
From Coq Require Import Sorting.Sorted Sorting.Permutation Reals Lra.

Lemma flat_map_none {A B} (f : A -> list B) l : (forall x, In x l -> f x = []) -> flat_map f l = [].
Proof. induction l as [|x l IH]; simpl; intros Hf; auto. rewrite (Hf x), IH; auto. Qed.
Lemma flat_map_only {A B} (f : A -> list B) l a :
  NoDup l -> In a l -> (forall x, In x l -> x <> a -> f x = []) -> flat_map f l = f a.
Proof.
  induction l as [|x l IH]; simpl; intros Hd Hin Hf; [tauto|].
  inversion Hd as [|? ? Hx Hd']; subst. destruct Hin as [->|Hin].
  - rewrite (flat_map_none f l); [apply app_nil_r|]. intros y Hy. apply Hf; auto. intros ->. tauto.
  - rewrite (Hf x (or_introl eq_refl)) by (intros ->; tauto). simpl. apply IH; auto.
Qed.
Lemma flat_map_ext_in {A B} (f g : A -> list B) l : (forall x, In x l -> f x = g x) -> flat_map f l = flat_map g l.
Proof. induction l as [|x l IH]; simpl; intros Hf; auto. rewrite (Hf x), IH; auto. Qed.

Section P.
  Context {W : Type} `{Num W} `{!PosNum W}.
  Implicit Types (g h : graph W) (M A : sprs W).

  Lemma constructed_above_eps M g : sp_wf M -> make_graph M = Ok g -> reachable g /\ weights_above_eps g.
  Proof.
    intros Hwf E. split.
    - exists M, g, []. auto.
    - intros i j v G. eapply make_graph_above_eps; eauto.
  Qed.
  Lemma above_nonneg g : weights_above_eps g -> nonneg_entries (g_adj g).
  Proof. intros Ha i j v G. apply pn_pos. eapply Ha; eauto. Qed.
  Lemma weight_above g i j : weights_above_eps g -> above_eps (weight g i j) = weight g i j.
  Proof.
    intros Ha. unfold above_eps, weight, coeff. destruct (sp_get (g_adj g) i j) as [v|] eqn:G; simpl.
    - now rewrite (Ha _ _ _ G).
    - now rewrite pn_0.
  Qed.
  Lemma pn_nz (v : W) : wltb weps v = true -> weqb v w0 = false.
  Proof.
    intros Hv. destruct (weqb v w0) eqn:E; auto. apply (pn_eq _ _ Hv) in E. subst. rewrite pn_0 in Hv. discriminate.
  Qed.

  (** ** C16 *)
  (** Stored values behave under == : no NaN and no zero is stored. *)
  Definition proper_weights g : Prop :=
    forall i j v, sp_get (g_adj g) i j = Some v ->
      weqb v v = true /\ (forall y, weqb v y = true -> v = y) /\ v <> w0.
  Lemma above_proper g : weights_above_eps g -> proper_weights g.
  Proof.
    intros Ha i j v G. specialize (Ha _ _ _ G). repeat split.
    - now apply pn_refl.
    - intros y. now apply pn_eq.
    - intros ->. rewrite pn_0 in Ha. discriminate.
  Qed.
  Lemma In_values A x : In x (sp_values A) -> sp_wf A -> exists i j, sp_get A i j = Some x.
  Proof.
    intros Hin Hwf. unfold sp_values in Hin. apply in_map_iff in Hin. destruct Hin as [[i v] [Ev Hin]].
    simpl in Ev. subst v. apply in_concat in Hin. destruct Hin as [c [Hc Hi]].
    destruct (In_nth _ _ [] Hc) as [j [Hj Ec]]. exists i, j. unfold sp_get, sp_col. rewrite Ec.
    apply In_col_get; auto. rewrite <- Ec. apply (sp_wf_col A j Hwf).
  Qed.
  Lemma list_eqb_eq_in {T : Type} (e : T -> T -> bool) a b :
    (forall x y, In x a -> e x y = true -> x = y) -> list_eqb e a b = true -> a = b.
  Proof.
    revert b; induction a as [|x a IH]; intros [|y b] He; simpl; try discriminate; auto.
    rewrite andb_true_iff. intros [Exy E]. f_equal.
    - apply He; auto. now left.
    - apply IH; auto. intros x' y' Hx. apply He. now right.
  Qed.

  Lemma graph_eqb_iff g h :
    sp_square (g_adj g) (g_n g) -> sp_square (g_adj h) (g_n h) -> proper_weights g -> proper_weights h ->
    (graph_eqb g h = true <->
     number_of_vertices g = number_of_vertices h /\ forall i j, weight g i j = weight h i j).
  Proof.
    intros Hg Hh Pg Ph. unfold graph_eqb, number_of_vertices.
    pose proof Hg as (R1 & C1 & W1). pose proof Hh as (R2 & C2 & W2).
    rewrite !andb_true_iff. split.
    - intros [[E1 E2] E3].
      apply list_eqb_eq in E1; [|intros x y; apply Nat.eqb_eq].
      apply list_eqb_eq in E2; [|intros x y; apply Nat.eqb_eq].
      apply list_eqb_eq_in in E3.
      + assert (g_adj g = g_adj h) as EA.
        { pose proof (from_vectors_roundtrip _ _ Hg) as T1. pose proof (from_vectors_roundtrip _ _ Hh) as T2.
          rewrite E1, E2, E3, T2 in T1. congruence. }
        split; [congruence|]. intros i j. unfold weight. now rewrite EA.
      + intros x y Hx. destruct (In_values _ _ Hx W1) as (i & j & G). apply (Pg _ _ _ G).
    - intros [En Ew].
      assert (g_adj g = g_adj h) as EA.
      { apply sp_ext; auto; try congruence. intros i j _ _. specialize (Ew i j). unfold weight, coeff in Ew.
        destruct (sp_get (g_adj g) i j) as [x|] eqn:G1; destruct (sp_get (g_adj h) i j) as [y|] eqn:G2; simpl in Ew; auto.
        - congruence.
        - exfalso. apply (Pg _ _ _ G1). auto.
        - exfalso. apply (Ph _ _ _ G2). auto. }
      rewrite EA. repeat split.
      + apply list_eqb_refl. intros; apply Nat.eqb_refl.
      + apply list_eqb_refl. intros; apply Nat.eqb_refl.
      + apply list_eqb_refl. intros x Hx. destruct (In_values _ _ Hx W2) as (i & j & G). apply (Ph _ _ _ G).
  Qed.

  (** ** Graphs from triplets *)
  Lemma tvals_app (a b : list (triplet W)) i j : tvals (a ++ b) i j = tvals a i j ++ tvals b i j.
  Proof. unfold tvals. now rewrite filter_app, map_app. Qed.
  Lemma tvals_flat_map {T} (f : T -> list (triplet W)) l i j :
    tvals (flat_map f l) i j = flat_map (fun x => tvals (f x) i j) l.
  Proof. induction l as [|x l IH]; simpl; auto. now rewrite tvals_app, IH. Qed.
  Lemma tvals_cons a b (w : W) (ts : list (triplet W)) i j :
    tvals ((a, b, w) :: ts) i j = (if (a =? i) && (b =? j) then [w] else []) ++ tvals ts i j.
  Proof. unfold tvals. simpl. destruct (_ && _); reflexivity. Qed.
  Lemma tvals_nil i j : tvals (W := W) [] i j = [].
  Proof. reflexivity. Qed.

  Lemma from_triplets_graph_spec n ts (wt : nat -> nat -> option W) :
    (forall a b w, In (a, b, w) ts -> a < n /\ b < n) ->
    (forall i j, sum1 (tvals ts i j) = wt i j) ->
    (forall i j v, wt i j = Some v -> wltb v w0 = false) ->
    (forall i j, above_eps (o0 (wt i j)) = above_eps (o0 (wt j i))) ->
    exists g, from_triplets_graph n ts = Ok g /\ number_of_vertices g = n /\
      weights_above_eps g /\ reachable g /\
      forall i j, weight g i j = above_eps (o0 (wt i j)).
  Proof.
    intros Hok Hwt Hn Hs. unfold from_triplets_graph.
    assert (triplets_ok n n ts = true) as Ht.
    { apply forallb_forall. intros [[a b] w] Hin. destruct (Hok a b w Hin).
      apply andb_true_iff. now rewrite !Nat.ltb_lt. }
    destruct (set_from_triplets n n ts) as [A| |] eqn:EA; try (unfold set_from_triplets in EA; rewrite Ht in EA; discriminate).
    destruct (set_from_triplets_shape _ _ _ _ EA) as (R & C & Hwf).
    cbn [obind].
    destruct (make_graph_from_adjacency A n) as (g & E & En & Eg & Ew).
    - repeat split; auto.
    - intros i j v G. rewrite (sp_get_set_from_triplets _ _ _ _ i j EA), Hwt in G. eapply Hn; eauto.
    - intros i j. unfold coeff. rewrite !(sp_get_set_from_triplets _ _ _ _ _ _ EA), !Hwt. apply Hs.
    - exists g. split; auto. split; auto. destruct (constructed_above_eps A g Hwf E) as [Hre Ha].
      split; auto. split; auto. intros i j. rewrite Ew. unfold coeff.
      now rewrite (sp_get_set_from_triplets _ _ _ _ i j EA), Hwt.
  Qed.

  (** 0/1 graphs *)
  Lemma unit_triplets n ts (p : nat -> nat -> bool) :
    (forall a b w, In (a, b, w) ts -> a < n /\ b < n) ->
    (forall i j, tvals ts i j = if p i j then [w1] else []) ->
    (forall i j, p i j = p j i) ->
    exists g, from_triplets_graph n ts = Ok g /\ number_of_vertices g = n /\
      weights_above_eps g /\ reachable g /\
      forall i j, weight g i j = if p i j then w1 else w0.
  Proof.
    intros Hok Hv Hp.
    destruct (from_triplets_graph_spec n ts (fun i j => if p i j then Some w1 else None)) as (g & E & En & Ha & Hr & Ew).
    - exact Hok.
    - intros i j. rewrite Hv. now destruct (p i j).
    - intros i j v. destruct (p i j); [|discriminate]. intros [= <-]. apply pn_pos, pn_1.
    - intros i j. now rewrite Hp.
    - exists g. repeat split; auto. intros i j. rewrite Ew. unfold above_eps.
      destruct (p i j); simpl; [now rewrite pn_1|now rewrite pn_0].
  Qed.

  Lemma complete_tvals n i j :
    tvals (complete_triplets n) i j = if (i <? n) && (j <? n) && negb (i =? j) then [w1] else [].
  Proof.
    unfold complete_triplets. rewrite tvals_flat_map.
    destruct (Nat.ltb_spec i n) as [Hi|Hi].
    - rewrite (flat_map_only _ _ i); [|apply seq_NoDup|apply in_seq; lia|].
      + rewrite tvals_flat_map. destruct (Nat.ltb_spec j n) as [Hj|Hj].
        * rewrite (flat_map_only _ _ j); [|apply seq_NoDup|apply in_seq; lia|].
          -- destruct (Nat.eqb_spec i j); [reflexivity|]. rewrite tvals_cons, !Nat.eqb_refl. reflexivity.
          -- intros x _ Hx. destruct (i =? x); [reflexivity|]. rewrite tvals_cons.
             destruct (Nat.eqb_spec x j); [contradiction|]. now rewrite andb_false_r.
        * apply flat_map_none. intros x Hx. apply in_seq in Hx. destruct (i =? x); [reflexivity|].
          rewrite tvals_cons. destruct (Nat.eqb_spec x j); [lia|]. now rewrite andb_false_r.
      + intros x _ Hx. rewrite tvals_flat_map. apply flat_map_none. intros y _.
        destruct (x =? y); [reflexivity|]. rewrite tvals_cons. destruct (Nat.eqb_spec x i); [contradiction|reflexivity].
    - apply flat_map_none. intros x Hx. apply in_seq in Hx. rewrite tvals_flat_map. apply flat_map_none. intros y _.
      destruct (x =? y); [reflexivity|]. rewrite tvals_cons. destruct (Nat.eqb_spec x i); [lia|reflexivity].
  Qed.

  Lemma complete_graph_spec n : (2 <= n)%Z ->
    exists g, complete_graph n = Ok g /\ number_of_vertices g = Z.to_nat n /\ reachable g /\ weights_above_eps g /\
      forall i j, i < Z.to_nat n -> j < Z.to_nat n -> weight g i j = if i =? j then w0 else w1.
  Proof.
    intros Hn. unfold complete_graph. destruct (Z.ltb_spec n 2); [lia|].
    destruct (unit_triplets (Z.to_nat n) (complete_triplets (Z.to_nat n))
               (fun i j => (i <? Z.to_nat n) && (j <? Z.to_nat n) && negb (i =? j))) as (g & E & En & Ha & Hr & Ew).
    - intros a b w Hin. unfold complete_triplets in Hin. apply in_flat_map in Hin. destruct Hin as [x [Hx Hin]].
      apply in_flat_map in Hin. destruct Hin as [y [Hy Hin]]. apply in_seq in Hx, Hy.
      destruct (x =? y); simpl in Hin; [tauto|]. destruct Hin as [[= <- <- <-]|[]]. lia.
    - intros i j. apply complete_tvals.
    - intros i j. rewrite (Nat.eqb_sym j i). destruct (i <? Z.to_nat n), (j <? Z.to_nat n); reflexivity.
    - exists g. repeat split; auto. intros i j Hi Hj. rewrite Ew. apply Nat.ltb_lt in Hi, Hj. rewrite Hi, Hj.
      destruct (i =? j); reflexivity.
  Qed.

  Lemma cycle_tvals n i j : 3 <= n ->
    tvals (cycle_triplets n) i j =
    if (i <? n) && (j <? n) && ((j =? (i + 1) mod n) || (i =? (j + 1) mod n)) then [w1] else [].
  Proof.
    intros Hn. unfold cycle_triplets. rewrite tvals_flat_map.
    destruct (Nat.ltb_spec i n) as [Hi|Hi].
    - rewrite (flat_map_only _ _ i); [|apply seq_NoDup|apply in_seq; lia|].
      + rewrite !tvals_cons, tvals_nil, !Nat.eqb_refl, app_nil_r. cbn [andb].
        assert ((i + n + 1) mod n = if i + 1 =? n then 0 else i + 1) as E1.
        { replace (i + n + 1) with (i + 1 + 1 * n) by lia. rewrite Nat.mod_add by lia.
          destruct (Nat.eqb_spec (i + 1) n) as [->|]; [apply Nat.mod_same; lia|apply Nat.mod_small; lia]. }
        assert ((i + 1) mod n = if i + 1 =? n then 0 else i + 1) as E1'.
        { destruct (Nat.eqb_spec (i + 1) n) as [->|]; [apply Nat.mod_same; lia|apply Nat.mod_small; lia]. }
        assert ((i + n - 1) mod n = if i =? 0 then n - 1 else i - 1) as E2.
        { destruct (Nat.eqb_spec i 0) as [->|]; [apply Nat.mod_small; lia|].
          replace (i + n - 1) with (i - 1 + 1 * n) by lia. rewrite Nat.mod_add by lia. apply Nat.mod_small; lia. }
        rewrite E1, E1', E2. destruct (Nat.ltb_spec j n) as [Hj|Hj]; cbn [andb].
        * assert ((j + 1) mod n = if j + 1 =? n then 0 else j + 1) as E3.
          { destruct (Nat.eqb_spec (j + 1) n) as [->|]; [apply Nat.mod_same; lia|apply Nat.mod_small; lia]. }
          rewrite E3.
          destruct (Nat.eqb_spec (i + 1) n), (Nat.eqb_spec i 0), (Nat.eqb_spec (j + 1) n);
          repeat match goal with |- context [?a =? ?b] => destruct (Nat.eqb_spec a b) end;
          cbn [orb app]; try reflexivity; lia.
        * destruct (Nat.eqb_spec (i + 1) n), (Nat.eqb_spec i 0);
          repeat match goal with |- context [?a =? ?b] => destruct (Nat.eqb_spec a b) end;
          cbn [app]; try reflexivity; lia.
      + intros x _ Hx. rewrite !tvals_cons. destruct (Nat.eqb_spec x i); [contradiction|reflexivity].
    - apply flat_map_none. intros x Hx. apply in_seq in Hx. rewrite !tvals_cons.
      destruct (Nat.eqb_spec x i); [lia|reflexivity].
  Qed.
  Lemma cycle_graph_spec n : (3 <= n)%Z ->
    exists g, cycle_graph n = Ok g /\ number_of_vertices g = Z.to_nat n /\ reachable g /\ weights_above_eps g /\
      forall i j, i < Z.to_nat n -> j < Z.to_nat n ->
        weight g i j = if (j =? (i + 1) mod Z.to_nat n) || (i =? (j + 1) mod Z.to_nat n) then w1 else w0.
  Proof.
    intros Hn. unfold cycle_graph. destruct (Z.ltb_spec n 2); [lia|].
    destruct (unit_triplets (Z.to_nat n) (cycle_triplets (Z.to_nat n))
               (fun i j => (i <? Z.to_nat n) && (j <? Z.to_nat n) && ((j =? (i + 1) mod Z.to_nat n) || (i =? (j + 1) mod Z.to_nat n))))
      as (g & E & En & Ha & Hr & Ew).
    - intros a b w Hin. unfold cycle_triplets in Hin. apply in_flat_map in Hin. destruct Hin as [x [Hx Hin]].
      apply in_seq in Hx. destruct Hin as [[= <- <- <-]|[[= <- <- <-]|[]]];
      (split; [lia|apply Nat.mod_upper_bound; lia]).
    - intros i j. apply cycle_tvals. lia.
    - intros i j. rewrite (orb_comm (i =? _)). destruct (i <? Z.to_nat n), (j <? Z.to_nat n); reflexivity.
    - exists g. repeat split; auto. intros i j Hi Hj. rewrite Ew. apply Nat.ltb_lt in Hi, Hj. rewrite Hi, Hj. reflexivity.
  Qed.

  Lemma star_tvals n i j :
    tvals (star_triplets n) i j =
    if (i <? n) && (j <? n) && (((i =? 0) && negb (j =? 0)) || (negb (i =? 0) && (j =? 0))) then [w1] else [].
  Proof.
    unfold star_triplets. rewrite tvals_flat_map.
    destruct (Nat.eqb_spec i 0) as [->|Hi0].
    - destruct (Nat.eqb_spec j 0) as [->|Hj0]; cbn [andb negb orb].
      + rewrite andb_false_r. apply flat_map_none. intros x Hx. apply in_seq in Hx. rewrite !tvals_cons.
        destruct (Nat.eqb_spec x 0); [lia|reflexivity].
      + rewrite andb_true_r. destruct (Nat.ltb_spec j n) as [Hj|Hj].
        * destruct (Nat.ltb_spec 0 n); [|lia]. cbn [andb].
          rewrite (flat_map_only _ _ j); [|apply seq_NoDup|apply in_seq; lia|].
          -- rewrite !tvals_cons, !Nat.eqb_refl. destruct (Nat.eqb_spec j 0); [contradiction|reflexivity].
          -- intros x Hx Hxj. apply in_seq in Hx. rewrite !tvals_cons.
             destruct (Nat.eqb_spec x j); [contradiction|]. destruct (Nat.eqb_spec x 0); [lia|]. reflexivity.
        * rewrite andb_false_r. apply flat_map_none. intros x Hx. apply in_seq in Hx. rewrite !tvals_cons.
          destruct (Nat.eqb_spec x j); [lia|]. destruct (Nat.eqb_spec x 0); [lia|]. reflexivity.
    - cbn [andb negb orb]. destruct (Nat.eqb_spec j 0) as [->|Hj0].
      + rewrite andb_true_r. destruct (Nat.ltb_spec i n) as [Hi|Hi].
        * destruct (Nat.ltb_spec 0 n); [|lia]. cbn [andb].
          rewrite (flat_map_only _ _ i); [|apply seq_NoDup|apply in_seq; lia|].
          -- rewrite !tvals_cons, !Nat.eqb_refl. destruct (Nat.eqb_spec 0 i); [lia|].
             destruct (Nat.eqb_spec i 0); [lia|reflexivity].
          -- intros x Hx Hxi. apply in_seq in Hx. rewrite !tvals_cons.
             destruct (Nat.eqb_spec x i); [contradiction|]. destruct (Nat.eqb_spec x 0); [lia|].
             now rewrite andb_false_r.
        * cbn [andb]. apply flat_map_none. intros x Hx. apply in_seq in Hx. rewrite !tvals_cons.
          destruct (Nat.eqb_spec x i); [lia|]. destruct (Nat.eqb_spec x 0); [lia|]. now rewrite andb_false_r.
      + rewrite andb_false_r. apply flat_map_none. intros x Hx. apply in_seq in Hx. rewrite !tvals_cons.
        destruct (Nat.eqb_spec 0 i); [lia|]. destruct (Nat.eqb_spec 0 j); [lia|]. now rewrite andb_false_r.
  Qed.
  Lemma star_graph_spec n : (2 <= n)%Z ->
    exists g, star_graph n = Ok g /\ number_of_vertices g = Z.to_nat n /\ reachable g /\ weights_above_eps g /\
      forall i j, i < Z.to_nat n -> j < Z.to_nat n ->
        weight g i j = if (i =? 0) then (if j =? 0 then w0 else w1) else (if j =? 0 then w1 else w0).
  Proof.
    intros Hn. unfold star_graph. destruct (Z.ltb_spec n 2); [lia|].
    destruct (unit_triplets (Z.to_nat n) (star_triplets (Z.to_nat n))
               (fun i j => (i <? Z.to_nat n) && (j <? Z.to_nat n) && (((i =? 0) && negb (j =? 0)) || (negb (i =? 0) && (j =? 0)))))
      as (g & E & En & Ha & Hr & Ew).
    - intros a b w Hin. unfold star_triplets in Hin. apply in_flat_map in Hin. destruct Hin as [x [Hx Hin]].
      apply in_seq in Hx. destruct Hin as [[= <- <- <-]|[[= <- <- <-]|[]]]; lia.
    - intros i j. apply star_tvals.
    - intros i j. destruct (i <? Z.to_nat n), (j <? Z.to_nat n), (i =? 0), (j =? 0); reflexivity.
    - exists g. repeat split; auto. intros i j Hi Hj. rewrite Ew. apply Nat.ltb_lt in Hi, Hj. rewrite Hi, Hj.
      destruct (i =? 0), (j =? 0); reflexivity.
  Qed.

  Lemma barbell_tvals n i j : 2 <= n ->
    tvals (barbell_triplets n) i j =
    if (((i <? n) && (j <? n)) || ((n <=? i) && (i <? 2 * n) && ((n <=? j) && (j <? 2 * n)))) && negb (i =? j)
       || (((i =? n - 1) && (j =? n)) || ((i =? n) && (j =? n - 1)))
    then [w1] else [].
  Proof.
    intros Hn. unfold barbell_triplets. rewrite tvals_app, !tvals_cons, tvals_nil, app_nil_r, tvals_flat_map.
    assert (forall a b, flat_map (fun x => tvals (flat_map (fun y => if x =? y then [] else [(x, y, w1); (n + x, n + y, w1)]) (seq 0 n)) a b) (seq 0 n) =
      (if (a <? n) && (b <? n) && negb (a =? b) then [w1] else []) ++
      (if (n <=? a) && (n <=? b) && (a <? 2 * n) && (b <? 2 * n) && negb (a =? b) then [w1] else [])) as Hc.
    { intros a b.
      destruct (Nat.ltb_spec a n) as [Ha|Ha].
      - destruct (Nat.leb_spec n a); [lia|]. cbn [andb]. rewrite app_nil_r.
        rewrite (flat_map_only _ _ a); [|apply seq_NoDup|apply in_seq; lia|].
        + rewrite tvals_flat_map. destruct (Nat.ltb_spec b n) as [Hb|Hb]; cbn [andb].
          * rewrite (flat_map_only _ _ b); [|apply seq_NoDup|apply in_seq; lia|].
            -- destruct (Nat.eqb_spec a b); [reflexivity|]. rewrite !tvals_cons, !Nat.eqb_refl.
               destruct (Nat.eqb_spec (n + a) a); [lia|reflexivity].
            -- intros x _ Hx. destruct (a =? x); [reflexivity|]. rewrite !tvals_cons.
               destruct (Nat.eqb_spec x b); [contradiction|]. destruct (Nat.eqb_spec (n + a) a); [lia|].
               now rewrite andb_false_r.
          * apply flat_map_none. intros x Hx. apply in_seq in Hx. destruct (a =? x); [reflexivity|]. rewrite !tvals_cons.
            destruct (Nat.eqb_spec x b); [lia|]. destruct (Nat.eqb_spec (n + a) a); [lia|]. now rewrite andb_false_r.
        + intros x Hx Hxa. apply in_seq in Hx. rewrite tvals_flat_map. apply flat_map_none. intros y _.
          destruct (x =? y); [reflexivity|]. rewrite !tvals_cons. destruct (Nat.eqb_spec x a); [contradiction|].
          destruct (Nat.eqb_spec (n + x) a); [lia|reflexivity].
      - destruct (Nat.leb_spec n a); [|lia]. cbn [andb app].
        destruct (Nat.ltb_spec a (2 * n)) as [Ha2|Ha2].
        + rewrite (flat_map_only _ _ (a - n)); [|apply seq_NoDup|apply in_seq; lia|].
          * rewrite tvals_flat_map. destruct (Nat.leb_spec n b) as [Hb|Hb]; cbn [andb].
            -- destruct (Nat.ltb_spec b (2 * n)) as [Hb2|Hb2]; cbn [andb].
               ++ rewrite (flat_map_only _ _ (b - n)); [|apply seq_NoDup|apply in_seq; lia|].
                  ** destruct (Nat.eqb_spec (a - n) (b - n)).
                     { destruct (Nat.eqb_spec a b); [reflexivity|lia]. }
                     destruct (Nat.eqb_spec a b); [lia|]. rewrite !tvals_cons.
                     destruct (Nat.eqb_spec (a - n) a); [lia|].
                     replace (n + (a - n)) with a by lia. replace (n + (b - n)) with b by lia.
                     now rewrite !Nat.eqb_refl.
                  ** intros x _ Hx. destruct (a - n =? x); [reflexivity|]. rewrite !tvals_cons.
                     destruct (Nat.eqb_spec (a - n) a); [lia|]. destruct (Nat.eqb_spec (n + x) b); [lia|].
                     now rewrite andb_false_r.
               ++ apply flat_map_none. intros x Hx. apply in_seq in Hx. destruct (a - n =? x); [reflexivity|].
                  rewrite !tvals_cons. destruct (Nat.eqb_spec (a - n) a); [lia|].
                  destruct (Nat.eqb_spec (n + x) b); [lia|]. now rewrite andb_false_r.
            -- apply flat_map_none. intros x Hx. apply in_seq in Hx. destruct (a - n =? x); [reflexivity|].
               rewrite !tvals_cons. destruct (Nat.eqb_spec (a - n) a); [lia|].
               destruct (Nat.eqb_spec (n + x) b); [lia|]. now rewrite andb_false_r.
          * intros x Hx Hxa. rewrite tvals_flat_map. apply flat_map_none. intros y _. apply in_seq in Hx.
            destruct (x =? y); [reflexivity|]. rewrite !tvals_cons. destruct (Nat.eqb_spec x a); [lia|].
            destruct (Nat.eqb_spec (n + x) a); [lia|reflexivity].
        + rewrite andb_false_r. cbn [andb]. apply flat_map_none. intros x Hx. apply in_seq in Hx.
          rewrite tvals_flat_map. apply flat_map_none. intros y _. destruct (x =? y); [reflexivity|].
          rewrite !tvals_cons. destruct (Nat.eqb_spec x a); [lia|]. destruct (Nat.eqb_spec (n + x) a); [lia|reflexivity]. }
    rewrite Hc. clear Hc.
    rewrite (Nat.eqb_sym (n - 1) i), (Nat.eqb_sym n j), (Nat.eqb_sym n i), (Nat.eqb_sym (n - 1) j).
    destruct (Nat.ltb_spec i n), (Nat.ltb_spec j n), (Nat.leb_spec n i), (Nat.leb_spec n j); try lia;
    cbn [andb orb app negb];
    destruct (Nat.ltb_spec i (2 * n)), (Nat.ltb_spec j (2 * n)); try lia;
    destruct (Nat.eqb_spec i j), (Nat.eqb_spec i (n - 1)), (Nat.eqb_spec j n), (Nat.eqb_spec i n), (Nat.eqb_spec j (n - 1));
    try lia; cbn [andb orb app negb]; reflexivity.
  Qed.
  Lemma barbell_graph_spec n : (2 <= n)%Z ->
    let m := Z.to_nat n in
    exists g, barbell_graph n = Ok g /\ number_of_vertices g = 2 * m /\ reachable g /\ weights_above_eps g /\
      forall i j, i < 2 * m -> j < 2 * m ->
        weight g i j = (if i =? j then w0
                        else if Bool.eqb (i <? m) (j <? m) then w1
                        else if ((i =? m - 1) && (j =? m)) || ((i =? m) && (j =? m - 1)) then w1 else w0).
  Proof.
    intros Hn m. unfold barbell_graph. destruct (Z.ltb_spec n 2); [lia|]. fold m.
    assert (2 <= m) as Hm by (unfold m; lia).
    destruct (unit_triplets (2 * m) (barbell_triplets m)
               (fun i j => (((i <? m) && (j <? m)) || ((m <=? i) && (i <? 2 * m) && ((m <=? j) && (j <? 2 * m)))) && negb (i =? j)
       || (((i =? m - 1) && (j =? m)) || ((i =? m) && (j =? m - 1)))))
      as (g & E & En & Ha & Hr & Ew).
    - intros a b w Hin. unfold barbell_triplets in Hin. apply in_app_or in Hin. destruct Hin as [Hin|Hin].
      + apply in_flat_map in Hin. destruct Hin as [x [Hx Hin]]. apply in_flat_map in Hin. destruct Hin as [y [Hy Hin]].
        apply in_seq in Hx, Hy. destruct (x =? y); simpl in Hin; [tauto|].
        destruct Hin as [[= <- <- <-]|[[= <- <- <-]|[]]]; lia.
      + destruct Hin as [[= <- <- <-]|[[= <- <- <-]|[]]]; lia.
    - intros i j. now apply barbell_tvals.
    - intros i j. rewrite (Nat.eqb_sym j i). rewrite (andb_comm (j <? m)).
      rewrite (andb_comm ((m <=? j) && _)). f_equal. rewrite orb_comm. f_equal; apply andb_comm.
    - exists g. repeat split; auto. intros i j Hi Hj. rewrite Ew.
      destruct (Nat.ltb_spec i m), (Nat.ltb_spec j m), (Nat.leb_spec m i), (Nat.leb_spec m j); try lia;
      destruct (Nat.ltb_spec i (2 * m)), (Nat.ltb_spec j (2 * m)); try lia;
      destruct (Nat.eqb_spec i j), (Nat.eqb_spec i (m - 1)), (Nat.eqb_spec j m), (Nat.eqb_spec i m), (Nat.eqb_spec j (m - 1)); try lia;
      cbn [andb orb negb Bool.eqb]; reflexivity.
  Qed.

  Lemma identity_graph_spec n : (1 <= n)%Z ->
    exists g, identity_graph n = Ok g /\ number_of_vertices g = Z.to_nat n /\ reachable g /\ weights_above_eps g /\
      forall i j, i < Z.to_nat n -> j < Z.to_nat n -> weight g i j = if i =? j then w1 else w0.
  Proof.
    intros Hn. unfold identity_graph. destruct (Z.ltb_spec n 1); [lia|]. unfold identity_mat.
    destruct (make_graph_from_adjacency (sp_diag (Z.to_nat n) (fun _ => w1)) (Z.to_nat n)) as (g & E & En & Eg & Ew).
    - split; [reflexivity|]. split; [apply sp_diag_ncols|apply sp_diag_wf].
    - intros i j v. rewrite sp_get_diag. destruct (_ && _); [|discriminate]. intros [= <-]. apply pn_pos, pn_1.
    - intros i j. unfold coeff. rewrite !sp_get_diag. rewrite (Nat.eqb_sym j i).
      destruct (Nat.eqb_spec i j) as [->|]; reflexivity.
    - exists g. destruct (constructed_above_eps _ g (sp_diag_wf _ _) E) as [Hr Ha]. repeat split; auto.
      intros i j Hi Hj. rewrite Ew. unfold coeff. rewrite sp_get_diag. apply Nat.ltb_lt in Hj. rewrite Hj, andb_true_r.
      unfold above_eps. destruct (i =? j); simpl; [now rewrite pn_1|now rewrite pn_0].
  Qed.
  Lemma standard_graphs_reject n :
    ((n < 2)%Z -> cycle_graph (W := W) n = Throw InvalidArgument /\ complete_graph (W := W) n = Throw InvalidArgument /\
                  star_graph (W := W) n = Throw InvalidArgument /\ barbell_graph (W := W) n = Throw InvalidArgument) /\
    ((n < 1)%Z -> identity_graph (W := W) n = Throw InvalidArgument).
  Proof.
    unfold cycle_graph, complete_graph, star_graph, barbell_graph, identity_graph. split.
    - intros Hn. destruct (Z.ltb_spec n 2); [auto|lia].
    - intros Hn. destruct (Z.ltb_spec n 1); [auto|lia].
  Qed.
End P.
