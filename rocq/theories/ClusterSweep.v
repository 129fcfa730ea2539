(** Proofs about sweep sets and conductance. *)
From Verif Require Import Base Num RSum Sparse SparseFacts Graph GraphSpec GraphFacts GraphProps1 GraphProps2 GraphProps5
  Cluster ClusterSpec ClusterCC ClusterPR ClusterPR2.
From Coq Require Import Sorting.Sorted Sorting.Permutation Reals Lra.
Local Open Scope R_scope.

Section Sort.
  Context {A : Type} (lt : A -> A -> bool).
  Lemma ins_perm x l : Permutation (x :: l) (ins lt x l).
  Proof.
    induction l as [|y l IH]; simpl; auto. destruct (lt y x); auto.
    eapply perm_trans; [apply perm_swap|]. now constructor.
  Qed.
  Lemma stable_sort_perm l : Permutation l (stable_sort lt l).
  Proof.
    induction l as [|x l IH]; simpl; auto.
    eapply perm_trans; [|apply ins_perm]. now constructor.
  Qed.
  Definition stable_le (Rel : A -> A -> Prop) a b := lt a b = true \/ (lt b a = false /\ Rel a b).
  (** A strict weak order on the elements satisfying [D]. *)
  Variable D : A -> Prop.
  Hypothesis lt_trans : forall a b c, D a -> D b -> D c -> lt a b = true -> lt b c = true -> lt a c = true.
  Hypothesis lt_neg : forall a b c, D a -> D b -> D c -> lt a c = true -> lt a b = true \/ lt b c = true.
  Lemma ins_sorted Rel x l : D x -> Forall D l -> StronglySorted (stable_le Rel) l -> Forall (Rel x) l ->
    StronglySorted (stable_le Rel) (ins lt x l).
  Proof.
    intros Dx. induction l as [|y l IH]; intros Dl Hs Hx; simpl; [repeat constructor|].
    inversion Hs as [|? ? Hs' Hf]; subst. inversion Hx as [|? ? Hxy Hxl]; subst.
    inversion Dl as [|? ? Dy Dl']; subst.
    destruct (lt y x) eqn:E.
    - constructor; [now apply IH|]. apply Forall_forall. intros z Hz.
      apply (Permutation_in z (Permutation_sym (ins_perm x l))) in Hz. destruct Hz as [<-|Hz].
      + now left.
      + rewrite Forall_forall in Hf. auto.
    - constructor; [constructor; auto|]. constructor; [right; auto|].
      rewrite Forall_forall in *. intros z Hz. right. split; auto.
      destruct (lt z x) eqn:Ez; auto. exfalso.
      destruct (Hf z Hz) as [Hyz|[Hzy _]].
      + rewrite (lt_trans y z x) in E; auto; discriminate.
      + destruct (lt_neg z y x) as [?|?]; auto; congruence.
  Qed.
  Lemma stable_sort_sorted Rel l : Forall D l -> StronglySorted Rel l -> StronglySorted (stable_le Rel) (stable_sort lt l).
  Proof.
    induction l as [|x l IH]; simpl; intros HD Hs; [constructor|].
    inversion Hs; subst. inversion HD; subst. apply ins_sorted; auto.
    - eapply Permutation_Forall; [apply stable_sort_perm|auto].
    - eapply Permutation_Forall; [apply stable_sort_perm|auto].
  Qed.
End Sort.

Lemma nodup_firstn {A} n (l : list A) : NoDup l -> NoDup (firstn n l).
Proof.
  revert n; induction l as [|x l IH]; intros [|n] Hn; simpl; try constructor; inversion Hn; subst; auto.
  intros Hi. apply H1. rewrite <- (firstn_skipn n l). apply in_app_iff. now left.
Qed.

Lemma lsum_inter (f : nat -> R) A B : NoDup A -> NoDup B ->
  lsum (fun x => if nmem x B then f x else 0) A = lsum (fun x => if nmem x A then f x else 0) B.
Proof.
  intros HA HB.
  transitivity (lsum (fun x => lsum (fun y => if Nat.eqb y x then f y else 0) B) A).
  { apply lsum_ext. intros x _. now rewrite lsum_delta_list. }
  rewrite lsum_swap. apply lsum_ext. intros y _.
  rewrite <- (lsum_delta_list f A y HA). apply lsum_ext. intros x _.
  rewrite Nat.eqb_sym. destruct (Nat.eqb_spec x y); subst; auto.
Qed.
Lemma notin_nmem S v : notin S v = if nmem v S then 0 else 1.
Proof.
  unfold notin. destruct (in_dec Nat.eq_dec v S) as [Hi|Hi].
  - apply nmem_In in Hi. now rewrite Hi.
  - apply nmem_false in Hi. now rewrite Hi.
Qed.
Lemma notin_cons v S x : notin (v :: S) x = if Nat.eqb x v then 0 else notin S x.
Proof. rewrite !notin_nmem. unfold nmem. simpl. destruct (x =? v)%nat; auto. Qed.
Lemma notin_perm S T v : Permutation S T -> notin S v = notin T v.
Proof.
  intros Hp. unfold notin. destruct (in_dec Nat.eq_dec v S) as [Hi|Hi], (in_dec Nat.eq_dec v T) as [Hj|Hj]; auto; exfalso.
  - apply Hj. eapply Permutation_in; eauto.
  - apply Hi. eapply Permutation_in; [apply Permutation_sym|]; eauto.
Qed.

Section Sweep.
  Context {W : Type} `{ExactNum W}.
  Variable lg : lgraph W.
  Variable w : nat -> nat -> R.
  Hypothesis Hs : lg_spec lg w.

  Lemma w_off v u : lg_has lg v -> ~ In u (nb lg v) -> w v u = 0.
  Proof.
    intros Hv Hn. destruct (Rle_lt_or_eq_dec 0 (w v u) (ls_nonneg lg w Hs v u)) as [Hlt|<-]; auto.
    exfalso. apply Hn. now apply (ls_nb lg w Hs).
  Qed.
  Lemma lcut_perm S T : Permutation S T -> lcut lg w S = lcut lg w T.
  Proof.
    intros Hp. unfold lcut. rewrite (lsum_perm _ S T Hp). apply lsum_ext. intros u _. apply lsum_ext.
    intros v _. now rewrite (notin_perm S T v Hp).
  Qed.
  Lemma lcut_cons v S : lg_has lg v -> (forall u, In u S -> lg_has lg u) -> NoDup (v :: S) ->
    lcut lg w (v :: S) = lcut lg w S + ldeg lg v
      - 2 * lsum (fun x => if nmem x (v :: S) then w v x else 0) (nb lg v).
  Proof.
    intros Hv HS Hn. inversion Hn as [|? ? HvS HnS]; subst. unfold lcut. cbn [lsum].
    assert (E1 : lsum (fun x => w v x * notin (v :: S) x) (nb lg v) =
                 lsum (w v) (nb lg v) - lsum (fun x => if nmem x (v :: S) then w v x else 0) (nb lg v)).
    { rewrite <- lsum_minus. apply lsum_ext. intros x _. rewrite notin_nmem. destruct (nmem x (v :: S)); lra. }
    assert (E2 : lsum (fun u => lsum (fun x => w u x * notin (v :: S) x) (nb lg u)) S =
                 lsum (fun u => lsum (fun x => w u x * notin S x) (nb lg u)) S - lsum (fun u => w v u) S).
    { rewrite <- lsum_minus. apply lsum_ext. intros u Hu.
      transitivity (lsum (fun x => w u x * notin S x) (nb lg u) - lsum (fun x => if Nat.eqb x v then w u x else 0) (nb lg u)).
      - rewrite <- lsum_minus. apply lsum_ext. intros x _. rewrite notin_cons.
        destruct (Nat.eqb_spec x v) as [->|]; [|lra]. rewrite notin_nmem.
        assert (nmem v S = false) as -> by (now apply nmem_false). lra.
      - f_equal. rewrite lsum_delta_list by (now apply (ls_nodup lg w Hs); auto).
        rewrite (ls_sym lg w Hs v u). destruct (nmem v (nb lg u)) eqn:E; auto. symmetry. apply w_off; auto.
        now apply nmem_false. }
    rewrite E1, E2. unfold ldeg. rewrite (ls_deg lg w Hs) by auto.
    assert (E3 : lsum (fun u => w v u) S = lsum (fun x => if nmem x S then w v x else 0) (nb lg v)).
    { rewrite lsum_inter by (auto; now apply (ls_nodup lg w Hs)). apply lsum_ext. intros x _.
      destruct (nmem x (nb lg v)) eqn:E; auto. apply w_off; auto. now apply nmem_false. }
    assert (E4 : lsum (fun x => if nmem x (v :: S) then w v x else 0) (nb lg v) =
                 lsum (fun x => if nmem x S then w v x else 0) (nb lg v) + w v v).
    { transitivity (lsum (fun x => if nmem x S then w v x else 0) (nb lg v)
                    + lsum (fun x => if Nat.eqb x v then w v x else 0) (nb lg v)).
      - rewrite <- lsum_plus. apply lsum_ext. intros x _. unfold nmem. simpl. destruct (Nat.eqb_spec x v) as [->|]; simpl; [|lra].
        fold (nmem v S). assert (nmem v S = false) as -> by (now apply nmem_false). lra.
      - f_equal. rewrite lsum_delta_list by (now apply (ls_nodup lg w Hs)).
        destruct (nmem v (nb lg v)) eqn:E; auto. symmetry. apply w_off; auto. now apply nmem_false. }
    rewrite E3, E4. lra.
  Qed.
  Lemma lcut_nonneg S : 0 <= lcut lg w S.
  Proof.
    apply lsum_nonneg. intros u _. apply lsum_nonneg. intros v _. apply Rmult_le_pos; [apply (ls_nonneg lg w Hs)|].
    rewrite notin_nmem. destruct (nmem v S); lra.
  Qed.
  Lemma lcut_le_lvol S : (forall u, In u S -> lg_has lg u) -> lcut lg w S <= lvol lg S.
  Proof.
    intros HS. apply lsum_le. intros u Hu. unfold ldeg. rewrite (ls_deg lg w Hs) by auto.
    assert (lsum (fun v => w u v * notin S v) (nb lg u) <= lsum (w u) (nb lg u)).
    { apply lsum_le. intros v _. rewrite notin_nmem. pose proof (ls_nonneg lg w Hs u v). destruct (nmem v S); lra. }
    pose proof (ls_nonneg lg w Hs u u). lra.
  Qed.

  Lemma sweep_cut_exact set es cut : toR (sweep_cut set es cut) =
    toR cut - 2 * lsum (fun e => if nmem (v2 e) set then toR (ewt e) else 0) es.
  Proof.
    revert cut; induction es as [|e es IH]; intros cut; simpl; [lra|].
    rewrite IH. destruct (nmem (v2 e) set); [|lra]. rewrite toR_sub, toR_mul, toR_add, toR_1. lra.
  Qed.

  (** Denominator used by the code, as a real function. *)
  Definition rden (tot vol : R) : R := if Req_EM_T tot 0 then vol else Rmin vol (tot - vol).
  Lemma sweep_den_exact tot vol : toR (sweep_den tot vol) = rden (toR tot) (toR vol).
  Proof.
    unfold sweep_den, rden. destruct (weqb tot w0) eqn:E.
    - apply toR_eqb in E. rewrite toR_0 in E. destruct (Req_EM_T (toR tot) 0); [auto|tauto].
    - destruct (Req_EM_T (toR tot) 0) as [E0|E0].
      + rewrite <- toR_0 in E0. apply toR_eqb in E0. congruence.
      + destruct (wltb (wsub tot vol) vol) eqn:El.
        * apply toR_ltb in El. rewrite toR_sub in *. unfold Rmin. destruct (Rle_dec (toR vol) (toR tot - toR vol)); [lra|auto].
        * unfold Rmin. destruct (Rle_dec (toR vol) (toR tot - toR vol)) as [|Hn]; auto.
          apply toR_ltb_false in El. rewrite toR_sub in El. lra.
  Qed.

  Definition pden (tot : R) (S : list nat) : R := rden tot (lvol lg S).
  Definition pcond (tot : R) (S : list nat) : R := lcut lg w S / pden tot S.
  (** What the loop has established after [k] of the vertices [vs]. *)
  Definition best_ok (tot : R) (vs : list nat) (k : nat) (best : R) (bi : nat) : Prop :=
    (bi = 0%nat /\ best = 2 /\ forall j, (1 <= j <= k)%nat -> 0 < pden tot (firstn j vs) -> 2 <= pcond tot (firstn j vs)) \/
    ((1 <= bi <= k)%nat /\ 0 < pden tot (firstn bi vs) /\ best = pcond tot (firstn bi vs) /\ best < 2 /\
     (forall j, (1 <= j <= k)%nat -> 0 < pden tot (firstn j vs) -> best <= pcond tot (firstn j vs)) /\
     (forall j, (1 <= j < bi)%nat -> 0 < pden tot (firstn j vs) -> best < pcond tot (firstn j vs))).

  Lemma sweep_loop_spec (tot : W) (vs : list nat) : NoDup vs -> (forall v, In v vs -> lg_has lg v) ->
    forall rest done cut vol best bi, vs = done ++ rest ->
    toR cut = lcut lg w done -> toR vol = lvol lg done ->
    best_ok (toR tot) vs (length done) (toR best) bi ->
    exists k b, sweep_loop lg tot rest (map (dg lg) rest) (rev done) cut vol best bi (length done) = Ok k /\
      best_ok (toR tot) vs (length vs) b k.
  Proof.
    intros Hn HV. induction rest as [|v rest IH]; intros done cut vol best bi Evs Hcut Hvol Hb; cbn [sweep_loop map].
    - exists bi, (toR best). split; auto. rewrite app_nil_r in Evs. now subst.
    - assert (Hhv : lg_has lg v) by (apply HV; rewrite Evs; apply in_app_iff; right; now left).
      rewrite (lo_neigh lg (ls_ok lg w Hs)) by auto. cbn [obind].
      assert (Efst : firstn (S (length done)) vs = done ++ [v]).
      { rewrite Evs. rewrite firstn_app, firstn_all2 by lia. replace (S (length done) - length done)%nat with 1%nat by lia. reflexivity. }
      assert (Hnd : NoDup (done ++ [v])).
      { rewrite <- Efst. clear -Hn. apply nodup_firstn. exact Hn. }
      assert (Hperm : Permutation (v :: done) (done ++ [v])) by (apply Permutation_cons_append).
      assert (Hnd' : NoDup (v :: done)) by (eapply Permutation_NoDup; [apply Permutation_sym; exact Hperm|auto]).
      set (cut1 := sweep_cut (v :: rev done) (nbe lg v) (wadd cut (dg lg v))).
      assert (Hcut1 : toR cut1 = lcut lg w (done ++ [v])).
      { unfold cut1. rewrite sweep_cut_exact, toR_add, Hcut. rewrite <- (lcut_perm _ _ Hperm).
        rewrite lcut_cons; auto.
        - unfold ldeg. f_equal. f_equal. unfold nb. rewrite lsum_map. apply lsum_ext. intros e He.
          rewrite (ls_wt lg w Hs v e Hhv He).
          assert (nmem (v2 e) (v :: rev done) = nmem (v2 e) (v :: done)) as ->; auto.
          apply eq_true_iff_eq. rewrite !nmem_In. simpl. now rewrite <- in_rev.
        - intros u Hu. apply HV. rewrite Evs. apply in_app_iff. now left. }
      assert (Hvol1 : toR (wadd vol (dg lg v)) = lvol lg (done ++ [v])).
      { rewrite toR_add, Hvol. unfold lvol. rewrite lsum_app. simpl. unfold ldeg. lra. }
      assert (Hden : toR (sweep_den tot (wadd vol (dg lg v))) = pden (toR tot) (firstn (S (length done)) vs)).
      { rewrite sweep_den_exact, Hvol1, Efst. reflexivity. }
      assert (Elen : S (length done) = length (done ++ [v])) by (rewrite app_length; simpl; lia).
      assert (Erev : v :: rev done = rev (done ++ [v])) by (rewrite rev_app_distr; reflexivity).
      assert (Evs' : vs = (done ++ [v]) ++ rest) by (rewrite <- app_assoc; exact Evs).
      assert (Hcond : 0 < pden (toR tot) (firstn (S (length done)) vs) ->
                toR (wdiv cut1 (sweep_den tot (wadd vol (dg lg v)))) = pcond (toR tot) (firstn (S (length done)) vs)).
      { intros Hp. rewrite toR_div by (rewrite Hden; lra). rewrite Hden, Hcut1. unfold pcond. now rewrite Efst. }
      destruct (wltb w0 (sweep_den tot (wadd vol (dg lg v)))) eqn:Ed; cbn [andb].
      + apply toR_ltb in Ed. rewrite toR_0, Hden in Ed. specialize (Hcond Ed).
        destruct (wltb (wdiv cut1 (sweep_den tot (wadd vol (dg lg v)))) best) eqn:Eb.
        * apply toR_ltb in Eb. rewrite Erev, Elen. apply IH; auto. rewrite <- Elen.
          assert (Hb2 : toR best <= 2).
          { destruct Hb as [(_ & -> & _)|(_ & _ & _ & ? & _)]; lra. }
          right. rewrite Hcond in *. split; [lia|]. split; auto. split; auto. split; [lra|]. split.
          -- intros j Hj Hp. destruct (Nat.eq_dec j (S (length done))) as [->|Hne]; [lra|].
             destruct Hb as [(_ & Ebest & Hall)|(_ & _ & _ & _ & Hall & _)].
             ++ specialize (Hall j ltac:(lia) Hp). lra.
             ++ specialize (Hall j ltac:(lia) Hp). lra.
          -- intros j Hj Hp. destruct Hb as [(_ & Ebest & Hall)|(_ & _ & _ & _ & Hall & _)].
             ++ specialize (Hall j ltac:(lia) Hp). lra.
             ++ specialize (Hall j ltac:(lia) Hp). lra.
        * apply toR_ltb_false in Eb. rewrite Erev, Elen. apply IH; auto. rewrite <- Elen.
          rewrite Hcond in Eb.
          destruct Hb as [(Ebi & Ebest & Hall)|(Hbi & Hpb & Ebest & H2 & Hall & Hstr)].
          -- left. split; auto. split; auto. intros j Hj Hp.
             destruct (Nat.eq_dec j (S (length done))) as [->|Hne]; [lra|]. apply Hall; [lia|auto].
          -- right. split; [lia|]. split; auto. split; auto. split; auto. split; auto. intros j Hj Hp.
             destruct (Nat.eq_dec j (S (length done))) as [->|Hne]; [lra|]. apply Hall; [lia|auto].
      + assert (Hnp : ~ 0 < pden (toR tot) (firstn (S (length done)) vs)).
        { intros Hp. rewrite <- Hden, <- toR_0 in Hp. apply toR_ltb in Hp. congruence. }
        rewrite Erev, Elen. apply IH; auto. rewrite <- Elen.
        destruct Hb as [(Ebi & Ebest & Hall)|(Hbi & Hpb & Ebest & H2 & Hall & Hstr)].
        * left. split; auto. split; auto. intros j Hj Hp.
          destruct (Nat.eq_dec j (S (length done))) as [->|Hne]; [tauto|]. apply Hall; [lia|auto].
        * right. split; [lia|]. split; auto. split; auto. split; auto. split; auto. intros j Hj Hp.
          destruct (Nat.eq_dec j (S (length done))) as [->|Hne]; [tauto|]. apply Hall; [lia|auto].
  Qed.
End Sweep.
