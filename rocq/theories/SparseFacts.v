(** Facts about the sparse matrix model. *)
From Verif Require Import Base Num Sparse.
From Coq Require Import Sorting.Sorted.

Section Facts.
  Context {W : Type} `{Num W}.
  Implicit Types (c a b : col W) (M A B : sprs W).

  (** ** Sorted columns *)
  Lemma col_get_none_lt c i :
    Forall (fun k => i < k) (map fst c) -> col_get c i = None.
  Proof.
    induction c as [|[k v] c IH]; simpl; intros Hf; auto.
    inversion Hf as [|? ? Hk Hr]; subst. destruct (Nat.eqb_spec k i); [lia|auto].
  Qed.

  Lemma col_get_In c i v : col_get c i = Some v -> In (i, v) c.
  Proof.
    induction c as [|[k u] c IH]; simpl; [discriminate|].
    destruct (Nat.eqb_spec k i) as [->|]; [intros [= ->]; now left | intros E; right; auto].
  Qed.

  Lemma In_col_get c i v : StronglySorted lt (map fst c) -> In (i, v) c -> col_get c i = Some v.
  Proof.
    induction c as [|[k u] c IH]; simpl; [tauto|].
    intros Hs Hin. inversion Hs as [|? ? Hs' Hf]; subst.
    destruct Hin as [[= -> ->]|Hin].
    - now rewrite Nat.eqb_refl.
    - destruct (Nat.eqb_spec k i) as [->|]; [|auto].
      exfalso. rewrite Forall_forall in Hf.
      specialize (Hf i (in_map fst _ _ Hin)). simpl in Hf; lia.
  Qed.

  Lemma col_get_Some_iff c i v :
    StronglySorted lt (map fst c) -> (col_get c i = Some v <-> In (i, v) c).
  Proof. intros Hs; split; [apply col_get_In | now apply In_col_get]. Qed.

  Lemma col_get_None_iff c i : col_get c i = None <-> ~ In i (map fst c).
  Proof.
    induction c as [|[k u] c IH]; simpl; [tauto|].
    destruct (Nat.eqb_spec k i) as [->|]; [split; [discriminate|tauto]|].
    rewrite IH. split; tauto.
  Qed.

  Lemma col_get_lt n c i v : col_wf n c -> col_get c i = Some v -> i < n.
  Proof.
    intros [_ Hf] E. apply col_get_In in E. apply (in_map fst) in E.
    rewrite Forall_forall in Hf. now apply Hf.
  Qed.

  Lemma col_ext a b :
    StronglySorted lt (map fst a) -> StronglySorted lt (map fst b) ->
    (forall i, col_get a i = col_get b i) -> a = b.
  Proof.
    revert b; induction a as [|[k v] a IH]; intros [|[l u] b] Ha Hb E.
    - reflexivity.
    - specialize (E l). simpl in E. rewrite Nat.eqb_refl in E. discriminate.
    - specialize (E k). simpl in E. rewrite Nat.eqb_refl in E. discriminate.
    - simpl in Ha, Hb. inversion Ha as [|? ? Ha' Hfa]; subst. inversion Hb as [|? ? Hb' Hfb]; subst.
      assert (k = l) as ->.
      { destruct (lt_eq_lt_dec k l) as [[Hlt|]|Hlt]; auto; exfalso.
        - pose proof (E k) as Ek. simpl in Ek. rewrite Nat.eqb_refl in Ek.
          destruct (Nat.eqb_spec l k); [lia|].
          rewrite col_get_none_lt in Ek; [discriminate|].
          eapply Forall_impl; [|exact Hfb]. simpl; lia.
        - pose proof (E l) as El. simpl in El. rewrite Nat.eqb_refl in El.
          destruct (Nat.eqb_spec k l); [lia|].
          rewrite col_get_none_lt in El; [discriminate|].
          eapply Forall_impl; [|exact Hfa]. simpl; lia. }
      pose proof (E l) as El. simpl in El. rewrite Nat.eqb_refl in El. injection El as ->.
      f_equal. apply IH; auto.
      intros i. specialize (E i). simpl in E. destruct (Nat.eqb_spec l i) as [->|]; auto.
      rewrite !col_get_none_lt; auto.
  Qed.

  (** ** Upsert *)
  Lemma col_upsert_fst_in c i f k :
    In k (map fst (col_upsert c i f)) <-> k = i \/ In k (map fst c).
  Proof.
    induction c as [|[l v] c IH]; simpl; [split; intuition|].
    destruct (Nat.ltb_spec i l); simpl; [split; intuition|].
    destruct (Nat.eqb_spec i l) as [->|]; simpl; [split; intuition|].
    rewrite IH. split; intuition.
  Qed.

  Lemma col_upsert_sorted c i f :
    StronglySorted lt (map fst c) -> StronglySorted lt (map fst (col_upsert c i f)).
  Proof.
    induction c as [|[l v] c IH]; simpl; intros Hs.
    - repeat constructor.
    - inversion Hs as [|? ? Hs' Hf]; subst.
      destruct (Nat.ltb_spec i l); simpl.
      + constructor; [constructor; auto|]. constructor; auto.
        eapply Forall_impl; [|exact Hf]. simpl; lia.
      + destruct (Nat.eqb_spec i l) as [->|]; simpl; [constructor; auto|].
        constructor; auto. apply Forall_forall. intros k Hk.
        apply col_upsert_fst_in in Hk. destruct Hk as [->|Hk]; [lia|].
        rewrite Forall_forall in Hf; auto.
  Qed.

  Lemma col_upsert_wf n c i f : i < n -> col_wf n c -> col_wf n (col_upsert c i f).
  Proof.
    intros Hi [Hs Hf]. split; [now apply col_upsert_sorted|].
    apply Forall_forall. intros k Hk. apply col_upsert_fst_in in Hk.
    destruct Hk as [->|Hk]; auto. rewrite Forall_forall in Hf; auto.
  Qed.

  Lemma col_get_upsert c i f k :
    StronglySorted lt (map fst c) ->
    col_get (col_upsert c i f) k = if k =? i then Some (f (col_get c i)) else col_get c k.
  Proof.
    induction c as [|[l v] c IH]; simpl; intros Hs.
    - rewrite (Nat.eqb_sym i k). reflexivity.
    - inversion Hs as [|? ? Hs' Hf]; subst.
      destruct (Nat.ltb_spec i l) as [Hil|Hil]; simpl.
      + destruct (Nat.eqb_spec i k) as [->|Hik].
        * rewrite Nat.eqb_refl. destruct (Nat.eqb_spec l k); [lia|].
          rewrite col_get_none_lt; auto.
          eapply Forall_impl; [|exact Hf]; simpl; lia.
        * destruct (Nat.eqb_spec k i); [lia|]. reflexivity.
      + destruct (Nat.eqb_spec i l) as [->|Hn]; simpl.
        * rewrite Nat.eqb_refl, (Nat.eqb_sym k l). destruct (Nat.eqb_spec l k); auto.
        * destruct (Nat.eqb_spec l i); [lia|]. rewrite IH by auto.
          destruct (Nat.eqb_spec l k) as [->|]; auto.
          destruct (Nat.eqb_spec k i); [lia|auto].
  Qed.

  Lemma sp_wf_col M j : sp_wf M -> col_wf (sp_rows M) (sp_col M j).
  Proof.
    intros Hwf. unfold sp_col. destruct (lt_dec j (length (sp_cols M))) as [Hj|Hj].
    - unfold sp_wf in Hwf. rewrite Forall_forall in Hwf. apply Hwf. now apply nth_In.
    - rewrite nth_overflow by lia. split; constructor.
  Qed.

  Lemma sp_get_lt M i j v : sp_wf M -> sp_get M i j = Some v -> i < sp_rows M /\ j < sp_ncols M.
  Proof.
    intros Hwf E. split.
    - eapply col_get_lt; [|exact E]. now apply sp_wf_col.
    - unfold sp_get, sp_col in E. destruct (lt_dec j (sp_ncols M)); auto.
      rewrite nth_overflow in E by (unfold sp_ncols in *; lia). discriminate.
  Qed.

  Lemma coeff_out M i j : sp_wf M -> ~ (i < sp_rows M /\ j < sp_ncols M) -> coeff M i j = w0.
  Proof.
    intros Hwf Hn. unfold coeff. destruct (sp_get M i j) eqn:E; auto.
    exfalso. apply Hn. eapply sp_get_lt; eauto.
  Qed.

  Lemma sp_upsert_rows M i j f : sp_rows (sp_upsert M i j f) = sp_rows M.
  Proof. reflexivity. Qed.
  Lemma sp_upsert_ncols M i j f : sp_ncols (sp_upsert M i j f) = sp_ncols M.
  Proof. unfold sp_ncols; simpl. apply upd_nth_length. Qed.

  Lemma sp_upsert_wf M i j f : i < sp_rows M -> sp_wf M -> sp_wf (sp_upsert M i j f).
  Proof.
    intros Hi Hwf. unfold sp_wf in *. simpl.
    destruct (lt_dec j (length (sp_cols M))) as [Hj|Hj].
    - apply (Forall_nth_iff _ _ []). intros k Hk. rewrite upd_nth_length in Hk.
      rewrite nth_upd_nth by auto.
      pose proof (proj1 (Forall_nth_iff _ _ []) Hwf) as Hw.
      destruct (Nat.eqb_spec k j) as [->|]; auto. apply col_upsert_wf; auto.
    - rewrite upd_nth_out by lia. exact Hwf.
  Qed.

  Lemma sp_get_upsert M i j f k l :
    sp_wf M -> j < sp_ncols M ->
    sp_get (sp_upsert M i j f) k l =
      if (k =? i) && (l =? j) then Some (f (sp_get M i j)) else sp_get M k l.
  Proof.
    intros Hwf Hj. unfold sp_get, sp_col. simpl. rewrite nth_upd_nth by exact Hj.
    destruct (Nat.eqb_spec l j) as [->|].
    - rewrite andb_true_r. rewrite col_get_upsert; [reflexivity|].
      apply (sp_wf_col M j Hwf).
    - now rewrite andb_false_r.
  Qed.

  Lemma sp_ext A B :
    sp_rows A = sp_rows B -> sp_ncols A = sp_ncols B -> sp_wf A -> sp_wf B ->
    (forall i j, i < sp_rows A -> j < sp_ncols A -> sp_get A i j = sp_get B i j) -> A = B.
  Proof.
    intros Hr Hc HA HB E. destruct A as [ra ca], B as [rb cb]. simpl in *. subst rb.
    f_equal. unfold sp_ncols in Hc. simpl in Hc.
    apply list_eq_nth with (d := []); auto. intros j Hj.
    pose proof (sp_wf_col _ j HA) as [Sa Fa]. pose proof (sp_wf_col _ j HB) as [Sb Fb].
    unfold sp_col in *. simpl in *.
    apply col_ext; auto. intros i.
    destruct (lt_dec i ra) as [Hi|Hi].
    - now apply (E i j).
    - destruct (col_get (nth j ca []) i) eqn:E1.
      { apply col_get_In, (in_map fst) in E1. rewrite Forall_forall in Fa. apply Fa in E1. simpl in E1; lia. }
      destruct (col_get (nth j cb []) i) eqn:E2; auto.
      apply col_get_In, (in_map fst) in E2. rewrite Forall_forall in Fb. apply Fb in E2. simpl in E2; lia.
  Qed.

  (** ** Empty *)
  Lemma sp_get_empty r (c : nat) i j : sp_get (sp_empty r c : sprs W) i j = None.
  Proof. unfold sp_get, sp_col, sp_empty. simpl. rewrite nth_repeat_any. now destruct (j <? c). Qed.
  Lemma sp_empty_wf r (c : nat) : sp_wf (sp_empty r c : sprs W).
  Proof.
    unfold sp_wf, sp_empty; simpl. apply Forall_forall. intros x Hx. apply repeat_spec in Hx. subst.
    split; constructor.
  Qed.
  Lemma sp_empty_ncols r (c : nat) : sp_ncols (sp_empty r c : sprs W) = c.
  Proof. apply repeat_length. Qed.

  (** ** Filtering *)
  Lemma filter_fst_in (p : nat * W -> bool) c k :
    In k (map fst (filter p c)) -> In k (map fst c).
  Proof.
    induction c as [|e c IH]; simpl; auto. destruct (p e); simpl; intuition.
  Qed.
  Lemma filter_sorted (p : nat * W -> bool) c :
    StronglySorted lt (map fst c) -> StronglySorted lt (map fst (filter p c)).
  Proof.
    induction c as [|e c IH]; simpl; intros Hs; [constructor|].
    inversion Hs as [|? ? Hs' Hf]; subst.
    destruct (p e); simpl; auto. constructor; auto.
    apply Forall_forall. intros k Hk. apply filter_fst_in in Hk. rewrite Forall_forall in Hf; auto.
  Qed.
  Lemma filter_wf n (p : nat * W -> bool) c : col_wf n c -> col_wf n (filter p c).
  Proof.
    intros [Hs Hf]. split; [now apply filter_sorted|].
    apply Forall_forall. intros k Hk. apply filter_fst_in in Hk. rewrite Forall_forall in Hf; auto.
  Qed.
  Lemma col_get_filter (p : nat * W -> bool) c i :
    StronglySorted lt (map fst c) ->
    col_get (filter p c) i = match col_get c i with
                             | Some v => if p (i, v) then Some v else None | None => None end.
  Proof.
    induction c as [|[k v] c IH]; simpl; intros Hs; auto.
    inversion Hs as [|? ? Hs' Hf]; subst.
    destruct (Nat.eqb_spec k i) as [->|Hn].
    - destruct (p (i, v)) eqn:Ep; simpl.
      + now rewrite Nat.eqb_refl.
      + rewrite IH by auto. rewrite (col_get_none_lt c i) by exact Hf. reflexivity.
    - destruct (p (k, v)); simpl; [destruct (Nat.eqb_spec k i); [lia|]|]; auto.
  Qed.

  Lemma sp_prune_ncols p M : sp_ncols (sp_prune p M) = sp_ncols M.
  Proof. unfold sp_ncols, sp_prune; simpl. apply map_length. Qed.
  Lemma sp_prune_wf p M : sp_wf M -> sp_wf (sp_prune p M).
  Proof.
    unfold sp_wf, sp_prune; simpl. intros Hf. apply Forall_forall. intros x Hx.
    apply in_map_iff in Hx. destruct Hx as [c [<- Hc]]. rewrite Forall_forall in Hf.
    apply filter_wf; auto.
  Qed.
  Lemma sp_col_map (f : col W -> col W) r cs j : f [] = [] ->
    sp_col (mkSprs r (map f cs)) j = f (nth j cs []).
  Proof. intros E. unfold sp_col; simpl. rewrite <- E at 1. now rewrite map_nth. Qed.

  Lemma sp_get_prune p M i j : sp_wf M ->
    sp_get (sp_prune p M) i j = match sp_get M i j with
                                | Some v => if p v then Some v else None | None => None end.
  Proof.
    intros Hwf. unfold sp_get, sp_prune. rewrite sp_col_map by reflexivity.
    rewrite col_get_filter; [reflexivity|]. apply (sp_wf_col M j Hwf).
  Qed.

  (** ** Mapping *)
  Lemma map_fst_map (f : W -> W) c : map fst (map (fun e => (fst e, f (snd e))) c) = map fst c.
  Proof. rewrite map_map. reflexivity. Qed.
  Lemma col_get_map (f : W -> W) c i :
    col_get (map (fun e => (fst e, f (snd e))) c) i = option_map f (col_get c i).
  Proof.
    induction c as [|[k v] c IH]; simpl; auto. destruct (k =? i); auto.
  Qed.
  Lemma sp_map_ncols f M : sp_ncols (sp_map f M) = sp_ncols M.
  Proof. unfold sp_ncols, sp_map; simpl. apply map_length. Qed.
  Lemma sp_map_wf f M : sp_wf M -> sp_wf (sp_map f M).
  Proof.
    unfold sp_wf, sp_map; simpl. intros Hf. apply Forall_forall. intros x Hx.
    apply in_map_iff in Hx. destruct Hx as [c [<- Hc]]. rewrite Forall_forall in Hf.
    unfold col_wf. rewrite map_fst_map. now apply Hf.
  Qed.
  Lemma sp_get_map f M i j : sp_get (sp_map f M) i j = option_map f (sp_get M i j).
  Proof.
    unfold sp_get, sp_map. rewrite sp_col_map by reflexivity. apply col_get_map.
  Qed.

  (** ** Resizing (growing) *)
  Lemma sp_resize_ncols M r (c : nat) : sp_ncols (sp_resize M r c) = c.
  Proof.
    unfold sp_ncols, sp_resize; simpl. rewrite map_length, firstn_length, app_length, repeat_length.
    unfold sp_ncols. lia.
  Qed.
  Lemma sp_resize_wf M r (c : nat) : sp_wf M -> sp_wf (sp_resize M r c).
  Proof.
    unfold sp_wf, sp_resize; simpl. intros Hf. apply Forall_forall. intros x Hx.
    apply in_map_iff in Hx. destruct Hx as [cl [<- Hc]].
    assert (StronglySorted lt (map fst cl)) as Hs.
    { assert (In cl (sp_cols M ++ repeat [] (c - sp_ncols M))) as Hin.
      { rewrite <- (firstn_skipn c (sp_cols M ++ _)). apply in_or_app. now left. }
      apply in_app_or in Hin. destruct Hin as [Hin|Hin].
      - rewrite Forall_forall in Hf. apply (Hf _ Hin).
      - apply repeat_spec in Hin. subst. constructor. }
    split; [now apply filter_sorted|]. clear Hs Hc Hf.
    induction cl as [|[k v] cl IH]; simpl; [constructor|].
    destruct (Nat.ltb_spec k r); simpl; auto.
  Qed.
  Lemma nth_firstn {T : Type} (l : list T) n k d : k < n -> nth k (firstn n l) d = nth k l d.
  Proof.
    revert n k; induction l as [|x l IH]; intros [|n] [|k] Hk; simpl; auto; try lia.
    apply IH; lia.
  Qed.
  Lemma sp_get_resize M r (c : nat) i j :
    sp_wf M -> sp_rows M <= r -> sp_ncols M <= c -> sp_get (sp_resize M r c) i j = sp_get M i j.
  Proof.
    intros Hwf Hr Hc. unfold sp_get, sp_resize.
    rewrite sp_col_map by reflexivity.
    assert (nth j (firstn c (sp_cols M ++ repeat [] (c - sp_ncols M))) [] = sp_col M j) as ->.
    { unfold sp_col. destruct (lt_dec j c) as [Hj|Hj].
      - rewrite nth_firstn by auto. destruct (lt_dec j (sp_ncols M)) as [Hj'|Hj'].
        + now rewrite app_nth1 by exact Hj'.
        + rewrite app_nth2 by (unfold sp_ncols in *; lia). rewrite nth_repeat_any.
          rewrite (nth_overflow (sp_cols M)) by (unfold sp_ncols in *; lia).
          now destruct (_ <? _).
      - rewrite !nth_overflow; auto; [unfold sp_ncols in *; lia|].
        rewrite firstn_length. unfold sp_ncols in *. lia. }
    pose proof (sp_wf_col M j Hwf) as Hw.
    rewrite col_get_filter by apply Hw.
    destruct (col_get (sp_col M j) i) eqn:E; auto. simpl.
    apply (col_get_lt _ _ _ _ Hw) in E. destruct (Nat.ltb_spec i r); auto. lia.
  Qed.

  (** ** Merge *)
  Lemma col_merge_nil_l f b : col_merge f [] b = map (fun e => (fst e, f w0 (snd e))) b.
  Proof. destruct b; reflexivity. Qed.
  Lemma col_merge_nil_r f a : col_merge f a [] = map (fun e => (fst e, f (snd e) w0)) a.
  Proof. destruct a as [|[? ?] ?]; reflexivity. Qed.
  Lemma col_merge_cons f i x a j y b :
    col_merge f ((i, x) :: a) ((j, y) :: b) =
    match Nat.compare i j with
    | Lt => (i, f x w0) :: col_merge f a ((j, y) :: b)
    | Eq => (i, f x y) :: col_merge f a b
    | Gt => (j, f w0 y) :: col_merge f ((i, x) :: a) b
    end.
  Proof. reflexivity. Qed.

  Lemma col_merge_fst_in f a b k :
    In k (map fst (col_merge f a b)) <-> In k (map fst a) \/ In k (map fst b).
  Proof.
    revert b; induction a as [|[i x] a IHa]; intros b.
    - rewrite col_merge_nil_l, map_map. simpl. tauto.
    - induction b as [|[j y] b IHb].
      + rewrite col_merge_nil_r, map_map. simpl. tauto.
      + rewrite col_merge_cons. destruct (Nat.compare_spec i j) as [->|Hl|Hl].
        * simpl. rewrite IHa. tauto.
        * simpl. rewrite IHa. simpl. tauto.
        * simpl. rewrite IHb. simpl. tauto.
  Qed.

  Lemma col_merge_sorted f a b :
    StronglySorted lt (map fst a) -> StronglySorted lt (map fst b) ->
    StronglySorted lt (map fst (col_merge f a b)).
  Proof.
    revert b; induction a as [|[i x] a IHa]; intros b Ha Hb.
    - rewrite col_merge_nil_l, map_map. exact Hb.
    - induction b as [|[j y] b IHb].
      + rewrite col_merge_nil_r, map_map. exact Ha.
      + rewrite col_merge_cons.
        simpl in Ha, Hb. inversion Ha as [|? ? Ha' Fa]; subst. inversion Hb as [|? ? Hb' Fb]; subst.
        destruct (Nat.compare_spec i j) as [->|Hl|Hl]; cbn [map fst]; constructor.
        * now apply IHa.
        * apply Forall_forall. intros k Hk. apply col_merge_fst_in in Hk.
          rewrite Forall_forall in Fa, Fb. destruct Hk; auto.
        * now apply IHa.
        * apply Forall_forall. intros k Hk. apply col_merge_fst_in in Hk.
          rewrite Forall_forall in Fa, Fb. simpl in Hk. destruct Hk as [|[<-|]]; auto.
          match goal with Hb : In _ (map fst b) |- _ => specialize (Fb _ Hb); lia end.
        * apply IHb; auto.
        * apply Forall_forall. intros k Hk. apply col_merge_fst_in in Hk.
          rewrite Forall_forall in Fa, Fb. simpl in Hk. destruct Hk as [[<-|]|]; auto.
          match goal with Hb : In _ (map fst a) |- _ => specialize (Fa _ Hb); lia end.
  Qed.

  Definition omerge (f : W -> W -> W) (x y : option W) : option W :=
    match x, y with None, None => None | _, _ => Some (f (o0 x) (o0 y)) end.

  Lemma col_get_merge f a b k :
    StronglySorted lt (map fst a) -> StronglySorted lt (map fst b) ->
    col_get (col_merge f a b) k = omerge f (col_get a k) (col_get b k).
  Proof.
    revert b; induction a as [|[i x] a IHa]; intros b Ha Hb.
    - rewrite col_merge_nil_l, col_get_map. simpl. destruct (col_get b k); reflexivity.
    - induction b as [|[j y] b IHb].
      + rewrite col_merge_nil_r.
        change (map (fun e => (fst e, f (snd e) w0)) ((i,x)::a))
          with (map (fun e => (fst e, (fun u => f u w0) (snd e))) ((i,x)::a)).
        rewrite col_get_map. destruct (col_get ((i,x)::a) k); reflexivity.
      + rewrite col_merge_cons.
        simpl in Ha, Hb. inversion Ha as [|? ? Ha' Fa]; subst. inversion Hb as [|? ? Hb' Fb]; subst.
        destruct (Nat.compare_spec i j) as [->|Hl|Hl].
        * simpl. rewrite IHa by auto. destruct (j =? k); reflexivity.
        * cbn [col_get]. rewrite IHa by auto.
          destruct (Nat.eqb_spec i k) as [->|]; auto.
          destruct (Nat.eqb_spec j k); [lia|].
          cbn [col_get]. rewrite (col_get_none_lt b k); [reflexivity|].
          eapply Forall_impl; [|exact Fb]; simpl; lia.
        * cbn [col_get]. rewrite IHb by auto.
          destruct (Nat.eqb_spec j k) as [->|]; auto.
          destruct (Nat.eqb_spec i k); [lia|].
          cbn [col_get]. destruct (Nat.eqb_spec i k); [lia|].
          rewrite (col_get_none_lt a k); [reflexivity|].
          eapply Forall_impl; [|exact Fa]; simpl; lia.
  Qed.

  Lemma sp_merge_ncols f A B : sp_ncols A = sp_ncols B -> sp_ncols (sp_merge f A B) = sp_ncols A.
  Proof. unfold sp_ncols, sp_merge; simpl. rewrite map_length, combine_length. lia. Qed.
  Lemma sp_merge_col f A B j : sp_ncols A = sp_ncols B ->
    sp_col (sp_merge f A B) j = col_merge f (sp_col A j) (sp_col B j).
  Proof.
    intros Hc. unfold sp_col, sp_merge; simpl.
    set (g := fun p => col_merge f (fst p) (snd p)).
    change (@nil (nat * W)) with (g ([], [])) at 1. rewrite map_nth.
    rewrite combine_nth by exact Hc. reflexivity.
  Qed.
  Lemma sp_merge_wf f A B n m :
    sp_rows A = n -> sp_rows B = n -> sp_ncols A = m -> sp_ncols B = m ->
    sp_wf A -> sp_wf B -> sp_wf (sp_merge f A B).
  Proof.
    intros Ra Rb Ca Cb HA HB. unfold sp_wf. apply (Forall_nth_iff _ _ []). intros j Hj.
    change (nth j (sp_cols (sp_merge f A B)) []) with (sp_col (sp_merge f A B) j).
    rewrite sp_merge_col by congruence.
    pose proof (sp_wf_col A j HA) as [Sa Fa]. pose proof (sp_wf_col B j HB) as [Sb Fb].
    split; [now apply col_merge_sorted|].
    apply Forall_forall. intros k Hk. apply col_merge_fst_in in Hk. simpl.
    rewrite Forall_forall in Fa, Fb. destruct Hk as [Hk|Hk]; [auto|].
    rewrite Ra, <- Rb. auto.
  Qed.
  Lemma sp_get_merge f A B i j :
    sp_wf A -> sp_wf B -> sp_ncols A = sp_ncols B ->
    sp_get (sp_merge f A B) i j = omerge f (sp_get A i j) (sp_get B i j).
  Proof.
    intros HA HB Hc. unfold sp_get. rewrite sp_merge_col by exact Hc.
    apply col_get_merge; [apply (sp_wf_col A j HA)|apply (sp_wf_col B j HB)].
  Qed.

  (** ** Diagonal *)
  Lemma sp_diag_ncols n d : sp_ncols (sp_diag n (d : nat -> W)) = n.
  Proof. unfold sp_ncols, sp_diag; simpl. now rewrite map_length, seq_length. Qed.
  Lemma sp_diag_col n d j : sp_col (sp_diag n (d : nat -> W)) j = if j <? n then [(j, d j)] else [].
  Proof.
    unfold sp_col, sp_diag; simpl. destruct (Nat.ltb_spec j n) as [Hj|Hj].
    - now rewrite nth_map_seq by auto.
    - rewrite nth_overflow; auto. rewrite map_length, seq_length. lia.
  Qed.
  Lemma sp_diag_wf n d : sp_wf (sp_diag n (d : nat -> W)).
  Proof.
    unfold sp_wf, sp_diag; simpl. apply Forall_forall. intros c Hc. apply in_map_iff in Hc.
    destruct Hc as [i [<- Hi]]. apply in_seq in Hi. split; simpl; repeat constructor. lia.
  Qed.
  Lemma sp_get_diag n (d : nat -> W) i j :
    sp_get (sp_diag n d) i j = if (i =? j) && (j <? n) then Some (d j) else None.
  Proof.
    unfold sp_get. rewrite sp_diag_col. destruct (j <? n); simpl.
    - rewrite (Nat.eqb_sym j i), andb_true_r. destruct (i =? j); reflexivity.
    - now rewrite andb_false_r.
  Qed.

  (** ** Products with diagonal matrices *)
  Lemma col_upsert_last c i f :
    Forall (fun k => k < i) (map fst c) -> col_upsert c i f = c ++ [(i, f None)].
  Proof.
    induction c as [|[k v] c IH]; simpl; intros Hf; auto.
    inversion Hf as [|? ? Hk Hr]; subst.
    destruct (Nat.ltb_spec i k); [lia|]. destruct (Nat.eqb_spec i k); [lia|].
    now rewrite IH.
  Qed.
  (** [diag(d) * B] scales the rows, keeping the pattern of B. *)
  Lemma col_axpy_nil acc y : col_axpy acc [] y = acc.
  Proof. reflexivity. Qed.
  Lemma col_axpy_build a y acc :
    StronglySorted lt (map fst a) ->
    Forall (fun k => Forall (fun l => l < k) (map fst acc)) (map fst a) ->
    col_axpy acc a y = acc ++ map (fun e => (fst e, wmul (snd e) y)) a.
  Proof.
    revert acc; induction a as [|[k v] a IH]; intros acc Hs Hf; simpl.
    - now rewrite app_nil_r.
    - unfold col_axpy in *. simpl. inversion Hs as [|? ? Hs' Hlt]; subst.
      inversion Hf as [|? ? Hk Hr]; subst. rewrite col_upsert_last by exact Hk.
      rewrite IH; auto.
      + now rewrite <- app_assoc.
      + rewrite Forall_forall in *. intros l Hl. rewrite map_app. apply Forall_app. split; auto.
        simpl. constructor; auto.
  Qed.
  Lemma col_mul_diag_l n (d : nat -> W) b :
    col_wf n b ->
    col_mul (sp_diag n d) b = map (fun e => (fst e, wmul (d (fst e)) (snd e))) b.
  Proof.
    intros [Hs Hf]. unfold col_mul.
    assert (forall acc, Forall (fun k => Forall (fun l => l < k) (map fst acc)) (map fst b) ->
      fold_left (fun acc e => col_axpy acc (sp_col (sp_diag n d) (fst e)) (snd e)) b acc
      = acc ++ map (fun e => (fst e, wmul (d (fst e)) (snd e))) b) as Hgen.
    { induction b as [|[k v] b IH]; intros acc Ha; simpl.
      - now rewrite app_nil_r.
      - simpl in Hs, Hf, Ha. inversion Hs as [|? ? Hs' Hlt]; subst. inversion Hf as [|? ? Hk Hr]; subst.
        inversion Ha as [|? ? Hak Har]; subst.
        rewrite sp_diag_col. destruct (Nat.ltb_spec k n); [|lia].
        rewrite col_axpy_build; simpl; [|repeat constructor|repeat constructor; auto].
        rewrite IH; auto.
        + now rewrite <- app_assoc.
        + rewrite Forall_forall in *. intros l Hl. rewrite map_app. apply Forall_app. split; auto.
          simpl. constructor; auto. }
    rewrite Hgen; auto. apply Forall_forall. constructor.
  Qed.
  Lemma sp_mul_diag_l n (d : nat -> W) B :
    sp_wf B -> sp_rows B = n ->
    sp_mul (sp_diag n d) B =
      mkSprs n (map (map (fun e => (fst e, wmul (d (fst e)) (snd e)))) (sp_cols B)).
  Proof.
    intros HB Hr. unfold sp_mul. f_equal. apply map_ext_in. intros c Hc.
    apply col_mul_diag_l. unfold sp_wf in HB. rewrite Forall_forall in HB. rewrite <- Hr. auto.
  Qed.
  Lemma col_mul_single A k y :
    StronglySorted lt (map fst (sp_col A k)) ->
    col_mul A [(k, y)] = map (fun e => (fst e, wmul (snd e) y)) (sp_col A k).
  Proof.
    intros Hs. unfold col_mul. simpl. rewrite col_axpy_build; auto.
    apply Forall_forall. constructor.
  Qed.

  Lemma sp_mul_ncols A B : sp_ncols (sp_mul A B) = sp_ncols B.
  Proof. unfold sp_ncols, sp_mul; simpl. apply map_length. Qed.

  Lemma sp_get_mul_diag_l n (d : nat -> W) B i j : sp_wf B -> sp_rows B = n ->
    sp_get (sp_mul (sp_diag n d) B) i j = option_map (wmul (d i)) (sp_get B i j).
  Proof.
    intros HB Hr. rewrite sp_mul_diag_l by auto. unfold sp_get.
    rewrite sp_col_map by reflexivity. fold (sp_col B j).
    induction (sp_col B j) as [|[k v] c IH]; simpl; auto.
    destruct (Nat.eqb_spec k i) as [->|]; auto.
  Qed.
  Lemma sp_mul_diag_l_wf n d B : sp_wf B -> sp_rows B = n -> sp_wf (sp_mul (sp_diag n (d : nat -> W)) B).
  Proof.
    intros HB Hr. rewrite sp_mul_diag_l by auto. unfold sp_wf in *; simpl.
    apply Forall_forall. intros x Hx. apply in_map_iff in Hx. destruct Hx as [c [<- Hc]].
    rewrite Forall_forall in HB. unfold col_wf. rewrite map_map; simpl.
    rewrite <- Hr. apply HB; auto.
  Qed.

  Lemma sp_mul_diag_r_col A n (d : nat -> W) j : sp_wf A -> sp_ncols A = n ->
    sp_col (sp_mul A (sp_diag n d)) j =
      if j <? n then map (fun e => (fst e, wmul (snd e) (d j))) (sp_col A j) else [].
  Proof.
    intros HA Hn. unfold sp_mul. rewrite sp_col_map by reflexivity.
    change (nth j (sp_cols (sp_diag n d)) []) with (sp_col (sp_diag n d) j).
    rewrite sp_diag_col. destruct (j <? n); [|reflexivity].
    apply col_mul_single. apply (sp_wf_col A j HA).
  Qed.
  Lemma sp_get_mul_diag_r A n (d : nat -> W) i j : sp_wf A -> sp_ncols A = n ->
    sp_get (sp_mul A (sp_diag n d)) i j = option_map (fun x => wmul x (d j)) (sp_get A i j).
  Proof.
    intros HA Hn. unfold sp_get. rewrite sp_mul_diag_r_col by auto.
    destruct (Nat.ltb_spec j n) as [Hj|Hj].
    - apply (col_get_map (fun x => wmul x (d j))).
    - unfold sp_col. rewrite nth_overflow by (unfold sp_ncols in *; lia). reflexivity.
  Qed.
  Lemma sp_mul_diag_r_wf A n d : sp_wf A -> sp_ncols A = n -> sp_wf (sp_mul A (sp_diag n (d : nat -> W))).
  Proof.
    intros HA Hn. unfold sp_wf. apply (Forall_nth_iff _ _ []). intros j Hj.
    change (nth j (sp_cols ?X) []) with (sp_col X j). rewrite sp_mul_diag_r_col by auto.
    destruct (j <? n); [|split; constructor].
    unfold col_wf. rewrite map_map. simpl. apply (sp_wf_col A j HA).
  Qed.

  (** ** Triplets *)
  Lemma add_triplet_rows M t : sp_rows (add_triplet M t) = sp_rows M.
  Proof. destruct t as [[i j] v]. reflexivity. Qed.
  Lemma add_triplet_ncols M t : sp_ncols (add_triplet M t) = sp_ncols M.
  Proof. destruct t as [[i j] v]. apply sp_upsert_ncols. Qed.
  Lemma add_triplets_rows ts M : sp_rows (fold_left add_triplet ts M) = sp_rows M.
  Proof. revert M; induction ts as [|t ts IH]; intros M; simpl; auto. rewrite IH. apply add_triplet_rows. Qed.
  Lemma add_triplets_ncols ts M : sp_ncols (fold_left add_triplet ts M) = sp_ncols M.
  Proof. revert M; induction ts as [|t ts IH]; intros M; simpl; auto. rewrite IH. apply add_triplet_ncols. Qed.
  Lemma add_triplets_wf ts M :
    triplets_ok (sp_rows M) (sp_ncols M) ts = true -> sp_wf M -> sp_wf (fold_left add_triplet ts M).
  Proof.
    revert M; induction ts as [|[[i j] v] ts IH]; intros M Hok Hwf; auto.
    cbn [triplets_ok forallb] in Hok. apply andb_true_iff in Hok. destruct Hok as [Hij Hok].
    apply andb_true_iff in Hij. destruct Hij as [Hi Hj]. apply Nat.ltb_lt in Hi, Hj.
    cbn [fold_left]. apply IH.
    - rewrite add_triplet_rows, add_triplet_ncols. exact Hok.
    - apply sp_upsert_wf; auto.
  Qed.
  (** Values of the triplets at a position, in order. *)
  Definition tvals (ts : list (triplet W)) (i j : nat) : list W :=
    map snd (filter (fun t => (fst (fst t) =? i) && (snd (fst t) =? j)) ts).
  Definition sum1 (l : list W) : option W :=
    match l with [] => None | v :: r => Some (fold_left wadd r v) end.
  Lemma sp_get_add_triplets ts M i j :
    triplets_ok (sp_rows M) (sp_ncols M) ts = true -> sp_wf M ->
    sp_get (fold_left add_triplet ts M) i j =
      match sp_get M i j with
      | None => sum1 (tvals ts i j)
      | Some v => Some (fold_left wadd (tvals ts i j) v)
      end.
  Proof.
    revert M; induction ts as [|[[a b] v] ts IH]; intros M Hok Hwf.
    - simpl. destruct (sp_get M i j); reflexivity.
    - cbn [triplets_ok forallb] in Hok. apply andb_true_iff in Hok. destruct Hok as [Hij Hok].
      apply andb_true_iff in Hij. destruct Hij as [Hi Hj]. apply Nat.ltb_lt in Hi, Hj.
      cbn [fold_left]. rewrite IH.
      + simpl. rewrite sp_get_upsert by auto.
        unfold tvals; cbn [filter fst snd].
        rewrite (Nat.eqb_sym a i), (Nat.eqb_sym b j).
        destruct (Nat.eqb_spec i a) as [->|]; destruct (Nat.eqb_spec j b) as [->|]; simpl; auto.
        destruct (sp_get M a b); reflexivity.
      + rewrite add_triplet_rows, add_triplet_ncols. exact Hok.
      + apply sp_upsert_wf; auto.
  Qed.
  Lemma sp_get_set_from_triplets r (c : nat) ts M i j :
    set_from_triplets r c ts = Ok M -> sp_get M i j = sum1 (tvals ts i j).
  Proof.
    unfold set_from_triplets. destruct (triplets_ok r c ts) eqn:E; [|discriminate].
    intros [= <-]. rewrite sp_get_add_triplets.
    - now rewrite sp_get_empty.
    - rewrite sp_empty_ncols. exact E.
    - apply sp_empty_wf.
  Qed.
  Lemma set_from_triplets_shape r (c : nat) ts M :
    set_from_triplets r c ts = Ok M -> sp_rows M = r /\ sp_ncols M = c /\ sp_wf M.
  Proof.
    unfold set_from_triplets. destruct (triplets_ok r c ts) eqn:E; [|discriminate].
    intros [= <-]. rewrite add_triplets_rows, add_triplets_ncols, sp_empty_ncols.
    repeat split. apply add_triplets_wf; [rewrite sp_empty_ncols; exact E|apply sp_empty_wf].
  Qed.

  (** ** Symmetry *)
  Definition sp_sym M : Prop := forall i j, sp_get M i j = sp_get M j i.

  Lemma In_combine_seq {T : Type} (l : list T) s k x d :
    In (k, x) (combine (seq s (length l)) l) <-> s <= k < s + length l /\ x = nth (k - s) l d.
  Proof.
    revert s; induction l as [|y l IH]; intros s; simpl.
    - split; [tauto|lia].
    - rewrite IH. split.
      + intros [[= <- <-]|[Hk ->]].
        * rewrite Nat.sub_diag. split; [lia|auto].
        * split; [lia|]. replace (k - s) with (S (k - S s)) by lia. reflexivity.
      + intros [Hk ->]. destruct (Nat.eq_dec k s) as [->|Hn].
        * left. now rewrite Nat.sub_diag.
        * right. split; [lia|]. replace (k - s) with (S (k - S s)) by lia. reflexivity.
  Qed.

  Lemma is_symmetric_spec M : sp_wf M ->
    (is_symmetric M = true <->
     forall i j v, sp_get M i j = Some v -> weqb v (coeff M j i) = true).
  Proof.
    intros Hwf. unfold is_symmetric. rewrite forallb_forall. split.
    - intros Hall i j v E. destruct (sp_get_lt M i j v Hwf E) as [Hi Hj].
      assert (In (j, sp_col M j) (combine (seq 0 (sp_ncols M)) (sp_cols M))) as Hin.
      { unfold sp_ncols in *. rewrite (In_combine_seq _ 0 j _ []). split; [lia|].
        now rewrite Nat.sub_0_r. }
      specialize (Hall _ Hin). simpl in Hall. rewrite forallb_forall in Hall.
      apply (Hall (i, v)). now apply col_get_In.
    - intros Hall [k c] Hin. unfold sp_ncols in Hin. rewrite (In_combine_seq _ 0 k _ []) in Hin.
      destruct Hin as [Hk ->]. rewrite Nat.sub_0_r. apply forallb_forall. intros [i v] Hi. simpl.
      apply Hall. unfold sp_get. apply In_col_get; [apply (sp_wf_col M k Hwf)|exact Hi].
  Qed.

  (** ** CSC vectors *)
  Lemma starts_from_length s (cs : list (col W)) : length (starts_from s cs) = S (length cs).
  Proof. revert s; induction cs as [|c cs IH]; intros s; simpl; auto. Qed.
  Lemma starts_from_last s (cs : list (col W)) d : last (starts_from s cs) d = s + length (concat cs).
  Proof.
    revert s; induction cs as [|c cs IH]; intros s; simpl; [lia|].
    specialize (IH (s + length c)). rewrite app_length.
    destruct (starts_from (s + length c) cs) eqn:E.
    - destruct cs; discriminate.
    - rewrite IH. lia.
  Qed.
  Lemma starts_from_hd s (cs : list (col W)) d : hd d (starts_from s cs) = s.
  Proof. destruct cs; reflexivity. Qed.
  Lemma starts_from_nondecr s (cs : list (col W)) : nondecr (starts_from s cs) = true.
  Proof.
    revert s; induction cs as [|c cs IH]; intros s; [reflexivity|].
    specialize (IH (s + length c)).
    change (starts_from s (c :: cs)) with (s :: starts_from (s + length c) cs).
    pose proof (starts_from_hd (s + length c) cs 0) as Hh.
    destruct (starts_from (s + length c) cs) as [|x r] eqn:E.
    - reflexivity.
    - simpl in Hh. subst x. cbn [nondecr] in *. rewrite IH.
      destruct (Nat.leb_spec s (s + length c)); [reflexivity|lia].
  Qed.
  Lemma split_cols_starts s (cs : list (col W)) : split_cols (starts_from s cs) (concat cs) = cs.
  Proof.
    revert s; induction cs as [|c cs IH]; intros s; [reflexivity|].
    change (starts_from s (c :: cs)) with (s :: starts_from (s + length c) cs).
    specialize (IH (s + length c)).
    pose proof (starts_from_hd (s + length c) cs 0) as Hh.
    destruct (starts_from (s + length c) cs) as [|x r] eqn:E; [destruct cs; discriminate|].
    simpl in Hh. subst x.
    cbn [split_cols concat]. cbn [split_cols] in IH.
    replace (s + length c - s) with (length c) by lia.
    rewrite firstn_app, Nat.sub_diag, firstn_all, firstn_O, app_nil_r.
    rewrite skipn_app, Nat.sub_diag, skipn_all, skipn_O. simpl. now rewrite IH.
  Qed.
  Lemma incr_from_iff lo n c :
    incr_from lo n c = true <->
    StronglySorted lt (map fst c) /\ Forall (fun k => lo <= k < n) (map fst c).
  Proof.
    revert lo; induction c as [|[k v] c IH]; intros lo; simpl.
    - split; auto. intros _; split; constructor.
    - rewrite !andb_true_iff, Nat.leb_le, Nat.ltb_lt, IH. split.
      + intros [[Hlo Hn] [Hs Hf]]. split.
        * constructor; auto. eapply Forall_impl; [|exact Hf]. simpl; lia.
        * constructor; auto. eapply Forall_impl; [|exact Hf]. simpl; lia.
      + intros [Hs Hf]. inversion Hs as [|? ? Hs' Hlt]; subst. inversion Hf as [|? ? Hk Hr]; subst.
        repeat split; try lia; auto.
        rewrite Forall_forall in *. intros l Hl. specialize (Hlt l Hl). specialize (Hr l Hl). lia.
  Qed.
  Lemma sp_wfb_iff M : sp_wfb M = true <-> sp_wf M.
  Proof.
    unfold sp_wfb, sp_wf. rewrite forallb_forall, Forall_forall. split; intros Hx c Hc.
    - specialize (Hx c Hc). apply incr_from_iff in Hx. destruct Hx as [Hs Hf]. split; auto.
      eapply Forall_impl; [|exact Hf]. simpl; lia.
    - apply incr_from_iff. destruct (Hx c Hc) as [Hs Hf]. split; auto.
      eapply Forall_impl; [|exact Hf]. simpl; lia.
  Qed.
  Lemma combine_fst_snd {T U : Type} (l : list (T * U)) : combine (map fst l) (map snd l) = l.
  Proof. induction l as [|[a b] l IH]; simpl; congruence. Qed.

  (** Round trip through the three vectors. *)
  Lemma from_vectors_roundtrip M n :
    sp_square M n -> from_vectors (outer_starts M) (inner_indices M) (sp_values M) = Ok M.
  Proof.
    intros (Hr & Hc & Hwf). unfold from_vectors.
    destruct (rev (outer_starts M)) as [|l r] eqn:Erev.
    { apply (f_equal (@length _)) in Erev. rewrite rev_length in Erev. unfold outer_starts in Erev.
      rewrite starts_from_length in Erev. discriminate. }
    assert (l = length (inner_indices M)) as ->.
    { assert (outer_starts M = rev r ++ [l]) as E.
      { rewrite <- (rev_involutive (outer_starts M)), Erev. reflexivity. }
      pose proof (starts_from_last 0 (sp_cols M) 0) as Hl. fold (outer_starts M) in Hl.
      rewrite E, last_last in Hl. unfold inner_indices. rewrite map_length. exact Hl. }
    assert (length (inner_indices M) = length (sp_values M)) as El
      by (unfold inner_indices, sp_values; now rewrite !map_length).
    assert (mkSprs (length (outer_starts M) - 1)
              (split_cols (outer_starts M) (combine (inner_indices M) (sp_values M))) = M) as HM.
    { unfold inner_indices, sp_values. rewrite combine_fst_snd.
      unfold outer_starts. rewrite split_cols_starts, starts_from_length. simpl. rewrite Nat.sub_0_r.
      destruct M as [rr cc]. unfold sp_ncols in *. simpl in *. congruence. }
    rewrite <- El, !Nat.eqb_refl. cbn [negb]. rewrite HM, (proj2 (sp_wfb_iff M) Hwf).
    unfold outer_starts. rewrite starts_from_hd, starts_from_nondecr. reflexivity.
  Qed.

  Lemma from_vectors_shape st inn vals M :
    from_vectors st inn vals = Ok M -> sp_square M (length st - 1).
  Proof.
    unfold from_vectors. destruct (rev st) as [|l r] eqn:Er; [discriminate|].
    destruct (negb _); [discriminate|]. destruct (negb _); [discriminate|].
    destruct (_ && _) eqn:E; [|discriminate]. intros [= <-].
    apply andb_true_iff in E. destruct E as [_ Hwf]. apply sp_wfb_iff in Hwf.
    split; [reflexivity|]. split; [|exact Hwf].
    unfold sp_ncols. cbn [sp_cols]. clear.
    generalize (combine inn vals) as es.
    induction st as [|s st IH]; intros es; [reflexivity|].
    destruct st as [|t st]; [reflexivity|].
    cbn [split_cols length]. f_equal. specialize (IH (skipn (t - s) es)). simpl in *. lia.
  Qed.
End Facts.
