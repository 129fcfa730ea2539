(** Proofs about approximate PageRank. *)
From Verif Require Import Base Num RSum Sparse SparseFacts Graph GraphSpec GraphFacts GraphProps2 GraphProps5 Cluster ClusterSpec ClusterCC.
From Coq Require Import Sorting.Sorted Reals Lra.

Lemma nmem_In x l : nmem x l = true <-> In x l.
Proof.
  unfold nmem. rewrite existsb_exists. split.
  - intros [y [Hy E]]. apply Nat.eqb_eq in E. now subst.
  - intros Hx. exists x. split; auto. apply Nat.eqb_refl.
Qed.
Lemma nmem_false x l : nmem x l = false <-> ~ In x l.
Proof. rewrite <- nmem_In. destruct (nmem x l); split; congruence. Qed.
Lemma nerase_In x y l : In y (nerase x l) <-> In y l /\ y <> x.
Proof.
  unfold nerase. rewrite filter_In. destruct (Nat.eqb_spec y x); simpl; split; intros [? ?]; split; auto; congruence.
Qed.

Section Vec.
  Context {W : Type} `{Num W}.
  Implicit Types (x : sprs W).

  Lemma vget_keys x u : ~ In u (vkeys x) -> vget x u = w0.
  Proof.
    unfold vkeys, vget, coeff, sp_get. intros Hn.
    apply col_get_None_iff in Hn. now rewrite Hn.
  Qed.
  Lemma vgrow_spec x u : vwf x -> vwf (vgrow x u) /\ u < sp_rows (vgrow x u) /\
    sp_rows x <= sp_rows (vgrow x u) /\ sp_col (vgrow x u) 0 = sp_col x 0.
  Proof.
    intros [Hc Hw]. unfold vgrow. destruct (Nat.leb_spec (sp_rows x) u) as [Hle|Hlt].
    - split; [split; [apply sp_resize_ncols|now apply sp_resize_wf]|]. split; [simpl; lia|]. split; [simpl; lia|].
      pose proof (sp_wf_col x 0 Hw) as [_ Hb]. unfold sp_resize, sp_col, sp_ncols in *. simpl.
      destruct (sp_cols x) as [|c [|c2 cs]] eqn:Ec; simpl in *; try discriminate.
      apply filter_all. intros e He. apply Nat.ltb_lt.
      rewrite Forall_forall in Hb. specialize (Hb (fst e) (in_map _ _ _ He)). lia.
    - repeat split; auto.
  Qed.
  Lemma vset_wf x u v : vwf x -> u < sp_rows x -> vwf (vset x u v).
  Proof.
    intros [Hc Hw] Hu. unfold vset, coeffRef_set. split; [now rewrite sp_upsert_ncols|now apply sp_upsert_wf].
  Qed.
  Lemma vget_vset x u v k : vwf x -> vget (vset x u v) k = if k =? u then v else vget x k.
  Proof.
    intros [Hc Hw]. unfold vget, coeff, vset, coeffRef_set. rewrite sp_get_upsert by (auto; lia).
    destruct (Nat.eqb_spec k u) as [->|Hne]; simpl; auto.
  Qed.
  Lemma vkeys_vset x u v k : vwf x -> In k (vkeys (vset x u v)) <-> k = u \/ In k (vkeys x).
  Proof.
    intros [Hc Hw]. unfold vkeys, vset, coeffRef_set, sp_upsert, sp_col. simpl.
    rewrite nth_upd_nth by (unfold sp_ncols in Hc; lia). simpl. apply col_upsert_fst_in.
  Qed.
End Vec.

Section Generic.
  Context {W : Type} `{Num W}.
  Variable lg : lgraph W.
  Hypothesis Hlg : lg_ok lg.
  (** A set of existing vertices closed under taking neighbours. *)
  Variable P : nat -> Prop.
  Hypothesis P_has : forall v, P v -> lg_has lg v.
  Hypothesis P_closed : forall v u, P v -> In u (nb lg v) -> P u.

  Lemma lg_degrees_ok vs : (forall v, In v vs -> lg_has lg v) -> lg_degrees lg vs = Ok (map (dg lg) vs).
  Proof.
    induction vs as [|v vs IH]; simpl; intros Hv; auto.
    rewrite (lo_deg lg Hlg) by auto. simpl. rewrite IH by auto. reflexivity.
  Qed.
  Lemma lg_degrees_inv vs ds : lg_degrees lg vs = Ok ds -> (forall v, In v vs -> lg_has lg v) /\ ds = map (dg lg) vs.
  Proof.
    revert ds. induction vs as [|v vs IH]; simpl; intros ds E; [injection E as <-; split; [tauto|auto]|].
    destruct (lg_exists lg (Z.of_nat v)) eqn:Ev.
    - rewrite (lo_deg lg Hlg v Ev) in E. simpl in E. destruct (lg_degrees lg vs) as [l| |] eqn:E2; try discriminate.
      simpl in E. injection E as <-. destruct (IH l eq_refl) as [Hv ->]. split; auto.
      intros u [<-|Hu]; auto.
    - destruct (lo_bad lg Hlg v) as [e Ee]; [unfold lg_has; congruence|]. rewrite Ee in E. discriminate.
  Qed.

  (** Shape of a vector: well-formed with all stored positions in [P]. *)
  Definition vin (x : sprs W) : Prop := vwf x /\ forall k, In k (vkeys x) -> P k.

  Lemma vgrow_keys (x : sprs W) u : vwf x -> vkeys (vgrow x u) = vkeys x.
  Proof. intros Hx. unfold vkeys. now rewrite (proj2 (proj2 (proj2 (vgrow_spec x u Hx)))). Qed.
  Lemma vgrow_get (x : sprs W) u k : vwf x -> vget (vgrow x u) k = vget x k.
  Proof.
    intros Hx. unfold vget, coeff, sp_get. now rewrite (proj2 (proj2 (proj2 (vgrow_spec x u Hx)))).
  Qed.

  Lemma push_edge_shape (alpha d : W) u (r : sprs W) e : vwf r ->
    let r' := push_edge alpha d u r e in
    vwf r' /\ (forall k, In k (vkeys r') <-> k = v2 e \/ In k (vkeys r)) /\
    (forall k, k <> v2 e -> vget r' k = vget r k) /\ sp_rows r <= sp_rows r'.
  Proof.
    intros Hr. unfold push_edge. cbv zeta. destruct (vgrow_spec r (v2 e) Hr) as (Hw & Hlt & Hle & Hc).
    split; [now apply vset_wf|]. split.
    - intros k. rewrite vkeys_vset by auto. now rewrite vgrow_keys.
    - split; [|exact Hle]. intros k Hk. rewrite vget_vset by auto. destruct (Nat.eqb_spec k (v2 e)); [congruence|].
      now rewrite vgrow_get.
  Qed.
  Lemma push_edges_shape (alpha d : W) u es : forall r, vwf r ->
    let r' := fold_left (push_edge alpha d u) es r in
    vwf r' /\ (forall k, In k (vkeys r') <-> In k (map v2 es) \/ In k (vkeys r)) /\
    (forall k, ~ In k (map v2 es) -> vget r' k = vget r k) /\ sp_rows r <= sp_rows r'.
  Proof.
    induction es as [|e es IH]; intros r Hr; simpl.
    - repeat split; auto; try apply Hr. intros [[]|?]; auto.
    - destruct (push_edge_shape alpha d u r e Hr) as (Hw & Hk & Hg & Hrow).
      destruct (IH _ Hw) as (Hw' & Hk' & Hg' & Hrow'). split; [exact Hw'|]. split; [|split; [|lia]].
      + intros k. rewrite Hk', Hk. split; intuition congruence.
      + intros k Hn. rewrite Hg' by tauto. apply Hg. intros ->. apply Hn. now left.
  Qed.

  Lemma push_shape p r alpha u : vin p -> vin r -> P u -> In u (vkeys r) ->
    exists p' r', push lg p r alpha u = Ok (p', r') /\ vin p' /\ vin r' /\
      (forall k, In k (vkeys p') <-> k = u \/ In k (vkeys p)) /\
      (forall k, In k (vkeys r') <-> In k (nb lg u) \/ In k (vkeys r)) /\
      (forall k, k <> u -> ~ In k (nb lg u) -> vget r' k = vget r k) /\
      r' = vset (fold_left (push_edge alpha (dg lg u) u) (nbe lg u) r) u
             (wdiv (wmul (wsub w1 alpha) (vget (fold_left (push_edge alpha (dg lg u) u) (nbe lg u) r) u)) (wadd w1 w1)) /\
      (forall k, vget p' k = if k =? u then wadd (vget p u) (wmul alpha (vget r u)) else vget p k).
  Proof.
    intros [Hp HpP] [Hr HrP] Hu Hur. unfold push.
    rewrite (lo_deg lg Hlg) by auto. rewrite (lo_neigh lg Hlg) by auto. cbn [obind].
    destruct (vgrow_spec p u Hp) as (Hwp & Hlt & _ & _).
    destruct (push_edges_shape alpha (dg lg u) u (nbe lg u) r Hr) as (Hw & Hk & Hg & Hrow).
    assert (Hur' : u < sp_rows r).
    { destruct Hr as [_ Hwf]. unfold vkeys in Hur. pose proof (sp_wf_col r 0 Hwf) as [_ Hb].
      rewrite Forall_forall in Hb. now apply Hb. }
    do 2 eexists. split; [reflexivity|].
    assert (Hkp : forall k, In k (vkeys (vset (vgrow p u) u (wadd (vget (vgrow p u) u) (wmul alpha (vget r u))))) <-> k = u \/ In k (vkeys p)).
    { intros k. rewrite vkeys_vset by auto. now rewrite vgrow_keys. }
    assert (Hkr : forall k, In k (vkeys (vset (fold_left (push_edge alpha (dg lg u) u) (nbe lg u) r) u
             (wdiv (wmul (wsub w1 alpha) (vget (fold_left (push_edge alpha (dg lg u) u) (nbe lg u) r) u)) (wadd w1 w1))))
             <-> In k (nb lg u) \/ In k (vkeys r)).
    { intros k. rewrite vkeys_vset by auto. rewrite Hk. fold (nb lg u). split; [|auto]. intros [->|?]; auto. }
    split; [|split; [|split; [exact Hkp|split; [exact Hkr|split; [|split; [reflexivity|]]]]]].
    - split; [now apply vset_wf|]. intros k Hkk. apply Hkp in Hkk. destruct Hkk as [->|?]; auto.
    - split; [apply vset_wf; [exact Hw|lia]|]. intros k Hkk. apply Hkr in Hkk. destruct Hkk as [Hn|?]; auto.
      now apply (P_closed u).
    - intros k Hne Hn. rewrite vget_vset by auto. destruct (Nat.eqb_spec k u); [congruence|]. now apply Hg.
    - intros k. rewrite vget_vset by auto. now rewrite !vgrow_get by auto.
  Qed.

  (** ** The queue *)
  Definition small (eps : W) (r : sprs W) (k : nat) : Prop := wleb (wmul eps (dg lg k)) (vget r k) = false.

  Lemma apr_scan_spec eps r es : forall q mem,
    (forall k, In k mem <-> In k q) ->
    exists q' mem', apr_scan eps r es (map (dg lg) (map v2 es)) q mem = Ok (q', mem') /\
      (forall k, In k mem' <-> In k q') /\
      (forall k, In k q -> In k q') /\
      (forall k, In k q' -> In k q \/ (In k (map v2 es) /\ wleb (wmul eps (dg lg k)) (vget r k) = true)) /\
      (forall k, In k (map v2 es) -> In k q' \/ small eps r k).
  Proof.
    induction es as [|e es IH]; intros q mem Hm; simpl.
    - exists q, mem. repeat split; auto; try apply Hm; try tauto.
    - destruct (wleb (wmul eps (dg lg (v2 e))) (vget r (v2 e))) eqn:E; cbn [andb].
      + destruct (nmem (v2 e) mem) eqn:Em; cbn [negb].
        * destruct (IH q mem Hm) as (q' & mem' & -> & Hm' & Hi & Hf & Hs). exists q', mem'.
          split; [reflexivity|]. split; [exact Hm'|]. split; [exact Hi|]. split.
          -- intros k Hk. destruct (Hf k Hk) as [?|[? ?]]; auto.
          -- intros k [<-|Hk]; auto. left. apply Hi, Hm. now apply nmem_In.
        * destruct (IH (q ++ [v2 e]) (v2 e :: mem)) as (q' & mem' & -> & Hm' & Hi & Hf & Hs).
          { intros k. simpl. rewrite in_app_iff, Hm. simpl. tauto. }
          exists q', mem'. split; [reflexivity|]. split; [exact Hm'|]. split; [|split].
          -- intros k Hk. apply Hi. apply in_app_iff. auto.
          -- intros k Hk. destruct (Hf k Hk) as [Hq|[? ?]]; auto.
             apply in_app_iff in Hq. destruct Hq as [?|[<-|[]]]; auto.
          -- intros k [<-|Hk]; auto. left. apply Hi. apply in_app_iff. right. now left.
      + destruct (IH q mem Hm) as (q' & mem' & -> & Hm' & Hi & Hf & Hs). exists q', mem'.
        split; [reflexivity|]. split; [exact Hm'|]. split; [exact Hi|]. split.
        * intros k Hk. destruct (Hf k Hk) as [?|[? ?]]; auto.
        * intros k [<-|Hk]; auto.
  Qed.

  Lemma apr_init_spec eps r us : forall q mem,
    (forall k, In k mem <-> In k q) ->
    exists q' mem', apr_init eps r us (map (dg lg) us) q mem = Ok (q', mem') /\
      (forall k, In k mem' <-> In k q') /\
      (forall k, In k q -> In k q') /\
      (forall k, In k q' -> In k q \/ (In k us /\ weqb (dg lg k) w0 = false /\ wleb (wmul eps (dg lg k)) (vget r k) = true)) /\
      (forall k, In k us -> In k q' \/ weqb (dg lg k) w0 = true \/ small eps r k) /\
      (NoDup q -> NoDup us -> (forall k, In k us -> ~ In k q) -> NoDup q').
  Proof.
    induction us as [|u us IH]; intros q mem Hm; simpl.
    - exists q, mem. repeat split; auto; try apply Hm; try tauto.
    - destruct (wleb (wmul eps (dg lg u)) (vget r u)) eqn:E; cbn [andb].
      + destruct (weqb (dg lg u) w0) eqn:E0; cbn [negb].
        * destruct (IH q mem Hm) as (q' & mem' & -> & Hm' & Hi & Hf & Hs & Hn). exists q', mem'.
          split; [reflexivity|]. split; [exact Hm'|]. split; [exact Hi|]. split; [|split].
          -- intros k Hk. destruct (Hf k Hk) as [?|[? ?]]; auto.
          -- intros k [<-|Hk]; auto.
          -- intros Hq Hus Hd. inversion Hus; subst. apply Hn; auto.
        * destruct (IH (q ++ [u]) (u :: mem)) as (q' & mem' & -> & Hm' & Hi & Hf & Hs & Hn).
          { intros k. simpl. rewrite in_app_iff, Hm. simpl. tauto. }
          exists q', mem'. split; [reflexivity|]. split; [exact Hm'|]. split; [|split; [|split]].
          -- intros k Hk. apply Hi. apply in_app_iff. auto.
          -- intros k Hk. destruct (Hf k Hk) as [Hq|[? ?]]; auto.
             apply in_app_iff in Hq. destruct Hq as [?|[<-|[]]]; auto.
          -- intros k [<-|Hk]; auto. left. apply Hi. apply in_app_iff. right. now left.
          -- intros Hq Hus Hd. inversion Hus; subst. apply Hn; auto.
             ++ apply nodup_app; auto; [repeat constructor; auto|]. intros k Hk [<-|[]]. apply (Hd u); auto.
             ++ intros k Hk Hin. apply in_app_iff in Hin. destruct Hin as [Hin|[<-|[]]]; [|tauto].
                apply (Hd k); auto.
      + destruct (IH q mem Hm) as (q' & mem' & -> & Hm' & Hi & Hf & Hs & Hn). exists q', mem'.
        split; [reflexivity|]. split; [exact Hm'|]. split; [exact Hi|]. split; [|split].
        * intros k Hk. destruct (Hf k Hk) as [?|[? ?]]; auto.
        * intros k [<-|Hk]; auto.
        * intros Hq Hus Hd. inversion Hus; subst. apply Hn; auto.
  Qed.

  (** Invariant of the main loop. *)
  Record apr_inv (eps : W) (p r : sprs W) (q mem : list nat) : Prop := {
    ai_p : vin p; ai_r : vin r;
    ai_mem : forall k, In k mem <-> In k q;
    ai_q : forall k, In k q -> In k (vkeys r);
    ai_nd : NoDup q;
    ai_small : forall k, In k (vkeys r) -> In k q \/ weqb (dg lg k) w0 = true \/ small eps r k }.

  Lemma apr_scan_nodup eps r es : forall q mem,
    (forall k, In k mem <-> In k q) -> NoDup q ->
    forall q' mem', apr_scan eps r es (map (dg lg) (map v2 es)) q mem = Ok (q', mem') -> NoDup q'.
  Proof.
    induction es as [|e es IH]; intros q mem Hm Hn q' mem'; simpl.
    - now intros [= <- _].
    - destruct (wleb (wmul eps (dg lg (v2 e))) (vget r (v2 e)) && negb (nmem (v2 e) mem)) eqn:E.
      + apply IH.
        * intros k. simpl. rewrite in_app_iff, Hm. simpl. tauto.
        * apply andb_true_iff in E. destruct E as [_ E]. apply negb_true_iff, nmem_false in E.
          apply nodup_app; auto; [repeat constructor; auto|]. intros k Hk [<-|[]]. apply E, Hm, Hk.
      + now apply IH.
  Qed.

  Lemma apr_step_inv alpha eps p r u q mem : apr_inv eps p r (u :: q) mem ->
    exists p' r' q' mem', apr_step lg alpha eps p r u q mem = Ok (p', r', q', mem') /\
      push lg p r alpha u = Ok (p', r') /\ apr_inv eps p' r' q' mem' /\
      (forall k, In k q' -> In k q \/ wleb (wmul eps (dg lg k)) (vget r' k) = true).
  Proof.
    intros [Hp Hr Hm Hq Hn Hs].
    assert (Hu : In u (vkeys r)) by (apply Hq; now left).
    assert (HPu : P u) by (now apply Hr).
    destruct (push_shape p r alpha u Hp Hr HPu Hu) as (p' & r' & E & Hp' & Hr' & Hkp & Hkr & Hg & _ & _).
    unfold apr_step. rewrite E. cbn [obind]. rewrite (lo_deg lg Hlg) by auto. cbn [obind].
    rewrite (lo_nunw lg Hlg) by auto. rewrite (lo_neigh lg Hlg) by auto. cbn [obind].
    rewrite lg_degrees_ok by (intros v Hv; apply P_has; now apply (P_closed u)). cbn [obind].
    set (b := wleb (wmul eps (dg lg u)) (vget r' u)).
    inversion Hn as [|? ? Hnu Hnq]; subst.
    assert (Hm0 : forall k, In k (nerase u mem) <-> In k q).
    { intros k. rewrite nerase_In, Hm. simpl. split; [intros [[->|?] ?]; tauto|]. intros Hk. split; auto.
      intros ->. tauto. }
    assert (Hm1 : forall k, In k (snd (if b then (u :: q, u :: nerase u mem) else (q, nerase u mem))) <->
                            In k (fst (if b then (u :: q, u :: nerase u mem) else (q, nerase u mem)))).
    { intros k. destruct b; simpl; rewrite Hm0; tauto. }
    assert (Hnd1 : NoDup (fst (if b then (u :: q, u :: nerase u mem) else (q, nerase u mem)))).
    { destruct b; simpl; auto. }
    destruct (if b then (u :: q, u :: nerase u mem) else (q, nerase u mem)) as [q1 mem1] eqn:Eq1. simpl in Hm1, Hnd1.
    destruct (apr_scan_spec eps r' (nbe lg u) q1 mem1 Hm1) as (q' & mem' & Es & Hm' & Hi & Hf & Hsc).
    fold (nb lg u) in Es. rewrite Es. cbn [obind fst snd]. exists p', r', q', mem'. split; [reflexivity|]. split; [reflexivity|].
    assert (Hq1 : forall k, In k q1 -> In k q \/ (k = u /\ b = true)).
    { intros k Hk. destruct b; injection Eq1 as <- <-; [destruct Hk as [<-|?]; auto|auto]. }
    split; [constructor; auto|].
    - intros k Hk. apply Hkr. destruct (Hf k Hk) as [Hk1|[Hk1 _]]; [|now left].
      right. destruct (Hq1 k Hk1) as [Hkq|[-> _]]; auto. apply Hq. now right.
    - eapply apr_scan_nodup; [exact Hm1|exact Hnd1|exact Es].
    - intros k Hk. destruct (in_dec Nat.eq_dec k (nb lg u)) as [Hnb|Hnb].
      + destruct (Hsc k Hnb); auto.
      + destruct (Nat.eq_dec k u) as [->|Hne].
        * unfold b in Eq1. destruct (wleb (wmul eps (dg lg u)) (vget r' u)) eqn:Eb.
          -- left. apply Hi. injection Eq1 as <- <-. now left.
          -- right. right. exact Eb.
        * apply Hkr in Hk. destruct Hk as [?|Hk]; [tauto|].
          destruct (Hs k Hk) as [[->|Hkq]|[?|Hsm]]; [congruence| |auto|].
          -- left. apply Hi. destruct b; injection Eq1 as <- <-; [now right|auto].
          -- right. right. unfold small in *. now rewrite Hg.
    - intros k Hk. destruct (Hf k Hk) as [Hk1|[_ Hk1]]; [|auto].
      destruct (Hq1 k Hk1) as [?|[-> Hb]]; auto.
  Qed.

  Lemma apr_loop_post alpha eps : forall fuel p r q mem p' r',
    apr_inv eps p r q mem -> apr_loop fuel lg alpha eps p r q mem = Some (Ok (p', r')) ->
    exists mem', apr_inv eps p' r' [] mem'.
  Proof.
    induction fuel as [|fuel IH]; intros p r q mem p' r' Hinv; destruct q as [|u q]; simpl; try discriminate.
    - intros [= <- <-]. eauto.
    - intros [= <- <-]. eauto.
    - destruct (apr_step_inv alpha eps p r u q mem Hinv) as (p1 & r1 & q1 & mem1 & -> & _ & Hinv1 & _).
      now apply IH.
  Qed.
  Lemma apr_start eps s q mem ds : vin s ->
    lg_degrees lg (inner_indices s) = Ok ds -> apr_init eps s (inner_indices s) ds [] [] = Ok (q, mem) ->
    apr_inv eps (sp_empty (sp_rows s) 1) s q mem /\
    (forall k, In k q -> weqb (dg lg k) w0 = false /\ wleb (wmul eps (dg lg k)) (vget s k) = true).
  Proof.
    intros Hs Ed Ei. destruct (lg_degrees_inv _ _ Ed) as [Hv ->].
    destruct (apr_init_spec eps s (inner_indices s) [] []) as (q' & mem' & E & Hm & _ & Hf & Hsm & Hn); [tauto|].
    rewrite E in Ei. injection Ei as <- <-.
    assert (Ek : inner_indices s = vkeys s).
    { destruct Hs as [[Hc _] _]. unfold inner_indices, vkeys, sp_col, sp_ncols in *.
      destruct (sp_cols s) as [|c [|? ?]]; simpl in *; try discriminate. now rewrite app_nil_r. }
    split; [constructor; auto|].
    - split; [split; [apply sp_empty_ncols|apply sp_empty_wf]|]. intros k []. 
    - intros k Hk. destruct (Hf k Hk) as [[]|[Hk' _]]. now rewrite <- Ek.
    - apply Hn; [constructor| |auto]. rewrite Ek. destruct Hs as [[_ Hwf] _]. 
      pose proof (sp_wf_col s 0 Hwf) as [Hss _]. unfold vkeys. clear -Hss.
      induction Hss as [|x l Hss IH Hf]; constructor; auto.
      intros Hin. rewrite Forall_forall in Hf. specialize (Hf x Hin). lia.
    - intros k Hk. rewrite <- Ek in Hk. now apply Hsm.
    - intros k Hk. destruct (Hf k Hk) as [[]|[_ Hk']]. exact Hk'.
  Qed.
End Generic.
