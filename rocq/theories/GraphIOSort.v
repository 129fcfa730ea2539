(** sort_edgelist sorts (C37). *)
From Verif Require Import Base Num Sparse Graph Cluster ClusterSweep Text TextFacts GraphIO IOSpec GraphIOFacts GraphIOLoad.
From Coq Require Import Ascii String List Sorting.Sorted Permutation.
Import ListNotations.
Local Open Scope nat_scope.
Local Open Scope list_scope.

Section Sort.
  Context {W : Type} `{Num W} `{!TextNum W}.

  (** The first id on a content line. *)
  Definition first_id (l : text) : Z := match parse_edge_line (W := W) l with Ok (u, _, _) => u | _ => (-1)%Z end.
  Definition parses (l : text) : Prop := exists e, parse_edge_line (W := W) l = Ok e.

  Definition contents (ls : list text) : list text := filter is_content ls.
  Fixpoint lead (ls : list text) : list text :=
    match ls with [] => [] | l :: r => if is_content l then [] else l :: lead r end.

  Definition minf (l : list text) (m : Z) : Z := fold_left (fun m x => if (first_id x <? m)%Z then first_id x else m) l m.
  Definition maxf (l : list text) (m : Z) : Z := fold_left (fun m x => if (m <? first_id x)%Z then first_id x else m) l m.
  Definition below (dp : Z) (l : text) : bool := (2 * first_id l <? dp)%Z.
  Definition above (dp : Z) (l : text) : bool := (dp <=? 2 * first_id l)%Z.

  Lemma first_id_parse l u v w : parse_edge_line (W := W) l = Ok (u, v, w) -> first_id l = u.
  Proof. unfold first_id. now intros ->. Qed.

  Lemma scan_left dp ls wc mn mx : Forall parses (contents ls) ->
    sort_scan true dp ls wc mn mx =
    Ok ((if wc then [] else lead ls) ++ filter (below dp) (contents ls),
        wc || negb (Nat.eqb (List.length (contents ls)) 0),
        minf (filter (below dp) (contents ls)) mn, maxf (filter (below dp) (contents ls)) mx).
  Proof.
    revert wc mn mx. induction ls as [|l ls IH]; intros wc mn mx Hp; cbn [sort_scan contents filter lead] in *.
    - destruct wc; reflexivity.
    - fold (contents ls) in *. destruct (is_content l) eqn:Ec.
      + apply Forall_cons_iff in Hp. destruct Hp as [[[[u v] w] E] Hp]. rewrite E. cbn [rethrow obind].
        pose proof (first_id_parse _ _ _ _ E) as Ek. assert (below dp l = (2 * u <? dp)%Z) as Eb by (unfold below; now rewrite Ek). cbn [filter]. rewrite Eb.
        destruct (Z.ltb_spec (2 * u) dp) as [Hlt|Hge].
        * rewrite (IH true) by auto. cbn [obind app orb]. unfold minf, maxf. cbn [fold_left]. rewrite Ek.
          destruct wc; reflexivity.
        * rewrite (IH true) by auto. destruct wc; reflexivity.
      + destruct wc; cbn [negb andb].
        * rewrite IH by auto. reflexivity.
        * rewrite IH by auto. reflexivity.
  Qed.
  Lemma scan_right dp ls wc mn mx : Forall parses (contents ls) ->
    sort_scan false dp ls wc mn mx =
    Ok (filter (above dp) (contents ls), wc,
        minf (filter (above dp) (contents ls)) mn, maxf (filter (above dp) (contents ls)) mx).
  Proof.
    revert wc mn mx. induction ls as [|l ls IH]; intros wc mn mx Hp; cbn [sort_scan contents filter lead] in *.
    - reflexivity.
    - fold (contents ls) in *. destruct (is_content l) eqn:Ec.
      + apply Forall_cons_iff in Hp. destruct Hp as [[[[u v] w] E] Hp]. rewrite E. cbn [rethrow obind].
        pose proof (first_id_parse _ _ _ _ E) as Ek. assert (above dp l = (dp <=? 2 * u)%Z) as Eb by (unfold above; now rewrite Ek). cbn [filter]. rewrite Eb.
        destruct (Z.leb_spec dp (2 * u)) as [Hle|Hlt].
        * rewrite IH by auto. cbn [obind]. unfold minf, maxf. cbn [fold_left]. rewrite Ek. reflexivity.
        * rewrite IH by auto. reflexivity.
      + cbn [andb]. apply IH. auto.
  Qed.

  (** Smallest and largest id of a segment. *)
  Definition lo (s : list text) : Z := match s with [] => 0%Z | x :: r => minf r (first_id x) end.
  Definition hi (s : list text) : Z := match s with [] => 0%Z | x :: r => maxf r (first_id x) end.
  Lemma minf_spec l m : (minf l m <= m)%Z /\ (forall x, In x l -> minf l m <= first_id x)%Z /\
    (minf l m = m \/ exists x, In x l /\ minf l m = first_id x).
  Proof.
    revert m; induction l as [|y l IH]; intros m; unfold minf in *; cbn [fold_left].
    - split; [lia|]. split; [intros x []|auto].
    - destruct (IH (if (first_id y <? m)%Z then first_id y else m)) as (I1 & I2 & I3).
      set (f := fold_left _ _ _) in *. destruct (Z.ltb_spec (first_id y) m).
      + split; [lia|]. split; [intros x [<-|Hx]; [lia|auto]|]. destruct I3 as [I3|(x & Hx & Ex)]; right; eauto using in_eq, in_cons.
      + split; [lia|]. split; [intros x [<-|Hx]; [lia|auto]|]. destruct I3 as [I3|(x & Hx & Ex)]; [auto|right; eauto using in_cons].
  Qed.
  Lemma maxf_spec l m : (m <= maxf l m)%Z /\ (forall x, In x l -> first_id x <= maxf l m)%Z /\
    (maxf l m = m \/ exists x, In x l /\ maxf l m = first_id x).
  Proof.
    revert m; induction l as [|y l IH]; intros m; unfold maxf in *; cbn [fold_left].
    - split; [lia|]. split; [intros x []|auto].
    - destruct (IH (if (m <? first_id y)%Z then first_id y else m)) as (I1 & I2 & I3).
      set (f := fold_left _ _ _) in *. destruct (Z.ltb_spec m (first_id y)).
      + split; [lia|]. split; [intros x [<-|Hx]; [lia|auto]|]. destruct I3 as [I3|(x & Hx & Ex)]; right; eauto using in_eq, in_cons.
      + split; [lia|]. split; [intros x [<-|Hx]; [lia|auto]|]. destruct I3 as [I3|(x & Hx & Ex)]; [auto|right; eauto using in_cons].
  Qed.
  Lemma lo_le s x : In x s -> (lo s <= first_id x)%Z.
  Proof.
    destruct s as [|y s]; [intros []|]. unfold lo. destruct (minf_spec s (first_id y)) as (I1 & I2 & _).
    intros [<-|Hx]; auto.
  Qed.
  Lemma hi_ge s x : In x s -> (first_id x <= hi s)%Z.
  Proof.
    destruct s as [|y s]; [intros []|]. unfold hi. destruct (maxf_spec s (first_id y)) as (I1 & I2 & _).
    intros [<-|Hx]; auto.
  Qed.
  Lemma lo_in s : s <> [] -> exists x, In x s /\ lo s = first_id x.
  Proof.
    destruct s as [|y s]; [congruence|]. intros _. unfold lo. destruct (minf_spec s (first_id y)) as (_ & _ & [E|(x & Hx & E)]).
    - exists y. simpl. auto.
    - exists x. simpl. auto.
  Qed.
  Lemma hi_in s : s <> [] -> exists x, In x s /\ hi s = first_id x.
  Proof.
    destruct s as [|y s]; [congruence|]. intros _. unfold hi. destruct (maxf_spec s (first_id y)) as (_ & _ & [E|(x & Hx & E)]).
    - exists y. simpl. auto.
    - exists x. simpl. auto.
  Qed.
  (** The bounds computed by a scan that starts from (hi bound, lo bound). *)
  Lemma minf_lo s M : s <> [] -> (forall x, In x s -> first_id x <= M)%Z -> minf s M = lo s.
  Proof.
    intros Hne Hb. destruct (minf_spec s M) as (I1 & I2 & I3). destruct (lo_in s Hne) as (x & Hx & Ex).
    pose proof (I2 x Hx). destruct I3 as [I3|(y & Hy & Ey)].
    - specialize (Hb x Hx). lia.
    - pose proof (lo_le s y Hy). lia.
  Qed.
  Lemma maxf_hi s m : s <> [] -> (forall x, In x s -> m <= first_id x)%Z -> maxf s m = hi s.
  Proof.
    intros Hne Hb. destruct (maxf_spec s m) as (I1 & I2 & I3). destruct (hi_in s Hne) as (x & Hx & Ex).
    pose proof (I2 x Hx). destruct I3 as [I3|(y & Hy & Ey)].
    - specialize (Hb x Hx). lia.
    - pose proof (hi_ge s y Hy). lia.
  Qed.

  (** A segment still to be sorted has two different ids. *)
  Definition active (s : list text) : bool := (lo s <? hi s)%Z.
  Lemma active_length s : active s = true -> 2 <= List.length s.
  Proof.
    unfold active. destruct s as [|x [|y s]]; simpl; intros E; try lia; apply Z.ltb_lt in E; unfold lo, hi, minf, maxf in E; simpl in E; lia.
  Qed.
  Lemma new_ivl_active s st en (m M : Z) : (m <= M)%Z -> (forall x, In x s -> m <= first_id x <= M)%Z ->
    List.length s <= en - st ->
    new_ivl st en (minf s M) (maxf s m) = if active s then [mkIvl st en (lo s) (hi s)] else [].
  Proof.
    intros HmM Hb Hl. unfold new_ivl. destruct s as [|x s].
    - unfold minf, maxf, active, lo, hi. cbn [fold_left]. destruct (Z.ltb_spec M m); [lia|]. rewrite andb_false_r. reflexivity.
    - assert (x :: s <> []) as Hne by discriminate.
      rewrite minf_lo, maxf_hi by (auto; intros y Hy; apply Hb in Hy; lia). fold (active (x :: s)).
      destruct (active (x :: s)) eqn:Ea; [|now rewrite andb_false_r]. apply active_length in Ea as Hlen.
      destruct (Nat.ltb_spec 1 (en - st)); [reflexivity|lia].
  Qed.

  Definition pivot (s : list text) : Z := (lo s + hi s)%Z.
  Definition split_seg (s : list text) : list (list text) :=
    if active s then [filter (below (pivot s)) s; filter (above (pivot s)) s] else [s].
  Definition split_all (segs : list (list text)) : list (list text) := flat_map split_seg segs.
  Definition ivl_at (off : nat) (len : nat) (s : list text) : list ivl := if active s then [mkIvl off (off + len) (lo s) (hi s)] else [].
  Fixpoint ivls_of (off : nat) (segs : list (list text)) : list ivl :=
    match segs with
    | [] => []
    | s :: r => ivl_at off (List.length s) s ++ ivls_of (off + List.length s) r
    end.

  Lemma below_above dp l : above dp l = negb (below dp l).
  Proof. unfold above, below. destruct (Z.leb_spec dp (2 * first_id l)), (Z.ltb_spec (2 * first_id l) dp); simpl; auto; lia. Qed.
  Lemma filter_split_length (dp : Z) (s : list text) : List.length (filter (below dp) s) + List.length (filter (above dp) s) = List.length s.
  Proof.
    induction s as [|x s IH]; simpl; auto. rewrite below_above. destruct (below dp x); simpl; lia.
  Qed.
  Lemma split_seg_length s : List.length (concat (split_seg s)) = List.length s.
  Proof.
    unfold split_seg. destruct (active s); simpl; rewrite app_nil_r; auto. rewrite app_length. apply filter_split_length.
  Qed.
  Lemma split_all_length segs : List.length (concat (split_all segs)) = List.length (concat segs).
  Proof.
    induction segs as [|s segs IH]; simpl; auto. unfold split_all in *. rewrite concat_app, !app_length, IH, split_seg_length. reflexivity.
  Qed.
  Lemma ivls_of_app off a b : ivls_of off (a ++ b) = ivls_of off a ++ ivls_of (off + List.length (concat a)) b.
  Proof.
    revert off; induction a as [|s a IH]; intros off; simpl; [now rewrite Nat.add_0_r|].
    rewrite IH, app_length, <- app_assoc, Nat.add_assoc. reflexivity.
  Qed.

  (** Reading lines by number. *)
  Lemma line_range_app pre mid post : line_range (pre ++ mid ++ post) (List.length pre) (List.length pre + List.length mid) = mid.
  Proof.
    unfold line_range. replace (List.length pre + List.length mid - List.length pre) with (List.length mid) by lia.
    apply list_eq_nth with (d := []); [now rewrite map_length, seq_length|].
    intros k Hk. rewrite map_length, seq_length in Hk. rewrite nth_indep with (d' := nth 0 (pre ++ mid ++ post) []).
    - rewrite (map_nth (fun i => nth i (pre ++ mid ++ post) [])). rewrite seq_nth by auto.
      rewrite app_nth2 by lia. rewrite app_nth1 by lia. f_equal. lia.
    - now rewrite map_length, seq_length.
  Qed.
  Lemma line_range_split L a b c : a <= b -> b <= c -> line_range L a c = line_range L a b ++ line_range L b c.
  Proof.
    intros Hab Hbc. unfold line_range. rewrite <- map_app. f_equal.
    replace (c - a) with ((b - a) + (c - b)) by lia. rewrite seq_app. f_equal. f_equal. lia.
  Qed.
  Lemma line_range_same L a : line_range L a a = [].
  Proof. unfold line_range. now rewrite Nat.sub_diag. Qed.
  Lemma line_range_length L a b : List.length (line_range L a b) = b - a.
  Proof. unfold line_range. now rewrite map_length, seq_length. Qed.
  Lemma line_range_blank pre k a b : List.length pre <= a -> line_range (pre ++ repeat [] k) a b = repeat [] (b - a).
  Proof.
    intros Ha. unfold line_range. assert (forall i, a <= i -> nth i (pre ++ repeat [] k) ([] : text) = []) as Hn.
    { intros i Hi. rewrite app_nth2 by lia. rewrite nth_repeat_any. now destruct (_ <? _). }
    generalize (b - a) as m. intros m. revert a Ha Hn. induction m as [|m IH]; intros a Ha Hn; simpl; auto.
    rewrite Hn by lia. f_equal. apply IH; [lia|]. intros i Hi. apply Hn. lia.
  Qed.

  Definition all_content (s : list text) : Prop := Forall (fun l => is_content l = true /\ parses l) s.
  Lemma all_content_contents s : all_content s -> contents s = s /\ Forall parses (contents s).
  Proof.
    intros Hs. assert (contents s = s) as E.
    { unfold contents. induction Hs as [|l s [Hl _] Hs IH]; simpl; auto. rewrite Hl. now f_equal. }
    rewrite E. split; auto. eapply Forall_impl; [|exact Hs]. simpl. tauto.
  Qed.
  Lemma all_content_lead s : all_content s -> lead s = [].
  Proof. intros Hs. destruct Hs as [|l s [Hl _] Hs]; simpl; auto. now rewrite Hl. Qed.
  Lemma filter_content p s : all_content s -> all_content (filter p s).
  Proof.
    intros Hs. apply Forall_forall. intros x Hx. apply filter_In in Hx. destruct Hx as [Hx _].
    unfold all_content in Hs. rewrite Forall_forall in Hs. auto.
  Qed.

  (** One pass over segments which contain content lines only. *)
  Lemma sort_ivls_segs : forall segs L pre tail out wc nivs cur,
    L = pre ++ concat segs ++ tail -> cur <= List.length pre -> List.length out = cur ->
    Forall all_content segs ->
    exists cur' out' , sort_ivls (W := W) L (ivls_of (List.length pre) segs) cur out wc nivs =
        Ok (cur', out', nivs ++ ivls_of (List.length pre) (split_all segs)) /\
      cur <= cur' <= List.length pre + List.length (concat segs) /\ List.length out' = cur' /\
      out' ++ line_range L cur' (List.length pre + List.length (concat segs)) =
      out ++ line_range L cur (List.length pre) ++ concat (split_all segs).
  Proof.
    induction segs as [|s segs IH]; intros L pre tail out wc nivs cur EL Hcur Hout Hc.
    - exists cur, out. simpl. rewrite !app_nil_r, Nat.add_0_r. repeat split; auto.
    - apply Forall_cons_iff in Hc. destruct Hc as [Hs Hc].
      cbn [concat] in *. rewrite <- app_assoc in EL.
      assert (L = (pre ++ s) ++ concat segs ++ tail) as EL' by (rewrite EL, <- app_assoc; reflexivity).
      assert (line_range L (List.length pre) (List.length pre + List.length s) = s) as Es
        by (rewrite EL; apply line_range_app).
      cbn [ivls_of]. unfold split_all. cbn [flat_map]. fold (split_all segs). unfold ivl_at, split_seg.
      destruct (active s) eqn:Ea.
      + cbn [app sort_ivls i_start i_end i_min i_max].
        rewrite (Nat.max_r cur) by lia. rewrite Es.
        destruct (all_content_contents s Hs) as [Ecs Hps].
        rewrite scan_left by auto. rewrite Ecs, all_content_lead by auto. cbn [obind].
        rewrite scan_right by auto. rewrite Ecs. cbn [obind].
        set (p := (lo s + hi s)%Z). assert (pivot s = p) as Ep by reflexivity. rewrite Ep.
        set (o1 := filter (below p) s). set (o2 := filter (above p) s).
        assert (((if wc then [] else []) ++ o1) = o1) as Eo1 by (now destruct wc). rewrite Eo1.
        assert (List.length o1 + List.length o2 = List.length s) as Hlen by apply filter_split_length.
        assert (List.length (out ++ line_range L cur (List.length pre)) = List.length pre) as Hlo.
        { rewrite app_length, line_range_length. lia. }
        rewrite Hlo. rewrite (Nat.max_r (List.length pre)) by lia.
        assert (lo s <= hi s)%Z as Hlh by (unfold active in Ea; apply Z.ltb_lt in Ea; lia).
        rewrite (new_ivl_active o1 _ _ (lo s) (hi s)); [|exact Hlh| |lia].
        2:{ intros x Hx. apply filter_In in Hx. destruct Hx as [Hx _]. split; [now apply lo_le|now apply hi_ge]. }
        rewrite (new_ivl_active o2 _ _ (lo s) (hi s)); [|exact Hlh| |lia].
        2:{ intros x Hx. apply filter_In in Hx. destruct Hx as [Hx _]. split; [now apply lo_le|now apply hi_ge]. }
        specialize (IH L (pre ++ s) tail ((out ++ line_range L cur (List.length pre)) ++ o1 ++ o2)
                       (wc || negb (Nat.eqb (List.length s) 0))
                       (nivs ++ (if active o1 then [mkIvl (List.length pre) (List.length pre + List.length o1) (lo o1) (hi o1)] else []) ++
                        (if active o2 then [mkIvl (List.length pre + List.length o1) (List.length pre + List.length o1 + List.length o2) (lo o2) (hi o2)] else []))
                       (List.length pre + List.length s) EL').
        rewrite (app_length pre s) in IH.
        destruct IH as (cur' & out' & E & Hc1 & Hc2 & Ho); [lia| |auto|].
        { rewrite !app_length, line_range_length in *. lia. }
        exists cur', out'. split; [|split; [|split]].
        * rewrite E. f_equal. f_equal. rewrite <- !app_assoc. cbn [app ivls_of]. unfold ivl_at.
          do 4 f_equal. lia.
        * rewrite app_length. lia.
        * exact Hc2.
        * rewrite app_length. rewrite Nat.add_assoc. rewrite Ho. rewrite line_range_same. cbn [app concat].
          rewrite <- !app_assoc. reflexivity.
      + cbn [app].
        specialize (IH L (pre ++ s) tail out wc nivs cur EL'). rewrite (app_length pre s) in IH.
        destruct IH as (cur' & out' & E & Hc1 & Hc2 & Ho); [lia|auto|auto|].
        exists cur', out'. split; [|split; [|split]].
        * rewrite E. f_equal. f_equal. cbn [ivls_of]. unfold ivl_at. rewrite Ea. reflexivity.
        * rewrite app_length. lia.
        * exact Hc2.
        * rewrite app_length, Nat.add_assoc, Ho. cbn [concat].
          rewrite (line_range_split L cur (List.length pre) (List.length pre + List.length s)) by lia.
          rewrite Es, <- !app_assoc. reflexivity.
  Qed.

  (** The first segment's interval also covers the header lines. *)
  Definition ivls_h (h : nat) (segs : list (list text)) : list ivl :=
    match segs with
    | [] => []
    | s :: r => ivl_at 0 (h + List.length s) s ++ ivls_of (h + List.length s) r
    end.
  Definition no_content (ls : list text) : Prop := Forall (fun l => is_content l = false) ls.
  Lemma lead_no_content hdr s : no_content hdr -> all_content s -> lead (hdr ++ s) = hdr /\ contents (hdr ++ s) = s.
  Proof.
    intros Hh Hs. unfold contents. rewrite filter_app. destruct (all_content_contents s Hs) as [Ec _]. fold (contents s). rewrite Ec.
    induction Hh as [|l hdr Hl Hh IH]; simpl; [split; [now apply all_content_lead|reflexivity]|].
    rewrite Hl. destruct IH as [I1 I2]. split; [now rewrite I1|exact I2].
  Qed.
  Lemma repeat_app_blank (a b : nat) : repeat ([] : text) a ++ repeat [] b = repeat [] (a + b).
  Proof. now rewrite repeat_app. Qed.

  Lemma sort_pass_segs hdr segs k N : no_content hdr -> Forall all_content segs ->
    List.length hdr + List.length (concat segs) <= N ->
    sort_pass (W := W) (S N) (hdr ++ concat segs ++ repeat [] k) (ivls_h (List.length hdr) segs) =
    Ok (hdr ++ concat (split_all segs) ++ repeat [] (N - (List.length hdr + List.length (concat segs))),
        ivls_h (List.length hdr) (split_all segs)).
  Proof.
    intros Hh Hc HN. unfold sort_pass. set (L := hdr ++ concat segs ++ repeat [] k). simpl (S N - 1). rewrite Nat.sub_0_r.
    set (C := List.length (concat segs)) in *.
    assert (forall cur', cur' <= List.length hdr + C ->
      line_range L cur' N = line_range L cur' (List.length hdr + C) ++ repeat [] (N - (List.length hdr + C))) as Htail.
    { intros cur' Hle. rewrite (line_range_split L cur' (List.length hdr + C) N) by lia. f_equal.
      unfold L. rewrite app_assoc. apply line_range_blank. rewrite app_length. unfold C. lia. }
    destruct segs as [|s segs].
    - cbn [ivls_h sort_ivls obind split_all flat_map concat]. unfold C in *. simpl in *.
      f_equal. f_equal. rewrite (Htail 0) by lia. rewrite Nat.add_0_r in *. f_equal.
      unfold L. pose proof (line_range_app [] hdr (repeat [] k)) as E. simpl in E. exact E.
    - apply Forall_cons_iff in Hc. destruct Hc as [Hs Hc]. cbn [ivls_h].
      assert (L = (hdr ++ s) ++ concat segs ++ repeat [] k) as EL.
      { unfold L. cbn [concat]. rewrite <- !app_assoc. reflexivity. }
      assert (line_range L 0 (List.length hdr + List.length s) = hdr ++ s) as Es.
      { rewrite EL. pose proof (line_range_app [] (hdr ++ s) (concat segs ++ repeat [] k)) as E. simpl in E. now rewrite app_length in E. }
      assert (C = List.length s + List.length (concat segs)) as EC by (unfold C; cbn [concat]; now rewrite app_length).
      unfold split_all. cbn [flat_map]. fold (split_all segs). unfold split_seg, ivl_at at 1.
      destruct (active s) eqn:Ea.
      + cbn [app sort_ivls i_start i_end i_min i_max Nat.max].
        rewrite line_range_same, Nat.add_0_l, Es. cbn [app].
        destruct (lead_no_content hdr s Hh Hs) as [El Ecs]. destruct (all_content_contents s Hs) as [Ecs' Hps].
        rewrite scan_left by (rewrite Ecs; rewrite <- Ecs'; exact Hps).
        rewrite El, Ecs. cbn [obind].
        rewrite scan_right by (rewrite Ecs; rewrite <- Ecs'; exact Hps). rewrite Ecs. cbn [obind].
        set (p := (lo s + hi s)%Z). assert (pivot s = p) as Ep by reflexivity. rewrite Ep.
        set (o1 := filter (below p) s). set (o2 := filter (above p) s).
        assert (List.length o1 + List.length o2 = List.length s) as Hlen by apply filter_split_length.
        assert (lo s <= hi s)%Z as Hlh by (unfold active in Ea; apply Z.ltb_lt in Ea; lia).
        rewrite app_length. cbn [List.length]. rewrite Nat.add_0_l.
        rewrite (new_ivl_active o1 _ _ (lo s) (hi s)); [|exact Hlh| |lia].
        2:{ intros x Hx. apply filter_In in Hx. destruct Hx as [Hx _]. split; [now apply lo_le|now apply hi_ge]. }
        rewrite (new_ivl_active o2 _ _ (lo s) (hi s)); [|exact Hlh| |lia].
        2:{ intros x Hx. apply filter_In in Hx. destruct Hx as [Hx _]. split; [now apply lo_le|now apply hi_ge]. }
        destruct (sort_ivls_segs segs L (hdr ++ s) (repeat [] k) ((hdr ++ o1) ++ o2)
                       (false || negb (Nat.eqb (List.length s) 0))
                       ((if active o1 then [mkIvl 0 (List.length hdr + List.length o1) (lo o1) (hi o1)] else []) ++
                        (if active o2 then [mkIvl (List.length hdr + List.length o1) (List.length hdr + List.length o1 + List.length o2) (lo o2) (hi o2)] else []))
                       (List.length hdr + List.length s) EL) as (cur' & out' & E & Hc1 & Hc2 & Ho).
        { rewrite app_length. lia. }
        { rewrite !app_length. lia. }
        { exact Hc. }
        rewrite (app_length hdr s) in *. rewrite E. cbn [obind].
        rewrite (Htail cur') by lia. rewrite (app_assoc out'), EC, Nat.add_assoc, Ho, line_range_same.
        cbn [app ivls_h concat ivls_of]. unfold ivl_at. cbn [Nat.add].
        f_equal. f_equal; [rewrite <- !app_assoc; reflexivity|].
        rewrite <- !app_assoc. replace (List.length hdr + List.length o1 + List.length o2) with (List.length hdr + List.length s) by lia. reflexivity.
      + cbn [app].
        destruct (sort_ivls_segs segs L (hdr ++ s) (repeat [] k) [] false [] 0 EL) as (cur' & out' & E & Hc1 & Hc2 & Ho); auto; [lia|].
        rewrite (app_length hdr s) in *. rewrite E. cbn [obind app].
        rewrite (Htail cur') by lia. rewrite (app_assoc out'), EC, Nat.add_assoc, Ho. cbn [app concat ivls_h]. rewrite Es.
        f_equal. f_equal; [rewrite <- !app_assoc; reflexivity|]. unfold ivl_at. rewrite Ea. reflexivity.
  Qed.

  (** ** The abstract loop *)
  Definition seg_lt (s t : list text) : Prop := forall x y, In x s -> In y t -> (first_id x < first_id y)%Z.
  Definition separated (segs : list (list text)) : Prop := StronglySorted seg_lt segs.
  Definition same_by_id (a b : list text) : Prop :=
    forall k, filter (fun l => (first_id l =? k)%Z) a = filter (fun l => (first_id l =? k)%Z) b.

  Lemma same_by_id_split dp s : same_by_id (filter (below dp) s ++ filter (above dp) s) s.
  Proof.
    intros k. rewrite filter_app.
    assert (forall p, filter (fun l => (first_id l =? k)%Z) (filter p s) = filter (fun l => (first_id l =? k)%Z && p l) s) as Hf.
    { intros p. induction s as [|x s IH]; simpl; auto. destruct (p x); simpl; rewrite ?andb_true_r, ?andb_false_r, ?IH; auto. }
    rewrite !Hf. destruct (Z.ltb_spec (2 * k) dp) as [Hk|Hk].
    - rewrite (filter_ext_in (fun l => (first_id l =? k)%Z && below dp l) (fun l => (first_id l =? k)%Z)).
      + rewrite (filter_ext_in (fun l => (first_id l =? k)%Z && above dp l) (fun _ => false)).
        * rewrite (filter_ext_in (fun _ => false) (fun l : text => negb true)) by auto.
          assert (forall l : list text, filter (fun _ => negb true) l = []) as Hn by (induction l; auto). rewrite Hn. apply app_nil_r.
        * intros l _. unfold above. destruct (Z.eqb_spec (first_id l) k); auto. destruct (Z.leb_spec dp (2 * first_id l)); auto. lia.
      + intros l _. unfold below. destruct (Z.eqb_spec (first_id l) k); auto. destruct (Z.ltb_spec (2 * first_id l) dp); auto. lia.
    - rewrite (filter_ext_in (fun l => (first_id l =? k)%Z && below dp l) (fun _ => false)).
      + assert (forall l : list text, filter (fun _ => false) l = []) as Hn by (induction l; auto). rewrite Hn. simpl.
        apply filter_ext_in. intros l _. unfold above. destruct (Z.eqb_spec (first_id l) k); auto.
        destruct (Z.leb_spec dp (2 * first_id l)); auto. lia.
      + intros l _. unfold below. destruct (Z.eqb_spec (first_id l) k); auto. destruct (Z.ltb_spec (2 * first_id l) dp); auto. lia.
  Qed.
  Lemma same_by_id_app a a' b b' : same_by_id a a' -> same_by_id b b' -> same_by_id (a ++ b) (a' ++ b').
  Proof. intros Ha Hb k. now rewrite !filter_app, Ha, Hb. Qed.
  Lemma split_all_same segs : same_by_id (concat (split_all segs)) (concat segs).
  Proof.
    induction segs as [|s segs IH]; [intros k; reflexivity|]. unfold split_all. cbn [flat_map]. fold (split_all segs).
    rewrite concat_app. cbn [concat]. apply same_by_id_app; auto.
    unfold split_seg. destruct (active s); cbn [concat]; rewrite app_nil_r; [apply same_by_id_split|intros k; reflexivity].
  Qed.
  Lemma split_seg_In s t x : In t (split_seg s) -> In x t -> In x s.
  Proof.
    unfold split_seg. destruct (active s); simpl.
    - intros [<-|[<-|[]]] Hx; apply filter_In in Hx; tauto.
    - intros [<-|[]]. auto.
  Qed.
  Lemma split_all_separated segs : separated segs -> separated (split_all segs).
  Proof.
    unfold separated. induction 1 as [|s segs Hs IH Hf]; [constructor|]. unfold split_all in *. cbn [flat_map].
    assert (Forall (fun t => forall s', In s' (split_seg s) -> seg_lt s' t) (flat_map split_seg segs)) as Hall.
    { apply Forall_forall. intros t Ht s' Hs' x y Hx Hy. apply in_flat_map in Ht. destruct Ht as [s2 [Hs2 Ht]].
      rewrite Forall_forall in Hf. apply (Hf s2 Hs2); [eapply split_seg_In; eauto|eapply split_seg_In; eauto]. }
    unfold split_seg at 1. destruct (active s) eqn:Ea; cbn [app].
    - assert (In (filter (below (pivot s)) s) (split_seg s)) as H1 by (unfold split_seg; rewrite Ea; simpl; auto).
      assert (In (filter (above (pivot s)) s) (split_seg s)) as H2 by (unfold split_seg; rewrite Ea; simpl; auto).
      constructor; [constructor; auto|].
      + eapply Forall_impl; [|exact Hall]. simpl. auto.
      + constructor.
        * intros x y Hx Hy. apply filter_In in Hx, Hy. destruct Hx as [_ Hx], Hy as [_ Hy]. unfold below in Hx. unfold above in Hy.
          apply Z.ltb_lt in Hx. apply Z.leb_le in Hy. lia.
        * eapply Forall_impl; [|exact Hall]. simpl. auto.
    - assert (In s (split_seg s)) as H1 by (unfold split_seg; rewrite Ea; simpl; auto).
      constructor; auto. eapply Forall_impl; [|exact Hall]. simpl. auto.
  Qed.
  Lemma split_all_content segs : Forall all_content segs -> Forall all_content (split_all segs).
  Proof.
    intros Hs. apply Forall_forall. intros t Ht. unfold split_all in Ht. apply in_flat_map in Ht. destruct Ht as [s [Hin Ht]].
    rewrite Forall_forall in Hs. specialize (Hs s Hin). unfold split_seg in Ht. destruct (active s); simpl in Ht.
    - destruct Ht as [<-|[<-|[]]]; now apply filter_content.
    - destruct Ht as [<-|[]]; auto.
  Qed.
  Lemma split_seg_shorter s t : active s = true -> In t (split_seg s) -> List.length t < List.length s.
  Proof.
    intros Ea Ht. assert (s <> []) as Hne by (intros ->; discriminate).
    pose proof (filter_split_length (pivot s) s) as Hl. unfold split_seg in Ht. rewrite Ea in Ht.
    unfold active in Ea. apply Z.ltb_lt in Ea.
    assert (filter (below (pivot s)) s <> []) as H1.
    { destruct (lo_in s Hne) as (x & Hx & Ex). intros E. assert (In x (filter (below (pivot s)) s)) as Hin.
      { apply filter_In. split; auto. unfold below, pivot. apply Z.ltb_lt. lia. }
      rewrite E in Hin. destruct Hin. }
    assert (filter (above (pivot s)) s <> []) as H2.
    { destruct (hi_in s Hne) as (x & Hx & Ex). intros E. assert (In x (filter (above (pivot s)) s)) as Hin.
      { apply filter_In. split; auto. unfold above, pivot. apply Z.leb_le. lia. }
      rewrite E in Hin. destruct Hin. }
    destruct Ht as [<-|[<-|[]]].
    - destruct (filter (above (pivot s)) s); [congruence|simpl in Hl; lia].
    - destruct (filter (below (pivot s)) s); [congruence|simpl in Hl; lia].
  Qed.
  Lemma ivls_of_nil off segs : ivls_of off segs = [] <-> Forall (fun s => active s = false) segs.
  Proof.
    revert off; induction segs as [|s segs IH]; intros off; cbn [ivls_of]; [split; auto|].
    unfold ivl_at. rewrite Forall_cons_iff. destruct (active s); cbn [app]; [split; [discriminate|intros [E _]; discriminate]|].
    rewrite IH. tauto.
  Qed.
  Lemma ivls_h_nil h segs : ivls_h h segs = [] <-> Forall (fun s => active s = false) segs.
  Proof.
    destruct segs as [|s segs]; cbn [ivls_h]; [split; auto|].
    unfold ivl_at. rewrite Forall_cons_iff. destruct (active s); cbn [app]; [split; [discriminate|intros [E _]; discriminate]|].
    rewrite ivls_of_nil. tauto.
  Qed.
  Lemma split_all_one_line segs : Forall (Forall one_line) segs -> Forall (Forall one_line) (split_all segs).
  Proof.
    intros Hs. apply Forall_forall. intros t Ht. unfold split_all in Ht. apply in_flat_map in Ht. destruct Ht as [s [Hin Ht]].
    rewrite Forall_forall in Hs. specialize (Hs s Hin). apply Forall_forall. intros x Hx. rewrite Forall_forall in Hs.
    apply Hs. eapply split_seg_In; eauto.
  Qed.
  Lemma concat_one_line segs : Forall (Forall one_line) segs -> Forall one_line (concat segs).
  Proof. induction 1; simpl; [constructor|]. apply Forall_app. auto. Qed.

  Lemma sort_loop_segs : forall m hdr segs k N, no_content hdr -> Forall one_line hdr ->
    Forall all_content segs -> Forall (Forall one_line) segs -> separated segs ->
    (forall s, In s segs -> active s = true -> List.length s <= m) ->
    List.length hdr + List.length (concat segs) <= N ->
    exists segs' k', Forall all_content segs' /\ separated segs' /\ same_by_id (concat segs') (concat segs) /\
      Forall (fun s => active s = false) segs' /\ Forall (Forall one_line) segs' /\
      forall fuel, m <= fuel ->
        sort_loop (W := W) fuel (S N) (put_lines (hdr ++ concat segs ++ repeat [] k)) (ivls_h (List.length hdr) segs)
        = Some (Ok (put_lines (hdr ++ concat segs' ++ repeat [] k'))).
  Proof.
    induction m as [|m IH]; intros hdr segs k N Hh Hho Hc Ho Hs Hm HN.
    - assert (Forall (fun s => active s = false) segs) as Hina.
      { apply Forall_forall. intros s Hin. destruct (active s) eqn:Ea; auto. pose proof (Hm s Hin Ea).
        apply active_length in Ea. lia. }
      exists segs, k. repeat split; auto. intros fuel _. apply (ivls_h_nil (List.length hdr)) in Hina. rewrite Hina.
      destruct fuel; reflexivity.
    - destruct (ivls_h (List.length hdr) segs) as [|iv ivs] eqn:Eiv.
      + apply ivls_h_nil in Eiv as Hina. exists segs, k. repeat split; auto. intros fuel _. destruct fuel; reflexivity.
      + destruct (IH hdr (split_all segs) (N - (List.length hdr + List.length (concat segs))) N) as (segs' & k' & I1 & I2 & I3 & I4 & I5 & I6);
          auto using split_all_content, split_all_one_line, split_all_separated.
        * intros t Ht Ea. unfold split_all in Ht. apply in_flat_map in Ht. destruct Ht as [s [Hin Ht]].
          destruct (active s) eqn:Eas.
          -- pose proof (split_seg_shorter s t Eas Ht). specialize (Hm s Hin Eas). lia.
          -- unfold split_seg in Ht. rewrite Eas in Ht. destruct Ht as [<-|[]]. congruence.
        * now rewrite split_all_length.
        * exists segs', k'. repeat split; auto.
          { intros id. rewrite I3. apply split_all_same. }
          intros fuel Hf. destruct fuel as [|fuel]; [lia|]. cbn [sort_loop].
          rewrite read_put_lines.
          2:{ apply Forall_app. split; auto. apply Forall_app. split; [now apply concat_one_line|].
              apply Forall_forall. intros x Hx. apply repeat_spec in Hx. subst. apply free_of_nil. }
          assert ((hdr ++ concat segs ++ repeat [] k) ++ [[]] = hdr ++ concat segs ++ repeat [] (k + 1)) as ->.
          { rewrite <- !app_assoc. do 2 f_equal. change [[]] with (repeat ([] : text) 1). apply repeat_app_blank. }
          rewrite <- Eiv, sort_pass_segs by auto. apply I6. lia.
  Qed.

  (** Inactive separated segments are sorted. *)
  Lemma inactive_const s x y : active s = false -> In x s -> In y s -> first_id x = first_id y.
  Proof.
    unfold active. intros Ea Hx Hy. apply Z.ltb_ge in Ea.
    pose proof (lo_le s x Hx). pose proof (lo_le s y Hy). pose proof (hi_ge s x Hx). pose proof (hi_ge s y Hy). lia.
  Qed.
  Lemma segs_sorted segs : separated segs -> Forall (fun s => active s = false) segs ->
    StronglySorted (fun a b => (first_id a <= first_id b)%Z) (concat segs).
  Proof.
    unfold separated. induction 1 as [|s segs Hs IH Hf]; intros Hi; cbn [concat]; [constructor|].
    apply Forall_cons_iff in Hi. destruct Hi as [Hi1 Hi2]. specialize (IH Hi2).
    assert (forall t, (forall x, In x t -> In x s) -> StronglySorted (fun a b => (first_id a <= first_id b)%Z) (t ++ concat segs)) as Hg.
    { induction t as [|x t IHt]; intros Ht; cbn [app]; auto. constructor.
      - apply IHt. intros y Hy. apply Ht. now right.
      - apply Forall_app. split; apply Forall_forall; intros y Hy.
        + rewrite (inactive_const s x y); auto; [lia|apply Ht; now left|apply Ht; now right].
        + apply in_concat in Hy. destruct Hy as [s2 [Hs2 Hy]]. rewrite Forall_forall in Hf.
          specialize (Hf s2 Hs2 x y (Ht x (or_introl eq_refl)) Hy). lia. }
    apply Hg. auto.
  Qed.

  (** ** The first pass *)
  Lemma edge_lines_parses ls es : edge_lines (W := W) ls = Ok es ->
    Forall parses (contents ls) /\ forall l, In l (contents ls) -> (0 <= first_id l < ids_bound es)%Z.
  Proof.
    assert (forall (l : list (zedge W)) n m, (n <= m)%Z -> (fold_left (fun n '(u, v, _) => Z.max (Z.max n (u + 1)) (v + 1)) l n <=
                                    fold_left (fun n '(u, v, _) => Z.max (Z.max n (u + 1)) (v + 1)) l m)%Z) as Hmono.
    { induction l as [|[[u v] w] l IH]; intros n m Hnm; cbn [fold_left]; auto. apply IH. lia. }
    assert (forall (l : list (zedge W)) n, (n <= fold_left (fun n '(u, v, _) => Z.max (Z.max n (u + 1)) (v + 1)) l n)%Z) as Hge.
    { induction l as [|[[u v] w] l IH]; intros n; cbn [fold_left]; [lia|]. eapply Z.le_trans; [|apply IH]. lia. }
    revert es. induction ls as [|l ls IH]; intros es E; cbn [edge_lines contents filter] in *.
    - split; [constructor|intros l []].
    - fold (contents ls). destruct (is_content l) eqn:Ec; [|now apply IH].
      destruct (parse_edge_line l) as [[[u v] w]|[]|] eqn:Ep; cbn [rethrow obind] in E; try discriminate.
      destruct (edge_lines ls) as [es'| |] eqn:Els; cbn [obind] in E; try discriminate. injection E as <-.
      destruct (IH es' eq_refl) as [I1 I2]. split; [constructor; [eexists; eauto|auto]|].
      assert (0 <= u)%Z as Hu.
      { rewrite parse_edge_eq in Ep. destruct (el_delim ","%char _) as [s1| |]; cbn [obind] in Ep; try discriminate.
        destruct (el_delim " "%char s1) as [s2| |]; cbn [obind] in Ep; try discriminate.
        destruct (el_delim TAB s2) as [s3| |]; cbn [obind] in Ep; try discriminate.
        unfold finish in Ep. destruct (fst s3) as [[[n u0] v0] w0'].
        match type of Ep with obind ?x _ = _ => destruct x as [[[[n1 u1] v1] w1']| |] end; cbn [obind] in Ep; try discriminate.
        destruct (_ || _); [discriminate|]. destruct (Z.ltb_spec u1 0), (Z.ltb_spec v1 0); cbn [orb] in Ep; try discriminate.
        injection Ep as <- _ _. lia. }
      unfold ids_bound. cbn [fold_left]. intros x [<-|Hx].
      + rewrite (first_id_parse _ _ _ _ Ep). split; [lia|]. eapply Z.lt_le_trans; [|apply Hge]. lia.
      + destruct (I2 x Hx). split; [lia|]. eapply Z.lt_le_trans; [eassumption|]. apply Hmono. lia.
  Qed.
  Lemma ids_bound_nonneg (es : list (zedge W)) : (0 <= ids_bound es)%Z.
  Proof.
    unfold ids_bound. assert (forall (l : list (zedge W)) n, (0 <= n)%Z -> (0 <= fold_left (fun n '(u, v, _) => Z.max (Z.max n (u + 1)) (v + 1)) l n)%Z) as Hg.
    { induction l as [|[[u v] w] l IH]; intros n Hn; cbn [fold_left]; auto. apply IH. lia. }
    apply Hg. lia.
  Qed.
  Lemma contents_all ls : Forall parses (contents ls) -> all_content (contents ls).
  Proof.
    intros Hp. apply Forall_forall. intros l Hl. unfold contents in *. rewrite Forall_forall in Hp. specialize (Hp l Hl).
    apply filter_In in Hl. tauto.
  Qed.
  Lemma lead_nc ls : no_content (lead ls).
  Proof. induction ls as [|l ls IH]; simpl; [constructor|]. destruct (is_content l) eqn:E; [constructor|]. constructor; auto. Qed.
  Lemma lead_In ls x : In x (lead ls) -> In x ls.
  Proof. induction ls as [|l ls IH]; simpl; auto. destruct (is_content l); simpl; tauto. Qed.
  Lemma filter_le {A} (f : A -> bool) l : List.length (filter f l) <= List.length l.
  Proof. induction l as [|x l IH]; simpl; [lia|]. destruct (f x); simpl; lia. Qed.
  Lemma lead_contents_length ls : List.length (lead ls) + List.length (contents ls) <= List.length ls.
  Proof.
    assert (List.length (contents ls) <= List.length ls) as Hle by apply filter_le.
    induction ls as [|l ls IH]; simpl; auto. destruct (is_content l) eqn:Ec; simpl.
    - simpl in Hle. rewrite Ec in Hle. simpl in Hle. lia.
    - fold (contents ls). assert (List.length (contents ls) <= List.length ls) by apply filter_le. specialize (IH H0). lia.
  Qed.

  Theorem sort_edgelist_spec file es : edge_lines (W := W) (file_lines file) = Ok es ->
    exists C k, StronglySorted (fun a b => (first_id a <= first_id b)%Z) C /\
      same_by_id C (contents (file_lines file)) /\
      forall fuel, List.length (file_lines file) < fuel ->
        sort_edgelist (W := W) fuel file = Some (Ok (put_lines (lead (file_lines file) ++ C ++ repeat [] k))) /\
        file_lines (put_lines (lead (file_lines file) ++ C ++ repeat [] k)) = lead (file_lines file) ++ C ++ repeat [] k.
  Proof.
    intros Ees. set (ls := file_lines file) in *.
    destruct (edge_lines_parses ls es Ees) as [Hp Hb]. pose proof (ids_bound_nonneg es) as HM. set (M := ids_bound es) in *.
    pose proof (file_lines_one_line file) as Hol. fold ls in Hol.
    set (hdr := lead ls). set (c1 := filter (below M) (contents ls)). set (c2 := filter (above M) (contents ls)).
    assert (Forall one_line hdr) as Hh1.
    { apply Forall_forall. intros x Hx. rewrite Forall_forall in Hol. apply Hol. now apply lead_In. }
    assert (Forall (Forall one_line) [c1; c2]) as Hc1.
    { constructor; [|constructor; [|constructor]]; apply Forall_forall; intros x Hx; apply filter_In in Hx;
        destruct Hx as [Hx _]; apply filter_In in Hx; rewrite Forall_forall in Hol; apply Hol; tauto. }
    pose proof (contents_all ls Hp) as Hall.
    assert (Forall all_content [c1; c2]) as Hcc.
    { constructor; [|constructor; [|constructor]]; now apply filter_content. }
    assert (List.length c1 + List.length c2 = List.length (contents ls)) as Hlen by apply filter_split_length.
    pose proof (lead_contents_length ls) as Hlc. fold hdr in Hlc.
    destruct (sort_loop_segs (List.length ls) hdr [c1; c2] 0 (List.length ls)) as (segs' & k' & I1 & I2 & I3 & I4 & I5 & I6); auto.
    - apply lead_nc.
    - constructor; [constructor; [constructor|constructor]|]. constructor; [|constructor].
      intros x y Hx Hy. apply filter_In in Hx, Hy. destruct Hx as [_ Hx], Hy as [_ Hy]. unfold below in Hx. unfold above in Hy.
      apply Z.ltb_lt in Hx. apply Z.leb_le in Hy. lia.
    - intros s [<-|[<-|[]]] _; lia.
    - cbn [concat]. rewrite !app_length. simpl. lia.
    - exists (concat segs'), k'. split; [now apply segs_sorted|]. split.
      + intros id. rewrite I3. cbn [concat]. rewrite app_nil_r. apply same_by_id_split.
      + intros fuel Hf. split.
        * unfold sort_edgelist, lines_and_nodes. rewrite edge_lines_read. fold ls. rewrite Ees. cbn [obind].
          rewrite read_lines_file, app_length. fold ls. cbn [List.length]. fold M.
          rewrite Nat.add_1_r. replace (S (List.length ls) - 1) with (List.length ls) by lia.
          destruct fuel as [|fuel]; [lia|]. cbn [sort_loop]. unfold sort_pass. cbn [sort_ivls i_start i_end i_min i_max Nat.max].
          rewrite read_lines_file. fold ls. rewrite line_range_same, Z.add_0_l. cbn [app].
          pose proof (line_range_app [] ls [[]]) as Er. simpl in Er. rewrite Er.
          rewrite scan_left by auto. cbn [obind]. rewrite scan_right by auto. cbn [obind]. fold hdr c1 c2.
          rewrite app_length. cbn [List.length]. rewrite Nat.add_0_l.
          rewrite (new_ivl_active c1 _ _ 0%Z M); [|exact HM| |lia].
          2:{ intros x Hx. apply filter_In in Hx. destruct Hx as [Hx _]. specialize (Hb x Hx). lia. }
          rewrite (new_ivl_active c2 _ _ 0%Z M); [|exact HM| |lia].
          2:{ intros x Hx. apply filter_In in Hx. destruct Hx as [Hx _]. specialize (Hb x Hx). lia. }
          replace (S (List.length ls) - 1) with (List.length ls) by lia.
          rewrite line_range_same, app_nil_r.
          specialize (I6 fuel ltac:(lia)). cbn [concat repeat] in I6. rewrite !app_nil_r in I6.
          rewrite <- I6. f_equal; [now rewrite <- app_assoc|]. cbn [ivls_h ivls_of]. unfold ivl_at. rewrite app_nil_r. reflexivity.
        * apply file_put_lines. apply Forall_app. split; auto. apply Forall_app. split; [now apply concat_one_line|].
          apply Forall_forall. intros x Hx. apply repeat_spec in Hx. subst. apply free_of_nil.
  Qed.
End Sort.
