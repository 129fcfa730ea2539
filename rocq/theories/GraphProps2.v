(** Properties of Graph that need exact arithmetic. *)
From Verif Require Import Base Num RSum Sparse SparseFacts Graph GraphFacts GraphSpec GraphProps1.
From Coq Require Import Sorting.Sorted Reals Lra.

Lemma lsum_nth {A} (f : A -> R) l d : lsum f l = rsum (length l) (fun k => f (nth k l d)).
Proof.
  induction l as [|x l IH] using rev_ind; [reflexivity|].
  rewrite lsum_app, app_length. simpl. rewrite Nat.add_1_r, rsum_S, IH.
  rewrite app_nth2, Nat.sub_diag by lia. simpl.
  rewrite (rsum_ext (length l) (fun k => f (nth k (l ++ [x]) d)) (fun k => f (nth k l d))); [lra|].
  intros k Hk. now rewrite app_nth1.
Qed.

Lemma INR_length_lsum {A} (l : list A) : INR (length l) = lsum (fun _ => 1%R) l.
Proof. rewrite lsum_const. lra. Qed.
Lemma INR_filter {A} (p : A -> bool) l :
  INR (length (filter p l)) = lsum (fun x => if p x then 1%R else 0%R) l.
Proof. rewrite INR_length_lsum. apply lsum_filter. Qed.

Section P.
  Context {W : Type} `{ExactNum W}.
  Implicit Types (g h : graph W) (M A : sprs W).


  Lemma toR_wsum (l : list W) : toR (wsum l) = lsum toR l.
  Proof.
    unfold wsum. assert (forall acc, toR (fold_left wadd l acc) = (toR acc + lsum toR l)%R) as Hg.
    { induction l as [|x l IH]; intros acc; simpl; [lra|]. rewrite IH, toR_add. lra. }
    rewrite Hg, toR_0. lra.
  Qed.
  Lemma toR_rowsum M i : toR (sp_rowsum M i) = rsum (sp_ncols M) (fun j => rcoeff M i j).
  Proof.
    unfold sp_rowsum.
    assert (forall cs acc, toR (fold_left (fun acc c => match col_get c i with
                            | Some v => wadd acc (wmul v w1) | None => acc end) cs acc)
            = (toR acc + lsum (fun c => toR (o0 (col_get c i))) cs)%R) as Hg.
    { induction cs as [|c cs IH]; intros acc; simpl; [lra|]. rewrite IH.
      destruct (col_get c i); simpl; rewrite ?toR_add, ?toR_mul, ?toR_1, ?toR_0; lra. }
    rewrite Hg, toR_0, (lsum_nth _ _ []). unfold sp_ncols, rcoeff, coeff, sp_get, sp_col. lra.
  Qed.

  (** Sum over the stored entries of a column. *)
  Lemma col_lsum n (c : col W) (F : nat -> W -> R) : col_wf n c ->
    lsum (fun e => F (fst e) (snd e)) c =
    rsum n (fun i => match col_get c i with Some v => F i v | None => 0%R end).
  Proof.
    induction c as [|[k v] c IH]; intros [Hs Hf].
    - simpl. symmetry. now apply rsum_zero.
    - cbn [map fst] in Hs, Hf. inversion Hs as [|? ? Hs' Hlt]; subst. inversion Hf as [|? ? Hk Hf']; subst.
      cbn [lsum fst snd]. rewrite IH by (split; auto).
      rewrite (rsum_ext n (fun i => match col_get ((k, v) :: c) i with Some x => F i x | None => 0%R end)
               (fun i => ((if Nat.eqb i k then F i v else 0) +
                         match col_get c i with Some x => F i x | None => 0 end)%R)).
      + rewrite rsum_plus, (rsum_delta n k (fun i => F i v)) by auto. reflexivity.
      + intros i _. cbn [col_get]. rewrite (Nat.eqb_sym k i). destruct (Nat.eqb_spec i k) as [->|]; [|lra].
        rewrite col_get_none_lt by exact Hlt. lra.
  Qed.

  (** ** Positive entries *)
  Definition pos_entries A : Prop := forall i j v, sp_get A i j = Some v -> (0 < toR v)%R.

  Lemma pos_weqb v : (0 < toR v)%R -> weqb v w0 = false.
  Proof.
    intros Hv. destruct (weqb v w0) eqn:E; auto. apply toR_eqb in E. rewrite toR_0 in E. lra.
  Qed.
  Lemma eps_pos v : wltb weps v = true -> (0 < toR v)%R.
  Proof. intros E. apply toR_ltb in E. pose proof toR_eps. lra. Qed.
  Lemma toR_ltb0 v : wltb w0 v = true <-> (0 < toR v)%R.
  Proof. now rewrite toR_ltb, toR_0. Qed.

  Definition loops_ok g : Prop := g_loops g = true -> exists v, v < g_n g /\ sp_get (g_adj g) v v <> None.

  Lemma reachable_pos_inv g : reachable_pos g -> pos_entries (g_adj g) /\ loops_ok g.
  Proof.
    revert g. apply (reachable_induction (fun g => pos_entries (g_adj g) /\ loops_ok g)).
    - intros g h (Q1 & Q2 & Q3). unfold loops_ok. now rewrite <- Q1, <- Q2, <- Q3.
    - intros M g Hwf E. split.
      + intros i j v G. apply eps_pos. eapply make_graph_above_eps; eauto.
      + destruct (make_graph_fresh M g E) as [A ->]. unfold loops_ok. simpl. intros Hl.
        apply scan_self_loops_spec in Hl. destruct Hl as [i [Hi Hn]]. exists i. split; auto.
        unfold coeff in Hn. destruct (sp_get A i i); [discriminate|]. simpl in Hn. rewrite pn_00 in Hn. discriminate.
    - intros g i j w g' Hok [Hp Hl] Hw E. simpl in Hw. apply toR_ltb0 in Hw.
      assert (forall a b, (0 <= toR (coeff (g_adj g) a b))%R) as Hnn.
      { intros a b. unfold coeff. destruct (sp_get (g_adj g) a b) as [v|] eqn:G; simpl.
        - apply Rlt_le. eapply Hp; eauto.
        - rewrite toR_0. lra. }
      split.
      + intros a b v. rewrite (add_edge_get _ _ _ _ _ a b Hok E). cbv zeta.
        if_goal F1.
        * intros [= <-]. rewrite !toR_add. specialize (Hnn (Z.to_nat i) (Z.to_nat i)). lra.
        * if_goal F2.
          -- intros [= <-]. rewrite toR_add. specialize (Hnn a b). lra.
          -- apply Hp.
      + intros Hl'.
        assert (g_n g <= g_n g') as Hn by (rewrite (add_edge_n _ _ _ _ _ E); lia).
        destruct (Nat.eqb_spec (Z.to_nat i) (Z.to_nat j)) as [Eij|Eij].
        * exists (Z.to_nat i). split; [rewrite (add_edge_n _ _ _ _ _ E); lia|].
          rewrite (add_edge_get _ _ _ _ _ _ _ Hok E). cbv zeta. rewrite <- Eij, !Nat.eqb_refl. discriminate.
        * assert (g_loops g = true) as Hl0.
          { unfold add_edge in E. if_hyp E F1; [discriminate|]. injection E as <-. simpl in Hl'.
            destruct (Nat.eqb_spec (Z.to_nat i) (Z.to_nat j)); [lia|auto]. }
          destruct (Hl Hl0) as [v [Hv Hg]]. exists v. split; [lia|].
          rewrite (add_edge_get _ _ _ _ _ _ _ Hok E). cbv zeta.
          if_goal F1; [discriminate|]. if_goal F2; [discriminate|]. exact Hg.
    - intros g i j g' Hok [Hp Hl] _ E.
      destruct (((Z.of_nat (g_n g) <=? i) || (Z.of_nat (g_n g) <=? j))%Z) eqn:E1.
      { unfold remove_edge in E. rewrite E1 in E. injection E as <-. split; auto. }
      destruct (((i <? 0) || (j <? 0))%Z) eqn:E2.
      { unfold remove_edge in E. rewrite E1, E2 in E. discriminate. }
      pose proof E as E'. unfold remove_edge in E. rewrite E1, E2 in E.
      apply orb_false_iff in E1, E2. rewrite !Z.leb_gt in E1. rewrite !Z.ltb_ge in E2.
      assert (0 <= i < Z.of_nat (g_n g))%Z as Hi' by lia.
      assert (0 <= j < Z.of_nat (g_n g))%Z as Hj' by lia.
      pose proof (fun a b => remove_edge_get g i j g' a b pn_00 Hok Hi' Hj' E') as Hget.
      split.
      + intros a b v. rewrite Hget. if_goal F3; [discriminate|].
        destruct (sp_get (g_adj g) a b) as [x|] eqn:G; [|discriminate].
        destruct (weqb x w0); [discriminate|]. intros [= <-]. eapply Hp; eauto.
      + intros Hl'.
        destruct (Nat.eqb_spec (Z.to_nat i) (Z.to_nat j)) as [Eij|Eij].
        * assert (g_loops g' = scan_self_loops (g_n g') (g_adj g')) as Hsc by (injection E as <-; reflexivity).
          rewrite Hsc in Hl'. apply scan_self_loops_spec in Hl'. destruct Hl' as [v [Hv Hn]].
          exists v. split; auto. unfold coeff in Hn. destruct (sp_get (g_adj g') v v); [discriminate|].
          simpl in Hn. rewrite pn_00 in Hn. discriminate.
        * assert (g_loops g' = g_loops g /\ g_n g' = g_n g) as [El En] by (injection E as <-; split; reflexivity).
          rewrite El in Hl'. destruct (Hl Hl') as [v [Hv Hg]]. exists v. split; [lia|].
          rewrite Hget.
          replace (((v =? Z.to_nat i) && (v =? Z.to_nat j)) || ((v =? Z.to_nat j) && (v =? Z.to_nat i))) with false.
          -- destruct (sp_get (g_adj g) v v) as [x|] eqn:G; [|congruence].
             rewrite pos_weqb; [discriminate|]. eapply Hp; eauto.
          -- destruct (Nat.eqb_spec v (Z.to_nat i)); destruct (Nat.eqb_spec v (Z.to_nat j)); cbn [andb orb]; lia || reflexivity.
  Qed.

  Lemma reachable_pos_reachable g : reachable_pos g -> reachable g.
  Proof. apply reachable_by_any. Qed.
  Lemma reachable_pos_ok g : reachable_pos g -> sp_square (g_adj g) (g_n g).
  Proof. intros Hr. apply (reachable_ok g). now apply reachable_pos_reachable. Qed.
  Lemma rw_nonneg g u v : reachable_pos g -> (0 <= rw g u v)%R.
  Proof.
    intros Hr. destruct (reachable_pos_inv g Hr) as [Hp _]. unfold rw, weight, coeff.
    destruct (sp_get (g_adj g) u v) as [x|] eqn:G; simpl; [|rewrite toR_0; lra].
    apply Rlt_le. eapply Hp; eauto.
  Qed.
  Lemma rw_sym g u v : reachable g -> rw g u v = rw g v u.
  Proof. intros Hr. unfold rw. now rewrite weight_sym. Qed.
  Lemma stored_iff_pos g u v : reachable_pos g ->
    (sp_get (g_adj g) u v <> None <-> rw g u v <> 0%R).
  Proof.
    intros Hr. destruct (reachable_pos_inv g Hr) as [Hp _]. unfold rw, weight, coeff.
    destruct (sp_get (g_adj g) u v) as [x|] eqn:G; simpl.
    - specialize (Hp _ _ _ G). split; [intros _; lra|discriminate].
    - rewrite toR_0. split; congruence.
  Qed.
  Lemma weqb0_iff (x : W) : weqb x w0 = true <-> toR x = 0%R.
  Proof. now rewrite toR_eqb, toR_0. Qed.
  Lemma weqb0_false (x : W) : weqb x w0 = false <-> toR x <> 0%R.
  Proof. rewrite <- weqb0_iff. destruct (weqb x w0); split; congruence. Qed.

  (** C09 *)
  Lemma has_self_loops_exact g : reachable_pos g ->
    (has_self_loops g = true <-> exists v, v < number_of_vertices g /\ rw g v v <> 0%R).
  Proof.
    intros Hr. destruct (reachable_pos_inv g Hr) as [Hp Hl]. split.
    - intros E. destruct (Hl E) as [v [Hv Hg]]. exists v. split; auto. now apply stored_iff_pos.
    - intros [v [Hv Hn]]. destruct (has_self_loops g) eqn:E; auto. exfalso. apply Hn.
      apply weqb0_iff. apply no_missed_loop; auto. now apply reachable_pos_reachable.
  Qed.

  (** C10 *)
  Lemma nnz_count g : sp_square (g_adj g) (g_n g) ->
    INR (sp_nnz (g_adj g)) =
    rsum (g_n g) (fun j => rsum (g_n g) (fun i => match sp_get (g_adj g) i j with Some _ => 1%R | None => 0%R end)).
  Proof.
    intros (R & C & Hwf). unfold sp_nnz. rewrite INR_length_lsum.
    assert (forall cs, lsum (fun _ : nat * W => 1%R) (concat cs) = lsum (fun c => lsum (fun _ => 1%R) c) cs) as Hc.
    { induction cs as [|c cs IH]; simpl; auto. now rewrite lsum_app, IH. }
    rewrite Hc, (lsum_nth _ _ []). unfold sp_ncols in C. rewrite C. apply rsum_ext. intros j Hj.
    fold (sp_col (g_adj g) j).
    rewrite (col_lsum (g_n g) (sp_col (g_adj g) j) (fun _ _ => 1%R)).
    - reflexivity.
    - rewrite <- R. now apply sp_wf_col.
  Qed.
  Definition nz g (p : nat * nat) : bool := negb (weqb (weight g (fst p) (snd p)) w0).

  Lemma number_of_edges_exact g : reachable_pos g ->
    number_of_edges g = length (filter (nz g) (upper_pairs (number_of_vertices g))).
  Proof.
    intros Hr. pose proof (reachable_pos_ok g Hr) as Hsq.
    pose proof (reachable_sym g (reachable_pos_reachable g Hr)) as Hs.
    unfold number_of_vertices. set (n := g_n g) in *.
    set (f := fun i j => match sp_get (g_adj g) i j with Some _ => 1%R | None => 0%R end).
    assert (forall i j, f i j = if nz g (i, j) then 1%R else 0%R) as Hf.
    { intros i j. unfold f, nz. simpl. pose proof (stored_iff_pos g i j Hr) as Hst. unfold rw in Hst.
      destruct (weqb (weight g i j) w0) eqn:E; simpl.
      - apply weqb0_iff in E. destruct (sp_get (g_adj g) i j); auto. exfalso. apply (proj1 Hst); [intro; discriminate|auto].
      - apply weqb0_false in E. apply Hst in E. destruct (sp_get (g_adj g) i j); auto. congruence. }
    assert (INR (sp_nnz (g_adj g)) = rsum n (fun i => rsum n (f i))) as E1.
    { rewrite nnz_count by auto. rewrite rsum_swap. reflexivity. }
    set (dg := filter (fun i => negb (weqb (coeff (g_adj g) i i) w0)) (seq 0 n)).
    assert (INR (length dg) = rsum n (fun i => f i i)) as E2.
    { unfold dg. rewrite INR_filter. apply lsum_ext. intros i _. rewrite Hf. reflexivity. }
    assert (INR (length (filter (nz g) (upper_pairs n))) = lsum (fun p => f (fst p) (snd p)) (upper_pairs n)) as E3.
    { rewrite INR_filter. apply lsum_ext. intros [i j] _. now rewrite Hf. }
    assert (sp_nnz (g_adj g) + length dg = 2 * length (filter (nz g) (upper_pairs n))) as E4.
    { apply INR_eq. rewrite plus_INR, mult_INR, E1, E2, E3. simpl (INR 2).
      rewrite <- rsum_sym_upper; [lra|]. intros i j. unfold f. now rewrite Hs. }
    unfold number_of_edges. fold n. fold dg. cbv zeta. destruct (g_loops g) eqn:El.
    - rewrite E4. rewrite Nat.mul_comm. now apply Nat.div_mul.
    - assert (dg = []) as Ed.
      { unfold dg. assert (forall l, filter (fun i => negb (weqb (coeff (g_adj g) i i) w0)) l = []) as Hd.
        { induction l as [|i l IH]; simpl; auto.
          pose proof (no_missed_loop g (reachable_pos_reachable g Hr) El i) as Hm. unfold weight in Hm. rewrite Hm. exact IH. }
        apply Hd. }
      rewrite Ed in E4. simpl in E4. rewrite Nat.add_0_r in E4. rewrite E4.
      replace (length (filter (nz g) (upper_pairs n)) + (length (filter (nz g) (upper_pairs n)) + 0))
        with (length (filter (nz g) (upper_pairs n)) * 2) by lia.
      now apply Nat.div_mul.
  Qed.

  (** ** Degrees *)

  Lemma deg_mat_coeff g i j : sp_square (g_adj g) (g_n g) ->
    rcoeff (deg_mat (g_adj g)) i j = if (i =? j) && (j <? g_n g) then rdeg g i else 0%R.
  Proof.
    intros (R & C & Hwf). unfold rcoeff, coeff, deg_mat. rewrite sp_get_diag, C.
    destruct (Nat.eqb_spec i j) as [->|]; cbn [andb].
    - destruct (j <? g_n g); simpl; [|apply toR_0].
      rewrite toR_add, toR_rowsum, C. reflexivity.
    - apply toR_0.
  Qed.

  Lemma degree_exact g v : reachable g -> v < number_of_vertices g ->
    exists d, snd (degree g (Z.of_nat v)) = Ok d /\ toR d = rdeg g v.
  Proof.
    unfold number_of_vertices. intros Hr Hv. destruct (reachable_ok g Hr) as [Hok Hc].
    unfold degree. rewrite check_vertex_ok by lia. rewrite Nat2Z.id. simpl.
    destruct (init_deg_spec g Hc) as (_ & _ & ->).
    eexists. split; [reflexivity|]. fold (rcoeff (deg_mat (g_adj g)) v v).
    rewrite deg_mat_coeff by exact Hok. rewrite Nat.eqb_refl. cbn [andb].
    destruct (Nat.ltb_spec v (g_n g)); [reflexivity|lia].
  Qed.

  Lemma sp_values_diag n (d : nat -> W) : sp_values (sp_diag n d) = map d (seq 0 n).
  Proof.
    unfold sp_values, sp_diag. simpl. induction (seq 0 n) as [|i l IH]; simpl; auto. now rewrite IH.
  Qed.
  Lemma rdeg_sum g : reachable g ->
    rsum (g_n g) (rdeg g) = (2 * lsum (fun p => rw g (fst p) (snd p)) (upper_pairs (g_n g)))%R.
  Proof.
    intros Hr. unfold rdeg. rewrite rsum_plus. apply rsum_sym_upper. intros; now apply rw_sym.
  Qed.
  Lemma total_volume_exact g : reachable g ->
    toR (snd (total_volume g)) = rsum (g_n g) (rdeg g).
  Proof.
    intros Hr. destruct (reachable_ok g Hr) as [Hok Hc]. unfold total_volume. simpl.
    destruct (init_deg_spec g Hc) as (_ & _ & ->). rewrite toR_wsum.
    unfold deg_mat. rewrite sp_values_diag, lsum_map. destruct Hok as (R & C & Hwf). rewrite C.
    apply rsum_ext. intros k Hk. rewrite toR_add, toR_rowsum, C. reflexivity.
  Qed.
  Lemma toR_wnat n : toR (wnat n) = INR n.
  Proof. induction n as [|n IH]; [apply toR_0|]. cbn [wnat]. rewrite toR_add, toR_1, IH, S_INR. reflexivity. Qed.
  Lemma average_degree_exact g : reachable g -> 0 < number_of_vertices g ->
    toR (snd (average_degree g)) = (rsum (g_n g) (rdeg g) / INR (number_of_vertices g))%R.
  Proof.
    unfold number_of_vertices. intros Hr Hn. pose proof (total_volume_exact g Hr) as Hv.
    unfold average_degree, total_volume in *. simpl in *. destruct (reachable_ok g Hr) as [_ Hc].
    destruct (init_deg_spec g Hc) as (_ & (B & _) & _). rewrite <- B.
    rewrite toR_div; rewrite toR_wnat.
    - now rewrite Hv.
    - apply not_0_INR. lia.
  Qed.

  (** ** Laplacians *)
  Lemma rcoeff_merge_sub A B i j : sp_wf A -> sp_wf B -> sp_ncols A = sp_ncols B ->
    rcoeff (sp_sub A B) i j = (rcoeff A i j - rcoeff B i j)%R.
  Proof.
    intros HA HB Hc. unfold rcoeff, coeff, sp_sub. rewrite sp_get_merge by auto.
    destruct (sp_get A i j), (sp_get B i j); simpl; rewrite ?toR_sub, ?toR_0; lra.
  Qed.
  Lemma rcoeff_merge_add A B i j : sp_wf A -> sp_wf B -> sp_ncols A = sp_ncols B ->
    rcoeff (sp_add A B) i j = (rcoeff A i j + rcoeff B i j)%R.
  Proof.
    intros HA HB Hc. unfold rcoeff, coeff, sp_add. rewrite sp_get_merge by auto.
    destruct (sp_get A i j), (sp_get B i j); simpl; rewrite ?toR_add, ?toR_0; lra.
  Qed.
  Lemma deg_mat_wf A : sp_wf (deg_mat A).
  Proof. apply sp_diag_wf. Qed.

  Lemma laplacian_coeff g u v : reachable g -> u < number_of_vertices g -> v < number_of_vertices g ->
    rcoeff (snd (mat_query QLap g)) u v = ((if u =? v then rdeg g u else 0) - rw g u v)%R.
  Proof.
    unfold number_of_vertices. intros Hr Hu Hv. rewrite query_formula by auto. simpl.
    destruct (reachable_ok g Hr) as [Hok _]. pose proof Hok as (R & C & Hwf).
    rewrite rcoeff_merge_sub; [|apply deg_mat_wf|auto|unfold deg_mat; now rewrite sp_diag_ncols].
    rewrite deg_mat_coeff by exact Hok. destruct (Nat.ltb_spec v (g_n g)); [|lia].
    rewrite andb_true_r. reflexivity.
  Qed.
  Lemma signless_coeff g u v : reachable g -> u < number_of_vertices g -> v < number_of_vertices g ->
    rcoeff (snd (mat_query QSLap g)) u v = ((if u =? v then rdeg g u else 0) + rw g u v)%R.
  Proof.
    unfold number_of_vertices. intros Hr Hu Hv. rewrite query_formula by auto. simpl.
    destruct (reachable_ok g Hr) as [Hok _]. pose proof Hok as (R & C & Hwf).
    rewrite rcoeff_merge_add; [|apply deg_mat_wf|auto|unfold deg_mat; now rewrite sp_diag_ncols].
    rewrite deg_mat_coeff by exact Hok. destruct (Nat.ltb_spec v (g_n g)); [|lia].
    rewrite andb_true_r. reflexivity.
  Qed.

  (** Pure algebra: quadratic form of diag(d) -/+ w. *)
  Lemma quad_form_diag n (d : nat -> R) (w : nat -> nat -> R) (s : R) x :
    rsum n (fun u => rsum n (fun v => x u * ((if u =? v then d u else 0) + s * w u v) * x v))%R
    = (rsum n (fun u => d u * (x u * x u)) + s * rsum n (fun u => rsum n (fun v => w u v * (x u * x v))))%R.
  Proof.
    rewrite <- rsum_scal, <- rsum_plus. apply rsum_ext. intros u Hu.
    rewrite <- rsum_scal.
    rewrite (rsum_ext n _ (fun v => ((if Nat.eqb u v then (d u * (x u * x v)) else 0) + s * (w u v * (x u * x v)))%R)).
    - rewrite rsum_plus. f_equal. now rewrite (rsum_delta' n u (fun v => (d u * (x u * x v))%R)).
    - intros v _. destruct (u =? v); lra.
  Qed.
  Lemma quad_form_expand n (w : nat -> nat -> R) (s : R) x : (s * s = 1)%R ->
    (forall u v, w u v = w v u) ->
    (rsum n (fun u => (rsum n (w u) + w u u) * (x u * x u)) + s * rsum n (fun u => rsum n (fun v => w u v * (x u * x v))))%R
    = (lsum (fun p => w (fst p) (snd p) * ((x (fst p) + s * x (snd p)) * (x (fst p) + s * x (snd p)))) (upper_pairs n)
       - s * rsum n (fun u => w u u * (x u * x u)))%R.
  Proof.
    intros Hs Hw.
    pose proof (rsum_sym_upper n (fun u v => w u v * ((x u + s * x v) * (x u + s * x v)))%R) as Hup.
    assert (forall i j, (w i j * ((x i + s * x j) * (x i + s * x j)) = w j i * ((x j + s * x i) * (x j + s * x i)))%R) as Hsym.
    { intros i j. rewrite (Hw i j). f_equal.
      replace ((x i + s * x j) * (x i + s * x j))%R with (x i * x i + 2 * s * x i * x j + (s * s) * (x j * x j))%R by ring.
      replace ((x j + s * x i) * (x j + s * x i))%R with (x j * x j + 2 * s * x i * x j + (s * s) * (x i * x i))%R by ring.
      rewrite Hs. ring. }
    specialize (Hup Hsym). cbv beta in Hup. clear Hsym.
    match type of Hup with (?a + ?b = 2 * ?c)%R => assert (c = (a + b) / 2)%R as -> by lra end.
    clear Hup.
    assert (rsum n (fun i => rsum n (fun v => w i v * ((x i + s * x v) * (x i + s * x v))))
            = (2 * rsum n (fun u => rsum n (w u) * (x u * x u))
              + 2 * s * rsum n (fun u => rsum n (fun v => w u v * (x u * x v))))%R)%R as ->.
    { rewrite (rsum_ext n _ (fun u => (rsum n (fun v => w u v * (x u * x u)) + rsum n (fun v => w v u * (x v * x v))
                + 2 * s * rsum n (fun v => w u v * (x u * x v)))%R)).
      - rewrite !rsum_plus, rsum_scal. rewrite (rsum_swap n n (fun u v => (w v u * (x v * x v))%R)).
        rewrite (rsum_ext n (fun u => rsum n (fun v => w u v * (x u * x u)))%R (fun u => rsum n (w u) * (x u * x u))%R)
          by (intros; apply rsum_scal_r). lra.
      - intros u _. rewrite <- rsum_scal, <- !rsum_plus. apply rsum_ext. intros v _.
        rewrite (Hw v u).
        replace ((x u + s * x v) * (x u + s * x v))%R with (x u * x u + 2 * s * (x u * x v) + (s * s) * (x v * x v))%R by ring.
        rewrite Hs. ring. }
    assert (rsum n (fun i => w i i * ((x i + s * x i) * (x i + s * x i)))
            = ((2 + 2 * s) * rsum n (fun u => w u u * (x u * x u)))%R)%R as ->.
    { rewrite <- rsum_scal. apply rsum_ext. intros u _.
      replace ((x u + s * x u) * (x u + s * x u))%R with ((1 + 2 * s + s * s) * (x u * x u))%R by ring. rewrite Hs. ring. }
    rewrite (rsum_ext n (fun u => (rsum n (w u) + w u u) * (x u * x u))%R
              (fun u => rsum n (w u) * (x u * x u) + w u u * (x u * x u))%R) by (intros; ring).
    rewrite rsum_plus. field.
  Qed.


  Lemma laplacian_quad g x : reachable g ->
    quad (g_n g) (rcoeff (snd (mat_query QLap g))) x =
    (lsum (fun p => rw g (fst p) (snd p) * (x (fst p) - x (snd p))^2) (upper_pairs (g_n g))
     + rsum (g_n g) (fun u => rw g u u * x u ^ 2))%R.
  Proof.
    intros Hr. unfold quad.
    rewrite (rsum_ext (g_n g) _ (fun u => rsum (g_n g) (fun v => x u * ((if u =? v then rdeg g u else 0) + (-1) * rw g u v) * x v))%R).
    - rewrite quad_form_diag. unfold rdeg.
      (eapply eq_trans; [apply (quad_form_expand (g_n g) (rw g) (-1) x); [lra|intros; now apply rw_sym]|]).
      rewrite (lsum_ext _ (fun p => (rw g (fst p) (snd p) * (x (fst p) - x (snd p)) ^ 2)%R)) by (intros; ring).
      rewrite (rsum_ext (g_n g) (fun u => rw g u u * (x u * x u))%R (fun u => rw g u u * x u ^ 2)%R) by (intros; ring).
      ring.
    - intros u Hu. apply rsum_ext. intros v Hv. rewrite laplacian_coeff by auto.
      replace ((if u =? v then rdeg g u else 0) - rw g u v)%R with ((if u =? v then rdeg g u else 0) + -1 * rw g u v)%R by lra.
      reflexivity.
  Qed.
  Lemma signless_quad g x : reachable g ->
    (quad (g_n g) (rcoeff (snd (mat_query QSLap g))) x
     + rsum (g_n g) (fun u => rw g u u * x u ^ 2))%R =
    lsum (fun p => rw g (fst p) (snd p) * (x (fst p) + x (snd p))^2)%R (upper_pairs (g_n g)).
  Proof.
    intros Hr. unfold quad.
    rewrite (rsum_ext (g_n g) _ (fun u => rsum (g_n g) (fun v => x u * ((if u =? v then rdeg g u else 0) + 1 * rw g u v) * x v))%R).
    - rewrite quad_form_diag. unfold rdeg.
      pose proof (quad_form_expand (g_n g) (rw g) 1 x ltac:(lra) ltac:(intros; now apply rw_sym)) as Hq.
      eapply eq_trans; [eapply (f_equal (fun z => (z + _)%R)); exact Hq|].
      rewrite (lsum_ext _ (fun p => (rw g (fst p) (snd p) * (x (fst p) + x (snd p)) ^ 2)%R)) by (intros; ring).
      rewrite (rsum_ext (g_n g) (fun u => rw g u u * (x u * x u))%R (fun u => rw g u u * x u ^ 2)%R) by (intros; ring).
      ring.
    - intros u Hu. apply rsum_ext. intros v Hv. rewrite signless_coeff by auto.
      replace ((if u =? v then rdeg g u else 0) + rw g u v)%R with ((if u =? v then rdeg g u else 0) + 1 * rw g u v)%R by lra.
      reflexivity.
  Qed.
  Lemma laplacian_psd g x : reachable_pos g ->
    (0 <= quad (g_n g) (rcoeff (snd (mat_query QLap g))) x)%R.
  Proof.
    intros Hr. rewrite laplacian_quad by (now apply reachable_pos_reachable).
    apply Rplus_le_le_0_compat.
    - apply lsum_nonneg. intros [u v] _. apply Rmult_le_pos; [now apply rw_nonneg|apply pow2_ge_0].
    - apply rsum_nonneg. intros u _. apply Rmult_le_pos; [now apply rw_nonneg|apply pow2_ge_0].
  Qed.
  (** diag entries appear in the upper sum with factor 4. *)
  Lemma upper_ge_diag n (f : nat -> nat -> R) : (forall i j, 0 <= f i j)%R ->
    (rsum n (fun i => f i i) <= lsum (fun p => f (fst p) (snd p)) (upper_pairs n))%R.
  Proof.
    intros Hf. rewrite lsum_upper_pairs. apply rsum_le. intros j Hj. simpl. rewrite rsum_S.
    assert (0 <= rsum j (fun i => f i j))%R by (apply rsum_nonneg; auto). lra.
  Qed.
  Lemma signless_psd g x : reachable_pos g ->
    (0 <= quad (g_n g) (rcoeff (snd (mat_query QSLap g))) x)%R.
  Proof.
    intros Hr. pose proof (signless_quad g x (reachable_pos_reachable g Hr)) as E.
    pose proof (upper_ge_diag (g_n g) (fun u v => rw g u v * (x u + x v) ^ 2)%R) as Hd.
    assert (forall i j, 0 <= rw g i j * (x i + x j) ^ 2)%R as Hnn.
    { intros i j. apply Rmult_le_pos; [now apply rw_nonneg|apply pow2_ge_0]. }
    specialize (Hd Hnn). cbv beta in Hd. rewrite <- E in Hd.
    assert (rsum (g_n g) (fun i => rw g i i * (x i + x i) ^ 2)%R = 4 * rsum (g_n g) (fun u => rw g u u * x u ^ 2))%R as E4.
    { rewrite <- rsum_scal. apply rsum_ext. intros; ring. }
    rewrite E4 in Hd.
    assert (0 <= rsum (g_n g) (fun u => rw g u u * x u ^ 2))%R.
    { apply rsum_nonneg. intros u _. apply Rmult_le_pos; [now apply rw_nonneg|apply pow2_ge_0]. }
    lra.
  Qed.
  Lemma laplacian_rowsum g u : reachable g -> u < number_of_vertices g ->
    rsum (number_of_vertices g) (rcoeff (snd (mat_query QLap g)) u) = rw g u u.
  Proof.
    intros Hr Hu.
    rewrite (rsum_ext _ _ (fun v => (if Nat.eqb u v then rdeg g u else 0) - rw g u v)%R)
      by (intros; now apply laplacian_coeff).
    rewrite rsum_minus, (rsum_delta' _ u (fun _ => rdeg g u)) by auto.
    unfold rdeg, number_of_vertices. change (fun u0 => rw g u u0) with (rw g u). lra.
  Qed.

  (** ** Laplacian round trip (C03) *)
  Lemma above_eps_pos v : wltb weps v = true -> wltb v w0 = false.
  Proof.
    intros E. apply eps_pos in E. destruct (wltb v w0) eqn:E2; auto. apply toR_ltb in E2. rewrite toR_0 in E2. lra.
  Qed.
  Lemma toR_ltb_false x y : wltb x y = false <-> (toR y <= toR x)%R.
  Proof.
    destruct (wltb x y) eqn:E.
    - apply toR_ltb in E. split; [discriminate|lra].
    - split; auto. intros _. destruct (Rle_dec (toR y) (toR x)); auto. exfalso.
      assert (wltb x y = true) by (apply toR_ltb; lra). congruence.
  Qed.

  Lemma laplacian_get A i j n : sp_square A n ->
    sp_get (mat_formula QLap A) i j =
    if (i =? j) && (j <? n)
    then Some (wsub (wadd (sp_rowsum A j) (coeff A j j)) (coeff A i j))
    else option_map (fun v => wsub w0 v) (sp_get A i j).
  Proof.
    intros (R & C & Hwf). simpl. unfold sp_sub. rewrite sp_get_merge; [|apply deg_mat_wf|auto|unfold deg_mat; now rewrite sp_diag_ncols].
    unfold deg_mat at 1. rewrite sp_get_diag, C. destruct ((i =? j) && (j <? n)).
    - simpl. unfold coeff. destruct (sp_get A i j); reflexivity.
    - destruct (sp_get A i j); reflexivity.
  Qed.

  Lemma laplacian_roundtrip_mat A n :
    sp_square A n -> sp_sym A -> (forall i j v, sp_get A i j = Some v -> wltb weps v = true) ->
    make_graph (mat_formula QLap A) = Ok (fresh_graph A).
  Proof.
    intros Hsq Hs He. pose proof Hsq as (R & C & Hwf). set (L := mat_formula QLap A).
    assert (sp_square L n) as HLsq.
    { unfold L. simpl. unfold sp_square. split; [|split].
      - simpl. exact C.
      - unfold sp_sub. rewrite sp_merge_ncols; unfold deg_mat; rewrite sp_diag_ncols; auto.
      - unfold sp_sub. apply (sp_merge_wf wsub (deg_mat A) A n n); auto.
        + unfold deg_mat. now rewrite sp_diag_ncols.
        + apply deg_mat_wf. }
    pose proof HLsq as (RL & CL & HwL).
    assert (forall i j, sp_get L i j = _) as HL by (intros; apply (laplacian_get A _ _ n Hsq)).
    assert (forall i j, (0 <= rcoeff A i j)%R) as Hnn.
    { intros i j. unfold rcoeff, coeff. destruct (sp_get A i j) eqn:G; simpl; [|rewrite toR_0; lra].
      apply Rlt_le, eps_pos. eapply He; eauto. }
    (* the adjacency matrix computed from L is A *)
    assert (adjacency_from_adj_or_lap L = Ok A) as Hadj.
    { unfold adjacency_from_adj_or_lap. destruct (found_negative L) eqn:En.
      - assert (positive_off_diagonal L = false) as ->.
        { destruct (positive_off_diagonal L) eqn:Ep; auto. exfalso.
          unfold positive_off_diagonal in Ep. apply existsb_exists in Ep. destruct Ep as [[k c] [Hin Hc]].
          unfold sp_ncols in Hin. rewrite (In_combine_seq _ 0 k _ []) in Hin. destruct Hin as [Hk ->].
          rewrite Nat.sub_0_r in Hc. apply existsb_exists in Hc. destruct Hc as [[i v] [Hi Hv]].
          apply andb_true_iff in Hv. destruct Hv as [Hv Hik]. simpl in Hv, Hik.
          apply negb_true_iff in Hv, Hik.
          assert (sp_get L i k = Some v) as G by (apply In_col_get; [apply (sp_wf_col L k HwL)|exact Hi]).
          rewrite HL, Hik in G. cbn [andb] in G.
          destruct (sp_get A i k) as [x|] eqn:Gx; [|discriminate]. injection G as <-.
          apply toR_ltb_false in Hv. rewrite toR_sub, toR_0 in Hv.
          specialize (He _ _ _ Gx). apply eps_pos in He. lra. }
        assert (diagonally_dominant L = true) as ->.
        { unfold diagonally_dominant. apply forallb_forall. intros c Hc.
          destruct (In_nth _ _ [] Hc) as [k [Hk <-]]. fold (sp_col L k). apply negb_true_iff.
          unfold sp_ncols in CL. rewrite CL in Hk.
          apply toR_ltb_false. rewrite toR_0, toR_wsum, lsum_map.
          rewrite (col_lsum n (sp_col L k) (fun _ v => toR v)) by (rewrite <- RL; now apply sp_wf_col).
          rewrite (rsum_ext n _ (fun i => ((if Nat.eqb i k then (rsum n (fun j => rcoeff A k j) + rcoeff A k k) else 0) - rcoeff A k i)%R)).
          - rewrite rsum_minus, (rsum_delta n k (fun _ => _)) by auto. specialize (Hnn k k). cbv beta; change (fun j => rcoeff A k j) with (rcoeff A k); lra.
          - intros i Hi. fold (sp_get L i k). rewrite HL. destruct (Nat.ltb_spec k n); [|lia]. rewrite andb_true_r.
            destruct (Nat.eqb_spec i k) as [->|].
            + rewrite toR_sub, toR_add, toR_rowsum, C. fold (rcoeff A k k). reflexivity.
            + unfold rcoeff, coeff. rewrite (Hs k i). destruct (sp_get A i k); simpl; rewrite ?toR_sub, ?toR_0; lra. }
        cbn [negb obind]. f_equal.
        set (B := fold_left (fun A0 i => coeffRef_set A0 i i (sp_rowsum L i)) (seq 0 (sp_ncols L)) (sp_map wopp L)).
        assert (sp_square B n) as (RB & CB & HwB).
        { destruct (lap_diag_shape L (seq 0 (sp_ncols L)) (sp_map wopp L)) as (R' & C' & Hw').
          - intros i Hi. apply in_seq in Hi. simpl. lia.
          - now apply sp_map_wf.
          - fold B in R', C', Hw'. split; [simpl in R'; congruence|]. rewrite C', sp_map_ncols. auto. }
        apply sp_ext.
        + simpl. congruence.
        + rewrite sp_prune_ncols. congruence.
        + now apply sp_prune_wf.
        + exact Hwf.
        + intros i j Hi Hj. simpl in Hi. rewrite sp_prune_ncols in Hj. rewrite sp_get_prune by auto.
          unfold B. rewrite sp_get_lap_diag.
          * rewrite existsb_eqb_seq, CL, sp_get_map, HL.
            destruct (Nat.eqb_spec i j) as [->|Hij]; cbn [andb].
            -- destruct (Nat.ltb_spec j n); [|lia].
               assert (toR (sp_rowsum L j) = rcoeff A j j) as Erow.
               { rewrite toR_rowsum, CL.
                 rewrite (rsum_ext n _ (fun k => ((if Nat.eqb j k then (rsum n (fun l => rcoeff A j l) + rcoeff A j j) else 0) - rcoeff A j k)%R)).
                 - rewrite rsum_minus, (rsum_delta' n j (fun _ => _)) by auto. cbv beta; change (fun l => rcoeff A j l) with (rcoeff A j); lra.
                 - intros k Hk. unfold rcoeff at 1, coeff. rewrite HL. destruct (Nat.ltb_spec k n); [|lia]. rewrite andb_true_r.
                   destruct (Nat.eqb_spec j k) as [<-|].
                   + simpl. rewrite toR_sub, toR_add, toR_rowsum, C. reflexivity.
                   + unfold rcoeff, coeff. destruct (sp_get A j k); simpl; rewrite ?toR_sub, ?toR_0; lra. }
               destruct (sp_get A j j) as [x|] eqn:G.
               ++ assert (sp_rowsum L j = x) as -> by (apply toR_inj; rewrite Erow; unfold rcoeff, coeff; now rewrite G).
                  now rewrite (He _ _ _ G).
               ++ assert (sp_rowsum L j = w0) as -> by (apply toR_inj; rewrite Erow; unfold rcoeff, coeff; now rewrite G).
                  now rewrite pn_0.
            -- destruct (sp_get A i j) as [x|] eqn:G; simpl; auto.
               assert (wopp (wsub w0 x) = x) as -> by (apply toR_inj; rewrite toR_opp, toR_sub, toR_0; lra).
               now rewrite (He _ _ _ G).
          * intros k Hk. apply in_seq in Hk. rewrite sp_map_ncols. simpl. lia.
          * now apply sp_map_wf.
          * apply seq_NoDup.
      - cbn [obind]. f_equal.
        (* no negative entry: no off-diagonal edge *)
        assert (forall i j v, sp_get L i j = Some v -> (0 <= toR v)%R) as Hpos.
        { intros i j v G. destruct (Rle_dec 0 (toR v)); auto. exfalso.
          assert (found_negative L = true); [|congruence]. apply found_negative_spec; auto.
          exists i, j, v. split; auto. apply toR_ltb. rewrite toR_0. lra. }
        assert (forall i j, i <> j -> sp_get A i j = None) as Hoff.
        { intros i j Hij. destruct (sp_get A i j) as [x|] eqn:G; auto. exfalso.
          specialize (Hpos i j (wsub w0 x)). rewrite HL, G in Hpos.
          destruct (Nat.eqb_spec i j); [lia|]. cbn [andb option_map] in Hpos. specialize (Hpos eq_refl).
          rewrite toR_sub, toR_0 in Hpos. specialize (He _ _ _ G). apply eps_pos in He. lra. }
        apply sp_ext.
        + simpl. congruence.
        + rewrite sp_prune_ncols. congruence.
        + now apply sp_prune_wf.
        + exact Hwf.
        + intros i j Hi Hj. simpl in Hi. rewrite sp_prune_ncols in Hj. rewrite sp_get_prune by auto. rewrite HL.
          destruct (Nat.eqb_spec i j) as [->|Hij]; cbn [andb].
          * destruct (Nat.ltb_spec j n); [|lia].
            assert (toR (wsub (wadd (sp_rowsum A j) (coeff A j j)) (coeff A j j)) = rcoeff A j j) as Ed.
            { rewrite toR_sub, toR_add, toR_rowsum, C.
              rewrite (rsum_ext n _ (fun k => if Nat.eqb j k then rcoeff A j k else 0%R)).
              - rewrite (rsum_delta' n j (fun k => rcoeff A j k)) by auto. unfold rcoeff. lra.
              - intros k Hk. destruct (Nat.eqb_spec j k) as [<-|Hjk]; auto. unfold rcoeff, coeff. rewrite Hoff by auto. apply toR_0. }
            destruct (sp_get A j j) as [x|] eqn:G.
            -- assert (wsub (wadd (sp_rowsum A j) (coeff A j j)) (coeff A j j) = x) as ->.
               { apply toR_inj. rewrite Ed. unfold rcoeff, coeff. now rewrite G. }
               now rewrite (He _ _ _ G).
            -- assert (wsub (wadd (sp_rowsum A j) (coeff A j j)) (coeff A j j) = w0) as ->.
               { apply toR_inj. rewrite Ed. unfold rcoeff, coeff. now rewrite G. }
               now rewrite pn_0.
          * rewrite Hoff by auto. reflexivity. }
    unfold make_graph. rewrite RL, CL, Nat.eqb_refl, Hadj. simpl.
    assert (is_symmetric A = true) as ->; [|reflexivity].
    apply is_symmetric_spec; auto. intros i j v G. unfold coeff. rewrite (Hs j i), G. simpl.
    apply pn_refl. eapply He; eauto.
  Qed.

  Lemma laplacian_roundtrip g : reachable_pos g ->
    (forall i j, i < number_of_vertices g -> j < number_of_vertices g ->
       weight g i j = w0 \/ wltb weps (weight g i j) = true) ->
    exists g', make_graph (snd (mat_query QLap g)) = Ok g' /\
      number_of_vertices g' = number_of_vertices g /\
      forall i j, weight g' i j = weight g i j.
  Proof.
    intros Hr He. unfold number_of_vertices in *.
    destruct (reachable_ok g (reachable_pos_reachable g Hr)) as [Hok Hc]. pose proof Hok as (R & C & Hwf).
    pose proof (reachable_sym g (reachable_pos_reachable g Hr)) as Hs.
    rewrite (proj2 (proj2 (mat_query_spec QLap g Hc))).
    exists (fresh_graph (g_adj g)). split.
    - apply (laplacian_roundtrip_mat _ (g_n g)); auto. intros i j v G.
      destruct (sp_get_lt _ _ _ _ Hwf G) as [Hi Hj]. rewrite R in Hi. rewrite C in Hj.
      destruct (He i j Hi Hj) as [E|E]; unfold weight, coeff in E; rewrite G in E; simpl in E; auto.
      destruct (reachable_pos_inv g Hr) as [Hp _]. specialize (Hp _ _ _ G). rewrite E, toR_0 in Hp. lra.
    - split; [simpl; congruence|reflexivity].
  Qed.
End P.
