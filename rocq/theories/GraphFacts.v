(** Structural facts about the Graph model, for any arithmetic. *)
From Verif Require Import Base Num Sparse SparseFacts Graph GraphSpec.
From Coq Require Import Sorting.Sorted.

(** Case split on the first [if] of the goal. *)
Ltac if_goal E := match goal with |- context [if ?b then _ else _] => destruct b eqn:E end.
Ltac if_hyp H E := match type of H with context [if ?b then _ else _] => destruct b eqn:E end.

Section Facts.
  Context {W : Type} `{Num W}.
  Implicit Types (g h : graph W) (M A : sprs W).

  (** The graph object is consistent: the adjacency matrix is a well-formed square matrix of
      the advertised size. *)
  Definition g_ok g : Prop := sp_square (g_adj g) (g_n g).

  (** ** Construction *)
  Lemma lap_diag_shape M l A0 :
    (forall i, In i l -> i < sp_rows A0) -> sp_wf A0 ->
    let A := fold_left (fun A i => coeffRef_set A i i (sp_rowsum M i)) l A0 in
    sp_rows A = sp_rows A0 /\ sp_ncols A = sp_ncols A0 /\ sp_wf A.
  Proof.
    revert A0; induction l as [|i l IH]; intros A0 Hl Hwf; simpl; auto.
    destruct (IH (coeffRef_set A0 i i (sp_rowsum M i))) as (R & C & Hw).
    - intros k Hk. apply Hl. now right.
    - apply sp_upsert_wf; auto. apply Hl. now left.
    - rewrite C. unfold coeffRef_set. rewrite sp_upsert_ncols. repeat split; auto.
  Qed.
  Lemma sp_get_lap_diag M l A0 a b :
    (forall i, In i l -> i < sp_rows A0 /\ i < sp_ncols A0) -> sp_wf A0 -> NoDup l ->
    sp_get (fold_left (fun A i => coeffRef_set A i i (sp_rowsum M i)) l A0) a b =
      if (a =? b) && existsb (Nat.eqb a) l then Some (sp_rowsum M a) else sp_get A0 a b.
  Proof.
    revert A0; induction l as [|i l IH]; intros A0 Hl Hwf Hnd; simpl.
    - now rewrite andb_false_r.
    - inversion Hnd as [|? ? Hni Hnd']; subst.
      destruct (Hl i (or_introl eq_refl)) as [Hi Hc].
      rewrite IH; auto.
      + unfold coeffRef_set. rewrite sp_get_upsert by auto.
        destruct (Nat.eqb_spec a b) as [->|Hab]; simpl.
        * rewrite andb_diag. destruct (Nat.eqb_spec b i) as [->|]; simpl; auto.
          destruct (existsb (Nat.eqb i) l); reflexivity.
        * destruct (Nat.eqb_spec a i) as [->|]; simpl; auto.
          destruct (Nat.eqb_spec b i); auto. lia.
      + intros k Hk. unfold coeffRef_set. rewrite sp_upsert_ncols. apply Hl. now right.
      + apply sp_upsert_wf; auto.
  Qed.

  Lemma existsb_eqb_seq a n : existsb (Nat.eqb a) (seq 0 n) = (a <? n).
  Proof.
    destruct (Nat.ltb_spec a n) as [Ha|Ha].
    - apply existsb_exists. exists a. rewrite in_seq, Nat.eqb_refl. split; [lia|auto].
    - destruct (existsb (Nat.eqb a) (seq 0 n)) eqn:E; auto.
      apply existsb_exists in E. destruct E as [x [Hx Ex]]. apply in_seq in Hx.
      apply Nat.eqb_eq in Ex. lia.
  Qed.

  (** The matrix before the final pruning. *)
  Definition pre_adj (M : sprs W) : sprs W :=
    if found_negative M
    then fold_left (fun A i => coeffRef_set A i i (sp_rowsum M i)) (seq 0 (sp_ncols M)) (sp_map wopp M)
    else M.

  Lemma adjacency_shape M A n :
    sp_square M n -> adjacency_from_adj_or_lap M = Ok A -> sp_square A n.
  Proof.
    intros (R & C & Hwf). unfold adjacency_from_adj_or_lap.
    destruct (found_negative M) eqn:E1.
    - destruct (positive_off_diagonal M); [discriminate|].
      destruct (negb (diagonally_dominant M)); [discriminate|].
      cbn [obind]. intros [= <-].
      destruct (lap_diag_shape M (seq 0 (sp_ncols M)) (sp_map wopp M)) as (R' & C' & Hw').
      + intros i Hi. apply in_seq in Hi. simpl. lia.
      + now apply sp_map_wf.
      + split; [simpl in *; congruence|]. rewrite sp_prune_ncols, C', sp_map_ncols. split; auto.
        now apply sp_prune_wf.
    - cbn [obind]. intros [= <-]. split; [exact R|]. rewrite sp_prune_ncols. split; auto.
      now apply sp_prune_wf.
  Qed.

  Lemma adjacency_above_eps M A i j v :
    sp_wf A -> adjacency_from_adj_or_lap M = Ok A -> sp_get A i j = Some v -> wltb weps v = true.
  Proof.
    intros HwA E G.
    assert (exists B, A = sp_prune (fun v => wltb weps v) B) as [B ->].
    { unfold adjacency_from_adj_or_lap in E.
      destruct (if found_negative M then _ else Ok M) as [B| |]; try discriminate.
      cbn [obind] in E. injection E as <-. eauto. }
    clear E.
    apply col_get_In in G. unfold sp_prune in G. rewrite sp_col_map in G by reflexivity.
    apply filter_In in G. apply G.
  Qed.

  Lemma make_graph_inv M g :
    sp_wf M -> make_graph M = Ok g ->
    exists A, sp_rows M = sp_ncols M /\ adjacency_from_adj_or_lap M = Ok A /\ is_symmetric A = true /\ g = fresh_graph A.
  Proof.
    unfold make_graph. destruct (Nat.eqb_spec (sp_rows M) (sp_ncols M)) as [Hsq|]; simpl; [|discriminate].
    intros Hwf. destruct (adjacency_from_adj_or_lap M) as [A| |]; simpl; try discriminate.
    destruct (is_symmetric A) eqn:Es; [|discriminate]. intros [= <-]. eauto.
  Qed.

  Lemma make_graph_ok M g : sp_wf M -> make_graph M = Ok g -> g_ok g /\ g_n g = sp_ncols M.
  Proof.
    intros Hwf E. destruct (make_graph_inv M g Hwf E) as (A & Hsq & EA & Es & ->).
    assert (sp_square A (sp_ncols M)) as (R & C & HA).
    { eapply adjacency_shape; [|exact EA]. repeat split; auto. }
    unfold g_ok, sp_square. simpl. rewrite C. auto.
  Qed.

  Lemma make_graph_fresh M g : make_graph M = Ok g -> exists A, g = fresh_graph A.
  Proof.
    unfold make_graph. destruct (negb _); [discriminate|].
    destruct (adjacency_from_adj_or_lap M) as [A| |]; simpl; try discriminate.
    destruct (is_symmetric A); [|discriminate]. intros [= <-]. eauto.
  Qed.

  Lemma make_graph_sym `{!PosNum W} M g : sp_wf M -> make_graph M = Ok g -> sp_sym (g_adj g).
  Proof.
    intros Hwf E. destruct (make_graph_inv M g Hwf E) as (A & Hsq & EA & Es & ->). simpl.
    assert (sp_square A (sp_ncols M)) as (R & C & HA).
    { eapply adjacency_shape; [|exact EA]. repeat split; auto. }
    rewrite is_symmetric_spec in Es by exact HA.
    assert (forall i j v, sp_get A i j = Some v -> sp_get A j i = Some v) as Hs.
    { intros i j v G. pose proof (adjacency_above_eps _ _ _ _ _ HA EA G) as Hv.
      specialize (Es i j v G). unfold coeff in Es.
      pose proof (pn_eq _ _ Hv Es) as Heq.
      destruct (sp_get A j i) as [u|]; simpl in Heq; [congruence|].
      subst v. rewrite pn_0 in Hv. discriminate. }
    intros i j. destruct (sp_get A i j) as [v|] eqn:G.
    - symmetry. now apply Hs.
    - destruct (sp_get A j i) as [u|] eqn:G'; auto. apply Hs in G'. congruence.
  Qed.

  Lemma make_graph_above_eps M g i j v :
    sp_wf M -> make_graph M = Ok g -> sp_get (g_adj g) i j = Some v -> wltb weps v = true.
  Proof.
    intros Hwf E G. destruct (make_graph_inv M g Hwf E) as (A & Hsq & EA & Es & ->).
    assert (sp_square A (sp_ncols M)) as (R & C & HA).
    { eapply adjacency_shape; [|exact EA]. repeat split; auto. }
    eapply adjacency_above_eps; eauto.
  Qed.

  (** Rebuilding from an adjacency matrix all of whose stored entries exceed EPSILON. *)
  Lemma prune_all p A : (forall i j v, sp_get A i j = Some v -> p v = true) -> sp_wf A -> sp_prune p A = A.
  Proof.
    intros Hp Hwf. destruct A as [r cs]. unfold sp_prune. simpl. f_equal.
    apply list_eq_nth with (d := []); [apply map_length|].
    intros k Hk. rewrite map_length in Hk.
    rewrite nth_indep with (d' := filter (fun e => p (snd e)) []) by (now rewrite map_length).
    rewrite map_nth.
    assert (forall e, In e (nth k cs []) -> p (snd e) = true) as He.
    { intros [i v] Hin. apply (Hp i k v). unfold sp_get, sp_col. simpl.
      apply In_col_get; auto. apply (sp_wf_col _ k Hwf). }
    induction (nth k cs []) as [|e c IH]; simpl; auto.
    rewrite (He e (or_introl eq_refl)). f_equal. apply IH. intros e' He'. apply He. now right.
  Qed.


  Lemma found_negative_spec M : sp_wf M ->
    (found_negative M = true <-> exists i j v, sp_get M i j = Some v /\ wltb v w0 = true).
  Proof.
    intros Hwf. unfold found_negative. rewrite existsb_exists. split.
    - intros [c [Hc Hn]]. apply existsb_exists in Hn. destruct Hn as [[i v] [Hi Hv]]. simpl in Hv.
      destruct (In_nth _ _ [] Hc) as [j [Hj Ec]].
      exists i, j, v. split; auto. unfold sp_get, sp_col. rewrite Ec. apply In_col_get; auto.
      rewrite <- Ec. apply (sp_wf_col M j Hwf).
    - intros (i & j & v & G & Hv). destruct (sp_get_lt _ _ _ _ Hwf G) as [Hi Hj].
      exists (sp_col M j). split.
      + apply nth_In. exact Hj.
      + apply existsb_exists. exists (i, v). split; auto. now apply col_get_In.
  Qed.
  Lemma nonneg_no_negative M : sp_wf M -> nonneg_entries M -> found_negative M = false.
  Proof.
    intros Hwf Hn. destruct (found_negative M) eqn:E; auto.
    apply found_negative_spec in E; auto. destruct E as (i & j & v & G & Hv).
    rewrite (Hn i j v G) in Hv. discriminate.
  Qed.

  Lemma make_graph_nonneg M n :
    sp_square M n -> nonneg_entries M ->
    make_graph M =
      (if is_symmetric (sp_prune (fun v => wltb weps v) M)
       then Ok (fresh_graph (sp_prune (fun v => wltb weps v) M)) else Throw DomainError).
  Proof.
    intros (R & C & Hwf) Hn. unfold make_graph. rewrite R, C, Nat.eqb_refl. simpl.
    unfold adjacency_from_adj_or_lap. rewrite nonneg_no_negative by auto. reflexivity.
  Qed.

  (** ** Updates *)
  Lemma add_edge_ok g i j w g' : g_ok g -> add_edge g i j w = Ok g' -> g_ok g'.
  Proof.
    intros (R & C & Hwf). unfold add_edge. if_goal E1; [discriminate|]. intros [= <-].
    set (a := Z.to_nat i). set (b := Z.to_nat j). set (n := Nat.max (g_n g) (S (Nat.max a b))).
    assert (a < n) by (unfold n; lia). assert (b < n) by (unfold n; lia).
    unfold g_ok, sp_square. simpl. unfold coeffRef_add.
    rewrite !sp_upsert_ncols, sp_resize_ncols. repeat split; auto.
    apply sp_upsert_wf; [simpl; auto|]. apply sp_upsert_wf; [simpl; auto|]. now apply sp_resize_wf.
  Qed.

  Lemma add_edge_get g i j w g' a b :
    g_ok g -> add_edge g i j w = Ok g' ->
    sp_get (g_adj g') a b =
      let i := Z.to_nat i in let j := Z.to_nat j in
      if (i =? j) && (a =? i) && (b =? i) then Some (wadd (wadd (coeff (g_adj g) i i) w) w)
      else if ((a =? i) && (b =? j)) || ((a =? j) && (b =? i))
      then Some (wadd (coeff (g_adj g) a b) w)
      else sp_get (g_adj g) a b.
  Proof.
    intros (R & C & Hwf). unfold add_edge. if_goal E1; [discriminate|]. intros [= <-].
    cbn [g_adj]. cbv zeta.
    set (x := Z.to_nat i). set (y := Z.to_nat j). set (n := Nat.max (g_n g) (S (Nat.max x y))).
    assert (x < n) by (unfold n; lia). assert (y < n) by (unfold n; lia).
    unfold coeffRef_add.
    assert (sp_wf (sp_resize (g_adj g) n n)) as Hw1 by now apply sp_resize_wf.
    rewrite sp_get_upsert; [|apply sp_upsert_wf; simpl; auto|rewrite sp_upsert_ncols, sp_resize_ncols; auto].
    rewrite !sp_get_upsert by (auto; rewrite sp_resize_ncols; auto).
    assert (forall p q, sp_get (sp_resize (g_adj g) n n) p q = sp_get (g_adj g) p q) as Hr.
    { intros p q. apply sp_get_resize; auto; rewrite ?R, ?C; unfold n; lia. }
    rewrite !Hr. unfold coeff.
    destruct (Nat.eqb_spec x y) as [Exy|Exy]; destruct (Nat.eqb_spec a y) as [Eay|Eay];
      destruct (Nat.eqb_spec b x) as [Ebx|Ebx]; destruct (Nat.eqb_spec a x) as [Eax|Eax];
      destruct (Nat.eqb_spec b y) as [Eby|Eby]; cbn [andb orb]; try (exfalso; lia); try reflexivity;
      destruct (Nat.eqb_spec y x) as [Eyx|Eyx]; cbn [andb orb o0]; try (exfalso; lia); try reflexivity;
      subst; try congruence.
  Qed.

  Lemma remove_edge_ok g i j g' : g_ok g -> remove_edge g i j = Ok g' -> g_ok g'.
  Proof.
    intros (R & C & Hwf). unfold remove_edge.
    if_goal E1; [intros E; injection E as <-; repeat split; assumption|].
    if_goal E2; [discriminate|]. intros [= <-].
    apply orb_false_iff in E1, E2. rewrite !Z.leb_gt in E1. rewrite !Z.ltb_ge in E2.
    unfold g_ok, sp_square. simpl. unfold sp_prune0. rewrite sp_prune_ncols. unfold coeffRef_set.
    rewrite !sp_upsert_ncols. repeat split; auto.
    apply sp_prune_wf. apply sp_upsert_wf; [simpl; lia|]. apply sp_upsert_wf; [lia|auto].
  Qed.

  Lemma remove_edge_get g i j g' a b :
    weqb w0 w0 = true ->
    g_ok g -> (0 <= i < Z.of_nat (g_n g))%Z -> (0 <= j < Z.of_nat (g_n g))%Z ->
    remove_edge g i j = Ok g' ->
    sp_get (g_adj g') a b =
      if ((a =? Z.to_nat i) && (b =? Z.to_nat j)) || ((a =? Z.to_nat j) && (b =? Z.to_nat i)) then None
      else match sp_get (g_adj g) a b with
           | Some v => if weqb v w0 then None else Some v | None => None end.
  Proof.
    intros H00 (R & C & Hwf) Hi Hj. unfold remove_edge.
    if_goal E1; [apply orb_true_iff in E1; rewrite !Z.leb_le in E1; lia|].
    if_goal E2; [apply orb_true_iff in E2; rewrite !Z.ltb_lt in E2; lia|].
    intros [= <-]. cbn [g_adj]. unfold sp_prune0, coeffRef_set.
    rewrite sp_get_prune.
    2: { apply sp_upsert_wf; [simpl; lia|]. apply sp_upsert_wf; [lia|auto]. }
    rewrite sp_get_upsert; [|apply sp_upsert_wf; [lia|auto]|rewrite sp_upsert_ncols; lia].
    rewrite !sp_get_upsert by (auto; lia).
    destruct ((a =? Z.to_nat j) && (b =? Z.to_nat i)); [rewrite orb_true_r; now rewrite H00|].
    destruct ((a =? Z.to_nat i) && (b =? Z.to_nat j)); simpl; [now rewrite H00|].
    destruct (sp_get (g_adj g) a b) as [v|]; auto. now destruct (weqb v w0).
  Qed.

  Lemma add_edge_sym g i j w g' :
    g_ok g -> sp_sym (g_adj g) -> add_edge g i j w = Ok g' -> sp_sym (g_adj g').
  Proof.
    intros Hok Hs E a b. rewrite !(add_edge_get g i j w g' _ _ Hok E). cbv zeta.
    set (x := Z.to_nat i). set (y := Z.to_nat j). unfold coeff. rewrite (Hs a b).
    destruct (Nat.eqb_spec x y); destruct (Nat.eqb_spec a x); destruct (Nat.eqb_spec b y);
      destruct (Nat.eqb_spec a y); destruct (Nat.eqb_spec b x); subst; simpl; auto; try lia.
  Qed.

  Lemma remove_edge_sym g i j g' :
    weqb w0 w0 = true ->
    g_ok g -> sp_sym (g_adj g) -> remove_edge g i j = Ok g' -> sp_sym (g_adj g').
  Proof.
    intros H00 Hok Hs E a b.
    destruct (((Z.of_nat (g_n g) <=? i) || (Z.of_nat (g_n g) <=? j))%Z) eqn:E1.
    { unfold remove_edge in E. rewrite E1 in E. injection E as <-. apply Hs. }
    destruct (((i <? 0) || (j <? 0))%Z) eqn:E2.
    { unfold remove_edge in E. rewrite E1, E2 in E. discriminate. }
    apply orb_false_iff in E1, E2. rewrite !Z.leb_gt in E1. rewrite !Z.ltb_ge in E2.
    rewrite !(remove_edge_get g i j g' _ _ H00 Hok) by (auto; lia).
    rewrite (Hs a b).
    destruct (a =? Z.to_nat i), (b =? Z.to_nat j), (a =? Z.to_nat j), (b =? Z.to_nat i); reflexivity.
  Qed.

  (** ** Cached matrices *)
  Definition inv_mat A : sprs W := sp_diag (sp_ncols A) (fun i => wdiv w1 (coeff (deg_mat A) i i)).
  Definition nrm_mat A : sprs W :=
    let S := sqrt_inv_deg (sp_ncols A) (deg_mat A) in sp_mul (sp_mul S A) S.
  Definition mat_formula (q : matq) A : sprs W :=
    match q with
    | QLap => sp_sub (deg_mat A) A
    | QSLap => sp_add (deg_mat A) A
    | QNLap => sp_sub (identity_mat (sp_ncols A)) (nrm_mat A)
    | QNSLap => sp_add (identity_mat (sp_ncols A)) (nrm_mat A)
    | QDeg => deg_mat A
    | QInv => inv_mat A
    | QLrw => sp_add (sp_map (wmul whalf) (identity_mat (sp_ncols A)))
                     (sp_mul (sp_map (wmul whalf) A) (inv_mat A))
    end.
  Definition get_cache (q : matq) g : cache W :=
    match q with QLap => g_lap g | QSLap => g_slap g | QNLap => g_nlap g | QNSLap => g_nslap g
               | QDeg => g_deg g | QInv => g_inv g | QLrw => g_lrw g end.
  (** Cache invariant: an initialised matrix is the one of the current adjacency. *)
  Definition caches_ok g : Prop :=
    g_n g = sp_ncols (g_adj g) /\
    forall q, c_init (get_cache q g) = true -> c_mat (get_cache q g) = mat_formula q (g_adj g).

  Lemma fresh_caches_ok A : caches_ok (fresh_graph A).
  Proof. split; [reflexivity|]. intros []; discriminate. Qed.

  (** Same graph, caches apart. *)
  Definition same_base g h : Prop := g_n g = g_n h /\ g_adj g = g_adj h /\ g_loops g = g_loops h.

  Definition set_cache (q : matq) g (m : sprs W) : graph W :=
    let c := mkCache true m in
    let f q' := match q, q' with
                | QLap, QLap | QSLap, QSLap | QNLap, QNLap | QNSLap, QNSLap | QDeg, QDeg
                | QInv, QInv | QLrw, QLrw => c
                | _, _ => get_cache q' g end in
    mkGraph (g_n g) (g_adj g) (g_loops g) (f QLap) (f QSLap) (f QNLap) (f QNSLap) (f QDeg) (f QInv) (f QLrw).

  Lemma set_cache_ok q g m : caches_ok g -> m = mat_formula q (g_adj g) -> caches_ok (set_cache q g m).
  Proof.
    intros [Hn Hc] ->. split; [exact Hn|].
    intros q' Ei. pose proof (Hc q') as Hq.
    destruct q, q'; simpl in *; first [reflexivity | exact (Hq Ei)].
  Qed.
  Lemma set_cache_base q g m : same_base g (set_cache q g m).
  Proof. repeat split. Qed.
  Lemma set_cache_get q g m : c_mat (get_cache q (set_cache q g m)) = m.
  Proof. destruct q; reflexivity. Qed.
  Lemma same_base_trans g h k : same_base g h -> same_base h k -> same_base g k.
  Proof. unfold same_base. intuition congruence. Qed.
  Lemma same_base_refl g : same_base g g.
  Proof. repeat split. Qed.

  (** An initialiser: compute the matrix in [pre g] and store it. *)
  Lemma init_generic q pre (f : graph W -> sprs W) g :
    (forall g, caches_ok g -> caches_ok (pre g) /\ same_base g (pre g)) ->
    (caches_ok g -> f (pre g) = mat_formula q (g_adj g)) ->
    caches_ok g ->
    let g' := if c_init (get_cache q g) then g else set_cache q (pre g) (f (pre g)) in
    caches_ok g' /\ same_base g g' /\ c_mat (get_cache q g') = mat_formula q (g_adj g).
  Proof.
    intros Hpre Hf Hok. cbv zeta. destruct (c_init (get_cache q g)) eqn:E.
    - split; auto. split; [apply same_base_refl|]. now apply (proj2 Hok q).
    - destruct (Hpre g Hok) as [Hok' Hb]. rewrite (Hf Hok).
      split; [|split].
      + apply set_cache_ok; auto. now rewrite (proj1 (proj2 Hb)).
      + eapply same_base_trans; [exact Hb|apply set_cache_base].
      + apply set_cache_get.
  Qed.

  Lemma init_deg_spec g : caches_ok g ->
    caches_ok (init_deg g) /\ same_base g (init_deg g) /\ c_mat (g_deg (init_deg g)) = deg_mat (g_adj g).
  Proof.
    exact (init_generic QDeg (fun g => g) (fun g => deg_mat (g_adj g)) g
             (fun g Hg => conj Hg (same_base_refl g)) (fun _ => eq_refl)).
  Qed.
  Lemma init_deg_pre g : caches_ok g -> caches_ok (init_deg g) /\ same_base g (init_deg g).
  Proof. intros Hg. destruct (init_deg_spec g Hg) as (A & B & _). auto. Qed.

  Lemma init_inv_spec g : caches_ok g ->
    caches_ok (init_inv g) /\ same_base g (init_inv g) /\ c_mat (g_inv (init_inv g)) = inv_mat (g_adj g).
  Proof.
    refine (init_generic QInv init_deg
             (fun g => sp_diag (sp_ncols (g_adj g)) (fun i => wdiv w1 (coeff (c_mat (g_deg g)) i i))) g
             init_deg_pre _).
    intros Hg. destruct (init_deg_spec g Hg) as (_ & (B1 & B2 & B3) & Hd). now rewrite Hd, <- B2.
  Qed.
  Lemma init_inv_pre g : caches_ok g -> caches_ok (init_inv g) /\ same_base g (init_inv g).
  Proof. intros Hg. destruct (init_inv_spec g Hg) as (A & B & _). auto. Qed.

  Lemma mat_query_spec q g : caches_ok g ->
    caches_ok (fst (mat_query q g)) /\ same_base g (fst (mat_query q g)) /\
    snd (mat_query q g) = mat_formula q (g_adj g).
  Proof.
    destruct q.
    - refine (init_generic QLap init_deg (fun g => sp_sub (c_mat (g_deg g)) (g_adj g)) g init_deg_pre _).
      intros Hg. destruct (init_deg_spec g Hg) as (_ & (B1 & B2 & B3) & Hd). now rewrite Hd, <- B2.
    - refine (init_generic QSLap init_deg (fun g => sp_add (c_mat (g_deg g)) (g_adj g)) g init_deg_pre _).
      intros Hg. destruct (init_deg_spec g Hg) as (_ & (B1 & B2 & B3) & Hd). now rewrite Hd, <- B2.
    - refine (init_generic QNLap init_deg
                (fun g => let S := sqrt_inv_deg (g_n g) (c_mat (g_deg g)) in
                          sp_sub (identity_mat (g_n g)) (sp_mul (sp_mul S (g_adj g)) S)) g init_deg_pre _).
      intros Hg. destruct (init_deg_spec g Hg) as (_ & (B1 & B2 & B3) & Hd). cbv zeta.
      rewrite Hd, <- B2, <- B1, (proj1 Hg). reflexivity.
    - refine (init_generic QNSLap init_deg
                (fun g => let S := sqrt_inv_deg (g_n g) (c_mat (g_deg g)) in
                          sp_add (identity_mat (g_n g)) (sp_mul (sp_mul S (g_adj g)) S)) g init_deg_pre _).
      intros Hg. destruct (init_deg_spec g Hg) as (_ & (B1 & B2 & B3) & Hd). cbv zeta.
      rewrite Hd, <- B2, <- B1, (proj1 Hg). reflexivity.
    - apply init_deg_spec.
    - apply init_inv_spec.
    - refine (init_generic QLrw init_inv
                (fun g => sp_add (sp_map (wmul whalf) (identity_mat (g_n g)))
                                 (sp_mul (sp_map (wmul whalf) (g_adj g)) (c_mat (g_inv g)))) g init_inv_pre _).
      intros Hg. destruct (init_inv_spec g Hg) as (_ & (B1 & B2 & B3) & Hd).
      rewrite Hd, <- B2, <- B1, (proj1 Hg). reflexivity.
  Qed.

  (** ** Histories *)
  Lemma degree_base g v : caches_ok g ->
    caches_ok (fst (degree g v)) /\ same_base g (fst (degree g v)).
  Proof.
    intros Hc. unfold degree. destruct (check_vertex g v); simpl; [|repeat split; apply Hc..].
    destruct (init_deg_spec g Hc) as (A & B & _). auto.
  Qed.
  Lemma degrees_base vs g : caches_ok g ->
    caches_ok (fst (degrees g vs)) /\ same_base g (fst (degrees g vs)).
  Proof.
    revert g; induction vs as [|v vs IH]; intros g Hc; simpl; [repeat split; apply Hc|].
    destruct (degree_base g v Hc) as [Hc1 Hb1].
    destruct (degree g v) as [g1 [d| |]]; simpl in *; auto.
    destruct (IH g1 Hc1) as [Hc2 Hb2].
    destruct (degrees g1 vs) as [g2 [ds| |]]; simpl in *; split; auto;
      eapply same_base_trans; eauto.
  Qed.

  (** Calls on an object with consistent caches. *)
  Lemma gstep_caches g o g' : g_ok g -> caches_ok g -> gstep g o = Some g' -> g_ok g' /\ caches_ok g'.
  Proof.
    intros Hok Hc. destruct o as [i j w|i j|q| | |v|vs]; simpl.
    - destruct (add_edge g i j w) as [h| |] eqn:E; try discriminate.
      + intros [= <-]. pose proof (add_edge_ok _ _ _ _ _ Hok E) as Hok'. split; auto.
        split; [symmetry; apply Hok'|].
        unfold add_edge in E. if_hyp E E1; [discriminate|]. injection E as <-.
        intros []; discriminate.
      + intros [= <-]; auto.
    - destruct (remove_edge g i j) as [h| |] eqn:E; try discriminate.
      + intros [= <-]. pose proof (remove_edge_ok _ _ _ _ Hok E) as Hok'. split; auto.
        split; [symmetry; apply Hok'|].
        unfold remove_edge in E. if_hyp E E2; [injection E as <-; apply Hc|].
        if_hyp E E1; [discriminate|]. injection E as <-. intros []; discriminate.
      + intros [= <-]; auto.
    - intros [= <-]. destruct (mat_query_spec q g Hc) as (A & (B1 & B2 & B3) & _). split; auto.
      unfold g_ok in *. now rewrite <- B1, <- B2.
    - intros [= <-]. destruct (init_deg_spec g Hc) as (A & (B1 & B2 & B3) & _). split; auto.
      unfold g_ok in *. now rewrite <- B1, <- B2.
    - intros [= <-]. unfold average_degree, total_volume. simpl.
      destruct (init_deg_spec g Hc) as (A & (B1 & B2 & B3) & _). split; auto.
      unfold g_ok in *. now rewrite <- B1, <- B2.
    - intros [= <-]. destruct (degree_base g v Hc) as (A & (B1 & B2 & B3)). split; auto.
      unfold g_ok in *. now rewrite <- B1, <- B2.
    - intros [= <-]. destruct (degrees_base vs g Hc) as (A & (B1 & B2 & B3)). split; auto.
      unfold g_ok in *. now rewrite <- B1, <- B2.
  Qed.

  Lemma grun_caches ops g g' : g_ok g -> caches_ok g -> grun g ops = Some g' -> g_ok g' /\ caches_ok g'.
  Proof.
    revert g; induction ops as [|o ops IH]; intros g Hok Hc; simpl.
    - now intros [= <-].
    - destruct (gstep g o) as [h|] eqn:E; [|discriminate].
      destruct (gstep_caches _ _ _ Hok Hc E) as [Hok' Hc']. now apply IH.
  Qed.

  (** Query steps change neither vertices, adjacency nor the self-loop flag. *)
  Lemma gstep_query_base g o g' : caches_ok g ->
    (match o with OpAdd _ _ _ | OpRemove _ _ => False | _ => True end) ->
    gstep g o = Some g' -> same_base g g'.
  Proof.
    intros Hc Ho. destruct o as [i j w|i j|q| | |v|vs]; simpl in *; try tauto.
    - intros [= <-]. apply (mat_query_spec q g Hc).
    - intros [= <-]. apply (init_deg_spec g Hc).
    - intros [= <-]. unfold average_degree, total_volume. apply (init_deg_spec g Hc).
    - intros [= <-]. apply (degree_base g v Hc).
    - intros [= <-]. apply (degrees_base vs g Hc).
  Qed.

  (** Induction principle for properties of the base of the graph. *)
  Lemma grun_ind (P : graph W -> Prop) (allowed : gop W -> Prop) :
    (forall g h, same_base g h -> P g -> P h) ->
    (forall g i j w g', g_ok g -> P g -> allowed (OpAdd i j w) -> add_edge g i j w = Ok g' -> P g') ->
    (forall g i j g', g_ok g -> P g -> allowed (OpRemove i j) -> remove_edge g i j = Ok g' -> P g') ->
    forall ops g g', g_ok g -> caches_ok g -> P g -> Forall allowed ops -> grun g ops = Some g' -> P g'.
  Proof.
    intros Hbase Hadd Hrem. induction ops as [|o ops IH]; intros g g' Hok Hc HP Hall; simpl.
    - now intros [= <-].
    - inversion Hall as [|? ? Ho Hall']; subst.
      destruct (gstep g o) as [h|] eqn:E; [|discriminate].
      destruct (gstep_caches _ _ _ Hok Hc E) as [Hok' Hc'].
      assert (P h) as HPh.
      { destruct o as [i j w|i j|q| | |v|vs];
          try (eapply Hbase; [eapply gstep_query_base; [exact Hc| |exact E]; exact I|exact HP]).
        - simpl in E. destruct (add_edge g i j w) eqn:Ea; [|inversion E; subst; auto|discriminate].
          injection E as <-. exact (Hadd g i j w _ Hok HP Ho Ea).
        - simpl in E. destruct (remove_edge g i j) eqn:Ea; [|inversion E; subst; auto|discriminate].
          injection E as <-. exact (Hrem g i j _ Hok HP Ho Ea). }
      intros Er. eapply IH; eauto.
  Qed.

  (** ** Local queries *)
  Lemma starts_from_nth s (cs : list (col W)) k :
    k <= length cs -> nth k (starts_from s cs) 0 = s + length (concat (firstn k cs)).
  Proof.
    revert s k; induction cs as [|c cs IH]; intros s [|k] Hk; simpl in *; auto; try lia.
    rewrite IH by lia. rewrite app_length. lia.
  Qed.
  Lemma outer_starts_nth A v :
    v <= sp_ncols A -> nth v (outer_starts A) 0 = length (concat (firstn v (sp_cols A))).
  Proof. intros Hv. unfold outer_starts. now rewrite starts_from_nth. Qed.

  Lemma firstn_S_nth {T : Type} (l : list T) k d : k < length l -> firstn (S k) l = firstn k l ++ [nth k l d].
  Proof.
    revert k; induction l as [|x l IH]; intros [|k] Hk; simpl in *; auto; try lia.
    f_equal. apply IH. lia.
  Qed.

  Lemma column_slice A v :
    v < sp_ncols A ->
    nth (S v) (outer_starts A) 0 - nth v (outer_starts A) 0 = length (sp_col A v) /\
    entries_at A (nth v (outer_starts A) 0) (length (sp_col A v)) = sp_col A v.
  Proof.
    intros Hv. rewrite !outer_starts_nth by lia. unfold sp_ncols in Hv.
    rewrite (firstn_S_nth _ _ []) by exact Hv. rewrite concat_app, app_length. simpl.
    rewrite app_nil_r. fold (sp_col A v). split; [lia|].
    unfold entries_at.
    assert (concat (sp_cols A) = concat (firstn v (sp_cols A)) ++ sp_col A v ++ concat (skipn (S v) (sp_cols A))) as E.
    { rewrite <- (firstn_skipn (S v) (sp_cols A)) at 1.
      rewrite (firstn_S_nth _ _ []) by exact Hv. rewrite !concat_app. simpl.
      now rewrite app_nil_r, <- app_assoc. }
    rewrite E at 1. rewrite skipn_app, Nat.sub_diag, skipn_all, skipn_O. simpl.
    rewrite firstn_app, Nat.sub_diag, firstn_all, firstn_O. now rewrite app_nil_r.
  Qed.

  Lemma check_vertex_ok g v : (0 <= v < Z.of_nat (g_n g))%Z -> check_vertex g v = Ok (Z.to_nat v).
  Proof.
    intros Hv. unfold check_vertex. destruct (Z.leb_spec (Z.of_nat (g_n g)) v); [lia|].
    destruct (Z.ltb_spec v 0); [lia|auto].
  Qed.
  Lemma check_vertex_bad g v : ~ (0 <= v < Z.of_nat (g_n g))%Z -> check_vertex g v = Throw InvalidArgument.
  Proof.
    intros Hv. unfold check_vertex. destruct (Z.leb_spec (Z.of_nat (g_n g)) v); auto.
    destruct (Z.ltb_spec v 0); auto; lia.
  Qed.

  Lemma degree_unweighted_col A v :
    v < sp_ncols A -> degree_unweighted_nat A v = length (sp_col A v) + self_loop_count A v.
  Proof. intros Hv. unfold degree_unweighted_nat. now rewrite (proj1 (column_slice A v Hv)). Qed.

  Lemma neighbors_eq g v : g_ok g -> v < g_n g ->
    neighbors g (Z.of_nat v) =
      Ok (map (fun e => mkEdge v (fst e) (snd e))
              (filter (fun e => negb (weqb (snd e) w0)) (sp_col (g_adj g) v))).
  Proof.
    intros (R & C & Hwf) Hv. unfold neighbors. rewrite check_vertex_ok by lia. cbn [obind].
    rewrite Nat2Z.id. cbv zeta. rewrite degree_unweighted_col by lia.
    assert (v < sp_ncols (g_adj g)) as Hv2 by lia.
    rewrite Nat.add_sub. now rewrite (proj2 (column_slice _ v Hv2)).
  Qed.

  Lemma neighbors_unweighted_eq g v : g_ok g -> v < g_n g ->
    neighbors_unweighted g (Z.of_nat v) = Ok (map fst (sp_col (g_adj g) v)).
  Proof.
    intros (R & C & Hwf) Hv. unfold neighbors_unweighted. rewrite check_vertex_ok by lia. cbn [obind].
    rewrite Nat2Z.id. cbv zeta. rewrite degree_unweighted_col by lia.
    assert (v < sp_ncols (g_adj g)) as Hv2 by lia.
    rewrite Nat.add_sub. now rewrite (proj2 (column_slice _ v Hv2)).
  Qed.

  (** ** Equality *)
  Lemma list_eqb_eq {T : Type} (e : T -> T -> bool) (He : forall x y, e x y = true -> x = y) a b :
    list_eqb e a b = true -> a = b.
  Proof.
    revert b; induction a as [|x a IH]; intros [|y b]; simpl; try discriminate; auto.
    rewrite andb_true_iff. intros [Exy E]. f_equal; auto.
  Qed.
  Lemma list_eqb_refl {T : Type} (e : T -> T -> bool) a :
    (forall x, In x a -> e x x = true) -> list_eqb e a a = true.
  Proof.
    induction a as [|x a IH]; simpl; intros He; auto.
    rewrite (He x (or_introl eq_refl)). apply IH. intros y Hy. apply He. now right.
  Qed.
End Facts.
