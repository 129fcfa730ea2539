(** Local clustering in double arithmetic: which set is returned. *)
From Verif Require Import Base Num RSum Sparse SparseFacts Graph GraphSpec GraphFacts GraphProps1 GraphProps2 GraphProps5 Cluster ClusterSpec ClusterCC ClusterPR ClusterPR2 ClusterSweep ClusterInst ClusterTop FloatFacts GraphFloat PageRankFloat PageRankFloat2 SweepFloat.
From Coq Require Import ZArith Reals Lra Lia SpecFloat Sorting.Sorted Permutation.
From Flocq Require Import Core BinarySingleNaN Relative.
Local Open Scope R_scope.

(** Only vertices of positive degree enter the approximate PageRank vector. *)
Section PKeys.
  Variable lg : lgraph f64.
  Variables (kap delta : R) (alpha eps : f64).
  Hypothesis Hs : flg_spec lg kap delta.
  Hypothesis Hkap : 0 <= kap.
  Hypothesis Hdelta : 0 < delta.
  Hypothesis Da : dbl alpha.
  Hypothesis De : dbl eps.
  Hypothesis Ha : 0 < f2r alpha <= 1.
  Hypothesis He : 0 < f2r eps <= bpow radix2 100.
  Hypothesis Hbig : 4 * (20 * u64 + kap) <= f2r alpha * f2r eps * delta.
  Lemma finv_pkeys s : forall fuel p r q mem p' r', finv lg delta alpha eps s p r q mem -> (forall k, In k (vkeys p) -> 0 < f2r (dg lg k)) ->
    apr_loop fuel lg alpha eps p r q mem = Some (Ok (p', r')) -> forall k, In k (vkeys p') -> 0 < f2r (dg lg k).
  Proof.
    induction fuel as [|fuel IH]; intros p r q mem p' r' Hi Hp; destruct q as [|u q]; simpl; try discriminate.
    - intros [= <- <-]. exact Hp.
    - intros [= <- <-]. exact Hp.
    - pose proof (fs_ok lg kap delta Hs) as Hlg.
      destruct (finv_step lg kap delta alpha eps Hs Hkap Hdelta Da De Ha He Hbig s p r u q mem Hi) as (p1 & r1 & q1 & mem1 & E & Hi1 & _).
      rewrite E. apply IH; auto. pose proof (fi_str _ _ _ _ _ _ _ _ _ Hi) as Hstr.
      destruct (apr_step_inv lg Hlg (lg_has lg) (fun v h => h) (lo_closed lg Hlg) alpha eps p r u q mem Hstr) as (p2 & r2 & q2 & m2 & E2 & Ep & _).
      rewrite E in E2. injection E2 as <- <- <- <-.
      destruct (push_shape lg Hlg (lg_has lg) (fun v h => h) (lo_closed lg Hlg) p r alpha u) as (p3 & r3 & E3 & _ & _ & Hkp & _).
      + apply (ai_p _ _ _ _ _ _ _ Hstr).
      + apply (ai_r _ _ _ _ _ _ _ Hstr).
      + apply (ai_r _ _ _ _ _ _ _ Hstr), (ai_q _ _ _ _ _ _ _ Hstr). now left.
      + apply (ai_q _ _ _ _ _ _ _ Hstr). now left.
      + rewrite E3 in Ep. injection Ep as <- <-. intros k Hk. apply Hkp in Hk. destruct Hk as [->|Hk]; auto.
        apply (fi_q _ _ _ _ _ _ _ _ _ Hi). now left.
  Qed.
  Lemma pagerank_pkeys fuel s p r : vwf s -> okv s -> fmass s <= 1 -> approximate_pagerank fuel lg s alpha eps = Some (Ok (p, r)) ->
    forall k, In k (vkeys p) -> 0 < f2r (dg lg k).
  Proof.
    intros Hv Os Hm E. pose proof (fs_ok lg kap delta Hs) as Hlg.
    destruct (apr_return lg fuel s alpha eps p r E) as (_ & _ & _ & _ & _ & (ds & q & mem & Ed & Ei & El) & _).
    pose proof (apr_keys_exist lg s ds Hlg Hv Ed) as Hk.
    apply (finv_pkeys s fuel _ _ _ _ p r (finv_start lg kap delta alpha eps Hs Hkap Hdelta De Ha He Hbig s ds q mem Hv Os Hm Hk Ed Ei)); auto.
    intros k [].
  Qed.
End PKeys.

(** Dividing the entries of a vector by the degrees. *)
Lemma div_entries_vget {W} `{Num W} (lg : lgraph W) (x : sprs W) k : vwf x -> In k (vkeys x) ->
  vget (div_entries x (map (dg lg) (vkeys x))) k = wdiv (vget x k) (dg lg k).
Proof.
  intros [Hc Hw]. unfold vget, coeff, sp_get, div_entries, vkeys.
  change (sp_col (mkSprs (sp_rows x) [map (fun p : nat * W * W => (fst (fst p), wdiv (snd (fst p)) (snd p)))
     (combine (sp_col x 0) (map (dg lg) (map fst (sp_col x 0))))]) 0) with
    (map (fun p : nat * W * W => (fst (fst p), wdiv (snd (fst p)) (snd p)))
     (combine (sp_col x 0) (map (dg lg) (map fst (sp_col x 0))))).
  pose proof (sp_wf_col x 0 Hw) as [Hss _]. revert Hss. generalize (sp_col x 0). intros c.
  induction c as [|[j t] c IH]; simpl; intros Hss Hd; [tauto|].
  rewrite (Nat.eqb_sym j k). destruct (k =? j)%nat eqn:E.
  - apply Nat.eqb_eq in E. now subst.
  - apply IH; [now inversion Hss|]. destruct Hd as [<-|]; auto. rewrite Nat.eqb_refl in E. discriminate.
Qed.
Lemma quot_range p d : dbl p -> dbl d -> 0 <= f2r p -> 1 <= f2r d -> dbl (wdiv p d) /\ f2r (wdiv p d) = rnd64 (f2r p / f2r d).
Proof.
  intros Dp Dd Pp Pd. apply fdiv_spec; auto; [lra|].
  assert (0 <= f2r p / f2r d <= f2r p).
  { split; [apply Rmult_le_pos; [lra|left; apply Rinv_0_lt_compat; lra]|]. apply Rmult_le_reg_r with (f2r d); [lra|].
    unfold Rdiv. rewrite Rmult_assoc, Rinv_l by lra. rewrite Rmult_1_r. rewrite <- (Rmult_1_r (f2r p)) at 1. apply Rmult_le_compat_l; lra. }
  unfold in_range. rewrite Rabs_pos_eq by (apply rnd_nonneg; lra). apply Rle_lt_trans with (rnd64 (f2r p)); [apply rnd_mono; lra|].
  rewrite rnd_dbl by auto. apply Rle_lt_trans with (Rabs (f2r p)); [apply Rle_abs|]. now apply (dbl_range p).
Qed.

Section Local.
  Variable g : graph f64.
  Hypothesis Hr : reachable g.
  Hypothesis Hi : int_weights g.
  Hypothesis Hz : no_stored_zero g.
  Hypothesis Hvol : fvol g <= two53.
  Hypothesis Hloop : forall v, fw g v v = 0.
  Let n := number_of_vertices g.

  Theorem local_acl_float fuel seed (alpha eps : f64) p r : (seed < n)%nat -> dbl alpha -> dbl eps -> 0 < f2r alpha <= 1 -> 0 < f2r eps <= bpow radix2 100 ->
    80 * u64 <= f2r alpha * f2r eps ->
    approximate_pagerank fuel (lg_of_graph g) (vset (sp_empty (S seed) 1) seed w1) alpha eps = Some (Ok (p, r)) ->
    exists order k, Permutation (vkeys p) order /\
      StronglySorted (fbefore (fun v => rnd64 (fv p v / fdeg g v))) order /\
      local_cluster_acl fuel (lg_of_graph g) (Z.of_nat seed) alpha eps = Some (Ok (firstn k order)) /\
      (k <= length order)%nat /\ (order <> [] -> (1 <= k)%nat) /\
      forall j, (1 <= j <= length order)%nat ->
        0 < fvolS g (firstn j order) /\
        rnd64 (fcut g (firstn k order) / fvolS g (firstn k order)) <= rnd64 (fcut g (firstn j order) / fvolS g (firstn j order)) /\
        ((j < k)%nat -> rnd64 (fcut g (firstn k order) / fvolS g (firstn k order)) < rnd64 (fcut g (firstn j order) / fvolS g (firstn j order))) /\
        fcut g (firstn k order) / fvolS g (firstn k order) * (1 - u64) <= fcut g (firstn j order) / fvolS g (firstn j order) * (1 + u64).
  Proof.
    intros Hsd Da De Ha He Hbig E. set (lg := lg_of_graph g) in *.
    pose proof (int_pr_graph g Hr Hi Hz Hvol Hloop) as G.
    assert (Hs : flg_spec lg 0 1) by (apply pg_flg; [exact G|lra|lra]). pose proof (fs_ok _ _ _ Hs) as Hlg.
    destruct (seed_wf seed (w1 : f64)) as [Hsw Hsk].
    assert (Hfv : forall k, vget (vset (sp_empty (S seed) 1) seed (w1 : f64)) k = if (k =? seed)%nat then w1 else w0).
    { intros k. rewrite vget_vset by (split; [apply sp_empty_ncols|apply sp_empty_wf]). destruct (k =? seed)%nat; reflexivity. }
    destruct dbl_1 as [D1a D1b]. assert (dbl w1) as D1 by (split; auto).
    assert (Os : okv (vset (sp_empty (S seed) 1) seed (w1 : f64))).
    { intros k. unfold fv. rewrite Hfv. destruct (k =? seed)%nat; split; auto using dbl_0; [rewrite f2r_1|rewrite f2r_0]; lra. }
    assert (Hks : forall k, In k (vkeys (vset (sp_empty (S seed) 1) seed (w1 : f64))) -> (k < n)%nat).
    { intros k Hk. rewrite Hsk in Hk. destruct Hk as [<-|[]]. exact Hsd. }
    assert (Hm : fmass (vset (sp_empty (S seed) 1) seed (w1 : f64)) <= 1).
    { rewrite (seed_mass_ok g _ Hsw Hks). unfold seed_mass. fold n. rewrite (rsum_ext _ _ (fun k => if (k =? seed)%nat then 1 else 0)).
      - rewrite (rsum_delta _ seed (fun _ => 1)) by exact Hsd. lra.
      - intros k _. unfold fv. rewrite Hfv. destruct (k =? seed)%nat; [apply f2r_1|apply f2r_0]. }
    assert (Hbig' : 4 * (20 * u64 + 0) <= f2r alpha * f2r eps * 1) by lra.
    pose proof (pagerank_pkeys lg 0 1 alpha eps Hs ltac:(lra) ltac:(lra) Da De Ha He Hbig' fuel _ p r Hsw Os Hm E) as Hdeg.
    destruct (pagerank_double_result lg 0 1 alpha eps Hs ltac:(lra) ltac:(lra) Da De Ha He Hbig' fuel _ p r Hsw Os Hm E) as (Op & _).
    destruct (apr_post lg _ _ _ _ _ _ Hlg Hsw E) as (Hp & _ & Hkp & _ & _).
    destruct (apr_return lg _ _ _ _ _ _ E) as (_ & _ & E1 & E2 & E3 & _).
    assert (Hkp' : forall k, In k (vkeys p) -> (k < n)%nat) by (intros k Hk; apply graph_has; now apply Hkp).
    assert (Hdg : forall k, In k (vkeys p) -> dbl (dg lg k) /\ f2r (dg lg k) = fdeg g k /\ 1 <= fdeg g k).
    { intros k Hk. destruct (pg_dg g 0 1 G k (Hkp' k Hk)) as (Dd & B & A). specialize (Hdeg k Hk). fold lg in Dd, B, A.
      assert (f2r (dg lg k) = fdeg g k) as Ee by (apply Rabs_le_inv in A; lra). split; auto. split; auto. rewrite <- Ee. lra. }
    set (x := div_entries p (map (dg lg) (vkeys p))).
    assert (Hlen : length (map (dg lg) (vkeys p)) = length (vkeys p)) by apply map_length.
    assert (Hx : vwf x) by (now apply div_entries_wf). assert (Hxk : vkeys x = vkeys p) by (now apply div_entries_keys).
    assert (Hq : forall k, In k (vkeys p) -> dbl (vget x k) /\ fv x k = rnd64 (fv p k / fdeg g k)).
    { intros k Hk. destruct (Hdg k Hk) as (Dd & Ed & Ld). unfold fv, x. rewrite div_entries_vget by auto.
      destruct (quot_range (vget p k) (dg lg k)) as [A B]; auto; [apply Op|apply Op|lra|]. rewrite B, Ed. auto. }
    destruct (sweep_local_float g Hr Hi Hvol x Hx) as (order & k & Hperm & Hss & Esw & Hkl & Hbest & _).
    { intros k Hk. rewrite Hxk in Hk. split; [now apply Hkp'|now apply Hq]. }
    rewrite Hxk in Hperm. assert (Hor : forall v, In v order -> In v (vkeys p)) by (intros v Hv; eapply Permutation_in; [apply Permutation_sym; exact Hperm|auto]).
    exists order, k. split; auto. split.
    { clear -Hss Hq Hor. induction Hss as [|i l Hss IH Hf]; constructor; [apply IH; intros; apply Hor; now right|]. rewrite Forall_forall in *.
      intros j Hj. specialize (Hf j Hj). unfold fbefore in *. destruct (Hq i) as [_ Ei]; [apply Hor; now left|]. destruct (Hq j) as [_ Ej]; [apply Hor; now right|].
      now rewrite Ei, Ej in Hf. }
    split.
    { unfold local_cluster_acl. assert (lg_exists lg (Z.of_nat seed) = true) as -> by (now apply graph_has). cbn [negb]. rewrite E1, E2, E3. cbn [orb].
      destruct (Z.ltb_spec (Z.of_nat seed) 0); [lia|]. rewrite Nat2Z.id, E.
      rewrite inner_vkeys' by auto. rewrite (lg_degrees_ok lg Hlg) by auto. cbn [obind]. fold x. unfold lg in *. now rewrite Esw. }
    split; auto.
    assert (Hv1 : forall j, (1 <= j <= length order)%nat -> 0 < fvolS g (firstn j order)).
    { intros j Hj. destruct order as [|v order]; [simpl in Hj; lia|]. destruct j as [|j]; [lia|]. cbn [firstn]. unfold fvolS. cbn [lsum].
      destruct (Hdg v) as (_ & _ & L); [apply Hor; now left|]. pose proof (fvolS_nonneg g Hi (firstn j order)). unfold fvolS in *. lra. }
    split.
    - intros Hne. destruct (Hbest 1%nat) as [? _]; auto.
      + destruct order; [tauto|simpl; lia].
      + apply Hv1. destruct order; [tauto|simpl; lia].
    - intros j Hj. destruct (Hbest j Hj (Hv1 j Hj)) as (_ & _ & A & B & C). auto.
  Qed.
End Local.

(** ** Graphs given by integer matrices, for examples *)
Definition zcols (cols : list (list (nat * Z))) : list (col f64) := map (map (fun p => (fst p, zf (snd p)))) cols.
Fixpoint zget (c : list (nat * Z)) (i : nat) : Z := match c with [] => 0%Z | (j, z) :: c => if (j =? i)%nat then z else zget c i end.
Definition zM (cols : list (list (nat * Z))) : sprs f64 := mkSprs (length cols) (zcols cols).
Definition zG (cols : list (list (nat * Z))) : graph f64 := fresh_graph (zM cols).
Definition zok (cols : list (list (nat * Z))) : bool := forallb (forallb (fun p => (0 <? snd p) && (snd p <=? 9007199254740992))%Z) cols.
Lemma zM_get cols i j : sp_get (zM cols) i j = option_map zf (col_get (nth j cols []) i).
Proof.
  unfold sp_get, sp_col, zM, zcols. cbn [sp_cols].
  change (@nil (nat * f64)) with (map (fun p : nat * Z => (fst p, zf (snd p))) []). rewrite map_nth.
  generalize (nth j cols []). intros c. induction c as [|[k z] c IH]; simpl; auto. destruct (k =? i)%nat; auto.
Qed.
Definition zw (cols : list (list (nat * Z))) (i j : nat) : Z := match col_get (nth j cols []) i with Some z => z | None => 0%Z end.
Lemma zok_get cols i j z : zok cols = true -> col_get (nth j cols []) i = Some z -> (0 < z)%Z /\ small_int z.
Proof.
  intros Hk G. assert (In (i, z) (nth j cols [])) as I.
  { clear Hk. revert G. generalize (nth j cols []). intros c. induction c as [|[k y] c IH]; simpl; [discriminate|].
    destruct (Nat.eqb_spec k i) as [->|N]; [intros [= <-]; now left|]. intros G. right. auto. }
  destruct (Nat.lt_ge_cases j (length cols)) as [L|L]; [|rewrite nth_overflow in I by auto; destruct I].
  unfold zok in Hk. rewrite forallb_forall in Hk. specialize (Hk _ (nth_In cols [] L)). rewrite forallb_forall in Hk. specialize (Hk _ I). cbn [snd] in Hk. apply andb_prop in Hk.
  destruct Hk as [A B]. apply Z.ltb_lt in A. apply Z.leb_le in B. split; auto. unfold small_int. lia.
Qed.
Lemma zG_fw cols u v : zok cols = true -> fw (zG cols) u v = IZR (zw cols u v).
Proof.
  intros Hk. unfold fw, weight, coeff, zG, fresh_graph. cbn [g_adj]. rewrite zM_get. unfold zw.
  destruct (col_get (nth v cols []) u) as [z|] eqn:E; cbn [option_map o0]; [|apply f2r_0].
  destruct (zok_get cols u v z Hk E) as [_ S]. apply (zf_spec z S).
Qed.
Lemma zG_int cols : zok cols = true -> int_weights (zG cols) /\ no_stored_zero (zG cols).
Proof.
  intros Hk.
  assert (forall i j x, sp_get (g_adj (zG cols)) i j = Some x -> exists z, x = zf z /\ (0 < z)%Z /\ small_int z) as Hs.
  { intros i j x. unfold zG, fresh_graph. cbn [g_adj]. rewrite zM_get. destruct (col_get (nth j cols []) i) as [z|] eqn:E; [|discriminate].
    cbn [option_map]. intros [= <-]. exists z. split; auto. now apply (zok_get cols i j). }
  split; intros i j x G; destruct (Hs i j x G) as (z & -> & P & S).
  - split; [now exists z|]. rewrite (proj2 (zf_spec z S)). apply (IZR_le 0). lia.
  - destruct (weqb (zf z) w0) eqn:E; auto. exfalso. destruct (zf_spec z S) as [D F]. apply feqb_spec in E; auto using dbl_0. rewrite F, f2r_0 in E. apply eq_IZR in E. lia.
Qed.
Definition zsum (n : nat) (f : nat -> Z) : Z := fold_right (fun i a => (f i + a)%Z) 0%Z (seq 0 n).
Lemma rsum_IZR n f : rsum n (fun v => IZR (f v)) = IZR (zsum n f).
Proof. unfold rsum, zsum. induction (seq 0 n) as [|i l IH]; simpl; auto. rewrite IH, plus_IZR. reflexivity. Qed.
Lemma lsum_IZR l f : lsum (fun v : nat => IZR (f v)) l = IZR (fold_right (fun i a => (f i + a)%Z) 0%Z l).
Proof. induction l as [|i l IH]; simpl; auto. rewrite IH, plus_IZR. reflexivity. Qed.
Definition zdeg cols v := (zsum (length cols) (zw cols v) + zw cols v v)%Z.
Lemma zG_fdeg cols v : zok cols = true -> fdeg (zG cols) v = IZR (zdeg cols v).
Proof.
  intros Hk. unfold fdeg, zdeg. rewrite plus_IZR, <- rsum_IZR, (zG_fw cols v v Hk). f_equal. 
  change (number_of_vertices (zG cols)) with (length (zcols cols)). unfold zcols. rewrite map_length. apply rsum_ext. intros u _. now apply zG_fw.
Qed.
Lemma zG_n cols : number_of_vertices (zG cols) = length cols.
Proof. change (number_of_vertices (zG cols)) with (length (zcols cols)). unfold zcols. now rewrite map_length. Qed.
Lemma zG_fvol cols : zok cols = true -> fvol (zG cols) = IZR (zsum (length cols) (zdeg cols)).
Proof. intros Hk. unfold fvol. rewrite zG_n, <- rsum_IZR. apply rsum_ext. intros u _. now apply zG_fdeg. Qed.
Lemma zG_fvolS cols S : zok cols = true -> fvolS (zG cols) S = IZR (fold_right (fun i a => (zdeg cols i + a)%Z) 0%Z S).
Proof. intros Hk. unfold fvolS. rewrite <- lsum_IZR. apply lsum_ext. intros u _. now apply zG_fdeg. Qed.
Lemma zG_fcut cols S : zok cols = true ->
  fcut (zG cols) S = IZR (fold_right (fun u a => (zsum (length cols) (fun v => if nmem v S then 0 else zw cols u v) + a)%Z) 0%Z S).
Proof.
  intros Hk. unfold fcut. rewrite <- lsum_IZR. apply lsum_ext. intros u _. rewrite zG_n, <- rsum_IZR. apply rsum_ext. intros v _.
  rewrite zG_fw by auto. rewrite notin_nmem. destruct (nmem v S); lra.
Qed.
