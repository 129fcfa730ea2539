(** E2LSH, neighbour sampling, the exact estimator over the reals. *)
From Verif Require Import Base Num RSum Cluster ClusterSweep ThreadPool ThreadPoolTop Kde KdeFacts.
From Coq Require Import ZArith Permutation Reals Lra Sorted.
Local Open Scope nat_scope.

Lemma NoDup_app_snoc {A} (l : list A) x : NoDup l -> ~ In x l -> NoDup (l ++ [x]).
Proof. intros Nd N. eapply Permutation_NoDup; [apply Permutation_cons_append|]. now constructor. Qed.
Lemma firstn_In {A} n (l : list A) x : In x (firstn n l) -> In x l.
Proof. intros I. rewrite <- (firstn_skipn n l). apply in_or_app. now left. Qed.
Lemma Forall2_impl_in {A B} (P Q : A -> B -> Prop) l l' : (forall x y, In x l -> In y l' -> P x y -> Q x y) -> Forall2 P l l' -> Forall2 Q l l'.
Proof. intros A0 F. induction F as [|x y l l' Pxy F IH]; constructor; [apply A0; auto; now left|]. apply IH. intros u v Iu Iv. apply A0; now right. Qed.

(** ** E2LSH *)
Section Lsh.
  Context {W : Type} `{Num W} `{KNum W}.
  Variable hs : list (@point W -> Z).
  Variable pts : list (@point W).

  Definition table_of (h : point -> Z) (is : list nat) (t : list (Z * list nat)) : list (Z * list nat) :=
    fold_left (fun t i => bucket_add (h (nth i pts [])) i t) is t.

  Lemma map_combine_map {A B C} (f : A * B -> C) (g : A -> B) (l : list A) : map f (combine l (map g l)) = map (fun x => f (x, g x)) l.
  Proof. induction l as [|x l IH]; simpl; auto. now rewrite IH. Qed.

  Lemma tables_of is : forall g : (point -> Z) -> list (Z * list nat),
    fold_left (fun tabs i => map (fun ht => bucket_add (fst ht (nth i pts [])) i (snd ht)) (combine hs tabs)) is (map g hs) = map (fun h => table_of h is (g h)) hs.
  Proof.
    induction is as [|i is IH]; intros g; simpl; auto. rewrite map_combine_map. rewrite IH. reflexivity.
  Qed.

  Lemma bucket_get_add h h' i t : bucket_get h (bucket_add h' i t) =
    if (h' =? h)%Z then Some (match bucket_get h t with Some is => is | None => [] end ++ [i]) else bucket_get h t.
  Proof.
    induction t as [|[k is] t IH]; simpl.
    - destruct (h' =? h)%Z; auto.
    - destruct (Z.eqb_spec k h') as [->|N]; simpl.
      + destruct (h' =? h)%Z; auto.
      + rewrite IH. destruct (Z.eqb_spec k h) as [->|N2]; auto. destruct (Z.eqb_spec h' h); [congruence|auto].
  Qed.

  Definition getl (h : Z) (t : list (Z * list nat)) : list nat := match bucket_get h t with Some is => is | None => [] end.

  Lemma getl_table h v is : forall t, getl v (table_of h is t) = getl v t ++ filter (fun i => (h (nth i pts []) =? v)%Z) is.
  Proof.
    induction is as [|i is IH]; intros t; simpl; [now rewrite app_nil_r|]. unfold table_of in *. rewrite IH. unfold getl at 1. rewrite bucket_get_add.
    destruct (h (nth i pts []) =? v)%Z; auto. fold (getl v t). now rewrite <- app_assoc.
  Qed.

  Lemma near_scan_In cands : forall near x, In x (near_scan cands near) <-> In x cands \/ In x near.
  Proof.
    induction cands as [|c cs IH]; intros near x; simpl; [tauto|]. rewrite IH. destruct (existsb (Nat.eqb c) near) eqn:E.
    - apply existsb_In in E. split; [tauto|intros [[->|I]|I]; auto].
    - rewrite in_app_iff. simpl. tauto.
  Qed.

  Lemma near_scan_NoDup cands : forall near, NoDup near -> NoDup (near_scan cands near).
  Proof.
    induction cands as [|c cs IH]; intros near Nd; simpl; auto. apply IH. destruct (existsb (Nat.eqb c) near) eqn:E; auto.
    assert (~ In c near) as N by (rewrite <- existsb_In; congruence). apply NoDup_app_snoc; auto.
  Qed.

  Lemma near_fold q (hl : list (point -> Z)) : forall near, NoDup near ->
    let r := fold_left (fun near h => near_scan (getl (h q) (table_of h (seq 0 (length pts)) [])) near) hl near in
    NoDup r /\ forall i, In i r <-> In i near \/ (i < length pts /\ exists h, In h hl /\ h (nth i pts []) = h q).
  Proof.
    induction hl as [|h hl IH]; intros near Nd; simpl.
    - split; auto. intros i. split; auto. intros [I|(_ & h & [] & _)]; auto.
    - destruct (IH _ (near_scan_NoDup (getl (h q) (table_of h (seq 0 (length pts)) [])) near Nd)) as [N A]. split; auto. intros i. rewrite A, near_scan_In, getl_table.
      change (getl (h q) []) with (@nil nat). rewrite app_nil_l, filter_In, in_seq, Z.eqb_eq. split.
      + intros [[(L & E)|I]|(L & h' & I & E)]; eauto. right. split; [lia|]. eauto. right. eauto.
      + intros [I|(L & h' & [<-|I] & E)]; auto. * left. left. split; auto. lia. * right. eauto.
  Qed.

  Lemma near_indices_fold q : near_indices (e2lsh_new hs pts) q =
    fold_left (fun near h => near_scan (getl (h q) (table_of h (seq 0 (length pts)) [])) near) hs [].
  Proof.
    unfold near_indices, e2lsh_new. cbn [e_hash e_tables]. rewrite (tables_of (seq 0 (length pts)) (fun _ => [])). generalize (@nil nat) as near.
    induction hs as [|h hl IH]; intros near; simpl; auto. rewrite IH. f_equal. unfold getl. destruct (bucket_get _ _); auto.
  Qed.

  Lemma near_spec q : NoDup (near_indices (e2lsh_new hs pts) q) /\
    forall i, In i (near_indices (e2lsh_new hs pts) q) <-> i < length pts /\ exists h, In h hs /\ h (nth i pts []) = h q.
  Proof.
    rewrite near_indices_fold. destruct (near_fold q hs [] (NoDup_nil _)) as [N A]. split; auto. intros i. rewrite A. simpl. tauto.
  Qed.

  (** exactly the indexed points that collide with q in some table, once per data point *)
  Lemma near_neighbors_spec q : Permutation (get_near_neighbors (e2lsh_new hs pts) q)
    (filter (fun p => existsb (fun h => (h p =? h q)%Z) hs) pts).
  Proof.
    unfold get_near_neighbors. cbn [e_points e2lsh_new].
    assert (Permutation (near_indices (e2lsh_new hs pts) q) (filter (fun i => existsb (fun h => (h (nth i pts []) =? h q)%Z) hs) (seq 0 (length pts)))) as P.
    { destruct (near_spec q) as [N A]. apply NoDup_Permutation; auto; [apply NoDup_filter, seq_NoDup|]. intros i. rewrite A, filter_In, in_seq, existsb_exists.
      split.
      - intros (L & h & I & E). split; [lia|]. exists h. split; auto. now apply Z.eqb_eq.
      - intros (L & h & I & E). split; [lia|]. exists h. split; auto. now apply Z.eqb_eq. }
    rewrite P. clear P. set (f := fun p : point => existsb (fun h => (h p =? h q)%Z) hs).
    change (fun i : nat => existsb (fun h => (h (nth i pts []) =? h q)%Z) hs) with (fun i => f (nth i pts [])). generalize f as f0, pts as l. clear f. intros f l.
    enough (forall pre, map (fun i => nth i (pre ++ l) []) (filter (fun i => f (nth i (pre ++ l) [])) (seq (length pre) (length l))) = filter f l) as B.
    { specialize (B []). simpl in B. rewrite B. reflexivity. }
    induction l as [|p l IH]; intros pre; auto. cbn [length seq filter]. rewrite app_nth2, Nat.sub_diag by lia. cbn [nth].
    specialize (IH (pre ++ [p])). rewrite app_length in IH. cbn [length] in IH. rewrite Nat.add_1_r, <- app_assoc in IH. simpl in IH.
    destruct (f p); cbn [map]; rewrite IH; auto. rewrite app_nth2, Nat.sub_diag by lia. reflexivity.
  Qed.
End Lsh.

(** ** Neighbour sampling *)
Section Sampling.
  Context {W : Type} `{Num W} `{KNum W}.

  Lemma take_below_le total ts : take_below total ts <= length ts.
  Proof. induction ts as [|t ts IH]; simpl; auto. destruct (wltb t total); lia. Qed.

  (** In any arithmetic: indices of the range, in non-decreasing order, at most one for each target. *)
  Lemma sample_loop_any ks : forall i total targets, let r := sample_loop i ks total targets in
    length r <= length targets /\ (forall x, In x r -> i <= x < i + length ks) /\ StronglySorted le r.
  Proof.
    induction ks as [|k ks IH]; intros i total targets; [simpl; split; [lia|split; [tauto|constructor]]|].
    cbn [sample_loop length]. set (c := take_below (wadd total k) targets). pose proof (take_below_le (wadd total k) targets) as L. fold c in L.
    set (tl := match skipn c targets with [] => [] | _ => sample_loop (i + 1) ks (wadd total k) (skipn c targets) end).
    assert (length tl <= length targets - c /\ (forall x, In x tl -> i + 1 <= x < i + S (length ks)) /\ StronglySorted le tl) as (A1 & A2 & A3).
    { unfold tl. destruct (skipn c targets) eqn:E; [simpl; split; [lia|split; [tauto|constructor]]|]. rewrite <- E. destruct (IH (i + 1) (wadd total k) (skipn c targets)) as (B1 & B2 & B3).
      rewrite skipn_length in B1. split; auto. split; auto. intros x I. apply B2 in I. lia. }
    cbv zeta. split; [rewrite app_length, repeat_length; lia|]. split.
    - intros x I. apply in_app_or in I as [I|I]; [apply repeat_spec in I; lia|apply A2 in I; lia].
    - assert (forall x, In x tl -> i <= x) as A4 by (intros x I; apply A2 in I; lia). clearbody tl c. clear -A3 A4. induction c as [|c IHc]; simpl; auto. constructor; auto.
      apply Forall_forall. intros x I. apply in_app_or in I as [I|I]; [apply repeat_spec in I; lia|auto].
  Qed.

  Context {EN : ExactNum W}.

  Lemma take_below_split total ts : StronglySorted (fun x y => (toR x <= toR y)%R) ts ->
    Forall (fun t => (toR t < toR total)%R) (firstn (take_below total ts) ts) /\ Forall (fun t => (toR total <= toR t)%R) (skipn (take_below total ts) ts).
  Proof.
    induction 1 as [|t ts S IH F]; simpl; [split; constructor|]. destruct (wltb t total) eqn:E; simpl.
    - apply toR_ltb in E. destruct IH. split; auto.
    - split; [constructor|]. assert (~ (toR t < toR total)%R) as N by (rewrite <- toR_ltb; congruence). constructor; [lra|].
      eapply Forall_impl; [|exact F]. cbv beta. intros x. lra.
  Qed.

  (** [first_above ks t d]: the running sum of ks exceeds t at position d for the first time *)
  Definition first_above (ks : list W) (t : W) (d : nat) : Prop :=
    d < length ks /\ (toR t < lsum toR (firstn (S d) ks))%R /\ forall e, e < d -> (lsum toR (firstn (S e) ks) <= toR t)%R.

  Lemma sample_loop_spec ks : Forall (fun k => (0 <= toR k)%R) ks -> forall i total targets,
    StronglySorted (fun x y => (toR x <= toR y)%R) targets -> Forall (fun t => (toR total <= toR t)%R) targets ->
    Forall2 (fun t x => i <= x /\ x - i < length ks /\ (toR t < toR total + lsum toR (firstn (S (x - i)) ks))%R /\
                        forall e, e < x - i -> (toR total + lsum toR (firstn (S e) ks) <= toR t)%R)
      (filter (fun t => if Rlt_dec (toR t) (toR total + lsum toR ks) then true else false) targets) (sample_loop i ks total targets).
  Proof.
    induction 1 as [|k ks K0 Fk IH]; intros i total targets Ss Ft.
    - simpl. assert (filter (fun t => if Rlt_dec (toR t) (toR total + 0) then true else false) targets = []) as ->; [|constructor].
      induction Ft as [|t ts T0 Ft IHt]; auto. simpl. inversion Ss; subst. destruct (Rlt_dec _ _); [lra|auto].
    - cbn [sample_loop]. pose proof (take_below_split (wadd total k) targets Ss) as [F1 F2]. set (c := take_below (wadd total k) targets) in *.
      rewrite <- (firstn_skipn c targets) at 1. rewrite filter_app. apply Forall2_app.
      + assert (forall t, In t (firstn c targets) -> (toR total <= toR t < toR total + toR k)%R) as A.
        { intros t I. rewrite Forall_forall in F1. pose proof (F1 _ I) as F3. rewrite toR_add in F3. rewrite Forall_forall in Ft. split; [|lra]. apply Ft. eapply firstn_In; eauto. }
        assert (length (firstn c targets) = c) as L by (apply firstn_length_le, take_below_le). rewrite <- L at 2.
        assert (0 <= lsum toR ks)%R as P by (apply lsum_nonneg; apply Forall_forall; auto).
        revert A P. clear. generalize (firstn c targets) as l. intros l A P. induction l as [|t l IHl]; simpl; [constructor|].
        destruct (A t (or_introl eq_refl)). destruct (Rlt_dec _ _) as [_|N]; [|lra]. constructor; [|apply IHl; intros; apply A; now right].
        rewrite Nat.sub_diag. cbn [firstn lsum length]. split; [lia|]. split; [lia|]. split; [lra|]. intros e L. lia.
      + destruct (skipn c targets) as [|t0 tl] eqn:Es; [constructor|]. rewrite <- Es in *. clear Es t0 tl.
        assert (StronglySorted (fun x y => (toR x <= toR y)%R) (skipn c targets)) as S2.
        { rewrite <- (firstn_skipn c targets) in Ss. clear -Ss. induction (firstn c targets) as [|x l IHl]; auto. inversion Ss; auto. }
        specialize (IH (i + 1) (wadd total k) (skipn c targets) S2 F2). rewrite toR_add in IH. cbn [lsum].
        rewrite (filter_ext _ (fun t => if Rlt_dec (toR t) (toR total + toR k + lsum toR ks) then true else false)) by (intros t; now rewrite Rplus_assoc).
        eapply Forall2_impl_in; [|exact IH]. cbv beta. intros t x It _ (B1 & B2 & B3 & B4). split; [lia|]. split; [cbn; lia|].
        replace (x - i) with (S (x - (i + 1))) by lia. cbn [firstn lsum]. split; [cbn [firstn lsum] in B3; lra|]. intros e L. destruct e as [|e].
        * cbn [firstn lsum]. apply filter_In in It as [It _]. rewrite Forall_forall in F2. apply F2 in It. rewrite toR_add in It. lra.
        * specialize (B4 e ltac:(lia)). cbn [firstn lsum] in B4 |- *. lra.
  Qed.

  Lemma sort_sorted (l : list W) : StronglySorted (fun x y => (toR x <= toR y)%R) (stable_sort wltb l).
  Proof.
    assert (StronglySorted (stable_le wltb (fun _ _ => True)) (stable_sort wltb l)) as A.
    { apply (stable_sort_sorted wltb (fun _ => True)).
      - intros a b c _ _ _ A B. apply toR_ltb in A, B. apply toR_ltb. lra.
      - intros a b c _ _ _ A. rewrite !toR_ltb in *. lra.
      - apply Forall_forall. auto.
      - clear. induction l as [|x l IH]; constructor; auto. apply Forall_forall. auto. }
    induction A as [|x l' S IH F]; constructor; auto. eapply Forall_impl; [|exact F]. intros y [E|[E _]]; [apply toR_ltb in E; lra|].
    assert (~ (toR y < toR x)%R) by (rewrite <- toR_ltb; congruence). lra.
  Qed.

  (** The answer pairs the thresholds degree * r that are below the total, in increasing order, with the first index whose running sum of kernel values
      is above the threshold. *)
  Lemma sample_neighbors_spec k q degree rs : let ks := map (gaussian_kernel (ex_a k) q) (firstn (ex_max k - ex_min k) (ex_data k)) in
    (forall c : W, (0 <= toR (wexp c))%R) -> (forall r, In r rs -> (0 <= toR (wmul degree r))%R) ->
    exists ts, Permutation ts (map (fun r => wmul degree r) rs) /\ StronglySorted (fun x y => (toR x <= toR y)%R) ts /\
      Forall2 (fun t x => ex_min k <= x /\ first_above ks t (x - ex_min k))
        (filter (fun t => if Rlt_dec (toR t) (lsum toR ks) then true else false) ts) (sample_neighbors k q degree rs).
  Proof.
    intros ks Hexp Hr. exists (stable_sort wltb (map (fun r => wmul degree r) rs)). split; [symmetry; apply stable_sort_perm|]. split; [apply sort_sorted|].
    assert (Forall (fun k => (0 <= toR k)%R) ks) as Fk by (apply Forall_forall; intros x I; apply in_map_iff in I as (p & <- & _); apply Hexp).
    pose proof (sample_loop_spec ks Fk (ex_min k) w0 (stable_sort wltb (map (fun r => wmul degree r) rs)) (sort_sorted _)) as A. rewrite toR_0 in A.
    rewrite (filter_ext _ (fun t => if Rlt_dec (toR t) (0 + lsum toR ks) then true else false)) by (intros t; now rewrite Rplus_0_l).
    eapply Forall2_impl_in; [|apply A].
    - cbv beta. intros t x _ _ (B1 & B2 & B3 & B4). split; auto. split; auto. rewrite Rplus_0_l in B3. split; auto. intros e L. specialize (B4 e L). lra.
    - apply Forall_forall. intros t I. apply (Permutation_in t (Permutation_sym (stable_sort_perm _ _))) in I. apply in_map_iff in I as (r & <- & I). auto.
  Qed.
End Sampling.

(** ** Real numbers *)
Section RealK.
  Definition R_floor (x : R) : Z := Int_part x.
  Definition R_ceil (x : R) : Z := (- Int_part (- x))%Z.
  Definition R_log2 (x : R) : R := (ln x / ln 2)%R.
End RealK.
Global Instance KNumR : KNum R := {
  wexp := exp; wlog := ln; wlog2 := R_log2; wfloor := R_floor; wceil := R_ceil; wofZ := IZR; wpow2 := fun k => powerRZ 2 k;
  wLOG_TWO := (69314718056 / 100000000000)%R; w13 := (13 / 10)%R }.

(** Squared Euclidean distance and Gaussian kernel, as in a textbook. *)
Definition dist2 (u v : list R) : R := rsum (Nat.min (length u) (length v)) (fun i => (nth i u 0 - nth i v 0) ^ 2)%R.
Definition gauss (a : R) (u v : list R) : R := exp (- a * dist2 u v).

Section Reals_.
  Local Open Scope R_scope.

  Lemma squared_distance_R u v : squared_distance u v = dist2 u v.
  Proof.
    unfold squared_distance, dist2. cbn [w0 NumR].
    enough (forall u v z, fold_left (fun r xy => wadd r (wmul (wsub (fst xy) (snd xy)) (wsub (fst xy) (snd xy)))) (combine u v) z =
      z + rsum (Nat.min (length u) (length v)) (fun i => (nth i u 0 - nth i v 0) ^ 2)) as A by (rewrite A; lra).
    clear. induction u as [|x u IH]; intros v z; [cbn; unfold rsum; cbn; lra|]. destruct v as [|y v]; [cbn; unfold rsum; cbn; lra|].
    cbn [combine fold_left fst snd]. rewrite IH. cbn [length Nat.min]. unfold rsum. cbn [seq lsum nth]. rewrite <- seq_shift, lsum_map. cbn [nth]. cbn [wadd wmul wsub NumR]. lra || ring.
  Qed.

  Lemma dist2_nonneg u v : 0 <= dist2 u v.
  Proof. apply rsum_nonneg. intros. apply pow2_ge_0. Qed.

  Lemma dist2_zero u v : length u = length v -> dist2 u v = 0 -> u = v.
  Proof.
    unfold dist2. intros L E. apply list_eq_nth with (d := 0); auto. intros i Hi. rewrite L, Nat.min_id in E.
    pose proof (rsum_ge_elt (length v) (fun i => (nth i u 0 - nth i v 0) ^ 2) i ltac:(intros; apply pow2_ge_0) ltac:(lia)) as G. cbv beta in G. rewrite E in G.
    assert ((nth i u 0 - nth i v 0) ^ 2 = 0) as Z by (pose proof (pow2_ge_0 (nth i u 0 - nth i v 0)); lra).
    destruct (Req_dec (nth i u 0 - nth i v 0) 0) as [Z2|N]; [lra|]. exfalso. now apply (pow_nonzero _ 2) in N.
  Qed.

  Lemma dist2_refl u : dist2 u u = 0.
  Proof. apply rsum_zero. intros. ring. Qed.

  Lemma gaussian_kernel_R a u v : gaussian_kernel a u v = gauss a u v.
  Proof. unfold gaussian_kernel, gaussian_kernel_sq, gauss. rewrite squared_distance_R. cbn [wexp KNumR wopp wmul NumR]. f_equal. ring. Qed.

  Lemma gauss_range a u v : 0 <= a -> 0 < gauss a u v <= 1.
  Proof.
    intros Ha. unfold gauss. split; [apply exp_pos|]. rewrite <- exp_0. pose proof (dist2_nonneg u v).
    destruct (Req_dec (a * dist2 u v) 0) as [E|N]; [right; f_equal; lra|]. left. apply exp_increasing. assert (0 <= a * dist2 u v) by now apply Rmult_le_pos. lra.
  Qed.

  Lemma fold_add_R {A} (f : A -> R) l z : fold_left (fun t x => wadd t (f x)) l z = z + lsum f l.
  Proof. revert z. induction l as [|x l IH]; intros z; cbn [fold_left lsum]; [lra|]. rewrite IH. cbn [wadd NumR]. lra. Qed.

  Lemma exact_query_R data a q : exact_query (exact_kde_new data a) q = lsum (gauss a q) data / INR (length data).
  Proof.
    unfold exact_query, gaussian_kde_exact. cbn [ex_a ex_data exact_kde_new wofZ KNumR wdiv NumR w0]. rewrite fold_add_R, <- INR_IZR_INZ, Rplus_0_l.
    f_equal. apply lsum_ext. intros x _. apply gaussian_kernel_R.
  Qed.

  Lemma exact_query_range data a q : 0 <= a -> data <> [] -> 0 < exact_query (exact_kde_new data a) q <= 1.
  Proof.
    intros Ha N. rewrite exact_query_R. assert (0 < INR (length data)) as L by (apply lt_0_INR; destruct data; [congruence|simpl; lia]).
    assert (0 < lsum (gauss a q) data <= INR (length data)) as [B1 B2].
    { clear L. destruct data as [|x data]; [congruence|]. clear N. cbn [lsum length]. rewrite S_INR. pose proof (gauss_range a q x Ha).
      assert (0 <= lsum (gauss a q) data <= INR (length data)).
      { induction data as [|y data IH]; cbn [lsum length]; [simpl; lra|]. rewrite S_INR. pose proof (gauss_range a q y Ha). lra. }
      lra. }
    split; [now apply Rdiv_lt_0_compat|]. apply (Rmult_le_reg_r (INR (length data))); auto. unfold Rdiv. rewrite Rmult_assoc, Rinv_l; lra.
  Qed.
End Reals_.
