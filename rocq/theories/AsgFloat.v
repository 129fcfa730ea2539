(** approximate_similarity_graph in IEEE double arithmetic for data that fits in one leaf of the tree (C88): SimGraph.v's relation at binary64. *)
From Verif Require Import Base Num RSum Sparse SparseFacts Graph GraphSpec GraphFacts GraphProps4 Cluster ClusterSweep ThreadPool ThreadPoolTop FloatFacts Kde KdeFacts KdeFacts3
  SimGraph SimGraphFacts SimGraphFacts2 SimGraphFacts4 SimGraphTop SimExpect PageRankFloat KdeFloat.
From Coq Require Import ZArith Permutation Reals Lra Lia SpecFloat.
From Flocq Require Import Core.
Local Open Scope nat_scope.

(** ** The caches of a tree with one node, any arithmetic *)
Section Leaf.
  Context {W : Type} `{Num W} `{!PosNum W} `{KNum W}.
  Notation point := (@Kde.point W).
  Lemma leaf_subtree (t : @ktree W) lo hi : subtree t (Leaf lo hi) -> t = Leaf lo hi.
  Proof. intros S. inversion S; auto. Qed.
  Lemma leaf_hist ord T (a : W) (data : list point) lo hi h : 1 <= T -> hist ord T a data (Leaf lo hi) h ->
    forall t i v, In (t, i, v) h -> t = Leaf lo hi /\ v = wmul (n_node lo hi) (exact_query (leaf_kde a data lo hi) (nth i data [])).
  Proof.
    intros HT Hh. remember (Leaf lo hi) as root eqn:Er. induction Hh as [|h t i v Hh IH S E|h t vs Hh IH S E]; intros t' i' v' Hi; [destruct Hi| |].
    - apply in_app_or in Hi as [Hi|[Hi|[]]]; [now apply IH|]. injection Hi as <- <- <-. rewrite Er in S. apply leaf_subtree in S. subst t. split; [now rewrite Er|].
      inversion E as [? ? ? I| | |]; subst; [apply IH in I; auto; tauto|reflexivity].
    - apply in_app_or in Hi as [Hi|Hi]; [now apply IH|]. rewrite Er in S. apply leaf_subtree in S. subst t.
      apply in_map_iff in Hi as ([i0 v0] & Ei & Hi). cbn [fst snd] in Ei. injection Ei as <- <- <-. split; [now rewrite Er|].
      inversion E as [lo' hi' r' Q E1 E2| |]; subst. apply exact_matrix_unique in Q; auto. subst r'. cbn [obind] in E2. injection E2 as <-.
      rewrite map_map in Hi. set (f := fun x => wmul (n_node lo hi) (exact_query (leaf_kde a data lo hi) x)) in *.
      rewrite map_length in Hi. assert (G : forall (l : list point) k, In (i0, v0) (combine (seq k (length l)) (map f l)) -> k <= i0 /\ v0 = f (nth (i0 - k) l [])).
      { induction l as [|p l IHl]; intros k Hk; [destruct Hk|]. cbn [length seq map combine] in Hk. destruct Hk as [Hk|Hk].
        - injection Hk as <- <-. rewrite Nat.sub_diag. auto.
        - apply IHl in Hk as [L ->]. split; [lia|]. replace (i0 - k) with (S (i0 - S k)) by lia. reflexivity. }
      apply G in Hi as [_ ->]. now rewrite Nat.sub_0_r.
  Qed.
  Lemma leaf_ev ord T (a : W) (data : list point) lo hi h i o : 1 <= T -> hist ord T a data (Leaf lo hi) h -> ev a data h (Leaf lo hi) i o ->
    o = Ok (wmul (n_node lo hi) (exact_query (leaf_kde a data lo hi) (nth i data []))).
  Proof.
    intros HT Hh E. inversion E as [? ? ? I| | |]; subst; [|reflexivity]. destruct (leaf_hist ord T a data lo hi h HT Hh _ _ _ I) as [_ ->]. reflexivity.
  Qed.
End Leaf.

(** ** A list of triplets through a function on weights *)
Lemma tvals_transport {W} `{Num W} (h : W -> R) (w5 : W) (degs : list W) smp u v (l : list nat) : (forall i, In i l -> i < length degs) ->
  map h (tvals (flat_map (row_writes 2 w5 degs smp) l) u v) =
  tvals (flat_map (row_writes 2 5%R (map (fun d => (5 * h (wdiv d w5))%R) degs) smp) l) u v.
Proof.
  intros Hl. induction l as [|i l IH]; [reflexivity|]. cbn [flat_map]. rewrite !tvals_app, map_app, IH by (intros; apply Hl; now right). f_equal.
  assert (E : (nth i (map (fun d => 5 * h (wdiv d w5))%R degs) 0 / 5 = h (wdiv (nth i degs w0) w5))%R).
  { rewrite (nth_indep _ _ ((fun d => 5 * h (wdiv d w5))%R w0)) by (rewrite map_length; apply Hl; now left). rewrite (map_nth (fun d => (5 * h (wdiv d w5))%R)). field. }
  unfold row_writes. cbv zeta. cbn [seq flat_map app]. change (@wdiv R _) with Rdiv. change (@w0 R _) with 0%R. rewrite E. rewrite !(tvals_cons (W := R)), !(tvals_cons (W := W)), !map_app. change (@tvals R [] u v) with (@nil R). change (@tvals W [] u v) with (@nil W).
  cbn [map]. repeat match goal with |- context [if ?b then _ else _] => destruct b end; reflexivity.
Qed.

Local Open Scope R_scope.
Section Main.
  Context (K : KNum f64) (eps : R).
  Hypothesis HK : libm_ok K eps.
  Hypothesis Heps : eps <= / 4.
  Variable a : f64.
  Variable data : list (list f64).
  Variable d : nat.
  Hypothesis Ha : dbl a /\ 0 <= f2r a <= bpow radix2 100.
  Hypothesis Hdata : Forall (fun x => coords_ok x /\ length x = d) data.
  Hypothesis Hd : INR d <= two49.
  Hypothesis Hn : INR (length data) <= two49.
  Notation n := (length data).

  Lemma row_input i : (i < n)%nat -> input_ok a data (nth i data []) d.
  Proof.
    intros Hi. rewrite Forall_forall in Hdata. destruct (Hdata (nth i data [])) as [C L]; [now apply nth_In|].
    unfold input_ok. split; [apply Ha|]. split; [apply Ha|]. split; [exact C|]. split; [exact L|]. split; [now apply Forall_forall|]. split; [lia|]. split; auto.
  Qed.
  (** A point's own kernel is at least 1/2, so the sum of the kernels is not small. *)
  Lemma own_kernel i : (i < n)%nat -> / 2 <= f2r (gaussian_kernel a (nth i data []) (nth i data [])).
  Proof.
    intros Hi. destruct (row_input i Hi) as (Da & Ra & Cq & Lq & _). destruct (kernel_error K eps HK a (nth i data []) (nth i data []) d Da Ra Cq Cq Lq Lq Hd) as (_ & _ & E).
    assert (Z : dist2 (map f2r (nth i data [])) (map f2r (nth i data [])) = 0).
    { unfold dist2. apply rsum_zero. intros j _. replace (_ - _) with 0 by ring. ring. }
    rewrite Z, Rmult_0_r, Ropp_0, exp_0 in E. apply Rabs_le_inv in E.
    assert (B : INR d * bpow radix2 (-52) <= / 8).
    { apply Rle_trans with (bpow radix2 49 * bpow radix2 (-52)); [apply Rmult_le_compat_r; [apply bpow_ge_0|exact Hd]|]. rewrite <- bpow_plus. change (bpow radix2 (49 + -52)) with (/ 8). lra. }
    assert (B2 : bpow radix2 (-52) <= / 1024) by (apply Rle_trans with (bpow radix2 (-10)); [apply bpow_le; lia|simpl; lra]). lra.
  Qed.
  Lemma sum_large i : (i < n)%nat -> bpow radix2 (-900) <= f2r (kernel_sum K a data (nth i data [])).
  Proof.
    intros Hi. destruct (sum_facts K eps HK a data (nth i data []) d (row_input i Hi)) as (A & SB & PS & NU). destruct A as (_ & _ & _ & E). apply Rabs_le_inv in E.
    set (SK := lsum (fun x => f2r (gaussian_kernel a (nth i data []) x)) data) in *.
    assert (L : / 2 <= SK).
    { eapply Rle_trans; [apply (own_kernel i Hi)|]. unfold SK. apply (lsum_ge_elt (fun x => f2r (gaussian_kernel a (nth i data []) x))); [|now apply nth_In].
      intros y Hy. pose proof (kernels_ok K eps HK a data (nth i data []) d (row_input i Hi)) as F. rewrite Forall_forall in F. apply (F (gaussian_kernel a (nth i data []) y)). now apply in_map. }
    assert (((1 + u64) ^ n - 1) * SK <= / 8 * SK) by (apply Rmult_le_compat_r; lra).
    assert (bpow radix2 (-900) <= / 1024) by (apply Rle_trans with (bpow radix2 (-10)); [apply bpow_le; lia|simpl; lra]). lra.
  Qed.

  (** The degree of vertex i. *)
  Definition deg (i : nat) : f64 := wmul (n_node 0 (n - 1)) (exact_query (leaf_kde a data 0 (n - 1)) (nth i data [])).
  Hypothesis Hn2 : (2 <= n)%nat.
  Lemma leaf_data : ex_data (leaf_kde a data 0 (n - 1)) = data.
  Proof.
    unfold leaf_kde, exact_kde_range. cbn [ex_data]. replace (n - 1 + 1 - 0)%nat with n by lia.
    apply nth_ext with (d := []) (d' := []); [now rewrite map_length, seq_length|]. intros k Hk. rewrite map_length, seq_length in Hk.
    rewrite (nth_indep _ [] (nth 0 data [])) by (now rewrite map_length, seq_length). rewrite (map_nth (fun i => nth i data [])), seq_nth by auto. reflexivity.
  Qed.
  Lemma deg_eq i : deg i = wmul (zf (Z.of_nat n - 1)) (gaussian_kde_exact a data (nth i data [])).
  Proof.
    unfold deg, n_node, exact_query. rewrite leaf_data. f_equal. destruct HK as (_ & HZ & _). rewrite HZ; [f_equal; lia|].
    pose proof (count_small data Hn) as S. unfold small_int in *. lia.
  Qed.
  Lemma deg_facts i : (i < n)%nat -> dbl (deg i) /\ bpow radix2 (-951) <= f2r (deg i) /\ f2r (deg i) < f2r (kernel_sum K a data (nth i data [])) /\
    Rabs (f2r (deg i) - INR (n - 1) * (lsum (fun x => exp (- (f2r a * dist2 (map f2r (nth i data [])) (map f2r x)))) data / INR n)) <=
      INR n * ((INR n + INR d + 9) * bpow radix2 (-52) + eps).
  Proof.
    intros Hi. rewrite deg_eq. destruct (degree_below K eps HK a data (nth i data []) d (row_input i Hi) (sum_large i Hi)) as (D & P & L & G).
    split; [exact D|]. split; [now apply G|]. split; [exact L|]. exact (degree_error K eps HK a data (nth i data []) d (row_input i Hi)).
  Qed.
  Lemma row_samples i rs : (i < n)%nat -> (forall r, In r rs -> dbl r /\ 0 <= f2r r <= 1) ->
    let s := sample_neighbors (leaf_kde a data 0 (n - 1)) (nth i data []) (deg i) rs in
    length s = length rs /\ forall v, In v s -> (v < n)%nat.
  Proof.
    intros Hi Hr s. destruct (deg_facts i Hi) as (Dd & Gd & Ld & _).
    assert (Es : s = sample_loop 0 (map (gaussian_kernel a (nth i data [])) data) w0 (stable_sort wltb (map (fun r => wmul (deg i) r) rs))).
    { unfold s, sample_neighbors. rewrite leaf_data. unfold leaf_kde, exact_kde_range. cbn [ex_min ex_max ex_a].
      replace (n - 1 + 1 - 0)%nat with n by lia. now rewrite firstn_all. }
    rewrite Es. split.
    - rewrite sample_loop_length.
      + rewrite <- (Permutation_length (stable_sort_perm _ _)). apply map_length.
      + destruct data; [cbn [length] in Hi; lia|discriminate].
      + apply Forall_forall. intros t Ht. apply (Permutation_in _ (Permutation_sym (stable_sort_perm _ _))) in Ht. apply in_map_iff in Ht as (r & <- & Hin).
        destruct (Hr r Hin) as [Dr Rr]. pose proof (bpow_ge_0 radix2 (-951)). apply target_below; auto; [lra|].
        destruct (sum_facts K eps HK a data (nth i data []) d (row_input i Hi)) as ((DT & _) & _). exact DT.
    - intros v Hv. apply sample_loop_ids in Hv. rewrite map_length in Hv. unfold Kde.point in Hv. lia.
  Qed.

  (** ** The weights *)
  Lemma div5 (x : f64) : dbl x -> bpow radix2 (-951) <= f2r x -> f2r x <= bpow radix2 60 ->
    dbl (wdiv x (zf 5)) /\ Rabs (f2r (wdiv x (zf 5)) - f2r x / 5) <= u64 * (f2r x / 5) /\ 0 <= f2r (wdiv x (zf 5)) <= bpow radix2 60.
  Proof.
    intros Dx Lx Ux. destruct (zf_spec 5) as [D5 E5]; [unfold small_int; simpl; lia|]. pose proof (bpow_gt_0 radix2 (-951)) as P.
    assert (B : 0 <= f2r x / 5 <= bpow radix2 60) by lra.
    destruct (fdiv_spec x (zf 5) Dx D5) as [Dq Eq]; [rewrite E5; lra|rewrite E5; apply (fits _ 60); [lia|rewrite Rabs_pos_eq; lra]|]. rewrite E5 in Eq.
    split; [exact Dq|]. rewrite Eq. split.
    - apply rnd_rel. right. apply Rle_trans with (bpow radix2 (-951) / 8); [|lra].
      replace (bpow radix2 (-951) / 8) with (bpow radix2 (-954)); [apply bpow_le; lia|]. change (-951)%Z with (3 + -954)%Z. rewrite bpow_plus. change (bpow radix2 3) with 8. field.
    - pose proof (rnd_le (f2r x / 5) 60 ltac:(lia) ltac:(rewrite Rabs_pos_eq; lra)) as R. apply Rabs_le_inv in R. pose proof (rnd_nonneg (f2r x / 5) ltac:(lra)). lra.
  Qed.
  Lemma deg_upper i : (i < n)%nat -> f2r (deg i) <= bpow radix2 60.
  Proof.
    intros Hi. destruct (deg_facts i Hi) as (_ & _ & L & _). destruct (sum_facts K eps HK a data (nth i data []) d (row_input i Hi)) as (A & SB & PS & NU).
    pose proof (approx_upper _ _ _ A) as U. pose proof (pow_u_ge1 n).
    assert ((1 + u64) ^ n * lsum (fun x => f2r (gaussian_kernel a (nth i data []) x)) data <= 2 * two49) by (apply Rmult_le_compat; lra).
    assert (2 * two49 <= bpow radix2 60) by (unfold two49; change 2 with (bpow radix2 1); rewrite <- bpow_plus; apply bpow_le; lia). lra.
  Qed.
  Notation degs := (map deg (seq 0 n)).
  Lemma nth_degs i : (i < n)%nat -> nth i degs w0 = deg i.
  Proof. intros Hi. rewrite (nth_indep _ w0 (deg 0)) by (now rewrite map_length, seq_length). rewrite map_nth, seq_nth by auto. reflexivity. Qed.

  Lemma pair_weight (smp : nat -> list nat) u v : (forall i, (i < n)%nat -> length (smp i) = 2%nat /\ forall k, In k (smp i) -> (k < n)%nat) -> (u < n)%nat -> (v < n)%nat ->
    let ts := flat_map (row_writes 2 (zf 5) degs smp) (seq 0 n) in
    let x := f2r (deg u) / 5 * occurrences v (smp u) + f2r (deg v) / 5 * occurrences u (smp v) in
    let y := o0 (sum1 (tvals ts u v)) in
    dbl y /\ 0 <= f2r y /\ Rabs (f2r y - x) <= bpow radix2 (-49) * x.
  Proof.
    intros Hs Hu Hv ts x y. pose proof u64_pos as Pu.
    assert (Hl : forall i, In i (seq 0 n) -> (i < length degs)%nat) by (intros i Hi; apply in_seq in Hi; rewrite map_length, seq_length; lia).
    assert (N0 : forall i (h : f64 -> R), (i < n)%nat -> nth i (map (fun d => (5 * h (wdiv d (zf 5)))%R) degs) 0 = (5 * h (wdiv (deg i) (zf 5)))%R).
    { intros i h Hi. rewrite (nth_indep _ _ ((fun d => 5 * h (wdiv d (zf 5)))%R w0)) by (rewrite !map_length, seq_length; lia). rewrite (map_nth (fun d => (5 * h (wdiv d (zf 5)))%R)). rewrite nth_degs by auto. reflexivity. }
    (* the real sum *)
    assert (ES : lsum f2r (tvals ts u v) = f2r (wdiv (deg u) (zf 5)) * occurrences v (smp u) + f2r (wdiv (deg v) (zf 5)) * occurrences u (smp v)).
    { transitivity (lsum (fun z => z) (map f2r (tvals ts u v))); [now rewrite lsum_map|]. unfold ts. rewrite (tvals_transport f2r (zf 5) degs smp u v (seq 0 n) Hl).
      rewrite rows_sum by (auto; intros i Hi; now apply Hs). unfold asg_weight. rewrite !N0 by auto. field. }
    assert (EL : INR (length (tvals ts u v)) = occurrences v (smp u) + occurrences u (smp v)).
    { transitivity (lsum (fun z => z) (map (fun _ => 1) (tvals ts u v))).
      { rewrite lsum_map. generalize (tvals ts u v). clear. intros l0. induction l0 as [|z l IH]; [reflexivity|]. cbn [lsum]. change (length (z :: l)) with (Datatypes.S (length l)). rewrite S_INR, IH. ring. }
      unfold ts. rewrite (tvals_transport (fun _ => 1) (zf 5) degs smp u v (seq 0 n) Hl).
      rewrite rows_sum by (auto; intros i Hi; now apply Hs). unfold asg_weight. rewrite !(N0 _ (fun _ => 1)) by auto. field. }
    assert (OC : forall k l, 0 <= occurrences k l <= INR (length l)).
    { intros k l. unfold occurrences. split; [apply pos_INR|]. apply le_INR. apply count_occ_bound. }
    pose proof (OC v (smp u)) as O1. pose proof (OC u (smp v)) as O2. rewrite (proj1 (Hs u Hu)) in O1. rewrite (proj1 (Hs v Hv)) in O2. change (INR 2) with (1 + 1) in *.
    assert (L4 : (length (tvals ts u v) <= 4)%nat) by (apply INR_le; rewrite EL; simpl; lra).
    assert (EV : forall z, In z (tvals ts u v) -> dbl z /\ 0 <= f2r z <= bpow radix2 60).
    { intros z Hz. unfold tvals in Hz. apply in_map_iff in Hz as ([[p q] w] & <- & Hz). apply filter_In in Hz as [Hz _]. cbn [snd].
      destruct (rows_ok 2 (zf 5) degs smp n p q w) as (_ & _ & i & Hi & ->); [|exact Hz|].
      - intros i Hi. destruct (Hs i Hi) as [L B]. split; [lia|exact B].
      - rewrite nth_degs by auto. destruct (deg_facts i Hi) as (Dd & Gd & _). destruct (div5 (deg i) Dd Gd (deg_upper i Hi)) as (A1 & _ & A3). auto. }
    (* the sum in doubles *)
    assert (SL : forall l k acc S, (forall z, In z l -> dbl z /\ 0 <= f2r z <= bpow radix2 60) -> approx_sum k acc S -> S <= INR k * bpow radix2 60 + bpow radix2 60 ->
        (k + length l <= 3)%nat -> approx_sum (k + length l) (fold_left wadd l acc) (S + lsum f2r l)).
    { induction l as [|z l IH]; intros k acc S Hz A Sb Lk; [cbn [fold_left lsum length]; rewrite Nat.add_0_r, Rplus_0_r; exact A|].
      cbn [fold_left lsum]. change (length (z :: l)) with (Datatypes.S (length l)) in *. replace (k + Datatypes.S (length l))%nat with (k + 1 + length l)%nat in * by lia.
      destruct (Hz z (or_introl eq_refl)) as [Dz Bz]. rewrite <- Rplus_assoc. pose proof (bpow_gt_0 radix2 60) as P60.
      apply IH; [intros; apply Hz; now right| |rewrite plus_INR; change (INR 1) with 1; lra|exact Lk].
      apply approx_step; auto; [apply Bz|].
      assert (K3 : INR k <= 3) by (replace 3 with (INR 3) by (simpl; lra); apply le_INR; lia).
      assert (S + f2r z <= 8 * bpow radix2 60).
      { assert (INR k * bpow radix2 60 <= 3 * bpow radix2 60) by (apply Rmult_le_compat_r; lra). lra. }
      pose proof A as (_ & _ & PS & _).
      assert (PP : (1 + u64) ^ (k + 1) <= 2).
      { assert (U3 : u64 <= / 1024) by apply u64_small.
        assert (KK : INR (k + 1) * u64 <= / 2) by (rewrite plus_INR; change (INR 1) with 1; assert (INR k * u64 <= 3 * / 1024) by (pose proof (pos_INR k); apply Rmult_le_compat; lra); lra).
        pose proof (pow_small (k + 1) KK). lra. }
      pose proof (pow_u_ge1 (k + 1)).
      apply Rle_lt_trans with (2 * (8 * bpow radix2 60)); [apply Rmult_le_compat; lra|].
      replace (2 * (8 * bpow radix2 60)) with (bpow radix2 64); [apply bpow_lt; lia|]. change 64%Z with (4 + 60)%Z. rewrite bpow_plus. change (bpow radix2 4) with 16. ring. }
    assert (Y : approx_sum 3 y (lsum f2r (tvals ts u v))).
    { unfold y. destruct (tvals ts u v) as [|z l] eqn:El.
      - cbn [sum1 o0 lsum]. apply approx_weaken with 0%nat; [lia|]. rewrite <- f2r_0. apply approx_exact; [exact dbl_0|rewrite f2r_0; lra].
      - cbn [sum1 o0 lsum]. change (length (z :: l)) with (Datatypes.S (length l)) in L4. destruct (EV z (or_introl eq_refl)) as [Dz Bz].
        apply approx_weaken with (0 + length l)%nat; [lia|]. apply SL; [intros; apply EV; now right|apply approx_exact; auto; apply Bz| |lia].
        cbn [INR]. lra. }
    destruct Y as (DY & PY & PS & EY). split; [exact DY|]. split; [exact PY|].
    destruct (deg_facts u Hu) as (Du & Gu & _). destruct (deg_facts v Hv) as (Dv & Gv & _).
    destruct (div5 (deg u) Du Gu (deg_upper u Hu)) as (_ & Eu & Bu). destruct (div5 (deg v) Dv Gv (deg_upper v Hv)) as (_ & Ev & Bv).
    pose proof (bpow_gt_0 radix2 (-951)) as P951.
    set (S := lsum f2r (tvals ts u v)) in *. set (c1 := occurrences v (smp u)) in *. set (c2 := occurrences u (smp v)) in *.
    set (wu := f2r (wdiv (deg u) (zf 5))) in *. set (wv := f2r (wdiv (deg v) (zf 5))) in *. set (du := f2r (deg u) / 5) in *. set (dv := f2r (deg v) / 5) in *.
    assert (Pdu : 0 <= du) by (unfold du; lra). assert (Pdv : 0 <= dv) by (unfold dv; lra).
    apply Rabs_le_inv in Eu. apply Rabs_le_inv in Ev.
    assert (X : Rabs (S - x) <= u64 * x).
    { rewrite ES. unfold x. apply Rabs_le.
      assert ((wu - du) * c1 <= u64 * du * c1) by (apply Rmult_le_compat_r; lra). assert ((wv - dv) * c2 <= u64 * dv * c2) by (apply Rmult_le_compat_r; lra).
      assert (- (u64 * du) * c1 <= (wu - du) * c1) by (apply Rmult_le_compat_r; lra). assert (- (u64 * dv) * c2 <= (wv - dv) * c2) by (apply Rmult_le_compat_r; lra).
      split; lra. }
    assert (Px : 0 <= x) by (unfold x; apply Rplus_le_le_0_compat; apply Rmult_le_pos; lra).
    pose proof u64_small as U3.
    assert (P3 : (1 + u64) ^ 3 <= 1 + 6 * u64) by (pose proof (pow_small 3 ltac:(simpl INR; lra)) as Q; simpl INR in Q; lra).
    apply Rabs_le_inv in X. assert (Sx : S <= 2 * x) by (assert (u64 * x <= / 1024 * x) by (apply Rmult_le_compat_r; lra); lra).
    assert (E6 : ((1 + u64) ^ 3 - 1) * S <= 6 * u64 * (2 * x)) by (pose proof (pow_u_ge1 3); apply Rmult_le_compat; lra).
    assert (E49 : bpow radix2 (-49) = 16 * u64) by (unfold u64; change 16 with (bpow radix2 4); rewrite <- bpow_plus; reflexivity).
    rewrite E49. apply Rabs_le_inv in EY. apply Rabs_le. lra.
  Qed.

  (** ** The graph *)
  Theorem asg_doubles (unif : f64 -> Prop) ord T nc r : (1 <= T)%nat -> (Z.of_nat n <= nc)%Z -> edges_per_node (W := f64) n = 2%Z ->
    (forall x, unif x -> dbl x /\ 0 <= f2r x <= 1) -> asg unif ord T a data nc r ->
    exists g degrees samples, r = Ok g /\ number_of_vertices g = n /\ reachable g /\ (forall u v, weight g u v = weight g v u) /\ length degrees = n /\
      (forall u, (u < n)%nat -> dbl (nth u degrees w0) /\ 0 < f2r (nth u degrees w0) /\
         Rabs (f2r (nth u degrees w0) - INR (n - 1) * (lsum (fun x => exp (- (f2r a * dist2 (map f2r (nth u data [])) (map f2r x)))) data / INR n)) <=
         INR n * ((INR n + INR d + 9) * bpow radix2 (-52) + eps)) /\
      (forall u, (u < n)%nat -> length (samples u) = 2%nat /\ forall v, In v (samples u) -> (v < n)%nat) /\
      forall u v, (u < n)%nat -> (v < n)%nat ->
        let x := f2r (nth u degrees w0) / 5 * INR (count_occ Nat.eq_dec (samples u) v) + f2r (nth v degrees w0) / 5 * INR (count_occ Nat.eq_dec (samples v) u) in
        exists y, dbl y /\ Rabs (f2r y - x) <= bpow radix2 (-49) * x /\ weight g u v = if wltb weps y then y else w0.
  Proof.
    intros HT Hnc He Hu A. unfold asg, Kde.point in A. rewrite He in A. change (2 <? 1)%Z with false in A. cbv iota in A. change (Z.to_nat 2) with 2%nat in A. cbv zeta in A.
    destruct A as (t & degso & B & Ew & h & samples & Hh & Sm & Res).
    assert (t = Leaf 0 (n - 1)) as -> by (inversion B; subst; [reflexivity|exfalso; lia]).
    assert (degso = Ok degs) as ->.
    { inversion Ew as [lo' hi' r' Q E1 E2| |]; subst. apply exact_matrix_unique in Q; auto. subst r'. cbn [obind]. f_equal. rewrite map_map.
      apply nth_ext with (d := deg 0) (d' := deg 0); [now rewrite !map_length, seq_length|]. intros k Hk. rewrite map_length in Hk. unfold Kde.point in *.
      rewrite map_nth, seq_nth by exact Hk. rewrite (nth_indep _ _ ((fun x => wmul (n_node 0 (n - 1)) (exact_query (leaf_kde a data 0 (n - 1)) x)) [])) by (now rewrite map_length).
      rewrite (map_nth (fun x => wmul (n_node 0 (n - 1)) (exact_query (leaf_kde a data 0 (n - 1)) x))). reflexivity. }
    assert (Ss : forall i, (i < n)%nat -> exists s, samples i = Ok s /\ length s = 2%nat /\ forall v, In v s -> (v < n)%nat).
    { intros i Hi. destruct (Sm i Hi) as (rs & o & Lr & Ur & E & ->). apply (leaf_ev ord T a data 0 (n - 1) h i o HT Hh) in E. subst o. cbn [obind].
      eexists. split; [reflexivity|]. fold (deg i). rewrite <- Lr. apply row_samples; auto. }
    set (ok := forallb (fun i => match samples i with Ok s => 2 <=? length s | _ => false end)%nat (seq 0 n)) in Res.
    assert (Eo : ok = true).
    { apply forallb_forall. intros i Hi. apply in_seq in Hi. destruct (Ss i ltac:(lia)) as (s & -> & -> & _). reflexivity. }
    rewrite Eo in Res. set (smp := fun i => match samples i with Ok s => s | _ => [] end) in *.
    assert (Hs : forall i, (i < n)%nat -> length (smp i) = 2%nat /\ forall k, In k (smp i) -> (k < n)%nat).
    { intros i Hi. unfold smp. destruct (Ss i Hi) as (s & -> & L & V). auto. }
    assert (E5 : wofZ 5 = zf 5) by (destruct HK as (_ & HZ & _); apply HZ; unfold small_int; simpl; lia). rewrite E5 in Res.
    set (ts := flat_map (row_writes 2 (zf 5) degs smp) (seq 0 n)).
    assert (Er : r = from_triplets_graph n ts).
    { destruct (n <=? T * 2)%nat.
      - rewrite Res. f_equal. unfold Kde.point. rewrite (chunk_writes_slots 2 _ degs smp n 0). apply (all_writes 2 (zf 5) degs smp n).
      - unfold chunk_size in Res. assert (T =? 0 = false)%nat as E0 by (apply Nat.eqb_neq; lia). rewrite E0 in Res. destruct Res as (s & Rs & Es & ->). f_equal.
        exact (parallel_writes 2 (zf 5) degs smp n T _ s HT Rs Es). }
    assert (Out : forall u v, (n <= u \/ n <= v)%nat -> tvals ts u v = []).
    { intros u v Huv. unfold tvals. destruct (filter _ ts) as [|[[x y] w] l] eqn:Ef; auto. exfalso.
      assert (In (x, y, w) (filter (fun t => (fst (fst t) =? u) && (snd (fst t) =? v))%nat ts)) as I by (rewrite Ef; apply in_eq).
      apply filter_In in I as [I E0]. destruct (rows_ok 2 (zf 5) degs smp n x y w) as (L1 & L2 & _); [|exact I|].
      - intros i Hi. destruct (Hs i Hi) as [L V]. split; [lia|exact V].
      - cbn [fst snd] in E0. apply andb_true_iff in E0 as [E1 E2]. apply Nat.eqb_eq in E1, E2. lia. }
    destruct (from_triplets_graph_spec n ts (fun i j => sum1 (tvals ts i j))) as (g & Eg & En & Ea & Rg & Wg).
    - intros x y w I. destruct (rows_ok 2 (zf 5) degs smp n x y w) as (L1 & L2 & _); [|exact I|tauto].
      intros i Hi. destruct (Hs i Hi) as [L V]. split; [lia|exact V].
    - reflexivity.
    - intros i j v Ev. destruct (le_lt_dec n i) as [Li|Li]; [rewrite Out in Ev by lia; discriminate|]. destruct (le_lt_dec n j) as [Lj|Lj]; [rewrite Out in Ev by lia; discriminate|].
      destruct (pair_weight smp i j Hs Li Lj) as (Dy & Py & _). fold ts in Dy, Py. rewrite Ev in Dy, Py. cbn [o0] in Dy, Py.
      apply not_true_iff_false. intros C. apply (fltb_spec v w0 Dy dbl_0) in C. rewrite f2r_0 in C. lra.
    - intros i j. unfold ts. now rewrite tvals_rows.
    - exists g, degs, smp. split; [now rewrite Er|]. split; [exact En|]. split; [exact Rg|]. split.
      { intros u v. rewrite !Wg. unfold ts. now rewrite tvals_rows. }
      split; [now rewrite map_length, seq_length|]. split.
      { intros u Hi. rewrite nth_degs by auto. destruct (deg_facts u Hi) as (D1 & D2 & _ & D4). pose proof (bpow_gt_0 radix2 (-951)). split; [exact D1|]. split; [lra|exact D4]. }
      split; [exact Hs|]. intros u v Hi Hj. rewrite !nth_degs by auto. intros x. destruct (pair_weight smp u v Hs Hi Hj) as (Dy & Py & Ey).
      fold ts in Dy, Py, Ey. exists (o0 (sum1 (tvals ts u v))). split; [exact Dy|]. split; [exact Ey|]. rewrite Wg. reflexivity.
  Qed.
End Main.

(** ** similarity_graph in doubles *)
Lemma dist2_comm u v : dist2 u v = dist2 v u.
Proof. unfold dist2. rewrite Nat.min_comm. apply rsum_ext. intros i _. ring. Qed.
Theorem similarity_doubles (K : KNum f64) (eps : R) (a : f64) (data : list (list f64)) (d : nat) T r : libm_ok K eps -> dbl a /\ 0 <= f2r a <= bpow radix2 100 ->
  Forall (fun x => coords_ok x /\ length x = d) data -> INR d <= two49 -> (1 <= T)%nat -> similarity_graph T a data r ->
  exists g, r = Ok g /\ number_of_vertices g = length data /\ reachable g /\
    forall i j, (i < length data)%nat -> (j < length data)%nat -> exists y, dbl y /\ 0 <= f2r y <= 1 /\
      Rabs (f2r y - exp (- (f2r a * dist2 (map f2r (nth i data [])) (map f2r (nth j data []))))) <= (INR d + 5) * bpow radix2 (-52) + eps /\
      weight g i j = if wltb weps y then y else w0.
Proof.
  intros HK Ha Hdata Hd HT S. apply similarity_unique in S; auto.
  assert (KE : forall i j, (i < length data)%nat -> (j < length data)%nat -> let y := sim_weight a data i j in dbl y /\ 0 <= f2r y <= 1 /\
      Rabs (f2r y - exp (- (f2r a * dist2 (map f2r (nth i data [])) (map f2r (nth j data []))))) <= (INR d + 5) * bpow radix2 (-52) + eps).
  { intros i j Hi Hj. rewrite Forall_forall in Hdata. destruct (Hdata (nth i data []) ltac:(now apply nth_In)) as [Ci Li]. destruct (Hdata (nth j data []) ltac:(now apply nth_In)) as [Cj Lj].
    unfold sim_weight. destruct (Nat.le_ge_cases i j).
    - rewrite Nat.min_l, Nat.max_r by lia. apply (kernel_error K eps HK); tauto.
    - rewrite Nat.min_r, Nat.max_l by lia. rewrite dist2_comm. apply (kernel_error K eps HK); tauto. }
  destruct (from_triplets_graph_spec (length data) (sim_rows a data (seq 0 (length data)))
    (fun i j => if ((i <? length data) && (j <? length data))%nat then Some (sim_weight a data i j) else None)) as (g & E & En & Ea & Er & Ew).
  - intros x y w I. eapply sim_rows_ok; [|exact I]. intros i Ii. apply in_seq in Ii. unfold Kde.point in *. lia.
  - intros i j. rewrite tvals_sim. unfold Kde.point. destruct (_ && _); reflexivity.
  - intros i j v Ev. destruct ((i <? length data) && (j <? length data))%nat eqn:B; [|discriminate]. apply andb_true_iff in B as [B1 B2]. apply Nat.ltb_lt in B1, B2.
    destruct (KE i j B1 B2) as (D & P & _). injection Ev as <-. apply not_true_iff_false. intros C. apply (fltb_spec _ w0 D dbl_0) in C. rewrite f2r_0 in C. lra.
  - intros i j. unfold sim_weight. rewrite Nat.min_comm, Nat.max_comm, (andb_comm (j <? _)%nat). reflexivity.
  - exists g. split; [rewrite S; exact E|]. split; [exact En|]. split; [exact Er|]. intros i j Hi Hj. destruct (KE i j Hi Hj) as (D & P & B).
    exists (sim_weight a data i j). split; [exact D|]. split; [exact P|]. split; [exact B|]. rewrite Ew. apply Nat.ltb_lt in Hi, Hj. rewrite Hi, Hj. reflexivity.
Qed.

Local Open Scope nat_scope.
(** A call can always be completed, any arithmetic. *)
Lemma asg_leaf_exists {W} `{Num W} `{!PosNum W} `{KNum W} (unif : W -> Prop) ord T (a : W) (data : list (list W)) nc x0 :
  1 <= T -> (Z.of_nat (length data) <= nc)%Z -> 2 <= length data -> edges_per_node (W := W) (length data) = 2%Z -> unif x0 -> exists r, asg unif ord T a data nc r.
Proof.
  intros HT Hnc Hn He U. unfold asg, Kde.point. rewrite He. change (2 <? 1)%Z with false. cbv iota zeta. change (Z.to_nat 2) with 2.
  set (n := length data) in *. set (t := Leaf 0 (n - 1) : @ktree W).
  destruct (exact_matrix_exists T (leaf_kde a data 0 (n - 1)) data HT) as [q Hq].
  set (samples := fun i => Ok (sample_neighbors (leaf_kde a data 0 (n - 1)) (nth i data []) (wmul (n_node 0 (n - 1)) (exact_query (leaf_kde a data 0 (n - 1)) (nth i data []))) [x0; x0])).
  assert (HB : build T a data (wfloor (wlog (wofZ 2 : W))) nc 0 0 (n - 1) t) by (apply build_leaf; lia).
  assert (HS : forall i, i < n -> tree_samples unif a data [] t i 2 (samples i)).
  { intros i Hi. exists [x0; x0]. eexists. split; [reflexivity|]. split; [intros x [<-|[<-|[]]]; exact U|]. split; [apply ev_leaf|reflexivity]. }
  set (degs := do vs <- q; Ok (map (fun v => wmul (n_node 0 (n - 1)) v) vs)).
  assert (HE : ews ord T a data t degs) by (apply ews_leaf; exact Hq).
  enough (exists r, match degs with
      | Ok degrees =>
          if forallb (fun i => match samples i with Ok s => 2 <=? length s | _ => false end) (seq 0 n) then
            let smp i := match samples i with Ok s => s | _ => [] end in
            let edges0 := repeat (0, 0, w0) (2 * (n * 2)) in
            let w5 := wofZ 5 in
            if n <=? T * 2 then r = from_triplets_graph n (fold_left (fun e x => write x e) (chunk_writes 2 w5 degrees smp (seq 0 n) 0) edges0)
            else match chunk_size n T with
                 | Ok cs => exists s, reach (fun c => map write (chunk_writes 2 w5 degrees smp (chunk_rows n T cs c) (chunk_start cs c))) T true (par_prog T) edges0 s /\
                     m s = MEnd /\ r = from_triplets_graph n (sh s)
                 | _ => r = UB
                 end
          else r = UB
      | _ => r = UB
      end) as [r Hr].
  { exists r, t, degs. split; [exact HB|]. split; [exact HE|]. exists [], samples. split; [constructor|]. split; [exact HS|exact Hr]. }
  destruct degs as [degrees| |]; eauto. destruct (forallb _ _); eauto. cbv zeta. destruct (n <=? T * 2); eauto. unfold chunk_size.
  assert (T =? 0 = false) as -> by (apply Nat.eqb_neq; lia).
  destruct (parallel_writes_exist 2 (wofZ 5) degrees (fun i => match samples i with Ok s => s | _ => [] end) n T (0, 0, w0) HT) as (s & R & E). eauto.
Qed.
