(** Sweep sets and conductance in double arithmetic, integer weights. *)
From Verif Require Import Base Num RSum Sparse SparseFacts Graph GraphSpec GraphFacts GraphProps1 GraphProps2 GraphProps5 Cluster ClusterSpec ClusterCC ClusterPR ClusterPR2 ClusterSweep ClusterInst ClusterTop FloatFacts GraphFloat PageRankFloat PageRankFloat2.
From Coq Require Import ZArith Reals Lra Lia SpecFloat Sorting.Sorted Permutation.
From Flocq Require Import Core BinarySingleNaN Relative.
Local Open Scope R_scope.

(** ** Doubles that hold integers *)
Definition iz (r : R) : Prop := exists z, r = IZR z.
Definition dz (x : f64) : Prop := dbl x /\ iz (f2r x).
Lemma iz_add a b : iz a -> iz b -> iz (a + b). Proof. intros [x ->] [y ->]. exists (x + y)%Z. now rewrite plus_IZR. Qed.
Lemma iz_sub a b : iz a -> iz b -> iz (a - b). Proof. intros [x ->] [y ->]. exists (x - y)%Z. now rewrite minus_IZR. Qed.
Lemma iz_mul a b : iz a -> iz b -> iz (a * b). Proof. intros [x ->] [y ->]. exists (x * y)%Z. now rewrite mult_IZR. Qed.
Lemma iz_0 : iz 0. Proof. now exists 0%Z. Qed.
Lemma iz_1 : iz 1. Proof. now exists 1%Z. Qed.
Lemma iz_lsum {A} (f : A -> R) l : (forall x, In x l -> iz (f x)) -> iz (lsum f l).
Proof. induction l as [|x l IH]; intros Hf; simpl; [apply iz_0|]. apply iz_add; [apply Hf; now left|apply IH; intros; apply Hf; now right]. Qed.
Lemma iz_pos r : iz r -> 0 < r -> 1 <= r. Proof. intros [z ->] P. apply (lt_IZR 0) in P. apply (IZR_le 1). lia. Qed.
Lemma iz_rnd r : iz r -> Rabs r <= two53 -> rnd64 r = r /\ in_range r.
Proof. intros [z ->] L. apply small_R in L. split; [now apply rnd_int|now apply int_range]. Qed.
Lemma dz_add x y : dz x -> dz y -> Rabs (f2r x + f2r y) <= two53 -> dz (wadd x y) /\ f2r (wadd x y) = f2r x + f2r y.
Proof.
  intros [Dx Ix] [Dy Iy] L. destruct (iz_rnd _ (iz_add _ _ Ix Iy) L) as [E R]. destruct (fadd_spec x y Dx Dy) as [D F]; [now rewrite E|].
  rewrite E in F. split; auto. split; auto. rewrite F. now apply iz_add.
Qed.
Lemma dz_sub x y : dz x -> dz y -> Rabs (f2r x - f2r y) <= two53 -> dz (wsub x y) /\ f2r (wsub x y) = f2r x - f2r y.
Proof.
  intros [Dx Ix] [Dy Iy] L. destruct (iz_rnd _ (iz_sub _ _ Ix Iy) L) as [E R]. destruct (fsub_spec x y Dx Dy) as [D F]; [now rewrite E|].
  rewrite E in F. split; auto. split; auto. rewrite F. now apply iz_sub.
Qed.
Lemma dz_mul x y : dz x -> dz y -> Rabs (f2r x * f2r y) <= two53 -> dz (wmul x y) /\ f2r (wmul x y) = f2r x * f2r y.
Proof.
  intros [Dx Ix] [Dy Iy] L. destruct (iz_rnd _ (iz_mul _ _ Ix Iy) L) as [E R]. destruct (fmul_spec x y Dx Dy) as [D F]; [now rewrite E|].
  rewrite E in F. split; auto. split; auto. rewrite F. now apply iz_mul.
Qed.
Lemma dz_0 : dz w0 /\ f2r (w0 : f64) = 0. Proof. split; [split; [apply dbl_0|rewrite f2r_0; apply iz_0]|apply f2r_0]. Qed.
Lemma dz_2 : dz (wadd w1 w1) /\ f2r (wadd w1 w1 : f64) = 2.
Proof. destruct dbl_two as [D E]. split; [split; [exact D|rewrite E; now exists 2%Z]|exact E]. Qed.
Lemma isint_dz x : isint x -> dz x.
Proof. intros I. split; [now apply isint_dbl|]. destruct I as (z & Hz & ->). exists z. now apply zf_spec. Qed.

(** ** Rounding of quotients of integers *)
Lemma rnd_mono a b : a <= b -> rnd64 a <= rnd64 b.
Proof. intros L. apply round_le; auto; [apply FLT_exp_valid; reflexivity|apply valid_rnd_N]. Qed.
(** The quotient of two such integers: correctly rounded, relative error at most 2^-53, at most 1 if the quotient is. *)
Lemma quot_low c d : iz c -> 0 <= c -> 0 < d <= two53 -> c / d = 0 \/ bpow radix2 (-53) <= c / d.
Proof.
  intros Ic Pc [Pd Ld]. destruct (Req_dec c 0) as [->|N]; [left; unfold Rdiv; ring|right]. pose proof (iz_pos c Ic ltac:(lra)).
  apply Rmult_le_reg_r with d; [lra|]. unfold Rdiv. rewrite Rmult_assoc, Rinv_l by lra. unfold two53 in Ld.
  assert (bpow radix2 (-53) * d <= bpow radix2 (-53) * bpow radix2 53) by (apply Rmult_le_compat_l; [apply bpow_ge_0|lra]).
  rewrite bp in H0. change (bpow radix2 (-53 + 53)) with 1 in H0. lra.
Qed.
Lemma dz_div x y : dz x -> dz y -> 0 <= f2r x <= two53 -> 0 < f2r y <= two53 ->
  dbl (wdiv x y) /\ f2r (wdiv x y) = rnd64 (f2r x / f2r y) /\ Rabs (f2r (wdiv x y) - f2r x / f2r y) <= u64 * (f2r x / f2r y).
Proof.
  intros [Dx Ix] [Dy Iy] [Px Lx] [Py Ly]. pose proof (quot_low (f2r x) (f2r y) Ix Px (conj Py Ly)) as Q.
  pose proof (iz_pos _ Iy Py) as P1.
  assert (0 <= f2r x / f2r y <= two53) as B.
  { split; [apply Rmult_le_pos; [lra|left; apply Rinv_0_lt_compat; lra]|]. apply Rmult_le_reg_r with (f2r y); [lra|].
    unfold Rdiv. rewrite Rmult_assoc, Rinv_l by lra. assert (two53 * 1 <= two53 * f2r y) by (apply Rmult_le_compat_l; [unfold two53; apply bpow_ge_0|lra]). lra. }
  assert (R : Rabs (rnd64 (f2r x / f2r y) - f2r x / f2r y) <= u64 * (f2r x / f2r y)).
  { apply rnd_rel. destruct Q as [Z|L]; [now left|right]. apply Rle_trans with (2 := L). apply bpow_le. lia. }
  destruct (fdiv_spec x y Dx Dy ltac:(lra)) as [D E].
  { unfold in_range. rewrite Rabs_pos_eq by (apply rnd_nonneg; lra). apply Rle_lt_trans with (rnd64 two53); [now apply rnd_mono|].
    unfold two53. rewrite <- B53, rnd_int by (unfold small_int; simpl; lia). rewrite B53. apply bpow_lt. lia. }
  rewrite E. auto.
Qed.

(** ** Cuts and volumes, exactly *)
(** Sum of the degrees of S, and weight of the edges which leave S. *)
Definition fvolS (g : graph f64) (S : list nat) : R := lsum (fdeg g) S.
Definition fcut (g : graph f64) (S : list nat) : R := lsum (fun u => rsum (number_of_vertices g) (fun v => fw g u v * notin S v)) S.

Section Int.
  Variable g : graph f64.
  Hypothesis Hr : reachable g.
  Hypothesis Hi : int_weights g.
  Hypothesis Hvol : fvol g <= two53.
  Let n := number_of_vertices g.

  Lemma Wnn u v : 0 <= fw g u v. Proof. apply fw_nonneg. now apply int_finite. Qed.
  Lemma Wsym u v : fw g u v = fw g v u.
  Proof. unfold fw, weight, coeff. now rewrite (reachable_sym g Hr u v). Qed.
  Lemma Wiz u v : iz (fw g u v).
  Proof. apply isint_dz. now apply int_weight. Qed.
  Lemma Dnn v : 0 <= fdeg g v. Proof. apply fdeg_nonneg. now apply int_finite. Qed.
  Lemma Diz v : iz (fdeg g v). Proof. apply iz_add; [|apply Wiz]. apply iz_lsum. intros; apply Wiz. Qed.
  Lemma notin_01 S v : 0 <= notin S v <= 1. Proof. rewrite notin_nmem. destruct (nmem v S); lra. Qed.
  Lemma in_notin S v : In v S -> notin S v = 0.
  Proof. intros I. rewrite notin_nmem. apply nmem_In in I. now rewrite I. Qed.

  Lemma sum_in S (v : nat) f : NoDup S -> (forall u, In u S -> (u < n)%nat) -> lsum f S = rsum n (fun u => if nmem u S then f u else 0).
  Proof.
    intros Hn HS. unfold rsum. rewrite <- lsum_inter; auto using seq_NoDup. apply lsum_ext. intros u Hu.
    destruct (nmem u (seq 0 n)) eqn:E; auto. apply nmem_false in E. exfalso. apply E, in_seq. specialize (HS u Hu). lia.
  Qed.
  Lemma sum_notin S f : NoDup S -> (forall u, In u S -> (u < n)%nat) -> rsum n (fun u => f u * notin S u) = rsum n f - lsum f S.
  Proof.
    intros Hn HS. rewrite (sum_in S 0 f Hn HS). rewrite <- rsum_minus. apply rsum_ext. intros u _. rewrite notin_nmem. destruct (nmem u S); lra.
  Qed.
  Lemma fcut_perm S T : Permutation S T -> fcut g S = fcut g T.
  Proof.
    intros Hp. unfold fcut. rewrite (lsum_perm _ S T Hp). apply lsum_ext. intros u _. apply rsum_ext. intros v _. now rewrite (notin_perm S T v Hp).
  Qed.
  Lemma fcut_cons v S : (v < n)%nat -> (forall u, In u S -> (u < n)%nat) -> NoDup (v :: S) ->
    fcut g (v :: S) = fcut g S + fdeg g v - 2 * lsum (fw g v) (v :: S).
  Proof.
    intros Hv HS Hn. inversion Hn as [|? ? HvS HnS]; subst. unfold fcut. cbn [lsum]. fold n.
    rewrite (sum_notin (v :: S) (fw g v)) by (auto; intros u [<-|Hu]; auto). cbn [lsum].
    assert (E : lsum (fun u => rsum n (fun x => fw g u x * notin (v :: S) x)) S = lsum (fun u => rsum n (fun x => fw g u x * notin S x)) S - lsum (fw g v) S).
    { rewrite <- lsum_minus. apply lsum_ext. intros u Hu. rewrite (Wsym v u).
      rewrite (sum_notin (v :: S) (fw g u)) by (auto; intros x [<-|Hx]; auto). rewrite (sum_notin S (fw g u)) by auto. cbn [lsum]. lra. }
    rewrite E. unfold fdeg. fold n. lra.
  Qed.
  Lemma fcut_nonneg S : 0 <= fcut g S.
  Proof. apply lsum_nonneg. intros u _. apply rsum_nonneg. intros v _. apply Rmult_le_pos; [apply Wnn|apply notin_01]. Qed.
  Lemma fcut_iz S : iz (fcut g S).
  Proof.
    apply iz_lsum. intros u _. apply iz_lsum. intros v _. apply iz_mul; [apply Wiz|]. rewrite notin_nmem. destruct (nmem v S); [apply iz_0|apply iz_1].
  Qed.
  Lemma fcut_le_vol S : fcut g S <= fvolS g S.
  Proof.
    apply lsum_le. intros u _. unfold fdeg. pose proof (Wnn u u). apply Rle_trans with (rsum n (fw g u)); [|fold n; lra].
    apply rsum_le. intros v _. pose proof (Wnn u v). pose proof (notin_01 S v).
    rewrite <- (Rmult_1_r (fw g u v)) at 2. apply Rmult_le_compat_l; lra.
  Qed.
  Lemma fvolS_iz S : iz (fvolS g S). Proof. apply iz_lsum. intros; apply Diz. Qed.
  Lemma fvolS_nonneg S : 0 <= fvolS g S. Proof. apply lsum_nonneg. intros; apply Dnn. Qed.
  Lemma fcut_le_compl S : NoDup S -> (forall u, In u S -> (u < n)%nat) -> fcut g S <= fvol g - fvolS g S.
  Proof.
    intros Hn HS. unfold fvol, fvolS. fold n. rewrite <- (sum_notin S (fdeg g) Hn HS).
    unfold fcut. fold n. rewrite (sum_in S 0 _ Hn HS).
    apply Rle_trans with (rsum n (fun u => rsum n (fun v => fw g u v * notin S v))).
    - apply rsum_le. intros u _. destruct (nmem u S); [lra|]. apply rsum_nonneg. intros v _. apply Rmult_le_pos; [apply Wnn|apply notin_01].
    - rewrite rsum_swap. apply rsum_le. intros v Hv. rewrite rsum_scal_r. apply Rmult_le_compat_r; [apply notin_01|].
      unfold fdeg. fold n. pose proof (Wnn v v). rewrite (rsum_ext n _ (fw g v)) by (intros; apply Wsym). lra.
  Qed.
  Lemma fvolS_le S : NoDup S -> (forall u, In u S -> (u < n)%nat) -> fvolS g S <= fvol g.
  Proof. intros Hn HS. pose proof (fcut_le_compl S Hn HS). pose proof (fcut_nonneg S). lra. Qed.

  (** ** Queries *)
  Lemma deg_ok vs : (forall v, In v vs -> (v < n)%nat) -> lg_degrees (lg_of_graph g) vs = Ok (map (deg_val g) vs).
  Proof.
    induction vs as [|v vs IH]; intros Hv; [reflexivity|]. cbn [lg_degrees map]. cbn [lg_of_graph lg_degree].
    rewrite (degree_formula g v Hr) by (apply Hv; now left). cbn [obind]. change (lg_degrees _ vs) with (lg_degrees (lg_of_graph g) vs).
    rewrite IH by (intros; apply Hv; now right). reflexivity.
  Qed.
  Lemma deg_dz v : (v < n)%nat -> dz (deg_val g v) /\ f2r (deg_val g v) = fdeg g v.
  Proof. intros Hv. destruct (deg_val_exact g Hr Hi Hvol v Hv) as [I E]. split; auto. now apply isint_dz. Qed.
  Lemma nb_sum v : (v < n)%nat -> exists es, lg_neighbors (lg_of_graph g) (Z.of_nat v) = Ok es /\
    (forall e, In e es -> dz (ewt e) /\ 0 <= f2r (ewt e) /\ (v2 e < n)%nat /\ f2r (ewt e) = fw g v (v2 e)) /\
    forall f, (lsum (fun e => f2r (ewt e) * f (v2 e)) es = rsum n (fun u => fw g v u * f u))%R.
  Proof.
    intros Hv. destruct (neighbors_exact g v Hr Hv) as (es & E & Hss & He). exists es. split; [exact E|]. split.
    - intros e Hin. apply He in Hin. destruct Hin as (_ & Hu & Ew & _). rewrite Ew. split; [apply isint_dz; now apply int_weight|].
      split; [apply Wnn|]. split; [exact Hu|reflexivity].
    - intros f. apply ss_lt_nodup in Hss.
      transitivity (lsum (fun u => fw g v u * f u) (map v2 es)).
      + rewrite lsum_map. apply lsum_ext. intros e Hin. apply He in Hin. destruct Hin as (_ & _ & Ew & _). unfold fw. now rewrite Ew.
      + rewrite (sum_in (map v2 es) 0) by (auto; intros u Hu; apply in_map_iff in Hu; destruct Hu as (e & <- & Hin); now apply He in Hin).
        apply rsum_ext. intros u Hu. destruct (nmem u (map v2 es)) eqn:Em; auto. apply nmem_false in Em.
        assert (fw g v u = 0) as ->; [|lra]. destruct (Req_dec (fw g v u) 0) as [|N]; auto. exfalso. apply Em. apply in_map_iff.
        exists (mkEdge v u (weight g v u)). split; auto. apply He. split; [reflexivity|]. split; [exact Hu|]. split; [reflexivity|]. cbn [ewt].
        destruct (weqb (weight g v u) w0) eqn:Z; auto. exfalso. apply N. unfold fw.
        apply feqb_spec in Z; [|apply isint_dbl; now apply int_weight|apply dbl_0]. now rewrite f2r_0 in Z.
  Qed.

  (** ** One step of the sweep *)
  Lemma sweep_cut_int set es : forall cut, dz cut -> (forall e, In e es -> dz (ewt e) /\ 0 <= f2r (ewt e)) ->
    f2r cut <= two53 -> 0 <= f2r cut - 2 * lsum (fun e => if nmem (v2 e) set then f2r (ewt e) else 0) es ->
    dz (sweep_cut set es cut) /\ f2r (sweep_cut set es cut) = f2r cut - 2 * lsum (fun e => if nmem (v2 e) set then f2r (ewt e) else 0) es.
  Proof.
    induction es as [|e es IH]; intros cut Dc He Lc P; cbn [sweep_cut fold_left lsum] in *; [split; auto; lra|].
    assert (0 <= lsum (fun e => if nmem (v2 e) set then f2r (ewt e) else 0) es) as P2.
    { apply lsum_nonneg. intros e' Hin. destruct (nmem (v2 e') set); [|lra]. apply He. now right. }
    destruct (He e (or_introl eq_refl)) as [De Pe]. destruct dz_2 as [D2 E2].
    destruct (nmem (v2 e) set).
    - destruct (dz_mul (wadd w1 w1) (ewt e) D2 De) as [Dm Em]; [rewrite E2, Rabs_pos_eq by lra; lra|].
      destruct (dz_sub cut _ Dc Dm) as [Ds Es]; [rewrite Em, E2, Rabs_pos_eq by lra; lra|].
      destruct (IH (wsub cut (wmul (wadd w1 w1) (ewt e)))) as [A B]; auto.
      + intros; apply He; now right.
      + rewrite Es, Em, E2. lra.
      + rewrite Es, Em, E2. lra.
      + unfold sweep_cut in A, B. split; auto. rewrite B, Es, Em, E2. lra.
    - destruct (IH cut Dc) as [A B]; auto; [intros; apply He; now right|lra|]. unfold sweep_cut in A, B. split; auto. rewrite B. lra.
  Qed.
  Lemma sweep_den_int tot vol : dz tot -> dz vol -> 0 <= f2r vol <= two53 -> (f2r tot = 0 \/ f2r vol <= f2r tot <= two53) ->
    dz (sweep_den tot vol) /\ f2r (sweep_den tot vol) = rden (f2r tot) (f2r vol).
  Proof.
    intros Dt Dv Bv Bt. unfold sweep_den, rden. destruct (weqb tot w0) eqn:E.
    - apply feqb_spec in E; [|apply Dt|apply dbl_0]. rewrite f2r_0 in E. destruct (Req_EM_T (f2r tot) 0); [auto|tauto].
    - destruct (Req_EM_T (f2r tot) 0) as [E0|E0].
      + exfalso. enough (weqb tot w0 = true) by congruence. apply feqb_spec; [apply Dt|apply dbl_0|now rewrite f2r_0].
      + destruct Bt as [|Bt]; [tauto|]. destruct (dz_sub tot vol Dt Dv) as [Ds Es]; [rewrite Rabs_pos_eq by lra; lra|].
        destruct (wltb (wsub tot vol) vol) eqn:El.
        * apply fltb_spec in El; [|apply Ds|apply Dv]. split; auto. rewrite Es in *. unfold Rmin. destruct (Rle_dec (f2r vol) (f2r tot - f2r vol)); [lra|auto].
        * split; auto. unfold Rmin. destruct (Rle_dec (f2r vol) (f2r tot - f2r vol)) as [|Hn]; auto. exfalso.
          enough (wltb (wsub tot vol) vol = true) by congruence. apply fltb_spec; [apply Ds|apply Dv|]. lra.
  Qed.

  (** What the loop uses as the conductance of a prefix: the quotient of two exact integers, rounded. *)
  Definition fden (tot : R) (S : list nat) : R := rden tot (fvolS g S).
  Definition fquot (tot : R) (S : list nat) : R := fcut g S / fden tot S.
  Definition fbest (tot : R) (vs : list nat) (k : nat) (best : R) (bi : nat) : Prop :=
    (bi = 0%nat /\ best = 2 /\ forall j, (1 <= j <= k)%nat -> 0 < fden tot (firstn j vs) -> 2 <= rnd64 (fquot tot (firstn j vs))) \/
    ((1 <= bi <= k)%nat /\ 0 < fden tot (firstn bi vs) /\ best = rnd64 (fquot tot (firstn bi vs)) /\ best < 2 /\
     (forall j, (1 <= j <= k)%nat -> 0 < fden tot (firstn j vs) -> best <= rnd64 (fquot tot (firstn j vs))) /\
     (forall j, (1 <= j < bi)%nat -> 0 < fden tot (firstn j vs) -> best < rnd64 (fquot tot (firstn j vs)))).

  Lemma den_bound tot S : (tot = 0 \/ tot = fvol g) -> fden tot S <= two53 \/ ~ (NoDup S /\ forall u, In u S -> (u < n)%nat).
  Proof.
    intros Ht. destruct (Rle_dec (fden tot S) two53) as [|N]; [now left|right]. intros [Hn HS]. apply N. pose proof (fvolS_le S Hn HS).
    unfold fden, rden. destruct (Req_EM_T tot 0); [lra|]. unfold Rmin. destruct (Rle_dec _ _); lra.
  Qed.

  Lemma sweep_loop_int (tot : f64) (vs : list nat) : dz tot -> (f2r tot = 0 \/ f2r tot = fvol g) -> NoDup vs -> (forall v, In v vs -> (v < n)%nat) ->
    forall rest done cut vol best bi, vs = done ++ rest ->
    dz cut -> f2r cut = fcut g done -> dz vol -> f2r vol = fvolS g done -> dbl best ->
    fbest (f2r tot) vs (length done) (f2r best) bi ->
    exists k b, sweep_loop (lg_of_graph g) tot rest (map (deg_val g) rest) (rev done) cut vol best bi (length done) = Ok k /\
      fbest (f2r tot) vs (length vs) b k.
  Proof.
    intros Dt Ht Hn HV. induction rest as [|v rest IH]; intros done cut vol best bi Evs Dcut Hcut Dvol Hvl Dbest Hb; cbn [sweep_loop map].
    - exists bi, (f2r best). split; auto. rewrite app_nil_r in Evs. now subst.
    - assert (Hhv : (v < n)%nat) by (apply HV; rewrite Evs; apply in_app_iff; right; now left).
      destruct (nb_sum v Hhv) as (es & Ees & Hes & Hsum). rewrite Ees. cbn [obind].
      assert (Efst : firstn (S (length done)) vs = done ++ [v]).
      { rewrite Evs. rewrite firstn_app, firstn_all2 by lia. replace (S (length done) - length done)%nat with 1%nat by lia. reflexivity. }
      assert (Hnd : NoDup (done ++ [v])) by (rewrite <- Efst; apply nodup_firstn; exact Hn).
      assert (Hall : forall u, In u (done ++ [v]) -> (u < n)%nat).
      { intros u Hu. apply in_app_iff in Hu. destruct Hu as [Hu|[<-|[]]]; auto. apply HV. rewrite Evs. apply in_app_iff. now left. }
      assert (Hdone : forall u, In u done -> (u < n)%nat) by (intros u Hu; apply Hall, in_app_iff; now left).
      assert (Hperm : Permutation (v :: done) (done ++ [v])) by (apply Permutation_cons_append).
      assert (Hnd' : NoDup (v :: done)) by (eapply Permutation_NoDup; [apply Permutation_sym; exact Hperm|auto]).
      destruct (deg_dz v Hhv) as [Dd Ed].
      assert (Evol : fvolS g (done ++ [v]) = fvolS g done + fdeg g v) by (unfold fvolS; rewrite lsum_app; cbn [lsum]; lra).
      pose proof (fvolS_le _ Hnd Hall) as Lv. pose proof (fvolS_nonneg (done ++ [v])) as Pv. pose proof (fcut_le_vol done) as Lc. pose proof (fcut_nonneg done) as Pc0.
      pose proof (Dnn v) as Pd.
      destruct (dz_add vol (deg_val g v) Dvol Dd) as [Dvol1 Hvol1]; [rewrite Hvl, Ed, Rabs_pos_eq; lra|].
      destruct (dz_add cut (deg_val g v) Dcut Dd) as [Dc0 Hc0]; [rewrite Hcut, Ed, Rabs_pos_eq; lra|].
      rewrite Hcut, Ed in Hc0. rewrite Hvl, Ed in Hvol1.
      assert (Esum : lsum (fun e => if nmem (v2 e) (v :: rev done) then f2r (ewt e) else 0) es = lsum (fw g v) (v :: done)).
      { rewrite (sum_in (v :: done) 0) by (auto; intros u [<-|Hu]; auto).
        rewrite (lsum_ext _ (fun e => f2r (ewt e) * (if nmem (v2 e) (v :: done) then 1 else 0))).
        - rewrite (Hsum (fun u => if nmem u (v :: done) then 1 else 0)). apply rsum_ext. intros u _. destruct (nmem u (v :: done)); lra.
        - intros e _. assert (nmem (v2 e) (v :: rev done) = nmem (v2 e) (v :: done)) as ->.
          { apply eq_true_iff_eq. rewrite !nmem_In. simpl. now rewrite <- in_rev. }
          destruct (nmem (v2 e) (v :: done)); lra. }
      pose proof (fcut_cons v done Hhv Hdone Hnd') as Ecut. rewrite (fcut_perm _ _ Hperm) in Ecut.
      pose proof (fcut_nonneg (done ++ [v])) as Pc. pose proof (fcut_le_vol (done ++ [v])) as Lc1.
      destruct (sweep_cut_int (v :: rev done) es (wadd cut (deg_val g v)) Dc0) as [Dcut1 Hcut1].
      { intros e He. destruct (Hes e He) as (? & ? & _). auto. }
      { rewrite Hc0. lra. }
      { rewrite Hc0, Esum. lra. }
      rewrite Hc0, Esum in Hcut1. set (cut1 := sweep_cut (v :: rev done) es (wadd cut (deg_val g v))) in *.
      assert (Hcut2 : f2r cut1 = fcut g (done ++ [v])) by lra. clear Hcut1.
      destruct (sweep_den_int tot (wadd vol (deg_val g v)) Dt Dvol1) as [Dden Hden0].
      { rewrite Hvol1. lra. }
      { rewrite Hvol1. destruct Ht as [->| ->]; [now left|right; lra]. }
      set (den := sweep_den tot (wadd vol (deg_val g v))) in *.
      assert (Hden : f2r den = fden (f2r tot) (firstn (S (length done)) vs)).
      { rewrite Hden0, Efst. unfold fden. rewrite Evol, Hvol1. reflexivity. }
      assert (Lden : f2r den <= two53).
      { rewrite Hden, Efst. destruct (den_bound (f2r tot) (done ++ [v]) Ht) as [|N]; auto. exfalso. apply N. auto. }
      assert (Elen : S (length done) = length (done ++ [v])) by (rewrite app_length; simpl; lia).
      assert (Erev : v :: rev done = rev (done ++ [v])) by (rewrite rev_app_distr; reflexivity).
      assert (Evs' : vs = (done ++ [v]) ++ rest) by (rewrite <- app_assoc; exact Evs).
      assert (Hvol2 : f2r (wadd vol (deg_val g v)) = fvolS g (done ++ [v])) by lra.
      assert (Hcond : 0 < f2r den -> dbl (wdiv cut1 den) /\ f2r (wdiv cut1 den) = rnd64 (fquot (f2r tot) (firstn (S (length done)) vs))).
      { intros Hp. destruct (dz_div cut1 den Dcut1 Dden) as (A & B & _); [lra|lra|]. split; auto. rewrite B, Hden, Hcut2. unfold fquot. now rewrite Efst. }
      destruct (wltb w0 den) eqn:Ed0; cbn [andb].
      + apply fltb_spec in Ed0; [|apply dbl_0|apply Dden]. rewrite f2r_0 in Ed0. destruct (Hcond Ed0) as [Dq Eq]. rewrite Hden in Ed0.
        destruct (wltb (wdiv cut1 den) best) eqn:Eb.
        * apply fltb_spec in Eb; auto. rewrite Erev, Elen. apply IH; auto. rewrite <- Elen.
          assert (Hb2 : f2r best <= 2).
          { destruct Hb as [(_ & -> & _)|(_ & _ & _ & ? & _)]; lra. }
          right. rewrite Eq in *. split; [lia|]. split; auto. split; auto. split; [lra|]. split.
          -- intros j Hj Hp. destruct (Nat.eq_dec j (S (length done))) as [->|Hne]; [lra|].
             destruct Hb as [(_ & Ebest & Hal)|(_ & _ & _ & _ & Hal & _)]; specialize (Hal j ltac:(lia) Hp); lra.
          -- intros j Hj Hp. destruct Hb as [(_ & Ebest & Hal)|(_ & _ & _ & _ & Hal & _)]; specialize (Hal j ltac:(lia) Hp); lra.
        * assert (f2r best <= f2r (wdiv cut1 den)) as Eb'.
          { destruct (Rle_dec (f2r best) (f2r (wdiv cut1 den))); auto. exfalso. enough (wltb (wdiv cut1 den) best = true) by congruence. apply fltb_spec; auto. lra. }
          rewrite Erev, Elen. apply IH; auto. rewrite <- Elen. rewrite Eq in Eb'.
          destruct Hb as [(Ebi & Ebest & Hal)|(Hbi & Hpb & Ebest & H2 & Hal & Hstr)].
          -- left. split; auto. split; auto. intros j Hj Hp.
             destruct (Nat.eq_dec j (S (length done))) as [->|Hne]; [lra|]. apply Hal; [lia|auto].
          -- right. split; [lia|]. split; auto. split; auto. split; auto. split; auto. intros j Hj Hp.
             destruct (Nat.eq_dec j (S (length done))) as [->|Hne]; [lra|]. apply Hal; [lia|auto].
      + assert (Hnp : ~ 0 < fden (f2r tot) (firstn (S (length done)) vs)).
        { intros Hp. rewrite <- Hden in Hp. enough (wltb w0 den = true) by congruence. apply fltb_spec; [apply dbl_0|apply Dden|now rewrite f2r_0]. }
        rewrite Erev, Elen. apply IH; auto. rewrite <- Elen.
        destruct Hb as [(Ebi & Ebest & Hal)|(Hbi & Hpb & Ebest & H2 & Hal & Hstr)].
        * left. split; auto. split; auto. intros j Hj Hp.
          destruct (Nat.eq_dec j (S (length done))) as [->|Hne]; [tauto|]. apply Hal; [lia|auto].
        * right. split; [lia|]. split; auto. split; auto. split; auto. split; auto. intros j Hj Hp.
          destruct (Nat.eq_dec j (S (length done))) as [->|Hne]; [tauto|]. apply Hal; [lia|auto].
  Qed.
End Int.

(** ** The order of the sweep *)
(** [i] is listed before [j]: larger value, or same value and smaller index. *)
Definition fbefore (f : nat -> R) (i j : nat) : Prop := f j < f i \/ (f j = f i /\ (i < j)%nat).
Lemma sweep_order_float (x : sprs f64) : vwf x -> (forall k, In k (vkeys x) -> dbl (vget x k)) ->
  Permutation (vkeys x) (sweep_order x) /\ StronglySorted (fbefore (fv x)) (sweep_order x).
Proof.
  intros Hx Hd. unfold sweep_order. rewrite inner_vkeys' by auto. split; [apply stable_sort_perm|].
  assert (Hd' : forall k, In k (stable_sort (fun i j => wltb (vget x j) (vget x i)) (vkeys x)) -> dbl (vget x k)).
  { intros k Hk. apply Hd. eapply Permutation_in; [apply Permutation_sym, stable_sort_perm|exact Hk]. }
  assert (Hs : StronglySorted (stable_le (fun i j => wltb (vget x j) (vget x i)) lt) (stable_sort (fun i j => wltb (vget x j) (vget x i)) (vkeys x))).
  { apply (stable_sort_sorted _ (fun k => dbl (vget x k))).
    - intros a b c Da Db Dc Hab Hbc. apply fltb_spec in Hab, Hbc; auto. apply fltb_spec; auto. lra.
    - intros a b c Da Db Dc Hac. apply fltb_spec in Hac; auto.
      destruct (Rlt_le_dec (f2r (vget x b)) (f2r (vget x a))) as [?|?]; [left|right]; apply fltb_spec; auto; lra.
    - apply Forall_forall. exact Hd.
    - destruct Hx as [_ Hw]. apply (sp_wf_col x 0 Hw). }
  revert Hs Hd'. generalize (stable_sort (fun i j => wltb (vget x j) (vget x i)) (vkeys x)). intros l Hs Hd'.
  induction Hs as [|i l Hs IH Hf]; constructor; [apply IH; intros; apply Hd'; now right|].
  rewrite Forall_forall in *. intros j Hj. assert (dbl (vget x i)) by (apply Hd'; now left). assert (dbl (vget x j)) by (apply Hd'; now right).
  destruct (Hf j Hj) as [Hlt|[Hge Hl]]; unfold fbefore, fv.
  - left. apply fltb_spec in Hlt; auto.
  - destruct (Rlt_le_dec (f2r (vget x i)) (f2r (vget x j))) as [L|L].
    + exfalso. apply fltb_spec in L; auto. congruence.
    + destruct L as [L|L]; [now left|right; auto].
Qed.

(** ** Sweep sets of a graph *)
(** Conductance of S in the graph: cut weight over the smaller of the two volumes. *)
Definition fgden (g : graph f64) (S : list nat) : R := Rmin (fvolS g S) (fvol g - fvolS g S).
Definition fgcond (g : graph f64) (S : list nat) : R := fcut g S / fgden g S.

(** A correctly rounded quotient at most another one: so are the quotients, up to 2^-53 relatively. *)
Lemma rnd_cmp a b : 0 <= a -> 0 <= b -> (a = 0 \/ bpow radix2 (-53) <= a) -> (b = 0 \/ bpow radix2 (-53) <= b) -> rnd64 a <= rnd64 b -> a * (1 - u64) <= b * (1 + u64).
Proof.
  intros Pa Pb La Lb L.
  assert (Rabs (rnd64 a - a) <= u64 * a) as Ra by (apply rnd_rel; destruct La as [Z|La]; [now left|right]; apply Rle_trans with (2 := La); apply bpow_le; lia).
  assert (Rabs (rnd64 b - b) <= u64 * b) as Rb by (apply rnd_rel; destruct Lb as [Z|Lb]; [now left|right]; apply Rle_trans with (2 := Lb); apply bpow_le; lia).
  apply Rabs_le_inv in Ra, Rb. lra.
Qed.
Lemma rnd_1 : rnd64 1 = 1. Proof. apply (rnd_int 1). unfold small_int. simpl. lia. Qed.

Section Final.
  Variable g : graph f64.
  Hypothesis Hr : reachable g.
  Hypothesis Hi : int_weights g.
  Hypothesis Hvol : fvol g <= two53.
  Let n := number_of_vertices g.

  Lemma fquot_facts tot S : (tot = 0 \/ tot = fvol g) -> NoDup S -> (forall u, In u S -> (u < n)%nat) -> 0 < fden g tot S ->
    0 <= fquot g tot S <= 1 /\ (fquot g tot S = 0 \/ bpow radix2 (-53) <= fquot g tot S).
  Proof.
    intros Ht Hn HS Hp. pose proof (fcut_nonneg g Hi S) as C0. unfold fquot.
    assert (fcut g S <= fden g tot S) as L.
    { unfold fden, rden. pose proof (fcut_le_vol g Hi S). destruct (Req_EM_T tot 0); [lra|]. destruct Ht as [|Ht]; [tauto|].
      apply Rmin_glb; [lra|]. rewrite Ht. apply (fcut_le_compl g Hr Hi); auto. }
    split; [split|].
    - apply Rmult_le_pos; [lra|left; now apply Rinv_0_lt_compat].
    - apply Rmult_le_reg_r with (fden g tot S); auto. unfold Rdiv. rewrite Rmult_assoc, Rinv_l by lra. lra.
    - apply quot_low; auto; [now apply fcut_iz|]. split; auto. destruct (den_bound g Hr Hi Hvol tot S Ht) as [|N]; auto. exfalso. apply N. auto.
  Qed.

  Lemma sweep_inner_float (tot : f64) (x : sprs f64) : dz tot -> (f2r tot = 0 \/ f2r tot = fvol g) -> vwf x ->
    (forall k, In k (vkeys x) -> (k < n)%nat /\ dbl (vget x k)) ->
    exists order k, Permutation (vkeys x) order /\ StronglySorted (fbefore (fv x)) order /\
      sweep_set_inner (lg_of_graph g) x tot = Ok (firstn k order) /\ (k <= length order)%nat /\
      (forall j, (1 <= j <= length order)%nat -> 0 < fden g (f2r tot) (firstn j order) ->
        (1 <= k)%nat /\ 0 < fden g (f2r tot) (firstn k order) /\
        rnd64 (fquot g (f2r tot) (firstn k order)) <= rnd64 (fquot g (f2r tot) (firstn j order)) /\
        ((j < k)%nat -> rnd64 (fquot g (f2r tot) (firstn k order)) < rnd64 (fquot g (f2r tot) (firstn j order))) /\
        fquot g (f2r tot) (firstn k order) * (1 - u64) <= fquot g (f2r tot) (firstn j order) * (1 + u64)) /\
      ((forall j, (1 <= j <= length order)%nat -> ~ 0 < fden g (f2r tot) (firstn j order)) -> k = 0%nat).
  Proof.
    intros Dt Ht Hx Hk. destruct (sweep_order_float x Hx) as [Hp Hss]; [intros k Hin; now apply Hk|].
    assert (Hnd : NoDup (sweep_order x)).
    { eapply Permutation_NoDup; [exact Hp|]. apply ss_lt_nodup. destruct Hx as [_ Hw]. apply (sp_wf_col x 0 Hw). }
    assert (Hhas : forall v, In v (sweep_order x) -> (v < n)%nat).
    { intros v Hv. apply Hk. eapply Permutation_in; [apply Permutation_sym; exact Hp|auto]. }
    assert (Hpre : forall j v, In v (firstn j (sweep_order x)) -> (v < n)%nat).
    { intros j v Hv. apply Hhas. rewrite <- (firstn_skipn j (sweep_order x)). apply in_app_iff. now left. }
    destruct dz_0 as [D0 E0]. destruct dz_2 as [D2 E2].
    destruct (sweep_loop_int g Hr Hi Hvol tot (sweep_order x) Dt Ht Hnd Hhas (sweep_order x) [] w0 w0 (wadd w1 w1) 0%nat) as (k & b & E & Hb); auto.
    - apply D2.
    - left. split; auto. split; [exact E2|]. intros j Hj. simpl in Hj. lia.
    - exists (sweep_order x), k. split; auto. split; auto. split.
      { unfold sweep_set_inner. rewrite (deg_ok g Hr) by auto. cbn [obind]. cbn [rev length] in E. rewrite E. reflexivity. }
      destruct Hb as [(-> & _ & Hall)|(Hbi & Hpb & Eb & H2 & Hall & Hstr)].
      + split; [lia|]. split; auto. intros j Hj Hd. exfalso. specialize (Hall j Hj Hd).
        destruct (fquot_facts (f2r tot) (firstn j (sweep_order x)) Ht (nodup_firstn _ _ Hnd) (Hpre j) Hd) as [[_ L] _].
        apply rnd_mono in L. rewrite rnd_1 in L. lra.
      + split; [lia|]. split.
        * intros j Hj Hd. rewrite Eb in Hall, Hstr. split; [lia|]. split; auto. split; [auto|]. split; [intros Hlt; apply Hstr; auto; lia|].
          destruct (fquot_facts (f2r tot) (firstn j (sweep_order x)) Ht (nodup_firstn _ _ Hnd) (Hpre j) Hd) as [? ?].
          destruct (fquot_facts (f2r tot) (firstn k (sweep_order x)) Ht (nodup_firstn _ _ Hnd) (Hpre k) Hpb) as [? ?].
          apply rnd_cmp; auto; lra.
        * intros Hno. exfalso. apply (Hno k); auto.
  Qed.

  Theorem sweep_graph_float (x : sprs f64) : vwf x -> (forall k, In k (vkeys x) -> (k < n)%nat /\ dbl (vget x k)) ->
    exists order k, Permutation (vkeys x) order /\ StronglySorted (fbefore (fv x)) order /\
      sweep_set_graph g x = Ok (firstn k order) /\ (k <= length order)%nat /\
      (forall j, (1 <= j <= length order)%nat -> 0 < fgden g (firstn j order) ->
        (1 <= k)%nat /\ 0 < fgden g (firstn k order) /\
        rnd64 (fgcond g (firstn k order)) <= rnd64 (fgcond g (firstn j order)) /\
        ((j < k)%nat -> rnd64 (fgcond g (firstn k order)) < rnd64 (fgcond g (firstn j order))) /\
        fgcond g (firstn k order) * (1 - u64) <= fgcond g (firstn j order) * (1 + u64)) /\
      ((forall j, (1 <= j <= length order)%nat -> ~ 0 < fgden g (firstn j order)) -> k = 0%nat).
  Proof.
    intros Hx Hk. destruct (int_volume g Hr Hi Hvol) as [It Et]. unfold sweep_set_graph.
    destruct (sweep_inner_float (snd (total_volume g)) x (isint_dz _ It) (or_intror Et) Hx Hk) as (order & k & Hp & Hss & E & Hkl & Hb & Hno).
    assert (Hnd : NoDup order).
    { eapply Permutation_NoDup; [exact Hp|]. apply ss_lt_nodup. destruct Hx as [_ Hw]. apply (sp_wf_col x 0 Hw). }
    assert (Hpre : forall j v, In v (firstn j order) -> (v < n)%nat).
    { intros j v Hv. apply Hk. eapply Permutation_in; [apply Permutation_sym; exact Hp|]. rewrite <- (firstn_skipn j order). apply in_app_iff. now left. }
    rewrite Et in Hb, Hno.
    destruct (Req_dec (fvol g) 0) as [E0|E0].
    - assert (Hz : forall j, fvolS g (firstn j order) = 0).
      { intros j. pose proof (fvolS_le g Hr Hi (firstn j order) (nodup_firstn _ _ Hnd) (Hpre j)). pose proof (fvolS_nonneg g Hi (firstn j order)). lra. }
      assert (k = 0)%nat as ->.
      { apply Hno. intros j _. unfold fden, rden. rewrite Hz, E0. destruct (Req_EM_T 0 0); lra. }
      exists order, 0%nat. split; auto. split; auto. split; auto. split; auto. split; auto.
      intros j _ Hd. exfalso. unfold fgden in Hd. rewrite Hz, E0 in Hd. unfold Rmin in Hd. destruct (Rle_dec _ _); lra.
    - assert (Ed : forall S, fden g (fvol g) S = fgden g S).
      { intros S. unfold fden, rden, fgden. destruct (Req_EM_T (fvol g) 0); tauto. }
      exists order, k. split; auto. split; auto. split; auto. split; auto. split.
      + intros j Hj Hd. rewrite <- Ed in Hd. specialize (Hb j Hj Hd). unfold fquot in Hb. rewrite !Ed in Hb. exact Hb.
      + intros Hall. apply Hno. intros j Hj. rewrite Ed. auto.
  Qed.

  (** The sweep without a total: it divides by the volume of the prefix. *)
  Theorem sweep_local_float (x : sprs f64) : vwf x -> (forall k, In k (vkeys x) -> (k < n)%nat /\ dbl (vget x k)) ->
    exists order k, Permutation (vkeys x) order /\ StronglySorted (fbefore (fv x)) order /\
      sweep_set_local (lg_of_graph g) x = Ok (firstn k order) /\ (k <= length order)%nat /\
      (forall j, (1 <= j <= length order)%nat -> 0 < fvolS g (firstn j order) ->
        (1 <= k)%nat /\ 0 < fvolS g (firstn k order) /\
        rnd64 (fcut g (firstn k order) / fvolS g (firstn k order)) <= rnd64 (fcut g (firstn j order) / fvolS g (firstn j order)) /\
        ((j < k)%nat -> rnd64 (fcut g (firstn k order) / fvolS g (firstn k order)) < rnd64 (fcut g (firstn j order) / fvolS g (firstn j order))) /\
        fcut g (firstn k order) / fvolS g (firstn k order) * (1 - u64) <= fcut g (firstn j order) / fvolS g (firstn j order) * (1 + u64)) /\
      ((forall j, (1 <= j <= length order)%nat -> ~ 0 < fvolS g (firstn j order)) -> k = 0%nat).
  Proof.
    intros Hx Hk. destruct dz_0 as [D0 E0].
    destruct (sweep_inner_float w0 x D0 (or_introl E0) Hx Hk) as (order & k & Hp & Hss & E & Hkl & Hb & Hno).
    rewrite E0 in Hb, Hno.
    assert (Ed : forall S, fden g 0 S = fvolS g S).
    { intros S. unfold fden, rden. destruct (Req_EM_T 0 0); tauto. }
    exists order, k. split; auto. split; auto. split; auto. split; auto. split.
    - intros j Hj Hd. rewrite <- Ed in Hd. specialize (Hb j Hj Hd). unfold fquot in Hb. rewrite !Ed in Hb. exact Hb.
    - intros Hall. apply Hno. intros j Hj. rewrite Ed. auto.
  Qed.

  (** ** conductance *)
  (** Sum of the incident weights of S, a self-loop counted once. *)
  Definition fincS (S : list nat) : R := lsum (fun u => rsum n (fw g u)) S.
  Lemma cond_deg_int es : (forall e, In e es -> dz (ewt e) /\ 0 <= f2r (ewt e)) -> forall acc, dz acc -> 0 <= f2r acc ->
    f2r acc + lsum (fun e => f2r (ewt e)) es <= two53 ->
    dz (fold_left (fun a e => wadd a (ewt e)) es acc) /\ f2r (fold_left (fun a e => wadd a (ewt e)) es acc) = f2r acc + lsum (fun e => f2r (ewt e)) es.
  Proof.
    induction es as [|e es IH]; intros He acc Da Pa L; cbn [fold_left lsum] in *; [split; auto; lra|].
    destruct (He e (or_introl eq_refl)) as [De Pe].
    assert (0 <= lsum (fun e => f2r (ewt e)) es) by (apply lsum_nonneg; intros; apply He; now right).
    destruct (dz_add acc (ewt e) Da De) as [Ds Es]; [rewrite Rabs_pos_eq; lra|].
    destruct (IH ltac:(intros; apply He; now right) _ Ds) as [A B]; [lra|lra|]. split; auto. lra.
  Qed.
  Lemma cond_cut_int set es : (forall e, In e es -> dz (ewt e) /\ 0 <= f2r (ewt e)) -> forall acc, dz acc -> 0 <= f2r acc ->
    f2r acc + lsum (fun e => if zmem (Z.of_nat (v2 e)) set then 0 else f2r (ewt e)) es <= two53 ->
    let c := fold_left (fun c e => if zmem (Z.of_nat (v2 e)) set then c else wadd c (ewt e)) es acc in
    dz c /\ f2r c = f2r acc + lsum (fun e => if zmem (Z.of_nat (v2 e)) set then 0 else f2r (ewt e)) es.
  Proof.
    induction es as [|e es IH]; intros He acc Da Pa L; cbn [fold_left lsum] in *; [split; auto; lra|].
    destruct (He e (or_introl eq_refl)) as [De Pe].
    assert (0 <= lsum (fun e => if zmem (Z.of_nat (v2 e)) set then 0 else f2r (ewt e)) es).
    { apply lsum_nonneg. intros e' Hin. destruct (zmem (Z.of_nat (v2 e')) set); [lra|]. apply He. now right. }
    destruct (zmem (Z.of_nat (v2 e)) set).
    - destruct (IH ltac:(intros; apply He; now right) acc Da) as [A B]; [lra|lra|]. split; auto. lra.
    - destruct (dz_add acc (ewt e) Da De) as [Ds Es]; [rewrite Rabs_pos_eq; lra|].
      destruct (IH ltac:(intros; apply He; now right) _ Ds) as [A B]; [lra|lra|]. split; auto. lra.
  Qed.
  Lemma cond_loop_int S cl : forall cut vol, (forall v, In v cl -> (v < n)%nat) -> dz cut -> dz vol -> 0 <= f2r cut -> 0 <= f2r vol ->
    f2r cut + lsum (fun u => rsum n (fun v => fw g u v * notin S v)) cl <= two53 -> f2r vol + fincS cl <= two53 ->
    exists c v, cond_loop (lg_of_graph g) (map Z.of_nat S) (map Z.of_nat cl) cut vol = Ok (c, v) /\ dz c /\ dz v /\
      f2r c = f2r cut + lsum (fun u => rsum n (fun v => fw g u v * notin S v)) cl /\ f2r v = f2r vol + fincS cl.
  Proof.
    induction cl as [|u cl IH]; intros cut vol Hcl Dc Dv Pc Pv Lc Lv; cbn [map cond_loop].
    - exists cut, vol. unfold fincS. cbn [lsum]. split; auto. split; auto. split; auto. split; lra.
    - assert (Hu : (u < n)%nat) by (apply Hcl; now left). destruct (nb_sum g Hr Hi u Hu) as (es & Ees & Hes & Hsum). rewrite Ees. cbn [obind].
      assert (He : forall e, In e es -> dz (ewt e) /\ 0 <= f2r (ewt e)) by (intros e Hin; destruct (Hes e Hin) as (? & ? & _); auto).
      assert (E1 : lsum (fun e => f2r (ewt e)) es = rsum n (fw g u)).
      { rewrite (lsum_ext _ (fun e => f2r (ewt e) * 1)) by (intros; lra). rewrite (Hsum (fun _ => 1)). apply rsum_ext. intros; lra. }
      assert (E2 : lsum (fun e => if zmem (Z.of_nat (v2 e)) (map Z.of_nat S) then 0 else f2r (ewt e)) es = rsum n (fun v => fw g u v * notin S v)).
      { transitivity (lsum (fun e => f2r (ewt e) * notin S (v2 e)) es); [|exact (Hsum (notin S))]. apply lsum_ext. intros e _. rewrite zmem_of_nat, notin_nmem. destruct (nmem (v2 e) S); lra. }
      unfold fincS in Lv. cbn [lsum] in Lc, Lv. fold (fincS cl) in Lv. 
      assert (0 <= fincS cl) as P1 by (apply lsum_nonneg; intros; apply rsum_nonneg; intros; apply (Wnn g Hi)).
      assert (0 <= lsum (fun u => rsum n (fun v => fw g u v * notin S v)) cl) as P2.
      { apply lsum_nonneg. intros y _. apply rsum_nonneg. intros z _. apply Rmult_le_pos; [apply (Wnn g Hi)|apply notin_01]. }
      assert (0 <= rsum n (fw g u)) as P3 by (apply rsum_nonneg; intros; apply (Wnn g Hi)).
      assert (0 <= rsum n (fun v => fw g u v * notin S v)) as P4.
      { apply rsum_nonneg. intros z _. apply Rmult_le_pos; [apply (Wnn g Hi)|apply notin_01]. }
      destruct dz_0 as [D0 E0].
      destruct (cond_deg_int es He w0 D0) as [Dd Ed]; [rewrite E0; lra|rewrite E0, E1; lra|]. rewrite E0, E1 in Ed.
      destruct (cond_cut_int (map Z.of_nat S) es He cut Dc Pc) as [Dct Ect]; [rewrite E2; lra|]. rewrite E2 in Ect.
      destruct (dz_add vol _ Dv Dd) as [Dv' Ev']; [rewrite Ed, Rabs_pos_eq; lra|]. rewrite Ed in Ev'.
      destruct (IH _ _ ltac:(intros; apply Hcl; now right) Dct Dv') as (c & v & E & Dc' & Dv'' & Ec & Ev); [lra|lra|lra|lra|].
      exists c, v. split; [exact E|]. split; auto. split; auto. unfold fincS. cbn [lsum]. fold (fincS cl). split; lra.
  Qed.
  Lemma fincS_le S : fincS S <= fvolS g S.
  Proof. apply lsum_le. intros u _. unfold fdeg. fold n. pose proof (Wnn g Hi u u). lra. Qed.
  Lemma fcut_le_inc S : fcut g S <= fincS S.
  Proof.
    apply lsum_le. intros u _. apply rsum_le. intros v _. pose proof (Wnn g Hi u v). pose proof (notin_01 S v). fold n.
    rewrite <- (Rmult_1_r (fw g u v)) at 2. apply Rmult_le_compat_l; lra.
  Qed.
  Theorem conductance_float S : NoDup S -> (forall v, In v S -> (v < n)%nat) ->
    exists c, conductance (lg_of_graph g) (map Z.of_nat S) = Ok c /\ dbl c /\
      (fincS S = 0 -> f2r c = 0) /\
      (fincS S <> 0 -> f2r c = rnd64 (fcut g S / fincS S) /\ Rabs (f2r c - fcut g S / fincS S) <= u64 * (fcut g S / fincS S)).
  Proof.
    intros Hn HS. pose proof (fvolS_le g Hr Hi S Hn HS) as L. pose proof (fincS_le S) as L1. pose proof (fcut_le_inc S) as L2. pose proof (fcut_nonneg g Hi S) as P.
    destruct dz_0 as [D0 E0].
    destruct (cond_loop_int S S w0 w0 HS D0 D0) as (c & v & E & Dc & Dv & Ec & Ev); try (rewrite E0; lra).
    { rewrite E0. unfold fcut in L2. fold n in L2. lra. }
    rewrite E0, Rplus_0_l in Ec, Ev. unfold conductance. rewrite E. cbn [obind fst snd].
    assert (Ec' : f2r c = fcut g S) by exact Ec.
    destruct (weqb v w0) eqn:Z.
    - apply feqb_spec in Z; [|apply Dv|apply D0]. rewrite E0 in Z. exists w0. split; auto. split; [apply D0|]. split; [auto|]. intros N. exfalso. apply N. lra.
    - assert (fincS S <> 0) as N.
      { intros Z'. enough (weqb v w0 = true) by congruence. apply feqb_spec; [apply Dv|apply D0|]. rewrite E0. lra. }
      destruct (dz_div c v Dc Dv) as (A & B & C); [lra|lra|]. exists (wdiv c v). split; auto. split; auto. split; [tauto|]. intros _.
      rewrite Ec', Ev in *. auto.
  Qed.
End Final.
