(** Approximate PageRank in IEEE double arithmetic (C78): rounding analysis of the Num-generic model of stag_lib/cluster.cpp:171-291 at binary64. *)
From Verif Require Import Base Num RSum Sparse SparseFacts Graph GraphSpec GraphFacts GraphProps1 GraphProps2 GraphProps5 Cluster ClusterSpec ClusterCC ClusterPR ClusterPR2 ClusterSweep ClusterInst ClusterTop FloatFacts GraphFloat.
From Coq Require Import ZArith Reals Lra Lia SpecFloat.
From Flocq Require Import Core BinarySingleNaN Relative.
Local Open Scope R_scope.

(** ** Products and quotients *)
Definition lo900 : R := bpow radix2 (-900).
Definition hi900 : R := bpow radix2 900.
(** Zero, or in the range in which products and quotients have a small relative error. *)
Definition rg (z : R) : Prop := z = 0 \/ lo900 <= z <= hi900.
Lemma rg_pos z : rg z -> 0 <= z.
Proof. intros [->|[L _]]; [lra|]. apply Rle_trans with (2 := L). apply bpow_ge_0. Qed.
Lemma u64_small : u64 <= / 1024.
Proof. unfold u64. apply Rle_trans with (bpow radix2 (-10)); [apply bpow_le; lia|]. simpl. lra. Qed.
Lemma rnd_rel x : x = 0 \/ bpow radix2 (-1000) <= x -> Rabs (rnd64 x - x) <= u64 * x.
Proof.
  intros [->|H].
  - unfold rnd64. rewrite round_0 by apply valid_rnd_N. rewrite Rminus_0_r, Rabs_R0. lra.
  - pose proof (bpow_gt_0 radix2 (-1000)).
    destruct (relative_error_N_FLT_ex radix2 (-1074) 53 eq_refl (fun z => negb (Z.even z)) x) as (e & He & E).
    { rewrite Rabs_pos_eq by lra. apply Rle_trans with (2 := H). apply bpow_le. lia. }
    unfold rnd64. change ZnearestE with (Znearest (fun z => negb (Z.even z))). rewrite E.
    replace (x * (1 + e) - x) with (e * x) by ring. rewrite Rabs_mult, (Rabs_pos_eq x) by lra. apply Rmult_le_compat_r; [lra|].
    apply Rle_trans with (1 := He). unfold u64. change (/ 2) with (bpow radix2 (-1)). rewrite <- bpow_plus. apply bpow_le. lia.
Qed.
(** [x] is a double within k roundings of the non-negative real z. *)
Definition near (k : nat) (x : f64) (z : R) : Prop := dbl x /\ 0 <= z /\ z * (1 - u64) ^ k <= f2r x <= z * (1 + u64) ^ k.
Lemma near_exact x : dbl x -> 0 <= f2r x -> near 0 x (f2r x).
Proof. intros D H. split; auto. split; auto. simpl. lra. Qed.
Lemma pow_lo k : 0 < (1 - u64) ^ k <= 1.
Proof.
  pose proof u64_pos. pose proof u64_small. split; [apply pow_lt; lra|]. apply Rle_trans with (1 ^ k); [apply pow_incr; lra|rewrite pow1; lra].
Qed.
Lemma pow_hi k : 1 <= (1 + u64) ^ k. Proof. apply pow_u_ge1. Qed.
Lemma near_weaken k k' x z : (k <= k')%nat -> near k x z -> near k' x z.
Proof.
  intros L (D & Hz & H1 & H2). pose proof u64_pos. pose proof u64_small. split; auto. split; auto. replace k' with (k + (k' - k))%nat by lia. rewrite !pow_add.
  pose proof (pow_lo (k' - k)). pose proof (pow_hi (k' - k)). pose proof (pow_lo k). pose proof (pow_hi k).
  assert (0 <= z * (1 - u64) ^ k) by (apply Rmult_le_pos; lra). assert (0 <= z * (1 + u64) ^ k) by (apply Rmult_le_pos; lra). nra.
Qed.
Lemma near_nonneg k x z : near k x z -> 0 <= f2r x.
Proof. intros (D & Hz & H1 & H2). pose proof (pow_lo k). assert (0 <= z * (1 - u64) ^ k) by (apply Rmult_le_pos; lra). lra. Qed.
Lemma pow_bounds k : (k <= 20)%nat -> / 2 <= (1 - u64) ^ k /\ (1 + u64) ^ k <= 2.
Proof.
  intros L. pose proof u64_pos. pose proof u64_small. split.
  - apply Rle_trans with ((1 - / 1024) ^ 20); [lra|]. apply Rle_trans with ((1 - u64) ^ 20); [apply pow_incr; lra|].
    replace 20%nat with (k + (20 - k))%nat by lia. rewrite pow_add. pose proof (pow_lo k). pose proof (pow_lo (20 - k)). nra.
  - apply Rle_trans with ((1 + / 1024) ^ 20); [|lra]. apply Rle_trans with ((1 + u64) ^ 20); [apply Rle_pow; [lra|lia]|apply pow_incr; lra].
Qed.

Lemma bp a b : bpow radix2 a * bpow radix2 b = bpow radix2 (a + b). Proof. now rewrite bpow_plus. Qed.
(** A rounded value, from a non-negative real m within k roundings of z. *)
Lemma near_round k z m : (k <= 20)%nat -> rg z -> z * (1 - u64) ^ k <= m <= z * (1 + u64) ^ k ->
  in_range (rnd64 m) /\ z * (1 - u64) ^ (S k) <= rnd64 m <= z * (1 + u64) ^ (S k).
Proof.
  intros Lk Hz [H1 H2]. pose proof (rg_pos z Hz) as Hp. destruct (pow_bounds k Lk) as [B1 B2]. pose proof u64_pos. pose proof u64_small.
  assert (Rabs (rnd64 m - m) <= u64 * m) as E.
  { apply rnd_rel. destruct Hz as [->|[L _]]; [left; lra|right]. apply Rle_trans with (/ 2 * lo900).
    - unfold lo900. change (/ 2) with (bpow radix2 (-1)). rewrite bp. apply bpow_le. lia.
    - apply Rle_trans with (2 := H1). rewrite Rmult_comm. apply Rmult_le_compat; try lra. apply bpow_ge_0. }
  apply Rabs_le_inv in E. assert (0 <= m) by (pose proof (pow_lo k); assert (0 <= z * (1 - u64) ^ k) by (apply Rmult_le_pos; lra); lra).
  assert (z * (1 - u64) ^ S k <= rnd64 m <= z * (1 + u64) ^ S k) as R.
  { simpl. split; [apply Rle_trans with (m * (1 - u64)); [|lra]|apply Rle_trans with (m * (1 + u64)); [lra|]].
    - replace (z * ((1 - u64) * (1 - u64) ^ k)) with (z * (1 - u64) ^ k * (1 - u64)) by ring. apply Rmult_le_compat_r; lra.
    - replace (z * ((1 + u64) * (1 + u64) ^ k)) with (z * (1 + u64) ^ k * (1 + u64)) by ring. apply Rmult_le_compat_r; lra. }
  split; auto. unfold in_range. rewrite Rabs_pos_eq by (apply rnd_nonneg; lra).
  assert (z <= hi900) as Hh by (destruct Hz as [->|[_ L]]; auto; apply bpow_ge_0).
  apply Rle_lt_trans with (hi900 * bpow radix2 2).
  - apply Rle_trans with (1 := proj2 R). apply Rmult_le_compat; auto; [apply pow_le; lra|]. simpl. nra.
  - unfold hi900. rewrite bp. apply bpow_lt. lia.
Qed.
Lemma near_mul k j x y z t : (k + j <= 20)%nat -> near k x z -> near j y t -> rg (z * t) -> near (S (k + j)) (wmul x y) (z * t).
Proof.
  intros L Nx Ny Hr. pose proof (near_nonneg _ _ _ Nx) as Px. pose proof (near_nonneg _ _ _ Ny) as Py. destruct Nx as (Dx & Hz & X1 & X2), Ny as (Dy & Ht & Y1 & Y2).
  pose proof (pow_lo k). pose proof (pow_lo j). pose proof (pow_hi k). pose proof (pow_hi j).
  destruct (near_round (k + j) (z * t) (f2r x * f2r y) L Hr) as [R1 R2].
  { rewrite !pow_add. split.
    - replace (z * t * ((1 - u64) ^ k * (1 - u64) ^ j)) with ((z * (1 - u64) ^ k) * (t * (1 - u64) ^ j)) by ring. apply Rmult_le_compat; auto; apply Rmult_le_pos; lra.
    - replace (z * t * ((1 + u64) ^ k * (1 + u64) ^ j)) with ((z * (1 + u64) ^ k) * (t * (1 + u64) ^ j)) by ring. apply Rmult_le_compat; auto. }
  destruct (fmul_spec x y Dx Dy R1) as [D E]. split; auto. split; [now apply Rmult_le_pos|]. now rewrite E.
Qed.
(** Division by an exactly known positive double. *)
Lemma near_div k x y z : (k <= 20)%nat -> near k x z -> dbl y -> 0 < f2r y -> rg (z / f2r y) -> near (S k) (wdiv x y) (z / f2r y).
Proof.
  intros L Nx Dy Py Hr. pose proof (near_nonneg _ _ _ Nx) as Px. destruct Nx as (Dx & Hz & X1 & X2). pose proof (Rinv_0_lt_compat _ Py).
  destruct (near_round k (z / f2r y) (f2r x / f2r y) L Hr) as [R1 R2].
  { unfold Rdiv. split.
    - replace (z * / f2r y * (1 - u64) ^ k) with (z * (1 - u64) ^ k * / f2r y) by ring. apply Rmult_le_compat_r; lra.
    - replace (z * / f2r y * (1 + u64) ^ k) with (z * (1 + u64) ^ k * / f2r y) by ring. apply Rmult_le_compat_r; lra. }
  destruct (fdiv_spec x y Dx Dy ltac:(lra) R1) as [D E]. split; auto. split; [apply Rmult_le_pos; lra|]. now rewrite E.
Qed.
(** Sums: no lower limit, the accumulated value can only grow. *)
Lemma add_grow x y : dbl x -> dbl y -> 0 <= f2r x -> 0 <= f2r y -> f2r x + f2r y <= hi900 ->
  dbl (wadd x y) /\ f2r x <= f2r (wadd x y) /\ Rabs (f2r (wadd x y) - (f2r x + f2r y)) <= u64 * (f2r x + f2r y).
Proof.
  intros Dx Dy Px Py Hh. pose proof (add_rel_error x y Dx Dy) as E. rewrite (Rabs_pos_eq (f2r x + f2r y)) in E by lra. pose proof u64_pos. pose proof u64_small.
  assert (in_range (rnd64 (f2r x + f2r y))) as R.
  { unfold in_range. rewrite Rabs_pos_eq by (apply rnd_nonneg; lra). apply Rabs_le_inv in E. apply Rle_lt_trans with (hi900 * bpow radix2 1).
    - change (bpow radix2 1) with 2. nra.
    - unfold hi900. rewrite bp. apply bpow_lt. lia. }
  destruct (fadd_spec x y Dx Dy R) as [D Ev]. split; auto. rewrite Ev. split; auto.
  rewrite <- (rnd_dbl x Dx) at 1. unfold rnd64. apply round_le; [apply FLT_exp_valid; reflexivity|apply valid_rnd_N|lra].
Qed.

(** 1 - alpha. *)
Lemma dbl_two : dbl (wadd w1 w1) /\ f2r (wadd w1 w1 : f64) = 2.
Proof.
  rewrite <- zf_1. rewrite zf_add by (unfold small_int; lia). apply (zf_spec (1 + 1)). unfold small_int. lia.
Qed.
Lemma beta_spec alpha : dbl alpha -> 0 <= f2r alpha <= 1 ->
  near 1 (wsub w1 alpha) (1 - f2r alpha) /\ (1 - f2r alpha = 0 \/ u64 <= 1 - f2r alpha).
Proof.
  intros D Ha. pose proof (sub_rel_error w1 alpha dbl_1 D) as E. rewrite f2r_1 in E. rewrite (Rabs_pos_eq (1 - f2r alpha)) in E by lra. pose proof u64_pos. pose proof u64_small.
  assert (0 <= rnd64 (1 - f2r alpha)) by (apply rnd_nonneg; lra).
  destruct (fsub_spec w1 alpha dbl_1 D) as [Db Eb].
  { rewrite f2r_1. unfold in_range. rewrite Rabs_pos_eq by auto. apply Rabs_le_inv in E. apply Rle_lt_trans with (bpow radix2 1); [change (bpow radix2 1) with 2; nra|apply bpow_lt; lia]. }
  rewrite f2r_1 in Eb. split.
  - split; auto. split; [lra|]. rewrite Eb. apply Rabs_le_inv in E. simpl. lra.
  - destruct (Req_dec (f2r alpha) 1) as [->|N]; [left; lra|right].
    assert (f2r alpha <= pred radix2 (FLT_exp (-1074) 53) 1) as L.
    { apply pred_ge_gt; [apply FLT_exp_valid; reflexivity|now apply dbl_format| |lra]. change 1 with (bpow radix2 0). apply generic_format_FLT_bpow; [exact eq_refl|lia]. }
    change 1 with (bpow radix2 0) in L. rewrite pred_bpow in L. change (FLT_exp (-1074) 53 0) with (-53)%Z in L. change (bpow radix2 0) with 1 in L. unfold u64. lra.
Qed.

(** ** Sums over sparse vectors *)
Definition fv (x : sprs f64) (u : nat) : R := f2r (vget x u).
Definition fsum (a : nat -> R) (x : sprs f64) : R := lsum (fun e => f2r (snd e) * a (fst e)) (sp_col x 0).
Definition one (_ : nat) : R := 1.
Definition fmass (x : sprs f64) : R := fsum one x.
Lemma fsum_upsert a (c : col f64) i v : Sorted.StronglySorted lt (map fst c) ->
  lsum (fun e => f2r (snd e) * a (fst e)) (col_upsert c i (fun _ => v)) = lsum (fun e => f2r (snd e) * a (fst e)) c - f2r (o0 (col_get c i)) * a i + f2r v * a i.
Proof.
  intros Hs. induction c as [|[k x] c IH]; simpl.
  - lra.
  - inversion Hs as [|? ? Hs' Hf]; subst.
    destruct (Nat.ltb_spec i k) as [Hik|Hik]; simpl.
    + destruct (Nat.eqb_spec k i); [lia|]. rewrite col_get_none_lt.
      * simpl. lra.
      * eapply Forall_impl; [|exact Hf]. simpl. lia.
    + destruct (Nat.eqb_spec i k) as [->|Hne]; simpl.
      * rewrite Nat.eqb_refl. simpl. lra.
      * destruct (Nat.eqb_spec k i); [lia|]. rewrite IH by auto. lra.
Qed.
Lemma fsum_vset a (x : sprs f64) u v : vwf x -> fsum a (vset x u v) = fsum a x - fv x u * a u + f2r v * a u.
Proof.
  intros [Hc Hw]. unfold fsum, vset, coeffRef_set, sp_upsert, fv, vget, coeff, sp_get, sp_col. simpl.
  rewrite nth_upd_nth by (unfold sp_ncols in Hc; lia). cbn [Nat.eqb]. apply fsum_upsert. apply (sp_wf_col x 0 Hw).
Qed.
Lemma fsum_vgrow a (x : sprs f64) u : vwf x -> fsum a (vgrow x u) = fsum a x.
Proof. intros Hx. unfold fsum. now rewrite (proj2 (proj2 (proj2 (vgrow_spec x u Hx)))). Qed.
(** A vector of finite non-negative doubles. *)
Definition okv (x : sprs f64) : Prop := forall k, dbl (vget x k) /\ 0 <= fv x k.
Lemma fmass_part (x : sprs f64) l : vwf x -> okv x -> NoDup l -> lsum (fv x) l <= fmass x.
Proof.
  intros [_ Hw] Ho Hn. pose proof (sp_wf_col x 0 Hw) as [Hss _].
  assert (forall k, fv x k = lsum (fun e => if (fst e =? k)%nat then f2r (snd e) else 0) (sp_col x 0)) as E.
  { intros k. unfold fv, vget, coeff, sp_get. clear -Hss. induction (sp_col x 0) as [|[j t] c IH]; simpl; [reflexivity|].
    inversion Hss as [|? ? Hs' Hf]; subst. destruct (Nat.eqb_spec j k) as [->|]; [|rewrite <- IH; auto; lra].
    simpl. rewrite lsum_0; [lra|]. intros [i s] I. simpl. destruct (Nat.eqb_spec i k) as [->|]; auto.
    rewrite Forall_forall in Hf. apply (in_map fst) in I. specialize (Hf _ I). simpl in Hf. lia. }
  assert (forall e, In e (sp_col x 0) -> 0 <= f2r (snd e)) as Hp.
  { intros [k t] I. pose proof (proj2 (Ho k)) as P. unfold fv, vget, coeff, sp_get in P. now rewrite (In_col_get (sp_col x 0) k t) in P. }
  rewrite (lsum_ext _ _ _ (fun k _ => E k)). rewrite lsum_swap. unfold fmass, fsum. apply lsum_le. intros e I. specialize (Hp e I). unfold one.
  rewrite (lsum_ext _ (fun k => if (k =? fst e)%nat then f2r (snd e) else 0)) by (intros k _; now rewrite Nat.eqb_sym).
  rewrite (lsum_delta_list (fun _ => f2r (snd e))) by auto. destruct (nmem (fst e) l); lra.
Qed.

(** Doubling is exact. *)
Lemma double_exact d : dbl d -> 0 <= f2r d <= hi900 -> dbl (wmul d (wadd w1 w1)) /\ f2r (wmul d (wadd w1 w1)) = 2 * f2r d.
Proof.
  intros D [Hp Hh]. destruct dbl_two as [D2 E2].
  assert (rnd64 (f2r d * f2r (wadd w1 w1 : f64)) = 2 * f2r d) as R.
  { rewrite E2, Rmult_comm. apply rnd_format. destruct (FLT_format_generic radix2 (-1074) 53 (prec_gt_0_ := eq_refl) (f2r d) (dbl_format d D)) as [[m e] F1 F2 F3]. simpl in F2, F3.
    apply (generic_format_FLT radix2 (-1074) 53). exists (Float radix2 m (e + 1)); simpl; [|exact F2|lia]. rewrite F1. unfold F2R. simpl. rewrite bpow_plus. change (bpow radix2 1) with 2. ring. }
  destruct (fmul_spec d (wadd w1 w1) D D2) as [Dm Em].
  { rewrite R. unfold in_range. rewrite Rabs_pos_eq by lra. apply Rle_lt_trans with (bpow radix2 1 * hi900); [change (bpow radix2 1) with 2; lra|].
    unfold hi900. rewrite bp. apply bpow_lt. lia. }
  split; auto. now rewrite Em.
Qed.

(** ** One neighbour, all neighbours *)
Lemma push_edges_float (alpha d : f64) u (D : edge f64 -> f64) a es : forall r, vwf r -> ~ In u (map v2 es) -> NoDup (map v2 es) ->
  (forall e, D e = wdiv (wmul (wmul (wsub w1 alpha) (ewt e)) (vget r u)) (wmul d (wadd w1 w1))) ->
  let r' := fold_left (push_edge alpha d u) es r in
  (forall e, In e es -> vget r' (v2 e) = wadd (vget r (v2 e)) (D e)) /\
  fsum a r' = fsum a r + lsum (fun e => (f2r (wadd (vget r (v2 e)) (D e)) - fv r (v2 e)) * a (v2 e)) es.
Proof.
  induction es as [|e es IH]; intros r Hr Hu Hn HD; cbn [fold_left].
  - split; [intros ? []|simpl; lra].
  - simpl in Hu, Hn. inversion Hn as [|? ? Hn1 Hn2]; subst.
    destruct (push_edge_shape alpha d u r e Hr) as (Hw & _ & Hg & _).
    assert (Hv : vget (push_edge alpha d u r e) (v2 e) = wadd (vget r (v2 e)) (D e)).
    { unfold push_edge. cbv zeta. destruct (vgrow_spec r (v2 e) Hr) as (Hwg & _). rewrite vget_vset by auto. rewrite Nat.eqb_refl, !vgrow_get by auto. now rewrite HD. }
    assert (Hs : fsum a (push_edge alpha d u r e) = fsum a r + (f2r (wadd (vget r (v2 e)) (D e)) - fv r (v2 e)) * a (v2 e)).
    { unfold push_edge. cbv zeta. destruct (vgrow_spec r (v2 e) Hr) as (Hwg & _). rewrite fsum_vset by auto. rewrite fsum_vgrow by auto.
      unfold fv. rewrite !vgrow_get by auto. rewrite HD. ring. }
    destruct (IH (push_edge alpha d u r e) Hw) as [I1 I2]; auto.
    { intros e'. rewrite HD. rewrite Hg; [reflexivity|]. intros ->. apply Hu. now left. }
    split.
    + intros e' [<-|I].
      * destruct (push_edges_shape alpha d u es _ Hw) as (_ & _ & Hk & _). rewrite Hk by auto. exact Hv.
      * rewrite I1 by auto. rewrite Hg; auto. intros Eq. apply Hn1. rewrite <- Eq. now apply in_map.
    + rewrite I2, Hs. cbn [lsum fold_right map]. fold (lsum (fun e0 => (f2r (wadd (vget r (v2 e0)) (D e0)) - fv r (v2 e0)) * a (v2 e0)) es).
      rewrite Rplus_assoc. f_equal. change (lsum ?f (e :: es)) with (f e + lsum f es). cbv beta. f_equal. apply lsum_ext. intros e' I. unfold fv. rewrite Hg; auto.
      intros Eq. apply Hn1. rewrite <- Eq. now apply in_map.
Qed.

(** Magnitudes. *)
Definition bt (a b : Z) (z : R) : Prop := z = 0 \/ bpow radix2 a <= z <= bpow radix2 b.
Lemma bt_rg a b z : (-900 <= a)%Z -> (b <= 900)%Z -> bt a b z -> rg z.
Proof.
  intros Ha Hb [->|[H1 H2]]; [now left|right]. split; [apply Rle_trans with (2 := H1)|apply Rle_trans with (1 := H2)]; apply bpow_le; lia.
Qed.
Lemma bt_mul a b c d y z : bt a b y -> bt c d z -> bt (a + c) (b + d) (y * z).
Proof.
  intros [->|[H1 H2]] [->|[H3 H4]]; try (left; ring). right. rewrite !bpow_plus.
  pose proof (bpow_gt_0 radix2 a). pose proof (bpow_gt_0 radix2 c). split; apply Rmult_le_compat; lra.
Qed.
Lemma bt_inv a b y : bpow radix2 a <= y <= bpow radix2 b -> bt (- b) (- a) (/ y).
Proof.
  intros [H1 H2]. right. pose proof (bpow_gt_0 radix2 a). rewrite !bpow_opp. split; apply Rinv_le_contravar; lra.
Qed.
Lemma bt_div a b c d y z : bt a b y -> bpow radix2 c <= z <= bpow radix2 d -> bt (a - d) (b - c) (y / z).
Proof. intros H1 H2. apply bt_mul; auto. now apply bt_inv. Qed.

Lemma near_abs k x z c : (1 + u64) ^ k <= 1 + c -> 1 - c <= (1 - u64) ^ k -> near k x z -> Rabs (f2r x - z) <= c * z.
Proof. intros H1 H2 (_ & Hz & L & U). apply Rabs_le. nra. Qed.
Lemma pow4 : (1 + u64) ^ 4 <= 1 + 5 * u64 /\ 1 - 5 * u64 <= (1 - u64) ^ 4.
Proof. pose proof u64_pos. pose proof u64_small. simpl. split; nra. Qed.
Lemma pow3 : (1 + u64) ^ 3 <= 1 + 4 * u64 /\ 1 - 4 * u64 <= (1 - u64) ^ 3.
Proof. pose proof u64_pos. pose proof u64_small. simpl. split; nra. Qed.
Lemma u64_tiny : u64 = bpow radix2 (-53). Proof. reflexivity. Qed.

(** ** A local graph with double weights *)
(** [kap]: relative difference between a degree and the sum of the weights; [delta]: least positive degree. *)
Record flg_spec (lg : lgraph f64) (kap delta : R) : Prop := {
  fs_ok : lg_ok lg;
  fs_nodup : forall v, lg_has lg v -> NoDup (nb lg v);
  fs_noloop : forall v, lg_has lg v -> ~ In v (nb lg v);
  fs_wt : forall v e, lg_has lg v -> In e (nbe lg v) -> dbl (ewt e) /\ bpow radix2 (-100) <= f2r (ewt e);
  fs_deg : forall v, lg_has lg v -> dbl (dg lg v) /\ (f2r (dg lg v) = 0 \/ delta <= f2r (dg lg v) <= bpow radix2 100);
  fs_sum : forall v, lg_has lg v -> Rabs (lsum (fun e => f2r (ewt e)) (nbe lg v) - f2r (dg lg v)) <= kap * f2r (dg lg v);
  fs_nb : forall v u, lg_has lg v -> In u (nb lg v) -> 0 < f2r (dg lg u) }.

(** The walk step applied to a function: half stays, half moves along the edges. *)
Definition fstep (lg : lgraph f64) (h : nat -> R) (u : nat) : R :=
  h u / 2 + lsum (fun e => f2r (ewt e) * h (v2 e)) (nbe lg u) / (2 * f2r (dg lg u)).
(** h is, up to eta, the expectation of t at a walk stopped with probability alpha at each step. *)
Definition dual (lg : lgraph f64) (alpha eta : R) (t h : nat -> R) : Prop :=
  (forall k, Rabs (t k) <= 1) /\ (forall k, Rabs (h k) <= 1) /\
  forall u, lg_has lg u -> 0 < f2r (dg lg u) -> Rabs (h u - (alpha * t u + (1 - alpha) * fstep lg h u)) <= eta.

Lemma lsum_abs_le {A} (f b : A -> R) l : (forall e, In e l -> Rabs (f e) <= b e) -> Rabs (lsum f l) <= lsum b l.
Proof.
  induction l as [|e l IH]; simpl; intros H; [rewrite Rabs_R0; lra|]. eapply Rle_trans; [apply Rabs_triang|]. apply Rplus_le_compat; auto.
Qed.
Section Main.
  Variable lg : lgraph f64.
  Variables (kap delta : R) (alpha eps : f64).
  Hypothesis Hs : flg_spec lg kap delta.
  Hypothesis Hkap : 0 <= kap.
  Hypothesis Hdelta : 0 < delta.
  Hypothesis Da : dbl alpha.
  Hypothesis De : dbl eps.
  Hypothesis Ha : 0 < f2r alpha <= 1.
  Hypothesis He : 0 < f2r eps <= bpow radix2 100.
  Let g0 := f2r alpha * f2r eps * delta.
  Hypothesis Hbig : 4 * (20 * u64 + kap) <= g0.

  Lemma g0_eps : g0 <= f2r eps * delta.
  Proof. unfold g0. rewrite Rmult_assoc. rewrite <- (Rmult_1_l (f2r eps * delta)) at 2. apply Rmult_le_compat_r; [|lra]. apply Rmult_le_pos; lra. Qed.
  Lemma delta_low : bpow radix2 (-147) <= delta.
  Proof.
    apply Rmult_le_reg_l with (bpow radix2 100); [apply bpow_gt_0|]. rewrite bp. change (100 + -147)%Z with (-47)%Z.
    apply Rle_trans with (f2r eps * delta); [|apply Rmult_le_compat_r; lra].
    apply Rle_trans with (2 := g0_eps). apply Rle_trans with (2 := Hbig). pose proof u64_pos.
    apply Rle_trans with (bpow radix2 6 * u64); [unfold u64; rewrite bp; apply bpow_le; lia|]. change (bpow radix2 6) with 64. lra.
  Qed.

  (** The test of the queue. *)
  Lemma test_spec k x : lg_has lg k -> 0 < f2r (dg lg k) -> dbl x -> wleb (wmul eps (dg lg k)) x = true -> f2r eps * f2r (dg lg k) * (1 - u64) <= f2r x.
  Proof.
    intros Hk Hp Dx E. destruct (fs_deg lg kap delta Hs k Hk) as [Dd [Z|[L U]]]; [lra|].
    assert (near 1 (wmul eps (dg lg k)) (f2r eps * f2r (dg lg k))) as (Dm & _ & [M _]).
    { apply (near_mul 0 0); [lia|apply near_exact; auto; lra|apply near_exact; auto; lra|].
      right. pose proof delta_low. pose proof u64_pos. split.
      - apply Rle_trans with (f2r eps * delta); [|apply Rmult_le_compat_l; lra]. apply Rle_trans with (2 := g0_eps). apply Rle_trans with (2 := Hbig).
        apply Rle_trans with u64; [unfold lo900, u64; apply bpow_le; lia|lra].
      - apply Rle_trans with (bpow radix2 100 * bpow radix2 100); [apply Rmult_le_compat; lra|]. rewrite bp. unfold hi900. apply bpow_le. lia. }
    apply fleb_spec in E; auto. rewrite pow_1 in M. apply Rle_trans with (1 := M). exact E.
  Qed.
  Lemma test_zero k : lg_has lg k -> f2r (dg lg k) = 0 -> weqb (dg lg k) w0 = true.
  Proof. intros Hk Z. destruct (fs_deg lg kap delta Hs k Hk) as [Dd _]. apply feqb_spec; auto. apply dbl_0. Qed.

  Lemma push_float p r u : vwf p -> vwf r -> okv p -> okv r -> fmass r <= 1 -> lg_has lg u -> In u (vkeys r) -> 0 < f2r (dg lg u) ->
    f2r eps * f2r (dg lg u) * (1 - u64) <= fv r u -> fv p u <= 2 ->
    exists p' r', push lg p r alpha u = Ok (p', r') /\ okv p' /\ okv r' /\
      (forall k, k <> u -> fv r k <= fv r' k) /\
      fmass r' <= fmass r - g0 / 4 /\
      (forall t h eta, (forall k, Rabs (t k) <= 1) -> (forall k, Rabs (h k) <= 1) -> Rabs (h u - (f2r alpha * t u + (1 - f2r alpha) * fstep lg h u)) <= eta ->
        Rabs (fsum t p' + fsum h r' - (fsum t p + fsum h r)) <= 20 * u64 + eta).
  Proof.
    intros Hp Hr Op Or HR Hu Hur Hd Hru Hpu.
    pose proof u64_pos as U0. pose proof u64_small as U1. pose proof g0_eps as G0. pose proof delta_low as Dl.
    destruct (fs_deg lg kap delta Hs u Hu) as [Dd [Z|[Ld Ud]]]; [lra|].
    set (A := f2r alpha) in *. set (d := f2r (dg lg u)) in *. set (ru := fv r u) in *.
    assert (R1 : lsum (fv r) (u :: nb lg u) <= fmass r).
    { apply fmass_part; auto. constructor; [now apply (fs_noloop lg kap delta Hs)|now apply (fs_nodup lg kap delta Hs)]. }
    cbn [lsum] in R1. fold ru in R1.
    assert (X0 : 0 <= lsum (fv r) (nb lg u)) by (apply lsum_nonneg; intros k _; apply Or).
    assert (ru1 : ru <= 1) by lra.
    assert (E1 : f2r eps * delta * (1 - u64) <= ru).
    { apply Rle_trans with (2 := Hru). apply Rmult_le_compat_r; [lra|]. apply Rmult_le_compat_l; lra. }
    assert (E2 : f2r eps * delta <= 2).
    { set (y := f2r eps * delta) in *. assert (0 <= y) by lra. assert (y * u64 <= y * / 1024) by (apply Rmult_le_compat_l; lra). lra. }
    assert (KA : 20 * u64 + kap <= A / 2).
    { unfold g0 in Hbig. fold A in Hbig. assert (A * f2r eps * delta <= 2 * A) by (rewrite Rmult_assoc; nra). lra. }
    assert (Hru0 : bpow radix2 (-53) <= ru <= bpow radix2 0).
    { split; [|exact ru1]. apply Rle_trans with (2 := E1). change (bpow radix2 (-53)) with u64. set (y := f2r eps * delta) in *. assert (0 <= y) by lra. assert (y * u64 <= y * / 1024) by (apply Rmult_le_compat_l; lra). lra. }
    assert (Bru : bt (-53) 0 ru) by (now right).
    assert (ru0 : 0 < ru) by (pose proof (bpow_gt_0 radix2 (-53)); lra).
    destruct (beta_spec alpha Da ltac:(fold A; lra)) as [Nb Bb0]. fold A in Nb, Bb0.
    assert (Bb : bt (-53) 0 (1 - A)) by (destruct Bb0 as [Z|Z]; [now left|right; split; [exact Z|change (bpow radix2 0) with 1; lra]]).
    assert (Nru : near 0 (vget r u) ru) by (apply near_exact; apply Or).
    assert (Hsum : lsum (fun e => f2r (ewt e)) (nbe lg u) <= (1 + kap) * d).
    { pose proof (fs_sum lg kap delta Hs u Hu) as S. apply Rabs_le_inv in S. fold d in S. lra. }
    assert (Hsum' : (1 - kap) * d <= lsum (fun e => f2r (ewt e)) (nbe lg u)).
    { pose proof (fs_sum lg kap delta Hs u Hu) as S. apply Rabs_le_inv in S. fold d in S. lra. }
    assert (Hw : forall e, In e (nbe lg u) -> dbl (ewt e) /\ bpow radix2 (-100) <= f2r (ewt e) <= bpow radix2 101).
    { intros e I. destruct (fs_wt lg kap delta Hs u e Hu I) as [De' Le]. split; auto. split; auto.
      apply Rle_trans with (2 * bpow radix2 100); [|change 2 with (bpow radix2 1); rewrite bp; apply bpow_le; lia].
      apply Rle_trans with ((1 + kap) * d); [|apply Rmult_le_compat; lra]. apply Rle_trans with (2 := Hsum).
      apply (lsum_ge_elt (fun e => f2r (ewt e))); auto. intros e' I'. pose proof (proj2 (fs_wt lg kap delta Hs u e' Hu I')). pose proof (bpow_gt_0 radix2 (-100)). lra. }
    destruct (double_exact (dg lg u) Dd) as [D2 E2d].
    { fold d. split; [lra|]. apply Rle_trans with (1 := Ud). unfold hi900. apply bpow_le. lia. }
    fold d in E2d.
    set (D := fun e : edge f64 => wdiv (wmul (wmul (wsub w1 alpha) (ewt e)) (vget r u)) (wmul (dg lg u) (wadd w1 w1))).
    set (z := fun e : edge f64 => (1 - A) * f2r (ewt e) * ru / (2 * d)).
    assert (ND : forall e, In e (nbe lg u) -> near 4 (D e) (z e)).
    { intros e I. destruct (Hw e I) as [Dw [W1 W2]]. assert (bt (-100) 101 (f2r (ewt e))) as Bw by (now right).
      unfold D, z. rewrite <- E2d. apply near_div; [lia| |exact D2|lra|].
      - apply (near_mul 2 0); [lia| |exact Nru|].
        + apply (near_mul 1 0); [lia|exact Nb|apply near_exact; [exact Dw|pose proof (bpow_gt_0 radix2 (-100)); lra]|].
          apply (bt_rg _ _ _) with (3 := bt_mul _ _ _ _ _ _ Bb Bw); lia.
        + apply (bt_rg _ _ _) with (3 := bt_mul _ _ _ _ _ _ (bt_mul _ _ _ _ _ _ Bb Bw) Bru); lia.
      - rewrite E2d. assert (bpow radix2 (-146) <= 2 * d <= bpow radix2 101) as B2d.
        { split; [apply Rle_trans with (2 * bpow radix2 (-147)); [change 2 with (bpow radix2 1); rewrite bp; apply bpow_le; lia|lra]|].
          apply Rle_trans with (2 * bpow radix2 100); [lra|change 2 with (bpow radix2 1); rewrite bp; apply bpow_le; lia]. }
        apply (bt_rg _ _ _) with (3 := bt_div _ _ _ _ _ _ (bt_mul _ _ _ _ _ _ (bt_mul _ _ _ _ _ _ Bb Bw) Bru) B2d); lia. }
    assert (z0 : forall e, In e (nbe lg u) -> 0 <= z e) by (intros e I; apply (ND e I)).
    set (n := fun e : edge f64 => f2r (wadd (vget r (v2 e)) (D e))).
    set (x := fun e : edge f64 => fv r (v2 e)).
    assert (x01 : forall e, In e (nbe lg u) -> 0 <= x e <= 1).
    { intros e I. split; [apply Or|]. assert (x e <= lsum (fv r) (nb lg u)); [|lra].
      apply (lsum_ge_elt (fv r)); [intros k _; apply Or|]. unfold nb. now apply in_map. }
    assert (zsum : lsum z (nbe lg u) <= (1 - A) * (ru / 2) * (1 + kap)).
    { unfold z. rewrite (lsum_ext _ (fun e => ((1 - A) * ru / (2 * d)) * f2r (ewt e))) by (intros e _; field; lra). rewrite lsum_scal.
      apply Rle_trans with ((1 - A) * ru / (2 * d) * ((1 + kap) * d)); [|right; field; lra]. apply Rmult_le_compat_l; auto.
      apply Rmult_le_pos; [apply Rmult_le_pos; lra|]. apply Rlt_le, Rinv_0_lt_compat. lra. }
    assert (zle : lsum z (nbe lg u) <= ru).
    { apply Rle_trans with (1 := zsum). replace ((1 - A) * (ru / 2) * (1 + kap)) with (ru * ((1 - A) * ((1 + kap) / 2))) by field.
      rewrite <- (Rmult_1_r ru) at 2. apply Rmult_le_compat_l; [lra|]. rewrite <- (Rmult_1_r 1). apply Rmult_le_compat; lra. }
    assert (Ne : forall e, In e (nbe lg u) -> dbl (wadd (vget r (v2 e)) (D e)) /\ x e <= n e /\ Rabs (n e - x e - z e) <= u64 * x e + 7 * u64 * z e).
    { intros e I. pose proof (ND e I) as N4. pose proof (near_nonneg _ _ _ N4) as P4. pose proof (near_abs _ _ _ _ (proj1 pow4) (proj2 pow4) N4) as A4.
      assert (z e <= ru) as Ze by (apply Rle_trans with (2 := zle); now apply lsum_ge_elt).
      specialize (z0 e I). specialize (x01 e I). apply Rabs_le_inv in A4.
      assert (0 <= u64 * z e <= u64) as UZ by (split; [apply Rmult_le_pos; lra|rewrite <- (Rmult_1_r u64) at 2; apply Rmult_le_compat_l; lra]).
      assert (u64 * z e <= / 1024 * z e) as UZ2 by (apply Rmult_le_compat_r; lra).
      assert (0 <= u64 * f2r (D e) <= 2 * (u64 * z e)) as UD.
      { split; [apply Rmult_le_pos; lra|]. replace (2 * (u64 * z e)) with (u64 * (2 * z e)) by ring. apply Rmult_le_compat_l; lra. }
      destruct (add_grow (vget r (v2 e)) (D e)) as (Dn & Gn & En); [apply Or|apply N4|apply Or|exact P4| |].
      { fold (fv r (v2 e)). fold (x e). apply Rle_trans with (bpow radix2 2); [change (bpow radix2 2) with 4; lra|unfold hi900; apply bpow_le; lia]. }
      fold (n e) in Gn, En. fold (fv r (v2 e)) in Gn, En. fold (x e) in Gn, En. split; auto. split; auto.
      apply Rabs_le_inv in En. rewrite Rmult_plus_distr_l in En. apply Rabs_le. lra. }
    assert (Lerr : forall h, (forall k, Rabs (h k) <= 1) -> Rabs (lsum (fun e => (n e - x e) * h (v2 e)) (nbe lg u) - lsum (fun e => z e * h (v2 e)) (nbe lg u)) <= u64 + 6 * u64 * ru).
    { intros h Hh. rewrite <- lsum_minus. apply Rle_trans with (lsum (fun e => u64 * x e + 7 * u64 * z e) (nbe lg u)).
      - apply lsum_abs_le. intros e I. destruct (Ne e I) as (_ & _ & B). replace ((n e - x e) * h (v2 e) - z e * h (v2 e)) with ((n e - x e - z e) * h (v2 e)) by ring.
        rewrite Rabs_mult. rewrite <- (Rmult_1_r (u64 * x e + 7 * u64 * z e)). apply Rmult_le_compat; auto; apply Rabs_pos.
      - rewrite lsum_plus, (lsum_scal u64 x), (lsum_scal (7 * u64) z). assert (EX : lsum (fv r) (nb lg u) = lsum x (nbe lg u)) by (unfold nb; rewrite lsum_map; reflexivity).
        rewrite <- EX. assert (u64 * lsum (fv r) (nb lg u) <= u64 * (1 - ru)) by (apply Rmult_le_compat_l; lra).
        assert (7 * u64 * lsum z (nbe lg u) <= 7 * u64 * ru) by (apply Rmult_le_compat_l; lra). lra. }
    unfold push. rewrite (lo_deg lg (fs_ok lg kap delta Hs)) by auto. rewrite (lo_neigh lg (fs_ok lg kap delta Hs)) by auto. cbn [obind].
    destruct (vgrow_spec p u Hp) as (Hwp & Hlt & _ & _).
    destruct (push_edges_shape alpha (dg lg u) u (nbe lg u) r Hr) as (Hwr & _ & Hgr & _).
    pose proof (fs_noloop lg kap delta Hs u Hu) as Hnl. pose proof (fs_nodup lg kap delta Hs u Hu) as Hnd.
    pose proof (fun a => push_edges_float alpha (dg lg u) u D a (nbe lg u) r Hr Hnl Hnd (fun e => eq_refl)) as PE. cbv zeta in PE.
    set (r1 := fold_left (push_edge alpha (dg lg u) u) (nbe lg u) r) in *.
    assert (Eu : vget r1 u = vget r u) by (now apply Hgr).
    rewrite Eu. set (nu := wdiv (wmul (wsub w1 alpha) (vget r u)) (wadd w1 w1)).
    destruct dbl_two as [Dt Et].
    assert (Nu : near 3 nu ((1 - A) * ru / 2)).
    { unfold nu. rewrite <- Et. apply near_div; [lia| |exact Dt|lra|].
      - apply (near_mul 1 0); [lia|exact Nb|exact Nru|]. apply (bt_rg _ _ _) with (3 := bt_mul _ _ _ _ _ _ Bb Bru); lia.
      - rewrite Et. assert (bpow radix2 1 <= 2 <= bpow radix2 1) as B2 by (change (bpow radix2 1) with 2; lra).
        apply (bt_rg _ _ _) with (3 := bt_div _ _ _ _ _ _ (bt_mul _ _ _ _ _ _ Bb Bru) B2); lia. }
    pose proof (near_abs _ _ _ _ (proj1 pow3) (proj2 pow3) Nu) as Au. pose proof (near_nonneg _ _ _ Nu) as Pu.
    assert (AR : 0 <= A * ru <= 1) by (split; [apply Rmult_le_pos; lra|rewrite <- (Rmult_1_r 1); apply Rmult_le_compat; lra]).
    assert (UAR : 0 <= u64 * (A * ru) <= u64) by (split; [apply Rmult_le_pos; lra|rewrite <- (Rmult_1_r u64) at 2; apply Rmult_le_compat_l; lra]).
    assert (UR : 0 <= u64 * ru <= u64) by (split; [apply Rmult_le_pos; lra|rewrite <- (Rmult_1_r u64) at 2; apply Rmult_le_compat_l; lra]).
    assert (Nm : near 1 (wmul alpha (vget r u)) (A * ru)).
    { apply (near_mul 0 0); [lia|apply near_exact; auto; fold A; lra|exact Nru|]. right. split.
      - apply Rle_trans with u64; [unfold lo900, u64; apply bpow_le; lia|]. unfold g0 in Hbig. fold A in Hbig.
        apply Rle_trans with (A * (f2r eps * delta * (1 - u64))); [|apply Rmult_le_compat_l; lra].
        replace (A * (f2r eps * delta * (1 - u64))) with (A * f2r eps * delta * (1 - u64)) by ring.
        set (G := A * f2r eps * delta) in *. assert (G * u64 <= G * / 1024) by (apply Rmult_le_compat_l; lra). lra.
      - apply Rle_trans with (bpow radix2 0); [change (bpow radix2 0) with 1; lra|unfold hi900; apply bpow_le; lia]. }
    pose proof (near_nonneg _ _ _ Nm) as Pm.
    assert (Am : Rabs (f2r (wmul alpha (vget r u)) - A * ru) <= u64 * (A * ru)) by (apply (near_abs 1); auto; simpl; lra).
    destruct (add_grow (vget p u) (wmul alpha (vget r u))) as (Dp & Gp & Ep); [apply Op|apply Nm|apply Op|exact Pm| |].
    { fold (fv p u). apply Rabs_le_inv in Am. apply Rle_trans with (bpow radix2 2); [change (bpow radix2 2) with 4; lra|unfold hi900; apply bpow_le; lia]. }
    assert (Ep' : Rabs (f2r (wadd (vget p u) (wmul alpha (vget r u))) - fv p u - A * ru) <= 5 * u64).
    { fold (fv p u) in Ep. assert (0 <= fv p u) by apply Op. apply Rabs_le_inv in Am. apply Rabs_le_inv in Ep. rewrite Rmult_plus_distr_l in Ep.
      assert (u64 * fv p u <= u64 * 2) by (apply Rmult_le_compat_l; lra).
      assert (u64 * f2r (wmul alpha (vget r u)) <= u64 * 2) by (apply Rmult_le_compat_l; lra).
      apply Rabs_le. lra. }
    do 2 eexists. split; [reflexivity|]. rewrite vgrow_get by auto. split; [|split; [|split; [|split]]].
    - intros k. unfold fv. rewrite vget_vset by auto. rewrite vgrow_get by auto. destruct (Nat.eqb_spec k u); [|apply Op]. split; auto.
      apply Rle_trans with (2 := Gp). apply Op.
    - intros k. unfold fv. rewrite vget_vset by auto. destruct (Nat.eqb_spec k u) as [|Hk]; [split; [apply Nu|exact Pu]|].
      destruct (in_dec Nat.eq_dec k (nb lg u)) as [Hin|Hin]; [|rewrite Hgr by exact Hin; apply Or].
      apply in_map_iff in Hin. destruct Hin as (e & <- & I). rewrite (proj1 (PE one) e I). destruct (Ne e I) as (Dn & Gn & _). split; [exact Dn|].
      specialize (x01 e I). unfold n in Gn. lra.
    - intros k Hk. unfold fv. rewrite vget_vset by auto. destruct (Nat.eqb_spec k u) as [|_]; [congruence|].
      destruct (in_dec Nat.eq_dec k (nb lg u)) as [Hin|Hin]; [|rewrite Hgr by exact Hin; lra].
      apply in_map_iff in Hin. destruct Hin as (e & <- & I). rewrite (proj1 (PE one) e I). destruct (Ne e I) as (_ & Gn & _). exact Gn.
    - unfold fmass. rewrite fsum_vset by auto. rewrite (proj2 (PE one)). unfold fv at 2. rewrite Eu. fold (fv r u). fold ru.
      fold (fmass r). specialize (Lerr one ltac:(intros; unfold one; rewrite Rabs_R1; lra)). unfold n, x in Lerr. unfold one in Lerr at 2.
      rewrite (lsum_ext (fun e => z e * 1) z) in Lerr by (intros; ring).
      apply Rabs_le_inv in Lerr. apply Rabs_le_inv in Au. unfold one at 2 3.
      assert (g0 * (1 - u64) <= A * ru).
      { unfold g0. fold A. replace (A * f2r eps * delta * (1 - u64)) with (A * (f2r eps * delta * (1 - u64))) by ring. apply Rmult_le_compat_l; lra. }
      assert (80 * u64 <= g0) by lra. assert (g0 * u64 <= g0 * / 1024) by (apply Rmult_le_compat_l; lra).
      assert (ru * (20 * u64 + kap) <= ru * (A / 2)) by (apply Rmult_le_compat_l; lra).
      assert (0 <= A * ru * kap) by (apply Rmult_le_pos; lra). assert (0 <= A * ru * u64) by (apply Rmult_le_pos; lra).
      replace ((1 - A) * (ru / 2) * (1 + kap)) with (ru / 2 - A * ru / 2 + ru * kap / 2 - A * ru * kap / 2) in zsum by field.
      replace (4 * u64 * ((1 - A) * ru / 2)) with (2 * (u64 * ru) - 2 * (A * ru * u64)) in Au by field.
      replace ((1 - A) * ru / 2) with (ru / 2 - A * ru / 2) in Au by field.
      rewrite Rmult_plus_distr_l in *. lra.
    - intros t h eta Ht Hh Hd2. rewrite !fsum_vset by auto. rewrite fsum_vgrow by auto. rewrite (proj2 (PE h)).
      specialize (Lerr h Hh). unfold fv at 1. rewrite vgrow_get by auto. fold (fv p u). unfold fv at 3. rewrite Eu. fold (fv r u). fold ru.
      set (L := lsum (fun e => (f2r (wadd (vget r (v2 e)) (D e)) - fv r (v2 e)) * h (v2 e)) (nbe lg u)). change (lsum (fun e => (n e - x e) * h (v2 e)) (nbe lg u)) with L in Lerr.
      set (Z := lsum (fun e => z e * h (v2 e)) (nbe lg u)) in *.
      set (H := h u - (A * t u + (1 - A) * fstep lg h u)) in *.
      assert (EH : ru * H = ru * h u - A * ru * t u - (1 - A) * ru / 2 * h u - Z).
      { unfold H, fstep, Z, z. fold d.
        rewrite (lsum_ext (fun e => (1 - A) * f2r (ewt e) * ru / (2 * d) * h (v2 e)) (fun e => ((1 - A) * ru / (2 * d)) * (f2r (ewt e) * h (v2 e)))) by (intros; field; lra).
        rewrite lsum_scal. field. lra. }
      set (pn := f2r (wadd (vget p u) (wmul alpha (vget r u)))) in *.
      replace (fsum t p - fv p u * t u + pn * t u + (fsum h r + L - ru * h u + f2r nu * h u) - (fsum t p + fsum h r))
        with ((pn - fv p u - A * ru) * t u + (L - Z) + (f2r nu - (1 - A) * ru / 2) * h u - ru * H) by (rewrite EH; ring).
      assert (Rabs ((pn - fv p u - A * ru) * t u) <= 5 * u64).
      { rewrite Rabs_mult. rewrite <- (Rmult_1_r (5 * u64)). apply Rmult_le_compat; auto; apply Rabs_pos. }
      assert (Rabs ((f2r nu - (1 - A) * ru / 2) * h u) <= 4 * u64).
      { rewrite Rabs_mult. rewrite <- (Rmult_1_r (4 * u64)). apply Rmult_le_compat; auto; try apply Rabs_pos. apply Rle_trans with (1 := Au).
        replace (4 * u64 * ((1 - A) * ru / 2)) with (2 * (u64 * ru) - 2 * (u64 * (A * ru))) by field. lra. }
      assert (Rabs (ru * H) <= eta).
      { rewrite Rabs_mult, (Rabs_pos_eq ru) by lra. apply Rle_trans with (1 * Rabs H); [|lra]. apply Rmult_le_compat_r; [apply Rabs_pos|lra]. }
      unfold Rminus. eapply Rle_trans; [apply Rabs_triang|]. rewrite Rabs_Ropp. eapply Rle_trans; [apply Rplus_le_compat_r, Rabs_triang|].
      eapply Rle_trans; [apply Rplus_le_compat_r, Rplus_le_compat_r, Rabs_triang|]. unfold Rminus in *. lra.
  Qed.

  (** ** The loop *)
  Lemma apr_step_new p r u q mem p' r' q' mem' : apr_inv lg (lg_has lg) eps p r (u :: q) mem ->
    apr_step lg alpha eps p r u q mem = Ok (p', r', q', mem') -> push lg p r alpha u = Ok (p', r') ->
    forall k, In k q' -> In k q \/ k = u \/ In k (nb lg u).
  Proof.
    intros Hstr Es E k Hk. pose proof (fs_ok lg kap delta Hs) as Hlg.
    assert (HPu : lg_has lg u) by (apply (ai_r _ _ _ _ _ _ _ Hstr), (ai_q _ _ _ _ _ _ _ Hstr); now left).
    unfold apr_step in Es. rewrite E in Es. cbn [obind] in Es.
    rewrite (lo_deg lg Hlg) in Es by auto. cbn [obind] in Es. rewrite (lo_nunw lg Hlg) in Es by auto.
    rewrite (lo_neigh lg Hlg) in Es by auto. cbn [obind] in Es.
    rewrite (lg_degrees_ok lg Hlg) in Es by (intros v Hv; now apply (lo_closed lg Hlg u)). cbn [obind] in Es.
    set (b := wleb (wmul eps (dg lg u)) (vget r' u)) in Es.
    assert (Hn := ai_nd _ _ _ _ _ _ _ Hstr). inversion Hn as [|? ? Hnu Hnq]; subst.
    assert (Hm := ai_mem _ _ _ _ _ _ _ Hstr).
    assert (Hm1 : forall k, In k (snd (if b then (u :: q, u :: nerase u mem) else (q, nerase u mem))) <->
                        In k (fst (if b then (u :: q, u :: nerase u mem) else (q, nerase u mem)))).
    { intros k0. destruct b; simpl; rewrite nerase_In, Hm; simpl; split; intuition congruence. }
    destruct (if b then (u :: q, u :: nerase u mem) else (q, nerase u mem)) as [q1 mem1] eqn:Eq1. simpl in Hm1.
    destruct (apr_scan_spec lg eps r' (nbe lg u) q1 mem1 Hm1) as (q2 & mem2 & Es2 & _ & _ & Hf & _).
    fold (nb lg u) in Es2. rewrite Es2 in Es. cbn [obind fst snd] in Es. injection Es as <- <-.
    destruct (Hf k Hk) as [Hk1|[Hk1 _]]; [|auto].
    destruct b; injection Eq1 as <- <-; auto. destruct Hk1 as [?|?]; auto.
  Qed.

  (** Error after the mass of the residual fell from that of the seed. *)
  Definition cerr (eta : R) : R := 4 * (20 * u64 + eta) / g0.
  Lemma g0_pos : 0 < g0. Proof. pose proof u64_pos. lra. Qed.
  Lemma cerr_step eta : cerr eta * (g0 / 4) = 20 * u64 + eta.
  Proof. pose proof g0_pos. unfold cerr. field. lra. Qed.
  Lemma cerr_kap : 0 <= cerr kap <= 1.
  Proof.
    pose proof g0_pos. pose proof u64_pos. unfold cerr. split.
    - apply Rmult_le_pos; [lra|]. apply Rlt_le, Rinv_0_lt_compat. lra.
    - apply Rmult_le_reg_r with g0; auto. unfold Rdiv. rewrite Rmult_assoc, Rinv_l by lra. lra.
  Qed.
  Lemma dual_mass : dual lg (f2r alpha) kap one one.
  Proof.
    split; [|split]; try (intros; unfold one; rewrite Rabs_R1; lra). intros u Hu Hp. unfold fstep, one.
    rewrite (lsum_ext _ (fun e => f2r (ewt e))) by (intros; ring). pose proof (fs_sum lg kap delta Hs u Hu) as S.
    set (w := lsum _ _) in *. set (d := f2r (dg lg u)) in *.
    replace (1 - (f2r alpha * 1 + (1 - f2r alpha) * (1 / 2 + w / (2 * d)))) with (- ((1 - f2r alpha) / 2 * ((w - d) * / d))) by (field; lra).
    rewrite Rabs_Ropp, !Rabs_mult. rewrite (Rabs_pos_eq (/ d)) by (apply Rlt_le, Rinv_0_lt_compat; lra). rewrite (Rabs_pos_eq ((1 - f2r alpha) / 2)) by lra.
    assert (Rabs (w - d) * / d <= kap).
    { apply Rmult_le_reg_r with d; auto. rewrite Rmult_assoc, Rinv_l by lra. lra. }
    assert (0 <= Rabs (w - d) * / d) by (apply Rmult_le_pos; [apply Rabs_pos|apply Rlt_le, Rinv_0_lt_compat; lra]).
    apply Rle_trans with (1 * (Rabs (w - d) * / d)); [apply Rmult_le_compat_r; lra|lra].
  Qed.

  Record finv (s p r : sprs f64) (q mem : list nat) : Prop := {
    fi_str : apr_inv lg (lg_has lg) eps p r q mem;
    fi_p : okv p; fi_r : okv r;
    fi_q : forall k, In k q -> 0 < f2r (dg lg k) /\ f2r eps * f2r (dg lg k) * (1 - u64) <= fv r k;
    fi_s : fmass s <= 1;
    fi_m : fmass r <= fmass s;
    fi_d : forall t h eta, dual lg (f2r alpha) eta t h ->
      Rabs (fsum t p + fsum h r - fsum h s) <= cerr eta * (fmass s - fmass r) }.
  Lemma fmass_nonneg x : vwf x -> okv x -> 0 <= fmass x.
  Proof. intros Hx Ox. apply (fmass_part x nil); auto. constructor. Qed.
  Lemma finv_step s p r u q mem : finv s p r (u :: q) mem ->
    exists p' r' q' mem', apr_step lg alpha eps p r u q mem = Ok (p', r', q', mem') /\
      finv s p' r' q' mem' /\ fmass r' <= fmass r - g0 / 4.
  Proof.
    intros [Hstr Op Or Hq Hs1 Hm Hd]. pose proof (fs_ok lg kap delta Hs) as Hlg.
    pose proof (ai_p _ _ _ _ _ _ _ Hstr) as [Hp Hpk]. pose proof (ai_r _ _ _ _ _ _ _ Hstr) as [Hr Hrk].
    assert (Hur : In u (vkeys r)) by (apply (ai_q _ _ _ _ _ _ _ Hstr); now left).
    assert (Hu : lg_has lg u) by auto. destruct (Hq u (or_introl eq_refl)) as [Hdu Hru].
    pose proof (fmass_nonneg r Hr Or) as R0. pose proof g0_pos as G0. pose proof cerr_kap as CK. pose proof u64_pos as U0.
    destruct (apr_step_inv lg Hlg (lg_has lg) (fun v h => h) (lo_closed lg Hlg) alpha eps p r u q mem Hstr) as (p' & r' & q' & mem' & Es & E & Hstr' & Hq').
    destruct (push_float p r u Hp Hr Op Or) as (p2 & r2 & E2 & Op' & Or' & Hgrow & Hdec & Hdual); auto; try lra.
    { pose proof (Hd one one kap dual_mass) as D. fold (fmass p) (fmass r) (fmass s) in D. apply Rabs_le_inv in D.
      assert (fv p u <= fmass p) as P1.
      { pose proof (fmass_part p (u :: nil) Hp Op) as Q. simpl in Q. rewrite Rplus_0_r in Q. apply Q. repeat constructor. intros []. }
      assert (cerr kap * (fmass s - fmass r) <= 1 * 1) by (apply Rmult_le_compat; lra). lra. }
    rewrite E in E2. injection E2 as <- <-. exists p', r', q', mem'. split; [exact Es|]. split; [|exact Hdec].
    assert (Hqd : forall k, In k q' -> 0 < f2r (dg lg k)).
    { intros k Hk. destruct (apr_step_new p r u q mem p' r' q' mem' Hstr Es E k Hk) as [I|[->|I]]; [apply Hq; now right|exact Hdu|].
      now apply (fs_nb lg kap delta Hs u). }
    constructor; auto; try lra.
    - intros k Hk. split; [now apply Hqd|]. destruct (Hq' k Hk) as [I|T].
      + assert (Hn := ai_nd _ _ _ _ _ _ _ Hstr). inversion Hn as [|? ? Hnu Hnq]; subst.
        apply Rle_trans with (fv r k); [apply Hq; now right|]. apply Hgrow. congruence.
      + apply test_spec; auto; [|apply Or']. pose proof (ai_r _ _ _ _ _ _ _ Hstr') as [_ K]. apply K. now apply (ai_q _ _ _ _ _ _ _ Hstr').
    - intros t h eta HD. pose proof (Hd t h eta HD) as D. destruct HD as (Ht & Hh & Heq).
      pose proof (Hdual t h eta Ht Hh (Heq u Hu Hdu)) as D'.
      assert (0 <= eta) by (eapply Rle_trans; [apply Rabs_pos|apply (Heq u Hu Hdu)]).
      replace (fsum t p' + fsum h r' - fsum h s) with ((fsum t p' + fsum h r' - (fsum t p + fsum h r)) + (fsum t p + fsum h r - fsum h s)) by ring.
      eapply Rle_trans; [apply Rabs_triang|]. apply Rle_trans with (cerr eta * (g0 / 4) + cerr eta * (fmass s - fmass r)); [rewrite cerr_step; lra|].
      rewrite <- Rmult_plus_distr_l. apply Rmult_le_compat_l; [|lra]. unfold cerr. apply Rmult_le_pos; [lra|]. apply Rlt_le, Rinv_0_lt_compat. lra.
  Qed.
  Lemma finv_loop s : forall fuel p r q mem p' r', finv s p r q mem -> apr_loop fuel lg alpha eps p r q mem = Some (Ok (p', r')) ->
    exists mem', finv s p' r' nil mem'.
  Proof.
    induction fuel as [|fuel IH]; intros p r q mem p' r' Hi; destruct q as [|u q]; simpl; try discriminate.
    - intros [= <- <-]. eauto.
    - intros [= <- <-]. eauto.
    - destruct (finv_step s p r u q mem Hi) as (p1 & r1 & q1 & mem1 & -> & Hi1 & _). now apply IH.
  Qed.
  Lemma finv_total s : forall fuel p r q mem, finv s p r q mem -> fmass r < INR fuel * (g0 / 4) ->
    exists p' r', apr_loop fuel lg alpha eps p r q mem = Some (Ok (p', r')).
  Proof.
    induction fuel as [|fuel IH]; intros p r q mem Hi Hf; destruct q as [|u q]; simpl; eauto.
    - exfalso. simpl in Hf. pose proof (fmass_nonneg r (proj1 (ai_r _ _ _ _ _ _ _ (fi_str _ _ _ _ _ Hi))) (fi_r _ _ _ _ _ Hi)). lra.
    - destruct (finv_step s p r u q mem Hi) as (p1 & r1 & q1 & mem1 & -> & Hi1 & Hd). apply IH; auto. rewrite S_INR in Hf. lra.
  Qed.
  Lemma finv_start s ds q mem : vwf s -> okv s -> fmass s <= 1 -> (forall k, In k (vkeys s) -> lg_has lg k) ->
    lg_degrees lg (inner_indices s) = Ok ds -> apr_init eps s (inner_indices s) ds nil nil = Ok (q, mem) ->
    finv s (sp_empty (sp_rows s) 1) s q mem.
  Proof.
    intros Hv Os Hm Hk Ed Ei. pose proof (fs_ok lg kap delta Hs) as Hlg.
    destruct (apr_start lg Hlg (lg_has lg) eps s q mem ds (conj Hv Hk) Ed Ei) as [Hinv Hq].
    assert (Ev : forall k, vget (sp_empty (sp_rows s) 1 : sprs f64) k = w0) by reflexivity.
    constructor; auto; try lra.
    - intros k. unfold fv. rewrite Ev. split; [apply dbl_0|rewrite f2r_0; lra].
    - intros k I. destruct (Hq k I) as [Z T]. assert (lg_has lg k) as Hh by (apply Hk; now apply (ai_q _ _ _ _ _ _ _ Hinv)).
      assert (0 < f2r (dg lg k)) as P.
      { destruct (fs_deg lg kap delta Hs k Hh) as [Dd [Z0|[L _]]]; [|lra]. rewrite (test_zero k Hh Z0) in Z. discriminate. }
      split; auto. apply test_spec; auto. apply Os.
    - intros t h eta _. unfold fsum at 1. cbn [sp_col sp_empty sp_cols repeat nth lsum]. replace (0 + fsum h s - fsum h s) with 0 by ring.
      rewrite Rabs_R0. replace (fmass s - fmass s) with 0 by ring. lra.
  Qed.

  Theorem pagerank_double_total fuel s : vwf s -> okv s -> fmass s <= 1 -> (forall k, In k (vkeys s) -> lg_has lg k) ->
    lg_exists lg (Z.of_nat (sp_rows s) - 1) = true -> fmass s < INR fuel * (g0 / 4) ->
    exists p r, approximate_pagerank fuel lg s alpha eps = Some (Ok (p, r)).
  Proof.
    intros Hv Os Hm Hk Hx Hf. unfold approximate_pagerank. pose proof (fs_ok lg kap delta Hs) as Hlg.
    rewrite (proj1 Hv). simpl (1 <? 1)%nat. cbv iota. rewrite Hx. simpl negb. cbv iota.
    assert (wltb alpha w0 = false) as ->.
    { destruct (wltb alpha w0) eqn:E; auto. apply fltb_spec in E; auto using dbl_0. rewrite f2r_0 in E. lra. }
    assert (wltb w1 alpha = false) as ->.
    { destruct (wltb w1 alpha) eqn:E; auto. apply fltb_spec in E; auto using dbl_1. rewrite f2r_1 in E. lra. }
    assert (wleb eps w0 = false) as ->.
    { destruct (wleb eps w0) eqn:E; auto. apply fleb_spec in E; auto using dbl_0. rewrite f2r_0 in E. lra. }
    simpl orb. simpl (1 =? 0)%nat. cbv iota.
    assert (Ed : lg_degrees lg (inner_indices s) = Ok (map (dg lg) (inner_indices s))).
    { apply (lg_degrees_ok lg Hlg). intros v Hin. apply Hk. now rewrite <- inner_vkeys'. }
    rewrite Ed. destruct (apr_init_spec lg eps s (inner_indices s) nil nil) as (q & mem & Ei & _); [tauto|].
    rewrite Ei. apply (finv_total s); auto. now apply (finv_start s _ q mem Hv Os Hm Hk Ed).
  Qed.
  Theorem pagerank_double_result fuel s p r : vwf s -> okv s -> fmass s <= 1 ->
    approximate_pagerank fuel lg s alpha eps = Some (Ok (p, r)) ->
    (forall k, dbl (vget p k) /\ 0 <= fv p k) /\ (forall k, dbl (vget r k) /\ 0 <= fv r k) /\
    (forall k, lg_has lg k -> 0 < f2r (dg lg k) -> fv r k < f2r eps * f2r (dg lg k) * (1 + u64)) /\
    fmass r <= fmass s /\
    forall t h eta, 0 <= eta -> dual lg (f2r alpha) eta t h -> Rabs (fsum t p + fsum h r - fsum h s) <= cerr eta.
  Proof.
    intros Hv Os Hm E. pose proof (fs_ok lg kap delta Hs) as Hlg.
    destruct (apr_return lg fuel s alpha eps p r E) as (_ & _ & _ & _ & _ & (ds & q & mem & Ed & Ei & El) & _).
    pose proof (apr_keys_exist lg s ds Hlg Hv Ed) as Hk.
    destruct (finv_loop s fuel _ _ _ _ p r (finv_start s ds q mem Hv Os Hm Hk Ed Ei) El) as [mem' Hi].
    pose proof (fi_r _ _ _ _ _ Hi) as Or. split; [apply (fi_p _ _ _ _ _ Hi)|]. split; [exact Or|].
    pose proof (fi_str _ _ _ _ _ Hi) as Hstr. pose proof (ai_r _ _ _ _ _ _ _ Hstr) as [Hr Hrk].
    pose proof u64_pos as U0. pose proof u64_small as U1. split; [|split; [apply (fi_m _ _ _ _ _ Hi)|]].
    - intros k Hh Hp. destruct (fs_deg lg kap delta Hs k Hh) as [Dd [Z|[L U]]]; [lra|].
      assert (0 < f2r eps * f2r (dg lg k)) by (apply Rmult_lt_0_compat; lra).
      destruct (in_dec Nat.eq_dec k (vkeys r)) as [I|I].
      + destruct (ai_small _ _ _ _ _ _ _ Hstr k I) as [[]|[Z|T]].
        * apply feqb_spec in Z; auto using dbl_0. rewrite f2r_0 in Z. lra.
        * unfold small in T. assert (near 1 (wmul eps (dg lg k)) (f2r eps * f2r (dg lg k))) as (Dm & _ & [_ M]).
          { apply (near_mul 0 0); [lia|apply near_exact; auto; lra|apply near_exact; auto; lra|]. right. pose proof g0_eps. split.
            - apply Rle_trans with (f2r eps * delta); [|apply Rmult_le_compat_l; lra]. apply Rle_trans with u64; [unfold lo900, u64; apply bpow_le; lia|lra].
            - apply Rle_trans with (bpow radix2 100 * bpow radix2 100); [apply Rmult_le_compat; lra|]. rewrite bp. unfold hi900. apply bpow_le. lia. }
          rewrite pow_1 in M. apply Rlt_le_trans with (2 := M). destruct (Rlt_le_dec (fv r k) (f2r (wmul eps (dg lg k)))) as [|G]; auto.
          exfalso. enough (wleb (wmul eps (dg lg k)) (vget r k) = true) by congruence. apply fleb_spec; auto. apply Or.
      + unfold fv. rewrite vget_keys by exact I. rewrite f2r_0. apply Rmult_lt_0_compat; lra.
    - intros t h eta He0 HD. apply Rle_trans with (1 := fi_d _ _ _ _ _ Hi t h eta HD).
      pose proof (fmass_nonneg r Hr Or). pose proof g0_pos. pose proof (fi_m _ _ _ _ _ Hi).
      rewrite <- (Rmult_1_r (cerr eta)) at 2. apply Rmult_le_compat_l; [|lra]. unfold cerr. apply Rmult_le_pos; [lra|]. apply Rlt_le, Rinv_0_lt_compat. lra.
  Qed.
End Main.
