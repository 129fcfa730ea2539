(** Rounding in the Graph class: degrees, volume and Laplacians computed with IEEE doubles. *)
From Verif Require Import Base Num RSum Sparse SparseFacts Graph GraphSpec GraphFacts GraphProps1 GraphProps2 FloatFacts.
From Coq Require Import ZArith Reals Lra Lia SpecFloat.
From Flocq Require Import Core BinarySingleNaN.
Local Open Scope R_scope.

(** ** Vocabulary *)
(** Edge weight, degree (self-loop counted twice) and total volume of a graph of doubles, as real numbers. *)
Definition fw (g : graph f64) (u v : nat) : R := f2r (weight g u v).
Definition fdeg (g : graph f64) (v : nat) : R := rsum (number_of_vertices g) (fw g v) + fw g v v.
Definition fvol (g : graph f64) : R := rsum (number_of_vertices g) (fdeg g).
(** Every stored weight is a finite non-negative double. *)
Definition finite_weights (g : graph f64) : Prop :=
  forall i j v, sp_get (g_adj g) i j = Some v -> dbl v /\ 0 <= f2r v.
(** A double holding an integer of absolute value at most 2^53 (and not -0). *)
Definition isint (x : f64) : Prop := exists z, small_int z /\ x = zf z.
Definition int_weights (g : graph f64) : Prop := forall i j v, sp_get (g_adj g) i j = Some v -> isint v /\ 0 <= f2r v.
(** Number of stored entries in row [v] of the adjacency matrix (neighbours, a self-loop counts once). *)
Definition row_entries (g : graph f64) (v : nat) : nat :=
  length (filter (fun u => match sp_get (g_adj g) v u with Some _ => true | None => false end) (seq 0 (number_of_vertices g))).
(** Relative error of k roundings. *)
Definition gam (k : nat) : R := (1 + u64) ^ k - 1.
Definition overflow : R := bpow radix2 1024.

(** ** Integers *)
Lemma B53 : IZR (2 ^ 53) = bpow radix2 53. Proof. change (2 ^ 53)%Z with (Zpower radix2 53). now rewrite IZR_Zpower. Qed.
Lemma small_R z : small_int z <-> Rabs (IZR z) <= bpow radix2 53.
Proof. unfold small_int. rewrite <- abs_IZR, <- B53. split; [apply IZR_le|apply le_IZR]. Qed.
Lemma isint_dbl x : isint x -> dbl x. Proof. intros (z & Hz & ->). now apply zf_spec. Qed.
Lemma isint_0 : isint w0. Proof. exists 0%Z. split; [unfold small_int; lia|reflexivity]. Qed.
Lemma isint_inj x y : isint x -> isint y -> f2r x = f2r y -> x = y.
Proof.
  intros (a & Ha & ->) (b & Hb & ->). rewrite (proj2 (zf_spec a Ha)), (proj2 (zf_spec b Hb)). intros E. f_equal. now apply eq_IZR.
Qed.
Lemma isint_add x y : isint x -> isint y -> Rabs (f2r x + f2r y) <= bpow radix2 53 ->
  isint (wadd x y) /\ f2r (wadd x y) = f2r x + f2r y.
Proof.
  intros (a & Ha & ->) (b & Hb & ->). rewrite (proj2 (zf_spec a Ha)), (proj2 (zf_spec b Hb)), <- plus_IZR. intros L. apply small_R in L.
  rewrite zf_add by auto. split; [now exists (a + b)%Z|]. now apply zf_spec.
Qed.
Lemma isint_sub x y : isint x -> isint y -> Rabs (f2r x - f2r y) <= bpow radix2 53 ->
  isint (wsub x y) /\ f2r (wsub x y) = f2r x - f2r y.
Proof.
  intros (a & Ha & ->) (b & Hb & ->). rewrite (proj2 (zf_spec a Ha)), (proj2 (zf_spec b Hb)), <- minus_IZR. intros L. apply small_R in L.
  rewrite zf_sub by auto. split; [now exists (a - b)%Z|]. now apply zf_spec.
Qed.
Lemma isint_sum (l : list f64) acc : isint acc -> (forall x, In x l -> isint x) ->
  Rabs (f2r acc) + lsum (fun x => Rabs (f2r x)) l <= bpow radix2 53 ->
  isint (fold_left wadd l acc) /\ f2r (fold_left wadd l acc) = f2r acc + lsum f2r l.
Proof.
  revert acc; induction l as [|x l IH]; intros acc Ia Il Hb; cbn [fold_left lsum] in *; [split; auto; lra|].
  assert (0 <= lsum (fun x => Rabs (f2r x)) l) by (apply lsum_nonneg; intros; apply Rabs_pos).
  pose proof (Rabs_triang (f2r acc) (f2r x)) as T.
  destruct (isint_add acc x) as [I E]; auto; [apply Il; now left|lra|].
  destruct (IH (wadd acc x)) as [I2 E2]; auto; [intros; apply Il; now right|rewrite E; lra|].
  split; auto. rewrite E2, E. lra.
Qed.

(** ** Row sums as folds over the column index *)
Lemma cols_seq {W : Type} (M : sprs W) : sp_cols M = map (sp_col M) (seq 0 (sp_ncols M)).
Proof.
  apply (list_eq_nth _ _ []); [now rewrite map_length, seq_length|]. intros k Hk.
  rewrite (nth_indep (map _ _) [] (sp_col M 0)) by (now rewrite map_length, seq_length).
  rewrite map_nth, seq_nth by exact Hk. reflexivity.
Qed.
Definition row_list (M : sprs f64) (i : nat) : list f64 :=
  flat_map (fun k => match sp_get M i k with Some v => [v] | None => [] end) (seq 0 (sp_ncols M)).
Lemma rowsum_fold (M : sprs f64) i : (forall k v, sp_get M i k = Some v -> dbl v) -> sp_rowsum M i = wsum (row_list M i).
Proof.
  intros Hd. unfold sp_rowsum, wsum, row_list. rewrite cols_seq.
  generalize (w0 : f64) as acc. induction (seq 0 (sp_ncols M)) as [|k l IH]; intros acc; cbn [map fold_left flat_map]; auto.
  rewrite fold_left_app. rewrite IH. f_equal. unfold sp_get. unfold sp_get in Hd.
  destruct (col_get (sp_col M k) i) as [v|] eqn:E; cbn [fold_left]; auto. now rewrite fmul_1 by (now apply (Hd k)).
Qed.
Lemma row_list_sum (M : sprs f64) i (h : f64 -> R) : h w0 = 0 -> lsum h (row_list M i) = rsum (sp_ncols M) (fun k => h (coeff M i k)).
Proof.
  intros H0. unfold row_list, rsum. rewrite lsum_flat_map. apply lsum_ext. intros k _. unfold coeff.
  destruct (sp_get M i k); cbn [lsum o0]; lra.
Qed.
Lemma row_list_in (M : sprs f64) i x : In x (row_list M i) -> exists k, sp_get M i k = Some x.
Proof.
  intros Hx. apply in_flat_map in Hx. destruct Hx as (k & _ & Hk). exists k.
  destruct (sp_get M i k); [|contradiction]. destruct Hk as [->|[]]. reflexivity.
Qed.
Lemma rowsum_int (M : sprs f64) i : (forall k v, sp_get M i k = Some v -> isint v) ->
  rsum (sp_ncols M) (fun k => Rabs (f2r (coeff M i k))) <= bpow radix2 53 ->
  isint (sp_rowsum M i) /\ f2r (sp_rowsum M i) = rsum (sp_ncols M) (fun k => f2r (coeff M i k)).
Proof.
  intros Hi Hb. rewrite rowsum_fold by (intros k v G; apply isint_dbl; now apply (Hi k)).
  destruct (isint_sum (row_list M i) w0 isint_0) as [I E].
  - intros x Hx. destruct (row_list_in _ _ _ Hx) as [k G]. now apply (Hi k).
  - rewrite f2r_0, Rabs_R0, Rplus_0_l. rewrite (row_list_sum M i (fun x => Rabs (f2r x))); [exact Hb|]. now rewrite f2r_0, Rabs_R0.
  - unfold wsum. split; auto. rewrite E, f2r_0, Rplus_0_l. now apply (row_list_sum M i f2r).
Qed.
Lemma colsum_int (M : sprs f64) k n : sp_wf M -> sp_rows M = n -> (forall i v, sp_get M i k = Some v -> isint v) ->
  rsum n (fun i => Rabs (f2r (coeff M i k))) <= bpow radix2 53 ->
  isint (wsum (map snd (sp_col M k))) /\ f2r (wsum (map snd (sp_col M k))) = rsum n (fun i => f2r (coeff M i k)).
Proof.
  intros Hw Hn Hi Hb. pose proof (sp_wf_col M k Hw) as Cw. rewrite Hn in Cw.
  assert (forall h : f64 -> R, h w0 = 0 -> lsum h (map snd (sp_col M k)) = rsum n (fun i => h (coeff M i k))) as Hl.
  { intros h H0. rewrite lsum_map. clear Hi Hb. unfold coeff, sp_get. revert Cw. generalize (sp_col M k) as c. clear -H0.
    induction c as [|[j v] c IH]; intros [Hs Hf].
    - symmetry. apply rsum_zero. intros; exact H0.
    - cbn [map fst] in Hs, Hf. inversion Hs as [|? ? Hs' Hlt]; subst. inversion Hf as [|? ? Hk Hf']; subst.
      cbn [lsum fst snd]. rewrite IH by (split; auto).
      rewrite (rsum_ext n (fun i => h (o0 (col_get ((j, v) :: c) i))) (fun i => (if Nat.eqb i j then h v else 0) + h (o0 (col_get c i)))).
      + rewrite rsum_plus. rewrite (rsum_delta n j (fun _ => h v)) by auto. reflexivity.
      + intros i Hin. cbn [col_get]. destruct (Nat.eqb_spec i j) as [->|Hne].
        * assert (col_get c j = None) as ->.
          { destruct (col_get c j) as [x|] eqn:E; auto. exfalso. apply col_get_In in E; auto.
            rewrite Forall_forall in Hlt. specialize (Hlt j). apply (in_map fst) in E. specialize (Hlt E). lia. }
          rewrite Nat.eqb_refl. cbn [o0]. lra.
        * destruct (Nat.eqb_spec j i); [congruence|]. lra. }
  unfold wsum. destruct (isint_sum (map snd (sp_col M k)) w0 isint_0) as [I E].
  - intros x Hx. apply in_map_iff in Hx. destruct Hx as ([i v] & <- & Hin). cbn [snd].
    apply (Hi i). unfold sp_get. apply In_col_get; auto. apply Cw.
  - rewrite f2r_0, Rabs_R0, Rplus_0_l. rewrite Hl; [exact Hb|]. now rewrite f2r_0, Rabs_R0.
  - split; auto. rewrite E, f2r_0, Rplus_0_l. now apply Hl.
Qed.

(** ** General doubles *)
Lemma approx_step2 k acc S x X : approx_sum k acc S -> approx_sum k x X -> (1 + u64) ^ (k + 1) * (S + X) < overflow ->
  approx_sum (k + 1) (wadd acc x) (S + X).
Proof.
  intros Ha Hx Hr. pose proof (approx_upper _ _ _ Ha) as U. pose proof (approx_upper _ _ _ Hx) as Ux.
  destruct Ha as (Da & Pa & PS & E). destruct Hx as (Dx & Px & PX & Ex).
  pose proof u64_pos as Hu. pose proof (pow_u_ge1 k) as Hk.
  pose proof (add_rel_error acc x Da Dx) as RE. rewrite (Rabs_pos_eq (f2r acc + f2r x)) in RE by lra.
  assert (f2r acc + f2r x <= (1 + u64) ^ k * (S + X)) as U2 by lra.
  assert (0 <= rnd64 (f2r acc + f2r x)) as Hnn by (apply rnd_nonneg; lra).
  assert ((1 + u64) ^ (k + 1) = (1 + u64) ^ k * (1 + u64)) as Ek by (rewrite pow_add; ring). rewrite Ek in Hr.
  assert (rnd64 (f2r acc + f2r x) <= (1 + u64) ^ k * (1 + u64) * (S + X)) as U3 by (apply Rabs_le_inv in RE; nra).
  destruct (fadd_spec acc x Da Dx) as [D Ev]; [unfold in_range; rewrite Rabs_pos_eq; unfold overflow in *; lra|].
  split; auto. rewrite Ev. split; auto. split; [lra|].
  replace (rnd64 (f2r acc + f2r x) - (S + X)) with ((rnd64 (f2r acc + f2r x) - (f2r acc + f2r x)) + ((f2r acc - S) + (f2r x - X))) by ring.
  apply (Rle_trans _ _ _ (Rabs_triang _ _)). pose proof (Rabs_triang (f2r acc - S) (f2r x - X)) as T.
  assert (u64 * (f2r acc + f2r x) <= u64 * ((1 + u64) ^ k * (S + X))) by (apply Rmult_le_compat_l; lra).
  rewrite Ek. nra.
Qed.
Lemma approx_fold {A : Type} (f : A -> f64) (F : A -> R) l : forall k acc S, approx_sum k acc S ->
  (forall x, In x l -> approx_sum k (f x) (F x)) -> (1 + u64) ^ (k + length l) * (S + lsum F l) < overflow ->
  approx_sum (k + length l) (fold_left wadd (map f l) acc) (S + lsum F l).
Proof.
  induction l as [|x l IH]; intros k acc S Ha Hl Hr; cbn [map fold_left lsum length] in *.
  - rewrite Nat.add_0_r, Rplus_0_r. exact Ha.
  - replace (k + Datatypes.S (length l))%nat with ((k + 1) + length l)%nat in * by lia.
    replace (S + (F x + lsum F l)) with ((S + F x) + lsum F l) in * by ring.
    assert (forall y, In y l -> 0 <= F y) as Hnn by (intros y Hy; apply (Hl y); now right).
    assert (0 <= lsum F l) by (now apply lsum_nonneg).
    assert (approx_sum k (f x) (F x)) as Hx by (apply Hl; now left).
    assert (0 <= S /\ 0 <= F x) as [HS HF] by (split; [apply Ha|apply Hx]).
    apply IH; auto.
    + apply approx_step2; auto. apply Rle_lt_trans with (2 := Hr).
      pose proof u64_pos. assert ((1 + u64) ^ (k + 1) <= (1 + u64) ^ (k + 1 + length l)) by (apply Rle_pow; [lra|lia]).
      apply Rmult_le_compat; try lra. apply pow_le. lra.
    + intros y Hy. apply (approx_weaken k); [lia|]. apply Hl. now right.
Qed.

Lemma row_list_length g v : reachable g -> length (row_list (g_adj g) v) = row_entries g v.
Proof.
  intros Hr. destruct (reachable_ok g Hr) as [(_ & C & _) _]. unfold row_list, row_entries, number_of_vertices. rewrite C.
  induction (seq 0 (g_n g)) as [|k l IH]; cbn [flat_map filter]; auto. destruct (sp_get (g_adj g) v k); cbn [app length]; auto.
Qed.
Lemma weight_approx g u v : finite_weights g -> approx_sum 0 (weight g u v) (fw g u v).
Proof.
  intros Hf. unfold fw, weight, coeff. destruct (sp_get (g_adj g) u v) as [x|] eqn:G; cbn [o0].
  - apply approx_exact; now apply (Hf u v).
  - apply approx_exact; [apply dbl_0|rewrite f2r_0; lra].
Qed.
Lemma fw_nonneg g u v : finite_weights g -> 0 <= fw g u v.
Proof. intros Hf. apply (weight_approx g u v Hf). Qed.
Lemma fdeg_nonneg g v : finite_weights g -> 0 <= fdeg g v.
Proof. intros Hf. unfold fdeg. pose proof (fw_nonneg g v v Hf). assert (0 <= rsum (number_of_vertices g) (fw g v)) by (apply rsum_nonneg; intros; now apply fw_nonneg). lra. Qed.

Definition deg_val (g : graph f64) v : f64 := wadd (sp_rowsum (g_adj g) v) (weight g v v).
Lemma degree_formula (g : graph f64) v : reachable g -> (v < number_of_vertices g)%nat ->
  snd (degree g (Z.of_nat v)) = Ok (deg_val g v).
Proof.
  unfold number_of_vertices. intros Hr Hv. destruct (reachable_ok g Hr) as [(_ & C & Hw) Hc].
  unfold degree. rewrite check_vertex_ok by lia. rewrite Nat2Z.id. simpl.
  destruct (init_deg_spec g Hc) as (_ & _ & ->). unfold coeff at 1, deg_mat. rewrite sp_get_diag, C, Nat.eqb_refl.
  destruct (Nat.ltb_spec v (g_n g)); [reflexivity|lia].
Qed.
Lemma volume_formula (g : graph f64) : reachable g ->
  snd (total_volume g) = wsum (map (deg_val g) (seq 0 (number_of_vertices g))).
Proof.
  intros Hr. destruct (reachable_ok g Hr) as [(_ & C & Hw) Hc]. unfold total_volume. cbn [snd].
  destruct (init_deg_spec g Hc) as (_ & _ & ->). unfold deg_mat. rewrite sp_values_diag, C. reflexivity.
Qed.
Lemma lap_formula (g : graph f64) u v : reachable g -> (u < number_of_vertices g)%nat -> (v < number_of_vertices g)%nat ->
  coeff (snd (mat_query QLap g)) u v =
  if Nat.eqb u v then wsub (deg_val g u) (weight g u u)
  else match sp_get (g_adj g) u v with Some x => wsub w0 x | None => w0 end.
Proof.
  unfold number_of_vertices. intros Hr Hu Hv. destruct (reachable_ok g Hr) as [Hok Hc].
  rewrite (proj2 (proj2 (mat_query_spec QLap g Hc))). unfold coeff at 1. rewrite (laplacian_get _ _ _ _ Hok).
  destruct (Nat.eqb_spec u v) as [->|Hne]; cbn [andb].
  - destruct (Nat.ltb_spec v (g_n g)); [reflexivity|lia].
  - destruct (sp_get (g_adj g) u v); reflexivity.
Qed.

Lemma rowsum_approx g v : reachable g -> finite_weights g ->
  (1 + u64) ^ (row_entries g v) * rsum (number_of_vertices g) (fw g v) < overflow ->
  approx_sum (row_entries g v) (sp_rowsum (g_adj g) v) (rsum (number_of_vertices g) (fw g v)).
Proof.
  intros Hr Hf Hb. destruct (reachable_ok g Hr) as [(_ & C & Hw) _].
  rewrite rowsum_fold by (intros k x G; now apply (Hf v k)). rewrite <- row_list_length in * by auto.
  assert (rsum (number_of_vertices g) (fw g v) = 0 + lsum f2r (row_list (g_adj g) v)) as E.
  { rewrite (row_list_sum _ v f2r) by reflexivity. rewrite C. unfold number_of_vertices. rewrite Rplus_0_l. reflexivity. }
  rewrite E in *. unfold wsum. rewrite <- (map_id (row_list (g_adj g) v)) at 2.
  rewrite <- (Nat.add_0_l (length (row_list (g_adj g) v))). apply (approx_fold (fun x => x) f2r); auto.
  - rewrite <- f2r_0. apply approx_exact; [apply dbl_0|rewrite f2r_0; lra].
  - intros x Hx. destruct (row_list_in _ _ _ Hx) as [k G]. apply approx_exact; now apply (Hf v k).
Qed.
Lemma deg_approx g v : reachable g -> finite_weights g ->
  (1 + u64) ^ (row_entries g v + 1) * fdeg g v < overflow -> approx_sum (row_entries g v + 1) (deg_val g v) (fdeg g v).
Proof.
  intros Hr Hf Hb. unfold deg_val, fdeg in *. apply approx_step2; auto.
  - apply rowsum_approx; auto. apply Rle_lt_trans with (2 := Hb). pose proof u64_pos.
    assert ((1 + u64) ^ row_entries g v <= (1 + u64) ^ (row_entries g v + 1)) by (apply Rle_pow; [lra|lia]).
    assert (0 <= rsum (number_of_vertices g) (fw g v)) by (apply rsum_nonneg; intros; now apply fw_nonneg).
    pose proof (fw_nonneg g v v Hf). apply Rmult_le_compat; try lra. apply pow_le. lra.
  - apply (approx_weaken 0); [lia|]. now apply weight_approx.
Qed.

(** degree: relative error of (number of stored neighbours + 1) roundings. *)
Theorem degree_error g v : reachable g -> finite_weights g -> (v < number_of_vertices g)%nat ->
  (1 + u64) ^ (row_entries g v + 1) * fdeg g v < overflow ->
  exists d, snd (degree g (Z.of_nat v)) = Ok d /\ dbl d /\
    Rabs (f2r d - fdeg g v) <= gam (row_entries g v + 1) * fdeg g v.
Proof.
  intros Hr Hf Hv Hb. exists (deg_val g v). split; [now apply degree_formula|].
  destruct (deg_approx g v Hr Hf Hb) as (D & _ & _ & E). split; auto.
Qed.
Lemma row_entries_le g v : (row_entries g v <= number_of_vertices g)%nat.
Proof. unfold row_entries. rewrite <- (seq_length (number_of_vertices g) 0) at 2.
  induction (seq 0 (number_of_vertices g)) as [|x l IH]; cbn [filter length]; auto. destruct (sp_get (g_adj g) v x); cbn [length]; lia.
Qed.
Theorem volume_error g : reachable g -> finite_weights g ->
  (1 + u64) ^ (2 * number_of_vertices g + 1) * fvol g < overflow ->
  dbl (snd (total_volume g)) /\
  Rabs (f2r (snd (total_volume g)) - fvol g) <= gam (2 * number_of_vertices g + 1) * fvol g.
Proof.
  intros Hr Hf Hb. set (n := number_of_vertices g) in *. rewrite volume_formula by auto. fold n.
  assert (approx_sum (n + 1 + length (seq 0 n)) (fold_left wadd (map (deg_val g) (seq 0 n)) w0) (0 + lsum (fdeg g) (seq 0 n))) as A.
  { apply approx_fold.
    - apply (approx_weaken 0); [lia|]. rewrite <- f2r_0. apply approx_exact; [apply dbl_0|rewrite f2r_0; lra].
    - intros v Hv. apply in_seq in Hv. pose proof (row_entries_le g v) as Le. fold n in Le.
      apply (approx_weaken (row_entries g v + 1)); [lia|]. apply deg_approx; auto.
      apply Rle_lt_trans with (2 := Hb). pose proof u64_pos.
      assert ((1 + u64) ^ (row_entries g v + 1) <= (1 + u64) ^ (2 * n + 1)) by (apply Rle_pow; [lra|lia]).
      assert (fdeg g v <= fvol g) by (unfold fvol; fold n; apply (rsum_ge_elt n (fdeg g) v); [intros; now apply fdeg_nonneg|lia]).
      pose proof (fdeg_nonneg g v Hf). apply Rmult_le_compat; try lra. apply pow_le. lra.
    - rewrite seq_length, Rplus_0_l. replace (n + 1 + n)%nat with (2 * n + 1)%nat by lia. exact Hb. }
  rewrite seq_length, Rplus_0_l in A. replace (n + 1 + n)%nat with (2 * n + 1)%nat in A by lia.
  destruct A as (D & _ & _ & E). split; auto.
Qed.
(** Laplacian: off-diagonal entries exact, diagonal entries with one more rounding. *)
Theorem laplacian_error g u v : reachable g -> finite_weights g -> (u < number_of_vertices g)%nat -> (v < number_of_vertices g)%nat ->
  (u <> v -> f2r (coeff (snd (mat_query QLap g)) u v) = - fw g u v) /\
  (u = v -> (1 + u64) ^ (row_entries g v + 2) * fdeg g v < overflow ->
     Rabs (f2r (coeff (snd (mat_query QLap g)) u v) - (fdeg g v - fw g v v)) <= gam (row_entries g v + 2) * fdeg g v).
Proof.
  intros Hr Hf Hu Hv. rewrite lap_formula by auto. split.
  - intros Hne. destruct (Nat.eqb_spec u v); [contradiction|]. unfold fw, weight, coeff.
    destruct (sp_get (g_adj g) u v) as [x|] eqn:G; cbn [o0].
    + destruct (Hf _ _ _ G) as [Dx Px]. assert (rnd64 (f2r w0 - f2r x) = - f2r x) as E.
      { rewrite f2r_0. replace (0 - f2r x) with (- f2r x) by ring. apply rnd_format. apply generic_format_opp. now apply dbl_format. }
      destruct (fsub_spec w0 x dbl_0 Dx) as [_ Ev]; [|now rewrite Ev].
      rewrite E. unfold in_range. rewrite Rabs_Ropp. now apply dbl_range.
    + rewrite f2r_0. lra.
  - intros -> Hb. rewrite Nat.eqb_refl. pose proof u64_pos as Hu0.
    set (k := (row_entries g v + 1)%nat) in *. replace (row_entries g v + 2)%nat with (k + 1)%nat in * by (unfold k; lia).
    pose proof (fdeg_nonneg g v Hf) as Hd. pose proof (pow_u_ge1 k) as Hk1.
    assert ((1 + u64) ^ (k + 1) = (1 + u64) ^ k * (1 + u64)) as Ek by (rewrite pow_add; ring).
    assert (approx_sum k (deg_val g v) (fdeg g v)) as Ha.
    { apply deg_approx; auto. fold k. apply Rle_lt_trans with (2 := Hb). rewrite Ek.
      apply Rmult_le_compat_r; auto. nra. }
    pose proof (approx_upper _ _ _ Ha) as U. destruct Ha as (Da & Pa & _ & Ea).
    destruct (weight_approx g v v Hf) as (Dw & Pw & _ & _). fold (fw g v v) in Pw.
    pose proof (sub_rel_error _ _ Da Dw) as RE. fold (fw g v v) in RE.
    assert (fw g v v <= fdeg g v) as Hwd.
    { unfold fdeg. assert (0 <= rsum (number_of_vertices g) (fw g v)) by (apply rsum_nonneg; intros; now apply fw_nonneg). lra. }
    assert (Rabs (f2r (deg_val g v) - fw g v v) <= (1 + u64) ^ k * fdeg g v) as Ab.
    { apply Rabs_le. split; [|lra].
      assert (fdeg g v <= (1 + u64) ^ k * fdeg g v) by (rewrite <- (Rmult_1_l (fdeg g v)) at 1; apply Rmult_le_compat_r; lra). lra. }
    assert (Rabs (rnd64 (f2r (deg_val g v) - fw g v v)) <= (1 + u64) ^ (k + 1) * fdeg g v) as Rb.
    { replace (rnd64 (f2r (deg_val g v) - fw g v v)) with
        ((rnd64 (f2r (deg_val g v) - fw g v v) - (f2r (deg_val g v) - fw g v v)) + (f2r (deg_val g v) - fw g v v)) by ring.
      apply (Rle_trans _ _ _ (Rabs_triang _ _)). rewrite Ek. nra. }
    destruct (fsub_spec _ _ Da Dw) as [_ Ev]; [unfold in_range; fold (fw g v v); unfold overflow in *; lra|].
    rewrite Ev. fold (fw g v v).
    replace (rnd64 (f2r (deg_val g v) - fw g v v) - (fdeg g v - fw g v v)) with
      ((rnd64 (f2r (deg_val g v) - fw g v v) - (f2r (deg_val g v) - fw g v v)) + (f2r (deg_val g v) - fdeg g v)) by ring.
    apply (Rle_trans _ _ _ (Rabs_triang _ _)). unfold gam. rewrite Ek. nra.
Qed.

(** ** Integer weights: everything is exact *)
Definition two53 : R := bpow radix2 53.
Lemma int_finite g : int_weights g -> finite_weights g.
Proof. intros Hi i j v G. destruct (Hi i j v G). split; auto. now apply isint_dbl. Qed.
Lemma int_weight g u v : int_weights g -> isint (weight g u v).
Proof.
  intros Hi. unfold weight, coeff. destruct (sp_get (g_adj g) u v) as [x|] eqn:G; cbn [o0]; [now apply (Hi u v)|apply isint_0].
Qed.
Section Int.
  Variable g : graph f64.
  Hypothesis Hr : reachable g.
  Hypothesis Hi : int_weights g.
  Hypothesis Hvol : fvol g <= two53.
  Let n := number_of_vertices g.
  Lemma deg_le_vol v : (v < n)%nat -> fdeg g v <= two53.
  Proof.
    intros Hv. apply Rle_trans with (2 := Hvol). unfold fvol. apply (rsum_ge_elt n (fdeg g) v); auto.
    intros; apply fdeg_nonneg. now apply int_finite.
  Qed.
  Lemma rowsum_exact v : (v < n)%nat -> isint (sp_rowsum (g_adj g) v) /\ f2r (sp_rowsum (g_adj g) v) = rsum n (fw g v).
  Proof.
    intros Hv. destruct (reachable_ok g Hr) as [(_ & C & _) _].
    destruct (rowsum_int (g_adj g) v) as [I E].
    - intros k x G. now apply (Hi v k).
    - rewrite C. pose proof (deg_le_vol v Hv) as L. unfold fdeg in L. fold two53.
      rewrite (rsum_ext _ _ (fw g v)) by (intros k _; apply Rabs_pos_eq, (fw_nonneg g v k (int_finite g Hi))).
      pose proof (fw_nonneg g v v (int_finite g Hi)). unfold number_of_vertices in L. lra.
    - split; auto. rewrite E, C. reflexivity.
  Qed.
  Lemma deg_val_exact v : (v < n)%nat -> isint (deg_val g v) /\ f2r (deg_val g v) = fdeg g v.
  Proof.
    intros Hv. destruct (rowsum_exact v Hv) as [I E]. unfold deg_val.
    destruct (isint_add (sp_rowsum (g_adj g) v) (weight g v v)) as [I2 E2]; auto; [now apply int_weight| |].
    - rewrite E. fold (fw g v v). change (rsum n (fw g v) + fw g v v) with (fdeg g v).
      rewrite Rabs_pos_eq by (apply fdeg_nonneg; now apply int_finite). now apply deg_le_vol.
    - split; auto. now rewrite E2, E.
  Qed.
  Theorem int_degree v : (v < n)%nat -> exists d, snd (degree g (Z.of_nat v)) = Ok d /\ isint d /\ f2r d = fdeg g v.
  Proof. intros Hv. exists (deg_val g v). split; [now apply degree_formula|now apply deg_val_exact]. Qed.
  Theorem int_volume : isint (snd (total_volume g)) /\ f2r (snd (total_volume g)) = fvol g.
  Proof.
    rewrite volume_formula by auto. fold n. unfold wsum.
    assert (forall x, In x (map (deg_val g) (seq 0 n)) -> isint x) as Hx.
    { intros x Hx. apply in_map_iff in Hx. destruct Hx as (v & <- & Hv). apply in_seq in Hv. apply deg_val_exact. lia. }
    assert (lsum f2r (map (deg_val g) (seq 0 n)) = fvol g) as Es.
    { rewrite lsum_map. unfold fvol, rsum. apply lsum_ext. intros v Hv. apply in_seq in Hv. apply deg_val_exact. lia. }
    destruct (isint_sum (map (deg_val g) (seq 0 n)) w0 isint_0 Hx) as [I E].
    - rewrite f2r_0, Rabs_R0, Rplus_0_l.
      rewrite (lsum_ext _ f2r); [rewrite Es; exact Hvol|]. intros x Hin. apply in_map_iff in Hin. destruct Hin as (v & <- & Hv). apply in_seq in Hv.
      rewrite (proj2 (deg_val_exact v ltac:(lia))). apply Rabs_pos_eq. apply fdeg_nonneg. now apply int_finite.
    - split; auto. rewrite E, Es, f2r_0. lra.
  Qed.
  Theorem int_laplacian u v : (u < n)%nat -> (v < n)%nat ->
    isint (coeff (snd (mat_query QLap g)) u v) /\
    f2r (coeff (snd (mat_query QLap g)) u v) = (if Nat.eqb u v then fdeg g u else 0) - fw g u v.
  Proof.
    intros Hu Hv. rewrite lap_formula by auto. destruct (Nat.eqb_spec u v) as [<-|Hne].
    - destruct (deg_val_exact u Hu) as [I E]. pose proof (deg_le_vol u Hu) as L.
      pose proof (fw_nonneg g u u (int_finite g Hi)) as P.
      assert (fw g u u <= fdeg g u) as Q.
      { unfold fdeg. assert (0 <= rsum (number_of_vertices g) (fw g u)) by (apply rsum_nonneg; intros; apply fw_nonneg; now apply int_finite). lra. }
      destruct (isint_sub (deg_val g u) (weight g u u)) as [I2 E2]; auto; [now apply int_weight|rewrite E; fold (fw g u u); rewrite Rabs_pos_eq; fold two53; lra|].
      split; auto. now rewrite E2, E.
    - unfold fw, weight, coeff. destruct (sp_get (g_adj g) u v) as [x|] eqn:G; cbn [o0].
      + destruct (Hi _ _ _ G) as [Ix Px].
        destruct (isint_sub w0 x isint_0 Ix) as [I2 E2]; [|split; auto; now rewrite E2, f2r_0].
        rewrite f2r_0. replace (0 - f2r x) with (- f2r x) by ring. rewrite Rabs_Ropp. destruct Ix as (z & Hz & ->).
        rewrite (proj2 (zf_spec z Hz)). now apply small_R.
      + split; [apply isint_0|]. rewrite f2r_0. lra.
  Qed.
  Lemma wnat_int k : (Z.of_nat k <= 2 ^ 53)%Z -> wnat k = zf (Z.of_nat k).
  Proof.
    induction k as [|k IH]; intros L; [reflexivity|]. cbn [wnat]. rewrite IH by lia. rewrite <- zf_1, zf_add by (unfold small_int; lia).
    f_equal. lia.
  Qed.
  (** average_degree is the correctly rounded quotient of the exact volume. *)
  Theorem int_average : (0 < n)%nat -> (Z.of_nat n <= 2 ^ 53)%Z ->
    f2r (snd (average_degree g)) = rnd64 (fvol g / INR n).
  Proof.
    intros Hn Hs. destruct int_volume as [I E]. unfold average_degree in *.
    destruct (total_volume g) as [g1 vol] eqn:Et. cbn [snd] in *.
    assert (g_n g1 = n) as E1.
    { unfold total_volume in Et. injection Et as <- _. destruct (reachable_ok g Hr) as [_ Hc]. destruct (init_deg_spec g Hc) as (_ & (B & _) & _). symmetry. exact B. }
    rewrite E1, wnat_int by auto.
    assert (small_int (Z.of_nat n)) as Sn by (unfold small_int; lia).
    destruct (zf_spec _ Sn) as [Dn En].
    assert (1 <= INR n) as N1 by (apply (le_INR 1); lia).
    assert (0 <= fvol g) as V0 by (unfold fvol; apply rsum_nonneg; intros; apply fdeg_nonneg; now apply int_finite).
    destruct (fdiv_spec vol (zf (Z.of_nat n)) (isint_dbl _ I) Dn) as [_ Ev].
    - rewrite En, <- INR_IZR_INZ. lra.
    - rewrite E, En, <- INR_IZR_INZ. unfold in_range.
      assert (fvol g / INR n <= two53) as L.
      { apply Rle_trans with (2 := Hvol). apply (Rmult_le_reg_r (INR n)); [lra|]. unfold Rdiv. rewrite Rmult_assoc, Rinv_l, Rmult_1_r by lra. nra. }
      assert (0 <= fvol g / INR n) as P by (unfold Rdiv; apply Rmult_le_pos; auto; left; apply Rinv_0_lt_compat; lra).
      rewrite Rabs_pos_eq by (now apply rnd_nonneg).
      apply Rle_lt_trans with two53; [|apply bpow_lt; lia].
      assert (rnd64 two53 = two53) as <- by (unfold two53; rewrite <- B53; apply rnd_int; unfold small_int; lia).
      apply round_le; auto; [apply FLT_exp_valid; reflexivity|apply valid_rnd_N].
    - rewrite Ev, E, En, <- INR_IZR_INZ. reflexivity.
  Qed.
End Int.

(** Laplacian round trip for integer weights. *)
Lemma isint_ltb x y : isint x -> isint y -> (wltb x y = true <-> f2r x < f2r y).
Proof. intros. apply fltb_spec; now apply isint_dbl. Qed.
Lemma isint_ltb_false x y : isint x -> isint y -> (wltb x y = false <-> f2r y <= f2r x).
Proof.
  intros Ix Iy. destruct (wltb x y) eqn:E; [apply isint_ltb in E; auto; split; [discriminate|lra]|].
  split; auto. intros _. destruct (Rle_dec (f2r y) (f2r x)); auto. exfalso. assert (wltb x y = true) by (apply isint_ltb; auto; lra). congruence.
Qed.
Lemma eps_bounds : dbl f64_eps /\ 0 < f2r f64_eps < 1.
Proof.
  split; [split; vm_compute; reflexivity|]. unfold f2r, f64_eps. cbn [SF2R]. split; [now apply F2R_gt_0|].
  unfold F2R. cbn [Fnum Fexp cond_Zopp]. apply Rlt_le_trans with (IZR (2 ^ 53) * bpow radix2 (-86)).
  - apply Rmult_lt_compat_r; [apply bpow_gt_0|apply IZR_lt; lia].
  - rewrite B53, <- bpow_plus. change 1 with (bpow radix2 0). apply bpow_le. lia.
Qed.
Lemma isint_pos_eps x : isint x -> 0 < f2r x -> wltb weps x = true.
Proof.
  intros (z & Hz & ->) P. destruct (zf_spec z Hz) as [D E]. destruct eps_bounds as [De [_ L]].
  apply (fltb_spec f64_eps (zf z) De D). rewrite E in *. apply (lt_IZR 0 z) in P. assert (1 <= IZR z) by (apply (IZR_le 1); lia). lra.
Qed.
Lemma isint_opp_sub x : isint x -> wopp (wsub w0 x) = x \/ x = w0.
Proof.
  intros (z & Hz & ->). destruct (Z.eq_dec z 0) as [->|Nz]; [now right|left].
  rewrite <- zf_0, zf_sub by (unfold small_int in *; lia). replace (0 - z)%Z with (- z)%Z by lia.
  assert (small_int (- z)) as Hz' by (unfold small_int in *; lia).
  destruct (zbin_spec _ Hz') as (B1 & B2 & B3). rewrite (zf_bin (- z)).
  assert (@wopp f64 NumF64 (B2SF (zbin (- z))) = B2SF (Bopp (zbin (- z)))) as Eo by (destruct (zbin (- z)); reflexivity).
  eapply eq_trans; [exact Eo|]. clear Eo.
  assert (is_finite (Bopp (zbin (- z))) = true) as Fo by (now rewrite is_finite_Bopp).
  destruct (bin_dbl _ Fo) as [D E]. apply zf_complete; auto.
  - rewrite E, B2R_Bopp, B1, opp_IZR. lra.
  - intros Ez. rewrite Ez in E. rewrite B2R_Bopp, B1, opp_IZR in E. cbn in E. apply Nz. apply eq_IZR. lra.
Qed.

Section Round.
  Variable g : graph f64.
  Hypothesis Hr : reachable g.
  Hypothesis Hi : int_weights g.
  Hypothesis Hvol : fvol g <= two53.
  Hypothesis Hnz : no_stored_zero g.
  Let n := number_of_vertices g.
  Let A := g_adj g.
  Let L := mat_formula QLap A.
  Lemma rt_pos i j v : sp_get A i j = Some v -> isint v /\ 0 < f2r v /\ wltb weps v = true.
  Proof.
    intros G. destruct (Hi _ _ _ G) as [I P]. assert (0 < f2r v) as P'.
    { destruct (Req_dec (f2r v) 0) as [E|]; [|lra]. exfalso. pose proof (Hnz _ _ _ G) as N.
      assert (v = w0) as -> by (apply isint_inj; auto; apply isint_0). discriminate N. }
    split; auto. split; auto. now apply isint_pos_eps.
  Qed.
  Lemma rt_sym i j : fw g i j = fw g j i.
  Proof. pose proof (reachable_sym g Hr) as S. unfold fw, weight, coeff. now rewrite (S i j). Qed.
  Lemma rt_Lq : snd (mat_query QLap g) = L.
  Proof. apply query_formula. exact Hr. Qed.
  Lemma rt_lv i j : (i < n)%nat -> (j < n)%nat -> f2r (coeff L i j) = (if Nat.eqb i j then fdeg g i else 0) - fw g i j.
  Proof. intros. rewrite <- rt_Lq. now apply int_laplacian. Qed.
  Lemma rt_fw_le i k : (k < n)%nat -> fw g i k <= fdeg g i.
  Proof.
    intros Hk. unfold fdeg. fold n. pose proof (fw_nonneg g i i (int_finite g Hi)).
    pose proof (rsum_ge_elt n (fw g i) k (fun x _ => fw_nonneg g i x (int_finite g Hi)) Hk). lra.
  Qed.
  Lemma rt_lv_abs i j : (i < n)%nat -> (j < n)%nat -> Rabs (f2r (coeff L i j)) <= fdeg g i.
  Proof.
    intros Hi0 Hj. rewrite rt_lv by auto. pose proof (fw_nonneg g i j (int_finite g Hi)). pose proof (rt_fw_le i j Hj).
    destruct (Nat.eqb i j); apply Rabs_le; lra.
  Qed.
  Theorem int_round_trip_mat : make_graph L = Ok (fresh_graph A).
  Proof.
    destruct (reachable_ok g Hr) as [Hsq Hc]. pose proof Hsq as (R0 & C & Hwf). fold A in R0, C, Hwf, Hsq.
    pose proof (reachable_sym g Hr) as Hs. fold A in Hs. change (g_n g) with n in *.
    assert (sp_square L n) as HLsq.
    { unfold L. simpl. unfold sp_square. split; [|split].
      - simpl. exact C.
      - unfold sp_sub. rewrite sp_merge_ncols; unfold deg_mat; rewrite sp_diag_ncols; auto.
      - unfold sp_sub. apply (sp_merge_wf wsub (deg_mat A) A n n); auto.
        + unfold deg_mat. now rewrite sp_diag_ncols.
        + apply deg_mat_wf. }
    pose proof HLsq as (RL & CL & HwL).
    assert (forall i j, sp_get L i j = _) as HL by (intros; apply (laplacian_get A _ _ n Hsq)).
    assert (forall i j v, sp_get L i j = Some v -> (i < n)%nat /\ (j < n)%nat /\ coeff L i j = v /\ isint v) as HLi.
    { intros i j v G. destruct (sp_get_lt _ _ _ _ HwL G) as [Hi0 Hj]. rewrite RL in Hi0. rewrite CL in Hj.
      assert (coeff L i j = v) as E by (unfold coeff; now rewrite G). split; auto. split; auto. split; auto.
      rewrite <- E, <- rt_Lq. now apply int_laplacian. }
    assert (forall i j, i <> j -> sp_get L i j = option_map (fun v => wsub w0 v) (sp_get A i j)) as HLo.
    { intros i j Hij. rewrite HL. destruct (Nat.eqb_spec i j); [contradiction|]. reflexivity. }
    assert (forall j, (j < n)%nat -> isint (sp_rowsum L j) /\ f2r (sp_rowsum L j) = fw g j j) as Hrow.
    { intros j Hj. destruct (rowsum_int L j) as [I E].
      - intros k v G. now apply (HLi j k).
      - rewrite CL. apply Rle_trans with (fvol g); [|exact Hvol]. unfold fvol. fold n. apply rsum_le. intros k Hk.
        rewrite rt_lv by auto. rewrite rt_sym. pose proof (fw_nonneg g k j (int_finite g Hi)). pose proof (rt_fw_le k j Hj).
        destruct (Nat.eqb_spec j k) as [<-|]; apply Rabs_le; lra.
      - split; auto. rewrite E, CL. rewrite (rsum_ext n _ (fun k => (if Nat.eqb j k then fdeg g j else 0) - fw g j k)) by (intros; now apply rt_lv).
        rewrite rsum_minus, (rsum_delta' n j (fun _ => fdeg g j)) by auto. unfold fdeg. fold n. change (fun k => fw g j k) with (fw g j). lra. }
    assert (forall i j v, sp_get A i j = Some v -> wopp (wsub w0 v) = v) as Hopp.
    { intros i j v G. destruct (rt_pos _ _ _ G) as (I & P & _). destruct (isint_opp_sub v I) as [E|E]; auto. subst v. rewrite f2r_0 in P. lra. }
    assert (forall i j v, sp_get A i j = Some v -> isint (wsub w0 v) /\ f2r (wsub w0 v) = - f2r v) as Hneg.
    { intros i j v G. destruct (rt_pos _ _ _ G) as (I & P & _).
      destruct (isint_sub w0 v isint_0 I) as [I2 E2]; [|split; auto; rewrite E2, f2r_0; lra].
      rewrite f2r_0. replace (0 - f2r v) with (- f2r v) by ring. rewrite Rabs_Ropp. destruct I as (z & Hz & ->).
      rewrite (proj2 (zf_spec z Hz)). now apply small_R. }
    assert (adjacency_from_adj_or_lap L = Ok A) as Hadj.
    { unfold adjacency_from_adj_or_lap. destruct (found_negative L) eqn:En.
      - assert (positive_off_diagonal L = false) as ->.
        { destruct (positive_off_diagonal L) eqn:Ep; auto. exfalso.
          unfold positive_off_diagonal in Ep. apply existsb_exists in Ep. destruct Ep as [[k c] [Hin Hc0]].
          unfold sp_ncols in Hin. rewrite (In_combine_seq _ 0 k _ []) in Hin. destruct Hin as [Hk ->].
          rewrite Nat.sub_0_r in Hc0. apply existsb_exists in Hc0. destruct Hc0 as [[i v] [Hin Hv]].
          apply andb_true_iff in Hv. destruct Hv as [Hv Hik]. cbn [fst snd] in Hv, Hik.
          apply negb_true_iff in Hv, Hik. apply Nat.eqb_neq in Hik.
          assert (sp_get L i k = Some v) as G by (apply In_col_get; [apply (sp_wf_col L k HwL)|exact Hin]).
          rewrite HLo in G by auto. destruct (sp_get A i k) as [x|] eqn:Gx; [|discriminate]. injection G as <-.
          destruct (Hneg _ _ _ Gx) as [I2 E2]. destruct (rt_pos _ _ _ Gx) as (_ & P & _).
          apply isint_ltb_false in Hv; auto; [|apply isint_0]. rewrite f2r_0 in Hv. apply (Rle_trans _ _ _ Hv) in E2 || (change (0 <= f2r (@wsub f64 NumF64 w0 x)) in Hv; rewrite E2 in Hv; lra). }
        assert (diagonally_dominant L = true) as ->.
        { unfold diagonally_dominant. apply forallb_forall. intros c Hc0.
          destruct (In_nth _ _ [] Hc0) as [k [Hk <-]]. fold (sp_col L k). apply negb_true_iff.
          unfold sp_ncols in CL. rewrite CL in Hk.
          destruct (colsum_int L k n HwL RL) as [I E].
          - intros i v G. now apply (HLi i k).
          - apply Rle_trans with (fvol g); [|exact Hvol]. unfold fvol. fold n. apply rsum_le. intros i Hi0. now apply rt_lv_abs.
          - apply isint_ltb_false; auto; [apply isint_0|]. rewrite E, f2r_0.
            rewrite (rsum_ext n _ (fun i => (if Nat.eqb i k then fdeg g k else 0) - fw g k i)).
            + rewrite rsum_minus, (rsum_delta n k (fun _ => fdeg g k)) by auto. unfold fdeg. fold n.
              change (fun i => fw g k i) with (fw g k). pose proof (fw_nonneg g k k (int_finite g Hi)). lra.
            + intros i Hi0. rewrite rt_lv by auto. rewrite (rt_sym i k). destruct (Nat.eqb_spec i k) as [->|]; auto. }
        cbn [negb obind]. f_equal.
        set (B := fold_left (fun A0 i => coeffRef_set A0 i i (sp_rowsum L i)) (seq 0 (sp_ncols L)) (sp_map wopp L)).
        assert (sp_square B n) as (RB & CB & HwB).
        { destruct (lap_diag_shape L (seq 0 (sp_ncols L)) (sp_map wopp L)) as (R' & C' & Hw').
          - intros i Hin. apply in_seq in Hin. cbn [sp_map sp_rows]. rewrite RL. rewrite CL in Hin. lia.
          - now apply sp_map_wf.
          - fold B in R', C', Hw'. split; [simpl in R'; congruence|]. rewrite C', sp_map_ncols. auto. }
        apply sp_ext.
        + simpl. congruence.
        + rewrite sp_prune_ncols. congruence.
        + now apply sp_prune_wf.
        + exact Hwf.
        + intros i j Hi0 Hj. simpl in Hi0. rewrite sp_prune_ncols in Hj. rewrite sp_get_prune by auto.
          unfold B. rewrite sp_get_lap_diag.
          * rewrite existsb_eqb_seq, CL, sp_get_map.
            destruct (Nat.eqb_spec i j) as [->|Hij]; cbn [andb].
            -- rewrite CB in Hj. destruct (Nat.ltb_spec j n); [|lia]. destruct (Hrow j Hj) as [Ir Er].
               destruct (sp_get A j j) as [x|] eqn:G.
               ++ destruct (rt_pos _ _ _ G) as (Ix & _ & Hx).
                  assert (sp_rowsum L j = x) as ->; [|now rewrite Hx].
                  apply isint_inj; auto. rewrite Er. unfold fw, weight, coeff. fold A. now rewrite G.
               ++ assert (sp_rowsum L j = w0) as ->; [|now rewrite pn_0].
                  apply isint_inj; [auto|apply isint_0|]. rewrite Er. unfold fw, weight, coeff. fold A. now rewrite G.
            -- rewrite HLo by auto. destruct (sp_get A i j) as [x|] eqn:G; cbn [option_map]; auto.
               rewrite (Hopp _ _ _ G). destruct (rt_pos _ _ _ G) as (_ & _ & ->). reflexivity.
          * intros k Hk. apply in_seq in Hk. rewrite sp_map_ncols. cbn [sp_map sp_rows]. rewrite RL. rewrite CL in Hk |- *. lia.
          * now apply sp_map_wf.
          * apply seq_NoDup.
      - cbn [obind]. f_equal.
        assert (forall i j, i <> j -> sp_get A i j = None) as Hoff.
        { intros i j Hij. destruct (sp_get A i j) as [x|] eqn:G; auto. exfalso.
          assert (found_negative L = true); [|congruence]. apply found_negative_spec; auto.
          exists i, j, (wsub w0 x). split; [rewrite HLo by auto; now rewrite G|].
          destruct (Hneg _ _ _ G) as [I2 E2]. destruct (rt_pos _ _ _ G) as (_ & P & _).
          apply isint_ltb; auto; [apply isint_0|]. rewrite E2, f2r_0. lra. }
        apply sp_ext.
        + simpl. congruence.
        + rewrite sp_prune_ncols. congruence.
        + now apply sp_prune_wf.
        + exact Hwf.
        + intros i j Hi0 Hj. rewrite sp_prune_ncols in Hj. rewrite sp_get_prune by auto.
          destruct (Nat.eqb_spec i j) as [->|Hij].
          * rewrite CL in Hj.
            assert (exists v, sp_get L j j = Some v) as [v Gv].
            { rewrite HL, Nat.eqb_refl. destruct (Nat.ltb_spec j n); [|lia]. cbn [andb]. eauto. }
            destruct (HLi _ _ _ Gv) as (_ & _ & Ev & Iv). rewrite Gv.
            assert (f2r v = fw g j j) as Ed.
            { rewrite <- Ev, rt_lv, Nat.eqb_refl by auto. unfold fdeg. fold n.
              rewrite (rsum_ext n (fw g j) (fun k => if Nat.eqb j k then fw g j k else 0)).
              - rewrite (rsum_delta' n j (fun k => fw g j k)) by auto. lra.
              - intros k Hk. destruct (Nat.eqb_spec j k) as [<-|Hjk]; auto. unfold fw, weight, coeff. fold A. now rewrite Hoff. }
            destruct (sp_get A j j) as [x|] eqn:G.
            -- destruct (rt_pos _ _ _ G) as (Ix & _ & Hx).
               assert (v = x) as -> by (apply isint_inj; auto; rewrite Ed; unfold fw, weight, coeff; fold A; now rewrite G). now rewrite Hx.
            -- assert (v = w0) as -> by (apply isint_inj; [auto|apply isint_0|]; rewrite Ed; unfold fw, weight, coeff; fold A; now rewrite G).
               now rewrite pn_0.
          * rewrite HLo by auto. rewrite Hoff by auto. reflexivity. }
    unfold make_graph. rewrite RL, CL, Nat.eqb_refl, Hadj. simpl.
    assert (is_symmetric A = true) as ->; [|reflexivity].
    apply is_symmetric_spec; auto. intros i j v G. unfold coeff. rewrite (Hs j i), G.
    apply (@pn_refl f64 _ _ v). now apply (rt_pos i j).
  Qed.
  Theorem int_round_trip : exists g', make_graph (snd (mat_query QLap g)) = Ok g' /\
    number_of_vertices g' = number_of_vertices g /\ forall i j, weight g' i j = weight g i j.
  Proof.
    exists (fresh_graph A). rewrite rt_Lq. split; [apply int_round_trip_mat|]. split; [|reflexivity].
    destruct (reachable_ok g Hr) as [(R0 & C & _) _]. simpl. exact C.
  Qed.
End Round.
