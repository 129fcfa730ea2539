(** Normalised Laplacians and the lazy random walk (C14, C15). *)
From Verif Require Import Base Num RSum Sparse SparseFacts Graph GraphFacts GraphSpec GraphProps1 GraphProps2.
From Coq Require Import Sorting.Sorted Reals Lra.
Local Open Scope R_scope.

Section Exact.
  Context {W : Type} `{ExactNum W}.
  Implicit Types (g h : graph W) (M A : sprs W).

  Lemma deg_mat_diag g v : reachable g -> (v < g_n g)%nat ->
    toR (coeff (deg_mat (g_adj g)) v v) = rdeg g v.
  Proof.
    intros Hr Hv. destruct (reachable_ok g Hr) as [Hok _].
    fold (rcoeff (deg_mat (g_adj g)) v v). rewrite deg_mat_coeff by exact Hok.
    rewrite Nat.eqb_refl. cbn [andb]. destruct (Nat.ltb_spec v (g_n g)); [reflexivity|lia].
  Qed.

  Lemma inverse_degree_coeff g u v : reachable g -> (u < number_of_vertices g)%nat -> (v < number_of_vertices g)%nat ->
    rdeg g v <> 0 ->
    rcoeff (snd (mat_query QInv g)) u v = if (u =? v)%nat then / rdeg g v else 0.
  Proof.
    unfold number_of_vertices. intros Hr Hu Hv Hd. rewrite query_formula by auto. simpl. unfold inv_mat.
    destruct (reachable_ok g Hr) as [(R & C & Hwf) _].
    unfold rcoeff, coeff at 1. rewrite sp_get_diag, C.
    destruct (Nat.eqb_spec u v) as [->|]; cbn [andb]; [|apply toR_0].
    destruct (Nat.ltb_spec v (g_n g)); [|lia]. simpl.
    rewrite toR_div; rewrite deg_mat_diag by auto; auto. rewrite toR_1. unfold Rdiv. lra.
  Qed.

  Lemma toR_whalf : toR whalf = / 2.
  Proof. unfold whalf. rewrite toR_div; rewrite !toR_add, !toR_1; lra. Qed.

  Lemma lazy_walk_coeff g u v : reachable g -> (u < number_of_vertices g)%nat -> (v < number_of_vertices g)%nat ->
    rdeg g v <> 0 ->
    rcoeff (snd (mat_query QLrw g)) u v = (if (u =? v)%nat then / 2 else 0) + rw g u v / (2 * rdeg g v).
  Proof.
    unfold number_of_vertices. intros Hr Hu Hv Hd. rewrite query_formula by auto. simpl.
    destruct (reachable_ok g Hr) as [(R & C & Hwf) _].
    rewrite rcoeff_merge_add.
    - f_equal.
      + unfold rcoeff, coeff, identity_mat. rewrite sp_get_map, sp_get_diag, C.
        destruct (Nat.eqb_spec u v) as [->|]; cbn [andb]; [|apply toR_0].
        destruct (Nat.ltb_spec v (g_n g)); [|lia]. simpl. rewrite toR_mul, toR_1, toR_whalf. lra.
      + unfold rcoeff, coeff at 1. unfold inv_mat. rewrite sp_get_mul_diag_r; [|now apply sp_map_wf|apply sp_map_ncols].
        rewrite sp_get_map. unfold rw, weight, coeff. destruct (sp_get (g_adj g) u v); simpl.
        * rewrite !toR_mul, toR_whalf. rewrite toR_div; fold (coeff (deg_mat (g_adj g)) v v); rewrite deg_mat_diag by auto; auto.
          rewrite toR_1. field. auto.
        * rewrite toR_0. unfold Rdiv. lra.
    - apply sp_map_wf, sp_diag_wf.
    - apply sp_mul_diag_r_wf; [now apply sp_map_wf|apply sp_map_ncols].
    - unfold identity_mat, inv_mat. now rewrite sp_map_ncols, sp_mul_ncols, !sp_diag_ncols.
  Qed.

  (** Column sums of the lazy random walk matrix. *)
  Lemma lazy_walk_colsum g v : reachable g -> (v < number_of_vertices g)%nat -> rdeg g v <> 0 ->
    rsum (number_of_vertices g) (fun u => rcoeff (snd (mat_query QLrw g)) u v) = 1 - rw g v v / (2 * rdeg g v).
  Proof.
    intros Hr Hv Hd.
    rewrite (rsum_ext _ _ (fun u => (if (u =? v)%nat then / 2 else 0) + rw g u v * / (2 * rdeg g v)))
      by (intros; rewrite lazy_walk_coeff by auto; reflexivity).
    rewrite rsum_plus, rsum_scal_r, (rsum_delta _ v (fun _ => / 2)) by auto.
    assert (rsum (number_of_vertices g) (fun u => rw g u v) = rdeg g v - rw g v v) as ->.
    { unfold rdeg, number_of_vertices. rewrite (rsum_ext _ (fun u => rw g u v) (fun u => rw g v u)); [lra|].
      intros; now apply rw_sym. }
    field. auto.
  Qed.

  Lemma lazy_walk_nonneg g u v : reachable_pos g -> (u < number_of_vertices g)%nat -> (v < number_of_vertices g)%nat ->
    0 < rdeg g v -> 0 <= rcoeff (snd (mat_query QLrw g)) u v.
  Proof.
    intros Hr Hu Hv Hd. rewrite lazy_walk_coeff; auto; [|now apply reachable_pos_reachable|lra].
    pose proof (rw_nonneg g u v Hr).
    assert (0 <= rw g u v / (2 * rdeg g v)).
    { apply Rmult_le_pos; auto. apply Rlt_le, Rinv_0_lt_compat. lra. }
    destruct (u =? v)%nat; lra.
  Qed.
  Lemma rdeg_nonneg g v : reachable_pos g -> 0 <= rdeg g v.
  Proof.
    intros Hr. unfold rdeg. pose proof (rw_nonneg g v v Hr).
    assert (0 <= rsum (g_n g) (fun u => rw g v u)) by (apply rsum_nonneg; intros; now apply rw_nonneg). lra.
  Qed.
  Lemma rdeg_zero g u v : reachable_pos g -> rdeg g v = 0 -> rw g u v = 0.
  Proof.
    intros Hr Hd. destruct (Nat.lt_ge_cases u (g_n g)) as [Hu|Hu].
    - rewrite rw_sym by (now apply reachable_pos_reachable). unfold rdeg in Hd.
      pose proof (rw_nonneg g v v Hr). pose proof (rw_nonneg g v u Hr).
      assert (rw g v u <= rsum (g_n g) (fun u => rw g v u)).
      { apply (rsum_ge_elt (g_n g) (fun u => rw g v u)); auto. intros; now apply rw_nonneg. }
      lra.
    - unfold rw, weight. rewrite coeff_out; [apply toR_0| |].
      + apply (reachable_pos_ok g Hr).
      + destruct (reachable_pos_ok g Hr) as (R & C & _). lia.
  Qed.
  (** An isolated vertex: the walk stays with probability 1/2 and loses the rest. *)
  Lemma lazy_walk_isolated g u v : reachable_pos g -> (u < number_of_vertices g)%nat -> (v < number_of_vertices g)%nat ->
    rdeg g v = 0 -> rcoeff (snd (mat_query QLrw g)) u v = if (u =? v)%nat then / 2 else 0.
  Proof.
    unfold number_of_vertices. intros Hr Hu Hv Hd.
    pose proof (reachable_pos_reachable g Hr) as Hr'. rewrite query_formula by auto. simpl.
    destruct (reachable_ok g Hr') as [(R & C & Hwf) _].
    rewrite rcoeff_merge_add.
    - transitivity ((if (u =? v)%nat then / 2 else 0) + 0); [|lra]. f_equal.
      + unfold rcoeff, coeff, identity_mat. rewrite sp_get_map, sp_get_diag, C.
        destruct (Nat.eqb_spec u v) as [->|]; cbn [andb]; [|apply toR_0].
        destruct (Nat.ltb_spec v (g_n g)); [|lia]. simpl. rewrite toR_mul, toR_1, toR_whalf. lra.
      + unfold rcoeff, coeff at 1. unfold inv_mat. rewrite sp_get_mul_diag_r; [|now apply sp_map_wf|apply sp_map_ncols].
        rewrite sp_get_map. pose proof (rdeg_zero g u v Hr Hd) as Hz.
        pose proof (stored_iff_pos g u v Hr) as Hst.
        destruct (sp_get (g_adj g) u v); simpl; [|apply toR_0].
        exfalso. apply (proj1 Hst); [discriminate|exact Hz].
    - apply sp_map_wf, sp_diag_wf.
    - apply sp_mul_diag_r_wf; [now apply sp_map_wf|apply sp_map_ncols].
    - unfold identity_mat, inv_mat. now rewrite sp_map_ncols, sp_mul_ncols, !sp_diag_ncols.
  Qed.
End Exact.

Section Real.
  Implicit Types g : graph R.

  Lemma nrm_coeff g u v : reachable g -> (u < g_n g)%nat -> (v < g_n g)%nat ->
    coeff (nrm_mat (g_adj g)) u v = rw g u v * (1 / sqrt (rdeg g u)) * (1 / sqrt (rdeg g v)).
  Proof.
    intros Hr Hu Hv. destruct (reachable_ok g Hr) as [(Rr & C & Hwf) _].
    unfold nrm_mat. cbv zeta.
    unfold coeff at 1. unfold sqrt_inv_deg. rewrite C.
    rewrite sp_get_mul_diag_r; [|now apply sp_mul_diag_l_wf|now rewrite sp_mul_ncols].
    rewrite sp_get_mul_diag_l by auto.
    change wsqrt with sqrt. change wdiv with Rdiv. change (@w1 R _) with 1.
    rewrite <- (deg_mat_diag g u Hr Hu), <- (deg_mat_diag g v Hr Hv).
    unfold rw, weight, coeff at 3.
    change (@toR R NumR ExactR) with (fun x : R => x). cbv beta.
    destruct (sp_get (g_adj g) u v); simpl; ring.
  Qed.

  Lemma normalised_coeff (signless : bool) g u v : reachable g ->
    (u < number_of_vertices g)%nat -> (v < number_of_vertices g)%nat ->
    0 < rdeg g u -> 0 < rdeg g v ->
    rcoeff (snd (mat_query (if signless then QNSLap else QNLap) g)) u v =
    (if (u =? v)%nat then 1 else 0) + (if signless then 1 else -1) * (rw g u v / sqrt (rdeg g u * rdeg g v)).
  Proof.
    unfold number_of_vertices. intros Hr Hu Hv Hdu Hdv. rewrite query_formula by auto.
    pose proof (nrm_coeff g u v Hr Hu Hv) as Hn.
    destruct (reachable_ok g Hr) as [(Rr & C & Hwf) _].
    assert (sp_wf (nrm_mat (g_adj g))) as Hnwf.
    { unfold nrm_mat. cbv zeta. apply sp_mul_diag_r_wf; [|now rewrite sp_mul_ncols, C].
      apply sp_mul_diag_l_wf; auto. now rewrite C. }
    assert (sp_ncols (identity_mat (W := Rdefinitions.R) (sp_ncols (g_adj g))) = sp_ncols (nrm_mat (g_adj g))) as Hcols.
    { unfold identity_mat, nrm_mat. cbv zeta. rewrite sp_mul_ncols. unfold sqrt_inv_deg. now rewrite !sp_diag_ncols. }
    assert (rcoeff (identity_mat (sp_ncols (g_adj g))) u v = if (u =? v)%nat then 1 else 0) as Hid.
    { unfold rcoeff, coeff, identity_mat. rewrite sp_get_diag, C.
      destruct (Nat.eqb_spec u v) as [->|]; cbn [andb]; [|reflexivity].
      destruct (Nat.ltb_spec v (g_n g)); [reflexivity|lia]. }
    assert (rcoeff (nrm_mat (g_adj g)) u v = rw g u v / sqrt (rdeg g u * rdeg g v)) as Hq.
    { unfold rcoeff. change (@toR Rdefinitions.R NumR ExactR) with (fun x : Rdefinitions.R => x). cbv beta. rewrite Hn.
      rewrite sqrt_mult by lra. field. split; apply Rgt_not_eq, sqrt_lt_R0; lra. }
    destruct signless; cbn [mat_formula].
    - rewrite rcoeff_merge_add; auto; [|apply sp_diag_wf]. rewrite Hid, Hq. ring.
    - rewrite rcoeff_merge_sub; auto; [|apply sp_diag_wf]. rewrite Hid, Hq. ring.
  Qed.

  (** quadratic forms through y = x / sqrt d *)
  Lemma normalised_quad (signless : bool) g x : reachable g ->
    (forall v, (v < number_of_vertices g)%nat -> 0 < rdeg g v) ->
    quad (number_of_vertices g) (rcoeff (snd (mat_query (if signless then QNSLap else QNLap) g))) x =
    quad (number_of_vertices g) (rcoeff (snd (mat_query (if signless then QSLap else QLap) g)))
         (fun v => x v / sqrt (rdeg g v)).
  Proof.
    intros Hr Hd. unfold quad. apply rsum_ext. intros u Hu. apply rsum_ext. intros v Hv.
    rewrite normalised_coeff by auto.
    assert (0 < sqrt (rdeg g u)) by (apply sqrt_lt_R0; auto).
    assert (0 < sqrt (rdeg g v)) by (apply sqrt_lt_R0; auto).
    assert (rcoeff (snd (mat_query (if signless then QSLap else QLap) g)) u v =
            (if (u =? v)%nat then rdeg g u else 0) + (if signless then 1 else -1) * rw g u v) as ->.
    { destruct signless; [rewrite signless_coeff|rewrite laplacian_coeff]; auto; ring. }
    rewrite sqrt_mult by (apply Rlt_le; auto).
    destruct (Nat.eqb_spec u v) as [->|].
    - assert (sqrt (rdeg g v) * sqrt (rdeg g v) = rdeg g v) as Es by (apply sqrt_sqrt, Rlt_le; auto).
      set (s := sqrt (rdeg g v)) in *. rewrite <- Es. field. lra.
    - field. lra.
  Qed.

  Lemma normalised_bounds (signless : bool) g x : reachable_pos g ->
    (forall v, (v < number_of_vertices g)%nat -> 0 < rdeg g v) ->
    0 <= quad (number_of_vertices g) (rcoeff (snd (mat_query (if signless then QNSLap else QNLap) g))) x
      <= 2 * rsum (number_of_vertices g) (fun v => x v ^ 2).
  Proof.
    intros Hr Hd. pose proof (reachable_pos_reachable g Hr) as Hr'.
    assert (forall s : bool, 0 <= quad (number_of_vertices g) (rcoeff (snd (mat_query (if s then QNSLap else QNLap) g))) x) as Hp.
    { intros []; [rewrite (normalised_quad true)|rewrite (normalised_quad false)]; auto.
      - now apply signless_psd.
      - now apply laplacian_psd. }
    assert (quad (number_of_vertices g) (rcoeff (snd (mat_query QNSLap g))) x +
            quad (number_of_vertices g) (rcoeff (snd (mat_query QNLap g))) x
            = 2 * rsum (number_of_vertices g) (fun v => x v ^ 2)) as Hs.
    { unfold quad. rewrite <- rsum_plus, <- rsum_scal. apply rsum_ext. intros u Hu.
      rewrite <- rsum_plus.
      rewrite (rsum_ext _ _ (fun v => if (u =? v)%nat then 2 * (x u * x v) else 0)).
      - rewrite (rsum_delta' _ u (fun v => 2 * (x u * x v))) by auto. ring.
      - intros v Hv. rewrite (normalised_coeff true), (normalised_coeff false) by auto.
        destruct (u =? v)%nat; ring. }
    pose proof (Hp true) as Ht. pose proof (Hp false) as Hf. cbv iota in Ht, Hf. destruct signless; cbv iota; lra.
  Qed.

  (** Isolated vertices included: nothing is stored in their rows, so their row of the matrix is that of the identity. *)
  Lemma normalised_coeff_pos (signless : bool) g u v : reachable_pos g ->
    (u < number_of_vertices g)%nat -> (v < number_of_vertices g)%nat ->
    rcoeff (snd (mat_query (if signless then QNSLap else QNLap) g)) u v =
    (if (u =? v)%nat then 1 else 0) + (if signless then 1 else -1) *
      (if Req_EM_T (rw g u v) 0 then 0 else rw g u v / sqrt (rdeg g u * rdeg g v)).
  Proof.
    unfold number_of_vertices. intros Hrp Hu Hv. pose proof (reachable_pos_reachable g Hrp) as Hr.
    rewrite query_formula by auto.
    pose proof (nrm_coeff g u v Hr Hu Hv) as Hn.
    destruct (reachable_ok g Hr) as [(Rr & C & Hwf) _].
    assert (sp_wf (nrm_mat (g_adj g))) as Hnwf.
    { unfold nrm_mat. cbv zeta. apply sp_mul_diag_r_wf; [|now rewrite sp_mul_ncols, C].
      apply sp_mul_diag_l_wf; auto. now rewrite C. }
    assert (sp_ncols (identity_mat (W := Rdefinitions.R) (sp_ncols (g_adj g))) = sp_ncols (nrm_mat (g_adj g))) as Hcols.
    { unfold identity_mat, nrm_mat. cbv zeta. rewrite sp_mul_ncols. unfold sqrt_inv_deg. now rewrite !sp_diag_ncols. }
    assert (rcoeff (identity_mat (sp_ncols (g_adj g))) u v = if (u =? v)%nat then 1 else 0) as Hid.
    { unfold rcoeff, coeff, identity_mat. rewrite sp_get_diag, C.
      destruct (Nat.eqb_spec u v) as [->|]; cbn [andb]; [|reflexivity].
      destruct (Nat.ltb_spec v (g_n g)); [reflexivity|lia]. }
    assert (rcoeff (nrm_mat (g_adj g)) u v = if Req_EM_T (rw g u v) 0 then 0 else rw g u v / sqrt (rdeg g u * rdeg g v)) as Hq.
    { unfold rcoeff. change (@toR Rdefinitions.R NumR ExactR) with (fun x : Rdefinitions.R => x). cbv beta. rewrite Hn.
      destruct (Req_EM_T (rw g u v) 0) as [E|N]; [rewrite E; ring|].
      pose proof (rdeg_nonneg g u Hrp). pose proof (rdeg_nonneg g v Hrp).
      assert (rdeg g u <> 0). { intros E. apply N. rewrite rw_sym by auto. now apply rdeg_zero. }
      assert (rdeg g v <> 0). { intros E. apply N. now apply rdeg_zero. }
      rewrite sqrt_mult by lra. field. split; apply Rgt_not_eq, sqrt_lt_R0; lra. }
    destruct signless; cbn [mat_formula].
    - rewrite rcoeff_merge_add; auto; [|apply sp_diag_wf]. rewrite Hid, Hq. ring.
    - rewrite rcoeff_merge_sub; auto; [|apply sp_diag_wf]. rewrite Hid, Hq. ring.
  Qed.

  Lemma normalised_psd_pos (signless : bool) g x : reachable_pos g ->
    0 <= quad (number_of_vertices g) (rcoeff (snd (mat_query (if signless then QNSLap else QNLap) g))) x.
  Proof.
    intros Hrp. pose proof (reachable_pos_reachable g Hrp) as Hr.
    set (y := fun v => if Req_EM_T (rdeg g v) 0 then 0 else x v / sqrt (rdeg g v)).
    set (iso := fun v => if Req_EM_T (rdeg g v) 0 then x v * x v else 0).
    assert (E : quad (number_of_vertices g) (rcoeff (snd (mat_query (if signless then QNSLap else QNLap) g))) x =
      quad (number_of_vertices g) (rcoeff (snd (mat_query (if signless then QSLap else QLap) g))) y
      + rsum (number_of_vertices g) iso).
    { unfold quad. rewrite <- rsum_plus. apply rsum_ext. intros u Hu.
      rewrite <- (rsum_delta' (number_of_vertices g) u iso Hu), <- rsum_plus. apply rsum_ext. intros v Hv.
      rewrite normalised_coeff_pos by auto.
      assert (rcoeff (snd (mat_query (if signless then QSLap else QLap) g)) u v =
              (if (u =? v)%nat then rdeg g u else 0) + (if signless then 1 else -1) * rw g u v) as ->.
      { destruct signless; [rewrite signless_coeff|rewrite laplacian_coeff]; auto; ring. }
      unfold y, iso.
      assert (Hz : forall a b, rdeg g b = 0 -> rw g a b = 0) by (intros; now apply rdeg_zero).
      destruct (Req_EM_T (rdeg g u) 0) as [Du|Du].
      - rewrite (rw_sym g u v Hr), (Hz v u Du). destruct (Req_EM_T 0 0); [|congruence].
        destruct (Nat.eqb_spec u v) as [->|]; [destruct (Req_EM_T (rdeg g v) 0); [ring|congruence]|ring].
      - destruct (Req_EM_T (rdeg g v) 0) as [Dv|Dv].
        + rewrite (Hz u v Dv). destruct (Req_EM_T 0 0); [|congruence].
          destruct (Nat.eqb_spec u v) as [->|]; [congruence|ring].
        + pose proof (rdeg_nonneg g u Hrp). pose proof (rdeg_nonneg g v Hrp).
          assert (0 < sqrt (rdeg g u)) by (apply sqrt_lt_R0; lra).
          assert (0 < sqrt (rdeg g v)) by (apply sqrt_lt_R0; lra).
          assert (Er : (if Req_EM_T (rw g u v) 0 then 0 else rw g u v / sqrt (rdeg g u * rdeg g v)) = rw g u v / (sqrt (rdeg g u) * sqrt (rdeg g v))).
          { rewrite sqrt_mult by lra. destruct (Req_EM_T (rw g u v) 0) as [E|]; [rewrite E; unfold Rdiv; ring|reflexivity]. }
          rewrite Er. destruct (Nat.eqb_spec u v) as [->|].
          * assert (sqrt (rdeg g v) * sqrt (rdeg g v) = rdeg g v) as Es by (apply sqrt_sqrt; lra).
            set (s := sqrt (rdeg g v)) in *. rewrite <- Es. field. lra.
          * field. lra. }
    rewrite E. apply Rplus_le_le_0_compat.
    - destruct signless; [now apply signless_psd|now apply laplacian_psd].
    - apply rsum_nonneg. intros v _. unfold iso. destruct (Req_EM_T (rdeg g v) 0); [apply Rle_0_sqr|lra].
  Qed.
  Lemma normalised_bounds_pos (signless : bool) g x : reachable_pos g ->
    0 <= quad (number_of_vertices g) (rcoeff (snd (mat_query (if signless then QNSLap else QNLap) g))) x
      <= 2 * rsum (number_of_vertices g) (fun v => x v ^ 2).
  Proof.
    intros Hr. pose proof (reachable_pos_reachable g Hr) as Hr'.
    assert (quad (number_of_vertices g) (rcoeff (snd (mat_query QNSLap g))) x +
            quad (number_of_vertices g) (rcoeff (snd (mat_query QNLap g))) x
            = 2 * rsum (number_of_vertices g) (fun v => x v ^ 2)) as Hs.
    { unfold quad. rewrite <- rsum_plus, <- rsum_scal. apply rsum_ext. intros u Hu.
      rewrite <- rsum_plus.
      rewrite (rsum_ext _ _ (fun v => if (u =? v)%nat then 2 * (x u * x v) else 0)).
      - rewrite (rsum_delta' _ u (fun v => 2 * (x u * x v))) by auto. ring.
      - intros v Hv. rewrite (normalised_coeff_pos true), (normalised_coeff_pos false) by auto.
        destruct (u =? v)%nat; ring. }
    pose proof (normalised_psd_pos true g x Hr) as Ht. pose proof (normalised_psd_pos false g x Hr) as Hf.
    cbv iota in Ht, Hf. destruct signless; cbv iota; lra.
  Qed.
End Real.
