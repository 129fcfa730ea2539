(** compute_eigensystem returns eigenpairs of the requested matrix (C56). *)
From Verif Require Import Base Num RSum Sparse SparseFacts Graph GraphSpec GraphFacts GraphProps1 GraphProps2 GraphProps3 Spectrum SpectrumSpec.
From Coq Require Import Reals Lra Sorting.Sorted.
Local Open Scope nat_scope.

(** ** Linear algebra *)
Lemma dot_ext n x x' y y' : (forall i, i < n -> x i = x' i) -> (forall i, i < n -> y i = y' i) -> dot n x y = dot n x' y'.
Proof. intros A B. apply rsum_ext. intros i Hi. now rewrite A, B. Qed.
Lemma dot_sym n x y : dot n x y = dot n y x.
Proof. apply rsum_ext. intros. apply Rmult_comm. Qed.
Lemma mulv_ext n M M' x i : i < n -> (forall j, j < n -> M i j = M' i j) -> mulv n M x i = mulv n M' x i.
Proof. intros Hi E. apply rsum_ext. intros j Hj. now rewrite E. Qed.
Lemma quad_dot n M x : quad n M x = dot n x (mulv n M x).
Proof.
  unfold quad, dot, mulv. apply rsum_ext. intros i _. rewrite <- rsum_scal. apply rsum_ext. intros. ring.
Qed.
(** s M + c I *)
Lemma mulv_affine n M x i s c : i < n ->
  mulv n (fun u v => s * M u v + (if u =? v then c else 0))%R x i = (s * mulv n M x i + c * x i)%R.
Proof.
  intros Hi. unfold mulv. rewrite <- rsum_scal.
  rewrite <- (rsum_delta' n i (fun j => c * x j)%R Hi), <- rsum_plus. apply rsum_ext. intros j Hj.
  destruct (i =? j); ring.
Qed.
Lemma quad_affine n M x s c :
  quad n (fun u v => s * M u v + (if u =? v then c else 0))%R x = (s * quad n M x + c * rsum n (fun i => x i ^ 2))%R.
Proof.
  rewrite !quad_dot. unfold dot. rewrite <- !rsum_scal, <- rsum_plus. apply rsum_ext. intros i Hi.
  rewrite mulv_affine by auto. ring.
Qed.
Lemma quad_ext n M M' x : (forall i j, i < n -> j < n -> M i j = M' i j) -> quad n M x = quad n M' x.
Proof. intros E. apply rsum_ext. intros i Hi. apply rsum_ext. intros j Hj. now rewrite E. Qed.

Lemma eigen_system_affine n M M' E s c : (forall i j, i < n -> j < n -> M' i j = (s * M i j + (if i =? j then c else 0))%R) ->
  eigen_system n M E -> eigen_system n M' (map (fun p => (s * fst p + c, snd p)%R) E).
Proof.
  intros EM (Hl & Hp & Ho & Hc). split; [now rewrite map_length|]. split; [|split].
  - rewrite Forall_map. eapply Forall_impl; [|exact Hp]. intros p [L P]. simpl. split; auto. intros i Hi.
    rewrite (mulv_ext n M' (fun u v => s * M u v + (if u =? v then c else 0))%R) by auto.
    rewrite mulv_affine by auto. rewrite P by auto. ring.
  - intros a b d Ha Hb. 
    assert (Hn : forall k, k < n -> snd (nth k (map (fun p => (s * fst p + c, snd p)%R) E) d) = snd (nth k E d)).
    { intros k Hk. rewrite (nth_indep _ d ((fun p => (s * fst p + c, snd p)%R) d)) by (rewrite map_length; lia).
      rewrite (map_nth (fun p => (s * fst p + c, snd p)%R)). reflexivity. }
    rewrite !Hn by auto. now apply Ho.
  - intros x i Hi. rewrite lsum_map. simpl. now apply Hc.
Qed.
Lemma eigen_system_ext n M M' E : (forall i j, i < n -> j < n -> M' i j = M i j) -> eigen_system n M E -> eigen_system n M' E.
Proof.
  intros EM (Hl & Hp & Ho & Hc). split; auto. split; [|split; auto].
  eapply Forall_impl; [|exact Hp]. intros p [L P]. split; auto. intros i Hi. rewrite <- P by auto.
  apply mulv_ext; auto.
Qed.
Lemma eigen_norm n M E p : eigen_system n M E -> In p E -> dot n (vx (snd p)) (vx (snd p)) = 1%R.
Proof.
  intros (Hl & Hp & Ho & Hc) Hi. destruct (In_nth E p p Hi) as (k & Hk & <-). rewrite Ho by lia. now rewrite Nat.eqb_refl.
Qed.
(** An eigenvalue is the value of the quadratic form at its unit vector. *)
Lemma eigen_quad n M E p : eigen_system n M E -> In p E -> quad n M (vx (snd p)) = fst p.
Proof.
  intros S Hi. pose proof (eigen_norm n M E p S Hi) as N. destruct S as (Hl & Hp & _).
  rewrite Forall_forall in Hp. destruct (Hp p Hi) as [L P]. rewrite quad_dot.
  unfold dot in *. rewrite (rsum_ext n _ (fun i => fst p * (vx (snd p) i * vx (snd p) i))%R).
  - rewrite rsum_scal, N. ring.
  - intros i Hi'. rewrite P by auto. ring.
Qed.
Definition psd (n : nat) (M : nat -> nat -> R) : Prop := forall x, (0 <= quad n M x)%R.
Lemma StronglySorted_map_impl {A} (P Q : R -> R -> Prop) (f f' : A -> R) l :
  (forall a b, In a l -> In b l -> P (f a) (f b) -> Q (f' a) (f' b)) -> StronglySorted P (map f l) -> StronglySorted Q (map f' l).
Proof.
  induction l as [|a l IH]; intros Hi S; simpl in *; [constructor|]. inversion S as [|x y S' F]; subst. constructor.
  - apply IH; auto.
  - rewrite Forall_map in *. rewrite Forall_forall in *. intros b Hb. apply Hi; auto.
Qed.
(** The transformation done by the library, for a positive semidefinite operator. *)
Lemma leading_transform n Ms M num r s c which : psd n Ms ->
  (match which with Largest => s = 1%R | Smallest => s = (-1)%R end) ->
  (forall i j, i < n -> j < n -> M i j = (s * Ms i j + (if i =? j then c else 0))%R) ->
  leading decreasing_magnitude n Ms num r ->
  leading (order_of which) n M num (map (fun p => (s * fst p + c, snd p)%R) r).
Proof.
  intros P Hs EM (E & S & Hsort & ->). exists (map (fun p => (s * fst p + c, snd p)%R) E). split; [|split].
  - now apply (eigen_system_affine n Ms).
  - rewrite map_map. cbn [fst]. eapply StronglySorted_map_impl; [|exact Hsort]. intros a b Ha Hb D.
    unfold decreasing_magnitude in D. 
    assert (0 <= fst a)%R by (rewrite <- (eigen_quad n Ms E a S Ha); apply P).
    assert (0 <= fst b)%R by (rewrite <- (eigen_quad n Ms E b S Hb); apply P).
    rewrite !Rabs_pos_eq in D by auto. destruct which; subst s; unfold order_of; lra.
  - now rewrite firstn_map.
Qed.

(** ** The shifted matrices *)
Lemma shift_square {W} `{Num W} n (M : sprs W) c : sp_square M n -> forall l, (forall i, In i l -> i < n) ->
  sp_square (fold_left (fun A i => coeffRef_add A i i c) l M) n.
Proof.
  intros S l. revert M S. induction l as [|i l IH]; intros M S Hl; simpl; auto. apply IH.
  - destruct S as (R & C & Wf). split; [exact R|]. split; [unfold coeffRef_add; now rewrite sp_upsert_ncols|].
    apply sp_upsert_wf; auto. rewrite R. apply Hl. now left.
  - intros k Hk. apply Hl. now right.
Qed.
Lemma shift_coeff_list n (M : sprs R) c l : sp_square M n -> NoDup l -> (forall i, In i l -> i < n) ->
  forall i j, coeff (fold_left (fun A i => coeffRef_add A i i c) l M) i j =
    (coeff M i j + (if (i =? j) && (if in_dec Nat.eq_dec i l then true else false) then c else 0))%R.
Proof.
  revert M. induction l as [|k l IH]; intros M S Hn Hl i j; simpl fold_left.
  - simpl. rewrite andb_false_r. lra.
  - inversion Hn as [|? ? Hk Hn']; subst.
    assert (S' : sp_square (coeffRef_add M k k c) n).
    { apply (shift_square n M c S [k]). intros x [<-|[]]. apply Hl. now left. }
    rewrite (IH _ S' Hn') by (intros; apply Hl; now right).
    assert (E : coeff (coeffRef_add M k k c) i j = (coeff M i j + (if (i =? k) && (j =? k) then c else 0))%R).
    { unfold coeff, coeffRef_add. destruct S as (R0 & C0 & Wf). rewrite sp_get_upsert; auto; [|rewrite C0; apply Hl; now left].
      destruct (Nat.eqb_spec i k) as [->|]; destruct (Nat.eqb_spec j k) as [->|]; simpl; try lra; try reflexivity. }
    rewrite E. destruct (Nat.eqb_spec i j) as [->|Nij]; simpl.
    + destruct (Nat.eqb_spec j k) as [->|Njk]; simpl.
      * destruct (Nat.eq_dec k k); [|congruence]. destruct (in_dec Nat.eq_dec k l); [contradiction|]. simpl. lra.
      * destruct (Nat.eq_dec k j); [congruence|]. destruct (in_dec Nat.eq_dec j l); lra.
    + destruct (Nat.eqb_spec i k) as [->|]; destruct (Nat.eqb_spec j k) as [->|]; simpl; try congruence; lra.
Qed.
Lemma shift_diag_coeff n (M : sprs R) c i j : sp_square M n -> i < n ->
  coeff (shift_diag n M c) i j = (coeff M i j + (if i =? j then c else 0))%R.
Proof.
  intros S Hi. unfold shift_diag. rewrite (shift_coeff_list n); auto; [|apply seq_NoDup|intros k Hk; apply in_seq in Hk; lia].
  destruct (in_dec Nat.eq_dec i (seq 0 n)) as [|N]; [now rewrite andb_true_r|]. exfalso. apply N. apply in_seq. lia.
Qed.
Lemma shift_diag_square n (M : sprs R) c : sp_square M n -> sp_square (shift_diag n M c) n.
Proof. intros S. apply shift_square; auto. intros k Hk. apply in_seq in Hk. lia. Qed.
Lemma sp_map_square n (f : R -> R) M : sp_square M n -> sp_square (sp_map f M) n.
Proof. intros (A & B & C). split; [exact A|]. split; [now rewrite sp_map_ncols|now apply sp_map_wf]. Qed.
Lemma opp_coeff (M : sprs R) i j : coeff (sp_map wopp M) i j = (- coeff M i j)%R.
Proof. unfold coeff. rewrite sp_get_map. destruct (sp_get M i j); simpl; [reflexivity|]. now rewrite Ropp_0. Qed.

(** ** Degrees *)
Lemma max_degree_spec (g0 : graph R) vs : reachable g0 -> (forall v, In v vs -> v < g_n g0) ->
  forall g m, caches_ok g -> same_base g0 g -> exists g' d, max_degree g vs m = (g', Ok d) /\ caches_ok g' /\ same_base g0 g' /\
    (m <= d)%R /\ (forall v, In v vs -> (rdeg g0 v <= d)%R) /\ (d = m \/ exists v, In v vs /\ d = rdeg g0 v).
Proof.
  intros Hr. induction vs as [|v vs IH]; intros Hv g m Hc Hb; cbn [max_degree].
  - exists g, m. split; [reflexivity|]. split; [auto|]. split; [auto|]. split; [lra|]. split; [intros v []|now left].
  - assert (Hd : exists g1, degree g (Z.of_nat v) = (g1, Ok (rdeg g0 v)) /\ caches_ok g1 /\ same_base g0 g1).
    { unfold degree. destruct Hb as (B1 & B2 & B3). rewrite check_vertex_ok by (rewrite <- B1; specialize (Hv v (or_introl eq_refl)); lia).
      rewrite Nat2Z.id. destruct (init_deg_spec g Hc) as (C1 & S1 & E1).
      exists (init_deg g). rewrite E1. split; [|split; auto].
      - f_equal. f_equal. pose proof (reachable_ok g0 Hr) as [Hok _]. rewrite <- B2.
        pose proof (deg_mat_coeff g0 v v Hok) as Ed. unfold rcoeff in Ed. cbn [toR ExactR] in Ed. rewrite Ed, Nat.eqb_refl.
        cbn [andb]. specialize (Hv v (or_introl eq_refl)). destruct (Nat.ltb_spec v (g_n g0)); [reflexivity|lia].
      - eapply same_base_trans; [|exact S1]. repeat split; auto. }
    destruct Hd as (g1 & E & C1 & S1). rewrite E.
    destruct (IH (fun v Hi => Hv v (or_intror Hi)) g1 (if wltb m (rdeg g0 v) then rdeg g0 v else m) C1 S1)
      as (g' & d & E' & C' & S' & Hm & Hall & Hex).
    exists g', d. split; [exact E'|]. split; [auto|]. split; [auto|].
    assert (Hcase : (m <= (if wltb m (rdeg g0 v) then rdeg g0 v else m) /\ rdeg g0 v <= (if wltb m (rdeg g0 v) then rdeg g0 v else m))%R).
    { destruct (wltb m (rdeg g0 v)) eqn:L.
      - apply (toR_ltb m (rdeg g0 v)) in L. cbn [toR ExactR] in L. lra.
      - assert (~ (m < rdeg g0 v)%R). { intros L'. pose proof (proj2 (toR_ltb m (rdeg g0 v)) L') as L2. rewrite L2 in L. discriminate. } lra. }

    split; [lra|]. split.
    + intros u [<-|Hu]; [lra|auto].
    + destruct Hex as [->|(u & Hu & ->)]; [|right; exists u; split; auto; now right].
      destruct (wltb m (rdeg g0 v)); [|now left]. right. exists v. split; auto. now left.
Qed.

(** ** The matrices of the library *)
Lemma lap_square (g : graph R) q : reachable g -> (q = QLap \/ q = QNLap) -> sp_square (mat_formula q (g_adj g)) (g_n g).
Proof.
  intros Hr Hq. destruct (reachable_ok g Hr) as [(Rr & C & Hwf) _]. destruct Hq as [-> | ->]; cbn [mat_formula].
  - assert (Cd : sp_ncols (deg_mat (g_adj g)) = sp_ncols (g_adj g)) by (unfold deg_mat; now rewrite sp_diag_ncols).
    split; [|split].
    + simpl. exact C.
    + unfold sp_sub. rewrite sp_merge_ncols; lia.
    + apply (sp_merge_wf wsub _ _ (g_n g) (g_n g)); auto; try lia. apply sp_diag_wf.
  - assert (Ci : sp_ncols (identity_mat (W := R) (sp_ncols (g_adj g))) = sp_ncols (g_adj g)) by (unfold identity_mat; now rewrite sp_diag_ncols).
    assert (Cn : sp_ncols (nrm_mat (g_adj g)) = g_n g).
    { unfold nrm_mat. cbv zeta. rewrite sp_mul_ncols. unfold sqrt_inv_deg. now rewrite sp_diag_ncols. }
    assert (Wn : sp_wf (nrm_mat (g_adj g))).
    { unfold nrm_mat. cbv zeta. apply sp_mul_diag_r_wf; [|now rewrite sp_mul_ncols, C].
      apply sp_mul_diag_l_wf; auto. now rewrite C. }
    split; [|split].
    + simpl. exact C.
    + unfold sp_sub. rewrite sp_merge_ncols; lia.
    + apply (sp_merge_wf wsub _ _ (g_n g) (g_n g)); auto; try lia; apply sp_diag_wf.
Qed.
Lemma lap_entries (g : graph R) u v : reachable_pos g -> u < g_n g -> v < g_n g ->
  coeff (mat_formula QLap (g_adj g)) u v = matrix_of_graph MatLaplacian g u v /\
  coeff (mat_formula QNLap (g_adj g)) u v = matrix_of_graph MatNormalisedLaplacian g u v.
Proof.
  intros Hr Hu Hv. pose proof (reachable_pos_reachable g Hr) as Hr'. split.
  - rewrite <- (query_formula g QLap Hr'). exact (laplacian_coeff g u v Hr' Hu Hv).
  - rewrite <- (query_formula g QNLap Hr'). pose proof (normalised_coeff_pos false g u v Hr Hu Hv) as E.
    unfold rcoeff in E. cbn [toR ExactR] in E. rewrite E. unfold matrix_of_graph. ring.
Qed.
Lemma matrix_sym mat (g : graph R) u v : reachable g -> matrix_of_graph mat g u v = matrix_of_graph mat g v u.
Proof.
  intros Hr. unfold matrix_of_graph. rewrite (rw_sym g u v Hr), (Nat.eqb_sym u v), (Rmult_comm (rdeg g u)).
  destruct mat; auto. destruct (Nat.eqb_spec v u) as [->|]; auto.
Qed.
(** Every graph matrix is between 0 (or - dmax) and 2 dmax, 2, dmax. *)
Lemma matrix_psd_low (g : graph R) : reachable_pos g ->
  psd (g_n g) (matrix_of_graph MatLaplacian g) /\ psd (g_n g) (matrix_of_graph MatNormalisedLaplacian g).
Proof.
  intros Hr. pose proof (reachable_pos_reachable g Hr) as Hr'. split; intros x.
  - rewrite (quad_ext _ _ (rcoeff (snd (mat_query QLap g)))); [now apply laplacian_psd|].
    intros i j Hi Hj. symmetry. exact (laplacian_coeff g i j Hr' Hi Hj).
  - rewrite (quad_ext _ _ (rcoeff (snd (mat_query QNLap g)))); [apply (normalised_psd_pos false g x Hr)|].
    intros i j Hi Hj. unfold rcoeff. cbn [toR ExactR]. rewrite (query_formula g QNLap Hr'). symmetry. now apply lap_entries.
Qed.
Lemma quad_sum n M N x : quad n (fun u v => M u v + N u v)%R x = (quad n M x + quad n N x)%R.
Proof. unfold quad. rewrite <- rsum_plus. apply rsum_ext. intros u _. rewrite <- rsum_plus. apply rsum_ext. intros; ring. Qed.
Lemma quad_diag n (d : nat -> R) x : quad n (fun u v => if u =? v then d u else 0)%R x = rsum n (fun u => d u * x u ^ 2)%R.
Proof.
  unfold quad. apply rsum_ext. intros u Hu. rewrite (rsum_ext n _ (fun v => if u =? v then d u * (x u * x v) else 0)%R).
  - rewrite (rsum_delta' n u (fun v => d u * (x u * x v))%R Hu). ring.
  - intros v _. destruct (u =? v); ring.
Qed.
Lemma signless_form_psd (g : graph R) : reachable_pos g -> psd (g_n g) (fun u v => (if u =? v then rdeg g u else 0) + rw g u v)%R.
Proof.
  intros Hr x. pose proof (reachable_pos_reachable g Hr) as Hr'.
  rewrite (quad_ext _ _ (rcoeff (snd (mat_query QSLap g)))); [now apply signless_psd|].
  intros i j Hi Hj. symmetry. exact (signless_coeff g i j Hr' Hi Hj).
Qed.
Section Psd.
  Variable g : graph R.
  Variable d : R.
  Hypothesis Hr : reachable_pos g.
  Hypothesis Hd : forall v, v < g_n g -> (rdeg g v <= d)%R.
  Lemma slack x : (0 <= rsum (g_n g) (fun u => (d - rdeg g u) * x u ^ 2))%R.
  Proof. apply rsum_nonneg. intros u Hu. apply Rmult_le_pos; [specialize (Hd u Hu); lra|apply pow2_ge_0]. Qed.
  Lemma adj_plus_psd : psd (g_n g) (fun u v => rw g u v + (if u =? v then d else 0))%R.
  Proof.
    intros x. rewrite (quad_ext _ _ (fun u v => ((if u =? v then rdeg g u else 0) + rw g u v) + (if u =? v then d - rdeg g u else 0))%R).
    - rewrite quad_sum, (quad_diag _ (fun u => d - rdeg g u)%R). pose proof (signless_form_psd g Hr x). pose proof (slack x). lra.
    - intros i j _ _. destruct (i =? j); ring.
  Qed.
  Lemma adj_minus_psd : psd (g_n g) (fun u v => - rw g u v + (if u =? v then d else 0))%R.
  Proof.
    intros x. rewrite (quad_ext _ _ (fun u v => matrix_of_graph MatLaplacian g u v + (if u =? v then d - rdeg g u else 0))%R).
    - rewrite quad_sum, (quad_diag _ (fun u => d - rdeg g u)%R). destruct (matrix_psd_low g Hr) as [P _]. specialize (P x). pose proof (slack x). lra.
    - intros i j _ _. unfold matrix_of_graph. destruct (i =? j); ring.
  Qed.
  Lemma lap_high_psd : psd (g_n g) (fun u v => - matrix_of_graph MatLaplacian g u v + (if u =? v then 2 * d else 0))%R.
  Proof.
    intros x. rewrite (quad_ext _ _ (fun u v => ((if u =? v then rdeg g u else 0) + rw g u v) + (if u =? v then 2 * (d - rdeg g u) else 0))%R).
    - rewrite quad_sum, (quad_diag _ (fun u => 2 * (d - rdeg g u))%R). pose proof (signless_form_psd g Hr x). pose proof (slack x).
      rewrite (rsum_ext _ (fun u => 2 * (d - rdeg g u) * x u ^ 2)%R (fun u => 2 * ((d - rdeg g u) * x u ^ 2))%R) by (intros; ring).
      rewrite rsum_scal. lra.
    - intros i j _ _. unfold matrix_of_graph. destruct (i =? j); ring.
  Qed.
End Psd.
Lemma nlap_high_psd (g : graph R) : reachable_pos g ->
  psd (g_n g) (fun u v => - matrix_of_graph MatNormalisedLaplacian g u v + (if u =? v then 2 else 0))%R.
Proof.
  intros Hr x. pose proof (reachable_pos_reachable g Hr) as Hr'.
  rewrite (quad_ext _ _ (fun u v => (-1) * matrix_of_graph MatNormalisedLaplacian g u v + (if u =? v then 2 else 0))%R) by (intros; ring).
  rewrite quad_affine. destruct (normalised_bounds_pos false g x Hr) as [_ B]. unfold number_of_vertices in B.
  rewrite (quad_ext _ _ (matrix_of_graph MatNormalisedLaplacian g)) in B; [lra|].
  intros i j Hi Hj. unfold rcoeff. cbn [toR ExactR]. rewrite (query_formula g QNLap Hr'). now apply lap_entries.
Qed.

(** ** compute_eigensystem *)
Section Top.
  Variable solver : eigen_solver (W := R).
  Hypothesis SC : solver_contract solver.

  Lemma leading_ext (ord : R -> R -> Prop) n M M' num r : (forall i j, i < n -> j < n -> M' i j = M i j) -> leading ord n M num r -> leading ord n M' num r.
  Proof. intros E (Es & Sy & Ho & Hr). exists Es. split; [now apply (eigen_system_ext n M)|auto]. Qed.
  Lemma Reqb0 (x : R) : weqb x w0 = true -> x = 0%R.
  Proof. intros E. apply (proj1 (toR_eqb x w0)) in E. exact E. Qed.

  (** One call of the inner function on a positive semidefinite operator. *)
  Lemma largestmag_spec n (Ms : sprs R) (M : nat -> nat -> R) num (offset : R) (invert : bool) which : sp_square Ms n -> (1 <= num < Z.of_nat n)%Z ->
    (forall i j, i < n -> j < n -> coeff Ms i j = coeff Ms j i) ->
    psd n (coeff Ms) -> (which = if invert then Smallest else Largest) ->
    (forall i j, i < n -> j < n -> M i j = ((if invert then -1 else 1) * (coeff Ms i j + (if i =? j then offset else 0)))%R) ->
    match largestmag solver Ms num offset invert with
    | Ok r => leading (order_of which) n M (Z.to_nat num) r
    | Throw e => e = RuntimeError
    | UB => False
    end.
  Proof.
    intros Sq Hnum Hs P Hw EM. unfold largestmag. destruct Sq as (Rr & Cc & Wf). rewrite Rr.
    destruct (Z.ltb_spec num 1); [lia|]. destruct (Z.leb_spec (Z.of_nat n) num); [lia|]. cbn [orb].
    destruct (solver Ms num (Z.min (10 * num) (Z.of_nat n))) as [r|] eqn:E; [|reflexivity].
    apply (SC Ms n) in E; auto; [|repeat split; auto].
    assert (L : leading decreasing_magnitude n (coeff Ms) (Z.to_nat num) r).
    { eapply leading_ext; [|exact E]. intros i j Hi Hj. unfold upper_sym. destruct (Nat.le_ge_cases i j).
      - now rewrite Nat.min_l, Nat.max_r by auto.
      - rewrite Nat.min_r, Nat.max_l by auto. now apply Hs. }
    destruct (negb (weqb offset w0) || invert) eqn:B.
    - pose proof (leading_transform n (coeff Ms) M (Z.to_nat num) r (if invert then -1 else 1)%R ((if invert then -1 else 1) * offset)%R which P) as T.
      assert (Em : map (fun p => (if invert then wmul (wadd (fst p) offset) (wopp w1) else wadd (fst p) offset, snd p)) r =
        map (fun p => (((if invert then -1 else 1) * fst p + (if invert then -1 else 1) * offset)%R, snd p)) r).
      { apply map_ext. intros p. f_equal. destruct invert; cbn [wadd wmul wopp w1 NumR]; ring. }
      cbv zeta. rewrite Em. apply T; auto.
      + rewrite Hw. destruct invert; reflexivity.
      + intros i j Hi Hj. rewrite EM by auto. destruct (i =? j), invert; ring.
    - apply orb_false_iff in B. destruct B as [B ->]. apply negb_false_iff, Reqb0 in B. subst offset.
      pose proof (leading_transform n (coeff Ms) M (Z.to_nat num) r 1 0 which P) as T. rewrite Hw in *.
      rewrite (map_ext _ (fun p => p)) in T; [rewrite map_id in T; apply T; auto|].
      + intros i j Hi Hj. rewrite EM by auto. destruct (i =? j); ring.
      + intros [a b]. simpl. f_equal. ring.
  Qed.

  Theorem compute_eigensystem_spec (g : graph R) mat num which : reachable_pos g ->
    (1 <= num < Z.of_nat (number_of_vertices g))%Z ->
    let (g', o) := compute_eigensystem solver g mat num which in
    same_base g g' /\ caches_ok g' /\
    match o with
    | Ok r => leading (order_of which) (number_of_vertices g) (matrix_of_graph mat g) (Z.to_nat num) r
    | Throw e => e = RuntimeError
    | UB => False
    end.
  Proof.
    unfold number_of_vertices. intros Hr Hnum. pose proof (reachable_pos_reachable g Hr) as Hr'.
    unfold compute_eigensystem, number_of_vertices. destruct (Z.ltb_spec num 1); [lia|].
    destruct (Z.leb_spec (Z.of_nat (g_n g)) num); [lia|]. cbn [orb].
    destruct (reachable_ok g Hr') as [Hok Hc]. pose proof Hok as Hsq. 
    destruct (max_degree_spec g (seq 0 (g_n g)) Hr' (fun v Hv => proj2 (proj1 (in_seq _ _ _) Hv)) g w0 Hc (same_base_refl g))
      as (g1 & d & E & C1 & S1 & Hd0 & Hd & _). rewrite E.
    assert (Hdeg : forall v, v < g_n g -> (rdeg g v <= d)%R) by (intros v Hv; apply Hd, in_seq; lia).
    assert (Ew : forall u v, coeff (g_adj g1) u v = rw g u v) by (intros u v; destruct S1 as (_ & <- & _); reflexivity).
    assert (Sq1 : sp_square (g_adj g1) (g_n g)) by (destruct S1 as (_ & <- & _); exact Hsq).
    destruct mat, which.
    - split; [exact S1|]. split; [exact C1|]. eapply largestmag_spec; auto.
      + now apply shift_diag_square.
      + intros i j Hi Hj. rewrite !shift_diag_coeff by auto. rewrite !Ew, (rw_sym g i j Hr'), (Nat.eqb_sym i j). reflexivity.
      + intros x. rewrite (quad_ext _ _ (fun u v => rw g u v + (if u =? v then d else 0))%R); [now apply adj_plus_psd|].
        intros i j Hi Hj. now rewrite shift_diag_coeff, Ew by auto.
      + intros i j Hi Hj. rewrite shift_diag_coeff, Ew by auto. cbn [wopp NumR]. unfold matrix_of_graph. destruct (i =? j); ring.
    - split; [exact S1|]. split; [exact C1|]. eapply largestmag_spec; auto.
      + now apply shift_diag_square, sp_map_square.
      + intros i j Hi Hj. rewrite !shift_diag_coeff by (auto using sp_map_square). rewrite !opp_coeff, !Ew, (rw_sym g i j Hr'), (Nat.eqb_sym i j). reflexivity.
      + intros x. rewrite (quad_ext _ _ (fun u v => - rw g u v + (if u =? v then d else 0))%R); [now apply adj_minus_psd|].
        intros i j Hi Hj. now rewrite shift_diag_coeff, opp_coeff, Ew by (auto using sp_map_square).
      + intros i j Hi Hj. rewrite shift_diag_coeff, opp_coeff, Ew by (auto using sp_map_square). cbn [wopp NumR]. unfold matrix_of_graph. destruct (i =? j); ring.
    - destruct (mat_query_spec QLap g1 C1) as (C2 & S2 & E2). destruct (mat_query QLap g1) as [g2 L]. cbn [fst snd] in *. subst L.
      split; [eapply same_base_trans; eauto|]. split; [exact C2|]. 
      assert (EA : g_adj g1 = g_adj g) by (destruct S1 as (_ & -> & _); reflexivity). rewrite EA.
      eapply largestmag_spec; auto.
      + apply lap_square; auto.
      + intros i j Hi Hj. destruct (lap_entries g i j Hr Hi Hj) as [-> _]. destruct (lap_entries g j i Hr Hj Hi) as [-> _]. now apply matrix_sym.
      + intros x. rewrite (quad_ext _ _ (matrix_of_graph MatLaplacian g)); [now apply matrix_psd_low|]. intros i j Hi Hj. now apply lap_entries.
      + intros i j Hi Hj. destruct (lap_entries g i j Hr Hi Hj) as [-> _]. cbn [w0 NumR]. destruct (i =? j); ring.
    - destruct (mat_query_spec QLap g1 C1) as (C2 & S2 & E2). destruct (mat_query QLap g1) as [g2 L]. cbn [fst snd] in *. subst L.
      split; [eapply same_base_trans; eauto|]. split; [exact C2|].
      assert (EA : g_adj g1 = g_adj g) by (destruct S1 as (_ & -> & _); reflexivity). rewrite EA.
      assert (SL : sp_square (sp_map wopp (mat_formula QLap (g_adj g))) (g_n g)) by (apply sp_map_square, lap_square; auto).
      assert (EL : forall i j, i < g_n g -> j < g_n g ->
        coeff (shift_diag (g_n g) (sp_map wopp (mat_formula QLap (g_adj g))) (wmul (wadd w1 w1) d)) i j =
        (- matrix_of_graph MatLaplacian g i j + (if i =? j then 2 * d else 0))%R).
      { intros i j Hi Hj. rewrite shift_diag_coeff, opp_coeff by auto. destruct (lap_entries g i j Hr Hi Hj) as [-> _].
        cbn [wmul wadd w1 NumR]. destruct (i =? j); ring. }
      eapply largestmag_spec; auto.
      + now apply shift_diag_square.
      + intros i j Hi Hj. rewrite !EL by auto. rewrite (matrix_sym _ g i j Hr'), (Nat.eqb_sym i j). reflexivity.
      + intros x. rewrite (quad_ext _ _ (fun u v => - matrix_of_graph MatLaplacian g u v + (if u =? v then 2 * d else 0))%R); [now apply lap_high_psd|].
        exact EL.
      + intros i j Hi Hj. rewrite EL by auto. cbn [wopp wmul wadd w1 NumR]. destruct (i =? j); ring.
    - destruct (mat_query_spec QNLap g1 C1) as (C2 & S2 & E2). destruct (mat_query QNLap g1) as [g2 L]. cbn [fst snd] in *. subst L.
      split; [eapply same_base_trans; eauto|]. split; [exact C2|]. 
      assert (EA : g_adj g1 = g_adj g) by (destruct S1 as (_ & -> & _); reflexivity). rewrite EA.
      eapply largestmag_spec; auto.
      + apply lap_square; auto.
      + intros i j Hi Hj. destruct (lap_entries g i j Hr Hi Hj) as [_ ->]. destruct (lap_entries g j i Hr Hj Hi) as [_ ->]. now apply matrix_sym.
      + intros x. rewrite (quad_ext _ _ (matrix_of_graph MatNormalisedLaplacian g)); [now apply matrix_psd_low|]. intros i j Hi Hj. now apply lap_entries.
      + intros i j Hi Hj. destruct (lap_entries g i j Hr Hi Hj) as [_ ->]. cbn [w0 NumR]. destruct (i =? j); ring.
    - destruct (mat_query_spec QNLap g1 C1) as (C2 & S2 & E2). destruct (mat_query QNLap g1) as [g2 L]. cbn [fst snd] in *. subst L.
      split; [eapply same_base_trans; eauto|]. split; [exact C2|].
      assert (EA : g_adj g1 = g_adj g) by (destruct S1 as (_ & -> & _); reflexivity). rewrite EA.
      assert (SL : sp_square (sp_map wopp (mat_formula QNLap (g_adj g))) (g_n g)) by (apply sp_map_square, lap_square; auto).
      assert (EL : forall i j, i < g_n g -> j < g_n g ->
        coeff (shift_diag (g_n g) (sp_map wopp (mat_formula QNLap (g_adj g))) (wadd w1 w1)) i j =
        (- matrix_of_graph MatNormalisedLaplacian g i j + (if i =? j then 2 else 0))%R).
      { intros i j Hi Hj. rewrite shift_diag_coeff, opp_coeff by auto. destruct (lap_entries g i j Hr Hi Hj) as [_ ->].
        cbn [wmul wadd w1 NumR]. destruct (i =? j); ring. }
      eapply largestmag_spec; auto.
      + now apply shift_diag_square.
      + intros i j Hi Hj. rewrite !EL by auto. rewrite (matrix_sym _ g i j Hr'), (Nat.eqb_sym i j). reflexivity.
      + intros x. rewrite (quad_ext _ _ (fun u v => - matrix_of_graph MatNormalisedLaplacian g u v + (if u =? v then 2 else 0))%R); [now apply nlap_high_psd|].
        exact EL.
      + intros i j Hi Hj. rewrite EL by auto. cbn [wopp wmul wadd w1 NumR]. destruct (i =? j); ring.
  Qed.
  Theorem compute_eigensystem_invalid (g : graph R) mat num which :
    (num < 1 \/ Z.of_nat (number_of_vertices g) <= num)%Z ->
    snd (compute_eigensystem solver g mat num which) = Throw InvalidArgument.
  Proof.
    intros Hn. unfold compute_eigensystem. destruct (Z.ltb_spec num 1); [reflexivity|].
    destruct (Z.leb_spec (Z.of_nat (number_of_vertices g)) num); [reflexivity|lia].
  Qed.
End Top.

(** ** Nothing is missed *)
Section Complete.
  Variables (n : nat) (M : nat -> nat -> R) (E : list (R * list R)).
  Hypothesis HE : eigen_system n M E.
  Hypothesis HM : forall i j, i < n -> j < n -> M i j = M j i.

  Lemma dot_mulv_sym x y : dot n x (mulv n M y) = dot n (mulv n M x) y.
  Proof.
    unfold dot, mulv. rewrite (rsum_ext n _ (fun i => rsum n (fun j => x i * (M i j * y j))%R)) by (intros; symmetry; apply rsum_scal).
    rewrite rsum_swap. apply rsum_ext. intros j Hj. rewrite <- rsum_scal_r. apply rsum_ext. intros i Hi. rewrite (HM j i) by auto. ring.
  Qed.
  Lemma eigenvalue_listed mu x : eigenpair n M mu x -> (exists i, i < n /\ x i <> 0%R) -> exists p, In p E /\ fst p = mu.
  Proof.
    intros Hx (i & Hi & Ni). destruct HE as (Hl & Hp & Ho & Hc). rewrite Forall_forall in Hp.
    destruct (Exists_dec (fun p => fst p = mu) E (fun p => Req_EM_T (fst p) mu)) as [Ex|Nx].
    - apply Exists_exists in Ex. destruct Ex as (p & Hin & He). eauto.
    - exfalso. apply Ni. rewrite (Hc x i Hi). apply lsum_0. intros p Hin.
      assert (D : dot n x (vx (snd p)) = 0%R); [|rewrite D; ring].
      assert (Hd : fst p <> mu) by (intros He; apply Nx, Exists_exists; eauto).
      destruct (Hp p Hin) as [_ P].
      assert (E1 : dot n x (mulv n M (vx (snd p))) = (fst p * dot n x (vx (snd p)))%R).
      { unfold dot. rewrite <- rsum_scal. apply rsum_ext. intros k Hk. rewrite P by auto. ring. }
      assert (E2 : dot n (mulv n M x) (vx (snd p)) = (mu * dot n x (vx (snd p)))%R).
      { unfold dot. rewrite <- rsum_scal. apply rsum_ext. intros k Hk. rewrite (Hx k Hk). ring. }
      rewrite <- dot_mulv_sym, E1 in E2.
      assert (E3 : ((fst p - mu) * dot n x (vx (snd p)) = 0)%R) by lra.
      apply Rmult_integral in E3. destruct E3; [lra|assumption].
  Qed.
End Complete.
Lemma StronglySorted_app_inv {A} (P : A -> A -> Prop) l1 l2 : StronglySorted P (l1 ++ l2) ->
  StronglySorted P l1 /\ forall a b, In a l1 -> In b l2 -> P a b.
Proof.
  induction l1 as [|x l1 IH]; simpl; intros S; [split; [constructor|intros a b []]|].
  inversion S as [|? ? S' F]; subst. destruct (IH S') as [S1 C]. rewrite Forall_app in F. destruct F as [F1 F2].
  split; [constructor; auto|]. intros a b [<-|Ha] Hb; [|auto]. rewrite Forall_forall in F2. auto.
Qed.
(** What [leading] says, spelt out. *)
Lemma leading_facts (ord : R -> R -> Prop) n M num r : leading ord n M num r -> num <= n ->
  (forall i j, i < n -> j < n -> M i j = M j i) ->
  length r = num /\
  (forall p, In p r -> length (snd p) = n /\ eigenpair n M (fst p) (vx (snd p))) /\
  (forall a b d, a < num -> b < num -> dot n (vx (snd (nth a r d))) (vx (snd (nth b r d))) = if a =? b then 1%R else 0%R) /\
  StronglySorted ord (map fst r) /\
  (forall mu x, eigenpair n M mu x -> (exists i, i < n /\ x i <> 0%R) ->
     In mu (map fst r) \/ (forall p, In p r -> ord (fst p) mu)).
Proof.
  intros (E & HE & Hs & ->) Hn HM. pose proof HE as (Hl & Hp & Ho & Hc). rewrite Forall_forall in Hp.
  assert (Hin : forall p, In p (firstn num E) -> In p E).
  { intros p Hi. rewrite <- (firstn_skipn num E). apply in_or_app. now left. }
  rewrite <- (firstn_skipn num E), map_app in Hs. destruct (StronglySorted_app_inv _ _ _ Hs) as [Hs1 Hs2].
  split; [rewrite firstn_length; lia|]. split; [auto|]. split; [|split; [exact Hs1|]].
  - intros a b d Ha Hb. assert (Hnth : forall k, k < num -> nth k (firstn num E) d = nth k E d).
    { intros k Hk. rewrite <- (firstn_skipn num E) at 2. rewrite app_nth1; auto. rewrite firstn_length. lia. }
    rewrite !Hnth by auto. apply Ho; lia.
  - intros mu x Hx Hn0. destruct (eigenvalue_listed n M E HE HM mu x Hx Hn0) as (p & Hi & <-).
    rewrite <- (firstn_skipn num E) in Hi. apply in_app_or in Hi. destruct Hi as [Hi|Hi]; [left; now apply in_map|].
    right. intros q Hq. apply Hs2; now apply in_map.
Qed.
