(** The shells of the CKNS estimator, over the reals. *)
From Verif Require Import Base Num RSum Cluster ClusterSweep ThreadPool ThreadPoolTop Kde KdeFacts KdeFacts2 KdeFacts3.
From Coq Require Import ZArith Permutation Reals Lra SpecFloat.
Local Open Scope R_scope.

Definition LOG2c : R := 69314718056 / 100000000000.
(** squared radius of shell j *)
Definition radius2 (a : R) (j : Z) : R := IZR j * LOG2c / a.
(** shell j = 1 .. J is the annulus between two radii, shell 0 is everything beyond the last one *)
Definition in_shell (a : R) (J j : Z) (d : R) : bool :=
  if (j =? 0)%Z then R_ltb (radius2 a J) d else R_ltb (radius2 a (j - 1)) d && R_leb d (radius2 a j).

Lemma LOG2c_pos : 0 < LOG2c.
Proof. unfold LOG2c. lra. Qed.

Lemma radius2_mono a i j : 0 < a -> (i <= j)%Z -> radius2 a i <= radius2 a j.
Proof.
  intros Ha L. unfold radius2, Rdiv. pose proof LOG2c_pos. apply Rmult_le_compat_r; [left; now apply Rinv_0_lt_compat|]. apply Rmult_le_compat_r; [lra|]. now apply IZR_le.
Qed.

Lemma radius2_0 a : radius2 a 0 = 0.
Proof. unfold radius2, Rdiv. ring. Qed.

Lemma R_ltb_true x y : R_ltb x y = true <-> x < y.
Proof. unfold R_ltb. destruct (Rlt_dec x y); split; auto; discriminate. Qed.
Lemma R_leb_true x y : R_leb x y = true <-> x <= y.
Proof. unfold R_leb. destruct (Rle_dec x y); split; auto; discriminate. Qed.

(** Every positive distance lies in exactly one shell. *)
Lemma shells_partition a J d : 0 < a -> (0 <= J)%Z -> 0 < d -> exists! j : Z, (0 <= j <= J)%Z /\ in_shell a J j d = true.
Proof.
  intros Ha HJ Hd.
  assert (forall j j', (0 <= j <= J)%Z -> (0 <= j' <= J)%Z -> (j < j')%Z -> in_shell a J j d = true -> in_shell a J j' d = true -> j = 0%Z /\ False \/ False) as X.
  { intros j j' Hj Hj' L S S'. unfold in_shell in *. destruct (Z.eqb_spec j' 0); [lia|]. apply andb_true_iff in S' as [S1 S2]. apply R_ltb_true in S1. apply R_leb_true in S2.
    destruct (Z.eqb_spec j 0).
    - apply R_ltb_true in S. pose proof (radius2_mono a j' J Ha ltac:(lia)). lra.
    - apply andb_true_iff in S as [S3 S4]. apply R_leb_true in S4. pose proof (radius2_mono a j (j' - 1) Ha ltac:(lia)). lra. }
  assert (exists j : Z, (0 <= j <= J)%Z /\ in_shell a J j d = true) as (j & Hj & S).
  { destruct (Rlt_dec (radius2 a J) d) as [L|L].
    { exists 0%Z. split; [lia|]. unfold in_shell. simpl. now apply R_ltb_true. }
    assert (forall n : nat, (Z.of_nat n <= J)%Z -> d <= radius2 a (Z.of_nat n) -> exists j : Z, (0 <= j <= J)%Z /\ in_shell a J j d = true) as A.
    { induction n as [|n IH]; intros Hn Hr; [simpl in Hr; rewrite radius2_0 in Hr; lra|]. destruct (Rle_dec d (radius2 a (Z.of_nat n))) as [L2|L2]; [apply IH; auto; lia|].
      exists (Z.of_nat (S n)). split; [lia|]. unfold in_shell. destruct (Z.eqb_spec (Z.of_nat (S n)) 0); [lia|]. apply andb_true_iff. split; [|now apply R_leb_true].
      apply R_ltb_true. replace (Z.of_nat (S n) - 1)%Z with (Z.of_nat n) by lia. lra. }
    apply (A (Z.to_nat J)); rewrite Z2Nat.id by auto; [lia|lra]. }
  exists j. split; auto. intros j' [Hj' S']. destruct (Z.lt_trichotomy j j') as [L|[E|L]]; auto; exfalso.
  - destruct (X j j' Hj Hj' L S S') as [[_ []]|[]].
  - destruct (X j' j Hj' Hj L S' S) as [[_ []]|[]].
Qed.

Lemma sqd_at_most_R uv : forall r m, 0 <= r <= m ->
  sqd_at_most uv r m = let d := fold_left (fun r xy => wadd r (wmul (wsub (fst xy) (snd xy)) (wsub (fst xy) (snd xy)))) uv r in if R_leb d m then d else -1.
Proof.
  induction uv as [|[x y] uv IH]; intros r m Hr; cbn [sqd_at_most fold_left fst snd].
  - cbv zeta. destruct (R_leb r m) eqn:E; auto. apply not_true_iff_false in E. rewrite R_leb_true in E. lra.
  - cbn [wadd wmul wsub NumR]. assert (0 <= (x - y) * (x - y)) by (pose proof (pow2_ge_0 (x - y)); lra).
    change (wltb (W := R)) with R_ltb. destruct (R_ltb m (r + (x - y) * (x - y))) eqn:E.
    + apply R_ltb_true in E. cbv zeta. set (F := fold_left _ _ _).
      assert (r + (x - y) * (x - y) <= F) as G.
      { unfold F. clear. generalize (r + (x - y) * (x - y)) as z. induction uv as [|[u v] uv IH]; intros z; cbn [fold_left fst snd]; [lra|]. eapply Rle_trans; [|apply IH].
        cbn [wadd wmul wsub NumR]. pose proof (pow2_ge_0 (u - v)). simpl in H. lra. }
      destruct (R_leb F m) eqn:E2; [apply R_leb_true in E2; lra|]. cbn. reflexivity.
    + apply not_true_iff_false in E. rewrite R_ltb_true in E. rewrite IH by lra. reflexivity.
Qed.

Lemma squared_distance_at_most_R u v m : 0 <= m -> squared_distance_at_most u v m = if R_leb (dist2 u v) m then dist2 u v else -1.
Proof.
  intros Hm. unfold squared_distance_at_most. cbn [w0 NumR]. rewrite sqd_at_most_R by lra. cbv zeta. rewrite <- squared_distance_R. reflexivity.
Qed.

(** Sampling probability of a unit *)
Definition unit_p (n log_nmu j offset : Z) : R := ckns_p_sampling j log_nmu n offset.

Lemma unit_p_range n l j o : (1 <= n)%Z -> 0 < unit_p n l j o <= 1.
Proof.
  intros Hn. unfold unit_p, ckns_p_sampling, wmin1. cbn [wltb NumR w1 wdiv wmul wpow2 KNumR wofZ].
  assert (forall x, 0 < x -> 0 < (if R_ltb 1 x then 1 else x) <= 1) as A.
  { intros x Hx. destruct (R_ltb 1 x) eqn:E; [lra|]. apply not_true_iff_false in E. rewrite R_ltb_true in E. lra. }
  assert (0 < IZR n) by (apply IZR_lt; lia).
  destruct (j =? 0)%Z; apply A; [apply Rdiv_lt_0_compat; auto; apply powerRZ_lt; lra|apply Rmult_lt_0_compat; apply powerRZ_lt; lra].
Qed.

(** the number of points a unit looks at *)
Definition unit_num (n log_nmu j offset : Z) : nat := Z.to_nat (Int_part (unit_p n log_nmu j offset * IZR n)).

Lemma Int_part_bounds x : IZR (Int_part x) <= x < IZR (Int_part x) + 1.
Proof. destruct (base_Int_part x). lra. Qed.

Lemma Int_part_unique x z : IZR z <= x < IZR z + 1 -> Int_part x = z.
Proof.
  intros A. pose proof (Int_part_bounds x) as B. assert (Int_part x < z + 1)%Z by (apply lt_IZR; rewrite plus_IZR; lra). assert (z < Int_part x + 1)%Z by (apply lt_IZR; rewrite plus_IZR; lra). lia.
Qed.

Lemma starting_idx_R p n : 0 < p <= 1 -> starting_idx p n = 0%Z.
Proof.
  intros Hp. unfold starting_idx. cbn [wleb NumR w1 wadd wdiv wsub wmul wfloor KNumR]. destruct (R_leb p (1 / (1 + 1))) eqn:E; auto. apply R_leb_true in E.
  unfold R_floor. rewrite (Int_part_unique _ 0); [reflexivity|]. lra.
Qed.

Lemma sampled_R (data : list (list R)) p : 0 < p <= 1 -> sampled_points data (starting_idx p (Z.of_nat (length data))) (num_sampled p (Z.of_nat (length data)))
  = firstn (Z.to_nat (Int_part (p * IZR (Z.of_nat (length data))))) data.
Proof.
  intros Hp. rewrite starting_idx_R by auto. unfold num_sampled. cbn [wfloor KNumR wmul NumR wofZ]. unfold R_floor, sampled_points. change (Z.to_nat 0) with 0%nat.
  set (k := Z.to_nat _). assert (k <= length data)%nat as L.
  { unfold k. rewrite <- (Nat2Z.id (length data)) at 2. apply Z2Nat.inj_le; try lia.
    - pose proof (Int_part_bounds (p * IZR (Z.of_nat (length data)))). assert (0 <= p * IZR (Z.of_nat (length data))) by (apply Rmult_le_pos; [lra|apply IZR_le; lia]).
      assert (-1 < Int_part (p * IZR (Z.of_nat (length data))))%Z by (apply lt_IZR; lra). lia.
    - pose proof (Int_part_bounds (p * IZR (Z.of_nat (length data)))) as B. apply le_IZR. apply Rle_trans with (p * IZR (Z.of_nat (length data))); [lra|].
      rewrite <- (Rmult_1_l (IZR (Z.of_nat (length data)))) at 2. apply Rmult_le_compat_r; [apply IZR_le; lia|lra]. }
  clearbody k. revert k L. induction data as [|x data IH]; intros [|k] L; simpl in *; auto; try lia. f_equal. rewrite <- IH at 1 by lia. rewrite <- seq_shift, map_map. reflexivity.
Qed.

(** The answer of a unit: the sum of the kernel values of the candidates in its shell, divided by the sampling probability. *)
Lemma query_neighbors_R u q nbrs : 0 < u_a u -> (0 <= u_j u)%Z -> u_final u = (u_j u =? 0)%Z ->
  query_neighbors u q nbrs = lsum (fun x => if in_shell (u_a u) (u_J u) (u_j u) (dist2 q x) then gauss (u_a u) q x / unit_p (u_n u) (u_log_nmu u) (u_j u) (u_offset u) else 0) nbrs.
Proof.
  intros Ha Hj Hf. unfold query_neighbors. cbn [w0 NumR]. fold (unit_p (u_n u) (u_log_nmu u) (u_j u) (u_offset u)). set (p := unit_p _ _ _ _).
  assert (forall x, (let d := if u_final u then squared_distance q x else squared_distance_at_most q x (rj_squared (u_j u) (u_a u)) in
      (R_ltb (inner_radius u) d = in_shell (u_a u) (u_J u) (u_j u) (dist2 q x)) /\ (R_ltb (inner_radius u) d = true -> d = dist2 q x))) as A.
  { intros x. cbv zeta. assert (forall j, rj_squared j (u_a u) = radius2 (u_a u) j) as Er by reflexivity.
    pose proof (dist2_nonneg q x) as Hd. unfold in_shell, inner_radius. rewrite Hf. destruct (Z.eqb_spec (u_j u) 0) as [Z|N].
    - rewrite squared_distance_R. rewrite Z. simpl (1 <? 0)%Z. cbv iota. rewrite Er. auto.
    - assert (0 <= radius2 (u_a u) (u_j u)) as Hr by (rewrite <- (radius2_0 (u_a u)); apply radius2_mono; auto; lia).
      rewrite squared_distance_at_most_R by (rewrite Er; auto). rewrite !Er. assert ((if (1 <? u_j u)%Z then radius2 (u_a u) (u_j u - 1) else w0) = radius2 (u_a u) (u_j u - 1)) as ->.
      { destruct (Z.ltb_spec 1 (u_j u)); auto. replace (u_j u - 1)%Z with 0%Z by lia. now rewrite radius2_0. }
      destruct (R_leb (dist2 q x) (radius2 (u_a u) (u_j u))) eqn:E; [rewrite andb_true_r; auto|]. rewrite andb_false_r.
      assert (R_ltb (radius2 (u_a u) (u_j u - 1)) (-1) = false) as ->; [|split; auto; discriminate]. apply not_true_iff_false. rewrite R_ltb_true.
      assert (0 <= radius2 (u_a u) (u_j u - 1)) by (rewrite <- (radius2_0 (u_a u)); apply radius2_mono; auto; lia). lra. }
  enough (forall z, fold_left (fun total x =>
      let d := if u_final u then squared_distance q x else squared_distance_at_most q x (rj_squared (u_j u) (u_a u)) in
      if wltb (inner_radius u) d then wadd total (wdiv (gaussian_kernel_sq (u_a u) d) p) else total) nbrs z =
    z + lsum (fun x => if in_shell (u_a u) (u_J u) (u_j u) (dist2 q x) then gauss (u_a u) q x / p else 0) nbrs) as B.
  { rewrite B. apply Rplus_0_l. }
  induction nbrs as [|x nbrs IH]; intros z; cbn [fold_left lsum]; [lra|]. rewrite IH. destruct (A x) as [A1 A2]. cbv zeta in A1, A2 |- *.
  change (wltb (W := R)) with R_ltb. rewrite <- A1. destruct (R_ltb (inner_radius u) _) eqn:E; [|lra]. rewrite (A2 eq_refl).
  cbn [wadd wdiv NumR]. unfold gaussian_kernel_sq, gauss. cbn [wexp KNumR wopp wmul NumR]. replace (- (u_a u * dist2 q x)) with (- u_a u * dist2 q x) by ring. ring.
Qed.

(** which of the sampled points the unit looks at: all, unless it uses hash tables *)
Definition candidates (j : Z) (hs : list (list R -> Z)) (q : list R) (pts : list (list R)) : list (list R) :=
  if ((j =? 0) || (Z.of_nat (length pts) <=? 3000))%Z then pts else filter (fun x => existsb (fun h => (h x =? h q)%Z) hs) pts.

Lemma hunit_query_R a data l j o hs q : 0 < a -> (0 <= j)%Z -> data <> [] ->
  let n := Z.of_nat (length data) in
  hunit_query (hunit_new a data l j o hs) q =
  lsum (fun x => if in_shell a (ckns_J n l) j (dist2 q x) then gauss a q x / unit_p n l j o else 0)
    (candidates j hs q (firstn (unit_num n l j o) data)).
Proof.
  intros Ha Hj Nd n. assert (1 <= n)%Z as Hn by (unfold n; destruct data; [congruence|simpl length; lia]).
  pose proof (unit_p_range n l j o Hn) as Hp. unfold hunit_new. fold n. change (ckns_p_sampling j l n o) with (unit_p n l j o).
  assert (sampled_points data (starting_idx (unit_p n l j o) n) (num_sampled (unit_p n l j o) n) = firstn (unit_num n l j o) data) as -> by (apply sampled_R; auto). set (pts := firstn _ data). unfold candidates, hash_unit_cutoff. unfold point in *. destruct (j =? 0)%Z eqn:Ej; cbn [orb].
  - unfold hunit_query. cbn [u_below u_final orb u_data]. rewrite query_neighbors_R by (cbn [u_a u_j u_final]; rewrite ?Ej; auto). reflexivity.
  - destruct (Z.of_nat (length pts) <=? 3000)%Z.
    + unfold hunit_query. cbn [u_below u_final orb u_data]. rewrite query_neighbors_R by (cbn [u_a u_j u_final]; rewrite ?Ej; auto). reflexivity.
    + unfold hunit_query. cbn [u_below u_final orb u_lsh]. rewrite query_neighbors_R by (cbn [u_a u_j u_final]; rewrite ?Ej; auto). cbn [u_a u_J u_j u_n u_log_nmu u_offset].
      apply lsum_perm. apply near_neighbors_spec.
Qed.

(** ** Expectation over the random permutation of the data *)
(** A family of arrangements of the data in which every point is equally often at every position (for example all permutations, or all rotations). *)
Definition balanced (data : list (list R)) (F : list (list (list R))) : Prop :=
  exists m, (1 <= m)%nat /\ Forall (fun c => length c = length data) F /\
    forall i, (i < length data)%nat -> Permutation (map (fun c => nth i c []) F) (concat (repeat data m)).

Lemma lsum_concat_repeat {A} (f : A -> R) l m : lsum f (concat (repeat l m)) = INR m * lsum f l.
Proof. induction m as [|m IH]; [simpl; lra|]. cbn [repeat concat]. rewrite lsum_app, IH, S_INR. ring. Qed.

Lemma lsum_firstn_nth {A} (f : A -> R) k l d : (k <= length l)%nat -> lsum f (firstn k l) = rsum k (fun i => f (nth i l d)).
Proof.
  revert l. induction k as [|k IH]; intros l L; [reflexivity|]. destruct l as [|x l]; [simpl in L; lia|]. cbn [firstn lsum]. unfold rsum. cbn [seq lsum nth].
  rewrite <- seq_shift, lsum_map. cbn [nth]. f_equal. rewrite IH by (simpl in L; lia). reflexivity.
Qed.

Lemma unit_num_le n l j o : (1 <= n)%nat -> (unit_num (Z.of_nat n) l j o <= n)%nat.
Proof.
  intros Hn. unfold unit_num. pose proof (unit_p_range (Z.of_nat n) l j o ltac:(lia)) as Hp. set (p := unit_p _ _ _ _) in *.
  pose proof (Int_part_bounds (p * IZR (Z.of_nat n))) as B. assert (Int_part (p * IZR (Z.of_nat n)) <= Z.of_nat n)%Z; [|lia]. apply le_IZR.
  apply Rle_trans with (p * IZR (Z.of_nat n)); [lra|]. rewrite <- (Rmult_1_l (IZR (Z.of_nat n))) at 2. apply Rmult_le_compat_r; [apply IZR_le; lia|lra].
Qed.

Lemma unit_mean a data F l j o hs q : let n := Z.of_nat (length data) in
  0 < a -> (0 <= j)%Z -> data <> [] -> balanced data F -> (j = 0%Z \/ (Z.of_nat (unit_num n l j o) <= 3000)%Z) ->
  lsum (fun c => hunit_query (hunit_new a c l j o hs) q) F / INR (length F) =
  INR (unit_num n l j o) / (unit_p n l j o * INR (length data)) * lsum (fun x => if in_shell a (ckns_J n l) j (dist2 q x) then gauss a q x else 0) data.
Proof.
  intros n Ha Hj Nd (m & Hm & FL & FP) Hc. assert (1 <= length data)%nat as Hn by (destruct data; [congruence|simpl; lia]).
  pose proof (unit_p_range n l j o ltac:(unfold n; lia)) as Hp. pose proof (unit_num_le (length data) l j o Hn) as Hk. fold n in Hk. set (k := unit_num n l j o) in *.
  set (g := fun x => if in_shell a (ckns_J n l) j (dist2 q x) then gauss a q x else 0).
  assert (length F = m * length data)%nat as LF.
  { specialize (FP 0%nat ltac:(lia)). apply Permutation_length in FP. rewrite map_length in FP. rewrite FP. clear. induction m as [|m IH]; simpl; auto. now rewrite app_length, IH. }
  assert (lsum (fun c => hunit_query (hunit_new a c l j o hs) q) F = lsum (fun c => rsum k (fun i => g (nth i c []))) F / unit_p n l j o) as ->.
  { unfold Rdiv. rewrite <- lsum_scal_r. apply lsum_ext. intros c I. rewrite Forall_forall in FL. pose proof (FL c I) as Lc.
    rewrite hunit_query_R; auto; [|intros ->; simpl in Lc; lia]. unfold point in *. rewrite Lc. fold n k.
    assert (candidates j hs q (firstn k c) = firstn k c) as ->.
    { unfold candidates. destruct Hc as [->|Hc]; [reflexivity|]. rewrite firstn_length_le by lia. apply Z.leb_le in Hc. rewrite Hc, orb_true_r. reflexivity. }
    rewrite (lsum_ext _ (fun x => g x * / unit_p n l j o)) by (intros x _; unfold g; destruct (in_shell _ _ _ _); unfold Rdiv; ring).
    rewrite lsum_scal_r. f_equal. rewrite (lsum_firstn_nth g k c []) by lia. reflexivity. }
  assert (lsum (fun c => rsum k (fun i => g (nth i c []))) F = INR k * (INR m * lsum g data)) as ->.
  { unfold rsum. rewrite lsum_swap. rewrite (lsum_ext _ (fun _ => INR m * lsum g data)).
    - rewrite lsum_const, seq_length. ring.
    - intros i I. apply in_seq in I. rewrite <- (lsum_map g (fun c => nth i c [])). rewrite (lsum_perm _ _ _ (FP i ltac:(lia))). apply lsum_concat_repeat. }
  rewrite LF, mult_INR. assert (0 < INR m) by (apply lt_0_INR; lia). assert (0 < INR (length data)) by (apply lt_0_INR; lia). field. lra.
Qed.

(** ** Data points equal to the query are not counted *)
Lemma in_shell_zero a J j : 0 < a -> (0 <= j)%Z -> (0 <= J)%Z -> in_shell a J j 0 = false.
Proof.
  intros Ha Hj HJ. unfold in_shell. destruct (Z.eqb_spec j 0) as [->|N].
  - apply not_true_iff_false. rewrite R_ltb_true. pose proof (radius2_mono a 0 J Ha HJ). rewrite radius2_0 in H. lra.
  - apply andb_false_iff. left. apply not_true_iff_false. rewrite R_ltb_true. pose proof (radius2_mono a 0 (j - 1) Ha ltac:(lia)). rewrite radius2_0 in H. lra.
Qed.

Lemma hunit_query_same a data l j o hs q : 0 < a -> (0 <= j)%Z -> data <> [] -> (0 <= ckns_J (Z.of_nat (length data)) l)%Z ->
  (forall x, In x data -> x = q) -> hunit_query (hunit_new a data l j o hs) q = 0.
Proof.
  intros Ha Hj Nd HJ A. rewrite hunit_query_R by auto. apply lsum_0. intros x I. assert (x = q) as ->.
  { apply A. unfold candidates in I. destruct (_ || _); [|apply filter_In in I as [I _]]; eapply firstn_In; eauto. }
  rewrite dist2_refl, in_shell_zero; auto.
Qed.

Lemma median_zeros (v : list R) : v <> [] -> (forall x, In x v -> x = 0) -> median v = Ok 0.
Proof.
  intros N A. unfold median. destruct v as [|y w]; [congruence|]. set (v := y :: w) in *. f_equal.
  destruct (nth_in_or_default (length v / 2) (stable_sort wltb v) 0) as [I|D]; [|exact D].
  apply A. eapply Permutation_in; [symmetry; apply stable_sort_perm|exact I].
Qed.

Lemma J_init n lni : ckns_J (W := R) n (max_log_nmu_of (W := R) n - Z.of_nat lni * 2) = (Z.of_nat lni * 2)%Z.
Proof. unfold ckns_J, max_log_nmu_of. lia. Qed.

Lemma ckns_same T a min_mu copies n offset hs k q : 0 < a -> (1 <= n)%nat -> copies <> [] ->
  (forall c, In c copies -> length c = n /\ forall x, In x c -> x = q) ->
  ckns_init T a min_mu copies (Z.of_nat n) offset hs k -> ckns_query k q = Ok 0.
Proof.
  intros Ha Hn Nc A I. destruct (init_fields _ _ _ _ _ _ _ _ I) as (F1 & F2 & F3 & F4).
  assert (forall lni iter, (lni < c_iters k)%nat -> (iter < c_k1 k)%nat -> iter_estimate k q lni iter = 0) as Z.
  { intros lni iter Hl Hi. pose proof (init_units _ _ _ _ _ _ _ _ lni iter I Hl Hi) as P.
    rewrite iter_estimate_cell; [|apply Permutation_length in P; now rewrite map_length in P]. rewrite fold_add_R. cbn [w0 NumR]. rewrite Rplus_0_l. apply lsum_0.
    intros u Iu. apply (Permutation_in _ P) in Iu. apply in_map_iff in Iu as (j & <- & Ij). unfold task_unit.
    destruct (A (nth iter copies [])) as [L B]; [apply nth_In; congruence|].
    apply hunit_query_same; auto; try lia.
    - intros E. rewrite E in L. simpl in L. lia.
    - unfold point in *. rewrite L, J_init. lia. }
  unfold ckns_query. assert (forall lni, In lni (seq 0 (c_iters k)) -> (lni < c_iters k)%nat) as B by (intros l Il; apply in_seq in Il; lia).
  change w0 with 0. assert (Hd : wdiv 0 (wofZ (c_n k)) = 0) by (cbn; unfold Rdiv; ring).
  induction (seq 0 (c_iters k)) as [|lni L IH]; cbn [ckns_query_loop]; [now rewrite Hd|].
  rewrite median_zeros.
  - cbn [obind]. destruct (accepts k lni 0); [now rewrite Hd|]. apply IH. intros l Il. apply B. now right.
  - intros E. apply map_eq_nil in E. rewrite F4 in E. destruct copies; [congruence|discriminate].
  - intros x Ix. apply in_map_iff in Ix as (it & <- & Ii). apply in_seq in Ii. apply Z; [apply B; now left|lia].
Qed.

(** ** One data point: the default constructors build no copies and the query reads the median of nothing. *)
(** K1 of the constructors without K1, kde.cpp:382-410 *)
Definition default_k1 {W} `{Num W} `{KNum W} (n : Z) (eps : W) : Z := wceil (wdiv (wmul w1 (wlog (wofZ n))) (wmul eps eps)).

Lemma default_k1_one eps : default_k1 (W := R) 1 eps = 0%Z.
Proof.
  unfold default_k1. cbn [wceil wdiv wmul w1 wlog wofZ KNumR NumR]. rewrite ln_1. unfold R_ceil. replace (- (1 * 0 / (eps * eps))) with 0 by (unfold Rdiv; ring).
  rewrite (Int_part_unique 0 0); [reflexivity|lra].
Qed.

Lemma ckns_no_copies {W} `{Num W} `{KNum W} T (a min_mu : W) n offset hs k q : (1 <= iterations_of n min_mu)%nat ->
  ckns_init T a min_mu [] n offset hs k -> ckns_query k q = UB.
Proof.
  intros Hi I. destruct (init_fields _ _ _ _ _ _ _ _ I) as (F1 & F2 & F3 & F4). unfold ckns_query. rewrite F3. destruct (iterations_of n min_mu) as [|i]; [lia|].
  cbn [seq ckns_query_loop]. rewrite F4. reflexivity.
Qed.

Lemma iterations_one : iterations_of (W := R) 1 1 = 1%nat.
Proof.
  unfold iterations_of, max_log_nmu_of. cbn [wceil wfloor wlog2 wmul wofZ KNumR NumR]. unfold R_log2, R_ceil, R_floor. rewrite Rmult_1_l, ln_1.
  assert (0 / ln 2 = 0) as -> by (unfold Rdiv; ring). rewrite Ropp_0, (Int_part_unique 0 0) by lra. reflexivity.
Qed.

(** ** The outer shell of 49 points is empty: in doubles 1.0/49*49 is below 1. *)
Definition f64_49 : f64 := S754_finite false 6896136929411072 (-47).

Lemma outer_shell_49 (K : KNum f64) l : wofZ (KNum := K) 49 = f64_49 -> wpow2 (KNum := K) 0 = w1 ->
  (forall x : f64, wleb w0 x = true -> wltb x w1 = true -> wfloor (KNum := K) x = 0%Z) ->
  num_sampled (ckns_p_sampling 0 l 49 0) 49 = 0%Z.
Proof.
  intros E49 E2 Ef. unfold num_sampled, ckns_p_sampling. cbn [Z.eqb Z.opp]. rewrite E49, E2. apply Ef; vm_compute; reflexivity.
Qed.
