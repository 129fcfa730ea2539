(** The power method and the Rayleigh quotient (C62, C63). *)
From Verif Require Import Base Num RSum Sparse SparseFacts Graph GraphSpec GraphFacts GraphProps1 GraphProps2 GraphProps3 Spectrum SpectrumSpec SpectrumFacts.
From Coq Require Import Reals Lra Psatz.
Local Open Scope nat_scope.

Lemma combine_nth_seq {A B} (a : list A) (b : list B) da db : length b = length a ->
  combine a b = map (fun j => (nth j a da, nth j b db)) (seq 0 (length a)).
Proof.
  revert b. induction a as [|x a IH]; intros [|y b] L; simpl in *; try discriminate; auto.
  f_equal. rewrite <- seq_shift, map_map. apply IH. lia.
Qed.
Lemma nth_map_seq {A} (f : nat -> A) n i d : i < n -> nth i (map f (seq 0 n)) d = f i.
Proof.
  intros Hi. rewrite (nth_indep _ d (f 0)) by (rewrite map_length, seq_length; auto).
  rewrite map_nth, seq_nth by auto. reflexivity.
Qed.
Lemma fold_lsum {A} (f : R -> A -> R) (h : A -> R) l : (forall acc x, f acc x = acc + h x)%R ->
  forall acc, fold_left f l acc = (acc + lsum h l)%R.
Proof.
  intros E. induction l as [|x l IH]; intros acc; simpl; [lra|]. rewrite IH, E. lra.
Qed.

(** ** The vector operations *)
Lemma vdot_dot n x y : length x = n -> length y = n -> vdot x y = dot n (vx x) (vx y).
Proof.
  intros Hx Hy. unfold vdot. rewrite (fold_lsum _ (fun p => fst p * snd p)%R) by reflexivity.
  rewrite (combine_nth_seq x y 0%R 0%R) by lia. rewrite lsum_map, Hx. cbn [w0 NumR fst snd]. unfold dot, rsum, vx. lra.
Qed.
Lemma mat_vec_length M (x : list R) : length (mat_vec M x) = sp_rows M.
Proof. unfold mat_vec. now rewrite map_length, seq_length. Qed.
Lemma mat_vec_mulv n M x i : sp_square M n -> length x = n -> i < n -> vx (mat_vec M x) i = mulv n (coeff M) (vx x) i.
Proof.
  intros (Hr & Hc & Hw) Hx Hi. unfold vx, mat_vec. rewrite nth_map_seq by lia.
  rewrite (fold_lsum _ (fun p => o0 (col_get (fst p) i) * snd p)%R).
  - unfold sp_ncols in Hc. rewrite (combine_nth_seq _ x [] 0%R) by lia. rewrite lsum_map, Hc. cbn [w0 NumR fst snd].
    unfold mulv, rsum. rewrite Rplus_0_l. reflexivity.
  - intros acc p. destruct (col_get (fst p) i); simpl; [reflexivity|]. cbn [w0 NumR]. ring.
Qed.
Lemma col_lsum (c : col R) n (f : nat -> R) : col_wf n c ->
  lsum (fun e => f (fst e) * snd e)%R c = rsum n (fun i => f i * o0 (col_get c i))%R.
Proof.
  revert n. induction c as [|[k v] c IH]; intros n Hw; simpl.
  - symmetry. apply rsum_zero. intros i _. cbn [w0 NumR]. ring.
  - assert (Hk : k < n /\ col_wf n c /\ col_get c k = None).
    { destruct Hw as [S F]. simpl in *. inversion S as [|? ? S' H1]; subst. inversion F; subst. split; [auto|]. split; [split; auto|].
      destruct (col_get c k) eqn:G; auto. exfalso. apply col_get_In in G. rewrite Forall_forall in H1.
      specialize (H1 k). assert (k < k); [|lia]. apply H1. apply in_map_iff. exists (k, r). auto. }
    destruct Hk as (Hk & Hw' & G). rewrite (IH n Hw').
    rewrite <- (rsum_delta' n k (fun i => f i * v)%R Hk). rewrite <- rsum_plus. apply rsum_ext. intros i Hi.
    destruct (Nat.eqb_spec k i) as [->|]; [|ring]. rewrite G. simpl. cbn [w0 NumR]. ring.
Qed.
Lemma vec_mat_mulv n M x j : sp_square M n -> length x = n -> j < n ->
  vx (vec_mat x M) j = rsum n (fun i => vx x i * coeff M i j)%R.
Proof.
  intros (Hr & Hc & Hw) Hx Hj. unfold vx, vec_mat. unfold sp_ncols in Hc.
  rewrite (nth_indep _ 0%R ((fun c => fold_left (fun acc e => wadd acc (wmul (nth (fst e) x w0) (snd e))) c w0) [])) by (rewrite map_length; lia).
  rewrite (map_nth (fun c => fold_left (fun acc e => wadd acc (wmul (nth (fst e) x w0) (snd e))) c w0)).
  rewrite (fold_lsum _ (fun e => nth (fst e) x 0 * snd e)%R) by reflexivity.
  rewrite (col_lsum _ n (fun i => nth i x 0%R)).
  - cbn [w0 NumR]. rewrite Rplus_0_l. reflexivity.
  - unfold sp_wf in Hw. rewrite Forall_forall in Hw. rewrite <- Hr. apply Hw, nth_In. lia.
Qed.
Lemma vec_mat_length M (x : list R) : length (vec_mat x M) = sp_ncols M.
Proof. unfold vec_mat. now rewrite map_length. Qed.

(** ** Facts about the bilinear form *)
Lemma dot_nonneg n x : (0 <= dot n x x)%R.
Proof. apply rsum_nonneg. intros. nra. Qed.
Lemma dot_zero n x : dot n x x = 0%R -> forall i, i < n -> x i = 0%R.
Proof.
  intros E i Hi. pose proof (rsum_ge_elt n (fun i => x i * x i)%R i (fun k _ => Rle_0_sqr (x k)) Hi) as L.
  unfold dot in E. rewrite E in L. nra.
Qed.
Lemma dot_scal n c d x y : dot n (fun i => c * x i)%R (fun i => d * y i)%R = (c * d * dot n x y)%R.
Proof. unfold dot. rewrite <- rsum_scal. apply rsum_ext. intros. ring. Qed.
Lemma dot_plus_l n x y z : dot n (fun i => x i + y i)%R z = (dot n x z + dot n y z)%R.
Proof. unfold dot. rewrite <- rsum_plus. apply rsum_ext. intros. ring. Qed.
Lemma dot_scal_l n c x y : dot n (fun i => c * x i)%R y = (c * dot n x y)%R.
Proof. unfold dot. rewrite <- rsum_scal. apply rsum_ext. intros. ring. Qed.
Lemma mulv_scal n M c x i : mulv n M (fun k => c * x k)%R i = (c * mulv n M x i)%R.
Proof. unfold mulv. rewrite <- rsum_scal. apply rsum_ext. intros. ring. Qed.
Lemma mulv_plus n M x y i : mulv n M (fun k => x k + y k)%R i = (mulv n M x i + mulv n M y i)%R.
Proof. unfold mulv. rewrite <- rsum_plus. apply rsum_ext. intros. ring. Qed.
Lemma mulv_ext_vec n M x y i : (forall k, k < n -> x k = y k) -> mulv n M x i = mulv n M y i.
Proof. intros E. apply rsum_ext. intros k Hk. now rewrite E. Qed.
(** Cauchy-Schwarz for a positive semidefinite symmetric form. *)
Lemma disc_nonneg a b c : (forall t : R, 0 <= a + 2 * t * b + t ^ 2 * c)%R -> (b ^ 2 <= a * c)%R.
Proof.
  intros Hq. destruct (Req_dec c 0) as [->|Nc].
  - destruct (Req_dec b 0) as [->|Nb]; [lra|]. exfalso. specialize (Hq (- (a + 1) / (2 * b))%R).
    replace (a + 2 * (- (a + 1) / (2 * b)) * b + (- (a + 1) / (2 * b)) ^ 2 * 0)%R with (-1)%R in Hq by (field; auto). lra.
  - assert (Hc : (0 < c)%R).
    { destruct (Rlt_dec 0 c); auto. exfalso. assert (Hc : (c < 0)%R) by lra.
      specialize (Hq ((Rabs a + 2 * Rabs b + 1) / (- c) + 1)%R). 
      set (t := ((Rabs a + 2 * Rabs b + 1) / (- c) + 1)%R) in *.
      assert (Ht : (t * - c = Rabs a + 2 * Rabs b + 1 - c)%R) by (unfold t; field; lra).
      assert (T1 : (1 <= t)%R).
      { unfold t. assert (0 <= (Rabs a + 2 * Rabs b + 1) / (- c))%R; [|lra].
        apply Rmult_le_pos; [pose proof (Rabs_pos a); pose proof (Rabs_pos b); lra|]. apply Rlt_le, Rinv_0_lt_compat. lra. }
      pose proof (RRle_abs a). pose proof (RRle_abs b). pose proof (Rabs_pos a). pose proof (Rabs_pos b).
      assert (a + 2 * t * b + t ^ 2 * c = a + t * (2 * b - (t * - c)))%R as E by ring.
      rewrite E, Ht in Hq.
      assert (t * (2 * b - (Rabs a + 2 * Rabs b + 1 - c)) <= 1 * (2 * b - (Rabs a + 2 * Rabs b + 1 - c)))%R.
      { assert ((2 * b - (Rabs a + 2 * Rabs b + 1 - c)) <= 0)%R by lra. nra. }
      lra. }
    specialize (Hq (- b / c)%R). replace (a + 2 * (- b / c) * b + (- b / c) ^ 2 * c)%R with (a - b ^ 2 / c)%R in Hq by (field; auto).
    assert (b ^ 2 / c <= a)%R by lra. apply (Rmult_le_compat_r c) in H; [|lra].
    replace (b ^ 2 / c * c)%R with (b ^ 2)%R in H by (field; auto). lra.
Qed.
Section Form.
  Variables (n : nat) (M : nat -> nat -> R).
  Hypothesis HM : forall i j, i < n -> j < n -> M i j = M j i.
  Lemma quad_line x y t : quad n M (fun i => x i + t * y i)%R =
    (quad n M x + 2 * t * dot n x (mulv n M y) + t ^ 2 * quad n M y)%R.
  Proof.
    rewrite !quad_dot.
    rewrite (dot_ext n (fun i => x i + t * y i)%R (fun i => x i + t * y i)%R _ (fun i => mulv n M x i + t * mulv n M y i)%R).
    - assert (Es : dot n y (mulv n M x) = dot n x (mulv n M y)).
      { rewrite (dot_mulv_sym n M HM y x). apply dot_sym. }
      assert (X : dot n (fun i => x i + t * y i)%R (fun i => mulv n M x i + t * mulv n M y i)%R =
        (dot n x (mulv n M x) + t * dot n x (mulv n M y) + t * dot n y (mulv n M x) + t ^ 2 * dot n y (mulv n M y))%R).
      { unfold dot. rewrite <- !rsum_scal, <- !rsum_plus. apply rsum_ext. intros. ring. }
      rewrite X, Es. ring.
    - auto.
    - intros i _. rewrite mulv_plus, mulv_scal. reflexivity.
  Qed.
  Lemma form_cs x y : psd n M -> (dot n x (mulv n M y) ^ 2 <= quad n M x * quad n M y)%R.
  Proof. intros P. apply disc_nonneg. intros t. rewrite <- quad_line. apply P. Qed.
End Form.
Lemma dot_cs n x y : (dot n x y ^ 2 <= dot n x x * dot n y y)%R.
Proof.
  apply disc_nonneg. intros t.
  assert (E : (dot n x x + 2 * t * dot n x y + t ^ 2 * dot n y y)%R = dot n (fun i => x i + t * y i)%R (fun i => x i + t * y i)%R).
  { unfold dot. rewrite <- !rsum_scal, <- !rsum_plus. apply rsum_ext. intros. ring. }
  rewrite E. apply dot_nonneg.
Qed.

(** ** Powers *)

Lemma normalize_spec n x : length x = n ->
  length (normalize x) = n /\
  (dot n (vx x) (vx x) = 0%R -> normalize x = x) /\
  (dot n (vx x) (vx x) <> 0%R -> forall i, vx (normalize x) i = (vx x i / sqrt (dot n (vx x) (vx x)))%R).
Proof.
  intros Hx. unfold normalize, sq_norm. rewrite (vdot_dot n) by auto. pose proof (dot_nonneg n (vx x)) as Hp.
  destruct (wltb w0 (dot n (vx x) (vx x))) eqn:L.
  - apply (proj1 (toR_ltb w0 (dot n (vx x) (vx x)))) in L. cbn [toR ExactR w0 NumR] in L.
    split; [now rewrite map_length|]. split; [intros; lra|]. intros _ i. unfold vx at 1. 
    change 0%R with ((fun a => wdiv a (wsqrt (dot n (vx x) (vx x)))) 0%R) at 1 || idtac.
    destruct (Nat.lt_ge_cases i (length x)) as [Hi|Hi].
    + rewrite (nth_indep _ 0%R ((fun a => wdiv a (wsqrt (dot n (vx x) (vx x)))) 0%R)) by (rewrite map_length; auto).
      rewrite (map_nth (fun a => wdiv a (wsqrt (dot n (vx x) (vx x))))). reflexivity.
    + rewrite nth_overflow by (rewrite map_length; auto). unfold vx. rewrite nth_overflow by auto. unfold Rdiv. ring.
  - split; [auto|]. split; [auto|]. intros N. exfalso.
    assert (0 < dot n (vx x) (vx x))%R as L' by lra.
    pose proof (proj2 (toR_ltb w0 (dot n (vx x) (vx x))) L') as L2. rewrite L2 in L. discriminate.
Qed.
Lemma power_step_scaled n M x (c : R) (z : nat -> R) : sp_square M n -> length x = n ->
  (forall i, i < n -> vx x i = (c * z i)%R) -> (0 < c)%R ->
  exists c', (0 < c')%R /\ length (power_step M x) = n /\
    (forall i, i < n -> vx (power_step M x) i = (c' * mulv n (coeff M) z i)%R) /\
    (dot n (mulv n (coeff M) z) (mulv n (coeff M) z) <> 0%R ->
     c' = (1 / sqrt (dot n (mulv n (coeff M) z) (mulv n (coeff M) z)))%R).
Proof.
  intros Hs Hx Hc Hp. unfold power_step. set (m := mulv n (coeff M) z).
  assert (Hl : length (mat_vec M x) = n) by (rewrite mat_vec_length; apply Hs).
  destruct (normalize_spec n (mat_vec M x) Hl) as (L & Z0 & Z1).
  assert (Em : forall i, i < n -> vx (mat_vec M x) i = (c * m i)%R).
  { intros i Hi. rewrite (mat_vec_mulv n) by auto. rewrite (mulv_ext_vec n _ _ (fun k => c * z k)%R) by auto. now rewrite mulv_scal. }
  assert (Ed : dot n (vx (mat_vec M x)) (vx (mat_vec M x)) = (c * c * dot n m m)%R).
  { rewrite (dot_ext n _ (fun i => c * m i)%R _ (fun i => c * m i)%R) by auto. apply dot_scal. }
  destruct (Req_dec (dot n m m) 0) as [E0|N0].
  - exists c. split; [auto|]. split; [auto|]. rewrite Z0 by (rewrite Ed, E0; ring). split; [auto|contradiction].
  - pose proof (dot_nonneg n m) as Hm. assert (0 < dot n m m)%R by lra.
    exists (1 / sqrt (dot n m m))%R. split; [|split; [auto|split; [|auto]]].
    + unfold Rdiv. rewrite Rmult_1_l. apply Rinv_0_lt_compat, sqrt_lt_R0. auto.
    + intros i Hi. assert (Nd : dot n (vx (mat_vec M x)) (vx (mat_vec M x)) <> 0%R) by (rewrite Ed; assert (0 < c * c)%R by nra; nra).
      rewrite (Z1 Nd), Ed, Em by auto. rewrite sqrt_mult_alt, sqrt_square by nra. field. split; [|lra]. apply Rgt_not_eq, sqrt_lt_R0. auto.
Qed.
Lemma iter_S {A} (f : A -> A) t x : Nat.iter (S t) f x = f (Nat.iter t f x).
Proof. reflexivity. Qed.
Lemma power_iter n M x : sp_square M n -> length x = n -> forall t,
  exists c, (0 < c)%R /\ length (Nat.iter t (power_step M) x) = n /\
    (forall i, i < n -> vx (Nat.iter t (power_step M) x) i = (c * mpow n (coeff M) t (vx x) i)%R) /\
    (0 < t -> dot n (mpow n (coeff M) t (vx x)) (mpow n (coeff M) t (vx x)) <> 0%R ->
     c = (1 / sqrt (dot n (mpow n (coeff M) t (vx x)) (mpow n (coeff M) t (vx x))))%R).
Proof.
  intros Hs Hx. induction t as [|t IH].
  - exists 1%R. split; [lra|]. simpl. split; [auto|]. split; [intros; ring|lia].
  - destruct IH as (c & Hc & Hl & He & _). rewrite iter_S.
    destruct (power_step_scaled n M _ c (mpow n (coeff M) t (vx x)) Hs Hl He Hc) as (c' & A & B & C & D).
    exists c'. split; [auto|]. split; [auto|]. split; [exact C|]. intros _. exact D.
Qed.

(** ** C62 *)
Theorem power_method_spec (M : sprs R) n num x : sp_square M n -> length x = n -> (0 <= num)%Z ->
  exists y, power_method M num x = Ok y /\ length y = n /\
    (num = 0%Z -> y = x) /\
    (forall z, z = mpow n (coeff M) (Z.to_nat num) (vx x) -> (0 < num)%Z ->
      (forall i, i < n -> vx y i = if Req_EM_T (dot n z z) 0 then 0%R else (z i / sqrt (dot n z z))%R) /\
      dot n (vx y) (vx y) = if Req_EM_T (dot n z z) 0 then 0%R else 1%R).
Proof.
  intros Hs Hx Hn. unfold power_method. destruct Hs as (Hr & Hc & Hw). rewrite Hr, Hc, Hx, !Nat.eqb_refl. cbn [negb].
  destruct (Z.ltb_spec num 0); [lia|]. eexists. split; [reflexivity|].
  assert (Hs : sp_square M n) by (repeat split; auto).
  destruct (power_iter n M x Hs Hx (Z.to_nat num)) as (c & A & B & C & D). split; [auto|]. split; [intros ->; reflexivity|].
  intros z Hz Hp. rewrite <- Hz in *. 
  assert (V : forall i, i < n -> vx (Nat.iter (Z.to_nat num) (power_step M) x) i = if Req_EM_T (dot n z z) 0 then 0%R else (z i / sqrt (dot n z z))%R).
  { intros i Hi. rewrite C by auto. destruct (Req_EM_T (dot n z z) 0) as [E|N].
    - rewrite (dot_zero n z E i Hi). ring.
    - rewrite D by (auto; lia). field. apply Rgt_not_eq, sqrt_lt_R0. pose proof (dot_nonneg n z). lra. }
  split; [exact V|]. rewrite (dot_ext n _ _ _ _ V V). destruct (Req_EM_T (dot n z z) 0) as [E|N].
  - unfold dot. apply rsum_zero. intros. ring.
  - pose proof (dot_nonneg n z). rewrite (dot_ext n _ (fun i => / sqrt (dot n z z) * z i)%R _ (fun i => / sqrt (dot n z z) * z i)%R)
      by (intros; unfold Rdiv; ring). rewrite dot_scal. rewrite <- Rinv_mult, sqrt_sqrt by lra. field. auto.
Qed.
Theorem power_method_invalid (M : sprs R) num x :
  (num < 0)%Z \/ sp_rows M <> sp_ncols M \/ length x <> sp_rows M -> power_method M num x = Throw InvalidArgument.
Proof.
  intros Hi. unfold power_method. destruct (Z.ltb_spec num 0); auto. destruct (Nat.eqb_spec (sp_rows M) (sp_ncols M)); cbn [negb]; auto.
  destruct (Nat.eqb_spec (length x) (sp_rows M)); cbn [negb]; auto. exfalso. lia.
Qed.

(** ** C63 *)
Theorem rayleigh_spec (M : sprs R) n x : sp_square M n -> length x = n ->
  rayleigh_quotient M x =
    if Req_EM_T (dot n (vx x) (vx x)) 0 then Throw InvalidArgument
    else Ok (quad n (coeff M) (vx x) / dot n (vx x) (vx x))%R.
Proof.
  intros Hs Hx. unfold rayleigh_quotient. destruct Hs as (Hr & Hc & Hw). rewrite Hr, Hc, Hx, !Nat.eqb_refl. cbn [negb].
  assert (Hs : sp_square M n) by (repeat split; auto). pose proof (dot_nonneg n (vx x)) as Hp.
  unfold norm, sq_norm. rewrite (vdot_dot n x x) by auto. cbn [wsqrt NumR].
  assert (Ez : weqb (sqrt (dot n (vx x) (vx x))) w0 = true <-> dot n (vx x) (vx x) = 0%R).
  { split.
    - intros E. apply Reqb0 in E. apply sqrt_eq_0 in E; auto.
    - intros ->. rewrite sqrt_0. apply (proj2 (toR_eqb 0%R w0)). reflexivity. }
  destruct (Req_EM_T (dot n (vx x) (vx x)) 0) as [E|N].
  - now rewrite (proj2 Ez E).
  - destruct (weqb _ w0) eqn:B; [exfalso; now apply N, Ez|]. f_equal. cbn [wdiv wmul NumR].
    rewrite sqrt_sqrt by auto. f_equal. rewrite (vdot_dot n) by (rewrite ?vec_mat_length; auto).
    rewrite quad_dot. unfold dot at 1, dot at 1.
    rewrite (rsum_ext n (fun i => vx (vec_mat x M) i * vx x i)%R (fun j => rsum n (fun i => vx x i * coeff M i j * vx x j))%R).
    + rewrite rsum_swap. apply rsum_ext. intros i Hi. unfold mulv. rewrite <- rsum_scal. apply rsum_ext. intros; ring.
    + intros j Hj. rewrite (vec_mat_mulv n) by auto. symmetry. apply rsum_scal_r.
Qed.
Theorem rayleigh_invalid (M : sprs R) x :
  sp_rows M <> sp_ncols M \/ length x <> sp_rows M -> rayleigh_quotient M x = Throw InvalidArgument.
Proof.
  intros Hi. unfold rayleigh_quotient. destruct (Nat.eqb_spec (sp_rows M) (sp_ncols M)); cbn [negb]; auto.
  destruct (Nat.eqb_spec (length x) (sp_rows M)); cbn [negb]; auto. exfalso. tauto.
Qed.
Corollary rayleigh_eigen (M : sprs R) n x l : sp_square M n -> length x = n -> dot n (vx x) (vx x) <> 0%R ->
  eigenpair n (coeff M) l (vx x) -> rayleigh_quotient M x = Ok l.
Proof.
  intros Hs Hx N P. rewrite (rayleigh_spec M n) by auto. destruct (Req_EM_T (dot n (vx x) (vx x)) 0); [contradiction|].
  f_equal. rewrite quad_dot, (dot_ext n _ (vx x) _ (fun i => l * vx x i)%R) by auto.
  rewrite (dot_sym n (vx x)), dot_scal_l. field. auto.
Qed.

(** ** The Rayleigh quotient does not decrease *)
Lemma rayleigh_step n M z : (forall i j, i < n -> j < n -> M i j = M j i) -> psd n M ->
  dot n (mulv n M z) (mulv n M z) <> 0%R ->
  (quad n M z / dot n z z <= quad n M (mulv n M z) / dot n (mulv n M z) (mulv n M z))%R.
Proof.
  intros Hs P N. set (m := mulv n M z) in *.
  assert (A0 : (0 < dot n z z)%R).
  { pose proof (dot_nonneg n z). destruct (Req_dec (dot n z z) 0) as [E|]; [|lra]. exfalso. apply N.
    unfold dot. apply rsum_zero. intros i Hi. unfold m, mulv. rewrite (rsum_zero n); [ring|]. intros k Hk. rewrite (dot_zero n z E k Hk). ring. }
  assert (C0 : (0 < dot n m m)%R) by (pose proof (dot_nonneg n m); lra).
  pose proof (P z) as B0. pose proof (P m) as D0.
  pose proof (dot_cs n z m) as C1. change (mulv n M z) with m in C1. 
  assert (Eb : dot n z m = quad n M z) by (rewrite quad_dot; reflexivity). rewrite Eb in C1.
  pose proof (form_cs n M Hs z m P) as C2.
  assert (Ec : dot n z (mulv n M m) = dot n m m) by (rewrite (dot_mulv_sym n M Hs z m); reflexivity).
  rewrite Ec in C2. set (a := dot n z z) in *. set (b := quad n M z) in *. set (c := dot n m m) in *. set (d := quad n M m) in *.
  assert (K : (b * c <= a * d)%R).
  { assert (0 <= b * d)%R by nra. assert (b * (b * d) <= (a * c) * d)%R by nra.
    assert (b * (c * c) <= b * (b * d))%R by nra. assert (c * (b * c) <= c * (a * d))%R by nra.
    apply (Rmult_le_reg_l c); auto. }
  apply (Rmult_le_reg_r (a * c)); [nra|]. replace (b / a * (a * c))%R with (b * c)%R by (field; lra).
  replace (d / c * (a * c))%R with (a * d)%R by (field; lra). exact K.
Qed.
Lemma quad_scal n M c x : quad n M (fun i => c * x i)%R = (c * c * quad n M x)%R.
Proof.
  rewrite !quad_dot. rewrite (dot_ext n _ (fun i => c * x i)%R _ (fun i => c * mulv n M x i)%R); auto using dot_scal, mulv_scal.
Qed.
Lemma quad_ext_vec n M x y : (forall i, i < n -> x i = y i) -> quad n M x = quad n M y.
Proof. intros E. unfold quad. apply rsum_ext. intros i Hi. apply rsum_ext. intros j Hj. now rewrite !E. Qed.

(** One more iteration never lowers the Rayleigh quotient of the result. *)
Theorem power_rayleigh_mono (M : sprs R) n num x y y' : sp_square M n -> length x = n -> (0 <= num)%Z ->
  (forall i j, i < n -> j < n -> coeff M i j = coeff M j i) -> psd n (coeff M) ->
  power_method M num x = Ok y -> power_method M (num + 1) x = Ok y' -> dot n (vx y') (vx y') <> 0%R ->
  exists q q', rayleigh_quotient M y = Ok q /\ rayleigh_quotient M y' = Ok q' /\ (q <= q')%R.
Proof.
  intros Hs Hx Hn Hsy P Hy Hy' N.
  destruct (power_method_spec M n num x Hs Hx Hn) as (y0 & E0 & L0 & _). rewrite E0 in Hy. injection Hy as <-.
  destruct (power_method_spec M n (num + 1) x Hs Hx ltac:(lia)) as (y1 & E1 & L1 & _). rewrite E1 in Hy'. injection Hy' as <-.
  assert (Est : y1 = power_step M y0).
  { pose proof Hs as (Hr & Hc & Hw). unfold power_method in E0, E1. rewrite Hr, Hc, Hx, !Nat.eqb_refl in E0, E1. cbn [negb] in *.
    destruct (Z.ltb_spec num 0); [lia|]. destruct (Z.ltb_spec (num + 1) 0); [lia|].
    injection E0 as <-. injection E1 as <-. rewrite Z2Nat.inj_add, Nat.add_1_r by lia. reflexivity. }
  destruct (power_step_scaled n M y0 1 (vx y0) Hs L0 (fun i _ => eq_sym (Rmult_1_l _)) Rlt_0_1) as (c & Hc & Lc & Ec & _).
  rewrite <- Est in *. set (m := mulv n (coeff M) (vx y0)) in *.
  assert (Ed : dot n (vx y1) (vx y1) = (c * c * dot n m m)%R).
  { rewrite (dot_ext n _ (fun i => c * m i)%R _ (fun i => c * m i)%R) by auto. apply dot_scal. }
  assert (Nm : dot n m m <> 0%R) by (intros E; apply N; rewrite Ed, E; ring).
  assert (N0 : dot n (vx y0) (vx y0) <> 0%R).
  { intros E. apply Nm. unfold dot. apply rsum_zero. intros i Hi. unfold m, mulv. rewrite (rsum_zero n); [ring|]. intros k Hk. rewrite (dot_zero n _ E k Hk). ring. }
  rewrite !(rayleigh_spec M n) by auto.
  destruct (Req_EM_T (dot n (vx y0) (vx y0)) 0); [contradiction|]. destruct (Req_EM_T (dot n (vx y1) (vx y1)) 0); [contradiction|].
  eexists. eexists. split; [reflexivity|]. split; [reflexivity|].
  pose proof (rayleigh_step n (coeff M) (vx y0) Hsy P Nm) as K. fold m in K.
  rewrite (quad_ext_vec n _ (vx y1) (fun i => c * m i)%R) by auto. rewrite quad_scal, Ed.
  replace (c * c * quad n (coeff M) m / (c * c * dot n m m))%R with (quad n (coeff M) m / dot n m m)%R; [exact K|].
  field. split; [auto|lra].
Qed.
Lemma vx_map_scal c x i : vx (map (Rmult c) x) i = (c * vx x i)%R.
Proof.
  unfold vx. destruct (Nat.lt_ge_cases i (length x)) as [Hi|Hi].
  - rewrite (nth_indep _ 0%R (c * 0)%R) by (rewrite map_length; auto). now rewrite map_nth.
  - rewrite !nth_overflow by (rewrite ?map_length; auto). ring.
Qed.
Theorem rayleigh_scale (M : sprs R) n x c : sp_square M n -> length x = n -> c <> 0%R ->
  rayleigh_quotient M (map (Rmult c) x) = rayleigh_quotient M x.
Proof.
  intros Hs Hx Hc. rewrite !(rayleigh_spec M n) by (rewrite ?map_length; auto).
  assert (Ed : dot n (vx (map (Rmult c) x)) (vx (map (Rmult c) x)) = (c * c * dot n (vx x) (vx x))%R).
  { rewrite (dot_ext n _ (fun i => c * vx x i)%R _ (fun i => c * vx x i)%R) by (intros; apply vx_map_scal). apply dot_scal. }
  rewrite (quad_ext_vec n _ _ (fun i => c * vx x i)%R) by (intros; apply vx_map_scal). rewrite quad_scal, Ed.
  destruct (Req_EM_T (dot n (vx x) (vx x)) 0) as [E|N].
  - rewrite E, Rmult_0_r. destruct (Req_EM_T 0 0); [reflexivity|lra].
  - destruct (Req_EM_T (c * c * dot n (vx x) (vx x)) 0) as [Z0|_]; [exfalso; apply N; apply Rmult_integral in Z0; destruct Z0; [nra|auto]|].
    f_equal. field. auto.
Qed.
Lemma rayleigh_bounds (M : sprs R) n x q b : sp_square M n -> length x = n ->
  psd n (coeff M) -> psd n (fun u v => - coeff M u v + (if u =? v then b else 0))%R ->
  rayleigh_quotient M x = Ok q -> (0 <= q <= b)%R.
Proof.
  intros Hs Hx P1 P2. rewrite (rayleigh_spec M n) by auto. destruct (Req_EM_T (dot n (vx x) (vx x)) 0) as [|N]; [discriminate|].
  intros E. assert (Eq : q = (quad n (coeff M) (vx x) / dot n (vx x) (vx x))%R) by congruence. subst q.
  pose proof (dot_nonneg n (vx x)) as D0. assert (D : (0 < dot n (vx x) (vx x))%R) by lra.
  specialize (P1 (vx x)). specialize (P2 (vx x)).
  rewrite (quad_ext _ _ (fun u v => (-1) * coeff M u v + (if u =? v then b else 0))%R) in P2 by (intros; ring).
  rewrite quad_affine in P2.
  assert (Es : rsum n (fun i => vx x i ^ 2)%R = dot n (vx x) (vx x)) by (apply rsum_ext; intros; ring). rewrite Es in P2.
  split.
  - apply Rmult_le_pos; [auto|]. apply Rlt_le, Rinv_0_lt_compat. auto.
  - apply (Rmult_le_reg_r (dot n (vx x) (vx x))); auto. unfold Rdiv. rewrite Rmult_assoc, Rinv_l by auto. lra.
Qed.
Theorem rayleigh_lap_bounds (g : graph R) x q d : reachable_pos g -> length x = number_of_vertices g ->
  (forall v, v < number_of_vertices g -> (rdeg g v <= d)%R) ->
  rayleigh_quotient (snd (mat_query QLap g)) x = Ok q -> (0 <= q <= 2 * d)%R.
Proof.
  intros Hr Hx Hd. pose proof (reachable_pos_reachable g Hr) as Hr'. rewrite (query_formula g QLap Hr').
  apply (rayleigh_bounds _ (g_n g)); auto.
  - apply lap_square; auto.
  - intros v. rewrite (quad_ext _ _ (matrix_of_graph MatLaplacian g)) by (intros; now apply lap_entries). now apply matrix_psd_low.
  - intros v. rewrite (quad_ext _ _ (fun u v => - matrix_of_graph MatLaplacian g u v + (if u =? v then 2 * d else 0))%R).
    + now apply lap_high_psd.
    + intros i j Hi Hj. destruct (lap_entries g i j Hr Hi Hj) as [-> _]. reflexivity.
Qed.
Theorem rayleigh_nlap_bounds (g : graph R) x q : reachable_pos g -> length x = number_of_vertices g ->
  rayleigh_quotient (snd (mat_query QNLap g)) x = Ok q -> (0 <= q <= 2)%R.
Proof.
  intros Hr Hx. pose proof (reachable_pos_reachable g Hr) as Hr'. rewrite (query_formula g QNLap Hr').
  apply (rayleigh_bounds _ (g_n g)); auto.
  - apply lap_square; auto.
  - intros v. rewrite (quad_ext _ _ (matrix_of_graph MatNormalisedLaplacian g)) by (intros; now apply lap_entries). now apply matrix_psd_low.
  - intros v. rewrite (quad_ext _ _ (fun u v => - matrix_of_graph MatNormalisedLaplacian g u v + (if u =? v then 2 else 0))%R).
    + now apply nlap_high_psd.
    + intros i j Hi Hj. destruct (lap_entries g i j Hr Hi Hj) as [_ ->]. reflexivity.
Qed.
