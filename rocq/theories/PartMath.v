(** Partitions against a space of vectors: how well a partition fits the leading eigenvectors (C92).  Pure mathematics, no code is modelled here. *)
From Verif Require Import Base RSum GraphSpec SpectrumSpec SpectrumFacts SpectrumPower SpectrumConv.
From Coq Require Import Reals Lra Psatz Lia List Permutation Sorting.Sorted.
Import ListNotations.
Local Open Scope nat_scope.

Section Part.
  Variable n : nat.
  (** Size of class k of a labelling, its indicator with norm 1, and the part of x not constant on the classes. *)
  Definition csize (c : nat -> nat) (k : nat) : R := rsum n (fun u => if c u =? k then 1%R else 0%R).
  Definition csum (c : nat -> nat) (x : nat -> R) (k : nat) : R := rsum n (fun u => if c u =? k then x u else 0%R).
  Definition chi (c : nat -> nat) (k u : nat) : R := if c u =? k then (/ sqrt (csize c k))%R else 0%R.
  Definition resid (c : nat -> nat) (x : nat -> R) (u : nat) : R := (x u - csum c x (c u) / csize c (c u))%R.
  Definition vari (c : nat -> nat) (x : nat -> R) : R := dot n (resid c x) (resid c x).

  Lemma csize_nonneg c k : (0 <= csize c k)%R.
  Proof. apply rsum_nonneg. intros u _. destruct (c u =? k); lra. Qed.
  Lemma csize_pos c u : u < n -> (1 <= csize c (c u))%R.
  Proof.
    intros Hu. eapply Rle_trans; [|apply (rsum_ge_elt n (fun v => if c v =? c u then 1%R else 0%R) u)]; auto.
    - rewrite Nat.eqb_refl. lra.
    - intros v _. destruct (c v =? c u); lra.
  Qed.
  Lemma csize_0 c k : csize c k = 0%R -> forall u, u < n -> c u <> k.
  Proof. intros E u Hu <-. pose proof (csize_pos c u Hu). lra. Qed.
  Lemma csize_cases c k : csize c k = 0%R \/ (0 < csize c k)%R.
  Proof. pose proof (csize_nonneg c k). lra. Qed.
  Lemma csum_0 c x k : csize c k = 0%R -> csum c x k = 0%R.
  Proof. intros E. apply rsum_zero. intros u Hu. destruct (Nat.eqb_spec (c u) k) as [Q|]; auto. now apply (csize_0 c k E u Hu) in Q. Qed.
  Lemma dot_chi c x k : dot n x (chi c k) = (csum c x k / sqrt (csize c k))%R.
  Proof. unfold dot, csum, Rdiv. rewrite <- rsum_scal_r. apply rsum_ext. intros u _. unfold chi. destruct (c u =? k); ring. Qed.
  Lemma dot_chi_sq c x k : (dot n x (chi c k) ^ 2 = csum c x k ^ 2 / csize c k)%R.
  Proof.
    rewrite dot_chi. destruct (csize_cases c k) as [E|P].
    - rewrite (csum_0 c x k E). unfold Rdiv. ring.
    - unfold Rdiv. rewrite Rpow_mult_distr. f_equal. pose proof (sqrt_lt_R0 _ P). rewrite pow_inv. f_equal. apply pow2_sqrt. lra.
  Qed.
  Lemma chi_norm c k : (0 < csize c k)%R -> dot n (chi c k) (chi c k) = 1%R.
  Proof.
    intros P. rewrite dot_chi. unfold csum. rewrite (rsum_ext n _ (fun u => (if c u =? k then 1 else 0) * / sqrt (csize c k))%R).
    - rewrite rsum_scal_r. fold (csize c k). pose proof (sqrt_lt_R0 _ P). pose proof (sqrt_sqrt (csize c k) ltac:(lra)) as Q. unfold Rdiv. rewrite <- Q at 1. field. lra.
    - intros u _. unfold chi. destruct (c u =? k); ring.
  Qed.
  (** Classes one by one. *)
  Lemma by_class c K (f : nat -> nat -> R) : (forall u, u < n -> c u < K) ->
    rsum n (fun u => f u (c u)) = rsum K (fun k => rsum n (fun u => if c u =? k then f u k else 0%R)).
  Proof. intros Hc. rewrite rsum_swap. apply rsum_ext. intros u Hu. rewrite (rsum_delta' K (c u) (fun k => f u k) (Hc u Hu)). reflexivity. Qed.
  Lemma vari_eq c K x : (forall u, u < n -> c u < K) -> (vari c x = dot n x x - rsum K (fun k => dot n x (chi c k) ^ 2))%R.
  Proof.
    intros Hc. unfold vari, dot at 1. unfold resid.
    rewrite (by_class c K (fun u k => (x u - csum c x k / csize c k) * (x u - csum c x k / csize c k))%R Hc).
    unfold dot at 1. rewrite (by_class c K (fun u _ => (x u * x u)%R) Hc). rewrite <- rsum_minus. apply rsum_ext. intros k _. rewrite dot_chi_sq.
    set (m := (csum c x k / csize c k)%R).
    rewrite (rsum_ext n _ (fun u => (if c u =? k then x u * x u else 0) - 2 * m * (if c u =? k then x u else 0) + m * m * (if c u =? k then 1 else 0))%R)
      by (intros u _; destruct (c u =? k); ring).
    rewrite rsum_plus, rsum_minus, !rsum_scal. fold (csum c x k) (csize c k).
    destruct (csize_cases c k) as [E|P].
    - unfold m. rewrite (csum_0 c x k E). unfold Rdiv. ring.
    - unfold m. field. lra.
  Qed.
  Lemma vari_nonneg c x : (0 <= vari c x)%R.
  Proof. apply dot_nonneg. Qed.
  Lemma bessel c K x : (forall u, u < n -> c u < K) -> (rsum K (fun k => dot n x (chi c k) ^ 2) <= dot n x x)%R.
  Proof. intros Hc. pose proof (vari_eq c K x Hc). pose proof (vari_nonneg c x). lra. Qed.
  Lemma vari_le c K x : (forall u, u < n -> c u < K) -> (vari c x <= dot n x x)%R.
  Proof.
    intros Hc. rewrite (vari_eq c K x Hc). assert (0 <= rsum K (fun k => dot n x (chi c k) ^ 2))%R; [|lra]. apply rsum_nonneg. intros. apply pow2_ge_0.
  Qed.
  Lemma resid_plus c x y u : resid c (fun i => x i + y i)%R u = (resid c x u + resid c y u)%R.
  Proof.
    unfold resid. assert (csum c (fun i => x i + y i)%R (c u) = csum c x (c u) + csum c y (c u))%R as ->; [|unfold Rdiv; ring].
    unfold csum. rewrite <- rsum_plus. apply rsum_ext. intros v _. destruct (c v =? c u); ring.
  Qed.
  Lemma resid_sum {A} c (b : A -> R) (f : A -> nat -> R) l u : resid c (fun i => lsum (fun p => b p * f p i)%R l) u = lsum (fun p => b p * resid c (f p) u)%R l.
  Proof.
    unfold resid. assert (csum c (fun i => lsum (fun p => b p * f p i)%R l) (c u) = lsum (fun p => b p * csum c (f p) (c u))%R l) as ->.
    { unfold csum. transitivity (rsum n (fun v => lsum (fun p => b p * (if c v =? c u then f p v else 0))%R l)).
      - apply rsum_ext. intros v _. destruct (c v =? c u); [reflexivity|]. symmetry. apply lsum_0. intros. ring.
      - unfold rsum. rewrite lsum_swap. apply lsum_ext. intros p _. now rewrite lsum_scal. }
    unfold Rdiv. rewrite <- lsum_scal_r, <- lsum_minus. apply lsum_ext. intros. ring.
  Qed.
  Lemma vari_ext c x y : (forall u, u < n -> x u = y u) -> vari c x = vari c y.
  Proof.
    intros E. assert (forall u, u < n -> resid c x u = resid c y u) as R.
    { intros u Hu. unfold resid. rewrite (E u Hu). f_equal. f_equal. unfold csum. apply rsum_ext. intros v Hv. now rewrite (E v Hv). }
    unfold vari. now apply dot_ext.
  Qed.
  Lemma vari_plus c x y : (vari c (fun i => x i + y i) <= 2 * vari c x + 2 * vari c y)%R.
  Proof.
    unfold vari, dot. rewrite <- !rsum_scal, <- rsum_plus. apply rsum_le. intros u _. rewrite resid_plus.
    assert (0 <= (resid c x u - resid c y u) * (resid c x u - resid c y u))%R by apply Rle_0_sqr. nra.
  Qed.

  (** *** Against a complete system of eigenvectors *)
  Variables (M : nat -> nat -> R) (E : list (R * list R)).
  Hypothesis sys : eigen_system n M E.
  Hypothesis M_sym : forall i j, i < n -> j < n -> M i j = M j i.
  Hypothesis sorted : StronglySorted Rle (map fst E).
  Hypothesis nonneg : forall p, In p E -> (0 <= fst p)%R.
  Variable k : nat.
  Hypothesis kn : k < n.
  Notation F := (firstn k E). Notation G := (skipn k E).
  Notation f p := (vx (snd p)).
  Variable s : nat -> nat.
  Hypothesis s_lt : forall u, u < n -> s u < k.
  Hypothesis s_onto : forall j, j < k -> exists u, u < n /\ s u = j.
  Lemma s_pos j : j < k -> (0 < csize s j)%R.
  Proof. intros Hj. destruct (s_onto j Hj) as (u & Hu & <-). pose proof (csize_pos s u Hu). lra. Qed.
  (** Eigenvalue k+1. *)
  Definition lamk : R := fst (nth k E (0%R, [])).
  Lemma FG : E = F ++ G. Proof. symmetry. apply firstn_skipn. Qed.
  Lemma F_length : length F = k.
  Proof. destruct sys as (L & _). rewrite firstn_length. lia. Qed.
  Lemma G_values p : In p G -> (lamk <= fst p)%R.
  Proof.
    destruct sys as (L & _). intros I. pose proof sorted as So. rewrite FG, map_app in So. destruct (StronglySorted_app_inv _ _ _ So) as [_ _].
    assert (nth k E (0%R, []) = nth 0 G (0%R, [])) as En by (rewrite FG at 1; rewrite app_nth2; rewrite F_length; [f_equal; lia|lia]).
    assert (StronglySorted Rle (map fst G)) as SG.
    { clear - So. induction (map fst F) as [|a l IH]; [exact So|]. cbn [app] in So. inversion So; subst. now apply IH. }
    unfold lamk. rewrite En. destruct G as [|q l]; [destruct I|]. cbn [nth]. destruct I as [<-|I]; [lra|]. cbn [map] in SG. inversion SG as [|? ? _ Fa]; subst.
    rewrite Forall_forall in Fa. apply Fa. now apply in_map.
  Qed.
  Lemma F_norm p : In p F -> dot n (f p) (f p) = 1%R.
  Proof. intros I. apply (eigen_norm n M E p sys). rewrite FG. apply in_or_app. now left. Qed.
  (** The part of a unit vector outside the first k eigenvectors. *)
  Lemma outside x : (dot n x x - lsum (fun p => dot n x (f p) ^ 2) F)%R = lsum (fun p => dot n x (f p) ^ 2)%R G.
  Proof. rewrite (parseval n M E sys x x). rewrite FG at 1. rewrite lsum_app. rewrite (lsum_ext (fun p => dot n x (f p) * dot n x (f p))%R (fun p => dot n x (f p) ^ 2)%R) by (intros; ring).
    rewrite (lsum_ext (fun p => dot n x (f p) * dot n x (f p))%R (fun p => dot n x (f p) ^ 2)%R G) by (intros; ring). ring. Qed.
  Lemma outside_quad x : (lamk * lsum (fun p => dot n x (f p) ^ 2) G <= quad n M x)%R.
  Proof.
    rewrite quad_dot, (parseval n M E sys x (mulv n M x)).
    rewrite (lsum_ext _ (fun p => fst p * dot n x (f p) ^ 2)%R E) by (intros p I; rewrite (mulv_component n M E sys M_sym x p I); ring).
    rewrite FG at 2. rewrite lsum_app, <- lsum_scal.
    assert (0 <= lsum (fun p => fst p * dot n x (f p) ^ 2)%R F)%R.
    { apply lsum_nonneg. intros p I. apply Rmult_le_pos; [|apply pow2_ge_0]. apply nonneg. rewrite FG. apply in_or_app. now left. }
    assert (lsum (fun p => lamk * dot n x (f p) ^ 2)%R G <= lsum (fun p => fst p * dot n x (f p) ^ 2)%R G)%R; [|lra].
    apply lsum_le. intros p I. apply Rmult_le_compat_r; [apply pow2_ge_0|now apply G_values].
  Qed.
  (** How far the partition s is from the first k eigenvectors: two ways to count. *)
  Definition gap : R := rsum k (fun j => lsum (fun p => dot n (chi s j) (f p) ^ 2)%R G).
  Lemma gap_vari : lsum (fun p => vari s (f p)) F = gap.
  Proof.
    rewrite (lsum_ext _ (fun p => 1 - rsum k (fun j => dot n (chi s j) (f p) ^ 2))%R).
    - rewrite lsum_minus, lsum_const, F_length. unfold gap. rewrite (rsum_ext k (fun j => lsum (fun p => dot n (chi s j) (f p) ^ 2)%R G) (fun j => 1 - lsum (fun p => dot n (chi s j) (f p) ^ 2) F)%R).
      + rewrite rsum_minus, rsum_const. unfold rsum. rewrite lsum_swap. ring.
      + intros j Hj. rewrite <- outside, chi_norm by now apply s_pos. reflexivity.
    - intros p I. rewrite (vari_eq s k _ s_lt), F_norm by auto. f_equal. apply rsum_ext. intros j _. now rewrite dot_sym.
  Qed.
  Lemma gap_bound : (0 < lamk)%R -> (gap <= rsum k (fun j => quad n M (chi s j)) / lamk)%R.
  Proof.
    intros P. apply (Rmult_le_reg_l lamk); auto. unfold gap. rewrite <- rsum_scal. replace (lamk * (rsum k (fun j => quad n M (chi s j)) / lamk))%R with (rsum k (fun j => quad n M (chi s j))) by (field; lra).
    apply rsum_le. intros j _. apply outside_quad.
  Qed.

  (** *** A second partition *)
  Variables (a : nat -> nat) (K : nat).
  Hypothesis a_lt : forall u, u < n -> a u < K.
  Definition fit : R := lsum (fun p => vari a (f p)) F.
  Definition inside (j : nat) (u : nat) : R := lsum (fun p => dot n (chi s j) (f p) * f p u)%R F.
  Definition outer (j : nat) (u : nat) : R := lsum (fun p => dot n (chi s j) (f p) * f p u)%R G.
  Lemma chi_split j u : u < n -> chi s j u = (inside j u + outer j u)%R.
  Proof. intros Hu. destruct sys as (_ & _ & _ & Hc). rewrite (Hc (chi s j) u Hu). rewrite FG at 1. rewrite lsum_app. reflexivity. Qed.
  (** Norm of a combination of eigenvectors. *)
  Notation e i := (nth i E (0%R, [])).
  Lemma lsum_pick (g : nat -> R) l i : NoDup l -> In i l -> lsum (fun j => if i =? j then g j else 0%R) l = g i.
  Proof.
    induction l as [|x l IH]; [intros _ []|]. intros ND I. inversion ND as [|? ? N1 N2]; subst. cbn [lsum]. destruct (Nat.eqb_spec i x) as [->|N].
    - rewrite lsum_0; [ring|]. intros j J. destruct (Nat.eqb_spec x j); [subst; contradiction|reflexivity].
    - destruct I as [->|I]; [congruence|]. rewrite IH by auto. ring.
  Qed.
  Lemma comb_norm (b : nat -> R) l : NoDup l -> (forall i, In i l -> i < n) ->
    dot n (fun u => lsum (fun i => b i * f (e i) u)%R l) (fun u => lsum (fun i => b i * f (e i) u)%R l) = lsum (fun i => b i ^ 2)%R l.
  Proof.
    intros ND Hl. destruct sys as (_ & _ & Ho & _). unfold dot.
    transitivity (rsum n (fun u => lsum (fun i => lsum (fun j => b i * b j * (f (e i) u * f (e j) u)) l) l)%R).
    - apply rsum_ext. intros u _. rewrite <- lsum_scal_r. apply lsum_ext. intros i _. rewrite <- lsum_scal. apply lsum_ext. intros j _. ring.
    - unfold rsum. rewrite lsum_swap. apply lsum_ext. intros i Hi. rewrite lsum_swap.
      rewrite (lsum_ext _ (fun j => if i =? j then b i * b j else 0)%R).
      + rewrite lsum_pick by auto. ring.
      + intros j Hj. rewrite lsum_scal. fold (rsum n (fun u => f (e i) u * f (e j) u)%R). fold (dot n (f (e i)) (f (e j))). rewrite Ho by auto. destruct (i =? j); ring.
  Qed.
  Lemma list_nth_seq (l : list (R * list R)) d : l = map (fun i => nth i l d) (seq 0 (length l)).
  Proof. apply (nth_ext _ _ d d); [now rewrite map_length, seq_length|]. intros i Hi. now rewrite nth_map_seq. Qed.
  Lemma F_idx : F = map (fun i => e i) (seq 0 k).
  Proof.
    pose proof (list_nth_seq F (0%R, [])) as L. rewrite F_length in L. rewrite L. apply map_ext_in. intros i I. apply in_seq in I. rewrite FG at 2. rewrite app_nth1; auto. rewrite F_length. lia.
  Qed.
  Lemma seq_add m z : map (Nat.add z) (seq 0 m) = seq z m.
  Proof.
    induction m as [|m IH]; [reflexivity|]. rewrite !seq_S, map_app, IH. reflexivity.
  Qed.
  Lemma G_idx : G = map (fun i => e i) (seq k (n - k)).
  Proof.
    destruct sys as (L & _). pose proof (list_nth_seq G (0%R, [])) as Lg. rewrite skipn_length, L in Lg. rewrite Lg. rewrite <- (seq_add (n - k) k).
    rewrite map_map. apply map_ext_in. intros i I. rewrite FG at 2. rewrite app_nth2 by (rewrite F_length; lia). f_equal. rewrite F_length. lia.
  Qed.
  Lemma outer_norm j : dot n (outer j) (outer j) = lsum (fun p => dot n (chi s j) (f p) ^ 2)%R G.
  Proof.
    rewrite G_idx, lsum_map. rewrite <- (comb_norm (fun i => dot n (chi s j) (f (e i))) (seq k (n - k)) (seq_NoDup _ _)) by (intros i I; apply in_seq in I; lia).
    apply dot_ext; intros u _; unfold outer; rewrite G_idx, lsum_map; reflexivity.
  Qed.
  Lemma inside_fit : (rsum k (fun j => vari a (inside j)) <= fit)%R.
  Proof.
    unfold vari, dot at 1. rewrite rsum_swap. unfold fit, vari, dot. unfold rsum at 3. rewrite lsum_swap. fold (rsum n (fun u => lsum (fun p => resid a (f p) u * resid a (f p) u)%R F)).
    apply rsum_le. intros u _. set (h := fun v => lsum (fun i => resid a (f (e i)) u * f (e i) v)%R (seq 0 k)).
    apply Rle_trans with (rsum k (fun j => dot n h (chi s j) ^ 2)%R).
    - right. apply rsum_ext. intros j _. assert (resid a (inside j) u = dot n h (chi s j)) as ->; [|ring].
      unfold inside. rewrite (resid_sum a (fun p => dot n (chi s j) (f p)) (fun p => f p) F u). rewrite F_idx, lsum_map. unfold h, dot.
      rewrite (rsum_ext n (fun i => lsum (fun i0 => resid a (f (e i0)) u * f (e i0) i)%R (seq 0 k) * chi s j i)%R (fun i => lsum (fun i0 => chi s j i * f (e i0) i * resid a (f (e i0)) u)%R (seq 0 k))).
      + unfold rsum. rewrite lsum_swap. apply lsum_ext. intros i _. now rewrite lsum_scal_r.
      + intros v _. rewrite <- lsum_scal_r. apply lsum_ext. intros. ring.
    - eapply Rle_trans; [apply (bessel s k h s_lt)|]. right. unfold h. rewrite comb_norm; [|apply seq_NoDup|intros i I; apply in_seq in I; lia].
      rewrite F_idx, lsum_map. apply lsum_ext. intros. ring.
  Qed.
  Lemma overlap_bound : (rsum k (fun j => vari a (chi s j)) <= 2 * (gap + fit))%R.
  Proof.
    apply Rle_trans with (rsum k (fun j => 2 * vari a (inside j) + 2 * vari a (outer j))%R).
    - apply rsum_le. intros j _. rewrite (vari_ext a (chi s j) (fun u => inside j u + outer j u)%R) by (intros; now apply chi_split). apply vari_plus.
    - rewrite rsum_plus, !rsum_scal. pose proof inside_fit. assert (rsum k (fun j => vari a (outer j)) <= gap)%R; [|lra].
      unfold gap. apply rsum_le. intros j _. rewrite <- outer_norm. apply (vari_le a K). exact a_lt.
  Qed.

  (** *** Vertices whose class of s is not the majority of their class of a *)
  Definition inter (j l : nat) : R := rsum n (fun u => if (s u =? j) && (a u =? l) then 1%R else 0%R).
  Definition stray (u : nat) : R := if Rle_dec (2 * inter (s u) (a u)) (csize a (a u)) then 1%R else 0%R.
  Lemma inter_le j l : (inter j l <= csize a l)%R.
  Proof. apply rsum_le. intros u _. destruct (s u =? j), (a u =? l); cbn [andb]; lra. Qed.
  Lemma vari_overlap j : j < k -> (csize s j * vari a (chi s j) = rsum n (fun u => if s u =? j then 1 - inter j (a u) / csize a (a u) else 0))%R.
  Proof.
    intros Hj. pose proof (s_pos j Hj) as P. pose proof (sqrt_lt_R0 _ P) as Q. pose proof (sqrt_sqrt (csize s j) ltac:(lra)) as SS.
    rewrite (vari_eq a K (chi s j) a_lt), chi_norm by auto.
    rewrite (rsum_ext n _ (fun u => (if s u =? j then 1 else 0) - (if s u =? j then inter j (a u) / csize a (a u) else 0))%R) by (intros u _; destruct (s u =? j); ring).
    rewrite rsum_minus. fold (csize s j). rewrite Rmult_minus_distr_l, Rmult_1_r. f_equal. rewrite <- rsum_scal.
    rewrite (by_class a K (fun u l => if s u =? j then (inter j l / csize a l)%R else 0%R) a_lt). apply rsum_ext. intros l _. rewrite dot_chi_sq.
    assert (csum a (chi s j) l = inter j l * / sqrt (csize s j))%R as ->.
    { unfold csum, inter. rewrite <- rsum_scal_r. apply rsum_ext. intros u _. unfold chi. destruct (s u =? j), (a u =? l); cbn [andb]; ring. }
    rewrite (rsum_ext n _ (fun u => (if (s u =? j) && (a u =? l) then 1 else 0) * (inter j l / csize a l))%R) by (intros u _; destruct (s u =? j), (a u =? l); cbn [andb]; ring).
    rewrite rsum_scal_r. fold (inter j l). unfold Rdiv. rewrite Rpow_mult_distr, pow_inv, pow2_sqrt by lra.
    transitivity (csize s j * / csize s j * (inter j l ^ 2 * / csize a l))%R; [ring|]. rewrite Rinv_r by lra. ring.
  Qed.
  Lemma stray_class j : j < k -> (rsum n (fun u => if s u =? j then stray u else 0) <= 2 * (csize s j * vari a (chi s j)))%R.
  Proof.
    intros Hj. rewrite vari_overlap by auto. rewrite <- rsum_scal. apply rsum_le. intros u Hu. destruct (Nat.eqb_spec (s u) j) as [<-|]; [|lra].
    pose proof (csize_pos a u Hu) as P. pose proof (inter_le (s u) (a u)) as L. unfold stray.
    assert (inter (s u) (a u) / csize a (a u) <= 1)%R by (apply (Rmult_le_reg_r (csize a (a u))); [lra|]; unfold Rdiv; rewrite Rmult_assoc, Rinv_l by lra; lra).
    destruct (Rle_dec (2 * inter (s u) (a u)) (csize a (a u))) as [B|B]; [|lra].
    assert (inter (s u) (a u) / csize a (a u) <= / 2)%R; [|lra]. apply (Rmult_le_reg_r (csize a (a u))); [lra|]. unfold Rdiv. rewrite Rmult_assoc, Rinv_l by lra. lra.
  Qed.
  Theorem stray_bound smax : (forall j, j < k -> (csize s j <= smax)%R) -> (rsum n stray <= 4 * smax * (gap + fit))%R.
  Proof.
    intros Hs. destruct (Nat.eq_dec k 0) as [k0|kp].
    - assert (n = 0) as n0 by (destruct n as [|m]; auto; specialize (s_lt 0 ltac:(lia)); lia). lia.
    - assert (0 <= smax)%R as P by (specialize (Hs 0 ltac:(lia)); pose proof (csize_nonneg s 0); lra).
      apply Rle_trans with (rsum k (fun j => rsum n (fun u => if s u =? j then stray u else 0%R))); [right; exact (by_class s k (fun u _ => stray u) s_lt)|]. apply Rle_trans with (rsum k (fun j => 2 * smax * vari a (chi s j))%R).
      + apply rsum_le. intros j Hj. eapply Rle_trans; [now apply stray_class|]. rewrite <- Rmult_assoc. apply Rmult_le_compat_r; [apply vari_nonneg|]. specialize (Hs j Hj). lra.
      + rewrite rsum_scal. pose proof overlap_bound. replace (4 * smax * (gap + fit))%R with (2 * smax * (2 * (gap + fit)))%R by ring. apply Rmult_le_compat_l; lra.
  Qed.
End Part.
