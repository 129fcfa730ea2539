(** Spectral clustering finds well separated clusters (C92). *)
From Verif Require Import Base Num RSum Sparse SparseFacts Graph GraphSpec GraphFacts GraphProps1 GraphProps2 GraphProps3
  Spectrum SpectrumSpec SpectrumFacts SpectrumPower SpectrumConv CheegerSpectral CheegerIneq KMeans KMeansFacts KMeansSpec KMeansLloyd KMeansTop MTFacts RecoverMath RecoverTop KppMath Kpp KppTop PartMath.
From Coq Require Import Reals Lra Psatz Lia List Permutation Sorting.Sorted.
Import ListNotations.
Local Open Scope nat_scope.

(** ** Specification *)
(** [l] is the eigenvalue number [k] (from 0), in increasing order and counted with multiplicity. *)
Definition nth_eigenvalue (n : nat) (M : nat -> nat -> R) (k : nat) (l : R) : Prop :=
  exists E, eigen_system n M E /\ StronglySorted Rle (map fst E) /\ nth k (map fst E) 0%R = l.
(** A division of n vertices into k clusters, none of them empty. *)
Definition clustering (n k : nat) (s : nat -> nat) : Prop := (forall u, u < n -> s u < k) /\ (forall j, j < k -> exists u, u < n /\ s u = j).
Definition cluster_size (n : nat) (s : nat -> nat) (j : nat) : R := rsum n (fun u => if s u =? j then 1%R else 0%R).
Definition cluster_volume (g : graph R) (s : nat -> nat) (j : nat) : R := rsum (number_of_vertices g) (fun u => if s u =? j then rdeg g u else 0%R).
(** Weight of the edges that leave cluster j. *)
Definition cluster_cut (g : graph R) (s : nat -> nat) (j : nat) : R :=
  rsum (number_of_vertices g) (fun u => rsum (number_of_vertices g) (fun v => if (s u =? j) && negb (s v =? j) then rw g u v else 0%R)).
Definition cluster_conductance (g : graph R) (s : nat -> nat) (j : nat) : R := (cluster_cut g s j / cluster_volume g s j)%R.
(** The same for any degrees: the energy of the indicator of the cluster (equal to the conductance if its vertices have the same degree). *)
Definition cluster_energy (g : graph R) (s : nat -> nat) (j : nat) : R :=
  let x u := if s u =? j then (/ sqrt (rdeg g u))%R else 0%R in
  (rsum (number_of_vertices g) (fun u => rsum (number_of_vertices g) (fun v => rw g u v * (x u - x v) ^ 2)) / (2 * cluster_size (number_of_vertices g) s j))%R.
(** Vertices with the label of u, and those of them in the cluster of u. *)
Definition peers (n : nat) (labels : list Z) (u : nat) : R := rsum n (fun v => if (nth v labels 0 =? nth u labels 0)%Z then 1%R else 0%R).
Definition agreeing (n : nat) (s : nat -> nat) (labels : list Z) (u : nat) : R :=
  rsum n (fun v => if (s v =? s u) && (nth v labels 0 =? nth u labels 0)%Z then 1%R else 0%R).
(** Number of vertices u such that at most half of the vertices with the label of u are in the cluster of u. *)
Definition misplaced (n : nat) (s : nat -> nat) (labels : list Z) : R :=
  rsum n (fun u => if Rle_dec (2 * agreeing n s labels u) (peers n labels u) then 1%R else 0%R).
(** The labels give exactly the clusters: two vertices have the same label if and only if they are in the same cluster. *)
Definition recovers (n : nat) (s : nat -> nat) (labels : list Z) : bool :=
  forallb (fun u => forallb (fun v => Bool.eqb (nth u labels 0 =? nth v labels 0)%Z (s u =? s v)) (seq 0 n)) (seq 0 n).

(** ** The call as a function of the random numbers
    repo: cluster.cpp:37-65 spectral_cluster with [us] in place of the numbers of the generator seeded with 42. *)
Definition spectral_cluster_with (bump : R -> R) (solver : eigen_solver (W := R)) (g : graph R) (k : Z) (us : list R) : graph R * outcome (list Z) :=
  if ((k <? 1) || (Z.of_nat (number_of_vertices g) / 2 <? k))%Z then (g, Throw InvalidArgument)
  else
    match compute_eigenvectors solver g MatNormalisedLaplacian k Smallest with
    | (g, Ok vecs) => (g, omap (map Z.of_nat) (kmeans_with bump us (rows_of (number_of_vertices g) vecs) (Z.to_nat k) (Z.to_nat (to_int32 (k * 100)))))
    | (g, Throw e) => (g, Throw e)
    | (g, UB) => (g, UB)
    end.
Theorem spectral_cluster_draws bump solver g k :
  spectral_cluster IZR unit_ofR truncR bump solver g k = spectral_cluster_with bump solver g k (unit_draws (mt_init 42) (Z.to_nat k)).
Proof.
  unfold spectral_cluster, spectral_cluster_with. destruct (Z.ltb_spec k 1); [reflexivity|]. cbn [orb]. destruct (_ <? k)%Z; [reflexivity|].
  destruct (compute_eigenvectors solver g MatNormalisedLaplacian k Smallest) as [g' [vecs|e|]]; try reflexivity.
  rewrite (kmeans_with_words bump (rows_of (number_of_vertices g') vecs) (Z.to_nat k) (Z.to_nat k) (to_int32 (k * 100)) 42) by lia. reflexivity.
Qed.

(** ** The eigenvalues are determined by the matrix *)
Section Unique.
  Variables (n : nat) (M : nat -> nat -> R).
  Hypothesis M_sym : forall i j, i < n -> j < n -> M i j = M j i.
  Lemma ev_orth E E' p q : eigen_system n M E -> eigen_system n M E' -> In p E -> In q E' -> fst p <> fst q -> dot n (vx (snd p)) (vx (snd q)) = 0%R.
  Proof.
    intros S S' Hp Hq N. pose proof (mulv_component n M E' S' M_sym (vx (snd p)) q Hq) as A.
    destruct S as (_ & Fo & _). rewrite Forall_forall in Fo. destruct (Fo p Hp) as [_ Ep].
    rewrite (dot_ext n (mulv n M (vx (snd p))) (fun i => fst p * vx (snd p) i)%R (vx (snd q)) (vx (snd q))) in A by (auto; intros i Hi; now apply Ep).
    rewrite dot_scal_l in A. assert ((fst p - fst q) * dot n (vx (snd p)) (vx (snd q)) = 0)%R as Z by lra. apply Rmult_integral in Z as [Z|Z]; [exfalso; apply N; lra|auto].
  Qed.
  Definition has (mu : R) (p : R * list R) : bool := if Req_EM_T (fst p) mu then true else false.
  Lemma ev_count E E' mu : eigen_system n M E -> eigen_system n M E' -> length (filter (has mu) E) = length (filter (has mu) E').
  Proof.
    intros S S'. apply INR_eq.
    assert (forall A B, eigen_system n M A -> eigen_system n M B -> INR (length (filter (has mu) A)) = lsum (fun p => lsum (fun q => dot n (vx (snd p)) (vx (snd q)) ^ 2)%R (filter (has mu) B)) (filter (has mu) A)) as G.
    { intros A B SA SB. rewrite <- (Rmult_1_l (INR _)), <- lsum_const. apply lsum_ext. intros p Hp. apply filter_In in Hp as [Hp Vp].
      rewrite <- (eigen_norm n M A p SA Hp). rewrite (parseval n M B SB). rewrite lsum_filter. apply lsum_ext. intros q Hq. unfold has in *.
      destruct (Req_EM_T (fst p) mu) as [Ep|]; [|discriminate]. destruct (Req_EM_T (fst q) mu) as [Eq|Nq]; [ring|]. rewrite (ev_orth A B p q SA SB Hp Hq) by congruence. ring. }
    rewrite (G E E' S S'), (G E' E S' S). rewrite lsum_swap. apply lsum_ext. intros p _. apply lsum_ext. intros q _. now rewrite dot_sym.
  Qed.
  Lemma sorted_perm_eq l l' : StronglySorted Rle l -> StronglySorted Rle l' -> Permutation l l' -> l = l'.
  Proof.
    revert l'. induction l as [|x l IH]; intros l' S S' P; [now apply Permutation_nil in P|]. destruct l' as [|y l']; [symmetry in P; now apply Permutation_nil in P|].
    inversion S as [|? ? S1 F1]; subst. inversion S' as [|? ? S2 F2]; subst. rewrite Forall_forall in F1, F2.
    assert (x = y) as ->.
    { apply Rle_antisym.
      - assert (In y (x :: l)) as [->|I] by (apply (Permutation_in _ (Permutation_sym P)); now left); [lra|auto].
      - assert (In x (y :: l')) as [->|I] by (apply (Permutation_in _ P); now left); [lra|auto]. }
    f_equal. apply IH; auto. now apply Permutation_cons_inv in P.
  Qed.
  Lemma count_has mu E : count_occ Req_EM_T (map fst E) mu = length (filter (has mu) E).
  Proof. induction E as [|p E IH]; [reflexivity|]. cbn [map count_occ filter]. unfold has at 1. destruct (Req_EM_T (fst p) mu); cbn [length]; now rewrite IH. Qed.
  Lemma ev_unique E E' : eigen_system n M E -> eigen_system n M E' -> StronglySorted Rle (map fst E) -> StronglySorted Rle (map fst E') -> map fst E = map fst E'.
  Proof.
    intros S S' T T'. apply sorted_perm_eq; auto. apply (Permutation_count_occ Req_EM_T). intros mu. rewrite !count_has. now apply ev_count.
  Qed.
End Unique.

(** ** The k-means cost of the embedding *)
Lemma rows_entry n (r : list (R * list R)) u e : u < n -> e < length r -> vx (nth u (rows_of n (map snd r)) []) e = vx (snd (nth e r (0%R, []))) u.
Proof.
  intros Hu He. unfold rows_of. rewrite nth_map_seq by auto. rewrite map_map. unfold vx.
  rewrite (nth_indep (map (fun x => nth u (snd x) w0) r) 0%R (nth u (snd (0%R, [])) w0)) by (rewrite map_length; lia). now rewrite (map_nth (fun x => nth u (snd x) w0)).
Qed.
Lemma labels_cost_vari n (r : list (R * list R)) (z : list nat) : labels_cost (length r) (rows_of n (map snd r)) z = lsum (fun p => vari n (fun u => nth u z 0) (vx (snd p))) r.
Proof.
  unfold labels_cost. assert (length (rows_of n (map snd r)) = n) as LX by apply rows_of_length. rewrite LX. unfold sqd. rewrite rsum_swap.
  rewrite <- (rsum_nth (fun p => vari n (fun u => nth u z 0) (vx (snd p))) r (0%R, [])). apply rsum_ext. intros e He. unfold vari, dot. apply rsum_ext. intros u Hu.
  assert (vx (mean_point (length r) (rows_of n (map snd r)) z (nth u z 0%nat)) e = csum n (fun u => nth u z 0%nat) (vx (snd (nth e r (0%R, [])))) (nth u z 0%nat) / csize n (fun u => nth u z 0%nat) (nth u z 0%nat))%R as ->.
  { unfold mean_point. unfold vx at 1. rewrite nth_map_seq by auto. unfold sum_of, size_of, csum, csize. rewrite LX. f_equal. apply rsum_ext. intros v Hv. rewrite rows_entry by auto. reflexivity. }
  rewrite rows_entry by auto. unfold resid. ring.
Qed.
Lemma labels_cost_is_cost D X K z : (forall i, i < length X -> nth i z 0 < K) -> labels_cost D X z = cost D X (map (mean_point D X z) (seq 0 K)) z.
Proof. intros Hz. unfold labels_cost, cost. apply rsum_ext. intros i Hi. unfold centre. now rewrite nth_map_seq by auto. Qed.

(** ** Expected values of functions of the seeds *)
Lemma Ex_affine n (Hn : 1 <= n) dd a b t : forall c C F, Ex n dd t c C (fun C => a + b * F C)%R = (a + b * Ex n dd t c C F)%R.
Proof.
  induction t as [|t IH]; intros c C F; cbn [Ex]; [reflexivity|].
  rewrite (rsum_ext n _ (fun i => a * wt n dd c C i + b * (wt n dd c C i * Ex n dd t c (i :: C) F))%R) by (intros i _; rewrite IH; ring).
  rewrite rsum_plus, !rsum_scal. rewrite (wt_sum n Hn dd c C). ring.
Qed.
Lemma affine_quality D X (HX : forall x, In x X -> length x = D) K C z (H : outcome (list (list R)) -> R) a b : 1 <= K <= length X -> (forall i, i < length X -> nth i z 0 < K) -> (0 <= b)%R ->
  (forall Mu, length Mu = K -> (forall c, In c Mu -> In c X) -> (H (Ok Mu) <= a + b * centres_cost D X Mu)%R) ->
  exists e, is_mean K (fun us => H (kpp_seeds us X)) e /\ (e <= a + b * (8 * (2 + ln (INR K)) * cost D X C z))%R.
Proof.
  intros HK Hz Hb HH. eexists. split; [apply (E_seeds D X HX H K); lia|].
  destruct (seeds_quality D X HX K C z 0%R HK Hz) as (e0 & M0 & L0).
  pose proof (E_seeds D X HX (value_or 0 (centres_cost D X)) K ltac:(lia) ltac:(lia)) as M2. apply is_mean_Eunif in M0. apply is_mean_Eunif in M2. rewrite M2 in M0. clear M2.
  set (n := length X) in *. assert (0 < INR n)%R as Pn by (apply lt_0_INR; lia).
  apply Rle_trans with (a + b * e0)%R; [|apply Rplus_le_compat_l, Rmult_le_compat_l; auto]. rewrite <- M0. rewrite <- rsum_scal.
  replace a with (rsum n (fun _ => / INR n * a)%R) at 1 by (rewrite rsum_const; field; lra). rewrite <- rsum_plus. apply rsum_le. intros c Hc.
  replace (/ INR n * a + b * (/ INR n * Ex n (Kpp.dd D X) (K - 1) c [] (fun C0 => value_or 0 (centres_cost D X) (Ok (map (fun i => nth i X []) (c :: rev C0))))))%R
    with (/ INR n * (a + b * Ex n (Kpp.dd D X) (K - 1) c [] (fun C0 => value_or 0 (centres_cost D X) (Ok (map (fun i => nth i X []) (c :: rev C0))))))%R by ring.
  apply Rmult_le_compat_l; [left; now apply Rinv_0_lt_compat|]. rewrite <- Ex_affine by lia.
  apply (Ex_mono n ltac:(lia) (Kpp.dd D X) (dd_nonneg D X)). intros C' IC LC. cbn [value_or]. apply HH.
  - rewrite map_length. cbn [length] in *. rewrite rev_length, LC. cbn [length]. lia.
  - intros m I. apply in_map_iff in I as (j & <- & I). apply nth_In. destruct I as [<-|I]; auto. apply in_rev in I. destruct (IC j I) as [|[]]; auto.
Qed.


(** ** Misplaced vertices *)
Lemma label_eqb (z : list nat) u v : (nth v (map Z.of_nat z) 0 =? nth u (map Z.of_nat z) 0)%Z = (nth v z 0 =? nth u z 0).
Proof.
  assert (forall i, nth i (map Z.of_nat z) 0%Z = Z.of_nat (nth i z 0)) as En by (intros i; exact (map_nth Z.of_nat z 0 i)). rewrite !En.
  destruct (Nat.eqb_spec (nth v z 0) (nth u z 0)) as [->|N]; [apply Z.eqb_refl|]. apply Z.eqb_neq. lia.
Qed.
Lemma misplaced_stray n s z : misplaced n s (map Z.of_nat z) = rsum n (stray n s (fun u => nth u z 0)).
Proof.
  apply rsum_ext. intros u _. unfold stray.
  assert (agreeing n s (map Z.of_nat z) u = inter n s (fun u => nth u z 0) (s u) (nth u z 0)) as -> by (apply rsum_ext; intros v _; now rewrite label_eqb).
  assert (peers n (map Z.of_nat z) u = csize n (fun u => nth u z 0) (nth u z 0)) as -> by (apply rsum_ext; intros v _; now rewrite label_eqb).
  reflexivity.
Qed.

Section Quality.
  Variables (g : graph R) (k : nat) (s : nat -> nat) (lam smax : R).
  Hypothesis Hr : reachable_pos g.
  Local Notation n := (number_of_vertices g).
  Hypothesis noloop : forall v, v < n -> rw g v v = 0%R.
  Hypothesis noiso : forall v, v < n -> rdeg g v <> 0%R.
  Hypothesis Hs : clustering n k s.
  Hypothesis Hlam : nth_eigenvalue n (matrix_of_graph MatNormalisedLaplacian g) k lam.
  Hypothesis lam_pos : (0 < lam)%R.
  Hypothesis Hsmax : forall j, j < k -> (cluster_size n s j <= smax)%R.
  Hypothesis Hk : k < n.
  Local Notation M := (matrix_of_graph MatNormalisedLaplacian g).
  Lemma wsym u v : rw g u v = rw g v u. Proof. apply rw_sym. now apply reachable_pos_reachable. Qed.
  Lemma wnn u v : (0 <= rw g u v)%R. Proof. now apply rw_nonneg. Qed.
  Lemma dpos v : v < n -> (0 < rdeg g v)%R. Proof. exact (deg_pos g Hr noiso v). Qed.
  Lemma degs u : u < n -> rdeg g u = rsum n (rw g u). Proof. intros Hu. now apply rdeg_noloop. Qed.
  Lemma size_pos j : j < k -> (0 < cluster_size n s j)%R.
  Proof. intros Hj. destruct Hs as [_ O]. destruct (O j Hj) as (u & Hu & <-). pose proof (csize_pos n s u Hu) as P. change (csize n s (s u)) with (cluster_size n s (s u)) in P. lra. Qed.
  Lemma quad_energy j : j < k -> quad n M (chi n s j) = cluster_energy g s j.
  Proof.
    intros Hj. pose proof (size_pos j Hj) as P. pose proof (sqrt_lt_R0 _ P) as Ps. pose proof (sqrt_sqrt _ (Rlt_le _ _ P)) as Q.
    set (x := fun u => if s u =? j then (/ sqrt (rdeg g u))%R else 0%R). set (y := fun u => (x u * / sqrt (cluster_size n s j))%R).
    pose proof (quad_scaled n (rw g) (rdeg g) M wsym dpos degs (nlap_form g Hr noiso) y) as QS.
    assert (quad n M (chi n s j) = quad n M (fun i => rt (rdeg g) i * y i)%R) as E.
    { assert (forall u, (u < n)%nat -> chi n s j u = (rt (rdeg g) u * y u)%R) as C.
      { intros u Hu. unfold chi, y, x, rt. change (csize n s j) with (cluster_size n s j). pose proof (sqrt_lt_R0 _ (dpos u Hu)). destruct (s u =? j); [field; lra|ring]. }
      unfold quad. apply rsum_ext. intros u Hu. apply rsum_ext. intros v Hv. now rewrite !C. }
    rewrite E. unfold cluster_energy. fold x.
    assert (rsum n (fun i => rsum n (fun v => rw g i v * (y i - y v) ^ 2)) = rsum n (fun u => rsum n (fun v => rw g u v * (x u - x v) ^ 2)) / cluster_size n s j)%R as E2.
    { unfold Rdiv. rewrite <- rsum_scal_r. apply rsum_ext. intros u _. rewrite <- rsum_scal_r. apply rsum_ext. intros v _. unfold y. rewrite <- Q at 3. field. lra. }
    rewrite E2 in QS. cbv beta in QS. set (T := rsum n _) in *. clearbody T.
    apply (Rmult_eq_reg_l 2); [|lra]. rewrite QS. field. lra.
  Qed.
  Lemma energy_conductance j d : j < k -> (forall u, u < n -> s u = j -> rdeg g u = d) -> cluster_energy g s j = cluster_conductance g s j.
  Proof.
    intros Hj Hd. pose proof (size_pos j Hj) as P. destruct Hs as [_ O]. destruct (O j Hj) as (u0 & Hu0 & E0). pose proof (dpos u0 Hu0) as Pd. rewrite (Hd u0 Hu0 E0) in Pd.
    unfold cluster_conductance.
    assert (cluster_volume g s j = d * cluster_size n s j)%R as ->.
    { unfold cluster_volume, cluster_size. rewrite <- rsum_scal. apply rsum_ext. intros u Hu. destruct (Nat.eqb_spec (s u) j) as [E|]; [rewrite (Hd u Hu E)|]; ring. }
    set (x := fun u => if s u =? j then (/ sqrt (rdeg g u))%R else 0%R).
    change (cluster_energy g s j) with (rsum n (fun u => rsum n (fun v => rw g u v * (x u - x v) ^ 2)) / (2 * cluster_size n s j))%R.
    assert (rsum n (fun u => rsum n (fun v => rw g u v * (x u - x v) ^ 2)) = / d * (2 * cluster_cut g s j))%R as ->.
    { pose proof (sqrt_lt_R0 _ Pd) as Ps. pose proof (sqrt_sqrt _ (Rlt_le _ _ Pd)) as Q. assert (/ sqrt d * / sqrt d = / d)%R as Qi by (rewrite <- Q at 3; field; lra).
      replace (2 * cluster_cut g s j)%R with (cluster_cut g s j + rsum n (fun u => rsum n (fun v => if (s v =? j) && negb (s u =? j) then rw g u v else 0)))%R.
      - unfold cluster_cut. rewrite <- rsum_plus, <- rsum_scal. apply rsum_ext. intros u Hu. rewrite <- rsum_plus, <- rsum_scal. apply rsum_ext. intros v Hv. unfold x.
        destruct (Nat.eqb_spec (s u) j) as [Eu|], (Nat.eqb_spec (s v) j) as [Ev|]; cbn [andb negb]; rewrite ?(Hd u Hu Eu), ?(Hd v Hv Ev), <- Qi; ring.
      - rewrite (rsum_swap n n (fun u v => if (s v =? j) && negb (s u =? j) then rw g u v else 0%R)).
        assert (rsum n (fun v => rsum n (fun u => if (s v =? j) && negb (s u =? j) then rw g u v else 0%R)) = cluster_cut g s j) as ->; [|ring].
        apply rsum_ext. intros u _. apply rsum_ext. intros v _. now rewrite wsym. }
    field. lra.
  Qed.
  Lemma energy_nonneg j : j < k -> (0 <= cluster_energy g s j)%R.
  Proof.
    intros Hj. apply Rle_mult_inv_pos; [|pose proof (size_pos j Hj); lra]. apply rsum_nonneg. intros u _. apply rsum_nonneg. intros v _. apply Rmult_le_pos; [apply wnn|apply pow2_ge_0].
  Qed.
  Section Lead.
    Variable r : list (R * list R).
    Hypothesis Hl : leading (order_of Smallest) n M k r.
    Local Notation X := (rows_of n (map snd r)).
    Local Notation bound := (rsum k (cluster_energy g s) / lam)%R.
    Lemma lead : exists E, eigen_system n M E /\ StronglySorted Rle (map fst E) /\ r = firstn k E /\ lamk E k = lam /\ (forall p, In p E -> (0 <= fst p)%R).
    Proof.
      destruct Hl as (E & Sys & Sor & ->). change (StronglySorted Rle (map fst E)) in Sor. exists E. split; [exact Sys|]. split; [exact Sor|]. split; [reflexivity|]. split.
      - destruct Hlam as (E' & S' & T' & <-). unfold lamk.
        rewrite (ev_unique n M (fun i j Hi Hj => M_sym n (rw g) (rdeg g) M wsym (nlap_form g Hr noiso) i j Hi Hj) E' E S' Sys T' Sor).
        change 0%R with (fst (0%R, @nil R)) at 2. now rewrite map_nth.
      - exact (values_nonneg n (rw g) (rdeg g) M wsym wnn dpos degs (nlap_form g Hr noiso) E Sys).
    Qed.
    Lemma msym i j : i < n -> j < n -> M i j = M j i.
    Proof. exact (M_sym n (rw g) (rdeg g) M wsym (nlap_form g Hr noiso) i j). Qed.
    Lemma r_length : length r = k.
    Proof. destruct lead as (E & Sys & _ & -> & _). exact (F_length n M E Sys k Hk). Qed.
    Lemma gap_energy E : eigen_system n M E -> StronglySorted Rle (map fst E) -> lamk E k = lam -> (forall p, In p E -> (0 <= fst p)%R) -> (gap n E k s <= bound)%R.
    Proof.
      intros Sys Sor L NN. pose proof (gap_bound n M E Sys msym Sor NN k Hk s (proj1 Hs) (proj2 Hs)) as G.
      rewrite L in G. specialize (G lam_pos). rewrite (rsum_ext k _ (cluster_energy g s)) in G; [exact G|]. intros j Hj. now apply quad_energy.
    Qed.
    (** The clusters themselves have a small k-means cost in the embedding. *)
    Lemma planted_cost : (labels_cost k X (map s (seq 0 n)) <= bound)%R.
    Proof.
      destruct lead as (E & Sys & Sor & Er & L & NN). rewrite <- r_length at 1. rewrite labels_cost_vari. rewrite Er.
      eapply Rle_trans; [|apply (gap_energy E Sys Sor L NN)]. destruct Hs as [S1 S2].
      rewrite <- (gap_vari n M E Sys k Hk s S1 S2). right. apply lsum_ext. intros p _. unfold vari. apply dot_ext; intros u Hu; unfold resid, csum, csize; rewrite nth_map_seq by auto.
      all: apply (f_equal (Rminus (vx (snd p) u))); unfold Rdiv; apply f_equal2; [|apply f_equal]; apply rsum_ext; intros v Hv; now rewrite nth_map_seq by auto.
    Qed.
    (** Labels of small k-means cost in the embedding misplace few vertices. *)
    Lemma labels_few z K : (forall u, u < n -> nth u z 0 < K) -> (misplaced n s (map Z.of_nat z) <= 4 * smax * (bound + labels_cost k X z))%R.
    Proof.
      intros Hz. destruct lead as (E & Sys & Sor & Er & L & NN). destruct Hs as [S1 S2]. rewrite misplaced_stray.
      assert (0 <= smax)%R as Ps.
      { assert (0 < k) as K0 by (specialize (S1 0); lia). pose proof (Hsmax 0 K0). pose proof (size_pos 0 K0). lra. }
      eapply Rle_trans; [apply (stray_bound n M E Sys msym k Hk s S1 S2 (fun u => nth u z 0) K Hz smax Hsmax)|].
      apply Rmult_le_compat_l; [lra|]. apply Rplus_le_compat; [now apply gap_energy|]. right. rewrite <- r_length. rewrite labels_cost_vari. rewrite r_length. unfold fit. now rewrite Er.
    Qed.
  End Lead.
End Quality.

(** ** No misplaced vertex: the clusters are found exactly *)
Lemma recovers_iff n s labels : recovers n s labels = true <-> forall u v, u < n -> v < n -> (nth u labels 0%Z = nth v labels 0%Z <-> s u = s v).
Proof.
  unfold recovers. rewrite forallb_forall. split.
  - intros H u v Hu Hv. specialize (H u ltac:(apply in_seq; lia)). rewrite forallb_forall in H. specialize (H v ltac:(apply in_seq; lia)).
    apply Bool.eqb_prop in H. rewrite <- Z.eqb_eq, <- Nat.eqb_eq. now rewrite H.
  - intros H u Hu. apply in_seq in Hu. apply forallb_forall. intros v Hv. apply in_seq in Hv. specialize (H u v ltac:(lia) ltac:(lia)).
    apply Bool.eqb_true_iff. apply Bool.eq_iff_eq_true. now rewrite Z.eqb_eq, Nat.eqb_eq.
Qed.
Lemma misplaced_one n s labels : (misplaced n s labels < 1)%R -> forall u, u < n -> (peers n labels u < 2 * agreeing n s labels u)%R.
Proof.
  intros H u Hu. destruct (Rle_dec (2 * agreeing n s labels u) (peers n labels u)) as [L|N]; [|lra]. exfalso.
  assert (1 <= misplaced n s labels)%R; [|lra]. unfold misplaced.
  eapply Rle_trans; [|apply (rsum_ge_elt n (fun u => if Rle_dec (2 * agreeing n s labels u) (peers n labels u) then 1%R else 0%R) u); auto]; [destruct (Rle_dec (2 * agreeing n s labels u) (peers n labels u)); [lra|contradiction]|intros v _; destruct (Rle_dec (2 * agreeing n s labels v) (peers n labels v)); lra].
Qed.
Lemma nodup_map_in {A B} (f : A -> B) l : (forall x y, In x l -> In y l -> f x = f y -> x = y) -> NoDup l -> NoDup (map f l).
Proof.
  induction l as [|x l IH]; intros H N; cbn [map]; [constructor|]. inversion N as [|? ? N1 N2]; subst. constructor; [|apply IH; auto; intros a b Ia Ib; apply H; now right].
  intros I. apply in_map_iff in I as (y & E & Iy). apply N1. rewrite (H x y); auto; [now left|now right].
Qed.
Lemma misplaced_exact n k s z : (forall j, j < k -> exists u, u < n /\ s u = j) -> (forall u, u < n -> s u < k) -> (forall u, u < n -> nth u z 0 < k) ->
  (misplaced n s (map Z.of_nat z) < 1)%R -> recovers n s (map Z.of_nat z) = true.
Proof.
  intros O S1 Hz H. pose proof (misplaced_one n s _ H) as A. apply recovers_iff.
  assert (forall i, nth i (map Z.of_nat z) 0%Z = Z.of_nat (nth i z 0)) as En by (intros i; exact (map_nth Z.of_nat z 0 i)).
  assert (forall u v, u < n -> v < n -> nth u z 0 = nth v z 0 -> s u = s v) as F.
  { intros u v Hu Hv E. destruct (Nat.eq_dec (s u) (s v)) as [|N]; auto. exfalso. pose proof (A u Hu) as Au. pose proof (A v Hv) as Av.
    assert (peers n (map Z.of_nat z) v = peers n (map Z.of_nat z) u) as Ep by (apply rsum_ext; intros w _; now rewrite !label_eqb, E).
    assert (agreeing n s (map Z.of_nat z) u + agreeing n s (map Z.of_nat z) v <= peers n (map Z.of_nat z) u)%R; [|lra].
    unfold agreeing, peers. rewrite <- rsum_plus. apply rsum_le. intros w _. rewrite !label_eqb, E.
    destruct (nth w z 0 =? nth v z 0); [|rewrite !Bool.andb_false_r; lra]. rewrite !Bool.andb_true_r.
    destruct (Nat.eqb_spec (s w) (s u)), (Nat.eqb_spec (s w) (s v)); try lra. congruence. }
  intros u v Hu Hv. rewrite !En. split; intros E; [apply F; auto; lia|]. f_equal.
  destruct (Nat.eq_dec (nth u z 0) (nth v z 0)) as [|N]; auto. exfalso.
  (* k clusters, k labels: a vertex of each cluster gives an injection from clusters to labels that misses one of the two labels *)
  set (rep := fun j => if j =? s u then u else match find (fun w => s w =? j) (seq 0 n) with Some w => w | None => 0 end).
  assert (forall j, j < k -> rep j < n /\ s (rep j) = j) as HR.
  { intros j Hj. unfold rep. destruct (Nat.eqb_spec j (s u)) as [->|]; [auto|]. destruct (find _ _) as [w|] eqn:Ef.
    - apply find_some in Ef as [I J]. apply in_seq in I. apply Nat.eqb_eq in J. split; [lia|auto].
    - destruct (O j Hj) as (w & Hw & Ew). pose proof (find_none _ _ Ef w ltac:(apply in_seq; lia)) as C. cbn beta in C. rewrite Ew, Nat.eqb_refl in C. discriminate. }
  set (L := map (fun j => nth (rep j) z 0) (seq 0 k)).
  assert (NoDup (nth v z 0 :: L)) as ND.
  { constructor.
    - intros I. apply in_map_iff in I as (j & Ej & Ij). apply in_seq in Ij. destruct (HR j ltac:(lia)) as [R1 R2]. pose proof (F _ _ R1 Hv Ej) as Q. rewrite R2 in Q.
      apply N. rewrite <- Ej. unfold rep. rewrite Q, E, Nat.eqb_refl. reflexivity.
    - apply nodup_map_in; [|apply seq_NoDup]. intros i j Ii Ij Q. apply in_seq in Ii, Ij. destruct (HR i ltac:(lia)) as [R1 R2]. destruct (HR j ltac:(lia)) as [R3 R4].
      rewrite <- R2, <- R4. now apply F. }
  assert (incl (nth v z 0 :: L) (seq 0 k)) as IN.
  { intros x [<-|I]; [apply in_seq; specialize (Hz v Hv); lia|]. apply in_map_iff in I as (j & <- & Ij). apply in_seq in Ij. apply in_seq. destruct (HR j ltac:(lia)) as [R1 _]. specialize (Hz _ R1). lia. }
  pose proof (NoDup_incl_length ND IN) as B. cbn [length] in B. unfold L in B. rewrite map_length, seq_length in B. lia.
Qed.

(** ** Theorems about calls *)
Section Calls.
  Variables (bump : R -> R) (solver : eigen_solver (W := R)) (g : graph R) (k : nat) (s : nat -> nat) (lam smax : R).
  Hypothesis SC : solver_contract solver.
  Hypothesis Hr : reachable_pos g.
  Local Notation n := (number_of_vertices g).
  Hypothesis noloop : forall v, v < n -> rw g v v = 0%R.
  Hypothesis noiso : forall v, v < n -> rdeg g v <> 0%R.
  Hypothesis Hk1 : 1 <= k.
  Hypothesis Hk2 : 2 * k <= n.
  Hypothesis Hb : (Z.of_nat k <= 21474836)%Z.
  Hypothesis Hs : clustering n k s.
  Hypothesis Hlam : nth_eigenvalue n (matrix_of_graph MatNormalisedLaplacian g) k lam.
  Hypothesis lam_pos : (0 < lam)%R.
  Hypothesis Hsmax : forall j, j < k -> (cluster_size n s j <= smax)%R.
  Local Notation M := (matrix_of_graph MatNormalisedLaplacian g).
  Local Notation bound := (rsum k (cluster_energy g s) / lam)%R.
  Lemma vectors_leading vecs : snd (compute_eigenvectors solver g MatNormalisedLaplacian (Z.of_nat k) Smallest) = Ok vecs ->
    exists r, vecs = map snd r /\ leading (order_of Smallest) n M k r.
  Proof.
    pose proof (compute_eigensystem_spec solver SC g MatNormalisedLaplacian (Z.of_nat k) Smallest Hr ltac:(lia)) as P.
    unfold compute_eigenvectors. destruct (compute_eigensystem solver g MatNormalisedLaplacian (Z.of_nat k) Smallest) as [g' o]. destruct P as (_ & _ & P).
    destruct o as [r|e|]; cbn [omap snd]; try discriminate. intros [= <-]. rewrite Nat2Z.id in P. eauto.
  Qed.
  Lemma with_steps us vecs : snd (compute_eigenvectors solver g MatNormalisedLaplacian (Z.of_nat k) Smallest) = Ok vecs ->
    snd (spectral_cluster_with bump solver g (Z.of_nat k) us) = omap (map Z.of_nat) (kmeans_with bump us (rows_of n vecs) k (k * 100)).
  Proof.
    intros E. pose proof (compute_eigensystem_n solver g MatNormalisedLaplacian (Z.of_nat k) Smallest) as Ng. unfold spectral_cluster_with.
    destruct (Z.ltb_spec (Z.of_nat k) 1); [lia|]. assert (Hd : (Z.of_nat k <= Z.of_nat n / 2)%Z) by (apply Z.div_le_lower_bound; lia).
    destruct (Z.ltb_spec (Z.of_nat n / 2) (Z.of_nat k)); [lia|]. cbn [orb]. unfold compute_eigenvectors in *.
    destruct (compute_eigensystem solver g MatNormalisedLaplacian (Z.of_nat k) Smallest) as [g' o]. cbn [snd fst] in *. rewrite E. rewrite Ng. cbn [snd].
    rewrite Nat2Z.id, to_int32_small by lia. replace (Z.to_nat (Z.of_nat k * 100)) with (k * 100) by lia. reflexivity.
  Qed.
  Lemma rows_dim (r : list (R * list R)) x : leading (order_of Smallest) n M k r -> In x (rows_of n (map snd r)) -> length x = k.
  Proof. intros HL I. unfold rows_of in I. apply in_map_iff in I as (i & <- & _). rewrite !map_length. apply (r_length g k lam Hr noloop noiso Hlam); auto; lia. Qed.
  (** The call made by spectral_cluster. *)
  Theorem spectral_misplaced labels : snd (spectral_cluster IZR unit_ofR truncR bump solver g (Z.of_nat k)) = Ok labels ->
    exists vecs, snd (compute_eigenvectors solver g MatNormalisedLaplacian (Z.of_nat k) Smallest) = Ok vecs /\
      (misplaced n s labels <= 4 * smax * (bound + labels_cost k (rows_of n vecs) (map Z.to_nat labels)))%R /\
      ((4 * smax * (bound + labels_cost k (rows_of n vecs) (map Z.to_nat labels)) < 1)%R -> forall u v, u < n -> v < n -> (nth u labels 0%Z = nth v labels 0%Z <-> s u = s v)).
  Proof.
    intros E. destruct (snd (compute_eigenvectors solver g MatNormalisedLaplacian (Z.of_nat k) Smallest)) as [vecs|e|] eqn:Ev.
    2,3: exfalso; revert E; unfold spectral_cluster; destruct (_ || _)%bool; [discriminate|]; destruct (compute_eigenvectors solver g MatNormalisedLaplacian (Z.of_nat k) Smallest); cbn [snd] in *; subst; discriminate.
    exists vecs. split; [reflexivity|]. destruct (vectors_leading vecs Ev) as (r & -> & HL).
    rewrite spectral_cluster_draws, (with_steps _ _ Ev) in E. rewrite Nat2Z.id in E.
    destruct (kmeans_with bump (unit_draws (mt_init 42) k) (rows_of n (map snd r)) k (k * 100)) as [z|e|] eqn:Ez; try discriminate. cbn [omap] in E. injection E as <-.
    pose proof (rows_of_length n (map snd r)) as LX.
    assert (length z = n /\ forall u, u < n -> nth u z 0 < k) as [Lz Hz].
    { pose proof (kmeans_with_words bump (rows_of n (map snd r)) k k (Z.of_nat k * 100) 42 Hk1) as W. replace (Z.to_nat (Z.of_nat k * 100)) with (k * 100) in W by lia. rewrite Ez in W.
      destruct (run_kmeans_ok IZR unit_ofR truncR bump (rows_of n (map snd r)) k k (Z.of_nat k * 100) 42) as (out & Eo & L & F).
      - lia.
      - unfold randint. pose proof first_draw_42 as D0. destruct (mt_draw (mt_init 42)) as [st y]. cbn [snd] in *. subst y. rewrite LX. apply first_choice. lia.
      - rewrite Eo in W. injection W as <-. split; [lia|]. intros u Hu. rewrite Forall_forall in F. apply F, nth_In. lia. }
    rewrite map_map, (map_ext _ (fun x => x)) by (intros; apply Nat2Z.id). rewrite map_id.
    pose proof (labels_few g k s lam smax Hr noloop noiso Hs Hlam lam_pos Hsmax ltac:(lia) r HL z k Hz) as B. split; [exact B|].
    intros Lt. apply recovers_iff. destruct Hs as [S1 S2]. apply (misplaced_exact n k s z S2 S1 Hz). lra.
  Qed.
  (** The average over independent uniform numbers. *)
  Hypothesis bump1 : forall c, (1 <= c)%R -> bump c = c.
  Lemma expected_of (f : list Z -> R) bad vecs : snd (compute_eigenvectors solver g MatNormalisedLaplacian (Z.of_nat k) Smallest) = Ok vecs ->
    (forall z, length z = n -> (forall u, u < n -> nth u z 0 < k) -> (f (map Z.of_nat z) <= misplaced n s (map Z.of_nat z))%R) ->
    exists e, is_mean k (fun us => value_or bad f (snd (spectral_cluster_with bump solver g (Z.of_nat k) us))) e /\
      (e <= 4 * smax * (1 + 8 * (2 + ln (INR k))) * bound)%R.
  Proof.
    intros Ev Hf. destruct (vectors_leading vecs Ev) as (r & -> & HL). set (X := rows_of n (map snd r)). assert (LX : length X = n) by apply rows_of_length.
    assert (0 <= smax)%R as Ps by (pose proof (Hsmax 0 ltac:(lia)); pose proof (size_pos g k s Hs 0 ltac:(lia)); lra).
    assert (forall x, In x X -> length x = k) as HX by (intros x; now apply rows_dim).
    set (z0 := map s (seq 0 n)). assert (forall i, i < length X -> nth i z0 0 < k) as Hz0 by (rewrite LX; intros i Hi; unfold z0; rewrite nth_map_seq by auto; now apply (proj1 Hs)).
    destruct (affine_quality k X HX k (map (mean_point k X z0) (seq 0 k)) z0
      (fun o => value_or bad f (omap (map Z.of_nat) (obind o (fun Mu => lloyd bump k k X (k * 100) Mu (repeat 0%nat (length X)) 0%R)))) (4 * smax * bound)%R (4 * smax)%R) as (e & Me & Le).
    - lia.
    - exact Hz0.
    - lra.
    - intros Mu LM IM. cbn [obind]. destruct (lloyd_improves k X HX bump bump1 k (k * 100) Mu ltac:(lia) Hk1 ltac:(lia) LM IM) as (out & Eo & Lo & Ho & B).
      rewrite Eo. cbn [omap value_or]. rewrite LX in *. eapply Rle_trans; [now apply Hf|].
      eapply Rle_trans; [apply (labels_few g k s lam smax Hr noloop noiso Hs Hlam lam_pos Hsmax ltac:(lia) r HL out k Ho)|].
      rewrite Rmult_plus_distr_l. apply Rplus_le_compat_l. apply Rmult_le_compat_l; [lra|exact B].
    - exists e. split.
      + apply (is_mean_ext k _ _ _) with (2 := Me). intros us L _. rewrite (with_steps us (map snd r) Ev). fold X. unfold kmeans_with. now rewrite L.
      + eapply Rle_trans; [exact Le|]. rewrite <- labels_cost_is_cost by exact Hz0.
        pose proof (planted_cost g k s lam Hr noloop noiso Hs Hlam lam_pos ltac:(lia) r HL) as PC. fold X z0 in PC.
        assert (0 <= ln (INR k))%R as Pl.
        { assert (1 <= INR k)%R by (change 1%R with (INR 1); apply le_INR; lia). destruct (Rle_lt_or_eq_dec 1 (INR k)) as [L1|<-]; auto; [left; rewrite <- ln_1; apply ln_increasing; lra|rewrite ln_1; lra]. }
        set (c := (8 * (2 + ln (INR k)))%R) in *. assert (0 <= c)%R by (unfold c; lra). clearbody c. set (G := bound) in *. clearbody G.
        replace (4 * smax * (1 + c) * G)%R with (4 * smax * G + 4 * smax * (c * G))%R by ring. apply Rplus_le_compat_l. apply Rmult_le_compat_l; [lra|]. now apply Rmult_le_compat_l.
  Qed.
  Theorem spectral_expected bad vecs : snd (compute_eigenvectors solver g MatNormalisedLaplacian (Z.of_nat k) Smallest) = Ok vecs ->
    exists e, is_mean k (fun us => value_or bad (misplaced n s) (snd (spectral_cluster_with bump solver g (Z.of_nat k) us))) e /\
      (e <= 4 * smax * (1 + 8 * (2 + ln (INR k))) * bound)%R.
  Proof. intros Ev. apply (expected_of (misplaced n s) bad vecs Ev). intros. lra. Qed.
  Theorem spectral_probability vecs : snd (compute_eigenvectors solver g MatNormalisedLaplacian (Z.of_nat k) Smallest) = Ok vecs ->
    exists e, is_mean k (fun us => value_or 1 (fun labels => if recovers n s labels then 0%R else 1%R) (snd (spectral_cluster_with bump solver g (Z.of_nat k) us))) e /\
      (e <= 4 * smax * (1 + 8 * (2 + ln (INR k))) * bound)%R.
  Proof.
    intros Ev. apply (expected_of (fun labels => if recovers n s labels then 0%R else 1%R) 1%R vecs Ev). intros z Lz Hz.
    destruct (recovers n s (map Z.of_nat z)) eqn:Er; [apply rsum_nonneg; intros u _; destruct (Rle_dec _ _); lra|].
    destruct (Rlt_le_dec (misplaced n s (map Z.of_nat z)) 1) as [L|]; auto. destruct Hs as [S1 S2]. rewrite (misplaced_exact n k s z S2 S1 Hz L) in Er. discriminate.
  Qed.
End Calls.
