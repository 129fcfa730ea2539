(** Quality of the k-means clustering in expectation (C91). *)
From Verif Require Import Base Num RSum KdeFacts4 SimGraphFacts4 KMeans KMeansFacts KMeansSpec KMeansLloyd KMeansTop MTFacts RecoverKM KppMath SpectrumSpec SimExpect Kpp.
From Coq Require Import Reals Lra Psatz List.
Import ListNotations.
Local Open Scope nat_scope.

(** *** Specification *)
(** The least number of a list that is not empty. *)
Fixpoint least (x : R) (l : list R) : R := match l with [] => x | y :: l => Rmin x (least y l) end.
(** The k-means objective of centres: squared distances to the nearest one. *)
Definition centres_cost (D : nat) (X Mu : list (list R)) : R :=
  rsum (length X) (fun i => match map (sqd D (nth i X [])) Mu with [] => 0%R | x :: l => least x l end).
(** The k-means objective of labels: squared distances to the mean of the points with the same label. *)
Definition mean_point (D : nat) (X : list (list R)) (z : list nat) (k : nat) : list R := map (fun d => (sum_of X z k d / size_of X z k)%R) (seq 0 D).
Definition labels_cost (D : nat) (X : list (list R)) (z : list nat) : R :=
  rsum (length X) (fun i => sqd D (nth i X []) (mean_point D X z (nth i z 0))).
(** A value for the result of a computation, [bad] when it fails. *)
Definition value_or {A} (bad : R) (f : A -> R) (o : outcome A) : R := match o with Ok x => f x | _ => bad end.

(** *** Proofs *)
Lemma least_le x l : (least x l <= x)%R /\ forall y, In y l -> (least x l <= y)%R.
Proof.
  revert x. induction l as [|y l IH]; intros x; cbn [least]; [split; [lra|intros y []]|]. destruct (IH y) as [A B]. split; [apply Rmin_l|].
  intros w [<-|I]; [eapply Rle_trans; [apply Rmin_r|auto]|eapply Rle_trans; [apply Rmin_r|now apply B]].
Qed.
Lemma least_in x l : In (least x l) (x :: l).
Proof.
  revert x. induction l as [|y l IH]; intros x; cbn [least]; [now left|]. unfold Rmin. destruct (Rle_dec x (least y l)); [now left|right; apply IH].
Qed.
Lemma least_unique x l v : In v (x :: l) -> (forall y, In y (x :: l) -> (v <= y)%R) -> least x l = v.
Proof. intros I L. apply Rle_antisym; [|apply L, least_in]. destruct (least_le x l) as [A B]. destruct I as [<-|I]; auto. Qed.
Lemma sqd_nonneg D x y : (0 <= sqd D x y)%R.
Proof. apply rsum_nonneg. intros. apply pow2_ge_0. Qed.

Section S.
  Variables (D : nat) (X : list (list R)).
  Notation n := (length X). Notation pt i := (nth i X []). Notation dd := (dd D X).
  Lemma dd_tri i j k : (dd i k <= 2 * dd i j + 2 * dd j k)%R.
  Proof.
    unfold Kpp.dd, sqd. rewrite <- !rsum_scal, <- rsum_plus. apply rsum_le. intros e _.
    assert (0 <= ((vx (pt i) e - vx (pt j) e) - (vx (pt j) e - vx (pt k) e)) ^ 2)%R by apply pow2_ge_0. nra.
  Qed.
  (** Sum over pairs of the points of a set, against the sum of distances to any point. *)
  Lemma pairs (S : list nat) (c : list R) :
    (lsum (fun a => lsum (fun x => dd a x) S) S <= 2 * INR (length S) * lsum (fun x => sqd D (pt x) c) S)%R.
  Proof.
    assert (lsum (fun a => lsum (fun x => dd a x) S) S = rsum D (fun e => lsum (fun a => lsum (fun x => (vx (pt a) e - vx (pt x) e) ^ 2) S) S)%R) as ->.
    { unfold Kpp.dd, sqd, rsum. rewrite (lsum_swap (fun e a => lsum (fun x => (vx (pt a) e - vx (pt x) e) ^ 2)%R S) (seq 0 D) S).
      apply lsum_ext. intros a _. apply (lsum_swap (fun x e => (vx (pt a) e - vx (pt x) e) ^ 2)%R S (seq 0 D)). }
    assert (lsum (fun x => sqd D (pt x) c) S = rsum D (fun e => lsum (fun x => (vx (pt x) e - vx c e) ^ 2) S)%R) as ->.
    { unfold sqd, rsum. apply (lsum_swap (fun x e => (vx (pt x) e - vx c e) ^ 2)%R S (seq 0 D)). }
    rewrite <- rsum_scal. apply rsum_le. intros e _. set (m := vx c e). set (f := fun x => (vx (pt x) e - m)%R).
    assert (lsum (fun a => lsum (fun x => (vx (pt a) e - vx (pt x) e) ^ 2)%R S) S =
      2 * INR (length S) * lsum (fun x => f x * f x) S - 2 * (lsum f S * lsum f S))%R as ->.
    { rewrite (lsum_ext _ (fun a => INR (length S) * (f a * f a) - 2 * f a * lsum f S + lsum (fun x => f x * f x)%R S)%R).
      - rewrite lsum_plus, lsum_minus, lsum_const, lsum_scal, lsum_scal_r, lsum_scal. ring.
      - intros a _. rewrite (lsum_ext _ (fun x => f a * f a - 2 * f a * f x + f x * f x)%R) by (intros x _; unfold f; ring). rewrite lsum_plus, lsum_minus, lsum_const, lsum_scal. ring. }
    assert (0 <= lsum f S * lsum f S)%R by apply Rle_0_sqr.
    rewrite (lsum_ext (fun x => (vx (pt x) e - m) ^ 2)%R (fun x => f x * f x)%R) by (intros; unfold f; ring). lra.
  Qed.
  (** The distance to the centres chosen so far. *)
  Lemma md_least c C i : md dd c C i = match map (sqd D (pt i)) (map (fun j => pt j) (c :: rev C)) with [] => 0%R | x :: l => least x l end.
  Proof.
    cbn [map]. symmetry. apply least_unique.
    - induction C as [|a C IH]; cbn [md rev map]; [now left|]. unfold Rmin. destruct (Rle_dec _ _).
      + right. rewrite !map_app. apply in_or_app. right. now left.
      + destruct IH as [E|I]; [now left|right]. rewrite !map_app. apply in_or_app. now left.
    - induction C as [|a C IH]; cbn [md rev map].
      + intros y [<-|[]]. apply Rle_refl.
      + intros y I. assert (y = sqd D (pt i) (pt a) \/ In y (sqd D (pt i) (pt c) :: map (sqd D (pt i)) (map (fun j => pt j) (rev C)))) as [->|I'].
        { destruct I as [<-|I]; [right; now left|]. rewrite !map_app in I. apply in_app_or in I as [I|[<-|[]]]; [right; now right|now left]. }
        * apply Rmin_l.
        * eapply Rle_trans; [apply Rmin_r|now apply IH].
  Qed.
  Lemma phi_cost c C : phi n dd c C = centres_cost D X (map (fun j => pt j) (c :: rev C)).
  Proof. unfold phi, centres_cost. apply rsum_ext. intros i _. apply md_least. Qed.
  (** Cost of given labels and centres, cluster by cluster. *)
  Lemma cost_clusters K C (z : list nat) : (forall i, i < n -> nth i z 0 < K) ->
    rsum K (fun A => lsum (fun x => sqd D (pt x) (nth A C [])) (cls n (fun i => nth i z 0) A)) = cost D X C z.
  Proof.
    intros Hz. unfold cost, cls. rewrite (rsum_ext K _ (fun k => rsum n (fun i => if nth i z 0 =? k then sqd D (pt i) (nth k C []) else 0%R))).
    - rewrite rsum_swap. apply rsum_ext. intros i Hi. rewrite (rsum_delta' K (nth i z 0) (fun k => sqd D (pt i) (nth k C [])) (Hz i Hi)). reflexivity.
    - intros k _. unfold rsum. induction (seq 0 n) as [|i l IH]; [reflexivity|]. cbn [filter lsum]. destruct (nth i z 0 =? k); cbn [lsum]; rewrite IH; lra.
  Qed.
  Hypothesis HX : forall x, In x X -> length x = D.
  Theorem seeds_quality K C z bad : 1 <= K <= n -> (forall i, i < n -> nth i z 0 < K) ->
    exists e, is_mean K (fun us => value_or bad (centres_cost D X) (kpp_seeds us X)) e /\ (e <= 8 * (2 + ln (INR K)) * cost D X C z)%R.
  Proof.
    intros HK Hz. eexists. split; [apply (E_seeds D X HX (value_or bad (centres_cost D X)) K); lia|]. cbn [value_or]. rewrite <- (cost_clusters K C z Hz).
    rewrite (rsum_ext n _ (fun i => / INR n * Ex n dd (K - 1) i [] (phi n dd i))%R).
    - apply (kpp_bound n ltac:(lia) dd (dd_nonneg D X) dd_tri (fun i => nth i z 0)); [|intros A; apply pairs|lia|exact Hz].
      intros A. apply lsum_nonneg. intros. apply sqd_nonneg.
    - intros i _. f_equal. apply Rle_antisym; apply (Ex_mono n ltac:(lia) dd (dd_nonneg D X)); intros C' _ _; rewrite phi_cost; apply Rle_refl.
  Qed.

  (** *** After Lloyd's iterations *)
  Lemma nearest_cost Mu z : nearest D X Mu z -> Mu <> [] -> cost D X Mu z = centres_cost D X Mu.
  Proof.
    intros [L N] NE. unfold cost, centres_cost. apply rsum_ext. intros i Hi. destruct (N i Hi) as [B M]. destruct Mu as [|c Mu]; [congruence|].
    cbn [map]. symmetry. apply (least_unique (sqd D (pt i) c) (map (sqd D (pt i)) Mu)).
    - change (sqd D (pt i) c :: map (sqd D (pt i)) Mu) with (map (sqd D (pt i)) (c :: Mu)). apply in_map. unfold centre. now apply nth_In.
    - change (sqd D (pt i) c :: map (sqd D (pt i)) Mu) with (map (sqd D (pt i)) (c :: Mu)). intros y I. apply in_map_iff in I as (m & <- & I).
      apply (In_nth _ _ []) in I as (j & Hj & <-). now apply M.
  Qed.
  Lemma labels_cost_best K C z : (forall i, i < n -> nth i z 0 < K) -> (labels_cost D X z <= cost D X C z)%R.
  Proof.
    intros Hz. set (C' := map (mean_point D X z) (seq 0 K)).
    assert (means D K X z C') as M.
    { split; [unfold C'; now rewrite map_length, seq_length|]. intros k e Hk He. unfold C'. rewrite nth_map_seq by auto. unfold mean_point, vx. rewrite nth_map_seq by auto. split; [|auto].
      intros E. assert (sum_of X z k e = 0)%R as ->; [|unfold Rdiv; ring]. unfold sum_of. apply rsum_zero. intros i Hi. destruct (nth i z 0 =? k) eqn:Q; auto.
      pose proof (rsum_ge_elt n (fun i => if nth i z 0 =? k then 1%R else 0%R) i) as G. unfold size_of in E. rewrite E in G. cbv beta in G. rewrite Q in G. exfalso.
      assert (1 <= 0)%R; [|lra]. apply G; auto. intros j _. destruct (nth j z 0 =? k); lra. }
    apply Rle_trans with (cost D X C' z); [|now apply (means_best D K X z C C')]. right. unfold labels_cost, cost. apply rsum_ext. intros i Hi. unfold centre, C'. now rewrite nth_map_seq by auto.
  Qed.
  Variable bump : R -> R.
  Hypothesis bump1 : forall c, (1 <= c)%R -> bump c = c.
  Lemma lloyd_improves K niter Mu : 1 <= n -> 1 <= K -> 1 <= niter -> length Mu = K -> (forall c, In c Mu -> In c X) ->
    exists out, lloyd bump D K X niter Mu (repeat 0%nat n) 0%R = Ok out /\ length out = n /\ (forall i, i < n -> nth i out 0 < K) /\ (labels_cost D X out <= centres_cost D X Mu)%R.
  Proof.
    intros Hn HK Hi LM IM. destruct niter as [|f]; [lia|]. assert (Mu <> []) as NE by (intros ->; cbn in LM; lia).
    destruct (lloyd_ok bump D K X HK (S f) Mu (repeat 0 n) 0%R LM (repeat_length _ _) (repeat_zero_lt n K HK)) as (out & E & Lo & Fo).
    exists out. split; [exact E|]. split; [exact Lo|].
    assert (forall i, i < n -> nth i out 0 < K) as Hz by (intros i Hi'; rewrite Forall_forall in Fo; apply Fo, nth_In; lia). split; [exact Hz|].
    destruct (lloyd_trace bump bump1 D K X HX f Mu _ _ out LM (fun c Hc => HX c (IM c Hc)) E) as (T & C & lab & HT & Ho & HC0 & H1 & H2 & _).
    apply Rle_trans with (cost D X (C (T - 1)) (lab (T - 1))); [rewrite Ho in *; now apply (labels_cost_best K)|].
    assert (forall t, t < T -> (cost D X (C t) (lab t) <= cost D X (C 0%nat) (lab 0%nat))%R) as Mono.
    { induction t as [|t IH]; intros Ht; [lra|]. eapply Rle_trans; [apply H2; auto|]. apply IH. lia. }
    eapply Rle_trans; [apply Mono; lia|]. right. rewrite <- HC0 in *. apply nearest_cost; auto. apply H1. lia.
  Qed.
  Theorem kmeans_quality K niter C z bad : 1 <= K <= n -> 1 <= niter -> (forall i, i < n -> nth i z 0 < K) ->
    exists e, is_mean K (fun us => value_or bad (labels_cost D X) (kmeans_with bump us X D niter)) e /\ (e <= 8 * (2 + ln (INR K)) * cost D X C z)%R.
  Proof.
    intros HK Hni Hz. destruct (seeds_quality K C z 0%R HK Hz) as (e0 & M0 & L0).
    assert (is_mean K (fun us => (fun o => value_or bad (labels_cost D X) (obind o (fun Mu => lloyd bump D K X niter Mu (repeat 0%nat n) 0%R))) (kpp_seeds us X))
      (rsum n (fun c => / INR n * Ex n dd (K - 1) c [] (fun C => value_or bad (labels_cost D X) (obind (Ok (map (fun i => pt i) (c :: rev C))) (fun Mu => lloyd bump D K X niter Mu (repeat 0%nat n) 0%R))))%R)) as M1
      by (apply (E_seeds D X HX (fun o => value_or bad (labels_cost D X) (obind o (fun Mu => lloyd bump D K X niter Mu (repeat 0%nat n) 0%R)))); lia).
    eexists. split.
    - apply (is_mean_ext K _ _ _) with (2 := M1). intros us L _. unfold kmeans_with. now rewrite L.
    - eapply Rle_trans; [|exact L0].
      assert (is_mean K (fun us => value_or 0 (centres_cost D X) (kpp_seeds us X)) (rsum n (fun c => / INR n * Ex n dd (K - 1) c [] (fun C => value_or 0 (centres_cost D X) (Ok (map (fun i => pt i) (c :: rev C)))))%R)) as M2 by (apply (E_seeds D X HX (value_or 0 (centres_cost D X))); lia).
      apply is_mean_Eunif in M0. apply is_mean_Eunif in M2. rewrite <- M0, M2. apply rsum_le. intros c Hc. apply Rmult_le_compat_l; [left; apply Rinv_0_lt_compat, lt_0_INR; lia|].
      apply (Ex_mono n ltac:(lia) dd (dd_nonneg D X)). intros C' IC LC. cbn [obind value_or].
      destruct (lloyd_improves K niter (map (fun i => pt i) (c :: rev C'))) as (out & E & _ & _ & B); try lia.
      + rewrite map_length. cbn [length] in *. rewrite rev_length, LC. cbn [length]. lia.
      + intros m I. apply in_map_iff in I as (j & <- & I). apply nth_In. destruct I as [<-|I]; auto. apply in_rev in I. destruct (IC j I) as [|[]]; auto.
      + rewrite E. cbn [value_or]. exact B.
  Qed.
  (** It never fails when the numbers are below 1. *)
  Theorem kmeans_total us niter : 1 <= length us <= n -> 1 <= niter -> (forall u, In u us -> (0 <= u < 1)%R) ->
    exists Mu out, kpp_seeds us X = Ok Mu /\ length Mu = length us /\ (forall c, In c Mu -> In c X) /\
      kmeans_with bump us X D niter = Ok out /\ length out = n /\ (forall i, i < n -> nth i out 0 < length us) /\ (labels_cost D X out <= centres_cost D X Mu)%R.
  Proof.
    intros HK Hni Hu. destruct (kpp_seeds_ok D X HX us ltac:(lia) Hu) as (Mu & E & L & I). destruct (lloyd_improves (length us) niter Mu ltac:(lia) ltac:(lia) Hni L I) as (out & E2 & H).
    exists Mu, out. split; [exact E|]. split; [exact L|]. split; [exact I|]. split; [|exact H]. unfold kmeans_with. rewrite E. exact E2.
  Qed.
End S.
