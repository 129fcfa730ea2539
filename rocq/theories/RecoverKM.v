(** k-means on points with exactly K distinct locations (C84). *)
From Verif Require Import Base Num RSum KMeans KMeansFacts KMeansSpec KMeansLloyd KMeansTop MTFacts SpectrumSpec SpectrumPower.
From Coq Require Import Reals Lra Psatz Permutation.
Local Open Scope nat_scope.

(** Stated for any generator so that checking it does not run the generator. *)
Section Gen.
  Context {T : Type}.
  Variable draw : T -> T * Z.
  Fixpoint gnth (s : T) (k : nat) : Z := match k with 0 => snd (draw s) | S k => gnth (fst (draw s)) k end.
  Lemma gnth_S s k : gnth s (S k) = gnth (fst (draw s)) k.
  Proof. reflexivity. Qed.
End Gen.
Lemma mt_nth_S s k : mt_nth s (S k) = mt_nth (fst (mt_draw s)) k.
Proof. exact (gnth_S mt_draw s k). Qed.
Lemma mt_nth_0 s : mt_nth s 0 = snd (mt_draw s).
Proof. reflexivity. Qed.

(** ** The weighted choice *)
Lemma pick_positive (r : R) rest : forall cs k, (r < cs + lsum (fun x => x) rest)%R ->
  let j := pick r cs k rest in (j = k /\ (r < cs)%R) \/ (k < j /\ (0 < nth (j - k - 1) rest 0)%R).
Proof.
  induction rest as [|x rest IH]; intros cs k Hs; cbn [pick lsum] in *.
  - left. split; [reflexivity|lra].
  - destruct (wleb cs r) eqn:L.
    + apply (toR_leb cs r) in L. cbn [toR ExactR] in L. destruct (IH (cs + x)%R (S k)) as [[Ej Hr]|[Hj Hp]].
      * lra.
      * right. cbn [wadd NumR] in *. rewrite Ej. split; [lia|]. replace (S k - k - 1) with 0 by lia. cbn [nth]. lra.
      * right. cbn [wadd NumR] in *. set (j := pick r (cs + x)%R (S k) rest) in *. split; [lia|].
        replace (j - k - 1) with (S (j - S k - 1)) by lia. exact Hp.
    + left. split; [reflexivity|]. apply Rnot_le_lt. intros C. pose proof (proj2 (toR_leb cs r) C). congruence.
Qed.
Lemma vsum_lsum (p : list R) : vsum p = lsum (fun x => x) p.
Proof.
  unfold vsum. assert (G : forall a, fold_left wadd p a = (a + lsum (fun x => x) p)%R); [|rewrite G; cbn [w0 NumR]; lra].
  induction p as [|x p IH]; intros a; cbn [fold_left lsum]; [lra|]. rewrite IH. cbn [wadd NumR]. lra.
Qed.
(** With a word below 2^32-1 an entry that is not zero is chosen. *)
Lemma discrete_rand_positive s (p : list R) : (0 <= snd (mt_draw s) < 4294967295)%Z -> (forall x, In x p -> (0 <= x)%R) -> (exists x, In x p /\ (0 < x)%R) ->
  exists c, discrete_rand unit_ofR s p = (fst (mt_draw s), Ok c) /\ c < length p /\ (0 < nth c p 0)%R.
Proof.
  intros Hw Hn (x0 & Hi & Hx0). unfold discrete_rand. destruct (mt_draw s) as [s' y]. cbn [fst snd] in *.
  destruct p as [|x rest]; [destruct Hi|]. eexists. split; [reflexivity|].
  set (p := x :: rest) in *. set (r := wmul (vsum p) (unit_ofR y)).
  assert (Hsum : (0 < lsum (fun x => x) p)%R).
  { eapply Rlt_le_trans; [exact Hx0|]. apply (lsum_ge_elt (fun x => x) p x0); auto. }
  assert (Hr : (0 <= r < lsum (fun x => x) p)%R).
  { unfold r. rewrite vsum_lsum. unfold unit_ofR. cbn [wmul NumR].
    assert (0 <= IZR y < IZR 4294967295)%R by (split; [apply IZR_le|apply IZR_lt]; lia).
    assert (Hu : (0 <= IZR y * (1 / IZR 4294967295) < 1)%R) by lra. set (u := (IZR y * (1 / IZR 4294967295))%R) in *. nra. }
  split; [pose proof (pick_le r x 0 rest); unfold p; cbn [length]; lia|].
  destruct (pick_positive r rest x 0) as [[Ej Hx]|[Hj Hp]].
  - unfold p in Hr. cbn [lsum] in Hr. lra.
  - rewrite Ej. unfold p. cbn [nth]. lra.
  - set (j := pick r x 0 rest) in *. unfold p. replace j with (S (j - 0 - 1)) by lia. exact Hp.
Qed.

Section Locations.
  Variables (D K : nat) (X : list (list R)) (cls : nat -> nat).
  Hypothesis HX : forall x, In x X -> length x = D.
  Let n := length X.
  Let pt (i : nat) : list R := nth i X [].
  (** Two points have the same class iff they are at the same place. *)
  Hypothesis same_place : forall i j, i < n -> j < n -> (cls i = cls j <-> sqd D (pt i) (pt j) = 0%R).
  Hypothesis cls_lt : forall i, i < n -> cls i < K.
  Hypothesis cls_onto : forall c, c < K -> exists i, i < n /\ cls i = c.

  Lemma sqd_nonneg x y : (0 <= sqd D x y)%R.
  Proof. apply rsum_nonneg. intros. apply pow2_ge_0. Qed.
  Lemma sqd_zero x y : sqd D x y = 0%R <-> forall d, d < D -> vx x d = vx y d.
  Proof.
    split.
    - intros Z d Hd. pose proof (rsum_ge_elt D (fun d => (vx x d - vx y d) ^ 2)%R d (fun _ _ => pow2_ge_0 _) Hd) as G. cbv beta in G.
      unfold sqd in Z. rewrite Z in G. nra.
    - intros H. unfold sqd. apply rsum_zero. intros d Hd. rewrite H by auto. ring.
  Qed.
  Lemma pt_length i : i < n -> length (pt i) = D.
  Proof. intros Hi. apply HX. apply nth_In. exact Hi. Qed.

  (** ** k-means++ *)
  (** [m] lists the squared distances to the nearest centre: zero exactly in the classes [ch]. *)
  Definition mind_ok (m : list R) (ch : list nat) : Prop :=
    length m = n /\ forall i, i < n -> (0 <= nth i m 0)%R /\ (nth i m 0%R = 0%R <-> In (cls i) ch).
  Lemma mind_first l : l < n -> mind_ok (map (fun x => sqdist x (pt l)) X) [cls l].
  Proof.
    intros Hl. split; [apply map_length|]. intros i Hi.
    assert (E : nth i (map (fun x => sqdist x (pt l)) X) 0%R = sqd D (pt i) (pt l)).
    { rewrite (nth_indep _ 0%R (sqdist [] (pt l))) by (rewrite map_length; exact Hi).
      rewrite (map_nth (fun x => sqdist x (pt l))). apply sqdist_sqd; now apply pt_length. }
    rewrite E. split; [apply sqd_nonneg|]. rewrite <- (same_place i l Hi Hl). cbn [In]. intuition congruence.
  Qed.
  Lemma mind_next l m ch : l < n -> mind_ok m ch ->
    mind_ok (map (fun p => wmin (fst p) (snd p)) (combine (map (fun x => sqdist x (pt l)) X) m)) (cls l :: ch).
  Proof.
    intros Hl [Lm Hm]. destruct (mind_first l Hl) as [L1 H1]. set (cur := map (fun x => sqdist x (pt l)) X) in *.
    split; [rewrite map_length, combine_length; lia|]. intros i Hi.
    assert (E : nth i (map (fun p => wmin (fst p) (snd p)) (combine cur m)) 0%R = wmin (nth i cur 0%R) (nth i m 0%R)).
    { rewrite (nth_indep _ 0%R ((fun p => wmin (fst p) (snd p)) (0%R, 0%R))) by (rewrite map_length, combine_length; lia).
      rewrite (map_nth (fun p => wmin (fst p) (snd p))). rewrite combine_nth by lia. reflexivity. }
    rewrite E. destruct (Hm i Hi) as [N2 Z2]. destruct (H1 i Hi) as [N1 Z1]. unfold wmin.
    destruct (wltb (nth i m 0%R) (nth i cur 0%R)) eqn:Lt.
    - apply (toR_ltb (nth i m 0%R) (nth i cur 0%R)) in Lt. cbn [toR ExactR] in Lt. split; [exact N2|]. rewrite Z2. cbn [In].
      split; [tauto|]. intros [C|C]; [|exact C]. exfalso. assert (nth i cur 0%R = 0%R) by (apply Z1; left; exact C). lra.
    - assert (Le : (nth i cur 0 <= nth i m 0)%R).
      { apply Rnot_lt_le. intros C. pose proof (proj2 (toR_ltb (nth i m 0%R) (nth i cur 0%R)) C). congruence. }
      split; [exact N1|]. rewrite Z1. cbn [In]. split; [tauto|]. intros [C|C]; [tauto|].
      apply Z1. assert (nth i m 0%R = 0%R) by (apply Z2; exact C). lra.
  Qed.
  Lemma class_left ch : length ch < K -> exists i, i < n /\ ~ In (cls i) ch.
  Proof.
    intros HL. destruct (Forall_Exists_dec (fun c => In c ch) (fun c => in_dec Nat.eq_dec c ch) (seq 0 K)) as [F|F].
    - exfalso. rewrite Forall_forall in F. pose proof (NoDup_incl_length (seq_NoDup K 0) F) as G. rewrite seq_length in G. lia.
    - apply Exists_exists in F. destruct F as (c & Hc & N). apply in_seq in Hc. destruct (cls_onto c) as (i & Hi & E); [lia|].
      exists i. split; auto. congruence.
  Qed.
  Lemma plusplus_loop_classes : forall f s l mind ch0, l < n ->
    (forall j, j < f -> (0 <= mt_nth s j < 4294967295)%Z) ->
    match mind with None => ch0 = [] | Some m => mind_ok m ch0 end ->
    NoDup (cls l :: ch0) -> f + S (length ch0) <= K ->
    exists is, snd (plusplus_loop unit_ofR s X f (pt l) mind) = Ok (map pt is) /\ length is = f /\ (forall i, In i is -> i < n) /\
      NoDup (map cls is ++ cls l :: ch0).
  Proof.
    induction f as [|f IH]; intros s l mind ch0 Hl Hw Hm ND HK; cbn [plusplus_loop].
    - exists []. repeat split; auto. intros i [].
    - set (m' := match mind with None => _ | Some m => _ end).
      assert (Hm' : mind_ok m' (cls l :: ch0)).
      { unfold m'. destruct mind as [m|]; [now apply mind_next|]. subst ch0. now apply mind_first. }
      destruct (class_left (cls l :: ch0)) as (i0 & Hi0 & Ni0); [cbn [length]; lia|].
      destruct Hm' as [Lm Hm'].
      destruct (discrete_rand_positive s m') as (c & Ec & Hc & Hpos).
      { rewrite <- mt_nth_0. apply Hw. lia. }
      { intros x Hx. apply (In_nth _ _ 0%R) in Hx. destruct Hx as (i & Hi & <-). rewrite Lm in Hi. now apply Hm'. }
      { exists (nth i0 m' 0%R). split; [apply nth_In; lia|]. destruct (Hm' i0 Hi0) as [N Z]. destruct (Req_dec (nth i0 m' 0%R) 0) as [C|C]; [tauto|lra]. }
      rewrite Ec. rewrite Lm in Hc. destruct (nth_error X c) as [row|] eqn:En; [|apply nth_error_None in En; unfold n in Hc; lia].
      assert (Er : row = pt c) by (unfold pt; symmetry; now apply nth_error_nth). subst row.
      destruct (IH (fst (mt_draw s)) c (Some m') (cls l :: ch0)) as (is & E & L & I & N2); auto.
      { intros j Hj. rewrite <- mt_nth_S. apply Hw. lia. }
      { split; auto. }
      { constructor; [|exact ND]. destruct (Hm' c Hc) as [_ Z]. intros C. apply Z in C. lra. }
      { cbn [length]. lia. }
      destruct (plusplus_loop unit_ofR (fst (mt_draw s)) X f (pt c) (Some m')) as [s2 o]. cbn [snd] in *. subst o.
      exists (c :: is). cbn [map omap length]. split; [reflexivity|]. split; [lia|]. split; [intros i [<-|Hi]; auto|].
      cbn [app]. eapply Permutation_NoDup; [|exact N2]. apply Permutation_sym, Permutation_middle.
  Qed.
  (** Every location is an initial centre. *)
  Definition covers (C : list (list R)) : Prop := forall i, i < n -> exists j, j < length C /\ sqd D (pt i) (nth j C []) = 0%R.
  Lemma plusplus_covers : 1 <= n -> 1 <= K -> (forall j, 1 <= j -> j < K -> mt_nth (mt_init 42) j <> 4294967295%Z) ->
    exists Mu, snd (plusplus IZR unit_ofR truncR (mt_init 42) X K) = Ok Mu /\ length Mu = K /\ (forall c, In c Mu -> In c X) /\ covers Mu.
  Proof.
    intros Hn HK Hw. unfold plusplus, randint. pose proof first_draw_42 as D0.
    assert (Hw' : forall j, j < K - 1 -> (0 <= mt_nth (fst (mt_draw (mt_init 42))) j < 4294967295)%Z).
    { intros j Hj. rewrite <- mt_nth_S.
      pose proof (mt_range 42 (S j)) as B. unfold word32 in B. specialize (Hw (S j) ltac:(lia) ltac:(lia)). lia. }
    destruct (mt_draw (mt_init 42)) as [s y]. cbn [fst snd] in *. subst y.
    pose proof (first_choice n Hn) as F. fold n. set (c := truncR _) in *.
    destruct (Z.ltb_spec c 0); [lia|]. destruct (nth_error X (Z.to_nat c)) as [row|] eqn:En; [|apply nth_error_None in En; unfold n in F; lia].
    set (l := Z.to_nat c) in *. assert (Hl : l < n) by (unfold l; lia).
    assert (Er : row = pt l) by (unfold pt; symmetry; now apply nth_error_nth). subst row.
    destruct (plusplus_loop_classes (K - 1) s l None [] Hl Hw' eq_refl) as (is & E & L & I & ND).
    { constructor; [intros []|constructor]. } { cbn [length]. lia. }
    destruct (plusplus_loop unit_ofR s X (K - 1) (pt l) None) as [s2 o]. cbn [snd] in *. subst o. cbn [omap].
    exists (pt l :: map pt is). split; [reflexivity|]. split; [cbn [length]; rewrite map_length; lia|]. split.
    - intros x [<-|Hx]; [apply nth_In; exact Hl|]. apply in_map_iff in Hx. destruct Hx as (i & <- & Hi). apply nth_In. now apply I.
    - intros i Hi. assert (Inc : incl (seq 0 K) (map cls (l :: is))).
      { apply NoDup_length_incl.
        - cbn [map]. eapply Permutation_NoDup; [|exact ND]. apply Permutation_sym, Permutation_cons_append.
        - rewrite map_length, seq_length. cbn [length]. lia.
        - intros x Hx. apply in_map_iff in Hx. destruct Hx as (j & <- & Hj). apply in_seq. split; [lia|]. apply cls_lt.
          destruct Hj as [<-|Hj]; auto. }
      pose proof (cls_lt i Hi) as Hc. specialize (Inc (cls i) (proj2 (in_seq _ _ _) (conj (Nat.le_0_l _) Hc))).
      apply (In_nth _ _ 0) in Inc. destruct Inc as (j & Hj & Ej). rewrite map_length in Hj. exists j.
      change (pt l :: map pt is) with (map pt (l :: is)). rewrite map_length. split; [exact Hj|].
      rewrite (nth_indep _ [] (pt 0)) by (rewrite map_length; exact Hj). rewrite map_nth.
      rewrite (nth_indep _ 0 (cls 0)) in Ej by (rewrite map_length; exact Hj). rewrite map_nth in Ej.
      apply same_place; auto. assert (In (nth j (l :: is) 0) (l :: is)) by now apply nth_In. destruct H0 as [<-|H0]; auto.
  Qed.

  (** ** Lloyd's iterations change nothing *)
  Lemma nearest_exact C z : nearest D X C z -> covers C -> forall i, i < n -> sqd D (pt i) (centre C z i) = 0%R.
  Proof.
    intros [_ N] HC i Hi. destruct (HC i Hi) as (j & Hj & Ej). destruct (N i Hi) as [_ M]. destruct (M j Hj) as [L _].
    fold (pt i) in L. rewrite Ej in L. pose proof (sqd_nonneg (pt i) (centre C z i)). lra.
  Qed.
  Lemma labels_classes C z : nearest D X C z -> covers C -> forall i j, i < n -> j < n -> (nth i z 0 = nth j z 0 <-> cls i = cls j).
  Proof.
    intros HN HC i j Hi Hj. pose proof (nearest_exact C z HN HC) as Z. rewrite (same_place i j Hi Hj). split.
    - intros E. pose proof (Z i Hi) as Zi. pose proof (Z j Hj) as Zj. unfold centre in *. rewrite E in Zi.
      apply sqd_zero. intros d Hd. rewrite (proj1 (sqd_zero _ _) Zi d Hd). symmetry. now apply (proj1 (sqd_zero _ _) Zj d Hd).
    - intros E. destruct HN as [_ N].
      assert (Eq : forall y, sqd D (pt i) y = sqd D (pt j) y).
      { intros y. unfold sqd. apply rsum_ext. intros d Hd. now rewrite (proj1 (sqd_zero _ _) E d Hd). }
      destruct (N i Hi) as [Li Mi]. destruct (N j Hj) as [Lj Mj]. fold (pt i) in Mi. fold (pt j) in Mj.
      destruct (Nat.lt_trichotomy (nth i z 0) (nth j z 0)) as [Lt|[|Lt]]; auto; exfalso.
      + destruct (Mj _ Li) as [_ S]. specialize (S Lt). rewrite <- !Eq in S. pose proof (Z i Hi) as Zi. unfold centre in Zi, S. rewrite Zi in S.
        pose proof (sqd_nonneg (pt i) (nth (nth j z 0) C [])). lra.
      + destruct (Mi _ Lj) as [_ S]. specialize (S Lt). rewrite !Eq in S. pose proof (Z j Hj) as Zj. unfold centre in Zj, S. rewrite Zj in S.
        pose proof (sqd_nonneg (pt j) (nth (nth i z 0) C [])). lra.
  Qed.
  Lemma means_cover C z C' : length C = K -> nearest D X C z -> covers C -> means D K X z C' -> covers C'.
  Proof.
    intros LC HN HC [LC' HM] i Hi. exists (nth i z 0). destruct HN as [Lz N]. destruct (N i Hi) as [Li _]. split; [lia|].
    apply sqd_zero. intros d Hd. destruct (HM (nth i z 0) d ltac:(lia) Hd) as [_ M1].
    assert (Sz : (1 <= size_of X z (nth i z 0%nat))%R).
    { unfold size_of. eapply Rle_trans; [|apply (rsum_ge_elt (length X) (fun j => if nth j z 0 =? nth i z 0 then 1%R else 0%R) i)]; auto.
      - rewrite Nat.eqb_refl. lra.
      - intros j _. destruct (nth j z 0 =? nth i z 0); lra. }
    assert (Ss : sum_of X z (nth i z 0) d = (vx (pt i) d * size_of X z (nth i z 0%nat))%R).
    { unfold sum_of, size_of. rewrite <- rsum_scal. apply rsum_ext. intros j Hj. destruct (Nat.eqb_spec (nth j z 0) (nth i z 0)) as [E|]; [|ring].
      apply (labels_classes C z (conj Lz N) HC j i Hj Hi) in E. apply (same_place j i Hj Hi) in E. fold (pt j). rewrite (proj1 (sqd_zero _ _) E d Hd). ring. }
    rewrite M1 by lra. rewrite Ss. field. lra.
  Qed.
  Variable bump : R -> R.
  Hypothesis bump1 : forall c, (1 <= c)%R -> bump c = c.
  Theorem run_kmeans_locations niter out : 1 <= n -> 1 <= K -> (1 <= niter)%Z ->
    (forall j, 1 <= j -> j < K -> mt_nth (mt_init 42) j <> 4294967295%Z) ->
    run_kmeans IZR unit_ofR truncR bump X D K niter 42 = Ok out ->
    forall i j, i < n -> j < n -> (nth i out 0 = nth j out 0 <-> cls i = cls j).
  Proof.
    intros Hn HK Hni Hw. unfold run_kmeans. destruct (plusplus_covers Hn HK Hw) as (Mu & E & L & I & HC). rewrite E.
    replace (Z.to_nat niter) with (S (Z.to_nat niter - 1)) by lia. intros El.
    destruct (lloyd_trace bump bump1 D K X HX (Z.to_nat niter - 1) Mu _ _ out L (fun c Hc => HX c (I c Hc)) El)
      as (T & C & lab & HT & Ho & HC0 & H1 & _).
    assert (G : forall t, t < T -> covers (C t) /\ length (C t) = K).
    { induction t as [|t IHt]; intros Ht; [rewrite HC0; split; assumption|].
      destruct (IHt ltac:(lia)) as [Cv Lc]. destruct (H1 t ltac:(lia)) as [N M]. split; [eapply means_cover; eauto|apply M]. }
    intros i j Hi Hj. subst out. destruct (G (T - 1) ltac:(lia)) as [Cv Lc]. destruct (H1 (T - 1) ltac:(lia)) as [N _].
    eapply labels_classes; eauto.
  Qed.
End Locations.
