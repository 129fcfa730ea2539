(** Lloyd's algorithm over the reals (C57). *)
From Verif Require Import Base Num RSum Sparse Graph Spectrum SpectrumSpec SpectrumFacts SpectrumPower KMeans KMeansFacts KMeansSpec KdeFacts4 SimGraphFacts4.
From Coq Require Import Reals Lra Psatz.
Local Open Scope nat_scope.

Section L.
  Variable bump : R -> R.
  Hypothesis bump1 : forall c, (1 <= c)%R -> bump c = c.
  Variables (D K : nat) (X : list (list R)).
  Hypothesis HX : forall x, In x X -> length x = D.

  Lemma sqdist_sqd x c : length x = D -> length c = D -> sqdist x c = sqd D x c.
  Proof.
    intros Lx Lc. unfold sqdist. rewrite (fold_lsum _ (fun p => (fst p - snd p) ^ 2)%R).
    - rewrite (combine_nth_seq x c 0%R 0%R) by lia. rewrite lsum_map, Lx. cbn [fst snd]. unfold sqd, rsum, vx. cbn [w0 NumR]. ring.
    - intros a p. cbn [wadd wmul wsub NumR]. ring.
  Qed.
  Lemma wdot_dot x c : length x = D -> length c = D -> wdot x c = dot D (vx x) (vx c).
  Proof. apply vdot_dot. Qed.
  Definition shift (x : list R) : R := if D <=? 16 then 0%R else dot D (vx x) (vx x).
  Lemma dist_entry x c : length x = D -> length c = D ->
    (if D <=? 16 then sqdist x c else wadd (wmul (wopp (wadd w1 w1)) (wdot x c)) (wdot c c)) = (sqd D x c - shift x)%R.
  Proof.
    intros Lx Lc. unfold shift. destruct (D <=? 16).
    - rewrite sqdist_sqd by auto. ring.
    - rewrite !wdot_dot by auto. cbn [wadd wmul wopp w1 NumR]. unfold sqd, dot.
      rewrite <- rsum_scal, <- rsum_plus, <- rsum_minus. apply rsum_ext. intros. ring.
  Qed.
  Lemma dist_row_map x C : length x = D -> (forall c, In c C -> length c = D) ->
    dist_row D x C = map (fun c => sqd D x c - shift x)%R C.
  Proof.
    intros Lx HC. unfold dist_row.
    assert (E : forall c, In c C -> (if D <=? 16 then sqdist x c else wadd (wmul (wopp (wadd w1 w1)) (wdot x c)) (wdot c c)) = (sqd D x c - shift x)%R)
      by (intros; apply dist_entry; auto).
    destruct (D <=? 16); apply map_ext_in; exact E.
  Qed.
  Lemma argmin_from_spec l : forall best bi i d j, argmin_from best bi i l = (d, j) -> bi < i ->
    (d <= best)%R /\ (forall m, m < length l -> (d <= nth m l 0)%R) /\
    ((j = bi /\ d = best) \/ (i <= j < i + length l /\ d = nth (j - i) l 0%R /\ (d < best)%R)) /\
    (forall m, m < length l -> i + m < j -> (d < nth m l 0)%R).
  Proof.
    induction l as [|x l IH]; intros best bi i d j; cbn [argmin_from length].
    - intros E Hb. inversion E; subst. split; [lra|]. split; [intros; lia|]. split; [now left|]. intros; lia.
    - destruct (wltb x best) eqn:Lt; intros E Hb; destruct (IH _ _ _ _ _ E ltac:(lia)) as (A & B & C & F).
      + apply (R_ltb_true x best) in Lt. split; [lra|]. split; [|split].
        * intros [|m] Hm; simpl; [lra|]. apply B. lia.
        * right. destruct C as [[-> ->]|(Hj & Hd & Hlt)].
          -- rewrite Nat.sub_diag. simpl. split; [lia|]. split; [reflexivity|auto].
          -- split; [lia|]. split; [|lra]. rewrite Hd. replace (j - i) with (S (j - S i)) by lia. reflexivity.
        * intros [|m] Hm Hj; simpl.
          -- destruct C as [[-> ->]|(Hj' & Hd & Hlt)]; [lia|exact Hlt].
          -- apply F; lia.
      + assert (Hge : (best <= x)%R).
        { destruct (Rle_lt_dec best x); auto. exfalso. change (R_ltb x best = false) in Lt. rewrite (proj2 (R_ltb_true x best)) in Lt; [discriminate|auto]. }
        split; [lra|]. split; [|split].
        * intros [|m] Hm; simpl; [lra|]. apply B. lia.
        * destruct C as [C|(Hj & Hd & Hlt)]; [now left|]. right. split; [lia|]. split; [|auto].
          rewrite Hd. replace (j - i) with (S (j - S i)) by lia. reflexivity.
        * intros [|m] Hm Hj; simpl.
          -- destruct C as [[-> ->]|(Hj' & Hd & Hlt)]; [lia|lra].
          -- apply F; lia.
  Qed.
  Lemma argmin_spec (l : list R) d j : argmin l = Some (d, j) ->
    j < length l /\ d = nth j l 0%R /\ (forall m, m < length l -> (d <= nth m l 0)%R) /\ (forall m, m < j -> (d < nth m l 0)%R).
  Proof.
    destruct l as [|x l]; [discriminate|]. cbn [argmin]. intros E. apply (f_equal (fun o => match o with Some p => p | None => (d, j) end)) in E.
    cbv beta iota in E. destruct (argmin_from_spec l x 0 1 d j E ltac:(lia)) as (A & B & C & F).
    destruct C as [[-> ->]|(Hj & Hd & Hlt)].
    - split; [simpl; lia|]. split; [reflexivity|]. split; [|intros; lia]. intros [|m] Hm; simpl in *; [lra|apply B; lia].
    - split; [simpl; lia|]. split; [rewrite Hd; replace j with (S (j - 1)) at 2 by lia; reflexivity|]. split.
      + intros [|m] Hm; simpl in *; [lra|apply B; lia].
      + intros [|m] Hm; simpl; [exact Hlt|]. apply F; lia.
  Qed.

  Definition total_shift : R := lsum shift X.
  Lemma assign_spec C (HC : forall c, In c C -> length c = D) (Y : list (list R)) : (forall x, In x Y -> length x = D) -> forall t t' z,
    assign_closest D Y C t = Ok (t', z) ->
    nearest D Y C z /\ (t' = t + cost D Y C z - lsum shift Y)%R.
  Proof.
    induction Y as [|x Y IH]; intros HY t t' z; cbn [assign_closest].
    - intros E. inversion E; subst. split; [split; [reflexivity|intros; simpl in *; lia]|]. unfold cost, rsum. simpl. lra.
    - destruct (argmin (dist_row D x C)) as [[d i]|] eqn:Ea; [|discriminate].
      destruct (assign_closest D Y C (wadd t d)) as [[t1 z1]|e|] eqn:E1; cbn [omap]; try discriminate.
      intros E. inversion E; subst. destruct (IH (fun y Hy => HY y (or_intror Hy)) _ _ _ E1) as [[L1 N1] T1].
      apply argmin_spec in Ea. rewrite dist_row_map in Ea by (auto; apply HY; now left). rewrite map_length in Ea.
      destruct Ea as (Hi & Hd & Hmin & Hfirst).
      assert (En : forall m, m < length C -> nth m (map (fun c => sqd D x c - shift x)%R C) 0%R = (sqd D x (nth m C []) - shift x)%R).
      { intros m Hm. rewrite (nth_indep _ 0%R ((fun c => sqd D x c - shift x)%R [])) by (rewrite map_length; auto).
        now rewrite (map_nth (fun c => sqd D x c - shift x)%R). }
      cbn [fst snd].
      split; [split|].
      + simpl. now rewrite L1.
      + intros [|k] Hk; cbn [nth length] in *.
        * split; [auto|]. intros j Hj. change (centre C (i :: z1) 0) with (nth i C []). rewrite Hd, En in Hmin by auto. split.
          -- specialize (Hmin j Hj). rewrite En in Hmin by auto. lra.
          -- intros Hlt. specialize (Hfirst j Hlt). rewrite Hd, !En in Hfirst by auto. lra.
        * apply N1. lia.
      + rewrite T1. unfold cost. cbn [length]. unfold rsum. cbn [seq lsum nth]. rewrite <- seq_shift, lsum_map.
        change (centre C (i :: z1) 0) with (nth i C []). rewrite Hd, En by auto. cbn [wadd NumR lsum nth].
        change (lsum (fun x0 : nat => sqd D (nth x0 Y []) (centre C (i :: z1) (S x0))) (seq 0 (length Y)))
          with (lsum (fun x0 : nat => sqd D (nth x0 Y []) (centre C z1 x0)) (seq 0 (length Y))).
        lra.
  Qed.

  (** ** Means *)
  Lemma vx_vadd a b d : length a = D -> length b = D -> vx (vadd a b) d = (vx a d + vx b d)%R.
  Proof.
    intros La Lb. unfold vx, vadd. destruct (Nat.lt_ge_cases d D) as [Hd|Hd].
    - rewrite (nth_indep _ 0%R ((fun p => wadd (fst p) (snd p)) (0%R, 0%R))) by (rewrite map_length, combine_length; lia).
      rewrite (map_nth (fun p => wadd (fst p) (snd p))). rewrite combine_nth by lia. reflexivity.
    - rewrite !nth_overflow by (rewrite ?map_length, ?combine_length; lia). ring.
  Qed.
  Lemma vadd_length (a b : list R) : length a = D -> length b = D -> length (vadd a b) = D.
  Proof. intros. unfold vadd. rewrite map_length, combine_length. lia. Qed.
  Lemma acc_spec k l : (forall p, In p l -> length (fst p) = D) -> forall (a : list R) (c : R), length a = D ->
    let r := fold_left (fun a (p : list R * nat) => if Nat.eqb (snd p) k then (vadd (fst a) (fst p), wadd (snd a) w1) else a) l (a, c) in
    length (fst r) = D /\
    (forall d, vx (fst r) d = (vx a d + lsum (fun p => if Nat.eqb (snd p) k then vx (fst p) d else 0) l)%R) /\
    snd r = (c + lsum (fun p => if Nat.eqb (snd p) k then 1 else 0) l)%R.
  Proof.
    induction l as [|p l IH]; intros Hl a c La; cbn [fold_left lsum].
    - cbn [fst snd]. repeat split; auto; intros; lra.
    - destruct (Nat.eqb (snd p) k).
      + destruct (IH (fun q Hq => Hl q (or_intror Hq)) (vadd a (fst p)) (c + 1)%R) as (A & B & C0).
        { apply vadd_length; auto. apply Hl. now left. }
        cbn [fst snd wadd w1 NumR] in *. split; [exact A|]. split.
        * intros d. rewrite B, vx_vadd by (auto; apply Hl; now left). ring.
        * rewrite C0. ring.
      + destruct (IH (fun q Hq => Hl q (or_intror Hq)) a c La) as (A & B & C0). split; [exact A|]. split.
        * intros d. rewrite B. ring.
        * rewrite C0. ring.
  Qed.
  Lemma vx_map_div x c d : vx (map (fun a => wdiv a c) x) d = (vx x d / c)%R.
  Proof.
    unfold vx. destruct (Nat.lt_ge_cases d (length x)) as [Hd|Hd].
    - rewrite (nth_indep _ 0%R ((fun a => wdiv a c) 0%R)) by (rewrite map_length; auto). now rewrite (map_nth (fun a => wdiv a c)).
    - rewrite !nth_overflow by (rewrite ?map_length; auto). unfold Rdiv. ring.
  Qed.
  Lemma size_int z k : size_of X z k = 0%R \/ (1 <= size_of X z k)%R.
  Proof.
    unfold size_of, rsum. generalize (seq 0 (length X)). induction l as [|i l IH]; cbn [lsum]; [now left|].
    destruct (nth i z 0 =? k); destruct IH as [E|E]; try rewrite E; (left; lra) || (right; lra).
  Qed.
  Lemma calc_mu_means z : length z = length X -> means D K X z (calc_mu bump D K X z) /\
    (forall c, In c (calc_mu bump D K X z) -> length c = D).
  Proof.
    intros Lz.
    assert (Hc : forall p, In p (combine X z) -> length (fst p) = D).
    { intros [x i] Hp. apply in_combine_l in Hp. now apply HX. }
    assert (Ep : forall k, length (centre_of bump D X z k) = D /\ forall d, d < D ->
      vx (centre_of bump D X z k) d = (sum_of X z k d / bump (size_of X z k))%R).
    { intros k. destruct (acc_spec k (combine X z) Hc (repeat w0 D) w0 (repeat_length _ _)) as (A & B & C0). cbv zeta in *.
      unfold centre_of. set (r := fold_left _ _ _) in *. split; [rewrite map_length; exact A|]. intros d Hd.
      rewrite vx_map_div, B, C0. rewrite (combine_nth_seq X z [] 0) by lia. rewrite !lsum_map. cbn [fst snd].
      assert (Z0 : vx (repeat (w0 : R) D) d = 0%R). { unfold vx. rewrite nth_repeat. reflexivity. }
      rewrite Z0. unfold sum_of, size_of, rsum. cbn [w0 NumR]. rewrite !Rplus_0_l. reflexivity. }
    split; [split|].
    - apply calc_mu_length.
    - intros k d Hk Hd. unfold calc_mu. rewrite nth_map_seq by auto. destruct (Ep k) as [_ V]. rewrite V by auto.
      destruct (size_int z k) as [E|E].
      + split; [|intros N; contradiction]. intros _.
        assert (S0 : sum_of X z k d = 0%R).
        { unfold sum_of. apply rsum_zero. intros i Hi. destruct (nth i z 0 =? k) eqn:Q; auto.
          pose proof (rsum_ge_elt (length X) (fun i => if nth i z 0 =? k then 1%R else 0%R) i) as G.
          unfold size_of in E. rewrite E in G. cbv beta in G. rewrite Q in G. exfalso.
          assert (1 <= 0)%R; [|lra]. apply G; auto. intros m _. destruct (nth m z 0 =? k); lra. }
        rewrite S0. unfold Rdiv. ring.
      + split; [intros; lra|]. intros _. now rewrite bump1.
    - intros c Hc'. unfold calc_mu in Hc'. apply in_map_iff in Hc'. destruct Hc' as (k & <- & _). apply Ep.
  Qed.
  Lemma group (z : list nat) (f : nat -> nat -> R) : (forall i, i < length X -> nth i z 0 < K) ->
    rsum (length X) (fun i => f i (nth i z 0)) = rsum K (fun k => rsum (length X) (fun i => if nth i z 0 =? k then f i k else 0%R)).
  Proof.
    intros Hz. rewrite rsum_swap. apply rsum_ext. intros i Hi.
    rewrite (rsum_delta' K (nth i z 0) (fun k => f i k) (Hz i Hi)). reflexivity.
  Qed.
  (** Replacing the centres by the means does not raise the objective. *)
  Lemma means_best z C C' : (forall i, i < length X -> nth i z 0 < K) -> means D K X z C' -> (cost D X C' z <= cost D X C z)%R.
  Proof.
    intros Hz [_ HM]. unfold cost, sqd, centre.
    rewrite (group z (fun i k => rsum D (fun d => (vx (nth i X []) d - vx (nth k C' []) d) ^ 2)%R) Hz).
    rewrite (group z (fun i k => rsum D (fun d => (vx (nth i X []) d - vx (nth k C []) d) ^ 2)%R) Hz).
    apply rsum_le. intros k Hk.
    assert (Sw : forall Q : list (list R), rsum (length X) (fun i => if nth i z 0 =? k then rsum D (fun d => (vx (nth i X []) d - vx (nth k Q []) d) ^ 2)%R else 0%R) =
      rsum D (fun d => rsum (length X) (fun i => if nth i z 0 =? k then ((vx (nth i X []) d - vx (nth k Q []) d) ^ 2)%R else 0%R))).
    { intros Q. rewrite <- rsum_swap. apply rsum_ext. intros i _. destruct (nth i z 0 =? k); [reflexivity|]. symmetry. now apply rsum_zero. }
    rewrite (Sw C'), (Sw C). apply rsum_le. intros d Hd. destruct (HM k d Hk Hd) as [M0 M1].
    set (m := vx (nth k C' []) d) in *. set (c := vx (nth k C []) d).
    assert (Ex : forall q, rsum (length X) (fun i => if nth i z 0 =? k then ((vx (nth i X []) d - q) ^ 2)%R else 0%R) =
      (rsum (length X) (fun i => if (nth i z 0 =? k)%nat then (vx (nth i X []) d ^ 2)%R else 0%R) - 2 * q * sum_of X z k d + q ^ 2 * size_of X z k)%R).
    { intros q. unfold sum_of, size_of. rewrite <- !rsum_scal, <- rsum_minus, <- rsum_plus. apply rsum_ext. intros i _. destruct (nth i z 0 =? k); ring. }
    rewrite !Ex. destruct (size_int z k) as [E|E].
    - rewrite E. assert (S0 : sum_of X z k d = 0%R).
      { unfold sum_of. apply rsum_zero. intros i Hi. destruct (nth i z 0 =? k) eqn:Q; auto.
        pose proof (rsum_ge_elt (length X) (fun i => if nth i z 0 =? k then 1%R else 0%R) i) as G.
        unfold size_of in E. rewrite E in G. cbv beta in G. rewrite Q in G. exfalso.
        assert (1 <= 0)%R; [|lra]. apply G; auto. intros j _. destruct (nth j z 0 =? k); lra. }
      rewrite S0. lra.
    - assert (Nz : size_of X z k <> 0%R) by lra. specialize (M1 Nz).
      assert (Es : sum_of X z k d = (m * size_of X z k)%R) by (rewrite M1; field; auto). rewrite Es.
      set (s := size_of X z k) in *. assert (0 <= s * (m - c) ^ 2)%R by (apply Rmult_le_pos; [lra|apply pow2_ge_0]). nra.
  Qed.
  Lemma nearest_best C z z' : nearest D X C z -> (forall i, i < length X -> nth i z' 0 < length C) -> (cost D X C z <= cost D X C z')%R.
  Proof. intros [_ N] Hz'. apply rsum_le. intros i Hi. apply (N i Hi). now apply Hz'. Qed.

  (** ** The loop *)
  Lemma shift_total : lsum shift X = if D <=? 16 then 0%R else square_sum D X.
  Proof.
    unfold shift, square_sum, rsum. destruct (D <=? 16); [now apply lsum_0|].
    rewrite <- (lsum_map (fun x => dot D (vx x) (vx x)) (fun i => nth i X [])). f_equal.
    apply (nth_ext _ _ [] []); [now rewrite map_length, seq_length|]. intros i Hi. now rewrite nth_map_seq.
  Qed.
  Lemma lloyd_eq fuel Mu z0 prev : lloyd bump D K X (S fuel) Mu z0 prev =
    match assign_closest D X Mu w0 with
    | Ok (total, Z') => if weqb prev total then Ok Z' else lloyd bump D K X fuel (calc_mu bump D K X Z') Z' total
    | Throw e => Throw e
    | UB => UB
    end.
  Proof. reflexivity. Qed.
  (** From round [t0] on.  [prev] is the last total. *)
  Lemma lloyd_trace : forall fuel Mu z0 prev out, length Mu = K -> (forall c, In c Mu -> length c = D) ->
    lloyd bump D K X (S fuel) Mu z0 prev = Ok out ->
    exists T C lab, 1 <= T <= S fuel /\ out = lab (T - 1) /\ C 0 = Mu /\
      (forall t, t < T -> nearest D X (C t) (lab t) /\ means D K X (lab t) (C (S t))) /\
      (forall t, S t < T -> (cost D X (C (S t)) (lab (S t)) <= cost D X (C t) (lab t))%R) /\
      (T < S fuel -> T = 1 -> (cost D X (C 0%nat) (lab 0%nat) - lsum shift X)%R = prev) /\
      (T < S fuel -> 1 < T -> cost D X (C (T - 1)) (lab (T - 1)) = cost D X (C (T - 2)) (lab (T - 2))) /\
      (1 < T -> (cost D X (C 0%nat) (lab 0%nat) - lsum shift X)%R <> prev) /\
      (forall t, 1 <= t -> t + 1 < T -> cost D X (C t) (lab t) <> cost D X (C (t - 1)) (lab (t - 1))).
  Proof.
    induction fuel as [|f IH]; intros Mu z0 prev out LM HMu E; rewrite lloyd_eq in E.
    - destruct (assign_closest D X Mu w0) as [[t1 z1]|e|] eqn:Ea; try discriminate.
      destruct (assign_spec Mu HMu X HX w0 t1 z1 Ea) as [N T1]. pose proof (proj1 N) as Lz.
      destruct (calc_mu_means z1 Lz) as [Me _].
      assert (Eo : out = z1) by (destruct (weqb prev t1); cbn [lloyd] in E; congruence). subst out.
      exists 1, (fun t => match t with 0 => Mu | _ => calc_mu bump D K X z1 end), (fun _ => z1).
      split; [lia|]. split; [reflexivity|]. split; [reflexivity|]. split; [intros [|t] Ht; [auto|lia]|].
      repeat split; intros; lia.
    - destruct (assign_closest D X Mu w0) as [[t1 z1]|e|] eqn:Ea; try discriminate.
      destruct (assign_spec Mu HMu X HX w0 t1 z1 Ea) as [N T1]. pose proof (proj1 N) as Lz.
      destruct (calc_mu_means z1 Lz) as [Me Ml]. cbn [w0 NumR] in T1.
      destruct (weqb prev t1) eqn:Eq.
      + apply (R_eqb_true prev t1) in Eq. assert (Eo : out = z1) by congruence. subst out.
        exists 1, (fun t => match t with 0 => Mu | _ => calc_mu bump D K X z1 end), (fun _ => z1).
        split; [lia|]. split; [reflexivity|]. split; [reflexivity|]. split; [intros [|t] Ht; [auto|lia]|].
        split; [intros; lia|]. split; [intros _ _; lra|]. repeat split; intros; lia.
      + assert (Nq : t1 <> prev). { intros ->. change (R_eqb prev prev = false) in Eq. rewrite (proj2 (R_eqb_true prev prev) eq_refl) in Eq. discriminate. }
        destruct (IH (calc_mu bump D K X z1) z1 t1 out (calc_mu_length bump D K X z1) Ml E)
          as (T & C & lab & HT & Ho & HC0 & Hstep & Hmono & H1 & H2 & H3 & H4).
        exists (S T), (fun t => match t with 0 => Mu | S t => C t end), (fun t => match t with 0 => z1 | S t => lab t end).
        split; [lia|]. split; [rewrite Ho; replace (S T - 1) with (S (T - 1)) by lia; reflexivity|]. split; [reflexivity|].
        split; [|split; [|split; [|split; [|split]]]].
        * intros [|t] Ht; [|apply Hstep; lia]. split; [exact N|]. rewrite HC0. exact Me.
        * intros [|t] Ht; [|apply Hmono; lia].
          destruct (Hstep 0 ltac:(lia)) as [N0 _]. rewrite HC0 in N0 |- *.
          assert (Hlt : forall i, i < length X -> nth i z1 0 < K) by (intros i Hi; destruct N as [_ N]; rewrite <- LM; apply (N i Hi)).
          eapply Rle_trans; [apply (nearest_best _ (lab 0) z1 N0)|now apply means_best].
          intros i Hi. rewrite calc_mu_length. now apply Hlt.
        * intros Hl HT1. lia.
        * intros Hl _. destruct (Nat.eq_dec T 1) as [->|NT].
          -- simpl. specialize (H1 ltac:(lia) eq_refl). lra.
          -- specialize (H2 ltac:(lia) ltac:(lia)). replace (S T - 1) with (S (T - 1)) by lia. replace (S T - 2) with (S (T - 2)) by lia. exact H2.
        * intros _. lra.
        * intros [|[|t]] Ht1 Ht2; [lia| |].
          -- cbn [Nat.sub]. intros Eq2. apply H3; [lia|]. lra.
          -- replace (S (S t) - 1) with (S t) by lia. specialize (H4 (S t)). replace (S t - 1) with t in H4 by lia. apply H4; lia.
  Qed.
End L.
