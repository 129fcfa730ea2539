(** The Lovasz-Simonovits argument for approximate PageRank vectors (no code is modelled here). *)
From Verif Require Import Base RSum.
From Coq Require Import Reals Lra Lia Sorting.Sorted Permutation List Psatz.
Import ListNotations.
Local Open Scope R_scope.

(** ** Square roots *)
Lemma sqrt_pair x c phi : 0 <= x -> 0 <= phi <= 1 -> phi * x <= c <= x ->
  sqrt (x + c) + sqrt (x - c) <= 2 * (1 - phi * phi / 8) * sqrt x.
Proof.
  intros Hx Hp [Hc1 Hc2]. assert (0 <= phi * x) as H0 by (apply Rmult_le_pos; lra).
  assert (0 <= 1 - phi * phi / 8) as Hk by nra.
  pose proof (sqrt_pos (x + c)) as S1. pose proof (sqrt_pos (x - c)) as S2. pose proof (sqrt_pos x) as S0.
  pose proof (sqrt_sqrt (x + c) ltac:(lra)) as E1. pose proof (sqrt_sqrt (x - c) ltac:(lra)) as E2. pose proof (sqrt_sqrt x Hx) as E0.
  set (a := sqrt (x + c)) in *. set (b := sqrt (x - c)) in *. set (s := sqrt x) in *.
  assert (0 <= 2 * (1 - phi * phi / 8) * s) as HR by (apply Rmult_le_pos; lra).
  assert (a * b <= x * (1 - phi * phi / 2)) as Hab.
  { assert (0 <= x * (1 - phi * phi / 2)) as Hy by (apply Rmult_le_pos; nra).
    apply Rsqr_incr_0_var; [|exact Hy]. unfold Rsqr. replace (a * b * (a * b)) with ((a * a) * (b * b)) by ring. rewrite E1, E2.
    assert ((phi * x) * (phi * x) <= c * c) as Hcc by nra.
    assert (0 <= (x * phi * phi) * (x * phi * phi)) as Hsq by apply Rle_0_sqr.
    replace (x * (1 - phi * phi / 2) * (x * (1 - phi * phi / 2))) with (x * x - (phi * x) * (phi * x) + (x * phi * phi) * (x * phi * phi) / 4) by field. nra. }
  apply Rsqr_incr_0_var; [|exact HR]. unfold Rsqr.
  replace ((a + b) * (a + b)) with (a * a + b * b + 2 * (a * b)) by ring. rewrite E1, E2.
  replace (2 * (1 - phi * phi / 8) * s * (2 * (1 - phi * phi / 8) * s)) with (4 * (1 - phi * phi / 8) * (1 - phi * phi / 8) * (s * s)) by ring. rewrite E0.
  assert (0 <= x * (phi * phi * (phi * phi))) as Hq by (apply Rmult_le_pos; [lra|]; apply Rmult_le_pos; nra).
  replace (4 * (1 - phi * phi / 8) * (1 - phi * phi / 8) * x) with (4 * x - x * (phi * phi) + x * (phi * phi * (phi * phi)) / 16) by field.
  replace (x * (1 - phi * phi / 2)) with (x - x * (phi * phi) / 2) in Hab by field. lra.
Qed.
Lemma sqrt_concave th a b : 0 <= th <= 1 -> 0 <= a -> 0 <= b -> (1 - th) * sqrt a + th * sqrt b <= sqrt ((1 - th) * a + th * b).
Proof.
  intros Ht Ha Hb. pose proof (sqrt_pos a) as S1. pose proof (sqrt_pos b) as S2. pose proof (sqrt_sqrt a Ha) as E1. pose proof (sqrt_sqrt b Hb) as E2.
  set (x := sqrt a) in *. set (y := sqrt b) in *. rewrite <- E1, <- E2.
  assert (0 <= (1 - th) * x + th * y) as H0 by (apply Rplus_le_le_0_compat; apply Rmult_le_pos; lra).
  rewrite <- (sqrt_square ((1 - th) * x + th * y)) by exact H0. apply sqrt_le_1_alt.
  assert (0 <= th * (1 - th) * ((x - y) * (x - y))) as Hs by (apply Rmult_le_pos; [apply Rmult_le_pos; lra|apply Rle_0_sqr]).
  replace ((1 - th) * (x * x) + th * (y * y)) with (((1 - th) * x + th * y) * ((1 - th) * x + th * y) + th * (1 - th) * ((x - y) * (x - y))) by ring. lra.
Qed.
Lemma min1_sqrt y z : 0 <= y -> z <= 1 -> z <= y -> z <= sqrt y.
Proof.
  intros Hy H1 Hz. destruct (Rle_lt_dec 1 y) as [L|L].
  - rewrite <- sqrt_1 in H1. apply Rle_trans with (sqrt 1); [exact H1|]. now apply sqrt_le_1_alt.
  - apply Rle_trans with y; [exact Hz|]. rewrite <- (sqrt_square y Hy) at 1. apply sqrt_le_1_alt. nra.
Qed.

(** ** Distributing volume: no distribution collects more than the sorted prefixes *)
Section Alloc.
  Variables (q d : nat -> R).
  Definition wprefix (f : nat -> R) (l : list nat) (j : nat) : R := lsum f (firstn j l).

  Lemma alloc l : StronglySorted (fun i j => q j <= q i) l -> (forall u, In u l -> 0 <= q u /\ 0 < d u) ->
    forall e x, (forall u, In u l -> 0 <= e u <= d u) -> lsum e l <= x ->
    exists j th, 0 <= th <= 1 /\
      lsum (fun u => q u * e u) l <= (1 - th) * wprefix (fun u => q u * d u) l j + th * wprefix (fun u => q u * d u) l (S j) /\
      (1 - th) * wprefix d l j + th * wprefix d l (S j) <= x.
  Proof.
    induction 1 as [|v l Hs IH Hv]; intros Hq e x He Hx.
    - exists 0%nat, 0. unfold wprefix. cbn [firstn lsum] in *. split; [lra|]. split; [simpl; lra|simpl in *; lra].
    - assert (0 <= q v /\ 0 < d v) as [Hqv Hdv] by (apply Hq; now left). assert (0 <= e v <= d v) as Hev by (apply He; now left).
      rewrite Forall_forall in Hv. cbn [lsum] in Hx. set (s := lsum e l) in *.
      assert (0 <= s) as Hs0 by (apply lsum_nonneg; intros u Hu; apply (He u); now right).
      assert (lsum (fun u => q u * e u) l <= q v * s) as Hqs.
      { unfold s. rewrite <- lsum_scal. apply lsum_le. intros u Hu. apply Rmult_le_compat_r; [apply (He u); now right|now apply Hv]. }
      destruct (Rle_lt_dec x (d v)) as [Hxd|Hxd].
      + exists 0%nat, (x / d v). assert (0 <= x / d v <= 1) as Hth.
        { split; [apply Rmult_le_pos; [lra|left; apply Rinv_0_lt_compat; lra]|]. apply (Rmult_le_reg_r (d v)); [lra|]. unfold Rdiv. rewrite Rmult_assoc, Rinv_l by lra. lra. }
        split; [exact Hth|]. unfold wprefix. cbn [firstn lsum]. split.
        * replace ((1 - x / d v) * 0 + x / d v * (q v * d v + 0)) with (q v * x) by (field; lra).
          apply Rle_trans with (q v * (e v + s)); [lra|]. apply Rmult_le_compat_l; lra.
        * replace ((1 - x / d v) * 0 + x / d v * (d v + 0)) with x by (field; lra). lra.
      + (* fill v first *)
        assert (exists e', (forall u, In u l -> 0 <= e' u <= d u) /\ lsum e' l <= x - d v /\ q v * e v + lsum (fun u => q u * e u) l <= q v * d v + lsum (fun u => q u * e' u) l) as (e' & He' & Hx' & Hv').
        { destruct (Rle_lt_dec s (x - d v)) as [L|L].
          - exists e. split; [intros u Hu; apply He; now right|]. split; [exact L|]. assert (q v * e v <= q v * d v) by (apply Rmult_le_compat_l; lra). lra.
          - assert (0 < s) as Hsp by lra. set (c := (x - d v) / s). assert (0 <= c <= 1) as Hc.
            { unfold c. split; [apply Rmult_le_pos; [lra|left; now apply Rinv_0_lt_compat]|]. apply (Rmult_le_reg_r s); [lra|]. unfold Rdiv. rewrite Rmult_assoc, Rinv_l by lra. lra. }
            exists (fun u => c * e u). split; [|split].
            + intros u Hu. assert (0 <= e u <= d u) as Hu' by (apply He; now right). split; [apply Rmult_le_pos; lra|]. apply Rle_trans with (1 * e u); [apply Rmult_le_compat_r; lra|lra].
            + rewrite lsum_scal. fold s. unfold c. right. field. lra.
            + rewrite (lsum_ext (fun u => q u * (c * e u)) (fun u => c * (q u * e u))) by (intros; ring). rewrite lsum_scal.
              assert ((1 - c) * lsum (fun u => q u * e u) l <= (1 - c) * (q v * s)) as H1 by (apply Rmult_le_compat_l; lra).
              assert ((1 - c) * (q v * s) = q v * (s - (x - d v))) as H2 by (unfold c; field; lra).
              assert (q v * (s - (x - d v)) <= q v * (d v - e v)) as H3 by (apply Rmult_le_compat_l; lra). lra. }
        destruct (IH (fun u Hu => Hq u (or_intror Hu)) e' (x - d v) He' Hx') as (j & th & Hth & H1 & H2).
        exists (S j), th. split; [exact Hth|]. unfold wprefix in *. rewrite !firstn_cons. cbn [lsum]. split.
        * apply Rle_trans with (q v * d v + lsum (fun u => q u * e' u) l); [exact Hv'|].
          replace ((1 - th) * (q v * d v + lsum (fun u => q u * d u) (firstn j l)) + th * (q v * d v + lsum (fun u => q u * d u) (firstn (S j) l)))
            with (q v * d v + ((1 - th) * lsum (fun u => q u * d u) (firstn j l) + th * lsum (fun u => q u * d u) (firstn (S j) l))) by ring. lra.
        * replace ((1 - th) * (d v + lsum d (firstn j l)) + th * (d v + lsum d (firstn (S j) l)))
            with (d v + ((1 - th) * lsum d (firstn j l) + th * lsum d (firstn (S j) l))) by ring. lra.
  Qed.
End Alloc.

(** ** Mixing *)
Section Mix.
  Variables (order : list nat) (d p : nat -> R) (w : nat -> nat -> R) (alpha delta phi : R).
  Hypothesis Hnd : NoDup order.
  Hypothesis Hdelta : 0 < delta.
  Hypothesis Hd : forall u, In u order -> delta <= d u.
  Hypothesis Hp : forall u, In u order -> 0 <= p u.
  Hypothesis Hmass : lsum p order <= 1.
  Hypothesis Hw0 : forall u v, 0 <= w u v.
  Hypothesis Hws : forall u v, w u v = w v u.
  Hypothesis Hrow : forall v, In v order -> lsum (w v) order <= d v.
  Hypothesis Hsort : StronglySorted (fun i j => p j / d j <= p i / d i) order.
  Hypothesis Ha : 0 <= alpha <= 1.
  Hypothesis Hphi : 0 <= phi <= 1.
  (** Weight leaving a set. *)
  Definition out (S : list nat) : R := lsum (fun u => d u - lsum (w u) S) S.
  Hypothesis Hcut : forall j, (1 <= j <= length order)%nat -> phi * lsum d (firstn j order) <= out (firstn j order).
  Variable s : nat -> R.
  Hypothesis Hs : forall S, NoDup S -> lsum s S <= 1.
  Hypothesis Hstep : forall v, In v order ->
    p v <= alpha * s v + (1 - alpha) * lsum (fun u => p u * ((if Nat.eqb u v then / 2 else 0) + w u v / (2 * d u))) order.

  Let dpos u : In u order -> 0 < d u. Proof. intros Hu. specialize (Hd u Hu). lra. Qed.
  Definition dens (u : nat) : R := p u / d u.
  Let isin (S : list nat) (u : nat) : bool := if in_dec Nat.eq_dec u S then true else false.
  Definition ein (S : list nat) (u : nat) : R := if isin S u then d u else lsum (w u) S.
  Definition eout (S : list nat) (u : nat) : R := if isin S u then lsum (w u) S else 0.

  Lemma delta_sum (c : R) u S : NoDup S -> lsum (fun v => if Nat.eqb u v then c else 0) S = if isin S u then c else 0.
  Proof.
    unfold isin. induction 1 as [|v S Hv _ IH]; cbn [lsum]; auto. rewrite IH. destruct (Nat.eqb_spec u v) as [->|Hne].
    - destruct (in_dec Nat.eq_dec v S); [tauto|]. destruct (in_dec Nat.eq_dec v (v :: S)) as [|n1]; [lra|]. exfalso. apply n1. now left.
    - destruct (in_dec Nat.eq_dec u S) as [i|n], (in_dec Nat.eq_dec u (v :: S)) as [i'|n']; try lra; exfalso; [apply n'; now right|].
      destruct i'; [congruence|tauto].
  Qed.
  Lemma one_step S : NoDup S -> incl S order ->
    lsum p S <= alpha + (1 - alpha) / 2 * (lsum (fun u => dens u * ein S u) order + lsum (fun u => dens u * eout S u) order).
  Proof.
    intros HS Hi. apply Rle_trans with (lsum (fun v => alpha * s v + (1 - alpha) * lsum (fun u => p u * ((if Nat.eqb u v then / 2 else 0) + w u v / (2 * d u))) order) S).
    { apply lsum_le. intros v Hv. apply Hstep. now apply Hi. }
    rewrite lsum_plus, !lsum_scal. assert (alpha * lsum s S <= alpha * 1) as H1 by (apply Rmult_le_compat_l; [lra|now apply Hs]).
    assert (lsum (fun v => lsum (fun u => p u * ((if Nat.eqb u v then / 2 else 0) + w u v / (2 * d u))) order) S
            = / 2 * (lsum (fun u => dens u * ein S u) order + lsum (fun u => dens u * eout S u) order)) as ->; [|lra].
    rewrite lsum_swap, <- lsum_plus, <- lsum_scal. apply lsum_ext. intros u Hu. pose proof (dpos u Hu) as Hdu.
    rewrite lsum_scal, lsum_plus, delta_sum by exact HS. rewrite (lsum_ext (fun x => w u x / (2 * d u)) (fun x => / (2 * d u) * w u x)) by (intros; unfold Rdiv; ring).
    rewrite lsum_scal. unfold ein, eout, dens. destruct (isin S u); field; lra.
  Qed.
  Lemma ein_range S u : NoDup S -> incl S order -> In u order -> 0 <= ein S u <= d u.
  Proof.
    intros HS Hi Hu. pose proof (dpos u Hu). unfold ein. destruct (isin S u); [lra|]. split; [apply lsum_nonneg; auto|]. eapply Rle_trans; [|now apply Hrow].
    revert Hi. clear - HS Hnd Hw0. revert S HS. induction order as [|v l IH]; intros S HS Hi.
    - destruct S as [|x S]; [simpl; lra|]. exfalso. apply (Hi x). now left.
    - inversion Hnd as [|? ? N1 N2]; subst. cbn [lsum]. destruct (in_dec Nat.eq_dec v S) as [I|I].
      + apply in_split in I. destruct I as (S1 & S2 & ->). rewrite (lsum_perm (w u) (S1 ++ v :: S2) (v :: S1 ++ S2)) by (apply Permutation_sym, Permutation_middle).
        cbn [lsum]. apply Rplus_le_compat_l. apply IH; auto; [now apply NoDup_remove_1 in HS|]. apply NoDup_remove_2 in HS.
        intros x Hx. assert (In x (v :: l)) as [->|?] by (apply Hi; apply in_app_iff in Hx; apply in_app_iff; cbn; tauto); auto. tauto.
      + assert (incl S l) as Hi' by (intros x Hx; destruct (Hi x Hx) as [->|]; auto; tauto). specialize (IH N2 S HS Hi'). pose proof (Hw0 u v). lra.
  Qed.
  Lemma eout_range S u : NoDup S -> incl S order -> In u order -> 0 <= eout S u <= d u.
  Proof.
    intros HS Hi Hu. pose proof (dpos u Hu). pose proof (ein_range S u HS Hi Hu) as He. unfold eout, ein in *. destruct (isin S u) eqn:E; [|lra].
    split; [apply lsum_nonneg; auto|]. (* the same bound, seen from outside *)
    eapply Rle_trans; [|now apply Hrow].
    revert Hi. clear - HS Hnd Hw0. revert S HS. induction order as [|v l IH]; intros S HS Hi.
    - destruct S as [|x S]; [simpl; lra|]. exfalso. apply (Hi x). now left.
    - inversion Hnd as [|? ? N1 N2]; subst. cbn [lsum]. destruct (in_dec Nat.eq_dec v S) as [I|I].
      + apply in_split in I. destruct I as (S1 & S2 & ->). rewrite (lsum_perm (w u) (S1 ++ v :: S2) (v :: S1 ++ S2)) by (apply Permutation_sym, Permutation_middle).
        cbn [lsum]. apply Rplus_le_compat_l. apply IH; auto; [now apply NoDup_remove_1 in HS|]. apply NoDup_remove_2 in HS.
        intros x Hx. assert (In x (v :: l)) as [->|?] by (apply Hi; apply in_app_iff in Hx; apply in_app_iff; cbn; tauto); auto. tauto.
      + assert (incl S l) as Hi' by (intros x Hx; destruct (Hi x Hx) as [->|]; auto; tauto). specialize (IH N2 S HS Hi'). pose proof (Hw0 u v). lra.
  Qed.
  Lemma prefix_sums j : let S := firstn j order in lsum (ein S) order <= lsum d S + out S /\ lsum (eout S) order = lsum d S - out S.
  Proof.
    cbv zeta. set (S := firstn j order). set (T := skipn j order). assert (order = S ++ T) as E by (symmetry; apply firstn_skipn).
    assert (forall u, In u S -> isin S u = true) as I1 by (intros u Hu; unfold isin; destruct (in_dec Nat.eq_dec u S); tauto).
    assert (forall u, In u T -> isin S u = false) as I2.
    { intros u Hu. unfold isin. destruct (in_dec Nat.eq_dec u S) as [I|]; auto. exfalso. rewrite E in Hnd. clear - Hnd Hu I.
      induction S as [|x S IH]; [destruct I|]. cbn in Hnd. inversion Hnd as [|? ? N1 N2]; subst. destruct I as [->|I]; [apply N1, in_app_iff; now right|auto]. }
    assert (forall f, lsum f order = lsum f S + lsum f T) as Esum by (intros f; rewrite E at 1; apply lsum_app).
    rewrite !Esum. split.
    - rewrite (lsum_ext (ein S) d S) by (intros u Hu; unfold ein; now rewrite I1). apply Rplus_le_compat_l.
      rewrite (lsum_ext (ein S) (fun u => lsum (w u) S) T) by (intros u Hu; unfold ein; now rewrite I2). rewrite lsum_swap. unfold out. apply lsum_le. intros v Hv.
      assert (In v order) as Ho by (rewrite E; apply in_app_iff; now left). pose proof (Hrow v Ho) as Hr. rewrite Esum in Hr.
      rewrite (lsum_ext (fun x => w x v) (w v) T) by (intros; apply Hws). lra.
    - rewrite (lsum_ext (eout S) (fun u => lsum (w u) S) S) by (intros u Hu; unfold eout; now rewrite I1).
      rewrite (lsum_0 (eout S) T) by (intros u Hu; unfold eout; now rewrite I2). unfold out. rewrite lsum_minus. lra.
  Qed.

  Definition kappa : R := 1 - phi * phi / 8.
  Definition bound (t : nat) (x : R) : R := 1 - (1 - alpha) ^ t + (1 - alpha) ^ t * kappa ^ t * sqrt (x / delta).
  Lemma kappa_pos : 0 <= kappa. Proof. unfold kappa. nra. Qed.
  Lemma coef_pos t : 0 <= (1 - alpha) ^ t * kappa ^ t.
  Proof. apply Rmult_le_pos; apply pow_le; [lra|apply kappa_pos]. Qed.
  Lemma alpha_pow t : 0 <= (1 - alpha) ^ t <= 1.
  Proof. split; [apply pow_le; lra|]. pose proof (pow_incr (1 - alpha) 1 t ltac:(lra)) as Hx. rewrite pow1 in Hx. exact Hx. Qed.
  Lemma bound_mono t x y : x <= y -> bound t x <= bound t y.
  Proof.
    intros Hxy. unfold bound. apply Rplus_le_compat_l, Rmult_le_compat_l; [apply coef_pos|]. apply sqrt_le_1_alt. apply Rmult_le_compat_r; [left; now apply Rinv_0_lt_compat|exact Hxy].
  Qed.
  Lemma bound_concave t th x y : 0 <= th <= 1 -> 0 <= x -> 0 <= y -> (1 - th) * bound t x + th * bound t y <= bound t ((1 - th) * x + th * y).
  Proof.
    intros Ht Hx Hy. unfold bound. assert (0 < / delta) as Hi by now apply Rinv_0_lt_compat.
    pose proof (sqrt_concave th (x / delta) (y / delta) Ht ltac:(apply Rmult_le_pos; lra) ltac:(apply Rmult_le_pos; lra)) as Hc.
    replace ((1 - th) * (x / delta) + th * (y / delta)) with (((1 - th) * x + th * y) / delta) in Hc by (field; lra).
    apply (Rmult_le_compat_l ((1 - alpha) ^ t * kappa ^ t)) in Hc; [|apply coef_pos]. lra.
  Qed.
  Lemma firstn_in j u : In u (firstn j order) -> In u order.
  Proof. intros Hu. rewrite <- (firstn_skipn j order). apply in_app_iff. now left. Qed.
  Lemma vol_nonneg j : 0 <= lsum d (firstn j order).
  Proof. apply lsum_nonneg. intros u Hu. left. apply dpos. now apply (firstn_in j). Qed.
  Lemma dens_mass l : incl l order -> lsum (fun u => dens u * d u) l = lsum p l.
  Proof. intros Hl. apply lsum_ext. intros u Hu. unfold dens. pose proof (dpos u (Hl u Hu)). field. lra. Qed.
  Lemma spread t : (forall j, lsum p (firstn j order) <= bound t (lsum d (firstn j order))) ->
    forall e x, (forall u, In u order -> 0 <= e u <= d u) -> lsum e order <= x -> lsum (fun u => dens u * e u) order <= bound t x.
  Proof.
    intros HB e x He Hx. destruct (alloc dens d order) with (e := e) (x := x) as (j & th & Hth & H1 & H2); auto.
    { intros u Hu. pose proof (dpos u Hu). split; auto. unfold dens. apply Rmult_le_pos; auto. left. now apply Rinv_0_lt_compat. }
    unfold wprefix in *. rewrite !dens_mass in H1 by (intros u; apply firstn_in). eapply Rle_trans; [exact H1|]. eapply Rle_trans; [|apply (bound_mono t _ _ H2)].
    eapply Rle_trans; [|apply bound_concave; auto using vol_nonneg]. apply Rplus_le_compat; apply Rmult_le_compat_l; auto; lra.
  Qed.
  Lemma firstn_nodup j : NoDup (firstn j order).
  Proof.
    rewrite <- (firstn_skipn j order) in Hnd. clear - Hnd. induction (firstn j order) as [|x l IH]; [constructor|]. cbn in Hnd. inversion Hnd as [|? ? N1 N2]; subst.
    constructor; auto. intros I. apply N1, in_app_iff. now left.
  Qed.
  Lemma prefix_bound t : forall j, lsum p (firstn j order) <= bound t (lsum d (firstn j order)).
  Proof.
    induction t as [|t IH].
    - intros j. unfold bound. cbn [pow]. rewrite !Rmult_1_l, Rminus_diag_eq, Rplus_0_l by reflexivity.
      destruct (firstn j order) as [|v l] eqn:E; [cbn [lsum]; apply sqrt_pos|].
      assert (lsum p (v :: l) <= 1) as H1.
      { eapply Rle_trans; [|exact Hmass]. rewrite <- E. rewrite <- (firstn_skipn j order) at 2. rewrite lsum_app.
        assert (0 <= lsum p (skipn j order)); [|lra]. apply lsum_nonneg. intros u Hu. apply Hp. rewrite <- (firstn_skipn j order). apply in_app_iff. now right. }
      apply min1_sqrt; [|exact H1|].
      + apply Rmult_le_pos; [rewrite <- E; apply vol_nonneg|left; now apply Rinv_0_lt_compat].
      + eapply Rle_trans; [exact H1|]. apply (Rmult_le_reg_r delta); [lra|]. unfold Rdiv. rewrite Rmult_assoc, Rinv_l, Rmult_1_r, Rmult_1_l by lra.
        assert (In v order) as Hv by (apply (firstn_in j); rewrite E; now left). specialize (Hd v Hv). cbn [lsum].
        assert (0 <= lsum d l); [|lra]. apply lsum_nonneg. intros u Hu. left. apply dpos. apply (firstn_in j). rewrite E. now right.
    - assert (forall j, (j <= length order)%nat -> lsum p (firstn j order) <= bound (S t) (lsum d (firstn j order))) as Hj.
      { intros [|j'] Hj.
        - unfold bound. cbn [firstn lsum]. pose proof (alpha_pow (S t)). pose proof (coef_pos (S t)). assert (0 <= (1 - alpha) ^ S t * kappa ^ S t * sqrt (0 / delta)) by (apply Rmult_le_pos; auto; apply sqrt_pos). lra.
        - set (j := S j') in *. set (Sj := firstn j order) in *. assert (incl Sj order) as Hi by (intros u; apply firstn_in). pose proof (firstn_nodup j) as Hn. fold Sj in Hn.
          destruct (prefix_sums j) as [P1 P2]. fold Sj in P1, P2. set (x := lsum d Sj) in *. set (c := out Sj) in *.
          assert (0 <= x) as Hx by apply vol_nonneg. assert (phi * x <= c) as Hc1 by (apply Hcut; lia).
          assert (c <= x) as Hc2. { assert (0 <= lsum (eout Sj) order); [|lra]. apply lsum_nonneg. intros u Hu. now apply eout_range. }
          pose proof (one_step Sj Hn Hi) as H1.
          pose proof (spread t IH (ein Sj) (x + c) (fun u Hu => ein_range Sj u Hn Hi Hu) P1) as H2.
          pose proof (spread t IH (eout Sj) (x - c) (fun u Hu => eout_range Sj u Hn Hi Hu) (Req_le _ _ P2)) as H3.
          assert (lsum p Sj <= alpha + (1 - alpha) / 2 * (bound t (x + c) + bound t (x - c))) as H4.
          { eapply Rle_trans; [exact H1|]. apply Rplus_le_compat_l, Rmult_le_compat_l; lra. }
          eapply Rle_trans; [exact H4|]. unfold bound. assert (0 < / delta) as Hid by now apply Rinv_0_lt_compat.
          assert (phi * (x / delta) <= c / delta <= x / delta) as Hcd.
          { split; [replace (phi * (x / delta)) with ((phi * x) / delta) by (unfold Rdiv; ring)|]; apply Rmult_le_compat_r; lra. }
          pose proof (sqrt_pair (x / delta) (c / delta) phi ltac:(apply Rmult_le_pos; lra) Hphi Hcd) as Hq.
          replace (x / delta + c / delta) with ((x + c) / delta) in Hq by (field; lra). replace (x / delta - c / delta) with ((x - c) / delta) in Hq by (field; lra).
          fold kappa in Hq. apply (Rmult_le_compat_l ((1 - alpha) ^ t * kappa ^ t)) in Hq; [|apply coef_pos].
          cbn [pow]. set (A := (1 - alpha) ^ t) in *. set (K := kappa ^ t) in *.
          apply (Rmult_le_compat_l ((1 - alpha) / 2)) in Hq; [|lra].
          match goal with |- ?l <= ?r => replace l with (1 - (1 - alpha) * A + (1 - alpha) / 2 * (A * K * (sqrt ((x + c) / delta) + sqrt ((x - c) / delta)))) by field end.
          replace ((1 - alpha) * A * (kappa * K) * sqrt (x / delta)) with ((1 - alpha) / 2 * (A * K * (2 * kappa * sqrt (x / delta)))) by field. lra. }
      intros j. destruct (Nat.le_gt_cases j (length order)) as [L|L]; [now apply Hj|].
      rewrite (firstn_all2 order) by lia. rewrite <- (firstn_all order) at 1 2. apply Hj. lia.
  Qed.
  (** No set holds more than the bound. *)
  Theorem mixing C t : NoDup C -> (forall u, In u C -> ~ In u order -> p u = 0) -> (forall u, In u C -> 0 <= d u) -> lsum p C <= bound t (lsum d C).
  Proof.
    intros HC Hout HdC. set (e := fun u => if isin C u then d u else 0).
    assert (forall f : nat -> R, (forall u, In u C -> ~ In u order -> f u = 0) -> lsum (fun u => if isin C u then f u else 0) order = lsum f C) as Hsum.
    { intros f Hf. assert (forall l, NoDup l -> forall m, NoDup m -> (forall u, In u m -> ~ In u l -> f u = 0) -> lsum (fun u => if isin m u then f u else 0) l = lsum f m) as G.
      { clear. induction 1 as [|v l Hv _ IH]; intros m Hm Hf.
        - cbn [lsum]. symmetry. apply lsum_0. intros u Hu. now apply Hf.
        - cbn [lsum]. unfold isin at 1. destruct (in_dec Nat.eq_dec v m) as [I|I].
          + apply in_split in I. destruct I as (m1 & m2 & ->). rewrite (lsum_perm f (m1 ++ v :: m2) (v :: m1 ++ m2)) by (apply Permutation_sym, Permutation_middle).
            cbn [lsum]. f_equal. rewrite <- (IH (m1 ++ m2)).
            * apply lsum_ext. intros u Hu. unfold isin. assert (u <> v) by (intros ->; tauto).
              destruct (in_dec Nat.eq_dec u (m1 ++ v :: m2)) as [I1|I1], (in_dec Nat.eq_dec u (m1 ++ m2)) as [I2|I2]; auto; exfalso.
              -- apply I2. apply in_app_iff in I1. apply in_app_iff. cbn in I1. destruct I1 as [?|[?|?]]; auto; congruence.
              -- apply I1. apply in_app_iff in I2. apply in_app_iff. cbn. tauto.
            * now apply NoDup_remove_1 in Hm.
            * intros u Hu Hul. apply Hf; [apply in_app_iff in Hu; apply in_app_iff; cbn; tauto|]. intros [->|]; auto. apply NoDup_remove_2 in Hm. auto.
          + rewrite Rplus_0_l. apply IH; auto. intros u Hu Hul. apply Hf; auto. intros [->|]; auto. }
      apply G; auto. }
    assert (lsum e order <= lsum d C) as Hv.
    { assert (lsum e order = lsum (fun u => if isin order u then d u else 0) C) as ->.
      - rewrite <- (Hsum (fun u => if isin order u then d u else 0)).
        + apply lsum_ext. intros u Hu. unfold e, isin. destruct (in_dec Nat.eq_dec u C); auto. destruct (in_dec Nat.eq_dec u order); tauto.
        + intros u _ Hu. unfold isin. destruct (in_dec Nat.eq_dec u order); tauto.
      - apply lsum_le. intros u Hu. destruct (isin order u); [lra|auto]. }
    rewrite <- (Hsum p Hout). rewrite (lsum_ext _ (fun u => dens u * e u)).
    - apply spread; auto; [apply prefix_bound|]. intros u Hu. pose proof (dpos u Hu). unfold e. destruct (isin C u); lra.
    - intros u Hu. unfold e, dens. pose proof (dpos u Hu). destruct (isin C u); field; lra.
  Qed.
End Mix.
