(** Mathematics for C97 (no code is modelled here): homogeneous linear equations, and the hard direction of Cheeger's inequality inside a set of vertices. *)
From Verif Require Import Base RSum GraphSpec CheegerMath SpectrumPower RecoverTop.
From Coq Require Import Reals Lra Psatz Lia List Permutation Sorting.Sorted.
Import ListNotations.
Local Open Scope nat_scope.

(** ** k homogeneous equations in more than k unknowns *)
Definition skip (p i : nat) : nat := if i <? p then i else S i.
Lemma rsum_skip m p f : p <= m -> rsum (S m) f = (f p + rsum m (fun i => f (skip p i)))%R.
Proof.
  revert p. induction m as [|m IH]; intros p Hp.
  - replace p with 0 by lia. rewrite rsum_S, !rsum_0. ring.
  - destruct (Nat.eq_dec p (S m)) as [->|Ne].
    + rewrite (rsum_S (S m)), Rplus_comm. f_equal. apply rsum_ext. intros i Hi. unfold skip. destruct (Nat.ltb_spec i (S m)); [reflexivity|lia].
    + rewrite (rsum_S (S m)), (IH p) by lia. rewrite (rsum_S m (fun i => f (skip p i))). unfold skip at 3. destruct (Nat.ltb_spec m p); [lia|]. ring.
Qed.
Lemma homogeneous k : forall m (c : nat -> nat -> R), k < m ->
  exists x : nat -> R, (exists i, i < m /\ x i <> 0%R) /\ forall j, j < k -> rsum m (fun i => c j i * x i)%R = 0%R.
Proof.
  induction k as [|k IH]; intros m c Hm.
  - exists (fun _ => 1%R). split; [exists 0; split; [lia|lra]|intros; lia].
  - destruct m as [|m]; [lia|].
    assert ((forall i, i < S m -> c k i = 0%R) \/ exists p, p <= m /\ c k p <> 0%R) as [Z|(p & Hp & Np)].
    { clear. induction m as [|m IH].
      - destruct (Req_dec (c k 0) 0); [left; intros i Hi; now replace i with 0 by lia|right; exists 0; auto].
      - destruct IH as [Z|(p & Hp & Np)]; [|right; exists p; split; [lia|auto]].
        destruct (Req_dec (c k (S m)) 0); [left; intros i Hi; destruct (Nat.eq_dec i (S m)) as [->|]; [auto|apply Z; lia]|right; exists (S m); auto]. }
    + destruct (IH (S m) c ltac:(lia)) as (x & Nx & Hx). exists x. split; [exact Nx|]. intros j Hj. destruct (Nat.eq_dec j k) as [->|]; [|apply Hx; lia].
      apply rsum_zero. intros i Hi. rewrite Z by auto. ring.
    + destruct (IH m (fun j i => c j (skip p i) - c j p * c k (skip p i) / c k p)%R ltac:(lia)) as (x & (i0 & Hi0 & Ni0) & Hx).
      set (s := rsum m (fun i => c k (skip p i) * x i)%R).
      exists (fun i => if i =? p then (- s / c k p)%R else x (if i <? p then i else Nat.pred i)).
      assert (forall i, (if skip p i =? p then (- s / c k p)%R else x (if skip p i <? p then skip p i else Nat.pred (skip p i))) = x i) as Es.
      { intros i. unfold skip. destruct (Nat.ltb_spec i p).
        - destruct (Nat.eqb_spec i p); [lia|]. destruct (Nat.ltb_spec i p); [reflexivity|lia].
        - destruct (Nat.eqb_spec (S i) p); [lia|]. destruct (Nat.ltb_spec (S i) p); [lia|]. reflexivity. }
      assert (forall j, rsum (S m) (fun i => c j i * (if i =? p then - s / c k p else x (if i <? p then i else Nat.pred i)))%R = (c j p * (- s / c k p) + rsum m (fun i => c j (skip p i) * x i))%R) as Sum.
      { intros j. rewrite (rsum_skip m p) by auto. rewrite Nat.eqb_refl. f_equal. apply rsum_ext. intros i _. now rewrite Es. }
      split.
      * exists (skip p i0). split; [unfold skip; destruct (i0 <? p); lia|]. now rewrite Es.
      * intros j Hj. rewrite Sum. destruct (Nat.eq_dec j k) as [->|Nj]; [fold s; field; auto|].
        specialize (Hx j ltac:(lia)). rewrite (rsum_ext m _ (fun i => c j (skip p i) * x i - c j p / c k p * (c k (skip p i) * x i))%R) in Hx by (intros; field; auto).
        rewrite rsum_minus, rsum_scal in Hx. fold s in Hx. rewrite <- Hx. field. auto.
Qed.

(** ** Sorting by a key *)
Lemma insert_key (y : nat -> R) v L : StronglySorted (fun a b => (y b <= y a)%R) L -> exists L', Permutation (v :: L) L' /\ StronglySorted (fun a b => (y b <= y a)%R) L'.
Proof.
  induction 1 as [|u L SS (L' & P' & S') F].
  - exists [v]. split; [reflexivity|]. repeat constructor.
  - destruct (Rle_dec (y u) (y v)) as [Le|Nl].
    + exists (v :: u :: L). split; [reflexivity|]. constructor; [constructor; auto|]. constructor; [exact Le|]. rewrite Forall_forall in *. intros w Hw. specialize (F w Hw). cbn in F. lra.
    + exists (u :: L'). split; [rewrite perm_swap; now constructor|]. constructor; [exact S'|]. rewrite Forall_forall in *. intros w Hw. apply (Permutation_in _ (Permutation_sym P')) in Hw as [<-|Hw]; [lra|auto].
Qed.
Lemma sort_key (y : nat -> R) L : exists L', Permutation L L' /\ StronglySorted (fun a b => (y b <= y a)%R) L'.
Proof.
  induction L as [|v L (L' & P & S)]; [exists []; repeat constructor|].
  destruct (insert_key y v L' S) as (L'' & P' & S'). exists L''. split; [rewrite <- P'; now constructor|exact S'].
Qed.
Lemma sorted_nth (y : nat -> R) L i : StronglySorted (fun a b => (y b <= y a)%R) L -> S i < length L -> (y (nth (S i) L 0%nat) <= y (nth i L 0%nat))%R.
Proof.
  intros HS. revert i. induction HS as [|a L SS IH F]; intros i Hi; cbn in Hi; [lia|]. destruct i as [|i].
  - cbn [nth]. rewrite Forall_forall in F. apply F, nth_In. lia.
  - change (nth (S (S i)) (a :: L) 0) with (nth (S i) L 0). change (nth (S i) (a :: L) 0) with (nth i L 0). apply IH. lia.
Qed.

(** ** One set of vertices *)
Section Inner.
  Variables (n : nat) (w : nat -> nat -> R) (C : nat -> bool) (phi : R) (y : nat -> R).
  Hypothesis wsym : forall u v, w u v = w v u.
  Hypothesis wnn : forall u v, (0 <= w u v)%R.
  Definition din (u : nat) : R := rsum n (fun v => if C v then w u v else 0%R).
  Definition dvol (A : nat -> bool) : R := rsum n (fun u => if C u && A u then din u else 0%R).
  Definition dcut (A : nat -> bool) : R := rsum n (fun u => rsum n (fun v => if (C u && A u) && (C v && negb (A v)) then w u v else 0%R)).
  Hypothesis phi_pos : (0 < phi)%R.
  Hypothesis cut_big : forall A, (phi * Rmin (dvol A) (dvol (fun u => negb (A u))) <= dcut A)%R.
  Hypothesis orth : rsum n (fun u => if C u then din u * y u else 0)%R = 0%R.
  Local Notation Y := (rsum n (fun u => if C u then din u * y u ^ 2 else 0)%R).
  Local Notation F := (rsum n (fun u => rsum n (fun v => if C u && C v then w u v * (y u - y v) ^ 2 else 0)%R)).

  Lemma din_nn u : (0 <= din u)%R.
  Proof. apply rsum_nonneg. intros v _. destruct (C v); [apply wnn|lra]. Qed.
  Lemma order_sum L (f : nat -> R) : Permutation (filter C (seq 0 n)) L -> rsum (length L) (fun i => f (nth i L 0)) = rsum n (fun u => if C u then f u else 0%R).
  Proof. intros P. rewrite rsum_nth, <- (lsum_perm f _ _ P), lsum_filter. reflexivity. Qed.

  Lemma inner_form : (phi ^ 2 * Y <= F)%R.
  Proof.
    assert (0 <= F)%R as PF.
    { apply rsum_nonneg. intros u _. apply rsum_nonneg. intros v _. destruct (C u && C v); [|lra]. apply Rmult_le_pos; [apply wnn|apply pow2_ge_0]. }
    assert (0 <= Y)%R as PY.
    { apply rsum_nonneg. intros u _. destruct (C u); [|lra]. apply Rmult_le_pos; [apply din_nn|apply pow2_ge_0]. }
    destruct (Rle_dec (phi ^ 2 * Y) F) as [|N]; [assumption|exfalso]. apply Rnot_le_lt in N.
    assert (0 < phi ^ 2)%R as P2 by (apply pow_lt; exact phi_pos). assert (0 < Y)%R as PY' by nra.
    set (lam := ((F / Y + phi ^ 2) / 4)%R). assert (F / Y < phi ^ 2)%R as Lt by (apply (Rmult_lt_reg_r Y); auto; unfold Rdiv; rewrite Rmult_assoc, Rinv_l; lra).
    assert (0 <= F / Y)%R as PQ by (apply Rmult_le_pos; [exact PF|left; now apply Rinv_0_lt_compat]).
    assert (F = F / Y * Y)%R as EF by (field; lra).
    destruct (sort_key y (filter C (seq 0 n))) as (L & P & HS). set (o := fun i => nth i L 0).
    assert (forall f, rsum (length L) (fun i => f (o i)) = rsum n (fun u => if C u then f u else 0%R)) as EQ by (intros f; now apply order_sum).
    assert (NoDup L) as ND by (apply (Permutation_NoDup P), NoDup_filter, seq_NoDup).
    assert (phi <= sqrt (2 * lam))%R as B.
    { apply (hard_direction (length L) (fun i j => w (o i) (o j)) (fun i => din (o i)) (fun i => y (o i)) lam phi).
      - intros. apply wsym.
      - intros. apply wnn.
      - intros i Hi. symmetry. exact (EQ (fun v => w (o i) v)).
      - intros. apply din_nn.
      - intros j Hj. now apply sorted_nth.
      - rewrite (EQ (fun u => din u * y u)%R). exact orth.
      - rewrite (EQ (fun u => din u * y u ^ 2)%R).
        rewrite (rsum_ext (length L) _ (fun i => rsum n (fun v => if C v then w (o i) v * (y (o i) - y v) ^ 2 else 0))%R) by (intros i _; exact (EQ (fun v => w (o i) v * (y (o i) - y v) ^ 2)%R)).
        rewrite (EQ (fun u => rsum n (fun v => if C v then w u v * (y u - y v) ^ 2 else 0)%R)).
        apply Rle_trans with F.
        + right. apply rsum_ext. intros u _. destruct (C u); cbn [andb]; [reflexivity|]. symmetry. now apply rsum_zero.
        + unfold lam. rewrite EF at 1. nra.
      - unfold lam. lra.
      - rewrite (EQ (fun u => din u * y u ^ 2)%R). exact PY'.
      - intros j Hj. set (A := fun u => if in_dec Nat.eq_dec u (firstn j L) then true else false).
        assert (forall i, i < length L -> A (o i) = (i <? j)) as HA.
        { intros i Hi. unfold A, o. destruct (Nat.ltb_spec i j) as [Lj|Gj].
          - destruct (in_dec Nat.eq_dec (nth i L 0) (firstn j L)) as [|Nin]; [reflexivity|]. exfalso. apply Nin.
            rewrite <- (firstn_skipn j L) at 1. rewrite app_nth1 by (rewrite firstn_length; lia). apply nth_In. rewrite firstn_length. lia.
          - destruct (in_dec Nat.eq_dec (nth i L 0) (firstn j L)) as [I|]; [|reflexivity]. exfalso.
            apply (In_nth _ _ 0) in I as (i' & Hi' & E'). rewrite firstn_length in Hi'.
            assert (nth i' L 0 = nth i L 0) as E2. { rewrite <- E'. rewrite <- (firstn_skipn j L) at 1. apply app_nth1. rewrite firstn_length. lia. }
            apply (proj1 (NoDup_nth L 0) ND) in E2; lia. }
        pose proof (cut_big A) as CB.
        assert (forall f, rsum (length L) (fun i => f (o i) * indic (i <? j))%R = rsum n (fun u => if C u && A u then f u else 0%R)) as EA.
        { intros f. rewrite (rsum_ext (length L) _ (fun i => f (o i) * indic (A (o i)))%R) by (intros i Hi; now rewrite HA).
          rewrite (EQ (fun u => f u * indic (A u))%R). apply rsum_ext. intros u _. destruct (C u), (A u); cbn; ring. }
        assert (pvol (length L) (fun i => din (o i)) j = dvol A) as E1 by (unfold pvol; apply (EA din)).
        assert (ptot (length L) (fun i => din (o i)) - pvol (length L) (fun i => din (o i)) j = dvol (fun u => negb (A u)))%R as E2.
        { rewrite E1. unfold ptot. rewrite (EQ din). unfold dvol. rewrite <- rsum_minus. apply rsum_ext. intros u _. destruct (C u), (A u); cbn; ring. }
        rewrite E2, E1. eapply Rle_trans; [exact CB|]. right. symmetry. unfold pcut, dcut.
        rewrite (rsum_ext (length L) _ (fun i => rsum n (fun v => if C v then w (o i) v * indic (A (o i) && negb (A v)) else 0))%R).
        + rewrite (EQ (fun u => rsum n (fun v => if C v then w u v * indic (A u && negb (A v)) else 0))%R). apply rsum_ext. intros u _.
          destruct (C u); cbn [andb]; [|symmetry; now apply rsum_zero]. apply rsum_ext. intros v _. destruct (A u), (C v), (A v); cbn; ring.
        + intros i Hi. rewrite <- (EQ (fun v => w (o i) v * indic (A (o i) && negb (A v)))%R). apply rsum_ext. intros k Hk.
          rewrite !HA by auto. f_equal. f_equal. f_equal. destruct (Nat.leb_spec j k), (Nat.ltb_spec k j); cbn; auto; lia. }
    assert (0 <= 2 * lam)%R as P2l by (unfold lam; lra). pose proof (sqrt_sqrt _ P2l) as Q. pose proof (sqrt_pos (2 * lam)) as Ps. unfold lam in *. nra.
  Qed.
End Inner.
