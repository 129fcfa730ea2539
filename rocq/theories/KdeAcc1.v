(** All orders of a list, and moments of a uniformly random order: used for the accuracy of the CKNS estimator (C80). *)
From Verif Require Import Base RSum.
From Coq Require Import Permutation Reals Lra FinFun.
Local Open Scope nat_scope.

(** ** The list of all permutations of a list *)
Fixpoint inserts {A} (x : A) (l : list A) : list (list A) :=
  match l with [] => [[x]] | y :: l' => (x :: l) :: map (cons y) (inserts x l') end.
Fixpoint perms {A} (l : list A) : list (list A) :=
  match l with [] => [[]] | x :: l' => flat_map (inserts x) (perms l') end.

Lemma inserts_spec {A} (x : A) l m : In m (inserts x l) <-> exists l1 l2, l = l1 ++ l2 /\ m = l1 ++ x :: l2.
Proof.
  revert m. induction l as [|y l IH]; intros m; cbn [inserts].
  - split; [intros [<-|[]]; exists [], []; auto|]. intros (l1 & l2 & E & ->). symmetry in E. apply app_eq_nil in E as [-> ->]. now left.
  - split.
    + intros [<-|I]; [exists [], (y :: l); auto|]. apply in_map_iff in I as (m' & <- & I). apply IH in I as (l1 & l2 & -> & ->). exists (y :: l1), l2. auto.
    + intros (l1 & l2 & E & ->). destruct l1 as [|z l1]; simpl in E; [subst; now left|]. injection E as -> ->. right. simpl. apply in_map. apply IH. eauto.
Qed.

Lemma inserts_length {A} (x : A) l : length (inserts x l) = S (length l).
Proof. induction l as [|y l IH]; simpl; auto. now rewrite map_length, IH. Qed.

Lemma perms_spec {A} (l s : list A) : In s (perms l) <-> Permutation l s.
Proof.
  revert s. induction l as [|x l IH]; intros s; cbn [perms].
  - split; [intros [<-|[]]; auto|]. intros P. apply Permutation_nil in P. subst. now left.
  - rewrite in_flat_map. split.
    + intros (m & Im & Is). apply IH in Im. apply inserts_spec in Is as (l1 & l2 & -> & ->). now apply Permutation_cons_app.
    + intros P. assert (In x s) as I by (eapply Permutation_in; [exact P|now left]). apply in_split in I as (l1 & l2 & ->). apply Permutation_cons_app_inv in P.
      exists (l1 ++ l2). split; [now apply IH|]. apply inserts_spec. eauto.
Qed.

Lemma perms_length {A} (l : list A) : length (perms l) = fact (length l).
Proof.
  induction l as [|x l IH]; auto. cbn [perms length]. assert (forall m, In m (perms l) -> length (inserts x m) = S (length l)) as H.
  { intros m I. rewrite inserts_length. apply perms_spec, Permutation_length in I. congruence. }
  change (fact (S (length l))) with (S (length l) * fact (length l)). rewrite <- IH. revert H. generalize (perms l) as F. induction F as [|m F IHF]; intros H; cbn [flat_map length]; [lia|].
  rewrite app_length, H by now left. rewrite IHF by (intros; apply H; now right). lia.
Qed.

Lemma inserts_NoDup {A} (x : A) l : ~ In x l -> NoDup (inserts x l).
Proof.
  induction l as [|y l IH]; intros N; cbn [inserts]; [constructor; [tauto|constructor]|]. constructor.
  - intros I. apply in_map_iff in I as (m & E & _). injection E as -> _. apply N. now left.
  - apply Injective_map_NoDup; [intros u v E; now injection E|]. apply IH. intros I. apply N. now right.
Qed.

Lemma app_mid_inj {A} (x : A) l1 l2 m1 m2 : ~ In x (l1 ++ l2) -> ~ In x (m1 ++ m2) -> l1 ++ x :: l2 = m1 ++ x :: m2 -> l1 ++ l2 = m1 ++ m2.
Proof.
  revert m1. induction l1 as [|y l1 IH]; intros [|z m1] N M E; simpl in *.
  - now injection E.
  - injection E as -> _. exfalso. apply M. now left.
  - injection E as -> _. exfalso. apply N. now left.
  - injection E as -> E. f_equal. apply IH; auto; tauto.
Qed.

Lemma perms_NoDup {A} (l : list A) : NoDup l -> NoDup (perms l).
Proof.
  induction l as [|x l IH]; intros Nd; cbn [perms]; [constructor; [tauto|constructor]|]. inversion Nd as [|? ? Nx Nl]; subst.
  assert (forall m, In m (perms l) -> ~ In x m) as Hx by (intros m I J; apply perms_spec in I; apply Nx; eapply Permutation_in; [symmetry; exact I|exact J]).
  specialize (IH Nl). revert IH Hx. generalize (perms l) as F. induction F as [|m F IHF]; intros NF Hx; cbn [flat_map]; [constructor|]. inversion NF as [|? ? Nm NF']; subst.

  assert (NoDup (inserts x m)) as N1 by (apply inserts_NoDup, Hx; now left).
  assert (NoDup (flat_map (inserts x) F)) as N2 by (apply IHF; auto; intros; apply Hx; now right).
  assert (forall s, In s (inserts x m) -> ~ In s (flat_map (inserts x) F)) as D.
  { intros s I J. apply in_flat_map in J as (m' & Im & J). apply inserts_spec in I as (l1 & l2 & E1 & ->). apply inserts_spec in J as (k1 & k2 & E2 & E3).
    apply app_mid_inj in E3; [|rewrite <- E1; apply Hx; now left|rewrite <- E2; apply Hx; now right]. apply Nm. rewrite E1, E3, <- E2. exact Im. }
  clear - N1 N2 D. induction N1 as [|s L Ns NL IH]; simpl; auto. constructor.
  - intros I. apply in_app_or in I as [I|I]; [tauto|]. apply (D s); [now left|exact I].
  - apply IH. intros; apply D; now right.
Qed.

(** ** Relabelling *)
Definition sw (x y z : nat) : nat := if z =? x then y else if z =? y then x else z.
Lemma sw_inj x y : Injective (sw x y).
Proof. intros u v. unfold sw. repeat match goal with |- context [if ?b then _ else _] => destruct b eqn:?E end; rewrite ?Nat.eqb_eq, ?Nat.eqb_neq in *; lia. Qed.
Lemma sw_l x y : sw x y x = y.
Proof. unfold sw. now rewrite Nat.eqb_refl. Qed.
Lemma sw_other x y z : z <> x -> z <> y -> sw x y z = z.
Proof. intros. unfold sw. destruct (Nat.eqb_spec z x); [easy|]. destruct (Nat.eqb_spec z y); easy. Qed.
Lemma sw_lt n x y z : x < n -> y < n -> z < n -> sw x y z < n.
Proof. intros. unfold sw. destruct (z =? x), (z =? y); auto. Qed.

Lemma relabel_seq n (f : nat -> nat) : Injective f -> (forall z, z < n -> f z < n) -> Permutation (map f (seq 0 n)) (seq 0 n).
Proof.
  intros I B. apply NoDup_Permutation_bis; [apply Injective_map_NoDup; [exact I|apply seq_NoDup]|now rewrite map_length|].
  intros z J. apply in_map_iff in J as (w & <- & J). apply in_seq in J. apply in_seq. specialize (B w). lia.
Qed.

Lemma map_inj {A B} (f : A -> B) : Injective f -> Injective (map f).
Proof. intros I u. induction u as [|x u IH]; intros [|y v] E; simpl in E; try discriminate; auto. injection E as E1 E2. rewrite (I _ _ E1), (IH _ E2). reflexivity. Qed.

Lemma relabel_perms n (f : nat -> nat) : Injective f -> (forall z, z < n -> f z < n) -> Permutation (map (map f) (perms (seq 0 n))) (perms (seq 0 n)).
Proof.
  intros I B. apply NoDup_Permutation_bis.
  - apply Injective_map_NoDup; [now apply map_inj|]. apply perms_NoDup, seq_NoDup.
  - now rewrite map_length.
  - intros s J. apply in_map_iff in J as (t & <- & J). apply perms_spec in J. apply perms_spec. transitivity (map f (seq 0 n)); [symmetry; now apply relabel_seq|]. now apply Permutation_map.
Qed.

(** ** Moments *)
Section Moments.
  Local Open Scope R_scope.
  Variable n : nat.
  Let F := perms (seq 0 n).
  Let NF := INR (fact n).
  Local Notation at_ s i := (nth i s 0%nat).
  Definition ind (b : bool) : R := if b then 1 else 0.

  Lemma NF_pos : 0 < NF.
  Proof. apply lt_0_INR, lt_O_fact. Qed.
  Lemma F_length : INR (length F) = NF.
  Proof. unfold F, NF. now rewrite perms_length, seq_length. Qed.
  Lemma F_len s : In s F -> length s = n.
  Proof. intros I. apply perms_spec, Permutation_length in I. now rewrite seq_length in I. Qed.
  Lemma F_at s i : In s F -> (i < n)%nat -> (at_ s i < n)%nat.
  Proof. intros I L. pose proof (F_len s I). apply perms_spec in I. assert (In (at_ s i) (seq 0 n)) as J by (eapply Permutation_in; [symmetry; exact I|apply nth_In; lia]). apply in_seq in J. lia. Qed.
  Lemma F_neq s i j : In s F -> (i < n)%nat -> (j < n)%nat -> i <> j -> at_ s i <> at_ s j.
  Proof.
    intros I Li Lj N E. pose proof (F_len s I). apply perms_spec in I.
    pose proof (Permutation_NoDup I (seq_NoDup n 0)) as Nd. apply N. apply (proj1 (NoDup_nth s 0%nat) Nd); lia || auto.
  Qed.

  Lemma F_relabel (f : nat -> nat) (g : list nat -> R) : Injective f -> (forall z, (z < n)%nat -> (f z < n)%nat) -> lsum (fun s => g (map f s)) F = lsum g F.
  Proof. intros I B. rewrite <- (lsum_map g (map f)). apply lsum_perm. now apply relabel_perms. Qed.

  Lemma at_map f s i : (i < length s)%nat -> at_ (map f s) i = f (at_ s i).
  Proof. intros L. rewrite (nth_indep _ 0%nat (f 0%nat)) by now rewrite map_length. apply map_nth. Qed.

  Lemma eqb_inj f x y : Injective f -> (f x =? f y)%nat = (x =? y)%nat.
  Proof. intros I. destruct (Nat.eqb_spec x y) as [->|N]; [apply Nat.eqb_refl|]. apply Nat.eqb_neq. intros E. apply N, I, E. Qed.

  (** P(s_i = x) = 1/n *)
  Lemma first_moment i x : (i < n)%nat -> (x < n)%nat -> lsum (fun s => ind (at_ s i =? x)%nat) F = NF / INR n.
  Proof.
    intros Li Lx.
    assert (forall y, (y < n)%nat -> lsum (fun s => ind (at_ s i =? y)%nat) F = lsum (fun s => ind (at_ s i =? x)%nat) F) as C.
    { intros y Ly. rewrite <- (F_relabel (sw x y)); [|apply sw_inj|intros; now apply sw_lt]. apply lsum_ext. intros s I. rewrite at_map by (rewrite (F_len s I); lia).
      rewrite <- (eqb_inj (sw x y) (at_ s i) x) by apply sw_inj. now rewrite sw_l. }
    assert (rsum n (fun y => lsum (fun s => ind (at_ s i =? y)%nat) F) = NF) as S.
    { unfold rsum. rewrite lsum_swap. rewrite (lsum_ext _ (fun _ => 1)).
      - rewrite lsum_const, F_length. ring.
      - intros s I. unfold ind. exact (rsum_delta' n (at_ s i) (fun _ => 1) (F_at s i I Li)). }
    rewrite (rsum_ext n _ _ C), rsum_const in S. assert (0 < INR n) by (apply lt_0_INR; lia). rewrite <- S. field. lra.
  Qed.

  (** P(s_i = x, s_j = y) = 1/(n(n-1)) *)
  Lemma second_moment i j x y : (i < n)%nat -> (j < n)%nat -> (x < n)%nat -> (y < n)%nat -> i <> j -> x <> y ->
    lsum (fun s => ind (at_ s i =? x)%nat * ind (at_ s j =? y)%nat) F = NF / (INR n * (INR n - 1)).
  Proof.
    intros Li Lj Lx Ly Nij Nxy. set (C := fun u v => lsum (fun s => ind (at_ s i =? u)%nat * ind (at_ s j =? v)%nat) F).
    assert (forall u v, (u < n)%nat -> (v < n)%nat -> u <> v -> C u v = C x y) as HC.
    { intros u v Lu Lv Nuv. set (y1 := sw x u y). assert (y1 <> u) as N1 by (unfold y1; intros E; apply Nxy; apply (sw_inj x u); now rewrite sw_l).
      assert (y1 < n)%nat as L1 by (apply sw_lt; auto). set (f := fun z => sw y1 v (sw x u z)).
      assert (Injective f) as If by (intros z z' E; apply (sw_inj x u), (sw_inj y1 v), E).
      assert (f x = u) as Ex by (unfold f; rewrite sw_l; apply sw_other; auto).
      assert (f y = v) as Ey by (unfold f; fold y1; apply sw_l).
      unfold C. rewrite <- (F_relabel f) by (auto; intros; unfold f; apply sw_lt; auto; apply sw_lt; auto). apply lsum_ext. intros s I.
      rewrite !at_map by (rewrite (F_len s I); lia). rewrite <- (eqb_inj f (at_ s i) x), <- (eqb_inj f (at_ s j) y), Ex, Ey by auto. reflexivity. }
    assert (forall u, (u < n)%nat -> C u u = 0) as HD.
    { intros u Lu. unfold C. apply lsum_0. intros s I. unfold ind. destruct (Nat.eqb_spec (at_ s i) u) as [E|]; [|ring]. destruct (Nat.eqb_spec (at_ s j) u) as [E'|]; [|ring].
      exfalso. apply (F_neq s i j I Li Lj Nij). congruence. }
    assert (rsum n (fun u => rsum n (fun v => C u v)) = NF) as S.
    { unfold C. transitivity (lsum (fun s => rsum n (fun u => rsum n (fun v => ind (at_ s i =? u)%nat * ind (at_ s j =? v)%nat))) F).
      - unfold rsum. symmetry. rewrite lsum_swap. apply lsum_ext. intros u _. now rewrite lsum_swap.
      - rewrite (lsum_ext _ (fun _ => 1)); [rewrite lsum_const, F_length; ring|]. intros s I.
        rewrite (rsum_ext n _ (fun u => if (at_ s i =? u)%nat then 1 else 0)).
        + exact (rsum_delta' n (at_ s i) (fun _ => 1) (F_at s i I Li)).
        + intros u Lu. rewrite rsum_scal. transitivity (ind (at_ s i =? u)%nat * 1); [f_equal|unfold ind; ring].
          exact (rsum_delta' n (at_ s j) (fun _ => 1) (F_at s j I Lj)). }
    assert (rsum n (fun u => rsum n (fun v => C u v)) = INR n * (INR n - 1) * C x y) as S2.
    { rewrite (rsum_ext n _ (fun _ => (INR n - 1) * C x y)); [rewrite rsum_const; ring|]. intros u Lu.
      rewrite (rsum_ext n _ (fun v => C x y - (if (v =? u)%nat then C x y else 0))).
      - rewrite rsum_minus, rsum_const. rewrite (rsum_delta n u (fun _ => C x y)) by auto. ring.
      - intros v Lv. destruct (Nat.eqb_spec v u) as [->|N]; [rewrite HD by auto; ring|]. rewrite HC by auto. ring. }
    fold (C x y). rewrite S2 in S. assert (2 <= INR n) by (change 2 with (INR 2); apply le_INR; lia). rewrite <- S. field. lra.
  Qed.

  (** number of pairs of different positions below two bounds *)
  Lemma pair_count m m' : rsum m (fun i => rsum m' (fun j => ind (negb (i =? j)%nat))) = INR m * INR m' - INR (Nat.min m m').
  Proof.
    assert (forall i, rsum m' (fun j => ind (negb (i =? j)%nat)) = INR m' - ind (i <? m')%nat) as A.
    { intros i. rewrite (rsum_ext m' _ (fun j => 1 - (if (i =? j)%nat then 1 else 0))) by (intros j _; unfold ind; destruct (i =? j)%nat; simpl; ring).
      rewrite rsum_minus, rsum_const, Rmult_1_r. f_equal. unfold ind. destruct (Nat.ltb_spec i m') as [L|L].
      - exact (rsum_delta' m' i (fun _ => 1) L).
      - apply rsum_zero. intros j Lj. destruct (Nat.eqb_spec i j); [lia|reflexivity]. }
    rewrite (rsum_ext m _ _ (fun i _ => A i)), rsum_minus, rsum_const. f_equal. induction m as [|m IH]; [reflexivity|]. rewrite rsum_S, IH. unfold ind.
    destruct (Nat.ltb_spec m m').
    - replace (Nat.min (S m) m') with (S (Nat.min m m')) by lia. rewrite S_INR. ring.
    - replace (Nat.min (S m) m') with (Nat.min m m') by lia. ring.
  Qed.

  (** ** Being among the first m *)
  Definition within (s : list nat) (x m : nat) : R := rsum m (fun i => ind (at_ s i =? x)%nat).

  Lemma within_mean x m : (x < n)%nat -> (m <= n)%nat -> lsum (fun s => within s x m) F = NF * (INR m / INR n).
  Proof.
    intros Lx Lm. unfold within, rsum. rewrite lsum_swap. rewrite (lsum_ext _ (fun _ => NF / INR n)).
    - rewrite lsum_const, seq_length. unfold Rdiv. ring.
    - intros i I. apply in_seq in I. apply first_moment; lia.
  Qed.

  Lemma within_pair x y m m' : (x < n)%nat -> (y < n)%nat -> x <> y -> (m <= n)%nat -> (m' <= n)%nat ->
    lsum (fun s => within s x m * within s y m') F <= NF * (INR m / INR n * (INR m' / INR n)).
  Proof.
    intros Lx Ly N Lm Lm'.
    assert (2 <= INR n) as Hn by (change 2 with (INR 2); apply le_INR; lia). pose proof NF_pos as HF.
    assert (lsum (fun s => within s x m * within s y m') F = NF / (INR n * (INR n - 1)) * (INR m * INR m' - INR (Nat.min m m'))) as ->.
    { rewrite <- pair_count. transitivity (lsum (fun s => rsum m (fun i => rsum m' (fun j => ind (at_ s i =? x)%nat * ind (at_ s j =? y)%nat))) F).
      { apply lsum_ext. intros s _. unfold within. rewrite <- rsum_scal_r. apply rsum_ext. intros i _. now rewrite rsum_scal. }
      transitivity (rsum m (fun i => rsum m' (fun j => lsum (fun s => ind (at_ s i =? x)%nat * ind (at_ s j =? y)%nat) F))).
      { unfold rsum. rewrite lsum_swap. apply lsum_ext. intros i _. now rewrite lsum_swap. }
      rewrite <- rsum_scal. apply rsum_ext. intros i Li. rewrite <- rsum_scal. apply rsum_ext. intros j Lj. destruct (Nat.eqb_spec i j) as [->|Nij].
      - unfold ind at 3. simpl. rewrite Rmult_0_r. apply lsum_0. intros s _. unfold ind. destruct (Nat.eqb_spec (at_ s j) x) as [E|]; [|ring].
        destruct (Nat.eqb_spec (at_ s j) y) as [E'|]; [|ring]. exfalso. apply N. congruence.
      - unfold ind at 3. simpl. rewrite Rmult_1_r. apply second_moment; lia. }
    assert (INR m * INR m' <= INR n * INR (Nat.min m m')) as K.
    { rewrite <- !mult_INR. apply le_INR. destruct (Nat.min_spec m m') as [[_ ->]|[_ ->]]; nia. }
    set (A := INR m) in *. set (B := INR m') in *. set (N' := INR n) in *. set (M := INR (Nat.min m m')) in *.
    replace (NF / (N' * (N' - 1)) * (A * B - M)) with (NF * ((A * B - M) / (N' * (N' - 1)))) by (field; lra). apply Rmult_le_compat_l; [lra|].
    replace (A / N' * (B / N')) with (A * B / (N' * N')) by (field; lra).
    apply (Rmult_le_reg_r (N' * (N' - 1) * N')); [repeat apply Rmult_lt_0_compat; lra|].
    replace ((A * B - M) / (N' * (N' - 1)) * (N' * (N' - 1) * N')) with (A * B * N' - N' * M) by (field; lra).
    replace (A * B / (N' * N') * (N' * (N' - 1) * N')) with (A * B * N' - A * B) by (field; lra). lra.
  Qed.

  Lemma within_sq s x m : In s F -> (m <= n)%nat -> within s x m * within s x m = within s x m.
  Proof.
    intros I Lm. assert (within s x m = 0 \/ within s x m = 1) as [->| ->]; [|ring|ring].
    unfold within. clear NF. induction m as [|m IH]; [left; reflexivity|]. rewrite rsum_S. unfold ind at 2 4. destruct (Nat.eqb_spec (at_ s m) x) as [E|N].
    - right. rewrite rsum_zero; [ring|]. intros i Li. unfold ind. destruct (Nat.eqb_spec (at_ s i) x) as [E'|]; auto. exfalso. apply (F_neq s i m I); lia || congruence.
    - rewrite Rplus_0_r. apply IH. lia.
  Qed.

  (** ** A weighted sum of such indicators *)
  Variable w : nat -> R.
  Variable m : nat -> nat.
  Hypothesis w_nonneg : forall x, (x < n)%nat -> 0 <= w x.
  Hypothesis m_le : forall x, (x < n)%nat -> (m x <= n)%nat.
  Definition wsumX (s : list nat) : R := rsum n (fun x => w x * within s x (m x)).
  Definition meanX : R := rsum n (fun x => w x * (INR (m x) / INR n)).

  Lemma wsumX_mean : lsum wsumX F = NF * meanX.
  Proof.
    unfold wsumX, meanX, rsum. rewrite lsum_swap, <- lsum_scal. apply lsum_ext. intros x I. apply in_seq in I. rewrite lsum_scal, within_mean by (auto with arith; try apply m_le; lia). ring.
  Qed.

  Lemma wsumX_square : lsum (fun s => wsumX s * wsumX s) F <= NF * (meanX * meanX + rsum n (fun x => w x * w x * (INR (m x) / INR n))).
  Proof.
    assert (lsum (fun s => wsumX s * wsumX s) F = rsum n (fun x => rsum n (fun y => w x * w y * lsum (fun s => within s x (m x) * within s y (m y)) F))) as ->.
    { transitivity (lsum (fun s => rsum n (fun x => rsum n (fun y => w x * w y * (within s x (m x) * within s y (m y))))) F).
      - apply lsum_ext. intros s _. unfold wsumX at 1. rewrite <- rsum_scal_r. apply rsum_ext. intros x _. unfold wsumX. rewrite <- rsum_scal. apply rsum_ext. intros y _. ring.
      - unfold rsum. rewrite lsum_swap. apply lsum_ext. intros x _. rewrite lsum_swap. apply lsum_ext. intros y _. now rewrite lsum_scal. }
    assert (NF * (meanX * meanX + rsum n (fun x => w x * w x * (INR (m x) / INR n))) =
      rsum n (fun x => rsum n (fun y => NF * (w x * (INR (m x) / INR n) * (w y * (INR (m y) / INR n))) + (if (y =? x)%nat then NF * (w x * w x * (INR (m x) / INR n)) else 0)))) as ->.
    { rewrite Rmult_plus_distr_l. transitivity (rsum n (fun x => NF * (w x * (INR (m x) / INR n) * meanX) + NF * (w x * w x * (INR (m x) / INR n)))).
      - rewrite rsum_plus, !rsum_scal, rsum_scal_r. fold meanX. ring.
      - apply rsum_ext. intros x Lx. rewrite rsum_plus. f_equal; [now rewrite !rsum_scal|]. symmetry. exact (rsum_delta n x (fun _ => NF * (w x * w x * (INR (m x) / INR n))) Lx). }
    apply rsum_le. intros x Lx. apply rsum_le. intros y Ly. pose proof NF_pos. assert (0 < INR n) as Hn by (apply lt_0_INR; lia).
    assert (0 <= INR (m x) / INR n) by (apply Rmult_le_pos; [apply pos_INR|left; now apply Rinv_0_lt_compat]).
    assert (0 <= INR (m y) / INR n) by (apply Rmult_le_pos; [apply pos_INR|left; now apply Rinv_0_lt_compat]).
    pose proof (w_nonneg x Lx). pose proof (w_nonneg y Ly). destruct (Nat.eqb_spec y x) as [->|N].
    - rewrite (lsum_ext _ (fun s => within s x (m x))) by (intros s I; apply within_sq; auto). rewrite within_mean by auto.
      assert (0 <= NF * (w x * (INR (m x) / INR n) * (w x * (INR (m x) / INR n)))) by (apply Rmult_le_pos; [lra|apply Rmult_le_pos; now apply Rmult_le_pos]).
      replace (w x * w x * (NF * (INR (m x) / INR n))) with (NF * (w x * w x * (INR (m x) / INR n))) by ring. lra.
    - rewrite Rplus_0_r. apply Rle_trans with (w x * w y * (NF * (INR (m x) / INR n * (INR (m y) / INR n)))); [|right; ring].
      apply Rmult_le_compat_l; [now apply Rmult_le_pos|]. apply within_pair; auto.
  Qed.

  Lemma wsumX_variance : lsum (fun s => (wsumX s - meanX) ^ 2) F <= NF * rsum n (fun x => w x * w x * (INR (m x) / INR n)).
  Proof.
    pose proof wsumX_square as S. pose proof wsumX_mean as M.
    rewrite (lsum_ext _ (fun s => wsumX s * wsumX s - 2 * meanX * wsumX s + meanX * meanX)) by (intros; ring).
    rewrite lsum_plus, lsum_minus, lsum_scal, lsum_const, F_length, M. lra.
  Qed.

  (** Chebyshev: how many orders are off by more than t *)
  Lemma wsumX_chebyshev V t : 0 < t -> rsum n (fun x => w x * w x * (INR (m x) / INR n)) <= V ->
    INR (length (filter (fun s => if Rle_dec (Rabs (wsumX s - meanX)) t then false else true) F)) <= NF * (V / t ^ 2).
  Proof.
    intros Ht HV. pose proof NF_pos. assert (0 < t ^ 2) as Ht2 by now apply pow_lt.
    apply (Rmult_le_reg_r (t ^ 2)); auto. replace (NF * (V / t ^ 2) * t ^ 2) with (NF * V) by (field; lra).
    apply Rle_trans with (NF * rsum n (fun x => w x * w x * (INR (m x) / INR n))); [|apply Rmult_le_compat_l; lra].
    eapply Rle_trans; [|exact wsumX_variance]. generalize F as L. induction L as [|s L IH]; [simpl; lra|]. cbn [filter lsum].
    destruct (Rle_dec (Rabs (wsumX s - meanX)) t) as [Hle|Hn].
    - pose proof (pow2_ge_0 (wsumX s - meanX)). lra.
    - cbn [length]. rewrite S_INR. assert (t ^ 2 <= (wsumX s - meanX) ^ 2); [|lra]. rewrite <- (pow2_abs (wsumX s - meanX)). apply pow_incr. lra.
  Qed.
End Moments.
