(** The Mersenne Twister of KMeansRex: conformance with mt19937 and range of the words. *)
From Verif Require Import Base Num Sparse Graph Spectrum KMeans.
From Coq Require Import ZArith Lia.
Local Open Scope nat_scope.

(** The word drawn after [k] earlier draws. *)
Fixpoint mt_nth (s : mt_state) (k : nat) : Z :=
  match k with 0 => snd (mt_draw s) | S k => mt_nth (fst (mt_draw s)) k end.
Fixpoint mt_after (s : mt_state) (k : nat) : mt_state :=
  match k with 0 => s | S k => mt_after (fst (mt_draw s)) k end.

Definition word32 (x : Z) : Prop := (0 <= x < 2 ^ 32)%Z.
Lemma word_bits x : (0 <= x)%Z -> (word32 x <-> forall i, (32 <= i)%Z -> Z.testbit x i = false).
Proof.
  intros Hx. split.
  - intros [_ H] i Hi. destruct (Z.eq_dec x 0) as [->|Hne]; [apply Z.bits_0|].
    apply Z.bits_above_log2; [lia|]. apply Z.lt_le_trans with 32%Z; [apply Z.log2_lt_pow2; lia|lia].
  - intros H. split; auto. destruct (Z_lt_ge_dec x (2 ^ 32)) as [|Hge]; auto. exfalso.
    assert (32 <= Z.log2 x)%Z as L by (apply Z.log2_le_pow2; lia).
    pose proof (Z.bit_log2 x ltac:(lia)) as B. rewrite (H _ L) in B. discriminate.
Qed.
Lemma word_lxor x y : word32 x -> word32 y -> word32 (Z.lxor x y).
Proof.
  intros Hx Hy. apply word_bits; [apply Z.lxor_nonneg; unfold word32 in *; lia|]. intros i Hi. rewrite Z.lxor_spec.
  rewrite (proj1 (word_bits x ltac:(unfold word32 in *; lia)) Hx i Hi), (proj1 (word_bits y ltac:(unfold word32 in *; lia)) Hy i Hi). reflexivity.
Qed.
Lemma word_lor x y : word32 x -> word32 y -> word32 (Z.lor x y).
Proof.
  intros Hx Hy. apply word_bits; [apply Z.lor_nonneg; unfold word32 in *; lia|]. intros i Hi. rewrite Z.lor_spec.
  rewrite (proj1 (word_bits x ltac:(unfold word32 in *; lia)) Hx i Hi), (proj1 (word_bits y ltac:(unfold word32 in *; lia)) Hy i Hi). reflexivity.
Qed.
Lemma word_land x m : word32 m -> word32 (Z.land x m).
Proof.
  intros Hm. apply word_bits; [apply Z.land_nonneg; unfold word32 in *; lia|]. intros i Hi. rewrite Z.land_spec.
  rewrite (proj1 (word_bits m ltac:(unfold word32 in *; lia)) Hm i Hi). apply andb_false_r.
Qed.
Lemma word_shiftr x k : (0 <= k)%Z -> word32 x -> word32 (Z.shiftr x k).
Proof.
  intros Hk [H0 H1]. rewrite Z.shiftr_div_pow2 by lia. split; [apply Z.div_pos; lia|].
  apply Z.le_lt_trans with x; auto. apply Z.div_le_upper_bound; nia.
Qed.
Lemma word_mask : word32 mask32. Proof. unfold word32, mask32. lia. Qed.

Definition mt_ok (s : mt_state) : Prop := length (mt_words s) = 624 /\ Forall word32 (mt_words s) /\ mt_pos s <= 624.
Lemma temper_word y : word32 y -> word32 (mt_temper y).
Proof.
  intros Hy. unfold mt_temper. cbv zeta.
  assert (word32 (Z.lxor y (Z.shiftr y 11))) as H1 by (apply word_lxor; auto; apply word_shiftr; auto; lia).
  set (y1 := Z.lxor y (Z.shiftr y 11)) in *.
  assert (word32 (Z.lxor y1 (Z.land (Z.shiftl y1 7) 2636928640))) as H2
    by (apply word_lxor; auto; apply word_land; unfold word32; lia).
  set (y2 := Z.lxor y1 _) in *.
  assert (word32 (Z.lxor y2 (Z.land (Z.shiftl y2 15) 4022730752))) as H3
    by (apply word_lxor; auto; apply word_land; unfold word32; lia).
  set (y3 := Z.lxor y2 _) in *. apply word_lxor; auto. apply word_shiftr; auto; lia.
Qed.
Lemma twist_word ws kk : length ws = 624 -> Forall word32 ws -> word32 (mt_twist_word ws kk).
Proof.
  intros L F. assert (forall i, word32 (nth i ws 0%Z)) as G.
  { intros i. destruct (Nat.lt_ge_cases i (length ws)) as [Hi|Hi]; [now apply Forall_nth|]. rewrite nth_overflow by auto. unfold word32; lia. }
  unfold mt_twist_word. cbv zeta. apply word_lxor; [apply word_lxor; [apply G|]|].
  - apply word_shiftr; [lia|]. apply word_lor; apply word_land; unfold word32; lia.
  - destruct (Z.odd _); unfold word32; lia.
Qed.
Lemma set_nth_length {A} i (x : A) l : length (set_nth i x l) = length l.
Proof. revert i; induction l as [|y l IH]; intros [|i]; cbn; auto. Qed.
Lemma set_nth_Forall {A} (P : A -> Prop) i x l : P x -> Forall P l -> Forall P (set_nth i x l).
Proof. intros Hx F. revert i; induction F as [|y l Hy F IH]; intros [|i]; cbn; constructor; auto. Qed.
Lemma twist_ok ws : length ws = 624 -> Forall word32 ws -> length (mt_twist ws) = 624 /\ Forall word32 (mt_twist ws).
Proof.
  unfold mt_twist. generalize (seq 0 624) as ks. intros ks. revert ws. induction ks as [|k ks IH]; intros ws L F; cbn [fold_left]; auto.
  apply IH; [now rewrite set_nth_length|]. apply set_nth_Forall; auto. now apply twist_word.
Qed.
Lemma fill_ok fuel i p : length (mt_fill fuel i p) = fuel /\ Forall word32 (mt_fill fuel i p).
Proof.
  revert i p; induction fuel as [|f IH]; intros i p; cbn [mt_fill length]; auto.
  destruct (IH (S i) (mt_next_seed p i)) as [L F]. split; [now rewrite L|]. constructor; auto. apply word_land, word_mask.
Qed.
Lemma init_ok seed : mt_ok (mt_init seed).
Proof.
  unfold mt_init, mt_ok. destruct (fill_ok 623 1 (Z.land seed mask32)) as [L F]. cbn [mt_words mt_pos].
  split; [cbn [length]; now rewrite L|]. split; [constructor; auto; apply word_land, word_mask|auto].
Qed.
Lemma draw_ok s : mt_ok s -> mt_ok (fst (mt_draw s)) /\ word32 (snd (mt_draw s)).
Proof.
  intros (L & F & P). unfold mt_draw.
  set (s' := if 624 <=? mt_pos s then mkMT (mt_twist (mt_words s)) 0 else s).
  assert (length (mt_words s') = 624 /\ Forall word32 (mt_words s') /\ mt_pos s' < 624) as (L' & F' & P').
  { unfold s'. destruct (Nat.leb_spec 624 (mt_pos s)) as [H|H].
    - destruct (twist_ok _ L F) as [L2 F2]. cbn [mt_words mt_pos]. split; [exact L2|]. split; [exact F2|]. lia.
    - auto. }
  cbn [fst snd]. split.
  - unfold mt_ok. cbn [mt_words mt_pos]. auto.
  - apply temper_word. apply Forall_nth; auto. rewrite L'. exact P'.
Qed.
Theorem mt_range seed k : word32 (mt_nth (mt_init seed) k).
Proof.
  generalize (init_ok seed). generalize (mt_init seed) as s. induction k as [|k IH]; intros s Hs; cbn [mt_nth]; [now apply draw_ok|].
  apply IH. now apply draw_ok.
Qed.
(** ISO C++ [rand.predef]: the 10000th consecutive word of mt19937 with its default seed 5489 is 4123659995. *)
Theorem mt_conforms : mt_nth (mt_init 5489) (100 * 100 - 1) = 4123659995%Z.
Proof. vm_compute. reflexivity. Qed.
