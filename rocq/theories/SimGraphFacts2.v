(** The edge array of approximate_similarity_graph: writes of all schedules, symmetry. *)
From Verif Require Import Base Num Sparse SparseFacts Graph GraphSpec GraphFacts GraphProps4 Cluster ThreadPool ThreadPoolFacts ThreadPoolTop Kde KdeFacts KdeFacts2 SimGraph SimGraphFacts.
From Coq Require Import ZArith Permutation.
Local Open Scope nat_scope.

Lemma combine_app_seq {B} (l1 l2 : list B) a k m : length l1 = k -> combine (seq a (k + m)) (l1 ++ l2) = combine (seq a k) l1 ++ combine (seq (a + k) m) l2.
Proof. revert a k. induction l1 as [|x l1 IH]; intros a [|k] E; try discriminate; [now rewrite Nat.add_0_r|]. simpl. f_equal. rewrite IH by (simpl in E; congruence). now rewrite Nat.add_succ_r. Qed.

Lemma flat_map_length_const {A B} (f : A -> list B) k l : (forall x, In x l -> length (f x) = k) -> length (flat_map f l) = length l * k.
Proof. induction l as [|x l IH]; intros A1; simpl; auto. rewrite app_length, (A1 x) by now left. rewrite IH by (intros; apply A1; now right). reflexivity. Qed.

Section Writes.
  Context {W : Type} `{Num W} `{KNum W}.
  Variable epn : nat.
  Variable w5 : W.
  Variable degrees : list W.
  Variable samples : nat -> list nat.
  Notation rw := (row_writes epn w5 degrees samples).
  Notation cw := (chunk_writes epn w5 degrees samples).

  Lemma row_writes_length i : length (rw i) = 2 * epn.
  Proof. unfold row_writes. rewrite (flat_map_length_const _ 2) by reflexivity. rewrite seq_length. lia. Qed.

  Definition slots (i : nat) : list (nat * (nat * nat * W)) := combine (seq (2 * (i * epn)) (2 * epn)) (rw i).

  Lemma chunk_writes_slots len : forall st, cw (seq st len) st = flat_map slots (seq st len).
  Proof.
    unfold chunk_writes. induction len as [|len IH]; intros st; auto. cbn [seq length flat_map]. 
    replace (S (length (seq (S st) len)) * (2 * epn)) with (2 * epn + length (seq (S st) len) * (2 * epn)) by lia.
    rewrite combine_app_seq by apply row_writes_length. f_equal. rewrite <- IH. f_equal. f_equal. lia.
  Qed.

  Lemma slots_In i k v : In (k, v) (slots i) -> 2 * (i * epn) <= k < 2 * (i * epn) + 2 * epn.
  Proof. intros I. apply in_combine_l in I. apply in_seq in I. lia. Qed.

  Lemma fold_writes (vals l0 mid : list (nat * nat * W)) : length mid = length vals ->
    fold_left (fun e x => write x e) (combine (seq (length l0) (length vals)) vals) (l0 ++ mid) = l0 ++ vals.
  Proof.
    revert l0 mid. induction vals as [|v vals IH]; intros l0 [|x mid] E; try discriminate; auto. cbn [length seq combine fold_left].
    assert (write (length l0, v) (l0 ++ x :: mid) = (l0 ++ [v]) ++ mid) as ->.
    { unfold write. cbn [fst snd]. clear. induction l0 as [|y l0 IH]; simpl; auto. now rewrite IH. }
    change (v :: vals) with ([v] ++ vals). rewrite app_assoc. rewrite <- (IH (l0 ++ [v]) mid) by (simpl in E; congruence).
    rewrite app_length. simpl. now rewrite Nat.add_1_r.
  Qed.

  Lemma all_writes n z : fold_left (fun e x => write x e) (flat_map slots (seq 0 n)) (repeat z (2 * (n * epn))) = flat_map rw (seq 0 n).
  Proof.
    rewrite <- chunk_writes_slots. unfold chunk_writes. rewrite seq_length.
    assert (length (flat_map rw (seq 0 n)) = n * (2 * epn)) as L. { rewrite (flat_map_length_const _ (2 * epn)), seq_length; auto. intros; apply row_writes_length. }
    pose proof (fold_writes (flat_map rw (seq 0 n)) [] (repeat z (2 * (n * epn)))) as F. rewrite L, repeat_length in F. cbn [app length] in F.
    apply F. lia.
  Qed.

  (** every schedule of the pool leaves the array that a sequential run leaves *)
  Lemma parallel_writes n T z s : 1 <= T ->
    reach (fun c => map write (cw (chunk_rows n T (n / T) c) (chunk_start (n / T) c))) T true (par_prog T) (repeat z (2 * (n * epn))) s -> m s = MEnd ->
    sh s = flat_map rw (seq 0 n).
  Proof.
    intros HT R E. rewrite (final_shared_in _ T true (par_prog T) _ ltac:(rewrite cmd_pushes_par; apply seq_NoDup) (waited_par T true T) s R E).
    - rewrite cmd_pushes_par. rewrite <- (all_writes n z). rewrite <- (concat_chunks n T HT), flat_map_concat_list, map_map.
      generalize (repeat z (2 * (n * epn))). generalize (seq 0 T) as l. induction l as [|c l IH]; intros e; auto. cbn [fold_left map concat]. rewrite fold_left_app, <- IH. f_equal.
      unfold run_task. unfold chunk_rows at 2. rewrite <- chunk_writes_slots. fold (chunk_rows n T (n / T) c). generalize (cw (chunk_rows n T (n / T) c) (chunk_start (n / T) c)) as ws. clear.
      intros ws. revert e. induction ws as [|x ws IH]; intros e; simpl; auto.
    - intros t t' f f' e N I I' If If'. rewrite cmd_pushes_par in I, I'. apply in_seq in I, I'. apply in_map_iff in If as ([k v] & <- & If). apply in_map_iff in If' as ([k' v'] & <- & If').
      unfold chunk_rows in If, If'. rewrite chunk_writes_slots in If, If'. apply in_flat_map in If as (i & Hi & If). apply in_flat_map in If' as (i' & Hi' & If'). apply slots_In in If, If'.
      apply in_seq in Hi, Hi'. unfold write. apply upd_nth_comm. cbn [fst].
      assert (i <> i').
      { unfold chunk_start, chunk_len in Hi, Hi'. set (cs := n / T) in *. clearbody cs. clear - Hi Hi' N I I'. assert (t < t' \/ t' < t) as [L|L] by lia.
        - assert (t <> T - 1) as Nt by lia. apply Nat.eqb_neq in Nt. rewrite Nt in Hi. nia.
        - assert (t' <> T - 1) as Nt by lia. apply Nat.eqb_neq in Nt. rewrite Nt in Hi'. nia. }
      nia.
  Qed.

  Lemma parallel_writes_exist n T z : 1 <= T -> exists s,
    reach (fun c => map write (cw (chunk_rows n T (n / T) c) (chunk_start (n / T) c))) T true (par_prog T) (repeat z (2 * (n * epn))) s /\ m s = MEnd.
  Proof.
    intros HT. destruct (can_finish (fun c => map write (cw (chunk_rows n T (n / T) c) (chunk_start (n / T) c))) T true (par_prog T) (repeat z (2 * (n * epn))) (init T (par_prog T) (repeat z (2 * (n * epn))))) as (k & b & Ex & Eb).
    - rewrite cmd_pushes_par. apply seq_NoDup.
    - auto.
    - apply gets_ok_par.
    - constructor.
    - exists b. split; auto. eapply exec_reach; [|eauto]. constructor.
  Qed.

  (** ** The triplets *)
  Lemma tvals_row i u v : tvals (rw i) u v = tvals (rw i) v u.
  Proof.
    unfold row_writes. rewrite !tvals_flat_map. apply flat_map_ext_in. intros j _. rewrite !tvals_cons. change (@tvals W [] ?a ?b) with (@nil W).
    change (tvals [] u v) with (@nil W). change (tvals [] v u) with (@nil W).
    repeat match goal with |- context [Nat.eqb ?u ?v] => destruct (Nat.eqb_spec u v) end; subst; try congruence; reflexivity.
  Qed.

  Lemma tvals_rows l u v : tvals (flat_map rw l) u v = tvals (flat_map rw l) v u.
  Proof. rewrite !tvals_flat_map. apply flat_map_ext_in. intros i _. apply tvals_row. Qed.

  Lemma rows_ok n x y w : (forall i, i < n -> epn <= length (samples i) /\ forall k, In k (samples i) -> k < n) -> In (x, y, w) (flat_map rw (seq 0 n)) ->
    x < n /\ y < n /\ exists i, i < n /\ w = wdiv (nth i degrees w0) w5.
  Proof.
    intros A I. apply in_flat_map in I as (i & Ii & I). apply in_seq in Ii. unfold row_writes in I. apply in_flat_map in I as (j & Ij & I). apply in_seq in Ij.
    destruct (A i ltac:(lia)) as [L B]. specialize (B (nth j (samples i) 0) ltac:(apply nth_In; lia)).
    destruct I as [I|[I|[]]]; injection I as <- <- <-; repeat split; try lia; exists i; split; auto; lia.
  Qed.

  Lemma nth_error_blocks {A B} (f : A -> list B) b l d : (forall x, In x l -> length (f x) = b) -> forall i k, i < length l -> k < b ->
    nth_error (flat_map f l) (i * b + k) = nth_error (f (nth i l d)) k.
  Proof.
    induction l as [|x l IH]; intros L i k Hi Hk; [simpl in Hi; lia|]. cbn [flat_map]. destruct i as [|i].
    - rewrite nth_error_app1 by (rewrite L; [lia|now left]). reflexivity.
    - rewrite nth_error_app2 by (rewrite L; [lia|now left]). rewrite L by now left. replace (S i * b + k - b) with (i * b + k) by lia. cbn [nth]. apply IH; auto; [intros; apply L; now right|simpl in Hi; lia].
  Qed.

  Lemma flat_slots n : length (flat_map rw (seq 0 n)) = 2 * (n * epn) /\ forall i j, i < n -> j < epn ->
    nth_error (flat_map rw (seq 0 n)) (2 * (i * epn + j)) = Some (i, nth j (samples i) 0, wdiv (nth i degrees w0) w5) /\
    nth_error (flat_map rw (seq 0 n)) (2 * (i * epn + j) + 1) = Some (nth j (samples i) 0, i, wdiv (nth i degrees w0) w5).
  Proof.
    split; [rewrite (flat_map_length_const _ (2 * epn)), seq_length; [lia|intros; apply row_writes_length]|]. intros i j Hi Hj.
    assert (forall k, k < 2 -> nth_error (flat_map rw (seq 0 n)) (2 * (i * epn + j) + k) = nth_error (rw i) (2 * j + k)) as E1.
    { intros k Hk. replace (2 * (i * epn + j) + k) with (i * (2 * epn) + (2 * j + k)) by lia. rewrite (nth_error_blocks rw (2 * epn) (seq 0 n) 0); [|intros; apply row_writes_length|rewrite seq_length; lia|lia].
      now rewrite seq_nth by lia. }
    assert (forall k, k < 2 -> nth_error (rw i) (2 * j + k) = nth_error [(i, nth j (samples i) 0, wdiv (nth i degrees w0) w5); (nth j (samples i) 0, i, wdiv (nth i degrees w0) w5)] k) as E2.
    { intros k Hk. unfold row_writes. replace (2 * j + k) with (j * 2 + k) by lia. rewrite (nth_error_blocks _ 2 (seq 0 epn) 0); [|reflexivity|rewrite seq_length; lia|lia]. now rewrite seq_nth by lia. }
    split.
    - rewrite <- (Nat.add_0_r (2 * (i * epn + j))), E1, E2 by lia. reflexivity.
    - rewrite E1, E2 by lia. reflexivity.
  Qed.
End Writes.
