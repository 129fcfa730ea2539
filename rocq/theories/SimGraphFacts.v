(** Facts about the similarity graph model. *)
From Verif Require Import Base Num Sparse SparseFacts Graph GraphSpec GraphFacts GraphProps4 Cluster ThreadPool ThreadPoolFacts ThreadPoolTop Kde KdeFacts KdeFacts2 KdeFacts3 SimGraph.
From Coq Require Import ZArith Permutation Reals Lra.
Local Open Scope nat_scope.

Section SimF.
  Context {W : Type} `{Num W} `{!PosNum W} `{KNum W}.
  Notation point := (@point W).

  Lemma flat_map_concat_list {A B} (f : A -> list B) ll : flat_map f (concat ll) = concat (map (flat_map f) ll).
  Proof. induction ll as [|l ll IH]; simpl; auto. now rewrite flat_map_app, IH. Qed.

  Definition sim_weight (a : W) (data : list point) (i j : nat) : W := gaussian_kernel a (nth (Nat.min i j) data []) (nth (Nat.max i j) data []).

  Lemma tvals_sim a data i j : tvals (sim_rows a data (seq 0 (length data))) i j =
    if (i <? length data) && (j <? length data) then [sim_weight a data i j] else [].
  Proof.
    unfold sim_rows. rewrite tvals_flat_map. set (n := length data).
    assert (forall x y, x <= y -> tvals (let w := gaussian_kernel a (nth x data []) (nth y data []) in (x, y, w) :: if x =? y then [] else [(y, x, w)]) i j =
      if (x =? Nat.min i j) && (y =? Nat.max i j) then [sim_weight a data i j] else []) as Cell.
    { intros x y L. cbv zeta. rewrite tvals_cons. unfold sim_weight. destruct (Nat.le_gt_cases i j) as [Lij|Lij].
      - rewrite Nat.min_l, Nat.max_r by lia.
        destruct (Nat.eqb_spec x y); [change (tvals [] i j) with (@nil W)|rewrite tvals_cons; change (tvals [] i j) with (@nil W)];
          repeat match goal with |- context [Nat.eqb ?u ?v] => destruct (Nat.eqb_spec u v) end; subst; try lia; reflexivity.
      - rewrite Nat.min_r, Nat.max_l by lia.
        destruct (Nat.eqb_spec x y); [change (tvals [] i j) with (@nil W)|rewrite tvals_cons; change (tvals [] i j) with (@nil W)];
          repeat match goal with |- context [Nat.eqb ?u ?v] => destruct (Nat.eqb_spec u v) end; subst; try lia; reflexivity. }
    destruct ((i <? n) && (j <? n)) eqn:E.
    - apply andb_true_iff in E as [E1 E2]. apply Nat.ltb_lt in E1, E2.
      rewrite (flat_map_only _ _ (Nat.min i j)); [|apply seq_NoDup|apply in_seq; lia|].
      + rewrite tvals_flat_map. rewrite (flat_map_only _ _ (Nat.max i j)); [|apply seq_NoDup|apply in_seq; lia|].
        * rewrite Cell by lia. now rewrite !Nat.eqb_refl.
        * intros y I N. apply in_seq in I. rewrite Cell by lia. apply Nat.eqb_neq in N. now rewrite N, andb_false_r.
      + intros x I N. apply in_seq in I. rewrite tvals_flat_map. apply flat_map_none. intros y I2. apply in_seq in I2. rewrite Cell by lia. apply Nat.eqb_neq in N. now rewrite N.
    - apply flat_map_none. intros x I. apply in_seq in I. rewrite tvals_flat_map. apply flat_map_none. intros y I2. apply in_seq in I2. rewrite Cell by lia.
      apply andb_false_iff in E. rewrite !Nat.ltb_ge in E. destruct (Nat.eqb_spec x (Nat.min i j)), (Nat.eqb_spec y (Nat.max i j)); simpl; auto. lia.
  Qed.

  Lemma sim_rows_ok a data rows x y w : (forall i, In i rows -> i < length data) -> In (x, y, w) (sim_rows a data rows) -> x < length data /\ y < length data.
  Proof.
    intros A I. unfold sim_rows in I. apply in_flat_map in I as (i & Ii & I). apply in_flat_map in I as (j & Ij & I). apply A in Ii. apply in_seq in Ij.
    destruct I as [I|I]; [injection I as <- <- _; lia|]. destruct (i =? j); [destruct I|]. destruct I as [I|[]]. injection I as <- <- _. lia.
  Qed.

  Lemma similarity_unique T a data r : 1 <= T -> similarity_graph T a data r -> r = from_triplets_graph (length data) (sim_rows a data (seq 0 (length data))).
  Proof.
    intros HT. unfold similarity_graph. destruct (length data <=? T * 2); auto. unfold chunk_size. assert (T =? 0 = false) as -> by (apply Nat.eqb_neq; lia).
    intros (chunks & P & ->). apply par_results_unique in P. subst chunks. f_equal.
    pose proof (concat_chunks (length data) T HT) as CC. rewrite <- CC. unfold sim_rows at 2. rewrite flat_map_concat_list, map_map. reflexivity.
  Qed.

  Lemma similarity_exists T a data : 1 <= T -> exists r, similarity_graph T a data r.
  Proof.
    intros HT. unfold similarity_graph. destruct (length data <=? T * 2); eauto. unfold chunk_size. assert (T =? 0 = false) as -> by (apply Nat.eqb_neq; lia).
    eexists. eexists. split; [apply par_results_exist; auto|reflexivity].
  Qed.

  Lemma similarity_spec T a data r : 1 <= T -> (forall c : W, wltb (wexp c) w0 = false) -> similarity_graph T a data r ->
    exists g, r = Ok g /\ number_of_vertices g = length data /\ weights_above_eps g /\ reachable g /\
      forall i j, weight g i j = if (i <? length data) && (j <? length data) then above_eps (sim_weight a data i j) else w0.
  Proof.
    intros HT Hexp S. apply similarity_unique in S; auto.
    destruct (from_triplets_graph_spec (length data) (sim_rows a data (seq 0 (length data))) (fun i j => if (i <? length data) && (j <? length data) then Some (sim_weight a data i j) else None)) as (g & E & En & Ea & Er & Ew).
    - intros x y w I. eapply sim_rows_ok; [|exact I]. intros i Ii. apply in_seq in Ii. lia.
    - intros i j. rewrite tvals_sim. destruct (_ && _); reflexivity.
    - intros i j v Ev. destruct (_ && _); [|discriminate]. injection Ev as <-. apply Hexp.
    - intros i j. unfold sim_weight. rewrite Nat.min_comm, Nat.max_comm, (andb_comm (j <? _)). reflexivity.
    - exists g. rewrite S. split; auto. split; auto. split; auto. split; auto. intros i j. rewrite Ew. destruct (_ && _); auto. simpl. unfold above_eps. now rewrite pn_0.
  Qed.
End SimF.
