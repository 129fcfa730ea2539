(** C83: the data behind an estimator, for every history of a program that creates, overwrites, resizes and destroys matrices and creates, copies, moves and destroys
    estimators.  The program, its operations and what it observes ([step], [query], [near], [contents]) and the reading of histories ([holder], [holders], [keeps_storage])
    are in KdeLife.v; the answers [ckns_query], [exact_query], [near_indices] are those of Kde.v, where estimators hold values instead of pointers. *)
From Verif Require Import Base Num Cluster Kde KdeFacts3 KdeAcc5 KdeLife KdeLifeFacts KdeLifeTop KdeLifeMore.
From Coq Require Import ZArith Permutation Reals Lra.
Local Open Scope nat_scope.

(** A CKNS estimator answers from the data its matrix contained when it was built, whatever the program did with that matrix (or with anything else) since; so does the
    object it was moved to, and every copy as long as the original (or what it was moved to) exists. *)
Theorem C83_ckns_owns_its_data_partial h0 s0 o v T (a min_mu : R) offset lo hi copies hs s1 :
  steps start h0 s0 -> step s0 (NewCkns o v T a min_mu offset lo hi copies hs) s1 ->
  exists rows k, contents s0 v = Some rows /\ lo < hi <= length rows /\ Forall (Permutation (slice rows lo hi)) copies /\
    ckns_init T a min_mu copies (Z.of_nat (hi - lo)) offset hs k /\
    forall hist s2 p0 p q, steps s1 hist s2 -> holder hist o = Some p0 -> In p (holders hist o) -> query s2 p q = ckns_query k q.
Proof. intros St0 St1. apply (ckns_value h0 s0 o v T a min_mu offset lo hi copies hs s1); auto. apply sampling_inside_R. inversion St1; subst. lia. Qed.
Print Assumptions C83_ckns_owns_its_data_partial.

(** The same for any arithmetic, such as doubles, in which the rows a hash unit samples are rows of the data (the assertions kde.cpp:199-204). *)
Theorem C83_any_arithmetic_partial {W} `{Num W} `{KNum W} h0 s0 o v T (a min_mu : W) offset lo hi copies hs s1 : sampling_inside (W := W) (hi - lo) ->
  steps start h0 s0 -> step s0 (NewCkns o v T a min_mu offset lo hi copies hs) s1 ->
  exists rows k, contents s0 v = Some rows /\ lo < hi <= length rows /\ Forall (Permutation (slice rows lo hi)) copies /\
    ckns_init T a min_mu copies (Z.of_nat (hi - lo)) offset hs k /\
    forall hist s2 p0 p q, steps s1 hist s2 -> holder hist o = Some p0 -> In p (holders hist o) -> query s2 p q = ckns_query k q.
Proof. apply ckns_value. Qed.
Print Assumptions C83_any_arithmetic_partial.

(** A copy does not survive its original: the copy's hash units point into the original's data. As soon as the original was destroyed or overwritten, every query of every
    copy that is left has undefined behaviour (it reads freed memory). *)
Theorem C83_copies_refuted h0 s0 o v T (a min_mu : R) offset lo hi copies hs s1 : copies <> [] -> (0 < min_mu <= 1)%R -> (offset <= 0)%Z ->
  steps start h0 s0 -> step s0 (NewCkns o v T a min_mu offset lo hi copies hs) s1 ->
  forall hist s2 p q, steps s1 hist s2 -> holder hist o = None -> In p (holders hist o) -> query s2 p q = UB.
Proof.
  intros Nc Hm Ho St0 St1. assert (1 <= hi - lo) by (inversion St1; subst; lia). apply (copy_without_original h0 s0 o v T a min_mu offset lo hi copies hs s1); auto.
  - destruct copies; [congruence|cbn; lia].
  - apply iters_pos; auto.
  - apply first_level_R.
  - apply first_unit_R; auto.
Qed.
Print Assumptions C83_copies_refuted.

(** An estimator that was moved from must not be used. *)
Theorem C83_moved_from {W} `{Num W} `{KNum W} h0 s0 o o' s1 : steps (@start W) h0 s0 -> step s0 (Move o o') s1 ->
  forall ow k, objs s0 o = Some (OCkns ow k) -> 1 <= pc_iters k -> 1 <= pc_k1 k -> (0 <= ckns_J (pc_n k) (pc_max k))%Z -> forall q, query s1 o q = UB.
Proof. apply moved_from_ub. Qed.
Print Assumptions C83_moved_from.

(** An exact estimator, and each of its copies, reads the caller's matrix when it is queried: the answer is that of the current contents, and once the matrix was destroyed or
    given another size it is undefined. *)
Theorem C83_exact_follows_the_matrix {W} `{Num W} `{KNum W} h0 s0 o v (a : W) lo hi s1 : steps start h0 s0 -> step s0 (NewExact o v a lo hi) s1 ->
  forall hist s2 p q, steps s1 hist s2 -> In p (holders hist o) ->
    if forallb (keeps_storage v) hist
    then exists rows, contents s2 v = Some rows /\ hi <= length rows /\ query s2 p q = Ok (exact_query (exact_kde_range rows a lo hi) q)
    else lo < hi -> query s2 p q = UB.
Proof. apply exact_current. Qed.
Print Assumptions C83_exact_follows_the_matrix.

(** An E2LSH table finds the rows that collided with the query when the table was built; the points it returns have the current coordinates of these rows. *)
Theorem C83_lsh_as_built {W} `{Num W} `{KNum W} h0 s0 o v hs s1 : steps (@start W) h0 s0 -> step s0 (NewLsh o v hs) s1 ->
  exists b rows, mats s0 v = Some b /\ contents s0 v = Some rows /\
  forall hist s2 p q, steps s1 hist s2 -> In p (holders hist o) ->
    let found := near_indices (e2lsh_new hs rows) q in
    near s2 p q = Ok (map (fun i => (b, i)) found) /\
    if forallb (keeps_storage v) hist
    then exists rows', contents s2 v = Some rows' /\ length rows' = length rows /\ load_all (mem s2) (map (fun i => (b, i)) found) = Ok (map (fun i => nth i rows' []) found)
    else found <> [] -> load_all (mem s2) (map (fun i => (b, i)) found) = UB.
Proof. apply lsh_as_built. Qed.
Print Assumptions C83_lsh_as_built.

(** A program: two points, a CKNS estimator, the matrix is overwritten and destroyed, the estimator copied, moved, the copy and the moved object queried, then the
    moved object destroyed. *)
Definition demo (hs : nat -> nat -> nat -> list (@point R -> Z)) : list op :=
  [MatWrite 0 1 [7%R]; MatDestroy 0; Copy 0 1; Move 0 2].
Example C83_hypotheses_met : exists s0 s1 s2 s3 hs,
  steps start [MatNew 0 [[0%R]; [1%R]]] s0 /\
  step s0 (NewCkns 0 0 1 1%R (1/2)%R 0 0 2 [[[1%R]; [0%R]]] hs) s1 /\
  steps s1 (demo hs) s2 /\ holder (demo hs) 0 = Some 2 /\ In 1 (holders (demo hs) 0) /\ In 2 (holders (demo hs) 0) /\
  steps s1 (demo hs ++ [Destroy 2]) s3 /\ holder (demo hs ++ [Destroy 2]) 0 = None /\ In 1 (holders (demo hs ++ [Destroy 2]) 0).
Proof.
  set (hs := fun (_ _ _ : nat) => @nil (@point R -> Z)). set (c := [[1%R]; [0%R]]).
  set (s0 := mkS (hset (fun _ => None) 0 (Some [[0%R]; [1%R]])) 1 (fset (fun _ => None) 0 (Some 0)) (fun _ => None) : @state R).
  destruct (pckns_exists 1 (alloc (mem s0) (fresh s0) [c]) 1%R (1/2)%R (seq (fresh s0) 1) [c] 2 0 hs) as [k Ik]; auto.
  { apply sampling_inside_R. lia. }
  set (s1 := mkS (alloc (mem s0) (fresh s0) [c]) (fresh s0 + 1) (mats s0) (fset (objs s0) 0 (Some (OCkns (seq (fresh s0) 1) k)))).
  assert (exists s2, steps s1 (demo hs) s2 /\ exists x, objs s2 2 = Some x) as (s2 & S2 & x & Ex).
  { eexists. split.
    - eapply steps_cons; [eapply s_write; [reflexivity|reflexivity|cbn; lia]|].
      eapply steps_cons; [eapply s_destroy_mat; reflexivity|].
      eapply steps_cons; [eapply s_copy with (ms := [c]); reflexivity|].
      eapply steps_cons; [eapply s_move; [lia|reflexivity]|]. apply steps_nil.
    - eexists. reflexivity. }
  exists s0, s1, s2. eexists. exists hs.
  split; [eapply steps_cons; [apply s_new; reflexivity|apply steps_nil]|].
  split. { apply (s_ckns s0 0 0 0 [[0%R]; [1%R]] 1 1%R (1/2)%R 0 0 2 [c] hs k); auto; cbn; try lia. constructor; [|constructor]. apply perm_swap. }
  split; [exact S2|]. split; [reflexivity|]. split; [cbn; auto|]. split; [cbn; auto|].
  split; [|split; [reflexivity|cbn; auto]].
  assert (forall s l s' l' s'', steps (W := R) s l s' -> steps s' l' s'' -> steps s (l ++ l') s'') as App.
  { intros s l s' l' s'' A B. revert B. induction A; cbn; auto. intros B. econstructor; eauto. }
  eapply App; [exact S2|]. eapply steps_cons; [eapply s_destroy; exact Ex|apply steps_nil].
Qed.
Example C83_exact_hypotheses_met : exists s0 s1 s2,
  steps start [MatNew 0 [[0%R]; [1%R]]] s0 /\ step s0 (NewExact 0 0 1%R 0 2) s1 /\
  steps s1 [MatWrite 0 1 [7%R]; Copy 0 1; Destroy 0] s2 /\ In 1 (holders (W := R) [MatWrite 0 1 [7%R]; Copy 0 1; Destroy 0] 0) /\ contents s2 0 = Some [[0%R]; [7%R]].
Proof.
  do 3 eexists. split; [eapply steps_cons; [apply s_new; reflexivity|apply steps_nil]|].
  split; [eapply s_exact; [reflexivity|reflexivity|reflexivity|cbn; lia]|].
  split; [|split; [cbn; auto|]].
  - eapply steps_cons; [eapply s_write; [reflexivity|reflexivity|cbn; lia]|].
    eapply steps_cons; [eapply s_copy with (ms := []); reflexivity|].
    eapply steps_cons; [eapply s_destroy; reflexivity|]. apply steps_nil.
  - reflexivity.
Qed.
