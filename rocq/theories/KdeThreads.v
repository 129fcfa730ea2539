(** Construction of the CKNS estimator at the level of single accesses to shared data: kde.cpp:336-380 (initialize), 429-443 (add_hash_unit), 169-230 (the hash unit) and
    lsh.cpp:106-123, 139-182 (E2LSH), run by interleaved threads (Threads.v). *)
From Verif Require Import Base Num RSum Cluster ThreadPool ThreadPoolFacts ThreadPoolTop Kde KdeFacts KdeFacts2 Threads ThreadsFacts AsgThreadsTop.
From Coq Require Import ZArith Permutation.
Local Open Scope nat_scope.

(** Shared objects: the grid of hash units (kde.h), the global generator (random.cpp:11). The copies of the data are only read. *)
Inductive kloc : Type := KUnits | KRng.
Definition unit_dec : forall x y : unit, {x = y} + {x <> y} := fun x y => match x, y with tt, tt => left eq_refl end.

Section KdeThreads.
  Context {W : Type} `{Num W} `{KNum W}.
  Notation point := (@point W).
  Notation grid := (list (list (list (@hunit W)))).
  Notation prog := (@prog kloc unit grid).

  (** The parameters K and L of the hash tables (kde.cpp:142-155, LshParams.v) and the hash functions built from the numbers drawn (lsh.cpp:106-134) are left open. *)
  Variable params : Z -> Z -> nat * nat.
  Variable hash_of : nat -> nat -> nat -> list W -> list (point -> Z).

  (** a draw of any number; the state of the generator is not modelled *)
  Definition k_draw (s : grid) (x : W) (s' : grid) : Prop := s' = s.
  (** hash_units.at(log_nmu_iter).at(iter).push_back(new_hash_unit), kde.cpp:440 *)
  Definition k_push (lni iter : nat) (u : hunit) (s : grid) (x : unit) (s' : grid) : Prop := s' = push_unit lni iter u s.

  Fixpoint kdraws (num : nat) (k : list W -> prog) : prog :=
    match num with 0 => k [] | S num => Op W KRng true k_draw (fun x => kdraws num (fun xs => k (x :: xs))) end.
  (** number of draws of E2LSH's constructor: rnd_vec (lsh.cpp:173-176), then L functions with K offsets, K multipliers and K * d coefficients (lsh.cpp:116-122) *)
  Definition lsh_draws (K L d : nat) : nat := K + L * (K * (2 + d)).
  (** dimension, lsh.cpp:142-146 *)
  Definition dimension (pts : list point) : nat := match pts with [] => 1 | x :: _ => length x end.

  (** Does the unit need a hash table? kde.cpp:206-223 *)
  Definition unit_points (data : list point) (log_nmu j offset : Z) : list point :=
    let n := Z.of_nat (length data) in let p := ckns_p_sampling j log_nmu n offset in sampled_points data (starting_idx p n) (num_sampled p n).
  Definition hashed (data : list point) (log_nmu j offset : Z) : bool := negb (j =? 0)%Z && negb (Z.of_nat (length (unit_points data log_nmu j offset)) <=? hash_unit_cutoff)%Z.

  (** the locked part of add_hash_unit, kde.cpp:439-441 *)
  Definition add_unit (lni iter : nat) (u : hunit) : prog := Lock tt (Op unit KUnits true (k_push lni iter u) (fun _ => Unlock tt Stop)).

  (** add_hash_unit, kde.cpp:429-443 *)
  Definition unit_task (a : W) (copies : list (list point)) (mx offset : Z) (t : nat * nat * nat) : prog :=
    let '(iter, lni, j) := t in
    let data := nth iter copies [] in
    let log_nmu := (mx - Z.of_nat lni * 2)%Z in
    let add hs := add_unit lni iter (hunit_new a data log_nmu (Z.of_nat j) offset hs) in
    if hashed data log_nmu (Z.of_nat j) offset then
      let '(K, L) := params (ckns_J (Z.of_nat (length data)) log_nmu) (Z.of_nat j) in
      let d := dimension (unit_points data log_nmu (Z.of_nat j) offset) in
      kdraws (lsh_draws K L d) (fun vs => add (hash_of K L d vs))
    else add [].

  (** initialize, kde.cpp:285-380, with T hardware threads: the state in which the threads start *)
  Definition init_start (T : nat) (a min_mu : W) (copies : list (list point)) (n offset : Z) : st :=
    start T (map (unit_task a copies (max_log_nmu_of n) offset) (init_tasks n (max_log_nmu_of n) (iterations_of n min_mu) (length copies))) (repeat (repeat [] (length copies)) (iterations_of n min_mu)).
End KdeThreads.

Section Facts.
  Context {W : Type} `{Num W} `{KNum W}.
  Notation point := (@point W).
  Notation grid := (list (list (list (@hunit W)))).
  Notation prog := (@prog kloc unit grid).
  Variable params : Z -> Z -> nat * nat.
  Variable hash_of : nat -> nat -> nat -> list W -> list (point -> Z).
  Variable a min_mu : W.
  Variable copies : list (list point).
  Variable n offset : Z.
  Variable T : nat.
  Notation mx := (max_log_nmu_of (W := W) n).
  Notation its := (iterations_of n min_mu).
  Notation k1 := (length copies).
  Notation tasks := (init_tasks n mx its k1).
  Notation task := (unit_task params hash_of a copies mx offset).
  Notation s0 := (init_start params hash_of T a min_mu copies n offset).

  Definition kguard (l : kloc) : option unit := match l with KUnits => Some tt | KRng => None end.
  Definition kexempt (l : kloc) : Prop := l = KRng.
  Definition kown (t : nat) (l : kloc) : Prop := False.

  Lemma kdraws_safe own num : forall k, (forall v, safe kguard kexempt own None (k v)) -> safe kguard kexempt own None (kdraws (W := W) num k).
  Proof. induction num as [|num IH]; intros k Sk; cbn [kdraws safe]; auto. split; [left; reflexivity|auto]. Qed.
  Lemma kdraws_total num : forall k, (forall v, total (k v)) -> total (kdraws (W := W) num k).
  Proof. induction num as [|num IH]; intros k Sk; cbn [kdraws total]; auto. split; [intros s; exists w0, s; reflexivity|auto]. Qed.
  Lemma kdraws_defined num : forall k, (forall v, defined (k v)) -> defined (kdraws (W := W) num k).
  Proof. induction num as [|num IH]; intros k Sk; cbn [kdraws defined]; auto. Qed.

  Lemma task_safe own t : safe kguard kexempt own None (task t).
  Proof.
    destruct t as [[iter lni] j]. unfold unit_task. cbv zeta.
    assert (forall lni iter u, safe kguard kexempt own None (add_unit (W := W) lni iter u)) as A by (intros; unfold add_unit; cbn [safe]; split; auto; split; [right; left; exists tt; auto|intros _; auto]).
    destruct (hashed _ _ _ _); [|apply A]. destruct (params _ _) as [K L]. apply kdraws_safe. auto.
  Qed.
  Lemma task_total t : total (task t).
  Proof.
    destruct t as [[iter lni] j]. unfold unit_task. cbv zeta.
    assert (forall lni iter u, total (add_unit (W := W) lni iter u)) as A by (intros; unfold add_unit; cbn [total]; split; [intros s; exists tt; eexists; reflexivity|auto]).
    destruct (hashed _ _ _ _); [|apply A]. destruct (params _ _) as [K L]. apply kdraws_total. auto.
  Qed.
  Lemma task_defined t : defined (task t).
  Proof.
    destruct t as [[iter lni] j]. unfold unit_task. cbv zeta.
    assert (forall lni iter u, defined (add_unit (W := W) lni iter u)) as A by (intros; unfold add_unit; cbn [defined]; auto).
    destruct (hashed _ _ _ _); [|apply A]. destruct (params _ _) as [K L]. apply kdraws_defined. auto.
  Qed.

  Lemma tasks_nth t p : nth_error (map task tasks) t = Some p -> exists x, nth_error tasks t = Some x /\ p = task x.
  Proof. rewrite nth_error_map. destruct (nth_error tasks t) as [x|]; [|discriminate]. intros [= <-]. eauto. Qed.

  Lemma init_inv s : steps unit_dec s0 s -> exists hf, inv kguard kexempt kown hf s.
  Proof. intros St. eapply steps_inv; [exact St|]. exists (fun _ => None). apply start_inv. intros t p E. apply tasks_nth in E as (x & _ & ->). apply task_safe. Qed.
  Lemma init_race s l : steps unit_dec s0 s -> race s l -> l = KRng.
  Proof. intros St R. destruct (init_inv s St) as [hf I]. apply (inv_race kguard kexempt kown) with (hf := hf) (s := s); auto; intros ? **; contradiction. Qed.

  (** *** No undefined state *)
  Lemma good_defined (p : prog) : forall w es, defined p -> good (fun _ _ : unit => True) (fun _ _ => True) (fun _ : grid => tt) (fun _ (_ : unit) => tt) (fun _ _ => True) (fun _ => False) w es p.
  Proof. induction p as [| |m k IH|m k IH|X lc wr R k IH]; intros w es D; cbn [good defined] in *; auto. intros w' s x s' _ _ _. exists w', []. rewrite app_nil_r. repeat split; auto. Qed.
  Lemma init_no_undef s : steps unit_dec s0 s -> ~ undefined s.
  Proof.
    intros St Un. assert (forall t p, nth_error (map task tasks) t = Some p -> good (fun _ _ : unit => True) (fun _ _ => True) (fun _ : grid => tt) (fun _ (_ : unit) => tt) (fun _ _ => True) (fun _ => False) tt [] p) as G.
    { intros t p E. apply tasks_nth in E as (x & _ & ->). apply good_defined. apply task_defined. }
    destruct (run_undefined unit_dec (fun _ _ : unit => True) (fun _ _ => True) (fun _ => I) (fun _ _ _ _ _ => I) (fun _ : grid => tt) (fun _ (_ : unit) => tt) (fun _ _ _ => True) (fun _ _ => False) (fun _ _ _ _ _ _ => I) (fun _ _ _ _ h => h) T (map task tasks) (repeat (repeat [] k1) its) tt s I G St Un) as (w & t & _ & _ & _ & []).
  Qed.

  Lemma init_progress s : 1 <= T -> steps unit_dec s0 s -> finished s \/ exists s', step unit_dec s s'.
  Proof.
    intros HT St. destruct (init_inv s St) as [hf I]. destruct (inv_progress unit_dec _ _ _ hf s I) as [F|[U|S1]]; auto.
    - eapply all_total_steps; [|exact St]. split.
      + intros t p J. cbn [queue init_start start] in J. apply in_combine_seq in J as [_ J]. apply tasks_nth in J as (x & _ & ->). apply task_total.
      + intros i t p J. cbn [ws init_start start] in J. destruct (nth_repeat_none (loc := kloc) (mtx := unit) (mem := grid) T i) as [B|B]; rewrite B in J; discriminate.
    - pose proof (ws_length_steps unit_dec _ _ St) as L. cbn [ws init_start start] in L. rewrite repeat_length in L. destruct (ws s); [simpl in L; lia|discriminate].
    - exfalso. eapply init_no_undef; eauto.
  Qed.
  Lemma init_ends s : 1 <= T -> steps unit_dec s0 s -> exists s', steps unit_dec s s' /\ finished s'.
  Proof.
    intros HT St. induction (no_infinite_run unit_dec s) as [s _ IH]. destruct (init_progress s HT St) as [F|[s' S1]].
    - exists s. split; [apply steps_refl|auto].
    - destruct (IH s' S1) as (s2 & A & B); [eapply steps_next; eauto|]. exists s2. split; auto. eapply steps_trans; [apply steps_one; exact S1|exact A].
  Qed.

  (** *** The result *)
  Definition pushed : Type := (nat * nat * @hunit W)%type.
  Definition kapp (g : grid) (x : pushed) : grid := push_unit (snd (fst x)) (fst (fst x)) (snd x) g.
  Definition unit_of (hs : list (point -> Z)) (t : nat * nat * nat) : pushed :=
    let '(iter, lni, j) := t in (iter, lni, hunit_new a (nth iter copies []) (mx - Z.of_nat lni * 2) (Z.of_nat j) offset hs).
  Definition kpost (t : nat) (w : unit) (es : list pushed) : Prop := exists hs, es = [unit_of hs (nth t tasks (0, 0, 0))].

  Notation kgood := (good (fun _ _ : unit => True) (fun (_ : unit) (_ : grid) => True) (fun g : grid => g) kapp).
  Lemma kdraws_good post bad num : forall k w es, (forall w' v, kgood post bad w' es (k v)) -> kgood post bad w es (kdraws (W := W) num k).
  Proof. induction num as [|num IH]; intros k w es G; cbn [kdraws good]; auto. intros w' s x s' _ _ ->. exists w', []. rewrite app_nil_r. repeat split; auto. Qed.
  Lemma task_good t x w : nth_error tasks t = Some x -> kgood (kpost t) (fun _ => False) w [] (task x).
  Proof.
    intros E. assert (nth t tasks (0, 0, 0) = x) as En by (now apply nth_error_nth). destruct x as [[iter lni] j]. unfold unit_task. cbv zeta.
    assert (forall w hs, kgood (kpost t) (fun _ => False) w [] (add_unit lni iter (hunit_new a (nth iter copies []) (mx - Z.of_nat lni * 2) (Z.of_nat j) offset hs))) as A.
    { intros w1 hs. unfold add_unit. cbn [good]. intros w' s x s' _ _ ->. exists w', [unit_of hs (iter, lni, j)]. repeat split; auto. cbn [good app]. exists hs. now rewrite En. }
    destruct (hashed _ _ _ _); [|apply A]. destruct (params _ _) as [K L]. apply kdraws_good. auto.
  Qed.

  Lemma cell_kfold lni iter : lni < its -> iter < k1 -> forall L g, shaped its k1 g ->
    cell (fold_left kapp L g) lni iter = cell g lni iter ++ flat_map (fun x : pushed => if (snd (fst x) =? lni) && (fst (fst x) =? iter) then [snd x] else []) L.
  Proof.
    intros Hl Hi. induction L as [|x L IH]; intros g Sg; cbn [fold_left flat_map]; [now rewrite app_nil_r|]. rewrite IH by (apply shaped_push; auto). unfold kapp at 1. rewrite (cell_push its k1) by auto. now rewrite <- app_assoc.
  Qed.

  Lemma nodup_flat_map {A B} (f : A -> list B) l : NoDup l -> (forall x, In x l -> NoDup (f x)) -> (forall x y b, In x l -> In y l -> In b (f x) -> In b (f y) -> x = y) -> NoDup (flat_map f l).
  Proof.
    induction l as [|x l IH]; intros ND A1 A2; simpl; [constructor|]. inversion ND as [|? ? Nx ND']; subst.
    assert (forall u v : list B, NoDup u -> NoDup v -> (forall b, In b u -> ~ In b v) -> NoDup (u ++ v)) as App.
    { intros u v Hu Hv D. induction u as [|b u IHu]; auto. simpl. inversion Hu as [|? ? Nb Hu']; subst. constructor; [rewrite in_app_iff; intros [C|C]; auto; apply (D b); auto; now left|]. apply IHu; auto. intros c Ic. apply D. now right. }
    apply App.
    - apply A1. now left.
    - apply IH; auto; [intros; apply A1; now right|]. intros y z b Iy Iz. apply A2; now right.
    - intros b Ib Jb. apply in_flat_map in Jb as (y & Iy & Jb). apply Nx. rewrite (A2 x y b); auto; [now left|now right].
  Qed.
  Lemma tasks_nodup : NoDup tasks.
  Proof.
    unfold init_tasks. apply nodup_flat_map; [apply seq_NoDup| |].
    - intros iter _. apply nodup_flat_map; [apply seq_NoDup| |].
      + intros lni _. apply FinFun.Injective_map_NoDup; [intros x y [= E]; auto|apply seq_NoDup].
      + intros x y b _ _ Ix Iy. apply in_map_iff in Ix as (j & <- & _). apply in_map_iff in Iy as (j' & [= E _] & _). auto.
    - intros x y b _ _ Ix Iy. apply in_flat_map in Ix as (l & _ & Ix). apply in_flat_map in Iy as (l' & _ & Iy). apply in_map_iff in Ix as (j & <- & _). apply in_map_iff in Iy as (j' & [= E _ _] & _). auto.
  Qed.

  Lemma init_result s : steps unit_dec s0 s -> finished s -> exists hs, forall lni iter, lni < its -> iter < k1 ->
    Permutation (cell (shared s) lni iter) (map (task_unit a copies mx offset hs iter lni) (seq 0 (Z.to_nat (ckns_J n (mx - Z.of_nat lni * 2) + 1)))).
  Proof.
    intros St Fn. assert (forall t p, nth_error (map task tasks) t = Some p -> kgood (kpost t) (fun _ => False) tt [] p) as G.
    { intros t p E. apply tasks_nth in E as (x & Ex & ->). now apply task_good. }
    destruct (run_finished unit_dec (fun _ _ : unit => True) (fun _ _ => True) (fun _ => I) (fun _ _ _ _ _ => I) (fun g : grid => g) kapp kpost (fun _ _ => False) (fun _ _ _ _ _ h => h) (fun _ _ _ _ h => h) T (map task tasks) (repeat (repeat [] k1) its) tt s I G St Fn) as (w & g & L & _ & _ & Pa & Pm & Eo).
    rewrite map_length in Pa, Pm. destruct (fin_choice [] (fun t hs => g t = [unit_of hs (nth t tasks (0, 0, 0))]) (length tasks) Pa) as [ht Ht].
    assert (exists hs : nat -> nat -> nat -> list (point -> Z), forall t iter lni j, nth_error tasks t = Some (iter, lni, j) -> hs iter lni j = ht t) as [hs Hs].
    { exists (fun iter lni j => match find (fun t => match nth_error tasks t with Some (i', l', j') => (i' =? iter) && (l' =? lni) && (j' =? j) | None => false end) (seq 0 (length tasks)) with Some t => ht t | None => [] end).
      intros t iter lni j Et. assert (t < length tasks) as Lt by (apply nth_error_Some; congruence). destruct (find _ _) as [u|] eqn:Ef.
      - apply find_some in Ef as [_ Eu]. destruct (nth_error tasks u) as [[[i' l'] j']|] eqn:En; [|discriminate]. apply andb_true_iff in Eu as [Eu E3]. apply andb_true_iff in Eu as [E1 E2]. apply Nat.eqb_eq in E1, E2, E3. subst.
        f_equal. apply (proj1 (NoDup_nth_error tasks) tasks_nodup); [apply nth_error_Some; congruence|congruence].
      - exfalso. pose proof (find_none _ _ Ef t ltac:(apply in_seq; lia)) as Fn'. cbv beta in Fn'. rewrite Et, !Nat.eqb_refl in Fn'. discriminate. }
    exists hs. intros lni iter Hl Hi. rewrite Eo. assert (shaped its k1 (repeat (repeat [] k1) its : grid)) as Sh. { split; [apply repeat_length|]. intros l Hl'. rewrite nth_repeat_lt by auto. apply repeat_length. }
    rewrite cell_kfold by auto. unfold cell at 1. rewrite (nth_repeat_lt _ _ _ _ Hl), (nth_repeat_lt _ _ _ _ Hi). cbn [app].
    etransitivity; [apply Permutation_flat_map; exact Pm|]. rewrite <- (init_tasks_cell (task_unit a copies mx offset hs) n mx its k1) by auto.
    rewrite flat_map_concat_map, concat_map, map_map, <- flat_map_concat_map.
    match goal with |- Permutation ?x ?y => assert (x = y) as -> end; [|reflexivity].
    assert (tasks = map (fun t => nth t tasks (0, 0, 0)) (seq 0 (length tasks))) as Et.
    { clear. generalize tasks as l. induction l as [|c l IH]; auto. cbn [length seq map nth]. f_equal. rewrite <- seq_shift, map_map. exact IH. }
    rewrite Et at 2. rewrite flat_map_map.
    assert (forall (A B C : Type) (f : A -> list B) (h : B -> list C) l, concat (flat_map (fun x => map h (f x)) l) = flat_map (fun x => flat_map h (f x)) l) as Cf.
    { intros A B C f h l. induction l as [|x l IH]; simpl; auto. rewrite concat_app, IH, <- flat_map_concat_map. reflexivity. }
    rewrite Cf. rewrite !flat_map_concat_map. f_equal. apply map_ext_in. intros t It. apply in_seq in It. rewrite Ht by lia. pose proof (nth_error_nth' tasks (0, 0, 0) (n := t) ltac:(lia)) as En.
    destruct (nth t tasks (0, 0, 0)) as [[i' l'] j']. cbn [flat_map unit_of fst snd]. rewrite app_nil_r. unfold task_units, task_unit. rewrite (Hs _ _ _ _ En). reflexivity.
  Qed.

  (** *** Race on the generator *)
  Lemma init_rng_race t u x y : 2 <= T -> t < u -> nth_error tasks t = Some x -> nth_error tasks u = Some y ->
    (forall z, z = x \/ z = y -> let '(iter, lni, j) := z in hashed (nth iter copies []) (mx - Z.of_nat lni * 2) (Z.of_nat j) offset = true /\
       1 <= fst (params (ckns_J (Z.of_nat (length (nth iter copies []))) (mx - Z.of_nat lni * 2)) (Z.of_nat j))) ->
    exists s, steps unit_dec s0 s /\ race s KRng.
  Proof.
    intros HT Ltu Ex Ey Hh. assert (forall z, z = x \/ z = y -> exists k, task z = Op W KRng true k_draw k) as Dr.
    { intros z Hz. specialize (Hh z Hz). destruct z as [[iter lni] j]. destruct Hh as [Hh Hk]. unfold unit_task. rewrite Hh. destruct (params _ _) as [K L]. cbn [fst] in Hk. unfold lsh_draws. destruct K as [|K]; [lia|]. cbn [plus kdraws]. eexists. reflexivity. }
    destruct (Dr x (or_introl eq_refl)) as [kx Kx]. destruct (Dr y (or_intror eq_refl)) as [ky Ky].
    assert (exists l1 l2 l3, tasks = l1 ++ x :: l2 ++ y :: l3 /\ length l1 = t) as (l1 & l2 & l3 & El & Len).
    { destruct (nth_error_split _ _ Ex) as (l1 & l' & E1 & E2). rewrite E1 in Ey. rewrite nth_error_app2 in Ey by lia. destruct (u - length l1) as [|v] eqn:Ev; [lia|]. cbn [nth_error] in Ey. destruct (nth_error_split _ _ Ey) as (l2 & l3 & E3 & _).
      exists l1, l2, l3. split; auto. rewrite E1, E3. reflexivity. }
    unfold init_start. rewrite El, !map_app. cbn [map]. rewrite map_app. cbn [map]. rewrite Kx, Ky.
    apply (race_reachable unit_dec kguard kexempt (fun _ _ => False) T); auto. intros v p Ev Nv. rewrite map_length in Nv.
    assert (In p (map task tasks)) as Ip. { rewrite El, !map_app. cbn [map]. rewrite map_app, Kx. cbn [map]. apply nth_error_In in Ev. rewrite in_app_iff in *. cbn [In] in *. rewrite in_app_iff. tauto. }
    apply in_map_iff in Ip as (z & <- & _). split; [apply task_safe|]. split; [apply task_total|apply task_defined].
  Qed.
End Facts.
