(** The threads of approximate_similarity_graph: no data race except on the global generator, no deadlock, termination, and every interleaving gives a result of SimGraph.asg. *)
From Verif Require Import Base Num Sparse Graph Cluster ThreadPool ThreadPoolFacts ThreadPoolTop Kde KdeFacts SimGraph SimGraphFacts SimGraphFacts2 Threads ThreadsFacts AsgThreads AsgThreadsFacts.
From Coq Require Import ZArith Permutation.
Local Open Scope nat_scope.

Lemma fin_choice {A} (d : A) (P : nat -> A -> Prop) n : (forall t, t < n -> exists x, P t x) -> exists f, forall t, t < n -> P t (f t).
Proof.
  induction n as [|n IH]; intros E; [exists (fun _ => d); intros; lia|]. destruct IH as [f Hf]; [intros; apply E; lia|]. destruct (E n ltac:(lia)) as [x Hx].
  exists (fun t => if t =? n then x else f t). intros t Ht. destruct (Nat.eqb_spec t n) as [->|N]; auto. apply Hf. lia.
Qed.

Lemma nodup_concat {A} (ls : list (list A)) : NoDup (concat ls) -> forall t u a b x, nth_error ls t = Some a -> nth_error ls u = Some b -> In x a -> In x b -> t = u.
Proof.
  induction ls as [|l ls IH]; intros ND [|t] [|u] a b x Ea Eb Ia Ib; simpl in *; try discriminate; auto.
  - injection Ea as ->. exfalso. eapply (nodup_app_notin a (concat ls) x); eauto. apply in_concat. exists b. split; auto. eapply nth_error_In; eauto.
  - injection Eb as ->. exfalso. eapply (nodup_app_notin b (concat ls) x); eauto. apply in_concat. exists a. split; auto. eapply nth_error_In; eauto.
  - f_equal. eapply IH; eauto. clear - ND. induction l; auto. inversion ND; auto.
Qed.

(** The plan of the chunks: consecutive rows, all rows once. *)
Record plan (n P : nat) (chunks : list (list nat * nat)) : Prop := {
  pl_workers : 1 <= P;
  pl_all : concat (map fst chunks) = seq 0 n;
  pl_seq : forall rows st, In (rows, st) chunks -> exists len, rows = seq st len /\ st + len <= n }.

Lemma chunk_plan_ok n T P chunks : chunk_plan n T = Ok (P, chunks) -> plan n P chunks.
Proof.
  unfold chunk_plan. destruct (n <=? T * 2) eqn:L.
  - intros [= <- <-]. split; auto; [simpl; apply app_nil_r|]. intros rows st [[= <- <-]|[]]. exists n. auto.
  - unfold chunk_size. destruct (Nat.eqb_spec T 0) as [->|NT]; cbn [obind]; [discriminate|]. intros [= <- <-]. split; [lia| |].
    + rewrite map_map. apply concat_chunks. lia.
    + intros rows st I. apply in_map_iff in I as (c & [= <- <-] & Ic). apply in_seq in Ic. pose proof (Nat.mul_div_le n T ltac:(lia)) as D. unfold chunk_rows, chunk_start, chunk_len. eexists. split; [reflexivity|].
      destruct (Nat.eqb_spec c (T - 1)) as [->|Nc]; [|nia]. assert ((T - 1) * (n / T) <= T * (n / T)) by (apply Nat.mul_le_mono_r; lia). lia.
Qed.

Section Top.
  Context {W : Type} `{Num W} `{KNum W}.
  Notation point := (@point W).
  Notation triplet := (nat * nat * W)%type.
  Notation ktree := (@ktree W).
  Notation amem := (@amem W).

  Variable unif : W -> Prop.
  Variable x0 : W.
  Hypothesis unif_x0 : unif x0.
  Variable ord : nat -> nat -> nat -> list nat -> list nat.
  Variable T : nat.
  Variable a : W.
  Variable data : list point.
  Variable lr : path -> bool.
  Notation n := (length data).

  (** estimate_weights leaves values of a possible history in the caches *)
  Lemma ewc_ews t r c : ews_caches ord T a data t r c -> ews ord T a data t r.
  Proof. intros E. induction E as [lo hi r c Q w Hc|lo hi k l r v c Q w Hc|lo hi l r x y cl cr c El IHl Er IHr w Hc]; unfold w; constructor; auto. Qed.

  Lemma in_indexed (t : ktree) (vs : list W) i v : nth_error vs i = Some v -> In (t, i, v) (map (fun iv => (t, fst iv, snd iv)) (combine (seq 0 (length vs)) vs)).
  Proof.
    intros E. apply in_map_iff. exists (i, v). split; auto. assert (forall k, In (k + i, v) (combine (seq k (length vs)) vs)) as A; [|apply (A 0)].
    revert i E. induction vs as [|u vs IH]; intros [|i] E k; simpl in *; try discriminate; [injection E as ->; left; f_equal; lia|]. right. replace (k + S i) with (S k + i) by lia. auto.
  Qed.

  Lemma ewc_hist root t r c : ews_caches ord T a data t r c -> forall H1 p, node_at root p = Some t -> hist ord T a data root H1 ->
    exists H2, hist ord T a data root H2 /\ incl H1 H2 /\ forall q i v, c q i = Some v -> exists t', node_at t q = Some t' /\ In (t', i, v) H2.
  Proof.
    intros E. induction E as [lo hi r c Q w Hc|lo hi k l r v c Q w Hc|lo hi l r x y cl cr c El IHl Er IHr w Hc]; intros H1 p Np Hh.
    - destruct w as [vs|e|] eqn:Ew.
      + exists (H1 ++ map (fun iv => (Leaf lo hi, fst iv, snd iv)) (combine (seq 0 (length vs)) vs)). split; [apply hist_all; [auto|eapply node_at_subtree; eauto|rewrite <- Ew; now constructor]|]. split; [apply incl_appl, incl_refl|].
        intros q i v. rewrite Hc. destruct q; [|discriminate]. intros En. exists (Leaf lo hi). split; auto. apply in_or_app. right. now apply in_indexed.
      + exists H1. split; auto. split; [apply incl_refl|]. intros q i v. rewrite Hc. destruct q; discriminate.
      + exists H1. split; auto. split; [apply incl_refl|]. intros q i v. rewrite Hc. destruct q; discriminate.
    - destruct w as [vs|e|] eqn:Ew.
      + exists (H1 ++ map (fun iv => (Node lo hi (Some k) l r, fst iv, snd iv)) (combine (seq 0 (length vs)) vs)). split; [apply hist_all; [auto|eapply node_at_subtree; eauto|rewrite <- Ew; now constructor]|]. split; [apply incl_appl, incl_refl|].
        intros q i v'. rewrite Hc. destruct q; [|discriminate]. intros En. exists (Node lo hi (Some k) l r). split; auto. apply in_or_app. right. now apply in_indexed.
      + exists H1. split; auto. split; [apply incl_refl|]. intros q i v'. rewrite Hc. destruct q; discriminate.
      + exists H1. split; auto. split; [apply incl_refl|]. intros q i v'. rewrite Hc. destruct q; discriminate.
    - destruct (IHl H1 (p ++ [true])) as (H2 & A1 & A2 & A3); [rewrite (node_at_app _ _ _ _ Np); reflexivity|auto|].
      destruct (IHr H2 (p ++ [false])) as (H3 & B1 & B2 & B3); [rewrite (node_at_app _ _ _ _ Np); reflexivity|auto|].
      destruct w as [vs|e|] eqn:Ew.
      + exists (H3 ++ map (fun iv => (Node lo hi None l r, fst iv, snd iv)) (combine (seq 0 (length vs)) vs)).
        split; [apply hist_all; [auto|eapply node_at_subtree; eauto|rewrite <- Ew; constructor; eapply ewc_ews; eauto]|]. split; [apply incl_appl; eapply incl_tran; eauto|].
        intros q i v. rewrite Hc. destruct q as [|[|] q]; cbn [node_at]; intros En.
        * exists (Node lo hi None l r). split; auto. apply in_or_app. right. now apply in_indexed.
        * destruct (A3 _ _ _ En) as (t' & C1 & C2). exists t'. split; auto. apply in_or_app. left. auto.
        * destruct (B3 _ _ _ En) as (t' & C1 & C2). exists t'. split; auto. apply in_or_app. left. auto.
      + exists H3. split; auto. split; [eapply incl_tran; eauto|]. intros q i v. rewrite Hc. destruct q as [|[|] q]; cbn [node_at]; intros En; [discriminate| |]; [apply A3 in En as (t' & C1 & C2)|apply B3 in En as (t' & C1 & C2)]; eauto.
      + exists H3. split; auto. split; [eapply incl_tran; eauto|]. intros q i v. rewrite Hc. destruct q as [|[|] q]; cbn [node_at]; intros En; [discriminate| |]; [apply A3 in En as (t' & C1 & C2)|apply B3 in En as (t' & C1 & C2)]; eauto.
  Qed.

  Lemma ewc_exists t : 1 <= T -> exists r c, ews_caches ord T a data t r c.
  Proof.
    intros HT. induction t as [lo hi|lo hi [k|] l (x & cl & IHl) r (y & cr & IHr)].
    - destruct (exact_matrix_exists T (leaf_kde a data lo hi) data HT) as [r R]. eexists _, (fun p i => _). apply ewc_leaf; [exact R|]. intros p i. reflexivity.
    - destruct (ckns_matrix_exists ord T k data HT) as [v V]. eexists _, (fun p i => _). apply ewc_est; [exact V|]. intros p i. reflexivity.
    - eexists _, (fun p i => _). eapply ewc_sum; [exact IHl|exact IHr|]. intros p i. reflexivity.
  Qed.

  (** *** One run *)
  Section Run.
    Variable root : ktree.
    Variable epn : nat.
    Variable degrees : list W.
    Variable P : nat.
    Variable chunks : list (list nat * nat).
    Hypothesis pl : plan n P chunks.
    Variable c0 : path -> nat -> option W.
    Notation size := (2 * (n * epn)).
    Notation s0 := (asg_start unif a data lr root epn degrees P chunks c0).

    Definition chunk (t : nat) : list nat * nat := nth t chunks ([], 0).
    Lemma chunk_nth t c : nth_error chunks t = Some c -> chunk t = c.
    Proof. intros E. unfold chunk. now apply nth_error_nth. Qed.

    (** the elements of the edges that belong to a task *)
    Definition own (t : nat) (l : aloc) : Prop := match l with LSlot j => t < length chunks /\ 2 * (snd (chunk t) * epn) <= j < 2 * (snd (chunk t) * epn) + length (fst (chunk t)) * (2 * epn) | _ => False end.

    Lemma chunk_at t : t < length chunks -> nth_error chunks t = Some (chunk t).
    Proof. intros Ht. unfold chunk. now apply nth_error_nth'. Qed.
    Lemma chunk_in t : t < length chunks -> In (chunk t) chunks.
    Proof. intros Ht. eapply nth_error_In. apply chunk_at, Ht. Qed.
    Lemma chunk_seq t : t < length chunks -> exists len, fst (chunk t) = seq (snd (chunk t)) len /\ snd (chunk t) + len <= n.
    Proof. intros Ht. pose proof (chunk_in t Ht) as I. destruct (chunk t) as [rows st]. apply (pl_seq _ _ _ pl rows st I). Qed.
    Lemma chunk_disjoint t u i : t < length chunks -> u < length chunks -> In i (fst (chunk t)) -> In i (fst (chunk u)) -> t = u.
    Proof.
      intros Ht Hu A B. apply (nodup_concat (map fst chunks)) with (a := fst (chunk t)) (b := fst (chunk u)) (x := i); auto.
      - rewrite (pl_all _ _ _ pl). apply seq_NoDup.
      - rewrite nth_error_map, chunk_at; auto.
      - rewrite nth_error_map, chunk_at; auto.
    Qed.

    Lemma own_disjoint t u l : own t l -> own u l -> t = u.
    Proof.
      destruct l as [p|j|]; simpl; try tauto. intros [Ht A] [Hu B]. destruct (chunk_seq t Ht) as (lt & Et & _). destruct (chunk_seq u Hu) as (lu & Eu & _). rewrite Et, seq_length in A. rewrite Eu, seq_length in B.
      assert (epn <> 0) as Ne by nia. apply (chunk_disjoint t u (j / (2 * epn))); auto.
      - rewrite Et. apply in_seq. split; [apply Nat.div_le_lower_bound; nia|apply Nat.div_lt_upper_bound; nia].
      - rewrite Eu. apply in_seq. split; [apply Nat.div_le_lower_bound; nia|apply Nat.div_lt_upper_bound; nia].
    Qed.
    Lemma own_guard t l : own t l -> guard l = None.
    Proof. destruct l; simpl; tauto. Qed.

    Notation tasks := (map (fun c => task unif a data lr root epn degrees size (fst c) (snd c)) chunks).
    Lemma tasks_nth t p : nth_error tasks t = Some p -> t < length chunks /\ p = task unif a data lr root epn degrees size (fst (chunk t)) (snd (chunk t)).
    Proof. rewrite nth_error_map. destruct (nth_error chunks t) as [c|] eqn:E; [|discriminate]. intros [= <-]. split; [apply nth_error_Some; congruence|]. now rewrite (chunk_nth _ _ E). Qed.

    Lemma tasks_safe t p : nth_error tasks t = Some p -> safe guard exempt (own t) None p.
    Proof.
      intros E. apply tasks_nth in E as [Ht ->]. unfold task. cbn [safe]. split; [left; reflexivity|]. intros _. apply rows_safe; [|reflexivity]. intros j Hj. split; auto.
    Qed.

    Lemma run_inv s : steps path_dec s0 s -> exists hf, inv guard exempt own hf s.
    Proof. intros St. eapply steps_inv; [exact St|]. exists (fun _ => None). apply start_inv. apply tasks_safe. Qed.

    (** The only data races are on the generator. *)
    Lemma run_race s l : steps path_dec s0 s -> race s l -> l = LRng.
    Proof. intros St R. destruct (run_inv s St) as [hf I]. exact (inv_race _ _ _ own_disjoint own_guard hf s l I R). Qed.

    (** No deadlock. *)
    Lemma run_progress s : steps path_dec s0 s -> finished s \/ undefined s \/ exists s', step path_dec s s'.
    Proof.
      intros St. destruct (run_inv s St) as [hf I]. eapply (inv_progress path_dec _ _ _ hf s I).
      - eapply all_total_steps; [|exact St]. split.
        + intros t p J. cbn [queue asg_start start] in J. apply in_combine_seq in J as [_ J]. apply tasks_nth in J as [_ ->]. eapply task_total; eauto.
        + intros i t p J. cbn [ws asg_start start] in J. destruct (nth_repeat_none (loc := aloc) (mtx := path) (mem := amem) P i) as [B|B]; rewrite B in J; discriminate.
      - pose proof (ws_length_steps path_dec _ _ St) as L. cbn [ws asg_start start] in L. rewrite repeat_length in L. pose proof (pl_workers _ _ _ pl). destruct (ws s); [simpl in L; lia|discriminate].
    Qed.

    (** Every run can be continued to the end, and no run is infinite. *)
    Lemma run_ends s : steps path_dec s0 s -> exists s', steps path_dec s s' /\ (finished s' \/ undefined s').
    Proof.
      intros St. induction (no_infinite_run path_dec s) as [s _ IH]. destruct (run_progress s St) as [F|[U|[s' S1]]].
      - exists s. split; [apply steps_refl|auto].
      - exists s. split; [apply steps_refl|auto].
      - destruct (IH s' S1) as (s2 & A & B); [eapply steps_next; eauto|]. exists s2. split; auto. eapply steps_trans; [apply steps_one; exact S1|exact A].
    Qed.

    (** *** What a run computes *)
    Notation hist := (hist ord T a data root).
    Notation samples_of := (tree_samples unif a data).
    Notation cw := (chunk_writes epn (wofZ 5) degrees).
    Notation rw := (row_writes epn (wofZ 5) degrees).

    Definition post (t : nat) (w : @world W) (es : list (nat * triplet)) : Prop :=
      exists smp, (forall i, In i (fst (chunk t)) -> samples_of (fst w) root i epn (Ok (smp i)) /\ epn <= length (smp i)) /\ es = cw smp (fst (chunk t)) (snd (chunk t)).
    Definition bad (t : nat) (w : @world W) : Prop := exists i o, In i (fst (chunk t)) /\ samples_of (fst w) root i epn o /\ few epn o.

    Lemma post_mono t w w' es : wle w w' -> post t w es -> post t w' es.
    Proof. intros L (smp & A & ->). exists smp. split; auto. intros i I. destruct (A i I). split; auto. eapply samples_mono; [apply L|auto]. Qed.
    Lemma bad_mono t w w' : wle w w' -> bad t w -> bad t w'.
    Proof. intros L (i & o & A & B & C). exists i, o. split; auto. split; auto. eapply samples_mono; [apply L|auto]. Qed.

    Lemma tasks_good t p w : nth_error tasks t = Some p -> good wle (agree ord T a data root) edges app (post t) (bad t) w [] p.
    Proof.
      intros E. apply tasks_nth in E as [Ht ->]. destruct (chunk_seq t Ht) as (len & Es & Le). unfold task. cbn [good]. intros w' s x s' L A [U ->]. exists w', []. split; [apply wle_refl|]. split; auto. split; [reflexivity|].
      eapply rows_good; eauto.
      - rewrite Es. apply seq_NoDup.
      - rewrite Es, seq_length. nia.
      - intros w2 smp L2 B. cbn [good]. exists smp. split; auto.
      - intros w2 i o L2 I B F. exists i, o. auto.
    Qed.

    Lemma fold_perm (L L' : list (nat * triplet)) e : Permutation L L' -> NoDup (map fst L) -> fold_left app L e = fold_left app L' e.
    Proof.
      intros Pm. revert e. induction Pm as [|x l l' Pm IH|x y l|l l' l'' P1 IH1 P2 IH2]; intros e ND; auto.
      - cbn [fold_left]. apply IH. cbn [map] in ND. inversion ND; auto.
      - cbn [fold_left]. f_equal. unfold app, write. apply upd_nth_comm. cbn [map] in ND. inversion ND as [|? ? Nx _]; subst. intros E. apply Nx. left. auto.
      - rewrite IH1, IH2; auto. eapply Permutation_NoDup; [apply Permutation_map; exact P1|exact ND].
    Qed.

    Lemma concat_flat {A B} (f : A -> list B) (ls : list (list A)) : concat (map (flat_map f) ls) = flat_map f (concat ls).
    Proof. induction ls as [|l ls IH]; simpl; auto. now rewrite flat_map_app, IH. Qed.

    Lemma keys_all smp : NoDup (map fst (flat_map (slots epn (wofZ 5) degrees smp) (seq 0 n))).
    Proof.
      rewrite <- (chunk_writes_slots epn (wofZ 5) degrees smp n 0). unfold chunk_writes. rewrite seq_length.
      assert (forall (A B : Type) (l : list A) (l' : list B), length l = length l' -> map fst (combine l l') = l) as M. { intros A B l. induction l as [|x l IH]; intros [|y l'] E; simpl in *; try discriminate; auto. f_equal. auto. }
      rewrite M; [apply seq_NoDup|]. rewrite seq_length, (flat_map_length_const _ (2 * epn)), seq_length; auto. intros. apply row_writes_length.
    Qed.

    Lemma post_all w g : (forall t, t < length chunks -> post t w (g t)) -> exists smp, (forall i, i < n -> samples_of (fst w) root i epn (Ok (smp i)) /\ epn <= length (smp i)) /\
      concat (map g (seq 0 (length chunks))) = flat_map (slots epn (wofZ 5) degrees smp) (seq 0 n).
    Proof.
      intros A. destruct (fin_choice (fun _ => []) (fun t smp => (forall i, In i (fst (chunk t)) -> samples_of (fst w) root i epn (Ok (smp i)) /\ epn <= length (smp i)) /\ g t = cw smp (fst (chunk t)) (snd (chunk t))) (length chunks)) as [sm Hs]; [exact A|].
      set (idx := fun i => find (fun t => existsb (Nat.eqb i) (fst (chunk t))) (seq 0 (length chunks))).
      set (smp := fun i => match idx i with Some t => sm t i | None => [] end).
      assert (forall t i, t < length chunks -> In i (fst (chunk t)) -> smp i = sm t i) as Es.
      { intros t i Ht Ii. unfold smp. destruct (idx i) as [u|] eqn:Ei.
        - apply find_some in Ei as [Hu Eu]. apply in_seq in Hu. apply existsb_exists in Eu as (j & Ij & Ej). apply Nat.eqb_eq in Ej. subst j. f_equal. apply (chunk_disjoint u t i); auto. lia.
        - exfalso. pose proof (find_none _ _ Ei t ltac:(apply in_seq; lia)) as F. simpl in F. apply not_true_iff_false in F. apply F. apply existsb_exists. exists i. split; auto. apply Nat.eqb_refl. }
      assert (chunks = map chunk (seq 0 (length chunks))) as Ec.
      { unfold chunk. clear. induction chunks as [|c l IH]; auto. cbn [length seq map nth]. f_equal. rewrite <- seq_shift, map_map. exact IH. }
      exists smp. split.
      - intros i Hi. assert (In i (concat (map fst chunks))) as I by (rewrite (pl_all _ _ _ pl); apply in_seq; lia). apply in_concat in I as (rows & Ir & Ii). apply in_map_iff in Ir as (c & <- & Ic).
        apply In_nth_error in Ic as [t Et]. assert (t < length chunks) as Ht by (apply nth_error_Some; congruence). rewrite <- (chunk_nth _ _ Et) in Ii. rewrite (Es t i Ht Ii). apply (proj1 (Hs t Ht) i Ii).
      - rewrite <- (pl_all _ _ _ pl), <- concat_flat. rewrite Ec at 2. rewrite !map_map. f_equal. apply map_ext_in. intros t It. apply in_seq in It. assert (t < length chunks) as Ht by lia. destruct (chunk_seq t Ht) as (len & Eq & _).
        rewrite (proj2 (Hs t Ht)). rewrite Eq, <- chunk_writes_slots. unfold chunk_writes. f_equal. apply rw_ext_all. intros i Ii. symmetry. apply Es; auto. now rewrite Eq.
    Qed.

    Lemma run_result s H1 : hist H1 -> (forall p i v, c0 p i = Some v -> exists t, node_at root p = Some t /\ In (t, i, v) H1) -> steps path_dec s0 s -> finished s ->
      exists H2 smp, hist H2 /\ (forall i, i < n -> samples_of H2 root i epn (Ok (smp i)) /\ epn <= length (smp i)) /\ edges (shared s) = flat_map (rw smp) (seq 0 n).
    Proof.
      intros Hh Hc St Fn. unshelve epose proof (run_finished path_dec wle (agree ord T a data root) wle_refl wle_trans edges app post bad post_mono bad_mono P tasks (mkmem c0 (repeat (0, 0, w0) size)) (H1, []) s _ _ St Fn) as (w & g & L & _ & Ag & Pa & Pm & Eo).
      - split; [exact Hh|]. split; [exact Hc|]. intros p i [].
      - intros t p E. now apply tasks_good.
      - rewrite map_length in Pa, Pm. destruct (post_all w g Pa) as (smp & A & B). exists (fst w), smp. split; [apply Ag|]. split; auto. rewrite B in Pm. rewrite Eo.
        rewrite (fold_perm L _ _ Pm); [|eapply Permutation_NoDup; [apply Permutation_map; symmetry; exact Pm|apply keys_all]]. apply all_writes.
    Qed.

    Lemma run_bad s H1 : hist H1 -> (forall p i v, c0 p i = Some v -> exists t, node_at root p = Some t /\ In (t, i, v) H1) -> steps path_dec s0 s -> undefined s ->
      exists H2 i o, hist H2 /\ i < n /\ samples_of H2 root i epn o /\ few epn o.
    Proof.
      intros Hh Hc St Un. unshelve epose proof (run_undefined path_dec wle (agree ord T a data root) wle_refl wle_trans edges app post bad post_mono bad_mono P tasks (mkmem c0 (repeat (0, 0, w0) size)) (H1, []) s _ _ St Un) as (w & t & _ & Ag & Ht & i & o & Ii & B & C).
      - split; [exact Hh|]. split; [exact Hc|]. intros p i [].
      - intros t p E. now apply tasks_good.
      - rewrite map_length in Ht. exists (fst w), i, o. split; [apply Ag|]. split; auto. destruct (chunk_seq t Ht) as (len & Es & Le). rewrite Es in Ii. apply in_seq in Ii. lia.
    Qed.
  End Run.

  (** *** Every interleaving gives a result of [asg] *)
  Lemma asg_threads_asg nc r : asg_threads unif ord lr T a data nc r -> asg unif ord T a data nc r.
  Proof.
    unfold asg_threads, asg. destruct (edges_per_node n <? 1)%Z; auto. set (epn := Z.to_nat (edges_per_node n)). intros (t & degs & c0 & Bd & Ew & Res). exists t, degs. split; auto. split; [eapply ewc_ews; eauto|].
    destruct (ewc_hist t t degs c0 Ew [] [] eq_refl (hist_nil _ _ _ _ _)) as (H1 & Hh & _ & Hc).
    assert (forall H2, exists smp, forall i, i < n -> tree_samples unif a data H2 t i epn (smp i)) as Some_samples.
    { intros H2. apply (fin_choice UB (fun i => tree_samples unif a data H2 t i epn)). intros i _. eapply samples_some; eauto. }
    destruct degs as [degrees|e|].
    - destruct (chunk_plan n T) as [[P chunks]|e|] eqn:Ep.
      + pose proof (chunk_plan_ok _ _ _ _ Ep) as pl. destruct Res as (s & St & [[Fn ->]|[Un ->]]).
        * destruct (run_result t epn degrees P chunks pl c0 s H1 Hh Hc St Fn) as (H2 & smp & Hh2 & A & Ee). exists H2, (fun i => Ok (smp i)). split; auto. split; [intros i Hi; apply (A i Hi)|].
          assert (forallb (fun i => epn <=? length (smp i)) (seq 0 n) = true) as Fa. { apply forallb_forall. intros i Ii. apply in_seq in Ii. apply Nat.leb_le. apply (A i). lia. }
          rewrite Fa. unfold chunk_plan in Ep. destruct (n <=? T * 2) eqn:Hs.
          -- f_equal. rewrite Ee. rewrite chunk_writes_slots. symmetry. apply all_writes.
          -- unfold chunk_size in *. destruct (Nat.eqb_spec T 0) as [->|NT]; [discriminate|]. assert (1 <= T) as HT by lia.
             destruct (parallel_writes_exist epn (wofZ 5) degrees smp n T (0, 0, w0) HT) as (s' & R & E). exists s'. split; auto. split; auto. f_equal. rewrite Ee. symmetry. eapply parallel_writes; eauto.
        * destruct (run_bad t epn degrees P chunks pl c0 s H1 Hh Hc St Un) as (H2 & i & o & Hh2 & Hi & B & F). destruct (Some_samples H2) as [smp As]. exists H2, (fun j => if j =? i then o else smp j). split; auto. split.
          { intros j Hj. destruct (Nat.eqb_spec j i) as [->|]; auto. }
          match goal with |- if ?b then _ else _ => assert (b = false) as -> end; auto. apply not_true_iff_false. intros E. rewrite forallb_forall in E. specialize (E i ltac:(apply in_seq; lia)). rewrite Nat.eqb_refl in E.
          destruct o as [s1|e|]; try discriminate. apply Nat.leb_le in E. specialize (F s1 eq_refl). lia.
      + destruct (Some_samples H1) as [smp As]. exists H1, smp. split; auto. split; auto. unfold chunk_plan in Ep. destruct (n <=? T * 2); [discriminate|]. unfold chunk_size in *. destruct (T =? 0); cbn [obind] in Ep; [|discriminate].
        match goal with |- if ?b then _ else _ => destruct b end; auto.
      + destruct (Some_samples H1) as [smp As]. exists H1, smp. split; auto. split; auto. unfold chunk_plan in Ep. destruct (n <=? T * 2); [discriminate|]. unfold chunk_size in *. destruct (T =? 0); cbn [obind] in Ep; [|discriminate].
        match goal with |- if ?b then _ else _ => destruct b end; auto.
    - destruct (Some_samples H1) as [smp As]. exists H1, smp. auto.
    - destruct (Some_samples H1) as [smp As]. exists H1, smp. auto.
  Qed.

  (** *** The generator is not protected: two threads race *)
  Lemma run_rng_race root epn degrees c0 P c1 c2 cs : 2 <= P -> exists s, steps path_dec (asg_start unif a data lr root epn degrees P (c1 :: c2 :: cs) c0) s /\ race s LRng.
  Proof.
    intros HP. apply (race_reachable path_dec guard exempt (fun _ _ => False) P [] []); auto. intros [|[|t]] p E Nt; simpl in *; try discriminate. congruence.
  Qed.
End Top.
