(** approximate_similarity_graph over the reals: the graph. *)
From Verif Require Import Base Num RSum Sparse SparseFacts Graph GraphSpec GraphFacts GraphProps4 Cluster ClusterCC ClusterSpec ClusterSweep ClusterPR ClusterPR2 ThreadPool ThreadPoolFacts ThreadPoolTop Kde KdeFacts KdeFacts2 KdeFacts3 KdeFacts4 Props_Kde SimGraph SimGraphFacts SimGraphFacts2 SimGraphFacts3 SimGraphFacts4.
From Coq Require Import ZArith Permutation Reals Lra.
Local Open Scope nat_scope.

Lemma Ok_inj {A} (x y : A) : Ok x = Ok y -> x = y.
Proof. congruence. Qed.
Lemma Forall2_In_r {A B} (P : A -> B -> Prop) l l' y : Forall2 P l l' -> In y l' -> exists x, In x l /\ P x y.
Proof. induction 1 as [|a b l l' Pab F IH]; intros I; [destruct I|]. destruct I as [<-|I]; [exists a; split; [apply in_eq|auto]|]. destruct (IH I) as (x & Ix & Px). exists x. split; [now right|auto]. Qed.

(** The weight of the edge u-v for given degrees and samples: each time u sampled v, or v sampled u, a fifth of the degree is added. *)
Definition asg_weight (degrees : list R) (samples : nat -> list nat) (u v : nat) : R :=
  (nth u degrees 0 / 5 * occurrences v (samples u) + nth v degrees 0 / 5 * occurrences u (samples v))%R.

Lemma sum1_R (l : list R) : o0 (sum1 l) = lsum (fun x => x) l.
Proof.
  destruct l as [|x l]; [reflexivity|]. cbn [sum1 o0 lsum]. generalize x as z. induction l as [|y l IH]; intros z; cbn [fold_left lsum]; [lra|]. rewrite IH. cbn [wadd NumR]. lra.
Qed.

Lemma rows_sum degrees samples n u v : (forall i, i < n -> length (samples i) = 2) -> u < n -> v < n ->
  lsum (fun x => x) (tvals (flat_map (row_writes 2 5%R degrees samples) (seq 0 n)) u v) = asg_weight degrees samples u v.
Proof.
  intros L Hu Hv. rewrite tvals_flat_map, lsum_flat_map.
  rewrite (lsum_ext _ (fun i => (if i =? u then nth i degrees 0 / 5 * occurrences v (samples i) else 0) + (if i =? v then nth i degrees 0 / 5 * occurrences u (samples i) else 0))%R).
  - rewrite lsum_plus. rewrite (lsum_delta_list (fun i => nth i degrees 0 / 5 * occurrences v (samples i))%R) by apply seq_NoDup.
    rewrite (lsum_delta_list (fun i => nth i degrees 0 / 5 * occurrences u (samples i))%R) by apply seq_NoDup. unfold asg_weight.
    assert (nmem u (seq 0 n) = true) as -> by (apply nmem_In, in_seq; lia). assert (nmem v (seq 0 n) = true) as -> by (apply nmem_In, in_seq; lia). reflexivity.
  - intros i I. apply in_seq in I. rewrite row_sum by (apply L; lia). destruct (i =? u), (i =? v); lra.
Qed.

Section Main.
  Variable unif : R -> Prop.
  Variable ord : nat -> nat -> nat -> list nat -> list nat.
  Variable T : nat.
  Variable a : R.
  Variable data : list (list R).
  Variable nc : Z.
  Hypothesis Hu : unit_interval unif.
  Hypothesis Hord : forall c i l s, Permutation (ord c i l s) s.
  Hypothesis HT : 1 <= T.
  Hypothesis Ha : (0 < a)%R.
  Hypothesis Hnc : (2 <= nc)%Z.
  Hypothesis Hn : 2 <= length data.
  Notation n := (length data).

  (** What a completed call returns. *)
  Definition asg_result (t : ktree) (g : graph R) : Prop := exists degrees samples,
    map Ok degrees = map (tree_weight a data t) data /\ Forall (fun d => (0 <= d)%R) degrees /\
    (forall i, i < n -> length (samples i) = 2 /\ (forall k, In k (samples i) -> k < n) /\
       exists H, (forall t i v, In (t, i, v) H -> tree_weight a data t (nth i data []) = Ok v) /\ tree_samples unif a data H t i 2 (Ok (samples i))) /\
    number_of_vertices g = n /\ weights_above_eps g /\ reachable g /\
    forall u v, weight g u v = if (u <? n) && (v <? n) then above_eps (asg_weight degrees samples u v) else 0%R.

  Lemma asg_ok r : asg unif ord T a data nc r -> exists t, build T a data 0 nc 0 0 (n - 1) t /\
    ((exists g, r = Ok g /\ asg_result t g) \/ (r = UB /\ exists i, i < n /\ ~ no_zero a data t (nth i data []))).
  Proof.
    unfold asg. rewrite edges_per_node_two by auto. change (2 <? 1)%Z with false. cbv iota.
    change (Z.to_nat 2) with 2. rewrite depth_cutoff_zero. intros (t & degs & B & Ew & H & samples & Hh & Sm & Res). exists t. split; auto.
    destruct (ews_ok T a data 0 nc ord HT Hnc Hord 0 0 (n - 1) t degs B ltac:(lia) Ew) as (degrees & -> & Fd).
    pose proof (hist_ok T a data 0 nc ord HT Hnc Hord 0 0 (n - 1) t H B ltac:(lia) Hh) as HH.
    assert (forall i, i < n -> (exists s, samples i = Ok s /\ length s = 2 /\ forall k, In k s -> 0 <= k <= n - 1) \/ (samples i = UB /\ ~ no_zero a data t (nth i data []))) as Ss
      by (intros i Hi; eapply (samples_ok T a data 0 nc unif HT Ha Hnc Hu H HH 0 0 (n - 1) t B ltac:(lia)); eauto).
    set (ok := forallb (fun i => match samples i with Ok s => 2 <=? length s | _ => false end) (seq 0 n)) in *. destruct ok eqn:Eo.
    - left. set (smp := fun i => match samples i with Ok s => s | _ => [] end) in *.
      assert (forall i, i < n -> length (smp i) = 2 /\ (forall k, In k (smp i) -> k < n) /\
         exists H, (forall t i v, In (t, i, v) H -> tree_weight a data t (nth i data []) = Ok v) /\ tree_samples unif a data H t i 2 (Ok (smp i))) as Hs.
      { intros i Hi. unfold ok in Eo. rewrite forallb_forall in Eo. specialize (Eo i ltac:(apply in_seq; lia)). unfold smp. destruct (Ss i Hi) as [(s & E & L & A)|(E & _)]; rewrite E in *; [|discriminate].
        split; auto. split; [intros k I; apply A in I; lia|]. exists H. split; auto. rewrite <- E. now apply Sm. }
      assert (r = from_triplets_graph n (flat_map (row_writes 2 5%R degrees smp) (seq 0 n))) as ->.
      { change (if ok then (if n <=? T * 2 then r = from_triplets_graph n (fold_left (fun e x => write x e) (chunk_writes 2 5%R degrees smp (seq 0 n) 0) (repeat (0, 0, w0) (2 * (n * 2))))
          else match chunk_size n T with
               | Ok cs => exists s, reach (fun c => map write (chunk_writes 2 5%R degrees smp (chunk_rows n T cs c) (chunk_start cs c))) T true (par_prog T) (repeat (0, 0, w0) (2 * (n * 2))) s /\
                   m s = MEnd /\ r = from_triplets_graph n (sh s)
               | _ => r = UB end) else r = UB) in Res.
        rewrite Eo in Res. destruct (n <=? T * 2).
        - rewrite Res. f_equal. rewrite (chunk_writes_slots 2 _ degrees smp n 0). apply (all_writes 2 5%R degrees smp n).
        - unfold chunk_size in Res. assert (T =? 0 = false) as E0 by (apply Nat.eqb_neq; lia). rewrite E0 in Res. destruct Res as (s & R & E & ->). f_equal.
          exact (parallel_writes 2 5%R degrees smp n T _ s HT R E). }
      set (ts := flat_map (row_writes 2 5%R degrees smp) (seq 0 n)).
      assert (length degrees = n) as Ld by (apply (f_equal (@length _)) in Fd; now rewrite !map_length in Fd).
      assert (Forall (fun d => (0 <= d)%R) degrees) as Pd.
      { apply Forall_forall. intros d I. destruct (In_nth _ _ 0%R I) as (i & Li & <-).
        destruct (tree_weight_ok T a data 0 nc HT Ha Hnc _ _ _ _ B ltac:(lia) (nth i data [])) as (v & Ev & Hv). erewrite nth_map_ok with (vs := degrees) in Ev by (eauto; lia).
        assert (forall u w : R, Ok u = Ok w -> u = w) as inj by (intros ? ? Q; congruence). apply inj in Ev. unfold point in *. rewrite Ev. exact Hv. }
      assert (forall x y w, In (x, y, w) ts -> x < n /\ y < n /\ (0 <= w)%R) as Hts.
      { intros x y w I. destruct (rows_ok 2 5%R degrees smp n x y w) as (H1 & H2 & i & Hi & ->); auto.
        - intros i Hi. destruct (Hs i Hi) as (? & ? & _). split; auto. lia.
        - split; auto. split; auto. cbn [wdiv NumR w0]. rewrite Forall_forall in Pd. specialize (Pd (nth i degrees 0%R) ltac:(apply nth_In; lia)). lra. }
      destruct (from_triplets_graph_spec n ts (fun i j => sum1 (tvals ts i j))) as (g & E & En & Ea & Er & Ew').
      + intros x y w I. apply Hts in I. tauto.
      + reflexivity.
      + intros i j v Ev. assert (o0 (Some v) = lsum (fun x => x) (tvals ts i j)) as Es by (rewrite <- Ev; apply sum1_R). cbn [o0] in Es. cbn [wltb w0 NumR].
        apply not_true_iff_false. rewrite R_ltb_true. assert (0 <= v)%R; [|lra]. rewrite Es. apply lsum_nonneg. intros x I. unfold tvals in I. apply in_map_iff in I as ([[x0 y0] w] & <- & I).
        apply filter_In in I as [I _]. apply Hts in I. cbn [snd]. tauto.
      + intros i j. unfold ts. now rewrite tvals_rows.
      + exists g. split; [exact E|]. exists degrees, smp. split; auto. split; auto. split; auto. split; auto. split; auto. split; auto.
        intros u v. rewrite Ew', sum1_R. destruct ((u <? n) && (v <? n)) eqn:Euv.
        * apply andb_true_iff in Euv as [E1 E2]. apply Nat.ltb_lt in E1, E2. unfold ts. rewrite rows_sum; auto. intros i Hi. now apply Hs.
        * assert (tvals ts u v = []) as ->.
          { unfold tvals. destruct (filter _ ts) as [|[[x y] w] l] eqn:Ef; auto. exfalso. assert (In (x, y, w) (filter (fun t => (fst (fst t) =? u) && (snd (fst t) =? v)) ts)) as I by (rewrite Ef; apply in_eq).
            apply filter_In in I as [I E0]. apply Hts in I as (I1 & I2 & _). cbn [fst snd] in E0. apply andb_true_iff in E0 as [E1 E2]. apply Nat.eqb_eq in E1, E2. subst.
            apply Nat.ltb_lt in I1, I2. rewrite I1, I2 in Euv. discriminate. }
          cbn [lsum]. unfold above_eps. destruct (wltb _ _); reflexivity.
    - right. assert (r = UB) as -> by (change (if ok then (if n <=? T * 2 then r = from_triplets_graph n (fold_left (fun e x => write x e) (chunk_writes 2 5%R degrees (fun i => match samples i with Ok s => s | _ => [] end) (seq 0 n) 0) (repeat (0, 0, w0) (2 * (n * 2))))
          else match chunk_size n T with
               | Ok cs => exists s, reach (fun c => map write (chunk_writes 2 5%R degrees (fun i => match samples i with Ok s => s | _ => [] end) (chunk_rows n T cs c) (chunk_start cs c))) T true (par_prog T) (repeat (0, 0, w0) (2 * (n * 2))) s /\
                   m s = MEnd /\ r = from_triplets_graph n (sh s)
               | _ => r = UB end) else r = UB) in Res; rewrite Eo in Res; exact Res).
      split; auto. unfold ok in Eo. apply not_true_iff_false in Eo. rewrite forallb_forall in Eo.
      assert (exists i, i < n /\ samples i = UB) as (i & Hi & E).
      { destruct (existsb (fun i => match samples i with UB => true | _ => false end) (seq 0 n)) eqn:Ex.
        - apply existsb_exists in Ex as (i & I & E). apply in_seq in I. exists i. split; [lia|]. destruct (samples i); try discriminate; auto.
        - exfalso. apply Eo. intros i I. apply in_seq in I. destruct (Ss i ltac:(lia)) as [(s & -> & -> & _)|(E & _)]; [reflexivity|].
          apply not_true_iff_false in Ex. exfalso. apply Ex. apply existsb_exists. exists i. rewrite E. split; auto. apply in_seq. lia. }
      exists i. split; auto. destruct (Ss i Hi) as [(s & E' & _)|(_ & N)]; [congruence|auto].
  Qed.

  (** While no node below the root has an estimator, the call completes. *)
  Lemma asg_small r : (Z.of_nat n <= 2 * nc)%Z -> asg unif ord T a data nc r -> exists t g, build T a data 0 nc 0 0 (n - 1) t /\ r = Ok g /\ asg_result t g.
  Proof.
    intros Hs A. destruct (asg_ok r A) as (t & B & [(g & E & Rg)|(E & i & Hi & N)]); [exists t, g; auto|]. exfalso. apply N.
    apply (small_no_zero T a data 0 nc HT Hnc 0 (n - 1)); auto; lia.
  Qed.

  Lemma asg_exists x0 : unif x0 -> exists r, asg unif ord T a data nc r.
  Proof.
    intros U0. unfold asg. rewrite edges_per_node_two by auto. change (2 <? 1)%Z with false. cbv iota.
    change (Z.to_nat 2) with 2. rewrite depth_cutoff_zero.
    destruct (build_exists T a data 0 nc HT Hnc 0 0 (n - 1) ltac:(lia)) as [t B].
    destruct (ews_exist T a data ord HT t) as [degs Ew].
    assert (forall i, exists r, tree_samples unif a data [] t i 2 r) as A by (intros i; eapply samples_exist; eauto).
    assert (forall k, exists samples : nat -> outcome (list nat), forall i, i < k -> tree_samples unif a data [] t i 2 (samples i)) as F.
    { induction k as [|k [f IH]]; [exists (fun _ => UB); intros; lia|]. destruct (A k) as [r Hr]. exists (fun i => if i =? k then r else f i). intros i Hi.
      destruct (Nat.eqb_spec i k) as [->|N]; auto. apply IH. lia. }
    destruct (F n) as [samples Sm]. clear A F.
    enough (exists r, match degs with
      | Ok degrees =>
          if forallb (fun i => match samples i with Ok s => 2 <=? length s | _ => false end) (seq 0 n) then
            let smp i := match samples i with Ok s => s | _ => [] end in
            let edges0 := repeat (0, 0, w0) (2 * (n * 2)) in
            let w5 := wofZ 5 in
            if n <=? T * 2 then r = from_triplets_graph n (fold_left (fun e x => write x e) (chunk_writes 2 w5 degrees smp (seq 0 n) 0) edges0)
            else match chunk_size n T with
                 | Ok cs => exists s, reach (fun c => map write (chunk_writes 2 w5 degrees smp (chunk_rows n T cs c) (chunk_start cs c))) T true (par_prog T) edges0 s /\
                     m s = MEnd /\ r = from_triplets_graph n (sh s)
                 | _ => r = UB
                 end
          else r = UB
      | _ => r = UB
      end) as [r Hr].
    { exists r, t, degs. split; auto. split; auto. exists [], samples. split; [constructor|]. split; auto. }
    destruct degs as [degrees| |]; eauto. destruct (forallb _ _); eauto. cbv zeta. destruct (n <=? T * 2); eauto. unfold chunk_size.
    assert (T =? 0 = false) as -> by (apply Nat.eqb_neq; lia).
    destruct (parallel_writes_exist 2 (wofZ 5) degrees (fun i => match samples i with Ok s => s | _ => [] end) n T (0, 0, w0) HT) as (s & R & E). eauto.
  Qed.

  (** Two points: the first one always samples itself, because the degree estimate is one half of the sum of the kernel values. *)
  Lemma asg_two_points t g : n = 2 -> build T a data 0 nc 0 0 (n - 1) t -> asg_result t g -> (2 / 5 <= weight g 0 0)%R.
  Proof.
    intros E2 B (degrees & samples & Fd & Pd & Sm & _ & _ & _ & Wt). rewrite E2 in *. inversion B as [? ? ? L|? ? ? ? ? ? L]; subst; [|exfalso; lia]. simpl (2 - 1) in *.
    destruct (Sm 0 ltac:(lia)) as (L0 & _ & H & HH & S0). cbn [tree_samples] in S0. destruct S0 as (rs & d & Lr & Ur & Ed & Es).
    apply (ev_ok a data H HH) in Ed. cbn [tree_weight] in Ed. subst d. cbn [obind] in Es.
    set (d := wmul (n_node 0 1) (exact_query (leaf_kde a data 0 1) (nth 0 data []))) in *.
    assert (samples 0 = sample_neighbors (leaf_kde a data 0 1) (nth 0 data []) d rs) as Es0 by exact (Ok_inj _ _ Es). clear Es.
    assert (nth 0 degrees 0%R = d) as Ed.
    { assert (tree_weight a data (Leaf 0 1) (nth 0 data []) = Ok (nth 0 degrees 0%R)) as Q by (apply (nth_map_ok _ _ _ _ Fd); lia). symmetry. exact (Ok_inj _ _ Q). }
    pose proof (leaf_weight_R data a 0 1 (nth 0 data []) ltac:(lia)) as Ev. fold d in Ev. change (Z.of_nat (1 - 0)) with 1%Z in Ev. change (Z.of_nat (1 + 1 - 0)) with 2%Z in Ev.
    assert (leaf_total data a 0 1 (nth 0 data []) = 1 + gauss a (nth 0 data []) (nth 1 data []))%R as Et.
    { unfold leaf_total. cbn [seq Nat.add Nat.sub lsum]. rewrite dist2_refl, Rmult_0_r, exp_0. unfold gauss. lra. }
    rewrite Et in Ev. pose proof (gauss_range a (nth 0 data []) (nth 1 data []) ltac:(lra)) as Gr.
    assert (1/2 <= d <= 1)%R as Dr by (rewrite Ev; lra).
    assert (forall k, In k (samples 0) -> k = 0) as Z.
    { intros k I. rewrite Es0 in I. unfold leaf_kde in I.
      destruct (C52_samples data a 0 (1 + 1) (nth 0 data []) d rs ltac:(lia) ltac:(lra) ltac:(intros x Ix; apply Ur, Hu in Ix; lra)) as (ts & P & _ & F).
      assert (exists ti, In ti ts /\ forall y, 0 <= y < k -> (lsum (fun j => exp (- a * dist2 (nth 0 data []) (nth j data [])))%R (seq 0 (y + 1 - 0)) <= ti)%R) as (ti & It & Ft).
      { destruct (Forall2_In_r _ _ _ _ F I) as (ti & It & _ & _ & Ft). apply filter_In in It as [It _]. exists ti. split; [exact It|]. exact Ft. }
      destruct k as [|k]; auto. exfalso. specialize (Ft 0 ltac:(lia)). cbn [seq Nat.add Nat.sub lsum] in Ft. rewrite dist2_refl, Rmult_0_r, exp_0 in Ft.
      apply (Permutation_in _ P) in It. apply in_map_iff in It as (x & <- & Ix). apply Ur, Hu in Ix. assert (d * x <= 1 * x)%R by (apply Rmult_le_compat_r; lra). lra. }
    rewrite Wt. cbn [Nat.ltb Nat.leb andb]. unfold above_eps, asg_weight. rewrite Ed.
    assert (occurrences 0 (samples 0) = 2%R) as ->.
    { unfold occurrences. destruct (samples 0) as [|s0 [|s1 [|]]]; try discriminate. rewrite (Z s0) by (simpl; auto). rewrite (Z s1) by (simpl; auto). simpl. lra. }
    assert (wltb weps (d / 5 * 2 + d / 5 * 2)%R = true) as -> by (cbn [wltb weps NumR]; apply R_ltb_true; lra). lra.
  Qed.

  (** Many equal points: every estimator answers 0, the parameter of the binomial distribution is 0 / 0. *)
  Lemma asg_identical q r : (2 * nc + 2 <= Z.of_nat n)%Z -> (forall x, In x data -> x = q) -> asg unif ord T a data nc r -> r = UB.
  Proof.
    intros Hl Eq A. destruct (asg_ok r A) as (t & B & [(g & -> & Rg)|(E & _)]); auto. exfalso. destruct Rg as (degrees & samples & _ & _ & Sm & _).
    destruct (Sm 0 ltac:(lia)) as (L0 & _ & H & HH & S0). pose proof (Nat.div_mod (0 + (n - 1)) 2 ltac:(lia)). pose proof (Nat.mod_upper_bound (0 + (n - 1)) 2 ltac:(lia)).
    assert (forall lo hi est l r, build T a data 0 nc 1 lo hi (Node lo hi est l r) -> lo <= hi < n -> tree_weight a data (Node lo hi est l r) q = Ok 0%R) as Z.
    { intros lo hi est l r' Bn Hr. inversion Bn as [|? ? ? ? ? ? L E Bl Br]; subst. destruct est as [k|]; [|lia]. destruct E as (_ & copies & hs & Ek & Pc & I).
      destruct (est_copies T data nc HT Hnc lo hi copies L Ek Pc) as [Lc Nc].
      cbn [tree_weight]. assert (ckns_query k q = Ok 0%R) as ->.
      { refine (ckns_same T a _ copies (hi + 1 - lo) 0 hs k q Ha ltac:(lia) _ _ I); [intros ->; simpl in Lc; lia|].
        intros c Ic. apply Pc in Ic. split; [apply Permutation_length in Ic; unfold rows_of in Ic; now rewrite map_length, seq_length in Ic|].
        intros x Ix. apply (Permutation_in _ Ic) in Ix. unfold rows_of in Ix. apply in_map_iff in Ix as (j & <- & Ij). apply in_seq in Ij. apply Eq, nth_In. unfold point in *. lia. }
      cbn [obind wmul NumR]. f_equal. apply Rmult_0_r. }
    inversion B as [? ? ? L|? ? ? est l r' L E Bl Br]; subst; [exfalso; lia|].
    cbn [tree_samples] in S0. destruct S0 as (x & y & nl & ls & rs & Ex & Ey & _ & _ & _ & Er). apply (ev_ok a data H HH) in Ex, Ey. subst x y.
    assert (nth 0 data [] = q) as Eq0 by (apply Eq, nth_In; lia). rewrite Eq0 in Er.
    inversion Bl as [? ? ? Ll|? ? ? ? ? ? Ll El Bll Blr]; subst l; [exfalso; lia|]. inversion Br as [? ? ? Lr|? ? ? ? ? ? Lr Er' Brl Brr]; subst r'; [exfalso; lia|].
    rewrite (Z _ _ _ _ _ Bl), (Z _ _ _ _ _ Br) in Er by lia. cbn [obind] in Er.
    assert (binomial_ok 0%R 0%R = false) as Eb. { unfold binomial_ok. cbn [weqb wadd w0 NumR]. assert (R_eqb (0 + 0) 0 = true) as -> by (apply R_eqb_true; lra). reflexivity. }
    rewrite Eb in Er. discriminate.
  Qed.
End Main.
