(** Labels produced by k-means, for any arithmetic (C57). *)
From Verif Require Import Base Num Sparse Graph Spectrum KMeans.
Local Open Scope nat_scope.

Section Any.
  Context {W : Type} `{Num W}.
  Variables (of_Z : Z -> W) (unit_of : Z -> W) (trunc : W -> Z) (bump : W -> W).

  Lemma pick_le r cs k rest : pick r cs k rest <= k + length rest.
  Proof.
    revert cs k. induction rest as [|x rest IH]; intros cs k; cbn [pick length]; [lia|].
    destruct (wleb cs r); [|lia]. specialize (IH (wadd cs x) (S k)). lia.
  Qed.
  Lemma discrete_rand_ok s p : p <> [] -> exists s' c, discrete_rand unit_of s p = (s', Ok c) /\ c < length p.
  Proof.
    intros Hp. unfold discrete_rand. destruct (mt_draw s) as [s' y]. destruct p as [|x rest]; [congruence|].
    eexists. eexists. split; [reflexivity|]. pose proof (pick_le (wmul (vsum (x :: rest)) (unit_of y)) x 0 rest). cbn [length]. lia.
  Qed.
  Lemma plusplus_loop_ok X : X <> [] -> forall fuel s last mind,
    (forall m, mind = Some m -> length m = length X) ->
    exists s' Mu, plusplus_loop unit_of s X fuel last mind = (s', Ok Mu) /\ length Mu = fuel /\ (forall c, In c Mu -> In c X).
  Proof.
    intros HX. induction fuel as [|f IH]; intros s last mind Hm; cbn [plusplus_loop].
    - exists s, []. repeat split; auto. intros c [].
    - set (m' := match mind with None => _ | Some m => _ end).
      assert (Hl : length m' = length X).
      { unfold m'. destruct mind as [m|].
        - rewrite map_length, combine_length, map_length, (Hm m eq_refl). lia.
        - apply map_length. }
      assert (Hne : m' <> []) by (intros E; rewrite E in Hl; simpl in Hl; destruct X; [congruence|discriminate]).
      destruct (discrete_rand_ok s m' Hne) as (s1 & c & E & Hc). rewrite E. rewrite Hl in Hc.
      destruct (nth_error X c) as [row|] eqn:En; [|apply nth_error_None in En; lia].
      destruct (IH s1 row (Some m')) as (s2 & Mu & E2 & L2 & I2); [intros m [= <-]; exact Hl|]. rewrite E2.
      exists s2, (row :: Mu). split; [reflexivity|]. split; [simpl; lia|]. intros x [<-|Hx]; [eapply nth_error_In; eauto|auto].
  Qed.
  Lemma plusplus_ok s X K : 1 <= K ->
    (0 <= snd (randint of_Z unit_of trunc s (Z.of_nat (length X))) < Z.of_nat (length X))%Z ->
    exists s' Mu, plusplus of_Z unit_of trunc s X K = (s', Ok Mu) /\ length Mu = K /\ (forall c, In c Mu -> In c X).
  Proof.
    intros HK Hr. unfold plusplus. destruct (randint of_Z unit_of trunc s (Z.of_nat (length X))) as [s1 c]. cbn [snd] in Hr.
    destruct (Z.ltb_spec c 0); [lia|]. destruct (nth_error X (Z.to_nat c)) as [row|] eqn:En; [|apply nth_error_None in En; lia].
    destruct (plusplus_loop_ok X ltac:(intros ->; simpl in Hr; lia) (K - 1) s1 row None) as (s2 & Mu & E & L & I); [discriminate|].
    rewrite E. exists s2, (row :: Mu). split; [reflexivity|]. split; [simpl; lia|].
    intros x [<-|Hx]; [eapply nth_error_In; eauto|auto].
  Qed.
  Lemma argmin_from_lt l : forall best bi i d j, argmin_from best bi i l = (d, j) -> bi < i -> j < i + length l.
  Proof.
    induction l as [|x l IH]; intros best bi i d j; cbn [argmin_from length].
    - intros [= _ <-]. lia.
    - destruct (wltb x best); intros E Hb; apply IH in E; lia.
  Qed.
  Lemma argmin_ok (l : list W) : l <> [] -> exists d i, argmin l = Some (d, i) /\ i < length l.
  Proof.
    destruct l as [|x l]; [congruence|]. intros _. cbn [argmin]. destruct (argmin_from x 0 1 l) as [d i] eqn:E. exists d, i.
    split; auto. apply argmin_from_lt in E; simpl; lia.
  Qed.
  Lemma dist_row_length D (x : list W) Mu : length (dist_row D x Mu) = length Mu.
  Proof. unfold dist_row. destruct (D <=? 16); apply map_length. Qed.
  Lemma assign_ok D Mu : Mu <> [] -> forall X t, exists t' zs, assign_closest D X Mu t = Ok (t', zs) /\ length zs = length X /\
    Forall (fun i => i < length Mu) zs.
  Proof.
    intros HM. induction X as [|x X IH]; intros t; cbn [assign_closest].
    - exists t, []. auto.
    - destruct (argmin_ok (dist_row D x Mu)) as (d & i & E & Hi).
      { intros E. apply (f_equal (@length _)) in E. rewrite dist_row_length in E. destruct Mu; [congruence|discriminate]. }
      rewrite E. destruct (IH (wadd t d)) as (t' & zs & E' & L & F). rewrite E'.
      exists t', (i :: zs). split; [reflexivity|]. split; [simpl; lia|]. constructor; auto. rewrite dist_row_length in Hi. exact Hi.
  Qed.
  Lemma calc_mu_length D K X zs : length (calc_mu bump D K X zs) = K.
  Proof. unfold calc_mu. now rewrite map_length, seq_length. Qed.
  Lemma lloyd_ok D K X : 1 <= K -> forall fuel Mu zs prev, length Mu = K -> length zs = length X -> Forall (fun i => i < K) zs ->
    exists out, lloyd bump D K X fuel Mu zs prev = Ok out /\ length out = length X /\ Forall (fun i => i < K) out.
  Proof.
    intros HK. induction fuel as [|f IH]; intros Mu zs prev HM HZ HF; cbn [lloyd]; [eauto|].
    destruct (assign_ok D Mu ltac:(intros ->; simpl in HM; lia) X w0) as (t & z' & E & L & F). rewrite E. rewrite HM in F.
    destruct (weqb prev t); [eauto|]. apply IH; auto. apply calc_mu_length.
  Qed.
  Lemma repeat_zero_lt n K : 1 <= K -> Forall (fun i => i < K) (repeat 0 n).
  Proof. intros HK. induction n; simpl; constructor; auto. Qed.
  Lemma run_kmeans_ok X D K niter seed : 1 <= K ->
    (0 <= snd (randint of_Z unit_of trunc (mt_init seed) (Z.of_nat (length X))) < Z.of_nat (length X))%Z ->
    exists out, run_kmeans of_Z unit_of trunc bump X D K niter seed = Ok out /\ length out = length X /\ Forall (fun i => i < K) out.
  Proof.
    intros HK Hr. unfold run_kmeans. destruct (plusplus_ok (mt_init seed) X K HK Hr) as (s' & Mu & E & L & _). rewrite E. cbn [snd].
    apply lloyd_ok; auto; [apply repeat_length|now apply repeat_zero_lt].
  Qed.
  Lemma rows_of_length n (vecs : list (list W)) : length (rows_of n vecs) = n.
  Proof. unfold rows_of. now rewrite map_length, seq_length. Qed.

  (** Queries do not change the number of vertices. *)
  Lemma init_deg_n (g : graph W) : g_n (init_deg g) = g_n g.
  Proof. unfold init_deg. destruct (c_init (g_deg g)); reflexivity. Qed.
  Lemma mat_query_n q (g : graph W) : q = QLap \/ q = QNLap -> g_n (fst (mat_query q g)) = g_n g.
  Proof.
    intros [-> | ->]; cbn [mat_query fst].
    - unfold init_lap. destruct (c_init (g_lap g)); [reflexivity|]. cbn. apply init_deg_n.
    - unfold init_nlap. destruct (c_init (g_nlap g)); [reflexivity|]. cbn. apply init_deg_n.
  Qed.
  Lemma max_degree_n vs : forall (g : graph W) m, g_n (fst (max_degree g vs m)) = g_n g.
  Proof.
    induction vs as [|v vs IH]; intros g m; cbn [max_degree]; [reflexivity|].
    unfold degree. destruct (check_vertex g (Z.of_nat v)) as [u|e|]; cbn [fst]; auto. rewrite IH. apply init_deg_n.
  Qed.
  Lemma compute_eigensystem_n solver (g : graph W) mat num which :
    number_of_vertices (fst (compute_eigensystem solver g mat num which)) = number_of_vertices g.
  Proof.
    unfold compute_eigensystem, number_of_vertices. destruct ((num <? 1) || _)%Z; [reflexivity|].
    pose proof (max_degree_n (seq 0 (g_n g)) g w0) as E. destruct (max_degree g (seq 0 (g_n g)) w0) as [g1 o]. cbn [fst] in E.
    destruct o as [d|e|]; auto. destruct mat, which; cbn [fst]; auto.
    - pose proof (mat_query_n QLap g1 (or_introl eq_refl)). destruct (mat_query QLap g1). cbn [fst] in *. congruence.
    - pose proof (mat_query_n QLap g1 (or_introl eq_refl)). destruct (mat_query QLap g1). cbn [fst] in *. congruence.
    - pose proof (mat_query_n QNLap g1 (or_intror eq_refl)). destruct (mat_query QNLap g1). cbn [fst] in *. congruence.
    - pose proof (mat_query_n QNLap g1 (or_intror eq_refl)). destruct (mat_query QNLap g1). cbn [fst] in *. congruence.
  Qed.

  Theorem spectral_cluster_invalid solver (g : graph W) k : (k < 1 \/ Z.of_nat (number_of_vertices g) / 2 < k)%Z ->
    snd (spectral_cluster of_Z unit_of trunc bump solver g k) = Throw InvalidArgument.
  Proof.
    intros Hk. unfold spectral_cluster. destruct (Z.ltb_spec k 1); [reflexivity|].
    destruct (Z.ltb_spec (Z.of_nat (number_of_vertices g) / 2) k); [reflexivity|lia].
  Qed.
  (** Whatever the eigensolver delivers, and in any arithmetic. *)
  Theorem spectral_cluster_labels solver (g : graph W) k n : number_of_vertices g = n ->
    (1 <= k <= Z.of_nat n / 2)%Z ->
    (0 <= trunc (wmul (of_Z (Z.of_nat n)) (unit_of 1608637542)) < Z.of_nat n)%Z ->
    match snd (spectral_cluster of_Z unit_of trunc bump solver g k) with
    | Ok labels => length labels = n /\ Forall (fun l => 0 <= l < k)%Z labels
    | Throw e => snd (compute_eigensystem solver g MatNormalisedLaplacian k Smallest) = Throw e
    | UB => snd (compute_eigensystem solver g MatNormalisedLaplacian k Smallest) = UB
    end.
  Proof.
    intros Hn Hk Hr. pose proof (compute_eigensystem_n solver g MatNormalisedLaplacian k Smallest) as Hg. unfold spectral_cluster, compute_eigenvectors. destruct (Z.ltb_spec k 1); [lia|].
    rewrite Hn. destruct (Z.ltb_spec (Z.of_nat n / 2) k); [lia|]. cbn [orb].
    destruct (compute_eigensystem solver g MatNormalisedLaplacian k Smallest) as [g' o]. cbn [fst snd] in *. rewrite Hn in Hg.
    destruct o as [es|e|]; cbn [omap snd]; [|reflexivity|reflexivity]. rewrite Hg.
    destruct (run_kmeans_ok (rows_of n (map snd es)) (Z.to_nat k) (Z.to_nat k) (to_int32 (k * 100)) 42) as (out & E & L & F).
    - lia.
    - unfold randint. pose proof first_draw_42 as D. destruct (mt_draw (mt_init 42)) as [s y]. cbn [snd] in *. subst y.
      rewrite rows_of_length. exact Hr.
    - rewrite E. cbn [omap snd]. rewrite map_length, L, rows_of_length. split; auto.
      rewrite Forall_map. eapply Forall_impl; [|exact F]. intros a Ha. cbv beta in *. lia.
  Qed.
End Any.
