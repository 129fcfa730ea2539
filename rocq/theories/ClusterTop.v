(** Final statements about approximate PageRank and local clustering. *)
From Verif Require Import Base Num RSum Sparse SparseFacts Graph GraphSpec GraphFacts GraphProps1 GraphProps2 GraphProps5
  Cluster ClusterSpec ClusterCC ClusterPR ClusterPR2 ClusterSweep ClusterInst Ppr.
From Coq Require Import Sorting.Sorted Sorting.Permutation Reals Lra Relations.

(** The states (p, r, queue, members) in which approximate_pagerank can be at the head of its loop. *)
Section States.
  Context {W : Type} `{Num W}.
  Inductive apr_state (lg : lgraph W) (alpha eps : W) (s : sprs W) : sprs W -> sprs W -> list nat -> list nat -> Prop :=
  | as_init ds q mem : lg_degrees lg (inner_indices s) = Ok ds ->
      apr_init eps s (inner_indices s) ds [] [] = Ok (q, mem) ->
      apr_state lg alpha eps s (sp_empty (sp_rows s) 1) s q mem
  | as_step p r u q mem p' r' q' mem' : apr_state lg alpha eps s p r (u :: q) mem ->
      apr_step lg alpha eps p r u q mem = Ok (p', r', q', mem') ->
      apr_state lg alpha eps s p' r' q' mem'.

  Lemma apr_loop_state (lg : lgraph W) alpha eps s : forall fuel p r q mem p' r',
    apr_state lg alpha eps s p r q mem -> apr_loop fuel lg alpha eps p r q mem = Some (Ok (p', r')) ->
    exists mem', apr_state lg alpha eps s p' r' [] mem'.
  Proof.
    induction fuel as [|fuel IH]; intros p r q mem p' r' Hst; destruct q as [|u q]; simpl; try discriminate.
    - intros [= <- <-]. eauto.
    - intros [= <- <-]. eauto.
    - destruct (apr_step lg alpha eps p r u q mem) as [[[[p1 r1] q1] mem1]| |] eqn:E; try discriminate.
      intros El. eapply IH; [|exact El]. eapply as_step; eauto.
  Qed.
  (** What a normal return tells about the arguments and the final state. *)
  Lemma apr_return (lg : lgraph W) fuel (s : sprs W) alpha eps (p r : sprs W) : approximate_pagerank fuel lg s alpha eps = Some (Ok (p, r)) ->
    sp_ncols s = 1 /\ lg_exists lg (Z.of_nat (sp_rows s) - 1) = true /\
    wltb alpha w0 = false /\ wltb w1 alpha = false /\ wleb eps w0 = false /\
    (exists ds q mem, lg_degrees lg (inner_indices s) = Ok ds /\
      apr_init eps s (inner_indices s) ds [] [] = Ok (q, mem) /\
      apr_loop fuel lg alpha eps (sp_empty (sp_rows s) 1) s q mem = Some (Ok (p, r))) /\
    exists mem, apr_state lg alpha eps s p r [] mem.
  Proof.
    unfold approximate_pagerank.
    destruct (Nat.ltb_spec 1 (sp_ncols s)); try discriminate.
    destruct (lg_exists lg (Z.of_nat (sp_rows s) - 1)) eqn:E1; simpl; try discriminate.
    destruct (wltb alpha w0) eqn:E2; simpl; try discriminate.
    destruct (wltb w1 alpha) eqn:E3; simpl; try discriminate.
    destruct (wleb eps w0) eqn:E4; try discriminate.
    destruct (Nat.eqb_spec (sp_ncols s) 0); try discriminate.
    destruct (lg_degrees lg (inner_indices s)) as [ds| |] eqn:E5; try discriminate.
    destruct (apr_init eps s (inner_indices s) ds [] []) as [[q mem]| |] eqn:E6; try discriminate.
    intros El. repeat split; auto; [lia| |].
    - exists ds, q, mem. auto.
    - eapply apr_loop_state; [|exact El]. eapply as_init; eauto.
  Qed.

  Lemma apr_state_inv (lg : lgraph W) (P : nat -> Prop) alpha eps (s p r : sprs W) q mem : lg_ok lg ->
    (forall v, P v -> lg_has lg v) -> (forall v u, P v -> In u (nb lg v) -> P u) ->
    vwf s -> (forall k, In k (vkeys s) -> P k) ->
    apr_state lg alpha eps s p r q mem -> apr_inv lg P eps p r q mem.
  Proof.
    intros Hlg HP Hcl Hs Hk Hst. induction Hst as [ds q mem Ed Ei|p r u q mem p' r' q' mem' Hst IH Es].
    - eapply apr_start; eauto. now split.
    - destruct (apr_step_inv lg Hlg P HP Hcl alpha eps p r u q mem IH) as (p1 & r1 & q1 & m1 & E & _ & Hi & _).
      rewrite E in Es. injection Es as <- <- <- <-. exact Hi.
  Qed.
  Lemma apr_keys_exist (lg : lgraph W) (s : sprs W) ds : lg_ok lg -> vwf s -> lg_degrees lg (inner_indices s) = Ok ds ->
    forall k, In k (vkeys s) -> lg_has lg k.
  Proof.
    intros Hlg [Hc _] Ed k Hk. apply (lg_degrees_inv lg Hlg _ _ Ed).
    unfold inner_indices, vkeys, sp_col, sp_ncols in *.
    destruct (sp_cols s) as [|c [|? ?]]; simpl in *; try discriminate. now rewrite app_nil_r.
  Qed.

  (** Post-condition for every number type. *)
  Lemma apr_post (lg : lgraph W) fuel (s : sprs W) alpha eps (p r : sprs W) : lg_ok lg -> vwf s ->
    approximate_pagerank fuel lg s alpha eps = Some (Ok (p, r)) ->
    vwf p /\ vwf r /\
    (forall k, In k (vkeys p) -> lg_has lg k) /\ (forall k, In k (vkeys r) -> lg_has lg k) /\
    forall k, (~ In k (vkeys r) /\ vget r k = w0) \/ weqb (dg lg k) w0 = true \/ wleb (wmul eps (dg lg k)) (vget r k) = false.
  Proof.
    intros Hlg Hs E. destruct (apr_return lg fuel s alpha eps p r E) as (_ & _ & _ & _ & _ & (ds & q & mem & Ed & _) & mem' & Hst).
    pose proof (apr_keys_exist lg s ds Hlg Hs Ed) as Hk.
    destruct (apr_state_inv lg (lg_has lg) alpha eps s p r [] mem' Hlg) as [Hp Hr _ _ _ Hsm]; auto.
    { intros v u Hv Hu. eapply (lo_closed lg Hlg); eauto. }
    destruct Hp as [Hp Hpk], Hr as [Hr Hrk]. split; auto. split; auto. split; auto. split; auto.
    intros k. destruct (in_dec Nat.eq_dec k (vkeys r)) as [Hi|Hi].
    - right. destruct (Hsm k Hi) as [[]|[?|?]]; auto.
    - left. split; auto. now apply vget_keys.
  Qed.

  (** Only vertices reachable from the support of the seed are touched. *)
  Lemma apr_explored (lg : lgraph W) fuel (s : sprs W) alpha eps (p r : sprs W) : lg_ok lg -> vwf s ->
    approximate_pagerank fuel lg s alpha eps = Some (Ok (p, r)) ->
    forall k, In k (vkeys p) \/ In k (vkeys r) -> exists u, In u (vkeys s) /\ lg_path lg (Z.of_nat u) (Z.of_nat k).
  Proof.
    intros Hlg Hs E. destruct (apr_return lg fuel s alpha eps p r E) as (_ & _ & _ & _ & _ & (ds & q & mem & Ed & _) & mem' & Hst).
    pose proof (apr_keys_exist lg s ds Hlg Hs Ed) as Hk.
    set (P := fun v => lg_has lg v /\ exists u, In u (vkeys s) /\ lg_path lg (Z.of_nat u) (Z.of_nat v)).
    destruct (apr_state_inv lg P alpha eps s p r [] mem' Hlg) as [[_ Hp] [_ Hr] _ _ _ _]; auto.
    - intros v [Hv _]. exact Hv.
    - intros v u [Hv (x & Hx & Hpx)] Hu. split; [eapply (lo_closed lg Hlg); eauto|].
      exists x. split; auto. eapply rt_trans; [exact Hpx|]. apply rt_step. exists (nb lg v).
      split; [now apply (lo_nunw lg Hlg)|]. now apply in_map.
    - intros k Hin. split; auto. exists k. split; auto. apply rt_refl.
    - intros k [Hi|Hi]; [destruct (Hp k Hi)|destruct (Hr k Hi)]; auto.
  Qed.
  (** The loop never throws. *)
  Lemma apr_loop_safe (lg : lgraph W) (P : nat -> Prop) alpha eps : lg_ok lg ->
    (forall v, P v -> lg_has lg v) -> (forall v u, P v -> In u (nb lg v) -> P u) ->
    forall fuel p r q mem, apr_inv lg P eps p r q mem ->
    apr_loop fuel lg alpha eps p r q mem = None \/ exists p' r', apr_loop fuel lg alpha eps p r q mem = Some (Ok (p', r')).
  Proof.
    intros Hlg HP Hcl. induction fuel as [|fuel IH]; intros p r q mem Hi; destruct q as [|u q]; simpl; eauto.
    destruct (apr_step_inv lg Hlg P HP Hcl alpha eps p r u q mem Hi) as (p1 & r1 & q1 & m1 & -> & _ & Hi1 & _).
    now apply IH.
  Qed.
  (** More fuel does not change a result. *)
  Lemma apr_loop_more (lg : lgraph W) alpha eps : forall fuel k p r q mem x,
    apr_loop fuel lg alpha eps p r q mem = Some x -> apr_loop (fuel + k) lg alpha eps p r q mem = Some x.
  Proof.
    induction fuel as [|fuel IH]; intros k p r q mem x; destruct q as [|u q]; simpl; try discriminate.
    - destruct k; simpl; auto.
    - auto.
    - destruct (apr_step lg alpha eps p r u q mem) as [[[[p1 r1] q1] mem1]| |]; auto.
  Qed.
  Lemma apr_more (lg : lgraph W) (s : sprs W) alpha eps fuel k x :
    approximate_pagerank fuel lg s alpha eps = Some x -> approximate_pagerank (fuel + k) lg s alpha eps = Some x.
  Proof.
    unfold approximate_pagerank. repeat match goal with |- context [if ?b then _ else _] => destruct b; auto end.
    destruct (lg_degrees lg (inner_indices s)); auto. destruct (apr_init _ _ _ _ _ _) as [[q mem]| |]; auto.
    apply apr_loop_more.
  Qed.
End States.

Section PRTop.
  Context {W : Type} `{ExactNum W}.
  Local Open Scope R_scope.
  Variable lg : lgraph W.
  Variable w : nat -> nat -> R.
  Hypothesis Hs : lg_spec lg w.
  Hypothesis no_loop : forall v, w v v = 0.
  Let Hcl : forall v u, lg_has lg v -> In u (nb lg v) -> lg_has lg u := lo_closed lg (ls_ok lg w Hs).

  Lemma vsum_empty F n : vsum F (sp_empty n 1 : sprs W) = 0.
  Proof. reflexivity. Qed.
  Lemma rv_empty n k : rv (sp_empty n 1 : sprs W) k = 0.
  Proof. unfold rv, vget, coeff, sp_get, sp_empty, sp_col. simpl. apply toR_0. Qed.
  Lemma pr_init alpha eps (s : sprs W) ds q mem : vwf s -> lg_degrees lg (inner_indices s) = Ok ds ->
    apr_init eps s (inner_indices s) ds [] [] = Ok (q, mem) ->
    pr_inv lg w (lg_has lg) alpha eps s (sp_empty (sp_rows s) 1) s q mem /\
    ((forall k, 0 <= rv s k) -> pr_pos lg eps (sp_empty (sp_rows s) 1) s q).
  Proof.
    intros Hv Ed Ei.
    destruct (apr_start lg (ls_ok lg w Hs) (lg_has lg) eps s q mem ds) as [Hst Hq]; auto.
    { split; auto. eapply apr_keys_exist; eauto. apply (ls_ok lg w Hs). }
    assert (Hdeg : forall k, In k q -> 0 < ldeg lg k).
    { intros k Hk. destruct (Hq k Hk) as [E _].
      assert (Hh : lg_has lg k).
      { apply (apr_keys_exist lg s ds); auto; [apply (ls_ok lg w Hs)|]. apply (ai_q _ _ _ _ _ _ _ Hst k Hk). }
      pose proof (ldeg_nonneg lg w Hs no_loop k Hh). unfold ldeg in *.
      destruct (Req_dec (toR (dg lg k)) 0) as [E0|]; [|lra]. rewrite <- toR_0 in E0. apply toR_eqb in E0. congruence. }
    split.
    - constructor; auto.
      + intros v. rewrite rv_empty. unfold walk. rewrite vsum_empty. lra.
      + unfold vmass. rewrite vsum_empty. lra.
    - intros Hnn. constructor; auto.
      + intros k. rewrite rv_empty. lra.
      + intros k Hk. destruct (Hq k Hk) as [_ Hle]. apply toR_leb in Hle. now rewrite toR_mul in Hle.
  Qed.
  Lemma pr_state alpha eps (s p r : sprs W) q mem : vwf s -> apr_state lg alpha eps s p r q mem ->
    pr_inv lg w (lg_has lg) alpha eps s p r q mem /\
    (0 <= toR alpha <= 1 -> (forall k, 0 <= rv s k) -> pr_pos lg eps p r q).
  Proof.
    intros Hv Hst. induction Hst as [ds q mem Ed Ei|p r u q mem p' r' q' mem' Hst [IH IHp] Es].
    - destruct (pr_init alpha eps s ds q mem Hv Ed Ei) as [Hi Hp]. split; auto.
    - destruct (pr_step lg w Hs no_loop (lg_has lg) (fun v h => h) Hcl alpha eps s p r u q mem IH)
        as (p1 & r1 & q1 & m1 & E & Hi & _ & Hp).
      rewrite E in Es. injection Es as <- <- <- <-. split; auto.
  Qed.
  Lemma alpha_range (alpha : W) : wltb alpha w0 = false -> wltb w1 alpha = false -> 0 <= toR alpha <= 1.
  Proof. intros E1 E2. apply toR_ltb_false in E1, E2. rewrite toR_0 in E1. rewrite toR_1 in E2. lra. Qed.

  (** The invariant, in every state of the loop. *)
  Lemma pagerank_invariant alpha eps (s p r : sprs W) q mem : vwf s -> apr_state lg alpha eps s p r q mem ->
    (forall v, rv p v - (1 - toR alpha) * walk lg w p v + toR alpha * rv r v = toR alpha * rv s v) /\
    vmass p + vmass r = vmass s.
  Proof. intros Hv Hst. destruct (pr_state _ _ _ _ _ _ _ Hv Hst) as [[_ _ Hl Hm] _]. auto. Qed.
  Lemma pagerank_result fuel (s : sprs W) alpha eps p r : vwf s ->
    approximate_pagerank fuel lg s alpha eps = Some (Ok (p, r)) ->
    (forall v, rv p v - (1 - toR alpha) * walk lg w p v + toR alpha * rv r v = toR alpha * rv s v) /\
    vmass p + vmass r = vmass s /\
    ((forall k, 0 <= rv s k) -> (forall k, 0 <= rv p k) /\ (forall k, 0 <= rv r k)) /\
    (forall k, lg_has lg k -> ldeg lg k <> 0 -> rv r k < toR eps * ldeg lg k).
  Proof.
    intros Hv E. destruct (apr_post lg fuel s alpha eps p r (ls_ok lg w Hs) Hv E) as (_ & _ & _ & _ & Hpost).
    destruct (apr_return lg fuel s alpha eps p r E) as (_ & _ & E1 & E2 & E3 & _ & mem & Hst).
    pose proof (alpha_range alpha E1 E2) as Ha.
    destruct (pr_state _ _ _ _ _ _ _ Hv Hst) as [[_ _ Hl Hm] Hp]. split; auto. split; auto. split.
    - intros Hnn. destruct (Hp Ha Hnn) as [Hpp Hpr _]. auto.
    - intros k Hk Hd. pose proof (ldeg_nonneg lg w Hs no_loop k Hk) as Hdn.
      destruct (wleb eps w0) eqn:E4; [discriminate|].
      assert (He : 0 < toR eps).
      { destruct (Rlt_le_dec 0 (toR eps)) as [|Hle]; auto. rewrite <- toR_0 in Hle. apply toR_leb in Hle. congruence. }
      destruct (Hpost k) as [[_ E0]|[E0|E0]].
      + unfold rv. rewrite E0, toR_0. apply Rmult_lt_0_compat; auto. lra.
      + apply toR_eqb in E0. rewrite toR_0 in E0. unfold ldeg in Hd. tauto.
      + destruct (Rlt_le_dec (rv r k) (toR eps * ldeg lg k)) as [|Hle]; auto.
        unfold ldeg, rv in Hle. rewrite <- toR_mul in Hle. apply toR_leb in Hle. congruence.
  Qed.
  (** Termination with an explicit bound on the number of pushes. *)
  Lemma pagerank_total fuel (s : sprs W) alpha eps delta : vwf s ->
    (forall k, In k (vkeys s) -> lg_has lg k) -> lg_exists lg (Z.of_nat (sp_rows s) - 1) = true ->
    0 < toR alpha <= 1 -> 0 < toR eps -> (forall k, 0 <= rv s k) ->
    0 < delta -> (forall k, lg_has lg k -> 0 < ldeg lg k -> delta <= ldeg lg k) ->
    vmass s < INR fuel * (toR alpha * toR eps * delta) ->
    exists p r, approximate_pagerank fuel lg s alpha eps = Some (Ok (p, r)).
  Proof.
    intros Hv Hk He Ha Hep Hnn Hd Hmin Hf. unfold approximate_pagerank.
    destruct Hv as [Hc Hwf] eqn:EHv. rewrite Hc. simpl (1 <? 1)%nat. cbv iota. rewrite He. simpl negb. cbv iota.
    assert (wltb alpha w0 = false) as -> by (apply toR_ltb_false; rewrite toR_0; lra).
    assert (wltb w1 alpha = false) as -> by (apply toR_ltb_false; rewrite toR_1; lra). simpl orb. cbv iota.
    assert (wleb eps w0 = false) as ->.
    { destruct (wleb eps w0) eqn:E; auto. apply toR_leb in E. rewrite toR_0 in E. lra. }
    simpl (1 =? 0)%nat. cbv iota.
    assert (Ed : lg_degrees lg (inner_indices s) = Ok (map (dg lg) (inner_indices s))).
    { apply (lg_degrees_ok lg (ls_ok lg w Hs)). intros v Hin. apply Hk. now rewrite <- inner_vkeys. }
    rewrite Ed. destruct (apr_init_spec lg eps s (inner_indices s) [] []) as (q & mem & Ei & _); [tauto|].
    rewrite Ei. destruct (pr_init alpha eps s _ q mem (conj Hc Hwf) Ed Ei) as [Hi Hp].
    apply (pr_loop_total lg w Hs no_loop (lg_has lg) (fun v h => h) Hcl alpha eps s delta); auto.
    unfold vmass at 2. rewrite vsum_empty. lra.
  Qed.
End PRTop.

(** ** Graphs *)
Section GraphPR.
  Context {W : Type} `{ExactNum W}.
  Local Open Scope R_scope.

  Lemma vsum_rsum n F (x : sprs W) : vwf x -> (forall k, In k (vkeys x) -> (k < n)%nat) -> (forall k, F k 0 = 0) ->
    vsum F x = rsum n (fun k => F k (rv x k)).
  Proof.
    intros Hx Hk F0. pose proof (vkeys_sorted x Hx) as Hss. pose proof (ss_lt_nodup _ Hss) as Hnd.
    transitivity (lsum (fun k => F k (rv x k)) (vkeys x)).
    - unfold vsum, vkeys. rewrite lsum_map. apply lsum_ext. intros [k t] He. simpl.
      unfold rv, vget, coeff, sp_get. rewrite (In_col_get (sp_col x 0) k t); auto.
    - unfold rsum. transitivity (lsum (fun k => if nmem k (vkeys x) then F k (rv x k) else 0) (seq 0 n)).
      + rewrite <- lsum_inter; auto using seq_NoDup. apply lsum_ext. intros k Hin.
        destruct (nmem k (seq 0 n)) eqn:E; auto. apply nmem_false in E. exfalso. apply E, in_seq. specialize (Hk k Hin). lia.
      + apply lsum_ext. intros k _. destruct (nmem k (vkeys x)) eqn:E; auto.
        apply nmem_false in E. unfold rv. rewrite vget_keys by auto. now rewrite toR_0.
  Qed.
  (** Transition probabilities of the lazy random walk on a graph: stay with probability 1/2, else
      move along an edge chosen with probability proportional to its weight. *)
  Definition glazy (g : graph W) (u v : nat) : R := (if (u =? v)%nat then / 2 else 0) + rw g u v / (2 * rdeg g u).

  Lemma rdeg_nonneg (g : graph W) u : reachable_pos g -> 0 <= rdeg g u.
  Proof.
    intros Hr. unfold rdeg. pose proof (rw_nonneg g u u Hr).
    assert (0 <= rsum (g_n g) (fun x => rw g u x)) by (apply rsum_nonneg; intros; now apply rw_nonneg). lra.
  Qed.
  Lemma rdeg_zero (g : graph W) u v : reachable_pos g -> rdeg g u = 0 -> rw g u v = 0.
  Proof.
    intros Hr E. unfold rdeg in E. pose proof (rw_nonneg g u u Hr).
    assert (Hn : 0 <= rsum (g_n g) (fun x => rw g u x)) by (apply rsum_nonneg; intros; now apply rw_nonneg).
    destruct (le_lt_dec (number_of_vertices g) v) as [Hv|Hv].
    - apply rw_out; auto. now apply reachable_pos_reachable.
    - assert (rw g u v <= rsum (g_n g) (fun x => rw g u x)).
      { apply (rsum_ge_elt (g_n g) (fun x => rw g u x)); auto. intros. now apply rw_nonneg. }
      pose proof (rw_nonneg g u v Hr). lra.
  Qed.
  Lemma glazy_nonneg (g : graph W) u v : reachable_pos g -> 0 <= glazy g u v.
  Proof.
    intros Hr. unfold glazy. pose proof (rw_nonneg g u v Hr). pose proof (rdeg_nonneg g u Hr).
    assert (0 <= rw g u v / (2 * rdeg g u)).
    { destruct (Req_dec (rdeg g u) 0) as [E|E].
      - rewrite (rdeg_zero g u v Hr E). unfold Rdiv. lra.
      - apply Rmult_le_pos; auto. left. apply Rinv_0_lt_compat. lra. }
    destruct (u =? v)%nat; lra.
  Qed.
  Lemma glazy_row (g : graph W) u : reachable_pos g -> (u < number_of_vertices g)%nat -> rw g u u = 0 ->
    rsum (number_of_vertices g) (glazy g u) = (if Req_EM_T (rdeg g u) 0 then / 2 else 1).
  Proof.
    intros Hr Hu Hl. unfold glazy. rewrite rsum_plus.
    rewrite (rsum_delta' (number_of_vertices g) u (fun _ => / 2)) by auto.
    assert (E : rsum (number_of_vertices g) (fun v => rw g u v / (2 * rdeg g u)) = rdeg g u / (2 * rdeg g u)).
    { unfold Rdiv. rewrite rsum_scal_r. unfold rdeg at 2. rewrite Hl, Rplus_0_r. reflexivity. }
    rewrite E. destruct (Req_EM_T (rdeg g u) 0) as [E0|E0]; [rewrite E0; lra|]. field. auto.
  Qed.
  Lemma glazy_sub (g : graph W) u : reachable_pos g -> (u < number_of_vertices g)%nat -> rw g u u = 0 ->
    rsum (number_of_vertices g) (glazy g u) <= 1.
  Proof. intros Hr Hu Hl. rewrite glazy_row by auto. destruct (Req_EM_T (rdeg g u) 0); lra. Qed.

  Lemma glazy_lazy (g : graph W) u v : reachable g -> (u < number_of_vertices g)%nat ->
    lazy_step (lg_of_graph g) (rw g) u v = glazy g u v.
  Proof. intros Hr Hu. unfold lazy_step, glazy. now rewrite graph_ldeg. Qed.

  Variable g : graph W.
  Hypothesis Hr : reachable_pos g.
  Hypothesis no_loop : forall v, rw g v v = 0.
  Let n := number_of_vertices g.

  Lemma graph_keys (fuel : nat) (s : sprs W) alpha eps p r : vwf s ->
    approximate_pagerank fuel (lg_of_graph g) s alpha eps = Some (Ok (p, r)) ->
    vwf p /\ vwf r /\ (forall k, In k (vkeys s) -> (k < n)%nat) /\
    (forall k, In k (vkeys p) -> (k < n)%nat) /\ (forall k, In k (vkeys r) -> (k < n)%nat).
  Proof.
    intros Hv E. pose proof (graph_lg_spec g Hr) as Hs.
    destruct (apr_post _ _ _ _ _ _ _ (ls_ok _ _ Hs) Hv E) as (Hp & Hrr & Hkp & Hkr & _).
    destruct (apr_return _ _ _ _ _ _ _ E) as (_ & _ & _ & _ & _ & (ds & q & mem & Ed & _) & _).
    split; [exact Hp|]. split; [exact Hrr|]. split; [|split].
    - intros k Hk. apply graph_has. apply (apr_keys_exist (lg_of_graph g) s ds (ls_ok _ _ Hs) Hv Ed k Hk).
    - intros k Hk. apply graph_has. auto.
    - intros k Hk. apply graph_has. auto.
  Qed.

  (** The PageRank vector of the seed is p plus the PageRank vector of r. *)
  Lemma graph_ppr (fuel : nat) (s : sprs W) alpha eps p r qs qr : vwf s -> 0 < toR alpha ->
    approximate_pagerank fuel (lg_of_graph g) s alpha eps = Some (Ok (p, r)) ->
    is_ppr n (glazy g) (toR alpha) (rv s) qs -> is_ppr n (glazy g) (toR alpha) (rv r) qr ->
    forall v, (v < n)%nat -> qs v = rv p v + qr v.
  Proof.
    intros Hv Ha E Hqs Hqr v Hvn. pose proof (graph_lg_spec g Hr) as Hs.
    destruct (apr_return _ _ _ _ _ _ _ E) as (_ & _ & E1 & E2 & _).
    pose proof (alpha_range alpha E1 E2) as Har.
    destruct (graph_keys fuel s alpha eps p r Hv E) as (Hp & Hrr & Hks & Hkp & Hkr).
    destruct (pagerank_result _ _ Hs no_loop fuel s alpha eps p r Hv E) as (Hl & _).
    apply (ppr_unique n (glazy g) (toR alpha)) with (s := rv s) (q' := fun v => rv p v + qr v); auto.
    - intros. now apply glazy_nonneg.
    - intros u Hu. apply glazy_sub; auto.
    - lra.
    - intros u Hu. rewrite (Hqr u Hu). specialize (Hl u).
      assert (Ew : walk (lg_of_graph g) (rw g) p u = rsum n (fun x => rv p x * glazy g x u)).
      { unfold walk. rewrite (vsum_rsum n) by (auto; intros; lra). apply rsum_ext. intros x Hx.
        rewrite glazy_lazy by (auto; now apply reachable_pos_reachable). reflexivity. }
      rewrite Ew in Hl.
      assert (Es : rsum n (fun x => (rv p x + qr x) * glazy g x u) =
                   rsum n (fun x => rv p x * glazy g x u) + rsum n (fun x => qr x * glazy g x u)).
      { rewrite <- rsum_plus. apply rsum_ext. intros. lra. }
      rewrite Es. lra.
  Qed.
  Lemma graph_ppr_exists alpha (s : nat -> R) : 0 < alpha <= 1 -> exists q, is_ppr n (glazy g) alpha s q.
  Proof.
    intros Ha. apply ppr_exists; auto.
    - intros. now apply glazy_nonneg.
    - intros u Hu. apply glazy_sub; auto.
  Qed.
  (** Quality of the approximation. *)
  Lemma graph_ppr_error (fuel : nat) (s : sprs W) alpha eps p r qs : vwf s -> 0 < toR alpha -> (forall k, 0 <= rv s k) ->
    approximate_pagerank fuel (lg_of_graph g) s alpha eps = Some (Ok (p, r)) ->
    is_ppr n (glazy g) (toR alpha) (rv s) qs ->
    forall v, (v < n)%nat -> rdeg g v <> 0 -> rv p v <= qs v <= rv p v + toR eps * rdeg g v.
  Proof.
    intros Hv Ha Hnn E Hqs v Hvn Hd. pose proof (graph_lg_spec g Hr) as Hs.
    destruct (apr_return _ _ _ _ _ _ _ E) as (_ & _ & E1 & E2 & E3 & _).
    pose proof (alpha_range alpha E1 E2) as Har.
    destruct (pagerank_result _ _ Hs no_loop fuel s alpha eps p r Hv E) as (_ & _ & Hpos & Hlt).
    destruct (Hpos Hnn) as [Hpp Hpr].
    destruct (graph_ppr_exists (toR alpha) (rv r)) as [qr Hqr]; [lra|].
    rewrite (graph_ppr fuel s alpha eps p r qs qr Hv Ha E Hqs Hqr v Hvn).
    assert (Hsub : forall u, (u < n)%nat -> rsum n (glazy g u) <= 1) by (intros; apply glazy_sub; auto).
    assert (Hgn : forall u x, 0 <= glazy g u x) by (intros; now apply glazy_nonneg).
    assert (0 <= qr v).
    { apply (ppr_nonneg n (glazy g) (toR alpha) Hgn Hsub (conj Ha (proj2 Har)) (rv r)); auto. }
    assert (He : 0 < toR eps).
    { destruct (Rlt_le_dec 0 (toR eps)) as [|Hle]; auto. rewrite <- toR_0 in Hle. apply toR_leb in Hle. congruence. }
    pose proof (reachable_pos_reachable g Hr) as Hr'.
    set (d := fun u => if Req_EM_T (rdeg g u) 0 then rv r u else toR eps * rdeg g u).
    assert (Hle : qr v <= d v).
    { apply (ppr_below n (glazy g) (toR alpha) Hgn Hsub (conj Ha (proj2 Har)) (rv r)); auto. intros x Hx.
      assert (Esum : rsum n (fun u => d u * glazy g u x) =
                d x / 2 + rsum n (fun u => toR eps * (rw g u x / 2))).
      { transitivity (rsum n (fun u => (if (u =? x)%nat then d u / 2 else 0) + toR eps * (rw g u x / 2))).
        - apply rsum_ext. intros u Hu. unfold glazy.
          assert (d u * (rw g u x / (2 * rdeg g u)) = toR eps * (rw g u x / 2)) as <-.
          { unfold d. destruct (Req_EM_T (rdeg g u) 0) as [E0|E0].
            - rewrite (rdeg_zero g u x Hr E0). unfold Rdiv. lra.
            - field. auto. }
          destruct (u =? x)%nat; lra.
        - rewrite rsum_plus. f_equal. now apply (rsum_delta n x (fun u => d u / 2)). }
      rewrite Esum. rewrite rsum_scal. unfold Rdiv at 2. rewrite rsum_scal_r.
      assert (Ecol : rsum n (fun u => rw g u x) = rdeg g x).
      { unfold rdeg. rewrite no_loop, Rplus_0_r. apply rsum_ext. intros u Hu. now apply rw_sym. }
      rewrite Ecol. unfold d. destruct (Req_EM_T (rdeg g x) 0) as [E0|E0].
      - rewrite E0. specialize (Hpr x).
        assert (0 <= (1 - toR alpha) * (rv r x / 2)) by (apply Rmult_le_pos; lra). lra.
      - specialize (Hlt x). rewrite graph_ldeg in Hlt by auto.
        assert (rv r x < toR eps * rdeg g x) as Hx2 by (apply Hlt; [now apply graph_has|auto]).
        assert (toR alpha * rv r x <= toR alpha * (toR eps * rdeg g x)) by (apply Rmult_le_compat_l; lra). lra. }
    unfold d in Hle. destruct (Req_EM_T (rdeg g v) 0); [tauto|]. lra.
  Qed.

  Lemma min_degree : exists delta, 0 < delta /\ forall k, (k < n)%nat -> 0 < rdeg g k -> delta <= rdeg g k.
  Proof.
    assert (Hm : forall m, exists delta, 0 < delta /\ forall k, (k < m)%nat -> 0 < rdeg g k -> delta <= rdeg g k).
    { induction m as [|m (d & Hd & IH)]; [exists 1; split; [lra|lia]|].
      destruct (Rlt_le_dec 0 (rdeg g m)) as [Hp|Hn].
      - exists (Rmin d (rdeg g m)). split; [now apply Rmin_glb_lt|]. intros k Hk Hkp.
        destruct (Nat.eq_dec k m) as [->|]; [apply Rmin_r|]. eapply Rle_trans; [apply Rmin_l|]. apply IH; auto. lia.
      - exists d. split; auto. intros k Hk Hkp. destruct (Nat.eq_dec k m) as [->|]; [lra|]. apply IH; auto. lia. }
    apply Hm.
  Qed.
  Lemma graph_pagerank_terminates (s : sprs W) alpha eps : vwf s -> (0 < sp_rows s <= n)%nat ->
    0 < toR alpha <= 1 -> 0 < toR eps -> (forall k, 0 <= rv s k) ->
    exists N, forall fuel, (N <= fuel)%nat -> exists p r,
      approximate_pagerank fuel (lg_of_graph g) s alpha eps = Some (Ok (p, r)).
  Proof.
    intros Hv Hrows Ha He Hnn. destruct min_degree as (delta & Hd & Hmin).
    pose proof (graph_lg_spec g Hr) as Hs. pose proof (reachable_pos_reachable g Hr) as Hr'.
    set (c := toR alpha * toR eps * delta).
    assert (Hc : 0 < c) by (apply Rmult_lt_0_compat; auto; apply Rmult_lt_0_compat; lra).
    destruct (archimed (vmass s / c)) as [Hup _]. set (N := Z.to_nat (up (vmass s / c))). exists N. intros fuel Hf.
    apply (pagerank_total _ _ Hs no_loop fuel s alpha eps delta); auto.
    - intros k Hk. apply graph_has. destruct Hv as [_ Hwf]. pose proof (sp_wf_col s 0 Hwf) as [_ Hb].
      rewrite Forall_forall in Hb. specialize (Hb k Hk). unfold n in *. lia.
    - apply vertex_exists_spec. unfold n in *. lia.
    - intros k Hk Hpos. apply graph_has in Hk. rewrite graph_ldeg in * by auto. now apply Hmin.
    - fold c. apply Rmult_lt_reg_r with (/ c); [now apply Rinv_0_lt_compat|].
      rewrite Rmult_assoc, Rinv_r by lra. rewrite Rmult_1_r.
      apply Rlt_le_trans with (IZR (up (vmass s / c))); [exact Hup|].
      rewrite INR_IZR_INZ. apply IZR_le. unfold N in Hf. lia.
  Qed.
End GraphPR.

(** ** Local clustering *)
Section LocalCluster.
  Context {W : Type} `{Num W}.

  Lemma div_entries_keys (x : sprs W) ds : length ds = length (vkeys x) -> vkeys (div_entries x ds) = vkeys x.
  Proof.
    unfold vkeys, div_entries. rewrite map_length. intros E.
    change (map fst (map (fun p : nat * W * W => (fst (fst p), wdiv (snd (fst p)) (snd p))) (combine (sp_col x 0) ds)) = map fst (sp_col x 0)).
    rewrite map_map. cbn [fst]. rewrite <- (map_map fst fst). f_equal.
    revert ds E. generalize (sp_col x 0). clear. intros c. induction c as [|e c IH]; intros [|d ds]; simpl; try discriminate; auto.
    intros [= E]. now rewrite IH.
  Qed.
  Lemma div_entries_wf (x : sprs W) ds : vwf x -> length ds = length (vkeys x) -> vwf (div_entries x ds).
  Proof.
    intros [Hc Hw] E. pose proof (div_entries_keys x ds E) as Ek. split; [reflexivity|].
    pose proof (sp_wf_col x 0 Hw) as Hcol. unfold sp_wf, div_entries. simpl. constructor; [|constructor].
    unfold col_wf in *. change (vkeys (div_entries x ds)) with (map fst (map (fun p : nat * W * W => (fst (fst p), wdiv (snd (fst p)) (snd p))) (combine (sp_col x 0) ds))) in Ek.
    rewrite Ek. exact Hcol.
  Qed.
  Lemma sweep_set_incl (lg : lgraph W) (x : sprs W) tot l : sweep_set_inner lg x tot = Ok l -> incl l (inner_indices x).
  Proof.
    unfold sweep_set_inner. destruct (lg_degrees lg (sweep_order x)) as [ds| |]; simpl; try discriminate.
    destruct (sweep_loop _ _ _ _ _ _ _ _ _ _) as [k| |]; simpl; try discriminate. intros [= <-] v Hv.
    assert (In v (sweep_order x)) as Hin.
    { rewrite <- (firstn_skipn k (sweep_order x)). apply in_app_iff. now left. }
    eapply Permutation_in; [apply Permutation_sym, stable_sort_perm|exact Hin].
  Qed.
  Lemma seed_wf (u : nat) (x : W) : vwf (vset (sp_empty (S u) 1) u x) /\ vkeys (vset (sp_empty (S u) 1) u x) = [u].
  Proof.
    split; [|reflexivity]. apply vset_wf; [|simpl; lia]. split; [apply sp_empty_ncols|apply sp_empty_wf].
  Qed.
  Lemma inner_vkeys' (x : sprs W) : vwf x -> inner_indices x = vkeys x.
  Proof.
    intros [Hc _]. unfold inner_indices, vkeys, sp_col, sp_ncols in *.
    destruct (sp_cols x) as [|c [|? ?]]; simpl in *; try discriminate. now rewrite app_nil_r.
  Qed.

  Lemma local_cluster_acl_reach (lg : lgraph W) fuel seed locality error l : lg_ok lg ->
    local_cluster_acl fuel lg seed locality error = Some (Ok l) ->
    lg_exists lg seed = true /\ forall v, In v l -> lg_path lg seed (Z.of_nat v).
  Proof.
    intros Hlg. unfold local_cluster_acl. destruct (lg_exists lg seed) eqn:Ee; simpl; try discriminate.
    destruct (wltb locality w0 || wltb w1 locality); try discriminate. destruct (wleb error w0); try discriminate.
    pose proof (lo_neg lg Hlg seed Ee) as Hs0. destruct (Z.ltb_spec seed 0); try discriminate.
    destruct (seed_wf (Z.to_nat seed) w1) as [Hsw Hsk].
    destruct (approximate_pagerank _ _ _ _ _) as [[[p r]| |]|] eqn:E; try discriminate.
    intros [= Ed]. split; auto.
    destruct (apr_post lg _ _ _ _ _ _ Hlg Hsw E) as (Hp & _ & Hkp & _ & _).
    destruct (lg_degrees lg (inner_indices p)) as [ds| |] eqn:Eds; simpl in Ed; try discriminate.
    destruct (lg_degrees_inv lg Hlg _ _ Eds) as [_ Eds'].
    apply sweep_set_incl in Ed. intros v Hv. apply Ed in Hv.
    assert (Hlen : length ds = length (vkeys p)) by (rewrite Eds', map_length, inner_vkeys' by auto; auto).
    rewrite (inner_vkeys' (div_entries p ds)) in Hv by (now apply div_entries_wf).
    rewrite div_entries_keys in Hv by auto.
    destruct (apr_explored lg _ _ _ _ _ _ Hlg Hsw E v (or_introl Hv)) as (u & Hu & Hpath).
    rewrite Hsk in Hu. destruct Hu as [<-|[]]. rewrite Z2Nat.id in Hpath by auto. exact Hpath.
  Qed.
  Lemma local_cluster_reach c001 (lg : lgraph W) fuel seed target l : lg_ok lg ->
    local_cluster c001 fuel lg seed target = Some (Ok l) ->
    lg_exists lg seed = true /\ forall v, In v l -> lg_path lg seed (Z.of_nat v).
  Proof.
    intros Hlg. unfold local_cluster. destruct (wleb target w0); try discriminate.
    now apply local_cluster_acl_reach.
  Qed.
  Lemma local_cluster_missing c001 (lg : lgraph W) fuel seed target : lg_exists lg seed = false ->
    local_cluster c001 fuel lg seed target = Some (Throw InvalidArgument).
  Proof. intros E. unfold local_cluster, local_cluster_acl. rewrite E. destruct (wleb target w0); reflexivity. Qed.
End LocalCluster.

Section LocalClusterR.
  Context {W : Type} `{ExactNum W}.
  Local Open Scope R_scope.
  Lemma div_entries_get (lg : lgraph W) (x : sprs W) k : vwf x -> (In k (vkeys x) -> ldeg lg k <> 0) ->
    rv (div_entries x (map (dg lg) (vkeys x))) k = rv x k / ldeg lg k.
  Proof.
    intros [Hc Hw]. unfold rv, vget, coeff, sp_get, div_entries, vkeys.
    change (sp_col (mkSprs (sp_rows x) [map (fun p : nat * W * W => (fst (fst p), wdiv (snd (fst p)) (snd p)))
       (combine (sp_col x 0) (map (dg lg) (map fst (sp_col x 0))))]) 0) with
      (map (fun p : nat * W * W => (fst (fst p), wdiv (snd (fst p)) (snd p)))
       (combine (sp_col x 0) (map (dg lg) (map fst (sp_col x 0))))).
    pose proof (sp_wf_col x 0 Hw) as [Hss _]. revert Hss. generalize (sp_col x 0). intros c.
    induction c as [|[j t] c IH]; simpl; intros Hss Hd.
    - rewrite toR_0. unfold Rdiv. lra.
    - rewrite (Nat.eqb_sym j k). destruct (k =? j)%nat eqn:E.
      + apply Nat.eqb_eq in E. subst. simpl. apply toR_div. apply Hd. now left.
      + apply IH; [now inversion Hss|]. intros Hi. apply Hd. now right.
  Qed.
  (** Vertices in p have positive degree. *)
  Lemma apr_p_deg (lg : lgraph W) w fuel (s : sprs W) alpha eps p r : lg_spec lg w -> (forall v, w v v = 0) -> vwf s ->
    approximate_pagerank fuel lg s alpha eps = Some (Ok (p, r)) -> forall k, In k (vkeys p) -> 0 < ldeg lg k.
  Proof.
    intros Hs Hl Hv E. destruct (apr_return lg fuel s alpha eps p r E) as (_ & _ & _ & _ & _ & _ & mem & Hst).
    assert (Hg : forall p r q mem, apr_state lg alpha eps s p r q mem -> forall k, In k (vkeys p) -> 0 < ldeg lg k);
      [|eapply Hg; eauto].
    clear -Hs Hl Hv. intros p r q mem Hst. induction Hst as [ds q mem Ed Ei|p r u q mem p' r' q' mem' Hst IH Es].
    - intros k [].
    - destruct (pr_state lg w Hs Hl _ _ _ _ _ _ _ Hv Hst) as [Hi _].
      pose proof (pi_str _ _ _ _ _ _ _ _ _ _ Hi) as Hstr.
      destruct (apr_step_inv lg (ls_ok lg w Hs) (lg_has lg) (fun v h => h) (lo_closed lg (ls_ok lg w Hs)) alpha eps p r u q mem Hstr)
        as (p1 & r1 & q1 & m1 & E & Ep & _). rewrite E in Es. injection Es as <- <- <- <-.
      destruct (push_shape lg (ls_ok lg w Hs) (lg_has lg) (fun v h => h) (lo_closed lg (ls_ok lg w Hs)) p r alpha u)
        as (p2 & r2 & E2 & _ & _ & Hkp & _).
      + apply (ai_p _ _ _ _ _ _ _ Hstr).
      + apply (ai_r _ _ _ _ _ _ _ Hstr).
      + apply (ai_r _ _ _ _ _ _ _ Hstr), (ai_q _ _ _ _ _ _ _ Hstr). now left.
      + apply (ai_q _ _ _ _ _ _ _ Hstr). now left.
      + rewrite E2 in Ep. injection Ep as <- <-. intros k Hk. apply Hkp in Hk. destruct Hk as [->|Hk]; auto.
        apply (pi_deg _ _ _ _ _ _ _ _ _ _ Hi). now left.
  Qed.
  (** local_cluster_acl = best sweep prefix of p(u)/deg(u). *)
  Lemma local_cluster_acl_spec (lg : lgraph W) w fuel seed locality error p r : lg_spec lg w -> (forall v, w v v = 0) ->
    lg_has lg seed ->
    approximate_pagerank fuel lg (vset (sp_empty (S seed) 1) seed w1) locality error = Some (Ok (p, r)) ->
    exists order k, Permutation (vkeys p) order /\
      StronglySorted (fun i j => rv p j / ldeg lg j < rv p i / ldeg lg i \/
                        (rv p j / ldeg lg j = rv p i / ldeg lg i /\ (i < j)%nat)) order /\
      local_cluster_acl fuel lg (Z.of_nat seed) locality error = Some (Ok (firstn k order)) /\
      (k <= length order)%nat /\ (order <> [] -> (1 <= k)%nat) /\
      forall j, (1 <= j <= length order)%nat ->
        lcut lg w (firstn k order) / lvol lg (firstn k order) <= lcut lg w (firstn j order) / lvol lg (firstn j order).
  Proof.
    intros Hs Hl Hh E. destruct (seed_wf seed (w1 : W)) as [Hsw Hsk].
    pose proof (ls_ok lg w Hs) as Hlg.
    destruct (apr_post lg _ _ _ _ _ _ Hlg Hsw E) as (Hp & _ & Hkp & _ & _).
    pose proof (apr_p_deg lg w _ _ _ _ _ _ Hs Hl Hsw E) as Hdeg.
    destruct (apr_return lg _ _ _ _ _ _ E) as (_ & _ & E1 & E2 & E3 & _).
    set (x := div_entries p (map (dg lg) (vkeys p))).
    assert (Hlen : length (map (dg lg) (vkeys p)) = length (vkeys p)) by apply map_length.
    assert (Hx : vwf x) by (now apply div_entries_wf). assert (Hxk : vkeys x = vkeys p) by (now apply div_entries_keys).
    assert (Hrv : forall k, rv x k = rv p k / ldeg lg k).
    { intros k. apply div_entries_get; auto. intros Hk. specialize (Hdeg k Hk). lra. }
    destruct (sweep_set_local_spec lg w x Hs Hx) as (order & k & Hperm & Hss & Esw & Hkl & Hbest & _).
    { intros k Hk. apply Hkp. now rewrite <- Hxk. }
    rewrite Hxk in Hperm. exists order, k. split; auto. split.
    { clear -Hss Hrv. induction Hss as [|i l Hss IH Hf]; constructor; auto. rewrite Forall_forall in *.
      intros j Hj. specialize (Hf j Hj). unfold sweep_before in Hf. now rewrite !Hrv in Hf. }
    split.
    { unfold local_cluster_acl. unfold lg_has in Hh. rewrite Hh. cbn [negb]. rewrite E1, E2, E3. cbn [orb].
      destruct (Z.ltb_spec (Z.of_nat seed) 0); [lia|]. rewrite Nat2Z.id, E.
      rewrite inner_vkeys by auto. rewrite (lg_degrees_ok lg Hlg) by auto. cbn [obind]. fold x. now rewrite Esw. }
    split; auto.
    assert (Hvol : forall j, (1 <= j <= length order)%nat -> 0 < lvol lg (firstn j order)).
    { intros j Hj. destruct order as [|v order]; [simpl in Hj; lia|]. destruct j as [|j]; [lia|]. cbn [firstn].
      unfold lvol. cbn [lsum].
      assert (Hin : forall u, In u (v :: order) -> 0 < ldeg lg u).
      { intros u Hu. apply Hdeg. eapply Permutation_in; [apply Permutation_sym; exact Hperm|auto]. }
      assert (0 < ldeg lg v) by (apply Hin; now left).
      assert (0 <= lsum (ldeg lg) (firstn j order)); [|lra]. apply lsum_nonneg. intros u Hu. left. apply Hin. right.
      rewrite <- (firstn_skipn j order). apply in_app_iff. now left. }
    split.
    - intros Hne. destruct (Hbest 1%nat) as [? _]; auto.
      + destruct order; [tauto|simpl; lia].
      + apply Hvol. destruct order; [tauto|simpl; lia].
    - intros j Hj. apply Hbest; auto.
  Qed.
  (** local_cluster on a graph always returns. *)
  Lemma graph_local_cluster_total (g : graph W) (c001 target : W) seed : reachable_pos g -> (forall v, rw g v v = 0) ->
    (seed < number_of_vertices g)%nat -> 0 < toR target -> 0 < toR c001 <= 1 ->
    exists N, forall fuel, (N <= fuel)%nat -> exists l, local_cluster c001 fuel (lg_of_graph g) (Z.of_nat seed) target = Some (Ok l).
  Proof.
    intros Hr Hl Hsd Ht Hc. destruct (seed_wf seed (w1 : W)) as [Hsw Hsk].
    assert (Hrv : forall k, 0 <= rv (vset (sp_empty (S seed) 1) seed (w1 : W)) k).
    { intros k. rewrite rv_vset by (split; [apply sp_empty_ncols|apply sp_empty_wf]).
      rewrite rv_empty, toR_1. destruct (k =? seed)%nat; lra. }
    destruct (graph_pagerank_terminates g Hr Hl (vset (sp_empty (S seed) 1) seed (w1 : W)) c001 (wdiv w1 target)) as [N HN]; auto.
    - simpl. lia.
    - rewrite toR_div by lra. rewrite toR_1. apply Rdiv_lt_0_compat; lra.
    - exists N. intros fuel Hf. destruct (HN fuel Hf) as (p & r & E).
      destruct (local_cluster_acl_spec (lg_of_graph g) (rw g) fuel seed c001 (wdiv w1 target) p r (graph_lg_spec g Hr) Hl) as (order & k & _ & _ & E2 & _); auto.
      { now apply graph_has. }
      exists (firstn k order). unfold local_cluster. destruct (wleb target w0) eqn:E0; [|exact E2].
      apply toR_leb in E0. rewrite toR_0 in E0. lra.
  Qed.
End LocalClusterR.
