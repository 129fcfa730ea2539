(** Most tapes give a graph whose degrees and cuts are close to those of the planted partition (probabilistic part of C98). *)
From Verif Require Import Base Num RSum Sparse SparseFacts Graph GraphSpec GraphFacts GraphProps1 GraphProps2 GraphProps3
  Spectrum SpectrumSpec CheegerIneq RecoverTop SpecQual InnerCond RandomGraph RandomFacts RandomTop RandomTop2 RandomDist AsgLaw AsgConc RandomConc RandomCuts RandomConn PlantedDet.
From Coq Require Import Reals Lra Psatz Lia List Permutation.
Import ListNotations.
Local Open Scope nat_scope.

Lemma existsb_seq_false {X} (b : nat -> X -> bool) k t : existsb (fun a => b a t) (seq 0 k) = false -> forall a, a < k -> b a t = false.
Proof.
  intros H a Ha. destruct (b a t) eqn:E; auto. rewrite <- H. symmetry. apply existsb_exists. exists a. split; [apply in_seq; lia|exact E].
Qed.
Lemma Etape_each N m (b : nat -> list nat -> bool) k d : (forall a, a < k -> (Etape N m (fun t => indb (b a t)) <= d)%R) ->
  (Etape N m (fun t => indb (existsb (fun a => b a t) (seq 0 k))) <= INR k * d)%R.
Proof.
  intros H. eapply Rle_trans; [apply (Etape_union N m b)|]. rewrite <- rsum_const. apply rsum_le. exact H.
Qed.

Section Prob.
  Variables (N k sz : nat) (pairs : list (nat * nat)) (p0 q0 eps : R) (run : list nat -> option (outcome (graph R * list nat))).
  Local Notation n := (k * sz).
  Local Notation prob := (fun i j => if i / sz =? j / sz then p0 else q0).
  Hypothesis HN : 0 < N.
  Hypothesis HG : coin_graphs N (k * sz) pairs prob run.
  Hypothesis Hk : 1 <= k.
  Hypothesis Hsz : 2 <= sz.
  Hypothesis Heps : (0 < eps <= 1 / 10)%R.
  Local Notation m := (length pairs).
  Local Notation p := (chance N p0).
  Local Notation q := (chance N q0).
  Local Notation D := (p * (INR sz - 1))%R.
  Local Notation dbar := (p * (INR sz - 1) + q * (INR n - INR sz))%R.
  Local Notation s := (fun u => u / sz).
  Local Notation Wm := (mean_weight N prob).
  Lemma chance_nonneg x : (0 <= chance N x)%R.
  Proof. unfold chance. apply Rmult_le_pos; [apply pos_INR|left; apply Rinv_0_lt_compat; now apply lt_0_INR]. Qed.
  Lemma Wm_eq u v : u <> v -> Wm u v = if u / sz =? v / sz then p else q.
  Proof.
    intros Ne. unfold mean_weight. destruct (Nat.eqb_spec u v); [contradiction|].
    destruct (Nat.min_spec u v) as [[L ->]|[L ->]], (Nat.max_spec u v) as [[L' ->]|[L' ->]]; try lia; destruct (Nat.eqb_spec (u / sz) (v / sz)), (Nat.eqb_spec (v / sz) (u / sz)); try congruence; reflexivity.
  Qed.
  (** ** Coins on the pairs between two sets *)
  Definition cross (A B : nat -> bool) (i j : nat) : R := indb (A i && B j || A j && B i).
  Lemma cross_01 A B i j : (0 <= cross A B i j <= 1)%R.
  Proof. unfold cross, indb. destruct (_ || _); lra. Qed.
  Lemma cross_mean A B : (forall u, A u && B u = false) -> coins_mean N m (pth pairs prob) (cth pairs (cross A B)) = cut_between n Wm A B.
  Proof. intros HD. rewrite (mean_coins N n pairs prob run HN HG), between_pairs; auto. intros. apply mean_weight_sym. Qed.
  Lemma cross_coins A B t g s' : (forall u, A u && B u = false) -> run t = Some (Ok (g, s')) -> coins N m (pth pairs prob) (cth pairs (cross A B)) t = cut_between n (rw g) A B.
  Proof.
    intros HD E. rewrite (graph_coins N n pairs prob run HG t g s' _ E), between_pairs; auto. intros. apply rw_sym. apply reachable_pos_reachable.
    destruct (run_graph N n pairs prob run HG t) as (g' & s'' & E' & _ & Hr & _). rewrite E in E'. injection E' as <- <-. exact Hr.
  Qed.
  Lemma between_const w A B c : (forall u v, u < n -> v < n -> A u = true -> B v = true -> w u v = c) ->
    cut_between n w A B = (c * rsum n (fun u => indb (A u)) * rsum n (fun v => indb (B v)))%R.
  Proof.
    intros H. unfold cut_between. rewrite (rsum_ext n _ (fun u => indb (A u) * (c * rsum n (fun v => indb (B v))))%R).
    - rewrite rsum_scal_r. ring.
    - intros u Hu. rewrite <- !rsum_scal. apply rsum_ext. intros v Hv. unfold indb. destruct (A u) eqn:Au, (B v) eqn:Bv; cbn [andb]; try ring. rewrite H by auto. ring.
  Qed.
  Lemma between_split w A B B' : (forall v, indb (B v) = (indb (B v && B' v) + indb (B v && negb (B' v)))%R) ->
    cut_between n w A B = (cut_between n w A (fun v => B v && B' v) + cut_between n w A (fun v => B v && negb (B' v)))%R.
  Proof.
    intros _. unfold cut_between. rewrite <- rsum_plus. apply rsum_ext. intros u _. rewrite <- rsum_plus. apply rsum_ext. intros v _. destruct (A u), (B v), (B' v); cbn; ring.
  Qed.
  Lemma ind_one u : u < n -> rsum n (fun v => indb (v =? u)) = 1%R.
  Proof. intros Hu. now apply (rsum_delta n u (fun _ => 1%R)). Qed.
  Lemma ind_block j : j < k -> rsum n (fun v => indb (v / sz =? j)) = INR sz.
  Proof. intros Hj. rewrite block_sum by lia. destruct (Nat.ltb_spec j k); [reflexivity|lia]. Qed.
  Lemma ind_not (X : nat -> bool) : rsum n (fun v => indb (negb (X v))) = (INR n - rsum n (fun v => indb (X v)))%R.
  Proof.
    rewrite <- (Rmult_1_r (INR n)), <- rsum_const, <- rsum_minus. apply rsum_ext. intros v _. destruct (X v); cbn; ring.
  Qed.
  Definition me (u : nat) : nat -> bool := fun v => v =? u.
  Definition mates (u : nat) : nat -> bool := fun v => negb (v =? u) && (v / sz =? u / sz).
  Definition others (u : nat) : nat -> bool := fun v => negb (v =? u).
  Definition blk (j : nat) : nat -> bool := fun v => v / sz =? j.
  Definition out (j : nat) : nat -> bool := fun v => negb (v / sz =? j).
  Lemma me_mates u v : me u v && mates u v = false. Proof. unfold me, mates. destruct (v =? u); reflexivity. Qed.
  Lemma me_others u v : me u v && others u v = false. Proof. unfold me, others. destruct (v =? u); reflexivity. Qed.
  Lemma blk_out j v : blk j v && out j v = false. Proof. unfold blk, out. destruct (v / sz =? j); reflexivity. Qed.
  Lemma mean_mates u : u < n -> cut_between n Wm (me u) (mates u) = D.
  Proof.
    intros Hu. rewrite (between_const Wm _ _ p).
    - unfold me. rewrite ind_one by auto. assert (rsum n (fun v => indb (mates u v)) = INR sz - 1)%R as ->; [|ring].
      assert (u / sz < k) as L by (apply Nat.div_lt_upper_bound; nia).
      rewrite <- (ind_block (u / sz) L), <- (ind_one u Hu), <- rsum_minus. apply rsum_ext. intros v _. unfold mates. destruct (Nat.eqb_spec v u) as [->|]; [rewrite Nat.eqb_refl|]; cbn; [|destruct (_ =? _); cbn]; ring.
    - unfold me, mates. intros v w Hv Hw E1 E2. apply Nat.eqb_eq in E1 as ->. apply Bool.andb_true_iff in E2 as [E2 E3]. apply Bool.negb_true_iff, Nat.eqb_neq in E2. rewrite Wm_eq by auto. now rewrite Nat.eqb_sym, E3.
  Qed.
  Lemma mean_others u : u < n -> cut_between n Wm (me u) (others u) = dbar.
  Proof.
    intros Hu. rewrite (between_split Wm _ _ (fun v => v / sz =? u / sz)) by (intros v; destruct (others u v), (v / sz =? u / sz); cbn; ring).
    f_equal; [exact (mean_mates u Hu)|]. rewrite (between_const Wm _ _ q).
    - unfold me. rewrite ind_one by auto. rewrite Rmult_1_r. f_equal. assert (u / sz < k) as L by (apply Nat.div_lt_upper_bound; nia).
      rewrite <- (ind_block (u / sz) L), <- ind_not. apply rsum_ext. intros v _. unfold others. destruct (Nat.eqb_spec v u) as [->|]; [rewrite Nat.eqb_refl|]; reflexivity.
    - unfold me, others. intros v w Hv Hw E1 E2. apply Nat.eqb_eq in E1 as ->. apply Bool.andb_true_iff in E2 as [E2 E3]. apply Bool.negb_true_iff in E2, E3. apply Nat.eqb_neq in E2. rewrite Wm_eq by auto. now rewrite Nat.eqb_sym, E3.
  Qed.
  Lemma mean_out j : j < k -> cut_between n Wm (blk j) (out j) = (q * INR sz * (INR n - INR sz))%R.
  Proof.
    intros Hj. rewrite (between_const Wm _ _ q).
    - unfold blk, out. rewrite ind_not, ind_block by auto. reflexivity.
    - unfold blk, out. intros v w Hv Hw E1 E2. apply Nat.eqb_eq in E1. apply Bool.negb_true_iff, Nat.eqb_neq in E2. rewrite Wm_eq by congruence.
      destruct (Nat.eqb_spec (v / sz) (w / sz)); [congruence|reflexivity].
  Qed.
  Lemma mean_split j A : cut_between n Wm (fun v => (s v =? j) && A v) (fun v => (s v =? j) && negb (A v)) = (p * part k sz j A * part k sz j (fun v => negb (A v)))%R.
  Proof.
    rewrite (between_const Wm _ _ p); [reflexivity|]. intros v w Hv Hw E1 E2. apply Bool.andb_true_iff in E1 as [E1 A1]. apply Bool.andb_true_iff in E2 as [E2 A2]. apply Nat.eqb_eq in E1, E2.
    assert (v <> w) as Ne by (intros ->; rewrite A1 in A2; discriminate). rewrite Wm_eq by auto. destruct (Nat.eqb_spec (v / sz) (w / sz)); [reflexivity|congruence].
  Qed.
  (** ** The four kinds of bad tapes *)
  Definition f1 (j : nat) (t : list nat) : bool :=
    existsb (fun S => bad_set N n pairs prob (low eps) (fun v => s v =? j) (low_dec eps) S t) (subsets (filter (fun v => s v =? j) (seq 0 n))).
  Definition high_b (c : nat -> nat -> R) (t : list nat) : bool := if high_dec eps (coins_mean N m (pth pairs prob) (cth pairs c)) (coins N m (pth pairs prob) (cth pairs c) t) then true else false.
  Definition low_b (c : nat -> nat -> R) (t : list nat) : bool := if low_dec eps (coins_mean N m (pth pairs prob) (cth pairs c)) (coins N m (pth pairs prob) (cth pairs c) t) then true else false.
  Definition f4 (j : nat) (t : list nat) : bool :=
    if Rle_dec (coins_mean N m (pth pairs prob) (cth pairs (cross (blk j) (out j))) + eps ^ 2 * (dbar * INR sz))%R (coins N m (pth pairs prob) (cth pairs (cross (blk j) (out j))) t) then true else false.
  Definition delta : R :=
    (INR k * (exp (INR sz * exp (- (eps ^ 2 * p * INR sz / 4))) - 1) + 3 * INR n * exp (- (eps ^ 2 * D / 3)) + INR k * exp (- (eps ^ 4 * D * INR sz / 3)))%R.
  Lemma sz_ge : (2 <= INR sz)%R.
  Proof. change 2%R with (INR 2). now apply le_INR. Qed.
  Lemma n_sz : (INR sz <= INR n)%R.
  Proof. apply le_INR. nia. Qed.
  Lemma D_nn : (0 <= D)%R.
  Proof. pose proof sz_ge. pose proof (chance_nonneg p0). apply Rmult_le_pos; lra. Qed.
  Lemma D_le : (D <= dbar)%R.
  Proof. pose proof n_sz. pose proof (chance_nonneg q0). assert (0 <= q * (INR n - INR sz))%R by (apply Rmult_le_pos; lra). lra. Qed.
  Lemma count_block j : j < k -> INR (count n (fun v => s v =? j)) = INR sz.
  Proof. intros Hj. rewrite count_rsum. now apply ind_block. Qed.
  Lemma fail1 j : j < k -> (Etape N m (fun t => indb (f1 j t)) <= exp (INR sz * exp (- (eps ^ 2 * p * INR sz / 4))) - 1)%R.
  Proof.
    intros Hj. pose proof (sets_fail N n pairs prob run HN HG (low eps) (eps ^ 2 / 2) p (fun v => s v =? j) (low_dec eps) ltac:(pose proof (pow2_ge_0 eps); lra)) as F.
    cbv beta in F. rewrite (count_block j Hj) in F. replace (eps ^ 2 * p * INR sz / 4)%R with (eps ^ 2 / 2 * p * INR sz / 2)%R by field. apply F; [|apply chance_nonneg|].
    - intros a b Hab Hb Ea Eb. rewrite Wm_eq by lia. apply Nat.eqb_eq in Ea, Eb. destruct (Nat.eqb_spec (a / sz) (b / sz)); [lra|congruence].
    - apply (test_low N n pairs prob run HN HG eps). lra.
  Qed.
  Lemma fail2 u : u < n -> (Etape N m (fun t => indb (high_b (cross (me u) (mates u)) t)) <= exp (- (eps ^ 2 * D / 3)))%R.
  Proof.
    intros Hu. eapply Rle_trans; [apply (test_high N n pairs prob run HN HG eps ltac:(lra) (cross (me u) (mates u))); intros; apply cross_01|].
    rewrite (cross_mean _ _ (me_mates u)), mean_mates by auto. apply exp_mono. lra.
  Qed.
  Lemma fail3 u : u < n -> (Etape N m (fun t => indb (high_b (cross (me u) (others u)) t)) <= exp (- (eps ^ 2 * D / 3)))%R.
  Proof.
    intros Hu. eapply Rle_trans; [apply (test_high N n pairs prob run HN HG eps ltac:(lra) (cross (me u) (others u))); intros; apply cross_01|].
    rewrite (cross_mean _ _ (me_others u)), mean_others by auto. apply exp_mono. pose proof D_le as L. pose proof (pow2_ge_0 eps). assert (eps ^ 2 * D <= eps ^ 2 * dbar)%R by (now apply Rmult_le_compat_l). lra.
  Qed.
  Lemma fail3' u : u < n -> (Etape N m (fun t => indb (low_b (cross (me u) (others u)) t)) <= exp (- (eps ^ 2 * D / 3)))%R.
  Proof.
    intros Hu. eapply Rle_trans; [apply (test_low N n pairs prob run HN HG eps ltac:(lra) (cross (me u) (others u))); intros; apply cross_01|].
    rewrite (cross_mean _ _ (me_others u)), mean_others by auto. apply exp_mono. pose proof D_le as L. pose proof D_nn. pose proof (pow2_ge_0 eps). assert (eps ^ 2 * D <= eps ^ 2 * dbar)%R by (now apply Rmult_le_compat_l).
    assert (0 <= eps ^ 2 * D)%R by (now apply Rmult_le_pos). lra.
  Qed.
  Lemma fail4 j : j < k -> (Etape N m (fun t => indb (f4 j t)) <= exp (- (eps ^ 4 * D * INR sz / 3)))%R.
  Proof.
    intros Hj. pose proof sz_ge as SG. pose proof D_le as L. pose proof D_nn as DN. pose proof n_sz as NS. pose proof (chance_nonneg q0) as QN. pose proof (chance_nonneg p0) as PN.
    eapply Rle_trans; [apply (coins_upper N m (pth pairs prob) (cth pairs (cross (blk j) (out j))) 1 (dbar * INR sz) (eps ^ 2) HN Rlt_0_1)|].
    - intros e He. apply (coef_bounds N n pairs prob run HG _ 1); auto. intros. apply cross_01.
    - rewrite (cross_mean _ _ (blk_out j)), mean_out by auto. apply Rle_trans with ((q * (INR n - INR sz)) * INR sz)%R; [right; ring|]. apply Rmult_le_compat_r; lra.
    - split; [apply pow2_ge_0|]. apply Rle_trans with (1 ^ 2)%R; [apply pow_incr; lra|lra].
    - apply exp_mono. assert (eps ^ 4 * (D * INR sz) <= eps ^ 4 * (dbar * INR sz))%R.
      { apply Rmult_le_compat_l; [apply pow_le; lra|]. apply Rmult_le_compat_r; lra. }
      replace (((eps ^ 2) ^ 2) * (dbar * INR sz) / (3 * 1))%R with (eps ^ 4 * (dbar * INR sz) / 3)%R by field. lra.
  Qed.
  (** The conditions of [PlantedDet.v]. *)
  Definition planted_like (g : graph R) : Prop :=
    reachable_pos g /\ number_of_vertices g = n /\ (forall v, v < n -> rw g v v = 0%R) /\
    (forall j A, j < k -> (exists u, u < n /\ s u = j /\ A u = true) -> (exists u, u < n /\ s u = j /\ A u = false) ->
      ((1 - eps) * (p * part k sz j A * part k sz j (fun u => negb (A u))) < split_cut g s j A)%R) /\
    (forall u, u < n -> (inner_degree g s u < (1 + eps) * D)%R) /\
    (forall u, u < n -> ((1 - eps) * dbar < rdeg g u < (1 + eps) * dbar)%R) /\
    (forall j, j < k -> (cluster_cut g s j < q * INR sz * (INR n - INR sz) + eps ^ 2 * (dbar * INR sz))%R).
  Lemma cut_me g u B : u < n -> (forall v, v < n -> rw g v v = 0%R) -> (forall v, B v = others u v && B v) ->
    cut_between n (rw g) (me u) B = rsum n (fun v => if B v then rw g u v else 0%R).
  Proof.
    intros Hu HL HB. unfold cut_between. rewrite (rsum_ext n _ (fun w => if w =? u then rsum n (fun v => if B v then rw g u v else 0%R) else 0%R)).
    - now rewrite (rsum_delta n u (fun _ => rsum n (fun v => if B v then rw g u v else 0%R))).
    - intros w _. unfold me. destruct (Nat.eqb_spec w u) as [->|]; cbn [andb]; [reflexivity|]. now apply rsum_zero.
  Qed.
  Theorem planted_tapes : all_but N m delta (fun t => exists g s', run t = Some (Ok (g, s')) /\ planted_like g).
  Proof.
    apply (all_but_intro N m _ (fun t => existsb (fun j => f1 j t) (seq 0 k) || (existsb (fun u => high_b (cross (me u) (mates u)) t) (seq 0 n) ||
      (existsb (fun u => high_b (cross (me u) (others u)) t) (seq 0 n) || (existsb (fun u => low_b (cross (me u) (others u)) t) (seq 0 n) || existsb (fun j => f4 j t) (seq 0 k))))) _ HN).
    - pose proof (Etape_each N m f1 k _ fail1) as B1. pose proof (Etape_each N m (fun u => high_b (cross (me u) (mates u))) n _ fail2) as B2.
      pose proof (Etape_each N m (fun u => high_b (cross (me u) (others u))) n _ fail3) as B3. pose proof (Etape_each N m (fun u => low_b (cross (me u) (others u))) n _ fail3') as B3'.
      pose proof (Etape_each N m f4 k _ fail4) as B4. unfold delta.
      eapply Rle_trans; [apply Etape_or|]. eapply Rle_trans; [apply Rplus_le_compat_l, Etape_or|]. eapply Rle_trans; [do 2 apply Rplus_le_compat_l; apply Etape_or|].
      eapply Rle_trans; [do 3 apply Rplus_le_compat_l; apply Etape_or|]. lra.
    - intros t _ Hb. apply Bool.orb_false_iff in Hb as [B1 Hb]. apply Bool.orb_false_iff in Hb as [B2 Hb]. apply Bool.orb_false_iff in Hb as [B3 Hb]. apply Bool.orb_false_iff in Hb as [B3' B4].
      destruct (run_graph N n pairs prob run HG t) as (g & s' & E & En & Hr & Hl). exists g, s'. split; [exact E|].
      assert (forall v, v < n -> rw g v v = 0%R) as HL by auto.
      split; [exact Hr|]. split; [exact En|]. split; [exact HL|]. split; [|split; [|split]].
      + intros j A Hj (u & Hu & Eu & Au) (v & Hv & Ev & Av). pose proof (existsb_seq_false f1 k t B1 j Hj) as F. unfold f1 in F.
        pose proof (sets_good N n pairs prob run HN HG (low eps) (fun v => s v =? j) (low_dec eps) t g s' A E F) as G.
        assert (cut_between n (rw g) (fun v => (s v =? j) && A v) (fun v => (s v =? j) && negb (A v)) = split_cut g s j A) as Es by (unfold split_cut; rewrite En; reflexivity).
        cbv beta in G, Es. rewrite Es, mean_split in G. unfold low in G. apply Rnot_le_lt. apply G; [exists u|exists v]; repeat split; auto; apply Nat.eqb_eq; auto.
      + intros u Hu. pose proof (existsb_seq_false (fun u => high_b (cross (me u) (mates u))) n t B2 u Hu) as F. cbv beta in F. unfold high_b in F. destruct (high_dec _ _ _) as [|F']; [discriminate|]. unfold high in F'.
        rewrite (cross_mean _ _ (me_mates u)), mean_mates, (cross_coins _ _ t g s' (me_mates u) E) in F' by auto.
        rewrite (cut_me g u (mates u) Hu HL) in F' by (intros v; unfold mates, others; destruct (v =? u); reflexivity).
        assert (inner_degree g s u = rsum n (fun v => if mates u v then rw g u v else 0%R)) as ->; [|lra].
        unfold inner_degree. rewrite En. apply rsum_ext. intros v Hv. unfold mates. destruct (Nat.eqb_spec v u) as [->|]; cbn [negb andb]; [rewrite Nat.eqb_refl; auto|reflexivity].
      + intros u Hu. assert (rdeg g u = rsum n (fun v => if others u v then rw g u v else 0%R)) as Ed.
        { rewrite (rdeg_noloop g) by (rewrite ?En; auto). rewrite En. apply rsum_ext. intros v Hv. unfold others. destruct (Nat.eqb_spec v u) as [->|]; cbn [negb]; [auto|reflexivity]. }
        pose proof (existsb_seq_false (fun u => high_b (cross (me u) (others u))) n t B3 u Hu) as F. cbv beta in F. unfold high_b in F. destruct (high_dec _ _ _) as [|F1]; [discriminate|]. unfold high in F1.
        pose proof (existsb_seq_false (fun u => low_b (cross (me u) (others u))) n t B3' u Hu) as F2. cbv beta in F2. unfold low_b in F2. destruct (low_dec _ _ _) as [|F3]; [discriminate|]. unfold low in F3.
        rewrite (cross_mean _ _ (me_others u)), mean_others, (cross_coins _ _ t g s' (me_others u) E) in F1, F3 by auto.
        rewrite (cut_me g u (others u) Hu HL) in F1, F3 by (intros v; now destruct (others u v)). rewrite <- Ed in F1, F3. lra.
      + intros j Hj. pose proof (existsb_seq_false f4 k t B4 j Hj) as F. unfold f4 in F. destruct (Rle_dec _ _) as [|F']; [discriminate|]. apply Rnot_le_lt in F'.
        rewrite (cross_mean _ _ (blk_out j)), mean_out, (cross_coins _ _ t g s' (blk_out j) E) in F' by auto.
        assert (cluster_cut g s j = cut_between n (rw g) (blk j) (out j)) as -> by (unfold cluster_cut; rewrite En; reflexivity). exact F'.
  Qed.
End Prob.
