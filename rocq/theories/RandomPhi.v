(** Conductance of all sets of a random graph, and what cheeger_cut and local_cluster return on one. *)
From Verif Require Import Base Num RSum Sparse SparseFacts Graph GraphSpec GraphFacts GraphProps1 GraphProps2 GraphProps3 Cluster ClusterCC ClusterSpec ClusterInst ClusterExamples AclQuality Props_Acl
  Spectrum SpectrumSpec Cheeger CheegerIneq Props_Cheeger RandomGraph RandomFacts RandomTop RandomTop2 RandomDist RecoverTop AsgLaw AsgConc RandomConc RandomCuts RandomConn.
From Coq Require Import Reals Lra Psatz Lia List Permutation Relations.
Import ListNotations.
Local Open Scope nat_scope.

(** ** Cut, volume and conductance of a set S of vertices for arbitrary weights w *)
Definition set_cut (n : nat) (w : nat -> nat -> R) (S : list nat) : R := lsum (fun u => rsum n (fun v => w u v * notin S v)%R) S.
Definition set_volume (n : nat) (w : nat -> nat -> R) (S : list nat) : R := lsum (fun u => rsum n (w u)) S.
Definition total (n : nat) (w : nat -> nat -> R) : R := rsum n (fun u => rsum n (w u)).
Definition set_conductance (n : nat) (w : nat -> nat -> R) (S : list nat) : R := (set_cut n w S / Rmin (set_volume n w S) (total n w - set_volume n w S))%R.
Definition vertex_set (n : nat) (S : list nat) : Prop := NoDup S /\ (forall v, In v S -> v < n).

Lemma notin_mem S v : notin S v = if mem S v then 0%R else 1%R.
Proof.
  unfold notin. destruct (in_dec Nat.eq_dec v S) as [I|I], (mem S v) eqn:E; auto.
  - apply mem_in in I. congruence.
  - apply mem_in in E. contradiction.
Qed.
Lemma set_cut_eq n w S : vertex_set n S -> set_cut n w S = cut n w (mem S).
Proof.
  intros [ND HB]. unfold set_cut, cut. rewrite (set_sum n S _ ND HB). apply rsum_ext. intros u Hu. rewrite <- rsum_scal_r. apply rsum_ext. intros v Hv.
  rewrite !notin_mem. destruct (mem S u), (mem S v); cbn [andb negb]; ring.
Qed.
Lemma set_volume_eq n w S : vertex_set n S -> set_volume n w S = rsum n (fun u => rsum n (w u) * (1 - notin S u))%R.
Proof. intros [ND HB]. apply set_sum; assumption. Qed.
Lemma rest_volume_eq n w S : vertex_set n S -> (total n w - set_volume n w S)%R = rsum n (fun u => rsum n (w u) * notin S u)%R.
Proof. intros H. rewrite (set_volume_eq n w S H). unfold total. rewrite <- rsum_minus. apply rsum_ext. intros u _. ring. Qed.
Lemma missing n S : NoDup S -> length S < n -> exists u, u < n /\ ~ In u S.
Proof.
  intros ND HL. destruct (existsb (fun u => negb (mem S u)) (seq 0 n)) eqn:E.
  - apply existsb_exists in E as (u & Hu & E). apply in_seq in Hu. exists u. split; [lia|]. intros I. apply mem_in in I. rewrite I in E. discriminate.
  - exfalso. assert (incl (seq 0 n) S) as I.
    { intros u Hu. apply mem_in. destruct (mem S u) eqn:X; auto. rewrite <- E. apply existsb_exists. exists u. split; auto. now rewrite X. }
    apply NoDup_incl_length in I; [rewrite seq_length in I; lia|apply seq_NoDup].
Qed.
Lemma proper_set n S : vertex_set n S -> 1 <= length S < n -> proper n (mem S).
Proof.
  intros [ND HB] HL. split.
  - destruct S as [|u S]; [cbn in HL; lia|]. exists u. split; [apply HB; now left|]. apply mem_in. now left.
  - destruct (missing n S ND (proj2 HL)) as (u & Hu & NI). exists u. split; auto. destruct (mem S u) eqn:E; auto. apply mem_in in E. contradiction.
Qed.

Section Close.
  Variables (n : nat) (w w' : nat -> nat -> R) (eps : R).
  Hypothesis Hn : 2 <= n.
  Hypothesis Heps : (0 <= eps < 1)%R.
  Hypothesis loop : forall u, w u u = 0%R.
  Hypothesis loop' : forall u, w' u u = 0%R.
  Hypothesis pos : forall u, u < n -> (0 < rsum n (w u))%R.
  Hypothesis nonneg : forall u v, (0 <= w u v)%R.
  Hypothesis close : forall A, proper n A -> ((1 - eps) * cut n w A < cut n w' A < (1 + eps) * cut n w A)%R.
  Lemma singleton_cut x u : x u u = 0%R -> u < n -> cut n x (fun v => v =? u) = rsum n (x u).
  Proof.
    intros Hx Hu. unfold cut. rewrite <- (rsum_delta n u (fun v => rsum n (x v)) Hu). apply rsum_ext. intros v Hv. destruct (Nat.eqb_spec v u) as [->|Ne].
    - apply rsum_ext. intros z _. destruct (Nat.eqb_spec z u) as [->|]; cbn; auto.
    - apply rsum_zero. intros; reflexivity.
  Qed.
  Lemma degree_close u : u < n -> ((1 - eps) * rsum n (w u) <= rsum n (w' u) <= (1 + eps) * rsum n (w u))%R.
  Proof.
    intros Hu. assert (proper n (fun v => v =? u)) as P.
    { split; [exists u; split; [auto|apply Nat.eqb_refl]|]. exists (if u =? 0 then 1 else 0). destruct (Nat.eqb_spec u 0) as [->|]; [split; [lia|reflexivity]|]. split; [lia|]. apply Nat.eqb_neq. lia. }
    pose proof (close _ P) as C. rewrite !singleton_cut in C by auto. lra.
  Qed.
  Lemma weighted_close f : (forall u, u < n -> (0 <= f u)%R) ->
    ((1 - eps) * rsum n (fun u => rsum n (w u) * f u) <= rsum n (fun u => rsum n (w' u) * f u) <= (1 + eps) * rsum n (fun u => rsum n (w u) * f u))%R.
  Proof.
    intros Hf. rewrite <- !rsum_scal. split; apply rsum_le; intros u Hu; pose proof (degree_close u Hu) as [L1 L2]; specialize (Hf u Hu); rewrite <- Rmult_assoc; apply Rmult_le_compat_r; auto.
  Qed.
  Lemma notin_01 S v : (0 <= notin S v <= 1)%R.
  Proof. unfold notin. destruct (in_dec _ _ _); lra. Qed.
  Lemma volume_close S : vertex_set n S -> ((1 - eps) * set_volume n w S <= set_volume n w' S <= (1 + eps) * set_volume n w S)%R.
  Proof. intros H. rewrite !set_volume_eq by auto. apply weighted_close. intros u _. pose proof (notin_01 S u). lra. Qed.
  Lemma rest_close S : vertex_set n S -> ((1 - eps) * (total n w - set_volume n w S) <= total n w' - set_volume n w' S <= (1 + eps) * (total n w - set_volume n w S))%R.
  Proof. intros H. rewrite !rest_volume_eq by auto. apply weighted_close. intros u _. apply notin_01. Qed.
  Lemma volume_pos S : vertex_set n S -> 1 <= length S -> (0 < set_volume n w S)%R.
  Proof.
    intros [ND HB] HL. destruct S as [|u S]; [cbn in HL; lia|]. unfold set_volume. eapply Rlt_le_trans; [apply (pos u), HB; now left|].
    apply (lsum_ge_elt (fun x => rsum n (w x)) (u :: S) u); [intros; apply rsum_nonneg; auto|now left].
  Qed.
  Lemma rest_pos S : vertex_set n S -> length S < n -> (0 < total n w - set_volume n w S)%R.
  Proof.
    intros H HL. rewrite rest_volume_eq by auto. destruct (missing n S (proj1 H) HL) as (u & Hu & NI). eapply Rlt_le_trans; [apply (pos u Hu)|].
    assert (notin S u = 1%R) as E by (unfold notin; destruct (in_dec _ _ _); [contradiction|reflexivity]).
    rewrite <- (Rmult_1_r (rsum n (w u))), <- E. apply (rsum_ge_elt n (fun u => rsum n (w u) * notin S u)%R u); auto. intros v Hv. apply Rmult_le_pos; [left; auto|apply notin_01].
  Qed.
  Lemma cut_nonneg A : (0 <= cut n w A)%R.
  Proof. unfold cut. apply rsum_nonneg. intros u _. apply rsum_nonneg. intros v _. destruct (_ && _); [auto|lra]. Qed.
  Lemma min_close a b a' b' : ((1 - eps) * a <= a' <= (1 + eps) * a)%R -> ((1 - eps) * b <= b' <= (1 + eps) * b)%R ->
    ((1 - eps) * Rmin a b <= Rmin a' b' <= (1 + eps) * Rmin a b)%R.
  Proof.
    intros [A1 A2] [B1 B2]. split.
    - apply Rmin_glb; (eapply Rle_trans; [apply Rmult_le_compat_l; [lra|]|eassumption]); [apply Rmin_l|apply Rmin_r].
    - unfold Rmin at 2. destruct (Rle_dec a b); [eapply Rle_trans; [apply Rmin_l|lra]|eapply Rle_trans; [apply Rmin_r|lra]].
  Qed.
  Lemma ratio_close c d c' d' : (0 <= c)%R -> (0 < d)%R -> ((1 - eps) * c <= c' <= (1 + eps) * c)%R -> ((1 - eps) * d <= d' <= (1 + eps) * d)%R ->
    ((1 - eps) / (1 + eps) * (c / d) <= c' / d' <= (1 + eps) / (1 - eps) * (c / d))%R.
  Proof.
    intros Hc Hd [C1 C2] [D1 D2]. assert (0 < (1 - eps) * d)%R as P by (apply Rmult_lt_0_compat; lra). assert (0 < d')%R as P' by lra. split.
    - replace ((1 - eps) / (1 + eps) * (c / d))%R with ((1 - eps) * c * / ((1 + eps) * d))%R by (field; lra). apply Rmult_le_compat; [apply Rmult_le_pos; lra|left; apply Rinv_0_lt_compat; apply Rmult_lt_0_compat; lra|auto|apply Rinv_le_contravar; auto].
    - replace ((1 + eps) / (1 - eps) * (c / d))%R with ((1 + eps) * c * / ((1 - eps) * d))%R by (field; lra). apply Rmult_le_compat; [eapply Rle_trans; [|exact C1]; apply Rmult_le_pos; lra|left; now apply Rinv_0_lt_compat|auto|apply Rinv_le_contravar; auto].
  Qed.
  Lemma set_cut_close S : vertex_set n S -> 1 <= length S < n -> ((1 - eps) * set_cut n w S <= set_cut n w' S <= (1 + eps) * set_cut n w S)%R.
  Proof. intros H HL. rewrite !set_cut_eq by auto. pose proof (close _ (proper_set n S H HL)). lra. Qed.
  Lemma conductance_close S : vertex_set n S -> 1 <= length S < n ->
    ((1 - eps) / (1 + eps) * set_conductance n w S <= set_conductance n w' S <= (1 + eps) / (1 - eps) * set_conductance n w S)%R.
  Proof.
    intros H HL. unfold set_conductance. apply ratio_close.
    - rewrite set_cut_eq by auto. apply cut_nonneg.
    - apply Rmin_glb_lt; [apply volume_pos; [auto|lia]|apply rest_pos; [auto|lia]].
    - now apply set_cut_close.
    - apply min_close; [now apply volume_close|now apply rest_close].
  Qed.
End Close.

Lemma set_cut_full n w S : vertex_set n S -> n <= length S -> set_cut n w S = 0%R.
Proof.
  intros [ND HB] HL. unfold set_cut. apply lsum_0. intros u _. apply rsum_zero. intros v Hv. unfold notin. destruct (in_dec Nat.eq_dec v S) as [|NI]; [ring|].
  exfalso. apply NI. assert (incl (seq 0 n) S) as I; [|apply I, in_seq; lia]. apply NoDup_length_incl; auto using seq_NoDup.
  - now rewrite seq_length.
  - intros x Hx. apply in_seq. specialize (HB x Hx). lia.
Qed.
Lemma set_cut_any n w w' eps S : (forall A, proper n A -> ((1 - eps) * cut n w A < cut n w' A < (1 + eps) * cut n w A)%R) -> vertex_set n S ->
  ((1 - eps) * set_cut n w S <= set_cut n w' S <= (1 + eps) * set_cut n w S)%R.
Proof.
  intros HC H. destruct (Nat.le_gt_cases n (length S)) as [L|L]; [rewrite !set_cut_full by auto; lra|]. destruct S as [|u S].
  - unfold set_cut. cbn [lsum]. lra.
  - rewrite !set_cut_eq by auto. pose proof (HC _ (proper_set n (u :: S) H ltac:(cbn [length] in *; lia))). lra.
Qed.

(** ** Graphs *)
Section OnGraph.
  Variable g : graph R.
  Hypothesis Hl : forall v, rw g v v = 0%R.
  Local Notation n := (number_of_vertices g).
  Lemma deg_rw u : rdeg g u = rsum n (rw g u).
  Proof. unfold rdeg. rewrite Hl, Rplus_0_r. reflexivity. Qed.
  Lemma gvol_rw S : gvol g S = set_volume n (rw g) S.
  Proof. unfold gvol, set_volume. apply lsum_ext. intros u _. apply deg_rw. Qed.
  Lemma gtotal_rw : gtotal g = total n (rw g).
  Proof. unfold gtotal, total. apply rsum_ext. intros u _. apply deg_rw. Qed.
  Lemma gcond_rw S : gcond g S = set_conductance n (rw g) S.
  Proof. unfold gcond, set_conductance. rewrite gvol_rw, gtotal_rw. reflexivity. Qed.
  Lemma gcut_rw S : gcut g S = set_cut n (rw g) S.
  Proof. reflexivity. Qed.
End OnGraph.

Section OnMean.
  Variables (g : graph R) (w : nat -> nat -> R) (eps q : R).
  Local Notation n := (number_of_vertices g).
  Local Notation r := ((1 + eps) / (1 - eps))%R.
  Hypothesis Hr : reachable_pos g.
  Hypothesis Hl : forall v, rw g v v = 0%R.
  Hypothesis Hw : forall v, w v v = 0%R.
  Hypothesis Hn : 2 <= n.
  Hypothesis Heps : (0 <= eps < 1)%R.
  Hypothesis Hq : (0 < q)%R.
  Hypothesis Hq1 : forall u v, u < n -> v < n -> u <> v -> (q <= w u v)%R.
  Hypothesis Hnn : forall u v, (0 <= w u v)%R.
  Hypothesis close : forall A, proper n A -> ((1 - eps) * cut n w A < cut n (rw g) A < (1 + eps) * cut n w A)%R.
  Lemma mean_degree_pos u : u < n -> (0 < rsum n (w u))%R.
  Proof.
    intros Hu. assert (exists v, v < n /\ u <> v) as (v & Hv & Ne) by (exists (if u =? 0 then 1 else 0); destruct (Nat.eqb_spec u 0); split; lia).
    eapply Rlt_le_trans; [exact Hq|]. eapply Rle_trans; [apply (Hq1 u v Hu Hv Ne)|]. apply (rsum_ge_elt n (w u) v); auto.
  Qed.
  Lemma graph_conductance S : vertex_set n S -> 1 <= length S < n -> (/ r * set_conductance n w S <= gcond g S <= r * set_conductance n w S)%R.
  Proof.
    intros H HL. rewrite (gcond_rw g Hl). replace (/ r)%R with ((1 - eps) / (1 + eps))%R by (field; lra).
    apply (conductance_close n w (rw g) eps Hn Heps Hw Hl mean_degree_pos Hnn close S H HL).
  Qed.
  Lemma r_pos : (1 <= r)%R.
  Proof. apply (Rmult_le_reg_r (1 - eps)); [lra|]. unfold Rdiv. rewrite Rmult_assoc, Rinv_l by lra. lra. Qed.
  Lemma mean_cut_pos A : proper n A -> (0 < cut n w A)%R.
  Proof.
    intros [(u & Hu & Au) (v & Hv & Av)]. unfold cut. eapply Rlt_le_trans; [exact Hq|]. assert (u <> v) as Ne by congruence. eapply Rle_trans; [apply (Hq1 u v Hu Hv Ne)|].
    eapply Rle_trans; [|apply (rsum_ge_elt n _ u); auto].
    - eapply Rle_trans; [|apply (rsum_ge_elt n _ v); auto]; [rewrite Au, Av; cbn; lra|]. intros x _. destruct (_ && _); [auto|lra].
    - intros x _. apply rsum_nonneg. intros y _. destruct (_ && _); [auto|lra].
  Qed.
  Lemma graph_connected u v : u < n -> v < n -> connected g u v.
  Proof.
    intros Hu Hv. pose proof (reachable_pos_reachable g Hr) as Hr'. apply connected_gpath; [now apply pos_no_zero|].
    pose proof (cuts_connected 1 n Nat.lt_0_1 g n Hr eq_refl ltac:(lia)) as C. destruct (is_connected_spec g n Hr') as (b & Eb & Hb); [unfold number_of_vertices in *; lia|].
    rewrite C in Eb; [injection Eb as <-; now apply Hb|]. intros A PA. pose proof (close A PA) as [L _]. pose proof (mean_cut_pos A PA). assert (0 < (1 - eps) * cut n w A)%R by (apply Rmult_lt_0_compat; lra). lra.
  Qed.
  Theorem cheeger_on_mean (solver : eigen_solver (W := R)) : solver_contract solver -> 3 <= n ->
    match snd (cheeger_cut solver g) with
    | Ok labels => exists S, vertex_set n S /\ 1 <= length S < n /\ labels = map (fun i => if in_dec Nat.eq_dec i S then 1%Z else 0%Z) (seq 0 n) /\
        forall T, vertex_set n T -> 1 <= length T < n -> (set_conductance n w S <= 2 * r * sqrt (r * set_conductance n w T))%R
    | Throw e => e = RuntimeError
    | UB => False
    end.
  Proof.
    intros SC H3. pose proof (C64_cheeger_inequality solver g SC Hr H3 ltac:(auto) graph_connected) as C. cbv zeta in C.
    destruct (snd (cheeger_cut solver g)) as [labels|e|]; auto. destruct C as (p & p' & S & _ & El & ND & HB & HL & _ & HT). exists S.
    split; [split; auto|]. split; [exact HL|]. split; [exact El|]. intros T [NT BT] LT. destruct (HT T NT BT LT) as [_ C].
    pose proof (graph_conductance S (conj ND HB) HL) as [A _]. pose proof (graph_conductance T (conj NT BT) LT) as [_ B]. pose proof r_pos as R1. set (rr := r) in *. clearbody rr.
    apply sqrt_le_1_alt in B. apply (Rmult_le_reg_l (/ rr)); [apply Rinv_0_lt_compat; lra|]. eapply Rle_trans; [exact A|].
    replace (/ rr * (2 * rr * sqrt (rr * set_conductance n w T)))%R with (2 * sqrt (rr * set_conductance n w T))%R by (field; lra). lra.
  Qed.
  Theorem local_on_mean (c001 dmin : R) C : c001 = (1 / 100)%R -> vertex_set n C -> 1 <= length C -> (0 < dmin)%R -> (forall v, v < n -> (dmin <= rsum n (w v))%R) ->
    (r * (set_cut n w C / set_volume n w C) <= 1 / 1000)%R ->
    exists G, NoDup G /\ incl G C /\ (set_volume n w C <= 2 * r * set_volume n w G)%R /\
    forall seed, In seed G -> forall target, (8 * (1 + eps) * set_volume n w C <= target)%R ->
      exists M, forall fuel, M <= fuel -> exists l, local_cluster c001 fuel (lg_of_graph g) (Z.of_nat seed) target = Some (Ok l) /\
        l <> [] /\ vertex_set n l /\ ((1 - eps) * set_volume n w l <= 21 / 10 * target)%R /\
        ((set_cut n w l / set_volume n w l) ^ 2 <= r ^ 2 * (ln (4 * r * (set_volume n w C / dmin)) / 17))%R.
  Proof.
    intros Ec [NC BC] LC Hd Hdm Hphi. pose proof r_pos as R1. pose proof (mean_degree_pos) as MP.
    assert (forall S, vertex_set n S -> ((1 - eps) * set_volume n w S <= gvol g S <= (1 + eps) * set_volume n w S)%R) as VC.
    { intros S H. rewrite (gvol_rw g Hl). apply (volume_close n w (rw g) eps Hn Hw Hl close S H). }
    assert (forall S, vertex_set n S -> S <> [] -> (0 < set_volume n w S)%R) as VP.
    { intros S H NE. apply (volume_pos n w Hn MP Hnn S H). destruct S; [congruence|cbn; lia]. }
    assert (forall S, vertex_set n S -> ((1 - eps) * set_cut n w S <= gcut g S <= (1 + eps) * set_cut n w S)%R) as CC by (intros S H; now apply set_cut_any).
    assert (forall S, (0 <= set_cut n w S)%R) as CP.
    { intros S. unfold set_cut. apply lsum_nonneg. intros u _. apply rsum_nonneg. intros v _. pose proof (notin_01 S v). pose proof (Hnn u v). apply Rmult_le_pos; lra. }
    assert (forall S, vertex_set n S -> S <> [] -> (/ r * (set_cut n w S / set_volume n w S) <= gcut g S / gvol g S <= r * (set_cut n w S / set_volume n w S))%R) as RC.
    { intros S H NE. replace (/ r)%R with ((1 - eps) / (1 + eps))%R by (field; lra). apply (ratio_close eps Heps); auto. }
    assert (C <> []) as NE by (intros ->; cbn in LC; lia). pose proof (VP C (conj NC BC) NE) as PC. pose proof (VC C (conj NC BC)) as [VC1 VC2]. pose proof (RC C (conj NC BC) NE) as [RC1 RC2].
    assert (0 < (1 - eps) * dmin)%R as Pd by (apply Rmult_lt_0_compat; lra).
    assert (0 < (1 - eps) * set_volume n w C)%R as PV by (apply Rmult_lt_0_compat; lra).
    destruct (C76_local_cluster R g Hr Hl C ((1 - eps) * dmin) c001 Ec NC BC ltac:(lra) Pd) as (G & NG & IG & VG & HG).
    - intros v Hv _. rewrite (deg_rw g Hl). pose proof (degree_close n w (rw g) eps Hn Hw Hl close v Hv) as [L _]. specialize (Hdm v Hv). assert ((1 - eps) * dmin <= (1 - eps) * rsum n (w v))%R by (apply Rmult_le_compat_l; lra). lra.
    - lra.
    - exists G. split; [exact NG|]. split; [exact IG|].
      assert (vertex_set n G) as VSG by (split; [auto|intros v Hv; apply BC, IG, Hv]). pose proof (VC G VSG) as [_ VG2].
      split. { apply (Rmult_le_reg_l (1 - eps)); [lra|]. replace ((1 - eps) * (2 * r * set_volume n w G))%R with (2 * ((1 + eps) * set_volume n w G))%R by (field; lra). lra. }
      intros seed Hs target Ht. destruct (HG seed Hs target) as (M & HM); [cbn [toR ExactR]; lra|]. exists M. intros fuel Hf. destruct (HM fuel Hf) as (l & El & Nl & NDl & Bl & Pl & Vl & Ql & _). exists l.
      split; [exact El|]. split; [exact Nl|]. split; [split; auto|]. cbn [toR ExactR] in Vl. pose proof (VC l (conj NDl Bl)) as [VL1 _]. split; [lra|].
      pose proof (RC l (conj NDl Bl) Nl) as [RL _]. pose proof (VP l (conj NDl Bl) Nl) as PL.
      assert (0 <= set_cut n w l / set_volume n w l)%R as PX by (apply Rmult_le_pos; [auto|left; now apply Rinv_0_lt_compat]).
      set (x := (set_cut n w l / set_volume n w l)%R) in *. set (y := (gcut g l / gvol g l)%R) in *. clearbody x y.
      assert (ln (4 * (gvol g C / ((1 - eps) * dmin))) <= ln (4 * r * (set_volume n w C / dmin)))%R as LL.
      { assert (4 * (gvol g C / ((1 - eps) * dmin)) <= 4 * r * (set_volume n w C / dmin))%R as LE.
        { replace (4 * r * (set_volume n w C / dmin))%R with (4 * ((1 + eps) * set_volume n w C * / ((1 - eps) * dmin)))%R by (field; lra). apply Rmult_le_compat_l; [lra|]. apply Rmult_le_compat_r; [left; now apply Rinv_0_lt_compat|exact VC2]. }
        assert (0 < 4 * (gvol g C / ((1 - eps) * dmin)))%R as P0 by (apply Rmult_lt_0_compat; [lra|]; apply Rdiv_lt_0_compat; lra).
        destruct LE as [LE|LE]; [left; now apply ln_increasing|right; now rewrite LE]. }
      set (rr := r) in *. clearbody rr. assert (x <= rr * y)%R as XY. { apply (Rmult_le_reg_l (/ rr)); [apply Rinv_0_lt_compat; lra|]. replace (/ rr * (rr * y))%R with y by (field; lra). exact RL. }
      apply Rle_trans with ((rr * y) ^ 2)%R; [apply pow_incr; lra|]. rewrite Rpow_mult_distr. apply Rmult_le_compat_l; [apply pow2_ge_0|]. replace (y ^ 2)%R with (y * y)%R by ring. lra.
  Qed.
End OnMean.
