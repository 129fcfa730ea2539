(** The adjusted Rand index of labels that misplace few points (C100). *)
From Verif Require Import Base Num RSum Cluster Metrics MetricsFacts MetricsFacts2 ClusterSweep SpecQual PlantedDet RandomConc.
From Coq Require Import Reals Lra Psatz Lia List Bool ZArith.
Import ListNotations.
Local Open Scope nat_scope.

(** The cluster of point u. *)
Definition true_cluster (gt : list Z) (u : nat) : nat := Z.to_nat (nth u gt 0%Z).

(** ** Pairs as double sums *)
Lemma lsum_nth {A} (f : A -> R) (l : list A) d : lsum f l = rsum (length l) (fun i => f (nth i l d)).
Proof.
  unfold rsum. induction l as [|x l IH]; [reflexivity|]. cbn [length seq lsum nth]. rewrite IH. f_equal.
  rewrite <- seq_shift, lsum_map. reflexivity.
Qed.
Section Pairs.
  Context {A : Type} (eqb : A -> A -> bool).
  Hypothesis eqb_ok : forall x y, eqb x y = true <-> x = y.
  Lemma occ_sum x l : INR (occ eqb x l) = lsum (fun y => indb (eqb x y)) l.
  Proof. induction l as [|y l IH]; [reflexivity|]. rewrite occ_cons, plus_INR, IH. cbn [lsum]. unfold indb. destruct (eqb x y); cbn [INR]; ring. Qed.
  Lemma eqb_comm x y : eqb x y = eqb y x.
  Proof. apply eq_true_iff_eq. rewrite !eqb_ok. split; congruence. Qed.
  Lemma pairs_list l : (2 * INR (same_pairs eqb l) + INR (length l) = lsum (fun x => lsum (fun y => indb (eqb x y)) l) l)%R.
  Proof.
    induction l as [|a l IH]; [cbn [same_pairs length lsum INR]; ring|].
    cbn [same_pairs]. rewrite plus_INR. cbn [length]. rewrite S_INR. cbn [lsum]. rewrite (occ_sum a l).
    rewrite (lsum_ext (fun x => (indb (eqb x a) + lsum (fun y => indb (eqb x y)) l)%R) (fun x => (indb (eqb a x) + lsum (fun y => indb (eqb x y)) l)%R)).
    2:{ intros x _. now rewrite eqb_comm. }
    rewrite lsum_plus, <- IH. unfold indb at 2. assert (eqb a a = true) as -> by now apply eqb_ok. cbn [INR]. ring.
  Qed.
  Lemma pairs_sum l d : (2 * INR (same_pairs eqb l) + INR (length l) =
    rsum (length l) (fun u => rsum (length l) (fun v => indb (eqb (nth u l d) (nth v l d)))))%R.
  Proof. rewrite pairs_list, (lsum_nth _ l d). apply rsum_ext. intros u _. exact (lsum_nth (fun y => indb (eqb (nth u l d) y)) l d). Qed.
End Pairs.
Lemma all_pairs n : (2 * INR (choose2 n) + INR n = INR n * INR n)%R.
Proof.
  pose proof (choose2_double n) as E. destruct n as [|n]; [cbn; ring|]. replace (S n - 1) with n in E by lia.
  apply (f_equal INR) in E. rewrite !mult_INR in E. rewrite S_INR in *. cbn [INR] in E. lra.
Qed.

Section Labels.
  Variables gt l : list Z.
  Hypothesis Hv : valid_labels gt l.
  Local Notation n := (length gt).
  Local Notation G u v := (nth u gt 0 =? nth v gt 0)%Z.
  Local Notation L u v := (nth u l 0 =? nth v l 0)%Z.
  Let El : length l = n := proj1 Hv.

  Lemma sum_A : (2 * INR (pA gt) + INR n = rsum n (fun u => rsum n (fun v => indb (G u v))))%R.
  Proof. unfold pA. exact (pairs_sum Z.eqb Zeqb_ok gt 0%Z). Qed.
  Lemma sum_B : (2 * INR (pB l) + INR n = rsum n (fun u => rsum n (fun v => indb (L u v))))%R.
  Proof. unfold pB. rewrite <- El. exact (pairs_sum Z.eqb Zeqb_ok l 0%Z). Qed.
  Lemma sum_I : (2 * INR (pI gt l) + INR n = rsum n (fun u => rsum n (fun v => indb (G u v && L u v))))%R.
  Proof.
    unfold pI. pose proof (pairs_sum eqb2 eqb2_ok (combine gt l) (0%Z, 0%Z)) as P.
    rewrite combine_length, El, Nat.min_id in P. rewrite P. apply rsum_ext. intros u _. apply rsum_ext. intros v _.
    rewrite !combine_nth by auto. reflexivity.
  Qed.
  Lemma sum_T : (2 * INR (pT gt) + INR n = INR n * INR n)%R.
  Proof. apply all_pairs. Qed.
  (** Pairs together in neither clustering. *)
  Lemma incl_excl : (INR (pA gt) + INR (pB l) - INR (pI gt l) <= INR (pT gt))%R.
  Proof.
    pose proof sum_A. pose proof sum_B. pose proof sum_I. pose proof sum_T.
    assert (rsum n (fun u => rsum n (fun v => indb (G u v))) + rsum n (fun u => rsum n (fun v => indb (L u v))) - rsum n (fun u => rsum n (fun v => indb (G u v && L u v))) <= INR n * INR n)%R; [|lra].
    rewrite <- rsum_plus, <- rsum_minus. apply Rle_trans with (rsum n (fun _ => INR n)); [|rewrite rsum_const; lra].
    apply rsum_le. intros u _. rewrite <- rsum_plus, <- rsum_minus. apply Rle_trans with (rsum n (fun _ => 1%R)); [|rewrite rsum_const; lra].
    apply rsum_le. intros v _. unfold indb. destruct (G u v), (L u v); cbn; lra.
  Qed.

  (** ** The value *)
  Section Value.
    Hypothesis Hn : few_points gt.
    Lemma ari_range x : adjusted_rand_index gt l = Ok (Some x) -> (-1 <= x <= 1)%R.
    Proof.
      intros E. split; [|now apply (ari_le_one gt l)]. destruct (ari_value gt l Hv Hn) as [H1 H2].
      pose proof incl_excl as IE. destruct (pI_le gt l Hv) as (HIA & HIB & HA & HB). apply le_INR in HIA, HIB, HA, HB.
      pose proof (pos_INR (pI gt l)) as PI. set (A := INR (pA gt)) in *. set (B := INR (pB l)) in *. set (T := INR (pT gt)) in *. set (I := INR (pI gt l)) in *. clearbody A B T I.
      assert (ha_defined A B T) as Hd.
      { destruct (Req_EM_T T 0) as [E0|E0]; [exfalso|].
        - rewrite H2 in E; [discriminate|]. intros [? _]. contradiction.
        - split; [exact E0|]. intros E1. rewrite H2 in E; [discriminate|]. intros [_ ?]. contradiction. }
      rewrite (H1 Hd) in E. injection E as <-. destruct Hd as [HT Hden]. unfold hubert_arabie.
      assert (0 < T)%R as PT by lra. set (e := (A * B / T)%R) in *. assert (e * T = A * B)%R as Ee by (unfold e; field; lra). clearbody e.
      assert (e <= (A + B) / 2)%R as Le.
      { apply Rmult_le_reg_r with T; [lra|]. rewrite Ee. assert (A * B <= A * T)%R by (apply Rmult_le_compat_l; lra). assert (A * B <= T * B)%R by (apply Rmult_le_compat_r; lra). lra. }
      assert (0 < (A + B) / 2 - e)%R as Pd by lra.
      apply Rmult_le_reg_r with ((A + B) / 2 - e)%R; [lra|]. unfold Rdiv at 2. rewrite Rmult_assoc, Rinv_l, Rmult_1_r by lra.
      assert (2 * e <= I + (A + B) / 2)%R; [|lra].
      apply Rmult_le_reg_r with T; [lra|]. rewrite Rmult_assoc, Ee.
      assert (4 * (A * B) <= (A + B) * (A + B))%R as AG by (pose proof (Rle_0_sqr (A - B)) as Q; unfold Rsqr in Q; lra).
      destruct (Rle_dec (A + B) T) as [C|C].
      - assert ((A + B) * (A + B) <= (A + B) * T)%R by (apply Rmult_le_compat_l; lra). assert (0 <= I * T)%R by (apply Rmult_le_pos; lra). lra.
      - assert ((A + B - T) * T <= I * T)%R by (apply Rmult_le_compat_r; lra).
        assert (0 <= (A + B - T) * (2 * T - (A + B)))%R by (apply Rmult_le_pos; lra). lra.
    Qed.
    Lemma ari_from_pairs : (0 < pA gt) -> 2 * pA gt <= pT gt -> exists x, adjusted_rand_index gt l = Ok (Some x) /\
      (1 - (INR (pA gt) + INR (pB l) - 2 * INR (pI gt l)) / INR (pA gt) <= x)%R.
    Proof.
      intros P0 P1. destruct (ari_value gt l Hv Hn) as [H1 _].
      destruct (pI_le gt l Hv) as (HIA & HIB & HA & HB). apply le_INR in HIA, HIB, HA, HB, P1. apply lt_INR in P0. rewrite mult_INR in P1. cbn [INR] in P0, P1.
      pose proof (pos_INR (pI gt l)) as PI. set (A := INR (pA gt)) in *. set (B := INR (pB l)) in *. set (T := INR (pT gt)) in *. set (I := INR (pI gt l)) in *. clearbody A B T I.
      assert (0 < T)%R as PT by lra.
      assert (A / 2 <= (A + B) / 2 - A * B / T)%R as Hden.
      { assert (A * B / T <= B / 2)%R; [|lra]. apply Rmult_le_reg_r with T; [lra|]. replace (A * B / T * T)%R with (A * B)%R by (field; lra).
        assert (2 * A * B <= T * B)%R by (apply Rmult_le_compat_r; lra). lra. }
      assert (ha_defined A B T) as Hd by (split; lra). exists (hubert_arabie I A B T). split; [now apply H1|].
      unfold hubert_arabie. set (e := (A * B / T)%R) in *. clearbody e. set (den := ((A + B) / 2 - e)%R) in *.
      assert (0 < den)%R as Pd by lra.
      replace ((I - e) / den)%R with (1 - ((A + B - 2 * I) / 2) * / den)%R by (unfold den in *; field; lra).
      assert ((A + B - 2 * I) / 2 * / den <= (A + B - 2 * I) / 2 * / (A / 2))%R.
      { apply Rmult_le_compat_l; [lra|]. apply Rinv_le_contravar; lra. }
      replace ((A + B - 2 * I) / A)%R with ((A + B - 2 * I) / 2 * / (A / 2))%R by (field; lra). lra.
    Qed.
  End Value.

  (** ** Misplaced points *)
  Variable k : nat.
  Local Notation s := (true_cluster gt).
  Hypothesis Gk : forall x, In x gt -> (0 <= x < Z.of_nat k)%Z.
  Hypothesis Lk : forall x, In x l -> (0 <= x < Z.of_nat k)%Z.
  Definition badb (u : nat) : bool := if Rle_dec (2 * agreeing n s l u) (peers n l u) then true else false.
  Lemma misplaced_bad : misplaced n s l = rsum n (fun u => indb (badb u)).
  Proof. unfold misplaced. apply rsum_ext. intros u _. unfold badb. destruct (Rle_dec _ _); reflexivity. Qed.
  Lemma s_eq u v : u < n -> v < n -> (s u =? s v) = G u v.
  Proof.
    intros Hu Hw. unfold true_cluster. pose proof (Gk _ (nth_In gt 0%Z Hu)). pose proof (Gk _ (nth_In gt 0%Z Hw)).
    destruct (Nat.eqb_spec (Z.to_nat (nth u gt 0%Z)) (Z.to_nat (nth v gt 0%Z))), (Z.eqb_spec (nth u gt 0%Z) (nth v gt 0%Z)); auto; lia.
  Qed.
  Lemma s_lt u : u < n -> s u < k.
  Proof using Gk.  clear Lk El Hv. intros Hu. unfold true_cluster. pose proof (Gk _ (nth_In gt 0%Z Hu)). lia. Qed.
  Lemma same_label_cluster u v : u < n -> v < n -> badb u = false -> badb v = false -> nth u l 0%Z = nth v l 0%Z -> s u = s v.
  Proof.
    intros Hu Hw Bu Bv EL. unfold badb in *. destruct (Rle_dec (2 * agreeing n s l u) (peers n l u)) as [|Nu]; [discriminate|].
    destruct (Rle_dec (2 * agreeing n s l v) (peers n l v)) as [|Nv]; [discriminate|].
    destruct (Nat.eq_dec (s u) (s v)) as [|D]; auto. exfalso.
    assert (peers n l u = peers n l v) as EP by (unfold peers; now rewrite EL).
    assert (agreeing n s l u + agreeing n s l v <= peers n l u)%R; [|lra].
    unfold agreeing, peers. rewrite <- rsum_plus. apply rsum_le. intros w _. rewrite EL.
    destruct (nth w l 0 =? nth v l 0)%Z; [|rewrite !andb_false_r; lra]. rewrite !andb_true_r.
    destruct (Nat.eqb_spec (s w) (s u)), (Nat.eqb_spec (s w) (s v)); try lra. congruence.
  Qed.
  Section Few.
    Hypothesis few : forall j, j < k -> (misplaced n s l < cluster_size n s j)%R.
    Lemma good_vertex j : j < k -> exists u, u < n /\ s u = j /\ badb u = false.
    Proof.
      intros Hj. destruct (existsb (fun u => (s u =? j) && negb (badb u)) (seq 0 n)) eqn:E.
      - apply existsb_exists in E. destruct E as (u & Hu & C). apply in_seq in Hu. apply andb_true_iff in C. destruct C as [C1 C2].
        exists u. split; [lia|]. split; [now apply Nat.eqb_eq|]. now apply negb_true_iff.
      - exfalso. specialize (few j Hj). rewrite misplaced_bad in few. unfold cluster_size in few.
        assert (rsum n (fun u => if s u =? j then 1%R else 0%R) <= rsum n (fun u => indb (badb u)))%R; [|lra].
        apply rsum_le. intros u Hu. unfold indb. destruct (s u =? j) eqn:Es; [|destruct (badb u); lra].
        destruct (badb u) eqn:B; [lra|]. exfalso.
        assert (existsb (fun u => (s u =? j) && negb (badb u)) (seq 0 n) = true) as T; [|congruence].
        apply existsb_exists. exists u. split; [apply in_seq; lia|]. now rewrite Es, B.
    Qed.
    (** The label given to cluster j. *)
    Lemma label_of : exists f : nat -> Z, (forall j, j < k -> exists u, u < n /\ s u = j /\ badb u = false /\ nth u l 0%Z = f j).
    Proof.
      assert (forall m, m <= k -> exists f : nat -> Z, forall j, j < m -> exists u, u < n /\ s u = j /\ badb u = false /\ nth u l 0%Z = f j) as H.
      { induction m as [|m IH]; intros Hm; [exists (fun _ => 0%Z); lia|]. destruct (IH ltac:(lia)) as [f Hf]. destruct (good_vertex m ltac:(lia)) as (u & Hu & Hs & Hb).
        exists (fun j => if j =? m then nth u l 0%Z else f j). intros j Hj. destruct (Nat.eqb_spec j m) as [->|N]; [exists u; auto|]. apply Hf. lia. }
      apply (H k). lia.
    Qed.
    Lemma same_cluster_label u v : u < n -> v < n -> badb u = false -> badb v = false -> s u = s v -> nth u l 0%Z = nth v l 0%Z.
    Proof.
      destruct label_of as [f Hf].
      assert (forall w, w < n -> badb w = false -> nth w l 0%Z = f (s w)) as H.
      { intros w Hw Bw.
        assert (incl (map Z.of_nat (seq 0 k)) (map f (seq 0 k))) as HI.
        { apply NoDup_length_incl.
          - apply NoDup_nth with (d := 0%Z). intros i j Hi Hj E. rewrite map_length, seq_length in Hi, Hj.
            rewrite !(nth_indep _ 0%Z (f 0)), !map_nth, !seq_nth in E by (rewrite ?map_length, ?seq_length; lia). cbn [Nat.add] in E.
            destruct (Hf i Hi) as (a & Ha & Sa & Ba & La). destruct (Hf j Hj) as (b & Hb & Sb & Bb & Lb).
            rewrite <- Sa, <- Sb. apply same_label_cluster; auto. congruence.
          - rewrite !map_length. lia.
          - intros x Hx. apply in_map_iff in Hx. destruct Hx as (j & <- & Hj). apply in_seq in Hj. destruct (Hf j ltac:(lia)) as (a & Ha & _ & _ & <-).
            assert (In (nth a l 0%Z) l) as Hl by (apply nth_In; rewrite El; exact Ha). apply Lk in Hl.
            apply in_map_iff. exists (Z.to_nat (nth a l 0%Z)). split; [lia|]. apply in_seq. lia. }
        assert (In (nth w l 0%Z) l) as Hl by (apply nth_In; rewrite El; exact Hw). apply Lk in Hl.
        assert (In (nth w l 0%Z) (map f (seq 0 k))) as Hm.
        { apply HI. apply in_map_iff. exists (Z.to_nat (nth w l 0%Z)). split; [lia|]. apply in_seq. lia. }
        apply in_map_iff in Hm. destruct Hm as (j & Ej & Hj). apply in_seq in Hj. destruct (Hf j ltac:(lia)) as (a & Ha & Sa & Ba & La).
        rewrite <- Ej. f_equal. rewrite <- Sa. apply same_label_cluster; auto. congruence. }
      intros Hu Hw Bu Bv E. rewrite (H u), (H v) by auto. now rewrite E.
    Qed.
    Lemma discordant : (INR (pA gt) + INR (pB l) - 2 * INR (pI gt l) <= misplaced n s l * (INR n - 1))%R.
    Proof.
      pose proof sum_A as SA. pose proof sum_B as SB. pose proof sum_I as SI.
      set (m := misplaced n s l).
      assert (rsum n (fun u => rsum n (fun v => indb (G u v))) + rsum n (fun u => rsum n (fun v => indb (L u v))) - 2 * rsum n (fun u => rsum n (fun v => indb (G u v && L u v))) <= 2 * (m * (INR n - 1)))%R; [|lra].
      rewrite <- rsum_plus, <- rsum_scal, <- rsum_minus.
      apply Rle_trans with (rsum n (fun u => rsum n (fun v => (indb (badb u) + indb (badb v) - (if u =? v then 2 * indb (badb u) else 0))%R))).
      - apply rsum_le. intros u Hu. rewrite <- rsum_plus, <- rsum_scal, <- rsum_minus. apply rsum_le. intros v Hw.
        destruct (Nat.eqb_spec u v) as [<-|N]; [rewrite !Z.eqb_refl; cbn [andb indb]; lra|].
        destruct (badb u) eqn:Bu; [unfold indb; destruct (badb v), (G u v), (L u v); cbn [andb]; lra|].
        destruct (badb v) eqn:Bv; [unfold indb; destruct (G u v), (L u v); cbn [andb]; lra|].
        rewrite <- (s_eq u v Hu Hw).
        destruct (Nat.eqb_spec (s u) (s v)) as [E|E], (Z.eqb_spec (nth u l 0%Z) (nth v l 0%Z)) as [F|F]; unfold indb; cbn [andb]; try lra; exfalso.
        + apply F. now apply same_cluster_label.
        + apply E. now apply same_label_cluster.
      - right. rewrite (rsum_ext n _ (fun u => ((INR n - 2) * indb (badb u) + m)%R)).
        + rewrite rsum_plus, rsum_scal, <- misplaced_bad, rsum_const. fold m. ring.
        + intros u Hu. rewrite rsum_minus, rsum_plus, rsum_const, <- misplaced_bad. fold m.
          rewrite (rsum_ext n (fun v => if u =? v then (2 * indb (badb u))%R else 0%R) (fun v => if v =? u then (2 * indb (badb u))%R else 0%R)) by (intros; now rewrite Nat.eqb_sym).
          rewrite (rsum_delta n u (fun _ => (2 * indb (badb u))%R)) by auto. ring.
    Qed.
  End Few.
End Labels.

(** ** Equal clusters *)
Definition balanced (gt : list Z) (k sz : nat) : Prop :=
  length gt = k * sz /\ (forall x, In x gt -> (0 <= x < Z.of_nat k)%Z) /\ (forall j, j < k -> occ Z.eqb (Z.of_nat j) gt = sz).
Definition labels_below (l : list Z) (n k : nat) : Prop := length l = n /\ (forall x, In x l -> (0 <= x < Z.of_nat k)%Z).
Lemma labels_valid gt l k : (forall x, In x gt -> (0 <= x < Z.of_nat k)%Z) -> labels_below l (length gt) k -> valid_labels gt l.
Proof.
  intros HG [HL HK]. split; [exact HL|]. split; apply Forall_forall; intros x Hx; [apply HG in Hx|apply HK in Hx]; lia.
Qed.
Section Balanced.
  Variables (gt l : list Z) (k sz : nat).
  Hypothesis Hb : balanced gt k sz.
  Hypothesis Hk : 2 <= k.
  Hypothesis Hsz : 2 <= sz.
  Hypothesis Hn : few_points gt.
  Local Notation n := (length gt).
  Lemma balanced_size j : j < k -> cluster_size n (true_cluster gt) j = INR sz.
  Proof using Hb.
    clear Hk Hsz Hn. intros Hj. destruct Hb as (_ & HG & HO). rewrite <- (HO j Hj), (occ_sum Z.eqb), (lsum_nth _ gt 0%Z). unfold cluster_size. apply rsum_ext. intros u Hu.
    unfold true_cluster, indb. pose proof (HG _ (nth_In gt 0%Z Hu)).
    destruct (Nat.eqb_spec (Z.to_nat (nth u gt 0%Z)) j), (Z.eqb_spec (Z.of_nat j) (nth u gt 0%Z)); auto; lia.
  Qed.
  Lemma balanced_pairs : (2 * INR (pA gt) = INR n * (INR sz - 1))%R.
  Proof using Hb.
    clear Hk Hsz Hn. assert (2 * INR (pA gt) + INR n = INR n * INR sz)%R; [|lra].
    unfold pA. rewrite (pairs_list Z.eqb Zeqb_ok gt), <- rsum_const, (lsum_nth _ gt 0%Z). apply rsum_ext. intros u Hu.
    destruct Hb as (_ & HG & HO). pose proof (HG _ (nth_In gt 0%Z Hu)). rewrite <- (occ_sum Z.eqb).
    rewrite <- (HO (Z.to_nat (nth u gt 0%Z))) by lia. now rewrite Z2Nat.id by lia.
  Qed.
  Lemma n_large : (2 * INR sz <= INR n)%R.
  Proof using Hb Hk. destruct Hb as (-> & _). rewrite mult_INR. apply le_INR in Hk. cbn [INR] in Hk. apply Rmult_le_compat_r; [apply pos_INR|lra]. Qed.
  Lemma sz_large : (2 <= INR sz)%R.
  Proof. apply le_INR in Hsz. exact Hsz. Qed.
  Lemma balanced_pairs_ok : 0 < pA gt /\ 2 * pA gt <= pT gt.
  Proof.
    pose proof balanced_pairs as E. pose proof n_large. pose proof sz_large. pose proof (all_pairs n) as T. fold (pT gt) in T. split.
    - apply INR_lt. cbn [INR]. assert (0 < INR n * (INR sz - 1))%R by (apply Rmult_lt_0_compat; lra). lra.
    - apply INR_le. rewrite mult_INR. cbn [INR]. assert (INR n * (2 * (INR sz - 1)) <= INR n * (INR n - 1))%R by (apply Rmult_le_compat_l; lra). lra.
  Qed.
  Hypothesis Hl : labels_below l n k.
  Let Hv : valid_labels gt l := labels_valid gt l k (proj1 (proj2 Hb)) Hl.
  Lemma ari_balanced : exists x, adjusted_rand_index gt l = Ok (Some x) /\ (1 - 2 * misplaced n (true_cluster gt) l / (INR sz - 1) <= x <= 1)%R.
  Proof.
    destruct balanced_pairs_ok as [P0 P1]. pose proof sz_large. pose proof n_large. destruct (ari_from_pairs gt l Hv Hn P0 P1) as (x & Ex & Lx). exists x. split; [exact Ex|].
    destruct (ari_range gt l Hv Hn x Ex) as [R1 R2]. split; [|exact R2]. set (m := misplaced n (true_cluster gt) l).
    destruct (Rlt_le_dec m (INR sz)) as [C|C].
    - assert (INR (pA gt) + INR (pB l) - 2 * INR (pI gt l) <= m * (INR n - 1))%R as D.
      { apply (discordant gt l Hv k (proj1 (proj2 Hb)) (proj2 Hl)). intros j Hj. rewrite balanced_size by exact Hj. exact C. }
      eapply Rle_trans; [|exact Lx]. apply Rplus_le_compat_l, Ropp_le_contravar.
      pose proof balanced_pairs as E. assert (0 <= m)%R as Pm by (apply rsum_nonneg; intros u _; destruct (Rle_dec _ _); lra).
      set (A := INR (pA gt)) in *. assert (0 < A)%R as PA by (apply (lt_INR 0); exact P0).
      apply Rle_trans with (m * (INR n - 1) / A)%R; [unfold Rdiv; apply Rmult_le_compat_r; [left; now apply Rinv_0_lt_compat|exact D]|].
      apply Rle_trans with (m * INR n / A)%R; [unfold Rdiv; apply Rmult_le_compat_r; [left; now apply Rinv_0_lt_compat|apply Rmult_le_compat_l; lra]|].
      right. replace A with (INR n * (INR sz - 1) / 2)%R by lra. field. split; lra.
    - apply Rle_trans with (-1)%R; [|exact R1]. assert (2 <= 2 * m / (INR sz - 1))%R; [|lra].
      apply Rmult_le_reg_r with (INR sz - 1)%R; [lra|]. replace (2 * m / (INR sz - 1) * (INR sz - 1))%R with (2 * m)%R by (field; lra). lra.
  Qed.
End Balanced.

(** ** Value 1 *)
Section One.
  Variables gt l : list Z.
  Hypothesis Hv : valid_labels gt l.
  Hypothesis Hn : few_points gt.
  Local Notation n := (length gt).
  Local Notation G u v := (nth u gt 0 =? nth v gt 0)%Z.
  Local Notation L u v := (nth u l 0 =? nth v l 0)%Z.
  Lemma rsum_zero_term m (f : nat -> R) i : (forall j, j < m -> (0 <= f j)%R) -> rsum m f = 0%R -> i < m -> f i = 0%R.
  Proof.
    intros P E Hi. pose proof (P i Hi). assert (f i <= rsum m f)%R; [|lra]. apply lsum_ge_elt; [|apply in_seq; lia].
    intros y Hy. apply in_seq in Hy. apply P. lia.
  Qed.
  Lemma ari_one_iff x : adjusted_rand_index gt l = Ok (Some x) -> (x = 1%R <-> forall u v, u < n -> v < n -> (nth u l 0%Z = nth v l 0%Z <-> nth u gt 0%Z = nth v gt 0%Z)).
  Proof.
    intros E. pose proof (proj1 Hv) as El. pose proof (sum_A gt) as SA. pose proof (sum_B gt l Hv) as SB. pose proof (sum_I gt l Hv) as SI.
    destruct (ari_value gt l Hv Hn) as [H1 H2].
    destruct (pI_le gt l Hv) as (HIA & HIB & HA & HB). apply le_INR in HIA, HIB, HA, HB.
    assert (ha_defined (INR (pA gt)) (INR (pB l)) (INR (pT gt))) as Hd.
    { destruct (Req_EM_T (INR (pT gt)) 0) as [E0|E0]; [exfalso|].
      - rewrite H2 in E; [discriminate|]. intros [? _]. contradiction.
      - split; [exact E0|]. intros E1. rewrite H2 in E; [discriminate|]. intros [_ ?]. contradiction. }
    rewrite (H1 Hd) in E. injection E as <-. unfold hubert_arabie. destruct Hd as [_ Hden]. set (den := ((INR (pA gt) + INR (pB l)) / 2 - INR (pA gt) * INR (pB l) / INR (pT gt))%R) in *.
    assert (rsum n (fun u => rsum n (fun v => (indb (G u v) + indb (L u v) - 2 * indb (G u v && L u v))%R)) = INR (pA gt) + INR (pB l) - 2 * INR (pI gt l) + (INR (pA gt) + INR (pB l) - 2 * INR (pI gt l)))%R as D.
    { rewrite (rsum_ext n _ (fun u => (rsum n (fun v => indb (G u v)) + rsum n (fun v => indb (L u v)) - 2 * rsum n (fun v => indb (G u v && L u v)))%R)).
      - rewrite rsum_minus, rsum_plus, rsum_scal, <- SA, <- SB, <- SI. ring.
      - intros u _. now rewrite rsum_minus, rsum_plus, rsum_scal. }
    assert (forall u v, (0 <= indb (G u v) + indb (L u v) - 2 * indb (G u v && L u v))%R) as P.
    { intros u v. unfold indb. destruct (G u v), (L u v); cbn [andb]; lra. }
    transitivity (INR (pA gt) + INR (pB l) - 2 * INR (pI gt l) = 0)%R.
    - split; intros H.
      + assert (INR (pI gt l) - INR (pA gt) * INR (pB l) / INR (pT gt) = den)%R as E2; [|unfold den in E2; lra].
        apply (f_equal (fun y => (y * den)%R)) in H. unfold Rdiv at 1 in H. rewrite Rmult_assoc, Rinv_l, Rmult_1_l, Rmult_1_r in H by exact Hden. exact H.
      + replace (INR (pI gt l) - INR (pA gt) * INR (pB l) / INR (pT gt))%R with den by (unfold den; lra). now apply Rinv_r.
    - split.
      + intros H u v Hu Hw. assert (rsum n (fun u => rsum n (fun v => (indb (G u v) + indb (L u v) - 2 * indb (G u v && L u v))%R)) = 0%R) as Z by lra.
        apply (rsum_zero_term n _ u) in Z; auto; [|intros; apply rsum_nonneg; auto]. apply (rsum_zero_term n _ v) in Z; auto.
        unfold indb in Z. destruct (Z.eqb_spec (nth u gt 0%Z) (nth v gt 0%Z)), (Z.eqb_spec (nth u l 0%Z) (nth v l 0%Z)); cbn [andb] in Z; try lra; tauto.
      + intros H. assert (rsum n (fun u => rsum n (fun v => (indb (G u v) + indb (L u v) - 2 * indb (G u v && L u v))%R)) = 0%R) as Z; [|lra].
        apply lsum_0. intros u Hu. apply in_seq in Hu. apply lsum_0. intros v Hw. apply in_seq in Hw. specialize (H u v ltac:(lia) ltac:(lia)).
        unfold indb. destruct (Z.eqb_spec (nth u gt 0%Z) (nth v gt 0%Z)), (Z.eqb_spec (nth u l 0%Z) (nth v l 0%Z)); cbn [andb]; try lra; tauto.
  Qed.
End One.
