(** The race of the CKNS construction with the default parameters. *)
From Verif Require Import Base Num RSum Cluster ThreadPool ThreadPoolFacts ThreadPoolTop Kde KdeFacts KdeFacts2 KdeFacts3 KdeFacts4 KdeAcc3 KdeAcc6 Threads ThreadsFacts AsgThreadsTop KdeThreads.
From Coq Require Import ZArith Permutation Reals Lra.
Local Open Scope nat_scope.

(** the last level, on which log2 (n * mu) is 0 or -1 *)
Lemma last_level n : (6002 <= Z.of_nat n)%Z -> let N := Z.of_nat n in let mx := max_log_nmu_of (W := R) N in let its := iterations_of (W := R) N (/ INR n)%R in
  1 <= its /\ (mx - Z.of_nat (its - 1) * 2 = 0 \/ mx - Z.of_nat (its - 1) * 2 = -1)%Z.
Proof.
  intros Hn N mx its. assert (its = Z.to_nat (- (- (mx - 0) / 2) + 1)) as ->. { unfold its, iterations_of. fold mx. unfold N. now rewrite log2_one_n by lia. } destruct (max_log_bound n ltac:(lia)) as [B0 _]. fold N in B0. fold mx in B0. rewrite Z.sub_0_r.
  pose proof (Z.div_mod (- mx) 2 ltac:(lia)) as D. pose proof (Z.mod_pos_bound (- mx) 2 ltac:(lia)) as E. assert (0 <= - (- mx / 2))%Z by (clearbody mx; lia).
  assert (Z.to_nat (- (- mx / 2) + 1) = S (Z.to_nat (- (- mx / 2)))) as -> by lia. split; [lia|]. rewrite Nat.sub_succ, Nat.sub_0_r, Z2Nat.id by lia.
  clearbody mx. lia.
Qed.

Lemma last_hashed n (data : list (list R)) lg : (6002 <= Z.of_nat n)%Z -> length data = n -> (lg = 0 \/ lg = -1)%Z -> hashed data lg 1 0 = true.
Proof.
  intros Hn Ld Hl. unfold hashed. change (negb (1 =? 0)%Z) with true. cbn [andb]. apply negb_true_iff. apply Z.leb_gt. unfold unit_points, sampled_points. rewrite map_length, seq_length. unfold Kde.point in *. rewrite Ld.
  assert (3001 <= num_sampled (ckns_p_sampling 1 lg (Z.of_nat n) 0) (Z.of_nat n))%Z as A; [|unfold hash_unit_cutoff; rewrite Z2Nat.id; lia].
  unfold num_sampled, ckns_p_sampling. change (1 =? 0)%Z with false. cbn [wfloor wmul wofZ wpow2 KNumR NumR]. unfold R_floor, wmin1. cbn [wltb w1 NumR].
  assert (6002 <= IZR (Z.of_nat n))%R as Hr by (apply IZR_le; lia).
  set (q := (powerRZ 2 (- (1 + 0)) * powerRZ 2 (- lg))%R). assert (1 / 2 <= q)%R as Hq. { unfold q. destruct Hl as [->| ->]; simpl; lra. }
  set (p := if R_ltb 1 q then 1%R else q). assert (1 / 2 <= p)%R as Hp by (unfold p; destruct (R_ltb 1 q); lra).
  pose proof (Int_part_bounds (p * IZR (Z.of_nat n))) as B. assert (3001 <= p * IZR (Z.of_nat n))%R by nra. assert (3000 < Int_part (p * IZR (Z.of_nat n)))%Z; [|lia]. apply lt_IZR. lra.
Qed.

Lemma in_tasks (n : Z) mx its k1 iter lni j : iter < k1 -> lni < its -> (Z.of_nat j <= ckns_J (W := R) n (mx - Z.of_nat lni * 2))%Z -> In (iter, lni, j) (init_tasks (W := R) n mx its k1).
Proof.
  intros A B C. unfold init_tasks. apply in_flat_map. exists iter. split; [apply in_seq; lia|]. apply in_flat_map. exists lni. split; [apply in_seq; lia|]. apply in_map_iff. exists j. split; auto. apply in_seq. lia.
Qed.

Theorem default_race params hash_of T (a : R) n (copies : list (list (list R))) : 2 <= T -> (6002 <= Z.of_nat n)%Z -> 2 <= length copies -> (forall c, In c copies -> length c = n) -> (forall J j, 1 <= fst (params J j)) ->
  exists s, steps unit_dec (init_start params hash_of T a (/ INR n)%R copies (Z.of_nat n) 0) s /\ race s KRng.
Proof.
  intros HT Hn Hk Hc Hp. destruct (last_level n Hn) as [Hi Hl]. set (N := Z.of_nat n) in *. set (mx := max_log_nmu_of (W := R) N) in *. set (its := iterations_of N (/ INR n)%R) in *. set (lg := (mx - Z.of_nat (its - 1) * 2)%Z) in *.
  assert (forall iter, iter < 2 -> In (iter, its - 1, 1) (init_tasks (W := R) N mx its (length copies))) as Ins.
  { intros iter Hit. apply in_tasks; try lia. fold lg. unfold ckns_J. change (wceil (wlog2 (wofZ N))) with mx. destruct (max_log_bound n ltac:(lia)) as (B0 & B1 & B2). fold N in B0, B1. fold mx in B0, B1.
    assert (mx <> 0)%Z; [|lia]. intros E0. rewrite E0 in B1. simpl in B1. assert (6002 <= INR n)%R by (rewrite INR_IZR_INZ; apply IZR_le; lia). lra. }
  destruct (In_nth_error _ _ (Ins 0 ltac:(lia))) as [t Et]. destruct (In_nth_error _ _ (Ins 1 ltac:(lia))) as [u Eu].
  assert (forall z, z = (0, its - 1, 1) \/ z = (1, its - 1, 1) -> let '(iter, lni, j) := z in hashed (nth iter copies []) (mx - Z.of_nat lni * 2) (Z.of_nat j) 0 = true /\ 1 <= fst (params (ckns_J (W := R) (Z.of_nat (length (nth iter copies []))) (mx - Z.of_nat lni * 2)) (Z.of_nat j))) as Hh.
  { intros z [->| ->]; (split; [|apply Hp]); fold lg; apply (last_hashed n); auto; apply Hc, nth_In; lia. }
  assert (t <> u) as Ntu by (intros ->; congruence). destruct (Nat.lt_ge_cases t u).
  - eapply (init_rng_race params hash_of a (/ INR n)%R copies N 0 T t u); eauto.
  - eapply (init_rng_race params hash_of a (/ INR n)%R copies N 0 T u t); eauto; [lia|]. intros z Hz; apply (Hh z); tauto.
Qed.
