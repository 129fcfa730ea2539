(** C101: adjusted_rand_index in double arithmetic (stag_lib/cluster.cpp:433-463). *)
From Verif Require Import Base Num RSum Cluster Metrics MetricsFacts MetricsFacts2 FloatFacts AriFloat.
From Coq Require Import ZArith Reals Lra Lia List Bool SpecFloat.
From Flocq Require Import Core.
Import ListNotations.
Local Open Scope R_scope.

(** Whenever the exact index is a number x, the double returned is finite, within 24 n 2^-53 of x, for n points, and not more than 1; *)
Theorem C101_accuracy gt l x : valid_labels gt l -> few_points gt -> adjusted_rand_index gt l = Ok (Some x) ->
  exists v, adjusted_rand_index_f64 gt l = Ok v /\ dbl v /\ Rabs (f2r v - x) <= 24 * INR (length gt) * bpow radix2 (-53) /\ f2r v <= 1.
Proof. intros Hv Hn E. exact (ari64_accurate gt l Hv Hn x E). Qed.
(** it is the double 1 if the two clusterings put the same points together, in neither one cluster nor clusters of one point; *)
Theorem C101_same_partition gt l : valid_labels gt l -> few_points gt -> same_partition gt l ->
  (0 < same_pairs Z.eqb gt < choose2 (length gt))%nat -> adjusted_rand_index_f64 gt l = Ok w1.
Proof. intros Hv Hn. exact (ari64_same gt l Hv Hn). Qed.
(** the same double is returned with the arguments swapped, *)
Theorem C101_symmetric gt l : few_points gt -> adjusted_rand_index_f64 gt l = adjusted_rand_index_f64 l gt.
Proof. exact (ari64_symmetric gt l). Qed.
(** and with the clusters renumbered; *)
Theorem C101_renaming s gt l : valid_labels gt l -> few_points gt -> renaming s gt -> adjusted_rand_index_f64 (map s gt) l = adjusted_rand_index_f64 gt l.
Proof. exact (ari64_rename s gt l). Qed.
(** negative labels and vectors of different lengths are refused. *)
Theorem C101_invalid_refused gt l : ~ valid_labels gt l -> adjusted_rand_index_f64 gt l = Throw InvalidArgument.
Proof. exact (ari64_invalid gt l). Qed.
(** The exact index is undefined exactly if there are fewer than two points, or one cluster in both clusterings, or only clusters of one point in both; *)
Theorem C101_undefined gt l : valid_labels gt l -> few_points gt -> (adjusted_rand_index gt l = Ok None <->
  (length gt < 2)%nat \/ (same_pairs Z.eqb gt = choose2 (length gt) /\ same_pairs Z.eqb l = choose2 (length gt)) \/ (same_pairs Z.eqb gt = 0 /\ same_pairs Z.eqb l = 0)%nat).
Proof. intros Hv Hn. exact (ari_none_cases gt l Hv Hn). Qed.
(** the result is then NaN, for up to 13777 points; *)
Theorem C101_undefined_nan gt l : valid_labels gt l -> few_points gt -> adjusted_rand_index gt l = Ok None -> (Z.of_nat (length gt) <= 13777)%Z ->
  adjusted_rand_index_f64 gt l = Ok S754_nan.
Proof. intros Hv Hn. exact (ari64_nan gt l Hv Hn). Qed.
(** but not beyond: for 13778 points in one cluster rounding makes numerator and denominator different from 0, and the result is 1. *)
Theorem C101_one_cluster_refuted n : Z.of_nat n = 13778%Z ->
  adjusted_rand_index (repeat 0%Z n) (repeat 0%Z n) = Ok None /\ adjusted_rand_index_f64 (repeat 0%Z n) (repeat 0%Z n) = Ok w1.
Proof. intros H. split; [apply ari_one_cluster_nan; unfold ari_max_points; lia|now apply ari64_one_cluster]. Qed.
Print Assumptions C101_accuracy.
Print Assumptions C101_same_partition.
Print Assumptions C101_symmetric.
Print Assumptions C101_renaming.
Print Assumptions C101_invalid_refused.
Print Assumptions C101_undefined.
Print Assumptions C101_undefined_nan.
Print Assumptions C101_one_cluster_refuted.

(** Six points, one misplaced: the index is strictly between 0 and 1, exactly and in doubles; the same partition renumbered gives the double 1; negative labels are refused. *)
Example C101_hypotheses_met : let gt := [0; 0; 0; 1; 1; 1]%Z in let l := [0; 0; 1; 1; 1; 1]%Z in let m := [1; 1; 1; 0; 0; 0]%Z in
  valid_labels gt l /\ few_points gt /\ (exists x v, adjusted_rand_index gt l = Ok (Some x) /\ adjusted_rand_index_f64 gt l = Ok v /\ 0 < x < 1 /\ wltb w0 v && wltb v w1 = true) /\
  valid_labels gt m /\ same_partition gt m /\ (0 < same_pairs Z.eqb gt < choose2 (length gt))%nat /\ renaming (fun x => (1 - x)%Z) gt /\ ~ valid_labels gt [0; -1; 0; 0; 0; 0]%Z.
Proof.
  cbv zeta. set (gt := [0; 0; 0; 1; 1; 1]%Z). set (l := [0; 0; 1; 1; 1; 1]%Z).
  assert (valid_labels gt l) as Hv by (repeat split; repeat constructor; lia). assert (few_points gt) as Hn by (unfold few_points, ari_max_points; cbn; lia).
  split; [exact Hv|]. split; [exact Hn|]. split; [|split; [repeat split; repeat constructor; lia|split; [|split; [cbv; lia|split; [split|]]]]].
  - destruct (ari_value gt l Hv Hn) as [H1 _].
    assert (pI gt l = 4 /\ pA gt = 6 /\ pB l = 7 /\ pT gt = 15)%nat as (E1 & E2 & E3 & E4) by (repeat split; reflexivity).
    rewrite E1, E2, E3, E4 in H1. exists (hubert_arabie (INR 4) (INR 6) (INR 7) (INR 15)). eexists. split; [apply H1; unfold ha_defined; cbn [INR]; split; lra|].
    split; [rewrite (ari64_eval gt l Hv Hn), E1, E2, E3, E4; reflexivity|]. split; [unfold hubert_arabie; cbn [INR]; lra|vm_compute; reflexivity].
  - intros p q Hp Hq. cbn in Hp, Hq. repeat destruct Hp as [<-|Hp]; try destruct Hp; repeat destruct Hq as [<-|Hq]; try destruct Hq; cbn; lia.
  - intros x Hx. cbn in Hx. lia.
  - intros x y _ _ E. lia.
  - intros (_ & _ & X). inversion X; subst. inversion H2; subst. lia.
Qed.
(** All points in one cluster, and each in its own: undefined. *)
Example C101_undefined_hypotheses_met : adjusted_rand_index_f64 [0; 0; 0]%Z [1; 1; 1]%Z = Ok S754_nan /\ adjusted_rand_index_f64 [0; 1; 2]%Z [2; 1; 0]%Z = Ok S754_nan /\
  adjusted_rand_index [0; 0; 0]%Z [1; 1; 1]%Z = Ok None.
Proof.
  split; [vm_compute; reflexivity|]. split; [vm_compute; reflexivity|]. apply C101_undefined; [repeat split; repeat constructor; lia|unfold few_points, ari_max_points; cbn; lia|]. right. left. split; reflexivity.
Qed.
