(** C75: doubles in text files: six significant digits. *)
From Verif Require Import Base Num RSum Sparse SparseFacts Graph GraphFacts GraphSpec GraphProps1 GraphProps2 GraphProps4
  Text TextFacts TextQc GraphIO IOSpec GraphIOFacts GraphIOLoad GraphIOAdj FloatFacts TextF64 TextF64Facts TextF64Top TextF64Read TextF64Graph.
From Coq Require Import ZArith Reals Lra Lia SpecFloat Ascii String List.
From Flocq Require Import Core BinarySingleNaN.
Import ListNotations.
Local Open Scope nat_scope.
Local Open Scope list_scope.

(** *** C75: a double of usual size, printed and read back: relative error at most 5.01e-6, never an exception. *)
Theorem C75_accuracy x : dbl x -> printed_range x ->
  exists y, stod (fmt x) = Ok y /\ dbl y /\ (Rabs (f2r y - f2r x) <= 501 / 100000000 * Rabs (f2r x))%R.
Proof. exact (print_read_error x). Qed.
(** *** C75: printing what was read gives the same text again, and it is read exactly. *)
Theorem C75_stable x y : dbl x -> printed_range x -> stod (fmt x) = Ok y -> fmt y = fmt x /\ stod (fmt y) = Ok y.
Proof. exact (print_idempotent x y). Qed.
(** *** C75: exactly the nearest doubles of the decimals with at most six significant digits survive. *)
Theorem C75_exact_iff_six_digits x : dbl x -> printed_range x ->
  (stod (fmt x) = Ok x <-> exists m k : Z, (0 < m < 1000000)%Z /\ Rabs (f2r x) = rnd64 (IZR m * bpow r10 k)).
Proof. exact (survives_iff x). Qed.
(** *** C75: integers below a million survive. *)
Theorem C75_integers z : (0 < z < 1000000)%Z -> stod (fmt (zf z)) = Ok (zf z) /\ stod (fmt (zf (- z))) = Ok (zf (- z)).
Proof.
  intros Hz. assert (forall s, (0 < Z.abs s < 1000000)%Z -> stod (fmt (zf s)) = Ok (zf s)) as Hs; [|split; apply Hs; lia].
  intros s Hs. assert (small_int s) as Hi by (unfold small_int; lia). destruct (zf_spec s Hi) as [D E].
  assert (Rabs (f2r (zf s)) = rnd64 (IZR (Z.abs s) * bpow r10 0)) as Ea.
  { rewrite E, <- abs_IZR. cbn [bpow]. rewrite Rmult_1_r. symmetry. apply rnd_int. unfold small_int. lia. }
  apply (six_digits_survive (zf s) (Z.abs s) 0 D Hs); [|exact Ea]. change (p10 0) with 1%R. rewrite Rmult_1_r.
  assert (1 <= IZR (Z.abs s) <= 1000000)%R as [B1 B2] by (split; apply IZR_le; lia).
  assert (p10 (-307) <= 1)%R as P1 by (change 1%R with (p10 0); apply bpow_le; lia). assert (1000000 <= p10 308)%R as P2 by (change 1000000%R with (p10 6); apply bpow_le; lia). lra.
Qed.

(** *** C75: saving and loading a whole graph of doubles: same vertices and edges, weights within 5.01e-6; saving and loading the copy again changes nothing. *)
Theorem C75_edgelist g : reachable g -> int_ids g -> savable_weights g -> (forall u, weight g u u = w0) -> last_not_isolated g ->
  exists h, load_edgelist (save_edgelist g) = Ok h /\ six_digit_copy g h /\
    exists h', load_edgelist (save_edgelist h) = Ok h' /\ graph_eqb h h' = true /\ forall u v, weight h' u v = weight h u v.
Proof. exact (save_load_edgelist g). Qed.
Theorem C75_adjacencylist g : reachable g -> int_ids g -> savable_weights g -> last_not_isolated g ->
  exists f h, save_adjacencylist g = Ok f /\ load_adjacencylist f = Ok h /\ six_digit_copy g h /\
    exists f' h', save_adjacencylist h = Ok f' /\ load_adjacencylist f' = Ok h' /\ graph_eqb h h' = true /\ forall u v, weight h' u v = weight h u v.
Proof. exact (save_load_adjacencylist g). Qed.

(** A triangle with weights 1/3 (as a double), 2 and 1234567. *)
Definition third : f64 := S754_finite false 6004799503160661 (-54).
Definition c75_mat : sprs f64 :=
  mkSprs 3 [[(1, third); (2, zf 2)]; [(0, third); (2, zf 1234567)]; [(0, zf 2); (1, zf 1234567)]].
Example C75_hypotheses_met : exists g, make_graph c75_mat = Ok g /\ reachable g /\ int_ids g /\ savable_weights g /\ (forall u, weight g u u = w0) /\ last_not_isolated g.
Proof.
  eexists. split; [vm_compute; reflexivity|]. split; [|split; [|split; [|split]]].
  - apply (constructed_above_eps c75_mat); [|vm_compute; reflexivity]. repeat constructor.
  - vm_compute. discriminate.
  - assert (forall w : f64, In w [third; zf 2; zf 1234567] -> dbl w /\ (1001 / 10000000000000 <= f2r w <= p10 308)%R) as Hw.
    { assert (10000000 <= p10 308)%R as P2 by (change 10000000%R with (p10 7); apply bpow_le; lia).
      intros w [<-|[<-|[<-|[]]]].
      - split; [split; reflexivity|]. assert (f2r third = 6004799503160661 / 18014398509481984)%R as -> by reflexivity. lra.
      - split; [apply zf_spec; unfold small_int; lia|]. rewrite (proj2 (zf_spec 2 ltac:(unfold small_int; lia))). lra.
      - split; [apply zf_spec; unfold small_int; lia|]. rewrite (proj2 (zf_spec 1234567 ltac:(unfold small_int; lia))). lra. }
    intros i j w G. apply Hw. destruct j as [|[|[|j]]]; try (destruct j; discriminate G);
      destruct i as [|[|[|i]]]; try discriminate G; vm_compute in G; injection G as <-; vm_compute; tauto.
  - intros u. destruct u as [|[|[|u]]]; try reflexivity. unfold weight, coeff, sp_get, sp_col. cbn [g_adj sp_cols nth]. now destruct u.
  - right. exists 0. vm_compute. discriminate.
Qed.

(** A double of usual size need not survive: 1234567 is written as 1.23457e+06. *)
Theorem C75_exact_refuted : exists (g h : graph f64), make_graph c75_mat = Ok g /\ load_edgelist (save_edgelist g) = Ok h /\ graph_eqb g h = false /\ weight h 1 2 = zf 1234570.
Proof. eexists. eexists. split; [vm_compute; reflexivity|]. split; [vm_compute; reflexivity|]. split; vm_compute; reflexivity. Qed.
(** An edge just above the library's threshold 1e-10 is written as 1e-10 and is gone after loading. *)
Definition c75_tiny : f64 := S754_finite false 7737126019246151 (-86).
Theorem C75_small_edge_refuted : exists (g h : graph f64), make_graph (mkSprs 2 [[(1, c75_tiny)]; [(0, c75_tiny)]]) = Ok g /\ number_of_edges g = 1 /\
  load_edgelist (save_edgelist g) = Ok h /\ number_of_edges h = 0.
Proof. eexists. eexists. split; [vm_compute; reflexivity|]. split; [vm_compute; reflexivity|]. split; vm_compute; reflexivity. Qed.
(** Tiny numbers are printed but cannot be read: loading a saved data file or edge list raises out_of_range. *)
Theorem C75_subnormal_refuted : exists x : f64, dbl x /\ f2r x <> 0%R /\ stod (fmt x) = Throw OutOfRange.
Proof.
  exists (S754_finite false 20240225330731 (-1074)). split; [split; reflexivity|]. split.
  - unfold f2r, SF2R. intros E. apply eq_0_F2R in E. discriminate.
  - vm_compute. reflexivity.
Qed.
(** A weight that is not a number is not rejected: the edge is dropped without notice; an infinite weight is kept. *)
Theorem C75_nan_rejected_refuted : exists g h : graph f64, load_edgelist (txt "0 1 nan") = Ok g /\ number_of_vertices g = 2 /\ number_of_edges g = 0 /\
  load_edgelist (txt "0 1 inf") = Ok h /\ weight h 0 1 = S754_infinity false.
Proof. eexists. eexists. split; [vm_compute; reflexivity|]. split; [vm_compute; reflexivity|]. split; [vm_compute; reflexivity|]. split; vm_compute; reflexivity. Qed.

(** *** C75: what a decimal text is read as.  [decimal neg a b ex] is the text [-]a.b or [-]a.be[-]c, [decimal_value] the real number it stands for. *)
Theorem C75_decimal_text : forall sp (neg : bool) a b ex, Forall (fun c => is_space c = true) sp -> digits a -> digits b -> a ++ b <> [] -> exp_ok ex ->
  let x := decimal_value a b ex in
  let t := sp ++ decimal neg a b ex in
  (x = 0%R -> stod t = Ok (S754_zero neg)) /\
  (bpow radix2 (-1022) <= rnd64 x < bpow radix2 1024 \/ (0 < x /\ rnd64 x = x /\ x < bpow radix2 1024) ->
     exists y, stod t = Ok y /\ dbl y /\ f2r y = (if neg then - rnd64 x else rnd64 x))%R /\
  (bpow radix2 1024 <= rnd64 x \/ (0 < x /\ rnd64 x < bpow radix2 (-1022) /\ rnd64 x <> x) -> stod t = Throw OutOfRange)%R.
Proof. exact reads_decimal. Qed.
Theorem C75_infinity_and_nan : forall c1 c2 c3 (neg : bool) rest,
  (one_of c1 ("i", "I")%char -> one_of c2 ("n", "N")%char -> one_of c3 ("f", "F")%char -> stod (sign_text neg ++ c1 :: c2 :: c3 :: rest) = Ok (S754_infinity neg)) /\
  (one_of c1 ("n", "N")%char -> one_of c2 ("a", "A")%char -> one_of c3 ("n", "N")%char -> stod (sign_text neg ++ c1 :: c2 :: c3 :: rest) = Ok S754_nan).
Proof. exact reads_words. Qed.
Theorem C75_other_text_refused : forall c rest, (forall d, digit_of c <> Some d) -> ~ In c ["."; "-"; "+"; "i"; "I"; "n"; "N"]%char -> is_space c = false ->
  stod (c :: rest : text) = Throw InvalidArgument.
Proof. exact refuses_words. Qed.
(** " -12.50e3" *)
Example C75_decimal_text_met : sign_text true = ["-"%char] /\ decimal true [1; 2] [5; 0] (Some (false, [3])) = txt "-12.50e3" /\
  digits [1; 2] /\ exp_ok (Some (false, [3])) /\ decimal_value [1; 2] [5; 0] (Some (false, [3])) = 12500%R.
Proof.
  split; [reflexivity|]. split; [reflexivity|]. split; [repeat constructor|]. split; [split; [repeat constructor|discriminate]|].
  unfold decimal_value. change (value ([1; 2] ++ [5; 0])) with 1250%Z. change (Z.sub (exponent (Some (false, [3]))) (Z.of_nat (List.length [5; 0]))) with 1%Z. simpl. lra.
Qed.
Print Assumptions C75_decimal_text.
Print Assumptions C75_infinity_and_nan.
Print Assumptions C75_other_text_refused.
Print Assumptions C75_accuracy.
Print Assumptions C75_stable.
Print Assumptions C75_exact_iff_six_digits.
Print Assumptions C75_integers.
Print Assumptions C75_edgelist.
Print Assumptions C75_adjacencylist.
Print Assumptions C75_exact_refuted.
Print Assumptions C75_small_edge_refuted.
Print Assumptions C75_subnormal_refuted.
Print Assumptions C75_nan_rejected_refuted.
