(** C73: the command line tools stag_adj2edge, stag_edge2adj and stag_sbm, from their arguments to the files they leave.  [exec p d]: disk and result of running [p] alone;
    the result is [Some (Ok z)] when the process exits with status [z], [Some (Throw _)] when it is killed by an uncaught exception. *)
From Verif Require Import Base Num Sparse SparseFacts Graph GraphSpec GraphFacts GraphProps1 GraphExamples Cluster ClusterSweep ClusterExamples Text TextFacts TextQc
  GraphIO IOSpec GraphIOFacts GraphIOLoad GraphIOAdj GraphIOSort GraphIOConv GraphIOBack GraphIOBad IOExamples RandomGraph RandomFacts RandomTop RandomTop2 Data
  FileSys FileSysFacts FileSysTop FileSysSort FileSysMore Tools Props_IO Props_Random Props_FileSys.
From Coq Require Import Ascii String List Permutation Sorted QArith Qcanon.
Import ListNotations.
Local Close Scope Q_scope. Local Close Scope Qc_scope.
Local Open Scope nat_scope.
Local Open Scope list_scope.

(** A wrong number of arguments, or numbers which do not parse: status 22 and nothing is written. *)
Theorem C73_wrong_usage :
  forall (W : Type) `{Num W} `{!TextNum W} (writable : name -> bool) (tmp : nat -> name) (St : Type) (G : rng W St) fuel s (argv : list text) (d : disk),
  (List.length argv <> 3 -> exec (adj2edge_main (W := W) writable argv) d = (d, Some (Ok 22%Z)) /\
                            exec (edge2adj_main (W := W) writable fuel tmp argv) d = (d, Some (Ok 22%Z))) /\
  (List.length argv <> 6 -> exec (sbm_main writable G fuel s argv) d = (d, Some (Ok 22%Z))) /\
  (forall prog f n k p q e, argv = [prog; f; n; k; p; q] ->
     stoi n = Throw e \/ stoi k = Throw e \/ stod (W := W) p = Throw e \/ stod (W := W) q = Throw e ->
     exec (sbm_main writable G fuel s argv) d = (d, Some (Ok 22%Z))).
Proof.
  intros W HN HT writable tmp St G fuel s argv d. split; [|split].
  - intros Hl. destruct argv as [|a [|b [|c [|e argv]]]]; try (split; reflexivity). now destruct Hl.
  - intros Hl. destruct argv as [|a [|b [|c [|e [|f [|g [|h argv]]]]]]]; try reflexivity. now destruct Hl.
  - intros prog f n k p q e -> Hp. cbn [sbm_main]. unfold sbm_args.
    destruct (stoi_cases n) as [(zn & E1 & _)|[E1|E1]]; rewrite E1 in *; try reflexivity. cbn [obind].
    destruct (stoi_cases k) as [(zk & E2 & _)|[E2|E2]]; rewrite E2 in *; try reflexivity. cbn [obind].
    destruct (stod_result (W := W) p) as [(wp & E3)|[E3|E3]]; rewrite E3 in *; try reflexivity. cbn [obind].
    destruct (stod_result (W := W) q) as [(wq & E4)|[E4|E4]]; rewrite E4 in *; try reflexivity. destruct Hp as [Hp|[Hp|[Hp|Hp]]]; discriminate.
Qed.
Print Assumptions C73_wrong_usage.
(** The exit status is 0 or 22, and 22 means that nothing was written. *)
Theorem C73_exit_status :
  forall (W : Type) `{Num W} `{!TextNum W} (writable : name -> bool) (tmp : nat -> name) (St : Type) (G : rng W St) fuel s (argv : list text) (d d' : disk) z,
  exec (adj2edge_main (W := W) writable argv) d = (d', Some (Ok z)) \/ exec (edge2adj_main (W := W) writable fuel tmp argv) d = (d', Some (Ok z)) \/
  exec (sbm_main writable G fuel s argv) d = (d', Some (Ok z)) -> z = 0%Z \/ z = 22%Z /\ d' = d.
Proof.
  intros W HN HT writable tmp St G fuel s argv d d' z.
  assert (forall A (p : io A) d d' z, exec (ibind p (fun _ => iret 0%Z)) d = (d', Some (Ok z)) -> z = 0%Z) as Hb.
  { intros A p d0 d1 z0. rewrite exec_ibind. destruct (exec p d0) as [d2 [[a|e|]|]]; try discriminate. intros [= <- <-]. reflexivity. }
  assert (forall d d' z, exec (iret EINVAL) d = (d', Some (Ok z)) -> z = 0%Z \/ z = 22%Z /\ d' = d) as Hi.
  { intros d0 d1 z0 [= <- <-]. auto. }
  intros [E|[E|E]].
  - unfold adj2edge_main in E. destruct argv as [|a [|b [|c [|e argv]]]]; eauto.
  - unfold edge2adj_main in E. destruct argv as [|a [|b [|c [|e argv]]]]; eauto.
  - unfold sbm_main in E. destruct argv as [|a [|b [|c [|e [|f [|g [|h argv]]]]]]]; eauto.
    destruct (sbm_args c e f g) as [[[[n k] p] q]|x|]; eauto; [|discriminate]. destruct (k <=? 0)%Z; [discriminate|]. eauto.
Qed.
Print Assumptions C73_exit_status.
(** stag_edge2adj IN OUT, for an edge list file with non-negative weights: status 0, only OUT is written, and loading OUT gives the graph which loading IN gives. *)
Theorem C73_edge2adj :
  forall (W : Type) `{PosNum W} `{!TextNum W} (writable : name -> bool) (tmp : nat -> name) (prog i o : name) (d : disk) file (es : list (nat * nat * W)) fuel,
  d i = Some file -> writable o = true -> (forall k, writable (tmp k) = true /\ d (tmp k) = None /\ tmp k <> o /\ tmp (S k) <> tmp 0) ->
  edgelist_text (file_lines file) es -> (forall u v w, In (u, v, w) es -> printable w) ->
  (forall u v, weights_between es u v <> [] -> wltb (total (weights_between es u v)) w0 = false) ->
  (forall u, weights_between es u u <> [] -> wltb (total (flat_map (fun w => [w; w]) (weights_between es u u))) w0 = false) ->
  2 * List.length (file_lines file) + 1 < fuel ->
  exists d' out g h, exec (edge2adj_main (W := W) writable fuel tmp [prog; i; o]) d = (d', Some (Ok 0%Z)) /\ only_wrote d d' o out /\
    exec (load_edgelist_io (W := W) i) d = (d, Some (Ok g)) /\ exec (load_adjacencylist_io (W := W) o) d' = (d', Some (Ok h)) /\
    number_of_vertices h = number_of_vertices g /\ forall u v, weight h u v = weight g u v.
Proof.
  intros W HN HP HT writable tmp prog i o d file es fuel Ei Hw Ht Htx Hp H1 H2 Hf.
  destruct (edgelist_to_adjacencylist_graph file es Htx Hp H1 H2) as (out & ns & g & h & Ec & _ & _ & Eg & Eh & En & Ew).
  destruct (C69_edgelist_to_adjacencylist W writable tmp i o d file out fuel Ei Hw Ht (Ec fuel Hf)) as (d' & Ex & Ho).
  exists d', out, g, h. cbn [edge2adj_main]. rewrite exec_ibind, Ex. split; [reflexivity|]. split; auto.
  rewrite load_edgelist_exec, Ei, Eg. split; auto. rewrite load_adjacencylist_exec, (proj1 Ho), Eh. auto.
Qed.
Print Assumptions C73_edge2adj.
(** stag_adj2edge IN OUT, likewise (without self-loops: C40). *)
Theorem C73_adj2edge_partial :
  forall (W : Type) `{PosNum W} `{!TextNum W} (writable : name -> bool) (prog i o : name) (d : disk) file (ns : list (nat * list (nat * W))),
  d i = Some file -> writable o = true -> i <> o ->
  adjlist_text (file_lines file) ns -> (forall u v w, In (u, v, w) (arcs ns) -> printable w) ->
  undirected ns -> no_self_loop_lines ns ->
  (forall u v, weights_on_lines ns u v <> [] -> wltb (total (weights_on_lines ns u v)) w0 = false) ->
  exists d' out g h, exec (adj2edge_main (W := W) writable [prog; i; o]) d = (d', Some (Ok 0%Z)) /\ only_wrote d d' o out /\
    exec (load_adjacencylist_io (W := W) i) d = (d, Some (Ok g)) /\ exec (load_edgelist_io (W := W) o) d' = (d', Some (Ok h)) /\
    number_of_vertices h = number_of_vertices g /\ forall u v, weight h u v = weight g u v.
Proof.
  intros W HN HP HT writable prog i o d file ns Ei Hw Hn Htx Hp Hu Hs Hpos.
  destruct (C40_adjacencylist_to_edgelist_partial W file ns Htx Hp Hu Hs Hpos) as (out & g & h & Ec & Eg & Eh & En & Ew).
  destruct (proj2 (C69_convert W writable i o d file out Hn Ei Hw) Ec) as (d' & Ex & Ho).
  exists d', out, g, h. cbn [adj2edge_main]. rewrite exec_ibind, Ex. split; [reflexivity|]. split; auto.
  rewrite load_adjacencylist_exec, Ei, Eg. split; auto. rewrite load_edgelist_exec, (proj1 Ho), Eh. auto.
Qed.
Print Assumptions C73_adj2edge_partial.
Lemma sbm_valid_n {W} `{Num W} n k (p q : W) : (1 <= k <= n)%Z -> wltb p w0 = false -> wltb w1 p = false -> wltb q w0 = false -> wltb w1 q = false ->
  valid_sbm (sbm_sizes n k) (sbm_probs k p q).
Proof.
  intros Hk P0 P1 Q0 Q1. split.
  - apply Forall_forall. intros z Hz. apply repeat_spec in Hz. subst z. apply Z.div_le_lower_bound; lia.
  - unfold sbm_sizes. rewrite repeat_length. simpl. repeat split; destruct (i =? j); auto.
Qed.
(** stag_sbm FILE N K P Q with 1 <= K <= N and probabilities in [0,1]: status 0, only FILE is written, and it holds the graph which general_sbm draws in memory with K clusters of
    N / K vertices from the same random numbers (isolated vertices at the end are not in the file: C48). *)
Theorem C73_sbm :
  forall (W : Type) `{ExactNum W} `{!TextNum W} (writable : name -> bool) (St : Type) (G : rng W St) fuel s s' (prog f n k p q : text) (d : disk) zn zk (wp wq : W) g,
  stoi n = Ok zn -> stoi k = Ok zk -> stod p = Ok wp -> stod q = Ok wq -> (1 <= zk <= zn)%Z ->
  wltb wp w0 = false -> wltb w1 wp = false -> wltb wq w0 = false -> wltb w1 wq = false -> writable f = true ->
  (forall n s, 0 < n -> fst (pick G n s) < n) -> prints_ok (sbm_probs zk wp wq) ->
  general_sbm G fuel (repeat (zn / zk)%Z (Z.to_nat zk)) (sbm_probs zk wp wq) false s = Some (Ok (g, s')) ->
  exists d' file h, exec (sbm_main writable G fuel s [prog; f; n; k; p; q]) d = (d', Some (Ok 0%Z)) /\ only_wrote d d' f file /\
    exec (load_edgelist_io (W := W) f) d' = (d', Some (Ok h)) /\
    (forall u v, weight h u v = weight g u v) /\ number_of_vertices h <= number_of_vertices g.
Proof.
  intros W HN HE HT writable St G fuel s s' prog f n k p q d zn zk wp wq g En Ek Ep Eq Hk P0 P1 Q0 Q1 Hw Hpick Hpr Eg.
  pose proof (sbm_valid_n zn zk wp wq Hk P0 P1 Q0 Q1) as Hv.
  assert (zn <= 2147483647)%Z as Hmax. { destruct (stoi_cases n) as [(z & E & Hz)|[E|E]]; rewrite E in En; try discriminate. injection En as ->. lia. }
  assert (zsum (sbm_sizes zn zk) <= 2147483648)%Z as Hz.
  { rewrite zsum_nsum by apply Hv. unfold sbm_sizes. assert (0 <= zn / zk)%Z by (apply Z.div_pos; lia).
    assert (Z.of_nat (nsum (map Z.to_nat (repeat (zn / zk)%Z (Z.to_nat zk)))) = zk * (zn / zk))%Z as E.
    { replace zk with (Z.of_nat (Z.to_nat zk)) at 3 by lia. generalize (zn / zk)%Z, (Z.to_nat zk), H. clear. intros z m Hz. induction m as [|m IH]; [reflexivity|].
      cbn [repeat map]. unfold nsum in *. cbn [fold_right]. lia. }
    unfold nsizes in *. rewrite E. assert (zk * (zn / zk) <= zn)%Z by (apply Z.mul_div_le; lia). lia. }
  destruct (C48_file_equals_memory W St G fuel (sbm_sizes zn zk) (sbm_probs zk wp wq) false s s' g Hv Hpick Hpr Hz Eg) as (file & h & Ef & Eh & Hh & Hn & _).
  destruct (C69_general_sbm_edgelist W writable St G fuel _ _ false s f d file s' Hv Hw Ef) as (d' & Ex & Ho).
  exists d', file, h. cbn [sbm_main]. unfold sbm_args. rewrite En, Ek. cbn [obind]. rewrite Ep, Eq. cbn [obind].
  destruct (Z.leb_spec zk 0); [lia|]. rewrite exec_ibind, Ex. split; [reflexivity|]. split; auto.
  rewrite load_edgelist_exec, (proj1 Ho), Eh. auto.
Qed.
Print Assumptions C73_sbm.
(** Missing from the claim "failures are reported with a status": an input which does not exist kills the tools with an uncaught exception (and empties the output of stag_adj2edge). *)
Theorem C73_uncaught_exception_refuted :
  forall (W : Type) `{Num W} `{!TextNum W} (writable : name -> bool) (tmp : nat -> name) (prog i o : name) (d : disk) fuel, d i = None -> writable o = true ->
  (exists d', exec (adj2edge_main (W := W) writable [prog; i; o]) d = (d', Some (Throw RuntimeError)) /\ only_wrote d d' o []) /\
  exec (edge2adj_main (W := W) writable fuel tmp [prog; i; o]) d = (d, Some (Throw RuntimeError)).
Proof.
  intros W HN HT writable tmp prog i o d fuel E Hw. split.
  - exists (upd d o (Some [])). split; [|apply only_wrote_upd]. cbn [adj2edge_main]. rewrite exec_ibind. unfold adjacencylist_to_edgelist_io. cbn [exec]. now rewrite E, Hw.
  - cbn [edge2adj_main]. rewrite exec_ibind. unfold edgelist_to_adjacencylist_io. rewrite exec_ibind. unfold copy_edgelist_io. now rewrite exec_open_in, E.
Qed.
Print Assumptions C73_uncaught_exception_refuted.
(** stag_sbm: a probability above 1 is an uncaught exception which leaves a header behind; zero clusters are undefined behaviour; the graph has fewer than N vertices when K does not divide N. *)
Definition sbm_argv (n k p q : string) : list text := [txt "stag_sbm"; fout; txt n; txt k; txt p; txt q].
Theorem C73_sbm_arguments_refuted :
  ends (sbm_main all_writable exRng 5 0 (sbm_argv "4" "2" "1.5" "0.5")) (disk1 fin exFile)
    (fun d r => match r with Some (Throw InvalidArgument) => has d fout (put_lines (sbm_header [2; 2]%Z (sbm_probs 2 (qc 3 2) (qc 1 2)))) | _ => false end) = true /\
  ends (sbm_main all_writable exRng 5 0 (sbm_argv "4" "0" "0.5" "0.5")) (disk1 fin exFile) (fun d r => match r with Some UB => true | _ => false end) = true /\
  ends (sbm_main all_writable exRng 5 0 (sbm_argv "5" "2" "1" "1")) (disk1 fin exFile)
    (fun d r => is_ok r && match exec (load_edgelist_io (W := Qc) fout) d with (_, Some (Ok g)) => (number_of_vertices g =? 4)%nat | _ => false end) = true.
Proof. split; [vm_compute; reflexivity|]. split; vm_compute; reflexivity. Qed.
Print Assumptions C73_sbm_arguments_refuted.
Lemma disk1_same f t : disk1 f t f = Some t.
Proof. unfold disk1. destruct (name_eq_dec f f); congruence. Qed.
Example C73_hypotheses_met :
  (** stag_edge2adj *)
  (disk1 fin exFile fin = Some exFile /\ (forall k, all_writable (ftmp k) = true /\ disk1 fin exFile (ftmp k) = None /\ ftmp k <> fout /\ ftmp (S k) <> ftmp 0) /\
   edgelist_text (file_lines exFile) (edges_of_file exFile) /\ 2 * List.length (file_lines exFile) + 1 < 50) /\
  (** stag_adj2edge *)
  (disk1 fin exAdjFile fin = Some exAdjFile /\ fin <> fout /\ adjlist_text (file_lines exAdjFile) (nodes_of_file exAdjFile)) /\
  (** stag_sbm *)
  (stoi (txt "4") = Ok 4%Z /\ stoi (txt "2") = Ok 2%Z /\ stod (W := Qc) (txt "0.75") = Ok (qc 75 100) /\ stod (W := Qc) (txt "0.25") = Ok (qc 25 100) /\
   prints_ok (sbm_probs 2 (qc 75 100) (qc 25 100)) /\
   exists g s', general_sbm exRng 5 (repeat (4 / 2)%Z (Z.to_nat 2)) (sbm_probs 2 (qc 75 100) (qc 25 100)) false 0 = Some (Ok (g, s')) /\ number_of_vertices g = 4) /\
  ends (sbm_main all_writable exRng 5 0 (sbm_argv "4" "2" "0.75" "0.25")) (disk1 fin exFile) (fun d r => is_ok r && negb (lacks d fout) && has d fin exFile) = true /\
  stoi (txt "x") = Throw InvalidArgument.
Proof.
  split; [|split; [|split; [|split; vm_compute; reflexivity]]].
  - split; [apply disk1_same|]. split; [|split; [apply C38_hypotheses_met|vm_compute; lia]]. intros k. split; auto. split; [|split; [discriminate|]].
    + unfold disk1. destruct (name_eq_dec (ftmp k) fin) as [E|]; [discriminate E|reflexivity].
    + apply C69_hypotheses_met.
  - split; [apply disk1_same|]. split; [discriminate|]. apply C40_hypotheses_met.
  - split; [vm_compute; reflexivity|]. split; [vm_compute; reflexivity|]. split; [vm_compute; reflexivity|]. split; [vm_compute; reflexivity|]. split.
    + split; [vm_compute; reflexivity|]. split; [vm_compute; reflexivity|]. intros i j. cbn [sbm_probs dm_at].
      destruct (i =? j); apply one_line_txt; vm_compute; reflexivity.
    + eexists. eexists. split; vm_compute; reflexivity.
Qed.
