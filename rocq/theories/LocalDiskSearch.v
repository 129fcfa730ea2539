(** The binary search of the local graph on disk: it ends, and finds the line of a vertex (C42-C44). *)
From Verif Require Import Base Num Sparse Graph Cluster Text TextFacts GraphIO IOSpec GraphIOFacts GraphIOAdj LocalDisk LocalDiskFacts.
From Coq Require Import Ascii String List Sorting.Sorted.
Import ListNotations.
Local Open Scope nat_scope.
Local Open Scope char_scope.
Local Open Scope list_scope.

(** ** Termination *)
(** The last line, if any, contains a colon. *)
Definition ends_with_node (ls : list text) : Prop := ls = [] \/ In ":" (last ls []).

Lemma file_lines_step t : t <> [] -> file_lines t = fst (getline t) :: file_lines (snd (getline t)).
Proof.
  intros Ht. unfold file_lines. rewrite read_lines_step by auto. rewrite read_lines_file.
  change (fst (getline t) :: file_lines (snd (getline t)) ++ [[]]) with
    ((fst (getline t) :: file_lines (snd (getline t))) ++ [[]]). rewrite removelast_last.
  now rewrite removelast_last.
Qed.
Lemma file_lines_nil_iff t : file_lines t = [] <-> t = [].
Proof. split; [|intros ->; reflexivity]. intros E. destruct t as [|c t]; auto. rewrite file_lines_step in E by discriminate. discriminate. Qed.
Lemma ends_tail t : t <> [] -> ends_with_node (file_lines t) -> ends_with_node (file_lines (snd (getline t))).
Proof.
  intros Ht. rewrite (file_lines_step t) by auto. intros [E|E]; [discriminate|].
  destruct (file_lines (snd (getline t))) as [|l ls]; [now left|now right].
Qed.
Lemma split1_in c t : In c t -> exists a b, split1 c t = Some (a, b) /\ t = a ++ c :: b.
Proof.
  induction t as [|x t IH]; intros Hin; [destruct Hin|]. simpl. destruct (Ascii.eqb_spec x c) as [->|Hx].
  - exists [], t. auto.
  - destruct Hin as [->|Hin]; [congruence|]. destruct (IH Hin) as (a & b & -> & ->). exists (x :: a), b. auto.
Qed.
Lemma split1_not_in c t : ~ In c t -> split1 c t = None.
Proof.
  induction t as [|x t IH]; intros Hn; auto. simpl. destruct (Ascii.eqb_spec x c) as [->|Hx]; [exfalso; apply Hn; now left|].
  rewrite IH; auto. intros Hin. apply Hn. now right.
Qed.
Definition good_throw {A} (o : outcome A) : Prop := o = Throw InvalidArgument \/ o = Throw OutOfRange.
(** A scan ends, throws one of two exceptions or finds a line of at least two characters. *)
Lemma scan_ends t : ends_with_node (file_lines t) -> t <> [] -> forall fuel, List.length t <= fuel ->
  exists o, scan_content fuel t = Some o /\
    (good_throw o \/ exists id r, o = Ok (id, r) /\ List.length (snd (getline r)) + 2 <= List.length r /\ List.length r <= List.length t).
Proof.
  induction t as [|t Ht IH] using lines_ind; intros He Hne fuel Hl; [congruence|]. clear Hne.
  destruct fuel as [|f]; [destruct t; [congruence|simpl in Hl; lia]|].
  pose proof (getline_shorter t Ht) as Hs. pose proof (getline_length t) as Hg. pose proof (ends_tail t Ht He) as He'.
  assert (~ In ":" (fst (getline t)) -> snd (getline t) <> []) as Hm.
  { intros Hn E. rewrite file_lines_step in He by auto. rewrite E in He. destruct He as [He|He]; [discriminate|]. simpl in He. tauto. }
  assert (scan_content (S f) t = match fst (getline t) with
    | [] => scan_content f (snd (getline t))
    | l => match split1 ":" l with Some (tok, _) => Some (do id <- stoi tok; Ok (id, t)) | None => scan_content f (snd (getline t)) end end) as ->.
  { destruct t; [congruence|]. cbn [scan_content]. destruct (getline (a :: t)) as [[|? ?] ?]; reflexivity. }
  destruct (in_dec Ascii.ascii_dec ":" (fst (getline t))) as [Hin|Hni].
  - destruct (split1_in _ _ Hin) as (a & b & E & El).
    assert (match fst (getline t) with
      | [] => scan_content f (snd (getline t))
      | l => match split1 ":" l with Some (tok, _) => Some (do id <- stoi tok; Ok (id, t)) | None => scan_content f (snd (getline t)) end end
      = Some (do id <- stoi a; Ok (id, t))) as ->.
    { destruct (fst (getline t)); [destruct Hin|]. now rewrite E. }
    eexists. split; [reflexivity|]. destruct (stoi_cases a) as [(z & Ez & _)|[Ez|Ez]]; rewrite Ez; simpl; unfold good_throw; auto.
    right. exists z, t. split; auto. split; [|lia]. rewrite El, app_length in Hg. simpl in Hg.
    destruct a; [vm_compute in Ez; discriminate|]. simpl in Hg. lia.
  - specialize (Hm Hni). assert (match fst (getline t) with
      | [] => scan_content f (snd (getline t))
      | l => match split1 ":" l with Some (tok, _) => Some (do id <- stoi tok; Ok (id, t)) | None => scan_content f (snd (getline t)) end end
      = scan_content f (snd (getline t))) as ->.
    { destruct (fst (getline t)); auto. now rewrite (split1_not_in _ _ Hni). }
    destruct (IH He' Hm f ltac:(lia)) as (o & E & Ho). exists o. split; auto. destruct Ho as [Ho|(id & r & -> & H1 & H2)]; auto.
    right. exists id, r. repeat split; auto. lia.
Qed.
Lemma ends_skip t k : ends_with_node (file_lines t) -> k < List.length t -> ends_with_node (file_lines (snd (getline (skipn k t)))).
Proof.
  revert k. induction t as [|t Ht IH] using lines_ind; intros k He Hk; [simpl in Hk; lia|].
  destruct (Nat.lt_ge_cases (k + List.length (snd (getline t))) (List.length t)) as [Hlt|Hge].
  - rewrite getline_skip by auto. now apply ends_tail.
  - rewrite skipn_getline by auto. pose proof (getline_shorter t Ht). apply IH; [now apply ends_tail|lia].
Qed.
(** A probe ends; if it gives an id other than -1 it was not at the last position. *)
Lemma goto_ends file k : ends_with_node (file_lines file) -> k < List.length file ->
  exists o, goto_next file (Z.of_nat k) = Some o /\
    (good_throw o \/ exists id r, o = Ok (id, r) /\ (id = (-1)%Z \/ S k < List.length file)).
Proof.
  intros He Hk. unfold goto_next. destruct (Z.eqb_spec (Z.of_nat k) (Z.of_nat (List.length file))); [lia|]. cbn [andb].
  destruct (Z.eqb_spec (Z.of_nat k) 0) as [H0|H0].
  - assert (k = 0) by lia. subst k. destruct file as [|c file]; [simpl in Hk; lia|].
    destruct (scan_ends (c :: file) He ltac:(discriminate) _ (le_n _)) as (o & E & Ho). exists o. split; auto.
    destruct Ho as [Ho|(id & r & -> & H1 & H2)]; auto. right. exists id, r. split; auto. right. lia.
  - rewrite Nat2Z.id. set (r := snd (getline (skipn k file))). pose proof (ends_skip _ _ He Hk) as Hr. fold r in Hr.
    assert (List.length r + k < List.length file) as Hl.
    { unfold r. assert (skipn k file <> []) as Hn by (intros E; apply (f_equal (@List.length _)) in E; rewrite skipn_length in E; simpl in E; lia).
      pose proof (getline_shorter _ Hn) as Hs. rewrite skipn_length in Hs. lia. }
    destruct r as [|c r'] eqn:Er.
    + eexists. split; [reflexivity|]. right. eexists. eexists. split; [reflexivity|]. now left.
    + destruct (scan_ends _ Hr ltac:(discriminate) _ (le_n _)) as (o & E & Ho). exists o. split; auto.
      destruct Ho as [Ho|(id & s & -> & H1 & H2)]; auto. right. exists id, s. split; auto. right. simpl in Hl. lia.
Qed.

Definition good_outcome {A} (o : outcome A) : Prop := (exists a, o = Ok a) \/ o = Throw RuntimeError \/ good_throw o.

Lemma mid_facts mn mx : (mn <= mx)%Z -> (mn <= (mx + mn) / 2 <= mx)%Z /\
  (2 * ((mx + mn) / 2) <= mx + mn < 2 * ((mx + mn) / 2) + 2)%Z.
Proof. intros Hm. pose proof (Z.div_mod (mx + mn) 2 ltac:(lia)). pose proof (Z.mod_pos_bound (mx + mn) 2 ltac:(lia)). lia. Qed.

Lemma pfind_ends file v : ends_with_node (file_lines file) -> forall fuel mn mx,
  (0 <= mn)%Z -> (mx <= Z.of_nat (List.length file))%Z -> (mn < Z.of_nat (List.length file) \/ mx < Z.of_nat (List.length file))%Z ->
  (mx - mn + 1 < 2 ^ Z.of_nat fuel)%Z ->
  exists o, pfind (S fuel) file v mn mx = Some o /\ good_outcome o.
Proof.
  intros He. induction fuel as [|f IH]; intros mn mx H0 H1 H2 Hw.
  - simpl in Hw. assert (mx < mn)%Z by lia. simpl. destruct (Z.ltb_spec mx mn); [|lia].
    eexists. split; [reflexivity|]. unfold good_outcome. auto.
  - rewrite Nat2Z.inj_succ, Z.pow_succ_r in Hw by lia. remember (S f) as sf eqn:Esf. cbn [pfind]. cbv zeta.
    destruct (Z.ltb_spec mx mn) as [Hlt|Hle]; [eexists; split; [reflexivity|]; unfold good_outcome; auto|].
    pose proof (mid_facts mn mx Hle) as [Hm1 Hm2]. set (p := ((mx + mn) / 2)%Z) in *. clearbody p.
    destruct (goto_ends file (Z.to_nat p) He ltac:(lia)) as (o & E & Ho). rewrite Z2Nat.id in E by lia. rewrite E.
    destruct Ho as [Ho|(id & r & -> & Hid)].
    + destruct Ho as [-> | ->]; eexists; (split; [reflexivity|]); unfold good_outcome, good_throw; auto.
    + destruct (Z.eqb_spec id v) as [->|Hv]; [eexists; split; [reflexivity|]; unfold good_outcome; eauto|].
      destruct (Z.eqb_spec id (-1)) as [->|Hm]; [|destruct (Z.ltb_spec v id)]; cbn [orb]; subst sf.
      * apply IH; lia.
      * apply IH; lia.
      * apply IH; lia.
Qed.
Lemma pfind_mono file v : forall f f' mn mx o, f <= f' -> pfind f file v mn mx = Some o -> pfind f' file v mn mx = Some o.
Proof.
  induction f as [|f IH]; intros f' mn mx o Hf; [discriminate|]. destruct f' as [|f']; [lia|]. cbn [pfind]. cbv zeta.
  destruct (mx <? mn)%Z; auto. destruct (goto_next file ((mx + mn) / 2)) as [[[id r]|e|]|]; auto.
  destruct (id =? v)%Z; auto. destruct ((id =? -1)%Z || (v <? id)%Z); apply IH; lia.
Qed.
(** Enough probes for a file of this size. *)
Definition probes (file : text) : nat := Nat.log2 (List.length file + 1) + 2.
Lemma pfind_ends_file file v fuel : ends_with_node (file_lines file) -> probes file <= fuel ->
  exists o, pfind fuel file v 0 (Z.of_nat (List.length file)) = Some o /\ good_outcome o.
Proof.
  intros He Hf. unfold probes in Hf. set (len := List.length file) in *.
  assert (exists o, pfind (Nat.log2 (len + 1) + 2) file v 0 (Z.of_nat len) = Some o /\ good_outcome o) as (o & E & Ho).
  { destruct (Nat.eq_dec len 0) as [H0|H0].
    - assert (file = []) as -> by (destruct file; [auto|discriminate]). rewrite H0. simpl.
      destruct (v) eqn:Ev; try (eexists; split; [reflexivity|]; unfold good_outcome; auto; fail).
      destruct p; eexists; (split; [reflexivity|]); unfold good_outcome; eauto.
    - replace (Nat.log2 (len + 1) + 2) with (S (S (Nat.log2 (len + 1)))) by lia. apply pfind_ends; auto; try lia.
      destruct (Nat.log2_spec (len + 1) ltac:(lia)) as [_ Hs]. apply Nat2Z.inj_lt in Hs. rewrite Nat2Z.inj_pow in Hs.
      change (Z.of_nat 2) with 2%Z in Hs. lia. }
  exists o. split; auto. eapply pfind_mono; eauto.
Qed.

(** ** Correctness *)
(** The only outcomes of a search: a probe found the id, a probe threw, or the range became empty. *)
Lemma pfind_result file v : forall fuel mn mx o, (0 <= mn)%Z -> (mx <= Z.of_nat (List.length file))%Z -> pfind fuel file v mn mx = Some o ->
  o = Throw RuntimeError \/ exists p, (0 <= p <= Z.of_nat (List.length file))%Z /\
    ((exists r, goto_next file p = Some (Ok (v, r)) /\ o = Ok r) \/ (exists e, goto_next file p = Some (Throw e) /\ o = Throw e) \/
     goto_next file p = Some UB /\ o = UB).
Proof.
  induction fuel as [|f IH]; intros mn mx o H0 H1; [discriminate|]. cbn [pfind]. cbv zeta.
  destruct (Z.ltb_spec mx mn) as [Hlt|Hle]; [injection 1 as <-; auto|].
  pose proof (mid_facts mn mx Hle) as [Hm1 Hm2]. set (p := ((mx + mn) / 2)%Z) in *. clearbody p.
  destruct (goto_next file p) as [[[id r]|e|]|] eqn:Eg.
  - destruct (Z.eqb_spec id v) as [->|Hv].
    + injection 1 as <-. right. exists p. split; [lia|]. left. exists r. auto.
    + destruct ((id =? -1)%Z || (v <? id)%Z); apply IH; lia.
  - injection 1 as <-. right. exists p. split; [lia|]. right. left. exists e. auto.
  - injection 1 as <-. right. exists p. split; [lia|]. right. right. auto.
  - discriminate.
Qed.

Section Found.
  Variables (file : text) (N : list (Z * text)).
  Hypothesis Hn : nodes file N.
  Hypothesis Hsort : StronglySorted Z.lt (map fst N).
  Hypothesis Hpos : Forall (fun n => (0 <= fst n)%Z) N.

  Lemma sorted_app_lt (A B : list (Z * text)) x y : StronglySorted Z.lt (map fst (A ++ B)) -> In x A -> In y B -> (fst x < fst y)%Z.
  Proof.
    induction A as [|a A IH]; simpl; [tauto|]. intros Hs [<-|Hx] Hy.
    - inversion Hs as [|? ? _ Hf]; subst. rewrite Forall_forall in Hf. apply Hf. apply in_map. apply in_or_app. auto.
    - inversion Hs; subst. auto.
  Qed.
  Lemma sorted_in_unique (L : list (Z * text)) v s s' : StronglySorted Z.lt (map fst L) -> In (v, s) L -> In (v, s') L -> s = s'.
  Proof.
    induction L as [|[u t] L IH]; simpl; [tauto|]. intros Hs. inversion Hs as [|? ? Hs' Hf]; subst. rewrite Forall_forall in Hf.
    assert (forall w, ~ In (u, w) L) as Hu.
    { intros w Hin. apply (in_map fst) in Hin. apply Hf in Hin. simpl in Hin. lia. }
    intros [E|H1] [E'|H2].
    - congruence.
    - injection E as -> ->. exfalso. eapply Hu; eauto.
    - injection E' as -> ->. exfalso. eapply Hu; eauto.
    - auto.
  Qed.
  Lemma sorted_app_r (A B : list (Z * text)) : StronglySorted Z.lt (map fst (A ++ B)) -> StronglySorted Z.lt (map fst B).
  Proof. induction A as [|a A IH]; simpl; auto. intros Hs. inversion Hs; auto. Qed.

  Definition start (s : text) : Z := (Z.of_nat (List.length file) - Z.of_nat (List.length s))%Z.

  (** Some position leads to each node line. *)
  Lemma position_of v s : In (v, s) N -> exists p, (p < List.length file) /\ goto_next file (Z.of_nat p) = Some (Ok (v, s)).
  Proof.
    intros Hin. destruct (nodes_gaps _ _ Hn) as [Hb Hg]. apply in_split in Hin. destruct Hin as (A & B & ->).
    assert (0 < List.length file) as Hlen.
    { destruct file; [|simpl; lia]. inversion Hn as [E|? ? Hc|? ? ? ? ? Hc]; subst; try congruence. destruct A; discriminate. }
    destruct A as [|a0 A0] eqn:EA.
    - exists 0. split; auto. destruct (goto_nodes file _ 0 Hn Hlen) as (N1 & N2 & E & Eg & F1 & F2). rewrite Eg. do 2 f_equal.
      rewrite (proj1 F2 eq_refl) in E. simpl in E. now subst.
    - assert (A <> []) as HA by (subst; discriminate). rewrite <- EA in *. clear EA a0 A0.
      destruct (@exists_last _ A HA) as (A' & [u' s'] & ->). rewrite <- app_assoc in *. cbn [app] in *.
      assert (List.length s + 2 <= List.length s' /\ List.length s' <= List.length file) as [Hs1 Hs2].
      { split.
        - assert (forall (L1 L2 : list (Z * text)), StronglySorted (fun a b : Z * text => List.length (snd b) + 2 <= List.length (snd a)) (L1 ++ L2) -> 
            StronglySorted (fun a b : Z * text => List.length (snd b) + 2 <= List.length (snd a)) L2) as Hr.
          { induction L1 as [|x L1 IH]; simpl; auto. intros L2 Hs. inversion Hs; auto. }
          apply Hr in Hg. apply StronglySorted_inv in Hg. destruct Hg as [_ Hg]. apply Forall_inv in Hg. exact Hg.
        - apply Forall_app in Hb. destruct Hb as [_ Hb]. apply Forall_inv in Hb. exact Hb. }
      set (p := List.length file - List.length s' + 1). assert (p < List.length file) as Hp by (unfold p; lia).
      exists p. split; auto. destruct (goto_nodes file _ p Hn Hp) as (N1 & N2 & E & Eg & F1 & F2). rewrite Eg. do 2 f_equal.
      destruct F2 as [_ F2]. specialize (F2 ltac:(unfold p; lia)). rewrite Forall_forall in F1, F2.
      assert (N1 = A' ++ [(u', s')] /\ N2 = (v, s) :: B) as [_ ->]; [|reflexivity].
      assert (forall n, In n A' -> List.length s' <= List.length (snd n)) as HA'.
      { intros n Hin. assert (forall L1 : list (Z * text), StronglySorted (fun a b : Z * text => List.length (snd b) + 2 <= List.length (snd a)) (L1 ++ (u', s') :: (v, s) :: B) ->
          In n L1 -> List.length s' <= List.length (snd n)) as Hr.
        { induction L1 as [|x L1 IH]; simpl; [tauto|]. intros Hs [->|Hi]; [|inversion Hs; auto].
          apply StronglySorted_inv in Hs. destruct Hs as [_ Hs]. rewrite Forall_forall in Hs.
          specialize (Hs (u', s') ltac:(apply in_or_app; right; now left)). cbn [snd] in Hs. lia. }
        eapply Hr; eauto. }
      assert (forall L1 L2 : list (Z * text), (forall n, In n (L1 ++ [(u', s')]) -> List.length s' <= List.length (snd n)) ->
        L1 ++ (u', s') :: (v, s) :: B = L2 ++ N2 -> (forall n, In n L2 -> List.length file <= p + List.length (snd n)) ->
        L2 = L1 ++ [(u', s')] /\ N2 = (v, s) :: B) as Hsplit.
      { clear E F1. induction L1 as [|x L1 IH]; intros L2 HL E HL2.
        - destruct L2 as [|y L2].
          + exfalso. simpl in E. specialize (F2 (u', s')). rewrite <- E in F2. specialize (F2 (or_introl eq_refl)).
            cbn [fst snd] in F2. unfold p in F2. lia.
          + simpl in E. injection E as <- E. destruct L2 as [|z L2]; [auto|]. exfalso. simpl in E. injection E as <- E.
            specialize (HL2 (v, s) ltac:(simpl; auto)). cbn [fst snd] in HL2. unfold p in HL2. lia.
        - destruct L2 as [|y L2].
          + exfalso. simpl in E. specialize (F2 x). rewrite <- E in F2. specialize (F2 (or_introl eq_refl)).
            specialize (HL x (or_introl eq_refl)). unfold p in F2. unfold text in *. lia.
          + simpl in E. injection E as <- E. destruct (IH L2) as [-> ->]; auto.
            * intros n Hi. apply HL. now right.
            * intros n Hi. apply HL2. now right. }
      apply (Hsplit A' N1); auto.
      intros n Hi. apply in_app_or in Hi. destruct Hi as [Hi|[<-|[]]]; [auto|simpl; lia].
  Qed.

  Lemma probe_range p : (0 <= p < Z.of_nat (List.length file))%Z -> exists N1 N2, N = N1 ++ N2 /\ goto_next file p = Some (Ok (hd ((-1)%Z, []) N2)) /\
    (forall n, In n N1 -> (start (snd n) <= p)%Z) /\ (forall n, In n N2 -> p = 0%Z \/ (p < start (snd n))%Z).
  Proof.
    intros Hp. destruct (goto_nodes file N (Z.to_nat p) Hn ltac:(lia)) as (N1 & N2 & E & Eg & F1 & F2). rewrite Z2Nat.id in Eg by lia.
    exists N1, N2. rewrite Forall_forall in F1. repeat split; auto.
    - intros n Hi. specialize (F1 n Hi). unfold start. unfold text in *. lia.
    - intros n Hi. destruct (Z.eq_dec p 0) as [H0|H0]; [now left|]. right. destruct F2 as [_ F2]. specialize (F2 ltac:(lia)).
      rewrite Forall_forall in F2. specialize (F2 n Hi).
      unfold start. unfold text in *. lia.
  Qed.

  Lemma pfind_found v s p : In (v, s) N -> p < List.length file -> goto_next file (Z.of_nat p) = Some (Ok (v, s)) ->
    forall fuel mn mx o, (0 <= mn <= Z.of_nat p)%Z -> (Z.of_nat p <= mx <= Z.of_nat (List.length file))%Z ->
    pfind fuel file v mn mx = Some o -> o = Ok s.
  Proof.
    intros Hin Hp Hg. destruct (probe_range (Z.of_nat p) ltac:(lia)) as (P1 & P2 & EP & EgP & FP1 & FP2).
    rewrite Hg in EgP. injection EgP as EgP.
    assert (0 <= v)%Z as Hv0 by (rewrite Forall_forall in Hpos; apply (Hpos _ Hin)).
    assert (P2 = (v, s) :: tl P2) as EP2 by (destruct P2; simpl in EgP; [injection EgP as -> _; lia|simpl; congruence]).
    assert (In (v, s) P2) as HinP by (rewrite EP2; now left).
    induction fuel as [|f IH]; intros mn mx o Hmn Hmx; [discriminate|]. cbn [pfind]. cbv zeta.
    destruct (Z.ltb_spec mx mn) as [Hlt|Hle]; [lia|].
    pose proof (mid_facts mn mx Hle) as [Hm1 Hm2]. set (q := ((mx + mn) / 2)%Z) in *. clearbody q.
    assert (q < Z.of_nat (List.length file) \/ q = Z.of_nat (List.length file))%Z as [Hq|Hq] by lia.
    2:{ (* a probe at the very end does not happen, and would not return *)
        unfold goto_next. rewrite Hq, Z.eqb_refl. destruct (Z.eqb_spec (Z.of_nat (List.length file)) 0); [lia|]. simpl. discriminate. }
    destruct (probe_range q ltac:(lia)) as (Q1 & Q2 & EQ & EgQ & FQ1 & FQ2). rewrite EgQ.
    destruct (hd ((-1)%Z, []) Q2) as [id r] eqn:Eh.
    destruct (Z.eqb_spec id v) as [->|Hid].
    - injection 1 as <-. f_equal. destruct Q2 as [|x Q2]; simpl in Eh; [injection Eh as <- <-; lia|]. subst x.
      eapply sorted_in_unique; [exact Hsort| |exact Hin]. rewrite EQ. apply in_or_app. right. now left.
    - assert (q <> Z.of_nat p) as Hqp by (intros ->; rewrite Hg in EgQ; injection EgQ as EgQ; rewrite <- EgQ in Eh; congruence).
      destruct (Z.eqb_spec id (-1)) as [Em|Em]; [|destruct (Z.ltb_spec v id) as [Hvi|Hvi]]; cbn [orb].
      + assert (Q2 = []) as ->.
        { destruct Q2 as [|x Q2]; auto. simpl in Eh. subst x. exfalso. rewrite Forall_forall in Hpos.
          specialize (Hpos (id, r)). simpl in Hpos. assert (0 <= id)%Z; [|lia]. apply Hpos. rewrite EQ. apply in_or_app. right. now left. }
        rewrite app_nil_r in EQ. subst Q1. specialize (FQ1 _ Hin). specialize (FP2 _ HinP). cbn [snd] in *. unfold text in *. intros E.
        eapply IH; [| |exact E]; lia.
      + assert (In (v, s) Q1) as Hi.
        { rewrite EQ in Hin. apply in_app_or in Hin. destruct Hin as [|Hi]; auto. exfalso. destruct Q2 as [|x Q2]; [destruct Hi|].
          simpl in Eh. subst x. rewrite EQ in Hsort. apply sorted_app_r in Hsort. destruct Hi as [Hi|Hi]; [congruence|].
          inversion Hsort as [|? ? _ Hf]; subst. rewrite Forall_forall in Hf. apply (in_map fst) in Hi. apply Hf in Hi. simpl in Hi. lia. }
        specialize (FQ1 _ Hi). specialize (FP2 _ HinP). cbn [snd] in *. unfold text in *. intros E. eapply IH; [| |exact E]; lia.
      + destruct Q2 as [|x Q2]; simpl in Eh; [injection Eh as <- <-; congruence|]. subst x.
        assert (In (id, r) P1) as Hi.
        { assert (In (id, r) N) as Hx by (rewrite EQ; apply in_or_app; right; now left). rewrite EP in Hx. apply in_app_or in Hx.
          destruct Hx as [|Hx]; auto. exfalso. rewrite EP in Hsort. apply sorted_app_r in Hsort. rewrite EP2 in Hsort, Hx.
          destruct Hx as [Hx|Hx]; [congruence|]. inversion Hsort as [|? ? _ Hf]; subst. rewrite Forall_forall in Hf.
          apply (in_map fst) in Hx. apply Hf in Hx. simpl in Hx. lia. }
        specialize (FP1 _ Hi). specialize (FQ2 (id, r) (or_introl eq_refl)). cbn [snd] in *. intros E.
        eapply IH; [| |exact E]; lia.
  Qed.
End Found.
