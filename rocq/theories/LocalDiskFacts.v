(** Facts about the local graph on disk: caches, the binary search. *)
From Verif Require Import Base Num Sparse Graph Cluster Text TextFacts GraphIO IOSpec LocalDisk.
From Coq Require Import Ascii String List Sorting.Sorted.
Import ListNotations.
Local Open Scope nat_scope.
Local Open Scope char_scope.
Local Open Scope list_scope.

(** ** The same computations without caches *)
Section Pure.
  Context {W : Type} `{Num W} `{!TextNum W}.
  Fixpoint pfind (fuel : nat) (file : text) (v mn mx : Z) : option (outcome text) :=
    match fuel with
    | 0 => None
    | S f =>
      if (mx <? mn)%Z then Some (Throw RuntimeError)
      else
        let p := ((mx + mn) / 2)%Z in
        match goto_next file p with
        | Some (Ok (id, r)) =>
          if (id =? v)%Z then Some (Ok r)
          else if ((id =? -1) || (v <? id))%Z then pfind f file v mn (p - 1)
          else pfind f file v (p + 1) mx
        | Some (Throw e) => Some (Throw e)
        | Some UB => Some UB
        | None => None
        end
    end.
  Definition pbind {A B} (x : option (outcome A)) (f : A -> option (outcome B)) : option (outcome B) :=
    match x with
    | Some (Ok a) => f a
    | Some (Throw e) => Some (Throw e)
    | Some UB => Some UB
    | None => None
    end.
  Definition pneighbors (fuel : nat) (file : text) (v : Z) : option (outcome (list (zedge W))) :=
    pbind (pfind fuel file v 0 (Z.of_nat (List.length file))) (fun r => Some (parse_adj_line (fst (getline r)))).

  (** The caches hold answers of the file. *)
  Definition valid fuel (file : text) (st : dstate W) : Prop :=
    (forall p id, lookup p (d_loc st) = Some id -> exists r, goto_next file p = Some (Ok (id, r))) /\
    (forall v es, lookup v (d_node st) = Some es -> pneighbors fuel file v = Some (Ok es)).
  Lemma valid_init fuel file : valid fuel file d_init.
  Proof. split; simpl; discriminate. Qed.

  Definition computes {A} fuel file (c : call A) (x : option (outcome A)) : Prop :=
    forall st, valid fuel file st ->
      match c st with Some (o, st') => x = Some o /\ valid fuel file st' | None => x = None end.

  Lemma computes_ret {A} fuel file (o : outcome A) : computes fuel file (cret o) (Some o).
  Proof. intros st Hv. simpl. auto. Qed.
  Lemma computes_bind {A B} fuel file (c : call A) x (f : A -> call B) y :
    computes fuel file c x -> (forall a, computes fuel file (f a) (y a)) -> computes fuel file (cbind c f) (pbind x y).
  Proof.
    intros Hc Hf st Hv. unfold cbind. specialize (Hc st Hv). destruct (c st) as [[o st']|].
    - destruct Hc as [-> Hv']. destruct o; simpl; auto. now apply Hf.
    - now rewrite Hc.
  Qed.

  Lemma find_loop_computes : forall f fuel file v mn mx st, valid fuel file st ->
    match find_loop f file v mn mx st with
    | Some (o, st') => pfind f file v mn mx = Some o /\ valid fuel file st'
    | None => pfind f file v mn mx = None
    end.
  Proof.
    induction f as [|f IH]; intros fuel file v mn mx st Hv; [reflexivity|]. cbn [find_loop pfind].
    destruct (Z.ltb_spec mx mn); [auto|]. cbv zeta. set (p := ((mx + mn) / 2)%Z).
    destruct (lookup p (d_loc st)) as [id|] eqn:El.
    - destruct (proj1 Hv p id El) as [r Er]. rewrite Er. destruct (Z.eqb_spec id v) as [->|Hid]; [auto|].
      destruct ((id =? -1)%Z || (v <? id)%Z); now apply IH.
    - destruct (goto_next file p) as [[[id r]|e|]|] eqn:Eg; auto.
      assert (valid fuel file (mkD ((p, id) :: d_loc st) (d_node st))) as Hv'.
      { destruct Hv as [H1 H2]. split; [|exact H2]. intros q i. simpl. destruct (Z.eqb_spec p q) as [<-|Hq]; [|apply H1].
        injection 1 as <-. eauto. }
      destruct (id =? v)%Z; [auto|]. destruct ((id =? -1)%Z || (v <? id)%Z); now apply IH.
  Qed.
  Lemma find_computes fuel file v : computes fuel file (find_vertex fuel file v) (pfind fuel file v 0 (Z.of_nat (List.length file))).
  Proof. intros st Hv. now apply find_loop_computes. Qed.
  Lemma neighbors_computes fuel file v : computes fuel file (d_neighbors fuel file v) (pneighbors fuel file v).
  Proof.
    intros st Hv. unfold d_neighbors. destruct (lookup v (d_node st)) as [es|] eqn:El.
    { split; auto. now apply (proj2 Hv). }
    unfold cbind at 1. pose proof (find_computes fuel file v st Hv) as Hf. unfold pneighbors.
    destruct (find_vertex fuel file v st) as [[o st']|]; [|now rewrite Hf].
    destruct Hf as [Ef Hv']. rewrite Ef. destruct o as [r|e|]; simpl; auto. unfold cbind, cret.
    destruct (parse_adj_line (fst (getline r))) as [es|e|] eqn:Ep; auto. split; auto.
    destruct Hv' as [H1 H2]. split; [exact H1|]. intros q i. simpl. destruct (Z.eqb_spec v q) as [<-|Hq]; [|apply H2].
    injection 1 as <-. unfold pneighbors. rewrite Ef. simpl. now rewrite Ep.
  Qed.
  Definition pexists fuel file v : option (outcome bool) :=
    match pfind fuel file v 0 (Z.of_nat (List.length file)) with
    | Some (Ok _) => Some (Ok true)
    | Some (Throw RuntimeError) => Some (Ok false)
    | Some (Throw e) => Some (Throw e)
    | Some UB => Some UB
    | None => None
    end.
  Lemma exists_computes fuel file v : computes fuel file (d_vertex_exists fuel file v) (pexists fuel file v).
  Proof.
    intros st Hv. unfold d_vertex_exists, pexists. pose proof (find_computes fuel file v st Hv) as Hf.
    destruct (find_vertex fuel file v st) as [[o st']|]; [|now rewrite Hf].
    destruct Hf as [-> Hv']. destruct o as [|[]|]; auto.
  Qed.
  Fixpoint pmap {A B} (f : A -> option (outcome B)) (l : list A) : option (outcome (list B)) :=
    match l with
    | [] => Some (Ok [])
    | x :: r => pbind (f x) (fun y => pbind (pmap f r) (fun ys => Some (Ok (y :: ys))))
    end.
  Lemma computes_map {A B} fuel file (f : A -> call B) g : (forall a, computes fuel file (f a) (g a)) ->
    forall l, computes fuel file (call_map f l) (pmap g l).
  Proof.
    intros Hf. induction l as [|x l IH]; cbn [call_map pmap]; [apply computes_ret|]. apply computes_bind; auto. intros y.
    apply computes_bind; auto. intros ys. apply computes_ret.
  Qed.
  (** Every query computes something which does not depend on the caches. *)
  Lemma ask_computes fuel file q : exists x, computes fuel file (ask fuel file q) x.
  Proof.
    pose proof (neighbors_computes fuel file) as Hn. pose proof (exists_computes fuel file) as He.
    destruct q; simpl; unfold d_neighbors_unweighted, d_degrees, d_degrees_unweighted, d_degree, d_degree_unweighted;
      eexists; repeat first [apply Hn | apply He | apply computes_ret | apply computes_map; intros ? | apply computes_bind | intros ?].
  Qed.
  Lemma after_valid fuel file qs : forall st st', valid fuel file st -> after fuel file qs st = Some st' -> valid fuel file st'.
  Proof.
    induction qs as [|q qs IH]; intros st st' Hv; simpl; [now injection 1 as <-|].
    destruct (ask_computes fuel file q) as [x Hx]. specialize (Hx st Hv).
    destruct (ask fuel file q st) as [[o st1]|]; [|discriminate]. apply IH. apply Hx.
  Qed.

  (** The answer without the caches. *)
  Definition result {A} (x : option (outcome A * dstate W)) : option (outcome A) := option_map fst x.
  Lemma computes_result {A} fuel file (c : call A) x st : computes fuel file c x -> valid fuel file st -> result (c st) = x.
  Proof. intros Hc Hv. specialize (Hc st Hv). unfold result. destruct (c st) as [[o st']|]; simpl; [now destruct Hc|auto]. Qed.
  Theorem history_independent fuel file qs q st : after fuel file qs d_init = Some st ->
    result (ask fuel file q st) = result (ask fuel file q d_init).
  Proof.
    intros Ha. destruct (ask_computes fuel file q) as [x Hx].
    rewrite (computes_result _ _ _ _ _ Hx (after_valid _ _ _ _ _ (valid_init fuel file) Ha)).
    now rewrite (computes_result _ _ _ _ _ Hx (valid_init fuel file)).
  Qed.
End Pure.

(** ** Lines of the file and positions *)
Lemma getline_consumed t : exists l, t = l ++ snd (getline t) /\ List.length (fst (getline t)) <= List.length l.
Proof.
  induction t as [|c t (l & E & Hl)]; [exists []; auto|]. simpl. destruct (c =? LF); [exists [c]; simpl; split; [auto|lia]|].
  destruct (c =? CR).
  - destruct t as [|d r]; [exists [c]; simpl; split; [auto|lia]|]. destruct (d =? LF); [exists [c; d]|exists [c]]; simpl; split; auto; lia.
  - destruct (getline t) as [l' r']. simpl in *. exists (c :: l). simpl. split; [now rewrite <- E|lia].
Qed.
Lemma getline_length t : List.length (fst (getline t)) + List.length (snd (getline t)) <= List.length t.
Proof. destruct (getline_consumed t) as (l & E & Hl). rewrite E at 3. rewrite app_length. lia. Qed.

(** Reading on from inside a line ends where the line ends. *)
Lemma getline_skip t : forall k, k + List.length (snd (getline t)) < List.length t ->
  snd (getline (skipn k t)) = snd (getline t).
Proof.
  induction t as [|c t IH]; intros k Hk; [destruct k; reflexivity|]. destruct k as [|k]; [reflexivity|].
  cbn [skipn]. simpl in Hk |- *. destruct (c =? LF); [simpl in Hk; lia|]. destruct (c =? CR).
  - destruct t as [|d r]; [simpl in Hk; lia|]. destruct (d =? LF) eqn:Ed; [|simpl in Hk; lia]. simpl in Hk.
    destruct k; [|lia]. simpl. now rewrite Ed.
  - destruct (getline t) as [l' r'] eqn:Eg. simpl in *. apply IH. lia.
Qed.
Lemma skipn_getline t k : List.length t <= k + List.length (snd (getline t)) ->
  skipn k t = skipn (k + List.length (snd (getline t)) - List.length t) (snd (getline t)).
Proof.
  intros Hk. destruct (getline_consumed t) as (l & E & _). set (r := snd (getline t)) in *. clearbody r. subst t.
  rewrite app_length in *. rewrite skipn_app. rewrite skipn_all2 by lia. simpl. f_equal. lia.
Qed.

(** The content lines of a text, each with what is unread when the reader stands at its start. *)
Inductive nodes : text -> list (Z * text) -> Prop :=
| nodes_nil : nodes [] []
| nodes_skip t N : t <> [] -> free_of [":"] (fst (getline t)) -> N <> [] -> nodes (snd (getline t)) N -> nodes t N
| nodes_node t u a r N : t <> [] -> fst (getline t) = a ++ ":" :: r -> free_of [":"] a -> stoi a = Ok u ->
    nodes (snd (getline t)) N -> nodes t ((u, t) :: N).

Lemma scan_nodes t N : nodes t N -> N <> [] -> forall fuel, List.length t <= fuel ->
  scan_content fuel t = Some (Ok (hd ((-1)%Z, []) N)).
Proof.
  induction 1 as [|t N Ht Hf HN Hn IH|t u a r N Ht E Hf Hs Hn IH]; intros Hne fuel Hl; [congruence| |].
  - destruct t as [|c t]; [congruence|]. destruct fuel as [|f]; [simpl in Hl; lia|]. cbn [scan_content].
    pose proof (getline_shorter (c :: t) Ht) as Hs. destruct (getline (c :: t)) as [l r']. cbn [fst snd] in *. simpl in Hs, Hl.
    rewrite split1_none by auto. destruct l; apply IH; auto; lia.
  - destruct t as [|c t]; [congruence|]. destruct fuel as [|f]; [simpl in Hl; lia|]. cbn [scan_content].
    destruct (getline (c :: t)) as [l r']. cbn [fst snd] in *. subst l. rewrite split1_app by auto. rewrite Hs.
    destruct a; reflexivity.
Qed.
Lemma nodes_bounded t N : nodes t N -> Forall (fun n => List.length (snd n) <= List.length t) N.
Proof.
  induction 1 as [|t N Ht Hf HN Hn IH|t u a r N Ht E Hf Hs Hn IH]; [constructor| |].
    - eapply Forall_impl; [|exact IH]. intros n Hl. cbn beta in Hl. pose proof (getline_shorter t Ht). lia.
    - constructor; [simpl; lia|]. eapply Forall_impl; [|exact IH]. intros n Hl. cbn beta in Hl. pose proof (getline_shorter t Ht). lia.
Qed.
(** What is left after skipping the rest of the line at position [k]. *)
Lemma nodes_after t N : nodes t N -> forall k, k < List.length t ->
  exists N1 N2, N = N1 ++ N2 /\ nodes (snd (getline (skipn k t))) N2 /\
    Forall (fun n => List.length t <= k + List.length (snd n)) N1 /\
    Forall (fun n => k + List.length (snd n) < List.length t) N2.
Proof.
  induction 1 as [|t N Ht Hf HN Hn IH|t u a r N Ht E Hf Hs Hn IH]; intros k Hk.
  - simpl in Hk. lia.
  - destruct (Nat.lt_ge_cases (k + List.length (snd (getline t))) (List.length t)) as [Hlt|Hge].
    + exists [], N. rewrite getline_skip by auto. repeat split; auto. apply nodes_bounded in Hn. eapply Forall_impl; [|exact Hn].
      intros n Hl. cbn beta in Hl. lia.
    + rewrite skipn_getline by auto. pose proof (getline_shorter t Ht).
      destruct (IH (k + List.length (snd (getline t)) - List.length t)) as (N1 & N2 & -> & Hn2 & H1 & H2); [lia|].
      exists N1, N2. repeat split; auto.
      * eapply Forall_impl; [|exact H1]. intros n Hl. cbn beta in *. lia.
      * eapply Forall_impl; [|exact H2]. intros n Hl. cbn beta in *. lia.
  - destruct (Nat.lt_ge_cases (k + List.length (snd (getline t))) (List.length t)) as [Hlt|Hge].
    + exists [(u, t)], N. rewrite getline_skip by auto. repeat split; auto.
      * constructor; [simpl; lia|constructor].
      * apply nodes_bounded in Hn. eapply Forall_impl; [|exact Hn]. intros n Hl. cbn beta in Hl. lia.
    + rewrite skipn_getline by auto. pose proof (getline_shorter t Ht).
      destruct (IH (k + List.length (snd (getline t)) - List.length t)) as (N1 & N2 & -> & Hn2 & H1 & H2); [lia|].
      exists ((u, t) :: N1), N2. repeat split; auto.
      * constructor; [simpl; lia|]. eapply Forall_impl; [|exact H1]. intros n Hl. cbn beta in *. lia.
      * eapply Forall_impl; [|exact H2]. intros n Hl. cbn beta in *. lia.
Qed.
Lemma nodes_gaps t N : nodes t N -> Forall (fun n => List.length (snd n) <= List.length t) N /\
  StronglySorted (fun a b : Z * text => List.length (snd b) + 2 <= List.length (snd a)) N.
Proof.
  induction 1 as [|t N Ht Hf HN Hn [IH1 IH2]|t u a r N Ht E Hf Hs Hn [IH1 IH2]]; [split; constructor| |].
  - split; auto. eapply Forall_impl; [|exact IH1]. intros n Hl. cbn beta in Hl. pose proof (getline_shorter t Ht). lia.
  - assert (List.length (snd (getline t)) + 2 <= List.length t) as Hg.
    { pose proof (getline_length t) as Hl. rewrite E in Hl. rewrite app_length in Hl. simpl in Hl.
      destruct a; [vm_compute in Hs; discriminate|]. simpl in Hl. lia. }
    split; constructor; auto.
    + eapply Forall_impl; [|exact IH1]. intros n Hl. cbn beta in Hl. lia.
    + eapply Forall_impl; [|exact IH1]. intros n Hl. cbn beta in Hl. cbn [snd].
      unfold text in *. lia.
Qed.
Lemma nodes_nil_inv t : nodes t [] -> t = [].
Proof. inversion 1; subst; congruence. Qed.

(** The result of a probe at position [k]. *)
Lemma goto_nodes file N k : nodes file N -> k < List.length file ->
  exists N1 N2, N = N1 ++ N2 /\ goto_next file (Z.of_nat k) = Some (Ok (hd ((-1)%Z, []) N2)) /\
    Forall (fun n => List.length file <= k + List.length (snd n)) N1 /\
    (k = 0 -> N1 = []) /\ (k <> 0 -> Forall (fun n => k + List.length (snd n) < List.length file) N2).
Proof.
  intros Hn Hk. unfold goto_next. destruct (Z.eqb_spec (Z.of_nat k) (Z.of_nat (List.length file))); [lia|]. cbn [andb].
  destruct (Z.eqb_spec (Z.of_nat k) 0) as [H0|H0].
  - assert (k = 0) by lia. subst k. exists [], N. repeat split; auto; [|lia]. destruct file as [|c file]; [simpl in Hk; lia|].
    apply scan_nodes; auto. intros ->. apply nodes_nil_inv in Hn. discriminate.
  - rewrite Nat2Z.id. destruct (nodes_after _ _ Hn k Hk) as (N1 & N2 & -> & Hn2 & H1 & H2). exists N1, N2.
    repeat split; auto; [|lia]. destruct (snd (getline (skipn k file))) as [|c r] eqn:Er.
    + inversion Hn2; subst; [reflexivity|congruence|congruence].
    + apply scan_nodes; auto. intros ->. apply nodes_nil_inv in Hn2. discriminate.
Qed.
