(** What the functions which read and write files do to the disk: results, exceptions, crashes (C69-C71). *)
From Verif Require Import Base Num Sparse SparseFacts Graph GraphSpec GraphFacts GraphProps1 Cluster ClusterSweep Text TextFacts GraphIO IOSpec GraphIOFacts GraphIOLoad GraphIOAdj
  GraphIOSort GraphIOConv RandomGraph Data FileSys FileSysFacts.
From Coq Require Import Ascii String List FunctionalExtensionality Permutation.
Import ListNotations.
Local Open Scope nat_scope.
Local Open Scope char_scope.
Local Open Scope list_scope.

(** ** Loops which write *)
Lemma wloop_app {L S} (step : S -> L -> outcome (text * S)) a b st :
  wloop step st (a ++ b) =
  match wloop step st a with
  | (t, Ok st') => let '(t', o) := wloop step st' b in (t ++ t', o)
  | r => r
  end.
Proof.
  revert st; induction a as [|x a IH]; intros st; cbn [app wloop].
  - now destruct (wloop step st b).
  - destruct (step st x) as [[t st']|e|]; auto. rewrite IH. destruct (wloop step st' a) as [t1 [st1| |]]; auto.
    destruct (wloop step st1 b) as [t2 o]. now rewrite app_assoc.
Qed.
(** When the loop throws, what has been written is what the lines before the offending one give. *)
Lemma wloop_throw {L S} (step : S -> L -> outcome (text * S)) ls st t e : wloop step st ls = (t, Throw e) ->
  exists good bad rest st', ls = good ++ bad :: rest /\ wloop step st good = (t, Ok st') /\ step st' bad = Throw e.
Proof.
  revert st t; induction ls as [|x ls IH]; intros st t; cbn [wloop]; [discriminate|].
  destruct (step st x) as [[t1 st1]|e1|] eqn:E; try discriminate.
  - destruct (wloop step st1 ls) as [t2 o] eqn:E2. intros [= <- ->]. apply IH in E2. destruct E2 as (good & bad & rest & st' & -> & E2 & E3).
    exists (x :: good), bad, rest, st'. split; auto. split; auto. cbn [wloop]. now rewrite E, E2.
  - intros [= <- <-]. exists [], x, ls, st. auto.
Qed.

Section Wloops.
  Context {W : Type} `{Num W} `{!TextNum W}.
  Lemma wloop_copy ls : match copy_dup_lines (W := W) ls with
                        | Ok out => wloop copy_step tt ls = (put_lines out, Ok tt)
                        | Throw e => exists t, wloop copy_step tt ls = (t, Throw e)
                        | UB => exists t, wloop copy_step tt ls = (t, UB)
                        end.
  Proof.
    induction ls as [|l ls IH]; cbn [copy_dup_lines wloop]; auto. unfold copy_step at 1 3 5. destruct (is_content l).
    - destruct (rethrow (parse_edge_line l)) as [[[u v] w]|e|]; cbn [obind]; eauto.
      destruct (copy_dup_lines ls) as [out|e|]; cbn [obind].
      + rewrite IH. change (show_edge u v w :: show_edge v u w :: out) with ([show_edge u v w; show_edge v u w] ++ out). now rewrite put_lines_app.
      + destruct IH as [t ->]. eauto.
      + destruct IH as [t ->]. eauto.
    - destruct (copy_dup_lines ls) as [out|e|]; cbn [obind].
      + rewrite IH. rewrite put_lines_cons. unfold put_line. now rewrite <- app_assoc.
      + destruct IH as [t ->]. eauto.
      + destruct IH as [t ->]. eauto.
  Qed.
  Lemma wloop_adj ls wc : match adj_to_el (W := W) ls wc with
                          | Ok out => exists wc', wloop adj_to_el_step wc ls = (put_lines out, Ok wc')
                          | Throw e => exists t, wloop adj_to_el_step wc ls = (t, Throw e)
                          | UB => exists t, wloop adj_to_el_step wc ls = (t, UB)
                          end.
  Proof.
    revert wc; induction ls as [|l ls IH]; intros wc; cbn [adj_to_el wloop]; eauto. unfold adj_to_el_step at 1 3 5. destruct (is_content l).
    - destruct (rethrow (parse_adj_line l)) as [es|e|]; cbn [obind]; eauto.
      specialize (IH true). destruct (adj_to_el ls true) as [out|e|]; cbn [obind].
      + destruct IH as [wc' ->]. exists wc'. now rewrite put_lines_app.
      + destruct IH as [t ->]. eauto.
      + destruct IH as [t ->]. eauto.
    - specialize (IH wc). destruct wc.
      + destruct (adj_to_el ls true) as [out|e|]; destruct IH as [t ->]; eauto.
      + destruct (adj_to_el ls false) as [out|e|]; cbn [obind]; destruct IH as [t ->]; eauto.
  Qed.
  Lemma wloop_el ls wc cur : match el_to_adj (W := W) ls wc cur with
                          | Ok out => exists st', wloop el_to_adj_step (wc, cur) ls = (out, Ok st')
                          | Throw e => exists t, wloop el_to_adj_step (wc, cur) ls = (t, Throw e)
                          | UB => exists t, wloop el_to_adj_step (wc, cur) ls = (t, UB)
                          end.
  Proof.
    revert wc cur; induction ls as [|l ls IH]; intros wc cur; cbn [el_to_adj wloop]; eauto. unfold el_to_adj_step at 1 3 5. destruct (is_content l).
    - destruct (rethrow (parse_edge_line l)) as [[[u v] w]|e|]; cbn [obind]; eauto.
      specialize (IH true (if (cur <? u)%Z then u else cur)). destruct (el_to_adj ls true _) as [out|e|]; cbn [obind].
      + destruct IH as [st' ->]. exists st'. now rewrite <- app_assoc.
      + destruct IH as [t ->]. eauto.
      + destruct IH as [t ->]. eauto.
    - specialize (IH wc cur). destruct wc.
      + destruct (el_to_adj ls true cur) as [out|e|]; destruct IH as [t ->]; eauto.
      + destruct (el_to_adj ls false cur) as [out|e|]; cbn [obind]; destruct IH as [t ->]; eauto.
  Qed.
  Lemma wloop_nodes (g : graph W) vs : match save_nodes g vs with
                          | Ok out => wloop (save_node_step g) tt vs = (put_lines out, Ok tt)
                          | Throw e => exists t, wloop (save_node_step g) tt vs = (t, Throw e)
                          | UB => exists t, wloop (save_node_step g) tt vs = (t, UB)
                          end.
  Proof.
    induction vs as [|v vs IH]; cbn [save_nodes wloop]; auto. unfold save_node_step at 1 3 5.
    destruct (neighbors g (Z.of_nat v)) as [es|e|]; cbn [obind]; eauto.
    destruct (save_nodes g vs) as [out|e|]; cbn [obind].
    - rewrite IH, put_lines_cons. unfold put_line. now rewrite <- app_assoc.
    - destruct IH as [t ->]. eauto.
    - destruct IH as [t ->]. eauto.
  Qed.
End Wloops.

Section Effects.
  Context {W : Type} `{Num W} `{!TextNum W} (writable : name -> bool).
  Local Notation copy_io := (copy_edgelist_io (W := W) writable).
  Local Notation adj_io := (adjacencylist_to_edgelist_io (W := W) writable).
  Local Notation el_io := (edgelist_to_adjacencylist_io (W := W) writable).
  Local Notation sort_io := (sort_edgelist_io (W := W) writable).

  (** *** Footprints *)
  Lemma confined_open_out {A} (R M : name -> Prop) f (k : io A) : M f -> confined R M k -> confined R M (open_out writable f k).
  Proof. unfold open_out. destruct (writable f); cbn [confined ithrow target]; auto. Qed.
  Lemma confined_open_in {A} (R M : name -> Prop) f (k : text -> io A) : R f \/ M f -> (forall t, confined R M (k t)) -> confined R M (open_in f k).
  Proof. intros Hf Hk. unfold open_in. cbn [confined]. split; auto. intros [t|]; auto. exact I. Qed.

  Lemma load_confined f : confined (fun g => g = f) (fun _ => False) (load_edgelist_io (W := W) f) /\
    confined (fun g => g = f) (fun _ => False) (load_adjacencylist_io (W := W) f).
  Proof. split; apply confined_open_in; auto; intros t; exact I. Qed.
  Lemma save_confined (g : graph W) f : confined (fun _ => False) (fun h => h = f) (save_edgelist_io writable g f) /\
    confined (fun _ => False) (fun h => h = f) (save_adjacencylist_io writable g f).
  Proof.
    split; [apply confined_open_out; auto; apply confined_write; auto; exact I|].
    unfold save_adjacencylist_io. destruct (wloop _ _ _) as [t o]. apply confined_open_out; auto.
    apply confined_write; auto. apply confined_write; auto. apply confined_finish. exact I.
  Qed.
  Lemma copy_confined i o : confined (fun g => g = i) (fun g => g = o) (copy_io i o).
  Proof.
    apply confined_open_in; auto. intros t0. apply confined_open_out; auto. split; auto. intros x.
    destruct (wloop _ _ _) as [t r]. apply confined_write; auto. apply confined_finish. exact I.
  Qed.
  Lemma adj_confined i o : confined (fun g => g = i) (fun g => g = o) (adj_io i o).
  Proof.
    unfold adjacencylist_to_edgelist_io. split; auto. intros o0.
    set (body := match o0 with Some _ => _ | None => _ end). assert (confined (fun g => g = i) (fun g => g = o) body) as Hb.
    { unfold body. destruct o0 as [t0|]; [|exact I]. destruct (writable o); [|exact I]. split; auto. intros x.
      destruct (wloop _ _ _) as [t r]. apply confined_write; auto. apply confined_finish. exact I. }
    destruct (writable o); auto. split; auto.
  Qed.
  Definition is_tmp (tmp : nat -> name) (g : name) : Prop := exists k, g = tmp k.
  Lemma sort_loop_confined fuel tmp k f n ivs (M : name -> Prop) R : M f -> (forall i, k <= i -> M (tmp i)) ->
    confined R M (sort_loop_io (W := W) writable fuel tmp k f n ivs).
  Proof.
    revert k ivs; induction fuel as [|fuel IH]; intros k ivs Hf Ht; destruct ivs as [|iv ivs]; cbn [sort_loop_io]; try exact I.
    assert (M (tmp k)) as Hk by auto. apply confined_open_out; auto. apply confined_open_in; auto. intros t.
    destruct (sort_pass _ _ _) as [[out nivs]|e|]; try exact I. apply confined_write; auto. split; auto.
    apply confined_open_in; auto. intros c. split; auto. intros [x|]; [exact I|]. apply confined_open_out; auto. apply confined_write; auto.
    split; auto. apply IH; auto. intros i Hi. apply Ht. lia.
  Qed.
  Lemma sort_confined fuel tmp f : confined (fun _ => False) (fun g => g = f \/ is_tmp tmp g) (sort_io fuel tmp f).
  Proof.
    apply confined_open_in; auto. intros t. destruct (lines_and_nodes t) as [[n m]|e|]; try exact I.
    apply sort_loop_confined; auto. intros i _. right. now exists i.
  Qed.
  Lemma el_confined fuel tmp i o : confined (fun g => g = i) (fun g => g = o \/ is_tmp tmp g) (el_io fuel tmp i o).
  Proof.
    assert (o = o \/ is_tmp tmp o) as Ho by auto. assert (tmp 0 = o \/ is_tmp tmp (tmp 0)) as Ht by (right; now exists 0).
    unfold edgelist_to_adjacencylist_io. apply confined_ibind.
    - eapply confined_weaken; [| |apply copy_confined]; [|auto]. cbv beta. intros f ->. exact Ht.
    - intros _. apply confined_ibind.
      + eapply confined_weaken; [| |apply sort_confined]; [|cbv beta; tauto]. cbv beta. intros f [->|[k ->]]; auto. right. now exists (S k).
      + intros _. split; auto. intros o0.
        set (body := Read _ _). assert (confined (fun g => g = i) (fun g => g = o \/ is_tmp tmp g) body) as Hb.
        { split; auto. intros x. destruct (wloop _ _ _) as [t r].
          assert (confined (fun g => g = i) (fun g => g = o \/ is_tmp tmp g) (finish r (Act (Delete (tmp 0)) (iret tt)))) as Hf.
          { apply confined_finish. split; auto. exact I. }
          destruct (writable o); auto. apply confined_write; auto. }
        destruct (writable o); auto. split; auto.
  Qed.

  (** *** Loading and saving *)
  Lemma exec_open_in {A} f (k : text -> io A) d : exec (open_in f k) d = match d f with Some t => exec (k t) d | None => (d, Some (Throw RuntimeError)) end.
  Proof. unfold open_in. cbn [exec]. now destruct (d f). Qed.
  Lemma exec_create_write {A} f t (k : io A) d : exec (write f t k) (upd d f (Some [])) = exec k (upd d f (Some t)).
  Proof. rewrite (exec_write f t k _ []) by apply upd_same. now rewrite upd_upd. Qed.
  Lemma load_edgelist_exec f d : exec (load_edgelist_io (W := W) f) d = (d, Some (match d f with Some t => load_edgelist t | None => Throw RuntimeError end)).
  Proof. unfold load_edgelist_io. rewrite exec_open_in. now destruct (d f). Qed.
  Lemma load_adjacencylist_exec f d :
    exec (load_adjacencylist_io (W := W) f) d = (d, Some (match d f with Some t => load_adjacencylist t | None => Throw RuntimeError end)).
  Proof. unfold load_adjacencylist_io. rewrite exec_open_in. now destruct (d f). Qed.
  Lemma save_edgelist_exec (g : graph W) f d : writable f = true -> exec (save_edgelist_io writable g f) d = (upd d f (Some (save_edgelist g)), Some (Ok tt)).
  Proof. intros Hw. unfold save_edgelist_io, open_out. rewrite Hw. cbn [exec act]. now rewrite exec_create_write. Qed.
  Lemma save_adjacencylist_exec (g : graph W) f t d : writable f = true -> save_adjacencylist g = Ok t ->
    exec (save_adjacencylist_io writable g f) d = (upd d f (Some t), Some (Ok tt)).
  Proof.
    intros Hw E. unfold save_adjacencylist in E. pose proof (wloop_nodes g (seq 0 (number_of_vertices g))) as Hn.
    destruct (save_nodes g (seq 0 (number_of_vertices g))) as [ls|e|]; try discriminate. cbn [obind] in E. injection E as <-.
    unfold save_adjacencylist_io. rewrite Hn. unfold open_out. rewrite Hw. cbn [exec act]. rewrite exec_create_write.
    rewrite (exec_write f (put_lines ls) _ _ (put_lines (adj_header g))) by apply upd_same. now rewrite upd_upd, <- put_lines_app.
  Qed.

  (** *** copy_edgelist_duplicate_edges *)
  Lemma copy_exec i o d t : i <> o -> d i = Some t -> writable o = true ->
    exists t' r, wloop (copy_step (W := W)) tt (read_lines t) = (t', r) /\
      exec (copy_io i o) d = (upd d o (Some t'), Some r).
  Proof.
    intros Hn E Hw. unfold copy_edgelist_io. rewrite exec_open_in, E. unfold open_out. rewrite Hw. cbn [exec act].
    rewrite upd_other by auto. rewrite E. destruct (wloop copy_step tt (read_lines t)) as [t' r] eqn:Ew. exists t', r. split; auto.
    rewrite exec_create_write. destruct r as [[]|e|]; reflexivity.
  Qed.
  Lemma copy_exec_ok i o d t out : i <> o -> d i = Some t -> writable o = true -> copy_edgelist_duplicate_edges (W := W) t = Ok out ->
    exec (copy_io i o) d = (upd d o (Some out), Some (Ok tt)).
  Proof.
    intros Hn E Hw Ec. destruct (copy_exec i o d t Hn E Hw) as (t' & r & Ew & Ex). unfold copy_edgelist_duplicate_edges in Ec.
    pose proof (wloop_copy (W := W) (read_lines t)) as Hc. destruct (copy_dup_lines (read_lines t)) as [ls|e|]; try discriminate.
    cbn [obind] in Ec. injection Ec as <-. rewrite Hc in Ew. injection Ew as <- <-. exact Ex.
  Qed.
  Lemma copy_exec_throw i o d t e : i <> o -> d i = Some t -> writable o = true -> copy_edgelist_duplicate_edges (W := W) t = Throw e ->
    exists good bad rest ls, read_lines t = good ++ bad :: rest /\ copy_dup_lines (W := W) good = Ok ls /\ is_content bad = true /\
      rethrow (parse_edge_line (W := W) bad) = Throw e /\
      exec (copy_io i o) d = (upd d o (Some (put_lines ls)), Some (Throw e)).
  Proof.
    intros Hn E Hw Ec. destruct (copy_exec i o d t Hn E Hw) as (t' & r & Ew & Ex). unfold copy_edgelist_duplicate_edges in Ec.
    pose proof (wloop_copy (W := W) (read_lines t)) as Hc. destruct (copy_dup_lines (read_lines t)) as [ls|e'|]; try discriminate.
    cbn [obind] in Ec. injection Ec as ->. destruct Hc as [t1 Hc]. rewrite Hc in Ew. injection Ew as <- <-.
    destruct (wloop_throw _ _ _ _ _ Hc) as (good & bad & rest & [] & Es & Eg & Eb). exists good, bad, rest.
    pose proof (wloop_copy (W := W) good) as Hg. destruct (copy_dup_lines good) as [ls|e'|].
    - rewrite Eg in Hg. injection Hg as ->. exists ls. split; auto. split; auto.
      unfold copy_step in Eb. destruct (is_content bad); [|discriminate]. split; auto. split; auto.
      destruct (rethrow (parse_edge_line bad)) as [[[u v] w]|e'|]; try discriminate. cbn [obind] in Eb. congruence.
    - destruct Hg as [? Hg]. congruence.
    - destruct Hg as [? Hg]. congruence.
  Qed.

  (** *** adjacencylist_to_edgelist *)
  Lemma adj_exec i o d t : i <> o -> d i = Some t -> writable o = true ->
    exists t' r, wloop (adj_to_el_step (W := W)) false (read_lines t) = (t', r) /\
      exec (adj_io i o) d = (upd d o (Some t'), Some (match r with Ok _ => Ok tt | Throw e => Throw e | UB => UB end)).
  Proof.
    intros Hn E Hw. unfold adjacencylist_to_edgelist_io. cbn [exec]. rewrite E, Hw. cbn [exec act].
    rewrite upd_other by auto. rewrite E. destruct (wloop adj_to_el_step false (read_lines t)) as [t' r] eqn:Ew. exists t', r. split; auto.
    rewrite exec_create_write. destruct r as [x|e|]; reflexivity.
  Qed.
  Lemma adj_exec_ok i o d t out : i <> o -> d i = Some t -> writable o = true -> adjacencylist_to_edgelist (W := W) t = Ok out ->
    exec (adj_io i o) d = (upd d o (Some out), Some (Ok tt)).
  Proof.
    intros Hn E Hw Ec. destruct (adj_exec i o d t Hn E Hw) as (t' & r & Ew & Ex). unfold adjacencylist_to_edgelist in Ec.
    pose proof (wloop_adj (W := W) (read_lines t) false) as Hc. destruct (adj_to_el (read_lines t) false) as [ls|e|]; try discriminate.
    cbn [obind] in Ec. injection Ec as <-. destruct Hc as [wc' Hc]. rewrite Hc in Ew. injection Ew as <- <-. exact Ex.
  Qed.
  Lemma adj_exec_throw i o d t e : i <> o -> d i = Some t -> writable o = true -> adjacencylist_to_edgelist (W := W) t = Throw e ->
    exists good bad rest ls, read_lines t = good ++ bad :: rest /\ adj_to_el (W := W) good false = Ok ls /\ is_content bad = true /\
      rethrow (parse_adj_line (W := W) bad) = Throw e /\
      exec (adj_io i o) d = (upd d o (Some (put_lines ls)), Some (Throw e)).
  Proof.
    intros Hn E Hw Ec. destruct (adj_exec i o d t Hn E Hw) as (t' & r & Ew & Ex). unfold adjacencylist_to_edgelist in Ec.
    pose proof (wloop_adj (W := W) (read_lines t) false) as Hc. destruct (adj_to_el (read_lines t) false) as [ls|e'|]; try discriminate.
    cbn [obind] in Ec. injection Ec as ->. destruct Hc as [t1 Hc]. rewrite Hc in Ew. injection Ew as <- <-.
    destruct (wloop_throw _ _ _ _ _ Hc) as (good & bad & rest & st' & Es & Eg & Eb). exists good, bad, rest.
    pose proof (wloop_adj (W := W) good false) as Hg. destruct (adj_to_el good false) as [ls|e'|]; destruct Hg as [? Hg].
    - rewrite Eg in Hg. injection Hg as -> ->. exists ls. split; auto. split; auto.
      unfold adj_to_el_step in Eb. destruct (is_content bad); [|discriminate]. split; auto. split; auto.
      destruct (rethrow (parse_adj_line bad)) as [es|e'|]; try discriminate. cbn [obind] in Eb. congruence.
    - congruence.
    - congruence.
  Qed.

  (** *** sort_edgelist *)
  Section SortIO.
    Context (tmp : nat -> name) (f : name).
    Hypothesis tmp_f : forall i, tmp i <> f.
    Lemma sort_pass_state d k out : d (tmp k) = None ->
      upd (upd (upd (upd d (tmp k) (Some out)) f None) f (Some out)) (tmp k) None = upd d f (Some out).
    Proof.
      intros E. extensionality g. unfold upd. pose proof (tmp_f k) as Hk. destruct (name_eq_dec g (tmp k)), (name_eq_dec g f); subst; auto; congruence.
    Qed.
    (** The disk after the passes. *)
    Lemma sort_loop_exec fuel k n ivs d t : d f = Some t -> (forall i, d (tmp i) = None) -> writable f = true -> (forall i, writable (tmp i) = true) ->
      forall t', sort_loop (W := W) fuel n t ivs = Some (Ok t') ->
      exec (sort_loop_io (W := W) writable fuel tmp k f n ivs) d = (upd d f (Some t'), Some (Ok tt)).
    Proof.
      revert k ivs d t; induction fuel as [|fuel IH]; intros k ivs d t Ef Et Hwf Hwt t'; destruct ivs as [|iv ivs]; cbn [sort_loop sort_loop_io].
      1, 3: intros [= <-]; rewrite upd_id by auto; reflexivity.
      - discriminate.
      - destruct (sort_pass (W := W) n (read_lines t) (iv :: ivs)) as [[out nivs]|e|] eqn:Ep; try discriminate. intros Es.
        unfold open_out at 1. rewrite Hwt. cbn [exec act]. rewrite exec_open_in. rewrite upd_other by (intros E; now apply (tmp_f k)). rewrite Ef, Ep.
        rewrite exec_create_write. cbn [exec act]. unfold copy_file. rewrite exec_open_in.
        rewrite upd_other by auto. rewrite upd_same. cbn [exec]. rewrite upd_same. unfold open_out. rewrite Hwf. cbn [exec act]. rewrite exec_create_write. cbn [exec act].
        rewrite sort_pass_state by auto. rewrite (IH _ _ _ (put_lines out)) with (t' := t'); auto.
        + now rewrite upd_upd.
        + apply upd_same.
        + intros i. rewrite upd_other by auto. auto.
    Qed.
    Lemma sort_exec fuel d t t' : d f = Some t -> (forall i, d (tmp i) = None) -> writable f = true -> (forall i, writable (tmp i) = true) ->
      sort_edgelist (W := W) fuel t = Some (Ok t') -> exec (sort_io fuel tmp f) d = (upd d f (Some t'), Some (Ok tt)).
    Proof.
      intros Ef Et Hwf Hwt Es. unfold sort_edgelist_io. rewrite exec_open_in, Ef. unfold sort_edgelist in Es.
      destruct (lines_and_nodes t) as [[n m]|e|]; try discriminate. now apply sort_loop_exec with (t := t).
    Qed.

    (** An invariant of the passes holds of the contents of the file, or of a temporary file, at every crash point. *)
    Lemma sort_loop_crash (Inv : text -> list ivl -> Prop) n :
      (forall t ivs, Inv t ivs -> exists out nivs, sort_pass (W := W) n (read_lines t) ivs = Ok (out, nivs) /\ Inv (put_lines out) nivs) ->
      forall fuel k ivs d d' t, d f = Some t -> Inv t ivs -> crashes (sort_loop_io (W := W) writable fuel tmp k f n ivs) d d' ->
      exists g t' ivs', (g = f \/ is_tmp tmp g) /\ d' g = Some t' /\ Inv t' ivs'.
    Proof.
      intros HI. induction fuel as [|fuel IH]; intros k ivs d d' t Ef Hi Hc; destruct ivs as [|iv ivs]; cbn [sort_loop_io] in Hc.
      1, 2, 3: apply crashes_done in Hc; subst d'; eexists f, t, _; split; [now left|split; [exact Ef|exact Hi]].
      destruct (HI _ _ Hi) as (out & nivs & Ep & Hi').
      assert (forall d, d f = Some t -> exists g t' ivs', (g = f \/ is_tmp tmp g) /\ d g = Some t' /\ Inv t' ivs') as Hf by (intros d0 E0; exists f, t, (iv :: ivs); auto).
      assert (forall d, d (tmp k) = Some (put_lines out) -> exists g t' ivs', (g = f \/ is_tmp tmp g) /\ d g = Some t' /\ Inv t' ivs') as Ht.
      { intros d0 E0. exists (tmp k), (put_lines out), nivs. split; auto. right. now exists k. }
      assert (f <> tmp k) as Hne by (intros E; now apply (tmp_f k)).
      unfold open_out at 1 in Hc. destruct (writable (tmp k)); [|apply crashes_done in Hc; subst d'; auto].
      apply crashes_act in Hc. destruct Hc as [->|Hc]; auto. cbn [act] in Hc. unfold open_in at 1 in Hc. apply crashes_read in Hc.
      rewrite upd_other, Ef, Ep in Hc by auto. apply (crashes_write _ _ _ _ _ []) in Hc; [|apply upd_same]. cbn [app] in Hc. rewrite upd_upd in Hc.
      destruct Hc as [(t1 & t2 & _ & ->)|Hc]; [apply Hf; rewrite upd_upd, upd_other; auto|].
      apply crashes_act in Hc. destruct Hc as [->|Hc]; [apply Hf; now rewrite upd_other|]. cbn [act] in Hc.
      unfold copy_file, open_in in Hc. apply crashes_read in Hc. rewrite upd_other, upd_same in Hc by auto.
      apply crashes_read in Hc. rewrite upd_same in Hc. unfold open_out in Hc.
      assert (forall o, upd (upd d (tmp k) (Some (put_lines out))) f o (tmp k) = Some (put_lines out)) as Hk.
      { intros o. rewrite upd_other by auto. apply upd_same. }
      destruct (writable f); [|apply crashes_done in Hc; subst d'; apply Ht; auto].
      apply crashes_act in Hc. destruct Hc as [->|Hc]; [apply Ht; auto|]. cbn [act] in Hc. rewrite upd_upd in Hc.
      apply (crashes_write _ _ _ _ _ []) in Hc; [|apply upd_same]. cbn [app] in Hc. rewrite !upd_upd in Hc.
      destruct Hc as [(t1 & t2 & _ & ->)|Hc]; [apply Ht; rewrite upd_upd; auto|].
      apply crashes_act in Hc. destruct Hc as [->|Hc]; [apply Ht; auto|]. cbn [act] in Hc.
      apply (IH _ _ _ _ (put_lines out)) in Hc; auto. rewrite upd_other by auto. apply upd_same.
    Qed.
  End SortIO.
End Effects.
