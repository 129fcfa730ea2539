(** Temporary names, general_sbm_edgelist and matrices on disk, an executable scheduler (C69-C73). *)
From Verif Require Import Base Num Sparse SparseFacts Graph GraphSpec Cluster Text TextFacts GraphIO IOSpec GraphIOFacts
  RandomGraph RandomFacts RandomTop RandomTop2 Data FileSys FileSysFacts FileSysTop FileSysSort.
From Coq Require Import Ascii String List FunctionalExtensionality.
Import ListNotations.
Local Open Scope nat_scope.
Local Open Scope list_scope.

(** ** Temporary names *)
(** A letter or a digit. *)
Definition alphanumeric (c : ascii) : Prop :=
  let n := nat_of_ascii c in 48 <= n <= 57 \/ 65 <= n <= 90 \/ 97 <= n <= 122.
(** The names which getTempFilename can return. *)
Definition temp_shaped (dir : text) (f : name) : Prop :=
  exists s, f = dir ++ txt "stag_temp_file." ++ s /\ List.length s = 20 /\ Forall alphanumeric s.
Lemma charset_alnum i : i < List.length charset -> alphanumeric (nth i charset "0"%char).
Proof.
  intros Hi. assert (Forall alphanumeric charset) as Ha; [|now apply Forall_nth].
  unfold alphanumeric. repeat (constructor; [cbv -[Nat.le]; lia|]). constructor.
Qed.
Lemma temp_name_shaped dir rnd k : temp_shaped dir (temp_name dir rnd k).
Proof.
  exists (random_string rnd (20 * k) 20). split; [reflexivity|]. split; [unfold random_string; now rewrite map_length, seq_length|].
  unfold random_string. apply Forall_map, Forall_forall. intros i _. apply charset_alnum. apply Nat.mod_upper_bound. discriminate.
Qed.

Section Sbm.
  Context {W : Type} `{PosNum W} `{!TextNum W} (writable : name -> bool) {St : Type} (G : rng W St).
  Lemma sbm_exec fuel sizes P exact s f d t s' : valid_sbm sizes P -> writable f = true ->
    general_sbm_edgelist G fuel sizes P exact s = Some (Ok (t, s')) ->
    exec (general_sbm_edgelist_io writable G fuel sizes P exact s f) d = (upd d f (Some t), Some (Ok s')).
  Proof.
    intros Hv Hw E. rewrite general_sbm_edgelist_evs in E by auto. unfold general_sbm_edgelist_io, open_out. rewrite Hw. cbn [exec act].
    pose proof Hv as (_ & Hr & Hc & _). rewrite Hr, Hc, Nat.ltb_irrefl. simpl orb. rewrite andb_false_r.
    rewrite exec_create_write. rewrite general_sbm_internal_evs by auto. set (hd := sbm_header sizes P) in *. clearbody hd. destruct (sbm_evs G fuel sizes P exact s) as [l o]. unfold res_of. rewrite apply_evs_file.
    destruct o as [s1|]; [|discriminate]. injection E as <- <-. cbn [rbind ret obind fst snd app].
    rewrite (exec_write _ _ _ _ (put_lines hd)) by apply upd_same. rewrite upd_upd, put_lines_app. reflexivity.
  Qed.
  Lemma sbm_confined fuel sizes P exact s f : confined (fun _ => False) (fun g => g = f) (general_sbm_edgelist_io writable G fuel sizes P exact s f).
  Proof.
    unfold general_sbm_edgelist_io. apply confined_open_out; auto. destruct (_ && _); [exact I|]. apply confined_write; auto.
    destruct (general_sbm_internal _ _ _ _ _ _ _) as [[[k s']|e|]|]; try exact I. apply confined_write; auto. exact I.
  Qed.
  (** Invalid parameters: the exception comes after the file has been replaced by a header. *)
  Lemma sbm_exec_invalid fuel sizes P exact s f d : ~ valid_sbm sizes P -> writable f = true ->
    dm_rows P = List.length sizes -> dm_cols P = List.length sizes ->
    exec (general_sbm_edgelist_io writable G fuel sizes P exact s f) d = (upd d f (Some (put_lines (sbm_header sizes P))), Some (Throw InvalidArgument)).
  Proof.
    intros Hv Hw Hr Hc. unfold general_sbm_edgelist_io, open_out. rewrite Hw. cbn [exec act].
    rewrite Hr, Hc, Nat.ltb_irrefl. simpl orb. rewrite andb_false_r. rewrite exec_create_write.
    unfold general_sbm_internal. destruct (sbm_params_ok sizes P) eqn:E; [apply valid_sbm_iff in E; contradiction|]. reflexivity.
  Qed.
End Sbm.

Section Matrix.
  Context {W : Type} `{Num W} `{!TextNum W} (writable : name -> bool).
  Lemma load_matrix_exec grow f d :
    exec (load_matrix_io (W := W) grow f) d = (d, Some (match d f with Some t => load_matrix grow t | None => Throw RuntimeError end)).
  Proof. unfold load_matrix_io. rewrite exec_open_in. now destruct (d f). Qed.
  Lemma save_matrix_exec (rows : list (list W)) f d : writable f = true -> exec (save_matrix_io writable rows f) d = (upd d f (Some (save_matrix rows)), Some (Ok tt)).
  Proof. intros Hw. unfold save_matrix_io, open_out. rewrite Hw. cbn [exec act]. now rewrite exec_create_write. Qed.
  Lemma save_matrix_crash (rows : list (list W)) f d d' : crashes (save_matrix_io writable rows f) d d' -> old_or_part d d' f (save_matrix rows).
  Proof.
    unfold save_matrix_io, open_out. destruct (writable f); [|intros Hc; apply crashes_done in Hc; subst; now left].
    intros Hc. apply crashes_act in Hc. destruct Hc as [->|Hc]; [now left|]. cbn [act] in Hc. apply crashes_create_write in Hc. right.
    destruct Hc as [(t1 & Hp & ->)|Hc]; [exists t1; rewrite upd_same; auto|]. apply crashes_done in Hc as ->. exists (save_matrix rows). rewrite upd_same.
    auto using initial_part_refl.
  Qed.
  Lemma save_matrix_confined (rows : list (list W)) f : confined (fun _ => False) (fun h => h = f) (save_matrix_io writable rows f).
  Proof. apply confined_open_out; auto. apply confined_write; auto. exact I. Qed.
  Lemma load_matrix_confined grow f : confined (fun g => g = f) (fun _ => False) (load_matrix_io (W := W) grow f).
  Proof. apply confined_open_in; auto. intros t. exact I. Qed.
  Lemma save_adjacencylist_crash (g : graph W) f d d' t : save_adjacencylist g = Ok t ->
    crashes (save_adjacencylist_io writable g f) d d' -> old_or_part d d' f t.
  Proof.
    intros E. unfold save_adjacencylist in E. pose proof (wloop_nodes g (seq 0 (number_of_vertices g))) as Hn.
    destruct (save_nodes g (seq 0 (number_of_vertices g))) as [ls|e|]; try discriminate. cbn [obind] in E. assert (t = put_lines (adj_header g ++ ls)) as -> by congruence. clear E.
    unfold save_adjacencylist_io. rewrite Hn. unfold open_out. destruct (writable f); [|intros Hc; apply crashes_done in Hc; subst; now left].
    intros Hc. apply crashes_act in Hc. destruct Hc as [->|Hc]; [now left|]. cbn [act] in Hc. apply crashes_create_write in Hc. right.
    rewrite put_lines_app. destruct Hc as [(t1 & [r Hr] & ->)|Hc].
    - exists t1. rewrite upd_same. split; auto. exists (r ++ put_lines ls). now rewrite Hr, <- app_assoc.
    - apply (crashes_write _ _ _ _ _ (put_lines (adj_header g))) in Hc; [|apply upd_same]. rewrite upd_upd in Hc.
      destruct Hc as [(t1 & t2 & E & ->)|Hc].
      + exists (put_lines (adj_header g) ++ t1). rewrite upd_same. split; auto. exists t2. now rewrite E, <- app_assoc.
      + apply crashes_finish in Hc as ->. eexists. rewrite upd_same. split; [reflexivity|apply initial_part_refl].
  Qed.
End Matrix.

(** ** An executable scheduler *)
Fixpoint steps {A} (n : nat) (p : io A) (d : disk) : io A * disk :=
  match n with
  | 0 => (p, d)
  | S n => match p with
           | Done r => (p, d)
           | Read f k => steps n (k (d f)) d
           | Act a k => steps n k (act a d)
           end
  end.
Fixpoint schedule {A B} (turns : list (bool * nat)) (p : io A) (q : io B) (d : disk) : io A * io B * disk :=
  match turns with
  | [] => (p, q, d)
  | (true, n) :: r => let '(p, d) := steps n p d in schedule r p q d
  | (false, n) :: r => let '(q, d) := steps n q d in schedule r p q d
  end.
Lemma steps_left {A B} n : forall (p p' : io A) (q : io B) d d', steps n p d = (p', d') ->
  forall p2 q2 d2, together p' q d' p2 q2 d2 -> together p q d p2 q2 d2.
Proof.
  induction n as [|n IH]; intros p p' q d d' E p2 q2 d2 Ht; cbn [steps] in E; [injection E as <- <-; auto|].
  destruct p as [r|f k|a k]; [injection E as <- <-; auto| |]; (eapply tg_left; [constructor|eapply IH; eauto]).
Qed.
Lemma steps_right {A B} n : forall (q q' : io B) (p : io A) d d', steps n q d = (q', d') ->
  forall p2 q2 d2, together p q' d' p2 q2 d2 -> together p q d p2 q2 d2.
Proof.
  induction n as [|n IH]; intros q q' p d d' E p2 q2 d2 Ht; cbn [steps] in E; [injection E as <- <-; auto|].
  destruct q as [r|f k|a k]; [injection E as <- <-; auto| |]; (eapply tg_right; [constructor|eapply IH; eauto]).
Qed.
Lemma schedule_together {A B} turns : forall (p p' : io A) (q q' : io B) d d', schedule turns p q d = (p', q', d') -> together p q d p' q' d'.
Proof.
  induction turns as [|[[] n] turns IH]; intros p p' q q' d d' E; cbn [schedule] in E.
  - injection E as <- <- <-. constructor.
  - destruct (steps n p d) as [p1 d1] eqn:Es. eapply steps_left; eauto.
  - destruct (steps n q d) as [q1 d1] eqn:Es. eapply steps_right; eauto.
Qed.
