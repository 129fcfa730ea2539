(** Specification vocabulary for data files, and facts about the model of data.cpp. *)
From Verif Require Import Base Num Text TextFacts GraphIO IOSpec Data.
From Coq Require Import Ascii String List.
Import ListNotations.
Local Open Scope nat_scope.
Local Open Scope char_scope.
Local Open Scope list_scope.

(** ** Specification *)
Section Spec.
  Context {W : Type} `{Num W} `{!TextNum W}.
  (** A well-formed row: its non-empty fields are numbers, in order.  A line with a comma is comma separated,
      otherwise one with a space is space separated, otherwise it is tab separated.  (With a single field no
      other separator may occur in the line.) *)
  Definition row_text (line : text) (vs : list W) : Prop :=
    exists d ts, is_delim d /\ free_of (earlier d) line /\ split_by d line ts /\
      (2 <= List.length ts \/ free_of (others d) line) /\ Forall2 (fun t v => stod t = Ok v) ts vs.
  (** The lines of a data file and the rows they hold, in order. *)
  Inductive rows_text : list text -> list (list W) -> Prop :=
  | rt_nil : rows_text [] []
  | rt_skip l ls rows : comment_or_blank l -> rows_text ls rows -> rows_text (l :: ls) rows
  | rt_row l ls vs rows : ~ comment_or_blank l -> row_text l vs -> rows_text ls rows ->
      rows_text (l :: ls) (vs :: rows).
  (** A row one of whose fields, other than the last, is not a number. *)
  Definition bad_row (line : text) (e : exn) : Prop :=
    exists d pre t post, is_delim d /\ free_of (earlier d) line /\ split_by d line (pre ++ t :: post) /\ post <> [] /\
      Forall (fun t => exists v : W, stod t = Ok v) pre /\ stod (W := W) t = Throw e.
  (** The matrix with the given rows, every cell initialised. *)
  Definition matrix_of (c : nat) (rows : list (list W)) : dmat (W := W) :=
    {| drows := List.length rows; dcols := c; cells := map (map Some) rows |}.
  (** The textual form of an entry: an ordinary token which reads back as the number [y]. *)
  Definition prints_as (x y : W) : Prop :=
    stod (fmt x) = Ok y /\ fmt x <> [] /\ free_of [","; " "; TAB; LF; CR] (fmt x) /\ ~ comment_or_blank (fmt x).
End Spec.

Lemma Forall2_length {A B} (R : A -> B -> Prop) l l' : Forall2 R l l' -> List.length l = List.length l'.
Proof. induction 1; simpl; auto. Qed.

Section Facts.
  Context {W : Type} `{Num W} `{!TextNum W}.
  Notation dmat := (dmat (W := W)).

  Lemma csv_tokens_ok (fs : list text) (vs acc : list W) : Forall2 (fun t v => stod t = Ok v) (filter nonempty fs) vs ->
    csv_tokens acc fs = Ok (acc ++ vs).
  Proof.
    revert vs acc. induction fs as [|f fs IH]; intros vs acc F.
    - inversion F; subst. simpl. now rewrite app_nil_r.
    - destruct f as [|c f]; [now apply IH|]. simpl in F. inversion F as [|a v b vs' E F']; subst.
      cbn [csv_tokens]. rewrite E. simpl. rewrite (IH vs') by auto. now rewrite <- app_assoc.
  Qed.
  Lemma csv_tokens_bad (fs : list text) (pre : list text) t post e (acc : list W) :
    filter nonempty fs = pre ++ t :: post -> Forall (fun t => exists v : W, stod t = Ok v) pre -> stod (W := W) t = Throw e ->
    csv_tokens acc fs = Throw e.
  Proof.
    revert pre acc. induction fs as [|f fs IH]; intros pre acc E F Ht.
    - destruct pre; discriminate E.
    - destruct f as [|c f]; [now apply (IH pre)|]. simpl in E. cbn [csv_tokens]. destruct pre as [|p pre]; simpl in E.
      + injection E as <- E. now rewrite Ht.
      + injection E as <- E. apply Forall_cons_iff in F. destruct F as [[v Hv] F]. rewrite Hv. simpl. now apply (IH pre).
  Qed.
  (** Never undefined. *)
  Lemma stod_defined t : stod (W := W) t <> UB.
  Proof. destruct (stod_result (W := W) t) as [[w ->] | [-> | ->]]; discriminate. Qed.
  Lemma csv_tokens_defined fs : forall acc : list W, csv_tokens acc fs <> UB.
  Proof.
    induction fs as [|f fs IH]; intros acc; [discriminate|]. destruct f as [|c f]; [apply IH|]. cbn [csv_tokens].
    pose proof (stod_defined (c :: f)). destruct (stod (c :: f)); simpl; [apply IH|discriminate|congruence].
  Qed.
  Lemma csv_delim_defined c (st : list W * text) : csv_delim c st <> UB.
  Proof.
    destruct st as [[|v vs] line]; [|discriminate]. unfold csv_delim. destruct (fields c line) as [toks rest].
    pose proof (csv_tokens_defined toks []). destruct (csv_tokens [] toks); simpl; congruence.
  Qed.
  Lemma parse_csv_line_defined line : parse_csv_line (W := W) line <> UB.
  Proof.
    unfold parse_csv_line.
    pose proof (csv_delim_defined "," ([], line)). destruct (csv_delim "," ([], line)) as [s1|e|]; simpl; try congruence.
    pose proof (csv_delim_defined " " s1). destruct (csv_delim " " s1) as [s2|e|]; simpl; try congruence.
    pose proof (csv_delim_defined TAB s2). destruct (csv_delim TAB s2) as [[vs rest]|e|]; simpl; try congruence.
    pose proof (stod_defined rest). destruct (stod rest); congruence.
  Qed.

  Lemma csv_delim_free c line : free_of [c] line -> csv_delim (W := W) c ([], line) = Ok ([], line).
  Proof. intros F. unfold csv_delim. now rewrite fields_none. Qed.
  Lemma csv_delim_found c v (vs : list W) line : csv_delim c (v :: vs, line) = Ok (v :: vs, line).
  Proof. reflexivity. Qed.
  Lemma csv_delim_join c fs l (vs : list W) : Forall (free_of [c]) fs -> free_of [c] l ->
    Forall2 (fun t v => stod t = Ok v) (filter nonempty fs) vs ->
    csv_delim c ([], join_fields c fs l) = Ok (vs, l).
  Proof. intros Ff Fl F2. unfold csv_delim. rewrite fields_of_join by auto. now rewrite (csv_tokens_ok fs vs []). Qed.

  Definition finish (st : list W * text) : outcome (list W) :=
    let '(vs, rest) := st in
    match stod rest with Ok v => Ok (vs ++ [v]) | Throw _ => Ok vs | UB => UB end.
  Lemma parse_unfold line : parse_csv_line (W := W) line =
    (do st <- csv_delim "," ([], line); do st <- csv_delim " " st; do st <- csv_delim TAB st; finish st).
  Proof. reflexivity. Qed.
  Lemma free_in (d : ascii) (l : list ascii) t : In d l -> free_of l t -> free_of [d] t.
  Proof. intros I F. eapply free_of_sub; [|exact F]. intros c [<-|[]]. exact I. Qed.
  Lemma join_free cs d fs l : free_of cs (join_fields d fs l) -> free_of cs l.
  Proof. unfold join_fields. rewrite free_of_app. intros [_ F]. exact F. Qed.

  (** The parser splits on the first separator which yields a number. *)
  Lemma parse_join d fs l (vs : list W) : is_delim d -> free_of (earlier d) (join_fields d fs l) ->
    Forall (free_of [d]) fs -> free_of [d] l -> Forall2 (fun t v => stod t = Ok v) (filter nonempty fs) vs ->
    (vs <> [] \/ free_of (others d) l) ->
    parse_csv_line (join_fields d fs l) = finish (vs, l).
  Proof.
    intros Hd He Ff Fl F2 Hc. rewrite parse_unfold. pose proof (csv_delim_join d fs l vs Ff Fl F2) as J.
    assert (Hn : forall c, In c [","; " "; TAB] -> c <> d -> free_of (others d) l -> free_of [c] l).
    { intros c Hi Hc' Fo. eapply free_in; [|exact Fo]. unfold others. apply filter_In. split; auto.
      apply negb_true_iff. now apply eqb_neq_iff. }
    assert (G : forall c, In c [","; " "; TAB] -> c <> d -> csv_delim c (vs, l) = Ok (vs, l)).
    { intros c Hi Hc'. destruct vs as [|v vs]; [|reflexivity]. destruct Hc as [Hc|Hc]; [congruence|].
      apply csv_delim_free. now apply Hn. }
    destruct Hd as [<-|[<-|[<-|[]]]].
    - rewrite J. cbn [obind]. rewrite !G by (simpl; auto; discriminate). cbn [obind].
      rewrite !G by (simpl; auto; discriminate). reflexivity.
    - rewrite csv_delim_free by (eapply free_in; [|exact He]; simpl; auto). cbn [obind]. rewrite J. cbn [obind].
      rewrite !G by (simpl; auto; discriminate). reflexivity.
    - rewrite csv_delim_free by (eapply free_in; [|exact He]; simpl; auto). cbn [obind].
      rewrite csv_delim_free by (eapply free_in; [|exact He]; simpl; auto). cbn [obind]. rewrite J. reflexivity.
  Qed.

  Lemma parse_row line (vs : list W) : row_text line vs -> parse_csv_line line = Ok vs.
  Proof.
    intros (d & ts & Hd & He & (fs & l & -> & Ff & Fl & ->) & Hc & F2).
    rewrite filter_app in F2, Hc. apply Forall2_app_inv_l in F2. destruct F2 as (v1 & v2 & F1 & F2 & ->).
    pose proof (Forall2_length _ _ _ F1) as L1.
    rewrite (parse_join d fs l v1 Hd He Ff Fl F1).
    - destruct l as [|c l]; simpl in F2.
      + inversion F2; subst. cbn [finish]. now rewrite stod_nil, app_nil_r.
      + inversion F2 as [|a v b w E F3]; subst. inversion F3; subst. unfold finish. now rewrite E.
    - destruct Hc as [Hc|Hc].
      + left. rewrite app_length in Hc. intros ->. simpl in L1.
        assert (List.length (filter nonempty [l]) <= 1) by (destruct l; simpl; lia). lia.
      + right. now apply join_free in Hc.
  Qed.
  Lemma parse_bad line e : bad_row (W := W) line e -> parse_csv_line (W := W) line = Throw e.
  Proof.
    intros (d & pre & t & post & Hd & He & (fs & l & -> & Ff & Fl & E) & Hp & F & Ht).
    assert (Ef : exists post', filter nonempty fs = pre ++ t :: post').
    { rewrite filter_app in E. destruct l as [|c l].
      - simpl in E. rewrite app_nil_r in E. now exists post.
      - simpl in E. destruct (exists_last Hp) as (p' & x & ->). change (t :: p' ++ [x]) with ((t :: p') ++ [x]) in E.
        rewrite app_assoc in E. apply app_inj_tail in E. destruct E as [E _]. now exists p'. }
    destruct Ef as [post' Ef]. rewrite parse_unfold.
    assert (J : csv_delim (W := W) d ([], join_fields d fs l) = Throw e).
    { unfold csv_delim. rewrite fields_of_join by auto. now rewrite (csv_tokens_bad fs pre t post' e []). }
    destruct Hd as [<-|[<-|[<-|[]]]].
    - now rewrite J.
    - rewrite csv_delim_free by (eapply free_in; [|exact He]; simpl; auto). cbn [obind]. now rewrite J.
    - rewrite csv_delim_free by (eapply free_in; [|exact He]; simpl; auto). cbn [obind].
      rewrite csv_delim_free by (eapply free_in; [|exact He]; simpl; auto). cbn [obind]. now rewrite J.
  Qed.

  (** ** The matrix buffer *)
  (** A buffer of which the first rows are [rows] and the other cells are anything. *)
  Definition holds (m : dmat) (c : nat) (rows : list (list W)) : Prop :=
    dcols m = c /\ List.length (cells m) = drows m /\ Forall (fun r => List.length r = c) (cells m) /\
    exists rest, cells m = map (map Some) rows ++ rest.

  Lemma fit_length {A} (d : A) k l : List.length (fit d k l) = k.
  Proof. unfold fit. rewrite app_length, firstn_length, repeat_length. lia. Qed.

  Lemma set_cells_ok i (row : list (option W)) (pre post : list (list (option W))) : List.length pre = i ->
    forall (vs : list W) j (done : list (option W)) r c, List.length done = j -> List.length row = List.length vs -> c = j + List.length vs ->
      i < r ->
      set_cells i j vs {| drows := r; dcols := c; cells := pre ++ (done ++ row) :: post |}
      = Ok {| drows := r; dcols := c; cells := pre ++ (done ++ map Some vs) :: post |}.
  Proof.
    intros Hi vs. revert row. induction vs as [|v vs IH]; intros row j done r c Hj Hr Hc Hir.
    - destruct row; [reflexivity|discriminate].
    - destruct row as [|x row]; [discriminate|]. cbn [set_cells]. unfold set_cell. cbn [drows dcols cells].
      simpl in Hc, Hr. destruct (Nat.ltb_spec i r); [|lia]. destruct (Nat.ltb_spec j c); [|lia]. cbn [andb obind].
      subst i j. rewrite upd_nth_mid, upd_nth_mid.
      change (done ++ Some v :: row) with (done ++ [Some v] ++ row). rewrite app_assoc.
      rewrite (IH row (S (List.length done)) (done ++ [Some v]) r c); auto; try lia.
      + cbn [map]. now rewrite <- app_assoc.
      + rewrite app_length. simpl. lia.
  Qed.

  Lemma holds_write (m : dmat) c rows (vs : list W) : holds m c rows -> List.length rows < drows m -> List.length vs = c ->
    exists m', set_cells (List.length rows) 0 vs m = Ok m' /\ holds m' c (rows ++ [vs]) /\ drows m' = drows m.
  Proof.
    intros (Hc & Hl & Hf & rest & E) Hr Hv. destruct m as [r c0 cs]. simpl in *. subst c0.
    destruct rest as [|row rest].
    { exfalso. rewrite E, app_nil_r, map_length in Hl. lia. }
    assert (Hrow : List.length row = c). { rewrite Forall_forall in Hf. apply Hf. rewrite E. apply in_or_app. right. now left. }
    rewrite E. change row with ([] ++ row) at 1.
    rewrite (set_cells_ok (List.length rows) row (map (map Some) rows) rest) with (vs := vs); auto; try lia; [|now rewrite map_length].
    eexists. split; [reflexivity|]. split; [|reflexivity]. unfold holds. simpl. repeat split.
    - rewrite E in Hl. rewrite !app_length in *. simpl in *. lia.
    - rewrite E in Hf. rewrite Forall_app in Hf |- *. destruct Hf as [H1 H2]. split; auto. inversion H2; subst. constructor; auto.
      now rewrite map_length.
    - exists rest. rewrite map_app, <- app_assoc. reflexivity.
  Qed.
  Lemma holds_grow (m : dmat) c rows k : holds m c rows -> drows m <= k -> holds (resize_rows k m) c rows /\ drows (resize_rows k m) = k.
  Proof.
    intros (Hc & Hl & Hf & rest & E) Hk. split; [|reflexivity]. unfold holds, resize_rows. simpl. repeat split; auto.
    - apply fit_length.
    - unfold fit. rewrite firstn_all2 by lia. apply Forall_app. split; auto. apply Forall_forall. intros x Hx.
      apply repeat_spec in Hx. subst x. rewrite repeat_length. exact Hc.
    - unfold fit. rewrite firstn_all2 by lia. rewrite E, <- app_assoc. eauto.
  Qed.
  Lemma holds_final (m : dmat) c rows : holds m c rows -> resize_rows (List.length rows) m = matrix_of c rows.
  Proof.
    intros (Hc & Hl & Hf & rest & E). unfold resize_rows, matrix_of. f_equal; [exact Hc|]. unfold fit.
    assert (List.length rows <= List.length (cells m)) by (rewrite E, app_length, map_length; lia).
    replace (List.length rows - List.length (cells m)) with 0 by lia. simpl. rewrite app_nil_r, E.
    rewrite <- (map_length (map Some) rows). now rewrite firstn_app, Nat.sub_diag, firstn_all, app_nil_r.
  Qed.

  (** ** The loop *)
  Definition inv (st : mst (W := W)) (rows : list (list W)) : Prop :=
    let '(nc, nr, m) := st in
    nr = List.length rows /\
    match nc with
    | None => rows = [] /\ m = new_dmat 1 1
    | Some c => rows <> [] /\ Forall (fun r => List.length r = c) rows /\ holds m c rows /\ List.length rows <= drows m
    end.

  Variable grow : nat -> nat.
  Hypothesis grow_enough : forall n, n <= grow n.

  Lemma load_row_ok st rows line (vs : list W) : inv st rows -> parse_csv_line line = Ok vs ->
    (forall r, In r rows -> List.length r = List.length vs) ->
    exists st', load_row grow st line = Ok st' /\ inv st' (rows ++ [vs]).
  Proof.
    intros I P Hlen. destruct st as [[nc nr] m]. destruct I as (-> & I). unfold load_row. rewrite P. cbn [obind].
    assert (J : exists m0, (match nc with None => (List.length vs, resize_cols (List.length vs) m) | Some c => (c, m) end)
                 = (List.length vs, m0) /\ holds m0 (List.length vs) rows /\ List.length rows <= drows m0 /\
                   (S (List.length rows) <= drows m0 \/ List.length rows = drows m0)).
    { destruct nc as [c|].
      - destruct I as (Hne & Hf & Hh & Hle). assert (c = List.length vs) as ->.
        { destruct rows as [|r rows]; [congruence|]. inversion Hf; subst. apply Hlen. now left. }
        exists m. repeat split; auto; try apply Hh. lia.
      - destruct I as (-> & ->). exists (resize_cols (List.length vs) (new_dmat 1 1)). repeat split; simpl; auto.
        + constructor; [|constructor]. apply fit_length.
        + eexists. reflexivity. }
    destruct J as (m0 & -> & Hh & Hle & Hcase). rewrite Nat.eqb_refl. cbn [negb].
    replace (S (List.length rows) - 1) with (List.length rows) by lia.
    assert (G : exists m1, (if Nat.leb (S (List.length rows)) (drows m0) then m0 else resize_rows (grow (S (List.length rows))) m0) = m1
                /\ holds m1 (List.length vs) rows /\ S (List.length rows) <= drows m1).
    { destruct (Nat.leb_spec (S (List.length rows)) (drows m0)); eexists; (split; [reflexivity|]); [auto|].
      pose proof (grow_enough (S (List.length rows))).
      destruct (holds_grow m0 (List.length vs) rows (grow (S (List.length rows))) Hh) as [A B]; [lia|]. split; auto. }
    destruct G as (m1 & -> & Hh1 & Hl1).
    destruct (holds_write m1 (List.length vs) rows vs Hh1) as (m2 & -> & Hh2 & Hd2); [lia|reflexivity|].
    cbn [obind]. eexists. split; [reflexivity|]. unfold inv. rewrite app_length. simpl. split; [lia|].
    split; [destruct rows; discriminate|]. split; [|split; [exact Hh2|lia]].
    apply Forall_app. split; [|constructor; auto]. apply Forall_forall. intros r Hr. now apply Hlen.
  Qed.
  Lemma load_row_ragged st rows line (vs : list W) : inv st rows -> parse_csv_line line = Ok vs ->
    (exists r, In r rows /\ List.length r <> List.length vs) -> load_row grow st line = Throw RuntimeError.
  Proof.
    intros I P (r & Hr & Hne). destruct st as [[nc nr] m]. destruct I as (-> & I). unfold load_row. rewrite P. cbn [obind].
    destruct nc as [c|]; [|destruct I as (-> & _); destruct Hr].
    destruct I as (_ & Hf & _). rewrite Forall_forall in Hf. specialize (Hf r Hr). subst c.
    destruct (Nat.eqb_spec (List.length r) (List.length vs)); [congruence|reflexivity].
  Qed.
  Lemma load_row_throw st line e : parse_csv_line (W := W) line = Throw e -> load_row grow st line = Throw e.
  Proof. intros P. destruct st as [[nc nr] m]. unfold load_row. now rewrite P. Qed.

  Lemma is_content_iff line : is_content line = true <-> ~ comment_or_blank line.
  Proof.
    unfold is_content, comment_or_blank. destruct line as [|c r].
    - split; [discriminate|]. intros N. exfalso. apply N. now left.
    - destruct (Ascii.eqb_spec c "#") as [->|N1]; simpl.
      + split; [discriminate|]. intros N. exfalso. apply N. right. eauto.
      + destruct (Ascii.eqb_spec c "/") as [->|N2]; simpl.
        * split; [discriminate|]. intros N. exfalso. apply N. right. eauto.
        * split; auto. intros _ [E|(c' & r' & E & [-> | ->])]; congruence.
  Qed.
  Lemma not_content line : comment_or_blank line -> is_content line = false.
  Proof. intros C. destruct (is_content line) eqn:E; auto. apply is_content_iff in E. contradiction. Qed.

  (** The content lines of a list of lines and what the parser makes of them. *)
  Lemma load_rows_ok ls : forall st rows (new : list (list W)), inv st rows ->
    Forall2 (fun l vs => parse_csv_line l = Ok vs) (filter is_content ls) new ->
    (forall r r', In r (rows ++ new) -> In r' (rows ++ new) -> List.length r = List.length r') ->
    exists st', load_rows grow st ls = Ok st' /\ inv st' (rows ++ new).
  Proof.
    induction ls as [|l ls IH]; intros st rows new I F Hl.
    - inversion F; subst. rewrite app_nil_r. exists st. auto.
    - simpl in F |- *. destruct (is_content l) eqn:El; [|now apply IH].
      inversion F as [|x vs y new' P F']; subst.
      destruct (load_row_ok st rows l vs I P) as (st1 & -> & I1).
      { intros r Hr. apply Hl; apply in_or_app; [now left|right; now left]. }
      cbn [obind]. replace (rows ++ vs :: new') with ((rows ++ [vs]) ++ new') in * by (now rewrite <- app_assoc). now apply IH.
  Qed.
  Lemma load_rows_ragged ls : forall st rows (new : list (list W)), inv st rows ->
    (forall r r', In r rows -> In r' rows -> List.length r = List.length r') ->
    Forall2 (fun l vs => parse_csv_line l = Ok vs) (filter is_content ls) new ->
    (exists r r', In r (rows ++ new) /\ In r' (rows ++ new) /\ List.length r <> List.length r') ->
    load_rows grow st ls = Throw RuntimeError.
  Proof.
    induction ls as [|l ls IH]; intros st rows new I Hu F Hr.
    - inversion F; subst. rewrite app_nil_r in Hr. destruct Hr as (r & r' & A & B & C). exfalso. apply C. now apply Hu.
    - simpl in F |- *. destruct (is_content l) eqn:El; [|now apply (IH st rows new)].
      inversion F as [|x vs y new' P F']; subst.
      destruct (forallb (fun r => Nat.eqb (List.length r) (List.length vs)) rows) eqn:Ea.
      + assert (Hv : forall r, In r rows -> List.length r = List.length vs).
        { intros r Hr'. rewrite forallb_forall in Ea. specialize (Ea r Hr'). now apply Nat.eqb_eq in Ea. }
        destruct (load_row_ok st rows l vs I P Hv) as (st1 & -> & I1). cbn [obind].
        apply (IH st1 (rows ++ [vs]) new'); auto; [|now rewrite <- app_assoc].
        intros r r' A B. apply in_app_iff in A, B. simpl in A, B.
        destruct A as [A|[A|[]]], B as [B|[B|[]]]; subst; auto. symmetry. auto.
      + rewrite (load_row_ragged st rows l vs I P); [reflexivity|].
        clear - Ea. induction rows as [|r rows IHr]; [discriminate|]. simpl in Ea.
        destruct (Nat.eqb_spec (List.length r) (List.length vs)) as [E|N].
        * destruct (IHr Ea) as (r0 & A & B). exists r0. split; auto. now right.
        * exists r. split; auto. now left.
  Qed.
  Lemma load_rows_app st a b : load_rows (W := W) grow st (a ++ b) = (do st <- load_rows grow st a; load_rows grow st b).
  Proof.
    revert st. induction a as [|l a IH]; intros st; simpl; auto. destruct (is_content l); auto.
    destruct (load_row grow st l); simpl; auto.
  Qed.
  Lemma load_row_defined st rows line : inv st rows ->
    match load_row grow st line with
    | Ok st' => exists vs, parse_csv_line line = Ok vs /\ inv st' (rows ++ [vs]) /\ (forall r, In r rows -> List.length r = List.length vs)
    | Throw e => parse_csv_line (W := W) line = Throw e \/
                 e = RuntimeError /\ exists vs r, parse_csv_line line = Ok vs /\ In r rows /\ List.length r <> List.length vs
    | UB => False
    end.
  Proof.
    intros I. pose proof (parse_csv_line_defined line) as D. destruct (parse_csv_line line) as [vs|e|] eqn:P; [|rewrite (load_row_throw st line e P); auto|congruence].
    destruct (forallb (fun r => Nat.eqb (List.length r) (List.length vs)) rows) eqn:Ea.
    + assert (Hv : forall r, In r rows -> List.length r = List.length vs).
      { intros r Hr'. rewrite forallb_forall in Ea. specialize (Ea r Hr'). now apply Nat.eqb_eq in Ea. }
      destruct (load_row_ok st rows line vs I P Hv) as (st1 & -> & I1). eauto.
    + assert (E : exists r, In r rows /\ List.length r <> List.length vs).
      { clear - Ea. induction rows as [|r rows IHr]; [discriminate|]. simpl in Ea.
        destruct (Nat.eqb_spec (List.length r) (List.length vs)) as [E|N].
        * destruct (IHr Ea) as (r0 & A & B). exists r0. split; auto. now right.
        * exists r. split; auto. now left. }
      rewrite (load_row_ragged st rows line vs I P E). right. split; auto. destruct E as (r & A & B). eauto 6.
  Qed.
  (** What a successful run means, and that the run is always defined. *)
  Lemma load_rows_defined ls : forall st rows, inv st rows ->
    match load_rows (W := W) grow st ls with
    | Ok st' => exists new, inv st' (rows ++ new) /\ Forall2 (fun l vs => parse_csv_line l = Ok vs) (filter is_content ls) new
    | Throw _ => True
    | UB => False
    end.
  Proof.
    induction ls as [|l ls IH]; intros st rows I; cbn [load_rows filter].
    - exists []. rewrite app_nil_r. auto.
    - destruct (is_content l); [|now apply IH]. pose proof (load_row_defined st rows l I) as D.
      destruct (load_row grow st l) as [st1|e|]; cbn [obind]; auto. destruct D as (vs & P & I1 & _).
      specialize (IH st1 _ I1). destruct (load_rows grow st1 ls) as [st2|e|]; auto. destruct IH as (new & I2 & F).
      exists (vs :: new). rewrite <- app_assoc in I2. split; auto.
  Qed.
  Lemma inv_init : inv (None, 0, new_dmat 1 1) [].
  Proof. unfold inv. auto. Qed.
  Lemma read_lines_content f : filter is_content (read_lines f) = filter is_content (file_lines f).
  Proof. rewrite read_lines_file, filter_app. simpl. now rewrite app_nil_r. Qed.

  Lemma rows_text_filter ls (rows : list (list W)) : rows_text ls rows ->
    Forall2 (fun l vs => parse_csv_line l = Ok vs) (filter is_content ls) rows.
  Proof.
    induction 1 as [|l ls rows C T IH|l ls vs rows C R T IH]; simpl; auto.
    - now rewrite (not_content l C).
    - rewrite (proj2 (is_content_iff l) C). constructor; auto. now apply parse_row.
  Qed.
  Lemma inv_unique_len nc nr m rows : inv (nc, nr, m) rows ->
    forall r r' : list W, In r rows -> In r' rows -> List.length r = List.length r'.
  Proof.
    intros (_ & I) r r' A B. destruct nc as [c|]; [|destruct I as (-> & _); destruct A].
    destruct I as (_ & F & _). rewrite Forall_forall in F. now rewrite (F r A), (F r' B).
  Qed.

  (** ** load_matrix *)
  Theorem load_matrix_rows f (rows : list (list W)) c : rows_text (file_lines f) rows -> rows <> [] ->
    Forall (fun r => List.length r = c) rows -> load_matrix grow f = Ok (matrix_of c rows).
  Proof.
    intros T Hne Hc. unfold load_matrix.
    destruct (load_rows_ok (read_lines f) (None, 0, new_dmat 1 1) [] rows inv_init) as (st & E & I).
    { rewrite read_lines_content. now apply rows_text_filter. }
    { intros r r' A B. rewrite Forall_forall in Hc. simpl in A, B. now rewrite (Hc r A), (Hc r' B). }
    rewrite E. cbn [obind]. destruct st as [[nc nr] m]. destruct I as (-> & I). simpl in I. destruct nc as [c'|].
    - destruct I as (_ & Hf & Hh & _). assert (c' = c) as ->.
      { destruct rows as [|r rows]; [congruence|]. inversion Hf; inversion Hc; subst. auto. }
      f_equal. now apply holds_final.
    - destruct I as (-> & _). congruence.
  Qed.
  Theorem load_matrix_no_rows f : Forall comment_or_blank (file_lines f) ->
    load_matrix (W := W) grow f = Ok {| drows := 0; dcols := 1; cells := [] |}.
  Proof.
    intros F. unfold load_matrix. assert (E : filter is_content (read_lines f) = []).
    { rewrite read_lines_content. induction F as [|l ls C F IH]; simpl; auto. now rewrite (not_content l C). }
    assert (G : forall st ls, filter is_content ls = [] -> load_rows (W := W) grow st ls = Ok st).
    { intros st ls. revert st. induction ls as [|l ls IH]; intros st E'; simpl in *; auto.
      destruct (is_content l); [discriminate|auto]. }
    now rewrite G.
  Qed.
  Theorem load_matrix_ragged f (rows : list (list W)) : rows_text (file_lines f) rows ->
    (exists r r', In r rows /\ In r' rows /\ List.length r <> List.length r') ->
    load_matrix (W := W) grow f = Throw RuntimeError.
  Proof.
    intros T Hr. unfold load_matrix. rewrite (load_rows_ragged (read_lines f) _ [] rows inv_init); auto; [intros r r' []|].
    rewrite read_lines_content. now apply rows_text_filter.
  Qed.
  (** A bad row after well-formed rows of equal length. *)
  Theorem load_matrix_bad f before line after (rows : list (list W)) e :
    file_lines f = before ++ line :: after -> rows_text before rows ->
    (forall r r', In r rows -> In r' rows -> List.length r = List.length r') ->
    ~ comment_or_blank line -> bad_row (W := W) line e ->
    load_matrix (W := W) grow f = Throw e.
  Proof.
    intros E T Hu Hc B. unfold load_matrix. rewrite read_lines_file, E, <- app_assoc, load_rows_app.
    destruct (load_rows_ok before _ [] rows inv_init) as (st & E1 & I); auto; [now apply rows_text_filter|].
    rewrite E1. cbn [obind app load_rows]. rewrite (proj2 (is_content_iff line) Hc).
    rewrite (load_row_throw st line e); [reflexivity|]. now apply parse_bad.
  Qed.
  (** A bad row anywhere: never a matrix. *)
  Theorem load_matrix_bad_any f line e : In line (file_lines f) -> ~ comment_or_blank line -> bad_row (W := W) line e ->
    exists e', load_matrix (W := W) grow f = Throw e'.
  Proof.
    intros Hi Hc B. unfold load_matrix. pose proof (load_rows_defined (read_lines f) _ [] inv_init) as D.
    destruct (load_rows grow (None, 0, new_dmat 1 1) (read_lines f)) as [st|e'|]; [|eexists; reflexivity|destruct D].
    destruct D as (new & I & F). exfalso. rewrite read_lines_content in F.
    assert (Hf : In line (filter is_content (file_lines f))) by (apply filter_In; split; auto; now apply is_content_iff).
    apply In_nth with (d := []) in Hf. destruct Hf as (k & Hk & E).
    assert (G : exists vs : list W, parse_csv_line line = Ok vs).
    { clear - F Hk E. revert k Hk E. induction F as [|a b la lb P F IH]; intros k Hk E; [simpl in Hk; lia|].
      destruct k as [|k]; simpl in *; [subst; eauto|]. apply (IH k); auto. lia. }
    destruct G as [vs G]. rewrite (parse_bad line e B) in G. discriminate.
  Qed.
  (** Every file: either a fully initialised matrix, one row for each content line, or an exception. *)
  Theorem load_matrix_total f :
    (exists e, load_matrix (W := W) grow f = Throw e) \/
    exists (rows : list (list W)) c, load_matrix grow f = Ok (matrix_of c rows) /\
      Forall (fun r => List.length r = c) rows /\
      List.length rows = List.length (filter is_content (file_lines f)).
  Proof.
    unfold load_matrix. pose proof (load_rows_defined (read_lines f) _ [] inv_init) as D.
    destruct (load_rows grow (None, 0, new_dmat 1 1) (read_lines f)) as [st|e'|]; [|left; eexists; reflexivity|destruct D].
    right. destruct D as (new & I & F). rewrite read_lines_content in F. simpl in I. cbn [obind].
    destruct st as [[nc nr] m]. destruct I as (-> & I). destruct nc as [c|].
    - destruct I as (_ & Hf & Hh & _). exists new, c. split; [|split; auto; symmetry; apply (Forall2_length _ _ _ F)].
      f_equal. now apply holds_final.
    - destruct I as (-> & ->). exists [], 1. split; [reflexivity|]. split; [constructor|]. symmetry. apply (Forall2_length _ _ _ F).
  Qed.

  (** ** save_matrix and back *)
  Lemma row_join (row : list W) : concat (map (fun x => fmt x ++ [" "]) row) = join_fields " " (map fmt row) [].
  Proof. unfold join_fields. now rewrite map_map, app_nil_r. Qed.
  Lemma Forall2_fmt (row row' : list W) : Forall2 prints_as row row' ->
    Forall2 (fun t v => stod t = Ok v) (filter nonempty (map fmt row)) row'.
  Proof.
    induction 1 as [|x y row row' (A & B & _) F IH]; simpl; [constructor|].
    destruct (fmt x) eqn:E; [congruence|]. simpl. constructor; auto; congruence.
  Qed.
  Theorem save_load (rows rows' : list (list W)) c : rows <> [] -> 0 < c -> Forall (fun r => List.length r = c) rows ->
    Forall2 (Forall2 prints_as) rows rows' -> load_matrix grow (save_matrix rows) = Ok (matrix_of c rows').
  Proof.
    intros Hne Hc Hl F. set (lines := map (fun r : list W => concat (map (fun x => fmt x ++ [" "]) r)) rows).
    assert (G : Forall one_line lines).
    { unfold lines. clear - F. induction F as [|r r' rows rows' Fr F IH]; simpl; constructor; auto.
      induction Fr as [|x y r r' (_ & _ & A & _) Fr IHr]; simpl; [apply free_of_nil|].
      unfold one_line. rewrite !free_of_app. repeat split; auto.
      - eapply free_of_sub; [|exact A]. simpl. intuition.
      - intros ch [<-|[]] [E|[E|[]]]; discriminate E. }
    apply load_matrix_rows.
    - unfold save_matrix. fold lines. rewrite file_put_lines by exact G. unfold lines. clear - F Hl Hc.
      induction F as [|r r' rows rows' Fr F IH]; simpl; [constructor|]. inversion Hl as [|? ? Hr Hrest]; subst.
      constructor; [| |now apply IH].
      + destruct Fr as [|x y r r' (_ & A & _ & N) Fr]; [simpl in Hc; lia|]. simpl.
        destruct (fmt x) as [|ch t]; [congruence|]. simpl. intros [C|(c0 & t0 & C & D)]; [discriminate|]. injection C as <- _.
        apply N. right. eauto.
      + exists " ", (filter nonempty (map fmt r)). split; [right; now left|].
        assert (Fm : Forall (free_of [","; " "; TAB; LF; CR]) (map fmt r)).
        { clear - Fr. induction Fr as [|x y r r' (_ & _ & A & _) Fr IHr]; simpl; constructor; auto. }
        assert (Fo : forall cs, ~ In " " cs -> (forall x, In x cs -> In x [","; " "; TAB; LF; CR]) ->
                     free_of cs (concat (map (fun x => fmt x ++ [" "]) r))).
        { intros cs Hs Hcs. clear - Fm Hs Hcs. induction r as [|x r IHr]; simpl; [apply free_of_nil|].
          simpl in Fm. inversion Fm; subst. rewrite !free_of_app. repeat split; auto.
          - eapply free_of_sub; [|eassumption]. exact Hcs.
          - intros ch [<-|[]]. exact Hs. }
        split; [|split; [|split]].
        * apply Fo; simpl; [intros [E|[]]; discriminate E|intuition].
        * exists (map fmt r), []. rewrite row_join. split; [reflexivity|]. split; [|split; [apply free_of_nil|]].
          -- eapply Forall_impl; [|exact Fm]. intros t Ft. eapply free_of_sub; [|exact Ft]. simpl. intuition.
          -- rewrite filter_app. simpl. now rewrite app_nil_r.
        * right. apply Fo; simpl; [intros [E|[E|[]]]; discriminate E|intuition].
        * now apply Forall2_fmt.
    - intros ->. inversion F; subst. congruence.
    - clear - F Hl. induction F as [|r r' rows rows' Fr F IH]; constructor; inversion Hl; subst; auto.
      symmetry. apply (Forall2_length _ _ _ Fr).
  Qed.
End Facts.

(** ** Data points *)
Section DataPointFacts.
  Context {W : Type}.
  Lemma to_vector_length (h : memory (W := W)) p : List.length (to_vector h p) = dp_dim p.
  Proof. unfold to_vector. now rewrite map_length, seq_length. Qed.
  Lemma to_vector_nth (h : memory (W := W)) p j d : j < dp_dim p -> nth j (to_vector h p) d = h (dp_coords p + j).
  Proof. intros Hj. unfold to_vector. now rewrite nth_map_seq. Qed.
  Theorem datapoints_rows (h : memory (W := W)) m :
    map (to_vector h) (matrix_to_datapoints m) =
    map (fun i => map (fun j => coeff h m i j) (seq 0 (mm_cols m))) (seq 0 (mm_rows m)).
  Proof.
    unfold matrix_to_datapoints. rewrite map_map. apply map_ext_in. intros i _. unfold to_vector. simpl.
    apply map_ext. intros j. unfold coeff, address. f_equal. lia.
  Qed.
  Lemma address_inj m i j i' j' : j < mm_cols m -> j' < mm_cols m -> address m i j = address m i' j' -> i = i' /\ j = j'.
  Proof.
    unfold address. intros Hj Hj' E. assert (E2 : i * mm_cols m + j = i' * mm_cols m + j') by lia.
    rewrite <- !(Nat.mul_comm (mm_cols m)) in E2. destruct (Nat.div_mod_unique (mm_cols m) i i' j j' Hj Hj' E2). auto.
  Qed.
  (** Points are views: writing the entry (i, j) of the matrix changes that coordinate of the point i and nothing else. *)
  Theorem datapoints_alias (h : memory (W := W)) m i j v : i < mm_rows m -> j < mm_cols m ->
    forall i' j' d, i' < mm_rows m -> j' < mm_cols m ->
      nth j' (to_vector (store h (address m i j) v) (nth i' (matrix_to_datapoints m) d)) v =
      if (Nat.eqb i' i && Nat.eqb j' j)%bool then v else nth j' (to_vector h (nth i' (matrix_to_datapoints m) d)) v.
  Proof.
    intros Hi Hj i' j' d Hi' Hj'. unfold matrix_to_datapoints. rewrite nth_map_seq by auto.
    rewrite !to_vector_nth by auto. simpl. unfold store. replace (address m i' 0 + j') with (address m i' j') by (unfold address; lia).
    destruct (Nat.eqb_spec (address m i' j') (address m i j)) as [E|N].
    - apply address_inj in E; auto. destruct E as [-> ->]. now rewrite !Nat.eqb_refl.
    - destruct (Nat.eqb_spec i' i), (Nat.eqb_spec j' j); subst; auto. congruence.
  Qed.
End DataPointFacts.
