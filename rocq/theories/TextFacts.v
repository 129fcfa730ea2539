(** Facts about lines, tokens and integers in text. *)
From Verif Require Import Base Num Text.
From Coq Require Import Ascii String List.
Import ListNotations.
Local Open Scope nat_scope.
Local Open Scope char_scope.
Local Open Scope list_scope.

(** ** Lines *)
(** [t] contains none of the characters [cs]. *)
Definition free_of (cs : list ascii) (t : text) : Prop := forall c, In c t -> ~ In c cs.
(** A single line: no line break inside. *)
Definition one_line (t : text) : Prop := free_of [LF; CR] t.

Lemma free_of_nil cs : free_of cs [].
Proof. intros c []. Qed.
Lemma free_of_cons cs c t : free_of cs (c :: t) <-> ~ In c cs /\ free_of cs t.
Proof.
  unfold free_of. simpl. split.
  - intros Hf. split; auto.
  - intros [H1 H2] d [<-|Hd]; auto.
Qed.
Lemma free_of_app cs a b : free_of cs (a ++ b) <-> free_of cs a /\ free_of cs b.
Proof.
  unfold free_of. split.
  - intros Hf. split; intros c Hc; apply Hf, in_or_app; auto.
  - intros [H1 H2] c Hc. apply in_app_or in Hc. destruct Hc; auto.
Qed.
Lemma free_of_sub cs ds t : (forall c, In c ds -> In c cs) -> free_of cs t -> free_of ds t.
Proof. intros Hs Hf c Hc Hd. apply (Hf c Hc). auto. Qed.

Lemma eqb_neq_iff (a b : ascii) : (a =? b) = false <-> a <> b.
Proof. apply Ascii.eqb_neq. Qed.

Lemma getline_end l : one_line l -> getline l = (l, []).
Proof.
  induction l as [|c l IH]; intros Hl; simpl; auto.
  apply free_of_cons in Hl. destruct Hl as [Hc Hl].
  destruct (Ascii.eqb_spec c LF); [exfalso; apply Hc; subst; simpl; auto|].
  destruct (Ascii.eqb_spec c CR); [exfalso; apply Hc; subst; simpl; auto|].
  now rewrite IH.
Qed.
Lemma getline_app l r : one_line l ->
  getline (l ++ r) = (l ++ fst (getline r), snd (getline r)).
Proof.
  induction l as [|c l IH]; intros Hl; simpl; [now destruct (getline r)|].
  apply free_of_cons in Hl. destruct Hl as [Hc Hl].
  destruct (Ascii.eqb_spec c LF); [exfalso; apply Hc; subst; simpl; auto|].
  destruct (Ascii.eqb_spec c CR); [exfalso; apply Hc; subst; simpl; auto|].
  now rewrite IH.
Qed.
Lemma getline_LF l r : one_line l -> getline (l ++ LF :: r) = (l, r).
Proof. intros Hl. rewrite getline_app by auto. simpl. now rewrite app_nil_r. Qed.
Lemma getline_CRLF l r : one_line l -> getline (l ++ CR :: LF :: r) = (l, r).
Proof. intros Hl. rewrite getline_app by auto. simpl. now rewrite app_nil_r. Qed.
Lemma getline_CR l r : one_line l -> (forall r', r <> LF :: r') -> getline (l ++ CR :: r) = (l, r).
Proof.
  intros Hl Hr. rewrite getline_app by auto. simpl. rewrite app_nil_r.
  destruct r as [|d r']; auto. destruct (Ascii.eqb_spec d LF) as [->|]; auto.
  exfalso. eapply Hr. reflexivity.
Qed.
Lemma getline_shorter t : t <> [] -> List.length (snd (getline t)) < List.length t.
Proof.
  induction t as [|c t IH]; intros Ht; [congruence|]. simpl.
  destruct (c =? LF); [simpl; lia|]. destruct (c =? CR).
  - simpl. destruct t as [|d t']; simpl; [lia|]. destruct (d =? LF); simpl; lia.
  - destruct (getline t) as [l r] eqn:E. simpl in *. destruct t as [|d t'].
    + simpl in E. injection E as <- <-. simpl. lia.
    + assert (d :: t' <> []) as Hn by discriminate. specialize (IH Hn). simpl in *. lia.
Qed.
Lemma getline_one_line t : one_line (fst (getline t)).
Proof.
  induction t as [|c t IH]; simpl; [apply free_of_nil|].
  destruct (Ascii.eqb_spec c LF); [apply free_of_nil|]. destruct (Ascii.eqb_spec c CR).
  - apply free_of_nil.
  - destruct (getline t) as [l r]. simpl in *. apply free_of_cons. split; auto. simpl. intuition congruence.
Qed.
Lemma read_lines_f_fuel : forall f t, List.length t <= f -> read_lines_f f t = read_lines t.
Proof.
  unfold read_lines.
  assert (forall f g t, List.length t <= f -> List.length t <= g -> read_lines_f f t = read_lines_f g t) as Hg.
  { induction f as [|f IH]; intros g t Hf Hg.
    - destruct t; [destruct g; reflexivity|simpl in Hf; lia].
    - destruct t as [|c t]; [destruct g; reflexivity|]. destruct g as [|g]; [simpl in Hg; lia|].
      cbn [read_lines_f]. destruct (getline (c :: t)) as [l r] eqn:E. f_equal.
      assert (c :: t <> []) as Hn by discriminate. pose proof (getline_shorter _ Hn) as Hs. rewrite E in Hs. simpl in *.
      apply IH; lia. }
  intros f t Hf. now apply Hg.
Qed.
Lemma read_lines_nil : read_lines [] = [[]].
Proof. reflexivity. Qed.
Lemma read_lines_step t : t <> [] -> read_lines t = fst (getline t) :: read_lines (snd (getline t)).
Proof.
  intros Ht. pose proof (getline_shorter t Ht) as Hs. unfold read_lines at 1. destruct t as [|c t]; [congruence|].
  cbn [read_lines_f List.length]. destruct (getline (c :: t)) as [l r] eqn:E. cbn [fst snd] in *. f_equal.
  apply read_lines_f_fuel. simpl in Hs. lia.
Qed.
(** Induction over the lines of a text. *)
Lemma lines_ind (P : text -> Prop) :
  P [] -> (forall t, t <> [] -> P (snd (getline t)) -> P t) -> forall t, P t.
Proof.
  intros H0 HS t. remember (List.length t) as n eqn:En. assert (List.length t <= n) as Hn by lia. clear En.
  revert t Hn. induction n as [|n IH]; intros t Hn.
  - destruct t; [exact H0|simpl in Hn; lia].
  - destruct t as [|c t]; [exact H0|]. assert (c :: t <> []) as Hc by discriminate.
    apply HS; auto. apply IH. pose proof (getline_shorter _ Hc). simpl in *. lia.
Qed.
(** The lines of the file; the extra empty one that [read_lines] gives at the end is not among them. *)
Definition file_lines (t : text) : list text := removelast (read_lines t).
Lemma read_lines_last t : exists ls, read_lines t = ls ++ [[]].
Proof.
  induction t as [|t Ht IH] using lines_ind; [exists []; reflexivity|].
  destruct IH as [ls E]. rewrite read_lines_step by auto. rewrite E. exists (fst (getline t) :: ls). reflexivity.
Qed.
Lemma read_lines_file t : read_lines t = file_lines t ++ [[]].
Proof. destruct (read_lines_last t) as [ls E]. unfold file_lines. rewrite E. now rewrite removelast_last. Qed.
Lemma file_lines_one_line t : Forall one_line (file_lines t).
Proof.
  induction t as [|t Ht IH] using lines_ind; [constructor|].
  unfold file_lines. rewrite read_lines_step by auto. rewrite read_lines_file.
  change (fst (getline t) :: file_lines (snd (getline t)) ++ [[]]) with
    ((fst (getline t) :: file_lines (snd (getline t))) ++ [[]]). rewrite removelast_last.
  constructor; auto. apply getline_one_line.
Qed.
Lemma read_lines_one_line t : Forall one_line (read_lines t).
Proof.
  rewrite read_lines_file. apply Forall_app. split; [apply file_lines_one_line|].
  constructor; [apply free_of_nil|constructor].
Qed.

Lemma read_put_lines ls : Forall one_line ls -> read_lines (put_lines ls) = ls ++ [[]].
Proof.
  induction 1 as [|l ls Hl Hls IH]; [reflexivity|].
  unfold put_lines in *. simpl. unfold put_line at 1. rewrite <- app_assoc. simpl.
  rewrite read_lines_step by (destruct l; discriminate). rewrite getline_LF by auto. simpl. now rewrite IH.
Qed.
Lemma file_put_lines ls : Forall one_line ls -> file_lines (put_lines ls) = ls.
Proof. intros Hl. unfold file_lines. rewrite read_put_lines by auto. apply removelast_last. Qed.
Lemma put_lines_app a b : put_lines (a ++ b) = put_lines a ++ put_lines b.
Proof. unfold put_lines. now rewrite map_app, concat_app. Qed.
Lemma put_lines_cons a b : put_lines (a :: b) = a ++ LF :: put_lines b.
Proof. unfold put_lines, put_line. simpl. now rewrite <- app_assoc. Qed.

(** ** Line endings *)
Inductive ending := ELF | ECRLF | ECR.
Definition ending_text (e : ending) : text := match e with ELF => [LF] | ECRLF => [CR; LF] | ECR => [CR] end.
(** A file made of terminated lines, each with its own line ending. *)
Definition render (ls : list (text * ending)) : text := concat (map (fun p => fst p ++ ending_text (snd p)) ls).
(** No CR-terminated line is followed by an empty LF-terminated one (the two would be read as one CRLF). *)
Fixpoint unambiguous (ls : list (text * ending)) : Prop :=
  match ls with
  | (_, ECR) :: (([], ELF) :: _) => False
  | _ :: r => unambiguous r
  | [] => True
  end.
Lemma render_no_LF ls rest : Forall (fun p => one_line (fst p)) ls -> (forall r', rest <> LF :: r') ->
  (match ls with ([], ELF) :: _ => False | _ => True end) ->
  forall r', render ls ++ rest <> LF :: r'.
Proof.
  intros Hl Hrest Hh r' E. destruct ls as [|[l e] ls]; [now apply (Hrest r')|].
  inversion Hl as [|? ? H1 H2]; subst. simpl in H1. destruct l as [|c l].
  - destruct e; simpl in E; [tauto|discriminate|discriminate].
  - simpl in E. injection E as -> _. apply free_of_cons in H1. destruct H1 as [H1 _]. apply H1. simpl; auto.
Qed.
Lemma read_render ls lst : Forall (fun p => one_line (fst p)) ls -> one_line lst -> unambiguous ls ->
  read_lines (render ls ++ lst) = map fst ls ++ (if lst then [[]] else [lst; []]).
Proof.
  intros Hl Hlast. induction ls as [|[l e] ls IH]; intros Hu.
  - simpl. destruct lst as [|c lst]; [reflexivity|]. rewrite read_lines_step by discriminate.
    rewrite getline_end by auto. reflexivity.
  - inversion Hl as [|? ? H1 H2]; subst. simpl in H1.
    assert (unambiguous ls) as Hu'.
    { simpl in Hu. destruct e; auto. destruct ls as [|[[|] []] ls]; auto. contradiction. }
    unfold render. simpl. fold (render ls). rewrite <- !app_assoc. destruct e; simpl ending_text.
    + rewrite read_lines_step by (destruct l; discriminate). simpl ([LF] ++ _). rewrite getline_LF by auto. cbn [fst snd map app].
      now rewrite IH.
    + rewrite read_lines_step by (destruct l; discriminate). simpl ([CR; LF] ++ _). rewrite getline_CRLF by auto. cbn [fst snd map app].
      now rewrite IH.
    + rewrite read_lines_step by (destruct l; discriminate). simpl ([CR] ++ _). rewrite getline_CR; auto.
      * cbn [fst snd map app]. now rewrite IH.
      * apply render_no_LF; auto.
        -- intros r' E. subst. apply free_of_cons in Hlast. destruct Hlast as [Hc _]. apply Hc. simpl; auto.
        -- simpl in Hu. destruct ls as [|[[|] []] ls]; auto.
Qed.
Lemma unambiguous_uniform e ls : unambiguous (map (fun l => (l, e)) ls).
Proof.
  induction ls as [|l ls IH]; simpl; auto. destruct e; auto. destruct ls as [|l' ls]; auto.
  simpl in *. destruct l'; auto.
Qed.

(** ** Fields *)
Lemma fields_none c t : free_of [c] t -> fields c t = ([], t).
Proof.
  induction t as [|x t IH]; intros Hf; simpl; auto. apply free_of_cons in Hf. destruct Hf as [Hx Hf].
  rewrite IH by auto. destruct (Ascii.eqb_spec x c); auto. exfalso. apply Hx. simpl. auto.
Qed.
Lemma fields_step c t r : free_of [c] t ->
  fields c (t ++ c :: r) = (t :: fst (fields c r), snd (fields c r)).
Proof.
  induction t as [|x t IH]; intros Hf; simpl.
  - destruct (fields c r). now rewrite Ascii.eqb_refl.
  - apply free_of_cons in Hf. destruct Hf as [Hx Hf]. rewrite IH by auto.
    destruct (Ascii.eqb_spec x c); auto. exfalso. apply Hx. simpl. auto.
Qed.
Lemma split1_none c t : free_of [c] t -> split1 c t = None.
Proof.
  induction t as [|x t IH]; intros Hf; simpl; auto. apply free_of_cons in Hf. destruct Hf as [Hx Hf].
  destruct (Ascii.eqb_spec x c); [exfalso; apply Hx; simpl; auto|]. now rewrite IH.
Qed.
Lemma split1_app c t r : free_of [c] t -> split1 c (t ++ c :: r) = Some (t, r).
Proof.
  induction t as [|x t IH]; intros Hf; simpl; [now rewrite Ascii.eqb_refl|].
  apply free_of_cons in Hf. destruct Hf as [Hx Hf].
  destruct (Ascii.eqb_spec x c); [exfalso; apply Hx; simpl; auto|]. now rewrite IH.
Qed.
(** Joining the fields back gives the line. *)
Definition join_fields (c : ascii) (ts : list text) (l : text) : text := concat (map (fun t => t ++ [c]) ts) ++ l.
Lemma fields_join c t : t = join_fields c (fst (fields c t)) (snd (fields c t)) /\
  Forall (free_of [c]) (fst (fields c t)) /\ free_of [c] (snd (fields c t)).
Proof.
  induction t as [|x t (E & F1 & F2)].
  - repeat split; [constructor|apply free_of_nil].
  - simpl. destruct (fields c t) as [ts l]. cbn [fst snd] in *. destruct (Ascii.eqb_spec x c) as [->|Hx].
    + repeat split; auto.
      * unfold join_fields in *. simpl. now rewrite E at 1.
      * constructor; auto. apply free_of_nil.
    + destruct ts as [|a ts]; cbn [fst snd].
      * repeat split; auto; [unfold join_fields in *; simpl in *; now rewrite E at 1|].
        apply free_of_cons. split; auto. simpl. intuition congruence.
      * apply Forall_cons_iff in F1. destruct F1 as [Ha Hts]. repeat split; auto.
        -- unfold join_fields in *. simpl in *. now rewrite E at 1.
        -- constructor; auto. apply free_of_cons. split; auto. simpl. intuition congruence.
Qed.
Lemma fields_of_join c ts l : Forall (free_of [c]) ts -> free_of [c] l -> fields c (join_fields c ts l) = (ts, l).
Proof.
  intros Hts Hl. induction Hts as [|t ts Ht Hts IH]; unfold join_fields in *; simpl.
  - now apply fields_none.
  - rewrite <- !app_assoc. simpl. rewrite fields_step by auto. now rewrite IH.
Qed.

(** ** Integers *)
Definition is_digit (c : ascii) : Prop := exists d, digit_of c = Some d.
Lemma digit_of_char d : (0 <= d < 10)%Z -> digit_of (digit_char d) = Some d.
Proof.
  intros Hd. assert (d = 0 \/ d = 1 \/ d = 2 \/ d = 3 \/ d = 4 \/ d = 5 \/ d = 6 \/ d = 7 \/ d = 8 \/ d = 9)%Z as Hc by lia.
  repeat (destruct Hc as [->|Hc]; [reflexivity|]). subst. reflexivity.
Qed.
Lemma scan_digits_app t rest (acc0 : Z) (k0 : nat) : Forall is_digit t -> (forall c r, rest = c :: r -> digit_of c = None) ->
  exists z, forall acc k, scan_digits (t ++ rest) acc k = ((acc * 10 ^ Z.of_nat (List.length t) + z)%Z, k + List.length t, rest).
Proof.
  intros Ht Hr. induction Ht as [|c t [d Hd] Ht [z IH]].
  - exists 0%Z. intros a k'. simpl. destruct rest as [|c r].
    + simpl. f_equal. f_equal; lia.
    + cbn [scan_digits]. rewrite (Hr c r eq_refl). f_equal. f_equal; lia.
  - exists (d * 10 ^ Z.of_nat (List.length t) + z)%Z. intros a k'. cbn [app scan_digits List.length]. rewrite Hd, IH. f_equal.
    rewrite Nat2Z.inj_succ, Z.pow_succ_r by lia. f_equal; [ring|lia].
Qed.

Lemma show_digits_spec fuel z acc0 : (0 <= z < 10 ^ Z.of_nat fuel)%Z -> 0 < fuel ->
  exists ds, show_digits fuel z acc0 = ds ++ acc0 /\ ds <> [] /\ Forall is_digit ds /\
    forall acc k rest, (forall c r, rest = c :: r -> digit_of c = None) ->
      scan_digits (ds ++ rest) acc k = ((acc * 10 ^ Z.of_nat (List.length ds) + z)%Z, k + List.length ds, rest).
Proof.
  revert z acc0. induction fuel as [|f IH]; intros z acc0 Hz Hf; [lia|]. simpl show_digits.
  assert (0 <= z mod 10 < 10)%Z as Hm by (apply Z.mod_pos_bound; lia).
  destruct (Z.ltb_spec z 10) as [Hlt|Hge].
  - exists [digit_char (z mod 10)]. repeat split; [discriminate|constructor; [|constructor]|].
    + exists (z mod 10)%Z. now apply digit_of_char.
    + intros acc k rest Hr. simpl app. cbn [scan_digits List.length]. rewrite digit_of_char by auto.
      rewrite Z.mod_small by lia. destruct rest as [|c r]; cbn [scan_digits].
      * f_equal. f_equal; try (change (10 ^ Z.of_nat 1)%Z with 10%Z); lia.
      * rewrite (Hr c r eq_refl). f_equal. f_equal; try (change (10 ^ Z.of_nat 1)%Z with 10%Z); lia.
  - assert (0 < f) as Hf'.
    { destruct f; [|lia]. change (10 ^ Z.of_nat 1)%Z with 10%Z in Hz. lia. }
    rewrite Nat2Z.inj_succ, Z.pow_succ_r in Hz by lia.
    destruct (IH (z / 10)%Z (digit_char (z mod 10) :: acc0)) as (ds & E & Hn & Hd & Hs); auto.
    { split; [apply Z.div_pos; lia|]. apply Z.div_lt_upper_bound; lia. }
    exists (ds ++ [digit_char (z mod 10)]). repeat split.
    + rewrite E. now rewrite <- app_assoc.
    + destruct ds; discriminate.
    + apply Forall_app. split; auto. constructor; [|constructor]. exists (z mod 10)%Z. now apply digit_of_char.
    + intros acc k rest Hr. rewrite <- app_assoc. simpl ([_] ++ rest).
      assert (is_digit (digit_char (z mod 10))) as Hdc by (exists (z mod 10)%Z; now apply digit_of_char).
      assert (Forall is_digit (ds ++ [digit_char (z mod 10)])) as Hall.
      { apply Forall_app. split; [exact Hd|]. constructor; [exact Hdc|]. constructor. }
      destruct (scan_digits_app (ds ++ [digit_char (z mod 10)]) rest 0%Z 0 Hall Hr) as [z2 E2].
      rewrite <- app_assoc in E2. simpl ([_] ++ rest) in E2. rewrite E2. rewrite app_length. simpl (List.length [_]).
      f_equal. f_equal. f_equal.
      (* value of z2 *)
      destruct (scan_digits_app ds [] 0%Z 0) as [z3 E3]; [exact Hd|discriminate|].
      pose proof (Hs 0%Z 0 []) as Hs0. assert (forall c (r : text), [] = c :: r -> digit_of c = None) as Hnil by discriminate.
      specialize (Hs0 Hnil). rewrite E3 in Hs0. injection Hs0 as Hz3.
      assert (forall t d rest' a k', Forall is_digit t -> digit_of d = Some (z mod 10)%Z ->
                (forall c r, rest' = c :: r -> digit_of c = None) ->
                exists zz, scan_digits (t ++ []) 0 0 = (zz, List.length t, []) /\
                  scan_digits (t ++ d :: rest') a k' = ((a * 10 ^ Z.of_nat (S (List.length t)) + (zz * 10 + z mod 10))%Z, k' + S (List.length t), rest')) as Haux.
      { clear. intros t d rest' a k' Ht Hd Hr. destruct (scan_digits_app t [] 0%Z 0) as [zz E]; [exact Ht|discriminate|].
        exists zz. split; [now rewrite E|]. clear -Ht Hd Hr E.
        assert (forall a k, scan_digits (t ++ d :: rest') a k =
                  let '(v, kk, _) := scan_digits (t ++ []) a k in scan_digits (d :: rest') v kk) as Hc.
        { clear E. induction Ht as [|c t [dc Hdc] Ht IH]; intros a0 k0; [reflexivity|].
          cbn [app scan_digits]. rewrite Hdc. now rewrite IH. }
        rewrite Hc, E. cbn [scan_digits]. rewrite Hd.
        assert (forall v kk, scan_digits rest' v kk = (v, kk, rest')) as Hrest.
        { intros v kk. destruct rest' as [|c r]; cbn [scan_digits]; [reflexivity|]. now rewrite (Hr c r eq_refl). }
        rewrite Hrest. f_equal. rewrite Nat2Z.inj_succ, Z.pow_succ_r by lia. f_equal; [ring|lia]. }
      destruct (Haux ds (digit_char (z mod 10)) rest 0%Z 0 Hd (digit_of_char _ Hm) Hr) as (zz & Ea & Eb).
      rewrite E2 in Eb. injection Eb as Eb. rewrite E3 in Ea. injection Ea as Ea.
      pose proof (Z.div_mod z 10 ltac:(lia)). lia.
Qed.

Lemma show_Z_spec z : (0 <= z)%Z ->
  exists ds, show_Z z = ds /\ ds <> [] /\ Forall is_digit ds /\
    forall acc k rest, (forall c r, rest = c :: r -> digit_of c = None) ->
      scan_digits (ds ++ rest) acc k = ((acc * 10 ^ Z.of_nat (List.length ds) + z)%Z, k + List.length ds, rest).
Proof.
  intros Hz. unfold show_Z. destruct (Z.ltb_spec z 0); [lia|].
  destruct (show_digits_spec (S (Z.to_nat (Z.log2 z))) z []) as (ds & E & Hn & Hd & Hs); [|lia|].
  - split; auto. rewrite Nat2Z.inj_succ, Z2Nat.id by apply Z.log2_nonneg.
    destruct (Z.eq_dec z 0) as [->|Hnz]; [reflexivity|].
    pose proof (Z.log2_spec z ltac:(lia)) as [_ Hl]. eapply Z.lt_le_trans; [exact Hl|].
    apply Z.pow_le_mono_l. lia.
  - exists ds. rewrite E, app_nil_r. auto.
Qed.
(** The characters that a digit is not. *)
Definition punctuation : list ascii := ["#"; "/"; ","; " "; TAB; ":"; LF; CR; "-"; "+"; "011"; "012"; "."; "e"; "E"].
Lemma digit_not_punct c : is_digit c -> ~ In c punctuation.
Proof. intros [d Hd] Hin. simpl in Hin. repeat (destruct Hin as [<-|Hin]; [discriminate|]). exact Hin. Qed.
Lemma show_Z_free z : (0 <= z)%Z -> free_of punctuation (show_Z z).
Proof.
  intros Hz. destruct (show_Z_spec z Hz) as (ds & -> & _ & Hd & _). rewrite Forall_forall in Hd.
  intros c Hc. apply digit_not_punct. auto.
Qed.
Lemma show_Z_ne z : (0 <= z)%Z -> show_Z z <> [].
Proof. intros Hz. now destruct (show_Z_spec z Hz) as (ds & -> & Hn & _). Qed.
Lemma digit_not_space c : is_digit c -> is_space c = false.
Proof.
  intros Hd. apply digit_not_punct in Hd. unfold is_space.
  repeat match goal with |- context [c =? ?x] =>
    destruct (Ascii.eqb_spec c x); [exfalso; apply Hd; subst; simpl; tauto|] end. reflexivity.
Qed.
Lemma stoi_digits z rest : (0 <= z)%Z -> (forall c r, rest = c :: r -> digit_of c = None) ->
  stoi (show_Z z ++ rest) = if (z <=? 2147483647)%Z then Ok z else Throw OutOfRange.
Proof.
  intros Hz Hr. destruct (show_Z_spec z Hz) as (ds & -> & Hn & Hd & Hs).
  destruct ds as [|c ds]; [congruence|]. apply Forall_cons_iff in Hd as Hd'. destruct Hd' as [Hc _].
  unfold stoi. cbn [app skip_spaces]. rewrite digit_not_space by auto. cbn [scan_sign].
  apply digit_not_punct in Hc as Hc'.
  destruct (Ascii.eqb_spec c "-"); [exfalso; apply Hc'; subst; simpl; tauto|].
  destruct (Ascii.eqb_spec c "+"); [exfalso; apply Hc'; subst; simpl; tauto|].
  specialize (Hs 0%Z 0 rest Hr). cbn [app] in Hs. rewrite Hs. cbn [List.length].
  cbn [Nat.eqb Nat.add]. rewrite Z.mul_0_l, Z.add_0_l.
  destruct (Z.leb_spec (-2147483648) z); [reflexivity|lia].
Qed.
Lemma stoi_show z : (0 <= z <= 2147483647)%Z -> stoi (show_Z z) = Ok z.
Proof.
  intros Hz. rewrite <- (app_nil_r (show_Z z)). rewrite stoi_digits by (lia || discriminate).
  destruct (Z.leb_spec z 2147483647); [reflexivity|lia].
Qed.
Lemma stoi_show_big z : (2147483647 < z)%Z -> stoi (show_Z z) = Throw OutOfRange.
Proof.
  intros Hz. rewrite <- (app_nil_r (show_Z z)). rewrite stoi_digits by (lia || discriminate).
  destruct (Z.leb_spec z 2147483647); [lia|reflexivity].
Qed.
(** Possible results of stoi. *)
Lemma stoi_cases t : (exists z, stoi t = Ok z /\ (-2147483648 <= z <= 2147483647)%Z) \/
  stoi t = Throw InvalidArgument \/ stoi t = Throw OutOfRange.
Proof.
  unfold stoi. destruct (scan_sign _) as [b r]. destruct (scan_digits r 0 0) as [[z k] r'].
  destruct (Nat.eqb k 0); auto. cbv zeta.
  destruct (Z.leb_spec (-2147483648) (if b then - z else z)%Z), (Z.leb_spec (if b then - z else z)%Z 2147483647); simpl; auto.
  left. eexists. split; [reflexivity|]. lia.
Qed.
