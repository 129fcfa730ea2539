(** k-means++ with its random numbers made explicit (C91). *)
From Verif Require Import Base Num RSum KdeFacts4 SimGraphFacts4 KMeans KMeansFacts KMeansSpec KMeansLloyd KMeansTop MTFacts RecoverKM KppMath SpectrumSpec SimExpect.
From Coq Require Import Reals Lra Psatz List.
From Coquelicot Require Import Coquelicot.
Import ListNotations.
Local Open Scope nat_scope.

(** ** The seeding as a function of the numbers my_genrand_double returns
    The same functions as in KMeans.v over the reals, with the numbers taken from a list ([kpp_seeds_words] proves it).
    repo: KMeansRexCore.cpp:92-108 discrete_rand. *)
Definition choose (u : R) (p : list R) : option nat :=
  match p with [] => None | x :: rest => Some (pick (vsum p * u)%R x 0 rest) end.
(** repo: KMeansRexCore.cpp:155-164. *)
Fixpoint kpp_loop (us : list R) (X : list (list R)) (last : list R) (mind : option (list R)) : outcome (list (list R)) :=
  match us with
  | [] => Ok []
  | u :: us =>
    let cur := map (fun x => sqdist x last) X in
    let mind := match mind with None => cur | Some m => map (fun p => wmin (fst p) (snd p)) (combine cur m) end in
    match choose u mind with
    | None => UB
    | Some c => match nth_error X c with None => UB | Some row => omap (cons row) (kpp_loop us X row (Some mind)) end
    end
  end.
(** repo: KMeansRexCore.cpp:142-165 sampleRowsPlusPlus, for K <= N; as many centres as numbers. *)
Definition kpp_seeds (us : list R) (X : list (list R)) : outcome (list (list R)) :=
  match us with
  | [] => Ok []
  | u :: us =>
    let c := truncR (IZR (Z.of_nat (length X)) * u)%R in
    if (c <? 0)%Z then UB else match nth_error X (Z.to_nat c) with None => UB | Some row => omap (cons row) (kpp_loop us X row None) end
  end.
(** repo: KMeansRexCore.cpp:242-252 RunKMeans with initname "plusplus": the labels. *)
Definition kmeans_with (bump : R -> R) (us : list R) (X : list (list R)) (D niter : nat) : outcome (list nat) :=
  obind (kpp_seeds us X) (fun Mu => lloyd bump D (length us) X niter Mu (repeat 0 (length X)) 0%R).

(** The numbers the Mersenne Twister gives from a state. *)
Definition unit_draws (s : mt_state) (K : nat) : list R := map (fun k => unit_ofR (mt_nth s k)) (seq 0 K).
Lemma unit_draws_S s K : unit_draws s (S K) = unit_ofR (snd (mt_draw s)) :: unit_draws (fst (mt_draw s)) K.
Proof.
  unfold unit_draws. cbn [seq map]. rewrite mt_nth_0. f_equal. rewrite <- seq_shift, map_map. apply map_ext. intros k. now rewrite mt_nth_S.
Qed.
Lemma kpp_loop_words X : forall f s last mind, snd (plusplus_loop unit_ofR s X f last mind) = kpp_loop (unit_draws s f) X last mind.
Proof.
  induction f as [|f IH]; intros s last mind; [reflexivity|]. rewrite unit_draws_S. cbn [plusplus_loop kpp_loop].
  set (m := match mind with None => _ | Some m => _ end). unfold discrete_rand. destruct (mt_draw s) as [s' y]. cbn [fst snd].
  unfold choose. destruct m as [|x rest]; [reflexivity|]. cbn [wmul NumR]. destruct (nth_error X _) as [row|]; [|reflexivity].
  specialize (IH s' row (Some (x :: rest))). destruct (plusplus_loop _ s' X f row (Some (x :: rest))) as [s2 o]. cbn [snd] in *. now rewrite IH.
Qed.
Theorem kpp_seeds_words s X K : 1 <= K -> snd (plusplus IZR unit_ofR truncR s X K) = kpp_seeds (unit_draws s K) X.
Proof.
  intros HK. destruct K as [|K]; [lia|]. rewrite unit_draws_S. unfold plusplus, randint, kpp_seeds. destruct (mt_draw s) as [s' y]. cbn [fst snd wmul NumR].
  destruct (_ <? 0)%Z; [reflexivity|]. destruct (nth_error X _) as [row|]; [|reflexivity]. replace (S K - 1) with K by lia.
  pose proof (kpp_loop_words X K s' row None) as E. destruct (plusplus_loop _ s' X K row None) as [s2 o]. cbn [snd] in *. now rewrite E.
Qed.
Theorem kmeans_with_words bump X D K niter seed : 1 <= K ->
  run_kmeans IZR unit_ofR truncR bump X D K niter seed = kmeans_with bump (unit_draws (mt_init seed) K) X D (Z.to_nat niter).
Proof.
  intros HK. unfold run_kmeans, kmeans_with. rewrite (kpp_seeds_words (mt_init seed) X K HK).
  assert (length (unit_draws (mt_init seed) K) = K) as -> by (unfold unit_draws; now rewrite map_length, seq_length).
  destruct (kpp_seeds _ X); reflexivity.
Qed.

(** ** The weighted choice *)
Lemma pick_at (r : R) : forall rest cs k j, j <= length rest -> (j < length rest -> (r < cs + lsum (fun x => x) (firstn j rest))%R) ->
  (forall i, i < j -> (cs + lsum (fun x => x) (firstn i rest) <= r)%R) -> pick r cs k rest = k + j.
Proof.
  induction rest as [|x rest IH]; intros cs k j Hj Hlt Hle; cbn [pick length] in *; [assert (j = 0) by lia; lia|].
  destruct (wleb cs r) eqn:L.
  - apply (toR_leb cs r) in L. cbn [toR ExactR] in L. destruct j as [|j]; [specialize (Hlt ltac:(lia)); cbn [firstn lsum] in Hlt; lra|].
    rewrite (IH (wadd cs x) (S k) j); [lia|lia| |].
    + intros H. specialize (Hlt ltac:(lia)). cbn [firstn lsum] in Hlt. cbn [wadd NumR]. lra.
    + intros i Hi. specialize (Hle (S i) ltac:(lia)). cbn [firstn lsum] in Hle. cbn [wadd NumR]. lra.
  - destruct j as [|j]; [lia|]. exfalso. specialize (Hle 0 ltac:(lia)). cbn [firstn lsum] in Hle.
    assert (cs <= r)%R as Hc by lra. pose proof (proj2 (toR_leb cs r) Hc). congruence.
Qed.
Lemma firstn_seq_map {A} (f : nat -> A) n j : j <= n -> firstn j (map f (seq 0 n)) = map f (seq 0 j).
Proof.
  intros Hj. rewrite firstn_map. f_equal. replace n with (j + (n - j)) by lia. rewrite seq_app, firstn_app, seq_length, Nat.sub_diag, firstn_O, app_nil_r.
  rewrite firstn_all2; [reflexivity|]. rewrite seq_length. lia.
Qed.
(** On a list f 0, ..., f (n-1) of weights, with the number strictly between two partial sums. *)
Lemma choose_at (f : nat -> R) n u j : j < n -> (forall i, i < n -> (0 <= f i)%R) ->
  (j < n - 1 -> (rsum n f * u < rsum (S j) f)%R) -> (1 <= j -> (rsum j f <= rsum n f * u)%R) ->
  choose u (map f (seq 0 n)) = Some j.
Proof.
  intros Hj Hf Hlt Hle. destruct n as [|n]; [lia|]. cbn [seq map]. unfold choose. f_equal.
  assert (vsum (f 0 :: map f (seq 1 n)) = rsum (S n) f) as ->.
  { rewrite vsum_lsum. change (f 0 :: map f (seq 1 n)) with (map f (seq 0 (S n))). rewrite lsum_map. reflexivity. }
  assert (forall i, i <= n -> (f 0%nat + lsum (fun x => x) (firstn i (map f (seq 1 n))) = rsum (S i) f)%R) as E.
  { intros i Hi. rewrite <- seq_shift, map_map, firstn_seq_map by auto. rewrite lsum_map. unfold rsum. cbn [seq lsum]. rewrite <- seq_shift, lsum_map. reflexivity. }
  rewrite (pick_at _ _ _ 0 j); [reflexivity| | |].
  - rewrite map_length, seq_length. lia.
  - rewrite map_length, seq_length. intros L. rewrite E by lia. apply Hlt. lia.
  - intros i Hi. rewrite E by lia. apply Rle_trans with (rsum j f); [|apply Hle; lia].
    clear - Hi Hj Hf. induction j as [|j IH]; [lia|]. destruct (Nat.eq_dec i j) as [->|N]; [apply Rle_refl|].
    rewrite (rsum_S j). specialize (IH ltac:(lia) ltac:(lia)). specialize (Hf j ltac:(lia)). lra.
Qed.

(** ** Integrals of step functions *)
Lemma is_RInt_steps (w v : nat -> R) (g : R -> R) n : (forall i, i < n -> (0 <= w i)%R) ->
  (forall i x, i < n -> (rsum i w < x < rsum (S i) w)%R -> g x = v i) -> is_RInt g 0 (rsum n w) (rsum n (fun i => w i * v i)%R).
Proof.
  induction n as [|n IH]; intros Hw Hg; [exact (is_RInt_point (V := R_NormedModule) g 0)|]. rewrite !rsum_S.
  apply (is_RInt_Chasles (V := R_NormedModule) g 0 (rsum n w) (rsum n w + w n)%R); [apply IH; intros; [apply Hw|apply Hg]; auto|].
  apply (is_RInt_ext (V := R_NormedModule) (fun _ => v n)).
  - specialize (Hw n ltac:(lia)). rewrite Rmin_left, Rmax_right by lra. intros x Hx. symmetry. apply Hg; [lia|]. rewrite rsum_S. lra.
  - replace (w n * v n)%R with ((rsum n w + w n - rsum n w) * v n)%R by ring. exact (is_RInt_const (V := R_NormedModule) _ _ (v n)).
Qed.
(** v is the expected value of F of [num] independent numbers uniform in [0,1]: the iterated integrals exist and give v. *)
Fixpoint is_mean (num : nat) (F : list R -> R) (v : R) : Prop :=
  match num with 0 => v = F [] | S m => exists g : R -> R, (forall x, (0 < x < 1)%R -> is_mean m (fun rs => F (x :: rs)) (g x)) /\ is_RInt g 0 1 v end.
Lemma is_mean_ext num : forall F G v, (forall rs, length rs = num -> (forall x, In x rs -> (0 < x < 1)%R) -> F rs = G rs) -> is_mean num F v -> is_mean num G v.
Proof.
  induction num as [|m IH]; intros F G v E; cbn [is_mean]; [intros ->; apply E; auto; intros x []|].
  intros (g & A & B). exists g. split; auto. intros x Hx. apply (IH (fun rs => F (x :: rs))); [|now apply A].
  intros rs L H. apply E; [cbn [length]; lia|]. intros y [<-|I]; auto.
Qed.
Lemma is_mean_Eunif num : forall F v, is_mean num F v -> Eunif num F = v.
Proof.
  induction num as [|m IH]; intros F v; cbn [is_mean Eunif]; [congruence|]. intros (g & A & B). apply is_RInt_unique.
  apply (is_RInt_ext (V := R_NormedModule) g); auto. rewrite Rmin_left, Rmax_right by lra. intros x Hx. symmetry. now apply IH, A.
Qed.
Lemma rsum_mono_w n (w : nat -> R) : (forall i, i < n -> (0 <= w i)%R) -> forall a b, a <= b -> b <= n -> (rsum a w <= rsum b w)%R.
Proof. intros Hw a b L Hb. induction L as [|b L IH]; [lra|]. rewrite rsum_S. specialize (IH ltac:(lia)). specialize (Hw b ltac:(lia)). lra. Qed.
Lemma is_mean_steps m n (w v : nat -> R) (ch : R -> nat) F : (forall i, i < n -> (0 <= w i)%R) -> rsum n w = 1%R ->
  (forall x, (0 < x < 1)%R -> is_mean m (fun rs => F (x :: rs)) (v (ch x))) ->
  (forall i x, i < n -> (0 < x < 1)%R -> (rsum i w < x < rsum (S i) w)%R -> ch x = i) -> is_mean (S m) F (rsum n (fun i => w i * v i)%R).
Proof.
  intros Hw H1 HF Hc. cbn [is_mean]. exists (fun x => v (ch x)). split; auto. rewrite <- H1 at 1. apply is_RInt_steps; auto. intros i x Hi Hx.
  rewrite (Hc i x Hi); auto.
  pose proof (rsum_mono_w n w Hw 0 i ltac:(lia) ltac:(lia)) as A. pose proof (rsum_mono_w n w Hw (S i) n ltac:(lia) ltac:(lia)) as B. change (rsum 0 w) with 0%R in A. lra.
Qed.

(** ** The seeds *)
Section Seeds.
  Variables (D : nat) (X : list (list R)).
  Hypothesis HX : forall x, In x X -> length x = D.
  Notation n := (length X).
  Notation pt i := (nth i X []).
  Definition dd (i j : nat) : R := sqd D (pt i) (pt j).
  Notation md := (md dd). Notation phi := (phi n dd). Notation wt := (wt n dd). Notation Ex := (Ex n dd).
  Lemma pt_length i : i < n -> length (pt i) = D.
  Proof. intros Hi. apply HX, nth_In, Hi. Qed.
  Lemma dd_nonneg i j : (0 <= dd i j)%R.
  Proof. apply rsum_nonneg. intros. apply pow2_ge_0. Qed.
  (** minDist at the start of an iteration, after the update. *)
  Definition mind_now (last : list R) (mind : option (list R)) : list R :=
    let cur := map (fun x => sqdist x last) X in match mind with None => cur | Some m => map (fun p => wmin (fst p) (snd p)) (combine cur m) end.
  Lemma cur_map a : a < n -> map (fun x => sqdist x (pt a)) X = map (fun i => dd i a) (seq 0 n).
  Proof.
    intros Ha. apply (nth_ext _ _ 0%R 0%R); [now rewrite !map_length, seq_length|]. rewrite map_length. intros i Hi.
    rewrite (nth_indep _ 0%R (sqdist [] (pt a))) by (now rewrite map_length). rewrite (map_nth (fun x => sqdist x (pt a))), nth_map_seq by auto.
    apply sqdist_sqd; now apply pt_length.
  Qed.
  Lemma mind_first c : c < n -> mind_now (pt c) None = map (md c []) (seq 0 n).
  Proof. intros Hc. unfold mind_now. now apply cur_map. Qed.
  Lemma wmin_Rmin (a b : R) : wmin a b = Rmin a b.
  Proof.
    unfold wmin. destruct (wltb b a) eqn:E.
    - apply (R_ltb_true b a) in E. rewrite Rmin_right; lra.
    - assert (a <= b)%R as L by (apply Rnot_lt_le; intros C; apply (R_ltb_true b a) in C; cbn in E; congruence). now rewrite Rmin_left.
  Qed.
  Lemma mind_next c C a : a < n -> mind_now (pt a) (Some (map (md c C) (seq 0 n))) = map (md c (a :: C)) (seq 0 n).
  Proof.
    intros Ha. unfold mind_now. rewrite cur_map by auto. generalize (seq 0 n). induction l as [|i l IH]; [reflexivity|]. cbn [map combine fst snd]. rewrite IH, wmin_Rmin. reflexivity.
  Qed.
  Lemma rsum_wt c C j : phi c C <> 0%R -> (rsum j (md c C) = phi c C * rsum j (wt c C))%R.
  Proof.
    intros N. rewrite <- rsum_scal. apply rsum_ext. intros i _. unfold KppMath.wt. destruct (Req_EM_T (phi c C) 0); [contradiction|]. field. auto.
  Qed.
  Lemma choose_wt c C j u : j < n -> (0 < u < 1)%R -> (rsum j (wt c C) < u < rsum (S j) (wt c C))%R -> choose u (map (md c C) (seq 0 n)) = Some j.
  Proof.
    intros Hj Hu Hr. pose proof (phi_nonneg n dd dd_nonneg c C) as P0. apply choose_at; auto; [intros; apply md_nonneg, dd_nonneg| |]; fold (phi c C).
    - intros L. destruct (Req_EM_T (phi c C) 0) as [E|E]; [|rewrite rsum_wt by auto; apply Rmult_lt_compat_l; lra].
      exfalso. assert (rsum (S j) (wt c C) = 0)%R as Z; [|lra]. apply rsum_zero. intros i Hi. unfold KppMath.wt. destruct (Req_EM_T (phi c C) 0); [|contradiction].
      destruct (Nat.eqb_spec i (n - 1)); [lia|reflexivity].
    - intros L. destruct (Req_EM_T (phi c C) 0) as [E|E]; [|rewrite rsum_wt by auto; apply Rmult_le_compat_l; lra].
      rewrite E, Rmult_0_l. assert (rsum j (md c C) <= phi c C)%R as Q; [|lra].
      unfold KppMath.phi. replace n with (j + (n - j)) by lia. unfold rsum at 2. rewrite seq_app, lsum_app. fold (rsum j (md c C)).
      assert (0 <= lsum (md c C) (seq (0 + j) (n - j)))%R by (apply lsum_nonneg; intros; apply md_nonneg, dd_nonneg). lra.
  Qed.
  Lemma omap_omap {A B C} (f : A -> B) (g : B -> C) o : omap g (omap f o) = omap (fun x => g (f x)) o.
  Proof. destruct o; reflexivity. Qed.
  Lemma nth_error_pt i : i < n -> nth_error X i = Some (pt i).
  Proof. intros. now apply nth_error_nth'. Qed.

  Lemma choose_some u p : p <> [] -> exists j, choose u p = Some j /\ j < length p.
  Proof.
    destruct p as [|x rest]; [congruence|]. intros _. eexists. split; [reflexivity|]. pose proof (pick_le (vsum (x :: rest) * u)%R x 0 rest). cbn [length] in *. lia.
  Qed.
  (** Expected value of a function of the centres. *)
  Lemma E_loop (G : outcome (list (list R)) -> R) t : forall c C last mind, c < n -> mind_now last mind = map (md c C) (seq 0 n) ->
    is_mean t (fun us => G (omap (fun Mu => map (fun i => pt i) (rev C) ++ Mu) (kpp_loop us X last mind))) (Ex t c C (fun C' => G (Ok (map (fun i => pt i) (rev C'))))).
  Proof.
    induction t as [|t IH]; intros c C last mind Hc Hm.
    - cbn [is_mean KppMath.Ex kpp_loop omap]. now rewrite app_nil_r.
    - set (ch := fun u => match choose u (map (md c C) (seq 0 n)) with Some j => j | None => 0 end).
      apply (is_mean_steps t n (wt c C) (fun i => Ex t c (i :: C) (fun C' => G (Ok (map (fun i => pt i) (rev C'))))) ch).
      + intros. apply wt_nonneg, dd_nonneg.
      + apply wt_sum; lia.
      + intros x Hx. unfold ch. destruct (choose_some x (map (md c C) (seq 0 n))) as (i & Ei & Hi).
        { destruct n as [|k]; [lia|discriminate]. }
        rewrite map_length, seq_length in Hi. rewrite Ei.
        apply (is_mean_ext t (fun us => G (omap (fun Mu => map (fun i => pt i) (rev (i :: C)) ++ Mu) (kpp_loop us X (pt i) (Some (mind_now last mind)))))).
        * intros rs _ _. cbn [kpp_loop]. fold (mind_now last mind). rewrite Hm, Ei, nth_error_pt by auto.
          rewrite omap_omap. f_equal. cbn [rev]. rewrite map_app. cbn [map]. destruct (kpp_loop rs X (pt i) _); cbn [omap]; [|reflexivity|reflexivity]. now rewrite <- app_assoc.
        * apply IH; auto. rewrite Hm. now apply mind_next.
      + intros i x Hi Hx Hr. unfold ch. now rewrite (choose_wt c C i x Hi Hx Hr).
  Qed.
  Lemma trunc_at i x : 1 <= n -> (INR i <= INR n * x < INR i + 1)%R -> truncR (IZR (Z.of_nat n) * x) = Z.of_nat i.
  Proof.
    intros Hn [H1 H2]. unfold truncR. rewrite <- INR_IZR_INZ. destruct (base_Int_part (INR n * x)) as [B1 B2]. rewrite INR_IZR_INZ with (n := i) in H1, H2.
    assert (Int_part (INR n * x) < Z.of_nat i + 1)%Z by (apply lt_IZR; rewrite plus_IZR; lra).
    assert (Z.of_nat i - 1 < Int_part (INR n * x))%Z by (apply lt_IZR; rewrite minus_IZR; lra). lia.
  Qed.
  Lemma trunc_lt x : 1 <= n -> (0 <= x < 1)%R -> exists i, i < n /\ truncR (IZR (Z.of_nat n) * x) = Z.of_nat i.
  Proof.
    intros Hn Hx. assert (1 <= INR n)%R as Pn by (change 1%R with (INR 1); apply le_INR; lia). unfold truncR. destruct (base_Int_part (IZR (Z.of_nat n) * x)) as [B1 B2].
    rewrite <- INR_IZR_INZ in *. assert (0 <= INR n * x < INR n)%R by nra. set (z := Int_part (INR n * x)) in *.
    assert (-1 < z)%Z by (apply lt_IZR; lra). assert (z < Z.of_nat n)%Z by (apply lt_IZR; rewrite <- INR_IZR_INZ; lra). exists (Z.to_nat z). split; lia.
  Qed.
  Theorem E_seeds (G : outcome (list (list R)) -> R) K : 1 <= n -> 1 <= K ->
    is_mean K (fun us => G (kpp_seeds us X)) (rsum n (fun c => / INR n * Ex (K - 1) c [] (fun C => G (Ok (map (fun i => pt i) (c :: rev C)))))%R).
  Proof.
    intros Hn HK. destruct K as [|K]; [lia|]. replace (S K - 1) with K by lia. assert (0 < INR n)%R as Pn by (apply lt_0_INR; lia).
    apply (is_mean_steps K n (fun _ => / INR n)%R (fun c => Ex K c [] (fun C => G (Ok (map (fun i => pt i) (c :: rev C))))) (fun x => Z.to_nat (truncR (IZR (Z.of_nat n) * x)))).
    - intros. left. now apply Rinv_0_lt_compat.
    - rewrite rsum_const. field. lra.
    - intros x Hx. destruct (trunc_lt x Hn ltac:(lra)) as (i & Hi & Ei). rewrite Ei, Nat2Z.id.
      apply (is_mean_ext K (fun us => (fun o => G (omap (cons (pt i)) o)) (omap (fun Mu => map (fun i => pt i) (rev []) ++ Mu) (kpp_loop us X (pt i) None)))).
      + intros rs _ _. unfold kpp_seeds. rewrite Ei. destruct (Z.ltb_spec (Z.of_nat i) 0); [lia|]. rewrite Nat2Z.id, nth_error_pt by auto. f_equal.
        destruct (kpp_loop rs X (pt i) None); reflexivity.
      + exact (E_loop (fun o => G (omap (cons (pt i)) o)) K i [] (pt i) None Hi (mind_first i Hi)).
    - intros i x Hi Hx Hr. rewrite !rsum_const in Hr. rewrite (trunc_at i x Hn); [apply Nat2Z.id|].
      rewrite S_INR in Hr. destruct Hr as [H1 H2]. apply (Rmult_lt_compat_l (INR n)) in H1; auto. apply (Rmult_lt_compat_l (INR n)) in H2; auto.
      replace (INR n * (INR i * / INR n))%R with (INR i) in H1 by (field; lra). replace (INR n * ((INR i + 1) * / INR n))%R with (INR i + 1)%R in H2 by (field; lra). lra.
  Qed.
  (** With numbers in [0,1) it never fails. *)
  Lemma kpp_loop_ok us : X <> [] -> forall last mind, (forall m, mind = Some m -> length m = n) -> exists Mu, kpp_loop us X last mind = Ok Mu /\ length Mu = length us /\ (forall c, In c Mu -> In c X).
  Proof.
    intros HX0. induction us as [|u us IH]; intros last mind Hm; cbn [kpp_loop]; [exists []; repeat split; auto; intros c []|]. fold (mind_now last mind).
    assert (length (mind_now last mind) = n) as L.
    { unfold mind_now. destruct mind as [m|]; [rewrite map_length, combine_length, map_length, (Hm m eq_refl); lia|apply map_length]. }
    destruct (choose_some u (mind_now last mind)) as (i & -> & Hi); [intros E; rewrite E in L; destruct X; [congruence|discriminate]|]. rewrite L in Hi.
    rewrite nth_error_pt by auto. destruct (IH (pt i) (Some (mind_now last mind))) as (Mu & -> & L2 & I2); [intros m [= <-]; auto|].
    exists (pt i :: Mu). split; [reflexivity|]. split; [cbn [length]; lia|]. intros c [<-|I]; auto. now apply nth_In.
  Qed.
  Theorem kpp_seeds_ok us : 1 <= n -> (forall u, In u us -> (0 <= u < 1)%R) -> exists Mu, kpp_seeds us X = Ok Mu /\ length Mu = length us /\ (forall c, In c Mu -> In c X).
  Proof.
    intros Hn Hu. destruct us as [|u us]; [exists []; repeat split; auto; intros c []|]. unfold kpp_seeds.
    destruct (trunc_lt u Hn (Hu u (or_introl eq_refl))) as (i & Hi & ->). destruct (Z.ltb_spec (Z.of_nat i) 0); [lia|]. rewrite Nat2Z.id, nth_error_pt by auto.
    destruct (kpp_loop_ok us ltac:(intros E; rewrite E in Hn; cbn in Hn; lia) (pt i) None ltac:(discriminate)) as (Mu & -> & L & I).
    exists (pt i :: Mu). split; [reflexivity|]. split; [cbn [length]; lia|]. intros c [<-|J]; auto. now apply nth_In.
  Qed.
End Seeds.
