(** C91: the expected quality of the k-means clustering behind spectral clustering. *)
From Verif Require Import Base Num RSum KMeans KMeansSpec KMeansLloyd KMeansTop MTFacts SpectrumSpec KppMath Kpp KppTop.
From Coq Require Import Reals Lra Lia List.
Import ListNotations.
Local Open Scope nat_scope.

(** The numbers the generator gives determine everything: RunKMeans with a seed is [kmeans_with] of the first K numbers of the
    Mersenne Twister (word / (2^32-1)), its starting centres are [kpp_seeds] of them. *)
Theorem C91_randomness bump X D K niter seed : 1 <= K ->
  snd (plusplus IZR unit_ofR truncR (mt_init seed) X K) = kpp_seeds (unit_draws (mt_init seed) K) X /\
  run_kmeans IZR unit_ofR truncR bump X D K niter seed = kmeans_with bump (unit_draws (mt_init seed) K) X D (Z.to_nat niter).
Proof. intros HK. split; [now apply kpp_seeds_words|now apply kmeans_with_words]. Qed.
(** With numbers below 1 it does not fail: K of the points are the starting centres, every point gets a label below K, and the
    clustering returned is at least as good as the starting centres. *)
Theorem C91_total D X bump us niter : (forall x, In x X -> length x = D) -> (forall c, (1 <= c)%R -> bump c = c) ->
  1 <= length us <= length X -> 1 <= niter -> (forall u, In u us -> (0 <= u < 1)%R) ->
  exists Mu out, kpp_seeds us X = Ok Mu /\ length Mu = length us /\ (forall c, In c Mu -> In c X) /\
    kmeans_with bump us X D niter = Ok out /\ length out = length X /\ (forall i, i < length X -> nth i out 0 < length us) /\
    (labels_cost D X out <= centres_cost D X Mu)%R.
Proof. intros HX Hb. exact (kmeans_total D X HX bump Hb us niter). Qed.
(** With independent uniform numbers the starting centres follow the k-means++ law: the first is uniform, each further one is a
    point with probability proportional to its squared distance to the nearest centre so far ([wt]). *)
Theorem C91_law D X (G : outcome (list (list R)) -> R) K : (forall x, In x X -> length x = D) -> 1 <= length X -> 1 <= K ->
  is_mean K (fun us => G (kpp_seeds us X))
    (rsum (length X) (fun c => / INR (length X) * Ex (length X) (fun i j => sqd D (nth i X []) (nth j X [])) (K - 1) c []
       (fun C => G (Ok (map (fun i => nth i X []) (c :: rev C)))))%R).
Proof. intros HX. exact (E_seeds D X HX G K). Qed.
(** With independent uniform numbers the expected cost of the starting centres is at most 8(2 + ln K) times the cost of any
    clustering into K clusters with any centres. *)
Theorem C91_expected_seeds D X K C z bad : (forall x, In x X -> length x = D) -> 1 <= K <= length X -> (forall i, i < length X -> nth i z 0 < K) ->
  exists e, is_mean K (fun us => value_or bad (centres_cost D X) (kpp_seeds us X)) e /\ (e <= 8 * (2 + ln (INR K)) * cost D X C z)%R.
Proof. intros HX. exact (seeds_quality D X HX K C z bad). Qed.
(** The same for the clustering returned after any number of rounds. *)
Theorem C91_expected_clustering D X bump K niter C z bad : (forall x, In x X -> length x = D) -> (forall c, (1 <= c)%R -> bump c = c) ->
  1 <= K <= length X -> 1 <= niter -> (forall i, i < length X -> nth i z 0 < K) ->
  exists e, is_mean K (fun us => value_or bad (labels_cost D X) (kmeans_with bump us X D niter)) e /\ (e <= 8 * (2 + ln (INR K)) * cost D X C z)%R.
Proof. intros HX Hb. exact (kmeans_quality D X HX bump Hb K niter C z bad). Qed.
(** If the points lie on at most K places, the clustering returned has cost 0 (in the mean, hence with probability 1). *)
Theorem C91_few_places D X bump K niter C z bad : (forall x, In x X -> length x = D) -> (forall c, (1 <= c)%R -> bump c = c) ->
  1 <= K <= length X -> 1 <= niter -> (forall i, i < length X -> nth i z 0 < K /\ sqd D (nth i X []) (nth (nth i z 0) C []) = 0%R) ->
  exists e, is_mean K (fun us => value_or bad (labels_cost D X) (kmeans_with bump us X D niter)) e /\ (e <= 0)%R.
Proof.
  intros HX Hb HK Hn Hz. destruct (kmeans_quality D X HX bump Hb K niter C z bad HK Hn (fun i Hi => proj1 (Hz i Hi))) as (e & M & L).
  exists e. split; auto. assert (cost D X C z = 0)%R as E by (apply rsum_zero; intros i Hi; unfold centre; now apply Hz). rewrite E in L. lra.
Qed.

(** Four points on a line in two groups. *)
Definition exX : list (list R) := [[0%R]; [1%R]; [10%R]; [11%R]].
Definition exC : list (list R) := [[(/2)%R]; [(21/2)%R]].
Example C91_hypotheses_met : (forall x, In x exX -> length x = 1) /\ 1 <= 2 <= length exX /\ (forall i, i < length exX -> nth i [0;0;1;1] 0 < 2) /\ cost 1 exX exC [0;0;1;1] = 1%R.
Proof.
  split; [intros x I; cbn in I; intuition (subst; reflexivity)|]. split; [cbn; lia|]. split; [intros [|[|[|[|i]]]] Hi; cbn in *; lia|].
  unfold cost, sqd, rsum, centre, vx. cbn. lra.
Qed.
(** One run of the seeding: the numbers 1/8 and 1/2 choose the points 0 and 11. *)
Example C91_one_run : kpp_seeds [(1/8)%R; (1/2)%R] exX = Ok [[0%R]; [11%R]].
Proof.
  unfold kpp_seeds. rewrite (trunc_at exX 0 (1/8)) by (cbn; try lia; lra). cbn [Z.of_nat Z.ltb Z.compare Z.to_nat nth_error exX kpp_loop].
  assert (choose (1 / 2) (map (fun x => sqdist x [0%R]) exX) = Some 3) as E.
  { replace (map (fun x => sqdist x [0%R]) exX) with (map (fun i => nth i [0%R; 1%R; 100%R; 121%R] 0%R) (seq 0 4)).
    - apply choose_at; [lia| | |]; unfold rsum; cbn; try lia; try lra. intros [|[|[|[|i]]]] Hi; cbn; try lia; lra.
    - unfold sqdist. cbn. repeat f_equal; ring. }
  fold exX. rewrite E. reflexivity.
Qed.
Print Assumptions C91_randomness.
Print Assumptions C91_total.
Print Assumptions C91_law.
Print Assumptions C91_expected_seeds.
Print Assumptions C91_expected_clustering.
Print Assumptions C91_few_places.
