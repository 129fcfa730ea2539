(** Several threads that query one stag::Graph object: stag_lib/graph.cpp at the level of single accesses to its members, run by interleaved threads (Threads.v).

    The queries are not const: the first call that needs a matrix computes it and stores it in the object (graph.cpp:482-619), without a mutex. *)
From Verif Require Import Base Num Sparse Graph GraphFacts ThreadPool ThreadPoolFacts Threads ThreadsFacts.
From Coq Require Import ZArith Permutation.
Local Open Scope nat_scope.

(** The members of the object: number_of_vertices_, has_self_loops_ and adjacency_matrix_ (written by the constructor and by add_edge and remove_edge only),
    the flag and the matrix of each of the seven lazily computed matrices; and the answers a client thread has collected, its own data. *)
Inductive gloc : Type := LBase | LFlag (q : matq) | LMat (q : matq) | LAns (t : nat).
Definition matq_dec : forall a b : matq, {a = b} + {a <> b}. Proof. decide equality. Defined.
Definition gloc_dec : forall a b : gloc, {a = b} + {a <> b}. Proof. decide equality; first [apply matq_dec|apply Nat.eq_dec]. Defined.

Lemma nodup_right {A} (l1 l2 : list A) : NoDup (l1 ++ l2) -> NoDup l2.
Proof. induction l1 as [|x l1 IH]; auto. cbn [Datatypes.app]. intros N. inversion N. auto. Qed.
Lemma nodup_left {A} (l1 l2 : list A) : NoDup (l1 ++ l2) -> NoDup l1.
Proof.
  induction l1 as [|x l1 IH]; [constructor|]. cbn [Datatypes.app]. intros N. inversion N as [|y l A1 B]. constructor; auto. intros I. apply A1. apply in_or_app. now left.
Qed.

Section GraphThreads.
  Context {W : Set} `{Num W}.
  Notation graph := (graph W).

  (** What a client can ask. repo: graph.h public methods of Graph that do not change the graph. The pointer returned by a matrix query is dereferenced. *)
  Inductive gquery : Type :=
  | GAdj | GVertices | GEdges | GLoops | GExists (v : Z) | GDegU (v : Z) | GNeigh (v : Z) | GNeighU (v : Z)
  | GMat (q : matq) | GVolume | GAverage | GDegree (v : Z).
  Inductive answer : Type :=
  | AMat (M : sprs W) | ANat (n : nat) | ABool (b : bool) | AReal (x : W) | AOReal (x : outcome W) | AONat (n : outcome nat) | AONats (l : outcome (list nat))
  | AOEdges (l : outcome (list (edge W))).

  (** One thread: the object after the query and the answer, by the functions of Graph.v. *)
  Definition ask (q : gquery) (g : graph) : graph * answer :=
    match q with
    | GAdj => (g, AMat (g_adj g))
    | GVertices => (g, ANat (number_of_vertices g))
    | GEdges => (g, ANat (number_of_edges g))
    | GLoops => (g, ABool (has_self_loops g))
    | GExists v => (g, ABool (vertex_exists g v))
    | GDegU v => (g, AONat (degree_unweighted g v))
    | GNeigh v => (g, AOEdges (neighbors g v))
    | GNeighU v => (g, AONats (neighbors_unweighted g v))
    | GMat m => let '(g, M) := mat_query m g in (g, AMat M)
    | GVolume => let '(g, x) := total_volume g in (g, AReal x)
    | GAverage => let '(g, x) := average_degree g in (g, AReal x)
    | GDegree v => let '(g, x) := degree g v in (g, AOReal x)
    end.

  (** The memory: the object and the answers of each thread. *)
  Record gmem : Type := mkgm { obj : graph; ans : nat -> list answer }.
  Notation prog := (@prog gloc unit gmem).

  (** Assignment to a matrix member. *)
  Definition put_mat (q : matq) (M : sprs W) (g : graph) : graph :=
    let f q' := if matq_dec q' q then mkCache (c_init (get_cache q' g)) M else get_cache q' g in
    mkGraph (g_n g) (g_adj g) (g_loops g) (f QLap) (f QSLap) (f QNLap) (f QNSLap) (f QDeg) (f QInv) (f QLrw).
  (** Assignment of true to a flag. *)
  Definition put_flag (q : matq) (g : graph) : graph :=
    let f q' := if matq_dec q' q then mkCache true (c_mat (get_cache q' g)) else get_cache q' g in
    mkGraph (g_n g) (g_adj g) (g_loops g) (f QLap) (f QSLap) (f QNLap) (f QNSLap) (f QDeg) (f QInv) (f QLrw).

  Definition r_base (s : gmem) (x : graph) (s' : gmem) : Prop := s' = s /\ x = obj s.
  Definition r_flag (q : matq) (s : gmem) (x : bool) (s' : gmem) : Prop := s' = s /\ x = c_init (get_cache q (obj s)).
  Definition r_mat (q : matq) (s : gmem) (x : sprs W) (s' : gmem) : Prop := s' = s /\ x = c_mat (get_cache q (obj s)).
  Definition w_mat (q : matq) (M : sprs W) (s : gmem) (x : unit) (s' : gmem) : Prop := s' = mkgm (put_mat q M (obj s)) (ans s).
  Definition w_flag (q : matq) (s : gmem) (x : unit) (s' : gmem) : Prop := s' = mkgm (put_flag q (obj s)) (ans s).
  Definition w_ans (t : nat) (a : answer) (s : gmem) (x : unit) (s' : gmem) : Prop :=
    s' = mkgm (obj s) (fun u => if u =? t then ans s u ++ [a] else ans s u).

  (** Read the three members that no query writes. In [k] only these may be used. *)
  Definition base (k : graph -> prog) : prog := Op graph LBase false r_base k.
  Definition flag (q : matq) (k : bool -> prog) : prog := Op bool (LFlag q) false (r_flag q) k.
  Definition mat (q : matq) (k : sprs W -> prog) : prog := Op (sprs W) (LMat q) false (r_mat q) k.
  Definition store (q : matq) (M : sprs W) (k : prog) : prog := Op unit (LMat q) true (w_mat q M) (fun _ => k).
  Definition set_flag (q : matq) (k : prog) : prog := Op unit (LFlag q) true (w_flag q) (fun _ => k).

  (** repo: graph.cpp:566-583 initialise_degree_matrix_: the member is made empty (line 573) and then filled. *)
  Definition init_deg_p (k : prog) : prog :=
    flag QDeg (fun b => if b then k else
      base (fun g => store QDeg (sp_empty (sp_ncols (g_adj g)) (sp_ncols (g_adj g))) (store QDeg (deg_mat (g_adj g)) (set_flag QDeg k)))).
  (** repo: graph.cpp:585-600 initialise_inverse_degree_matrix_; likewise. *)
  Definition init_inv_p (k : prog) : prog :=
    flag QInv (fun b => if b then k else init_deg_p (
      base (fun g => store QInv (sp_empty (sp_ncols (g_adj g)) (sp_ncols (g_adj g))) (
        mat QDeg (fun D => store QInv (sp_diag (sp_ncols (g_adj g)) (fun i => wdiv w1 (coeff D i i))) (set_flag QInv k)))))).
  (** repo: graph.cpp:602-619 initialise_lazy_random_walk_matrix_. *)
  Definition init_lrw_p (k : prog) : prog :=
    flag QLrw (fun b => if b then k else init_inv_p (
      base (fun g => store QLrw (sp_empty (g_n g) (g_n g)) (
        mat QInv (fun I => store QLrw (sp_add (sp_map (wmul whalf) (identity_mat (g_n g))) (sp_mul (sp_map (wmul whalf) (g_adj g)) I)) (set_flag QLrw k)))))).
  (** repo: graph.cpp:482-564, the four Laplacians; f computes the matrix from the degrees. *)
  Definition init_from_deg (q : matq) (f : graph -> sprs W -> sprs W) (k : prog) : prog :=
    flag q (fun b => if b then k else init_deg_p (mat QDeg (fun D => base (fun g => store q (f g D) (set_flag q k))))).
  Definition init_p (q : matq) (k : prog) : prog :=
    match q with
    | QLap => init_from_deg QLap (fun g D => sp_sub D (g_adj g)) k
    | QSLap => init_from_deg QSLap (fun g D => sp_add D (g_adj g)) k
    | QNLap => init_from_deg QNLap (fun g D => let S := sqrt_inv_deg (g_n g) D in sp_sub (identity_mat (g_n g)) (sp_mul (sp_mul S (g_adj g)) S)) k
    | QNSLap => init_from_deg QNSLap (fun g D => let S := sqrt_inv_deg (g_n g) D in sp_add (identity_mat (g_n g)) (sp_mul (sp_mul S (g_adj g)) S)) k
    | QDeg => init_deg_p k
    | QInv => init_inv_p k
    | QLrw => init_lrw_p k
    end.
  (** A query and what the client does with the answer. *)
  Definition query_p (q : gquery) (k : answer -> prog) : prog :=
    match q with
    | GAdj | GVertices | GEdges | GLoops | GExists _ | GDegU _ | GNeigh _ | GNeighU _ => base (fun g => k (snd (ask q g)))
    | GMat m => init_p m (mat m (fun M => k (AMat M)))
    | GVolume => init_deg_p (mat QDeg (fun D => k (AReal (wsum (sp_values D)))))
    | GAverage => init_deg_p (mat QDeg (fun D => base (fun g => k (AReal (wdiv (wsum (sp_values D)) (wnat (g_n g)))))))
    | GDegree v => base (fun g => match check_vertex g v with
                                  | Ok u => init_deg_p (mat QDeg (fun D => k (AOReal (Ok (coeff D u u)))))
                                  | Throw e => k (AOReal (Throw e))
                                  | UB => k (AOReal UB) end)
    end.
  (** Thread t makes the queries one after the other (and catches exceptions). *)
  Fixpoint client (t : nat) (qs : list gquery) : prog :=
    match qs with
    | [] => Stop
    | q :: qs => query_p q (fun a => Op unit (LAns t) true (w_ans t a) (fun _ => client t qs))
    end.
  (** The clients, numbered from 0. *)
  Definition clients (qss : list (list gquery)) : list prog := map (fun tq => client (fst tq) (snd tq)) (combine (seq 0 (length qss)) qss).

  (** The matrices a query stores in the object if they are not there yet. *)
  Definition needs (g : graph) (q : gquery) : list matq :=
    match q with
    | GMat m => [m]
    | GVolume | GAverage => [QDeg]
    | GDegree v => match check_vertex g v with Ok _ => [QDeg] | _ => [] end
    | _ => []
    end.
  (** Everything the query needs is in the object already. *)
  Definition ready (g : graph) (q : gquery) : Prop := forall m, In m (needs g q) -> c_init (get_cache m g) = true.

  (** *** All threads only read *)
  Section Ready.
    Variable g : graph.
    Variable tid : nat.
    (** From here on the thread only reads the object g, and it will record the answers [as_]. *)
    Fixpoint reads (p : prog) (as_ : list answer) : Prop :=
      match p with
      | Stop => as_ = []
      | Op X l false R k => (forall u, l <> LAns u) /\ (forall s, exists x, R s x s) /\ forall s x s', obj s = g -> R s x s' -> s' = s /\ reads (k x) as_
      | Op X l true R k => l = LAns tid /\ (forall s, exists x s', R s x s') /\
          exists a rest, as_ = a :: rest /\ forall s x s', R s x s' -> w_ans tid a s tt s' /\ reads (k x) rest
      | _ => False
      end.
    Lemma reads_base k as_ : reads (k g) as_ -> reads (base k) as_.
    Proof.
      intros A. split; [discriminate|]. split; [intros s; exists (obj s); split; reflexivity|]. intros s x s' E [-> ->]. rewrite E. auto.
    Qed.
    Lemma reads_mat q k as_ : reads (k (c_mat (get_cache q g))) as_ -> reads (mat q k) as_.
    Proof.
      intros A. split; [discriminate|]. split; [intros s; eexists; split; reflexivity|]. intros s x s' E [-> ->]. rewrite E. auto.
    Qed.
    Lemma reads_flag q k as_ : c_init (get_cache q g) = true -> reads (k true) as_ -> reads (flag q k) as_.
    Proof.
      intros F A. split; [discriminate|]. split; [intros s; eexists; split; reflexivity|]. intros s x s' E [-> ->]. rewrite E, F. auto.
    Qed.
    Lemma reads_init q k as_ : c_init (get_cache q g) = true -> reads k as_ -> reads (init_p q k) as_.
    Proof. intros F A. destruct q; apply reads_flag; auto. Qed.
    Lemma reads_query q k as_ : ready g q -> reads (k (snd (ask q g))) as_ -> reads (query_p q k) as_.
    Proof.
      intros Rd A. unfold ready in Rd. destruct q; try (apply reads_base; exact A); cbn [query_p needs] in *.
      - assert (F : c_init (get_cache q g) = true) by (apply Rd; left; reflexivity). apply reads_init; auto. apply reads_mat.
        assert (snd (ask (GMat q) g) = AMat (c_mat (get_cache q g))) as E; [|rewrite E in A; exact A].
        cbn [ask]. destruct q; cbn [mat_query snd get_cache] in *; unfold init_lap, init_slap, init_nlap, init_nslap, init_deg, init_inv, init_lrw; now rewrite F.
      - assert (F : c_init (get_cache QDeg g) = true) by (apply Rd; left; reflexivity). apply reads_flag; auto. apply reads_mat.
        cbn [ask total_volume] in A. unfold init_deg in A. cbn [get_cache] in F. rewrite F in A. exact A.
      - assert (F : c_init (get_cache QDeg g) = true) by (apply Rd; left; reflexivity). apply reads_flag; auto. apply reads_mat. apply reads_base.
        cbn [ask average_degree total_volume] in A. unfold init_deg in A. cbn [get_cache] in F. rewrite F in A. exact A.
      - apply reads_base. cbn [ask] in A. unfold degree in A. destruct (check_vertex g v); auto.
        assert (F : c_init (get_cache QDeg g) = true) by (apply Rd; left; reflexivity). apply reads_flag; auto. apply reads_mat.
        unfold init_deg in A. cbn [get_cache] in F. rewrite F in A. exact A.
    Qed.
    Lemma reads_client qs : (forall q, In q qs -> ready g q) -> reads (client tid qs) (map (fun q => snd (ask q g)) qs).
    Proof.
      induction qs as [|q qs IH]; intros Rd; [reflexivity|]. cbn [client map]. apply reads_query; [apply Rd; now left|].
      split; [reflexivity|]. split; [intros s; exists tt; eexists; reflexivity|]. eexists _, _. split; [reflexivity|].
      intros s x s' E. split; [exact E|]. apply IH. intros; apply Rd; now right.
    Qed.
  End Ready.

  Definition udec : forall a b : unit, {a = b} + {a <> b}. Proof. decide equality. Defined.
  Notation st := (@st gloc unit gmem).
  Notation step := (@step gloc unit gmem udec).
  Notation steps := (@steps gloc unit gmem udec).

  Section Run.
    Variable g : graph.
    Variable qss : list (list gquery).
    Hypothesis all_ready : forall qs q, In qs qss -> In q qs -> ready g q.
    Variable a0 : nat -> list answer.
    Definition expected (t : nat) : list answer := map (fun q => snd (ask q g)) (nth t qss []).

    Record rinv (s : st) : Prop := {
      r_obj : obj (shared s) = g;
      r_ids : Permutation (ids s) (seq 0 (length qss));
      r_queue : forall t p, In (t, p) (queue s) -> ans (shared s) t = a0 t /\ reads g t p (expected t);
      r_run : forall i t p, nth_error (ws s) i = Some (Some (t, p)) -> exists done_ todo, ans (shared s) t = a0 t ++ done_ /\ expected t = done_ ++ todo /\ reads g t p todo;
      r_done : forall t, In t (done s) -> ans (shared s) t = a0 t ++ expected t }.

    Lemma expected_out t : length qss <= t -> expected t = [].
    Proof. intros L. unfold expected. now rewrite nth_overflow. Qed.
    Lemma clients_nth t p : nth_error (clients qss) t = Some p -> t < length qss /\ p = client t (nth t qss []).
    Proof.
      unfold clients. intros E. rewrite nth_error_map in E. destruct (nth_error (combine (seq 0 (length qss)) qss) t) as [[u qs]|] eqn:C; [|discriminate]. injection E as <-.
      assert (L : t < length qss) by (assert (t < length (combine (seq 0 (length qss)) qss)) as L by (apply nth_error_Some; congruence); rewrite combine_length, seq_length in L; lia).
      split; auto. apply (nth_error_nth _ _ (0, [])) in C. rewrite combine_nth in C by apply seq_length. rewrite seq_nth in C by auto. injection C as <- <-. reflexivity.
    Qed.
    Lemma clients_length : length (clients qss) = length qss.
    Proof. unfold clients. rewrite map_length, combine_length, seq_length. lia. Qed.
    Lemma rinv_start P : rinv (start P (clients qss) (mkgm g a0)).
    Proof.
      split; cbn [start shared obj queue ws done ans].
      - reflexivity.
      - rewrite ids_start, clients_length. reflexivity.
      - intros t p I. apply in_combine_seq in I as [_ I]. rewrite Nat.sub_0_r in I. apply clients_nth in I as [L ->]. split; auto. unfold expected.
        apply reads_client. intros q Iq. apply (all_ready (nth t qss [])); auto. now apply nth_In.
      - intros i t p A. destruct (@nth_repeat_none gloc unit gmem P i) as [B|B]; rewrite B in A; discriminate.
      - intros t [].
    Qed.
    Lemma apart s : rinv s -> NoDup (ids s).
    Proof. intros I. eapply Permutation_NoDup; [symmetry; apply (r_ids _ I)|apply seq_NoDup]. Qed.
    Lemma rinv_step s s' : rinv s -> step s s' -> rinv s'.
    Proof.
      intros I St. pose proof (apart s I) as ND. pose proof (ids_step _ _ _ St) as Pid. pose proof (r_ids _ I) as Pi.
      destruct I as [Io _ Iq Ir Id].
      destruct St as [i t p q l d f s E|i t q l d f s E|i t m k q l d f s E F|i t m k q l d f s E F|i t X lc w R k x q l d f s s' E HR]; cbn [shared obj queue ws done] in *;
        (split; cbn [shared obj queue ws done]; [auto|etransitivity; [symmetry; exact Pid|exact Pi]| | |]).
      - intros u p' A. apply Iq. now right.
      - intros j u p' A. apply nth_set in A as [(-> & [= -> ->] & _)|(N & A)]; [|eapply Ir; eauto]. destruct (Iq t p (or_introl eq_refl)) as [A B]. exists [], (expected t). rewrite app_nil_r. auto.
      - exact Id.
      - exact Iq.
      - intros j u p A. apply nth_set in A as [(-> & [=] & _)|(N & A)]. eapply Ir; eauto.
      - intros u A. apply in_app_iff in A as [A|[<-|[]]]; auto. destruct (Ir i t _ E) as (dn & td & A & B & C). cbn [reads] in C. subst td. rewrite app_nil_r in B. now rewrite A, B.
      - destruct (Ir i t _ E) as (dn & td & _ & _ & []).
      - destruct (Ir i t _ E) as (dn & td & _ & _ & []).
      - destruct (Ir i t _ E) as (dn & td & _ & _ & []).
      - destruct (Ir i t _ E) as (dn & td & _ & _ & []).
      - destruct (Ir i t _ E) as (dn & td & _ & _ & []).
      - destruct (Ir i t _ E) as (dn & td & _ & _ & []).
      - destruct (Ir i t _ E) as (dn & td & A & B & C). cbn [reads] in C. destruct w.
        + destruct C as (_ & _ & a & rest & _ & C). destruct (C _ _ _ HR) as [C1 _]. unfold w_ans in C1. now rewrite C1.
        + destruct C as (_ & _ & C). destruct (C _ _ _ Io HR) as [-> _]. exact Io.
      - intros u p A. destruct (Ir i t _ E) as (dn & td & _ & _ & C). cbn [reads] in C. destruct w.
        + destruct C as (_ & _ & a & rest & _ & C). destruct (C _ _ _ HR) as [C1 _]. unfold w_ans in C1. rewrite C1. cbn [ans]. destruct (Nat.eqb_spec u t) as [->|N]; [|now apply Iq]. exfalso.
          unfold ids in ND. cbn [queue ws done] in ND. apply (nodup_app_notin _ _ t ND); [apply in_map_iff; exists (t, p); auto|]. apply in_or_app. left. apply running_in. exists (Op X lc true R k). eapply nth_error_In; eauto.
        + destruct C as (_ & _ & C). destruct (C _ _ _ Io HR) as [-> _]. now apply Iq.
      - intros j u p A. destruct (Ir i t _ E) as (dn & td & A1 & B1 & C). cbn [reads] in C. destruct w.
        + destruct C as (_ & _ & a & rest & Etd & C). destruct (C _ _ _ HR) as [C1 C2]. unfold w_ans in C1. rewrite C1. cbn [ans].
          apply nth_set in A as [(-> & [= -> ->] & _)|(N & A)].
          * rewrite Nat.eqb_refl. exists (dn ++ [a]), rest. rewrite A1, B1, Etd, <- !app_assoc. auto.
          * destruct (Nat.eqb_spec u t) as [->|N']; [|eapply Ir; eauto]. exfalso. apply N.
            unfold ids in ND. cbn [queue ws done] in ND. assert (NDr : NoDup (running l)) by (apply nodup_right in ND; now apply nodup_left in ND).
            eapply running_other; eauto.
        + destruct C as (_ & _ & C). destruct (C _ _ _ Io HR) as [-> C2]. apply nth_set in A as [(-> & [= -> ->] & _)|(N & A)]; [exists dn, td; auto|eapply Ir; eauto].
      - intros u A. destruct (Ir i t _ E) as (dn & td & _ & _ & C). cbn [reads] in C. destruct w.
        + destruct C as (_ & _ & a & rest & _ & C). destruct (C _ _ _ HR) as [C1 _]. unfold w_ans in C1. rewrite C1. cbn [ans]. destruct (Nat.eqb_spec u t) as [->|N]; [|now apply Id]. exfalso.
          unfold ids in ND. cbn [queue ws done] in ND. apply nodup_right in ND. apply (nodup_app_notin _ _ t ND); auto. apply running_in. exists (Op X lc true R k). eapply nth_error_In; eauto.
        + destruct C as (_ & _ & C). destruct (C _ _ _ Io HR) as [-> _]. now apply Id.
    Qed.
    Lemma rinv_steps s s' : steps s s' -> rinv s -> rinv s'.
    Proof. intros A. induction A as [|s s' s'' _ IH St]; auto. intros I. eapply rinv_step; [apply IH; exact I|exact St]. Qed.
    Lemma rinv_norace s l : rinv s -> ~ race s l.
    Proof.
      intros I (i & j & t & u & X & Y & wi & wj & Ri & Rj & ki & kj & N & A & B & Hw). pose proof (apart s I) as ND.
      assert (NDr : NoDup (running (ws s))) by (unfold ids in ND; apply nodup_right in ND; now apply nodup_left in ND).
      destruct (r_run _ I i t _ A) as (da & ta & _ & _ & Ca). destruct (r_run _ I j u _ B) as (db & tb & _ & _ & Cb). cbn [reads] in Ca, Cb.
      destruct wi, wj; try discriminate.
      - destruct Ca as [Ea _], Cb as [Eb _]. assert (t = u) as Etu by congruence. rewrite Etu in A. apply N. eapply running_other; eauto.
      - destruct Ca as [Ea _], Cb as [Eb _]. now apply Eb in Ea.
      - destruct Ca as [Ea _], Cb as [Eb _]. now apply Ea in Eb.
    Qed.
    Lemma rinv_progress s : rinv s -> ws s <> [] -> finished s \/ exists s', step s s'.
    Proof.
      intros I Nw. destruct s as [q l d f sh]. cbn [ws] in Nw.
      destruct (existsb (fun o => match o with Some _ => true | None => false end) l) eqn:Ex.
      - apply existsb_exists in Ex as ([[t p]|] & Io & Eo); [|discriminate]. apply In_nth_error in Io as [i Ei]. right.
        destruct (r_run _ I i t p Ei) as (dn & td & _ & _ & C). destruct p as [| |m k|m k|X lc w R k]; cbn [reads] in C; try contradiction.
        + eexists. eapply s_finish; eauto.
        + destruct w.
          * destruct C as (_ & C & _). destruct (C sh) as (x & s' & HR). eexists. eapply s_op; eauto.
          * destruct C as (_ & C & _). destruct (C sh) as (x & HR). eexists. eapply s_op; eauto.
      - assert (forall o, In o l -> o = None) as An.
        { intros [tp|] Io; auto. exfalso. assert (existsb (fun o => match o with Some _ => true | None => false end) l = true) by (apply existsb_exists; exists (Some tp); auto). congruence. }
        destruct q as [|[t p] q]; [left; split; auto|]. right. destruct l as [|o l]; [congruence|]. eexists. eapply (s_take _ 0). cbn. f_equal. apply An. now left.
    Qed.
    (** Queries whose matrices are in the object already: no data race, no change of the object, no deadlock, and the answers of one thread. *)
    Theorem ready_run P s : steps (start P (clients qss) (mkgm g a0)) s ->
      (forall l, ~ race s l) /\ obj (shared s) = g /\ (0 < P -> finished s \/ exists s', step s s') /\
      (finished s -> forall t, t < length qss -> ans (shared s) t = a0 t ++ map (fun q => snd (ask q g)) (nth t qss [])).
    Proof.
      intros St. pose proof (rinv_steps _ _ St (rinv_start P)) as I. split; [intros l; now apply rinv_norace|]. split; [apply (r_obj _ I)|]. split.
      - intros HP. apply rinv_progress; auto. apply ws_length_steps in St. cbn [start ws] in St. rewrite repeat_length in St. intros E. rewrite E in St. simpl in St. lia.
      - intros Fi t Ht. apply (r_done _ I). pose proof (finished_once _ _ _ _ _ St Fi) as Pd. rewrite clients_length in Pd.
        eapply Permutation_in; [symmetry; exact Pd|]. apply in_seq. lia.
    Qed.
  End Run.
End GraphThreads.
