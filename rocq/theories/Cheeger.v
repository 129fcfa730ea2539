(** Model of stag::cheeger_cut. *)
From Verif Require Import Base Num Sparse Graph Cluster Spectrum.

Section Cheeger.
  Context {W : Type} `{Num W}.

  (** Eigen sparseView() of a column: entries equal to zero are not stored. *)
  Definition sparse_view (x : list W) : sprs W :=
    mkSprs (length x) [filter (fun p => negb (weqb (snd p) w0)) (combine (seq 0 (length x)) x)].

  (** repo: cluster.cpp:77-82: the eigenvector of the larger of the two values, the second one in case of a tie. *)
  Definition second_vector (es : esystem (W := W)) : outcome (list W) :=
    match es with
    | p :: q :: _ => Ok (if wltb (fst q) (fst p) then snd p else snd q)
    | _ => UB                                    (* coeff(1) of a shorter vector *)
    end.

  (** repo: cluster.cpp:84-87: entry i of the vector becomes sqrt(1 / degree(i)) * entry i. *)
  Fixpoint scale_loop (g : graph W) (vs : list nat) (vec : sprs W) : graph W * outcome (sprs W) :=
    match vs with
    | [] => (g, Ok vec)
    | i :: r =>
      match degree g (Z.of_nat i) with
      | (g, Ok d) => scale_loop g r (vset vec i (wmul (wsqrt (wdiv w1 d)) (vget vec i)))
      | (g, Throw e) => (g, Throw e)
      | (g, UB) => (g, UB)
      end
    end.

  (** repo: cluster.cpp:92: clusters.at(i) = 1. *)
  Fixpoint mark (cut : list nat) (clusters : list Z) : outcome (list Z) :=
    match cut with
    | [] => Ok clusters
    | i :: r => if i <? length clusters then mark r (upd_nth clusters i (fun _ => 1%Z)) else Throw OutOfRange
    end.

  (** repo: cluster.cpp:67-94 cheeger_cut. *)
  Definition cheeger_cut (solver : eigen_solver (W := W)) (g : graph W) : graph W * outcome (list Z) :=
    match compute_eigensystem solver g MatNormalisedLaplacian 2 Smallest with
    | (g, Ok es) =>
      match second_vector es with
      | Ok x =>
        match scale_loop g (seq 0 (number_of_vertices g)) (sparse_view x) with
        | (g, Ok vec) =>
          (fst (total_volume g),
           do cut <- sweep_set_graph g vec;
           mark cut (repeat 0%Z (number_of_vertices g)))
        | (g, Throw e) => (g, Throw e)
        | (g, UB) => (g, UB)
        end
      | Throw e => (g, Throw e)
      | UB => (g, UB)
      end
    | (g, Throw e) => (g, Throw e)
    | (g, UB) => (g, UB)
    end.
End Cheeger.
