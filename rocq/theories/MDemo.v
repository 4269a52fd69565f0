(** * MDemo: the point clouds of test/gaussian2Dcase.cpp. *)
From Coq Require Import Reals.
From Verif Require Import Base Graph MSets MGraph.
Open Scope Q_scope.

(** data_1 (test/gaussian2Dcase.h:27). *)
Definition centres : list (Q * Q) := [(3, 3); (3, -(3)); (-(3), -(3)); (-(3), 3)].

(** x_pos and y_pos after the first part of the constructor (test/gaussian2Dcase.cpp:6-23), as pairs.  [noise] gives
    the pairs drawn from the normal distribution in order; [a = None] is the null pointer.  Reading
    [a] beyond its end is UB.  [np] is a natural number (the int of the source is not negative). *)
Definition g2d_points (np : nat) (a : option (list (Q * Q))) (noise : nat -> Q * Q) : res (list (Q * Q)) :=
  match a with
  | None =>
      Ok (flat_map (fun j => map (fun i => let z := noise (j * (np / 4) + i)%nat in let c := nth j centres (0, 0) in
                                           (fst z + fst c, snd z + snd c)) (seq 0 (np / 4))) (seq 0 4))
  | Some l => if (np <=? length l)%nat then Ok (firstn np l) else UB
  end.

(** The two loops (test/gaussian2Dcase.cpp:24-29).  [sim] is compute_similarity on doubles.  [x_pos[j]] beyond the end
    of the vector is UB; the last index read is np - 1. *)
Definition g2d_edges (sim : Q * Q -> Q * Q -> Q) (eps : Q) (np : nat) (pts : list (Q * Q)) : res (list (nat * nat * Q)) :=
  if (2 <=? np)%nat && (length pts <? np)%nat then UB
  else Ok (flat_map (fun i => flat_map (fun j =>
             let s := sim (nth i pts (0, 0)) (nth j pts (0, 0)) in
             if Qltb eps s then [(i, j, s)] else []) (seq (i + 1) (np - (i + 1)))) (seq 0 np)).

(** Gaussian2DGraphBase(np, gamma, a) and get_edge_list_tuple (test/gaussian2Dcase.cpp:3-32). *)
Definition g2d_base (sim : Q * Q -> Q * Q -> Q) (eps : Q) (np : nat) (a : option (list (Q * Q))) (noise : nat -> Q * Q)
  : res (list (nat * nat * Q)) :=
  do pts <- g2d_points np a noise; g2d_edges sim eps np pts.

(** compute_similarity (test/gaussian2Dcase.cpp:34-36) over the real numbers. *)
Definition similarity (gamma : R) (p q : R * R) : R :=
  exp (-1 * gamma * (fst p - fst q) ^ 2 - gamma * (snd p - snd q) ^ 2)%R.
