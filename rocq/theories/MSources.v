(** * MSources: the entropy functions of IC/src/hypergraph.hpp and SF::mutual_info (IC/src/Core.hpp:61-88).

    Doubles are rationals, an Eigen matrix is the list of its rows. *)
From Verif Require Import Base MAIC.

(** Eigen's maxCoeff, asserting on an empty column (IC/src/hypergraph.hpp:27). *)
Definition vmax (x : list Q) : res Q :=
  match x with
  | [] => UB
  | a :: t => Ok (fold_left (fun m b => if Qltb m b then b else m) t a)
  end.

(** The loop of HypergraphEntropy::h (IC/src/hypergraph.hpp:26-28) over the remaining columns. *)
Fixpoint hyp_cols (rows : list (list Q)) (cs : list nat) (ent : Q) : res Q :=
  match cs with
  | [] => Ok ent
  | c :: t => do m <- vmax (map (fun r => nth c r 0) rows); hyp_cols rows t (ent + m)
  end.

(** HypergraphEntropy (IC/src/hypergraph.hpp:6-51): Incidence has [k] columns; h (23-30), operator()
    (37-44), size() (46-48).  A row outside the matrix is undefined behaviour (line 41). *)
Definition hyp_sf (k : nat) (M : list (list Q)) : sf :=
  mkSF (length M)
    (fun B => if forallb (fun b => b <? length M)%nat B
              then hyp_cols (map (fun b => nth b M []) B) (seq 0 k) 0
              else UB).

(** SF::mutual_info(B, C) (IC/src/Core.hpp:69-76). *)
Definition mutual_info (f : sf) (B C : list nat) : res Q :=
  do b <- sfv f B; do c <- sfv f C; do u <- sfv f (B ++ C); Ok (b + c - u).

(** SF::mutual_info(i, j) (IC/src/Core.hpp:84-87). *)
Definition mutual_info2 (f : sf) (i j : nat) : res Q :=
  do b <- sfv f [i]; do c <- sfv f [j]; do u <- sfv f [i; j]; Ok (b + c - u).
