(** * SFSpec: submodular functions on {0..n-1}, the base polytope, points of minimum norm.

    Mathematical vocabulary for the properties of IC/src/AIC.hpp; no code is modelled here. *)
From Coq Require Import Sorted.
From Verif Require Import Base Graph Spec SubThy MHC MAIC.

(** The value depends only on the elements below [n]. *)
Definition ground (n : nat) (F : nset -> Q) : Prop :=
  forall A B : nset, (forall i, (i < n)%nat -> A i = B i) -> F A == F B.

Definition submodular (F : nset -> Q) : Prop :=
  forall A B : nset, F (iunion A B) + F (iinter A B) <= F A + F B.

Definition none : nset := fun _ => false.
Definition every : nset := fun _ => true.

(** x(S), the sum of the coordinates in [S]. *)
Definition vsum (n : nat) (x : nat -> Q) (S : nset) : Q :=
  qsum (fun i => if S i then x i else 0) (seq 0 n).

(** The base polytope of [F - F(empty)]. *)
Definition in_base (n : nat) (F : nset -> Q) (x : nat -> Q) : Prop :=
  (forall S, vsum n x S <= F S - F none) /\ vsum n x every == F every - F none.

Definition dot (n : nat) (x y : nat -> Q) : Q := qsum (fun i => x i * y i) (seq 0 n).

Definition vec (l : list Q) : nat -> Q := fun i => nth i l 0.

(** The object [f] computes the set function [F] on duplicate-free arguments. *)
Definition computes (f : sf) (F : nset -> Q) : Prop :=
  forall B, NoDup B -> (forall b, In b B -> (b < sfn f)%nat) ->
    exists v, sfv f B = Ok v /\ v == F (mem B).

(** The same for non-empty arguments; AIC never asks for the value of the empty set. *)
Definition evaluates (f : sf) (F : nset -> Q) : Prop :=
  forall B, B <> [] -> NoDup B -> (forall b, In b B -> (b < sfn f)%nat) ->
    exists v, sfv f B = Ok v /\ v == F (mem B).

(** A point of minimum norm in the base polytope. *)
Definition min_norm (n : nat) (F : nset -> Q) (x : nat -> Q) : Prop :=
  in_base n F x /\ forall y, in_base n F y -> dot n x x <= dot n y y.

(** What IC::min_norm_base promises (IC/src/AIC.hpp:32-39), with exact arithmetic; only for normalised
    functions, see MWolfe for one element. *)
Definition MinNormSpec (mnb : sf -> res (list Q)) : Prop :=
  forall f F, (1 <= sfn f)%nat -> computes f F -> ground (sfn f) F -> submodular F -> F none == 0 ->
    exists x, mnb f = Ok x /\ length x = sfn f /\ min_norm (sfn f) F (vec x).

(** ** Graphs *)

(** Weight of the arcs with an end in [S]; weight of the arcs inside [S] not going from the smaller to
    the larger id. *)
Definition touch (E : graph) (S : nset) : Q := qsum (fun a => if S (asrc a) || S (adst a) then aw a else 0) E.
Definition ascending (a : arc) : bool := (asrc a <? adst a)%nat.
Definition doubled (E : graph) (S : nset) : Q :=
  qsum (fun a => if negb (ascending a) && (S (asrc a) && S (adst a)) then aw a else 0) E.
Definition entF (E : graph) (S : nset) : Q := touch E S + doubled E S.

(** What std::sort guarantees (IC/src/AIC.hpp:20): the indices, in an order of increasing weight. *)
Definition sorts (w : list Q) (o : list nat) : Prop :=
  Permutation o (seq 0 (length w)) /\ StronglySorted (fun i j => vec w i <= vec w j) o.

(** The states of an AIC object: built, then agglomerate() any number of times. *)
Inductive agg_reach (mnb : sf -> res (list Q)) (tol : Q) (f : sf) : hc -> Prop :=
| reach_new : agg_reach mnb tol f (hc_new (sfn f))
| reach_step st st' b : agg_reach mnb tol f st -> agglomerate mnb tol f st = Ok (st', b) ->
    agg_reach mnb tol f st'.
