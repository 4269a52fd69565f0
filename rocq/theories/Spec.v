(** * Spec: what the library promises, stated without reference to any algorithm.

    Objective: docs/source/index.rst; a partition P of the nodes, the total
    weight of the arcs between different parts, and the penalty lambda per part. *)
From Verif Require Export Graph.

(** [P] partitions the node list [vs]: no empty part, every node in exactly one part. *)
Definition is_partition (vs : list nat) (P : list (list nat)) : Prop :=
  Permutation (concat P) vs /\ ~ In [] P.

(** Two nodes share a part. *)
Definition same_part (P : list (list nat)) (u v : nat) : bool :=
  existsb (fun B => mem B u && mem B v) P.

(** Total weight of the arcs whose ends share no part. *)
Definition crossing (E : graph) (P : list (list nat)) : Q :=
  qsum (fun a => if same_part P (asrc a) (adst a) then 0 else aw a) E.

(** The objective [h_lambda(P)]. *)
Definition hval (E : graph) (lam : Q) (P : list (list nat)) : Q :=
  crossing E P - lam * qn (length P).

(** [P] minimises the objective over all partitions of [vs]. *)
Definition optimal (E : graph) (vs : list nat) (lam : Q) (P : list (list nat)) : Prop :=
  is_partition vs P /\
  forall R, is_partition vs R -> hval E lam P <= hval E lam R.

(** Every part of [P] lies inside a part of [R]. *)
Definition refines (P R : list (list nat)) : Prop :=
  forall B, In B P -> exists C, In C R /\ incl B C.

(** Same parts, irrespective of how they are listed. *)
Definition same_partition (P R : list (list nat)) : Prop := refines P R /\ refines R P.

Definition singletons (vs : list nat) : list (list nat) := map (fun v => [v]) vs.

(** All arcs join nodes of [vs], with non-negative weight. *)
Definition graph_on (vs : list nat) (E : graph) : Prop :=
  forall a, In a E -> In (asrc a) vs /\ In (adst a) vs /\ 0 <= aw a.

(** No two arcs join the same ordered pair of nodes. *)
Definition simple (E : graph) : Prop :=
  NoDup (map (fun a => (asrc a, adst a)) E).

(** Every arc goes from a smaller to a larger node id (so there are no self loops). *)
Definition forward (E : graph) : Prop :=
  forall a, In a E -> (asrc a < adst a)%nat.

(** [P] is within [delta] of the minimum. *)
Definition near_optimal (E : graph) (vs : list nat) (delta lam : Q) (P : list (list nat)) : Prop :=
  is_partition vs P /\
  forall R, is_partition vs R -> hval E lam P <= hval E lam R + delta.

(** A sequence of critical values [lams] and partitions [P, Ps] starting at the lower bound [lo]:
    neighbouring critical values are related by [rel], every partition strictly
    refines the one before, and each partition is [good] for every lambda between its
    neighbouring critical values (unbounded at both ends). *)
Fixpoint seq_chain (rel : Q -> Q -> Prop) (good : Q -> list (list nat) -> Prop) (lo : option Q)
         (P : list (list nat)) (lams : list Q) (Ps : list (list (list nat))) : Prop :=
  match lams, Ps with
  | [], [] =>
      forall lam, (match lo with None => True | Some l => l <= lam end) -> good lam P
  | l :: lams', P' :: Ps' =>
      (match lo with None => True | Some l0 => rel l0 l end) /\
      (forall lam, (match lo with None => True | Some l0 => l0 <= lam end) ->
                   lam <= l -> good lam P) /\
      refines P' P /\ (length P < length P')%nat /\
      seq_chain rel good (Some l) P' lams' Ps'
  | _, _ => False
  end.

(** A full sequence goes from the single block to the singletons. *)
Definition full_sequence (rel : Q -> Q -> Prop) (good : Q -> list (list nat) -> Prop)
           (vs : list nat) (lams : list Q) (Ps : list (list (list nat))) : Prop :=
  match Ps with
  | [] => False
  | P0 :: Ps' =>
      same_partition P0 [vs] /\
      same_partition (last Ps P0) (singletons vs) /\
      seq_chain rel good None P0 lams Ps'
  end.

(** The principal sequence of partitions: strictly increasing critical values and exactly optimal
    partitions in between. *)
Definition IsPSP (E : graph) (vs : list nat) : list Q -> list (list (list nat)) -> Prop :=
  full_sequence Qlt (optimal E vs) vs.

(** The same with repeated critical values allowed. *)
Definition IsWeakPSP (E : graph) (vs : list nat) : list Q -> list (list (list nat)) -> Prop :=
  full_sequence Qle (optimal E vs) vs.

(** The same with partitions that are optimal up to [delta]. *)
Definition IsNearPSP (E : graph) (vs : list nat) (delta : Q)
  : list Q -> list (list (list nat)) -> Prop :=
  full_sequence Qle (near_optimal E vs delta) vs.

(** All weights are integer multiples of 1/D. *)
Definition multiples_of (D : positive) (E : graph) : Prop :=
  forall a, In a E -> exists z : Z, aw a == z # D.

(** Every critical value is the slope between its two neighbouring partitions. *)
Inductive slopes (E : graph) : list Q -> list (list (list nat)) -> Prop :=
| slopes_one P : slopes E [] [P]
| slopes_cons c cs P P' Ps :
    c * (qn (length P') - qn (length P)) == crossing E P' - crossing E P ->
    slopes E cs (P' :: Ps) -> slopes E (c :: cs) (P :: P' :: Ps).

(** The tolerance is too small to confuse two different values of the objective at a slope of a
    graph whose weights are multiples of 1/D:  D * (n-1) * eps < 1. *)
Definition fine_tol (D : positive) (n : nat) (eps : Q) : Prop :=
  eps * (Zpos D # 1) * (qn n - 1) < 1.

(** Total weight of the arcs entering a node set. *)
Definition entering (E : graph) (S : list nat) : Q :=
  qsum aw (filter (fun a => negb (mem S (asrc a)) && mem S (adst a)) E).
