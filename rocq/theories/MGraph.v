(** * MGraph: model of psp/graph.h. *)
From Verif Require Import Base Graph MSets.

(** make_dgraph (psp/graph.h:25-41).  [eps] is Tolerance::epsilon; [positive cap] is [eps < cap].
    nodeFromId of an id that was never added (line 38) makes addArc index out of bounds: UB.
    The node ids are 0..n-1 (lines 29-31); only the arc list is returned.
    The C++ [int m = arcs.size()] narrowing is not modelled. *)
Fixpoint make_dgraph (eps : Q) (n : nat) (arcs : list (nat * nat * Q)) : res graph :=
  match arcs with
  | [] => Ok []
  | (src, dst, cap) :: t =>
      if negb (Qltb eps cap) then make_dgraph eps n t
      else if (src <? n)%nat && (dst <? n)%nat then
        do g <- make_dgraph eps n t; Ok (mkArc src dst cap :: g)
      else UB
  end.

(** get_cut_value (psp/graph.h:45-55): weight of the arcs entering [S].  The accumulation order of
    the C++ loop is irrelevant over the rationals. *)
Definition get_cut_value (E : graph) (S : cset) : Q :=
  qsum (fun a => if negb (mem S (asrc a)) && mem S (adst a) then aw a else 0) E.

(** get_partition_value (psp/graph.h:57-63). *)
Definition get_partition_value (E : graph) (P : cpart) : Q :=
  qsum (fun S => get_cut_value E S) P.
