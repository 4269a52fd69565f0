(** * Graph: weighted digraphs as arc lists, and the weight of a node set.

    A [lemon::ListDigraph] with an [ArcMap<double>] is modelled by the list of its arcs in
    insertion order (psp/graph.h:24-41 builds it that way); node sets are boolean
    functions on node ids.  Weights are exact rationals instead of doubles. *)
From Verif Require Export Base.

(** One arc with its capacity (psp/graph.h:38-39: [addArc] and [arc_map[a] = cap]). *)
Record arc : Type := mkArc { asrc : nat; adst : nat; aw : Q }.

Definition graph := list arc.

(** A node set as a characteristic function. *)
Definition nset := nat -> bool.
