(** * MContract: in-place contraction of a ListDigraph (psp/psp_i.cpp:220-259, psp/hpsp.cpp:137-176).

    PSP_I::contract and HPSP::contract have the same text; both are modelled by [contract]. *)
From Verif Require Import Base Graph MSets.

(** State of the caller's ListDigraph and ArcMap: the ids of the nodes that are
    alive (ascending) and the arcs in insertion order.  Both classes keep pointers to it
    (psp/psp_i.h:48-49, psp/hpsp.h:28-29). *)
Record gst : Type := mkG { gnodes : list nat; garcs : graph }.

(** [capacity_map[v]] after the loop over all arcs (psp/psp_i.cpp:222-234, psp/hpsp.cpp:139-151).
    Erasing the current arc (lines 235-237) does not disturb the ArcIt. *)
Definition cap_of (E : graph) (S : cset) (v : nat) : Q :=
  qsum (fun a => if mem S (asrc a) && negb (mem S (adst a)) && (adst a =? v)%nat then aw a
                 else if negb (mem S (asrc a)) && mem S (adst a) && (asrc a =? v)%nat then aw a
                 else 0) E.

(** std::abs. *)
Definition qabs (x : Q) : Q := if Qltb x 0 then - x else x.

(** The arcs left after the erasures: no arc at [i] (psp/psp_i.cpp:235-237) and no
    arc at a node of S\{i} (lines 240-244; erasing a node erases its arcs). *)
Definition untouched (S : cset) (i : nat) (a : arc) : bool :=
  negb ((asrc a =? i)%nat || (adst a =? i)%nat) && negb (mem S (asrc a) || mem S (adst a)).

(** The arcs added at lines 247-258 (psp/hpsp.cpp:164-175), smaller end first; [Qred] only
    normalises the representation. *)
Definition new_arcs (eps : Q) (E : graph) (S : cset) (i : nat) (vs : list nat) : graph :=
  flat_map (fun v =>
    let c := cap_of E S v in
    if mem S v || Qltb (qabs c) eps then []
    else if (i <? v)%nat then [mkArc i v (Qred (qabs c))] else [mkArc v i (Qred (qabs c))]) vs.

(** contract(S, i) (psp/psp_i.cpp:220-259, psp/hpsp.cpp:137-176). *)
Definition contract (eps : Q) (G : gst) (S : cset) (i : nat) : gst :=
  mkG (filter (fun v => (v =? i)%nat || negb (mem S v)) (gnodes G))
      (filter (untouched S i) (garcs G) ++ new_arcs eps (garcs G) S i (gnodes G)).

(** The filtered graph of split (psp/psp_i.cpp:158-167, psp/hpsp.cpp:93-97): enabled nodes in the
    order of [enabled_nodes] (ascending, psp/psp_i.cpp:69-71) and arcs between them. *)
Definition enabled (G : gst) (reps : list nat) : list nat := filter (mem reps) (gnodes G).
Definition sub_arcs (G : gst) (reps : list nat) : graph :=
  filter (fun a => mem reps (asrc a) && mem reps (adst a)) (garcs G).

(** Left fold of a partial function over a list. *)
Fixpoint foldm {A B} (f : B -> A -> res B) (l : list A) (b : B) : res B :=
  match l with
  | [] => Ok b
  | x :: t => do b' <- f b x; foldm f t b'
  end.
