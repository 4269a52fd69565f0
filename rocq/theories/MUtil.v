(** * MUtil: model of psp/digraph_utility.cpp. *)
From Verif Require Import Base Graph MSets MContract.

(** The node table of a lemon::ListDigraph (LEMON 1.3, list_graph.h): [nx] and [pv] link the live
    nodes, newest first; [alive v] is [valid(v)]; erased nodes are chained through [nx] from
    [free]. *)
Record ntab : Type := mkT {
  nx : nat -> option nat;
  pv : nat -> option nat;
  alive : nat -> bool;
  free : option nat
}.

(** [m] calls of addNode on an empty graph (psp/digraph_utility.cpp:6-7): ids 0..m-1. *)
Definition tab_new (m : nat) : ntab :=
  mkT (fun v => match v with O => None | S v' => Some v' end)
      (fun v => if (S v <? m)%nat then Some (S v) else None)
      (fun v => (v <? m)%nat) None.

Definition upd_opt (f : nat -> option nat) (k : option nat) (x : option nat) : nat -> option nat :=
  fun v => match k with Some k' => if (v =? k')%nat then x else f v | None => f v end.

(** ListDigraphBase::erase(Node): unlink, then push on the free list; [nx] is reused. *)
Definition tab_erase (T : ntab) (v : nat) : ntab :=
  mkT (upd_opt (upd_opt (nx T) (pv T v) (nx T v)) (Some v) (free T))
      (upd_opt (pv T) (nx T v) (pv T v))
      (fun u => if (u =? v)%nat then false else alive T u)
      (Some v).

(** The loop at psp/digraph_utility.cpp:8-11: [++n] reads the link of [n], which may just have been
    erased. *)
Fixpoint copy_scan (fuel : nat) (valid : nat -> bool) (cur : option nat) (T : ntab) : res ntab :=
  match cur with
  | None => Ok T
  | Some v =>
      match fuel with
      | O => OutOfFuel
      | S fuel' =>
          let T' := if valid v then T else tab_erase T v in
          copy_scan fuel' valid (nx T' v) T'
      end
  end.

(** ArcIt (psp/digraph_utility.cpp:12): nodes newest first, the out-arcs of each newest first. *)
Definition arc_order (G : gst) : list arc :=
  flat_map (fun v => filter (fun a => (asrc a =? v)%nat) (rev (garcs G))) (rev (gnodes G)).

(** digraph_copy (psp/digraph_utility.cpp:5-16) into an empty graph.  [m] is maxNodeId()+1: the
    number of ids ever handed out by the old graph, live or not.  The live ids in
    ascending order and the arcs in insertion order. *)
Definition digraph_copy (m : nat) (G : gst) : res gst :=
  do T <- copy_scan (S m) (mem (gnodes G)) (match m with O => None | S m' => Some m' end) (tab_new m);
  Ok (mkG (filter (alive T) (seq 0 m)) (arc_order G)).

(** capacity_map[v].first and .second after the loop at psp/digraph_utility.cpp:34-47.  Erasing the
    current arc does not disturb the ArcIt. *)
Definition out_cap (E : graph) (S : cset) (v : nat) : Q :=
  qsum (fun a => if mem S (asrc a) && negb (mem S (adst a)) && (adst a =? v)%nat then aw a else 0) E.
Definition in_cap (E : graph) (S : cset) (v : nat) : Q :=
  qsum (fun a => if negb (mem S (asrc a)) && mem S (adst a) && (asrc a =? v)%nat then aw a else 0) E.

(** Lines 56-65 for one entry of the map. *)
Definition dc_arc (eps : Q) (E : graph) (S : cset) (i v : nat) : graph :=
  if Qltb eps (out_cap E S v) then [mkArc i v (out_cap E S v)]
  else if Qltb eps (qabs (in_cap E S v)) then [mkArc v i (in_cap E S v)]
  else [].

(** digraph_contract (psp/digraph_utility.cpp:18-66).  An arc added at an id that is not alive
    is undefined. *)
Definition digraph_contract (eps : Q) (G : gst) (S : cset) (i : nat) : res gst :=
  if forallb (fun v => negb (mem S v) || (v =? i)%nat) (gnodes G) then Ok G
  else
    let new := flat_map (dc_arc eps (garcs G) S i) (filter (fun v => negb (mem S v)) (gnodes G)) in
    if mem (gnodes G) i || (length new =? 0)%nat then
      Ok (mkG (filter (fun v => (v =? i)%nat || negb (mem S v)) (gnodes G))
              (filter (untouched S i) (garcs G) ++ new))
    else UB.
