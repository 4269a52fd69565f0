(** * MDil: model of the two DilworthTruncation classes (psp/dt.cpp:5-93, psp/psp_i.cpp:9-97). *)
From Verif Require Import Base Graph MSets MGraph MaxFlow.

Definition qmax (a b : Q) : Q := if Qltb a b then b else a.

(** [sink_node_cost_map[i]] when the stage node is [j] (psp/dt.cpp:46-51, psp/psp_i.cpp:18-22).
    The loop assigns (does not add) and InArcIt visits the newest arc first, so the arc that
    was added first decides; 0 if there is none. *)
Fixpoint sink_cost (E : graph) (j i : nat) : Q :=
  match E with
  | [] => 0
  | a :: t => if (asrc a =? i)%nat && (adst a =? j)%nat then aw a else sink_cost t j i
  end.

(** The arcs between nodes enabled before the stage node (the subgraph after
    [disable], psp/dt.cpp:52, psp/psp_i.cpp:29). *)
Definition inner_arcs (E : graph) (nodes : list nat) : network :=
  map (fun a => mkNarc (NV (asrc a)) (NV (adst a)) (aw a))
      (filter (fun a => mem nodes (asrc a) && mem nodes (adst a)) E).

(** Source and sink arcs of one node (psp/dt.cpp:58-70, psp/psp_i.cpp:37-48). *)
Definition st_arcs (E : graph) (j : nat) (p : nat * Q) : network :=
  let (i, x) := p in
  (if Qltb x 0 then [mkNarc NSrc (NV i) (- x)] else []) ++
  (let sc := qmax 0 x + sink_cost E j i in
   if Qltb 0 sc then [mkNarc (NV i) NSnk sc] else []).

Definition dil_network (E : graph) (xs : list (nat * Q)) (j : nat) : network :=
  inner_arcs E (map fst xs) ++ flat_map (st_arcs E j) xs.

(** minimize (psp/dt.cpp:34-88, psp/psp_i.cpp:9-64): [xs] pairs the nodes handled so far with [xl].
    Returns the new [min_value] and [Tl]. *)
Definition dil_minimize (mc : solver) (lam : Q) (E : graph) (xs : list (nat * Q)) (j : nat)
  : Q * cset :=
  let nodes := map fst xs in
  let fX := mc nodes (dil_network E xs j) in
  (fst fX - (lam + qsum (fun p => qmax 0 (snd p)) xs),
   cset_of (filter (mem (snd fX)) nodes)).

(** The loop of run (psp/psp_i.cpp:86-92, psp/dt.cpp:21-27). *)
Fixpoint dil_loop (mc : solver) (lam : Q) (E : graph)
         (todo : list nat) (xs : list (nat * Q)) (P : cpart)
  : list (nat * Q) * cpart :=
  match todo with
  | [] => (xs, P)
  | v :: t =>
      let aT := dil_minimize mc lam E xs v in
      dil_loop mc lam E t (xs ++ [(v, Qred (fst aT))]) (pexpand P (cadd v (snd aT)))
  end.

(** psp::DilworthTruncation::run on a filtered graph with enabled nodes [vs]
    (psp/psp_i.cpp:66-97): (min_value, min_partition).  [E] holds the arcs of the
    filtered graph.  [Qred] only normalises the representation of a rational. *)
Definition dil_run (mc : solver) (lam : Q) (E : graph) (vs : list nat) : Q * cpart :=
  let r := dil_loop mc lam E vs [] [] in (qsum snd (fst r), snd r).

(** submodular::DilworthTruncation::run (psp/dt.cpp:17-32) on nodes 0..n-1.  Unlike the psp_i
    version its [sink_node_cost_map] is a vector of size j indexed by the source id
    (lines 46-51), so a self loop writes past the end: UB. *)
Definition dt_dil_run (mc : solver) (lam : Q) (E : graph) (n : nat) : res (Q * cpart) :=
  if existsb (fun a => (asrc a =? adst a)%nat && (adst a <? n)%nat) E then UB
  else Ok (dil_run mc lam E (seq 0 n)).

(** DilworthTruncation::evaluate (psp/dt.cpp:90-93). *)
Definition dil_evaluate (lam : Q) (E : graph) (P : cpart) : Q :=
  get_partition_value E P - lam * qn (length P).
