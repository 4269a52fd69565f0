(** * MHost: what dt does to the caller's graph.

    submodular::DilworthTruncation works on the caller's graph: every stage adds a source and a
    sink with their arcs, runs the solver, and erases both nodes again (psp/dt.cpp:34-88).
    Here the graph is threaded through every call. *)
From Verif Require Import Base Graph MSets MGraph MaxFlow MDil MDT MContract.

(** ListDigraph::addNode: an id not in use.  (LEMON may reuse an erased id; only freshness
    matters.) *)
Definition fresh (G : gst) : nat := S (list_max (gnodes G)).
Definition add_node (G : gst) : gst := mkG (gnodes G ++ [fresh G]) (garcs G).

(** ListDigraph::addArc and the assignment to the arc map. *)
Definition add_arc (G : gst) (a : arc) : gst := mkG (gnodes G) (garcs G ++ [a]).

(** ListDigraph::erase(Node): also erases the incident arcs. *)
Definition erase_node (G : gst) (v : nat) : gst :=
  mkG (filter (fun u => negb (u =? v)%nat) (gnodes G))
      (filter (fun a => negb (asrc a =? v)%nat && negb (adst a =? v)%nat) (garcs G)).

(** The arcs added at psp/dt.cpp:58-70, with the ids of the two new nodes. *)
Definition host_id (s t : nat) (u : nnode) : nat :=
  match u with NSrc => s | NSnk => t | NV v => v end.
Definition host_arcs (s t : nat) (N : network) : list arc :=
  map (fun a => mkArc (host_id s t (nsrc a)) (host_id s t (ndst a)) (ncap a)) N.

(** DilworthTruncation::minimize (psp/dt.cpp:34-88) with its effect on the graph. *)
Definition host_minimize (mc : solver) (lam : Q) (G : gst) (xs : list (nat * Q)) (j : nat)
  : gst * (Q * cset) :=
  let E := garcs G in
  let s := fresh G in
  let G1 := add_node G in
  let t := fresh G1 in
  let G2 := add_node G1 in
  let G3 := fold_left add_arc (host_arcs s t (flat_map (st_arcs E j) xs)) G2 in
  let r := dil_minimize mc lam E xs j in
  (erase_node (erase_node G3 s) t, r).

Fixpoint host_loop (mc : solver) (lam : Q) (G : gst) (todo : list nat) (xs : list (nat * Q)) (P : cpart)
  : gst * (list (nat * Q) * cpart) :=
  match todo with
  | [] => (G, (xs, P))
  | v :: t =>
      let r := host_minimize mc lam G xs v in
      let aT := snd r in
      host_loop mc lam (fst r) t (xs ++ [(v, Qred (fst aT))]) (pexpand P (cadd v (snd aT)))
  end.

(** DilworthTruncation::run (psp/dt.cpp:17-32). *)
Definition host_dil_run (mc : solver) (lam : Q) (G : gst) (n : nat) : res (gst * (Q * cpart)) :=
  if existsb (fun a => (asrc a =? adst a)%nat && (adst a <? n)%nat) (garcs G) then UB
  else let r := host_loop mc lam G (seq 0 n) [] [] in
       Ok (fst r, (qsum snd (fst (snd r)), snd (snd r))).

(** DT::split(Q, P) (psp/dt.cpp:128-143) threading the graph. *)
Fixpoint host_split (fuel : nat) (mc : solver) (eps : Q) (G : gst) (n : nat) (Qp P : cpart)
  : res (gst * (list dbl * list cpart)) :=
  match fuel with
  | O => OutOfFuel
  | S fuel' =>
      if (length P =? length Qp)%nat then Ok (G, ([NaN], []))
      else
        let gamma := dt_gamma (garcs G) Qp P in
        let h := dt_h (garcs G) Qp P in
        do r <- host_dil_run mc gamma G n;
        let G1 := fst r in
        let min_value := fst (snd r) in
        let P' := snd (snd r) in
        if Qltb (h - eps) min_value || (length Qp =? length P')%nat || (length P =? length P')%nat
        then Ok (G1, ([Fin gamma], []))
        else
          do l <- host_split fuel' mc eps G1 n Qp P';
          do r <- host_split fuel' mc eps (fst l) n P' P;
          Ok (fst r, (fst (snd l) ++ fst (snd r), P' :: snd (snd l) ++ snd (snd r)))
  end.

(** DT::run() (psp/dt.cpp:153-165): the graph afterwards and the two result lists. *)
Definition host_dt_run (mc : solver) (eps : Q) (G : gst) : res (gst * (list dbl * list cpart)) :=
  let n := length (gnodes G) in
  let Qp := [cdense n] in
  let P := pfine n in
  do r <- host_split (S n) mc eps G n Qp P;
  Ok (fst r, (isort dltb (fst (snd r)), isort card_ltb (Qp :: P :: snd (snd r)))).

(** The caller runs dt [k+1] times on the same graph; all results. *)
Fixpoint host_dt_runs (k : nat) (mc : solver) (eps : Q) (G : gst)
  : res (gst * list (list dbl * list cpart)) :=
  do r <- host_dt_run mc eps G;
  match k with
  | O => Ok (fst r, [snd r])
  | S k' => do rs <- host_dt_runs k' mc eps (fst r); Ok (fst rs, snd r :: snd rs)
  end.
