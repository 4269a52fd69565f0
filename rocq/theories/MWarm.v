(** * MWarm: the warm starts of the parametric solver (psp/pmf.cpp:131-138, 150-161, 216-236).

    A flow map is a list of values parallel to the arc list of the network.  [pmf_net] leaves out arcs
    leaving the sink (they exist only in graphs that are not forward). *)
From Verif Require Import Base Graph MSets MGraph MaxFlow MDil MDT MPMF.

Definition flow := list Q.

Definition nnode_eqb (u v : nnode) : bool :=
  match u, v with
  | NSrc, NSrc | NSnk, NSnk => true
  | NV a, NV b => (a =? b)%nat
  | _, _ => false
  end.

(** PMF::modify_flow (psp/pmf.cpp:150-161) on one arc: [a] carries the new capacity, [x] the old
    flow.  Arcs out of the source are filled, arcs into the sink are cut down. *)
Definition modify1 (a : narc) (x : Q) : Q :=
  let x1 := match nsrc a with NSrc => ncap a | _ => x end in
  match ndst a with NSnk => if Qltb (ncap a) x then ncap a else x1 | _ => x1 end.
Definition modify_flow (N : network) (f : flow) : flow :=
  map (fun p => modify1 (fst p) (snd p)) (combine N f).

(** Inflow minus outflow. *)
Definition excess (N : network) (f : flow) (u : nnode) : Q :=
  qsum (fun p => (if nnode_eqb (ndst (fst p)) u then snd p else 0) -
                 (if nnode_eqb (nsrc (fst p)) u then snd p else 0)) (combine N f).

(** The test of lemon::Preflow::init(flowMap), whose answer is [isValid] (psp/pmf.cpp:219): no node
    but the source has negative excess. *)
Definition init_ok (nodes : list nat) (N : network) (f : flow) : bool :=
  forallb (fun u => negb (Qltb (excess N f u) 0)) (NSnk :: map NV nodes).

(** A preflow: within the capacities, no deficit outside of the source. *)
Definition preflow (nodes : list nat) (N : network) (f : flow) : Prop :=
  length f = length N /\
  (forall a x, In (a, x) (combine N f) -> 0 <= x /\ x <= ncap a) /\
  (forall u, u = NSnk \/ (exists v, In v nodes /\ u = NV v) -> 0 <= excess N f u).

(** Every arc out of the source is full; the solver pushes no further flow out of the source. *)
Definition started (N : network) (f : flow) : Prop :=
  forall a x, In (a, x) (combine N f) -> nsrc a = NSrc -> ndst a <> NSrc -> x == ncap a.

(** Preflow::init() without a flow map (psp/pmf.cpp:128): source arcs full, the rest empty. *)
Definition init_flow (N : network) : flow :=
  map (fun a => match nsrc a, ndst a with NSrc, NSrc => 0 | NSrc, _ => ncap a | _, _ => 0 end) N.

(** The solver started from a flow: value, sink side and flowMap(). *)
Definition wsolver := list nat -> network -> flow -> (Q * list nat) * flow.

(** Its contract, for valid preflows with full source arcs only: a minimum cut with inclusion-minimal sink side, and again
    a preflow (in fact a maximum flow). *)
Definition WarmSpec (ws : wsolver) : Prop :=
  forall nodes N f, net_ok nodes N -> preflow nodes N f -> started N f ->
    incl (snd (fst (ws nodes N f))) nodes /\
    fst (fst (ws nodes N f)) == cut N (mem (snd (fst (ws nodes N f)))) /\
    (forall Y, fst (fst (ws nodes N f)) <= cut N Y) /\
    (forall Y, cut N Y == fst (fst (ws nodes N f)) ->
       forall x, In x (snd (fst (ws nodes N f))) -> Y x = true) /\
    preflow nodes N (snd (ws nodes N f)).

(** The same solver started with init(). *)
Definition cold (ws : wsolver) : solver := fun nodes N => fst (ws nodes N (init_flow N)).

(** PMF::slice with the flow maps (psp/pmf.cpp:182-242); the check of [isValid] is compiled in only
    with _DEBUG (lines 220-223); it is [Throw] here. *)
Fixpoint pmfw_slice (fuel : nat) (ws : wsolver) (eps : Q) (E : graph) (n j : nat)
         (y : list (Q * dbl)) (Tl Tr : cset) (fm : flow) (l1 : Q) (l3 : dbl)
  : res (list dbl * list cset) :=
  match fuel with
  | O => OutOfFuel
  | S fuel' =>
      let target := get_cut_value E Tl - get_cut_value E Tr in
      let ps := map (yat y) (filter (fun i => mem Tl i && negb (mem Tr i)) (seq 0 (n - 1))) in
      do r <- compute_lambda eps ps target;
      match r with
      | None => Ok ([NaN], [])
      | Some l =>
          let l2 := Qred l in
          if negb (tol_different eps l2 l1) || negb (dbl_different eps l2 l3)
          then Ok ([Fin l2], [])
          else if Qltb l2 l1 || dltb l3 (Fin l2) then Throw
          else
            let N := pmf_net eps E j y l2 in
            let original := cut N (mem Tr) in
            let fm' := modify_flow N fm in
            if init_ok (seq 0 j) N fm' then
              let fX := fst (ws (seq 0 j) N fm') in
              let T' := cadd j (cset_of (filter (mem (snd fX)) (seq 0 j))) in
              if negb (ceqb T' Tr) && negb (ceqb T' Tl) && Qltb (fst fX) (original - 10 * eps)
              then
                do a <- pmfw_slice fuel' ws eps E n j y Tl T' fm l1 (Fin l2);
                do b <- pmfw_slice fuel' ws eps E n j y T' Tr fm' l2 l3;
                Ok (fst a ++ fst b, T' :: snd a ++ snd b)
              else Ok ([Fin l2], [])
            else Throw
      end
  end.

(** PMF::run with the flow maps (psp/pmf.cpp:89-141). *)
Definition pmfw_run (ws : wsolver) (eps : Q) (E : graph) (n j : nat) (y : list (Q * dbl))
  : res (list dbl * list cset) :=
  if (j <? n)%nat then
    let N := pmf_net eps E j y init_lambda in
    let r := ws (seq 0 j) N (init_flow N) in
    let T0 := cadd j (cset_of (filter (mem (snd (fst r))) (seq 0 j))) in
    do r <- pmfw_slice (S n) ws eps E n j y T0 [j] (snd r) init_lambda PInf;
    Ok (isort dltb (fst r), isort superset (T0 :: [j] :: snd r))
  else Throw.

(** PDT::run with the flow maps (psp/pmf.cpp:268-343). *)
Definition pdtw_run (ws : wsolver) (eps : Q) (E : graph) (n : nat) : res (list dbl * list cpart) :=
  do r <- pdt_loop (pmfw_run ws eps E n) E n []; Ok (snd r).

(** A brute-force instance of the contract: the cut by enumeration; as flow it returns the initial
    preflow again. *)
Definition bf_wsolver : wsolver := fun nodes N f => (bf_mincut nodes N, f).
