(** * MWarmR: the warm starts of PMF_R (psp/pmf_r.cpp:185-272, 314-406, 454-560).

    A flow map is a list of values parallel to the arc list of the network ([MWarm.flow]).  The
    elevators (node labels) handed to the workers are in MElev; their contents are internal to the max-flow
    solver.  ReverseDigraph shares the arcs of the graph, so a flow map of the reverse worker is a
    flow map of the graph. *)
From Verif Require Import Base Graph MSets MGraph MaxFlow MDil MDT MPMF MPMFR MWarm.

(** PMF_R::modify_flow(G, capMap, flowMap, newFlowMap) on one arc (psp/pmf_r.cpp:256-272): arcs into
    the sink and arcs out of the source are cut down to their capacity. *)
Definition clamp1 (a : narc) (x : Q) : Q :=
  match nsrc a, ndst a with
  | NSrc, _ | _, NSnk => if Qltb (ncap a) x then ncap a else x
  | _, _ => x
  end.
Definition clamp (N : network) (f : flow) : flow :=
  map (fun p => clamp1 (fst p) (snd p)) (combine N f).

(** The flow added up over the arcs satisfying [p] (psp/pmf_r.cpp:200-232). *)
Definition fsum (p : narc -> bool) (G : network) (f : flow) : Q :=
  qsum (fun q => if p (fst q) then snd q else 0) (combine G f).

(** tmp_map[u][v] (psp/pmf_r.cpp:227): the flow of the last arc from [u] to [v]. *)
Definition tmp_flow (p : narc -> bool) (G : network) (f : flow) : Q :=
  fold_left (fun r q => if p (fst q) then snd q else r) (combine G f) 0.

(** PMF_R::modify_flow(S, T, G, old_G, flowMap, newFlowMap) (psp/pmf_r.cpp:185-255): the flow on the
    arcs of the contracted network [C].  Line 243 leaves the arc from sink to source at 0. *)
Definition contract_flow (sid tid : nat) (S T : cset) (G : network) (f : flow) (C : network) : flow :=
  let id := nid sid tid in
  let inS := fun u => mem S (id u) in
  let inT := fun u => negb (mem S (id u)) && mem T (id u) in
  let inR := fun u => negb (mem S (id u)) && negb (mem T (id u)) in
  let st := fsum (fun a => inS (nsrc a) && mem T (id (ndst a))) G f -
            fsum (fun a => inT (nsrc a) && inS (ndst a)) G f in
  map (fun c =>
    let u := id (nsrc c) in
    let v := id (ndst c) in
    if mem S u then
      if mem T v then st
      else fsum (fun a => inS (nsrc a) && inR (ndst a) && (id (ndst a) =? v)%nat) G f
    else if mem T u then
      if mem S v then 0
      else fsum (fun a => inT (nsrc a) && inR (ndst a) && (id (ndst a) =? v)%nat) G f
    else
      if mem S v then fsum (fun a => inR (nsrc a) && inS (ndst a) && (id (nsrc a) =? u)%nat) G f
      else if mem T v then fsum (fun a => inR (nsrc a) && inT (ndst a) && (id (nsrc a) =? u)%nat) G f
      else tmp_flow (fun a => inR (nsrc a) && inR (ndst a) && (id (nsrc a) =? u)%nat && (id (ndst a) =? v)%nat) G f) C.

(** A maximum flow of value [v]: what flowMap() returns after both phases. *)
Definition flow_ok (nodes : list nat) (N : network) (f : flow) (v : Q) : Prop :=
  length f = length N /\
  (forall a x, In (a, x) (combine N f) -> 0 <= x /\ x <= ncap a) /\
  (forall u, In u nodes -> excess N f (NV u) == 0) /\
  excess N f NSnk == v.

(** The contract of the left worker (lemon::Preflow::init(flowMap), startFirstPhase,
    startSecondPhase, minCut; psp/pmf_r.cpp:326-351): started from a preflow it finds a minimum cut
    with inclusion-minimal sink side and a maximum flow. *)
Definition WarmLSpec (ws : wsolver) : Prop :=
  forall nodes N f, net_ok nodes N -> preflow nodes N f ->
    let r := fst (ws nodes N f) in
    incl (snd r) nodes /\ fst r == cut N (mem (snd r)) /\ (forall Y, fst r <= cut N Y) /\
    (forall Y, cut N Y == fst r -> forall x, In x (snd r) -> Y x = true) /\
    flow_ok nodes N (snd (ws nodes N f)) (fst r).

(** The contract of the reverse worker (psp/pmf_r.cpp:373-400): the same with inclusion-minimal
    source side. *)
Definition WarmRSpec (ws : wsolver) : Prop :=
  forall nodes N f, net_ok nodes N -> preflow nodes N f ->
    let r := fst (ws nodes N f) in
    incl (snd r) nodes /\ fst r == cut N (mem (snd r)) /\ (forall Y, fst r <= cut N Y) /\
    (forall Y, cut N Y == fst r -> forall x, In x nodes -> Y x = true -> In x (snd r)) /\
    flow_ok nodes N (snd (ws nodes N f)) (fst r).

(** [worker_cut] from the results of the two workers. *)
Definition pick_cut (rL rR : Q * list nat) (useL : bool) (j : nat) (nodes : list nat) : Q * cset :=
  if useL then (fst rL, cadd j (cset_of (filter (mem (snd rL)) nodes)))
  else (fst rR, cadd j (cset_of (filter (fun x => negb (mem (snd rR) x)) nodes))).

(** The shape of the check init(flowMap) makes of a start flow, its result being isValid (psp/pmf_r.cpp:337-340, 383-386). *)
Definition check := list nat -> network -> flow -> bool.

(** PMF_R::slice with the flow maps (psp/pmf_r.cpp:408-571).  [Throw] when a worker rejects its
    flow map: the check of [isValid] is compiled in with _DEBUG (lines 337-340, 383-386); without it
    the solver is run in a state its documentation excludes.  [chk] is the check: [init_ok]. *)
Fixpoint pmfrw_slice (chk : check) (fuel : nat) (wsL wsR : wsolver) (sch : list bool -> bool) (path : list bool)
         (eps : Q) (E : graph) (j : nat) (y : list (Q * dbl))
         (nodes : list nat) (G : network) (base : nat -> Q * Q) (fl fr : flow)
         (Tl Tr : cset) (l1 l3 : Q) (is_contract : bool)
  : res (list dbl * list cset * network) :=
  match fuel with
  | O => OutOfFuel
  | S fuel' =>
      let target := get_cut_value E Tl - get_cut_value E Tr in
      let ps := map (yat y) (filter (fun i => mem Tl i && negb (mem Tr i)) (seq 0 (S j))) in
      do r <- compute_lambda eps ps target;
      match r with
      | None => Ok ([NaN], [], G)
      | Some l =>
          let l2 := Qred l in
          if negb (tol_different eps l2 l1) || negb (tol_different eps l2 l3)
          then Ok ([Fin l2], [], G)
          else if Qltb l2 l1 || Qltb l3 l2 then Throw
          else
            let Sc := ccompl Tl (S (S j)) in
            do c <- (if is_contract then contract eps (S j) j (S (S j)) Sc Tr G
                     else Ok (nodes, G));
            let nodes' := fst c in
            let base' := if is_contract then new_base E Sc Tr else base in
            let fl' := if is_contract then contract_flow (S j) j Sc Tr G fl (snd c) else fl in
            let fr' := if is_contract then contract_flow (S j) j Sc Tr G fr (snd c) else fr in
            let G' := upd y base' l2 (snd c) in
            let original := net_cut_value G' Tr in
            let useL := sch path in
            let wl := clamp G' fl' in
            let wr := clamp G' fr' in
            if chk nodes' G' wl && chk nodes' (rnet G') wr then
              let rL := wsL nodes' G' wl in
              let rR := wsR nodes' (rnet G') wr in
              let fT := pick_cut (fst rL) (fst rR) useL j nodes' in
              let fm := if useL then snd rL else snd rR in
              let T' := cunion (snd fT) Tr in
              if negb (ceqb T' Tr) && negb (ceqb T' Tl) && Qltb (fst fT) (original - 10 * eps)
              then
                do a <- pmfrw_slice chk fuel' wsL wsR sch (true :: path) eps E j y nodes' G' base' fl' fm
                                    Tl T' l1 l2 useL;
                do b <- pmfrw_slice chk fuel' wsL wsR sch (false :: path) eps E j y nodes' (snd a) base' fm fr'
                                    T' Tr l2 l3 (negb useL);
                Ok (fst (fst a) ++ fst (fst b), T' :: snd (fst a) ++ snd (fst b),
                    if is_contract then G else snd b)
              else Ok ([Fin l2], [], if is_contract then G else G')
            else Throw
      end
  end.

(** PMF_R::run for stage [j] with the flow maps (psp/pmf_r.cpp:96-177): both solvers are started
    with init() at the ends of the range of lambda. *)
Definition pmfrw_run_chk (chk : check) (wsL wsR : wsolver) (sch : list bool -> bool) (eps : Q) (E : graph) (n j : nat)
           (y : list (Q * dbl)) : res (list dbl * list cset) :=
  if (j <? n)%nat then
    let base := fun i => (0, sink_capacity E j i) in
    let G1 := upd y base init_lambda (dig_net eps E j) in
    let r0 := wsL (seq 0 j) G1 (init_flow G1) in
    let T0 := snd (pick_cut (fst r0) (fst r0) true j (seq 0 j)) in
    let l3 := lam3 E n j y in
    let G2 := upd y base l3 G1 in
    let r3 := wsR (seq 0 j) (rnet G2) (init_flow (rnet G2)) in
    do r <- pmfrw_slice chk (S n) wsL wsR sch [] eps E j y (seq 0 j) G2 base (snd r0) (snd r3)
                        T0 [j] init_lambda l3 false;
    Ok (isort dltb (fst (fst r)), isort superset (T0 :: [j] :: snd (fst r)))
  else Throw.

(** The run of the code: isValid is the result of init(flowMap) (psp/pmf_r.cpp:337-340, 383-386). *)
Definition pmfrw_run := pmfrw_run_chk init_ok.

(** PDT_R::run with the flow maps (psp/pmf_r.cpp:697-771). *)
Definition pdtrw_run_chk (chk : check) (wsL wsR : wsolver) (sch : nat -> list bool -> bool) (eps : Q)
           (E : graph) (n : nat) : res (list dbl * list cpart) :=
  do r <- pdt_loop (fun j y => pmfrw_run_chk chk wsL wsR (sch j) eps E n j y) E n []; Ok (snd r).

(** The run of the code (psp/pmf_r.cpp:697-771). *)
Definition pdtrw_run := pdtrw_run_chk init_ok.
