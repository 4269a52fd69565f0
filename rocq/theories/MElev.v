(** * MElev: the memory PMF_R works with (psp/pmf_r.cpp:96-177, 314-406, 408-571).

    [MPMFR.pmfr_slice] with the objects the code creates: what slice and the workers allocate with
    new and hand to each other, and the flow maps on the stack that are passed on by reference.  An
    object is a number; the elevators (the node labels of a max-flow solver) remember the graph they
    were made for.  The contents of flow maps and elevators are left out ([MWarmR] has the flows).
    Preflow::elevator() and the class InterruptibleThread are in missing submodules: elevator() hands
    the elevator of the solver over to the caller, who deletes it (psp/pmf_r.cpp:169-173, 344, 393). *)
From Verif Require Import Base Graph MSets MGraph MaxFlow MDil MDT MPMF MPMFR.

(** What a block holds: graph, capacities, update_base, flow map made with new, flow map on the
    stack, reversed graph, thread, elevator. *)
Inductive kind := KDig | KCap | KBase | KFlow | KStack | KRev | KThread | KEle.

(** A live block: its address, and the address of the graph it was made for. *)
Record block := mkBlk { baddr : nat; bkind : kind; bgraph : nat }.

(** The heap: next fresh address; the live blocks, newest first; the addresses that were used or
    deleted without being live; for every start of a worker with an elevator the graph of the
    elevator and the graph of the worker. *)
Record heap := mkHeap { hnext : nat; hlive : list block; hbad : list nat; hstarts : list (nat * nat) }.

Definition live (h : heap) (p : nat) : bool := existsb (fun b => (baddr b =? p)%nat) (hlive h).
Definition bad (p : nat) (h : heap) : heap := mkHeap (hnext h) (hlive h) (p :: hbad h) (hstarts h).

(** Reading or writing the object at [p]. *)
Definition use (p : nat) (h : heap) : heap := if live h p then h else bad p h.
Fixpoint uses (ps : list nat) (h : heap) : heap :=
  match ps with [] => h | p :: t => uses t (use p h) end.

(** new, or the declaration of a local object. *)
Definition alloc (k : kind) (g : nat) (h : heap) : nat * heap :=
  (hnext h, mkHeap (S (hnext h)) (mkBlk (hnext h) k g :: hlive h) (hbad h) (hstarts h)).

(** delete, or the end of the life of a local object. *)
Definition del (p : nat) (h : heap) : heap :=
  if live h p
  then mkHeap (hnext h) (filter (fun b => negb (baddr b =? p)%nat) (hlive h)) (hbad h) (hstarts h)
  else bad p h.
Fixpoint dels (ps : list nat) (h : heap) : heap :=
  match ps with [] => h | p :: t => dels t (del p h) end.
(** if (p) delete p; *)
Definition del_opt (p : option nat) (h : heap) : heap := match p with Some q => del q h | None => h end.

(** The graph the object at [p] was made for: for an elevator a graph or a reversed graph, for a
    reversed graph the graph itself, for a graph 0. *)
Definition graph_of (p : nat) (h : heap) : nat :=
  match find (fun b => (baddr b =? p)%nat) (hlive h) with Some b => bgraph b | None => 0%nat end.
Definition base_graph (p : nat) (h : heap) : nat :=
  if (graph_of p h =? 0)%nat then p else graph_of p h.
Definition start (g w : nat) (h : heap) : heap := mkHeap (hnext h) (hlive h) (hbad h) ((g, w) :: hstarts h).

(** How a worker ends (psp/pmf_r.cpp:324-357): it finishes, is interrupted, or leaves an exception
    behind; in the last two cases [b] tells if ele_out had been set before (lines 334, 344). *)
Inductive wend := WDone | WStop (b : bool) | WFail (b : bool).
Definition wset (o : wend) : bool := match o with WDone => true | WStop b | WFail b => b end.
Definition wdone (o : wend) : bool := match o with WDone => true | _ => false end.
Definition wfail (o : wend) : bool := match o with WFail _ => true | _ => false end.

(** executePreflow and executePreflow_reverse (psp/pmf_r.cpp:314-357, 358-403): the worker reads and
    writes the objects [ps]; its solver runs on the graph or reversed graph [g].  It copies the
    elevator it is given, which reads the graph of that elevator and the graph below a reversed one,
    or it hands over the elevator its solver made for [g]. *)
Definition work (o : wend) (g : nat) (ps : list nat) (ele : option nat) (h : heap) : option nat * heap :=
  let h1 := uses ps h in
  match ele with
  | Some e =>
      let ge := graph_of e h1 in
      let h2 := uses [e; ge; base_graph ge h1] h1 in
      if wset o then
        let r := alloc KEle ge h2 in
        (Some (fst r), start (base_graph ge h1) (base_graph g h1) (snd r))
      else (None, h2)
  | None =>
      if wset o then let r := alloc KEle g h1 in (Some (fst r), snd r) else (None, h1)
  end.

(** The objects one call of slice works with: newDig, newArcMap, new_update_base, leftArcMap_inner,
    rightArcMap_inner (psp/pmf_r.cpp:444-450). *)
Record objs := mkObjs { odig : nat; ocap : nat; obase : nat; ofl : nat; ofr : nat }.
Definition olist (o : objs) : list nat := [odig o; ocap o; obase o; ofl o; ofr o].

(** psp/pmf_r.cpp:451-473: new objects for the contracted graph, made from those of the caller, or
    the objects of the caller. *)
Definition prepare (is_contract : bool) (o : objs) (h : heap) : objs * heap :=
  if is_contract then
    let d := alloc KDig 0 h in
    let c := alloc KCap (fst d) (snd d) in
    let h2 := uses [odig o; ocap o; fst d; fst c] (snd c) in
    let b := alloc KBase 0 h2 in
    let l := alloc KFlow (fst d) (snd b) in
    let h4 := uses [ofl o] (snd l) in
    let r := alloc KFlow (fst d) h4 in
    let h5 := uses [ofr o] (snd r) in
    (mkObjs (fst d) (fst c) (fst b) (fst l) (fst r), h5)
  else (o, h).

(** The objects of a call once both workers have returned: those of [prepare], reverse_newDig, the two
    stack flow maps newFlowLeftMap and newFlowRightMap, the two threads, TAP_Left.ele_out and
    TAP_Right.ele_reverse_out (psp/pmf_r.cpp:477-491). *)
Record crew := mkCrew { kobjs : objs; krev : nat; knl : nat; knr : nat; ktl : nat; ktr : nat;
                        kel : option nat; ker : option nat }.

(** psp/pmf_r.cpp:451-514: from the contraction to the two joins. *)
Definition launch (is_contract : bool) (ends : wend * wend) (o : objs) (left_inner right_inner : option nat)
           (h : heap) : crew * heap :=
  let p := prepare is_contract o h in
  let o' := fst p in
  let h1 := uses [odig o'; ocap o'; obase o'] (snd p) in
  let rv := alloc KRev (odig o') h1 in
  let nl := alloc KStack (odig o') (snd rv) in
  let nr := alloc KStack (odig o') (snd nl) in
  let tl := alloc KThread 0 (snd nr) in
  let tr := alloc KThread 0 (snd tl) in
  let wl := work (fst ends) (odig o') [odig o'; ocap o'; ofl o'; fst nl] left_inner (snd tr) in
  let wr := work (snd ends) (fst rv) [odig o'; ocap o'; ofr o'; fst rv; fst nr] right_inner (snd wl) in
  (mkCrew o' (fst rv) (fst nl) (fst nr) (fst tl) (fst tr) (fst wl) (fst wr), uses [fst tl; fst tr] (snd wr)).

(** psp/pmf_r.cpp:555-568: what slice deletes at its end. *)
Definition house_keeping (is_contract : bool) (o : objs) (el er : option nat) (rev : nat) (h : heap) : heap :=
  let h1 := del rev (del_opt er (del_opt el h)) in
  if is_contract then dels [obase o; ofl o; ofr o; ocap o; odig o] h1 else h1.

(** PMF_R::slice (psp/pmf_r.cpp:408-571, without the _DEBUG block).  The code is [inn = false]: lines
    549 and 550 pass left_ele and right_ele on.  [inn = true] is a variant of the code that passes
    left_inner and right_inner instead.  [sch path] tells how the two
    workers of the call at this position of the recursion tree end.  The two stack flow maps
    newFlowLeftMap and newFlowRightMap (line 478) die when the call is left, also by an exception. *)
Fixpoint pmfrh_slice (inn : bool) (fuel : nat) (mc mr : solver) (sch : list bool -> wend * wend) (path : list bool)
         (eps : Q) (E : graph) (j : nat) (y : list (Q * dbl))
         (nodes : list nat) (G : network) (base : nat -> Q * Q)
         (Tl Tr : cset) (l1 l3 : Q) (is_contract : bool)
         (o : objs) (left_ele right_ele : option nat) (h : heap)
  : heap * res (list dbl * list cset * network) :=
  match fuel with
  | O => (h, OutOfFuel)
  | S fuel' =>
      let target := get_cut_value E Tl - get_cut_value E Tr in
      let ps := map (yat y) (filter (fun i => mem Tl i && negb (mem Tr i)) (seq 0 (S j))) in
      match compute_lambda eps ps target with
      | UB => (h, UB)
      | Throw => (h, Throw)
      | OutOfFuel => (h, OutOfFuel)
      | Ok None => (h, Ok ([NaN], [], G))
      | Ok (Some l) =>
          let l2 := Qred l in
          if negb (tol_different eps l2 l1) || negb (tol_different eps l2 l3)
          then (h, Ok ([Fin l2], [], G))
          else if Qltb l2 l1 || Qltb l3 l2 then (h, Throw)
          else
            let Sc := ccompl Tl (S (S j)) in
            match (if is_contract then contract eps (S j) j (S (S j)) Sc Tr G else Ok (nodes, G)) with
            | UB => (h, UB)
            | Throw => (h, Throw)
            | OutOfFuel => (h, OutOfFuel)
            | Ok c =>
                let nodes' := fst c in
                let base' := if is_contract then new_base E Sc Tr else base in
                let G' := upd y base' l2 (snd c) in
                let original := net_cut_value G' Tr in
                let left_inner := if is_contract then None else left_ele in
                let right_inner := if is_contract then None else right_ele in
                let k := launch is_contract (sch path) o left_inner right_inner h in
                let w := fst k in
                let o' := kobjs w in
                if wfail (fst (sch path)) || wfail (snd (sch path))
                then (dels [knr w; knl w] (snd k), Throw)
                else
                  let h3 := dels [ktl w; ktr w] (snd k) in
                  let useL := wdone (fst (sch path)) in
                  let fT := if useL || wdone (snd (sch path)) then worker_cut mc mr useL j nodes' G'
                            else (-(1), []) in
                  let newFlowMap := if useL then knl w else knr w in
                  let T' := cunion (snd fT) Tr in
                  let finish := fun h =>
                    dels [knr w; knl w] (house_keeping is_contract o' (kel w) (ker w) (krev w) h) in
                  if negb (ceqb T' Tr) && negb (ceqb T' Tl) && Qltb (fst fT) (original - 10 * eps)
                  then
                    let a := pmfrh_slice inn fuel' mc mr sch (true :: path) eps E j y nodes' G' base' Tl T' l1 l2 useL
                               (mkObjs (odig o') (ocap o') (obase o') (ofl o') newFlowMap)
                               (if inn then left_inner else left_ele) (ker w) h3 in
                    match snd a with
                    | UB => (fst a, UB)
                    | OutOfFuel => (fst a, OutOfFuel)
                    | Throw => (dels [knr w; knl w] (fst a), Throw)
                    | Ok ra =>
                        let b := pmfrh_slice inn fuel' mc mr sch (false :: path) eps E j y nodes' (snd ra) base' T' Tr
                                   l2 l3 (negb useL)
                                   (mkObjs (odig o') (ocap o') (obase o') newFlowMap (ofr o'))
                                   (kel w) (if inn then right_inner else right_ele) (fst a) in
                        match snd b with
                        | UB => (fst b, UB)
                        | OutOfFuel => (fst b, OutOfFuel)
                        | Throw => (dels [knr w; knl w] (fst b), Throw)
                        | Ok rb =>
                            (finish (fst b),
                             Ok (fst (fst ra) ++ fst (fst rb), T' :: snd (fst ra) ++ snd (fst rb),
                                 if is_contract then G else snd rb))
                        end
                    end
                  else (finish h3, Ok ([Fin l2], [], if is_contract then G else G'))
            end
      end
  end.

(** PMF_R::run for stage [j] (psp/pmf_r.cpp:96-177).  [d] holds dig, dig_aM and sink_capacity, the
    members of the object (psp/pmf_r.h:82-106).  leftFlowMap, reverse_newDig and rightFlowMap are
    local (lines 146, 162, 167); the elevators of lines 169-170 are deleted in lines 172-173. *)
Definition pmfrh_run (inn : bool) (mc mr : solver) (sch : list bool -> wend * wend) (eps : Q) (E : graph) (n j : nat)
           (d : nat * nat * nat) (y : list (Q * dbl)) (h : heap) : heap * res (list dbl * list cset) :=
  let '(dig, cap, base) := d in
  if (j <? n)%nat then
    let bs := fun i => (0, sink_capacity E j i) in
    let G1 := upd y bs init_lambda (dig_net eps E j) in
    let T0 := snd (worker_cut mc mr true j (seq 0 j) G1) in
    let l3 := lam3 E n j y in
    let G2 := upd y bs l3 G1 in
    let h1 := uses [dig; cap; base] h in
    let fl := alloc KStack dig h1 in
    let rv := alloc KStack dig (uses [dig; cap; base] (snd fl)) in
    let fr := alloc KStack dig (snd rv) in
    let el := alloc KEle dig (snd fr) in
    let er := alloc KEle (fst rv) (snd el) in
    let r := pmfrh_slice inn (S n) mc mr sch [] eps E j y (seq 0 j) G2 bs T0 [j] init_lambda l3 false
                         (mkObjs dig cap base (fst fl) (fst fr)) (Some (fst el)) (Some (fst er)) (snd er) in
    match snd r with
    | UB => (fst r, UB)
    | OutOfFuel => (fst r, OutOfFuel)
    | Throw => (dels [fst fr; fst rv; fst fl] (fst r), Throw)
    | Ok x => (dels [fst fr; fst rv; fst fl] (dels [fst el; fst er] (fst r)),
               Ok (isort dltb (fst (fst x)), isort superset (T0 :: [j] :: snd (fst x))))
    end
  else (h, Throw).

(** The stages of PDT_R::run (psp/pmf_r.cpp:712-770). *)
Fixpoint pdtrh_steps (inn : bool) (mc mr : solver) (sch : nat -> list bool -> wend * wend) (eps : Q)
         (E : graph) (n : nat) (d : nat * nat * nat) (js : list nat) (st : list (Q * dbl) * list (dbl * cpart)) (h : heap)
  : heap * res (list (Q * dbl) * list (dbl * cpart)) :=
  match js with
  | [] => (h, Ok st)
  | j :: t =>
      let r := pmfrh_run inn mc mr (sch j) eps E n j d (fst st) h in
      match pdt_step (fun _ _ => snd r) E n st j with
      | Ok st' => pdtrh_steps inn mc mr sch eps E n d t st' (fst r)
      | e => (fst r, e)
      end
  end.

(** The heap when PDT_R::run starts: dig, dig_aM and sink_capacity are at the addresses 1, 2, 3. *)
Definition members : nat * nat * nat := (1, 2, 3)%nat.
Definition heap0 : heap := mkHeap 4 [mkBlk 3 KBase 0; mkBlk 2 KCap 1; mkBlk 1 KDig 0] [] [].

(** PDT_R::run on a new object (psp/pmf_r.cpp:697-771). *)
Definition pdtrh_run (inn : bool) (mc mr : solver) (sch : nat -> list bool -> wend * wend) (eps : Q)
           (E : graph) (n : nat) : heap * res (list dbl * list cpart) :=
  if (n =? 0)%nat then (heap0, UB)
  else
    let r := pdtrh_steps inn mc mr sch eps E n members (seq 1 (n - 1))
                         (repeat (0, PInf) n, [(PInf, [[0%nat]])]) heap0 in
    (fst r, do st <- snd r; Ok (removelast (map fst (snd st)), map snd (snd st))).
