(** * MPMFR: model of PMF_R and PDT_R (psp/pmf_r.cpp, psp/pmf_r.h).

    PMF_R is PMF with two concurrent max-flow workers per step and with graph contraction.  The
    networks are lists of arcs (LEMON's iteration order is left open; no result below depends on
    it).  The warm-start flows and the elevators handed to the workers are not modelled here (see MWarmR, MElev): the
    workers are oracles returning a minimum cut.  compute_lambda (psp/pmf_r.cpp:12-64) is textually
    the one of psp/pmf.cpp. *)
From Verif Require Import Base Graph MSets MGraph MaxFlow MDil MDT MPMF.

(** Ids of the nodes of [dig]: [sid], [tid] are source_node_id and sink_node_id
    (psp/pmf_r.cpp:114-117). *)
Definition nid (sid tid : nat) (u : nnode) : nat :=
  match u with NSrc => sid | NSnk => tid | NV v => v end.

(** lemon::ReverseDigraph with source and sink exchanged (psp/pmf_r.cpp:162-163, 373). *)
Definition rnode (u : nnode) : nnode :=
  match u with NSrc => NSnk | NSnk => NSrc | NV v => NV v end.
Definition rnet (N : network) : network :=
  map (fun a => mkNarc (rnode (ndst a)) (rnode (nsrc a)) (ncap a)) N.

(** The contract of the reverse worker ([minCutSource] after startSecondPhase(true),
    psp/pmf_r.cpp:79-86, 389-400): a minimum cut with inclusion-minimal source side. *)
Definition MinSrcCutSpec (mr : solver) : Prop :=
  MinCutSpec mr /\
  forall nodes N, net_ok nodes N ->
    forall Y, cut N Y == fst (mr nodes N) ->
    forall x, In x nodes -> Y x = true -> In x (snd (mr nodes N)).

(** A solver with this contract, from one with inclusion-minimal sink sides. *)
Definition rev_solver (mc : solver) : solver := fun nodes N =>
  let r := mc nodes (rnet N) in (fst r, filter (fun x => negb (mem (snd r) x)) nodes).

(** update_dig for one arc (psp/pmf_r.cpp:273-293); [base] is update_base. *)
Definition upd_arc (y : list (Q * dbl)) (base : nat -> Q * Q) (lam : Q) (a : narc) : narc :=
  match nsrc a, ndst a with
  | NSrc, NV i => let c := ycap (yat y i) lam in
                  mkNarc NSrc (NV i) ((if Qltb c 0 then - c else 0) + fst (base i))
  | NV i, NSnk => mkNarc (NV i) NSnk (snd (base i) + qmax 0 (ycap (yat y i) lam))
  | _, _ => a
  end.
Definition upd (y : list (Q * dbl)) (base : nat -> Q * Q) (lam : Q) (G : network) : network :=
  map (upd_arc y base lam) G.

(** The capacities added up at psp/pmf_r.cpp:605-644 over the arcs satisfying [p]; arcs below the
    tolerance are skipped (lines 614-615). *)
Definition csum (eps : Q) (p : narc -> bool) (G : network) : Q :=
  qsum (fun a => if negb (Qltb (ncap a) eps) && p a then ncap a else 0) G.

(** The ids erased from the new graph (psp/pmf_r.cpp:594-603). *)
Definition erased (sid tid : nat) (S T : cset) : list nat :=
  filter (fun i => negb (i =? sid)%nat) S ++ filter (fun i => negb (i =? tid)%nat) T.

Fixpoint nodupb (l : list nat) : bool :=
  match l with [] => true | x :: t => negb (mem t x) && nodupb t end.

(** The nodes left besides source and sink (psp/pmf_r.cpp:650-652). *)
Definition kept (sid tid size : nat) (S T : cset) : list nat :=
  filter (fun i => negb (i =? tid)%nat && negb (i =? sid)%nat && negb (mem (erased sid tid S T) i))
         (seq 0 size).

(** PMF_R::contract (psp/pmf_r.cpp:578-663): the nodes kept and the new network.  [UB]: a node
    erased twice or never added, or an arc attached to an erased source or sink. *)
Definition contract (eps : Q) (sid tid size : nat) (S T : cset) (G : network)
  : res (list nat * network) :=
  let id := nid sid tid in
  let inS := fun u => mem S (id u) in
  let inT := fun u => negb (mem S (id u)) && mem T (id u) in
  let inR := fun u => negb (mem S (id u)) && negb (mem T (id u)) in
  let er := erased sid tid S T in
  if nodupb er && forallb (fun i => (i <? size)%nat) er && negb (mem er sid) && negb (mem er tid)
     && (sid <? size)%nat && (tid <? size)%nat
  then
    let ks := kept sid tid size S T in
    let arcs := fun i =>
      let s1 := csum eps (fun a => inS (nsrc a) && inR (ndst a) && (id (ndst a) =? i)%nat) G in
      let s2 := csum eps (fun a => inR (nsrc a) && inS (ndst a) && (id (nsrc a) =? i)%nat) G in
      let t1 := csum eps (fun a => inR (nsrc a) && inT (ndst a) && (id (nsrc a) =? i)%nat) G in
      let t2 := csum eps (fun a => inT (nsrc a) && inR (ndst a) && (id (ndst a) =? i)%nat) G in
      [mkNarc NSrc (NV i) s1] ++ (if Qltb eps s2 then [mkNarc (NV i) NSrc s2] else []) ++
      [mkNarc (NV i) NSnk t1] ++ (if Qltb eps t2 then [mkNarc NSnk (NV i) t2] else []) in
    Ok (ks,
        filter (fun a => negb (Qltb (ncap a) eps) && inR (nsrc a) && inR (ndst a)) G ++
        [mkNarc NSrc NSnk (csum eps (fun a => inS (nsrc a) && mem T (id (ndst a))) G);
         mkNarc NSnk NSrc (csum eps (fun a => inT (nsrc a) && inS (ndst a)) G)] ++
        flat_map arcs ks)
  else UB.

(** construct_new_update_base (psp/pmf_r.cpp:294-312): weights in the input graph, whose node ids
    are compared with the ids of [dig] in [S] and [T]. *)
Definition new_base (E : graph) (S T : cset) (i : nat) : Q * Q :=
  (qsum (fun a => if (adst a =? i)%nat && mem S (asrc a) then aw a else 0) E,
   qsum (fun a => if (asrc a =? i)%nat && mem T (adst a) then aw a else 0) E).

(** CSet::Complement(size) (psp/pmf_r.cpp:445). *)
Definition ccompl (T : cset) (size : nat) : cset := filter (fun i => negb (mem T i)) (seq 0 size).

(** The result of the workers used by slice (psp/pmf_r.cpp:523-545): flow value and sink side.
    [useL]: the left worker was not interrupted, so its set is not empty.  The sink [j] is on
    the sink side. *)
Definition worker_cut (mc mr : solver) (useL : bool) (j : nat) (nodes : list nat) (G : network)
  : Q * cset :=
  if useL then
    let r := mc nodes G in (fst r, cadd j (cset_of (filter (mem (snd r)) nodes)))
  else
    let r := mr nodes (rnet G) in
    (fst r, cadd j (cset_of (filter (fun x => negb (mem (snd r) x)) nodes))).

(** get_cut_value on the network (psp/pmf_r.cpp:481, psp/graph.h:45-55); the sink is node [j]. *)
Definition net_cut_value (G : network) (T : cset) : Q := cut G (mem T).

(** PMF_R::slice (psp/pmf_r.cpp:408-571, without the _DEBUG block): the lambdas and sets pushed and
    the capacities of the graph passed in, which a call without contraction overwrites.
    [sch path] tells which worker's result the call at this position of the
    recursion tree uses; it stands for the race of the two threads. *)
Fixpoint pmfr_slice (fuel : nat) (mc mr : solver) (sch : list bool -> bool) (path : list bool)
         (eps : Q) (E : graph) (j : nat) (y : list (Q * dbl))
         (nodes : list nat) (G : network) (base : nat -> Q * Q)
         (Tl Tr : cset) (l1 l3 : Q) (is_contract : bool)
  : res (list dbl * list cset * network) :=
  match fuel with
  | O => OutOfFuel
  | S fuel' =>
      let target := get_cut_value E Tl - get_cut_value E Tr in
      let ps := map (yat y) (filter (fun i => mem Tl i && negb (mem Tr i)) (seq 0 (S j))) in
      do r <- compute_lambda eps ps target;
      match r with
      | None => Ok ([NaN], [], G)
      | Some l =>
          let l2 := Qred l in
          if negb (tol_different eps l2 l1) || negb (tol_different eps l2 l3)
          then Ok ([Fin l2], [], G)
          else if Qltb l2 l1 || Qltb l3 l2 then Throw
          else
            let Sc := ccompl Tl (S (S j)) in
            do c <- (if is_contract then contract eps (S j) j (S (S j)) Sc Tr G
                     else Ok (nodes, G));
            let nodes' := fst c in
            let base' := if is_contract then new_base E Sc Tr else base in
            let G' := upd y base' l2 (snd c) in
            let original := net_cut_value G' Tr in
            let useL := sch path in
            let fT := worker_cut mc mr useL j nodes' G' in
            let T' := cunion (snd fT) Tr in
            if negb (ceqb T' Tr) && negb (ceqb T' Tl) && Qltb (fst fT) (original - 10 * eps)
            then
              do a <- pmfr_slice fuel' mc mr sch (true :: path) eps E j y nodes' G' base'
                                 Tl T' l1 l2 useL;
              do b <- pmfr_slice fuel' mc mr sch (false :: path) eps E j y nodes' (snd a) base'
                                 T' Tr l2 l3 (negb useL);
              Ok (fst (fst a) ++ fst (fst b), T' :: snd (fst a) ++ snd (fst b),
                  if is_contract then G else snd b)
            else Ok ([Fin l2], [], if is_contract then G else G')
      end
  end.

(** sink_capacity[i].second (psp/pmf_r.cpp:98-108): only nodes up to [j] are enabled. *)
Definition sink_capacity (E : graph) (j i : nat) : Q :=
  if (i <=? j)%nat then sink_cost E j i else 0.

(** The copied graph [dig] (psp/pmf_r.cpp:110-130); source and sink arcs still have capacity 0.
    Self loops at [j] are left out. *)
Definition dig_net (eps : Q) (E : graph) (j : nat) : network :=
  inner_arcs E (seq 0 j) ++
  map (fun a => mkNarc NSnk (NV (adst a)) (aw a))
      (filter (fun a => (asrc a =? j)%nat && (adst a <? j)%nat) E) ++
  flat_map (fun i => mkNarc NSrc (NV i) 0 :: repeat (mkNarc (NV i) NSnk 0) (sink_copies eps E j i))
           (seq 0 j).

(** One round of the loop computing lambda_3 (psp/pmf_r.cpp:150-159). *)
Definition lam3_step (E : graph) (j : nat) (y : list (Q * dbl)) (l : Q) (i : nat) : Q :=
  let a := fst (yat y i) in
  let l' := match snd (yat y i) with Fin b => if Qltb l (a - b) then a - b else l | _ => l end in
  let l'' := if Qltb l' a then a else l' in
  if Qltb l'' (sink_capacity E j i + a) then sink_capacity E j i + a else l''.
Definition lam3 (E : graph) (n j : nat) (y : list (Q * dbl)) : Q :=
  fold_left (lam3_step E j y) (seq 0 n) 0.

(** PMF_R::run for stage [j] (psp/pmf_r.cpp:96-177), [y] having one entry per node.  The first max
    flow is run by the calling thread; the reverse flow at lambda_3 (lines 160-168) only serves as
    a warm start.  Fuel: number of nodes plus one. *)
Definition pmfr_run (mc mr : solver) (sch : list bool -> bool) (eps : Q) (E : graph) (n j : nat)
           (y : list (Q * dbl)) : res (list dbl * list cset) :=
  if (j <? n)%nat then
    let base := fun i => (0, sink_capacity E j i) in
    let G1 := upd y base init_lambda (dig_net eps E j) in
    let T0 := snd (worker_cut mc mr true j (seq 0 j) G1) in
    let l3 := lam3 E n j y in
    let G2 := upd y base l3 G1 in
    do r <- pmfr_slice (S n) mc mr sch [] eps E j y (seq 0 j) G2 base T0 [j] init_lambda l3 false;
    Ok (isort dltb (fst (fst r)), isort superset (T0 :: [j] :: snd (fst r)))
  else Throw.

(** PDT_R::run on a new object (psp/pmf_r.cpp:697-771), followed by get_critical_values and get_psp
    (psp/pmf_r.h:107-110); [sch j] is the schedule of stage [j]. *)
Definition pdtr_run (mc mr : solver) (sch : nat -> list bool -> bool) (eps : Q) (E : graph) (n : nat)
  : res (list dbl * list cpart) :=
  do r <- pdt_loop (fun j y => pmfr_run mc mr (sch j) eps E n j y) E n []; Ok (snd r).

(** Two calls of run() on the same object (psp/pmf_r.cpp:698-702 keeps _y_lambda): the result of
    the second. *)
Definition pdtr_run_twice (mc mr : solver) (sch : nat -> list bool -> bool) (eps : Q) (E : graph)
           (n : nat) : res (list dbl * list cpart) :=
  do r <- pdt_loop (fun j y => pmfr_run mc mr (sch j) eps E n j y) E n [];
  do r2 <- pdt_loop (fun j y => pmfr_run mc mr (sch j) eps E n j y) E n (fst r);
  Ok (snd r2).
