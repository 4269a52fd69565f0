(** * MDebug: the checks of a debug build (_DEBUG, CMakeLists.txt:21-23) in PMF, PMF_R and psp_i.

    psp/pmf.cpp:183-193, 220-223, 228-232; psp/pmf_r.cpp:409-420, 525-530, 579-588; psp/psp_i.cpp:23-28.
    A failed check is [Throw]. *)
From Verif Require Import Base Graph MSets MGraph MaxFlow MDil MDT MContract MPSPI MHPSP MPMF MPMFR MWarm MWarmR.

(** ** PMF::slice *)
(** get_cut_value(dig, dig_aM, T) after update_dig(l) (psp/pmf.cpp:163-180, 184-190); [None] is
    infinity.  At l = infinity the source arcs have infinite capacity and the sink arcs their
    capacity in the graph. *)
Definition dig_value (eps : Q) (E : graph) (j : nat) (y : list (Q * dbl)) (l : dbl) (T : cset) : option Q :=
  match l with
  | Fin q => Some (cut (pmf_net eps E j y q) (mem T))
  | _ => if existsb (mem T) (seq 0 j) then None
         else Some (cut (inner_arcs E (seq 0 j) ++
                         flat_map (fun i => repeat (mkNarc (NV i) NSnk (sink_cost E j i)) (sink_copies eps E j i))
                                  (seq 0 j)) (mem T))
  end.

(** value_1 < -eps (psp/pmf.cpp:184-188); lambda_1 is finite. *)
Definition fails_1 (eps : Q) (E : graph) (j : nat) (y : list (Q * dbl)) (l1 : Q) (Tl Tr : cset) : bool :=
  Qltb (cut (pmf_net eps E j y l1) (mem Tr) - cut (pmf_net eps E j y l1) (mem Tl)) (- eps).

(** value_2 > eps (psp/pmf.cpp:189-193); the difference of two infinities is NaN and compares false. *)
Definition fails_2 (eps : Q) (E : graph) (j : nat) (y : list (Q * dbl)) (l3 : dbl) (Tl Tr : cset) : bool :=
  match dig_value eps E j y l3 Tr, dig_value eps E j y l3 Tl with
  | Some a, Some b => Qltb eps (a - b)
  | None, Some _ => true
  | _, None => false
  end.

(** PMF::slice with flow maps and all its checks (psp/pmf.cpp:182-242). *)
Fixpoint pmfd_slice (fuel : nat) (ws : wsolver) (eps : Q) (E : graph) (n j : nat)
         (y : list (Q * dbl)) (Tl Tr : cset) (fm : flow) (l1 : Q) (l3 : dbl)
  : res (list dbl * list cset) :=
  match fuel with
  | O => OutOfFuel
  | S fuel' =>
      if fails_1 eps E j y l1 Tl Tr then Throw
      else if fails_2 eps E j y l3 Tl Tr then Throw
      else
      let target := get_cut_value E Tl - get_cut_value E Tr in
      let ps := map (yat y) (filter (fun i => mem Tl i && negb (mem Tr i)) (seq 0 (n - 1))) in
      do r <- compute_lambda eps ps target;
      match r with
      | None => Ok ([NaN], [])
      | Some l =>
          let l2 := Qred l in
          if negb (tol_different eps l2 l1) || negb (dbl_different eps l2 l3)
          then Ok ([Fin l2], [])
          else if Qltb l2 l1 || dltb l3 (Fin l2) then Throw
          else
            let N := pmf_net eps E j y l2 in
            let original := cut N (mem Tr) in
            let fm' := modify_flow N fm in
            if init_ok (seq 0 j) N fm' then
              let fX := fst (ws (seq 0 j) N fm') in
              let T' := cadd j (cset_of (filter (mem (snd fX)) (seq 0 j))) in
              if superset Tl T' && superset T' Tr then
                if negb (ceqb T' Tr) && negb (ceqb T' Tl) && Qltb (fst fX) (original - 10 * eps)
                then
                  do a <- pmfd_slice fuel' ws eps E n j y Tl T' fm l1 (Fin l2);
                  do b <- pmfd_slice fuel' ws eps E n j y T' Tr fm' l2 l3;
                  Ok (fst a ++ fst b, T' :: snd a ++ snd b)
                else Ok ([Fin l2], [])
              else Throw
            else Throw
      end
  end.

(** PMF::run (psp/pmf.cpp:89-141) and PDT::run (psp/pmf.cpp:268-343) in a debug build. *)
Definition pmfd_run (ws : wsolver) (eps : Q) (E : graph) (n j : nat) (y : list (Q * dbl))
  : res (list dbl * list cset) :=
  if (j <? n)%nat then
    let N := pmf_net eps E j y init_lambda in
    let r := ws (seq 0 j) N (init_flow N) in
    let T0 := cadd j (cset_of (filter (mem (snd (fst r))) (seq 0 j))) in
    do r <- pmfd_slice (S n) ws eps E n j y T0 [j] (snd r) init_lambda PInf;
    Ok (isort dltb (fst r), isort superset (T0 :: [j] :: snd r))
  else Throw.
Definition pdtd_run (ws : wsolver) (eps : Q) (E : graph) (n : nat) : res (list dbl * list cpart) :=
  do r <- pdt_loop (pmfd_run ws eps E n) E n []; Ok (snd r).

(** ** PMF_R::slice *)
(** The check of contract that the new source and sink are kept (psp/pmf_r.cpp:580-583); that the new
    graph is empty (lines 584-587) holds because it was just made (line 453). *)
Definition contract_d (eps : Q) (sid tid size : nat) (S T : cset) (G : network) : res (list nat * network) :=
  if mem S sid && mem T tid then contract eps sid tid size S T G else Throw.

(** PMF_R::slice with the checks (psp/pmf_r.cpp:408-571), without flow maps ([MWarmR]).  The checks of
    lines 409-420 overwrite the capacities of the member [dig] ([D]), with [bs] as sink_capacity; [own]: the graph
    passed in is dig, otherwise it is [G].  The left worker's set is empty if its result is
    not used, so the check of lines 525-530 is about the result used. *)
Fixpoint pmfrd_slice (fuel : nat) (mc mr : solver) (sch : list bool -> bool) (path : list bool)
         (eps : Q) (E : graph) (j : nat) (y : list (Q * dbl)) (bs : nat -> Q * Q)
         (D : network) (own : bool) (nodes : list nat) (G : network) (base : nat -> Q * Q)
         (Tl Tr : cset) (l1 l3 : Q) (is_contract : bool)
  : res (list dbl * list cset * (network * network)) :=
  match fuel with
  | O => OutOfFuel
  | S fuel' =>
      let Da := upd y bs l1 D in
      if Qltb (net_cut_value Da Tr - net_cut_value Da Tl) (- eps) then Throw
      else
      let D1 := upd y bs l3 Da in
      if Qltb eps (net_cut_value D1 Tr - net_cut_value D1 Tl) then Throw
      else
      let target := get_cut_value E Tl - get_cut_value E Tr in
      let ps := map (yat y) (filter (fun i => mem Tl i && negb (mem Tr i)) (seq 0 (S j))) in
      do r <- compute_lambda eps ps target;
      match r with
      | None => Ok ([NaN], [], (D1, G))
      | Some l =>
          let l2 := Qred l in
          if negb (tol_different eps l2 l1) || negb (tol_different eps l2 l3)
          then Ok ([Fin l2], [], (D1, G))
          else if Qltb l2 l1 || Qltb l3 l2 then Throw
          else
            let Sc := ccompl Tl (S (S j)) in
            let cur := if own then D1 else G in
            do c <- (if is_contract then contract_d eps (S j) j (S (S j)) Sc Tr cur
                     else Ok (nodes, cur));
            let nodes' := fst c in
            let base' := if is_contract then new_base E Sc Tr else base in
            let G' := upd y base' l2 (snd c) in
            let own' := own && negb is_contract in
            let D2 := if own' then G' else D1 in
            let original := net_cut_value G' Tr in
            let useL := sch path in
            let fT := worker_cut mc mr useL j nodes' G' in
            if useL && negb (superset Tl (snd fT)) then Throw
            else
            let T' := cunion (snd fT) Tr in
            if negb (ceqb T' Tr) && negb (ceqb T' Tl) && Qltb (fst fT) (original - 10 * eps)
            then
              do a <- pmfrd_slice fuel' mc mr sch (true :: path) eps E j y bs D2 own' nodes' G' base'
                                  Tl T' l1 l2 useL;
              do b <- pmfrd_slice fuel' mc mr sch (false :: path) eps E j y bs (fst (snd a)) own' nodes'
                                  (snd (snd a)) base' T' Tr l2 l3 (negb useL);
              Ok (fst (fst a) ++ fst (fst b), T' :: snd (fst a) ++ snd (fst b),
                  (fst (snd b), if is_contract then G else snd (snd b)))
            else Ok ([Fin l2], [], (D2, if is_contract then G else G'))
      end
  end.

(** PMF_R::run (psp/pmf_r.cpp:96-177) and PDT_R::run (psp/pmf_r.cpp:697-771) in a debug build. *)
Definition pmfrd_run (mc mr : solver) (sch : list bool -> bool) (eps : Q) (E : graph) (n j : nat)
           (y : list (Q * dbl)) : res (list dbl * list cset) :=
  if (j <? n)%nat then
    let base := fun i => (0, sink_capacity E j i) in
    let G1 := upd y base init_lambda (dig_net eps E j) in
    let T0 := snd (worker_cut mc mr true j (seq 0 j) G1) in
    let l3 := lam3 E n j y in
    let G2 := upd y base l3 G1 in
    do r <- pmfrd_slice (S n) mc mr sch [] eps E j y base G2 true (seq 0 j) G2 base T0 [j] init_lambda l3 false;
    Ok (isort dltb (fst (fst r)), isort superset (T0 :: [j] :: snd (fst r)))
  else Throw.
Definition pdtrd_run (mc mr : solver) (sch : nat -> list bool -> bool) (eps : Q) (E : graph) (n : nat)
  : res (list dbl * list cpart) :=
  do r <- pdt_loop (fun j y => pmfrd_run mc mr (sch j) eps E n j y) E n []; Ok (snd r).

(** PMF_R::slice in a debug build with the flow maps (psp/pmf_r.cpp:408-571): [pmfrd_slice] and [pmfrw_slice] in one.  With
    [all] false only the check of the flow maps is made; dig is overwritten all the same. *)
Fixpoint pmfrwd_slice (all : bool) (chk : check) (fuel : nat) (wsL wsR : wsolver) (sch : list bool -> bool) (path : list bool)
         (eps : Q) (E : graph) (j : nat) (y : list (Q * dbl)) (bs : nat -> Q * Q)
         (D : network) (own : bool) (nodes : list nat) (G : network) (base : nat -> Q * Q) (fl fr : flow)
         (Tl Tr : cset) (l1 l3 : Q) (is_contract : bool)
  : res (list dbl * list cset * (network * network)) :=
  match fuel with
  | O => OutOfFuel
  | S fuel' =>
      let Da := upd y bs l1 D in
      if all && Qltb (net_cut_value Da Tr - net_cut_value Da Tl) (- eps) then Throw
      else
      let D1 := upd y bs l3 Da in
      if all && Qltb eps (net_cut_value D1 Tr - net_cut_value D1 Tl) then Throw
      else
      let target := get_cut_value E Tl - get_cut_value E Tr in
      let ps := map (yat y) (filter (fun i => mem Tl i && negb (mem Tr i)) (seq 0 (S j))) in
      do r <- compute_lambda eps ps target;
      match r with
      | None => Ok ([NaN], [], (D1, G))
      | Some l =>
          let l2 := Qred l in
          if negb (tol_different eps l2 l1) || negb (tol_different eps l2 l3)
          then Ok ([Fin l2], [], (D1, G))
          else if Qltb l2 l1 || Qltb l3 l2 then Throw
          else
            let Sc := ccompl Tl (S (S j)) in
            let cur := if own then D1 else G in
            do c <- (if is_contract then (if all then contract_d else contract) eps (S j) j (S (S j)) Sc Tr cur
                     else Ok (nodes, cur));
            let nodes' := fst c in
            let base' := if is_contract then new_base E Sc Tr else base in
            let fl' := if is_contract then contract_flow (S j) j Sc Tr cur fl (snd c) else fl in
            let fr' := if is_contract then contract_flow (S j) j Sc Tr cur fr (snd c) else fr in
            let G' := upd y base' l2 (snd c) in
            let own' := own && negb is_contract in
            let D2 := if own' then G' else D1 in
            let original := net_cut_value G' Tr in
            let useL := sch path in
            let wl := clamp G' fl' in
            let wr := clamp G' fr' in
            if chk nodes' G' wl && chk nodes' (rnet G') wr then
              let rL := wsL nodes' G' wl in
              let rR := wsR nodes' (rnet G') wr in
              let fT := pick_cut (fst rL) (fst rR) useL j nodes' in
              if all && useL && negb (superset Tl (snd fT)) then Throw
              else
              let fm := if useL then snd rL else snd rR in
              let T' := cunion (snd fT) Tr in
              if negb (ceqb T' Tr) && negb (ceqb T' Tl) && Qltb (fst fT) (original - 10 * eps)
              then
                do a <- pmfrwd_slice all chk fuel' wsL wsR sch (true :: path) eps E j y bs D2 own' nodes' G' base'
                                     fl' fm Tl T' l1 l2 useL;
                do b <- pmfrwd_slice all chk fuel' wsL wsR sch (false :: path) eps E j y bs (fst (snd a)) own' nodes'
                                     (snd (snd a)) base' fm fr' T' Tr l2 l3 (negb useL);
                Ok (fst (fst a) ++ fst (fst b), T' :: snd (fst a) ++ snd (fst b),
                    (fst (snd b), if is_contract then G else snd (snd b)))
              else Ok ([Fin l2], [], (D2, if is_contract then G else G'))
            else Throw
      end
  end.

(** PMF_R::run (psp/pmf_r.cpp:96-177) and PDT_R::run (psp/pmf_r.cpp:697-771) in a debug build, with the flow maps. *)
Definition pmfrwd_run (all : bool) (chk : check) (wsL wsR : wsolver) (sch : list bool -> bool) (eps : Q) (E : graph) (n j : nat)
           (y : list (Q * dbl)) : res (list dbl * list cset) :=
  if (j <? n)%nat then
    let base := fun i => (0, sink_capacity E j i) in
    let G1 := upd y base init_lambda (dig_net eps E j) in
    let r0 := wsL (seq 0 j) G1 (init_flow G1) in
    let T0 := snd (pick_cut (fst r0) (fst r0) true j (seq 0 j)) in
    let l3 := lam3 E n j y in
    let G2 := upd y base l3 G1 in
    let r3 := wsR (seq 0 j) (rnet G2) (init_flow (rnet G2)) in
    do r <- pmfrwd_slice all chk (S n) wsL wsR sch [] eps E j y base G2 true (seq 0 j) G2 base (snd r0) (snd r3)
                         T0 [j] init_lambda l3 false;
    Ok (isort dltb (fst (fst r)), isort superset (T0 :: [j] :: snd (fst r)))
  else Throw.
Definition pdtrwd_run (all : bool) (chk : check) (wsL wsR : wsolver) (sch : nat -> list bool -> bool) (eps : Q)
           (E : graph) (n : nat) : res (list dbl * list cpart) :=
  do r <- pdt_loop (fun j y => pmfrwd_run all chk wsL wsR (sch j) eps E n j y) E n []; Ok (snd r).

(** ** DilworthTruncation::minimize, as used by PSP_I and HPSP *)
(** The check of psp/psp_i.cpp:23-28 at the stages of run (lines 86-92): the node of the stage has an
    arc to itself or to a node of an earlier stage. *)
Fixpoint out_arcs (E : graph) (done todo : list nat) : bool :=
  match todo with
  | [] => false
  | v :: t => existsb (fun a => (asrc a =? v)%nat && mem (v :: done) (adst a)) E || out_arcs E (v :: done) t
  end.

(** DilworthTruncation::run (psp/psp_i.cpp:80-97) in a debug build. *)
Definition dild_run (mc : solver) (lam : Q) (E : graph) (vs : list nat) : res (Q * cpart) :=
  if out_arcs E [] vs then Throw else Ok (dil_run mc lam E vs).

(** PSP_I::split (psp/psp_i.cpp:157-219) in a debug build; as [psp_split], with the truncation of a
    debug build, also for one child. *)
Fixpoint psp_splitd (fuel : nat) (mc : solver) (eps : Q) (st : pst) (i : nat) : res pst :=
  match fuel with
  | O => OutOfFuel
  | S fuel' =>
      let kids := pch st i in
      if negb (forallb (K_ok st) kids) then UB
      else
        let reps := reps_of st kids in
        let k := length kids in
        let sub := sub_arcs (pG st) reps in
        match k with
        | O => Ok st
        | 1%nat => if out_arcs sub [] (enabled (pG st) reps) then Throw
                   else Ok (set_labels st kids (if Qeq_bool (qsum aw sub) 0 then NaN else PInf))
        | _ =>
            let gamma := split_gamma sub k in
            if (k =? 2)%nat then Ok (set_labels st kids (Fin gamma))
            else
              do r <- dild_run mc gamma sub (enabled (pG st) reps);
              let min_value := fst r in
              let P' := snd r in
              if negb (negb (length P' =? 1)%nat && negb (length P' =? k)%nat &&
                       Qltb min_value (- gamma - eps))
              then Ok (set_labels st kids (Fin gamma))
              else
                do st' <- foldm (fun st S =>
                     if (length S =? 1)%nat then Ok st
                     else
                       let s := length (pK st) in
                       do st2 <- psp_splitd fuel' mc eps (regroup st i S) s;
                       Ok (mkP (MContract.contract eps (pG st2) S (hd 0%nat S)) (pK st2) (pch st2) (plab st2)))
                   P' st;
                psp_splitd fuel' mc eps st' i
        end
  end.

(** PSP_I::run (psp/psp_i.cpp:102-155) in a debug build. *)
Definition psp_rund (mc : solver) (eps : Q) (E : graph) (n : nat) : res out :=
  do st <- psp_splitd (S n) mc eps (psp_init n E) 0;
  match pch st 0%nat with
  | [] => UB
  | a :: _ =>
      do r <- psp_loop (S (length (pK st))) st [(0%nat, plab st a)];
      Ok (mkOut (fst r) (snd r) (pG st))
  end.

(** HPSP::split (psp/hpsp.cpp:90-136) and HPSP::run (lines 11-14, 74-89) in a debug build. *)
Fixpoint hpsp_splitd (fuel : nat) (mc : solver) (eps : Q) (st : hst) (s : nat) (ch : cset) : res hst :=
  match fuel with
  | O => OutOfFuel
  | S fuel' =>
      let k := length ch in
      let sub := sub_arcs (hG st) ch in
      match k with
      | O => Ok st
      | 1%nat => if out_arcs sub [] (enabled (hG st) ch) then Throw
                 else Ok (set_WK st s ch (if Qeq_bool (qsum aw sub) 0 then NaN else PInf))
      | _ =>
          let gamma := split_gamma sub k in
          if (k =? 2)%nat then Ok (set_WK st s ch (Fin gamma))
          else
            do r <- dild_run mc gamma sub (enabled (hG st) ch);
            let min_value := fst r in
            let P' := snd r in
            if negb (negb (length P' =? 1)%nat && negb (length P' =? k)%nat &&
                     Qltb min_value (- gamma - eps))
            then Ok (set_WK st s ch (Fin gamma))
            else
              do r <- foldm (fun (r : hst * cset) S =>
                   let new_S := cadd (hd 0%nat S) (snd r) in
                   if (length S =? 1)%nat then Ok (fst r, new_S)
                   else
                     do st2 <- hpsp_splitd fuel' mc eps (fst r) (hd 0%nat S) S;
                     Ok (mkH (MContract.contract eps (hG st2) S (hd 0%nat S)) (hW st2) (hK st2), new_S))
                 P' (st, []);
              hpsp_splitd fuel' mc eps (fst r) s (snd r)
      end
  end.
Definition hpsp_rund (mc : solver) (eps : Q) (E : graph) (n : nat) : res hout :=
  do st <- hpsp_splitd (S n) mc eps (mkH (mkG (seq 0 n) E) (fun _ => Fin 0) (fun _ => 0%nat)) 0 (cdense n);
  do r <- hpsp_loop (S n) n (hW st) (hK st) (cdense n) [] [] [];
  Ok (mkHOut (fst r) (snd r ++ [pfine n]) (hW st) (hK st) (hG st)).
