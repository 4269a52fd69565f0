(** * MCost: the max-flow computations made by each method, in order.

    Copies of the functions of MDil, MDT, MPSPI, MHPSP, MPMF and MPMFR that also return, for every
    max flow that is started, the number of nodes of its network besides source and sink.  [CostThy]
    proves that the other component is the result of the original function. *)
From Verif Require Import Base Graph MSets MGraph MaxFlow MDil MDT MContract MPSPI MHPSP MPMF MPMFR.

Definition trace := list nat.

(** The loop of DilworthTruncation::run (psp/dt.cpp:21-27, psp/psp_i.cpp:86-92): one max flow
    (psp/dt.cpp:75-76, psp/psp_i.cpp:52-53) in every round, the first on a network without nodes. *)
Fixpoint dil_loop_t (mc : solver) (lam : Q) (E : graph) (todo : list nat) (xs : list (nat * Q)) (P : cpart) (tr : trace)
  : list (nat * Q) * cpart * trace :=
  match todo with
  | [] => (xs, P, tr)
  | v :: t =>
      let aT := dil_minimize mc lam E xs v in
      dil_loop_t mc lam E t (xs ++ [(v, Qred (fst aT))]) (pexpand P (cadd v (snd aT))) (tr ++ [length xs])
  end.

(** psp/psp_i.cpp:66-97 and psp/dt.cpp:17-32. *)
Definition dil_run_t (mc : solver) (lam : Q) (E : graph) (vs : list nat) : Q * cpart * trace :=
  let '(xs, P, tr) := dil_loop_t mc lam E vs [] [] [] in (qsum snd xs, P, tr).
Definition dt_dil_run_t (mc : solver) (lam : Q) (E : graph) (n : nat) : res (Q * cpart * trace) :=
  if existsb (fun a => (asrc a =? adst a)%nat && (adst a <? n)%nat) E then UB
  else Ok (dil_run_t mc lam E (seq 0 n)).

(** DT::split(Q, P) (psp/dt.cpp:128-143).  The truncation is also run with a NaN (one-node graph). *)
Fixpoint dt_split_t (fuel : nat) (mc : solver) (eps : Q) (E : graph) (n : nat) (Qp P : cpart)
  : res (list dbl * list cpart * trace) :=
  match fuel with
  | O => OutOfFuel
  | S fuel' =>
      if (length P =? length Qp)%nat then Ok ([NaN], [], seq 0 n)
      else
        let gamma := dt_gamma E Qp P in
        let h := dt_h E Qp P in
        do r <- dt_dil_run_t mc gamma E n;
        let min_value := fst (fst r) in
        let P' := snd (fst r) in
        if Qltb (h - eps) min_value || (length Qp =? length P')%nat || (length P =? length P')%nat
        then Ok ([Fin gamma], [], snd r)
        else
          do a <- dt_split_t fuel' mc eps E n Qp P';
          do b <- dt_split_t fuel' mc eps E n P' P;
          Ok (fst (fst a) ++ fst (fst b), P' :: snd (fst a) ++ snd (fst b), snd r ++ snd a ++ snd b)
  end.

(** DT::run() (psp/dt.cpp:153-165). *)
Definition dt_run_t (mc : solver) (eps : Q) (E : graph) (n : nat) : res (list dbl * list cpart * trace) :=
  let Qp := [cdense n] in
  let P := pfine n in
  do r <- dt_split_t (S n) mc eps E n Qp P;
  Ok (isort dltb (fst (fst r)), isort card_ltb (Qp :: P :: snd (fst r)), snd r).

(** PSP_I::split(i) (psp/psp_i.cpp:157-219).  With one child the truncation is run too, with a
    value that is not finite; with two it is not (lines 174-176). *)
Fixpoint psp_split_t (fuel : nat) (mc : solver) (eps : Q) (st : pst) (i : nat) : res (pst * trace) :=
  match fuel with
  | O => OutOfFuel
  | S fuel' =>
      let kids := pch st i in
      if negb (forallb (K_ok st) kids) then UB
      else
        let reps := reps_of st kids in
        let k := length kids in
        let sub := sub_arcs (pG st) reps in
        match k with
        | O => Ok (st, [])
        | 1%nat => Ok (set_labels st kids (if Qeq_bool (qsum aw sub) 0 then NaN else PInf), seq 0 (length (enabled (pG st) reps)))
        | _ =>
            let gamma := split_gamma sub k in
            if (k =? 2)%nat then Ok (set_labels st kids (Fin gamma), [])
            else
              let r := dil_run_t mc gamma sub (enabled (pG st) reps) in
              let min_value := fst (fst r) in
              let P' := snd (fst r) in
              if negb (negb (length P' =? 1)%nat && negb (length P' =? k)%nat &&
                       Qltb min_value (- gamma - eps))
              then Ok (set_labels st kids (Fin gamma), snd r)
              else
                do x <- foldm (fun (x : pst * trace) S =>
                     let (st, tr) := x in
                     if (length S =? 1)%nat then Ok (st, tr)
                     else
                       let s := length (pK st) in
                       do y <- psp_split_t fuel' mc eps (regroup st i S) s;
                       let st2 := fst y in
                       Ok (mkP (MContract.contract eps (pG st2) S (hd 0%nat S)) (pK st2) (pch st2) (plab st2), tr ++ snd y))
                   P' (st, snd r);
                do y <- psp_split_t fuel' mc eps (fst x) i;
                Ok (fst y, snd x ++ snd y)
        end
  end.

(** PSP_I::run (psp/psp_i.cpp:102-155); the while loop runs no max flow. *)
Definition psp_run_t (mc : solver) (eps : Q) (E : graph) (n : nat) : res (out * trace) :=
  do x <- psp_split_t (S n) mc eps (psp_init n E) 0;
  let st := fst x in
  match pch st 0%nat with
  | [] => UB
  | a :: _ =>
      do r <- psp_loop (S (length (pK st))) st [(0%nat, plab st a)];
      Ok (mkOut (fst r) (snd r) (pG st), snd x)
  end.

(** HPSP::split(s, children_list) (psp/hpsp.cpp:90-136). *)
Fixpoint hpsp_split_t (fuel : nat) (mc : solver) (eps : Q) (st : hst) (s : nat) (ch : cset) : res (hst * trace) :=
  match fuel with
  | O => OutOfFuel
  | S fuel' =>
      let k := length ch in
      let sub := sub_arcs (hG st) ch in
      match k with
      | O => Ok (st, [])
      | 1%nat => Ok (set_WK st s ch (if Qeq_bool (qsum aw sub) 0 then NaN else PInf), seq 0 (length (enabled (hG st) ch)))
      | _ =>
          let gamma := split_gamma sub k in
          if (k =? 2)%nat then Ok (set_WK st s ch (Fin gamma), [])
          else
            let r := dil_run_t mc gamma sub (enabled (hG st) ch) in
            let min_value := fst (fst r) in
            let P' := snd (fst r) in
            if negb (negb (length P' =? 1)%nat && negb (length P' =? k)%nat &&
                     Qltb min_value (- gamma - eps))
            then Ok (set_WK st s ch (Fin gamma), snd r)
            else
              do x <- foldm (fun (x : hst * cset * trace) S =>
                   let '(st, nS, tr) := x in
                   let new_S := cadd (hd 0%nat S) nS in
                   if (length S =? 1)%nat then Ok (st, new_S, tr)
                   else
                     do y <- hpsp_split_t fuel' mc eps st (hd 0%nat S) S;
                     let st2 := fst y in
                     Ok (mkH (MContract.contract eps (hG st2) S (hd 0%nat S)) (hW st2) (hK st2), new_S, tr ++ snd y))
                 P' (st, [], snd r);
              do y <- hpsp_split_t fuel' mc eps (fst (fst x)) s (snd (fst x));
              Ok (fst y, snd x ++ snd y)
      end
  end.

(** HPSP::run (psp/hpsp.cpp:11-14, 74-89); merging runs no max flow. *)
Definition hpsp_run_t (mc : solver) (eps : Q) (E : graph) (n : nat) : res (hout * trace) :=
  do x <- hpsp_split_t (S n) mc eps (mkH (mkG (seq 0 n) E) (fun _ => Fin 0) (fun _ => 0%nat)) 0 (cdense n);
  let st := fst x in
  do r <- hpsp_loop (S n) n (hW st) (hK st) (cdense n) [] [] [];
  Ok (mkHOut (fst r) (snd r ++ [pfine n]) (hW st) (hK st) (hG st), snd x).

(** PMF::slice (psp/pmf.cpp:182-242): the max flow of lines 216-227. *)
Fixpoint pmf_slice_t (fuel : nat) (mc : solver) (eps : Q) (E : graph) (n j : nat)
         (y : list (Q * dbl)) (Tl Tr : cset) (l1 : Q) (l3 : dbl)
  : res (list dbl * list cset * trace) :=
  match fuel with
  | O => OutOfFuel
  | S fuel' =>
      let target := get_cut_value E Tl - get_cut_value E Tr in
      let ps := map (yat y) (filter (fun i => mem Tl i && negb (mem Tr i)) (seq 0 (n - 1))) in
      do r <- compute_lambda eps ps target;
      match r with
      | None => Ok ([NaN], [], [])
      | Some l =>
          let l2 := Qred l in
          if negb (tol_different eps l2 l1) || negb (dbl_different eps l2 l3)
          then Ok ([Fin l2], [], [])
          else if Qltb l2 l1 || dltb l3 (Fin l2) then Throw
          else
            let original := cut (pmf_net eps E j y l2) (mem Tr) in
            let fT := pmf_cut mc eps E j y l2 in
            let T' := snd fT in
            if negb (ceqb T' Tr) && negb (ceqb T' Tl) && Qltb (fst fT) (original - 10 * eps)
            then
              do a <- pmf_slice_t fuel' mc eps E n j y Tl T' l1 (Fin l2);
              do b <- pmf_slice_t fuel' mc eps E n j y T' Tr l2 l3;
              Ok (fst (fst a) ++ fst (fst b), T' :: snd (fst a) ++ snd (fst b), j :: snd a ++ snd b)
            else Ok ([Fin l2], [], [j])
      end
  end.

(** PMF::run for stage [j] (psp/pmf.cpp:89-141): the first max flow at lines 125-131. *)
Definition pmf_run_t (mc : solver) (eps : Q) (E : graph) (n j : nat) (y : list (Q * dbl))
  : res (list dbl * list cset * trace) :=
  if (j <? n)%nat then
    let T0 := snd (pmf_cut mc eps E j y init_lambda) in
    do r <- pmf_slice_t (S n) mc eps E n j y T0 [j] init_lambda PInf;
    Ok (isort dltb (fst (fst r)), isort superset (T0 :: [j] :: snd (fst r)), j :: snd r)
  else Throw.

(** One round of the main loop (psp/pmf.cpp:280-341, psp/pmf_r.cpp:708-769): max flows are run by
    PMF::run only. *)
Definition pdt_step_t (pm : nat -> list (Q * dbl) -> res (list dbl * list cset * trace)) (E : graph) (n : nat)
           (x : pdt_state * trace) (j : nat) : res (pdt_state * trace) :=
  do r <- pm j (fst (fst x));
  do st <- pdt_step (fun _ _ => Ok (fst r)) E n (fst x) j;
  Ok (st, snd x ++ snd r).

(** PDT::run (psp/pmf.cpp:268-343) and PDT_R::run (psp/pmf_r.cpp:697-771) on a new object. *)
Definition pdt_loop_t (pm : nat -> list (Q * dbl) -> res (list dbl * list cset * trace)) (E : graph) (n : nat)
  : res (list dbl * list cpart * trace) :=
  if (n =? 0)%nat then UB
  else
    do x <- foldr (pdt_step_t pm E n) (repeat (0, PInf) n, [(PInf, [[0%nat]])], []) (seq 1 (n - 1));
    Ok (removelast (map fst (snd (fst x))), map snd (snd (fst x)), snd x).
Definition pdt_run_t (mc : solver) (eps : Q) (E : graph) (n : nat) : res (list dbl * list cpart * trace) :=
  pdt_loop_t (pmf_run_t mc eps E n) E n.

(** PMF_R::slice (psp/pmf_r.cpp:408-571): two max flows are started (lines 489-490), of which
    one may be interrupted. *)
Fixpoint pmfr_slice_t (fuel : nat) (mc mr : solver) (sch : list bool -> bool) (path : list bool)
         (eps : Q) (E : graph) (j : nat) (y : list (Q * dbl))
         (nodes : list nat) (G : network) (base : nat -> Q * Q)
         (Tl Tr : cset) (l1 l3 : Q) (is_contract : bool)
  : res (list dbl * list cset * network * trace) :=
  match fuel with
  | O => OutOfFuel
  | S fuel' =>
      let target := get_cut_value E Tl - get_cut_value E Tr in
      let ps := map (yat y) (filter (fun i => mem Tl i && negb (mem Tr i)) (seq 0 (S j))) in
      do r <- compute_lambda eps ps target;
      match r with
      | None => Ok ([NaN], [], G, [])
      | Some l =>
          let l2 := Qred l in
          if negb (tol_different eps l2 l1) || negb (tol_different eps l2 l3)
          then Ok ([Fin l2], [], G, [])
          else if Qltb l2 l1 || Qltb l3 l2 then Throw
          else
            let Sc := ccompl Tl (S (S j)) in
            do c <- (if is_contract then MPMFR.contract eps (S j) j (S (S j)) Sc Tr G
                     else Ok (nodes, G));
            let nodes' := fst c in
            let base' := if is_contract then new_base E Sc Tr else base in
            let G' := MPMFR.upd y base' l2 (snd c) in
            let original := net_cut_value G' Tr in
            let useL := sch path in
            let fT := worker_cut mc mr useL j nodes' G' in
            let T' := cunion (snd fT) Tr in
            if negb (ceqb T' Tr) && negb (ceqb T' Tl) && Qltb (fst fT) (original - 10 * eps)
            then
              do a <- pmfr_slice_t fuel' mc mr sch (true :: path) eps E j y nodes' G' base'
                                 Tl T' l1 l2 useL;
              do b <- pmfr_slice_t fuel' mc mr sch (false :: path) eps E j y nodes' (snd (fst a)) base'
                                 T' Tr l2 l3 (negb useL);
              Ok (fst (fst (fst a)) ++ fst (fst (fst b)), T' :: snd (fst (fst a)) ++ snd (fst (fst b)),
                  if is_contract then G else snd (fst b), length nodes' :: length nodes' :: snd a ++ snd b)
            else Ok ([Fin l2], [], if is_contract then G else G', [length nodes'; length nodes'])
      end
  end.

(** PMF_R::run for stage [j] (psp/pmf_r.cpp:96-177): the max flow at -0.1 (lines 135-138) and the
    reverse one at lambda_3 (lines 161-164). *)
Definition pmfr_run_t (mc mr : solver) (sch : list bool -> bool) (eps : Q) (E : graph) (n j : nat)
           (y : list (Q * dbl)) : res (list dbl * list cset * trace) :=
  if (j <? n)%nat then
    let base := fun i => (0, sink_capacity E j i) in
    let G1 := MPMFR.upd y base init_lambda (dig_net eps E j) in
    let T0 := snd (worker_cut mc mr true j (seq 0 j) G1) in
    let l3 := lam3 E n j y in
    let G2 := MPMFR.upd y base l3 G1 in
    do r <- pmfr_slice_t (S n) mc mr sch [] eps E j y (seq 0 j) G2 base T0 [j] init_lambda l3 false;
    Ok (isort dltb (fst (fst (fst r))), isort superset (T0 :: [j] :: snd (fst (fst r))), j :: j :: snd r)
  else Throw.
Definition pdtr_run_t (mc mr : solver) (sch : nat -> list bool -> bool) (eps : Q) (E : graph) (n : nat)
  : res (list dbl * list cpart * trace) :=
  pdt_loop_t (fun j y => pmfr_run_t mc mr (sch j) eps E n j y) E n.
