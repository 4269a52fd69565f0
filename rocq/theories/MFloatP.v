(** * MFloatP: class PSP_I with every floating-point operation kept in place (psp/psp_i.cpp:40-266).

    The counterpart of MPSPI and MContract in the style of MFloat: each double operation of the
    source is an operation of [fops], in the order of the source.  The tree, the clusters and the loop
    of run() hold no arithmetic; they are those of MPSPI.  Not modelled, as in MFloat: overflow,
    underflow, NaN and infinities. *)
From Verif Require Import Base Graph MSets MGraph MaxFlow MDil MDT MContract MPSPI MFloat.

(** DilworthTruncation of psp_i.cpp: [run] over the enabled nodes (psp/psp_i.cpp:80-97); [minimize]
    (psp/psp_i.cpp:9-64) has the arithmetic of psp/dt.cpp:34-88, modelled by [f_minimize]. *)
Definition f_dil (o : fops) (mc : solver) (lam : Q) (E : graph) (vs : list nat) : Q * cpart :=
  let r := f_loop o mc lam E vs [] [] in (fsum o 0 (map snd (fst r)), snd r).

(** An arc between S and node [v] outside S (psp/psp_i.cpp:229-234). *)
Definition touches (S : cset) (v : nat) (a : arc) : bool :=
  mem S (asrc a) && negb (mem S (adst a)) && (adst a =? v)%nat ||
  negb (mem S (asrc a)) && mem S (adst a) && (asrc a =? v)%nat.

(** [capacity_map[v]] after the loop (psp/psp_i.cpp:222-234); [it] gives the order of ArcIt. *)
Definition f_cap_of (o : fops) (it : graph -> graph) (E : graph) (S : cset) (v : nat) : Q :=
  fsum o 0 (map aw (filter (touches S v) (it E))).

(** The arcs added at psp/psp_i.cpp:247-258; std::abs is exact. *)
Definition f_new_arcs (o : fops) (it : graph -> graph) (eps : Q) (E : graph) (S : cset) (i : nat) (vs : list nat) : graph :=
  flat_map (fun v =>
    let c := f_cap_of o it E S v in
    if mem S v || Qltb (qabs c) eps then []
    else if (i <? v)%nat then [mkArc i v (qabs c)] else [mkArc v i (qabs c)]) vs.

(** contract(S, i) (psp/psp_i.cpp:220-259). *)
Definition f_contract (o : fops) (it : graph -> graph) (eps : Q) (G : gst) (S : cset) (i : nat) : gst :=
  mkG (filter (fun v => (v =? i)%nat || negb (mem S v)) (gnodes G))
      (filter (untouched S i) (garcs G) ++ f_new_arcs o it eps (garcs G) S i (gnodes G)).

(** weight_total and gamma' (psp/psp_i.cpp:168-171); [num_of_children - 1.0] is exact. *)
Definition f_weight (o : fops) (it : graph -> graph) (sub : graph) : Q := fsum o 0 (map aw (it sub)).
Definition f_split_gamma (o : fops) (it : graph -> graph) (sub : graph) (k : nat) : Q :=
  fdiv o (f_weight o it sub) (qn k - 1).

(** PSP_I::split(i) (psp/psp_i.cpp:157-219); [-1 * gamma'] is exact. *)
Fixpoint f_psp_split (fuel : nat) (o : fops) (it : graph -> graph) (mc : solver) (eps : Q) (st : pst) (i : nat) : res pst :=
  match fuel with
  | O => OutOfFuel
  | S fuel' =>
      let kids := pch st i in
      if negb (forallb (K_ok st) kids) then UB
      else
        let reps := reps_of st kids in
        let k := length kids in
        let sub := sub_arcs (pG st) reps in
        match k with
        | O => Ok st
        | 1%nat => Ok (set_labels st kids (if Qeq_bool (f_weight o it sub) 0 then NaN else PInf))
        | _ =>
            let gamma := f_split_gamma o it sub k in
            if (k =? 2)%nat then Ok (set_labels st kids (Fin gamma))
            else
              let r := f_dil o mc gamma sub (enabled (pG st) reps) in
              let min_value := fst r in
              let P' := snd r in
              if negb (negb (length P' =? 1)%nat && negb (length P' =? k)%nat &&
                       Qltb min_value (fsub o (- gamma) eps))
              then Ok (set_labels st kids (Fin gamma))
              else
                do st' <- foldm (fun st S =>
                     if (length S =? 1)%nat then Ok st
                     else
                       let s := length (pK st) in
                       do st2 <- f_psp_split fuel' o it mc eps (regroup st i S) s;
                       Ok (mkP (f_contract o it eps (pG st2) S (hd 0%nat S)) (pK st2) (pch st2) (plab st2)))
                   P' st;
                f_psp_split fuel' o it mc eps st' i
        end
  end.

(** PSP_I(g, edge_map), run() and the getters (psp/psp_i.cpp:99-155,260-266). *)
Definition f_psp_run (o : fops) (it : graph -> graph) (mc : solver) (eps : Q) (E : graph) (n : nat) : res out :=
  do st <- f_psp_split (S n) o it mc eps (psp_init n E) 0;
  match pch st 0%nat with
  | [] => UB
  | a :: _ =>
      do r <- psp_loop (S (length (pK st))) st [(0%nat, plab st a)];
      Ok (mkOut (fst r) (snd r) (pG st))
  end.
