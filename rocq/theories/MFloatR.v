(** * MFloatR: classes PMF_R and PDT_R with every floating-point operation kept in place (psp/pmf_r.cpp).

    The counterpart of MPMFR in the style of MFloatT: each double operation of the source is an operation
    of [fops], in the order of the source.  compute_lambda (psp/pmf_r.cpp:12-64) is textually the one of
    psp/pmf.cpp and modelled by [f_compute_lambda].  As in MPMFR the warm-start flows and the elevators are
    left out, the workers are oracles returning a minimum cut.  Not modelled, as in MFloat: overflow,
    underflow, NaN operands and infinite operands. *)
From Verif Require Import Base Graph MSets MGraph MaxFlow MDil MDT MPMF MPMFR MFloat MFloatT.

(** update_dig for one arc (psp/pmf_r.cpp:273-293); [base] is update_base. *)
Definition f_upd_arc (o : fops) (y : list (Q * dbl)) (base : nat -> Q * Q) (lam : Q) (a : narc) : narc :=
  match nsrc a, ndst a with
  | NSrc, NV i => let c := f_ycap o (yat y i) lam in
                  mkNarc NSrc (NV i) (fadd o (if Qltb c 0 then - c else 0) (fst (base i)))
  | NV i, NSnk => mkNarc (NV i) NSnk (fadd o (snd (base i)) (qmax 0 (f_ycap o (yat y i) lam)))
  | _, _ => a
  end.
Definition f_upd (o : fops) (y : list (Q * dbl)) (base : nat -> Q * Q) (lam : Q) (G : network) : network :=
  map (f_upd_arc o y base lam) G.

(** The capacities added up at psp/pmf_r.cpp:605-644 over the arcs satisfying [p], in the order [itn] of
    the ArcIt of line 609. *)
Definition f_csum (o : fops) (itn : network -> network) (eps : Q) (p : narc -> bool) (G : network) : Q :=
  fsum o 0 (map ncap (filter (fun a => negb (Qltb (ncap a) eps) && p a) (itn G))).

(** PMF_R::contract (psp/pmf_r.cpp:578-663), as [contract] of MPMFR. *)
Definition f_contract (o : fops) (itn : network -> network) (eps : Q) (sid tid size : nat) (S T : cset) (G : network)
  : res (list nat * network) :=
  let id := nid sid tid in
  let inS := fun u => mem S (id u) in
  let inT := fun u => negb (mem S (id u)) && mem T (id u) in
  let inR := fun u => negb (mem S (id u)) && negb (mem T (id u)) in
  let er := erased sid tid S T in
  if nodupb er && forallb (fun i => (i <? size)%nat) er && negb (mem er sid) && negb (mem er tid)
     && (sid <? size)%nat && (tid <? size)%nat
  then
    let ks := kept sid tid size S T in
    let arcs := fun i =>
      let s1 := f_csum o itn eps (fun a => inS (nsrc a) && inR (ndst a) && (id (ndst a) =? i)%nat) G in
      let s2 := f_csum o itn eps (fun a => inR (nsrc a) && inS (ndst a) && (id (nsrc a) =? i)%nat) G in
      let t1 := f_csum o itn eps (fun a => inR (nsrc a) && inT (ndst a) && (id (nsrc a) =? i)%nat) G in
      let t2 := f_csum o itn eps (fun a => inT (nsrc a) && inR (ndst a) && (id (ndst a) =? i)%nat) G in
      [mkNarc NSrc (NV i) s1] ++ (if Qltb eps s2 then [mkNarc (NV i) NSrc s2] else []) ++
      [mkNarc (NV i) NSnk t1] ++ (if Qltb eps t2 then [mkNarc NSnk (NV i) t2] else []) in
    Ok (ks,
        filter (fun a => negb (Qltb (ncap a) eps) && inR (nsrc a) && inR (ndst a)) G ++
        [mkNarc NSrc NSnk (f_csum o itn eps (fun a => inS (nsrc a) && mem T (id (ndst a))) G);
         mkNarc NSnk NSrc (f_csum o itn eps (fun a => inT (nsrc a) && inS (ndst a)) G)] ++
        flat_map arcs ks)
  else UB.

(** construct_new_update_base (psp/pmf_r.cpp:294-312); [ita] gives the order in which InArcIt and OutArcIt
    visit the arcs of a node. *)
Definition f_new_base (o : fops) (ita : graph -> graph) (E : graph) (S T : cset) (i : nat) : Q * Q :=
  (fsum o 0 (map aw (ita (filter (fun a => (adst a =? i)%nat && mem S (asrc a)) E))),
   fsum o 0 (map aw (ita (filter (fun a => (asrc a =? i)%nat && mem T (adst a)) E)))).

(** PMF_R::slice (psp/pmf_r.cpp:408-571, without the _DEBUG block), as [pmfr_slice] of MPMFR. *)
Fixpoint f_pmfr_slice (fuel : nat) (o : fops) (it ita : graph -> graph) (itn : network -> network)
         (mc mr : solver) (sch : list bool -> bool) (path : list bool)
         (eps : Q) (E : graph) (j : nat) (y : list (Q * dbl))
         (nodes : list nat) (G : network) (base : nat -> Q * Q)
         (Tl Tr : cset) (l1 l3 : Q) (is_contract : bool)
  : res (list dbl * list cset * network) :=
  match fuel with
  | O => OutOfFuel
  | S fuel' =>
      let target := fsub o (f_cut_value o it E Tl) (f_cut_value o it E Tr) in
      let ps := map (yat y) (filter (fun i => mem Tl i && negb (mem Tr i)) (seq 0 (S j))) in
      do r <- f_compute_lambda o eps ps target;
      match r with
      | None => Ok ([NaN], [], G)
      | Some l2 =>
          if negb (f_tol_different o eps l2 l1) || negb (f_tol_different o eps l2 l3)
          then Ok ([Fin l2], [], G)
          else if Qltb l2 l1 || Qltb l3 l2 then Throw
          else
            let Sc := ccompl Tl (S (S j)) in
            do c <- (if is_contract then f_contract o itn eps (S j) j (S (S j)) Sc Tr G
                     else Ok (nodes, G));
            let nodes' := fst c in
            let base' := if is_contract then f_new_base o ita E Sc Tr else base in
            let G' := f_upd o y base' l2 (snd c) in
            let original := f_net_cut o itn G' Tr in
            let useL := sch path in
            let fT := worker_cut mc mr useL j nodes' G' in
            let T' := cunion (snd fT) Tr in
            if negb (ceqb T' Tr) && negb (ceqb T' Tl) && Qltb (fst fT) (fsub o original (fmul o 10 eps))
            then
              do a <- f_pmfr_slice fuel' o it ita itn mc mr sch (true :: path) eps E j y nodes' G' base'
                                   Tl T' l1 l2 useL;
              do b <- f_pmfr_slice fuel' o it ita itn mc mr sch (false :: path) eps E j y nodes' (snd a) base'
                                   T' Tr l2 l3 (negb useL);
              Ok (fst (fst a) ++ fst (fst b), T' :: snd (fst a) ++ snd (fst b),
                  if is_contract then G else snd b)
            else Ok ([Fin l2], [], if is_contract then G else G')
      end
  end.

(** One round of the loop computing lambda_3 (psp/pmf_r.cpp:150-159). *)
Definition f_lam3_step (o : fops) (E : graph) (j : nat) (y : list (Q * dbl)) (l : Q) (i : nat) : Q :=
  let a := fst (yat y i) in
  let l' := match snd (yat y i) with Fin b => if Qltb l (fsub o a b) then fsub o a b else l | _ => l end in
  let l'' := if Qltb l' a then a else l' in
  if Qltb l'' (fadd o (sink_capacity E j i) a) then fadd o (sink_capacity E j i) a else l''.
Definition f_lam3 (o : fops) (E : graph) (n j : nat) (y : list (Q * dbl)) : Q :=
  fold_left (f_lam3_step o E j y) (seq 0 n) 0.

(** PMF_R::run for stage [j] (psp/pmf_r.cpp:96-177); [il] is the double init_lambda (line 132). *)
Definition f_pmfr_run (o : fops) (it ita : graph -> graph) (itn : network -> network) (mc mr : solver)
           (sch : list bool -> bool) (eps il : Q) (E : graph) (n j : nat) (y : list (Q * dbl))
  : res (list dbl * list cset) :=
  if (j <? n)%nat then
    let base := fun i => (0, sink_capacity E j i) in
    let G1 := f_upd o y base il (dig_net eps E j) in
    let T0 := snd (worker_cut mc mr true j (seq 0 j) G1) in
    let l3 := f_lam3 o E n j y in
    let G2 := f_upd o y base l3 G1 in
    do r <- f_pmfr_slice (S n) o it ita itn mc mr sch [] eps E j y (seq 0 j) G2 base T0 [j] il l3 false;
    Ok (isort dltb (fst (fst r)), isort superset (T0 :: [j] :: snd (fst r)))
  else Throw.

(** One round of the main loop of PDT_R::run (psp/pmf_r.cpp:709-768): the statements of psp/pmf.cpp:280-341. *)
Definition f_pdtr_step (o : fops) (it ita : graph -> graph) (itn : network -> network) (mc mr : solver)
           (sch : nat -> list bool -> bool) (eps il : Q) (E : graph) (n : nat) (st : pdt_state) (j : nat)
  : res pdt_state :=
  do r <- f_pmfr_run o it ita itn mc mr (sch j) eps il E n j (fst st);
  let lams := fst r in
  let sets := snd r in
  do y' <- mapr (f_y_entry o it E lams sets j (fst st)) (seq 0 n);
  if (length sets =? S (length lams))%nat then
    let B := combine (lams ++ [PInf]) sets in
    do out <- pdt_merge (S (length (snd st) + length B)) (snd st) B [];
    Ok (y', out)
  else UB.

(** PDT_R::run on a new object and the getters (psp/pmf_r.cpp:697-771, psp/pmf_r.h:107-110). *)
Definition f_pdtr_run (o : fops) (it ita : graph -> graph) (itn : network -> network) (mc mr : solver)
           (sch : nat -> list bool -> bool) (eps il : Q) (E : graph) (n : nat) : res (list dbl * list cpart) :=
  if (n =? 0)%nat then UB
  else
    do st <- foldr (f_pdtr_step o it ita itn mc mr sch eps il E n) (repeat (0, PInf) n, [(PInf, [[0%nat]])]) (seq 1 (n - 1));
    Ok (removelast (map fst (snd st)), map snd (snd st)).
