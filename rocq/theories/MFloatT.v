(** * MFloatT: classes PMF and PDT with every floating-point operation kept in place (psp/pmf.cpp:11-343).

    The counterpart of MPMF in the style of MFloat: each double operation of the source is an
    operation of [fops], in the order of the source; comparisons, std::min, std::max, negation and
    the conversion of an int are exact.  The merge loop of PDT::run only compares; it is [pdt_merge] of
    MPMF.  Not modelled, as in MFloat: overflow, underflow, NaN operands and infinite operands (the
    infinite second components of the parameters are kept apart, as in MPMF). *)
From Verif Require Import Base Graph MSets MGraph MaxFlow MDil MDT MPMF MFloat.

(** std::min(a - lambda, b) (psp/pmf.cpp:37,168,178). *)
Definition f_ycap (o : fops) (p : Q * dbl) (lam : Q) : Q :=
  let c := fsub o (fst p) lam in
  match snd p with
  | Fin b => if Qltb b c then b else c
  | _ => c
  end.

(** The breakpoints collected at psp/pmf.cpp:15-20. *)
Definition f_turning_points (o : fops) (ps : list (Q * dbl)) : list Q :=
  flat_map (fun p => match snd p with Fin b => [fsub o (fst p) b] | _ => [] end) ps.

(** tolerance.less and tolerance.different of lemon::Tolerance<double>. *)
Definition f_tol_less (o : fops) (eps a b : Q) : bool := Qltb (fadd o a eps) b.
Definition f_tol_different (o : fops) (eps a b : Q) : bool := f_tol_less o eps a b || f_tol_less o eps b a.

(** The loop over the breakpoints and the final return (psp/pmf.cpp:54-62). *)
Fixpoint f_lam_scan (o : fops) (target : Q) (tps : list Q) (sum : Q) (slope : Z) (last : Q) : option Q :=
  match tps with
  | [] => if (slope =? 0)%Z then None
          else Some (fadd o (fdiv o (fsub o target sum) (inject_Z slope)) last)
  | tp :: t =>
      let sum' := fadd o sum (fmul o (inject_Z slope) (fsub o tp last)) in
      if Qle_bool sum' target then
        if (slope =? 0)%Z then None
        else Some (fadd o (fdiv o (fsub o target sum') (inject_Z slope)) tp)
      else f_lam_scan o target t sum' (slope - 1)%Z tp
  end.

(** PMF::compute_lambda (psp/pmf.cpp:11-63). *)
Definition f_compute_lambda (o : fops) (eps : Q) (ps : list (Q * dbl)) (target : Q) : res (option Q) :=
  match isort Qltb (f_turning_points o ps) with
  | [] => match ps with
          | [] => Ok None
          | _ => Ok (Some (fdiv o (fsum o (- target) (map fst ps)) (qn (length ps))))
          end
  | tp :: t =>
      let slope := (- Z.of_nat (infinity_count ps))%Z in
      let sum := fsum o 0 (map (fun p => f_ycap o p tp) ps) in
      let intersept := fsum o 0 (map (fun p => match snd p with Fin b => b | _ => fst p end) ps) in
      if f_tol_less o eps sum target then
        if (slope =? 0)%Z then Throw else Ok (Some (fdiv o (fsub o target intersept) (inject_Z slope)))
      else if negb (f_tol_different o eps target sum) then Ok (Some tp)
      else Ok (f_lam_scan o target (tp :: t) sum slope tp)
  end.

(** Source and sink arcs of node [i] after update_dig(lambda) (psp/pmf.cpp:116-123, 163-180). *)
Definition f_pmf_arcs (o : fops) (eps : Q) (E : graph) (j : nat) (y : list (Q * dbl)) (lam : Q) (i : nat)
  : network :=
  let c := f_ycap o (yat y i) lam in
  mkNarc NSrc (NV i) (if Qltb c 0 then - c else 0) ::
  repeat (mkNarc (NV i) NSnk (fadd o (sink_cost E j i) (qmax 0 c))) (sink_copies eps E j i).

(** The network [dig] at stage [j] (psp/pmf.cpp:103-123, 163-180), as in [pmf_net]. *)
Definition f_pmf_net (o : fops) (eps : Q) (E : graph) (j : nat) (y : list (Q * dbl)) (lam : Q) : network :=
  inner_arcs E (seq 0 j) ++ flat_map (f_pmf_arcs o eps E j y lam) (seq 0 j).

(** Max flow at lambda and get_min_cut_sink_side (psp/pmf.cpp:80-87, 125-132, 216-227), as in [pmf_cut]. *)
Definition f_pmf_cut (o : fops) (mc : solver) (eps : Q) (E : graph) (j : nat) (y : list (Q * dbl)) (lam : Q)
  : Q * cset :=
  let fX := mc (seq 0 j) (f_pmf_net o eps E j y lam) in
  (fst fX, cadd j (cset_of (filter (mem (snd fX)) (seq 0 j)))).

(** get_cut_value on [dig] (psp/graph.h:45-55, called at psp/pmf.cpp:214); [itn] gives the order in
    which ArcIt visits the arcs of [dig]. *)
Definition f_net_cut (o : fops) (itn : network -> network) (N : network) (S : cset) : Q :=
  fsum o 0 (map ncap (filter (fun a => negb (side (mem S) (nsrc a)) && side (mem S) (ndst a)) (itn N))).

(** tolerance.different(lambda_2, x) for a possibly infinite x (psp/pmf.cpp:203). *)
Definition f_dbl_different (o : fops) (eps l2 : Q) (x : dbl) : bool :=
  match x with Fin q => f_tol_different o eps l2 q | PInf => true | NaN => false end.

(** PMF::slice (psp/pmf.cpp:182-242) and compute_lambda_eq_const (psp/pmf.cpp:243-248). *)
Fixpoint f_pmf_slice (fuel : nat) (o : fops) (it : graph -> graph) (itn : network -> network) (mc : solver)
         (eps : Q) (E : graph) (n j : nat) (y : list (Q * dbl)) (Tl Tr : cset) (l1 : Q) (l3 : dbl)
  : res (list dbl * list cset) :=
  match fuel with
  | O => OutOfFuel
  | S fuel' =>
      let target := fsub o (f_cut_value o it E Tl) (f_cut_value o it E Tr) in
      let ps := map (yat y) (filter (fun i => mem Tl i && negb (mem Tr i)) (seq 0 (n - 1))) in
      do r <- f_compute_lambda o eps ps target;
      match r with
      | None => Ok ([NaN], [])
      | Some l2 =>
          if negb (f_tol_different o eps l2 l1) || negb (f_dbl_different o eps l2 l3)
          then Ok ([Fin l2], [])
          else if Qltb l2 l1 || dltb l3 (Fin l2) then Throw
          else
            let original := f_net_cut o itn (f_pmf_net o eps E j y l2) Tr in
            let fT := f_pmf_cut o mc eps E j y l2 in
            let T' := snd fT in
            if negb (ceqb T' Tr) && negb (ceqb T' Tl) && Qltb (fst fT) (fsub o original (fmul o 10 eps))
            then
              do a <- f_pmf_slice fuel' o it itn mc eps E n j y Tl T' l1 (Fin l2);
              do b <- f_pmf_slice fuel' o it itn mc eps E n j y T' Tr l2 l3;
              Ok (fst a ++ fst b, T' :: snd a ++ snd b)
            else Ok ([Fin l2], [])
      end
  end.

(** PMF::run for stage [j] (psp/pmf.cpp:89-141); [il] is the double init_lambda (line 124). *)
Definition f_pmf_run (o : fops) (it : graph -> graph) (itn : network -> network) (mc : solver) (eps il : Q)
           (E : graph) (n j : nat) (y : list (Q * dbl)) : res (list dbl * list cset) :=
  if (j <? n)%nat then
    let T0 := snd (f_pmf_cut o mc eps E j y il) in
    do r <- f_pmf_slice (S n) o it itn mc eps E n j y T0 [j] il PInf;
    Ok (isort dltb (fst r), isort superset (T0 :: [j] :: snd r))
  else Throw.

(** One entry of the update of _y_lambda (psp/pmf.cpp:286-307). *)
Definition f_y_entry (o : fops) (it : graph -> graph) (E : graph) (lams : list dbl) (sets : list cset) (j : nat)
           (y : list (Q * dbl)) (u : nat) : res (Q * dbl) :=
  if (u =? j)%nat then Ok (f_cut_value o it E [j], PInf)
  else if (u <? j)%nat then
    match length (filter (fun s => mem s u) sets) with
    | O => Ok (yat y u)
    | S c =>
        match nth_error lams c with
        | None => UB
        | Some (Fin l) =>
            match snd (yat y u) with
            | Fin b => if Qltb (fsub o (fst (yat y u)) b) l
                       then Ok (fst (yat y u), Fin (fsub o (fst (yat y u)) l)) else Ok (yat y u)
            | _ => Ok (fst (yat y u), Fin (fsub o (fst (yat y u)) l))
            end
        | Some _ => Ok (yat y u)
        end
    end
  else Ok (yat y u).

(** One round of the main loop of PDT::run (psp/pmf.cpp:280-341). *)
Definition f_pdt_step (o : fops) (it : graph -> graph) (itn : network -> network) (mc : solver) (eps il : Q)
           (E : graph) (n : nat) (st : pdt_state) (j : nat) : res pdt_state :=
  do r <- f_pmf_run o it itn mc eps il E n j (fst st);
  let lams := fst r in
  let sets := snd r in
  do y' <- mapr (f_y_entry o it E lams sets j (fst st)) (seq 0 n);
  if (length sets =? S (length lams))%nat then
    let B := combine (lams ++ [PInf]) sets in
    do out <- pdt_merge (S (length (snd st) + length B)) (snd st) B [];
    Ok (y', out)
  else UB.

(** PDT::run on a new object and the getters (psp/pmf.cpp:256-343); a graph without nodes is UB as in
    [pdt_loop]. *)
Definition f_pdt_run (o : fops) (it : graph -> graph) (itn : network -> network) (mc : solver) (eps il : Q)
           (E : graph) (n : nat) : res (list dbl * list cpart) :=
  if (n =? 0)%nat then UB
  else
    do st <- foldr (f_pdt_step o it itn mc eps il E n) (repeat (0, PInf) n, [(PInf, [[0%nat]])]) (seq 1 (n - 1));
    Ok (removelast (map fst (snd st)), map snd (snd st)).
