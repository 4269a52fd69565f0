(** * MPMF: model of the parametric max-flow class PMF and of PDT (psp/pmf.cpp, psp/pmf.h).

    Doubles are exact rationals; a parameter pair (a, b) stands for the function
    lambda |-> min (a - lambda) b, with b possibly infinite (psp/pmf.h:14). *)
From Verif Require Import Base Graph MSets MGraph MaxFlow MDil MDT.

(** std::min(a - lambda, b) (psp/pmf.cpp:37,168,178). *)
Definition ycap (p : Q * dbl) (lam : Q) : Q :=
  match snd p with
  | Fin b => if Qltb b (fst p - lam) then b else fst p - lam
  | _ => fst p - lam
  end.

(** The breakpoints collected at psp/pmf.cpp:15-20. *)
Definition turning_points (ps : list (Q * dbl)) : list Q :=
  flat_map (fun p => match snd p with Fin b => [fst p - b] | _ => [] end) ps.

(** [infinity_count] (psp/pmf.cpp:14-20). *)
Definition infinity_count (ps : list (Q * dbl)) : nat :=
  length (filter (fun p => match snd p with Fin _ => false | _ => true end) ps).

(** tolerance.less and tolerance.different of lemon::Tolerance<double>. *)
Definition tol_less (eps a b : Q) : bool := Qltb (a + eps) b.
Definition tol_different (eps a b : Q) : bool := tol_less eps a b || tol_less eps b a.

(** The loop over the breakpoints and the final return (psp/pmf.cpp:54-62); [slope] is an int.
    [None]: a floating-point division by zero (infinity or NaN). *)
Fixpoint lam_scan (target : Q) (tps : list Q) (sum : Q) (slope : Z) (last : Q) : option Q :=
  match tps with
  | [] => if (slope =? 0)%Z then None else Some ((target - sum) / inject_Z slope + last)
  | tp :: t =>
      let sum' := sum + inject_Z slope * (tp - last) in
      if Qle_bool sum' target then
        if (slope =? 0)%Z then None else Some ((target - sum') / inject_Z slope + tp)
      else lam_scan target t sum' (slope - 1)%Z tp
  end.

(** PMF::compute_lambda (psp/pmf.cpp:11-63).  [Throw] is std::range_error "no solution"
    (line 45); [None] is the result of dividing by zero, in particular for an empty list (line 27). *)
Definition compute_lambda (eps : Q) (ps : list (Q * dbl)) (target : Q) : res (option Q) :=
  match isort Qltb (turning_points ps) with
  | [] => match ps with
          | [] => Ok None
          | _ => Ok (Some ((qsum fst ps - target) / qn (length ps)))
          end
  | tp :: t =>
      let slope := (- Z.of_nat (infinity_count ps))%Z in
      let sum := qsum (fun p => ycap p tp) ps in
      let intersept := qsum (fun p => match snd p with Fin b => b | _ => fst p end) ps in
      if tol_less eps sum target then
        if (slope =? 0)%Z then Throw else Ok (Some ((target - intersept) / inject_Z slope))
      else if negb (tol_different eps target sum) then Ok (Some tp)
      else Ok (lam_scan target (tp :: t) sum slope tp)
  end.

(** [_y_lambda[i]]. *)
Definition yat (y : list (Q * dbl)) (i : nat) : Q * dbl := nth i y (0, PInf).

(** Number of arcs from node [i] to the sink node [j] in [dig]: the copies made at
    psp/pmf.cpp:107-112 and the one added at line 121 if sink_capacity is below the tolerance. *)
Definition sink_copies (eps : Q) (E : graph) (j i : nat) : nat :=
  (length (filter (fun a => (asrc a =? i)%nat && (adst a =? j)%nat) E) +
   if Qltb (sink_cost E j i) eps then 1 else 0)%nat.

(** Source and sink arcs of node [i] with the capacities set by update_dig(lambda)
    (psp/pmf.cpp:116-123, 163-180); sink_capacity as in psp/pmf.cpp:92-97. *)
Definition pmf_arcs (eps : Q) (E : graph) (j : nat) (y : list (Q * dbl)) (lam : Q) (i : nat)
  : network :=
  let c := ycap (yat y i) lam in
  mkNarc NSrc (NV i) (if Qltb c 0 then - c else 0) ::
  repeat (mkNarc (NV i) NSnk (sink_cost E j i + qmax 0 c)) (sink_copies eps E j i).

(** The network [dig] at stage [j] after update_dig(lambda) (psp/pmf.cpp:103-123, 163-180).  The
    sink is graph node [j].  Arcs leaving [j] are left out: they never enter a
    sink side.  The node filter enables exactly 0..j (lines 70, 145). *)
Definition pmf_net (eps : Q) (E : graph) (j : nat) (y : list (Q * dbl)) (lam : Q) : network :=
  inner_arcs E (seq 0 j) ++ flat_map (pmf_arcs eps E j y lam) (seq 0 j).

(** Max flow at lambda and get_min_cut_sink_side (psp/pmf.cpp:80-87, 125-132, 216-227): flow value
    and sink side, including the sink itself.  The warm start from [newFlowMap] (lines 216-219)
    does not change what a maximum flow is; see [modify_flow] in MWarm. *)
Definition pmf_cut (mc : solver) (eps : Q) (E : graph) (j : nat) (y : list (Q * dbl)) (lam : Q)
  : Q * cset :=
  let fX := mc (seq 0 j) (pmf_net eps E j y lam) in
  (fst fX, cadd j (cset_of (filter (mem (snd fX)) (seq 0 j)))).

(** CSet::operator== on [std::set]s (psp/pmf.cpp:233). *)
Fixpoint ceqb (s t : cset) : bool :=
  match s, t with
  | [], [] => true
  | x :: s', y :: t' => (x =? y)%nat && ceqb s' t'
  | _, _ => false
  end.

(** Partition::operator!= negated (psp/pmf.cpp:318). *)
Fixpoint peqb (P R : cpart) : bool :=
  match P, R with
  | [], [] => true
  | A :: P', B :: R' => ceqb A B && peqb P' R'
  | _, _ => false
  end.

(** tolerance.different(lambda_2, x) for a possibly infinite x (psp/pmf.cpp:203). *)
Definition dbl_different (eps l2 : Q) (x : dbl) : bool :=
  match x with Fin q => tol_different eps l2 q | PInf => true | NaN => false end.

(** PMF::slice (psp/pmf.cpp:182-242, without the _DEBUG blocks): the lambdas and sets pushed, in
    order.  compute_lambda_eq_const (lines 243-248) is the target.  A NaN
    lambda_2 is not different from anything, so it is pushed (lines 203-206). *)
Fixpoint pmf_slice (fuel : nat) (mc : solver) (eps : Q) (E : graph) (n j : nat)
         (y : list (Q * dbl)) (Tl Tr : cset) (l1 : Q) (l3 : dbl)
  : res (list dbl * list cset) :=
  match fuel with
  | O => OutOfFuel
  | S fuel' =>
      let target := get_cut_value E Tl - get_cut_value E Tr in
      let ps := map (yat y) (filter (fun i => mem Tl i && negb (mem Tr i)) (seq 0 (n - 1))) in
      do r <- compute_lambda eps ps target;
      match r with
      | None => Ok ([NaN], [])
      | Some l =>
          let l2 := Qred l in
          if negb (tol_different eps l2 l1) || negb (dbl_different eps l2 l3)
          then Ok ([Fin l2], [])
          else if Qltb l2 l1 || dltb l3 (Fin l2) then Throw
          else
            let original := cut (pmf_net eps E j y l2) (mem Tr) in
            let fT := pmf_cut mc eps E j y l2 in
            let T' := snd fT in
            if negb (ceqb T' Tr) && negb (ceqb T' Tl) && Qltb (fst fT) (original - 10 * eps)
            then
              do a <- pmf_slice fuel' mc eps E n j y Tl T' l1 (Fin l2);
              do b <- pmf_slice fuel' mc eps E n j y T' Tr l2 l3;
              Ok (fst a ++ fst b, T' :: snd a ++ snd b)
            else Ok ([Fin l2], [])
      end
  end.

(** is_superset (psp/pmf.cpp:139). *)
Definition superset (A B : cset) : bool := forallb (mem A) B.

(** [init_lambda] (psp/pmf.cpp:124), taken to be exactly -1/10. *)
Definition init_lambda : Q := - (1 # 10).

(** PMF::run for stage [j] (psp/pmf.cpp:89-141): (lambda_list, set_list) as returned by the getters
    at lines 249-250.  Fuel: number of nodes plus one. *)
Definition pmf_run (mc : solver) (eps : Q) (E : graph) (n j : nat) (y : list (Q * dbl))
  : res (list dbl * list cset) :=
  if (j <? n)%nat then
    let T0 := snd (pmf_cut mc eps E j y init_lambda) in
    do r <- pmf_slice (S n) mc eps E n j y T0 [j] init_lambda PInf;
    Ok (isort dltb (fst r), isort superset (T0 :: [j] :: snd r))
  else Throw.

(** One entry of the update of _y_lambda (psp/pmf.cpp:286-307).  Running past the end of
    lambda_list is undefined. *)
Definition y_entry (E : graph) (lams : list dbl) (sets : list cset) (j : nat)
           (y : list (Q * dbl)) (u : nat) : res (Q * dbl) :=
  if (u =? j)%nat then Ok (get_cut_value E [j], PInf)
  else if (u <? j)%nat then
    match length (filter (fun s => mem s u) sets) with
    | O => Ok (yat y u)
    | S c =>
        match nth_error lams c with
        | None => UB
        | Some (Fin l) =>
            match snd (yat y u) with
            | Fin b => if Qltb (fst (yat y u) - b) l
                       then Ok (fst (yat y u), Fin (Qred (fst (yat y u) - l))) else Ok (yat y u)
            | _ => Ok (fst (yat y u), Fin (Qred (fst (yat y u) - l)))
            end
        | Some _ => Ok (yat y u)
        end
    end
  else Ok (yat y u).

(** Monadic map. *)
Fixpoint mapr {A B} (f : A -> res B) (l : list A) : res (list B) :=
  match l with
  | [] => Ok []
  | x :: t => do b <- f x; do r <- mapr f t; Ok (b :: r)
  end.

(** std::min and the comparisons of possibly infinite doubles (psp/pmf.cpp:321-333). *)
Definition dle (a b : dbl) : bool :=
  match a, b with
  | Fin x, Fin y => Qle_bool x y
  | Fin _, PInf => true
  | PInf, PInf => true
  | _, _ => false
  end.
Definition dmin (a b : dbl) : dbl := if dltb b a then b else a.

(** The merge loop (psp/pmf.cpp:311-338): [A] is (Lambda_list, partition_list), [B] is (lambda_list
    followed by infinity, t_list), [out] the two output lists, newest first.  The loop does not
    terminate if a NaN is compared: [OutOfFuel]. *)
Fixpoint pdt_merge (fuel : nat) (A : list (dbl * cpart)) (B : list (dbl * cset))
         (out : list (dbl * cpart)) : res (list (dbl * cpart)) :=
  match fuel with
  | O => OutOfFuel
  | S fuel' =>
      match A, B with
      | (di, p) :: A', (dk, t) :: B' =>
          let Q' := pexpand p t in
          let d := dmin di dk in
          let out' := match out with
                      | (d0, q) :: o => if peqb Q' q then (d, q) :: o else (d, Q') :: out
                      | [] => [(d, Q')]
                      end in
          pdt_merge fuel' (if dle di dk then A' else A) (if dle dk di then B' else B) out'
      | _, _ => Ok (rev out)
      end
  end.

(** State of PDT: _y_lambda and the pairs (Lambda_list, partition_list). *)
Definition pdt_state : Type := list (Q * dbl) * list (dbl * cpart).

(** One round of the main loop (psp/pmf.cpp:280-341, psp/pmf_r.cpp:708-769); [pm] is PMF::run resp.
    PMF_R::run.  The two output lists have equal length, and so have [t_list] and
    [lambda_list] followed by infinity when the inner run succeeds; otherwise the iterators run
    past the end (UB). *)
Definition pdt_step (pm : nat -> list (Q * dbl) -> res (list dbl * list cset)) (E : graph) (n : nat)
           (st : pdt_state) (j : nat) : res pdt_state :=
  do r <- pm j (fst st);
  let lams := fst r in
  let sets := snd r in
  do y' <- mapr (y_entry E lams sets j (fst st)) (seq 0 n);
  if (length sets =? S (length lams))%nat then
    let B := combine (lams ++ [PInf]) sets in
    do out <- pdt_merge (S (length (snd st) + length B)) (snd st) B [];
    Ok (y', out)
  else UB.

Fixpoint foldr {A S} (f : S -> A -> res S) (s : S) (l : list A) : res S :=
  match l with
  | [] => Ok s
  | x :: t => do s' <- f s x; foldr f s' t
  end.

(** PDT::run (psp/pmf.cpp:268-343) and PDT_R::run (psp/pmf_r.cpp:697-771) on an object whose
    _y_lambda is [y0] (empty on a new object): the final _y_lambda, Lambda_list and
    partition_list.  Line 279 (707) only fills up missing entries.  A graph without nodes makes
    the constructor of PMF write through an invalid node (psp/pmf.cpp:70, psp/pmf_r.cpp:71): UB. *)
Definition pdt_loop (pm : nat -> list (Q * dbl) -> res (list dbl * list cset)) (E : graph) (n : nat)
           (y0 : list (Q * dbl)) : res (list (Q * dbl) * (list dbl * list cpart)) :=
  if (n =? 0)%nat then UB
  else
    let y := y0 ++ repeat (0, PInf) (n - length y0) in
    do st <- foldr (pdt_step pm E n) (y, [(PInf, [[0%nat]])]) (seq 1 (n - 1));
    Ok (fst st, (removelast (map fst (snd st)), map snd (snd st))).

Definition pdt_run_from (mc : solver) (eps : Q) (E : graph) (n : nat) (y0 : list (Q * dbl))
  : res (list (Q * dbl) * (list dbl * list cpart)) :=
  pdt_loop (pmf_run mc eps E n) E n y0.

(** PDT::run on a new object, followed by get_critical_values and get_psp
    (psp/pmf.cpp:256-266). *)
Definition pdt_run (mc : solver) (eps : Q) (E : graph) (n : nat) : res (list dbl * list cpart) :=
  do r <- pdt_run_from mc eps E n []; Ok (snd r).

(** Two calls of run() on the same object (psp/pmf.cpp:269-274 clears the lists but keeps
    _y_lambda): the result of the second. *)
Definition pdt_run_twice (mc : solver) (eps : Q) (E : graph) (n : nat)
  : res (list dbl * list cpart) :=
  do r <- pdt_run_from mc eps E n [];
  do r2 <- pdt_run_from mc eps E n (fst r);
  Ok (snd r2).
