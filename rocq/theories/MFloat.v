(** * MFloat: class DT with every floating-point operation kept in place (psp/dt.cpp:17-177).

    MDil and MDT compute in the rationals.  Here each double operation of the source is a call of
    an operation of [fops], in the order of the source, and the stored doubles are the rationals
    they denote.  Not modelled: overflow, underflow, NaN and infinities (the operations are total on
    the rationals).  Comparisons, negation, std::max and the conversion of an int to double are
    exact, as in IEEE 754. *)
From Coq Require Import Qabs Qround.
From Verif Require Import Base Graph MSets MGraph MaxFlow MDil MDT.

(** The operations on doubles that round. *)
Record fops : Type := mkFops { fadd : Q -> Q -> Q; fsub : Q -> Q -> Q; fmul : Q -> Q -> Q; fdiv : Q -> Q -> Q }.

(** The standard model of floating-point arithmetic with unit roundoff [u]: the result of every
    operation is the exact result up to a relative error [u]. *)
Definition std_model (u : Q) (o : fops) : Prop :=
  forall a b,
    Qabs (fadd o a b - (a + b)) <= u * Qabs (a + b) /\
    Qabs (fsub o a b - (a - b)) <= u * Qabs (a - b) /\
    Qabs (fmul o a b - a * b) <= u * Qabs (a * b) /\
    (~ b == 0 -> Qabs (fdiv o a b - a / b) <= u * Qabs (a / b)).

(** [s = acc; for (x : l) s += x;] *)
Definition fsum (o : fops) (acc : Q) (l : list Q) : Q := fold_left (fadd o) l acc.

(** The graph as stored: the double kept for the weight of arc [a] is [rw a]. *)
Definition stored (rw : arc -> Q) (E : graph) : graph := map (fun a => mkArc (asrc a) (adst a) (rw a)) E.

(** get_cut_value (psp/graph.h:45-55); [it] gives the order in which ArcIt visits the arcs. *)
Definition f_cut_value (o : fops) (it : graph -> graph) (E : graph) (S : cset) : Q :=
  fsum o 0 (map aw (filter (fun a => negb (mem S (asrc a)) && mem S (adst a)) (it E))).

(** get_partition_value (psp/graph.h:57-63), and DT::evaluate (psp/dt.cpp:175-177). *)
Definition f_evaluate (o : fops) (it : graph -> graph) (E : graph) (P : cpart) : Q :=
  fsum o 0 (map (f_cut_value o it E) P).

(** Source and sink arcs of one node (psp/dt.cpp:58-70). *)
Definition f_st_arcs (o : fops) (E : graph) (j : nat) (p : nat * Q) : network :=
  let (i, x) := p in
  (if Qltb x 0 then [mkNarc NSrc (NV i) (- x)] else []) ++
  (let sc := fadd o (qmax 0 x) (sink_cost E j i) in
   if Qltb 0 sc then [mkNarc (NV i) NSnk sc] else []).

Definition f_network (o : fops) (E : graph) (xs : list (nat * Q)) (j : nat) : network :=
  inner_arcs E (map fst xs) ++ flat_map (f_st_arcs o E j) xs.

(** minimize (psp/dt.cpp:34-88). *)
Definition f_minimize (o : fops) (mc : solver) (lam : Q) (E : graph) (xs : list (nat * Q)) (j : nat) : Q * cset :=
  let nodes := map fst xs in
  let fX := mc nodes (f_network o E xs j) in
  (fsub o (fst fX) (fsum o lam (map (fun p => qmax 0 (snd p)) xs)),
   cset_of (filter (mem (snd fX)) nodes)).

(** The loop of run (psp/dt.cpp:21-27). *)
Fixpoint f_loop (o : fops) (mc : solver) (lam : Q) (E : graph)
         (todo : list nat) (xs : list (nat * Q)) (P : cpart) : list (nat * Q) * cpart :=
  match todo with
  | [] => (xs, P)
  | v :: t =>
      let aT := f_minimize o mc lam E xs v in
      f_loop o mc lam E t (xs ++ [(v, fst aT)]) (pexpand P (cadd v (snd aT)))
  end.

(** DilworthTruncation::run (psp/dt.cpp:17-32); a self loop is UB as in [dt_dil_run]. *)
Definition f_run (o : fops) (mc : solver) (lam : Q) (E : graph) (n : nat) : res (Q * cpart) :=
  if existsb (fun a => (asrc a =? adst a)%nat && (adst a <? n)%nat) E then UB
  else let r := f_loop o mc lam E (seq 0 n) [] [] in Ok (fsum o 0 (map snd (fst r)), snd r).

(** gamma' (psp/dt.cpp:106,129). *)
Definition f_gamma (o : fops) (it : graph -> graph) (E : graph) (Qp P : cpart) : Q :=
  fdiv o (fsub o (f_evaluate o it E P) (f_evaluate o it E Qp)) (card_diff P Qp).

(** h' (psp/dt.cpp:107,130). *)
Definition f_h (o : fops) (it : graph -> graph) (E : graph) (Qp P : cpart) : Q :=
  fdiv o (fsub o (fmul o (qn (length P)) (f_evaluate o it E Qp)) (fmul o (qn (length Qp)) (f_evaluate o it E P)))
         (card_diff P Qp).

(** DT::split(Q, P) (psp/dt.cpp:128-143). *)
Fixpoint f_split (fuel : nat) (o : fops) (it : graph -> graph) (mc : solver) (eps : Q) (E : graph) (n : nat)
         (Qp P : cpart) : res (list dbl * list cpart) :=
  match fuel with
  | O => OutOfFuel
  | S fuel' =>
      if (length P =? length Qp)%nat then Ok ([NaN], [])
      else
        let gamma := f_gamma o it E Qp P in
        let h := f_h o it E Qp P in
        do r <- f_run o mc gamma E n;
        let min_value := fst r in
        let P' := snd r in
        if Qltb (fsub o h eps) min_value || (length Qp =? length P')%nat || (length P =? length P')%nat
        then Ok ([Fin gamma], [])
        else
          do l <- f_split fuel' o it mc eps E n Qp P';
          do r <- f_split fuel' o it mc eps E n P' P;
          Ok (fst l ++ fst r, P' :: snd l ++ snd r)
  end.

(** DT::run() (psp/dt.cpp:153-165) followed by the two getters (psp/dt.cpp:167-173). *)
Definition f_dt_run (o : fops) (it : graph -> graph) (mc : solver) (eps : Q) (E : graph) (n : nat)
  : res (list dbl * list cpart) :=
  let Qp := [cdense n] in
  let P := pfine n in
  do r <- f_split (S n) o it mc eps E n Qp P;
  Ok (isort dltb (fst r), isort card_ltb (Qp :: P :: snd r)).

(** DT::split(Q, P, partition_num) (psp/dt.cpp:100-126). *)
Fixpoint f_split_num (fuel : nat) (o : fops) (it : graph -> graph) (mc : solver) (eps : Q) (E : graph) (n : nat)
         (Qp P : cpart) (num : nat) : res cpart :=
  match fuel with
  | O => OutOfFuel
  | S fuel' =>
      if (length Qp =? length P)%nat then Throw
      else
        let gamma := f_gamma o it E Qp P in
        let h := f_h o it E Qp P in
        do r <- f_run o mc gamma E n;
        let min_value := fst r in
        let P' := snd r in
        if Qltb (fsub o h eps) min_value then Ok P
        else if (length P' =? num)%nat then Ok P'
        else if (length P' <? num)%nat then f_split_num fuel' o it mc eps E n P' P num
        else f_split_num fuel' o it mc eps E n Qp P' num
  end.

(** DT::run(partition_num) (psp/dt.cpp:145-151). *)
Definition f_dt_run_num (o : fops) (it : graph -> graph) (mc : solver) (eps : Q) (E : graph) (n num : nat) : res cpart :=
  f_split_num (S n) o it mc eps E n [cdense n] (pfine n) num.

(** ** Binary rounding: nearest, ties to even, [p] significant bits, unbounded exponent.
    [p = 53] is the type double of the source (psp/dt.h:19,37), away from overflow and underflow. *)
Definition zround (q : Q) : Z :=
  let f := Qfloor q in
  let r := q - inject_Z f in
  if Qltb r (1#2) then f else if Qltb (1#2) r then (f + 1)%Z else if Z.even f then f else (f + 1)%Z.

(** [2 ^ qexp q <= |q| < 2 ^ (qexp q + 1)] *)
Definition qexp (q : Q) : Z :=
  let e := (Z.log2 (Z.abs (Qnum q)) - Z.log2 (Zpos (Qden q)))%Z in
  if Qle_bool (Qpower 2 e) (Qabs q) then e else (e - 1)%Z.

Definition rnd (p : Z) (q : Q) : Q :=
  if Qeq_bool q 0 then 0
  else let k := (p - 1 - qexp q)%Z in Qred (inject_Z (zround (q * Qpower 2 k)) * Qpower 2 (- k)).

Definition binary (p : Z) : fops :=
  mkFops (fun a b => rnd p (a + b)) (fun a b => rnd p (a - b)) (fun a b => rnd p (a * b)) (fun a b => rnd p (a / b)).

(** ArcIt of a ListDigraph: nodes newest first, the out-arcs of each newest first (psp/graph.h:48). *)
Definition lemon_order (n : nat) (E : graph) : graph :=
  flat_map (fun v => filter (fun a => (asrc a =? v)%nat) (rev E)) (rev (seq 0 n)).
