(** * MDT: model of class DT (psp/dt.cpp:95-177). *)
From Verif Require Import Base Graph MSets MGraph MaxFlow MDil.

(** Doubles that can leave the finite range (division 0/0, INFINITY). *)
Inductive dbl : Type := Fin (q : Q) | PInf | NaN.

(** DT::evaluate (psp/dt.cpp:175-177). *)
Definition dt_evaluate (E : graph) (P : cpart) : Q := get_partition_value E P.

(** Difference of cardinalities, converted to double (psp/dt.cpp:106,107,129,130).
    Cardinality() is taken to be a signed int. *)
Definition card_diff (P Qp : cpart) : Q := inject_Z (Z.of_nat (length P) - Z.of_nat (length Qp)).

(** gamma' (psp/dt.cpp:106,129). *)
Definition dt_gamma (E : graph) (Qp P : cpart) : Q :=
  Qred ((dt_evaluate E P - dt_evaluate E Qp) / card_diff P Qp).

(** h' (psp/dt.cpp:107,130). *)
Definition dt_h (E : graph) (Qp P : cpart) : Q :=
  (qn (length P) * dt_evaluate E Qp - qn (length Qp) * dt_evaluate E P) / card_diff P Qp.

(** DT::split(Q, P) (psp/dt.cpp:128-143): returns the critical values and partitions pushed, in
    order.  If the cardinalities agree (only for a one-node graph) gamma' and h' are 0/0 = NaN,
    the truncation's minimum is NaN, its partition has the same cardinality and NaN is
    pushed. *)
Fixpoint dt_split (fuel : nat) (mc : solver) (eps : Q) (E : graph) (n : nat) (Qp P : cpart)
  : res (list dbl * list cpart) :=
  match fuel with
  | O => OutOfFuel
  | S fuel' =>
      if (length P =? length Qp)%nat then Ok ([NaN], [])
      else
        let gamma := dt_gamma E Qp P in
        let h := dt_h E Qp P in
        do r <- dt_dil_run mc gamma E n;
        let min_value := fst r in
        let P' := snd r in
        if Qltb (h - eps) min_value || (length Qp =? length P')%nat || (length P =? length P')%nat
        then Ok ([Fin gamma], [])
        else
          do l <- dt_split fuel' mc eps E n Qp P';
          do r <- dt_split fuel' mc eps E n P' P;
          Ok (fst l ++ fst r, P' :: snd l ++ snd r)
  end.

(** Stable insertion sort; stands for std::list::sort (psp/dt.cpp:161,164). *)
Fixpoint insert {A} (ltb : A -> A -> bool) (x : A) (l : list A) : list A :=
  match l with
  | [] => [x]
  | y :: t => if ltb y x then y :: insert ltb x t else x :: l
  end.
Definition isort {A} (ltb : A -> A -> bool) (l : list A) : list A :=
  fold_right (insert ltb) [] l.

(** operator< on doubles. *)
Definition dltb (a b : dbl) : bool :=
  match a, b with
  | Fin x, Fin y => Qltb x y
  | Fin _, PInf => true
  | _, _ => false
  end.

(** partition_compare (psp/dt.cpp:162-163). *)
Definition card_ltb (p q : cpart) : bool := (length p <? length q)%nat.

(** DT::run() (psp/dt.cpp:153-165) followed by get_critical_values and get_psp
    (psp/dt.cpp:167-173).  Fuel: number of nodes plus one. *)
Definition dt_run (mc : solver) (eps : Q) (E : graph) (n : nat) : res (list dbl * list cpart) :=
  let Qp := [cdense n] in
  let P := pfine n in
  do r <- dt_split (S n) mc eps E n Qp P;
  Ok (isort dltb (fst r), isort card_ltb (Qp :: P :: snd r)).

(** DT::split(Q, P, partition_num) (psp/dt.cpp:100-126). *)
Fixpoint dt_split_num (fuel : nat) (mc : solver) (eps : Q) (E : graph) (n : nat)
         (Qp P : cpart) (num : nat) : res cpart :=
  match fuel with
  | O => OutOfFuel
  | S fuel' =>
      if (length Qp =? length P)%nat then Throw
      else
        let gamma := dt_gamma E Qp P in
        let h := dt_h E Qp P in
        do r <- dt_dil_run mc gamma E n;
        let min_value := fst r in
        let P' := snd r in
        if Qltb (h - eps) min_value then Ok P
        else if (length P' =? num)%nat then Ok P'
        else if (length P' <? num)%nat then dt_split_num fuel' mc eps E n P' P num
        else dt_split_num fuel' mc eps E n Qp P' num
  end.

(** DT::run(partition_num) (psp/dt.cpp:145-151). *)
Definition dt_run_num (mc : solver) (eps : Q) (E : graph) (n num : nat) : res cpart :=
  dt_split_num (S n) mc eps E n [cdense n] (pfine n) num.
