(** * MShow: how main.cpp and example/example.cpp write critical values, and the two programs in floating-point arithmetic.

    main.cpp:78 and example/example.cpp:22 write a double with operator<< of a stream in its default state:
    the conversion %g of C with six significant digits.  The digits are those of the exact value of the double, rounded to
    nearest, ties to even.  Not modelled: the sign of a zero and of a NaN, other locales. *)
From Coq Require Import String Ascii Qabs.
From Verif Require Import Base Graph MSets MGraph MaxFlow MDil MDT MContract MHost MPMF MFloat MWrap MFloatW.
Notation length := List.length.
Open Scope list_scope.
Open Scope Z_scope.

(** ** %g, precision 6 *)

(** The exponent of the style e: [10 ^ snd <= q < 10 ^ (snd + 1)], [fst = q / 10 ^ snd], for positive q. *)
Fixpoint scale_down (fuel : nat) (q : Q) (e : Z) : Q * Z :=
  match fuel with
  | O => (q, e)
  | S f => if Qltb q 10 then (q, e) else scale_down f (Qred (q * (1#10))) (e + 1)
  end.
Fixpoint scale_up (fuel : nat) (q : Q) (e : Z) : Q * Z :=
  match fuel with
  | O => (q, e)
  | S f => if Qle_bool 1 q then (q, e) else scale_up f (Qred (q * 10)) (e - 1)
  end.
Definition scaled (q : Q) : Q * Z :=
  let d := scale_down (Pos.size_nat (Z.to_pos (Qnum q))) q 0 in scale_up (Pos.size_nat (Qden q)) (fst d) (snd d).

(** The six significant digits as a number m, and the exponent X: m * 10^(X - 5). *)
Definition sig6 (q : Q) : Z * Z :=
  let s := scaled q in
  let m := zround (fst s * 100000) in
  if m =? 1000000 then (100000, snd s + 1) else (m, snd s).

(** The last k decimal digits of m. *)
Fixpoint digs (k : nat) (m : Z) : list Z :=
  match k with O => [] | S k' => digs k' (m / 10) ++ [m mod 10] end.

(** The decimal digits of z without leading zeros; more than z digits are not needed. *)
Fixpoint all_digs (fuel : nat) (z : Z) : list Z :=
  match fuel with O => [] | S f => if z <? 10 then [z] else all_digs f (z / 10) ++ [z mod 10] end.

(** The exponent has at least two digits. *)
Definition exp_digs (e : Z) : list Z :=
  match all_digs (S (Z.to_nat e)) e with [d] => [0; d] | l => l end.

(** %g removes zeros at the end of the fraction. *)
Fixpoint strip0 (l : list Z) : list Z :=
  match l with
  | [] => []
  | d :: t => match strip0 t with [] => if d =? 0 then [] else [d] | t' => d :: t' end
  end.

Definition chr (d : Z) : ascii := ascii_of_nat (48 + Z.to_nat d).

(** Digits before and after the point; no point if there are none after it. *)
Definition fixed (i f : list Z) : list ascii :=
  map chr i ++ match f with [] => [] | _ => "."%char :: map chr f end.

Definition show_pos (q : Q) : list ascii :=
  let (m, X) := sig6 q in
  let ds := digs 6 m in
  if (-4 <=? X) && (X <? 6) then
    if 0 <=? X then fixed (firstn (Z.to_nat (X + 1)) ds) (strip0 (skipn (Z.to_nat (X + 1)) ds))
    else fixed [0] (strip0 (repeat 0 (Z.to_nat (- X - 1)) ++ ds))
  else fixed (firstn 1 ds) (strip0 (skipn 1 ds)) ++
       "e"%char :: (if X <? 0 then "-"%char else "+"%char) :: map chr (exp_digs (Z.abs X)).

Definition show_fin (q : Q) : list ascii :=
  if Qeq_bool q 0 then ["0"%char] else if Qltb q 0 then "-"%char :: show_pos (- q) else show_pos q.

(** operator<<(ostream&, double). *)
Definition show_dbl (x : dbl) : string :=
  match x with
  | Fin q => string_of_list_ascii (show_fin q)
  | PInf => "inf"%string
  | NaN => "nan"%string
  end.

(** ** main.cpp and example.cpp *)

(** A line of the result file; operator<< of partitions is in a missing submodule. *)
Inductive tline : Type := TPart (P : cpart) | TVal (s : string).
Definition text_of (l : line) : tline := match l with LPart P => TPart P | LVal x => TVal (show_dbl x) end.

(** main.cpp:30-82 with doubles, compiled without AGG; [E] is what the reader (51-53) stores, the capacities rounded to
    doubles.  [None] if the method is refused. *)
Definition f_main (v : fenv) (m : string) (E : graph) (n : nat) : res (option (list tline)) :=
  if ((m =? "dt") || (m =? "psp_i") || (m =? "pdt") || (m =? "pdt_r") || (m =? "agg_psp") || (m =? "hpsp"))%string
  then do r <- f_dispatch v m E n; do l <- main_output (fst r) (snd r); Ok (Some (map text_of l))
  else Ok None.

(** The loop at example/example.cpp:20-25: value after partition, then [*partition_list_iterator] once more. *)
Fixpoint example_loop (cvs : list dbl) (it : list cpart) : res (list line) :=
  match it with
  | [] => UB
  | P :: it' => match cvs with [] => Ok [LPart P] | x :: cvs' => do r <- example_loop cvs' it'; Ok (LPart P :: LVal x :: r) end
  end.

(** example/example.cpp:6-26: the graph (9-11), the constructor, which drops weights up to the tolerance (psp/psp.cpp:11-16),
    run() with its default method (psp/psp.h:24) and the output. *)
Definition example_arcs : list (nat * nat * Q) := [((0, 1)%nat, 1%Q); ((0, 2)%nat, 5%Q); ((1, 2)%nat, 1%Q)].
Definition f_example (v : fenv) : res (list tline) :=
  do G <- psp_ctor (fe_eps v) example_arcs 3;
  do r <- f_dispatch v "psp_i" (garcs (ob_g G)) 3;
  do l <- example_loop (fst r) (snd r); Ok (map text_of l).
