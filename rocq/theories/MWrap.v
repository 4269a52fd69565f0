(** * MWrap: the wrapper class PSP (psp/psp.cpp), main.cpp and psp/io_utility.cpp. *)
From Coq Require Import String.
From Verif Require Import Base Graph MSets MGraph MaxFlow MDil MDT MContract MHost MPSPI MHPSP MPMF MPMFR.
Open Scope string_scope.
Notation length := List.length (only parsing).

(** The max-flow solvers (forward and reverse), the schedules of the worker races of pdt_r, and the
    tolerance: everything outside of /repo that the methods depend on. *)
Record env : Type := mkEnv {
  e_mc : solver; e_mr : solver; e_sch : nat -> list bool -> bool; e_eps : Q
}.

(** Fields of PSP (psp/psp.h:32-38): the graph with its arc map, gamma_list and psp_list. *)
Record obj : Type := mkObj { ob_g : gst; ob_cv : list dbl; ob_psp : list cpart }.

(** PSP(arc_triple_list, n) (psp/psp.cpp:11-16). *)
Definition psp_ctor (eps : Q) (elt : list (nat * nat * Q)) (n : nat) : res obj :=
  do E <- make_dgraph eps n elt; Ok (mkObj (mkG (seq 0 n) E) [] []).

(** The loop at psp/psp.cpp:22-24: runs over s_list and indexes the two other vectors.  A negative
    id does not name a node; it is mapped to [n], the first id that is not one. *)
Fixpoint zip_arcs (n : nat) (s t : list Z) (w : list Q) : res (list (nat * nat * Q)) :=
  let id z := if (z <? 0)%Z then n else Z.to_nat z in
  match s with
  | [] => Ok []
  | a :: s' =>
      match t, w with
      | b :: t', c :: w' => do r <- zip_arcs n s' t' w'; Ok ((id a, id b, c) :: r)
      | _, _ => UB
      end
  end.

(** PSP(s_list, t_list, weight_list, n) (psp/psp.cpp:17-26). *)
Definition psp_ctor2 (eps : Q) (s t : list Z) (w : list Q) (n : nat) : res obj :=
  do elt <- zip_arcs n s t w; psp_ctor eps elt n.

(** PSP(g, edge_map) (psp/psp.cpp:27). *)
Definition psp_ctor3 (G : gst) : obj := mkObj G [] [].

(** Node ids 0..n-1.  dt, pdt and pdt_r look nodes up by these ids; on other graphs they are
    not modelled and given as [UB]. *)
Definition compact (G : gst) : bool := ceqb (gnodes G) (seq 0 (length (gnodes G))).

(** The methods as run by run_dt .. run_hpsp (psp/psp.cpp:53-82): the graph afterwards and the two
    result lists. *)
Definition method_dt (v : env) (G : gst) : res (gst * (list dbl * list cpart)) :=
  if compact G then host_dt_run (e_mc v) (e_eps v) G else UB.
Definition method_pdt (v : env) (G : gst) : res (gst * (list dbl * list cpart)) :=
  if compact G then do r <- pdt_run (e_mc v) (e_eps v) (garcs G) (length (gnodes G)); Ok (G, r) else UB.
Definition method_pdt_r (v : env) (G : gst) : res (gst * (list dbl * list cpart)) :=
  if compact G then
    do r <- pdtr_run (e_mc v) (e_mr v) (e_sch v) (e_eps v) (garcs G) (length (gnodes G)); Ok (G, r)
  else UB.
Definition method_psp_i (v : env) (G : gst) : res (gst * (list dbl * list cpart)) :=
  do o <- psp_run_on (e_mc v) (e_eps v) G; Ok (o_graph o, (map Fin (o_cv o), o_psp o)).
Definition method_hpsp (v : env) (G : gst) : res (gst * (list dbl * list cpart)) :=
  do o <- hpsp_run_on (e_mc v) (e_eps v) G; Ok (ho_graph o, (ho_cv o, ho_psp o)).

(** The chain of comparisons in PSP::run (psp/psp.cpp:36-51), compiled without AGG. *)
Definition dispatch (v : env) (m : string) (G : gst) : res (gst * (list dbl * list cpart)) :=
  if m =? "dt" then method_dt v G
  else if m =? "pdt" then method_pdt v G
  else if m =? "pdt_r" then method_pdt_r v G
  else if m =? "psp_i" then method_psp_i v G
  else if m =? "hpsp" then method_hpsp v G
  else Throw.

(** PSP::run(method) (psp/psp.cpp:35-52): the two lists are assigned after the method has returned. *)
Definition obj_run (v : env) (o : obj) (m : string) : res obj :=
  do r <- dispatch v m (ob_g o); Ok (mkObj (fst r) (fst (snd r)) (snd (snd r))).

(** The object after a call the caller survived.  A call that throws is one of an unknown method, of
    pdt or of pdt_r; none of these writes to the graph. *)
Definition obj_after (v : env) (o : obj) (m : string) : obj :=
  match obj_run v o m with Ok o' => o' | _ => o end.
Definition obj_runs (v : env) (o : obj) (ms : list string) : obj := fold_left (obj_after v) ms o.

(** get_critical_values and get_partitions (psp/psp.cpp:91-103) copy the lists. *)
Definition obj_results (o : obj) : list dbl * list cpart := (ob_cv o, ob_psp o).

(** ** main.cpp *)

(** Lines of the result file. *)
Inductive line : Type := LPart (P : cpart) | LVal (x : dbl).

(** The loop at main.cpp:76-80; [it] is what is left from it_2 on. *)
Fixpoint out_loop (cvs : list dbl) (it : list cpart) : res (list line) :=
  match cvs with
  | [] => Ok []
  | x :: cvs' =>
      match it with
      | _ :: (P :: _) as it' =>
          do r <- out_loop cvs' (tl it); Ok (LVal x :: LPart P :: r)
      | _ => UB
      end
  end.

(** main.cpp:74-80: [*it_2] of an empty list is undefined. *)
Definition main_output (cvs : list dbl) (Ps : list cpart) : res (list line) :=
  match Ps with
  | [] => UB
  | P :: _ => do r <- out_loop cvs Ps; Ok (LPart P :: r)
  end.

(** main.cpp:30-80: [None] if the method name is refused (lines 30-34), otherwise the contents of the
    result file.  Reading the graph file, option parsing and timing are not modelled. *)
Definition main_run (v : env) (m : string) (G : gst) : res (option (list line)) :=
  if (m =? "dt") || (m =? "psp_i") || (m =? "pdt") || (m =? "pdt_r") || (m =? "agg_psp") || (m =? "hpsp")
  then do o <- obj_run v (psp_ctor3 G) m; do l <- main_output (ob_cv o) (ob_psp o); Ok (Some l)
  else Ok None.

(** ** io_utility.cpp *)

(** What is sent to the stream. *)
Inductive tok : Type := TStr (s : string) | TInt (z : Z).

(** size() - 1 on size_t. *)
Definition usize_pred (k : Z) : Z := ((k - 1) mod 18446744073709551616)%Z.

(** The loop at psp/io_utility.cpp:5-7 from index [i] on; [xs] are the entries from [i] on, [bound] is
    size() - 1.  Reading past the end and [i++] beyond INT_MAX are undefined. *)
Fixpoint print_loop (bound i : Z) (xs : list Z) : res (list tok) :=
  if (i <? bound)%Z then
    match xs with
    | [] => UB
    | x :: xs' =>
        if (i =? 2147483647)%Z then UB
        else do r <- print_loop bound (i + 1) xs'; Ok (TInt x :: TStr ", " :: r)
    end
  else match xs with [] => UB | x :: _ => Ok [TInt x] end.

(** operator<< (psp/io_utility.cpp:3-10). *)
Definition print_vector (xs : list Z) : res (list tok) :=
  do r <- print_loop (usize_pred (Z.of_nat (length xs))) 0 xs; Ok (TStr "[" :: r ++ [TStr "]"]).
