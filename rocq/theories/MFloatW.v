(** * MFloatW: PSP::run(method) in floating-point arithmetic (psp/psp.cpp:35-90).

    The methods are those of MFloat, MFloatT, MFloatR, MFloatP and MFloatH.  A caller's weight [w] reaches the graph
    as the double [rw53 w] ([stored]).  agg_psp is left out: its arithmetic is not modelled with rounding. *)
From Coq Require Import String.
From Verif Require Import Base Graph MSets MGraph MaxFlow MDil MDT MContract MPSPI MHPSP MPMF MPMFR MFloat MFloatT MFloatR MFloatP MFloatH.
Open Scope string_scope.

(** What a run depends on besides the graph: the arithmetic, the orders in which LEMON's iterators visit arcs, the two
    max-flow workers, which of them finishes first in each slice of pdt_r, the tolerance and init_lambda. *)
Record fenv : Type := mkFenv {
  fe_o : fops; fe_it : nat -> graph -> graph; fe_ita : graph -> graph; fe_itn : network -> network;
  fe_mc : solver; fe_mr : solver; fe_sch : nat -> list bool -> bool; fe_eps : Q; fe_il : Q }.

(** PSP::run (psp/psp.cpp:35-52) and the run_ functions it calls (53-90), compiled without AGG, on a graph with the nodes
    0, ..., n-1; the result is what get_critical_values and get_partitions (91-103) copy. *)
Definition f_dispatch (v : fenv) (m : string) (E : graph) (n : nat) : res (list dbl * list cpart) :=
  if m =? "dt" then f_dt_run (fe_o v) (fe_it v n) (fe_mc v) (fe_eps v) E n
  else if m =? "pdt" then f_pdt_run (fe_o v) (fe_it v n) (fe_itn v) (fe_mc v) (fe_eps v) (fe_il v) E n
  else if m =? "pdt_r" then
    f_pdtr_run (fe_o v) (fe_it v n) (fe_ita v) (fe_itn v) (fe_mc v) (fe_mr v) (fe_sch v) (fe_eps v) (fe_il v) E n
  else if m =? "psp_i" then
    do r <- f_psp_run (fe_o v) (fe_it v n) (fe_mc v) (fe_eps v) E n; Ok (map Fin (o_cv r), o_psp r)
  else if m =? "hpsp" then
    do r <- f_hpsp_run (fe_o v) (fe_it v n) (fe_mc v) (fe_eps v) E n; Ok (ho_cv r, ho_psp r)
  else Throw.
