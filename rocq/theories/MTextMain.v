(** * MTextMain: main.cpp from the text of the graph file to the text of the result file, in doubles. *)
From Coq Require Import String.
From Verif Require Import Base Graph MSets MGraph MaxFlow MDil MContract MPMF MFloat MFloatW MWrap MMain MLgf MShow ShowThy.
Notation length := List.length (only parsing).
Open Scope list_scope.
Open Scope string_scope.

(** A capacity of the graph file as a double (main.cpp:52-53): the decimal number of the token, rounded to nearest.  [read_number] knows the
    spellings with digits before the point and a signed exponent; others that operator>> accepts are refused here. *)
Definition read_double (s : string) : option Q := option_map (rnd 53) (read_number s).

(** A run that ends with return: exit code, standard output, result file. *)
Record fended : Type := mkFEnd { fn_code : Z; fn_out : list said; fn_file : option (string * list tline) }.

(** main (main.cpp:13-85) compiled without AGG.  [fs] gives the text of a file; digraphReader throws if there is none (50-53).  [wr] tells
    whether a file of that name can be opened for writing (81).  As in [main_prog] (MMain) the command line is parsed already. *)
Definition f_main_prog (v : fenv) (fs : string -> option string) (wr : string -> bool) (o : opts) : res fended :=
  if op_help o then Ok (mkFEnd 0 [SHelp] None)
  else
    let method := match op_method o with Some m => m | None => "dt" end in
    if negb ((method =? "dt") || (method =? "psp_i") || (method =? "pdt") || (method =? "pdt_r") || (method =? "agg_psp") || (method =? "hpsp"))
    then Ok (mkFEnd 0 [SUnknown method; SHelp] None)
    else
      match op_graph o with
      | None => Throw
      | Some graph_filename =>
          let result0 := match op_result o with Some r => r | None => "output.txt" end in
          let report_time := match op_time o with Some b => b | None => false end in
          let result_filename := if result0 =? "output.txt" then method ++ "-" ++ graph_filename ++ ".txt" else result0 in
          do G <- match fs graph_filename with Some text => lgf_read read_double text | None => Throw end;
          do r <- f_dispatch v method (garcs G) (length (gnodes G));
          do l <- main_output (fst r) (snd r);
          Ok (mkFEnd 0 (if report_time then [STime] else [])
                (if wr result_filename then Some (result_filename, map text_of l) else None))
      end.
