(** * MMain: the command line program (main.cpp), and PSP::run compiled with AGG (psp/psp.cpp:46-49, 83-90). *)
From Coq Require Import String.
From Verif Require Import Base Graph MSets MGraph MaxFlow MDil MDT MContract MHost MPSPI MHPSP MPMF MPMFR MAIC MWrap.
Notation length := List.length (only parsing).
Open Scope list_scope.
Open Scope string_scope.

(** The solver and the tolerance of AIC, if the program is compiled with AGG. *)
Definition agg_env := option ((sf -> res (list Q)) * Q)%type.

(** run_agg_psp (psp/psp.cpp:84-89).  The entropy looks nodes up by the ids 0..n-1; on other graphs it is not
    modelled and given as [UB].  The loop runs at most once per node. *)
Definition method_agg (mnb : sf -> res (list Q)) (tol : Q) (G : gst) : res (gst * (list dbl * list cpart)) :=
  if compact G then
    do r <- agg_run (length (gnodes G)) mnb tol (length (gnodes G)) (garcs G); Ok (G, (map Fin (fst r), snd r))
  else UB.

(** The chain of comparisons in PSP::run (psp/psp.cpp:36-51). *)
Definition dispatch_b (v : env) (ag : agg_env) (m : string) (G : gst) : res (gst * (list dbl * list cpart)) :=
  if m =? "dt" then method_dt v G
  else if m =? "pdt" then method_pdt v G
  else if m =? "pdt_r" then method_pdt_r v G
  else if m =? "psp_i" then method_psp_i v G
  else if m =? "hpsp" then method_hpsp v G
  else match ag with
       | Some (mnb, tol) => if m =? "agg_psp" then method_agg mnb tol G else Throw
       | None => Throw
       end.

(** The options after parsing (main.cpp:14-24): --help, --graph, --method, --result and --time as given.
    parse_command_line itself, which throws on unknown options, is not modelled. *)
Record opts : Type := mkOpts {
  op_help : bool; op_graph : option string; op_method : option string; op_result : option string; op_time : option bool }.

(** What is sent to standard output. *)
Inductive said : Type := SHelp | SUnknown (m : string) | STime.

(** A run that ends with return: the exit code, the standard output, and the file that is written, if it could be opened. *)
Record ended : Type := mkEnd { en_code : Z; en_out : list said; en_file : option (string * list line) }.

(** main (main.cpp:13-85).  [rd] is what digraphReader makes of the file of that name (lines 50-53, exceptions included);
    [wr] tells whether ofstream can open a file of that name (line 81); if not, what is sent to it is lost (82).
    vm["graph"].as<string>() throws if the option is missing (44).  An exception leaves main: [Throw].  How long
    the method takes is not modelled, only that it is reported. *)
Definition main_prog (v : env) (ag : agg_env) (rd : string -> res gst) (wr : string -> bool) (o : opts) : res ended :=
  if op_help o then Ok (mkEnd 0 [SHelp] None)
  else
    let method := match op_method o with Some m => m | None => "dt" end in
    if negb ((method =? "dt") || (method =? "psp_i") || (method =? "pdt") || (method =? "pdt_r") || (method =? "agg_psp") || (method =? "hpsp"))
    then Ok (mkEnd 0 [SUnknown method; SHelp] None)
    else
      match op_graph o with
      | None => Throw
      | Some graph_filename =>
          let result0 := match op_result o with Some r => r | None => "output.txt" end in
          let report_time := match op_time o with Some b => b | None => false end in
          let result_filename := if result0 =? "output.txt" then method ++ "-" ++ graph_filename ++ ".txt" else result0 in
          do G <- rd graph_filename;
          do r <- dispatch_b v ag method G;
          do l <- main_output (fst (snd r)) (snd (snd r));
          Ok (mkEnd 0 (if report_time then [STime] else []) (if wr result_filename then Some (result_filename, l) else None))
      end.
