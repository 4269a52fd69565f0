(** * MLgf: the text files of utility/gaussian2Dcase.py, and how main reads them (main.cpp:50-53).

    Files are texts; reading in Python's text mode is taken as reading lines that end in a line feed.  The names of
    the Python functions are kept. *)
From Coq Require Import String Ascii DecimalString.
From Verif Require Import Base Graph MSets MGraph MContract.
Notation length := List.length (only parsing).
Open Scope list_scope.
Open Scope string_scope.

Definition tab : ascii := "009".
Definition nl : ascii := "010".
Definition one (c : ascii) : string := String c "".

(** str(i) for an int that is not negative. *)
Definition str_nat (i : nat) : string := NilZero.string_of_uint (Nat.to_uint i).

(** sep.join(l). *)
Fixpoint join (sep : string) (l : list string) : string :=
  match l with
  | [] => ""
  | [s] => s
  | s :: t => s ++ sep ++ join sep t
  end.

(** s.find(p) >= 0. *)
Fixpoint contains (p s : string) : bool :=
  prefix p s || match s with "" => false | String _ t => contains p t end.

(** s.split(c) for one character. *)
Fixpoint split (c : ascii) (s : string) : list string :=
  match s with
  | "" => [""]
  | String d t =>
      if Ascii.eqb d c then "" :: split c t
      else match split c t with
           | w :: ws => String d w :: ws
           | [] => [one d]
           end
  end.

(** s.strip(): blanks, tabs and line feeds (the other white space of Python does not occur). *)
Definition blank (c : ascii) : bool := Ascii.eqb c " " || Ascii.eqb c tab || Ascii.eqb c nl.
Fixpoint lstrip (s : string) : string :=
  match s with
  | "" => ""
  | String c t => if blank c then lstrip t else s
  end.
Fixpoint rstrip (s : string) : string :=
  match s with
  | "" => ""
  | String c t => match rstrip t with
                  | "" => if blank c then "" else one c
                  | t' => String c t'
                  end
  end.
Definition strip (s : string) : string := rstrip (lstrip s).

(** The lines readline() returns, each with its line feed; none is empty. *)
Fixpoint lines_of (s : string) : list string :=
  match s with
  | "" => []
  | String c t =>
      if Ascii.eqb c nl then one c :: lines_of t
      else match lines_of t with
           | l :: ls => String c l :: ls
           | [] => [one c]
           end
  end.
(** readline(), which returns "" at the end of the file. *)
Definition readline (ls : list string) : string * list string :=
  match ls with [] => ("", []) | l :: t => (l, t) end.

(** ** convert (utility/gaussian2Dcase.py:39-56) *)
(** The constant of line 51 (the double 1e-10 is not exactly this number). *)
Definition cut_off : Q := 1 # 10000000000.

(** The lines for the arcs (utility/gaussian2Dcase.py:46-53), from the pairs (i, j) on; [A] is the matrix, [shw] is
    str of a double, [cnt] is edge_cnt. *)
Fixpoint arc_lines (shw : Q -> string) (A : nat -> nat -> Q) (ij : list (nat * nat)) (cnt : nat) : list string :=
  match ij with
  | [] => []
  | (i, j) :: t =>
      let w := A i j in
      if Qltb w cut_off then arc_lines shw A t cnt
      else join (one tab) [str_nat i; str_nat j; str_nat cnt; shw w] :: arc_lines shw A t (S cnt)
  end.

(** The pairs of the two loops (lines 47-48). *)
Definition pairs (ms : nat) : list (nat * nat) :=
  flat_map (fun i => map (fun j => (i, j)) (seq (i + 1) (ms - (i + 1)))) (seq 0 ms).

(** The text that is written for a matrix of [ms] rows (lines 40-56).  The name of the file (line 55) is the argument with "gml"
    replaced by "lgf"; it is left out. *)
Definition convert (shw : Q -> string) (ms : nat) (A : nat -> nat -> Q) : string :=
  join (one nl) (["@nodes"; "label"] ++ map str_nat (seq 0 ms) ++ ["@arcs"; one tab ++ one tab ++ "label" ++ one tab ++ "capacity"] ++
                 arc_lines shw A (pairs ms) 0).

(** ** toNetworkX (utility/gaussian2Dcase.py:7-37) *)
(** A networkx.DiGraph: nodes in the order of insertion, arcs with the attribute label, and the attribute label of
    the nodes that have one. *)
Record nxg := mkNx { nx_nodes : list string; nx_arcs : list (string * string * string); nx_label : list (string * string) }.

(** add_node, add_edge (an arc that is there keeps its place and gets the new label) and nodes[x]['label'] = v
    (KeyError if there is no such node). *)
Definition add_node (x : string) (g : nxg) : nxg :=
  if existsb (String.eqb x) (nx_nodes g) then g else mkNx (nx_nodes g ++ [x]) (nx_arcs g) (nx_label g).
Definition add_edge (s t c : string) (g : nxg) : nxg :=
  let g1 := add_node t (add_node s g) in
  let here := fun a : string * string * string => (fst (fst a) =? s) && (snd (fst a) =? t) in
  mkNx (nx_nodes g1)
       (if existsb here (nx_arcs g1) then map (fun a => if here a then (s, t, c) else a) (nx_arcs g1)
        else nx_arcs g1 ++ [(s, t, c)])
       (nx_label g1).
Definition set_label (x v : string) (g : nxg) : res nxg :=
  if existsb (String.eqb x) (nx_nodes g) then Ok (mkNx (nx_nodes g) (nx_arcs g) ((x, v) :: nx_label g)) else Throw.

(** The first loop (lines 12-20): [st] is the line last read, [ls] are the lines after it.  It does not look for the
    end of the file. *)
Fixpoint nodes_loop (fuel : nat) (st : string) (ls : list string) (g : nxg) : res (list string * nxg) :=
  match fuel with
  | O => OutOfFuel
  | S fuel' =>
      if contains "@arcs" st then Ok (ls, g)
      else if contains "label" st then nodes_loop fuel' (fst (readline ls)) (snd (readline ls)) g
      else nodes_loop fuel' (fst (readline ls)) (snd (readline ls)) (add_node (strip st) g)
  end.

(** The second loop (lines 21-30): the line at which it ends ("" at the end of the file), the lines after it, the
    graph.  A line that does not have four fields raises ValueError. *)
Fixpoint arcs_loop (ls : list string) (g : nxg) : res (string * list string * nxg) :=
  match ls with
  | [] => Ok ("", [], g)
  | st :: t =>
      if contains "@attributes" st then Ok (st, t, g)
      else if contains "label" st then arcs_loop t g
      else match split tab (strip st) with
           | [u; v; _; c] => arcs_loop t (add_edge u v c g)
           | _ => Throw
           end
  end.

(** The two fields of lines 32 and 36. *)
Definition second_field (st : string) : res string :=
  match split " " (strip st) with [_; x] => Ok x | _ => Throw end.

(** toNetworkX on a file with this text (lines 7-37). *)
Definition toNetworkX (fuel : nat) (text : string) : res nxg :=
  let ls1 := snd (readline (lines_of text)) in
  do r <- nodes_loop fuel (fst (readline ls1)) (snd (readline ls1)) (mkNx [] [] []);
  do r2 <- arcs_loop (fst r) (snd r);
  let st := fst (fst r2) in
  let g := snd r2 in
  do g1 <- (if contains "source" st then do x <- second_field st; set_label x "s" g else Ok g);
  let st2 := fst (readline (snd (fst r2))) in
  if contains "target" st2 then do x <- second_field st2; set_label x "t" g1 else Ok g1.

(** ** lemon::digraphReader(digraph, fin).arcMap("capacity", cap).run() (main.cpp:52-53)

    LEMON is not part of /repo: this is the LEMON graph format as documented, for the sections @nodes and @arcs (in
    this order, without captions) and tokens without quotes.  Lines without a token and lines that begin with # are
    skipped.  Nodes get the ids 0, 1, ... in the order of the file. *)
(** The tokens of a line. *)
Fixpoint tokens (s : string) : list string :=
  match s with
  | "" => []
  | String c t =>
      if blank c then tokens t
      else match t with
           | "" => [one c]
           | String d _ => if blank d then one c :: tokens t
                           else match tokens t with w :: ws => String c w :: ws | [] => [one c] end
           end
  end.
(** The lines with tokens, comments removed. *)
Definition rows (text : string) : list (list string) :=
  filter (fun r => match r with [] => false | w :: _ => negb (prefix "#" w) end) (map tokens (lines_of text)).
Definition section (r : list string) : bool := match r with w :: _ => prefix "@" w | [] => false end.

Fixpoint index_of (x : string) (l : list string) : option nat :=
  match l with
  | [] => None
  | y :: t => if x =? y then Some 0%nat else option_map S (index_of x t)
  end.

(** The node section: labels in order, and the rows from the next section on.  [k] columns, label in column [c];
    a row with another number of columns throws. *)
Fixpoint read_nodes (k c : nat) (rs : list (list string)) : res (list string * list (list string)) :=
  match rs with
  | [] => Ok ([], [])
  | r :: t =>
      if section r then Ok ([], rs)
      else if (length r =? k)%nat then
        do x <- read_nodes k c t; Ok (nth c r "" :: fst x, snd x)
      else Throw
  end.

(** The arc section: [k] columns after the two ends, capacity in column [c].  [parse] reads a number, [None] if the
    token is not one.  A label that is not a node throws. *)
Fixpoint read_arcs (parse : string -> option Q) (labels : list string) (k c : nat) (rs : list (list string)) : res graph :=
  match rs with
  | [] => Ok []
  | r :: t =>
      if section r then Ok []
      else match r with
           | u :: v :: ws =>
               if (length ws =? k)%nat then
                 match index_of u labels, index_of v labels, parse (nth c ws "") with
                 | Some i, Some j, Some w => do E <- read_arcs parse labels k c t; Ok (mkArc i j w :: E)
                 | _, _, _ => Throw
                 end
               else Throw
           | _ => Throw
           end
  end.

Definition lgf_read (parse : string -> option Q) (text : string) : res gst :=
  match rows text with
  | ["@nodes"] :: hd :: t =>
      match index_of "label" hd with
      | Some c =>
          do r <- read_nodes (length hd) c t;
          match snd r with
          | ["@arcs"] :: ha :: t2 =>
              match index_of "capacity" ha with
              | Some ca => do E <- read_arcs parse (fst r) (length ha) ca t2;
                           Ok (mkG (seq 0 (length (fst r))) E)
              | None => Throw
              end
          | _ => Throw
          end
      | None => Throw
      end
  | _ => Throw
  end.
