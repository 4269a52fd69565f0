(** * MaxFlow: networks, cuts and the contract of the max-flow solver.

    lemon::Preflow and the psp/preflow submodule are not part of /repo; the solver is an oracle.
    Calls: psp/dt.cpp:73-81 and psp/psp_i.cpp:50-58 ([run], [flowValue], [minCut]). *)
From Verif Require Export Base Graph.

(** Nodes of a flow network: the added source and sink, or a node of the graph
    (psp/dt.cpp:53-54, psp/psp_i.cpp:32-33). *)
Inductive nnode : Type := NSrc | NSnk | NV (v : nat).
Record narc : Type := mkNarc { nsrc : nnode; ndst : nnode; ncap : Q }.
Definition network := list narc.

(** Which side of the cut a node is on; [true] = sink side. *)
Definition side (X : nset) (u : nnode) : bool :=
  match u with NSrc => false | NSnk => true | NV v => X v end.

(** Capacity of the cut whose sink side is [X]. *)
Definition cut (N : network) (X : nset) : Q :=
  qsum (fun a => if negb (side X (nsrc a)) && side X (ndst a) then ncap a else 0) N.

Definition nnode_ok (nodes : list nat) (u : nnode) : Prop :=
  match u with NV v => In v nodes | _ => True end.

Definition net_ok (nodes : list nat) (N : network) : Prop :=
  NoDup nodes /\
  forall a, In a N -> 0 <= ncap a /\ nnode_ok nodes (nsrc a) /\ nnode_ok nodes (ndst a).

(** The solver: nodes and arcs in, (flow value, nodes on the sink side) out. *)
Definition solver := list nat -> network -> Q * list nat.

(** The solver returns a minimum cut and its value (max flow = min cut). *)
Definition MinCutSpec (mc : solver) : Prop :=
  forall nodes N, net_ok nodes N ->
    incl (snd (mc nodes N)) nodes /\
    fst (mc nodes N) == cut N (mem (snd (mc nodes N))) /\
    forall Y, fst (mc nodes N) <= cut N Y.

(** ... and moreover the inclusion-minimal sink side among the minimum cuts. *)
Definition MinSinkCutSpec (mc : solver) : Prop :=
  MinCutSpec mc /\
  forall nodes N, net_ok nodes N ->
    forall Y, cut N Y == fst (mc nodes N) ->
    forall x, In x (snd (mc nodes N)) -> Y x = true.

(** ** A brute-force instance, showing that the contracts are satisfiable. *)
Fixpoint sublists (l : list nat) : list (list nat) :=
  match l with
  | [] => [[]]
  | x :: t => let r := sublists t in r ++ map (cons x) r
  end.

(** Prefer the smaller cut value, then the fewer nodes. *)
Definition better (N : network) (A B : list nat) : bool :=
  Qltb (cut N (mem A)) (cut N (mem B)) ||
  (Qeq_bool (cut N (mem A)) (cut N (mem B)) && (length A <? length B)%nat).

Definition bf_best (N : network) (l : list (list nat)) (d : list nat) : list nat :=
  fold_left (fun best A => if better N A best then A else best) l d.

Definition bf_mincut : solver := fun nodes N =>
  let X := bf_best N (sublists nodes) [] in (Qred (cut N (mem X)), X).
