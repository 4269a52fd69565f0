(** * MThreads: the two workers and the coordinating thread of PMF_R::slice
      (psp/pmf_r.cpp:314-406 and 483-545) as a transition system.

    One step is one action on shared data; any interleaving of the three threads is a run.  The
    mutex, the condition variable and the join are modelled, the max flow itself is one step.  The
    class InterruptibleThread is in a missing submodule: [interrupt] sets a flag, and a worker with
    the flag set may be stopped while it computes, but need not be.  Exceptions in front of the try
    blocks (they end the process) are not modelled. *)
From Verif Require Import Base.

Inductive who := WL | WR.

(** Where a worker is: not started, computing (lines 326-349 and 372-393), asking for the mutex
    (352, 396), in front of lines 353/397, 354/398, 355/399, in front of the release, returned. *)
Inductive wpc := WNew | WRun | WLock | WVal | WSet | WNot | WUnl | WEnd.

(** new_flow_value >= 0, T_apostrophe written, thread_exception_ptr set, interrupt flag. *)
Record worker := mkW { pc : wpc; val : bool; tset : bool; exc : bool; intr : bool }.

(** What slice does after the joins: rethrow (lines 518-521) or use one of the results (533-545). *)
Inductive outcome := RethrowL | RethrowR | UseL | UseR.

(** The coordinating thread: lines 490, 491, 493, 494, 495 (still holding the mutex, waiting, asking
    for the mutex again), 497, 499, 500-512, 513, 515, 516, 518-545, and the end. *)
Inductive mpc := MSpawnL | MSpawnR | MLock1 | MChk | MPre | MWait | MRelock | MUnl1 | MLock2 | MDec | MUnl2
  | MJoinL | MJoinR | MErr | MDone (o : outcome).

(** Owner of the mutex. *)
Inductive owner := OMain | OW (w : who).

Record tstate := mkT { main : mpc; lck : option owner; wl : worker; wr : worker }.

Definition who_eqb (a b : who) : bool := match a, b with WL, WL | WR, WR => true | _, _ => false end.
Definition wk (s : tstate) (w : who) : worker := match w with WL => wl s | WR => wr s end.
Definition set_wk (s : tstate) (w : who) (x : worker) : tstate :=
  match w with WL => mkT (main s) (lck s) x (wr s) | WR => mkT (main s) (lck s) (wl s) x end.
Definition set_main (s : tstate) (m : mpc) : tstate := mkT m (lck s) (wl s) (wr s).
Definition set_lck (s : tstate) (o : option owner) : tstate := mkT (main s) o (wl s) (wr s).
Definition at_pc (x : worker) (p : wpc) : worker := mkW p (val x) (tset x) (exc x) (intr x).

Definition w0 : worker := mkW WNew false false false false.
(** Lines 480-487: both values start at -1, both sets empty. *)
Definition tinit : tstate := mkT MSpawnL None w0 w0.

(** T_apostrophe.Cardinality(); [c w] is the size of the set the worker computes. *)
Definition card (c : who -> nat) (s : tstate) (w : who) : nat := if tset (wk s w) then c w else 0%nat.

(** Lines 500-512: which worker is interrupted; [nn] is countNodes( *newDig). *)
Definition decide (c : who -> nat) (nn : nat) (s : tstate) : option who :=
  if val (wr s) then
    if (2 * card c s WR <=? nn)%nat && negb (val (wl s)) then Some WL else None
  else if val (wl s) then
    if (nn <? 2 * card c s WL)%nat && negb (val (wr s)) then Some WR else None
  else None.
Definition interrupt (s : tstate) (o : option who) : tstate :=
  match o with
  | None => s
  | Some w => let x := wk s w in set_wk s w (mkW (pc x) (val x) (tset x) (exc x) true)
  end.

(** Lines 518-545. *)
Definition finish (c : who -> nat) (s : tstate) : outcome :=
  if exc (wl s) then RethrowL
  else if exc (wr s) then RethrowR
  else if (card c s WL =? 0)%nat then UseR else UseL.

(** notify_all (lines 355, 399) wakes the coordinating thread if it waits. *)
Definition notify (s : tstate) : tstate :=
  match main s with MWait => set_main s MRelock | _ => s end.

Inductive label := Norm | Spurious | Fail (w : who) | Stopped (w : who).

Inductive step (c : who -> nat) (nn : nat) : tstate -> label -> tstate -> Prop :=
  (* coordinating thread *)
  | s_spawnL s : main s = MSpawnL ->
      step c nn s Norm (set_main (set_wk s WL (at_pc (wl s) WRun)) MSpawnR)
  | s_spawnR s : main s = MSpawnR ->
      step c nn s Norm (set_main (set_wk s WR (at_pc (wr s) WRun)) MLock1)
  | s_lock1 s : main s = MLock1 -> lck s = None ->
      step c nn s Norm (set_main (set_lck s (Some OMain)) MChk)
  | s_chk_wait s : main s = MChk -> val (wl s) = false -> val (wr s) = false ->
      step c nn s Norm (set_main s MPre)
  | s_wait s : main s = MPre -> step c nn s Norm (set_main (set_lck s None) MWait)
  | s_chk_go s : main s = MChk -> val (wl s) = true \/ val (wr s) = true ->
      step c nn s Norm (set_main s MUnl1)
  | s_spurious s : main s = MWait -> step c nn s Spurious (set_main s MRelock)
  | s_relock s : main s = MRelock -> lck s = None ->
      step c nn s Norm (set_main (set_lck s (Some OMain)) MUnl1)
  | s_unl1 s : main s = MUnl1 -> step c nn s Norm (set_main (set_lck s None) MLock2)
  | s_lock2 s : main s = MLock2 -> lck s = None ->
      step c nn s Norm (set_main (set_lck s (Some OMain)) MDec)
  | s_dec s : main s = MDec -> step c nn s Norm (set_main (interrupt s (decide c nn s)) MUnl2)
  | s_unl2 s : main s = MUnl2 -> step c nn s Norm (set_main (set_lck s None) MJoinL)
  | s_joinL s : main s = MJoinL -> pc (wl s) = WEnd -> step c nn s Norm (set_main s MJoinR)
  | s_joinR s : main s = MJoinR -> pc (wr s) = WEnd -> step c nn s Norm (set_main s MErr)
  | s_err s : main s = MErr -> step c nn s Norm (set_main s (MDone (finish c s)))
  (* workers *)
  | s_run s w : pc (wk s w) = WRun -> step c nn s Norm (set_wk s w (at_pc (wk s w) WLock))
  | s_wlock s w : pc (wk s w) = WLock -> lck s = None ->
      step c nn s Norm (set_lck (set_wk s w (at_pc (wk s w) WVal)) (Some (OW w)))
  | s_val s w : pc (wk s w) = WVal ->
      step c nn s Norm (set_wk s w (mkW WSet true (tset (wk s w)) (exc (wk s w)) (intr (wk s w))))
  | s_set s w : pc (wk s w) = WSet ->
      step c nn s Norm (set_wk s w (mkW WNot (val (wk s w)) true (exc (wk s w)) (intr (wk s w))))
  | s_not s w : pc (wk s w) = WNot ->
      step c nn s Norm (notify (set_wk s w (at_pc (wk s w) WUnl)))
  | s_unl s w : pc (wk s w) = WUnl ->
      step c nn s Norm (set_lck (set_wk s w (at_pc (wk s w) WEnd)) None)
  | s_stop s w : pc (wk s w) = WRun -> intr (wk s w) = true ->
      step c nn s (Stopped w) (set_wk s w (at_pc (wk s w) WEnd))
  (* exceptions: while computing, in flowValue, while building the set; lock_guard releases *)
  | s_fail_run s w : pc (wk s w) = WRun ->
      step c nn s (Fail w) (set_wk s w (mkW WEnd (val (wk s w)) (tset (wk s w)) true (intr (wk s w))))
  | s_fail_lock s w : pc (wk s w) = WVal \/ pc (wk s w) = WSet ->
      step c nn s (Fail w)
        (set_lck (set_wk s w (mkW WEnd (val (wk s w)) (tset (wk s w)) true (intr (wk s w)))) None).

Inductive run (c : who -> nat) (nn : nat) : tstate -> list label -> tstate -> Prop :=
  | run_nil s : run c nn s [] s
  | run_snoc s ls s1 l s2 : run c nn s ls s1 -> step c nn s1 l s2 -> run c nn s (ls ++ [l]) s2.

(** Nobody can move without an outside event: not even a thread that is waiting for the mutex. *)
Definition stuck (c : who -> nat) (nn : nat) (s : tstate) : Prop :=
  forall l s', step c nn s l s' -> l = Spurious.
