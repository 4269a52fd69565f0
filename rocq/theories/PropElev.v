(** * PropElev: the memory of PMF_R and PDT_R (model: MElev): C86, C87. *)
From Verif Require Import Base Graph MSets MGraph MaxFlow MDil MDT MPMF MPMFR PMFRThy MElev ElevThy.

(** The heap of a program about to call PMF_R::run: addresses are positive, pairwise different and not
    used up, and the graph, the capacities and the sink capacities of the object are there. *)
Definition ready (h : heap) (d c b : nat) : Prop :=
  hwf h /\ live h d = true /\ live h c = true /\ live h b = true /\ graph_of d h = 0%nat.

(** C86.  PMF_R::run, whatever the two solvers return and however the workers of every slice end: no
    object is used or deleted when it is not alive.  When the call returns, exactly the objects that
    were alive before are alive; when it throws, some objects made with new may be left, but no
    local one. *)
Theorem C86_stage_memory : forall mc mr sch eps E n j y h d c b, ready h d c b ->
  let r := pmfrh_run false mc mr sch eps E n j (d, c, b) y h in
  hbad (fst r) = hbad h /\
  (forall x, snd r = Ok x -> hlive (fst r) = hlive h) /\
  (snd r = Throw -> exists X, hlive (fst r) = X ++ hlive h /\ forall k, In k X -> bkind k <> KStack).
Proof.
  intros mc mr sch eps E n j y h d c b (W & Ld & Lc & Lb & G) r.
  destruct (run_mem false mc mr sch eps E n j d c b y h W Ld Lc Lb G) as (X & Ex & Ok1 & Th).
  fold r in Ex, Ok1, Th. destruct Ex as (L & _ & B & _). split; [exact B|]. split.
  - intros x H. rewrite L, (Ok1 x H). reflexivity.
  - intro H. exists X. split; [exact L|]. exact (Th H).
Qed.
Print Assumptions C86_stage_memory.

(** C86.  The same of a whole run of PDT_R on a new object. *)
Theorem C86_memory : forall mc mr sch eps E n, let r := pdtrh_run false mc mr sch eps E n in
  hbad (fst r) = [] /\
  (forall x, snd r = Ok x -> hlive (fst r) = hlive heap0) /\
  (snd r = Throw -> exists X, hlive (fst r) = X ++ hlive heap0 /\ forall k, In k X -> bkind k <> KStack).
Proof.
  intros mc mr sch eps E n r. destruct (pdt_mem false mc mr sch eps E n) as (X & Ex & Ok1 & Th).
  fold r in Ex, Ok1, Th. destruct Ex as (L & _ & B & _). split; [exact B|]. split.
  - intros x H. rewrite L, (Ok1 x H). reflexivity.
  - intro H. exists X. split; [exact L|]. exact (Th H).
Qed.
Print Assumptions C86_memory.

(** C86.  The results are those of [pdtr_run] (C49, C84): when no worker fails and one of the two
    workers of every slice finishes, the slice uses the left one if it finished. *)
Theorem C86_result : forall inn mc mr sch eps E n,
  (forall j p, wfail (fst (sch j p)) = false /\ wfail (snd (sch j p)) = false /\
               (wdone (fst (sch j p)) || wdone (snd (sch j p))) = true) ->
  snd (pdtrh_run inn mc mr sch eps E n) = pdtr_run mc mr (fun j p => wdone (fst (sch j p))) eps E n.
Proof. intros inn mc mr sch eps E n F. apply (pdt_erase inn mc mr sch eps E n). exact F. Qed.
Print Assumptions C86_result.

(** ** A graph on which slice recurses three levels deep *)
Definition el_eps : Q := 1 # 1000000.
Definition el_E : graph :=
  [mkArc 0 1 1; mkArc 0 2 2; mkArc 1 3 4; mkArc 2 3 7; mkArc 2 4 3; mkArc 0 4 5; mkArc 3 5 11; mkArc 1 5 13; mkArc 4 5 6]%nat.
Definition el_run (inn : bool) (sch : nat -> list bool -> wend * wend) :=
  pdtrh_run inn bf_mincut (rev_solver bf_mincut) sch el_eps el_E 6.
Definition both_done : nat -> list bool -> wend * wend := fun _ _ => (WDone, WDone).
(** The left worker of the first slice of stage 3 leaves an exception behind. *)
Definition fail3 : nat -> list bool -> wend * wend := fun j p =>
  match j, p with 3%nat, [] => (WFail true, WDone) | _, _ => (WDone, WDone) end.
(** The left workers are interrupted at odd depth, the right ones elsewhere. *)
Definition mixed : nat -> list bool -> wend * wend := fun j p =>
  if Nat.odd (length p) then (WStop true, WDone) else (WDone, WStop false).

(** Misuse is seen: deleting twice, using a deleted object. *)
Example C86_misuse : let h := snd (alloc KEle 1 heap0) in
  hbad (del 4 (del 4 h)) = [4]%nat /\ hbad (use 4 (del 4 h)) = [4]%nat /\ hbad (del 4 (use 4 h)) = [].
Proof. vm_compute. auto. Qed.

Example C86_nonvacuous :
  (exists x, snd (el_run false both_done) = Ok x) /\ (exists x, snd (el_run false mixed) = Ok x) /\
  (100 <? hnext (fst (el_run false both_done)))%nat = true /\ (100 <? hnext (fst (el_run false mixed)))%nat = true /\
  hlive (fst (el_run false mixed)) = hlive heap0 /\ hbad (fst (el_run false mixed)) = [].
Proof. vm_compute. repeat split; eexists; reflexivity. Qed.

(** C86.  A run that throws does not release everything it has allocated. *)
Theorem C86_throw_releases_refuted : ~ (forall mc mr sch eps E n,
  let r := pdtrh_run false mc mr sch eps E n in snd r = Throw -> hlive (fst r) = hlive heap0).
Proof.
  intro H. specialize (H bf_mincut (rev_solver bf_mincut) fail3 el_eps el_E 6%nat).
  assert (H1 : snd (pdtrh_run false bf_mincut (rev_solver bf_mincut) fail3 el_eps el_E 6) = Throw) by (vm_compute; reflexivity).
  cbv zeta in H. specialize (H H1). vm_compute in H. discriminate H.
Qed.
Print Assumptions C86_throw_releases_refuted.

(** What is left: the two elevators of run, the reversed graph, the threads and the elevators of slice. *)
Example C86_throw_leaks : map bkind (hlive (fst (el_run false fail3))) =
  [KEle; KEle; KThread; KThread; KRev; KEle; KEle; KBase; KCap; KDig].
Proof. vm_compute. reflexivity. Qed.

(** ** C87: elevators and graphs *)
(** C87.  A worker is not always started with an elevator of the graph it works on, even when every
    worker finishes and the solvers are exact: slice passes left_ele and right_ele on to calls that
    work on the contracted graph. *)
Theorem C87_elevator_graph_refuted : ~ (forall sch eps E n, 0 < eps ->
  (forall j p, sch j p = (WDone, WDone)) ->
  forall g w, In (g, w) (hstarts (fst (pdtrh_run false bf_mincut (rev_solver bf_mincut) sch eps E n))) -> g = w).
Proof.
  intro H. specialize (H both_done el_eps el_E 6%nat eq_refl (fun _ _ => eq_refl) 1%nat 45%nat).
  assert (K : 1%nat = 45%nat); [|discriminate K]. apply H. vm_compute. auto 12.
Qed.
Print Assumptions C87_elevator_graph_refuted.

(** C87.  The graph of the elevator is alive (C86), and it is the graph of the worker or was made
    before it. *)
Theorem C87_elevator_older : forall mc mr sch eps E n g w,
  In (g, w) (hstarts (fst (pdtrh_run false mc mr sch eps E n))) -> (g <= w)%nat.
Proof.
  intros mc mr sch eps E n g w I. destruct (pdt_mem false mc mr sch eps E n) as (X & Ex & _ & _).
  destruct Ex as (_ & _ & _ & _ & _ & Z & S & F). rewrite S in I. simpl in I. rewrite app_nil_r in I.
  rewrite Forall_forall in F. exact (proj1 (F _ I)).
Qed.
Print Assumptions C87_elevator_older.

(** C87.  With left_inner and right_inner passed on instead, every elevator belongs to the graph of its
    worker; memory is still handled correctly, and the results are the same. *)
Theorem C87_inner_elevators : forall mc mr sch eps E n, let r := pdtrh_run true mc mr sch eps E n in
  (forall g w, In (g, w) (hstarts (fst r)) -> g = w) /\ hbad (fst r) = [] /\
  (forall x, snd r = Ok x -> hlive (fst r) = hlive heap0) /\
  ((forall j p, wfail (fst (sch j p)) = false /\ wfail (snd (sch j p)) = false /\
                (wdone (fst (sch j p)) || wdone (snd (sch j p))) = true) ->
   snd r = snd (pdtrh_run false mc mr sch eps E n)).
Proof.
  intros mc mr sch eps E n r. destruct (pdt_mem true mc mr sch eps E n) as (X & Ex & Ok1 & _).
  fold r in Ex, Ok1. destruct Ex as (L & _ & B & _ & _ & Z & S & F). split; [|split; [exact B|split]].
  - intros g w I. rewrite S in I. simpl in I. rewrite app_nil_r in I. rewrite Forall_forall in F.
    exact (proj2 (F _ I) eq_refl).
  - intros x H. rewrite L, (Ok1 x H). reflexivity.
  - intro Fr. unfold r. rewrite (C86_result true), (C86_result false); auto.
Qed.
Print Assumptions C87_inner_elevators.

(** Workers are started with elevators, also on contracted graphs. *)
Example C87_nonvacuous :
  filter (fun p => (1 <? snd p)%nat) (hstarts (fst (el_run true both_done))) = [(45, 45)]%nat /\
  filter (fun p => negb (fst p =? snd p)%nat) (hstarts (fst (el_run false both_done))) = [(1, 45)]%nat /\
  filter (fun p => negb (fst p =? snd p)%nat) (hstarts (fst (el_run false mixed))) = [(1, 43)]%nat.
Proof. vm_compute. auto. Qed.
