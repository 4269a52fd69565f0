(** * PropWarmR: the warm starts of the two-worker parametric solver (psp/pmf_r.cpp): C59. *)
From Coq Require Import Sorted.
From Verif Require Import Base Graph Spec PartThy SubThy MSets SetsThy MGraph MaxFlow BFThy MDil CutThy DilThy
  MDT SeqThy PSPThy PropDT MPMF LamThy ParThy SliceThy DTThy PDTThy PropPDT CanonThy MWarm PropWarm MPMFR PMFRThy PropPDTR
  MWarmR FlowThy WarmRThy WarmRCon WarmRRun MTrim TrimThy.

(** ** C59: with the flow maps, pdt_r returns the principal sequence or throws *)
Theorem C59_pdtr_warm_exact : forall wsL wsR sch eps E n D,
  WarmLSpec wsL -> WarmRSpec wsR -> 0 < eps -> (1 <= n)%nat ->
  graph_on (seq 0 n) E -> simple E -> forward E ->
  (forall a, In a E -> eps < aw a) -> multiples_of D E ->
  10 * eps * inject_Z (Zpos (gridM D n)) < 1 ->
  pdtrw_run wsL wsR sch eps E n = Throw \/
  exists lams Ps, pdtrw_run wsL wsR sch eps E n = Ok (map Fin lams, Ps) /\ IsPSP E (seq 0 n) lams Ps.
Proof. exact pdtrw_correct. Qed.
Print Assumptions C59_pdtr_warm_exact.

(** Of the whole check of a start flow by init(flowMap), only the one inequality at the terminal where the
    flow ends can fail: checking nothing else gives the same run. *)
Theorem C59_only_terminals_rejected : forall wsL wsR sch eps E n D,
  WarmLSpec wsL -> WarmRSpec wsR -> 0 < eps -> (1 <= n)%nat ->
  graph_on (seq 0 n) E -> simple E -> forward E ->
  (forall a, In a E -> eps < aw a) -> multiples_of D E ->
  10 * eps * inject_Z (Zpos (gridM D n)) < 1 ->
  pdtrw_run wsL wsR sch eps E n =
  pdtrw_run_chk (fun _ N f => negb (Qltb (excess N f NSnk) 0)) wsL wsR sch eps E n.
Proof. exact pdtrw_checks. Qed.
Print Assumptions C59_only_terminals_rejected.

Lemma pdtrw_small_tol wsL wsR E n :
  WarmLSpec wsL -> WarmRSpec wsR -> (1 <= n)%nat ->
  graph_on (seq 0 n) E -> simple E -> forward E -> (forall a, In a E -> 0 < aw a) ->
  exists eps0, 0 < eps0 /\ forall eps sch, 0 < eps -> eps <= eps0 ->
    pdtrw_run wsL wsR sch eps E n = Throw \/
    exists lams Ps, pdtrw_run wsL wsR sch eps E n = Ok (map Fin lams, Ps) /\ IsPSP E (seq 0 n) lams Ps.
Proof.
  intros HL HR Hn HE Hs Hf Hp. destruct (multiples_ex E) as (D & HD).
  destruct (small_weights E Hp) as (e & E1 & E2).
  set (K := inject_Z (Zpos (gridM D n))).
  assert (K0 : 0 < K) by (unfold K; rewrite <- (Zlt_Qlt 0); lia).
  assert (K1 : 0 < / (20 * K)) by (apply Qinv_lt_0_compat; lra).
  assert (K2 : 20 * K * / (20 * K) == 1) by (apply Qmult_inv_r; lra).
  exists (if Qltb (e / 2) (/ (20 * K)) then e / 2 else / (20 * K)).
  assert (E3 : 0 < e / 2 /\ e / 2 < e).
  { assert (e / 2 == e * (1 # 2)) by (unfold Qdiv; reflexivity). lra. }
  assert (Both : forall eps, eps <= (if Qltb (e / 2) (/ (20 * K)) then e / 2 else / (20 * K)) -> eps < e /\ eps <= / (20 * K)).
  { intros eps H. destruct (Qltb (e / 2) (/ (20 * K))) eqn:Eq; [apply Qltb_true in Eq|apply Qltb_false in Eq]; lra. }
  split; [destruct (Qltb (e / 2) (/ (20 * K))); tauto|].
  intros eps sch H1 H2. destruct (Both eps H2) as [H3 H4].
  apply (pdtrw_correct wsL wsR sch eps E n D); auto.
  - intros a Ha. specialize (E2 a Ha). lra.
  - fold K. assert (eps * (20 * K) <= / (20 * K) * (20 * K)) by (apply Qmult_le_compat_r; lra). lra.
Qed.

Theorem C59_pdtr_warm_small_tolerance : forall wsL wsR E n,
  WarmLSpec wsL -> WarmRSpec wsR -> (1 <= n)%nat ->
  graph_on (seq 0 n) E -> simple E -> forward E -> (forall a, In a E -> 0 < aw a) ->
  exists eps0, 0 < eps0 /\ forall eps sch, 0 < eps -> eps <= eps0 ->
    pdtrw_run wsL wsR sch eps E n = Throw \/
    exists lams Ps, pdtrw_run wsL wsR sch eps E n = Ok (map Fin lams, Ps) /\ IsPSP E (seq 0 n) lams Ps.
Proof. exact pdtrw_small_tol. Qed.
Print Assumptions C59_pdtr_warm_small_tolerance.

(** Solvers meeting the contracts exist; five nodes, where stage 4 splits its range twice.  With the
    first pair of solvers no arc carries flow back into the source, with the second as much as
    possible; three schedules. *)
Definition ex59 : graph :=
  [mkArc 0 1 1; mkArc 0 2 1; mkArc 1 2 5; mkArc 0 3 1; mkArc 1 3 2; mkArc 2 3 1; mkArc 2 4 3; mkArc 3 4 1].
Example C59_nonvacuous :
  WarmLSpec trim_L /\ WarmRSpec trim_R /\ WarmLSpec spin_L /\ WarmRSpec spin_R /\
  graph_on (seq 0 5) ex59 /\ simple ex59 /\ forward ex59 /\ (forall a, In a ex59 -> tol < aw a) /\ multiples_of 1 ex59 /\
  forall sch, In sch [(fun _ _ => true); (fun _ _ => false); (fun j p => Nat.even (j + length p))] ->
  forall ws, In ws [(trim_L, trim_R); (spin_L, spin_R)] ->
  pdtrw_run (fst ws) (snd ws) sch tol ex59 5 = pdtr_run bf_mincut (rev_solver bf_mincut) sch tol ex59 5 /\
  exists Ps, pdtrw_run (fst ws) (snd ws) sch tol ex59 5 = Ok ([Fin 3; Fin (7#2); Fin 5], Ps).
Proof.
  split; [exact trim_L_spec|]. split; [exact trim_R_spec|]. split; [exact spin_L_spec|]. split; [exact spin_R_spec|].
  split.
  { intros a Ha. simpl in Ha. repeat (destruct Ha as [<-|Ha]; [repeat split; simpl; try (apply in_seq; lia); try lra; auto 10|]). destruct Ha. }
  split; [repeat constructor; simpl; intuition discriminate|].
  split; [intros a Ha; simpl in Ha; repeat (destruct Ha as [<-|Ha]; [simpl; lia|]); destruct Ha|].
  split; [intros a Ha; simpl in Ha; repeat (destruct Ha as [<-|Ha]; [reflexivity|]); destruct Ha|].
  split.
  { intros a Ha. simpl in Ha. repeat (destruct Ha as [<-|Ha]; [eexists; simpl; reflexivity|]). destruct Ha. }
  intros sch [<-|[<-|[<-|[]]]] ws [<-|[<-|[]]]; (split; [vm_compute; reflexivity|eexists; vm_compute; reflexivity]).
Qed.

(** ** The flow maps of PMF_R::slice are not always accepted *)

(** One stage (node 3 of four), started with the y-values below: without flow maps PMF_R::run returns
    three critical values.  With them, the second contraction uses a maximum flow that runs from the
    source to node 0 and back; scaled down to the next parameter it leaves the source with more inflow
    than outflow, so the reverse solver reports it as invalid. *)
Definition ex59b : graph := [mkArc 0 2 500; mkArc 0 3 1; mkArc 1 3 1; mkArc 2 3 1].
Definition y59b : list (Q * dbl) := [(99, PInf); (139, PInf); (9, PInf); (0, PInf)].
Definition sch59b (p : list bool) : bool := match p with [] => false | _ => true end.
Theorem C59_warm_start_accepted_refuted :
  ~ (forall wsL wsR sch eps E n j y, WarmLSpec wsL -> WarmRSpec wsR -> 0 < eps -> (j < n)%nat -> length y = n ->
       graph_on (seq 0 n) E -> simple E -> forward E -> (forall a, In a E -> eps < aw a) ->
       pmfrw_run wsL wsR sch eps E n j y = pmfr_run bf_mincut (rev_solver bf_mincut) sch eps E n j y).
Proof.
  intro H. specialize (H spin_L spin_R sch59b (1#1000) ex59b 4%nat 3%nat y59b spin_L_spec spin_R_spec).
  assert (A : pmfrw_run spin_L spin_R sch59b (1#1000) ex59b 4 3 y59b = Throw) by (vm_compute; reflexivity).
  rewrite A in H.
  assert (B : pmfr_run bf_mincut (rev_solver bf_mincut) sch59b (1#1000) ex59b 4 3 y59b =
    Ok ([Fin 10; Fin 100; Fin 140], [[0;1;2;3]; [0;1;3]; [1;3]; [3]]%nat)) by (vm_compute; reflexivity).
  rewrite B in H. enough (Throw = Ok ([Fin 10; Fin 100; Fin 140], [[0;1;2;3]; [0;1;3]; [1;3]; [3]]%nat)) by discriminate.
  apply H; try lia.
  - reflexivity.
  - reflexivity.
  - intros a Ha. simpl in Ha. repeat (destruct Ha as [<-|Ha]; [repeat split; simpl; try lra; auto 10|]). destruct Ha.
  - repeat constructor; simpl; intuition discriminate.
  - intros a Ha. simpl in Ha. repeat (destruct Ha as [<-|Ha]; [simpl; lia|]). destruct Ha.
  - intros a Ha. simpl in Ha. repeat (destruct Ha as [<-|Ha]; [reflexivity|]). destruct Ha.
Qed.
Print Assumptions C59_warm_start_accepted_refuted.

(** The same stage is accepted with the other pair of solvers: it is the choice among the maximum
    flows that matters. *)
Example C59_accepted :
  pmfrw_run trim_L trim_R sch59b (1#1000) ex59b 4 3 y59b =
  Ok ([Fin 10; Fin 100; Fin 140], [[0;1;2;3]; [0;1;3]; [1;3]; [3]]%nat).
Proof. vm_compute. reflexivity. Qed.

(** ** Parallel arcs: modify_flow keeps one value per pair of nodes (psp/pmf_r.cpp:227) *)

(** Sink 2, source 3; nodes 0 and 1 are kept.  Two arcs lead from 0 to 1. *)
Definition ex59c : network :=
  [mkNarc NSrc (NV 0) 3; mkNarc (NV 0) (NV 1) 1; mkNarc (NV 0) (NV 1) 2; mkNarc (NV 1) NSnk 3].
Theorem C59_contract_flow_parallel_refuted :
  ~ (forall eps sid tid size S T G f ks C v, 0 < eps -> contract eps sid tid size S T G = Ok (ks, C) ->
       In sid S -> In tid T -> (forall i, In i S -> ~ In i T) -> (forall a, In a G -> eps < ncap a) ->
       flow_ok ks G f v -> flow_ok ks C (contract_flow sid tid S T G f C) v).
Proof.
  intro H. specialize (H tol 3%nat 2%nat 4%nat [3%nat] [2%nat] ex59c [3;1;2;3] [0;1]%nat
    [mkNarc (NV 0) (NV 1) 1; mkNarc (NV 0) (NV 1) 2; mkNarc NSrc NSnk 0; mkNarc NSnk NSrc 0;
     mkNarc NSrc (NV 0) 3; mkNarc (NV 0) NSnk 0; mkNarc NSrc (NV 1) 0; mkNarc (NV 1) NSnk 3] 3 eq_refl).
  destruct H as (_ & H & _).
  - vm_compute. reflexivity.
  - left; reflexivity.
  - left; reflexivity.
  - intros i [<-|[]] [C|[]]. discriminate C.
  - intros a Ha. simpl in Ha. repeat (destruct Ha as [<-|Ha]; [reflexivity|]). destruct Ha.
  - split; [reflexivity|]. split; [|split].
    + intros a x Hx. simpl in Hx. repeat (destruct Hx as [Hx|Hx]; [injection Hx as <- <-; simpl; lra|]). destruct Hx.
    + intros u Hu. simpl in Hu. repeat (destruct Hu as [<-|Hu]; [vm_compute; reflexivity|]). destruct Hu.
    + vm_compute. reflexivity.
  - destruct (H (mkNarc (NV 0) (NV 1) 1) 2) as [_ K]; [vm_compute; left; reflexivity|]. simpl in K. lra.
Qed.
Print Assumptions C59_contract_flow_parallel_refuted.
