(** * Properties C88 to C90: what the checks of a debug build change (psp/pmf.cpp, psp/pmf_r.cpp, psp/psp_i.cpp). *)
From Coq Require Import Qabs.
From Verif Require Import Base Graph Spec MSets SetsThy MGraph MaxFlow CutThy BFThy MDil DilThy MDT DTTop MContract MPSPI MHPSP
  MPMF PDTThy PdtEq NearExact MWarm PropWarm MPMFR PMFRThy MWarmR MTrim TrimThy WarmRRun PdtrEq MDebug DebugThy DebugRThy
  PropDil PropDT PropPDT PropFloatP PropPdtAny.

(** ** C88: PDT *)
(** The result of the debug build is that of the release build, whatever it is. *)
Theorem C88_pdt_debug_same : forall ws eps E n, WarmSpec ws -> 0 <= eps -> graph_on (seq 0 n) E ->
  pdtd_run ws eps E n = pdtw_run ws eps E n.
Proof. intros ws eps E n Hw He HE. rewrite pdtd_eq, pdtw_eq; auto. Qed.
Print Assumptions C88_pdt_debug_same.

Example C88_nonvacuous :
  WarmSpec bf_wsolver /\ graph_on (seq 0 8) ladder8 /\
  pdtd_run bf_wsolver tol ladder8 8 =
    Ok ([Fin (3#2); Fin (5#3); Fin 2; Fin 3],
        [[[0;1;2;3;4;5;6;7]]; [[0];[1];[2;3;4;5;6;7]]; [[0];[1];[2];[3;5];[4];[6;7]];
         [[0];[1];[2];[3];[4];[5];[6;7]]; [[0];[1];[2];[3];[4];[5];[6];[7]]]%nat).
Proof.
  split; [exact bf_wsolver_spec|]. split; [|vm_compute; reflexivity].
  intros a Ha. repeat (destruct Ha as [<-|Ha]; [repeat split; vm_compute; try tauto; discriminate|]). destruct Ha.
Qed.

(** The checks are not idle: from sets that are not minimum cuts the debug build throws, the release build does not. *)
Example C88_checks_fail :
  let y := repeat (0, PInf) 8 in
  let fm := init_flow (pmf_net tol ladder8 7 y (-10)) in
  let run := fun Tl Tr => (pmfw_slice 9 bf_wsolver tol ladder8 8 7 y Tl Tr fm (-10) (Fin 10),
                           pmfd_slice 9 bf_wsolver tol ladder8 8 7 y Tl Tr fm (-10) (Fin 10)) in
  run [5;7]%nat [7]%nat = (Ok ([NaN; Fin (1#3); Fin 2], [[0;1;2;3;4;5;6;7]; [6;7]]%nat), Throw) /\
  run [0;1;2;3;4;5;6;7]%nat [0;7]%nat = (Ok ([Fin (1#3); Fin 2; NaN], [[6;7]; [7]]%nat), Throw).
Proof. vm_compute. split; reflexivity. Qed.

(** What the two checks at the start of slice reject: sets of which the right one has the smaller cut at lambda_1, or the
    left one at a finite lambda_3, by more than the tolerance. *)
Theorem C88_pdt_debug_checks : forall fuel ws eps E n j y Tl Tr fm l1 l3, (0 < fuel)%nat ->
  (cut (pmf_net eps E j y l1) (mem Tr) < cut (pmf_net eps E j y l1) (mem Tl) - eps \/
   exists l, l3 = Fin l /\ cut (pmf_net eps E j y l) (mem Tl) + eps < cut (pmf_net eps E j y l) (mem Tr)) ->
  pmfd_slice fuel ws eps E n j y Tl Tr fm l1 l3 = Throw.
Proof.
  intros [|fuel] ws eps E n j y Tl Tr fm l1 l3 Hf H; [lia|]. cbn [pmfd_slice].
  destruct (fails_1 eps E j y l1 Tl Tr) eqn:F1; [reflexivity|].
  destruct (fails_2 eps E j y l3 Tl Tr) eqn:F2; [reflexivity|]. exfalso. destruct H as [H|(l & -> & H)].
  - apply Qltb_false in F1. lra.
  - unfold fails_2 in F2. cbn in F2. apply Qltb_false in F2. lra.
Qed.
Print Assumptions C88_pdt_debug_checks.
(** Each alternative occurs without the other one. *)
Example C88_debug_checks_nonvacuous :
  let y := repeat (0, PInf) 8 in let c := fun l => cut (pmf_net tol ladder8 7 y l) in
  let V := mem [0;1;2;3;4;5;6;7]%nat in
  (c 10 (mem [7%nat]) < c 10 V - tol /\ ~ c 10 V + tol < c 10 (mem [7%nat])) /\
  (c (-10) V + tol < c (-10) (mem [7%nat]) /\ ~ c (-10) (mem [7%nat]) < c (-10) V - tol).
Proof. vm_compute. repeat split; intro; discriminate. Qed.

(** ** C89: PDT_R *)
(** The same for PDT_R, for every order in which the workers finish (without flow maps; the check of the flow maps is C85). *)
Theorem C89_pdtr_debug_same : forall mc mr sch eps E n, MinSinkCutSpec mc -> MinSrcCutSpec mr -> 0 < eps ->
  graph_on (seq 0 n) E -> simple E -> forward E -> (forall a, In a E -> eps <= aw a) ->
  pdtrd_run mc mr sch eps E n = pdtr_run mc mr sch eps E n.
Proof. intros. apply pdtrd_eq; auto. Qed.
Print Assumptions C89_pdtr_debug_same.

Example C89_nonvacuous :
  MinSinkCutSpec bf_mincut /\ MinSrcCutSpec (rev_solver bf_mincut) /\
  graph_on (seq 0 8) ladder8 /\ simple ladder8 /\ forward ladder8 /\ (forall a, In a ladder8 -> tol <= aw a) /\
  forall sch, In sch [(fun _ _ => true); (fun _ _ => false); (fun j p => Nat.even (j + length p))] ->
  pdtrd_run bf_mincut (rev_solver bf_mincut) sch tol ladder8 8 =
    Ok ([Fin (3#2); Fin (5#3); Fin 2; Fin 3],
        [[[0;1;2;3;4;5;6;7]]; [[0];[1];[2;3;4;5;6;7]]; [[0];[1];[2];[3;5];[4];[6;7]];
         [[0];[1];[2];[3];[4];[5];[6;7]]; [[0];[1];[2];[3];[4];[5];[6];[7]]]%nat).
Proof.
  split; [apply bf_minsink_spec|]. split; [apply rev_solver_spec, bf_minsink_spec|].
  split; [|split; [|split; [|split]]].
  - apply C88_nonvacuous.
  - unfold simple, ladder8; simpl; repeat constructor; simpl; intuition congruence.
  - intros a Ha. repeat (destruct Ha as [<-|Ha]; [vm_compute; lia|]). destruct Ha.
  - intros a Ha. repeat (destruct Ha as [<-|Ha]; [vm_compute; discriminate|]). destruct Ha.
  - intros sch [<-|[<-|[<-|[]]]]; vm_compute; reflexivity.
Qed.

(** With the flow maps: the run throws, and then because the terminal where a flow ends is rejected, or returns what a
    release build without flow maps returns (C84). *)
Theorem C89_pdtr_debug_flow_maps : forall n E eps, (1 <= n)%nat ->
  graph_on (seq 0 n) E -> simple E -> forward E -> (forall a, In a E -> eps < aw a) ->
  0 < eps -> 2000 * n4 n eps <= 1 ->
  exists cs Ps, IsNearPSP E (seq 0 n) (65 * n4 n eps) cs Ps /\
    (forall mc mr sch, MinSinkCutSpec mc -> MinSrcCutSpec mr ->
      exists ds, pdtr_run mc mr sch eps E n = Ok (map Fin ds, Ps) /\ Forall2 Qeq cs ds) /\
    forall wsL wsR sch, WarmLSpec wsL -> WarmRSpec wsR ->
      (pdtrwd_run true init_ok wsL wsR sch eps E n = Throw \/
       exists ds, pdtrwd_run true init_ok wsL wsR sch eps E n = Ok (map Fin ds, Ps) /\ Forall2 Qeq cs ds) /\
      pdtrwd_run true init_ok wsL wsR sch eps E n =
      pdtrwd_run false (fun _ N f => negb (Qltb (excess N f NSnk) 0)) wsL wsR sch eps E n.
Proof.
  intros n E eps Hn HE Hs Hf Hw He H4.
  assert (Hw1 : forall a, In a E -> eps <= aw a) by (intros a Ha; specialize (Hw a Ha); lra).
  destruct (run_to_near n E eps Hn HE Hs Hf Hw1 He H4) as (cs & Ps & R2 & R3 & R1).
  exists cs, Ps. split; [exact R2|]. split.
  { intros mc mr sch Hmc Hmr. exact (pdtr_to mc bf_mincut mr sch n eps E cs Ps Hmc bf_minsink_spec Hmr He HE Hs Hf Hw1 R1). }
  intros wsL wsR sch HL HR.
  set (pm1 := fun j y => pmfrwd_run false sink_ok wsL wsR (sch j) eps E n j y).
  set (pm := fun j y => pmfrwd_run true init_ok wsL wsR (sch j) eps E n j y).
  set (pm0 := fun j y => pmfr_run bf_mincut (rev_solver bf_mincut) (sch j) eps E n j y).
  destruct (loop_to bf_mincut bf_mincut bf_minsink_spec bf_minsink_spec n eps E HE (both pm1 pm pm0)) with (2 := R1)
    as (y & ds & A & B).
  { intros j z r Hj Hr. unfold both.
    assert (Kr := pmfr_slice_res bf_mincut (rev_solver bf_mincut) (sch j) eps E n j z r bf_minsink_spec
      (rev_solver_spec _ bf_minsink_spec) He Hj HE Hs Hf Hw1 Hr).
    unfold slice_res in Hr. cbv zeta in Hr.
    destruct (pmf_slice _ _ _ _ _ _ _ _ _ _ _) as [b| | |] eqn:Eb in Hr; cbn [bind] in Hr; try discriminate Hr. injection Hr as <-.
    destruct (pmfrwd_run_res wsL HL wsR HR eps He E n j Hj HE Hs Hf Hw z init_ok sink_ok init_at_sink sink_at_sink (sch j) b Eb)
      as [EQ EO].
    change (pm j z = pm1 j z) in EQ. rewrite EQ. destruct (res_eq_dec _ _) as [_|N]; [|contradiction].
    fold (pm1 j z) in EO. destruct EO as [->| ->]; auto. }
  split.
  - destruct (both_throw E n pm1 pm pm0 y _ A) as [H|H]; [left; exact H|right]. exists ds. auto.
  - unfold pdtrwd_run. fold pm pm1. rewrite (both_same E n pm1 pm pm0 y _ A). reflexivity.
Qed.
Print Assumptions C89_pdtr_debug_flow_maps.

(** The graph and schedule of C85: the debug build rejects a flow map. *)
Theorem C89_debug_flow_maps_refuted :
  ~ (forall wsL wsR sch eps E n D, WarmLSpec wsL -> WarmRSpec wsR -> (1 <= n)%nat ->
       graph_on (seq 0 n) E -> simple E -> forward E -> (forall a, In a E -> eps < aw a) -> multiples_of D E ->
       0 < eps -> 2000 * n4 n eps <= 1 -> fine_tol D n (qn n * (65 * n4 n eps)) ->
       pdtrwd_run true init_ok wsL wsR sch eps E n <> Throw).
Proof.
  intro H. apply (H spin_L spin_R sch85 tol ex85 9%nat 1%positive); [exact spin_L_spec|exact spin_R_spec|lia| | | | | |reflexivity| | |vm_compute; reflexivity].
  - intros a Ha. simpl in Ha. repeat (destruct Ha as [<-|Ha]; [repeat split; simpl; try lra; auto 20|]). destruct Ha.
  - unfold simple. simpl. repeat constructor; simpl; intuition congruence.
  - intros a Ha. simpl in Ha. repeat (destruct Ha as [<-|Ha]; [simpl; lia|]). destruct Ha.
  - intros a Ha. simpl in Ha. repeat (destruct Ha as [<-|Ha]; [reflexivity|]). destruct Ha.
  - intros a Ha. simpl in Ha. repeat (destruct Ha as [<-|Ha]; [eexists; simpl; reflexivity|]). destruct Ha.
  - vm_compute. discriminate.
  - reflexivity.
Qed.
Print Assumptions C89_debug_flow_maps_refuted.

Example C89_flow_maps_nonvacuous :
  WarmLSpec trim_L /\ WarmRSpec trim_R /\ WarmLSpec spin_L /\ WarmRSpec spin_R /\
  forall sch, In sch [(fun _ _ => true); (fun j p => Nat.even (j + length p))] ->
  forall ws, In ws [(trim_L, trim_R); (spin_L, spin_R)] ->
  pdtrwd_run true init_ok (fst ws) (snd ws) sch tol ladder8 8 = pdtr_run bf_mincut (rev_solver bf_mincut) (fun _ _ => true) tol ladder8 8.
Proof.
  split; [exact trim_L_spec|]. split; [exact trim_R_spec|]. split; [exact spin_L_spec|]. split; [exact spin_R_spec|].
  intros sch [<-|[<-|[]]] ws [<-|[<-|[]]]; vm_compute; reflexivity.
Qed.

(** ** C90: PSP_I and HPSP *)
(** If every arc goes from a smaller to a larger id, the check of the truncation never fails. *)
Theorem C90_forward_debug_same : forall mc eps E n, forward E ->
  psp_rund mc eps E n = psp_run mc eps E n /\ hpsp_rund mc eps E n = hpsp_run mc eps E n.
Proof. intros mc eps E n H. split; [apply psp_rund_eq|apply hpsp_rund_eq]; exact H. Qed.
Print Assumptions C90_forward_debug_same.

(** Otherwise the debug build throws, unless the graph has two nodes. *)
Theorem C90_backward_debug_throws : forall mc eps E n a, graph_on (seq 0 n) E -> In a E -> (adst a <= asrc a)%nat ->
  n <> 2%nat -> psp_rund mc eps E n = Throw /\ hpsp_rund mc eps E n = Throw.
Proof. intros mc eps E n a HE Ha L N2. split; [eapply psp_rund_bad|eapply hpsp_rund_bad]; eauto. Qed.
Print Assumptions C90_backward_debug_throws.

Theorem C90_two_nodes_debug_same : forall mc eps E,
  psp_rund mc eps E 2 = psp_run mc eps E 2 /\ hpsp_rund mc eps E 2 = hpsp_run mc eps E 2.
Proof. intros. split; [apply psp_rund_two|apply hpsp_rund_two]. Qed.
Print Assumptions C90_two_nodes_debug_same.

Definition back3 : graph := [mkArc 0 1 1; mkArc 2 0 1; mkArc 1 2 3].

(** That both builds agree on every graph is false. *)
Theorem C90_debug_same_refuted :
  ~ (forall mc eps E n, MinSinkCutSpec mc -> 0 < eps -> graph_on (seq 0 n) E -> simple E ->
       psp_rund mc eps E n = psp_run mc eps E n).
Proof.
  intro H. assert (K : psp_rund bf_mincut tol back3 3 = psp_run bf_mincut tol back3 3).
  { apply H; [apply bf_minsink_spec|reflexivity| |].
    - intros a Ha. repeat (destruct Ha as [<-|Ha]; [repeat split; vm_compute; try tauto; discriminate|]). destruct Ha.
    - unfold simple, back3; simpl; repeat constructor; simpl; intuition congruence. }
  vm_compute in K. discriminate K.
Qed.
Print Assumptions C90_debug_same_refuted.

Example C90_nonvacuous :
  forward ladder8 /\
  psp_rund bf_mincut tol ladder8 8 = psp_run bf_mincut tol ladder8 8 /\
  hpsp_rund bf_mincut tol ladder8 8 = hpsp_run bf_mincut tol ladder8 8 /\
  (exists o, psp_run bf_mincut tol ladder8 8 = Ok o) /\ (exists o, hpsp_run bf_mincut tol ladder8 8 = Ok o) /\
  graph_on (seq 0 3) back3 /\ psp_rund bf_mincut tol back3 3 = Throw /\ hpsp_rund bf_mincut tol back3 3 = Throw /\
  (exists o, psp_run bf_mincut tol back3 3 = Ok o) /\ (exists o, hpsp_run bf_mincut tol back3 3 = Ok o).
Proof.
  split; [apply C89_nonvacuous|]. split; [vm_compute; reflexivity|]. split; [vm_compute; reflexivity|].
  split; [eexists; vm_compute; reflexivity|]. split; [eexists; vm_compute; reflexivity|].
  split. { intros a Ha. repeat (destruct Ha as [<-|Ha]; [repeat split; vm_compute; try tauto; discriminate|]). destruct Ha. }
  split; [vm_compute; reflexivity|]. split; [vm_compute; reflexivity|].
  split; eexists; vm_compute; reflexivity.
Qed.
