(** * Properties C83 to C85: classes PDT and PDT_R in exact arithmetic for arbitrary weights (psp/pmf.cpp, psp/pmf_r.cpp). *)
From Coq Require Import Qabs.
From Verif Require Import Base Graph Spec MSets SetsThy MGraph MaxFlow CutThy MDil DilThy BFThy
  MDT SeqThy PartThy DTThy PSPThy DTTop MPMF DilApprox ApproxThy MFloat FloatThy FloatDil FloatDT
  MFloatT FloatLam FloatPar FloatSlice FloatPDT NearExact PDTThy PdtEq MPMFR PMFRThy MWarm MWarmR WarmRRun MTrim TrimThy PdtrEq PSPIThy PropDil PropDT PropPDT PropFloat PropFloatP PropFloatT.

Lemma chain_wd good cs ds : Forall2 Qeq cs ds -> forall P Ps lo lo',
  match lo, lo' with None, None => True | Some a, Some b => a == b | _, _ => False end ->
  seq_chain Qle good lo P cs Ps -> seq_chain Qle good lo' P ds Ps.
Proof.
  induction 1 as [|c d cs ds Hc H IH]; intros P [|P' Ps] lo lo' Hl K; cbn [seq_chain] in *; try contradiction.
  - intros lam HL. apply K. destruct lo, lo'; try contradiction; auto. lra.
  - destruct K as (K1 & K2 & K3 & K4 & K5). split; [|split; [|split; [|split]]]; auto.
    + destruct lo, lo'; try contradiction; auto. lra.
    + intros lam HL HL2. apply K2; [|lra]. destruct lo, lo'; try contradiction; auto. lra.
    + eapply IH; [|exact K5]. exact Hc.
Qed.
Lemma full_wd good vs cs ds Ps : Forall2 Qeq cs ds -> full_sequence Qle good vs cs Ps -> full_sequence Qle good vs ds Ps.
Proof.
  intros H K. destruct Ps as [|P Ps]; [exact K|]. destruct K as (K1 & K2 & K3). split; auto. split; auto.
  eapply chain_wd; [exact H| |exact K3]. exact I.
Qed.

(** However the weights are chosen, the run returns, and the result is the principal sequence up to 65 n^4 eps. *)
Theorem C83_pdt_any_weights : forall mc n E eps, MinSinkCutSpec mc -> (1 <= n)%nat ->
  graph_on (seq 0 n) E -> simple E -> forward E -> (forall a, In a E -> eps <= aw a) ->
  0 < eps -> 2000 * n4 n eps <= 1 ->
  exists cs Ps, pdt_run mc eps E n = Ok (map Fin cs, Ps) /\
    IsNearPSP E (seq 0 n) (65 * n4 n eps) cs Ps /\ Forall (Qle (- (1#10))) cs.
Proof.
  intros mc n E eps Hmc Hn HE Hs Hf Hw He H4.
  set (W := qmax 1 (total E)).
  assert (HW : 1 <= W /\ total E <= W).
  { unfold W. destruct (qmax_spec 1 (total E)) as [[A B]|[A B]]; rewrite B; lra. }
  assert (N4 : 0 <= n4 n eps).
  { unfold n4. assert (0 <= qn n) by apply qn_nonneg. repeat apply Qmult_le_0_compat; auto; lra. }
  destruct (f_pdt_near 0 exact_ops ltac:(lra) ltac:(lra) exact_std exact_mono n Hn W (proj1 HW) eps He) with (d := 0)
    (it := fun G : graph => G) (itn := fun N : network => N) (mc := mc) (E := E) (il := init_lambda)
    as [[R _]|(cs & Ps & R1 & R2 & R3)]; auto.
  - assert (X : 32 * (qn n * (0 * (60 * (qn n * W)))) == 0) by ring. rewrite X. lra.
  - lra.
  - apply side_of_exact. auto.
  - apply HW.
  - vm_compute. discriminate.
  - vm_compute. discriminate.
  - exfalso. apply R. reflexivity.
  - assert (K := pdt_exact_ops mc Hmc mc Hmc eps E n HE). cbv zeta in K. rewrite R1 in K.
    destruct (pdt_run mc eps E n) as [[fs Ps']| | |]; simpl in K; try contradiction. destruct K as [K1 K2]. subst Ps'.
    assert (L : exists ds, fs = map Fin ds /\ Forall2 Qeq cs ds).
    { clear -K1. revert fs K1. induction cs as [|c cs IH]; intros fs K1; inversion K1 as [|? y ? l Hy Hl]; subst.
      - exists []. split; auto.
      - destruct (IH l Hl) as (ds & -> & H). destruct y as [q| |]; simpl in Hy; try contradiction.
        exists (q :: ds). split; auto. }
    destruct L as (ds & -> & L). exists ds, Ps. split; auto. split.
    + assert (V : fdel n eps == 64 * n4 n eps) by (unfold fdel, n4; ring).
      assert (R2' : IsNearPSP E (seq 0 n) (65 * n4 n eps) cs Ps).
      { eapply full_sequence_mono; [intros a b K; exact K| |exact R2]. intros lam P [HP HO]. split; auto.
        intros S HS. specialize (HO S HS). lra. }
      eapply full_wd; [exact L|exact R2'].
    + clear -L R3. revert R3. induction L as [|c d cs ds Hc L IH]; intro R3; inversion R3; subst; constructor; auto.
      unfold init_lambda in *. lra.
Qed.
Print Assumptions C83_pdt_any_weights.

Lemma grid_min n E eps D : (2 <= n)%nat -> (forall a, In a E -> 0 < aw a) -> 0 < eps ->
  multiples_of D E -> fine_tol D n (qn n * (65 * n4 n eps)) -> 65 * n4 n eps <= qn n * (65 * n4 n eps) /\ forall a, In a E -> eps < aw a.
Proof.
  intros Hn Hw He HD Ht.
  assert (N2 : 2 <= qn n) by (change 2 with (qn 2); apply qn_le; lia).
  assert (NE1 : eps <= qn n * eps) by (apply ge1_mul; lra).
  assert (NE2 : qn n * eps <= qn n * (qn n * eps)) by (apply ge1_mul; lra).
  assert (NE3 : qn n * (qn n * eps) <= qn n * (qn n * (qn n * eps))) by (apply ge1_mul; lra).
  assert (NE4 : qn n * (qn n * (qn n * eps)) <= n4 n eps) by (rewrite n4_eq; apply ge1_mul; lra).
  assert (NE5 : 65 * n4 n eps <= qn n * (65 * n4 n eps)) by (apply ge1_mul; lra).
  split; auto.
  intros a Ha. destruct (HD a Ha) as (z & Hz). assert (P := Hw a Ha).
  unfold fine_tol in Ht. set (DD := Zpos D # 1) in *. assert (HDD : 0 < DD) by reflexivity.
  assert (M : aw a * DD == inject_Z z).
  { rewrite Hz. unfold DD, Qeq, Qmult, inject_Z. simpl. lia. }
  assert (Z1 : 1 <= aw a * DD).
  { assert (K : 0 < aw a * DD) by (apply Qmult_lt_0_compat; auto). rewrite M in *.
    unfold Qlt, Qle, inject_Z in *. simpl in *. lia. }
  assert (A1 : 0 <= (qn n * (65 * n4 n eps) - eps) * DD) by (apply Qmult_le_0_compat; lra).
  assert (A2 : 0 <= qn n * (65 * n4 n eps) * DD * (qn n - 2)).
  { apply Qmult_le_0_compat; [apply Qmult_le_0_compat|]; lra. }
  destruct (Qlt_le_dec eps (aw a)) as [C|C]; auto. exfalso.
  assert (0 <= (eps - aw a) * DD) by (apply Qmult_le_0_compat; lra). lra.
Qed.

(** On multiples of 1/D the partitions are exactly the right ones as soon as 65 n^5 eps is small against 1/(D n);
    C27 needs eps to be small against 1/(D 1! 2! ... (n-1)!). *)
Theorem C83_pdt_fine_grid : forall mc n E eps D, MinSinkCutSpec mc -> (2 <= n)%nat ->
  graph_on (seq 0 n) E -> simple E -> forward E -> (forall a, In a E -> 0 < aw a) ->
  0 < eps -> 2000 * n4 n eps <= 1 -> multiples_of D E -> fine_tol D n (qn n * (65 * n4 n eps)) ->
  exists cs lams Ps, pdt_run mc eps E n = Ok (map Fin cs, Ps) /\
    IsWeakPSP E (seq 0 n) lams Ps /\ slopes E lams Ps /\
    Forall2 (fun c l => Qabs (c - l) <= 65 * n4 n eps) cs lams.
Proof.
  intros mc n E eps D Hmc Hn HE Hs Hf Hw He H4 HD Ht. destruct (grid_min n E eps D Hn Hw He HD Ht) as [NE5 Hw0].
  assert (Hw' : forall a, In a E -> eps <= aw a) by (intros a Ha; apply Qlt_le_weak; auto).
  destruct (C83_pdt_any_weights mc n E eps Hmc ltac:(lia) HE Hs Hf Hw' He H4) as (cs & Ps & R1 & R2 & _).
  assert (N0 : 0 <= n4 n eps).
  { unfold n4. assert (0 <= qn n) by apply qn_nonneg. repeat apply Qmult_le_0_compat; auto; lra. }
  destruct (near_exact E n Hn HE D HD (65 * n4 n eps) ltac:(lra) Ht cs Ps R2) as (lams & K1 & K2 & K3).
  exists cs, lams, Ps. split; auto. split; auto. split; auto.
  clear -K3. induction K3; constructor; auto. apply near_abs. auto.
Qed.
Print Assumptions C83_pdt_fine_grid.

(** A ladder with eight nodes and unit weights: far too large for the premise of C27. *)
Definition ladder8 : graph := [mkArc 0 1 1; mkArc 0 2 1; mkArc 1 3 1; mkArc 2 3 1; mkArc 2 4 1; mkArc 3 5 2; mkArc 4 5 1;
  mkArc 4 6 1; mkArc 5 7 1; mkArc 6 7 3].
Example C83_nonvacuous :
  MinSinkCutSpec bf_mincut /\ graph_on (seq 0 8) ladder8 /\ simple ladder8 /\ forward ladder8 /\
  (forall a, In a ladder8 -> 0 < aw a) /\ 2000 * n4 8 tol <= 1 /\ multiples_of 1 ladder8 /\
  fine_tol 1 8 (qn 8 * (65 * n4 8 tol)) /\ ~ 10 * tol * inject_Z (Zpos (gridM 1 8)) < 1 /\
  pdt_run bf_mincut tol ladder8 8 =
    Ok ([Fin (3#2); Fin (5#3); Fin 2; Fin 3],
        [[[0;1;2;3;4;5;6;7]]; [[0];[1];[2;3;4;5;6;7]]; [[0];[1];[2];[3;5];[4];[6;7]];
         [[0];[1];[2];[3];[4];[5];[6;7]]; [[0];[1];[2];[3];[4];[5];[6];[7]]]%nat).
Proof.
  split; [apply bf_minsink_spec|].
  split; [intros a H; simpl in H; intuition (subst; simpl; auto 20; lra)|].
  split; [unfold simple; simpl; repeat constructor; simpl; intuition congruence|].
  split; [intros a H; simpl in H; intuition (subst; simpl; lia)|].
  split; [intros a H; simpl in H; intuition (subst; simpl; lra)|].
  split; [vm_compute; discriminate|].
  split; [intros a H; exists (Qnum (aw a)); simpl in H; intuition (subst; reflexivity)|].
  split; [reflexivity|].
  split; [vm_compute; discriminate|].
  vm_compute. reflexivity.
Qed.

(** ** C84: PDT_R *)
Lemma run_to_near n E eps : (1 <= n)%nat ->
  graph_on (seq 0 n) E -> simple E -> forward E -> (forall a, In a E -> eps <= aw a) ->
  0 < eps -> 2000 * n4 n eps <= 1 ->
  exists cs Ps, IsNearPSP E (seq 0 n) (65 * n4 n eps) cs Ps /\ Forall (Qle (- (1#10))) cs /\
    f_pdt_run_to (fun j y => Fin (lam3 E n j y)) exact_ops (fun G => G) (fun N => N) bf_mincut eps init_lambda E n =
      Ok (map Fin cs, Ps).
Proof.
  intros Hn HE Hs Hf Hw He H4.
  set (W := qmax 1 (total E)).
  assert (HW : 1 <= W /\ total E <= W).
  { unfold W. destruct (qmax_spec 1 (total E)) as [[A B]|[A B]]; rewrite B; lra. }
  destruct HW as [HW HWE].
  assert (N1 : 1 <= qn n) by (change 1 with (qn 1); apply qn_le; lia).
  assert (NE1 : eps <= qn n * eps) by (apply ge1_mul; lra).
  assert (NE2 : qn n * eps <= qn n * (qn n * eps)) by (apply ge1_mul; lra).
  assert (NE3 : qn n * (qn n * eps) <= qn n * (qn n * (qn n * eps))) by (apply ge1_mul; lra).
  assert (NE4 : qn n * (qn n * (qn n * eps)) <= n4 n eps) by (rewrite n4_eq; apply ge1_mul; lra).
  assert (H0 : forall x, 0 * (60 * x) == 0) by (intro; ring).
  destruct (f_pdt_near_to 0 exact_ops ltac:(lra) ltac:(lra) exact_std exact_mono n Hn W HW eps He) with (d := 0)
    (it := fun G : graph => G) (itn := fun N : network => N) (mc := bf_mincut) (E := E) (il := init_lambda)
    (Lup := fun j y => Fin (lam3 E n j y)) as [[R _]|(cs & Ps & R1 & R2 & R3)]; auto.
  - assert (X : 32 * (qn n * (0 * (60 * (qn n * W)))) == 0) by ring. rewrite X. lra.
  - lra.
  - apply side_of_exact. apply bf_minsink_spec.
  - vm_compute. discriminate.
  - vm_compute. discriminate.
  - apply (lam3_ok n eps He E HE Hs Hf Hw W HW HWE). lra.
  - exfalso. apply R. reflexivity.
  - exists cs, Ps. split; [|split].
    + assert (V : fdel n eps == 64 * n4 n eps) by (unfold fdel, n4; ring).
      eapply full_sequence_mono; [intros a b K; exact K| |exact R2]. intros lam P [HP HO]. split; auto.
      intros S HS. specialize (HO S HS). lra.
    + exact R3.
    + exact R1.
Qed.

(** Every schedule and every pair of workers leads to the same partitions and equal critical values. *)
Theorem C84_pdtr_any_weights : forall n E eps, (1 <= n)%nat ->
  graph_on (seq 0 n) E -> simple E -> forward E -> (forall a, In a E -> eps <= aw a) ->
  0 < eps -> 2000 * n4 n eps <= 1 ->
  exists cs Ps, IsNearPSP E (seq 0 n) (65 * n4 n eps) cs Ps /\ Forall (Qle (- (1#10))) cs /\
    forall mc mr sch, MinSinkCutSpec mc -> MinSrcCutSpec mr ->
      exists ds, pdtr_run mc mr sch eps E n = Ok (map Fin ds, Ps) /\ Forall2 Qeq cs ds.
Proof.
  intros n E eps Hn HE Hs Hf Hw He H4. destruct (run_to_near n E eps Hn HE Hs Hf Hw He H4) as (cs & Ps & R2 & R3 & R1).
  exists cs, Ps. split; [exact R2|]. split; [exact R3|]. intros mc mr sch Hmc Hmr.
  exact (pdtr_to mc bf_mincut mr sch n eps E cs Ps Hmc bf_minsink_spec Hmr He HE Hs Hf Hw R1).
Qed.
Print Assumptions C84_pdtr_any_weights.

(** On multiples of 1/D, as in C83: exactly the right partitions. *)
Theorem C84_pdtr_fine_grid : forall n E eps D, (2 <= n)%nat ->
  graph_on (seq 0 n) E -> simple E -> forward E -> (forall a, In a E -> 0 < aw a) ->
  0 < eps -> 2000 * n4 n eps <= 1 -> multiples_of D E -> fine_tol D n (qn n * (65 * n4 n eps)) ->
  exists lams Ps, IsWeakPSP E (seq 0 n) lams Ps /\ slopes E lams Ps /\
    forall mc mr sch, MinSinkCutSpec mc -> MinSrcCutSpec mr ->
      exists cs, pdtr_run mc mr sch eps E n = Ok (map Fin cs, Ps) /\
        Forall2 (fun c l => Qabs (c - l) <= 65 * n4 n eps) cs lams.
Proof.
  intros n E eps D Hn HE Hs Hf Hw He H4 HD Ht. destruct (grid_min n E eps D Hn Hw He HD Ht) as [NE5 Hw0].
  assert (Hw' : forall a, In a E -> eps <= aw a) by (intros a Ha; apply Qlt_le_weak; auto).
  destruct (C84_pdtr_any_weights n E eps ltac:(lia) HE Hs Hf Hw' He H4) as (cs & Ps & R1 & _ & R2).
  assert (N0 : 0 <= n4 n eps).
  { unfold n4. assert (0 <= qn n) by apply qn_nonneg. repeat apply Qmult_le_0_compat; auto; lra. }
  destruct (near_exact E n Hn HE D HD (65 * n4 n eps) ltac:(lra) Ht cs Ps R1) as (lams & K1 & K2 & K3).
  exists lams, Ps. split; auto. split; auto. intros mc mr sch Hmc Hmr.
  destruct (R2 mc mr sch Hmc Hmr) as (ds & D1 & D2). exists ds. split; auto.
  clear -K3 D2. revert lams K3. induction D2 as [|c d cs ds Hc D2 IH]; intros lams K3; inversion K3; subst; constructor; auto.
  rewrite <- Hc. apply near_abs. auto.
Qed.
Print Assumptions C84_pdtr_fine_grid.

Example C84_nonvacuous :
  MinSinkCutSpec bf_mincut /\ MinSrcCutSpec (rev_solver bf_mincut) /\
  forall sch, In sch [(fun _ _ => true); (fun _ _ => false); (fun j p => Nat.even (j + length p))] ->
  pdtr_run bf_mincut (rev_solver bf_mincut) sch tol ladder8 8 =
    Ok ([Fin (3#2); Fin (5#3); Fin 2; Fin 3],
        [[[0;1;2;3;4;5;6;7]]; [[0];[1];[2;3;4;5;6;7]]; [[0];[1];[2];[3;5];[4];[6;7]];
         [[0];[1];[2];[3];[4];[5];[6;7]]; [[0];[1];[2];[3];[4];[5];[6];[7]]]%nat).
Proof.
  split; [apply bf_minsink_spec|]. split; [apply rev_solver_spec, bf_minsink_spec|].
  intros sch [<-|[<-|[<-|[]]]]; vm_compute; reflexivity.
Qed.

(** ** C85: PDT_R with the flow maps of PMF_R::slice *)
(** The flow maps never change the result: the run returns what it returns without them (C84), or throws
    because a start flow is rejected, and then at the terminal where the flow ends. *)
Theorem C85_pdtr_warm_any_weights : forall n E eps, (1 <= n)%nat ->
  graph_on (seq 0 n) E -> simple E -> forward E -> (forall a, In a E -> eps < aw a) ->
  0 < eps -> 2000 * n4 n eps <= 1 ->
  exists cs Ps, IsNearPSP E (seq 0 n) (65 * n4 n eps) cs Ps /\ Forall (Qle (- (1#10))) cs /\
    (forall mc mr sch, MinSinkCutSpec mc -> MinSrcCutSpec mr ->
      exists ds, pdtr_run mc mr sch eps E n = Ok (map Fin ds, Ps) /\ Forall2 Qeq cs ds) /\
    forall wsL wsR sch, WarmLSpec wsL -> WarmRSpec wsR ->
      (pdtrw_run wsL wsR sch eps E n = Throw \/
       exists ds, pdtrw_run wsL wsR sch eps E n = Ok (map Fin ds, Ps) /\ Forall2 Qeq cs ds) /\
      pdtrw_run wsL wsR sch eps E n =
      pdtrw_run_chk (fun _ N f => negb (Qltb (excess N f NSnk) 0)) wsL wsR sch eps E n.
Proof.
  intros n E eps Hn HE Hs Hf Hw He H4.
  assert (Hw1 : forall a, In a E -> eps <= aw a) by (intros a Ha; specialize (Hw a Ha); lra).
  destruct (run_to_near n E eps Hn HE Hs Hf Hw1 He H4) as (cs & Ps & R2 & R3 & R1).
  exists cs, Ps. split; [exact R2|]. split; [exact R3|]. split.
  { intros mc mr sch Hmc Hmr. exact (pdtr_to mc bf_mincut mr sch n eps E cs Ps Hmc bf_minsink_spec Hmr He HE Hs Hf Hw1 R1). }
  intros wsL wsR sch HL HR.
  destruct (loop_to bf_mincut bf_mincut bf_minsink_spec bf_minsink_spec n eps E HE (pm_both wsL wsR sch eps E n)) with (2 := R1)
    as (y & ds & A & B).
  { intros j z r Hj Hr. unfold pm_both.
    assert (Kr := pmfr_slice_res bf_mincut (rev_solver bf_mincut) (sch j) eps E n j z r bf_minsink_spec
      (rev_solver_spec _ bf_minsink_spec) He Hj HE Hs Hf Hw1 Hr).
    unfold slice_res in Hr. cbv zeta in Hr.
    destruct (pmf_slice _ _ _ _ _ _ _ _ _ _ _) as [b| | |] eqn:Eb in Hr; cbn [bind] in Hr; try discriminate Hr. injection Hr as <-.
    destruct (pmfrw_run_res wsL HL wsR HR eps He E n j Hj HE Hs Hf Hw z sink_ok init_ok sink_at_sink init_at_sink (sch j) b Eb)
      as [EQ EO].
    destruct (res_eq_dec _ _) as [_|N]; [|contradiction]. destruct EO as [->| ->]; auto. }
  split.
  - destruct (pdtrw_of_loop wsL wsR sch eps E n y ds Ps A) as [H|H]; [left; auto|right]. exists ds. auto.
  - exact (checks_of_loop wsL wsR sch eps E n y ds Ps A).
Qed.
Print Assumptions C85_pdtr_warm_any_weights.

(** On multiples of 1/D, as in C83 and C84. *)
Theorem C85_pdtr_warm_fine_grid : forall n E eps D, (2 <= n)%nat ->
  graph_on (seq 0 n) E -> simple E -> forward E -> (forall a, In a E -> 0 < aw a) ->
  0 < eps -> 2000 * n4 n eps <= 1 -> multiples_of D E -> fine_tol D n (qn n * (65 * n4 n eps)) ->
  exists lams Ps, IsWeakPSP E (seq 0 n) lams Ps /\ slopes E lams Ps /\
    forall wsL wsR sch, WarmLSpec wsL -> WarmRSpec wsR ->
      pdtrw_run wsL wsR sch eps E n = Throw \/
      exists cs, pdtrw_run wsL wsR sch eps E n = Ok (map Fin cs, Ps) /\
        Forall2 (fun c l => Qabs (c - l) <= 65 * n4 n eps) cs lams.
Proof.
  intros n E eps D Hn HE Hs Hf Hw He H4 HD Ht. destruct (grid_min n E eps D Hn Hw He HD Ht) as [NE5 Hw0].
  destruct (C85_pdtr_warm_any_weights n E eps ltac:(lia) HE Hs Hf Hw0 He H4) as (cs & Ps & R1 & _ & _ & R2).
  assert (N0 : 0 <= n4 n eps).
  { unfold n4. assert (0 <= qn n) by apply qn_nonneg. repeat apply Qmult_le_0_compat; auto; lra. }
  destruct (near_exact E n Hn HE D HD (65 * n4 n eps) ltac:(lra) Ht cs Ps R1) as (lams & K1 & K2 & K3).
  exists lams, Ps. split; auto. split; auto. intros wsL wsR sch HL HR.
  destruct (R2 wsL wsR sch HL HR) as [[D1|(ds & D1 & D2)] _]; [left; auto|right]. exists ds. split; auto.
  clear -K3 D2. revert lams K3. induction D2 as [|c d cs ds Hc D2 IH]; intros lams K3; inversion K3; subst; constructor; auto.
  rewrite <- Hc. apply near_abs. auto.
Qed.
Print Assumptions C85_pdtr_warm_fine_grid.

(** The ladder of C83, two pairs of solvers and two schedules: all start flows are accepted. *)
Example C85_nonvacuous :
  WarmLSpec trim_L /\ WarmRSpec trim_R /\ WarmLSpec spin_L /\ WarmRSpec spin_R /\ (forall a, In a ladder8 -> tol < aw a) /\
  forall sch, In sch [(fun _ _ => true); (fun j p => Nat.even (j + length p))] ->
  forall ws, In ws [(trim_L, trim_R); (spin_L, spin_R)] ->
  pdtrw_run (fst ws) (snd ws) sch tol ladder8 8 = pdtr_run bf_mincut (rev_solver bf_mincut) (fun _ _ => true) tol ladder8 8.
Proof.
  split; [exact trim_L_spec|]. split; [exact trim_R_spec|]. split; [exact spin_L_spec|]. split; [exact spin_R_spec|].
  split; [intros a H; simpl in H; intuition (subst; reflexivity)|].
  intros sch [<-|[<-|[]]] ws [<-|[<-|[]]]; vm_compute; reflexivity.
Qed.

(** The throw does occur.  Node 0 is tied to node 8 and to 1, 2, 3; these are tied to 4, 5, 6, 7.  In stage 8 the range
    is first cut at 4734/5, where 4 to 7 leave the sink side; contracting them lets a maximum flow at 1520 run from the
    source to 1, 2, 3 and back.  At the next parameter, 1000, the arcs out of the source are cut back by 520 each and
    the source receives more than it sends.  (The order of the workers: the reverse one first in the first slice, then the other.) *)
Definition ex85 : graph := [mkArc 0 1 990; mkArc 0 2 990; mkArc 0 3 990; mkArc 0 8 3080; mkArc 1 8 10; mkArc 2 8 10; mkArc 3 8 10;
  mkArc 1 4 135; mkArc 2 4 135; mkArc 3 4 135; mkArc 4 8 1; mkArc 1 5 135; mkArc 2 5 135; mkArc 3 5 135; mkArc 5 8 1;
  mkArc 1 6 135; mkArc 2 6 135; mkArc 3 6 135; mkArc 6 8 1; mkArc 1 7 135; mkArc 2 7 135; mkArc 3 7 135; mkArc 7 8 1].
Definition sch85 (_ : nat) (p : list bool) : bool := match p with [] => false | _ => true end.
Lemma ex85_throws : pdtrw_run spin_L spin_R sch85 tol ex85 9 = Throw.
Proof. vm_compute. reflexivity. Qed.
Theorem C85_run_accepted_refuted :
  ~ (forall wsL wsR sch eps E n D, WarmLSpec wsL -> WarmRSpec wsR -> (1 <= n)%nat ->
       graph_on (seq 0 n) E -> simple E -> forward E -> (forall a, In a E -> eps < aw a) -> multiples_of D E ->
       0 < eps -> 2000 * n4 n eps <= 1 -> fine_tol D n (qn n * (65 * n4 n eps)) ->
       pdtrw_run wsL wsR sch eps E n <> Throw).
Proof.
  intro H. apply (H spin_L spin_R sch85 tol ex85 9%nat 1%positive); [exact spin_L_spec|exact spin_R_spec|lia| | | | | |reflexivity| | |exact ex85_throws].
  - intros a Ha. simpl in Ha. repeat (destruct Ha as [<-|Ha]; [repeat split; simpl; try lra; auto 20|]). destruct Ha.
  - unfold simple. simpl. repeat constructor; simpl; intuition congruence.
  - intros a Ha. simpl in Ha. repeat (destruct Ha as [<-|Ha]; [simpl; lia|]). destruct Ha.
  - intros a Ha. simpl in Ha. repeat (destruct Ha as [<-|Ha]; [reflexivity|]). destruct Ha.
  - intros a Ha. simpl in Ha. repeat (destruct Ha as [<-|Ha]; [eexists; simpl; reflexivity|]). destruct Ha.
  - vm_compute. discriminate.
  - reflexivity.
Qed.
Print Assumptions C85_run_accepted_refuted.

(** With maximum flows that never run back into the source, or without the flow maps, the same run returns. *)
Example C85_run_accepted :
  pdtrw_run trim_L trim_R sch85 tol ex85 9 = pdtr_run bf_mincut (rev_solver bf_mincut) sch85 tol ex85 9 /\
  exists Ps, pdtr_run bf_mincut (rev_solver bf_mincut) sch85 tol ex85 9 = Ok ([Fin 406; Fin 1000; Fin 3080], Ps).
Proof. split; [vm_compute; reflexivity|]. eexists. vm_compute. reflexivity. Qed.
