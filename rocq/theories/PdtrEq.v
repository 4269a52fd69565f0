(** * PdtrEq: with exact operations PDT_R follows the floating-point model of PDT with lambda_3 as upper end. *)
From Coq Require Import Qabs.
From Verif Require Import Base Graph Spec MSets SetsThy MGraph MaxFlow CutThy MDil DilThy MDT SeqThy MPMF MPMFR LamThy ParThy
  SliceThy PMFRThy DilApprox MFloat FloatThy FloatDil FloatDT MFloatT FloatLam FloatPar FloatSlice FloatPDT PdtEq.

Lemma exact_std : std_model 0 exact_ops.
Proof.
  intros a b. cbn [fadd fsub fmul fdiv exact_ops].
  assert (Z : forall x, Qabs (x - x) <= 0 * Qabs x).
  { intro x. setoid_replace (x - x) with 0 by ring. rewrite Qmult_0_l. apply Qle_refl. }
  repeat split; intros; apply Z.
Qed.
Lemma exact_mono : mono_ops exact_ops.
Proof. intros a b b' H. cbn [fadd fsub exact_ops]. lra. Qed.

(** ** lambda_3 *)
Lemma if_max_wd p p' q q' : p == p' -> q == q' -> (if Qltb p q then q else p) == (if Qltb p' q' then q' else p').
Proof. intros H K. rewrite (Qltb_wd p p' q q') by auto. destruct (Qltb p' q'); auto. Qed.

Lemma lam3_wd E n j y z : Forall2 peq y z -> lam3 E n j y == lam3 E n j z.
Proof.
  intro Hy. unfold lam3. assert (G : forall l s s', s == s' -> fold_left (lam3_step E j y) l s == fold_left (lam3_step E j z) l s').
  { induction l as [|i l IH]; intros s s' Hs; cbn [fold_left]; auto. apply IH. unfold lam3_step. cbv zeta.
    destruct (yat_wd y z i Hy) as [P1 P2].
    apply if_max_wd; [|rewrite P1; reflexivity]. apply if_max_wd; [|exact P1].
    destruct (snd (yat y i)) as [b| |], (snd (yat z i)) as [c| |]; cbn [deq] in P2; try contradiction; auto.
    apply if_max_wd; auto. rewrite P1, P2. reflexivity. }
  apply G. reflexivity.
Qed.

Lemma lam3_le E n j y B : 0 <= B ->
  (forall i, (i < n)%nat -> fst (yat y i) <= B /\ sink_capacity E j i + fst (yat y i) <= B /\
     (forall b, snd (yat y i) = Fin b -> fst (yat y i) - b <= B)) ->
  lam3 E n j y <= B.
Proof.
  intros HB H. unfold lam3. assert (G : forall l s, s <= B -> (forall i, In i l -> (i < n)%nat) -> fold_left (lam3_step E j y) l s <= B).
  { induction l as [|i l IH]; intros s Hs Hl; cbn [fold_left]; auto. apply IH; [|intros; apply Hl; right; auto].
    destruct (H i (Hl i (or_introl eq_refl))) as (H1 & H2 & H3). unfold lam3_step. cbv zeta.
    assert (M : forall p q, p <= B -> q <= B -> (if Qltb p q then q else p) <= B) by (intros p q Hp Hq; destruct (Qltb p q); auto).
    apply M; auto. apply M; auto. destruct (snd (yat y i)) as [b| |] eqn:Eb; auto. }
  apply G; auto. intros i Hi. apply in_seq in Hi. lia.
Qed.

(** PMF_R::run returns the chain found by PMF::slice between init_lambda and lambda_3. *)
Definition slice_res (mc : solver) (eps : Q) (E : graph) (n j : nat) (z : list (Q * dbl)) : res (list dbl * list cset) :=
  let T0 := snd (pmf_cut mc eps E j z init_lambda) in
  do r <- pmf_slice (S n) mc eps E n j z T0 [j] init_lambda (Fin (lam3 E n j z));
  Ok (isort dltb (fst r), isort superset (T0 :: [j] :: snd r)).

Lemma pmfr_slice_res mc mr sch eps E n j z r : MinSinkCutSpec mc -> MinSrcCutSpec mr -> 0 < eps -> (j < n)%nat ->
  graph_on (seq 0 n) E -> simple E -> forward E -> (forall a, In a E -> eps <= aw a) ->
  slice_res mc eps E n j z = Ok r -> pmfr_run mc mr sch eps E n j z = Ok r.
Proof.
  intros Hmc Hmr Heps Ej HE Hs Hf Hw. unfold slice_res, pmfr_run. rewrite (proj2 (Nat.ltb_lt _ _) Ej). cbv zeta.
  rewrite (worker_init mc Hmc mr Hmr eps Heps E n j Ej HE Hs Hf Hw z).
  destruct (pmf_cut_min mc Hmc eps Heps E n j Ej HE Hs Hf Hw z init_lambda) as [K1 _].
  set (T0 := snd (pmf_cut mc eps E j z init_lambda)) in *.
  destruct (pmf_slice _ _ _ _ _ _ _ _ _ _ _) as [b| | |] eqn:Eb; cbn [bind]; try discriminate. intro HR. injection HR as <-.
  set (base := fun i => (0, MPMFR.sink_capacity E j i)). set (L := lam3 E n j z) in *.
  assert (RG : rep E j (upd z base L (upd z base init_lambda (dig_net eps E j))) base (seq 0 j) [j]).
  { apply (rep_upd E n j HE). apply (rep_upd E n j HE). apply (dig_rep eps Heps E n j Ej HE Hs Hf Hw z). }
  assert (I0 : incl [j] T0) by (intros x [<-|[]]; apply K1).
  assert (I3 : forall x, In x T0 -> In x (seq 0 j) \/ In x [j]).
  { intros x Hx. destruct (lm_win _ _ _ _ _ K1 x (proj2 (mem_In _ _) Hx)); [left; auto|right; left; auto]. }
  destruct (pmfr_slice_ok mc Hmc mr Hmr eps Heps E n j Ej HE Hs Hf Hw z sch (S n) [] (seq 0 j)
              _ base [j] T0 [j] init_lambda L false _ RG (incl_refl _) I0 I3 K1 (lam3_lmin E n j Ej HE Hs Hf z) Eb) as (G' & Q1 & _).
  rewrite Q1. reflexivity.
Qed.

Section RRun.
  Variable mc mc0 : solver.
  Hypothesis Hmc : MinSinkCutSpec mc.
  Hypothesis Hmc0 : MinSinkCutSpec mc0.
  Variable n : nat.
  Variable eps : Q.
  Hypothesis Heps : 0 < eps.
  Variable E : graph.
  Hypothesis HE : graph_on (seq 0 n) E.
  Variable pm : nat -> list (Q * dbl) -> res (list dbl * list cset).
  Hypothesis Hpm : forall j z r, (j < n)%nat -> slice_res mc eps E n j z = Ok r -> pm j z = Ok r.
  Let it := fun G : graph => G.
  Let itn := fun N : network => N.
  Let Lup := fun j y => Fin (lam3 E n j y).

  Lemma prunr_wd j y z r : Forall2 peq y z ->
    f_pmf_run_to (Lup j y) exact_ops it itn mc0 eps init_lambda E n j y = Ok r ->
    exists r', pm j z = Ok r' /\ srel r r'.
  Proof.
    intros Hy. unfold f_pmf_run_to, Lup. destruct (j <? n)%nat eqn:Ej; [|discriminate]. apply Nat.ltb_lt in Ej. cbv zeta.
    destruct (pcut_wd mc0 Hmc0 mc Hmc eps E n HE j y z init_lambda init_lambda Hy (Qeq_refl _)) as [_ P2]. rewrite P2.
    set (T0 := snd (pmf_cut mc eps E j z init_lambda)) in *.
    assert (S := slice_wd mc0 Hmc0 mc Hmc eps E n HE j y z Hy (S n) T0 [j] init_lambda init_lambda (Fin (lam3 E n j y)) (Fin (lam3 E n j z))
                   (Qeq_refl _) (lam3_wd E n j y z Hy)).
    change (fun G : graph => G) with it in S. change (fun N : network => N) with itn in S.
    destruct (f_pmf_slice _ _ _ _ _ _ _ _ _ _ _ _ _ _) as [a| | |]; cbn [bind]; try discriminate. intro HR. injection HR as <-.
    destruct (pmf_slice _ _ _ _ _ _ _ _ _ _ _) as [b| | |] eqn:Eb; cbn [rrel] in S; try contradiction. destruct S as [S1 S2].
    exists (isort dltb (fst b), isort superset (T0 :: [j] :: snd b)). split.
    - apply Hpm; auto. unfold slice_res. cbv zeta. fold T0. rewrite Eb. reflexivity.
    - split; cbn [fst snd].
      + apply isort_wd; auto. intros. apply dltb_wd; auto.
      + rewrite S2. reflexivity.
  Qed.

  Lemma stepr_wd st st' j st1 : strel st st' ->
    f_pdt_step_to Lup exact_ops it itn mc0 eps init_lambda E n st j = Ok st1 ->
    exists st1', pdt_step pm E n st' j = Ok st1' /\ strel st1 st1'.
  Proof.
    intros HS. unfold f_pdt_step_to, pdt_step.
    destruct (f_pmf_run_to _ _ _ _ _ _ _ _ _ _ _) as [r| | |] eqn:Er; cbn [bind]; try discriminate. intro H.
    destruct (prunr_wd j (fst st) (fst st') r (proj1 HS) Er) as (r' & R1 & R2). rewrite R1. cbn [bind].
    assert (K := tail_wd E n st st' j r r' HS R2). change (fun G : graph => G) with it in K. cbv zeta in *. rewrite H in K.
    set (X := bind _ _) in K |- *. destruct X as [st1'| | |]; cbn [rrel] in K; try contradiction. eauto.
  Qed.

  Lemma foldr_wd l : forall st st' st1, strel st st' ->
    foldr (f_pdt_step_to Lup exact_ops it itn mc0 eps init_lambda E n) st l = Ok st1 ->
    exists st1', foldr (pdt_step pm E n) st' l = Ok st1' /\ strel st1 st1'.
  Proof.
    induction l as [|j l IH]; intros st st' st1 HS H; cbn [foldr] in *.
    - injection H as <-. eauto.
    - destruct (f_pdt_step_to _ _ _ _ _ _ _ _ _ _ _) as [s2| | |] eqn:E2; cbn [bind] in H; try discriminate H.
      destruct (stepr_wd st st' j s2 HS E2) as (s2' & A & B). rewrite A. cbn [bind]. eapply IH; eauto.
  Qed.

  Lemma loop_to cs Ps : f_pdt_run_to Lup exact_ops it itn mc0 eps init_lambda E n = Ok (map Fin cs, Ps) ->
    exists yy ds, pdt_loop pm E n [] = Ok (yy, (map Fin ds, Ps)) /\ Forall2 Qeq cs ds.
  Proof.
    unfold f_pdt_run_to, pdt_loop. destruct (n =? 0)%nat; [discriminate|]. cbn [app length]. rewrite Nat.sub_0_r.
    destruct (foldr (f_pdt_step_to _ _ _ _ _ _ _ _ _) _ _) as [st| | |] eqn:Ef; cbn [bind]; try discriminate. intro H.
    assert (S0 : strel (repeat (0, PInf) n, [(PInf, [[0%nat]])]) (repeat (0, PInf) n, [(PInf, [[0%nat]])])).
    { split; cbn [fst snd].
      - clear. induction n; simpl; constructor; auto. split; simpl; auto; reflexivity.
      - repeat constructor. }
    destruct (foldr_wd _ _ _ _ S0 Ef) as (st' & R1 & [_ R2]). rewrite R1. cbn [bind fst snd].
    assert (HH : removelast (map fst (snd st)) = map Fin cs /\ map snd (snd st) = Ps) by (inversion H; auto). destruct HH as [H1 H2].
    assert (M1 : Forall2 deq (map fst (snd st)) (map fst (snd st'))).
    { clear -R2. induction R2 as [|a b l l' [H _] HF IH]; simpl; constructor; auto. }
    assert (M2 : map snd (snd st) = map snd (snd st')).
    { clear -R2. induction R2 as [|a b l l' [_ H] HF IH]; simpl; auto. rewrite H, IH. auto. }
    assert (M3 : Forall2 deq (removelast (map fst (snd st))) (removelast (map fst (snd st')))).
    { clear -M1. induction M1 as [|a b l l' H HF IH]; [constructor|]. destruct HF; [constructor|]. cbn [removelast] in *. constructor; auto. }
    rewrite H1 in M3. rewrite <- M2, H2.
    clear -M3. set (fs := removelast _) in *. clearbody fs.
    assert (L : exists ds, fs = map Fin ds /\ Forall2 Qeq cs ds).
    { revert fs M3. induction cs as [|c cs' IH]; intros fs K1; inversion K1 as [|? y ? l Hy Hl]; subst.
      - exists []. split; auto.
      - destruct (IH l Hl) as (ds & -> & H). destruct y as [q| |]; simpl in Hy; try contradiction.
        exists (q :: ds). split; auto. }
    destruct L as (ds & -> & L). eauto.
  Qed.

End RRun.

Section Lam3.
  Variable n : nat.
  Variable eps : Q.
  Hypothesis Heps : 0 < eps.
  Variable E : graph.
  Hypothesis HE : graph_on (seq 0 n) E.
  Hypothesis Hs : simple E.
  Hypothesis Hf : forward E.
  Hypothesis Hw : forall a, In a E -> eps <= aw a.
  Variable W : Q.
  Hypothesis HW : 1 <= W.
  Hypothesis HWE : total E <= W.
  Hypothesis HepsN : 32 * (qn n * eps) <= 1.

  Lemma lam3_flmin j y : (j < n)%nat -> (forall v, (v < j)%nat -> pbnd W (yat y v)) -> lam3 E n j y <= 4 * W ->
    flmin exact_ops eps E j y (lam3 E n j y) [j].
  Proof.
    intros Hj Hy HL. assert (K := lam3_lmin E n j Hj HE Hs Hf y). destruct (lam3_ge E n j Hj y) as [L0 _].
    set (L := lam3 E n j y) in *.
    assert (V : forall X, win (seq 0 j) j X -> fcut exact_ops eps E j y L X == gval E j y L X + cst j y L).
    { intros X HX.
      assert (F := fcut_near 0 exact_ops ltac:(lra) exact_std n W HW eps Heps ltac:(lra) HepsN E j Hj HE Hs Hf Hw HWE y Hy L X HX
                ltac:(lra) ltac:(lra)). destruct F. lra. }
    constructor; try apply K.
    - intro X. assert (NO := f_net_ok 0 exact_ops ltac:(lra) exact_std n W eps E j HE HWE y L).
      assert (C : fcut exact_ops eps E j y L X == fcut exact_ops eps E j y L (mem (filter X (seq 0 j)))).
      { unfold fcut. symmetry. apply cut_nodes. exact NO. }
      assert (WX : win (seq 0 j) j (mem (filter X (seq 0 j)))).
      { intros x Hx. apply mem_In, filter_In in Hx. left. tauto. }
      rewrite C, (V _ WX), (V (mem [j]) (lm_win _ _ _ _ _ K)). assert (M := lm_min _ _ _ _ _ K _ WX). lra.
    - intros X _ x Hx [C|[]]. apply in_seq in Hx. lia.
  Qed.

  Lemma lam3_ok j y : (1 <= j < n)%nat -> (forall v, (v < j)%nat -> pbnd W (yat y v)) ->
    (forall v, (v < j)%nat -> fst (yat y v) <= incut E (mem [v]) + qn n * (0 * (60 * (qn n * W)))) ->
    (forall v b, (v < j)%nat -> snd (yat y v) = Fin b -> fst (yat y v) - b <= 4 * W + 0 * (60 * (qn n * W))) ->
    (forall v, (j <= v)%nat -> yat y v = (0, PInf)) ->
    flmin exact_ops eps E j y (lam3 E n j y) [j] /\ init_lambda <= lam3 E n j y /\ lam3 E n j y <= 4 * W.
  Proof.
    intros Hj Hb _ Hg Hr. assert (HL : lam3 E n j y <= 4 * W).
    { apply lam3_le; [lra|]. intros i Hi.
      assert (SC : sink_capacity E j i <= W).
      { unfold sink_capacity. destruct (i <=? j)%nat; [|lra].
        assert (K := sink_cost_le E j i (graph_on_nonneg _ _ HE)). lra. }
      destruct (Nat.lt_ge_cases i j) as [K|K].
      - destruct (Hb i K) as [[B1 B2] _]. split; [lra|]. split; [lra|]. intros b Hb'. specialize (Hg i b K Hb'). lra.
      - rewrite (Hr i K). cbn [fst snd]. split; [lra|]. split; [lra|]. intros b Hb'. discriminate Hb'. }
    split; [apply lam3_flmin; auto; lia|]. split; auto.
    destruct (lam3_ge E n j ltac:(lia) y) as [L0 _]. unfold init_lambda. lra.
  Qed.
End Lam3.

(** The two-worker runs return what the run with the upper ends [lam3] returns. *)
Lemma pdtr_to mc mc0 mr sch n eps E cs Ps : MinSinkCutSpec mc -> MinSinkCutSpec mc0 -> MinSrcCutSpec mr -> 0 < eps ->
  graph_on (seq 0 n) E -> simple E -> forward E -> (forall a, In a E -> eps <= aw a) ->
  f_pdt_run_to (fun j y => Fin (lam3 E n j y)) exact_ops (fun G => G) (fun N => N) mc0 eps init_lambda E n = Ok (map Fin cs, Ps) ->
  exists ds, pdtr_run mc mr sch eps E n = Ok (map Fin ds, Ps) /\ Forall2 Qeq cs ds.
Proof.
  intros Hmc Hmc0 Hmr He HE Hs Hf Hw H.
  destruct (loop_to mc mc0 Hmc Hmc0 n eps E HE (fun j y => pmfr_run mc mr (sch j) eps E n j y)) with (2 := H) as (y & ds & R1 & R2).
  { intros j z r Hj Hr. apply (pmfr_slice_res mc mr (sch j) eps E n j z r); auto. }
  exists ds. split; auto. unfold pdtr_run. rewrite R1. reflexivity.
Qed.
