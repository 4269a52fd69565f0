(** * CostThy: the instrumented functions of MCost compute the same results; call counts. *)
From Coq Require Import Sorted.
From Verif Require Import Base Spec MSets SetsThy PartThy SubThy MaxFlow CutThy MDil DilThy
  SeqThy MDT DTThy MContract ContractThy MPSPI TreeThy DecThy PSPIThy PSPILoop MHPSP HPSPThy MPMF MPMFR MCost.

(** ** Erasure *)
Definition erase {A B} (r : res (A * B)) : res A := bind r (fun x => Ok (fst x)).

Lemma dil_loop_erase mc lam E : forall todo xs P tr,
  dil_loop_t mc lam E todo xs P tr = (dil_loop mc lam E todo xs P, tr ++ seq (length xs) (length todo)).
Proof.
  induction todo as [|v t IH]; intros xs P tr; cbn [dil_loop_t dil_loop length seq].
  - rewrite app_nil_r. reflexivity.
  - rewrite IH, app_length, <- app_assoc. simpl. rewrite Nat.add_1_r. reflexivity.
Qed.

Lemma dil_run_erase mc lam E vs : dil_run_t mc lam E vs = (dil_run mc lam E vs, seq 0 (length vs)).
Proof.
  unfold dil_run_t, dil_run. rewrite dil_loop_erase. destruct (dil_loop mc lam E vs [] []) as [xs P]. reflexivity.
Qed.

Lemma dt_split_erase mc eps E n : forall fuel Qp P,
  dt_split fuel mc eps E n Qp P = erase (dt_split_t fuel mc eps E n Qp P).
Proof.
  induction fuel as [|fuel IH]; intros Qp P; [reflexivity|]. cbn [dt_split dt_split_t].
  destruct (length P =? length Qp)%nat; [reflexivity|]. unfold dt_dil_run, dt_dil_run_t.
  destruct (existsb _ E); [reflexivity|]. cbn [bind]. rewrite dil_run_erase. cbn [fst snd].
  destruct (_ || _ || _); [reflexivity|]. rewrite !IH.
  destruct (dt_split_t fuel mc eps E n Qp _) as [[[a1 a2] a3]| | |]; cbn [erase bind]; auto.
  destruct (dt_split_t fuel mc eps E n _ P) as [[[b1 b2] b3]| | |]; cbn [erase bind]; auto.
Qed.

Lemma dt_run_erase mc eps E n : dt_run mc eps E n = erase (dt_run_t mc eps E n).
Proof.
  unfold dt_run, dt_run_t. rewrite dt_split_erase.
  destruct (dt_split_t _ _ _ _ _ _ _) as [[[a1 a2] a3]| | |]; reflexivity.
Qed.

Lemma foldm_erase {A B C} (f : B -> A -> res B) (g : B * C -> A -> res (B * C)) l :
  (forall b c x, In x l -> f b x = erase (g (b, c) x)) ->
  forall b c, foldm f l b = erase (foldm g l (b, c)).
Proof.
  induction l as [|x l IH]; intros H b c; cbn [foldm]; [reflexivity|].
  rewrite (H b c x) by (left; auto). destruct (g (b, c) x) as [[b' c']| | |]; cbn [erase bind fst]; auto.
  rewrite (IH ltac:(intros; apply H; right; auto) b' c'). reflexivity.
Qed.

Lemma psp_split_erase mc eps : forall fuel st i,
  psp_split fuel mc eps st i = erase (psp_split_t fuel mc eps st i).
Proof.
  induction fuel as [|fuel IH]; intros st i; [reflexivity|]. cbn [psp_split psp_split_t].
  destruct (negb (forallb (K_ok st) (pch st i))); [reflexivity|].
  destruct (length (pch st i)) as [|[|k]] eqn:Ek; [reflexivity..|].
  destruct (S (S k) =? 2)%nat; [reflexivity|]. rewrite dil_run_erase. cbn [fst snd].
  destruct (negb _); [reflexivity|].
  rewrite (foldm_erase _ (fun (x : pst * trace) S =>
                     let (st, tr) := x in
                     if (length S =? 1)%nat then Ok (st, tr)
                     else
                       let s := length (pK st) in
                       do y <- psp_split_t fuel mc eps (regroup st i S) s;
                       let st2 := fst y in
                       Ok (mkP (MContract.contract eps (pG st2) S (hd 0%nat S)) (pK st2) (pch st2) (plab st2), tr ++ snd y)) _) with (c := seq 0 (length (enabled (pG st) (reps_of st (pch st i))))).
  - destruct (foldm _ _ _) as [[st' tr']| | |]; cbn [erase bind fst]; auto. rewrite IH.
    destruct (psp_split_t fuel mc eps st' i) as [[st'' tr'']| | |]; reflexivity.
  - intros b c x _. destruct (length x =? 1)%nat; [reflexivity|]. cbv zeta. rewrite IH.
    destruct (psp_split_t fuel mc eps _ _) as [[st'' tr'']| | |]; reflexivity.
Qed.

Lemma psp_run_erase mc eps E n : psp_run mc eps E n = erase (psp_run_t mc eps E n).
Proof.
  unfold psp_run, psp_run_from, psp_run_t. rewrite psp_split_erase.
  destruct (psp_split_t _ _ _ _ _) as [[st tr]| | |]; cbn [erase bind fst snd]; auto.
  destruct (pch st 0%nat) as [|a l]; [reflexivity|]. destruct (psp_loop _ _ _) as [[a1 a2]| | |]; reflexivity.
Qed.

Lemma hpsp_split_erase mc eps : forall fuel st s ch,
  hpsp_split fuel mc eps st s ch = erase (hpsp_split_t fuel mc eps st s ch).
Proof.
  induction fuel as [|fuel IH]; intros st s ch; [reflexivity|]. cbn [hpsp_split hpsp_split_t].
  destruct (length ch) as [|[|k]] eqn:Ek; [reflexivity..|].
  destruct (S (S k) =? 2)%nat; [reflexivity|]. rewrite dil_run_erase. cbn [fst snd].
  destruct (negb _); [reflexivity|].
  rewrite (foldm_erase _ (fun (x : hst * cset * trace) S =>
                   let '(st, nS, tr) := x in
                   let new_S := cadd (hd 0%nat S) nS in
                   if (length S =? 1)%nat then Ok (st, new_S, tr)
                   else
                     do y <- hpsp_split_t fuel mc eps st (hd 0%nat S) S;
                     let st2 := fst y in
                     Ok (mkH (MContract.contract eps (hG st2) S (hd 0%nat S)) (hW st2) (hK st2), new_S, tr ++ snd y)) _)
     with (c := seq 0 (length (enabled (hG st) ch))).
  - destruct (foldm _ _ _) as [[[st' nS] tr']| | |]; cbn [erase bind fst snd]; auto. rewrite IH.
    destruct (hpsp_split_t fuel mc eps st' s nS) as [[st'' tr'']| | |]; reflexivity.
  - intros [b nS] c x _. cbn [fst snd]. cbv zeta. destruct (length x =? 1)%nat; [reflexivity|]. rewrite IH.
    destruct (hpsp_split_t fuel mc eps _ _ _) as [[st'' tr'']| | |]; reflexivity.
Qed.

Lemma hpsp_run_erase mc eps E n : hpsp_run mc eps E n = erase (hpsp_run_t mc eps E n).
Proof.
  unfold hpsp_run, hpsp_run_t. rewrite hpsp_split_erase.
  destruct (hpsp_split_t _ _ _ _ _ _) as [[st tr]| | |]; cbn [erase bind fst snd]; auto.
  destruct (hpsp_loop _ _ _ _ _ _ _ _) as [[a1 a2]| | |]; reflexivity.
Qed.

Lemma pmf_slice_erase mc eps E n j y : forall fuel Tl Tr l1 l3,
  pmf_slice fuel mc eps E n j y Tl Tr l1 l3 = erase (pmf_slice_t fuel mc eps E n j y Tl Tr l1 l3).
Proof.
  induction fuel as [|fuel IH]; intros Tl Tr l1 l3; [reflexivity|]. cbn [pmf_slice pmf_slice_t].
  destruct (compute_lambda _ _ _) as [[l|]| | |]; cbn [bind erase]; auto.
  destruct (_ || _); [reflexivity|]. destruct (_ || _); [reflexivity|].
  destruct (_ && _ && _); [|reflexivity]. rewrite IH.
  destruct (pmf_slice_t fuel _ _ _ _ _ _ Tl _ _ _) as [[[a1 a2] a3]| | |]; cbn [erase bind fst snd]; auto. rewrite IH.
  destruct (pmf_slice_t fuel _ _ _ _ _ _ _ Tr _ _) as [[[b1 b2] b3]| | |]; reflexivity.
Qed.

Lemma pmf_run_erase mc eps E n j y : pmf_run mc eps E n j y = erase (pmf_run_t mc eps E n j y).
Proof.
  unfold pmf_run, pmf_run_t. destruct (j <? n)%nat; [|reflexivity]. rewrite pmf_slice_erase.
  destruct (pmf_slice_t _ _ _ _ _ _ _ _ _ _ _) as [[[a1 a2] a3]| | |]; reflexivity.
Qed.

Lemma pmfr_slice_erase mc mr sch eps E j y : forall fuel path nodes G base Tl Tr l1 l3 c,
  pmfr_slice fuel mc mr sch path eps E j y nodes G base Tl Tr l1 l3 c =
  erase (pmfr_slice_t fuel mc mr sch path eps E j y nodes G base Tl Tr l1 l3 c).
Proof.
  induction fuel as [|fuel IH]; intros path nodes G base Tl Tr l1 l3 c; [reflexivity|]. cbn [pmfr_slice pmfr_slice_t].
  destruct (compute_lambda _ _ _) as [[l|]| | |]; cbn [bind erase]; auto.
  destruct (_ || _); [reflexivity|]. destruct (_ || _); [reflexivity|].
  destruct (if c then _ else _) as [[nodes' G']| | |]; cbn [bind erase fst snd]; auto.
  destruct (_ && _ && _); [|reflexivity]. rewrite IH.
  destruct (pmfr_slice_t fuel mc mr sch (true :: path) _ _ _ _ _ _ _ _ _ _ _ _) as [[[[a1 a2] a3] a4]| | |]; cbn [erase bind fst snd]; auto. rewrite IH.
  destruct (pmfr_slice_t fuel mc mr sch (false :: path) _ _ _ _ _ _ _ _ _ _ _ _) as [[[[b1 b2] b3] b4]| | |]; reflexivity.
Qed.

Lemma pmfr_run_erase mc mr sch eps E n j y : pmfr_run mc mr sch eps E n j y = erase (pmfr_run_t mc mr sch eps E n j y).
Proof.
  unfold pmfr_run, pmfr_run_t. destruct (j <? n)%nat; [|reflexivity]. rewrite pmfr_slice_erase.
  destruct (pmfr_slice_t _ _ _ _ _ _ _ _ _ _ _ _ _ _ _ _ _) as [[[[a1 a2] a3] a4]| | |]; reflexivity.
Qed.

Lemma pdt_step_erase pm pmt E n : (forall j y, pm j y = erase (pmt j y)) -> forall st tr j,
  pdt_step pm E n st j = erase (pdt_step_t pmt E n (st, tr) j).
Proof.
  intros H st tr j. unfold pdt_step_t. cbn [fst snd]. unfold pdt_step at 1. rewrite H.
  destruct (pmt j (fst st)) as [[r t]| | |]; cbn [erase bind fst snd]; auto.
  unfold pdt_step. cbn [bind]. destruct (mapr _ _); cbn [bind]; auto. destruct (_ =? _)%nat; [|reflexivity].
  destruct (pdt_merge _ _ _ _); reflexivity.
Qed.

Lemma pdt_loop_erase pm pmt E n : (forall j y, pm j y = erase (pmt j y)) ->
  bind (pdt_loop pm E n []) (fun r => Ok (snd r)) = erase (pdt_loop_t pmt E n).
Proof.
  intro H. unfold pdt_loop, pdt_loop_t. destruct (n =? 0)%nat; [reflexivity|]. cbn [app length]. rewrite Nat.sub_0_r.
  assert (K : forall l st tr, foldr (pdt_step pm E n) st l = erase (foldr (pdt_step_t pmt E n) (st, tr) l)).
  { induction l as [|x l IH]; intros st tr; cbn [foldr]; [reflexivity|].
    rewrite (pdt_step_erase pm pmt E n H st tr x). destruct (pdt_step_t pmt E n (st, tr) x) as [[st' tr']| | |]; cbn [erase bind fst]; auto. }
  rewrite (K _ _ []). destruct (foldr _ _ _) as [[[y A] tr]| | |]; reflexivity.
Qed.

Lemma pdt_run_erase mc eps E n : pdt_run mc eps E n = erase (pdt_run_t mc eps E n).
Proof.
  unfold pdt_run, pdt_run_t, pdt_run_from. apply pdt_loop_erase. intros. apply pmf_run_erase.
Qed.

Lemma pdtr_run_erase mc mr sch eps E n : pdtr_run mc mr sch eps E n = erase (pdtr_run_t mc mr sch eps E n).
Proof.
  unfold pdtr_run, pdtr_run_t. apply pdt_loop_erase. intros. apply pmfr_run_erase.
Qed.

(** ** The recursion of split in terms of the graph alone *)

(** [L] is a best partition of [X] among those that keep the blocks [Bs] together, for the value
    [g] at which [Bs] and the one-block partition are equally good. *)
Definition level (E : graph) (X : list nat) (Bs : list (list nat)) (g : Q) (L : list (list nat)) : Prop :=
  g * (qn (length Bs) - 1) == crossing (sub E X) Bs /\ is_partition X L /\ refines Bs L /\
  forall R, is_partition X R -> refines Bs R -> hval (sub E X) g L <= hval (sub E X) g R.

(** The max flows made for the node set [X] with the blocks [Bs] as current children. *)
Inductive rec_calls (E : graph) (eps : Q) : list nat -> list (list nat) -> list nat -> Prop :=
| rc_two X Bs : length Bs = 2%nat -> rec_calls E eps X Bs []
| rc_leaf X Bs g L : (3 <= length Bs)%nat -> level E X Bs g L ->
    (length L = 1%nat \/ length L = length Bs \/ - g - eps <= hval (sub E X) g L) ->
    rec_calls E eps X Bs (seq 0 (length Bs))
| rc_node X Bs g L Ms tr1 Bs' tr2 : (3 <= length Bs)%nat -> level E X Bs g L ->
    length L <> 1%nat -> length L <> length Bs -> hval (sub E X) g L < - g - eps ->
    length (concat Ms) = length Bs -> parts E eps L Ms tr1 ->
    Permutation L Bs' -> rec_calls E eps X Bs' tr2 ->
    rec_calls E eps X Bs (seq 0 (length Bs) ++ tr1 ++ tr2)
with parts (E : graph) (eps : Q) : list (list nat) -> list (list (list nat)) -> list nat -> Prop :=
| p_nil : parts E eps [] [] []
| p_one Y Ls Ms tr : parts E eps Ls Ms tr -> parts E eps (Y :: Ls) ([Y] :: Ms) tr
| p_rec Y M t Ls Ms tr : is_partition Y M -> (2 <= length M)%nat -> rec_calls E eps Y M t ->
    parts E eps Ls Ms tr -> parts E eps (Y :: Ls) (M :: Ms) (t ++ tr).

Section LevelFacts.
  Variable vs : list nat.
  Variable E : graph.
  Hypothesis HE : graph_on vs E.
  Variable mc : solver.
  Hypothesis Hmc : MinCutSpec mc.
  Variable s : bool.
  Variable eps : Q.
  Hypothesis Heps : 0 < eps.
  Let Hmct := trunc_of_exact mc eps vs E Hmc.
  Variable e : Q.
  Variables (G : gst) (p : nat -> nat) (X : list nat) (ts : list ht) (beta : Q).
  Hypothesis HP : Pre vs E s eps e G p X ts beta.
  Let P' := snd (lv_dil (dil_run mc) G ts).

  Lemma lv_level : level E X (map hset ts) (lv_gamma G ts) (map (lift p X) P').
  Proof.
    destruct HP as (H1 & H2 & H3 & _). split; [|split; [|split]].
    - rewrite map_length. eapply gamma_eq; eauto.
    - eapply Lp_part; eauto.
    - eapply lift_coarse; eauto. eapply P'_part; eauto.
    - intros R HR HC. eapply Lp_best; eauto.
  Qed.

  Lemma lv_value : fst (lv_dil (dil_run mc) G ts) == hval (sub E X) (lv_gamma G ts) (map (lift p X) P').
  Proof.
    destruct HP as (H1 & H2 & H3 & _).
    rewrite <- (lift_hval vs E HE s eps e G p H1 X ts H2 (lv_gamma G ts) P').
    - destruct (dil_run_correct mc Hmc (lv_gamma G ts) (lv_sub G ts) (enabled G (map hrep ts))) as (_ & D2 & _); [eapply R0_NoDup; eauto|eapply sb_on; eauto|eapply sb_simple; eauto|eapply sb_ordered; eauto|exact D2].
    - eapply P'_part; eauto.
  Qed.

  Lemma lv_final_perm G1 q tc : length P' <> 1%nat -> FInv vs E (dil_run mc) s eps e G p X ts P' [] G1 q tc ->
    Permutation (map (lift p X) P') (map hset tc).
  Proof.
    intros Hlen HF.
    destruct (lv_final_pre vs E HE (dil_run mc) s eps Heps Hmct e G p X ts beta HP Hlen G1 q tc HF) as (_ & M2 & _).
    destruct HP as (H1 & H2 & H3 & _).
    assert (ND : NoDup (map (lift p X) P')).
    { eapply parts_distinct; [apply csorted_NoDup; apply (T_sorted _ _ _ _ _ _ _ H2)|]. eapply Lp_part; eauto. }
    apply NoDup_Permutation_bis; auto.
    - rewrite !map_length. fold P' in M2. lia.
    - intros B HB. apply in_map_iff in HB. destruct HB as (S & <- & HS).
      apply (F_done _ _ _ _ _ _ _ _ _ _ _ _ _ _ _ HF S HS).
  Qed.
End LevelFacts.

Section PSPICost.
  Variable vs : list nat.
  Hypothesis Hvs : csorted vs.
  Variable E : graph.
  Hypothesis HE : graph_on vs E.
  Variable mc : solver.
  Hypothesis Hmc : MinCutSpec mc.
  Variable s : bool.
  Hypothesis Hms : s = true -> MinSinkCutSpec mc.
  Variable eps : Q.
  Hypothesis Heps : 0 < eps.
  Let Hmct := trunc_of_exact mc eps vs E Hmc.
  Variable e : Q.
  Hypothesis He : 0 <= e.
  Hypothesis Hgap : forall X Ps R g,
    incl X vs -> NoDup X -> is_partition X Ps -> is_partition X R -> (2 <= length Ps)%nat ->
    g * (qn (length Ps) - 1) == crossing (sub E X) Ps ->
    - g - eps <= hval (sub E X) g R -> - g - e <= hval (sub E X) g R.

  Let PreX := Pre vs E s eps e.
  Let PostX := Post vs E s eps e.

  Theorem psp_split_cost : forall fuel st i p X ts beta,
    (length ts <= fuel)%nat -> PreX (pG st) p X ts beta -> Forall2 (trep st) (pch st i) ts ->
    (i < length (pK st))%nat -> Kat st i = X ->
    exists st' p' g ts' tr, psp_split_t fuel mc eps st i = Ok (st', tr) /\
      PostX p X ts beta (pG st') p' g ts' /\ trep st' i (HT X g ts') /\ Frame st i st' /\
      rec_calls E eps X (map hset ts) tr.
  Proof.
    induction fuel as [|fuel IH]; intros st i p X ts beta Hfuel HP HF Hi HK.
    - destruct HP as (_ & _ & H2 & _). lia.
    - assert (H2 : (2 <= length ts)%nat) by apply HP.
      assert (Hhok : forall t, In t ts -> hok E s e t) by (apply (T_hok _ _ _ _ _ _ _ (proj1 (proj2 HP)))).
      assert (Leaf : (length ts = 2%nat \/ length (snd (lv_dil (dil_run mc) (pG st) ts)) = 1%nat \/
          length (snd (lv_dil (dil_run mc) (pG st) ts)) = length ts \/
          - lv_gamma (pG st) ts - eps <= fst (lv_dil (dil_run mc) (pG st) ts)) ->
        forall tr0, rec_calls E eps X (map hset ts) tr0 ->
        exists st' p' g ts' tr, Ok (set_labels st (pch st i) (Fin (lv_gamma (pG st) ts)), tr0) = Ok (st', tr) /\
          PostX p X ts beta (pG st') p' g ts' /\ trep st' i (HT X g ts') /\ Frame st i st' /\
          rec_calls E eps X (map hset ts) tr).
      { intros Hc tr0 Htr. destruct (trep_leaf vs E s eps e st i ts X (lv_gamma (pG st) ts) p beta HP HF Hi HK) as [A1 A2].
        eexists _, p, _, ts, tr0. split; [reflexivity|]. split; [|split; [|split]]; eauto.
        apply (lv_leaf vs E HE (dil_run mc) s eps Heps Hmct e Hgap (pG st) p X ts beta HP Hc). }
      cbn [psp_split_t]. rewrite (K_ok_all E s e st _ ts HF Hhok). cbn [negb].
      rewrite (reps_of_hrep st _ ts HF), (Forall2_len _ _ _ HF).
      rewrite dil_run_erase. cbn [fst snd].
      fold (lv_sub (pG st) ts). fold (lv_gamma (pG st) ts).
      change (dil_run mc (lv_gamma (pG st) ts) (lv_sub (pG st) ts) (enabled (pG st) (map hrep ts)))
        with (lv_dil (dil_run mc) (pG st) ts).
      assert (Len : length (enabled (pG st) (map hrep ts)) = length ts).
      { destruct HP as (Z1 & Z2 & Z3 & _). eapply R0_length; eauto. }
      rewrite Len.
      assert (Lv := lv_level vs E HE mc Hmc s eps Heps e (pG st) p X ts beta HP).
      assert (Lv2 := lv_value vs E HE mc Hmc s eps Heps e (pG st) p X ts beta HP).
      destruct (length ts) as [|[|k]] eqn:Ek; [lia|lia|].
      set (gm := lv_gamma (pG st) ts) in *.
      destruct (S (S k) =? 2)%nat eqn:K2.
      { apply Nat.eqb_eq in K2. apply Leaf; auto. apply rc_two. rewrite map_length. lia. }
      apply Nat.eqb_neq in K2.
      destruct (negb (negb (length (snd (lv_dil (dil_run mc) (pG st) ts)) =? 1)%nat &&
                      negb (length (snd (lv_dil (dil_run mc) (pG st) ts)) =? S (S k))%nat &&
                      Qltb (fst (lv_dil (dil_run mc) (pG st) ts)) (- gm - eps))) eqn:Hc.
      { assert (Hc' : length (snd (lv_dil (dil_run mc) (pG st) ts)) = 1%nat \/
          length (snd (lv_dil (dil_run mc) (pG st) ts)) = S (S k) \/
          - gm - eps <= fst (lv_dil (dil_run mc) (pG st) ts)).
        { rewrite negb_true_iff in Hc. apply andb_false_iff in Hc. destruct Hc as [Hc|Hc].
          - apply andb_false_iff in Hc. destruct Hc as [Hc|Hc]; apply negb_false_iff, Nat.eqb_eq in Hc; auto.
          - apply Qltb_false in Hc. auto. }
        apply Leaf; [tauto|].
        replace (S (S k)) with (length (map hset ts)) by (rewrite map_length; auto).
        apply (rc_leaf E eps X (map hset ts) gm (map (lift p X) (snd (lv_dil (dil_run mc) (pG st) ts)))); auto.
        - rewrite map_length. lia.
        - rewrite !map_length, <- Lv2, Ek. exact Hc'. }
      clear Leaf. apply negb_false_iff, andb_true_iff in Hc. destruct Hc as [Hc Hv].
      apply andb_true_iff in Hc. destruct Hc as [Hc1 Hc2].
      apply negb_true_iff, Nat.eqb_neq in Hc1. apply negb_true_iff, Nat.eqb_neq in Hc2.
      set (P' := snd (lv_dil (dil_run mc) (pG st) ts)) in *.
      set (body := fun (x : pst * trace) (S : list nat) => _).
      assert (Hlen : length P' <> 1%nat) by auto.
      assert (Loop : forall Pr Pd st1 q tc tr0, FInv vs E (dil_run mc) s eps e (pG st) p X ts Pd Pr (pG st1) q tc ->
        Cur st i X st1 tc ->
        exists st2 q2 tc2 Ms tr1, foldm body Pr (st1, tr0) = Ok (st2, tr0 ++ tr1) /\
          parts E eps (map (lift p X) Pr) Ms tr1 /\ length (concat Ms) = length (concat Pr) /\
          FInv vs E (dil_run mc) s eps e (pG st) p X ts P' [] (pG st2) q2 tc2 /\ Cur st i X st2 tc2).
      { induction Pr as [|S Pr IHl]; intros Pd st1 q tc tr0 HFI HC.
        - exists st1, q, tc, [], []. split; [rewrite app_nil_r; reflexivity|]. split; [constructor|]. split; auto.
          split; auto.
          assert (K := F_split _ _ _ _ _ _ _ _ _ _ _ _ _ _ _ HFI).
          rewrite app_nil_r in K. subst Pd. exact HFI.
        - cbn [foldm]. unfold body at 1. cbv beta.
          destruct (length S =? 1)%nat eqn:LS.
          + apply Nat.eqb_eq in LS. cbn [bind].
            destruct (IHl (Pd ++ [S]) st1 q tc tr0) as (st2 & q2 & tc2 & Ms & tr1 & A1 & A2 & A3 & A4); auto.
            { eapply (lv_single vs E HE (dil_run mc) s eps Heps Hmct e (pG st) p X ts beta HP Hlen); eauto. }
            exists st2, q2, tc2, ([lift p X S] :: Ms), tr1. split; auto. split; [apply p_one; auto|].
            split; auto. cbn [concat app length]. rewrite app_length. lia.
          + apply Nat.eqb_neq in LS.
            destruct (regroup_ok vs E HE (dil_run mc) s eps Heps Hmct e st i p X ts beta HP Hlen st1 tc Pd S Pr q HFI HC LS)
              as (A1 & A2 & A3 & (rest & A4 & A5 & A6) & A7 & A8 & A9 & A10 & A11).
            set (sn := length (pK st1)) in *. set (st2 := regroup st1 i S) in *.
            assert (HSP := lv_in _ _ _ _ _ _ _ _ _ _ _ _ _ _ _ _ HFI).
            assert (Pm : Permutation (filter (fun t => mem S (hrep t)) tc)
                           (rev (filter (fun t => mem S (hrep t)) tc))) by apply Permutation_rev.
            assert (HPre : PreX (pG st2) q (lift p X S) (rev (filter (fun t => mem S (hrep t)) tc)) beta).
            { rewrite A10. eapply Pre_perm; [exact Pm|].
              eapply (lv_pre vs E HE (dil_run mc) s eps Heps Hmct e (pG st) p X ts beta HP Hlen); eauto. }
            assert (Hsz : (length (rev (filter (fun t => mem S (hrep t)) tc)) <= fuel)%nat).
            { rewrite rev_length, (F_todo _ _ _ _ _ _ _ _ _ _ _ _ _ _ _ HFI S (or_introl eq_refl)).
              assert (K := lv_lt vs E HE (dil_run mc) s eps Heps Hmct e (pG st) p X ts beta HP Hlen S HSP).
              destruct HP as (H1 & HT0 & H2' & _).
              rewrite (moved_length vs E HE (dil_run mc) s eps Heps Hmct e (pG st) p H1 X ts HT0 H2' S HSP). lia. }
            assert (Lmv : length (map hset (rev (filter (fun t => mem S (hrep t)) tc))) = length S).
            { rewrite map_length, rev_length, (F_todo _ _ _ _ _ _ _ _ _ _ _ _ _ _ _ HFI S (or_introl eq_refl)).
              destruct HP as (H1 & HT0 & H2' & _).
              apply (moved_length vs E HE (dil_run mc) s eps Heps Hmct e (pG st) p H1 X ts HT0 H2' S HSP). }
            destruct (IH st2 sn q (lift p X S) _ beta Hsz HPre A3 A1 A2)
              as (st3 & q3 & gs & ms & tr2 & B1 & B2 & B3 & B4 & B5).
            fold sn. fold st2. rewrite B1. cbn [bind fst snd].
            assert (B2' := Post_perm vs E s eps e _ _ _ _ _ _ _ _ _ Pm B2).
            set (st4 := mkP (MContract.contract eps (pG st3) S (hd 0%nat S)) (pK st3) (pch st3) (plab st3)).
            assert (HFI' := lv_post vs E HE (dil_run mc) s (fun Es => finest_of_sink mc (Hms Es)) eps Heps Hmct e (pG st) p X ts beta HP Hlen
                       Pd S Pr (pG st1) q tc (pG st3) q3 gs ms HFI LS B2').
            change (MContract.contract eps (pG st3) S (hd 0%nat S)) with (pG st4) in HFI'.
            destruct (IHl _ st4 _ _ (tr0 ++ tr2) HFI') as (st5 & q5 & tc5 & Ms & tr1 & Y1 & Y2 & Y3 & Y4);
              [|exists st5, q5, tc5, (map hset (rev (filter (fun t => mem S (hrep t)) tc)) :: Ms), (tr2 ++ tr1);
                rewrite app_assoc; split; [exact Y1|]; split;
                [apply p_rec; auto; [exact (T_part _ _ _ _ _ _ _ (proj1 (proj2 HPre)))|destruct HPre as (_ & _ & K & _); rewrite map_length; exact K]|];
                split; auto; cbn [concat]; rewrite !app_length; lia].
            assert (Hin : i <> sn) by (unfold sn; destruct HC as [_ C2 _ _]; lia).
            assert (Hi3 : pch st3 i = sn :: rest).
            { rewrite (Fr_ch _ _ _ B4) by auto. auto. }
            assert (HTc := F_T _ _ _ _ _ _ _ _ _ _ _ _ _ _ _ HFI).
            assert (HTc' := F_T _ _ _ _ _ _ _ _ _ _ _ _ _ _ _ HFI').
            constructor.
            * cbn [pch st4]. unfold st4. cbn [pch]. rewrite Hi3. constructor; [apply trep_pG; auto|].
              eapply Forall2_impl_in; [|exact A6]. intros c t Hc Ht Hct. apply trep_pG.
              assert (Ht' := Ht). apply filter_In in Ht'. destruct Ht' as [T1 T2].
              assert (Dj : forall x, In x (lift p X S) -> ~ In x (hset t)).
              { intros x X1 X2. apply negb_true_iff, mem_false in T2. apply T2.
                eapply Permutation_in in X1.
                - assert (PT := T_part _ _ _ _ _ _ _ HTc'). simpl in PT.
                  apply part_NoDup in PT; [|apply csorted_NoDup; apply (T_sorted _ _ _ _ _ _ _ HTc)].
                  simpl in PT. apply NoDup_app_inv in PT. destruct PT as (_ & _ & PT).
                  exfalso. apply (PT x X1). apply in_concat. exists (hset t). split; auto. apply in_map; auto.
                - apply Permutation_refl. }
              apply (trep_frame E s e st2 st3 t (T_hok _ _ _ _ _ _ _ HTc t T1) c Hct).
              -- apply (Fr_len _ _ _ B4).
              -- intros d D1 D2. split; [apply (Fr_K _ _ _ B4); auto|].
                 apply (Fr_ch _ _ _ B4); auto. intro C. subst d. rewrite A2 in D2.
                 apply (disjoint_not_incl (lift p X S) (hset t)); auto.
                 destruct (lv_hd vs E HE (dil_run mc) s eps Heps Hmct e (pG st) p X ts beta HP Hlen S HSP) as (_ & _ & K).
                 intro C. rewrite C in K. destruct K.
              -- intros d D1 D2 _. apply (Fr_lab _ _ _ B4); auto. intro C.
                 destruct (Forall2_In_l _ _ _ d A3 C) as (u & U1 & U2).
                 apply in_rev in U1. apply trep_inv in U2. destruct U2 as (_ & U2 & _).
                 rewrite U2 in D2.
                 assert (U3 := U1). apply filter_In in U3. destruct U3 as [U3 _].
                 assert (Hne : hset u <> []) by (eapply hok_nonempty; apply (T_hok _ _ _ _ _ _ _ HTc u U3)).
                 apply (Dj (hd 0%nat (hset u))).
                 ++ eapply lv_union; eauto. apply in_concat. exists (hset u).
                    split; [apply in_map; auto|apply hd_In; auto].
                 ++ apply D2. apply hd_In; auto.
            * unfold st4. cbn [pK]. assert (L := Fr_len _ _ _ B4). lia.
            * unfold st4. change (Kat st3 i = X). rewrite (Fr_K _ _ _ B4); auto.
            * destruct A9 as [F1 F2 F3 F4 F5]. destruct B4 as [G1 G2 G3 G4 G5].
              assert (L0 : (length (pK st) <= sn)%nat).
              { unfold sn. destruct HC as [_ _ _ [L _ _ _ _]]. auto. }
              unfold st4. constructor; cbn [pK pch plab].
              -- lia.
              -- intros c Hc. change (Kat st3 c = Kat st c). rewrite G2 by lia. auto.
              -- intros c Hc N. rewrite G3 by lia. auto.
              -- intros c Hc N. rewrite G4; [auto|lia|]. intro C. apply A11 in C.
                 destruct HC as [_ _ _ [_ _ _ _ K]]. destruct (K c C); [auto|lia].
              -- intros c Hc. rewrite Hi3 in Hc. destruct Hc as [<-|Hc]; [right; auto|].
                 apply A5 in Hc. destruct HC as [_ _ _ [_ _ _ _ K]]. apply K; auto. }
      destruct (Loop P' [] st p ts (seq 0 (S (S k)))) as (st2 & q2 & tc2 & Ms & tr1 & L1 & Lp & Ls & L2 & L3).
      { eapply (lv_start vs E HE (dil_run mc) s eps Heps Hmct e (pG st) p X ts beta HP); eauto. }
      { constructor; auto. apply Frame_refl. }
      rewrite L1. cbn [bind fst snd].
      destruct (lv_final_pre vs E HE (dil_run mc) s eps Heps Hmct e (pG st) p X ts beta HP Hlen (pG st2) q2 tc2 L2)
        as (M1 & M2 & M3 & M4).
      assert (Hle := lv_le vs E HE (dil_run mc) s eps Heps Hmct e (pG st) p X ts beta HP).
      fold P' in Hle, M2.
      destruct (IH st2 i q2 X tc2 (lv_gamma (pG st) ts)) as (st3 & q3 & g3 & ts3 & tr2 & N1 & N2 & N3 & N4 & N5); auto.
      + lia.
      + apply (C_rep _ _ _ _ _ L3).
      + apply (C_i _ _ _ _ _ L3).
      + apply (C_K _ _ _ _ _ L3).
      + exists st3, q3, g3, ts3, ((seq 0 (S (S k)) ++ tr1) ++ tr2). rewrite N1. cbn [bind fst snd].
        split; auto. split; [|split; [auto|split]].
        * eapply (lv_final_post vs E HE (dil_run mc) s eps Heps Hmct e (pG st) p X ts beta HP Hlen); eauto.
        * eapply Frame_trans; [apply (C_fr _ _ _ _ _ L3)|auto].
        * rewrite <- app_assoc. replace (S (S k)) with (length (map hset ts)) by (rewrite map_length; auto).
          apply Qltb_true in Hv.
          apply (rc_node E eps X (map hset ts) gm (map (lift p X) P') Ms tr1 (map hset tc2) tr2); auto.
          -- rewrite map_length. lia.
          -- rewrite map_length. auto.
          -- rewrite !map_length. lia.
          -- fold P' in Lv2. rewrite <- Lv2. exact Hv.
          -- rewrite Ls, map_length, Ek, <- Len.
             apply Permutation_length. destruct HP as (Z1 & Z2 & Z3 & _). eapply P'_part; eauto.
          -- eapply lv_final_perm; eauto.
  Qed.
End PSPICost.

Section HPSPCost.
  Variable vs : list nat.
  Hypothesis Hvs : csorted vs.
  Variable E : graph.
  Hypothesis HE : graph_on vs E.
  Variable mc : solver.
  Hypothesis Hmc : MinCutSpec mc.
  Variable s : bool.
  Hypothesis Hms : s = true -> MinSinkCutSpec mc.
  Variable eps : Q.
  Hypothesis Heps : 0 < eps.
  Let Hmct := trunc_of_exact mc eps vs E Hmc.
  Variable e : Q.
  Hypothesis He : 0 <= e.
  Hypothesis Hgap : forall X Ps R g,
    incl X vs -> NoDup X -> is_partition X Ps -> is_partition X R -> (2 <= length Ps)%nat ->
    g * (qn (length Ps) - 1) == crossing (sub E X) Ps ->
    - g - eps <= hval (sub E X) g R -> - g - e <= hval (sub E X) g R.

  Let PreX := Pre vs E s eps e.
  Let PostX := Post vs E s eps e.

  Theorem hpsp_split_cost : forall fuel st sid ch p X ts beta,
    (length ts <= fuel)%nat -> PreX (hG st) p X ts beta ->
    Permutation ch (map hrep ts) -> sid = hd 0%nat X ->
    (forall t, In t ts -> enc (hW st) (hK st) t) ->
    exists st' p' g ts' tr, hpsp_split_t fuel mc eps st sid ch = Ok (st', tr) /\
      PostX p X ts beta (hG st') p' g ts' /\ enc (hW st') (hK st') (HT X g ts') /\
      (forall c, ~ In c ch -> hW st' c = hW st c /\ hK st' c = hK st c) /\
      (forall u, In u ts' -> hW st' (hrep u) = Fin g /\ hK st' (hrep u) = sid) /\
      rec_calls E eps X (map hset ts) tr.
  Proof.
    induction fuel as [|fuel IH]; intros st sid ch p X ts beta Hfuel HP Hch Hsid Henc.
    - destruct HP as (_ & _ & H2 & _). lia.
    - assert (H2 : (2 <= length ts)%nat) by apply HP.
      assert (Hk : length ch = length ts) by (rewrite (Permutation_length Hch), map_length; auto).
      assert (Leaf : (length ts = 2%nat \/ length (snd (lv_dil (dil_run mc) (hG st) ts)) = 1%nat \/
          length (snd (lv_dil (dil_run mc) (hG st) ts)) = length ts \/
          - lv_gamma (hG st) ts - eps <= fst (lv_dil (dil_run mc) (hG st) ts)) ->
        forall tr0, rec_calls E eps X (map hset ts) tr0 ->
        exists st' p' g ts' tr, Ok (set_WK st sid ch (Fin (lv_gamma (hG st) ts)), tr0) = Ok (st', tr) /\
          PostX p X ts beta (hG st') p' g ts' /\ enc (hW st') (hK st') (HT X g ts') /\
          (forall c, ~ In c ch -> hW st' c = hW st c /\ hK st' c = hK st c) /\
          (forall u, In u ts' -> hW st' (hrep u) = Fin g /\ hK st' (hrep u) = sid) /\
          rec_calls E eps X (map hset ts) tr).
      { intros Hc tr0 Htr. eexists _, p, _, ts, tr0. split; [reflexivity|]. split; [|split; [|split; [|split; [|exact Htr]]]].
        - apply (lv_leaf vs E HE (dil_run mc) s eps Heps Hmct e Hgap (hG st) p X ts beta HP Hc).
        - eapply (set_enc vs E s eps e); eauto.
        - intros c Hn. apply mem_false in Hn. simpl. rewrite Hn. auto.
        - intros u Hu. assert (M : mem ch (hrep u) = true).
          { apply mem_In. eapply Permutation_in; [symmetry; exact Hch|]. apply in_map; auto. }
          simpl. rewrite M. auto. }
      cbn [hpsp_split_t]. rewrite Hk, (sub_arcs_perm (hG st) _ _ Hch), (enabled_perm (hG st) _ _ Hch).
      rewrite dil_run_erase. cbn [fst snd].
      fold (lv_sub (hG st) ts). fold (lv_gamma (hG st) ts).
      change (dil_run mc (lv_gamma (hG st) ts) (lv_sub (hG st) ts) (enabled (hG st) (map hrep ts)))
        with (lv_dil (dil_run mc) (hG st) ts).
      assert (Len : length (enabled (hG st) (map hrep ts)) = length ts).
      { destruct HP as (Z1 & Z2 & Z3 & _). eapply R0_length; eauto. }
      rewrite Len.
      assert (Lv := lv_level vs E HE mc Hmc s eps Heps e (hG st) p X ts beta HP).
      assert (Lv2 := lv_value vs E HE mc Hmc s eps Heps e (hG st) p X ts beta HP).
      destruct (length ts) as [|[|k]] eqn:Ek; [lia|lia|].
      set (gm := lv_gamma (hG st) ts) in *.
      destruct (S (S k) =? 2)%nat eqn:K2.
      { apply Nat.eqb_eq in K2. apply Leaf; auto. apply rc_two. rewrite map_length. lia. }
      apply Nat.eqb_neq in K2.
      destruct (negb (negb (length (snd (lv_dil (dil_run mc) (hG st) ts)) =? 1)%nat &&
                      negb (length (snd (lv_dil (dil_run mc) (hG st) ts)) =? S (S k))%nat &&
                      Qltb (fst (lv_dil (dil_run mc) (hG st) ts)) (- gm - eps))) eqn:Hc.
      { assert (Hc' : length (snd (lv_dil (dil_run mc) (hG st) ts)) = 1%nat \/
          length (snd (lv_dil (dil_run mc) (hG st) ts)) = S (S k) \/
          - gm - eps <= fst (lv_dil (dil_run mc) (hG st) ts)).
        { rewrite negb_true_iff in Hc. apply andb_false_iff in Hc. destruct Hc as [Hc|Hc].
          - apply andb_false_iff in Hc. destruct Hc as [Hc|Hc]; apply negb_false_iff, Nat.eqb_eq in Hc; auto.
          - apply Qltb_false in Hc. auto. }
        apply Leaf; [tauto|].
        replace (S (S k)) with (length (map hset ts)) by (rewrite map_length; auto).
        apply (rc_leaf E eps X (map hset ts) gm (map (lift p X) (snd (lv_dil (dil_run mc) (hG st) ts)))); auto.
        - rewrite map_length. lia.
        - rewrite !map_length, <- Lv2, Ek. exact Hc'. }
      clear Leaf. apply negb_false_iff, andb_true_iff in Hc. destruct Hc as [Hc Hv].
      apply andb_true_iff in Hc. destruct Hc as [Hc1 Hc2].
      apply negb_true_iff, Nat.eqb_neq in Hc1. apply negb_true_iff, Nat.eqb_neq in Hc2.
      set (P' := snd (lv_dil (dil_run mc) (hG st) ts)) in *.
      set (body := fun (x : hst * cset * trace) (S : list nat) => _).
      assert (Hlen : length P' <> 1%nat) by auto.
      set (Cur := fun (st1 : hst) (tc : list ht) (nS Pd : list nat) =>
        (forall t, In t tc -> enc (hW st1) (hK st1) t) /\ 
        (forall c, ~ In c ch -> hW st1 c = hW st c /\ hK st1 c = hK st c) /\
        Permutation nS Pd).
      assert (Loop : forall Pr Pd st1 nS q tc tr0, FInv vs E (dil_run mc) s eps e (hG st) p X ts Pd Pr (hG st1) q tc ->
        Cur st1 tc nS (map (hd 0%nat) Pd) ->
        exists st2 nS2 q2 tc2 Ms tr1, foldm body Pr (st1, nS, tr0) = Ok (st2, nS2, tr0 ++ tr1) /\
          (parts E eps (map (lift p X) Pr) Ms tr1 /\ length (concat Ms) = length (concat Pr)) /\
          FInv vs E (dil_run mc) s eps e (hG st) p X ts P' [] (hG st2) q2 tc2 /\
          Cur st2 tc2 nS2 (map (hd 0%nat) P')).
      { induction Pr as [|S Pr IHl]; intros Pd st1 nS q tc tr0 HFI HC.
        - exists st1, nS, q, tc, [], []. split; [rewrite app_nil_r; reflexivity|]. split; [split; [constructor|auto]|].
          assert (K := F_split _ _ _ _ _ _ _ _ _ _ _ _ _ _ _ HFI).
          rewrite app_nil_r in K. subst Pd. split; [exact HFI|exact HC].
        - assert (HSP := lv_in _ _ _ _ _ _ _ _ _ _ _ _ _ _ _ _ HFI).
          destruct HC as (C1 & C2 & C3).
          assert (Hsp := F_split _ _ _ _ _ _ _ _ _ _ _ _ _ _ _ HFI).
          (* the head of S is new *)
          assert (NS : Permutation (cadd (hd 0%nat S) nS) (map (hd 0%nat) (Pd ++ [S]))).
          { assert (New : ~ In (hd 0%nat S) nS).
            { intro C. apply (Permutation_in _ C3) in C. apply in_map_iff in C. destruct C as (S' & E1 & E2).
              change (P' = Pd ++ S :: Pr) in Hsp.
              assert (HS' : In S' P') by (rewrite Hsp; apply in_or_app; auto).
              destruct (lv_hd vs E HE (dil_run mc) s eps Heps Hmct e (hG st) p X ts beta HP Hlen S HSP) as (_ & h1 & _).
              destruct (lv_hd vs E HE (dil_run mc) s eps Heps Hmct e (hG st) p X ts beta HP Hlen S' HS') as (_ & h2 & _).
              rewrite E1 in h2.
              assert (PP : is_partition (enabled (hG st) (map hrep ts)) P').
              { destruct HP as (Z1 & Z2 & Z3 & _). eapply P'_part; eauto. }
              assert (ND : NoDup (enabled (hG st) (map hrep ts))).
              { destruct HP as (Z1 & Z2 & Z3 & _). eapply R0_NoDup; eauto. }
              assert (PD := parts_distinct _ P' ND PP). rewrite Hsp in PD.
              apply NoDup_remove_2 in PD. apply PD. apply in_or_app. left.
              rewrite (part_unique _ P' S S' (hd 0%nat S) ND PP HSP HS' h1 h2). exact E2. }
            rewrite map_app. simpl. rewrite (Permutation_app_comm _ [_]). simpl.
            rewrite <- C3. clear -New. induction nS as [|a nS IHn]; simpl; auto.
            simpl in New. destruct (hd 0%nat S <? a)%nat eqn:L; auto.
            destruct (hd 0%nat S =? a)%nat eqn:L2.
            - exfalso. apply Nat.eqb_eq in L2. apply New. auto.
            - rewrite perm_swap. constructor. apply IHn. tauto. }
          cbn [foldm]. unfold body at 1. cbv beta. cbn [fst snd].
          destruct (length S =? 1)%nat eqn:LS.
          + apply Nat.eqb_eq in LS. cbn [bind].
            destruct (IHl (Pd ++ [S]) st1 (cadd (hd 0%nat S) nS) q tc tr0) as (st2 & nS2 & q2 & tc2 & Ms & tr1 & A1 & (A2 & A3) & A4).
            { eapply (lv_single vs E HE (dil_run mc) s eps Heps Hmct e (hG st) p X ts beta HP Hlen); eauto. }
            { split; [|split]; auto. }
            exists st2, nS2, q2, tc2, ([lift p X S] :: Ms), tr1. split; auto. split; [split; [apply p_one; auto|]|auto].
            cbn [concat app length]. rewrite app_length. lia.
          + apply Nat.eqb_neq in LS.
            set (mv := filter (fun t => mem S (hrep t)) tc).
            assert (HTc := F_T _ _ _ _ _ _ _ _ _ _ _ _ _ _ _ HFI).
            assert (HPre : PreX (hG st1) q (lift p X S) mv beta).
            { eapply (lv_pre vs E HE (dil_run mc) s eps Heps Hmct e (hG st) p X ts beta HP Hlen); eauto. }
            assert (Emv : mv = filter (fun t => mem S (hrep t)) ts).
            { apply (F_todo _ _ _ _ _ _ _ _ _ _ _ _ _ _ _ HFI S (or_introl eq_refl)). }
            assert (Pmv : Permutation S (map hrep mv)).
            { rewrite Emv. destruct HP as (H1 & HT0 & H3 & _).
              symmetry. eapply (moved_perm vs E HE (dil_run mc) s eps Heps Hmct e); eauto. }
            assert (Hsz : (length mv <= fuel)%nat).
            { assert (K := lv_lt vs E HE (dil_run mc) s eps Heps Hmct e (hG st) p X ts beta HP Hlen S HSP).
              apply Permutation_length in Pmv. rewrite map_length in Pmv. lia. }
            assert (Hhd : hd 0%nat S = hd 0%nat (lift p X S)).
            { symmetry. apply (lv_hd vs E HE (dil_run mc) s eps Heps Hmct e (hG st) p X ts beta HP Hlen S HSP). }
            destruct (IH st1 (hd 0%nat S) S q (lift p X S) mv beta Hsz HPre Pmv Hhd)
              as (st3 & q3 & gs & ms & tr2 & B1 & B2 & B3 & B4 & B5 & B6).
            { intros t Ht. apply filter_In in Ht. apply C1. tauto. }
            rewrite B1. cbn [bind fst snd].
            set (st4 := mkH (MContract.contract eps (hG st3) S (hd 0%nat S)) (hW st3) (hK st3)).
            assert (HFI' := lv_post vs E HE (dil_run mc) s (fun Es => finest_of_sink mc (Hms Es)) eps Heps Hmct e (hG st) p X ts beta HP Hlen
                       Pd S Pr (hG st1) q tc (hG st3) q3 gs ms HFI LS B2).
            change (MContract.contract eps (hG st3) S (hd 0%nat S)) with (hG st4) in HFI'.
            destruct (IHl _ st4 (cadd (hd 0%nat S) nS) _ _ (tr0 ++ tr2) HFI') as (st5 & nS5 & q5 & tc5 & Ms & tr1 & Y1 & (Y2 & Y3) & Y4);
              [|exists st5, nS5, q5, tc5, (map hset mv :: Ms), (tr2 ++ tr1);
                rewrite app_assoc; split; [exact Y1|]; split; [split|exact Y4];
                [apply p_rec; auto; [exact (T_part _ _ _ _ _ _ _ (proj1 (proj2 HPre)))|destruct HPre as (_ & _ & K & _); rewrite map_length; exact K]|];
                cbn [concat]; rewrite !app_length, map_length; apply Permutation_length in Pmv; rewrite map_length in Pmv; lia].
            assert (SX : forall c, In c S -> In c ch).
            { intros c Hc. destruct (lv_reps vs E HE (dil_run mc) s eps Heps Hmct e (hG st) p X ts beta HP S c HSP Hc)
                as (_ & _ & K). eapply Permutation_in; [symmetry; exact Hch|exact K]. }
            split; [|split].
            * intros t [<-|Ht]; [exact B3|]. apply filter_In in Ht. destruct Ht as [T1 T2].
              apply (enc_frame E s e (hW st1) (hK st1) _ _ t (T_hok _ _ _ _ _ _ _ HTc t T1)); [|apply C1; auto].
              intros c Hc Hn. apply B4. intro C.
              apply negb_true_iff, mem_false in T2. apply T2.
              eapply (lv_hit vs E HE (dil_run mc) s eps Heps Hmct e (hG st) p X ts beta HP); eauto.
            * intros c Hc. destruct (B4 c) as [D1 D2]; [auto|]. destruct (C2 c Hc) as [D3 D4].
              unfold st4. cbn [hW hK]. split; congruence.
            * exact NS. }
      destruct (Loop P' [] st [] p ts (seq 0 (S (S k)))) as (st2 & nS2 & q2 & tc2 & Ms & tr1 & L1 & (Lp & Ls) & L2 & L3 & L4 & L5).
      { eapply (lv_start vs E HE (dil_run mc) s eps Heps Hmct e (hG st) p X ts beta HP); eauto. }
      { split; [|split]; auto. }
      rewrite L1. cbn [bind fst snd].
      destruct (lv_final_pre vs E HE (dil_run mc) s eps Heps Hmct e (hG st) p X ts beta HP Hlen (hG st2) q2 tc2 L2)
        as (M1 & M2 & M3 & M4).
      assert (Hle := lv_le vs E HE (dil_run mc) s eps Heps Hmct e (hG st) p X ts beta HP).
      fold P' in Hle, M2.
      (* the new children are the representatives of the new level *)
      assert (HnS : Permutation nS2 (map hrep tc2)).
      { rewrite L5.
        assert (ND1 : NoDup (map (hd 0%nat) P')).
        { assert (PP : is_partition (enabled (hG st) (map hrep ts)) P').
          { destruct HP as (Z1 & Z2 & Z3 & _). eapply P'_part; eauto. }
          assert (ND : NoDup (enabled (hG st) (map hrep ts))).
          { destruct HP as (Z1 & Z2 & Z3 & _). eapply R0_NoDup; eauto. }
          apply (NoDup_map_inj_in (hd 0%nat) P'); [|eapply parts_distinct; eauto].
          intros S S' HS HS' Heq.
          destruct (lv_hd vs E HE (dil_run mc) s eps Heps Hmct e (hG st) p X ts beta HP Hlen S HS) as (_ & h1 & _).
          destruct (lv_hd vs E HE (dil_run mc) s eps Heps Hmct e (hG st) p X ts beta HP Hlen S' HS') as (_ & h2 & _).
          rewrite <- Heq in h2. eapply part_unique; eauto. }
        apply NoDup_Permutation_bis; auto.
        - rewrite !map_length. lia.
        - intros r Hr. apply in_map_iff in Hr. destruct Hr as (S & <- & HS).
          assert (F := F_done _ _ _ _ _ _ _ _ _ _ _ _ _ _ _ L2 S HS).
          apply in_map_iff in F. destruct F as (t & T1 & T2). apply in_map_iff. exists t. split; auto.
          unfold hrep. rewrite T1.
          apply (lv_hd vs E HE (dil_run mc) s eps Heps Hmct e (hG st) p X ts beta HP Hlen S HS). }
      destruct (IH st2 sid nS2 q2 X tc2 (lv_gamma (hG st) ts)) as (st3 & q3 & g3 & ts3 & tr2 & N1 & N2 & N3 & N4 & N5 & N6); auto.
      + lia.
      + exists st3, q3, g3, ts3, ((seq 0 (S (S k)) ++ tr1) ++ tr2). rewrite N1. cbn [bind fst snd].
        split; auto. split; [|split; [|split; [|split]]]; auto.
        * eapply (lv_final_post vs E HE (dil_run mc) s eps Heps Hmct e (hG st) p X ts beta HP Hlen); eauto.
        * intros c Hc. destruct (N4 c) as [D1 D2].
          { intro C. apply (Permutation_in c HnS) in C. apply in_map_iff in C. destruct C as (t & <- & Ht).
            apply Hc. eapply Permutation_in; [symmetry; exact Hch|]. apply M4; auto. }
          destruct (L4 c Hc). split; congruence.
        * rewrite <- app_assoc. replace (S (S k)) with (length (map hset ts)) by (rewrite map_length; auto).
          apply Qltb_true in Hv.
          apply (rc_node E eps X (map hset ts) gm (map (lift p X) P') Ms tr1 (map hset tc2) tr2); auto.
          -- rewrite map_length. lia.
          -- rewrite map_length. auto.
          -- rewrite !map_length. lia.
          -- fold P' in Lv2. rewrite <- Lv2. exact Hv.
          -- rewrite Ls, map_length, Ek, <- Len.
             apply Permutation_length. destruct HP as (Z1 & Z2 & Z3 & _). eapply P'_part; eauto.
          -- eapply lv_final_perm; eauto.
  Qed.
End HPSPCost.
