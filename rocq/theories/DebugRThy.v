(** * DebugRThy: the debug build of PMF_R with its flow maps (model: MDebug) throws only because of a flow map. *)
From Coq Require Import Sorted.
From Verif Require Import Base Graph Spec PartThy SubThy MSets SetsThy MGraph MaxFlow BFThy MDil CutThy DilThy
  MDT SeqThy PropDT MPMF LamThy ParThy SliceThy DTThy PDTThy PropPDT MWarm PropWarm MPMFR PMFRThy PropPDTR MWarmR FlowThy
  WarmRThy WarmRCon AggSim WarmRRun MDebug DebugThy.

Section Run.
  Variable wsL : wsolver.
  Hypothesis HL : WarmLSpec wsL.
  Variable wsR : wsolver.
  Hypothesis HR : WarmRSpec wsR.
  Variable eps : Q.
  Hypothesis Heps : 0 < eps.
  Variable E : graph.
  Variable n j : nat.
  Hypothesis Hjn : (j < n)%nat.
  Hypothesis HE : graph_on (seq 0 n) E.
  Hypothesis Hs : simple E.
  Hypothesis Hf : forward E.
  Hypothesis Hw : forall a, In a E -> eps < aw a.
  Variable y : list (Q * dbl).

  Let mc := bf_mincut.
  Let Hmc : MinSinkCutSpec mc := bf_minsink_spec.
  Let Hw1 : forall a, In a E -> eps <= aw a := Hw' eps E Hw.
  Let bs := fun i : nat => (0, sink_capacity E j i).
  Let KEEPS := keeps eps E j y.

  Variable chk chk' : check.
  Hypothesis Hchk : at_sink chk.
  Hypothesis Hchk' : at_sink chk'.

  Lemma keeps_trans base ns T0 G1 G2 G3 : KEEPS base ns T0 G1 G2 -> KEEPS base ns T0 G2 G3 -> KEEPS base ns T0 G1 G3.
  Proof. intros (A1 & A2 & A3) (B1 & B2 & B3). split; auto. Qed.

  Theorem pmfrwd_slice_ok sch : forall fuel path ns D (own : bool) G base T0 Tl Tr l1 l3 ct fl fr r,
    rep E j D bs (seq 0 j) [j] -> big eps D -> (own = true -> base = bs /\ ns = seq 0 j /\ T0 = [j]) ->
    rep E j (if own then D else G) base ns T0 -> big eps (if own then D else G) ->
    incl T0 Tr -> incl Tr Tl -> (forall x, In x Tl -> In x ns \/ In x T0) ->
    lmin E j y l1 Tl -> lmin E j y l3 Tr ->
    finv y (if own then D else G) base ns l1 Tl fl -> finv y (if own then D else G) base ns l3 Tr fr ->
    pmf_slice fuel mc eps E n j y Tl Tr l1 (Fin l3) = Ok r ->
    pmfrwd_slice true chk fuel wsL wsR sch path eps E j y bs D own ns G base fl fr Tl Tr l1 l3 ct =
    pmfrwd_slice false chk' fuel wsL wsR sch path eps E j y bs D own ns G base fl fr Tl Tr l1 l3 ct /\
    (pmfrwd_slice false chk' fuel wsL wsR sch path eps E j y bs D own ns G base fl fr Tl Tr l1 l3 ct = Throw \/
     exists D' G', pmfrwd_slice false chk' fuel wsL wsR sch path eps E j y bs D own ns G base fl fr Tl Tr l1 l3 ct =
         Ok (fst r, snd r, (D', G')) /\ KEEPS bs (seq 0 j) [j] D D' /\ (own = false -> KEEPS base ns T0 G G')).
  Proof.
    induction fuel as [|fuel IH]; intros path ns D own G base T0 Tl Tr l1 l3 ct fl fr r RD BD OW RC BC I1 I2 I3 H1 H3 FL FR Hr;
      [discriminate Hr|].
    cbn [pmf_slice pmfrwd_slice] in *.
    assert (RDa : rep E j (upd y bs l1 D) bs (seq 0 j) [j]) by (apply (rep_upd E n j HE); auto).
    set (Da := upd y bs l1 D) in *.
    assert (RD1 : rep E j (upd y bs l3 Da) bs (seq 0 j) [j]) by (apply (rep_upd E n j HE); auto).
    assert (F1 : Qltb (net_cut_value Da Tr - net_cut_value Da Tl) (- eps) = false).
    { apply Qltb_false. assert (K := checks_ok eps E n j HE y D l1 Tl Tr RD H1 (lm_j _ _ _ _ _ H3) (lm_win _ _ _ _ _ H3)). fold bs Da in K. lra. }
    assert (F2 : Qltb eps (net_cut_value (upd y bs l3 Da) Tr - net_cut_value (upd y bs l3 Da) Tl) = false).
    { apply Qltb_false. assert (K := checks_ok eps E n j HE y Da l3 Tr Tl RDa H3 (lm_j _ _ _ _ _ H1) (lm_win _ _ _ _ _ H1)). fold bs in K. lra. }
    rewrite F1, F2. cbn [andb]. 
    assert (KD : KEEPS bs (seq 0 j) [j] D (upd y bs l3 Da)).
    { eapply keeps_trans.
      - apply (keeps_upd eps E n j HE y bs (seq 0 j) [j] D l1); auto.
      - apply (keeps_upd eps E n j HE y bs (seq 0 j) [j] Da l3); auto. apply big_upd; auto. }
    assert (K1 : KEEPS base ns T0 (if own then D else G) (if own then upd y bs l3 Da else G)).
    { destruct own; [|split; auto]. destruct (OW eq_refl) as (-> & -> & ->). exact KD. }
    assert (K0 : own = false -> KEEPS base ns T0 G G) by (intros ->; split; auto).
    set (D1 := upd y bs l3 Da) in *.
    set (cur := if own then D1 else G) in *.
    destruct K1 as (RC1 & BC1 & FC1). assert (FL1 := FC1 _ _ _ FL). assert (FR1 := FC1 _ _ _ FR).
    assert (K1 : KEEPS base ns T0 (if own then D else G) cur) by (split; auto).
    rewrite (diff_nodes_r j Tl Tr (lm_j _ _ _ _ _ H3)).
    rewrite (diff_nodes n j Hjn 1%positive Tl Tr (lm_win _ _ _ _ _ H1) (lm_j _ _ _ _ _ H3)) in Hr.
    destruct (compute_lambda eps (map (yat y) (filter (fun i => mem Tl i && negb (mem Tr i)) (seq 0 j)))
                (get_cut_value E Tl - get_cut_value E Tr)) as [[l|]| | |]; cbn [bind] in *; try discriminate Hr.
    2:{ inversion Hr; subst r. split; [reflexivity|]. right. exists D1, G. auto. }
    set (l2 := Qred l) in *. cbn [dbl_different] in Hr.
    destruct (negb (tol_different eps l2 l1) || negb (tol_different eps l2 l3)).
    { inversion Hr; subst r. split; [reflexivity|]. right. exists D1, G. auto. }
    cbn [dltb] in Hr. destruct (Qltb l2 l1 || Qltb l3 l2) eqn:Eo; [discriminate Hr|].
    apply orb_false_iff in Eo. destruct Eo as [L12 L23]. apply Qltb_false in L12. apply Qltb_false in L23.
    destruct (pmf_cut_min mc Hmc eps Heps E n j Hjn HE Hs Hf Hw1 y l2) as [PM1 PM2].
    set (fT := pmf_cut mc eps E j y l2) in *. set (T2 := snd fT) in *.
    assert (J1 : incl T2 Tl) by (apply (min_shrink eps E n j HE y l1 l2); auto).
    assert (J2 : incl Tr T2) by (apply (min_shrink eps E n j HE y l2 l3); auto).
    assert (CK : mem (ccompl Tl (S (S j))) (S j) && mem Tr j = true).
    { apply andb_true_iff. split; apply mem_In; [|apply H3]. unfold ccompl. apply filter_In. split; [apply in_seq; lia|].
      apply negb_true_iff, mem_false. intro K. destruct (lm_win _ _ _ _ _ H1 _ (proj2 (mem_In _ _) K)) as [Q|Q]; [apply in_seq in Q|]; lia. }
    assert (CT : exists c base' T0' fl' fr',
      (if ct then contract eps (S j) j (S (S j)) (ccompl Tl (S (S j))) Tr cur else Ok (ns, cur)) = Ok c /\
      (if ct then contract_d eps (S j) j (S (S j)) (ccompl Tl (S (S j))) Tr cur else Ok (ns, cur)) = Ok c /\
      base' = (if ct then new_base E (ccompl Tl (S (S j))) Tr else base) /\
      fl' = (if ct then contract_flow (S j) j (ccompl Tl (S (S j))) Tr cur fl (snd c) else fl) /\
      fr' = (if ct then contract_flow (S j) j (ccompl Tl (S (S j))) Tr cur fr (snd c) else fr) /\
      rep E j (snd c) base' (fst c) T0' /\ big eps (snd c) /\
      finv y (snd c) base' (fst c) l1 Tl fl' /\ finv y (snd c) base' (fst c) l3 Tr fr' /\
      incl T0' Tr /\ (forall x, In x Tl -> In x (fst c) \/ In x T0') /\
      (ct = false -> c = (ns, cur) /\ T0' = T0)).
    { destruct ct.
      - destruct (contract_ok eps E n j Hjn Hf Hw1 y cur base ns T0 Tl Tr RC1 I1 I2 I3 (lm_sorted _ _ _ _ _ H1) (lm_sorted _ _ _ _ _ H3))
          as (ks & C & A & B & X).
        assert (Ek := contract_ks _ _ _ _ _ _ _ _ _ A).
        exists (ks, C), (new_base E (ccompl Tl (S (S j))) Tr), Tr.
        exists (contract_flow (S j) j (ccompl Tl (S (S j))) Tr cur fl C), (contract_flow (S j) j (ccompl Tl (S (S j))) Tr cur fr C).
        unfold contract_d. rewrite CK.
        split; auto. split; auto. split; auto. split; auto. split; auto. split; auto. cbn [fst snd]. subst ks.
        split; [eapply big_C; eauto|].
        split; [eapply contract_finv; eauto; apply incl_refl|].
        split; [eapply contract_finv; eauto; apply incl_refl|].
        split; [apply incl_refl|]. split; auto. intro H; discriminate H.
      - exists (ns, cur), base, T0, fl, fr. repeat (split; [solve [auto]|]). auto. }
    destruct CT as (c & base' & T0' & fl' & fr' & C1 & C1d & C2 & Cl & Cr & C3 & Cb & CL & CR & C4 & C5 & C6).
    rewrite C1, C1d. cbn [bind]. rewrite <- C2, <- Cl, <- Cr.
    assert (RG := rep_upd E n j HE y (snd c) base' (fst c) T0' l2 C3).
    assert (Hok := rep_ok _ _ _ _ _ _ RG).
    set (G' := upd y base' l2 (snd c)) in *.
    assert (NN : forall a, In a G' -> 0 <= ncap a) by (intros a Ha; apply Hok; auto).
    assert (NL := fun v => left_nodes y (snd c) base' (fst c) l1 l2 Tl fl' v L12 NN CL).
    assert (NR := fun v => right_nodes y (snd c) base' (fst c) l3 l2 Tr fr' v L23 NN CR).
    fold G' in NL, NR.
    rewrite (Hchk _ _ _ NL), (Hchk _ _ _ NR), (Hchk' _ _ _ NL), (Hchk' _ _ _ NR).
    destruct (negb (Qltb (excess G' (clamp G' fl') NSnk) 0) && negb (Qltb (excess (rnet G') (clamp G' fr') NSnk) 0)) eqn:Eini;
      [|split; [reflexivity|left; reflexivity]].
    apply andb_true_iff in Eini. rewrite !negb_true_iff in Eini. destruct Eini as [Ei1 Ei2].
    apply Qltb_false in Ei1. apply Qltb_false in Ei2.
    assert (Pl : preflow (fst c) G' (clamp G' fl')) by (eapply left_preflow; eauto).
    assert (Pr : preflow (fst c) (rnet G') (clamp G' fr')) by (eapply right_preflow; eauto).
    assert (GC := pick_good wsL HL wsR HR j (sch path) (fst c) G' _ _ Hok Pl Pr).
    destruct (good_cut_ok eps E n j HE y _ (snd c) base' (fst c) T0' l2 T2 Tr Tl C3 PM1 C4 J2 J1 C5 (lm_sorted _ _ _ _ _ H3) GC) as [W1 W2].
    destruct (HL (fst c) G' _ Hok Pl) as (_ & _ & _ & _ & QL).
    destruct (HR (fst c) (rnet G') _ (rnet_ok _ _ Hok) Pr) as (_ & _ & _ & _ & QR).
    set (rL := wsL (fst c) G' (clamp G' fl')) in *. set (rR := wsR (fst c) (rnet G') (clamp G' fr')) in *.
    assert (VT : cut G' (mem T2) == fst (pick_cut (fst rL) (fst rR) (sch path) j (fst c))).
    { rewrite W2. apply (rep_cut_set eps E n j HE y (snd c) base' (fst c) T0'); auto. eapply incl_tran; eauto. }
    assert (FM : finv y (snd c) base' (fst c) l2 T2 (if sch path then snd rL else snd rR)).
    { unfold pick_cut in VT. destruct (sch path); cbn [fst] in VT.
      - eapply flow_finv; eauto. symmetry. exact VT.
      - eapply rflow_finv; eauto. symmetry. exact VT. }
    set (wT := pick_cut (fst rL) (fst rR) (sch path) j (fst c)) in *.
    assert (SS : superset Tl (snd wT) = true).
    { apply superset_incl. intros x Hx. apply J1. rewrite <- W1. apply cunion_In. auto. }
    rewrite SS. cbn [negb]. rewrite andb_false_r, W1.
    assert (B : Qltb (fst wT) (net_cut_value G' Tr - 10 * eps) =
                Qltb (fst fT) (cut (pmf_net eps E j y l2) (mem Tr) - 10 * eps)).
    { assert (O1 : net_cut_value G' Tr == gval E j y l2 (mem Tr) + kst E j y (snd c) (fst c) T0' l2).
      { unfold net_cut_value, G'. apply (rep_cut_set eps E n j HE y (snd c) base' (fst c) T0'); auto. }
      assert (O2 := cut_val eps Heps E n j Hjn HE Hs Hf Hw1 y l2 (mem Tr) (lm_win _ _ _ _ _ H3)).
      fold T2 in PM2.
      match goal with |- ?p = ?q => destruct p eqn:P1; destruct q eqn:P2; auto; exfalso end.
      - apply Qltb_true in P1. apply Qltb_false in P2. lra.
      - apply Qltb_false in P1. apply Qltb_true in P2. lra. }
    rewrite B.
    assert (KG : KEEPS base' (fst c) T0' (snd c) G') by (apply (keeps_upd eps E n j HE); auto).
    destruct KG as (_ & KG2 & KG3).
    set (own' := own && negb ct).
    assert (OW' : own' = true -> base' = bs /\ fst c = seq 0 j /\ T0' = [j]).
    { intro K. apply andb_true_iff in K. destruct K as [K2 K3]. apply negb_true_iff in K3. subst ct.
      destruct (C6 eq_refl) as (-> & ->). cbn [fst]. rewrite C2. apply OW. exact K2. }
    assert (KD2 : KEEPS bs (seq 0 j) [j] D (if own' then G' else D1)).
    { destruct own' eqn:Eow; auto. destruct (OW' eq_refl) as (Z1 & Z2 & Z3). apply andb_true_iff in Eow. destruct Eow as [Eo1 Eo2].
      apply negb_true_iff in Eo2. destruct (C6 Eo2) as [Z4 _].
      eapply keeps_trans; [exact KD|]. rewrite Z1, Z2, Z3 in RG. rewrite Z1, Z2 in KG3. split; [exact RG|]. split; [exact KG2|]. rewrite Z4 in KG3. cbn [snd] in KG3.
      unfold cur in KG3. rewrite Eo1 in KG3. exact KG3. }
    set (D2 := if own' then G' else D1) in *.
    assert (CU : (if own' then D2 else G') = G') by (unfold D2; destruct own'; reflexivity).
    assert (KEND : forall Gb, (own' = false -> KEEPS base' (fst c) T0' G' Gb) -> own = false -> KEEPS base ns T0 G (if ct then G else Gb)).
    { intros Gb HG Eow. unfold own' in HG. unfold cur in *. rewrite Eow in *. cbn [andb] in HG. specialize (HG eq_refl). destruct HG as (HG1 & HG2 & HG3). destruct ct; [auto|].
      destruct (C6 eq_refl) as [-> ->]. cbn [fst snd] in *. rewrite C2 in *.
      split; [exact HG1|]. split; [exact HG2|]. intros l' T f Ff. apply HG3. apply KG3. exact Ff. }
    destruct (negb (ceqb T2 Tr) && negb (ceqb T2 Tl) && Qltb (fst fT) (cut (pmf_net eps E j y l2) (mem Tr) - 10 * eps)).
    - destruct (pmf_slice fuel mc eps E n j y Tl T2 l1 (Fin l2)) as [ra| | |] eqn:Ea; cbn [bind] in Hr; try discriminate Hr.
      destruct (pmf_slice fuel mc eps E n j y T2 Tr l2 (Fin l3)) as [rb| | |] eqn:Eb; cbn [bind] in Hr; try discriminate Hr.
      inversion Hr; subst r. clear Hr. destruct KD2 as (RD2 & BD2 & FD2).
      destruct (IH (true :: path) (fst c) D2 own' G' base' T0' Tl T2 l1 l2 (sch path) fl' (if sch path then snd rL else snd rR) ra)
        as [EA [A1|(Dx & Gx & A1 & A2 & A3)]]; try rewrite CU; auto.
      { eapply incl_tran; eauto. }
      { rewrite EA, A1. split; [reflexivity|]. left. reflexivity. }
      rewrite EA, A1. cbn [bind fst snd]. destruct A2 as (RD3 & BD3 & FD3).
      assert (KA : KEEPS base' (fst c) T0' G' (if own' then Dx else Gx)).
      { destruct own' eqn:Eow; auto. destruct (OW' eq_refl) as (Z1 & Z2 & Z3). rewrite Z1, Z2, Z3. split; [exact RD3|]. split; [exact BD3|]. exact FD3. }
      destruct KA as (KA1 & KA2 & KA3).
      destruct (IH (false :: path) (fst c) Dx own' Gx base' T0' T2 Tr l2 l3 (negb (sch path)) (if sch path then snd rL else snd rR) fr' rb)
        as [EB [B1|(Dy & Gy & B1 & B2 & B3)]]; auto.
      { rewrite EB, B1. split; [reflexivity|]. left. reflexivity. }
      rewrite EB, B1. cbn [bind fst snd]. split; [reflexivity|]. right.
      exists Dy, (if ct then G else Gy). split; [reflexivity|]. split.
      + destruct B2 as (RD4 & BD4 & FD4). split; [exact RD4|]. split; [exact BD4|]. auto.
      + apply KEND. intro Eow. rewrite Eow in *. eapply keeps_trans; [apply A3; reflexivity|apply B3; reflexivity].
    - inversion Hr; subst r. cbn [fst snd]. split; [reflexivity|]. right. exists D2, (if ct then G else G'). split; [reflexivity|].
      split; [exact KD2|]. apply KEND. intros _. split; [exact RG|]. split; [exact KG2|]. auto.
  Qed.

  (** As pmfrwd_run_res of WarmRRun. *)
  Theorem pmfrwd_run_res sch r :
    let T0 := snd (pmf_cut mc eps E j y init_lambda) in
    pmf_slice (S n) mc eps E n j y T0 [j] init_lambda (Fin (lam3 E n j y)) = Ok r ->
    pmfrwd_run true chk wsL wsR sch eps E n j y = pmfrwd_run false chk' wsL wsR sch eps E n j y /\
    (pmfrwd_run false chk' wsL wsR sch eps E n j y = Throw \/
     pmfrwd_run false chk' wsL wsR sch eps E n j y = Ok (isort dltb (fst r), isort superset (T0 :: [j] :: snd r))).
  Proof.
    intros T0 R1. unfold pmfrwd_run.
    assert (Lj : (j <? n)%nat = true) by (apply Nat.ltb_lt; auto). rewrite Lj. cbv zeta.
    destruct (pmf_cut_min mc Hmc eps Heps E n j Hjn HE Hs Hf Hw1 y init_lambda) as [K1 _]. fold T0 in K1.
    assert (I0 : incl [j] T0) by (intros x [<-|[]]; apply K1).
    set (L := lam3 E n j y) in *.
    assert (KL : lmin E j y L [j]) by (apply (lam3_lmin E n j Hjn HE Hs Hf y)).
    set (base := fun i => (0, MPMFR.sink_capacity E j i)).
    assert (RD := dig_rep eps Heps E n j Hjn HE Hs Hf Hw1 y). fold base in RD.
    set (D := dig_net eps E j) in *.
    assert (RU1 := rep_upd E n j HE y _ _ _ _ init_lambda RD). assert (RU2 := rep_upd E n j HE y _ _ _ _ L RU1).
    set (G1 := upd y base init_lambda D) in *. set (G2 := upd y base L G1) in *.
    assert (BD : big eps D) by apply (dig_big eps Heps E n j Hjn HE Hs Hf Hw y).
    assert (I3 : forall x, In x T0 -> In x (seq 0 j) \/ In x [j]).
    { intros x Hx. destruct (lm_win _ _ _ _ _ K1 x (proj2 (mem_In _ _) Hx)); [left; auto|right; left; auto]. }
    assert (Ok1 := rep_ok _ _ _ _ _ _ RU1). assert (Ok2 := rep_ok _ _ _ _ _ _ RU2).
    (* the first flow *)
    assert (P1 := init_flow_preflow _ _ Ok1). assert (P2 := init_flow_preflow _ _ (rnet_ok _ _ Ok2)).
    assert (GC1 := pick_good wsL HL wsR HR j true (seq 0 j) G1 _ _ Ok1 P1 (init_flow_preflow _ _ (rnet_ok _ _ Ok1))).
    destruct (good_cut_ok eps E n j HE y _ D base (seq 0 j) [j] init_lambda T0 [j] T0 RD K1 (incl_refl _) I0 (incl_refl _) I3
       ltac:(repeat constructor) GC1) as [W1 W2].
    destruct (HL (seq 0 j) G1 _ Ok1 P1) as (_ & _ & _ & _ & Q1).
    set (r0 := wsL (seq 0 j) G1 (init_flow G1)) in *.
    assert (ET : snd (pick_cut (fst r0) (fst r0) true j (seq 0 j)) = T0).
    { rewrite <- W1. apply csorted_ext.
      - unfold pick_cut. cbn [snd]. apply cadd_sorted. apply cset_of_sorted.
      - apply cunion_sorted. repeat constructor.
      - intro x. unfold pick_cut. cbn [snd]. rewrite cunion_In. split; auto. intros [H|[<-|[]]]; auto.
        apply cadd_In. auto. }
    rewrite ET.
    assert (F1 : finv y D base (seq 0 j) init_lambda T0 (snd r0)).
    { apply (flow_finv y D base (seq 0 j) init_lambda T0 (snd r0) (fst (fst r0))); auto.
      fold G1. transitivity (fst (pick_cut (fst r0) (fst (wsR (seq 0 j) (rnet G1) (init_flow (rnet G1)))) true j (seq 0 j))); [reflexivity|].
      rewrite W2. symmetry. apply (rep_cut_set eps E n j HE y D base (seq 0 j) [j] init_lambda T0); auto. }
    (* the last flow *)
    assert (GC2 := pick_good wsL HL wsR HR j false (seq 0 j) G2 _ _ Ok2 (init_flow_preflow _ _ Ok2) P2).
    assert (I4 : forall x, In x [j] -> In x (seq 0 j) \/ In x [j]) by auto.
    destruct (good_cut_ok eps E n j HE y _ G1 base (seq 0 j) [j] L [j] [j] [j] RU1 KL (incl_refl _) (incl_refl _) (incl_refl _) I4
       ltac:(repeat constructor) GC2) as [_ W3].
    destruct (HR (seq 0 j) (rnet G2) _ (rnet_ok _ _ Ok2) P2) as (_ & _ & _ & _ & Q2).
    set (r3 := wsR (seq 0 j) (rnet G2) (init_flow (rnet G2))) in *.
    assert (F2 : finv y G1 base (seq 0 j) L [j] (snd r3)).
    { apply (rflow_finv y G1 base (seq 0 j) L [j] (snd r3) (fst (fst r3))); auto.
      fold G2. transitivity (fst (pick_cut (fst (wsL (seq 0 j) G2 (init_flow G2))) (fst r3) false j (seq 0 j))); [reflexivity|].
      rewrite W3. symmetry. apply (rep_cut_set eps E n j HE y G1 base (seq 0 j) [j] L [j]); auto. apply incl_refl. }
    assert (F1' : finv y G2 base (seq 0 j) init_lambda T0 (snd r0)) by (apply finv_upd; apply finv_upd; auto).
    assert (F2' : finv y G2 base (seq 0 j) L [j] (snd r3)) by (apply finv_upd; auto).
    assert (BG2 : big eps G2) by (apply big_upd; apply big_upd; auto).
    destruct (pmfrwd_slice_ok sch (S n) [] (seq 0 j) G2 true G2 base [j] T0 [j] init_lambda L false _ _ _ RU2 BG2 (fun _ => conj eq_refl (conj eq_refl eq_refl)) RU2 BG2 (incl_refl _) I0 I3 K1 KL F1' F2' R1)
      as [ES [S1|(D' & G' & S1 & _)]]; unfold bs in ES, S1; fold base in ES, S1; rewrite ES, S1; (split; [reflexivity|]); [left; reflexivity|right; reflexivity].
  Qed.
End Run.

(** ** PDT_R *)
Section Top.
  Variable E : graph.
  Variable n : nat.
  Variable pm1 pm pm0 : nat -> list (Q * dbl) -> res (list dbl * list cset).
  (** Two versions of a stage, and a third that replaces them if they throw. *)
  Definition both := fun j y => if res_eq_dec (pm1 j y) (pm j y) then match pm j y with Throw => pm0 j y | r => r end else UB.

  Lemma both_throw y r : pdt_loop both E n [] = Ok (y, r) ->
    (do r <- pdt_loop pm E n []; Ok (snd r)) = Throw \/ (do r <- pdt_loop pm E n []; Ok (snd r)) = Ok r.
  Proof.
    intro R1.
    assert (EQ : forall l s, (exists s', foldr (pdt_step both E n) s l = Ok s') ->
       thr (foldr (pdt_step pm E n) s l) (foldr (pdt_step both E n) s l)).
    { induction l as [|j l IH]; intros s (s' & H); cbn [foldr] in *; [apply thr_refl|].
      assert (K : thr (pdt_step pm E n s j) (pdt_step both E n s j)).
      { unfold pdt_step in *. unfold both in *. destruct (res_eq_dec (pm1 j (fst s)) (pm j (fst s))); [|discriminate H].
        destruct (pm j (fst s)); [right; reflexivity|right; reflexivity|left; reflexivity|right; reflexivity]. }
      destruct K as [K|K]; rewrite K; [left; reflexivity|].
      destruct (pdt_step both E n s j); cbn [bind] in *; try (right; reflexivity). apply IH. eauto. }
    unfold pdt_loop in *. destruct (n =? 0)%nat; [discriminate R1|].
    cbv zeta in *. cbn [app] in *.
    match type of R1 with bind (foldr _ ?s ?l) _ = _ => specialize (EQ l s) end.
    destruct (foldr (pdt_step both E n) _ _) as [st| | |] eqn:Ef in R1; try discriminate R1.
    rewrite Ef in EQ. destruct EQ as [EQ|EQ]; [eauto| |]; rewrite EQ; [left; reflexivity|right].
    cbn [bind] in *. injection R1 as R1 R3. cbn [snd]. rewrite R3. reflexivity.
  Qed.

  Lemma both_same y r : pdt_loop both E n [] = Ok (y, r) -> pdt_loop pm E n [] = pdt_loop pm1 E n [].
  Proof.
    intro R1.
    assert (EQ : forall l s, (exists s', foldr (pdt_step both E n) s l = Ok s') ->
       foldr (pdt_step pm E n) s l = foldr (pdt_step pm1 E n) s l).
    { induction l as [|j l IH]; intros s (s' & H); cbn [foldr] in *; [reflexivity|].
      assert (K : pm1 j (fst s) = pm j (fst s)).
      { unfold pdt_step in H. unfold both in H at 1. destruct (res_eq_dec (pm1 j (fst s)) (pm j (fst s))); auto. discriminate H. }
      unfold pdt_step at 1 3. rewrite K. destruct (pm j (fst s)) as [x| | |] eqn:Er; try reflexivity.
      assert (Kp : both j (fst s) = Ok x).
      { unfold both. rewrite Er. destruct (res_eq_dec (pm1 j (fst s)) (Ok x)); [reflexivity|exfalso; congruence]. }
      unfold pdt_step in H at 1. rewrite Kp in H.
      match type of H with bind ?e _ = _ => destruct e as [s1| | |] eqn:E1 in H; try discriminate H end.
      rewrite E1. cbn [bind] in *. apply IH. eauto. }
    unfold pdt_loop in *. destruct (n =? 0)%nat; [reflexivity|].
    cbv zeta in *. cbn [app] in *. rewrite EQ; auto.
    destruct (foldr (pdt_step both E n) _ _) as [st| | |]; try discriminate R1. eauto.
  Qed.
End Top.
