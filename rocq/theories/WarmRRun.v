(** * WarmRRun: PMF_R with its flow maps computes the chain of PMF_R without them, or throws. *)
From Coq Require Import Sorted.
From Verif Require Import Base Graph Spec PartThy SubThy MSets SetsThy MGraph MaxFlow BFThy MDil CutThy DilThy
  MDT SeqThy PropDT MPMF LamThy ParThy SliceThy DTThy PDTThy PropPDT MWarm PropWarm MPMFR PMFRThy PropPDTR MWarmR FlowThy
  WarmRThy WarmRCon AggSim.

Section Run.
  Variable wsL : wsolver.
  Hypothesis HL : WarmLSpec wsL.
  Variable wsR : wsolver.
  Hypothesis HR : WarmRSpec wsR.
  Variable eps : Q.
  Hypothesis Heps : 0 < eps.
  Variable E : graph.
  Variable n j : nat.
  Hypothesis Hjn : (j < n)%nat.
  Hypothesis HE : graph_on (seq 0 n) E.
  Hypothesis Hs : simple E.
  Hypothesis Hf : forward E.
  Hypothesis Hw : forall a, In a E -> eps < aw a.
  Variable y : list (Q * dbl).

  Let mc := bf_mincut.
  Let Hmc : MinSinkCutSpec mc := bf_minsink_spec.
  Lemma Hw' : forall a, In a E -> eps <= aw a.
  Proof. intros a Ha. specialize (Hw a Ha). lra. Qed.

  Lemma pick_good useL ns N f f' : net_ok ns N ->
    preflow ns N f -> preflow ns (rnet N) f' ->
    good_cut j ns N (pick_cut (fst (wsL ns N f)) (fst (wsR ns (rnet N) f')) useL j ns).
  Proof.
    intros Hok Pf Pr. destruct useL.
    - destruct (HL ns N f Hok Pf) as (A & B & C & D & _).
      exists (snd (fst (wsL ns N f))). unfold pick_cut. cbn [fst snd]. repeat (split; [assumption|]). split.
      + intro x. rewrite cadd_In, cset_of_In, filter_In, mem_In. split; [tauto|]. intros [H|H]; auto.
      + apply cadd_sorted. apply cset_of_sorted.
    - assert (Hok' := rnet_ok _ _ Hok). destruct (HR ns (rnet N) f' Hok' Pr) as (A & B & C & H2 & _).
      unfold pick_cut. set (r := fst (wsR ns (rnet N) f')) in *. rewrite cut_rnet in B.
      assert (D : forall Y, cut N (fun x => negb (negb (Y x))) == cut N Y).
      { intro Y. apply qsum_ext. intros a _. assert (S : forall u, side (fun x => negb (negb (Y x))) u = side Y u).
        { intros [| |v]; simpl; auto. apply negb_involutive. }
        rewrite !S. reflexivity. }
      exists (filter (fun x => negb (mem (snd r) x)) ns). cbn [fst snd]. split; [|split; [|split; [|split; [|split]]]].
      + intros x Hx. apply filter_In in Hx. tauto.
      + rewrite B. symmetry. apply (cut_restrict ns N (fun x => negb (mem (snd r) x)) Hok).
      + intro Y. specialize (C (fun x => negb (Y x))). rewrite cut_rnet, D in C. exact C.
      + intros Y HY x Hx. apply filter_In in Hx. destruct Hx as [Hx1 Hx2].
        destruct (Y x) eqn:EY; auto. exfalso. apply negb_true_iff in Hx2. apply mem_false in Hx2. apply Hx2.
        apply (H2 (fun z => negb (Y z))); auto.
        * rewrite cut_rnet, D. exact HY.
        * rewrite EY. auto.
      + intro x. rewrite cadd_In, cset_of_In, !filter_In. split; [tauto|]. intros [H|H]; auto.
      + apply cadd_sorted. apply cset_of_sorted.
  Qed.

  (** Checks that differ from [init_ok] at most where an inner node has a deficit. *)
  Definition at_sink (chk : check) : Prop := forall nodes N f,
    (forall v, In v nodes -> 0 <= excess N f (NV v)) -> chk nodes N f = negb (Qltb (excess N f NSnk) 0).

  Variable chk chk' : check.
  Hypothesis Hchk : at_sink chk.
  Hypothesis Hchk' : at_sink chk'.

  (** What a call leaves behind can be used by the next one. *)
  Definition keeps (base : nat -> Q * Q) (ns : list nat) (T0 : cset) (G G' : network) : Prop :=
    rep E j G' base ns T0 /\ big eps G' /\
    forall l T f, finv y G base ns l T f -> finv y G' base ns l T f.

  Lemma keeps_upd base ns T0 G l : rep E j G base ns T0 -> big eps G -> keeps base ns T0 G (upd y base l G).
  Proof.
    intros R B. split; [apply (rep_upd E n j HE y); auto|]. split; [apply big_upd; auto|].
    intros l' T f F. apply finv_upd. auto.
  Qed.

  Theorem pmfrw_slice_ok sch : forall fuel path ns G base T0 Tl Tr l1 l3 ct fl fr r,
    rep E j G base ns T0 -> big eps G -> incl T0 Tr -> incl Tr Tl -> (forall x, In x Tl -> In x ns \/ In x T0) ->
    lmin E j y l1 Tl -> lmin E j y l3 Tr ->
    finv y G base ns l1 Tl fl -> finv y G base ns l3 Tr fr ->
    pmf_slice fuel mc eps E n j y Tl Tr l1 (Fin l3) = Ok r ->
    pmfrw_slice chk fuel wsL wsR sch path eps E j y ns G base fl fr Tl Tr l1 l3 ct =
    pmfrw_slice chk' fuel wsL wsR sch path eps E j y ns G base fl fr Tl Tr l1 l3 ct /\
    (pmfrw_slice chk' fuel wsL wsR sch path eps E j y ns G base fl fr Tl Tr l1 l3 ct = Throw \/
     exists G', pmfrw_slice chk' fuel wsL wsR sch path eps E j y ns G base fl fr Tl Tr l1 l3 ct = Ok (fst r, snd r, G') /\
       keeps base ns T0 G G').
  Proof.
    induction fuel as [|fuel IH]; intros path ns G base T0 Tl Tr l1 l3 ct fl fr r R BG I1 I2 I3 H1 H3 FL FR Hr;
      [discriminate Hr|].
    assert (K0 : keeps base ns T0 G G) by (split; [auto|split; auto]).
    cbn [pmf_slice pmfrw_slice] in *.
    rewrite (diff_nodes_r j Tl Tr (lm_j _ _ _ _ _ H3)).
    rewrite (diff_nodes n j Hjn 1%positive Tl Tr (lm_win _ _ _ _ _ H1) (lm_j _ _ _ _ _ H3)) in Hr.
    destruct (compute_lambda eps (map (yat y) (filter (fun i => mem Tl i && negb (mem Tr i)) (seq 0 j)))
                (get_cut_value E Tl - get_cut_value E Tr)) as [[l|]| | |]; cbn [bind] in *; try discriminate Hr.
    2:{ inversion Hr; subst r. split; [reflexivity|]. right. exists G. auto. }
    set (l2 := Qred l) in *. cbn [dbl_different] in Hr.
    destruct (negb (tol_different eps l2 l1) || negb (tol_different eps l2 l3)).
    { inversion Hr; subst r. split; [reflexivity|]. right. exists G. auto. }
    cbn [dltb] in Hr. destruct (Qltb l2 l1 || Qltb l3 l2) eqn:Eo; [discriminate Hr|].
    apply orb_false_iff in Eo. destruct Eo as [L12 L23]. apply Qltb_false in L12. apply Qltb_false in L23.
    destruct (pmf_cut_min mc Hmc eps Heps E n j Hjn HE Hs Hf Hw' y l2) as [PM1 PM2].
    set (fT := pmf_cut mc eps E j y l2) in *. set (T2 := snd fT) in *.
    assert (J1 : incl T2 Tl) by (apply (min_shrink eps E n j HE y l1 l2); auto).
    assert (J2 : incl Tr T2) by (apply (min_shrink eps E n j HE y l2 l3); auto).
    assert (CT : exists c base' T0' fl' fr',
      (if ct then contract eps (S j) j (S (S j)) (ccompl Tl (S (S j))) Tr G else Ok (ns, G)) = Ok c /\
      base' = (if ct then new_base E (ccompl Tl (S (S j))) Tr else base) /\
      fl' = (if ct then contract_flow (S j) j (ccompl Tl (S (S j))) Tr G fl (snd c) else fl) /\
      fr' = (if ct then contract_flow (S j) j (ccompl Tl (S (S j))) Tr G fr (snd c) else fr) /\
      rep E j (snd c) base' (fst c) T0' /\ big eps (snd c) /\
      finv y (snd c) base' (fst c) l1 Tl fl' /\ finv y (snd c) base' (fst c) l3 Tr fr' /\
      incl T0' Tr /\ (forall x, In x Tl -> In x (fst c) \/ In x T0') /\
      (ct = false -> c = (ns, G) /\ T0' = T0)).
    { destruct ct.
      - destruct (contract_ok eps E n j Hjn Hf Hw' y G base ns T0 Tl Tr R I1 I2 I3 (lm_sorted _ _ _ _ _ H1) (lm_sorted _ _ _ _ _ H3))
          as (ks & C & A & B & D).
        assert (Ek := contract_ks _ _ _ _ _ _ _ _ _ A).
        exists (ks, C), (new_base E (ccompl Tl (S (S j))) Tr), Tr.
        exists (contract_flow (S j) j (ccompl Tl (S (S j))) Tr G fl C), (contract_flow (S j) j (ccompl Tl (S (S j))) Tr G fr C).
        split; auto. split; auto. split; auto. split; auto. split; auto. cbn [fst snd]. subst ks.
        split; [eapply big_C; eauto|]. 
        split; [eapply contract_finv; eauto; apply incl_refl|].
        split; [eapply contract_finv; eauto; apply incl_refl|].
        split; [apply incl_refl|]. split; auto. intro H; discriminate H.
      - exists (ns, G), base, T0, fl, fr. repeat (split; [solve [auto]|]). auto. }
    destruct CT as (c & base' & T0' & fl' & fr' & C1 & C2 & Cl & Cr & C3 & Cb & CL & CR & C4 & C5 & C6).
    rewrite C1. cbn [bind]. rewrite <- C2, <- Cl, <- Cr.
    assert (RG := rep_upd E n j HE y (snd c) base' (fst c) T0' l2 C3).
    assert (Hok := rep_ok _ _ _ _ _ _ RG).
    set (G' := upd y base' l2 (snd c)) in *.
    assert (NN : forall a, In a G' -> 0 <= ncap a) by (intros a Ha; apply Hok; auto).
    assert (NL := fun v => left_nodes y (snd c) base' (fst c) l1 l2 Tl fl' v L12 NN CL).
    assert (NR := fun v => right_nodes y (snd c) base' (fst c) l3 l2 Tr fr' v L23 NN CR).
    fold G' in NL, NR.
    rewrite (Hchk _ _ _ NL), (Hchk _ _ _ NR), (Hchk' _ _ _ NL), (Hchk' _ _ _ NR).
    destruct (negb (Qltb (excess G' (clamp G' fl') NSnk) 0) && negb (Qltb (excess (rnet G') (clamp G' fr') NSnk) 0)) eqn:Eini;
      [|split; [reflexivity|left; reflexivity]].
    apply andb_true_iff in Eini. rewrite !negb_true_iff in Eini. destruct Eini as [Ei1 Ei2].
    apply Qltb_false in Ei1. apply Qltb_false in Ei2.
    assert (Pl : preflow (fst c) G' (clamp G' fl')) by (eapply left_preflow; eauto).
    assert (Pr : preflow (fst c) (rnet G') (clamp G' fr')) by (eapply right_preflow; eauto).
    assert (GC := pick_good (sch path) (fst c) G' _ _ Hok Pl Pr).
    destruct (good_cut_ok eps E n j HE y _ (snd c) base' (fst c) T0' l2 T2 Tr Tl C3 PM1 C4 J2 J1 C5 (lm_sorted _ _ _ _ _ H3) GC) as [W1 W2].
    destruct (HL (fst c) G' _ Hok Pl) as (_ & _ & _ & _ & QL).
    destruct (HR (fst c) (rnet G') _ (rnet_ok _ _ Hok) Pr) as (_ & _ & _ & _ & QR).
    set (rL := wsL (fst c) G' (clamp G' fl')) in *. set (rR := wsR (fst c) (rnet G') (clamp G' fr')) in *.
    assert (VT : cut G' (mem T2) == fst (pick_cut (fst rL) (fst rR) (sch path) j (fst c))).
    { rewrite W2. apply (rep_cut_set eps E n j HE y (snd c) base' (fst c) T0'); auto. eapply incl_tran; eauto. }
    assert (FM : finv y (snd c) base' (fst c) l2 T2 (if sch path then snd rL else snd rR)).
    { unfold pick_cut in VT. destruct (sch path); cbn [fst] in VT.
      - eapply flow_finv; eauto. symmetry. exact VT.
      - eapply rflow_finv; eauto. symmetry. exact VT. }
    set (wT := pick_cut (fst rL) (fst rR) (sch path) j (fst c)) in *. rewrite W1.
    assert (B : Qltb (fst wT) (net_cut_value G' Tr - 10 * eps) =
                Qltb (fst fT) (cut (pmf_net eps E j y l2) (mem Tr) - 10 * eps)).
    { assert (O1 : net_cut_value G' Tr == gval E j y l2 (mem Tr) + kst E j y (snd c) (fst c) T0' l2).
      { unfold net_cut_value, G'. apply (rep_cut_set eps E n j HE y (snd c) base' (fst c) T0'); auto. }
      assert (O2 := cut_val eps Heps E n j Hjn HE Hs Hf Hw' y l2 (mem Tr) (lm_win _ _ _ _ _ H3)).
      fold T2 in PM2.
      match goal with |- ?p = ?q => destruct p eqn:P1; destruct q eqn:P2; auto; exfalso end.
      - apply Qltb_true in P1. apply Qltb_false in P2. lra.
      - apply Qltb_false in P1. apply Qltb_true in P2. lra. }
    rewrite B.
    assert (KG : keeps base' (fst c) T0' (snd c) G') by (apply keeps_upd; auto).
    destruct KG as (_ & KG2 & KG3).
    assert (KEND : forall Gb, keeps base' (fst c) T0' G' Gb -> keeps base ns T0 G (if ct then G else Gb)).
    { intros Gb (HG1 & HG2 & HG3). destruct ct; auto. destruct (C6 eq_refl) as [-> ->]. cbn [fst snd] in *. rewrite C2 in *.
      split; [exact HG1|]. split; [exact HG2|]. intros l' T f Ff. apply HG3. apply KG3. exact Ff. }
    destruct (negb (ceqb T2 Tr) && negb (ceqb T2 Tl) && Qltb (fst fT) (cut (pmf_net eps E j y l2) (mem Tr) - 10 * eps)).
    - destruct (pmf_slice fuel mc eps E n j y Tl T2 l1 (Fin l2)) as [ra| | |] eqn:Ea; cbn [bind] in Hr; try discriminate Hr.
      destruct (pmf_slice fuel mc eps E n j y T2 Tr l2 (Fin l3)) as [rb| | |] eqn:Eb; cbn [bind] in Hr; try discriminate Hr.
      inversion Hr; subst r. clear Hr.
      destruct (IH (true :: path) (fst c) G' base' T0' Tl T2 l1 l2 (sch path) fl' (if sch path then snd rL else snd rR) ra)
        as [EA [A1|(Ga & A1 & A2)]]; auto.
      { eapply incl_tran; eauto. }
      { rewrite EA, A1. split; [reflexivity|]. left. reflexivity. }
      rewrite EA, A1. cbn [bind fst snd]. destruct A2 as (A2 & A3 & A4).
      destruct (IH (false :: path) (fst c) Ga base' T0' T2 Tr l2 l3 (negb (sch path)) (if sch path then snd rL else snd rR) fr' rb)
        as [EB [B1|(Gb & B1 & B2)]]; auto.
      { rewrite EB, B1. split; [reflexivity|]. left. reflexivity. }
      rewrite EB, B1. cbn [bind fst snd]. split; [reflexivity|]. right.
      exists (if ct then G else Gb). split; [reflexivity|]. apply KEND. destruct B2 as (B2 & B3 & B4).
      split; [exact B2|]. split; [exact B3|]. intros l' T f Ff. apply B4. apply A4. exact Ff.
    - inversion Hr; subst r. cbn [fst snd]. split; [reflexivity|]. right. exists (if ct then G else G'). split; [reflexivity|].
      apply KEND. split; [exact RG|]. split; [exact KG2|]. auto.
  Qed.

  Lemma dig_big : big eps (dig_net eps E j).
  Proof.
    assert (R := dig_rep eps Heps E n j Hjn HE Hs Hf Hw' y).
    intros a Ha A B C. unfold dig_net in Ha.
    assert (K : exists e, In e E /\ ncap a = aw e \/ nsrc a = NSrc \/ ndst a = NSnk).
    { assert (DUM : arc) by exact (mkArc 0 0 0).
      rewrite !in_app_iff in Ha. repeat match type of Ha with _ \/ _ => destruct Ha as [Ha|Ha] end.
      - unfold inner_arcs in Ha. apply in_map_iff in Ha. destruct Ha as (e & <- & He). apply filter_In in He.
        exists e. left. split; [tauto|reflexivity].
      - apply in_map_iff in Ha. destruct Ha as (e & <- & He). apply filter_In in He. exists e. left. split; [tauto|reflexivity].
      - apply in_flat_map in Ha. destruct Ha as (i & _ & [<-|Ha]); [exists DUM; auto|].
        apply repeat_spec in Ha. subst a. exists DUM. auto. }
    destruct K as (e & [[K1 K2]|[K|K]]); try contradiction. rewrite K2. auto.
  Qed.

  (** The chain found without flow maps is found with them, unless a start flow is rejected. *)
  Theorem pmfrw_run_res sch r :
    let T0 := snd (pmf_cut mc eps E j y init_lambda) in
    pmf_slice (S n) mc eps E n j y T0 [j] init_lambda (Fin (lam3 E n j y)) = Ok r ->
    pmfrw_run_chk chk wsL wsR sch eps E n j y = pmfrw_run_chk chk' wsL wsR sch eps E n j y /\
    (pmfrw_run_chk chk' wsL wsR sch eps E n j y = Throw \/
     pmfrw_run_chk chk' wsL wsR sch eps E n j y = Ok (isort dltb (fst r), isort superset (T0 :: [j] :: snd r))).
  Proof.
    intros T0 R1. unfold pmfrw_run_chk.
    assert (Lj : (j <? n)%nat = true) by (apply Nat.ltb_lt; auto). rewrite Lj. cbv zeta.
    destruct (pmf_cut_min mc Hmc eps Heps E n j Hjn HE Hs Hf Hw' y init_lambda) as [K1 _]. fold T0 in K1.
    assert (I0 : incl [j] T0) by (intros x [<-|[]]; apply K1).
    set (L := lam3 E n j y) in *.
    assert (KL : lmin E j y L [j]) by (apply (lam3_lmin E n j Hjn HE Hs Hf y)).
    set (base := fun i => (0, MPMFR.sink_capacity E j i)).
    assert (RD := dig_rep eps Heps E n j Hjn HE Hs Hf Hw' y). fold base in RD.
    set (D := dig_net eps E j) in *.
    assert (RU1 := rep_upd E n j HE y _ _ _ _ init_lambda RD). assert (RU2 := rep_upd E n j HE y _ _ _ _ L RU1).
    set (G1 := upd y base init_lambda D) in *. set (G2 := upd y base L G1) in *.
    assert (BD : big eps D) by apply dig_big.
    assert (I3 : forall x, In x T0 -> In x (seq 0 j) \/ In x [j]).
    { intros x Hx. destruct (lm_win _ _ _ _ _ K1 x (proj2 (mem_In _ _) Hx)); [left; auto|right; left; auto]. }
    assert (Ok1 := rep_ok _ _ _ _ _ _ RU1). assert (Ok2 := rep_ok _ _ _ _ _ _ RU2).
    (* the first flow *)
    assert (P1 := init_flow_preflow _ _ Ok1). assert (P2 := init_flow_preflow _ _ (rnet_ok _ _ Ok2)).
    assert (GC1 := pick_good true (seq 0 j) G1 _ _ Ok1 P1 (init_flow_preflow _ _ (rnet_ok _ _ Ok1))).
    destruct (good_cut_ok eps E n j HE y _ D base (seq 0 j) [j] init_lambda T0 [j] T0 RD K1 (incl_refl _) I0 (incl_refl _) I3
       ltac:(repeat constructor) GC1) as [W1 W2].
    destruct (HL (seq 0 j) G1 _ Ok1 P1) as (_ & _ & _ & _ & Q1).
    set (r0 := wsL (seq 0 j) G1 (init_flow G1)) in *.
    assert (ET : snd (pick_cut (fst r0) (fst r0) true j (seq 0 j)) = T0).
    { rewrite <- W1. apply csorted_ext.
      - unfold pick_cut. cbn [snd]. apply cadd_sorted. apply cset_of_sorted.
      - apply cunion_sorted. repeat constructor.
      - intro x. unfold pick_cut. cbn [snd]. rewrite cunion_In. split; auto. intros [H|[<-|[]]]; auto.
        apply cadd_In. auto. }
    rewrite ET.
    assert (F1 : finv y D base (seq 0 j) init_lambda T0 (snd r0)).
    { apply (flow_finv y D base (seq 0 j) init_lambda T0 (snd r0) (fst (fst r0))); auto.
      fold G1. transitivity (fst (pick_cut (fst r0) (fst (wsR (seq 0 j) (rnet G1) (init_flow (rnet G1)))) true j (seq 0 j))); [reflexivity|].
      rewrite W2. symmetry. apply (rep_cut_set eps E n j HE y D base (seq 0 j) [j] init_lambda T0); auto. }
    (* the last flow *)
    assert (GC2 := pick_good false (seq 0 j) G2 _ _ Ok2 (init_flow_preflow _ _ Ok2) P2).
    assert (I4 : forall x, In x [j] -> In x (seq 0 j) \/ In x [j]) by auto.
    destruct (good_cut_ok eps E n j HE y _ G1 base (seq 0 j) [j] L [j] [j] [j] RU1 KL (incl_refl _) (incl_refl _) (incl_refl _) I4
       ltac:(repeat constructor) GC2) as [_ W3].
    destruct (HR (seq 0 j) (rnet G2) _ (rnet_ok _ _ Ok2) P2) as (_ & _ & _ & _ & Q2).
    set (r3 := wsR (seq 0 j) (rnet G2) (init_flow (rnet G2))) in *.
    assert (F2 : finv y G1 base (seq 0 j) L [j] (snd r3)).
    { apply (rflow_finv y G1 base (seq 0 j) L [j] (snd r3) (fst (fst r3))); auto.
      fold G2. transitivity (fst (pick_cut (fst (wsL (seq 0 j) G2 (init_flow G2))) (fst r3) false j (seq 0 j))); [reflexivity|].
      rewrite W3. symmetry. apply (rep_cut_set eps E n j HE y G1 base (seq 0 j) [j] L [j]); auto. apply incl_refl. }
    assert (F1' : finv y G2 base (seq 0 j) init_lambda T0 (snd r0)) by (apply finv_upd; apply finv_upd; auto).
    assert (F2' : finv y G2 base (seq 0 j) L [j] (snd r3)) by (apply finv_upd; auto).
    assert (BG2 : big eps G2) by (apply big_upd; apply big_upd; auto).
    destruct (pmfrw_slice_ok sch (S n) [] (seq 0 j) G2 base [j] T0 [j] init_lambda L false _ _ _ RU2 BG2 (incl_refl _) I0 I3 K1 KL F1' F2' R1)
      as [ES [S1|(G' & S1 & _)]]; rewrite ES, S1; (split; [reflexivity|]); [left; reflexivity|right; reflexivity].
  Qed.

  Variable M : positive.
  Hypothesis HyM : forall u, (u < j)%nat -> pmult M (yat y u).
  Hypothesis Hy0 : forall u, (j <= u)%nat -> yat y u = (0, PInf).
  Hypothesis HfM : forall X, mult M (incut E X).
  Hypothesis HiM : mult M init_lambda.
  Hypothesis HeM : 10 * eps * inject_Z (Zpos (M * factP j)) < 1.

  Theorem pmfrw_run_ok sch :
    (exists X, win (seq 0 j) j X /\ gval E j y init_lambda X < gval E j y init_lambda (mem [j])) ->
    pmfrw_run_chk chk wsL wsR sch eps E n j y = pmfrw_run_chk chk' wsL wsR sch eps E n j y /\
    (pmfrw_run_chk chk' wsL wsR sch eps E n j y = Throw \/
     exists T0 rest,
      pmfrw_run_chk chk' wsL wsR sch eps E n j y = Ok (map (fun p => Fin (fst p)) rest, T0 :: map snd rest) /\
      lmin E j y init_lambda T0 /\ rest <> [] /\ cch E j y M init_lambda T0 rest [j] PInf).
  Proof.
    intros (X & HX & HlX).
    destruct (pmf_cut_min mc Hmc eps Heps E n j Hjn HE Hs Hf Hw' y init_lambda) as [K1 _].
    set (T0 := snd (pmf_cut mc eps E j y init_lambda)) in *.
    assert (N0 : [j] <> T0).
    { intro C. assert (A := lm_min _ _ _ _ _ K1 X HX). rewrite <- C in A. lra. }
    assert (I0 : incl [j] T0) by (intros x [<-|[]]; apply K1).
    assert (L0 : (length T0 <= 1 + S n)%nat).
    { assert (incl T0 (seq 0 n)).
      { intros x Hx. assert (Wx := lm_win _ _ _ _ _ K1 x (proj2 (mem_In _ _) Hx)).
        apply in_seq. destruct Wx as [Wx|Wx]; [apply in_seq in Wx; lia|lia]. }
      assert (Ln := NoDup_incl_length (csorted_NoDup _ (lm_sorted _ _ _ _ _ K1)) H).
      rewrite seq_length in Ln. lia. }
    set (L := lam3 E n j y).
    assert (KL : lmin E j y L [j]) by (apply (lam3_lmin E n j Hjn HE Hs Hf y)).
    assert (L00 : 0 <= L) by apply (lam3_ge E n j Hjn y).
    destruct (slice_ok mc Hmc eps Heps E n j Hjn HE Hs Hf Hw' y M HyM HfM HeM
                (S n) T0 [j] init_lambda (Fin L) L0 I0 N0 K1 ltac:(apply mult_scale; exact HiM))
      as (rest & sets & R1 & R2 & R3).
    { split; [exact KL|]. split; [|unfold init_lambda; lra]. apply mult_scale.
      eapply lam3_mult; eauto. }
    destruct (pmfrw_run_res sch _ R1) as [ES [S1|S1]]; (split; [exact ES|]); [left; exact S1|right].
    rewrite S1. fold T0. cbn [fst snd].
    destruct (chain_sorted E n j Hjn y M T0 rest sets (Fin L) (lm_sorted _ _ _ _ _ K1) R2 R3) as [C1 C2].
    rewrite C1, C2. exists T0, rest. split; auto. split; [exact K1|]. split; [|eapply cch_PInf; eauto].
    intros ->. simpl in R3. destruct R3 as [R3 _]. congruence.
  Qed.
End Run.

(** ** PDT_R *)
Lemma thr_foldr {A S} (f g : S -> A -> res S) : (forall s a, thr (f s a) (g s a)) ->
  forall l s, thr (foldr f s l) (foldr g s l).
Proof.
  intro H. induction l as [|a l IH]; intro s; cbn [foldr]; [apply thr_refl|].
  apply thr_bind; auto.
Qed.

Lemma init_at_sink : at_sink init_ok.
Proof.
  intros nodes N f H. unfold init_ok. cbn [forallb].
  assert (K : forallb (fun u => negb (Qltb (excess N f u) 0)) (map NV nodes) = true).
  { apply forallb_forall. intros u Hu. apply in_map_iff in Hu. destruct Hu as (v & <- & Hv).
    apply negb_true_iff. apply Qltb_false. auto. }
  rewrite K, andb_true_r. reflexivity.
Qed.

(** The check of the terminal alone. *)
Definition sink_ok : check := fun _ N f => negb (Qltb (excess N f NSnk) 0).
Lemma sink_at_sink : at_sink sink_ok.
Proof. intros nodes N f _. reflexivity. Qed.

Definition dbl_eq_dec (a b : dbl) : {a = b} + {a <> b}.
Proof. repeat decide equality. Defined.
Definition res_eq_dec (a b : res (list dbl * list cset)) : {a = b} + {a <> b}.
Proof. decide equality. decide equality; repeat (apply list_eq_dec; intros); try apply dbl_eq_dec; apply Nat.eq_dec. Defined.

Section Top.
  Variable wsL wsR : wsolver.
  Variable sch : nat -> list bool -> bool.
  Variable eps : Q.
  Variable E : graph.
  Variable n : nat.

  Let pm1 := fun j y => pmfrw_run_chk sink_ok wsL wsR (sch j) eps E n j y.
  Let pm := fun j y => pmfrw_run_chk init_ok wsL wsR (sch j) eps E n j y.
  (** Both checks, and the run without flow maps if they reject. *)
  Definition pm_both := fun j y => if res_eq_dec (pm1 j y) (pm j y) then
      match pm j y with Throw => pmfr_run bf_mincut (rev_solver bf_mincut) (sch j) eps E n j y | r => r end
    else UB.

  Lemma pdtrw_of_loop y cs Ps : pdt_loop pm_both E n [] = Ok (y, (map Fin cs, Ps)) ->
    pdtrw_run wsL wsR sch eps E n = Throw \/ pdtrw_run wsL wsR sch eps E n = Ok (map Fin cs, Ps).
  Proof.
    intro R1.
    assert (EQ : forall l s, (exists s', foldr (pdt_step pm_both E n) s l = Ok s') ->
       thr (foldr (pdt_step pm E n) s l) (foldr (pdt_step pm_both E n) s l)).
    { induction l as [|j l IH]; intros s (s' & H); cbn [foldr] in *; [apply thr_refl|].
      assert (K : thr (pdt_step pm E n s j) (pdt_step pm_both E n s j)).
      { unfold pdt_step in *. unfold pm_both in *. destruct (res_eq_dec (pm1 j (fst s)) (pm j (fst s))); [|discriminate H].
        destruct (pm j (fst s)); [right; reflexivity|right; reflexivity|left; reflexivity|right; reflexivity]. }
      destruct K as [K|K]; rewrite K; [left; reflexivity|].
      destruct (pdt_step pm_both E n s j); cbn [bind] in *; try (right; reflexivity). apply IH. eauto. }
    unfold pdtrw_run, pdtrw_run_chk. fold pm. unfold pdt_loop in *. destruct (n =? 0)%nat; [discriminate R1|].
    cbv zeta in *. cbn [app] in *.
    match type of R1 with bind (foldr _ ?s ?l) _ = _ => specialize (EQ l s) end.
    destruct (foldr (pdt_step pm_both E n) _ _) as [st| | |] eqn:Ef in R1; try discriminate R1.
    rewrite Ef in EQ. destruct EQ as [EQ|EQ]; [eauto| |]; rewrite EQ; [left; reflexivity|right].
    cbn [bind] in *. injection R1 as R1 R3 R4. cbn [snd]. rewrite R3, R4. reflexivity.
  Qed.

  Lemma checks_of_loop y cs Ps : pdt_loop pm_both E n [] = Ok (y, (map Fin cs, Ps)) ->
    pdtrw_run wsL wsR sch eps E n = pdtrw_run_chk sink_ok wsL wsR sch eps E n.
  Proof.
    intro R1.
    assert (EQ : forall l s, (exists s', foldr (pdt_step pm_both E n) s l = Ok s') ->
       foldr (pdt_step pm E n) s l = foldr (pdt_step pm1 E n) s l).
    { induction l as [|j l IH]; intros s (s' & H); cbn [foldr] in *; [reflexivity|].
      assert (K : pm1 j (fst s) = pm j (fst s)).
      { unfold pdt_step in H. unfold pm_both in H at 1. destruct (res_eq_dec (pm1 j (fst s)) (pm j (fst s))); auto. discriminate H. }
      unfold pdt_step at 1 3. rewrite K. destruct (pm j (fst s)) as [r| | |] eqn:Er; try reflexivity.
      assert (Kp : pm_both j (fst s) = Ok r).
      { unfold pm_both. rewrite Er. destruct (res_eq_dec (pm1 j (fst s)) (Ok r)); [reflexivity|exfalso; congruence]. }
      unfold pdt_step in H at 1. rewrite Kp in H.
      match type of H with bind ?e _ = _ => destruct e as [s1| | |] eqn:E1 in H; try discriminate H end.
      rewrite E1. cbn [bind] in *. apply IH. eauto. }
    unfold pdtrw_run, pdtrw_run_chk. fold pm pm1. unfold pdt_loop in *. destruct (n =? 0)%nat; [reflexivity|].
    cbv zeta in *. cbn [app] in *. rewrite EQ; auto.
    destruct (foldr (pdt_step pm_both E n) _ _) as [st| | |]; try discriminate R1. eauto.
  Qed.
  Variable D : positive.
  Hypothesis HL : WarmLSpec wsL.
  Hypothesis HR : WarmRSpec wsR.
  Hypothesis He : 0 < eps.
  Hypothesis Hn : (1 <= n)%nat.
  Hypothesis HE : graph_on (seq 0 n) E.
  Hypothesis Hs : simple E.
  Hypothesis Hf : forward E.
  Hypothesis Hw : forall a, In a E -> eps < aw a.
  Hypothesis HD : multiples_of D E.
  Hypothesis HeM : 10 * eps * inject_Z (Zpos (gridM D n)) < 1.

  Lemma pm_both_loop : exists y cs Ps, pdt_loop pm_both E n [] = Ok (y, (map Fin cs, Ps)) /\ IsPSP E (seq 0 n) cs Ps.
  Proof.
    assert (Hw1 : forall a, In a E -> eps <= aw a) by (intros a Ha; specialize (Hw a Ha); lra).
    apply (loop_correct eps He E n HE Hf D HD HeM pm_both); auto.
    intros j y M Hj HyM Hy0 HfM HiM HeM' Hx. unfold pm_both.
    destruct (pmfrw_run_ok wsL HL wsR HR eps He E n j Hj HE Hs Hf Hw y sink_ok init_ok sink_at_sink init_at_sink
                M HyM Hy0 HfM HiM HeM' (sch j) Hx) as [EQ [T|(T0 & rest & A & B)]].
    - change (pm1 j y = pm j y) in EQ. destruct (res_eq_dec (pm1 j y) (pm j y)); [|contradiction].
      change (pm j y = Throw) in T. rewrite T.
      exact (pmfr_run_ok bf_mincut bf_minsink_spec (rev_solver bf_mincut) (rev_solver_spec _ bf_minsink_spec)
               eps He E n j Hj HE Hs Hf Hw1 y M HyM Hy0 HfM HiM HeM' (sch j) Hx).
    - change (pm1 j y = pm j y) in EQ. destruct (res_eq_dec (pm1 j y) (pm j y)); [|contradiction].
      change (pm j y = Ok (map (fun p => Fin (fst p)) rest, T0 :: map snd rest)) in A. rewrite A.
      exists T0, rest. split; auto.
  Qed.

  Lemma pdtrw_correct :
    pdtrw_run wsL wsR sch eps E n = Throw \/
    exists lams Ps, pdtrw_run wsL wsR sch eps E n = Ok (map Fin lams, Ps) /\ IsPSP E (seq 0 n) lams Ps.
  Proof.
    destruct pm_both_loop as (y & cs & Ps & R1 & R2).
    destruct (pdtrw_of_loop y cs Ps R1) as [H|H]; [left; auto|right]. exists cs, Ps. auto.
  Qed.

  (** Only a terminal can be rejected. *)
  Lemma pdtrw_checks : pdtrw_run wsL wsR sch eps E n = pdtrw_run_chk sink_ok wsL wsR sch eps E n.
  Proof. destruct pm_both_loop as (y & cs & Ps & R1 & R2). exact (checks_of_loop y cs Ps R1). Qed.
End Top.
