(** * FloatPspLoop: the loop of PSP_I::run() over labels known up to rounding. *)
From Coq Require Import Qabs Sorted.
From Verif Require Import Base Spec PartThy SubThy MSets SetsThy MGraph MaxFlow CutThy MDil DilThy BFThy
  MDT SeqThy DTThy PSPThy DTTop MContract ContractThy MPSPI TreeThy DecThy PSPIThy PSPILoop
  DilApprox ApproxThy MFloat FloatThy FloatDil FloatDT MFloatP FloatPsp FloatPspRun.

(** Two labels that differ differ by at least 1/(D (n-1)^2). *)
Lemma slope_gap D n E1 E2 P1 P2 g1 g2 c :
  multiples_of D E1 -> multiples_of D E2 -> (2 <= length P1)%nat -> (2 <= length P2)%nat ->
  (length P1 <= n)%nat -> (length P2 <= n)%nat ->
  g1 * (qn (length P1) - 1) == crossing E1 P1 -> g2 * (qn (length P2) - 1) == crossing E2 P2 ->
  0 <= c -> c * (Zpos D # 1) * ((qn n - 1) * (qn n - 1)) < 1 -> g1 - c <= g2 -> g1 <= g2.
Proof.
  intros M1 M2 L1 L2 N1 N2 G1 G2 Hc Hcs Hle.
  destruct (crossing_multiple D _ P1 M1) as (z1 & Z1). destruct (crossing_multiple D _ P2 M2) as (z2 & Z2).
  set (DD := Zpos D # 1) in *. assert (HDD : 0 < DD) by reflexivity.
  set (d1 := qn (length P1) - 1) in *. set (d2 := qn (length P2) - 1) in *.
  assert (A1 : 1 <= d1) by (apply qn_le in L1; change (qn 2) with 2 in L1; unfold d1; lra).
  assert (A2 : 1 <= d2) by (apply qn_le in L2; change (qn 2) with 2 in L2; unfold d2; lra).
  assert (B1 : d1 <= qn n - 1) by (apply qn_le in N1; unfold d1; lra).
  assert (B2 : d2 <= qn n - 1) by (apply qn_le in N2; unfold d2; lra).
  assert (M : forall z, (z # D) * DD == inject_Z z).
  { intro z. unfold DD, Qeq, Qmult, inject_Z. simpl. lia. }
  assert (H12 : 0 < d1 * d2) by (apply Qmult_lt_0_compat; lra).
  assert (Hk : 0 < DD * (d1 * d2)) by (apply Qmult_lt_0_compat; auto).
  assert (X : (g2 - g1) * (DD * (d1 * d2)) ==
    inject_Z (z2 * (Z.of_nat (length P1) - 1) - z1 * (Z.of_nat (length P2) - 1))).
  { assert (X1 : (g2 - g1) * (DD * (d1 * d2)) == (g2 * d2) * DD * d1 - (g1 * d1) * DD * d2) by ring.
    rewrite X1, G1, G2, Z1, Z2, !M. unfold Z.sub.
    rewrite !inject_Z_plus, !inject_Z_opp, !inject_Z_mult, !inject_Z_plus.
    unfold d1, d2, qn. change (inject_Z (- (1))) with (- (1)). ring. }
  assert (0 <= g2 - g1); [|lra].
  apply (multiple_gap _ (g2 - g1) _ Hk X).
  set (m := qn n - 1) in *.
  assert (S1 : d1 * d2 <= m * m).
  { assert (0 <= d1 * (m - d2)) by (apply Qmult_le_0_compat; lra).
    assert (0 <= (m - d1) * m) by (apply Qmult_le_0_compat; lra).
    assert (m * m == d1 * d2 + d1 * (m - d2) + (m - d1) * m) by ring. lra. }
  assert (S2 : 0 <= c * DD * (m * m - d1 * d2)).
  { apply Qmult_le_0_compat; [apply Qmult_le_0_compat; lra|lra]. }
  assert (S3 : 0 <= (g2 - g1 + c) * (DD * (d1 * d2))) by (apply Qmult_le_0_compat; lra).
  assert (S4 : (g2 - g1) * (DD * (d1 * d2)) ==
    (g2 - g1 + c) * (DD * (d1 * d2)) + c * DD * (m * m - d1 * d2) - c * DD * (m * m)) by ring.
  lra.
Qed.

(** Labels known up to [dl] are compared correctly. *)
Lemma labels_order D n E s dl t v fa fb : multiples_of D E -> 0 <= dl ->
  (2 * dl) * (Zpos D # 1) * ((qn n - 1) * (qn n - 1)) < 1 ->
  incl (hset t) (seq 0 n) -> incl (hset v) (seq 0 n) ->
  hok E s 0 t -> hok E s 0 v -> hkids t <> [] -> hkids v <> [] ->
  near dl fa (hlab t) -> near dl fb (hlab v) -> fa <= fb -> hlab t <= hlab v.
Proof.
  intros HD Hdl Hsmall It Iv Ht Hv Kt Kv [A1 A2] [B1 B2] Hle.
  assert (Sub : forall w, incl (hset w) (seq 0 n) -> hok E s 0 w -> hkids w <> [] ->
    (2 <= length (map hset (hkids w)))%nat /\ (length (map hset (hkids w)) <= n)%nat /\
    hlab w * (qn (length (map hset (hkids w))) - 1) == crossing (sub E (hset w)) (map hset (hkids w))).
  { intros w Iw Hw Kw. destruct w as [X g ts]. cbn [hset hkids hlab] in *.
    inversion Hw as [x g'|X' g' ts' S0 L2 HPX T1 T3 HL HO]; subst; [congruence|].
    rewrite map_length. split; auto. split.
    - assert (L := part_length_le X (csorted_NoDup _ S0) _ HPX). rewrite map_length in L.
      assert (L3 := NoDup_incl_length (csorted_NoDup _ S0) Iw). rewrite seq_length in L3. lia.
    - unfold hval in T1. rewrite map_length in T1. lra. }
  destruct (Sub t It Ht Kt) as (a1 & a2 & a3). destruct (Sub v Iv Hv Kv) as (b1 & b2 & b3).
  assert (MS : forall X, multiples_of D (sub E X)).
  { intros X a Ha. apply filter_In in Ha. apply HD. tauto. }
  apply (slope_gap D n _ _ _ _ _ _ (2 * dl) (MS (hset t)) (MS (hset v)) a1 b1 a2 b2 a3 b3); auto; lra.
Qed.

Section Loop.
  Variables (u : Q) (n : nat) (W : Q).
  Variable D : positive.
  Variable E : graph.
  Hypothesis HD : multiples_of D E.
  Notation dl := (dlt (vu u n) n W).
  Hypothesis Hdl : 0 <= dl.
  Hypothesis Hsmall : (2 * dl) * (Zpos D # 1) * ((qn n - 1) * (qn n - 1)) < 1.
  Variables sf sx : pst.
  Hypothesis Hsim : sim u n W sf sx.

  Definition qrelf (pr : nat * dbl) (t : ht) : Prop :=
    trep sx (fst pr) t /\ lnear dl (snd pr) (qlab t).

  Lemma lam_near c t : trep sx c t -> lnear dl (lam_of sf c) (qlab t).
  Proof.
    intro H. rewrite <- (lam_of_qlab sx c t H). unfold lam_of. rewrite (si_ch _ _ _ _ _ Hsim).
    destruct (pch sx c); [exact I|apply (si_lab _ _ _ _ _ Hsim)].
  Qed.

  Lemma lnear_not_nan x t : lnear dl x (qlab t) -> ~ isnan x.
  Proof. unfold qlab, isnan. intros H ->. destruct (hkids t); exact H. Qed.

  Lemma q_insert_relf x t : qrelf x t -> forall q F, Forall2 qrelf q F ->
    exists F', Forall2 qrelf (q_insert x q) F' /\ Permutation F' (t :: F).
  Proof.
    intros Hx q F. induction 1 as [|y v q F H1 H2 (F' & I1 & I2)]; simpl.
    - exists [t]. split; auto.
    - destruct (dltb (snd y) (snd x)).
      + exists (t :: v :: F). split; auto.
      + exists (v :: F'). split; auto. rewrite I2. apply perm_swap.
  Qed.

  Lemma qrelf_not_nan q F : Forall2 qrelf q F -> forall y, In y q -> ~ isnan (snd y).
  Proof.
    intros H y Hy. destruct (Forall2_In_l _ _ _ y H Hy) as (t & _ & _ & K). eapply lnear_not_nan; eauto.
  Qed.

  Lemma fold_insert_relf : forall kids ts, Forall2 (trep sx) kids ts -> forall q F,
    Forall2 qrelf q F -> qsorted q ->
    let q' := fold_left (fun q c => q_insert (c, lam_of sf c) q) kids q in
    exists F', Forall2 qrelf q' F' /\ Permutation F' (ts ++ F) /\ qsorted q'.
  Proof.
    intros kids ts. induction 1 as [|c t kids ts H1 H2 IH]; intros q F HF HS; simpl.
    - exists F. auto.
    - assert (R : qrelf (c, lam_of sf c) t) by (split; simpl; auto using lam_near).
      destruct (q_insert_relf _ t R q F HF) as (F1 & A1 & A2).
      destruct (IH _ F1 A1) as (F' & B1 & B2 & B3).
      { apply q_insert_sorted; auto.
        - eapply lnear_not_nan. apply R.
        - eapply qrelf_not_nan; eauto. }
      exists F'. split; auto. split; auto. rewrite B2, A2. symmetry. apply Permutation_middle.
  Qed.

  (** Labels of disjoint clusters are compared correctly. *)
  Lemma label_order F t v fa fb : is_partition (seq 0 n) (map hset F) -> In t F -> In v F ->
    hok E false 0 t -> hok E false 0 v -> hkids t <> [] -> hkids v <> [] ->
    near dl fa (hlab t) -> near dl fb (hlab v) -> fa <= fb -> hlab t <= hlab v.
  Proof.
    intros HP It Iv. apply (labels_order D n E false dl); auto; apply (part_incl _ _ _ HP); apply in_map; auto.
  Qed.

  Theorem f_psp_loop_ok : forall fuel q F,
    Forall2 qrelf q F -> qsorted q -> q <> [] -> is_partition (seq 0 n) (map hset F) ->
    (forall t, In t F -> hok E false 0 t) -> (inners F < fuel)%nat ->
    exists fs lams P Ps, psp_loop fuel sf q = Ok (fs, P :: Ps) /\
      Permutation P (map hset F) /\ steps Qle F lams Ps /\ Forall2 (near dl) fs lams.
  Proof.
    assert (Hnd := seq_NoDup n 0).
    induction fuel as [|fuel IH]; intros q F HF HS Hq HP HO Hfuel; [lia|].
    assert (HPr : Permutation (fold_left (fun P pr => padd (Kat sf (fst pr)) P) q []) (map hset F)).
    { rewrite (fold_left_map (fun P B => padd B P) (fun pr => Kat sf (fst pr)) q []).
      assert (EQ : map (fun pr : nat * dbl => Kat sf (fst pr)) q = map hset F).
      { clear -HF Hsim. induction HF as [|x t q F [H1 _] _ IH]; simpl; auto. rewrite IH.
        apply trep_inv in H1. destruct H1 as (_ & K & _). rewrite (sim_Kat _ _ _ _ _ Hsim), K. auto. }
      rewrite EQ. rewrite fold_padd_perm; auto. simpl. eapply parts_distinct; eauto. }
    destruct (Forall2_last _ _ _ HF Hq) as (q0 & [w d] & F0 & t & -> & -> & HF0 & Hut & Hd).
    simpl in Hut, Hd.
    assert (SS := ssorted_app_last _ _ _ HS). destruct SS as [S1 S2].
    assert (HPm : Permutation (F0 ++ [t]) ([t] ++ F0)) by apply Permutation_app_comm.
    cbn [psp_loop]. destruct (q0 ++ [(w, d)]) as [|x0 qq] eqn:Eqq; [destruct q0; discriminate|].
    rewrite <- Eqq. rewrite last_last, removelast_last. rewrite <- Eqq in *. clear Eqq x0 qq.
    assert (HF' : forall v, In v F0 -> hkids v = [] \/ (hkids v <> [] /\ exists y f, In y q0 /\ snd y = Fin f /\ near dl f (hlab v))).
    { intros v Hv. destruct (Forall2_In_r _ _ _ v HF0 Hv) as (y & Y1 & _ & Y2).
      unfold qlab in Y2. destruct (hkids v) as [|k ks]; auto. right. split; [discriminate|].
      destruct (snd y) as [f| |] eqn:Ey; simpl in Y2; try contradiction. exists y, f. auto. }
    unfold qlab in Hd. destruct (hkids t) as [|k0 ks] eqn:Hk.
    - destruct d as [f| |]; simpl in Hd; try contradiction.
      eexists [], [], _, []. split; [reflexivity|]. split; auto. split; [|constructor]. apply steps_done.
      intros v Hv. apply in_app_or in Hv. destruct Hv as [Hv|[<-|[]]]; auto.
      destruct (HF' v Hv) as [K|(_ & y & f & Y1 & Y2 & _)]; auto. exfalso.
      assert (K := S2 y Y1). rewrite Y2 in K. simpl in K. discriminate.
    - destruct d as [f| |]; simpl in Hd; try contradiction.
      assert (Hne : hkids t <> []) by (rewrite Hk; discriminate). clear Hk.
      assert (Ht : hok E false 0 t) by (apply HO; apply in_or_app; right; left; auto).
      assert (LF : forall v, In v F0 -> lab_above false (hlab t) v).
      { intros v Hv. destruct (HF' v Hv) as [K|(K0 & y & fy & Y1 & Y2 & Y3)]; [left; auto|right].
        assert (K := S2 y Y1). rewrite Y2 in K. simpl in K. apply Qltb_false in K.
        apply (label_order (F0 ++ [t]) t v f fy HP); auto.
        - apply in_or_app. right; left; auto.
        - apply in_or_app; auto.
        - apply HO. apply in_or_app; auto. }
      destruct t as [X g ts]. simpl in Hne, LF. cbn [hlab] in Hd.
      destruct (hok_kids E false 0 X g ts Ht Hne) as (L2 & HPX & HOs & HLs).
      apply trep_inv in Hut. destruct Hut as (_ & _ & Hkids & _). simpl in Hkids.
      destruct (fold_insert_relf _ _ Hkids q0 F0 HF0 S1) as (F2 & A1 & A2 & A3).
      rewrite (si_ch _ _ _ _ _ Hsim).
      set (q' := fold_left _ (pch sx w) q0) in *.
      assert (P0 : is_partition (seq 0 n) (X :: map hset F0)).
      { eapply part_perm; [|exact HP]. apply (perm_map_hset _ _ HPm). }
      assert (P1 : is_partition (seq 0 n) (map hset (ts ++ F0))).
      { rewrite map_app. apply (expand_part (seq 0 n) (map hset F0) X); auto. }
      assert (P2 : is_partition (seq 0 n) (map hset F2)).
      { eapply part_perm; [|exact P1]. apply perm_map_hset. symmetry. auto. }
      assert (HO2 : forall v, In v F2 -> hok E false 0 v).
      { intros v Hv. apply (Permutation_in v A2) in Hv. apply in_app_or in Hv.
        destruct Hv as [Hv|Hv]; auto. apply HO. apply in_or_app; auto. }
      assert (IN : (inners F2 < fuel)%nat).
      { rewrite (inners_perm _ _ A2), inners_app. rewrite (inners_perm _ _ HPm) in Hfuel.
        assert (IN : inners ([HT X g ts] ++ F0) = (inner (HT X g ts) + inners F0)%nat) by reflexivity.
        rewrite IN, inner_node in Hfuel by auto. lia. }
      destruct (IH q' F2 A1 A3) as (fs & lams & P & Ps & B1 & B2 & B3 & B4); auto.
      { intro C. rewrite C in A1. inversion A1; subst. apply Permutation_nil in A2.
        destruct ts; [congruence|discriminate]. }
      rewrite B1. cbn [bind fst snd].
      eexists (f :: fs), (g :: lams), _, (P :: Ps). split; [reflexivity|]. split; auto. split; [|constructor; auto].
      apply (steps_pop Qle (F0 ++ [HT X g ts]) [HT X g ts] F0 g F2 P); auto.
      + discriminate.
      + intros v [<-|[]]. split; auto. reflexivity.
      + simpl. rewrite app_nil_r. auto.
      + intros v Hv. apply (Permutation_in v A2) in Hv. apply in_app_or in Hv. destruct Hv as [Hv|Hv].
        * destruct (HLs v Hv) as [K|K]; auto.
        * apply (LF v Hv).
  Qed.
End Loop.

Section Run.
  Variable u : Q.
  Variable o : fops.
  Variable it : graph -> graph.
  Variable mc : solver.
  Variable d : Q.
  Variable n : nat.
  Variable E : graph.
  Variable rw : arc -> Q.
  Variable W : Q.
  Variable eps : Q.
  Variable D : positive.
  Hypothesis Hu : 0 <= u.
  Hypothesis Ho : std_model u o.
  Hypothesis Hit : forall F, graph_on (seq 0 n) F -> Permutation (it F) F.
  Hypothesis Hd : 0 <= d.
  Hypothesis Hmc : ApproxCutSpec d n mc.
  Hypothesis Hn2 : (2 <= n)%nat.
  Hypothesis HE : graph_on (seq 0 n) E.
  Hypothesis Hs : simple E.
  Hypothesis Hf : forward E.
  Hypothesis Hpos : forall a, In a E -> 0 < aw a.
  Hypothesis Hr : forall a, In a E -> Qabs (rw a - aw a) <= u * aw a.
  Hypothesis HW : total E <= W.
  Hypothesis HW1 : 1 <= W.
  Hypothesis HD : multiples_of D E.
  Hypothesis Htol : fine_tol D n (2 * eps).
  Hypothesis Heps : 2 * qn n * d + 120 * NU3 (vu u n) n W < eps.

  Notation v := (vu u n).
  Notation dl := (dlt v n W).
  Let Hv : 0 <= v := vu_nonneg u n Hu.
  Let Ep : 0 < eps := eps_pos v d n W eps Hv Hd Hn2 HW1 Heps.
  Let HDe : 2 * eps * (Zpos D # 1) < 1 := tol_D v d n W eps D Hv Hd Hn2 HW1 Htol Heps.

  Lemma weights_eps : forall a, In a E -> eps <= aw a.
  Proof.
    intros a Ha. destruct (HD a Ha) as (z & Hz). assert (P := Hpos a Ha).
    set (DD := Zpos D # 1) in *. assert (HDD : 0 < DD) by reflexivity.
    assert (M : aw a * DD == inject_Z z).
    { rewrite Hz. unfold DD, Qeq, Qmult, inject_Z. simpl. lia. }
    assert (Z1 : 1 <= aw a * DD).
    { assert (K : 0 < aw a * DD) by (apply Qmult_lt_0_compat; auto). rewrite M in *.
      unfold Qlt, Qle, inject_Z in *. simpl in *. lia. }
    destruct (Qlt_le_dec (aw a) eps) as [C|C]; auto. exfalso.
    assert (0 < (eps - aw a) * DD) by (apply Qmult_lt_0_compat; lra).
    assert ((eps - aw a) * DD == eps * DD - aw a * DD) by ring.
    assert (0 < eps * DD) by (apply Qmult_lt_0_compat; lra). lra.
  Qed.

  Lemma dl_nonneg : 0 <= dl.
  Proof.
    unfold dlt, NU2, NU1. assert (Q0 := qn_nonneg n).
    assert (0 <= qn n * (qn n * (v * W))) by (repeat apply Qmult_le_0_compat; auto; lra). lra.
  Qed.

  Lemma dl_small : (2 * dl) * (Zpos D # 1) * ((qn n - 1) * (qn n - 1)) < 1.
  Proof.
    unfold fine_tol in Htol. set (DD := Zpos D # 1) in *. assert (HDD : 0 < DD) by reflexivity.
    assert (Dn := dl_nonneg). assert (N2 := N_two n Hn2).
    assert (nd : 0 <= qn n * d) by (apply Qmult_le_0_compat; auto using qn_nonneg).
    assert (K : dl * (8 * qn n) == 120 * NU3 v n W) by (unfold dlt, NU3; ring).
    assert (K2 : dl * (8 * qn n) < eps) by lra.
    set (m := qn n - 1) in *. assert (M1 : 1 <= m) by (unfold m; lra).
    assert (K3 : dl * m <= eps).
    { assert (0 <= dl * (8 * qn n - m)) by (apply Qmult_le_0_compat; auto; unfold m; lra).
      assert (dl * (8 * qn n - m) == dl * (8 * qn n) - dl * m) by ring. lra. }
    assert (0 <= (eps - dl * m) * (DD * m)) by (apply Qmult_le_0_compat; [lra|apply Qmult_le_0_compat; lra]).
    assert ((2 * dl) * DD * (m * m) == 2 * eps * DD * m - 2 * ((eps - dl * m) * (DD * m))) by ring. lra.
  Qed.

  Lemma start_sim : sim u n W (psp_init n (stored rw E)) (psp_init n E).
  Proof.
    constructor; try reflexivity.
    - intro c. cbn [psp_init plab lnear]. assert (K := dl_nonneg). split; lra.
    - split; [reflexivity|]. cbn [psp_init pG gnodes garcs]. rewrite seq_length.
      unfold stored. clear -Hr HE Hu. unfold gtol. rewrite Nat.sub_diag.
      change (qn (1 + 4 * 0)) with 1.
      assert (Hn : nonneg E) by exact (graph_on_nonneg _ _ HE). clear HE.
      induction E as [|a F IH]; simpl; constructor.
      + split; [reflexivity|]. split; [reflexivity|]. cbn [aw].
        assert (K := Hr a (or_introl eq_refl)). apply Qabs_Qle_condition in K.
        assert (0 <= aw a) by (apply Hn; left; auto).
        assert (0 <= u * aw a) by (apply Qmult_le_0_compat; auto). split; lra.
      + apply IH; intros b Hb; [apply Hr|apply Hn]; right; auto.
  Qed.

  Theorem f_psp_run_correct : exists fs lams Ps G,
    f_psp_run o it mc eps (stored rw E) n = Ok (mkOut fs Ps G) /\
    IsWeakPSP E (seq 0 n) lams Ps /\ slopes E lams Ps /\ Forall2 (near dl) fs lams /\
    hd_error Ps = Some [seq 0 n].
  Proof.
    assert (HP := start_pre E n Hn2 HE Hs Hf eps weights_eps false 0).
    destruct (f_psp_split_correct u o it mc d n W eps D E Hu Ho Hit Hd Hmc Hn2 HE HW HW1 HD Htol Heps
                (S n) (psp_init n (stored rw E)) (psp_init n E) 0 (fun x => x) (seq 0 n) (start_trees n) (total E + 1))
      as (sf & st & p' & g & ts & R1 & Rs & R2 & R3 & R4).
    { apply start_sim. }
    { unfold start_trees. rewrite rev_length, map_length, seq_length. lia. }
    { exact HP. }
    { apply start_rep; auto. }
    { simpl. lia. }
    { reflexivity. }
    destruct R2 as (Hok & _).
    assert (Hts : ts <> []).
    { intro C. subst ts. inversion Hok as [v' g' Q1|X' g' ts' S0 L2]; subst; [|simpl in L2; lia].
      destruct n as [|[|k]]; [lia|lia|discriminate]. }
    set (t := HT (seq 0 n) g ts) in *.
    assert (Hb : (inner t + 1 <= n)%nat).
    { assert (B := inner_bound _ _ _ _ Hok).
      assert (Z : length (hset t) = n) by apply seq_length. lia. }
    assert (Hch : exists a l f, pch st 0%nat = a :: l /\ plab sf a = Fin f /\ near dl f g).
    { apply trep_inv in R3. destruct R3 as (_ & _ & K1 & K2). simpl in K1, K2.
      destruct (pch st 0%nat) as [|a l]; [inversion K1; subst; congruence|].
      assert (K := si_lab _ _ _ _ _ Rs a). rewrite (K2 a (or_introl eq_refl)) in K.
      destruct (plab sf a) as [f| |] eqn:Ef; simpl in K; try contradiction.
      exists a, l, f. auto. }
    destruct Hch as (a & l & f & Ha & Hla & Hfg).
    destruct (f_psp_loop_ok u n W D E HD dl_nonneg dl_small sf st Rs (S (length (pK sf)))
                [(0%nat, Fin f)] [t]) as (fs & lams & P & Ps & L1 & L2 & L3 & L4).
    { constructor; [|constructor]. split; auto. simpl. unfold qlab. simpl.
      destruct ts; [congruence|auto]. }
    { constructor; constructor. }
    { discriminate. }
    { simpl. apply one_block_part. destruct n; [lia|discriminate]. }
    { intros w [<-|[]]. auto. }
    { unfold inners. cbn [fold_right]. assert (L := Fr_len _ _ _ R4). rewrite (si_K _ _ _ _ _ Rs).
      assert (Z : length (pK (psp_init n E)) = S n).
      { cbn [psp_init pK length]. rewrite map_length, seq_length. reflexivity. }
      lia. }
    assert (EP : P = [seq 0 n]).
    { apply Permutation_length_1_inv. symmetry. exact L2. }
    subst P. exists fs, lams, ([seq 0 n] :: Ps), (pG sf). split; [|split; [|split; [|split; [auto|reflexivity]]]].
    - unfold f_psp_run. rewrite R1. cbn [bind]. rewrite (si_ch _ _ _ _ _ Rs), Ha, Hla, L1. reflexivity.
    - assert (T := tree_sequence (seq 0 n) E false 0 Qle t lams Ps (seq_NoDup n 0)
                 ltac:(destruct n; [lia|discriminate]) HE ltac:(lra)
                 ltac:(intros; lra) ltac:(auto) Hok eq_refl L3).
      apply near_0_full. eapply full_sequence_mono; [| |exact T]; auto.
    - apply (steps_slopes (seq 0 n) E false 0 Qle (seq_NoDup n 0) [t] lams Ps L3 [seq 0 n]).
      + simpl. apply one_block_part. destruct n; [lia|discriminate].
      + apply Permutation_refl.
      + intros w [<-|[]]. auto.
  Qed.
End Run.
