(** * PSPILoop: from the tree built by PSP_I::split to the reported sequence. *)
From Coq Require Import Sorted.
From Verif Require Import Base Spec MSets SetsThy PartThy SubThy MaxFlow CutThy MDil DilThy
  SeqThy MDT DTThy PSPThy DTTop MContract ContractThy MPSPI TreeThy DecThy PSPIThy.

(** ** Sizes *)
Lemma inner_bound E s e : forall t, hok E s e t -> (inner t + 1 <= length (hset t))%nat.
Proof.
  induction t as [X g ts IH] using ht_ind'. intro H.
  inversion H as [v g'|X' g' ts' S0 L2 HP H1 H3 HL HO]; subst; [simpl; lia|].
  assert (Hne : ts <> []) by (destruct ts; [simpl in L2; lia|discriminate]).
  rewrite inner_node by auto. simpl hset.
  assert (LX : length X = length (concat (map hset ts))).
  { apply Permutation_length. symmetry. apply HP. }
  assert (B : (inners ts + length ts <= length (concat (map hset ts)))%nat).
  { clear -IH HO. induction ts as [|t ts IHt]; simpl; auto. rewrite app_length.
    inversion IH; subst. assert (K := H1 (HO t (or_introl eq_refl))).
    assert (K2 : (inners ts + length ts <= length (concat (map hset ts)))%nat).
    { apply IHt; auto. intros; apply HO; right; auto. }
    unfold inners in *. simpl. lia. }
  lia.
Qed.

(** ** Critical values are slopes *)
Lemma expand_many_slope vs E s e : NoDup vs -> forall G F' g,
  is_partition vs (map hset (G ++ F')) ->
  (forall t, In t G -> hok E s e t /\ hkids t <> [] /\ hlab t == g) ->
  is_partition vs (map hset (concat (map hkids G) ++ F')) /\
  g * (qn (length (concat (map hkids G) ++ F')) - qn (length (G ++ F'))) ==
  crossing E (map hset (concat (map hkids G) ++ F')) - crossing E (map hset (G ++ F')).
Proof.
  intros Hnd. induction G as [|[X q ts] G IH]; intros F' g HP HG.
  - simpl in *. split; auto. lra.
  - destruct (HG _ (or_introl eq_refl)) as (HO & Hne & Hq). simpl in Hne, Hq.
    inversion HO as [v g'|X' g' ts' S0 L2 HPX T1 T3 HL HOs]; subst; [simpl in Hne; congruence|].
    assert (HP' := HP). simpl in HP'.
    assert (P1 : is_partition vs (map hset (ts ++ G ++ F'))).
    { rewrite map_app. apply (expand_part vs (map hset (G ++ F')) X); auto. }
    assert (PP : Permutation (ts ++ G ++ F') (G ++ ts ++ F')).
    { rewrite !app_assoc. apply Permutation_app_tail. apply Permutation_app_comm. }
    assert (P2 : is_partition vs (map hset (G ++ ts ++ F'))).
    { eapply part_perm; [apply perm_map_hset; exact PP|auto]. }
    destruct (IH (ts ++ F') g P2) as [A1 A2].
    { intros t Ht. apply HG. right; auto. }
    assert (PQ : Permutation (concat (map hkids G) ++ ts ++ F') ((ts ++ concat (map hkids G)) ++ F')).
    { rewrite app_assoc. apply Permutation_app_tail. apply Permutation_app_comm. }
    simpl concat. cbn [hkids].
    split; [eapply part_perm; [apply perm_map_hset; exact PQ|auto]|].
    assert (C1 := same_partition_crossing E _ _ (same_partition_perm _ _ (perm_map_hset _ _ PQ))).
    assert (C2 := same_partition_crossing E _ _ (same_partition_perm _ _ (perm_map_hset _ _ PP))).
    assert (C3 := expand_crossing vs E (map hset (G ++ F')) X (map hset ts) Hnd HP' HPX).
    rewrite <- map_app in C3.
    assert (L1 := Permutation_length PQ). assert (L2' := Permutation_length PP).
    rewrite <- L1, <- C1. rewrite <- L2', <- C2 in A2.
    assert (EQ : map hset ((HT X q ts :: G) ++ F') = X :: map hset (G ++ F')) by reflexivity.
    rewrite EQ. assert (LQ : length ((HT X q ts :: G) ++ F') = S (length (G ++ F'))) by reflexivity.
    rewrite LQ, qn_S. rewrite (app_length ts (G ++ F')), qn_plus in A2.
    unfold hval in T1. rewrite map_length in T1.
    assert (T2 : crossing (sub E X) (map hset ts) == g * (qn (length ts) - 1)).
    { assert (Z : crossing (sub E X) (map hset ts) == q * qn (length ts) - q) by lra.
      rewrite Z, Hq. ring. }
    rewrite C3, T2 in A2.
    assert (Z : g * (qn (length (concat (map hkids G) ++ ts ++ F')) - (qn (length (G ++ F')) + 1)) ==
      g * (qn (length (concat (map hkids G) ++ ts ++ F')) - (qn (length ts) + qn (length (G ++ F'))))
      + g * (qn (length ts) - 1)) by ring.
    rewrite Z. lra.
Qed.

Lemma steps_slopes vs E s e (rel : Q -> Q -> Prop) : NoDup vs ->
  forall F lams Ps, steps rel F lams Ps -> forall P,
  is_partition vs (map hset F) -> Permutation P (map hset F) ->
  (forall t, In t F -> hok E s e t) -> slopes E lams (P :: Ps).
Proof.
  intro Hnd. induction 1 as [F HF|F G F' g F2 P2 lams Ps HF HG0 HG HF' HF2 HP2 HR Hst IH];
    intros P HP HPF HO.
  - constructor.
  - assert (HP' : is_partition vs (map hset (G ++ F'))).
    { eapply part_perm; [apply perm_map_hset; exact HF|auto]. }
    assert (HGF : forall t, In t (G ++ F') -> hok E s e t).
    { intros t Ht. apply HO. eapply Permutation_in; [symmetry; exact HF|auto]. }
    destruct (expand_many_slope vs E s e Hnd G F' g HP') as [A1 A2].
    { intros t Ht. split; [apply HGF; apply in_or_app; auto|auto]. }
    assert (HO2 : forall t, In t F2 -> hok E s e t).
    { intros t Ht. apply (Permutation_in t HF2) in Ht. apply in_app_or in Ht.
      destruct Ht as [Ht|Ht]; [|apply HGF; apply in_or_app; auto].
      apply in_concat in Ht. destruct Ht as (ks & K1 & K2). apply in_map_iff in K1.
      destruct K1 as ([X q ts] & <- & K3). simpl in K2.
      destruct (hok_kids E s e X q ts) as (_ & _ & K & _); auto.
      - apply HGF. apply in_or_app; auto.
      - destruct (HG _ K3). auto. }
    assert (PP : Permutation P (map hset (G ++ F'))).
    { rewrite HPF. apply perm_map_hset. auto. }
    assert (PP2 : Permutation P2 (map hset (concat (map hkids G) ++ F'))).
    { rewrite HP2. apply perm_map_hset. auto. }
    constructor.
    + rewrite (same_partition_crossing E _ _ (same_partition_perm _ _ PP)),
        (same_partition_crossing E _ _ (same_partition_perm _ _ PP2)).
      apply Permutation_length in PP, PP2. rewrite map_length in PP, PP2. rewrite PP, PP2. exact A2.
    + apply IH; auto. eapply part_perm; [|exact A1]. apply perm_map_hset. symmetry. auto.
Qed.

Lemma steps_count rel F lams Ps : steps rel F lams Ps -> length Ps = length lams.
Proof. induction 1; simpl; auto. Qed.

(** ** The work list *)
Definition qlab (t : ht) : dbl := match hkids t with [] => PInf | _ => Fin (hlab t) end.

Definition qrel (st : pst) (pr : nat * dbl) (t : ht) : Prop :=
  trep st (fst pr) t /\ snd pr = qlab t.

(** Decreasing order of the labels. *)
Definition qsorted (q : list (nat * dbl)) : Prop :=
  StronglySorted (fun a b => dltb (snd a) (snd b) = false) q.

Lemma lam_of_qlab st c t : trep st c t -> lam_of st c = qlab t.
Proof.
  intro H. apply trep_inv in H. destruct H as (_ & _ & H1 & H2). unfold lam_of, qlab.
  inversion H1; subst; auto. rewrite <- (H2 x); auto. rewrite <- H. left; auto.
Qed.

Definition isnan (d : dbl) : Prop := d = NaN.

Lemma dltb_trans a b c : ~ isnan b -> dltb a b = false -> dltb b c = false -> dltb a c = false.
Proof.
  unfold isnan. destruct a, b, c; simpl; auto; try discriminate; try congruence.
  intros _ H1 H2. apply Qltb_false in H1, H2. apply Qltb_false. lra.
Qed.

Lemma dltb_asym a b : dltb a b = true -> dltb b a = false.
Proof.
  destruct a, b; simpl; auto. intro H. apply Qltb_true in H. apply Qltb_false. lra.
Qed.

Lemma q_insert_perm x q : Permutation (q_insert x q) (x :: q).
Proof.
  induction q as [|y q IH]; simpl; auto. destruct (dltb (snd y) (snd x)); auto.
  rewrite IH. apply perm_swap.
Qed.

Lemma q_insert_sorted x q :
  ~ isnan (snd x) -> (forall y, In y q -> ~ isnan (snd y)) -> qsorted q -> qsorted (q_insert x q).
Proof.
  intros Hx. unfold qsorted. induction q as [|y q IH]; simpl; intros Hn H.
  - constructor; constructor.
  - inversion H as [|? ? H1 H2]; subst. destruct (dltb (snd y) (snd x)) eqn:D.
    + constructor; auto. constructor; [apply dltb_asym; auto|].
      eapply Forall_impl; [|exact H2]. simpl. intros z Hz. eapply dltb_trans; [| |exact Hz].
      * apply Hn; auto.
      * apply dltb_asym; auto.
    + constructor; [apply IH; auto|]. apply Forall_forall. intros z Hz.
      apply (Permutation_in z (q_insert_perm x q)) in Hz. destruct Hz as [<-|Hz]; auto.
      rewrite Forall_forall in H2. auto.
Qed.

Lemma q_insert_rel st x t : qrel st x t -> forall q F, Forall2 (qrel st) q F ->
  exists F', Forall2 (qrel st) (q_insert x q) F' /\ Permutation F' (t :: F).
Proof.
  intros Hx q F. induction 1 as [|y u q F H1 H2 (F' & I1 & I2)]; simpl.
  - exists [t]. split; auto.
  - destruct (dltb (snd y) (snd x)).
    + exists (t :: u :: F). split; auto.
    + exists (u :: F'). split; auto. rewrite I2. apply perm_swap.
Qed.

Lemma qrel_not_nan st q F : Forall2 (qrel st) q F -> forall y, In y q -> ~ isnan (snd y).
Proof.
  intros H y Hy. destruct (Forall2_In_l _ _ _ y H Hy) as (t & _ & _ & ->).
  unfold qlab, isnan. destruct (hkids t); discriminate.
Qed.

Lemma fold_insert_rel st : forall kids ts, Forall2 (trep st) kids ts -> forall q F,
  Forall2 (qrel st) q F -> qsorted q ->
  let q' := fold_left (fun q c => q_insert (c, lam_of st c) q) kids q in
  exists F', Forall2 (qrel st) q' F' /\ Permutation F' (ts ++ F) /\ qsorted q'.
Proof.
  intros kids ts. induction 1 as [|c t kids ts H1 H2 IH]; intros q F HF HS; simpl.
  - exists F. auto.
  - assert (R : qrel st (c, lam_of st c) t) by (split; simpl; auto using lam_of_qlab).
    destruct (q_insert_rel st _ t R q F HF) as (F1 & A1 & A2).
    destruct (IH _ F1 A1) as (F' & B1 & B2 & B3).
    { apply q_insert_sorted; auto.
      - destruct R as [_ ->]. unfold qlab, isnan. destruct (hkids t); discriminate.
      - eapply qrel_not_nan; eauto. }
    exists F'. split; auto. split; auto. rewrite B2, A2. symmetry. apply Permutation_middle.
Qed.

Lemma Forall2_last {A B} (R : A -> B -> Prop) q F :
  Forall2 R q F -> q <> [] -> exists q0 x F0 t,
    q = q0 ++ [x] /\ F = F0 ++ [t] /\ Forall2 R q0 F0 /\ R x t.
Proof.
  intros H Hq. destruct (exists_last Hq) as (q0 & x & ->).
  apply Forall2_app_inv_l in H. destruct H as (F0 & F1 & H1 & H2 & ->).
  inversion H2 as [|? t ? ? K1 K2]; subst. inversion K2; subst. exists q0, x, F0, t. auto.
Qed.

Lemma ssorted_app_last {A} (R : A -> A -> Prop) l x :
  StronglySorted R (l ++ [x]) -> StronglySorted R l /\ forall y, In y l -> R y x.
Proof.
  induction l as [|a l IH]; simpl; intro H.
  - split; [constructor|tauto].
  - inversion H as [|? ? H1 H2]; subst. destruct (IH H1) as [I1 I2].
    rewrite Forall_forall in H2. split.
    + constructor; auto. apply Forall_forall. intros y Hy. apply H2. apply in_or_app; auto.
    + intros y [<-|Hy]; auto. apply H2. apply in_or_app. right; left; auto.
Qed.

Lemma fold_padd_perm : forall L P : list (list nat), NoDup (P ++ L) ->
  Permutation (fold_left (fun P B => padd B P) L P) (P ++ L).
Proof.
  induction L as [|B L IH]; intros P H; simpl.
  - rewrite app_nil_r. auto.
  - assert (H' := NoDup_remove _ _ _ H). destruct H' as [H1 H2].
    assert (N : ~ In B P) by (intro C; apply H2; apply in_or_app; auto).
    assert (PB := padd_perm B P N). rewrite IH.
    + rewrite PB. simpl. apply Permutation_middle.
    + eapply Permutation_NoDup; [|exact H]. rewrite PB. simpl. symmetry. apply Permutation_middle.
Qed.

Lemma parts_distinct vs P : NoDup vs -> is_partition vs P -> NoDup P.
Proof.
  intros Hnd HP. assert (H := part_NoDup vs Hnd P HP). destruct HP as [_ Hne].
  induction P as [|B P IH]; constructor.
  - intro C. destruct B as [|x B]; [apply Hne; left; auto|].
    simpl in H. inversion H as [|? ? K _]; subst. apply K. apply in_or_app. right.
    apply in_concat. exists (x :: B). split; auto. left; auto.
  - simpl in H. apply NoDup_app_inv in H. destruct H as (_ & H & _).
    assert (~ In [] P) by (intro C; apply Hne; right; auto). auto.
Qed.

Lemma fold_left_map {A B C} (f : A -> B -> A) (h : C -> B) l a :
  fold_left (fun a c => f a (h c)) l a = fold_left f (map h l) a.
Proof. revert a. induction l; simpl; auto. Qed.

Theorem psp_loop_ok vs E s e st : NoDup vs -> forall fuel q F,
  Forall2 (qrel st) q F -> qsorted q -> q <> [] -> is_partition vs (map hset F) ->
  (forall t, In t F -> hok E s e t) -> (inners F < fuel)%nat ->
  exists lams P Ps, psp_loop fuel st q = Ok (lams, P :: Ps) /\
    Permutation P (map hset F) /\ steps Qle F lams Ps.
Proof.
  intros Hnd. induction fuel as [|fuel IH]; intros q F HF HS Hq HP HO Hfuel; [lia|].
  assert (HPr : Permutation (fold_left (fun P pr => padd (Kat st (fst pr)) P) q []) (map hset F)).
  { rewrite (fold_left_map (fun P B => padd B P) (fun pr => Kat st (fst pr)) q []).
    assert (EQ : map (fun pr : nat * dbl => Kat st (fst pr)) q = map hset F).
    { clear -HF. induction HF as [|x t q F [H1 _] _ IH]; simpl; auto. rewrite IH.
      apply trep_inv in H1. destruct H1 as (_ & -> & _). auto. }
    rewrite EQ. rewrite fold_padd_perm; auto. simpl. eapply parts_distinct; eauto. }
  destruct (Forall2_last _ _ _ HF Hq) as (q0 & [u d] & F0 & t & -> & -> & HF0 & Hut & Hd).
  simpl in Hut, Hd.
  assert (SS := ssorted_app_last _ _ _ HS). destruct SS as [S1 S2].
  assert (HPm : Permutation (F0 ++ [t]) ([t] ++ F0)) by apply Permutation_app_comm.
  cbn [psp_loop]. destruct (q0 ++ [(u, d)]) as [|x0 qq] eqn:Eqq; [destruct q0; discriminate|].
  rewrite <- Eqq. rewrite last_last, removelast_last. rewrite <- Eqq in *. clear Eqq x0 qq.
  assert (HF' : forall v, In v F0 -> hkids v = [] \/ exists y, In y q0 /\ snd y = Fin (hlab v)).
  { intros v Hv. destruct (Forall2_In_r _ _ _ v HF0 Hv) as (y & Y1 & _ & Y2).
    unfold qlab in Y2. destruct (hkids v); auto. right. eauto. }
  unfold qlab in Hd. destruct (hkids t) as [|k0 ks] eqn:Hk.
  - subst d. eexists [], _, []. split; [reflexivity|]. split; auto. apply steps_done.
    intros v Hv. apply in_app_or in Hv. destruct Hv as [Hv|[<-|[]]]; auto.
    destruct (HF' v Hv) as [K|(y & Y1 & Y2)]; auto. exfalso.
    assert (K := S2 y Y1). rewrite Y2 in K. simpl in K. discriminate.
  - subst d. assert (Hne : hkids t <> []) by (rewrite Hk; discriminate). clear Hk.
    assert (Ht : hok E s e t) by (apply HO; apply in_or_app; right; left; auto).
    destruct t as [X g ts]. simpl in Hne. cbn [hlab].
    destruct (hok_kids E s e X g ts Ht Hne) as (L2 & HPX & HOs & HLs).
    apply trep_inv in Hut. destruct Hut as (_ & _ & Hkids & _). simpl in Hkids.
    destruct (fold_insert_rel st _ _ Hkids q0 F0 HF0 S1) as (F2 & A1 & A2 & A3).
    set (q' := fold_left _ (pch st u) q0) in *.
    assert (P0 : is_partition vs (X :: map hset F0)).
    { eapply part_perm; [|exact HP]. apply (perm_map_hset _ _ HPm). }
    assert (P1 : is_partition vs (map hset (ts ++ F0))).
    { rewrite map_app. apply (expand_part vs (map hset F0) X); auto. }
    assert (P2 : is_partition vs (map hset F2)).
    { eapply part_perm; [|exact P1]. apply perm_map_hset. symmetry. auto. }
    assert (HO2 : forall v, In v F2 -> hok E s e v).
    { intros v Hv. apply (Permutation_in v A2) in Hv. apply in_app_or in Hv.
      destruct Hv as [Hv|Hv]; auto. apply HO. apply in_or_app; auto. }
    assert (LF : forall v, In v F0 -> lab_above false g v).
    { intros v Hv. destruct (HF' v Hv) as [K|(y & Y1 & Y2)]; [left; auto|right].
      assert (K := S2 y Y1). rewrite Y2 in K. simpl in K. apply Qltb_false in K. auto. }
    assert (IN : (inners F2 < fuel)%nat).
    { rewrite (inners_perm _ _ A2), inners_app. rewrite (inners_perm _ _ HPm) in Hfuel.
      assert (IN : inners ([HT X g ts] ++ F0) = (inner (HT X g ts) + inners F0)%nat) by reflexivity.
      rewrite IN, inner_node in Hfuel by auto. lia. }
    destruct (IH q' F2 A1 A3) as (lams & P & Ps & B1 & B2 & B3); auto.
    { intro C. rewrite C in A1. inversion A1; subst. apply Permutation_nil in A2.
      destruct ts; [congruence|discriminate]. }
    rewrite B1. cbn [bind fst snd].
    eexists (g :: lams), _, (P :: Ps). split; [reflexivity|]. split; auto.
    apply (steps_pop Qle (F0 ++ [HT X g ts]) [HT X g ts] F0 g F2 P); auto.
    + discriminate.
    + intros v [<-|[]]. split; auto. reflexivity.
    + simpl. rewrite app_nil_r. auto.
    + intros v Hv. apply (Permutation_in v A2) in Hv. apply in_app_or in Hv. destruct Hv as [Hv|Hv].
      * destruct (HLs v Hv) as [K|K]; auto.
      * apply (LF v Hv).
Qed.

(** ** The tolerance test *)
Lemma eps_gap_dec vs E eps : forall X Ps R g,
  incl X vs -> NoDup X -> is_partition X Ps -> is_partition X R -> (2 <= length Ps)%nat ->
  g * (qn (length Ps) - 1) == crossing (sub E X) Ps ->
  - g - eps <= hval (sub E X) g R -> - g - eps <= hval (sub E X) g R.
Proof. auto. Qed.

Lemma exact_gap_dec D E n eps :
  0 < eps -> multiples_of D E -> fine_tol D n eps -> forall X Ps R g,
  incl X (seq 0 n) -> NoDup X -> is_partition X Ps -> is_partition X R -> (2 <= length Ps)%nat ->
  g * (qn (length Ps) - 1) == crossing (sub E X) Ps ->
  - g - eps <= hval (sub E X) g R -> - g - 0 <= hval (sub E X) g R.
Proof.
  intros He HD Ht X Ps R g HX Hnd HP HR H2 Hg Hle. unfold fine_tol in Ht.
  assert (HD' : multiples_of D (sub E X)).
  { intros a Ha. apply filter_In in Ha. apply HD. tauto. }
  destruct (crossing_multiple D _ Ps HD') as (zp & Ep).
  destruct (crossing_multiple D _ R HD') as (zr & Er).
  set (d := qn (length Ps) - 1) in *.
  assert (Hd : 0 < d) by (apply qn_le in H2; unfold d; change (qn 2) with 2 in H2; lra).
  set (DD := Zpos D # 1) in *.
  assert (HDD : 0 < DD) by (unfold DD; reflexivity).
  assert (Hd2 : d <= qn n - 1).
  { assert (L := part_length_le _ Hnd Ps HP).
    assert (L2 := NoDup_incl_length Hnd HX). rewrite seq_length in L2.
    assert (L3 : (length Ps <= n)%nat) by lia. apply qn_le in L3. unfold d. lra. }
  assert (M : forall z, (z # D) * DD == inject_Z z).
  { intro z. unfold DD, Qeq, Qmult, inject_Z. simpl. lia. }
  set (x := hval (sub E X) g R + g).
  assert (Hx : x * (DD * d) ==
    inject_Z (zr * (Z.of_nat (length Ps) - 1) - zp * (Z.of_nat (length R) - 1))).
  { assert (X1 : x * (DD * d) == (crossing (sub E X) R * DD) * d
              - (g * d) * DD * (qn (length R) - 1)).
    { unfold x, hval. ring. }
    rewrite X1, Hg, Er, Ep, !M. unfold Z.sub.
    rewrite !inject_Z_plus, !inject_Z_opp, !inject_Z_mult, !inject_Z_plus.
    unfold d, qn. change (inject_Z (- (1))) with (- (1)). ring. }
  assert (0 <= x).
  { apply (multiple_gap _ x (DD * d) ltac:(apply Qmult_lt_0_compat; auto) Hx).
    assert (K1 : - eps <= x) by (unfold x; lra).
    assert (K2 : 0 <= (x + eps) * (DD * d)).
    { apply Qmult_le_0_compat; [lra|]. apply Qmult_le_0_compat; lra. }
    assert (K3 : 0 <= (eps * DD) * (qn n - 1 - d)).
    { apply Qmult_le_0_compat; [|lra]. apply Qmult_le_0_compat; lra. }
    assert (K4 : (x + eps) * (DD * d) == x * (DD * d) + eps * DD * d) by ring.
    assert (K5 : (eps * DD) * (qn n - 1 - d) == eps * DD * (qn n - 1) - eps * DD * d) by ring.
    lra. }
  unfold x in *. lra.
Qed.

Lemma filter_id {A} (p : A -> bool) l : (forall x, In x l -> p x = true) -> filter p l = l.
Proof.
  induction l as [|a l IH]; simpl; intro H; auto. rewrite (H a) by auto. f_equal. auto.
Qed.

(** ** Start of the recursion *)
Section Start.
  Variable E : graph.
  Variable n : nat.
  Hypothesis Hn : (2 <= n)%nat.
  Hypothesis HE : graph_on (seq 0 n) E.
  Hypothesis Hs : simple E.
  Hypothesis Hf : forward E.
  Variable eps : Q.
  Hypothesis Heps : 0 < eps.
  Hypothesis Hw : forall a, In a E -> eps <= aw a.
  Variable s : bool.
  Variable e : Q.

  Definition start_trees : list ht := rev (map hleaf (seq 0 n)).

  Lemma start_sets : Permutation (map hset start_trees) (singletons (seq 0 n)).
  Proof.
    unfold start_trees. rewrite map_rev. rewrite <- Permutation_rev. rewrite map_map. apply Permutation_refl.
  Qed.

  Lemma start_in t : In t start_trees <-> exists v, In v (seq 0 n) /\ t = hleaf v.
  Proof.
    unfold start_trees. rewrite <- in_rev, in_map_iff. split; intros (v & H1 & H2); eauto.
  Qed.

  Lemma start_pre :
    Pre (seq 0 n) E s eps e (mkG (seq 0 n) E) (fun x => x) (seq 0 n) start_trees (total E + 1).
  Proof.
    split; [|split; [|split; [|split]]].
    - constructor; simpl.
      + constructor; simpl; auto.
        * apply csorted_seq.
        * intros a Ha. destruct (HE a Ha) as (A1 & A2 & A3). repeat split; auto.
      + intros f Hf'. reflexivity.
      + intro v. split; [intro H; exists v; auto|]. intros (x & H & <-). auto.
      + intros x Hx. auto.
    - constructor.
      + apply csorted_seq.
      + apply incl_refl.
      + intros t Ht. apply start_in in Ht. destruct Ht as (v & _ & ->). constructor.
      + eapply part_perm; [symmetry; apply start_sets|]. apply singletons_part.
      + intros t x Ht Hx. apply start_in in Ht. destruct Ht as (v & _ & ->). unfold hrep. simpl.
        split; [intros [->|[]]; auto|intros ->; auto].
    - unfold start_trees. rewrite rev_length, map_length, seq_length. auto.
    - assert (ES : sub E (seq 0 n) = E).
      { unfold sub. apply filter_id. intros a Ha.
        destruct (HE a Ha) as (A1 & A2 & _). apply mem_In in A1, A2. rewrite A1, A2. auto. }
      rewrite ES. intros R HR _.
      rewrite (same_partition_hval (seq 0 n) (seq_NoDup n 0) E _ (map hset start_trees) (singletons (seq 0 n))).
      + destruct (singletons_optimal E n ltac:(lia) HE) as [_ K]. specialize (K R HR). lra.
      + eapply part_perm; [symmetry; apply start_sets|]. apply singletons_part.
      + apply singletons_part.
      + apply same_partition_perm. apply start_sets.
    - intros t Ht. apply start_in in Ht. destruct Ht as (v & _ & ->). left. reflexivity.
  Qed.

  Lemma start_rep : Forall2 (trep (psp_init n E)) (pch (psp_init n E) 0%nat) start_trees.
  Proof.
    cbn [psp_init pch]. rewrite Nat.eqb_refl. unfold start_trees. apply Forall2_rev.
    assert (G : forall k a, (a + k <= n)%nat ->
      Forall2 (trep (psp_init n E)) (seq (S a) k) (map hleaf (seq a k))).
    { induction k as [|k IH]; intros a Ha; simpl; constructor.
      - constructor.
        + simpl. rewrite map_length, seq_length. lia.
        + unfold Kat. cbn [psp_init pK nth]. rewrite (nth_indep _ [] [0%nat]) by (rewrite map_length, seq_length; lia).
          change [0%nat] with ((fun i => [i]) 0%nat). rewrite map_nth, seq_nth by lia. reflexivity.
        + simpl. constructor.
        + intros d [].
      - apply IH. lia. }
    apply (G n 0%nat). lia.
  Qed.
End Start.

Lemma psp_run_one mc eps E : graph_on (seq 0 1) E -> forward E ->
  psp_run mc eps E 1 = Ok (mkOut [] [[[0%nat]]] (mkG [0%nat] E)) /\ E = [].
Proof.
  intros HE Hf. destruct E as [|a E]; [split; reflexivity|].
  assert (H := HE a (or_introl eq_refl)). assert (H2 := Hf a (or_introl eq_refl)).
  simpl in H. lia.
Qed.

Section Run.
  Variable mc : solver.
  Variable eps : Q.
  Hypothesis Heps : 0 < eps.
  Variable E : graph.
  Variable n : nat.
  Hypothesis Hn : (1 <= n)%nat.
  Hypothesis HE : graph_on (seq 0 n) E.
  Hypothesis Ht : TruncSpec (dil_run mc) eps (seq 0 n) E.
  Hypothesis Hs : simple E.
  Hypothesis Hf : forward E.
  Hypothesis Hw : forall a, In a E -> eps <= aw a.
  Variable e : Q.
  Hypothesis He : 0 <= e.
  Hypothesis Hgap : forall X Ps R g,
    incl X (seq 0 n) -> NoDup X -> is_partition X Ps -> is_partition X R -> (2 <= length Ps)%nat ->
    g * (qn (length Ps) - 1) == crossing (sub E X) Ps ->
    - g - eps <= hval (sub E X) g R -> - g - e <= hval (sub E X) g R.

  Theorem psp_run_trunc : exists lams Ps G,
    psp_run mc eps E n = Ok (mkOut lams Ps G) /\
    IsNearPSP E (seq 0 n) (e * (qn n - 1)) lams Ps /\ slopes E lams Ps /\
    length Ps = S (length lams) /\ hd_error Ps = Some [seq 0 n].
  Proof.
    destruct (Nat.eq_dec n 1) as [->|Hn1].
    - destruct (psp_run_one mc eps E HE Hf) as [R ->]. exists [], [[[0%nat]]], (mkG [0%nat] []).
      split; [exact R|]. split; [|split; [constructor|split; reflexivity]].
      split; [apply same_partition_refl|]. split; [apply same_partition_refl|].
      simpl. intros lam _. split; [split; [apply Permutation_refl|intros [C|[]]; discriminate]|].
      intros R' HR. unfold hval, crossing. simpl.
      assert (L : length R' = 1%nat).
      { assert (A := part_length_le _ (seq_NoDup 1 0) R' HR). simpl in A.
        assert (B := part_length_pos _ (seq_NoDup 1 0) R' ltac:(discriminate) HR). lia. }
      rewrite L. assert (qn 1 == 1) by reflexivity.
      assert (e * (qn 1 - 1) == 0) by (rewrite H; ring). lra.
    - assert (Hn2 : (2 <= n)%nat) by lia.
      assert (HP := start_pre E n Hn2 HE Hs Hf eps Hw false e).
      destruct (psp_split_correct (seq 0 n) E HE mc false ltac:(discriminate) eps Heps Ht e Hgap
                  (S n) (psp_init n E) 0 (fun x => x) (seq 0 n) (start_trees n) (total E + 1))
        as (st & p' & g & ts & R1 & R2 & R3 & R4).
      { unfold start_trees. rewrite rev_length, map_length, seq_length. lia. }
      { exact HP. }
      { apply start_rep; auto. }
      { simpl. lia. }
      { reflexivity. }
      destruct R2 as (Hok & _).
      assert (Hts : ts <> []).
      { intro C. subst ts. inversion Hok as [v g' Q1|X' g' ts' S0 L2]; subst; [|simpl in L2; lia].
        destruct n as [|[|k]]; [lia|lia|discriminate]. }
      set (t := HT (seq 0 n) g ts) in *.
      assert (Hb : (inner t + 1 <= n)%nat).
      { assert (B := inner_bound _ _ _ _ Hok).
        assert (Z : length (hset t) = n) by apply seq_length. lia. }
      assert (Hch : exists a l, pch st 0%nat = a :: l /\ plab st a = Fin g).
      { apply trep_inv in R3. destruct R3 as (_ & _ & K1 & K2). simpl in K1, K2.
        destruct (pch st 0%nat) as [|a l]; [inversion K1; subst; congruence|].
        exists a, l. split; auto. apply K2. left; auto. }
      destruct Hch as (a & l & Ha & Hla).
      destruct (psp_loop_ok (seq 0 n) E false e st (seq_NoDup n 0) (S (length (pK st)))
                  [(0%nat, Fin g)] [t]) as (lams & P & Ps & L1 & L2 & L3).
      { constructor; [|constructor]. split; auto. simpl. unfold qlab. simpl.
        destruct ts; [congruence|auto]. }
      { constructor; constructor. }
      { discriminate. }
      { simpl. apply one_block_part. destruct n; [lia|discriminate]. }
      { intros u [<-|[]]. auto. }
      { unfold inners. cbn [fold_right]. assert (L := Fr_len _ _ _ R4).
        assert (Z : length (pK (psp_init n E)) = S n).
        { cbn [psp_init pK length]. rewrite map_length, seq_length. reflexivity. }
        lia. }
      assert (EP : P = [seq 0 n]).
      { apply Permutation_length_1_inv. symmetry. exact L2. }
      subst P. exists lams, ([seq 0 n] :: Ps), (pG st). split; [|split; [|split; [|split]]].
      + unfold psp_run, psp_run_from. rewrite R1. cbn [bind]. rewrite Ha, Hla, L1. reflexivity.
      + assert (T := tree_sequence (seq 0 n) E false e Qle t lams Ps (seq_NoDup n 0)
                   ltac:(destruct n; [lia|discriminate]) HE He
                   ltac:(intros; lra) ltac:(auto) Hok eq_refl L3).
        eapply full_sequence_mono; [| |exact T]; auto.
        intros lam P [A1 A2]. split; auto. intros R HR. specialize (A2 R HR).
        assert (K : e * qn (inner t) <= e * (qn n - 1)).
        { assert (Z : qn (inner t) + 1 <= qn n) by (rewrite <- qn_S; apply qn_le; lia).
          assert (0 <= e * (qn n - 1 - qn (inner t))) by (apply Qmult_le_0_compat; lra).
          assert (e * (qn n - 1 - qn (inner t)) == e * (qn n - 1) - e * qn (inner t)) by ring. lra. }
        lra.
      + apply (steps_slopes (seq 0 n) E false e Qle (seq_NoDup n 0) [t] lams Ps L3 [seq 0 n]).
        * simpl. apply one_block_part. destruct n; [lia|discriminate].
        * apply Permutation_refl.
        * intros u [<-|[]]. auto.
      + simpl. f_equal. eapply steps_count; eauto.
      + reflexivity.
  Qed.
End Run.

Theorem psp_run_correct mc : MinCutSpec mc -> forall eps, 0 < eps -> forall E n, (1 <= n)%nat ->
  graph_on (seq 0 n) E -> simple E -> forward E -> (forall a, In a E -> eps <= aw a) ->
  forall e, 0 <= e ->
  (forall X Ps R g,
    incl X (seq 0 n) -> NoDup X -> is_partition X Ps -> is_partition X R -> (2 <= length Ps)%nat ->
    g * (qn (length Ps) - 1) == crossing (sub E X) Ps ->
    - g - eps <= hval (sub E X) g R -> - g - e <= hval (sub E X) g R) ->
  exists lams Ps G,
    psp_run mc eps E n = Ok (mkOut lams Ps G) /\
    IsNearPSP E (seq 0 n) (e * (qn n - 1)) lams Ps /\ slopes E lams Ps /\
    length Ps = S (length lams) /\ hd_error Ps = Some [seq 0 n].
Proof.
  intros Hmc eps Heps E n Hn HE Hs Hf Hw e He Hgap.
  exact (psp_run_trunc mc eps Heps E n Hn HE (trunc_of_exact mc eps (seq 0 n) E Hmc) Hs Hf Hw e He Hgap).
Qed.
