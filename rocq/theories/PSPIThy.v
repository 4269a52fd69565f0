(** * PSPIThy: correctness of PSP_I. *)
From Coq Require Import Sorted.
From Verif Require Import Base Spec MSets SetsThy PartThy SubThy MaxFlow CutThy MDil DilThy
  SeqThy MDT DTThy MContract ContractThy MPSPI TreeThy DecThy.

(** Tree node [c] of the class represents the cluster tree [t]. *)
Inductive trep (st : pst) : nat -> ht -> Prop :=
| trep_intro c t :
    (c < length (pK st))%nat -> Kat st c = hset t ->
    Forall2 (trep st) (pch st c) (hkids t) ->
    (forall d, In d (pch st c) -> plab st d = Fin (hlab t)) -> trep st c t.

Lemma trep_inv st c t : trep st c t ->
  (c < length (pK st))%nat /\ Kat st c = hset t /\ Forall2 (trep st) (pch st c) (hkids t) /\
  (forall d, In d (pch st c) -> plab st d = Fin (hlab t)).
Proof. intro H. inversion H; subst; auto. Qed.

Lemma Forall2_In_l {A B} (R : A -> B -> Prop) l m x :
  Forall2 R l m -> In x l -> exists y, In y m /\ R x y.
Proof.
  induction 1 as [|a b l m H1 H2 IH]; simpl; [tauto|]. intros [<-|H]; [eauto|].
  destruct (IH H) as (y & ? & ?). eauto.
Qed.

Lemma Forall2_In_r {A B} (R : A -> B -> Prop) l m y :
  Forall2 R l m -> In y m -> exists x, In x l /\ R x y.
Proof.
  induction 1 as [|a b l m H1 H2 IH]; simpl; [tauto|]. intros [<-|H]; [eauto|].
  destruct (IH H) as (x & ? & ?). eauto.
Qed.

Lemma Forall2_impl_in {A B} (R R' : A -> B -> Prop) l m :
  (forall x y, In x l -> In y m -> R x y -> R' x y) -> Forall2 R l m -> Forall2 R' l m.
Proof.
  intros H F. induction F as [|a b l m H1 H2 IH]; constructor.
  - apply H; auto; left; auto.
  - apply IH. intros. apply H; auto; right; auto.
Qed.

Lemma Forall2_rev {A B} (R : A -> B -> Prop) l m : Forall2 R l m -> Forall2 R (rev l) (rev m).
Proof.
  induction 1; simpl; [constructor|]. apply Forall2_app; auto.
Qed.

Lemma Forall2_filter {A B} (R : A -> B -> Prop) (p : A -> bool) (q : B -> bool) l m :
  Forall2 R l m -> (forall x y, In x l -> In y m -> R x y -> p x = q y) ->
  Forall2 R (filter p l) (filter q m).
Proof.
  induction 1 as [|a b l m H1 H2 IH]; simpl; intro H; [constructor|].
  rewrite (H a b) by auto. destruct (q b); auto.
Qed.

Lemma strict_block X L B :
  NoDup X -> is_partition X L -> (2 <= length L)%nat -> In B L -> ~ incl X B.
Proof.
  intros Hnd HL H2 HB Hi. destruct (in_split _ _ HB) as (l1 & l2 & ->).
  assert (Ex : exists C, In C (l1 ++ l2)).
  { rewrite app_length in H2. simpl in H2. destruct l1 as [|C l1]; [destruct l2 as [|C l2]; [simpl in H2; lia|]|];
      exists C; simpl; auto. }
  destruct Ex as (C & HC).
  assert (HC' : In C (l1 ++ B :: l2)).
  { apply in_app_or in HC. apply in_or_app. destruct HC; auto. right; right; auto. }
  destruct (part_nonempty X _ C HL HC') as (x & Hx).
  assert (XX := part_incl X _ C HL HC' x Hx).
  assert (ND := part_NoDup X Hnd _ HL).
  assert (PM := perm_concat _ _ (Permutation_middle l1 l2 B)).
  apply (Permutation_NoDup (Permutation_sym PM)) in ND. simpl in ND.
  apply NoDup_app_inv in ND. destruct ND as (_ & _ & ND). apply (ND x (Hi x XX)).
  apply in_concat. eauto.
Qed.

Lemma hok_kid_strict E s e X g ts u :
  hok E s e (HT X g ts) -> In u ts -> incl (hset u) X /\ ~ incl X (hset u).
Proof.
  intros H Hu. inversion H as [v g'|X' g' ts' S0 L2 HP H1 H3 HL HO]; subst; [destruct Hu|].
  split; [apply (part_incl X (map hset ts)); auto; apply in_map; auto|].
  apply (strict_block X (map hset ts)); auto.
  - apply csorted_NoDup; auto.
  - rewrite map_length; auto.
  - apply in_map; auto.
Qed.

(** A tree stays represented if nothing inside its node set is touched. *)
Lemma trep_frame E s e st st' t : hok E s e t -> forall c, trep st c t ->
  (length (pK st) <= length (pK st'))%nat ->
  (forall d, (d < length (pK st))%nat -> incl (Kat st d) (hset t) ->
     Kat st' d = Kat st d /\ pch st' d = pch st d) ->
  (forall d, (d < length (pK st))%nat -> incl (Kat st d) (hset t) -> ~ incl (hset t) (Kat st d) ->
     plab st' d = plab st d) ->
  trep st' c t.
Proof.
  induction t as [X g ts IH] using ht_ind'. intros Hok c Hc HL H1 H2. simpl hset in *.
  apply trep_inv in Hc. destruct Hc as (C1 & C2 & C3 & C4). simpl in C2, C3, C4.
  destruct (H1 c C1) as [K1 K2]; [rewrite C2; apply incl_refl|].
  constructor.
  - lia.
  - simpl. congruence.
  - simpl. rewrite K2. eapply Forall2_impl_in; [|exact C3]. intros d u Hd Hu Hdu.
    destruct (hok_kid_strict E s e X g ts u Hok Hu) as [I1 I2].
    rewrite Forall_forall in IH. apply (IH u Hu); auto.
    + destruct (hok_kids E s e X g ts Hok) as (_ & _ & K & _); auto.
      intro C. subst ts. destruct Hu.
    + intros d' D1 D2. apply H1; auto. eapply incl_tran; eauto.
    + intros d' D1 D2 D3. apply H2; auto.
      * eapply incl_tran; eauto.
      * intro C. apply D3. intros x Hx. apply C. apply I1. auto.
  - intros d Hd. simpl. rewrite K2 in Hd. rewrite <- (C4 d Hd).
    destruct (Forall2_In_l _ _ _ d C3 Hd) as (u & U1 & U2). apply trep_inv in U2.
    destruct U2 as (V1 & V2 & _). destruct (hok_kid_strict E s e X g ts u Hok U1) as [I1 I2].
    apply H2; auto; rewrite V2; auto.
Qed.

(** What a call split(i) may change. *)
Record Frame (st : pst) (i : nat) (st' : pst) : Prop := {
  Fr_len : (length (pK st) <= length (pK st'))%nat;
  Fr_K : forall c, (c < length (pK st))%nat -> Kat st' c = Kat st c;
  Fr_ch : forall c, (c < length (pK st))%nat -> c <> i -> pch st' c = pch st c;
  Fr_lab : forall c, (c < length (pK st))%nat -> ~ In c (pch st i) -> plab st' c = plab st c;
  Fr_kids : forall c, In c (pch st' i) -> In c (pch st i) \/ (length (pK st) <= c)%nat
}.

Lemma Frame_refl st i : Frame st i st.
Proof. constructor; auto. Qed.

Lemma Frame_trans st i st1 st2 : Frame st i st1 -> Frame st1 i st2 -> Frame st i st2.
Proof.
  intros [A1 A2 A3 A4 A5] [B1 B2 B3 B4 B5]. constructor.
  - lia.
  - intros c Hc. rewrite B2 by lia. auto.
  - intros c Hc Hi. rewrite B3 by (auto; lia). auto.
  - intros c Hc Hi. rewrite B4; [auto|lia|]. intro C. destruct (A5 c C); [auto|lia].
  - intros c Hc. destruct (B5 c Hc) as [K|K]; [auto|right; lia].
Qed.

Lemma reps_of_hrep st kids ts : Forall2 (trep st) kids ts -> reps_of st kids = map hrep ts.
Proof.
  unfold reps_of. induction 1 as [|c t l m H1 H2 IH]; simpl; auto. rewrite IH.
  apply trep_inv in H1. destruct H1 as (_ & H1 & _). unfold hrep. rewrite H1. reflexivity.
Qed.

Lemma Forall2_len {A B} (R : A -> B -> Prop) l m : Forall2 R l m -> length l = length m.
Proof. induction 1; simpl; auto. Qed.

Lemma K_ok_all E s e st kids ts :
  Forall2 (trep st) kids ts -> (forall t, In t ts -> hok E s e t) -> forallb (K_ok st) kids = true.
Proof.
  intros H Ho. apply forallb_forall. intros c Hc.
  destruct (Forall2_In_l _ _ _ c H Hc) as (t & T1 & T2). apply trep_inv in T2.
  destruct T2 as (V1 & V2 & _). unfold K_ok. apply andb_true_iff. split; [apply Nat.ltb_lt; auto|].
  apply negb_true_iff, Nat.eqb_neq. rewrite V2.
  assert (K := hok_nonempty E s e t (Ho t T1)). destruct (hset t); [congruence|simpl; lia].
Qed.

Section PSPI.
  Variable vs : list nat.
  Hypothesis Hvs : csorted vs.
  Variable E : graph.
  Hypothesis HE : graph_on vs E.
  Variable tr : Q -> graph -> list nat -> Q * list (list nat).
  Variable s : bool.
  Hypothesis Hms : s = true -> FinestSpec tr.
  Variable eps : Q.
  Hypothesis Heps : 0 < eps.
  Hypothesis Hmc : TruncSpec tr eps vs E.
  Variable e : Q.
  Hypothesis He : 0 <= e.
  Hypothesis Hgap : forall X Ps R g,
    incl X vs -> NoDup X -> is_partition X Ps -> is_partition X R -> (2 <= length Ps)%nat ->
    g * (qn (length Ps) - 1) == crossing (sub E X) Ps ->
    - g - eps <= hval (sub E X) g R -> - g - e <= hval (sub E X) g R.

  Let PreX := Pre vs E s eps e.
  Let PostX := Post vs E s eps e.

  (** Two disjoint non-empty sets are not nested. *)
  Lemma disjoint_not_incl (A B : list nat) :
    A <> [] -> (forall x, In x A -> ~ In x B) -> ~ incl A B.
  Proof. intros HA Hd Hi. destruct A as [|a A]; [congruence|]. apply (Hd a); [left|apply Hi; left]; auto. Qed.

  Lemma set_labels_trep st kids ts X l p beta :
    PreX (pG st) p X ts beta -> Forall2 (trep st) kids ts ->
    Forall2 (trep (set_labels st kids l)) kids ts.
  Proof.
    intros (_ & HT' & H2 & _ & _) HF.
    eapply Forall2_impl_in; [|exact HF]. intros c t Hc Ht Hct.
    apply (trep_frame E s e st _ t (T_hok _ _ _ _ _ _ _ HT' t Ht) c Hct); simpl; auto.
    intros d D1 D2 D3. destruct (mem kids d) eqn:M; auto. exfalso. apply mem_In in M.
    destruct (Forall2_In_l _ _ _ d HF M) as (u & U1 & U2). apply trep_inv in U2.
    destruct U2 as (_ & U2 & _).
    assert (Hne := hset_ne _ _ _ _ _ _ _ HT' u U1). rewrite U2 in D2, D3.
    assert (Hx := hd_In _ Hne).
    assert (EQ : hset u = hset t).
    { apply (part_unique X (map hset ts) _ _ (hd 0%nat (hset u))); try (apply in_map; auto); auto.
      - apply csorted_NoDup. apply (T_sorted _ _ _ _ _ _ _ HT').
      - apply (T_part _ _ _ _ _ _ _ HT'). }
    apply D3. rewrite <- EQ. apply incl_refl.
  Qed.

  Lemma trep_leaf st i ts X g p beta :
    PreX (pG st) p X ts beta -> Forall2 (trep st) (pch st i) ts ->
    (i < length (pK st))%nat -> Kat st i = X ->
    trep (set_labels st (pch st i) (Fin g)) i (HT X g ts) /\
    Frame st i (set_labels st (pch st i) (Fin g)).
  Proof.
    intros HP HF Hi HK. split.
    - constructor; auto.
      + simpl. eapply set_labels_trep; eauto.
      + intros d Hd. simpl in *. apply mem_In in Hd. rewrite Hd. reflexivity.
    - constructor; auto. intros c Hc Hn. simpl. apply mem_false in Hn. rewrite Hn. auto.
  Qed.

  (** Trees only depend on K, the children and the labels. *)
  Lemma trep_pG st G : forall t c, trep st c t -> trep (mkP G (pK st) (pch st) (plab st)) c t.
  Proof.
    induction t as [X g ts IH] using ht_ind'. intros c Hc. apply trep_inv in Hc.
    destruct Hc as (C1 & C2 & C3 & C4). constructor; auto. simpl in *.
    rewrite Forall_forall in IH. eapply Forall2_impl_in; [|exact C3]. auto.
  Qed.

  Lemma Kat_app st K c : (c < length (pK st))%nat -> nth c (pK st ++ K) [] = Kat st c.
  Proof. intro H. unfold Kat. apply app_nth1; auto. Qed.

  Lemma cinter_hit A S : negb (length (cinter A S) =? 0)%nat = true <-> exists x, In x A /\ In x S.
  Proof.
    rewrite negb_true_iff, Nat.eqb_neq. split.
    - intro H. destruct (cinter A S) as [|x l] eqn:C; [simpl in H; lia|].
      exists x. apply cinter_In. rewrite C. left; auto.
    - intros (x & Hx). apply cinter_In in Hx. destruct (cinter A S); [destruct Hx|simpl; lia].
  Qed.

  Lemma fold_union_In K S l x :
    In x (fold_left (fun acc (c : nat) => cunion acc (K c)) l S) <->
    In x S \/ exists c, In c l /\ In x (K c).
  Proof.
    revert S. induction l as [|a l IH]; intro S; simpl.
    - split; auto. intros [H|(c & [] & _)]; auto.
    - rewrite IH, cunion_In. split.
      + intros [[H|H]|(c & H1 & H2)]; eauto.
      + intros [H|(c & [<-|H1] & H2)]; eauto.
  Qed.

  Lemma fold_union_sorted K S l :
    csorted S -> (forall c, In c l -> csorted (K c)) ->
    csorted (fold_left (fun acc (c : nat) => cunion acc (K c)) l S).
  Proof.
    revert S. induction l as [|a l IH]; intros S HS HK; simpl; auto.
    apply IH; [|intros; apply HK; right; auto]. apply cunion_sorted. apply HK. left; auto.
  Qed.

  Section Step.
    Variables (st0 : pst) (i : nat) (p : nat -> nat) (X : list nat) (ts : list ht) (beta : Q).
    Hypothesis HP : PreX (pG st0) p X ts beta.
    Let P' := snd (lv_dil tr (pG st0) ts).
    Hypothesis Hlen : length P' <> 1%nat.
    Let FI := FInv vs E tr s eps e (pG st0) p X ts.

    Record Cur (st : pst) (tc : list ht) : Prop := {
      C_rep : Forall2 (trep st) (pch st i) tc;
      C_i : (i < length (pK st))%nat;
      C_K : Kat st i = X;
      C_fr : Frame st0 i st
    }.

    Lemma not_i st tc t Pd S Pr G1 q :
      FI Pd (S :: Pr) G1 q tc -> Kat st i = X -> In t tc -> ~ incl (Kat st i) (hset t).
    Proof.
      intros HF HK Ht. rewrite HK.
      assert (HTc := F_T _ _ _ _ _ _ _ _ _ _ _ _ _ _ _ HF).
      apply (strict_block X (map hset tc)).
      - apply csorted_NoDup. apply (T_sorted _ _ _ _ _ _ _ HTc).
      - apply (T_part _ _ _ _ _ _ _ HTc).
      - rewrite map_length. eapply lv_two; eauto.
      - apply in_map; auto.
    Qed.

    Lemma regroup_ok st tc Pd S Pr q :
      FI Pd (S :: Pr) (pG st) q tc -> Cur st tc -> length S <> 1%nat ->
      let st' := regroup st i S in
      let sn := length (pK st) in
      (sn < length (pK st'))%nat /\ Kat st' sn = lift p X S /\
      Forall2 (trep st') (pch st' sn) (rev (filter (fun t => mem S (hrep t)) tc)) /\
      (exists rest, pch st' i = sn :: rest /\ (forall c, In c rest -> In c (pch st i)) /\
         Forall2 (trep st') rest (filter (fun t => negb (mem S (hrep t))) tc)) /\
      Kat st' i = X /\ (i < length (pK st'))%nat /\ Frame st0 i st' /\ pG st' = pG st /\
      (forall c, In c (pch st' sn) -> In c (pch st i)).
    Proof.
      intros HF [C1 C2 C3 C4] HS1. cbv zeta.
      set (st' := regroup st i S). set (sn := length (pK st)).
      assert (HSP := lv_in _ _ _ _ _ _ _ _ _ _ _ _ _ _ _ _ HF).
      assert (HTc := F_T _ _ _ _ _ _ _ _ _ _ _ _ _ _ _ HF).
      set (hit := fun c => negb (length (cinter (Kat st c) S) =? 0)%nat).
      assert (Hhit : forall c t, In c (pch st i) -> In t tc -> trep st c t -> hit c = mem S (hrep t)).
      { intros c t Hc Ht Hct. apply trep_inv in Hct. destruct Hct as (_ & K & _).
        destruct (mem S (hrep t)) eqn:M.
        - apply cinter_hit. exists (hrep t). rewrite K. split; [|apply mem_In; auto].
          apply hd_In. eapply hok_nonempty. apply (T_hok _ _ _ _ _ _ _ HTc t Ht).
        - destruct (hit c) eqn:Hh; auto. apply cinter_hit in Hh. destruct Hh as (x & X1 & X2).
          rewrite K in X1. apply mem_false in M. exfalso. apply M.
          eapply (lv_hit vs E HE tr s eps Heps Hmc e (pG st0) p X ts beta HP); eauto. }
      assert (Hni : i <> sn) by (unfold sn; lia).
      assert (Hlen' : length (pK st') = (sn + 1)%nat).
      { unfold st', regroup. cbn [pK]. rewrite app_length. reflexivity. }
      assert (HK' : forall c, (c < sn)%nat -> Kat st' c = Kat st c).
      { intros c Hc. unfold st', regroup, Kat. cbn [pK]. apply app_nth1. auto. }
      assert (Hch : forall c, c <> i -> c <> sn -> pch st' c = pch st c).
      { intros c N1 N2. unfold st', regroup, upd. cbn [pch].
        apply Nat.eqb_neq in N1. rewrite N1. fold sn. apply Nat.eqb_neq in N2. rewrite N2. auto. }
      assert (Hchs : pch st' sn = rev (filter hit (pch st i))).
      { unfold st', regroup, upd. cbn [pch]. fold sn.
        assert (N : (sn =? i)%nat = false) by (apply Nat.eqb_neq; auto).
        rewrite N, Nat.eqb_refl. reflexivity. }
      assert (Hchi : pch st' i = sn :: filter (fun c => negb (hit c)) (pch st i)).
      { unfold st', regroup, upd. cbn [pch]. rewrite Nat.eqb_refl. reflexivity. }
      assert (Htr : forall c t, In t tc -> trep st c t -> trep st' c t).
      { intros c t Ht Hct. apply (trep_frame E s e st st' t (T_hok _ _ _ _ _ _ _ HTc t Ht) c Hct).
        - lia.
        - intros d D1 D2. split; [apply HK'; auto|]. apply Hch; [|unfold sn; lia].
          intro C. subst d. apply (not_i st tc t Pd S Pr (pG st) q HF C3 Ht). auto.
        - intros d _ _ _. reflexivity. }
      split; [lia|]. split; [|split; [|split; [|split; [|split; [|split; [|split]]]]]].
      - unfold st', regroup, Kat at 1. cbn [pK]. rewrite app_nth2 by (unfold sn; lia).
        unfold sn. rewrite Nat.sub_diag. cbn [nth].
        apply csorted_ext.
        + apply fold_union_sorted.
          * eapply lv_sorted; eauto.
          * intros c Hc. apply filter_In in Hc. destruct Hc as [Hc _].
            destruct (Forall2_In_l _ _ _ c C1 Hc) as (t & T1 & T2). apply trep_inv in T2.
            destruct T2 as (_ & T2 & _). rewrite T2. eapply hok_sorted.
            apply (T_hok _ _ _ _ _ _ _ HTc t T1).
        + destruct HP as (_ & HT0 & _). eapply lift_sorted; eauto.
        + intro x. rewrite fold_union_In. rewrite <- (lv_union vs E tr s eps e (pG st0) p X ts beta HP Pd S Pr (pG st) q tc x HF).
          rewrite in_concat. split.
          * intros [Hx|(c & Hc & Hx)].
            -- assert (K : In x (concat (map hset (filter (fun t => mem S (hrep t)) tc)))).
               { eapply lv_union; eauto. apply lift_In.
                 destruct (lv_reps vs E HE tr s eps Heps Hmc e (pG st0) p X ts beta HP S x HSP Hx) as (A1 & A2 & _).
                 rewrite A2. auto. }
               apply in_concat in K. auto.
            -- apply filter_In in Hc. destruct Hc as [Hc Hh].
               destruct (Forall2_In_l _ _ _ c C1 Hc) as (t & T1 & T2). exists (hset t).
               assert (T3 := T2). apply trep_inv in T2. destruct T2 as (_ & T2 & _).
               rewrite T2 in Hx. split; auto. apply in_map. apply filter_In. split; auto.
               rewrite <- (Hhit c t Hc T1 T3). auto.
          * intros (B & B1 & B2). apply in_map_iff in B1. destruct B1 as (t & <- & Ht).
            apply filter_In in Ht. destruct Ht as [T1 T2].
            destruct (Forall2_In_r _ _ _ t C1 T1) as (c & K1 & K2). right. exists c. split.
            -- apply filter_In. split; auto. fold hit. change (hit c = true). rewrite (Hhit c t); auto.
            -- apply trep_inv in K2. destruct K2 as (_ & K2 & _). rewrite K2. auto.
      - rewrite Hchs. apply Forall2_rev. eapply Forall2_impl_in; [|apply (Forall2_filter _ hit (fun t => mem S (hrep t)) _ _ C1 Hhit)].
        intros c t _ Ht. apply filter_In in Ht. apply Htr. tauto.
      - exists (filter (fun c => negb (hit c)) (pch st i)). split; auto. split.
        + intros c Hc. apply filter_In in Hc. tauto.
        + eapply Forall2_impl_in; [|apply (Forall2_filter _ (fun c => negb (hit c)) (fun t => negb (mem S (hrep t))) _ _ C1)].
          * intros c t _ Ht. apply filter_In in Ht. apply Htr. tauto.
          * intros c t A1 A2 A3. rewrite (Hhit c t); auto.
      - rewrite HK'; auto.
      - unfold sn in *. lia.
      - destruct C4 as [F1 F2 F3 F4 F5]. constructor.
        + unfold sn in *. lia.
        + intros c Hc. rewrite HK' by (unfold sn; lia). auto.
        + intros c Hc N. rewrite Hch; auto. unfold sn. lia.
        + intros c Hc N. change (plab st' c) with (plab st c). auto.
        + intros c Hc. rewrite Hchi in Hc. destruct Hc as [<-|Hc]; [right; unfold sn; lia|].
          apply filter_In in Hc. apply F5. tauto.
      - reflexivity.
      - intros c Hc. rewrite Hchs in Hc. apply in_rev in Hc. apply filter_In in Hc. tauto.
    Qed.
  End Step.

End PSPI.

Section Split.
  Variable vs : list nat.
  Hypothesis Hvs : csorted vs.
  Variable E : graph.
  Hypothesis HE : graph_on vs E.
  Variable mc : solver.
  Variable s : bool.
  Hypothesis Hms : s = true -> MinSinkCutSpec mc.
  Variable eps : Q.
  Hypothesis Heps : 0 < eps.
  Hypothesis Hmc : TruncSpec (dil_run mc) eps vs E.
  Variable e : Q.
  Hypothesis He : 0 <= e.
  Hypothesis Hgap : forall X Ps R g,
    incl X vs -> NoDup X -> is_partition X Ps -> is_partition X R -> (2 <= length Ps)%nat ->
    g * (qn (length Ps) - 1) == crossing (sub E X) Ps ->
    - g - eps <= hval (sub E X) g R -> - g - e <= hval (sub E X) g R.

  Let PreX := Pre vs E s eps e.
  Let PostX := Post vs E s eps e.

  Theorem psp_split_correct : forall fuel st i p X ts beta,
    (length ts <= fuel)%nat -> PreX (pG st) p X ts beta -> Forall2 (trep st) (pch st i) ts ->
    (i < length (pK st))%nat -> Kat st i = X ->
    exists st' p' g ts', psp_split fuel mc eps st i = Ok st' /\
      PostX p X ts beta (pG st') p' g ts' /\ trep st' i (HT X g ts') /\ Frame st i st'.
  Proof.
    induction fuel as [|fuel IH]; intros st i p X ts beta Hfuel HP HF Hi HK.
    - destruct HP as (_ & _ & H2 & _). lia.
    - assert (H2 : (2 <= length ts)%nat) by apply HP.
      assert (Hhok : forall t, In t ts -> hok E s e t) by (apply (T_hok _ _ _ _ _ _ _ (proj1 (proj2 HP)))).
      assert (Leaf : (length ts = 2%nat \/ length (snd (lv_dil (dil_run mc) (pG st) ts)) = 1%nat \/
          length (snd (lv_dil (dil_run mc) (pG st) ts)) = length ts \/
          - lv_gamma (pG st) ts - eps <= fst (lv_dil (dil_run mc) (pG st) ts)) ->
        exists st' p' g ts', Ok (set_labels st (pch st i) (Fin (lv_gamma (pG st) ts))) = Ok st' /\
          PostX p X ts beta (pG st') p' g ts' /\ trep st' i (HT X g ts') /\ Frame st i st').
      { intro Hc. destruct (trep_leaf vs E s eps e st i ts X (lv_gamma (pG st) ts) p beta HP HF Hi HK) as [A1 A2].
        eexists _, p, _, ts. split; [reflexivity|]. split; [|split; eauto].
        apply (lv_leaf vs E HE (dil_run mc) s eps Heps Hmc e Hgap (pG st) p X ts beta HP Hc). }
      cbn [psp_split]. rewrite (K_ok_all E s e st _ ts HF Hhok). cbn [negb].
      rewrite (reps_of_hrep st _ ts HF), (Forall2_len _ _ _ HF).
      fold (lv_sub (pG st) ts). fold (lv_gamma (pG st) ts).
      change (dil_run mc (lv_gamma (pG st) ts) (lv_sub (pG st) ts) (enabled (pG st) (map hrep ts)))
        with (lv_dil (dil_run mc) (pG st) ts).
      destruct (length ts) as [|[|k]] eqn:Ek; [lia|lia|].
      set (gm := lv_gamma (pG st) ts) in *.
      destruct (S (S k) =? 2)%nat eqn:K2.
      { apply Nat.eqb_eq in K2. apply Leaf. auto. }
      destruct (negb (negb (length (snd (lv_dil (dil_run mc) (pG st) ts)) =? 1)%nat &&
                      negb (length (snd (lv_dil (dil_run mc) (pG st) ts)) =? S (S k))%nat &&
                      Qltb (fst (lv_dil (dil_run mc) (pG st) ts)) (- gm - eps))) eqn:Hc.
      { apply Leaf. rewrite negb_true_iff in Hc.
        apply andb_false_iff in Hc. destruct Hc as [Hc|Hc].
        - apply andb_false_iff in Hc. destruct Hc as [Hc|Hc]; apply negb_false_iff, Nat.eqb_eq in Hc; auto.
        - apply Qltb_false in Hc. auto. }
      clear Leaf. apply negb_false_iff, andb_true_iff in Hc. destruct Hc as [Hc _].
      apply andb_true_iff in Hc. destruct Hc as [Hc1 Hc2].
      apply negb_true_iff, Nat.eqb_neq in Hc1. apply negb_true_iff, Nat.eqb_neq in Hc2.
      set (P' := snd (lv_dil (dil_run mc) (pG st) ts)) in *.
      set (body := fun (st : pst) (S : list nat) => _).
      assert (Hlen : length P' <> 1%nat) by auto.
      assert (Loop : forall Pr Pd st1 q tc, FInv vs E (dil_run mc) s eps e (pG st) p X ts Pd Pr (pG st1) q tc ->
        Cur st i X st1 tc ->
        exists st2 q2 tc2, foldm body Pr st1 = Ok st2 /\
          FInv vs E (dil_run mc) s eps e (pG st) p X ts P' [] (pG st2) q2 tc2 /\ Cur st i X st2 tc2).
      { induction Pr as [|S Pr IHl]; intros Pd st1 q tc HFI HC.
        - exists st1, q, tc. split; [reflexivity|]. split; auto.
          assert (K := F_split _ _ _ _ _ _ _ _ _ _ _ _ _ _ _ HFI).
          rewrite app_nil_r in K. subst Pd. exact HFI.
        - cbn [foldm]. unfold body at 1. cbv beta.
          destruct (length S =? 1)%nat eqn:LS.
          + apply Nat.eqb_eq in LS. cbn [bind].
            apply (IHl (Pd ++ [S]) st1 q tc); auto.
            eapply (lv_single vs E HE (dil_run mc) s eps Heps Hmc e (pG st) p X ts beta HP Hlen); eauto.
          + apply Nat.eqb_neq in LS.
            destruct (regroup_ok vs E HE (dil_run mc) s eps Heps Hmc e st i p X ts beta HP Hlen st1 tc Pd S Pr q HFI HC LS)
              as (A1 & A2 & A3 & (rest & A4 & A5 & A6) & A7 & A8 & A9 & A10 & A11).
            set (sn := length (pK st1)) in *. set (st2 := regroup st1 i S) in *.
            assert (HSP := lv_in _ _ _ _ _ _ _ _ _ _ _ _ _ _ _ _ HFI).
            assert (Pm : Permutation (filter (fun t => mem S (hrep t)) tc)
                           (rev (filter (fun t => mem S (hrep t)) tc))) by apply Permutation_rev.
            assert (HPre : PreX (pG st2) q (lift p X S) (rev (filter (fun t => mem S (hrep t)) tc)) beta).
            { rewrite A10. eapply Pre_perm; [exact Pm|].
              eapply (lv_pre vs E HE (dil_run mc) s eps Heps Hmc e (pG st) p X ts beta HP Hlen); eauto. }
            assert (Hsz : (length (rev (filter (fun t => mem S (hrep t)) tc)) <= fuel)%nat).
            { rewrite rev_length, (F_todo _ _ _ _ _ _ _ _ _ _ _ _ _ _ _ HFI S (or_introl eq_refl)).
              assert (K := lv_lt vs E HE (dil_run mc) s eps Heps Hmc e (pG st) p X ts beta HP Hlen S HSP).
              destruct HP as (H1 & HT0 & H2' & _).
              rewrite (moved_length vs E HE (dil_run mc) s eps Heps Hmc e (pG st) p H1 X ts HT0 H2' S HSP). lia. }
            destruct (IH st2 sn q (lift p X S) _ beta Hsz HPre A3 A1 A2)
              as (st3 & q3 & gs & ms & B1 & B2 & B3 & B4).
            rewrite B1. cbn [bind].
            assert (B2' := Post_perm vs E s eps e _ _ _ _ _ _ _ _ _ Pm B2).
            set (st4 := mkP (contract eps (pG st3) S (hd 0%nat S)) (pK st3) (pch st3) (plab st3)).
            assert (HFI' := lv_post vs E HE (dil_run mc) s (fun Es => finest_of_sink mc (Hms Es)) eps Heps Hmc e (pG st) p X ts beta HP Hlen
                       Pd S Pr (pG st1) q tc (pG st3) q3 gs ms HFI LS B2').
            change (contract eps (pG st3) S (hd 0%nat S)) with (pG st4) in HFI'.
            apply (IHl _ st4 _ _ HFI').
            assert (Hin : i <> sn) by (unfold sn; destruct HC as [_ C2 _ _]; lia).
            assert (Hi3 : pch st3 i = sn :: rest).
            { rewrite (Fr_ch _ _ _ B4) by auto. auto. }
            assert (HTc := F_T _ _ _ _ _ _ _ _ _ _ _ _ _ _ _ HFI).
            assert (HTc' := F_T _ _ _ _ _ _ _ _ _ _ _ _ _ _ _ HFI').
            constructor.
            * cbn [pch st4]. unfold st4. cbn [pch]. rewrite Hi3. constructor; [apply trep_pG; auto|].
              eapply Forall2_impl_in; [|exact A6]. intros c t Hc Ht Hct. apply trep_pG.
              assert (Ht' := Ht). apply filter_In in Ht'. destruct Ht' as [T1 T2].
              assert (Dj : forall x, In x (lift p X S) -> ~ In x (hset t)).
              { intros x X1 X2. apply negb_true_iff, mem_false in T2. apply T2.
                eapply Permutation_in in X1.
                - assert (PT := T_part _ _ _ _ _ _ _ HTc'). simpl in PT.
                  apply part_NoDup in PT; [|apply csorted_NoDup; apply (T_sorted _ _ _ _ _ _ _ HTc)].
                  simpl in PT. apply NoDup_app_inv in PT. destruct PT as (_ & _ & PT).
                  exfalso. apply (PT x X1). apply in_concat. exists (hset t). split; auto. apply in_map; auto.
                - apply Permutation_refl. }
              apply (trep_frame E s e st2 st3 t (T_hok _ _ _ _ _ _ _ HTc t T1) c Hct).
              -- apply (Fr_len _ _ _ B4).
              -- intros d D1 D2. split; [apply (Fr_K _ _ _ B4); auto|].
                 apply (Fr_ch _ _ _ B4); auto. intro C. subst d. rewrite A2 in D2.
                 apply (disjoint_not_incl (lift p X S) (hset t)); auto.
                 destruct (lv_hd vs E HE (dil_run mc) s eps Heps Hmc e (pG st) p X ts beta HP Hlen S HSP) as (_ & _ & K).
                 intro C. rewrite C in K. destruct K.
              -- intros d D1 D2 _. apply (Fr_lab _ _ _ B4); auto. intro C.
                 destruct (Forall2_In_l _ _ _ d A3 C) as (u & U1 & U2).
                 apply in_rev in U1. apply trep_inv in U2. destruct U2 as (_ & U2 & _).
                 rewrite U2 in D2.
                 assert (U3 := U1). apply filter_In in U3. destruct U3 as [U3 _].
                 assert (Hne : hset u <> []) by (eapply hok_nonempty; apply (T_hok _ _ _ _ _ _ _ HTc u U3)).
                 apply (Dj (hd 0%nat (hset u))).
                 ++ eapply lv_union; eauto. apply in_concat. exists (hset u).
                    split; [apply in_map; auto|apply hd_In; auto].
                 ++ apply D2. apply hd_In; auto.
            * unfold st4. cbn [pK]. assert (L := Fr_len _ _ _ B4). lia.
            * unfold st4. change (Kat st3 i = X). rewrite (Fr_K _ _ _ B4); auto.
            * destruct A9 as [F1 F2 F3 F4 F5]. destruct B4 as [G1 G2 G3 G4 G5].
              assert (L0 : (length (pK st) <= sn)%nat).
              { unfold sn. destruct HC as [_ _ _ [L _ _ _ _]]. auto. }
              unfold st4. constructor; cbn [pK pch plab].
              -- lia.
              -- intros c Hc. change (Kat st3 c = Kat st c). rewrite G2 by lia. auto.
              -- intros c Hc N. rewrite G3 by lia. auto.
              -- intros c Hc N. rewrite G4; [auto|lia|]. intro C. apply A11 in C.
                 destruct HC as [_ _ _ [_ _ _ _ K]]. destruct (K c C); [auto|lia].
              -- intros c Hc. rewrite Hi3 in Hc. destruct Hc as [<-|Hc]; [right; auto|].
                 apply A5 in Hc. destruct HC as [_ _ _ [_ _ _ _ K]]. apply K; auto. }
      destruct (Loop P' [] st p ts) as (st2 & q2 & tc2 & L1 & L2 & L3).
      { eapply (lv_start vs E HE (dil_run mc) s eps Heps Hmc e (pG st) p X ts beta HP); eauto. }
      { constructor; auto. apply Frame_refl. }
      rewrite L1. cbn [bind].
      destruct (lv_final_pre vs E HE (dil_run mc) s eps Heps Hmc e (pG st) p X ts beta HP Hlen (pG st2) q2 tc2 L2)
        as (M1 & M2 & M3 & M4).
      assert (Hle := lv_le vs E HE (dil_run mc) s eps Heps Hmc e (pG st) p X ts beta HP).
      fold P' in Hle, M2.
      destruct (IH st2 i q2 X tc2 (lv_gamma (pG st) ts)) as (st3 & q3 & g3 & ts3 & N1 & N2 & N3 & N4); auto.
      + lia.
      + apply (C_rep _ _ _ _ _ L3).
      + apply (C_i _ _ _ _ _ L3).
      + apply (C_K _ _ _ _ _ L3).
      + exists st3, q3, g3, ts3. split; auto. split; [|split; auto].
        * eapply (lv_final_post vs E HE (dil_run mc) s eps Heps Hmc e (pG st) p X ts beta HP Hlen); eauto.
        * eapply Frame_trans; [apply (C_fr _ _ _ _ _ L3)|auto].
  Qed.
End Split.
