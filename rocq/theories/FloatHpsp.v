(** * FloatHpsp: HPSP::split and run() in floating-point arithmetic, on graphs without ties. *)
From Coq Require Import Qabs Sorted.
From Verif Require Import Base Spec PartThy SubThy MSets SetsThy MGraph MaxFlow CutThy MDil DilThy BFThy
  MDT SeqThy DTThy PSPThy DTTop MContract ContractThy MPSPI MHPSP TreeThy DecThy PSPIThy PSPILoop HPSPThy HPSPLoop HPSPTop
  DilApprox ApproxThy MFloat FloatThy FloatDil FloatDT MFloatP FloatPsp FloatPspRun FloatPspLoop MFloatH.

(** [P] is best at [g] among the partitions of [X] that are coarser than [Ps]. *)
Definition best_coarse (E : graph) (X : list nat) (Ps : list (list nat)) (g : Q) (P : list (list nat)) : Prop :=
  is_partition X P /\ refines Ps P /\
  forall R, is_partition X R -> refines Ps R -> hval (sub E X) g P <= hval (sub E X) g R.

(** Where the average weight between the parts of [Ps] is not the best one can do, the best coarsening is unique. *)
Definition no_tie (n : nat) (E : graph) : Prop := forall X Ps g P R,
  NoDup X -> incl X (seq 0 n) -> is_partition X Ps -> (3 <= length Ps)%nat ->
  g * (qn (length Ps) - 1) == crossing (sub E X) Ps ->
  best_coarse E X Ps g P -> best_coarse E X Ps g R -> hval (sub E X) g P < - g -> refines P R.

(** [W] and [K] store the tree up to [dl]; [f] is the stored label of [t]. *)
Inductive encn (dl : Q) (W : nat -> dbl) (K : nat -> nat) : Q -> ht -> Prop :=
| encn_intro f t : near dl f (hlab t) ->
    (forall u, In u (hkids t) -> hrep u <> hrep t -> W (hrep u) = Fin f /\ K (hrep u) = hrep t) ->
    (forall u, In u (hkids t) -> exists fu, encn dl W K fu u) -> encn dl W K f t.

Lemma encn_inv dl W K f t : encn dl W K f t -> near dl f (hlab t) /\
  (forall u, In u (hkids t) -> hrep u <> hrep t -> W (hrep u) = Fin f /\ K (hrep u) = hrep t) /\
  (forall u, In u (hkids t) -> exists fu, encn dl W K fu u).
Proof. intro H. inversion H; subst; auto. Qed.

Lemma encn_frame dl E s e W K W' K' : forall t f, hok E s e t ->
  (forall c, In c (hset t) -> c <> hrep t -> W' c = W c /\ K' c = K c) ->
  encn dl W K f t -> encn dl W' K' f t.
Proof.
  induction t as [X g ts IH] using ht_ind'. intros f Hok HW He.
  apply encn_inv in He. destruct He as (A0 & A1 & A2). simpl in A0, A1, A2.
  assert (Hk : forall u, In u ts -> hok E s e u /\ incl (hset u) X).
  { intros u Hu. split; [|apply (hok_kid_strict E s e X g ts u Hok Hu)].
    destruct (hok_kids E s e X g ts Hok) as (_ & _ & H & _); auto. intro C. subst. destruct Hu. }
  assert (Hr : forall u, In u ts -> In (hrep u) (hset u)).
  { intros u Hu. apply hd_In. eapply hok_nonempty. apply Hk; auto. }
  constructor; simpl; auto.
  - intros u Hu Hn. destruct (HW (hrep u)) as [-> ->]; [|exact Hn|apply A1; auto].
    simpl. destruct (Hk u Hu) as [_ I]. apply I. auto.
  - intros u Hu. destruct (A2 u Hu) as (fu & Fu). exists fu. rewrite Forall_forall in IH.
    apply (IH u Hu); [apply Hk; auto| |auto].
    intros c Hc Hn. destruct (Hk u Hu) as [Ou I]. apply HW; [simpl; auto|].
    intro C. apply Hn. unfold hrep in C. simpl in C.
    assert (SX : csorted X) by (apply (hok_sorted E s e _ Hok)).
    assert (Su : csorted (hset u)) by (apply (hok_sorted E s e _ Ou)).
    assert (L1 := hd_sorted_min _ c Su Hc). assert (L2 := hd_sorted_min X (hrep u) SX (I _ (Hr u Hu))).
    unfold hrep in *. lia.
Qed.

(** ** The stored tree *)
Inductive trel (dl : Q) : ht -> ht -> Prop :=
| trel_intro X f g us ts : near dl f g -> Forall2 (trel dl) us ts -> trel dl (HT X f us) (HT X g ts).

Lemma trel_inv dl tf t : trel dl tf t -> hset tf = hset t /\ near dl (hlab tf) (hlab t) /\
  Forall2 (trel dl) (hkids tf) (hkids t).
Proof. intro H. inversion H; subst; simpl; auto. Qed.

Lemma encn_tree dl W K : forall t f, encn dl W K f t -> exists tf, trel dl tf t /\ hlab tf = f /\ enc W K tf.
Proof.
  induction t as [X g ts IH] using ht_ind'. intros f He.
  apply encn_inv in He. destruct He as (A0 & A1 & A2). cbn [hlab hkids] in A0, A1, A2.
  assert (B : exists us, Forall2 (trel dl) us ts /\ forall u, In u us -> enc W K u).
  { clear A1. revert IH A2. clear. induction ts as [|t ts IHt]; intros IH A2.
    - exists []. split; [constructor|intros u []].
    - inversion IH as [|? ? I1 I2]; subst.
      destruct (A2 t (or_introl eq_refl)) as (f & F). destruct (I1 f F) as (tf & T1 & _ & T3).
      destruct IHt as (us & U1 & U2); auto. { intros u Hu. apply A2. right; auto. }
      exists (tf :: us). split; [constructor; auto|]. intros u [<-|Hu]; auto. }
  destruct B as (us & U1 & U2). exists (HT X f us). split; [constructor; auto|]. split; [reflexivity|].
  constructor; cbn [hkids hlab]; auto.
  intros u Hu Hn. destruct (Forall2_In_l _ _ _ u U1 Hu) as (v & V1 & V2).
  apply trel_inv in V2. destruct V2 as (V2 & _). unfold hrep in *. rewrite V2 in *. simpl in *. apply A1; auto.
Qed.

Lemma trel_kids dl tf t : trel dl tf t -> (hkids tf = [] <-> hkids t = []).
Proof.
  intro H. apply trel_inv in H. destruct H as (_ & _ & H). inversion H; subst; split; auto; discriminate.
Qed.

Lemma trel_sets dl us ts : Forall2 (trel dl) us ts -> map hset us = map hset ts.
Proof.
  induction 1 as [|u t us ts H1 _ IH]; simpl; auto. apply trel_inv in H1. destruct H1 as (-> & _). congruence.
Qed.

Lemma sbt_trel dl w tf : sbt w tf -> forall t, trel dl tf t -> exists v, sbt v t /\ trel dl w v.
Proof.
  induction 1 as [tf|w u tf H1 H2 IH]; intros t Ht.
  - exists t. split; [constructor|auto].
  - assert (K := Ht). apply trel_inv in K. destruct K as (_ & _ & K).
    destruct (Forall2_In_l _ _ _ u K H1) as (v & V1 & V2). destruct (IH v V2) as (x & X1 & X2).
    exists x. split; auto. eapply sbt_step; eauto.
Qed.

Lemma sbt_hok_sub E s e w t : sbt w t -> hok E s e t -> hok E s e w /\ incl (hset w) (hset t).
Proof.
  induction 1 as [t|w u [X g ts] H1 H2 IH]; intro H; [split; [auto|apply incl_refl]|]. simpl in H1.
  destruct IH as [A B].
  { destruct (hok_kids E s e X g ts H) as (_ & _ & K & _); auto. intro C. subst. destruct H1. }
  split; auto. eapply incl_tran; [exact B|apply (hok_kid_strict E s e X g ts u H H1)].
Qed.

Section Stored.
  Variable D : positive.
  Variable n : nat.
  Variable E : graph.
  Variable dl : Q.
  Hypothesis HD : multiples_of D E.
  Hypothesis Hdl : 0 <= dl.
  Hypothesis Hsmall : (2 * dl) * (Zpos D # 1) * ((qn n - 1) * (qn n - 1)) < 1.

  Lemma hsh_stored : forall t tf, trel dl tf t -> hok E true 0 t -> incl (hset t) (seq 0 n) -> hsh true tf.
  Proof.
    induction t as [X g ts IH] using ht_ind'. intros tf Hr Hok Hin. rewrite Forall_forall in IH.
    inversion Hr as [X' f g' us ts' Nf HF]; subst.
    inversion Hok as [v g'|X' g' ts' S0 L2 HP H1 H3 HL HO]; subst.
    - inversion HF; subst. constructor.
    - assert (Len := Forall2_len _ _ _ HF).
      assert (Kin : forall u, In u ts -> incl (hset u) (seq 0 n)).
      { intros u Hu. eapply incl_tran; [|exact Hin]. apply (hok_kid_strict E true 0 X g ts u Hok Hu). }
      constructor; auto.
      + lia.
      + rewrite (trel_sets dl us ts HF). auto.
      + intros u Hu. destruct (Forall2_In_l _ _ _ u HF Hu) as (v & V1 & V2).
        destruct (HL v V1) as [K|K]; [left; apply (trel_kids dl u v V2); auto|].
        destruct (hkids v) as [|k ks] eqn:Ek; [left; apply (trel_kids dl u v V2); auto|]. right.
        simpl in K. apply trel_inv in V2. destruct V2 as (_ & Nu & _).
        destruct (Qlt_le_dec f (hlab u)) as [C|C]; auto. exfalso.
        assert (Q : hlab v <= g); [|lra].
        apply (labels_order D n E true dl v (HT X g ts) (hlab u) f HD Hdl Hsmall); auto.
        * rewrite Ek. discriminate.
        * cbn [hkids]. intro C2. subst ts. simpl in L2. lia.
      + intros u Hu. destruct (Forall2_In_l _ _ _ u HF Hu) as (v & V1 & V2). apply (IH v V1); auto.
  Qed.

  Lemma steps_stored : forall Ff fs Ps, steps Qlt Ff fs Ps -> forall F, Forall2 (trel dl) Ff F ->
    (forall t, In t F -> hok E true 0 t /\ incl (hset t) (seq 0 n)) ->
    exists lams, steps Qle F lams Ps /\ Forall2 (near dl) fs lams.
  Proof.
    induction 1 as [Ff HF0|Ff Gf Ff' f Ff2 P2 fs Ps HF HG0 HG HF' HF2 HP2 HR Hst IH]; intros F HR2 HO.
    - exists []. split; [|constructor]. apply steps_done. intros t Ht.
      destruct (Forall2_In_r _ _ _ t HR2 Ht) as (tf & T1 & T2). apply (trel_kids dl tf t T2); auto.
    - destruct (Permutation_Forall2 HF HR2) as (F1 & P1 & R1).
      apply Forall2_app_inv_l in R1. destruct R1 as (G & F' & RG & RF' & ->).
      assert (KR : Forall2 (trel dl) (concat (map hkids Gf) ++ Ff') (concat (map hkids G) ++ F')).
      { apply Forall2_app; auto. clear -RG. induction RG as [|a b l m H _ IH]; simpl; [constructor|].
        apply Forall2_app; auto. apply (trel_inv dl a b H). }
      destruct (Permutation_Forall2 (Permutation_sym HF2) KR) as (F2 & P3 & R3).
      assert (HO1 : forall t, In t (G ++ F') -> hok E true 0 t /\ incl (hset t) (seq 0 n)).
      { intros t Ht. apply HO. eapply Permutation_in; [symmetry; exact P1|auto]. }
      assert (HGx : forall t, In t G -> hkids t <> [] /\ near dl f (hlab t)).
      { intros t Ht. destruct (Forall2_In_r _ _ _ t RG Ht) as (tf & T1 & T2). destruct (HG tf T1) as [K1 K2].
        split; [intro C; apply K1; apply (trel_kids dl tf t T2); auto|].
        apply trel_inv in T2. destruct T2 as (_ & [N1 N2] & _). split; lra. }
      assert (HO2 : forall t, In t F2 -> hok E true 0 t /\ incl (hset t) (seq 0 n)).
      { intros t Ht. apply (Permutation_in t (Permutation_sym P3)) in Ht. apply in_app_or in Ht. destruct Ht as [Ht|Ht].
        - apply in_concat in Ht. destruct Ht as (l & L1 & L2). apply in_map_iff in L1. destruct L1 as ([X g ts] & <- & T1).
          simpl in L2. destruct (HO1 _ (in_or_app _ _ _ (or_introl T1))) as [O1 O2].
          destruct (hok_kids E true 0 X g ts O1) as (_ & _ & K & _); [intro C; subst; destruct L2|].
          split; auto. eapply incl_tran; [|exact O2]. apply (hok_kid_strict E true 0 X g ts t O1 L2).
        - apply HO1. apply in_or_app; auto. }
      destruct (IH F2 R3 HO2) as (lams & St & Nr).
      destruct G as [|t0 G0]; [inversion RG; subst; congruence|].
      assert (I0 : In t0 (t0 :: G0)) by (left; auto).
      destruct (HGx t0 I0) as [K0 N0]. destruct (HO1 t0 (in_or_app (t0 :: G0) F' t0 (or_introl I0))) as [Ok0 In0].
      exists (hlab t0 :: lams). split; [|constructor; auto].
      assert (Above : forall t fb, hok E true 0 t -> incl (hset t) (seq 0 n) -> hkids t <> [] -> near dl fb (hlab t) ->
        f <= fb -> hlab t0 <= hlab t).
      { intros t fb O1 O2 Kt Nt Hle.
        apply (labels_order D n E true dl t0 t f fb HD Hdl Hsmall In0 O2 Ok0 O1 K0 Kt N0 Nt Hle). }
      apply (steps_pop Qle F (t0 :: G0) F' (hlab t0) F2 P2); auto.
      + discriminate.
      + intros t Ht. destruct (HGx t Ht) as [Kt Nt]. destruct (HO1 t (in_or_app (t0 :: G0) F' t (or_introl Ht))) as [Okt Int].
        split; auto. apply Qle_antisym.
        * apply (labels_order D n E true dl t t0 f f HD Hdl Hsmall Int In0 Okt Ok0 Kt K0 Nt N0). lra.
        * apply (Above t f); auto. lra.
      + intros t Ht. destruct (Forall2_In_r _ _ _ t RF' Ht) as (tf & T1 & T2).
        destruct (HF' tf T1) as [K|K]; [left; apply (trel_kids dl tf t T2); auto|].
        destruct (hkids t) as [|k ks] eqn:Ek; [left; auto|]. right. simpl in *.
        destruct (HO1 t (in_or_app (t0 :: G0) F' t (or_intror Ht))) as [Okt Int].
        apply (Above t (hlab tf)); auto; [rewrite Ek; discriminate|apply (trel_inv dl tf t T2)].
      + apply Permutation_sym; auto.
      + rewrite <- (trel_sets dl Ff2 F2 R3). auto.
      + intros t Ht. destruct (Forall2_In_r _ _ _ t R3 Ht) as (tf & T1 & T2).
        destruct (HR tf T1) as [K|K]; [left; apply (trel_kids dl tf t T2); auto|].
        destruct (hkids t) as [|k ks] eqn:Ek; [left; auto|]. right.
        destruct (HO2 t Ht) as [Okt Int].
        apply (Above t (hlab tf)); auto; [rewrite Ek; discriminate|apply (trel_inv dl tf t T2)|lra].
  Qed.
End Stored.

Section Split.
  Variable u : Q.
  Variable o : fops.
  Variable it : graph -> graph.
  Variable mc : solver.
  Variable d : Q.
  Variable n : nat.
  Variable W : Q.
  Variable eps : Q.
  Variable D : positive.
  Variable E : graph.
  Hypothesis Hu : 0 <= u.
  Hypothesis Ho : std_model u o.
  Hypothesis Hit : forall F, graph_on (seq 0 n) F -> Permutation (it F) F.
  Hypothesis Hd : 0 <= d.
  Hypothesis Hmc : ApproxCutSpec d n mc.
  Hypothesis Hn2 : (2 <= n)%nat.
  Hypothesis HE : graph_on (seq 0 n) E.
  Hypothesis HW : total E <= W.
  Hypothesis HW1 : 1 <= W.
  Hypothesis HD : multiples_of D E.
  Hypothesis Htol : fine_tol D n (2 * eps).
  Notation v := (vu u n).
  Hypothesis Heps : 2 * qn n * d + 120 * NU3 v n W < eps.
  Hypothesis Htie : no_tie n E.

  Notation dl := (dlt v n W).
  Let Hv : 0 <= v := vu_nonneg u n Hu.
  Let Ep : 0 < eps := eps_pos v d n W eps Hv Hd Hn2 HW1 Heps.
  Let HDe : 2 * eps * (Zpos D # 1) < 1 := tol_D v d n W eps D Hv Hd Hn2 HW1 Htol Heps.
  Let Hvs : 16 * (qn n * u) <= 1 := vu_small u d n W eps D Hu Hd Hn2 HW1 Htol Heps.

  Let Hgap : forall X Ps R g,
    incl X (seq 0 n) -> NoDup X -> is_partition X Ps -> is_partition X R -> (2 <= length Ps)%nat ->
    g * (qn (length Ps) - 1) == crossing (sub E X) Ps ->
    - g - eps <= hval (sub E X) g R -> - g - 0 <= hval (sub E X) g R.
  Proof.
    apply (exact_gap_dec D E n eps Ep HD). unfold fine_tol in *. set (DD := Zpos D # 1) in *.
    assert (HDD : 0 < DD) by reflexivity. assert (N2 := N_two n Hn2).
    assert (0 <= eps * DD * (qn n - 1)) by (apply Qmult_le_0_compat; [apply Qmult_le_0_compat; lra|lra]). lra.
  Qed.

  Let PreX := Pre (seq 0 n) E true eps 0.
  Let PostX := Post (seq 0 n) E true eps 0.

  Lemma rep_alone G p X ts beta w t c :
    PreX G p X ts beta -> In w ts -> In t ts -> c = hrep w -> In c (hset t) -> c = hrep t.
  Proof.
    intros (_ & HT' & _) Hw Ht -> Hc.
    assert (Hx : In (hrep w) (seq 0 n)) by (apply (T_incl _ _ _ _ _ _ _ HT'); eapply hset_X; eauto).
    assert (A := proj1 (T_rep _ _ _ _ _ _ _ HT' t (hrep w) Ht Hx) Hc).
    rewrite <- A. symmetry. eapply hrep_fix; eauto.
  Qed.

  (** Without ties the truncation at a level that is split is the finest one. *)
  Lemma at_finest tr G p X ts beta : PreX G p X ts beta -> TruncSpec tr eps (seq 0 n) E -> (3 <= length ts)%nat ->
    hval (lv_sub G ts) (lv_gamma G ts) (snd (lv_dil tr G ts)) < - lv_gamma G ts ->
    forall R, optimal (lv_sub G ts) (enabled G (map hrep ts)) (lv_gamma G ts) R -> refines (snd (lv_dil tr G ts)) R.
  Proof.
    intros HP Htr H3 Hlt R [R1 R2]. destruct HP as (H1 & HT' & H2 & _).
    set (P := snd (lv_dil tr G ts)) in *. set (g := lv_gamma G ts) in *.
    set (R0 := enabled G (map hrep ts)) in *. set (sb := lv_sub G ts) in *.
    assert (A1 : graph_on R0 sb) by (eapply sb_on; eauto).
    assert (A2 : simple sb) by (eapply sb_simple; eauto).
    assert (A3 : ordered sb R0) by (eapply sb_ordered; eauto).
    assert (A4 : NoDup R0) by (eapply R0_NoDup; eauto).
    assert (Lp : optimal sb R0 g P).
    { apply (dil_facts (seq 0 n) E HE tr true eps Ep Htr 0 G p H1 X ts HT' H2). }
    assert (PP : is_partition R0 P) by apply Lp.
    assert (NX : NoDup X) by (apply csorted_NoDup; apply (T_sorted _ _ _ _ _ _ _ HT')).
    assert (Best : forall Z, optimal sb R0 g Z -> best_coarse E X (map hset ts) g (map (lift p X) Z)).
    { intros Z [Z1 Z2]. split; [eapply lift_part; eauto|]. split; [eapply lift_coarse; eauto|].
      intros Y Y1 Y2. rewrite <- (lift_hval (seq 0 n) E HE true eps 0 G p H1 X ts HT' g Z Z1).
      rewrite <- (drop_hval (seq 0 n) E HE true eps 0 G p H1 X ts HT' Y Y1 Y2 g).
      apply Z2. eapply drop_part; eauto. }
    assert (K : refines (map (lift p X) P) (map (lift p X) R)).
    { apply (Htie X (map hset ts) g); auto.
      - apply (T_incl _ _ _ _ _ _ _ HT').
      - apply (T_part _ _ _ _ _ _ _ HT').
      - rewrite map_length. auto.
      - rewrite map_length. apply (gamma_eq (seq 0 n) E HE true eps 0 G p H1 X ts HT' H2).
      - apply Best. split; auto.
      - rewrite <- (lift_hval (seq 0 n) E HE true eps 0 G p H1 X ts HT' g P PP). auto. }
    intros B HB. destruct (K (lift p X B)) as (C & C1 & C2); [apply in_map; auto|].
    apply in_map_iff in C1. destruct C1 as (B' & <- & C1). exists B'. split; auto.
    intros r Hr.
    assert (Hr0 : In r R0) by (apply (part_incl _ _ _ PP HB); auto).
    assert (Hr1 : In r (map hrep ts)) by (apply (R0_In (seq 0 n) E true eps 0 G p H1 X ts HT'); auto).
    destruct (reps_X (seq 0 n) E true 0 p X ts HT' r Hr1) as [X1 X2].
    assert (L : In r (lift p X B)) by (apply lift_In; rewrite X2; auto).
    apply C2 in L. apply lift_In in L. rewrite X2 in L. tauto.
  Qed.

  Lemma set_encn G p X ts beta st ch sid gf g :
    PreX G p X ts beta -> Permutation ch (map hrep ts) -> sid = hd 0%nat X -> near dl gf g ->
    (forall t, In t ts -> exists f, encn dl (hW st) (hK st) f t) ->
    encn dl (hW (set_WK st sid ch (Fin gf))) (hK (set_WK st sid ch (Fin gf))) gf (HT X g ts).
  Proof.
    intros HP Hp -> Hg Henc. constructor; cbn [hkids hlab]; auto.
    - intros w Hw Hn. assert (M : mem ch (hrep w) = true).
      { apply mem_In. eapply Permutation_in; [symmetry; exact Hp|]. apply in_map; auto. }
      simpl. rewrite M. auto.
    - intros w Hw. destruct (Henc w Hw) as (f & F). exists f.
      assert (Hw' : hok E true 0 w) by (destruct HP as (_ & HT' & _); apply (T_hok _ _ _ _ _ _ _ HT' w Hw)).
      apply (encn_frame dl E true 0 (hW st) (hK st) _ _ w f Hw'); [|auto].
      intros c Hc Hn. simpl. destruct (mem ch c) eqn:M; auto. exfalso. apply Hn. apply mem_In in M.
      apply (Permutation_in c Hp) in M. apply in_map_iff in M. destruct M as (x & V1 & V2).
      eapply rep_alone; [exact HP|exact V2|exact Hw|auto|auto].
  Qed.

  Theorem f_hpsp_split_correct : forall fuel st Gx sid ch p X ts beta,
    (length ts <= fuel)%nat -> gsim u n (hG st) Gx -> PreX Gx p X ts beta ->
    Permutation ch (map hrep ts) -> sid = hd 0%nat X ->
    (forall t, In t ts -> exists f, encn dl (hW st) (hK st) f t) ->
    exists st' Gx' p' g gf ts', f_hpsp_split fuel o it mc eps st sid ch = Ok st' /\ gsim u n (hG st') Gx' /\
      PostX p X ts beta Gx' p' g ts' /\ encn dl (hW st') (hK st') gf (HT X g ts') /\
      (forall c, ~ In c ch -> hW st' c = hW st c /\ hK st' c = hK st c) /\
      (forall w, In w ts' -> hW st' (hrep w) = Fin gf /\ hK st' (hrep w) = sid).
  Proof.
    induction fuel as [|fuel IH]; intros st Gx sid ch p X ts beta Hfuel Hsim HP Hch Hsid Henc.
    - destruct HP as (_ & _ & H2 & _). lia.
    - assert (H2 : (2 <= length ts)%nat) by apply HP.
      assert (Hk : length ch = length ts) by (rewrite (Permutation_length Hch), map_length; auto).
      destruct (at_level u o it mc d n W eps D E Hu Ho Hit Hd Hmc Hn2 HE HW HW1 HD Htol Heps true (hG st) Gx p X ts beta Hsim HP)
        as (Hgc & tr & Htr & Hsnd & Hfst & Hfin & Hlow).
      cbn [f_hpsp_split]. rewrite Hk, (sub_arcs_perm (hG st) _ _ Hch), (enabled_perm (hG st) _ _ Hch),
        (at_R0 u n (hG st) Gx ts Hsim).
      set (gf := f_split_gamma o it (sub_arcs (hG st) (map hrep ts)) (length ts)) in *.
      set (rf := f_dil o mc gf (sub_arcs (hG st) (map hrep ts)) (enabled Gx (map hrep ts))) in *.
      assert (Leaf : (length ts = 2%nat \/ length (snd (lv_dil tr Gx ts)) = 1%nat \/
          length (snd (lv_dil tr Gx ts)) = length ts \/
          - lv_gamma Gx ts - eps <= fst (lv_dil tr Gx ts)) ->
        exists st' Gx' p' g gf' ts', Ok (set_WK st sid ch (Fin gf)) = Ok st' /\ gsim u n (hG st') Gx' /\
          PostX p X ts beta Gx' p' g ts' /\ encn dl (hW st') (hK st') gf' (HT X g ts') /\
          (forall c, ~ In c ch -> hW st' c = hW st c /\ hK st' c = hK st c) /\
          (forall w, In w ts' -> hW st' (hrep w) = Fin gf' /\ hK st' (hrep w) = sid)).
      { intro Hc. eexists _, Gx, p, _, gf, ts. split; [reflexivity|]. split; [exact Hsim|]. split; [|split; [|split]].
        - apply (lv_leaf (seq 0 n) E HE tr true eps Ep Htr 0 Hgap Gx p X ts beta HP Hc).
        - eapply set_encn; eauto.
        - intros c Hn. apply mem_false in Hn. simpl. rewrite Hn. auto.
        - intros w Hw. assert (M : mem ch (hrep w) = true).
          { apply mem_In. eapply Permutation_in; [symmetry; exact Hch|]. apply in_map; auto. }
          simpl. rewrite M. auto. }
      change (f_split_gamma o it (sub_arcs (hG st) (map hrep ts)) (length ts)) with gf. fold rf.
      destruct (length ts) as [|[|k]] eqn:Ek; [lia|lia|].
      destruct (S (S k) =? 2)%nat eqn:K2.
      { apply Nat.eqb_eq in K2. apply Leaf. auto. }
      rewrite <- Hsnd.
      destruct (negb (negb (length (snd (lv_dil tr Gx ts)) =? 1)%nat &&
                      negb (length (snd (lv_dil tr Gx ts)) =? S (S k))%nat &&
                      Qltb (fst rf) (fsub o (- gf) eps))) eqn:Hc.
      { apply Leaf. rewrite negb_true_iff in Hc.
        apply andb_false_iff in Hc. destruct Hc as [Hc|Hc].
        - apply andb_false_iff in Hc. destruct Hc as [Hc|Hc]; apply negb_false_iff, Nat.eqb_eq in Hc; auto.
        - apply Hfst in Hc. auto. }
      clear Leaf. apply negb_false_iff, andb_true_iff in Hc. destruct Hc as [Hc Hc3].
      apply andb_true_iff in Hc. destruct Hc as [Hc1 Hc2].
      apply negb_true_iff, Nat.eqb_neq in Hc1. apply negb_true_iff, Nat.eqb_neq in Hc2.
      assert (HF : FinestSpec tr).
      { apply Hfin. apply (at_finest tr Gx p X ts beta HP Htr); [apply Nat.eqb_neq in K2; lia|]. apply Hlow. exact Hc3. }
      clear Hfst Hsnd Hfin Hlow Hc3. clearbody rf gf.
      set (P' := snd (lv_dil tr Gx ts)) in *.
      set (body := fun (r : hst * cset) (S : list nat) => _).
      assert (Hlen : length P' <> 1%nat) by auto.
      set (Cur := fun (st1 : hst) (tc : list ht) (nS Pd : list nat) =>
        (forall t, In t tc -> exists f, encn dl (hW st1) (hK st1) f t) /\ 
        (forall c, ~ In c ch -> hW st1 c = hW st c /\ hK st1 c = hK st c) /\
        Permutation nS Pd).
      assert (Loop : forall Pr Pd st1 G1 nS q tc, gsim u n (hG st1) G1 ->
        FInv (seq 0 n) E tr true eps 0 Gx p X ts Pd Pr G1 q tc ->
        Cur st1 tc nS (map (hd 0%nat) Pd) ->
        exists st2 G2 nS2 q2 tc2, foldm body Pr (st1, nS) = Ok (st2, nS2) /\ gsim u n (hG st2) G2 /\
          FInv (seq 0 n) E tr true eps 0 Gx p X ts P' [] G2 q2 tc2 /\
          Cur st2 tc2 nS2 (map (hd 0%nat) P')).
      { induction Pr as [|S Pr IHl]; intros Pd st1 G1 nS q tc Hs1 HFI HC.
        - exists st1, G1, nS, q, tc. split; [reflexivity|]. split; [exact Hs1|].
          assert (K := F_split _ _ _ _ _ _ _ _ _ _ _ _ _ _ _ HFI).
          rewrite app_nil_r in K. subst Pd. split; [exact HFI|exact HC].
        - assert (HSP := lv_in _ _ _ _ _ _ _ _ _ _ _ _ _ _ _ _ HFI).
          destruct HC as (C1 & C2 & C3).
          assert (Hsp := F_split _ _ _ _ _ _ _ _ _ _ _ _ _ _ _ HFI).
          assert (NS : Permutation (cadd (hd 0%nat S) nS) (map (hd 0%nat) (Pd ++ [S]))).
          { assert (New : ~ In (hd 0%nat S) nS).
            { intro C. apply (Permutation_in _ C3) in C. apply in_map_iff in C. destruct C as (S' & E1 & E2).
              change (P' = Pd ++ S :: Pr) in Hsp.
              assert (HS' : In S' P') by (rewrite Hsp; apply in_or_app; auto).
              destruct (lv_hd (seq 0 n) E HE tr true eps Ep Htr 0 Gx p X ts beta HP Hlen S HSP) as (_ & h1 & _).
              destruct (lv_hd (seq 0 n) E HE tr true eps Ep Htr 0 Gx p X ts beta HP Hlen S' HS') as (_ & h2 & _).
              rewrite E1 in h2.
              assert (PP : is_partition (enabled Gx (map hrep ts)) P').
              { destruct HP as (Z1 & Z2 & Z3 & _). eapply P'_part; eauto. }
              assert (ND : NoDup (enabled Gx (map hrep ts))).
              { destruct HP as (Z1 & Z2 & Z3 & _). eapply R0_NoDup; eauto. }
              assert (PD := parts_distinct _ P' ND PP). rewrite Hsp in PD.
              apply NoDup_remove_2 in PD. apply PD. apply in_or_app. left.
              rewrite (part_unique _ P' S S' (hd 0%nat S) ND PP HSP HS' h1 h2). exact E2. }
            rewrite map_app. simpl. rewrite (Permutation_app_comm _ [_]). simpl.
            rewrite <- C3. clear -New. induction nS as [|a nS IHn]; simpl; auto.
            simpl in New. destruct (hd 0%nat S <? a)%nat eqn:L; auto.
            destruct (hd 0%nat S =? a)%nat eqn:L2.
            - exfalso. apply Nat.eqb_eq in L2. apply New. auto.
            - rewrite perm_swap. constructor. apply IHn. tauto. }
          cbn [foldm]. unfold body at 1. cbv beta. cbn [fst snd].
          destruct (length S =? 1)%nat eqn:LS.
          + apply Nat.eqb_eq in LS. cbn [bind].
            apply (IHl (Pd ++ [S]) st1 G1 _ q tc); auto.
            * eapply (lv_single (seq 0 n) E HE tr true eps Ep Htr 0 Gx p X ts beta HP Hlen); eauto.
            * split; [|split]; auto.
          + apply Nat.eqb_neq in LS.
            set (mv := filter (fun t => mem S (hrep t)) tc).
            assert (HTc := F_T _ _ _ _ _ _ _ _ _ _ _ _ _ _ _ HFI).
            assert (HPre : PreX G1 q (lift p X S) mv beta).
            { eapply (lv_pre (seq 0 n) E HE tr true eps Ep Htr 0 Gx p X ts beta HP Hlen); eauto. }
            assert (Emv : mv = filter (fun t => mem S (hrep t)) ts).
            { apply (F_todo _ _ _ _ _ _ _ _ _ _ _ _ _ _ _ HFI S (or_introl eq_refl)). }
            assert (Pmv : Permutation S (map hrep mv)).
            { rewrite Emv. destruct HP as (H1 & HT0 & H3 & _).
              symmetry. eapply (moved_perm (seq 0 n) E HE tr true eps Ep Htr 0); eauto. }
            assert (Hsz : (length mv <= fuel)%nat).
            { assert (K := lv_lt (seq 0 n) E HE tr true eps Ep Htr 0 Gx p X ts beta HP Hlen S HSP).
              apply Permutation_length in Pmv. rewrite map_length in Pmv. lia. }
            assert (Hhd : hd 0%nat S = hd 0%nat (lift p X S)).
            { symmetry. apply (lv_hd (seq 0 n) E HE tr true eps Ep Htr 0 Gx p X ts beta HP Hlen S HSP). }
            destruct (IH st1 G1 (hd 0%nat S) S q (lift p X S) mv beta Hsz Hs1 HPre Pmv Hhd)
              as (st3 & G3 & q3 & gs & gsf & ms & B1 & Hs3 & B2 & B3 & B4 & B5).
            { intros t Ht. apply filter_In in Ht. apply C1. tauto. }
            rewrite B1. cbn [bind].
            set (st4 := mkH (f_contract o it eps (hG st3) S (hd 0%nat S)) (hW st3) (hK st3)).
            assert (HFI' := lv_post (seq 0 n) E HE tr true (fun _ => HF) eps Ep Htr 0 Gx p X ts beta HP Hlen
                       Pd S Pr G1 q tc G3 q3 gs ms HFI LS B2).
            destruct (lv_live (seq 0 n) E HE tr true (fun _ => HF) eps Ep Htr 0 Gx p X ts beta HP Hlen
                       Pd S Pr G1 q tc G3 q3 gs ms HFI LS B2) as [Live1 Live2].
            assert (Hs4 : gsim u n (hG st4) (contract eps G3 S (hd 0%nat S))).
            { assert (SO : Sok (seq 0 n) E eps G3 q3) by apply B2.
              destruct (lv_hd (seq 0 n) E HE tr true eps Ep Htr 0 Gx p X ts beta HP Hlen S HSP) as (_ & HdS & _).
              apply (contract_sim u o it n eps D Hu Ho Ep Hn2 Hit Hvs HDe (hG st3) G3 S (hd 0%nat S)
                       (S_ok _ _ _ _ _ SO) (Sok_incl n eps E _ _ SO) (live_multiples _ _ _ _ _ SO D HD) Hs3 HdS Live1 Live2). }
            apply (IHl _ st4 _ _ _ _ Hs4 HFI').
            assert (SX : forall c, In c S -> In c ch).
            { intros c Hc. destruct (lv_reps (seq 0 n) E HE tr true eps Ep Htr 0 Gx p X ts beta HP S c HSP Hc)
                as (_ & _ & K). eapply Permutation_in; [symmetry; exact Hch|exact K]. }
            split; [|split].
            * intros t [<-|Ht]; [exists gsf; exact B3|]. apply filter_In in Ht. destruct Ht as [T1 T2].
              destruct (C1 t T1) as (f & Ff). exists f.
              apply (encn_frame dl E true 0 (hW st1) (hK st1) _ _ t f (T_hok _ _ _ _ _ _ _ HTc t T1)); [|auto].
              intros c Hc Hn. apply B4. intro C.
              apply negb_true_iff, mem_false in T2. apply T2.
              eapply (lv_hit (seq 0 n) E HE tr true eps Ep Htr 0 Gx p X ts beta HP); eauto.
            * intros c Hc. destruct (B4 c) as [D1 D2]; [auto|]. destruct (C2 c Hc) as [D3 D4].
              unfold st4. cbn [hW hK]. split; congruence.
            * exact NS. }
      destruct (Loop P' [] st Gx [] p ts Hsim) as (st2 & G2 & nS2 & q2 & tc2 & L1 & Ls & L2 & L3 & L4 & L5).
      { eapply (lv_start (seq 0 n) E HE tr true eps Ep Htr 0 Gx p X ts beta HP); eauto. }
      { split; [|split]; auto. }
      rewrite L1. cbn [bind fst snd].
      destruct (lv_final_pre (seq 0 n) E HE tr true eps Ep Htr 0 Gx p X ts beta HP Hlen G2 q2 tc2 L2)
        as (M1 & M2 & M3 & M4).
      assert (Hle := lv_le (seq 0 n) E HE tr true eps Ep Htr 0 Gx p X ts beta HP).
      fold P' in Hle, M2.
      assert (HnS : Permutation nS2 (map hrep tc2)).
      { rewrite L5.
        assert (ND1 : NoDup (map (hd 0%nat) P')).
        { assert (PP : is_partition (enabled Gx (map hrep ts)) P').
          { destruct HP as (Z1 & Z2 & Z3 & _). eapply P'_part; eauto. }
          assert (ND : NoDup (enabled Gx (map hrep ts))).
          { destruct HP as (Z1 & Z2 & Z3 & _). eapply R0_NoDup; eauto. }
          apply (NoDup_map_inj_in (hd 0%nat) P'); [|eapply parts_distinct; eauto].
          intros S S' HS HS' Heq.
          destruct (lv_hd (seq 0 n) E HE tr true eps Ep Htr 0 Gx p X ts beta HP Hlen S HS) as (_ & h1 & _).
          destruct (lv_hd (seq 0 n) E HE tr true eps Ep Htr 0 Gx p X ts beta HP Hlen S' HS') as (_ & h2 & _).
          rewrite <- Heq in h2. eapply part_unique; eauto. }
        apply NoDup_Permutation_bis; auto.
        - rewrite !map_length. lia.
        - intros r Hr. apply in_map_iff in Hr. destruct Hr as (S & <- & HS).
          assert (F := F_done _ _ _ _ _ _ _ _ _ _ _ _ _ _ _ L2 S HS).
          apply in_map_iff in F. destruct F as (t & T1 & T2). apply in_map_iff. exists t. split; auto.
          unfold hrep. rewrite T1.
          apply (lv_hd (seq 0 n) E HE tr true eps Ep Htr 0 Gx p X ts beta HP Hlen S HS). }
      destruct (IH st2 G2 sid nS2 q2 X tc2 (lv_gamma Gx ts)) as (st3 & G3 & q3 & g3 & gf3 & ts3 & N1 & Ns & N2 & N3 & N4 & N5); auto.
      + lia.
      + exists st3, G3, q3, g3, gf3, ts3. split; auto. split; auto. split; [|split; [|split]]; auto.
        * eapply (lv_final_post (seq 0 n) E HE tr true eps Ep Htr 0 Gx p X ts beta HP Hlen); eauto.
        * intros c Hc. destruct (N4 c) as [D1 D2].
          { intro C. apply (Permutation_in c HnS) in C. apply in_map_iff in C. destruct C as (t & <- & Ht).
            apply Hc. eapply Permutation_in; [symmetry; exact Hch|]. apply M4; auto. }
          destruct (L4 c Hc). split; congruence.
  Qed.
End Split.

Section Run.
  Variable u : Q.
  Variable o : fops.
  Variable it : graph -> graph.
  Variable mc : solver.
  Variable d : Q.
  Variable n : nat.
  Variable E : graph.
  Variable rw : arc -> Q.
  Variable W : Q.
  Variable eps : Q.
  Variable D : positive.
  Hypothesis Hu : 0 <= u.
  Hypothesis Ho : std_model u o.
  Hypothesis Hit : forall F, graph_on (seq 0 n) F -> Permutation (it F) F.
  Hypothesis Hd : 0 <= d.
  Hypothesis Hmc : ApproxCutSpec d n mc.
  Hypothesis Hn2 : (2 <= n)%nat.
  Hypothesis HE : graph_on (seq 0 n) E.
  Hypothesis Hs : simple E.
  Hypothesis Hf : forward E.
  Hypothesis Hpos : forall a, In a E -> 0 < aw a.
  Hypothesis Hr : forall a, In a E -> Qabs (rw a - aw a) <= u * aw a.
  Hypothesis HW : total E <= W.
  Hypothesis HW1 : 1 <= W.
  Hypothesis HD : multiples_of D E.
  Hypothesis Htol : fine_tol D n (2 * eps).
  Hypothesis Heps : 2 * qn n * d + 120 * NU3 (vu u n) n W < eps.
  Hypothesis Htie : no_tie n E.

  Notation v := (vu u n).
  Notation dl := (dlt v n W).

  Lemma dl_one : dl < 1.
  Proof.
    assert (A := dl_small u d n W eps D Hu Hd Hn2 HW1 Htol Heps).
    assert (B := dl_nonneg u n W Hu HW1). assert (N2 := N_two n Hn2).
    set (DD := Zpos D # 1) in *. assert (HDD : 1 <= DD) by (unfold DD, Qle; simpl; lia).
    set (m := qn n - 1) in *. assert (M1 : 1 <= m) by (unfold m; lra).
    assert (M2 : 1 <= m * m) by (assert (0 <= (m - 1) * (m + 1)) by (apply Qmult_le_0_compat; lra); lra).
    assert (C1 : 0 <= dl * (DD - 1)) by (apply Qmult_le_0_compat; lra).
    assert (C2 : 0 <= dl * DD * (m * m - 1)) by (apply Qmult_le_0_compat; [apply Qmult_le_0_compat; lra|lra]).
    lra.
  Qed.

  Theorem f_hpsp_run_correct : exists fs lams Ps Wv Kv G,
    f_hpsp_run o it mc eps (stored rw E) n = Ok (mkHOut (map Fin fs) Ps Wv Kv G) /\
    IsWeakPSP E (seq 0 n) lams Ps /\ slopes E lams Ps /\ Forall2 (near dl) fs lams /\
    hd_error Ps = Some [seq 0 n] /\ tree_read n fs Ps Wv Kv.
  Proof.
    assert (Ep : 0 < eps) by (apply (eps_pos v d n W eps (vu_nonneg u n Hu) Hd Hn2 HW1 Heps)).
    assert (Dn := dl_nonneg u n W Hu HW1). assert (Ds := dl_small u d n W eps D Hu Hd Hn2 HW1 Htol Heps).
    assert (HP := start_pre E n Hn2 HE Hs Hf eps (weights_eps u d n E W eps D Hu Hd Hn2 Hpos HW1 HD Htol Heps) true 0).
    set (st0 := mkH (mkG (seq 0 n) (stored rw E)) (fun _ => Fin 0) (fun _ => 0%nat)).
    destruct (f_hpsp_split_correct u o it mc d n W eps D E Hu Ho Hit Hd Hmc Hn2 HE HW HW1 HD Htol Heps Htie
                (S n) st0 (mkG (seq 0 n) E) 0 (seq 0 n) (fun x => x) (seq 0 n) (start_trees n) (total E + 1))
      as (st & Gx & p' & g & gf & ts & R1 & Rs & R2 & R3 & R4 & R5).
    { unfold start_trees. rewrite rev_length, map_length, seq_length. lia. }
    { apply (si_G _ _ _ _ _ (start_sim u n E rw W Hu HE Hr HW1)). }
    { exact HP. }
    { unfold start_trees. rewrite map_rev, <- Permutation_rev, map_map. unfold hrep. simpl.
      rewrite map_id. apply Permutation_refl. }
    { destruct n as [|k]; [lia|reflexivity]. }
    { intros t Ht. apply start_in in Ht. destruct Ht as (x & _ & ->).
      match goal with |- exists f, encn _ _ _ f ?t => exists (hlab t) end.
      constructor; [|intros w []|intros w []]. split; lra. }
    destruct R2 as (Hok & _). set (T := HT (seq 0 n) g ts) in *.
    destruct (encn_tree dl (hW st) (hK st) T gf R3) as (Tf & Trel & Elab & Tenc).
    assert (Hset : hset Tf = seq 0 n) by (apply (trel_inv dl Tf T) in Trel; tauto).
    assert (Hsh : hsh true Tf) by (apply (hsh_stored D n E dl HD Dn Ds T Tf Trel Hok); apply incl_refl).
    assert (Hk0 : hkids T <> []).
    { intro C. simpl in C. subst ts. inversion Hok as [x g' Q1|X' g' ts' S0 L2]; subst; [|simpl in L2; lia].
      destruct n as [|[|k]]; [lia|lia|discriminate]. }
    assert (Hk : hkids Tf <> []) by (intro C; apply Hk0; apply (trel_kids dl Tf T Trel); auto).
    assert (Hr0 : hrep Tf = 0%nat) by (unfold hrep; rewrite Hset; destruct n as [|k]; [lia|reflexivity]).
    assert (HEn : nonneg E) by (intros a Ha; apply (HE a Ha)).
    assert (Root : hW st 0%nat = Fin (hlab Tf) /\ hK st 0%nat = 0%nat).
    { destruct (kid_of Tf 0%nat Hsh Hk) as (w & U1 & U2).
      { rewrite Hset. apply in_seq. lia. }
      rewrite <- Hr0 in U2. assert (Hru := kid_rep Tf w Hsh U1 U2).
      assert (K := Trel). apply trel_inv in K. destruct K as (_ & _ & K).
      destruct (Forall2_In_l _ _ _ w K U1) as (x & X1 & X2).
      assert (Q : hrep x = hrep w) by (unfold hrep; apply trel_inv in X2; destruct X2 as (-> & _); auto).
      destruct (R5 x X1) as [A1 A2]. rewrite Q, Hru, Hr0 in A1, A2. rewrite A1, A2, Elab. auto. }
    destruct Root as [HW0 HK0].
    assert (Hlab : forall t, sbt t Tf -> hkids t <> [] -> -1 < hlab t).
    { intros t St Kt. destruct (sbt_trel dl t Tf St T Trel) as (x & X1 & X2).
      destruct (sbt_hok_sub E true 0 x T X1 Hok) as [O1 _].
      assert (L := lab_nonneg E true 0 x HEn O1 ltac:(intro C; apply Kt; apply (trel_kids dl t x X2); auto)).
      apply trel_inv in X2. destruct X2 as (_ & [N1 N2] & _). assert (D1 := dl_one). lra. }
    destruct (read_run n Tf (hW st) (hK st) Hn2 Hsh Hset Hk Hlab Tenc HW0 HK0) as (fs & ps & Ps & L1 & L2 & L3 & L4).
    destruct (steps_stored D n E dl HD Dn Ds [Tf] fs Ps L3 [T]) as (lams & St & Nr).
    { constructor; auto. }
    { intros t [<-|[]]. split; auto. apply incl_refl. }
    exists fs, lams, ([seq 0 n] :: Ps), (hW st), (hK st), (hG st).
    split; [|split; [|split; [|split; [exact Nr|split; [reflexivity|exact L4]]]]].
    - unfold f_hpsp_run. fold st0. unfold cdense. rewrite R1. cbn [bind]. rewrite L1. cbn [bind fst snd]. rewrite L2. reflexivity.
    - assert (TS := tree_sequence (seq 0 n) E true 0 Qle T lams Ps (seq_NoDup n 0)
                 ltac:(destruct n; [lia|discriminate]) HE ltac:(lra)
                 ltac:(intros; lra) ltac:(intros; lra) Hok eq_refl St).
      apply near_0_full. eapply full_sequence_mono; [| |exact TS]; auto.
    - apply (steps_slopes (seq 0 n) E true 0 Qle (seq_NoDup n 0) [T] lams Ps St [seq 0 n]).
      + simpl. apply one_block_part. destruct n; [lia|discriminate].
      + apply Permutation_refl.
      + intros w [<-|[]]. auto.
  Qed.
End Run.
