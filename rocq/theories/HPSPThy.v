(** * HPSPThy: correctness of HPSP. *)
From Coq Require Import Sorted.
From Verif Require Import Base Spec MSets SetsThy PartThy SubThy MaxFlow CutThy MDil DilThy
  SeqThy MDT DTThy MContract ContractThy MPSPI MHPSP TreeThy DecThy PSPIThy PSPILoop.

(** [W] and [K] store the tree: a child that does not have its parent's representative carries
    the parent's label and representative. *)
Inductive enc (W : nat -> dbl) (K : nat -> nat) : ht -> Prop :=
| enc_intro t :
    (forall u, In u (hkids t) -> hrep u <> hrep t ->
       W (hrep u) = Fin (hlab t) /\ K (hrep u) = hrep t) ->
    (forall u, In u (hkids t) -> enc W K u) -> enc W K t.

Lemma enc_inv W K t : enc W K t ->
  (forall u, In u (hkids t) -> hrep u <> hrep t ->
     W (hrep u) = Fin (hlab t) /\ K (hrep u) = hrep t) /\
  (forall u, In u (hkids t) -> enc W K u).
Proof. intro H. inversion H; subst; auto. Qed.

Lemma enc_frame E s e W K W' K' : forall t, hok E s e t ->
  (forall c, In c (hset t) -> c <> hrep t -> W' c = W c /\ K' c = K c) ->
  enc W K t -> enc W' K' t.
Proof.
  induction t as [X g ts IH] using ht_ind'. intros Hok HW He.
  apply enc_inv in He. destruct He as [A1 A2]. simpl in A1, A2.
  assert (Hk : forall u, In u ts -> hok E s e u /\ incl (hset u) X).
  { intros u Hu. split; [|apply (hok_kid_strict E s e X g ts u Hok Hu)].
    destruct (hok_kids E s e X g ts Hok) as (_ & _ & H & _); auto. intro C. subst. destruct Hu. }
  assert (Hr : forall u, In u ts -> In (hrep u) (hset u)).
  { intros u Hu. apply hd_In. eapply hok_nonempty. apply Hk; auto. }
  constructor; simpl.
  - intros u Hu Hn. destruct (HW (hrep u)) as [-> ->]; [|exact Hn|apply A1; auto].
    simpl. destruct (Hk u Hu) as [_ I]. apply I. auto.
  - intros u Hu. rewrite Forall_forall in IH. apply (IH u Hu); [apply Hk; auto| |apply A2; auto].
    intros c Hc Hn. destruct (Hk u Hu) as [Ou I]. apply HW; [simpl; auto|].
    intro C. apply Hn. unfold hrep in C. simpl in C.
    (* the least element of X, lying in hset u, is its least element *)
    assert (SX : csorted X) by (apply (hok_sorted E s e _ Hok)).
    assert (Su : csorted (hset u)) by (apply (hok_sorted E s e _ Ou)).
    assert (L1 := hd_sorted_min _ c Su Hc). assert (L2 := hd_sorted_min X (hrep u) SX (I _ (Hr u Hu))).
    unfold hrep in *. lia.
Qed.

Lemma mem_perm l m x : Permutation l m -> mem l x = mem m x.
Proof.
  intro H. destruct (mem l x) eqn:A; symmetry.
  - apply mem_In. apply mem_In in A. eapply Permutation_in; eauto.
  - apply mem_false. apply mem_false in A. intro C. apply A. eapply Permutation_in; [symmetry|]; eauto.
Qed.

Lemma sub_arcs_perm G l m : Permutation l m -> sub_arcs G l = sub_arcs G m.
Proof. intro H. unfold sub_arcs. apply filter_ext. intro a. rewrite !(mem_perm l m); auto. Qed.

Lemma enabled_perm G l m : Permutation l m -> enabled G l = enabled G m.
Proof. intro H. unfold enabled. apply filter_ext. intro a. apply mem_perm; auto. Qed.

Lemma NoDup_map_inj_in {A B} (f : A -> B) l :
  (forall x y, In x l -> In y l -> f x = f y -> x = y) -> NoDup l -> NoDup (map f l).
Proof.
  intros Hf H. induction H as [|a l H1 H2 IH]; simpl; constructor.
  - intro C. apply in_map_iff in C. destruct C as (b & B1 & B2). apply H1.
    rewrite <- (Hf b a); auto; [right|left]; auto.
  - apply IH. intros x y Hx Hy. apply Hf; right; auto.
Qed.

Section HPSP.
  Variable vs : list nat.
  Hypothesis Hvs : csorted vs.
  Variable E : graph.
  Hypothesis HE : graph_on vs E.
  Variable mc : solver.
  Variable s : bool.
  Hypothesis Hms : s = true -> MinSinkCutSpec mc.
  Variable eps : Q.
  Hypothesis Heps : 0 < eps.
  Hypothesis Hmc : TruncSpec (dil_run mc) eps vs E.
  Variable e : Q.
  Hypothesis He : 0 <= e.
  Hypothesis Hgap : forall X Ps R g,
    incl X vs -> NoDup X -> is_partition X Ps -> is_partition X R -> (2 <= length Ps)%nat ->
    g * (qn (length Ps) - 1) == crossing (sub E X) Ps ->
    - g - eps <= hval (sub E X) g R -> - g - e <= hval (sub E X) g R.

  Let PreX := Pre vs E s eps e.
  Let PostX := Post vs E s eps e.

  (** Reps of the trees of one level are no inner elements of other trees. *)
  Lemma rep_not_inner G p X ts beta u t c :
    PreX G p X ts beta -> In u ts -> In t ts -> c = hrep u -> In c (hset t) -> c = hrep t.
  Proof.
    intros (_ & HT' & _) Hu Ht -> Hc.
    assert (Hv : In (hrep u) vs) by (apply (T_incl _ _ _ _ _ _ _ HT'); eapply hset_X; eauto).
    assert (A := proj1 (T_rep _ _ _ _ _ _ _ HT' t (hrep u) Ht Hv) Hc).
    rewrite <- A. symmetry. eapply hrep_fix; eauto.
  Qed.

  Lemma set_enc G p X ts beta st ch sid g :
    PreX G p X ts beta -> Permutation ch (map hrep ts) -> sid = hd 0%nat X ->
    (forall t, In t ts -> enc (hW st) (hK st) t) ->
    enc (hW (set_WK st sid ch (Fin g))) (hK (set_WK st sid ch (Fin g))) (HT X g ts).
  Proof.
    intros HP Hp -> Henc. constructor; simpl.
    - intros u Hu Hn. assert (M : mem ch (hrep u) = true).
      { apply mem_In. eapply Permutation_in; [symmetry; exact Hp|]. apply in_map; auto. }
      rewrite M. auto.
    - intros u Hu.
      assert (Hu' : hok E s e u) by (destruct HP as (_ & HT' & _); apply (T_hok _ _ _ _ _ _ _ HT' u Hu)).
      apply (enc_frame E s e (hW st) (hK st) _ _ u Hu'); [|apply Henc; auto].
      intros c Hc Hn. destruct (mem ch c) eqn:M; auto. exfalso. apply Hn. apply mem_In in M.
      apply (Permutation_in c Hp) in M. apply in_map_iff in M. destruct M as (v & V1 & V2).
      eapply rep_not_inner; [exact HP|exact V2|exact Hu|auto|auto].
  Qed.

  Theorem hpsp_split_correct : forall fuel st sid ch p X ts beta,
    (length ts <= fuel)%nat -> PreX (hG st) p X ts beta ->
    Permutation ch (map hrep ts) -> sid = hd 0%nat X ->
    (forall t, In t ts -> enc (hW st) (hK st) t) ->
    exists st' p' g ts', hpsp_split fuel mc eps st sid ch = Ok st' /\
      PostX p X ts beta (hG st') p' g ts' /\ enc (hW st') (hK st') (HT X g ts') /\
      (forall c, ~ In c ch -> hW st' c = hW st c /\ hK st' c = hK st c) /\
      (forall u, In u ts' -> hW st' (hrep u) = Fin g /\ hK st' (hrep u) = sid).
  Proof.
    induction fuel as [|fuel IH]; intros st sid ch p X ts beta Hfuel HP Hch Hsid Henc.
    - destruct HP as (_ & _ & H2 & _). lia.
    - assert (H2 : (2 <= length ts)%nat) by apply HP.
      assert (Hk : length ch = length ts) by (rewrite (Permutation_length Hch), map_length; auto).
      assert (Leaf : (length ts = 2%nat \/ length (snd (lv_dil (dil_run mc) (hG st) ts)) = 1%nat \/
          length (snd (lv_dil (dil_run mc) (hG st) ts)) = length ts \/
          - lv_gamma (hG st) ts - eps <= fst (lv_dil (dil_run mc) (hG st) ts)) ->
        exists st' p' g ts', Ok (set_WK st sid ch (Fin (lv_gamma (hG st) ts))) = Ok st' /\
          PostX p X ts beta (hG st') p' g ts' /\ enc (hW st') (hK st') (HT X g ts') /\
          (forall c, ~ In c ch -> hW st' c = hW st c /\ hK st' c = hK st c) /\
          (forall u, In u ts' -> hW st' (hrep u) = Fin g /\ hK st' (hrep u) = sid)).
      { intro Hc. eexists _, p, _, ts. split; [reflexivity|]. split; [|split; [|split]].
        - apply (lv_leaf vs E HE (dil_run mc) s eps Heps Hmc e Hgap (hG st) p X ts beta HP Hc).
        - eapply set_enc; eauto.
        - intros c Hn. apply mem_false in Hn. simpl. rewrite Hn. auto.
        - intros u Hu. assert (M : mem ch (hrep u) = true).
          { apply mem_In. eapply Permutation_in; [symmetry; exact Hch|]. apply in_map; auto. }
          simpl. rewrite M. auto. }
      cbn [hpsp_split]. rewrite Hk, (sub_arcs_perm (hG st) _ _ Hch), (enabled_perm (hG st) _ _ Hch).
      fold (lv_sub (hG st) ts). fold (lv_gamma (hG st) ts).
      change (dil_run mc (lv_gamma (hG st) ts) (lv_sub (hG st) ts) (enabled (hG st) (map hrep ts)))
        with (lv_dil (dil_run mc) (hG st) ts).
      destruct (length ts) as [|[|k]] eqn:Ek; [lia|lia|].
      set (gm := lv_gamma (hG st) ts) in *.
      destruct (S (S k) =? 2)%nat eqn:K2.
      { apply Nat.eqb_eq in K2. apply Leaf. auto. }
      destruct (negb (negb (length (snd (lv_dil (dil_run mc) (hG st) ts)) =? 1)%nat &&
                      negb (length (snd (lv_dil (dil_run mc) (hG st) ts)) =? S (S k))%nat &&
                      Qltb (fst (lv_dil (dil_run mc) (hG st) ts)) (- gm - eps))) eqn:Hc.
      { apply Leaf. rewrite negb_true_iff in Hc.
        apply andb_false_iff in Hc. destruct Hc as [Hc|Hc].
        - apply andb_false_iff in Hc. destruct Hc as [Hc|Hc]; apply negb_false_iff, Nat.eqb_eq in Hc; auto.
        - apply Qltb_false in Hc. auto. }
      clear Leaf. apply negb_false_iff, andb_true_iff in Hc. destruct Hc as [Hc _].
      apply andb_true_iff in Hc. destruct Hc as [Hc1 Hc2].
      apply negb_true_iff, Nat.eqb_neq in Hc1. apply negb_true_iff, Nat.eqb_neq in Hc2.
      set (P' := snd (lv_dil (dil_run mc) (hG st) ts)) in *.
      set (body := fun (r : hst * cset) (S : list nat) => _).
      assert (Hlen : length P' <> 1%nat) by auto.
      set (Cur := fun (st1 : hst) (tc : list ht) (nS Pd : list nat) =>
        (forall t, In t tc -> enc (hW st1) (hK st1) t) /\ 
        (forall c, ~ In c ch -> hW st1 c = hW st c /\ hK st1 c = hK st c) /\
        Permutation nS Pd).
      assert (Loop : forall Pr Pd st1 nS q tc, FInv vs E (dil_run mc) s eps e (hG st) p X ts Pd Pr (hG st1) q tc ->
        Cur st1 tc nS (map (hd 0%nat) Pd) ->
        exists st2 nS2 q2 tc2, foldm body Pr (st1, nS) = Ok (st2, nS2) /\
          FInv vs E (dil_run mc) s eps e (hG st) p X ts P' [] (hG st2) q2 tc2 /\
          Cur st2 tc2 nS2 (map (hd 0%nat) P')).
      { induction Pr as [|S Pr IHl]; intros Pd st1 nS q tc HFI HC.
        - exists st1, nS, q, tc. split; [reflexivity|].
          assert (K := F_split _ _ _ _ _ _ _ _ _ _ _ _ _ _ _ HFI).
          rewrite app_nil_r in K. subst Pd. split; [exact HFI|exact HC].
        - assert (HSP := lv_in _ _ _ _ _ _ _ _ _ _ _ _ _ _ _ _ HFI).
          destruct HC as (C1 & C2 & C3).
          assert (Hsp := F_split _ _ _ _ _ _ _ _ _ _ _ _ _ _ _ HFI).
          (* the head of S is new *)
          assert (NS : Permutation (cadd (hd 0%nat S) nS) (map (hd 0%nat) (Pd ++ [S]))).
          { assert (New : ~ In (hd 0%nat S) nS).
            { intro C. apply (Permutation_in _ C3) in C. apply in_map_iff in C. destruct C as (S' & E1 & E2).
              change (P' = Pd ++ S :: Pr) in Hsp.
              assert (HS' : In S' P') by (rewrite Hsp; apply in_or_app; auto).
              destruct (lv_hd vs E HE (dil_run mc) s eps Heps Hmc e (hG st) p X ts beta HP Hlen S HSP) as (_ & h1 & _).
              destruct (lv_hd vs E HE (dil_run mc) s eps Heps Hmc e (hG st) p X ts beta HP Hlen S' HS') as (_ & h2 & _).
              rewrite E1 in h2.
              assert (PP : is_partition (enabled (hG st) (map hrep ts)) P').
              { destruct HP as (Z1 & Z2 & Z3 & _). eapply P'_part; eauto. }
              assert (ND : NoDup (enabled (hG st) (map hrep ts))).
              { destruct HP as (Z1 & Z2 & Z3 & _). eapply R0_NoDup; eauto. }
              assert (PD := parts_distinct _ P' ND PP). rewrite Hsp in PD.
              apply NoDup_remove_2 in PD. apply PD. apply in_or_app. left.
              rewrite (part_unique _ P' S S' (hd 0%nat S) ND PP HSP HS' h1 h2). exact E2. }
            rewrite map_app. simpl. rewrite (Permutation_app_comm _ [_]). simpl.
            rewrite <- C3. clear -New. induction nS as [|a nS IHn]; simpl; auto.
            simpl in New. destruct (hd 0%nat S <? a)%nat eqn:L; auto.
            destruct (hd 0%nat S =? a)%nat eqn:L2.
            - exfalso. apply Nat.eqb_eq in L2. apply New. auto.
            - rewrite perm_swap. constructor. apply IHn. tauto. }
          cbn [foldm]. unfold body at 1. cbv beta. cbn [fst snd].
          destruct (length S =? 1)%nat eqn:LS.
          + apply Nat.eqb_eq in LS. cbn [bind].
            apply (IHl (Pd ++ [S]) st1 _ q tc); auto.
            * eapply (lv_single vs E HE (dil_run mc) s eps Heps Hmc e (hG st) p X ts beta HP Hlen); eauto.
            * split; [|split]; auto.
          + apply Nat.eqb_neq in LS.
            set (mv := filter (fun t => mem S (hrep t)) tc).
            assert (HTc := F_T _ _ _ _ _ _ _ _ _ _ _ _ _ _ _ HFI).
            assert (HPre : PreX (hG st1) q (lift p X S) mv beta).
            { eapply (lv_pre vs E HE (dil_run mc) s eps Heps Hmc e (hG st) p X ts beta HP Hlen); eauto. }
            assert (Emv : mv = filter (fun t => mem S (hrep t)) ts).
            { apply (F_todo _ _ _ _ _ _ _ _ _ _ _ _ _ _ _ HFI S (or_introl eq_refl)). }
            assert (Pmv : Permutation S (map hrep mv)).
            { rewrite Emv. destruct HP as (H1 & HT0 & H3 & _).
              symmetry. eapply (moved_perm vs E HE (dil_run mc) s eps Heps Hmc e); eauto. }
            assert (Hsz : (length mv <= fuel)%nat).
            { assert (K := lv_lt vs E HE (dil_run mc) s eps Heps Hmc e (hG st) p X ts beta HP Hlen S HSP).
              apply Permutation_length in Pmv. rewrite map_length in Pmv. lia. }
            assert (Hhd : hd 0%nat S = hd 0%nat (lift p X S)).
            { symmetry. apply (lv_hd vs E HE (dil_run mc) s eps Heps Hmc e (hG st) p X ts beta HP Hlen S HSP). }
            destruct (IH st1 (hd 0%nat S) S q (lift p X S) mv beta Hsz HPre Pmv Hhd)
              as (st3 & q3 & gs & ms & B1 & B2 & B3 & B4 & B5).
            { intros t Ht. apply filter_In in Ht. apply C1. tauto. }
            rewrite B1. cbn [bind].
            set (st4 := mkH (contract eps (hG st3) S (hd 0%nat S)) (hW st3) (hK st3)).
            assert (HFI' := lv_post vs E HE (dil_run mc) s (fun Es => finest_of_sink mc (Hms Es)) eps Heps Hmc e (hG st) p X ts beta HP Hlen
                       Pd S Pr (hG st1) q tc (hG st3) q3 gs ms HFI LS B2).
            change (contract eps (hG st3) S (hd 0%nat S)) with (hG st4) in HFI'.
            apply (IHl _ st4 _ _ _ HFI').
            assert (SX : forall c, In c S -> In c ch).
            { intros c Hc. destruct (lv_reps vs E HE (dil_run mc) s eps Heps Hmc e (hG st) p X ts beta HP S c HSP Hc)
                as (_ & _ & K). eapply Permutation_in; [symmetry; exact Hch|exact K]. }
            split; [|split].
            * intros t [<-|Ht]; [exact B3|]. apply filter_In in Ht. destruct Ht as [T1 T2].
              apply (enc_frame E s e (hW st1) (hK st1) _ _ t (T_hok _ _ _ _ _ _ _ HTc t T1)); [|apply C1; auto].
              intros c Hc Hn. apply B4. intro C.
              apply negb_true_iff, mem_false in T2. apply T2.
              eapply (lv_hit vs E HE (dil_run mc) s eps Heps Hmc e (hG st) p X ts beta HP); eauto.
            * intros c Hc. destruct (B4 c) as [D1 D2]; [auto|]. destruct (C2 c Hc) as [D3 D4].
              unfold st4. cbn [hW hK]. split; congruence.
            * exact NS. }
      destruct (Loop P' [] st [] p ts) as (st2 & nS2 & q2 & tc2 & L1 & L2 & L3 & L4 & L5).
      { eapply (lv_start vs E HE (dil_run mc) s eps Heps Hmc e (hG st) p X ts beta HP); eauto. }
      { split; [|split]; auto. }
      rewrite L1. cbn [bind fst snd].
      destruct (lv_final_pre vs E HE (dil_run mc) s eps Heps Hmc e (hG st) p X ts beta HP Hlen (hG st2) q2 tc2 L2)
        as (M1 & M2 & M3 & M4).
      assert (Hle := lv_le vs E HE (dil_run mc) s eps Heps Hmc e (hG st) p X ts beta HP).
      fold P' in Hle, M2.
      (* the new children are the representatives of the new level *)
      assert (HnS : Permutation nS2 (map hrep tc2)).
      { rewrite L5.
        assert (ND1 : NoDup (map (hd 0%nat) P')).
        { assert (PP : is_partition (enabled (hG st) (map hrep ts)) P').
          { destruct HP as (Z1 & Z2 & Z3 & _). eapply P'_part; eauto. }
          assert (ND : NoDup (enabled (hG st) (map hrep ts))).
          { destruct HP as (Z1 & Z2 & Z3 & _). eapply R0_NoDup; eauto. }
          apply (NoDup_map_inj_in (hd 0%nat) P'); [|eapply parts_distinct; eauto].
          intros S S' HS HS' Heq.
          destruct (lv_hd vs E HE (dil_run mc) s eps Heps Hmc e (hG st) p X ts beta HP Hlen S HS) as (_ & h1 & _).
          destruct (lv_hd vs E HE (dil_run mc) s eps Heps Hmc e (hG st) p X ts beta HP Hlen S' HS') as (_ & h2 & _).
          rewrite <- Heq in h2. eapply part_unique; eauto. }
        apply NoDup_Permutation_bis; auto.
        - rewrite !map_length. lia.
        - intros r Hr. apply in_map_iff in Hr. destruct Hr as (S & <- & HS).
          assert (F := F_done _ _ _ _ _ _ _ _ _ _ _ _ _ _ _ L2 S HS).
          apply in_map_iff in F. destruct F as (t & T1 & T2). apply in_map_iff. exists t. split; auto.
          unfold hrep. rewrite T1.
          apply (lv_hd vs E HE (dil_run mc) s eps Heps Hmc e (hG st) p X ts beta HP Hlen S HS). }
      destruct (IH st2 sid nS2 q2 X tc2 (lv_gamma (hG st) ts)) as (st3 & q3 & g3 & ts3 & N1 & N2 & N3 & N4 & N5); auto.
      + lia.
      + exists st3, q3, g3, ts3. split; auto. split; [|split; [|split]]; auto.
        * eapply (lv_final_post vs E HE (dil_run mc) s eps Heps Hmc e (hG st) p X ts beta HP Hlen); eauto.
        * intros c Hc. destruct (N4 c) as [D1 D2].
          { intro C. apply (Permutation_in c HnS) in C. apply in_map_iff in C. destruct C as (t & <- & Ht).
            apply Hc. eapply Permutation_in; [symmetry; exact Hch|]. apply M4; auto. }
          destruct (L4 c Hc). split; congruence.
  Qed.
End HPSP.
