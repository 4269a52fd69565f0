(** * DTThy: correctness of DT::split and DT::run. *)
From Coq Require Import Sorted.
From Verif Require Import Base Spec PartThy SubThy MSets SetsThy MGraph MaxFlow CutThy MDil DilThy
  MDT SeqThy.

Lemma seq_split_left n l v r : seq 0 n = l ++ v :: r -> l = seq 0 v.
Proof.
  intro H. assert (Hl : length l = v).
  { assert (N : nth (length l) (seq 0 n) 0%nat = v).
    { rewrite H. rewrite app_nth2, Nat.sub_diag; simpl; auto. }
    assert (L : (length l < n)%nat).
    { assert (length (seq 0 n) = n) by apply seq_length. rewrite H, app_length in H0. simpl in H0. lia. }
    rewrite seq_nth in N by auto. simpl in N. auto. }
  assert (F : firstn (length l) (seq 0 n) = l).
  { rewrite H, firstn_app, Nat.sub_diag, firstn_all. simpl. apply app_nil_r. }
  rewrite <- F at 1. rewrite Hl.
  assert (L : (v <= n)%nat).
  { assert (length (seq 0 n) = n) by apply seq_length. rewrite H, app_length in H0. simpl in H0. lia. }
  clear -L. replace n with (v + (n - v))%nat by lia. rewrite seq_app.
  rewrite firstn_app, seq_length, Nat.sub_diag. simpl.
  rewrite <- (seq_length v 0) at 1. rewrite firstn_all. apply app_nil_r.
Qed.

Lemma ordered_forward E n : forward E -> ordered E (seq 0 n).
Proof.
  intros Hf l v r H a Ha Hd. rewrite (seq_split_left _ _ _ _ H).
  apply in_seq. assert (F := Hf a Ha). lia.
Qed.

Lemma forward_no_loops E n :
  forward E -> existsb (fun a => (asrc a =? adst a)%nat && (adst a <? n)%nat) E = false.
Proof.
  intro Hf. destruct (existsb _ E) eqn:H; auto. apply existsb_exists in H.
  destruct H as (a & Ha & H). apply andb_true_iff in H. destruct H as [H _].
  apply Nat.eqb_eq in H. apply Hf in Ha. lia.
Qed.

Lemma q_slope (a b p q : Q) : q < p -> (a - b) / (p - q) * (p - q) == a - b.
Proof. intro H. field. lra. Qed.

Lemma q_intercept (a b p q : Q) : q < p -> (p * b - q * a) / (p - q) == b - (a - b) / (p - q) * q.
Proof. intro H. field. lra. Qed.

Lemma card_diff_qn P Qp : card_diff P Qp == qn (length P) - qn (length Qp).
Proof. unfold card_diff, qn, Z.sub. rewrite inject_Z_plus, inject_Z_opp. reflexivity. Qed.

Lemma crossing_nonneg E P : nonneg E -> 0 <= crossing E P.
Proof.
  intro H. apply qsum_nonneg. intros a Ha. specialize (H a Ha).
  destruct (same_part P (asrc a) (adst a)); lra.
Qed.

Lemma crossing_le_total E P : nonneg E -> crossing E P <= total E.
Proof.
  intro H. apply qsum_le. intros a Ha. specialize (H a Ha).
  destruct (same_part P (asrc a) (adst a)); lra.
Qed.

Lemma optimal_wd E vs a b P : a == b -> optimal E vs a P -> optimal E vs b P.
Proof.
  intros H [H1 H2]. split; auto. intros R HR. specialize (H2 R HR).
  rewrite <- !(hval_wd E a b) by auto. auto.
Qed.

Section DT.
  Variable mc : solver.
  Hypothesis Hmc : MinCutSpec mc.
  Variable eps : Q.
  Hypothesis Heps : 0 < eps.
  Variable E : graph.
  Variable n : nat.
  Hypothesis Hn : (1 <= n)%nat.
  Hypothesis HE : graph_on (seq 0 n) E.
  Hypothesis Hs : simple E.
  Hypothesis Hf : forward E.

  Let vs := seq 0 n.

  Lemma vs_nd : NoDup vs. Proof. apply seq_NoDup. Qed.
  Lemma vs_ne : vs <> []. Proof. unfold vs. destruct n; [lia|discriminate]. Qed.

  (** In strict mode the solver reports minimal sink sides. *)
  Variable strict : bool.
  Definition Rl (a b : Q) : Prop := if strict then a < b else a <= b.

  Lemma Rl_le a b : Rl a b -> a <= b.
  Proof. unfold Rl. destruct strict; [apply Qlt_le_weak|auto]. Qed.

  Hypothesis Hstrict : strict = true -> MinSinkCutSpec mc.

  Definition fin_at (lam : Q) (P : list (list nat)) : Prop :=
    optimal E vs lam P /\
    (strict = true -> forall R, optimal E vs lam R -> (length R <= length P)%nat).

  Lemma dt_dil_ok gamma :
    exists m P', dt_dil_run mc gamma E n = Ok (m, P') /\
      fin_at gamma P' /\ m == hval E gamma P' /\ (forall B, In B P' -> csorted B).
  Proof.
    unfold dt_dil_run. rewrite forward_no_loops by auto.
    assert (Ho := ordered_forward E n Hf).
    destruct (dil_run_correct mc Hmc gamma E vs vs_nd HE Hs Ho) as (H1 & H2 & H3).
    exists (fst (dil_run mc gamma E vs)), (snd (dil_run mc gamma E vs)).
    split; [destruct (dil_run mc gamma E vs) eqn:K; unfold vs in K; rewrite K; reflexivity|].
    split; [|split; auto]. split; auto. intros Hst R HR.
    apply (refines_length vs vs_nd); [apply H1|apply HR|].
    apply (dil_run_finest mc Hmc gamma E vs vs_nd HE Hs Ho (Hstrict Hst)); auto.
  Qed.

  Lemma dt_evaluate_crossing P : is_partition vs P -> dt_evaluate E P == crossing E P.
  Proof.
    intro HP. unfold dt_evaluate, get_partition_value.
    rewrite <- (incut_crossing E vs P vs_nd HP) by (intros; apply HE; auto). reflexivity.
  Qed.

  Lemma gamma_slope Qp P :
    is_partition vs Qp -> is_partition vs P -> (length Qp < length P)%nat ->
    dt_gamma E Qp P * (qn (length P) - qn (length Qp)) == crossing E P - crossing E Qp.
  Proof.
    intros HQ HP Hl. unfold dt_gamma. rewrite Qred_correct, card_diff_qn.
    rewrite !dt_evaluate_crossing by auto. apply qn_lt in Hl. apply q_slope, Hl.
  Qed.

  Lemma h_value Qp P :
    is_partition vs Qp -> is_partition vs P -> (length Qp < length P)%nat ->
    dt_h E Qp P == hval E (dt_gamma E Qp P) Qp.
  Proof.
    intros HQ HP Hl. unfold dt_h, dt_gamma, hval. rewrite Qred_correct, card_diff_qn.
    rewrite !dt_evaluate_crossing by auto. apply qn_lt in Hl. apply q_intercept, Hl.
  Qed.

  Lemma h_value' Qp P :
    is_partition vs Qp -> is_partition vs P -> (length Qp < length P)%nat ->
    hval E (dt_gamma E Qp P) P == hval E (dt_gamma E Qp P) Qp.
  Proof.
    intros HQ HP Hl. assert (G := gamma_slope Qp P HQ HP Hl). unfold hval.
    assert (G' : dt_gamma E Qp P * qn (length P) - dt_gamma E Qp P * qn (length Qp)
                 == crossing E P - crossing E Qp) by (rewrite <- G; ring). lra.
  Qed.

  (** The accuracy [delta] guaranteed when the test [min > h - eps] succeeds. *)
  Variable delta : Q.
  Hypothesis Hdelta : forall Qp P R,
    is_partition vs Qp -> is_partition vs P -> is_partition vs R -> (length Qp < length P)%nat ->
    hval E (dt_gamma E Qp P) Qp - eps < hval E (dt_gamma E Qp P) R ->
    hval E (dt_gamma E Qp P) Qp <= hval E (dt_gamma E Qp P) R + delta.

  Section Pair.
    Variables Qp P : list (list nat).
    Variables l1 l2 : Q.
    Hypothesis HQ : fin_at l1 Qp.
    Hypothesis HP : optimal E vs l2 P.
    Hypothesis Hl : (length Qp < length P)%nat.
    Hypothesis H12 : l1 < l2.
    Let g := dt_gamma E Qp P.

    Lemma pair_pQ : is_partition vs Qp. Proof. apply HQ. Qed.
    Lemma pair_pP : is_partition vs P. Proof. apply HP. Qed.

    Lemma gamma_lo : l1 <= g.
    Proof.
      destruct HQ as [[_ H] _]. specialize (H P pair_pP). unfold hval in H.
      assert (G := gamma_slope Qp P pair_pQ pair_pP Hl). fold g in G.
      apply qn_lt in Hl. set (d := qn (length P) - qn (length Qp)) in *.
      assert (K : l1 * d <= g * d).
      { rewrite G. unfold d. assert (l1 * (qn (length P) - qn (length Qp)) ==
          l1 * qn (length P) - l1 * qn (length Qp)) by ring. lra. }
      apply Qmult_lt_0_le_reg_r in K; auto. unfold d; lra.
    Qed.

    Lemma gamma_hi : g <= l2.
    Proof.
      destruct HP as [_ H]. specialize (H Qp pair_pQ). unfold hval in H.
      assert (G := gamma_slope Qp P pair_pQ pair_pP Hl). fold g in G.
      apply qn_lt in Hl. set (d := qn (length P) - qn (length Qp)) in *.
      assert (K : g * d <= l2 * d).
      { rewrite G. unfold d. assert (l2 * (qn (length P) - qn (length Qp)) ==
          l2 * qn (length P) - l2 * qn (length Qp)) by ring. lra. }
      apply Qmult_lt_0_le_reg_r in K; auto. unfold d; lra.
    Qed.

    Lemma gamma_lo_Rl : Rl l1 g.
    Proof.
      assert (L := gamma_lo). unfold Rl. destruct (strict) eqn:Est; auto.
      apply Qle_lteq in L. destruct L as [L|L]; auto. exfalso.
      destruct HQ as [HQ1 HQ2].
      assert (HPo : optimal E vs l1 P).
      { apply optimal_wd with (a := g); [lra|]. split; [apply pair_pP|]. intros R HR.
        unfold g. rewrite h_value' by (auto; apply pair_pQ || apply pair_pP). fold g.
        destruct HQ1 as [_ HQ1]. specialize (HQ1 R HR). rewrite !(hval_wd E l1 g) in HQ1 by auto.
        auto. }
      specialize (HQ2 Est P HPo). lia.
    Qed.

    Lemma pair_refines : refines P Qp.
    Proof. eapply (optimal_nested E vs l2 l1); eauto. apply vs_nd. apply HQ. Qed.

    Variable P' : list (list nat).
    Hypothesis HP' : fin_at g P'.
    Hypothesis Hbelow : hval E g P' < hval E g Qp.

    Lemma mid_lo : l1 < g.
    Proof.
      assert (L := gamma_lo). apply Qle_lteq in L. destruct L as [L|L]; auto. exfalso.
      destruct HQ as [[_ HQ1] _]. specialize (HQ1 P' (proj1 (proj1 HP'))).
      rewrite !(hval_wd E l1 g) in HQ1 by auto. lra.
    Qed.

    Lemma mid_hi : g < l2.
    Proof.
      assert (L := gamma_hi). apply Qle_lteq in L. destruct L as [L|L]; auto. exfalso.
      destruct HP as [_ HP1]. specialize (HP1 P' (proj1 (proj1 HP'))).
      rewrite <- !(hval_wd E g l2) in HP1 by auto.
      assert (X := h_value' Qp P pair_pQ pair_pP Hl). fold g in X. lra.
    Qed.

    Lemma mid_len_lo : (length Qp < length P')%nat.
    Proof.
      assert (R : refines P' Qp).
      { eapply (optimal_nested E vs g l1); eauto. apply vs_nd. apply HP'. apply HQ. apply mid_lo. }
      assert (L : (length Qp <= length P')%nat).
      { apply (refines_length vs vs_nd); auto. apply HP'. apply pair_pQ. }
      destruct (Nat.eq_dec (length Qp) (length P')) as [Heq|]; [exfalso|lia].
      assert (R2 : refines Qp P').
      { apply (refines_eq_length vs vs_nd); auto. apply HP'. apply pair_pQ. }
      assert (X : hval E g Qp == hval E g P').
      { apply (same_partition_hval vs vs_nd); [apply pair_pQ|apply HP'|split; auto]. }
      lra.
    Qed.

    Lemma mid_len_hi : (length P' < length P)%nat.
    Proof.
      assert (R : refines P P').
      { eapply (optimal_nested E vs l2 g); eauto. apply vs_nd. apply HP'. apply mid_hi. }
      assert (L : (length P' <= length P)%nat).
      { apply (refines_length vs vs_nd); auto. apply pair_pP. apply HP'. }
      destruct (Nat.eq_dec (length P) (length P')) as [Heq|]; [exfalso|lia].
      assert (R2 : refines P' P).
      { apply (refines_eq_length vs vs_nd); auto. apply pair_pP. apply HP'. }
      assert (X : hval E g P == hval E g P').
      { apply (same_partition_hval vs vs_nd); [apply pair_pP|apply HP'|split; auto]. }
      assert (Y := h_value' Qp P pair_pQ pair_pP Hl). fold g in Y. lra.
    Qed.
  End Pair.

  Lemma StronglySorted_app {A} (R : A -> A -> Prop) l m :
    StronglySorted R l -> StronglySorted R m ->
    (forall x y, In x l -> In y m -> R x y) -> StronglySorted R (l ++ m).
  Proof.
    induction 1 as [|x l H IH Hx]; simpl; intros Hm Hc; auto.
    constructor.
    - apply IH; auto.
    - apply Forall_forall. intros y Hy. apply in_app_or in Hy. rewrite Forall_forall in Hx.
      destruct Hy; auto.
  Qed.

  Lemma SS_impl {A} (R S : A -> A -> Prop) l :
    (forall x y, R x y -> S x y) -> StronglySorted R l -> StronglySorted S l.
  Proof.
    intros H K. induction K as [|x l K IH Hx]; constructor; auto.
    eapply Forall_impl; [|exact Hx]. auto.
  Qed.

  Theorem dt_split_correct : forall fuel (Qp P : cpart) l1 l2,
    fin_at l1 Qp -> optimal E vs l2 P -> (length Qp < length P)%nat -> l1 < l2 ->
    (length P - length Qp <= fuel)%nat ->
    exists cs ps pin,
      dt_split fuel mc eps E n Qp P = Ok (map Fin cs, ps) /\
      Permutation ps pin /\
      Seg E vs delta Qp cs pin P /\
      (forall c, In c cs -> Rl l1 c /\ c <= l2) /\
      StronglySorted Rl cs /\
      (forall p, In p pin -> (exists lam, optimal E vs lam p) /\ forall B, In B p -> csorted B).
  Proof.
    induction fuel as [|fuel IH]; intros Qp P l1 l2 HQ HP Hl H12 Hfuel; [lia|].
    simpl. destruct (Nat.eqb_spec (length P) (length Qp)) as [C|_]; [lia|].
    destruct (dt_dil_ok (dt_gamma E Qp P)) as (m & P' & Er & HP' & Hm & HB).
    rewrite Er. simpl. set (g := dt_gamma E Qp P) in *.
    assert (pQ := pair_pQ Qp l1 HQ). assert (pP := pair_pP P l2 HP).
    assert (Hh := h_value Qp P pQ pP Hl). fold g in Hh.
    assert (Hleaf : (forall R, is_partition vs R -> hval E g Qp - eps < hval E g R) ->
        exists cs ps pin,
      Ok ([Fin g], []) = Ok (map Fin cs, ps) /\ Permutation ps pin /\
      Seg E vs delta Qp cs pin P /\ (forall c, In c cs -> Rl l1 c /\ c <= l2) /\
      StronglySorted Rl cs /\
      (forall p : cpart, In p pin -> (exists lam, optimal E vs lam p) /\ forall B, In B p -> csorted B)).
    { intro Hall. exists [g], [], []. split; [reflexivity|]. split; [constructor|].
      split; [|split; [|split]].
      - simpl. split; [exact Hl|]. split; [eapply pair_refines; eauto|].
        split; [auto|]. split; [auto|]. split; [apply gamma_slope; auto|].
        split; auto. intros R HR. apply Hdelta; auto.
      - intros c [<-|[]]. split; [eapply gamma_lo_Rl; eauto|eapply gamma_hi; eauto].
      - constructor; constructor.
      - intros p []. }
    destruct (Qltb (dt_h E Qp P - eps) m) eqn:Et; simpl.
    - apply Hleaf. intros R HR. apply Qltb_true in Et.
      destruct HP' as [[_ HP'] _]. specialize (HP' R HR). lra.
    - apply Qltb_false in Et.
      assert (Hbelow : hval E g P' < hval E g Qp) by lra.
      assert (L1 : (length Qp < length P')%nat) by exact (mid_len_lo Qp P l1 l2 HQ HP Hl P' HP' Hbelow).
      assert (L2 : (length P' < length P)%nat) by exact (mid_len_hi Qp P l1 l2 HQ HP Hl P' HP' Hbelow).
      assert (G1 : l1 < g) by exact (mid_lo Qp P l1 l2 HQ HP Hl P' HP' Hbelow).
      assert (G2 : g < l2) by exact (mid_hi Qp P l1 l2 HQ HP Hl P' HP' Hbelow).
      destruct (Nat.eqb_spec (length Qp) (length P')) as [C|_]; [lia|].
      destruct (Nat.eqb_spec (length P) (length P')) as [C|_]; [lia|]. simpl.
      destruct (IH Qp P' l1 g HQ (proj1 HP') L1 G1) as (cs1 & ps1 & pin1 & A1 & A2 & A3 & A4 & A5 & A6);
        [lia|].
      destruct (IH P' P g l2 HP' HP L2 G2) as (cs2 & ps2 & pin2 & B1 & B2 & B3 & B4 & B5 & B6);
        [lia|].
      rewrite A1. simpl. rewrite B1. simpl.
      exists (cs1 ++ cs2), (P' :: ps1 ++ ps2), (pin1 ++ P' :: pin2).
      split; [rewrite map_app; reflexivity|].
      split.
      { rewrite A2, B2. apply Permutation_middle. }
      split; [eapply Seg_app; eauto|].
      split.
      { intros c Hc. apply in_app_or in Hc. destruct Hc as [Hc|Hc].
        - destruct (A4 c Hc) as [X1 X2]. split; [auto|lra].
        - destruct (B4 c Hc) as [X1 X2]. split; auto. apply Rl_le in X1. unfold Rl.
          destruct strict; lra. }
      split.
      { apply StronglySorted_app; auto. intros x y Hx Hy.
        destruct (A4 x Hx) as [_ X2]. destruct (B4 y Hy) as [Y1 _]. unfold Rl in *.
        destruct strict; lra. }
      intros p Hp. apply in_app_or in Hp. destruct Hp as [Hp|[<-|Hp]]; auto.
      split; auto. exists g. apply HP'.
  Qed.

  (** ** The end points *)
  Lemma one_block_fin : fin_at (-1) [vs].
  Proof.
    assert (N := graph_on_nonneg _ _ HE).
    assert (Z : forall R, is_partition vs R -> (2 <= length R)%nat -> hval E (-1) [vs] < hval E (-1) R).
    { intros R HR HL. unfold hval. apply qn_le in HL. change (qn 2) with (2 # 1) in HL.
      simpl length. rewrite qn_1.
      assert (C0 : crossing E [vs] == 0).
      { apply qsum_zero. intros a Ha. destruct (HE a Ha) as (I1 & I2 & _).
        assert (S : same_part [vs] (asrc a) (adst a) = true)
          by (apply same_part_true; exists vs; simpl; auto).
        rewrite S. reflexivity. }
      assert (C1 := crossing_nonneg E R N). lra. }
    assert (O : is_partition vs [vs]) by (apply one_block_part; apply vs_ne).
    split; [split; auto|].
    - intros R HR. destruct (le_lt_dec 2 (length R)) as [L|L]; [apply Qlt_le_weak; auto|].
      assert (L1 := part_length_pos vs vs_nd R vs_ne HR).
      assert (S : same_partition R [vs]).
      { apply part_length_one; auto using vs_nd, vs_ne. lia. }
      rewrite (same_partition_hval vs vs_nd E (-1) R [vs]); auto. lra.
    - intros _ R HR. simpl. destruct (le_lt_dec 2 (length R)) as [L|L]; [|lia].
      exfalso. assert (X := Z R (proj1 HR) L). destruct HR as [_ HR]. specialize (HR _ O). lra.
  Qed.

  Lemma singletons_optimal : optimal E vs (total E + 1) (singletons vs).
  Proof.
    assert (N := graph_on_nonneg _ _ HE).
    split; [apply singletons_part|]. intros R HR.
    assert (L := part_length_le vs vs_nd R HR).
    destruct (Nat.eq_dec (length R) (length vs)) as [Heq|Hne].
    - rewrite (same_partition_hval vs vs_nd E _ R (singletons vs)); auto.
      + lra.
      + apply singletons_part.
      + apply part_length_full; auto using vs_nd.
    - unfold hval. unfold singletons at 2. rewrite map_length.
      assert (K : (S (length R) <= length vs)%nat) by lia. apply qn_le in K. rewrite qn_S in K.
      assert (C1 := crossing_nonneg E R N). assert (C2 := crossing_le_total E (singletons vs) N).
      assert (T0 : 0 <= total E) by (apply qsum_nonneg; exact N).
      assert (0 <= (total E + 1) * (qn (length vs) - qn (length R) - 1))
        by (apply Qmult_le_0_compat; lra).
      assert ((total E + 1) * (qn (length vs) - qn (length R) - 1) ==
              (total E + 1) * qn (length vs) - (total E + 1) * qn (length R) - total E - 1) by ring.
      lra.
  Qed.

  Lemma csorted_singletons : forall B, In B (singletons vs) -> csorted B.
  Proof.
    intros B HB. apply in_map_iff in HB. destruct HB as (x & <- & _).
    constructor; constructor.
  Qed.

  Hypothesis Hn2 : (2 <= n)%nat.

  Theorem dt_run_correct :
    exists lams Ps, dt_run mc eps E n = Ok (map Fin lams, Ps) /\
      full_sequence Rl (near_optimal E vs delta) vs lams Ps /\
      (exists pin, Ps = [vs] :: pin ++ [singletons vs] /\
         Seg E vs delta [vs] lams pin (singletons vs)) /\
      (forall P, In P Ps -> (exists lam, optimal E vs lam P) /\ forall B, In B P -> csorted B).
  Proof.
    assert (T0 : 0 <= total E) by (apply qsum_nonneg; exact (graph_on_nonneg _ _ HE)).
    assert (Lv : length vs = n) by apply seq_length.
    assert (Hlen : (length [vs] < length (singletons vs))%nat).
    { simpl. unfold singletons. rewrite map_length, Lv. lia. }
    destruct (dt_split_correct (S n) [vs] (singletons vs) (-1) (total E + 1))
      as (cs & ps & pin & A1 & A2 & A3 & A4 & A5 & A6).
    - apply one_block_fin.
    - apply singletons_optimal.
    - auto.
    - lra.
    - unfold singletons. rewrite map_length, Lv. simpl. lia.
    - exists cs, ([vs] :: pin ++ [singletons vs]).
      assert (SL := Seg_lengths _ _ _ _ _ _ _ A3).
      split; [|split; [|split]].
      + unfold dt_run. change (pfine n) with (singletons vs). change [cdense n] with [vs].
        rewrite A1. unfold bind. cbv beta iota. cbn [fst snd]. f_equal. f_equal.
        * apply isort_id. clear -A5. induction A5 as [|c cs H IH Hc]; simpl; constructor; auto.
          apply Forall_forall. intros d Hd. apply in_map_iff in Hd.
          destruct Hd as (y & <- & Hy). simpl. rewrite Forall_forall in Hc. apply Hc in Hy.
          apply Rl_le in Hy. apply Qltb_false. auto.
        * apply isort_strict.
          -- intros x y. unfold card_ltb. rewrite Nat.ltb_lt, Nat.ltb_ge. lia.
          -- rewrite A2. apply perm_skip. rewrite <- Permutation_cons_append. auto.
          -- eapply SS_impl; [|exact SL]. simpl. intros x y Hxy. apply Nat.ltb_lt. auto.
      + simpl. split; [apply same_partition_refl|]. split.
        * assert (Hlast : last ([vs] :: pin ++ [singletons vs]) [vs] = singletons vs).
          { rewrite app_comm_cons. apply last_last. }
          simpl in Hlast. rewrite Hlast. apply same_partition_refl.
        * apply Seg_chain; auto.
          -- apply Rl_le.
          -- intros R HR. simpl. apply (part_length_pos vs vs_nd); auto using vs_ne.
          -- intros R HR. unfold singletons. rewrite map_length.
             apply (part_length_le vs vs_nd); auto.
      + exists pin. auto.
      + intros P [<-|HP].
        * split; [exists (-1); apply one_block_fin|]. intros B [<-|[]]. apply csorted_seq.
        * apply in_app_or in HP. destruct HP as [HP|[<-|[]]]; auto.
          split; [exists (total E + 1); apply singletons_optimal|apply csorted_singletons].
  Qed.
End DT.

(** ** Integrality: exactness for weights that are multiples of 1/D. *)
Lemma crossing_multiple D E P : multiples_of D E -> exists z : Z, crossing E P == z # D.
Proof.
  unfold crossing. intro H. induction E as [|a E IH]; simpl.
  - exists 0%Z. unfold Qeq; simpl; auto.
  - destruct IH as (z & Hz). { intros b Hb. apply H. right; auto. }
    destruct (H a (or_introl eq_refl)) as (z1 & Hz1).
    destruct (same_part P (asrc a) (adst a)).
    + exists z. rewrite Hz. lra.
    + exists (z1 + z)%Z. rewrite Hz, Hz1. unfold Qeq, Qplus. simpl Qnum; simpl Qden. rewrite Pos2Z.inj_mul. ring.
Qed.

(** A number that is a multiple of 1/K and larger than -1/K is non-negative. *)
Lemma multiple_gap (z : Z) (x k : Q) : 0 < k -> x * k == inject_Z z -> - (1) < x * k -> 0 <= x.
Proof.
  intros Hk Hz Hlt. rewrite Hz in Hlt.
  assert (0 <= z)%Z.
  { change (- (1)) with (inject_Z (-1)) in Hlt. rewrite <- Zlt_Qlt in Hlt. lia. }
  assert (Hq : 0 <= x * k) by (rewrite Hz; change 0 with (inject_Z 0); rewrite <- Zle_Qle; auto).
  destruct (Qlt_le_dec x 0) as [Hx|Hx]; auto. exfalso.
  assert (0 < (- x) * k) by (apply Qmult_lt_0_compat; lra).
  assert ((- x) * k == - (x * k)) by ring. lra.
Qed.

Lemma integral_gap D E n eps Qp P R :
  (1 <= n)%nat -> graph_on (seq 0 n) E ->
  multiples_of D E -> eps * (Zpos D # 1) * (qn n - 1) < 1 -> 0 <= eps ->
  is_partition (seq 0 n) Qp -> is_partition (seq 0 n) P -> is_partition (seq 0 n) R ->
  (length Qp < length P)%nat ->
  hval E (dt_gamma E Qp P) Qp - eps < hval E (dt_gamma E Qp P) R ->
  hval E (dt_gamma E Qp P) Qp <= hval E (dt_gamma E Qp P) R + 0.
Proof.
  intros Hn HE HD Heps He0 HQ HP HR Hl Hlt.
  assert (G := gamma_slope E n HE Qp P HQ HP Hl). set (g := dt_gamma E Qp P) in *.
  destruct (crossing_multiple D E Qp HD) as (zq & Eq).
  destruct (crossing_multiple D E P HD) as (zp & Ep).
  destruct (crossing_multiple D E R HD) as (zr & Er).
  set (d := qn (length P) - qn (length Qp)) in *.
  assert (Hd : 0 < d) by (apply qn_lt in Hl; unfold d; lra).
  set (DD := Zpos D # 1) in *.
  assert (HDD : 0 < DD) by (unfold DD; reflexivity).
  assert (Hd2 : d <= qn n - 1).
  { assert (X := part_length_le _ (seq_NoDup n 0) P HP). rewrite seq_length in X. apply qn_le in X.
    assert (Y : (1 <= length Qp)%nat).
    { apply (part_length_pos _ (seq_NoDup n 0)); auto. destruct n; [lia|discriminate]. }
    apply qn_le in Y. rewrite qn_1 in Y. unfold d. lra. }
  assert (M : forall z, (z # D) * DD == inject_Z z).
  { intro z. unfold DD, Qeq, Qmult, inject_Z. simpl. lia. }
  set (x := hval E g R - hval E g Qp).
  assert (X : x * (DD * d) ==
     inject_Z ((zr - zq) * (Z.of_nat (length P) - Z.of_nat (length Qp))
               - (zp - zq) * (Z.of_nat (length R) - Z.of_nat (length Qp)))).
  { assert (X1 : x * (DD * d) == ((crossing E R) * DD - (crossing E Qp) * DD) * d
              - (g * d) * DD * (qn (length R) - qn (length Qp))).
    { unfold x, hval. ring. }
    rewrite X1, G, Eq, Er, Ep, !M. unfold Z.sub.
    rewrite !inject_Z_plus, !inject_Z_opp, !inject_Z_mult, !inject_Z_plus, !inject_Z_opp.
    unfold d, qn.
    assert (X2 : ((zp # D) - (zq # D)) * DD == inject_Z zp - inject_Z zq).
    { rewrite <- !M. ring. }
    rewrite X2. ring. }
  assert (0 <= x).
  { apply (multiple_gap _ x (DD * d) ltac:(apply Qmult_lt_0_compat; auto) X).
    assert (K1 : - eps < x) by (unfold x; lra).
    assert (K2 : 0 < (x + eps) * (DD * d)).
    { apply Qmult_lt_0_compat; [lra|]. apply Qmult_lt_0_compat; auto. }
    assert (K3 : 0 <= (eps * DD) * (qn n - 1 - d)).
    { apply Qmult_le_0_compat; [|lra]. apply Qmult_le_0_compat; lra. }
    assert (K4 : (x + eps) * (DD * d) == x * (DD * d) + eps * DD * d) by ring.
    assert (K5 : (eps * DD) * (qn n - 1 - d) == eps * DD * (qn n - 1) - eps * DD * d) by ring.
    lra. }
  unfold x in *. lra.
Qed.
