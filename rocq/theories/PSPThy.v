(** * PSPThy: facts about principal sequences that hold for any algorithm. *)
From Coq Require Import Sorted.
From Verif Require Import Base Spec PartThy SubThy CutThy SeqThy.

Section PSP.
  Variable E : graph.
  Variable vs : list nat.
  Hypothesis Hnd : NoDup vs.
  Hypothesis HE : graph_on vs E.

  Lemma nested2 a b P R : a < b -> optimal E vs b P -> optimal E vs a R -> refines P R.
  Proof. intros H H1 H2. exact (optimal_nested E vs b a P R Hnd HE H1 H2 H). Qed.

  (** A partition optimal at two levels is the only optimum in between. *)
  Lemma optimal_interval_unique a b P R :
    a < b -> optimal E vs a P -> optimal E vs b P -> optimal E vs a R -> optimal E vs b R ->
    same_partition P R.
  Proof. intros H H1 H2 H3 H4. split; eapply nested2; eauto. Qed.

  Lemma optimal_same lam P R :
    same_partition P R -> is_partition vs R -> optimal E vs lam P -> optimal E vs lam R.
  Proof.
    intros HS HR [H1 H2]. split; auto. intros S HSp.
    rewrite (same_partition_hval vs Hnd E lam R P); auto. apply same_partition_sym; auto.
  Qed.

  Lemma same_length P R :
    is_partition vs P -> is_partition vs R -> same_partition P R -> length P = length R.
  Proof.
    intros HP HR [H1 H2]. apply Nat.le_antisymm; eapply (refines_length vs Hnd); eauto.
  Qed.

  Notation chain := (seq_chain Qlt (optimal E vs)).

  Lemma chain_good lo P lams Ps lam :
    chain lo P lams Ps -> (match lo with None => True | Some l => l <= lam end) ->
    (match lams with [] => True | l :: _ => lam <= l end) -> optimal E vs lam P.
  Proof.
    destruct lams as [|l lams], Ps as [|P' Ps]; simpl; try tauto.
    - intros H H1 _. auto.
    - intros (_ & H & _) H1 H2. auto.
  Qed.

  (** After a critical value the next partition stays optimal for a while. *)
  Lemma chain_room l P lams Ps :
    chain (Some l) P lams Ps ->
    exists u, l < u /\ forall x, l <= x -> x <= u -> optimal E vs x P.
  Proof.
    destruct lams as [|l1 lams], Ps as [|P' Ps]; simpl; try tauto.
    - intro H. exists (l + 1). split; [lra|]. intros; auto.
    - intros (H0 & H & _). exists l1. split; auto.
  Qed.

  Lemma chain_room_unique l P lams Ps P' lams' Ps' :
    chain (Some l) P lams Ps -> chain (Some l) P' lams' Ps' -> same_partition P P'.
  Proof.
    intros H H'. destruct (chain_room _ _ _ _ H) as (u & U1 & U2).
    destruct (chain_room _ _ _ _ H') as (u' & U1' & U2').
    assert (exists m, l < m /\ m <= u /\ m <= u') as (m & M1 & M2 & M3).
    { destruct (Qlt_le_dec u u'); [exists u|exists u']; repeat split; auto; lra. }
    apply (optimal_interval_unique l m); [lra|apply U2; lra|apply U2; lra|apply U2'; lra|apply U2'; lra].
  Qed.

  (** A partition still optimal beyond the next critical value contradicts strict refinement. *)
  Lemma chain_stuck P l R Rs lams m :
    (length P < length R)%nat -> chain (Some l) R lams Rs -> l < m ->
    optimal E vs l P -> (forall x, l <= x -> x <= m -> optimal E vs x P) -> False.
  Proof.
    intros HL H Hm Hl HP. destruct (chain_room _ _ _ _ H) as (u & U1 & U2).
    assert (exists k, l < k /\ k <= u /\ k <= m) as (k & K1 & K2 & K3).
    { destruct (Qlt_le_dec u m); [exists u|exists m]; repeat split; auto; lra. }
    assert (S : same_partition P R).
    { apply (optimal_interval_unique l k); [lra|auto|apply HP; lra|apply U2; lra|apply U2; lra]. }
    apply same_length in S; [lia|apply Hl|]. apply (U2 l); lra.
  Qed.

  Definition lo_eq (a b : option Q) : Prop :=
    match a, b with None, None => True | Some x, Some y => x == y | _, _ => False end.

  Lemma lo_eq_lam a b lam : lo_eq a b ->
    (match a with None => True | Some l => l <= lam end) ->
    (match b with None => True | Some l => l <= lam end).
  Proof. destruct a, b; simpl; try tauto. intros; lra. Qed.

  Lemma lo_eq_sym a b : lo_eq a b -> lo_eq b a.
  Proof. destruct a, b; simpl; auto. intro; symmetry; auto. Qed.

  Lemma chain_wd lo lo' P lams Ps : lo_eq lo lo' -> chain lo P lams Ps -> chain lo' P lams Ps.
  Proof.
    intro Hlo. destruct lams as [|l lams], Ps as [|P' Ps]; simpl; try tauto.
    - intros H lam Hlam. apply H. eapply lo_eq_lam; [apply lo_eq_sym|]; eauto.
    - intros (H1 & H2 & H3). split; [|split; auto].
      + destruct lo, lo'; simpl in *; try tauto. lra.
      + intros lam Hlam. apply H2. eapply lo_eq_lam; [apply lo_eq_sym|]; eauto.
  Qed.

  Lemma chain_cross lo P P' l lams R Rs l' lams' R' Rs' :
    same_partition P P' -> is_partition vs P -> is_partition vs P' ->
    chain lo P (l :: lams) (R :: Rs) -> chain lo P' (l' :: lams') (R' :: Rs') -> l < l' -> False.
  Proof.
    intros HS HP HP' H H' Hlt. simpl in H, H'.
    destruct H as (H1 & H2 & H3 & H4 & H5). destruct H' as (H1' & H2' & H3' & H4' & H5').
    assert (Z : forall x, l <= x -> x <= l' -> optimal E vs x P).
    { intros x X1 X2. apply (optimal_same x P' P); auto using same_partition_sym.
      apply H2'; auto. destruct lo; auto. lra. }
    eapply (chain_stuck P l R Rs lams l'); eauto. apply Z; lra.
  Qed.

  Lemma chain_end lo P P' l lams R Rs :
    same_partition P P' -> is_partition vs P ->
    chain lo P (l :: lams) (R :: Rs) -> chain lo P' [] [] -> False.
  Proof.
    intros HS HP H H'. simpl in H, H'. destruct H as (H1 & H2 & H3 & H4 & H5).
    assert (Z : forall x, l <= x -> optimal E vs x P).
    { intros x X1. apply (optimal_same x P' P); auto using same_partition_sym.
      apply H'. destruct lo; auto. lra. }
    apply (chain_stuck P l R Rs lams (l + 1)); auto; try lra. apply Z; lra.
  Qed.

  Lemma chain_part lo P lams Ps : chain lo P lams Ps -> is_partition vs P.
  Proof.
    destruct lams as [|l lams], Ps as [|P' Ps]; simpl; try tauto.
    - intro H. destruct lo as [l|]; [apply (H l); lra|apply (H 0); auto].
    - intros (H0 & H & _). destruct lo as [l0|]; [apply (H l0); lra|apply (H l); auto; lra].
  Qed.

  Lemma chain_unique : forall lams Ps lo P P' lams' Ps',
    same_partition P P' -> chain lo P lams Ps -> chain lo P' lams' Ps' ->
    Forall2 Qeq lams lams' /\ Forall2 same_partition Ps Ps'.
  Proof.
    induction lams as [|l lams IH]; intros Ps lo P P' lams' Ps' HS H H';
      destruct Ps as [|R Rs]; simpl in H; try tauto;
      destruct lams' as [|l' lams'], Ps' as [|R' Rs']; try (simpl in H'; tauto).
    - auto.
    - exfalso. apply (chain_end lo P' P l' lams' R' Rs'); auto using same_partition_sym.
      eapply chain_part; eauto.
    - exfalso. apply (chain_end lo P P' l lams R Rs); auto.
      apply (chain_part lo P (l :: lams) (R :: Rs)); exact H.
    - assert (HP : is_partition vs P) by (apply (chain_part lo P (l :: lams) (R :: Rs)); exact H).
      assert (HP' : is_partition vs P') by (eapply chain_part; eauto).
      assert (El : l == l').
      { destruct (Qlt_le_dec l l') as [L|L].
        - exfalso. exact (chain_cross lo P P' l lams R Rs l' lams' R' Rs' HS HP HP' H H' L).
        - destruct (Qlt_le_dec l' l) as [L'|L']; [|lra]. exfalso.
          exact (chain_cross lo P' P l' lams' R' Rs' l lams R Rs (same_partition_sym _ _ HS)
                   HP' HP H' H L'). }
      simpl in H'. destruct H as (H1 & H2 & H3 & H4 & H5).
      destruct H' as (H1' & H2' & H3' & H4' & H5').
      assert (H6 : chain (Some l) R' lams' Rs')
        by (apply (chain_wd (Some l') (Some l)); auto; simpl; lra).
      assert (HR : same_partition R R') by (eapply chain_room_unique; eauto).
      destruct (IH Rs (Some l) R R' lams' Rs' HR H5 H6) as [I1 I2].
      split; constructor; auto.
  Qed.

  Theorem psp_unique lams Ps lams' Ps' :
    IsPSP E vs lams Ps -> IsPSP E vs lams' Ps' ->
    Forall2 Qeq lams lams' /\ Forall2 same_partition Ps Ps'.
  Proof.
    unfold IsPSP, full_sequence. destruct Ps as [|P Ps], Ps' as [|P' Ps']; try tauto.
    intros (H1 & _ & H2) (H1' & _ & H2').
    assert (HS : same_partition P P')
      by (eapply same_partition_trans; [exact H1|apply same_partition_sym; auto]).
    destruct (chain_unique _ _ _ _ _ _ _ HS H2 H2'). split; auto.
  Qed.

  (** Every member of the sequence is the finest optimum of some level, and every finest optimum of
      some level is a member. *)
  Definition finest_at (lam : Q) (P : list (list nat)) : Prop :=
    optimal E vs lam P /\ forall R, optimal E vs lam R -> (length R <= length P)%nat.

  Lemma chain_member_finest : forall lams Ps lo P,
    chain lo P lams Ps -> forall M, In M (P :: Ps) -> exists lam,
      (match lo with None => True | Some l => l <= lam end) /\ finest_at lam M.
  Proof.
    induction lams as [|l lams IH]; intros Ps lo P H M HM; destruct Ps as [|R Rs];
      try (simpl in H; tauto).
    - destruct HM as [<-|[]]. simpl in H.
      exists (match lo with None => 1 | Some l => l + 1 end). split; [destruct lo; auto; lra|].
      split.
      + apply H. destruct lo; auto; lra.
      + intros R HR. eapply (refines_length vs Hnd); [|apply HR|].
        * apply (H (match lo with None => 2 | Some l => l + 2 end)). destruct lo; auto; lra.
        * apply (nested2 (match lo with None => 1 | Some l => l + 1 end)
                   (match lo with None => 2 | Some l => l + 2 end)); auto.
          -- destruct lo; lra.
          -- apply H. destruct lo; auto; lra.
    - simpl in H. destruct H as (H1 & H2 & H3 & H4 & H5). destruct HM as [<-|HM].
      + set (x := match lo with None => l - 1 | Some l0 => (l0 + l) * (1#2) end).
        assert (X : x < l) by (unfold x; destruct lo; lra).
        assert (X' : match lo with None => True | Some l0 => l0 <= x end)
          by (unfold x; destruct lo; auto; lra).
        exists x. split; auto. split; [apply H2; auto; lra|].
        intros R' HR'. eapply (refines_length vs Hnd); [|apply HR'|].
        * apply (H2 l); [|lra]. destruct lo; auto. lra.
        * apply (nested2 x l); auto. apply H2; [|lra]. destruct lo; auto. lra.
      + destruct (IH Rs (Some l) R H5 M HM) as (lam & L1 & L2). exists lam. split; auto.
        destruct lo; auto. lra.
  Qed.

  Lemma finest_unique lam P R : finest_at lam P -> finest_at lam R -> length P = length R.
  Proof. intros [H1 H2] [H3 H4]. apply Nat.le_antisymm; auto. Qed.

  (** Which member is finest at a given level. *)
  Lemma chain_level : forall lams Ps lo P lam,
    chain lo P lams Ps -> (match lo with None => True | Some l => l <= lam end) ->
    exists M, In M (P :: Ps) /\ optimal E vs lam M /\
      exists mu, lam < mu /\ optimal E vs mu M.
  Proof.
    induction lams as [|l lams IH]; intros Ps lo P lam H Hlo; destruct Ps as [|R Rs];
      try (simpl in H; tauto).
    - simpl in H. exists P. split; [left; auto|]. split; [auto|]. exists (lam + 1).
      split; [lra|]. apply H. destruct lo; auto. lra.
    - simpl in H. destruct H as (H1 & H2 & H3 & H4 & H5).
      destruct (Qlt_le_dec lam l) as [L|L].
      + exists P. split; [left; auto|]. split; [apply H2; auto; lra|]. exists l. split; auto.
        apply H2; [|lra]. destruct lo; auto. lra.
      + destruct (IH Rs (Some l) R lam H5 L) as (M & M1 & M2). exists M. split; auto. right; auto.
  Qed.

  Lemma finest_member lams Ps lam P :
    IsPSP E vs lams Ps -> finest_at lam P -> exists M, In M Ps /\ same_partition P M.
  Proof.
    unfold IsPSP, full_sequence. destruct Ps as [|P0 Ps]; [tauto|]. intros (_ & _ & H) HP.
    destruct (chain_level _ _ _ _ lam H I) as (M & M1 & M2 & mu & M3 & M4).
    exists M. split; auto.
    assert (R : refines M P) by (apply (nested2 lam mu); auto; apply HP).
    split; auto.
    assert (L1 : (length P <= length M)%nat)
      by (apply (refines_length vs Hnd); auto; [apply M2|apply HP]).
    assert (L2 : (length M <= length P)%nat) by (apply HP; auto).
    apply (refines_eq_length vs Hnd); auto; [apply M2|apply HP|lia].
  Qed.

  Lemma member_finest lams Ps M :
    IsPSP E vs lams Ps -> In M Ps -> exists lam, finest_at lam M.
  Proof.
    unfold IsPSP, full_sequence. destruct Ps as [|P0 Ps]; [tauto|]. intros (_ & _ & H) HM.
    destruct (chain_member_finest _ _ _ _ H M HM) as (lam & _ & HL). eauto.
  Qed.

  Lemma full_sequence_level (good : Q -> list (list nat) -> Prop) : forall lams Ps lo P lam,
    seq_chain Qle good lo P lams Ps ->
    (match lo with None => True | Some l => l <= lam end) ->
    exists M, In M (P :: Ps) /\ good lam M.
  Proof.
    induction lams as [|l lams IH]; intros Ps lo P lam H Hlo; destruct Ps as [|R Rs];
      try (simpl in H; tauto).
    - simpl in H. exists P. split; [left; auto|]. auto.
    - simpl in H. destruct H as (H1 & H2 & H3 & H4 & H5).
      destruct (Qlt_le_dec lam l) as [L|L].
      + exists P. split; [left; auto|]. apply H2; auto; lra.
      + destruct (IH Rs (Some l) R lam H5 L) as (M & M1 & M2). exists M. split; auto. right; auto.
  Qed.
End PSP.

(** ** Common denominators *)
Lemma multiples_ex E : exists D, multiples_of D E.
Proof.
  induction E as [|a E (D & HD)].
  - exists 1%positive. intros a [].
  - exists (Qden (aw a) * D)%positive. intros b [<-|Hb].
    + exists (Qnum (aw a) * Zpos D)%Z. unfold Qeq. simpl. rewrite Pos2Z.inj_mul. ring.
    + destruct (HD b Hb) as (z & Hz). exists (z * Zpos (Qden (aw a)))%Z. rewrite Hz.
      unfold Qeq. simpl. rewrite Pos2Z.inj_mul. ring.
Qed.
