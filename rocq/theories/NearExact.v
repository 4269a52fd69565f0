(** * NearExact: near-optimal sequences on weights that are multiples of 1/D are exact. *)
From Coq Require Import Qabs Sorted.
From Verif Require Import Base Graph Spec PartThy MSets SetsThy CutThy MDT SeqThy DTThy PSPThy DTTop ApproxThy
  MFloat FloatThy.

(** Near-optimality moves from one graph to another one. *)
Lemma near_transfer E F vs lam del g P :
  (forall R, is_partition vs R -> near g (crossing F R) (crossing E R)) ->
  near_optimal F vs del lam P -> near_optimal E vs (del + 2 * g) lam P.
Proof.
  intros H [HP HO]. split; auto. intros R HR. specialize (HO R HR).
  destruct (H P HP) as [A1 A2]. destruct (H R HR) as [B1 B2]. unfold hval in *. lra.
Qed.

Section NearExact.
  Variable E : graph.
  Variable n : nat.
  Hypothesis Hn : (2 <= n)%nat.
  Let vs := seq 0 n.
  Hypothesis HE : graph_on vs E.
  Variable D : positive.
  Hypothesis HD : multiples_of D E.
  Variable del : Q.
  Hypothesis Hdel : 0 <= del.
  Hypothesis Htol : fine_tol D n (qn n * del).

  Let Hnd : NoDup vs := seq_NoDup n 0.
  Let Hne : vs <> [].
  Proof. unfold vs. destruct n; [lia|discriminate]. Qed.

  Lemma plen P : is_partition vs P -> 1 <= qn (length P) /\ qn (length P) <= qn n.
  Proof.
    intro HP. split.
    - change 1 with (qn 1). apply qn_le. apply (part_length_pos vs Hnd); auto.
    - apply qn_le. assert (L := part_length_le vs Hnd P HP). unfold vs in L. rewrite seq_length in L. auto.
  Qed.

  (** Two neighbours that are near-optimal at the same level are optimal at their slope. *)
  Lemma pair_exact c P P' : near_optimal E vs del c P -> near_optimal E vs del c P' -> (length P < length P')%nat ->
    exists s, s * (qn (length P') - qn (length P)) == crossing E P' - crossing E P /\ near del c s /\
      optimal E vs s P /\ optimal E vs s P'.
  Proof.
    intros [HP O] [HP' O'] Hl.
    set (s := dt_gamma E P P'). assert (G := gamma_slope E n HE P P' HP HP' Hl). fold s in G.
    exists s. split; [exact G|].
    destruct (plen P HP) as [P1 P2]. destruct (plen P' HP') as [P1' P2'].
    assert (L1 : qn (S (length P)) <= qn (length P')) by (apply qn_le; lia). rewrite qn_S in L1.
    set (k := qn (length P') - qn (length P)) in *.
    assert (K1 : 1 <= k) by (unfold k; lra).
    assert (V : hval E c P - hval E c P' == (c - s) * k).
    { assert (V1 : (c - s) * k == c * k - s * k) by ring. rewrite V1, G. unfold hval, k. ring. }
    assert (A := O P' HP'). assert (B := O' P HP).
    assert (Nr : near del c s).
    { split.
      - destruct (Qlt_le_dec del (c - s)) as [C|C]; auto. exfalso.
        assert (0 <= (c - s) * (k - 1)) by (apply Qmult_le_0_compat; lra). lra.
      - destruct (Qlt_le_dec del (s - c)) as [C|C]; auto. exfalso.
        assert (0 <= (s - c) * (k - 1)) by (apply Qmult_le_0_compat; lra). lra. }
    split; auto.
    assert (Near : forall R, is_partition vs R -> hval E s P - qn n * del <= hval E s R).
    { intros R HR. specialize (O R HR). destruct (plen R HR) as [R1 R2]. destruct Nr as [N1 N2].
      assert (X : hval E s P - hval E s R == hval E c P - hval E c R + (c - s) * (qn (length P) - qn (length R))) by (unfold hval; ring).
      assert (Y : (c - s) * (qn (length P) - qn (length R)) <= del * (qn n - 1)).
      { destruct (Qlt_le_dec (qn (length P)) (qn (length R))) as [C|C].
        - assert (0 <= (del - (s - c)) * (qn (length R) - qn (length P))) by (apply Qmult_le_0_compat; lra).
          assert (0 <= del * (qn n - 1 - (qn (length R) - qn (length P)))) by (apply Qmult_le_0_compat; lra). lra.
        - assert (0 <= (del - (c - s)) * (qn (length P) - qn (length R))) by (apply Qmult_le_0_compat; lra).
          assert (0 <= del * (qn n - 1 - (qn (length P) - qn (length R)))) by (apply Qmult_le_0_compat; lra). lra. }
      lra. }
    assert (N0 : 0 <= qn n * del) by (apply Qmult_le_0_compat; auto using qn_nonneg).
    assert (Ex : forall R, is_partition vs R -> hval E s P <= hval E s R).
    { intros R HR. specialize (Near R HR).
      destruct (crossing_multiple D E P HD) as (z1 & E1). destruct (crossing_multiple D E P' HD) as (z2 & E2).
      apply (level_gap D E s (z2 - z1) (Z.of_nat (length P') - Z.of_nat (length P)) (qn n * del)); auto.
      - unfold Z.sub. rewrite inject_Z_plus, inject_Z_opp. unfold k, qn, Qminus in G. rewrite G, E1, E2.
        unfold Qeq, Qplus, Qopp. simpl Qnum; simpl Qden. rewrite Pos2Z.inj_mul. ring.
      - lia.
      - apply (fine_tol_le D n (qn n * del)); auto; try lra; [lia|].
        assert (L := part_length_le vs Hnd P' HP'). unfold vs in L. rewrite seq_length in L.
        assert (L2 := part_length_pos vs Hnd P Hne HP). lia. }
    split; [split; auto|]. split; auto. intros R HR. specialize (Ex R HR).
    assert (Z : hval E s P' == hval E s P); [|lra].
    assert (Z1 : s * k == s * qn (length P') - s * qn (length P)) by (unfold k; ring). unfold hval. lra.
  Qed.

  Lemma chain_exact cs : forall Ps P lo lo',
    seq_chain Qle (near_optimal E vs del) lo P cs Ps -> cs <> [] \/ lo' <> None ->
    match lo' with
    | None => forall R, is_partition vs R -> (length P <= length R)%nat
    | Some l => optimal E vs l P /\ forall s, optimal E vs s P -> l <= s
    end ->
    (forall R, is_partition vs R -> (length R <= length (last Ps P))%nat) ->
    exists lams, seq_chain Qle (optimal E vs) lo' P lams Ps /\ Forall2 (near del) cs lams /\ slopes E lams (P :: Ps).
  Proof.
    induction cs as [|c cs IH]; intros Ps P lo lo' H Hc Hlo Htop; destruct Ps as [|P' Ps]; try (simpl in H; contradiction).
    - destruct lo' as [l|]; [|destruct Hc; congruence]. destruct Hlo as [Ol _].
      exists []. split; [|split; constructor]. cbn [seq_chain]. intros lam Hl. apply near_optimal_0.
      apply (near_above E vs 0 l); auto. apply near_optimal_0. auto.
    - destruct H as (H1 & H2 & H3 & H4 & H5).
      assert (NP : near_optimal E vs del c P) by (apply H2; [destruct lo; auto|lra]).
      assert (NP' : near_optimal E vs del c P').
      { destruct cs as [|c2 cs], Ps as [|P2 Ps]; try (simpl in H5; contradiction).
        - apply H5. lra.
        - destruct H5 as (A1 & A2 & _). apply A2; lra. }
      destruct (pair_exact c P P' NP NP' H4) as (s & S1 & S2 & S3 & S4).
      assert (Mn : forall s', optimal E vs s' P' -> s <= s').
      { intros s' [_ O]. specialize (O P (proj1 NP)).
        assert (L1 : qn (S (length P)) <= qn (length P')) by (apply qn_le; lia). rewrite qn_S in L1.
        set (k := qn (length P') - qn (length P)) in *.
        assert (V : hval E s' P - hval E s' P' == (s' - s) * k).
        { assert (V1 : (s' - s) * k == s' * k - s * k) by ring. rewrite V1, S1. unfold hval, k. ring. }
        destruct (Qlt_le_dec s' s) as [C|C]; auto. exfalso.
        assert (0 < (s - s') * k) by (apply Qmult_lt_0_compat; [lra|unfold k; lra]). lra. }
      assert (La : last (P' :: Ps) P = last Ps P').
      { clear. revert P P'. induction Ps as [|P2 Ps IH]; intros P P'; auto.
        change (last (P' :: P2 :: Ps) P) with (last (P2 :: Ps) P). rewrite (IH P P2), (IH P' P2). auto. }
      rewrite La in Htop.
      destruct (IH Ps P' (Some c) (Some s) H5 ltac:(right; discriminate) (conj S4 Mn) Htop) as (lams & L1 & L2 & L3).
      exists (s :: lams). split; [|split; constructor; auto].
      cbn [seq_chain]. split; [destruct lo' as [l|]; auto; apply Hlo; auto|].
      split; [|split; [auto|split; auto]].
      intros lam Hl1 Hl2. apply near_optimal_0. destruct lo' as [l|].
      + apply (near_between E vs 0 l s); auto; apply near_optimal_0; auto. apply Hlo.
      + apply (near_below E vs 0 s); auto. apply near_optimal_0; auto.
  Qed.

  Theorem near_exact cs Ps : IsNearPSP E vs del cs Ps ->
    exists lams, IsWeakPSP E vs lams Ps /\ slopes E lams Ps /\ Forall2 (near del) cs lams.
  Proof.
    intro H. destruct Ps as [|P Ps]; [destruct H|]. destruct H as (H1 & H2 & H3).
    assert (La : last (P :: Ps) P = last Ps P) by (destruct Ps; reflexivity). rewrite La in H2.
    assert (Hlen : forall Q0 S, is_partition vs Q0 -> is_partition vs S -> same_partition Q0 S -> length Q0 = length S).
    { intros Q0 S A B [R1 R2]. assert (X := refines_length vs Hnd _ _ A B R1). assert (Y := refines_length vs Hnd _ _ B A R2). lia. }
    assert (HP : is_partition vs P /\ is_partition vs (last Ps P)).
    { clear -H3. assert (K : forall cs Ps P lo, seq_chain Qle (near_optimal E vs del) lo P cs Ps -> is_partition vs P /\ is_partition vs (last Ps P)).
      { clear. induction cs as [|c cs IH]; intros [|P' Ps] P lo H; try (simpl in H; contradiction).
        - assert (K : is_partition vs P); [|simpl; auto]. destruct lo as [l|]; [apply (H l); lra|apply (H 0); auto].
        - destruct H as (H1 & H2 & _ & _ & H5). destruct (IH _ _ _ H5) as [K1 K2].
          assert (La : last (P' :: Ps) P = last Ps P').
          { clear. revert P P'. induction Ps as [|P2 Ps IH]; intros P P'; auto.
            change (last (P' :: P2 :: Ps) P) with (last (P2 :: Ps) P). rewrite (IH P P2), (IH P' P2). auto. }
          rewrite La. split; auto. apply (H2 c); [destruct lo; auto|lra]. }
      eapply K; eauto. }
    destruct HP as [HP HL].
    assert (L1 := Hlen _ _ HP (one_block_part vs Hne) H1). assert (L2 := Hlen _ _ HL (singletons_part vs) H2).
    unfold singletons in L2. rewrite map_length in L2. unfold vs in L2 at 1. rewrite seq_length in L2.
    destruct (chain_exact cs Ps P None None H3) as (lams & K1 & K2 & K3).
    - left. intro C. subst cs. destruct Ps; [|simpl in H3; contradiction]. simpl in *. lia.
    - intros R HR. rewrite L1. simpl. apply (part_length_pos vs Hnd); auto.
    - intros R HR. rewrite L2. assert (K := part_length_le vs Hnd R HR). unfold vs in K. rewrite seq_length in K. auto.
    - exists lams. split; [|split; auto]. split; auto. split; [|auto]. rewrite La. auto.
  Qed.
End NearExact.
