(** * ApproxThy: dt and psp_i with an approximate max-flow solver, on weights that are multiples of 1/D. *)
From Coq Require Import Sorted.
From Verif Require Import Base Spec PartThy SubThy MSets SetsThy MGraph MaxFlow CutThy MDil DilThy
  MDT SeqThy DTThy PSPThy DTTop MContract ContractThy MPSPI TreeThy DecThy PSPIThy PSPILoop DilApprox.

(** At a level whose slope is a multiple of 1/(D d), values closer than 1/(D d) are ordered exactly. *)
Lemma level_gap D E g (c d : Z) e R1 R2 :
  multiples_of D E -> g * inject_Z d == c # D -> (0 < d)%Z -> 0 <= e ->
  e * (Zpos D # 1) * inject_Z d < 1 ->
  hval E g R1 - e <= hval E g R2 -> hval E g R1 <= hval E g R2.
Proof.
  intros HD Hg Hd He Hf Hle.
  destruct (crossing_multiple D E R1 HD) as (z1 & E1). destruct (crossing_multiple D E R2 HD) as (z2 & E2).
  set (DD := Zpos D # 1) in *. assert (HDD : 0 < DD) by reflexivity.
  assert (M : forall z, (z # D) * DD == inject_Z z).
  { intro z. unfold DD, Qeq, Qmult, inject_Z. simpl. lia. }
  assert (Hq : 0 < inject_Z d) by (change 0 with (inject_Z 0); rewrite <- Zlt_Qlt; auto).
  set (x := hval E g R2 - hval E g R1).
  assert (X : x * (DD * inject_Z d) ==
    inject_Z ((z2 - z1) * d - c * (Z.of_nat (length R2) - Z.of_nat (length R1)))).
  { assert (X1 : x * (DD * inject_Z d) == (crossing E R2 * DD - crossing E R1 * DD) * inject_Z d
              - (g * inject_Z d) * DD * (qn (length R2) - qn (length R1))).
    { unfold x, hval. ring. }
    rewrite X1, Hg, E1, E2, !M. unfold Z.sub.
    rewrite !inject_Z_plus, !inject_Z_opp, !inject_Z_mult, !inject_Z_plus, !inject_Z_opp. unfold qn. ring. }
  assert (0 <= x); [|unfold x in *; lra].
  apply (multiple_gap _ x (DD * inject_Z d) ltac:(apply Qmult_lt_0_compat; auto) X).
  assert (K1 : - e <= x) by (unfold x; lra).
  assert (K2 : 0 <= (x + e) * (DD * inject_Z d)).
  { apply Qmult_le_0_compat; [lra|]. apply Qlt_le_weak, Qmult_lt_0_compat; auto. }
  assert (K4 : (x + e) * (DD * inject_Z d) == x * (DD * inject_Z d) + e * DD * inject_Z d) by ring.
  lra.
Qed.

Lemma fine_tol_le D n e e' d : fine_tol D n e -> 0 <= e' -> e' <= e -> (0 < d)%Z -> (d <= Z.of_nat n - 1)%Z ->
  e' * (Zpos D # 1) * inject_Z d < 1.
Proof.
  unfold fine_tol. intros H H0 H1 H2 H3. set (DD := Zpos D # 1) in *. assert (HDD : 0 < DD) by reflexivity.
  assert (Hq : 0 <= inject_Z d) by (change 0 with (inject_Z 0); rewrite <- Zle_Qle; lia).
  assert (Hd : inject_Z d <= qn n - 1).
  { unfold qn. change 1 with (inject_Z 1). unfold Qminus. rewrite <- inject_Z_opp, <- inject_Z_plus, <- Zle_Qle. lia. }
  assert (A : 0 <= (e - e') * (DD * inject_Z d)).
  { apply Qmult_le_0_compat; [lra|]. apply Qmult_le_0_compat; lra. }
  assert (B : 0 <= (e * DD) * (qn n - 1 - inject_Z d)).
  { apply Qmult_le_0_compat; [apply Qmult_le_0_compat; lra|lra]. }
  assert (A2 : (e - e') * (DD * inject_Z d) == e * DD * inject_Z d - e' * DD * inject_Z d) by ring.
  assert (B2 : (e * DD) * (qn n - 1 - inject_Z d) == e * DD * (qn n - 1) - e * DD * inject_Z d) by ring.
  lra.
Qed.

Lemma dt_dil_approx d mc n gamma E : 0 <= d -> ApproxCutSpec d n mc ->
  graph_on (seq 0 n) E -> simple E -> forward E ->
  exists m P, dt_dil_run mc gamma E n = Ok (m, P) /\ is_partition (seq 0 n) P /\ (forall B, In B P -> csorted B) /\
    hval E gamma P <= m + (2 * qn n - qn (length P)) * d /\
    forall R, is_partition (seq 0 n) R -> m <= hval E gamma R + qn (length R) * d.
Proof.
  intros Hd Hmc HE Hs Hf. unfold dt_dil_run. rewrite forward_no_loops by auto.
  assert (H := dil_run_approx d Hd mc n Hmc gamma E (seq 0 n) (seq_NoDup n 0) HE Hs (ordered_forward E n Hf)
           ltac:(rewrite seq_length; auto)).
  cbv zeta in H. rewrite seq_length in H.
  exists (fst (dil_run mc gamma E (seq 0 n))), (snd (dil_run mc gamma E (seq 0 n))).
  split; [destruct (dil_run mc gamma E (seq 0 n)) eqn:K; reflexivity|]. exact H.
Qed.

Section DT.
  Variable d : Q.
  Hypothesis Hd : 0 <= d.
  Variable mc : solver.
  Variable n : nat.
  Hypothesis Hmc : ApproxCutSpec d n mc.
  Variable eps : Q.
  Hypothesis Heps : 2 * qn n * d < eps.
  Variable E : graph.
  Hypothesis Hn2 : (2 <= n)%nat.
  Hypothesis HE : graph_on (seq 0 n) E.
  Hypothesis Hs : simple E.
  Hypothesis Hf : forward E.
  Variable D : positive.
  Hypothesis HD : multiples_of D E.
  Hypothesis Htol : fine_tol D n (2 * eps).

  Let vs := seq 0 n.
  Let Hn : (1 <= n)%nat. Proof. lia. Qed.
  Let Hnd : NoDup vs. Proof. apply seq_NoDup. Qed.
  Let Hlen P : is_partition vs P -> qn (length P) <= qn n.
  Proof. intro HP. apply qn_le. assert (L := part_length_le vs Hnd P HP). unfold vs in L. rewrite seq_length in L. auto. Qed.

  Lemma dt_gap Qp P e R1 R2 : is_partition vs Qp -> is_partition vs P -> (length Qp < length P)%nat ->
    0 <= e -> e <= 2 * eps ->
    hval E (dt_gamma E Qp P) R1 - e <= hval E (dt_gamma E Qp P) R2 ->
    hval E (dt_gamma E Qp P) R1 <= hval E (dt_gamma E Qp P) R2.
  Proof.
    intros HQ HP Hl He He2.
    destruct (crossing_multiple D E P HD) as (z1 & E1). destruct (crossing_multiple D E Qp HD) as (z2 & E2).
    set (dz := (Z.of_nat (length P) - Z.of_nat (length Qp))%Z).
    apply (level_gap D E _ (z1 - z2) dz e); auto.
    - unfold dz, Z.sub. rewrite inject_Z_plus, inject_Z_opp.
      assert (G := gamma_slope E n HE Qp P HQ HP Hl). unfold qn, Qminus in G. rewrite G, E1, E2.
      unfold Qeq, Qplus, Qopp. simpl Qnum; simpl Qden. rewrite Pos2Z.inj_mul. ring.
    - unfold dz. lia.
    - apply (fine_tol_le D n (2 * eps)); auto; unfold dz; [lia|].
      assert (L := part_length_le vs Hnd P HP). unfold vs in L. rewrite seq_length in L.
      assert (L1 := part_length_pos vs Hnd Qp ltac:(unfold vs; destruct n; [lia|discriminate]) HQ). lia.
  Qed.

  Theorem dt_split_approx : forall fuel (Qp P : cpart) l1 l2,
    optimal E vs l1 Qp -> optimal E vs l2 P -> (length Qp < length P)%nat -> l1 < l2 ->
    (length P - length Qp <= fuel)%nat ->
    exists cs ps pin,
      dt_split fuel mc eps E n Qp P = Ok (map Fin cs, ps) /\
      Permutation ps pin /\
      Seg E vs 0 Qp cs pin P /\
      (forall c, In c cs -> l1 <= c /\ c <= l2) /\
      StronglySorted Qle cs /\
      (forall p, In p pin -> (exists lam, optimal E vs lam p) /\ forall B, In B p -> csorted B).
  Proof.
    induction fuel as [|fuel IH]; intros Qp P l1 l2 HQ HP Hl H12 Hfuel; [lia|].
    simpl. destruct (Nat.eqb_spec (length P) (length Qp)) as [C|_]; [lia|].
    assert (pQ : is_partition vs Qp) by apply HQ. assert (pP : is_partition vs P) by apply HP.
    destruct (dt_dil_approx d mc n (dt_gamma E Qp P) E Hd Hmc HE Hs Hf) as (m & P' & Er & pP' & HB & M1 & M2).
    assert (GG := dt_gap Qp P). 
    rewrite Er. simpl. set (g := dt_gamma E Qp P) in *.
    assert (Q1 := qn_nonneg n). assert (Q2 := Hlen P' pP').
    assert (Z0 : 0 <= qn n * d) by (apply Qmult_le_0_compat; auto).
    assert (Q3 := qn_nonneg (length P')).
    assert (Z1 : 0 <= qn (length P') * d) by (apply Qmult_le_0_compat; auto).
    assert (Z2 : 0 <= (qn n - qn (length P')) * d) by (apply Qmult_le_0_compat; lra).
    assert (HP' : optimal E vs g P').
    { split; auto. intros R HR. apply (GG (3 * (qn n * d)) P' R pQ pP Hl); [lra|lra|].
      specialize (M2 R HR). assert (L := Hlen R HR).
      assert (0 <= (qn n - qn (length R)) * d) by (apply Qmult_le_0_compat; lra). lra. }
    assert (FQ : fin_at E n false l1 Qp) by (split; [exact HQ|discriminate]).
    assert (FP' : fin_at E n false g P') by (split; [exact HP'|discriminate]).
    assert (Hh := h_value E n HE Qp P pQ pP Hl). fold g in Hh.
    destruct (Qltb (dt_h E Qp P - eps) m) eqn:Et; simpl.
    - apply Qltb_true in Et. exists [g], [], []. split; [reflexivity|]. split; [constructor|].
      assert (K : hval E g Qp <= hval E g P').
      { apply (GG (eps + qn n * d) Qp P' pQ pP Hl); [lra|lra|]. specialize (M2 P' pP'). lra. }
      split; [|split; [|split]].
      + simpl. split; [exact Hl|]. split; [eapply (pair_refines E n HE false); eauto|].
        split; [auto|]. split; [auto|]. split; [apply (gamma_slope E n HE); auto|].
        split; auto. intros R HR. assert (O := proj2 HP' R HR). lra.
      + intros c [<-|[]]. split; [eapply (gamma_lo E n HE false); eauto|eapply (gamma_hi E n HE false); eauto].
      + constructor; constructor.
      + intros p [].
    - apply Qltb_false in Et.
      assert (Hbelow : hval E g P' < hval E g Qp) by lra.
      assert (L1 : (length Qp < length P')%nat) by exact (mid_len_lo E n Hn HE false Qp P l1 l2 FQ HP Hl P' FP' Hbelow).
      assert (L2 : (length P' < length P)%nat) by exact (mid_len_hi E n Hn HE false Qp P l1 l2 FQ HP Hl P' FP' Hbelow).
      assert (G1 : l1 < g) by exact (mid_lo E n HE false Qp P l1 l2 FQ HP Hl P' FP' Hbelow).
      assert (G2 : g < l2) by exact (mid_hi E n HE false Qp P l1 l2 FQ HP Hl P' FP' Hbelow).
      destruct (Nat.eqb_spec (length Qp) (length P')) as [C|_]; [lia|].
      destruct (Nat.eqb_spec (length P) (length P')) as [C|_]; [lia|]. simpl.
      destruct (IH Qp P' l1 g HQ HP' L1 G1) as (cs1 & ps1 & pin1 & A1 & A2 & A3 & A4 & A5 & A6); [lia|].
      destruct (IH P' P g l2 HP' HP L2 G2) as (cs2 & ps2 & pin2 & B1 & B2 & B3 & B4 & B5 & B6); [lia|].
      rewrite A1. simpl. rewrite B1. simpl.
      exists (cs1 ++ cs2), (P' :: ps1 ++ ps2), (pin1 ++ P' :: pin2).
      split; [rewrite map_app; reflexivity|].
      split; [rewrite A2, B2; apply Permutation_middle|].
      split; [eapply Seg_app; eauto|].
      split.
      { intros c Hc. apply in_app_or in Hc. destruct Hc as [Hc|Hc].
        - destruct (A4 c Hc) as [X1 X2]. split; [auto|lra].
        - destruct (B4 c Hc) as [X1 X2]. split; auto. lra. }
      split.
      { apply StronglySorted_app; auto. intros x y Hx Hy.
        destruct (A4 x Hx) as [_ X2]. destruct (B4 y Hy) as [Y1 _]. lra. }
      intros p Hp. apply in_app_or in Hp. destruct Hp as [Hp|[<-|Hp]]; auto.
      split; auto. exists g. apply HP'.
  Qed.

  Theorem dt_run_approx : exists lams Ps, dt_run mc eps E n = Ok (map Fin lams, Ps) /\
    IsWeakPSP E vs lams Ps /\ slopes E lams Ps.
  Proof.
    assert (T0 : 0 <= total E) by (apply qsum_nonneg; exact (graph_on_nonneg _ _ HE)).
    assert (Lv : length vs = n) by apply seq_length.
    assert (OB : optimal E vs (-1) [vs]) by apply (one_block_fin E n Hn HE false).
    destruct (dt_split_approx (S n) [vs] (singletons vs) (-1) (total E + 1) OB)
      as (cs & ps & pin & A1 & A2 & A3 & A4 & A5 & A6).
    - apply (singletons_optimal E n Hn HE).
    - simpl. unfold singletons. rewrite map_length, Lv. lia.
    - lra.
    - unfold singletons. rewrite map_length, Lv. simpl. lia.
    - exists cs, ([vs] :: pin ++ [singletons vs]).
      assert (SL := Seg_lengths _ _ _ _ _ _ _ A3).
      split; [|split].
      + unfold dt_run. change (pfine n) with (singletons vs). change [cdense n] with [vs].
        rewrite A1. unfold bind. cbv beta iota. cbn [fst snd]. f_equal. f_equal.
        * apply isort_id. clear -A5. induction A5 as [|c cs H IH Hc]; simpl; constructor; auto.
          apply Forall_forall. intros y' Hd. apply in_map_iff in Hd.
          destruct Hd as (y & <- & Hy). simpl. rewrite Forall_forall in Hc. apply Hc in Hy.
          apply Qltb_false. auto.
        * apply isort_strict.
          -- intros x y. unfold card_ltb. rewrite Nat.ltb_lt, Nat.ltb_ge. lia.
          -- rewrite A2. apply perm_skip. rewrite <- Permutation_cons_append. auto.
          -- eapply SS_impl; [|exact SL]. simpl. intros x y Hxy. apply Nat.ltb_lt. auto.
      + apply (near_0_full E n). split; [apply same_partition_refl|]. split.
        * assert (Hlast : last ([vs] :: pin ++ [singletons vs]) [vs] = singletons vs).
          { rewrite app_comm_cons. apply last_last. }
          simpl in Hlast. simpl. rewrite Hlast. apply same_partition_refl.
        * apply Seg_chain; auto.
          -- intros R HR. simpl. apply (part_length_pos vs Hnd); auto. unfold vs. destruct n; [lia|discriminate].
          -- intros R HR. unfold singletons. rewrite map_length. apply (part_length_le vs Hnd); auto.
      + apply (Seg_slopes E n 0 cs pin [vs] (singletons vs) A3).
  Qed.
End DT.

(** ** psp_i *)
Lemma trunc_approx d mc n eps E D : 0 <= d -> 0 <= eps -> ApproxCutSpec d n mc -> multiples_of D E ->
  fine_tol D n (eps + 3 * qn n * d) -> TruncSpec (dil_run mc) eps (seq 0 n) E.
Proof.
  intros Hd He Hmc HD Ht sb R0 g HE Hs Ho Hnd L2 Ln Hmul Hg r. rewrite seq_length in Ln.
  destruct (dil_run_approx d Hd mc n Hmc g sb R0 Hnd HE Hs Ho Ln) as (pP & HB & M1 & M2). fold r in pP, HB, M1, M2.
  assert (HD' := Hmul D HD). destruct (qsum_multiple aw D sb HD') as (c & Hc).
  assert (Qn := qn_nonneg n). assert (Z0 : 0 <= qn n * d) by (apply Qmult_le_0_compat; auto).
  set (dz := (Z.of_nat (length R0) - 1)%Z).
  assert (Gz : g * inject_Z dz == c # D).
  { rewrite <- Hc, <- Hg. unfold dz, Z.sub. rewrite inject_Z_plus. reflexivity. }
  assert (Gap : forall e R1 R2, 0 <= e -> e <= eps + 3 * qn n * d -> hval sb g R1 - e <= hval sb g R2 -> hval sb g R1 <= hval sb g R2).
  { intros e R1 R2 e0 e1. apply (level_gap D sb g c dz e); auto; [unfold dz; lia|].
    apply (fine_tol_le D n (eps + 3 * qn n * d)); auto; unfold dz; lia. }
  assert (LR : forall R, is_partition R0 R -> 0 <= (qn n - qn (length R)) * d).
  { intros R HR. apply Qmult_le_0_compat; auto. assert (K := part_length_le R0 Hnd R HR).
    assert (K2 : (length R <= n)%nat) by lia. apply qn_le in K2. lra. }
  assert (Ln' := qn_le _ _ Ln).
  assert (LR0 : 0 <= (qn n - qn (length R0)) * d) by (apply Qmult_le_0_compat; lra).
  assert (LP : 0 <= qn (length (snd r)) * d) by (apply Qmult_le_0_compat; auto using qn_nonneg).
  split; [|split; auto].
  - split; auto. intros R HR. apply (Gap (3 * qn n * d)); [lra|lra|]. specialize (M2 R HR). specialize (LR R HR). lra.
  - intro Hx. assert (Hne : R0 <> []) by (intro C; rewrite C in L2; simpl in L2; lia).
    assert (V : hval sb g [R0] == - g).
    { unfold hval. change (qn (length [R0])) with 1.
      assert (C : crossing sb [R0] == 0).
      { unfold crossing. apply qsum_zero. intros a Ha. destruct (HE a Ha) as (A1 & A2 & _).
        assert (K : same_part [R0] (asrc a) (adst a) = true) by (apply same_part_true; exists R0; split; [left; auto|auto]).
        rewrite K. reflexivity. }
      rewrite C. ring. }
    assert (K : hval sb g [R0] <= hval sb g (snd r)).
    { apply (Gap (eps + qn n * d)); [lra|lra|]. specialize (M2 _ pP). specialize (LR _ pP). lra. }
    lra.
Qed.
