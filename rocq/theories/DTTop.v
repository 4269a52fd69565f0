(** * DTTop: consequences for DT::run and DT::run(k). *)
From Coq Require Import Sorted.
From Verif Require Import Base Spec PartThy SubThy MSets SetsThy MGraph MaxFlow CutThy MDil DilThy
  MDT SeqThy DTThy PSPThy.

Lemma seq_chain_sorted good : forall lams Ps lo P, seq_chain Qlt good lo P lams Ps ->
  StronglySorted Qlt lams /\ match lo with None => True | Some l => Forall (Qlt l) lams end.
Proof.
  induction lams as [|l ls IH]; intros Ps lo P H; destruct Ps as [|P' Ps]; simpl in H; try tauto.
  - split; [constructor|destruct lo; constructor].
  - destruct H as (A & _ & _ & _ & B). destruct (IH _ _ _ B) as [I1 I2].
    split; [constructor; auto|]. destruct lo as [q|]; auto. constructor; auto.
    eapply Forall_impl; [|exact I2]. simpl. intros; lra.
Qed.

Lemma full_sequence_sorted good vs lams Ps :
  full_sequence Qlt good vs lams Ps -> StronglySorted Qlt lams.
Proof.
  destruct Ps as [|P Ps]; [intros []|]. intros (_ & _ & H). apply (seq_chain_sorted _ _ _ _ _ H).
Qed.

Section Top.
  Variable mc : solver.
  Hypothesis Hmc : MinCutSpec mc.
  Variable eps : Q.
  Hypothesis Heps : 0 < eps.
  Variable E : graph.
  Variable n : nat.
  Hypothesis Hn : (2 <= n)%nat.
  Hypothesis HE : graph_on (seq 0 n) E.
  Hypothesis Hs : simple E.
  Hypothesis Hf : forward E.

  Let vs := seq 0 n.
  Let Hn1 : (1 <= n)%nat. Proof. lia. Qed.
  Let Hnd : NoDup vs. Proof. apply seq_NoDup. Qed.

  Lemma eps_gap : forall Qp P R : list (list nat),
    is_partition vs Qp -> is_partition vs P -> is_partition vs R -> (length Qp < length P)%nat ->
    hval E (dt_gamma E Qp P) Qp - eps < hval E (dt_gamma E Qp P) R ->
    hval E (dt_gamma E Qp P) Qp <= hval E (dt_gamma E Qp P) R + eps.
  Proof. intros. lra. Qed.

  Lemma near_0_full rel lams Ps :
    full_sequence rel (near_optimal E vs 0) vs lams Ps -> full_sequence rel (optimal E vs) vs lams Ps.
  Proof.
    apply full_sequence_mono; auto. intros lam P. apply near_optimal_0.
  Qed.

  Lemma Seg_slopes delta : forall cs pin Qp P,
    Seg E vs delta Qp cs pin P -> slopes E cs (Qp :: pin ++ [P]).
  Proof.
    induction cs as [|c cs IH]; intros pin Qp P H; [destruct pin; destruct H|].
    destruct pin as [|p pin].
    - simpl in H. destruct cs; [|destruct H]. destruct H as (_ & _ & _ & _ & H & _).
      simpl. constructor; auto. constructor.
    - assert (H' : leafok E vs delta Qp p c /\ Seg E vs delta p cs pin P) by (destruct cs; auto).
      destruct H' as [H1 H2]. destruct H1 as (_ & _ & _ & _ & H1 & _).
      simpl. constructor; auto.
  Qed.

  Lemma Seg_count delta cs pin Qp P :
    Seg E vs delta Qp cs pin P -> length (Qp :: pin ++ [P]) = S (length cs).
  Proof.
    intro H. apply Seg_length in H. simpl. rewrite app_length. simpl. lia.
  Qed.

  (** The whole story with tolerance [eps], for any correct solver. *)
  Lemma dt_run_near :
    exists lams Ps, dt_run mc eps E n = Ok (map Fin lams, Ps) /\
      IsNearPSP E vs eps lams Ps /\ slopes E lams Ps /\
      length Ps = S (length lams) /\ hd_error Ps = Some [vs] /\ last Ps [] = singletons vs /\
      StronglySorted (fun p q => (length p < length q)%nat) Ps /\
      (forall P, In P Ps -> (exists lam, optimal E vs lam P) /\ forall B, In B P -> csorted B).
  Proof.
    destruct (dt_run_correct mc Hmc eps Heps E n Hn1 HE Hs Hf false
                ltac:(discriminate) eps eps_gap Hn)
      as (lams & Ps & H1 & H2 & (pin & -> & H3) & H4).
    exists lams. eexists. split; [exact H1|]. split; [exact H2|].
    split; [eapply Seg_slopes; eauto|]. split; [eapply Seg_count; eauto|].
    split; [reflexivity|]. split; [rewrite app_comm_cons; apply last_last|].
    split; [eapply Seg_lengths; eauto|]. exact H4.
  Qed.

  (** With a solver reporting minimal sink sides the critical values are distinct. *)
  Lemma dt_run_near_strict :
    MinSinkCutSpec mc ->
    exists lams Ps, dt_run mc eps E n = Ok (map Fin lams, Ps) /\
      full_sequence Qlt (near_optimal E vs eps) vs lams Ps /\ StronglySorted Qlt lams.
  Proof.
    intro Hms.
    destruct (dt_run_correct mc Hmc eps Heps E n Hn1 HE Hs Hf true (fun _ => Hms) eps eps_gap Hn)
      as (lams & Ps & H1 & H2 & _).
    exists lams, Ps. split; auto. split; [exact H2|].
    eapply full_sequence_sorted. exact H2.
  Qed.

  Section Exact.
    Variable D : positive.
    Hypothesis HD : multiples_of D E.
    Hypothesis Htol : fine_tol D n eps.

    Lemma exact_gap : forall Qp P R : list (list nat),
      is_partition vs Qp -> is_partition vs P -> is_partition vs R -> (length Qp < length P)%nat ->
      hval E (dt_gamma E Qp P) Qp - eps < hval E (dt_gamma E Qp P) R ->
      hval E (dt_gamma E Qp P) Qp <= hval E (dt_gamma E Qp P) R + 0.
    Proof.
      intros. apply (integral_gap D E n eps); auto. apply Qlt_le_weak; auto.
    Qed.

    Lemma dt_run_weak :
      exists lams Ps, dt_run mc eps E n = Ok (map Fin lams, Ps) /\ IsWeakPSP E vs lams Ps.
    Proof.
      destruct (dt_run_correct mc Hmc eps Heps E n Hn1 HE Hs Hf false
                  ltac:(discriminate) 0 exact_gap Hn)
        as (lams & Ps & H1 & H2 & _).
      exists lams, Ps. split; auto. apply near_0_full. exact H2.
    Qed.

    Hypothesis Hms : MinSinkCutSpec mc.

    Lemma dt_run_exact :
      exists lams Ps, dt_run mc eps E n = Ok (map Fin lams, Ps) /\ IsPSP E vs lams Ps.
    Proof.
      destruct (dt_run_correct mc Hmc eps Heps E n Hn1 HE Hs Hf true
                  (fun _ => Hms) 0 exact_gap Hn)
        as (lams & Ps & H1 & H2 & _).
      exists lams, Ps. split; auto. apply near_0_full. exact H2.
    Qed.

    Notation finest := (finest_at E vs).

    Lemma fin_finest lam P : fin_at E n true lam P <-> finest lam P.
    Proof. unfold fin_at, finest_at. split; intros [H1 H2]; split; auto. Qed.

    Lemma singletons_finest : finest (total E + 1) (singletons vs).
    Proof.
      split; [apply singletons_optimal; auto|]. intros R [HR _].
      unfold singletons. rewrite map_length. apply (part_length_le vs Hnd); auto.
    Qed.

    Lemma finest_nested a b P R : a < b -> finest a P -> finest b R -> (length P <= length R)%nat.
    Proof.
      intros H HP HR. apply (refines_length vs Hnd); [apply HR|apply HP|].
      apply (nested2 E vs Hnd HE a b); [auto|apply HR|apply HP].
    Qed.

    (** DT::split(Q, P, num) finds the coarsest member with at least min(num, n) parts. *)
    Lemma dt_split_num_correct (num : nat) : forall fuel (Qp P : cpart) l1 l2,
      finest l1 Qp -> finest l2 P -> l1 < l2 ->
      (length Qp < Nat.min num n)%nat -> (Nat.min num n <= length P)%nat ->
      (length P - length Qp <= fuel)%nat ->
      exists M, dt_split_num fuel mc eps E n Qp P num = Ok M /\
        (exists lam, finest lam M) /\ (Nat.min num n <= length M)%nat /\
        forall lam R, finest lam R -> (Nat.min num n <= length R)%nat -> (length M <= length R)%nat.
    Proof.
      induction fuel as [|fuel IH]; intros Qp P l1 l2 HQ HP H12 Hl1 Hl2 Hfuel; [lia|].
      assert (Hl : (length Qp < length P)%nat) by lia.
      simpl. destruct (Nat.eqb_spec (length Qp) (length P)) as [C|_]; [lia|].
      destruct (dt_dil_ok mc Hmc E n HE Hs Hf true (fun _ => Hms) (dt_gamma E Qp P))
        as (m & P' & Er & HP' & Hm & HB).
      rewrite Er. simpl. set (g := dt_gamma E Qp P) in *.
      assert (pQ : is_partition vs Qp) by apply HQ. assert (pP : is_partition vs P) by apply HP.
      assert (Hh := h_value E n HE Qp P pQ pP Hl). fold g in Hh.
      destruct (Qltb (dt_h E Qp P - eps) m) eqn:Et.
      - apply Qltb_true in Et. exists P. split; auto. split; [eauto|]. split; auto.
        assert (Qopt : optimal E vs g Qp).
        { split; auto. intros R HR. assert (X := exact_gap Qp P R pQ pP HR Hl). fold g in X.
          destruct HP' as [[_ HP'] _]. specialize (HP' R HR).
          assert (hval E g Qp <= hval E g R + 0) by (apply X; lra). lra. }
        assert (Popt : optimal E vs g P).
        { split; auto. intros R HR. assert (Y := h_value' E n HE Qp P pQ pP Hl). fold g in Y.
          destruct Qopt as [_ Qopt]. specialize (Qopt R HR). lra. }
        intros lam R HR HL.
        destruct (Qlt_le_dec lam g) as [L|L].
        { assert (K : (length R <= length Qp)%nat).
          { apply (refines_length vs Hnd); [auto|apply HR|].
            apply (nested2 E vs Hnd HE lam g); auto. apply HR. }
          lia. }
        destruct (Qlt_le_dec g lam) as [L'|L'].
        { apply (refines_length vs Hnd); [apply HR|auto|].
          apply (nested2 E vs Hnd HE g lam); auto. apply HR. }
        apply HR. apply optimal_wd with (a := g); auto. lra.
      - apply Qltb_false in Et.
        assert (Hbelow : hval E g P' < hval E g Qp) by lra.
        assert (HQ' := proj2 (fin_finest l1 Qp) HQ).
        assert (L1 := mid_len_lo E n Hn1 HE true Qp P l1 l2 HQ' (proj1 HP) Hl P' HP' Hbelow).
        assert (L2 := mid_len_hi E n Hn1 HE true Qp P l1 l2 HQ' (proj1 HP) Hl P' HP' Hbelow).
        assert (G1 := mid_lo E n HE true Qp P l1 l2 HQ' (proj1 HP) Hl P' HP' Hbelow).
        assert (G2 := mid_hi E n HE true Qp P l1 l2 HQ' (proj1 HP) Hl P' HP' Hbelow).
        apply fin_finest in HP'. fold g in G1, G2.
        assert (Ln : (length P <= n)%nat).
        { assert (X := part_length_le vs Hnd P pP). unfold vs in X. rewrite seq_length in X. auto. }
        destruct (Nat.eqb_spec (length P') num) as [En|En].
        + exists P'. split; auto. split; [eauto|]. split; lia.
        + destruct (Nat.ltb_spec (length P') num) as [Lt|Lt].
          * apply (IH P' P g l2); auto; lia.
          * apply (IH Qp P' l1 g); auto; lia.
    Qed.

    Theorem dt_run_num_correct num lams Ps :
      (2 <= num)%nat -> IsPSP E vs lams Ps ->
      exists M, dt_run_num mc eps E n num = Ok M /\
        (exists P, In P Ps /\ same_partition M P) /\ (Nat.min num n <= length M)%nat /\
        forall P, In P Ps -> (Nat.min num n <= length P)%nat -> (length M <= length P)%nat.
    Proof.
      intros Hnum HP.
      destruct (dt_split_num_correct num (S n) [vs] (singletons vs) (-1) (total E + 1))
        as (M & M1 & (lam & M2) & M3 & M4).
      - apply fin_finest. apply one_block_fin; auto.
      - apply singletons_finest.
      - assert (0 <= total E) by (apply qsum_nonneg; exact (graph_on_nonneg _ _ HE)). lra.
      - simpl. lia.
      - unfold singletons. rewrite map_length. unfold vs. rewrite seq_length. lia.
      - unfold singletons. rewrite map_length. unfold vs. rewrite seq_length. lia.
      - exists M. split; [exact M1|]. split.
        { destruct (finest_member E vs Hnd HE lams Ps lam M HP M2) as (P & P1 & P2). eauto. }
        split; auto. intros P HPi HL.
        destruct (member_finest E vs Hnd HE lams Ps P HP HPi) as (mu & Hmu). eauto.
    Qed.
  End Exact.
End Top.

(** For every graph there is a tolerance from which on dt is exact. *)
Lemma fine_tol_ex E n : exists eps0, 0 < eps0 /\
  exists D, multiples_of D E /\ forall eps, 0 < eps -> eps <= eps0 -> fine_tol D n eps.
Proof.
  destruct (multiples_ex E) as (D & HD).
  assert (HDD : 0 < Zpos D # 1) by reflexivity.
  assert (Hq : 0 < (Zpos D # 1) * (qn n + 1)).
  { apply Qmult_lt_0_compat; auto. assert (X := qn_nonneg n). lra. }
  exists (1 / ((Zpos D # 1) * (qn n + 1))). split.
  { apply Qlt_shift_div_l; auto. }
  exists D. split; auto. intros eps He Hle. unfold fine_tol.
  assert (Hk : eps * ((Zpos D # 1) * (qn n + 1)) <= 1).
  { assert (X : eps * ((Zpos D # 1) * (qn n + 1)) <=
                1 / ((Zpos D # 1) * (qn n + 1)) * ((Zpos D # 1) * (qn n + 1))).
    { apply Qmult_le_compat_r; auto. lra. }
    assert (Y : 1 / ((Zpos D # 1) * (qn n + 1)) * ((Zpos D # 1) * (qn n + 1)) == 1).
    { field. assert (Z := qn_nonneg n). split; lra. }
    lra. }
  assert (H2 : 0 < eps * (Zpos D # 1) * 2).
  { apply Qmult_lt_0_compat; [|reflexivity]. apply Qmult_lt_0_compat; auto. }
  assert (eps * ((Zpos D # 1) * (qn n + 1)) ==
          eps * (Zpos D # 1) * (qn n - 1) + eps * (Zpos D # 1) * 2) by ring.
  lra.
Qed.
