(** * Properties C14-C17: the decomposition algorithm psp_i (psp/psp_i.cpp). *)
From Coq Require Import Sorted.
From Verif Require Import Base Graph Spec MSets SetsThy MGraph MaxFlow CutThy MDil DilThy BFThy
  MDT SeqThy PartThy DTThy PSPThy DTTop MContract ContractThy MPSPI TreeThy DecThy PSPIThy PSPILoop
  PropDil PropDT.

(** ** C14: termination, shape, slopes, near optimality *)
Lemma psp_i_well_formed mc eps E n :
  MinCutSpec mc -> 0 < eps -> (1 <= n)%nat ->
  graph_on (seq 0 n) E -> simple E -> forward E -> (forall a, In a E -> eps <= aw a) ->
  exists lams P Ps G, psp_run mc eps E n = Ok (mkOut lams (P :: Ps) G) /\
    length Ps = length lams /\ P = [seq 0 n] /\
    same_partition (last (P :: Ps) P) (singletons (seq 0 n)) /\
    nested_chain P Ps /\ slopes E lams (P :: Ps) /\
    (forall R, In R (P :: Ps) -> is_partition (seq 0 n) R).
Proof.
  intros Hmc He Hn HE Hs Hf Hw.
  destruct (psp_run_correct mc Hmc eps He E n Hn HE Hs Hf Hw eps ltac:(lra)
              (eps_gap_dec (seq 0 n) E eps)) as (lams & Ps & G & R1 & R2 & R3 & R4 & R5).
  destruct Ps as [|P Ps]; [discriminate|]. exists lams, P, Ps, G. split; auto.
  simpl in R4, R5. split; [lia|]. split; [congruence|].
  destruct R2 as (_ & B2 & B3). split; [exact B2|]. split; [|split; [exact R3|]].
  - eapply (seq_chain_nested (seq 0 n)); [apply seq_NoDup| | |exact B3].
    + intros lam R HR. apply HR.
    + auto.
  - clear -B3. assert (Gn : forall lams Ps lo P, seq_chain Qle (near_optimal E (seq 0 n) (eps * (qn n - 1))) lo P lams Ps ->
      forall R, In R (P :: Ps) -> is_partition (seq 0 n) R).
    { clear. induction lams as [|l lams IH]; intros Ps lo P H R HR; destruct Ps as [|P' Ps]; simpl in H; try tauto.
      - destruct HR as [<-|[]]. destruct lo as [l|]; [apply (H l); lra|apply (H 0); auto].
      - destruct H as (H1 & H2 & _ & _ & H5). destruct HR as [<-|HR]; [|eapply IH; eauto].
        destruct lo as [l0|]; [apply (H2 l0); lra|apply (H2 l); [auto|lra]]. }
    eapply Gn; eauto.
Qed.

Theorem C14_psp_i_well_formed : forall mc eps E n,
  MinCutSpec mc -> 0 < eps -> (1 <= n)%nat ->
  graph_on (seq 0 n) E -> simple E -> forward E -> (forall a, In a E -> eps <= aw a) ->
  exists lams P Ps G, psp_run mc eps E n = Ok (mkOut lams (P :: Ps) G) /\
    length Ps = length lams /\ P = [seq 0 n] /\
    same_partition (last (P :: Ps) P) (singletons (seq 0 n)) /\
    nested_chain P Ps /\ slopes E lams (P :: Ps) /\
    (forall R, In R (P :: Ps) -> is_partition (seq 0 n) R).
Proof. exact psp_i_well_formed. Qed.
Print Assumptions C14_psp_i_well_formed.

(** Five nodes; the run groups, contracts and splits three times. *)
Definition g5 : graph :=
  [mkArc 0 1 3; mkArc 0 2 1; mkArc 1 2 5; mkArc 2 3 1; mkArc 3 4 7; mkArc 1 4 2].

Lemma g5_on : graph_on (seq 0 5) g5.
Proof. intros a H; simpl in H; intuition (subst; simpl; auto 10; lra). Qed.
Lemma g5_simple : simple g5.
Proof. unfold simple. simpl. repeat constructor; simpl; intuition congruence. Qed.
Lemma g5_forward : forward g5.
Proof. intros a H; simpl in H; intuition (subst; simpl; lia). Qed.
Lemma g5_weights : forall a, In a g5 -> tol <= aw a.
Proof. intros a H; simpl in H; intuition (subst; simpl; unfold tol; lra). Qed.
Lemma g5_multiples : multiples_of 1 g5.
Proof.
  intros a H. exists (Qnum (aw a)). simpl in H.
  repeat destruct H as [<-|H]; try reflexivity. destruct H.
Qed.

Example psp_i_example :
  psp_run bf_mincut tol g5 5 =
    Ok (mkOut [3; 4; 5; 7]
              [[[0;1;2;3;4]]; [[0;1;2];[3;4]]; [[0];[1;2];[3;4]]; [[0];[1];[2];[3;4]];
               [[0];[1];[2];[3];[4]]]%nat
              (mkG [0;3]%nat [mkArc 0 3 3])).
Proof. vm_compute. reflexivity. Qed.

(** ** C15: optimality between the critical values *)
Lemma psp_i_exact mc eps E n D :
  MinCutSpec mc -> 0 < eps -> (1 <= n)%nat ->
  graph_on (seq 0 n) E -> simple E -> forward E -> (forall a, In a E -> eps <= aw a) ->
  multiples_of D E -> fine_tol D n eps ->
  exists lams Ps G, psp_run mc eps E n = Ok (mkOut lams Ps G) /\ IsWeakPSP E (seq 0 n) lams Ps.
Proof.
  intros Hmc He Hn HE Hs Hf Hw HD Ht.
  destruct (psp_run_correct mc Hmc eps He E n Hn HE Hs Hf Hw 0 ltac:(lra)
              (exact_gap_dec D E n eps He HD Ht)) as (lams & Ps & G & R1 & R2 & _).
  exists lams, Ps, G. split; auto. apply near_0_full.
  assert (Z : 0 * (qn n - 1) == 0) by ring. clear -R2 Z. unfold IsNearPSP in R2.
  eapply full_sequence_mono with (good := near_optimal E (seq 0 n) (0 * (qn n - 1))); [intros a b H; exact H| |exact R2].
  intros lam P [A1 A2]. split; [auto|]. intros R HR. specialize (A2 R HR). lra.
Qed.

Theorem C15_psp_i_exact : forall mc eps E n D,
  MinCutSpec mc -> 0 < eps -> (1 <= n)%nat ->
  graph_on (seq 0 n) E -> simple E -> forward E -> (forall a, In a E -> eps <= aw a) ->
  multiples_of D E -> fine_tol D n eps ->
  exists lams Ps G, psp_run mc eps E n = Ok (mkOut lams Ps G) /\ IsWeakPSP E (seq 0 n) lams Ps.
Proof. exact psp_i_exact. Qed.
Print Assumptions C15_psp_i_exact.

(** For arbitrary weights every reported partition is optimal up to (n-1) tolerances. *)
Lemma psp_i_near mc eps E n :
  MinCutSpec mc -> 0 < eps -> (1 <= n)%nat ->
  graph_on (seq 0 n) E -> simple E -> forward E -> (forall a, In a E -> eps <= aw a) ->
  exists lams Ps G, psp_run mc eps E n = Ok (mkOut lams Ps G) /\
    IsNearPSP E (seq 0 n) (eps * (qn n - 1)) lams Ps.
Proof.
  intros Hmc He Hn HE Hs Hf Hw.
  destruct (psp_run_correct mc Hmc eps He E n Hn HE Hs Hf Hw eps ltac:(lra)
              (eps_gap_dec (seq 0 n) E eps)) as (lams & Ps & G & R1 & R2 & _).
  exists lams, Ps, G. auto.
Qed.

Theorem C15_psp_i_near_optimal : forall mc eps E n,
  MinCutSpec mc -> 0 < eps -> (1 <= n)%nat ->
  graph_on (seq 0 n) E -> simple E -> forward E -> (forall a, In a E -> eps <= aw a) ->
  exists lams Ps G, psp_run mc eps E n = Ok (mkOut lams Ps G) /\
    IsNearPSP E (seq 0 n) (eps * (qn n - 1)) lams Ps.
Proof. exact psp_i_near. Qed.
Print Assumptions C15_psp_i_near_optimal.

Example psp_i_nonvacuous :
  MinCutSpec bf_mincut /\ 0 < tol /\ (1 <= 5)%nat /\ graph_on (seq 0 5) g5 /\ simple g5 /\
  forward g5 /\ (forall a, In a g5 -> tol <= aw a) /\ multiples_of 1 g5 /\ fine_tol 1 5 tol.
Proof.
  split; [apply bf_mincut_spec|]. split; [reflexivity|]. split; [lia|]. split; [apply g5_on|].
  split; [apply g5_simple|]. split; [apply g5_forward|]. split; [apply g5_weights|].
  split; [apply g5_multiples|vm_compute; reflexivity].
Qed.

(** ** C16: critical values may repeat *)
Definition two : graph := [mkArc 0 1 1; mkArc 2 3 1].
Lemma two_on : graph_on (seq 0 4) two.
Proof. intros a H; simpl in H; intuition (subst; simpl; auto 10; lra). Qed.
Lemma two_simple : simple two.
Proof. unfold simple. simpl. repeat constructor; simpl; intuition congruence. Qed.
Lemma two_forward : forward two.
Proof. intros a H; simpl in H; intuition (subst; simpl; lia). Qed.
Lemma two_weights : forall a, In a two -> tol <= aw a.
Proof. intros a H; simpl in H; intuition (subst; simpl; unfold tol; lra). Qed.

Example C16_witness : exists Ps G,
  psp_run bf_mincut tol two 4 = Ok (mkOut [0; 1; 1] Ps G).
Proof. eexists _, _. vm_compute. reflexivity. Qed.

Theorem C16_psp_i_distinct_refuted :
  ~ (forall mc eps E n, MinSinkCutSpec mc -> 0 < eps -> (1 <= n)%nat ->
     graph_on (seq 0 n) E -> simple E -> forward E -> (forall a, In a E -> eps <= aw a) ->
     forall lams Ps G, psp_run mc eps E n = Ok (mkOut lams Ps G) -> StronglySorted Qlt lams).
Proof.
  intro H. destruct C16_witness as (Ps & G & W).
  specialize (H bf_mincut tol two 4%nat bf_minsink_spec eq_refl ltac:(lia) two_on two_simple two_forward
                two_weights _ _ _ W).
  inversion H as [|? ? H1 H2]; subst. inversion H1 as [|? ? H3 H4]; subst.
  inversion H4; subst. lra.
Qed.
Print Assumptions C16_psp_i_distinct_refuted.

(** What does hold: they never decrease. *)
Lemma psp_i_monotone mc eps E n :
  MinCutSpec mc -> 0 < eps -> (1 <= n)%nat ->
  graph_on (seq 0 n) E -> simple E -> forward E -> (forall a, In a E -> eps <= aw a) ->
  forall o, psp_run mc eps E n = Ok o -> StronglySorted Qle (o_cv o).
Proof.
  intros Hmc He Hn HE Hs Hf Hw o Ho.
  destruct (psp_i_near mc eps E n Hmc He Hn HE Hs Hf Hw) as (lams & Ps & G & R1 & R2).
  rewrite R1 in Ho. injection Ho as <-. simpl.
  unfold IsNearPSP, full_sequence in R2. destruct Ps as [|P Ps]; [destruct R2|].
  destruct R2 as (_ & _ & R2). clear -R2. revert R2.
  generalize (near_optimal E (seq 0 n) (eps * (qn n - 1))) as good. intros good H.
  assert (K : forall lams Ps lo P, seq_chain Qle good lo P lams Ps ->
     StronglySorted Qle lams /\ match lo with None => True | Some l => Forall (Qle l) lams end).
  { clear. induction lams as [|l ls IH]; intros Ps lo P H; destruct Ps as [|P' Ps]; simpl in H; try tauto.
    - split; [constructor|destruct lo; constructor].
    - destruct H as (A & _ & _ & _ & B). destruct (IH _ _ _ B) as [I1 I2].
      split; [constructor; auto|]. destruct lo as [q|]; auto. constructor; auto.
      eapply Forall_impl; [|exact I2]. simpl. intros; lra. }
  apply (K _ _ _ _ H).
Qed.

Theorem C16_psp_i_monotone : forall mc eps E n,
  MinCutSpec mc -> 0 < eps -> (1 <= n)%nat ->
  graph_on (seq 0 n) E -> simple E -> forward E -> (forall a, In a E -> eps <= aw a) ->
  forall o, psp_run mc eps E n = Ok o -> StronglySorted Qle (o_cv o).
Proof. exact psp_i_monotone. Qed.
Print Assumptions C16_psp_i_monotone.

(** ** C17: dt and psp_i agree *)

(** Drop the steps whose critical value is repeated by the next step. *)
Fixpoint collapse (lams : list Q) (Ps : list (list (list nat))) : list Q * list (list (list nat)) :=
  match lams, Ps with
  | l :: lams', P :: Ps' =>
      let r := collapse lams' Ps' in
      if match lams' with l' :: _ => Qeq_bool l l' | [] => false end then r
      else (l :: fst r, P :: snd r)
  | _, _ => ([], [])
  end.

Definition not_head (lo : option Q) (lams : list Q) : Prop :=
  match lo, lams with Some a, b :: _ => ~ a == b | _, _ => True end.

Lemma collapse_chain good : forall lams Ps lo P,
  seq_chain Qle good lo P lams Ps -> not_head lo lams ->
  seq_chain Qlt good lo P (fst (collapse lams Ps)) (snd (collapse lams Ps)) /\
  last (P :: snd (collapse lams Ps)) P = last (P :: Ps) P.
Proof.
  induction lams as [|l lams IH]; intros Ps lo P H Hh; destruct Ps as [|P' Ps]; simpl in H; try tauto.
  - destruct H as (H1 & H2 & H3 & H4 & H5). destruct lams as [|l' lams].
    + destruct Ps as [|P'' Ps]; [|simpl in H5; tauto]. simpl. split; auto.
      split; [|auto]. destruct lo as [a|]; auto. simpl in Hh. lra.
    + destruct Ps as [|P'' Ps]; [simpl in H5; tauto|].
      assert (EC : collapse (l :: l' :: lams) (P' :: P'' :: Ps) =
        if Qeq_bool l l' then collapse (l' :: lams) (P'' :: Ps)
        else (l :: fst (collapse (l' :: lams) (P'' :: Ps)), P' :: snd (collapse (l' :: lams) (P'' :: Ps))))
        by reflexivity.
      rewrite EC. destruct (Qeq_bool l l') eqn:EQ.
      * apply Qeq_bool_eq in EQ. destruct (IH (P'' :: Ps) lo P) as [I1 I2].
        { simpl in H5. destruct H5 as (K1 & K2 & K3 & K4 & K5). simpl.
          split; [destruct lo; auto; lra|]. split; [intros lam L1 L2; apply H2; auto; lra|].
          split; [eapply refines_trans; eauto|]. split; [lia|auto]. }
        { destruct lo as [a|]; simpl in *; auto. intro C. apply Hh. lra. }
        split; auto.
      * assert (NE : ~ l == l') by (apply Qeq_bool_neq; auto).
        destruct (IH (P'' :: Ps) (Some l) P' H5 NE) as [I1 I2].
        cbn [fst snd]. split.
        { simpl. split; [destruct lo as [a|]; auto; simpl in Hh; lra|]. auto. }
        { change (last (P :: P' :: P'' :: Ps) P) with (last (P' :: P'' :: Ps) P).
          rewrite (last_dflt P' (P'' :: Ps) P P'), <- I2.
          set (L := snd (collapse (l' :: lams) (P'' :: Ps))).
          change (last (P' :: L) P = last (P' :: L) P'). apply last_dflt. }
Qed.

Lemma collapse_psp E vs lams P Ps :
  IsWeakPSP E vs lams (P :: Ps) ->
  IsPSP E vs (fst (collapse lams Ps)) (P :: snd (collapse lams Ps)).
Proof.
  intros (H1 & H2 & H3). destruct (collapse_chain _ _ _ _ _ H3 I) as [A1 A2].
  split; auto. split; auto. rewrite A2. auto.
Qed.

Lemma psp_i_agrees mc mc' eps eps' E n D :
  MinSinkCutSpec mc -> MinCutSpec mc' -> 0 < eps -> 0 < eps' -> (2 <= n)%nat ->
  graph_on (seq 0 n) E -> simple E -> forward E -> (forall a, In a E -> eps' <= aw a) ->
  multiples_of D E -> fine_tol D n eps -> fine_tol D n eps' ->
  exists lams Ps lams' P' Ps' G,
    dt_run mc eps E n = Ok (map Fin lams, Ps) /\
    psp_run mc' eps' E n = Ok (mkOut lams' (P' :: Ps') G) /\
    Forall2 Qeq lams (fst (collapse lams' Ps')) /\
    Forall2 same_partition Ps (P' :: snd (collapse lams' Ps')).
Proof.
  intros Hms Hmc He He' Hn HE Hs Hf Hw HD Ht Ht'.
  destruct (C11_dt_exact mc eps E n D Hms He Hn HE Hs Hf HD Ht) as (lams & Ps & A1 & A2).
  destruct (psp_i_exact mc' eps' E n D Hmc He' ltac:(lia) HE Hs Hf Hw HD Ht') as (lams' & Ps' & G & B1 & B2).
  destruct Ps' as [|P' Ps']; [destruct B2|]. apply collapse_psp in B2.
  destruct (psp_unique E (seq 0 n) (seq_NoDup n 0) HE _ _ _ _ A2 B2) as [C1 C2].
  exists lams, Ps, lams', P', Ps', G. auto.
Qed.

Theorem C17_dt_psp_i_agree : forall mc mc' eps eps' E n D,
  MinSinkCutSpec mc -> MinCutSpec mc' -> 0 < eps -> 0 < eps' -> (2 <= n)%nat ->
  graph_on (seq 0 n) E -> simple E -> forward E -> (forall a, In a E -> eps' <= aw a) ->
  multiples_of D E -> fine_tol D n eps -> fine_tol D n eps' ->
  exists lams Ps lams' P' Ps' G,
    dt_run mc eps E n = Ok (map Fin lams, Ps) /\
    psp_run mc' eps' E n = Ok (mkOut lams' (P' :: Ps') G) /\
    Forall2 Qeq lams (fst (collapse lams' Ps')) /\
    Forall2 same_partition Ps (P' :: snd (collapse lams' Ps')).
Proof. exact psp_i_agrees. Qed.
Print Assumptions C17_dt_psp_i_agree.

(** The repeated value 1 of psp_i is reported once by dt. *)
Example C17_example :
  dt_run bf_mincut tol two 4 =
    Ok ([Fin 0; Fin 1], [[[0;1;2;3]]; [[0;1];[2;3]]; [[0];[1];[2];[3]]]%nat) /\
  exists Ps G, psp_run bf_mincut tol two 4 = Ok (mkOut [0; 1; 1] ([[0;1;2;3]]%nat :: Ps) G) /\
    collapse [0; 1; 1] Ps = ([0; 1], [[[0;1];[2;3]]; [[0];[1];[2];[3]]]%nat).
Proof.
  split; [vm_compute; reflexivity|]. eexists _, _. split; [vm_compute; reflexivity|].
  vm_compute. reflexivity.
Qed.
