(** * SeqThy: from segments of a sequence to the specification [seq_chain]; sorting lemmas. *)
From Coq Require Import Sorted.
From Verif Require Import Base Spec PartThy MDT.

Lemma near_optimal_0 E vs lam P : near_optimal E vs 0 lam P <-> optimal E vs lam P.
Proof.
  split; intros [H1 H2]; split; auto; intros R HR; specialize (H2 R HR); lra.
Qed.

Lemma seq_chain_mono (rel rel' : Q -> Q -> Prop) (good good' : Q -> list (list nat) -> Prop) :
  (forall a b, rel a b -> rel' a b) -> (forall l P, good l P -> good' l P) ->
  forall lams Ps lo P, seq_chain rel good lo P lams Ps -> seq_chain rel' good' lo P lams Ps.
Proof.
  intros Hr Hg. induction lams as [|l lams IH]; intros [|P' Ps] lo P; simpl; auto.
  intros (H1 & H2 & H3 & H4 & H5). repeat split; auto. destruct lo; auto.
Qed.

Lemma full_sequence_mono (rel rel' : Q -> Q -> Prop) (good good' : Q -> list (list nat) -> Prop) vs lams Ps :
  (forall a b, rel a b -> rel' a b) -> (forall l P, good l P -> good' l P) ->
  full_sequence rel good vs lams Ps -> full_sequence rel' good' vs lams Ps.
Proof.
  intros Hr Hg. destruct Ps as [|P0 Ps]; simpl; auto. intros (H1 & H2 & H3).
  repeat split; try apply H1; try apply H2. eapply seq_chain_mono; eauto.
Qed.

Lemma hval_plus E a b P : hval E (a + b) P == hval E a P - b * qn (length P).
Proof. unfold hval. ring. Qed.

Lemma hval_wd E a b P : a == b -> hval E a P == hval E b P.
Proof. intro H. unfold hval. rewrite H. reflexivity. Qed.

(** The difference of two objectives is linear in lambda. *)
Lemma hval_lin E a b P R :
  hval E b P - hval E b R ==
  hval E a P - hval E a R - (b - a) * (qn (length P) - qn (length R)).
Proof. unfold hval. ring. Qed.

(** Near-optimality at two values gives near-optimality in between. *)
Lemma near_between E vs delta a b lam P :
  near_optimal E vs delta a P -> near_optimal E vs delta b P ->
  a <= lam -> lam <= b -> near_optimal E vs delta lam P.
Proof.
  intros [HP Ha] [_ Hb] H1 H2. split; auto. intros R HR.
  specialize (Ha R HR). specialize (Hb R HR).
  assert (L1 := hval_lin E a lam P R). assert (L2 := hval_lin E lam b P R).
  set (d := qn (length P) - qn (length R)) in *.
  destruct (Qlt_le_dec d 0) as [Hd|Hd].
  - assert (0 <= (b - lam) * (- d)) by (apply Qmult_le_0_compat; lra).
    assert ((b - lam) * - d == - ((b - lam) * d)) by ring. lra.
  - assert (0 <= (lam - a) * d) by (apply Qmult_le_0_compat; lra). lra.
Qed.

Lemma near_below E vs delta a lam P :
  near_optimal E vs delta a P -> lam <= a ->
  (forall R, is_partition vs R -> (length P <= length R)%nat) -> near_optimal E vs delta lam P.
Proof.
  intros [HP Ha] H1 HL. split; auto. intros R HR. specialize (Ha R HR).
  assert (L1 := hval_lin E lam a P R).
  assert (Hq := qn_le _ _ (HL R HR)).
  assert (0 <= (a - lam) * (qn (length R) - qn (length P))) by (apply Qmult_le_0_compat; lra).
  assert ((a - lam) * (qn (length P) - qn (length R)) ==
          - ((a - lam) * (qn (length R) - qn (length P)))) by ring. lra.
Qed.

Lemma near_above E vs delta a lam P :
  near_optimal E vs delta a P -> a <= lam ->
  (forall R, is_partition vs R -> (length R <= length P)%nat) -> near_optimal E vs delta lam P.
Proof.
  intros [HP Ha] H1 HL. split; auto. intros R HR. specialize (Ha R HR).
  assert (L1 := hval_lin E a lam P R).
  assert (Hq := qn_le _ _ (HL R HR)).
  assert (0 <= (lam - a) * (qn (length P) - qn (length R))) by (apply Qmult_le_0_compat; lra).
  lra.
Qed.

Section Seg.
  Variable E : graph.
  Variable vs : list nat.
  Hypothesis Hnd : NoDup vs.
  Variable delta : Q.

  (** [Qp] and [P] are neighbours with slope [c], both near-optimal at [c]. *)
  Definition leafok (Qp P : list (list nat)) (c : Q) : Prop :=
    (length Qp < length P)%nat /\ refines P Qp /\ is_partition vs Qp /\ is_partition vs P /\
    c * (qn (length P) - qn (length Qp)) == crossing E P - crossing E Qp /\
    near_optimal E vs delta c Qp.

  (** Consecutive neighbours from [Qp] to [P]. *)
  Fixpoint Seg (Qp : list (list nat)) (cs : list Q) (ps : list (list (list nat)))
           (P : list (list nat)) : Prop :=
    match cs, ps with
    | [c], [] => leafok Qp P c
    | c :: cs', p :: ps' => leafok Qp p c /\ Seg p cs' ps' P
    | _, _ => False
    end.

  Lemma Seg_app : forall cs ps Qp M cs' ps' P,
    Seg Qp cs ps M -> Seg M cs' ps' P -> Seg Qp (cs ++ cs') (ps ++ M :: ps') P.
  Proof.
    induction cs as [|c cs IH]; intros ps Qp M cs' ps' P H1 H2; [destruct ps; destruct H1|].
    destruct ps as [|p ps].
    - simpl in H1. destruct cs as [|c2 cs]; [|destruct H1]. simpl.
      destruct cs', ps'; simpl in *; tauto.
    - simpl in H1. assert (H : leafok Qp p c /\ Seg p cs ps M).
      { destruct cs; auto. }
      destruct H as [H3 H4]. specialize (IH ps p M cs' ps' P H4 H2).
      simpl. destruct (cs ++ cs') eqn:Ecs; split; auto.
  Qed.

  Lemma Seg_length : forall cs ps Qp P, Seg Qp cs ps P -> length cs = S (length ps).
  Proof.
    induction cs as [|c cs IH]; intros ps Qp P H; [destruct ps; destruct H|].
    destruct ps as [|p ps]; simpl in H.
    - destruct cs; [reflexivity|destruct H].
    - assert (H' : Seg p cs ps P) by (destruct cs; tauto). simpl. erewrite IH; eauto.
  Qed.

  (** Lengths increase strictly along a segment. *)
  Lemma Seg_lengths : forall cs ps Qp P, Seg Qp cs ps P ->
    StronglySorted (fun p q => (length p < length q)%nat) (Qp :: ps ++ [P]).
  Proof.
    induction cs as [|c cs IH]; intros ps Qp P H; [destruct ps; destruct H|].
    destruct ps as [|p ps]; simpl in H.
    - destruct cs; [|destruct H]. destruct H as [H _]. simpl.
      constructor; [constructor; constructor|]. constructor; auto.
    - assert (H' : leafok Qp p c /\ Seg p cs ps P) by (destruct cs; tauto).
      destruct H' as [H1 H2]. specialize (IH ps p P H2). simpl in IH. simpl.
      constructor; auto. inversion IH as [|? ? I1 I2]; subst.
      destruct H1 as [H1 _]. constructor; auto.
      eapply Forall_impl; [|exact I2]. simpl. intros; lia.
  Qed.

  Lemma leafok_near_right Qp P c : leafok Qp P c -> near_optimal E vs delta c P.
  Proof.
    intros (H1 & H2 & H3 & H4 & H5 & _ & H6). split; auto. intros R HR. specialize (H6 R HR).
    assert (hval E c P == hval E c Qp); [|lra]. unfold hval.
    assert (c * qn (length P) - c * qn (length Qp) == crossing E P - crossing E Qp)
      by (rewrite <- H5; ring). lra.
  Qed.

  Lemma Seg_chain (rel : Q -> Q -> Prop) :
    (forall a b, rel a b -> a <= b) ->
    forall cs ps Qp P lo,
    Seg Qp cs ps P -> StronglySorted rel cs ->
    match lo with
    | None => forall R, is_partition vs R -> (length Qp <= length R)%nat
    | Some l => near_optimal E vs delta l Qp /\ Forall (rel l) cs
    end ->
    (forall R, is_partition vs R -> (length R <= length P)%nat) ->
    seq_chain rel (near_optimal E vs delta) lo Qp cs (ps ++ [P]).
  Proof.
    intro Hrel. induction cs as [|c cs IH]; intros ps Qp P lo HS Hsort Hlo Htop;
      [destruct ps; destruct HS|].
    assert (Hhere : forall P1, leafok Qp P1 c ->
      (match lo with None => True | Some l0 => rel l0 c end) /\
      (forall lam, (match lo with None => True | Some l0 => l0 <= lam end) ->
                   lam <= c -> near_optimal E vs delta lam Qp) /\
      refines P1 Qp /\ (length Qp < length P1)%nat).
    { intros P1 HL. assert (HL' := HL). destruct HL as (H1 & H2 & H3 & H4 & H5 & H6).
      split; [|split; [|split; auto]].
      - destruct lo; auto. destruct Hlo as [_ Hlo]. inversion Hlo; auto.
      - intros lam Hl1 Hl2. destruct lo as [l|].
        + destruct Hlo as [Hlo1 Hlo2].
          eapply (near_between E vs delta l c); eauto.
        + eapply (near_below E vs delta c); eauto. }
    destruct ps as [|p ps].
    - simpl in HS. destruct cs as [|? ?]; [|destruct HS].
      destruct (Hhere P HS) as (A1 & A2 & A3 & A4). simpl.
      split; [exact A1|]. split; [exact A2|]. split; [exact A3|]. split; [exact A4|].
      intros lam Hl. apply (near_above E vs delta c); auto. eapply leafok_near_right; eauto.
    - simpl in HS. assert (HS' : leafok Qp p c /\ Seg p cs ps P) by (destruct cs; tauto).
      destruct HS' as [HL HS']. destruct (Hhere p HL) as (A1 & A2 & A3 & A4).
      simpl. split; [exact A1|]. split; [exact A2|]. split; [exact A3|]. split; [exact A4|].
      inversion Hsort; subst. apply IH; auto. split; auto.
      eapply leafok_near_right; eauto.
  Qed.
End Seg.

(** ** Insertion sort *)
Section Sort.
  Context {A : Type}.
  Variable ltb : A -> A -> bool.

  Lemma insert_perm x l : Permutation (insert ltb x l) (x :: l).
  Proof.
    induction l as [|y l IH]; simpl; auto. destruct (ltb y x); auto.
    rewrite IH. apply perm_swap.
  Qed.

  Lemma isort_perm l : Permutation (isort ltb l) l.
  Proof.
    induction l as [|x l IH]; simpl; auto. rewrite insert_perm. apply perm_skip; auto.
  Qed.

  Lemma isort_id l : StronglySorted (fun x y => ltb y x = false) l -> isort ltb l = l.
  Proof.
    induction 1 as [|x l H IH Hx]; simpl; auto. rewrite IH.
    destruct l as [|y l]; simpl; auto. inversion Hx as [|? ? H1 _]; subst. rewrite H1. auto.
  Qed.

  (** Inserting into a strictly sorted list an element comparable with all others. *)
  Lemma insert_between x l1 l2 :
    Forall (fun y => ltb y x = true) l1 -> Forall (fun y => ltb y x = false) l2 ->
    insert ltb x (l1 ++ l2) = l1 ++ x :: l2.
  Proof.
    induction l1 as [|y l1 IH]; simpl; intros H1 H2.
    - destruct l2 as [|z l2]; simpl; auto. inversion H2 as [|? ? H _]; subst. rewrite H. auto.
    - inversion H1 as [|? ? H3 H4]; subst. rewrite H3, IH; auto.
  Qed.

  Lemma SS_remove R (l1 : list A) x l2 :
    StronglySorted R (l1 ++ x :: l2) ->
    StronglySorted R (l1 ++ l2) /\ Forall (fun y => R y x) l1 /\ Forall (R x) l2.
  Proof.
    induction l1 as [|y l1 IH]; simpl; intro H.
    - inversion H; subst. auto.
    - inversion H as [|? ? H1 H2]; subst. destruct (IH H1) as (I1 & I2 & I3).
      rewrite Forall_forall in H2. repeat split; auto.
      + constructor; auto. apply Forall_forall. intros z Hz. apply H2.
        apply in_app_or in Hz. apply in_or_app. destruct Hz; [left|right; right]; auto.
      + constructor; auto. apply H2. apply in_or_app. right; left; auto.
  Qed.

  (** Sorting any permutation of a strictly sorted list gives that list. *)
  Lemma isort_strict (Hasym : forall x y, ltb x y = true -> ltb y x = false) l : forall m,
    Permutation l m -> StronglySorted (fun x y => ltb x y = true) m -> isort ltb l = m.
  Proof.
    induction l as [|x l IH]; intros m Hp Hs; simpl.
    - apply Permutation_nil in Hp. auto.
    - assert (Hx : In x m) by (eapply Permutation_in; [exact Hp|left; auto]).
      apply in_split in Hx. destruct Hx as (l1 & l2 & ->).
      apply Permutation_cons_app_inv in Hp.
      destruct (SS_remove _ _ _ _ Hs) as (S1 & S2 & S3).
      rewrite (IH (l1 ++ l2)) by auto. apply insert_between; auto.
      eapply Forall_impl; [|exact S3]. simpl. intros y Hy. apply Hasym; auto.
  Qed.
End Sort.
