(** * PartThy: facts about partitions as defined in Spec. *)
From Verif Require Import Base Spec.

Lemma perm_concat {A} (P P' : list (list A)) :
  Permutation P P' -> Permutation (concat P) (concat P').
Proof.
  induction 1; simpl; auto.
  - apply Permutation_app_head; auto.
  - rewrite !app_assoc. apply Permutation_app_tail. apply Permutation_app_comm.
  - etransitivity; eauto.
Qed.

Lemma perm_filter {A} (p : A -> bool) l l' :
  Permutation l l' -> Permutation (filter p l) (filter p l').
Proof.
  induction 1; simpl; auto.
  - destruct (p x); auto.
  - destruct (p x), (p y); auto. apply perm_swap.
  - etransitivity; eauto.
Qed.

Lemma perm_filter_split {A} (p : A -> bool) l :
  Permutation l (filter p l ++ filter (fun x => negb (p x)) l).
Proof.
  induction l; simpl; auto. destruct (p a); simpl.
  - apply perm_skip; auto.
  - rewrite IHl at 1. apply Permutation_middle.
Qed.

Section Part.
  Variable vs : list nat.
  Hypothesis Hnd : NoDup vs.
  Implicit Types P R : list (list nat).

  Lemma part_perm P P' : Permutation P P' -> is_partition vs P -> is_partition vs P'.
  Proof.
    intros HP [H1 H2]. split.
    - rewrite <- H1. apply perm_concat. symmetry; auto.
    - intro C. apply H2. eapply Permutation_in; [symmetry; exact HP|auto].
  Qed.

  Lemma part_NoDup P : is_partition vs P -> NoDup (concat P).
  Proof. intros [H _]. eapply Permutation_NoDup; [symmetry; exact H|auto]. Qed.

  Lemma part_cover P x : is_partition vs P -> In x vs -> exists B, In B P /\ In x B.
  Proof.
    intros [H _] Hx. apply (Permutation_in x (Permutation_sym H)) in Hx.
    apply in_concat in Hx. destruct Hx as (B & ? & ?). eauto.
  Qed.

  Lemma part_incl P B : is_partition vs P -> In B P -> incl B vs.
  Proof.
    intros [H _] HB x Hx. eapply Permutation_in; [exact H|].
    apply in_concat. eauto.
  Qed.

  Lemma part_nonempty P B : is_partition vs P -> In B P -> exists x, In x B.
  Proof.
    intros [_ H] HB. destruct B as [|x B]; [contradiction|]. exists x. left; auto.
  Qed.

  Lemma part_replace L L' R :
    is_partition vs (L ++ R) -> Permutation (concat L) (concat L') -> ~ In [] L' ->
    is_partition vs (L' ++ R).
  Proof.
    intros [H1 H2] HL HE. split.
    - rewrite <- H1, !concat_app. apply Permutation_app_tail. symmetry; auto.
    - rewrite in_app_iff. intros [C|C]; auto. apply H2. apply in_or_app; auto.
  Qed.
End Part.

Lemma nd_part_unique (P : list (list nat)) B C x :
  NoDup (concat P) -> In B P -> In C P -> In x B -> In x C -> B = C.
Proof.
  induction P as [|D P IH]; simpl; [tauto|].
  intros H HB HC HxB HxC. apply NoDup_app_inv in H. destruct H as (H1 & H2 & H3).
  destruct HB as [<-|HB], HC as [<-|HC]; auto.
  - exfalso. apply (H3 x); auto. apply in_concat. eauto.
  - exfalso. apply (H3 x); auto. apply in_concat. eauto.
Qed.

Lemma part_unique vs P B C x :
  NoDup vs -> is_partition vs P -> In B P -> In C P -> In x B -> In x C -> B = C.
Proof. intros Hn HP. apply nd_part_unique. eapply part_NoDup; eauto. Qed.

Lemma nd_part_NoDup_in (P : list (list nat)) B : NoDup (concat P) -> In B P -> NoDup B.
Proof.
  induction P as [|D P IH]; simpl; [tauto|].
  intros H HB. apply NoDup_app_inv in H. destruct H as (H1 & H2 & H3).
  destruct HB as [<-|HB]; auto.
Qed.

Lemma nd_ind_sum (P : list (list nat)) x c :
  NoDup (concat P) ->
  qsum (fun B => if mem B x then c else 0) P == if mem (concat P) x then c else 0.
Proof.
  induction P as [|D P IH]; simpl; intro H; [reflexivity|].
  apply NoDup_app_inv in H. destruct H as (H1 & H2 & H3).
  rewrite IH by auto. rewrite mem_app.
  destruct (mem D x) eqn:E1; simpl.
  - destruct (mem (concat P) x) eqn:E2; [|lra].
    apply mem_In in E1. apply mem_In in E2. exfalso. eapply H3; eauto.
  - destruct (mem (concat P) x); lra.
Qed.

Lemma nd_same_sum (P : list (list nat)) u v c :
  NoDup (concat P) ->
  qsum (fun B => if mem B u && mem B v then c else 0) P
  == if same_part P u v then c else 0.
Proof.
  induction P as [|D P IH]; simpl; intro H; [reflexivity|].
  apply NoDup_app_inv in H. destruct H as (H1 & H2 & H3).
  rewrite IH by auto. unfold same_part. simpl.
  destruct (mem D u && mem D v) eqn:E1; simpl.
  - destruct (existsb (fun B : list nat => mem B u && mem B v) P) eqn:E2; [|lra].
    apply existsb_exists in E2. destruct E2 as (B & HB & E2).
    apply andb_true_iff in E1. apply andb_true_iff in E2. destruct E1 as [E1 _], E2 as [E2 _].
    apply mem_In in E1. apply mem_In in E2. exfalso. apply (H3 u); auto.
    apply in_concat. eauto.
  - destruct (existsb (fun B : list nat => mem B u && mem B v) P); lra.
Qed.

Lemma same_part_true P u v :
  same_part P u v = true <-> exists B, In B P /\ In u B /\ In v B.
Proof.
  unfold same_part. rewrite existsb_exists. split.
  - intros (B & H1 & H2). apply andb_true_iff in H2. destruct H2 as [H2 H3].
    apply mem_In in H2. apply mem_In in H3. eauto.
  - intros (B & H1 & H2 & H3). exists B. split; auto.
    apply andb_true_iff. split; apply mem_In; auto.
Qed.

(** ** Refinement *)
Lemma refines_refl P : refines P P.
Proof. intros B HB. exists B. split; auto. apply incl_refl. Qed.

Lemma refines_trans P Q R : refines P Q -> refines Q R -> refines P R.
Proof.
  intros H1 H2 B HB. destruct (H1 B HB) as (C & HC & I1).
  destruct (H2 C HC) as (D & HD & I2). exists D. split; auto. eapply incl_tran; eauto.
Qed.

Lemma refines_perm P P' R R' :
  Permutation P P' -> Permutation R R' -> refines P R -> refines P' R'.
Proof.
  intros H1 H2 H B HB. apply (Permutation_in B (Permutation_sym H1)) in HB.
  destruct (H B HB) as (C & HC & I). exists C. split; auto. eapply Permutation_in; eauto.
Qed.

Lemma same_partition_refl P : same_partition P P.
Proof. split; apply refines_refl. Qed.
Lemma same_partition_sym P R : same_partition P R -> same_partition R P.
Proof. intros [? ?]; split; auto. Qed.
Lemma same_partition_trans P Q R :
  same_partition P Q -> same_partition Q R -> same_partition P R.
Proof. intros [? ?] [? ?]; split; eapply refines_trans; eauto. Qed.
Lemma same_partition_perm P P' : Permutation P P' -> same_partition P P'.
Proof.
  intro H; split; [eapply refines_perm with (P := P) (R := P)|eapply refines_perm with (P := P) (R := P)]; auto;
    apply refines_refl.
Qed.

Section RefLen.
  Variable vs : list nat.
  Hypothesis Hnd : NoDup vs.

  Definition subb (B C : list nat) : bool := forallb (mem C) B.

  Lemma subb_true B C : subb B C = true <-> incl B C.
  Proof.
    unfold subb. rewrite forallb_forall. split; intros H x Hx.
    - apply mem_In. auto.
    - apply mem_In. apply H; auto.
  Qed.

  (** A part of [P] lies in exactly one part of a coarser partition [R]. *)
  Lemma refines_unique_sum P R B :
    is_partition vs P -> is_partition vs R -> refines P R -> In B P ->
    qsum (fun C => if subb B C then 1 else 0) R == 1.
  Proof.
    intros HP HR Href HB.
    destruct (Href B HB) as (C0 & HC0 & I0).
    destruct (part_nonempty vs P B HP HB) as (b & Hb).
    rewrite (qsum_ext _ (fun C => if mem C b then 1 else 0)).
    - rewrite nd_ind_sum by (eapply part_NoDup; eauto).
      destruct (mem (concat R) b) eqn:E; [reflexivity|].
      apply mem_false in E. exfalso. apply E. apply in_concat. exists C0. auto.
    - intros C HC. destruct (subb B C) eqn:E1, (mem C b) eqn:E2; try reflexivity.
      + apply subb_true in E1. apply mem_false in E2. exfalso. apply E2. apply E1; auto.
      + apply mem_In in E2. assert (C = C0).
        { eapply part_unique with (x := b); eauto. }
        subst C. apply subb_true in I0. congruence.
  Qed.

  Lemma refines_pick P R C :
    is_partition vs P -> is_partition vs R -> refines P R -> In C R ->
    exists B, In B P /\ incl B C.
  Proof.
    intros HP HR Href HC. destruct (part_nonempty vs R C HR HC) as (x & Hx).
    destruct (part_cover vs P x HP) as (B & HB & HxB).
    { eapply part_incl; eauto. }
    exists B. split; auto. destruct (Href B HB) as (C' & HC' & I).
    assert (C' = C) by (eapply part_unique with (x := x); eauto). subst; auto.
  Qed.

  Lemma ind_sum_ge {A} (p : A -> bool) l x :
    In x l -> p x = true -> 1 <= qsum (fun y => if p y then 1 else 0) l.
  Proof.
    induction l; simpl; [tauto|]. intros [->|H] Hp.
    - rewrite Hp. assert (0 <= qsum (fun y => if p y then 1 else 0) l).
      { apply qsum_nonneg. intros y _. destruct (p y); lra. }
      lra.
    - specialize (IHl H Hp). destruct (p a); lra.
  Qed.

  Lemma refines_double P R :
    is_partition vs P -> is_partition vs R -> refines P R ->
    qsum (fun C => qsum (fun B => if subb B C then 1 else 0) P) R == qn (length P).
  Proof.
    intros HP HR Href. rewrite qsum_swap.
    rewrite (qsum_ext _ (fun _ => 1)).
    - rewrite qsum_const. lra.
    - intros B HB. apply (refines_unique_sum P R B); auto.
  Qed.

  Lemma refines_length P R :
    is_partition vs P -> is_partition vs R -> refines P R -> (length R <= length P)%nat.
  Proof.
    intros HP HR Href. apply qn_le_inv. rewrite <- (refines_double P R) by auto.
    rewrite <- (Qmult_1_l (qn (length R))). rewrite <- (qsum_const 1 R).
    apply qsum_le. intros C HC.
    destruct (refines_pick P R C) as (B & HB & I); auto.
    apply ind_sum_ge with (x := B); auto. apply subb_true; auto.
  Qed.

  Lemma ind_sum_two {A} (p : A -> bool) l x y :
    In x l -> In y l -> x <> y -> p x = true -> p y = true ->
    2 <= qsum (fun y => if p y then 1 else 0) l.
  Proof.
    induction l; simpl; [tauto|]. intros Hx Hy Hne Px Py.
    assert (0 <= qsum (fun y => if p y then 1 else 0) l).
    { apply qsum_nonneg. intros z _. destruct (p z); lra. }
    destruct Hx as [->|Hx], Hy as [->|Hy].
    - congruence.
    - rewrite Px. assert (1 <= qsum (fun y => if p y then 1 else 0) l)
        by (eapply ind_sum_ge; eauto). lra.
    - rewrite Py. assert (1 <= qsum (fun y => if p y then 1 else 0) l)
        by (eapply ind_sum_ge with (x := x); eauto). lra.
    - assert (2 <= qsum (fun y => if p y then 1 else 0) l) by auto. destruct (p a); lra.
  Qed.

  (** A refinement with the same number of parts is the same partition. *)
  Lemma refines_eq_length P R :
    is_partition vs P -> is_partition vs R -> refines P R ->
    length P = length R -> refines R P.
  Proof.
    intros HP HR Href Hlen C HC.
    destruct (refines_pick P R C) as (B & HB & I); auto.
    exists B. split; auto. intros x Hx.
    destruct (part_cover vs P x HP) as (B' & HB' & HxB').
    { eapply part_incl; eauto. }
    assert (I' : incl B' C).
    { destruct (Href B' HB') as (C' & HC' & I').
      assert (C' = C) by (eapply part_unique with (x := x); eauto). subst; auto. }
    destruct (list_eq_dec Nat.eq_dec B' B) as [->|Hne]; auto. exfalso.
    assert (H := refines_double P R HP HR Href). rewrite Hlen in H.
    assert (H2 : qsum (fun _ => 1) R < qsum (fun C => qsum (fun B => if subb B C then 1 else 0) P) R).
    { apply qsum_le_strict with (a := C); auto.
      - intros D HD. destruct (refines_pick P R D) as (B0 & HB0 & I0); auto.
        apply ind_sum_ge with (x := B0); auto. apply subb_true; auto.
      - assert (2 <= qsum (fun B0 => if subb B0 C then 1 else 0) P).
        { apply ind_sum_two with (x := B) (y := B'); auto; apply subb_true; auto. }
        lra. }
    rewrite qsum_const in H2. lra.
  Qed.

  Lemma same_partition_length P R :
    is_partition vs P -> is_partition vs R -> same_partition P R -> length P = length R.
  Proof.
    intros HP HR [H1 H2]. apply Nat.le_antisymm; apply refines_length; auto.
  Qed.

  Lemma same_partition_same_part P R u v :
    same_partition P R -> same_part P u v = same_part R u v.
  Proof.
    assert (H : forall P R, same_partition P R -> same_part P u v = true -> same_part R u v = true).
    { intros P' R' [H1 _] H. apply same_part_true in H. destruct H as (B & HB & Hu & Hv).
      destruct (H1 B HB) as (C & HC & I). apply same_part_true. exists C. repeat split; auto. }
    intro HS. destruct (same_part P u v) eqn:E.
    - symmetry. eapply H; eauto.
    - destruct (same_part R u v) eqn:E2; auto.
      rewrite (H R P) in E; auto. apply same_partition_sym; auto.
  Qed.

  Lemma same_partition_crossing E P R : same_partition P R -> crossing E P == crossing E R.
  Proof.
    intro H. apply qsum_ext. intros a _. rewrite (same_partition_same_part P R) by auto.
    reflexivity.
  Qed.

  Lemma same_partition_hval E lam P R :
    is_partition vs P -> is_partition vs R -> same_partition P R ->
    hval E lam P == hval E lam R.
  Proof.
    intros HP HR H. unfold hval. rewrite (same_partition_crossing E P R) by auto.
    rewrite (same_partition_length P R) by auto. reflexivity.
  Qed.

  Lemma one_block_part : vs <> [] -> is_partition vs [vs].
  Proof.
    intro H. split.
    - simpl. rewrite app_nil_r. auto.
    - intros [C|[]]. auto.
  Qed.

  Lemma refines_one_block P : is_partition vs P -> refines P [vs].
  Proof. intros HP B HB. exists vs. split; [left; auto|]. eapply part_incl; eauto. Qed.

  Lemma singletons_part : is_partition vs (singletons vs).
  Proof.
    unfold singletons. split.
    - clear Hnd. induction vs; simpl; auto.
    - intro C. apply in_map_iff in C. destruct C as (x & C & _). discriminate.
  Qed.

  Lemma singletons_refines P : is_partition vs P -> refines (singletons vs) P.
  Proof.
    intros HP B HB. unfold singletons in HB. apply in_map_iff in HB.
    destruct HB as (x & <- & Hx). destruct (part_cover vs P x HP Hx) as (C & HC & HxC).
    exists C. split; auto. intros y [<-|[]]. auto.
  Qed.

  Lemma part_length_le P : is_partition vs P -> (length P <= length vs)%nat.
  Proof.
    intro HP. replace (length vs) with (length (singletons vs))
      by (unfold singletons; apply map_length).
    apply refines_length; auto. apply singletons_part. apply singletons_refines; auto.
  Qed.

  Lemma part_length_pos P : vs <> [] -> is_partition vs P -> (1 <= length P)%nat.
  Proof.
    intros H HP. change 1%nat with (length [vs]). apply refines_length; auto.
    apply one_block_part; auto. apply refines_one_block; auto.
  Qed.

  Lemma part_length_full P :
    is_partition vs P -> length P = length vs -> same_partition P (singletons vs).
  Proof.
    intros HP Hlen. assert (refines (singletons vs) P) by (apply singletons_refines; auto).
    split; auto. apply refines_eq_length; auto. apply singletons_part.
    unfold singletons. rewrite map_length. auto.
  Qed.

  Lemma part_length_one P :
    vs <> [] -> is_partition vs P -> length P = 1%nat -> same_partition P [vs].
  Proof.
    intros H HP Hlen. assert (refines P [vs]) by (apply refines_one_block; auto).
    split; auto. apply refines_eq_length; auto. apply one_block_part; auto.
  Qed.
End RefLen.
