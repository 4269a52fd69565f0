(** * TreeThy: hierarchies of clusters and the sequences they generate.

    A cluster tree whose labels satisfy local conditions yields a principal sequence when clusters
    are split in the order of their labels.  Used for psp_i and hpsp. *)
From Coq Require Import Sorted.
From Verif Require Import Base Spec PartThy CutThy MSets SetsThy SeqThy.

(** Arcs with both ends in [X]. *)
Definition sub (E : graph) (X : list nat) : graph :=
  filter (fun a => mem X (asrc a) && mem X (adst a)) E.

Lemma sub_sub E X Y : incl Y X -> sub (sub E X) Y = sub E Y.
Proof.
  intro H. unfold sub. induction E as [|a E IH]; simpl; auto.
  destruct (mem X (asrc a) && mem X (adst a)) eqn:EX; simpl; rewrite IH; auto.
  destruct (mem Y (asrc a) && mem Y (adst a)) eqn:EY; auto. exfalso.
  apply andb_true_iff in EY. destruct EY as [Y1 Y2]. apply mem_In in Y1, Y2. apply H in Y1, Y2.
  apply mem_In in Y1, Y2. rewrite Y1, Y2 in EX. discriminate.
Qed.

Lemma sub_In E X a : In a (sub E X) <-> In a E /\ In (asrc a) X /\ In (adst a) X.
Proof. unfold sub. rewrite filter_In, andb_true_iff, !mem_In. tauto. Qed.

Lemma sub_nonneg E X : nonneg E -> nonneg (sub E X).
Proof. intros H a Ha. apply sub_In in Ha. apply H; tauto. Qed.

Lemma sub_on E X : nonneg E -> graph_on X (sub E X).
Proof. intros H a Ha. apply sub_In in Ha. split; [tauto|]. split; [tauto|]. apply H; tauto. Qed.

Lemma sub_all E vs : graph_on vs E -> sub E vs = E.
Proof.
  intro H. unfold sub. induction E as [|a E IH]; simpl; auto.
  destruct (H a (or_introl eq_refl)) as (H1 & H2 & _). apply mem_In in H1, H2.
  rewrite H1, H2. simpl. rewrite IH; auto. intros b Hb. apply H. right; auto.
Qed.

Lemma sub_perm E X Y : (forall x, In x X <-> In x Y) -> sub E X = sub E Y.
Proof.
  intro H. unfold sub. apply filter_ext. intro a. rewrite !(mem_ext X Y); auto.
Qed.

Lemma crossing_ext E P R :
  (forall a, In a E -> same_part P (asrc a) (adst a) = same_part R (asrc a) (adst a)) ->
  crossing E P == crossing E R.
Proof. intro H. apply qsum_ext. intros a Ha. rewrite H; auto. reflexivity. Qed.

Lemma same_part_false P u v :
  same_part P u v = false <-> forall B, In B P -> In u B -> In v B -> False.
Proof.
  split.
  - intros H B H1 H2 H3.
    assert (same_part P u v = true) by (apply same_part_true; eauto). congruence.
  - intro H. destruct (same_part P u v) eqn:E; auto. apply same_part_true in E.
    destruct E as (B & H1 & H2 & H3). exfalso; eauto.
Qed.

(** ** Merging the blocks that meet a set *)
Definition merge (S : list (list nat)) (X : list nat) : list (list nat) :=
  concat (filter (meets X) S) :: filter (fun B => negb (meets X B)) S.
Definition traces (S : list (list nat)) (X : list nat) : list (list nat) :=
  map (filter (mem X)) (filter (meets X) S).

Lemma concat_map_filter {A} (p : A -> bool) (L : list (list A)) :
  concat (map (filter p) L) = filter p (concat L).
Proof.
  induction L as [|B L IH]; simpl; auto. rewrite filter_app, IH. auto.
Qed.

Section Merge.
  Variable vs : list nat.
  Hypothesis Hnd : NoDup vs.
  Variable S : list (list nat).
  Hypothesis HS : is_partition vs S.
  Variable X : list nat.
  Hypothesis HX : incl X vs.
  Hypothesis Hne : X <> [].
  Hypothesis HXnd : NoDup X.

  Lemma X_ex : exists x, In x X.
  Proof. clear -Hne. destruct X as [|x X']; [congruence|]. exists x. left; auto. Qed.

  Lemma meet_ex x : In x X -> exists B, In B S /\ In x B /\ meets X B = true.
  Proof.
    intro Hx. destruct (part_cover vs S x HS (HX x Hx)) as (B & B1 & B2).
    exists B. split; auto. split; auto. apply meets_true. eauto.
  Qed.

  Lemma merge_part : is_partition vs (merge S X).
  Proof.
    destruct HS as [H1 H2]. split.
    - simpl. rewrite <- concat_app. rewrite <- H1. apply perm_concat. symmetry.
      apply perm_filter_split.
    - intros [C|C].
      + destruct X_ex as (x & Hx).
        destruct (meet_ex x Hx) as (B & B1 & B2 & B3).
        assert (K : In x (concat (filter (meets X) S))).
        { apply in_concat. exists B. split; auto. apply filter_In; auto. }
        rewrite C in K. destruct K.
      + apply filter_In in C. tauto.
  Qed.

  Lemma trace_part : is_partition X (traces S X).
  Proof.
    split.
    - unfold traces. rewrite concat_map_filter. apply NoDup_Permutation; auto.
      + apply NoDup_filter.
        assert (ND := part_NoDup vs Hnd S HS).
        assert (P := perm_concat _ _ (perm_filter_split (meets X) S)).
        rewrite concat_app in P. eapply Permutation_NoDup in P; eauto.
        apply NoDup_app_inv in P. tauto.
      + intro x. rewrite filter_In, mem_In. split; [tauto|]. intro Hx. split; auto.
        destruct (meet_ex x Hx) as (B & B1 & B2 & B3). apply in_concat. exists B. split; auto.
        apply filter_In; auto.
    - intro C. apply in_map_iff in C. destruct C as (B & B1 & B2). apply filter_In in B2.
      destruct B2 as [_ B2]. apply meets_true in B2. destruct B2 as (x & X1 & X2).
      assert (K : In x (filter (mem X) B)) by (apply filter_In; split; auto; apply mem_In; auto).
      rewrite B1 in K. destruct K.
  Qed.

  Lemma merge_length : qn (length S) + 1 == qn (length (merge S X)) + qn (length (traces S X)).
  Proof.
    unfold merge, traces. rewrite map_length. simpl length. rewrite qn_S.
    assert (P := perm_filter_split (meets X) S). apply Permutation_length in P.
    rewrite app_length in P. rewrite P, qn_plus. ring.
  Qed.

  Lemma merge_refines : refines S (merge S X).
  Proof.
    intros B HB. destruct (meets X B) eqn:M.
    - exists (concat (filter (meets X) S)). split; [left; auto|]. intros x Hx. apply in_concat.
      exists B. split; auto. apply filter_In; auto.
    - exists B. split; [|apply incl_refl]. right. apply filter_In. rewrite M. auto.
  Qed.

  Lemma merge_covers : exists B, In B (merge S X) /\ incl X B.
  Proof.
    exists (concat (filter (meets X) S)). split; [left; auto|]. intros x Hx.
    destruct (meet_ex x Hx) as (B & B1 & B2 & B3). apply in_concat. exists B. split; auto.
    apply filter_In; auto.
  Qed.

  Lemma trace_coarse Y : incl Y X -> (exists y, In y Y) -> (exists B, In B S /\ incl Y B) ->
    exists C, In C (traces S X) /\ incl Y C.
  Proof.
    intros HY (y & Hy) (B & B1 & B2). exists (filter (mem X) B). split.
    - apply in_map. apply filter_In. split; auto. apply meets_true. exists y. auto.
    - intros z Hz. apply filter_In. split; auto. apply mem_In; auto.
  Qed.

  Lemma trace_count : (length (traces S X) >= 1)%nat.
  Proof.
    destruct X_ex as (x & Hx).
    destruct (meet_ex x Hx) as (B & B1 & B2 & B3).
    unfold traces. rewrite map_length.
    assert (K : In B (filter (meets X) S)) by (apply filter_In; auto).
    destruct (filter (meets X) S); [destruct K|simpl; lia].
  Qed.

  Variable E : graph.
  Hypothesis HE : nonneg E.

  Lemma merge_crossing :
    crossing E (merge S X) + crossing (sub E X) (traces S X) <= crossing E S.
  Proof.
    unfold crossing, sub. rewrite qsum_filter. rewrite <- qsum_plus. apply qsum_le. intros a Ha.
    specialize (HE a Ha). set (u := asrc a). set (v := adst a).
    destruct (same_part S u v) eqn:E1.
    - apply same_part_true in E1. destruct E1 as (B & B1 & B2 & B3).
      assert (E2 : same_part (merge S X) u v = true).
      { destruct (merge_refines B B1) as (C & C1 & C2). apply same_part_true. exists C. auto. }
      rewrite E2. destruct (mem X u && mem X v) eqn:E3; [|lra].
      apply andb_true_iff in E3. destruct E3 as [E3 E4]. apply mem_In in E3. 
      assert (E5 : same_part (traces S X) u v = true).
      { apply same_part_true. exists (filter (mem X) B). split; [|split].
        - apply in_map. apply filter_In. split; auto. apply meets_true. eauto.
        - apply filter_In. split; auto. apply mem_In; auto.
        - apply filter_In. split; auto. }
      rewrite E5. lra.
    - destruct (mem X u && mem X v) eqn:E3.
      + apply andb_true_iff in E3. destruct E3 as [E3 E4]. apply mem_In in E3, E4.
        destruct merge_covers as (C & C1 & C2).
        assert (E2 : same_part (merge S X) u v = true)
          by (apply same_part_true; exists C; split; [auto|split; apply C2; auto]).
        rewrite E2. destruct (same_part (traces S X) u v); lra.
      + destruct (same_part (merge S X) u v); lra.
  Qed.

  Lemma merge_hval lam :
    hval E lam (merge S X) + (hval (sub E X) lam (traces S X) + lam) <= hval E lam S.
  Proof.
    unfold hval. assert (C := merge_crossing). assert (L := merge_length).
    assert (K : lam * (qn (length S) + 1) ==
                lam * (qn (length (merge S X)) + qn (length (traces S X)))) by (rewrite L; reflexivity).
    lra.
  Qed.
End Merge.

(** ** Strong sets: no partition of the set beats keeping it whole (up to [e]) *)
Definition strong (E : graph) (lam e : Q) (X : list nat) : Prop :=
  forall R, is_partition X R -> - lam - e <= hval (sub E X) lam R.

Section Absorb.
  Variable vs : list nat.
  Hypothesis Hnd : NoDup vs.
  Variable E : graph.
  Hypothesis HE : nonneg E.
  Variable lam : Q.

  Lemma absorb : forall (Xs : list (list nat * Q)) R,
    (forall X e, In (X, e) Xs -> incl X vs /\ X <> [] /\ NoDup X /\ strong E lam e X) ->
    is_partition vs R ->
    exists R', is_partition vs R' /\ refines R R' /\
      (forall X e, In (X, e) Xs -> exists B, In B R' /\ incl X B) /\
      hval E lam R' <= hval E lam R + qsum snd Xs.
  Proof.
    induction Xs as [|[X e] Xs IH]; intros R HX HR.
    - exists R. split; auto. split; [apply refines_refl|]. split; [intros X e []|]. simpl. lra.
    - destruct (HX X e (or_introl eq_refl)) as (X1 & X2 & X3 & X4).
      assert (M1 := merge_part vs R HR X X1 X2).
      assert (T1 := trace_part vs Hnd R HR X X1 X3).
      assert (M2 := merge_hval vs R HR X X1 E HE lam).
      assert (T2 := X4 _ T1).
      destruct (IH (merge R X)) as (R' & R1 & R2 & R3 & R4); auto.
      { intros Y e' HY. apply HX. right; auto. }
      exists R'. split; auto. split.
      { eapply refines_trans; [apply merge_refines|exact R2]. }
      split.
      + intros Y e' [HY|HY]; [|eauto]. injection HY as -> ->.
        destruct (merge_covers vs R HR Y X1) as (B & B1 & B2).
        destruct (R2 B B1) as (C & C1 & C2). exists C. split; auto. eapply incl_tran; eauto.
      + simpl. lra.
  Qed.
End Absorb.

(** ** Replacing one block by a partition of it *)
Lemma expand_part vs F X Ch :
  is_partition vs (X :: F) -> is_partition X Ch -> is_partition vs (Ch ++ F).
Proof.
  intros HF [C1 C2]. apply (part_replace vs [X] Ch F); auto. simpl. rewrite app_nil_r.
  symmetry. auto.
Qed.

Lemma expand_crossing vs E F X Ch :
  NoDup vs -> is_partition vs (X :: F) -> is_partition X Ch ->
  crossing E (Ch ++ F) == crossing E (X :: F) + crossing (sub E X) Ch.
Proof.
  intros Hnd HF HC. unfold crossing, sub. rewrite qsum_filter, <- qsum_plus. apply qsum_ext.
  intros a _. set (u := asrc a). set (v := adst a).
  assert (HCX : forall B, In B Ch -> incl B X) by (intros B HB; exact (part_incl X Ch B HC HB)).
  destruct (mem X u && mem X v) eqn:EX.
  - apply andb_true_iff in EX. destruct EX as [U V]. apply mem_In in U, V.
    assert (E1 : same_part (X :: F) u v = true)
      by (apply same_part_true; exists X; simpl; auto).
    rewrite E1.
    assert (E2 : same_part (Ch ++ F) u v = same_part Ch u v).
    { apply eq_true_iff_eq. rewrite !same_part_true. split; intros (B & B1 & B2 & B3).
      - apply in_app_or in B1. destruct B1 as [B1|B1]; [eauto|]. exfalso.
        assert (X = B).
        { apply (part_unique vs (X :: F) X B u Hnd HF); simpl; auto. }
        subst B. destruct (part_cover X Ch u HC U) as (C & C1 & C2).
        destruct HF as [HF _]. assert (ND : NoDup (concat (X :: F))).
        { eapply Permutation_NoDup; [symmetry; exact HF|auto]. }
        simpl in ND. apply NoDup_app_inv in ND. destruct ND as (_ & _ & ND).
        apply (ND u); auto. apply in_concat. exists X. auto.
      - exists B. split; auto. apply in_or_app; auto. }
    rewrite E2. destruct (same_part Ch u v); lra.
  - assert (E2 : same_part (Ch ++ F) u v = same_part (X :: F) u v).
    { apply eq_true_iff_eq. rewrite !same_part_true. split; intros (B & B1 & B2 & B3).
      - apply in_app_or in B1. destruct B1 as [B1|B1].
        + exists X. split; [left; auto|]. split; apply (HCX B B1); auto.
        + exists B. split; [right; auto|]. auto.
      - destruct B1 as [<-|B1].
        + exfalso. apply mem_In in B2, B3. rewrite B2, B3 in EX. discriminate.
        + exists B. split; auto. apply in_or_app; auto. }
    rewrite E2. destruct (same_part (X :: F) u v); lra.
Qed.

Lemma expand_hval vs E lam F X Ch :
  NoDup vs -> is_partition vs (X :: F) -> is_partition X Ch ->
  hval E lam (Ch ++ F) == hval E lam (X :: F) + (hval (sub E X) lam Ch + lam).
Proof.
  intros Hnd HF HC. unfold hval. rewrite (expand_crossing vs E F X Ch Hnd HF HC).
  rewrite app_length, qn_plus. simpl length. rewrite qn_S. ring.
Qed.

(** [F] is best among its coarsenings, up to [b]. *)
Definition cbest (E : graph) (vs : list nat) (lam b : Q) (F : list (list nat)) : Prop :=
  forall S, is_partition vs S -> refines F S -> hval E lam F <= hval E lam S + b.

(** The key step: splitting a block at a level not below its label keeps it so. *)
Lemma cbest_step vs E lam g b e F X Ch :
  NoDup vs -> graph_on vs E -> is_partition vs (X :: F) -> is_partition X Ch ->
  hval (sub E X) g Ch == - g ->
  (forall R, is_partition X R -> refines Ch R -> - g - e <= hval (sub E X) g R) ->
  g <= lam -> cbest E vs lam b (X :: F) -> cbest E vs lam (b + e) (Ch ++ F).
Proof.
  intros Hnd HE HF HC H1 H3 Hle Hb S HS HR.
  assert (HX : incl X vs) by (apply (part_incl vs (X :: F)); simpl; auto).
  assert (Hne : X <> []).
  { intro C. subst. destruct HF as [_ HF]. apply HF. left; auto. }
  assert (HXnd : NoDup X).
  { apply (nd_part_NoDup_in (X :: F)); [|left; auto]. exact (part_NoDup vs Hnd _ HF). }
  assert (M := merge_part vs S HS X HX Hne).
  assert (T := trace_part vs Hnd S HS X HX HXnd).
  assert (MH := merge_hval vs S HS X HX E (graph_on_nonneg _ _ HE) lam).
  assert (R1 : refines (X :: F) (merge S X)).
  { intros B [<-|HB].
    - apply (merge_covers vs S HS X HX).
    - destruct (HR B) as (C & C1 & C2); [apply in_or_app; auto|].
      destruct (merge_refines S X C C1) as (D & D1 & D2). exists D. split; auto.
      eapply incl_tran; eauto. }
  assert (R2 : refines Ch (traces S X)).
  { intros B HB. apply trace_coarse.
    - exact (part_incl X Ch B HC HB).
    - exact (part_nonempty X Ch B HC HB).
    - apply HR. apply in_or_app; auto. }
  assert (K1 := Hb _ M R1). assert (K2 := H3 _ T R2).
  rewrite (expand_hval vs E lam F X Ch Hnd HF HC).
  assert (Lc : (length (traces S X) <= length Ch)%nat) by (apply (refines_length X HXnd); auto).
  apply qn_le in Lc. unfold hval in H1, K2, MH |- *. unfold hval in K1.
  assert (N : 0 <= (lam - g) * (qn (length Ch) - qn (length (traces S X))))
    by (apply Qmult_le_0_compat; lra).
  assert (N2 : (lam - g) * (qn (length Ch) - qn (length (traces S X))) ==
     lam * qn (length Ch) - lam * qn (length (traces S X)) - g * qn (length Ch)
     + g * qn (length (traces S X))) by ring.
  lra.
Qed.

(** ** Cluster trees *)
Inductive ht : Type := HT (X : cset) (g : Q) (ts : list ht).
Definition hset (t : ht) : cset := match t with HT X _ _ => X end.
Definition hlab (t : ht) : Q := match t with HT _ g _ => g end.
Definition hkids (t : ht) : list ht := match t with HT _ _ ts => ts end.
Definition hleaf (v : nat) : ht := HT [v] 0 [].

Section HtInd.
  Variable P : ht -> Prop.
  Hypothesis H : forall X g ts, Forall P ts -> P (HT X g ts).
  Fixpoint ht_ind' (t : ht) : P t :=
    match t with
    | HT X g ts =>
        H X g ts ((fix go (l : list ht) : Forall P l :=
                     match l with
                     | [] => Forall_nil P
                     | t :: l' => Forall_cons t (ht_ind' t) (go l')
                     end) ts)
    end.
End HtInd.

(** Number of inner nodes. *)
Fixpoint inner (t : ht) : nat :=
  match t with
  | HT _ _ [] => 0
  | HT _ _ ts => S (fold_right (fun t n => inner t + n)%nat 0%nat ts)
  end.
Definition inners (ts : list ht) : nat := fold_right (fun t n => inner t + n)%nat 0%nat ts.

(** The label of an inner node is at least (strictly above, if [strict]) [g]. *)
Definition lab_above (strict : bool) (g : Q) (t : ht) : Prop :=
  hkids t = [] \/ (if strict then g < hlab t else g <= hlab t).

Lemma lab_above_le s g t : lab_above s g t -> lab_above false g t.
Proof. unfold lab_above. intros [H|H]; auto. right. destruct s; [apply Qlt_le_weak|]; auto. Qed.

(** Local conditions: the label is the average crossing weight of the children, labels do not
    decrease downwards, and no coarsening of the children beats the whole set by
    more than [e]. *)
Inductive hok (E : graph) (s : bool) (e : Q) : ht -> Prop :=
| hok_leaf v g : hok E s e (HT [v] g [])
| hok_node X g ts :
    csorted X ->
    (2 <= length ts)%nat ->
    is_partition X (map hset ts) ->
    hval (sub E X) g (map hset ts) == - g ->
    (forall R, is_partition X R -> refines (map hset ts) R -> - g - e <= hval (sub E X) g R) ->
    (forall t, In t ts -> lab_above s g t) ->
    (forall t, In t ts -> hok E s e t) ->
    hok E s e (HT X g ts).

Lemma hok_sorted E s e t : hok E s e t -> csorted (hset t).
Proof. intro H. inversion H; subst; simpl; auto. constructor; constructor. Qed.

Lemma hok_nonempty E s e t : hok E s e t -> hset t <> [].
Proof.
  intro H. destruct H as [v g|X g ts H0 H1 H2 H3 H4 H5 H6]; simpl; [discriminate|].
  intro C. subst X. destruct ts as [|t1 ts]; [simpl in H1; lia|].
  simpl in H2. destruct H2 as [H2 H7]. apply Permutation_sym, Permutation_nil in H2. simpl in H2.
  destruct (hset t1) eqn:K; [|discriminate]. apply H7. left; auto.
Qed.

Lemma single_crossing E P : nonneg E -> 0 <= crossing E P.
Proof.
  intro H. apply qsum_nonneg. intros a Ha. specialize (H a Ha).
  destruct (same_part P (asrc a) (adst a)); lra.
Qed.

Lemma inners_app l m : inners (l ++ m) = (inners l + inners m)%nat.
Proof. unfold inners. induction l; simpl; auto. rewrite IHl. lia. Qed.

Lemma inners_perm l m : Permutation l m -> inners l = inners m.
Proof. unfold inners. induction 1; simpl; lia. Qed.

Lemma inner_node X g ts : ts <> [] -> inner (HT X g ts) = S (inners ts).
Proof. destruct ts; [congruence|reflexivity]. Qed.

Definition slack (e : Q) (t : ht) : list nat * Q := (hset t, e * qn (inner t)).

Lemma slack_sum e ts : qsum snd (map (slack e) ts) == e * qn (inners ts).
Proof.
  induction ts as [|t ts IH]; simpl; [rewrite qn_0; ring|]. rewrite IH, qn_plus. ring.
Qed.

(** Lemma A: a tree whose label is at least [lam] is a strong set. *)
Lemma hok_strong E s e t : nonneg E -> 0 <= e -> hok E s e t -> forall lam, lab_above false lam t ->
  strong E lam (e * qn (inner t)) (hset t).
Proof.
  intros HE He. induction t as [X g ts IH] using ht_ind'. intros Ht lam Hl R HR. simpl hset in *.
  inversion Ht as [v g'|X' g' ts' S0 L2 HP H1 H3 HL HO]; subst.
  - simpl. unfold hval. rewrite qn_0.
    assert (C := single_crossing (sub E [v]) R (sub_nonneg E [v] HE)).
    assert (L : length R = 1%nat).
    { assert (N : NoDup [v]) by (constructor; [intros []|constructor]).
      assert (A := part_length_le [v] N R HR). simpl in A.
      assert (B := part_length_pos [v] N R ltac:(discriminate) HR). lia. }
    rewrite L, qn_1. lra.
  - assert (Hne : ts <> []) by (destruct ts; [simpl in L2; lia|discriminate]).
    destruct Hl as [Hl|Hl]; [simpl in Hl; congruence|]. simpl in Hl.
    assert (HXnd : NoDup X) by (apply csorted_NoDup; auto).
    destruct (absorb X HXnd (sub E X) (sub_nonneg E X HE) lam (map (slack e) ts) R)
      as (R' & R1 & R2 & R3 & R4); auto.
    { intros Y q HY. apply in_map_iff in HY. destruct HY as (t & Et & Hti).
      unfold slack in Et. injection Et as <- <-.
      assert (I : incl (hset t) X) by (apply (part_incl X (map hset ts)); auto; apply in_map; auto).
      assert (Ot := HO t Hti). split; auto. split; [eapply hok_nonempty; eauto|].
      split; [apply csorted_NoDup; eapply hok_sorted; eauto|].
      intros S HS. rewrite sub_sub by auto. rewrite Forall_forall in IH. apply (IH t Hti); auto.
      destruct (HL t Hti) as [K|K]; [left; auto|right]. destruct s; lra. }
    assert (R5 : refines (map hset ts) R').
    { intros Y HY. apply in_map_iff in HY. destruct HY as (t & <- & Hti).
      apply (R3 _ (e * qn (inner t))). apply in_map_iff. exists t. auto. }
    assert (K := H3 R' R1 R5).
    assert (L : (1 <= length R')%nat).
    { apply (part_length_pos X HXnd); auto. exact (hok_nonempty _ _ _ _ Ht). }
    apply qn_le in L. rewrite qn_1 in L. rewrite slack_sum in R4.
    rewrite inner_node by auto. rewrite qn_S.
    assert (N : 0 <= (g - lam) * (qn (length R') - 1)) by (apply Qmult_le_0_compat; lra).
    unfold hval in *. 
    assert (N2 : (g - lam) * (qn (length R') - 1) == g * qn (length R') - lam * qn (length R') - g + lam)
      by ring.
    assert (N3 : e * (qn (inners ts) + 1) == e * qn (inners ts) + e) by ring.
    lra.
Qed.

(** ** The sequence obtained by splitting, at each step, a tree of smallest label *)
Section Frontier.
  Variable vs : list nat.
  Hypothesis Hnd : NoDup vs.
  Variable E : graph.
  Hypothesis HE : graph_on vs E.
  Variable s : bool.
  Variable e : Q.
  Hypothesis He : 0 <= e.

  (** A frontier all of whose labels are at least [lam] and which is best among its coarsenings. *)
  Lemma frontier_near F lam b :
    is_partition vs (map hset F) -> (forall t, In t F -> hok E s e t /\ lab_above false lam t) ->
    cbest E vs lam b (map hset F) -> near_optimal E vs (b + e * qn (inners F)) lam (map hset F).
  Proof.
    intros HP HF Hb. split; auto. intros R HR.
    destruct (absorb vs Hnd E (graph_on_nonneg _ _ HE) lam (map (slack e) F) R)
      as (R' & R1 & R2 & R3 & R4); auto.
    { intros Y q HY. apply in_map_iff in HY. destruct HY as (t & Et & Hti).
      unfold slack in Et. injection Et as <- <-. destruct (HF t Hti) as [Ot Lt].
      split; [apply (part_incl vs (map hset F)); auto; apply in_map; auto|].
      split; [eapply hok_nonempty; eauto|].
      split; [apply csorted_NoDup; eapply hok_sorted; eauto|].
      eapply hok_strong; eauto. exact (graph_on_nonneg _ _ HE). }
    assert (R5 : refines (map hset F) R').
    { intros Y HY. apply in_map_iff in HY. destruct HY as (t & <- & Hti).
      apply (R3 _ (e * qn (inner t))). apply in_map_iff. exists t. auto. }
    assert (K := Hb R' R1 R5). rewrite slack_sum in R4. lra.
  Qed.

  (** One step of the process. *)
  Lemma frontier_step X g ts F lo b lam :
    is_partition vs (map hset (HT X g ts :: F)) -> hok E s e (HT X g ts) -> ts <> [] ->
    (forall l, lo <= l -> cbest E vs l b (map hset (HT X g ts :: F))) -> lo <= g -> g <= lam ->
    cbest E vs lam (b + e) (map hset (ts ++ F)).
  Proof.
    intros HP HO Hne Hb H1 H2. inversion HO as [v g'|X' g' ts' S0 L2 HPX T1 T3 HL HOs]; subst;
      [congruence|].
    rewrite map_app. simpl in HP.
    apply (cbest_step vs E lam g b e (map hset F) X (map hset ts)); auto.
    apply (Hb lam). lra.
  Qed.
End Frontier.

Lemma perm_map_hset F F' : Permutation F F' -> Permutation (map hset F) (map hset F').
Proof. apply Permutation_map. Qed.

Lemma cbest_perm E vs lam b F F' :
  NoDup vs -> is_partition vs F -> Permutation F F' -> cbest E vs lam b F -> cbest E vs lam b F'.
Proof.
  intros Hnd HF HP H S HS HR.
  rewrite <- (same_partition_hval vs Hnd E lam F F'); auto using same_partition_perm.
  - apply H; auto. eapply refines_perm; [symmetry; exact HP|apply Permutation_refl|exact HR].
  - eapply part_perm; eauto.
Qed.

Lemma cbest_wd E vs lam lam' b F : lam == lam' -> cbest E vs lam b F -> cbest E vs lam' b F.
Proof.
  intros H Hb S HS HR. rewrite <- !(hval_wd E lam lam') by auto. auto.
Qed.

(** Split all trees of [G] (of label [g]); repeat until only leaves remain. *)
Inductive steps (rel : Q -> Q -> Prop) : list ht -> list Q -> list (list (list nat)) -> Prop :=
| steps_done F : (forall t, In t F -> hkids t = []) -> steps rel F [] []
| steps_pop F G F' g F2 P2 lams Ps :
    Permutation F (G ++ F') -> G <> [] ->
    (forall t, In t G -> hkids t <> [] /\ hlab t == g) ->
    (forall t, In t F' -> lab_above false g t) ->
    Permutation F2 (concat (map hkids G) ++ F') ->
    Permutation P2 (map hset F2) ->
    (forall t, In t F2 -> hkids t = [] \/ rel g (hlab t)) ->
    steps rel F2 lams Ps ->
    steps rel F (g :: lams) (P2 :: Ps).

Section Seq.
  Variable vs : list nat.
  Hypothesis Hnd : NoDup vs.
  Variable E : graph.
  Hypothesis HE : graph_on vs E.
  Variable s : bool.
  Variable e : Q.
  Hypothesis He : 0 <= e.
  Variable rel : Q -> Q -> Prop.
  Hypothesis rel_wd : forall a b c, b == c -> rel a b -> rel a c.
  Hypothesis rel_le : forall a b, rel a b -> a <= b.

  Definition lo_le (lo : option Q) (l : Q) : Prop := match lo with None => True | Some x => x <= l end.

  Lemma hok_kids X g ts : hok E s e (HT X g ts) -> ts <> [] ->
    (2 <= length ts)%nat /\ is_partition X (map hset ts) /\ (forall t, In t ts -> hok E s e t) /\
    (forall t, In t ts -> lab_above false g t).
  Proof.
    intros H Hne. inversion H as [v g'|X' g' ts' S0 L2 HP H1 H3 HL HO]; subst; [congruence|].
    split; auto. split; auto. split; auto. intros t Ht. eapply lab_above_le; eauto.
  Qed.

  Lemma expand_many g lo : forall G F b,
    is_partition vs (map hset (G ++ F)) ->
    (forall t, In t G -> hok E s e t /\ hkids t <> [] /\ hlab t == g) ->
    (forall l, lo_le lo l -> cbest E vs l b (map hset (G ++ F))) -> lo_le lo g ->
    is_partition vs (map hset (concat (map hkids G) ++ F)) /\
    (forall l, lo_le (Some g) l ->
       cbest E vs l (b + e * qn (length G)) (map hset (concat (map hkids G) ++ F))) /\
    refines (map hset (concat (map hkids G) ++ F)) (map hset (G ++ F)) /\
    (length G + length (G ++ F) <= length (concat (map hkids G) ++ F))%nat /\
    (inners (G ++ F) = length G + inners (concat (map hkids G) ++ F))%nat.
  Proof.
    intros G. revert lo.
    induction G as [|[X q ts] G IH]; intros lo F b HP HG Hb Hlo.
    - simpl in *. split; auto. split.
      + intros l Hl S HS HR. rewrite qn_0. assert (K := Hb l).
        assert (cbest E vs l b (map hset F)).
        { apply K. destruct lo; simpl in *; auto. lra. }
        specialize (H S HS HR). lra.
      + split; [apply refines_refl|]. split; lia.
    - destruct (HG _ (or_introl eq_refl)) as (HO & Hne & Hq). simpl in Hne, Hq.
      destruct (hok_kids X q ts HO Hne) as (L2 & HPX & HOs & HLs).
      (* first expand this tree *)
      assert (S1 : forall l, lo_le (Some g) l -> cbest E vs l (b + e) (map hset (ts ++ (G ++ F)))).
      { intros l Hl. simpl in Hl. inversion HO as [v g'|X' g' ts' S0 L2' HPX' T1 T3 HL HOs']; subst;
          [simpl in Hne; congruence|].
        rewrite map_app. simpl in HP.
        apply (cbest_step vs E l q b e (map hset (G ++ F)) X (map hset ts)); auto.
        - lra.
        - apply Hb. destruct lo; simpl in *; auto. lra. }
      assert (P1 : is_partition vs (map hset (ts ++ (G ++ F)))).
      { rewrite map_app. apply (expand_part vs (map hset (G ++ F)) X); auto. }
      assert (PP : Permutation (ts ++ (G ++ F)) (G ++ (ts ++ F))).
      { rewrite !app_assoc. apply Permutation_app_tail. apply Permutation_app_comm. }
      assert (P2 : is_partition vs (map hset (G ++ (ts ++ F)))).
      { eapply part_perm; [|exact P1]. apply perm_map_hset; auto. }
      destruct (IH (Some g) (ts ++ F) (b + e)) as (A1 & A2 & A3 & A4 & A5); auto.
      { intros t Ht. apply HG. right; auto. }
      { intros l Hl. eapply cbest_perm; [exact Hnd|exact P1|apply perm_map_hset; exact PP|auto]. }
      { simpl. lra. }
      assert (PQ : Permutation (concat (map hkids G) ++ ts ++ F) ((ts ++ concat (map hkids G)) ++ F)).
      { rewrite app_assoc. apply Permutation_app_tail. apply Permutation_app_comm. }
      simpl concat. simpl map. cbn [hkids] in *.
      split; [eapply part_perm; [apply perm_map_hset; exact PQ|auto]|].
      split.
      { intros l Hl S HS HR.
        assert (K : cbest E vs l (b + e + e * qn (length G))
                     (map hset ((ts ++ concat (map hkids G)) ++ F))).
        { eapply cbest_perm; [exact Hnd|exact A1|apply perm_map_hset; exact PQ|auto]. }
        specialize (K S HS HR). simpl length. rewrite qn_S.
        assert (b + e * (qn (length G) + 1) == b + e + e * qn (length G)) by ring. lra. }
      split.
      { assert (R1 : refines (map hset (ts ++ G ++ F)) (map hset (HT X q ts :: G ++ F))).
        { rewrite map_app. intros B HB. apply in_app_or in HB. destruct HB as [HB|HB].
          - exists X. split; [left; auto|]. apply (part_incl X (map hset ts)); auto.
          - exists B. split; [right; auto|apply incl_refl]. }
        eapply refines_trans; [|exact R1].
        eapply refines_perm; [| |exact A3].
        - apply perm_map_hset; exact PQ.
        - apply perm_map_hset. symmetry. exact PP. }
      split.
      { apply Permutation_length in PQ. rewrite <- PQ. simpl length.
        assert (Z := Permutation_length PP). rewrite app_length in Z at 1. lia. }
      { rewrite <- (inners_perm _ _ PQ).
        assert (Z := inners_perm _ _ PP). rewrite inners_app in Z.
        assert (IN : inners ((HT X q ts :: G) ++ F) = (inner (HT X q ts) + inners (G ++ F))%nat)
          by reflexivity.
        rewrite IN, inner_node by auto. simpl length. lia. }
  Qed.

  Theorem steps_chain : forall F lams Ps, steps rel F lams Ps -> forall lo b P,
    is_partition vs (map hset F) -> Permutation P (map hset F) ->
    (forall t, In t F -> hok E s e t) ->
    (forall l, lo_le lo l -> cbest E vs l b (map hset F)) ->
    (forall t x, In t F -> lo = Some x -> hkids t = [] \/ rel x (hlab t)) ->
    seq_chain rel (near_optimal E vs (b + e * qn (inners F))) lo P lams Ps.
  Proof.
    induction 1 as [F HF|F G F' g F2 P2 lams Ps HF HG0 HG HF' HF2 HP2 HR Hst IH];
      intros lo b P HP HPF HO Hb Hlo.
    - simpl. intros lam Hlam.
      assert (N : near_optimal E vs (b + e * qn (inners F)) lam (map hset F)).
      { apply (frontier_near vs Hnd E HE s e He); auto. intros t Ht. split; auto. left; auto. }
      destruct N as [N1 N2]. assert (P' : is_partition vs P) by (eapply part_perm; [symmetry|]; eauto).
      split; auto. intros R HR. rewrite (same_partition_hval vs Hnd E lam P (map hset F)); auto.
      apply same_partition_perm; auto.
    - assert (HP' : is_partition vs (map hset (G ++ F'))).
      { eapply part_perm; [apply perm_map_hset; exact HF|auto]. }
      assert (HGF : forall t, In t (G ++ F') -> hok E s e t).
      { intros t Ht. apply HO. eapply Permutation_in; [symmetry; exact HF|auto]. }
      assert (Hlg : forall x, lo = Some x -> rel x g).
      { intros x Ex. destruct G as [|t0 G0]; [congruence|].
        destruct (HG t0 (or_introl eq_refl)) as [K1 K2].
        destruct (Hlo t0 x) as [K|K]; [|auto|congruence|].
        - eapply Permutation_in; [symmetry; exact HF|left; auto].
        - eapply rel_wd; eauto. }
      assert (Hlog : lo_le lo g).
      { destruct lo as [x|]; simpl; auto. }
      destruct (expand_many g lo G F' b HP') as (A1 & A2 & A3 & A4 & A5); auto.
      { intros t Ht. split; [apply HGF; apply in_or_app; auto|]. apply HG; auto. }
      { intros l Hl. eapply cbest_perm; [exact Hnd|exact HP|apply perm_map_hset; exact HF|auto]. }
      assert (EI : b + e * qn (inners F) == b + e * qn (length G) + e * qn (inners F2)).
      { rewrite (inners_perm _ _ HF), A5, <- (inners_perm _ _ HF2), qn_plus. ring. }
      simpl. split; [destruct lo; auto|]. split; [|split; [|split]].
      + intros lam L1 L2.
        assert (N : near_optimal E vs (b + e * qn (inners F)) lam (map hset F)).
        { apply (frontier_near vs Hnd E HE s e He); auto. intros t Ht. split; auto.
          apply (Permutation_in t HF) in Ht. apply in_app_or in Ht. destruct Ht as [Ht|Ht].
          - right. destruct (HG t Ht). lra.
          - destruct (HF' t Ht) as [K|K]; [left; auto|right; lra]. }
        destruct N as [N1 N2]. assert (P' : is_partition vs P) by (eapply part_perm; [symmetry|]; eauto).
        split; auto. intros R HR'. rewrite (same_partition_hval vs Hnd E lam P (map hset F)); auto.
        apply same_partition_perm; auto.
      + eapply refines_perm; [| |exact A3].
        * rewrite HP2. apply perm_map_hset. symmetry; auto.
        * rewrite HPF. apply perm_map_hset. symmetry; auto.
      + assert (X1 := Permutation_length HPF). assert (X2 := Permutation_length HP2).
        rewrite map_length in X1, X2. apply Permutation_length in HF, HF2.
        destruct G; [congruence|]. simpl in *. lia.
      + assert (HO2 : forall t, In t F2 -> hok E s e t).
        { intros t Ht. apply (Permutation_in t HF2) in Ht. apply in_app_or in Ht.
          destruct Ht as [Ht|Ht]; [|apply HGF; apply in_or_app; auto].
          apply in_concat in Ht. destruct Ht as (ks & K1 & K2). apply in_map_iff in K1.
          destruct K1 as ([X q ts] & <- & K3). simpl in K2.
          destruct (hok_kids X q ts) as (_ & _ & K & _); auto.
          - apply HGF. apply in_or_app; auto.
          - destruct (HG _ K3). auto. }
        assert (Pa2 : is_partition vs (map hset F2)).
        { eapply part_perm; [|exact A1]. apply perm_map_hset. symmetry; auto. }
        assert (C := IH (Some g) (b + e * qn (length G)) P2 Pa2 HP2 HO2).
        eapply seq_chain_mono; [| |apply C].
        * auto.
        * intros lam Q [Q1 Q2]. split; auto. intros R HR'. specialize (Q2 R HR'). lra.
        * intros l Hl. eapply cbest_perm; [exact Hnd|exact A1| |auto].
          apply perm_map_hset. symmetry; auto.
        * intros t x Ht Ex. injection Ex as <-. auto.
  Qed.
End Seq.

Lemma all_leaves_singletons E s e F :
  (forall t, In t F -> hok E s e t /\ hkids t = []) -> forall B, In B (map hset F) -> length B = 1%nat.
Proof.
  intros H B HB. apply in_map_iff in HB. destruct HB as (t & <- & Ht). destruct (H t Ht) as [H1 H2].
  inversion H1; subst; simpl in *; auto. subst. simpl in *; lia.
Qed.

Lemma last_dflt {A} (x : A) l d d' : last (x :: l) d = last (x :: l) d'.
Proof. revert x. induction l as [|y l IH]; intros x; [reflexivity|]. apply (IH y). Qed.

(** The last partition reached consists of singletons. *)
Lemma steps_last rel E s e : forall F lams Ps, steps rel F lams Ps ->
  (forall t, In t F -> hok E s e t) ->
  forall P, Permutation P (map hset F) -> forall B, In B (last (P :: Ps) P) -> length B = 1%nat.
Proof.
  induction 1 as [F HF|F G F' g F2 P2 lams Ps HF HG0 HG HF' HF2 HP2 HR Hst IH];
    intros HO P HP B HB.
  - simpl in HB. apply (all_leaves_singletons E s e F); auto. eapply Permutation_in; eauto.
  - assert (HO2 : forall t, In t F2 -> hok E s e t).
    { intros t Ht. apply (Permutation_in t HF2) in Ht. apply in_app_or in Ht.
      destruct Ht as [Ht|Ht].
      - apply in_concat in Ht. destruct Ht as (ks & K1 & K2). apply in_map_iff in K1.
        destruct K1 as ([X q ts] & <- & K3). simpl in K2.
        destruct (hok_kids E s e X q ts) as (_ & _ & K & _); auto.
        + apply HO. eapply Permutation_in; [symmetry; exact HF|]. apply in_or_app; auto.
        + destruct (HG _ K3). auto.
      - apply HO. eapply Permutation_in; [symmetry; exact HF|]. apply in_or_app; auto. }
    apply (IH HO2 P2 HP2 B). change (last (P :: P2 :: Ps) P) with (last (P2 :: Ps) P) in HB.
    rewrite (last_dflt P2 Ps P2 P). exact HB.
Qed.

Lemma singleton_blocks_same vs P :
  is_partition vs P -> (forall B, In B P -> length B = 1%nat) -> same_partition P (singletons vs).
Proof.
  intros HP H. split.
  - intros B HB. assert (L := H B HB). destruct B as [|x [|y B]]; simpl in L; try lia.
    exists [x]. split; [|apply incl_refl]. apply in_map_iff. exists x. split; auto.
    apply (part_incl vs P [x] HP HB). left; auto.
  - apply singletons_refines; auto.
Qed.

(** A good tree over all nodes yields a full sequence. *)
Theorem tree_sequence vs E s e (rel : Q -> Q -> Prop) t lams Ps :
  NoDup vs -> vs <> [] -> graph_on vs E -> 0 <= e ->
  (forall a b c, b == c -> rel a b -> rel a c) -> (forall a b, rel a b -> a <= b) ->
  hok E s e t -> hset t = vs -> steps rel [t] lams Ps ->
  full_sequence rel (near_optimal E vs (e * qn (inner t))) vs lams ([vs] :: Ps).
Proof.
  intros Hnd Hne HE He Hwd Hle Ht Hv Hst.
  assert (P0 : is_partition vs (map hset [t])).
  { simpl. rewrite Hv. apply one_block_part; auto. }
  assert (C0 : forall l, lo_le None l -> cbest E vs l 0 (map hset [t])).
  { intros l _ S HS HR. simpl in *. rewrite Hv in *.
    assert (SP : same_partition [vs] S).
    { split; auto. apply refines_one_block; auto. }
    rewrite (same_partition_hval vs Hnd E l [vs] S); auto using one_block_part. lra. }
  assert (Hk : forall u, In u [t] -> hok E s e u) by (intros u [<-|[]]; auto).
  assert (CH := steps_chain vs Hnd E HE s e He rel Hwd Hle [t] lams Ps Hst None 0 [vs] P0).
  assert (CH' : seq_chain rel (near_optimal E vs (0 + e * qn (inners [t]))) None [vs] lams Ps).
  { apply CH; auto; [simpl; rewrite Hv; apply Permutation_refl|intros; discriminate]. }
  split; [apply same_partition_refl|]. split.
  - apply singleton_blocks_same.
    + assert (G : forall lams Ps lo P, seq_chain rel (near_optimal E vs (0 + e * qn (inners [t]))) lo P lams Ps ->
         is_partition vs (last (P :: Ps) [vs])).
      { clear -Hle. induction lams as [|l lams IH]; intros Ps lo P H; destruct Ps as [|P' Ps]; simpl in H;
          try tauto.
        - simpl. destruct lo as [q|]; [apply (H q); lra|apply (H 0); auto].
        - destruct H as (_ & _ & _ & _ & H). apply IH in H. exact H. }
      apply (G _ _ _ _ CH').
    + apply (steps_last rel E s e [t] lams Ps Hst Hk [vs]). simpl. rewrite Hv. auto.
  - eapply seq_chain_mono; [| |exact CH']; auto.
    intros lam P [Q1 Q2]. split; auto. intros R HR. specialize (Q2 R HR).
    unfold inners in Q2. simpl in Q2. rewrite Nat.add_0_r in Q2. lra.
Qed.
