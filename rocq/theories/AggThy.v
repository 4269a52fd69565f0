(** * AggThy: agglomeration of a partition at its largest critical value.

    A partition is optimal for lambda when its parts resist splitting ([strong]) and no family of
    parts gains by merging ([sparse]). *)
From Coq Require Import Sorted Relations.
From Verif Require Import Base Graph Spec PartThy SubThy SFSpec MNBThy AICStep.

Lemma nd_nth_unique (P : list (list nat)) : NoDup (concat P) -> forall i j x,
  (i < length P)%nat -> (j < length P)%nat -> In x (nth i P []) -> In x (nth j P []) -> i = j.
Proof.
  induction P as [|C P IH]; simpl; intros ND i j x Hi Hj Ii Ij; [lia|].
  apply NoDup_app_inv in ND. destruct ND as (N1 & N2 & N3).
  destruct i as [|i], j as [|j]; auto.
  - exfalso. apply (N3 x Ii). apply in_concat. exists (nth j P []). split; auto. apply nth_In. lia.
  - exfalso. apply (N3 x Ij). apply in_concat. exists (nth i P []). split; auto. apply nth_In. lia.
  - f_equal. apply (IH N2 i j x); auto; lia.
Qed.

Lemma map_nth_all {A} (l : list A) d : map (fun i => nth i l d) (seq 0 (length l)) = l.
Proof.
  induction l as [|a l IH]; simpl; auto. f_equal. rewrite <- seq_shift, map_map. exact IH.
Qed.

Lemma qsum_fam {A} (f : A -> Q) (p : A -> bool) (l : list A) d :
  qsum f (filter p l) == qsum (fun i => if p (nth i l d) then f (nth i l d) else 0) (seq 0 (length l)).
Proof.
  rewrite qsum_filter. rewrite <- (map_nth_all l d) at 1. rewrite qsum_map. reflexivity.
Qed.

Lemma filter_filter {A} (p q : A -> bool) l : filter q (filter p l) = filter (fun x => p x && q x) l.
Proof. induction l as [|a l IH]; simpl; auto. destruct (p a); simpl; [destruct (q a); rewrite IH; auto|auto]. Qed.

Section Agg.
  Variable n : nat.
  Variable F : nset -> Q.
  Hypothesis HG : ground n F.
  Hypothesis HS : submodular F.

  Lemma F_ext A B : (forall x, A x = B x) -> F A == F B.
  Proof. intro H. apply HG. auto. Qed.
  Lemma F_sub A B : (exists x, A x = true /\ B x = true) -> F (iunion A B) + F (iinter A B) <= F A + F B.
  Proof. intros _. apply HS. Qed.

  Definition strong (P : list (list nat)) (lam : Q) : Prop :=
    forall C R, In C P -> C <> [] -> is_partition C R -> F (mem C) - lam <= pval F lam R.
  Definition sparse (P : list (list nat)) (lam : Q) : Prop :=
    forall p, filter p P <> [] -> pval F lam (filter p P) <= F (mem (concat (filter p P))) - lam.
  Definition ssparse (P : list (list nat)) (lam : Q) : Prop :=
    forall p, (2 <= length (filter p P))%nat -> pval F lam (filter p P) < F (mem (concat (filter p P))) - lam.

  Lemma strong_le P lam lam' : strong P lam -> lam' <= lam -> strong P lam'.
  Proof.
    intros H L C R HC Hne HR. assert (K := H C R HC Hne HR). unfold pval in *.
    destruct R as [|B R].
    - destruct HR as [HR _]. simpl in HR. apply Permutation_nil in HR. congruence.
    - assert (O : 1 <= qn (length (B :: R))) by (apply (qn_le 1); simpl; lia).
      assert (M : 0 <= (lam - lam') * (qn (length (B :: R)) - 1)) by (apply Qmult_le_0_compat; lra).
      assert (E : (lam - lam') * (qn (length (B :: R)) - 1) ==
                  lam * qn (length (B :: R)) - lam' * qn (length (B :: R)) - lam + lam') by ring. lra.
  Qed.

  Lemma sparse_ge P lam lam' : sparse P lam -> lam <= lam' -> sparse P lam'.
  Proof.
    intros H L p Hp. assert (K := H p Hp). unfold pval in *.
    assert (O : 1 <= qn (length (filter p P))) by (apply (qn_le 1); destruct (filter p P); [congruence|simpl; lia]).
    assert (M : 0 <= (lam' - lam) * (qn (length (filter p P)) - 1)) by (apply Qmult_le_0_compat; lra).
    assert (E : (lam' - lam) * (qn (length (filter p P)) - 1) ==
                lam' * qn (length (filter p P)) - lam * qn (length (filter p P)) - lam' + lam) by ring. lra.
  Qed.

  (** The sum over a coarser partition, part by part. *)
  Lemma regroup vs P R (f : list nat -> Q) : NoDup vs -> is_partition vs P -> is_partition vs R -> refines P R ->
    qsum (fun D => qsum f (filter (fun C => subb C D) P)) R == qsum f P.
  Proof.
    intros Hn HP HR HC.
    rewrite (qsum_ext _ (fun D => qsum (fun C => if subb C D then f C else 0) P))
      by (intros; apply qsum_filter).
    rewrite qsum_swap. apply qsum_ext. intros C Hc.
    rewrite (qsum_ext _ (fun D => f C * if subb C D then 1 else 0)) by (intros D _; destruct (subb C D); lra).
    rewrite qsum_scal. rewrite (refines_unique_sum vs Hn P R C) by auto. lra.
  Qed.

  Lemma group_mem vs P R D : NoDup vs -> is_partition vs P -> is_partition vs R -> refines P R -> In D R ->
    forall x, In x (concat (filter (fun C => subb C D) P)) <-> In x D.
  Proof.
    intros Hn HP HR HC HD x. rewrite in_concat. split.
    - intros (C & C1 & C2). apply filter_In in C1. destruct C1 as [_ C1]. apply subb_true in C1. auto.
    - intro Hx. destruct (part_cover vs P x HP) as (C & C1 & C2); [eapply part_incl; eauto|].
      exists C. split; auto. apply filter_In. split; auto. apply subb_true.
      destruct (HC C C1) as (D' & D1 & D2).
      assert (D' = D) by (apply (part_unique vs R D' D x Hn HR); auto). subst. auto.
  Qed.

  Lemma group_part vs P R D : NoDup vs -> is_partition vs P -> is_partition vs R -> refines P R -> In D R ->
    is_partition D (filter (fun C => subb C D) P).
  Proof.
    intros Hn HP HR HC HD. split.
    - apply NoDup_Permutation.
      + assert (N := part_NoDup vs Hn P HP). clear -N.
        induction P as [|C P IH]; simpl; auto. simpl in N. apply NoDup_app_inv in N. destruct N as (N1 & N2 & N3).
        destruct (subb C D); simpl; auto. apply NoDup_app_intro; auto. intros x Hx Hy.
        apply (N3 x Hx). apply in_concat in Hy. destruct Hy as (B & B1 & B2). apply filter_In in B1.
        apply in_concat. exists B. tauto.
      + eapply nd_part_NoDup_in; [|exact HD]. exact (part_NoDup vs Hn R HR).
      + apply (group_mem vs P R D); auto.
    - intro C. apply filter_In in C. apply (proj2 HP). tauto.
  Qed.

  Theorem strong_sparse_opt vs P lam : NoDup vs -> is_partition vs P -> strong P lam -> sparse P lam ->
    popt F vs lam P.
  Proof.
    intros Hn HP H1 H2. split; auto.
    assert (K : forall m R, (length R <= m)%nat -> is_partition vs R -> pval F lam P <= pval F lam R).
    { induction m as [|m IH]; intros R HL HR.
      - destruct R; [|simpl in HL; lia]. destruct HR as [HR _]. apply Permutation_nil in HR. subst vs.
        destruct HP as [HP1 HP2]. apply Permutation_sym, Permutation_nil in HP1.
        destruct P as [|C P]; [lra|]. exfalso. simpl in HP1. apply app_eq_nil in HP1. apply HP2. left. tauto.
      - destruct (forallb (fun C => existsb (subb C) R) P) eqn:FA.
        + assert (HC : refines P R).
          { intros C Hc. rewrite forallb_forall in FA. apply FA in Hc. apply existsb_exists in Hc.
            destruct Hc as (D & D1 & D2). exists D. split; auto. apply subb_true; auto. }
          rewrite !pval_sum. rewrite <- (regroup vs P R) by auto.
          apply qsum_le. intros D HD. rewrite <- pval_sum.
          assert (Ne : filter (fun C => subb C D) P <> []).
          { destruct (refines_pick vs Hn P R D HP HR HC HD) as (C & C1 & C2). intro Z.
            assert (I : In C (filter (fun C => subb C D) P)) by (apply filter_In; split; auto; apply subb_true; auto).
            rewrite Z in I. destruct I. }
          assert (S := H2 _ Ne).
          rewrite (F_ext (mem (concat (filter (fun C => subb C D) P))) (mem D)) in S; auto.
          apply mem_ext. apply (group_mem vs P R D); auto.
        + assert (EX : exists C, In C P /\ existsb (subb C) R = false).
          { clear -FA. induction P as [|C P IH]; simpl in FA; [discriminate|].
            destruct (existsb (subb C) R) eqn:E; simpl in FA.
            - destruct (IH FA) as (D & D1 & D2). exists D. split; [right|]; auto.
            - exists C. split; [left|]; auto. }
          destruct EX as (C & Hc & EC).
          set (L := filter (mset (mem C)) R). set (Q := filter (fun B => negb (mset (mem C) B)) R).
          assert (HLR : Permutation R (L ++ Q)) by apply perm_filter_split.
          assert (HPL : is_partition vs (L ++ Q)) by (eapply part_perm; [exact HLR|exact HR]).
          assert (HLm : forall B, In B L -> mset (mem C) B = true) by (intros B HB; apply filter_In in HB; tauto).
          assert (HCn : NoDup C) by (eapply nd_part_NoDup_in; [|exact Hc]; exact (part_NoDup vs Hn P HP)).
          assert (HCi : incl C vs) by exact (part_incl vs P C HP Hc).
          assert (HTA : Permutation (concat (trace (mem C) L)) C).
          { rewrite concat_trace. unfold L. rewrite filter_concat_meets. apply (perm_filter_mem vs Hn); auto. }
          assert (N1 : NoDup (concat L)).
          { assert (N := part_NoDup vs Hn _ HPL). rewrite concat_app in N. apply NoDup_app_inv in N. tauto. }
          assert (U : F (iunion (mem C) (mem (concat L))) + qsum (fun B => F (iinter (mem C) (mem B))) L
                      <= F (mem C) + qsum (fun B => F (mem B)) L).
          { apply (uncross F F_ext F_sub); auto. intros B HB. apply HLm in HB. apply mset_true in HB.
            destruct HB as (x & Hx & HxB). eauto. }
          assert (SubL : forall x, In x C -> In x (concat L)).
          { intros x Hx. assert (I : In x (concat (trace (mem C) L))) by (eapply Permutation_in; [symmetry; exact HTA|auto]).
            rewrite concat_trace in I. apply filter_In in I. tauto. }
          assert (EU : F (iunion (mem C) (mem (concat L))) == F (mem (concat L))).
          { apply F_ext. intro x. unfold iunion. destruct (mem C x) eqn:E; simpl; auto.
            symmetry. apply mem_In. apply SubL. apply mem_In; auto. }
          assert (L2 : (2 <= length L)%nat).
          { destruct L as [|B [|B' L']] eqn:EL; simpl; try lia; exfalso.
            - destruct (part_nonempty vs P C HP Hc) as (x & Hx). exact (SubL x Hx).
            - assert (I : In B R) by (assert (J : In B (filter (mset (mem C)) R)) by (fold L; rewrite EL; left; auto);
                apply filter_In in J; tauto).
              assert (Z : existsb (subb C) R = true); [|congruence].
              apply existsb_exists. exists B. split; auto. apply subb_true. intros x Hx. apply SubL in Hx.
              simpl in Hx. rewrite app_nil_r in Hx. auto. }
          assert (M1 : is_partition vs ([concat L] ++ Q)).
          { eapply part_replace; [exact HPL| |].
            - simpl. rewrite app_nil_r. auto.
            - intros [Z|[]]. destruct (part_nonempty vs P C HP Hc) as (x & Hx). apply SubL in Hx. rewrite Z in Hx. destruct Hx. }
          assert (LEN : (length ([concat L] ++ Q) <= m)%nat).
          { apply Permutation_length in HLR. rewrite app_length in HLR. simpl. lia. }
          apply (IH _ LEN) in M1. eapply Qle_trans; [exact M1|].
          rewrite (pval_perm F lam _ _ HLR), !pval_app. apply Qplus_le_l.
          assert (Cne : C <> []) by (intro Z; apply (proj2 HP); rewrite <- Z; auto).
          assert (S := H1 C (trace (mem C) L) Hc Cne).
          assert (PT : is_partition C (trace (mem C) L)) by (split; [auto|apply trace_no_nil; auto]).
          apply S in PT. unfold pval in *. simpl. rewrite (qsum_trace F F_ext) in PT.
          unfold trace in PT. rewrite map_length in PT. change (qn 1) with 1. lra. }
    intros R HR. apply (K (length R) R); auto.
  Qed.

  (** ** The contracted function *)
  Section Contr.
    Variables (vs : list nat) (P : list (list nat)).
    Hypothesis Hn : NoDup vs.
    Hypothesis HP : is_partition vs P.
    Let k := length P.
    Let pt (i : nat) := nth i P [].

    Definition upart (B : nset) : nset := fun x => existsb (fun i => B i && mem (pt i) x) (seq 0 k).
    Definition contr (B : nset) : Q := F (upart B) - vsum k (fun i => F (mem (pt i))) B.

    Lemma upart_true B x : upart B x = true <-> exists i, (i < k)%nat /\ B i = true /\ In x (pt i).
    Proof.
      unfold upart. rewrite existsb_exists. split.
      - intros (i & I1 & I2). apply in_seq in I1. apply andb_true_iff in I2. destruct I2 as [I2 I3].
        exists i. split; [lia|]. split; auto. apply mem_In; auto.
      - intros (i & I1 & I2 & I3). exists i. split; [apply in_seq; lia|]. rewrite I2. apply mem_In; auto.
    Qed.

    Lemma upart_ext A B : (forall i, (i < k)%nat -> A i = B i) -> forall x, upart A x = upart B x.
    Proof.
      intros H x. apply Bool.eq_true_iff_eq. rewrite !upart_true. split; intros (i & I1 & I2 & I3); exists i.
      - rewrite <- H; auto.
      - rewrite H; auto.
    Qed.

    Lemma contr_ground : ground k contr.
    Proof.
      intros A B H. unfold contr. rewrite (F_ext _ _ (upart_ext A B H)).
      rewrite (vsum_ext k _ _ A B (fun i _ => Qeq_refl _) H). reflexivity.
    Qed.

    Lemma contr_sub : submodular contr.
    Proof.
      intros A B. unfold contr. assert (K := HS (upart A) (upart B)).
      rewrite (F_ext (upart (iunion A B)) (iunion (upart A) (upart B))).
      - rewrite (F_ext (upart (iinter A B)) (iinter (upart A) (upart B))).
        + assert (M := vsum_modular k (fun i => F (mem (pt i))) A B). lra.
        + intro x. apply Bool.eq_true_iff_eq. unfold iinter. rewrite andb_true_iff, !upart_true. split.
          * intros (i & I1 & I2 & I3). apply andb_true_iff in I2. split; exists i; tauto.
          * intros [(i & I1 & I2 & I3) (j & J1 & J2 & J3)].
            assert (i = j) by (apply (nd_nth_unique P (part_NoDup vs Hn P HP) i j x); auto). subst j.
            exists i. rewrite I2, J2. auto.
      - intro x. apply Bool.eq_true_iff_eq. unfold iunion. rewrite orb_true_iff, !upart_true. split.
        + intros (i & I1 & I2 & I3). apply orb_true_iff in I2. destruct I2; [left|right]; exists i; auto.
        + intros [(i & I1 & I2 & I3)|(i & I1 & I2 & I3)]; exists i; rewrite I2, ?orb_true_r; auto.
    Qed.

    Lemma upart_one j : (j < k)%nat -> forall x, upart (fun i => (i =? j)%nat) x = mem (pt j) x.
    Proof.
      intros Hj x. apply Bool.eq_true_iff_eq. rewrite upart_true, mem_In. split.
      - intros (i & I1 & I2 & I3). apply Nat.eqb_eq in I2. subst; auto.
      - intro H. exists j. rewrite Nat.eqb_refl. auto.
    Qed.

    Lemma contr_one j : (j < k)%nat -> contr (fun i => (i =? j)%nat) == 0.
    Proof.
      intro Hj. unfold contr. rewrite (F_ext _ _ (upart_one j Hj)).
      unfold vsum. rewrite (qsum_ext _ (fun i => if (i =? j)%nat then F (mem (pt j)) else 0)).
      - rewrite qsum_delta by auto. lra.
      - intros i _. destruct (Nat.eqb_spec i j) as [->|]; reflexivity.
    Qed.

    (** Families of parts against sets of indices. *)
    Definition fidx (p : list nat -> bool) : nset := fun i => p (pt i).

    Lemma fam_cat p x : In x (concat (filter p P)) <-> upart (fidx p) x = true.
    Proof.
      rewrite in_concat, upart_true. split.
      - intros (C & C1 & C2). apply filter_In in C1. destruct C1 as [C1 C3].
        apply (In_nth _ _ []) in C1. destruct C1 as (i & I1 & I2). exists i. unfold fidx, pt. rewrite I2. auto.
      - intros (i & I1 & I2 & I3). exists (pt i). split; auto. apply filter_In. split; auto.
        apply nth_In. auto.
    Qed.

    Lemma fam_value lam p :
      F (mem (concat (filter p P))) - lam - pval F lam (filter p P) ==
      contr (fidx p) + lam * (card k (fidx p) - 1).
    Proof.
      unfold pval, contr.
      rewrite (F_ext (mem (concat (filter p P))) (upart (fidx p))).
      - rewrite (qsum_fam (fun C => F (mem C)) p P []).
        assert (E : qn (length (filter p P)) == card k (fidx p)).
        { rewrite <- (Qmult_1_l (qn _)), <- (qsum_const 1 (filter p P)), (qsum_fam (fun _ => 1) p P []). reflexivity. }
        rewrite E. unfold vsum, fidx, k, pt. ring.
      - intro x. apply Bool.eq_true_iff_eq. rewrite mem_In. apply fam_cat.
    Qed.

    Lemma fam_card p : card k (fidx p) == qn (length (filter p P)).
    Proof.
      rewrite <- (Qmult_1_l (qn _)), <- (qsum_const 1 (filter p P)), (qsum_fam (fun _ => 1) p P []). reflexivity.
    Qed.

    Lemma fam_inhab p : filter p P <> [] -> inhab k (fidx p).
    Proof.
      intro H. destruct (filter p P) as [|C l] eqn:E; [congruence|].
      assert (I : In C (filter p P)) by (rewrite E; left; auto). apply filter_In in I. destruct I as [I1 I2].
      apply (In_nth _ _ []) in I1. destruct I1 as (i & I1 & I3). exists i. unfold fidx, pt. rewrite I3. auto.
    Qed.

    (** ** The step *)
    Variables (g : Q) (P' : list (list nat)).
    Hypothesis HP' : is_partition vs P'.
    Hypothesis Hlow : forall B, inhab k B -> - g * (card k B - 1) <= contr B.
    Let lk := lnk k contr g.
    Hypothesis Hjoin : forall i j x y, (i < k)%nat -> (j < k)%nat -> In x (pt i) -> In y (pt j) ->
      (same_part P' x y = true <-> lk i j).
    Hypothesis Hclass : forall c i, (i < k)%nat -> (forall j, (j < k)%nat -> (c j = true <-> lk i j)) -> gtight k contr g c.
    Hypothesis Hrefl : forall i, (i < k)%nat -> lk i i.

    Lemma step_sparse : sparse P g.
    Proof.
      intros p Hp. assert (L := Hlow _ (fam_inhab p Hp)). assert (E := fam_value g p). lra.
    Qed.

    Lemma pt_ne i : (i < k)%nat -> exists x, In x (pt i).
    Proof. intro Hi. apply (part_nonempty vs P); auto. apply nth_In. auto. Qed.

    Lemma step_refines : refines P P'.
    Proof.
      intros C HC. apply (In_nth _ _ []) in HC. destruct HC as (i & I1 & I2).
      destruct (pt_ne i I1) as (x & Hx).
      destruct (part_cover vs P' x HP') as (D & D1 & D2).
      { eapply part_incl; [exact HP| |exact Hx]. apply nth_In; auto. }
      exists D. split; auto. intros y Hy. rewrite <- I2 in Hy.
      assert (S : same_part P' x y = true) by (apply (Hjoin i i); auto).
      apply same_part_true in S. destruct S as (D' & D3 & D4 & D5).
      assert (D' = D) by (apply (part_unique vs P' D' D x Hn HP'); auto). subst. auto.
    Qed.

    Lemma same_in D x y : In D P' -> In x D -> (In y D <-> same_part P' x y = true).
    Proof.
      intros HD Hx. rewrite same_part_true. split.
      - intro Hy. exists D. auto.
      - intros (D' & D3 & D4 & D5). assert (D' = D) by (apply (part_unique vs P' D' D x Hn HP'); auto). subst. auto.
    Qed.

    Lemma step_tight D : In D P' -> gtight k contr g (fidx (fun C => subb C D)).
    Proof.
      intro HD. destruct (part_nonempty vs P' D HP' HD) as (x & Hx).
      destruct (part_cover vs P x HP) as (C & C1 & C2); [eapply part_incl; eauto|].
      apply (In_nth _ _ []) in C1. destruct C1 as (i & I1 & I2).
      apply (Hclass _ i I1). intros j Hj. destruct (pt_ne j Hj) as (y & Hy).
      assert (K := Hjoin i j x y I1 Hj). unfold pt at 1 in K. rewrite I2 in K. rewrite <- K; auto.
      unfold fidx. rewrite subb_true, <- (same_in D x y HD Hx). split.
      - intro H. auto.
      - intros Hd z Hz. apply (same_in D y z HD Hd). apply (Hjoin j j); auto.
    Qed.

    Lemma step_tight_value D : In D P' -> F (mem D) - g == pval F g (filter (fun C => subb C D) P).
    Proof.
      intro HD. destruct (step_tight D HD) as [_ T]. assert (E := fam_value g (fun C => subb C D)).
      rewrite (F_ext (mem (concat (filter (fun C => subb C D) P))) (mem D)) in E.
      - lra.
      - apply mem_ext. apply (group_mem vs P P' D); auto. apply step_refines.
    Qed.

    Lemma step_strong : strong P g -> strong P' g.
    Proof.
      intros H D R HD Hne HR. rewrite (step_tight_value D HD).
      assert (ND : NoDup D) by (eapply nd_part_NoDup_in; [|exact HD]; exact (part_NoDup vs Hn P' HP')).
      assert (GP : is_partition D (filter (fun C => subb C D) P)).
      { apply (group_part vs P P' D); auto. apply step_refines. }
      apply (strong_sparse_opt D (filter (fun C => subb C D) P) g ND GP); auto.
      - intros C R' HC. apply filter_In in HC. apply H. tauto.
      - intros q Hq. rewrite filter_filter in *. apply step_sparse. auto.
    Qed.

    Lemma group_ge R D : is_partition vs R -> refines P R -> In D R ->
      pval F g (filter (fun C => subb C D) P) <= F (mem D) - g.
    Proof.
      intros HR Ref HD. assert (GM := group_mem vs P R D Hn HP HR Ref HD).
      rewrite <- (F_ext (mem (concat (filter (fun C => subb C D) P))) (mem D)) by (apply mem_ext; exact GM).
      apply step_sparse. intro Z. destruct (part_nonempty vs R D HR HD) as (x & Hx). apply GM in Hx.
      rewrite Z in Hx. destruct Hx.
    Qed.

    (** [P] is best among the coarser partitions at [g]. *)
    Lemma step_best R : is_partition vs R -> refines P R -> pval F g P <= pval F g R.
    Proof.
      intros HR Ref. rewrite !pval_sum. rewrite <- (regroup vs P R _ Hn HP HR Ref). apply qsum_le.
      intros D HD. rewrite <- pval_sum. apply group_ge with R; auto.
    Qed.

    Lemma step_value : pval F g P' == pval F g P.
    Proof.
      rewrite !pval_sum. rewrite <- (regroup vs P P' _ Hn HP HP' step_refines). apply qsum_ext.
      intros D HD. rewrite <- pval_sum. apply step_tight_value; auto.
    Qed.

    (** [P'] is the coarsest of those that are as good. *)
    Lemma step_coarsest R : is_partition vs R -> refines P R -> pval F g R <= pval F g P -> refines R P'.
    Proof.
      intros HR Ref LE. rewrite !pval_sum in LE. rewrite <- (regroup vs P R _ Hn HP HR Ref) in LE.
      assert (Z : forall D, In D R -> F (mem D) - g - qsum (fun C => F (mem C) - g) (filter (fun C => subb C D) P) == 0).
      { apply qsum_all_zero.
        - intros D HD. assert (K := group_ge R D HR Ref HD). rewrite pval_sum in K. lra.
        - rewrite qsum_minus. lra. }
      assert (T : forall D, In D R -> gtight k contr g (fidx (fun C => subb C D))).
      { intros D HD. assert (GM := group_mem vs P R D Hn HP HR Ref HD).
        assert (NE : filter (fun C => subb C D) P <> []).
        { intro E. destruct (part_nonempty vs R D HR HD) as (x & Hx). apply GM in Hx. rewrite E in Hx. destruct Hx. }
        split; [apply fam_inhab; auto|]. assert (K := fam_value g (fun C => subb C D)).
        rewrite (F_ext (mem (concat (filter (fun C => subb C D) P))) (mem D)) in K by (apply mem_ext; exact GM).
        rewrite pval_sum in K. assert (K2 := Z D HD). lra. }
      intros D HD. destruct (part_nonempty vs R D HR HD) as (x & Hx).
      assert (PT : forall y, In y D -> exists i, (i < k)%nat /\ In y (pt i) /\ incl (pt i) D).
      { intros y Hy. apply (group_mem vs P R D Hn HP HR Ref HD) in Hy. apply in_concat in Hy.
        destruct Hy as (C & C1 & C2). apply filter_In in C1. destruct C1 as [C1 C3]. apply subb_true in C3.
        apply (In_nth _ _ []) in C1. destruct C1 as (i & I1 & I2). exists i. unfold pt. rewrite I2. auto. }
      destruct (PT x Hx) as (i & I1 & I2 & I3).
      destruct (part_cover vs P' x HP') as (D' & D1 & D2); [eapply part_incl; eauto|].
      exists D'. split; auto. intros y Hy. destruct (PT y Hy) as (j & J1 & J2 & J3).
      apply (same_in D' x y D1 D2). apply (Hjoin i j x y I1 J1 I2 J2). exists (fidx (fun C => subb C D)).
      split; [apply T; auto|]. unfold fidx. split; apply subb_true; auto.
    Qed.

    Lemma step_ssparse : ssparse P' g.
    Proof.
      intros q Hq. set (p := fun C => existsb (fun D => q D && subb C D) P').
      assert (Ref := step_refines).
      assert (EQ : forall x, In x (concat (filter q P')) <-> In x (concat (filter p P))).
      { intro x. rewrite !in_concat. split.
        - intros (D & D1 & D2). apply filter_In in D1. destruct D1 as [D1 D3].
          assert (J := proj2 (group_mem vs P P' D Hn HP HP' Ref D1 x) D2). apply in_concat in J.
          destruct J as (C & C1 & C2). apply filter_In in C1. exists C. split; auto. apply filter_In.
          split; [tauto|]. unfold p. apply existsb_exists. exists D. rewrite D3. tauto.
        - intros (C & C1 & C2). apply filter_In in C1. destruct C1 as [C1 C3]. unfold p in C3.
          apply existsb_exists in C3. destruct C3 as (D & D1 & D2). apply andb_true_iff in D2.
          exists D. split; [apply filter_In; tauto|]. apply (proj1 (subb_true C D)); tauto. }
      assert (SUM : forall f : list nat -> Q, qsum (fun D => qsum f (filter (fun C => subb C D) P)) (filter q P') ==
                        qsum f (filter p P)).
      { intro f. rewrite (qsum_ext _ (fun D => qsum (fun C => if subb C D then f C else 0) P))
          by (intros; apply qsum_filter).
        rewrite qsum_swap, (qsum_filter f p). apply qsum_ext. intros C HC. unfold p.
        rewrite qsum_filter.
        destruct (Ref C HC) as (D & D1 & D2).
        assert (UN : forall D', In D' P' -> subb C D' = true -> D' = D).
        { intros D' I1 I2. apply subb_true in I2. destruct (part_nonempty vs P C HP HC) as (x & Hx).
          apply (part_unique vs P' D' D x Hn HP'); auto. }
        rewrite (qsum_ext _ (fun D' => (if q D then f C else 0) * if subb C D' then 1 else 0)).
        - rewrite qsum_scal, (refines_unique_sum vs Hn P P' C) by auto.
          assert (QD : existsb (fun D0 => q D0 && subb C D0) P' = q D).
          { destruct (q D) eqn:E.
            - apply existsb_exists. exists D. rewrite E. split; auto. simpl. apply subb_true; auto.
            - destruct (existsb (fun D0 => q D0 && subb C D0) P') eqn:E2; auto. apply existsb_exists in E2.
              destruct E2 as (D' & I1 & I2). apply andb_true_iff in I2. destruct I2 as [I2 I3].
              rewrite (UN D' I1 I3) in I2. congruence. }
          rewrite QD. lra.
        - intros D' HD'. destruct (subb C D') eqn:E; [rewrite (UN D' HD' E); destruct (q D); lra|destruct (q D'), (q D); lra]. }
      assert (LE : pval F g (filter q P') == pval F g (filter p P)).
      { rewrite !pval_sum. rewrite <- (SUM (fun C => F (mem C) - g)). apply qsum_ext. intros D HD.
        apply filter_In in HD. rewrite <- pval_sum. apply step_tight_value. tauto. }
      assert (FE : F (mem (concat (filter q P'))) == F (mem (concat (filter p P)))).
      { apply F_ext. apply mem_ext. exact EQ. }
      rewrite LE, FE.
      assert (INH : inhab k (fidx p)).
      { apply fam_inhab. intro Z. destruct (filter q P') as [|D l] eqn:EF; [simpl in Hq; lia|].
        assert (ID : In D (filter q P')) by (rewrite EF; left; auto). apply filter_In in ID. destruct ID as [ID _].
        destruct (part_nonempty vs P' D HP' ID) as (x & Hx).
        assert (J : In x (concat (filter p P))).
        { apply EQ. simpl. apply in_or_app. left; auto. }
        rewrite Z in J. destruct J. }
      assert (L := Hlow _ INH). assert (E := fam_value g p).
      destruct (Qlt_le_dec (- g * (card k (fidx p) - 1)) (contr (fidx p))) as [|G']; [lra|]. exfalso.
      assert (T : gtight k contr g (fidx p)) by (split; auto; lra).
      (* two parts of the family are then linked *)
      destruct (filter q P') as [|D1 [|D2 l]] eqn:EF; simpl in Hq; try lia.
      assert (I1 : In D1 (filter q P')) by (rewrite EF; left; auto).
      assert (I2 : In D2 (filter q P')) by (rewrite EF; right; left; auto).
      apply filter_In in I1, I2. destruct I1 as [I1 Q1]. destruct I2 as [I2 Q2].
      destruct (part_nonempty vs P' D1 HP' I1) as (x & Hx). destruct (part_nonempty vs P' D2 HP' I2) as (y & Hy).
      assert (IDX : forall D z, In D P' -> q D = true -> In z D -> exists i, (i < k)%nat /\ In z (pt i) /\ fidx p i = true).
      { intros D z HD QD Hz. destruct (part_cover vs P z HP) as (C & C1 & C2); [eapply part_incl; eauto|].
        assert (SB : subb C D = true).
        { destruct (Ref C C1) as (D' & J1 & J2). assert (D' = D) by (apply (part_unique vs P' D' D z Hn HP'); auto).
          subst. apply subb_true; auto. }
        apply (In_nth _ _ []) in C1. destruct C1 as (i & J1 & J2). exists i. unfold fidx, pt. rewrite J2.
        split; auto. split; auto. unfold p. apply existsb_exists. exists D. rewrite QD. auto. }
      destruct (IDX D1 x I1 Q1 Hx) as (i & Hi & Xi & Pi). destruct (IDX D2 y I2 Q2 Hy) as (j & Hj & Yj & Pj).
      assert (SP : same_part P' x y = true) by (apply (Hjoin i j); auto; exists (fidx p); auto).
      apply (same_in D1 x y I1 Hx) in SP.
      assert (D1 = D2) by (apply (part_unique vs P' D1 D2 y Hn HP'); auto).
      assert (ND : NoDup (concat (filter q P'))).
      { apply (Permutation_NoDup (l := concat (filter q P'))); auto. clear -Hn HP'.
        assert (N := part_NoDup vs Hn P' HP'). clear -N. induction P' as [|C Z IH]; simpl; auto.
        simpl in N. apply NoDup_app_inv in N. destruct N as (N1 & N2 & N3). destruct (q C); simpl; auto.
        apply NoDup_app_intro; auto. intros x Hx Hy. apply (N3 x Hx). apply in_concat in Hy.
        destruct Hy as (B & B1 & B2). apply filter_In in B1. apply in_concat. exists B. tauto. }
      rewrite EF in ND. simpl in ND. apply NoDup_app_inv in ND. destruct ND as (_ & _ & ND).
      apply (ND x Hx). apply in_or_app. left. congruence.
    Qed.
  End Contr.
End Agg.
