(** * SubThy: intersecting submodular functions, tight sets, Dilworth truncation.

    Pure mathematics about an arbitrary set function [f]; used for the cut function of
    a graph and for the entropy functions of IC. *)
From Verif Require Import Base Spec PartThy.

Definition iunion (A B : nset) : nset := fun x => A x || B x.
Definition iinter (A B : nset) : nset := fun x => A x && B x.

Section Sub.
  Variable f : nset -> Q.
  Hypothesis f_ext : forall A B, (forall x, A x = B x) -> f A == f B.
  Hypothesis f_sub : forall A B, (exists x, A x = true /\ B x = true) ->
    f (iunion A B) + f (iinter A B) <= f A + f B.

  (** Sum of [f] over the parts minus [lam] per part. *)
  Definition pval (lam : Q) (P : list (list nat)) : Q :=
    qsum (fun B => f (mem B)) P - lam * qn (length P).

  Lemma pval_sum lam P : pval lam P == qsum (fun B => f (mem B) - lam) P.
  Proof. unfold pval. rewrite qsum_minus, qsum_const. reflexivity. Qed.

  Definition popt (vs : list nat) (lam : Q) (P : list (list nat)) : Prop :=
    is_partition vs P /\ forall R, is_partition vs R -> pval lam P <= pval lam R.

  Lemma pval_perm lam P P' : Permutation P P' -> pval lam P == pval lam P'.
  Proof. intro H. rewrite !pval_sum. apply qsum_perm; auto. Qed.

  Lemma pval_app lam P R : pval lam (P ++ R) == pval lam P + pval lam R.
  Proof. rewrite !pval_sum. apply qsum_app. Qed.

  Lemma f_mem_ext A B : (forall x, In x A <-> In x B) -> f (mem A) == f (mem B).
  Proof. intro H. apply f_ext. apply mem_ext; auto. Qed.

  (** Uncrossing [A] with disjoint sets that all meet it. *)
  Lemma uncross A L :
    NoDup (concat L) ->
    (forall B, In B L -> exists x, A x = true /\ In x B) ->
    f (iunion A (mem (concat L))) + qsum (fun B => f (iinter A (mem B))) L
    <= f A + qsum (fun B => f (mem B)) L.
  Proof.
    revert A. induction L as [|B L IH]; intros A Hnd Hm; simpl.
    - rewrite (f_ext _ A); [lra|]. intro x. unfold iunion. simpl. apply orb_false_r.
    - simpl in Hnd. apply NoDup_app_inv in Hnd. destruct Hnd as (H1 & H2 & H3).
      assert (IH' := IH A H2 (fun C HC => Hm C (or_intror HC))).
      set (A' := iunion A (mem (concat L))) in *.
      assert (S1 : f (iunion A' (mem B)) + f (iinter A' (mem B)) <= f A' + f (mem B)).
      { apply f_sub. destruct (Hm B (or_introl eq_refl)) as (x & Ha & Hx).
        exists x. split; [|apply mem_In; auto]. unfold A', iunion. rewrite Ha. reflexivity. }
      assert (E1 : f (iunion A (mem (B ++ concat L))) == f (iunion A' (mem B))).
      { apply f_ext. intro x. unfold A', iunion. rewrite mem_app.
        destruct (A x), (mem B x), (mem (concat L) x); reflexivity. }
      assert (E2 : f (iinter A (mem B)) == f (iinter A' (mem B))).
      { apply f_ext. intro x. unfold A', iunion, iinter.
        destruct (mem B x) eqn:EB; [|rewrite !andb_false_r; reflexivity].
        destruct (mem (concat L) x) eqn:EL; [|rewrite orb_false_r; reflexivity].
        apply mem_In in EB. apply mem_In in EL. exfalso. eapply H3; eauto. }
      rewrite E1, E2. lra.
  Qed.

  (** Parts of [P] that meet [A], and their traces on [A]. *)
  Definition mset (A : nset) (B : list nat) : bool := existsb A B.
  Definition trace (A : nset) (L : list (list nat)) : list (list nat) :=
    map (filter A) L.

  Lemma mset_true A B : mset A B = true <-> exists x, A x = true /\ In x B.
  Proof.
    unfold mset. rewrite existsb_exists. split; intros (x & H1 & H2); eauto.
  Qed.

  Lemma concat_trace A L : concat (trace A L) = filter A (concat L).
  Proof.
    unfold trace. induction L; simpl; auto. rewrite IHL, filter_app. reflexivity.
  Qed.

  Lemma filter_concat_meets A (P : list (list nat)) :
    filter A (concat (filter (mset A) P)) = filter A (concat P).
  Proof.
    induction P as [|B P IH]; simpl; auto.
    destruct (mset A B) eqn:E; simpl.
    - rewrite !filter_app, IH. reflexivity.
    - rewrite filter_app, IH.
      assert (Z : filter A B = []).
      { clear -E. unfold mset in E. induction B as [|b B IH]; simpl in *; auto.
        apply orb_false_iff in E. destruct E as [E1 E2]. rewrite E1. auto. }
      rewrite Z. reflexivity.
  Qed.

  Lemma f_filter A B : f (mem (filter A B)) == f (iinter A (mem B)).
  Proof.
    apply f_ext. intro x. rewrite mem_filter. unfold iinter. apply andb_comm.
  Qed.

  Lemma qsum_trace A L :
    qsum (fun B => f (mem B)) (trace A L) == qsum (fun B => f (iinter A (mem B))) L.
  Proof.
    unfold trace. rewrite qsum_map. apply qsum_ext. intros. apply f_filter.
  Qed.

  Lemma trace_no_nil A L :
    (forall B, In B L -> mset A B = true) -> ~ In [] (trace A L).
  Proof.
    intros H C. unfold trace in C. apply in_map_iff in C. destruct C as (B & E & HB).
    apply H in HB. apply mset_true in HB. destruct HB as (x & Hx & HxB).
    assert (I : In x (filter A B)) by (apply filter_In; auto). rewrite E in I. auto.
  Qed.

  (** ** Nestedness: an optimal partition for a larger lambda refines one for a smaller. *)
  Section Nest.
    Variable vs : list nat.
    Hypothesis Hnd : NoDup vs.

    Lemma perm_filter_mem P A :
      is_partition vs P -> incl A vs -> NoDup A ->
      Permutation (filter (mem A) (concat P)) A.
    Proof.
      intros HP HA HN. apply NoDup_Permutation; auto.
      - apply NoDup_filter. exact (part_NoDup vs Hnd P HP).
      - intro x. rewrite filter_In, mem_In. split; [tauto|]. intro Hx. split; auto.
        destruct HP as [HP _]. eapply Permutation_in; [symmetry; exact HP|]. auto.
    Qed.

    (** Exchange inequality behind nestedness. *)
    Lemma exchange P A rest P' lam lam' :
      Permutation P (A :: rest) -> popt vs lam P -> popt vs lam' P' ->
      0 <= (lam' - lam) * (qn (length (filter (mset (mem A)) P')) - 1).
    Proof.
      intros HPA [HP HPo] [HP' HPo'].
      set (L := filter (mset (mem A)) P').
      set (R := filter (fun B => negb (mset (mem A) B)) P').
      assert (HLR : Permutation P' (L ++ R)) by apply perm_filter_split.
      assert (HA : In A P) by (eapply Permutation_in; [symmetry; exact HPA|left; auto]).
      assert (HAi : incl A vs) by exact (part_incl vs P A HP HA).
      assert (HAn : NoDup A).
      { eapply nd_part_NoDup_in; [|exact HA]. exact (part_NoDup vs Hnd P HP). }
      assert (HPLR : is_partition vs (L ++ R)) by (eapply part_perm; [exact HLR|exact HP']).
      assert (HLm : forall B, In B L -> mset (mem A) B = true)
        by (intros B HB; apply filter_In in HB; tauto).
      assert (HTA : Permutation (concat (trace (mem A) L)) A).
      { rewrite concat_trace. unfold L. rewrite filter_concat_meets.
        apply perm_filter_mem; auto. }
      assert (HAne : A <> []).
      { destruct HP as [_ H]. intro. subst A. auto. }
      assert (HLne : concat L <> []).
      { intro C. rewrite concat_trace, C in HTA. simpl in HTA.
        apply Permutation_nil in HTA. auto. }
      assert (N1 : NoDup (concat L)).
      { assert (N := part_NoDup vs Hnd _ HPLR). rewrite concat_app in N.
        apply NoDup_app_inv in N. tauto. }
      assert (U : f (iunion (mem A) (mem (concat L))) + qsum (fun B => f (iinter (mem A) (mem B))) L
                  <= f (mem A) + qsum (fun B => f (mem B)) L).
      { apply uncross; auto. intros B HB. apply HLm in HB. apply mset_true in HB.
        destruct HB as (x & Hx & HxB). eauto. }
      assert (EU : f (iunion (mem A) (mem (concat L))) == f (mem (concat L))).
      { apply f_ext. intro x. unfold iunion. destruct (mem A x) eqn:E; simpl; auto.
        symmetry. apply mem_In. apply mem_In in E.
        assert (I : In x (concat (trace (mem A) L)))
          by (eapply Permutation_in; [symmetry; exact HTA|auto]).
        rewrite concat_trace in I. apply filter_In in I. tauto. }
      (* P' against merging L *)
      assert (M1 : is_partition vs ([concat L] ++ R)).
      { eapply part_replace; [exact HPLR| |].
        - simpl. rewrite app_nil_r. auto.
        - intros [C|[]]. auto. }
      apply HPo' in M1. rewrite (pval_perm _ _ _ HLR) in M1. rewrite !pval_app in M1.
      (* P against splitting A *)
      assert (M2 : is_partition vs (trace (mem A) L ++ rest)).
      { eapply part_replace with (L := [A]).
        - eapply part_perm; [exact HPA|auto].
        - simpl. rewrite app_nil_r. symmetry; auto.
        - apply trace_no_nil; auto. }
      apply HPo in M2. rewrite (pval_perm _ _ _ HPA) in M2.
      change (A :: rest) with ([A] ++ rest) in M2. rewrite !pval_app in M2.
      unfold pval in M1, M2. simpl in M1, M2. rewrite qsum_trace in M2.
      unfold trace in M2. rewrite map_length in M2. fold L.
      rewrite qn_1 in M1, M2. rewrite EU in U.
      assert (Heq : (lam' - lam) * (qn (length L) - 1)
                    == (lam' * qn (length L) - lam') - (lam * qn (length L) - lam)) by ring.
      rewrite Heq. lra.
    Qed.

    Theorem nested P P' lam lam' :
      popt vs lam P -> popt vs lam' P' -> lam' < lam -> refines P P'.
    Proof.
      intros HP HP' Hlt A HA.
      destruct (in_split _ _ HA) as (l1 & l2 & E).
      assert (X := exchange P A (l1 ++ l2) P' lam lam').
      assert (HPerm : Permutation P (A :: l1 ++ l2))
        by (rewrite E; symmetry; apply Permutation_middle).
      specialize (X HPerm HP HP').
      destruct (part_nonempty vs P A (proj1 HP) HA) as (x & Hx).
      destruct (part_cover vs P' x (proj1 HP')) as (B & HB & HxB).
      { eapply part_incl; [exact (proj1 HP)|exact HA|auto]. }
      set (L := filter (mset (mem A)) P') in *.
      assert (HBL : In B L).
      { apply filter_In. split; auto. apply mset_true. exists x. split; auto. apply mem_In; auto. }
      assert (len1 : (length L <= 1)%nat).
      { destruct (le_lt_dec (length L) 1) as [|G]; auto. exfalso.
        assert (G' : qn 1 < qn (length L)) by (apply qn_lt; auto). rewrite qn_1 in G'.
        assert (0 < (lam - lam') * (qn (length L) - 1)) by (apply Qmult_lt_0_compat; lra).
        assert ((lam' - lam) * (qn (length L) - 1) == - ((lam - lam') * (qn (length L) - 1))) by ring.
        lra. }
      exists B. split; auto. intros y Hy.
      destruct (part_cover vs P' y (proj1 HP')) as (C & HC & HyC).
      { eapply part_incl; [exact (proj1 HP)|exact HA|auto]. }
      assert (HCL : In C L).
      { apply filter_In. split; auto. apply mset_true. exists y. split; auto. apply mem_In; auto. }
      destruct L as [|D [|D' L']]; simpl in *; [tauto| |lia].
      destruct HBL as [<-|[]]. destruct HCL as [<-|[]]. auto.
    Qed.

    (** Merging the parts of [P'] that meet a part of another optimal partition
        for the same lambda keeps optimality bookkeeping exact: used for uniqueness. *)
  End Nest.

  (** ** Tight sets *)
  Variable lam : Q.

  Definition xsum (xs : list (nat * Q)) (S : nset) : Q :=
    qsum (fun p => if S (fst p) then snd p else 0) xs.

  Definition within (S : nset) (l : list nat) : Prop := forall x, S x = true -> In x l.

  Definition feas (xs : list (nat * Q)) : Prop :=
    forall S, (exists x, S x = true) -> within S (map fst xs) -> xsum xs S <= f S - lam.

  Definition tight (xs : list (nat * Q)) (S : nset) : Prop := xsum xs S == f S - lam.

  Lemma xsum_ext xs A B : (forall x, A x = B x) -> xsum xs A == xsum xs B.
  Proof. intro H. apply qsum_ext. intros p _. rewrite H. reflexivity. Qed.

  Lemma xsum_modular xs A B :
    xsum xs (iunion A B) + xsum xs (iinter A B) == xsum xs A + xsum xs B.
  Proof.
    unfold xsum. rewrite <- !qsum_plus. apply qsum_ext. intros p _.
    unfold iunion, iinter. destruct (A (fst p)), (B (fst p)); simpl; lra.
  Qed.

  Lemma xsum_snoc xs v a S :
    xsum (xs ++ [(v, a)]) S == xsum xs S + if S v then a else 0.
  Proof. unfold xsum. rewrite qsum_app. simpl. destruct (S v); lra. Qed.

  (** x is additive over a partition of its domain. *)
  Lemma xsum_partition xs P :
    NoDup (map fst xs) -> is_partition (map fst xs) P ->
    qsum (fun B => xsum xs (mem B)) P == qsum snd xs.
  Proof.
    intros Hn HP. unfold xsum. rewrite qsum_swap. apply qsum_ext. intros p Hp.
    rewrite nd_ind_sum by (eapply part_NoDup; eauto).
    destruct (mem (concat P) (fst p)) eqn:E; [reflexivity|].
    apply mem_false in E. exfalso. apply E. destruct HP as [HP _].
    eapply Permutation_in; [symmetry; exact HP|]. apply in_map. auto.
  Qed.

  Lemma feas_nil : feas [].
  Proof. intros S (x & Hx) HS. exfalso. exact (HS x Hx). Qed.

  Lemma feas_step xs v a :
    feas xs -> ~ In v (map fst xs) ->
    (forall X, within X (map fst xs) ->
       a <= f (fun x => Nat.eqb x v || X x) - lam - xsum xs X) ->
    feas (xs ++ [(v, a)]).
  Proof.
    intros HF Hv Ha S Hne HS. rewrite xsum_snoc.
    rewrite map_app in HS. simpl in HS.
    destruct (S v) eqn:Ev.
    - set (X := fun x => S x && negb (Nat.eqb x v)).
      assert (HX : within X (map fst xs)).
      { intros x Hx. unfold X in Hx. apply andb_true_iff in Hx. destruct Hx as [H1 H2].
        apply HS in H1. apply in_app_or in H1. destruct H1 as [H1|[H1|[]]]; auto.
        subst. rewrite Nat.eqb_refl in H2. discriminate. }
      specialize (Ha X HX).
      assert (E1 : f (fun x => Nat.eqb x v || X x) == f S).
      { apply f_ext. intro x. unfold X. destruct (Nat.eqb x v) eqn:E; simpl.
        - apply Nat.eqb_eq in E. subst. auto.
        - rewrite andb_true_r. reflexivity. }
      assert (E2 : xsum xs X == xsum xs S).
      { apply qsum_ext. intros p Hp. unfold X.
        destruct (Nat.eqb (fst p) v) eqn:E; simpl.
        - apply Nat.eqb_eq in E. exfalso. apply Hv. rewrite <- E. apply in_map; auto.
        - rewrite andb_true_r. reflexivity. }
      lra.
    - rewrite Qplus_0_r. apply HF; auto. intros x Hx. assert (I := HS x Hx).
      apply in_app_or in I. destruct I as [I|[I|[]]]; auto. subst. congruence.
  Qed.

  Lemma tight_snoc xs v a S : S v = false -> tight xs S -> tight (xs ++ [(v, a)]) S.
  Proof. unfold tight. intros Hv H. rewrite xsum_snoc, Hv. lra. Qed.

  Lemma tight_ext xs A B : (forall x, A x = B x) -> tight xs A -> tight xs B.
  Proof.
    unfold tight. intros H HT. rewrite <- (xsum_ext xs A B H), <- (f_ext A B H). auto.
  Qed.

  Lemma tight_new xs v a X :
    ~ In v (map fst xs) -> within X (map fst xs) ->
    a == f (fun x => Nat.eqb x v || X x) - lam - xsum xs X ->
    tight (xs ++ [(v, a)]) (fun x => Nat.eqb x v || X x).
  Proof.
    intros Hv HX Ha. unfold tight. rewrite xsum_snoc. rewrite Nat.eqb_refl. simpl.
    assert (E : xsum xs (fun x => Nat.eqb x v || X x) == xsum xs X).
    { apply qsum_ext. intros p Hp. destruct (Nat.eqb (fst p) v) eqn:E; simpl; [|reflexivity].
      apply Nat.eqb_eq in E. exfalso. apply Hv. rewrite <- E. apply in_map; auto. }
    rewrite E, Ha. lra.
  Qed.

  (** Union of a tight set with the disjoint tight sets meeting it is tight. *)
  Lemma tight_expand xs T L :
    feas xs -> within T (map fst xs) -> tight xs T ->
    NoDup (concat L) ->
    (forall B, In B L -> tight xs (mem B) /\ incl B (map fst xs)) ->
    (forall B, In B L -> exists x, T x = true /\ In x B) ->
    (exists x, T x = true) ->
    tight xs (iunion T (mem (concat L))).
  Proof.
    intros HF HTw HT Hnd HL Hm HTne.
    assert (U := uncross T L Hnd Hm).
    assert (F1 : xsum xs (iunion T (mem (concat L))) <= f (iunion T (mem (concat L))) - lam).
    { apply HF.
      - destruct HTne as (x & Hx). exists x. unfold iunion. rewrite Hx. reflexivity.
      - intros x Hx. unfold iunion in Hx. apply orb_true_iff in Hx. destruct Hx as [Hx|Hx]; auto.
        apply mem_In in Hx. apply in_concat in Hx. destruct Hx as (B & HB & HxB).
        apply (HL B HB). auto. }
    assert (F2 : qsum (fun B => xsum xs (iinter T (mem B))) L
                 <= qsum (fun B => f (iinter T (mem B)) - lam) L).
    { apply qsum_le. intros B HB. apply HF.
      - destruct (Hm B HB) as (x & H1 & H2). exists x. unfold iinter. rewrite H1. simpl.
        apply mem_In; auto.
      - intros x Hx. unfold iinter in Hx. apply andb_true_iff in Hx. apply HTw. tauto. }
    assert (F3 : qsum (fun B => xsum xs (mem B)) L == qsum (fun B => f (mem B) - lam) L).
    { apply qsum_ext. intros B HB. apply (HL B HB). }
    rewrite !qsum_minus in F2. rewrite !qsum_minus in F3.
    (* modularity of x over the list *)
    assert (M : xsum xs (iunion T (mem (concat L))) + qsum (fun B => xsum xs (iinter T (mem B))) L
                == xsum xs T + qsum (fun B => xsum xs (mem B)) L).
    { clear -Hnd. revert T. induction L as [|B L IH]; intro T; simpl.
      - rewrite (xsum_ext xs _ T); [lra|]. intro x. unfold iunion. simpl. apply orb_false_r.
      - simpl in Hnd. apply NoDup_app_inv in Hnd. destruct Hnd as (H1 & H2 & H3).
        specialize (IH H2 T).
        assert (M := xsum_modular xs (iunion T (mem (concat L))) (mem B)).
        rewrite (xsum_ext xs (iunion T (mem (B ++ concat L)))
                   (iunion (iunion T (mem (concat L))) (mem B))).
        + rewrite (xsum_ext xs (iinter T (mem B)) (iinter (iunion T (mem (concat L))) (mem B))).
          * lra.
          * intro x. unfold iunion, iinter.
            destruct (mem B x) eqn:EB; [|rewrite !andb_false_r; reflexivity].
            destruct (mem (concat L) x) eqn:EL; [|rewrite orb_false_r; reflexivity].
            apply mem_In in EB. apply mem_In in EL. exfalso. eapply H3; eauto.
        + intro x. unfold iunion. rewrite mem_app.
          destruct (T x), (mem B x), (mem (concat L) x); reflexivity. }
    unfold tight in *. lra.
  Qed.

  (** Intersections of tight sets are tight. *)
  Lemma tight_inter xs A B :
    feas xs -> within A (map fst xs) -> within B (map fst xs) ->
    (exists x, A x = true /\ B x = true) ->
    tight xs A -> tight xs B -> tight xs (iinter A B).
  Proof.
    intros HF HA HB (z & Hz1 & Hz2) TA TB.
    assert (S := f_sub A B (ex_intro _ z (conj Hz1 Hz2))).
    assert (F1 : xsum xs (iunion A B) <= f (iunion A B) - lam).
    { apply HF.
      - exists z. unfold iunion. rewrite Hz1. reflexivity.
      - intros x Hx. unfold iunion in Hx. apply orb_true_iff in Hx. destruct Hx; auto. }
    assert (F2 : xsum xs (iinter A B) <= f (iinter A B) - lam).
    { apply HF.
      - exists z. unfold iinter. rewrite Hz1, Hz2. reflexivity.
      - intros x Hx. unfold iinter in Hx. apply andb_true_iff in Hx. apply HA. tauto. }
    assert (M := xsum_modular xs A B). unfold tight in *. lra.
  Qed.

  (** Feasible x bounds every partition from below; tight parts attain the bound. *)
  Lemma feas_lower xs R :
    NoDup (map fst xs) -> feas xs -> is_partition (map fst xs) R -> qsum snd xs <= pval lam R.
  Proof.
    intros Hn HF HR. rewrite <- (xsum_partition xs R) by auto. rewrite pval_sum.
    apply qsum_le. intros B HB. apply HF.
    - destruct (part_nonempty _ _ _ HR HB) as (x & Hx). exists x. apply mem_In; auto.
    - intros x Hx. apply mem_In in Hx. eapply part_incl; eauto.
  Qed.

  Lemma tight_value xs P :
    NoDup (map fst xs) -> is_partition (map fst xs) P ->
    (forall B, In B P -> tight xs (mem B)) -> pval lam P == qsum snd xs.
  Proof.
    intros Hn HP HT. rewrite <- (xsum_partition xs P) by auto. rewrite pval_sum.
    apply qsum_ext. intros B HB. symmetry. apply HT; auto.
  Qed.

  Lemma opt_parts_tight xs R :
    NoDup (map fst xs) -> feas xs -> is_partition (map fst xs) R ->
    pval lam R <= qsum snd xs -> forall B, In B R -> tight xs (mem B).
  Proof.
    intros Hn HF HR Hle B HB.
    assert (Z : f (mem B) - lam - xsum xs (mem B) == 0).
    { apply (qsum_all_zero (fun B => f (mem B) - lam - xsum xs (mem B)) R); auto.
      - intros C HC. assert (xsum xs (mem C) <= f (mem C) - lam); [|lra]. apply HF.
        + destruct (part_nonempty _ _ _ HR HC) as (x & Hx). exists x. apply mem_In; auto.
        + intros x Hx. apply mem_In in Hx. eapply part_incl; eauto.
      - rewrite qsum_minus. rewrite <- pval_sum. rewrite xsum_partition by auto. lra. }
    unfold tight. lra.
  Qed.
End Sub.
