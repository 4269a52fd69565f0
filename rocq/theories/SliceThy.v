(** * SliceThy: the parametric flow search returns the chain of minimisers. *)
From Coq Require Import Sorted.
From Verif Require Import Base Spec PartThy SubThy MSets SetsThy MGraph MaxFlow MDil CutThy DilThy MDT
  SeqThy MPMF LamThy ParThy.

Lemma ceqb_true s t : ceqb s t = true <-> s = t.
Proof.
  revert t. induction s as [|x s IH]; intros [|y t]; simpl; split; intro H; try discriminate; auto.
  - apply andb_true_iff in H. destruct H as [H1 H2]. apply Nat.eqb_eq in H1. apply IH in H2. congruence.
  - inversion H; subst. rewrite Nat.eqb_refl. simpl. apply IH; auto.
Qed.

Lemma ceqb_false s t : ceqb s t = false <-> s <> t.
Proof.
  split; intro H.
  - intros ->. assert (ceqb t t = true) by (apply ceqb_true; auto). congruence.
  - destruct (ceqb s t) eqn:E; auto. apply ceqb_true in E. contradiction.
Qed.

Lemma csub_length s t : csorted s -> csorted t -> incl s t -> s <> t -> (length s < length t)%nat.
Proof.
  intros Hs Ht Hi Hne.
  assert (L := NoDup_incl_length (csorted_NoDup s Hs) Hi).
  destruct (Nat.eq_dec (length s) (length t)) as [E|E]; [|lia]. exfalso. apply Hne.
  apply csorted_ext; auto. intro x. split; [apply Hi|].
  apply (NoDup_length_incl (csorted_NoDup s Hs)); [lia|auto].
Qed.

Lemma filter_len {A} (p : A -> bool) l : (length (filter p l) <= length l)%nat.
Proof. induction l as [|x l IH]; simpl; [lia|]. destruct (p x); simpl; lia. Qed.

Section Slice.
  Variable mc : solver.
  Hypothesis Hmc : MinSinkCutSpec mc.
  Variable eps : Q.
  Hypothesis Heps : 0 < eps.
  Variable E : graph.
  Variable n j : nat.
  Hypothesis Hjn : (j < n)%nat.
  Hypothesis HE : graph_on (seq 0 n) E.
  Hypothesis Hs : simple E.
  Hypothesis Hf : forward E.
  Hypothesis Hw : forall a, In a E -> eps <= aw a.
  Variable y : list (Q * dbl).

  Let nodes := seq 0 j.
  Let yf := fun u l => ycap (yat y u) l.
  Let f := incut E.
  Let FJ := fj f j.
  Let VS := fun l => vs nodes (fun u => yf u l).
  Let WIN := win nodes j.
  Let UP := up f nodes j yf.
  Let CROSS := cross f nodes j yf.

  Definition gval (l : Q) (X : nset) : Q := FJ X - VS l X.

  Lemma nodes_NoDup : NoDup nodes.
  Proof. apply seq_NoDup. Qed.
  Lemma j_notin : ~ In j nodes.
  Proof. unfold nodes. rewrite in_seq. lia. Qed.

  Lemma HEn : nonneg E.
  Proof. exact (graph_on_nonneg _ _ HE). Qed.

  Lemma yf_anti u l l' : l <= l' -> yf u l' <= yf u l.
  Proof. apply ycap_anti. Qed.

  Lemma stage_arcs_in a : In a E -> In (adst a) nodes \/ adst a = j -> In (asrc a) nodes.
  Proof.
    intros Ha H. specialize (Hf a Ha). unfold nodes in *. rewrite in_seq in *. lia.
  Qed.

  (** exactly one arc to the sink per node *)
  Lemma one_copy i : sink_copies eps E j i = 1%nat.
  Proof.
    unfold sink_copies. unfold simple in Hs. clear HE Hf. induction E as [|a t IH].
    - simpl. assert (Qltb 0 eps = true) by (apply Qltb_true; auto). rewrite H. auto.
    - simpl in Hs. inversion Hs as [|? ? H1 H2]; subst.
      cbn [filter sink_cost]. destruct ((asrc a =? i)%nat && (adst a =? j)%nat) eqn:Ea.
      + assert (F : filter (fun a => (asrc a =? i)%nat && (adst a =? j)%nat) t = []).
        { apply andb_true_iff in Ea. destruct Ea as [E1 E2]. apply Nat.eqb_eq in E1. apply Nat.eqb_eq in E2.
          destruct (filter (fun a => (asrc a =? i)%nat && (adst a =? j)%nat) t) as [|b l] eqn:Fl; auto.
          exfalso. assert (In b (b :: l)) by (left; auto). rewrite <- Fl in H. apply filter_In in H.
          destruct H as [Hb1 Hb2]. apply andb_true_iff in Hb2. destruct Hb2 as [B1 B2].
          apply Nat.eqb_eq in B1. apply Nat.eqb_eq in B2. apply H1. apply in_map_iff. exists b.
          split; auto. congruence. }
        rewrite F. assert (Qltb (aw a) eps = false) by (apply Qltb_false; apply Hw; left; auto).
        rewrite H. auto.
      + apply IH; auto. intros b Hb. apply Hw. right; auto.
  Qed.

  Let xs := fun l => vec nodes (fun u => yf u l).

  Lemma cut_arcs l i X : cut (pmf_arcs eps E j y l i) X == cut (st_arcs E j (i, yf i l)) X.
  Proof.
    rewrite cut_st by apply HEn. unfold pmf_arcs. rewrite one_copy. cbn [repeat].
    change (ycap (yat y i) l) with (yf i l). set (c := yf i l).
    unfold cut. cbn [qsum nsrc ndst ncap side fst snd negb]. simpl.
    destruct (X i); simpl.
    - destruct (Qltb c 0) eqn:Ec.
      + apply Qltb_true in Ec. destruct (qmax_spec 0 (- c)) as [[A B]|[A B]]; rewrite B; lra.
      + apply Qltb_false in Ec. destruct (qmax_spec 0 (- c)) as [[A B]|[A B]]; rewrite B; lra.
    - lra.
  Qed.

  Lemma cut_net l X : cut (pmf_net eps E j y l) X == cut (dil_network E (xs l) j) X.
  Proof.
    unfold pmf_net, dil_network. rewrite !cut_app, !cut_flat_map. unfold xs.
    rewrite vec_fst. unfold vec. rewrite qsum_map. fold nodes.
    apply Qplus_comp; [reflexivity|]. apply qsum_ext. intros i _. apply cut_arcs.
  Qed.

  Definition cst (l : Q) : Q := qsum (fun p => qmax 0 (snd p)) (xs l).

  Lemma cut_val l X : WIN X -> cut (pmf_net eps E j y l) X == gval l X + cst l.
  Proof.
    intro HX. set (X' := fun x => X x && negb (Nat.eqb x j)).
    assert (I : within X' (map fst (xs l))).
    { unfold xs. rewrite vec_fst. intros x Hx. unfold X' in Hx. apply andb_true_iff in Hx.
      destruct Hx as [H1 H2]. apply negb_true_iff in H2. apply Nat.eqb_neq in H2.
      destruct (HX x H1); auto. contradiction. }
    assert (C := cut_stage E (xs l) j HEn Hs).
    assert (Hn1 : NoDup (map fst (xs l))) by (unfold xs; rewrite vec_fst; apply nodes_NoDup).
    assert (Hn2 : ~ In j (map fst (xs l))) by (unfold xs; rewrite vec_fst; apply j_notin).
    assert (Hn3 : forall a, In a E -> In (adst a) (map fst (xs l)) \/ adst a = j -> In (asrc a) (map fst (xs l)))
      by (unfold xs; rewrite vec_fst; apply stage_arcs_in).
    specialize (C Hn1 Hn2 Hn3 X' I).
    assert (K : cut (pmf_net eps E j y l) X == cut (pmf_net eps E j y l) X').
    { assert (S : forall i, In i nodes -> X' i = X i).
      { intros i Hi. unfold X'. destruct (Nat.eqb i j) eqn:Ei; [|apply andb_true_r].
        apply Nat.eqb_eq in Ei. subst. exfalso. exact (j_notin Hi). }
      unfold pmf_net. rewrite !cut_app, !cut_flat_map. apply Qplus_comp.
      - unfold cut, inner_arcs. rewrite !qsum_map. apply qsum_ext. intros a Ha.
        apply filter_In in Ha. destruct Ha as [_ Ha]. apply andb_true_iff in Ha. destruct Ha as [A1 A2].
        apply mem_In in A1. apply mem_In in A2. simpl. rewrite !S; auto. reflexivity.
      - apply qsum_ext. intros i Hi. rewrite !cut_arcs, !cut_st by apply HEn. simpl.
        rewrite S; auto. reflexivity. }
    rewrite K, cut_net. unfold gval, cst.
    assert (A : FJ X == incut E (fun x => Nat.eqb x j || X' x)).
    { unfold FJ, fj, f. apply incut_ext. intro x. unfold X'. destruct (Nat.eqb x j); simpl; auto.
      rewrite andb_true_r. auto. }
    assert (B : VS l X == xsum (xs l) X').
    { unfold VS, xs. rewrite vec_xsum. apply vs_ext; [|intros; reflexivity].
      intros u Hu. unfold X'. destruct (Nat.eqb u j) eqn:Eu; [|rewrite andb_true_r; auto].
      apply Nat.eqb_eq in Eu. subst. exfalso. exact (j_notin Hu). }
    rewrite A, B. lra.
  Qed.

  Lemma pmf_net_ok l : net_ok nodes (pmf_net eps E j y l).
  Proof.
    split; [apply nodes_NoDup|]. intros a Ha. unfold pmf_net in Ha. apply in_app_or in Ha.
    destruct Ha as [Ha|Ha].
    - unfold inner_arcs in Ha. apply in_map_iff in Ha. destruct Ha as (b & <- & Hb).
      apply filter_In in Hb. destruct Hb as [Hb1 Hb2]. apply andb_true_iff in Hb2.
      destruct Hb2 as [Hb2 Hb3]. apply mem_In in Hb2. apply mem_In in Hb3. simpl.
      split; [apply HEn; auto|auto].
    - apply in_flat_map in Ha. destruct Ha as (i & Hi & Ha). unfold pmf_arcs in Ha.
      destruct Ha as [<-|Ha].
      + simpl. split; [|auto]. destruct (Qltb (ycap (yat y i) l) 0) eqn:Ec; [apply Qltb_true in Ec|]; lra.
      + apply repeat_spec in Ha. subst a. simpl. split; [|auto].
        assert (S := sink_cost_nonneg E j i HEn).
        destruct (qmax_spec 0 (ycap (yat y i) l)) as [[A B]|[A B]]; rewrite B; lra.
  Qed.

  Record lmin (l : Q) (T : cset) : Prop := {
    lm_sorted : csorted T;
    lm_j : In j T;
    lm_win : WIN (mem T);
    lm_min : forall X, WIN X -> gval l (mem T) <= gval l X;
    lm_least : forall X, WIN X -> gval l X <= gval l (mem T) ->
               forall x, In x nodes -> In x T -> X x = true }.

  Lemma pmf_cut_min l : lmin l (snd (pmf_cut mc eps E j y l)) /\
    fst (pmf_cut mc eps E j y l) == gval l (mem (snd (pmf_cut mc eps E j y l))) + cst l.
  Proof.
    destruct Hmc as [Hm1 Hm2].
    destruct (Hm1 nodes _ (pmf_net_ok l)) as (I1 & I2 & I3).
    specialize (Hm2 nodes _ (pmf_net_ok l)).
    unfold pmf_cut. cbv zeta. fold nodes. cbn [fst snd].
    set (fX := mc nodes (pmf_net eps E j y l)) in *.
    set (T := cadd j (cset_of (filter (mem (snd fX)) nodes))).
    assert (TI : forall x, In x T <-> x = j \/ In x (snd fX)).
    { intro x. unfold T. rewrite cadd_In, cset_of_In, filter_In, mem_In. split; [tauto|].
      intros [H|H]; auto. }
    assert (TW : WIN (mem T)).
    { intros x Hx. apply mem_In in Hx. apply TI in Hx. destruct Hx; auto. }
    assert (C : cut (pmf_net eps E j y l) (mem T) == fst fX).
    { rewrite I2. assert (A := cut_val l (mem T) TW). assert (B : WIN (mem (snd fX))).
      { intros x Hx. apply mem_In in Hx. left. auto. }
      rewrite A, (cut_val l _ B). apply Qplus_comp; [|reflexivity]. unfold gval. apply Qplus_comp.
      - apply fj_ext. { intros. apply incut_ext; auto. }
        intros x Hx. destruct (mem (snd fX) x) eqn:Em.
        + apply mem_In in Em. apply mem_In. apply TI. auto.
        + apply mem_false in Em. apply mem_false. rewrite TI. tauto.
      - apply Qopp_comp. apply vs_ext; [|intros; reflexivity]. intros u Hu.
        destruct (mem (snd fX) u) eqn:Em.
        + apply mem_In in Em. apply mem_In. apply TI. auto.
        + apply mem_false in Em. apply mem_false. rewrite TI. intros [->|K]; [|auto]. exact (j_notin Hu). }
    assert (A := cut_val l (mem T) TW).
    split; [|lra]. constructor.
    - unfold T. apply cadd_sorted. apply cset_of_sorted.
    - apply TI. auto.
    - exact TW.
    - intros X HX. assert (B := cut_val l X HX). specialize (I3 X). lra.
    - intros X HX Hle x Hx HxT. assert (B := cut_val l X HX). assert (D := I3 X).
      apply (Hm2 X); [lra|]. apply TI in HxT. destruct HxT as [->|K]; auto.
      exfalso. exact (j_notin Hx).
  Qed.

  Lemma VS_anti l l' X T : l <= l' -> (forall x, T x = true -> X x = true) ->
    VS l' X - VS l' T <= VS l X - VS l T.
  Proof.
    intros Hl HT. unfold VS, vs. rewrite <- !qsum_minus. apply qsum_le. intros u _.
    destruct (T u) eqn:Et.
    - rewrite (HT u Et). lra.
    - destruct (X u); [|lra]. assert (K := yf_anti u l l' Hl). lra.
  Qed.

  Lemma win_union A B : WIN A -> WIN B -> WIN (iunion A B).
  Proof. intros HA HB x Hx. unfold iunion in Hx. apply orb_true_iff in Hx. destruct Hx; auto. Qed.
  Lemma win_inter A B : WIN A -> WIN (iinter A B).
  Proof. intros HA x Hx. unfold iinter in Hx. apply andb_true_iff in Hx. apply HA; tauto. Qed.

  Lemma FJ_sub A B : FJ (iunion A B) + FJ (iinter A B) <= FJ A + FJ B.
  Proof.
    apply fj_sub.
    - intros. apply incut_ext; auto.
    - intros. apply incut_sub. apply HEn.
  Qed.

  Lemma min_up l T : lmin l T -> UP (mem T) l.
  Proof.
    intros H X HX _. assert (K := lm_min l T H X HX). unfold gval in K.
    unfold VS, FJ in K. lra.
  Qed.

  (** Minimal minimisers shrink as lambda grows. *)
  Lemma min_shrink l l' T T' : lmin l T -> lmin l' T' -> l <= l' -> incl T' T.
  Proof.
    intros H H' Hl x Hx.
    assert (Hxw := lm_win l' T' H' x). assert (Hm : mem T' x = true) by (apply mem_In; auto).
    destruct (Hxw Hm) as [Hn|Hn]; [|subst; apply (lm_j l T H)].
    assert (K : iinter (mem T') (mem T) x = true).
    { apply (lm_least l' T' H'); auto.
      - apply win_inter. apply (lm_win l' T' H').
      - assert (A := lm_min l T H (iunion (mem T') (mem T))
                       (win_union _ _ (lm_win l' T' H') (lm_win l T H))).
        assert (B := FJ_sub (mem T') (mem T)).
        assert (C := VS_anti l l' (iunion (mem T') (mem T)) (mem T) Hl).
        assert (D : VS l' (iunion (mem T') (mem T)) + VS l' (iinter (mem T') (mem T)) ==
                    VS l' (mem T') + VS l' (mem T)) by apply vs_modular.
        assert (C' : VS l' (iunion (mem T') (mem T)) - VS l' (mem T) <=
                     VS l (iunion (mem T') (mem T)) - VS l (mem T)).
        { apply C. intros u Hu. unfold iunion. rewrite Hu. apply orb_true_r. }
        unfold gval in *. lra. }
    unfold iinter in K. apply andb_true_iff in K. apply mem_In. tauto.
  Qed.

  (** ** Grid of values *)
  Variable M : positive.
  Let M' := (M * factP j)%positive.
  Hypothesis HyM : forall u, (u < j)%nat -> pmult M (yat y u).
  Hypothesis HfM : forall X, mult M (f X).
  Hypothesis HiM : mult M init_lambda.
  Hypothesis HeM : 10 * eps * inject_Z (Zpos M') < 1.

  Lemma epsM : eps * inject_Z (Zpos M) < 1.
  Proof.
    unfold M' in HeM. rewrite Pos2Z.inj_mul, inject_Z_mult in HeM.
    assert (A : 1 <= inject_Z (Zpos (factP j))) by (change 1 with (inject_Z 1); rewrite <- Zle_Qle; lia).
    assert (B : 0 < inject_Z (Zpos M)) by reflexivity.
    assert (C : 0 < eps * inject_Z (Zpos M)) by (apply Qmult_lt_0_compat; auto).
    assert (D : eps * inject_Z (Zpos M) * 1 <= eps * inject_Z (Zpos M) * inject_Z (Zpos (factP j))).
    { rewrite !(Qmult_comm (eps * _)). apply Qmult_le_compat_r; lra. }
    assert (G : 10 * eps * (inject_Z (Zpos M) * inject_Z (Zpos (factP j))) ==
                10 * (eps * inject_Z (Zpos M) * inject_Z (Zpos (factP j)))) by ring.
    lra.
  Qed.

  Lemma epsM' : eps * inject_Z (Zpos M') < 1.
  Proof.
    assert (0 < eps * inject_Z (Zpos M')) by (apply Qmult_lt_0_compat; [auto|reflexivity]).
    assert (10 * eps * inject_Z (Zpos M') == 10 * (eps * inject_Z (Zpos M'))) by ring. lra.
  Qed.

  Lemma pmult_scale k p : pmult M p -> pmult (M * k) p.
  Proof.
    destruct p as [a [b| |]]; intros [H1 H2]; split; simpl in *; auto using mult_scale.
  Qed.

  Lemma gval_mult l X : mult M' l -> mult M' (gval l X).
  Proof.
    intro Hl. unfold gval. apply mult_minus.
    - apply mult_scale. apply HfM.
    - unfold VS, vs. apply mult_qsum. intros u Hu. destruct (X u); [|apply mult_0].
      apply ycap_mult; auto. apply pmult_scale. apply HyM. unfold nodes in Hu. apply in_seq in Hu. lia.
  Qed.

  Fixpoint cch (lo : Q) (T : cset) (rest : list (Q * cset)) (Te : cset) (hi : dbl) : Prop :=
    match rest with
    | [] => T = Te /\ dge hi lo
    | (l, T') :: r =>
        lo < l /\ csorted T' /\ In j T' /\ incl T' T /\ (length T' < length T)%nat /\
        CROSS (mem T) (mem T') l /\ UP (mem T') l /\ mult M' l /\ cch l T' r Te hi
    end.

  Lemma cch_lower rest lo lo' T Te hi : lo' <= lo -> cch lo T rest Te hi -> cch lo' T rest Te hi.
  Proof.
    destruct rest as [|[l T'] r]; simpl; intros H.
    - intros [H1 H2]. split; auto. destruct hi; simpl in *; auto. lra.
    - intros (H1 & H2). split; [lra|auto].
  Qed.

  Lemma cch_app r1 : forall lo T r2 m Te q hi,
    cch lo T r1 m (Fin q) -> cch q m r2 Te hi -> cch lo T (r1 ++ r2) Te hi.
  Proof.
    induction r1 as [|[l T'] r IH]; intros lo T r2 m Te q hi H1 H2; cbn [cch app] in *.
    - destruct H1 as [-> H1]. simpl in H1. eapply cch_lower; eauto.
    - destruct H1 as (A1 & A2 & A3 & A4 & A5 & A6 & A7 & A8 & A9).
      repeat split; auto. eapply IH; eauto.
  Qed.

  Lemma cut_value_FJ T : In j T -> get_cut_value E T == FJ (mem T).
  Proof.
    intro H. unfold FJ, fj, f. change (get_cut_value E T) with (incut E (mem T)).
    apply incut_ext. intro x. destruct (Nat.eqb x j) eqn:Ex; auto. apply Nat.eqb_eq in Ex.
    subst. simpl. apply mem_In; auto.
  Qed.

  Lemma filter_sub {A} (p q : A -> bool) (l : list A) :
    (forall x, In x l -> p x = q x) -> filter p l = filter q l.
  Proof.
    induction l as [|x l IH]; simpl; intro H; auto. rewrite (H x) by auto.
    rewrite IH; auto.
  Qed.

  (** The nodes of [Tl] outside [Tr]. *)
  Lemma diff_nodes Tl Tr : WIN (mem Tl) -> In j Tr ->
    filter (fun i => mem Tl i && negb (mem Tr i)) (seq 0 (n - 1)) =
    filter (fun i => mem Tl i && negb (mem Tr i)) nodes.
  Proof.
    intros HW HJ. unfold nodes. replace (n - 1)%nat with (j + (n - 1 - j))%nat by lia.
    rewrite seq_app, filter_app. 
    assert (K : filter (fun i => mem Tl i && negb (mem Tr i)) (seq (0 + j) (n - 1 - j)) = []).
    { destruct (filter (fun i => mem Tl i && negb (mem Tr i)) (seq (0 + j) (n - 1 - j))) as [|x l] eqn:Ef; auto.
      exfalso. assert (In x (x :: l)) by (left; auto). rewrite <- Ef in H. apply filter_In in H.
      destruct H as [H1 H2]. apply andb_true_iff in H2. destruct H2 as [H2 H3].
      apply HW in H2. apply negb_true_iff in H3. apply mem_false in H3. apply in_seq in H1.
      destruct H2 as [H2|H2]; [unfold nodes in H2; apply in_seq in H2; lia|]. subst. contradiction. }
    rewrite K, app_nil_r. auto.
  Qed.

  Lemma ysum_diff Tl Tr l : incl Tr Tl ->
    ysum (map (yat y) (filter (fun i => mem Tl i && negb (mem Tr i)) nodes)) l ==
    VS l (mem Tl) - VS l (mem Tr).
  Proof.
    intro Hi. unfold ysum. rewrite qsum_map, qsum_filter. unfold VS, vs. rewrite <- qsum_minus.
    apply qsum_ext. intros u _. change (ycap (yat y u) l) with (yf u l).
    destruct (mem Tr u) eqn:Er.
    - assert (mem Tl u = true) by (apply mem_In; apply Hi; apply mem_In; auto). rewrite H. simpl. lra.
    - destruct (mem Tl u); simpl; lra.
  Qed.

  Theorem slice_ok : forall fuel Tl Tr l1 l3,
    (length Tl <= length Tr + fuel)%nat -> incl Tr Tl -> Tr <> Tl ->
    lmin l1 Tl -> mult M' l1 ->
    match l3 with
    | Fin q => lmin q Tr /\ mult M' q /\ l1 < q
    | PInf => Tr = [j]
    | NaN => False
    end ->
    exists rest sets,
      pmf_slice fuel mc eps E n j y Tl Tr l1 l3 = Ok (map (fun p => Fin (fst p)) rest, sets) /\
      Permutation (sets ++ [Tr]) (map snd rest) /\ cch l1 Tl rest Tr l3.
  Proof.
    induction fuel as [|fuel IH]; intros Tl Tr l1 l3 Hfu Hi Hne H1 Hm1 H3.
    - exfalso. assert (csorted Tr).
      { destruct l3 as [q| |]; [apply H3|subst; repeat constructor|contradiction]. }
      assert (L := csub_length Tr Tl H (lm_sorted _ _ H1) Hi Hne). lia.
    - assert (HTr : csorted Tr /\ In j Tr /\ WIN (mem Tr)).
      { destruct l3 as [q| |]; [|subst|contradiction].
        - destruct H3 as [H3 _]. split; [|split]; apply H3.
        - split; [repeat constructor|]. split; [left; auto|]. intros x Hx. apply mem_In in Hx.
          destruct Hx as [<-|[]]. right; auto. }
      destruct HTr as (Tr1 & Tr2 & Tr3).
      cbn [pmf_slice]. rewrite (diff_nodes Tl Tr (lm_win _ _ H1) Tr2).
      set (ps := map (yat y) (filter (fun i => mem Tl i && negb (mem Tr i)) nodes)).
      set (target := get_cut_value E Tl - get_cut_value E Tr).
      assert (Et : target == FJ (mem Tl) - FJ (mem Tr)).
      { unfold target. rewrite (cut_value_FJ Tl (lm_j _ _ H1)), (cut_value_FJ Tr Tr2). reflexivity. }
      assert (Ys : forall l, ysum ps l == VS l (mem Tl) - VS l (mem Tr)) by (intro; apply ysum_diff; auto).
      assert (S1 : target < ysum ps l1).
      { rewrite Ys, Et. destruct (Qlt_le_dec (gval l1 (mem Tl)) (gval l1 (mem Tr))) as [K|K].
        - unfold gval in K. lra.
        - exfalso. apply Hne. apply csorted_ext; auto; [apply H1|]. intro x. split; [apply Hi|].
          intro Hx. assert (W := lm_win _ _ H1 x). destruct (W (proj2 (mem_In _ _) Hx)) as [W'|W']; [|subst; auto].
          apply mem_In. exact (lm_least _ _ H1 (mem Tr) Tr3 K x W' Hx). }
      assert (Pne : ps <> []).
      { intro C. rewrite C in Ys. assert (Z := Ys l1). rewrite C in S1. unfold ysum in *. simpl in *.
        assert (K : gval l1 (mem Tl) <= gval l1 (mem Tl)) by lra.
        (* Tl and Tr agree on the nodes, so they are equal *)
        apply Hne. apply csorted_ext; auto; [apply H1|]. intro x. split; [apply Hi|]. intro Hx.
        destruct (mem Tr x) eqn:Er; [apply mem_In; auto|]. exfalso.
        assert (W := lm_win _ _ H1 x). assert (Hmx : mem Tl x = true) by (apply mem_In; auto).
        destruct (W Hmx) as [W1|W1]; [|subst; apply mem_false in Er; auto].
        assert (In (yat y x) ps).
        { unfold ps. apply in_map. apply filter_In. split; auto. rewrite Hmx, Er. auto. }
        rewrite C in H. destruct H. }
      assert (Pm : Forall (pmult M) ps).
      { apply Forall_forall. intros p Hp. unfold ps in Hp. apply in_map_iff in Hp.
        destruct Hp as (u & <- & Hu). apply filter_In in Hu. destruct Hu as [Hu _]. apply HyM.
        unfold nodes in Hu. apply in_seq in Hu. lia. }
      assert (Tm : mult M target) by (unfold target; apply mult_minus; apply HfM).
      assert (Pl : (length ps <= j)%nat).
      { unfold ps. rewrite map_length. eapply Nat.le_trans; [apply filter_len|].
        unfold nodes. rewrite seq_length. auto. }
      destruct (compute_lambda_exact M j eps ps target l1 ltac:(lra) epsM Pm Tm Pl S1 Pne)
        as (l & Rl & Rs & Rm).
      rewrite Rl. cbn [bind]. set (l2 := Qred l).
      assert (El : l2 == l) by apply Qred_correct.
      assert (R2 : ysum ps l2 == target) by (rewrite (ysum_wd ps l2 l El); auto).
      assert (M2 : mult M' l2) by (eapply mult_wd; [symmetry; exact El|exact Rm]).
      assert (L12 : l1 < l2) by (apply (ysum_right ps target); auto).
      assert (Cr : CROSS (mem Tl) (mem Tr) l2).
      { assert (Z := Ys l2). unfold CROSS, cross. unfold VS, FJ in *. lra. }
      assert (D12 : tol_different eps l2 l1 = true).
      { destruct (tol_different eps l2 l1) eqn:Ed; auto. apply tol_same in Ed. destruct Ed as [Ed _].
        apply (mult_gap M' eps) in Ed; auto; [lra|apply epsM']. }
      rewrite D12. cbn [negb orb].
      (* position relative to lambda_3 *)
      assert (L23 : match l3 with Fin q => l2 <= q | _ => True end).
      { destruct l3 as [q| |]; auto. destruct H3 as (H3 & _ & _).
        apply (ysum_left ps target l2 l1 q); auto. rewrite Ys.
        assert (K := lm_min _ _ H3 (mem Tl) (lm_win _ _ H1)). unfold gval in K. lra. }
      assert (Hleaf : UP (mem Tr) l2 -> csorted Tr ->
        cch l1 Tl [(l2, Tr)] Tr l3).
      { intros HU _. cbn [cch]. repeat split; auto.
        - apply csub_length; auto. apply H1.
        - destruct l3; simpl; auto. }
      destruct (dbl_different eps l2 l3) eqn:D23.
      2:{ (* lambda_2 = lambda_3 *)
        cbn [negb]. exists [(l2, Tr)], []. split; [reflexivity|]. split; [reflexivity|].
        apply Hleaf; auto. destruct l3 as [q| |]; [|discriminate D23|contradiction].
        simpl in D23. apply tol_same in D23. destruct D23 as [_ D23]. destruct H3 as (H3 & H3m & H3l).
        apply (mult_gap M' eps) in D23; auto; [|apply epsM'].
        assert (K := min_up q Tr H3). intros X HX HTX. specialize (K X HX HTX).
        assert (Eq : l2 == q) by lra.
        assert (V : forall Z, vs nodes (fun u => yf u l2) Z == vs nodes (fun u => yf u q) Z).
        { intro Z. apply vs_ext; auto. intros. apply ycap_wd. auto. }
        rewrite !V. exact K. }
      cbn [negb orb].
      assert (B1 : Qltb l2 l1 = false) by (apply Qltb_false; lra). rewrite B1.
      assert (B3 : dltb l3 (Fin l2) = false).
      { destruct l3 as [q| |]; simpl; auto. apply Qltb_false. auto. }
      rewrite B3. cbn [orb].
      destruct (pmf_cut_min l2) as [PM1 PM2].
      set (fT := pmf_cut mc eps E j y l2) in *.
      destruct (negb (ceqb (snd fT) Tr) && negb (ceqb (snd fT) Tl) &&
                Qltb (fst fT) (cut (pmf_net eps E j y l2) (mem Tr) - 10 * eps)) eqn:Eb.
      + (* recursion *)
        apply andb_true_iff in Eb. destruct Eb as [Eb _]. apply andb_true_iff in Eb.
        destruct Eb as [N1 N2]. apply negb_true_iff in N1. apply negb_true_iff in N2.
        apply ceqb_false in N1. apply ceqb_false in N2.
        set (T' := snd fT) in *.
        assert (I1 : incl T' Tl) by (apply (min_shrink l1 l2 Tl T' H1 PM1); lra).
        assert (I2 : incl Tr T').
        { destruct l3 as [q| |]; [|subst|contradiction].
          - apply (min_shrink l2 q T' Tr PM1 (proj1 H3) L23).
          - intros x [<-|[]]. apply PM1. }
        assert (G1 := csub_length T' Tl (lm_sorted _ _ PM1) (lm_sorted _ _ H1) I1 N2).
        assert (G2 := csub_length Tr T' Tr1 (lm_sorted _ _ PM1) I2 (not_eq_sym N1)).
        destruct (IH Tl T' l1 (Fin l2)) as (r1 & s1 & A1 & A2 & A3); auto; try lia.
        destruct (IH T' Tr l2 l3) as (r2 & s2 & C1 & C2 & C3); auto; try lia.
        { destruct l3 as [q| |]; auto. destruct H3 as (H3 & H3m & H3l). split; auto. split; auto.
          simpl in D23. destruct (Qlt_le_dec l2 q) as [|C]; auto. exfalso.
          assert (tol_different eps l2 q = false) by (apply tol_same; lra). congruence. }
        rewrite A1. cbn [bind]. rewrite C1. cbn [bind fst snd].
        exists (r1 ++ r2), (T' :: s1 ++ s2). split; [rewrite map_app; reflexivity|]. split.
        * rewrite map_app. rewrite <- A2, <- C2. cbn [app].
          rewrite <- !app_assoc. cbn [app]. apply Permutation_middle.
        * eapply cch_app; eauto.
      + (* leaf *)
        exists [(l2, Tr)], []. split; [reflexivity|]. split; [reflexivity|]. apply Hleaf; auto.
        assert (GM : gval l2 (mem Tr) <= gval l2 (mem (snd fT))).
        { assert (Zeq : gval l2 (mem Tl) == gval l2 (mem Tr)).
          { unfold gval. assert (Z := Ys l2). lra. }
          apply andb_false_iff in Eb. destruct Eb as [Eb|Eb].
          - apply andb_false_iff in Eb. destruct Eb as [Eb|Eb]; apply negb_false_iff in Eb;
              apply ceqb_true in Eb; rewrite Eb; lra.
          - apply Qltb_false in Eb. rewrite (cut_val l2 _ Tr3) in Eb. rewrite PM2 in Eb.
            apply (mult_gap M' (10 * eps)); auto; [apply gval_mult; auto|apply gval_mult; auto|lra]. }
        intros X HX _. assert (K := lm_min _ _ PM1 X HX). unfold gval in *.
        unfold VS, FJ in *. lra.
  Qed.
End Slice.
