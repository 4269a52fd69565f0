(** * FloatPar: one stage of the parametric Dilworth truncation with errors.

    The counterpart of ParThy in which the sets of the chain are minimisers up to [sg], the crossing
    values are met up to [sg], and the vectors carry errors. *)
From Verif Require Import Base Spec PartThy SubThy MSets SetsThy MDT MGraph MaxFlow MDil CutThy DilThy ParThy FloatThy.

Section FPar.
  Variable f : nset -> Q.
  Hypothesis f_ext : forall A B, (forall x, A x = B x) -> f A == f B.
  Hypothesis f_sub : forall A B, (exists x, A x = true /\ B x = true) ->
    f (iunion A B) + f (iinter A B) <= f A + f B.
  Variable nodes : list nat.
  Hypothesis Hnd : NoDup nodes.
  Variable j : nat.
  Hypothesis Hj : ~ In j nodes.
  Variable y : nat -> Q -> Q.
  Hypothesis y_anti : forall u l l', l <= l' -> y u l' <= y u l.
  Variable sg : Q.
  Hypothesis Hsg : 0 <= sg.

  Let FJ := fj f j.
  Let VS := vs nodes.
  Let WIN := win nodes j.

  Definition aup (T : nset) (l : Q) : Prop :=
    forall X, WIN X -> (forall x, T x = true -> X x = true) ->
      VS (fun u => y u l) X - VS (fun u => y u l) T <= FJ X - FJ T + sg.
  Definition across (T T' : nset) (l : Q) : Prop :=
    near sg (FJ T - FJ T') (VS (fun u => y u l) T - VS (fun u => y u l) T').

  Fixpoint apchain (T : nset) (rest : list (Q * nset)) : Prop :=
    match rest with
    | [] => forall x, T x = true -> x = j
    | (l, T') :: r =>
        (forall x, T' x = true -> T x = true) /\ across T T' l /\ aup T' l /\
        Forall (fun p => l <= fst p) r /\ apchain T' r
    end.

  Fixpoint kk (rest : list (Q * nset)) : Q :=
    match rest with [] => 0 | _ :: r => kk r + sg end.

  Lemma kk_nonneg rest : 0 <= kk rest.
  Proof using Hsg. induction rest as [|p r IH]; cbn [kk]; lra. Qed.

  Lemma kk_len rest : kk rest == qn (length rest) * sg.
  Proof.
    induction rest as [|p r IH]; cbn [kk length].
    - rewrite qn_0. ring.
    - rewrite IH, qn_S. ring.
  Qed.

  Lemma alev_out T rest u : apchain T rest -> T u = false -> lev T rest u = None.
  Proof.
    destruct rest as [|[l T'] r]; simpl; auto. intros (H & _) Hu.
    destruct (T' u) eqn:E; [rewrite (H u E) in Hu; discriminate|]. rewrite Hu. auto.
  Qed.

  Lemma alev_in T rest : apchain T rest -> forall u, u <> j -> T u = true ->
    exists l, lev T rest u = Some l /\ In l (map fst rest).
  Proof.
    revert T. induction rest as [|[l T'] r IH]; simpl; intros T H u Hu HT.
    - exfalso. auto.
    - destruct H as (H1 & _ & _ & _ & H5). destruct (T' u) eqn:E.
      + destruct (IH T' H5 u Hu E) as (l' & L1 & L2). eauto.
      + rewrite HT. eauto.
  Qed.

  Lemma aw_feas rest : forall T, WIN T -> apchain T rest ->
    (forall S, WIN S -> (forall x, S x = true -> T x = true) ->
       FJ (fun _ => false) + VS (wval y T rest) S <= FJ S + kk rest) /\
    near (kk rest) (FJ (fun _ => false) + VS (wval y T rest) T) (FJ T).
  Proof.
    induction rest as [|[l T'] r IH]; intros T Hw H.
    - simpl in H. assert (G : forall S, (forall x, S x = true -> x = j) ->
        FJ (fun _ => false) + VS (wval y T []) S == FJ S).
      { intros S HS. assert (V : VS (wval y T []) S == 0).
        { apply qsum_zero. intros u Hu. destruct (S u) eqn:E; [|reflexivity].
          exfalso. apply HS in E. subst. contradiction. }
        rewrite V. unfold FJ. rewrite (fj_ext f f_ext j (fun _ => false) S); [lra|].
        intros x Hx. destruct (S x) eqn:E; [exfalso; auto|auto]. }
      cbn [kk]. split.
      + intros S HS HST. rewrite G; [lra|auto].
      + assert (K := G T H). split; lra.
    - destruct H as (H1 & H2 & H3 & H4 & H5).
      assert (Hw' : WIN T') by (intros x Hx; apply Hw; auto).
      destruct (IH T' Hw' H5) as [IH1 IH2].
      assert (W1 : forall u, In u nodes -> T' u = true -> wval y T ((l, T') :: r) u = wval y T' r u).
      { intros u _ Hu. unfold wval. simpl. rewrite Hu. auto. }
      assert (W2 : forall u, T u = true -> T' u = false -> wval y T ((l, T') :: r) u = y u l).
      { intros u Hu Hu'. unfold wval. simpl. rewrite Hu', Hu. auto. }
      cbn [kk]. split.
      + intros S HS HST.
        assert (A := fj_sub f f_ext f_sub j S T'). fold FJ in A.
        assert (B : VS (fun u => y u l) (iunion S T') - VS (fun u => y u l) T' <= FJ (iunion S T') - FJ T' + sg).
        { apply H3.
          - intros x Hx. unfold iunion in Hx. apply orb_true_iff in Hx. destruct Hx; auto.
          - intros x Hx. unfold iunion. rewrite Hx. apply orb_true_r. }
        assert (C : FJ (fun _ => false) + VS (wval y T' r) (iinter S T') <= FJ (iinter S T') + kk r).
        { apply IH1.
          - intros x Hx. unfold iinter in Hx. apply andb_true_iff in Hx. apply HS; tauto.
          - intros x Hx. unfold iinter in Hx. apply andb_true_iff in Hx. tauto. }
        assert (D := vs_modular nodes (fun u => y u l) S T'). fold VS in D.
        unfold VS at 1. rewrite (vs_split nodes (wval y T ((l, T') :: r)) S T').
        assert (F := vs_split nodes (fun u => y u l) S T'). fold VS in F.
        rewrite (vs_ext nodes (wval y T ((l, T') :: r)) (wval y T' r) (iinter S T') (iinter S T')).
        2:{ auto. }
        2:{ intros u Hu Hi. rewrite W1; [reflexivity|auto|]. unfold iinter in Hi. apply andb_true_iff in Hi. tauto. }
        rewrite (vs_ext nodes (wval y T ((l, T') :: r)) (fun u => y u l)
                  (fun x => S x && negb (T' x)) (fun x => S x && negb (T' x))).
        2:{ auto. }
        2:{ intros u Hu Hi. apply andb_true_iff in Hi. destruct Hi as [Hi1 Hi2]. apply negb_true_iff in Hi2.
            rewrite W2; [reflexivity|auto|auto]. }
        fold VS. lra.
      + unfold across in H2.
        assert (V := vs_split nodes (wval y T ((l, T') :: r)) T T').
        assert (F := vs_split nodes (fun u => y u l) T T').
        assert (I : forall w, vs nodes w (iinter T T') == vs nodes w T').
        { intro w. apply vs_ext; [|intros; reflexivity]. intros u Hu. unfold iinter.
          destruct (T' u) eqn:E; [rewrite (H1 u E); auto|apply andb_false_r]. }
        rewrite (I (wval y T ((l, T') :: r))) in V. rewrite (I (fun u => y u l)) in F.
        rewrite (vs_ext nodes (wval y T ((l, T') :: r)) (wval y T' r) T' T') in V.
        2:{ auto. }
        2:{ intros u Hu Hi. rewrite W1; [reflexivity|auto|auto]. }
        rewrite (vs_ext nodes (wval y T ((l, T') :: r)) (fun u => y u l)
                  (fun x => T x && negb (T' x)) (fun x => T x && negb (T' x))) in V.
        2:{ auto. }
        2:{ intros u Hu Hi. apply andb_true_iff in Hi. destruct Hi as [Hi1 Hi2]. apply negb_true_iff in Hi2.
            rewrite W2; [reflexivity|auto|auto]. }
        fold VS in V, F. destruct H2, IH2. split; lra.
  Qed.

  Lemma aup_mono T l l' : aup T l -> l <= l' -> aup T l'.
  Proof.
    intros H Hl X HX HTX. specialize (H X HX HTX).
    assert (I : forall w, VS w X - VS w T == VS w (fun x => X x && negb (T x))).
    { intro w. unfold VS. rewrite (vs_split nodes w X T).
      rewrite (vs_ext nodes w w (iinter X T) T); [lra| |intros; reflexivity].
      intros u Hu. unfold iinter. destruct (T u) eqn:E; [rewrite (HTX u E); auto|apply andb_false_r]. }
    rewrite I in *.
    assert (VS (fun u => y u l') (fun x => X x && negb (T x)) <=
            VS (fun u => y u l) (fun x => X x && negb (T x))); [|lra].
    apply qsum_le. intros u _. destruct (X u && negb (T u)); [auto|lra].
  Qed.

  Let ZV := zval y.
  Let WV := wval y.

  Theorem az_ok rest : forall T l0 lam S, WIN T -> apchain T rest -> aup T l0 -> l0 <= lam ->
    act lam (bands T rest) S ->
    (forall X, WIN X -> FJ (fun _ => false) + VS (ZV T rest lam) X <= FJ X + (kk rest + sg)) /\
    near (kk rest) (FJ (fun _ => false) + VS (ZV T rest lam) S) (FJ S) /\
    (forall u, In u nodes -> S u = false -> ZV T rest lam u == y u lam) /\
    WIN S.
  Proof.
    induction rest as [|[l T'] r IH]; intros T l0 lam S Hw H Hup Hl HA; simpl in HA.
    - inversion HA as [d x r' Hd|q x r' x' Hq Ha]; subst.
      assert (Z : forall u, ZV S [] lam u = y u lam) by reflexivity.
      destruct (aw_feas [] S Hw H) as [W1 W2].
      assert (HS : VS (WV S []) S == VS (ZV S [] lam) S).
      { apply vs_ext; auto. intros u Hu Hs. simpl in H. apply H in Hs. subst. contradiction. }
      cbn [kk] in *.
      split; [|split; [|split; [intros; rewrite Z; reflexivity|auto]]].
      2:{ unfold WV in HS. destruct W2. split; lra. }
      intros X HX.
      assert (U := aup_mono S l0 lam Hup Hl). specialize (U (iunion X S)).
      assert (A : FJ (iunion X S) == FJ X).
      { apply fj_ext; auto. intros x Hx. unfold iunion. destruct (S x) eqn:E; [|apply orb_false_r].
        simpl in H. apply H in E. contradiction. }
      assert (B : FJ S == FJ (fun _ => false)).
      { apply fj_ext; auto. intros x Hx. destruct (S x) eqn:E; [|auto]. simpl in H. apply H in E. contradiction. }
      assert (C : VS (fun u => y u lam) (iunion X S) == VS (ZV S [] lam) X).
      { apply vs_ext; [|intros; reflexivity]. intros u Hu. unfold iunion.
        destruct (S u) eqn:E; [|apply orb_false_r]. simpl in H. apply H in E. subst. contradiction. }
      assert (D : VS (fun u => y u lam) S == 0).
      { apply qsum_zero. intros u Hu. destruct (S u) eqn:E; [|reflexivity].
        simpl in H. apply H in E. subst. contradiction. }
      rewrite A, B, C, D in U.
      assert (VS (ZV S [] lam) X - 0 <= FJ X - FJ (fun _ => false) + sg); [|lra]. apply U.
      + intros x Hx. unfold iunion in Hx. apply orb_true_iff in Hx. destruct Hx; auto.
      + intros x Hx. unfold iunion. rewrite Hx. apply orb_true_r.
    - assert (H0 := H). destruct H as (H1 & H2 & H3 & H4 & H5).
      inversion HA as [d x r' Hd|q x r' x' Hq Ha]; subst.
      + (* S is the first set *)
        simpl in Hd. destruct (aw_feas _ S Hw H0) as [W1 W2].
        assert (ZW : forall u, In u nodes -> S u = true -> ZV S ((l, T') :: r) lam u == WV S ((l, T') :: r) u).
        { intros u Hu Hs. unfold ZV, WV, zval, wval.
          destruct (alev_in S ((l, T') :: r) H0 u (node_neq nodes j Hj u Hu) Hs) as (l' & E1 & E2). rewrite E1.
          apply (y_wd y y_anti). apply qmx_r. simpl in E2. destruct E2 as [<-|E2]; [lra|].
          apply in_map_iff in E2. destruct E2 as (p & <- & Hp). rewrite Forall_forall in H4.
          specialize (H4 p Hp). lra. }
        assert (ZY : forall u, S u = false -> ZV S ((l, T') :: r) lam u = y u lam).
        { intros u Hs. unfold ZV, zval. rewrite (alev_out S _ u H0 Hs). auto. }
        split; [|split; [|split; [intros; rewrite ZY; auto; reflexivity|auto]]].
        2:{ assert (V : VS (WV S ((l, T') :: r)) S == VS (ZV S ((l, T') :: r) lam) S).
            { apply vs_ext; auto. intros. symmetry. auto. }
            unfold WV in V. destruct W2. split; lra. }
        intros X HX.
        assert (A := fj_sub f f_ext f_sub j X S). fold FJ in A.
        assert (U' : VS (fun u => y u lam) (iunion X S) - VS (fun u => y u lam) S <= FJ (iunion X S) - FJ S + sg).
        { apply (aup_mono S l0 lam Hup Hl (iunion X S)).
          - intros x Hx. unfold iunion in Hx. apply orb_true_iff in Hx. destruct Hx; auto.
          - intros x Hx. unfold iunion. rewrite Hx. apply orb_true_r. }
        assert (C : FJ (fun _ => false) + VS (WV S ((l, T') :: r)) (iinter X S) <= FJ (iinter X S) + kk ((l, T') :: r)).
        { apply W1.
          - intros x Hx. unfold iinter in Hx. apply andb_true_iff in Hx. apply HX; tauto.
          - intros x Hx. unfold iinter in Hx. apply andb_true_iff in Hx. tauto. }
        assert (D := vs_modular nodes (fun u => y u lam) X S).
        assert (F := vs_split nodes (fun u => y u lam) X S).
        assert (V := vs_split nodes (ZV S ((l, T') :: r) lam) X S).
        rewrite (vs_ext nodes (ZV S ((l, T') :: r) lam) (WV S ((l, T') :: r)) (iinter X S) (iinter X S)) in V.
        2:{ auto. }
        2:{ intros u Hu Hi. apply ZW; auto. unfold iinter in Hi. apply andb_true_iff in Hi. tauto. }
        rewrite (vs_ext nodes (ZV S ((l, T') :: r) lam) (fun u => y u lam)
                  (fun x => X x && negb (S x)) (fun x => X x && negb (S x))) in V.
        2:{ auto. }
        2:{ intros u Hu Hi. apply andb_true_iff in Hi. destruct Hi as [Hi1 Hi2]. apply negb_true_iff in Hi2.
            rewrite ZY; [reflexivity|auto]. }
        fold VS in D, F, V. lra.
      + (* S is a later set *)
        assert (Hw' : WIN T') by (intros x' Hx'; apply Hw; auto).
        destruct (IH T' l lam S Hw' H5 H3 Hq Ha) as (I1 & I2 & I3 & I4).
        assert (ZZ : forall u, ZV T ((l, T') :: r) lam u == ZV T' r lam u).
        { intro u. unfold ZV, zval. simpl. destruct (T' u) eqn:E; [reflexivity|].
          rewrite (alev_out T' r u H5 E). destruct (T u); [|reflexivity]. apply (y_wd y y_anti).
          apply qmx_l. auto. }
        assert (VV : forall X, VS (ZV T ((l, T') :: r) lam) X == VS (ZV T' r lam) X).
        { intro X. apply vs_ext; auto. }
        cbn [kk]. split; [|split; [|split; [|auto]]].
        * intros X HX. rewrite VV. specialize (I1 X HX). lra.
        * assert (V := VV S). destruct I2. split; lra.
        * intros u Hu Hs. rewrite ZZ. auto.
  Qed.

  (** Feasible up to [phi], and total deficiency of a partition. *)
  Definition afeas (phi lam : Q) (xs : list (nat * Q)) : Prop :=
    forall X, (exists x, X x = true) -> within X (map fst xs) -> xsum xs X <= f X - lam + phi.
  Definition adef (tau lam : Q) (xs : list (nat * Q)) (P : list (list nat)) : Prop :=
    qsum (fun B => f (mem B) - lam) P <= qsum snd xs + tau.

  Lemma vs_near e (w w' : nat -> Q) X : 0 <= e -> (forall u, In u nodes -> near e (w u) (w' u)) ->
    near (qn (length nodes) * e) (VS w X) (VS w' X).
  Proof.
    intros He H. unfold VS, vs. clear -He H. induction nodes as [|u l IH]; cbn [qsum length].
    - rewrite qn_0. split; lra.
    - destruct IH as [A B]; [intros; apply H; right; auto|]. assert (K := H u (or_introl eq_refl)). destruct K.
      rewrite qn_S. destruct (X u); split; lra.
  Qed.

  (** One stage: the vectors extended by [j]. *)
  Theorem astage_ok T rest l0 lam S (z : nat -> Q) (p : list (list nat)) (t : list nat) phi phi' tau tau' ze zj nphi :
    0 <= phi -> 0 <= ze -> 0 <= zj ->
    phi + qn (length nodes) * ze <= phi' -> kk rest + sg + qn (length nodes) * ze + zj <= phi' ->
    qn (length p) * phi <= nphi ->
    tau + nphi + kk rest + qn (length nodes) * ze + zj <= tau' ->
    WIN T -> apchain T rest -> aup T l0 -> l0 <= lam -> act lam (bands T rest) S ->
    afeas phi lam (vec nodes (fun u => y u lam)) ->
    is_partition nodes p -> adef tau lam (vec nodes (fun u => y u lam)) p ->
    (forall x, mem t x = S x) -> In j t -> csorted t ->
    (forall u, In u nodes -> near ze (z u) (ZV T rest lam u)) -> near zj (z j) (FJ (fun _ => false) - lam) ->
    afeas phi' lam (vec (nodes ++ [j]) z) /\ adef tau' lam (vec (nodes ++ [j]) z) (pexpand p t).
  Proof.
    intros P0 Z0 J0 C1 C2 C3 C4 HT Hc Hup Hl HA HF HP HB Ht Hjt Hts Hz Hzj.
    destruct (az_ok rest T l0 lam S HT Hc Hup Hl HA) as (Z1 & Z2 & Z3 & Z4).
    set (nze := qn (length nodes) * ze) in *.
    assert (N0 : 0 <= nze) by (apply Qmult_le_0_compat; [apply qn_nonneg|auto]).
    assert (K0 := kk_nonneg rest).
    assert (Vz : forall X, near nze (VS z X) (VS (ZV T rest lam) X)) by (intro X; apply vs_near; auto).
    assert (Vx : forall X, xsum (vec (nodes ++ [j]) z) X == VS z X + if X j then z j else 0).
    { intro X. rewrite vec_xsum, qsum_app. cbn [qsum]. unfold VS, vs. lra. }
    assert (Vy : forall X, xsum (vec nodes (fun u => y u lam)) X == VS (fun u => y u lam) X)
      by (intro X; apply vec_xsum).
    split.
    { intros X (x & Hx) HX. rewrite vec_fst in HX. rewrite Vx.
      assert (WX : WIN X).
      { intros u Hu. apply HX in Hu. apply in_app_or in Hu. destruct Hu as [Hu|[Hu|[]]]; auto. }
      assert (VX := Vz X). destruct VX as [VX _].
      destruct (X j) eqn:Xj.
      - assert (E : FJ X == f X).
        { apply f_ext. intro u. destruct (Nat.eqb u j) eqn:E; auto. apply Nat.eqb_eq in E. subst. auto. }
        specialize (Z1 X WX). destruct Hzj. lra.
      - assert (K : xsum (vec nodes (fun u => y u lam)) X <= f X - lam + phi).
        { apply HF; [eauto|]. rewrite vec_fst. intros u Hu. destruct (WX u Hu) as [|C]; auto.
          subst. congruence. }
        rewrite Vy in K.
        assert (VS (ZV T rest lam) X <= VS (fun u => y u lam) X); [|lra].
        apply qsum_le. intros u _. destruct (X u); [apply zval_le; auto|lra]. }
    assert (HPne : forall B, In B p -> B <> []) by (intros B HB' C; subst; destruct HP as [_ HP]; auto).
    assert (Htne : t <> []) by (intro C; subst; destruct Hjt).
    unfold adef. rewrite (qsum_perm _ _ _ (pexpand_perm p t HPne Htne)). cbn [qsum].
    set (L := filter (meets t) p).
    set (U := fold_left (fun acc B => cunion B acc) L t).
    assert (HU : forall x, mem U x = iunion (mem t) (mem (concat L)) x).
    { intro x. unfold iunion. rewrite <- mem_app. apply mem_ext. intro w.
      unfold U. rewrite fold_cunion_In, in_app_iff. tauto. }
    assert (HN : NoDup (concat p)).
    { destruct HP as [HP _]. eapply Permutation_NoDup; [symmetry; exact HP|auto]. }
    assert (HNL : NoDup (concat L)).
    { assert (PP := perm_concat _ _ (perm_filter_split (meets t) p)).
      apply (Permutation_NoDup PP) in HN. rewrite concat_app in HN. apply NoDup_app_inv in HN. tauto. }
    assert (HLin : forall B x, In B L -> In x B -> In x nodes).
    { intros B x HBL Hx. destruct HP as [HP _]. eapply Permutation_in; [exact HP|].
      apply in_concat. exists B. split; auto. apply filter_In in HBL. tauto. }
    assert (HLm : forall B, In B L -> exists x, mem t x = true /\ In x B).
    { intros B HBL. apply filter_In in HBL. destruct HBL as [_ HBL]. apply meets_true in HBL.
      destruct HBL as (x & H1 & H2). exists x. split; auto. apply mem_In; auto. }
    assert (UC := uncross f f_ext f_sub (mem t) L HNL HLm).
    assert (Tfj : f (mem t) == FJ S).
    { apply f_ext. intro x. rewrite Ht. destruct (Nat.eqb x j) eqn:E; auto.
      apply Nat.eqb_eq in E. subst. rewrite <- Ht. apply mem_In; auto. }
    assert (FU : f (mem U) == f (iunion (mem t) (mem (concat L)))) by (apply f_ext; auto).
    (* the intersections are feasible *)
    assert (LB : VS (fun u => y u lam) S - nphi <= qsum (fun B => f (iinter (mem t) (mem B)) - lam) L).
    { assert (K : qsum (fun B => VS (fun u => y u lam) (iinter (mem t) (mem B)) - phi) L <=
                  qsum (fun B => f (iinter (mem t) (mem B)) - lam) L).
      { apply qsum_le. intros B HBL. destruct (HLm B HBL) as (x & X1 & X2).
        assert (FB : xsum (vec nodes (fun u => y u lam)) (iinter (mem t) (mem B)) <=
                     f (iinter (mem t) (mem B)) - lam + phi).
        { apply HF.
          - exists x. unfold iinter. rewrite X1. apply mem_In; auto.
          - rewrite vec_fst. intros u Hu. unfold iinter in Hu. apply andb_true_iff in Hu.
            destruct Hu as [_ Hu]. apply mem_In in Hu. eauto. }
        rewrite Vy in FB. lra. }
      rewrite qsum_minus, qsum_const in K.
      assert (KL : phi * qn (length L) <= nphi).
      { eapply Qle_trans; [|exact C3]. rewrite Qmult_comm. apply Qmult_le_compat_r; auto.
        apply qn_le. unfold L. clear. induction p as [|B p IH]; simpl; [lia|]. destruct (meets t B); simpl; lia. }
      assert (KS : qsum (fun B => VS (fun u => y u lam) (iinter (mem t) (mem B))) L == VS (fun u => y u lam) S).
      { unfold VS, vs. rewrite qsum_swap. apply qsum_ext. intros u Hu. unfold iinter.
        rewrite <- Ht. destruct (mem t u) eqn:Et.
        - cbn [andb]. rewrite nd_ind_sum by auto.
          assert (mem (concat L) u = true); [|rewrite H; reflexivity].
          apply mem_In. destruct HP as [HP _]. apply (Permutation_in u (Permutation_sym HP)) in Hu.
          apply in_concat in Hu. destruct Hu as (B & HBp & HuB). apply in_concat. exists B. split; auto.
          apply filter_In. split; auto. apply meets_true. exists u. apply mem_In in Et. auto.
        - apply qsum_zero. intros; reflexivity. }
      lra. }
    rewrite qsum_minus in LB.
    assert (SP : qsum (fun B => f (mem B) - lam) p ==
                 qsum (fun B => f (mem B) - lam) L + qsum (fun B => f (mem B) - lam) (filter (fun B => negb (meets t B)) p)).
    { rewrite <- qsum_app. apply qsum_perm. apply perm_filter_split. }
    assert (SL : qsum (fun B => f (mem B) - lam) L == qsum (fun B => f (mem B)) L - qsum (fun _ => lam) L)
      by apply qsum_minus.
    unfold adef in HB.
    assert (YS : qsum snd (vec nodes (fun u => y u lam)) ==
                 VS (fun u => y u lam) S + VS (fun u => y u lam) (fun x => negb (S x))).
    { unfold vec, VS, vs. rewrite qsum_map, <- qsum_plus. apply qsum_ext. intros u _. simpl.
      destruct (S u); simpl; lra. }
    assert (ZS : qsum snd (vec (nodes ++ [j]) z) == VS z (fun _ => true) + z j).
    { unfold vec, VS, vs. rewrite qsum_map, qsum_app. cbn [qsum snd]. lra. }
    assert (ZT : VS (ZV T rest lam) (fun _ => true) ==
                 VS (ZV T rest lam) S + VS (fun u => y u lam) (fun x => negb (S x))).
    { unfold VS, vs. rewrite <- qsum_plus. apply qsum_ext. intros u Hu.
      destruct (S u) eqn:ES; simpl; [lra|]. rewrite Z3; auto. lra. }
    assert (VT := Vz (fun _ => true)). destruct VT as [_ VT]. destruct Z2 as [_ Z2]. destruct Hzj as [_ Hzj].
    fold L U. lra.
  Qed.

  (** A feasible vector bounds every partition from below. *)
  Lemma afeas_lower phi nphi lam xs R : 0 <= phi -> NoDup (map fst xs) -> is_partition (map fst xs) R ->
    qn (length R) * phi <= nphi -> afeas phi lam xs -> qsum snd xs <= qsum (fun B => f (mem B) - lam) R + nphi.
  Proof.
    intros P0 Hn HR HL HF.
    assert (K : qsum (fun B => xsum xs (mem B) - phi) R <= qsum (fun B => f (mem B) - lam) R).
    { apply qsum_le. intros B HB. assert (A := HF (mem B)).
      assert (xsum xs (mem B) <= f (mem B) - lam + phi); [|lra]. apply A.
      - destruct (part_nonempty _ _ _ HR HB) as (x & Hx). exists x. apply mem_In; auto.
      - intros x Hx. apply mem_In in Hx. exact (part_incl _ _ _ HR HB x Hx). }
    rewrite qsum_minus, qsum_const in K.
    assert (S : qsum (fun B => xsum xs (mem B)) R == qsum snd xs).
    { unfold xsum. rewrite qsum_swap. apply qsum_ext. intros q Hq.
      rewrite nd_ind_sum by exact (part_NoDup _ Hn R HR).
      assert (mem (concat R) (fst q) = true); [|rewrite H; reflexivity].
      apply mem_In. destruct HR as [HR _]. eapply Permutation_in; [symmetry; exact HR|]. apply in_map; auto. }
    lra.
  Qed.
End FPar.
