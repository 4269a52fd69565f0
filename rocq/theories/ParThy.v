(** * ParThy: parametric Dilworth truncation, one stage.

    Given vectors y(lambda) on the nodes handled so far and a chain of minimisers of
    f(X + j) - y(lambda)(X), capping y at the crossing values yields vectors for the nodes
    including j that are again feasible, and tight on the active sets. *)
From Verif Require Import Base Spec PartThy SubThy MSets SetsThy MDT MGraph MaxFlow MDil CutThy DilThy.

Section Par.
  Variable f : nset -> Q.
  Hypothesis f_ext : forall A B, (forall x, A x = B x) -> f A == f B.
  Hypothesis f_sub : forall A B, (exists x, A x = true /\ B x = true) ->
    f (iunion A B) + f (iinter A B) <= f A + f B.
  Variable nodes : list nat.
  Hypothesis Hnd : NoDup nodes.
  Variable j : nat.
  Hypothesis Hj : ~ In j nodes.
  Variable y : nat -> Q -> Q.
  Hypothesis y_anti : forall u l l', l <= l' -> y u l' <= y u l.

  Lemma y_wd u l l' : l == l' -> y u l == y u l'.
  Proof.
    intro H. assert (A := y_anti u l l' ltac:(lra)). assert (B := y_anti u l' l ltac:(lra)). lra.
  Qed.

  Definition fj (X : nset) : Q := f (fun x => Nat.eqb x j || X x).

  (** Sum of a vector over the handled nodes of a set. *)
  Definition vs (w : nat -> Q) (X : nset) : Q := qsum (fun u => if X u then w u else 0) nodes.

  Definition subn (A B : nset) : Prop := forall x, In x nodes -> A x = true -> B x = true.
  Definition win (X : nset) : Prop := forall x, X x = true -> In x nodes \/ x = j.

  Lemma fj_ext A B : (forall x, x <> j -> A x = B x) -> fj A == fj B.
  Proof.
    intro H. apply f_ext. intro x. destruct (Nat.eqb x j) eqn:E; auto. simpl.
    apply Nat.eqb_neq in E. auto.
  Qed.

  Lemma fj_sub A B : fj (iunion A B) + fj (iinter A B) <= fj A + fj B.
  Proof.
    unfold fj. eapply Qle_trans; [|apply f_sub].
    - apply Qle_lteq. right. apply Qplus_comp; apply f_ext; intro x; unfold iunion, iinter;
        destruct (Nat.eqb x j); reflexivity.
    - exists j. rewrite Nat.eqb_refl. auto.
  Qed.

  Lemma vs_ext w w' X X' :
    (forall u, In u nodes -> X u = X' u) -> (forall u, In u nodes -> X u = true -> w u == w' u) ->
    vs w X == vs w' X'.
  Proof.
    intros H1 H2. apply qsum_ext. intros u Hu. rewrite <- (H1 u Hu).
    destruct (X u) eqn:E; [auto|reflexivity].
  Qed.

  Lemma vs_modular w A B : vs w (iunion A B) + vs w (iinter A B) == vs w A + vs w B.
  Proof.
    unfold vs. rewrite <- !qsum_plus. apply qsum_ext. intros u _. unfold iunion, iinter.
    destruct (A u), (B u); simpl; lra.
  Qed.

  Lemma vs_split w X T : vs w X == vs w (iinter X T) + vs w (fun x => X x && negb (T x)).
  Proof.
    unfold vs. rewrite <- qsum_plus. apply qsum_ext. intros u _. unfold iinter.
    destruct (X u), (T u); simpl; lra.
  Qed.

  Definition up (T : nset) (l : Q) : Prop :=
    forall X, win X -> (forall x, T x = true -> X x = true) ->
      vs (fun u => y u l) X - vs (fun u => y u l) T <= fj X - fj T.
  Definition cross (T T' : nset) (l : Q) : Prop :=
    fj T - fj T' == vs (fun u => y u l) T - vs (fun u => y u l) T'.

  Fixpoint pchain (T : nset) (rest : list (Q * nset)) : Prop :=
    match rest with
    | [] => forall x, T x = true -> x = j
    | (l, T') :: r =>
        (forall x, T' x = true -> T x = true) /\ cross T T' l /\ up T' l /\
        Forall (fun p => l <= fst p) r /\ pchain T' r
    end.

  (** The last crossing value at which [u] is still in the set. *)
  Fixpoint lev (T : nset) (rest : list (Q * nset)) (u : nat) : option Q :=
    match rest with
    | [] => None
    | (l, T') :: r => if T' u then lev T' r u else if T u then Some l else None
    end.

  Definition qmx (a b : Q) : Q := if Qltb a b then b else a.

  Lemma qmx_l a b : b <= a -> qmx a b == a.
  Proof. intro H. unfold qmx. destruct (Qltb a b) eqn:E; [apply Qltb_true in E|]; lra. Qed.
  Lemma qmx_r a b : a <= b -> qmx a b == b.
  Proof. intro H. unfold qmx. destruct (Qltb a b) eqn:E; [|apply Qltb_false in E]; lra. Qed.

  Definition zval (T : nset) (rest : list (Q * nset)) (lam : Q) (u : nat) : Q :=
    match lev T rest u with Some l => y u (qmx lam l) | None => y u lam end.

  Definition wval (T : nset) (rest : list (Q * nset)) (u : nat) : Q :=
    match lev T rest u with Some l => y u l | None => 0 end.

  Lemma lev_out T rest u : pchain T rest -> T u = false -> lev T rest u = None.
  Proof.
    destruct rest as [|[l T'] r]; simpl; auto. intros (H & _) Hu.
    destruct (T' u) eqn:E; [rewrite (H u E) in Hu; discriminate|]. rewrite Hu. auto.
  Qed.

  Lemma lev_in T rest : pchain T rest -> forall u, u <> j -> T u = true ->
    exists l, lev T rest u = Some l /\ In l (map fst rest).
  Proof.
    revert T. induction rest as [|[l T'] r IH]; simpl; intros T H u Hu HT.
    - exfalso. auto.
    - destruct H as (H1 & _ & _ & _ & H5). destruct (T' u) eqn:E.
      + destruct (IH T' H5 u Hu E) as (l' & L1 & L2). eauto.
      + rewrite HT. eauto.
  Qed.

  Lemma node_neq u : In u nodes -> u <> j.
  Proof. intros H ->. contradiction. Qed.

  (** Inside the active set the capped vector is feasible, and tight on the set itself. *)
  Lemma w_feas rest : forall T, win T -> pchain T rest ->
    (forall S, win S -> (forall x, S x = true -> T x = true) ->
       fj (fun _ => false) + vs (wval T rest) S <= fj S) /\
    fj (fun _ => false) + vs (wval T rest) T == fj T.
  Proof.
    induction rest as [|[l T'] r IH]; intros T Hw H.
    - simpl in H. assert (G : forall S, (forall x, S x = true -> x = j) ->
        fj (fun _ => false) + vs (wval T []) S == fj S).
      { intros S HS. assert (V : vs (wval T []) S == 0).
        { apply qsum_zero. intros u Hu. destruct (S u) eqn:E; [|reflexivity].
          exfalso. apply HS in E. subst. contradiction. }
        rewrite V. rewrite (fj_ext (fun _ => false) S); [lra|].
        intros x Hx. destruct (S x) eqn:E; [exfalso; auto|auto]. }
      split; [|apply G; auto]. intros S HS HST. rewrite G; [lra|auto].
    - destruct H as (H1 & H2 & H3 & H4 & H5).
      assert (Hw' : win T') by (intros x Hx; apply Hw; auto).
      destruct (IH T' Hw' H5) as [IH1 IH2].
      assert (W1 : forall u, In u nodes -> T' u = true -> wval T ((l, T') :: r) u = wval T' r u).
      { intros u _ Hu. unfold wval. simpl. rewrite Hu. auto. }
      assert (W2 : forall u, T u = true -> T' u = false -> wval T ((l, T') :: r) u = y u l).
      { intros u Hu Hu'. unfold wval. simpl. rewrite Hu', Hu. auto. }
      split.
      + intros S HS HST.
        assert (A := fj_sub S T').
        assert (B : vs (fun u => y u l) (iunion S T') - vs (fun u => y u l) T' <= fj (iunion S T') - fj T').
        { apply H3.
          - intros x Hx. unfold iunion in Hx. apply orb_true_iff in Hx. destruct Hx; auto.
          - intros x Hx. unfold iunion. rewrite Hx. apply orb_true_r. }
        assert (C : fj (fun _ => false) + vs (wval T' r) (iinter S T') <= fj (iinter S T')).
        { apply IH1.
          - intros x Hx. unfold iinter in Hx. apply andb_true_iff in Hx. apply HS; tauto.
          - intros x Hx. unfold iinter in Hx. apply andb_true_iff in Hx. tauto. }
        assert (D := vs_modular (fun u => y u l) S T').
        rewrite (vs_split (wval T ((l, T') :: r)) S T').
        assert (F := vs_split (fun u => y u l) S T').
        rewrite (vs_ext (wval T ((l, T') :: r)) (wval T' r) (iinter S T') (iinter S T')).
        2:{ auto. }
        2:{ intros u Hu Hi. rewrite W1; [reflexivity|auto|]. unfold iinter in Hi. apply andb_true_iff in Hi. tauto. }
        rewrite (vs_ext (wval T ((l, T') :: r)) (fun u => y u l)
                  (fun x => S x && negb (T' x)) (fun x => S x && negb (T' x))).
        2:{ auto. }
        2:{ intros u Hu Hi. apply andb_true_iff in Hi. destruct Hi as [Hi1 Hi2]. apply negb_true_iff in Hi2.
            rewrite W2; [reflexivity|auto|auto]. }
        lra.
      + unfold cross in H2.
        rewrite (vs_split (wval T ((l, T') :: r)) T T').
        assert (F := vs_split (fun u => y u l) T T').
        assert (I : forall w, vs w (iinter T T') == vs w T').
        { intro w. apply vs_ext; [|intros; reflexivity]. intros u Hu. unfold iinter.
          destruct (T' u) eqn:E; [rewrite (H1 u E); auto|apply andb_false_r]. }
        rewrite (I (wval T ((l, T') :: r))). rewrite (I (fun u => y u l)) in F.
        rewrite (vs_ext (wval T ((l, T') :: r)) (wval T' r) T' T').
        2:{ auto. }
        2:{ intros u Hu Hi. rewrite W1; [reflexivity|auto|auto]. }
        rewrite (vs_ext (wval T ((l, T') :: r)) (fun u => y u l)
                  (fun x => T x && negb (T' x)) (fun x => T x && negb (T' x))).
        2:{ auto. }
        2:{ intros u Hu Hi. apply andb_true_iff in Hi. destruct Hi as [Hi1 Hi2]. apply negb_true_iff in Hi2.
            rewrite W2; [reflexivity|auto|auto]. }
        lra.
  Qed.

  Lemma up_mono T l l' : up T l -> l <= l' -> up T l'.
  Proof.
    intros H Hl X HX HTX. specialize (H X HX HTX).
    assert (I : forall w, vs w X - vs w T == vs w (fun x => X x && negb (T x))).
    { intro w. rewrite (vs_split w X T).
      rewrite (vs_ext w w (iinter X T) T); [lra| |intros; reflexivity].
      intros u Hu. unfold iinter. destruct (T u) eqn:E; [rewrite (HTX u E); auto|apply andb_false_r]. }
    rewrite I in *.
    assert (vs (fun u => y u l') (fun x => X x && negb (T x)) <=
            vs (fun u => y u l) (fun x => X x && negb (T x))); [|lra].
    apply qsum_le. intros u _. destruct (X u && negb (T u)); [auto|lra].
  Qed.

  (** The step function given by a chain: (upper end, set) pairs. *)
  Fixpoint bands (T : nset) (rest : list (Q * nset)) : list (dbl * nset) :=
    match rest with
    | [] => [(PInf, T)]
    | (l, T') :: r => (Fin l, T) :: bands T' r
    end.

  Definition dge (d : dbl) (lam : Q) : Prop :=
    match d with Fin q => lam <= q | PInf => True | NaN => False end.

  Inductive act {X : Type} (lam : Q) : list (dbl * X) -> X -> Prop :=
  | act_here d x r : dge d lam -> act lam ((d, x) :: r) x
  | act_next q x r x' : q <= lam -> act lam r x' -> act lam ((Fin q, x) :: r) x'.

  (** Main statement about the capped vectors at [lam] when [S] is the active set. *)
  Theorem z_ok rest : forall T l0 lam S, win T -> pchain T rest -> up T l0 -> l0 <= lam ->
    act lam (bands T rest) S ->
    (forall X, win X -> fj (fun _ => false) + vs (zval T rest lam) X <= fj X) /\
    fj (fun _ => false) + vs (zval T rest lam) S == fj S /\
    (forall u, In u nodes -> S u = false -> zval T rest lam u == y u lam) /\
    win S.
  Proof.
    induction rest as [|[l T'] r IH]; intros T l0 lam S Hw H Hup Hl HA; simpl in HA.
    - inversion HA as [d x r' Hd|q x r' x' Hq Ha]; subst.
      assert (Z : forall u, zval S [] lam u = y u lam) by reflexivity.
      destruct (w_feas [] S Hw H) as [W1 W2].
      assert (HS : vs (wval S []) S == vs (zval S [] lam) S).
      { apply vs_ext; auto. intros u Hu Hs. simpl in H. apply H in Hs. subst. contradiction. }
      split; [|split; [rewrite <- HS; auto|split; [intros; rewrite Z; reflexivity|auto]]].
      intros X HX.
      assert (U := up_mono S l0 lam Hup Hl). specialize (U (iunion X S)).
      assert (A : fj (iunion X S) == fj X).
      { apply fj_ext. intros x Hx. unfold iunion. destruct (S x) eqn:E; [|apply orb_false_r].
        simpl in H. apply H in E. contradiction. }
      assert (B : fj S == fj (fun _ => false)).
      { apply fj_ext. intros x Hx. destruct (S x) eqn:E; [|auto]. simpl in H. apply H in E. contradiction. }
      assert (C : vs (fun u => y u lam) (iunion X S) == vs (zval S [] lam) X).
      { apply vs_ext; [|intros; reflexivity]. intros u Hu. unfold iunion.
        destruct (S u) eqn:E; [|apply orb_false_r]. simpl in H. apply H in E. subst. contradiction. }
      assert (D : vs (fun u => y u lam) S == 0).
      { apply qsum_zero. intros u Hu. destruct (S u) eqn:E; [|reflexivity].
        simpl in H. apply H in E. subst. contradiction. }
      rewrite A, B, C, D in U.
      assert (vs (zval S [] lam) X - 0 <= fj X - fj (fun _ => false)); [|lra]. apply U.
      + intros x Hx. unfold iunion in Hx. apply orb_true_iff in Hx. destruct Hx; auto.
      + intros x Hx. unfold iunion. rewrite Hx. apply orb_true_r.
    - assert (H0 := H). destruct H as (H1 & H2 & H3 & H4 & H5).
      inversion HA as [d x r' Hd|q x r' x' Hq Ha]; subst.
      + (* S is the first set *)
        simpl in Hd. destruct (w_feas _ S Hw H0) as [W1 W2].
        assert (ZW : forall u, In u nodes -> S u = true -> zval S ((l, T') :: r) lam u == wval S ((l, T') :: r) u).
        { intros u Hu Hs. unfold zval, wval.
          destruct (lev_in S ((l, T') :: r) H0 u (node_neq u Hu) Hs) as (l' & E1 & E2). rewrite E1.
          apply y_wd. apply qmx_r. simpl in E2. destruct E2 as [<-|E2]; [lra|].
          apply in_map_iff in E2. destruct E2 as (p & <- & Hp). rewrite Forall_forall in H4.
          specialize (H4 p Hp). lra. }
        assert (ZY : forall u, S u = false -> zval S ((l, T') :: r) lam u = y u lam).
        { intros u Hs. unfold zval. rewrite (lev_out S _ u H0 Hs). auto. }
        split; [|split; [|split; [intros; rewrite ZY; auto; reflexivity|auto]]].
        2:{ rewrite <- W2. apply Qplus_comp; [reflexivity|]. apply vs_ext; auto. }
        intros X HX.
        assert (A := fj_sub X S).
        assert (U := up_mono S l0 lam Hup Hl (iunion X S)).
        assert (U' : vs (fun u => y u lam) (iunion X S) - vs (fun u => y u lam) S <= fj (iunion X S) - fj S).
        { apply U.
          - intros x Hx. unfold iunion in Hx. apply orb_true_iff in Hx. destruct Hx; auto.
          - intros x Hx. unfold iunion. rewrite Hx. apply orb_true_r. }
        assert (C : fj (fun _ => false) + vs (wval S ((l, T') :: r)) (iinter X S) <= fj (iinter X S)).
        { apply W1.
          - intros x Hx. unfold iinter in Hx. apply andb_true_iff in Hx. apply HX; tauto.
          - intros x Hx. unfold iinter in Hx. apply andb_true_iff in Hx. tauto. }
        assert (D := vs_modular (fun u => y u lam) X S).
        assert (F := vs_split (fun u => y u lam) X S).
        rewrite (vs_split (zval S ((l, T') :: r) lam) X S).
        rewrite (vs_ext (zval S ((l, T') :: r) lam) (wval S ((l, T') :: r)) (iinter X S) (iinter X S)).
        2:{ auto. }
        2:{ intros u Hu Hi. apply ZW; auto. unfold iinter in Hi. apply andb_true_iff in Hi. tauto. }
        rewrite (vs_ext (zval S ((l, T') :: r) lam) (fun u => y u lam)
                  (fun x => X x && negb (S x)) (fun x => X x && negb (S x))).
        2:{ auto. }
        2:{ intros u Hu Hi. apply andb_true_iff in Hi. destruct Hi as [Hi1 Hi2]. apply negb_true_iff in Hi2.
            rewrite ZY; [reflexivity|auto]. }
        lra.
      + (* S is a later set *)
        assert (Hw' : win T') by (intros x' Hx'; apply Hw; auto).
        destruct (IH T' l lam S Hw' H5 H3 Hq Ha) as (I1 & I2 & I3 & I4).
        assert (ZZ : forall u, zval T ((l, T') :: r) lam u == zval T' r lam u).
        { intro u. unfold zval. simpl. destruct (T' u) eqn:E; [reflexivity|].
          rewrite (lev_out T' r u H5 E). destruct (T u); [|reflexivity]. apply y_wd.
          apply qmx_l. auto. }
        assert (VV : forall X, vs (zval T ((l, T') :: r) lam) X == vs (zval T' r lam) X).
        { intro X. apply vs_ext; auto. }
        split; [|split; [|split; [|auto]]].
        * intros X HX. rewrite VV. auto.
        * rewrite VV. auto.
        * intros u Hu Hs. rewrite ZZ. auto.
  Qed.

  Lemma zval_le T rest lam u : zval T rest lam u <= y u lam.
  Proof.
    unfold zval. destruct (lev T rest u); [|lra]. apply y_anti.
    unfold qmx. destruct (Qltb lam q) eqn:E; [apply Qltb_true in E|]; lra.
  Qed.

  (** A vector as the association list used by [feas] and [tight]. *)
  Definition vec (ns : list nat) (w : nat -> Q) : list (nat * Q) := map (fun u => (u, w u)) ns.

  Lemma vec_fst ns w : map fst (vec ns w) = ns.
  Proof. unfold vec. rewrite map_map. simpl. apply map_id. Qed.

  Lemma vec_xsum ns w X : xsum (vec ns w) X == qsum (fun u => if X u then w u else 0) ns.
  Proof. unfold xsum, vec. rewrite qsum_map. reflexivity. Qed.

  (** One stage: the vectors extended by [j] with value f(j) - lambda. *)
  Theorem stage_ok T rest l0 lam S (z : nat -> Q) (p : list (list nat)) (t : list nat) :
    win T -> pchain T rest -> up T l0 -> l0 <= lam -> act lam (bands T rest) S ->
    feas f lam (vec nodes (fun u => y u lam)) ->
    is_partition nodes p -> (forall B, In B p -> tight f lam (vec nodes (fun u => y u lam)) (mem B)) ->
    (forall x, mem t x = S x) -> In j t -> csorted t ->
    (forall u, In u nodes -> z u == zval T rest lam u) -> z j == fj (fun _ => false) - lam ->
    feas f lam (vec (nodes ++ [j]) z) /\
    (forall B, In B (pexpand p t) -> tight f lam (vec (nodes ++ [j]) z) (mem B)).
  Proof.
    intros HT Hc Hup Hl HA HF HP HB Ht Hjt Hts Hz Hzj.
    destruct (z_ok rest T l0 lam S HT Hc Hup Hl HA) as (Z1 & Z2 & Z3 & Z4).
    assert (Vx : forall X, xsum (vec (nodes ++ [j]) z) X ==
      vs (zval T rest lam) X + if X j then fj (fun _ => false) - lam else 0).
    { intro X. rewrite vec_xsum, qsum_app. cbn [qsum].
      assert (qsum (fun u => if X u then z u else 0) nodes == vs (zval T rest lam) X).
      { apply qsum_ext. intros u Hu. destruct (X u); [auto|reflexivity]. }
      rewrite H. destruct (X j); rewrite ?Hzj; lra. }
    assert (Vy : forall X, xsum (vec nodes (fun u => y u lam)) X == vs (fun u => y u lam) X)
      by (intro X; apply vec_xsum).
    assert (FE : feas f lam (vec (nodes ++ [j]) z)).
    { intros X (x & Hx) HX. rewrite vec_fst in HX. rewrite Vx.
      assert (WX : win X).
      { intros u Hu. apply HX in Hu. apply in_app_or in Hu. destruct Hu as [Hu|[Hu|[]]]; auto. }
      destruct (X j) eqn:Xj.
      - assert (E : fj X == f X).
        { apply f_ext. intro u. destruct (Nat.eqb u j) eqn:E; auto. apply Nat.eqb_eq in E. subst. auto. }
        specialize (Z1 X WX). lra.
      - assert (K : xsum (vec nodes (fun u => y u lam)) X <= f X - lam).
        { apply HF; [eauto|]. rewrite vec_fst. intros u Hu. destruct (WX u Hu) as [|C]; auto.
          subst. congruence. }
        rewrite Vy in K.
        assert (vs (zval T rest lam) X <= vs (fun u => y u lam) X); [|lra].
        apply qsum_le. intros u _. destruct (X u); [apply zval_le|lra]. }
    split; [exact FE|].
    intros B HBin. apply pexpand_In in HBin. destruct HBin as [->|[HBp Hm]].
    - (* the merged block *)
      set (L := filter (meets t) p).
      set (U := fold_left (fun acc B => cunion B acc) L t).
      assert (HU : forall x, mem U x = iunion (mem t) (mem (concat L)) x).
      { intro x. unfold iunion. rewrite <- mem_app. apply mem_ext. intro w.
        unfold U. rewrite fold_cunion_In, in_app_iff. tauto. }
      assert (HN : NoDup (concat p)).
      { destruct HP as [HP _]. eapply Permutation_NoDup; [symmetry; exact HP|auto]. }
      assert (HNL : NoDup (concat L)).
      { assert (PP := perm_concat _ _ (perm_filter_split (meets t) p)).
        apply (Permutation_NoDup PP) in HN. rewrite concat_app in HN. apply NoDup_app_inv in HN. tauto. }
      assert (HLin : forall B x, In B L -> In x B -> In x nodes).
      { intros B x HBL Hx. destruct HP as [HP _]. eapply Permutation_in; [exact HP|].
        apply in_concat. exists B. split; auto. apply filter_In in HBL. tauto. }
      assert (HLm : forall B, In B L -> exists x, mem t x = true /\ In x B).
      { intros B HBL. apply filter_In in HBL. destruct HBL as [_ HBL]. apply meets_true in HBL.
        destruct HBL as (x & H1 & H2). exists x. split; auto. apply mem_In; auto. }
      assert (UC := uncross f f_ext f_sub (mem t) L HNL HLm).
      assert (Tfj : f (mem t) == fj S).
      { apply f_ext. intro x. rewrite Ht. destruct (Nat.eqb x j) eqn:E; auto.
        apply Nat.eqb_eq in E. subst. rewrite <- Ht. apply mem_In; auto. }
      (* lower bound from the old vectors *)
      assert (LB : qsum (fun B => f (mem B)) L - qsum (fun B => f (iinter (mem t) (mem B))) L <=
                   vs (fun u => y u lam) (fun x => mem (concat L) x && negb (mem t x))).
      { rewrite <- qsum_minus.
        assert (K : qsum (fun B => f (mem B) - f (iinter (mem t) (mem B))) L <=
                    qsum (fun B => vs (fun u => y u lam) (fun x => mem B x && negb (mem t x))) L).
        { apply qsum_le. intros B HBL.
          assert (TB := HB B). assert (HBp : In B p) by (apply filter_In in HBL; tauto).
          specialize (TB HBp). unfold tight in TB. rewrite Vy in TB.
          destruct (HLm B HBL) as (x & X1 & X2).
          assert (FB : xsum (vec nodes (fun u => y u lam)) (iinter (mem t) (mem B)) <=
                       f (iinter (mem t) (mem B)) - lam).
          { apply HF.
            - exists x. unfold iinter. rewrite X1. apply mem_In; auto.
            - rewrite vec_fst. intros u Hu. unfold iinter in Hu. apply andb_true_iff in Hu.
              destruct Hu as [_ Hu]. apply mem_In in Hu. eauto. }
          rewrite Vy in FB. rewrite (vs_split (fun u => y u lam) (mem B) (mem t)) in TB.
          assert (vs (fun u => y u lam) (iinter (mem B) (mem t)) ==
                  vs (fun u => y u lam) (iinter (mem t) (mem B))).
          { apply vs_ext; [|intros; reflexivity]. intros u _. unfold iinter. apply andb_comm. }
          lra. }
        eapply Qle_trans; [exact K|]. apply Qle_lteq. right.
        unfold vs. rewrite qsum_swap. apply qsum_ext. intros u Hu.
        destruct (mem t u) eqn:Et.
        - rewrite andb_false_r. apply qsum_zero. intros B _. rewrite andb_false_r. reflexivity.
        - rewrite andb_true_r. rewrite <- (nd_ind_sum L u (y u lam) HNL).
          apply qsum_ext. intros B _. rewrite andb_true_r. reflexivity. }
      assert (Uj : mem U j = true).
      { rewrite HU. unfold iunion. assert (mem t j = true) by (apply mem_In; auto). rewrite H. auto. }
      unfold tight. rewrite Vx. rewrite Uj.
      assert (Up : xsum (vec (nodes ++ [j]) z) (mem U) <= f (mem U) - lam).
      { apply FE; [eauto|]. rewrite vec_fst. intros u Hu. rewrite HU in Hu. unfold iunion in Hu.
        apply orb_true_iff in Hu. apply in_or_app. destruct Hu as [Hu|Hu].
        - rewrite Ht in Hu. apply Z4 in Hu. destruct Hu as [Hu| ->]; [left; auto|right; left; auto].
        - apply mem_In in Hu. apply in_concat in Hu. destruct Hu as (B & HBL & HuB). left. eauto. }
      rewrite Vx, Uj in Up.
      assert (VU : vs (zval T rest lam) (mem U) == vs (zval T rest lam) S +
        vs (fun u => y u lam) (fun x => mem (concat L) x && negb (mem t x))).
      { unfold vs. rewrite <- qsum_plus. apply qsum_ext. intros u Hu. rewrite HU. unfold iunion.
        rewrite Ht. destruct (S u) eqn:ES; simpl.
        - rewrite andb_false_r. lra.
        - rewrite andb_true_r. destruct (mem (concat L) u); [|lra]. rewrite Z3; auto. lra. }
      assert (FU : f (mem U) == f (iunion (mem t) (mem (concat L)))) by (apply f_ext; auto).
      lra.
    - (* an untouched block *)
      assert (TB := HB B HBp). unfold tight in *. rewrite Vy in TB. rewrite Vx.
      assert (Bn : forall x, In x B -> In x nodes).
      { intros x Hx. destruct HP as [HP _]. eapply Permutation_in; [exact HP|].
        apply in_concat. eauto. }
      assert (Bj : mem B j = false) by (apply mem_false; intro C; apply Hj; auto).
      rewrite Bj.
      assert (vs (zval T rest lam) (mem B) == vs (fun u => y u lam) (mem B)); [|lra].
      apply vs_ext; auto. intros u Hu Hb. apply Z3; auto. rewrite <- Ht.
      apply mem_false. intro C. rewrite meets_false in Hm. apply (Hm u C). apply mem_In; auto.
  Qed.
End Par.
