(** * PDTThy: PMF::run, the update of the parameters and the merge loop of PDT::run. *)
From Coq Require Import Sorted.
From Verif Require Import Base Spec PartThy SubThy MSets SetsThy MGraph MaxFlow MDil CutThy DilThy MDT
  SeqThy DTThy MPMF LamThy ParThy SliceThy.

(** ** Ordered partitions *)
Lemma clt_trans s : forall t u, clt s t = true -> clt t u = true -> clt s u = true.
Proof.
  induction s as [|a s IH]; intros [|b t] [|c u]; simpl; intros H1 H2; try discriminate; auto.
  destruct (a <? b)%nat eqn:E1; destruct (b <? c)%nat eqn:E2;
    repeat match goal with
    | H : (_ <? _)%nat = true |- _ => apply Nat.ltb_lt in H
    | H : (_ <? _)%nat = false |- _ => apply Nat.ltb_ge in H
    end.
  - assert (K : (a <? c)%nat = true) by (apply Nat.ltb_lt; lia). rewrite K. auto.
  - destruct (c <? b)%nat eqn:E3; [discriminate|]. apply Nat.ltb_ge in E3.
    assert (K : (a <? c)%nat = true) by (apply Nat.ltb_lt; lia). rewrite K. auto.
  - destruct (b <? a)%nat eqn:E3; [discriminate|]. apply Nat.ltb_ge in E3.
    assert (K : (a <? c)%nat = true) by (apply Nat.ltb_lt; lia). rewrite K. auto.
  - destruct (b <? a)%nat eqn:E3; [discriminate|]. destruct (c <? b)%nat eqn:E4; [discriminate|].
    apply Nat.ltb_ge in E3. apply Nat.ltb_ge in E4.
    assert (K1 : (a <? c)%nat = false) by (apply Nat.ltb_ge; lia).
    assert (K2 : (c <? a)%nat = false) by (apply Nat.ltb_ge; lia).
    rewrite K1, K2. eauto.
Qed.

Definition psorted (P : list (list nat)) : Prop := StronglySorted (fun A B => clt A B = true) P.

Lemma psorted_filter p P : psorted P -> psorted (filter p P).
Proof.
  unfold psorted. induction 1 as [|a l H IH Ha]; simpl; [constructor|].
  destruct (p a); auto. constructor; auto. apply Forall_forall. intros x Hx. apply filter_In in Hx.
  rewrite Forall_forall in Ha. apply Ha. tauto.
Qed.

Lemma padd_sorted S P : psorted P -> psorted (padd S P).
Proof.
  unfold psorted. induction 1 as [|B P H IH HB]; simpl; [repeat constructor|].
  destruct (clt S B) eqn:E1.
  - constructor; [constructor; auto|]. constructor; auto.
    eapply Forall_impl; [|exact HB]. simpl. intros C HC. eapply clt_trans; eauto.
  - destruct (clt B S) eqn:E2; [|constructor; auto]. constructor; auto.
    apply Forall_forall. intros C HC. apply padd_In in HC. rewrite Forall_forall in HB.
    destruct HC as [->|HC]; auto.
Qed.

Lemma pexpand_sorted P T : psorted P -> psorted (pexpand P T).
Proof. intro H. apply padd_sorted. apply psorted_filter. auto. Qed.

Lemma psorted_ext P : forall R, psorted P -> psorted R -> (forall B, In B P <-> In B R) -> P = R.
Proof.
  unfold psorted. induction P as [|A P IH]; intros R HP HR HI.
  - destruct R as [|B R]; auto. exfalso. apply (HI B). left; auto.
  - destruct R as [|B R]; [exfalso; apply (HI A); left; auto|].
    inversion HP as [|? ? P1 P2]; subst. inversion HR as [|? ? R1 R2]; subst.
    rewrite Forall_forall in P2, R2.
    assert (E : A = B).
    { destruct (proj1 (HI A) (or_introl eq_refl)) as [<-|K1]; auto.
      destruct (proj2 (HI B) (or_introl eq_refl)) as [->|K2]; auto.
      assert (X1 := R2 A K1). assert (X2 := P2 B K2).
      assert (X := clt_trans _ _ _ X1 X2). rewrite clt_irrefl in X. discriminate. }
    subst B. f_equal. apply IH; auto. intro C. split; intro HC.
    + destruct (proj1 (HI C) (or_intror HC)) as [<-|K]; auto.
      assert (X := P2 A HC). rewrite clt_irrefl in X. discriminate.
    + destruct (proj2 (HI C) (or_intror HC)) as [<-|K]; auto.
      assert (X := R2 A HC). rewrite clt_irrefl in X. discriminate.
Qed.

Lemma pexpand_csorted P T : csorted T -> (forall B, In B P -> csorted B) ->
  forall B, In B (pexpand P T) -> csorted B.
Proof.
  intros HT HP B HB. apply pexpand_In in HB. destruct HB as [->|[HB _]]; auto.
  apply fold_cunion_sorted; auto.
Qed.

Lemma peqb_true P R : peqb P R = true <-> P = R.
Proof.
  revert R. induction P as [|A P IH]; intros [|B R]; simpl; split; intro H; try discriminate; auto.
  - apply andb_true_iff in H. destruct H as [H1 H2]. apply ceqb_true in H1. apply IH in H2. congruence.
  - inversion H; subst. assert (ceqb B B = true) by (apply ceqb_true; auto). rewrite H0. simpl. apply IH; auto.
Qed.

(** Two canonical partitions with the same number of parts, one refining the other, are equal. *)
Lemma canonical_eq nodes P R :
  NoDup nodes -> is_partition nodes P -> is_partition nodes R ->
  (forall B, In B P -> csorted B) -> (forall B, In B R -> csorted B) -> psorted P -> psorted R ->
  refines P R -> length P = length R -> P = R.
Proof.
  intros Hn HP HR SP SR OP OR Href Hlen.
  assert (Href' := refines_eq_length nodes Hn P R HP HR Href Hlen).
  assert (G : forall P R, is_partition nodes P -> is_partition nodes R ->
    (forall B, In B P -> csorted B) -> (forall B, In B R -> csorted B) ->
    refines P R -> refines R P -> forall B, In B P -> In B R).
  { clear -Hn. intros P R HP HR SP SR H1 H2 B HB. destruct (H1 B HB) as (C & HC & I1).
    destruct (H2 C HC) as (D & HD & I2).
    destruct (part_nonempty nodes P B HP HB) as (x & Hx).
    assert (D = B) by (eapply (part_unique nodes P D B x); eauto). subst D.
    assert (E : B = C); [|subst; auto].
    apply csorted_ext; auto. intro z. split; [apply I1|apply I2]. }
  apply psorted_ext; auto. intro B. split; [apply (G P R)|apply (G R P)]; auto.
Qed.

(** ** Sorting the chain *)
Lemma isort_strict2 {A} (ltb : A -> A -> bool) l : forall m,
  Permutation l m -> StronglySorted (fun x y => ltb x y = true /\ ltb y x = false) m ->
  isort ltb l = m.
Proof.
  induction l as [|x l IH]; intros m Hp Hs; simpl.
  - apply Permutation_nil in Hp. auto.
  - assert (Hx : In x m) by (eapply Permutation_in; [exact Hp|left; auto]).
    apply in_split in Hx. destruct Hx as (l1 & l2 & ->).
    apply Permutation_cons_app_inv in Hp.
    destruct (SS_remove _ _ _ _ Hs) as (S1 & S2 & S3).
    rewrite (IH (l1 ++ l2)) by auto. apply insert_between.
    + eapply Forall_impl; [|exact S2]. simpl. tauto.
    + eapply Forall_impl; [|exact S3]. simpl. tauto.
Qed.

Lemma superset_true A B : superset A B = true <-> incl B A.
Proof.
  unfold superset. rewrite forallb_forall. split; intros H x Hx; [apply mem_In|apply mem_In]; auto.
Qed.

(** ** One stage *)
Section Stage.
  Variable mc : solver.
  Hypothesis Hmc : MinSinkCutSpec mc.
  Variable eps : Q.
  Hypothesis Heps : 0 < eps.
  Variable E : graph.
  Variable n j : nat.
  Hypothesis Hjn : (j < n)%nat.
  Hypothesis HE : graph_on (seq 0 n) E.
  Hypothesis Hs : simple E.
  Hypothesis Hf : forward E.
  Hypothesis Hw : forall a, In a E -> eps <= aw a.
  Variable y : list (Q * dbl).
  Variable M : positive.
  Hypothesis HyM : forall u, (u < j)%nat -> pmult M (yat y u).
  Hypothesis HfM : forall X, mult M (incut E X).
  Hypothesis HiM : mult M init_lambda.
  Hypothesis HeM : 10 * eps * inject_Z (Zpos (M * factP j)) < 1.

  Let nodes := seq 0 j.
  Let yf := fun u l => ycap (yat y u) l.
  Let f := incut E.
  Let CC := cch E j y M.
  Let LM := lmin E j y.
  Let G := gval E j y.

  Lemma cch_sorted_lams rest : forall lo T Te hi, CC lo T rest Te hi ->
    StronglySorted Qlt (map fst rest) /\ Forall (fun l => lo < l) (map fst rest).
  Proof.
    induction rest as [|[l T'] r IH]; intros lo T Te hi H; simpl; [split; constructor|].
    destruct H as (H1 & _ & _ & _ & _ & _ & _ & _ & H9).
    destruct (IH l T' Te hi H9) as [I1 I2]. split; constructor; auto.
    eapply Forall_impl; [|exact I2]. simpl. intros. lra.
  Qed.

  Lemma cch_incl rest : forall lo T Te hi, CC lo T rest Te hi ->
    Forall (fun T' => incl T' T /\ (length T' < length T)%nat) (map snd rest).
  Proof.
    induction rest as [|[l T'] r IH]; intros lo T Te hi H; simpl; [constructor|].
    destruct H as (_ & _ & _ & H4 & H5 & _ & _ & _ & H9). constructor; auto.
    eapply Forall_impl; [|exact (IH l T' Te hi H9)]. simpl. intros S [A B].
    split; [eapply incl_tran; eauto|lia].
  Qed.

  Lemma cch_sorted_sets rest : forall lo T Te hi, NoDup T -> CC lo T rest Te hi ->
    StronglySorted (fun A B => superset A B = true /\ superset B A = false) (T :: map snd rest).
  Proof.
    induction rest as [|[l T'] r IH]; intros lo T Te hi HN H; [repeat constructor|].
    assert (H0 := H). destruct H as (_ & H2 & _ & H4 & H5 & _ & _ & _ & H9).
    cbn [map snd]. constructor; [eapply IH; [apply csorted_NoDup; auto|exact H9]|].
    assert (I := cch_incl _ _ _ _ _ H0). eapply Forall_impl; [|exact I]. simpl. intros S [A B].
    split; [apply superset_true; auto|]. destruct (superset S T) eqn:Es; auto.
    apply superset_true in Es. exfalso. assert (K := NoDup_incl_length HN Es). lia.
  Qed.

  (** What run pushes, sorted, is the chain. *)
  Lemma chain_sorted T0 rest sets hi : csorted T0 -> Permutation (sets ++ [[j]]) (map snd rest) ->
    CC init_lambda T0 rest [j] hi ->
    isort dltb (map (fun p => Fin (fst p)) rest) = map (fun p => Fin (fst p)) rest /\
    isort superset (T0 :: [j] :: sets) = T0 :: map snd rest.
  Proof.
    intros S0 R2 R3. split.
    - rewrite (isort_id dltb); auto.
      destruct (cch_sorted_lams _ _ _ _ _ R3) as [S1 _]. clear -S1.
      induction rest as [|p r IH]; simpl in *; constructor.
      + apply IH. inversion S1; auto.
      + inversion S1 as [|? ? A B]; subst. apply Forall_forall. intros d Hd.
        apply in_map_iff in Hd. destruct Hd as (q & <- & Hq). simpl.
        rewrite Forall_forall in B. specialize (B (fst q) (in_map fst _ _ Hq)).
        apply Qltb_false. lra.
    - apply isort_strict2.
      + rewrite <- R2. apply perm_skip. change ([j] :: sets) with ([[j]] ++ sets).
        apply Permutation_app_comm.
      + eapply cch_sorted_sets; [|exact R3]. apply csorted_NoDup. auto.
  Qed.

  (** PMF::run: the chain of minimal minimisers, largest first, with its crossing values. *)
  Theorem pmf_run_ok :
    (exists X, win nodes j X /\ G init_lambda X < G init_lambda (mem [j])) ->
    exists T0 rest,
      pmf_run mc eps E n j y = Ok (map (fun p => Fin (fst p)) rest, T0 :: map snd rest) /\
      LM init_lambda T0 /\ rest <> [] /\ CC init_lambda T0 rest [j] PInf.
  Proof.
    intros (X & HX & HlX). unfold pmf_run.
    assert (Lj : (j <? n)%nat = true) by (apply Nat.ltb_lt; auto). rewrite Lj. cbv zeta.
    destruct (pmf_cut_min mc Hmc eps Heps E n j Hjn HE Hs Hf Hw y init_lambda) as [K1 _].
    set (T0 := snd (pmf_cut mc eps E j y init_lambda)) in *.
    assert (W1 : win nodes j (mem [j])).
    { intros x Hx. apply mem_In in Hx. destruct Hx as [<-|[]]. right; auto. }
    assert (N0 : [j] <> T0).
    { intro C. assert (A := lm_min _ _ _ _ _ K1 X HX). rewrite <- C in A. unfold G in HlX. lra. }
    assert (I0 : incl [j] T0) by (intros x [<-|[]]; apply K1).
    assert (L0 : (length T0 <= 1 + S n)%nat).
    { assert (incl T0 (seq 0 n)).
      { intros x Hx. assert (Wx := lm_win _ _ _ _ _ K1 x (proj2 (mem_In _ _) Hx)).
        apply in_seq. destruct Wx as [Wx|Wx]; [apply in_seq in Wx; lia|lia]. }
      assert (Ln := NoDup_incl_length (csorted_NoDup _ (lm_sorted _ _ _ _ _ K1)) H).
      rewrite seq_length in Ln. lia. }
    destruct (slice_ok mc Hmc eps Heps E n j Hjn HE Hs Hf Hw y M HyM HfM HeM
                (S n) T0 [j] init_lambda PInf L0 I0 N0 K1 ltac:(apply mult_scale; exact HiM) eq_refl)
      as (rest & sets & R1 & R2 & R3).
    rewrite R1. cbn [bind fst snd].
    exists T0, rest. split; [|split; [exact K1|split; [|exact R3]]].
    - destruct (chain_sorted T0 rest sets PInf (lm_sorted _ _ _ _ _ K1) R2 R3) as [C1 C2]. rewrite C1, C2. auto.
    - intros ->. simpl in R3. destruct R3 as [R3 _]. congruence.
  Qed.

  (** ** The chain as a chain of node sets *)
  Definition nrest (rest : list (Q * list nat)) : list (Q * nset) :=
    map (fun p => (fst p, mem (snd p))) rest.

  Lemma cch_pchain rest : forall lo T hi, CC lo T rest [j] hi ->
    pchain f nodes j yf (mem T) (nrest rest).
  Proof.
    induction rest as [|[l T'] r IH]; intros lo T hi H.
    - simpl in H. destruct H as [-> _]. cbn. intros x Hx. apply orb_true_iff in Hx.
      destruct Hx as [Hx|Hx]; [apply Nat.eqb_eq; auto|discriminate].
    - destruct H as (H1 & H2 & H3 & H4 & H5 & H6 & H7 & H8 & H9).
      cbn [nrest map pchain fst snd]. repeat split.
      + intros x Hx. apply mem_In. apply H4. apply mem_In; auto.
      + exact H6.
      + exact H7.
      + destruct (cch_sorted_lams _ _ _ _ _ H9) as [_ I]. apply Forall_forall.
        intros p Hp. apply in_map_iff in Hp. destruct Hp as (q & <- & Hq). simpl.
        rewrite Forall_forall in I. specialize (I (fst q) (in_map fst _ _ Hq)). lra.
      + eapply IH; eauto.
  Qed.

  Lemma count_out rest lo T hi u : CC lo T rest [j] hi -> ~ In u T ->
    filter (fun s => mem s u) (T :: map snd rest) = [].
  Proof.
    intros H Hu. assert (I := cch_incl _ _ _ _ _ H).
    assert (A : forall l, Forall (fun S => incl S T) l -> filter (fun s => mem s u) l = []).
    { induction l as [|S l IH]; intro HF; auto. inversion HF; subst. simpl.
      assert (mem S u = false) by (apply mem_false; intro C; apply Hu; auto). rewrite H0. auto. }
    apply A. constructor; [apply incl_refl|]. eapply Forall_impl; [|exact I]. simpl. tauto.
  Qed.

  Lemma lev_count rest : forall lo T hi u, CC lo T rest [j] hi -> u <> j ->
    lev (mem T) (nrest rest) u =
    match length (filter (fun s => mem s u) (T :: map snd rest)) with
    | O => None
    | S c => nth_error (map fst rest) c
    end.
  Proof.
    induction rest as [|[l T'] r IH]; intros lo T hi u H Hu.
    - simpl in H. destruct H as [-> _]. simpl.
      destruct (Nat.eqb u j) eqn:Eu; [apply Nat.eqb_eq in Eu; contradiction|]. auto.
    - assert (H0 := H). destruct H as (_ & _ & _ & H4 & _ & _ & _ & _ & H9).
      specialize (IH l T' hi u H9 Hu). cbn [nrest map lev fst snd].
      change (map (fun p => (fst p, mem (snd p))) r) with (nrest r).
      destruct (mem T' u) eqn:Et.
      + rewrite IH. assert (mem T u = true) by (apply mem_In; apply H4; apply mem_In; auto).
        cbn [filter]. rewrite H, Et. cbn [filter length] in *.
        destruct (length (filter (fun s => mem s u) (map snd r))); reflexivity.
      + apply mem_false in Et. assert (C := count_out _ _ _ _ u H9 Et).
        cbn [map snd] in *. destruct (mem T u) eqn:ET.
        * change (filter (fun s => mem s u) (T :: T' :: map snd r))
            with (if mem T u then T :: filter (fun s => mem s u) (T' :: map snd r)
                  else filter (fun s => mem s u) (T' :: map snd r)).
          rewrite ET, C. reflexivity.
        * change (filter (fun s => mem s u) (T :: T' :: map snd r))
            with (if mem T u then T :: filter (fun s => mem s u) (T' :: map snd r)
                  else filter (fun s => mem s u) (T' :: map snd r)).
          rewrite ET, C. reflexivity.
  Qed.

  Lemma count_bound rest lo T hi u c : CC lo T rest [j] hi -> u <> j ->
    length (filter (fun s => mem s u) (T :: map snd rest)) = S c ->
    exists l, nth_error (map fst rest) c = Some l.
  Proof.
    intros H Hu Hc. assert (Hl := lev_count rest lo T hi u H Hu). rewrite Hc in Hl.
    destruct (mem T u) eqn:Et.
    - destruct (lev_in f nodes j yf (mem T) (nrest rest) (cch_pchain _ _ _ _ H) u Hu Et) as (l & K & _).
      exists l. congruence.
    - apply mem_false in Et. rewrite (count_out _ _ _ _ u H Et) in Hc. discriminate.
  Qed.

  (** The new parameters realise the capped vectors. *)
  Lemma y_entry_ok rest lo T hi u : CC lo T rest [j] hi -> (u < n)%nat ->
    exists p, y_entry E (map (fun p => Fin (fst p)) rest) (T :: map snd rest) j y u = Ok p /\
      ((u < j)%nat -> (forall lam, ycap p lam == zval yf (mem T) (nrest rest) lam u) /\
                pmult (M * factP j) p) /\
      (u = j -> p = (get_cut_value E [j], PInf)) /\
      ((j < u)%nat -> p = yat y u).
  Proof.
    intros H Hu. unfold y_entry. destruct (u =? j)%nat eqn:Ej.
    { apply Nat.eqb_eq in Ej. eexists. split; [reflexivity|]. repeat split; intros; try lia; auto. }
    apply Nat.eqb_neq in Ej. destruct (u <? j)%nat eqn:El.
    2:{ apply Nat.ltb_ge in El. eexists. split; [reflexivity|]. repeat split; intros; try lia; auto. }
    apply Nat.ltb_lt in El.
    assert (Hm : pmult (M * factP j) (yat y u)).
    { specialize (HyM u El). destruct (yat y u) as [a [b| |]], HyM as [H1 H2]; split; simpl in *;
        auto using mult_scale. }
    assert (Hl := lev_count rest lo T hi u H Ej).
    destruct (length (filter (fun s => mem s u) (T :: map snd rest))) as [|c] eqn:Ec.
    { eexists. split; [reflexivity|]. split; [|split; intros; lia]. intros _. split; [|exact Hm].
      intro lam. unfold zval. rewrite Hl. reflexivity. }
    destruct (count_bound rest lo T hi u c H Ej Ec) as (l & Kl).
    assert (Kn : nth_error (map (fun p : Q * list nat => Fin (fst p)) rest) c = Some (Fin l)).
    { rewrite <- (map_map fst Fin). apply map_nth_error. exact Kl. }
    rewrite Kn. rewrite Kl in Hl.
    assert (Ml : mult (M * factP j) l).
    { clear -H Kl. apply nth_error_In in Kl. revert lo T H.
      induction rest as [|[l' T'] r IH]; intros lo T H; [destruct Kl|].
      destruct H as (_ & _ & _ & _ & _ & _ & _ & H8 & H9). destruct Kl as [<-|Kl]; eauto. }
    assert (Zv : forall lam, zval yf (mem T) (nrest rest) lam u = ycap (yat y u) (qmx lam l)).
    { intro lam. unfold zval. rewrite Hl. reflexivity. }
    assert (Qm : forall lam, (lam <= l /\ qmx lam l == l) \/ (l <= lam /\ qmx lam l == lam)).
    { intro lam. destruct (Qlt_le_dec lam l); [left|right]; split; try lra;
        [apply qmx_r; lra|apply qmx_l; lra]. }
    assert (New : forall a, mult (M * factP j) a -> dmult (M * factP j) (Fin (Qred (a - l)))).
    { intros a Ha. unfold dmult. apply (mult_wd _ (a - l)); [symmetry; apply Qred_correct|]. apply mult_minus; auto. }
    destruct (yat y u) as [a d] eqn:Ey. cbn [fst snd] in *. destruct Hm as [Hm1 Hm2]. cbn [fst snd] in *.
    specialize (New a Hm1). assert (RC := Qred_correct (a - l)).
    set (r := Qred (a - l)) in *. clearbody r.
    destruct d as [b| |]; [| |contradiction].
    - destruct (Qltb (a - b) l) eqn:Eb.
      + apply Qltb_true in Eb. eexists. split; [reflexivity|]. split; [|split; intros; lia]. intros _.
        split; [|split; auto].
        intro lam. rewrite Zv, !ycap_fin.
        destruct (Qm lam) as [[A B]|[A B]].
        * rewrite (pos_nonpos (lam - (a - r))) by lra.
          rewrite (pos_nonneg (qmx lam l - (a - b))) by lra. lra.
        * rewrite (pos_nonneg (lam - (a - r))) by lra.
          rewrite (pos_nonneg (qmx lam l - (a - b))) by lra. lra.
      + apply Qltb_false in Eb. eexists. split; [reflexivity|]. split; [|split; intros; lia]. intros _.
        split; [|split; auto].
        intro lam. rewrite Zv, !ycap_fin.
        destruct (Qm lam) as [[A B]|[A B]].
        * rewrite (pos_nonpos (lam - (a - b))) by lra. rewrite (pos_nonpos (qmx lam l - (a - b))) by lra. lra.
        * assert (pos (lam - (a - b)) == pos (qmx lam l - (a - b))); [|lra].
          destruct (Qlt_le_dec (lam - (a - b)) 0).
          -- rewrite !pos_nonpos by lra. lra.
          -- rewrite !pos_nonneg by lra. lra.
    - eexists. split; [reflexivity|]. split; [|split; intros; lia]. intros _.
      split; [|split; auto].
      intro lam. rewrite Zv, ycap_fin.
      assert (Yi : ycap (a, PInf) (qmx lam l) == a - qmx lam l) by (unfold ycap; simpl; reflexivity).
      rewrite Yi.
      destruct (Qm lam) as [[A B]|[A B]].
      + rewrite (pos_nonpos (lam - (a - r))) by lra. lra.
      + rewrite (pos_nonneg (lam - (a - r))) by lra. lra.
  Qed.

  (** ** The step function of the chain *)
  Fixpoint cbands (T : list nat) (rest : list (Q * list nat)) : list (dbl * list nat) :=
    match rest with
    | [] => [(PInf, T)]
    | (l, T') :: r => (Fin l, T) :: cbands T' r
    end.

  Lemma cbands_combine rest : forall T,
    combine (map (fun p => Fin (fst p)) rest ++ [PInf]) (T :: map snd rest) = cbands T rest.
  Proof. induction rest as [|[l T'] r IH]; intro T; auto. simpl. f_equal. apply IH. Qed.

  Lemma cbands_act rest : forall T lo hi lam t, CC lo T rest [j] hi -> csorted T -> In j T ->
    act lam (cbands T rest) t ->
    act lam (bands (mem T) (nrest rest)) (mem t) /\ csorted t /\ In j t.
  Proof.
    induction rest as [|[l T'] r IH]; intros T lo hi lam t H HT HJ HA.
    - simpl in HA. inversion HA as [d x r' Hd|q x r' x' Hq Ha]; subst.
      simpl. split; [constructor; auto|auto].
    - destruct H as (_ & H2 & H3 & _ & _ & _ & _ & _ & H9). simpl in HA.
      inversion HA as [d x r' Hd|q x r' x' Hq Ha]; subst.
      + simpl. split; [constructor; auto|auto].
      + destruct (IH T' l hi lam t H9 H2 H3 Ha) as (I1 & I2 & I3). split; auto.
        simpl. apply act_next; auto.
  Qed.
End Stage.

(** ** The merge loop *)
Section Merge.
  Variable good : Q -> list (list nat) -> Prop.

  (** Bands: increasing upper ends, the last one infinite. *)
  Fixpoint wfb {X} (lo : Q) (L : list (dbl * X)) : Prop :=
    match L with
    | [] => False
    | (Fin q, _) :: r => lo < q /\ wfb q r
    | (PInf, _) :: r => r = []
    | (NaN, _) :: _ => False
    end.

  Fixpoint gb (lo : Q) (F : list (dbl * list (list nat))) : Prop :=
    match F with
    | [] => False
    | (d, q) :: r =>
        (forall lam, lo <= lam -> dge d lam -> good lam q) /\
        match d with
        | PInf => r = []
        | Fin x => lo < x /\ gb x r /\ match r with (_, q') :: _ => q' <> q | [] => False end
        | NaN => False
        end
    end.

  Lemma gb_wfb F : forall lo, gb lo F -> wfb lo F.
  Proof.
    induction F as [|[d q] r IH]; intros lo H; simpl in *; auto. destruct H as [_ H].
    destruct d; auto. destruct H as (H1 & H2 & _). auto.
  Qed.

  Lemma gb_act F : forall lo lam q, gb lo F -> lo <= lam -> act lam F q -> good lam q.
  Proof.
    induction F as [|[d x] r IH]; intros lo lam q H Hl HA; inversion HA as [d' x' r' Hd|q0 x' r' x'' Hq Ha]; subst.
    - destruct H as [H _]. auto.
    - destruct H as [_ H]. destruct H as (H1 & H2 & _). eapply IH; eauto.
  Qed.

  Lemma gb_first F lo : gb lo F -> exists d q r, F = (d, q) :: r /\ dge d lo.
  Proof.
    destruct F as [|[d q] r]; intro H; [destruct H|]. exists d, q, r. split; auto.
    destruct H as [_ H]. destruct d; simpl; auto. destruct H. lra.
  Qed.

  Lemma dge_le d x y : dge d y -> x <= y -> dge d x.
  Proof. destruct d; simpl; auto. intros; lra. Qed.

  (** Comparison of two upper ends. *)
  Lemma merge_cases {X Y} lo (A : list (dbl * X)) (B : list (dbl * Y)) :
    wfb lo A -> wfb lo B ->
    exists di p A' dk t B', A = (di, p) :: A' /\ B = (dk, t) :: B' /\
      (forall lam, dge (dmin di dk) lam <-> dge di lam /\ dge dk lam) /\
      ((dmin di dk = PInf /\ dle di dk = true /\ dle dk di = true /\ A' = [] /\ B' = []) \/
       (exists x, dmin di dk = Fin x /\ lo < x /\
          let A2 := if dle di dk then A' else A in
          let B2 := if dle dk di then B' else B in
          wfb x A2 /\ wfb x B2 /\ (length A2 + length B2 < length A + length B)%nat /\
          (forall lam p', x <= lam -> act lam A2 p' -> act lam A p') /\
          (forall lam t', x <= lam -> act lam B2 t' -> act lam B t'))).
  Proof.
    destruct A as [|[di p] A']; [intros []|]. destruct B as [|[dk t] B']; [intros _ []|].
    intros HA HB. exists di, p, A', dk, t, B'. split; auto. split; auto.
    destruct di as [x| |], dk as [z| |]; simpl in HA, HB; try contradiction.
    - destruct HA as [A1 A2]. destruct HB as [B1 B2].
      unfold dmin, dltb, dle. destruct (Qltb z x) eqn:E.
      + apply Qltb_true in E. split; [intro lam; simpl; split; [intros; split; lra|tauto]|].
        right. exists z. split; auto. split; auto.
        assert (K1 : Qle_bool x z = false) by (apply Qle_bool_false; auto).
        assert (K2 : Qle_bool z x = true) by (apply Qle_bool_iff; lra). rewrite K1, K2. cbv zeta.
        split; [simpl; split; auto|]. split; auto. split; [simpl; lia|]. split; auto.
        intros lam t' Hl Ha. apply act_next; auto.
      + apply Qltb_false in E. split; [intro lam; simpl; split; [intros; split; lra|tauto]|].
        right. exists x. split; auto. split; auto.
        assert (K1 : Qle_bool x z = true) by (apply Qle_bool_iff; auto). rewrite K1. cbv zeta.
        destruct (Qle_bool z x) eqn:K2.
        * apply Qle_bool_iff in K2. assert (x == z) by lra.
          split; auto. split.
          -- clear -H B2. destruct B' as [|[[w| |] t'] B']; simpl in *; auto. destruct B2. split; [lra|auto].
          -- split; [simpl; lia|]. split; intros lam v Hl Ha; apply act_next; auto. lra.
        * apply Qle_bool_false in K2. split; auto. split; [simpl; split; auto|].
          split; [simpl; lia|]. split; auto. intros lam v Hl Ha. apply act_next; auto.
    - destruct HA as [A1 A2]. unfold dmin, dltb, dle. split; [intro lam; simpl; tauto|].
      right. exists x. split; auto. split; auto. cbv zeta. split; auto.
      split; [simpl; auto|]. split; [simpl; lia|]. split; auto.
      intros lam v Hl Ha. apply act_next; auto.
    - destruct HB as [B1 B2]. unfold dmin, dltb, dle. split; [intro lam; simpl; tauto|].
      right. exists z. split; auto. split; auto. cbv zeta.
      split; [simpl; auto|]. split; auto. split; [simpl; lia|]. split; auto.
      intros lam v Hl Ha. apply act_next; auto.
    - unfold dmin, dltb, dle. split; [intro lam; simpl; tauto|]. left. auto.
  Qed.

  Lemma merge_ok : forall fuel A B s lo q o,
    (length A + length B < fuel)%nat -> wfb lo A -> wfb lo B -> s < lo ->
    (forall lam, s <= lam -> lam <= lo -> good lam q) ->
    (forall lam p t, lo <= lam -> act lam A p -> act lam B t -> good lam (pexpand p t)) ->
    exists d r, pdt_merge fuel A B ((Fin lo, q) :: o) = Ok (rev o ++ (d, q) :: r) /\ gb s ((d, q) :: r).
  Proof.
    induction fuel as [|fuel IH]; intros A B s lo q o Hfu HA HB Hs Hq Hg; [lia|].
    destruct (merge_cases lo A B HA HB) as (di & p & A' & dk & t & B' & -> & -> & Hd & Hc).
    cbn [pdt_merge].
    assert (Good : forall lam, lo <= lam -> dge (dmin di dk) lam -> good lam (pexpand p t)).
    { intros lam Hl Hdl. apply Hd in Hdl. destruct Hdl as [D1 D2]. apply Hg; auto; apply act_here; auto. }
    destruct Hc as [(Dm & L1 & L2 & -> & ->)|(x & Dm & Hlx & Hrest)].
    - rewrite L1, L2, Dm. rewrite Dm in Good.
      assert (Efin : forall out, pdt_merge fuel [] [] out = Ok (rev out)).
      { intro out. destruct fuel; [simpl in Hfu; lia|reflexivity]. }
      destruct (peqb (pexpand p t) q) eqn:Eq.
      + apply peqb_true in Eq. rewrite Efin. exists PInf, []. split; [reflexivity|].
        simpl. split; auto. intros lam Hl _. destruct (Qlt_le_dec lam lo); [apply Hq; lra|].
        rewrite <- Eq. apply Good; simpl; auto.
      + rewrite Efin. exists (Fin lo), [(PInf, pexpand p t)]. split.
        { simpl. rewrite <- app_assoc. reflexivity. }
        simpl. split; [auto|]. split; auto. split; [split; auto|].
        intro C. apply peqb_true in C. congruence.
    - cbv zeta in Hrest. destruct Hrest as (W1 & W2 & Hlen & T1 & T2). rewrite Dm. rewrite Dm in Good.
      set (A2 := if dle di dk then A' else (di, p) :: A') in *.
      set (B2 := if dle dk di then B' else (dk, t) :: B') in *.
      assert (Hg2 : forall lam p' t', x <= lam -> act lam A2 p' -> act lam B2 t' -> good lam (pexpand p' t')).
      { intros lam p' t' Hl H1 H2. apply Hg; [lra|apply T1; auto|apply T2; auto]. }
      destruct (peqb (pexpand p t) q) eqn:Eq.
      + apply peqb_true in Eq.
        destruct (IH A2 B2 s x q o) as (d & r & R1 & R2); auto; try lia; try lra.
        { intros lam H1 H2. destruct (Qlt_le_dec lam lo); [apply Hq; lra|].
          rewrite <- Eq. apply Good; simpl; auto. }
        exists d, r. auto.
      + destruct (IH A2 B2 lo x (pexpand p t) ((Fin lo, q) :: o)) as (d & r & R1 & R2); auto; try lia; try lra.
        exists (Fin lo), ((d, pexpand p t) :: r). split.
        { rewrite R1. cbn [rev]. rewrite <- app_assoc. reflexivity. }
        cbn [gb]. split; [auto|]. split; [auto|]. split; [exact R2|].
        intro C. apply peqb_true in C. congruence.
  Qed.

  Theorem merge_start fuel A B lo :
    (length A + length B < fuel)%nat -> wfb lo A -> wfb lo B ->
    (forall lam p t, lo <= lam -> act lam A p -> act lam B t -> good lam (pexpand p t)) ->
    exists F, pdt_merge fuel A B [] = Ok F /\ gb lo F.
  Proof.
    destruct fuel as [|fuel]; intros Hfu HA HB Hg; [lia|].
    destruct (merge_cases lo A B HA HB) as (di & p & A' & dk & t & B' & -> & -> & Hd & Hc).
    cbn [pdt_merge].
    assert (Good : forall lam, lo <= lam -> dge (dmin di dk) lam -> good lam (pexpand p t)).
    { intros lam Hl Hdl. apply Hd in Hdl. destruct Hdl as [D1 D2]. apply Hg; auto; apply act_here; auto. }
    destruct Hc as [(Dm & L1 & L2 & -> & ->)|(x & Dm & Hlx & Hrest)].
    - rewrite L1, L2, Dm. rewrite Dm in Good. exists [(PInf, pexpand p t)].
      split; [destruct fuel; [simpl in Hfu; lia|reflexivity]|]. simpl. split; auto.
    - cbv zeta in Hrest. destruct Hrest as (W1 & W2 & Hlen & T1 & T2). rewrite Dm. rewrite Dm in Good.
      set (A2 := if dle di dk then A' else (di, p) :: A') in *.
      set (B2 := if dle dk di then B' else (dk, t) :: B') in *.
      destruct (merge_ok fuel A2 B2 lo x (pexpand p t) []) as (d & r & R1 & R2); try lia; auto.
      + intros lam p' t' Hl H1 H2. apply Hg; [lra|apply T1; auto|apply T2; auto].
      + rewrite R1. simpl. eauto.
  Qed.
End Merge.

(** ** The invariant of the main loop *)
Fixpoint gridM (D : positive) (k : nat) : positive :=
  match k with O => (10 * D)%positive | S k' => (gridM D k' * factP k')%positive end.

Lemma gridM_mult D q : mult D q -> forall k, mult (gridM D k) q.
Proof.
  intros H k. induction k as [|k IH]; cbn [gridM].
  - rewrite Pos.mul_comm. apply mult_scale. auto.
  - apply mult_scale. auto.
Qed.

Lemma gridM_init D k : mult (gridM D k) init_lambda.
Proof.
  induction k as [|k IH]; cbn [gridM]; [|apply mult_scale; auto].
  apply mult_scale. exists (-1)%Z. unfold init_lambda. reflexivity.
Qed.

Lemma gridM_le D k m : (k <= m)%nat -> (gridM D k <= gridM D m)%positive.
Proof.
  induction 1; [lia|]. cbn [gridM]. eapply Pos.le_trans; [exact IHle|].
  rewrite <- (Pos.mul_1_r (gridM D m)) at 1. apply Pos.mul_le_mono_l. lia.
Qed.

Lemma mapr_ok {A B} (f : A -> res B) (R : A -> B -> Prop) l :
  (forall x, In x l -> exists b, f x = Ok b /\ R x b) -> exists bs, mapr f l = Ok bs /\ Forall2 R l bs.
Proof.
  induction l as [|x l IH]; intro H; simpl; [eauto|].
  destruct (H x) as (b & Hb & Rb); [left; auto|]. rewrite Hb. cbn [bind].
  destruct IH as (bs & Hbs & Rbs); [intros; apply H; right; auto|]. rewrite Hbs. cbn [bind]. eauto.
Qed.

Lemma Forall2_seq {B} (R : nat -> B -> Prop) d n : forall s bs, Forall2 R (seq s n) bs ->
  length bs = n /\ forall u, (u < n)%nat -> R (s + u)%nat (nth u bs d).
Proof.
  induction n as [|n IH]; intros s bs H; simpl in H; inversion H as [|? b ? bs' Hb Hbs]; subst.
  - split; auto. intros; lia.
  - destruct (IH _ _ Hbs) as [I1 I2]. split; [simpl; auto|]. intros [|u] Hu; simpl.
    + rewrite Nat.add_0_r. auto.
    + replace (s + S u)%nat with (S s + u)%nat by lia. apply I2. lia.
Qed.

Lemma incut_mult D E X : multiples_of D E -> mult D (incut E X).
Proof.
  intro H. apply mult_qsum. intros a Ha. destruct (negb (X (asrc a)) && X (adst a)); [|apply mult_0].
  destruct (H a Ha) as (z & Hz). exists z. rewrite Hz. unfold Qeq, inject_Z; cbn [Qnum Qden Qmult]; rewrite Pos.mul_1_r; ring.
Qed.

Lemma bands_wfb E j y M rest : forall lo T hi, cch E j y M lo T rest [j] hi -> wfb lo (cbands T rest).
Proof.
  induction rest as [|[l T'] r IH]; intros lo T hi H; simpl; auto.
  destruct H as (H1 & _ & _ & _ & _ & _ & _ & _ & H9). split; auto. eapply IH; eauto.
Qed.

Lemma incut_nonneg E X : nonneg E -> 0 <= incut E X.
Proof.
  intro H. apply qsum_nonneg. intros a Ha. destruct (negb (X (asrc a)) && X (adst a)); [apply H; auto|lra].
Qed.

Section Loop.
  Variable eps : Q.
  Hypothesis Heps : 0 < eps.
  Variable E : graph.
  Variable n : nat.
  Hypothesis HE : graph_on (seq 0 n) E.
  Hypothesis Hs : simple E.
  Hypothesis Hf : forward E.
  Hypothesis Hw : forall a, In a E -> eps <= aw a.
  Variable D : positive.
  Hypothesis HD : multiples_of D E.
  Hypothesis HeM : 10 * eps * inject_Z (Zpos (gridM D n)) < 1.
  (* the inner run *)
  Variable pm : nat -> list (Q * dbl) -> res (list dbl * list cset).
  Hypothesis Hpm : forall j y M, (j < n)%nat ->
    (forall u, (u < j)%nat -> pmult M (yat y u)) -> (forall u, (j <= u)%nat -> yat y u = (0, PInf)) ->
    (forall X, mult M (incut E X)) ->
    mult M init_lambda -> 10 * eps * inject_Z (Zpos (M * factP j)) < 1 ->
    (exists X, win (seq 0 j) j X /\ gval E j y init_lambda X < gval E j y init_lambda (mem [j])) ->
    exists T0 rest, pm j y = Ok (map (fun p => Fin (fst p)) rest, T0 :: map snd rest) /\
      lmin E j y init_lambda T0 /\ rest <> [] /\ cch E j y M init_lambda T0 rest [j] PInf.

  Let f := incut E.
  Definition yvec (y : list (Q * dbl)) (k : nat) (lam : Q) : list (nat * Q) :=
    vec (seq 0 k) (fun u => ycap (yat y u) lam).

  Definition good (y : list (Q * dbl)) (k : nat) (lam : Q) (P : list (list nat)) : Prop :=
    is_partition (seq 0 k) P /\ (forall B, In B P -> csorted B) /\ psorted P /\
    forall B, In B P -> tight f lam (yvec y k lam) (mem B).

  Record inv (k : nat) (st : pdt_state) : Prop := {
    inv_len : length (fst st) = n;
    inv_mult : forall u, (u < k)%nat -> pmult (gridM D k) (yat (fst st) u);
    inv_rest : forall u, (k <= u)%nat -> yat (fst st) u = (0, PInf);
    inv_feas : forall lam, init_lambda <= lam -> feas f lam (yvec (fst st) k lam);
    inv_gb : gb (good (fst st) k) init_lambda (snd st) }.

  Lemma good_optimal y lam P : init_lambda <= lam ->
    feas f lam (yvec y n lam) -> good y n lam P -> optimal E (seq 0 n) lam P.
  Proof.
    intros Hl HF (G1 & G2 & G3 & G4).
    assert (Hm : map fst (yvec y n lam) = seq 0 n) by apply vec_fst.
    apply popt_optimal; auto using seq_NoDup. split; auto. intros R HR. fold f.
    rewrite (tight_value f lam (yvec y n lam) P); rewrite ?Hm; auto using seq_NoDup.
    apply feas_lower; rewrite ?Hm; auto using seq_NoDup.
  Qed.

  Lemma incut_prefix k : incut E (mem (seq 0 k)) == 0.
  Proof.
    apply qsum_zero. intros a Ha. destruct (mem (seq 0 k) (adst a)) eqn:E1; [|rewrite andb_false_r; reflexivity].
    apply mem_In, in_seq in E1. assert (K := Hf a Ha).
    assert (E2 : mem (seq 0 k) (asrc a) = true) by (apply mem_In, in_seq; lia).
    rewrite E2. reflexivity.
  Qed.

  Lemma step_ok j st : (1 <= j < n)%nat -> inv j st ->
    exists st', pdt_step pm E n st j = Ok st' /\ inv (S j) st'.
  Proof.
    intros Hj HI. destruct st as [y A]. destruct HI as [I1 I2 Ir I3 I4]. cbn [fst snd] in *.
    assert (Hjn : (j < n)%nat) by lia.
    assert (HfM : forall X, mult (gridM D j) (incut E X)).
    { intro X. apply gridM_mult. apply incut_mult; auto. }
    assert (HeMj : 10 * eps * inject_Z (Zpos (gridM D j * factP j)) < 1).
    { eapply Qle_lt_trans; [|exact HeM]. change (gridM D j * factP j)%positive with (gridM D (S j)).
      assert (L := gridM_le D (S j) n ltac:(lia)).
      assert (inject_Z (Zpos (gridM D (S j))) <= inject_Z (Zpos (gridM D n))) by (rewrite <- Zle_Qle; lia).
      assert (0 <= 10 * eps) by lra. rewrite (Qmult_comm (10 * eps)), (Qmult_comm (10 * eps)).
      apply Qmult_le_compat_r; auto. }
    assert (HX : exists X, win (seq 0 j) j X /\ gval E j y init_lambda X < gval E j y init_lambda (mem [j])).
    { exists (mem (seq 0 (S j))). split.
      { intros x Hx. apply mem_In, in_seq in Hx. destruct (Nat.eq_dec x j); [right; auto|left; apply in_seq; lia]. }
      destruct (gb_first _ _ _ I4) as (d & q & r & -> & Hd).
      destruct (proj1 I4 init_lambda ltac:(lra) Hd) as (G1 & _ & _ & G4).
      assert (Hm : map fst (yvec y j init_lambda) = seq 0 j) by apply vec_fst.
      assert (TV := tight_value f init_lambda (yvec y j init_lambda) q
                ltac:(rewrite Hm; apply seq_NoDup) ltac:(rewrite Hm; auto) G4).
      rewrite pval_sum in TV.
      assert (PL := part_length_pos (seq 0 j) (seq_NoDup j 0) q ltac:(destruct j; [lia|discriminate]) G1).
      assert (P1 : 0 < qsum (fun B => f (mem B) - init_lambda) q).
      { destruct q as [|B q]; [simpl in PL; lia|]. cbn [qsum].
        assert (0 <= qsum (fun B => f (mem B) - init_lambda) q).
        { apply qsum_nonneg. intros C _. assert (0 <= f (mem C)); [|unfold init_lambda; lra].
          apply incut_nonneg. exact (graph_on_nonneg _ _ HE). }
        assert (0 <= f (mem B)) by (apply incut_nonneg; exact (graph_on_nonneg _ _ HE)).
        unfold init_lambda in *. lra. }
      rewrite TV in P1.
      unfold gval. assert (F1 : fj f j (mem (seq 0 (S j))) == 0).
      { unfold fj. rewrite <- (incut_prefix (S j)). apply incut_ext. intro x.
        destruct (Nat.eqb x j) eqn:Ex; auto. apply Nat.eqb_eq in Ex. subst.
        symmetry. cbn [orb]. apply mem_In, in_seq. lia. }
      assert (F2 : 0 <= fj f j (mem [j])) by (apply incut_nonneg; exact (graph_on_nonneg _ _ HE)).
      assert (V1 : vs (seq 0 j) (fun u => ycap (yat y u) init_lambda) (mem (seq 0 (S j))) ==
                   qsum snd (yvec y j init_lambda)).
      { unfold yvec, vec. rewrite qsum_map. apply qsum_ext. intros u Hu. apply in_seq in Hu.
        assert (K : mem (seq 0 (S j)) u = true) by (apply mem_In, in_seq; lia). rewrite K. reflexivity. }
      assert (V2 : vs (seq 0 j) (fun u => ycap (yat y u) init_lambda) (mem [j]) == 0).
      { apply qsum_zero. intros u Hu. apply in_seq in Hu.
        assert (K : mem [j] u = false) by (apply mem_false; intros [C|[]]; lia). rewrite K. reflexivity. }
      fold f. rewrite F1, V1, V2. lra. }
    destruct (Hpm j y (gridM D j) Hjn I2 Ir HfM (gridM_init D j) HeMj HX)
      as (T0 & rest & R1 & R2 & R3 & R4).
    unfold pdt_step. cbn [fst snd]. rewrite R1. cbn [bind fst snd].
    set (Ry := fun u (p : Q * dbl) =>
      ((u < j)%nat -> (forall lam, ycap p lam == zval (fun u l => ycap (yat y u) l) (mem T0) (nrest rest) lam u) /\
                pmult (gridM D j * factP j) p) /\
      (u = j -> p = (get_cut_value E [j], PInf)) /\
      ((j < u)%nat -> p = yat y u)).
    destruct (mapr_ok (y_entry E (map (fun p => Fin (fst p)) rest) (T0 :: map snd rest) j y) Ry (seq 0 n))
      as (y' & Y1 & Y2).
    { intros u Hu. apply in_seq in Hu. unfold Ry.
      apply (y_entry_ok eps E n j Hjn y (gridM D j) I2 rest init_lambda T0 PInf u R4). lia. }
    rewrite Y1. cbn [bind]. destruct (Forall2_seq Ry (0, PInf) n 0 y' Y2) as [Y3 Y4].
    assert (Y5 : forall u, (u < n)%nat -> Ry u (yat y' u)) by (intros u Hu; apply (Y4 u Hu)). clear Y4.
    assert (Ln : (length (T0 :: map snd rest) =? S (length (map (fun p => Fin (fst p)) rest)))%nat = true).
    { apply Nat.eqb_eq. simpl. rewrite !map_length. auto. }
    rewrite Ln, cbands_combine.
    assert (WinT : win (seq 0 j) j (mem T0)) by apply R2.
    assert (Hup : up f (seq 0 j) j (fun u l => ycap (yat y u) l) (mem T0) init_lambda).
    { apply min_up; auto. }
    assert (Hpc := cch_pchain E j y (gridM D j) rest init_lambda T0 PInf R4).
    assert (HN : ~ In j (seq 0 j)) by (rewrite in_seq; lia).
    assert (Stage : forall lam p t, init_lambda <= lam -> act lam A p -> act lam (cbands T0 rest) t ->
       feas f lam (yvec y' (S j) lam) /\ good y' (S j) lam (pexpand p t)).
    { intros lam p t Hl HA HB.
      assert (Gp := gb_act _ _ _ _ _ I4 Hl HA). destruct Gp as (G1 & G2 & G3 & G4).
      destruct (cbands_act E j y (gridM D j) rest T0 init_lambda PInf lam t R4 (lm_sorted _ _ _ _ _ R2)
                  (lm_j _ _ _ _ _ R2) HB) as (B1 & B2 & B3).
      destruct (stage_ok f (incut_ext E) (fun A B _ => incut_sub E A B (graph_on_nonneg _ _ HE))
                 (seq 0 j) (seq_NoDup j 0) j HN (fun u l => ycap (yat y u) l) (fun u l l' => ycap_anti (yat y u) l l')
                 (mem T0) (nrest rest) init_lambda lam (mem t) (fun u => ycap (yat y' u) lam) p t) as [S1 S2];
        auto.
      - exact (I3 lam Hl).
      - intros u Hu. apply in_seq in Hu. apply Y5; lia.
      - destruct (Y5 j Hjn) as (_ & Yj & _). rewrite (Yj eq_refl).
        assert (C1 := cut_value_FJ E j [j] ltac:(left; auto)).
        assert (K : fj f j (mem [j]) == fj f j (fun _ => false)).
        { apply incut_ext. intro x. destruct (Nat.eqb x j) eqn:Ex; auto. apply mem_false. intros [C|[]]. apply Nat.eqb_neq in Ex. auto. }
        fold f in C1. assert (C2 : ycap (get_cut_value E [j], PInf) lam == get_cut_value E [j] - lam)
          by (unfold ycap; simpl; reflexivity).
        rewrite C2, C1, K. reflexivity.
      - unfold yvec, good, yvec. rewrite seq_S. cbn [plus]. split; [exact S1|]. split; [|split; [|split; [|exact S2]]].
        + apply pexpand_partition; auto.
          * assert (Sq := seq_NoDup (S j) 0). rewrite seq_S in Sq. exact Sq.
          * assert (Wt : incl t T0).
            { clear -HB R4 Hjn. assert (I := cch_incl E n j Hjn y (gridM D j) rest _ _ _ _ R4).
              assert (J : forall rest T, act lam (cbands T rest) t -> In t (T :: map snd rest)).
              { clear. induction rest as [|[l T'] r IH]; intros T H; inversion H; subst; simpl; auto.
                right. apply IH. auto. }
              destruct (J _ _ HB) as [->|Ht]; [apply incl_refl|]. rewrite Forall_forall in I. apply I. auto. }
            intros x Hx. apply in_app_iff. destruct (WinT x (proj2 (mem_In _ _) (Wt x Hx))); [left; auto|right; left; auto].
        + apply pexpand_csorted; auto.
        + apply pexpand_sorted; auto. }
    assert (Act : forall X (L : list (dbl * X)) lo lam, wfb lo L -> lo <= lam -> exists x, act lam L x).
    { clear. intros X L. induction L as [|[[q| |] x] r IH]; intros lo lam H Hl; simpl in H; try contradiction.
      - destruct H as [H1 H2]. destruct (Qlt_le_dec lam q).
        + exists x. apply act_here. simpl. lra.
        + destruct (IH q lam H2 q0) as (x' & Hx'). exists x'. apply act_next; auto.
      - exists x. apply act_here. simpl. auto. }
    assert (WA := gb_wfb _ _ _ I4). assert (WB := bands_wfb _ _ _ _ _ _ _ _ R4).
    destruct (merge_start (good y' (S j)) (S (length A + length (cbands T0 rest))) A (cbands T0 rest) init_lambda)
      as (F & F1 & F2); auto.
    { intros lam p t Hl H1 H2. apply Stage; auto. }
    rewrite F1. cbn [bind]. exists (y', F). split; auto. split; cbn [fst snd]; auto.
    - intros u Hu. cbn [gridM]. destruct (Nat.eq_dec u j) as [->|Hne].
      + destruct (Y5 j Hjn) as (_ & Yj & _). rewrite (Yj eq_refl). split; cbn [fst snd]; [|exact I].
        apply mult_scale. change (get_cut_value E [j]) with (incut E (mem [j])). apply HfM.
      + apply Y5; lia.
    - intros u Hu. destruct (Nat.lt_ge_cases u n) as [Hun|Hun].
      + destruct (Y5 u Hun) as (_ & _ & Yr). rewrite (Yr ltac:(lia)). apply Ir. lia.
      + unfold yat. apply nth_overflow. lia.
    - intros lam Hl. destruct (Act _ _ _ _ WA Hl) as (p & Hp). destruct (Act _ _ _ _ WB Hl) as (t & Ht).
      apply (Stage lam p t); auto.
  Qed.

  Lemma fold_ok k : forall s st, (1 <= s)%nat -> (s + k <= n)%nat -> inv s st ->
    exists st', foldr (pdt_step pm E n) st (seq s k) = Ok st' /\ inv (s + k) st'.
  Proof.
    induction k as [|k IH]; intros s st H1 H2 HI; simpl.
    - exists st. rewrite Nat.add_0_r. auto.
    - destruct (step_ok s st ltac:(lia) HI) as (st1 & S1 & S2). rewrite S1. cbn [bind].
      destruct (IH (S s) st1 ltac:(lia) ltac:(lia) S2) as (st2 & S3 & S4). exists st2. split; auto.
      replace (s + S k)%nat with (S s + k)%nat by lia. auto.
  Qed.

  Lemma inv_start : (1 <= n)%nat -> inv 1 (repeat (0, PInf) n, [(PInf, [[0%nat]])]).
  Proof.
    intro Hn. assert (Y0 : yat (repeat (0, PInf) n) 0 = (0, PInf)) by (destruct n; [lia|reflexivity]).
    assert (V : forall lam X, xsum (yvec (repeat (0, PInf) n) 1 lam) X == if X 0%nat then 0 - lam else 0).
    { intros lam X. unfold yvec. rewrite vec_xsum. cbn [seq qsum]. rewrite Y0. unfold ycap; cbn [fst snd].
      destruct (X 0%nat); lra. }
    assert (F0 : forall X, within X [0%nat] -> incut E X == 0).
    { intros X HX. apply qsum_zero. intros a Ha. destruct (X (adst a)) eqn:Ed; [|rewrite andb_false_r; reflexivity].
      apply HX in Ed. destruct Ed as [Ed|[]]. assert (K := Hf a Ha). lia. }
    split; cbn [fst snd].
    - apply repeat_length.
    - intros u Hu. replace u with 0%nat by lia. rewrite Y0. split; cbn [fst snd]; [apply mult_0|exact I].
    - intros u _. unfold yat. clear. revert u. induction n as [|m IH]; intros [|u]; cbn; auto.
    - intros lam Hl X (x & Hx) HX. rewrite V. unfold f. unfold yvec in HX. rewrite vec_fst in HX.
      rewrite (F0 X) by auto. assert (K := HX x Hx). destruct K as [K|[]]. subst. rewrite Hx. lra.
    - cbn [gb]. split; auto. intros lam Hl _. split; [|split; [|split]].
      + split; [simpl; auto|intros [C|[]]; discriminate].
      + intros B [<-|[]]. repeat constructor.
      + repeat constructor.
      + intros B [<-|[]]. unfold tight. rewrite V. unfold f. rewrite (F0 (mem [0%nat])).
        * reflexivity.
        * intros x Hx. apply mem_In; auto.
  Qed.

  (** From the bands to the principal sequence. *)
  Lemma gb_seq y F : forall lo, gb (good y n) lo F -> init_lambda <= lo ->
    (forall lam, init_lambda <= lam -> feas f lam (yvec y n lam)) ->
    exists P cs Ps, map fst F = map Fin cs ++ [PInf] /\ map snd F = P :: Ps /\
      seq_chain Qlt (optimal E (seq 0 n)) (Some lo) P cs Ps /\ StronglySorted Qlt (lo :: cs).
  Proof.
    induction F as [|[d q] r IH]; intros lo H Hl HF; [destruct H|]. destruct H as [H1 H2].
    assert (O : forall lam, lo <= lam -> dge d lam -> optimal E (seq 0 n) lam q).
    { intros lam L1 L2. apply (good_optimal y); [lra|apply HF; lra|auto]. }
    destruct d as [x| |]; [|subst r|contradiction].
    - destruct H2 as (H2 & H3 & H4). destruct (IH x H3 ltac:(lra) HF) as (P & cs & Ps & K1 & K2 & K3 & K4).
      exists q, (x :: cs), (P :: Ps). cbn [map fst snd]. rewrite K1, K2.
      split; [reflexivity|]. split; [reflexivity|]. split.
      + cbn [seq_chain]. split; [auto|]. split; [intros; apply O; simpl; auto|].
        destruct r as [|[d' q'] r]; [destruct H4|]. cbn [map snd] in K2. injection K2 as <- K2.
        assert (GP := proj1 H3 x ltac:(lra)).
        assert (Dx : exists w, x < w /\ dge d' w).
        { destruct d' as [w| |]; simpl in *; [exists w; split; [tauto|lra]|exists (x + 1); split; [lra|auto]|tauto]. }
        destruct Dx as (w & Hw1 & Hw2).
        assert (Gw := proj1 H3 w ltac:(lra) Hw2). assert (Gl := H1 lo ltac:(lra) ltac:(simpl; lra)).
        assert (Ow : optimal E (seq 0 n) w q') by (apply (good_optimal y); [lra|apply HF; lra|auto]).
        assert (Ol : optimal E (seq 0 n) lo q) by (apply O; simpl; lra).
        assert (R : refines q' q) by (apply (optimal_nested E (seq 0 n) w lo); auto using seq_NoDup; lra).
        split; [exact R|]. split; [|exact K3].
        destruct Gw as (W1 & W2 & W3 & _). destruct Gl as (L1 & L2 & L3 & _).
        assert (Len := refines_length (seq 0 n) (seq_NoDup n 0) q' q W1 L1 R).
        destruct (Nat.eq_dec (length q) (length q')) as [Heq|]; [|lia]. exfalso. apply H4.
        apply (canonical_eq (seq 0 n)); auto using seq_NoDup.
      + constructor; [exact K4|]. inversion K4 as [|? ? S1 S2]; subst. constructor; auto.
        eapply Forall_impl; [|exact S2]. simpl. intros; lra.
    - exists q, [], []. split; [reflexivity|]. split; [reflexivity|]. split; [|repeat constructor].
      cbn [seq_chain]. intros lam L. apply O; simpl; auto.
  Qed.

  Lemma seq_last E' vs P cs : forall lo Ps, seq_chain Qlt (optimal E' vs) (Some lo) P cs Ps ->
    exists b, forall lam, b <= lam -> optimal E' vs lam (last Ps P).
  Proof.
    revert P. induction cs as [|c cs IH]; intros P lo [|P' Ps] H; try (simpl in H; contradiction).
    - exists lo. exact H.
    - destruct H as (_ & _ & _ & _ & H). destruct (IH P' c Ps H) as (b & Hb). exists b.
      assert (L : last (P' :: Ps) P = last Ps P'); [|rewrite L; auto].
      clear. revert P P'. induction Ps as [|P2 Ps IH]; intros P P'; auto.
      change (last (P' :: P2 :: Ps) P) with (last (P2 :: Ps) P). rewrite (IH P P2), (IH P' P2). auto.
  Qed.

  Theorem loop_correct : (1 <= n)%nat ->
    exists y cs Ps, pdt_loop pm E n [] = Ok (y, (map Fin cs, Ps)) /\ IsPSP E (seq 0 n) cs Ps.
  Proof.
    intro Hn. destruct (fold_ok (n - 1) 1 _ ltac:(lia) ltac:(lia) (inv_start Hn)) as (st & S1 & S2).
    replace (1 + (n - 1))%nat with n in S2 by lia. destruct S2 as [I1 I2 Ir I3 I4].
    destruct (gb_seq _ _ init_lambda I4 ltac:(lra) I3) as (P & cs & Ps & K1 & K2 & K3 & K4).
    exists (fst st), cs, (P :: Ps). split.
    { unfold pdt_loop. assert (N0 : (n =? 0)%nat = false) by (apply Nat.eqb_neq; lia).
      rewrite N0. cbn [app length]. rewrite Nat.sub_0_r, S1. cbn [bind snd]. rewrite K1, K2, removelast_last. auto. }
    assert (Hne : seq 0 n <> []) by (destruct n; [lia|discriminate]).
    assert (Hnd := seq_NoDup n 0).
    assert (OP : optimal E (seq 0 n) init_lambda P).
    { destruct cs as [|c cs], Ps as [|P' Ps]; try (simpl in K3; contradiction).
      - apply K3. lra.
      - destruct K3 as (A1 & A2 & _). apply A2; lra. }
    assert (LP : length P = 1%nat).
    { assert (L1 := part_length_pos (seq 0 n) Hnd P Hne (proj1 OP)).
      assert (H := proj2 OP [seq 0 n] (one_block_part (seq 0 n) Hne)).
      unfold hval in H. assert (C0 := crossing_nonneg E P (graph_on_nonneg _ _ HE)).
      assert (C1 : crossing E [seq 0 n] == 0).
      { rewrite <- (incut_crossing E (seq 0 n)); auto.
        - cbn [qsum]. rewrite incut_prefix. lra.
        - apply one_block_part; auto.
        - intros a Ha. apply HE; auto. }
      rewrite C1 in H. cbn [length] in H. unfold init_lambda in H.
      assert (Q1 : qn (length P) <= qn 1) by lra. apply qn_le_inv in Q1. lia. }
    split; [apply part_length_one; auto; apply OP|]. split.
    - destruct (seq_last E (seq 0 n) P cs init_lambda Ps K3) as (b & Hb).
      assert (La : last (P :: Ps) P = last Ps P) by (destruct Ps; reflexivity). rewrite La.
      set (w := if Qltb b (total E + 2) then total E + 2 else b).
      assert (Hw1 : b <= w /\ total E + 1 < w).
      { unfold w. destruct (Qltb b (total E + 2)) eqn:Eb.
        - apply Qltb_true in Eb. lra.
        - apply Qltb_false in Eb. lra. }
      assert (Ow := Hb w (proj1 Hw1)).
      apply part_length_full; auto; [apply Ow|].
      assert (R : refines (last Ps P) (singletons (seq 0 n))).
      { apply (optimal_nested E (seq 0 n) w (total E + 1)); auto; [|lra].
        apply singletons_optimal; auto. }
      assert (L1 := refines_length (seq 0 n) Hnd _ _ (proj1 Ow) (singletons_part (seq 0 n)) R).
      assert (L2 := part_length_le (seq 0 n) Hnd _ (proj1 Ow)).
      unfold singletons in L1. rewrite map_length in L1. lia.
    - assert (Below : forall lam, lam <= init_lambda -> optimal E (seq 0 n) lam P).
      { intros lam Hl. apply near_optimal_0. apply (near_below E (seq 0 n) 0 init_lambda); auto.
        - apply near_optimal_0; auto.
        - intros R HR. rewrite LP. apply part_length_pos with (vs := seq 0 n); auto. }
      destruct cs as [|c cs], Ps as [|P' Ps]; try (simpl in K3; contradiction).
      + cbn [seq_chain] in *. intros lam _. destruct (Qlt_le_dec lam init_lambda); [apply Below; lra|apply K3; auto].
      + destruct K3 as (A1 & A2 & A3). cbn [seq_chain]. split; auto. split; auto.
        intros lam _ Hl. destruct (Qlt_le_dec lam init_lambda); [apply Below; lra|apply A2; auto].
  Qed.
End Loop.

Section PDT.
  Variable mc : solver.
  Hypothesis Hmc : MinSinkCutSpec mc.
  Variable eps : Q.
  Hypothesis Heps : 0 < eps.
  Variable E : graph.
  Variable n : nat.
  Hypothesis HE : graph_on (seq 0 n) E.
  Hypothesis Hs : simple E.
  Hypothesis Hf : forward E.
  Hypothesis Hw : forall a, In a E -> eps <= aw a.
  Variable D : positive.
  Hypothesis HD : multiples_of D E.
  Hypothesis HeM : 10 * eps * inject_Z (Zpos (gridM D n)) < 1.

  Lemma pmf_spec : forall j y M, (j < n)%nat ->
    (forall u, (u < j)%nat -> pmult M (yat y u)) -> (forall u, (j <= u)%nat -> yat y u = (0, PInf)) ->
    (forall X, mult M (incut E X)) ->
    mult M init_lambda -> 10 * eps * inject_Z (Zpos (M * factP j)) < 1 ->
    (exists X, win (seq 0 j) j X /\ gval E j y init_lambda X < gval E j y init_lambda (mem [j])) ->
    exists T0 rest, pmf_run mc eps E n j y = Ok (map (fun p => Fin (fst p)) rest, T0 :: map snd rest) /\
      lmin E j y init_lambda T0 /\ rest <> [] /\ cch E j y M init_lambda T0 rest [j] PInf.
  Proof.
    intros j y M Hj H1 _ H2 H3 H4 H5.
    exact (pmf_run_ok mc Hmc eps Heps E n j Hj HE Hs Hf Hw y M H1 H2 H3 H4 H5).
  Qed.

  Theorem pdt_correct : (1 <= n)%nat ->
    exists cs Ps, pdt_run mc eps E n = Ok (map Fin cs, Ps) /\ IsPSP E (seq 0 n) cs Ps.
  Proof.
    intro Hn.
    destruct (loop_correct eps Heps E n HE Hf D HD HeM _ pmf_spec Hn) as (y & cs & Ps & R1 & R2).
    exists cs, Ps. split; auto. unfold pdt_run, pdt_run_from. rewrite R1. reflexivity.
  Qed.
End PDT.
