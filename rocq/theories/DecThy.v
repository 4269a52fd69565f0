(** * DecThy: one level of the divide-and-contract recursion shared by PSP_I::split and HPSP::split.

    The graph state is described by a map [p] sending every original node to the live node it was
    contracted into; the children of the current tree node are cluster trees [ts]. *)
From Coq Require Import Sorted.
From Verif Require Import Base Spec MSets SetsThy PartThy SubThy MaxFlow CutThy MDil DilThy
  SeqThy MContract ContractThy MPSPI TreeThy.

Definition hrep (t : ht) : nat := hd 0%nat (hset t).

Lemma hd_sorted_min s x : csorted s -> In x s -> (hd 0%nat s <= x)%nat.
Proof.
  intros H Hx. destruct s as [|a s]; [destruct Hx|]. simpl. inversion H as [|? ? _ F]; subst.
  destruct Hx as [<-|Hx]; auto. rewrite Forall_forall in F. apply F in Hx. lia.
Qed.

Lemma hd_In (s : list nat) : s <> [] -> In (hd 0%nat s) s.
Proof. destruct s; [congruence|left; auto]. Qed.

Lemma nd_filter_concat {A} (f : A -> list nat) (q : A -> bool) l :
  NoDup (concat (map f l)) -> NoDup (concat (map f (filter q l))).
Proof.
  induction l as [|a l IH]; simpl; intro H; auto.
  apply NoDup_app_inv in H. destruct H as (H1 & H2 & H3).
  destruct (q a); simpl; auto. apply NoDup_app_intro; auto.
  intros x Hx Hc. apply (H3 x Hx). apply in_concat in Hc. destruct Hc as (B & B1 & B2).
  apply in_map_iff in B1. destruct B1 as (b & <- & B3). apply filter_In in B3. apply in_concat.
  exists (f b). split; auto. apply in_map. tauto.
Qed.

Lemma nd_reps ts :
  NoDup (concat (map hset ts)) -> (forall t, In t ts -> hset t <> []) -> NoDup (map hrep ts).
Proof.
  induction ts as [|t ts IH]; simpl; intros H Hn; [constructor|].
  apply NoDup_app_inv in H. destruct H as (H1 & H2 & H3).
  constructor; auto. intro C. apply in_map_iff in C. destruct C as (u & C1 & C2).
  apply (H3 (hrep t)).
  - apply hd_In. apply Hn; auto.
  - apply in_concat. exists (hset u). split; [apply in_map; auto|]. rewrite <- C1. apply hd_In.
    apply Hn; auto.
Qed.

Lemma same_part_sym P u v : same_part P u v = same_part P v u.
Proof. unfold same_part. induction P; simpl; auto. rewrite IHP, andb_comm. reflexivity. Qed.

Lemma lab_above_mono s a b t : a <= b -> lab_above s b t -> lab_above s a t.
Proof.
  intros H [K|K]; [left; auto|]. right. destruct s; lra.
Qed.

(** Restricting [cbest] to one block of a coarser partition. *)
Lemma cbest_block E X beta (L R : list (list nat)) Y :
  NoDup X -> is_partition X (L ++ R) -> is_partition Y L -> incl Y X -> Y <> [] ->
  cbest (sub E X) X beta 0 (L ++ R) -> cbest (sub E Y) Y beta 0 L.
Proof.
  intros Hnd HP HL HY Hne Hb Z HZ HR.
  assert (P1 : is_partition X ([Y] ++ R)).
  { apply (part_replace X L [Y] R); auto.
    - simpl. rewrite app_nil_r. apply HL.
    - intros [C|[]]. auto. }
  simpl in P1.
  assert (P2 : is_partition X (Z ++ R)) by (apply (expand_part X R Y Z); auto).
  assert (H := Hb (Z ++ R) P2).
  assert (RF : refines (L ++ R) (Z ++ R)).
  { intros B HB. apply in_app_or in HB. destruct HB as [HB|HB].
    - destruct (HR B HB) as (C & C1 & C2). exists C. split; auto. apply in_or_app; auto.
    - exists B. split; [apply in_or_app; auto|apply incl_refl]. }
  specialize (H RF).
  rewrite (expand_hval X (sub E X) beta R Y L Hnd P1 HL) in H.
  rewrite (expand_hval X (sub E X) beta R Y Z Hnd P1 HZ) in H.
  rewrite (sub_sub E X Y HY) in H. lra.
Qed.

(** What split needs of the truncation on the live graphs it is called with. *)
Definition TruncSpec (tr : Q -> graph -> list nat -> Q * list (list nat)) (eps : Q) (vs : list nat) (E : graph) : Prop :=
  forall sb R0 g, graph_on R0 sb -> simple sb -> ordered sb R0 -> NoDup R0 ->
    (2 <= length R0)%nat -> (length R0 <= length vs)%nat ->
    (forall D, multiples_of D E -> multiples_of D sb) -> g * (qn (length R0) - 1) == qsum aw sb ->
    let r := tr g sb R0 in
    optimal sb R0 g (snd r) /\ (- g - eps <= fst r -> - g - eps <= hval sb g (snd r)) /\
    forall B, In B (snd r) -> csorted B.

(** The extra property hpsp needs. *)
Definition FinestSpec (tr : Q -> graph -> list nat -> Q * list (list nat)) : Prop :=
  forall g sb R0 R, NoDup R0 -> graph_on R0 sb -> simple sb -> ordered sb R0 ->
    optimal sb R0 g R -> refines (snd (tr g sb R0)) R.

Lemma finest_of_sink mc : MinSinkCutSpec mc -> FinestSpec (dil_run mc).
Proof. intros H g sb R0 R N G S O Ho. apply dil_run_finest; auto. apply H. Qed.

Lemma trunc_of_exact mc eps vs E : MinCutSpec mc -> TruncSpec (dil_run mc) eps vs E.
Proof.
  intros H sb R0 g H1 H2 H3 H4 _ _ _ _.
  destruct (dil_run_correct mc H g sb R0 H4 H1 H2 H3) as (D1 & D2 & D3). cbv zeta.
  split; auto. split; auto. rewrite D2. auto.
Qed.

Lemma qsum_multiple {A} (f : A -> Q) D l : (forall x, In x l -> exists z : Z, f x == z # D) ->
  exists z : Z, qsum f l == z # D.
Proof.
  induction l as [|a l IH]; simpl; intro H; [exists 0%Z; reflexivity|].
  destruct IH as (z & Hz); auto. destruct (H a (or_introl eq_refl)) as (z1 & Hz1).
  exists (z1 + z)%Z. rewrite Hz, Hz1. unfold Qeq, Qplus. simpl Qnum; simpl Qden. rewrite Pos2Z.inj_mul. ring.
Qed.

Lemma qsum_pick (l : graph) a : simple l -> In a l -> (forall b, In b l -> (asrc b < adst b)%nat) ->
  gsum (fun u v => if ((u =? asrc a) && (v =? adst a) || (u =? adst a) && (v =? asrc a))%nat then 1 else 0) l == aw a.
Proof.
  unfold gsum, simple. induction l as [|b l IH]; cbn [map qsum]; intros Hs Ha Hf; [destruct Ha|].
  inversion Hs as [|? ? N1 N2]; subst. destruct Ha as [->|Ha].
  - rewrite !Nat.eqb_refl. cbn [andb orb].
    rewrite (qsum_zero _ l); [ring|]. intros c Hc.
    assert (Fc := Hf c (or_intror Hc)). assert (Fa := Hf a (or_introl eq_refl)).
    destruct ((asrc c =? asrc a) && (adst c =? adst a))%nat eqn:E1.
    + exfalso. apply andb_true_iff in E1. destruct E1 as [E1 E2]. apply Nat.eqb_eq in E1, E2.
      apply N1. apply in_map_iff. exists c. split; [congruence|auto].
    + destruct ((asrc c =? adst a) && (adst c =? asrc a))%nat eqn:E2; cbn [orb]; [|ring].
      apply andb_true_iff in E2. destruct E2 as [E2 E3]. apply Nat.eqb_eq in E2, E3. lia.
  - rewrite IH; auto; [|intros; apply Hf; right; auto].
    assert (Fb := Hf b (or_introl eq_refl)). assert (Fa := Hf a (or_intror Ha)).
    destruct ((asrc b =? asrc a) && (adst b =? adst a))%nat eqn:E1.
    + exfalso. apply andb_true_iff in E1. destruct E1 as [E1 E2]. apply Nat.eqb_eq in E1, E2.
      apply N1. apply in_map_iff. exists a. split; [congruence|auto].
    + destruct ((asrc b =? adst a) && (adst b =? asrc a))%nat eqn:E2; cbn [orb]; [|ring].
      apply andb_true_iff in E2. destruct E2 as [E2 E3]. apply Nat.eqb_eq in E2, E3. lia.
Qed.

Section Dec.
  Variable vs : list nat.
  Hypothesis Hvs : csorted vs.
  Variable E : graph.
  Hypothesis HE : graph_on vs E.
  Variable tr : Q -> graph -> list nat -> Q * list (list nat).
  Variable s : bool.
  Hypothesis Hms : s = true -> FinestSpec tr.
  Variable eps : Q.
  Hypothesis Heps : 0 < eps.
  Hypothesis Hmc : TruncSpec tr eps vs E.
  Variable e : Q.
  Hypothesis He : 0 <= e.
  (** What the tolerance test of split establishes; [e = eps] in general. *)
  Hypothesis Hgap : forall X Ps R g,
    incl X vs -> NoDup X -> is_partition X Ps -> is_partition X R -> (2 <= length Ps)%nat ->
    g * (qn (length Ps) - 1) == crossing (sub E X) Ps ->
    - g - eps <= hval (sub E X) g R -> - g - e <= hval (sub E X) g R.

  (** The live graph is the contraction of [E] by [p]. *)
  Record Sok (G : gst) (p : nat -> nat) : Prop := {
    S_ok : Gok eps G;
    S_sum : forall f, sym0 f -> gsum f (garcs G) == gsum (fun u v => f (p u) (p v)) E;
    S_img : forall v, In v (gnodes G) <-> exists x, In x vs /\ p x = v;
    S_p : forall x, In x vs -> In (p x) vs /\ (p x <= x)%nat /\ p (p x) = p x
  }.

  Record Tok (p : nat -> nat) (X : list nat) (ts : list ht) : Prop := {
    T_sorted : csorted X;
    T_incl : incl X vs;
    T_hok : forall t, In t ts -> hok E s e t;
    T_part : is_partition X (map hset ts);
    T_rep : forall t x, In t ts -> In x vs -> (In x (hset t) <-> p x = hrep t)
  }.

  Definition Pre (G : gst) (p : nat -> nat) (X : list nat) (ts : list ht) (beta : Q) : Prop :=
    Sok G p /\ Tok p X ts /\ (2 <= length ts)%nat /\ cbest (sub E X) X beta 0 (map hset ts) /\
    (forall t, In t ts -> lab_above s beta t).

  Definition Post (p : nat -> nat) (X : list nat) (ts : list ht) (beta : Q)
             (G' : gst) (p' : nat -> nat) (g : Q) (ts' : list ht) : Prop :=
    hok E s e (HT X g ts') /\ refines (map hset ts) (map hset ts') /\ Sok G' p' /\
    (forall x, In x vs -> ~ In x X -> p' x = p x) /\
    (forall x, In x X -> In (p' x) (map hrep ts)) /\ g <= beta /\
    (forall t x, In t ts' -> In x vs -> (In x (hset t) <-> p' x = hrep t)).

  Lemma Pre_perm G p X ts ts' beta : Permutation ts ts' -> Pre G p X ts beta -> Pre G p X ts' beta.
  Proof.
    intros HP (H1 & H2 & H3 & H4 & H5).
    assert (HI : forall t, In t ts' -> In t ts).
    { intros t Ht. eapply Permutation_in; [symmetry; exact HP|auto]. }
    split; auto. split; [|split; [|split]].
    - destruct H2 as [A1 A2 A3 A4 A5]. constructor; auto.
      eapply part_perm; [apply perm_map_hset; exact HP|auto].
    - apply Permutation_length in HP. lia.
    - eapply cbest_perm; [|exact (T_part _ _ _ H2)|apply perm_map_hset; exact HP|auto].
      apply csorted_NoDup. apply (T_sorted _ _ _ H2).
    - auto.
  Qed.

  Lemma Post_perm p X ts ts' beta G' p' g us :
    Permutation ts ts' -> Post p X ts' beta G' p' g us -> Post p X ts beta G' p' g us.
  Proof.
    intros HP (H1 & H2 & H3 & H4 & H5 & H6 & H7). split; auto. split.
    - eapply refines_perm; [apply perm_map_hset; symmetry; exact HP|apply Permutation_refl|auto].
    - split; auto. split; auto. split; auto. intros x Hx.
      eapply Permutation_in; [apply Permutation_map; symmetry; exact HP|auto].
  Qed.

  Lemma live_multiples G p : Sok G p -> forall D, multiples_of D E -> multiples_of D (garcs G).
  Proof.
    intros HS D HD a Ha.
    assert (F : forall b, In b (garcs G) -> (asrc b < adst b)%nat).
    { intros b Hb. apply (Gok_arcs _ _ (S_ok _ _ HS)) in Hb. tauto. }
    assert (K := qsum_pick (garcs G) a (Gok_simple _ _ (S_ok _ _ HS)) Ha F).
    set (f := fun u v => if ((u =? asrc a) && (v =? adst a) || (u =? adst a) && (v =? asrc a))%nat then 1 else 0) in K.
    assert (Fs : sym0 f).
    { split; unfold f.
      - intros u v. destruct (u =? asrc a)%nat, (v =? adst a)%nat, (u =? adst a)%nat, (v =? asrc a)%nat; reflexivity.
      - intro u. assert (Fa := F a Ha). destruct (Nat.eqb_spec u (asrc a)); destruct (Nat.eqb_spec u (adst a)); try reflexivity. lia. }
    rewrite (S_sum _ _ HS f Fs) in K.
    destruct (qsum_multiple (fun b => f (p (asrc b)) (p (adst b)) * aw b) D E) as (z & Hz).
    { intros b Hb. destruct (HD b Hb) as (z & Hz). unfold f.
      destruct ((p (asrc b) =? asrc a) && (p (adst b) =? adst a) || (p (asrc b) =? adst a) && (p (adst b) =? asrc a))%nat.
      - exists z. rewrite Hz. ring.
      - exists 0%Z. unfold Qeq, Qmult. simpl. reflexivity. }
    exists z. rewrite <- K. exact Hz.
  Qed.

  (** ** One call of split *)
  Section Level.
    Variable G : gst.
    Variable p : nat -> nat.
    Hypothesis HS : Sok G p.
    Variable X : list nat.
    Variable ts : list ht.
    Hypothesis HT' : Tok p X ts.
    Hypothesis H2 : (2 <= length ts)%nat.

    Let reps := map hrep ts.
    Let R0 := enabled G reps.
    Let sb := sub_arcs G reps.
    Let k := length ts.
    Let g := split_gamma sb k.

    Lemma ts_ex : exists t, In t ts.
    Proof. clear - H2. destruct ts as [|t l]; [simpl in H2; lia|]. exists t. left; auto. Qed.

    Lemma X_NoDup : NoDup X.
    Proof. apply csorted_NoDup. apply (T_sorted _ _ _ HT'). Qed.

    Lemma hset_ne t : In t ts -> hset t <> [].
    Proof. intro H. eapply hok_nonempty. apply (T_hok _ _ _ HT' t H). Qed.

    Lemma hset_X t : In t ts -> incl (hset t) X.
    Proof. intro H. apply (part_incl X (map hset ts)); [apply (T_part _ _ _ HT')|apply in_map; auto]. Qed.

    Lemma hrep_in t : In t ts -> In (hrep t) (hset t).
    Proof. intro H. apply hd_In. apply hset_ne; auto. Qed.

    Lemma hrep_vs t : In t ts -> In (hrep t) vs.
    Proof. intro H. apply (T_incl _ _ _ HT'). apply (hset_X t H). apply hrep_in; auto. Qed.

    Lemma hrep_fix t : In t ts -> p (hrep t) = hrep t.
    Proof. intro H. apply (T_rep _ _ _ HT' t); auto using hrep_vs, hrep_in. Qed.

    Lemma X_reps x : In x vs -> (In x X <-> In (p x) reps).
    Proof.
      intro Hx. split; intro H.
      - destruct (part_cover X _ x (T_part _ _ _ HT') H) as (B & B1 & B2).
        apply in_map_iff in B1. destruct B1 as (t & <- & Ht).
        apply (T_rep _ _ _ HT' t x Ht Hx) in B2. rewrite B2. apply in_map; auto.
      - apply in_map_iff in H. destruct H as (t & Ht1 & Ht2). symmetry in Ht1.
        apply (T_rep _ _ _ HT' t x Ht2 Hx) in Ht1. apply (hset_X t Ht2). auto.
    Qed.

    Lemma reps_live r : In r reps -> In r (gnodes G).
    Proof.
      intro H. apply in_map_iff in H. destruct H as (t & <- & Ht). apply (S_img _ _ HS).
      exists (hrep t). split; auto using hrep_vs, hrep_fix.
    Qed.

    Lemma reps_X r : In r reps -> In r X /\ p r = r.
    Proof.
      intro H. apply in_map_iff in H. destruct H as (t & <- & Ht).
      split; [|apply hrep_fix; auto]. apply (hset_X t Ht). apply hrep_in; auto.
    Qed.

    Lemma R0_In r : In r R0 <-> In r reps.
    Proof.
      unfold R0, enabled. rewrite filter_In, mem_In. split; [tauto|]. intro H. split; auto.
      apply reps_live; auto.
    Qed.

    Lemma R0_sorted : csorted R0.
    Proof. apply csorted_filter. apply (Gok_nodes _ _ (S_ok _ _ HS)). Qed.

    Lemma R0_NoDup : NoDup R0.
    Proof. apply csorted_NoDup. apply R0_sorted. Qed.

    Lemma reps_NoDup : NoDup reps.
    Proof.
      apply nd_reps; [|apply hset_ne]. apply (part_NoDup X X_NoDup). apply (T_part _ _ _ HT').
    Qed.

    Lemma R0_perm : Permutation R0 reps.
    Proof. apply NoDup_Permutation; auto using R0_NoDup, reps_NoDup. apply R0_In. Qed.

    Lemma R0_length : length R0 = k.
    Proof. rewrite (Permutation_length R0_perm). unfold reps, k. apply map_length. Qed.

    Lemma R0_ne : R0 <> [].
    Proof. intro C. assert (L := R0_length). rewrite C in L. simpl in L. unfold k in L. lia. Qed.

    Lemma sb_In a : In a sb <-> In a (garcs G) /\ In (asrc a) R0 /\ In (adst a) R0.
    Proof. unfold sb, sub_arcs. rewrite filter_In, andb_true_iff, !mem_In, !R0_In. tauto. Qed.

    Lemma sb_on : graph_on R0 sb.
    Proof.
      intros a Ha. apply sb_In in Ha. destruct Ha as (H1 & Ha2 & Ha3). split; auto. split; auto.
      apply (Gok_arcs _ _ (S_ok _ _ HS)) in H1. destruct H1 as (_ & _ & _ & H1). lra.
    Qed.

    Lemma sb_simple : simple sb.
    Proof.
      assert (K := Gok_simple _ _ (S_ok _ _ HS)). unfold simple, sb, sub_arcs in *.
      revert K. generalize (garcs G). intro l. induction l as [|a l IH]; simpl; intro K; auto.
      inversion K; subst. destruct (mem reps (asrc a) && mem reps (adst a)); simpl; auto.
      constructor; auto. intro C. apply H1. apply in_map_iff in C. destruct C as (b & C1 & C2).
      apply in_map_iff. exists b. split; auto. apply filter_In in C2. tauto.
    Qed.

    Lemma sb_ordered : ordered sb R0.
    Proof.
      apply ordered_sorted; [apply R0_sorted|]. intros a Ha. apply sb_In in Ha.
      destruct Ha as (H1 & Ha2 & Ha3). split; auto. split; auto.
      apply (Gok_arcs _ _ (S_ok _ _ HS)) in H1. tauto.
    Qed.

    (** Matching partitions of the live representatives and of the original nodes. *)
    Definition matches (P1 R1 : list (list nat)) : Prop :=
      forall x y, In x X -> In y X -> same_part R1 x y = same_part P1 (p x) (p y).

    Lemma matches_crossing P1 R1 :
      is_partition R0 P1 -> matches P1 R1 -> crossing sb P1 == crossing (sub E X) R1.
    Proof.
      intros HP HM.
      set (f := fun u v => if mem reps u && mem reps v && negb (same_part P1 u v) then 1 else 0).
      assert (F : sym0 f).
      { split; unfold f.
        - intros u v. rewrite (same_part_sym P1 v u), (andb_comm (mem reps v)). reflexivity.
        - intro u. destruct (mem reps u) eqn:M; simpl; [|reflexivity]. apply mem_In in M.
          apply R0_In in M. destruct (part_cover R0 P1 u HP M) as (B & B1 & B2).
          assert (K : same_part P1 u u = true) by (apply same_part_true; eauto).
          rewrite K. reflexivity. }
      assert (Q1 : crossing sb P1 == gsum f (garcs G)).
      { unfold crossing, sb, sub_arcs, gsum. rewrite qsum_filter. apply qsum_ext. intros a Ha.
        unfold f. destruct (mem reps (asrc a) && mem reps (adst a)); simpl; [|ring].
        destruct (same_part P1 (asrc a) (adst a)); simpl; ring. }
      rewrite Q1, (S_sum _ _ HS f F). unfold crossing, sub, gsum. rewrite qsum_filter.
      apply qsum_ext. intros a Ha. destruct (HE a Ha) as (A1 & A2 & A3).
      assert (M : forall x, In x vs -> mem reps (p x) = mem X x).
      { intros x Hx. destruct (mem X x) eqn:Mx.
        - apply mem_In. apply X_reps; auto. apply mem_In; auto.
        - apply mem_false. intro C. apply X_reps in C; auto. apply mem_false in Mx. auto. }
      unfold f. rewrite !M by auto.
      destruct (mem X (asrc a)) eqn:M1; destruct (mem X (adst a)) eqn:M2; simpl; try ring.
      apply mem_In in M1, M2. rewrite (HM _ _ M1 M2).
      destruct (same_part P1 (p (asrc a)) (p (adst a))); simpl; ring.
    Qed.

    Lemma matches_hval lam P1 R1 :
      is_partition R0 P1 -> matches P1 R1 -> length P1 = length R1 ->
      hval sb lam P1 == hval (sub E X) lam R1.
    Proof. intros HP HM HL. unfold hval. rewrite (matches_crossing P1 R1), HL by auto. reflexivity. Qed.

    Lemma kids_matches : matches (singletons R0) (map hset ts).
    Proof.
      intros x y Hx Hy.
      assert (Vx := T_incl _ _ _ HT' x Hx). assert (Vy := T_incl _ _ _ HT' y Hy).
      destruct (same_part (singletons R0) (p x) (p y)) eqn:Sp.
      - apply same_part_true in Sp. destruct Sp as (B & B1 & B2 & B3). apply in_map_iff in B1.
        destruct B1 as (r & <- & Hr). destruct B2 as [B2|[]]. destruct B3 as [B3|[]].
        apply R0_In in Hr. apply in_map_iff in Hr. destruct Hr as (t & <- & Ht).
        apply same_part_true. exists (hset t). split; [apply in_map; auto|].
        split; apply (T_rep _ _ _ HT' t); auto.
      - apply same_part_false. intros B HB HxB HyB. apply in_map_iff in HB.
        destruct HB as (t & <- & Ht). apply (T_rep _ _ _ HT' t x Ht Vx) in HxB.
        apply (T_rep _ _ _ HT' t y Ht Vy) in HyB.
        assert (K := proj1 (same_part_false _ _ _) Sp [hrep t]). apply K.
        + apply in_map_iff. exists (hrep t). split; auto. apply R0_In. apply in_map; auto.
        + left; auto.
        + left; auto.
    Qed.

    Lemma total_sb : qsum aw sb == crossing (sub E X) (map hset ts).
    Proof.
      rewrite <- (matches_crossing (singletons R0)); [|apply singletons_part|apply kids_matches].
      unfold crossing. apply qsum_ext. intros a Ha.
      destruct (same_part (singletons R0) (asrc a) (adst a)) eqn:Sp; [|reflexivity]. exfalso.
      apply same_part_true in Sp. destruct Sp as (B & B1 & B2 & B3). apply in_map_iff in B1.
      destruct B1 as (r & <- & Hr). destruct B2 as [B2|[]]. destruct B3 as [B3|[]].
      apply sb_In in Ha. destruct Ha as (Ha & _). apply (Gok_arcs _ _ (S_ok _ _ HS)) in Ha. lia.
    Qed.

    Lemma gamma_eq : g * (qn k - 1) == crossing (sub E X) (map hset ts).
    Proof.
      rewrite <- total_sb. unfold g, split_gamma. rewrite Qred_correct. field.
      assert (K := qn_le _ _ H2). fold k in K. change (qn 2) with 2 in K. lra.
    Qed.

    Lemma gamma_kids : hval (sub E X) g (map hset ts) == - g.
    Proof.
      unfold hval. rewrite <- gamma_eq, map_length. fold k. ring.
    Qed.

    Lemma gamma_le beta : cbest (sub E X) X beta 0 (map hset ts) -> g <= beta.
    Proof.
      intro Hb.
      assert (Hne : X <> []).
      { destruct ts_ex as (t & Ht). intro C. assert (K := hset_X t Ht _ (hrep_in t Ht)).
        rewrite C in K. destruct K. }
      assert (H := Hb [X] (one_block_part X Hne)
                      (refines_one_block X (map hset ts) (T_part _ _ _ HT'))).
      assert (C : crossing (sub E X) [X] == 0).
      { unfold crossing. apply qsum_zero. intros a Ha. apply sub_In in Ha.
        assert (K : same_part [X] (asrc a) (adst a) = true).
        { apply same_part_true. exists X. split; [left; auto|tauto]. }
        rewrite K. reflexivity. }
      unfold hval in H. rewrite C, <- gamma_eq, map_length in H. fold k in H.
      simpl length in H. change (qn 1) with 1 in H.
      assert (K := qn_le _ _ H2). fold k in K. change (qn 2) with 2 in K.
      assert (D : 0 <= (beta - g) * (qn k - 1)) by (
        assert (EQ : (beta - g) * (qn k - 1) == beta * qn k - beta - g * (qn k - 1)) by ring; lra).
      destruct (Qlt_le_dec beta g) as [L|L]; auto. exfalso.
      assert (D2 : 0 < (g - beta) * (qn k - 1)) by (apply Qmult_lt_0_compat; lra).
      assert (EQ : (g - beta) * (qn k - 1) == - ((beta - g) * (qn k - 1))) by ring. lra.
    Qed.

    Let r := tr g sb R0.
    Let P' := snd r.

    Lemma sb_multiples D : multiples_of D E -> multiples_of D sb.
    Proof. intros HD a Ha. apply sb_In in Ha. apply (live_multiples G p HS D HD). tauto. Qed.

    Lemma k_le : (length R0 <= length vs)%nat.
    Proof.
      apply NoDup_incl_length; [apply R0_NoDup|]. intros x Hx. apply R0_In in Hx. apply (T_incl _ _ _ HT'). apply reps_X; auto.
    Qed.

    Lemma dil_facts :
      optimal sb R0 g P' /\ (- g - eps <= fst r -> - g - eps <= hval sb g P') /\ (forall B, In B P' -> csorted B).
    Proof.
      apply Hmc; auto using R0_NoDup, sb_on, sb_simple, sb_ordered, k_le, sb_multiples.
      - rewrite R0_length. exact H2.
      - rewrite R0_length, gamma_eq, <- total_sb. reflexivity.
    Qed.

    Lemma P'_part : is_partition R0 P'.
    Proof. apply dil_facts. Qed.

    (** Restriction of a coarser partition to the representatives. *)
    Definition dropp (R : list (list nat)) : list (list nat) := map (fun B => filter (mem B) R0) R.

    Section Drop.
      Variable R : list (list nat).
      Hypothesis HR : is_partition X R.
      Hypothesis HC : refines (map hset ts) R.

      Lemma coarse_block B x : In B R -> In x B -> In (p x) B.
      Proof.
        intros HB Hx. assert (XX : In x X) by (apply (part_incl X R B HR HB); auto).
        destruct (part_cover X _ x (T_part _ _ _ HT') XX) as (C & C1 & C2).
        destruct (HC C C1) as (D & D1 & D2).
        assert (D = B) by (apply (part_unique X R D B x X_NoDup HR); auto). subst D.
        apply in_map_iff in C1. destruct C1 as (t & <- & Ht).
        apply (T_rep _ _ _ HT' t x Ht) in C2; [|apply (T_incl _ _ _ HT'); auto].
        rewrite C2. apply D2. apply hrep_in; auto.
      Qed.

      Lemma coarse_block_inv B x : In B R -> In x X -> In (p x) B -> In x B.
      Proof.
        intros HB Hx Hp. destruct (part_cover X R x HR Hx) as (C & C1 & C2).
        assert (K := coarse_block C x C1 C2).
        assert (C = B) by (apply (part_unique X R C B (p x) X_NoDup HR); auto). subst. auto.
      Qed.

      Lemma p_reps x : In x X -> In (p x) R0.
      Proof. intro H. apply R0_In. apply X_reps; auto. apply (T_incl _ _ _ HT'); auto. Qed.

      Lemma drop_part : is_partition R0 (dropp R).
      Proof.
        split.
        - apply NoDup_Permutation; [|apply R0_NoDup|].
          + unfold dropp. assert (ND := part_NoDup X X_NoDup R HR). clear HR HC.
            induction R as [|B l IH]; simpl; [constructor|]. simpl in ND.
            apply NoDup_app_inv in ND. destruct ND as (N1 & N2 & N3). apply NoDup_app_intro.
            * apply NoDup_filter. apply R0_NoDup.
            * apply IH; auto.
            * intros x Hx Hc. apply filter_In in Hx. destruct Hx as [_ Hx]. apply mem_In in Hx.
              apply (N3 x Hx). apply in_concat in Hc. destruct Hc as (D & D1 & D2).
              apply in_map_iff in D1. destruct D1 as (C & <- & D3). apply filter_In in D2.
              apply in_concat. exists C. split; auto. apply mem_In. tauto.
          + intro x. rewrite in_concat. split.
            * intros (D & D1 & D2). apply in_map_iff in D1. destruct D1 as (C & <- & _).
              apply filter_In in D2. tauto.
            * intro Hx. assert (K : In x reps) by (apply R0_In; auto). destruct (reps_X x K) as [K1 _].
              destruct (part_cover X R x HR K1) as (C & C1 & C2).
              exists (filter (mem C) R0). split; [apply in_map_iff; eauto|].
              apply filter_In. split; auto. apply mem_In; auto.
        - intro C. apply in_map_iff in C. destruct C as (B & B1 & B2).
          destruct (part_nonempty X R B HR B2) as (x & Hx).
          assert (K : In (p x) (filter (mem B) R0)).
          { apply filter_In. split; [|apply mem_In; apply coarse_block; auto].
            apply p_reps. apply (part_incl X R B HR B2). auto. }
          rewrite B1 in K. destruct K.
      Qed.

      Lemma drop_matches : matches (dropp R) R.
      Proof.
        intros x y Hx Hy. destruct (same_part (dropp R) (p x) (p y)) eqn:Sp.
        - apply same_part_true in Sp. destruct Sp as (D & D1 & D2 & D3). apply in_map_iff in D1.
          destruct D1 as (B & <- & HB). apply filter_In in D2, D3. destruct D2 as [_ D2].
          destruct D3 as [_ D3]. apply mem_In in D2, D3. apply same_part_true. exists B.
          split; auto. split; apply coarse_block_inv; auto.
        - apply same_part_false. intros B HB Hxb Hyb.
          apply (proj1 (same_part_false _ _ _) Sp (filter (mem B) R0)).
          + apply in_map_iff. eauto.
          + apply filter_In. split; [apply p_reps; auto|apply mem_In; apply coarse_block; auto].
          + apply filter_In. split; [apply p_reps; auto|apply mem_In; apply coarse_block; auto].
      Qed.

      Lemma drop_hval lam : hval sb lam (dropp R) == hval (sub E X) lam R.
      Proof.
        apply matches_hval; [apply drop_part|apply drop_matches|]. unfold dropp. apply map_length.
      Qed.

      Lemma min_le : hval sb g P' <= hval (sub E X) g R.
      Proof. rewrite <- drop_hval. apply dil_facts. apply drop_part. Qed.
    End Drop.

    (** The clusters given by a set of representatives. *)
    Definition lift (S : list nat) : list nat := filter (fun x => mem S (p x)) X.

    Lemma lift_In S x : In x (lift S) <-> In x X /\ In (p x) S.
    Proof. unfold lift. rewrite filter_In, mem_In. tauto. Qed.

    Lemma lift_sorted S : csorted (lift S).
    Proof. apply csorted_filter. apply (T_sorted _ _ _ HT'). Qed.

    Lemma lift_part P1 : is_partition R0 P1 -> is_partition X (map lift P1).
    Proof.
      intro HP. split.
      - apply NoDup_Permutation; [|apply X_NoDup|].
        + assert (ND := part_NoDup R0 R0_NoDup P1 HP). clear HP.
          induction P1 as [|B l IH]; simpl; [constructor|]. simpl in ND.
          apply NoDup_app_inv in ND. destruct ND as (N1 & N2 & N3). apply NoDup_app_intro; auto.
          * apply NoDup_filter. apply X_NoDup.
          * intros x Hx Hc. apply lift_In in Hx. destruct Hx as [_ Hx]. apply (N3 _ Hx).
            apply in_concat in Hc. destruct Hc as (D & D1 & D2). apply in_map_iff in D1.
            destruct D1 as (C & <- & D3). apply lift_In in D2. apply in_concat. exists C. tauto.
        + intro x. rewrite in_concat. split.
          * intros (D & D1 & D2). apply in_map_iff in D1. destruct D1 as (C & <- & _).
            apply lift_In in D2. tauto.
          * intro Hx. destruct (part_cover R0 P1 (p x) HP (p_reps x Hx)) as (C & C1 & C2).
            exists (lift C). split; [apply in_map; auto|]. apply lift_In; auto.
      - intro C. apply in_map_iff in C. destruct C as (B & B1 & B2).
        destruct (part_nonempty R0 P1 B HP B2) as (x & Hx).
        assert (K := part_incl R0 P1 B HP B2 x Hx). apply R0_In in K. destruct (reps_X x K) as [K1 K2].
        assert (KL : In x (lift B)) by (apply lift_In; rewrite K2; auto). rewrite B1 in KL. destruct KL.
    Qed.

    Lemma lift_matches P1 : is_partition R0 P1 -> matches P1 (map lift P1).
    Proof.
      intros HP x y Hx Hy. destruct (same_part P1 (p x) (p y)) eqn:Sp.
      - apply same_part_true in Sp. destruct Sp as (D & D1 & D2 & D3). apply same_part_true.
        exists (lift D). split; [apply in_map; auto|]. rewrite !lift_In. auto.
      - apply same_part_false. intros B HB Hxb Hyb. apply in_map_iff in HB.
        destruct HB as (C & <- & HC). apply lift_In in Hxb, Hyb.
        apply (proj1 (same_part_false _ _ _) Sp C); tauto.
    Qed.

    Lemma lift_hval lam P1 : is_partition R0 P1 -> hval sb lam P1 == hval (sub E X) lam (map lift P1).
    Proof.
      intro HP. apply matches_hval; auto using lift_matches. rewrite map_length. reflexivity.
    Qed.

    Lemma lift_coarse P1 : is_partition R0 P1 -> refines (map hset ts) (map lift P1).
    Proof.
      intros HP B HB. apply in_map_iff in HB. destruct HB as (t & <- & Ht).
      assert (Hr : In (hrep t) R0) by (apply R0_In; apply in_map; auto).
      destruct (part_cover R0 P1 (hrep t) HP Hr) as (C & C1 & C2).
      exists (lift C). split; [apply in_map; auto|]. intros x Hx. apply lift_In.
      assert (XX := hset_X t Ht x Hx). split; auto.
      apply (T_rep _ _ _ HT' t x Ht) in Hx; [|apply (T_incl _ _ _ HT'); auto]. rewrite Hx. auto.
    Qed.

    Let Lp := map lift P'.

    Lemma Lp_part : is_partition X Lp.
    Proof. apply lift_part. apply P'_part. Qed.

    Lemma Lp_best R : is_partition X R -> refines (map hset ts) R ->
      hval (sub E X) g Lp <= hval (sub E X) g R.
    Proof.
      intros HR HC. unfold Lp. rewrite <- (lift_hval g P' P'_part). apply min_le; auto.
    Qed.

    Lemma Lp_finest R : s = true -> is_partition X R -> refines (map hset ts) R ->
      hval (sub E X) g R <= hval (sub E X) g Lp -> refines Lp R.
    Proof.
      intros Es HR HC Hle.
      assert (O : optimal sb R0 g (dropp R)).
      { split; [apply drop_part; auto|]. intros Z HZ. rewrite (drop_hval R HR HC g).
        assert (K : hval sb g P' <= hval sb g Z) by (apply dil_facts; auto).
        rewrite (lift_hval g P' P'_part) in K. fold Lp in K. lra. }
      assert (F : refines P' (dropp R)).
      { apply (Hms Es); auto using R0_NoDup, sb_on, sb_simple, sb_ordered. }
      intros B HB. apply in_map_iff in HB. destruct HB as (S & <- & HSp).
      destruct (F S HSp) as (D & D1 & D2). apply in_map_iff in D1. destruct D1 as (C & <- & HCR).
      exists C. split; auto. intros x Hx. apply lift_In in Hx. destruct Hx as [X1 X2].
      apply D2 in X2. apply filter_In in X2. destruct X2 as [_ X2]. apply mem_In in X2.
      apply (coarse_block_inv R HR HC); auto.
    Qed.

    (** The leaf case of split. *)
    Lemma leaf_ok beta :
      cbest (sub E X) X beta 0 (map hset ts) -> (forall t, In t ts -> lab_above s beta t) ->
      (k = 2%nat \/ length P' = 1%nat \/ length P' = k \/ - g - eps <= fst r) ->
      Post p X ts beta G p g ts.
    Proof.
      intros Hb Hl Hc.
      assert (Hle := gamma_le beta Hb).
      assert (M : - g - eps <= hval sb g P').
      { destruct dil_facts as (D1 & D2 & D3).
        assert (O1 : length P' = 1%nat -> - g - eps <= hval sb g P').
        { intro L. unfold hval. rewrite L. change (qn 1) with 1.
          assert (C := single_crossing sb P' (graph_on_nonneg _ _ sb_on)). lra. }
        assert (O2 : length P' = k -> - g - eps <= hval sb g P').
        { intro L. assert (SP : same_partition P' (singletons R0)).
          { apply part_length_full; auto using R0_NoDup, P'_part. rewrite R0_length. auto. }
          rewrite (same_partition_hval R0 R0_NoDup sb g P' (singletons R0)); auto using P'_part, singletons_part.
          rewrite (matches_hval g (singletons R0) (map hset ts)); auto using singletons_part, kids_matches.
          - rewrite gamma_kids. lra.
          - unfold singletons. rewrite !map_length. apply R0_length. }
        destruct Hc as [Hc|[Hc|[Hc|Hc]]]; auto.
        - assert (L1 := part_length_pos R0 R0_NoDup P' R0_ne P'_part).
          assert (L2 := part_length_le R0 R0_NoDup P' P'_part). rewrite R0_length in L2.
          destruct (Nat.eq_dec (length P') 1) as [L|L]; auto. apply O2. lia.
        }
      split; [|split; [apply refines_refl|split; [auto|split; [auto|split; [|split; [auto|]]]]]].
      - apply hok_node; auto.
        + apply (T_sorted _ _ _ HT').
        + apply (T_part _ _ _ HT').
        + apply gamma_kids.
        + intros R HR HC. apply (Hgap X (map hset ts) R g); auto.
          * apply (T_incl _ _ _ HT').
          * apply X_NoDup.
          * apply (T_part _ _ _ HT').
          * rewrite map_length. auto.
          * rewrite map_length. apply gamma_eq.
          * assert (K := min_le R HR HC). lra.
        + intros t Ht. eapply lab_above_mono; [exact Hle|auto].
        + apply (T_hok _ _ _ HT').
      - intros x Hx. apply X_reps; auto. apply (T_incl _ _ _ HT'); auto.
      - apply (T_rep _ _ _ HT').
    Qed.

    (** ** The loop over the parts of P' *)
    Variable beta : Q.
    Hypothesis Hb : cbest (sub E X) X beta 0 (map hset ts).
    Hypothesis Hl : forall t, In t ts -> lab_above s beta t.
    Hypothesis Hlen : length P' <> 1%nat.

    Record FInv (Pd Pr : list (list nat)) (G1 : gst) (q : nat -> nat) (tc : list ht) : Prop := {
      F_split : P' = Pd ++ Pr;
      F_S : Sok G1 q;
      F_out : forall x, In x vs -> ~ In x X -> q x = p x;
      F_in : forall x S, In x X -> In S P' -> (In (q x) S <-> In (p x) S);
      F_same : forall x S, In x X -> In S Pr -> In (p x) S -> q x = p x;
      F_T : Tok q X tc;
      F_lab : forall t, In t tc -> lab_above s g t;
      F_todo : forall S, In S Pr ->
         filter (fun t => mem S (hrep t)) tc = filter (fun t => mem S (hrep t)) ts;
      F_done : forall S, In S Pd -> In (lift S) (map hset tc);
      F_ref : refines (map hset tc) Lp
    }.

    Lemma FInv_start : FInv [] P' G p ts.
    Proof.
      constructor; auto; try tauto.
      - intros t Ht. eapply lab_above_mono; [apply gamma_le; exact Hb|auto].
      - intros S [].
      - apply lift_coarse. apply P'_part.
    Qed.

    Lemma S_reps S x : In S P' -> In x S -> In x reps.
    Proof. intros H Hx. apply R0_In. apply (part_incl R0 P' S P'_part H). auto. Qed.

    Lemma S_disj S S' x : In S P' -> In S' P' -> In x S -> In x S' -> S = S'.
    Proof. intros. apply (part_unique R0 P' S S' x R0_NoDup P'_part); auto. Qed.

    Lemma hd_lift S : In S P' -> hd 0%nat (lift S) = hd 0%nat S /\ In (hd 0%nat S) S /\
      In (hd 0%nat S) (lift S).
    Proof.
      intro H. assert (SS : csorted S) by (apply dil_facts; auto).
      assert (Ne : S <> []).
      { destruct (part_nonempty R0 P' S P'_part H) as (x & Hx). intro C. subst. destruct Hx. }
      assert (I1 := hd_In S Ne). assert (I2 : In (hd 0%nat S) (lift S)).
      { destruct (reps_X _ (S_reps S _ H I1)) as [K1 K2]. apply lift_In. rewrite K2. auto. }
      split; [|auto].
      assert (LN : lift S <> []) by (intro C; rewrite C in I2; destruct I2).
      assert (M1 := hd_sorted_min (lift S) _ (lift_sorted S) I2).
      assert (I3 := hd_In _ LN). assert (M2 : (hd 0 S <= hd 0 (lift S))%nat).
      { apply lift_In in I3. destruct I3 as [J1 J2].
        assert (M3 := hd_sorted_min S _ SS J2).
        assert (V := T_incl _ _ _ HT' _ J1). destruct (S_p _ _ HS _ V) as (_ & V2 & _). lia. }
      lia.
    Qed.

    Lemma moved_perm S : In S P' ->
      Permutation (map hrep (filter (fun t => mem S (hrep t)) ts)) S.
    Proof.
      intro H. apply NoDup_Permutation.
      - assert (N := reps_NoDup). unfold reps in N. revert N. generalize ts. intro l.
        induction l as [|t l IH]; simpl; intro N; [constructor|]. inversion N; subst.
        destruct (mem S (hrep t)); simpl; auto. constructor; auto.
        intro C. apply H3. apply in_map_iff in C. destruct C as (u & U1 & U2). apply filter_In in U2.
        apply in_map_iff. exists u. tauto.
      - apply csorted_NoDup. apply dil_facts. auto.
      - intro x. rewrite in_map_iff. split.
        + intros (t & <- & Ht). apply filter_In in Ht. apply mem_In. tauto.
        + intro Hx. assert (K := S_reps S x H Hx). apply in_map_iff in K. destruct K as (t & <- & Ht).
          exists t. split; auto. apply filter_In. split; auto. apply mem_In; auto.
    Qed.

    Lemma moved_length S : In S P' -> length (filter (fun t => mem S (hrep t)) ts) = length S.
    Proof. intro H. rewrite <- (Permutation_length (moved_perm S H)), map_length. reflexivity. Qed.

    Lemma moved_sets S x : In S P' ->
      (In x (concat (map hset (filter (fun t => mem S (hrep t)) ts))) <-> In x (lift S)).
    Proof.
      intro H. rewrite in_concat, lift_In. split.
      - intros (B & B1 & B2). apply in_map_iff in B1. destruct B1 as (t & <- & Ht).
        apply filter_In in Ht. destruct Ht as [Ht1 Ht2]. assert (XX := hset_X t Ht1 x B2).
        split; auto. apply (T_rep _ _ _ HT' t x Ht1) in B2; [|apply (T_incl _ _ _ HT'); auto].
        rewrite B2. apply mem_In; auto.
      - intros [XX Hp]. destruct (part_cover X _ x (T_part _ _ _ HT') XX) as (B & B1 & B2).
        apply in_map_iff in B1. destruct B1 as (t & <- & Ht). exists (hset t). split; auto.
        apply in_map. apply filter_In. split; auto. apply mem_In.
        apply (T_rep _ _ _ HT' t x Ht) in B2; [|apply (T_incl _ _ _ HT'); auto]. rewrite <- B2. auto.
    Qed.

    Lemma moved_part S : In S P' ->
      is_partition (lift S) (map hset (filter (fun t => mem S (hrep t)) ts)).
    Proof.
      intro H. split.
      - apply NoDup_Permutation.
        + apply nd_filter_concat. apply (part_NoDup X X_NoDup). apply (T_part _ _ _ HT').
        + apply csorted_NoDup. apply lift_sorted.
        + intro x. apply moved_sets; auto.
      - intro C. apply in_map_iff in C. destruct C as (t & C1 & C2). apply filter_In in C2.
        apply (hset_ne t); tauto.
    Qed.

    Lemma lift_X S : incl (lift S) X.
    Proof. intros x Hx. apply lift_In in Hx. tauto. Qed.

    Lemma S_lt S : In S P' -> (length S < k)%nat.
    Proof.
      intro H. apply in_split in H. destruct H as (l1 & l2 & Es).
      assert (L := Permutation_length (proj1 P'_part)).
      rewrite R0_length in L. rewrite Es in L. rewrite concat_app, app_length in L. simpl in L.
      rewrite app_length in L.
      assert (Pos : forall B, In B P' -> (1 <= length B)%nat).
      { intros B HB. destruct (part_nonempty R0 P' B P'_part HB) as (x & Hx). destruct B; [destruct Hx|simpl; lia]. }
      destruct l1 as [|B l1].
      - destruct l2 as [|B l2]; [exfalso; apply Hlen; rewrite Es; reflexivity|].
        assert (1 <= length B)%nat by (apply Pos; rewrite Es; right; left; auto).
        simpl in L. rewrite app_length in L. lia.
      - assert (1 <= length B)%nat by (apply Pos; rewrite Es; left; auto).
        simpl in L. rewrite app_length in L. lia.
    Qed.

    (** The recursive call on a part with at least two representatives. *)
    Lemma step_pre Pd S Pr G1 q tc :
      FInv Pd (S :: Pr) G1 q tc -> length S <> 1%nat ->
      Pre G1 q (lift S) (filter (fun t => mem S (hrep t)) tc) beta.
    Proof.
      intros HF HS1. assert (HSP : In S P').
      { rewrite (F_split _ _ _ _ _ HF). apply in_or_app. right; left; auto. }
      assert (HF' := F_todo _ _ _ _ _ HF S (or_introl eq_refl)).
      destruct (hd_lift S HSP) as (_ & I1 & I2).
      split; [apply (F_S _ _ _ _ _ HF)|]. split; [|split; [|split]].
      - constructor.
        + apply lift_sorted.
        + intros x Hx. apply (T_incl _ _ _ HT'). apply (lift_X S x Hx).
        + intros t Ht. apply filter_In in Ht. apply (T_hok _ _ _ (F_T _ _ _ _ _ HF)). tauto.
        + rewrite HF'. apply moved_part; auto.
        + intros t x Ht. apply filter_In in Ht. apply (T_rep _ _ _ (F_T _ _ _ _ _ HF)). tauto.
      - rewrite HF', moved_length by auto. destruct S as [|a [|b S]]; simpl in *; try lia.
      - rewrite HF'. set (q1 := fun t => mem S (hrep t)).
        apply (cbest_block E X beta (map hset (filter q1 ts))
                 (map hset (filter (fun t => negb (q1 t)) ts)) (lift S)).
        + apply X_NoDup.
        + rewrite <- map_app. eapply part_perm; [|apply (T_part _ _ _ HT')].
          apply perm_map_hset. apply perm_filter_split.
        + apply moved_part; auto.
        + apply lift_X.
        + intro C. rewrite C in I2. destruct I2.
        + rewrite <- map_app. eapply cbest_perm; [apply X_NoDup|apply (T_part _ _ _ HT')| |exact Hb].
          apply perm_map_hset. apply perm_filter_split.
      - rewrite HF'. intros t Ht. apply filter_In in Ht. apply Hl. tauto.
    Qed.

    (** Labels found inside a part of an optimal partition are not below [g]. *)
    Lemma step_label S gs ms :
      In S P' -> hok E s e (HT (lift S) gs ms) ->
      refines (map hset (filter (fun t => mem S (hrep t)) ts)) (map hset ms) -> ms <> [] ->
      if s then g < gs else g <= gs.
    Proof.
      intros HSP HO HR Hne.
      inversion HO as [v g'|X' g' ts' S0 L2 HPX T1 T3 HL HOs]; subst; [congruence|].
      destruct (in_split _ _ HSP) as (l1 & l2 & Es).
      set (F := map lift (l1 ++ l2)).
      assert (PL : Permutation Lp (lift S :: F)).
      { unfold Lp, F. rewrite Es, !map_app. simpl. symmetry. apply Permutation_middle. }
      assert (PF : is_partition X (lift S :: F)) by (eapply part_perm; [exact PL|apply Lp_part]).
      assert (PN : is_partition X (map hset ms ++ F)) by (apply (expand_part X F (lift S)); auto).
      assert (C : refines (map hset ts) (map hset ms ++ F)).
      { intros B HB. apply in_map_iff in HB. destruct HB as (t & <- & Ht).
        destruct (mem S (hrep t)) eqn:Mt.
        - destruct (HR (hset t)) as (D & D1 & D2).
          { apply in_map. apply filter_In. auto. }
          exists D. split; auto. apply in_or_app; auto.
        - destruct (lift_coarse P' P'_part (hset t) (in_map hset ts t Ht)) as (D & D1 & D2).
          apply in_map_iff in D1. destruct D1 as (S' & <- & HS').
          exists (lift S'). split; auto. apply in_or_app. right. apply in_map.
          rewrite Es in HS'. apply in_app_or in HS'. apply in_or_app. destruct HS' as [K|[K|K]]; auto.
          subst S'. exfalso. assert (K := D2 (hrep t) (hrep_in t Ht)). apply lift_In in K.
          rewrite (hrep_fix t Ht) in K. destruct K as [_ K]. apply mem_In in K. congruence. }
      assert (HV := expand_hval X (sub E X) g F (lift S) (map hset ms) X_NoDup PF HPX).
      rewrite (sub_sub E X (lift S) (lift_X S)) in HV.
      assert (HL1 : hval (sub E X) g Lp == hval (sub E X) g (lift S :: F)).
      { apply (same_partition_hval X X_NoDup); auto using Lp_part. apply same_partition_perm; auto. }
      assert (HB := Lp_best (map hset ms ++ F) PN C).
      set (m := qn (length (map hset ms))) in *.
      assert (Hm : 2 <= m).
      { unfold m. rewrite map_length. apply qn_le in L2. change (qn 2) with 2 in L2. auto. }
      assert (Hc : crossing (sub E (lift S)) (map hset ms) == gs * (m - 1)).
      { unfold hval in T1. fold m in T1. assert (EQ : gs * (m - 1) == gs * m - gs) by ring. lra. }
      assert (HD : hval (sub E (lift S)) g (map hset ms) + g == (gs - g) * (m - 1)).
      { unfold hval. fold m. rewrite Hc. ring. }
      assert (Hge : g <= gs).
      { destruct (Qlt_le_dec gs g) as [L|L]; auto. exfalso.
        assert (D2 : 0 < (g - gs) * (m - 1)) by (apply Qmult_lt_0_compat; lra).
        assert (EQ : (g - gs) * (m - 1) == - ((gs - g) * (m - 1))) by ring. lra. }
      assert (ST : s = true -> g < gs).
      { intro Es'. destruct (Qlt_le_dec g gs) as [L|L]; auto. exfalso.
        assert (Z : (gs - g) * (m - 1) == 0) by (assert (Z0 : gs - g == 0) by lra; rewrite Z0; ring).
        assert (RF : refines Lp (map hset ms ++ F)).
        { apply Lp_finest; auto. lra. }
        assert (LL := refines_length X X_NoDup Lp _ Lp_part PN RF).
        rewrite (Permutation_length PL), app_length, map_length in LL. simpl in LL. lia. }
      clear -ST Hge. destruct s; auto.
    Qed.

    (** After the recursive call: contract the part, replace its trees by the new one. *)
    Lemma step_post Pd S Pr G1 q tc G2 q2 gs ms :
      FInv Pd (S :: Pr) G1 q tc -> length S <> 1%nat ->
      Post q (lift S) (filter (fun t => mem S (hrep t)) tc) beta G2 q2 gs ms ->
      FInv (Pd ++ [S]) Pr (contract eps G2 S (hd 0%nat S))
           (fun x => squash S (hd 0%nat S) (q2 x))
           (HT (lift S) gs ms :: filter (fun t => negb (mem S (hrep t))) tc).
    Proof.
      intros HF HS1 (Q1 & Q2 & Q3 & Q4 & Q5 & Q6 & Q7).
      assert (HSP : In S P').
      { rewrite (F_split _ _ _ _ _ HF). apply in_or_app. right; left; auto. }
      assert (HF' := F_todo _ _ _ _ _ HF S (or_introl eq_refl)).
      destruct (hd_lift S HSP) as (I0 & I1 & I2).
      set (i := hd 0%nat S) in *.
      assert (SS : csorted S) by (apply dil_facts; auto).
      assert (Hms0 : ms <> []).
      { intro C. subst ms. inversion Q1 as [v g' EQ|X' g' ts' S0 L2 HPX T1 T3 HL HOs]; subst; simpl in *; [|lia].
        assert (L := moved_length S HSP).
        assert (P1 := moved_perm S HSP).
        assert (LS : forall r, In r S -> r = v).
        { intros r' Hr. destruct (reps_X r' (S_reps S r' HSP Hr)) as [K1 K2].
          assert (KL : In r' (lift S)) by (apply lift_In; rewrite K2; auto). rewrite <- EQ in KL.
          destruct KL as [KL|[]]; auto. }
        assert (NS := csorted_NoDup S SS).
        destruct S as [|a [|b S]]; simpl in *; try lia.
        inversion NS as [|? ? N1 N2]; subst. apply N1. left.
        rewrite (LS a), (LS b); auto. }
      (* elements of the part after the call *)
      assert (Y1 : forall x, In x (lift S) -> In (q2 x) S).
      { intros x Hx. apply Q5 in Hx. rewrite HF' in Hx.
        eapply Permutation_in; [exact (moved_perm S HSP)|auto]. }
      assert (Y2 : forall x, In x vs -> ~ In x (lift S) -> q2 x = q x /\ ~ In (q x) S).
      { intros x Hx Hn. rewrite (Q4 x Hx Hn). split; auto. intro C.
        destruct (in_dec Nat.eq_dec x X) as [XX|XX].
        - apply (F_in _ _ _ _ _ HF x S XX HSP) in C. apply Hn. apply lift_In. auto.
        - rewrite (F_out _ _ _ _ _ HF x Hx XX) in C. apply XX. apply X_reps; auto.
          apply (S_reps S); auto. }
      assert (iV : In i vs) by (apply (T_incl _ _ _ HT'); apply (lift_X S); auto).
      assert (qi : q2 i = i).
      { assert (K := Y1 i I2). assert (K2 := hd_sorted_min S _ SS K). fold i in K2.
        destruct (S_p _ _ Q3 i iV) as (_ & K3 & _). lia. }
      assert (iG : In i (gnodes G2)) by (apply (S_img _ _ Q3); eauto).
      assert (sq1 : forall x, In x (lift S) -> squash S i (q2 x) = i).
      { intros x Hx. unfold squash. assert (K := Y1 x Hx). apply mem_In in K. rewrite K. auto. }
      assert (sq2 : forall x, In x vs -> ~ In x (lift S) -> squash S i (q2 x) = q x).
      { intros x Hx Hn. destruct (Y2 x Hx Hn) as [K1 K2]. unfold squash. rewrite K1.
        apply mem_false in K2. rewrite K2. auto. }
      assert (dec : forall x, In x (lift S) \/ ~ In x (lift S)).
      { intro x. destruct (in_dec Nat.eq_dec x (lift S)); auto. }
      assert (HTc := F_T _ _ _ _ _ HF).
      assert (Hperm := perm_filter_split (fun t => mem S (hrep t)) tc).
      constructor.
      - rewrite <- app_assoc. apply (F_split _ _ _ _ _ HF).
      - (* Sok *)
        constructor.
        + apply contract_ok; auto. apply (S_ok _ _ Q3).
        + intros f Hf. rewrite contract_sum; auto; [|apply (S_ok _ _ Q3)].
          rewrite (S_sum _ _ Q3); [reflexivity|]. apply (sym0_comp f (squash S i)); auto.
        + intro v. simpl. rewrite filter_In, orb_true_iff, Nat.eqb_eq, negb_true_iff, mem_false.
          rewrite (S_img _ _ Q3). split.
          * intros ((x & X1 & X2) & [C|C]).
            -- exists i. split; auto. subst v. rewrite sq1; auto.
            -- exists x. split; auto. unfold squash. rewrite X2. apply mem_false in C. rewrite C. auto.
          * intros (x & X1 & X2). destruct (dec x) as [D|D].
            -- rewrite (sq1 x D) in X2. subst v. split; [exists i; auto|auto].
            -- destruct (Y2 x X1 D) as [K1 K2]. rewrite (sq2 x X1 D) in X2. subst v.
               split; [exists x; auto|auto].
        + intros x Hx. destruct (dec x) as [D|D].
          * rewrite (sq1 x D). split; auto. split.
            -- assert (K := Y1 x D). assert (K2 := hd_sorted_min S _ SS K). fold i in K2.
               destruct (S_p _ _ Q3 x Hx) as (_ & K3 & _). lia.
            -- rewrite sq1; auto.
          * destruct (Y2 x Hx D) as [K1 K2]. rewrite (sq2 x Hx D).
            destruct (S_p _ _ (F_S _ _ _ _ _ HF) x Hx) as (V1 & V2 & V3). split; auto. split; auto.
            rewrite sq2; auto. intro C. apply K2.
            apply (F_in _ _ _ _ _ HF (q x) S) in HSP; [|apply (lift_X S); auto].
            rewrite V3 in HSP. apply HSP. apply lift_In in C. tauto.
      - intros x Hx Hn. rewrite sq2; auto.
        + apply (F_out _ _ _ _ _ HF); auto.
        + intro C. apply Hn. apply (lift_X S); auto.
      - intros x S' Hx HS'. assert (Vx := T_incl _ _ _ HT' x Hx). destruct (dec x) as [D|D].
        + rewrite (sq1 x D). apply lift_In in D. destruct D as [_ D]. split; intro K.
          * rewrite <- (S_disj S S' i HSP HS' I1 K). auto.
          * rewrite <- (S_disj S S' (p x) HSP HS' D K). auto.
        + rewrite (sq2 x Vx D). apply (F_in _ _ _ _ _ HF); auto.
      - intros x S' Hx HS' Hp. assert (Vx := T_incl _ _ _ HT' x Hx).
        assert (HS'P : In S' P').
        { rewrite (F_split _ _ _ _ _ HF). apply in_or_app. right; right; auto. }
        rewrite sq2; auto.
        + apply (F_same _ _ _ _ _ HF x S'); auto. right; auto.
        + intro C. apply lift_In in C. destruct C as [_ C].
          (* S and S' share p x: equal parts, but parts of P' are distinct positions *)
          assert (EQ := S_disj S S' (p x) HSP HS'P C Hp). subst S'.
          assert (ND := part_NoDup R0 R0_NoDup P' P'_part).
          rewrite (F_split _ _ _ _ _ HF), concat_app in ND. apply NoDup_app_inv in ND.
          destruct ND as (_ & ND & _). simpl in ND. apply NoDup_app_inv in ND.
          destruct ND as (_ & _ & ND). apply (ND (p x) C). apply in_concat. eauto.
      - (* Tok *)
        constructor.
        + apply (T_sorted _ _ _ HT').
        + apply (T_incl _ _ _ HT').
        + intros t [<-|Ht]; auto. apply filter_In in Ht. apply (T_hok _ _ _ HTc). tauto.
        + simpl. apply (part_replace X (map hset (filter (fun t => mem S (hrep t)) tc)) [lift S]).
          * rewrite <- map_app. eapply part_perm; [apply perm_map_hset; exact Hperm|].
            apply (T_part _ _ _ HTc).
          * simpl. rewrite app_nil_r, HF'. apply moved_part; auto.
          * intros [C|[]]. rewrite C in I2. destruct I2.
        + intros t x [<-|Ht] Hx.
          * unfold hrep. simpl hset. rewrite I0. split; [apply sq1|]. intro K.
            destruct (dec x) as [D|D]; auto. exfalso. destruct (Y2 x Hx D) as [_ K2].
            rewrite (sq2 x Hx D) in K. rewrite K in K2. auto.
          * apply filter_In in Ht. destruct Ht as [Ht Hn]. apply negb_true_iff, mem_false in Hn.
            assert (R1 := T_rep _ _ _ HTc t x Ht Hx). destruct (dec x) as [D|D].
            -- rewrite (sq1 x D). split; intro K.
               ++ exfalso. apply R1 in K. apply Hn. rewrite <- K.
                  apply (F_in _ _ _ _ _ HF x S); auto; apply lift_In in D; tauto.
               ++ exfalso. apply Hn. rewrite <- K. auto.
            -- rewrite (sq2 x Hx D). auto.
      - intros t [<-|Ht].
        + right. cbn [hlab]. apply (step_label S gs ms); auto. rewrite <- HF'. auto.
        + apply filter_In in Ht. apply (F_lab _ _ _ _ _ HF). tauto.
      - intros S' HS'. rewrite <- (F_todo _ _ _ _ _ HF S' (or_intror HS')).
        assert (HS'P : In S' P').
        { rewrite (F_split _ _ _ _ _ HF). apply in_or_app. right; right; auto. }
        assert (DJ : forall x, In x S -> In x S' -> False).
        { intros x K1 K2. assert (ND := part_NoDup R0 R0_NoDup P' P'_part).
          rewrite (F_split _ _ _ _ _ HF), concat_app in ND. apply NoDup_app_inv in ND.
          destruct ND as (_ & ND & _). simpl in ND. apply NoDup_app_inv in ND.
          destruct ND as (_ & _ & ND). apply (ND x K1). apply in_concat. eauto. }
        simpl. unfold hrep at 1. simpl hset. rewrite I0.
        assert (M : mem S' i = false) by (apply mem_false; intro C; exact (DJ i I1 C)). rewrite M.
        clear -DJ. induction tc as [|t tc IH]; simpl; auto.
        destruct (mem S (hrep t)) eqn:M1; simpl.
        + assert (M2 : mem S' (hrep t) = false).
          { apply mem_false. intro C. apply mem_In in M1. eauto. }
          rewrite M2. auto.
        + rewrite IH. reflexivity.
      - intros S' HS'. apply in_app_or in HS'. destruct HS' as [HS'|[<-|[]]]; [|left; auto].
        right. assert (K := F_done _ _ _ _ _ HF S' HS'). apply in_map_iff in K.
        destruct K as (t & T1 & T2). apply in_map_iff. exists t. split; auto. apply filter_In.
        split; auto. apply negb_true_iff, mem_false. intro C.
        assert (HS'P : In S' P').
        { rewrite (F_split _ _ _ _ _ HF). apply in_or_app. auto. }
        unfold hrep in C. rewrite T1 in C. destruct (hd_lift S' HS'P) as (J0 & J1 & J2).
        rewrite J0 in C.
        assert (EQ := S_disj S S' _ HSP HS'P C J1). subst S'.
        assert (ND := part_NoDup R0 R0_NoDup P' P'_part).
        rewrite (F_split _ _ _ _ _ HF), concat_app in ND. apply NoDup_app_inv in ND.
        destruct ND as (_ & _ & ND). apply (ND i).
        + apply in_concat. eauto.
        + simpl. apply in_or_app; auto.
      - intros B [<-|HB].
        + exists (lift S). split; [apply in_map; auto|apply incl_refl].
        + apply (F_ref _ _ _ _ _ HF). apply in_map_iff in HB. destruct HB as (t & <- & Ht).
          apply filter_In in Ht. apply in_map. tauto.
    Qed.

    (** The part still has two live nodes when it is contracted. *)
    Lemma step_live Pd S Pr G1 q tc G2 q2 gs ms :
      FInv Pd (S :: Pr) G1 q tc -> length S <> 1%nat ->
      Post q (lift S) (filter (fun t => mem S (hrep t)) tc) beta G2 q2 gs ms ->
      In (hd 0%nat S) (gnodes G2) /\ (2 <= length (filter (mem S) (gnodes G2)))%nat.
    Proof.
      intros HF HS1 HPo. assert (HFI := step_post Pd S Pr G1 q tc G2 q2 gs ms HF HS1 HPo).
      destruct HPo as (Q1 & Q2 & Q3 & Q4 & Q5 & Q6 & Q7).
      assert (HSP : In S P').
      { rewrite (F_split _ _ _ _ _ HF). apply in_or_app. right; left; auto. }
      assert (HF' := F_todo _ _ _ _ _ HF S (or_introl eq_refl)).
      destruct (hd_lift S HSP) as (I0 & I1 & I2).
      set (i := hd 0%nat S) in *.
      assert (SS : csorted S) by (apply dil_facts; auto).
      assert (Y1 : forall x, In x (lift S) -> In (q2 x) S).
      { intros x Hx. apply Q5 in Hx. rewrite HF' in Hx.
        eapply Permutation_in; [exact (moved_perm S HSP)|auto]. }
      assert (LV : forall x, In x (lift S) -> In x vs) by (intros x Hx; apply (T_incl _ _ _ HT'); apply (lift_X S); auto).
      assert (qi : q2 i = i).
      { assert (K := Y1 i I2). assert (K2 := hd_sorted_min S _ SS K). fold i in K2.
        destruct (S_p _ _ Q3 i (LV i I2)) as (_ & K3 & _). lia. }
      split; [apply (S_img _ _ Q3); eauto|].
      assert (Hms0 : ms <> []).
      { intro C. subst ms. inversion Q1 as [v g' EQ|X' g' ts' S0 L2 HPX T1 T3 HL HOs]; subst; simpl in *; [|lia].
        assert (L := moved_length S HSP).
        assert (LS : forall r, In r S -> r = v).
        { intros r' Hr. destruct (reps_X r' (S_reps S r' HSP Hr)) as [K1 K2].
          assert (KL : In r' (lift S)) by (apply lift_In; rewrite K2; auto). rewrite <- EQ in KL.
          destruct KL as [KL|[]]; auto. }
        assert (NS := csorted_NoDup S SS).
        destruct S as [|a [|b S]]; simpl in *; try lia.
        inversion NS as [|? ? N1 N2]; subst. apply N1. left.
        rewrite (LS a), (LS b); auto. }
      destruct (hok_kids E s e _ _ _ Q1 Hms0) as (L2 & HPm & HOm & _).
      assert (Hh : forall m, In m ms -> In (hrep m) (filter (mem S) (gnodes G2))).
      { intros m Hm.
        assert (Hr : In (hrep m) (hset m)) by (apply hd_In; eapply hok_nonempty; apply (HOm m Hm)).
        assert (Hl' : In (hrep m) (lift S)) by (apply (part_incl _ _ _ HPm (in_map hset _ _ Hm)); auto).
        assert (Hq : q2 (hrep m) = hrep m) by (apply Q7; auto).
        apply filter_In. split; [apply (S_img _ _ Q3); exists (hrep m); auto|].
        apply mem_In. rewrite <- Hq. auto. }
      assert (ND : NoDup (map hrep ms)).
      { apply nd_reps; [apply (part_NoDup (lift S)); auto; apply csorted_NoDup, lift_sorted|].
        intros t Ht. eapply hok_nonempty. apply (HOm t Ht). }
      apply Nat.le_trans with (length (map hrep ms)); [rewrite map_length; auto|].
      apply NoDup_incl_length; auto. intros x Hx. apply in_map_iff in Hx. destruct Hx as (m & <- & Hm). auto.
    Qed.

    Lemma step_single Pd S Pr G1 q tc :
      FInv Pd (S :: Pr) G1 q tc -> length S = 1%nat -> FInv (Pd ++ [S]) Pr G1 q tc.
    Proof.
      intros HF HS1. assert (HSP : In S P').
      { rewrite (F_split _ _ _ _ _ HF). apply in_or_app. right; left; auto. }
      assert (HF' := F_todo _ _ _ _ _ HF S (or_introl eq_refl)).
      destruct S as [|a [|b S]]; simpl in HS1; try lia.
      constructor; try apply HF.
      - rewrite <- app_assoc. apply (F_split _ _ _ _ _ HF).
      - intros x S' Hx HS'. apply (F_same _ _ _ _ _ HF); auto. right; auto.
      - intros S' HS'. apply (F_todo _ _ _ _ _ HF). right; auto.
      - intros S' HS'. apply in_app_or in HS'. destruct HS' as [HS'|[<-|[]]].
        + apply (F_done _ _ _ _ _ HF); auto.
        + assert (K : In a reps) by (apply (S_reps [a]); auto; left; auto).
          apply in_map_iff in K. destruct K as (t & T1 & T2).
          apply in_map_iff. exists t. split.
          * apply csorted_ext; [|apply lift_sorted|].
            -- eapply hok_sorted. apply (T_hok _ _ _ HT' t T2).
            -- intro x. rewrite lift_In. split.
               ++ intro Hx. assert (XX := hset_X t T2 x Hx). split; auto.
                  apply (T_rep _ _ _ HT' t x T2) in Hx; [|apply (T_incl _ _ _ HT'); auto].
                  left. congruence.
               ++ intros [XX [K|[]]]. apply (T_rep _ _ _ HT' t x T2); [apply (T_incl _ _ _ HT'); auto|].
                  congruence.
          * assert (K : In t (filter (fun t => mem [a] (hrep t)) tc)).
            { rewrite HF'. apply filter_In. split; auto. apply mem_In. left; auto. }
            apply filter_In in K. tauto.
    Qed.

    (** The final recursive call on the contracted children. *)
    Lemma final_pre G1 q tc : FInv P' [] G1 q tc ->
      Pre G1 q X tc g /\ length tc = length P' /\ refines (map hset ts) (map hset tc) /\
      (forall t, In t tc -> In (hrep t) reps).
    Proof.
      intro HF. assert (HTc := F_T _ _ _ _ _ HF).
      assert (SP : same_partition (map hset tc) Lp).
      { split; [apply (F_ref _ _ _ _ _ HF)|]. intros B HB. apply in_map_iff in HB.
        destruct HB as (S & <- & HS'). exists (lift S). split; [|apply incl_refl].
        apply (F_done _ _ _ _ _ HF); auto. }
      assert (LEN : length tc = length P').
      { assert (K := same_partition_length X X_NoDup _ _ (T_part _ _ _ HTc) Lp_part SP).
        unfold Lp in K. rewrite !map_length in K. auto. }
      assert (REF : refines (map hset ts) (map hset tc)).
      { eapply refines_trans; [apply (lift_coarse P' P'_part)|]. apply SP. }
      split; [|split; [auto|split; [auto|]]].
      - split; [apply (F_S _ _ _ _ _ HF)|]. split; auto. split; [|split].
        + assert (L1 := part_length_pos R0 R0_NoDup P' R0_ne P'_part). lia.
        + intros R HR HC. rewrite (same_partition_hval X X_NoDup (sub E X) g _ Lp); auto.
          * assert (K := Lp_best R HR (refines_trans _ _ _ REF HC)). lra.
          * apply (T_part _ _ _ HTc).
          * apply Lp_part.
        + apply (F_lab _ _ _ _ _ HF).
      - intros t Ht.
        assert (K : In (hrep t) X).
        { apply (part_incl X _ (hset t) (T_part _ _ _ HTc)); [apply in_map; auto|].
          apply hd_In. eapply hok_nonempty. apply (T_hok _ _ _ HTc t Ht). }
        assert (K2 : q (hrep t) = hrep t).
        { apply (T_rep _ _ _ HTc t); auto.
          - apply (T_incl _ _ _ HT'); auto.
          - apply hd_In. eapply hok_nonempty. apply (T_hok _ _ _ HTc t Ht). }
        destruct (part_cover R0 P' (p (hrep t)) P'_part (p_reps _ K)) as (S & S1 & S2).
        apply (F_in _ _ _ _ _ HF (hrep t) S K S1) in S2. rewrite K2 in S2.
        apply (S_reps S); auto.
    Qed.

    Lemma final_post G1 q tc G2 q2 g2 us : FInv P' [] G1 q tc ->
      Post q X tc g G2 q2 g2 us -> Post p X ts beta G2 q2 g2 us.
    Proof.
      intros HF (Q1 & Q2 & Q3 & Q4 & Q5 & Q6 & Q7).
      destruct (final_pre G1 q tc HF) as (_ & LEN & REF & RP).
      split; auto. split; [eapply refines_trans; eauto|]. split; auto. split; [|split; [|split]].
      - intros x Hx Hn. rewrite Q4 by auto. apply (F_out _ _ _ _ _ HF); auto.
      - intros x Hx. apply Q5 in Hx. apply in_map_iff in Hx. destruct Hx as (t & <- & Ht). apply RP; auto.
      - assert (K := gamma_le beta Hb). lra.
      - auto.
    Qed.

    Lemma P'_le : (length P' <= k)%nat.
    Proof. rewrite <- R0_length. apply part_length_le; auto using R0_NoDup, P'_part. Qed.
  End Level.
  (** ** Interface for the two classes *)
  Definition lv_sub (G : gst) (ts : list ht) : graph := sub_arcs G (map hrep ts).
  Definition lv_gamma (G : gst) (ts : list ht) : Q := split_gamma (lv_sub G ts) (length ts).
  Definition lv_dil (G : gst) (ts : list ht) : Q * list (list nat) :=
    tr (lv_gamma G ts) (lv_sub G ts) (enabled G (map hrep ts)).

  Section Interface.
    Variables (G : gst) (p : nat -> nat) (X : list nat) (ts : list ht) (beta : Q).
    Hypothesis HP : Pre G p X ts beta.
    Let P' := snd (lv_dil G ts).
    Let FI := FInv G p X ts.

    Lemma lv_leaf :
      (length ts = 2%nat \/ length P' = 1%nat \/ length P' = length ts \/
       - lv_gamma G ts - eps <= fst (lv_dil G ts)) -> Post p X ts beta G p (lv_gamma G ts) ts.
    Proof. destruct HP as (H1 & H2 & H3 & H4 & H5). apply leaf_ok; auto. Qed.

    Hypothesis Hlen : length P' <> 1%nat.

    Lemma lv_start : FI [] P' G p ts.
    Proof. destruct HP as (H1 & H2 & H3 & H4 & H5). eapply FInv_start; eauto. Qed.

    Lemma lv_pre Pd S Pr G1 q tc : FI Pd (S :: Pr) G1 q tc -> length S <> 1%nat ->
      Pre G1 q (lift p X S) (filter (fun t => mem S (hrep t)) tc) beta.
    Proof. destruct HP as (H1 & H2 & H3 & H4 & H5). eapply step_pre; eauto. Qed.

    Lemma lv_post Pd S Pr G1 q tc G2 q2 gs ms :
      FI Pd (S :: Pr) G1 q tc -> length S <> 1%nat ->
      Post q (lift p X S) (filter (fun t => mem S (hrep t)) tc) beta G2 q2 gs ms ->
      FI (Pd ++ [S]) Pr (contract eps G2 S (hd 0%nat S)) (fun x => squash S (hd 0%nat S) (q2 x))
         (HT (lift p X S) gs ms :: filter (fun t => negb (mem S (hrep t))) tc).
    Proof. destruct HP as (H1 & H2 & H3 & H4 & H5). eapply step_post; eauto. Qed.

    Lemma lv_live Pd S Pr G1 q tc G2 q2 gs ms :
      FI Pd (S :: Pr) G1 q tc -> length S <> 1%nat ->
      Post q (lift p X S) (filter (fun t => mem S (hrep t)) tc) beta G2 q2 gs ms ->
      In (hd 0%nat S) (gnodes G2) /\ (2 <= length (filter (mem S) (gnodes G2)))%nat.
    Proof. destruct HP as (H1 & H2 & H3 & H4 & H5). eapply step_live; eauto. Qed.

    Lemma lv_single Pd S Pr G1 q tc :
      FI Pd (S :: Pr) G1 q tc -> length S = 1%nat -> FI (Pd ++ [S]) Pr G1 q tc.
    Proof. destruct HP as (H1 & H2 & H3 & H4 & H5). eapply step_single; eauto. Qed.

    Lemma lv_final_pre G1 q tc : FI P' [] G1 q tc ->
      Pre G1 q X tc (lv_gamma G ts) /\ length tc = length P' /\
      refines (map hset ts) (map hset tc) /\ (forall t, In t tc -> In (hrep t) (map hrep ts)).
    Proof. destruct HP as (H1 & H2 & H3 & H4 & H5). intro H. eapply final_pre; eauto. Qed.

    Lemma lv_final_post G1 q tc G2 q2 g2 us : FI P' [] G1 q tc ->
      Post q X tc (lv_gamma G ts) G2 q2 g2 us -> Post p X ts beta G2 q2 g2 us.
    Proof.
      destruct HP as (H1 & H2 & H3 & H4 & H5). intros K1 K2.
      eapply (final_post G p H1 X ts H2 H3 beta H4 Hlen G1 q tc); eauto.
    Qed.

    Lemma lv_lt S : In S P' -> (length S < length ts)%nat.
    Proof. destruct HP as (H1 & H2 & H3 & H4 & H5). intro H. eapply S_lt; eauto. Qed.

    Lemma lv_le : (length P' <= length ts)%nat.
    Proof. destruct HP as (H1 & H2 & H3 & H4 & H5). eapply P'_le; eauto. Qed.

    Lemma lv_in Pd S Pr G1 q tc : FI Pd (S :: Pr) G1 q tc -> In S P'.
    Proof. intro H. unfold P'. change P' with (snd (lv_dil G ts)). 
      assert (K := F_split _ _ _ _ _ _ _ _ _ H).
      change (snd (tr (split_gamma (sub_arcs G (map hrep ts)) (length ts))
          (sub_arcs G (map hrep ts)) (enabled G (map hrep ts)))) with (snd (lv_dil G ts)) in K.
      rewrite K. apply in_or_app. right; left; auto.
    Qed.

    Lemma lv_sorted S : In S P' -> csorted S.
    Proof. destruct HP as (H1 & H2 & H3 & H4 & H5). intro H. eapply dil_facts; eauto. Qed.

    Lemma lv_hd S : In S P' ->
      hd 0%nat (lift p X S) = hd 0%nat S /\ In (hd 0%nat S) S /\ In (hd 0%nat S) (lift p X S).
    Proof. destruct HP as (H1 & H2 & H3 & H4 & H5). intro H. eapply hd_lift; eauto. Qed.

    Lemma lv_reps S x : In S P' -> In x S -> In x X /\ p x = x /\ In x (map hrep ts).
    Proof.
      destruct HP as (H1 & H2 & H3 & H4 & H5). intros H Hx.
      assert (K : In x (map hrep ts)) by (eapply S_reps; eauto).
      destruct (reps_X _ _ _ H2 x K). auto.
    Qed.

    (** A tree meets the part iff its representative lies in it. *)
    Lemma lv_hit Pd S Pr G1 q tc t x : FI Pd (S :: Pr) G1 q tc -> In t tc ->
      In x (hset t) -> In x S -> In (hrep t) S.
    Proof.
      intros H Ht Hx HS. assert (HSP := lv_in _ _ _ _ _ _ H).
      destruct (lv_reps S x HSP HS) as (K1 & K2 & K3).
      destruct HP as (H1 & H2 & H3 & H4 & H5).
      assert (HTc := F_T _ _ _ _ _ _ _ _ _ H).
      apply (T_rep _ _ _ HTc t x Ht) in Hx; [|apply (T_incl _ _ _ H2); auto].
      rewrite <- Hx. apply (F_in _ _ _ _ _ _ _ _ _ H x S); auto. rewrite K2. auto.
    Qed.

    Lemma lv_union Pd S Pr G1 q tc x : FI Pd (S :: Pr) G1 q tc ->
      (In x (concat (map hset (filter (fun t => mem S (hrep t)) tc))) <-> In x (lift p X S)).
    Proof.
      intro H. assert (HSP := lv_in _ _ _ _ _ _ H).
      rewrite (F_todo _ _ _ _ _ _ _ _ _ H S (or_introl eq_refl)).
      destruct HP as (H1 & H2 & H3 & H4 & H5). eapply moved_sets; eauto.
    Qed.

    Lemma lv_two Pd S Pr G1 q tc : FI Pd (S :: Pr) G1 q tc -> (2 <= length tc)%nat.
    Proof.
      intro H. destruct HP as (H1 & H2 & H3 & H4 & H5).
      assert (HTc := F_T _ _ _ _ _ _ _ _ _ H).
      assert (L := refines_length X (csorted_NoDup _ (T_sorted _ _ _ H2)) (map hset tc) (map (lift p X) P')
               (T_part _ _ _ HTc)).
      assert (K : (length (map (lift p X) P') <= length (map hset tc))%nat).
      { apply L; [eapply lift_part; eauto; eapply P'_part; eauto|apply (F_ref _ _ _ _ _ _ _ _ _ H)]. }
      rewrite !map_length in K.
      assert (K2 : (1 <= length P')%nat).
      { eapply (part_length_pos (enabled G (map hrep ts))).
        - eapply R0_NoDup; eauto.
        - eapply R0_ne; eauto.
        - eapply P'_part; eauto. }
      unfold P' in *. lia.
    Qed.
  End Interface.
End Dec.
