(** * DilThy: correctness of the Dilworth truncation loop. *)
From Verif Require Import Base Spec PartThy SubThy MSets SetsThy MGraph MaxFlow CutThy MDil.

(** Every arc comes from a node listed before its target. *)
Definition ordered (E : graph) (vs : list nat) : Prop :=
  forall l v r, vs = l ++ v :: r ->
  forall a, In a E -> adst a = v -> In (asrc a) l.

Lemma sink_cost_nonneg E j i : nonneg E -> 0 <= sink_cost E j i.
Proof.
  induction E as [|a t IH]; simpl; intro H; [lra|].
  destruct ((asrc a =? i)%nat && (adst a =? j)%nat).
  - apply H. left; auto.
  - apply IH. intros b Hb. apply H. right; auto.
Qed.

Lemma sink_cost_sum E j i :
  simple E ->
  sink_cost E j i == qsum (fun a => if (asrc a =? i)%nat && (adst a =? j)%nat then aw a else 0) E.
Proof.
  unfold simple. induction E as [|a t IH]; simpl; intro H; [reflexivity|].
  inversion H as [|? ? H1 H2]; subst.
  destruct ((asrc a =? i)%nat && (adst a =? j)%nat) eqn:E1.
  - apply andb_true_iff in E1. destruct E1 as [E1 E2].
    apply Nat.eqb_eq in E1. apply Nat.eqb_eq in E2.
    rewrite qsum_zero; [lra|]. intros b Hb.
    destruct ((asrc b =? i)%nat && (adst b =? j)%nat) eqn:E3; [|reflexivity].
    apply andb_true_iff in E3. destruct E3 as [E3 E4].
    apply Nat.eqb_eq in E3. apply Nat.eqb_eq in E4. exfalso. apply H1.
    apply in_map_iff. exists b. split; auto. congruence.
  - rewrite IH by auto. lra.
Qed.

Lemma qmax_spec a b : (a <= b /\ qmax a b = b) \/ (b <= a /\ qmax a b = a).
Proof.
  unfold qmax. destruct (Qltb a b) eqn:E.
  - apply Qltb_true in E. left. split; auto. lra.
  - apply Qltb_false in E. right. auto.
Qed.

(** Contribution of one node to the cut. *)
Lemma cut_st E j p X :
  nonneg E ->
  cut (st_arcs E j p) X ==
  (if X (fst p) then qmax 0 (- snd p) else qmax 0 (snd p) + sink_cost E j (fst p)).
Proof.
  intro HE. destruct p as [i x]. unfold st_arcs. cbv zeta. rewrite cut_app. simpl fst. simpl snd.
  assert (S := sink_cost_nonneg E j i HE).
  assert (C1 : cut (if Qltb x 0 then [mkNarc NSrc (NV i) (- x)] else []) X
               == if X i then qmax 0 (- x) else 0).
  { destruct (Qltb x 0) eqn:E1; unfold cut; simpl.
    - apply Qltb_true in E1. destruct (qmax_spec 0 (- x)) as [[H1 H2]|[H1 H2]]; rewrite H2;
        destruct (X i); simpl; lra.
    - apply Qltb_false in E1. destruct (qmax_spec 0 (- x)) as [[H1 H2]|[H1 H2]]; rewrite H2;
        destruct (X i); simpl; lra. }
  assert (C2 : cut (if Qltb 0 (qmax 0 x + sink_cost E j i)
                    then [mkNarc (NV i) NSnk (qmax 0 x + sink_cost E j i)] else []) X
               == if X i then 0 else qmax 0 x + sink_cost E j i).
  { destruct (Qltb 0 (qmax 0 x + sink_cost E j i)) eqn:E1; unfold cut; simpl.
    - destruct (X i); simpl; lra.
    - apply Qltb_false in E1. destruct (qmax_spec 0 x) as [[H1 H2]|[H1 H2]]; rewrite H2 in *;
        destruct (X i); simpl; lra. }
  rewrite C1, C2. destruct (X i); lra.
Qed.

Section Stage.
  Variable E : graph.
  Variable xs : list (nat * Q).
  Variable j : nat.
  Hypothesis HE : nonneg E.
  Hypothesis Hs : simple E.
  Hypothesis Hnd : NoDup (map fst xs).
  Hypothesis Hj : ~ In j (map fst xs).
  (** arcs into handled nodes and into [j] come from handled nodes *)
  Hypothesis Hin : forall a, In a E -> In (adst a) (map fst xs) \/ adst a = j ->
                             In (asrc a) (map fst xs).

  Let nodes := map fst xs.

  Lemma cut_inner X :
    cut (inner_arcs E nodes) X ==
    qsum (fun a => if (mem nodes (asrc a) && mem nodes (adst a)) &&
                      (negb (X (asrc a)) && X (adst a)) then aw a else 0) E.
  Proof.
    unfold cut, inner_arcs. rewrite qsum_map. simpl. rewrite qsum_filter.
    apply qsum_ext. intros a _.
    destruct (mem nodes (asrc a) && mem nodes (adst a)); reflexivity.
  Qed.

  Lemma sum_sink (X : nset) :
    qsum (fun p : nat * Q => if X (fst p) then 0 else sink_cost E j (fst p)) xs ==
    qsum (fun a => if (adst a =? j)%nat && (mem nodes (asrc a) && negb (X (asrc a)))
                   then aw a else 0) E.
  Proof.
    rewrite (qsum_ext _ (fun p : nat * Q => qsum (fun a =>
       if (asrc a =? fst p)%nat && ((adst a =? j)%nat && negb (X (asrc a))) then aw a else 0) E)).
    2:{ intros p Hp. destruct (X (fst p)) eqn:EX.
        - symmetry. apply qsum_zero. intros a _.
          destruct (asrc a =? fst p)%nat eqn:E1; simpl; [|reflexivity].
          apply Nat.eqb_eq in E1. rewrite E1, EX. simpl. rewrite andb_false_r. reflexivity.
        - rewrite sink_cost_sum by auto. apply qsum_ext. intros a _.
          destruct (asrc a =? fst p)%nat eqn:E1; simpl; [|reflexivity].
          apply Nat.eqb_eq in E1. rewrite E1, EX. simpl. rewrite andb_true_r. reflexivity. }
    rewrite qsum_swap. apply qsum_ext. intros a _.
    destruct ((adst a =? j)%nat && negb (X (asrc a))) eqn:E1.
    - apply andb_true_iff in E1. destruct E1 as [E1 E2]. rewrite E1, E2. simpl.
      rewrite andb_true_r.
      rewrite (qsum_ext _ (fun p : nat * Q => if (fst p =? asrc a)%nat then aw a else 0)).
      2:{ intros p _. rewrite Nat.eqb_sym. rewrite andb_true_r. reflexivity. }
      change (qsum (fun p : nat * Q => (fun y => if (y =? asrc a)%nat then aw a else 0) (fst p)) xs ==
              (if mem nodes (asrc a) then aw a else 0)).
      rewrite <- (qsum_map fst (fun y => if (y =? asrc a)%nat then aw a else 0) xs).
      destruct (mem nodes (asrc a)) eqn:E3.
      + apply qsum_single; auto. apply mem_In; auto.
      + apply qsum_zero. intros y Hy. destruct (y =? asrc a)%nat eqn:E4; [|reflexivity].
        apply Nat.eqb_eq in E4. subst y. apply mem_false in E3. contradiction.
    - rewrite qsum_zero.
      + destruct (adst a =? j)%nat, (mem nodes (asrc a)), (X (asrc a)); simpl in *;
          try discriminate; reflexivity.
      + intros p _. rewrite andb_false_r. reflexivity.
  Qed.

  (** The network cut computes the objective of the stage problem. *)
  Lemma cut_stage X :
    within X nodes ->
    cut (dil_network E xs j) X - qsum (fun p => qmax 0 (snd p)) xs ==
    incut E (fun x => Nat.eqb x j || X x) - xsum xs X.
  Proof.
    intro HX. unfold dil_network. rewrite cut_app, cut_flat_map.
    rewrite (qsum_ext (fun a => cut (st_arcs E j a) X)
       (fun p : nat * Q => (qmax 0 (snd p) - (if X (fst p) then snd p else 0)) +
                 (if X (fst p) then 0 else sink_cost E j (fst p)))).
    2:{ intros p _. rewrite cut_st by auto.
        destruct (X (fst p)); [|lra].
        destruct (qmax_spec 0 (snd p)) as [[H1 H2]|[H1 H2]]; rewrite H2;
        destruct (qmax_spec 0 (- snd p)) as [[H3 H4]|[H3 H4]]; rewrite H4; lra. }
    rewrite qsum_plus, qsum_minus. fold nodes. rewrite cut_inner, sum_sink.
    assert (K : incut E (fun x => Nat.eqb x j || X x) ==
      qsum (fun a => if (mem nodes (asrc a) && mem nodes (adst a)) &&
                      (negb (X (asrc a)) && X (adst a)) then aw a else 0) E +
      qsum (fun a => if (adst a =? j)%nat && (mem nodes (asrc a) && negb (X (asrc a)))
                   then aw a else 0) E).
    { rewrite <- qsum_plus. apply qsum_ext. intros a Ha.
      assert (Hin' := Hin a Ha).
      destruct (adst a =? j)%nat eqn:E1.
      - apply Nat.eqb_eq in E1.
        assert (I : In (asrc a) nodes) by auto.
        assert (XJ : X (adst a) = false).
        { destruct (X (adst a)) eqn:EX; auto. apply HX in EX. rewrite E1 in EX. contradiction. }
        rewrite XJ. apply mem_In in I. rewrite I.
        assert (NJ : (asrc a =? j)%nat = false).
        { apply Nat.eqb_neq. intro C. apply mem_In in I. rewrite C in I. contradiction. }
        rewrite NJ. simpl. rewrite !andb_false_r. destruct (X (asrc a)); simpl; lra.
      - simpl. destruct (X (adst a)) eqn:EX; simpl.
        + assert (I2 : In (adst a) nodes) by (apply HX; auto).
          assert (I1 : In (asrc a) nodes) by auto.
          assert (NJ : (asrc a =? j)%nat = false).
          { apply Nat.eqb_neq. intro C. rewrite C in I1. contradiction. }
          rewrite NJ. apply mem_In in I1. apply mem_In in I2. rewrite I1, I2. simpl.
          destruct (X (asrc a)); simpl; lra.
        + rewrite !andb_false_r. lra. }
    rewrite K. unfold xsum. lra.
  Qed.

  Lemma stage_net_ok : net_ok nodes (dil_network E xs j).
  Proof.
    split; auto. intros a Ha. unfold dil_network in Ha. apply in_app_or in Ha.
    destruct Ha as [Ha|Ha].
    - unfold inner_arcs in Ha. apply in_map_iff in Ha. destruct Ha as (b & <- & Hb).
      apply filter_In in Hb. destruct Hb as [Hb1 Hb2]. apply andb_true_iff in Hb2.
      destruct Hb2 as [Hb2 Hb3]. apply mem_In in Hb2. apply mem_In in Hb3. simpl.
      split; auto.
    - apply in_flat_map in Ha. destruct Ha as ([i x] & Hp & Ha).
      assert (Hi : In i nodes) by (apply (in_map fst) in Hp; auto).
      unfold st_arcs in Ha. cbv zeta in Ha. apply in_app_or in Ha. destruct Ha as [Ha|Ha].
      + destruct (Qltb x 0) eqn:E1; [|destruct Ha]. destruct Ha as [<-|[]]. simpl.
        apply Qltb_true in E1. split; [lra|auto].
      + destruct (Qltb 0 (qmax 0 x + sink_cost E j i)) eqn:E1; [|destruct Ha].
        destruct Ha as [<-|[]]. simpl. apply Qltb_true in E1. split; [lra|auto].
  Qed.

  Variable mc : solver.
  Hypothesis Hmc : MinCutSpec mc.
  Variable lam : Q.

  Let aT := dil_minimize mc lam E xs j.

  Lemma min_set_mem x : mem (snd aT) x = mem (snd (mc nodes (dil_network E xs j))) x.
  Proof.
    destruct (Hmc nodes _ stage_net_ok) as (Hi & _ & _).
    apply mem_ext. intro y. unfold aT, dil_minimize. simpl. fold nodes.
    rewrite cset_of_In, filter_In, mem_In. split; [tauto|]. intro Hy. split; auto.
  Qed.

  Lemma min_set_within : within (mem (snd aT)) nodes.
  Proof.
    intros x Hx. rewrite min_set_mem in Hx. apply mem_In in Hx.
    destruct (Hmc nodes _ stage_net_ok) as (Hi & _ & _). auto.
  Qed.

  Lemma min_value_attained :
    fst aT == incut E (fun x => Nat.eqb x j || mem (snd aT) x) - lam - xsum xs (mem (snd aT)).
  Proof.
    assert (C := cut_stage (mem (snd aT)) min_set_within).
    destruct (Hmc nodes _ stage_net_ok) as (Hi & Hv & _).
    rewrite (cut_ext _ (mem (snd aT)) _ min_set_mem) in C.
    rewrite <- Hv in C.
    assert (G : fst aT == fst (mc nodes (dil_network E xs j))
                          - (lam + qsum (fun p => qmax 0 (snd p)) xs)) by reflexivity.
    rewrite G. lra.
  Qed.

  Lemma min_value_least X :
    within X nodes ->
    fst aT <= incut E (fun x => Nat.eqb x j || X x) - lam - xsum xs X.
  Proof.
    intro HX. assert (C := cut_stage X HX).
    destruct (Hmc nodes _ stage_net_ok) as (_ & _ & Hm). specialize (Hm X).
    assert (G : fst aT == fst (mc nodes (dil_network E xs j))
                          - (lam + qsum (fun p => qmax 0 (snd p)) xs)) by reflexivity.
    rewrite G. lra.
  Qed.

  Lemma min_set_least X :
    MinSinkCutSpec mc -> within X nodes ->
    incut E (fun x => Nat.eqb x j || X x) - lam - xsum xs X == fst aT ->
    forall x, In x (snd aT) -> X x = true.
  Proof.
    intros [_ HS] HX Heq x Hx. apply (HS nodes _ stage_net_ok X).
    - assert (C := cut_stage X HX).
      assert (G : fst aT == fst (mc nodes (dil_network E xs j))
                            - (lam + qsum (fun p => qmax 0 (snd p)) xs)) by reflexivity.
      rewrite G in Heq. lra.
    - apply mem_In. rewrite <- min_set_mem. apply mem_In; auto.
  Qed.

  Lemma min_set_sorted : csorted (snd aT).
  Proof. unfold aT, dil_minimize. simpl. apply cset_of_sorted. Qed.
End Stage.

(** ** The loop *)
Lemma pexpand_perm P T :
  (forall B, In B P -> B <> []) -> T <> [] ->
  Permutation (pexpand P T)
    (fold_left (fun acc B => cunion B acc) (filter (meets T) P) T
     :: filter (fun B => negb (meets T B)) P).
Proof.
  intros HP HT. unfold pexpand. apply padd_perm. intro C.
  apply filter_In in C. destruct C as [_ C]. apply negb_true_iff in C.
  rewrite meets_false in C. destruct T as [|t T]; [congruence|].
  apply (C t); [left; auto|]. apply fold_cunion_In. left; left; auto.
Qed.

Lemma pexpand_In P T B :
  In B (pexpand P T) ->
  B = fold_left (fun acc B => cunion B acc) (filter (meets T) P) T \/
  (In B P /\ meets T B = false).
Proof.
  unfold pexpand. rewrite padd_In. intros [->|H]; auto.
  apply filter_In in H. destruct H as [H1 H2]. apply negb_true_iff in H2. auto.
Qed.

Lemma pexpand_partition nodes v P T :
  NoDup (nodes ++ [v]) -> is_partition nodes P -> csorted T -> incl T (nodes ++ [v]) -> In v T ->
  is_partition (nodes ++ [v]) (pexpand P T).
Proof.
  intros Hn HP HT HTi HvT.
  assert (Hne : forall B, In B P -> B <> []).
  { intros B HB C. subst. destruct HP as [_ HP]. auto. }
  assert (HTne : T <> []) by (intro C; subst; destruct HvT).
  assert (Hn' : NoDup nodes) by (apply NoDup_app_inv in Hn; tauto).
  set (U := fold_left (fun acc B => cunion B acc) (filter (meets T) P) T).
  set (R := filter (fun B => negb (meets T B)) P).
  apply part_perm with (P := U :: R).
  { symmetry. apply pexpand_perm; auto. }
  assert (HLR : Permutation P (filter (meets T) P ++ R)) by apply perm_filter_split.
  assert (HPLR := part_perm _ _ _ HLR HP).
  assert (N := part_NoDup nodes Hn' _ HPLR). rewrite concat_app in N.
  apply NoDup_app_inv in N. destruct N as (N1 & N2 & N3).
  assert (UI : forall x, In x U <-> In x T \/ In x (concat (filter (meets T) P)))
    by (intro x; apply fold_cunion_In).
  split.
  - simpl. apply NoDup_Permutation; auto.
    + apply NoDup_app_intro; auto.
      * apply csorted_NoDup. apply fold_cunion_sorted; auto.
      * intros x Hx HxR. apply UI in Hx. destruct Hx as [Hx|Hx].
        -- apply in_concat in HxR. destruct HxR as (B & HB & HxB).
           apply filter_In in HB. destruct HB as [_ HB]. apply negb_true_iff in HB.
           rewrite meets_false in HB. eapply HB; eauto.
        -- eapply N3; eauto.
    + intro x. rewrite in_app_iff, UI. split.
      * assert (Q : In x (concat (filter (meets T) P)) \/ In x (concat R) -> In x nodes).
        { intro H. destruct HPLR as [HPLR _]. eapply Permutation_in; [exact HPLR|].
          rewrite concat_app. apply in_or_app. tauto. }
        intros [[H|H]|H]; [apply HTi; auto| |]; apply in_or_app; left; apply Q; auto.
      * rewrite in_app_iff. intros [H|[<-|[]]]; [|left; left; auto].
        destruct HPLR as [HPLR _].
        apply (Permutation_in x (Permutation_sym HPLR)) in H.
        rewrite concat_app in H. apply in_app_or in H. tauto.
  - intros [C|C].
    + assert (In v U) by (apply UI; auto). rewrite C in H. destruct H.
    + apply filter_In in C. destruct C as [C _]. apply Hne in C. auto.
Qed.

Section Loop.
  Variable mc : solver.
  Hypothesis Hmc : MinCutSpec mc.
  Variable lam : Q.
  Variable E : graph.
  Variable vs : list nat.
  Hypothesis Hnd : NoDup vs.
  Hypothesis HE : graph_on vs E.
  Hypothesis Hs : simple E.
  Hypothesis Hord : ordered E vs.

  Let f := incut E.
  Let f_ext := incut_ext E.
  Let f_sub := fun A B (_ : exists x, A x = true /\ B x = true) =>
                 incut_sub E A B (graph_on_nonneg _ _ HE).

  Lemma stage_in (l : list nat) v r :
    vs = l ++ v :: r ->
    forall a, In a E -> In (adst a) l \/ adst a = v -> In (asrc a) l.
  Proof.
    intros Hvs a Ha [Hd|Hd].
    - apply in_split in Hd. destruct Hd as (l1 & l2 & Hl).
      assert (I : In (asrc a) l1).
      { eapply (Hord l1 (adst a)); [|exact Ha|reflexivity].
        rewrite Hvs, Hl, <- app_assoc. simpl. reflexivity. }
      rewrite Hl. apply in_or_app. auto.
    - eapply Hord; eauto.
  Qed.

  Definition Inv (xs : list (nat * Q)) (P : cpart) : Prop :=
    feas f lam xs /\ is_partition (map fst xs) P /\
    (forall B, In B P -> tight f lam xs (mem B) /\ csorted B).

  Lemma Inv_nil : Inv [] [].
  Proof.
    split; [apply feas_nil|]. split; [split; [constructor|intros []]|intros B []].
  Qed.

  Lemma map_fst_snoc (xs : list (nat * Q)) v a : map fst (xs ++ [(v, a)]) = map fst xs ++ [v].
  Proof. rewrite map_app. reflexivity. Qed.

  Definition stepT (xs : list (nat * Q)) (v : nat) : cset := cadd v (snd (dil_minimize mc lam E xs v)).
  Definition stepa (xs : list (nat * Q)) (v : nat) : Q := Qred (fst (dil_minimize mc lam E xs v)).

  Lemma stepT_mem xs v x :
    mem (stepT xs v) x = Nat.eqb x v || mem (snd (dil_minimize mc lam E xs v)) x.
  Proof.
    change (Nat.eqb x v || mem (snd (dil_minimize mc lam E xs v)) x)
      with (mem (v :: snd (dil_minimize mc lam E xs v)) x).
    apply mem_ext. intro y. unfold stepT. rewrite cadd_In. simpl. intuition.
  Qed.

  Section OneStep.
    Variable xs : list (nat * Q).
    Variable v : nat.
    Variable r : list nat.
    Hypothesis Hvs : vs = map fst xs ++ v :: r.

    Lemma step_nd : NoDup (map fst xs) /\ ~ In v (map fst xs).
    Proof.
      rewrite Hvs in Hnd. apply NoDup_app_inv in Hnd. destruct Hnd as (H1 & H2 & H3).
      split; auto. intro C. apply (H3 v); auto. left; auto.
    Qed.

    Lemma step_feas : feas f lam xs -> feas f lam (xs ++ [(v, stepa xs v)]).
    Proof.
      intro HF. destruct step_nd as [N1 N2]. apply feas_step; auto.
      intros X HX. unfold stepa. rewrite Qred_correct.
      apply min_value_least; auto.
      - exact (graph_on_nonneg _ _ HE).
      - apply (stage_in _ _ _ Hvs).
    Qed.

    Lemma stepT_within : within (mem (stepT xs v)) (map fst xs ++ [v]).
    Proof.
      destruct step_nd as [N1 N2]. intros x Hx. rewrite stepT_mem in Hx.
      apply orb_true_iff in Hx. apply in_or_app. destruct Hx as [Hx|Hx].
      - apply Nat.eqb_eq in Hx. subst. right; left; auto.
      - left. eapply (min_set_within E xs v); eauto.
        + exact (graph_on_nonneg _ _ HE).
    Qed.

    Lemma stepT_tight : tight f lam (xs ++ [(v, stepa xs v)]) (mem (stepT xs v)).
    Proof.
      destruct step_nd as [N1 N2].
      eapply tight_ext with (A := fun x => Nat.eqb x v || mem (snd (dil_minimize mc lam E xs v)) x).
      - exact f_ext.
      - intro x. symmetry. apply stepT_mem.
      - apply tight_new; auto.
        + eapply min_set_within; eauto. exact (graph_on_nonneg _ _ HE).
        + unfold stepa. rewrite Qred_correct. apply min_value_attained; auto.
          * exact (graph_on_nonneg _ _ HE).
          * apply (stage_in _ _ _ Hvs).
    Qed.

    Lemma stepT_sorted : csorted (stepT xs v).
    Proof. apply cadd_sorted. apply min_set_sorted. Qed.

    Lemma step_Inv P : Inv xs P -> Inv (xs ++ [(v, stepa xs v)]) (pexpand P (stepT xs v)).
    Proof.
      intros (HF & HP & HT). destruct step_nd as [N1 N2].
      assert (HF' := step_feas HF).
      assert (Hnd' : NoDup (map fst xs ++ [v])).
      { apply NoDup_app_intro; auto. constructor; auto. constructor.
        intros x Hx [<-|[]]; auto. }
      assert (HvT : In v (stepT xs v)) by (apply cadd_In; auto).
      split; [exact HF'|]. split.
      - rewrite map_fst_snoc. apply pexpand_partition; auto.
        + apply stepT_sorted.
        + intros x Hx. apply stepT_within. apply mem_In; auto.
      - intros B HB. apply pexpand_In in HB. destruct HB as [->|[HB Hm]].
        + split; [|apply fold_cunion_sorted; apply stepT_sorted].
          eapply tight_ext with (A := iunion (mem (stepT xs v)) (mem (concat (filter (meets (stepT xs v)) P)))).
          * exact f_ext.
          * intro x. unfold iunion. rewrite <- mem_app. apply mem_ext. intro y.
            rewrite in_app_iff, fold_cunion_In. tauto.
          * apply tight_expand; auto.
            -- rewrite map_fst_snoc. apply stepT_within.
            -- apply stepT_tight.
            -- assert (HLR : Permutation P (filter (meets (stepT xs v)) P ++
                    filter (fun B => negb (meets (stepT xs v) B)) P)) by apply perm_filter_split.
               assert (N := part_NoDup _ N1 _ (part_perm _ _ _ HLR HP)).
               rewrite concat_app in N. apply NoDup_app_inv in N. tauto.
            -- intros B HB. apply filter_In in HB. destruct HB as [HB _].
               assert (Bi : incl B (map fst xs)) by exact (part_incl _ _ _ HP HB).
               split.
               ++ apply tight_snoc; [|apply HT; auto]. apply mem_false. intro C. apply N2. auto.
               ++ rewrite map_fst_snoc. intros x Hx. apply in_or_app; auto.
            -- intros B HB. apply filter_In in HB. destruct HB as [_ HB].
               apply meets_true in HB. destruct HB as (x & H1 & H2). exists x. split; auto.
               apply mem_In; auto.
            -- exists v. apply mem_In; auto.
        + destruct (HT B HB) as [HT1 HT2]. split; auto.
          apply tight_snoc; auto. apply mem_false. intro C. apply N2.
          eapply part_incl; eauto.
    Qed.
  End OneStep.

  Lemma loop_unfold v t xs P :
    dil_loop mc lam E (v :: t) xs P =
    dil_loop mc lam E t (xs ++ [(v, stepa xs v)]) (pexpand P (stepT xs v)).
  Proof. reflexivity. Qed.

  Lemma loop_Inv todo : forall xs P,
    vs = map fst xs ++ todo -> Inv xs P ->
    let r := dil_loop mc lam E todo xs P in
    Inv (fst r) (snd r) /\ map fst (fst r) = vs.
  Proof.
    induction todo as [|v t IH]; intros xs P Hvs HI.
    - simpl. rewrite app_nil_r in Hvs. auto.
    - rewrite loop_unfold. apply IH.
      + rewrite map_fst_snoc, <- app_assoc. exact Hvs.
      + eapply step_Inv; eauto.
  Qed.

  Lemma run_Inv :
    let r := dil_loop mc lam E vs [] [] in Inv (fst r) (snd r) /\ map fst (fst r) = vs.
  Proof. apply loop_Inv; auto. apply Inv_nil. Qed.

  (** Correctness of the truncation: optimal value, optimal partition. *)
  Theorem dil_run_correct :
    optimal E vs lam (snd (dil_run mc lam E vs)) /\
    fst (dil_run mc lam E vs) == hval E lam (snd (dil_run mc lam E vs)) /\
    (forall B, In B (snd (dil_run mc lam E vs)) -> csorted B).
  Proof.
    destruct run_Inv as [(HF & HP & HT) Hm]. unfold dil_run. cbv zeta.
    set (r := dil_loop mc lam E vs [] []) in *. simpl.
    assert (Hnd2 : NoDup (map fst (fst r))) by (rewrite Hm; auto).
    assert (V : pval f lam (snd r) == qsum snd (fst r)).
    { apply tight_value; auto. intros B HB. apply HT; auto. }
    assert (HPv : is_partition vs (snd r)) by (rewrite <- Hm; auto).
    split; [|split].
    - apply popt_optimal; auto. split; auto. intros R HR. fold f. rewrite V.
      apply feas_lower; auto. rewrite Hm; auto.
    - rewrite <- V. apply (pval_hval E vs); auto.
    - intros B HB. apply HT; auto.
  Qed.

  (** Refinement of any tight partition, when sink sides are minimal. *)
  Hypothesis Hms : MinSinkCutSpec mc.

  Lemma step_fine xs v r ys P R :
    vs = map fst xs ++ v :: r ->
    Inv xs P -> refines P R ->
    map fst (xs ++ (v, stepa xs v) :: ys) = vs ->
    feas f lam (xs ++ (v, stepa xs v) :: ys) ->
    is_partition vs R ->
    (forall C, In C R -> tight f lam (xs ++ (v, stepa xs v) :: ys) (mem C)) ->
    refines (pexpand P (stepT xs v)) R.
  Proof.
    intros Hvs (HF & HP & HT) HPR Hzs HFz HR HRt.
    destruct (step_nd xs v r Hvs) as [N1 N2].
    set (zs := xs ++ (v, stepa xs v) :: ys) in *.
    assert (HvV : In v vs) by (rewrite Hvs; apply in_or_app; right; left; auto).
    destruct (part_cover vs R v HR HvV) as (C & HC & HvC).
    assert (HvT : In v (stepT xs v)) by (apply cadd_In; auto).
    assert (Rest : forall S, within S (map fst xs ++ [v]) ->
               xsum zs S == xsum (xs ++ [(v, stepa xs v)]) S).
    { intros S HS. unfold zs, xsum. replace (xs ++ (v, stepa xs v) :: ys)
        with ((xs ++ [(v, stepa xs v)]) ++ ys) by (rewrite <- app_assoc; reflexivity).
      rewrite qsum_app. rewrite (qsum_zero _ ys); [lra|].
      intros p Hp. destruct (S (fst p)) eqn:ES; [|reflexivity]. exfalso.
      assert (Z : NoDup (map fst zs)) by (rewrite Hzs; auto).
      unfold zs in Z. replace (xs ++ (v, stepa xs v) :: ys)
        with ((xs ++ [(v, stepa xs v)]) ++ ys) in Z by (rewrite <- app_assoc; reflexivity).
      rewrite map_app in Z. apply NoDup_app_inv in Z. destruct Z as (_ & _ & Z).
      apply (Z (fst p)); [|apply in_map; auto]. rewrite map_fst_snoc. auto. }
    (* stepT is tight for zs, and its trace on C too *)
    assert (T1 : tight f lam zs (mem (stepT xs v))).
    { unfold tight. rewrite Rest by (eapply stepT_within; eauto). eapply stepT_tight; eauto. }
    assert (T2 : tight f lam zs (iinter (mem (stepT xs v)) (mem C))).
    { apply tight_inter; auto.
      - rewrite Hzs. intros x Hx. apply (stepT_within xs v r Hvs) in Hx. rewrite Hvs.
        apply in_app_or in Hx. apply in_or_app. destruct Hx as [Hx|[<-|[]]]; auto.
        right; left; auto.
      - rewrite Hzs. intros x Hx. apply mem_In in Hx. exact (part_incl _ _ _ HR HC x Hx).
      - exists v. split; apply mem_In; auto. }
    assert (TC : incl (stepT xs v) C).
    { intros x Hx. unfold stepT in Hx. apply cadd_In in Hx. destruct Hx as [->|Hx]; auto.
      set (X := fun y => mem (snd (dil_minimize mc lam E xs v)) y && mem C y).
      assert (HXw : within X (map fst xs)).
      { intros y Hy. unfold X in Hy. apply andb_true_iff in Hy. destruct Hy as [Hy _].
        eapply (min_set_within E xs v); eauto. exact (graph_on_nonneg _ _ HE). }
      assert (EX : forall y, (Nat.eqb y v || X y) = iinter (mem (stepT xs v)) (mem C) y).
      { intro y. unfold iinter. rewrite stepT_mem. unfold X.
        destruct (Nat.eqb y v) eqn:Ey; simpl; auto.
        apply Nat.eqb_eq in Ey. subst. symmetry. apply mem_In; auto. }
      assert (GX : X x = true).
      { eapply (min_set_least E xs v (graph_on_nonneg _ _ HE) Hs N1 N2
                 (stage_in _ _ _ Hvs) mc Hmc lam X Hms HXw); eauto.
        fold f. unfold tight in T2.
        rewrite Rest in T2.
        2:{ intros y Hy. unfold iinter in Hy. apply andb_true_iff in Hy.
            apply (stepT_within xs v r Hvs). tauto. }
        rewrite <- (xsum_ext _ _ _ EX) in T2. assert (EF := incut_ext E _ _ EX).
        rewrite xsum_snoc in T2. rewrite Nat.eqb_refl in T2. simpl in T2.
        unfold stepa in T2. rewrite Qred_correct in T2.
        assert (ExX : xsum xs (fun y => Nat.eqb y v || X y) == xsum xs X).
        { apply qsum_ext. intros p Hp. destruct (Nat.eqb (fst p) v) eqn:Ep; simpl; [|reflexivity].
          apply Nat.eqb_eq in Ep. exfalso. apply N2. rewrite <- Ep. apply in_map; auto. }
        unfold f in *. lra. }
      unfold X in GX. apply andb_true_iff in GX. apply mem_In. tauto. }
    intros B HB. apply pexpand_In in HB. destruct HB as [->|[HB Hm]].
    - exists C. split; auto. intros x Hx. apply fold_cunion_In in Hx.
      destruct Hx as [Hx|Hx]; auto. apply in_concat in Hx. destruct Hx as (B & HB & HxB).
      apply filter_In in HB. destruct HB as [HB Hmt]. apply meets_true in Hmt.
      destruct Hmt as (y & Hy1 & Hy2). destruct (HPR B HB) as (D & HD & HBD).
      assert (D = C) by exact (part_unique vs R D C y Hnd HR HD HC (HBD y Hy2) (TC y Hy1)).
      subst D. auto.
    - apply HPR; auto.
  Qed.

  Lemma loop_extends todo : forall xs P,
    exists ys, fst (dil_loop mc lam E todo xs P) = xs ++ ys.
  Proof.
    induction todo as [|v t IH]; intros xs P.
    - exists []. rewrite app_nil_r. auto.
    - rewrite loop_unfold.
      destruct (IH (xs ++ [(v, stepa xs v)]) (pexpand P (stepT xs v))) as (ys & H).
      rewrite H. rewrite <- app_assoc. simpl. eauto.
  Qed.

  Lemma loop_fine todo : forall xs P R,
    vs = map fst xs ++ todo -> Inv xs P -> refines P R ->
    is_partition vs R ->
    (forall C, In C R -> tight f lam (fst (dil_loop mc lam E todo xs P)) (mem C)) ->
    refines (snd (dil_loop mc lam E todo xs P)) R.
  Proof.
    induction todo as [|v t IH]; intros xs P R Hvs HI HPR HR HT.
    - simpl. auto.
    - rewrite loop_unfold in *.
      assert (Hvs' : vs = map fst (xs ++ [(v, stepa xs v)]) ++ t).
      { rewrite map_fst_snoc, <- app_assoc. exact Hvs. }
      assert (HI' := step_Inv xs v t Hvs P HI).
      apply IH; auto.
      destruct (loop_Inv t _ _ Hvs' HI') as [(HFz & _ & _) Hmz].
      destruct (loop_extends t (xs ++ [(v, stepa xs v)]) (pexpand P (stepT xs v))) as (ys & Hys).
      rewrite Hys in *. rewrite <- app_assoc in *. simpl in *.
      eapply step_fine; eauto.
  Qed.

  (** The truncation returns the finest optimal partition. *)
  Theorem dil_run_finest R :
    optimal E vs lam R -> refines (snd (dil_run mc lam E vs)) R.
  Proof.
    intros HR. unfold dil_run. cbv zeta. simpl.
    destruct run_Inv as [(HF & HP & HT) Hm].
    assert (Hnd2 : NoDup (map fst (fst (dil_loop mc lam E vs [] [])))) by (rewrite Hm; auto).
    apply loop_fine; auto.
    - apply Inv_nil.
    - intros B [].
    - apply HR.
    - apply opt_parts_tight; auto.
      + rewrite Hm. apply HR.
      + assert (V : pval f lam (snd (dil_loop mc lam E vs [] [])) ==
                    qsum snd (fst (dil_loop mc lam E vs [] []))).
        { apply tight_value; auto. intros B HB. apply HT; auto. }
        rewrite <- V. destruct (proj2 (popt_optimal E vs lam R Hnd HE) HR) as [_ HRo].
        apply HRo. rewrite Hm in HP. exact HP.
  Qed.
End Loop.
