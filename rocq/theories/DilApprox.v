(** * DilApprox: the Dilworth truncation with a solver that is only approximately right. *)
From Verif Require Import Base Spec PartThy SubThy MSets SetsThy MGraph MaxFlow CutThy MDil DilThy.

(** On networks with at most [n] inner nodes and [n * n + 2 * n] arcs the reported value is within
    [d] of the capacity of the reported cut, and at most [d] above the capacity of every cut. *)
Definition ApproxCutSpec (d : Q) (n : nat) (mc : solver) : Prop :=
  forall nodes N, net_ok nodes N -> (length nodes <= n)%nat -> (length N <= n * n + 2 * n)%nat ->
    incl (snd (mc nodes N)) nodes /\
    cut N (mem (snd (mc nodes N))) <= fst (mc nodes N) + d /\
    forall Y, fst (mc nodes N) <= cut N Y + d.

Lemma approx_of_exact n mc : MinCutSpec mc -> ApproxCutSpec 0 n mc.
Proof.
  intros H nodes N HN _ _. destruct (H nodes N HN) as (A & B & C). split; auto. split; [lra|].
  intro Y. specialize (C Y). lra.
Qed.

Lemma exact_of_approx mc : (forall n, ApproxCutSpec 0 n mc) -> MinCutSpec mc.
Proof.
  intros H nodes N HN. destruct (H (length nodes + length N)%nat nodes N HN) as (A & B & C); [lia|nia|].
  split; auto. split; [apply Qle_antisym; [|lra]|]; [specialize (C (mem (snd (mc nodes N)))); lra|].
  intro Y. specialize (C Y). lra.
Qed.

(** ** Accuracy from an approximate flow *)

(** Flow over the arcs entering the set minus flow over the arcs leaving it. *)
Definition net_in (F : list (narc * Q)) (S : nnode -> bool) : Q :=
  qsum (fun p => (if S (ndst (fst p)) then snd p else 0) - (if S (nsrc (fst p)) then snd p else 0)) F.

Definition is_node (v : nat) (u : nnode) : bool := match u with NV x => Nat.eqb x v | _ => false end.
Definition is_snk (u : nnode) : bool := match u with NSnk => true | _ => false end.

(** What a preflow computed with tolerance [eta] shows of a reported value and sink side [W]: flows
    within the capacities, no node sends more than it receives, the nodes of [W] receive no more than
    they send, the arcs into [W] are full, those out of it empty, all up to [eta]; the value is what
    the sink receives. *)
Definition near_flow (eta : Q) (nodes : list nat) (N : network) (value : Q) (W : list nat) : Prop :=
  incl W nodes /\ NoDup W /\ exists F : list (narc * Q), map fst F = N /\
    (forall p, In p F -> - eta <= snd p /\ snd p <= ncap (fst p) + eta) /\
    (forall v, In v nodes -> - eta <= net_in F (is_node v)) /\
    (forall v, In v W -> net_in F (is_node v) <= eta) /\
    (forall p, In p F -> side (mem W) (nsrc (fst p)) = false -> side (mem W) (ndst (fst p)) = true ->
       ncap (fst p) - eta <= snd p) /\
    (forall p, In p F -> side (mem W) (nsrc (fst p)) = true -> side (mem W) (ndst (fst p)) = false ->
       snd p <= eta) /\
    value == net_in F is_snk.

Lemma side_nodes W u : NoDup W -> (if side (mem W) u then 1 else 0) ==
  (if is_snk u then 1 else 0) + qsum (fun v => if is_node v u then 1 else 0) W.
Proof.
  intro H. destruct u as [| |v]; simpl.
  - rewrite qsum_zero; [reflexivity|auto]. intros; reflexivity.
  - rewrite qsum_zero; [reflexivity|auto]. intros; reflexivity.
  - induction W as [|w W IH]; simpl; [reflexivity|]. inversion H as [|? ? N1 N2]; subst.
    specialize (IH N2). rewrite Nat.eqb_sym. destruct (Nat.eqb_spec w v) as [->|Hv]; simpl.
    + rewrite qsum_zero; [ring|]. intros x Hx. destruct (Nat.eqb_spec v x); [|reflexivity]. congruence.
    + rewrite IH. lra.
Qed.

Lemma net_in_side F W : NoDup W ->
  net_in F (side (mem W)) == net_in F is_snk + qsum (fun v => net_in F (is_node v)) W.
Proof.
  intro H. unfold net_in. rewrite qsum_swap, <- qsum_plus. apply qsum_ext. intros p _.
  assert (A := side_nodes W (ndst (fst p)) H). assert (B := side_nodes W (nsrc (fst p)) H).
  set (x := snd p) in *.
  assert (S1 : forall u, qsum (fun v => if is_node v u then x else 0) W == x * qsum (fun v => if is_node v u then 1 else 0) W).
  { intro u. rewrite <- qsum_scal. apply qsum_ext. intros v _. destruct (is_node v u); ring. }
  rewrite qsum_minus, !S1.
  assert (T : forall b : bool, (if b then x else 0) == x * (if b then 1 else 0)) by (intros []; ring).
  rewrite !T, A, B. ring.
Qed.

Section Sets.
  Variable f : nset -> Q.
  Hypothesis f_ext : forall A B, (forall x, A x = B x) -> f A == f B.
  Hypothesis f_sub : forall A B, (exists x, A x = true /\ B x = true) ->
    f (iunion A B) + f (iinter A B) <= f A + f B.
  Variables lam d : Q.

  Definition dfeas (xs : list (nat * Q)) : Prop :=
    forall S, (exists x, S x = true) -> within S (map fst xs) -> xsum xs S <= f S - lam + d.
  (** [S] is tight up to [c]. *)
  Definition lack (xs : list (nat * Q)) (c : Q) (S : nset) : Prop := f S - lam <= xsum xs S + c.

  Lemma lack_ext xs c A B : (forall x, A x = B x) -> lack xs c A -> lack xs c B.
  Proof. unfold lack. intros H K. rewrite <- (xsum_ext xs A B H), <- (f_ext A B H). auto. Qed.

  Lemma lack_union xs a b A B : dfeas xs -> within A (map fst xs) -> (exists x, A x = true /\ B x = true) ->
    lack xs a A -> lack xs b B -> lack xs (a + b + d) (iunion A B).
  Proof.
    intros HF HA (z & Z1 & Z2) H1 H2. assert (S := f_sub A B (ex_intro _ z (conj Z1 Z2))).
    assert (M := xsum_modular xs A B).
    assert (F : xsum xs (iinter A B) <= f (iinter A B) - lam + d).
    { apply HF; [exists z; unfold iinter; rewrite Z1, Z2; reflexivity|].
      intros x Hx. unfold iinter in Hx. apply andb_true_iff in Hx. apply HA. tauto. }
    unfold lack in *. lra.
  Qed.

  Lemma lack_expand xs c (L : list (list nat)) : forall T, dfeas xs -> within T (map fst xs) -> lack xs c T ->
    (forall B, In B L -> lack xs ((2 * qn (length B) - 1) * d) (mem B) /\ incl B (map fst xs)) ->
    (forall B, In B L -> exists x, T x = true /\ In x B) ->
    lack xs (c + 2 * qn (length (concat L)) * d) (iunion T (mem (concat L))).
  Proof.
    revert c. induction L as [|B L IH]; intros c T HF HT H HL Hm.
    - eapply lack_ext with (A := T); [intro x; unfold iunion; simpl; rewrite orb_false_r; auto|].
      unfold lack in *. cbn [concat length]. change (qn 0) with 0. lra.
    - destruct (Hm B (or_introl eq_refl)) as (z & Z1 & Z2). destruct (HL B (or_introl eq_refl)) as [L1 L2].
      assert (K : lack xs (c + (2 * qn (length B) - 1) * d + d) (iunion T (mem B))).
      { apply lack_union; auto. exists z. split; auto. apply mem_In; auto. }
      eapply lack_ext with (A := iunion (iunion T (mem B)) (mem (concat L))).
      { intro x. unfold iunion. cbn [concat]. rewrite mem_app. rewrite orb_assoc. reflexivity. }
      assert (W : within (iunion T (mem B)) (map fst xs)).
      { intros x Hx. unfold iunion in Hx. apply orb_true_iff in Hx. destruct Hx as [Hx|Hx]; [auto|]. apply L2. apply mem_In; auto. }
      assert (M : forall B', In B' L -> exists x, iunion T (mem B) x = true /\ In x B').
      { intros B' HB'. destruct (Hm B' (or_intror HB')) as (y & Y1 & Y2). exists y. split; auto. unfold iunion. rewrite Y1. auto. }
      assert (K2 := IH _ _ HF W K (fun B' HB' => HL B' (or_intror HB')) M).
      unfold lack in *. cbn [concat]. rewrite app_length.
      assert (Q1 : qn (length B + length (concat L)) == qn (length B) + qn (length (concat L))).
      { unfold qn. rewrite Nat2Z.inj_add, inject_Z_plus. reflexivity. }
      rewrite Q1. lra.
  Qed.

  Lemma dfeas_step xs v a : 0 <= d -> dfeas xs -> ~ In v (map fst xs) ->
    (forall X, within X (map fst xs) -> a <= f (fun x => Nat.eqb x v || X x) - lam - xsum xs X + d) ->
    dfeas (xs ++ [(v, a)]).
  Proof.
    intros Hd HF Hv Ha S Hne HS. rewrite xsum_snoc.
    rewrite map_app in HS. simpl in HS.
    destruct (S v) eqn:Ev.
    - set (X := fun x => S x && negb (Nat.eqb x v)).
      assert (HX : within X (map fst xs)).
      { intros x Hx. unfold X in Hx. apply andb_true_iff in Hx. destruct Hx as [H1 H2].
        apply HS in H1. apply in_app_or in H1. destruct H1 as [H1|[H1|[]]]; auto.
        subst. rewrite Nat.eqb_refl in H2. discriminate. }
      specialize (Ha X HX).
      assert (E1 : f (fun x => Nat.eqb x v || X x) == f S).
      { apply f_ext. intro x. unfold X. destruct (Nat.eqb x v) eqn:E; simpl.
        - apply Nat.eqb_eq in E. subst. auto.
        - rewrite andb_true_r. reflexivity. }
      assert (E2 : xsum xs X == xsum xs S).
      { apply qsum_ext. intros p Hp. unfold X.
        destruct (Nat.eqb (fst p) v) eqn:E; simpl.
        - apply Nat.eqb_eq in E. exfalso. apply Hv. rewrite <- E. apply in_map; auto.
        - rewrite andb_true_r. reflexivity. }
      lra.
    - rewrite Qplus_0_r. apply HF; auto. intros x Hx. assert (I := HS x Hx).
      apply in_app_or in I. destruct I as [I|[I|[]]]; auto. subst. congruence.
  Qed.
End Sets.

Lemma cut_nodes nodes N Y : net_ok nodes N -> cut N (mem (filter Y nodes)) == cut N Y.
Proof.
  intros [_ H]. apply qsum_ext. intros a Ha. destruct (H a Ha) as (_ & H1 & H2).
  assert (K : forall u, nnode_ok nodes u -> side (mem (filter Y nodes)) u = side Y u).
  { intros [| |v] Hv; simpl in *; auto. destruct (Y v) eqn:Ev.
    - apply mem_In. apply filter_In. auto.
    - apply mem_false. intro C. apply filter_In in C. destruct C. congruence. }
  rewrite !K; auto. reflexivity.
Qed.

Lemma near_flow_approx eta nodes N value W : 0 <= eta -> net_ok nodes N -> near_flow eta nodes N value W ->
  cut N (mem W) <= value + (qn (length nodes) + qn (length N)) * eta /\
  forall Y, value <= cut N Y + (qn (length nodes) + qn (length N)) * eta.
Proof.
  intros He HN (Wi & Wn & F & <- & B & Ex & In1 & Full & Emp & Hv).
  assert (LW : qn (length W) <= qn (length nodes)) by (apply qn_le; apply NoDup_incl_length; auto).
  rewrite map_length.
  assert (Z : 0 <= (qn (length nodes) - qn (length W)) * eta) by (apply Qmult_le_0_compat; lra).
  split.
  - assert (A : cut (map fst F) (mem W) <= net_in F (side (mem W)) + eta * qn (length F)).
    { unfold cut. rewrite qsum_map, <- qsum_const. unfold net_in. rewrite <- qsum_plus. apply qsum_le. intros p Hp.
      specialize (Full p Hp). specialize (Emp p Hp).
      destruct (side (mem W) (nsrc (fst p))), (side (mem W) (ndst (fst p))); cbn [negb andb];
        try specialize (Full eq_refl eq_refl); try specialize (Emp eq_refl eq_refl); lra. }
    rewrite (net_in_side F W Wn), <- Hv in A.
    assert (C : qsum (fun v => net_in F (is_node v)) W <= eta * qn (length W)).
    { rewrite <- qsum_const. apply qsum_le. auto. }
    lra.
  - intro Y. rewrite <- (cut_nodes nodes _ Y HN). set (V := filter Y nodes).
    assert (Vn : NoDup V) by (apply NoDup_filter; apply HN).
    assert (Vi : incl V nodes) by (intros x Hx; apply filter_In in Hx; tauto).
    assert (LV : qn (length V) <= qn (length nodes)) by (apply qn_le; apply NoDup_incl_length; auto).
    assert (Z2 : 0 <= (qn (length nodes) - qn (length V)) * eta) by (apply Qmult_le_0_compat; lra).
    assert (A : net_in F (side (mem V)) <= cut (map fst F) (mem V) + eta * qn (length F)).
    { unfold cut. rewrite qsum_map, <- qsum_const. unfold net_in. rewrite <- qsum_plus. apply qsum_le. intros p Hp.
      destruct (B p Hp) as [B1 B2].
      assert (0 <= ncap (fst p)) by (apply HN; apply in_map; auto).
      destruct (side (mem V) (nsrc (fst p))), (side (mem V) (ndst (fst p))); cbn [negb andb]; lra. }
    rewrite (net_in_side F V Vn), <- Hv in A.
    assert (C : qsum (fun _ => - eta) V <= qsum (fun v => net_in F (is_node v)) V).
    { apply qsum_le. auto. }
    rewrite qsum_const in C. lra.
Qed.

(** A solver whose results come with such a flow satisfies the weakened contract. *)
Lemma near_flow_spec eta n mc : 0 <= eta ->
  (forall nodes N, net_ok nodes N -> near_flow eta nodes N (fst (mc nodes N)) (snd (mc nodes N))) ->
  ApproxCutSpec (qn (n * n + 3 * n) * eta) n mc.
Proof.
  intros He H nodes N HN L1 L2. assert (K := H nodes N HN). split; [apply K|].
  assert (L : qn (length nodes) + qn (length N) <= qn (n * n + 3 * n)).
  { unfold qn. rewrite <- inject_Z_plus, <- Zle_Qle. lia. }
  assert (Z : 0 <= (qn (n * n + 3 * n) - (qn (length nodes) + qn (length N))) * eta) by (apply Qmult_le_0_compat; lra).
  destruct (near_flow_approx eta nodes N _ _ He HN K) as [A B]. split; [lra|]. intro Y. specialize (B Y). lra.
Qed.

Section Loop.
  Variable d : Q.
  Hypothesis Hd : 0 <= d.
  Variable mc : solver.
  Variable n : nat.
  Hypothesis Hmc : ApproxCutSpec d n mc.
  Variable lam : Q.
  Variable E : graph.
  Variable vs : list nat.
  Hypothesis Hnd : NoDup vs.
  Hypothesis HE : graph_on vs E.
  Hypothesis Hs : simple E.
  Hypothesis Hord : ordered E vs.
  Hypothesis Hvn : (length vs <= n)%nat.

  Let f := incut E.
  Let f_ext := incut_ext E.
  Let f_sub := fun A B (_ : exists x, A x = true /\ B x = true) =>
                 incut_sub E A B (graph_on_nonneg _ _ HE).

  Definition AInv (xs : list (nat * Q)) (P : cpart) : Prop :=
    dfeas f lam d xs /\ is_partition (map fst xs) P /\
    (forall B, In B P -> lack f lam xs ((2 * qn (length B) - 1) * d) (mem B) /\ csorted B).

  Section OneStep.
    Variable xs : list (nat * Q).
    Variable v : nat.
    Variable r : list nat.
    Hypothesis Hvs : vs = map fst xs ++ v :: r.
    Let T := stepT mc lam E xs v.
    Let a := stepa mc lam E xs v.
    Let T0 := snd (dil_minimize mc lam E xs v).

    Lemma astep_nd : NoDup (map fst xs) /\ ~ In v (map fst xs).
    Proof. eapply step_nd; eauto. Qed.

    Lemma anet_ok : net_ok (map fst xs) (dil_network E xs v).
    Proof. destruct astep_nd as [N1 _]. apply stage_net_ok; [exact (graph_on_nonneg _ _ HE)|exact N1]. Qed.

    Lemma anet_size : (length (dil_network E xs v) <= n * n + 2 * n)%nat.
    Proof.
      assert (L : (length (map fst xs) <= n)%nat) by (rewrite Hvs, app_length in Hvn; lia). rewrite map_length in L.
      unfold dil_network. rewrite app_length. apply Nat.add_le_mono.
      - unfold inner_arcs. rewrite map_length.
        set (I := filter (fun a0 => mem (map fst xs) (asrc a0) && mem (map fst xs) (adst a0)) E).
        rewrite <- (map_length (fun a0 => (asrc a0, adst a0)) I).
        apply Nat.le_trans with (length (list_prod (map fst xs) (map fst xs))).
        + apply NoDup_incl_length.
          * unfold I. revert Hs. unfold simple. generalize E. intro l. induction l as [|b l IH]; simpl; intro K; auto.
            inversion K; subst. destruct (mem (map fst xs) (asrc b) && mem (map fst xs) (adst b)); simpl; auto.
            constructor; auto. intro C. apply H1. apply in_map_iff in C. destruct C as (c & C1 & C2).
            apply in_map_iff. exists c. split; auto. apply filter_In in C2. tauto.
          * intros q Hq. apply in_map_iff in Hq. destruct Hq as (b & <- & Hb). apply filter_In in Hb. destruct Hb as [_ Hb].
            apply andb_true_iff in Hb. rewrite !mem_In in Hb. apply in_prod; tauto.
        + rewrite prod_length, map_length. apply Nat.mul_le_mono; auto.
      - assert (K : forall l, (length (flat_map (st_arcs E v) l) <= 2 * length l)%nat).
        { induction l as [|[i x] l IH]; cbn [flat_map length]; [lia|]. rewrite app_length. unfold st_arcs at 1. cbv zeta.
          rewrite app_length. destruct (Qltb x 0); destruct (Qltb 0 (qmax 0 x + sink_cost E v i)); cbn [length]; lia. }
        specialize (K xs). lia.
    Qed.

    Let anodes : (length (map fst xs) <= n)%nat.
    Proof. rewrite Hvs, app_length in Hvn. lia. Qed.

    Lemma amin_mem x : mem T0 x = mem (snd (mc (map fst xs) (dil_network E xs v))) x.
    Proof.
      destruct (Hmc _ _ anet_ok anodes anet_size) as (Hi & _ & _).
      apply mem_ext. intro y. unfold T0, dil_minimize. simpl.
      rewrite cset_of_In, filter_In, mem_In. split; [tauto|]. intro Hy. split; auto.
    Qed.

    Lemma amin_within : within (mem T0) (map fst xs).
    Proof.
      intros x Hx. rewrite amin_mem in Hx. apply mem_In in Hx. destruct (Hmc _ _ anet_ok anodes anet_size) as (Hi & _ & _). auto.
    Qed.

    Lemma amin_cut X : within X (map fst xs) ->
      cut (dil_network E xs v) X - (lam + qsum (fun p => qmax 0 (snd p)) xs) ==
      incut E (fun x => Nat.eqb x v || X x) - lam - xsum xs X.
    Proof.
      destruct astep_nd as [N1 N2]. intro HX.
      assert (C := cut_stage E xs v (graph_on_nonneg _ _ HE) Hs N1 N2 (stage_in E vs Hord _ _ _ Hvs) X HX). lra.
    Qed.

    Lemma a_value : a == fst (mc (map fst xs) (dil_network E xs v)) - (lam + qsum (fun p => qmax 0 (snd p)) xs).
    Proof. unfold a, stepa. rewrite Qred_correct. reflexivity. Qed.

    Lemma astep_feas : dfeas f lam d xs -> dfeas f lam d (xs ++ [(v, a)]).
    Proof.
      intro HF. destruct astep_nd as [N1 N2]. apply dfeas_step; auto. intros X HX.
      assert (C := amin_cut X HX). destruct (Hmc _ _ anet_ok anodes anet_size) as (_ & _ & Hm). specialize (Hm X).
      rewrite a_value. unfold f. lra.
    Qed.

    Lemma astep_lack : lack f lam (xs ++ [(v, a)]) d (mem T).
    Proof.
      destruct astep_nd as [N1 N2].
      eapply lack_ext with (A := fun x => Nat.eqb x v || mem T0 x); [exact f_ext|intro x; symmetry; apply stepT_mem|].
      unfold lack. rewrite xsum_snoc, Nat.eqb_refl. cbn [orb].
      assert (X1 : xsum xs (fun x => Nat.eqb x v || mem T0 x) == xsum xs (mem T0)).
      { apply qsum_ext. intros p Hp. destruct (Nat.eqb (fst p) v) eqn:Ep; simpl; [|reflexivity].
        apply Nat.eqb_eq in Ep. exfalso. apply N2. rewrite <- Ep. apply in_map; auto. }
      rewrite X1. assert (C := amin_cut (mem T0) amin_within).
      rewrite (cut_ext _ (mem T0) _ amin_mem) in C.
      destruct (Hmc _ _ anet_ok anodes anet_size) as (_ & Hv & _). rewrite a_value. unfold f. lra.
    Qed.

    Lemma aT_within : within (mem T) (map fst xs ++ [v]).
    Proof.
      intros x Hx. unfold T in Hx. rewrite stepT_mem in Hx.
      apply orb_true_iff in Hx. apply in_or_app. destruct Hx as [Hx|Hx].
      - apply Nat.eqb_eq in Hx. subst. right; left; auto.
      - left. apply amin_within. auto.
    Qed.

    Lemma astep_Inv P : AInv xs P -> AInv (xs ++ [(v, a)]) (pexpand P T).
    Proof.
      intros (HF & HP & HT). destruct astep_nd as [N1 N2].
      assert (HF' := astep_feas HF).
      assert (Hnd' : NoDup (map fst xs ++ [v])).
      { apply NoDup_app_intro; auto. constructor; auto. constructor.
        intros x Hx [<-|[]]; auto. }
      assert (HvT : In v T) by (apply cadd_In; auto).
      assert (HP' : is_partition (map fst xs ++ [v]) (pexpand P T)).
      { apply pexpand_partition; auto.
        - apply stepT_sorted.
        - intros x Hx. apply aT_within. apply mem_In; auto. }
      split; [exact HF'|]. split.
      - rewrite map_fst_snoc. exact HP'.
      - intros B HB. assert (HB0 := HB). apply pexpand_In in HB. destruct HB as [->|[HB Hm]].
        + split; [|apply fold_cunion_sorted; apply stepT_sorted].
          set (L := filter (meets T) P) in *. set (U := fold_left (fun acc B => cunion B acc) L T) in *.
          assert (NL : NoDup (concat L)).
          { assert (HLR : Permutation P (L ++ filter (fun B => negb (meets T B)) P)) by apply perm_filter_split.
            assert (N := part_NoDup _ N1 _ (part_perm _ _ _ HLR HP)).
            rewrite concat_app in N. apply NoDup_app_inv in N. tauto. }
          assert (IL : forall B, In B L -> incl B (map fst xs)).
          { intros B HB. apply filter_In in HB. exact (part_incl _ _ _ HP (proj1 HB)). }
          assert (K : lack f lam (xs ++ [(v, a)]) (d + 2 * qn (length (concat L)) * d) (iunion (mem T) (mem (concat L)))).
          { apply lack_expand; auto.
            - rewrite map_fst_snoc. apply aT_within.
            - apply astep_lack.
            - intros B HB. assert (HBP := proj1 (proj1 (filter_In _ _ _) HB)). assert (Bi := IL B HB). split.
              + assert (K := proj1 (HT B HBP)). unfold lack in *. rewrite xsum_snoc.
                assert (M : mem B v = false) by (apply mem_false; intro C; apply N2; auto). rewrite M. lra.
              + rewrite map_fst_snoc. intros x Hx. apply in_or_app; auto.
            - intros B HB. apply filter_In in HB. destruct HB as [_ HB].
              apply meets_true in HB. destruct HB as (x & H1 & H2). exists x. split; auto. apply mem_In; auto. }
          assert (LU : (S (length (concat L)) <= length U)%nat).
          { change (S (length (concat L))) with (length (v :: concat L)). apply NoDup_incl_length.
            - constructor; auto. intro C. apply in_concat in C. destruct C as (B & HB & HvB). apply N2. apply (IL B HB). auto.
            - intros x [<-|Hx]; apply fold_cunion_In; [left; auto|right; auto]. }
          apply qn_le in LU. rewrite qn_S in LU.
          assert (K2 : lack f lam (xs ++ [(v, a)]) (d + 2 * qn (length (concat L)) * d) (mem U)).
          { eapply lack_ext; [exact f_ext| |exact K]. intro x. unfold iunion. rewrite <- mem_app. apply mem_ext. intro y.
            unfold U. rewrite in_app_iff, fold_cunion_In. tauto. }
          unfold lack in *.
          assert (0 <= (qn (length U) - 1 - qn (length (concat L))) * d) by (apply Qmult_le_0_compat; lra).
          assert ((2 * qn (length U) - 1) * d == d + 2 * qn (length (concat L)) * d + 2 * ((qn (length U) - 1 - qn (length (concat L))) * d)) by ring.
          lra.
        + destruct (HT B HB) as [HT1 HT2]. split; auto. unfold lack in *. rewrite xsum_snoc.
          assert (M : mem B v = false).
          { apply mem_false. intro C. apply N2. eapply part_incl; eauto. }
          rewrite M. lra.
    Qed.
  End OneStep.

  Lemma aloop_Inv todo : forall xs P,
    vs = map fst xs ++ todo -> AInv xs P ->
    let r := dil_loop mc lam E todo xs P in
    AInv (fst r) (snd r) /\ map fst (fst r) = vs.
  Proof.
    induction todo as [|v t IH]; intros xs P Hvs HI.
    - simpl. rewrite app_nil_r in Hvs. auto.
    - rewrite loop_unfold. apply IH.
      + rewrite map_fst_snoc, <- app_assoc. exact Hvs.
      + eapply astep_Inv; eauto.
  Qed.

  Lemma sizes_sum (P : list (list nat)) : qsum (fun B => (2 * qn (length B) - 1) * d) P ==
    (2 * qn (length (concat P)) - qn (length P)) * d.
  Proof.
    induction P as [|B P IH]; [change (0 == (2 * 0 - 0) * d); ring|].
    cbn [qsum concat]. rewrite IH, app_length. cbn [length]. rewrite qn_S.
    unfold qn. rewrite Nat2Z.inj_add, inject_Z_plus. ring.
  Qed.

  Theorem dil_run_approx :
    let x := fst (dil_run mc lam E vs) in let P := snd (dil_run mc lam E vs) in
    is_partition vs P /\ (forall B, In B P -> csorted B) /\
    hval E lam P <= x + (2 * qn (length vs) - qn (length P)) * d /\
    forall R, is_partition vs R -> x <= hval E lam R + qn (length R) * d.
  Proof.
    destruct (aloop_Inv vs [] []) as [(HF & HP & HT) Hm]; auto.
    { split; [intros S (x & Hx) HS; exfalso; exact (HS x Hx)|].
      split; [split; [constructor|intros []]|intros B []]. }
    cbv zeta. unfold dil_run. cbv zeta.
    set (r := dil_loop mc lam E vs [] []) in *. simpl.
    assert (Hnd2 : NoDup (map fst (fst r))) by (rewrite Hm; auto).
    assert (HPv : is_partition vs (snd r)) by (rewrite <- Hm; auto).
    split; auto. split; [intros B HB; apply HT; auto|]. split.
    - rewrite <- (pval_hval E vs) by auto. rewrite pval_sum.
      rewrite <- (xsum_partition (fst r) (snd r)) by auto.
      assert (LC : length (concat (snd r)) = length vs) by (apply Permutation_length; apply HPv).
      rewrite <- LC, <- sizes_sum, <- qsum_plus. apply qsum_le. intros B HB. apply (HT B HB).
    - intros R HR. rewrite <- (pval_hval E vs) by auto. rewrite pval_sum.
      assert (HR' : is_partition (map fst (fst r)) R) by (rewrite Hm; auto).
      rewrite <- (xsum_partition (fst r) R) by auto.
      assert (Z : qn (length R) * d == qsum (fun _ => d) R).
      { clear. induction R as [|B R IH]; [change (0 * d == 0); ring|]. cbn [length qsum]. rewrite qn_S, <- IH. ring. }
      rewrite Z, <- qsum_plus. apply qsum_le. intros B HB. apply HF.
      + destruct (part_nonempty _ _ _ HR HB) as (x & Hx). exists x. apply mem_In; auto.
      + intros x Hx. apply mem_In in Hx. eapply part_incl; eauto.
  Qed.
End Loop.
