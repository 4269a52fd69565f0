(** * DebugThy: the checks of a debug build never fail (model: MDebug). *)
From Coq Require Import Sorting.Sorted.
From Verif Require Import Base Graph Spec MSets SetsThy MGraph MaxFlow CutThy BFThy MDil DilThy MDT SeqThy SubThy ParThy MContract MPSPI MHPSP
  MPMF LamThy SliceThy PDTThy MWarm PropWarm MPMFR PMFRThy MDebug.

(** ** Networks at growing parameters *)
Lemma side_sub (A B : nset) u : (forall x, A x = true -> B x = true) -> side A u = true -> side B u = true.
Proof. destruct u; simpl; auto. Qed.

(** As the source arcs grow and the sink arcs shrink, adding nodes to the sink side gets dearer. *)
Lemma moved_diff N1 N2 (A B : nset) : Forall2 moved N1 N2 -> (forall a, In a N1 -> nsrc a = NSrc -> ndst a <> NSnk) ->
  (forall a, In a N1 -> ndst a <> NSrc /\ nsrc a <> NSnk) ->
  (forall x, A x = true -> B x = true) -> cut N1 B - cut N1 A <= cut N2 B - cut N2 A.
Proof.
  intros H _ Hd S. induction H as [|a b N1 N2 M H IH]; [unfold cut; simpl; lra|].
  assert (IH' : cut N1 B - cut N1 A <= cut N2 B - cut N2 A) by (apply IH; intros c Hc; apply Hd; right; auto).
  unfold cut in *. cbn [qsum].
  destruct (Hd a (or_introl eq_refl)) as [D1 D2].
  destruct M as (M1 & M2 & M3 & M4 & M5). rewrite <- M1, <- M2.
  assert (K : (if negb (side B (nsrc a)) && side B (ndst a) then ncap a else 0) - (if negb (side A (nsrc a)) && side A (ndst a) then ncap a else 0)
           <= (if negb (side B (nsrc a)) && side B (ndst a) then ncap b else 0) - (if negb (side A (nsrc a)) && side A (ndst a) then ncap b else 0)).
  { destruct (nsrc a) as [| |u] eqn:Eu; [|congruence|].
    - specialize (M3 eq_refl). cbn [side negb andb].
      assert (Q := side_sub A B (ndst a) S). destruct (side A (ndst a)); [rewrite Q by auto; lra|].
      destruct (side B (ndst a)); lra.
    - destruct (ndst a) as [| |v] eqn:Ev; [congruence| |].
      + assert (ncap b <= ncap a) by (apply M4; [discriminate|auto]). cbn [side]. rewrite !andb_true_r.
        assert (Q := S u). destruct (A u); [rewrite Q by auto; cbn [negb]; lra|]. destruct (B u); cbn [negb]; lra.
      + assert (ncap b == ncap a) by (apply M5; discriminate).
        destruct (negb (side B (NV u)) && side B (NV v)), (negb (side A (NV u)) && side A (NV v)); lra. }
  lra.
Qed.

Section PMF.
  Variable ws : wsolver.
  Hypothesis Hws : WarmSpec ws.
  Variable eps : Q.
  Hypothesis Heps : 0 <= eps.
  Variable E : graph.
  Variable n j : nat.
  Hypothesis Hj : (j < n)%nat.
  Hypothesis HE : graph_on (seq 0 n) E.
  Variable y : list (Q * dbl).
  Let N := pmf_net eps E j y.

  (** The inclusion-minimal minimum cut at [l], with [j] on the sink side. *)
  Definition best (l : Q) (T : cset) : Prop :=
    (forall x, In x T -> x = j \/ In x (seq 0 j)) /\ In j T /\
    (forall Y, cut (N l) (mem T) <= cut (N l) Y) /\
    (forall Y, cut (N l) Y <= cut (N l) (mem T) -> forall x, In x (seq 0 j) -> In x T -> Y x = true).

  Lemma cut_nodes_ext l A B : (forall x, In x (seq 0 j) -> A x = B x) -> cut (N l) A == cut (N l) B.
  Proof.
    intro H. assert (K := pmf_net_fine eps E n j y l Hj HE). fold (N l) in K. unfold cut. apply qsum_ext. intros a Ha.
    destruct K as [_ K]. destruct (K a Ha) as (_ & K1 & K2).
    assert (S : forall u, nnode_ok (seq 0 j) u -> side A u = side B u) by (intros [| |v] Hv; simpl; auto).
    rewrite !S by auto. reflexivity.
  Qed.

  Lemma ws_best l f : preflow (seq 0 j) (N l) f -> started (N l) f ->
    best l (cadd j (cset_of (filter (mem (snd (fst (ws (seq 0 j) (N l) f)))) (seq 0 j)))).
  Proof.
    intros Hf Hst. destruct (Hws (seq 0 j) (N l) f (pmf_net_fine eps E n j y l Hj HE) Hf Hst) as (A1 & A2 & A3 & A4 & _).
    set (X := snd (fst (ws (seq 0 j) (N l) f))) in *. set (T := cadd j _).
    assert (TI : forall x, In x T <-> x = j \/ In x X).
    { intro x. unfold T. rewrite cadd_In, cset_of_In, filter_In, mem_In. split; [tauto|]. intros [H|H]; auto. }
    assert (C : cut (N l) (mem T) == cut (N l) (mem X)).
    { apply cut_nodes_ext. intros x Hx. apply in_seq in Hx. destruct (mem X x) eqn:Em.
      - apply mem_In in Em. apply mem_In. apply TI. auto.
      - apply mem_false in Em. apply mem_false. rewrite TI. intros [->|K]; [lia|auto]. }
    split; [|split; [|split]].
    - intros x Hx. apply TI in Hx. destruct Hx; auto.
    - apply TI. auto.
    - intro Y. specialize (A3 Y). lra.
    - intros Y HY x Hx HT. apply TI in HT. destruct HT as [->|HT]; [apply in_seq in Hx; lia|].
      apply (A4 Y); auto. specialize (A3 Y). lra.
  Qed.

  Lemma net_nn l a : In a (N l) -> 0 <= ncap a.
  Proof. intro H. apply (pmf_net_fine eps E n j y l Hj HE). exact H. Qed.

  (** Minimal minimum cuts shrink as the parameter grows. *)
  Lemma best_shrink l l' T T' : best l T -> best l' T' -> l <= l' -> incl T' T.
  Proof.
    intros (T1 & T2 & T3 & T4) (U1 & U2 & U3 & U4) Hl x Hx.
    destruct (U1 x Hx) as [->|Hn]; [exact T2|].
    assert (K : iinter (mem T') (mem T) x = true).
    { apply (U4 (iinter (mem T') (mem T))); auto.
      assert (A := T3 (iunion (mem T') (mem T))).
      assert (B := cut_sub (N l') (mem T') (mem T) (net_nn l')).
      assert (C : cut (N l) (iunion (mem T') (mem T)) - cut (N l) (mem T) <=
                  cut (N l') (iunion (mem T') (mem T)) - cut (N l') (mem T)).
      { apply moved_diff.
        - apply pmf_net_moved; auto.
        - intros a Ha Hs Hd. unfold N, pmf_net in Ha. apply in_app_or in Ha. destruct Ha as [Ha|Ha].
          + unfold inner_arcs in Ha. apply in_map_iff in Ha. destruct Ha as (b & <- & _). discriminate Hs.
          + apply in_flat_map in Ha. destruct Ha as (i & _ & Ha). unfold pmf_arcs in Ha. destruct Ha as [<-|Ha]; [discriminate Hd|].
            apply repeat_spec in Ha. subst. discriminate Hs.
        - intros a Ha. apply (pmf_net_dirs eps E j y l a Ha).
        - intros u Hu. unfold iunion. rewrite Hu. apply orb_true_r. }
      lra. }
    unfold iinter in K. apply andb_true_iff in K. apply mem_In. tauto.
  Qed.

  Definition end_ok (l3 : dbl) (Tr : cset) : Prop :=
    match l3 with Fin q => best q Tr | PInf => Tr = [j] | NaN => False end.

  Lemma single_none : existsb (mem [j]) (seq 0 j) = false.
  Proof.
    destruct (existsb (mem [j]) (seq 0 j)) eqn:K; auto. exfalso. apply existsb_exists in K. destruct K as (x & Hx & Hm).
    apply mem_In in Hm. destruct Hm as [<-|[]]. apply in_seq in Hx. lia.
  Qed.

  Lemma no_fail_2 l3 Tl Tr : (forall x, In x Tl -> x = j \/ In x (seq 0 j)) -> end_ok l3 Tr -> fails_2 eps E j y l3 Tl Tr = false.
  Proof.
    intros HT H. unfold fails_2, end_ok in *. destruct l3 as [q| |]; [| |contradiction].
    - cbn [dig_value]. apply Qltb_false. destruct H as (_ & _ & H & _). specialize (H (mem Tl)). unfold N in H. lra.
    - subst Tr. cbn [dig_value]. rewrite single_none. destruct (existsb (mem Tl) (seq 0 j)) eqn:El; auto.
      apply Qltb_false. set (M := inner_arcs E (seq 0 j) ++ _).
      assert (C : cut M (mem [j]) == cut M (mem Tl)); [|lra].
      assert (F : forall T x, existsb (mem T) (seq 0 j) = false -> In x (seq 0 j) -> mem T x = false).
      { intros T x K Hx. destruct (mem T x) eqn:Em; auto. exfalso.
        assert (existsb (mem T) (seq 0 j) = true) by (apply existsb_exists; eauto). congruence. }
      assert (S : forall a, In a M -> (forall u, nsrc a = NV u -> In u (seq 0 j)) /\ (forall u, ndst a = NV u -> In u (seq 0 j))).
      { intros a Ha. unfold M in Ha. apply in_app_or in Ha. destruct Ha as [Ha|Ha].
        - unfold inner_arcs in Ha. apply in_map_iff in Ha. destruct Ha as (b & <- & Hb). apply filter_In in Hb.
          destruct Hb as [_ Hb]. apply andb_true_iff in Hb. destruct Hb as [B1 B2]. apply mem_In in B1. apply mem_In in B2.
          cbn [nsrc ndst]. split; intros u Hu; injection Hu as <-; auto.
        - apply in_flat_map in Ha. destruct Ha as (i & Hi & Ha). apply repeat_spec in Ha. subst a. cbn [nsrc ndst].
          split; intros u Hu; [injection Hu as <-; auto|discriminate]. }
      unfold cut. apply qsum_ext. intros a Ha. destruct (S a Ha) as [S1 S2].
      assert (Q : forall u, (forall w, u = NV w -> In w (seq 0 j)) -> side (mem [j]) u = side (mem Tl) u).
      { intros [| |w] Hw; auto. specialize (Hw w eq_refl). cbn [side].
        rewrite (F [j] w single_none Hw), (F Tl w El Hw). auto. }
      rewrite (Q (nsrc a)) by auto. rewrite (Q (ndst a)) by auto. reflexivity.
  Qed.

  Lemma superset_incl A B : incl B A -> superset A B = true.
  Proof. intro H. unfold superset. apply forallb_forall. intros x Hx. apply mem_In. auto. Qed.

  (** In a debug build slice does what it does in a release build. *)
  Lemma pmfd_slice_eq : forall fuel Tl Tr fm l1 l3, preflow (seq 0 j) (N l1) fm -> best l1 Tl -> end_ok l3 Tr ->
    pmfd_slice fuel ws eps E n j y Tl Tr fm l1 l3 = pmfw_slice fuel ws eps E n j y Tl Tr fm l1 l3.
  Proof.
    induction fuel as [|fuel IH]; intros Tl Tr fm l1 l3 Hp Hl H3; [reflexivity|].
    cbn [pmfd_slice pmfw_slice]. rewrite (no_fail_2 l3 Tl Tr (proj1 Hl) H3).
    assert (F1 : fails_1 eps E j y l1 Tl Tr = false).
    { apply Qltb_false. destruct Hl as (_ & _ & Hl & _). specialize (Hl (mem Tr)). unfold N in Hl. lra. }
    rewrite F1. cbv zeta.
    destruct (compute_lambda _ _ _) as [[l|]| | |]; cbn [bind]; try reflexivity.
    set (l2 := Qred l). destruct (negb (tol_different eps l2 l1) || negb (dbl_different eps l2 l3)); [reflexivity|].
    destruct (Qltb l2 l1 || dltb l3 (Fin l2)) eqn:El; [reflexivity|].
    apply orb_false_iff in El. destruct El as [El El3]. apply Qltb_false in El.
    assert (Hn : net_ok (seq 0 j) (pmf_net eps E j y l2)) by (apply (pmf_net_fine eps E n j y l2); auto).
    destruct (modify_preflow (seq 0 j) (pmf_net eps E j y l1) (pmf_net eps E j y l2) fm) as [M1 M2]; auto.
    { apply pmf_net_moved; auto. }
    { intros a Ha. apply (pmf_net_dirs eps E j y l1 a Ha). }
    { intros a Ha. apply Hn; auto. }
    { intros a x Hx Hs. exfalso. apply in_combine_l in Hx. apply pmf_net_dirs in Hx. tauto. }
    rewrite M2.
    assert (B := ws_best l2 _ M1 (modify_started _ fm)). fold (N l2) in *.
    set (fX := fst (ws (seq 0 j) (N l2) (modify_flow (N l2) fm))) in *.
    set (T' := cadd j (cset_of (filter (mem (snd fX)) (seq 0 j)))) in *.
    assert (S1 : superset Tl T' = true) by (apply superset_incl; apply (best_shrink l1 l2); auto).
    assert (S2 : superset T' Tr = true).
    { apply superset_incl. destruct l3 as [q| |]; cbn [end_ok dltb] in *; [| |contradiction].
      - apply (best_shrink l2 q); auto. apply Qltb_false. exact El3.
      - subst Tr. intros x [<-|[]]. apply B. }
    rewrite S1, S2. cbn [andb].
    destruct (negb (ceqb T' Tr) && negb (ceqb T' Tl) && Qltb (fst fX) (cut (N l2) (mem Tr) - 10 * eps)); [|reflexivity].
    rewrite (IH Tl T' fm l1 (Fin l2) Hp Hl B). rewrite (IH T' Tr (modify_flow (N l2) fm) l2 l3 M1 B H3). reflexivity.
  Qed.

  Lemma pmfd_run_eq : pmfd_run ws eps E n j y = pmfw_run ws eps E n j y.
  Proof.
    unfold pmfd_run, pmfw_run. destruct (j <? n)%nat; [|reflexivity]. cbv zeta. fold (N init_lambda).
    assert (Hn : net_ok (seq 0 j) (N init_lambda)) by (apply (pmf_net_fine eps E n j y init_lambda); auto).
    destruct (Hws (seq 0 j) (N init_lambda) _ Hn (init_flow_preflow _ _ Hn) (init_started _)) as (_ & _ & _ & _ & P).
    assert (B := ws_best init_lambda _ (init_flow_preflow _ _ Hn) (init_started _)).
    rewrite pmfd_slice_eq; auto. exact eq_refl.
  Qed.
End PMF.

Lemma pdtd_eq ws eps E n : WarmSpec ws -> 0 <= eps -> graph_on (seq 0 n) E -> pdtd_run ws eps E n = pdt_run (cold ws) eps E n.
Proof.
  intros Hw He HE. rewrite <- (pdtw_eq ws eps E n Hw HE). unfold pdtd_run, pdtw_run.
  rewrite (loop_ext _ (pmfw_run ws eps E n)); [reflexivity|]. intros j y.
  destruct (Nat.lt_ge_cases j n) as [K|K].
  - apply pmfd_run_eq; auto.
  - unfold pmfd_run, pmfw_run. rewrite (proj2 (Nat.ltb_ge _ _) K). reflexivity.
Qed.

(** ** PMF_R *)
Section PMFR.
  Variable mc mr : solver.
  Hypothesis Hmc : MinSinkCutSpec mc.
  Hypothesis Hmr : MinSrcCutSpec mr.
  Variable eps : Q.
  Hypothesis Heps : 0 < eps.
  Variable E : graph.
  Variable n j : nat.
  Hypothesis Hjn : (j < n)%nat.
  Hypothesis HE : graph_on (seq 0 n) E.
  Hypothesis Hs : simple E.
  Hypothesis Hf : forward E.
  Hypothesis Hw : forall a, In a E -> eps <= aw a.
  Variable y : list (Q * dbl).
  Let bs := fun i : nat => (0, sink_capacity E j i).
  Let LM := lmin E j y.
  Let REP := rep E j.

  (** The checks on the member dig hold, in whatever state its terminal arcs are. *)
  Lemma dig_cut D l T : REP D bs (seq 0 j) [j] -> In j T -> win (seq 0 j) j (mem T) ->
    net_cut_value (upd y bs l D) T == gval E j y l (mem T) + kst E j y D (seq 0 j) [j] l.
  Proof.
    intros R J W. unfold net_cut_value. apply (rep_cut_set eps E n j HE y D bs (seq 0 j) [j]); auto.
    - intros x [<-|[]]. exact J.
    - intros x Hx. destruct (W x (proj2 (mem_In _ _) Hx)) as [K|K]; [left; exact K|right; left; auto].
  Qed.

  Lemma checks_ok D l Tl Tr : REP D bs (seq 0 j) [j] -> LM l Tl -> In j Tr -> win (seq 0 j) j (mem Tr) ->
    net_cut_value (upd y bs l D) Tl <= net_cut_value (upd y bs l D) Tr.
  Proof.
    intros R L J W. rewrite (dig_cut D l Tl R (lm_j _ _ _ _ _ L) (lm_win _ _ _ _ _ L)), (dig_cut D l Tr R J W).
    assert (K := lm_min _ _ _ _ _ L (mem Tr) W). lra.
  Qed.

  Definition same_end {A B} (R : A -> B -> Prop) (x : res A) (z : res B) : Prop :=
    match x, z with
    | Ok a, Ok b => R a b
    | UB, UB | Throw, Throw | OutOfFuel, OutOfFuel => True
    | _, _ => False
    end.

  Theorem pmfrd_slice_same sch : forall fuel path ns D (own : bool) Gd G base T0 Tl Tr l1 l3 ct,
    REP D bs (seq 0 j) [j] -> REP (if own then D else Gd) base ns T0 -> REP G base ns T0 ->
    (own = true -> base = bs /\ ns = seq 0 j /\ T0 = [j]) ->
    incl T0 Tr -> incl Tr Tl -> (forall x, In x Tl -> In x ns \/ In x T0) -> LM l1 Tl -> LM l3 Tr ->
    same_end (fun rd r => fst rd = fst r /\ REP (fst (snd rd)) bs (seq 0 j) [j] /\
                REP (if own then fst (snd rd) else snd (snd rd)) base ns T0 /\ REP (snd r) base ns T0)
      (pmfrd_slice fuel mc mr sch path eps E j y bs D own ns Gd base Tl Tr l1 l3 ct)
      (pmfr_slice fuel mc mr sch path eps E j y ns G base Tl Tr l1 l3 ct).
  Proof.
    induction fuel as [|fuel IH]; intros path ns D own Gd G base T0 Tl Tr l1 l3 ct RD RC RG OW I1 I2 I3 H1 H3; [exact I|].
    cbn [pmfrd_slice pmfr_slice].
    assert (RDa : REP (upd y bs l1 D) bs (seq 0 j) [j]) by (apply (rep_upd E n j HE); auto).
    set (Da := upd y bs l1 D) in *.
    assert (RD1 : REP (upd y bs l3 Da) bs (seq 0 j) [j]) by (apply (rep_upd E n j HE); auto).
    assert (F1 : Qltb (net_cut_value Da Tr - net_cut_value Da Tl) (- eps) = false).
    { apply Qltb_false. assert (K := checks_ok D l1 Tl Tr RD H1 (lm_j _ _ _ _ _ H3) (lm_win _ _ _ _ _ H3)). fold Da in K. lra. }
    rewrite F1.
    assert (F2 : Qltb eps (net_cut_value (upd y bs l3 Da) Tr - net_cut_value (upd y bs l3 Da) Tl) = false).
    { apply Qltb_false. assert (K := checks_ok Da l3 Tr Tl RDa H3 (lm_j _ _ _ _ _ H1) (lm_win _ _ _ _ _ H1)). lra. }
    rewrite F2. set (D1 := upd y bs l3 Da) in *.
    assert (RC1 : REP (if own then D1 else Gd) base ns T0).
    { destruct own; auto. destruct (OW eq_refl) as (-> & -> & ->). exact RD1. }
    destruct (compute_lambda _ _ _) as [[l|]| | |]; cbn [bind]; try exact I.
    2:{ cbn [same_end fst snd]. auto. }
    set (l2 := Qred l). destruct (negb (tol_different eps l2 l1) || negb (tol_different eps l2 l3)).
    { cbn [same_end fst snd]. auto. }
    destruct (Qltb l2 l1 || Qltb l3 l2) eqn:Eo; [exact I|].
    apply orb_false_iff in Eo. destruct Eo as [L12 L23]. apply Qltb_false in L12. apply Qltb_false in L23.
    destruct (pmf_cut_min mc Hmc eps Heps E n j Hjn HE Hs Hf Hw y l2) as [PM1 _].
    set (T2 := snd (pmf_cut mc eps E j y l2)) in *.
    assert (J1 : incl T2 Tl) by (apply (min_shrink eps E n j HE y l1 l2); auto).
    assert (J2 : incl Tr T2) by (apply (min_shrink eps E n j HE y l2 l3); auto).
    set (cur := if own then D1 else Gd) in *.
    assert (CK : mem (ccompl Tl (S (S j))) (S j) && mem Tr j = true).
    { apply andb_true_iff. split; apply mem_In; [|apply H3]. unfold ccompl. apply filter_In. split; [apply in_seq; lia|].
      apply negb_true_iff, mem_false. intro K. destruct (lm_win _ _ _ _ _ H1 _ (proj2 (mem_In _ _) K)) as [Q|Q]; [apply in_seq in Q|]; lia. }
    assert (CT : exists c cd base' T0',
      (if ct then contract eps (S j) j (S (S j)) (ccompl Tl (S (S j))) Tr G else Ok (ns, G)) = Ok c /\
      (if ct then contract_d eps (S j) j (S (S j)) (ccompl Tl (S (S j))) Tr cur else Ok (ns, cur)) = Ok cd /\
      fst c = fst cd /\
      base' = (if ct then new_base E (ccompl Tl (S (S j))) Tr else base) /\
      REP (snd c) base' (fst c) T0' /\ REP (snd cd) base' (fst c) T0' /\ incl T0' Tr /\ (forall x, In x Tl -> In x (fst c) \/ In x T0') /\
      (ct = false -> c = (ns, G) /\ cd = (ns, cur) /\ T0' = T0)).
    { destruct ct.
      - destruct (contract_ok eps E n j Hjn Hf Hw y G base ns T0 Tl Tr RG I1 I2 I3 (lm_sorted _ _ _ _ _ H1) (lm_sorted _ _ _ _ _ H3))
          as (ks & C & A & B & K).
        destruct (contract_ok eps E n j Hjn Hf Hw y cur base ns T0 Tl Tr RC1 I1 I2 I3 (lm_sorted _ _ _ _ _ H1) (lm_sorted _ _ _ _ _ H3))
          as (ks' & C' & A' & B' & K').
        assert (ks' = ks) as ->.
        { unfold contract in A, A'. cbv zeta in A, A'. destruct (_ && _) in A; [|discriminate A]. destruct (_ && _) in A'; [|discriminate A'].
          injection A as <- _. injection A' as <- _. reflexivity. }
        exists (ks, C), (ks, C'), (new_base E (ccompl Tl (S (S j))) Tr), Tr. unfold contract_d. rewrite CK.
        repeat (split; [solve [auto using incl_refl]|]). discriminate.
      - exists (ns, G), (ns, cur), base, T0. repeat (split; [solve [auto]|]). auto. }
    destruct CT as (c & cd & base' & T0' & C1 & C1d & C0 & C2 & C3 & C3d & C4 & C5 & C6). rewrite C1, C1d. cbn [bind]. rewrite <- C2, <- C0.
    set (G' := upd y base' l2 (snd c)). set (G'd := upd y base' l2 (snd cd)).
    destruct (worker_ok mc Hmc mr Hmr eps E n j HE y (sch path) (snd c) base' (fst c) T0' l2 T2 Tr Tl C3 PM1 C4 J2 J1 C5 (lm_sorted _ _ _ _ _ H3)) as [W1 W2].
    destruct (worker_ok mc Hmc mr Hmr eps E n j HE y (sch path) (snd cd) base' (fst c) T0' l2 T2 Tr Tl C3d PM1 C4 J2 J1 C5 (lm_sorted _ _ _ _ _ H3)) as [W1d W2d].
    fold G' in W1, W2. fold G'd in W1d, W2d. set (wT := worker_cut mc mr (sch path) j (fst c) G') in *.
    set (wTd := worker_cut mc mr (sch path) j (fst c) G'd) in *. rewrite W1.
    assert (SS : superset Tl (snd wTd) = true).
    { apply superset_incl. intros x Hx. apply J1. rewrite <- W1d. apply cunion_In. auto. }
    rewrite SS. cbn [negb]. rewrite andb_false_r, W1d.
    assert (B : Qltb (fst wTd) (net_cut_value G'd Tr - 10 * eps) = Qltb (fst wT) (net_cut_value G' Tr - 10 * eps)).
    { assert (O1 : net_cut_value G' Tr == gval E j y l2 (mem Tr) + kst E j y (snd c) (fst c) T0' l2).
      { unfold net_cut_value, G'. apply (rep_cut_set eps E n j HE y (snd c) base' (fst c) T0'); auto. }
      assert (O2 : net_cut_value G'd Tr == gval E j y l2 (mem Tr) + kst E j y (snd cd) (fst c) T0' l2).
      { unfold net_cut_value, G'd. apply (rep_cut_set eps E n j HE y (snd cd) base' (fst c) T0'); auto. }
      match goal with |- ?p = ?q => destruct p eqn:P1; destruct q eqn:P2; auto; exfalso end.
      - apply Qltb_true in P1. apply Qltb_false in P2. lra.
      - apply Qltb_false in P1. apply Qltb_true in P2. lra. }
    rewrite B.
    assert (RG' : REP G' base' (fst c) T0') by (apply (rep_upd E n j HE); auto).
    assert (RG'd : REP G'd base' (fst c) T0') by (apply (rep_upd E n j HE); auto).
    set (own' := own && negb ct).
    assert (OW' : own' = true -> base' = bs /\ fst c = seq 0 j /\ T0' = [j]).
    { intro K. apply andb_true_iff in K. destruct K as [K1 K2]. apply negb_true_iff in K2. subst ct.
      destruct (C6 eq_refl) as (-> & _ & ->). cbn [fst]. rewrite C2. apply OW. exact K1. }
    assert (RD2 : REP (if own' then G'd else D1) bs (seq 0 j) [j]).
    { destruct own' eqn:Eow; auto. destruct (OW' eq_refl) as (Z1 & Z2 & Z3). rewrite Z1, Z2, Z3 in RG'd. exact RG'd. }
    set (D2 := if own' then G'd else D1) in *.
    assert (RC2 : REP (if own' then D2 else G'd) base' (fst c) T0').
    { unfold D2. destruct own'; exact RG'd. }
    (* what the caller sees *)
    assert (REND : forall Gb, REP Gb base' (fst c) T0' -> REP (if ct then G else Gb) base ns T0).
    { intros Gb HG. destruct ct; auto. destruct (C6 eq_refl) as (-> & _ & ->). rewrite C2 in HG. exact HG. }
    assert (RENDd : forall Db Gb, REP Db bs (seq 0 j) [j] -> REP (if own' then Db else Gb) base' (fst c) T0' ->
              REP (if own then Db else if ct then Gd else Gb) base ns T0).
    { intros Db Gb HD HG. unfold own' in HG. destruct own.
      - destruct (OW eq_refl) as (-> & -> & ->). exact HD.
      - cbn [andb] in HG. destruct ct; [exact RC|]. destruct (C6 eq_refl) as (-> & _ & ->). rewrite C2 in HG. exact HG. }
    destruct (negb (ceqb T2 Tr) && negb (ceqb T2 Tl) && Qltb (fst wT) (net_cut_value G' Tr - 10 * eps)).
    - assert (IA := IH (true :: path) (fst c) D2 own' G'd G' base' T0' Tl T2 l1 l2 (sch path) RD2 RC2 RG' OW'
                 (incl_tran C4 J2) J1 C5 H1 PM1).
      destruct (pmfrd_slice fuel mc mr sch (true :: path) _ _ _ _ _ _ _ _ _ _ _ _ _ _ _) as [ad| | |],
               (pmfr_slice fuel mc mr sch (true :: path) _ _ _ _ _ _ _ _ _ _ _ _) as [a| | |];
        cbn [same_end] in IA; try contradiction; try exact I.
      destruct IA as (A1 & A2 & A3 & A4). cbn [bind].
      assert (IB := IH (false :: path) (fst c) (fst (snd ad)) own' (snd (snd ad)) (snd a) base' T0' T2 Tr l2 l3 (negb (sch path)) A2 A3 A4 OW'
                 C4 J2 (fun x Hx => C5 x (J1 x Hx)) PM1 H3).
      destruct (pmfrd_slice fuel mc mr sch (false :: path) _ _ _ _ _ _ _ _ _ _ _ _ _ _ _) as [bd| | |],
               (pmfr_slice fuel mc mr sch (false :: path) _ _ _ _ _ _ _ _ _ _ _ _) as [b| | |];
        cbn [same_end] in IB; try contradiction; try exact I.
      destruct IB as (B1 & B2 & B3 & B4). cbn [bind same_end fst snd]. rewrite A1, B1.
      split; [reflexivity|]. split; [exact B2|]. split; [|apply REND; exact B4]. exact (RENDd _ _ B2 B3).
    - cbn [same_end fst snd]. split; [reflexivity|]. split; [exact RD2|]. split; [|apply REND; exact RG'].
      exact (RENDd _ _ RD2 RC2).
  Qed.

  Lemma pmfrd_run_eq sch : pmfrd_run mc mr sch eps E n j y = pmfr_run mc mr sch eps E n j y.
  Proof.
    unfold pmfrd_run, pmfr_run. rewrite (proj2 (Nat.ltb_lt _ _) Hjn). cbv zeta. fold bs.
    assert (WI := worker_init mc Hmc mr Hmr eps Heps E n j Hjn HE Hs Hf Hw y). fold bs in WI. rewrite WI.
    destruct (pmf_cut_min mc Hmc eps Heps E n j Hjn HE Hs Hf Hw y init_lambda) as [K1 _].
    set (T0 := snd (pmf_cut mc eps E j y init_lambda)) in *. set (L := lam3 E n j y).
    set (G2 := upd y bs L (upd y bs init_lambda (dig_net eps E j))).
    assert (RG : REP G2 bs (seq 0 j) [j]).
    { apply (rep_upd E n j HE). apply (rep_upd E n j HE). apply (dig_rep eps Heps E n j Hjn HE Hs Hf Hw y). }
    assert (I0 : incl [j] T0) by (intros x [<-|[]]; apply K1).
    assert (I3 : forall x, In x T0 -> In x (seq 0 j) \/ In x [j]).
    { intros x Hx. destruct (lm_win _ _ _ _ _ K1 x (proj2 (mem_In _ _) Hx)); [left; auto|right; left; auto]. }
    assert (K := pmfrd_slice_same sch (S n) [] (seq 0 j) G2 true G2 G2 bs [j] T0 [j] init_lambda L false RG RG RG
             (fun _ => conj eq_refl (conj eq_refl eq_refl)) (incl_refl _) I0 I3 K1 (lam3_lmin E n j Hjn HE Hs Hf y)).
    destruct (pmfrd_slice _ _ _ _ _ _ _ _ _ _ _ _ _ _ _ _ _ _ _ _) as [rd| | |],
             (pmfr_slice _ _ _ _ _ _ _ _ _ _ _ _ _ _ _ _ _) as [r| | |]; cbn [same_end] in K; try contradiction; try reflexivity.
    destruct K as [K _]. cbn [bind]. rewrite K. reflexivity.
  Qed.
End PMFR.

Lemma pdtrd_eq mc mr sch eps E n : MinSinkCutSpec mc -> MinSrcCutSpec mr -> 0 < eps -> graph_on (seq 0 n) E -> simple E -> forward E ->
  (forall a, In a E -> eps <= aw a) -> pdtrd_run mc mr sch eps E n = pdtr_run mc mr sch eps E n.
Proof.
  intros Hmc Hmr He HE Hs Hf Hw. unfold pdtrd_run, pdtr_run.
  rewrite (loop_ext _ (fun j y => pmfr_run mc mr (sch j) eps E n j y)); [reflexivity|]. intros j y.
  destruct (Nat.lt_ge_cases j n) as [K|K].
  - apply pmfrd_run_eq; auto.
  - unfold pmfrd_run, pmfr_run. rewrite (proj2 (Nat.ltb_ge _ _) K). reflexivity.
Qed.

(** ** PSP_I and HPSP *)
Definition gord (G : gst) : Prop := forward (garcs G) /\ StronglySorted lt (gnodes G).

Lemma ssorted_filter f (l : list nat) : StronglySorted lt l -> StronglySorted lt (filter f l).
Proof.
  induction l as [|x l IH]; intro H; [exact H|]. inversion H; subst. cbn [filter]. destruct (f x); auto.
  constructor; auto. apply Forall_forall. intros z Hz. apply filter_In in Hz. rewrite Forall_forall in H3. apply H3, Hz.
Qed.

Lemma contract_gord eps G S i : In i S -> gord G -> gord (MContract.contract eps G S i).
Proof.
  intros Hi [F K]. split; [|apply ssorted_filter; exact K]. intros a Ha. unfold MContract.contract in Ha. cbn [garcs] in Ha.
  apply in_app_iff in Ha. destruct Ha as [Ha|Ha]; [apply filter_In in Ha; apply F, Ha|].
  unfold new_arcs in Ha. apply in_flat_map in Ha. destruct Ha as (v & _ & Ha).
  destruct (mem S v || _) eqn:Em; [contradiction|]. apply orb_false_iff in Em. destruct Em as [Em _]. apply mem_false in Em.
  destruct (i <? v)%nat eqn:El; destruct Ha as [<-|[]]; cbn [asrc adst].
  - apply Nat.ltb_lt in El. exact El.
  - apply Nat.ltb_ge in El. destruct (Nat.eq_dec i v) as [->|]; [contradiction|lia].
Qed.

Lemma out_arcs_fwd E : forward E -> forall todo dn, StronglySorted lt todo -> (forall x z, In x dn -> In z todo -> (x < z)%nat) ->
  out_arcs E dn todo = false.
Proof.
  intro F. induction todo as [|v t IH]; intros dn S L; [reflexivity|]. inversion S; subst. rewrite Forall_forall in H2. cbn [out_arcs].
  rewrite IH; auto.
  - rewrite orb_false_r. apply not_true_is_false. intro C. apply existsb_exists in C. destruct C as (a & Ha & C).
    apply andb_true_iff in C. destruct C as [C1 C2]. apply Nat.eqb_eq in C1. apply mem_In in C2. apply F in Ha.
    destruct C2 as [C2|C2]; [lia|]. assert (K := L _ v C2 (or_introl eq_refl)). lia.
  - intros x z [<-|Hx] Hz; auto. apply L; simpl; auto.
Qed.

Lemma sub_fwd G ch : gord G -> forward (sub_arcs G ch).
Proof. intros [F _] a Ha. apply filter_In in Ha. apply F, Ha. Qed.

Lemma no_out G ch : gord G -> out_arcs (sub_arcs G ch) [] (enabled G ch) = false.
Proof. intro H. apply out_arcs_fwd; [apply sub_fwd; auto|apply ssorted_filter, H|intros x z []]. Qed.

Lemma cadd_ne x s : cadd x s <> [].
Proof. destruct s; cbn [cadd]; [discriminate|]. destruct (_ <? _)%nat; [discriminate|]. destruct (_ =? _)%nat; discriminate. Qed.

Lemma pexpand_ne P T : T <> [] -> (forall B, In B P -> B <> []) -> forall B, In B (pexpand P T) -> B <> [].
Proof.
  intros HT HP B HB. unfold pexpand in HB. apply padd_In in HB. destruct HB as [->|HB].
  - clear HP. generalize (filter (meets T) P) as l. intro l. revert T HT. induction l as [|C l IH]; intros T HT; [exact HT|]. cbn [fold_left].
    apply IH. intro K. destruct T as [|x T]; [apply HT; reflexivity|]. assert (I : In x (cunion C (x :: T))) by (apply cunion_In; right; left; reflexivity).
    rewrite K in I. destruct I.
  - apply filter_In in HB. apply HP, HB.
Qed.

Lemma dil_run_ne mc lam E vs B : In B (snd (dil_run mc lam E vs)) -> B <> [].
Proof.
  unfold dil_run. cbn [snd]. assert (K : forall todo xs P, (forall B, In B P -> B <> []) -> In B (snd (dil_loop mc lam E todo xs P)) -> B <> []).
  { induction todo as [|v t IH]; intros xs P HP HB; [apply HP, HB|]. cbn [dil_loop] in HB. apply IH in HB; auto.
    apply pexpand_ne; auto. apply cadd_ne. }
  apply K. intros C [].
Qed.

Lemma hd_in (S : cset) : S <> [] -> In (hd 0%nat S) S.
Proof. destruct S; [congruence|]. intros _. left. reflexivity. Qed.

Lemma foldm_same {A B} (Inv : B -> Prop) (f g : B -> A -> res B) : forall l b, Inv b ->
  (forall b x, Inv b -> In x l -> f b x = g b x /\ (forall b', g b x = Ok b' -> Inv b')) ->
  foldm f l b = foldm g l b /\ (forall b', foldm g l b = Ok b' -> Inv b').
Proof.
  induction l as [|x l IH]; intros b HI H; cbn [foldm]; [split; auto; congruence|].
  destruct (H b x HI (or_introl eq_refl)) as [E1 E2]. rewrite E1. destruct (g b x) as [b'| | |] eqn:Eg; cbn [bind]; try (split; [reflexivity|discriminate]).
  apply IH; auto. intros b0 x0 H0 Hx. apply H; simpl; auto.
Qed.

Lemma psp_splitd_eq mc eps : forall fuel st i, gord (pG st) ->
  psp_splitd fuel mc eps st i = psp_split fuel mc eps st i /\ (forall st', psp_split fuel mc eps st i = Ok st' -> gord (pG st')).
Proof.
  induction fuel as [|fuel IH]; intros st i H; [split; [reflexivity|discriminate]|]. cbn [psp_splitd psp_split]. cbv zeta.
  destruct (negb _); [split; [reflexivity|discriminate]|].
  unfold dild_run. rewrite (no_out _ _ H). destruct (length (pch st i)) as [|[|k]].
  - split; [reflexivity|]. intros st' K. injection K as <-. exact H.
  - split; [reflexivity|]. intros st' K. injection K as <-. exact H.
  - destruct (S (S k) =? 2)%nat; [split; [reflexivity|]; intros st' K; injection K as <-; exact H|]. cbn [bind].
    set (r := dil_run mc (split_gamma (sub_arcs (pG st) (reps_of st (pch st i))) (S (S k))) (sub_arcs (pG st) (reps_of st (pch st i)))
           (enabled (pG st) (reps_of st (pch st i)))).
    destruct (negb (_ && _ && _)); [split; [reflexivity|]; intros st' K; injection K as <-; exact H|].
    match goal with |- (bind (foldm ?f _ _) _ = bind (foldm ?g _ _) _) /\ _ =>
      assert (Q : foldm f (snd r) st = foldm g (snd r) st /\ (forall b', foldm g (snd r) st = Ok b' -> gord (pG b'))) end.
    { apply (foldm_same (fun st => gord (pG st))); auto. intros b X HI HX. destruct (length X =? 1)%nat; [split; [reflexivity|]; intros b' K; injection K as <-; exact HI|].
      destruct (IH (regroup b i X) (length (pK b)) HI) as [E1 E2]. rewrite E1.
      destruct (psp_split fuel mc eps (regroup b i X) (length (pK b))) as [s2| | |] eqn:Es; cbn [bind]; try (split; [reflexivity|discriminate]).
      split; [reflexivity|]. intros b' K. injection K as <-. cbn [pG]. apply contract_gord; auto. apply hd_in. eapply dil_run_ne; exact HX. }
    destruct Q as [Q1 Q2]. rewrite Q1. match goal with |- bind ?p _ = _ /\ _ => destruct p as [s'| | |] eqn:Ef end;
      cbn [bind]; try (split; [reflexivity|discriminate]).
    apply IH. auto.
Qed.

Lemma hpsp_splitd_eq mc eps : forall fuel st i ch, gord (hG st) ->
  hpsp_splitd fuel mc eps st i ch = hpsp_split fuel mc eps st i ch /\ (forall st', hpsp_split fuel mc eps st i ch = Ok st' -> gord (hG st')).
Proof.
  induction fuel as [|fuel IH]; intros st i ch H; [split; [reflexivity|discriminate]|]. cbn [hpsp_splitd hpsp_split]. cbv zeta.
  unfold dild_run. rewrite (no_out _ _ H). destruct (length ch) as [|[|k]].
  - split; [reflexivity|]. intros st' K. injection K as <-. exact H.
  - split; [reflexivity|]. intros st' K. injection K as <-. exact H.
  - destruct (S (S k) =? 2)%nat; [split; [reflexivity|]; intros st' K; injection K as <-; exact H|]. cbn [bind].
    set (r := dil_run mc (split_gamma (sub_arcs (hG st) ch) (S (S k))) (sub_arcs (hG st) ch) (enabled (hG st) ch)).
    destruct (negb (_ && _ && _)); [split; [reflexivity|]; intros st' K; injection K as <-; exact H|].
    match goal with |- (bind (foldm ?f _ _) _ = bind (foldm ?g _ _) _) /\ _ =>
      assert (Q : foldm f (snd r) (st, []) = foldm g (snd r) (st, []) /\ (forall b', foldm g (snd r) (st, []) = Ok b' -> gord (hG (fst b')))) end.
    { apply (foldm_same (fun b => gord (hG (fst b)))); auto. intros b X HI HX. destruct (length X =? 1)%nat; [split; [reflexivity|]; intros b' K; injection K as <-; exact HI|].
      destruct (IH (fst b) (hd 0%nat X) X HI) as [E1 E2]. rewrite E1.
      destruct (hpsp_split fuel mc eps (fst b) (hd 0%nat X) X) as [s2| | |] eqn:Es; cbn [bind]; try (split; [reflexivity|discriminate]).
      split; [reflexivity|]. intros b' K. injection K as <-. cbn [fst hG]. apply contract_gord; auto. apply hd_in. eapply dil_run_ne; exact HX. }
    destruct Q as [Q1 Q2]. rewrite Q1. match goal with |- bind ?p _ = _ /\ _ => destruct p as [s'| | |] eqn:Ef end;
      cbn [bind]; try (split; [reflexivity|discriminate]).
    apply IH. auto.
Qed.

Lemma seq_ssorted : forall n k, StronglySorted lt (seq k n).
Proof.
  induction n as [|n IH]; intro k; [constructor|]. cbn [seq]. constructor; auto. apply Forall_forall. intros x Hx. apply in_seq in Hx. lia.
Qed.

Lemma psp_rund_eq mc eps E n : forward E -> psp_rund mc eps E n = psp_run mc eps E n.
Proof.
  intro F. unfold psp_rund, psp_run, psp_run_from.
  rewrite (proj1 (psp_splitd_eq mc eps (S n) (psp_init n E) 0 (conj F (seq_ssorted n 0)))). reflexivity.
Qed.

Lemma hpsp_rund_eq mc eps E n : forward E -> hpsp_rund mc eps E n = hpsp_run mc eps E n.
Proof.
  intro F. unfold hpsp_rund, hpsp_run.
  rewrite (proj1 (hpsp_splitd_eq mc eps (S n) (mkH (mkG (seq 0 n) E) (fun _ => Fin 0) (fun _ => 0%nat)) 0 (cdense n) (conj F (seq_ssorted n 0)))).
  reflexivity.
Qed.

(** *** A graph with an arc that does not go up *)
Lemma out_arcs_bad E a : In a E -> (adst a <= asrc a)%nat -> forall todo dn, StronglySorted lt todo ->
  In (asrc a) todo -> In (adst a) (dn ++ todo) -> out_arcs E dn todo = true.
Proof.
  intros Ha L. induction todo as [|v t IH]; intros dn S H1 H2; [destruct H1|]. inversion S; subst. rewrite Forall_forall in H4. cbn [out_arcs].
  apply orb_true_iff. destruct (Nat.eq_dec (asrc a) v) as [Ev|Ev].
  - left. apply existsb_exists. exists a. split; auto. rewrite (proj2 (Nat.eqb_eq _ _) Ev). apply mem_In.
    apply in_app_iff in H2. destruct H2 as [H2|[H2|H2]]; [right|left|]; auto. apply H4 in H2. lia.
  - right. destruct H1 as [H1|H1]; [congruence|]. apply IH; auto. cbn [app]. apply in_app_iff in H2.
    destruct H2 as [H2|[H2|H2]]; [right; apply in_app_iff; auto|left; auto|right; apply in_app_iff; auto].
Qed.

Lemma root_bad E n a (ch : cset) : graph_on (seq 0 n) E -> In a E -> (adst a <= asrc a)%nat -> (forall x, In x ch <-> (x < n)%nat) ->
  out_arcs (sub_arcs (mkG (seq 0 n) E) ch) [] (enabled (mkG (seq 0 n) E) ch) = true.
Proof.
  intros HE Ha L Hc. destruct (HE a Ha) as (H1 & H2 & _). apply in_seq in H1. apply in_seq in H2.
  assert (M : forall x, (x < n)%nat -> mem ch x = true) by (intros x Hx; apply mem_In, Hc; exact Hx).
  apply (out_arcs_bad _ a); auto.
  - apply filter_In. split; [exact Ha|]. rewrite !M; auto; lia.
  - apply ssorted_filter, seq_ssorted.
  - apply filter_In. cbn [gnodes]. split; [apply in_seq; lia|]. apply M. lia.
  - cbn [app]. apply filter_In. cbn [gnodes]. split; [apply in_seq; lia|]. apply M. lia.
Qed.

Lemma init_kids n E c : In c (pch (psp_init n E) 0) -> (1 <= c <= n)%nat.
Proof. cbn. intro H. apply in_rev in H. rewrite in_seq in H. lia. Qed.

Lemma init_K n E c : (1 <= c <= n)%nat -> Kat (psp_init n E) c = [(c - 1)%nat].
Proof.
  intro H. unfold Kat, psp_init. cbn [pK]. destruct c as [|c]; [lia|]. cbn [nth].
  rewrite (nth_indep _ [] ((fun i => [i]) 0%nat)) by (rewrite map_length, seq_length; lia).
  rewrite (map_nth (fun i => [i])), seq_nth by lia. f_equal. lia.
Qed.

Lemma psp_rund_bad mc eps E n a : graph_on (seq 0 n) E -> In a E -> (adst a <= asrc a)%nat -> n <> 2%nat ->
  psp_rund mc eps E n = Throw.
Proof.
  intros HE Ha L N2. unfold psp_rund. assert (B := root_bad E n a). 
  assert (R : out_arcs (sub_arcs (pG (psp_init n E)) (reps_of (psp_init n E) (pch (psp_init n E) 0))) []
                (enabled (pG (psp_init n E)) (reps_of (psp_init n E) (pch (psp_init n E) 0))) = true).
  { apply (root_bad E n a); auto. intro x. unfold reps_of. rewrite in_map_iff. split.
    - intros (c & <- & Hc). apply init_kids in Hc. rewrite init_K by exact Hc. cbn [hd]. lia.
    - intro Hx. exists (S x). rewrite init_K by lia. cbn [hd]. split; [lia|]. cbn. apply in_rev. rewrite rev_involutive. apply in_seq. lia. }
  assert (Hn : (1 <= n)%nat). { destruct (HE a Ha) as (H1 & _). apply in_seq in H1. lia. }
  assert (K : forallb (K_ok (psp_init n E)) (pch (psp_init n E) 0) = true).
  { apply forallb_forall. intros c Hc. apply init_kids in Hc. unfold K_ok. rewrite init_K by exact Hc. cbn [length].
    rewrite andb_true_r. apply Nat.ltb_lt. cbn. rewrite map_length, seq_length. lia. }
  assert (Z : length (pch (psp_init n E) 0) = n) by (cbn; rewrite rev_length, seq_length; reflexivity).
  cbn [psp_splitd]. cbv zeta. rewrite K. cbn [negb]. unfold dild_run. rewrite R, Z. destruct n as [|[|[|n]]]; try lia; reflexivity.
Qed.

Lemma hpsp_rund_bad mc eps E n a : graph_on (seq 0 n) E -> In a E -> (adst a <= asrc a)%nat -> n <> 2%nat ->
  hpsp_rund mc eps E n = Throw.
Proof.
  intros HE Ha L N2. unfold hpsp_rund.
  assert (Hn : (1 <= n)%nat). { destruct (HE a Ha) as (H1 & _). apply in_seq in H1. lia. }
  assert (R : out_arcs (sub_arcs (mkG (seq 0 n) E) (cdense n)) [] (enabled (mkG (seq 0 n) E) (cdense n)) = true).
  { apply (root_bad E n a); auto. intro x. unfold cdense. rewrite in_seq. lia. }
  assert (Z : length (cdense n) = n) by apply seq_length.
  cbn [hpsp_splitd]. cbv zeta. unfold dild_run. cbn [hG]. rewrite R, Z. destruct n as [|[|[|n]]]; try lia; reflexivity.
Qed.

Lemma psp_rund_two mc eps E : psp_rund mc eps E 2 = psp_run mc eps E 2.
Proof. reflexivity. Qed.
Lemma hpsp_rund_two mc eps E : hpsp_rund mc eps E 2 = hpsp_run mc eps E 2.
Proof. reflexivity. Qed.
