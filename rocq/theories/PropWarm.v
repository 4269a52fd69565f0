(** * PropWarm: warm starts of the parametric solver (psp/pmf.cpp): C43. *)
From Verif Require Import Base Graph Spec MSets SetsThy MGraph MaxFlow BFThy MDil DilThy MDT PropDT MPMF LamThy
  PDTThy PropPDT MWarm.

(** Capacities after a change of parameter: sources arcs grow, sink arcs shrink, the others stay. *)
Definition moved (a b : narc) : Prop :=
  nsrc a = nsrc b /\ ndst a = ndst b /\
  (nsrc a = NSrc -> ncap a <= ncap b) /\
  (nsrc a <> NSrc -> ndst a = NSnk -> ncap b <= ncap a) /\
  (nsrc a <> NSrc -> ndst a <> NSnk -> ncap b == ncap a).

Lemma nnode_eqb_true u v : nnode_eqb u v = true <-> u = v.
Proof.
  destruct u as [| |a], v as [| |b]; simpl; split; intro H; try discriminate; try congruence; auto.
  - apply Nat.eqb_eq in H. subst. auto.
  - injection H as ->. apply Nat.eqb_refl.
Qed.

Lemma moved_flow N1 N2 f : Forall2 moved N1 N2 -> length f = length N1 ->
  (forall a, In a N1 -> ndst a <> NSrc) -> (forall a, In a N2 -> 0 <= ncap a) ->
  (forall a x, In (a, x) (combine N1 f) -> 0 <= x /\ x <= ncap a) ->
  (forall a x, In (a, x) (combine N1 f) -> nsrc a = NSnk -> x == 0) ->
  length (modify_flow N2 f) = length N2 /\
  (forall a x, In (a, x) (combine N2 (modify_flow N2 f)) -> 0 <= x /\ x <= ncap a) /\
  (forall v, excess N1 f (NV v) <= excess N2 (modify_flow N2 f) (NV v)) /\
  0 <= excess N2 (modify_flow N2 f) NSnk.
Proof.
  intro HF. revert f. induction HF as [|a b N1 N2 Hab HF IH]; intros f Hl Hs Hc Hx Hz.
  - destruct f; [|discriminate Hl]. split; [reflexivity|]. split; [intros a x []|].
    split; [intro v; apply Qle_refl|apply Qle_refl].
  - destruct f as [|x f]; [discriminate Hl|]. cbn [length] in Hl.
    destruct (IH f) as (J1 & J2 & J3 & J4); auto.
    { intros c Hcc. apply Hs. right; auto. }
    { intros c Hcc. apply Hc. right; auto. }
    { intros c z Hcz. apply Hx. right; auto. }
    { intros c z Hcz. apply Hz. right; auto. }
    clear IH. specialize (Hs a (or_introl eq_refl)). assert (Hcb := Hc b (or_introl eq_refl)).
    destruct (Hx a x (or_introl eq_refl)) as [X0 X1]. assert (Z := Hz a x (or_introl eq_refl)). clear Hc Hx Hz.
    destruct Hab as (E1 & E2 & M1 & M2 & M3).
    assert (Gx : 0 <= modify1 b x /\ modify1 b x <= ncap b /\
                 (nsrc b = NSrc -> x <= modify1 b x) /\ (ndst b <> NSnk -> nsrc b <> NSrc -> modify1 b x == x) /\
                 (nsrc b <> NSrc -> ndst b = NSnk -> modify1 b x <= x) /\ (nsrc b = NSnk -> modify1 b x == 0)).
    { unfold modify1. rewrite <- E1, <- E2. destruct (nsrc a) eqn:Es.
      - assert (M1' := M1 eq_refl).
        destruct (ndst a) eqn:Ed; [congruence| |].
        + destruct (Qltb (ncap b) x) eqn:El; [apply Qltb_true in El|]; repeat split; try lra; intros; congruence.
        + repeat split; try lra; intros; congruence.
      - assert (Z' := Z eq_refl). destruct (ndst a) eqn:Ed; [congruence| |].
        + assert (N0 : NSnk <> NSrc) by discriminate. assert (M2' := M2 N0 eq_refl).
          destruct (Qltb (ncap b) x) eqn:El; [apply Qltb_true in El|apply Qltb_false in El];
            repeat split; intros; try lra; try congruence.
        + assert (N0 : NSnk <> NSrc) by discriminate. assert (N3 : NV v <> NSnk) by discriminate.
          assert (M3' := M3 N0 N3). repeat split; intros; try lra; try congruence.
      - assert (N0 : NV v <> NSrc) by discriminate. destruct (ndst a) eqn:Ed; [congruence| |].
        + assert (M2' := M2 N0 eq_refl).
          destruct (Qltb (ncap b) x) eqn:El; [apply Qltb_true in El|apply Qltb_false in El];
            repeat split; intros; try lra; try congruence.
        + assert (N3 : NV v0 <> NSnk) by discriminate. assert (M3' := M3 N0 N3).
          repeat split; intros; try lra; try congruence. }
    destruct Gx as (G1 & G2 & G3 & G4 & G5 & G6).
    assert (Cm : combine (b :: N2) (modify_flow (b :: N2) (x :: f)) = (b, modify1 b x) :: combine N2 (modify_flow N2 f))
      by reflexivity.
    split; [simpl; f_equal; exact J1|]. split.
    { intros c z Hcz. rewrite Cm in Hcz. destruct Hcz as [Q0|Hcz]; [injection Q0 as <- <-; auto|apply J2; auto]. }
    split.
    + intro v. specialize (J3 v). unfold excess in *. rewrite Cm. cbn [combine qsum fst snd]. rewrite <- E1, <- E2 in *.
      assert (K : (if nnode_eqb (ndst a) (NV v) then x else 0) - (if nnode_eqb (nsrc a) (NV v) then x else 0) <=
                  (if nnode_eqb (ndst a) (NV v) then modify1 b x else 0) - (if nnode_eqb (nsrc a) (NV v) then modify1 b x else 0)).
      { destruct (nnode_eqb (ndst a) (NV v)) eqn:D1; destruct (nnode_eqb (nsrc a) (NV v)) eqn:D2; try lra.
        - apply nnode_eqb_true in D1. destruct (nsrc a) eqn:Es.
          + specialize (G3 eq_refl). lra.
          + rewrite D1 in G4. assert (modify1 b x == x) by (apply G4; discriminate). lra.
          + rewrite D1 in G4. assert (modify1 b x == x) by (apply G4; discriminate). lra.
        - apply nnode_eqb_true in D2. rewrite D2 in *. destruct (ndst a) eqn:Ed; [congruence| |].
          + assert (modify1 b x <= x) by (apply G5; [discriminate|auto]). lra.
          + assert (modify1 b x == x) by (apply G4; discriminate). lra. }
      lra.
    + unfold excess in *. rewrite Cm. cbn [combine qsum fst snd]. rewrite <- E1, <- E2 in *.
      assert (K : 0 <= (if nnode_eqb (ndst a) NSnk then modify1 b x else 0) - (if nnode_eqb (nsrc a) NSnk then modify1 b x else 0)).
      { destruct (nnode_eqb (nsrc a) NSnk) eqn:D2.
        - apply nnode_eqb_true in D2. assert (modify1 b x == 0) by auto.
          destruct (nnode_eqb (ndst a) NSnk); lra.
        - destruct (nnode_eqb (ndst a) NSnk); lra. }
      lra.
Qed.

Lemma modify_started N f : started N (modify_flow N f).
Proof.
  unfold started, modify_flow. revert f. induction N as [|b N IH]; intros f a x Hx Hs Hd; [destruct Hx|].
  destruct f as [|z f]; [destruct Hx|]. cbn [combine map fst snd] in Hx. destruct Hx as [K|Hx].
  - injection K as <- <-. unfold modify1. rewrite Hs. destruct (ndst b); try reflexivity.
    destruct (Qltb (ncap b) z); reflexivity.
  - eapply IH; eauto.
Qed.

Lemma modify_preflow nodes N1 N2 f : Forall2 moved N1 N2 ->
  (forall a, In a N1 -> ndst a <> NSrc) -> (forall a, In a N2 -> 0 <= ncap a) ->
  preflow nodes N1 f -> (forall a x, In (a, x) (combine N1 f) -> nsrc a = NSnk -> x == 0) ->
  preflow nodes N2 (modify_flow N2 f) /\ init_ok nodes N2 (modify_flow N2 f) = true.
Proof.
  intros HF Hs Hc (P1 & P2 & P3) Hz. destruct (moved_flow N1 N2 f HF P1 Hs Hc P2 Hz) as (J1 & J2 & J3 & J4).
  assert (Ex : forall u, u = NSnk \/ (exists v, In v nodes /\ u = NV v) -> 0 <= excess N2 (modify_flow N2 f) u).
  { intros u [->|(v & Hv & ->)]; auto. specialize (J3 v). assert (0 <= excess N1 f (NV v)) by (apply P3; right; eauto). lra. }
  split; [split; auto|].
  unfold init_ok. apply forallb_forall. intros u Hu. apply negb_true_iff, Qltb_false. apply Ex.
  destruct Hu as [<-|Hu]; [left; auto|right]. apply in_map_iff in Hu. destruct Hu as (v & <- & Hv). eauto.
Qed.

(** Any network without arcs into the source, any preflow without flow out of the sink: after the
    capacities have moved the way a growing parameter moves them, the modified flow is a preflow and
    passes the test of Preflow::init. *)
Theorem C43_modify_flow_valid : forall nodes N1 N2 f, Forall2 moved N1 N2 ->
  (forall a, In a N1 -> ndst a <> NSrc) -> (forall a, In a N2 -> 0 <= ncap a) ->
  preflow nodes N1 f -> (forall a x, In (a, x) (combine N1 f) -> nsrc a = NSnk -> x == 0) ->
  preflow nodes N2 (modify_flow N2 f) /\ init_ok nodes N2 (modify_flow N2 f) = true /\
  started N2 (modify_flow N2 f).
Proof.
  intros nodes N1 N2 f HF Hs Hc Hp Hz. destruct (modify_preflow nodes N1 N2 f HF Hs Hc Hp Hz) as [A B].
  split; [exact A|]. split; [exact B|apply modify_started].
Qed.
Print Assumptions C43_modify_flow_valid.

(** ** The whole algorithm with its warm starts *)
Lemma Forall2_flat_map {A B} (R : B -> B -> Prop) (f g : A -> list B) l :
  (forall x, In x l -> Forall2 R (f x) (g x)) -> Forall2 R (flat_map f l) (flat_map g l).
Proof.
  induction l as [|x l IH]; intro H; simpl; [constructor|].
  apply Forall2_app; [apply H; left; auto|apply IH; intros; apply H; right; auto].
Qed.

Lemma Forall2_same {A} (R : A -> A -> Prop) l : (forall x, In x l -> R x x) -> Forall2 R l l.
Proof. induction l; intro H; constructor; [apply H; left; auto|apply IHl; intros; apply H; right; auto]. Qed.

Lemma Forall2_repeat {A} (R : A -> A -> Prop) a b k : R a b -> Forall2 R (repeat a k) (repeat b k).
Proof. intro H. induction k; simpl; constructor; auto. Qed.

Lemma pmf_net_moved eps E j y l1 l2 : l1 <= l2 -> Forall2 moved (pmf_net eps E j y l1) (pmf_net eps E j y l2).
Proof.
  intro H. unfold pmf_net. apply Forall2_app.
  - apply Forall2_same. intros a _. repeat split; intros; lra.
  - apply Forall2_flat_map. intros i _. unfold pmf_arcs. cbv zeta. assert (A := ycap_anti (yat y i) l1 l2 H).
    constructor.
    + repeat split; cbn [nsrc ndst ncap]; intros; try congruence.
      destruct (Qltb (ycap (yat y i) l1) 0) eqn:E1; [apply Qltb_true in E1|apply Qltb_false in E1];
      destruct (Qltb (ycap (yat y i) l2) 0) eqn:E2; [apply Qltb_true in E2|apply Qltb_false in E2|apply Qltb_true in E2|apply Qltb_false in E2]; lra.
    + apply Forall2_repeat. repeat split; cbn [nsrc ndst ncap]; intros; try congruence.
      destruct (qmax_spec 0 (ycap (yat y i) l1)) as [[A1 B1]|[A1 B1]];
      destruct (qmax_spec 0 (ycap (yat y i) l2)) as [[A2 B2]|[A2 B2]]; rewrite B1, B2; lra.
Qed.

Lemma pmf_net_dirs eps E j y l a : In a (pmf_net eps E j y l) -> ndst a <> NSrc /\ nsrc a <> NSnk.
Proof.
  unfold pmf_net. rewrite in_app_iff, in_flat_map. intros [H|(i & _ & H)].
  - unfold inner_arcs in H. apply in_map_iff in H. destruct H as (b & <- & _). split; discriminate.
  - unfold pmf_arcs in H. destruct H as [<-|H]; [split; discriminate|]. apply repeat_spec in H. subst. split; discriminate.
Qed.

Lemma pmf_net_fine eps E n j y l : (j < n)%nat -> graph_on (seq 0 n) E -> net_ok (seq 0 j) (pmf_net eps E j y l).
Proof.
  intros Hj HE. split; [apply seq_NoDup|]. intros a Ha. unfold pmf_net in Ha. apply in_app_or in Ha.
  destruct Ha as [Ha|Ha].
  - unfold inner_arcs in Ha. apply in_map_iff in Ha. destruct Ha as (b & <- & Hb).
    apply filter_In in Hb. destruct Hb as [Hb1 Hb2]. apply andb_true_iff in Hb2.
    destruct Hb2 as [Hb2 Hb3]. apply mem_In in Hb2. apply mem_In in Hb3. simpl.
    split; [apply HE; auto|auto].
  - apply in_flat_map in Ha. destruct Ha as (i & Hi & Ha). unfold pmf_arcs in Ha.
    destruct Ha as [<-|Ha].
    + simpl. split; [|auto]. destruct (Qltb (ycap (yat y i) l) 0) eqn:Ec; [apply Qltb_true in Ec|]; lra.
    + apply repeat_spec in Ha. subst a. simpl. split; [|auto].
      assert (S : 0 <= sink_cost E j i) by (apply sink_cost_nonneg; intros b Hb; apply HE; auto).
      destruct (qmax_spec 0 (ycap (yat y i) l)) as [[A B]|[A B]]; rewrite B; lra.
Qed.

Lemma init_flow_preflow nodes N : net_ok nodes N -> preflow nodes N (init_flow N).
Proof.
  intros [_ H]. split; [apply map_length|]. split.
  - intros a x Hx. unfold init_flow in Hx.
    assert (K : In a N /\ x = match nsrc a, ndst a with NSrc, NSrc => 0 | NSrc, _ => ncap a | _, _ => 0 end).
    { clear H. induction N as [|b N IH]; [destruct Hx|]. destruct Hx as [Q0|Hx].
      - injection Q0 as <- <-. split; [left; auto|auto].
      - destruct (IH Hx). split; [right; auto|auto]. }
    destruct K as [K1 ->]. destruct (H a K1) as [K2 _]. destruct (nsrc a), (ndst a); lra.
  - intros u Hu. unfold excess, init_flow.
    assert (Nu : u <> NSrc) by (destruct Hu as [->|(v & _ & ->)]; discriminate).
    apply qsum_nonneg. intros [a x] Hx.
    assert (K : In a N /\ x = match nsrc a, ndst a with NSrc, NSrc => 0 | NSrc, _ => ncap a | _, _ => 0 end).
    { clear H. induction N as [|b N IH]; [destruct Hx|]. destruct Hx as [Q0|Hx].
      - injection Q0 as <- <-. split; [left; auto|auto].
      - destruct (IH Hx). split; [right; auto|auto]. }
    destruct K as [K1 ->]. destruct (H a K1) as [K2 _]. cbn [fst snd].
    destruct (nnode_eqb (nsrc a) u) eqn:E1.
    + apply nnode_eqb_true in E1. subst u. destruct (nsrc a); [congruence| |]; destruct (nnode_eqb (ndst a) _); lra.
    + destruct (nnode_eqb (ndst a) u); [|lra]. destruct (nsrc a), (ndst a); lra.
Qed.

Lemma init_started N : started N (init_flow N).
Proof.
  unfold started, init_flow. induction N as [|b N IH]; intros a x Hx Hs Hd; [destruct Hx|].
  cbn [combine map] in Hx. destruct Hx as [K|Hx]; [|eapply IH; eauto].
  injection K as <- <-. rewrite Hs. destruct (ndst b); try congruence; reflexivity.
Qed.

Lemma cold_spec ws : WarmSpec ws -> MinSinkCutSpec (cold ws).
Proof.
  intro H. split.
  - intros nodes N Hn. destruct (H nodes N _ Hn (init_flow_preflow nodes N Hn) (init_started N)) as (A & B & C & _). auto.
  - intros nodes N Hn. destruct (H nodes N _ Hn (init_flow_preflow nodes N Hn) (init_started N)) as (A & B & C & D & _). exact D.
Qed.

(** The cut does not depend on the flow the solver starts from. *)
Lemma warm_same ws nodes N f : WarmSpec ws -> net_ok nodes N -> preflow nodes N f -> started N f ->
  fst (fst (ws nodes N f)) == fst (cold ws nodes N) /\
  filter (mem (snd (fst (ws nodes N f)))) nodes = filter (mem (snd (cold ws nodes N))) nodes.
Proof.
  intros H Hn Hf Hst. destruct (H nodes N f Hn Hf Hst) as (A1 & A2 & A3 & A4 & _).
  destruct (H nodes N _ Hn (init_flow_preflow nodes N Hn) (init_started N)) as (B1 & B2 & B3 & B4 & _). fold (cold ws nodes N) in *.
  unfold cold in *. set (r := fst (ws nodes N f)) in *. set (q := fst (ws nodes N (init_flow N))) in *.
  assert (V : fst r == fst q).
  { assert (fst r <= fst q) by (rewrite B2; apply A3). assert (fst q <= fst r) by (rewrite A2; apply B3). lra. }
  split; auto. apply filter_ext_in. intros x Hx.
  assert (C1 : forall x, In x (snd r) -> mem (snd q) x = true).
  { apply A4. rewrite <- B2. symmetry. exact V. }
  assert (C2 : forall x, In x (snd q) -> mem (snd r) x = true).
  { apply B4. rewrite <- A2. exact V. }
  destruct (mem (snd r) x) eqn:E1.
  - symmetry. apply C1. apply mem_In; auto.
  - destruct (mem (snd q) x) eqn:E2; auto. apply mem_In in E2. apply C2 in E2. congruence.
Qed.

Lemma Qltb_wd a b c : a == b -> Qltb a c = Qltb b c.
Proof.
  intro H. destruct (Qltb a c) eqn:E1; [apply Qltb_true in E1|apply Qltb_false in E1]; symmetry.
  - apply Qltb_true. lra.
  - apply Qltb_false. lra.
Qed.

Lemma pmfw_slice_eq ws eps E n j y : WarmSpec ws -> (j < n)%nat -> graph_on (seq 0 n) E ->
  forall fuel Tl Tr fm l1 l3, preflow (seq 0 j) (pmf_net eps E j y l1) fm ->
  pmfw_slice fuel ws eps E n j y Tl Tr fm l1 l3 = pmf_slice fuel (cold ws) eps E n j y Tl Tr l1 l3.
Proof.
  intros Hws Hj HE. induction fuel as [|fuel IH]; intros Tl Tr fm l1 l3 Hp; [reflexivity|].
  cbn [pmfw_slice pmf_slice]. cbv zeta.
  destruct (compute_lambda eps (map (yat y) (filter (fun i => mem Tl i && negb (mem Tr i)) (seq 0 (n - 1))))
              (get_cut_value E Tl - get_cut_value E Tr)) as [[l|]| | |]; cbn [bind]; try reflexivity.
  set (l2 := Qred l). destruct (negb (tol_different eps l2 l1) || negb (dbl_different eps l2 l3)); [reflexivity|].
  destruct (Qltb l2 l1 || dltb l3 (Fin l2)) eqn:El; [reflexivity|].
  apply orb_false_iff in El. destruct El as [El _]. apply Qltb_false in El.
  set (N := pmf_net eps E j y l2).
  assert (Hn : net_ok (seq 0 j) N) by (apply (pmf_net_fine eps E n j y l2); auto).
  destruct (modify_preflow (seq 0 j) (pmf_net eps E j y l1) N fm) as [M1 M2]; auto.
  { apply pmf_net_moved; auto. }
  { intros a Ha. apply (pmf_net_dirs eps E j y l1 a Ha). }
  { intros a Ha. apply Hn; auto. }
  { intros a x Hx Hs. exfalso. apply in_combine_l in Hx. apply pmf_net_dirs in Hx. tauto. }
  rewrite M2. destruct (warm_same ws (seq 0 j) N (modify_flow N fm) Hws Hn M1 (modify_started N fm)) as [V S].
  unfold pmf_cut. cbv zeta. fold N. cbn [fst snd]. rewrite S. rewrite (Qltb_wd _ _ _ V).
  set (T' := cadd j (cset_of (filter (mem (snd (cold ws (seq 0 j) N))) (seq 0 j)))).
  destruct (negb (ceqb T' Tr) && negb (ceqb T' Tl) && Qltb (fst (cold ws (seq 0 j) N)) (cut N (mem Tr) - 10 * eps));
    [|reflexivity].
  rewrite (IH Tl T' fm l1 (Fin l2) Hp). rewrite (IH T' Tr (modify_flow N fm) l2 l3 M1). reflexivity.
Qed.

Lemma pmfw_run_eq ws eps E n j y : WarmSpec ws -> graph_on (seq 0 n) E ->
  pmfw_run ws eps E n j y = pmf_run (cold ws) eps E n j y.
Proof.
  intros Hws HE. unfold pmfw_run, pmf_run. destruct (j <? n)%nat eqn:Ej; [|reflexivity]. apply Nat.ltb_lt in Ej.
  cbv zeta. set (N := pmf_net eps E j y init_lambda).
  assert (Hn : net_ok (seq 0 j) N) by (apply (pmf_net_fine eps E n j y init_lambda); auto).
  destruct (Hws (seq 0 j) N _ Hn (init_flow_preflow _ N Hn) (init_started N)) as (_ & _ & _ & _ & P).
  rewrite (pmfw_slice_eq ws eps E n j y Hws Ej HE _ _ _ _ _ _ P). reflexivity.
Qed.

Lemma foldr_ext {A S} (f g : S -> A -> res S) : (forall s a, f s a = g s a) -> forall l s, foldr f s l = foldr g s l.
Proof.
  intros H. induction l as [|x l IH]; intro s; [reflexivity|]. cbn [foldr]. rewrite (H s x).
  destruct (g s x); cbn [bind]; auto.
Qed.

Lemma loop_ext pm pm' E n y0 : (forall j y, pm j y = pm' j y) -> pdt_loop pm E n y0 = pdt_loop pm' E n y0.
Proof.
  intro H. unfold pdt_loop. destruct (n =? 0)%nat; [reflexivity|]. cbv zeta.
  rewrite (foldr_ext (pdt_step pm E n) (pdt_step pm' E n)); [reflexivity|].
  intros s a. unfold pdt_step. rewrite H. reflexivity.
Qed.

Lemma pdtw_eq ws eps E n : WarmSpec ws -> graph_on (seq 0 n) E -> pdtw_run ws eps E n = pdt_run (cold ws) eps E n.
Proof.
  intros Hw HE. unfold pdtw_run, pdt_run, pdt_run_from.
  rewrite (loop_ext _ (pmf_run (cold ws) eps E n)); [reflexivity|]. intros j y. apply pmfw_run_eq; auto.
Qed.

(** C43.  Every warm start of a stage is accepted: with any solver that is only required to work
    from valid preflows, the run with warm starts (which fails as soon as a flow is rejected) is the
    run in which every maximum flow is computed from scratch, with a solver that meets the contract
    used for pdt. *)
Theorem C43_every_warm_start_accepted : forall ws eps E n,
  WarmSpec ws -> graph_on (seq 0 n) E ->
  MinSinkCutSpec (cold ws) /\
  (forall j y, pmfw_run ws eps E n j y = pmf_run (cold ws) eps E n j y) /\
  pdtw_run ws eps E n = pdt_run (cold ws) eps E n.
Proof.
  intros ws eps E n Hw HE. split; [apply cold_spec; auto|]. split; [intros; apply pmfw_run_eq; auto|].
  apply pdtw_eq; auto.
Qed.
Print Assumptions C43_every_warm_start_accepted.

(** Hence pdt, run with its warm starts, returns the principal sequence of partitions. *)
Theorem C43_pdt_with_warm_starts_exact : forall ws eps E n D,
  WarmSpec ws -> 0 < eps -> (1 <= n)%nat -> graph_on (seq 0 n) E -> simple E -> forward E ->
  (forall a, In a E -> eps <= aw a) -> multiples_of D E ->
  10 * eps * inject_Z (Zpos (gridM D n)) < 1 ->
  exists lams Ps, pdtw_run ws eps E n = Ok (map Fin lams, Ps) /\ IsPSP E (seq 0 n) lams Ps.
Proof.
  intros ws eps E n D Hw He Hn HE Hs Hf Hx HD Hg. rewrite (pdtw_eq ws eps E n Hw HE).
  exact (C27_pdt_exact (cold ws) eps E n D (cold_spec ws Hw) He Hn HE Hs Hf Hx HD Hg).
Qed.
Print Assumptions C43_pdt_with_warm_starts_exact.

Lemma bf_wsolver_spec : WarmSpec bf_wsolver.
Proof.
  intros nodes N f Hn Hf _. unfold bf_wsolver. cbn [fst snd]. destruct bf_minsink_spec as [A B].
  destruct (A nodes N Hn) as (A1 & A2 & A3).
  split; [exact A1|]. split; [exact A2|]. split; [exact A3|]. split; [exact (B nodes N Hn)|exact Hf].
Qed.

Example C43_nonvacuous :
  WarmSpec bf_wsolver /\ graph_on (seq 0 4) ex27 /\
  pdtw_run bf_wsolver (1 # 1000000000) ex27 4 = pdt_run bf_mincut (1 # 1000000000) ex27 4.
Proof.
  split; [exact bf_wsolver_spec|]. split; [apply C27_nonvacuous|]. vm_compute. reflexivity.
Qed.

(** The flow of one parameter is not accepted at the next one as it is: source arcs have to be
    filled and sink arcs cut down.  Here sink arcs are left as they are and the flow exceeds the
    capacities. *)
Example C43_modify_needed :
  let N1 := [mkNarc NSrc (NV 0) 1; mkNarc (NV 0) NSnk 2] in
  let N2 := [mkNarc NSrc (NV 0) 3; mkNarc (NV 0) NSnk (1 # 2)] in
  preflow [0%nat] N1 [1; 1] /\ ~ preflow [0%nat] N2 [1; 1] /\
  preflow [0%nat] N2 (modify_flow N2 [1; 1]) /\ modify_flow N2 [1; 1] = [3; 1 # 2].
Proof.
  cbv zeta. split; [|split; [|split]].
  - split; [reflexivity|]. split.
    + intros a x [Q0|[Q0|[]]]; injection Q0 as <- <-; vm_compute; split; discriminate.
    + intros u [->|(v & [<-|[]] & ->)]; vm_compute; discriminate.
  - intros (_ & H & _). destruct (H (mkNarc (NV 0) NSnk (1 # 2)) 1) as [_ K]; [right; left; reflexivity|].
    vm_compute in K. apply K. reflexivity.
  - split; [reflexivity|]. split.
    + intros a x [Q0|[Q0|[]]]; injection Q0 as <- <-; vm_compute; split; discriminate.
    + intros u [->|(v & [<-|[]] & ->)]; vm_compute; discriminate.
  - reflexivity.
Qed.
