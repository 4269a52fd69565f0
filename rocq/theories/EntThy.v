(** * EntThy: the set function of psp::DigraphEntropy, and Agglomerative_PSP::run on graphs. *)
From Coq Require Import Sorted Relations.
From Verif Require Import Base Graph Spec PartThy SubThy SeqThy MSets SetsThy MHC HCThy HCInv HCSearch HCPart
  MAIC SFSpec MNBThy AICStep AggThy AICThy AggRun.

Lemma qsum_pick (B : list nat) x (c : Q) : NoDup B ->
  qsum (fun b => if (x =? b)%nat then c else 0) B == if mem B x then c else 0.
Proof.
  induction B as [|b B IH]; intro H; [reflexivity|]. inversion H; subst. cbn [qsum]. rewrite IH by auto.
  unfold mem at 2. cbn [existsb]. fold (mem B x). rewrite (Nat.eqb_sym x b) || idtac.
  destruct (Nat.eqb_spec b x) as [Eb|Nb]; simpl.
  - subst b. rewrite ?Nat.eqb_refl. simpl. destruct (mem B x) eqn:M; [apply mem_In in M; tauto|]. lra.
  - destruct (Nat.eqb_spec x b); [congruence|]. simpl. destruct (mem B x); lra.
Qed.

Lemma ent_value E B : NoDup B -> qsum (ent_at E B) B == entF E (mem B).
Proof.
  intro HB. unfold ent_at. rewrite qsum_plus, (qsum_swap _ B E), (qsum_swap _ B E), <- qsum_plus.
  unfold entF, touch, doubled. rewrite <- qsum_plus. apply qsum_ext. intros a _.
  rewrite (qsum_pick B (asrc a) (aw a) HB).
  rewrite (qsum_ext _ (fun b => if (adst a =? b)%nat then (if ascending a && mem B (asrc a) then 0 else aw a) else 0)).
  - rewrite (qsum_pick B (adst a) _ HB). destruct (ascending a), (mem B (asrc a)), (mem B (adst a)); simpl; lra.
  - intros b _. destruct (Nat.eqb_spec (adst a) b) as [<-|]; [|reflexivity]. reflexivity.
Qed.

Lemma computes_evaluates f F : computes f F -> evaluates f F.
Proof. intros H B _. apply H. Qed.

Lemma ent_computes n E : computes (ent_sf n E) (entF E).
Proof.
  intros B HB Hn. simpl in *. exists (qsum (ent_at E B) B). split; [|apply ent_value; auto].
  replace (forallb (fun b => (b <? n)%nat) B) with true; auto. symmetry. apply forallb_forall. intros b Hb.
  apply Nat.ltb_lt. auto.
Qed.

Lemma ent_ground n E : graph_on (seq 0 n) E -> ground n (entF E).
Proof.
  intros HE A B H. unfold entF, touch, doubled. rewrite <- !qsum_plus. apply qsum_ext. intros a Ha.
  destruct (HE a Ha) as (H1 & H2 & _). apply in_seq in H1. apply in_seq in H2.
  rewrite (H (asrc a)), (H (adst a)) by lia. reflexivity.
Qed.

Lemma ent_submodular E : (forall a, In a E -> 0 <= aw a) -> submodular (entF E).
Proof.
  intros HE A B. unfold entF, touch, doubled. rewrite <- !qsum_plus. apply qsum_le. intros a Ha.
  assert (H := HE a Ha). unfold iunion, iinter.
  destruct (ascending a), (A (asrc a)), (A (adst a)), (B (asrc a)), (B (adst a)); simpl; lra.
Qed.

Lemma ent_onD D E : multiples_of D E -> forall S, onD D (entF E S).
Proof.
  intros H S. unfold entF, touch, doubled. apply onD_plus; apply onD_sum; intros a Ha.
  - destruct (_ || _); [apply H; auto|apply onD_0].
  - destruct (_ && _); [apply H; auto|apply onD_0].
Qed.

Lemma qsum_two_of (P : list (list nat)) u v c : NoDup (concat P) -> mem (concat P) u = true -> mem (concat P) v = true ->
  qsum (fun B => if mem B u || mem B v then c else 0) P == (if same_part P u v then 0 else c) + c.
Proof.
  intros H Hu Hv.
  rewrite (qsum_ext _ (fun B => ((if mem B u then c else 0) + (if mem B v then c else 0)) -
                                (if mem B u && mem B v then c else 0))).
  - rewrite qsum_minus, qsum_plus, !nd_ind_sum, nd_same_sum by auto. rewrite Hu, Hv. destruct (same_part P u v); lra.
  - intros B _. destruct (mem B u), (mem B v); simpl; lra.
Qed.

(** The crossing weight seen by the entropy: only the ascending arcs. *)
Lemma ent_crossing n E P : graph_on (seq 0 n) E -> is_partition (seq 0 n) P ->
  qsum (fun C => entF E (mem C)) P == entF E (mem (seq 0 n)) + crossing (filter ascending E) P.
Proof.
  intros HE HP. assert (ND : NoDup (concat P)) by (eapply part_NoDup; [apply seq_NoDup|exact HP]).
  unfold entF, touch, doubled. rewrite <- qsum_plus.
  rewrite (qsum_ext _ (fun C => qsum (fun a => (if mem C (asrc a) || mem C (adst a) then aw a else 0) +
     (if negb (ascending a) && (mem C (asrc a) && mem C (adst a)) then aw a else 0)) E))
    by (intros; symmetry; apply qsum_plus).
  rewrite (qsum_swap _ P E). unfold crossing. rewrite qsum_filter, <- qsum_plus. apply qsum_ext. intros a Ha.
  destruct (HE a Ha) as (H1 & H2 & _). rewrite qsum_plus.
  assert (M : forall x, In x (seq 0 n) -> mem (concat P) x = true /\ mem (seq 0 n) x = true).
  { intros x Hx. split; apply mem_In; auto. apply (Permutation_in x (Permutation_sym (proj1 HP))). auto. }
  destruct (M _ H1) as [M1 M2], (M _ H2) as [M3 M4]. rewrite M2, M4.
  rewrite (qsum_two_of P _ _ _ ND M1 M3). destruct (ascending a); simpl.
  - rewrite (qsum_zero (fun _ => 0)) by reflexivity. lra.
  - rewrite (nd_same_sum P _ _ _ ND). destruct (same_part P (asrc a) (adst a)); lra.
Qed.

Lemma ent_popt n E lam P : graph_on (seq 0 n) E ->
  (popt (entF E) (seq 0 n) lam P <-> optimal (filter ascending E) (seq 0 n) lam P).
Proof.
  intros HE. unfold popt, optimal, pval, hval. split; intros [H1 H2]; (split; [exact H1|]); intros R HR;
    assert (K := H2 R HR); assert (E1 := ent_crossing n E P HE H1); assert (E2 := ent_crossing n E R HE HR); lra.
Qed.

(** ** A run on an arbitrary submodular function *)
Lemma one_part x R : is_partition [x] R -> R = [[x]].
Proof.
  intros [H1 H2]. apply Permutation_sym, Permutation_length_1_inv in H1.
  destruct R as [|[|y C] R]; simpl in *; [discriminate|exfalso; apply H2; left; auto|]. injection H1 as -> H1.
  apply app_eq_nil in H1. destruct H1 as [-> H1]. f_equal. destruct R as [|C R]; auto. exfalso. simpl in H1.
  apply app_eq_nil in H1. destruct H1 as [-> _]. apply H2. right; left; auto.
Qed.

Theorem agg_any mnb tol f F D fuel : let n := sfn f in
  MinNormSpec mnb -> ground n F -> submodular F -> evaluates f F -> (forall S, onD D (F S)) ->
  0 <= tol -> tol * (Zpos D # 1) * (qn (n - 1) * qn (n - 1)) < 1 -> (0 < n)%nat -> (n <= fuel)%nat ->
  exists lams Ps, agg_from fuel mnb tol f = Ok (lams, Ps) /\ full_sequence Qlt (popt F (seq 0 n)) (seq 0 n) lams Ps.
Proof.
  intros n Hm HG HS HF HD Ht Hft Hn Hfu.
  assert (ND : NoDup (seq 0 n)) by apply seq_NoDup.
  assert (I0 := inv_new n).
  destruct (coarsest_ok f Hn (hc_new n) [] I0 eq_refl) as (P & P1 & P2 & P3). fold n in P2, P3.
  assert (SG : forall C, In C P -> exists x, C = [x]).
  { intros C HC. destruct C as [|x [|y C]]; [exfalso; apply (proj2 P2); auto|eauto|]. exfalso.
    assert (NC : NoDup (x :: y :: C)) by (eapply nd_part_NoDup_in; [eapply part_NoDup; eauto|exact HC]).
    assert (LT : forall z, In z (x :: y :: C) -> (z < n)%nat).
    { intros z Hz. apply (part_incl _ P _ P2 HC) in Hz. apply in_seq in Hz. lia. }
    assert (J : joined [] NegInf x y).
    { apply P3; [apply LT; left; auto|apply LT; right; left; auto|]. apply same_part_true. exists (x :: y :: C).
      simpl; auto. }
    assert (x = y). { clear -J. induction J as [a b (w & [] & _)| | |]; congruence. }
    subst y. inversion NC; subst. apply H1. left; auto. }
  assert (LI : linv f F [] P [] []).
  { simpl. split; auto. intros lam C R HC _ HR. destruct (SG C HC) as (x & ->). apply one_part in HR. subst R.
    unfold pval. simpl. change (qn 1) with 1. lra. }
  destruct (agg_loop_ok mnb tol f F D Hm HG HS HF HD Ht Hft Hn fuel (hc_new n) [] P [] [] I0 eq_refl P1 P2 LI)
    as (lams & P0 & Ps & B1 & B2 & B3 & B4).
  { assert (K := part_length_le _ ND P P2). rewrite seq_length in K. lia. }
  exists lams, (P0 :: Ps). split.
  - unfold agg_from. fold n. unfold get_coarsest. rewrite P1. cbn [bind]. exact B1.
  - split; [exact B2|]. split; [|exact B4]. rewrite B3. simpl.
    eapply same_partition_trans; [apply (agg_part_refines (seq 0 n) P ND P2)|].
    split; intros C HC.
    + destruct (SG C HC) as (x & ->). exists [x]. split; [|apply incl_refl]. unfold singletons. apply in_map_iff. exists x.
      split; auto. apply (part_incl _ P _ P2 HC). left; auto.
    + unfold singletons in HC. apply in_map_iff in HC. destruct HC as (x & <- & Hx).
      destruct (part_cover _ P x P2 Hx) as (C & C1 & C2). exists C. split; auto. intros y [->|[]]. auto.
Qed.
