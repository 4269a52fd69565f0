(** * PropAIC: C40 (graph entropy), C41 (greedy bases), C42 (one agglomeration step),
    C50 (the whole agglomerative run). *)
From Coq Require Import Sorted.
From Verif Require Import Base Graph Spec PartThy SubThy SeqThy MSets SetsThy PSPThy MHC HCThy HCInv HCSearch HCPart
  MAIC SFSpec MNBThy AICStep AggThy AICThy AggRun EntThy GreedyThy ExactMNB.

(** A graph on four nodes and the tolerance of agglomerate(). *)
Definition agg_E : graph := [mkArc 0 1 3; mkArc 1 2 1; mkArc 0 2 1; mkArc 2 3 (1#2)].
Definition agg_tol : Q := 1 # 1000000.

Lemma agg_E_on : graph_on (seq 0 4) agg_E.
Proof.
  intros a H. simpl in H. repeat (destruct H as [<-|H]; [simpl; split; [tauto|]; split; [tauto|]; vm_compute; discriminate|]).
  destruct H.
Qed.
Lemma agg_E_forward : forward agg_E.
Proof. intros a H. simpl in H. repeat (destruct H as [<-|H]; [simpl; lia|]). destruct H. Qed.
Lemma agg_E_grid : multiples_of 2 agg_E.
Proof.
  intros a H. simpl in H. destruct H as [<-|[<-|[<-|[<-|[]]]]]; simpl.
  - exists 6%Z. reflexivity.
  - exists 2%Z. reflexivity.
  - exists 2%Z. reflexivity.
  - exists 1%Z. reflexivity.
Qed.

(** ** C40 *)

(** On any graph: the arcs touching the set, and once more those inside it that do not ascend. *)
Theorem C40_entropy_value : forall n E B,
  NoDup B -> (forall b, In b B -> (b < n)%nat) ->
  exists v, sfv (ent_sf n E) B = Ok v /\
    v == qsum (fun a => if mem B (asrc a) || mem B (adst a) then aw a else 0) E +
         qsum (fun a => if negb (asrc a <? adst a)%nat && (mem B (asrc a) && mem B (adst a)) then aw a else 0) E.
Proof. exact (fun n E => ent_computes n E). Qed.
Print Assumptions C40_entropy_value.

Lemma doubled_forward E B : forward E -> doubled E B == 0.
Proof.
  intro H. apply qsum_zero. intros a Ha. unfold ascending. replace (asrc a <? adst a)%nat with true; [reflexivity|].
  symmetry. apply Nat.ltb_lt. auto.
Qed.

Lemma entropy_touch : forall n E B, forward E -> NoDup B -> (forall b, In b B -> (b < n)%nat) ->
  exists v, sfv (ent_sf n E) B = Ok v /\
    v == qsum (fun a => if mem B (asrc a) || mem B (adst a) then aw a else 0) E.
Proof.
  intros n E B HE HB Hn. destruct (ent_computes n E B HB Hn) as (v & V1 & V2). exists v. split; auto.
  rewrite V2. unfold entF. rewrite (doubled_forward E _ HE). unfold touch. lra.
Qed.

Theorem C40_entropy_touch : forall n E B, forward E -> NoDup B -> (forall b, In b B -> (b < n)%nat) ->
  exists v, sfv (ent_sf n E) B = Ok v /\
    v == qsum (fun a => if mem B (asrc a) || mem B (adst a) then aw a else 0) E.
Proof. exact entropy_touch. Qed.
Print Assumptions C40_entropy_touch.

(** Submodular on every graph with non-negative weights; the four sets are given as lists. *)
Lemma entropy_submodular : forall n E A B U I, graph_on (seq 0 n) E ->
  NoDup A -> NoDup B -> NoDup U -> NoDup I -> (forall x, In x A \/ In x B -> (x < n)%nat) ->
  (forall x, In x U <-> In x A \/ In x B) -> (forall x, In x I <-> In x A /\ In x B) ->
  exists a b u i, sfv (ent_sf n E) A = Ok a /\ sfv (ent_sf n E) B = Ok b /\
    sfv (ent_sf n E) U = Ok u /\ sfv (ent_sf n E) I = Ok i /\ u + i <= a + b.
Proof.
  intros n E A B U I HE NA NB NU NI Hn HU HI.
  destruct (ent_computes n E A NA) as (a & A1 & A2); [auto|].
  destruct (ent_computes n E B NB) as (b & B1 & B2); [auto|].
  destruct (ent_computes n E U NU) as (u & U1 & U2); [intros x Hx; apply HU in Hx; auto|].
  destruct (ent_computes n E I NI) as (i & I1 & I2); [intros x Hx; apply HI in Hx; apply Hn; tauto|].
  exists a, b, u, i. repeat (split; [assumption|]). rewrite A2, B2, U2, I2.
  assert (S := ent_submodular E (fun a Ha => proj2 (proj2 (HE a Ha))) (mem A) (mem B)).
  assert (G := ent_ground n E HE).
  rewrite (G (mem U) (iunion (mem A) (mem B))), (G (mem I) (iinter (mem A) (mem B))); auto.
  - intros x _. apply Bool.eq_true_iff_eq. unfold iinter. rewrite andb_true_iff, !mem_In. apply HI.
  - intros x _. apply Bool.eq_true_iff_eq. unfold iunion. rewrite orb_true_iff, !mem_In. apply HU.
Qed.

Theorem C40_entropy_submodular : forall n E A B U I, graph_on (seq 0 n) E ->
  NoDup A -> NoDup B -> NoDup U -> NoDup I -> (forall x, In x A \/ In x B -> (x < n)%nat) ->
  (forall x, In x U <-> In x A \/ In x B) -> (forall x, In x I <-> In x A /\ In x B) ->
  exists a b u i, sfv (ent_sf n E) A = Ok a /\ sfv (ent_sf n E) B = Ok b /\
    sfv (ent_sf n E) U = Ok u /\ sfv (ent_sf n E) I = Ok i /\ u + i <= a + b.
Proof. exact entropy_submodular. Qed.
Print Assumptions C40_entropy_submodular.

(** The sum over a partition: the entropy of all nodes and the crossing weight of the ascending arcs. *)
Lemma entropy_crossing : forall n E P, graph_on (seq 0 n) E -> is_partition (seq 0 n) P ->
  exists val v, (forall C, In C P -> sfv (ent_sf n E) C = Ok (val C)) /\ sfv (ent_sf n E) (seq 0 n) = Ok v /\
    qsum val P - v == crossing (filter (fun a => asrc a <? adst a)%nat E) P.
Proof.
  intros n E P HE HP. assert (ND : NoDup (seq 0 n)) by apply seq_NoDup.
  exists (fun C => qsum (ent_at E C) C), (qsum (ent_at E (seq 0 n)) (seq 0 n)).
  assert (OK : forall C, NoDup C -> incl C (seq 0 n) -> sfv (ent_sf n E) C = Ok (qsum (ent_at E C) C)).
  { intros C NC HC. simpl. replace (forallb (fun b => (b <? n)%nat) C) with true; auto. symmetry. apply forallb_forall.
    intros b Hb. apply HC in Hb. apply in_seq in Hb. apply Nat.ltb_lt. lia. }
  assert (NP : forall C, In C P -> NoDup C).
  { intros C HC. eapply nd_part_NoDup_in; [eapply part_NoDup; eauto|auto]. }
  split; [|split].
  - intros C HC. apply OK; auto. eapply part_incl; eauto.
  - apply OK; auto. apply incl_refl.
  - rewrite (qsum_ext _ (fun C => entF E (mem C))) by (intros; apply ent_value; auto).
    rewrite (ent_value E (seq 0 n) ND), (ent_crossing n E P HE HP). unfold ascending. lra.
Qed.

Theorem C40_entropy_crossing : forall n E P, graph_on (seq 0 n) E -> is_partition (seq 0 n) P ->
  exists val v, (forall C, In C P -> sfv (ent_sf n E) C = Ok (val C)) /\ sfv (ent_sf n E) (seq 0 n) = Ok v /\
    qsum val P - v == crossing (filter (fun a => asrc a <? adst a)%nat E) P.
Proof. exact entropy_crossing. Qed.
Print Assumptions C40_entropy_crossing.

Example C40_case : sfv (ent_sf 4 agg_E) [2; 0]%nat = Ok (11 # 2) /\
  sfv (ent_sf 4 agg_E) [0; 1; 2; 3]%nat = Ok (11 # 2) /\ sfv (ent_sf 4 agg_E) [1; 2]%nat = Ok (11 # 2) /\
  sfv (ent_sf 4 agg_E) [3]%nat = Ok (1 # 2) /\ sfv (ent_sf 4 agg_E) [4]%nat = UB.
Proof. repeat split; vm_compute; reflexivity. Qed.

(** An arc from the larger id to the smaller one is counted twice, and does not cross. *)
Theorem C40_descending_refuted :
  sfv (ent_sf 2 [mkArc 1 0 1]) [0; 1]%nat = Ok 2 /\
  sfv (ent_sf 2 [mkArc 1 0 1]) [0]%nat = Ok 1 /\ sfv (ent_sf 2 [mkArc 1 0 1]) [1]%nat = Ok 1 /\
  crossing [mkArc 1 0 1] [[0]; [1]]%nat == 1.
Proof. repeat split; vm_compute; reflexivity. Qed.
Print Assumptions C40_descending_refuted.

(** ** C41 *)
Lemma greedy_property : forall ord f F w,
  computes f F -> ground (sfn f) F -> length w = sfn f -> sorts w (ord w) ->
  exists x, edmonds_greedy ord f w = Ok x /\ length x = sfn f /\
    vsum (sfn f) (vec x) every == F every - F none /\
    (submodular F ->
       (forall S, vsum (sfn f) (vec x) S <= F S - F none) /\
       forall y, in_base (sfn f) F y -> dot (sfn f) (vec w) (vec x) <= dot (sfn f) (vec w) y).
Proof.
  intros ord f F w HF HG HL HO. destruct (greedy_ok ord f F w HG HF HL HO) as (x & X1 & X2 & X3 & X4).
  exists x. split; auto. split; auto. split; auto. intro HS. destruct (X4 HS) as [[X5 _] X6]. auto.
Qed.

Theorem C41_greedy_optimal_base : forall ord f F w,
  computes f F -> ground (sfn f) F -> length w = sfn f -> sorts w (ord w) ->
  exists x, edmonds_greedy ord f w = Ok x /\ length x = sfn f /\
    vsum (sfn f) (vec x) every == F every - F none /\
    (submodular F ->
       (forall S, vsum (sfn f) (vec x) S <= F S - F none) /\
       forall y, in_base (sfn f) F y -> dot (sfn f) (vec w) (vec x) <= dot (sfn f) (vec w) y).
Proof. exact greedy_property. Qed.
Print Assumptions C41_greedy_optimal_base.

Theorem C41_size_mismatch_throws : forall ord f w, length w <> sfn f -> edmonds_greedy ord f w = Throw.
Proof.
  intros ord f w H. unfold edmonds_greedy. replace (sfn f =? length w)%nat with false; auto.
  symmetry. apply Nat.eqb_neq. auto.
Qed.
Print Assumptions C41_size_mismatch_throws.

Example C41_case_sorts : sorts [2; -1; 0; -1] [3; 1; 2; 0]%nat.
Proof.
  split.
  - apply NoDup_Permutation.
    + repeat constructor; simpl; intuition lia.
    + apply seq_NoDup.
    + intro x. simpl. intuition lia.
  - repeat constructor; vm_compute; discriminate.
Qed.
Example C41_case :
  edmonds_greedy (fun _ => [3; 1; 2; 0]%nat) (ent_sf 4 agg_E) [2; -1; 0; -1] = Ok [0 # 4; 16 # 4; 4 # 4; 1 # 2].
Proof. vm_compute. reflexivity. Qed.

(** ** C42 *)
Lemma reach_inv mnb tol f F D st : MinNormSpec mnb -> evaluates f F -> ground (sfn f) F -> submodular F ->
  (forall S, onD D (F S)) -> 0 <= tol -> tol * (Zpos D # 1) * (qn (sfn f - 1) * qn (sfn f - 1)) < 1 -> (0 < sfn f)%nat ->
  agg_reach mnb tol f st ->
  exists acc P, inv st acc /\ hn st = sfn f /\ get_partition st NegInf = Ok P /\ is_partition (seq 0 (sfn f)) P /\
    forall x y w, In (x, y, w) acc -> ssparse F P w.
Proof.
  intros Hm HF HG HS HD Ht Hft Hn R. induction R as [|st st' b R IH E].
  - destruct (coarsest_ok f Hn (hc_new (sfn f)) [] (inv_new _) eq_refl) as (P & P1 & P2 & _).
    exists [], P. split; [apply inv_new|]. split; auto. split; auto. split; auto. intros ? ? ? [].
  - destruct IH as (acc & P & I & Hh & HP & HPp & Hss). destruct (le_lt_dec 2 (length P)) as [H2|H1].
    + destruct (agglomerate_step mnb tol f F D Hm HG HS HF HD Ht Hft Hn st acc P I Hh HP H2 Hss)
        as (st1 & acc2 & g & P' & A1 & A2 & A3 & A4 & A5 & A6 & A7 & A8 & A9 & A10 & A11 & A12 & A13 & _).
      rewrite A1 in E. injection E as <- <-. exists (acc ++ acc2), P'. split; auto. split; auto. split; auto. split; auto.
      intros x y w H. apply in_app_iff in H. destruct H as [H|H].
      * apply (ssparse_ge F P' g); auto. apply A6 in H. lra.
      * apply A5 in H. subst; auto.
    + unfold agglomerate in E. rewrite HP in E. cbn [bind] in E.
      replace (length P <=? 1)%nat with true in E by (symmetry; apply Nat.leb_le; lia).
      injection E as <- <-. exists acc, P. auto.
Qed.

Definition step_statement (mnb : sf -> res (list Q)) (tol : Q) (f : sf) (F : nset -> Q) (st : hc) : Prop :=
  let vs := seq 0 (sfn f) in
  exists P, get_partition st NegInf = Ok P /\ is_partition vs P /\
    ((length P = 1%nat /\ agglomerate mnb tol f st = Ok (st, false)) \/
     ((2 <= length P)%nat /\ exists st' g P',
        agglomerate mnb tol f st = Ok (st', true) /\
        get_partition st' NegInf = Ok P' /\ is_partition vs P' /\
        refines P P' /\ (length P' < length P)%nat /\
        get_critical st' = get_critical st ++ [g] /\ (forall c, In c (get_critical st) -> g < c) /\
        (* g is the least lambda for which P is best among the partitions coarser than P *)
        (forall lam R, g <= lam -> is_partition vs R -> refines P R -> pval F lam P <= pval F lam R) /\
        (forall lam, lam < g -> pval F lam P' < pval F lam P) /\
        (* P' is as good at g, and is the coarsest of those *)
        pval F g P' == pval F g P /\
        (forall R, is_partition vs R -> refines P R -> pval F g R == pval F g P -> refines R P'))).

Lemma step_property : forall mnb tol f F D st,
  MinNormSpec mnb -> evaluates f F -> ground (sfn f) F -> submodular F ->
  (forall S, exists z : Z, F S == z # D) ->
  0 <= tol -> tol * (Zpos D # 1) * (qn (sfn f - 1) * qn (sfn f - 1)) < 1 -> (0 < sfn f)%nat ->
  agg_reach mnb tol f st -> step_statement mnb tol f F st.
Proof.
  intros mnb tol f F D st Hm HF HG HS HD Ht Hft Hn R.
  destruct (reach_inv mnb tol f F D st Hm HF HG HS HD Ht Hft Hn R) as (acc & P & I & Hh & HP & HPp & Hss).
  assert (ND : NoDup (seq 0 (sfn f))) by apply seq_NoDup.
  assert (NE : seq 0 (sfn f) <> []) by (destruct (sfn f); [lia|discriminate]).
  assert (L1 := part_length_pos _ ND P NE HPp).
  exists P. split; auto. split; auto. destruct (le_lt_dec 2 (length P)) as [H2|H1]; [right; split; auto|left].
  - destruct (agglomerate_step mnb tol f F D Hm HG HS HF HD Ht Hft Hn st acc P I Hh HP H2 Hss)
      as (st1 & acc2 & g & P' & A1 & A2 & A3 & A4 & A5 & A6 & A7 & A8 & A9 & A10 & A11 & A12 & A13 & A14 & A15 & A16 & A17).
    exists st1, g, P'. split; auto. split; auto. split; auto. split; auto. split; auto. split; auto.
    split; [|split; [|split; [|split]]]; auto.
    + intros c Hc. destruct (inv_gam _ _ I c Hc) as (x & y & K). eapply A6; eauto.
    + intros lam R' Hl HR Ref. assert (K := A14 R' HR Ref). assert (LL := refines_length _ ND P R' HPp HR Ref).
      apply qn_le in LL. unfold pval in *.
      assert (0 <= (lam - g) * (qn (length P) - qn (length R'))) by (apply Qmult_le_0_compat; lra).
      assert ((lam - g) * (qn (length P) - qn (length R')) ==
              (lam * qn (length P) - g * qn (length P)) - (lam * qn (length R') - g * qn (length R'))) by ring.
      lra.
    + intros lam Hl. unfold pval in *.
      assert (LL : qn (length P') < qn (length P)).
      { eapply Qlt_le_trans; [|apply (qn_le (S (length P')) (length P)); auto]. unfold qn, Qlt. simpl. lia. }
      assert (0 < (g - lam) * (qn (length P) - qn (length P'))) by (apply Qmult_lt_0_compat; lra).
      assert ((g - lam) * (qn (length P) - qn (length P')) ==
              (g * qn (length P) - lam * qn (length P)) - (g * qn (length P') - lam * qn (length P'))) by ring.
      lra.
    + intros R' HR Ref EQ. apply A16; auto. lra.
  - split; [lia|]. unfold agglomerate. rewrite HP. cbn [bind].
    replace (length P <=? 1)%nat with true; auto. symmetry. apply Nat.leb_le. lia.
Qed.

Theorem C42_agglomerate_step : forall mnb tol f F D st,
  MinNormSpec mnb -> evaluates f F -> ground (sfn f) F -> submodular F ->
  (forall S, exists z : Z, F S == z # D) ->
  0 <= tol -> tol * (Zpos D # 1) * (qn (sfn f - 1) * qn (sfn f - 1)) < 1 -> (0 < sfn f)%nat ->
  agg_reach mnb tol f st ->
  let vs := seq 0 (sfn f) in
  exists P, get_partition st NegInf = Ok P /\ is_partition vs P /\
    ((length P = 1%nat /\ agglomerate mnb tol f st = Ok (st, false)) \/
     ((2 <= length P)%nat /\ exists st' g P',
        agglomerate mnb tol f st = Ok (st', true) /\
        get_partition st' NegInf = Ok P' /\ is_partition vs P' /\
        refines P P' /\ (length P' < length P)%nat /\
        get_critical st' = get_critical st ++ [g] /\ (forall c, In c (get_critical st) -> g < c) /\
        (* g is the least lambda for which P is best among the partitions coarser than P *)
        (forall lam R, g <= lam -> is_partition vs R -> refines P R -> pval F lam P <= pval F lam R) /\
        (forall lam, lam < g -> pval F lam P' < pval F lam P) /\
        (* P' is as good at g, and is the coarsest of those *)
        pval F g P' == pval F g P /\
        (forall R, is_partition vs R -> refines P R -> pval F g R == pval F g P -> refines R P'))).
Proof. exact step_property. Qed.
Print Assumptions C42_agglomerate_step.

(** The premise on the solver can be met. *)
Theorem C42_solver_exists : exists mnb, MinNormSpec mnb.
Proof. exists exact_mnb. exact exact_mnb_ok. Qed.
Print Assumptions C42_solver_exists.

(** Two steps on the four nodes. *)
Example C42_case :
  (do r <- agglomerate exact_mnb agg_tol (ent_sf 4 agg_E) (hc_new 4);
   do r2 <- agglomerate exact_mnb agg_tol (ent_sf 4 agg_E) (fst r);
   do P <- get_partition (fst r) NegInf;
   do P2 <- get_partition (fst r2) NegInf;
   Ok (get_critical (fst r2), agg_part P, agg_part P2)) =
  Ok ([3; 2], [[0; 1]; [2]; [3]]%nat, [[0; 1; 2]; [3]]%nat).
Proof. vm_compute. reflexivity. Qed.

(** ** C50 *)

(** Any submodular function: the sequence of optimal partitions, from one block to the singletons. *)
Theorem C50_any_submodular_function : forall mnb tol f F D fuel,
  MinNormSpec mnb -> ground (sfn f) F -> submodular F -> evaluates f F -> (forall S, exists z : Z, F S == z # D) ->
  0 <= tol -> tol * (Zpos D # 1) * (qn (sfn f - 1) * qn (sfn f - 1)) < 1 -> (0 < sfn f)%nat -> (sfn f <= fuel)%nat ->
  exists lams Ps, agg_from fuel mnb tol f = Ok (lams, Ps) /\
    full_sequence Qlt (popt F (seq 0 (sfn f))) (seq 0 (sfn f)) lams Ps.
Proof. exact agg_any. Qed.
Print Assumptions C50_any_submodular_function.

(** Any graph: the principal sequence of its ascending arcs. *)
Lemma agg_ascending : forall mnb tol D n E fuel,
  MinNormSpec mnb -> graph_on (seq 0 n) E -> multiples_of D E ->
  0 <= tol -> tol * (Zpos D # 1) * (qn (n - 1) * qn (n - 1)) < 1 -> (0 < n)%nat -> (n <= fuel)%nat ->
  exists lams Ps, agg_run fuel mnb tol n E = Ok (lams, Ps) /\
    IsPSP (filter (fun a => asrc a <? adst a)%nat E) (seq 0 n) lams Ps.
Proof.
  intros mnb tol D n E fuel Hm HE HD Ht Hft Hn Hfu.
  destruct (agg_any mnb tol (ent_sf n E) (entF E) D fuel Hm) as (lams & Ps & A & B); auto.
  - apply ent_ground. auto.
  - apply ent_submodular. intros a Ha. apply HE. auto.
  - apply computes_evaluates, ent_computes.
  - apply ent_onD. auto.
  - exists lams, Ps. split; auto. simpl in B. eapply full_sequence_mono; [| |exact B]; auto.
    intros l P. apply ent_popt. auto.
Qed.

Theorem C50_agg_any_graph : forall mnb tol D n E fuel,
  MinNormSpec mnb -> graph_on (seq 0 n) E -> multiples_of D E ->
  0 <= tol -> tol * (Zpos D # 1) * (qn (n - 1) * qn (n - 1)) < 1 -> (0 < n)%nat -> (n <= fuel)%nat ->
  exists lams Ps, agg_run fuel mnb tol n E = Ok (lams, Ps) /\
    IsPSP (filter (fun a => asrc a <? adst a)%nat E) (seq 0 n) lams Ps.
Proof. exact agg_ascending. Qed.
Print Assumptions C50_agg_any_graph.

Lemma forward_filter E : forward E -> filter (fun a => asrc a <? adst a)%nat E = E.
Proof.
  induction E as [|a E IH]; intro H; [reflexivity|]. simpl.
  replace (asrc a <? adst a)%nat with true by (symmetry; apply Nat.ltb_lt; apply H; left; auto).
  f_equal. apply IH. intros b Hb. apply H. right; auto.
Qed.

Lemma agg_exact : forall mnb tol D n E fuel,
  MinNormSpec mnb -> graph_on (seq 0 n) E -> forward E -> multiples_of D E ->
  0 <= tol -> tol * (Zpos D # 1) * (qn (n - 1) * qn (n - 1)) < 1 -> (0 < n)%nat -> (n <= fuel)%nat ->
  exists lams Ps, agg_run fuel mnb tol n E = Ok (lams, Ps) /\ IsPSP E (seq 0 n) lams Ps.
Proof.
  intros mnb tol D n E fuel Hm HE HW HD Ht Hft Hn Hfu.
  destruct (agg_ascending mnb tol D n E fuel Hm HE HD Ht Hft Hn Hfu) as (lams & Ps & A & B).
  exists lams, Ps. split; auto. rewrite (forward_filter E HW) in B. exact B.
Qed.

Theorem C50_agg_exact : forall mnb tol D n E fuel,
  MinNormSpec mnb -> graph_on (seq 0 n) E -> forward E -> multiples_of D E ->
  0 <= tol -> tol * (Zpos D # 1) * (qn (n - 1) * qn (n - 1)) < 1 -> (0 < n)%nat -> (n <= fuel)%nat ->
  exists lams Ps, agg_run fuel mnb tol n E = Ok (lams, Ps) /\ IsPSP E (seq 0 n) lams Ps.
Proof. exact agg_exact. Qed.
Print Assumptions C50_agg_exact.

(** The result does not depend on the solver: any other principal sequence, in particular that of dt, is the
    same one. *)
Lemma agg_agrees : forall mnb tol D n E fuel lams Ps lams' Ps',
  MinNormSpec mnb -> graph_on (seq 0 n) E -> forward E -> multiples_of D E ->
  0 <= tol -> tol * (Zpos D # 1) * (qn (n - 1) * qn (n - 1)) < 1 -> (0 < n)%nat -> (n <= fuel)%nat ->
  agg_run fuel mnb tol n E = Ok (lams, Ps) -> IsPSP E (seq 0 n) lams' Ps' ->
  Forall2 Qeq lams lams' /\ Forall2 same_partition Ps Ps'.
Proof.
  intros mnb tol D n E fuel lams Ps lams' Ps' Hm HE HW HD Ht Hft Hn Hfu ER HP.
  destruct (agg_exact mnb tol D n E fuel Hm HE HW HD Ht Hft Hn Hfu) as (l & p & A & B).
  rewrite ER in A. injection A as <- <-. apply (psp_unique E (seq 0 n) (seq_NoDup _ _) HE); auto.
Qed.

Theorem C50_agg_agrees : forall mnb tol D n E fuel lams Ps lams' Ps',
  MinNormSpec mnb -> graph_on (seq 0 n) E -> forward E -> multiples_of D E ->
  0 <= tol -> tol * (Zpos D # 1) * (qn (n - 1) * qn (n - 1)) < 1 -> (0 < n)%nat -> (n <= fuel)%nat ->
  agg_run fuel mnb tol n E = Ok (lams, Ps) -> IsPSP E (seq 0 n) lams' Ps' ->
  Forall2 Qeq lams lams' /\ Forall2 same_partition Ps Ps'.
Proof. exact agg_agrees. Qed.
Print Assumptions C50_agg_agrees.

Example C50_case_premises :
  graph_on (seq 0 4) agg_E /\ forward agg_E /\ multiples_of 2 agg_E /\
  agg_tol * (2 # 1) * (qn (4 - 1) * qn (4 - 1)) < 1.
Proof.
  split; [exact agg_E_on|]. split; [exact agg_E_forward|]. split; [exact agg_E_grid|]. vm_compute. reflexivity.
Qed.
Example C50_case : agg_run 4 exact_mnb agg_tol 4 agg_E =
  Ok ([1 # 2; 2; 3], [[[0; 1; 2; 3]]; [[0; 1; 2]; [3]]; [[0; 1]; [2]; [3]]; [[0]; [1]; [2]; [3]]]%nat).
Proof. vm_compute. reflexivity. Qed.

(** Descending arcs are ignored: the answer for 1 -> 0 has the critical value 0 instead of 1. *)
Theorem C50_direction_refuted :
  agg_run 2 exact_mnb agg_tol 2 [mkArc 1 0 1] = Ok ([0], [[[0; 1]]; [[0]; [1]]]%nat) /\
  ~ IsPSP [mkArc 1 0 1] (seq 0 2) [0] [[[0; 1]]; [[0]; [1]]]%nat.
Proof.
  split; [vm_compute; reflexivity|]. intros (_ & _ & _ & _ & _ & _ & H).
  destruct (H (1 # 2)) as [_ K]; [discriminate|]. specialize (K [[0; 1]]%nat).
  assert (is_partition (seq 0 2) [[0; 1]]%nat).
  { split; [apply Permutation_refl|]. intros [C|[]]; discriminate. }
  apply K in H0. vm_compute in H0. apply H0. reflexivity.
Qed.
Print Assumptions C50_direction_refuted.

(** The tolerance 1E-6 merges levels that are closer: a chain with weights 1 and 1 + 1E-8. *)
Definition agg_near : graph := [mkArc 0 1 1; mkArc 1 2 (100000001 # 100000000)].
Theorem C50_tolerance_refuted :
  graph_on (seq 0 3) agg_near /\ forward agg_near /\
  agg_run 3 exact_mnb agg_tol 3 agg_near = Ok ([100000001 # 100000000], [[[0; 1; 2]]; [[0]; [1]; [2]]]%nat) /\
  ~ IsPSP agg_near (seq 0 3) [100000001 # 100000000] [[[0; 1; 2]]; [[0]; [1]; [2]]]%nat.
Proof.
  split; [|split; [|split]].
  - intros a H. simpl in H. destruct H as [<-|[<-|[]]]; (split; [simpl; tauto|]; split; [simpl; tauto|]; vm_compute; discriminate).
  - intros a H. simpl in H. destruct H as [<-|[<-|[]]]; simpl; lia.
  - vm_compute. reflexivity.
  - intros (_ & _ & _ & H & _).
    destruct (H (100000001 # 100000000)) as [_ K]; [exact I|apply Qle_refl|].
    specialize (K [[0]; [1; 2]]%nat).
    assert (J : is_partition (seq 0 3) [[0]; [1; 2]]%nat).
    { split; [apply Permutation_refl|]. intros [C|[C|[]]]; discriminate. }
    apply K in J. vm_compute in J. apply J. reflexivity.
Qed.
Print Assumptions C50_tolerance_refuted.
