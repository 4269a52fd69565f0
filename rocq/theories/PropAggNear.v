(** * PropAggNear: C99, how exact the minimum norm bases must be for AIC (IC/src/AIC.hpp:268-303) to find the
    principal sequence. *)
From Coq Require Import Qabs Sorted.
From Verif Require Import Base Graph Spec PartThy SubThy SeqThy PSPThy MHC MAIC SFSpec MNBThy EntThy ExactMNB
  AICStep AggThy AICThy PropAIC AggSim AggNear.

(** A min_norm_base (IC/src/AIC.hpp:40-141) whose result is off by at most [d] in every coordinate. *)
Definition NearMinNorm (d : Q) (mnb : sf -> res (list Q)) : Prop :=
  forall f F, (1 <= sfn f)%nat -> computes f F -> ground (sfn f) F -> submodular F -> F none == 0 ->
    exists x, mnb f = Ok x /\ length x = sfn f /\
      forall z, min_norm (sfn f) F z -> forall i, (i < sfn f)%nat -> Qabs (z i - vec x i) <= d.

Lemma near_of_spec d mnb f F : NearMinNorm d mnb -> ground (sfn f) F -> submodular F -> evaluates f F -> near_solver d mnb f F.
Proof.
  intros HM HG HS HF P HP.
  destruct (sf_contract_ok f F P HG HF HP) as (f_ & C1 & C2 & C3). exists f_. split; auto.
  assert (GG : ground (length P) (contr F P)) by (apply (contr_ground (sfn f) F HG P)).
  assert (GS : submodular (contr F P)) by (apply (contr_sub (sfn f) F HG HS (seq 0 (sfn f)) P (seq_NoDup _ _) HP)).
  assert (G1 : forall j, (j < length P)%nat -> contr F P (fun i => (i =? j)%nat) == 0) by (intros; apply (contr_one (sfn f) F HG); auto).
  intros j Hj. destruct (HM (sf_fix f_ j) (hfix (contr F P) j)) as (x & X1 & X2 & X3).
  - simpl. lia.
  - eapply sf_fix_ok; eauto. lia.
  - simpl. eapply hfix_ground; eauto. lia.
  - eapply hfix_sub; eauto.
  - eapply hfix_none; eauto. lia.
  - exists x. auto.
Qed.

(** [f] may be the program's function object with rounded values and [F] the function meant.  If every vector that the
    solver returns in a round is within [d] of the minimum norm base of [F] there, [2 * d <= fn_tol], and the
    distance between two possible critical values is above [fn_tol + 2 * d], then the run ends, its partitions are
    exactly the sequence of optimal partitions of [F], and the i-th returned value is within [d] of the i-th
    critical value; the returned values increase strictly. *)
Theorem C99_inexact_values : forall mnb tol d f F D fuel,
  ground (sfn f) F -> submodular F -> (forall S, exists z : Z, F S == z # D) -> (0 < sfn f)%nat -> (sfn f <= fuel)%nat ->
  0 <= d -> 2 * d <= tol -> (tol + 2 * d) * (Zpos D # 1) * (qn (sfn f - 1) * qn (sfn f - 1)) < 1 ->
  (forall P, is_partition (seq 0 (sfn f)) P -> exists f_, sf_contract f P = Ok f_ /\
    forall j, (1 <= j < length P)%nat -> exists x, mnb (sf_fix f_ j) = Ok x /\ length x = j /\
      forall z, min_norm j (hfix (contr F P) j) z -> forall i, (i < j)%nat -> Qabs (z i - vec x i) <= d) ->
  exists lams lams' Ps, agg_from fuel mnb tol f = Ok (lams', Ps) /\
    full_sequence Qlt (popt F (seq 0 (sfn f))) (seq 0 (sfn f)) lams Ps /\
    Forall2 (fun a b => Qabs (a - b) <= d) lams lams' /\ Sorted Qlt lams'.
Proof.
  intros mnb tol d f F D fuel HG HS HD Hn Hfu Hd H2 HT HN.
  apply (near_run mnb tol d f F D HG HS HD Hd H2 HT Hn HN fuel Hfu).
Qed.
Print Assumptions C99_inexact_values.

(** The same for exact function values and a solver that is off by at most [d] on every submodular function. *)
Theorem C99_inexact_solver : forall mnb tol d f F D fuel,
  NearMinNorm d mnb -> ground (sfn f) F -> submodular F -> evaluates f F -> (forall S, exists z : Z, F S == z # D) ->
  (0 < sfn f)%nat -> (sfn f <= fuel)%nat ->
  0 <= d -> 2 * d <= tol -> (tol + 2 * d) * (Zpos D # 1) * (qn (sfn f - 1) * qn (sfn f - 1)) < 1 ->
  exists lams lams' Ps, agg_from fuel mnb tol f = Ok (lams', Ps) /\
    full_sequence Qlt (popt F (seq 0 (sfn f))) (seq 0 (sfn f)) lams Ps /\
    Forall2 (fun a b => Qabs (a - b) <= d) lams lams' /\ Sorted Qlt lams'.
Proof.
  intros mnb tol d f F D fuel HM HG HS HF HD Hn Hfu Hd H2 HT.
  apply (C99_inexact_values mnb tol d f F D fuel HG HS HD Hn Hfu Hd H2 HT). apply near_of_spec; auto.
Qed.
Print Assumptions C99_inexact_solver.

(** Agglomerative_PSP::run (psp/agglomerative.cpp:81-89): get_psp() is the principal sequence, and
    get_critical_values() is off by at most [d]. *)
Theorem C99_graph : forall mnb tol d D n E fuel,
  NearMinNorm d mnb -> graph_on (seq 0 n) E -> forward E -> multiples_of D E -> (0 < n)%nat -> (n <= fuel)%nat ->
  0 <= d -> 2 * d <= tol -> (tol + 2 * d) * (Zpos D # 1) * (qn (n - 1) * qn (n - 1)) < 1 ->
  exists lams lams' Ps, agg_run fuel mnb tol n E = Ok (lams', Ps) /\
    IsPSP E (seq 0 n) lams Ps /\ Forall2 (fun a b => Qabs (a - b) <= d) lams lams' /\ Sorted Qlt lams'.
Proof.
  intros mnb tol d D n E fuel HM HE HW HD Hn Hfu Hd H2 HT.
  destruct (C99_inexact_solver mnb tol d (ent_sf n E) (entF E) D fuel HM) as (lams & lams' & Ps & R1 & R2 & R3 & R4); auto.
  - apply ent_ground. auto.
  - apply ent_submodular. intros a Ha. apply HE. auto.
  - apply computes_evaluates, ent_computes.
  - apply ent_onD. auto.
  - exists lams, lams', Ps. split; [exact R1|]. split; [|auto]. simpl in R2. rewrite <- (forward_filter E HW).
    eapply full_sequence_mono; [| |exact R2]; auto. intros l P. apply ent_popt. auto.
Qed.
Print Assumptions C99_graph.

(** A solver that is off by [d], alternately above and below. *)
Definition wobble (d : Q) (f : sf) : res (list Q) :=
  do x <- exact_mnb f; Ok (map (fun i => Qred (if Nat.even i then vec x i + d else vec x i - d)) (seq 0 (length x))).

Lemma wobble_near d : 0 <= d -> NearMinNorm d (wobble d).
Proof.
  intros Hd f F H1 HF HG HS HZ. destruct (exact_mnb_ok f F H1 HF HG HS HZ) as (y & Y1 & Y2 & Y3).
  unfold wobble. rewrite Y1. cbn [bind]. eexists. split; [reflexivity|]. rewrite map_length, seq_length. split; auto.
  intros z Hz i Hi. assert (E := min_norm_unique _ _ _ _ Hz Y3 i Hi).
  unfold vec at 1. rewrite (nth_indep _ 0 (Qred (if Nat.even 0 then vec y 0 + d else vec y 0 - d))) by (rewrite map_length, seq_length; lia).
  rewrite (map_nth (fun i => Qred (if Nat.even i then vec y i + d else vec y i - d))), seq_nth by lia. simpl (0 + i)%nat.
  apply Qabs_Qle_condition. rewrite Qred_correct. destruct (Nat.even i); lra.
Qed.

(** On the graph of C46 the tolerance 1/100 leaves room for an error of 1/200. *)
Example C99_case :
  NearMinNorm (1 # 200) (wobble (1 # 200)) /\ graph_on (seq 0 4) agg_E /\ forward agg_E /\ multiples_of 2 agg_E /\
  2 * (1 # 200) <= 1 # 100 /\ ((1 # 100) + 2 * (1 # 200)) * (2 # 1) * (qn (4 - 1) * qn (4 - 1)) < 1 /\
  agg_run 4 exact_mnb (1 # 100) 4 agg_E = Ok ([1 # 2; 2; 3], [[[0; 1; 2; 3]]; [[0; 1; 2]; [3]]; [[0; 1]; [2]; [3]]; [[0]; [1]; [2]; [3]]]%nat) /\
  agg_run 4 (wobble (1 # 200)) (1 # 100) 4 agg_E =
    Ok ([99 # 200; 399 # 200; 599 # 200], [[[0; 1; 2; 3]]; [[0; 1; 2]; [3]]; [[0; 1]; [2]; [3]]; [[0]; [1]; [2]; [3]]]%nat).
Proof.
  split; [apply wobble_near; discriminate|]. split; [exact agg_E_on|]. split; [exact agg_E_forward|]. split; [exact agg_E_grid|].
  split; [discriminate|]. split; [reflexivity|]. split; vm_compute; reflexivity.
Qed.

(** The bound on [d] is needed.  On a triangle with the tolerance 1E-6 of the program a solver that is off by
    0.51E-6 splits the one round of merges; the second half gets a larger gamma, merge
    (IC/src/Core.hpp:183-205) rejects it and returns false, agglomerate ignores that and returns true, and the while loop of
    run (psp/agglomerative.cpp:85) never ends. *)
Definition tri_E : graph := [mkArc 0 1 1; mkArc 0 2 1; mkArc 1 2 1].
Definition tri_d : Q := 51 # 100000000.
Definition tri_st : hc :=
  match agglomerate (wobble tri_d) (1 # 1000000) (ent_sf 3 tri_E) (hc_new 3) with Ok (st, _) => st | _ => hc_new 3 end.

Lemma merges_rejected st P xs g tol : gam_ge (hgam st) g = false -> forall ps st', agg_merge st P xs g tol ps = Ok st' -> st' = st.
Proof.
  intros HR. induction ps as [|[i j] ps IH]; intros st' E; cbn [agg_merge] in E; [injection E as <-; reflexivity|].
  destruct (nth_error xs (j - 1)) as [x|]; [|discriminate E]. destruct (nth_error x i) as [v|]; [|discriminate E].
  destruct (Qle_bool v (- g + tol)); [|auto].
  destruct (nth_error P j) as [[|a ?]|]; try discriminate E. destruct (nth_error P i) as [[|b ?]|]; try discriminate E.
  unfold hc_merge in E. destruct ((a <? hn st)%nat && (b <? hn st)%nat); [|discriminate E].
  destruct (hc_find _ _ a); try discriminate E. destruct (hc_find _ _ b); try discriminate E. cbn [bind] in E.
  rewrite HR in E. rewrite orb_true_r in E. cbn [bind fst] in E. auto.
Qed.

Lemma stuck_loop mnb tol f st P c cs : agglomerate mnb tol f st = Ok (st, true) -> get_coarsest st = Ok P -> rev (hgam st) = c :: cs ->
  forall fuel crit psp, agg_loop fuel mnb tol f st crit psp = OutOfFuel.
Proof.
  intros A B C. induction fuel as [|fuel IH]; intros crit psp; auto. cbn [agg_loop]. rewrite A. cbn [bind fst snd].
  rewrite B. cbn [bind]. unfold get_critical. rewrite C. apply IH.
Qed.

(** A round whose gamma is above the last critical value changes nothing. *)
Lemma rejected_round mnb tol f st st' P f_ r g : get_partition st NegInf = Ok P -> sf_contract f P = Ok f_ ->
  agg_solve mnb f_ (seq 1 (length P - 1)) NegInf = Ok r -> fst r = Val g -> gam_ge (hgam st) g = false ->
  agglomerate mnb tol f st = Ok (st', true) -> st' = st.
Proof.
  intros E1 E2 E3 E4 HR A. unfold agglomerate in A. rewrite E1 in A. cbn [bind] in A.
  destruct (length P <=? 1)%nat; [discriminate A|]. rewrite E2 in A. cbn [bind] in A. rewrite E3 in A. cbn [bind] in A. rewrite E4 in A.
  destruct (agg_merge st P (snd r) g tol (agg_pairs (length P))) as [s| | |] eqn:E; try discriminate A.
  injection A as <-. apply (merges_rejected st P (snd r) g tol HR _ _ E).
Qed.

(** Such a round is the last thing run() does: it never ends. *)
Theorem C99_rejected_round_loops : forall mnb tol f st P f_ r g st',
  get_partition st NegInf = Ok P -> sf_contract f P = Ok f_ ->
  agg_solve mnb f_ (seq 1 (length P - 1)) NegInf = Ok r -> fst r = Val g ->
  (exists c cs, rev (hgam st) = c :: cs /\ c < g) -> agglomerate mnb tol f st = Ok (st', true) ->
  forall fuel crit psp, agg_loop fuel mnb tol f st crit psp = OutOfFuel.
Proof.
  intros mnb tol f st P f_ r g st' E1 E2 E3 E4 (c & cs & C1 & C2) A.
  assert (HR : gam_ge (hgam st) g = false) by (unfold gam_ge; rewrite C1; apply Qle_bool_false; auto).
  assert (st' = st) by (eapply rejected_round; eauto). subst st'. apply (stuck_loop mnb tol f st P c cs); auto.
Qed.
Print Assumptions C99_rejected_round_loops.

(** The second round: gamma is 1.99999949 after 1.50000051. *)
Definition tri_P : list (list nat) := [[0]; [1; 2]]%nat.
Definition tri_f : sf := match sf_contract (ent_sf 3 tri_E) tri_P with Ok f_ => f_ | _ => ent_sf 3 tri_E end.
Definition is_ok {A} (r : res A) : bool := match r with Ok _ => true | _ => false end.
Definition ends_true (r : res (hc * bool)) : bool := match r with Ok (_, b) => b | _ => false end.
Lemma tri_round1 : agglomerate (wobble tri_d) (1 # 1000000) (ent_sf 3 tri_E) (hc_new 3) = Ok (tri_st, true).
Proof.
  assert (K : ends_true (agglomerate (wobble tri_d) (1 # 1000000) (ent_sf 3 tri_E) (hc_new 3)) = true) by (vm_compute; reflexivity).
  unfold tri_st. destruct (agglomerate (wobble tri_d) (1 # 1000000) (ent_sf 3 tri_E) (hc_new 3)) as [[st b]| | |]; try discriminate K.
  simpl in K. rewrite K. reflexivity.
Qed.
Lemma tri_gam : hgam tri_st = [150000051 # 100000000].
Proof. vm_compute. reflexivity. Qed.
Lemma tri_part : get_partition tri_st NegInf = Ok tri_P.
Proof. vm_compute. reflexivity. Qed.
Lemma tri_contr : sf_contract (ent_sf 3 tri_E) tri_P = Ok tri_f.
Proof.
  assert (K : is_ok (sf_contract (ent_sf 3 tri_E) tri_P) = true) by (vm_compute; reflexivity).
  unfold tri_f. destruct (sf_contract (ent_sf 3 tri_E) tri_P); try discriminate K. reflexivity.
Qed.
Lemma tri_solve : exists r, agg_solve (wobble tri_d) tri_f (seq 1 (length tri_P - 1)) NegInf = Ok r /\ fst r = Val (199999949 # 100000000).
Proof. exists (Val (199999949 # 100000000), [[-(199999949 # 100000000)]]). split; vm_compute; reflexivity. Qed.
Lemma tri_round2 : exists st', agglomerate (wobble tri_d) (1 # 1000000) (ent_sf 3 tri_E) tri_st = Ok (st', true).
Proof.
  assert (K : ends_true (agglomerate (wobble tri_d) (1 # 1000000) (ent_sf 3 tri_E) tri_st) = true) by (vm_compute; reflexivity).
  destruct (agglomerate (wobble tri_d) (1 # 1000000) (ent_sf 3 tri_E) tri_st) as [[st b]| | |]; try discriminate K.
  simpl in K. rewrite K. exists st. reflexivity.
Qed.

Theorem C99_bound_needed_refuted :
  exists mnb d, NearMinNorm d mnb /\ 0 <= d /\ d == 51 # 100000000 /\
    graph_on (seq 0 3) tri_E /\ forward tri_E /\ multiples_of 1 tri_E /\
    ((1 # 1000000) + 2 * d) * (1 # 1) * (qn (3 - 1) * qn (3 - 1)) < 1 /\
    (forall fuel, agg_run fuel mnb (1 # 1000000) 3 tri_E = OutOfFuel) /\
    IsPSP tri_E (seq 0 3) [3 # 2] [[[0; 1; 2]]; [[0]; [1]; [2]]]%nat.
Proof.
  assert (ON : graph_on (seq 0 3) tri_E).
  { intros a H. simpl in H. repeat (destruct H as [<-|H]; [simpl; split; [tauto|]; split; [tauto|]; discriminate|]). destruct H. }
  assert (FW : forward tri_E) by (intros a H; simpl in H; repeat (destruct H as [<-|H]; [simpl; lia|]); destruct H).
  assert (MU : multiples_of 1 tri_E).
  { intros a H. simpl in H. repeat (destruct H as [<-|H]; [simpl; exists 1%Z; reflexivity|]). destruct H. }
  exists (wobble tri_d), tri_d. split; [apply wobble_near; discriminate|]. split; [discriminate|]. split; [reflexivity|].
  split; [exact ON|]. split; [exact FW|]. split; [exact MU|]. split; [reflexivity|]. split.
  - intro fuel. unfold agg_run, agg_from. change (sfn (ent_sf 3 tri_E)) with 3%nat.
    assert (G : exists P, get_coarsest (hc_new 3) = Ok P) by (eexists; vm_compute; reflexivity).
    destruct G as [P ->]. cbn [bind]. destruct fuel as [|fuel]; [reflexivity|]. cbn [agg_loop].
    rewrite tri_round1. cbn [bind fst snd]. unfold get_coarsest. rewrite tri_part. cbn [bind].
    unfold get_critical. rewrite tri_gam. cbn [rev app].
    destruct tri_solve as (r & S1 & S2). destruct tri_round2 as (st' & R2).
    apply (C99_rejected_round_loops _ _ _ tri_st tri_P tri_f r _ st' tri_part tri_contr S1 S2); auto.
    rewrite tri_gam. cbn [rev app]. exists (150000051 # 100000000), []. split; reflexivity.
  - destruct (agg_exact exact_mnb (1 # 100) 1 3 tri_E 3 exact_mnb_ok ON FW MU ltac:(discriminate) ltac:(reflexivity) ltac:(lia) ltac:(lia))
      as (lams & Ps & R1 & R2).
    assert (C : agg_run 3 exact_mnb (1 # 100) 3 tri_E = Ok ([3 # 2], [[[0; 1; 2]]; [[0]; [1]; [2]]]%nat)) by (vm_compute; reflexivity).
    rewrite C in R1. injection R1 as <- <-. exact R2.
Qed.
Print Assumptions C99_bound_needed_refuted.

(** The case of [C99_rejected_round_loops] in that run. *)
Example C99_loop_case : exists r st',
  get_partition tri_st NegInf = Ok tri_P /\ sf_contract (ent_sf 3 tri_E) tri_P = Ok tri_f /\
  agg_solve (wobble tri_d) tri_f (seq 1 (length tri_P - 1)) NegInf = Ok r /\ fst r = Val (199999949 # 100000000) /\
  rev (hgam tri_st) = [150000051 # 100000000] /\
  agglomerate (wobble tri_d) (1 # 1000000) (ent_sf 3 tri_E) tri_st = Ok (st', true).
Proof.
  destruct tri_solve as (r & S1 & S2). destruct tri_round2 as (st' & R2). exists r, st'.
  split; [exact tri_part|]. split; [exact tri_contr|]. split; [exact S1|]. split; [exact S2|]. split; [rewrite tri_gam; reflexivity|exact R2].
Qed.
