(** * Properties C18, C20-C23: what happens outside the preconditions, and to the caller's graph. *)
From Verif Require Import Base Graph Spec MSets SetsThy MGraph MaxFlow CutThy MDil DilThy BFThy
  MDT SeqThy PartThy DTThy PSPThy DTTop MContract ContractThy MPSPI MHPSP PropDil PropDT PropPSPI
  MHost HostThy CanonThy.

(** ** C18: effect on the caller's graph *)

(** dt puts everything back, so it can be run any number of times. *)
Theorem C18_dt_repeatable : forall mc eps E n r, graph_on (seq 0 n) E ->
  dt_run mc eps E n = Ok r ->
  forall k, host_dt_runs k mc eps (mkG (seq 0 n) E) = Ok (mkG (seq 0 n) E, repeat r (S k)).
Proof.
  intros mc eps E n r HE Hr. apply host_dt_runs_ok.
  - intros a Ha. destruct (HE a Ha) as (H1 & H2 & _). auto.
  - simpl. rewrite seq_length. exact Hr.
Qed.
Print Assumptions C18_dt_repeatable.

Example C18_dt_nonvacuous :
  graph_on (seq 0 3) tri /\
  host_dt_runs 2 bf_mincut tol (mkG (seq 0 3) tri) =
    Ok (mkG (seq 0 3) tri, repeat ([Fin 2; Fin 5], [[[0;1;2]]; [[0;2];[1]]; [[0];[1];[2]]]%nat) 3).
Proof.
  split; [exact tri_on|vm_compute; reflexivity].
Qed.

(** psp_i and hpsp contract the caller's graph; a second run gives another result. *)
Example C18_psp_i_witness : exists o o',
  psp_run bf_mincut tol tri 3 = Ok o /\ o_graph o = mkG [0;1]%nat [mkArc 0 1 2] /\
  psp_run_on bf_mincut tol (o_graph o) = Ok o' /\ o_cv o = [2; 5] /\ o_cv o' = [2].
Proof.
  eexists (mkOut _ _ _), (mkOut _ _ _). split; [vm_compute; reflexivity|].
  split; [reflexivity|]. split; [vm_compute; reflexivity|]. split; reflexivity.
Qed.

Theorem C18_psp_i_repeatable_refuted :
  ~ (forall mc eps E n o, MinSinkCutSpec mc -> 0 < eps -> (2 <= n)%nat ->
       graph_on (seq 0 n) E -> simple E -> forward E -> (forall a, In a E -> eps <= aw a) ->
       psp_run mc eps E n = Ok o -> o_graph o = mkG (seq 0 n) E \/
       exists o', psp_run_on mc eps (o_graph o) = Ok o' /\ length (o_cv o') = length (o_cv o)).
Proof.
  intro H. destruct C18_psp_i_witness as (o & o' & H1 & H2 & H3 & H4 & H5).
  destruct (H bf_mincut tol tri 3%nat o bf_minsink_spec eq_refl ltac:(lia) tri_on tri_simple tri_forward)
    as [K|(o2 & K1 & K2)]; auto.
  - intros a Ha; simpl in Ha; intuition (subst; simpl; unfold tol; lra).
  - rewrite H2 in K. discriminate K.
  - rewrite H3 in K1. injection K1 as <-. rewrite H4, H5 in K2. discriminate K2.
Qed.
Print Assumptions C18_psp_i_repeatable_refuted.

Example C18_hpsp_witness : exists o o',
  hpsp_run bf_mincut tol tri 3 = Ok o /\ ho_graph o = mkG [0;1]%nat [mkArc 0 1 2] /\
  hpsp_run_on bf_mincut tol (ho_graph o) = Ok o' /\ ho_cv o = [Fin 2; Fin 5] /\ ho_cv o' = [Fin 2].
Proof.
  eexists (mkHOut _ _ _ _ _), (mkHOut _ _ _ _ _). split; [vm_compute; reflexivity|].
  split; [reflexivity|]. split; [vm_compute; reflexivity|]. split; reflexivity.
Qed.

Theorem C18_hpsp_repeatable_refuted :
  ~ (forall mc eps E n o, MinSinkCutSpec mc -> 0 < eps -> (2 <= n)%nat ->
       graph_on (seq 0 n) E -> simple E -> forward E -> (forall a, In a E -> eps <= aw a) ->
       hpsp_run mc eps E n = Ok o -> ho_graph o = mkG (seq 0 n) E \/
       exists o', hpsp_run_on mc eps (ho_graph o) = Ok o' /\ length (ho_cv o') = length (ho_cv o)).
Proof.
  intro H. destruct C18_hpsp_witness as (o & o' & H1 & H2 & H3 & H4 & H5).
  destruct (H bf_mincut tol tri 3%nat o bf_minsink_spec eq_refl ltac:(lia) tri_on tri_simple tri_forward)
    as [K|(o2 & K1 & K2)]; auto.
  - intros a Ha; simpl in Ha; intuition (subst; simpl; unfold tol; lra).
  - rewrite H2 in K. discriminate K.
  - rewrite H3 in K1. injection K1 as <-. rewrite H4, H5 in K2. discriminate K2.
Qed.
Print Assumptions C18_hpsp_repeatable_refuted.

(** ** C20-C22: raw arc lists and their canonical form *)

(** Any arc list (both directions, parallel arcs, self loops): after merging it to one arc per
    pair, smaller id first, dt returns the principal sequence of the original. *)
Lemma dt_canonical mc eps E n D :
  MinSinkCutSpec mc -> 0 < eps -> (2 <= n)%nat -> graph_on (seq 0 n) E ->
  multiples_of D E -> fine_tol D n eps ->
  exists lams Ps, dt_run mc eps (canon n E) n = Ok (map Fin lams, Ps) /\ IsPSP E (seq 0 n) lams Ps.
Proof.
  intros Hmc He Hn HE HD Ht.
  destruct (C11_dt_exact mc eps (canon n E) n D Hmc He Hn (canon_on n E) (canon_simple n E)
              (canon_forward n E) (canon_multiples n D E HD) Ht) as (lams & Ps & H1 & H2).
  exists lams, Ps. split; auto. apply canon_psp; auto.
Qed.

Theorem C20_dt_canonical : forall mc eps E n D,
  MinSinkCutSpec mc -> 0 < eps -> (2 <= n)%nat -> graph_on (seq 0 n) E ->
  multiples_of D E -> fine_tol D n eps ->
  exists lams Ps, dt_run mc eps (canon n E) n = Ok (map Fin lams, Ps) /\ IsPSP E (seq 0 n) lams Ps.
Proof. exact dt_canonical. Qed.
Print Assumptions C20_dt_canonical.

Lemma psp_i_canonical mc eps E n D :
  MinCutSpec mc -> 0 < eps -> (1 <= n)%nat -> graph_on (seq 0 n) E ->
  (forall a, In a E -> eps <= aw a) -> multiples_of D E -> fine_tol D n eps ->
  exists lams Ps G, psp_run mc eps (canon n E) n = Ok (mkOut lams Ps G) /\
    IsWeakPSP E (seq 0 n) lams Ps.
Proof.
  intros Hmc He Hn HE Hw HD Ht.
  destruct (C15_psp_i_exact mc eps (canon n E) n D Hmc He Hn (canon_on n E) (canon_simple n E)
              (canon_forward n E) (canon_weights n E eps He HE Hw) (canon_multiples n D E HD) Ht)
    as (lams & Ps & G & H1 & H2).
  exists lams, Ps, G. split; auto. apply canon_weak; auto.
Qed.

Theorem C20_psp_i_canonical : forall mc eps E n D,
  MinCutSpec mc -> 0 < eps -> (1 <= n)%nat -> graph_on (seq 0 n) E ->
  (forall a, In a E -> eps <= aw a) -> multiples_of D E -> fine_tol D n eps ->
  exists lams Ps G, psp_run mc eps (canon n E) n = Ok (mkOut lams Ps G) /\
    IsWeakPSP E (seq 0 n) lams Ps.
Proof. exact psp_i_canonical. Qed.
Print Assumptions C20_psp_i_canonical.

(** Arcs in both directions, a parallel pair and a self loop. *)
Definition messy : graph :=
  [mkArc 1 0 1; mkArc 2 0 2; mkArc 0 2 3; mkArc 1 1 4; mkArc 1 2 1].
Example C20_canonical_example :
  graph_on (seq 0 3) messy /\ (forall a, In a messy -> tol <= aw a) /\ multiples_of 1 messy /\
  fine_tol 1 3 tol /\
  dt_run bf_mincut tol (canon 3 messy) 3 =
    Ok ([Fin 2; Fin 5], [[[0;1;2]]; [[0;2];[1]]; [[0];[1];[2]]]%nat).
Proof.
  split; [intros a H; simpl in H; intuition (subst; simpl; auto; lra)|].
  split; [intros a H; simpl in H; intuition (subst; simpl; unfold tol; lra)|].
  split; [|split; vm_compute; reflexivity].
  intros a H. exists (Qnum (aw a)). simpl in H. repeat destruct H as [<-|H]; try reflexivity. destruct H.
Qed.

(** ** C20: on raw input arc direction matters *)
Definition swap (a : arc) : arc := mkArc (adst a) (asrc a) (aw a).

(** All three methods return the single step 7/2 instead of 2 and 5. *)
Example C20_witness :
  dt_run bf_mincut tol (map swap tri) 3 = Ok ([Fin (7 # 2)], [[[0;1;2]]; [[0];[1];[2]]]%nat) /\
  (exists o, psp_run bf_mincut tol (map swap tri) 3 = Ok o /\ o_cv o = [7 # 2]) /\
  (exists o, hpsp_run bf_mincut tol (map swap tri) 3 = Ok o /\ ho_cv o = [Fin (7 # 2)]).
Proof.
  split; [vm_compute; reflexivity|]. split.
  - eexists (mkOut _ _ _). split; [vm_compute; reflexivity|reflexivity].
  - eexists (mkHOut _ _ _ _ _). split; [vm_compute; reflexivity|reflexivity].
Qed.

Lemma swap_tri_same P : crossing (map swap tri) P == crossing tri P.
Proof.
  unfold crossing. rewrite qsum_map. apply qsum_ext. intros a _. simpl.
  assert (E : same_part P (adst a) (asrc a) = same_part P (asrc a) (adst a)).
  { unfold same_part. induction P; simpl; auto. rewrite IHP, andb_comm. reflexivity. }
  rewrite E. reflexivity.
Qed.

(** The objective is the same for every partition, the result is not. *)
Theorem C20_direction_refuted :
  ~ (forall mc eps E n, MinSinkCutSpec mc -> 0 < eps -> (2 <= n)%nat ->
       graph_on (seq 0 n) E -> simple E ->
       (forall P, crossing (map swap E) P == crossing E P) ->
       dt_run mc eps (map swap E) n = dt_run mc eps E n).
Proof.
  intro H.
  assert (K := H bf_mincut tol tri 3%nat bf_minsink_spec eq_refl ltac:(lia) tri_on tri_simple
                 swap_tri_same).
  destruct C20_witness as [W _]. rewrite W, dt_example in K. discriminate K.
Qed.
Print Assumptions C20_direction_refuted.

(** ** C21: parallel arcs do not add up *)
Definition par2 : graph := [mkArc 0 1 1; mkArc 0 1 1; mkArc 1 2 1].
Definition par1 : graph := [mkArc 0 1 2; mkArc 1 2 1].

Example C21_witness :
  dt_run bf_mincut tol par1 3 = Ok ([Fin 1; Fin 2], [[[0;1;2]]; [[0;1];[2]]; [[0];[1];[2]]]%nat) /\
  dt_run bf_mincut tol par2 3 = Ok ([Fin (3 # 2)], [[[0;1;2]]; [[0];[1];[2]]]%nat) /\
  (exists o, psp_run bf_mincut tol par2 3 = Ok o /\ o_cv o = [3 # 2]) /\
  (exists o, hpsp_run bf_mincut tol par2 3 = Ok o /\ ho_cv o = [Fin (3 # 2)]).
Proof.
  split; [vm_compute; reflexivity|]. split; [vm_compute; reflexivity|]. split.
  - eexists (mkOut _ _ _). split; [vm_compute; reflexivity|reflexivity].
  - eexists (mkHOut _ _ _ _ _). split; [vm_compute; reflexivity|reflexivity].
Qed.

Theorem C21_parallel_refuted :
  ~ (forall mc eps E u v x y n, MinSinkCutSpec mc -> 0 < eps -> (2 <= n)%nat ->
       graph_on (seq 0 n) (mkArc u v x :: mkArc u v y :: E) ->
       forward (mkArc u v x :: mkArc u v y :: E) -> simple (mkArc u v (x + y) :: E) ->
       dt_run mc eps (mkArc u v x :: mkArc u v y :: E) n = dt_run mc eps (mkArc u v (x + y) :: E) n).
Proof.
  intro H.
  assert (K := H bf_mincut tol [mkArc 1 2 1] 0%nat 1%nat 1 1 3%nat bf_minsink_spec eq_refl ltac:(lia)).
  destruct C21_witness as [W1 [W2 _]].
  change ([mkArc 0 1 1; mkArc 0 1 1; mkArc 1 2 1]) with par2 in K.
  change (mkArc 0 1 (1 + 1) :: [mkArc 1 2 1]) with par1 in K.
  rewrite W1, W2 in K. discriminate K.
  - intros a Ha; simpl in Ha; intuition (subst; simpl; auto; lra).
  - intros a Ha; simpl in Ha; intuition (subst; simpl; lia).
  - unfold simple. simpl. repeat constructor; simpl; intuition congruence.
Qed.
Print Assumptions C21_parallel_refuted.

(** ** C22: self loops *)
Example C22_witness :
  dt_run bf_mincut tol (mkArc 1 1 1 :: tri) 3 = UB /\
  (exists o, psp_run bf_mincut tol (mkArc 1 1 1 :: tri) 3 = Ok o /\ o_cv o = [3; 5]) /\
  (exists o, hpsp_run bf_mincut tol (mkArc 1 1 1 :: tri) 3 = Ok o /\ ho_cv o = [Fin 3; Fin 5]).
Proof.
  split; [vm_compute; reflexivity|]. split.
  - eexists (mkOut _ _ _). split; [vm_compute; reflexivity|reflexivity].
  - eexists (mkHOut _ _ _ _ _). split; [vm_compute; reflexivity|reflexivity].
Qed.

Theorem C22_self_loops_refuted :
  ~ (forall mc eps E v w n, MinSinkCutSpec mc -> 0 < eps -> (2 <= n)%nat ->
       graph_on (seq 0 n) (mkArc v v w :: E) -> simple E -> forward E ->
       dt_run mc eps (mkArc v v w :: E) n = dt_run mc eps E n /\
       exists o o', psp_run mc eps (mkArc v v w :: E) n = Ok o /\ psp_run mc eps E n = Ok o' /\
                    o_cv o = o_cv o').
Proof.
  intro H.
  destruct (H bf_mincut tol tri 1%nat 1 3%nat bf_minsink_spec eq_refl ltac:(lia)) as [K _].
  - intros a Ha; simpl in Ha; intuition (subst; simpl; auto; lra).
  - apply tri_simple.
  - apply tri_forward.
  - destruct C22_witness as [W _]. rewrite W, dt_example in K. discriminate K.
Qed.
Print Assumptions C22_self_loops_refuted.

(** dt has undefined behaviour on every graph with a self loop on a node. *)
Lemma dt_self_loop_ub mc eps E n a :
  (2 <= n)%nat -> In a E -> asrc a = adst a -> (asrc a < n)%nat -> dt_run mc eps E n = UB.
Proof.
  intros Hn Ha H1 H2. unfold dt_run. cbn [dt_split].
  assert (L1 : length (pfine n) = n) by (unfold pfine; rewrite map_length, seq_length; auto).
  rewrite L1. cbn [length]. destruct (n =? 1)%nat eqn:E1; [apply Nat.eqb_eq in E1; lia|].
  unfold dt_dil_run.
  assert (E2 : existsb (fun a => (asrc a =? adst a)%nat && (adst a <? n)%nat) E = true).
  { apply existsb_exists. exists a. split; auto. rewrite H1, Nat.eqb_refl. simpl.
    apply Nat.ltb_lt. lia. }
  rewrite E2. reflexivity.
Qed.

Theorem C22_dt_self_loop_ub : forall mc eps E n a,
  (2 <= n)%nat -> In a E -> asrc a = adst a -> (asrc a < n)%nat -> dt_run mc eps E n = UB.
Proof. exact dt_self_loop_ub. Qed.
Print Assumptions C22_dt_self_loop_ub.

(** ** C23: one-node graphs *)
Theorem C23_one_node : forall mc eps E, graph_on (seq 0 1) E -> forward E ->
  (exists G, psp_run mc eps E 1 = Ok (mkOut [] [[[0%nat]]] G)) /\
  (exists W K G, hpsp_run mc eps E 1 = Ok (mkHOut [] [[[0%nat]]] W K G)).
Proof.
  intros mc eps E HE Hf. destruct E as [|a E].
  - split; [eexists; reflexivity|]. eexists _, _, _. reflexivity.
  - exfalso. assert (H := HE a (or_introl eq_refl)). assert (H2 := Hf a (or_introl eq_refl)).
    simpl in H. lia.
Qed.
Print Assumptions C23_one_node.

(** dt reports NaN and the same partition twice. *)
Theorem C23_dt_one_node_refuted : forall mc eps,
  dt_run mc eps [] 1 = Ok ([NaN], [[[0%nat]]; [[0%nat]]]).
Proof. reflexivity. Qed.
Print Assumptions C23_dt_one_node_refuted.

(** The empty graph: psp_i has undefined behaviour. *)
Theorem C23_psp_i_empty_refuted : forall mc eps, psp_run mc eps [] 0 = UB.
Proof. reflexivity. Qed.
Print Assumptions C23_psp_i_empty_refuted.
