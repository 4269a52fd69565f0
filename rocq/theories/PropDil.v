(** * Properties C04-C06: Dilworth truncation (psp/dt.cpp, psp/psp_i.cpp). *)
From Coq Require Import Sorted.
From Verif Require Import Base Graph Spec MSets SetsThy MGraph MaxFlow CutThy MDil DilThy BFThy DTThy.

(** The triangle with weights 1, 5, 1 used in the examples: at level 4 the best partition is
    [{0,2},{1}] with value 2 - 8 = -6. *)
Definition tri : graph := [mkArc 0 1 1; mkArc 0 2 5; mkArc 1 2 1].
Lemma tri_on : graph_on (seq 0 3) tri.
Proof. intros a H; simpl in H; intuition (subst; simpl; auto; lra). Qed.
Lemma tri_simple : simple tri.
Proof. unfold simple. simpl. repeat constructor; simpl; intuition congruence. Qed.
Lemma tri_forward : forward tri.
Proof. intros a H; simpl in H; intuition (subst; simpl; lia). Qed.

(** ** C04 and C05, version of psp/dt.cpp *)
Lemma dt_dil_value mc lam E n :
  MinCutSpec mc -> graph_on (seq 0 n) E -> simple E -> forward E ->
  exists m P, dt_dil_run mc lam E n = Ok (m, P) /\
    (forall R, is_partition (seq 0 n) R -> m <= hval E lam R) /\
    (exists R, is_partition (seq 0 n) R /\ m == hval E lam R).
Proof.
  intros Hmc HE Hs Hf.
  destruct (dt_dil_ok mc Hmc E n HE Hs Hf false ltac:(discriminate) lam)
    as (m & P & H1 & ((H2 & H3) & _) & H4 & H5).
  exists m, P. split; auto. split; [|eauto]. intros R HR. specialize (H3 R HR). lra.
Qed.

Theorem C04_dilworth_value : forall mc lam E n,
  MinCutSpec mc -> graph_on (seq 0 n) E -> simple E -> forward E ->
  exists m P, dt_dil_run mc lam E n = Ok (m, P) /\
    (forall R, is_partition (seq 0 n) R -> m <= hval E lam R) /\
    (exists R, is_partition (seq 0 n) R /\ m == hval E lam R).
Proof. exact dt_dil_value. Qed.
Print Assumptions C04_dilworth_value.

Example C04_nonvacuous :
  MinCutSpec bf_mincut /\ graph_on (seq 0 3) tri /\ simple tri /\ forward tri /\
  dt_dil_run bf_mincut 4 tri 3 = Ok (-6, [[0;2];[1]]%nat).
Proof.
  split; [apply bf_mincut_spec|]. split; [apply tri_on|]. split; [apply tri_simple|].
  split; [apply tri_forward|]. vm_compute. reflexivity.
Qed.

Lemma dt_dil_partition mc lam E n :
  MinCutSpec mc -> graph_on (seq 0 n) E -> simple E -> forward E ->
  exists m P, dt_dil_run mc lam E n = Ok (m, P) /\
    is_partition (seq 0 n) P /\ m == hval E lam P /\
    (forall B, In B P -> StronglySorted lt B).
Proof.
  intros Hmc HE Hs Hf.
  destruct (dt_dil_ok mc Hmc E n HE Hs Hf false ltac:(discriminate) lam)
    as (m & P & H1 & ((H2 & H3) & _) & H4 & H5).
  exists m, P. auto.
Qed.

Theorem C05_dilworth_partition : forall mc lam E n,
  MinCutSpec mc -> graph_on (seq 0 n) E -> simple E -> forward E ->
  exists m P, dt_dil_run mc lam E n = Ok (m, P) /\
    is_partition (seq 0 n) P /\ m == hval E lam P /\
    (forall B, In B P -> StronglySorted lt B).
Proof. exact dt_dil_partition. Qed.
Print Assumptions C05_dilworth_partition.

(** The version of psp/psp_i.cpp works on any duplicate-free list of enabled nodes, provided arcs
    go from earlier to later nodes of that list. *)
Lemma sub_dil_correct mc lam E vs :
  MinCutSpec mc -> NoDup vs -> graph_on vs E -> simple E -> ordered E vs ->
  optimal E vs lam (snd (dil_run mc lam E vs)) /\
  fst (dil_run mc lam E vs) == hval E lam (snd (dil_run mc lam E vs)).
Proof.
  intros Hmc Hnd HE Hs Ho.
  destruct (dil_run_correct mc Hmc lam E vs Hnd HE Hs Ho) as (H1 & H2 & _). auto.
Qed.

Theorem C05_dilworth_subgraph : forall mc lam E vs,
  MinCutSpec mc -> NoDup vs -> graph_on vs E -> simple E ->
  (forall l v r, vs = l ++ v :: r -> forall a, In a E -> adst a = v -> In (asrc a) l) ->
  optimal E vs lam (snd (dil_run mc lam E vs)) /\
  fst (dil_run mc lam E vs) == hval E lam (snd (dil_run mc lam E vs)).
Proof. exact sub_dil_correct. Qed.
Print Assumptions C05_dilworth_subgraph.

Example C05_nonvacuous :
  dil_run bf_mincut 3 [mkArc 1 7 2; mkArc 4 7 9; mkArc 1 4 1] [1;4;7]%nat = (-3, [[1];[4;7]]%nat).
Proof. vm_compute. reflexivity. Qed.

(** ** C06 *)
Lemma dt_dil_finest mc lam E n :
  MinSinkCutSpec mc -> graph_on (seq 0 n) E -> simple E -> forward E ->
  exists m P, dt_dil_run mc lam E n = Ok (m, P) /\ optimal E (seq 0 n) lam P /\
    forall R, optimal E (seq 0 n) lam R -> refines P R.
Proof.
  intros Hms HE Hs Hf. assert (Hmc := proj1 Hms).
  unfold dt_dil_run. rewrite forward_no_loops by auto.
  assert (Ho := ordered_forward E n Hf).
  destruct (dil_run_correct mc Hmc lam E (seq 0 n) (seq_NoDup n 0) HE Hs Ho) as (H1 & H2 & H3).
  exists (fst (dil_run mc lam E (seq 0 n))), (snd (dil_run mc lam E (seq 0 n))).
  split; [destruct (dil_run mc lam E (seq 0 n)); reflexivity|]. split; auto.
  apply (dil_run_finest mc Hmc lam E (seq 0 n) (seq_NoDup n 0) HE Hs Ho Hms).
Qed.

Theorem C06_finest : forall mc lam E n,
  MinSinkCutSpec mc -> graph_on (seq 0 n) E -> simple E -> forward E ->
  exists m P, dt_dil_run mc lam E n = Ok (m, P) /\ optimal E (seq 0 n) lam P /\
    forall R, optimal E (seq 0 n) lam R -> refines P R.
Proof. exact dt_dil_finest. Qed.
Print Assumptions C06_finest.

(** At the tie level 2 both [{0,1,2}] and [{0,2},{1}] are optimal; the finer one is reported. *)
Example C06_nonvacuous :
  MinSinkCutSpec bf_mincut /\
  dt_dil_run bf_mincut 2 tri 3 = Ok (-2, [[0;2];[1]]%nat) /\
  hval tri 2 [[0;1;2]]%nat == -2 /\ hval tri 2 [[0;2];[1]]%nat == -2.
Proof. split; [apply bf_minsink_spec|]. repeat split; vm_compute; reflexivity. Qed.

(** A solver that reports maximal sink sides would merge at the tie: the extra premise of C06 is
    needed. *)
Definition better_max (N : network) (A B : list nat) : bool :=
  Qltb (cut N (mem A)) (cut N (mem B)) ||
  (Qeq_bool (cut N (mem A)) (cut N (mem B)) && (length B <? length A)%nat).
Definition bf_max : solver := fun nodes N =>
  let X := fold_left (fun best A => if better_max N A best then A else best) (sublists nodes) [] in
  (Qred (cut N (mem X)), X).
Example C06_needs_minimal_sink_side :
  dt_dil_run bf_max 2 tri 3 = Ok (-2, [[0;1;2]]%nat).
Proof. vm_compute. reflexivity. Qed.
