(** * PropEval: DilworthTruncation::evaluate (psp/dt.cpp:90-93).  C05: evaluate agrees with what run reports. *)
From Verif Require Import Base Graph Spec MSets SetsThy MGraph MaxFlow CutThy MDil DilThy BFThy DTThy PropGraph PropDil.

(** evaluate of a partition is its crossing weight minus lambda for each part; the partition that run returns
    evaluates to the value that run returns, and no other partition evaluates to less. *)
Theorem C05_evaluate : forall mc lam E n,
  MinCutSpec mc -> graph_on (seq 0 n) E -> simple E -> forward E ->
  exists m P, dt_dil_run mc lam E n = Ok (m, P) /\ is_partition (seq 0 n) P /\ dil_evaluate lam E P == m /\
    forall R, is_partition (seq 0 n) R ->
      dil_evaluate lam E R == crossing E R - lam * qn (length R) /\ m <= dil_evaluate lam E R.
Proof.
  intros mc lam E n Hmc HE Hs Hf.
  assert (EV : forall R, is_partition (seq 0 n) R -> dil_evaluate lam E R == crossing E R - lam * qn (length R)).
  { intros R HR. unfold dil_evaluate. rewrite (C01_partition_value E (seq 0 n) R); [reflexivity|apply seq_NoDup| |exact HR].
    intros a Ha. destruct (HE a Ha) as (H1 & H2 & _). auto. }
  destruct (C04_dilworth_value mc lam E n Hmc HE Hs Hf) as (m & P & R1 & Hmin & _).
  destruct (C05_dilworth_partition mc lam E n Hmc HE Hs Hf) as (m' & P' & R2 & HP & Hm & _).
  rewrite R1 in R2. inversion R2; subst m' P'.
  exists m, P. split; [exact R1|]. split; [exact HP|]. split.
  - rewrite (EV P HP). rewrite Hm. unfold hval. ring.
  - intros R HR. split; [exact (EV R HR)|]. rewrite (EV R HR). specialize (Hmin R HR). unfold hval in Hmin. lra.
Qed.
Print Assumptions C05_evaluate.

(** The triangle of C04 at lambda = 4: evaluate tells the returned partition from the finest and the coarsest one. *)
Example C05_evaluate_case :
  MinCutSpec bf_mincut /\ graph_on (seq 0 3) tri /\ simple tri /\ forward tri /\
  dt_dil_run bf_mincut 4 tri 3 = Ok (-6, [[0;2];[1]]%nat) /\ dil_evaluate 4 tri [[0;2];[1]]%nat == -6 /\
  -6 < dil_evaluate 4 tri [[0];[1];[2]]%nat /\ -6 < dil_evaluate 4 tri [[0;1;2]]%nat.
Proof.
  destruct C04_nonvacuous as (H1 & H2 & H3 & H4 & H5).
  split; [exact H1|]. split; [exact H2|]. split; [exact H3|]. split; [exact H4|]. split; [exact H5|].
  repeat split; vm_compute; reflexivity.
Qed.
