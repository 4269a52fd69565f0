(** * Properties C07-C13: the decomposition algorithm dt (psp/dt.cpp). *)
From Coq Require Import Sorted.
From Verif Require Import Base Graph Spec MSets SetsThy MGraph MaxFlow CutThy MDil DilThy BFThy
  MDT SeqThy PartThy DTThy PSPThy DTTop PropDil.

Definition tol : Q := 1 # 10000000000.  (* lemon::Tolerance<double>::def_epsilon is 1e-10 *)

(** ** C07: termination and shape *)
Lemma dt_well_formed mc eps E n :
  MinCutSpec mc -> 0 < eps -> (2 <= n)%nat ->
  graph_on (seq 0 n) E -> simple E -> forward E ->
  exists lams Ps, dt_run mc eps E n = Ok (map Fin lams, Ps) /\
    length Ps = S (length lams) /\ hd_error Ps = Some [seq 0 n] /\
    last Ps [] = singletons (seq 0 n) /\
    StronglySorted (fun p q => (length p < length q)%nat) Ps /\
    forall P, In P Ps -> is_partition (seq 0 n) P.
Proof.
  intros Hmc He Hn HE Hs Hf.
  destruct (dt_run_near mc Hmc eps He E n Hn HE Hs Hf)
    as (lams & Ps & H1 & H2 & H3 & H4 & H5 & H6 & H7 & H8).
  exists lams, Ps. split; [auto|]. split; [auto|]. split; [auto|]. split; [auto|].
  split; [auto|]. intros P HP. destruct (H8 P HP) as ((lam & [K _]) & _). auto.
Qed.

Theorem C07_dt_well_formed : forall mc eps E n,
  MinCutSpec mc -> 0 < eps -> (2 <= n)%nat ->
  graph_on (seq 0 n) E -> simple E -> forward E ->
  exists lams Ps, dt_run mc eps E n = Ok (map Fin lams, Ps) /\
    length Ps = S (length lams) /\ hd_error Ps = Some [seq 0 n] /\
    last Ps [] = singletons (seq 0 n) /\
    StronglySorted (fun p q => (length p < length q)%nat) Ps /\
    forall P, In P Ps -> is_partition (seq 0 n) P.
Proof. exact dt_well_formed. Qed.
Print Assumptions C07_dt_well_formed.

Example dt_example :
  dt_run bf_mincut tol tri 3 =
    Ok ([Fin 2; Fin 5], [[[0;1;2]]; [[0;2];[1]]; [[0];[1];[2]]]%nat).
Proof. vm_compute. reflexivity. Qed.

(** Hypotheses of C07-C11 and C13 hold for this example. *)
Example dt_nonvacuous :
  MinSinkCutSpec bf_mincut /\ 0 < tol /\ (2 <= 3)%nat /\ graph_on (seq 0 3) tri /\ simple tri /\
  forward tri /\ multiples_of 1 tri /\ fine_tol 1 3 tol.
Proof.
  split; [apply bf_minsink_spec|]. split; [reflexivity|]. split; [lia|].
  split; [apply tri_on|]. split; [apply tri_simple|]. split; [apply tri_forward|].
  split; [|vm_compute; reflexivity].
  intros a H; simpl in H; destruct H as [<-|[<-|[<-|[]]]]; [exists 1%Z|exists 5%Z|exists 1%Z];
    reflexivity.
Qed.

(** ** C08: critical values are slopes and increase strictly *)
Lemma dt_slopes mc eps E n :
  MinSinkCutSpec mc -> 0 < eps -> (2 <= n)%nat ->
  graph_on (seq 0 n) E -> simple E -> forward E ->
  exists lams Ps, dt_run mc eps E n = Ok (map Fin lams, Ps) /\
    slopes E lams Ps /\ StronglySorted Qlt lams.
Proof.
  intros Hms He Hn HE Hs Hf. assert (Hmc := proj1 Hms).
  destruct (dt_run_near mc Hmc eps He E n Hn HE Hs Hf) as (lams & Ps & H1 & H2 & H3 & _).
  destruct (dt_run_near_strict mc Hmc eps He E n Hn HE Hs Hf Hms) as (lams' & Ps' & K1 & K2 & K3).
  exists lams, Ps. split; auto. split; auto.
  rewrite H1 in K1. injection K1 as K1 _. clear -K1 K3.
  assert (lams = lams').
  { revert lams' K1 K3. induction lams as [|x l IH]; intros [|y l'] K; simpl in K; try discriminate; auto.
    injection K as -> K. intro S. inversion S; subst. f_equal. auto. }
  subst. auto.
Qed.

Theorem C08_dt_slopes : forall mc eps E n,
  MinSinkCutSpec mc -> 0 < eps -> (2 <= n)%nat ->
  graph_on (seq 0 n) E -> simple E -> forward E ->
  exists lams Ps, dt_run mc eps E n = Ok (map Fin lams, Ps) /\
    slopes E lams Ps /\ StronglySorted Qlt lams.
Proof. exact dt_slopes. Qed.
Print Assumptions C08_dt_slopes.

(** ** C09: within the tolerance for every lambda; every member exactly optimal somewhere *)
Lemma dt_near_optimal mc eps E n :
  MinCutSpec mc -> 0 < eps -> (2 <= n)%nat ->
  graph_on (seq 0 n) E -> simple E -> forward E ->
  exists lams Ps, dt_run mc eps E n = Ok (map Fin lams, Ps) /\
    (forall lam, exists P, In P Ps /\
       forall R, is_partition (seq 0 n) R -> hval E lam P <= hval E lam R + eps) /\
    (forall P, In P Ps -> exists lam, optimal E (seq 0 n) lam P).
Proof.
  intros Hmc He Hn HE Hs Hf.
  destruct (dt_run_near mc Hmc eps He E n Hn HE Hs Hf)
    as (lams & Ps & H1 & H2 & _ & _ & _ & _ & _ & H8).
  exists lams, Ps. split; auto. split.
  - intro lam. unfold IsNearPSP, full_sequence in H2. destruct Ps as [|P Ps]; [destruct H2|].
    destruct H2 as (_ & _ & H2).
    destruct (full_sequence_level _ lams Ps None P lam H2 I) as (M & M1 & M2).
    exists M. split; auto. apply M2.
  - intros P HP. apply (H8 P HP).
Qed.

Theorem C09_dt_near_optimal : forall mc eps E n,
  MinCutSpec mc -> 0 < eps -> (2 <= n)%nat ->
  graph_on (seq 0 n) E -> simple E -> forward E ->
  exists lams Ps, dt_run mc eps E n = Ok (map Fin lams, Ps) /\
    (forall lam, exists P, In P Ps /\
       forall R, is_partition (seq 0 n) R -> hval E lam P <= hval E lam R + eps) /\
    (forall P, In P Ps -> exists lam, optimal E (seq 0 n) lam P).
Proof. exact dt_near_optimal. Qed.
Print Assumptions C09_dt_near_optimal.

(** ** C10: nested partitions (part of [IsNearPSP]; also stated on its own) *)
Fixpoint nested_chain (P : list (list nat)) (Ps : list (list (list nat))) : Prop :=
  match Ps with
  | [] => True
  | P' :: Ps' => refines P' P /\ ~ refines P P' /\ nested_chain P' Ps'
  end.

Lemma seq_chain_nested vs (rel : Q -> Q -> Prop) (good : Q -> list (list nat) -> Prop) :
  NoDup vs -> (forall lam P, good lam P -> is_partition vs P) ->
  (forall a b, rel a b -> a <= b) ->
  forall lams Ps lo P, seq_chain rel good lo P lams Ps -> nested_chain P Ps.
Proof.
  intros Hnd Hg Hr.
  assert (Hp : forall lams Ps lo P, seq_chain rel good lo P lams Ps -> is_partition vs P).
  { intros lams Ps lo P H. destruct lams as [|l lams], Ps as [|P' Ps]; simpl in H; try tauto.
    - destruct lo as [l|]; [apply (Hg l), H; lra|apply (Hg 0), H; auto].
    - destruct H as (H0 & H & _). destruct lo as [l0|].
      + apply Hr in H0. apply (Hg l), H; lra.
      + apply (Hg l), H; auto; lra. }
  induction lams as [|l lams IH]; intros Ps lo P H; destruct Ps as [|P' Ps];
    try (simpl in H; tauto); [exact I|].
  assert (P1 := Hp _ _ _ _ H). simpl in H. destruct H as (_ & _ & H3 & H4 & H5).
  assert (P2 := Hp _ _ _ _ H5). simpl. split; auto. split; [|eapply IH; eauto].
  intro H. apply (refines_length vs Hnd) in H; auto. lia.
Qed.

Lemma dt_nested mc eps E n :
  MinCutSpec mc -> 0 < eps -> (2 <= n)%nat ->
  graph_on (seq 0 n) E -> simple E -> forward E ->
  exists lams P Ps, dt_run mc eps E n = Ok (map Fin lams, P :: Ps) /\ nested_chain P Ps.
Proof.
  intros Hmc He Hn HE Hs Hf.
  destruct (dt_run_near mc Hmc eps He E n Hn HE Hs Hf) as (lams & Ps & H1 & H2 & _).
  unfold IsNearPSP, full_sequence in H2. destruct Ps as [|P Ps]; [destruct H2|].
  exists lams, P, Ps. split; auto. destruct H2 as (_ & _ & H2).
  eapply (seq_chain_nested (seq 0 n)); [apply seq_NoDup| | |exact H2].
  - intros lam R HR. apply HR.
  - auto.
Qed.

Theorem C10_dt_nested : forall mc eps E n,
  MinCutSpec mc -> 0 < eps -> (2 <= n)%nat ->
  graph_on (seq 0 n) E -> simple E -> forward E ->
  exists lams P Ps, dt_run mc eps E n = Ok (map Fin lams, P :: Ps) /\ nested_chain P Ps.
Proof. exact dt_nested. Qed.
Print Assumptions C10_dt_nested.

(** ** C11: exact for weights that are multiples of 1/D *)
Theorem C11_dt_exact : forall mc eps E n D,
  MinSinkCutSpec mc -> 0 < eps -> (2 <= n)%nat ->
  graph_on (seq 0 n) E -> simple E -> forward E ->
  multiples_of D E -> fine_tol D n eps ->
  exists lams Ps, dt_run mc eps E n = Ok (map Fin lams, Ps) /\ IsPSP E (seq 0 n) lams Ps.
Proof.
  exact (fun mc eps E n D Hms He Hn HE Hs Hf HD Ht =>
           dt_run_exact mc (proj1 Hms) eps He E n Hn HE Hs Hf D HD Ht Hms).
Qed.
Print Assumptions C11_dt_exact.

(** Without minimal sink sides the critical values may repeat, but nothing else changes. *)
Theorem C11_dt_exact_any_solver : forall mc eps E n D,
  MinCutSpec mc -> 0 < eps -> (2 <= n)%nat ->
  graph_on (seq 0 n) E -> simple E -> forward E ->
  multiples_of D E -> fine_tol D n eps ->
  exists lams Ps, dt_run mc eps E n = Ok (map Fin lams, Ps) /\ IsWeakPSP E (seq 0 n) lams Ps.
Proof.
  exact (fun mc eps E n D Hmc He Hn HE Hs Hf HD Ht =>
           dt_run_weak mc Hmc eps He E n Hn HE Hs Hf D HD Ht).
Qed.
Print Assumptions C11_dt_exact_any_solver.

(** Every rational weighting has a tolerance below which dt is exact. *)
Lemma dt_exact_small_tol mc E n :
  MinSinkCutSpec mc -> (2 <= n)%nat -> graph_on (seq 0 n) E -> simple E -> forward E ->
  exists eps0, 0 < eps0 /\ forall eps, 0 < eps -> eps <= eps0 ->
    exists lams Ps, dt_run mc eps E n = Ok (map Fin lams, Ps) /\ IsPSP E (seq 0 n) lams Ps.
Proof.
  intros Hms Hn HE Hs Hf. destruct (fine_tol_ex E n) as (e0 & He0 & D & HD & Ht).
  exists e0. split; auto. intros eps H1 H2.
  apply (dt_run_exact mc (proj1 Hms) eps H1 E n Hn HE Hs Hf D HD (Ht eps H1 H2) Hms).
Qed.

Theorem C11_dt_exact_small_tolerance : forall mc E n,
  MinSinkCutSpec mc -> (2 <= n)%nat -> graph_on (seq 0 n) E -> simple E -> forward E ->
  exists eps0, 0 < eps0 /\ forall eps, 0 < eps -> eps <= eps0 ->
    exists lams Ps, dt_run mc eps E n = Ok (map Fin lams, Ps) /\ IsPSP E (seq 0 n) lams Ps.
Proof. exact dt_exact_small_tol. Qed.
Print Assumptions C11_dt_exact_small_tolerance.

(** ** C12: uniqueness *)
Theorem C12_psp_unique : forall E vs, NoDup vs -> graph_on vs E ->
  forall lams Ps lams' Ps', IsPSP E vs lams Ps -> IsPSP E vs lams' Ps' ->
  Forall2 Qeq lams lams' /\ Forall2 same_partition Ps Ps'.
Proof. exact psp_unique. Qed.
Print Assumptions C12_psp_unique.

(** The example graph has a principal sequence (so C12 speaks about something). *)
Example C12_nonvacuous : exists lams Ps, IsPSP tri (seq 0 3) lams Ps /\ length lams = 2%nat.
Proof.
  destruct dt_nonvacuous as (H1 & H2 & H3 & H4 & H5 & H6 & H7 & H8).
  destruct (C11_dt_exact bf_mincut tol tri 3 1 H1 H2 H3 H4 H5 H6 H7 H8) as (lams & Ps & K1 & K2).
  exists lams, Ps. split; auto. rewrite dt_example in K1. injection K1 as K1 _.
  apply (f_equal (@length _)) in K1. rewrite map_length in K1. auto.
Qed.

(** ** C13: dt with a requested number of clusters *)
Theorem C13_dt_run_num : forall mc eps E n D num lams Ps,
  MinSinkCutSpec mc -> 0 < eps -> (2 <= n)%nat ->
  graph_on (seq 0 n) E -> simple E -> forward E ->
  multiples_of D E -> fine_tol D n eps ->
  (2 <= num)%nat -> IsPSP E (seq 0 n) lams Ps ->
  exists M, dt_run_num mc eps E n num = Ok M /\
    (exists P, In P Ps /\ same_partition M P) /\ (Nat.min num n <= length M)%nat /\
    forall P, In P Ps -> (Nat.min num n <= length P)%nat -> (length M <= length P)%nat.
Proof.
  exact (fun mc eps E n D num lams Ps Hms He Hn HE Hs Hf HD Ht =>
           dt_run_num_correct mc (proj1 Hms) eps He E n Hn HE Hs Hf D HD Ht Hms num lams Ps).
Qed.
Print Assumptions C13_dt_run_num.

Theorem C13_dt_run_num_one_node : forall mc eps E num, dt_run_num mc eps E 1 num = Throw.
Proof. reflexivity. Qed.
Print Assumptions C13_dt_run_num_one_node.

(** Two requested: {0,2},{1}; three requested: singletons; seven requested: singletons. *)
Example C13_examples :
  dt_run_num bf_mincut tol tri 3 2 = Ok [[0;2];[1]]%nat /\
  dt_run_num bf_mincut tol tri 3 3 = Ok [[0];[1];[2]]%nat /\
  dt_run_num bf_mincut tol tri 3 7 = Ok [[0];[1];[2]]%nat.
Proof. repeat split; vm_compute; reflexivity. Qed.
