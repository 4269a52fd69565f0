(** * PropTol: C58, AIC with its own solver is exact once fn_tol is small enough. *)
From Coq Require Import Sorted.
From Verif Require Import Base Graph Spec PartThy SubThy SeqThy PSPThy MHC MAIC SFSpec MNBThy EntThy ExactMNB
  MWolfe WolfeSpec Lsq PropAIC PropWolfe AggSim.

Lemma tol_any : forall ord lin f F D,
  (forall w, sorts w (ord w)) -> (forall k, solves k (lin k)) ->
  ground (sfn f) F -> submodular F -> evaluates f F -> (forall S, exists z : Z, F S == z # D) -> (0 < sfn f)%nat ->
  exists tol0 N, 0 < tol0 /\ forall T (L : nat -> lapi T) tol fuel fuel',
    (forall k, lsafe (L k)) -> 0 < tol -> tol <= tol0 -> (sfn f <= fuel)%nat -> (N < fuel')%nat ->
    agg_from fuel (wolfe_strict ord lin L tol 0 fuel') tol f = Throw \/
    exists lams Ps, agg_from fuel (wolfe_strict ord lin L tol 0 fuel') tol f = Ok (lams, Ps) /\
      agg_from fuel (wolfe_solver ord lin L tol 0 fuel') tol f = Ok (lams, Ps) /\
      full_sequence Qlt (popt F (seq 0 (sfn f))) (seq 0 (sfn f)) lams Ps.
Proof.
  intros ord lin f F D HO HL HG HS HF HD Hn.
  destruct (wolfe_run ord lin f F HO HL HG HS HF D HD Hn) as (t & N & T0 & H). exists t, N. split; auto.
  intros T L tol fuel fuel' SL TT TL FU FU'. destruct (H T L tol fuel fuel' SL TT TL FU FU') as [E|(lams & Ps & E1 & E2)]; auto.
  right. exists lams, Ps. split; auto. split; auto.
  destruct (strict_solver ord lin L tol tol 0 fuel fuel' f) as [K|K]; [congruence|]. rewrite <- K. auto.
Qed.

Lemma tol_graph : forall ord lin n E D,
  (forall w, sorts w (ord w)) -> (forall k, solves k (lin k)) ->
  graph_on (seq 0 n) E -> forward E -> multiples_of D E -> (0 < n)%nat ->
  exists tol0 N, 0 < tol0 /\ forall T (L : nat -> lapi T) tol fuel fuel',
    (forall k, lsafe (L k)) -> 0 < tol -> tol <= tol0 -> (n <= fuel)%nat -> (N < fuel')%nat ->
    agg_run fuel (wolfe_strict ord lin L tol 0 fuel') tol n E = Throw \/
    exists lams Ps, agg_run fuel (wolfe_strict ord lin L tol 0 fuel') tol n E = Ok (lams, Ps) /\
      agg_run fuel (wolfe_solver ord lin L tol 0 fuel') tol n E = Ok (lams, Ps) /\ IsPSP E (seq 0 n) lams Ps.
Proof.
  intros ord lin n E D HO HL HE HW HD Hn.
  destruct (tol_any ord lin (ent_sf n E) (entF E) D HO HL) as (t & N & T0 & H); auto.
  - apply ent_ground. auto.
  - apply ent_submodular. intros a Ha. apply HE. auto.
  - apply computes_evaluates, ent_computes.
  - apply ent_onD. auto.
  - exists t, N. split; auto. intros T L tol fuel fuel' SL TT TL FU FU'.
    destruct (H T L tol fuel fuel' SL TT TL FU FU') as [K|(lams & Ps & K1 & K2 & K3)]; [left; exact K|right].
    exists lams, Ps. split; [exact K1|]. split; [exact K2|]. simpl in K3. rewrite <- (forward_filter E HW).
    eapply full_sequence_mono; [| |exact K3]; auto. intros l P. apply ent_popt. auto.
Qed.

(** For any submodular function there is a positive tolerance below which a run with min_norm_base (eps = 0, any
    factor code) that returns without the message about being stuck returns the sequence of optimal
    partitions.  A [Throw] of the first run stands for that message or the exception of LLT; the second run is
    the program, which ignores the message. *)
Theorem C58_any_submodular_function : forall ord lin f F D,
  (forall w, sorts w (ord w)) -> (forall k, solves k (lin k)) ->
  ground (sfn f) F -> submodular F -> evaluates f F -> (forall S, exists z : Z, F S == z # D) -> (0 < sfn f)%nat ->
  exists tol0 N, 0 < tol0 /\ forall T (L : nat -> lapi T) tol fuel fuel',
    (forall k, lsafe (L k)) -> 0 < tol -> tol <= tol0 -> (sfn f <= fuel)%nat -> (N < fuel')%nat ->
    agg_from fuel (wolfe_strict ord lin L tol 0 fuel') tol f = Throw \/
    exists lams Ps, agg_from fuel (wolfe_strict ord lin L tol 0 fuel') tol f = Ok (lams, Ps) /\
      agg_from fuel (wolfe_solver ord lin L tol 0 fuel') tol f = Ok (lams, Ps) /\
      full_sequence Qlt (popt F (seq 0 (sfn f))) (seq 0 (sfn f)) lams Ps.
Proof. exact tol_any. Qed.
Print Assumptions C58_any_submodular_function.

(** For a graph: the principal sequence of partitions. *)
Theorem C58_graph : forall ord lin n E D,
  (forall w, sorts w (ord w)) -> (forall k, solves k (lin k)) ->
  graph_on (seq 0 n) E -> forward E -> multiples_of D E -> (0 < n)%nat ->
  exists tol0 N, 0 < tol0 /\ forall T (L : nat -> lapi T) tol fuel fuel',
    (forall k, lsafe (L k)) -> 0 < tol -> tol <= tol0 -> (n <= fuel)%nat -> (N < fuel')%nat ->
    agg_run fuel (wolfe_strict ord lin L tol 0 fuel') tol n E = Throw \/
    exists lams Ps, agg_run fuel (wolfe_strict ord lin L tol 0 fuel') tol n E = Ok (lams, Ps) /\
      agg_run fuel (wolfe_solver ord lin L tol 0 fuel') tol n E = Ok (lams, Ps) /\ IsPSP E (seq 0 n) lams Ps.
Proof. exact tol_graph. Qed.
Print Assumptions C58_graph.

(** The sorter and the solver of Lsq meet the hypotheses.  On the triangle with weights 1/2000, where 1E-6 is too
    coarse (C54_small_weights_refuted), the run with 1E-9 is strict and exact. *)
Example C58_hypotheses : (forall w, sorts w (isort w)) /\ (forall k, solves k (lsq k)) /\ (forall k : nat, lsafe no_factor).
Proof. split; [exact isort_sorts|]. split; [exact lsq_solves|]. intros _. split; intros; simpl; eauto. Qed.

Example C58_case :
  agg_run 4 (wolfe_strict isort lsq (fun _ => no_factor) (1 # 1000000000) 0 20) (1 # 1000000000) 3 small_E =
  Ok ([3 # 4000], [[[0; 1; 2]]; [[0]; [1]; [2]]]%nat).
Proof. vm_compute. reflexivity. Qed.
