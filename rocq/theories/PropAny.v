(** * PropAny: C100, with any precision eps min_norm_base and AIC (IC/src/AIC.hpp:40-141, 268-303) are exact if they return. *)
From Coq Require Import Qabs Sorted.
From Verif Require Import Base Graph Spec PartThy SubThy SeqThy PSPThy MHC MAIC SFSpec MNBThy EntThy ExactMNB
  MWolfe WolfeSpec WolfeEnd Lsq PropAIC PropWolfe AggSim PropTol WolfeAny PropEps.

(** Below a tolerance that depends on the function only, whatever min_norm_base returns without the message about
    being stuck is the minimum norm base: for every precision below 1/n, every factor code and any number of steps. *)
Theorem C100_exact : forall ord lin f F,
  computes f F -> ground (sfn f) F -> submodular F ->
  (forall w, length w = sfn f -> sorts w (ord w)) -> solves (sfn f) lin -> (2 <= sfn f)%nat ->
  exists tol0, 0 < tol0 /\ forall T (L : lapi T) tol eps fuel x, 0 < tol -> tol <= tol0 -> 0 <= eps -> qn (sfn f) * eps < 1 ->
    min_norm_base ord lin L tol eps fuel f = Ok (x, false) -> min_norm (sfn f) F (vec x).
Proof. exact wolfe_exact_any. Qed.
Print Assumptions C100_exact.

(** AIC: the run throws, does not end, or returns the sequence of optimal partitions. *)
Theorem C100_any_submodular_function : forall ord lin f F D,
  (forall w, sorts w (ord w)) -> (forall k, solves k (lin k)) ->
  ground (sfn f) F -> submodular F -> evaluates f F -> (forall S, exists z : Z, F S == z # D) -> (0 < sfn f)%nat ->
  exists tol0, 0 < tol0 /\ forall T (L : nat -> lapi T) tol eps fuel fuel',
    (forall k, lsafe (L k)) -> 0 < tol -> tol <= tol0 -> 0 <= eps -> qn (sfn f) * eps < 1 -> (sfn f <= fuel)%nat ->
    agg_from fuel (wolfe_strict ord lin L tol eps fuel') tol f = Throw \/
    agg_from fuel (wolfe_strict ord lin L tol eps fuel') tol f = OutOfFuel \/
    exists lams Ps, agg_from fuel (wolfe_strict ord lin L tol eps fuel') tol f = Ok (lams, Ps) /\
      agg_from fuel (wolfe_solver ord lin L tol eps fuel') tol f = Ok (lams, Ps) /\
      full_sequence Qlt (popt F (seq 0 (sfn f))) (seq 0 (sfn f)) lams Ps.
Proof.
  intros ord lin f F D HO HL HG HS HF HD Hn.
  destruct (any_run ord lin f F HO HL HG HS HF D HD Hn) as (t & T0 & H). exists t. split; auto.
  intros T L tol eps fuel fuel' SL TT TL P0 P1 FU.
  destruct (H T L tol eps fuel fuel' SL TT TL P0 P1 FU) as [E|[E|(lams & Ps & E1 & E2)]]; auto.
  right; right. exists lams, Ps. split; auto. split; auto.
  destruct (strict_solver ord lin L tol tol eps fuel fuel' f) as [K|K]; [congruence|]. rewrite <- K. auto.
Qed.
Print Assumptions C100_any_submodular_function.

(** For a graph: if the run returns (without the message) it returns the principal sequence of partitions. *)
Theorem C100_graph : forall ord lin n E D,
  (forall w, sorts w (ord w)) -> (forall k, solves k (lin k)) ->
  graph_on (seq 0 n) E -> forward E -> multiples_of D E -> (0 < n)%nat ->
  exists tol0, 0 < tol0 /\ forall T (L : nat -> lapi T) tol eps fuel fuel',
    (forall k, lsafe (L k)) -> 0 < tol -> tol <= tol0 -> 0 <= eps -> qn n * eps < 1 -> (n <= fuel)%nat ->
    agg_run fuel (wolfe_strict ord lin L tol eps fuel') tol n E = Throw \/
    agg_run fuel (wolfe_strict ord lin L tol eps fuel') tol n E = OutOfFuel \/
    exists lams Ps, agg_run fuel (wolfe_strict ord lin L tol eps fuel') tol n E = Ok (lams, Ps) /\
      agg_run fuel (wolfe_solver ord lin L tol eps fuel') tol n E = Ok (lams, Ps) /\ IsPSP E (seq 0 n) lams Ps.
Proof.
  intros ord lin n E D HO HL HE HW HD Hn.
  destruct (C100_any_submodular_function ord lin (ent_sf n E) (entF E) D HO HL) as (t & T0 & H); auto.
  - apply ent_ground. auto.
  - apply ent_submodular. intros a Ha. apply HE. auto.
  - apply computes_evaluates, ent_computes.
  - apply ent_onD. auto.
  - exists t. split; auto. intros T L tol eps fuel fuel' SL TT TL P0 P1 FU.
    destruct (H T L tol eps fuel fuel' SL TT TL P0 P1 FU) as [K|[K|(lams & Ps & K1 & K2 & K3)]];
      [left; exact K|right; left; exact K|right; right].
    exists lams, Ps. split; [exact K1|]. split; [exact K2|]. simpl in K3. rewrite <- (forward_filter E HW).
    eapply full_sequence_mono; [| |exact K3]; auto. intros l P. apply ent_popt. auto.
Qed.
Print Assumptions C100_graph.

(** So two runs that return agree, whatever their precisions, tolerances up to tol0, sorter of ties, factor codes and
    number of steps; one of them may use the precision 1E-15 of the program. *)
Theorem C100_precision_irrelevant : forall ord lin n E D,
  (forall w, sorts w (ord w)) -> (forall k, solves k (lin k)) ->
  graph_on (seq 0 n) E -> forward E -> multiples_of D E -> (0 < n)%nat -> (Z.of_nat n < 1000000000000000)%Z ->
  exists tol0, 0 < tol0 /\ forall T T' (L : nat -> lapi T) (L' : nat -> lapi T') tol tol' eps fuel fuel1 fuel' fuel1' lams Ps lams' Ps',
    (forall k, lsafe (L k)) -> (forall k, lsafe (L' k)) -> 0 < tol -> tol <= tol0 -> 0 < tol' -> tol' <= tol0 ->
    0 <= eps -> qn n * eps < 1 -> (n <= fuel)%nat -> (n <= fuel1)%nat ->
    agg_run fuel (wolfe_strict ord lin L tol eps15 fuel') tol n E = Ok (lams, Ps) ->
    agg_run fuel1 (wolfe_strict ord lin L' tol' eps fuel1') tol' n E = Ok (lams', Ps') ->
    Forall2 Qeq lams lams' /\ Forall2 same_partition Ps Ps'.
Proof.
  intros ord lin n E D HO HL HE HW HD Hn Hb. destruct (C100_graph ord lin n E D HO HL HE HW HD Hn) as (t & T0 & H).
  assert (EB : qn n * eps15 < 1).
  { unfold qn, eps15, Qlt. simpl. lia. }
  exists t. split; auto. intros T T' L L' tol tol' eps fuel fuel1 fuel' fuel1' lams Ps lams' Ps' S1 S2 P1 P2 P3 P4 E0 E1 F1 F2 R1 R2.
  destruct (H T L tol eps15 fuel fuel' S1 P1 P2 ltac:(discriminate) EB F1) as [K|[K|(l & p & K1 & _ & K3)]]; try congruence.
  destruct (H T' L' tol' eps fuel1 fuel1' S2 P3 P4 E0 E1 F2) as [K|[K|(l' & p' & K1' & _ & K3')]]; try congruence.
  rewrite R1 in K1. injection K1 as <- <-. rewrite R2 in K1'. injection K1' as <- <-.
  apply (psp_unique E (seq 0 n) (seq_NoDup _ _) HE); auto.
Qed.
Print Assumptions C100_precision_irrelevant.

(** The hypotheses are those of C58 ([C58_hypotheses]).  With eps = 1/10 the run on the graph of C50 is strict and
    exact, with 1/5 it does not end in 20 steps.  An endless run with the precision 1E-15 is [C98_default_precision_refuted]. *)
Example C100_case : qn 4 * (1 # 10) < 1 /\
  agg_run 4 (wolfe_strict isort lsq (fun _ => no_factor) (1 # 1000000000) (1 # 10) 20) (1 # 1000000000) 4 agg_E =
  Ok ([4 # 8; 8 # 4; 3], [[[0; 1; 2; 3]]; [[0; 1; 2]; [3]]; [[0; 1]; [2]; [3]]; [[0]; [1]; [2]; [3]]]%nat) /\
  agg_run 4 (wolfe_strict isort lsq (fun _ => no_factor) (1 # 1000000000) (1 # 5) 20) (1 # 1000000000) 4 agg_E = OutOfFuel.
Proof. split; [reflexivity|]. split; vm_compute; reflexivity. Qed.
