(** * Properties C19 and C48: the method hpsp (psp/hpsp.cpp). *)
From Coq Require Import Sorted.
From Verif Require Import Base Graph Spec MSets SetsThy MGraph MaxFlow CutThy MDil DilThy BFThy
  MDT SeqThy PartThy DTThy PSPThy DTTop MContract ContractThy MPSPI MHPSP TreeThy DecThy PSPIThy PSPILoop
  HPSPThy HPSPLoop HPSPTop CanonThy PropDil PropDT PropPSPI PropLimits.

(** ** C19: the principal sequence *)
Lemma hpsp_exact mc eps E n D :
  MinSinkCutSpec mc -> 0 < eps -> (2 <= n)%nat ->
  graph_on (seq 0 n) E -> simple E -> forward E -> (forall a, In a E -> eps <= aw a) ->
  multiples_of D E -> fine_tol D n eps ->
  exists lams Ps W K G, hpsp_run mc eps E n = Ok (mkHOut (map Fin lams) Ps W K G) /\
    IsPSP E (seq 0 n) lams Ps.
Proof.
  intros Hmc He Hn HE Hs Hf Hw HD Ht.
  destruct (hpsp_run_correct mc (proj1 Hmc) Hmc eps He E n Hn HE Hs Hf Hw 0 ltac:(lra)
              (exact_gap_dec D E n eps He HD Ht)) as (lams & Ps & W & K & G & R1 & R2 & _).
  exists lams, Ps, W, K, G. split; auto. apply near_0_full.
  assert (Z : 0 * (qn n - 1) == 0) by ring. clear -R2 Z.
  eapply full_sequence_mono with (good := near_optimal E (seq 0 n) (0 * (qn n - 1))); [intros a b H; exact H| |exact R2].
  intros lam P [A1 A2]. split; [auto|]. intros R HR. specialize (A2 R HR). lra.
Qed.

Theorem C19_hpsp_exact : forall mc eps E n D,
  MinSinkCutSpec mc -> 0 < eps -> (2 <= n)%nat ->
  graph_on (seq 0 n) E -> simple E -> forward E -> (forall a, In a E -> eps <= aw a) ->
  multiples_of D E -> fine_tol D n eps ->
  exists lams Ps W K G, hpsp_run mc eps E n = Ok (mkHOut (map Fin lams) Ps W K G) /\
    IsPSP E (seq 0 n) lams Ps.
Proof. exact hpsp_exact. Qed.
Print Assumptions C19_hpsp_exact.

(** Arbitrary weights: termination, shape, strictly increasing critical values that are slopes,
    every partition optimal up to (n-1) tolerances. *)
Lemma hpsp_near mc eps E n :
  MinSinkCutSpec mc -> 0 < eps -> (2 <= n)%nat ->
  graph_on (seq 0 n) E -> simple E -> forward E -> (forall a, In a E -> eps <= aw a) ->
  exists lams Ps W K G, hpsp_run mc eps E n = Ok (mkHOut (map Fin lams) Ps W K G) /\
    length Ps = S (length lams) /\ hd_error Ps = Some [seq 0 n] /\ slopes E lams Ps /\
    full_sequence Qlt (near_optimal E (seq 0 n) (eps * (qn n - 1))) (seq 0 n) lams Ps.
Proof.
  intros Hmc He Hn HE Hs Hf Hw.
  destruct (hpsp_run_correct mc (proj1 Hmc) Hmc eps He E n Hn HE Hs Hf Hw eps ltac:(lra)
              (eps_gap_dec (seq 0 n) E eps)) as (lams & Ps & W & K & G & R1 & R2 & R3 & R4 & R5 & _).
  exists lams, Ps, W, K, G. auto.
Qed.

Theorem C19_hpsp_near_optimal : forall mc eps E n,
  MinSinkCutSpec mc -> 0 < eps -> (2 <= n)%nat ->
  graph_on (seq 0 n) E -> simple E -> forward E -> (forall a, In a E -> eps <= aw a) ->
  exists lams Ps W K G, hpsp_run mc eps E n = Ok (mkHOut (map Fin lams) Ps W K G) /\
    length Ps = S (length lams) /\ hd_error Ps = Some [seq 0 n] /\ slopes E lams Ps /\
    full_sequence Qlt (near_optimal E (seq 0 n) (eps * (qn n - 1))) (seq 0 n) lams Ps.
Proof. exact hpsp_near. Qed.
Print Assumptions C19_hpsp_near_optimal.

Lemma hpsp_as_dt mc mc' eps eps' E n D :
  MinSinkCutSpec mc -> MinSinkCutSpec mc' -> 0 < eps -> 0 < eps' -> (2 <= n)%nat ->
  graph_on (seq 0 n) E -> simple E -> forward E -> (forall a, In a E -> eps' <= aw a) ->
  multiples_of D E -> fine_tol D n eps -> fine_tol D n eps' ->
  exists lams Ps lams' Ps' W K G, dt_run mc eps E n = Ok (map Fin lams, Ps) /\
    hpsp_run mc' eps' E n = Ok (mkHOut (map Fin lams') Ps' W K G) /\
    Forall2 Qeq lams lams' /\ Forall2 same_partition Ps Ps'.
Proof.
  intros Hmc Hmc' He He' Hn HE Hs Hf Hw HD Ht Ht'.
  destruct (C11_dt_exact mc eps E n D Hmc He Hn HE Hs Hf HD Ht) as (lams & Ps & B1 & B2).
  destruct (hpsp_exact mc' eps' E n D Hmc' He' Hn HE Hs Hf Hw HD Ht') as (lams' & Ps' & W & K & G & A1 & A2).
  exists lams, Ps, lams', Ps', W, K, G. split; auto. split; auto.
  apply (C12_psp_unique E (seq 0 n) (seq_NoDup n 0) HE); auto.
Qed.

Theorem C19_hpsp_agrees_with_dt : forall mc mc' eps eps' E n D,
  MinSinkCutSpec mc -> MinSinkCutSpec mc' -> 0 < eps -> 0 < eps' -> (2 <= n)%nat ->
  graph_on (seq 0 n) E -> simple E -> forward E -> (forall a, In a E -> eps' <= aw a) ->
  multiples_of D E -> fine_tol D n eps -> fine_tol D n eps' ->
  exists lams Ps lams' Ps' W K G, dt_run mc eps E n = Ok (map Fin lams, Ps) /\
    hpsp_run mc' eps' E n = Ok (mkHOut (map Fin lams') Ps' W K G) /\
    Forall2 Qeq lams lams' /\ Forall2 same_partition Ps Ps'.
Proof. exact hpsp_as_dt. Qed.
Print Assumptions C19_hpsp_agrees_with_dt.

(** Arbitrary arc lists, brought to one arc per pair first. *)
Lemma hpsp_canonical mc eps E n D :
  MinSinkCutSpec mc -> 0 < eps -> (2 <= n)%nat -> graph_on (seq 0 n) E ->
  (forall a, In a E -> eps <= aw a) -> multiples_of D E -> fine_tol D n eps ->
  exists lams Ps W K G, hpsp_run mc eps (canon n E) n = Ok (mkHOut (map Fin lams) Ps W K G) /\
    IsPSP E (seq 0 n) lams Ps.
Proof.
  intros Hmc He Hn HE Hw HD Ht.
  destruct (hpsp_exact mc eps (canon n E) n D Hmc He Hn (canon_on n E) (canon_simple n E)
              (canon_forward n E) (canon_weights n E eps He HE Hw) (canon_multiples n D E HD) Ht)
    as (lams & Ps & W & K & G & H1 & H2).
  exists lams, Ps, W, K, G. split; auto. apply canon_psp; auto.
Qed.

Theorem C20_hpsp_canonical : forall mc eps E n D,
  MinSinkCutSpec mc -> 0 < eps -> (2 <= n)%nat -> graph_on (seq 0 n) E ->
  (forall a, In a E -> eps <= aw a) -> multiples_of D E -> fine_tol D n eps ->
  exists lams Ps W K G, hpsp_run mc eps (canon n E) n = Ok (mkHOut (map Fin lams) Ps W K G) /\
    IsPSP E (seq 0 n) lams Ps.
Proof. exact hpsp_canonical. Qed.
Print Assumptions C20_hpsp_canonical.

(** Five nodes: the recursion groups and contracts, and the values of W repeat. *)
Example C19_nonvacuous :
  MinSinkCutSpec bf_mincut /\ 0 < tol /\ (2 <= 5)%nat /\ graph_on (seq 0 5) g5 /\ simple g5 /\
  forward g5 /\ (forall a, In a g5 -> tol <= aw a) /\ multiples_of 1 g5 /\ fine_tol 1 5 tol /\
  exists W K G, hpsp_run bf_mincut tol g5 5 =
    Ok (mkHOut [Fin 3; Fin 4; Fin 5; Fin 7]
              [[[0;1;2;3;4]]; [[0;1;2];[3;4]]; [[0];[1;2];[3;4]]; [[0];[1];[2];[3;4]];
               [[0];[1];[2];[3];[4]]]%nat W K G) /\
    map W (seq 0 5) = [Fin 3; Fin 4; Fin 5; Fin 3; Fin 7] /\ map K (seq 0 5) = [0;0;1;0;3]%nat.
Proof.
  split; [apply bf_minsink_spec|]. split; [reflexivity|]. split; [lia|]. split; [apply g5_on|].
  split; [apply g5_simple|]. split; [apply g5_forward|]. split; [apply g5_weights|].
  split; [apply g5_multiples|]. split; [vm_compute; reflexivity|].
  eexists _, _, _. split; [vm_compute; reflexivity|]. split; vm_compute; reflexivity.
Qed.

(** ** C19: an arbitrary minimum cut is not enough *)

(** Minimum cuts, ties broken in favour of sides without node 0 and then of larger ones. *)
Definition odd_rank (A : list nat) : nat := if mem A 0 then 0%nat else S (length A).
Definition odd_better (N : network) (A B : list nat) : bool :=
  Qltb (cut N (mem A)) (cut N (mem B)) ||
  (Qeq_bool (cut N (mem A)) (cut N (mem B)) && (odd_rank B <? odd_rank A)%nat).
Definition odd_mincut : solver := fun nodes N =>
  let X := fold_left (fun best A => if odd_better N A best then A else best) (sublists nodes) [] in
  (Qred (cut N (mem X)), X).

Lemma odd_best N l : forall d,
  let X := fold_left (fun best A => if odd_better N A best then A else best) l d in
  (In X l \/ X = d) /\ cut N (mem X) <= cut N (mem d) /\ forall A, In A l -> cut N (mem X) <= cut N (mem A).
Proof.
  induction l as [|A l IH]; intro d; cbn [fold_left].
  - split; auto. split; [lra|]. intros A [].
  - assert (T : cut N (mem (if odd_better N A d then A else d)) <= cut N (mem A) /\
                cut N (mem (if odd_better N A d then A else d)) <= cut N (mem d)).
    { unfold odd_better. destruct (Qltb (cut N (mem A)) (cut N (mem d))) eqn:B.
      - apply Qltb_true in B. simpl. lra.
      - apply Qltb_false in B. simpl. destruct (Qeq_bool (cut N (mem A)) (cut N (mem d))) eqn:C; simpl; [|lra].
        apply Qeq_bool_iff in C. destruct (odd_rank d <? odd_rank A)%nat; lra. }
    destruct (IH (if odd_better N A d then A else d)) as (I1 & I2 & I3).
    split; [|split].
    + destruct I1 as [I1|I1]; [left; right; auto|].
      rewrite I1. destruct (odd_better N A d); [left; left; auto|right; auto].
    + lra.
    + intros B [<-|HB]; [lra|auto].
Qed.

Lemma odd_mincut_spec : MinCutSpec odd_mincut.
Proof.
  intros nodes N Hok. unfold odd_mincut. cbv zeta. simpl fst. simpl snd.
  destruct (odd_best N (sublists nodes) []) as (H1 & H2 & H3).
  set (X := fold_left _ (sublists nodes) []) in *.
  assert (HX : In X (sublists nodes)).
  { destruct H1 as [H1|H1]; auto. rewrite H1.
    replace ([] : list nat) with (filter (fun _ => false) nodes); [apply sublists_filter|].
    clear. induction nodes; simpl; auto. }
  split; [apply sublists_incl; auto|]. split; [apply Qred_correct|].
  intro Y. rewrite Qred_correct, <- (cut_restrict nodes N Y Hok). apply H3. apply sublists_filter.
Qed.

(** A path 0-1-2 of weight 2 hanging off a heavier pair 3-4. *)
Definition path5 : graph := [mkArc 0 1 4; mkArc 1 2 4; mkArc 2 3 1; mkArc 3 4 7].

(** Node 1 ends up in two blocks, at the coarsest level and at the next one. *)
Example C19_witness : exists W K G,
  hpsp_run odd_mincut tol path5 5 =
    Ok (mkHOut [Fin 1; Fin 4; Fin 7]
         [[[0;1;3;4];[1;2]]; [[0;1];[1;2];[3;4]]; [[0];[1];[2];[3;4]]; [[0];[1];[2];[3];[4]]]%nat W K G).
Proof. eexists _, _, _. vm_compute. reflexivity. Qed.

Lemma path5_hyps : graph_on (seq 0 5) path5 /\ simple path5 /\ forward path5 /\
  (forall a, In a path5 -> tol <= aw a) /\ multiples_of 1 path5 /\ fine_tol 1 5 tol.
Proof.
  split; [|split; [|split; [|split; [|split]]]].
  - intros a H; simpl in H; intuition (subst; simpl; auto 10; lra).
  - unfold simple. simpl. repeat constructor; simpl; intuition congruence.
  - intros a H; simpl in H; intuition (subst; simpl; lia).
  - intros a H; simpl in H; intuition (subst; simpl; unfold tol; lra).
  - intros a H. exists (Qnum (aw a)). simpl in H.
    repeat destruct H as [<-|H]; try reflexivity. destruct H.
  - vm_compute; reflexivity.
Qed.

Lemma any_min_cut_refuted :
  ~ (forall mc eps E n D,
      MinCutSpec mc -> 0 < eps -> (2 <= n)%nat ->
      graph_on (seq 0 n) E -> simple E -> forward E -> (forall a, In a E -> eps <= aw a) ->
      multiples_of D E -> fine_tol D n eps ->
      exists lams Ps W K G, hpsp_run mc eps E n = Ok (mkHOut (map Fin lams) Ps W K G) /\
        forall P, In P Ps -> is_partition (seq 0 n) P).
Proof.
  intro H. destruct path5_hyps as (H1 & H2 & H3 & H4 & H5 & H6).
  destruct (H odd_mincut tol path5 5%nat 1%positive odd_mincut_spec eq_refl ltac:(lia) H1 H2 H3 H4 H5 H6)
    as (lams & Ps & W & K & G & R & HP).
  destruct C19_witness as (W' & K' & G' & R').
  rewrite R' in R.
  assert (EP : Ps = [[[0;1;3;4];[1;2]]; [[0;1];[1;2];[3;4]]; [[0];[1];[2];[3;4]]; [[0];[1];[2];[3];[4]]]%nat)
    by (injection R as _ EP _ _ _; symmetry; exact EP).
  specialize (HP [[0;1;3;4];[1;2]]%nat). rewrite EP in HP.
  destruct (HP (or_introl eq_refl)) as [A _].
  apply Permutation_length in A. simpl in A. lia.
Qed.

Lemma hpsp_tree mc eps E n :
  MinSinkCutSpec mc -> 0 < eps -> (2 <= n)%nat ->
  graph_on (seq 0 n) E -> simple E -> forward E -> (forall a, In a E -> eps <= aw a) ->
  exists lams Ps W K G, hpsp_run mc eps E n = Ok (mkHOut (map Fin lams) Ps W K G) /\
    forall j, (j < n)%nat -> exists i l w P P',
      nth_error lams i = Some l /\ W j = Fin w /\ w == l /\
      nth_error Ps i = Some P /\ nth_error Ps (S i) = Some P' /\
      block_min P j (K j) /\ block_min P' j j /\ (j <> 0%nat -> (K j < j)%nat).
Proof.
  intros Hmc He Hn HE Hs Hf Hw.
  destruct (hpsp_run_correct mc (proj1 Hmc) Hmc eps He E n Hn HE Hs Hf Hw eps ltac:(lra)
              (eps_gap_dec (seq 0 n) E eps)) as (lams & Ps & W & K & G & R1 & _ & _ & _ & _ & R6).
  exists lams, Ps, W, K, G. split; auto.
Qed.

(** The hypotheses of [C19_hpsp_exact] with any minimum cut in place of the one with the smallest
    sink side: the run is Ok but its first two outputs are not partitions. *)
Theorem C19_any_min_cut_refuted :
  ~ (forall mc eps E n D,
      MinCutSpec mc -> 0 < eps -> (2 <= n)%nat ->
      graph_on (seq 0 n) E -> simple E -> forward E -> (forall a, In a E -> eps <= aw a) ->
      multiples_of D E -> fine_tol D n eps ->
      exists lams Ps W K G, hpsp_run mc eps E n = Ok (mkHOut (map Fin lams) Ps W K G) /\
        forall P, In P Ps -> is_partition (seq 0 n) P).
Proof. exact any_min_cut_refuted. Qed.
Print Assumptions C19_any_min_cut_refuted.

(** ** C48: get_W and get_K *)
Theorem C48_hpsp_tree : forall mc eps E n,
  MinSinkCutSpec mc -> 0 < eps -> (2 <= n)%nat ->
  graph_on (seq 0 n) E -> simple E -> forward E -> (forall a, In a E -> eps <= aw a) ->
  exists lams Ps W K G, hpsp_run mc eps E n = Ok (mkHOut (map Fin lams) Ps W K G) /\
    forall j, (j < n)%nat -> exists i l w P P',
      nth_error lams i = Some l /\ W j = Fin w /\ w == l /\
      nth_error Ps i = Some P /\ nth_error Ps (S i) = Some P' /\
      block_min P j (K j) /\ block_min P' j j /\ (j <> 0%nat -> (K j < j)%nat).
Proof. exact hpsp_tree. Qed.
Print Assumptions C48_hpsp_tree.
