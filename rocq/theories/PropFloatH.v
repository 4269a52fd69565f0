(** * Property C77: class HPSP in floating-point arithmetic (psp/hpsp.cpp). *)
From Coq Require Import Qabs Sorted.
From Verif Require Import Base Graph Spec MSets SetsThy MGraph MaxFlow CutThy MDil DilThy BFThy
  MDT SeqThy PartThy DTThy PSPThy DTTop MContract MPSPI MHPSP DilApprox ApproxThy MFloat FloatThy FloatDil FloatDT
  MFloatP FloatPsp FloatPspRun FloatPspLoop MFloatH PropDil PropDT PropApprox PropFloat PropFloatP.

(** Five nodes with decimal weights.  The first average weight, 1/4, is a critical value, so that partitions tie. *)
Definition tie5 : graph :=
  [mkArc 0 1 (1#20); mkArc 0 2 (1#20); mkArc 0 3 (1#20); mkArc 0 4 (3#20);
   mkArc 1 3 (5#20); mkArc 1 4 (6#20); mkArc 2 3 (2#20); mkArc 2 4 (1#20)].
Lemma tie5_ok : graph_on (seq 0 5) tie5 /\ simple tie5 /\ forward tie5 /\ (forall a, In a tie5 -> 0 < aw a) /\
  multiples_of 20 tie5.
Proof.
  split; [intros a H; simpl in H; intuition (subst; simpl; auto 10; lra)|].
  split; [unfold simple; simpl; repeat constructor; simpl; intuition congruence|].
  split; [intros a H; simpl in H; intuition (subst; simpl; lia)|].
  split; [intros a H; simpl in H; intuition (subst; simpl; lra)|].
  intros a H. exists (Qnum (aw a)). simpl in H. repeat destruct H as [<-|H]; try reflexivity. destruct H.
Qed.

(** What a caller sees of a run. *)
Definition hview (n : nat) (r : res hout) : option (list dbl * list cpart * list dbl * list nat) :=
  match r with
  | Ok h => Some (ho_cv h, ho_psp h, map (ho_W h) (seq 0 n), map (ho_K h) (seq 0 n))
  | _ => None
  end.

Example hpsp_tie5_double :
  hview 5 (f_hpsp_run (binary 53) (lemon_order 5) bf_mincut eps53 (stored rw53 tie5) 5) =
    Some ([Fin (3602879701896397 # 18014398509481984); Fin (1#4); Fin (5404319552844595 # 18014398509481984)],
          [[[0;1;2;4];[1;3]]; [[0;1;4];[1;3];[2]]; [[0];[1;4];[2];[3]]; [[0];[1];[2];[3];[4]]]%nat,
          [Fin (3602879701896397 # 18014398509481984); Fin (1#4); Fin (3602879701896397 # 18014398509481984); Fin (1#4);
           Fin (5404319552844595 # 18014398509481984)],
          [0;0;0;1;1]%nat) /\
  hview 5 (hpsp_run bf_mincut tol tie5 5) =
    Some ([Fin (1#5); Fin (1#4); Fin (3#10)],
          [[[0;1;2;3;4]]; [[0;1;3;4];[2]]; [[0];[1;4];[2];[3]]; [[0];[1];[2];[3];[4]]]%nat,
          [Fin (1#5); Fin (1#4); Fin (1#5); Fin (1#4); Fin (3#10)], [0;0;0;0;1]%nat).
Proof. split; vm_compute; reflexivity. Qed.

(** Under the premises of [C76_psp_i_double], and even with max flows whose sink sides are minimal, the
    lists returned by hpsp need not consist of partitions. *)
Theorem C77_hpsp_double_refuted :
  ~ (forall mc n E W D, MinSinkCutSpec mc -> (2 <= n)%nat ->
       graph_on (seq 0 n) E -> simple E -> forward E -> (forall a, In a E -> 0 < aw a) ->
       qsum aw E <= W -> 1 <= W -> multiples_of D E -> fine_tol D n (2 * eps53) -> 960 * n4 n (u53 * W) < eps53 ->
       exists h, f_hpsp_run (binary 53) (lemon_order n) mc eps53 (stored rw53 E) n = Ok h /\
         forall P, In P (ho_psp h) -> is_partition (seq 0 n) P).
Proof.
  intro H. destruct tie5_ok as (G & S & F & Po & M).
  destruct (H bf_mincut 5%nat tie5 1 20%positive bf_minsink_spec ltac:(lia) G S F Po ltac:(vm_compute; discriminate)
              ltac:(lra) M ltac:(reflexivity) ltac:(reflexivity)) as (h & R & K).
  assert (V := proj1 hpsp_tie5_double). rewrite R in V. injection V as _ V _ _.
  specialize (K [[0;1;2;4];[1;3]]%nat). rewrite V in K. destruct (K (or_introl eq_refl)) as [K' _].
  apply Permutation_length in K'. simpl in K'. discriminate.
Qed.
Print Assumptions C77_hpsp_double_refuted.
