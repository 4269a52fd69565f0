(** * Property C76: class PSP_I in floating-point arithmetic (psp/psp_i.cpp). *)
From Coq Require Import Qabs Sorted.
From Verif Require Import Base Graph Spec MSets SetsThy MGraph MaxFlow CutThy MDil DilThy BFThy
  MDT SeqThy PartThy DTThy PSPThy DTTop MContract MPSPI DilApprox ApproxThy MFloat FloatThy FloatDil FloatDT
  MFloatP FloatPsp FloatPspRun FloatPspLoop PropDil PropDT PropApprox PropFloat.

(** n^4 x and n^3 x. *)
Definition n4 (n : nat) (x : Q) : Q := qn n * (qn n * (qn n * (qn n * x))).
Definition n3 (n : nat) (x : Q) : Q := qn n * (qn n * (qn n * x)).

Theorem C76_psp_i_floating_point : forall u o it mc d n E rw W eps D,
  0 <= u -> std_model u o -> (forall F, graph_on (seq 0 n) F -> Permutation (it F) F) ->
  0 <= d -> ApproxCutSpec d n mc -> (2 <= n)%nat ->
  graph_on (seq 0 n) E -> simple E -> forward E -> (forall a, In a E -> 0 < aw a) ->
  rounds u rw E -> qsum aw E <= W -> 1 <= W -> multiples_of D E -> fine_tol D n (2 * eps) ->
  2 * qn n * d + 960 * n4 n (u * W) < eps ->
  exists fs lams Ps G, f_psp_run o it mc eps (stored rw E) n = Ok (mkOut fs Ps G) /\
    IsWeakPSP E (seq 0 n) lams Ps /\ slopes E lams Ps /\
    Forall2 (fun f l => Qabs (f - l) <= 120 * n3 n (u * W)) fs lams.
Proof.
  intros u o it mc d n E rw W eps D Hu Ho Hit Hd Hmc Hn HE Hs Hf Hp Hr HW HW1 HD Ht He.
  assert (K : 120 * NU3 (vu u n) n W == 960 * n4 n (u * W)) by (unfold NU3, NU2, NU1, vu, n4; ring).
  destruct (f_psp_run_correct u o it mc d n E rw W eps D Hu Ho Hit Hd Hmc Hn HE Hs Hf Hp Hr HW HW1 HD Ht ltac:(lra))
    as (fs & lams & Ps & G & A & B & C & F & _).
  exists fs, lams, Ps, G. split; auto. split; auto. split; auto.
  assert (K2 : dlt (vu u n) n W == 120 * n3 n (u * W)) by (unfold dlt, NU2, NU1, vu, n3; ring).
  clear -F K2. induction F; constructor; auto. apply near_abs in H. lra.
Qed.
Print Assumptions C76_psp_i_floating_point.

(** Every graph is handled by some tolerance, precision and solver accuracy. *)
Theorem C76_some_precision : forall E n, (2 <= n)%nat -> graph_on (seq 0 n) E -> simple E -> forward E ->
  (forall a, In a E -> 0 < aw a) ->
  exists eps0, 0 < eps0 /\ forall eps, 0 < eps -> eps <= eps0 ->
  exists t, 0 < t /\ forall u o it mc d rw, 0 <= u -> u <= t -> 0 <= d -> d <= t ->
    std_model u o -> (forall F, graph_on (seq 0 n) F -> Permutation (it F) F) -> ApproxCutSpec d n mc -> rounds u rw E ->
    exists fs lams Ps G, f_psp_run o it mc eps (stored rw E) n = Ok (mkOut fs Ps G) /\ IsWeakPSP E (seq 0 n) lams Ps.
Proof.
  intros E n Hn HE Hs Hf Hp. destruct (fine_tol_ex E n) as (e0 & He0 & D & HD & Ht).
  exists (e0 / 2). assert (X : e0 / 2 == e0 * (1#2)) by field. split; [lra|]. intros eps H1 H2.
  assert (T0 : 0 <= total E) by (apply qsum_nonneg; exact (graph_on_nonneg _ _ HE)).
  set (W := total E + 1). set (k := 2 * qn n + 960 * n4 n W + 1).
  assert (Q0 := qn_nonneg n).
  assert (K3 : 0 <= n4 n W) by (unfold n4; repeat apply Qmult_le_0_compat; auto; unfold W; lra).
  assert (Hk : 0 < k) by (unfold k; lra).
  exists (eps / k). assert (He : 0 < eps / k) by (apply Qlt_shift_div_l; [exact Hk|rewrite Qmult_0_l; exact H1]). split; auto.
  intros u o it mc d rw Hu Hu' Hd Hd' Ho Hit Hmc Hr.
  set (t := eps / k) in *. assert (Y : t * k == eps) by (unfold t; field; intro C; rewrite C in Hk; apply (Qlt_irrefl 0); exact Hk).
  destruct (C76_psp_i_floating_point u o it mc d n E rw W eps D Hu Ho Hit Hd Hmc Hn HE Hs Hf Hp Hr ltac:(unfold W; unfold total; lra) ltac:(unfold W; lra) HD)
    as (fs & lams & Ps & G & A & B & _).
  - apply Ht; lra.
  - assert (A1 : 0 <= 2 * qn n * (t - d)) by (apply Qmult_le_0_compat; lra).
    assert (A2 : 0 <= n4 n W * (t - u)) by (apply Qmult_le_0_compat; lra).
    assert (A3 : t * k == 2 * qn n * t + 960 * (n4 n W * t) + t) by (unfold k; ring).
    assert (A4 : n4 n (u * W) == n4 n W * u) by (unfold n4; ring). lra.
  - eauto 10.
Qed.
Print Assumptions C76_some_precision.

(** In particular for doubles, LEMON's order of the arcs and its tolerance. *)
Theorem C76_psp_i_double : forall mc n E W D, MinCutSpec mc -> (2 <= n)%nat ->
  graph_on (seq 0 n) E -> simple E -> forward E -> (forall a, In a E -> 0 < aw a) ->
  qsum aw E <= W -> 1 <= W -> multiples_of D E -> fine_tol D n (2 * eps53) -> 960 * n4 n (u53 * W) < eps53 ->
  exists fs lams Ps G, f_psp_run (binary 53) (lemon_order n) mc eps53 (stored rw53 E) n = Ok (mkOut fs Ps G) /\
    IsWeakPSP E (seq 0 n) lams Ps /\ slopes E lams Ps /\
    Forall2 (fun f l => Qabs (f - l) <= 120 * n3 n (u53 * W)) fs lams.
Proof.
  intros mc n E W D Hmc Hn HE Hs Hf Hp HW HW1 HD Ht He.
  apply (C76_psp_i_floating_point u53 (binary 53) (lemon_order n) mc 0 n E rw53 W eps53 D); auto; try lra.
  - vm_compute. discriminate.
  - apply binary_std.
  - intros F HF. apply lemon_order_perm. auto.
  - apply approx_of_exact. auto.
  - apply rw53_rounds; exact (graph_on_nonneg _ _ HE).
Qed.
Print Assumptions C76_psp_i_double.

(** Four nodes; the contraction of {0,2} adds the doubles 0.1 and 0.2. *)
Definition dec4 : graph :=
  [mkArc 0 1 (1#10); mkArc 0 2 (7#10); mkArc 1 2 (2#10); mkArc 1 3 (3#10); mkArc 2 3 (1#10)].
Lemma dec4_ok : graph_on (seq 0 4) dec4 /\ simple dec4 /\ forward dec4 /\ (forall a, In a dec4 -> 0 < aw a) /\
  multiples_of 10 dec4.
Proof.
  split; [intros a H; simpl in H; intuition (subst; simpl; auto; lra)|].
  split; [unfold simple; simpl; repeat constructor; simpl; intuition congruence|].
  split; [intros a H; simpl in H; intuition (subst; simpl; lia)|].
  split; [intros a H; simpl in H; intuition (subst; simpl; lra)|].
  intros a H; simpl in H; destruct H as [<-|[<-|[<-|[<-|[<-|[]]]]]];
    [exists 1%Z|exists 7%Z|exists 2%Z|exists 3%Z|exists 1%Z]; reflexivity.
Qed.

Example C76_nonvacuous :
  std_model u53 (binary 53) /\ MinCutSpec bf_mincut /\ rounds u53 rw53 dec4 /\
  graph_on (seq 0 4) dec4 /\ simple dec4 /\ forward dec4 /\ (forall a, In a dec4 -> 0 < aw a) /\ multiples_of 10 dec4 /\
  qsum aw dec4 <= 2 /\ fine_tol 10 4 (2 * eps53) /\ 960 * n4 4 (u53 * 2) < eps53 /\
  f_psp_run (binary 53) (lemon_order 4) bf_mincut eps53 (stored rw53 dec4) 4 =
    Ok (mkOut [6305039478318695 # 18014398509481984; 3152519739159347 # 4503599627370496]
              [[[0;1;2;3]]; [[0;2];[1];[3]]; [[0];[1];[2];[3]]]%nat
              (mkG [0;1;3]%nat [mkArc 1 3 (5404319552844595 # 18014398509481984);
                                mkArc 0 1 (1351079888211149 # 4503599627370496);
                                mkArc 0 3 (3602879701896397 # 36028797018963968)])) /\
  psp_run bf_mincut tol dec4 4 =
    Ok (mkOut [7#20; 7#10] [[[0;1;2;3]]; [[0;2];[1];[3]]; [[0];[1];[2];[3]]]%nat
              (mkG [0;1;3]%nat [mkArc 1 3 (3#10); mkArc 0 1 (3#10); mkArc 0 3 (1#10)])).
Proof.
  split; [apply binary_std|]. split; [apply bf_mincut_spec|].
  split; [apply rw53_rounds; apply (graph_on_nonneg _ _ (proj1 dec4_ok))|].
  split; [apply dec4_ok|]. split; [apply dec4_ok|]. split; [apply dec4_ok|]. split; [apply dec4_ok|]. split; [apply dec4_ok|].
  split; [vm_compute; discriminate|]. split; [reflexivity|]. split; [reflexivity|]. split; vm_compute; reflexivity.
Qed.

(** Large weights are not covered, and psp_i goes wrong on them like dt. *)
Theorem C76_large_weights_refuted :
  ~ (forall mc E n, MinSinkCutSpec mc -> (2 <= n)%nat -> graph_on (seq 0 n) E -> simple E -> forward E ->
       (forall a, In a E -> 0 < aw a) -> multiples_of 1 E -> fine_tol 1 n (2 * eps53) ->
       (forall a, In a E -> rnd 53 (aw a) == aw a) ->
       exists fs lams Ps G, f_psp_run (binary 53) (lemon_order n) mc eps53 E n = Ok (mkOut fs Ps G) /\ IsWeakPSP E (seq 0 n) lams Ps).
Proof.
  intro H.
  assert (G : graph_on (seq 0 3) wide3) by (intros a Ha; simpl in Ha; intuition (subst; simpl; auto; lra)).
  assert (S : simple wide3) by (unfold simple; simpl; repeat constructor; simpl; intuition congruence).
  assert (F : forward wide3) by (intros a Ha; simpl in Ha; intuition (subst; simpl; lia)).
  assert (Po : forall a, In a wide3 -> 0 < aw a) by (intros a Ha; simpl in Ha; intuition (subst; simpl; lra)).
  assert (M : multiples_of 1 wide3).
  { intros a Ha; simpl in Ha; destruct Ha as [<-|[<-|[<-|[]]]];
      [exists 1%Z|exists 9007199254740992%Z|exists 9007199254740994%Z]; reflexivity. }
  assert (R : forall a, In a wide3 -> rnd 53 (aw a) == aw a).
  { intros a Ha; simpl in Ha; destruct Ha as [<-|[<-|[<-|[]]]]; vm_compute; reflexivity. }
  destruct (H bf_mincut wide3 3%nat bf_minsink_spec ltac:(lia) G S F Po M ltac:(reflexivity) R) as (fs & lams & Ps & G' & E & K).
  vm_compute in E. injection E as _ <- _. destruct K as (_ & _ & K).
  destruct lams as [|l [|l' lams]]; simpl in K; [contradiction| |tauto].
  destruct K as (_ & A & _ & _ & B).
  assert (P : is_partition (seq 0 3) [[0];[1;2]]%nat) by (split; [apply Permutation_refl|intros [C|[C|[]]]; discriminate]).
  destruct (A l I (Qle_refl l)) as [_ A']. specialize (A' _ P). destruct (B l (Qle_refl l)) as [_ B']. specialize (B' _ P).
  assert (C1 : crossing wide3 [[0;1;2]]%nat == 0) by (vm_compute; reflexivity).
  assert (C2 : crossing wide3 [[0];[1;2]]%nat == 9007199254740993) by (vm_compute; reflexivity).
  assert (C3 : crossing wide3 [[0];[1];[2]]%nat == 18014398509481987) by (vm_compute; reflexivity).
  unfold hval in A', B'. rewrite C1, C2 in A'. rewrite C2, C3 in B'. cbn [length] in A', B'.
  change (qn 1) with 1 in A', B'. change (qn 2) with 2 in A', B'. change (qn 3) with 3 in A', B'. lra.
Qed.
Print Assumptions C76_large_weights_refuted.
