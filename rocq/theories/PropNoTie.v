(** * Property C78: class HPSP in floating-point arithmetic on graphs without ties (psp/hpsp.cpp). *)
From Coq Require Import Qabs Sorted.
From Verif Require Import Base Graph Spec MSets SetsThy MGraph MaxFlow CutThy MDil DilThy BFThy
  MDT SeqThy PartThy DTThy PSPThy DTTop MContract MPSPI MHPSP TreeThy PSPIThy HPSPTop DilApprox ApproxThy MFloat FloatThy FloatDil FloatDT
  MFloatP FloatPsp FloatPspRun FloatPspLoop MFloatH FloatHpsp NoTie PropDil PropDT PropHPSP PropApprox PropFloat PropFloatP PropFloatH.

(** [tie_free n E]: for every set X of nodes and every partition Ps of X into three or more parts, let g be
    the weight between the parts divided by one less than their number.  If some partition of X coarser
    than Ps has a lower value at g than X itself in one part, then only one has the lowest value. *)
Definition tie_free (n : nat) (E : graph) : Prop := forall X Ps g P R,
  NoDup X -> incl X (seq 0 n) -> is_partition X Ps -> (3 <= length Ps)%nat ->
  let inside := filter (fun a => mem X (asrc a) && mem X (adst a)) E in
  let best := fun P => is_partition X P /\ refines Ps P /\
    forall R, is_partition X R -> refines Ps R -> hval inside g P <= hval inside g R in
  g * (qn (length Ps) - 1) == crossing inside Ps -> best P -> best R -> hval inside g P < - g -> refines P R.

Lemma tie_free_no_tie n E : tie_free n E -> no_tie n E.
Proof. exact (fun H => H). Qed.

Theorem C78_hpsp_floating_point : forall u o it mc d n E rw W eps D,
  0 <= u -> std_model u o -> (forall F, graph_on (seq 0 n) F -> Permutation (it F) F) ->
  0 <= d -> ApproxCutSpec d n mc -> (2 <= n)%nat ->
  graph_on (seq 0 n) E -> simple E -> forward E -> (forall a, In a E -> 0 < aw a) ->
  rounds u rw E -> qsum aw E <= W -> 1 <= W -> multiples_of D E -> fine_tol D n (2 * eps) ->
  2 * qn n * d + 960 * n4 n (u * W) < eps -> tie_free n E ->
  exists fs lams Ps Wv Kv G, f_hpsp_run o it mc eps (stored rw E) n = Ok (mkHOut (map Fin fs) Ps Wv Kv G) /\
    IsWeakPSP E (seq 0 n) lams Ps /\ slopes E lams Ps /\
    Forall2 (fun f l => Qabs (f - l) <= 120 * n3 n (u * W)) fs lams /\
    forall j, (j < n)%nat -> exists i f w P P', nth_error fs i = Some f /\ Wv j = Fin w /\ w == f /\
      nth_error Ps i = Some P /\ nth_error Ps (S i) = Some P' /\
      block_min P j (Kv j) /\ block_min P' j j /\ (j <> 0%nat -> (Kv j < j)%nat).
Proof.
  intros u o it mc d n E rw W eps D Hu Ho Hit Hd Hmc Hn HE Hs Hf Hp Hr HW HW1 HD Ht He Hnt.
  assert (K : 120 * NU3 (vu u n) n W == 960 * n4 n (u * W)) by (unfold NU3, NU2, NU1, vu, n4; ring).
  destruct (f_hpsp_run_correct u o it mc d n E rw W eps D Hu Ho Hit Hd Hmc Hn HE Hs Hf Hp Hr HW HW1 HD Ht ltac:(lra)
              (tie_free_no_tie n E Hnt))
    as (fs & lams & Ps & Wv & Kv & G & A & B & C & F & _ & T).
  exists fs, lams, Ps, Wv, Kv, G. split; auto. split; auto. split; auto. split; [|exact T].
  assert (K2 : dlt (vu u n) n W == 120 * n3 n (u * W)) by (unfold dlt, NU2, NU1, vu, n3; ring).
  clear -F K2. induction F; constructor; auto. apply near_abs in H. lra.
Qed.
Print Assumptions C78_hpsp_floating_point.

(** For doubles, LEMON's order of the arcs and its tolerance.  The solver may return any minimum cut. *)
Theorem C78_hpsp_double : forall mc n E W D, MinCutSpec mc -> (2 <= n)%nat ->
  graph_on (seq 0 n) E -> simple E -> forward E -> (forall a, In a E -> 0 < aw a) ->
  qsum aw E <= W -> 1 <= W -> multiples_of D E -> fine_tol D n (2 * eps53) -> 960 * n4 n (u53 * W) < eps53 ->
  tie_free n E ->
  exists fs lams Ps Wv Kv G,
    f_hpsp_run (binary 53) (lemon_order n) mc eps53 (stored rw53 E) n = Ok (mkHOut (map Fin fs) Ps Wv Kv G) /\
    IsWeakPSP E (seq 0 n) lams Ps /\ slopes E lams Ps /\
    Forall2 (fun f l => Qabs (f - l) <= 120 * n3 n (u53 * W)) fs lams.
Proof.
  intros mc n E W D Hmc Hn HE Hs Hf Hp HW HW1 HD Ht He Hnt.
  destruct (C78_hpsp_floating_point u53 (binary 53) (lemon_order n) mc 0 n E rw53 W eps53 D)
    as (fs & lams & Ps & Wv & Kv & G & A & B & C & F & _); auto; try lra.
  - vm_compute. discriminate.
  - apply binary_std.
  - intros F HF. apply lemon_order_perm. auto.
  - apply approx_of_exact. auto.
  - apply rw53_rounds; exact (graph_on_nonneg _ _ HE).
  - exists fs, lams, Ps, Wv, Kv, G. auto.
Qed.
Print Assumptions C78_hpsp_double.

(** Every graph without ties is handled by some tolerance, precision and solver accuracy. *)
Theorem C78_some_precision : forall E n, (2 <= n)%nat -> graph_on (seq 0 n) E -> simple E -> forward E ->
  (forall a, In a E -> 0 < aw a) -> tie_free n E ->
  exists eps0, 0 < eps0 /\ forall eps, 0 < eps -> eps <= eps0 ->
  exists t, 0 < t /\ forall u o it mc d rw, 0 <= u -> u <= t -> 0 <= d -> d <= t ->
    std_model u o -> (forall F, graph_on (seq 0 n) F -> Permutation (it F) F) -> ApproxCutSpec d n mc -> rounds u rw E ->
    exists fs lams Ps Wv Kv G, f_hpsp_run o it mc eps (stored rw E) n = Ok (mkHOut (map Fin fs) Ps Wv Kv G) /\
      IsWeakPSP E (seq 0 n) lams Ps.
Proof.
  intros E n Hn HE Hs Hf Hp Hnt. destruct (fine_tol_ex E n) as (e0 & He0 & D & HD & Ht).
  exists (e0 / 2). assert (X : e0 / 2 == e0 * (1#2)) by field. split; [lra|]. intros eps H1 H2.
  assert (T0 : 0 <= total E) by (apply qsum_nonneg; exact (graph_on_nonneg _ _ HE)).
  set (W := total E + 1). set (k := 2 * qn n + 960 * n4 n W + 1).
  assert (Q0 := qn_nonneg n).
  assert (K3 : 0 <= n4 n W) by (unfold n4; repeat apply Qmult_le_0_compat; auto; unfold W; lra).
  assert (Hk : 0 < k) by (unfold k; lra).
  exists (eps / k). assert (He : 0 < eps / k) by (apply Qlt_shift_div_l; [exact Hk|rewrite Qmult_0_l; exact H1]). split; auto.
  intros u o it mc d rw Hu Hu' Hd Hd' Ho Hit Hmc Hr.
  set (t := eps / k) in *. assert (Y : t * k == eps) by (unfold t; field; intro C; rewrite C in Hk; apply (Qlt_irrefl 0); exact Hk).
  destruct (C78_hpsp_floating_point u o it mc d n E rw W eps D Hu Ho Hit Hd Hmc Hn HE Hs Hf Hp Hr ltac:(unfold W; unfold total; lra) ltac:(unfold W; lra) HD)
    as (fs & lams & Ps & Wv & Kv & G & A & B & _); auto.
  - apply Ht; lra.
  - assert (A1 : 0 <= 2 * qn n * (t - d)) by (apply Qmult_le_0_compat; lra).
    assert (A2 : 0 <= n4 n W * (t - u)) by (apply Qmult_le_0_compat; lra).
    assert (A3 : t * k == 2 * qn n * t + 960 * (n4 n W * t) + t) by (unfold k; ring).
    assert (A4 : n4 n (u * W) == n4 n W * u) by (unfold n4; ring). lra.
  - eauto 10.
Qed.
Print Assumptions C78_some_precision.

(** An edge and a triangle of the same average weight, 3/10. *)
Definition tri5 : graph :=
  [mkArc 0 1 (3#10); mkArc 1 2 (1#20); mkArc 2 3 (2#10); mkArc 2 4 (1#10); mkArc 3 4 (3#10)].
Lemma tri5_ok : graph_on (seq 0 5) tri5 /\ simple tri5 /\ forward tri5 /\ (forall a, In a tri5 -> 0 < aw a) /\
  multiples_of 20 tri5.
Proof.
  split; [intros a H; simpl in H; intuition (subst; simpl; auto 10; lra)|].
  split; [unfold simple; simpl; repeat constructor; simpl; intuition congruence|].
  split; [intros a H; simpl in H; intuition (subst; simpl; lia)|].
  split; [intros a H; simpl in H; intuition (subst; simpl; lra)|].
  intros a H; simpl in H; destruct H as [<-|[<-|[<-|[<-|[<-|[]]]]]];
    [exists 6%Z|exists 1%Z|exists 4%Z|exists 2%Z|exists 6%Z]; reflexivity.
Qed.

Lemma tri5_tie_free : tie_free 5 tri5.
Proof. apply (no_tieb_sound 5 tri5). vm_compute. reflexivity. Qed.

Lemma dec4_tie_free : tie_free 4 dec4.
Proof. apply (no_tieb_sound 4 dec4). vm_compute. reflexivity. Qed.

(** The doubles of the two labels differ in the last bit, so hpsp lists 3/10 twice. *)
Example C78_nonvacuous :
  MinCutSpec bf_mincut /\ graph_on (seq 0 5) tri5 /\ simple tri5 /\ forward tri5 /\ (forall a, In a tri5 -> 0 < aw a) /\
  multiples_of 20 tri5 /\ qsum aw tri5 <= 1 /\ fine_tol 20 5 (2 * eps53) /\ 960 * n4 5 (u53 * 1) < eps53 /\
  tie_free 5 tri5 /\
  hview 5 (f_hpsp_run (binary 53) (lemon_order 5) bf_mincut eps53 (stored rw53 tri5) 5) =
    Some ([Fin (3602879701896397 # 72057594037927936); Fin (5404319552844595 # 18014398509481984); Fin (1351079888211149 # 4503599627370496)],
          [[[0;1;2;3;4]]; [[0;1];[2;3;4]]; [[0];[1];[2;3;4]]; [[0];[1];[2];[3];[4]]]%nat,
          [Fin (3602879701896397 # 72057594037927936); Fin (5404319552844595 # 18014398509481984);
           Fin (3602879701896397 # 72057594037927936); Fin (1351079888211149 # 4503599627370496);
           Fin (1351079888211149 # 4503599627370496)], [0;0;0;2;2]%nat) /\
  hview 5 (hpsp_run bf_mincut tol tri5 5) =
    Some ([Fin (1#20); Fin (3#10)], [[[0;1;2;3;4]]; [[0;1];[2;3;4]]; [[0];[1];[2];[3];[4]]]%nat,
          [Fin (1#20); Fin (3#10); Fin (1#20); Fin (3#10); Fin (3#10)], [0;0;0;2;2]%nat).
Proof.
  split; [apply bf_mincut_spec|].
  split; [apply tri5_ok|]. split; [apply tri5_ok|]. split; [apply tri5_ok|]. split; [apply tri5_ok|]. split; [apply tri5_ok|].
  split; [vm_compute; discriminate|]. split; [reflexivity|]. split; [reflexivity|]. split; [apply tri5_tie_free|].
  split; vm_compute; reflexivity.
Qed.

(** So the sequence is right but critical values may repeat, unlike in exact arithmetic (C19). *)
Theorem C78_hpsp_double_strict_refuted :
  ~ (forall mc n E W D, MinSinkCutSpec mc -> (2 <= n)%nat ->
       graph_on (seq 0 n) E -> simple E -> forward E -> (forall a, In a E -> 0 < aw a) ->
       qsum aw E <= W -> 1 <= W -> multiples_of D E -> fine_tol D n (2 * eps53) -> 960 * n4 n (u53 * W) < eps53 ->
       tie_free n E ->
       exists h lams, f_hpsp_run (binary 53) (lemon_order n) mc eps53 (stored rw53 E) n = Ok h /\
         IsPSP E (seq 0 n) lams (ho_psp h)).
Proof.
  intro H. destruct tri5_ok as (G & S & F & Po & M).
  destruct (H bf_mincut 5%nat tri5 1 20%positive bf_minsink_spec ltac:(lia) G S F Po ltac:(vm_compute; discriminate)
              ltac:(lra) M ltac:(reflexivity) ltac:(reflexivity) tri5_tie_free) as (h & lams & R & K).
  destruct C78_nonvacuous as (_ & _ & _ & _ & _ & _ & _ & _ & _ & _ & V & V').
  rewrite R in V. injection V as _ V _ _.
  destruct (C19_hpsp_exact bf_mincut tol tri5 5 20%positive bf_minsink_spec ltac:(reflexivity) ltac:(lia) G S F)
    as (lams' & Ps' & W & Kv & G' & R' & K'); auto.
  { intros a Ha. simpl in Ha. unfold tol. intuition (subst; simpl; lra). }
  { reflexivity. }
  rewrite R' in V'. injection V' as _ V' _ _. cbn [ho_psp] in V'.
  destruct (psp_unique tri5 (seq 0 5) (seq_NoDup 5 0) G lams (ho_psp h) lams' Ps' K K') as [_ X].
  rewrite V, V' in X. apply Forall2_len in X. discriminate.
Qed.
Print Assumptions C78_hpsp_double_strict_refuted.
