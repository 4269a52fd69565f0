(** * Properties C71-C73: class DT in floating-point arithmetic (psp/dt.cpp). *)
From Coq Require Import Qabs Sorted.
From Verif Require Import Base Graph Spec MSets SetsThy MGraph MaxFlow CutThy MDil DilThy BFThy
  MDT SeqThy PartThy DTThy PSPThy DTTop DilApprox ApproxThy MFloat FloatThy FloatDil FloatDT
  PropDil PropDT PropApprox.

(** The stored weights are the given ones up to the unit roundoff. *)
Definition rounds (u : Q) (rw : arc -> Q) (E : graph) : Prop :=
  forall a, In a E -> Qabs (rw a - aw a) <= u * aw a.

(** A double within [e] of a number. *)
Definition within_of (e : Q) (x : dbl) (l : Q) : Prop := exists q, x = Fin q /\ Qabs (q - l) <= e.

(** ** C71: rounding, and the truncation in floating point *)
Theorem C71_binary_rounding : forall p, std_model (Qpower 2 (- p)) (binary p).
Proof. exact binary_std. Qed.
Print Assumptions C71_binary_rounding.

(** 1/10 as a double, and 1/10 + 2/10 in doubles. *)
Example C71_rounding_examples :
  rnd 53 (1#10) == 3602879701896397 # 36028797018963968 /\
  fadd (binary 53) (rnd 53 (1#10)) (rnd 53 (2#10)) == 1351079888211149 # 4503599627370496 /\
  ~ fadd (binary 53) (rnd 53 (1#10)) (rnd 53 (2#10)) == rnd 53 (3#10) /\
  rnd 53 9007199254740993 == 9007199254740992.
Proof. vm_compute. repeat split; intro H; discriminate. Qed.

Theorem C71_truncation_floating_point : forall u o mc d n E rw W lam,
  0 <= u -> std_model u o -> 0 <= d -> ApproxCutSpec d n mc -> (2 <= n)%nat ->
  graph_on (seq 0 n) E -> simple E -> forward E -> rounds u rw E ->
  qsum aw E <= W -> 1 <= W -> 240 * (qn n * (qn n * (qn n * (u * W)))) <= 1 -> 4 * (qn n * d) <= 1 ->
  - W <= lam <= W ->
  let e := 2 * qn n * d + 102 * (qn n * (qn n * (qn n * (u * W)))) in
  exists m P, f_run o mc lam (stored rw E) n = Ok (m, P) /\ is_partition (seq 0 n) P /\
    hval E lam P <= m + e /\ forall R, is_partition (seq 0 n) R -> m <= hval E lam R + e.
Proof.
  intros u o mc d n E rw W lam Hu Ho Hd Hmc Hn HE Hs Hf Hr HW HW1 H3 Hdn Hl e.
  assert (Q0 := qn_nonneg n).
  assert (U0 : 0 <= u * W) by (apply Qmult_le_0_compat; lra).
  assert (U2 : 0 <= NU2 u n W) by (unfold NU2, NU1; repeat (apply Qmult_le_0_compat; auto)).
  destruct (f_run_near u o mc d n E rw W Hu Ho Hd Hmc Hn HE Hs Hf Hr HW HW1 H3 Hdn lam lam Hl) as (m & P & A & B & _ & C & D).
  { split; lra. }
  exists m, P. split; auto. split; auto.
  assert (F0 : 0 <= fdelta u d n W) by (unfold fdelta; lra).
  assert (Fn : qn n * fdelta u d n W == qn n * d + 40 * NU3 u n W) by (unfold fdelta, NU3; ring).
  assert (E3 : e == 2 * (qn n * d) + 102 * NU3 u n W) by (unfold e, NU3, NU2, NU1; ring).
  assert (Lp : forall R, is_partition (seq 0 n) R -> 0 <= (qn n - qn (length R)) * fdelta u d n W).
  { intros R HR. apply Qmult_le_0_compat; auto. assert (L := part_length_le _ (seq_NoDup n 0) R HR). rewrite seq_length in L. apply qn_le in L. lra. }
  assert (Z : 0 <= qn (length P) * fdelta u d n W) by (apply Qmult_le_0_compat; auto using qn_nonneg).
  assert (N3 : 0 <= NU3 u n W) by (unfold NU3; apply Qmult_le_0_compat; auto).
  assert (nd : 0 <= qn n * d) by (apply Qmult_le_0_compat; auto).
  split; [rewrite E3; lra|]. intros R HR. specialize (D R HR). specialize (Lp R HR). rewrite E3. lra.
Qed.
Print Assumptions C71_truncation_floating_point.

(** A triangle with weights 1/10, 7/10, 3/10. *)
Definition dec3 : graph := [mkArc 0 1 (1#10); mkArc 0 2 (7#10); mkArc 1 2 (3#10)].
Definition rw53 (a : arc) : Q := rnd 53 (aw a).
Lemma rw53_rounds E : nonneg E -> rounds (Qpower 2 (- 53)) rw53 E.
Proof.
  intros H a Ha. eapply Qle_trans; [apply rnd_err|]. rewrite (Qabs_pos (aw a)) by auto. apply Qle_refl.
Qed.
Lemma dec3_ok : graph_on (seq 0 3) dec3 /\ simple dec3 /\ forward dec3 /\ multiples_of 10 dec3.
Proof.
  split; [intros a H; simpl in H; intuition (subst; simpl; auto; lra)|].
  split; [unfold simple; simpl; repeat constructor; simpl; intuition congruence|].
  split; [intros a H; simpl in H; intuition (subst; simpl; lia)|].
  intros a H; simpl in H; destruct H as [<-|[<-|[<-|[]]]]; [exists 1%Z|exists 7%Z|exists 3%Z]; reflexivity.
Qed.
Definition u53 : Q := Qpower 2 (- 53).

Example C71_truncation_nonvacuous :
  std_model u53 (binary 53) /\ ApproxCutSpec 0 3 bf_mincut /\ rounds u53 rw53 dec3 /\ graph_on (seq 0 3) dec3 /\
  qsum aw dec3 <= 2 /\ 240 * (qn 3 * (qn 3 * (qn 3 * (u53 * 2)))) <= 1 /\
  exists m, f_run (binary 53) bf_mincut (1#2) (stored rw53 dec3) 3 = Ok (m, [[0;2];[1]]%nat) /\
    ~ m == hval dec3 (1#2) [[0;2];[1]]%nat /\ near (1#1000000000000000) m (hval dec3 (1#2) [[0;2];[1]]%nat).
Proof.
  split; [apply binary_std|]. split; [apply approx_of_exact, bf_mincut_spec|].
  split; [apply rw53_rounds; apply (graph_on_nonneg _ _ (proj1 dec3_ok))|]. split; [apply dec3_ok|].
  split; [vm_compute; discriminate|]. split; [vm_compute; discriminate|].
  eexists. split; [vm_compute; reflexivity|]. split; [intro H; vm_compute in H; discriminate|]. split; vm_compute; discriminate.
Qed.

(** ** C72: run() *)
Lemma dnear_within e x l : dnear e x l -> within_of e x l.
Proof. destruct x as [q| |]; cbn; try contradiction. intro H. exists q. split; auto. apply near_abs. auto. Qed.

Theorem C72_dt_floating_point : forall u o it mc d n E rw W eps D,
  0 <= u -> std_model u o -> Permutation (it (stored rw E)) (stored rw E) -> 0 <= d -> ApproxCutSpec d n mc -> (2 <= n)%nat ->
  graph_on (seq 0 n) E -> simple E -> forward E -> rounds u rw E -> qsum aw E <= W -> 1 <= W ->
  multiples_of D E -> fine_tol D n (2 * eps) ->
  2 * qn n * d + 120 * (qn n * (qn n * (qn n * (u * W)))) < eps ->
  exists fs lams Ps, f_dt_run o it mc eps (stored rw E) n = Ok (fs, Ps) /\
    IsWeakPSP E (seq 0 n) lams Ps /\ slopes E lams Ps /\
    Forall2 (within_of (15 * (qn n * (qn n * (u * W))))) fs lams.
Proof.
  intros u o it mc d n E rw W eps D Hu Ho Hit Hd Hmc Hn HE Hs Hf Hr HW HW1 HD Ht He.
  destruct (f_dt_run_correct u o it mc d n E rw W Hu Ho Hit Hd Hmc Hn HE Hs Hf Hr HW HW1 eps D HD Ht He)
    as (fs & lams & Ps & A & B & C & K).
  exists fs, lams, Ps. split; auto. split; auto. split; auto.
  clear -K. induction K; constructor; auto. apply dnear_within. exact H.
Qed.
Print Assumptions C72_dt_floating_point.

(** Every graph is handled by some tolerance, precision and solver accuracy. *)
Theorem C72_some_precision : forall E n, (2 <= n)%nat -> graph_on (seq 0 n) E -> simple E -> forward E ->
  exists eps0, 0 < eps0 /\ forall eps, 0 < eps -> eps <= eps0 ->
  exists t, 0 < t /\ forall u o it mc d rw, 0 <= u -> u <= t -> 0 <= d -> d <= t ->
    std_model u o -> Permutation (it (stored rw E)) (stored rw E) -> ApproxCutSpec d n mc -> rounds u rw E ->
    exists fs lams Ps, f_dt_run o it mc eps (stored rw E) n = Ok (fs, Ps) /\ IsWeakPSP E (seq 0 n) lams Ps.
Proof.
  intros E n Hn HE Hs Hf. destruct (fine_tol_ex E n) as (e0 & He0 & D & HD & Ht).
  exists (e0 / 2). assert (X : e0 / 2 == e0 * (1#2)) by field. split; [lra|]. intros eps H1 H2.
  assert (T0 : 0 <= total E) by (apply qsum_nonneg; exact (graph_on_nonneg _ _ HE)).
  set (W := total E + 1). set (k := 2 * qn n + 120 * (qn n * (qn n * (qn n * W))) + 1).
  assert (Q0 := qn_nonneg n).
  assert (K3 : 0 <= qn n * (qn n * (qn n * W))) by (repeat apply Qmult_le_0_compat; auto; unfold W; lra).
  assert (Hk : 0 < k) by (unfold k; lra).
  exists (eps / k). assert (He : 0 < eps / k) by (apply Qlt_shift_div_l; [exact Hk|rewrite Qmult_0_l; exact H1]). split; auto.
  intros u o it mc d rw Hu Hu' Hd Hd' Ho Hit Hmc Hr.
  set (t := eps / k) in *. assert (Y : t * k == eps) by (unfold t; field; intro C; rewrite C in Hk; apply (Qlt_irrefl 0); exact Hk).
  destruct (f_dt_run_correct u o it mc d n E rw W Hu Ho Hit Hd Hmc Hn HE Hs Hf Hr ltac:(unfold W; lra) ltac:(unfold W; lra) eps D HD)
    as (fs & lams & Ps & A & B & _).
  - apply Ht; lra.
  - assert (A1 : 0 <= 2 * qn n * (t - d)) by (apply Qmult_le_0_compat; lra).
    assert (A2 : 0 <= (qn n * (qn n * (qn n * W))) * (t - u)) by (apply Qmult_le_0_compat; lra).
    assert (A3 : t * k == 2 * qn n * t + 120 * (qn n * (qn n * (qn n * W)) * t) + t) by (unfold k; ring). lra.
  - eauto 10.
Qed.
Print Assumptions C72_some_precision.

(** The library's tolerance as a double. *)
Definition eps53 : Q := rnd 53 (1 # 10000000000).

Lemma rounds_on u rw vs E : u <= 1 -> rounds u rw E -> graph_on vs E -> graph_on vs (stored rw E).
Proof.
  intros Hu Hr H b Hb. apply in_map_iff in Hb. destruct Hb as (a & <- & Ha). cbn [asrc adst aw].
  destruct (H a Ha) as (A & B & C). split; auto. split; auto. specialize (Hr a Ha). apply Qabs_Qle_condition in Hr.
  assert (0 <= (1 - u) * aw a) by (apply Qmult_le_0_compat; lra). lra.
Qed.

(** In particular for doubles and LEMON's order of the arcs. *)
Theorem C72_dt_double : forall mc n E W D, MinCutSpec mc -> (2 <= n)%nat ->
  graph_on (seq 0 n) E -> simple E -> forward E -> qsum aw E <= W -> 1 <= W ->
  multiples_of D E -> fine_tol D n (2 * eps53) ->
  120 * (qn n * (qn n * (qn n * (u53 * W)))) < eps53 ->
  exists fs lams Ps, f_dt_run (binary 53) (lemon_order n) mc eps53 (stored rw53 E) n = Ok (fs, Ps) /\
    IsWeakPSP E (seq 0 n) lams Ps /\ slopes E lams Ps /\
    Forall2 (within_of (15 * (qn n * (qn n * (u53 * W))))) fs lams.
Proof.
  intros mc n E W D Hmc Hn HE Hs Hf HW HW1 HD Ht He.
  assert (Hr : rounds u53 rw53 E) by (apply rw53_rounds; exact (graph_on_nonneg _ _ HE)).
  apply (C72_dt_floating_point u53 (binary 53) (lemon_order n) mc 0 n E rw53 W eps53 D); auto; try lra.
  - vm_compute. discriminate.
  - apply binary_std.
  - apply lemon_order_perm. apply (rounds_on u53); auto. vm_compute. discriminate.
  - apply approx_of_exact. auto.
Qed.
Print Assumptions C72_dt_double.

(** In doubles, with the weights 0.1, 0.7 and 0.3 rounded to doubles. *)
Example C72_nonvacuous :
  std_model u53 (binary 53) /\ ApproxCutSpec 0 3 bf_mincut /\ rounds u53 rw53 dec3 /\
  graph_on (seq 0 3) dec3 /\ simple dec3 /\ forward dec3 /\ multiples_of 10 dec3 /\
  qsum aw dec3 <= 2 /\ fine_tol 10 3 (2 * eps53) /\
  2 * qn 3 * 0 + 120 * (qn 3 * (qn 3 * (qn 3 * (u53 * 2)))) < eps53 /\
  f_dt_run (binary 53) (fun G => G) bf_mincut eps53 (stored rw53 dec3) 3 =
    Ok ([Fin (3602879701896397 # 9007199254740992); Fin (6305039478318695 # 9007199254740992)],
        [[[0;1;2]]; [[0;2];[1]]; [[0];[1];[2]]]%nat) /\
  f_dt_run (binary 53) (lemon_order 3) bf_mincut eps53 (stored rw53 dec3) 3 =
    f_dt_run (binary 53) (fun G => G) bf_mincut eps53 (stored rw53 dec3) 3 /\
  dt_run bf_mincut tol dec3 3 = Ok ([Fin (2#5); Fin (7#10)], [[[0;1;2]]; [[0;2];[1]]; [[0];[1];[2]]]%nat).
Proof.
  split; [apply binary_std|]. split; [apply approx_of_exact, bf_mincut_spec|].
  split; [apply rw53_rounds; apply (graph_on_nonneg _ _ (proj1 dec3_ok))|].
  split; [apply dec3_ok|]. split; [apply dec3_ok|]. split; [apply dec3_ok|]. split; [apply dec3_ok|].
  split; [vm_compute; discriminate|]. split; [reflexivity|]. split; [reflexivity|].
  split; [vm_compute; reflexivity|]. split; vm_compute; reflexivity.
Qed.

(** Large weights are not covered, and dt goes wrong on them: with weights 1, 2^53 and 2^53 + 2, all of them
    doubles, and exact max flows it misses the partition {0},{1,2}. *)
Definition wide3 : graph := [mkArc 0 1 1; mkArc 0 2 9007199254740992; mkArc 1 2 9007199254740994].
Theorem C72_large_weights_refuted :
  ~ (forall mc E n, MinSinkCutSpec mc -> (2 <= n)%nat -> graph_on (seq 0 n) E -> simple E -> forward E ->
       multiples_of 1 E -> fine_tol 1 n (2 * eps53) -> (forall a, In a E -> rnd 53 (aw a) == aw a) ->
       exists fs lams Ps, f_dt_run (binary 53) (lemon_order n) mc eps53 E n = Ok (fs, Ps) /\ IsWeakPSP E (seq 0 n) lams Ps).
Proof.
  intro H.
  assert (G : graph_on (seq 0 3) wide3) by (intros a Ha; simpl in Ha; intuition (subst; simpl; auto; lra)).
  assert (S : simple wide3) by (unfold simple; simpl; repeat constructor; simpl; intuition congruence).
  assert (F : forward wide3) by (intros a Ha; simpl in Ha; intuition (subst; simpl; lia)).
  assert (M : multiples_of 1 wide3).
  { intros a Ha; simpl in Ha; destruct Ha as [<-|[<-|[<-|[]]]];
      [exists 1%Z|exists 9007199254740992%Z|exists 9007199254740994%Z]; reflexivity. }
  assert (R : forall a, In a wide3 -> rnd 53 (aw a) == aw a).
  { intros a Ha; simpl in Ha; destruct Ha as [<-|[<-|[<-|[]]]]; vm_compute; reflexivity. }
  destruct (H bf_mincut wide3 3%nat bf_minsink_spec ltac:(lia) G S F M ltac:(reflexivity) R) as (fs & lams & Ps & E & K).
  vm_compute in E. injection E as _ <-. destruct K as (_ & _ & K).
  destruct lams as [|l [|l' lams]]; simpl in K; [contradiction| |tauto].
  destruct K as (_ & A & _ & _ & B).
  assert (P : is_partition (seq 0 3) [[0];[1;2]]%nat) by (split; [apply Permutation_refl|intros [C|[C|[]]]; discriminate]).
  destruct (A l I (Qle_refl l)) as [_ A']. specialize (A' _ P). destruct (B l (Qle_refl l)) as [_ B']. specialize (B' _ P).
  assert (C1 : crossing wide3 [[0;1;2]]%nat == 0) by (vm_compute; reflexivity).
  assert (C2 : crossing wide3 [[0];[1;2]]%nat == 9007199254740993) by (vm_compute; reflexivity).
  assert (C3 : crossing wide3 [[0];[1];[2]]%nat == 18014398509481987) by (vm_compute; reflexivity).
  unfold hval in A', B'. rewrite C1, C2 in A'. rewrite C2, C3 in B'. cbn [length] in A', B'.
  change (qn 1) with 1 in A', B'. change (qn 2) with 2 in A', B'. change (qn 3) with 3 in A', B'. lra.
Qed.
Print Assumptions C72_large_weights_refuted.

(** ** C73: run(partition_num) *)
Theorem C73_dt_run_num_floating_point : forall u o it mc d n E rw W eps D num,
  0 <= u -> std_model u o -> Permutation (it (stored rw E)) (stored rw E) -> 0 <= d -> ApproxCutSpec d n mc -> (2 <= n)%nat ->
  graph_on (seq 0 n) E -> simple E -> forward E -> rounds u rw E -> qsum aw E <= W -> 1 <= W ->
  multiples_of D E -> fine_tol D n (2 * eps) ->
  2 * qn n * d + 120 * (qn n * (qn n * (qn n * (u * W)))) < eps -> (2 <= num)%nat ->
  exists M lam, f_dt_run_num o it mc eps (stored rw E) n num = Ok M /\ optimal E (seq 0 n) lam M /\
    (Nat.min num n <= length M)%nat /\
    forall lam0 R, lam0 < lam -> optimal E (seq 0 n) lam0 R -> (length R <= Nat.min num n)%nat.
Proof.
  exact (fun u o it mc d n E rw W eps D num Hu Ho Hit Hd Hmc Hn HE Hs Hf Hr HW HW1 HD Ht He =>
    f_dt_run_num_correct u o it mc d n E rw W Hu Ho Hit Hd Hmc Hn HE Hs Hf Hr HW HW1 eps D HD Ht He num).
Qed.
Print Assumptions C73_dt_run_num_floating_point.

Example C73_nonvacuous :
  f_dt_run_num (binary 53) (fun G => G) bf_mincut eps53 (stored rw53 dec3) 3 2 = Ok [[0;2];[1]]%nat /\
  f_dt_run_num (binary 53) (fun G => G) bf_mincut eps53 (stored rw53 dec3) 3 3 = Ok [[0];[1];[2]]%nat /\
  f_dt_run_num (binary 53) (lemon_order 3) bf_mincut eps53 (stored rw53 dec3) 3 7 = Ok [[0];[1];[2]]%nat.
Proof. vm_compute. auto. Qed.
