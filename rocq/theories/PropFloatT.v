(** * Properties C79-C82: class PDT in floating-point arithmetic (psp/pmf.cpp). *)
From Coq Require Import Qabs Sorted.
From Verif Require Import Base Graph Spec MSets SetsThy MGraph MaxFlow CutThy MDil DilThy BFThy
  MDT SeqThy PartThy DTThy PSPThy DTTop MPMF DilApprox ApproxThy MFloat FloatThy FloatDil FloatDT
  MFloatT FloatLam FloatPar FloatSlice FloatPDT FloatMono NearExact PSPIThy PropDil PropDT PropPDT PropApprox PropFloat FloatPsp FloatPspRun FloatPspLoop PropFloatP.

(** Two equal weights at a node of degree three. *)
Definition star4 : graph := [mkArc 0 2 (1#5); mkArc 1 2 (1#10); mkArc 2 3 (1#5)].
Lemma star4_ok : graph_on (seq 0 4) star4 /\ simple star4 /\ forward star4 /\ (forall a, In a star4 -> 0 < aw a) /\
  multiples_of 10 star4.
Proof.
  split; [intros a H; simpl in H; intuition (subst; simpl; auto 10; lra)|].
  split; [unfold simple; simpl; repeat constructor; simpl; intuition congruence|].
  split; [intros a H; simpl in H; intuition (subst; simpl; lia)|].
  split; [intros a H; simpl in H; intuition (subst; simpl; lra)|].
  intros a H; simpl in H; destruct H as [<-|[<-|[<-|[]]]]; [exists 2%Z|exists 1%Z|exists 2%Z]; reflexivity.
Qed.

(** init_lambda = -0.1 as a double (psp/pmf.cpp:124). *)
Definition il53 : Q := rnd 53 (- (1#10)).

(** The critical value 1/5 is listed twice, with two doubles next to each other and a partition in between. *)
Example pdt_star4_double :
  f_pdt_run (binary 53) (lemon_order 4) (fun N => N) bf_mincut eps53 il53 (stored rw53 star4) 4 =
    Ok ([Fin (3602879701896397 # 36028797018963968); Fin (3602879701896397 # 18014398509481984);
         Fin (7205759403792795 # 36028797018963968)],
        [[[0;1;2;3]]; [[0;2;3];[1]]; [[0;2];[1];[3]]; [[0];[1];[2];[3]]]%nat) /\
  pdt_run bf_mincut tol star4 4 =
    Ok ([Fin (1#10); Fin (1#5)], [[[0;1;2;3]]; [[0;2;3];[1]]; [[0];[1];[2];[3]]]%nat).
Proof. split; vm_compute; reflexivity. Qed.

(** Under the premises of [C76_psp_i_double] and with max flows whose sink sides are minimal, the critical
    values listed by pdt may repeat, unlike in exact arithmetic (C27). *)
Theorem C79_pdt_double_strict_refuted :
  ~ (forall mc n E W D, MinSinkCutSpec mc -> (2 <= n)%nat ->
       graph_on (seq 0 n) E -> simple E -> forward E -> (forall a, In a E -> 0 < aw a) ->
       qsum aw E <= W -> 1 <= W -> multiples_of D E -> fine_tol D n (2 * eps53) -> 960 * n4 n (u53 * W) < eps53 ->
       exists L lams Ps,
         f_pdt_run (binary 53) (lemon_order n) (fun N => N) mc eps53 il53 (stored rw53 E) n = Ok (L, Ps) /\
         IsPSP E (seq 0 n) lams Ps).
Proof.
  intro H. destruct star4_ok as (G & S & F & Po & M).
  destruct (H bf_mincut 4%nat star4 1 10%positive bf_minsink_spec ltac:(lia) G S F Po ltac:(vm_compute; discriminate)
              ltac:(lra) M ltac:(reflexivity) ltac:(reflexivity)) as (L & lams & Ps & R & K).
  rewrite (proj1 pdt_star4_double) in R. injection R as _ <-.
  destruct (C27_pdt_exact bf_mincut tol star4 4 10%positive bf_minsink_spec ltac:(reflexivity) ltac:(lia) G S F)
    as (lams' & Ps' & R' & K').
  { intros a Ha. simpl in Ha. unfold tol. intuition (subst; simpl; lra). }
  { exact M. }
  { reflexivity. }
  rewrite (proj2 pdt_star4_double) in R'. injection R' as _ V. subst Ps'.
  destruct (psp_unique star4 (seq 0 4) (seq_NoDup 4 0) G _ _ _ _ K K') as [_ U].
  apply Forall2_len in U. discriminate.
Qed.
Print Assumptions C79_pdt_double_strict_refuted.

(** ** C80: rounding keeps the order *)
Theorem C80_binary_monotone : forall p, (1 <= p)%Z ->
  (forall a b, a <= b -> rnd p a <= rnd p b) /\ mono_ops (binary p).
Proof. intros p Hp. split; [intros a b H; apply rnd_mono; auto|apply binary_mono; auto]. Qed.
Print Assumptions C80_binary_monotone.

(** Two numbers one double apart stay apart; numbers closer than that may
    become one double, but never change places. *)
Example C80_nonvacuous :
  rnd 53 1 == 1 /\ rnd 53 (1 + (1 # 2 ^ 60)) == 1 /\ 1 < rnd 53 (1 + (1 # 2 ^ 52)) /\
  rnd 53 (1 # 10) <= rnd 53 ((1 # 10) + (1 # 10 ^ 20)) /\
  fadd (binary 53) (1 # 10) (2 # 10) <= fadd (binary 53) (1 # 10) (3 # 10).
Proof. repeat split; vm_compute; try reflexivity; discriminate. Qed.

(** ** C81: run() *)
Lemma n4_eq n x : n4 n x = qn n * (qn n * (qn n * (qn n * x))).
Proof. reflexivity. Qed.

Lemma stored_crossing u rw E R : 0 <= u -> rounds u rw E -> nonneg E ->
  near (u * total E) (crossing (stored rw E) R) (crossing E R).
Proof.
  intros Hu Hr Hn.
  assert (M : crossing (stored rw E) R == qsum (fun a => if same_part R (asrc a) (adst a) then 0 else rw a) E).
  { unfold crossing, stored. rewrite qsum_map. apply qsum_ext. intros a Ha. cbn [asrc adst aw]. reflexivity. }
  unfold near. rewrite M. unfold crossing, total. rewrite <- qsum_scal. rewrite <- !qsum_minus.
  split; apply qsum_le; intros a Ha; specialize (Hr a Ha); apply Qabs_Qle_condition in Hr;
    assert (0 <= u * aw a) by (apply Qmult_le_0_compat; auto); destruct (same_part R (asrc a) (adst a)); lra.
Qed.

Theorem C81_pdt_floating_point : forall u o it itn mc d n E rw W eps il,
  0 <= u -> std_model u o -> mono_ops o ->
  Permutation (it (stored rw E)) (stored rw E) -> (forall G, Permutation (itn G) G) ->
  d <= eps -> SinkSideSpec d n mc -> (1 <= n)%nat ->
  graph_on (seq 0 n) E -> simple E -> forward E -> rounds u rw E -> (forall a, In a E -> eps <= rw a) ->
  qsum aw E <= W -> 1 <= W -> 0 < eps ->
  3840 * (qn n * (qn n * (u * W))) <= eps -> 2000 * n4 n eps <= 1 -> - (1#5) <= il <= - (1#20) ->
  f_pdt_run o it itn mc eps il (stored rw E) n = Throw \/
  exists cs Ps, f_pdt_run o it itn mc eps il (stored rw E) n = Ok (map Fin cs, Ps) /\
    IsNearPSP E (seq 0 n) (65 * n4 n eps) cs Ps /\ Forall (Qle il) cs.
Proof.
  intros u o it itn mc d n E rw W eps il Hu Ho Hm Hit Hitn Hd Hmc Hn HE Hs Hf Hr Hw HW HW1 He H2 H4 [Hi1 Hi2].
  assert (Hnn := graph_on_nonneg _ _ HE).
  assert (N1 : 1 <= qn n) by (change 1 with (qn 1); apply qn_le; lia).
  assert (NE1 : eps <= qn n * eps) by (apply ge1_mul; lra).
  assert (NE2 : qn n * eps <= qn n * (qn n * eps)) by (apply ge1_mul; lra).
  assert (NE3 : qn n * (qn n * eps) <= qn n * (qn n * (qn n * eps))) by (apply ge1_mul; lra).
  assert (NE4 : qn n * (qn n * (qn n * eps)) <= n4 n eps) by (rewrite n4_eq; apply ge1_mul; lra).
  assert (UW : u <= u * W) by (assert (0 <= u * (W - 1)) by (apply Qmult_le_0_compat; lra); lra).
  assert (U1 : u * W <= qn n * (u * W)) by (apply ge1_mul; lra).
  assert (U2 : qn n * (u * W) <= qn n * (qn n * (u * W))) by (apply ge1_mul; lra).
  set (F := stored rw E).
  assert (HF : graph_on (seq 0 n) F) by (apply (rounds_on u); auto; lra).
  assert (HWF : total F <= 2 * W).
  { unfold total, F, stored. rewrite qsum_map. apply Qle_trans with (qsum (fun a => 2 * aw a) E).
    - apply qsum_le. intros a Ha. cbn [aw]. specialize (Hr a Ha). apply Qabs_Qle_condition in Hr. specialize (Hnn a Ha).
      assert (0 <= (1 - u) * aw a) by (apply Qmult_le_0_compat; lra). lra.
    - rewrite qsum_scal. lra. }
  destruct (f_pdt_near u o Hu ltac:(lra) Ho Hm n Hn (2 * W) ltac:(lra) eps He) with (d := d) (it := it) (itn := itn) (mc := mc)
    (E := F) (il := il) as [[_ R]|(cs & Ps & R1 & R2 & R3)]; auto.
  - assert (X : 32 * (qn n * (u * (60 * (qn n * (2 * W))))) == 3840 * (qn n * (qn n * (u * W)))) by ring. rewrite X. auto.
  - unfold simple, F, stored. rewrite map_map. exact Hs.
  - intros b Hb. apply in_map_iff in Hb. destruct Hb as (a & <- & Ha). apply (Hf a Ha).
  - intros b Hb. apply in_map_iff in Hb. destruct Hb as (a & <- & Ha). apply (Hw a Ha).
  - right. exists cs, Ps. split; auto. split; auto.
    eapply full_sequence_mono; [intros a b K; exact K| |exact R2]. intros lam P HP. cbv beta in HP.
    assert (HT : total E <= W) by exact HW.
    assert (T0 : u * total E <= u * W) by (assert (0 <= u * (W - total E)) by (apply Qmult_le_0_compat; auto; lra); lra).
    assert (K := near_transfer E F (seq 0 n) lam _ (u * total E) P (fun R _ => stored_crossing u rw E R Hu Hr Hnn) HP).
    destruct K as [K1 K2]. split; auto. intros S HS. specialize (K2 S HS).
    assert (V : fdel n eps == 64 * n4 n eps) by (unfold fdel; rewrite n4_eq; ring). lra.
Qed.
Print Assumptions C81_pdt_floating_point.

(** On weights that are multiples of 1/D the partitions are exactly the right ones. *)
Theorem C81_pdt_floating_point_exact : forall u o it itn mc d n E rw W eps il D,
  0 <= u -> std_model u o -> mono_ops o ->
  Permutation (it (stored rw E)) (stored rw E) -> (forall G, Permutation (itn G) G) ->
  d <= eps -> SinkSideSpec d n mc -> (2 <= n)%nat ->
  graph_on (seq 0 n) E -> simple E -> forward E -> rounds u rw E -> (forall a, In a E -> 0 < aw a) ->
  qsum aw E <= W -> 1 <= W -> 0 < eps ->
  3840 * (qn n * (qn n * (u * W))) <= eps -> 2000 * n4 n eps <= 1 -> - (1#5) <= il <= - (1#20) ->
  multiples_of D E -> fine_tol D n (qn n * (65 * n4 n eps)) ->
  f_pdt_run o it itn mc eps il (stored rw E) n = Throw \/
  exists fs lams Ps, f_pdt_run o it itn mc eps il (stored rw E) n = Ok (fs, Ps) /\
    IsWeakPSP E (seq 0 n) lams Ps /\ slopes E lams Ps /\ Forall2 (within_of (65 * n4 n eps)) fs lams.
Proof.
  intros u o it itn mc d n E rw W eps il D Hu Ho Hm Hit Hitn Hd Hmc Hn HE Hs Hf Hr Hw HW HW1 He H2 H4 Hi HD Ht.
  assert (N2 : 2 <= qn n) by (change 2 with (qn 2); apply qn_le; lia).
  assert (NE1 : eps <= qn n * eps) by (apply ge1_mul; lra).
  assert (NE2 : qn n * eps <= qn n * (qn n * eps)) by (apply ge1_mul; lra).
  assert (NE3 : qn n * (qn n * eps) <= qn n * (qn n * (qn n * eps))) by (apply ge1_mul; lra).
  assert (NE4 : qn n * (qn n * (qn n * eps)) <= n4 n eps) by (rewrite n4_eq; apply ge1_mul; lra).
  assert (NE5 : 65 * n4 n eps <= qn n * (65 * n4 n eps)) by (apply ge1_mul; lra).
  assert (UW : u <= u * W) by (assert (0 <= u * (W - 1)) by (apply Qmult_le_0_compat; lra); lra).
  assert (U1 : u * W <= qn n * (u * W)) by (apply ge1_mul; lra).
  assert (U2 : qn n * (u * W) <= qn n * (qn n * (u * W))) by (apply ge1_mul; lra).
  assert (He2 : forall a, In a E -> eps <= rw a).
  { intros a Ha. destruct (HD a Ha) as (z & Hz). assert (P := Hw a Ha).
    unfold fine_tol in Ht. set (DD := Zpos D # 1) in *. assert (HDD : 0 < DD) by reflexivity.
    assert (M : aw a * DD == inject_Z z).
    { rewrite Hz. unfold DD, Qeq, Qmult, inject_Z. simpl. lia. }
    assert (Z1 : 1 <= aw a * DD).
    { assert (K : 0 < aw a * DD) by (apply Qmult_lt_0_compat; auto). rewrite M in *.
      unfold Qlt, Qle, inject_Z in *. simpl in *. lia. }
    assert (A1 : 0 <= (qn n * (65 * n4 n eps) - 2 * eps) * DD) by (apply Qmult_le_0_compat; lra).
    assert (A2 : 0 <= qn n * (65 * n4 n eps) * DD * (qn n - 2)).
    { apply Qmult_le_0_compat; [apply Qmult_le_0_compat|]; lra. }
    specialize (Hr a Ha). apply Qabs_Qle_condition in Hr.
    assert (A3 : 0 <= ((1#2) - u) * aw a) by (apply Qmult_le_0_compat; lra).
    destruct (Qlt_le_dec (rw a) eps) as [C|C]; auto. exfalso.
    assert (A4 : aw a < 2 * eps) by lra.
    assert (0 < (2 * eps - aw a) * DD) by (apply Qmult_lt_0_compat; lra). lra. }
  destruct (C81_pdt_floating_point u o it itn mc d n E rw W eps il) as [R|(cs & Ps & R1 & R2 & _)]; auto; [lia|].
  right. destruct (near_exact E n Hn HE D HD (65 * n4 n eps) ltac:(lra) Ht cs Ps R2) as (lams & K1 & K2 & K3).
  exists (map Fin cs), lams, Ps. split; auto. split; auto. split; auto.
  clear -K3. induction K3; cbn [map]; constructor; auto. exists x. split; auto. apply near_abs. auto.
Qed.
Print Assumptions C81_pdt_floating_point_exact.

(** In particular for doubles, the library's constants and LEMON's order of the arcs. *)
Theorem C81_pdt_double : forall mc n E W D, MinSinkCutSpec mc -> (2 <= n)%nat ->
  graph_on (seq 0 n) E -> simple E -> forward E -> (forall a, In a E -> 0 < aw a) -> qsum aw E <= W -> 1 <= W ->
  3840 * (qn n * (qn n * (u53 * W))) <= eps53 -> 2000 * n4 n eps53 <= 1 ->
  multiples_of D E -> fine_tol D n (qn n * (65 * n4 n eps53)) ->
  f_pdt_run (binary 53) (lemon_order n) (fun N => N) mc eps53 il53 (stored rw53 E) n = Throw \/
  exists fs lams Ps,
    f_pdt_run (binary 53) (lemon_order n) (fun N => N) mc eps53 il53 (stored rw53 E) n = Ok (fs, Ps) /\
    IsWeakPSP E (seq 0 n) lams Ps /\ slopes E lams Ps /\ Forall2 (within_of (65 * n4 n eps53)) fs lams.
Proof.
  intros mc n E W D Hmc Hn HE Hs Hf Hw HW HW1 H2 H4 HD Ht.
  assert (Hr : rounds u53 rw53 E) by (apply rw53_rounds; exact (graph_on_nonneg _ _ HE)).
  apply (C81_pdt_floating_point_exact u53 (binary 53) (lemon_order n) (fun N => N) mc 0 n E rw53 W eps53 il53 D); auto.
  - vm_compute. discriminate.
  - apply binary_std.
  - apply binary_mono. lia.
  - apply lemon_order_perm. apply (rounds_on u53); auto. vm_compute. discriminate.
  - vm_compute. discriminate.
  - apply side_of_exact. auto.
  - reflexivity.
  - split; vm_compute; discriminate.
Qed.
Print Assumptions C81_pdt_double.

(** [star4] meets the premises; the run returns a result there ([pdt_star4_double]), with the slope 1/5 twice. *)
Example C81_nonvacuous :
  MinSinkCutSpec bf_mincut /\ graph_on (seq 0 4) star4 /\ simple star4 /\ forward star4 /\
  (forall a, In a star4 -> 0 < aw a) /\ qsum aw star4 <= 1 /\
  3840 * (qn 4 * (qn 4 * (u53 * 1))) <= eps53 /\ 2000 * n4 4 eps53 <= 1 /\ multiples_of 10 star4 /\
  fine_tol 10 4 (qn 4 * (65 * n4 4 eps53)) /\
  exists fs lams Ps,
    f_pdt_run (binary 53) (lemon_order 4) (fun N => N) bf_mincut eps53 il53 (stored rw53 star4) 4 = Ok (fs, Ps) /\
    IsWeakPSP star4 (seq 0 4) lams Ps /\ slopes star4 lams Ps /\ length Ps = 4%nat /\
    Forall2 (within_of (65 * n4 4 eps53)) fs lams.
Proof.
  destruct star4_ok as (G & S & F & Po & M).
  split; [apply bf_minsink_spec|]. split; auto. split; auto. split; auto. split; auto.
  split; [vm_compute; discriminate|]. split; [vm_compute; discriminate|]. split; [vm_compute; discriminate|].
  split; auto. split; [reflexivity|].
  destruct (C81_pdt_double bf_mincut 4 star4 1 10 bf_minsink_spec ltac:(lia) G S F Po ltac:(vm_compute; discriminate) ltac:(lra)
    ltac:(vm_compute; discriminate) ltac:(vm_compute; discriminate) M ltac:(reflexivity)) as [R|(fs & lams & Ps & R & K1 & K2 & K3)].
  - rewrite (proj1 pdt_star4_double) in R. discriminate.
  - exists fs, lams, Ps. split; [exact R|]. split; [exact K1|]. split; [exact K2|]. split; [|exact K3].
    clear -R. rewrite (proj1 pdt_star4_double) in R. injection R as _ <-. reflexivity.
Qed.

(** ** C82: the exception *)

(** The last critical value of stage 4 at node 0 lies 1e-10 below the crossing of node 0 at stage 5, and that crossing is
    the mean of the four crossings of stage 5. *)
Definition edge6 : graph := [mkArc 0 4 (4181876710297113 # 18014398509481984); mkArc 0 5 (2090938356049277 # 9007199254740992);
  mkArc 1 5 (7922779334372549 # 36028797018963968); mkArc 2 5 (7922779330769673 # 36028797018963968);
  mkArc 3 5 (2311425402762995 # 9007199254740992)].

(** Every weight is a double. In exact arithmetic the run returns. *)
Example pdt_edge6_double :
  stored rw53 edge6 = edge6 /\
  f_pdt_run (binary 53) (lemon_order 6) (fun N => N) bf_mincut eps53 il53 (stored rw53 edge6) 6 = Throw /\
  pdt_run bf_mincut tol edge6 6 =
    Ok ([Fin (7922779332571111 # 36028797018963968); Fin (4181876710297113 # 18014398509481984);
         Fin (2090938356049277 # 9007199254740992); Fin (2311425402762995 # 9007199254740992)],
        [[[0;1;2;3;4;5]]; [[0;3;4;5];[1];[2]]; [[0;3;5];[1];[2];[4]]; [[0];[1];[2];[3;5];[4]]; [[0];[1];[2];[3];[4];[5]]]%nat).
Proof. split; [|split]; vm_compute; reflexivity. Qed.

(** The premises are those of [C81_pdt_floating_point] for doubles. *)
Theorem C82_pdt_double_returns_refuted :
  ~ (forall mc n E W, MinSinkCutSpec mc -> (1 <= n)%nat ->
       graph_on (seq 0 n) E -> simple E -> forward E -> (forall a, In a E -> eps53 <= rw53 a) ->
       qsum aw E <= W -> 1 <= W ->
       3840 * (qn n * (qn n * (u53 * W))) <= eps53 -> 2000 * n4 n eps53 <= 1 ->
       exists r, f_pdt_run (binary 53) (lemon_order n) (fun N => N) mc eps53 il53 (stored rw53 E) n = Ok r).
Proof.
  intro H. destruct (H bf_mincut 6%nat edge6 2) as (r & R); [apply bf_minsink_spec|lia| | | | | | | | |].
  - intros a Ha. simpl in Ha. intuition (subst; simpl; auto 10; lra).
  - unfold simple; simpl; repeat constructor; simpl; intuition congruence.
  - intros a Ha. simpl in Ha. intuition (subst; simpl; lia).
  - intros a Ha. simpl in Ha. intuition (subst; vm_compute; discriminate).
  - vm_compute. discriminate.
  - lra.
  - vm_compute. discriminate.
  - vm_compute. discriminate.
  - rewrite (proj1 (proj2 pdt_edge6_double)) in R. discriminate.
Qed.
Print Assumptions C82_pdt_double_returns_refuted.
