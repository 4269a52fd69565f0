(** * Property C93: class PDT_R in floating-point arithmetic (psp/pmf_r.cpp). *)
From Coq Require Import Qabs Sorted.
From Verif Require Import Base Graph Spec MSets SetsThy MGraph MaxFlow CutThy MDil DilThy BFThy
  MDT SeqThy PartThy DTThy PSPThy DTTop MPMF DilApprox ApproxThy MFloat FloatThy FloatDil FloatDT
  MFloatT FloatLam FloatPar FloatSlice FloatPDT FloatMono NearExact PSPIThy PropDil PropDT PropPDT PropApprox PropFloat
  FloatPsp FloatPspRun FloatPspLoop PropFloatP PropFloatT MTrim TrimThy MPMFR PMFRThy MFloatR FloatSliceR.

Theorem f_pdtr_near u o : 0 <= u -> u <= 1 -> std_model u o -> mono_ops2 o -> forall n, (1 <= n)%nat -> forall W, 1 <= W ->
  forall eps, 0 < eps -> 32 * (qn n * (u * (60 * (qn n * W)))) <= eps -> 2000 * (qn n * (qn n * (qn n * (qn n * eps)))) <= 1 ->
  forall d, d <= eps -> forall it ita itn, (forall G, Permutation (ita G) G) -> (forall G, Permutation (itn G) G) ->
  forall mc mr sch, SinkSideSpecR d n mc -> SrcSideSpecR d n mr ->
  forall E, Permutation (it E) E -> graph_on (seq 0 n) E -> simple E -> forward E -> (forall a, In a E -> eps <= aw a) ->
  total E <= W -> forall il, - (1#5) <= il -> il <= - (1#20) ->
  (True /\ f_pdtr_run o it ita itn mc mr sch eps il E n = Throw) \/
  exists cs Ps, f_pdtr_run o it ita itn mc mr sch eps il E n = Ok (map Fin cs, Ps) /\ IsNearPSP E (seq 0 n) (fdel n eps) cs Ps /\
    Forall (Qle il) cs.
Proof.
  intros Hu Hu1 Ho Hm n Hn W HW eps He Hnu Hsm d Hd it ita itn Hita Hitn mc mr sch Hmc Hmr E Hit HE Hs Hf Hw HWE il H1 H2.
  set (N := qn n) in *.
  assert (N1 : 1 <= N) by (change 1 with (qn 1); apply qn_le; lia).
  assert (e1 : eps <= N * eps) by (apply ge1_mul; lra).
  assert (e2 : N * eps <= N * (N * eps)) by (apply ge1_mul; lra).
  assert (e3 : N * (N * eps) <= N * (N * (N * eps))) by (apply ge1_mul; lra).
  assert (e4 : N * (N * (N * eps)) <= N * (N * (N * (N * eps)))) by (apply ge1_mul; lra).
  assert (HepsN : 32 * (N * (N * eps)) <= 1) by lra.
  apply (f_pdt_near_gen u o Hu Ho n Hn W HW eps He Hnu Hsm it E Hit HE Hs Hf HWE il H1 H2 True
           (fun j y => f_pmfr_run o it ita itn mc mr (sch j) eps il E n j y)).
  intros j y Hj I2 Ia Ig Ir HX. assert (Hjn : (j < n)%nat) by lia.
  destruct (fr_run_ok u o Hu Hu1 Ho Hm n W HW eps He Hnu HepsN d Hd it ita Hita itn Hitn mc mr Hmc Hmr E Hit j Hjn HE Hs Hf Hw HWE
              y I2 Ia Ig Ir (sch j) il H1 ltac:(lra) HX) as [R|K]; [left|right]; auto.
Qed.

(** ** C93: run() of class PDT_R *)
Lemma binary_mono2 p : (1 <= p)%Z -> mono_ops2 (binary p).
Proof.
  intro Hp. split; [apply binary_mono; auto|]. intros a a' b H. cbn. apply rnd_mono; auto. lra.
Qed.

Theorem C93_pdt_r_floating_point : forall u o it ita itn mc mr sch d n E rw W eps il,
  0 <= u -> std_model u o -> mono_ops2 o ->
  Permutation (it (stored rw E)) (stored rw E) -> (forall G, Permutation (ita G) G) -> (forall G, Permutation (itn G) G) ->
  d <= eps -> SinkSideSpecR d n mc -> SrcSideSpecR d n mr -> (1 <= n)%nat ->
  graph_on (seq 0 n) E -> simple E -> forward E -> rounds u rw E -> (forall a, In a E -> eps <= rw a) ->
  qsum aw E <= W -> 1 <= W -> 0 < eps ->
  3840 * (qn n * (qn n * (u * W))) <= eps -> 2000 * n4 n eps <= 1 -> - (1#5) <= il <= - (1#20) ->
  f_pdtr_run o it ita itn mc mr sch eps il (stored rw E) n = Throw \/
  exists cs Ps, f_pdtr_run o it ita itn mc mr sch eps il (stored rw E) n = Ok (map Fin cs, Ps) /\
    IsNearPSP E (seq 0 n) (65 * n4 n eps) cs Ps /\ Forall (Qle il) cs.
Proof.
  intros u o it ita itn mc mr sch d n E rw W eps il Hu Ho Hm Hit Hita Hitn Hd Hmc Hmr Hn HE Hs Hf Hr Hw HW HW1 He H2 H4 [Hi1 Hi2].
  assert (Hnn := graph_on_nonneg _ _ HE).
  assert (N1 : 1 <= qn n) by (change 1 with (qn 1); apply qn_le; lia).
  assert (NE1 : eps <= qn n * eps) by (apply ge1_mul; lra).
  assert (NE2 : qn n * eps <= qn n * (qn n * eps)) by (apply ge1_mul; lra).
  assert (NE3 : qn n * (qn n * eps) <= qn n * (qn n * (qn n * eps))) by (apply ge1_mul; lra).
  assert (NE4 : qn n * (qn n * (qn n * eps)) <= n4 n eps) by (rewrite n4_eq; apply ge1_mul; lra).
  assert (UW : u <= u * W) by (assert (0 <= u * (W - 1)) by (apply Qmult_le_0_compat; lra); lra).
  assert (U1 : u * W <= qn n * (u * W)) by (apply ge1_mul; lra).
  assert (U2 : qn n * (u * W) <= qn n * (qn n * (u * W))) by (apply ge1_mul; lra).
  set (F := stored rw E).
  assert (HF : graph_on (seq 0 n) F) by (apply (rounds_on u); auto; lra).
  assert (HWF : total F <= 2 * W).
  { unfold total, F, stored. rewrite qsum_map. apply Qle_trans with (qsum (fun a => 2 * aw a) E).
    - apply qsum_le. intros a Ha. cbn [aw]. specialize (Hr a Ha). apply Qabs_Qle_condition in Hr. specialize (Hnn a Ha).
      assert (0 <= (1 - u) * aw a) by (apply Qmult_le_0_compat; lra). lra.
    - rewrite qsum_scal. lra. }
  destruct (f_pdtr_near u o Hu ltac:(lra) Ho Hm n Hn (2 * W) ltac:(lra) eps He) with (d := d) (it := it) (ita := ita) (itn := itn)
    (mc := mc) (mr := mr) (sch := sch) (E := F) (il := il) as [[_ R]|(cs & Ps & R1 & R2 & R3)]; auto.
  - assert (X : 32 * (qn n * (u * (60 * (qn n * (2 * W))))) == 3840 * (qn n * (qn n * (u * W)))) by ring. rewrite X. auto.
  - unfold simple, F, stored. rewrite map_map. exact Hs.
  - intros b Hb. apply in_map_iff in Hb. destruct Hb as (a & <- & Ha). apply (Hf a Ha).
  - intros b Hb. apply in_map_iff in Hb. destruct Hb as (a & <- & Ha). apply (Hw a Ha).
  - right. exists cs, Ps. split; auto. split; auto.
    eapply full_sequence_mono; [intros a b K; exact K| |exact R2]. intros lam P HP. cbv beta in HP.
    assert (HT : total E <= W) by exact HW.
    assert (T0 : u * total E <= u * W) by (assert (0 <= u * (W - total E)) by (apply Qmult_le_0_compat; auto; lra); lra).
    assert (K := near_transfer E F (seq 0 n) lam _ (u * total E) P (fun R _ => stored_crossing u rw E R Hu Hr Hnn) HP).
    destruct K as [K1 K2]. split; auto. intros S HS. specialize (K2 S HS).
    assert (V : fdel n eps == 64 * n4 n eps) by (unfold fdel; rewrite n4_eq; ring). lra.
Qed.
Print Assumptions C93_pdt_r_floating_point.

(** On weights that are multiples of 1/D the partitions are exactly the right ones. *)
Theorem C93_pdt_r_floating_point_exact : forall u o it ita itn mc mr sch d n E rw W eps il D,
  0 <= u -> std_model u o -> mono_ops2 o ->
  Permutation (it (stored rw E)) (stored rw E) -> (forall G, Permutation (ita G) G) -> (forall G, Permutation (itn G) G) ->
  d <= eps -> SinkSideSpecR d n mc -> SrcSideSpecR d n mr -> (2 <= n)%nat ->
  graph_on (seq 0 n) E -> simple E -> forward E -> rounds u rw E -> (forall a, In a E -> 0 < aw a) ->
  qsum aw E <= W -> 1 <= W -> 0 < eps ->
  3840 * (qn n * (qn n * (u * W))) <= eps -> 2000 * n4 n eps <= 1 -> - (1#5) <= il <= - (1#20) ->
  multiples_of D E -> fine_tol D n (qn n * (65 * n4 n eps)) ->
  f_pdtr_run o it ita itn mc mr sch eps il (stored rw E) n = Throw \/
  exists fs lams Ps, f_pdtr_run o it ita itn mc mr sch eps il (stored rw E) n = Ok (fs, Ps) /\
    IsWeakPSP E (seq 0 n) lams Ps /\ slopes E lams Ps /\ Forall2 (within_of (65 * n4 n eps)) fs lams.
Proof.
  intros u o it ita itn mc mr sch d n E rw W eps il D Hu Ho Hm Hit Hita Hitn Hd Hmc Hmr Hn HE Hs Hf Hr Hw HW HW1 He H2 H4 Hi HD Ht.
  assert (N2 : 2 <= qn n) by (change 2 with (qn 2); apply qn_le; lia).
  assert (NE1 : eps <= qn n * eps) by (apply ge1_mul; lra).
  assert (NE2 : qn n * eps <= qn n * (qn n * eps)) by (apply ge1_mul; lra).
  assert (NE3 : qn n * (qn n * eps) <= qn n * (qn n * (qn n * eps))) by (apply ge1_mul; lra).
  assert (NE4 : qn n * (qn n * (qn n * eps)) <= n4 n eps) by (rewrite n4_eq; apply ge1_mul; lra).
  assert (NE5 : 65 * n4 n eps <= qn n * (65 * n4 n eps)) by (apply ge1_mul; lra).
  assert (UW : u <= u * W) by (assert (0 <= u * (W - 1)) by (apply Qmult_le_0_compat; lra); lra).
  assert (U1 : u * W <= qn n * (u * W)) by (apply ge1_mul; lra).
  assert (U2 : qn n * (u * W) <= qn n * (qn n * (u * W))) by (apply ge1_mul; lra).
  assert (He2 : forall a, In a E -> eps <= rw a).
  { intros a Ha. destruct (HD a Ha) as (z & Hz). assert (P := Hw a Ha).
    unfold fine_tol in Ht. set (DD := Zpos D # 1) in *. assert (HDD : 0 < DD) by reflexivity.
    assert (M : aw a * DD == inject_Z z).
    { rewrite Hz. unfold DD, Qeq, Qmult, inject_Z. simpl. lia. }
    assert (Z1 : 1 <= aw a * DD).
    { assert (K : 0 < aw a * DD) by (apply Qmult_lt_0_compat; auto). rewrite M in *.
      unfold Qlt, Qle, inject_Z in *. simpl in *. lia. }
    assert (A1 : 0 <= (qn n * (65 * n4 n eps) - 2 * eps) * DD) by (apply Qmult_le_0_compat; lra).
    assert (A2 : 0 <= qn n * (65 * n4 n eps) * DD * (qn n - 2)).
    { apply Qmult_le_0_compat; [apply Qmult_le_0_compat|]; lra. }
    specialize (Hr a Ha). apply Qabs_Qle_condition in Hr.
    assert (A3 : 0 <= ((1#2) - u) * aw a) by (apply Qmult_le_0_compat; lra).
    destruct (Qlt_le_dec (rw a) eps) as [C|C]; auto. exfalso.
    assert (A4 : aw a < 2 * eps) by lra.
    assert (0 < (2 * eps - aw a) * DD) by (apply Qmult_lt_0_compat; lra). lra. }
  destruct (C93_pdt_r_floating_point u o it ita itn mc mr sch d n E rw W eps il) as [R|(cs & Ps & R1 & R2 & _)]; auto; [lia|].
  right. destruct (near_exact E n Hn HE D HD (65 * n4 n eps) ltac:(lra) Ht cs Ps R2) as (lams & K1 & K2 & K3).
  exists (map Fin cs), lams, Ps. split; auto. split; auto. split; auto.
  clear -K3. induction K3; cbn [map]; constructor; auto. exists x. split; auto. apply near_abs. auto.
Qed.
Print Assumptions C93_pdt_r_floating_point_exact.

(** In particular for doubles and the library's constants: whichever thread finishes first, and in whatever order
    the sums over the arcs of a node and over the arcs of a network are taken. *)
Theorem C93_pdt_r_double : forall mc mr sch ita itn n E W D, MinSinkCutSpec mc -> MinSrcCutSpec mr ->
  (forall G, Permutation (ita G) G) -> (forall G, Permutation (itn G) G) -> (2 <= n)%nat ->
  graph_on (seq 0 n) E -> simple E -> forward E -> (forall a, In a E -> 0 < aw a) -> qsum aw E <= W -> 1 <= W ->
  3840 * (qn n * (qn n * (u53 * W))) <= eps53 -> 2000 * n4 n eps53 <= 1 ->
  multiples_of D E -> fine_tol D n (qn n * (65 * n4 n eps53)) ->
  f_pdtr_run (binary 53) (lemon_order n) ita itn mc mr sch eps53 il53 (stored rw53 E) n = Throw \/
  exists fs lams Ps,
    f_pdtr_run (binary 53) (lemon_order n) ita itn mc mr sch eps53 il53 (stored rw53 E) n = Ok (fs, Ps) /\
    IsWeakPSP E (seq 0 n) lams Ps /\ slopes E lams Ps /\ Forall2 (within_of (65 * n4 n eps53)) fs lams.
Proof.
  intros mc mr sch ita itn n E W D Hmc Hmr Hita Hitn Hn HE Hs Hf Hw HW HW1 H2 H4 HD Ht.
  assert (Hr : rounds u53 rw53 E) by (apply rw53_rounds; exact (graph_on_nonneg _ _ HE)).
  apply (C93_pdt_r_floating_point_exact u53 (binary 53) (lemon_order n) ita itn mc mr sch 0 n E rw53 W eps53 il53 D); auto.
  - vm_compute. discriminate.
  - apply binary_std.
  - apply binary_mono2. lia.
  - apply lemon_order_perm. apply (rounds_on u53); auto. vm_compute. discriminate.
  - vm_compute. discriminate.
  - apply sideR_of_exact. auto.
  - apply srcR_of_exact. auto.
  - reflexivity.
  - split; vm_compute; discriminate.
Qed.
Print Assumptions C93_pdt_r_double.

(** The run on doubles with the two workers of TrimThy; LEMON's iterators visit the arcs added last first. *)
Definition pdtr53 (sch : nat -> list bool -> bool) (E : graph) (n : nat) : res (list dbl * list cpart) :=
  f_pdtr_run (binary 53) (lemon_order n) (@rev arc) (@rev narc) aug_mincut (rev_solver aug_mincut) sch eps53 il53 (stored rw53 E) n.

Lemma pdtr53_eq sch E n : pdtr53 sch E n =
  f_pdtr_run (binary 53) (lemon_order n) (@rev arc) (@rev narc) aug_mincut (rev_solver aug_mincut) sch eps53 il53 (stored rw53 E) n.
Proof. reflexivity. Qed.

(** [star4] meets the premises; as in [pdt_star4_double] the critical value 1/5 is listed twice, whichever
    worker is always the first. *)
Example pdtr_star4_double :
  pdtr53 (fun _ _ => true) star4 4 =
    Ok ([Fin (3602879701896397 # 36028797018963968); Fin (3602879701896397 # 18014398509481984);
         Fin (7205759403792795 # 36028797018963968)],
        [[[0;1;2;3]]; [[0;2;3];[1]]; [[0;2];[1];[3]]; [[0];[1];[2];[3]]]%nat) /\
  pdtr53 (fun _ _ => false) star4 4 = pdtr53 (fun _ _ => true) star4 4.
Proof. split; vm_compute; reflexivity. Qed.

Example C93_nonvacuous :
  MinSinkCutSpec aug_mincut /\ MinSrcCutSpec (rev_solver aug_mincut) /\ graph_on (seq 0 4) star4 /\ simple star4 /\ forward star4 /\
  (forall a, In a star4 -> 0 < aw a) /\ qsum aw star4 <= 1 /\
  3840 * (qn 4 * (qn 4 * (u53 * 1))) <= eps53 /\ 2000 * n4 4 eps53 <= 1 /\ multiples_of 10 star4 /\
  fine_tol 10 4 (qn 4 * (65 * n4 4 eps53)) /\
  exists fs lams Ps, pdtr53 (fun _ _ => false) star4 4 = Ok (fs, Ps) /\
    IsWeakPSP star4 (seq 0 4) lams Ps /\ slopes star4 lams Ps /\ length Ps = 4%nat /\
    Forall2 (within_of (65 * n4 4 eps53)) fs lams.
Proof.
  destruct star4_ok as (G & S & F & Po & M).
  assert (Rv := rev_solver_spec _ aug_mincut_spec).
  split; [apply aug_mincut_spec|]. split; auto. split; auto. split; auto. split; auto. split; auto.
  split; [vm_compute; discriminate|]. split; [vm_compute; discriminate|]. split; [vm_compute; discriminate|].
  split; auto. split; [reflexivity|].
  destruct (C93_pdt_r_double aug_mincut (rev_solver aug_mincut) (fun _ _ => false) (@rev arc) (@rev narc) 4 star4 1 10 aug_mincut_spec Rv
    (fun G => Permutation_sym (Permutation_rev G)) (fun G => Permutation_sym (Permutation_rev G)) ltac:(lia) G S F Po
    ltac:(vm_compute; discriminate) ltac:(lra)
    ltac:(vm_compute; discriminate) ltac:(vm_compute; discriminate) M ltac:(reflexivity)) as [R|(fs & lams & Ps & R & K1 & K2 & K3)];
    rewrite pdtr53_eq;
    assert (V := eq_trans (proj2 pdtr_star4_double) (proj1 pdtr_star4_double)); rewrite pdtr53_eq in V.
  - rewrite V in R. discriminate R.
  - exists fs, lams, Ps. split; [exact R|]. split; [exact K1|]. split; [exact K2|]. split; [|exact K3].
    clear -R V. rewrite V in R. injection R as _ <-. reflexivity.
Qed.

(** ** C94: the exception and the repeated values *)

(** On [edge6] the run throws, whichever worker is always the first. *)
Example pdtr_edge6_double :
  pdtr53 (fun _ _ => true) edge6 6 = Throw /\ pdtr53 (fun _ _ => false) edge6 6 = Throw.
Proof. split; vm_compute; reflexivity. Qed.

(** The premises are those of [C93_pdt_r_floating_point] for doubles; [b] tells which of the two workers always wins. *)
Theorem C94_pdt_r_double_returns_refuted : forall b,
  ~ (forall mc mr ita itn n E W, MinSinkCutSpec mc -> MinSrcCutSpec mr ->
       (forall G, Permutation (ita G) G) -> (forall G, Permutation (itn G) G) -> (1 <= n)%nat ->
       graph_on (seq 0 n) E -> simple E -> forward E -> (forall a, In a E -> eps53 <= rw53 a) ->
       qsum aw E <= W -> 1 <= W ->
       3840 * (qn n * (qn n * (u53 * W))) <= eps53 -> 2000 * n4 n eps53 <= 1 ->
       exists r, f_pdtr_run (binary 53) (lemon_order n) ita itn mc mr (fun _ _ => b) eps53 il53 (stored rw53 E) n = Ok r).
Proof.
  intros b H. destruct (H aug_mincut (rev_solver aug_mincut) (@rev arc) (@rev narc) 6%nat edge6 2) as (r & R);
    [apply aug_mincut_spec|apply rev_solver_spec; apply aug_mincut_spec| | |lia| | | | | | | | |].
  - intro G. apply Permutation_sym, Permutation_rev.
  - intro G. apply Permutation_sym, Permutation_rev.
  - intros a Ha. simpl in Ha. intuition (subst; simpl; auto 10; lra).
  - unfold simple; simpl; repeat constructor; simpl; intuition congruence.
  - intros a Ha. simpl in Ha. intuition (subst; simpl; lia).
  - intros a Ha. simpl in Ha. intuition (subst; vm_compute; discriminate).
  - vm_compute. discriminate.
  - lra.
  - vm_compute. discriminate.
  - vm_compute. discriminate.
  - destruct b; [assert (K := proj1 pdtr_edge6_double)|assert (K := proj2 pdtr_edge6_double)];
      rewrite pdtr53_eq in K; rewrite K in R; discriminate R.
Qed.
Print Assumptions C94_pdt_r_double_returns_refuted.

Lemma pdtr_star4_both b : pdtr53 (fun _ _ => b) star4 4 =
    Ok ([Fin (3602879701896397 # 36028797018963968); Fin (3602879701896397 # 18014398509481984);
         Fin (7205759403792795 # 36028797018963968)],
        [[[0;1;2;3]]; [[0;2;3];[1]]; [[0;2];[1];[3]]; [[0];[1];[2];[3]]]%nat).
Proof. destruct b; [exact (proj1 pdtr_star4_double)|exact (eq_trans (proj2 pdtr_star4_double) (proj1 pdtr_star4_double))]. Qed.

(** The critical values listed may repeat, with a partition in between that is no solution at any other value. *)
Theorem C94_pdt_r_double_strict_refuted : forall b,
  ~ (forall mc mr ita itn n E W D, MinSinkCutSpec mc -> MinSrcCutSpec mr ->
       (forall G, Permutation (ita G) G) -> (forall G, Permutation (itn G) G) -> (2 <= n)%nat ->
       graph_on (seq 0 n) E -> simple E -> forward E -> (forall a, In a E -> 0 < aw a) ->
       qsum aw E <= W -> 1 <= W -> multiples_of D E -> fine_tol D n (2 * eps53) -> 960 * n4 n (u53 * W) < eps53 ->
       exists L lams Ps,
         f_pdtr_run (binary 53) (lemon_order n) ita itn mc mr (fun _ _ => b) eps53 il53 (stored rw53 E) n = Ok (L, Ps) /\
         IsPSP E (seq 0 n) lams Ps).
Proof.
  intros b H. destruct star4_ok as (G & S & F & Po & M).
  destruct (H aug_mincut (rev_solver aug_mincut) (@rev arc) (@rev narc) 4%nat star4 1 10%positive aug_mincut_spec
              (rev_solver_spec _ aug_mincut_spec) (fun G => Permutation_sym (Permutation_rev G))
              (fun G => Permutation_sym (Permutation_rev G)) ltac:(lia) G S F Po ltac:(vm_compute; discriminate)
              ltac:(lra) M ltac:(reflexivity) ltac:(reflexivity)) as (L & lams & Ps & R & K).
  assert (V := pdtr_star4_both b). rewrite pdtr53_eq in V. rewrite V in R. injection R as _ <-.
  destruct (C27_pdt_exact bf_mincut tol star4 4 10%positive bf_minsink_spec ltac:(reflexivity) ltac:(lia) G S F)
    as (lams' & Ps' & R' & K').
  { intros a Ha. simpl in Ha. unfold tol. intuition (subst; simpl; lra). }
  { exact M. }
  { reflexivity. }
  rewrite (proj2 pdt_star4_double) in R'. injection R' as _ V'. subst Ps'.
  destruct (psp_unique star4 (seq 0 4) (seq_NoDup 4 0) G _ _ _ _ K K') as [_ U].
  apply Forall2_len in U. discriminate.
Qed.
Print Assumptions C94_pdt_r_double_strict_refuted.
