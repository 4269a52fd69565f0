(** * Properties C68-C70: a max-flow solver that is only accurate up to rounding (psp/dt.cpp, psp/psp_i.cpp). *)
From Coq Require Import Sorted.
From Verif Require Import Base Graph Spec MSets SetsThy MGraph MaxFlow CutThy MDil DilThy BFThy
  MDT SeqThy PartThy DTThy PSPThy DTTop MContract MPSPI DecThy PSPIThy PSPILoop DilApprox ApproxThy
  PropDil PropDT PropPSPI.

(** A solver whose flow values are off by [c]. *)
Definition off_mincut (c : Q) : solver := fun nodes N => let r := bf_mincut nodes N in (fst r + c, snd r).

Lemma off_mincut_approx c d n : - d <= c -> c <= d -> ApproxCutSpec d n (off_mincut c).
Proof.
  intros H1 H2 nodes N HN _ _. destruct (bf_mincut_spec nodes N HN) as (A & B & C). unfold off_mincut. cbv zeta. cbn [fst snd].
  split; auto. split; [lra|]. intro Y. specialize (C Y). lra.
Qed.

Lemma off_not_exact c : ~ c == 0 -> ~ MinCutSpec (off_mincut c).
Proof.
  intros Hc H. destruct (H [] [] ltac:(split; [constructor|intros a []])) as (_ & B & _).
  assert (K : fst (off_mincut c [] []) == c) by (unfold off_mincut; cbv zeta; cbn [fst]; change (fst (bf_mincut [] [])) with 0; ring).
  apply Hc. rewrite <- K, B. reflexivity.
Qed.

(** ** C68: the truncation *)
Theorem C68_flow_accuracy : forall eta n mc, 0 <= eta ->
  (forall nodes N, net_ok nodes N -> near_flow eta nodes N (fst (mc nodes N)) (snd (mc nodes N))) ->
  ApproxCutSpec (qn (n * n + 3 * n) * eta) n mc.
Proof. exact near_flow_spec. Qed.
Print Assumptions C68_flow_accuracy.

(** A path source - 0 - sink of capacities 1 and 2 whose flow misses the capacity by 1/10. *)
Example C68_flow_nonvacuous :
  let N := [mkNarc NSrc (NV 0) 1; mkNarc (NV 0) NSnk 2] in
  net_ok [0%nat] N /\ near_flow (1#10) [0%nat] N (9#10) [0%nat] /\ ~ near_flow (1#10) [0%nat] N (7#10) [0%nat].
Proof.
  cbv zeta. split; [|split].
  - split; [repeat constructor; intros []|]. intros a [<-|[<-|[]]]; simpl; split; auto; try (split; auto); lra.
  - split; [intros x H; exact H|]. split; [repeat constructor; intros []|].
    exists [(mkNarc NSrc (NV 0) 1, 95#100); (mkNarc (NV 0) NSnk 2, 9#10)].
    split; [reflexivity|].
    split; [intros p [<-|[<-|[]]]; simpl; lra|].
    split; [intros v [<-|[]]; vm_compute; discriminate|].
    split; [intros v [<-|[]]; vm_compute; discriminate|].
    split; [intros p [<-|[<-|[]]]; simpl; try discriminate; intros; lra|].
    split; [intros p [<-|[<-|[]]]; simpl; try discriminate; intros; lra|].
    vm_compute. reflexivity.
  - intros (_ & _ & F & Hm & B & Ex & I & Full & Emp & V).
    destruct F as [|[a x] [|[b y] [|]]]; try discriminate. simpl in Hm. injection Hm as -> ->.
    specialize (Full _ (or_introl eq_refl) eq_refl eq_refl). specialize (I 0%nat (or_introl eq_refl)).
    cbn [fst snd ncap] in Full. unfold net_in in *. simpl in I, V. lra.
Qed.

Theorem C68_truncation_accuracy : forall d mc n lam E, 0 <= d -> ApproxCutSpec d n mc ->
  graph_on (seq 0 n) E -> simple E -> forward E ->
  exists m P, dt_dil_run mc lam E n = Ok (m, P) /\ is_partition (seq 0 n) P /\
    hval E lam P <= m + (2 * qn n - qn (length P)) * d /\
    (forall R, is_partition (seq 0 n) R -> m <= hval E lam R + qn (length R) * d) /\
    (forall R, is_partition (seq 0 n) R -> hval E lam P <= hval E lam R + 3 * qn n * d).
Proof.
  intros d mc n lam E Hd Hmc HE Hs Hf.
  destruct (dt_dil_approx d mc n lam E Hd Hmc HE Hs Hf) as (m & P & H1 & H2 & _ & H3 & H4).
  exists m, P. split; auto. split; auto. split; auto. split; auto. intros R HR. specialize (H4 R HR).
  assert (L := part_length_le _ (seq_NoDup n 0) R HR). rewrite seq_length in L. apply qn_le in L.
  assert (0 <= (qn n - qn (length R)) * d) by (apply Qmult_le_0_compat; lra).
  assert (0 <= qn (length P) * d) by (apply Qmult_le_0_compat; [apply qn_nonneg|auto]). lra.
Qed.
Print Assumptions C68_truncation_accuracy.

(** psp_i's truncation works on an arbitrary node list. *)
Theorem C68_subgraph_truncation_accuracy : forall d mc n lam E vs, 0 <= d -> ApproxCutSpec d n mc ->
  NoDup vs -> graph_on vs E -> simple E -> ordered E vs -> (length vs <= n)%nat ->
  let r := dil_run mc lam E vs in
  is_partition vs (snd r) /\
  hval E lam (snd r) <= fst r + (2 * qn (length vs) - qn (length (snd r))) * d /\
  forall R, is_partition vs R -> fst r <= hval E lam R + qn (length R) * d.
Proof.
  intros d mc n lam E vs Hd Hmc Hnd HE Hs Ho Hn r.
  destruct (dil_run_approx d Hd mc n Hmc lam E vs Hnd HE Hs Ho Hn) as (A & _ & B & C). auto.
Qed.
Print Assumptions C68_subgraph_truncation_accuracy.

(** With flow values off by 1/100 the value of the triangle at level 4 is -598/100 instead of -6. *)
Example C68_nonvacuous :
  ApproxCutSpec (1#100) 3 (off_mincut (1#100)) /\ ~ MinCutSpec (off_mincut (1#100)) /\
  graph_on (seq 0 3) tri /\ simple tri /\ forward tri /\
  exists m, dt_dil_run (off_mincut (1#100)) 4 tri 3 = Ok (m, [[0;2];[1]]%nat) /\ m == -598#100.
Proof.
  split; [apply off_mincut_approx; lra|]. split; [apply off_not_exact; intro H; discriminate|].
  split; [apply tri_on|]. split; [apply tri_simple|]. split; [apply tri_forward|].
  eexists. split; [vm_compute; reflexivity|]. reflexivity.
Qed.

(** ** C69: dt *)
Theorem C69_dt_robust : forall d mc n eps E D, 0 <= d -> ApproxCutSpec d n mc -> 2 * qn n * d < eps ->
  (2 <= n)%nat -> graph_on (seq 0 n) E -> simple E -> forward E ->
  multiples_of D E -> fine_tol D n (2 * eps) ->
  exists lams Ps, dt_run mc eps E n = Ok (map Fin lams, Ps) /\ IsWeakPSP E (seq 0 n) lams Ps /\ slopes E lams Ps.
Proof.
  exact (fun d mc n eps E D Hd Hmc He Hn HE Hs Hf HD Ht => dt_run_approx d Hd mc n Hmc eps He E Hn HE Hs Hf D HD Ht).
Qed.
Print Assumptions C69_dt_robust.

(** For every weighted graph some accuracy suffices. *)
Theorem C69_dt_some_accuracy : forall E n, (2 <= n)%nat -> graph_on (seq 0 n) E -> simple E -> forward E ->
  exists eps0, 0 < eps0 /\ forall eps, 0 < eps -> eps <= eps0 ->
  exists eta, 0 < eta /\ forall mc,
    (forall nodes N, net_ok nodes N -> near_flow eta nodes N (fst (mc nodes N)) (snd (mc nodes N))) ->
    exists lams Ps, dt_run mc eps E n = Ok (map Fin lams, Ps) /\ IsWeakPSP E (seq 0 n) lams Ps.
Proof.
  intros E n Hn HE Hs Hf. destruct (fine_tol_ex E n) as (e0 & He0 & D & HD & Ht).
  exists (e0 / 2). assert (X : e0 / 2 == e0 * (1#2)) by (field). split; [lra|]. intros eps H1 H2.
  set (k := 2 * qn n * qn (n * n + 3 * n) + 1).
  assert (Hk : 0 < k).
  { assert (0 <= 2 * qn n * qn (n * n + 3 * n)) by (repeat apply Qmult_le_0_compat; try apply qn_nonneg; lra). unfold k. lra. }
  exists (eps / k). assert (He : 0 < eps / k) by (apply Qlt_shift_div_l; [exact Hk|rewrite Qmult_0_l; exact H1]). split; auto. intros mc H.
  assert (K := near_flow_spec (eps / k) n mc ltac:(lra) H).
  assert (Z : 2 * qn n * (qn (n * n + 3 * n) * (eps / k)) < eps).
  { assert (Y : eps / k * k == eps) by (field; intro C; rewrite C in Hk; apply (Qlt_irrefl 0); exact Hk).
    assert (W : eps / k * k == 2 * qn n * (qn (n * n + 3 * n) * (eps / k)) + eps / k) by (unfold k at 2; ring). lra. }
  assert (D0 : 0 <= qn (n * n + 3 * n) * (eps / k)) by (apply Qmult_le_0_compat; [apply qn_nonneg|apply Qlt_le_weak; exact He]).
  destruct (dt_run_approx _ D0 mc n K eps Z E Hn HE Hs Hf D HD)
    as (lams & Ps & A & B & _).
  - apply Ht; lra.
  - eauto.
Qed.
Print Assumptions C69_dt_some_accuracy.

Example C69_nonvacuous :
  ApproxCutSpec (1#1000) 3 (off_mincut (1#1000)) /\ ~ MinCutSpec (off_mincut (1#1000)) /\
  2 * qn 3 * (1#1000) < 1#100 /\ (2 <= 3)%nat /\ graph_on (seq 0 3) tri /\ simple tri /\ forward tri /\
  multiples_of 1 tri /\ fine_tol 1 3 (2 * (1#100)) /\
  dt_run (off_mincut (1#1000)) (1#100) tri 3 =
    Ok ([Fin 2; Fin 5], [[[0;1;2]]; [[0;2];[1]]; [[0];[1];[2]]]%nat).
Proof.
  split; [apply off_mincut_approx; lra|]. split; [apply off_not_exact; intro H; discriminate|].
  split; [reflexivity|]. split; [lia|]. split; [apply tri_on|]. split; [apply tri_simple|]. split; [apply tri_forward|].
  split; [apply dt_nonvacuous|]. split; [reflexivity|]. vm_compute. reflexivity.
Qed.

(** Accuracy matters: off by 1/2, dt and psp_i both miss the partition {0,1},{2} of this path. *)
Definition path3 : graph := [mkArc 0 1 2; mkArc 1 2 1].
Lemma path3_ok : graph_on (seq 0 3) path3 /\ simple path3 /\ forward path3 /\ multiples_of 1 path3.
Proof.
  split; [intros a H; simpl in H; intuition (subst; simpl; auto; lra)|].
  split; [unfold simple; simpl; repeat constructor; simpl; intuition congruence|].
  split; [intros a H; simpl in H; intuition (subst; simpl; lia)|].
  intros a H; simpl in H; destruct H as [<-|[<-|[]]]; [exists 2%Z|exists 1%Z]; reflexivity.
Qed.

Lemma path3_coarse : ~ IsWeakPSP path3 (seq 0 3) [3#2] [[[0;1;2]]; [[0];[1];[2]]]%nat.
Proof.
  intros (_ & _ & H). simpl in H. destruct H as (_ & H & _).
  destruct (H (6#5) ltac:(auto) ltac:(lra)) as [_ K].
  specialize (K [[0;1];[2]]%nat ltac:(split; [apply Permutation_refl|intros [C|[C|[]]]; discriminate])).
  vm_compute in K. apply K. reflexivity.
Qed.

Theorem C69_coarse_solver_refuted :
  ~ (forall d mc n eps E D, 0 <= d -> ApproxCutSpec d n mc -> 0 < eps ->
       (2 <= n)%nat -> graph_on (seq 0 n) E -> simple E -> forward E ->
       multiples_of D E -> fine_tol D n (2 * eps) ->
       exists lams Ps, dt_run mc eps E n = Ok (map Fin lams, Ps) /\ IsWeakPSP E (seq 0 n) lams Ps).
Proof.
  intro H. destruct path3_ok as (A & B & C & Dm).
  destruct (H (1#2) (off_mincut (1#2)) 3%nat tol path3 1%positive ltac:(lra) ltac:(apply off_mincut_approx; lra)
              ltac:(reflexivity) ltac:(lia) A B C Dm ltac:(reflexivity)) as (lams & Ps & R & W).
  vm_compute in R. destruct lams as [|l [|]]; try discriminate. injection R as <- <-. exact (path3_coarse W).
Qed.
Print Assumptions C69_coarse_solver_refuted.

(** ** C70: psp_i *)
Theorem C70_psp_i_robust : forall d mc n eps E D, 0 <= d -> ApproxCutSpec d n mc -> 0 < eps -> (1 <= n)%nat ->
  graph_on (seq 0 n) E -> simple E -> forward E -> (forall a, In a E -> eps <= aw a) ->
  multiples_of D E -> fine_tol D n (eps + 3 * qn n * d) ->
  exists lams Ps G, psp_run mc eps E n = Ok (mkOut lams Ps G) /\ IsWeakPSP E (seq 0 n) lams Ps /\ slopes E lams Ps.
Proof.
  intros d mc n eps E D Hd Hmc He Hn HE Hs Hf Hw HD Ht.
  assert (Ht' : fine_tol D n eps).
  { unfold fine_tol in *. set (DD := Zpos D # 1) in *. assert (0 < DD) by reflexivity.
    assert (L := qn_le _ _ Hn). change (qn 1) with 1 in L.
    assert (0 <= 3 * qn n * d * DD * (qn n - 1)).
    { repeat apply Qmult_le_0_compat; try lra. }
    assert ((eps + 3 * qn n * d) * DD * (qn n - 1) == eps * DD * (qn n - 1) + 3 * qn n * d * DD * (qn n - 1)) by ring. lra. }
  assert (T := trunc_approx d mc n eps E D Hd (Qlt_le_weak _ _ He) Hmc HD Ht).
  destruct (psp_run_trunc mc eps He E n Hn HE T Hs Hf Hw 0 ltac:(lra)
              (exact_gap_dec D E n eps He HD Ht')) as (lams & Ps & G & R1 & R2 & R3 & _).
  exists lams, Ps, G. split; auto. split; auto. apply near_0_full.
  assert (Z : 0 * (qn n - 1) == 0) by ring. clear -R2 Z. unfold IsNearPSP in R2.
  eapply full_sequence_mono with (good := near_optimal E (seq 0 n) (0 * (qn n - 1))); [intros a b H; exact H| |exact R2].
  intros lam P [A1 A2]. split; [auto|]. intros R HR. specialize (A2 R HR). lra.
Qed.
Print Assumptions C70_psp_i_robust.

Example C70_nonvacuous :
  ApproxCutSpec (1#1000) 3 (off_mincut (1#1000)) /\ ~ MinCutSpec (off_mincut (1#1000)) /\
  graph_on (seq 0 3) tri /\ simple tri /\ forward tri /\ (forall a, In a tri -> (1#100) <= aw a) /\
  multiples_of 1 tri /\ fine_tol 1 3 ((1#100) + 3 * qn 3 * (1#1000)) /\
  exists G, psp_run (off_mincut (1#1000)) (1#100) tri 3 =
    Ok (mkOut [2; 5] [[[0;1;2]]; [[0;2];[1]]; [[0];[1];[2]]]%nat G).
Proof.
  split; [apply off_mincut_approx; lra|]. split; [apply off_not_exact; intro H; discriminate|].
  split; [apply tri_on|]. split; [apply tri_simple|]. split; [apply tri_forward|].
  split; [intros a H; simpl in H; intuition (subst; simpl; lra)|].
  split; [apply dt_nonvacuous|]. split; [reflexivity|]. eexists. vm_compute. reflexivity.
Qed.

Theorem C70_coarse_solver_refuted :
  ~ (forall d mc n eps E D, 0 <= d -> ApproxCutSpec d n mc -> 0 < eps -> (1 <= n)%nat ->
       graph_on (seq 0 n) E -> simple E -> forward E -> (forall a, In a E -> eps <= aw a) ->
       multiples_of D E -> fine_tol D n eps ->
       exists lams Ps G, psp_run mc eps E n = Ok (mkOut lams Ps G) /\ IsWeakPSP E (seq 0 n) lams Ps).
Proof.
  intro H. destruct path3_ok as (A & B & C & Dm).
  destruct (H (1#2) (off_mincut (1#2)) 3%nat tol path3 1%positive ltac:(lra) ltac:(apply off_mincut_approx; lra)
              ltac:(reflexivity) ltac:(lia) A B C ltac:(intros a Ha; simpl in Ha; destruct Ha as [<-|[<-|[]]]; vm_compute; discriminate)
              Dm ltac:(reflexivity)) as (lams & Ps & G & R & W).
  vm_compute in R. injection R as <- <- _. exact (path3_coarse W).
Qed.
Print Assumptions C70_coarse_solver_refuted.
