(** * PropCost: how many max flows the methods compute (docs/source/detail.rst:7-13): C65, C66 and C67. *)
From Coq Require Import Sorted.
From Verif Require Import Base Graph Spec PartThy SubThy MSets SetsThy MaxFlow CutThy BFThy MDil DilThy SeqThy
  MDT DTThy DTTop PropDil PropDT MContract MPSPI PSPILoop PropPSPI MHPSP PropHPSP MPMF PDTThy PropPDT
  MPMFR PMFRThy PropPDTR MCost CostThy CostBound CostStar CostPDT.

(** What a run costs when a max flow on [k] nodes besides source and sink costs [f k]. *)
Definition cost (f : nat -> nat) (tr : list nat) : nat := list_sum (map f tr).

Lemma cost_app f a b : cost f (a ++ b) = (cost f a + cost f b)%nat.
Proof. unfold cost. rewrite map_app. apply list_sum_app. Qed.
Lemma cost_le f c tr : (forall x, In x tr -> (f x <= c)%nat) -> (cost f tr <= length tr * c)%nat.
Proof.
  induction tr as [|x tr IH]; intro H; [reflexivity|]. change (f x + cost f tr <= c + length tr * c)%nat.
  assert (A := H x (or_introl eq_refl)). assert (B := IH (fun y Hy => H y (or_intror Hy))). lia.
Qed.
Lemma cost_ge f c tr : (forall x, In x tr -> (c <= f x)%nat) -> (length tr * c <= cost f tr)%nat.
Proof.
  induction tr as [|x tr IH]; intro H; [reflexivity|]. change (c + length tr * c <= f x + cost f tr)%nat.
  assert (A := H x (or_introl eq_refl)). assert (B := IH (fun y Hy => H y (or_intror Hy))). lia.
Qed.

(** ** Counting changes no result: the traced programs are the modelled ones. *)
Theorem C65_counting_faithful :
  (forall mc eps E n, dt_run mc eps E n = erase (dt_run_t mc eps E n)) /\
  (forall mc eps E n, psp_run mc eps E n = erase (psp_run_t mc eps E n)) /\
  (forall mc eps E n, hpsp_run mc eps E n = erase (hpsp_run_t mc eps E n)) /\
  (forall mc eps E n, pdt_run mc eps E n = erase (pdt_run_t mc eps E n)) /\
  (forall mc mr sch eps E n, pdtr_run mc mr sch eps E n = erase (pdtr_run_t mc mr sch eps E n)).
Proof.
  split; [exact dt_run_erase|]. split; [exact psp_run_erase|]. split; [exact hpsp_run_erase|].
  split; [exact pdt_run_erase|]. exact pdtr_run_erase.
Qed.
Print Assumptions C65_counting_faithful.

(** ** C65: dt *)
Lemma sorted_last_le (Ps : list cpart) : forall P, StronglySorted (fun p q => (length p < length q)%nat) (P :: Ps) ->
  (length P + length Ps <= length (last (P :: Ps) []))%nat.
Proof.
  induction Ps as [|R Ps IH]; intros P H; [cbn; lia|].
  inversion H as [|? ? H1 H2]. subst. inversion H2. subst.
  change (last (P :: R :: Ps) []) with (last (R :: Ps) []). specialize (IH R H1). cbn [length] in *. lia.
Qed.

Lemma dt_flows mc eps E n :
  MinCutSpec mc -> 0 < eps -> (2 <= n)%nat -> graph_on (seq 0 n) E -> simple E -> forward E ->
  exists lams Ps tr, dt_run mc eps E n = Ok (map Fin lams, Ps) /\
    dt_run_t mc eps E n = Ok (map Fin lams, Ps, tr) /\
    (1 <= length lams <= n - 1)%nat /\ tr = concat (repeat (seq 0 n) (2 * length lams - 1)) /\
    (length tr <= n * (2 * n - 3))%nat.
Proof.
  intros Hmc He Hn HE Hs Hf.
  destruct (C07_dt_well_formed mc eps E n Hmc He Hn HE Hs Hf) as (lams & Ps & R & L & Hd & Hl & SS & _).
  assert (R' := R). rewrite dt_run_erase in R'.
  destruct (dt_run_t mc eps E n) as [[[ls Ps'] tr]| | |] eqn:Rt; cbn [erase bind fst] in R'; try discriminate.
  injection R' as -> ->. destruct (dt_run_trace _ _ _ _ _ _ _ Rt) as [A1 A2]. rewrite map_length in A1, A2.
  destruct Ps as [|P Ps]; [discriminate|]. cbn in Hd. injection Hd as ->.
  assert (K := sorted_last_le Ps _ SS). rewrite Hl in K. unfold singletons in K. rewrite map_length, seq_length in K.
  cbn [length] in K, L. exists lams, ([seq 0 n] :: Ps), tr. split; auto. split; auto. split; [lia|]. split; auto.
  rewrite A2, concat_repeat_length, seq_length. nia.
Qed.

Theorem C65_dt_flows : forall mc eps E n,
  MinCutSpec mc -> 0 < eps -> (2 <= n)%nat -> graph_on (seq 0 n) E -> simple E -> forward E ->
  exists lams Ps tr, dt_run mc eps E n = Ok (map Fin lams, Ps) /\
    dt_run_t mc eps E n = Ok (map Fin lams, Ps, tr) /\
    (1 <= length lams <= n - 1)%nat /\ tr = concat (repeat (seq 0 n) (2 * length lams - 1)) /\
    (length tr <= n * (2 * n - 3))%nat.
Proof. exact dt_flows. Qed.
Print Assumptions C65_dt_flows.

(** On the triangle the hypotheses hold ([dt_nonvacuous]); both critical values are found and the bound is met. *)
Example C65_example : dt_run_t bf_mincut tol tri 3 =
  Ok ([Fin 2; Fin 5], [[[0;1;2]]; [[0;2];[1]]; [[0];[1];[2]]], [0;1;2; 0;1;2; 0;1;2])%nat.
Proof. vm_compute. reflexivity. Qed.

(** The documented O(n^2 MaxFlow(n)). *)
Lemma dt_cost mc eps E n f :
  MinCutSpec mc -> 0 < eps -> (2 <= n)%nat -> graph_on (seq 0 n) E -> simple E -> forward E ->
  (forall a b, (a <= b)%nat -> (f a <= f b)%nat) ->
  exists r tr, dt_run_t mc eps E n = Ok (r, tr) /\ (cost f tr <= 2 * n * n * f n)%nat.
Proof.
  intros Hmc He Hn HE Hs Hf Hm. destruct (dt_flows mc eps E n Hmc He Hn HE Hs Hf) as (lams & Ps & tr & _ & R & L & Et & Le).
  exists (map Fin lams, Ps), tr. split; auto. assert (K := cost_le f (f n) tr).
  assert (cost f tr <= length tr * f n)%nat; [|nia]. apply K. intros x Hx. apply Hm. rewrite Et in Hx.
  apply in_concat in Hx. destruct Hx as (l & Hl & Hx). apply repeat_spec in Hl. subst l. apply in_seq in Hx. lia.
Qed.

Theorem C65_dt_cost : forall mc eps E n f,
  MinCutSpec mc -> 0 < eps -> (2 <= n)%nat -> graph_on (seq 0 n) E -> simple E -> forward E ->
  (forall a b, (a <= b)%nat -> (f a <= f b)%nat) ->
  exists r tr, dt_run_t mc eps E n = Ok (r, tr) /\ (cost f tr <= 2 * n * n * f n)%nat.
Proof. exact dt_cost. Qed.
Print Assumptions C65_dt_cost.

(** ** C66: psp_i and hpsp *)
Lemma erase_ok {A} (x : res A) (r : A) (y : res (A * trace)) : x = Ok r -> x = erase y -> exists tr, y = Ok (r, tr).
Proof.
  intros -> H. destruct y as [[r' tr]| | |]; cbn [erase bind fst] in H; try discriminate. injection H as ->. eauto.
Qed.

Lemma start_length n : length (rev (singletons (seq 0 n))) = n.
Proof. rewrite rev_length. unfold singletons. rewrite map_length, seq_length. reflexivity. Qed.

Lemma psp_i_flows mc eps E n :
  MinCutSpec mc -> 0 < eps -> (2 <= n)%nat ->
  graph_on (seq 0 n) E -> simple E -> forward E -> (forall a, In a E -> eps <= aw a) ->
  exists r tr, psp_run mc eps E n = Ok r /\ psp_run_t mc eps E n = Ok (r, tr) /\
    (2 * length tr + 6 <= n * (n + 1))%nat /\ (3 <= n -> n <= length tr)%nat /\
    forall k, In k tr -> (k < n)%nat.
Proof.
  intros Hmc He Hn HE Hs Hf Hw.
  destruct (C14_psp_i_well_formed mc eps E n Hmc He ltac:(lia) HE Hs Hf Hw) as (lams & P & Ps & G & R & _).
  destruct (erase_ok _ _ _ R (psp_run_erase mc eps E n)) as (tr & Rt).
  assert (C := psp_run_calls mc Hmc eps He E n Hn HE Hs Hf Hw _ _ Rt).
  destruct (proj1 (rec_calls_bound E eps) _ _ _ C) as (_ & B1 & B2 & B3). rewrite start_length in B1, B2, B3. eauto 8.
Qed.

Theorem C66_psp_i_flows : forall mc eps E n,
  MinCutSpec mc -> 0 < eps -> (2 <= n)%nat ->
  graph_on (seq 0 n) E -> simple E -> forward E -> (forall a, In a E -> eps <= aw a) ->
  exists r tr, psp_run mc eps E n = Ok r /\ psp_run_t mc eps E n = Ok (r, tr) /\
    (2 * length tr + 6 <= n * (n + 1))%nat /\ (3 <= n -> n <= length tr)%nat /\
    forall k, In k tr -> (k < n)%nat.
Proof. exact psp_i_flows. Qed.
Print Assumptions C66_psp_i_flows.

Lemma hpsp_flows mc eps E n :
  MinSinkCutSpec mc -> 0 < eps -> (2 <= n)%nat ->
  graph_on (seq 0 n) E -> simple E -> forward E -> (forall a, In a E -> eps <= aw a) ->
  exists r tr, hpsp_run mc eps E n = Ok r /\ hpsp_run_t mc eps E n = Ok (r, tr) /\
    (2 * length tr + 6 <= n * (n + 1))%nat /\ (3 <= n -> n <= length tr)%nat /\
    forall k, In k tr -> (k < n)%nat.
Proof.
  intros Hmc He Hn HE Hs Hf Hw.
  destruct (C19_hpsp_near_optimal mc eps E n Hmc He Hn HE Hs Hf Hw) as (lams & Ps & W & K & G & R & _).
  destruct (erase_ok _ _ _ R (hpsp_run_erase mc eps E n)) as (tr & Rt).
  assert (C := hpsp_run_calls mc (proj1 Hmc) eps He E n Hn HE Hs Hf Hw _ _ Rt).
  destruct (proj1 (rec_calls_bound E eps) _ _ _ C) as (_ & B1 & B2 & B3). rewrite start_length in B1, B2, B3. eauto 8.
Qed.

Theorem C66_hpsp_flows : forall mc eps E n,
  MinSinkCutSpec mc -> 0 < eps -> (2 <= n)%nat ->
  graph_on (seq 0 n) E -> simple E -> forward E -> (forall a, In a E -> eps <= aw a) ->
  exists r tr, hpsp_run mc eps E n = Ok r /\ hpsp_run_t mc eps E n = Ok (r, tr) /\
    (2 * length tr + 6 <= n * (n + 1))%nat /\ (3 <= n -> n <= length tr)%nat /\
    forall k, In k tr -> (k < n)%nat.
Proof. exact hpsp_flows. Qed.
Print Assumptions C66_hpsp_flows.

(** Strictly between the bounds: five nodes, 5 <= 8 <= 12. *)
Example C66_example :
  bind (psp_run_t bf_mincut tol g5 5) (fun x => Ok (snd x)) = Ok [0;1;2;3;4; 0;1;2]%nat.
Proof. vm_compute. reflexivity. Qed.

(** The upper bound is attained for every n, on a star. *)
Lemma star_flows eps n : 0 < eps -> (2 <= n)%nat ->
  exists E, graph_on (seq 0 n) E /\ simple E /\ forward E /\ (forall a, In a E -> eps <= aw a) /\
    (forall mc, MinCutSpec mc -> exists r tr, psp_run_t mc eps E n = Ok (r, tr) /\
       tr = star_trace n) /\
    (forall mc, MinSinkCutSpec mc -> exists r tr, hpsp_run_t mc eps E n = Ok (r, tr) /\
       tr = star_trace n).
Proof.
  intros He Hn. exists (star (star_w eps n) n).
  assert (G1 := star_on eps He n). assert (G2 := star_simple eps n). assert (G3 := star_forward eps n).
  assert (G4 := star_weights eps He n).
  split; [exact G1|]. split; [exact G2|]. split; [exact G3|]. split; [exact G4|]. split.
  - intros mc Hmc. destruct (psp_i_flows mc eps _ n Hmc He Hn G1 G2 G3 G4) as (r & tr & _ & R & _).
    exists r, tr. split; auto. apply (star_rec_calls eps He n tr Hn).
    exact (psp_run_calls mc Hmc eps He _ n Hn G1 G2 G3 G4 _ _ R).
  - intros mc Hmc. destruct (hpsp_flows mc eps _ n Hmc He Hn G1 G2 G3 G4) as (r & tr & _ & R & _).
    exists r, tr. split; auto. apply (star_rec_calls eps He n tr Hn).
    exact (hpsp_run_calls mc (proj1 Hmc) eps He _ n Hn G1 G2 G3 G4 _ _ R).
Qed.

Theorem C66_bound_attained : forall eps n, 0 < eps -> (2 <= n)%nat ->
  exists E, graph_on (seq 0 n) E /\ simple E /\ forward E /\ (forall a, In a E -> eps <= aw a) /\
    (forall mc, MinCutSpec mc -> exists r tr, psp_run_t mc eps E n = Ok (r, tr) /\
       (2 * length tr + 6 = n * (n + 1))%nat) /\
    (forall mc, MinSinkCutSpec mc -> exists r tr, hpsp_run_t mc eps E n = Ok (r, tr) /\
       (2 * length tr + 6 = n * (n + 1))%nat).
Proof.
  intros eps n He Hn. destruct (star_flows eps n He Hn) as (E & G1 & G2 & G3 & G4 & A & B).
  exists E. split; [exact G1|]. split; [exact G2|]. split; [exact G3|]. split; [exact G4|]. split; intros mc Hmc.
  - destruct (A mc Hmc) as (r & tr & R & ->). exists r, (star_trace n). split; auto. apply star_trace_length. auto.
  - destruct (B mc Hmc) as (r & tr & R & ->). exists r, (star_trace n). split; auto. apply star_trace_length. auto.
Qed.
Print Assumptions C66_bound_attained.

Example C66_star_example :
  bind (psp_run_t bf_mincut tol (star (star_w tol 5) 5) 5) (fun x => Ok (snd x)) =
    Ok [0;1;2;3;4; 0;1;2;3; 0;1;2]%nat /\
  bind (hpsp_run_t bf_mincut tol (star (star_w tol 5) 5) 5) (fun x => Ok (snd x)) =
    Ok [0;1;2;3;4; 0;1;2;3; 0;1;2]%nat.
Proof. vm_compute. auto. Qed.

(** docs/source/detail.rst:12 gives O(n MaxFlow(n)) for PSP_I.  With the cost [f k] of a max flow on [k] nodes growing
    at most polynomially ([f (2 k) <= c * f k]) no constant [A] will do. *)
Lemma star_cost f k t : (forall a b, (a <= b)%nat -> (f a <= f b)%nat) -> (1 <= k)%nat ->
  (t * (k * f k) <= cost f (star_trace (2 * k + t)))%nat.
Proof.
  intros Hm Hk. induction t as [|t IH]; [lia|].
  rewrite star_trace_S by lia. replace (2 * k + S t - 1)%nat with (2 * k + t)%nat by lia. rewrite cost_app.
  replace (2 * k + S t)%nat with (k + (k + S t))%nat by lia. rewrite (seq_app k), cost_app.
  assert (K := cost_ge f (f k) (seq (0 + k) (k + S t)) (fun x Hx => Hm k x ltac:(apply in_seq in Hx; lia))).
  rewrite seq_length in K. nia.
Qed.

Lemma star_superlinear f c A : (forall a b, (a <= b)%nat -> (f a <= f b)%nat) ->
  (1 <= f 1)%nat -> (forall k, f (2 * k) <= c * f k)%nat ->
  exists n, (2 <= n)%nat /\ (A * n * f n < cost f (star_trace n))%nat.
Proof.
  intros Hm H1 Hd. set (k := (2 * A * (c * c) + 1)%nat). exists (4 * k)%nat. split; [lia|].
  assert (S1 := star_cost f k (2 * k) Hm ltac:(lia)). replace (2 * k + 2 * k)%nat with (4 * k)%nat in S1 by lia.
  assert (F1 : (f (4 * k) <= c * c * f k)%nat).
  { replace (4 * k)%nat with (2 * (2 * k))%nat by lia. assert (X := Hd (2 * k)%nat). assert (Y := Hd k). nia. }
  assert (F2 := Hm 1%nat k ltac:(lia)). eapply Nat.lt_le_trans; [|exact S1].
  eapply Nat.le_lt_trans; [apply Nat.mul_le_mono_l; exact F1|].
  assert (E1 : (A * (4 * k) * (c * c * f k) = (4 * A * (c * c)) * (k * f k))%nat) by ring. rewrite E1.
  assert (P : (0 < k * f k)%nat) by (apply Nat.mul_pos_pos; lia). apply Nat.mul_lt_mono_pos_r; auto. unfold k. lia.
Qed.

Theorem C66_linear_refuted : forall f c,
  (forall a b, (a <= b)%nat -> (f a <= f b)%nat) -> (1 <= f 1)%nat -> (forall k, f (2 * k) <= c * f k)%nat ->
  forall mc eps, MinSinkCutSpec mc -> 0 < eps ->
  ~ (exists A, forall E n r tr, (2 <= n)%nat ->
       graph_on (seq 0 n) E -> simple E -> forward E -> (forall a, In a E -> eps <= aw a) ->
       psp_run_t mc eps E n = Ok (r, tr) -> (cost f tr <= A * n * f n)%nat) /\
  ~ (exists A, forall E n r tr, (2 <= n)%nat ->
       graph_on (seq 0 n) E -> simple E -> forward E -> (forall a, In a E -> eps <= aw a) ->
       hpsp_run_t mc eps E n = Ok (r, tr) -> (cost f tr <= A * n * f n)%nat).
Proof.
  intros f c Hm H1 Hd mc eps Hmc He.
  assert (W : forall A, exists n E, (2 <= n)%nat /\ (A * n * f n < cost f (star_trace n))%nat /\
     graph_on (seq 0 n) E /\ simple E /\ forward E /\ (forall a, In a E -> eps <= aw a) /\
     (exists r, psp_run_t mc eps E n = Ok (r, star_trace n)) /\ (exists r, hpsp_run_t mc eps E n = Ok (r, star_trace n))).
  { intro A. destruct (star_superlinear f c A Hm H1 Hd) as (n & Hn & Hc).
    destruct (star_flows eps n He Hn) as (E & G1 & G2 & G3 & G4 & P & H). exists n, E.
    destruct (P mc (proj1 Hmc)) as (r & tr & R & ->). destruct (H mc Hmc) as (r' & tr' & R' & ->).
    split; [exact Hn|]. split; [exact Hc|]. split; [exact G1|]. split; [exact G2|]. split; [exact G3|]. split; [exact G4|].
    split; eexists; eassumption. }
  split; intros (A & HA); destruct (W A) as (n & E & Hn & Hc & G1 & G2 & G3 & G4 & (r & R) & (r' & R')).
  - specialize (HA E n r (star_trace n) Hn G1 G2 G3 G4 R). lia.
  - specialize (HA E n r' (star_trace n) Hn G1 G2 G3 G4 R'). lia.
Qed.
Print Assumptions C66_linear_refuted.

(** Cubic max flow meets the hypotheses on the cost. *)
Example C66_cubic : let f k := (k * k * k)%nat in
  (forall a b, (a <= b)%nat -> (f a <= f b)%nat) /\ (1 <= f 1)%nat /\ (forall k, f (2 * k) <= 8 * f k)%nat.
Proof. cbn zeta. split; [intros a b H; apply Nat.mul_le_mono; [apply Nat.mul_le_mono|]; auto|]. split; [lia|]. intro k. nia. Qed.

(** ** C67: pdt and pdt_r *)
Theorem C67_pdt_flows : forall mc eps E n D,
  MinSinkCutSpec mc -> 0 < eps -> (1 <= n)%nat -> graph_on (seq 0 n) E -> simple E -> forward E ->
  (forall a, In a E -> eps <= aw a) -> multiples_of D E ->
  10 * eps * inject_Z (Zpos (gridM D n)) < 1 ->
  exists lams Ps tr, pdt_run_t mc eps E n = Ok (map Fin lams, Ps, tr) /\ IsPSP E (seq 0 n) lams Ps /\
    (length lams <= length tr <= n * (n - 1))%nat /\ Forall (fun k => (k < n)%nat) tr /\
    forall j, (1 <= j < n)%nat -> In j tr.
Proof.
  exact (fun mc eps E n D Hmc He Hn HE Hs Hf Hw HD HeM => pdt_calls mc Hmc eps He E n Hn HE Hs Hf Hw D HD HeM).
Qed.
Print Assumptions C67_pdt_flows.

Theorem C67_pdtr_flows : forall mc mr sch eps E n D,
  MinSinkCutSpec mc -> MinSrcCutSpec mr -> 0 < eps -> (1 <= n)%nat ->
  graph_on (seq 0 n) E -> simple E -> forward E ->
  (forall a, In a E -> eps <= aw a) -> multiples_of D E ->
  10 * eps * inject_Z (Zpos (gridM D n)) < 1 ->
  exists lams Ps tr, pdtr_run_t mc mr sch eps E n = Ok (map Fin lams, Ps, tr) /\ IsPSP E (seq 0 n) lams Ps /\
    (2 * length lams <= length tr <= 2 * (n * (n - 1)))%nat /\ Forall (fun k => (k < n)%nat) tr /\
    forall j, (1 <= j < n)%nat -> In j tr.
Proof.
  exact (fun mc mr sch eps E n D Hmc Hmr He Hn HE Hs Hf Hw HD HeM =>
           pdtr_calls mc Hmc eps He E n Hn HE Hs Hf Hw D HD HeM mr Hmr sch).
Qed.
Print Assumptions C67_pdtr_flows.

(** [C27_nonvacuous] shows that this graph meets the hypotheses; the second one meets the bound n (n - 1). *)
Definition k4 : graph := [mkArc 0 1 51; mkArc 0 2 54; mkArc 1 2 194; mkArc 0 3 59; mkArc 1 3 219; mkArc 2 3 579].
Example C67_example :
  bind (pdt_run_t bf_mincut tol ex27 4) (fun x => Ok (snd x)) = Ok [1;1; 2;2;2;2; 3;3]%nat /\
  bind (pdtr_run_t bf_mincut (rev_solver bf_mincut) (fun _ _ => true) tol ex27 4) (fun x => Ok (snd x)) =
    Ok [1;1;2;2; 2;2;1;1;2;2; 3;3;3;3]%nat /\
  bind (pdt_run_t bf_mincut tol k4 4) (fun x => Ok (snd x)) = Ok [1;1; 2;2;2;2; 3;3;3;3;3;3]%nat.
Proof. vm_compute. auto. Qed.
