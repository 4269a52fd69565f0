(** * FloatSliceR: PMF_R::slice in floating-point arithmetic returns a chain of near-minimisers. *)
From Coq Require Import Qabs Sorted.
From Verif Require Import Base Graph Spec PartThy SubThy MSets SetsThy MGraph MaxFlow MDil CutThy DilThy MDT
  SeqThy MPMF LamThy ParThy SliceThy DilApprox MFloat FloatThy FloatDil FloatDT MFloatT FloatLam FloatPar PDTThy
  FloatSlice BFThy DTThy MPMFR PMFRThy MFloatR.

(** The two workers of PMF_R: on networks with at most [n] inner nodes and [n * n + 4 * n + 2] arcs, the
    first returns the inclusion-minimal sink side of a minimum cut, the second the inclusion-maximal one;
    the reported value is within [d] of its capacity. *)
Definition SinkSideSpecR (d : Q) (n : nat) (mc : solver) : Prop :=
  forall nodes N, net_ok nodes N -> (length nodes <= n)%nat -> (length N <= n * n + 4 * n + 2)%nat ->
    incl (snd (mc nodes N)) nodes /\
    Qabs (fst (mc nodes N) - cut N (mem (snd (mc nodes N)))) <= d /\
    (forall Y, cut N (mem (snd (mc nodes N))) <= cut N Y) /\
    (forall Y, cut N Y == cut N (mem (snd (mc nodes N))) -> forall x, In x (snd (mc nodes N)) -> Y x = true).
Definition SrcSideSpecR (d : Q) (n : nat) (mr : solver) : Prop :=
  forall nodes N, net_ok nodes N -> (length nodes <= n)%nat -> (length N <= n * n + 4 * n + 2)%nat ->
    incl (snd (mr nodes N)) nodes /\
    Qabs (fst (mr nodes N) - cut N (mem (snd (mr nodes N)))) <= d /\
    (forall Y, cut N (mem (snd (mr nodes N))) <= cut N Y) /\
    (forall Y, cut N Y == cut N (mem (snd (mr nodes N))) -> forall x, In x nodes -> Y x = true ->
       In x (snd (mr nodes N))).

Lemma sideR_of_exact n mc : MinSinkCutSpec mc -> SinkSideSpecR 0 n mc.
Proof.
  intros [H1 H2] nodes N HN _ _. destruct (H1 nodes N HN) as (A & B & C). specialize (H2 nodes N HN).
  split; auto. split; [|split].
  - rewrite B. setoid_replace (cut N (mem (snd (mc nodes N))) - cut N (mem (snd (mc nodes N)))) with 0 by ring.
    apply Qle_refl.
  - intro Y. rewrite <- B. auto.
  - intros Y HY. apply H2. rewrite HY, B. reflexivity.
Qed.

Lemma srcR_of_exact n mr : MinSrcCutSpec mr -> SrcSideSpecR 0 n mr.
Proof.
  intros [H1 H2] nodes N HN _ _. destruct (H1 nodes N HN) as (A & B & C). specialize (H2 nodes N HN).
  split; auto. split; [|split].
  - rewrite B. setoid_replace (cut N (mem (snd (mr nodes N))) - cut N (mem (snd (mr nodes N)))) with 0 by ring.
    apply Qle_refl.
  - intro Y. rewrite <- B. auto.
  - intros Y HY. apply H2. rewrite HY, B. reflexivity.
Qed.

(** Rounding keeps the order in both operands of an addition. *)
Definition mono_ops2 (o : fops) : Prop :=
  mono_ops o /\ forall a a' b, a <= a' -> fadd o a b <= fadd o a' b.

Lemma cut_negneg N Y : cut N (fun x => negb (negb (Y x))) == cut N Y.
Proof.
  apply qsum_ext. intros a _. assert (S : forall u, side (fun x => negb (negb (Y x))) u = side Y u).
  { intros [| |v]; simpl; auto. apply negb_involutive. }
  rewrite !S. reflexivity.
Qed.

Lemma f_worker d n mc mr j useL ns Nt : SinkSideSpecR d n mc -> SrcSideSpecR d n mr ->
  net_ok ns Nt -> (length ns <= n)%nat -> (length Nt <= n * n + 4 * n + 2)%nat ->
  let fT := worker_cut mc mr useL j ns Nt in
  exists X, incl X ns /\ near d (fst fT) (cut Nt (mem X)) /\ (forall Y, cut Nt (mem X) <= cut Nt Y) /\
    (forall Y, cut Nt Y <= cut Nt (mem X) -> forall x, In x X -> Y x = true) /\
    (forall x, In x (snd fT) <-> x = j \/ In x X) /\ csorted (snd fT).
Proof.
  intros Hmc Hmr Hok L1 L2 fT. destruct useL.
  - destruct (Hmc ns Nt Hok L1 L2) as (A & B & C & D).
    exists (snd (mc ns Nt)). unfold fT, worker_cut. cbv zeta. cbn [fst snd]. split; [auto|]. split; [apply near_abs; auto|].
    split; [auto|]. split; [|split].
    + intros Y HY. apply D. specialize (C Y). lra.
    + intro x. rewrite cadd_In, cset_of_In, filter_In, mem_In. split; [tauto|]. intros [H|H]; auto.
    + apply cadd_sorted. apply cset_of_sorted.
  - assert (Hok' := rnet_ok _ _ Hok).
    assert (L2' : (length (rnet Nt) <= n * n + 4 * n + 2)%nat) by (unfold rnet; rewrite map_length; auto).
    destruct (Hmr ns (rnet Nt) Hok' L1 L2') as (A & B & C & D).
    unfold fT, worker_cut. cbv zeta. cbn [fst snd].
    set (r := mr ns (rnet Nt)) in *.
    assert (CX : cut Nt (mem (filter (fun x => negb (mem (snd r) x)) ns)) == cut (rnet Nt) (mem (snd r))).
    { rewrite cut_rnet. apply (cut_restrict ns Nt (fun x => negb (mem (snd r) x)) Hok). }
    exists (filter (fun x => negb (mem (snd r) x)) ns). split; [|split; [|split; [|split; [|split]]]].
    + intros x Hx. apply filter_In in Hx. tauto.
    + apply near_abs. rewrite CX. exact B.
    + intro Y. rewrite CX. specialize (C (fun x => negb (Y x))). rewrite (cut_rnet Nt (fun x => negb (Y x))), cut_negneg in C. exact C.
    + intros Y HY x Hx. apply filter_In in Hx. destruct Hx as [Hx1 Hx2].
      destruct (Y x) eqn:EY; auto. exfalso. apply negb_true_iff in Hx2. apply mem_false in Hx2. apply Hx2.
      apply (D (fun z => negb (Y z))); auto.
      * assert (K := C (fun z => negb (Y z))). rewrite (cut_rnet Nt (fun x => negb (Y x))), cut_negneg in *. lra.
      * rewrite EY. auto.
    + intro x. rewrite cadd_In, cset_of_In, !filter_In. split; [tauto|]. intros [H|H]; auto.
    + apply cadd_sorted. apply cset_of_sorted.
Qed.

(** ** Networks after an update *)
Section Upd.
  Variable o : fops.
  Variable y : list (Q * dbl).
  Lemma f_upd_inn b l G : inn (f_upd o y b l G) = inn G.
  Proof.
    unfold inn, f_upd. induction G as [|[u v c] G IH]; auto. cbn [map filter].
    destruct u, v; cbn [f_upd_arc nsrc ndst]; cbn; rewrite ?IH; auto.
  Qed.
  Lemma f_upd_sT b l G : sT (f_upd o y b l G) = sT G.
  Proof.
    unfold sT, f_upd. induction G as [|[u v c] G IH]; auto. cbn [map flat_map].
    destruct u, v; cbn; rewrite ?IH; auto.
  Qed.
  Lemma f_upd_kT b l G : kT (f_upd o y b l G) = kT G.
  Proof.
    unfold kT, f_upd. induction G as [|[u v c] G IH]; auto. cbn [map flat_map].
    destruct u, v; cbn; rewrite ?IH; auto.
  Qed.
  Lemma f_upd_stc b l G : stc (f_upd o y b l G) == stc G.
  Proof.
    unfold stc, f_upd. induction G as [|[u v c] G IH]; [reflexivity|]. cbn [map qsum].
    destruct u, v; cbn [f_upd_arc nsrc ndst ncap]; rewrite IH; reflexivity.
  Qed.
  Lemma f_upd_upd b l l' G : f_upd o y b l (f_upd o y b l' G) = f_upd o y b l G.
  Proof.
    unfold f_upd. rewrite map_map. apply map_ext. intros [u v c]. destruct u, v; reflexivity.
  Qed.
  Lemma f_upd_ends b l a : nsrc (f_upd_arc o y b l a) = nsrc a /\ ndst (f_upd_arc o y b l a) = ndst a.
  Proof. destruct a as [u v c]. destruct u, v; split; reflexivity. Qed.

  Definition rterm (b : nat -> Q * Q) (l : Q) (i : nat) (x : bool) : Q :=
    let c := f_ycap o (yat y i) l in
    if x then fadd o (if Qltb c 0 then - c else 0) (fst (b i)) else fadd o (snd (b i)) (qmax 0 c).

  Lemma f_cut_upd b l G X :
    cut (f_upd o y b l G) X ==
    cut (inn G) X + stc G + qsum (fun i => if X i then rterm b l i true else 0) (sT G) +
    qsum (fun i => if X i then 0 else rterm b l i false) (kT G).
  Proof.
    induction G as [|[u v c] G IH]; [unfold cut, stc; simpl; lra|].
    unfold cut, stc, inn, sT, kT, f_upd, rterm in *. cbv zeta in *.
    destruct u as [| |u], v as [| |v]; cbn [map filter flat_map qsum f_upd_arc nsrc ndst ncap side negb andb app];
      rewrite ?IH; try lra;
      repeat match goal with |- context [X ?w] => destruct (X w); cbn [negb andb] end; lra.
  Qed.

  Lemma rterm_mono b l l' i : mono_ops2 o -> l <= l' ->
    rterm b l i true - rterm b l i false <= rterm b l' i true - rterm b l' i false.
  Proof.
    intros [Hm Hm2] H. assert (K := f_ycap_anti o (yat y i) l l' Hm H). unfold rterm. cbv zeta.
    set (c := f_ycap o (yat y i) l) in *. set (c' := f_ycap o (yat y i) l') in *.
    assert (M : qmax 0 c' <= qmax 0 c).
    { destruct (qmax_spec 0 c) as [[X Y]|[X Y]], (qmax_spec 0 c') as [[X' Y']|[X' Y']]; rewrite Y, Y'; lra. }
    destruct (Hm (snd (b i)) _ _ M) as [_ A].
    assert (B : (if Qltb c 0 then - c else 0) <= (if Qltb c' 0 then - c' else 0)).
    { destruct (Qltb c 0) eqn:B, (Qltb c' 0) eqn:B';
        repeat match goal with H : Qltb _ _ = true |- _ => apply Qltb_true in H | H : Qltb _ _ = false |- _ => apply Qltb_false in H end;
        lra. }
    assert (C := Hm2 _ _ (fst (b i)) B). lra.
  Qed.

  Lemma f_cut_mono b l l' G ns X T : mono_ops2 o -> sT G = ns -> kT G = ns -> l <= l' ->
    (forall x, T x = true -> X x = true) ->
    cut (f_upd o y b l G) X - cut (f_upd o y b l G) T <= cut (f_upd o y b l' G) X - cut (f_upd o y b l' G) T.
  Proof.
    intros Hm E1 E2 Hl HT. rewrite !f_cut_upd, E1, E2.
    assert (K : qsum (fun i => if X i then rterm b l i true else 0) ns + qsum (fun i => if X i then 0 else rterm b l i false) ns
      - (qsum (fun i => if T i then rterm b l i true else 0) ns + qsum (fun i => if T i then 0 else rterm b l i false) ns) <=
      qsum (fun i => if X i then rterm b l' i true else 0) ns + qsum (fun i => if X i then 0 else rterm b l' i false) ns
      - (qsum (fun i => if T i then rterm b l' i true else 0) ns + qsum (fun i => if T i then 0 else rterm b l' i false) ns)); [|lra].
    rewrite <- !qsum_plus, <- !qsum_minus. apply qsum_le. intros i _. destruct (T i) eqn:Et.
    - rewrite (HT i Et). lra.
    - destruct (X i); [assert (R := rterm_mono b l l' i Hm Hl); lra|lra].
  Qed.
End Upd.

(** Least minimum cuts on one graph shrink with the parameter. *)
Record lm (o : fops) (y : list (Q * dbl)) (G : network) (base : nat -> Q * Q) (ns : list nat) (l : Q) (X : list nat) : Prop := {
  lmi_incl : incl X ns;
  lmi_min : forall Y, cut (f_upd o y base l G) (mem X) <= cut (f_upd o y base l G) Y;
  lmi_least : forall Y, cut (f_upd o y base l G) Y <= cut (f_upd o y base l G) (mem X) ->
    forall x, In x X -> Y x = true }.

Lemma lm_shrink o y G base ns l l' X X' : mono_ops2 o -> sT G = ns -> kT G = ns ->
  (forall a, In a (f_upd o y base l' G) -> 0 <= ncap a) ->
  lm o y G base ns l X -> lm o y G base ns l' X' -> l <= l' -> incl X' X.
Proof.
  intros Hm E1 E2 Hn H H' Hl x Hx.
  assert (K : iinter (mem X') (mem X) x = true).
  { apply (lmi_least _ _ _ _ _ _ _ H'); auto.
    assert (A := lmi_min _ _ _ _ _ _ _ H (iunion (mem X') (mem X))).
    assert (B := cut_sub (f_upd o y base l' G) (mem X') (mem X) Hn).
    assert (C := f_cut_mono o y base l l' G ns (iunion (mem X') (mem X)) (mem X) Hm E1 E2 Hl).
    assert (C' : forall i, mem X i = true -> iunion (mem X') (mem X) i = true).
    { intros i Hi. unfold iunion. rewrite Hi. apply orb_true_r. }
    specialize (C C'). lra. }
  unfold iinter in K. apply andb_true_iff in K. apply mem_In. tauto.
Qed.

Lemma deg_bound n E (k k' : arc -> nat) (p : arc -> bool) i : graph_on (seq 0 n) E -> 
  NoDup (map (fun a => (k' a, k a)) E) -> (forall a, In a E -> In (k' a) (seq 0 n)) ->
  (length (filter (fun a => (k a =? i)%nat && p a) E) <= n)%nat.
Proof.
  intros HE Hs Hk. rewrite <- (map_length k' (filter _ E)), <- (seq_length n 0). apply NoDup_incl_length.
  - clear Hk HE. induction E as [|a E IH]; cbn [filter map] in *; [constructor|].
    inversion Hs as [|? ? S1 S2]; subst. specialize (IH S2).
    destruct ((k a =? i)%nat && p a) eqn:Ea; auto. cbn [map]. constructor; auto.
    intro Hin. apply S1. apply in_map_iff in Hin. destruct Hin as (b & B1 & B2). apply filter_In in B2.
    destruct B2 as [B2 B3]. apply andb_true_iff in B3. destruct B3 as [B3 _]. apply andb_true_iff in Ea. destruct Ea as [Ea _].
    apply Nat.eqb_eq in B3. apply Nat.eqb_eq in Ea. apply in_map_iff. exists b. split; auto. congruence.
  - intros x Hx. apply in_map_iff in Hx. destruct Hx as (b & <- & Hb). apply filter_In in Hb. apply Hk. tauto.
Qed.

Section FR.
  Variable u : Q.
  Variable o : fops.
  Hypothesis Hu : 0 <= u.
  Hypothesis Hu1 : u <= 1.
  Hypothesis Ho : std_model u o.
  Hypothesis Hmono : mono_ops2 o.
  Variable n : nat.
  Variable W : Q.
  Hypothesis HW : 1 <= W.
  Let N := qn n.
  Let nw := N * W.
  Let eta := u * (60 * nw).
  Let nu := N * eta.
  Variable eps : Q.
  Hypothesis Heps0 : 0 < eps.
  Hypothesis Hnu : 32 * nu <= eps.
  Hypothesis HepsN2 : 32 * (N * (N * eps)) <= 1.
  Variable d : Q.
  Hypothesis Hd1 : d <= eps.
  Variable it ita : graph -> graph.
  Hypothesis Hita : forall l, Permutation (ita l) l.
  Variable itn : network -> network.
  Hypothesis Hitn : forall G, Permutation (itn G) G.
  Variable mc mr : solver.
  Hypothesis Hmc : SinkSideSpecR d n mc.
  Hypothesis Hmr : SrcSideSpecR d n mr.
  Variable E : graph.
  Hypothesis Hit : Permutation (it E) E.
  Variable j : nat.
  Hypothesis Hjn : (j < n)%nat.
  Hypothesis HE : graph_on (seq 0 n) E.
  Hypothesis Hs : simple E.
  Hypothesis Hf : forward E.
  Hypothesis Hw : forall a, In a E -> eps <= aw a.
  Hypothesis HWE : total E <= W.
  Variable y : list (Q * dbl).
  Hypothesis Hy : forall i, (i < j)%nat -> pbnd W (yat y i).
  Hypothesis Hya : forall i, (i < j)%nat -> fst (yat y i) <= incut E (mem [i]) + nu.

  Let nodes := seq 0 j.
  Let yf := fun i l => ycap (yat y i) l.
  Let f := incut E.
  Let FJ := fj f j.
  Let VS := fun l => vs nodes (fun i => yf i l).
  Let WIN := win nodes j.
  Let GV := gval E j y.
  Let rr := (1#4) * (eps * nw).

  Lemma rN1 : 1 <= N.
  Proof. exact (N1 n j Hjn). Qed.
  Lemma rHepsN : 32 * (N * eps) <= 1.
  Proof. assert (K := ge1_mul N (N * eps) rN1). assert (K2 := rN1). assert (0 <= N * eps) by (apply Qmult_le_0_compat; lra). specialize (K H). lra. Qed.
  Lemma rnwW : W <= nw.
  Proof. apply ge1_mul; [apply rN1|lra]. Qed.
  Lemma ret0 : 0 <= eta.
  Proof. unfold eta. assert (K := rnwW). apply Qmult_le_0_compat; lra. Qed.
  Lemma ret_nu : eta <= nu.
  Proof. apply ge1_mul; [apply rN1|apply ret0]. Qed.
  Lemma rNnu : nu <= N * nu /\ 32 * (N * nu) <= N * eps.
  Proof.
    split; [apply ge1_mul; [apply rN1|assert (K := ret0); assert (K2 := ret_nu); lra]|].
    assert (0 <= N * (eps - 32 * nu)) by (apply Qmult_le_0_compat; assert (K := rN1); lra). lra.
  Qed.
  Lemma repsN : eps <= N * eps.
  Proof. apply ge1_mul; [apply rN1|lra]. Qed.
  Lemma rnE : nonneg E.
  Proof. exact (graph_on_nonneg _ _ HE). Qed.

  Ltac atoms := assert (aN1 := rN1); assert (anw := rnwW); assert (aet0 := ret0); assert (aetn := ret_nu);
    assert (aNnu1 := proj1 rNnu); assert (aNnu2 := proj2 rNnu); assert (aeN := repsN); assert (aeN1 := rHepsN).

  Lemma r_add a b : - (60 * nw) <= a + b -> a + b <= 60 * nw -> near eta (fadd o a b) (a + b).
  Proof. exact (h_add u o Hu Ho n W a b). Qed.
  Lemma r_sub a b : - (60 * nw) <= a - b -> a - b <= 60 * nw -> near eta (fsub o a b) (a - b).
  Proof. exact (h_sub u o Hu Ho n W a b). Qed.
  Lemma r_mul a b : - (60 * nw) <= a * b -> a * b <= 60 * nw -> near eta (fmul o a b) (a * b).
  Proof. exact (h_mul u o Hu Ho n W a b). Qed.
  Lemma rn2u : 60 * (N * N * u) <= nu.
  Proof. exact (n2u u Hu n W HW eps Heps0 Hnu j Hjn). Qed.

  (** The values update_base stands for. *)
  Definition exb (ns : list nat) (T0 : cset) (i : nat) : Q * Q :=
    (qsum (fun a => if (negb (mem ns (asrc a)) && negb (mem T0 (asrc a))) && (adst a =? i)%nat then aw a else 0) E,
     qsum (fun a => if mem T0 (adst a) && (asrc a =? i)%nat then aw a else 0) E).

  Record frep (G : network) (base : nat -> Q * Q) (ns : list nat) (T0 : cset) (k : nat) : Prop := {
    fr_rep : rep E j G (exb ns T0) ns T0;
    fr_b1 : forall i, In i ns -> near ((1#30) * eta) (fst (base i)) (fst (exb ns T0 i)) /\ 0 <= fst (base i);
    fr_b2 : forall i, In i ns -> near ((1#30) * eta) (snd (base i)) (snd (exb ns T0 i)) /\ 0 <= snd (base i);
    fr_len : (length G <= n * n + 4 * n + 2)%nat;
    fr_stc : stc G + 11 * W * qn (length ns) <= 11 * W * qn j + qn k * rr }.

  (** Capacities are not negative, those at the source and the sink are bounded. *)
  Definition capok (G : network) : Prop := forall a, In a G -> 0 <= ncap a /\
    match nsrc a, ndst a with NSrc, NV _ | NV _, NSnk => ncap a <= 10 * W | _, _ => True end.

  Lemma sub_total (p : arc -> bool) : 0 <= qsum (fun a => if p a then aw a else 0) E /\ qsum (fun a => if p a then aw a else 0) E <= W.
  Proof.
    split.
    - apply qsum_nonneg. intros a Ha. assert (K := rnE a Ha). destruct (p a); lra.
    - apply Qle_trans with (total E); auto. apply qsum_le. intros a Ha. assert (K := rnE a Ha). destruct (p a); lra.
  Qed.

  Lemma rep_lt G base ns T0 i : rep E j G base ns T0 -> In i ns -> (i < j)%nat.
  Proof. intros R Hi. apply (r_incl _ _ _ _ _ _ R) in Hi. apply in_seq in Hi. lia. Qed.

  Lemma rep_len G base ns T0 : rep E j G base ns T0 -> (length ns <= j)%nat.
  Proof.
    intro R. assert (K := NoDup_incl_length (r_nodup _ _ _ _ _ _ R) (r_incl _ _ _ _ _ _ R)). rewrite seq_length in K. auto.
  Qed.

  Definition xterm (ns : list nat) (T0 : cset) (l : Q) (i : nat) (x : bool) : Q :=
    let c := ycap (yat y i) l in
    if x then (if Qltb c 0 then - c else 0) + fst (exb ns T0 i) else snd (exb ns T0 i) + qmax 0 c.

  Lemma rterm_near G base ns T0 k l i x : frep G base ns T0 k -> In i ns -> - (6 * W) <= l -> l <= 6 * W ->
    near ((61#30) * eta) (rterm o y base l i x) (xterm ns T0 l i x) /\ 0 <= rterm o y base l i x /\ rterm o y base l i x <= 10 * W.
  Proof.
    intros R Hi L1 L2. atoms. assert (ij := rep_lt _ _ _ _ _ (fr_rep _ _ _ _ _ R) Hi). assert (P := Hy i ij).
    assert (K := f_ycap_near u o Hu Ho n ltac:(lia) W HW nw ltac:(reflexivity) (yat y i) l P ltac:(lra) ltac:(lra)).
    fold eta in K. assert (B := ycap_abs W (yat y i) l (6 * W) P ltac:(lra) L1 L2).
    destruct (fr_b1 _ _ _ _ _ R i Hi) as [[B1 B1'] B10]. destruct (fr_b2 _ _ _ _ _ R i Hi) as [[B2 B2'] B20].
    assert (X1 := sub_total (fun a => (negb (mem ns (asrc a)) && negb (mem T0 (asrc a))) && (adst a =? i)%nat)).
    assert (X2 := sub_total (fun a => mem T0 (adst a) && (asrc a =? i)%nat)).
    cbv beta in X1, X2. change (0 <= fst (exb ns T0 i) /\ fst (exb ns T0 i) <= W) in X1.
    change (0 <= snd (exb ns T0 i) /\ snd (exb ns T0 i) <= W) in X2.
    unfold rterm, xterm. cbv zeta. set (e := exb ns T0 i) in *.
    set (c := f_ycap o (yat y i) l) in *. set (c' := ycap (yat y i) l) in *. destruct K as [K1 K2].
    destruct x.
    - set (m := if Qltb c 0 then - c else 0). set (m' := if Qltb c' 0 then - c' else 0).
      assert (M : near eta m m' /\ 0 <= m /\ m <= 8 * W + eta).
      { unfold m, m', near. destruct (Qltb c 0) eqn:A, (Qltb c' 0) eqn:B';
        repeat match goal with H : Qltb _ _ = true |- _ => apply Qltb_true in H | H : Qltb _ _ = false |- _ => apply Qltb_false in H end;
        repeat split; lra. }
      destruct M as ([M1 M2] & M3 & M4).
      assert (R1 : near eta (fadd o m (fst (base i))) (m + fst (base i))) by (apply r_add; lra).
      destruct (Ho m (fst (base i))) as (A & _). destruct (keep_sign u Hu1 _ _ A) as [KS _]. specialize (KS ltac:(lra)).
      destruct R1. split; [split; lra|]. split; [exact KS|lra].
    - set (m := qmax 0 c). set (m' := qmax 0 c').
      assert (M : near eta m m' /\ 0 <= m /\ m <= 8 * W + eta).
      { unfold m, m', near. destruct (qmax_spec 0 c) as [[X Y]|[X Y]], (qmax_spec 0 c') as [[X' Y']|[X' Y']]; rewrite Y, Y'; repeat split; lra. }
      destruct M as ([M1 M2] & M3 & M4).
      assert (R1 : near eta (fadd o (snd (base i)) m) (snd (base i) + m)) by (apply r_add; lra).
      destruct (Ho (snd (base i)) m) as (A & _). destruct (keep_sign u Hu1 _ _ A) as [KS _]. specialize (KS ltac:(lra)).
      destruct R1. split; [split; lra|]. split; [exact KS|lra].
  Qed.

  Lemma frep_upd G base ns T0 k l : frep G base ns T0 k -> - (6 * W) <= l -> l <= 6 * W ->
    frep (f_upd o y base l G) base ns T0 k /\ capok (f_upd o y base l G).
  Proof.
    intros R L1 L2. assert (RT := fun i x Hi => rterm_near G base ns T0 k l i x R Hi L1 L2).
    assert (C : forall a, In a (f_upd o y base l G) -> (0 <= ncap a /\
       match nsrc a, ndst a with NSrc, NV _ | NV _, NSnk => ncap a <= 10 * W | _, _ => True end) /\
       nnode_ok ns (nsrc a) /\ nnode_ok ns (ndst a)).
    { intros a Ha. unfold f_upd in Ha. apply in_map_iff in Ha. destruct Ha as ([v w c] & <- & Hb).
      destruct (r_nn _ _ _ _ _ _ (fr_rep _ _ _ _ _ R) _ Hb) as (A & B & D). cbn [nsrc ndst ncap] in *.
      destruct v as [| |v], w as [| |w]; cbn [f_upd_arc nsrc ndst ncap]; auto.
      - cbn in D. destruct (RT w true D) as (_ & R1 & R2). auto.
      - cbn in B. destruct (RT v false B) as (_ & R1 & R2). auto. }
    split; [|intros a Ha; apply C; auto]. destruct R as [R B1 B2 R3 R4]. constructor; auto.
    - destruct R. constructor; auto.
      + rewrite f_upd_inn; auto.
      + rewrite f_upd_sT; auto.
      + rewrite f_upd_kT; auto.
      + intros a Ha. destruct (C a Ha) as ((K1 & _) & K2 & K3). auto.
    - unfold f_upd. rewrite map_length. auto.
    - rewrite f_upd_stc. auto.
  Qed.

  (** Two networks that an update makes equal. *)
  Definition same (base : nat -> Q * Q) (G1 G2 : network) : Prop :=
    forall l, f_upd o y base l G1 = f_upd o y base l G2.

  Lemma frep_same G Gr base ns T0 k : frep G base ns T0 k -> same base Gr G -> capok Gr -> frep Gr base ns T0 k.
  Proof.
    intros R S C. specialize (S 0). destruct R as [R B1 B2 R3 R4]. constructor; auto.
    - destruct R. constructor; auto.
      + rewrite <- (f_upd_inn o y base 0), S, f_upd_inn. auto.
      + rewrite <- (f_upd_sT o y base 0), S, f_upd_sT. auto.
      + rewrite <- (f_upd_kT o y base 0), S, f_upd_kT. auto.
      + intros a Ha. split; [apply C; auto|].
        assert (K : In (f_upd_arc o y base 0 a) (f_upd o y base 0 G)) by (rewrite <- S; apply in_map; auto).
        apply in_map_iff in K. destruct K as (b & K1 & K2). destruct (r_nn b K2) as (_ & K3 & K4).
        destruct (f_upd_ends o y base 0 a) as [E1 E2]. destruct (f_upd_ends o y base 0 b) as [E3 E4].
        rewrite <- E1, <- E2, <- K1, E3, E4. auto.
    - assert (L : length (f_upd o y base 0 Gr) = length (f_upd o y base 0 G)) by (rewrite S; auto).
      unfold f_upd in L. rewrite !map_length in L. lia.
    - assert (L : stc Gr == stc G).
      { rewrite <- (f_upd_stc o y base 0 Gr), S, f_upd_stc. reflexivity. }
      rewrite L. auto.
  Qed.

  Lemma frep_k G base ns T0 k k' : frep G base ns T0 k -> (k <= k')%nat -> frep G base ns T0 k'.
  Proof.
    intros [R B1 B2 R3 R4] Hk. constructor; auto. atoms.
    assert (0 <= rr) by (unfold rr; apply Qmult_le_0_compat; [lra|apply Qmult_le_0_compat; lra]).
    assert (K := qn_le k k' Hk). assert (qn k * rr <= qn k' * rr) by (apply Qmult_le_compat_r; auto). lra.
  Qed.

  Lemma frep_near G base ns T0 k l X : frep G base ns T0 k -> - (6 * W) <= l -> l <= 6 * W ->
    near ((61#30) * nu) (cut (f_upd o y base l G) X) (cut (upd y (exb ns T0) l G) X).
  Proof.
    intros R L1 L2. rewrite f_cut_upd, cut_upd. assert (R0 := fr_rep _ _ _ _ _ R).
    rewrite (r_s _ _ _ _ _ _ R0), (r_k _ _ _ _ _ _ R0).
    assert (K : near (qn (length ns) * ((61#30) * eta))
      (qsum (fun i => if X i then rterm o y base l i true else 0) ns + qsum (fun i => if X i then 0 else rterm o y base l i false) ns)
      (qsum (fun i => if X i then xterm ns T0 l i true else 0) ns + qsum (fun i => if X i then 0 else xterm ns T0 l i false) ns)).
    { assert (A : forall l0, incl l0 ns -> near (qn (length l0) * ((61#30) * eta))
        (qsum (fun i => if X i then rterm o y base l i true else 0) l0 + qsum (fun i => if X i then 0 else rterm o y base l i false) l0)
        (qsum (fun i => if X i then xterm ns T0 l i true else 0) l0 + qsum (fun i => if X i then 0 else xterm ns T0 l i false) l0)).
      { induction l0 as [|i l0 IH]; intro Hl; cbn [qsum length].
        - rewrite qn_0. split; lra.
        - destruct IH as [I1 I2]; [intros z Hz; apply Hl; right; auto|].
          destruct (rterm_near G base ns T0 k l i (X i) R (Hl i (or_introl eq_refl)) L1 L2) as ([M1 M2] & _).
          rewrite qn_S. destruct (X i); split; lra. }
      apply A. apply incl_refl. }
    assert (B : qn (length ns) * ((61#30) * eta) <= (61#30) * nu).
    { unfold nu. assert (Ln := rep_len _ _ _ _ R0).
      assert (L : qn (length ns) <= N) by (apply qn_le; lia). atoms.
      assert (0 <= (N - qn (length ns)) * ((61#30) * eta)) by (apply Qmult_le_0_compat; lra).
      assert ((N - qn (length ns)) * ((61#30) * eta) == (61#30) * (N * eta) - qn (length ns) * ((61#30) * eta)) by ring. lra. }
    destruct K. unfold xterm in *. cbv zeta in *. split; lra.
  Qed.

  Lemma frep_set G base ns T0 k l Z : frep G base ns T0 k -> - (6 * W) <= l -> l <= 6 * W ->
    (forall x, In x T0 -> Z x = true) -> (forall x, Z x = true -> In x ns \/ In x T0) ->
    near ((61#30) * nu) (cut (f_upd o y base l G) Z) (GV l Z + kst E j y G ns T0 l).
  Proof.
    intros R L1 L2 H1 H2. assert (K := frep_near G base ns T0 k l Z R L1 L2).
    assert (C := rep_cut_any eps E n j HE y G (exb ns T0) ns T0 l Z (fr_rep _ _ _ _ _ R)).
    assert (D : gval E j y l (fun x => mem (filter Z ns) x || mem T0 x) == GV l Z).
    { assert (KX : forall x, mem (filter Z ns) x || mem T0 x = Z x).
      { intro x. rewrite mem_filter. destruct (Z x) eqn:Et.
        - rewrite andb_true_r. apply orb_true_iff. rewrite !mem_In. auto.
        - rewrite andb_false_r. simpl. apply mem_false. intro C0. apply H1 in C0. congruence. }
      apply GV_ext; intros; apply KX. }
    rewrite D in C. destruct K. split; lra.
  Qed.

  Lemma krr k : (k <= 3 * n)%nat -> qn k * rr <= W.
  Proof.
    intro Hk. atoms. assert (A : qn k <= 3 * N).
    { assert (K := qn_le k (3 * n) Hk). assert (M : qn (3 * n) == 3 * N) by (unfold N, qn; rewrite Nat2Z.inj_mul, inject_Z_mult; reflexivity). lra. }
    assert (R0 : 0 <= rr) by (unfold rr; apply Qmult_le_0_compat; [lra|apply Qmult_le_0_compat; lra]).
    apply Qle_trans with (3 * N * rr); [apply Qmult_le_compat_r; auto|].
    unfold rr, nw. assert (B : 3 * N * ((1 # 4) * (eps * (N * W))) == (3#4) * (N * (N * eps)) * W) by ring. rewrite B.
    assert (0 <= (1 - (3#4) * (N * (N * eps))) * W) by (apply Qmult_le_0_compat; lra). lra.
  Qed.

  Lemma stc_bound G base ns T0 k : frep G base ns T0 k -> (k <= 3 * n)%nat -> stc G + 11 * W * qn (length ns) <= 12 * nw.
  Proof.
    intros R Hk. assert (A := fr_stc _ _ _ _ _ R). assert (B := krr k Hk). atoms.
    assert (C : qn j <= N) by (apply qn_le; lia).
    assert (0 <= W * (N - qn j)) by (apply Qmult_le_0_compat; lra). unfold nw in *. lra.
  Qed.

  Lemma fr_cutb G base ns T0 k l X : frep G base ns T0 k -> (k <= 3 * n)%nat -> - (6 * W) <= l -> l <= 6 * W ->
    0 <= cut (f_upd o y base l G) X /\ cut (f_upd o y base l G) X <= 34 * nw.
  Proof.
    intros R Hk L1 L2. atoms. assert (R0 := fr_rep _ _ _ _ _ R). split.
    - apply qsum_nonneg. intros a Ha. destruct (frep_upd G base ns T0 k l R L1 L2) as [_ C]. destruct (C a Ha) as [C1 _].
      destruct (_ && _); lra.
    - rewrite f_cut_upd. rewrite (r_s _ _ _ _ _ _ R0), (r_k _ _ _ _ _ _ R0), (r_inn _ _ _ _ _ _ R0).
      assert (S := stc_bound G base ns T0 k R Hk).
      assert (A : cut (inner_arcs E ns) X <= W).
      { unfold cut, inner_arcs. rewrite qsum_map, qsum_filter. eapply Qle_trans; [|exact HWE]. apply qsum_le. intros a Ha.
        assert (K := rnE a Ha). cbn [ncap nsrc ndst side]. destruct (_ && _); [|lra]. destruct (_ && _); lra. }
      assert (B : forall x, qsum (fun i => if X i then (if x : bool then rterm o y base l i true else 0) else (if x then 0 else rterm o y base l i false)) ns <= 10 * W * qn (length ns)).
      { intro x. rewrite <- qsum_const. apply qsum_le. intros i Hi.
        destruct (rterm_near G base ns T0 k l i true R Hi L1 L2) as (_ & _ & A1).
        destruct (rterm_near G base ns T0 k l i false R Hi L1 L2) as (_ & _ & A2). destruct (X i), x; lra. }
      assert (B1 := B true). assert (B2 := B false). cbv iota in B1, B2.
      assert (Ln := rep_len _ _ _ _ R0). assert (L : qn (length ns) <= N) by (apply qn_le; lia).
      assert (0 <= W * (N - qn (length ns))) by (apply Qmult_le_0_compat; lra). assert (Q0 := qn_nonneg (length ns)).
      assert (0 <= W * qn (length ns)) by (apply Qmult_le_0_compat; lra). unfold nw in *. lra.
  Qed.

  Lemma qlen : qn (n * n + 4 * n + 2) <= 7 * (N * N).
  Proof.
    atoms. rewrite !qn_plus, (qn_sq n). fold N.
    assert (M : qn (4 * n) == 4 * N) by (unfold N, qn; rewrite Nat2Z.inj_mul, inject_Z_mult; reflexivity).
    rewrite M. assert (M2 : qn 2 == 2) by reflexivity. rewrite M2. assert (0 <= N * (N - 1)) by (apply Qmult_le_0_compat; lra). lra.
  Qed.

  (** A sum of capacities of a network of the allowed size. *)
  Lemma capsum_near q c A : (forall a : narc, In a q -> 0 <= ncap a) -> (length q <= n * n + 4 * n + 2)%nat ->
    qsum ncap q <= A * nw -> 0 <= A -> A * (14#60) <= c ->
    near (c * (N * nu)) (fsum o 0 (map ncap q)) (qsum ncap q).
  Proof.
    intros Hq Hl HA A0 Hc. atoms. assert (N2 := rn2u). assert (QK := qlen).
    assert (QS : qsum Qabs (map ncap q) == qsum ncap q).
    { rewrite qsum_map. apply qsum_ext. intros x Hx. apply Qabs_pos. auto. }
    assert (K := fsum_near u o Hu Ho (map ncap q) 0 (A * nw) (n * n + 4 * n + 2)).
    rewrite map_length, QS, qsum_map in K. change (Qabs 0) with 0 in K.
    assert (QU : 2 * qn (n * n + 4 * n + 2) * u <= 14 * (N * N * u)).
    { assert (0 <= (7 * (N * N) - qn (n * n + 4 * n + 2)) * u) by (apply Qmult_le_0_compat; lra). lra. }
    assert (U0 : 0 <= N * N * u) by (repeat apply Qmult_le_0_compat; lra).
    specialize (K Hl ltac:(lra) ltac:(lra)).
    change (qsum (fun x : narc => ncap x) q) with (qsum ncap q) in K.
    assert (B : 2 * qn (n * n + 4 * n + 2) * u * (A * nw) <= c * (N * nu)).
    { assert (0 <= A * nw) by (apply Qmult_le_0_compat; lra).
      apply Qle_trans with (14 * (N * N * u) * (A * nw)); [apply Qmult_le_compat_r; lra|].
      assert (P : 14 * (N * N * u) * (A * nw) == (A * (14#60)) * (N * nu)) by (unfold nu, eta; field). rewrite P.
      apply Qmult_le_compat_r; auto. lra. }
    destruct K. split; lra.
  Qed.

  Lemma fr_net_cut G base ns T0 k l S : frep G base ns T0 k -> (k <= 3 * n)%nat -> - (6 * W) <= l -> l <= 6 * W ->
    near (8 * (N * nu)) (f_net_cut o itn (f_upd o y base l G) S) (cut (f_upd o y base l G) (mem S)).
  Proof.
    intros R Hk L1 L2. unfold f_net_cut. set (NT := f_upd o y base l G).
    set (p := fun a => negb (side (mem S) (nsrc a)) && side (mem S) (ndst a)).
    assert (P1 : Permutation (filter p (itn NT)) (filter p NT)) by (apply filter_perm; apply Hitn).
    set (q := filter p (itn NT)) in *.
    assert (Lc : qsum ncap q == cut NT (mem S)) by (rewrite (qsum_perm ncap _ _ P1), qsum_filter; reflexivity).
    destruct (frep_upd G base ns T0 k l R L1 L2) as [R' C'].
    assert (Ll : (length q <= n * n + 4 * n + 2)%nat).
    { rewrite (Permutation_length P1). eapply Nat.le_trans; [apply filter_len|]. apply (fr_len _ _ _ _ _ R'). }
    assert (Hl : forall a, In a q -> 0 <= ncap a).
    { intros a Ha. apply C'. apply (Permutation_in _ P1) in Ha. apply filter_In in Ha. tauto. }
    destruct (fr_cutb G base ns T0 k l (mem S) R Hk L1 L2) as [_ C2]. fold NT in C2.
    rewrite <- Lc. apply (capsum_near q 8 34); auto; lra.
  Qed.

  Lemma fsum_nonneg l : forall acc, 0 <= acc -> (forall x, In x l -> 0 <= x) -> 0 <= fsum o acc l.
  Proof.
    unfold fsum. induction l as [|x l IH]; intros acc Ha Hl; cbn [fold_left]; auto.
    apply IH; [|intros; apply Hl; right; auto].
    destruct (Ho acc x) as (A & _). destruct (keep_sign u Hu1 _ _ A) as [KS _]. apply KS.
    assert (K := Hl x (or_introl eq_refl)). lra.
  Qed.

  Lemma f_csum_nonneg G p : (forall a, In a G -> 0 <= ncap a) -> 0 <= f_csum o itn eps p G.
  Proof.
    intro HG. unfold f_csum. apply fsum_nonneg; [lra|]. intros x Hx. apply in_map_iff in Hx.
    destruct Hx as (a & <- & Ha). apply filter_In in Ha. apply HG.
    apply (Permutation_in _ (Hitn G)). tauto.
  Qed.

  Lemma f_csum_le G (p : narc -> bool) A : (forall a, In a G -> 0 <= ncap a) -> (length G <= n * n + 4 * n + 2)%nat ->
    qsum (fun a => if p a then ncap a else 0) G <= A -> A <= 12 * nw ->
    f_csum o itn eps p G <= A + rr.
  Proof.
    intros HG HL HA HA2. atoms. unfold f_csum.
    set (pp := fun a => negb (Qltb (ncap a) eps) && p a).
    assert (P1 : Permutation (filter pp (itn G)) (filter pp G)) by (apply filter_perm; apply Hitn).
    set (q := filter pp (itn G)) in *.
    assert (Lq : qsum ncap q <= A).
    { rewrite (qsum_perm ncap _ _ P1), qsum_filter. eapply Qle_trans; [|exact HA]. apply qsum_le. intros a Ha.
      assert (K := HG a Ha). unfold pp. destruct (negb _), (p a); cbn [andb]; lra. }
    assert (K := capsum_near q (28#10) 12).
    assert (Ll : (length q <= n * n + 4 * n + 2)%nat).
    { rewrite (Permutation_length P1). eapply Nat.le_trans; [apply filter_len|]. auto. }
    assert (Hl : forall a, In a q -> 0 <= ncap a).
    { intros a Ha. apply HG. apply (Permutation_in _ P1) in Ha. apply filter_In in Ha. tauto. }
    specialize (K Hl Ll ltac:(lra) ltac:(lra) ltac:(lra)). destruct K as [K1 K2].
    assert (B : N * eps <= eps * nw).
    { unfold nw. assert (0 <= N * eps * (W - 1)) by (apply Qmult_le_0_compat; [apply Qmult_le_0_compat|]; lra).
      assert (N * eps * (W - 1) == eps * (N * W) - N * eps) by ring. lra. }
    unfold rr. lra.
  Qed.

  Lemma f_new_base_ok (p : arc -> bool) (k k' : arc -> nat) i : NoDup (map (fun a => (k' a, k a)) E) ->
    (forall a, In a E -> In (k' a) (seq 0 n)) ->
    near ((1#30) * eta) (fsum o 0 (map aw (ita (filter (fun a => (k a =? i)%nat && p a) E))))
      (qsum (fun a => if (k a =? i)%nat && p a then aw a else 0) E) /\
    0 <= fsum o 0 (map aw (ita (filter (fun a => (k a =? i)%nat && p a) E))).
  Proof.
    intros H1 H2. atoms. set (fl := filter (fun a => (k a =? i)%nat && p a) E).
    assert (P := Hita fl). assert (Ll : (length fl <= n)%nat) by (apply (deg_bound n E k k' p i HE H1 H2)).
    assert (Q : qsum aw (ita fl) == qsum (fun a => if (k a =? i)%nat && p a then aw a else 0) E).
    { rewrite (qsum_perm aw _ _ P). unfold fl. rewrite qsum_filter. reflexivity. }
    assert (Hl : forall a, In a (ita fl) -> 0 <= aw a).
    { intros a Ha. apply rnE. apply (Permutation_in _ P) in Ha. apply filter_In in Ha. tauto. }
    split.
    - assert (ST := sub_total (fun a => (k a =? i)%nat && p a)). cbv beta in ST. destruct ST as [ST1 ST2].
      assert (QS : qsum Qabs (map aw (ita fl)) == qsum aw (ita fl)).
      { rewrite qsum_map. apply qsum_ext. intros x Hx. apply Qabs_pos. auto. }
      assert (K := fsum_near u o Hu Ho (map aw (ita fl)) 0 W n).
      rewrite map_length, QS, qsum_map in K. change (Qabs 0) with 0 in K.
      rewrite (Permutation_length P) in K. fold N in K.
      assert (N2 := rn2u). assert (U0 : 0 <= N * u) by (apply Qmult_le_0_compat; lra).
      assert (U1 : N * u <= N * N * u).
      { assert (0 <= (N - 1) * (N * u)) by (apply Qmult_le_0_compat; lra).
        assert ((N - 1) * (N * u) == N * N * u - N * u) by ring. lra. }
      specialize (K Ll ltac:(lra) ltac:(lra)).
      change (qsum (fun x : arc => aw x) (ita fl)) with (qsum aw (ita fl)) in K. rewrite Q in K.
      assert (B : 2 * N * u * W == (1#30) * eta) by (unfold eta, nw; field). unfold near in K. rewrite B in K.
      destruct K. split; lra.
    - apply fsum_nonneg; [lra|]. intros x Hx. apply in_map_iff in Hx. destruct Hx as (a & <- & Ha). auto.
  Qed.

  Definition gcap (Tl Tr : cset) (a : narc) : Q :=
    match nsrc a, ndst a with
    | NSrc, NSnk => ncap a
    | NSrc, NV i => if mem Tr i then 10 * W else 0
    | NV i, NSnk => if mem Tl i then 0 else 10 * W
    | NV _, NV v => if mem Tr v then ncap a else 0
    | _, _ => 0
    end.

  Lemma gcap_sum Tl Tr G : qsum (gcap Tl Tr) G ==
    stc G + 10 * W * qn (length (filter (mem Tr) (sT G))) + 10 * W * qn (length (filter (fun i => negb (mem Tl i)) (kT G)))
    + qsum (fun a => match ndst a with NV v => if mem Tr v then ncap a else 0 | _ => 0 end) (inn G).
  Proof.
    unfold stc, sT, kT, inn, gcap. induction G as [|[v w c] G IH]; [cbn [qsum flat_map filter length]; rewrite qn_0; lra|].
    destruct v as [| |v], w as [| |w]; cbn [qsum flat_map filter nsrc ndst ncap app]; rewrite IH; try lra.
    - cbn [filter]. destruct (mem Tr w); cbn [length]; rewrite ?qn_S; lra.
    - cbn [filter]. destruct (mem Tl v); cbn [negb length]; rewrite ?qn_S; lra.
  Qed.

  Lemma inner_part ns Tr : qsum (fun a => match ndst a with NV v => if mem Tr v then ncap a else 0 | _ => 0 end) (inner_arcs E ns) <=
    W * qn (length (filter (mem Tr) ns)).
  Proof.
    unfold inner_arcs. rewrite qsum_map, qsum_filter. cbn [ndst ncap].
    destruct (filter (mem Tr) ns) as [|z l] eqn:Ef.
    - rewrite qsum_zero; [cbn [length]; rewrite qn_0; lra|]. intros a _.
      destruct (mem ns (asrc a) && mem ns (adst a)) eqn:E1; [|reflexivity]. apply andb_true_iff in E1. destruct E1 as [_ E1].
      destruct (mem Tr (adst a)) eqn:E2; [|reflexivity]. exfalso. assert (In (adst a) []); [|auto]. rewrite <- Ef.
      apply filter_In. split; auto. apply mem_In; auto.
    - apply Qle_trans with W.
      + eapply Qle_trans; [|exact HWE]. apply qsum_le. intros a Ha. assert (K := rnE a Ha).
        destruct (_ && _); [|lra]. destruct (mem Tr (adst a)); lra.
      + assert (K : 1 <= qn (length (z :: l))) by (change 1 with (qn 1); apply qn_le; simpl; lia).
        assert (0 <= W * (qn (length (z :: l)) - 1)) by (apply Qmult_le_0_compat; lra). lra.
  Qed.

  Lemma split3 (ns ks : list nat) Tl Tr : NoDup ns -> NoDup ks -> incl ks ns -> incl Tr Tl ->
    (forall x, In x ks -> In x Tl /\ ~ In x Tr) ->
    (length (filter (mem Tr) ns) + length (filter (fun i => negb (mem Tl i)) ns) + length ks <= length ns)%nat.
  Proof.
    intros H1 H2 H3 H4 H5. rewrite <- !app_length. apply NoDup_incl_length.
    - apply NoDup_app_intro; [apply NoDup_app_intro|auto|].
      + apply NoDup_filter; auto.
      + apply NoDup_filter; auto.
      + intros x Hx Hx2. apply filter_In in Hx. apply filter_In in Hx2. destruct Hx as [_ Hx]. destruct Hx2 as [_ Hx2].
        apply mem_In in Hx. apply negb_true_iff in Hx2. apply mem_false in Hx2. auto.
      + intros x Hx Hk. apply H5 in Hk. apply in_app_or in Hx. destruct Hx as [Hx|Hx]; apply filter_In in Hx; destruct Hx as [_ Hx].
        * apply mem_In in Hx. tauto.
        * apply negb_true_iff in Hx. apply mem_false in Hx. tauto.
    - intros x Hx. apply in_app_or in Hx. destruct Hx as [Hx|Hx]; auto. apply in_app_or in Hx.
      destruct Hx as [Hx|Hx]; apply filter_In in Hx; tauto.
  Qed.

  Lemma stc_app G H : stc (G ++ H) == stc G + stc H.
  Proof. apply qsum_app. Qed.

  (** Contraction of a represented network. *)
  Lemma f_contract_ok G base ns T0 k Tl Tr : frep G base ns T0 k -> capok G -> (k <= 3 * n)%nat ->
    incl T0 Tr -> incl Tr Tl -> (forall x, In x Tl -> In x ns \/ In x T0) ->
    csorted Tl -> csorted Tr ->
    exists ks C, f_contract o itn eps (S j) j (S (S j)) (ccompl Tl (S (S j))) Tr G = Ok (ks, C) /\
      frep C (f_new_base o ita E (ccompl Tl (S (S j))) Tr) ks Tr (S k) /\
      (forall x, In x Tl -> In x ks \/ In x Tr) /\ incl ks Tl.
  Proof.
    intros FR CO Hk. assert (R := fr_rep _ _ _ _ _ FR). revert FR.
    intros FR I1 I2 I3 Sl Sr. set (Sc := ccompl Tl (S (S j))).
    assert (Tlj : forall x, In x Tl -> (x <= j)%nat).
    { intros x Hx. destruct (I3 x Hx) as [K|K].
      - apply (r_incl _ _ _ _ _ _ R) in K. unfold nodes in K. apply in_seq in K. lia.
      - destruct (r_win _ _ _ _ _ _ R x (proj2 (mem_In _ _) K)) as [K'|K']; [apply in_seq in K'; lia|lia]. }
    assert (Trj : In j Tr) by (apply I1; apply R).
    assert (ScI : forall x, In x Sc <-> (x <= S j)%nat /\ ~ In x Tl).
    { intro x. unfold Sc, ccompl. rewrite filter_In, in_seq, negb_true_iff, mem_false. split; intros [A B]; split; auto; lia. }
    set (er := erased (S j) j Sc Tr).
    assert (erI : forall x, In x er <-> (x <= j)%nat /\ x <> j /\ (~ In x Tl \/ In x Tr)).
    { intro x. unfold er, erased. rewrite in_app_iff, !filter_In, ScI, !negb_true_iff, !Nat.eqb_neq. split.
      - intros [[[A B] C]|[A B]].
        + split; [lia|]. split; auto. intros ->. apply B. apply I2. auto.
        + split; auto.
      - intros (A & B & [C|C]); [left; repeat split; auto; lia|right; auto]. }
    assert (erN : NoDup er).
    { unfold er, erased. apply NoDup_app_intro.
      - apply NoDup_filter. unfold Sc, ccompl. apply NoDup_filter. apply seq_NoDup.
      - apply NoDup_filter. apply csorted_NoDup; auto.
      - intros x Hx Hx2. apply filter_In in Hx. apply filter_In in Hx2. destruct Hx as [Hx _].
        apply ScI in Hx. apply Hx. apply I2. tauto. }
    set (ks := kept (S j) j (S (S j)) Sc Tr).
    assert (ksI : forall x, In x ks <-> In x Tl /\ ~ In x Tr).
    { intro x. unfold ks, kept. rewrite filter_In, in_seq, !andb_true_iff, !negb_true_iff, !Nat.eqb_neq.
      fold er. rewrite mem_false, erI. split.
      - intros (A & (B & C) & D). assert (x < j)%nat by lia.
        destruct (in_dec Nat.eq_dec x Tl) as [K|K]; [|exfalso; apply D; repeat split; auto; lia].
        split; auto. intro K'. apply D. repeat split; auto; lia.
      - intros [A B]. specialize (Tlj x A). assert (x <> j) by congruence. repeat split; auto; try lia. tauto. }
    assert (ksN : NoDup ks) by (unfold ks, kept; apply NoDup_filter; apply seq_NoDup).
    assert (ksns : incl ks ns).
    { intros x Hx. apply ksI in Hx. destruct Hx as [A B]. destruct (I3 x A) as [K|K]; auto. exfalso. auto. }
    unfold f_contract. cbv zeta. fold er. fold ks.
    rewrite (nodupb_true er erN).
    assert (F1 : forallb (fun i => (i <? S (S j))%nat) er = true).
    { apply forallb_forall. intros x Hx. apply erI in Hx. apply Nat.ltb_lt. lia. }
    rewrite F1.
    assert (F2 : mem er (S j) = false) by (apply mem_false; rewrite erI; lia).
    assert (F3 : mem er j = false) by (apply mem_false; rewrite erI; tauto).
    assert (F4 : (S j <? S (S j))%nat = true) by (apply Nat.ltb_lt; lia).
    assert (F5 : (j <? S (S j))%nat = true) by (apply Nat.ltb_lt; lia).
    rewrite F2, F3, F4, F5. cbn [negb andb].
    set (inS := fun u => mem Sc (nid (S j) j u)).
    set (inT := fun u => negb (mem Sc (nid (S j) j u)) && mem Tr (nid (S j) j u)).
    set (inR := fun u => negb (mem Sc (nid (S j) j u)) && negb (mem Tr (nid (S j) j u))).
    match goal with |- context [filter ?p G ++ _] => set (flt := filter p G) end.
    assert (Fd : flt = filter (fun a => negb (Qltb (ncap a) eps) && inR (nsrc a) && inR (ndst a)) G) by reflexivity.
    clearbody flt.
    match goal with |- exists ks' C', Ok (?k, ?c) = _ /\ _ => set (CC := c); exists k, c end.
    split; [reflexivity|].
    assert (RS : inR NSrc = false).
    { unfold inR. cbn [nid]. assert (mem Sc (S j) = true).
      { apply mem_In. apply ScI. split; [lia|]. intro K. apply Tlj in K. lia. }
      rewrite H. auto. }
    assert (RK : inR NSnk = false).
    { unfold inR. cbn [nid]. assert (mem Tr j = true) by (apply mem_In; auto). rewrite H. apply andb_false_r. }
    assert (RV : forall v, In v ns -> inR (NV v) = mem ks v).
    { intros v Hv. unfold inR. cbn [nid].
      assert (vj : (v < j)%nat) by (apply (r_incl _ _ _ _ _ _ R) in Hv; apply in_seq in Hv; lia).
      destruct (mem ks v) eqn:Ek.
      - apply mem_In in Ek. apply ksI in Ek. destruct Ek as [A B]. apply mem_false in B. rewrite B.
        assert (mem Sc v = false) by (apply mem_false; rewrite ScI; tauto). rewrite H. auto.
      - apply mem_false in Ek. rewrite ksI in Ek. destruct (mem Sc v) eqn:Esc; auto.
        apply mem_false in Esc. rewrite ScI in Esc. cbn [negb andb]. apply negb_false_iff. apply mem_In.
        destruct (in_dec Nat.eq_dec v Tr) as [K|K]; auto. exfalso. apply Ek. split; auto.
        destruct (in_dec Nat.eq_dec v Tl) as [K'|K']; auto. exfalso. apply Esc. split; [lia|auto]. }
    assert (FI : forall a, In a flt -> exists v w, nsrc a = NV v /\ ndst a = NV w /\ In v ks /\ In w ks /\ 0 <= ncap a).
    { intros a Ha. rewrite Fd in Ha. apply filter_In in Ha. destruct Ha as [Ha1 Ha2].
      apply andb_true_iff in Ha2. destruct Ha2 as [Ha2 Ha3]. apply andb_true_iff in Ha2. destruct Ha2 as [Ha0 Ha2].
      destruct (r_nn _ _ _ _ _ _ R a Ha1) as (K1 & K2 & K3).
      destruct (nsrc a) as [| |u0] eqn:Eu; [congruence|congruence|].
      destruct (ndst a) as [| |v] eqn:Ev; [congruence|congruence|].
      cbn in K2, K3. exists u0, v. rewrite (RV u0 K2) in Ha2. rewrite (RV v K3) in Ha3.
      apply mem_In in Ha2. apply mem_In in Ha3. auto. }
    assert (Finn : inn flt = inner_arcs E ks).
    { transitivity (filter (fun a => inR (nsrc a) && inR (ndst a)) (inn G)).
      - rewrite Fd. unfold inn. rewrite !filter_filter. apply filter_sub. intros a Ha.
        destruct (nsrc a) as [| |u0] eqn:Eu; [rewrite RS; rewrite andb_false_r; auto|rewrite RK; rewrite andb_false_r; auto|].
        destruct (ndst a) as [| |v] eqn:Ev; [rewrite RS; rewrite !andb_false_r; auto|rewrite RK; rewrite !andb_false_r; auto|].
        rewrite andb_true_r. cbn [andb].
        assert (In a (inn G)). { unfold inn. apply filter_In. split; auto. rewrite Eu, Ev. auto. }
        rewrite (r_inn _ _ _ _ _ _ R) in H. unfold inner_arcs in H. apply in_map_iff in H. destruct H as (e & <- & He).
        apply filter_In in He. destruct He as [He _]. cbn [ncap].
        assert (Qltb (aw e) eps = false) by (apply Qltb_false; apply Hw; auto). rewrite H. auto.
      - rewrite (r_inn _ _ _ _ _ _ R). unfold inner_arcs. rewrite filter_map, filter_filter. f_equal. apply filter_sub.
        intros a Ha. cbn [nsrc ndst].
        destruct (mem ns (asrc a)) eqn:E1, (mem ns (adst a)) eqn:E2; cbn [andb].
        + rewrite !RV by (apply mem_In; auto). auto.
        + symmetry. assert (mem ks (adst a) = false) by (apply mem_false; apply mem_false in E2; auto). rewrite H. apply andb_false_r.
        + symmetry. assert (mem ks (asrc a) = false) by (apply mem_false; apply mem_false in E1; auto). rewrite H. auto.
        + symmetry. assert (mem ks (asrc a) = false) by (apply mem_false; apply mem_false in E1; auto). rewrite H. auto. }
    assert (Cnn : forall p, 0 <= f_csum o itn eps p G).
    { intro p. apply f_csum_nonneg. intros a Ha. apply (CO a Ha). }
    assert (FS : sT flt = [] /\ kT flt = []).
    { clear -FI. induction flt as [|a l IH]; auto. destruct (FI a (or_introl eq_refl)) as (u0 & v & A & B & _).
      destruct IH as [IH1 IH2]; [intros b Hb; apply FI; right; auto|].
      unfold sT, kT in *. cbn [flat_map]. rewrite A, B, IH1, IH2. auto. }
    destruct FS as [FS FK].
    assert (Rep : rep E j CC (exb ks Tr) ks Tr).
    { constructor; auto.
      + intros x Hx. apply (r_incl _ _ _ _ _ _ R). auto.
      + intros x Hx. apply ksI in Hx. tauto.
      + intros x Hx. apply mem_In in Hx. apply I2 in Hx. assert (x <= j)%nat by auto.
        destruct (Nat.eq_dec x j); auto. left. apply in_seq. lia.
      + unfold CC. rewrite !inn_app, Finn. cbn [inn filter nsrc ndst app]. rewrite <- app_nil_r. f_equal.
        clear. induction ks as [|i l IH]; auto. cbn [flat_map]. rewrite !inn_app, IH, app_nil_r.
        repeat match goal with |- context [if Qltb eps ?q then _ else _] => destruct (Qltb eps q) end; reflexivity.
      + unfold CC. rewrite !sT_app, FS. cbn [sT flat_map nsrc ndst app].
        clear. induction ks as [|i l IH]; auto. cbn [flat_map]. rewrite !sT_app, IH.
        repeat match goal with |- context [if Qltb eps ?q then _ else _] => destruct (Qltb eps q) end; reflexivity.
      + unfold CC. rewrite !kT_app, FK. cbn [kT flat_map nsrc ndst app].
        clear. induction ks as [|i l IH]; auto. cbn [flat_map]. rewrite !kT_app, IH.
        repeat match goal with |- context [if Qltb eps ?q then _ else _] => destruct (Qltb eps q) end; reflexivity.
      + intros a Ha. unfold CC in Ha. apply in_app_or in Ha. destruct Ha as [Ha|Ha].
        { destruct (FI a Ha) as (u0 & v & A & B & C & D & F). rewrite A, B. cbn. auto. }
        apply in_app_or in Ha. destruct Ha as [[<-|[<-|[]]]|Ha]; cbn [ncap nsrc ndst nnode_ok]; auto.
        apply in_flat_map in Ha. destruct Ha as (i & Hi & Ha).
        repeat (apply in_app_or in Ha; destruct Ha as [Ha|Ha]);
          repeat match goal with H : context [if Qltb eps ?q then _ else _] |- _ => destruct (Qltb eps q) end;
          try destruct Ha as [<-|[]]; try contradiction; cbn [ncap nsrc ndst nnode_ok]; auto.
      + intros i Hi. reflexivity.
      + intros i Hi. reflexivity. }
    assert (KSc : forall i a, In i ks -> In a E -> (adst a =? i)%nat = true ->
      mem Sc (asrc a) = negb (mem ks (asrc a)) && negb (mem Tr (asrc a))).
    { intros i a Hi Ha Ei. apply Nat.eqb_eq in Ei.
      assert (aj : (asrc a <= j)%nat).
      { apply ksI in Hi. destruct Hi as [Hi _]. apply Tlj in Hi. specialize (Hf a Ha). lia. }
      destruct (mem Sc (asrc a)) eqn:Es.
      - apply mem_In in Es. apply ScI in Es. destruct Es as [_ Es]. symmetry.
        assert (mem ks (asrc a) = false) by (apply mem_false; rewrite ksI; tauto).
        assert (mem Tr (asrc a) = false) by (apply mem_false; intro C; apply Es; auto). rewrite H, H0. auto.
      - apply mem_false in Es. rewrite ScI in Es. symmetry.
        destruct (mem Tr (asrc a)) eqn:Et; [apply andb_false_r|]. rewrite andb_true_r. apply negb_false_iff.
        apply mem_In. apply ksI. apply mem_false in Et. split; auto.
        destruct (in_dec Nat.eq_dec (asrc a) Tl); auto. exfalso. apply Es. split; [lia|auto]. }
    assert (ScN : mem Sc j = false).
    { apply mem_false. rewrite ScI. intros [_ K]. apply K. apply I2. auto. }
    assert (TrS : mem Tr (S j) = false).
    { apply mem_false. intro K. apply I2 in K. apply Tlj in K. lia. }
    assert (LK : (length ks <= j)%nat) by (apply (rep_len _ _ _ _ Rep)).
    split; [|split].
    - constructor; auto.
      + intros i Hi. unfold f_new_base, exb. cbn [fst].
        destruct (f_new_base_ok (fun a => mem Sc (asrc a)) adst asrc i) as [K1 K2]; auto.
        { intros a Ha. apply (HE a Ha). }
        split; auto.
        assert (Q1 : qsum (fun a => if (adst a =? i)%nat && mem Sc (asrc a) then aw a else 0) E ==
          qsum (fun a => if negb (mem ks (asrc a)) && negb (mem Tr (asrc a)) && (adst a =? i)%nat then aw a else 0) E).
        { apply qsum_ext. intros a Ha. destruct (adst a =? i)%nat eqn:Ei; [|rewrite andb_false_r; reflexivity].
          rewrite andb_true_r, (KSc i a Hi Ha Ei). reflexivity. }
        destruct K1. split; lra.
      + intros i Hi. unfold f_new_base, exb. cbn [snd].
        destruct (f_new_base_ok (fun a => mem Tr (adst a)) asrc adst i) as [K1 K2]; auto.
        { apply (NoDup_map_inv (fun p : nat * nat => (snd p, fst p))). rewrite map_map. cbn [fst snd]. exact Hs. }
        { intros a Ha. apply (HE a Ha). }
        split; auto.
        assert (Q1 : qsum (fun a => if (asrc a =? i)%nat && mem Tr (adst a) then aw a else 0) E ==
          qsum (fun a => if mem Tr (adst a) && (asrc a =? i)%nat then aw a else 0) E).
        { apply qsum_ext. intros a Ha. rewrite andb_comm. reflexivity. }
        destruct K1. split; lra.
      + unfold CC. rewrite !app_length. cbn [length].
        assert (L1 : (length flt <= n * n)%nat).
        { assert (Ei : inn flt = flt).
          { clear -FI. unfold inn. induction flt as [|a l IH]; auto. cbn [filter].
            destruct (FI a (or_introl eq_refl)) as (v & w & A & B & _). rewrite A, B, IH; auto.
            intros b Hb. apply FI. right; auto. }
          rewrite <- Ei, Finn. unfold inner_arcs. rewrite map_length. eapply Nat.le_trans; [apply filter_len|].
          apply (E_len n E HE Hs). }
        match goal with |- (_ + (_ + length (flat_map ?g _)) <= _)%nat =>
          assert (L2 : forall l, (length (flat_map g l) <= 4 * length l)%nat) end.
        { induction l as [|i l IH]; cbn [flat_map length]; [lia|]. rewrite !app_length. cbn [length].
          repeat match goal with |- context [if Qltb eps ?q then _ else _] => destruct (Qltb eps q) end; cbn [length]; lia. }
        specialize (L2 ks). lia.
      + assert (St : stc CC == f_csum o itn eps (fun a => inS (nsrc a) && mem Tr (nid (S j) j (ndst a))) G).
        { unfold CC. rewrite !stc_app.
          assert (S1 : stc flt == 0).
          { apply qsum_zero. intros a Ha. destruct (FI a Ha) as (v & w & A & _). rewrite A. reflexivity. }
          match goal with |- _ + (_ + stc (flat_map ?g _)) == _ => assert (S2 : forall l, stc (flat_map g l) == 0) end.
          { induction l as [|i l IH]; cbn [flat_map]; [reflexivity|]. rewrite !stc_app, IH.
            repeat match goal with |- context [if Qltb eps ?q then _ else _] => destruct (Qltb eps q) end; unfold stc; cbn [qsum nsrc ndst]; lra. }
          rewrite S1, S2. unfold stc. cbn [qsum nsrc ndst ncap]. unfold inS. lra. }
        change (stc CC + 11 * W * qn (length ks) <= 11 * W * qn j + qn (S k) * rr). rewrite St.
        assert (SB := stc_bound G base ns T0 k FR Hk). assert (SB2 := fr_stc _ _ _ _ _ FR).
        assert (GS := gcap_sum Tl Tr G). rewrite (r_s _ _ _ _ _ _ R), (r_k _ _ _ _ _ _ R), (r_inn _ _ _ _ _ _ R) in GS.
        assert (IP := inner_part ns Tr).
        assert (S3 := split3 ns ks Tl Tr (r_nodup _ _ _ _ _ _ R) ksN ksns I2 (fun x Hx => proj1 (ksI x) Hx)).
        assert (S4 := qn_le _ _ S3). rewrite !qn_plus in S4.
        set (c1 := qn (length (filter (mem Tr) ns))) in *. set (c2 := qn (length (filter (fun i => negb (mem Tl i)) ns))) in *.
        assert (C10 : 0 <= c1) by apply qn_nonneg. assert (C20 : 0 <= c2) by apply qn_nonneg.
        assert (C30 := qn_nonneg (length ks)).
        assert (Sm : qsum (fun a => if inS (nsrc a) && mem Tr (nid (S j) j (ndst a)) then ncap a else 0) G <= qsum (gcap Tl Tr) G).
        { apply qsum_le. intros a Ha. destruct (CO a Ha) as [CO1 CO2]. unfold gcap, inS.
          destruct (nsrc a) as [| |v]; cbn [nid] in *.
          - destruct (ndst a) as [| |w]; cbn [nid] in *.
            + rewrite TrS, andb_false_r. lra.
            + destruct (_ && _); lra.
            + destruct (mem Tr w); [destruct (mem Sc (S j)); cbn [andb]; lra|rewrite andb_false_r; lra].
          - rewrite ScN. cbn [andb]. destruct (ndst a); lra.
          - destruct (ndst a) as [| |w]; cbn [nid] in *.
            + rewrite TrS, andb_false_r. lra.
            + destruct (mem Tl v) eqn:Ev.
              * assert (mem Sc v = false) by (apply mem_false; rewrite ScI; intros [_ K]; apply K; apply mem_In; auto).
                rewrite H. cbn [andb]. lra.
              * destruct (_ && _); lra.
            + destruct (mem Tr w); [destruct (mem Sc v); cbn [andb]; lra|rewrite andb_false_r; lra]. }
        atoms.
        assert (P1 : 0 <= W * (qn (length ns) - (c1 + c2 + qn (length ks)))) by (apply Qmult_le_0_compat; lra).
        assert (P2 : 0 <= W * c1) by (apply Qmult_le_0_compat; lra).
        assert (P3 : 0 <= W * c2) by (apply Qmult_le_0_compat; lra).
        assert (P4 : 0 <= W * qn (length ks)) by (apply Qmult_le_0_compat; lra).
        assert (F := f_csum_le G (fun a => inS (nsrc a) && mem Tr (nid (S j) j (ndst a)))
          (stc G + 11 * W * qn (length ns) - 11 * W * qn (length ks)) (fun a Ha => proj1 (CO a Ha)) (fr_len _ _ _ _ _ FR)
          ltac:(cbv beta; lra) ltac:(lra)).
        rewrite qn_S. lra.
    - intros x Hx. rewrite ksI. destruct (in_dec Nat.eq_dec x Tr); auto.
    - intros x Hx. apply ksI in Hx. tauto.
  Qed.

  (** ** The search *)
  Let NE := N * eps.
  Let e0 := (61#15) * nu.

  Lemma GV_eq l X : GV l X = FJ X - VS l X.
  Proof. reflexivity. Qed.

  Lemma GV_sub l A B : GV l (iunion A B) + GV l (iinter A B) <= GV l A + GV l B.
  Proof.
    rewrite !GV_eq. assert (K : FJ (iunion A B) + FJ (iinter A B) <= FJ A + FJ B).
    { apply fj_sub.
      - intros X Y H. apply incut_ext. auto.
      - intros X Y _. apply incut_sub. exact rnE. }
    assert (M := vs_modular nodes (fun i => yf i l) A B). unfold VS. lra.
  Qed.

  Lemma ke0 k : (k <= n + 1)%nat -> qn k * e0 + e0 <= (1#2) * NE.
  Proof.
    intro Hk. atoms. assert (A : qn k <= N + 1).
    { assert (K := qn_le k (n + 1) Hk). rewrite qn_plus in K. change (qn 1) with 1 in K. fold N in K. lra. }
    assert (E0 : 0 <= e0) by (unfold e0; lra).
    assert (B : qn k * e0 <= (N + 1) * e0) by (apply Qmult_le_compat_r; auto).
    assert (C : (N + 1) * e0 == (61#15) * (N * nu) + e0) by (unfold e0; ring).
    unfold e0, NE in *. lra.
  Qed.

  (** Difference of the capped sums of a set and a subset. *)
  Lemma VS_anti l l' X T : l <= l' -> (forall x, T x = true -> X x = true) -> VS l' X - VS l' T <= VS l X - VS l T.
  Proof.
    intros Hl HT. unfold VS, vs. rewrite <- !qsum_minus. apply qsum_le. intros i _. unfold yf.
    assert (K := ycap_anti (yat y i) l l' Hl). destruct (T i) eqn:Et; [rewrite (HT i Et); lra|]. destruct (X i); lra.
  Qed.

  Lemma lm_same G1 G2 base ns l X : same base G1 G2 -> lm o y G1 base ns l X -> lm o y G2 base ns l X.
  Proof. intros S [A B C]. specialize (S l). rewrite S in B, C. constructor; auto. Qed.

  Lemma same_trans base G1 G2 G3 : same base G1 G2 -> same base G2 G3 -> same base G1 G3.
  Proof. intros A B l. rewrite A. apply B. Qed.

  Definition between (Tr Tl : cset) (X : nset) : Prop :=
    (forall x, In x Tr -> X x = true) /\ (forall x, X x = true -> In x Tl).

  Theorem fr_slice_ok sch : forall fuel k path ns G base T0 Tl Tr l1 l3 ct,
    (length Tl <= length Tr + fuel)%nat -> (fuel + k <= n + 2)%nat -> incl Tr Tl -> Tr <> Tl ->
    frep G base ns T0 k -> capok G -> incl T0 Tr -> (forall x, In x Tl -> In x ns \/ In x T0) ->
    csorted Tl -> csorted Tr ->
    (forall l X, l1 <= l -> l <= 6 * W -> lm o y G base ns l X -> incl X Tl) ->
    (forall l X, l <= l3 -> lm o y G base ns l X -> forall x, In x Tr -> In x X \/ In x T0) ->
    - (1#5) <= l1 -> l1 <= 4 * W -> l1 <= l3 -> l3 <= 5 * W ->
    (forall X, between Tr Tl X -> GV l1 (mem Tl) <= GV l1 X + e0) ->
    (forall X, between Tr Tl X -> GV l3 (mem Tr) <= GV l3 X + e0) ->
    (forall X, WIN X -> (forall x, In x Tl -> X x = true) -> GV l1 (mem Tl) <= GV l1 X + qn k * e0) ->
    f_pmfr_slice fuel o it ita itn mc mr sch path eps E j y ns G base Tl Tr l1 l3 ct = Throw \/
    exists rest sets Gr,
      f_pmfr_slice fuel o it ita itn mc mr sch path eps E j y ns G base Tl Tr l1 l3 ct =
        Ok (map (fun p => Fin (fst p)) rest, sets, Gr) /\
      Permutation (sets ++ [Tr]) (map snd rest) /\ fch E j y (12 * NE) Tl rest Tr /\
      Forall (fun l => l1 - 2 * eps <= l /\ l <= 4 * W /\ l <= l3 + 2 * eps) (map fst rest) /\
      StronglySorted (fun a b => a <= b + 4 * eps) (map fst rest) /\ same base Gr G /\ capok Gr.
  Proof.
    induction fuel as [|fuel IH]; intros k path ns G base T0 Tl Tr l1 l3 ct Hfu Hfk Hi Hne FR CO I1 I3 Sl Sr GL GR Hl1 Hl1' H13 Hl3 IL IR UP.
    - exfalso. assert (L := csub_length Tr Tl Sr Sl Hi Hne). lia.
    - assert (R := fr_rep _ _ _ _ _ FR). assert (Trj : In j Tr) by (apply I1; apply R).
      assert (Tlj : In j Tl) by auto.
      assert (WL : WIN (mem Tl)).
      { intros x Hx. apply mem_In in Hx. destruct (I3 x Hx) as [K|K].
        - left. apply (r_incl _ _ _ _ _ _ R). auto.
        - apply (r_win _ _ _ _ _ _ R). apply mem_In. auto. }
      assert (WR : WIN (mem Tr)) by (intros x Hx; apply WL; apply mem_In; apply Hi; apply mem_In; auto).
      atoms. assert (aNE : NE == N * eps) by reflexivity.
      assert (KE := ke0 k ltac:(lia)). assert (E0 : 0 <= e0) by (unfold e0; lra).
      assert (K0 := qn_nonneg k). assert (KE0 : 0 <= qn k * e0) by (apply Qmult_le_0_compat; auto).
      assert (BW : forall X, (forall x, In x Tr -> X x = true) -> between Tr Tl (iinter X (mem Tl))).
      { intros X HX. split; intros x Hx; unfold iinter in *.
        - rewrite HX by auto. apply mem_In. auto.
        - apply andb_true_iff in Hx. apply mem_In. tauto. }
      (* sets reaching out of Tl gain nothing above l1 *)
      assert (OUT : forall l X, l1 <= l -> WIN X -> (forall x, In x Tr -> X x = true) ->
        GV l (iinter X (mem Tl)) <= GV l X + qn k * e0).
      { intros l X Hl HX HTX. assert (A := GV_sub l X (mem Tl)).
        assert (B := UP (iunion X (mem Tl))). unfold iunion at 1 2 in B.
        assert (B1 : WIN (iunion X (mem Tl))).
        { intros x Hx. unfold iunion in Hx. apply orb_true_iff in Hx. destruct Hx; auto. }
        assert (B2 : forall x, mem Tl x = true -> iunion X (mem Tl) x = true).
        { intros x Hx. unfold iunion. rewrite Hx. apply orb_true_r. }
        specialize (B B1 (fun x Hx => B2 x (proj2 (mem_In _ _) Hx))).
        assert (C := VS_anti l1 l (iunion X (mem Tl)) (mem Tl) Hl B2). rewrite !GV_eq in *. lra. }
      cbn [f_pmfr_slice]. rewrite (diff_nodes_r j Tl Tr Trj). fold nodes.
      set (pf := fun i => mem Tl i && negb (mem Tr i)).
      set (ps := map (yat y) (filter pf nodes)).
      set (tF := fsub o (f_cut_value o it E Tl) (f_cut_value o it E Tr)).
      assert (Et : near (3 * nu) tF (FJ (mem Tl) - FJ (mem Tr))).
      { assert (A := fcv_near u o Hu Ho n W HW eps Heps0 Hnu rHepsN it E Hit j Hjn HE Hs HWE y Tl).
        assert (B := fcv_near u o Hu Ho n W HW eps Heps0 Hnu rHepsN it E Hit j Hjn HE Hs HWE y Tr).
        fold N nw eta nu in A, B.
        assert (A' := cut_value_FJ E j Tl Tlj). assert (B' := cut_value_FJ E j Tr Trj).
        change (get_cut_value E Tl) with (incut E (mem Tl)) in A'. change (get_cut_value E Tr) with (incut E (mem Tr)) in B'.
        assert (CA := incut_le E (mem Tl) rnE). assert (CB := incut_le E (mem Tr) rnE).
        assert (DA : 0 <= incut E (mem Tl)).
        { apply qsum_nonneg. intros a Ha. assert (A0 := rnE a Ha). destruct (_ && _); lra. }
        assert (DB : 0 <= incut E (mem Tr)).
        { apply qsum_nonneg. intros a Ha. assert (A0 := rnE a Ha). destruct (_ && _); lra. }
        destruct A, B. assert (K : near eta tF (f_cut_value o it E Tl - f_cut_value o it E Tr)) by (apply r_sub; lra).
        destruct K. unfold FJ, f. split; lra. }
      assert (FB : forall T, 0 <= FJ T /\ FJ T <= W).
      { intro T. unfold FJ, fj, f. assert (C := incut_le E (fun x => Nat.eqb x j || T x) rnE). split; [|lra].
        apply qsum_nonneg. intros a Ha. assert (A0 := rnE a Ha). destruct (_ && _); lra. }
      destruct (FB (mem Tl)) as [FL1 FL2]. destruct (FB (mem Tr)) as [FR1 FR2]. destruct Et as [Et1 Et2].
      assert (Ys : forall l, ysum ps l == VS l (mem Tl) - VS l (mem Tr)) by (intro; apply ysum_diff; auto).
      assert (Pne : ps <> []).
      { intro C. apply Hne. apply csorted_ext; auto. intro x. split; [apply Hi|]. intro Hx.
        destruct (mem Tr x) eqn:Er; [apply mem_In; auto|]. exfalso.
        assert (Hmx : mem Tl x = true) by (apply mem_In; auto).
        destruct (WL x Hmx) as [W1|W1]; [|subst; apply mem_false in Er; auto].
        assert (In (yat y x) ps).
        { unfold ps. apply in_map. apply filter_In. split; auto. unfold pf. rewrite Hmx, Er. auto. }
        rewrite C in H. destruct H. }
      assert (Pm : Forall (pbnd W) ps).
      { apply Forall_forall. intros p Hp. unfold ps in Hp. apply in_map_iff in Hp.
        destruct Hp as (i & <- & Hx). apply filter_In in Hx. destruct Hx as [Hx _]. apply Hy.
        unfold nodes in Hx. apply in_seq in Hx. lia. }
      assert (Pl : (length ps <= n)%nat).
      { unfold ps. rewrite map_length. eapply Nat.le_trans; [apply filter_len|].
        unfold nodes. rewrite seq_length. lia. }
      assert (BTr : between Tr Tl (mem Tr)).
      { split; intros x Hx; [apply mem_In; auto|apply Hi; apply mem_In; auto]. }
      assert (S1 : tF <= ysum ps l1 + (1#4) * eps).
      { rewrite Ys. assert (K := IL _ BTr). rewrite !GV_eq in K. unfold e0 in K. lra. }
      destruct (f_compute_lambda_ok u o Hu Hu1 Ho n ltac:(lia) W HW nw ltac:(reflexivity) eps
                  ltac:(change (24 * nu <= eps); lra) ltac:(lra) Heps0 ps tF l1 Pm Pne Pl ltac:(lra) ltac:(lra) S1)
        as (l2 & Rl & Rs & Rb1 & Rb2 & _). change (near (2 * NE) (ysum ps l2) tF) in Rs.
      rewrite Rl. cbn [bind].
      assert (U2 : l2 <= 4 * W).
      { destruct (Qlt_le_dec l2 0) as [K|K]; [lra|]. destruct Rs as [Rs1 Rs2].
        assert (B := ps_upper u Hu n W HW eps Heps0 Hnu E j Hjn HE HWE y Hya pf l2 (tF - 2 * NE) Pne ltac:(fold nodes; fold ps; lra) K).
        fold N nw eta nu in B. lra. }
      assert (Cr : near (3 * NE) (FJ (mem Tl) - FJ (mem Tr)) (VS l2 (mem Tl) - VS l2 (mem Tr))).
      { assert (Z := Ys l2). destruct Rs. split; lra. }
      assert (Hleaf : forall Gr, aup f nodes j yf (12 * NE) (mem Tr) l2 -> l1 - 2 * eps <= l2 -> l2 <= l3 + 2 * eps ->
        same base Gr G -> capok Gr ->
        exists rest sets Gr',
          Ok ([Fin l2], [], Gr) = Ok (map (fun p : Q * cset => Fin (fst p)) rest, sets, Gr') /\
          Permutation (sets ++ [Tr]) (map snd rest) /\ fch E j y (12 * NE) Tl rest Tr /\
          Forall (fun l => l1 - 2 * eps <= l /\ l <= 4 * W /\ l <= l3 + 2 * eps) (map fst rest) /\
          StronglySorted (fun a b => a <= b + 4 * eps) (map fst rest) /\ same base Gr' G /\ capok Gr').
      { intros Gr HU HL1 HL3 HS HC. exists [(l2, Tr)], [], Gr. split; [reflexivity|]. split; [reflexivity|].
        split; [|split; [repeat constructor; auto|split; [repeat constructor|auto]]].
        cbn [fch]. split; auto. split; auto. split; auto. split; [apply csub_length; auto|].
        split; [|split; [exact HU|reflexivity]]. destruct Cr. unfold across.
        change (near (12 * NE) (FJ (mem Tl) - FJ (mem Tr)) (VS l2 (mem Tl) - VS l2 (mem Tr))). split; lra. }
      assert (Srefl : same base G G) by (intro; reflexivity).
      destruct (f_tol_different o eps l2 l1) eqn:D1.
      2:{ cbn [negb orb]. right.
        apply (tol_near u o Hu Ho n W HW eps Heps0 Hnu rHepsN j Hjn) in D1; [|fold N nw; lra|fold N nw; lra|lra|lra].
        apply Hleaf; auto; [|destruct D1; lra|destruct D1; lra].
        intros X HX HTX. assert (HTX' : forall x, In x Tr -> X x = true) by (intros x Hx; apply HTX; apply mem_In; auto).
        assert (K := IL _ (BW X HTX')). assert (K2 := OUT l1 X ltac:(lra) HX HTX').
        assert (L := VS_lip n j Hjn y l2 l1 (2 * eps) X (mem Tl) D1). fold N in L.
        assert (M : N * (2 * eps) == 2 * NE) by (unfold NE; ring). unfold near in L. rewrite M in L.
        change (VS l2 X - VS l2 (mem Tr) <= FJ X - FJ (mem Tr) + 12 * NE).
        rewrite !GV_eq in *. unfold VS, yf, nodes in *. destruct L, Cr. lra. }
      cbn [negb orb].
      destruct (f_tol_different o eps l2 l3) eqn:D3.
      2:{ cbn [negb]. right.
        apply (tol_near u o Hu Ho n W HW eps Heps0 Hnu rHepsN j Hjn) in D3; [|fold N nw; lra|fold N nw; lra|lra|lra].
        apply Hleaf; auto; [|destruct D3; lra|destruct D3; lra].
        intros X HX HTX. assert (HTX' : forall x, In x Tr -> X x = true) by (intros x Hx; apply HTX; apply mem_In; auto).
        assert (K := IR _ (BW X HTX')). assert (K2 := OUT l3 X ltac:(lra) HX HTX').
        assert (L := VS_lip n j Hjn y l2 l3 (2 * eps) X (mem Tr) D3). fold N in L.
        assert (M : N * (2 * eps) == 2 * NE) by (unfold NE; ring). unfold near in L. rewrite M in L.
        change (VS l2 X - VS l2 (mem Tr) <= FJ X - FJ (mem Tr) + 12 * NE).
        rewrite !GV_eq in *. unfold VS, yf, nodes in *. destruct L, Cr. lra. }
      cbn [negb orb].
      destruct (Qltb l2 l1 || Qltb l3 l2) eqn:DT; [left; reflexivity|].
      apply orb_false_iff in DT. destruct DT as [L12 L23]. apply Qltb_false in L12. apply Qltb_false in L23.
      assert (CT : exists c base' T0', (if ct then f_contract o itn eps (S j) j (S (S j)) (ccompl Tl (S (S j))) Tr G else Ok (ns, G)) = Ok c /\
        base' = (if ct then f_new_base o ita E (ccompl Tl (S (S j))) Tr else base) /\
        frep (snd c) base' (fst c) T0' (S k) /\ incl T0' Tr /\ (forall x, In x Tl -> In x (fst c) \/ In x T0') /\
        (forall l X, l1 <= l -> l <= 6 * W -> lm o y (snd c) base' (fst c) l X -> incl X Tl) /\
        (forall l X, l <= l3 -> lm o y (snd c) base' (fst c) l X -> forall x, In x Tr -> In x X \/ In x T0') /\
        (ct = false -> snd c = G)).
      { destruct ct.
        - destruct (f_contract_ok G base ns T0 k Tl Tr FR CO ltac:(lia) I1 Hi I3 Sl Sr) as (ks & C & A1 & A2 & A3 & A4).
          exists (ks, C), (f_new_base o ita E (ccompl Tl (S (S j))) Tr), Tr. cbn [fst snd].
          repeat (split; [solve [auto using incl_refl]|]). split; [|split; [auto|discriminate]].
          intros l X _ _ HX. eapply incl_tran; [apply (lmi_incl _ _ _ _ _ _ _ HX)|auto].
        - exists (ns, G), base, T0. cbn [fst snd]. split; auto. split; auto. split; [eapply frep_k; eauto|].
          repeat (split; [solve [eauto]|]). auto. }
      destruct CT as (c & base' & T0' & C1 & C2 & C3 & C4 & C5 & GL' & GR' & C6). rewrite C1. cbn [bind]. rewrite <- C2.
      set (G' := f_upd o y base' l2 (snd c)).
      destruct (frep_upd (snd c) base' (fst c) T0' (S k) l2 C3 ltac:(lra) ltac:(lra)) as [FR' CO']. fold G' in FR', CO'.
      assert (R' := fr_rep _ _ _ _ _ FR').
      assert (Hok : net_ok (fst c) G') by (split; [apply R'|apply R']).
      assert (LenN : (length (fst c) <= n)%nat) by (assert (K := rep_len _ _ _ _ R'); lia).
      destruct (f_worker d n mc mr j (sch path) (fst c) G' Hmc Hmr Hok LenN (fr_len _ _ _ _ _ FR')) as (X & X1 & X2 & X3 & X4 & X5 & X6).
      set (fT := worker_cut mc mr (sch path) j (fst c) G') in *.
      assert (LX : lm o y (snd c) base' (fst c) l2 X) by (constructor; auto).
      assert (SG : same base' G' (snd c)) by (intro l; apply f_upd_upd).
      set (T' := cunion (snd fT) Tr).
      assert (TI : forall x, In x T' <-> In x X \/ In x Tr).
      { intro x. unfold T'. rewrite cunion_In, X5. split; [|tauto]. intros [[->|K]|K]; auto. }
      assert (ST : csorted T') by (apply cunion_sorted; auto).
      assert (J1 : incl T' Tl).
      { intros x Hx. apply TI in Hx. destruct Hx as [Hx|Hx]; auto. apply (GL' l2 X L12 ltac:(lra) LX). auto. }
      assert (J2 : incl Tr T') by (intros x Hx; apply TI; auto).
      assert (CX : cut G' (mem T') == cut G' (mem X)).
      { rewrite <- (cut_restrict (fst c) G' (mem T') Hok), <- (cut_restrict (fst c) G' (mem X) Hok).
        assert (K : filter (mem T') (fst c) = filter (mem X) (fst c)); [|rewrite K; reflexivity].
        apply filter_ext_in. intros x Hx. destruct (mem X x) eqn:Ex.
        - apply mem_In. apply TI. left. apply mem_In. auto.
        - apply mem_false. rewrite TI. apply mem_false in Ex. intros [K|K]; auto.
          destruct (GR' l2 X L23 LX x K) as [K'|K']; auto. apply (r_disj _ _ _ _ _ _ R' x Hx K'). }
      assert (FS : forall Z, between Tr Tl Z -> near ((61#30) * nu) (cut G' Z) (GV l2 Z + kst E j y (snd c) (fst c) T0' l2)).
      { intros Z [Z1 Z2]. apply (frep_set (snd c) base' (fst c) T0' (S k)); auto; try lra. }
      assert (BT' : between Tr Tl (mem T')).
      { split; intros x Hx; [apply mem_In; auto|apply J1; apply mem_In; auto]. }
      assert (NM : forall Z, between Tr Tl Z -> GV l2 (mem T') <= GV l2 Z + e0).
      { intros Z HZ. assert (A := FS Z HZ). assert (B := FS _ BT'). assert (C := X3 Z). destruct A, B. unfold e0. lra. }
      destruct (negb (ceqb T' Tr) && negb (ceqb T' Tl) &&
                Qltb (fst fT) (fsub o (f_net_cut o itn G' Tr) (fmul o 10 eps))) eqn:Eb.
      + apply andb_true_iff in Eb. destruct Eb as [Eb _]. apply andb_true_iff in Eb.
        destruct Eb as [K1 K2]. apply negb_true_iff in K1. apply negb_true_iff in K2.
        apply ceqb_false in K1. apply ceqb_false in K2.
        assert (G1 := csub_length T' Tl ST Sl J1 K2). assert (G2 := csub_length Tr T' Sr ST J2 (not_eq_sym K1)).
        assert (SHR : forall l l' A B, lm o y (snd c) base' (fst c) l A -> lm o y (snd c) base' (fst c) l' B ->
          - (6 * W) <= l' -> l' <= 6 * W -> l <= l' -> incl B A).
        { intros l l' A B HA HB M1 M2 Hll. apply (lm_shrink o y (snd c) base' (fst c) l l' A B); auto.
          - apply C3.
          - apply C3.
          - intros a Ha. destruct (frep_upd (snd c) base' (fst c) T0' (S k) l' C3 M1 M2) as [_ CC]. apply (CC a Ha). }
        assert (Kk : qn (S k) * e0 == qn k * e0 + e0) by (rewrite qn_S; ring).
        destruct (IH (S k) (true :: path) (fst c) G' base' T0' Tl T' l1 l2 (sch path))
          as [R1|(r1 & s1 & Ga & A1 & A2 & A3 & A4 & A5 & A6 & A7)]; auto; try lia; try lra.
        { eapply incl_tran; eauto. }
        { intros l A Hl Hl6 HA. apply (GL' l A Hl Hl6). apply (lm_same G' (snd c)); auto. }
        { intros l A Hl HA x Hx. apply (lm_same G' (snd c)) in HA; auto. apply TI in Hx. destruct Hx as [Hx|Hx].
          - left. apply (SHR l l2 A X HA LX); auto; lra.
          - apply (GR' l A); auto. lra. }
        { intros Z [Z1 Z2]. apply IL. split; auto. }
        { intros Z [Z1 Z2]. apply NM. split; auto. }
        { intros Z Z1 Z2. assert (A := UP Z Z1 Z2). lra. }
        { rewrite R1. left. auto. }
        rewrite A1. cbn [bind fst snd].
        assert (FRa : frep Ga base' (fst c) T0' (S k)) by (apply (frep_same G'); auto).
        assert (SGa : same base' Ga (snd c)) by (eapply same_trans; eauto).
        destruct (IH (S k) (false :: path) (fst c) Ga base' T0' T' Tr l2 l3 (negb (sch path)))
          as [R2|(r2 & s2 & Gb & B1 & B2 & B3 & B4 & B5 & B6 & B7)]; auto; try lia; try lra.
        { intros l A Hl Hl6 HA x Hx. apply (lm_same Ga (snd c)) in HA; auto. apply TI. left.
          apply (SHR l2 l X A LX HA); auto; lra. }
        { intros l A Hl HA x Hx. apply (lm_same Ga (snd c)) in HA; auto. apply (GR' l A); auto. }
        { intros Z [Z1 Z2]. apply NM. split; auto. }
        { intros Z [Z1 Z2]. apply IR. split; auto. }
        { intros Z Z1 Z2. assert (Z3 : forall x, In x Tr -> Z x = true) by (intros x Hx; apply Z2; auto).
          assert (A := NM _ (BW Z Z3)). assert (B := OUT l2 Z L12 Z1 Z3). lra. }
        { rewrite R2. left. auto. }
        rewrite B1. cbn [bind fst snd]. right.
        exists (r1 ++ r2), (T' :: s1 ++ s2), (if ct then G else Gb). split; [rewrite map_app; reflexivity|]. split; [|split; [|split; [|split; [|split]]]].
        * rewrite map_app. rewrite <- A2, <- B2. cbn [app].
          rewrite <- !app_assoc. cbn [app]. apply Permutation_middle.
        * eapply fch_app; eauto.
        * rewrite map_app. rewrite Forall_forall in A4, B4. apply Forall_app; rewrite !Forall_forall. split; intros l Hl.
          -- destruct (A4 l Hl) as (Y1 & Y2 & Y3). split; auto. split; auto. lra.
          -- destruct (B4 l Hl) as (Y1 & Y2 & Y3). split; [lra|]. split; auto.
        * rewrite map_app. apply SS_app; auto. intros a b Ha Hb. rewrite Forall_forall in A4, B4.
          destruct (A4 a Ha) as (_ & _ & Y). destruct (B4 b Hb) as (Y' & _). lra.
        * destruct ct; auto. rewrite (C6 eq_refl) in *. rewrite C2 in B6, SGa. eapply same_trans; eauto.
        * destruct ct; auto.
      + right. apply Hleaf; try lra.
        2:{ destruct ct; auto. rewrite (C6 eq_refl) in *. rewrite C2 in SG. exact SG. }
        2:{ destruct ct; auto. }
        intros Z HZ HTZ. assert (Z3 : forall x, In x Tr -> Z x = true) by (intros x Hx; apply HTZ; apply mem_In; auto).
        assert (K := NM _ (BW Z Z3)). assert (K2 := OUT l2 Z L12 HZ Z3).
        change (VS l2 Z - VS l2 (mem Tr) <= FJ Z - FJ (mem Tr) + 12 * NE).
        rewrite !GV_eq in *. destruct Cr as [Cr1 Cr2].
        apply andb_false_iff in Eb. destruct Eb as [Eb|Eb].
        * apply andb_false_iff in Eb. destruct Eb as [Eb|Eb]; apply negb_false_iff in Eb;
            apply ceqb_true in Eb; rewrite Eb in K; lra.
        * apply Qltb_false in Eb.
          assert (Z1 := fr_net_cut (snd c) base' (fst c) T0' (S k) l2 Tr C3 ltac:(lia) ltac:(lra) ltac:(lra)).
          destruct (fr_cutb (snd c) base' (fst c) T0' (S k) l2 (mem Tr) C3 ltac:(lia) ltac:(lra) ltac:(lra)) as [Z2 Z4].
          fold G' in Z1, Z2, Z4.
          set (orig := f_net_cut o itn G' Tr) in *. destruct Z1 as [Z1 Z1'].
          assert (M1 : near eta (fmul o 10 eps) (10 * eps)) by (apply r_mul; lra). destruct M1 as [M1 M1'].
          assert (M2 : near eta (fsub o orig (fmul o 10 eps)) (orig - fmul o 10 eps)) by (apply r_sub; lra).
          destruct M2 as [M2 M2'].
          destruct (FS _ BTr) as [Q1 Q2]. destruct (FS _ BT') as [Q3 Q4]. rewrite !GV_eq in *.
          destruct X2 as [X2 X2']. unfold e0 in *. lra.
  Qed.

  (** ** The top level *)
  Lemma lam3_step_ge l i : l <= f_lam3_step o E j y l i /\ fadd o (MPMFR.sink_capacity E j i) (fst (yat y i)) <= f_lam3_step o E j y l i.
  Proof.
    unfold f_lam3_step. cbv zeta.
    assert (M : forall p q, p <= (if Qltb p q then q else p) /\ q <= (if Qltb p q then q else p)).
    { intros p q. destruct (Qltb p q) eqn:Eq; [apply Qltb_true in Eq|apply Qltb_false in Eq]; lra. }
    set (l' := match snd (yat y i) with Fin b => if Qltb l (fsub o (fst (yat y i)) b) then fsub o (fst (yat y i)) b else l | _ => l end).
    assert (L1 : l <= l').
    { unfold l'. destruct (snd (yat y i)) as [b| |]; try lra. apply M. }
    destruct (M l' (fst (yat y i))) as [M1 M2].
    set (l'' := if Qltb l' (fst (yat y i)) then fst (yat y i) else l') in *.
    destruct (M l'' (fadd o (MPMFR.sink_capacity E j i) (fst (yat y i)))) as [M3 M4]. split; lra.
  Qed.

  Lemma f_lam3_ge : 0 <= f_lam3 o E n j y /\
    forall i, (i < n)%nat -> fadd o (MPMFR.sink_capacity E j i) (fst (yat y i)) <= f_lam3 o E n j y.
  Proof.
    unfold f_lam3. assert (G : forall l s, s <= fold_left (f_lam3_step o E j y) l s /\
      forall i, In i l -> fadd o (MPMFR.sink_capacity E j i) (fst (yat y i)) <= fold_left (f_lam3_step o E j y) l s).
    { induction l as [|x l IHl]; intro s; cbn [fold_left]; [split; [lra|intros i []]|].
      destruct (IHl (f_lam3_step o E j y s x)) as [A B]. destruct (lam3_step_ge s x) as [S1 S2]. split; [lra|].
      intros i [<-|Hi]; auto. lra. }
    destruct (G (seq 0 n) 0) as [A B]. split; auto. intros i Hi. apply B. apply in_seq. lia.
  Qed.

  Lemma sink_cap_bound i : 0 <= MPMFR.sink_capacity E j i /\ MPMFR.sink_capacity E j i <= W.
  Proof.
    unfold MPMFR.sink_capacity. destruct (i <=? j)%nat; [|lra].
    split; [apply sink_cost_nonneg; apply rnE|]. assert (K := sink_cost_le E j i rnE). lra.
  Qed.

  Hypothesis Hgap : forall i b, (i < j)%nat -> snd (yat y i) = Fin b -> fst (yat y i) - b <= 4 * W + eta.
  Hypothesis Hout : forall i, (j <= i)%nat -> yat y i = (0, PInf).

  Lemma f_lam3_le : f_lam3 o E n j y <= 5 * W.
  Proof.
    unfold f_lam3. assert (G : forall l s, s <= 5 * W -> fold_left (f_lam3_step o E j y) l s <= 5 * W).
    { induction l as [|i l IHl]; intros s Hs5; auto. cbn [fold_left]. apply IHl. unfold f_lam3_step. cbv zeta. atoms.
      destruct (sink_cap_bound i) as [SC1 SC2].
      assert (P : - (2 * W) <= fst (yat y i) /\ fst (yat y i) <= 2 * W /\
        forall b, snd (yat y i) = Fin b -> fsub o (fst (yat y i)) b <= 5 * W).
      { destruct (Nat.lt_ge_cases i j) as [K|K].
        - assert (Pb := Hy i K). assert (Gp := fun b => Hgap i b K). destruct (yat y i) as [a b0]. destruct Pb as [P1 P2]. cbn [fst snd] in *.
          split; [lra|]. split; [lra|]. intros b ->. specialize (Gp b eq_refl).
          assert (near eta (fsub o a b) (a - b)) by (apply r_sub; lra). destruct H. lra.
        - rewrite (Hout i K). cbn [fst snd]. split; [lra|]. split; [lra|]. discriminate. }
      destruct P as (P1 & P2 & P3).
      assert (near eta (fadd o (MPMFR.sink_capacity E j i) (fst (yat y i))) (MPMFR.sink_capacity E j i + fst (yat y i))) by (apply r_add; lra).
      destruct H as [H1 H2].
      repeat match goal with |- (if ?b then _ else _) <= _ => destruct b end; try lra.
      destruct (snd (yat y i)) as [b| |]; try lra. specialize (P3 b eq_refl). destruct (Qltb _ _); lra. }
    apply G. lra.
  Qed.

  (** Above [f_lam3] the set [j] alone is a minimiser up to rounding. *)
  Lemma f_lam3_min X : WIN X -> GV (f_lam3 o E n j y) (mem [j]) <= GV (f_lam3 o E n j y) X + nu.
  Proof.
    intros HX. set (L := f_lam3 o E n j y). rewrite !GV_eq. atoms.
    assert (V1 : VS L (mem [j]) == 0).
    { apply qsum_zero. intros v Hv. assert (mem [j] v = false); [|rewrite H; reflexivity].
      apply mem_false. intros [C|[]]. unfold nodes in Hv. apply in_seq in Hv. lia. }
    assert (V2 : VS L X <= nu - qsum (fun v => if X v then sink_cost E j v else 0) nodes).
    { assert (V : VS L X + qsum (fun v => if X v then sink_cost E j v else 0) nodes <= qsum (fun _ => eta) nodes).
      { unfold VS, vs. rewrite <- qsum_plus. apply qsum_le. intros v Hv. destruct (X v); [|lra].
        unfold nodes in Hv. apply in_seq in Hv. destruct f_lam3_ge as [_ K]. specialize (K v ltac:(lia)).
        assert (P := Hy v ltac:(lia)). destruct P as [P1 P2].
        destruct (sink_cap_bound v) as [SC1 SC2].
        assert (A : near eta (fadd o (MPMFR.sink_capacity E j v) (fst (yat y v))) (MPMFR.sink_capacity E j v + fst (yat y v))) by (apply r_add; lra).
        destruct A as [A1 A2].
        unfold MPMFR.sink_capacity in *. assert ((v <=? j)%nat = true) by (apply Nat.leb_le; lia). rewrite H in *.
        fold L in K. unfold yf. assert (Y := proj1 (ycap_min (yat y v) L)). lra. }
      rewrite qsum_const in V.
      assert (Ln : length nodes = j) by (unfold nodes; apply seq_length). rewrite Ln in V.
      assert (L1 : qn j <= N) by (apply qn_le; lia).
      assert (0 <= eta * (N - qn j)) by (apply Qmult_le_0_compat; lra). unfold nu. lra. }
    assert (V3 : FJ (mem [j]) <= FJ X + qsum (fun v => if X v then sink_cost E j v else 0) nodes).
    { rewrite (qsum_ext (fun v => if X v then sink_cost E j v else 0)
         (fun v => if X v then qsum (fun a => if (adst a =? j)%nat && (asrc a =? v)%nat then aw a else 0) E else 0) nodes).
      2:{ intros v _. destruct (X v); [|reflexivity]. rewrite (sink_cost_sum E j v Hs). apply qsum_ext. intros a _.
          rewrite andb_comm. reflexivity. }
      rewrite (sum_select asrc (fun a => (adst a =? j)%nat) aw X nodes E ltac:(apply seq_NoDup)).
      unfold FJ, f, fj, incut. rewrite <- qsum_plus. apply qsum_le. intros a Ha. assert (K := rnE a Ha). assert (F := Hf a Ha).
      cbn [mem existsb]. rewrite !orb_false_r, !orb_diag.
      destruct (adst a =? j)%nat eqn:Ed.
      - apply Nat.eqb_eq in Ed. assert (H1 : (asrc a =? j)%nat = false) by (apply Nat.eqb_neq; lia). rewrite H1.
        assert (H2 : mem nodes (asrc a) = true) by (apply mem_In; apply in_seq; lia). rewrite H2.
        destruct (X (asrc a)); cbn; lra.
      - rewrite andb_false_r. cbn [andb orb].
        match goal with |- _ <= (if ?b then _ else _) + _ => destruct b end; lra. }
    lra.
  Qed.

  Lemma dig_frep : frep (dig_net eps E j) (fun i => (0, MPMFR.sink_capacity E j i)) nodes [j] 1.
  Proof.
    assert (R := dig_rep eps Heps0 E n j Hjn HE Hs Hf Hw y). fold nodes in R. atoms.
    assert (B1 := r_b1 _ _ _ _ _ _ R). assert (B2 := r_b2 _ _ _ _ _ _ R). cbn [fst snd] in B1, B2. constructor.
    - destruct R. constructor; auto; intros i Hi; reflexivity.
    - intros i Hi. cbn [fst]. specialize (B1 i Hi). split; [|lra]. unfold exb. cbn [fst]. split; lra.
    - intros i Hi. cbn [snd]. specialize (B2 i Hi). destruct (sink_cap_bound i). split; auto. unfold exb. cbn [snd]. split; lra.
    - unfold dig_net. rewrite !app_length, map_length.
      assert (Z : filter (fun a => (asrc a =? j)%nat && (adst a <? j)%nat) E = []).
      { destruct (filter (fun a => (asrc a =? j)%nat && (adst a <? j)%nat) E) as [|a l] eqn:Ef; auto. exfalso.
        assert (In a (a :: l)) by (left; auto). rewrite <- Ef in H. apply filter_In in H. destruct H as [A B].
        apply andb_true_iff in B. destruct B as [C1 C2]. apply Nat.eqb_eq in C1. apply Nat.ltb_lt in C2.
        specialize (Hf a A). lia. }
      rewrite Z. cbn [length].
      assert (L1 : (length (inner_arcs E (seq 0 j)) <= n * n)%nat).
      { unfold inner_arcs. rewrite map_length. eapply Nat.le_trans; [apply filter_len|]. apply (E_len n E HE Hs). }
      match goal with |- context [flat_map ?g _] => assert (L2 : forall l, (length (flat_map g l) <= 2 * length l)%nat) end.
      { induction l as [|i l IH]; cbn [flat_map length]; [lia|]. rewrite app_length. cbn [length].
        rewrite repeat_length, (one_copy eps Heps0 E j Hs Hw y i). lia. }
      specialize (L2 (seq 0 j)). rewrite seq_length in L2. lia.
    - assert (St : stc (dig_net eps E j) == 0).
      { unfold stc. apply qsum_zero. intros a Ha. unfold dig_net in Ha.
        apply in_app_or in Ha. destruct Ha as [Ha|Ha]; [|apply in_app_or in Ha; destruct Ha as [Ha|Ha]].
        - unfold inner_arcs in Ha. apply in_map_iff in Ha. destruct Ha as (e & <- & _). reflexivity.
        - apply in_map_iff in Ha. destruct Ha as (e & <- & _). reflexivity.
        - apply in_flat_map in Ha. destruct Ha as (i & _ & [<-|Ha]); [reflexivity|]. apply repeat_spec in Ha. subst. reflexivity. }
      rewrite St. unfold nodes. rewrite seq_length. assert (0 <= rr) by (unfold rr; apply Qmult_le_0_compat; [lra|apply Qmult_le_0_compat; lra]).
      change (qn 1) with 1. lra.
  Qed.

  Lemma dig_cap : capok (dig_net eps E j).
  Proof.
    intros a Ha. unfold dig_net in Ha.
    apply in_app_or in Ha. destruct Ha as [Ha|Ha]; [|apply in_app_or in Ha; destruct Ha as [Ha|Ha]].
    - unfold inner_arcs in Ha. apply in_map_iff in Ha. destruct Ha as (e & <- & He). apply filter_In in He. cbn [ncap nsrc ndst].
      split; auto. apply rnE. tauto.
    - apply in_map_iff in Ha. destruct Ha as (e & <- & He). apply filter_In in He. cbn [ncap nsrc ndst]. split; auto.
      apply rnE. tauto.
    - apply in_flat_map in Ha. destruct Ha as (i & _ & [<-|Ha]); [cbn [ncap nsrc ndst]; split; lra|].
      apply repeat_spec in Ha. subst. cbn [ncap nsrc ndst]. split; lra.
  Qed.

  Theorem fr_run_ok sch il : - (1#5) <= il -> il <= 0 ->
    (exists X, WIN X /\ GV il X + 5 * nu < GV il (mem [j])) ->
    f_pmfr_run o it ita itn mc mr sch eps il E n j y = Throw \/
    exists T0 rest,
      f_pmfr_run o it ita itn mc mr sch eps il E n j y = Ok (map (fun p => Fin (fst p)) rest, T0 :: map snd rest) /\
      (csorted T0 /\ In j T0 /\ WIN (mem T0) /\ (length T0 <= S j)%nat /\ aup f nodes j yf (20 * NE) (mem T0) il) /\
      fch E j y (20 * NE) T0 rest [j] /\ StronglySorted Qle (map fst rest) /\
      Forall (fun l => il - 2 * eps <= l /\ l <= 4 * W) (map fst rest).
  Proof.
    intros Hi1 Hi2 (X & HX & HlX). unfold f_pmfr_run. atoms. assert (aNE : NE == N * eps) by reflexivity.
    assert (Lj : (j <? n)%nat = true) by (apply Nat.ltb_lt; auto). rewrite Lj. cbv zeta. fold nodes.
    set (base := fun i => (0, MPMFR.sink_capacity E j i)).
    set (G1 := f_upd o y base il (dig_net eps E j)). set (L := f_lam3 o E n j y).
    assert (L5 : L <= 5 * W) by apply f_lam3_le. assert (L0 : 0 <= L) by apply f_lam3_ge.
    assert (FR0 := dig_frep). fold base in FR0.
    destruct (frep_upd (dig_net eps E j) base nodes [j] 1 il FR0 ltac:(lra) ltac:(lra)) as [FR1 CO1]. fold G1 in FR1, CO1.
    assert (R1 := fr_rep _ _ _ _ _ FR1).
    assert (Hok : net_ok nodes G1) by (split; [apply R1|apply R1]).
    destruct (f_worker d n mc mr j true nodes G1 Hmc Hmr Hok ltac:(unfold nodes; rewrite seq_length; lia) (fr_len _ _ _ _ _ FR1))
      as (Y & Y1 & _ & Y3 & Y4 & Y5 & Y6).
    set (T0 := snd (worker_cut mc mr true j nodes G1)) in *.
    assert (SG1 : same base G1 (dig_net eps E j)) by (intro l; apply f_upd_upd).
    set (G2 := f_upd o y base L G1).
    destruct (frep_upd G1 base nodes [j] 1 L FR1 ltac:(lra) ltac:(lra)) as [FR2 CO2]. fold G2 in FR2, CO2.
    assert (SG2 : same base G2 G1) by (intro l; apply f_upd_upd).
    assert (LY : lm o y G1 base nodes il Y).
    { constructor; auto; rewrite (SG1 il); fold G1; auto. }
    assert (WY : WIN (mem T0)).
    { intros x Hx. apply mem_In, Y5 in Hx. destruct Hx as [->|Hx]; auto. }
    assert (J0 : In j T0) by (apply Y5; auto).
    assert (CX : cut G1 (mem T0) == cut G1 (mem Y)).
    { rewrite <- (cut_restrict nodes G1 (mem T0) Hok), <- (cut_restrict nodes G1 (mem Y) Hok).
      assert (K : filter (mem T0) nodes = filter (mem Y) nodes); [|rewrite K; reflexivity].
      apply filter_ext_in. intros x Hx. destruct (mem Y x) eqn:Ex.
      - apply mem_In. apply Y5. right. apply mem_In. auto.
      - apply mem_false. rewrite Y5. apply mem_false in Ex. intros [K|K]; auto. subst. unfold nodes in Hx. apply in_seq in Hx. lia. }
    assert (FS : forall Z, WIN Z -> Z j = true -> near ((61#30) * nu) (cut G1 Z) (GV il Z + kst E j y (dig_net eps E j) nodes [j] il)).
    { intros Z HZ Hj. apply (frep_set (dig_net eps E j) base nodes [j] 1); auto; try lra.
      - intros x [<-|[]]. auto.
      - intros x Hx. destruct (HZ x Hx); auto. right. left. auto. }
    assert (MN : forall Z, WIN Z -> GV il (mem T0) <= GV il Z + e0).
    { intros Z HZ. set (Z' := fun x => Nat.eqb x j || Z x).
      assert (HZ' : WIN Z').
      { intros x Hx. unfold Z' in Hx. apply orb_true_iff in Hx. destruct Hx as [Hx|Hx]; auto. apply Nat.eqb_eq in Hx. auto. }
      assert (EZ : GV il Z' == GV il Z).
      { rewrite !GV_eq. assert (A : FJ Z' == FJ Z).
        { unfold FJ, fj, f. apply incut_ext. intro x. unfold Z'. destruct (Nat.eqb x j); auto. }
        assert (B : VS il Z' == VS il Z).
        { apply vs_ext; [|reflexivity]. intros x Hx. unfold Z'. assert ((x =? j)%nat = false); [|rewrite H; auto].
          apply Nat.eqb_neq. unfold nodes in Hx. apply in_seq in Hx. lia. }
        lra. }
      assert (A := FS Z' HZ' ltac:(unfold Z'; rewrite Nat.eqb_refl; auto)).
      assert (B := FS (mem T0) WY ltac:(apply mem_In; auto)). assert (C := Y3 Z'). destruct A, B. unfold e0. lra. }
    assert (N0 : [j] <> T0).
    { intro C. assert (A := MN X HX). rewrite <- C in A. unfold e0 in A. lra. }
    assert (I0 : incl [j] T0) by (intros x [<-|[]]; auto).
    assert (TL : (length T0 <= S j)%nat).
    { assert (incl T0 (seq 0 (S j))).
      { intros x Hx. assert (Wx := WY x (proj2 (mem_In _ _) Hx)).
        apply in_seq. destruct Wx as [Wx|Wx]; [apply in_seq in Wx; lia|lia]. }
      assert (Ln := NoDup_incl_length (csorted_NoDup _ Y6) H). rewrite seq_length in Ln. lia. }
    assert (WB : forall Z, between [j] T0 Z -> WIN Z).
    { intros Z [_ Z2] x Hx. apply WY. apply mem_In. auto. }
    destruct (fr_slice_ok sch (S n) 1 [] nodes G2 base [j] T0 [j] il L false) as [R|(rest & sets & Gr & Q1 & R2 & R3 & R4 & R5 & _)];
      auto; try lra; try (simpl; lia).
    { apply incl_refl. }
    { intros x Hx. apply Y5 in Hx. destruct Hx as [->|Hx]; auto. right. left. auto. }
    { repeat constructor. }
    { intros l A Hl Hl6 HA x Hx. apply (lm_same G2 G1) in HA; auto. apply Y5. right.
      apply (lm_shrink o y G1 base nodes il l Y A); auto.
      - apply R1.
      - apply R1.
      - intros a Ha. destruct (frep_upd G1 base nodes [j] 1 l FR1 ltac:(lra) ltac:(lra)) as [_ CC]. apply (CC a Ha). }
    { intros Z HZ. assert (K := f_lam3_min Z (WB Z HZ)). fold L in K. unfold e0. lra. }
    { intros Z HZ _. assert (K := MN Z HZ). change (qn 1) with 1. lra. }
    { left. rewrite R. reflexivity. }
    right. rewrite Q1. cbn [bind fst snd].
    assert (C2 : isort superset (T0 :: [j] :: sets) = T0 :: map snd rest).
    { apply isort_strict2.
      - rewrite <- R2. apply perm_skip. change ([j] :: sets) with ([[j]] ++ sets).
        apply Permutation_app_comm.
      - eapply fch_sorted_sets; [exact Hjn| |exact R3]. apply csorted_NoDup. auto. }
    set (ls := map fst rest) in *. set (ls' := isort Qltb ls).
    assert (C1 : isort dltb (map (fun p : Q * cset => Fin (fst p)) rest) = map Fin ls').
    { rewrite <- (map_map fst Fin). apply isort_Fin. }
    assert (P1 : Permutation ls' ls) by apply isort_perm.
    assert (N8 : Forall2 (near (8 * eps)) ls' ls).
    { destruct (runmax_ok (4 * eps) ltac:(lra) ls (il - 2 * eps)) as (t & T1 & T2 & _); [|exact R5|].
      { intros b Hb. rewrite Forall_forall in R4. specialize (R4 b Hb). lra. }
      assert (D1 : Forall2 (dnear (4 * eps)) (map Fin ls) t).
      { clear -T1. induction T1; simpl; constructor; auto. }
      apply (isort_near (4 * eps)) in D1; auto. rewrite isort_Fin in D1. fold ls' in D1.
      clear -T1 D1 Heps0. revert D1. generalize ls'. induction T1 as [|a b l t Hab Ht IH]; intros m D1.
      - inversion D1. destruct m; [constructor|discriminate].
      - destruct m as [|c m]; inversion D1; subst. constructor; auto. cbn [dnear] in *.
        match goal with H : near _ c b |- _ => destruct H end. destruct Hab. split; lra. }
    assert (Len : length ls' = length (map snd rest)).
    { rewrite (Permutation_length P1). unfold ls. rewrite !map_length. auto. }
    exists T0, (combine ls' (map snd rest)).
    assert (F1 : map fst (combine ls' (map snd rest)) = ls') by (apply map_fst_combine; auto).
    assert (F2 : map snd (combine ls' (map snd rest)) = map snd rest) by (apply map_snd_combine; auto).
    rewrite F1, F2, C1, C2. split; [|split; [|split; [|split]]].
    - rewrite <- (map_map fst Fin), F1. reflexivity.
    - split; auto. split; auto. split; auto. split; auto.
      intros Z HZ _. assert (K := MN Z HZ). rewrite !GV_eq in K.
      change (VS il Z - VS il (mem T0) <= FJ Z - FJ (mem T0) + 20 * NE). unfold e0 in K. lra.
    - assert (M := fch_move n E j Hjn y (12 * NE) (8 * eps) rest ls' T0 [j] R3 N8). fold N in M.
      assert (Ee : 12 * NE + N * (8 * eps) == 20 * NE) by (unfold NE; ring).
      eapply fch_weaken; [exact M|]. lra.
    - apply isortQ_sorted.
    - rewrite Forall_forall in *. intros l Hl. apply (Permutation_in _ P1) in Hl.
      destruct (R4 l Hl) as (A & B & _). auto.
  Qed.
End FR.
