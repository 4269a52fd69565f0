(** * FloatSlice: PMF::slice in floating-point arithmetic returns a chain of near-minimisers. *)
From Coq Require Import Qabs Sorted.
From Verif Require Import Base Graph Spec PartThy SubThy MSets SetsThy MGraph MaxFlow MDil CutThy DilThy MDT
  SeqThy MPMF LamThy ParThy SliceThy DilApprox MFloat FloatThy FloatDil FloatDT MFloatT FloatLam FloatPar PDTThy.

(** The solver returns, on networks with at most [n] inner nodes and [n * n + 2 * n] arcs, the
    inclusion-minimal sink side of a minimum cut; the reported value is within [d] of its capacity. *)
Definition SinkSideSpec (d : Q) (n : nat) (mc : solver) : Prop :=
  forall nodes N, net_ok nodes N -> (length nodes <= n)%nat -> (length N <= n * n + 2 * n)%nat ->
    incl (snd (mc nodes N)) nodes /\
    Qabs (fst (mc nodes N) - cut N (mem (snd (mc nodes N)))) <= d /\
    (forall Y, cut N (mem (snd (mc nodes N))) <= cut N Y) /\
    (forall Y, cut N Y == cut N (mem (snd (mc nodes N))) -> forall x, In x (snd (mc nodes N)) -> Y x = true).

Lemma side_of_exact n mc : MinSinkCutSpec mc -> SinkSideSpec 0 n mc.
Proof.
  intros [H1 H2] nodes N HN _ _. destruct (H1 nodes N HN) as (A & B & C). specialize (H2 nodes N HN).
  split; auto. split; [|split].
  - rewrite B. setoid_replace (cut N (mem (snd (mc nodes N))) - cut N (mem (snd (mc nodes N)))) with 0 by ring.
    apply Qle_refl.
  - intro Y. rewrite <- B. auto.
  - intros Y HY. apply H2. rewrite HY, B. reflexivity.
Qed.

(** Rounding keeps the order. *)
Definition mono_ops (o : fops) : Prop :=
  forall a b b', b <= b' -> fsub o a b' <= fsub o a b /\ fadd o a b <= fadd o a b'.

Lemma mono_sub o : mono_ops o -> forall a b b', b <= b' -> fsub o a b' <= fsub o a b.
Proof. intros H a b b' Hb. apply (H a b b' Hb). Qed.

(** Left operands of subtractions are never varied; the operations respect [==] in the right one. *)
Lemma ycap_lip p l l' : l <= l' -> ycap p l <= ycap p l' + (l' - l).
Proof.
  intro H. destruct (ycap_min p l) as (A1 & A2 & _).
  destruct (ycap_min p l') as (_ & _ & [K|(b & Hb & K)]); [lra|]. specialize (A2 b Hb). lra.
Qed.

Lemma f_ycap_anti o p l l' : mono_ops o -> l <= l' -> f_ycap o p l' <= f_ycap o p l.
Proof.
  intros Hm H. assert (K := mono_sub o Hm (fst p) l l' H). unfold f_ycap.
  destruct (snd p) as [b| |]; auto.
  destruct (Qltb b (fsub o (fst p) l')) eqn:A, (Qltb b (fsub o (fst p) l)) eqn:B;
    repeat match goal with H : Qltb _ _ = true |- _ => apply Qltb_true in H | H : Qltb _ _ = false |- _ => apply Qltb_false in H end; lra.
Qed.

(** ** Sorting a nearly sorted list *)
Lemma isort_Fin ls : isort dltb (map Fin ls) = map Fin (isort Qltb ls).
Proof.
  induction ls as [|a l IH]; auto. change (isort dltb (map Fin (a :: l))) with (insert dltb (Fin a) (isort dltb (map Fin l))).
  rewrite IH. change (isort Qltb (a :: l)) with (insert Qltb a (isort Qltb l)). generalize (isort Qltb l). clear.
  induction l as [|b l IH]; auto. cbn [map insert dltb]. destruct (Qltb b a); cbn [map]; [rewrite IH|]; auto.
Qed.

Lemma runmax_ok g : 0 <= g -> forall ls m, (forall b, In b ls -> m <= b + g) -> StronglySorted (fun a b => a <= b + g) ls ->
  exists t, Forall2 (near g) ls t /\ StronglySorted Qle t /\ Forall (fun x => m <= x) t.
Proof.
  intro Hg. induction ls as [|a ls IH]; intros m Hm HS.
  - exists []. repeat constructor.
  - inversion HS as [|? ? S1 S2]; subst. rewrite Forall_forall in S2.
    assert (M : (m <= a /\ qmx m a == a) \/ (a <= m /\ qmx m a == m)).
    { destruct (Qlt_le_dec m a); [left; split; [lra|apply qmx_r; lra]|right; split; [lra|apply qmx_l; lra]]. }
    assert (Ma := Hm a (or_introl eq_refl)).
    destruct (IH (qmx m a)) as (t & T1 & T2 & T3); auto.
    { intros b Hb. assert (A := Hm b (or_intror Hb)). assert (B := S2 b Hb). destruct M; lra. }
    exists (qmx m a :: t). split; [|split].
    + constructor; auto. split; destruct M; try lra.
    + constructor; auto.
    + constructor; [destruct M; lra|]. eapply Forall_impl; [|exact T3]. simpl. intros x Hx. destruct M; lra.
Qed.

Lemma map_fst_combine {A B} : forall (l : list A) (m : list B), List.length l = List.length m -> map fst (combine l m) = l.
Proof. induction l as [|a l IH]; intros [|b m] H; simpl in *; try discriminate; auto. f_equal. apply IH. lia. Qed.
Lemma map_snd_combine {A B} : forall (l : list A) (m : list B), List.length l = List.length m -> map snd (combine l m) = m.
Proof. induction l as [|a l IH]; intros [|b m] H; simpl in *; try discriminate; auto. f_equal. apply IH. lia. Qed.

(** [f_pmf_run] with another upper end than infinity for the first call of slice; PMF_R::run uses a finite one. *)
Definition f_pmf_run_to (l3 : dbl) (o : fops) (it : graph -> graph) (itn : network -> network) (mc : solver) (eps il : Q)
           (E : graph) (n j : nat) (y : list (Q * dbl)) : res (list dbl * list cset) :=
  if (j <? n)%nat then
    let T0 := snd (f_pmf_cut o mc eps E j y il) in
    do r <- f_pmf_slice (S n) o it itn mc eps E n j y T0 [j] il l3;
    Ok (isort dltb (fst r), isort superset (T0 :: [j] :: snd r))
  else Throw.

Lemma f_pmf_run_inf o it itn mc eps il E n j y :
  f_pmf_run o it itn mc eps il E n j y = f_pmf_run_to PInf o it itn mc eps il E n j y.
Proof. reflexivity. Qed.

Section FSlice.
  Variable u : Q.
  Variable o : fops.
  Hypothesis Hu : 0 <= u.
  Hypothesis Hu1 : u <= 1.
  Hypothesis Ho : std_model u o.
  Hypothesis Hmono : mono_ops o.
  Variable n : nat.
  Variable W : Q.
  Hypothesis HW : 1 <= W.
  Let N := qn n.
  Let nw := N * W.
  Let eta := u * (60 * nw).
  Let nu := N * eta.
  Variable eps : Q.
  Hypothesis Heps0 : 0 < eps.
  Hypothesis Hnu : 32 * nu <= eps.
  Hypothesis HepsN : 32 * (N * eps) <= 1.
  Variable d : Q.
  Hypothesis Hd : 0 <= d.
  Hypothesis Hd1 : d <= eps.
  Variable it : graph -> graph.
  Variable itn : network -> network.
  Hypothesis Hitn : forall G, Permutation (itn G) G.
  Variable mc : solver.
  Hypothesis Hmc : SinkSideSpec d n mc.
  Variable E : graph.
  Hypothesis Hit : Permutation (it E) E.
  Variable j : nat.
  Hypothesis Hjn : (j < n)%nat.
  Hypothesis HE : graph_on (seq 0 n) E.
  Hypothesis Hs : simple E.
  Hypothesis Hf : forward E.
  Hypothesis Hw : forall a, In a E -> eps <= aw a.
  Hypothesis HWE : total E <= W.
  Variable y : list (Q * dbl).
  Hypothesis Hy : forall i, (i < j)%nat -> pbnd W (yat y i).
  Hypothesis Hya : forall i, (i < j)%nat -> fst (yat y i) <= incut E (mem [i]) + nu.

  Let nodes := seq 0 j.
  Let yf := fun i l => ycap (yat y i) l.
  Let f := incut E.
  Let FJ := fj f j.
  Let VS := fun l => vs nodes (fun i => yf i l).
  Let WIN := win nodes j.
  Let G := gval E j y.

  Lemma N1 : 1 <= N.
  Proof. unfold N. change 1 with (qn 1). apply qn_le. lia. Qed.
  Lemma nwW : W <= nw.
  Proof. apply ge1_mul; [apply N1|lra]. Qed.
  Lemma et0 : 0 <= eta.
  Proof. unfold eta. assert (K := nwW). apply Qmult_le_0_compat; lra. Qed.
  Lemma et_nu : eta <= nu.
  Proof. apply ge1_mul; [apply N1|apply et0]. Qed.
  Lemma Nnu : nu <= N * nu /\ 32 * (N * nu) <= N * eps.
  Proof.
    split; [apply ge1_mul; [apply N1|assert (K := et0); assert (K2 := et_nu); lra]|].
    assert (0 <= N * (eps - 32 * nu)) by (apply Qmult_le_0_compat; assert (K := N1); lra). lra.
  Qed.
  Lemma epsN : eps <= N * eps.
  Proof. apply ge1_mul; [apply N1|lra]. Qed.

  Ltac atoms := assert (aN1 := N1); assert (anw := nwW); assert (aet0 := et0); assert (aetn := et_nu);
    assert (aNnu1 := proj1 Nnu); assert (aNnu2 := proj2 Nnu); assert (aeN := epsN).

  Lemma Hnonneg : nonneg E.
  Proof. exact (graph_on_nonneg _ _ HE). Qed.

  Lemma h_sub a b : - (60 * nw) <= a - b -> a - b <= 60 * nw -> near eta (fsub o a b) (a - b).
  Proof. intros. apply (sub_near u o Hu Ho); auto. Qed.
  Lemma h_add a b : - (60 * nw) <= a + b -> a + b <= 60 * nw -> near eta (fadd o a b) (a + b).
  Proof. intros. apply (add_near u o Hu Ho); auto. Qed.
  Lemma h_mul a b : - (60 * nw) <= a * b -> a * b <= 60 * nw -> near eta (fmul o a b) (a * b).
  Proof. intros. apply (mul_near u o Hu Ho); auto. Qed.

  (** ** Sums over the arcs *)
  Lemma n2u : 60 * (N * N * u) <= nu.
  Proof.
    atoms. unfold nu, eta, nw. assert (0 <= N * N * u) by (repeat apply Qmult_le_0_compat; lra).
    assert (K : 0 <= 60 * (N * N * u) * (W - 1)) by (apply Qmult_le_0_compat; lra).
    assert (N * (u * (60 * (N * W))) == 60 * (N * N * u) * (W - 1) + 60 * (N * N * u)) by ring. lra.
  Qed.

  Lemma qn_sq : qn (n * n) == N * N.
  Proof. unfold N, qn. rewrite Nat2Z.inj_mul, inject_Z_mult. reflexivity. Qed.

  Lemma E_len : (length E <= n * n)%nat.
  Proof. assert (K := simple_length (seq 0 n) E (seq_NoDup n 0) HE Hs). rewrite seq_length in K. auto. Qed.

  Lemma fcv_near S : near nu (f_cut_value o it E S) (incut E (mem S)).
  Proof.
    unfold f_cut_value. set (p := fun a => negb (mem S (asrc a)) && mem S (adst a)).
    assert (P1 : Permutation (filter p (it E)) (filter p E)) by (apply filter_perm; apply Hit).
    set (l := filter p (it E)) in *.
    assert (Lc : qsum aw l == incut E (mem S)) by (rewrite (qsum_perm aw _ _ P1), qsum_filter; reflexivity).
    assert (Ll : (length l <= n * n)%nat).
    { rewrite (Permutation_length P1). eapply Nat.le_trans; [apply filter_len|apply E_len]. }
    assert (Hl : forall a, In a l -> 0 <= aw a).
    { intros a Ha. apply Hnonneg. apply (Permutation_in _ P1) in Ha. apply filter_In in Ha. tauto. }
    assert (CL := incut_le E (mem S) Hnonneg). assert (N2 := n2u). atoms.
    assert (U0 : 0 <= N * N * u) by (repeat apply Qmult_le_0_compat; lra).
    assert (QS : qsum Qabs (map aw l) == qsum aw l).
    { rewrite qsum_map. apply qsum_ext. intros x Hx. apply Qabs_pos. auto. }
    assert (K := fsum_near u o Hu Ho (map aw l) 0 W (n * n)).
    rewrite map_length, QS, qsum_map in K. change (Qabs 0) with 0 in K.
    assert (K1 : 2 * qn (n * n) * u <= 1).
    { rewrite qn_sq. assert (2 * (N * N) * u == 2 * (N * N * u)) by ring. lra. }
    assert (K2 : 0 + qsum aw l <= W) by (rewrite Lc; lra). specialize (K Ll K1 K2).
    change (qsum (fun x : arc => aw x) l) with (qsum aw l) in K. rewrite Lc in K.
    assert (B : 2 * qn (n * n) * u * W <= nu).
    { rewrite qn_sq. unfold nu, eta, nw.
      assert (0 <= N * N * u * W) by (repeat apply Qmult_le_0_compat; lra).
      assert (2 * (N * N) * u * W == 2 * (N * N * u * W)) by ring.
      assert (N * (u * (60 * (N * W))) == 60 * (N * N * u * W)) by ring. lra. }
    destruct K. split; lra.
  Qed.

  (** ** The network *)
  Definition fcut (l : Q) (X : nset) : Q := cut (f_pmf_net o eps E j y l) X.

  Definition nterm (l : Q) (i : nat) (b : bool) : Q :=
    let c := f_ycap o (yat y i) l in
    if b then (if Qltb c 0 then - c else 0) else fadd o (sink_cost E j i) (qmax 0 c).

  Lemma cut_node l i X : cut (f_pmf_arcs o eps E j y l i) X == nterm l i (X i).
  Proof.
    unfold f_pmf_arcs, nterm. rewrite (one_copy eps Heps0 E j Hs Hw y i). cbn [repeat].
    unfold cut. cbn [qsum nsrc ndst ncap side negb]. destruct (X i); cbn [negb andb]; lra.
  Qed.

  Lemma fcut_form l X : fcut l X == cut (inner_arcs E nodes) X + qsum (fun i => nterm l i (X i)) nodes.
  Proof.
    unfold fcut, f_pmf_net. rewrite cut_app, cut_flat_map. fold nodes.
    apply Qplus_comp; [reflexivity|]. apply qsum_ext. intros i _. apply cut_node.
  Qed.

  Lemma sink0 i : 0 <= sink_cost E j i /\ sink_cost E j i <= W.
  Proof. split; [apply sink_cost_nonneg; apply Hnonneg|]. assert (K := sink_cost_le E j i Hnonneg). lra. Qed.

  Lemma nterm_nonneg l i b : 0 <= nterm l i b.
  Proof.
    unfold nterm. cbv zeta. set (c := f_ycap o (yat y i) l). destruct b.
    - destruct (Qltb c 0) eqn:Ec; [apply Qltb_true in Ec|]; lra.
    - destruct (Ho (sink_cost E j i) (qmax 0 c)) as (A & _).
      destruct (keep_sign u Hu1 _ _ A) as [K _]. apply K.
      destruct (sink0 i). destruct (qmax_spec 0 c) as [[X Y]|[X Y]]; rewrite Y; lra.
  Qed.

  Lemma f_net_ok l : net_ok nodes (f_pmf_net o eps E j y l).
  Proof.
    split; [apply seq_NoDup|]. intros a Ha. unfold f_pmf_net in Ha. apply in_app_or in Ha.
    destruct Ha as [Ha|Ha].
    - unfold inner_arcs in Ha. apply in_map_iff in Ha. destruct Ha as (b & <- & Hb).
      apply filter_In in Hb. destruct Hb as [Hb1 Hb2]. apply andb_true_iff in Hb2.
      destruct Hb2 as [Hb2 Hb3]. apply mem_In in Hb2. apply mem_In in Hb3. simpl.
      split; [apply Hnonneg; auto|auto].
    - apply in_flat_map in Ha. destruct Ha as (i & Hi & Ha). unfold f_pmf_arcs in Ha.
      destruct Ha as [<-|Ha].
      + cbn [nsrc ndst ncap nnode_ok]. split; [apply (nterm_nonneg l i true)|auto].
      + apply repeat_spec in Ha. subst a. cbn [nsrc ndst ncap nnode_ok]. split; [apply (nterm_nonneg l i false)|auto].
  Qed.

  Lemma f_net_len l : (length (f_pmf_net o eps E j y l) <= n * n + 2 * n)%nat.
  Proof.
    unfold f_pmf_net. rewrite app_length. apply Nat.add_le_mono.
    - unfold inner_arcs. rewrite map_length. eapply Nat.le_trans; [apply filter_len|apply E_len].
    - assert (K : forall l0, (length (flat_map (f_pmf_arcs o eps E j y l) l0) <= 2 * length l0)%nat).
      { induction l0 as [|i l0 IH]; cbn [flat_map length]; [lia|]. rewrite app_length.
        unfold f_pmf_arcs at 1. cbv zeta. rewrite (one_copy eps Heps0 E j Hs Hw y i). cbn [repeat length]. lia. }
      specialize (K (seq 0 j)). rewrite seq_length in K. lia.
  Qed.

  Lemma nterm_near l i b : (i < j)%nat -> - (6 * W) <= l -> l <= 6 * W ->
    near (2 * eta) (nterm l i b) (cut (pmf_arcs eps E j y l i) (fun _ => b)).
  Proof.
    intros Hi L1 L2. atoms. assert (P := Hy i Hi).
    assert (K := f_ycap_near u o Hu Ho n ltac:(lia) W HW nw ltac:(reflexivity) (yat y i) l P ltac:(lra) ltac:(lra)).
    fold eta in K. assert (B := ycap_abs W (yat y i) l (6 * W) P ltac:(lra) L1 L2).
    unfold nterm, pmf_arcs. rewrite (one_copy eps Heps0 E j Hs Hw y i). cbn [repeat]. cbv zeta.
    unfold cut. cbn [qsum nsrc ndst ncap side negb].
    set (c := f_ycap o (yat y i) l) in *. set (c' := ycap (yat y i) l) in *. destruct K as [K1 K2].
    destruct (sink0 i) as [S1 S2].
    destruct b; cbn [negb andb].
    - destruct (Qltb c 0) eqn:A, (Qltb c' 0) eqn:B';
        repeat match goal with H : Qltb _ _ = true |- _ => apply Qltb_true in H | H : Qltb _ _ = false |- _ => apply Qltb_false in H end;
        split; lra.
    - assert (M : near eta (qmax 0 c) (qmax 0 c')).
      { destruct (qmax_spec 0 c) as [[X Y]|[X Y]], (qmax_spec 0 c') as [[X' Y']|[X' Y']]; rewrite Y, Y'; split; lra. }
      assert (R : near eta (fadd o (sink_cost E j i) (qmax 0 c)) (sink_cost E j i + qmax 0 c)).
      { apply h_add; destruct (qmax_spec 0 c) as [[X Y]|[X Y]]; rewrite Y; lra. }
      destruct M, R. split; lra.
  Qed.

  Lemma fcut_near l X : WIN X -> - (6 * W) <= l -> l <= 6 * W -> near (2 * nu) (fcut l X) (G l X + cst j y l).
  Proof.
    intros HX L1 L2. assert (CV := cut_val eps Heps0 E n j Hjn HE Hs Hf Hw y l X HX). fold G in CV.
    assert (FF := fcut_form l X). unfold pmf_net in CV. rewrite cut_app, cut_flat_map in CV. fold nodes in CV.
    assert (K : near (qn (length nodes) * (2 * eta)) (qsum (fun i => nterm l i (X i)) nodes)
                     (qsum (fun i => cut (pmf_arcs eps E j y l i) X) nodes)).
    { assert (A : forall l0, (forall i, In i l0 -> (i < j)%nat) -> near (qn (length l0) * (2 * eta))
                (qsum (fun i => nterm l i (X i)) l0) (qsum (fun i => cut (pmf_arcs eps E j y l i) X) l0)).
      { induction l0 as [|i l0 IH]; intro Hl; cbn [qsum length].
        - rewrite qn_0. split; lra.
        - destruct IH as [I1 I2]; [intros; apply Hl; right; auto|].
          assert (M := nterm_near l i (X i) (Hl i (or_introl eq_refl)) L1 L2).
          assert (Ex : cut (pmf_arcs eps E j y l i) (fun _ => X i) == cut (pmf_arcs eps E j y l i) X).
          { unfold pmf_arcs. rewrite (one_copy eps Heps0 E j Hs Hw y i). reflexivity. }
          destruct M. rewrite qn_S. split; lra. }
      apply A. intros i Hi. apply in_seq in Hi. lia. }
    assert (B : qn (length nodes) * (2 * eta) <= 2 * nu).
    { unfold nu. assert (L : qn (length nodes) <= N) by (apply qn_le; unfold nodes; rewrite seq_length; lia). atoms.
      assert (0 <= (N - qn (length nodes)) * (2 * eta)) by (apply Qmult_le_0_compat; lra).
      assert ((N - qn (length nodes)) * (2 * eta) == 2 * (N * eta) - qn (length nodes) * (2 * eta)) by ring. lra. }
    destruct K. split; lra.
  Qed.

  (** ** Minimal sink sides *)
  Record flmin (l : Q) (T : cset) : Prop := {
    fl_sorted : csorted T;
    fl_j : In j T;
    fl_win : WIN (mem T);
    fl_min : forall X, fcut l (mem T) <= fcut l X;
    fl_least : forall X, fcut l X <= fcut l (mem T) -> forall x, In x nodes -> In x T -> X x = true }.

  Lemma f_cut_min l : flmin l (snd (f_pmf_cut o mc eps E j y l)) /\
    near d (fst (f_pmf_cut o mc eps E j y l)) (fcut l (mem (snd (f_pmf_cut o mc eps E j y l)))).
  Proof.
    destruct (Hmc nodes _ (f_net_ok l)) as (I1 & I2 & I3 & I4).
    { unfold nodes. rewrite seq_length. lia. }
    { apply f_net_len. }
    unfold f_pmf_cut. cbv zeta. fold nodes. cbn [fst snd].
    set (fX := mc nodes (f_pmf_net o eps E j y l)) in *.
    set (T := cadd j (cset_of (filter (mem (snd fX)) nodes))).
    assert (TI : forall x, In x T <-> x = j \/ In x (snd fX)).
    { intro x. unfold T. rewrite cadd_In, cset_of_In, filter_In, mem_In. split; [tauto|].
      intros [H|H]; auto. }
    assert (C : fcut l (mem T) == cut (f_pmf_net o eps E j y l) (mem (snd fX))).
    { unfold fcut. rewrite <- (cut_nodes nodes _ (mem T) (f_net_ok l)), <- (cut_nodes nodes _ (mem (snd fX)) (f_net_ok l)).
      apply cut_ext. intro x. apply mem_ext. intro z. rewrite !filter_In, !mem_In, TI. split; intros [A B]; split; auto.
      destruct B as [->|B]; auto. unfold nodes in A. apply in_seq in A. lia. }
    split.
    - constructor.
      + unfold T. apply cadd_sorted. apply cset_of_sorted.
      + apply TI. auto.
      + intros x Hx. apply mem_In, TI in Hx. destruct Hx; auto.
      + intro X. rewrite C. apply I3.
      + intros X HX x Hx HxT. apply (I4 X).
        * rewrite C in HX. specialize (I3 X). unfold fcut in HX. lra.
        * apply TI in HxT. destruct HxT as [->|K]; auto. unfold nodes in Hx. apply in_seq in Hx. lia.
    - apply near_abs. rewrite C. exact I2.
  Qed.

  Lemma nterm_mono l l' i : l <= l' -> nterm l i true - nterm l i false <= nterm l' i true - nterm l' i false.
  Proof.
    intro H. assert (K := f_ycap_anti o (yat y i) l l' Hmono H). unfold nterm. cbv zeta.
    set (c := f_ycap o (yat y i) l) in *. set (c' := f_ycap o (yat y i) l') in *.
    assert (M : qmax 0 c' <= qmax 0 c).
    { destruct (qmax_spec 0 c) as [[X Y]|[X Y]], (qmax_spec 0 c') as [[X' Y']|[X' Y']]; rewrite Y, Y'; lra. }
    destruct (Hmono (sink_cost E j i) _ _ M) as [_ A].
    destruct (Qltb c 0) eqn:B, (Qltb c' 0) eqn:B';
        repeat match goal with H : Qltb _ _ = true |- _ => apply Qltb_true in H | H : Qltb _ _ = false |- _ => apply Qltb_false in H end;
        lra.
  Qed.

  Lemma fcut_mono l l' X T : l <= l' -> (forall x, T x = true -> X x = true) ->
    fcut l X - fcut l T <= fcut l' X - fcut l' T.
  Proof.
    intros Hl HT. rewrite !fcut_form.
    assert (K : qsum (fun i => nterm l i (X i)) nodes - qsum (fun i => nterm l i (T i)) nodes <=
                qsum (fun i => nterm l' i (X i)) nodes - qsum (fun i => nterm l' i (T i)) nodes); [|lra].
    rewrite <- !qsum_minus. apply qsum_le. intros i _. destruct (T i) eqn:Et.
    - rewrite (HT i Et). lra.
    - destruct (X i); [apply nterm_mono; auto|lra].
  Qed.

  Lemma f_shrink l l' T T' : flmin l T -> flmin l' T' -> l <= l' -> incl T' T.
  Proof.
    intros H H' Hl x Hx.
    assert (Hxw := fl_win l' T' H' x). assert (Hm : mem T' x = true) by (apply mem_In; auto).
    destruct (Hxw Hm) as [Hn|Hn]; [|subst; apply (fl_j l T H)].
    assert (K : iinter (mem T') (mem T) x = true).
    { apply (fl_least l' T' H'); auto.
      assert (A := fl_min l T H (iunion (mem T') (mem T))).
      assert (B : fcut l' (iunion (mem T') (mem T)) + fcut l' (iinter (mem T') (mem T)) <=
                  fcut l' (mem T') + fcut l' (mem T)).
      { apply cut_sub. intros a Ha. apply (f_net_ok l'). auto. }
      assert (C := fcut_mono l l' (iunion (mem T') (mem T)) (mem T) Hl).
      assert (C' : fcut l (iunion (mem T') (mem T)) - fcut l (mem T) <= fcut l' (iunion (mem T') (mem T)) - fcut l' (mem T)).
      { apply C. intros i Hi. unfold iunion. rewrite Hi. apply orb_true_r. }
      lra. }
    unfold iinter in K. apply andb_true_iff in K. apply mem_In. tauto.
  Qed.

  Lemma fl_near l T X : flmin l T -> WIN X -> - (6 * W) <= l -> l <= 6 * W -> G l (mem T) <= G l X + 4 * nu.
  Proof.
    intros H HX L1 L2. assert (K := fl_min l T H X).
    destruct (fcut_near l X HX L1 L2). destruct (fcut_near l (mem T) (fl_win l T H) L1 L2). lra.
  Qed.

  (** The vectors move with [l]. *)
  Lemma VS_lip l l' g X T : near g l l' -> near (N * g) (VS l X - VS l T) (VS l' X - VS l' T).
  Proof.
    intros [G1 G2]. assert (G0 : 0 <= g) by lra.
    assert (K : forall i, near g (yf i l) (yf i l')).
    { intro i. unfold yf. destruct (Qlt_le_dec l l') as [A|A].
      - assert (B := ycap_lip (yat y i) l l' ltac:(lra)). assert (C := ycap_anti (yat y i) l l' ltac:(lra)). split; lra.
      - assert (B := ycap_lip (yat y i) l' l ltac:(lra)). assert (C := ycap_anti (yat y i) l' l ltac:(lra)). split; lra. }
    assert (M : near (qn (length nodes) * g) (VS l X - VS l T) (VS l' X - VS l' T)).
    { unfold VS, vs. rewrite <- !qsum_minus. clear -K G0. induction nodes as [|i t IH]; cbn [qsum length].
      - rewrite qn_0. split; lra.
      - destruct IH as [A B]. specialize (K i). destruct K. rewrite qn_S.
        destruct (X i), (T i); split; lra. }
    apply near_wk with (qn (length nodes) * g); auto. apply Qmult_le_compat_r; auto.
    apply qn_le. unfold nodes. rewrite seq_length. lia.
  Qed.

  (** ** Comparisons with the tolerance *)
  Lemma tol_near a b : - (50 * nw) <= a -> a <= 50 * nw -> - (6 * W) <= b -> b <= 6 * W ->
    f_tol_different o eps a b = false -> near (2 * eps) a b.
  Proof.
    intros A1 A2 B1 B2 H. atoms. unfold f_tol_different, f_tol_less in H. apply orb_false_iff in H.
    destruct H as [H1 H2]. apply Qltb_false in H1. apply Qltb_false in H2.
    assert (K1 : near eta (fadd o a eps) (a + eps)) by (apply h_add; lra).
    assert (K2 : near eta (fadd o b eps) (b + eps)) by (apply h_add; lra).
    destruct K1, K2. split; lra.
  Qed.

  (** ** Upper bound of the crossing values *)
  Lemma incut_singles : forall L, NoDup L -> qsum (fun i => incut E (mem [i])) L <= total E.
  Proof.
    intros L HL. unfold incut. rewrite qsum_swap. apply qsum_le. intros a Ha. assert (A0 := Hnonneg a Ha).
    assert (K : qsum (fun i => if negb (mem [i] (asrc a)) && mem [i] (adst a) then aw a else 0) L <=
                qsum (fun i => if Nat.eqb (adst a) i then aw a else 0) L).
    { apply qsum_le. intros i _. cbn [mem existsb]. rewrite !orb_false_r.
      destruct (Nat.eqb (adst a) i); [|rewrite andb_false_r; lra]. destruct (negb _); cbn [andb]; lra. }
    eapply Qle_trans; [exact K|]. clear -HL A0. induction HL as [|i L Hi HL IH]; cbn [qsum]; [lra|].
    destruct (Nat.eqb (adst a) i) eqn:Ei; [|lra]. apply Nat.eqb_eq in Ei. subst i.
    assert (Z : qsum (fun i => if Nat.eqb (adst a) i then aw a else 0) L == 0); [|lra].
    apply qsum_zero. intros i Hx. destruct (Nat.eqb (adst a) i) eqn:Ex; [|reflexivity].
    apply Nat.eqb_eq in Ex. subst. contradiction.
  Qed.

  Lemma ps_upper p l t : let ps := map (yat y) (filter p nodes) in
    ps <> [] -> t <= ysum ps l -> 0 <= l -> l <= W + N * nu - t.
  Proof.
    intros ps Hne Ht Hl. atoms.
    assert (A : ysum ps l <= qsum (fun q => fst q - l) ps).
    { apply qsum_le. intros q _. exact (proj1 (ycap_min q l)). }
    rewrite qsum_minus, qsum_const in A.
    assert (B : l <= l * qn (length ps)).
    { assert (K : 1 <= qn (length ps)).
      { change 1 with (qn 1). apply qn_le. destruct ps; [congruence|simpl; lia]. }
      assert (0 <= l * (qn (length ps) - 1)) by (apply Qmult_le_0_compat; lra). lra. }
    assert (C : qsum fst ps <= W + N * nu).
    { unfold ps. rewrite qsum_map, qsum_filter.
      apply Qle_trans with (qsum (fun i => incut E (mem [i]) + nu) nodes).
      - apply qsum_le. intros i Hi. apply in_seq in Hi. assert (K := Hya i ltac:(lia)).
        assert (0 <= incut E (mem [i])).
        { apply qsum_nonneg. intros a Ha. assert (A0 := Hnonneg a Ha). destruct (_ && _); lra. }
        destruct (p i); lra.
      - rewrite qsum_plus, qsum_const. assert (S := incut_singles nodes (seq_NoDup j 0)).
        assert (L : qn (length nodes) <= N) by (apply qn_le; unfold nodes; rewrite seq_length; lia).
        assert (0 <= nu * (N - qn (length nodes))) by (apply Qmult_le_0_compat; lra). lra. }
    lra.
  Qed.

  (** ** The value test *)
  Lemma net_cut_near l S : WIN (mem S) -> - (6 * W) <= l -> l <= 6 * W ->
    near (2 * (N * nu)) (f_net_cut o itn (f_pmf_net o eps E j y l) S) (fcut l (mem S)) /\
    0 <= fcut l (mem S) /\ fcut l (mem S) <= 20 * nw.
  Proof.
    intros HS L1 L2. atoms. unfold f_net_cut. set (NT := f_pmf_net o eps E j y l).
    set (p := fun a => negb (side (mem S) (nsrc a)) && side (mem S) (ndst a)).
    assert (P1 : Permutation (filter p (itn NT)) (filter p NT)) by (apply filter_perm; apply Hitn).
    set (q := filter p (itn NT)) in *.
    assert (Lc : qsum ncap q == fcut l (mem S)) by (rewrite (qsum_perm ncap _ _ P1), qsum_filter; reflexivity).
    assert (Ll : (length q <= n * n + 2 * n)%nat).
    { rewrite (Permutation_length P1). eapply Nat.le_trans; [apply filter_len|apply f_net_len]. }
    assert (Hl : forall a, In a q -> 0 <= ncap a).
    { intros a Ha. apply (f_net_ok l). apply (Permutation_in _ P1) in Ha. apply filter_In in Ha. tauto. }
    assert (C0 : 0 <= fcut l (mem S)) by (rewrite <- Lc; apply qsum_nonneg; auto).
    assert (C1 : fcut l (mem S) <= 20 * nw).
    { assert (K := fcut_near l (mem S) HS L1 L2). destruct K as [K _].
      assert (A : G l (mem S) <= W + 8 * nw).
      { unfold G, gval. assert (I := incut_le E (fun x => Nat.eqb x j || mem S x) Hnonneg).
        assert (V : - (8 * nw) <= vs (seq 0 j) (fun i => ycap (yat y i) l) (mem S)).
        { apply Qle_trans with (qsum (fun _ => - (8 * W)) (seq 0 j)).
          - rewrite qsum_const, seq_length. assert (L : qn j <= N) by (apply qn_le; lia).
            assert (0 <= 8 * W * (N - qn j)) by (apply Qmult_le_0_compat; lra). unfold nw.
            assert (- (8 * W) * qn j == 8 * W * (N - qn j) - 8 * (N * W)) by ring. lra.
          - apply qsum_le. intros i Hi. apply in_seq in Hi.
            assert (B := ycap_abs W (yat y i) l (6 * W) (Hy i ltac:(lia)) ltac:(lra) L1 L2).
            destruct (mem S i); lra. }
        unfold fj. lra. }
      assert (B : cst j y l <= 8 * nw).
      { unfold cst, vec. rewrite qsum_map. cbn [snd].
        apply Qle_trans with (qsum (fun _ => 8 * W) (seq 0 j)).
        - apply qsum_le. intros i Hi. apply in_seq in Hi.
          assert (B := ycap_abs W (yat y i) l (6 * W) (Hy i ltac:(lia)) ltac:(lra) L1 L2).
          destruct (qmax_spec 0 (ycap (yat y i) l)) as [[X Y]|[X Y]]; rewrite Y; lra.
        - rewrite qsum_const, seq_length. assert (L : qn j <= N) by (apply qn_le; lia).
          assert (0 <= 8 * W * (N - qn j)) by (apply Qmult_le_0_compat; lra). unfold nw.
          assert (8 * W * qn j == 8 * (N * W) - 8 * W * (N - qn j)) by ring. lra. }
      lra. }
    split; [|auto]. assert (N2 := n2u).
    assert (QS : qsum Qabs (map ncap q) == qsum ncap q).
    { rewrite qsum_map. apply qsum_ext. intros x Hx. apply Qabs_pos. auto. }
    assert (K := fsum_near u o Hu Ho (map ncap q) 0 (20 * nw) (n * n + 2 * n)).
    rewrite map_length, QS, qsum_map in K. change (Qabs 0) with 0 in K.
    assert (QK : qn (n * n + 2 * n) <= 3 * (N * N)).
    { rewrite qn_plus, qn_sq. assert (M : qn (2 * n) == 2 * N) by (unfold N, qn; rewrite Nat2Z.inj_mul, inject_Z_mult; reflexivity).
      rewrite M. assert (0 <= N * (N - 1)) by (apply Qmult_le_0_compat; lra). lra. }
    assert (QU : 2 * qn (n * n + 2 * n) * u <= 6 * (N * N * u)).
    { assert (0 <= (3 * (N * N) - qn (n * n + 2 * n)) * u) by (apply Qmult_le_0_compat; lra). lra. }
    assert (U0 : 0 <= N * N * u) by (repeat apply Qmult_le_0_compat; lra).
    specialize (K Ll ltac:(lra) ltac:(rewrite Lc; lra)).
    change (qsum (fun x : narc => ncap x) q) with (qsum ncap q) in K. rewrite Lc in K.
    assert (B : 2 * qn (n * n + 2 * n) * u * (20 * nw) <= 2 * (N * nu)).
    { apply Qle_trans with (6 * (N * N * u) * (20 * nw)); [apply Qmult_le_compat_r; lra|].
      unfold nu, eta. assert (6 * (N * N * u) * (20 * nw) == 2 * (N * (N * (u * (60 * nw))))) by ring. lra. }
    destruct K. split; lra.
  Qed.

  (** ** The chain of sets *)
  Fixpoint fch (s : Q) (T : cset) (rest : list (Q * cset)) (Te : cset) : Prop :=
    match rest with
    | [] => T = Te
    | (l, T') :: r =>
        csorted T' /\ In j T' /\ incl T' T /\ (length T' < length T)%nat /\
        across f nodes j yf s (mem T) (mem T') l /\ aup f nodes j yf s (mem T') l /\ fch s T' r Te
    end.

  Lemma fch_app s r1 : forall T r2 m Te, fch s T r1 m -> fch s m r2 Te -> fch s T (r1 ++ r2) Te.
  Proof.
    induction r1 as [|[l T'] r IH]; intros T r2 m Te H1 H2; cbn [fch app] in *.
    - subst. auto.
    - destruct H1 as (A1 & A2 & A3 & A4 & A5 & A6 & A7). repeat split; auto; try apply A5. eapply IH; eauto.
  Qed.

  (** Moving the crossing values by at most [g]. *)
  Lemma fch_move s g : forall rest ls T Te, fch s T rest Te -> Forall2 (near g) ls (map fst rest) ->
    fch (s + N * g) T (combine ls (map snd rest)) Te.
  Proof.
    induction rest as [|[l T'] r IH]; intros ls T Te H HL; cbn [map fst snd] in *; inversion HL as [|l' ? ls' ? Hl Hls]; subst.
    - cbn [combine fch] in *. auto.
    - cbn [combine fch] in *. destruct H as (A1 & A2 & A3 & A4 & A5 & A6 & A7). repeat split; auto.
      + assert (K := VS_lip l' l g (mem T) (mem T') Hl). unfold across, VS in *. destruct K, A5. lra.
      + assert (K := VS_lip l' l g (mem T) (mem T') Hl). unfold across, VS in *. destruct K, A5. lra.
      + intros X HX HTX. specialize (A6 X HX HTX). assert (K := VS_lip l' l g X (mem T') Hl).
        unfold VS in K. destruct K. lra.
  Qed.

  Lemma fch_weaken s s' : forall rest T Te, fch s T rest Te -> s <= s' -> fch s' T rest Te.
  Proof.
    induction rest as [|[l T'] r IH]; intros T Te H Hs'; cbn [fch] in *; auto.
    destruct H as (A1 & A2 & A3 & A4 & A5 & A6 & A7). repeat split; auto.
    - destruct A5. lra.
    - destruct A5. lra.
    - intros X HX HTX. specialize (A6 X HX HTX). lra.
  Qed.

  Lemma win_j : WIN (mem [j]).
  Proof. intros x Hx. apply mem_In in Hx. destruct Hx as [<-|[]]. right; auto. Qed.

  Lemma SS_app (R : Q -> Q -> Prop) l1 l2 : StronglySorted R l1 -> StronglySorted R l2 ->
    (forall a b, In a l1 -> In b l2 -> R a b) -> StronglySorted R (l1 ++ l2).
  Proof.
    induction 1 as [|a l H IH Ha]; intros H2 HR; simpl; auto. constructor.
    - apply IH; auto. intros; apply HR; auto; right; auto.
    - apply Forall_app. split; auto. apply Forall_forall. intros b Hb. apply HR; auto. left; auto.
  Qed.

  Let NE := N * eps.

  Theorem f_slice_ok : forall fuel Tl Tr l1 l3,
    (length Tl <= length Tr + fuel)%nat -> incl Tr Tl -> Tr <> Tl ->
    flmin l1 Tl -> - (1#5) <= l1 -> l1 <= 4 * W ->
    match l3 with
    | Fin q => flmin q Tr /\ l1 <= q /\ q <= 4 * W
    | PInf => Tr = [j]
    | NaN => False
    end ->
    (~ u == 0 /\ f_pmf_slice fuel o it itn mc eps E n j y Tl Tr l1 l3 = Throw) \/
    exists rest sets,
      f_pmf_slice fuel o it itn mc eps E n j y Tl Tr l1 l3 = Ok (map (fun p => Fin (fst p)) rest, sets) /\
      Permutation (sets ++ [Tr]) (map snd rest) /\ fch (12 * NE) Tl rest Tr /\
      Forall (fun l => l1 - 2 * eps <= l /\ l <= 4 * W /\ match l3 with Fin q => l <= q + 2 * eps | _ => True end)
             (map fst rest) /\
      StronglySorted (fun a b => a <= b + 4 * eps) (map fst rest).
  Proof.
    induction fuel as [|fuel IH]; intros Tl Tr l1 l3 Hfu Hi Hne H1 Hl1 Hl1' H3.
    - exfalso. assert (csorted Tr).
      { destruct l3 as [q| |]; [apply H3|subst; repeat constructor|contradiction]. }
      assert (L := csub_length Tr Tl H (fl_sorted _ _ H1) Hi Hne). lia.
    - assert (HTr : csorted Tr /\ In j Tr /\ WIN (mem Tr)).
      { destruct l3 as [q| |]; [|subst|contradiction].
        - destruct H3 as [H3 _]. split; [|split]; apply H3.
        - split; [repeat constructor|]. split; [left; auto|]. apply win_j. }
      destruct HTr as (Tr1 & Tr2 & Tr3). atoms. assert (aNE : NE == N * eps) by reflexivity.
      cbn [f_pmf_slice]. rewrite (diff_nodes n j Hjn xH Tl Tr (fl_win _ _ H1) Tr2). fold nodes.
      set (pf := fun i => mem Tl i && negb (mem Tr i)).
      set (ps := map (yat y) (filter pf nodes)).
      set (tF := fsub o (f_cut_value o it E Tl) (f_cut_value o it E Tr)).
      assert (Et : near (3 * nu) tF (FJ (mem Tl) - FJ (mem Tr))).
      { assert (A := fcv_near Tl). assert (B := fcv_near Tr).
        assert (A' := cut_value_FJ E j Tl (fl_j _ _ H1)). assert (B' := cut_value_FJ E j Tr Tr2).
        change (get_cut_value E Tl) with (incut E (mem Tl)) in A'. change (get_cut_value E Tr) with (incut E (mem Tr)) in B'.
        assert (CA := incut_le E (mem Tl) Hnonneg). assert (CB := incut_le E (mem Tr) Hnonneg).
        assert (DA : 0 <= incut E (mem Tl)).
        { apply qsum_nonneg. intros a Ha. assert (A0 := Hnonneg a Ha). destruct (_ && _); lra. }
        assert (DB : 0 <= incut E (mem Tr)).
        { apply qsum_nonneg. intros a Ha. assert (A0 := Hnonneg a Ha). destruct (_ && _); lra. }
        destruct A, B. assert (K : near eta tF (f_cut_value o it E Tl - f_cut_value o it E Tr)) by (apply h_sub; lra).
        destruct K. unfold FJ, f. split; lra. }
      assert (FB : forall T, 0 <= FJ T /\ FJ T <= W).
      { intro T. unfold FJ, fj, f. assert (C := incut_le E (fun x => Nat.eqb x j || T x) Hnonneg). split; [|lra].
        apply qsum_nonneg. intros a Ha. assert (A0 := Hnonneg a Ha). destruct (_ && _); lra. }
      destruct (FB (mem Tl)) as [FL1 FL2]. destruct (FB (mem Tr)) as [FR1 FR2]. destruct Et as [Et1 Et2].
      assert (Ys : forall l, ysum ps l == VS l (mem Tl) - VS l (mem Tr)) by (intro; apply ysum_diff; auto).
      assert (Pne : ps <> []).
      { intro C. apply Hne. apply csorted_ext; auto; [apply H1|]. intro x. split; [apply Hi|]. intro Hx.
        destruct (mem Tr x) eqn:Er; [apply mem_In; auto|]. exfalso.
        assert (Wx := fl_win _ _ H1 x). assert (Hmx : mem Tl x = true) by (apply mem_In; auto).
        destruct (Wx Hmx) as [W1|W1]; [|subst; apply mem_false in Er; auto].
        assert (In (yat y x) ps).
        { unfold ps. apply in_map. apply filter_In. split; auto. unfold pf. rewrite Hmx, Er. auto. }
        rewrite C in H. destruct H. }
      assert (Pm : Forall (pbnd W) ps).
      { apply Forall_forall. intros p Hp. unfold ps in Hp. apply in_map_iff in Hp.
        destruct Hp as (i & <- & Hx). apply filter_In in Hx. destruct Hx as [Hx _]. apply Hy.
        unfold nodes in Hx. apply in_seq in Hx. lia. }
      assert (Pl : (length ps <= n)%nat).
      { unfold ps. rewrite map_length. eapply Nat.le_trans; [apply filter_len|].
        unfold nodes. rewrite seq_length. lia. }
      assert (S1 : tF <= ysum ps l1 + (1#4) * eps).
      { rewrite Ys. assert (K := fl_near l1 Tl (mem Tr) H1 Tr3 ltac:(lra) ltac:(lra)). unfold G, gval in K.
        unfold VS, FJ, f, nodes, yf in *. lra. }
      destruct (f_compute_lambda_ok u o Hu Hu1 Ho n ltac:(lia) W HW nw ltac:(reflexivity) eps
                  ltac:(change (24 * nu <= eps); lra) ltac:(lra) Heps0 ps tF l1 Pm Pne Pl ltac:(lra) ltac:(lra) S1)
        as (l2 & Rl & Rs & Rb1 & Rb2 & Rz). change (near (2 * NE) (ysum ps l2) tF) in Rs.
      rewrite Rl. cbn [bind].
      assert (U2 : l2 <= 4 * W).
      { destruct (Qlt_le_dec l2 0) as [K|K]; [lra|]. destruct Rs as [Rs1 Rs2].
        assert (B := ps_upper pf l2 (tF - 2 * NE) Pne ltac:(fold ps; lra) K). lra. }
      assert (Cr : near (3 * NE) (FJ (mem Tl) - FJ (mem Tr)) (VS l2 (mem Tl) - VS l2 (mem Tr))).
      { assert (Z := Ys l2). destruct Rs. split; lra. }
      assert (Hleaf : aup f nodes j yf (12 * NE) (mem Tr) l2 -> l1 - 2 * eps <= l2 ->
        match l3 with Fin q => l2 <= q + 2 * eps | _ => True end ->
        exists rest sets,
          Ok ([Fin l2], []) = Ok (map (fun p : Q * cset => Fin (fst p)) rest, sets) /\
          Permutation (sets ++ [Tr]) (map snd rest) /\ fch (12 * NE) Tl rest Tr /\
          Forall (fun l => l1 - 2 * eps <= l /\ l <= 4 * W /\ match l3 with Fin q => l <= q + 2 * eps | _ => True end)
                 (map fst rest) /\
          StronglySorted (fun a b => a <= b + 4 * eps) (map fst rest)).
      { intros HU HL1 HL3. exists [(l2, Tr)], []. split; [reflexivity|]. split; [reflexivity|].
        split; [|split; [repeat constructor; auto|repeat constructor]].
        cbn [fch]. split; auto. split; auto. split; auto. split; [apply csub_length; auto; apply H1|].
        split; [|auto]. destruct Cr. unfold across. unfold VS in *. split; fold FJ; lra. }
      (* lambda_2 is lambda_1 or lambda_3 up to the tolerance *)
      destruct (f_tol_different o eps l2 l1) eqn:D1.
      2:{ cbn [negb orb]. right. apply tol_near in D1; [|lra|lra|lra|lra]. apply Hleaf.
        - intros X HX HTX. assert (K := fl_near l1 Tl X H1 HX ltac:(lra) ltac:(lra)).
          assert (L := VS_lip l2 l1 (2 * eps) X (mem Tl) D1).
          assert (M : N * (2 * eps) == 2 * NE) by (unfold NE; ring). unfold near in L. rewrite M in L.
          destruct L, Cr. unfold G, gval in K. fold f FJ in K. change (vs (seq 0 j) (fun i => ycap (yat y i) l1)) with (VS l1) in K.
          change (VS l2 X - VS l2 (mem Tr) <= FJ X - FJ (mem Tr) + 12 * NE). lra.
        - destruct D1. lra.
        - destruct D1. destruct l3 as [q| |]; auto. destruct H3 as (_ & H3 & _). lra. }
      cbn [negb orb].
      destruct (f_dbl_different o eps l2 l3) eqn:D3.
      2:{ cbn [negb]. right. destruct l3 as [q| |]; [|discriminate D3|contradiction]. simpl in D3.
        destruct H3 as (H3 & H3a & H3b). apply tol_near in D3; [|lra|lra|lra|lra]. apply Hleaf.
        - intros X HX HTX. assert (K := fl_near q Tr X H3 HX ltac:(lra) ltac:(lra)).
          assert (L := VS_lip l2 q (2 * eps) X (mem Tr) D3).
          assert (M : N * (2 * eps) == 2 * NE) by (unfold NE; ring). unfold near in L. rewrite M in L.
          destruct L. unfold G, gval in K. fold f FJ in K. change (vs (seq 0 j) (fun i => ycap (yat y i) q)) with (VS q) in K.
          change (VS l2 X - VS l2 (mem Tr) <= FJ X - FJ (mem Tr) + 12 * NE). lra.
        - destruct D3. lra.
        - destruct D3. lra. }
      cbn [negb orb].
      destruct (Qltb l2 l1 || dltb l3 (Fin l2)) eqn:DT.
      { left. split; [|reflexivity]. intro HU. destruct (Rz HU) as ([Z1 Z2] & Z3 & Z4).
        assert (Nu0 : nu == 0) by (unfold nu, eta; rewrite HU; ring).
        assert (Eta0 : eta == 0) by (unfold eta; rewrite HU; ring).
        assert (Add : forall a, - (50 * nw) <= a -> a <= 50 * nw -> fadd o a eps == a + eps).
        { intros a Ha1 Ha2. assert (K : near eta (fadd o a eps) (a + eps)) by (apply h_add; lra). destruct K. lra. }
        assert (S0 : tF <= ysum ps l1).
        { rewrite Ys. assert (K := fl_near l1 Tl (mem Tr) H1 Tr3 ltac:(lra) ltac:(lra)). unfold G, gval in K.
          unfold VS, FJ, f, nodes, yf in *. lra. }
        destruct (Qltb l2 l1) eqn:D12.
        - apply Qltb_true in D12. unfold f_tol_different, f_tol_less in D1. apply orb_true_iff in D1.
          assert (X : l2 + eps < l1).
          { destruct D1 as [D1|D1]; apply Qltb_true in D1; rewrite Add in D1 by lra; lra. }
          specialize (Z3 l1 ltac:(lra)). lra.
        - cbn [orb] in DT. destruct l3 as [q| |]; [|discriminate DT|contradiction]. cbn [dltb] in DT. apply Qltb_true in DT.
          destruct H3 as (H3 & H3a & H3b). cbn [f_dbl_different] in D3. unfold f_tol_different, f_tol_less in D3.
          apply orb_true_iff in D3.
          assert (X : q + eps < l2).
          { destruct D3 as [D3|D3]; apply Qltb_true in D3; rewrite Add in D3 by lra; lra. }
          assert (S3 : ysum ps q <= tF).
          { rewrite Ys. assert (K := fl_near q Tr (mem Tl) H3 (fl_win _ _ H1) ltac:(lra) ltac:(lra)). unfold G, gval in K.
            unfold VS, FJ, f, nodes, yf in *. lra. }
          destruct Z4 as [Z4|Z4]; [specialize (Z4 q ltac:(lra)); lra|].
          assert (Q1 := Z4 q ltac:(lra)). assert (Q2 := Z4 l1 ltac:(lra)).
          apply Hne. apply csorted_ext; auto; [apply H1|]. intro x. split; [apply Hi|]. intro Hx.
          destruct (fl_win _ _ H1 x (proj2 (mem_In _ _) Hx)) as [W1|W1]; [|subst; auto].
          apply mem_In. apply (fl_least _ _ H1 (mem Tr)); auto.
          assert (K1 := fcut_near l1 (mem Tr) Tr3 ltac:(lra) ltac:(lra)).
          assert (K2 := fcut_near l1 (mem Tl) (fl_win _ _ H1) ltac:(lra) ltac:(lra)).
          assert (K3 := Ys l1). unfold G, gval in K1, K2. fold f FJ in K1, K2.
          change (vs (seq 0 j) (fun i => ycap (yat y i) l1)) with (VS l1) in K1, K2. destruct K1, K2. lra. }
      apply orb_false_iff in DT. destruct DT as [DT1 DT3]. apply Qltb_false in DT1.
      assert (L23 : match l3 with Fin q => l2 <= q | _ => True end).
      { destruct l3 as [q| |]; auto. simpl in DT3. apply Qltb_false in DT3. auto. }
      destruct (f_cut_min l2) as [PM1 PM2].
      set (fT := f_pmf_cut o mc eps E j y l2) in *.
      destruct (negb (ceqb (snd fT) Tr) && negb (ceqb (snd fT) Tl) &&
                Qltb (fst fT) (fsub o (f_net_cut o itn (f_pmf_net o eps E j y l2) Tr) (fmul o 10 eps))) eqn:Eb.
      + (* recursion *)
        apply andb_true_iff in Eb. destruct Eb as [Eb _]. apply andb_true_iff in Eb.
        destruct Eb as [K1 K2]. apply negb_true_iff in K1. apply negb_true_iff in K2.
        apply ceqb_false in K1. apply ceqb_false in K2.
        set (T' := snd fT) in *.
        assert (I1 : incl T' Tl) by (apply (f_shrink l1 l2 Tl T' H1 PM1); lra).
        assert (I2 : incl Tr T').
        { destruct l3 as [q| |]; [|subst|contradiction].
          - apply (f_shrink l2 q T' Tr PM1 (proj1 H3) L23).
          - intros x [<-|[]]. apply PM1. }
        assert (G1 := csub_length T' Tl (fl_sorted _ _ PM1) (fl_sorted _ _ H1) I1 K2).
        assert (G2 := csub_length Tr T' Tr1 (fl_sorted _ _ PM1) I2 (not_eq_sym K1)).
        destruct (IH Tl T' l1 (Fin l2)) as [R1|(r1 & s1 & A1 & A2 & A3 & A4 & A5)]; auto; try lia.
        { destruct R1 as [R0 R1]. rewrite R1. left. auto. }
        rewrite A1. cbn [bind].
        destruct (IH T' Tr l2 l3) as [R2|(r2 & s2 & C1 & C2 & C3 & C4 & C5)]; auto; try lia; try lra.
        { destruct l3 as [q| |]; auto. destruct H3 as (H3 & _ & H3b). auto. }
        { destruct R2 as [R0 R2]. rewrite R2. left. auto. }
        rewrite C1. cbn [bind fst snd]. right.
        exists (r1 ++ r2), (T' :: s1 ++ s2). split; [rewrite map_app; reflexivity|]. split; [|split; [|split]].
        * rewrite map_app. rewrite <- A2, <- C2. cbn [app].
          rewrite <- !app_assoc. cbn [app]. apply Permutation_middle.
        * eapply fch_app; eauto.
        * rewrite map_app. rewrite Forall_forall in A4, C4. apply Forall_app; rewrite !Forall_forall. split; intros l Hl.
          -- destruct (A4 l Hl) as (X1 & X2 & X3). split; auto. split; auto. destruct l3; auto. lra.
          -- destruct (C4 l Hl) as (X1 & X2 & X3). split; [lra|]. split; auto.
        * rewrite map_app. apply SS_app; auto. intros a b Ha Hb. rewrite Forall_forall in A4, C4.
          destruct (A4 a Ha) as (_ & _ & X). destruct (C4 b Hb) as (Y & _). lra.
      + (* leaf *)
        right. apply Hleaf; [|lra|destruct l3; auto; lra].
        intros X HX HTX. assert (K := fl_near l2 _ X PM1 HX ltac:(lra) ltac:(lra)).
        unfold G, gval in K. fold f FJ in K. change (vs (seq 0 j) (fun i => ycap (yat y i) l2)) with (VS l2) in K.
        change (VS l2 X - VS l2 (mem Tr) <= FJ X - FJ (mem Tr) + 12 * NE).
        destruct Cr as [Cr1 Cr2].
        apply andb_false_iff in Eb. destruct Eb as [Eb|Eb].
        * apply andb_false_iff in Eb. destruct Eb as [Eb|Eb]; apply negb_false_iff in Eb;
            apply ceqb_true in Eb; rewrite Eb in K; lra.
        * apply Qltb_false in Eb. destruct (net_cut_near l2 Tr Tr3 ltac:(lra) ltac:(lra)) as (Z1 & Z2 & Z3).
          set (orig := f_net_cut o itn (f_pmf_net o eps E j y l2) Tr) in *.
          destruct Z1 as [Z1 Z1'].
          assert (M1 : near eta (fmul o 10 eps) (10 * eps)) by (apply h_mul; lra). destruct M1 as [M1 M1'].
          assert (M2 : near eta (fsub o orig (fmul o 10 eps)) (orig - fmul o 10 eps)) by (apply h_sub; lra).
          destruct M2 as [M2 M2'].
          destruct (fcut_near l2 (mem Tr) Tr3 ltac:(lra) ltac:(lra)) as [Q1 Q2].
          destruct (fcut_near l2 (mem (snd fT)) (fl_win _ _ PM1) ltac:(lra) ltac:(lra)) as [Q3 Q4].
          destruct PM2 as [PM2 PM2'].
          unfold G, gval in Q1, Q2, Q3, Q4. fold f FJ in Q1, Q2, Q3, Q4.
          change (vs (seq 0 j) (fun i => ycap (yat y i) l2)) with (VS l2) in Q1, Q2, Q3, Q4. lra.
  Qed.

  (** ** PMF::run *)
  Lemma fch_incl s rest : forall T Te, fch s T rest Te ->
    Forall (fun T' => incl T' T /\ (length T' < length T)%nat) (map snd rest).
  Proof.
    induction rest as [|[l T'] r IH]; intros T Te H; simpl; [constructor|].
    destruct H as (_ & _ & H4 & H5 & _ & _ & H9). constructor; auto.
    eapply Forall_impl; [|exact (IH T' Te H9)]. simpl. intros S [A B].
    split; [eapply incl_tran; eauto|lia].
  Qed.

  Lemma fch_length s rest : forall T Te, fch s T rest Te -> (length rest + length Te <= length T)%nat.
  Proof.
    induction rest as [|[l T'] r IH]; intros T Te H.
    - cbn [fch] in H. subst. simpl. lia.
    - destruct H as (_ & _ & _ & H5 & _ & _ & H9). specialize (IH T' Te H9). simpl. lia.
  Qed.

  Lemma fch_sorted_sets s rest : forall T Te, NoDup T -> fch s T rest Te ->
    StronglySorted (fun A B => superset A B = true /\ superset B A = false) (T :: map snd rest).
  Proof.
    induction rest as [|[l T'] r IH]; intros T Te HN H; [repeat constructor|].
    assert (H0 := H). destruct H as (H2 & _ & H4 & H5 & _ & _ & H9).
    cbn [map snd]. constructor; [eapply IH; [apply csorted_NoDup; auto|exact H9]|].
    assert (I := fch_incl _ _ _ _ H0). eapply Forall_impl; [|exact I]. simpl. intros S [A B].
    split; [apply superset_true; auto|]. destruct (superset S T) eqn:Es; auto.
    apply superset_true in Es. exfalso. assert (K := NoDup_incl_length HN Es). lia.
  Qed.

  Lemma T_len l T : flmin l T -> (length T <= S j)%nat.
  Proof.
    intro K. assert (incl T (seq 0 (S j))).
    { intros x Hx. assert (Wx := fl_win _ _ K x (proj2 (mem_In _ _) Hx)).
      apply in_seq. destruct Wx as [Wx|Wx]; [apply in_seq in Wx; lia|lia]. }
    assert (Ln := NoDup_incl_length (csorted_NoDup _ (fl_sorted _ _ K)) H).
    rewrite seq_length in Ln. lia.
  Qed.

  Theorem f_run_ok il l3 : - (1#5) <= il -> il <= 0 ->
    match l3 with Fin q => flmin q [j] /\ il <= q /\ q <= 4 * W | PInf => True | NaN => False end ->
    (exists X, WIN X /\ G il X + 4 * nu < G il (mem [j])) ->
    (~ u == 0 /\ f_pmf_run_to l3 o it itn mc eps il E n j y = Throw) \/
    exists T0 rest,
      f_pmf_run_to l3 o it itn mc eps il E n j y = Ok (map (fun p => Fin (fst p)) rest, T0 :: map snd rest) /\
      flmin il T0 /\ fch (20 * NE) T0 rest [j] /\ StronglySorted Qle (map fst rest) /\
      Forall (fun l => il - 2 * eps <= l /\ l <= 4 * W) (map fst rest).
  Proof.
    intros Hi1 Hi2 Hl3 (X & HX & HlX). unfold f_pmf_run_to. atoms.
    assert (Lj : (j <? n)%nat = true) by (apply Nat.ltb_lt; auto). rewrite Lj. cbv zeta.
    destruct (f_cut_min il) as [K1 _]. set (T0 := snd (f_pmf_cut o mc eps E j y il)) in *.
    assert (N0 : [j] <> T0).
    { intro C. assert (A := fl_near il T0 X K1 HX ltac:(lra) ltac:(lra)). rewrite <- C in A. lra. }
    assert (I0 : incl [j] T0) by (intros x [<-|[]]; apply K1).
    assert (L0 := T_len il T0 K1).
    destruct (f_slice_ok (S n) T0 [j] il l3 ltac:(simpl; lia) I0 N0 K1 Hi1 ltac:(lra) ltac:(destruct l3; auto))
      as [[R0 R]|(rest & sets & R1 & R2 & R3 & R4 & R5)].
    { left. rewrite R. auto. }
    right. rewrite R1. cbn [bind fst snd].
    assert (C2 : isort superset (T0 :: [j] :: sets) = T0 :: map snd rest).
    { apply isort_strict2.
      - rewrite <- R2. apply perm_skip. change ([j] :: sets) with ([[j]] ++ sets).
        apply Permutation_app_comm.
      - eapply fch_sorted_sets; [|exact R3]. apply csorted_NoDup. apply K1. }
    set (ls := map fst rest) in *. set (ls' := isort Qltb ls).
    assert (C1 : isort dltb (map (fun p : Q * cset => Fin (fst p)) rest) = map Fin ls').
    { rewrite <- (map_map fst Fin). apply isort_Fin. }
    assert (P1 : Permutation ls' ls) by apply isort_perm.
    assert (N8 : Forall2 (near (8 * eps)) ls' ls).
    { destruct (runmax_ok (4 * eps) ltac:(lra) ls (il - 2 * eps)) as (t & T1 & T2 & _); [|exact R5|].
      { intros b Hb. rewrite Forall_forall in R4. specialize (R4 b Hb). lra. }
      assert (D1 : Forall2 (dnear (4 * eps)) (map Fin ls) t).
      { clear -T1. induction T1; simpl; constructor; auto. }
      apply (isort_near (4 * eps)) in D1; auto. rewrite isort_Fin in D1. fold ls' in D1.
      clear -T1 D1 Heps0. revert D1. generalize ls'. induction T1 as [|a b l t Hab Ht IH]; intros m D1.
      - inversion D1. destruct m; [constructor|discriminate].
      - destruct m as [|c m]; inversion D1; subst. constructor; auto. cbn [dnear] in *.
        match goal with H : near _ c b |- _ => destruct H end. destruct Hab. split; lra. }
    assert (Len : length ls' = length (map snd rest)).
    { rewrite (Permutation_length P1). unfold ls. rewrite !map_length. auto. }
    exists T0, (combine ls' (map snd rest)).
    assert (F1 : map fst (combine ls' (map snd rest)) = ls') by (apply map_fst_combine; auto).
    assert (F2 : map snd (combine ls' (map snd rest)) = map snd rest) by (apply map_snd_combine; auto).
    rewrite F1, F2, C1, C2. split; [|split; [exact K1|split; [|split]]].
    - rewrite <- (map_map fst Fin), F1. reflexivity.
    - assert (M := fch_move (12 * NE) (8 * eps) rest ls' T0 [j] R3 N8).
      assert (Ee : 12 * NE + N * (8 * eps) == 20 * NE) by (unfold NE; ring).
      eapply fch_weaken; [exact M|]. lra.
    - apply isortQ_sorted.
    - rewrite Forall_forall in *. intros l Hl. apply (Permutation_in _ P1) in Hl.
      destruct (R4 l Hl) as (A & B & _). auto.
  Qed.

  (** ** The chain as a chain of node sets *)
  Lemma fch_apchain s rest : forall T, fch s T rest [j] -> StronglySorted Qle (map fst rest) ->
    apchain f nodes j yf s (mem T) (nrest rest).
  Proof.
    induction rest as [|[l T'] r IH]; intros T H HS.
    - cbn [fch] in H. subst. cbn. intros x Hx. apply orb_true_iff in Hx.
      destruct Hx as [Hx|Hx]; [apply Nat.eqb_eq; auto|discriminate].
    - destruct H as (H2 & H3 & H4 & H5 & H6 & H7 & H9). cbn [map fst] in HS.
      inversion HS as [|? ? S1 S2]; subst.
      cbn [nrest map apchain fst snd]. split; [|split; [exact H6|split; [exact H7|split]]].
      + intros x Hx. apply mem_In. apply H4. apply mem_In; auto.
      + apply Forall_forall. intros p Hp. apply in_map_iff in Hp. destruct Hp as (q & <- & Hq). simpl.
        rewrite Forall_forall in S2. apply S2. apply in_map; auto.
      + apply IH; auto.
  Qed.

  Lemma fcount_out s rest T u0 : fch s T rest [j] -> ~ In u0 T ->
    filter (fun s => mem s u0) (T :: map snd rest) = [].
  Proof.
    intros H Hu0. assert (I := fch_incl _ _ _ _ H).
    assert (A : forall l, Forall (fun S => incl S T) l -> filter (fun s => mem s u0) l = []).
    { induction l as [|S l IH]; intro HF; auto. inversion HF; subst. simpl.
      assert (mem S u0 = false) by (apply mem_false; intro C; apply Hu0; auto). rewrite H0. auto. }
    apply A. constructor; [apply incl_refl|]. eapply Forall_impl; [|exact I]. simpl. tauto.
  Qed.

  Lemma flev_count s rest : forall T u0, fch s T rest [j] -> u0 <> j ->
    lev (mem T) (nrest rest) u0 =
    match length (filter (fun s => mem s u0) (T :: map snd rest)) with
    | O => None
    | S c => nth_error (map fst rest) c
    end.
  Proof.
    induction rest as [|[l T'] r IH]; intros T u0 H Hu0.
    - cbn [fch] in H. subst. simpl.
      destruct (Nat.eqb u0 j) eqn:Eu; [apply Nat.eqb_eq in Eu; contradiction|]. auto.
    - assert (H0 := H). destruct H as (_ & _ & H4 & _ & _ & _ & H9).
      specialize (IH T' u0 H9 Hu0). cbn [nrest map lev fst snd].
      change (map (fun p => (fst p, mem (snd p))) r) with (nrest r).
      destruct (mem T' u0) eqn:Et.
      + rewrite IH. assert (mem T u0 = true) by (apply mem_In; apply H4; apply mem_In; auto).
        cbn [filter]. rewrite H, Et. cbn [filter length] in *.
        destruct (length (filter (fun s => mem s u0) (map snd r))); reflexivity.
      + apply mem_false in Et. assert (C := fcount_out _ _ _ u0 H9 Et).
        change (filter (fun s => mem s u0) (T :: T' :: map snd r))
          with (if mem T u0 then T :: filter (fun s => mem s u0) (T' :: map snd r)
                else filter (fun s => mem s u0) (T' :: map snd r)).
        rewrite C. destruct (mem T u0); reflexivity.
  Qed.

  Lemma fcount_bound s rest T u0 c : fch s T rest [j] -> StronglySorted Qle (map fst rest) -> u0 <> j ->
    length (filter (fun s => mem s u0) (T :: map snd rest)) = S c ->
    exists l, nth_error (map fst rest) c = Some l.
  Proof.
    intros H HS Hu0 Hc. assert (Hl := flev_count s rest T u0 H Hu0). rewrite Hc in Hl.
    destruct (mem T u0) eqn:Et.
    - destruct (alev_in f nodes j yf s (mem T) (nrest rest) (fch_apchain _ _ _ H HS) u0 Hu0 Et) as (l & K & _).
      exists l. congruence.
    - apply mem_false in Et. rewrite (fcount_out _ _ _ u0 H Et) in Hc. discriminate.
  Qed.

  (** The new parameters realise the capped vectors up to rounding. *)
  Lemma f_entry_ok s rest T u0 : fch s T rest [j] -> StronglySorted Qle (map fst rest) ->
    Forall (fun l => - (1#2) <= l /\ l <= 4 * W) (map fst rest) -> (u0 < n)%nat ->
    exists p, f_y_entry o it E (map (fun p => Fin (fst p)) rest) (T :: map snd rest) j y u0 = Ok p /\
      ((u0 < j)%nat -> fst p = fst (yat y u0) /\ pbnd W p /\
         (p = yat y u0 \/ exists b, snd p = Fin b /\ fst p - b <= 4 * W + eta) /\
         forall lam, near (2 * eta) (ycap p lam) (zval yf (mem T) (nrest rest) lam u0)) /\
      (u0 = j -> p = (f_cut_value o it E [j], PInf)) /\
      ((j < u0)%nat -> p = yat y u0).
  Proof.
    intros H HS HB Hu0. unfold f_y_entry. atoms. destruct (u0 =? j)%nat eqn:Ej.
    { apply Nat.eqb_eq in Ej. eexists. split; [reflexivity|]. repeat split; intros; try lia; auto. }
    apply Nat.eqb_neq in Ej. destruct (u0 <? j)%nat eqn:El.
    2:{ apply Nat.ltb_ge in El. eexists. split; [reflexivity|]. repeat split; intros; try lia; auto. }
    apply Nat.ltb_lt in El. assert (Hm := Hy u0 El).
    assert (Hl := flev_count s rest T u0 H Ej).
    destruct (length (filter (fun s => mem s u0) (T :: map snd rest))) as [|c] eqn:Ec.
    { eexists. split; [reflexivity|]. split; [|split; intros; lia]. intros _. split; [auto|split; [exact Hm|split; [left; auto|]]].
      intro lam. unfold zval. rewrite Hl. unfold yf. split; lra. }
    destruct (fcount_bound s rest T u0 c H HS Ej Ec) as (l & Kl).
    assert (Kn : nth_error (map (fun p : Q * list nat => Fin (fst p)) rest) c = Some (Fin l)).
    { rewrite <- (map_map fst Fin). apply map_nth_error. exact Kl. }
    rewrite Kn. rewrite Kl in Hl.
    assert (Bl : - (1#2) <= l /\ l <= 4 * W).
    { rewrite Forall_forall in HB. apply HB. eapply nth_error_In; eauto. }
    destruct Bl as [Bl1 Bl2].
    assert (Zv : forall lam, zval yf (mem T) (nrest rest) lam u0 = ycap (yat y u0) (qmx lam l)).
    { intro lam. unfold zval. rewrite Hl. reflexivity. }
    assert (Qm : forall lam, (lam <= l /\ qmx lam l == l) \/ (l <= lam /\ qmx lam l == lam)).
    { intro lam. destruct (Qlt_le_dec lam l); [left|right]; split; try lra;
        [apply qmx_r; lra|apply qmx_l; lra]. }
    destruct (yat y u0) as [a b0] eqn:Ey. destruct Hm as [Hm1 Hm2]. cbn [fst snd] in *.
    assert (R : near eta (fsub o a l) (a - l)) by (apply h_sub; lra). destruct R as [R1 R2].
    set (r := fsub o a l) in *.
    assert (Pn : pbnd W (a, Fin r)) by (split; cbn [fst snd]; lra).
    assert (Pg : exists b, snd (a, Fin r) = Fin b /\ fst (a, Fin r) - b <= 4 * W + eta).
    { exists r. split; auto. cbn [fst snd]. lra. }
    destruct b0 as [b| |]; [| |contradiction].
    - assert (R : near eta (fsub o a b) (a - b)) by (apply h_sub; lra). destruct R as [R3 R4].
      destruct (Qltb (fsub o a b) l) eqn:Eb; eexists; (split; [reflexivity|]); (split; [|split; intros; lia]); intros _;
        (split; [reflexivity|]); (split; [first [exact Pn|split; cbn [fst snd]; auto]|]);
        (split; [first [left; reflexivity|right; exact Pg]|]).
      + apply Qltb_true in Eb. intro lam. rewrite Zv.
        destruct (ycap_min (a, Fin r) lam) as (A1 & A2 & A3). specialize (A2 r eq_refl). cbn [fst snd] in *.
        destruct (ycap_min (a, Fin b) (qmx lam l)) as (B1 & B2 & B3). specialize (B2 b eq_refl). cbn [fst snd] in *.
        destruct (Qm lam) as [[C1 C2]|[C1 C2]]; destruct A3 as [A3|(b' & Hb' & A3)]; try (injection Hb' as <-);
          destruct B3 as [B3|(b'' & Hb'' & B3)]; try (injection Hb'' as <-); split; lra.
      + apply Qltb_false in Eb. intro lam. rewrite Zv.
        destruct (ycap_min (a, Fin b) lam) as (A1 & A2 & A3). specialize (A2 b eq_refl). cbn [fst snd] in *.
        destruct (ycap_min (a, Fin b) (qmx lam l)) as (B1 & B2 & B3). specialize (B2 b eq_refl). cbn [fst snd] in *.
        destruct (Qm lam) as [[C1 C2]|[C1 C2]]; destruct A3 as [A3|(b' & Hb' & A3)]; try (injection Hb' as <-);
          destruct B3 as [B3|(b'' & Hb'' & B3)]; try (injection Hb'' as <-); split; lra.
    - eexists; (split; [reflexivity|]); (split; [|split; intros; lia]); intros _. split; [reflexivity|].
      split; [exact Pn|]. split; [right; exact Pg|]. intro lam. rewrite Zv.
      destruct (ycap_min (a, Fin r) lam) as (A1 & A2 & A3). specialize (A2 r eq_refl). cbn [fst snd] in *.
      assert (Yi : ycap (a, PInf) (qmx lam l) == a - qmx lam l) by (unfold ycap; simpl; reflexivity).
      destruct (Qm lam) as [[C1 C2]|[C1 C2]]; destruct A3 as [A3|(b' & Hb' & A3)]; try (injection Hb' as <-); split; lra.
  Qed.

  Lemma fcbands_act s rest : forall T lam t, fch s T rest [j] -> csorted T -> In j T ->
    act lam (cbands T rest) t ->
    act lam (bands (mem T) (nrest rest)) (mem t) /\ csorted t /\ In j t.
  Proof.
    induction rest as [|[l T'] r IH]; intros T lam t H HT HJ HA.
    - simpl in HA. inversion HA as [d0 x r' Hd'|q x r' x' Hq Ha]; subst.
      simpl. split; [constructor; auto|auto].
    - destruct H as (H2 & H3 & _ & _ & _ & _ & H9). simpl in HA.
      inversion HA as [d0 x r' Hd'|q x r' x' Hq Ha]; subst.
      + simpl. split; [constructor; auto|auto].
      + destruct (IH T' lam t H9 H2 H3 Ha) as (I1 & I2 & I3). split; auto.
        simpl. apply act_next; auto.
  Qed.
End FSlice.
