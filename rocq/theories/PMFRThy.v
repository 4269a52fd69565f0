(** * PMFRThy: graph contraction and the parametric search with two workers. *)
From Coq Require Import Sorted.
From Verif Require Import Base Spec PartThy SubThy MSets SetsThy MGraph MaxFlow BFThy MDil CutThy DilThy
  MDT SeqThy MPMF LamThy ParThy SliceThy DTThy PDTThy MPMFR.

(** ** Reversed networks *)
Lemma cut_rnet N Y : cut (rnet N) Y == cut N (fun x => negb (Y x)).
Proof.
  unfold cut, rnet. rewrite qsum_map. apply qsum_ext. intros a _. cbn [nsrc ndst ncap].
  assert (S : forall u, side Y (rnode u) = negb (side (fun x => negb (Y x)) u)).
  { intros [| |v]; simpl; auto. rewrite negb_involutive. auto. }
  rewrite !S, negb_involutive, andb_comm. reflexivity.
Qed.

Lemma rnet_ok nodes N : net_ok nodes N -> net_ok nodes (rnet N).
Proof.
  intros [H1 H2]. split; auto. intros a Ha. apply in_map_iff in Ha. destruct Ha as (b & <- & Hb).
  destruct (H2 b Hb) as (A & B & C). cbn [nsrc ndst ncap].
  assert (K : forall u, nnode_ok nodes u -> nnode_ok nodes (rnode u)) by (intros [| |v]; simpl; auto).
  auto.
Qed.

Lemma rnet_rnet N : rnet (rnet N) = N.
Proof.
  unfold rnet. rewrite map_map. cbn [nsrc ndst ncap]. rewrite <- (map_id N) at 2. apply map_ext.
  intros [u v c]. cbn. destruct u, v; auto.
Qed.

Lemma rev_solver_spec mc : MinSinkCutSpec mc -> MinSrcCutSpec (rev_solver mc).
Proof.
  intros [H1 H2]. split.
  - intros nodes N Hok. destruct (H1 nodes (rnet N) (rnet_ok _ _ Hok)) as (A & B & C).
    unfold rev_solver. cbv zeta. cbn [fst snd]. set (r := mc nodes (rnet N)) in *.
    assert (K : cut N (mem (filter (fun x => negb (mem (snd r) x)) nodes)) == fst r).
    { rewrite (cut_restrict nodes N (fun x => negb (mem (snd r) x)) Hok), <- cut_rnet. rewrite <- B. reflexivity. }
    split; [|split].
    + intros x Hx. apply filter_In in Hx. tauto.
    + symmetry. exact K.
    + intro Y. specialize (C (fun x => negb (Y x))). rewrite cut_rnet in C.
      eapply Qle_trans; [exact C|]. apply qsum_le. intros a _. assert (S : forall u, side (fun x => negb (negb (Y x))) u = side Y u).
      { intros [| |v]; simpl; auto. apply negb_involutive. }
      rewrite !S. lra.
  - intros nodes N Hok Y HY x Hx HYx. unfold rev_solver in *. cbv zeta in *. cbn [fst snd] in *.
    set (r := mc nodes (rnet N)) in *. apply filter_In. split; auto.
    destruct (mem (snd r) x) eqn:Em; auto. apply mem_In in Em.
    assert (K : negb (Y x) = true).
    { apply (H2 nodes (rnet N) (rnet_ok _ _ Hok) (fun z => negb (Y z))); auto. fold r. rewrite cut_rnet, <- HY.
      apply qsum_ext. intros a _. assert (S : forall u, side (fun x => negb (negb (Y x))) u = side Y u).
      { intros [| |v]; simpl; auto. apply negb_involutive. }
      rewrite !S. reflexivity. }
    rewrite HYx in K. discriminate K.
Qed.

(** ** Shape of a network *)
Definition inn (G : network) : network :=
  filter (fun a => match nsrc a, ndst a with NV _, NV _ => true | _, _ => false end) G.
Definition sT (G : network) : list nat :=
  flat_map (fun a => match nsrc a, ndst a with NSrc, NV i => [i] | _, _ => [] end) G.
Definition kT (G : network) : list nat :=
  flat_map (fun a => match nsrc a, ndst a with NV i, NSnk => [i] | _, _ => [] end) G.
Definition stc (G : network) : Q :=
  qsum (fun a => match nsrc a, ndst a with NSrc, NSnk => ncap a | _, _ => 0 end) G.

Lemma inn_app G H : inn (G ++ H) = inn G ++ inn H.
Proof. apply filter_app. Qed.
Lemma sT_app G H : sT (G ++ H) = sT G ++ sT H.
Proof. apply flat_map_app. Qed.
Lemma kT_app G H : kT (G ++ H) = kT G ++ kT H.
Proof. apply flat_map_app. Qed.

Lemma upd_inn y b l G : inn (upd y b l G) = inn G.
Proof.
  unfold inn, upd. induction G as [|[u v c] G IH]; auto. cbn [map filter].
  destruct u, v; cbn [upd_arc nsrc ndst]; cbn; rewrite ?IH; auto.
Qed.
Lemma upd_sT y b l G : sT (upd y b l G) = sT G.
Proof.
  unfold sT, upd. induction G as [|[u v c] G IH]; auto. cbn [map flat_map].
  destruct u, v; cbn; rewrite ?IH; auto.
Qed.
Lemma upd_kT y b l G : kT (upd y b l G) = kT G.
Proof.
  unfold kT, upd. induction G as [|[u v c] G IH]; auto. cbn [map flat_map].
  destruct u, v; cbn; rewrite ?IH; auto.
Qed.

Lemma cut_upd y b l G X :
  cut (upd y b l G) X ==
  cut (inn G) X + stc G +
  qsum (fun i => if X i then (if Qltb (ycap (yat y i) l) 0 then - ycap (yat y i) l else 0) + fst (b i) else 0) (sT G) +
  qsum (fun i => if X i then 0 else snd (b i) + qmax 0 (ycap (yat y i) l)) (kT G).
Proof.
  induction G as [|[u v c] G IH]; [unfold cut, stc; simpl; lra|].
  unfold cut, stc, inn, sT, kT, upd in *.
  destruct u as [| |u], v as [| |v]; cbn [map filter flat_map qsum upd_arc nsrc ndst ncap side negb andb app];
    rewrite ?IH; try lra;
    repeat match goal with |- context [X ?w] => destruct (X w); cbn [negb andb] end; lra.
Qed.

(** ** Exchange of sums *)
Lemma sum_select {A} (k : A -> nat) (p : A -> bool) (w : A -> Q) (b : nat -> bool) ks G :
  NoDup ks ->
  qsum (fun i => if b i then qsum (fun a => if p a && (k a =? i)%nat then w a else 0) G else 0) ks ==
  qsum (fun a => if p a && mem ks (k a) && b (k a) then w a else 0) G.
Proof.
  intro Hn.
  rewrite (qsum_ext _ (fun i => qsum (fun a => if p a && b (k a) && (i =? k a)%nat then w a else 0) G)).
  2:{ intros i _. destruct (b i) eqn:Eb.
      - apply qsum_ext. intros a _. rewrite (Nat.eqb_sym i). destruct (k a =? i)%nat eqn:Ek.
        + apply Nat.eqb_eq in Ek. rewrite Ek, Eb, !andb_true_r. reflexivity.
        + rewrite !andb_false_r. reflexivity.
      - symmetry. apply qsum_zero. intros a _. destruct (i =? k a)%nat eqn:Ek.
        + apply Nat.eqb_eq in Ek. rewrite <- Ek, Eb, andb_false_r. reflexivity.
        + rewrite andb_false_r. reflexivity. }
  rewrite qsum_swap. apply qsum_ext. intros a _.
  destruct (p a && b (k a)) eqn:E1.
  - apply andb_true_iff in E1. destruct E1 as [E1 E2]. rewrite E1, E2, andb_true_r. simpl.
    destruct (mem ks (k a)) eqn:Em.
    + apply qsum_single; auto. apply mem_In; auto.
    + apply qsum_zero. intros i Hi. destruct (i =? k a)%nat eqn:Ei; [|reflexivity].
      apply Nat.eqb_eq in Ei. subst. apply mem_false in Em. contradiction.
  - rewrite qsum_zero by (intros; reflexivity).
    destruct (p a), (mem ks (k a)), (b (k a)); simpl in *; try discriminate; reflexivity.
Qed.

Section R.
  Variable mc : solver.
  Hypothesis Hmc : MinSinkCutSpec mc.
  Variable mr : solver.
  Hypothesis Hmr : MinSrcCutSpec mr.
  Variable eps : Q.
  Hypothesis Heps : 0 < eps.
  Variable E : graph.
  Variable n j : nat.
  Hypothesis Hjn : (j < n)%nat.
  Hypothesis HE : graph_on (seq 0 n) E.
  Hypothesis Hs : simple E.
  Hypothesis Hf : forward E.
  Hypothesis Hw : forall a, In a E -> eps <= aw a.
  Variable y : list (Q * dbl).

  Let nodes := seq 0 j.
  Let WIN := win nodes j.
  Let LM := lmin E j y.
  Let GV := gval E j y.
  Let yf := fun u l => ycap (yat y u) l.

  (** [G] represents the stage network with [T0] contracted into the sink and everything outside
      [ns] and [T0] contracted into the source. *)
  Record rep (G : network) (base : nat -> Q * Q) (ns : list nat) (T0 : cset) : Prop := {
    r_nodup : NoDup ns;
    r_incl : incl ns nodes;
    r_disj : forall x, In x ns -> ~ In x T0;
    r_j : In j T0;
    r_win : WIN (mem T0);
    r_inn : inn G = inner_arcs E ns;
    r_s : sT G = ns;
    r_k : kT G = ns;
    r_nn : forall a, In a G -> 0 <= ncap a /\ nnode_ok ns (nsrc a) /\ nnode_ok ns (ndst a);
    r_b1 : forall i, In i ns -> fst (base i) ==
      qsum (fun a => if (negb (mem ns (asrc a)) && negb (mem T0 (asrc a))) && (adst a =? i)%nat then aw a else 0) E;
    r_b2 : forall i, In i ns -> snd (base i) ==
      qsum (fun a => if mem T0 (adst a) && (asrc a =? i)%nat then aw a else 0) E }.

  Lemma nonnegE : nonneg E.
  Proof. exact (graph_on_nonneg _ _ HE). Qed.

  Lemma rep_base_nonneg G base ns T0 i : rep G base ns T0 -> In i ns -> 0 <= fst (base i) /\ 0 <= snd (base i).
  Proof.
    intros R Hi. rewrite (r_b1 _ _ _ _ R i Hi), (r_b2 _ _ _ _ R i Hi).
    split; apply qsum_nonneg; intros a Ha; assert (K := nonnegE a Ha);
      match goal with |- 0 <= (if ?b then _ else _) => destruct b end; lra.
  Qed.

  Lemma rep_upd G base ns T0 l : rep G base ns T0 -> rep (upd y base l G) base ns T0.
  Proof.
    intro R. assert (BN := fun i => rep_base_nonneg G base ns T0 i R). destruct R. constructor; auto.
    - rewrite upd_inn; auto.
    - rewrite upd_sT; auto.
    - rewrite upd_kT; auto.
    - intros a Ha. unfold upd in Ha. apply in_map_iff in Ha. destruct Ha as ([u v c] & <- & Hb).
      destruct (r_nn0 _ Hb) as (A & B & C). cbn [nsrc ndst ncap] in *.
      destruct u as [| |u], v as [| |v]; cbn [upd_arc nsrc ndst ncap]; auto.
      + split; auto. cbn in C. destruct (BN _ C) as [D1 D2].
        destruct (Qltb (ycap (yat y v) l) 0) eqn:Eq; [apply Qltb_true in Eq|]; lra.
      + split; auto. cbn in B. destruct (BN _ B) as [D1 D2].
        destruct (qmax_spec 0 (ycap (yat y u) l)) as [[K1 K2]|[K1 K2]]; rewrite K2; lra.
  Qed.

  Lemma rep_ok G base ns T0 : rep G base ns T0 -> net_ok ns G.
  Proof. intros []. split; auto. Qed.

  (** Sum over the free nodes. *)
  Lemma sum_ns ns g : NoDup ns -> incl ns nodes ->
    qsum g ns == qsum (fun i => if mem ns i then g i else 0) nodes.
  Proof.
    intros H1 H2. rewrite <- qsum_filter. apply qsum_perm. apply NoDup_Permutation; auto.
    - apply NoDup_filter. apply seq_NoDup.
    - intro x. rewrite filter_In, mem_In. split; [|tauto]. intro Hx. split; auto.
  Qed.

  Definition kst (G : network) (ns : list nat) (T0 : cset) (l : Q) : Q :=
    stc G + qsum (fun i => qmax 0 (yf i l)) ns
    - qsum (fun a => if (negb (mem ns (asrc a)) && negb (mem T0 (asrc a))) && mem T0 (adst a) then aw a else 0) E
    + vs nodes (fun u => yf u l) (mem T0).

  Lemma rep_cut G base ns T0 l X : rep G base ns T0 -> within X ns ->
    cut (upd y base l G) X == GV l (fun x => X x || mem T0 x) + kst G ns T0 l.
  Proof.
    intros R HX. rewrite cut_upd. rewrite (r_inn _ _ _ _ R), (r_s _ _ _ _ R), (r_k _ _ _ _ R).
    set (S0 := fun u => negb (mem ns u) && negb (mem T0 u)).
    assert (A1 : qsum (fun i => if X i then (if Qltb (ycap (yat y i) l) 0 then - ycap (yat y i) l else 0) + fst (base i) else 0) ns ==
                 qsum (fun i => if X i then (if Qltb (yf i l) 0 then - yf i l else 0) else 0) ns +
                 qsum (fun a => if S0 (asrc a) && mem ns (adst a) && X (adst a) then aw a else 0) E).
    { rewrite <- (sum_select adst (fun a => S0 (asrc a)) aw X ns E (r_nodup _ _ _ _ R)).
      rewrite <- qsum_plus. apply qsum_ext. intros i Hi. unfold yf. destruct (X i); [|lra].
      rewrite (r_b1 _ _ _ _ R i Hi). reflexivity. }
    assert (A2 : qsum (fun i => if X i then 0 else snd (base i) + qmax 0 (ycap (yat y i) l)) ns ==
                 qsum (fun i => if X i then 0 else qmax 0 (yf i l)) ns +
                 qsum (fun a => if mem T0 (adst a) && mem ns (asrc a) && negb (X (asrc a)) then aw a else 0) E).
    { rewrite <- (sum_select asrc (fun a => mem T0 (adst a)) aw (fun i => negb (X i)) ns E (r_nodup _ _ _ _ R)).
      rewrite <- qsum_plus. apply qsum_ext. intros i Hi. unfold yf. destruct (X i); cbn [negb]; [lra|].
      rewrite (r_b2 _ _ _ _ R i Hi). lra. }
    rewrite A1, A2.
    assert (A3 : qsum (fun i => if X i then (if Qltb (yf i l) 0 then - yf i l else 0) else 0) ns +
                 qsum (fun i => if X i then 0 else qmax 0 (yf i l)) ns ==
                 qsum (fun i => qmax 0 (yf i l)) ns - qsum (fun i => if X i then yf i l else 0) ns).
    { rewrite <- qsum_plus, <- qsum_minus. apply qsum_ext. intros i _.
      destruct (X i); [|lra]. unfold qmax. destruct (Qltb (yf i l) 0) eqn:E1; destruct (Qltb 0 (yf i l)) eqn:E2;
        try apply Qltb_true in E1; try apply Qltb_true in E2; try apply Qltb_false in E1; try apply Qltb_false in E2; lra. }
    assert (A4 : vs nodes (fun u => yf u l) (fun x => X x || mem T0 x) ==
                 qsum (fun i => if X i then yf i l else 0) ns + vs nodes (fun u => yf u l) (mem T0)).
    { rewrite (sum_ns ns _ (r_nodup _ _ _ _ R) (r_incl _ _ _ _ R)). unfold vs. rewrite <- qsum_plus.
      apply qsum_ext. intros u _. destruct (X u) eqn:EX; cbn [orb].
      - assert (In u ns) by (apply HX; auto). assert (mem ns u = true) by (apply mem_In; auto). rewrite H0.
        assert (mem T0 u = false) by (apply mem_false; apply (r_disj _ _ _ _ R); auto). rewrite H1. lra.
      - destruct (mem ns u), (mem T0 u); lra. }
    assert (A5 : incut E (fun x => Nat.eqb x j || (X x || mem T0 x)) ==
      cut (inner_arcs E ns) X +
      qsum (fun a => if S0 (asrc a) && mem ns (adst a) && X (adst a) then aw a else 0) E +
      qsum (fun a => if mem T0 (adst a) && mem ns (asrc a) && negb (X (asrc a)) then aw a else 0) E +
      qsum (fun a => if S0 (asrc a) && mem T0 (adst a) then aw a else 0) E).
    { unfold cut, inner_arcs. rewrite qsum_map, qsum_filter. rewrite <- !qsum_plus. unfold incut. apply qsum_ext.
      intros a _. cbn [nsrc ndst ncap side].
      assert (J : forall x, Nat.eqb x j || (X x || mem T0 x) = X x || mem T0 x).
      { intro x. destruct (Nat.eqb x j) eqn:Ex; auto. apply Nat.eqb_eq in Ex. subst x.
        assert (mem T0 j = true) by (apply mem_In; apply R). rewrite H. rewrite orb_true_r. auto. }
      rewrite !J. unfold S0.
      assert (K : forall x, (X x = true -> mem ns x = true) /\ (mem ns x = true -> mem T0 x = false)).
      { intro x. split; intro H.
        - apply mem_In. apply HX; auto.
        - apply mem_false. apply (r_disj _ _ _ _ R). apply mem_In; auto. }
      destruct (K (asrc a)) as [K1 K2]. destruct (K (adst a)) as [K3 K4].
      destruct (X (asrc a)), (mem ns (asrc a)), (mem T0 (asrc a)); try (specialize (K1 eq_refl); discriminate K1);
        try (specialize (K2 eq_refl); discriminate K2);
      destruct (X (adst a)), (mem ns (adst a)), (mem T0 (adst a)); try (specialize (K3 eq_refl); discriminate K3);
        try (specialize (K4 eq_refl); discriminate K4); cbn; lra. }
    unfold GV, gval, kst, fj. fold yf. fold nodes.
    assert (A4' : vs nodes (fun u => ycap (yat y u) l) (fun x => X x || mem T0 x) ==
      vs nodes (fun u => yf u l) (fun x => X x || mem T0 x)) by reflexivity.
    rewrite A4', A4, A5. unfold S0 in *. lra.
  Qed.

  (** Both workers find the minimal minimiser. *)
  Lemma worker_spec useL ns N : net_ok ns N ->
    let fT := worker_cut mc mr useL j ns N in
    exists X, incl X ns /\ fst fT == cut N (mem X) /\ (forall Y, fst fT <= cut N Y) /\
      (forall Y, cut N Y == fst fT -> forall x, In x X -> Y x = true) /\
      (forall x, In x (snd fT) <-> x = j \/ In x X) /\ csorted (snd fT).
  Proof.
    intros Hok fT. destruct useL.
    - destruct Hmc as [H1 H2]. destruct (H1 ns N Hok) as (A & B & C). specialize (H2 ns N Hok).
      exists (snd (mc ns N)). unfold fT, worker_cut. cbv zeta. cbn [fst snd]. split; [auto|]. split; [auto|].
      split; [auto|]. split; [auto|]. split.
      + intro x. rewrite cadd_In, cset_of_In, filter_In, mem_In. split; [tauto|]. intros [H|H]; auto.
      + apply cadd_sorted. apply cset_of_sorted.
    - destruct Hmr as [H1 H2]. assert (Hok' := rnet_ok _ _ Hok). destruct (H1 ns (rnet N) Hok') as (A & B & C).
      specialize (H2 ns (rnet N) Hok'). unfold fT, worker_cut. cbv zeta. cbn [fst snd].
      set (r := mr ns (rnet N)) in *. rewrite cut_rnet in B.
      assert (D : forall Y, cut N (fun x => negb (negb (Y x))) == cut N Y).
      { intro Y. apply qsum_ext. intros a _. assert (S : forall u, side (fun x => negb (negb (Y x))) u = side Y u).
        { intros [| |v]; simpl; auto. apply negb_involutive. }
        rewrite !S. reflexivity. }
      exists (filter (fun x => negb (mem (snd r) x)) ns). split; [|split; [|split; [|split; [|split]]]].
      + intros x Hx. apply filter_In in Hx. tauto.
      + rewrite B. symmetry. apply (cut_restrict ns N (fun x => negb (mem (snd r) x)) Hok).
      + intro Y. specialize (C (fun x => negb (Y x))). rewrite cut_rnet, D in C. exact C.
      + intros Y HY x Hx. apply filter_In in Hx. destruct Hx as [Hx1 Hx2].
        destruct (Y x) eqn:EY; auto. exfalso. apply negb_true_iff in Hx2. apply mem_false in Hx2. apply Hx2.
        apply (H2 (fun z => negb (Y z))); auto.
        * rewrite cut_rnet, D. exact HY.
        * rewrite EY. auto.
      + intro x. rewrite cadd_In, cset_of_In, !filter_In. split; [tauto|]. intros [H|H]; auto.
      + apply cadd_sorted. apply cset_of_sorted.
  Qed.

  Lemma GV_ext l X Y : (forall x, In x nodes -> X x = Y x) -> (forall x, ~ In x nodes -> x <> j -> X x = Y x) ->
    GV l X == GV l Y.
  Proof.
    intros H1 H2. unfold GV, gval. assert (D : forall x, In x nodes \/ ~ In x nodes).
    { intro x. destruct (in_dec Nat.eq_dec x nodes); auto. }
    apply Qplus_comp; [|apply Qopp_comp; apply vs_ext; [auto|reflexivity]].
    unfold fj. apply incut_ext. intro x. destruct (Nat.eqb x j) eqn:Ex; auto. apply Nat.eqb_neq in Ex. simpl.
    destruct (D x); auto.
  Qed.

  Lemma rep_cut_any G base ns T0 l X : rep G base ns T0 ->
    cut (upd y base l G) X == GV l (fun x => mem (filter X ns) x || mem T0 x) + kst G ns T0 l.
  Proof.
    intro R. rewrite <- (rep_cut G base ns T0 l _ R).
    - symmetry. apply cut_restrict. apply (rep_ok _ base _ T0). apply rep_upd; auto.
    - intros x Hx. apply mem_In in Hx. apply filter_In in Hx. tauto.
  Qed.

  (** A set between [T0] and [ns] plus [T0] is cut out by its free part. *)
  Lemma rep_cut_set G base ns T0 l T : rep G base ns T0 -> incl T0 T -> (forall x, In x T -> In x ns \/ In x T0) ->
    cut (upd y base l G) (mem T) == GV l (mem T) + kst G ns T0 l.
  Proof.
    intros R H1 H2. rewrite (rep_cut_any G base ns T0 l _ R). apply Qplus_comp; [|reflexivity].
    assert (K : forall x, mem (filter (mem T) ns) x || mem T0 x = mem T x).
    { intro x. rewrite mem_filter. destruct (mem T x) eqn:Et.
      - rewrite andb_true_r. apply mem_In in Et. apply orb_true_iff. rewrite !mem_In. auto.
      - rewrite andb_false_r. simpl. apply mem_false. apply mem_false in Et. auto. }
    apply GV_ext; intros; apply K.
  Qed.

  (** A minimum cut with least sink side, [j] added. *)
  Definition good_cut (ns : list nat) (N : network) (fT : Q * cset) : Prop :=
    exists X, incl X ns /\ fst fT == cut N (mem X) /\ (forall Y, fst fT <= cut N Y) /\
      (forall Y, cut N Y == fst fT -> forall x, In x X -> Y x = true) /\
      (forall x, In x (snd fT) <-> x = j \/ In x X) /\ csorted (snd fT).

  Lemma good_cut_ok fT G base ns T0 l T2 Tr Tl : rep G base ns T0 -> LM l T2 ->
    incl T0 Tr -> incl Tr T2 -> incl T2 Tl -> (forall x, In x Tl -> In x ns \/ In x T0) -> csorted Tr ->
    good_cut ns (upd y base l G) fT ->
    cunion (snd fT) Tr = T2 /\ fst fT == GV l (mem T2) + kst G ns T0 l.
  Proof.
    intros R L I1 I2 I3 I4 Sr (X & X1 & X2 & X3 & X4 & X5 & X6).
    assert (R' := rep_upd G base ns T0 l R). assert (Hok := rep_ok _ _ _ _ R').
    assert (C2 : cut (upd y base l G) (mem T2) == GV l (mem T2) + kst G ns T0 l).
    { apply rep_cut_set with (1 := R); [eapply incl_tran; eauto|]. intros x Hx. apply I4. auto. }
    assert (CX := rep_cut_any G base ns T0 l (mem X) R).
    assert (KX : forall x, mem (filter (mem X) ns) x || mem T0 x = mem X x || mem T0 x).
    { intro x. rewrite mem_filter. destruct (mem X x) eqn:Ex; [|rewrite andb_false_r; auto].
      apply mem_In in Ex. apply X1 in Ex. apply mem_In in Ex. rewrite Ex. auto. }
    assert (WX : WIN (fun x => mem (filter (mem X) ns) x || mem T0 x)).
    { intros x Hx. rewrite KX in Hx. apply orb_true_iff in Hx. destruct Hx as [Hx|Hx].
      - left. apply mem_In in Hx. apply (r_incl _ _ _ _ R). apply X1. auto.
      - apply (r_win _ _ _ _ R). auto. }
    assert (Min := lm_min _ _ _ _ _ L _ WX). fold GV in Min.
    assert (Le := X3 (mem T2)).
    assert (Eq : fst fT == GV l (mem T2) + kst G ns T0 l) by lra.
    split; [|exact Eq].
    apply csorted_ext.
    - apply cunion_sorted. auto.
    - apply L.
    - intro x. rewrite cunion_In, X5. split.
      + intros [[Hx|Hx]|Hx].
        * subst. apply L.
        * apply mem_In. apply (X4 (mem T2)); auto. lra.
        * apply I2; auto.
      + intro Hx. destruct (lm_win _ _ _ _ _ L x (proj2 (mem_In _ _) Hx)) as [Hn|Hn]; [|subst; auto].
        assert (K := lm_least _ _ _ _ _ L _ WX). fold GV in K.
        assert (K2 := K ltac:(lra) x Hn Hx). cbv beta in K2. rewrite KX in K2. apply orb_true_iff in K2. rewrite !mem_In in K2.
        destruct K2; auto.
  Qed.

  Lemma worker_ok useL G base ns T0 l T2 Tr Tl : rep G base ns T0 -> LM l T2 ->
    incl T0 Tr -> incl Tr T2 -> incl T2 Tl -> (forall x, In x Tl -> In x ns \/ In x T0) -> csorted Tr ->
    let fT := worker_cut mc mr useL j ns (upd y base l G) in
    cunion (snd fT) Tr = T2 /\ fst fT == GV l (mem T2) + kst G ns T0 l.
  Proof.
    intros R L I1 I2 I3 I4 Sr fT. apply (good_cut_ok fT G base ns T0 l T2 Tr Tl); auto.
    apply worker_spec. apply (rep_ok _ _ _ _ (rep_upd G base ns T0 l R)).
  Qed.

  Lemma nodupb_true l : NoDup l -> nodupb l = true.
  Proof.
    induction 1 as [|x l H1 H2 IH]; auto. simpl. rewrite IH, andb_true_r. apply negb_true_iff. apply mem_false; auto.
  Qed.

  Lemma filter_filter {A} (p q : A -> bool) l : filter p (filter q l) = filter (fun x => q x && p x) l.
  Proof.
    induction l as [|x l IH]; auto. simpl. destruct (q x); simpl; [destruct (p x)|]; rewrite ?IH; auto.
  Qed.

  Lemma filter_map {A B} (g : A -> B) (p : B -> bool) l : filter p (map g l) = map g (filter (fun x => p (g x)) l).
  Proof. induction l as [|x l IH]; auto. simpl. destruct (p (g x)); simpl; rewrite IH; auto. Qed.

  (** Contraction of a represented network. *)
  Lemma contract_ok G base ns T0 Tl Tr : rep G base ns T0 ->
    incl T0 Tr -> incl Tr Tl -> (forall x, In x Tl -> In x ns \/ In x T0) ->
    csorted Tl -> csorted Tr ->
    exists ks C, contract eps (S j) j (S (S j)) (ccompl Tl (S (S j))) Tr G = Ok (ks, C) /\
      rep C (new_base E (ccompl Tl (S (S j))) Tr) ks Tr /\
      (forall x, In x Tl -> In x ks \/ In x Tr).
  Proof.
    intros R I1 I2 I3 Sl Sr. set (Sc := ccompl Tl (S (S j))).
    assert (Tlj : forall x, In x Tl -> (x <= j)%nat).
    { intros x Hx. destruct (I3 x Hx) as [K|K].
      - apply (r_incl _ _ _ _ R) in K. unfold nodes in K. apply in_seq in K. lia.
      - destruct (r_win _ _ _ _ R x (proj2 (mem_In _ _) K)) as [K'|K']; [apply in_seq in K'; lia|lia]. }
    assert (Trj : In j Tr) by (apply I1; apply R).
    assert (ScI : forall x, In x Sc <-> (x <= S j)%nat /\ ~ In x Tl).
    { intro x. unfold Sc, ccompl. rewrite filter_In, in_seq, negb_true_iff, mem_false. split; intros [A B]; split; auto; lia. }
    set (er := erased (S j) j Sc Tr).
    assert (erI : forall x, In x er <-> (x <= j)%nat /\ x <> j /\ (~ In x Tl \/ In x Tr)).
    { intro x. unfold er, erased. rewrite in_app_iff, !filter_In, ScI, !negb_true_iff, !Nat.eqb_neq. split.
      - intros [[[A B] C]|[A B]].
        + split; [lia|]. split; auto. intros ->. apply B. apply I2. auto.
        + split; auto.
      - intros (A & B & [C|C]); [left; repeat split; auto; lia|right; auto]. }
    assert (erN : NoDup er).
    { unfold er, erased. apply NoDup_app_intro.
      - apply NoDup_filter. unfold Sc, ccompl. apply NoDup_filter. apply seq_NoDup.
      - apply NoDup_filter. apply csorted_NoDup; auto.
      - intros x Hx Hx2. apply filter_In in Hx. apply filter_In in Hx2. destruct Hx as [Hx _].
        apply ScI in Hx. apply Hx. apply I2. tauto. }
    set (ks := kept (S j) j (S (S j)) Sc Tr).
    assert (ksI : forall x, In x ks <-> In x Tl /\ ~ In x Tr).
    { intro x. unfold ks, kept. rewrite filter_In, in_seq, !andb_true_iff, !negb_true_iff, !Nat.eqb_neq.
      fold er. rewrite mem_false, erI. split.
      - intros (A & (B & C) & D). assert (x < j)%nat by lia.
        destruct (in_dec Nat.eq_dec x Tl) as [K|K]; [|exfalso; apply D; repeat split; auto; lia].
        split; auto. intro K'. apply D. repeat split; auto; lia.
      - intros [A B]. specialize (Tlj x A). assert (x <> j) by congruence. repeat split; auto; try lia. tauto. }
    assert (ksN : NoDup ks) by (unfold ks, kept; apply NoDup_filter; apply seq_NoDup).
    assert (ksns : incl ks ns).
    { intros x Hx. apply ksI in Hx. destruct Hx as [A B]. destruct (I3 x A) as [K|K]; auto. exfalso. auto. }
    unfold contract. cbv zeta. fold er. fold ks.
    rewrite (nodupb_true er erN).
    assert (F1 : forallb (fun i => (i <? S (S j))%nat) er = true).
    { apply forallb_forall. intros x Hx. apply erI in Hx. apply Nat.ltb_lt. lia. }
    rewrite F1.
    assert (F2 : mem er (S j) = false) by (apply mem_false; rewrite erI; lia).
    assert (F3 : mem er j = false) by (apply mem_false; rewrite erI; tauto).
    assert (F4 : (S j <? S (S j))%nat = true) by (apply Nat.ltb_lt; lia).
    assert (F5 : (j <? S (S j))%nat = true) by (apply Nat.ltb_lt; lia).
    rewrite F2, F3, F4, F5. cbn [negb andb].
    set (inS := fun u => mem Sc (nid (S j) j u)).
    set (inT := fun u => negb (mem Sc (nid (S j) j u)) && mem Tr (nid (S j) j u)).
    set (inR := fun u => negb (mem Sc (nid (S j) j u)) && negb (mem Tr (nid (S j) j u))).
    match goal with |- context [filter ?p G ++ _] => set (flt := filter p G) end.
    assert (Fd : flt = filter (fun a => negb (Qltb (ncap a) eps) && inR (nsrc a) && inR (ndst a)) G) by reflexivity.
    clearbody flt.
    match goal with |- exists ks' C', Ok (?k, ?c) = _ /\ _ => set (CC := c); exists k, c end.
    split; [reflexivity|].
    assert (RS : inR NSrc = false).
    { unfold inR. cbn [nid]. assert (mem Sc (S j) = true).
      { apply mem_In. apply ScI. split; [lia|]. intro K. apply Tlj in K. lia. }
      rewrite H. auto. }
    assert (RK : inR NSnk = false).
    { unfold inR. cbn [nid]. assert (mem Tr j = true) by (apply mem_In; auto). rewrite H. apply andb_false_r. }
    assert (RV : forall v, In v ns -> inR (NV v) = mem ks v).
    { intros v Hv. unfold inR. cbn [nid].
      assert (vj : (v < j)%nat) by (apply (r_incl _ _ _ _ R) in Hv; apply in_seq in Hv; lia).
      destruct (mem ks v) eqn:Ek.
      - apply mem_In in Ek. apply ksI in Ek. destruct Ek as [A B]. apply mem_false in B. rewrite B.
        assert (mem Sc v = false) by (apply mem_false; rewrite ScI; tauto). rewrite H. auto.
      - apply mem_false in Ek. rewrite ksI in Ek. destruct (mem Sc v) eqn:Esc; auto.
        apply mem_false in Esc. rewrite ScI in Esc. cbn [negb andb]. apply negb_false_iff. apply mem_In.
        destruct (in_dec Nat.eq_dec v Tr) as [K|K]; auto. exfalso. apply Ek. split; auto.
        destruct (in_dec Nat.eq_dec v Tl) as [K'|K']; auto. exfalso. apply Esc. split; [lia|auto]. }
    assert (FI : forall a, In a flt -> exists u v, nsrc a = NV u /\ ndst a = NV v /\ In u ks /\ In v ks /\ 0 <= ncap a).
    { intros a Ha. rewrite Fd in Ha. apply filter_In in Ha. destruct Ha as [Ha1 Ha2].
      apply andb_true_iff in Ha2. destruct Ha2 as [Ha2 Ha3]. apply andb_true_iff in Ha2. destruct Ha2 as [Ha0 Ha2].
      destruct (r_nn _ _ _ _ R a Ha1) as (K1 & K2 & K3).
      destruct (nsrc a) as [| |u] eqn:Eu; [congruence|congruence|].
      destruct (ndst a) as [| |v] eqn:Ev; [congruence|congruence|].
      cbn in K2, K3. exists u, v. rewrite (RV u K2) in Ha2. rewrite (RV v K3) in Ha3.
      apply mem_In in Ha2. apply mem_In in Ha3. auto. }
    assert (Finn : inn flt = inner_arcs E ks).
    { transitivity (filter (fun a => inR (nsrc a) && inR (ndst a)) (inn G)).
      - rewrite Fd. unfold inn. rewrite !filter_filter. apply filter_sub. intros a Ha.
        destruct (nsrc a) as [| |u] eqn:Eu; [rewrite RS; rewrite andb_false_r; auto|rewrite RK; rewrite andb_false_r; auto|].
        destruct (ndst a) as [| |v] eqn:Ev; [rewrite RS; rewrite !andb_false_r; auto|rewrite RK; rewrite !andb_false_r; auto|].
        rewrite andb_true_r. cbn [andb].
        assert (In a (inn G)). { unfold inn. apply filter_In. split; auto. rewrite Eu, Ev. auto. }
        rewrite (r_inn _ _ _ _ R) in H. unfold inner_arcs in H. apply in_map_iff in H. destruct H as (e & <- & He).
        apply filter_In in He. destruct He as [He _]. cbn [ncap].
        assert (Qltb (aw e) eps = false) by (apply Qltb_false; apply Hw; auto). rewrite H. auto.
      - rewrite (r_inn _ _ _ _ R). unfold inner_arcs. rewrite filter_map, filter_filter. f_equal. apply filter_sub.
        intros a Ha. cbn [nsrc ndst].
        destruct (mem ns (asrc a)) eqn:E1, (mem ns (adst a)) eqn:E2; cbn [andb].
        + rewrite !RV by (apply mem_In; auto). auto.
        + symmetry. assert (mem ks (adst a) = false) by (apply mem_false; apply mem_false in E2; auto). rewrite H. apply andb_false_r.
        + symmetry. assert (mem ks (asrc a) = false) by (apply mem_false; apply mem_false in E1; auto). rewrite H. auto.
        + symmetry. assert (mem ks (asrc a) = false) by (apply mem_false; apply mem_false in E1; auto). rewrite H. auto. }
    assert (Cnn : forall p, 0 <= csum eps p G).
    { intro p. apply qsum_nonneg. intros a Ha. destruct (r_nn _ _ _ _ R a Ha) as [K _].
      destruct (negb (Qltb (ncap a) eps) && p a); lra. }
    assert (FS : sT flt = [] /\ kT flt = []).
    { clear -FI. induction flt as [|a l IH]; auto. destruct (FI a (or_introl eq_refl)) as (u & v & A & B & _).
      destruct IH as [IH1 IH2]; [intros b Hb; apply FI; right; auto|].
      unfold sT, kT in *. cbn [flat_map]. rewrite A, B, IH1, IH2. auto. }
    destruct FS as [FS FK].
    split.
    - constructor; auto.
      + intros x Hx. apply (r_incl _ _ _ _ R). auto.
      + intros x Hx. apply ksI in Hx. tauto.
      + intros x Hx. apply mem_In in Hx. apply I2 in Hx. assert (x <= j)%nat by auto.
        destruct (Nat.eq_dec x j); auto. left. apply in_seq. lia.
      + unfold CC. rewrite !inn_app, Finn. cbn [inn filter nsrc ndst app]. rewrite <- app_nil_r. f_equal.
        clear. induction ks as [|i l IH]; auto. cbn [flat_map]. rewrite !inn_app, IH, app_nil_r.
        repeat match goal with |- context [if Qltb eps ?q then _ else _] => destruct (Qltb eps q) end; reflexivity.
      + unfold CC. rewrite !sT_app, FS. cbn [sT flat_map nsrc ndst app].
        clear. induction ks as [|i l IH]; auto. cbn [flat_map]. rewrite !sT_app, IH.
        repeat match goal with |- context [if Qltb eps ?q then _ else _] => destruct (Qltb eps q) end; reflexivity.
      + unfold CC. rewrite !kT_app, FK. cbn [kT flat_map nsrc ndst app].
        clear. induction ks as [|i l IH]; auto. cbn [flat_map]. rewrite !kT_app, IH.
        repeat match goal with |- context [if Qltb eps ?q then _ else _] => destruct (Qltb eps q) end; reflexivity.
      + intros a Ha. unfold CC in Ha. apply in_app_or in Ha. destruct Ha as [Ha|Ha].
        { destruct (FI a Ha) as (u & v & A & B & C & D & F). rewrite A, B. cbn. auto. }
        apply in_app_or in Ha. destruct Ha as [[<-|[<-|[]]]|Ha]; cbn [ncap nsrc ndst nnode_ok]; auto.
        apply in_flat_map in Ha. destruct Ha as (i & Hi & Ha).
        repeat (apply in_app_or in Ha; destruct Ha as [Ha|Ha]);
          repeat match goal with H : context [if Qltb eps ?q then _ else _] |- _ => destruct (Qltb eps q) end;
          try destruct Ha as [<-|[]]; try contradiction; cbn [ncap nsrc ndst nnode_ok]; auto.
      + intros i Hi. unfold new_base. cbn [fst]. apply qsum_ext. intros a Ha.
        destruct (adst a =? i)%nat eqn:Ei; [|rewrite andb_false_r; reflexivity]. apply Nat.eqb_eq in Ei.
        rewrite andb_true_r. cbn [andb].
        assert (K : mem Sc (asrc a) = negb (mem ks (asrc a)) && negb (mem Tr (asrc a))).
        { assert (aj : (asrc a <= j)%nat).
          { apply ksI in Hi. destruct Hi as [Hi _]. apply Tlj in Hi. specialize (Hf a Ha). lia. }
          destruct (mem Sc (asrc a)) eqn:Es.
          - apply mem_In in Es. apply ScI in Es. destruct Es as [_ Es]. symmetry.
            assert (mem ks (asrc a) = false) by (apply mem_false; rewrite ksI; tauto).
            assert (mem Tr (asrc a) = false) by (apply mem_false; intro C; apply Es; auto). rewrite H, H0. auto.
          - apply mem_false in Es. rewrite ScI in Es. symmetry.
            destruct (mem Tr (asrc a)) eqn:Et; [apply andb_false_r|]. rewrite andb_true_r. apply negb_false_iff.
            apply mem_In. apply ksI. apply mem_false in Et. split; auto.
            destruct (in_dec Nat.eq_dec (asrc a) Tl); auto. exfalso. apply Es. split; [lia|auto]. }
        rewrite K. reflexivity.
      + intros i Hi. unfold new_base. cbn [snd]. apply qsum_ext. intros a Ha. rewrite andb_comm. reflexivity.
    - intros x Hx. rewrite ksI. destruct (in_dec Nat.eq_dec x Tr); auto.
  Qed.

  Lemma diff_nodes_r Tl Tr : In j Tr ->
    filter (fun i => mem Tl i && negb (mem Tr i)) (seq 0 (S j)) =
    filter (fun i => mem Tl i && negb (mem Tr i)) nodes.
  Proof.
    intro HJ. unfold nodes. rewrite seq_S, filter_app. cbn [filter Nat.add].
    assert (mem Tr j = true) by (apply mem_In; auto). rewrite H. rewrite andb_false_r, app_nil_r. auto.
  Qed.

  (** Whatever the schedule, slice pushes what PMF::slice pushes. *)
  Theorem pmfr_slice_ok sch : forall fuel path ns G base T0 Tl Tr l1 l3 ct r,
    rep G base ns T0 -> incl T0 Tr -> incl Tr Tl -> (forall x, In x Tl -> In x ns \/ In x T0) ->
    LM l1 Tl -> LM l3 Tr ->
    pmf_slice fuel mc eps E n j y Tl Tr l1 (Fin l3) = Ok r ->
    exists G', pmfr_slice fuel mc mr sch path eps E j y ns G base Tl Tr l1 l3 ct = Ok (fst r, snd r, G') /\
      rep G' base ns T0.
  Proof.
    induction fuel as [|fuel IH]; intros path ns G base T0 Tl Tr l1 l3 ct r R I1 I2 I3 H1 H3 Hr;
      [discriminate Hr|].
    cbn [pmf_slice pmfr_slice] in *.
    rewrite (diff_nodes_r Tl Tr (lm_j _ _ _ _ _ H3)).
    rewrite (diff_nodes n j Hjn 1%positive Tl Tr (lm_win _ _ _ _ _ H1) (lm_j _ _ _ _ _ H3)) in Hr.
    fold nodes in Hr.
    destruct (compute_lambda eps (map (yat y) (filter (fun i => mem Tl i && negb (mem Tr i)) nodes))
                (get_cut_value E Tl - get_cut_value E Tr)) as [[l|]| | |]; cbn [bind] in *; try discriminate Hr.
    2:{ inversion Hr; subst r. exists G. auto. }
    set (l2 := Qred l) in *. cbn [dbl_different] in Hr.
    destruct (negb (tol_different eps l2 l1) || negb (tol_different eps l2 l3)).
    { inversion Hr; subst r. exists G. auto. }
    cbn [dltb] in Hr. destruct (Qltb l2 l1 || Qltb l3 l2) eqn:Eo; [discriminate Hr|].
    apply orb_false_iff in Eo. destruct Eo as [L12 L23]. apply Qltb_false in L12. apply Qltb_false in L23.
    destruct (pmf_cut_min mc Hmc eps Heps E n j Hjn HE Hs Hf Hw y l2) as [PM1 PM2].
    set (fT := pmf_cut mc eps E j y l2) in *. set (T2 := snd fT) in *.
    assert (J1 : incl T2 Tl) by (apply (min_shrink eps E n j HE y l1 l2); auto).
    assert (J2 : incl Tr T2) by (apply (min_shrink eps E n j HE y l2 l3); auto).
    assert (CT : exists c base' T0', (if ct then contract eps (S j) j (S (S j)) (ccompl Tl (S (S j))) Tr G else Ok (ns, G)) = Ok c /\
      base' = (if ct then new_base E (ccompl Tl (S (S j))) Tr else base) /\
      rep (snd c) base' (fst c) T0' /\ incl T0' Tr /\ (forall x, In x Tl -> In x (fst c) \/ In x T0') /\
      (ct = false -> c = (ns, G) /\ T0' = T0)).
    { destruct ct.
      - destruct (contract_ok G base ns T0 Tl Tr R I1 I2 I3 (lm_sorted _ _ _ _ _ H1) (lm_sorted _ _ _ _ _ H3))
          as (ks & C & A & B & D).
        exists (ks, C), (new_base E (ccompl Tl (S (S j))) Tr), Tr. split; auto. split; auto. split; auto. split; [apply incl_refl|].
        split; auto. intro H; discriminate H.
      - exists (ns, G), base, T0. repeat (split; [solve [auto]|]). auto. }
    destruct CT as (c & base' & T0' & C1 & C2 & C3 & C4 & C5 & C6). rewrite C1. cbn [bind]. rewrite <- C2.
    set (G' := upd y base' l2 (snd c)).
    destruct (worker_ok (sch path) (snd c) base' (fst c) T0' l2 T2 Tr Tl C3 PM1 C4 J2 J1 C5 (lm_sorted _ _ _ _ _ H3)) as [W1 W2].
    fold G' in W1, W2. set (wT := worker_cut mc mr (sch path) j (fst c) G') in *. rewrite W1.
    assert (B : Qltb (fst wT) (net_cut_value G' Tr - 10 * eps) =
                Qltb (fst fT) (cut (pmf_net eps E j y l2) (mem Tr) - 10 * eps)).
    { assert (O1 : net_cut_value G' Tr == GV l2 (mem Tr) + kst (snd c) (fst c) T0' l2).
      { unfold net_cut_value, G'. apply (rep_cut_set (snd c) base' (fst c) T0'); auto. }
      assert (O2 := cut_val eps Heps E n j Hjn HE Hs Hf Hw y l2 (mem Tr) (lm_win _ _ _ _ _ H3)). fold GV in O2, PM2.
      fold T2 in PM2.
      match goal with |- ?p = ?q => destruct p eqn:P1; destruct q eqn:P2; auto; exfalso end.
      - apply Qltb_true in P1. apply Qltb_false in P2. lra.
      - apply Qltb_false in P1. apply Qltb_true in P2. lra. }
    rewrite B.
    assert (RG : rep G' base' (fst c) T0') by (apply rep_upd; auto).
    assert (REND : forall Gb, rep Gb base' (fst c) T0' -> rep (if ct then G else Gb) base ns T0).
    { intros Gb HG. destruct ct; auto. destruct (C6 eq_refl) as [-> ->]. rewrite C2 in HG. exact HG. }
    destruct (negb (ceqb T2 Tr) && negb (ceqb T2 Tl) && Qltb (fst fT) (cut (pmf_net eps E j y l2) (mem Tr) - 10 * eps)).
    - destruct (pmf_slice fuel mc eps E n j y Tl T2 l1 (Fin l2)) as [ra| | |] eqn:Ea; cbn [bind] in Hr; try discriminate Hr.
      destruct (pmf_slice fuel mc eps E n j y T2 Tr l2 (Fin l3)) as [rb| | |] eqn:Eb; cbn [bind] in Hr; try discriminate Hr.
      inversion Hr; subst r. clear Hr.
      destruct (IH (true :: path) (fst c) G' base' T0' Tl T2 l1 l2 (sch path) ra) as (Ga & A1 & A2); auto.
      { eapply incl_tran; eauto. }
      rewrite A1. cbn [bind fst snd].
      destruct (IH (false :: path) (fst c) Ga base' T0' T2 Tr l2 l3 (negb (sch path)) rb) as (Gb & B1 & B2); auto.
      rewrite B1. cbn [bind fst snd].
      exists (if ct then G else Gb). split; [reflexivity|]. apply REND; auto.
    - inversion Hr; subst r. cbn [fst snd]. exists (if ct then G else G'). split; [reflexivity|]. apply REND; auto.
  Qed.

  (** ** The top level *)
  Lemma sum_sink_cost i : sink_cost E j i ==
    qsum (fun a => if mem [j] (adst a) && (asrc a =? i)%nat then aw a else 0) E.
  Proof.
    rewrite (sink_cost_sum E j i Hs). apply qsum_ext. intros a _. cbn [mem existsb]. rewrite orb_false_r.
    rewrite andb_comm. reflexivity.
  Qed.

  Lemma dig_rep : rep (dig_net eps E j) (fun i => (0, MPMFR.sink_capacity E j i)) nodes [j].
  Proof.
    assert (Z : filter (fun a => (asrc a =? j)%nat && (adst a <? j)%nat) E = []).
    { destruct (filter (fun a => (asrc a =? j)%nat && (adst a <? j)%nat) E) as [|a l] eqn:Ef; auto. exfalso.
      assert (In a (a :: l)) by (left; auto). rewrite <- Ef in H. apply filter_In in H. destruct H as [A B].
      apply andb_true_iff in B. destruct B as [B1 B2]. apply Nat.eqb_eq in B1. apply Nat.ltb_lt in B2.
      specialize (Hf a A). lia. }
    assert (D : dig_net eps E j = inner_arcs E nodes ++
      flat_map (fun i => [mkNarc NSrc (NV i) 0; mkNarc (NV i) NSnk 0]) nodes).
    { unfold dig_net. rewrite Z. cbn [map app]. f_equal. unfold nodes.
      assert (forall l, flat_map (fun i => mkNarc NSrc (NV i) 0 :: repeat (mkNarc (NV i) NSnk 0) (sink_copies eps E j i)) l =
         flat_map (fun i => [mkNarc NSrc (NV i) 0; mkNarc (NV i) NSnk 0]) l).
      { induction l as [|i l IHl]; auto. cbn [flat_map]. rewrite IHl.
        rewrite (one_copy eps Heps E j Hs Hw y i). auto. }
      apply H. }
    assert (IA : forall l, inn (flat_map (fun i => [mkNarc NSrc (NV i) 0; mkNarc (NV i) NSnk 0]) l) = [] /\
       sT (flat_map (fun i => [mkNarc NSrc (NV i) 0; mkNarc (NV i) NSnk 0]) l) = l /\
       kT (flat_map (fun i => [mkNarc NSrc (NV i) 0; mkNarc (NV i) NSnk 0]) l) = l).
    { induction l as [|i l (A & B & C)]; auto. cbn [flat_map]. rewrite inn_app, sT_app, kT_app, A, B, C. auto. }
    destruct (IA nodes) as (IA1 & IA2 & IA3).
    assert (IB : inn (inner_arcs E nodes) = inner_arcs E nodes /\ sT (inner_arcs E nodes) = [] /\ kT (inner_arcs E nodes) = []).
    { unfold inner_arcs. induction (filter (fun a => mem nodes (asrc a) && mem nodes (adst a)) E) as [|a l (A & B & C)]; auto.
      unfold inn, sT, kT in *. cbn. rewrite A, B, C. auto. }
    destruct IB as (IB1 & IB2 & IB3).
    constructor.
    - apply seq_NoDup.
    - apply incl_refl.
    - intros x Hx [<-|[]]. unfold nodes in Hx. apply in_seq in Hx. lia.
    - left; auto.
    - intros x Hx. apply mem_In in Hx. destruct Hx as [<-|[]]. right; auto.
    - rewrite D, inn_app, IA1, IB1, app_nil_r. auto.
    - rewrite D, sT_app, IA2, IB2. auto.
    - rewrite D, kT_app, IA3, IB3. auto.
    - intros a Ha. rewrite D in Ha. apply in_app_or in Ha. destruct Ha as [Ha|Ha].
      + unfold inner_arcs in Ha. apply in_map_iff in Ha. destruct Ha as (e & <- & He). apply filter_In in He.
        destruct He as [He1 He2]. apply andb_true_iff in He2. rewrite !mem_In in He2. cbn. split; [apply nonnegE; auto|tauto].
      + apply in_flat_map in Ha. destruct Ha as (i & Hi & Ha). destruct Ha as [<-|[<-|[]]]; cbn; repeat split; auto; lra.
    - intros i Hi. cbn [fst]. symmetry. apply qsum_zero. intros a Ha.
      destruct (adst a =? i)%nat eqn:Ei; [|rewrite andb_false_r; reflexivity]. apply Nat.eqb_eq in Ei.
      unfold nodes in Hi. apply in_seq in Hi. specialize (Hf a Ha).
      assert (mem nodes (asrc a) = true) by (apply mem_In; apply in_seq; lia). rewrite H. reflexivity.
    - intros i Hi. cbn [snd]. unfold MPMFR.sink_capacity. unfold nodes in Hi. apply in_seq in Hi.
      assert ((i <=? j)%nat = true) by (apply Nat.leb_le; lia). rewrite H. apply sum_sink_cost.
  Qed.

  Lemma lam3_ge : 0 <= lam3 E n j y /\ forall i, (i < n)%nat -> MPMFR.sink_capacity E j i + fst (yat y i) <= lam3 E n j y.
  Proof.
    unfold lam3. assert (G : forall l s, s <= fold_left (lam3_step E j y) l s /\
      forall i, In i l -> MPMFR.sink_capacity E j i + fst (yat y i) <= fold_left (lam3_step E j y) l s).
    { assert (Sp : forall s i, s <= lam3_step E j y s i /\ MPMFR.sink_capacity E j i + fst (yat y i) <= lam3_step E j y s i).
      { intros s i. unfold lam3_step. cbv zeta.
        assert (M : forall p q, p <= (if Qltb p q then q else p) /\ q <= (if Qltb p q then q else p)).
        { intros p q. destruct (Qltb p q) eqn:Eq; [apply Qltb_true in Eq|apply Qltb_false in Eq]; lra. }
        set (l' := match snd (yat y i) with Fin b => if Qltb s (fst (yat y i) - b) then fst (yat y i) - b else s | _ => s end).
        assert (L1 : s <= l').
        { unfold l'. destruct (snd (yat y i)) as [b| |]; try lra. apply M. }
        destruct (M l' (fst (yat y i))) as [M1 M2].
        set (l'' := if Qltb l' (fst (yat y i)) then fst (yat y i) else l') in *.
        destruct (M l'' (MPMFR.sink_capacity E j i + fst (yat y i))) as [M3 M4]. split; lra. }
      induction l as [|x l IHl]; intro s; cbn [fold_left]; [split; [lra|intros i []]|].
      destruct (IHl (lam3_step E j y s x)) as [A B]. destruct (Sp s x) as [S1 S2]. split; [lra|].
      intros i [<-|Hi]; auto. lra. }
    destruct (G (seq 0 n) 0) as [A B]. split; auto. intros i Hi. apply B. apply in_seq. lia.
  Qed.

  Lemma lam3_lmin : LM (lam3 E n j y) [j].
  Proof.
    assert (W1 : WIN (mem [j])).
    { intros x Hx. apply mem_In in Hx. destruct Hx as [<-|[]]. right; auto. }
    constructor; auto.
    - repeat constructor.
    - left; auto.
    - intros X HX. unfold gval. set (L := lam3 E n j y).
      assert (V1 : vs nodes (fun u => ycap (yat y u) L) (mem [j]) == 0).
      { apply qsum_zero. intros u Hu. assert (mem [j] u = false); [|rewrite H; reflexivity].
        apply mem_false. intros [C|[]]. unfold nodes in Hu. apply in_seq in Hu. lia. }
      assert (V2 : vs nodes (fun u => ycap (yat y u) L) X <= - qsum (fun u => if X u then sink_cost E j u else 0) nodes).
      { assert (D : - qsum (fun u => if X u then sink_cost E j u else 0) nodes ==
                 qsum (fun u => if X u then - sink_cost E j u else 0) nodes).
        { assert (N := qsum_scal (-1) (fun u => if X u then sink_cost E j u else 0) nodes).
          assert (N2 : qsum (fun u => if X u then - sink_cost E j u else 0) nodes ==
                       qsum (fun x => -1 * (if X x then sink_cost E j x else 0)) nodes).
          { apply qsum_ext. intros u _. destruct (X u); lra. }
          cbv beta in N. rewrite N2, N. ring. }
        rewrite D. unfold vs. apply qsum_le. intros u Hu. destruct (X u); [|lra].
        unfold nodes in Hu. apply in_seq in Hu. destruct lam3_ge as [_ K]. specialize (K u ltac:(lia)).
        unfold MPMFR.sink_capacity in K. assert ((u <=? j)%nat = true) by (apply Nat.leb_le; lia). rewrite H in K.
        fold L in K. unfold ycap. destruct (snd (yat y u)) as [b| |]; try lra.
        destruct (Qltb b (fst (yat y u) - L)) eqn:Eb; [apply Qltb_true in Eb|]; lra. }
      assert (V3 : fj (incut E) j (mem [j]) <= fj (incut E) j X + qsum (fun u => if X u then sink_cost E j u else 0) nodes).
      { rewrite (qsum_ext (fun u => if X u then sink_cost E j u else 0)
           (fun u => if X u then qsum (fun a => if (adst a =? j)%nat && (asrc a =? u)%nat then aw a else 0) E else 0) nodes).
        2:{ intros u _. destruct (X u); [|reflexivity]. rewrite (sink_cost_sum E j u Hs). apply qsum_ext. intros a _.
            rewrite andb_comm. reflexivity. }
        rewrite (sum_select asrc (fun a => (adst a =? j)%nat) aw X nodes E ltac:(apply seq_NoDup)).
        unfold fj, incut. rewrite <- qsum_plus. apply qsum_le. intros a Ha. assert (K := nonnegE a Ha). assert (F := Hf a Ha).
        cbn [mem existsb]. rewrite !orb_false_r, !orb_diag.
        destruct (adst a =? j)%nat eqn:Ed.
        - apply Nat.eqb_eq in Ed. assert (H1 : (asrc a =? j)%nat = false) by (apply Nat.eqb_neq; lia). rewrite H1.
          assert (H2 : mem nodes (asrc a) = true) by (apply mem_In; apply in_seq; lia). rewrite H2.
          destruct (X (asrc a)); cbn; lra.
        - rewrite andb_false_r. cbn [andb orb].
          match goal with |- _ <= (if ?b then _ else _) + _ => destruct b end; lra. }
      fold nodes. lra.
    - intros X HX _ x Hx [C|[]]. unfold nodes in Hx. apply in_seq in Hx. lia.
  Qed.

  Lemma worker_init : snd (worker_cut mc mr true j nodes (upd y (fun i => (0, MPMFR.sink_capacity E j i)) init_lambda (dig_net eps E j))) =
    snd (pmf_cut mc eps E j y init_lambda).
  Proof.
    destruct (pmf_cut_min mc Hmc eps Heps E n j Hjn HE Hs Hf Hw y init_lambda) as [PM _].
    set (T2 := snd (pmf_cut mc eps E j y init_lambda)) in *.
    destruct (worker_ok true _ _ _ _ init_lambda T2 [j] T2 dig_rep PM) as [W _].
    - apply incl_refl.
    - intros x [<-|[]]. apply PM.
    - apply incl_refl.
    - intros x Hx. destruct (lm_win _ _ _ _ _ PM x (proj2 (mem_In _ _) Hx)); [left; auto|right; left; auto].
    - repeat constructor.
    - rewrite <- W. symmetry. apply csorted_ext.
      + apply cunion_sorted. repeat constructor.
      + unfold worker_cut. cbv zeta. cbn [snd]. apply cadd_sorted. apply cset_of_sorted.
      + intro x. rewrite cunion_In. split; auto. intros [H|[<-|[]]]; auto.
        unfold worker_cut. cbv zeta. cbn [snd]. apply cadd_In. auto.
  Qed.

  Variable M : positive.
  Hypothesis HyM : forall u, (u < j)%nat -> pmult M (yat y u).
  Hypothesis Hy0 : forall u, (j <= u)%nat -> yat y u = (0, PInf).
  Hypothesis HfM : forall X, mult M (incut E X).
  Hypothesis HiM : mult M init_lambda.
  Hypothesis HeM : 10 * eps * inject_Z (Zpos (M * factP j)) < 1.

  Lemma sink_capacity_mult i : mult M (MPMFR.sink_capacity E j i).
  Proof.
    unfold MPMFR.sink_capacity. destruct (i <=? j)%nat eqn:Ei; [|apply mult_0]. apply Nat.leb_le in Ei.
    destruct (Nat.eq_dec i j) as [->|Hne].
    - eapply mult_wd; [|apply mult_0]. symmetry. rewrite (sink_cost_sum E j j Hs). apply qsum_zero. intros a Ha.
      destruct ((asrc a =? j)%nat && (adst a =? j)%nat) eqn:Ea; [|reflexivity]. exfalso.
      apply andb_true_iff in Ea. destruct Ea as [E1 E2]. apply Nat.eqb_eq in E1. apply Nat.eqb_eq in E2.
      specialize (Hf a Ha). lia.
    - eapply mult_wd; [|apply (mult_minus _ _ _ (HfM (mem [j])) (mult_minus _ _ _ (HfM (mem [i; j])) (HfM (mem [i]))))].
      rewrite (sink_cost_sum E j i Hs). unfold incut. rewrite <- !qsum_minus. apply qsum_ext. intros a Ha.
      assert (F := Hf a Ha). cbn [mem existsb]. rewrite !orb_false_r.
      destruct (asrc a =? i)%nat eqn:E1; destruct (asrc a =? j)%nat eqn:E2; destruct (adst a =? i)%nat eqn:E3;
        destruct (adst a =? j)%nat eqn:E4; cbn [negb andb orb]; try lra; exfalso;
        repeat match goal with H : (_ =? _)%nat = true |- _ => apply Nat.eqb_eq in H end; lia.
  Qed.

  Lemma lam3_mult : mult M (lam3 E n j y).
  Proof.
    unfold lam3. assert (G : forall l s, mult M s -> mult M (fold_left (lam3_step E j y) l s)).
    { induction l as [|i l IHl]; intros s Hms; auto. cbn [fold_left]. apply IHl.
      assert (P : pmult M (yat y i)).
      { destruct (Nat.lt_ge_cases i j) as [K|K]; auto. rewrite (Hy0 i K). split; cbn [fst snd]; [apply mult_0|exact I]. }
      unfold lam3_step. cbv zeta. destruct (yat y i) as [a b]. destruct P as [P1 P2]. cbn [fst snd] in *.
      set (l' := match b with Fin b0 => if Qltb s (a - b0) then a - b0 else s | _ => s end).
      assert (K1 : mult M l').
      { unfold l'. destruct b as [b| |]; auto. destruct (Qltb s (a - b)); auto using mult_minus. }
      set (l'' := if Qltb l' a then a else l').
      assert (K2 : mult M l'') by (unfold l''; destruct (Qltb l' a); auto).
      destruct (Qltb l'' (MPMFR.sink_capacity E j i + a)); auto. apply mult_plus; auto. apply sink_capacity_mult. }
    apply G. apply mult_0.
  Qed.

  Lemma cch_PInf rest : forall lo T Te q, cch E j y M lo T rest Te (Fin q) -> cch E j y M lo T rest Te PInf.
  Proof.
    induction rest as [|[l T'] r IH]; intros lo T Te q H; cbn [cch] in *.
    - split; [apply H|exact I].
    - destruct H as (A1 & A2 & A3 & A4 & A5 & A6 & A7 & A8 & A9). repeat (split; [assumption|]). eapply IH; eauto.
  Qed.

  (** PMF_R::run returns the same chain as PMF::run, under every schedule. *)
  Theorem pmfr_run_ok sch :
    (exists X, win nodes j X /\ GV init_lambda X < GV init_lambda (mem [j])) ->
    exists T0 rest,
      pmfr_run mc mr sch eps E n j y = Ok (map (fun p => Fin (fst p)) rest, T0 :: map snd rest) /\
      LM init_lambda T0 /\ rest <> [] /\ cch E j y M init_lambda T0 rest [j] PInf.
  Proof.
    intros (X & HX & HlX). unfold pmfr_run.
    assert (Lj : (j <? n)%nat = true) by (apply Nat.ltb_lt; auto). rewrite Lj. cbv zeta. fold nodes.
    rewrite worker_init.
    destruct (pmf_cut_min mc Hmc eps Heps E n j Hjn HE Hs Hf Hw y init_lambda) as [K1 _].
    set (T0 := snd (pmf_cut mc eps E j y init_lambda)) in *.
    assert (N0 : [j] <> T0).
    { intro C. assert (A := lm_min _ _ _ _ _ K1 X HX). rewrite <- C in A. unfold GV in HlX. lra. }
    assert (I0 : incl [j] T0) by (intros x [<-|[]]; apply K1).
    assert (L0 : (length T0 <= 1 + S n)%nat).
    { assert (incl T0 (seq 0 n)).
      { intros x Hx. assert (Wx := lm_win _ _ _ _ _ K1 x (proj2 (mem_In _ _) Hx)).
        apply in_seq. destruct Wx as [Wx|Wx]; [apply in_seq in Wx; lia|lia]. }
      assert (Ln := NoDup_incl_length (csorted_NoDup _ (lm_sorted _ _ _ _ _ K1)) H).
      rewrite seq_length in Ln. lia. }
    set (L := lam3 E n j y).
    assert (KL : LM L [j]) by apply lam3_lmin.
    assert (L00 : 0 <= L) by apply lam3_ge.
    destruct (slice_ok mc Hmc eps Heps E n j Hjn HE Hs Hf Hw y M HyM HfM HeM
                (S n) T0 [j] init_lambda (Fin L) L0 I0 N0 K1 ltac:(apply mult_scale; exact HiM))
      as (rest & sets & R1 & R2 & R3).
    { split; [exact KL|]. split; [apply mult_scale; apply lam3_mult|]. unfold init_lambda. lra. }
    set (base := fun i => (0, MPMFR.sink_capacity E j i)).
    set (G2 := upd y base L (upd y base init_lambda (dig_net eps E j))).
    assert (RG : rep G2 base nodes [j]) by (apply rep_upd; apply rep_upd; apply dig_rep).
    assert (I3 : forall x, In x T0 -> In x nodes \/ In x [j]).
    { intros x Hx. destruct (lm_win _ _ _ _ _ K1 x (proj2 (mem_In _ _) Hx)); [left; auto|right; left; auto]. }
    destruct (pmfr_slice_ok sch (S n) [] nodes G2 base [j] T0 [j] init_lambda L false _ RG (incl_refl _) I0 I3 K1 KL R1)
      as (G' & S1 & _).
    rewrite S1. cbn [bind fst snd].
    destruct (chain_sorted E n j Hjn y M T0 rest sets (Fin L) (lm_sorted _ _ _ _ _ K1) R2 R3) as [C1 C2].
    rewrite C1, C2. exists T0, rest. split; auto. split; [exact K1|]. split; [|eapply cch_PInf; eauto].
    intros ->. simpl in R3. destruct R3 as [R3 _]. congruence.
  Qed.
End R.
