(** * CostStar: a family of graphs on which the recursion of split makes quadratically many calls. *)
From Verif Require Import Base Spec MSets SetsThy PartThy SeqThy DilThy ContractThy DTThy TreeThy DecThy PSPILoop CostThy CostBound.

(** The star with centre 0 and weights [w 1], ..., [w (n-1)]. *)
Definition star (w : nat -> Q) (n : nat) : graph := map (fun i => mkArc 0 i (w i)) (seq 1 (n - 1)).

(** The trace of a call with [m] children that gives up one child per level. *)
Fixpoint star_trace (m : nat) : list nat :=
  match m with
  | S (S (S _) as m') => seq 0 m ++ star_trace m'
  | _ => []
  end.

Lemma star_trace_S m : (3 <= m)%nat -> star_trace m = seq 0 m ++ star_trace (m - 1).
Proof. intro H. destruct m as [|[|[|m]]]; try lia. reflexivity. Qed.

Lemma star_trace_length m : (2 <= m)%nat -> (2 * length (star_trace m) + 6 = m * (m + 1))%nat.
Proof.
  induction m as [|m IH]; intro H; [lia|]. destruct (Nat.eq_dec m 1) as [->|N]; [reflexivity|].
  rewrite star_trace_S by lia. rewrite app_length, seq_length. simpl Nat.sub. rewrite Nat.sub_0_r.
  assert (K := IH ltac:(lia)). nia.
Qed.

(** The block of [x] and the rest. *)
Lemma block_split K L x : NoDup K -> is_partition K L -> In x K ->
  exists C R, Permutation L (C :: R) /\ In x C /\ is_partition (filter (fun y => negb (same_part L x y)) K) R.
Proof.
  intros ND HL Hx. destruct (part_cover K L x HL Hx) as (C & C1 & C2).
  destruct (in_split _ _ C1) as (l1 & l2 & Es). exists C, (l1 ++ l2).
  assert (PL : Permutation L (C :: l1 ++ l2)) by (rewrite Es; symmetry; apply Permutation_middle).
  split; auto. split; auto.
  assert (HL' : is_partition K (C :: l1 ++ l2)) by (eapply part_perm; eauto).
  assert (ND' := part_NoDup K ND _ HL'). simpl in ND'. apply NoDup_app_inv in ND'.
  destruct ND' as (N1 & N2 & N3). split; [|intro D; apply (proj2 HL'); right; auto].
  apply NoDup_Permutation; auto; [apply NoDup_filter; auto|].
  intro y. rewrite filter_In, negb_true_iff. split.
  - intro Hy. split.
    + eapply Permutation_in; [exact (proj1 HL')|]. simpl. apply in_or_app. auto.
    + destruct (same_part L x y) eqn:S; auto. exfalso. apply same_part_true in S.
      destruct S as (B & B1 & B2 & B3).
      rewrite (part_unique K L B C x ND HL B1 C1 B2 C2) in B3. apply (N3 y B3 Hy).
  - intros [Y1 Y2]. destruct (part_cover K _ y HL' Y1) as (B & [<-|B1] & B2).
    + exfalso. apply (proj1 (same_part_false _ _ _) Y2 C); auto.
    + apply in_concat. eauto.
Qed.

Lemma filter_len_sum {A} (f : A -> bool) l : qn (length (filter f l)) == qsum (fun x => if f x then 1 else 0) l.
Proof.
  induction l as [|a l IH]; simpl; [reflexivity|]. destruct (f a); cbn [length]; [rewrite qn_S, IH; ring|rewrite IH; ring].
Qed.

Section Star.
  Variable eps : Q.
  Hypothesis Heps : 0 < eps.
  Variable n : nat.
  Variable w : nat -> Q.
  Let E := star w n.
  Let K := seq 0 n.
  Let tot m := qsum w (seq 1 (m - 1)).
  Hypothesis Hpos : forall i, (1 <= i < n)%nat -> 0 < w i.
  Hypothesis Hlow : forall m i, (3 <= m <= n)%nat -> (1 <= i)%nat -> (i + 2 <= m)%nat -> w i * (qn m - 1) < tot m.
  Hypothesis Hhigh : forall m, (3 <= m <= n)%nat -> tot m + eps * (qn m - 1) < w (m - 1)%nat * (qn m - 1).

  Lemma star_sub : sub E K = E.
  Proof.
    unfold sub. apply filter_id. intros a Ha. unfold E, star in Ha. apply in_map_iff in Ha.
    destruct Ha as (i & <- & Hi). apply in_seq in Hi. simpl. apply andb_true_iff.
    split; apply mem_In; apply in_seq; lia.
  Qed.

  (** [m] blocks: the nodes 1, ..., m-1 alone, all the others together. *)
  Record shape (m : nat) (Bs : list (list nat)) : Prop := {
    Sh_part : is_partition K Bs;
    Sh_len : length Bs = m;
    Sh_one : forall i, (1 <= i < m)%nat -> In [i] Bs;
    Sh_big : forall x, (m <= x < n)%nat -> same_part Bs 0 x = true
  }.

  Lemma shape_perm m Bs Bs' : Permutation Bs Bs' -> shape m Bs -> shape m Bs'.
  Proof.
    intros HP [A1 A2 A3 A4]. constructor.
    - eapply part_perm; eauto.
    - rewrite <- (Permutation_length HP). auto.
    - intros i Hi. eapply Permutation_in; eauto.
    - intros x Hx. specialize (A4 x Hx). apply same_part_true in A4. destruct A4 as (B & B1 & B2).
      apply same_part_true. exists B. split; auto. eapply Permutation_in; eauto.
  Qed.

  Lemma shape_out m Bs i : shape m Bs -> (1 <= i < m)%nat -> (m <= n)%nat -> same_part Bs 0 i = false.
  Proof.
    intros [A1 A2 A3 A4] Hi Hm. apply same_part_false. intros B HB B0 Bi.
    assert (B = [i]) by (apply (part_unique K Bs B [i] i (seq_NoDup n 0)); auto; left; auto).
    subst B. destruct B0 as [C|[]]. lia.
  Qed.

  (** Splitting sums over the arcs at [m]. *)
  Lemma star_sum f m : (1 <= m <= n)%nat -> (forall i, (m <= i < n)%nat -> f i == 0) ->
    qsum f (seq 1 (n - 1)) == qsum f (seq 1 (m - 1)).
  Proof.
    intros Hm Hf. replace (n - 1)%nat with ((m - 1) + (n - m))%nat by lia. rewrite seq_app, qsum_app.
    rewrite (qsum_zero f (seq (1 + (m - 1)) (n - m))); [ring|]. intros i Hi. apply in_seq in Hi. apply Hf. lia.
  Qed.

  Lemma star_crossing R m : (1 <= m <= n)%nat -> (forall x, (m <= x < n)%nat -> same_part R 0 x = true) ->
    crossing E R == qsum (fun i => if same_part R 0 i then 0 else w i) (seq 1 (m - 1)).
  Proof.
    intros Hm HR. unfold crossing, E, star. rewrite qsum_map. cbn [asrc adst aw].
    apply star_sum; auto. intros i Hi. rewrite HR by auto. reflexivity.
  Qed.

  (** A partition has at most one block more than there are nodes outside the block of 0. *)
  Lemma star_blocks R m : (1 <= m <= n)%nat -> is_partition K R ->
    (forall x, (m <= x < n)%nat -> same_part R 0 x = true) ->
    exists C R', Permutation R (C :: R') /\ In 0%nat C /\
      let out := filter (fun i => negb (same_part R 0 i)) K in
      is_partition out R' /\ (length R' <= length out)%nat /\
      qn (length out) == qsum (fun i => if same_part R 0 i then 0 else 1) (seq 1 (m - 1)).
  Proof.
    intros Hm HR Hb. destruct (block_split K R 0 (seq_NoDup n 0) HR) as (C & R' & A1 & A2 & A3).
    { apply in_seq. lia. }
    exists C, R'. split; auto. split; auto. cbv zeta. split; auto. split.
    - apply part_length_le; auto. apply NoDup_filter. apply seq_NoDup.
    - rewrite filter_len_sum. unfold K. replace n with (1 + (n - 1))%nat by lia. rewrite seq_app, qsum_app.
      assert (Z : same_part R 0 0 = true).
      { apply same_part_true. exists C. split; auto. eapply Permutation_in; [symmetry; exact A1|left; auto]. }
      cbn [seq qsum fold_right map]. 
      assert (Q1 : qsum (fun x => if negb (same_part R 0 x) then 1 else 0) [0%nat] == 0).
      { cbn. rewrite Z. cbn. ring. }
      rewrite Q1. rewrite star_sum with (m := m); auto.
      + rewrite Qplus_0_l. apply qsum_ext. intros x _. destruct (same_part R 0 x); reflexivity.
      + intros i Hi. rewrite Hb by auto. reflexivity.
  Qed.

  (** The partition one level up. *)
  Definition up (m : nat) : list (list nat) := (0%nat :: seq (m - 1) (n - m + 1)) :: singletons (seq 1 (m - 2)).

  Lemma up_part m : (3 <= m <= n)%nat -> is_partition K (up m).
  Proof.
    intro Hm. split.
    - assert (C : forall l, concat (singletons l) = l) by (induction l as [|a l IH]; simpl; f_equal; auto).
      unfold up. cbn [concat]. rewrite C. unfold K. replace n with (S (n - 1)) at 2 by lia. cbn [seq app].
      apply perm_skip. rewrite Permutation_app_comm.
      replace (n - 1)%nat with ((m - 2) + (n - m + 1))%nat by lia. rewrite (seq_app (m - 2)).
      replace (1 + (m - 2))%nat with (m - 1)%nat by lia. apply Permutation_refl.
    - intros [C|C]; [discriminate|]. apply in_map_iff in C. destruct C as (v & C & _). discriminate.
  Qed.

  Lemma up_shape m : (3 <= m <= n)%nat -> shape (m - 1) (up m).
  Proof.
    intro Hm. constructor.
    - apply up_part; auto.
    - unfold up, singletons. cbn [length]. rewrite map_length, seq_length. lia.
    - intros i Hi. right. apply in_map_iff. exists i. split; auto. apply in_seq. lia.
    - intros x Hx. apply same_part_true. exists (0%nat :: seq (m - 1) (n - m + 1)). split; [left; auto|].
      split; [left; auto|right; apply in_seq; lia].
  Qed.

  Lemma up_coarse m Bs : (3 <= m <= n)%nat -> shape m Bs -> refines Bs (up m).
  Proof.
    intros Hm HS B HB. destruct (part_nonempty K Bs B (Sh_part _ _ HS) HB) as (x & Hx).
    destruct (le_lt_dec 1 x) as [L1|L1]; [destruct (le_lt_dec (m - 1) x) as [L2|L2]|].
    3: assert (x = 0%nat) by lia; subst x.
    - exists (0%nat :: seq (m - 1) (n - m + 1)). split; [left; auto|]. intros y Hy.
      assert (Hyn : (y < n)%nat) by (assert (Q := part_incl K Bs B (Sh_part _ _ HS) HB y Hy); apply in_seq in Q; lia).
      destruct (le_lt_dec 1 y) as [M1|M1]; [|left; lia]. destruct (le_lt_dec (m - 1) y) as [M2|M2]; [right; apply in_seq; lia|].
      exfalso. assert (B = [y]).
      { apply (part_unique K Bs B [y] y (seq_NoDup n 0)); auto; [apply (Sh_part _ _ HS)|apply (Sh_one _ _ HS); lia|left; auto]. }
      subst B. destruct Hx as [Hx|[]]. lia.
    - assert (B = [x]).
      { apply (part_unique K Bs B [x] x (seq_NoDup n 0)); auto; [apply (Sh_part _ _ HS)|apply (Sh_one _ _ HS); lia|left; auto]. }
      exists [x]. subst B. split; [|apply incl_refl]. right. apply in_map_iff. exists x. split; auto. apply in_seq. lia.
    - exists (0%nat :: seq (m - 1) (n - m + 1)). split; [left; auto|]. intros y Hy.
      assert (Hyn : (y < n)%nat) by (assert (Q := part_incl K Bs B (Sh_part _ _ HS) HB y Hy); apply in_seq in Q; lia).
      destruct (le_lt_dec 1 y) as [M1|M1]; [|left; lia]. destruct (le_lt_dec (m - 1) y) as [M2|M2]; [right; apply in_seq; lia|].
      exfalso. assert (B = [y]).
      { apply (part_unique K Bs B [y] y (seq_NoDup n 0)); auto; [apply (Sh_part _ _ HS)|apply (Sh_one _ _ HS); lia|left; auto]. }
      subst B. destruct Hx as [Hx|[]]. lia.
  Qed.

  Lemma shape_crossing m Bs : (1 <= m <= n)%nat -> shape m Bs -> crossing E Bs == tot m.
  Proof.
    intros Hm HS. rewrite (star_crossing Bs m Hm (Sh_big _ _ HS)). apply qsum_ext. intros i Hi. apply in_seq in Hi.
    rewrite (shape_out m Bs i HS) by lia. reflexivity.
  Qed.

  Lemma tot_S m : (2 <= m)%nat -> tot m == tot (m - 1) + w (m - 1)%nat.
  Proof.
    intro H. unfold tot. replace (m - 1)%nat with (S (m - 2)) at 1 by lia. rewrite seq_S, qsum_app.
    replace (m - 1 - 1)%nat with (m - 2)%nat by lia. cbn [qsum]. replace (1 + (m - 2))%nat with (m - 1)%nat by lia.
    cbn. ring.
  Qed.

  (** The best partition above a shape is the shape with one block less, and it is better by more than eps. *)
  Lemma star_level m Bs g L : (3 <= m <= n)%nat -> shape m Bs -> level E K Bs g L ->
    shape (m - 1) L /\ hval (sub E K) g L < - g - eps.
  Proof.
    intros Hm HS (Hg & HL & HC & HB). rewrite star_sub in *.
    rewrite (Sh_len _ _ HS), (shape_crossing m Bs) in Hg by (auto; lia).
    assert (Hq : 2 <= qn m - 1).
    { assert (Q := qn_le 3 m ltac:(lia)). change (qn 3) with 3 in Q. lra. }
    assert (G1 : forall i, (1 <= i)%nat -> (i + 2 <= m)%nat -> w i < g).
    { intros i I1 I2. assert (Q := Hlow m i Hm I1 I2). rewrite <- Hg in Q.
      apply Qmult_lt_r in Q; auto. lra. }
    assert (G2 : g + eps < w (m - 1)%nat).
    { assert (Q := Hhigh m Hm). rewrite <- Hg in Q.
      assert (Q2 : (g + eps) * (qn m - 1) < w (m - 1)%nat * (qn m - 1)) by lra.
      apply Qmult_lt_r in Q2; auto. lra. }
    assert (G0 : 0 < g) by (assert (Q := G1 1%nat ltac:(lia) ltac:(lia)); assert (Q2 := Hpos 1%nat ltac:(lia)); lra).
    assert (Hup := HB (up m) (up_part m Hm) (up_coarse m Bs Hm HS)).
    assert (HU : hval E g (up m) == - w (m - 1)%nat).
    { unfold hval. rewrite (shape_crossing (m - 1) (up m)) by (try lia; apply up_shape; auto).
      rewrite (Sh_len _ _ (up_shape m Hm)), (qn_minus m 1) by lia. change (qn 1) with 1.
      assert (Q := tot_S m ltac:(lia)). rewrite Hg, Q. ring. }
    split; [|lra].
    assert (Big : forall x, (m <= x < n)%nat -> same_part L 0 x = true).
    { intros x Hx. assert (Q := Sh_big _ _ HS x Hx). apply same_part_true in Q. destruct Q as (B & B1 & B2 & B3).
      destruct (HC B B1) as (D & D1 & D2). apply same_part_true. exists D. auto. }
    destruct (star_blocks L m ltac:(lia) HL Big) as (C & R' & P1 & P2 & P3 & P4 & P5).
    set (out := filter (fun i => negb (same_part L 0 i)) K) in *.
    set (d := fun i => (if same_part L 0 i then 0 else w i - g) - (if (i =? m - 1)%nat then 0 else w i - g)).
    assert (D0 : forall i, In i (seq 1 (m - 1)) -> 0 <= d i).
    { intros i Hi. apply in_seq in Hi. unfold d. destruct (i =? m - 1)%nat eqn:Ei.
      - apply Nat.eqb_eq in Ei. subst i. destruct (same_part L 0 (m - 1)%nat); lra.
      - apply Nat.eqb_neq in Ei. assert (Q := G1 i ltac:(lia) ltac:(lia)). destruct (same_part L 0 i); lra. }
    assert (S1 : hval E g L == qsum (fun i => if same_part L 0 i then 0 else w i - g) (seq 1 (m - 1)) - g
                   + g * (qn (length out) - qn (length R'))).
    { unfold hval. rewrite (star_crossing L m ltac:(lia) Big), (Permutation_length P1). cbn [length].
      rewrite qn_S.
      assert (Q : qsum (fun i => if same_part L 0 i then 0 else w i - g) (seq 1 (m - 1)) ==
        qsum (fun i => if same_part L 0 i then 0 else w i) (seq 1 (m - 1)) - g * qn (length out)).
      { rewrite P5, <- qsum_scal, <- qsum_minus. apply qsum_ext. intros i _. destruct (same_part L 0 i); ring. }
      rewrite Q. ring. }
    assert (Sq : seq 1 (m - 1) = seq 1 (m - 2) ++ [(m - 1)%nat]).
    { replace (seq 1 (m - 1)) with (seq 1 (S (m - 2))) by (f_equal; lia). rewrite seq_S. replace (1 + (m - 2))%nat with (m - 1)%nat by lia. reflexivity. }
    assert (S2 : qsum (fun i => if (i =? m - 1)%nat then 0 else w i - g) (seq 1 (m - 1)) - g == - w (m - 1)%nat).
    { rewrite Sq, qsum_app.
      assert (Q : qsum (fun i => if (i =? m - 1)%nat then 0 else w i - g) [(m - 1)%nat] == 0).
      { cbn [qsum]. unfold qsum. cbn [fold_right map]. rewrite Nat.eqb_refl. ring. }
      rewrite Q.
      assert (Q2 : qsum (fun i => if (i =? m - 1)%nat then 0 else w i - g) (seq 1 (m - 2)) == tot (m - 1) - g * (qn m - 2)).
      { unfold tot. replace (m - 1 - 1)%nat with (m - 2)%nat by lia.
        assert (Q3 : qn m - 2 == qn (length (seq 1 (m - 2)))) by (rewrite seq_length, qn_minus by lia; change (qn 2) with 2; ring).
        rewrite Q3, <- qsum_const, <- qsum_minus. apply qsum_ext. intros i Hi. apply in_seq in Hi.
        assert (N : (i =? m - 1)%nat = false) by (apply Nat.eqb_neq; lia). rewrite N. ring. }
      rewrite Q2. assert (Q4 := tot_S m ltac:(lia)).
      assert (Q5 : tot (m - 1) == g * (qn m - 1) - w (m - 1)%nat) by (rewrite Hg, Q4; ring). rewrite Q5. ring. }
    assert (Q0 : 0 <= qn (length out) - qn (length R')) by (apply qn_le in P4; lra).
    assert (Q1 : 0 <= g * (qn (length out) - qn (length R'))) by (apply Qmult_le_0_compat; lra).
    assert (SD : qsum d (seq 1 (m - 1)) + g * (qn (length out) - qn (length R')) <= 0).
    { unfold d. rewrite qsum_minus. lra. }
    assert (DN := qsum_nonneg d (seq 1 (m - 1)) D0).
    assert (D1 := qsum_all_zero d (seq 1 (m - 1)) D0 ltac:(lra)).
    assert (In1 : same_part L 0 (m - 1)%nat = true).
    { assert (Q := D1 (m - 1)%nat ltac:(apply in_seq; lia)). unfold d in Q. rewrite Nat.eqb_refl in Q.
      destruct (same_part L 0 (m - 1)%nat); auto. lra. }
    assert (Out1 : forall i, (1 <= i)%nat -> (i + 2 <= m)%nat -> same_part L 0 i = false).
    { intros i I1 I2. assert (Q := D1 i ltac:(apply in_seq; lia)). unfold d in Q.
      assert (N : (i =? m - 1)%nat = false) by (apply Nat.eqb_neq; lia). rewrite N in Q.
      destruct (same_part L 0 i); auto. assert (Q2 := G1 i I1 I2). lra. }
    assert (Full : length R' = length out).
    { apply qn_inj. assert (Z : g * (qn (length out) - qn (length R')) <= 0) by lra.
      destruct (Qlt_le_dec 0 (qn (length out) - qn (length R'))) as [Y|Y]; [|lra].
      assert (0 < g * (qn (length out) - qn (length R'))) by (apply Qmult_lt_0_compat; auto). lra. }
    assert (Lout : length out = (m - 2)%nat).
    { apply qn_inj. rewrite P5, Sq, qsum_app.
      assert (Q : qsum (fun i => if same_part L 0 i then 0 else 1) [(m - 1)%nat] == 0).
      { unfold qsum. cbn [fold_right map]. rewrite In1. ring. }
      rewrite Q.
      assert (Q3 : qn (m - 2) == qn (length (seq 1 (m - 2)))) by (rewrite seq_length; reflexivity).
      rewrite Q3, Qplus_0_r, <- (Qmult_1_l (qn _)), <- qsum_const. apply qsum_ext. intros i Hi. apply in_seq in Hi.
      rewrite Out1 by lia. reflexivity. }
    constructor; auto.
    - rewrite (Permutation_length P1). cbn [length]. lia.
    - intros i Hi. assert (Io : In i out).
      { apply filter_In. split; [apply in_seq; lia|]. rewrite Out1 by lia. reflexivity. }
      assert (NDo : NoDup out) by (apply NoDup_filter; apply seq_NoDup).
      destruct (part_length_full out NDo R' P3 Full) as [F1 _].
      destruct (part_cover out R' i P3 Io) as (B & B1 & B2). destruct (F1 B B1) as (D & D2 & D3).
      apply in_map_iff in D2. destruct D2 as (v & <- & _).
      assert (v = i) by (destruct (D3 i B2) as [Q|[]]; auto). subst v.
      assert (NB : NoDup B) by (eapply nd_part_NoDup_in; [apply (part_NoDup out NDo R' P3)|auto]).
      assert (B = [i]).
      { destruct B as [|a [|b B]].
        - destruct B2.
        - destruct (D3 a (or_introl eq_refl)) as [<-|[]]. reflexivity.
        - exfalso. inversion NB as [|? ? N1 _]; subst. apply N1. left.
          destruct (D3 a (or_introl eq_refl)) as [<-|[]].
          destruct (D3 b (or_intror (or_introl eq_refl))) as [<-|[]]. reflexivity. }
      subst B. eapply Permutation_in; [symmetry; exact P1|right; auto].
    - intros x Hx. destruct (Nat.eq_dec x (m - 1)) as [->|N]; auto. apply Big. lia.
  Qed.

  Lemma star_calls : forall Bs tr, rec_calls E eps K Bs tr -> forall m, (2 <= m <= n)%nat -> shape m Bs -> tr = star_trace m.
  Proof.
    assert (H : forall X Bs tr, rec_calls E eps X Bs tr -> X = K -> forall m, (2 <= m <= n)%nat -> shape m Bs -> tr = star_trace m).
    { intros X Bs tr H. induction H as [X Bs H|X Bs g L H3 HL Hc|X Bs g L Ms tr1 Bs' tr2 H3 HL N1 N2 Hv Hs Hp Hperm Hr IH];
        intros -> m Hm HS; assert (Lm := Sh_len _ _ HS).
      - rewrite Lm in H. rewrite H. reflexivity.
      - exfalso. destruct (star_level m Bs g L ltac:(lia) HS HL) as [A1 A2]. assert (LL := Sh_len _ _ A1).
        destruct Hc as [Hc|[Hc|Hc]]; [lia|lia|lra].
      - destruct (star_level m Bs g L ltac:(lia) HS HL) as [A1 A2]. assert (LL := Sh_len _ _ A1).
        rewrite Lm. rewrite star_trace_S by lia. f_equal.
        assert (T1 : tr1 = []).
        { destruct (proj2 (rec_calls_bound E eps) L Ms tr1 Hp) as (_ & _ & Q & _).
          replace (length (concat Ms) - length L)%nat with 1%nat in Q by lia.
          specialize (Q ltac:(lia)). destruct tr1; auto. simpl in Q. lia. }
        subst tr1. cbn [app]. apply IH; auto; [lia|]. eapply shape_perm; eauto. }
    intros Bs tr Hr. apply (H K Bs tr Hr eq_refl).
  Qed.

  Lemma star_start : (2 <= n)%nat -> shape n (rev (singletons K)).
  Proof.
    intro Hn. apply (shape_perm n (singletons K)); [apply Permutation_rev|]. constructor.
    - apply singletons_part.
    - unfold singletons, K. rewrite map_length, seq_length. auto.
    - intros i Hi. apply in_map_iff. exists i. split; auto. apply in_seq. lia.
    - intros x Hx. lia.
  Qed.
End Star.

(** ** Weights that meet the hypotheses: eps (n+1)^i *)
Definition pw (n i : nat) : nat := ((n + 1) ^ i)%nat.
Definition psum (n m : nat) : nat := list_sum (map (pw n) (seq 1 (m - 1))).
Definition star_w (eps : Q) (n i : nat) : Q := eps * qn (pw n i).

Lemma pw_S n i : pw n (S i) = ((n + 1) * pw n i)%nat.
Proof. reflexivity. Qed.
Lemma pw_mono n i j : (i <= j)%nat -> (pw n i <= pw n j)%nat.
Proof. intro H. apply Nat.pow_le_mono_r; lia. Qed.
Lemma pw_pos n i : (1 <= pw n i)%nat.
Proof. change 1%nat with (pw n 0). apply pw_mono. lia. Qed.

Lemma psum_S n m : (2 <= m)%nat -> psum n m = (psum n (m - 1) + pw n (m - 1))%nat.
Proof.
  intro H. unfold psum. destruct m as [|[|m]]; try lia. cbn [Nat.sub]. rewrite !Nat.sub_0_r.
  rewrite seq_S, map_app, list_sum_app. cbn [map list_sum fold_right]. rewrite Nat.add_0_r. reflexivity.
Qed.

Lemma psum_le n m : (psum n m <= (m - 1) * pw n (m - 1))%nat.
Proof.
  induction m as [|m IH]; [cbn; lia|]. destruct (Nat.eq_dec m 0) as [->|N]; [cbn; lia|].
  rewrite psum_S by lia. cbn [Nat.sub]. rewrite Nat.sub_0_r.
  assert (K := pw_mono n (m - 1) m ltac:(lia)). replace m with (S (m - 1)) at 3 by lia. cbn [Nat.mul]. nia.
Qed.

Lemma psum_low n m i : (3 <= m <= n)%nat -> (1 <= i)%nat -> (i + 2 <= m)%nat -> (pw n i * (m - 1) < psum n m)%nat.
Proof.
  intros Hm Hi Him. assert (A := pw_mono n (S i) (m - 1) ltac:(lia)). rewrite pw_S in A.
  assert (B := pw_pos n i). rewrite psum_S by lia. nia.
Qed.

Lemma psum_high n m : (3 <= m <= n)%nat -> (psum n m + (m - 1) < pw n (m - 1) * (m - 1))%nat.
Proof.
  intros Hm. rewrite psum_S by lia. assert (A := psum_le n (m - 1)).
  replace (m - 1 - 1)%nat with (m - 2)%nat in A by lia.
  assert (B : pw n (m - 1) = ((n + 1) * pw n (m - 2))%nat) by (rewrite <- pw_S; f_equal; lia).
  assert (C := pw_mono n 1 (m - 2) ltac:(lia)). assert (C1 : pw n 1 = (n + 1)%nat) by (unfold pw; apply Nat.pow_1_r). rewrite C1 in C.
  assert (F : ((m - 1) = (m - 2) + 1)%nat) by lia. 
  assert (G : (1 <= m - 2)%nat) by lia. set (x := pw n (m - 2)) in *. set (k := (m - 2)%nat) in *. rewrite B.
  assert (k * x + (m - 1) < k * ((n + 1) * x))%nat; [|nia].
  assert (k * ((n + 1) * x) = k * x + k * (n * x))%nat by nia.
  assert (n * x <= k * (n * x))%nat by nia. assert (n * (n + 1) <= n * x)%nat by nia. nia.
Qed.

Lemma star_w_sum eps n l : qsum (star_w eps n) l == eps * qn (list_sum (map (pw n) l)).
Proof.
  induction l as [|a l IH]; [change (0 == eps * 0); ring|]. cbn [qsum map list_sum fold_right]. rewrite IH. unfold star_w.
  fold (list_sum (map (pw n) l)). unfold qn. rewrite Nat2Z.inj_add, inject_Z_plus. ring.
Qed.

Lemma qn_pred m : (1 <= m)%nat -> qn m - 1 == qn (m - 1).
Proof. intro H. destruct m as [|m]; [lia|]. rewrite qn_S. cbn [Nat.sub]. rewrite Nat.sub_0_r. ring. Qed.
Lemma qn_mul a b : qn (a * b) == qn a * qn b.
Proof. unfold qn. rewrite Nat2Z.inj_mul, inject_Z_mult. reflexivity. Qed.
Lemma qn_add a b : qn (a + b) == qn a + qn b.
Proof. unfold qn. rewrite Nat2Z.inj_add, inject_Z_plus. reflexivity. Qed.
Lemma qn_lt a b : (a < b)%nat -> qn a < qn b.
Proof. intro H. unfold qn. rewrite <- Zlt_Qlt. lia. Qed.

Section StarW.
  Variable eps : Q.
  Hypothesis Heps : 0 < eps.
  Variable n : nat.

  Lemma star_w_ge i : eps <= star_w eps n i.
  Proof.
    unfold star_w. assert (B := pw_pos n i). assert (1 <= qn (pw n i)).
    { unfold qn. change 1 with (inject_Z 1). rewrite <- Zle_Qle. lia. }
    assert (eps * 1 <= eps * qn (pw n i)) by (apply Qmult_le_l; auto). lra.
  Qed.

  Lemma star_w_low m i : (3 <= m <= n)%nat -> (1 <= i)%nat -> (i + 2 <= m)%nat ->
    star_w eps n i * (qn m - 1) < qsum (star_w eps n) (seq 1 (m - 1)).
  Proof.
    intros Hm Hi Him. rewrite star_w_sum, qn_pred by lia. unfold star_w. fold (psum n m).
    rewrite <- Qmult_assoc, <- qn_mul. apply Qmult_lt_l; auto. apply qn_lt. apply psum_low; auto.
  Qed.

  Lemma star_w_high m : (3 <= m <= n)%nat ->
    qsum (star_w eps n) (seq 1 (m - 1)) + eps * (qn m - 1) < star_w eps n (m - 1) * (qn m - 1).
  Proof.
    intros Hm. rewrite star_w_sum, qn_pred by lia. unfold star_w. fold (psum n m).
    rewrite <- Qmult_plus_distr_r, <- Qmult_assoc, <- qn_mul, <- qn_add. apply Qmult_lt_l; auto.
    apply qn_lt. apply psum_high; auto.
  Qed.

  Lemma star_in a : In a (star (star_w eps n) n) -> asrc a = 0%nat /\ (1 <= adst a < n)%nat /\ aw a = star_w eps n (adst a).
  Proof. intro H. apply in_map_iff in H. destruct H as (i & <- & Hi). apply in_seq in Hi. simpl. repeat split; lia. Qed.
  Lemma star_on : graph_on (seq 0 n) (star (star_w eps n) n).
  Proof.
    intros a Ha. destruct (star_in a Ha) as (A1 & A2 & A3). rewrite A1, A3. assert (K := star_w_ge (adst a)).
    split; [apply in_seq; lia|]. split; [apply in_seq; lia|]. lra.
  Qed.
  Lemma star_forward : forward (star (star_w eps n) n).
  Proof. intros a Ha. destruct (star_in a Ha) as (A1 & A2 & A3). lia. Qed.
  Lemma star_simple : simple (star (star_w eps n) n).
  Proof.
    unfold simple, star. rewrite map_map. cbn [asrc adst].
    apply FinFun.Injective_map_NoDup; [|apply seq_NoDup]. intros x y H. congruence.
  Qed.
  Lemma star_weights a : In a (star (star_w eps n) n) -> eps <= aw a.
  Proof. intro Ha. destruct (star_in a Ha) as (A1 & A2 & A3). rewrite A3. apply star_w_ge. Qed.

  Theorem star_rec_calls tr : (2 <= n)%nat ->
    rec_calls (star (star_w eps n) n) eps (seq 0 n) (rev (singletons (seq 0 n))) tr -> tr = star_trace n.
  Proof.
    intros Hn H. apply (star_calls eps Heps n (star_w eps n)) with (4 := H); auto.
    - intros i _. assert (K := star_w_ge i). lra.
    - intros m i Hm Hi Him. apply star_w_low; auto.
    - intros m Hm. apply star_w_high; auto.
    - apply star_start. auto.
  Qed.
End StarW.
