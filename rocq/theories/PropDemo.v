(** * PropDemo: C75, the demo graphs of test/gaussian2Dcase.cpp. *)
From Coq Require Import Reals Lra.
From Verif Require Import Base Graph MSets MGraph MContract MDemo MWrap Spec PropGraph.
Notation length := List.length (only parsing).
Open Scope list_scope.
Open Scope Q_scope.

Lemma random_length np noise : exists pts, g2d_points np None noise = Ok pts /\ length pts = (4 * (np / 4))%nat.
Proof.
  eexists. split; [reflexivity|]. cbn [seq flat_map]. rewrite !app_length, !map_length, !seq_length. cbn [length]. lia.
Qed.

Lemma edges_In sim eps np pts i j c :
  In (i, j, c) (flat_map (fun i => flat_map (fun j =>
             let s := sim (nth i pts (0, 0)) (nth j pts (0, 0)) in
             if Qltb eps s then [(i, j, s)] else []) (seq (i + 1) (np - (i + 1)))) (seq 0 np)) <->
  (i < j < np)%nat /\ c = sim (nth i pts (0, 0)) (nth j pts (0, 0)) /\ eps < c.
Proof.
  rewrite in_flat_map. split.
  - intros (i' & Hi & H). rewrite in_flat_map in H. destruct H as (j' & Hj & H). apply in_seq in Hi. apply in_seq in Hj.
    cbv zeta in H. destruct (Qltb eps _) eqn:L; [|destruct H]. destruct H as [H|[]]. injection H as <- <- <-.
    apply Qltb_true in L. split; [lia|]. auto.
  - intros (H & -> & L). exists i. split; [apply in_seq; lia|]. apply in_flat_map. exists j. split; [apply in_seq; lia|].
    cbv zeta. rewrite (proj2 (Qltb_true _ _) L). left. auto.
Qed.

Lemma nodup_flat {A} (f : nat -> list A) (g : A -> nat) : forall l, NoDup l -> (forall x, In x l -> NoDup (f x)) ->
  (forall x y, In x l -> In y (f x) -> g y = x) -> NoDup (flat_map f l).
Proof.
  induction l as [|x l IH]; simpl; intros H1 H2 H3; [constructor|]. inversion H1; subst. apply NoDup_app_intro; [apply H2; auto|apply IH; auto|].
  - intros y Hy C. apply in_flat_map in C. destruct C as (z & Hz & Hy'). assert (g y = x) by auto. assert (g y = z) by auto.
    subst. auto.
Qed.

Definition key (t : nat * nat * Q) : nat * nat := fst t.

Theorem C75_demo_graph : forall sim eps np a noise,
  match a with Some l => (np <= length l)%nat | None => (np mod 4 = 0)%nat end -> 0 <= eps ->
  exists pts elt o E, g2d_points np a noise = Ok pts /\ length pts = np /\
    g2d_base sim eps np a noise = Ok elt /\
    (forall i j c, In (i, j, c) elt <-> (i < j < np)%nat /\ c = sim (nth i pts (0, 0)) (nth j pts (0, 0)) /\ eps < c) /\
    psp_ctor eps elt np = Ok o /\ ob_g o = mkG (seq 0 np) E /\ map triple E = elt /\
    graph_on (seq 0 np) E /\ simple E /\ forward E.
Proof.
  intros sim eps np a noise Ha He.
  assert (HP : exists pts, g2d_points np a noise = Ok pts /\ length pts = np).
  { destruct a as [l|].
    - exists (firstn np l). simpl. rewrite (proj2 (Nat.leb_le _ _) Ha). split; auto. apply firstn_length_le. auto.
    - destruct (random_length np noise) as (pts & A & B). exists pts. split; auto. rewrite B.
      assert (X := Nat.div_mod np 4 ltac:(lia)). lia. }
  destruct HP as (pts & P1 & P2).
  assert (GE : exists elt, g2d_edges sim eps np pts = Ok elt /\
    (forall i j c, In (i, j, c) elt <-> (i < j < np)%nat /\ c = sim (nth i pts (0, 0)) (nth j pts (0, 0)) /\ eps < c) /\ NoDup (map key elt)).
  { unfold g2d_edges. rewrite P2, Nat.ltb_irrefl, andb_false_r. eexists. split; [reflexivity|].
    split; [intros i j c; apply edges_In|].
    rewrite flat_map_concat_map, concat_map, map_map, <- flat_map_concat_map.
    apply (nodup_flat _ fst); [apply seq_NoDup| |].
    - intros i Hi. rewrite flat_map_concat_map, concat_map, map_map, <- flat_map_concat_map.
      apply (nodup_flat _ snd); [apply seq_NoDup| |].
      + intros j Hj. cbv zeta. destruct (Qltb eps _); repeat constructor. auto.
      + intros j y Hj Hy. cbv zeta in Hy. destruct (Qltb eps _); [|destruct Hy]. destruct Hy as [<-|[]]. reflexivity.
    - intros i y Hi Hy. apply in_map_iff in Hy. destruct Hy as (t & <- & Ht). apply in_flat_map in Ht. destruct Ht as (j & _ & Ht).
      cbv zeta in Ht. destruct (Qltb eps _); [|destruct Ht]. destruct Ht as [<-|[]]. reflexivity. }
  destruct GE as (elt & G1 & G2 & G3).
  destruct (proj1 (C03_make_dgraph eps np elt)) as (E & M1 & M2).
  { intros [[i j] c] Ht. unfold significant in Ht. apply filter_In in Ht. destruct Ht as [Ht _]. apply G2 in Ht.
    unfold in_range. simpl. lia. }
  assert (SIG : significant eps elt = elt).
  { unfold significant. assert (X : forall l : list (nat * nat * Q), (forall t, In t l -> Qltb eps (snd t) = true) -> filter (fun t => Qltb eps (snd t)) l = l).
    { induction l as [|t l IH]; simpl; intro H; auto. rewrite (H t) by auto. f_equal. apply IH. auto. }
    rewrite <- (X elt) at 2.
    - apply filter_ext. intros [[i j] c]. reflexivity.
    - intros [[i j] c] Ht. apply G2 in Ht. apply Qltb_true. simpl. tauto. }
  rewrite SIG in M2.
  assert (INE : forall x, In x E -> (asrc x < adst x < np)%nat /\ eps < aw x).
  { intros x Hx. assert (Y : In (triple x) elt) by (rewrite <- M2; apply in_map; auto). destruct x as [s t c]. apply G2 in Y. tauto. }
  exists pts, elt, (mkObj (mkG (seq 0 np) E) [] []), E. split; auto. split; auto.
  split; [unfold g2d_base; rewrite P1; exact G1|]. split; auto.
  split; [unfold psp_ctor; rewrite M1; reflexivity|]. split; auto. split; auto. split; [|split].
  - intros x Hx. destruct (INE x Hx) as [A B]. split; [apply in_seq; lia|]. split; [apply in_seq; lia|]. lra.
  - unfold simple. rewrite <- M2 in G3. rewrite map_map in G3. exact G3.
  - intros x Hx. destruct (INE x Hx). lia.
Qed.
Print Assumptions C75_demo_graph.

(** Random points: block q of np/4 points is centred at the q-th corner of the square with corners (+-3, +-3). *)
Theorem C75_random_points : forall k noise, exists pts, g2d_points (4 * k) None noise = Ok pts /\
  forall q i, (q < 4)%nat -> (i < k)%nat ->
    let c := nth q [(3, 3); (3, -(3)); (-(3), -(3)); (-(3), 3)] (0, 0) in let z := noise (q * k + i)%nat in
    nth (q * k + i) pts (0, 0) = (fst z + fst c, snd z + snd c).
Proof.
  intros k noise. eexists. split; [reflexivity|]. intros q i Hq Hi c z.
  assert (D : ((4 * k) / 4 = k)%nat) by (rewrite Nat.mul_comm; apply Nat.div_mul; lia).
  rewrite D. unfold c, z. clear c z.
  set (f := fun j i0 => let z := noise (j * k + i0)%nat in let c := nth j centres (0, 0) in (fst z + fst c, snd z + snd c)).
  change (nth (q * k + i) (flat_map (fun j => map (f j) (seq 0 k)) (seq 0 4)) (0, 0) = f q i).
  assert (L : forall m s r, (r < m)%nat -> nth (r * k + i) (flat_map (fun j => map (f j) (seq 0 k)) (seq s m)) (0, 0) = f (s + r)%nat i).
  { clear q Hq. induction m as [|m IH]; intros s r Hr; [lia|]. cbn [seq flat_map]. destruct r as [|r].
    - rewrite app_nth1 by (rewrite map_length, seq_length; lia). cbn [Nat.mul Nat.add].
      rewrite (nth_indep _ (0,0) (f s 0%nat)) by (rewrite map_length, seq_length; lia).
      rewrite (map_nth (f s)), seq_nth by lia. f_equal. lia.
    - rewrite app_nth2; rewrite map_length, seq_length; [|nia].
      replace (S r * k + i - k)%nat with (r * k + i)%nat by nia. rewrite IH by lia. f_equal. lia. }
  apply (L 4%nat 0%nat q Hq).
Qed.
Print Assumptions C75_random_points.

(** Random points for a size that is not a multiple of four. *)
Theorem C75_random_size_refuted : forall sim eps np noise, (2 <= np)%nat -> (np mod 4 <> 0)%nat ->
  g2d_base sim eps np None noise = UB.
Proof.
  intros sim eps np noise Hn Hm. destruct (random_length np noise) as (pts & A & B). unfold g2d_base. rewrite A. cbn [bind].
  unfold g2d_edges. rewrite (proj2 (Nat.leb_le _ _) Hn), B.
  assert (X : (4 * (np / 4) <? np)%nat = true).
  { apply Nat.ltb_lt. assert (X := Nat.div_mod np 4 ltac:(lia)). lia. }
  rewrite X. reflexivity.
Qed.
Print Assumptions C75_random_size_refuted.

(** The four points of a square with side 2 and a similarity that keeps neighbours only. *)
Example C75_nonvacuous :
  let near := fun p q : Q * Q => if Qle_bool ((fst p - fst q) * (fst p - fst q) + (snd p - snd q) * (snd p - snd q)) 4 then 1#2 else 0 in
  g2d_base near (1#10) 4 (Some [(1,1); (1,-(1)); (-(1),-(1)); (-(1),1)]) (fun _ => (0,0)) =
    Ok [(0,1,1#2); (0,3,1#2); (1,2,1#2); (2,3,1#2)]%nat /\
  g2d_points 8 None (fun i => (inject_Z (Z.of_nat i), 0)) =
    Ok [(0+3, 0+3); (1+3, 0+3); (2+3, 0 + -(3)); (3+3, 0 + -(3)); (4 + -(3), 0 + -(3)); (5 + -(3), 0 + -(3)); (6 + -(3), 0+3); (7 + -(3), 0+3)] /\
  g2d_base near (1#10) 7 None (fun _ => (0,0)) = UB.
Proof. vm_compute. auto. Qed.

(** ** The similarity over the reals *)
Open Scope R_scope.
Definition dist2 (p q : R * R) : R := (fst p - fst q) ^ 2 + (snd p - snd q) ^ 2.

Theorem C75_similarity : forall gamma p q, 0 <= gamma ->
  similarity gamma p q = exp (- gamma * dist2 p q) /\ 0 < similarity gamma p q <= 1 /\
  similarity gamma p q = similarity gamma q p /\
  (0 < gamma -> similarity gamma p q = 1 -> p = q).
Proof.
  intros gamma [x1 y1] [x2 y2] Hg. unfold similarity, dist2. cbn [fst snd].
  assert (D1 : 0 <= (x1 - x2) ^ 2) by apply pow2_ge_0. assert (D2 : 0 <= (y1 - y2) ^ 2) by apply pow2_ge_0.
  assert (M1 : 0 <= gamma * (x1 - x2) ^ 2) by (apply Rmult_le_pos; auto).
  assert (M2 : 0 <= gamma * (y1 - y2) ^ 2) by (apply Rmult_le_pos; auto).
  split; [f_equal; ring|]. split; [split; [apply exp_pos|]|split; [f_equal; ring|]].
  - destruct (Rle_lt_or_eq_dec _ _ M1) as [H|H]; [left; rewrite <- exp_0; apply exp_increasing; Lra.lra|].
    destruct (Rle_lt_or_eq_dec _ _ M2) as [H'|H']; [left; rewrite <- exp_0; apply exp_increasing; Lra.lra|].
    right. rewrite <- exp_0. f_equal. Lra.lra.
  - intros Hp H. rewrite <- exp_0 in H. apply exp_inv in H.
    assert (Z1 : (x1 - x2) ^ 2 = 0).
    { destruct (Rle_lt_or_eq_dec _ _ D1) as [X|X]; [|auto]. assert (Y := Rmult_lt_0_compat _ _ Hp X). Lra.lra. }
    assert (Z2 : (y1 - y2) ^ 2 = 0).
    { destruct (Rle_lt_or_eq_dec _ _ D2) as [X|X]; [|auto]. assert (Y := Rmult_lt_0_compat _ _ Hp X). Lra.lra. }
    assert (SQ : forall z, z ^ 2 = 0 -> z = 0).
    { intros z Hz. destruct (Req_dec z 0) as [|N]; auto. exfalso. exact (pow_nonzero z 2 N Hz). }
    apply SQ in Z1. apply SQ in Z2. f_equal; Lra.lra.
Qed.
Print Assumptions C75_similarity.

(** The comment at test/gaussian2Dcase.h:28 promises exp(-gamma |p-q|^2 / 2). *)
Theorem C75_documented_formula_refuted :
  ~ (forall gamma p q, 0 <= gamma -> similarity gamma p q = exp (- gamma * dist2 p q / 2)).
Proof.
  intro H. specialize (H 1 (1, 0) (0, 0) ltac:(Lra.lra)). unfold similarity, dist2 in H. cbn [fst snd] in H. apply exp_inv in H. simpl in H. Lra.lra.
Qed.
Print Assumptions C75_documented_formula_refuted.
