(** * PropUtil: digraph_copy and digraph_contract (psp/digraph_utility.cpp): C30, C31. *)
From Verif Require Import Base Graph MSets MContract MUtil.

(** ** C30 *)

(** Weight of the arcs entering a node set. *)
Definition incut (E : graph) (X : nset) : Q :=
  qsum (fun a => if negb (X (asrc a)) && X (adst a) then aw a else 0) E.

(** Weight of the arcs from [S] to [v], and from [v] to [S]. *)
Definition from_set (E : graph) (S : cset) (v : nat) : Q :=
  qsum (fun a => if mem S (asrc a) && (adst a =? v)%nat then aw a else 0) E.
Definition to_set (E : graph) (S : cset) (v : nat) : Q :=
  qsum (fun a => if mem S (adst a) && (asrc a =? v)%nat then aw a else 0) E.

(** What the contraction forgets about [v] as seen by [X] (with [xi] telling whether [X] holds
    the contracted set). *)
Definition lost (eps : Q) (E : graph) (S : cset) (xi : bool) (X : nset) (v : nat) : Q :=
  (if negb xi && X v && negb (Qltb eps (from_set E S v)) then from_set E S v else 0) +
  (if xi && negb (X v) && (Qltb eps (from_set E S v) || negb (Qltb eps (qabs (to_set E S v))))
   then to_set E S v else 0).

Lemma mem_true_In l x : mem l x = true <-> In x l.
Proof.
  unfold mem. rewrite existsb_exists. split.
  - intros (y & Hy & H). apply Nat.eqb_eq in H. subst. auto.
  - intro H. exists x. split; auto. apply Nat.eqb_refl.
Qed.

Lemma out_cap_eq E S v : mem S v = false -> out_cap E S v == from_set E S v.
Proof.
  intro Hv. apply qsum_ext. intros a _. destruct (mem S (asrc a)); [|reflexivity]. cbn [andb].
  destruct (adst a =? v)%nat eqn:E1; [|rewrite andb_false_r; reflexivity].
  apply Nat.eqb_eq in E1. rewrite E1, Hv. reflexivity.
Qed.

Lemma in_cap_eq E S v : mem S v = false -> in_cap E S v == to_set E S v.
Proof.
  intro Hv. apply qsum_ext. intros a _. destruct (mem S (adst a)); [|rewrite andb_false_r; reflexivity].
  cbn [andb]. rewrite andb_true_r. destruct (asrc a =? v)%nat eqn:E1; [|rewrite andb_false_r; reflexivity].
  apply Nat.eqb_eq in E1. rewrite E1, Hv. reflexivity.
Qed.

Lemma Qltb_comp a b c d : a == b -> c == d -> Qltb a c = Qltb b d.
Proof.
  intros H K. destruct (Qltb a c) eqn:E1; [apply Qltb_true in E1|apply Qltb_false in E1]; symmetry.
  - apply Qltb_true. lra.
  - apply Qltb_false. lra.
Qed.

Lemma qabs_comp a b : a == b -> qabs a == qabs b.
Proof.
  intro H. unfold qabs. rewrite (Qltb_comp a b 0 0 H (Qeq_refl 0)). destruct (Qltb b 0); lra.
Qed.

Lemma incut_app E F X : incut (E ++ F) X == incut E X + incut F X.
Proof. apply qsum_app. Qed.

Lemma incut_flat_map {A} (g : A -> graph) l X : incut (flat_map g l) X == qsum (fun x => incut (g x) X) l.
Proof. induction l; simpl; [reflexivity|]. rewrite incut_app, IHl. reflexivity. Qed.

(** One entry of the map. *)
Lemma dc_arc_cut eps E S i v X : mem S v = false ->
  incut (dc_arc eps E S i v) X == (if negb (X i) && X v then from_set E S v else 0) +
    (if negb (X v) && X i then to_set E S v else 0) - lost eps E S (X i) X v.
Proof.
  intro Hv. assert (A := out_cap_eq E S v Hv). assert (B := in_cap_eq E S v Hv).
  unfold dc_arc, lost.
  rewrite (Qltb_comp eps eps (out_cap E S v) (from_set E S v) (Qeq_refl _) A).
  rewrite (Qltb_comp eps eps (qabs (in_cap E S v)) (qabs (to_set E S v)) (Qeq_refl _) (qabs_comp _ _ B)).
  unfold incut. destruct (Qltb eps (from_set E S v)); [|destruct (Qltb eps (qabs (to_set E S v)))];
    cbn [qsum asrc adst aw]; destruct (X i), (X v); cbn [negb andb orb]; lra.
Qed.

Lemma contract_formula eps G S i X :
  NoDup (gnodes G) -> (forall a, In a (garcs G) -> In (asrc a) (gnodes G) /\ In (adst a) (gnodes G)) ->
  In i S -> (forall s, In s S -> X s = X i) ->
  incut (filter (untouched S i) (garcs G) ++
         flat_map (dc_arc eps (garcs G) S i) (filter (fun v => negb (mem S v)) (gnodes G))) X ==
  incut (garcs G) X - qsum (lost eps (garcs G) S (X i) X) (filter (fun v => negb (mem S v)) (gnodes G)).
Proof.
  intros Hnd Hin Hi HX. set (vs := filter (fun v => negb (mem S v)) (gnodes G)). set (E := garcs G) in *.
  rewrite incut_app, incut_flat_map.
  assert (Hvs : forall v, In v vs <-> In v (gnodes G) /\ mem S v = false).
  { intro v. unfold vs. rewrite filter_In, negb_true_iff. tauto. }
  assert (NDv : NoDup vs) by (apply NoDup_filter; auto).
  rewrite (qsum_ext _ (fun v => ((if negb (X i) && X v then from_set E S v else 0) +
    (if negb (X v) && X i then to_set E S v else 0)) - lost eps E S (X i) X v));
    [|intros v Hv; apply dc_arc_cut; apply Hvs; auto].
  rewrite qsum_minus, qsum_plus.
  assert (F1 : qsum (fun v => if negb (X i) && X v then from_set E S v else 0) vs ==
               qsum (fun a => if mem S (asrc a) && negb (mem S (adst a)) && (negb (X i) && X (adst a)) then aw a else 0) E).
  { rewrite (qsum_ext _ (fun v => qsum (fun a => if negb (X i) && X v && (mem S (asrc a) && (adst a =? v)%nat) then aw a else 0) E)).
    2:{ intros v _. unfold from_set. destruct (negb (X i) && X v); cbn [andb]; [reflexivity|].
        symmetry. apply qsum_zero. intros; reflexivity. }
    rewrite qsum_swap. apply qsum_ext. intros a Ha.
    destruct (mem S (asrc a)) eqn:Es.
    2:{ apply qsum_zero. intros v _. cbn [andb]. rewrite andb_false_r. reflexivity. }
    destruct (mem S (adst a)) eqn:Ed; cbn [andb negb].
    { apply qsum_zero. intros v Hv. destruct (adst a =? v)%nat eqn:E1; [|rewrite andb_false_r; reflexivity].
      apply Nat.eqb_eq in E1. subst v. apply Hvs in Hv. destruct Hv. congruence. }
    rewrite (qsum_ext _ (fun v => if Nat.eqb v (adst a) then (if negb (X i) && X (adst a) then aw a else 0) else 0)).
    - apply qsum_single; auto. apply Hvs. split; auto. apply Hin; auto.
    - intros v _. rewrite (Nat.eqb_sym v). destruct (adst a =? v)%nat eqn:E1; [|rewrite andb_false_r; reflexivity].
      apply Nat.eqb_eq in E1. subst v. rewrite andb_true_r. reflexivity. }
  assert (F2 : qsum (fun v => if negb (X v) && X i then to_set E S v else 0) vs ==
               qsum (fun a => if mem S (adst a) && negb (mem S (asrc a)) && (negb (X (asrc a)) && X i) then aw a else 0) E).
  { rewrite (qsum_ext _ (fun v => qsum (fun a => if negb (X v) && X i && (mem S (adst a) && (asrc a =? v)%nat) then aw a else 0) E)).
    2:{ intros v _. unfold to_set. destruct (negb (X v) && X i); cbn [andb]; [reflexivity|].
        symmetry. apply qsum_zero. intros; reflexivity. }
    rewrite qsum_swap. apply qsum_ext. intros a Ha.
    destruct (mem S (adst a)) eqn:Es.
    2:{ apply qsum_zero. intros v _. cbn [andb]. rewrite andb_false_r. reflexivity. }
    destruct (mem S (asrc a)) eqn:Ed; cbn [andb negb].
    { apply qsum_zero. intros v Hv. destruct (asrc a =? v)%nat eqn:E1; [|rewrite andb_false_r; reflexivity].
      apply Nat.eqb_eq in E1. subst v. apply Hvs in Hv. destruct Hv. congruence. }
    rewrite (qsum_ext _ (fun v => if Nat.eqb v (asrc a) then (if negb (X (asrc a)) && X i then aw a else 0) else 0)).
    - apply qsum_single; auto. apply Hvs. split; auto. apply Hin; auto.
    - intros v _. rewrite (Nat.eqb_sym v). destruct (asrc a =? v)%nat eqn:E1; [|rewrite andb_false_r; reflexivity].
      apply Nat.eqb_eq in E1. subst v. rewrite andb_true_r. reflexivity. }
  rewrite F1, F2. unfold incut at 1 2. rewrite qsum_filter.
  assert (K : qsum (fun a => if untouched S i a then (if negb (X (asrc a)) && X (adst a) then aw a else 0) else 0) E +
    (qsum (fun a => if mem S (asrc a) && negb (mem S (adst a)) && (negb (X i) && X (adst a)) then aw a else 0) E +
     qsum (fun a => if mem S (adst a) && negb (mem S (asrc a)) && (negb (X (asrc a)) && X i) then aw a else 0) E) ==
    qsum (fun a => if negb (X (asrc a)) && X (adst a) then aw a else 0) E).
  { rewrite <- qsum_plus, <- qsum_plus. apply qsum_ext. intros a Ha. unfold untouched.
    assert (Ei : forall u, mem S u = false -> (u =? i)%nat = false).
    { intros u Hu. apply Nat.eqb_neq. intros ->. apply mem_true_In in Hi. congruence. }
    assert (Xi : forall u, mem S u = true -> X u = X i).
    { intros u Hu. apply HX. apply mem_true_In; auto. }
    destruct (mem S (asrc a)) eqn:E1, (mem S (adst a)) eqn:E2; cbn [orb negb andb];
      rewrite ?andb_false_r, ?andb_true_r; rewrite ?(Ei _ E1), ?(Ei _ E2); cbn [orb negb andb];
      try rewrite (Xi _ E1); try rewrite (Xi _ E2);
      destruct (X i), (X (asrc a)), (X (adst a)); cbn [negb andb]; lra. }
  lra.
Qed.

(** C30.  What digraph_contract does to cuts, for every graph: a set that does not split [S] keeps its
    weight except for the [lost] part. *)
Theorem C30_contract_cut_formula : forall eps G S i G' X,
  NoDup (gnodes G) -> (forall a, In a (garcs G) -> In (asrc a) (gnodes G) /\ In (adst a) (gnodes G)) ->
  In i S -> (exists s, In s S /\ In s (gnodes G) /\ s <> i) ->
  digraph_contract eps G S i = Ok G' -> (forall s, In s S -> X s = X i) ->
  (forall v, In v (gnodes G') <-> In v (gnodes G) /\ (v = i \/ ~ In v S)) /\
  incut (garcs G') X ==
    incut (garcs G) X - qsum (lost eps (garcs G) S (X i) X) (filter (fun v => negb (mem S v)) (gnodes G)).
Proof.
  intros eps G S i G' X Hnd Hin Hi (s & Hs & Hsn & Hsi) Hc HX. unfold digraph_contract in Hc.
  destruct (forallb (fun v => negb (mem S v) || (v =? i)%nat) (gnodes G)) eqn:Ef.
  - exfalso. rewrite forallb_forall in Ef. assert (K := Ef s Hsn). apply orb_true_iff in K.
    destruct K as [K|K].
    + apply mem_true_In in Hs. rewrite Hs in K. discriminate K.
    + apply Nat.eqb_eq in K. contradiction.
  - cbv zeta in Hc.
    destruct (mem (gnodes G) i || _); [|discriminate Hc]. injection Hc as <-. cbn [garcs gnodes]. split.
    + intro v. rewrite filter_In, orb_true_iff, negb_true_iff, Nat.eqb_eq, <- (mem_true_In S v).
      destruct (mem S v); intuition congruence.
    + apply contract_formula; auto.
Qed.
Print Assumptions C30_contract_cut_formula.

(** Nothing is lost exactly if every outside node is connected to [S] in one direction only, with a
    weight above the tolerance (or not at all). *)
Theorem C30_contract_preserves_cuts_iff : forall eps G S i G',
  0 <= eps -> NoDup (gnodes G) ->
  (forall a, In a (garcs G) -> In (asrc a) (gnodes G) /\ In (adst a) (gnodes G) /\ 0 <= aw a) ->
  In i S -> (exists s, In s S /\ In s (gnodes G) /\ s <> i) ->
  digraph_contract eps G S i = Ok G' ->
  ((forall X, (forall s, In s S -> X s = X i) -> incut (garcs G') X == incut (garcs G) X) <->
   (forall v, In v (gnodes G) -> ~ In v S ->
      (eps < from_set (garcs G) S v /\ to_set (garcs G) S v == 0) \/
      (from_set (garcs G) S v == 0 /\
       (to_set (garcs G) S v == 0 \/ eps < to_set (garcs G) S v)))).
Proof.
  intros eps G S i G' He Hnd Hin Hi Hs Hc.
  assert (HF : forall X, (forall s, In s S -> X s = X i) -> incut (garcs G') X ==
    incut (garcs G) X - qsum (lost eps (garcs G) S (X i) X) (filter (fun v => negb (mem S v)) (gnodes G))).
  { intros X HX. apply (C30_contract_cut_formula eps G S i G' X); auto. intros a Ha. destruct (Hin a Ha); tauto. }
  set (E := garcs G) in *.
  assert (N1 : forall v, 0 <= to_set E S v).
  { intro v. apply qsum_nonneg. intros a Ha. destruct (_ && _); [apply Hin; auto|lra]. }
  assert (Qa : forall v, qabs (to_set E S v) = to_set E S v).
  { intro v. unfold qabs. destruct (Qltb (to_set E S v) 0) eqn:E1; auto. apply Qltb_true in E1. specialize (N1 v). lra. }
  split.
  - intros H v Hv HvS.
    assert (Mv : mem S v = false) by (destruct (mem S v) eqn:Em; auto; apply mem_true_In in Em; contradiction).
    assert (Hvf : In v (filter (fun v => negb (mem S v)) (gnodes G))) by (apply filter_In; rewrite Mv; auto).
    assert (NDf : NoDup (filter (fun v => negb (mem S v)) (gnodes G))) by (apply NoDup_filter; auto).
    assert (ne : forall s, In s S -> (s =? v)%nat = false) by (intros s Hs1; apply Nat.eqb_neq; congruence).
    assert (A1 : lost eps E S false (fun u => (u =? v)%nat) v == 0).
    { set (X := fun u => (u =? v)%nat).
      assert (HX : forall s, In s S -> X s = X i) by (intros s Hs1; unfold X; rewrite (ne s), (ne i); auto).
      assert (K := HF X HX). rewrite (H X HX) in K.
      assert (XI : X i = false) by (apply ne; auto). rewrite XI in K.
      rewrite (qsum_ext _ (fun u => if Nat.eqb u v then lost eps E S false X v else 0)) in K.
      - rewrite (qsum_single _ v) in K; auto. lra.
      - intros u _. destruct (u =? v)%nat eqn:Eu; [apply Nat.eqb_eq in Eu; subst; reflexivity|].
        unfold lost, X. rewrite Eu. cbn [negb andb]. lra. }
    assert (A2 : lost eps E S true (fun u => negb (u =? v)%nat) v == 0).
    { set (X := fun u => negb (u =? v)%nat).
      assert (HX : forall s, In s S -> X s = X i) by (intros s Hs1; unfold X; rewrite (ne s), (ne i); auto).
      assert (K := HF X HX). rewrite (H X HX) in K.
      assert (XI : X i = true) by (unfold X; rewrite (ne i); auto). rewrite XI in K.
      rewrite (qsum_ext _ (fun u => if Nat.eqb u v then lost eps E S true X v else 0)) in K.
      - rewrite (qsum_single _ v) in K; auto. lra.
      - intros u _. destruct (u =? v)%nat eqn:Eu; [apply Nat.eqb_eq in Eu; subst; reflexivity|].
        unfold lost, X. rewrite Eu. cbn [negb andb]. lra. }
    unfold lost in A1, A2. rewrite Nat.eqb_refl in A1, A2. cbn [negb andb] in A1, A2. rewrite (Qa v) in A2.
    destruct (Qltb eps (from_set E S v)) eqn:E1; cbn [negb orb] in A1, A2.
    + apply Qltb_true in E1. left. split; auto. lra.
    + right. split; [lra|]. destruct (Qltb eps (to_set E S v)) eqn:E2; cbn [negb] in A2.
      * right. apply Qltb_true; auto.
      * left. lra.
  - intros H X HX. rewrite (HF X HX). rewrite (qsum_zero (lost eps E S (X i) X)); [lra|].
    intros v Hv. apply filter_In in Hv. destruct Hv as [Hv HvS].
    assert (~ In v S) by (intro C; apply mem_true_In in C; rewrite C in HvS; discriminate HvS).
    unfold lost. rewrite (Qa v). destruct (H v Hv H0) as [[K1 K2]|[K1 [K2|K2]]].
    + apply Qltb_true in K1. rewrite K1. cbn [negb orb]. rewrite ?andb_false_r.
      destruct (X i && negb (X v) && true); lra.
    + destruct (_ && negb (Qltb eps (from_set E S v))), (_ && (_ || _)); lra.
    + assert (K3 : Qltb eps (from_set E S v) = false) by (apply Qltb_false; lra).
      apply Qltb_true in K2. rewrite K3, K2. cbn [negb orb]. rewrite !andb_false_r.
      destruct (negb (X i) && X v && true); lra.
Qed.
Print Assumptions C30_contract_preserves_cuts_iff.

(** Contracting the ends of the path 0-1-2: node 1 has an arc from and an arc to the contracted set and
    the second one disappears. *)
Definition path3 : gst := mkG [0;1;2]%nat [mkArc 0 1 3; mkArc 1 2 4].
Example C30_witness :
  digraph_contract (1 # 10000000000) path3 [0;2]%nat 0 = Ok (mkG [0;1]%nat [mkArc 0 1 3]) /\
  incut [mkArc 0 1 3] (mem [0;2]%nat) == 0 /\ incut (garcs path3) (mem [0;2]%nat) == 4.
Proof. split; [vm_compute; reflexivity|split; reflexivity]. Qed.

Theorem C30_contract_refuted :
  ~ (forall eps G S i G', 0 < eps -> NoDup (gnodes G) ->
       (forall a, In a (garcs G) -> (asrc a < adst a)%nat /\ In (asrc a) (gnodes G) /\
                                    In (adst a) (gnodes G) /\ eps < aw a) ->
       In i S -> digraph_contract eps G S i = Ok G' ->
       forall X, (forall s, In s S -> X s = X i) ->
         incut (garcs G') X + incut (garcs G') (fun v => negb (X v)) ==
         incut (garcs G) X + incut (garcs G) (fun v => negb (X v))).
Proof.
  intro H. destruct C30_witness as (A & _).
  assert (K := H (1 # 10000000000) path3 [0;2]%nat 0%nat _ ltac:(reflexivity)
    ltac:(repeat constructor; simpl; intuition discriminate)
    ltac:(intros a [<-|[<-|[]]]; (split; [simpl; lia|]; split; [simpl; auto|]; split; [simpl; auto|reflexivity]))
    ltac:(left; reflexivity) A (mem [0;2]%nat)
    ltac:(intros s [<-|[<-|[]]]; reflexivity)).
  vm_compute in K. discriminate K.
Qed.
Print Assumptions C30_contract_refuted.

(** The four-node graph of the test suite: nothing lost. *)
Definition four : gst := mkG [0;1;2;3]%nat [mkArc 0 1 1; mkArc 0 2 1; mkArc 0 3 (1#2); mkArc 1 2 5; mkArc 2 3 2].
Example C30_nonvacuous :
  digraph_contract (1 # 10000000000) four [1;2;3]%nat 2 = Ok (mkG [0;2]%nat [mkArc 0 2 (5 # 2)]) /\
  (forall v, In v (gnodes four) -> ~ In v [1;2;3]%nat ->
      to_set (garcs four) [1;2;3]%nat v == 5 # 2 /\ from_set (garcs four) [1;2;3]%nat v == 0).
Proof.
  split; [vm_compute; reflexivity|]. intros v [<-|Hv] Hn; [split; reflexivity|]. simpl in Hv, Hn. intuition.
Qed.

(** ** C31 *)
Lemma scan_stop fuel valid T : copy_scan fuel valid None T = Ok T.
Proof. destruct fuel; reflexivity. Qed.

Lemma scan_all m valid v : forall fuel, (v < fuel)%nat -> (forall u, (u <= v)%nat -> valid u = true) ->
  copy_scan fuel valid (Some v) (tab_new m) = Ok (tab_new m).
Proof.
  induction v as [|v IH]; intros fuel Hf Hv; (destruct fuel as [|fuel]; [lia|]); cbn [copy_scan]; cbv zeta;
    rewrite Hv by lia; cbn [nx tab_new].
  - apply scan_stop.
  - apply IH; [lia|]. intros u Hu. apply Hv. lia.
Qed.

Lemma scan_gap m valid v g : forall fuel, (v < fuel)%nat -> (g <= v)%nat -> valid g = false ->
  (forall u, (g < u <= v)%nat -> valid u = true) ->
  copy_scan fuel valid (Some v) (tab_new m) = Ok (tab_erase (tab_new m) g).
Proof.
  induction v as [|v IH]; intros fuel Hf Hg Hvg Hv; (destruct fuel as [|fuel]; [lia|]); cbn [copy_scan]; cbv zeta.
  - assert (g = 0%nat) by lia. subst g. rewrite Hvg. cbn [nx tab_erase upd_opt]. rewrite Nat.eqb_refl.
    cbn [free tab_new]. apply scan_stop.
  - destruct (Nat.eq_dec g (S v)) as [->|Ng].
    + rewrite Hvg. cbn [nx tab_erase]. unfold upd_opt at 1. rewrite Nat.eqb_refl. cbn [free tab_new]. apply scan_stop.
    + rewrite (Hv (S v)) by lia. cbn [nx tab_new]. apply IH; try lia; auto. intros u Hu. apply Hv. lia.
Qed.

(** Either every id below [m] is in use or there is a largest one that is not. *)
Lemma largest_gap m valid :
  (forall u, (u < m)%nat -> valid u = true) \/
  (exists g, (g < m)%nat /\ valid g = false /\ forall u, (g < u < m)%nat -> valid u = true).
Proof.
  induction m as [|m IH]; [left; intros; lia|]. destruct (valid m) eqn:E.
  - destruct IH as [H|(g & H1 & H2 & H3)].
    + left. intros u Hu. destruct (Nat.eq_dec u m) as [->|N]; auto. apply H. lia.
    + right. exists g. split; [lia|]. split; auto. intros u Hu. destruct (Nat.eq_dec u m) as [->|N]; auto.
      apply H3. lia.
  - right. exists m. split; [lia|]. split; auto. intros u Hu. lia.
Qed.

Lemma flat_map_ext_in' {A B} (f g : A -> list B) l : (forall x, In x l -> f x = g x) -> flat_map f l = flat_map g l.
Proof. induction l; simpl; intro H; [reflexivity|]. rewrite H, IHl; auto. Qed.

Lemma arc_order_perm G : NoDup (gnodes G) -> (forall a, In a (garcs G) -> In (asrc a) (gnodes G)) ->
  Permutation (arc_order G) (garcs G).
Proof.
  intros Hn Ha. unfold arc_order. apply Permutation_trans with (rev (garcs G)); [|symmetry; apply Permutation_rev].
  assert (Ha' : forall a, In a (rev (garcs G)) -> In (asrc a) (rev (gnodes G))).
  { intros a H. apply in_rev in H. apply -> in_rev. auto. }
  assert (Hn' : NoDup (rev (gnodes G))) by (apply NoDup_rev; auto).
  revert Ha' Hn'. generalize (rev (garcs G)) (rev (gnodes G)). clear. intros E l. revert E.
  induction l as [|v l IH]; intros E Ha Hn; simpl.
  - destruct E as [|a E]; [constructor|]. destruct (Ha a (or_introl eq_refl)).
  - inversion Hn; subst.
    apply Permutation_trans with (filter (fun a => (asrc a =? v)%nat) E ++ filter (fun a => negb (asrc a =? v)%nat) E).
    + apply Permutation_app_head.
      rewrite (flat_map_ext_in' _ (fun u => filter (fun a => (asrc a =? u)%nat) (filter (fun a => negb (asrc a =? v)%nat) E))).
      * apply IH; auto. intros a Hf. apply filter_In in Hf. destruct Hf as [Hf1 Hf2].
        destruct (Ha a Hf1) as [K|K]; auto. rewrite K, Nat.eqb_refl in Hf2. discriminate Hf2.
      * intros u Hu. clear - Hu H1. induction E as [|a E IHE]; [reflexivity|]. simpl.
        destruct (asrc a =? v)%nat eqn:E1; simpl.
        -- destruct (asrc a =? u)%nat eqn:E2; [|exact IHE].
           apply Nat.eqb_eq in E1. apply Nat.eqb_eq in E2. congruence.
        -- destruct (asrc a =? u)%nat; [f_equal|]; exact IHE.
    + clear. induction E as [|a E IHE]; simpl; [constructor|].
      destruct (asrc a =? v)%nat; simpl; [constructor; auto|].
      apply Permutation_sym, Permutation_cons_app, Permutation_sym. exact IHE.
Qed.

(** C31.  [m] is the number of node ids the old graph has ever handed out.  The arcs are copied with
    their weights; of the nodes, all live ones are copied, but only the largest unused id is erased:
    the loop at line 8 steps on from a node it has just erased. *)
Theorem C31_copy : forall m G,
  NoDup (gnodes G) -> (forall v, In v (gnodes G) -> (v < m)%nat) ->
  (forall a, In a (garcs G) -> In (asrc a) (gnodes G) /\ In (adst a) (gnodes G)) ->
  exists G', digraph_copy m G = Ok G' /\ Permutation (garcs G') (garcs G) /\ NoDup (gnodes G') /\
    (forall v, In v (gnodes G') <->
       In v (gnodes G) \/
       ((v < m)%nat /\ ~ In v (gnodes G) /\ exists w, (v < w < m)%nat /\ ~ In w (gnodes G))).
Proof.
  intros m G Hn Hm Ha.
  assert (HP : Permutation (arc_order G) (garcs G)) by (apply arc_order_perm; auto; intros a Ha1; apply Ha; auto).
  assert (MF : forall v, mem (gnodes G) v = false <-> ~ In v (gnodes G)).
  { intro v. rewrite <- mem_true_In. destruct (mem (gnodes G) v); split; intro; try congruence. }
  unfold digraph_copy. destruct (largest_gap m (mem (gnodes G))) as [H|(g & Hg & Hgv & Hgu)].
  - assert (R : copy_scan (S m) (mem (gnodes G)) (match m with O => None | S m' => Some m' end) (tab_new m) = Ok (tab_new m)).
    { destruct m as [|m]; [reflexivity|]. apply scan_all; [lia|]. intros u Hu. apply H. lia. }
    rewrite R. cbn [bind]. eexists. split; [reflexivity|]. cbn [gnodes garcs]. split; [exact HP|].
    split; [apply NoDup_filter, seq_NoDup|]. intro v. rewrite filter_In, in_seq. cbn [alive tab_new]. split.
    + intros [K _]. left. apply mem_true_In. apply H. lia.
    + intros [K|(K1 & K2 & _)].
      * split; [apply Hm in K; lia|]. apply Nat.ltb_lt. auto.
      * split; [lia|]. apply Nat.ltb_lt. auto.
  - assert (R : copy_scan (S m) (mem (gnodes G)) (match m with O => None | S m' => Some m' end) (tab_new m) = Ok (tab_erase (tab_new m) g)).
    { destruct m as [|m]; [lia|]. apply scan_gap; try lia; auto. intros u Hu. apply Hgu. lia. }
    rewrite R. cbn [bind]. eexists. split; [reflexivity|]. cbn [gnodes garcs]. split; [exact HP|].
    split; [apply NoDup_filter, seq_NoDup|]. intro v. rewrite filter_In, in_seq. cbn [alive tab_erase tab_new].
    destruct (v =? g)%nat eqn:Ev; [apply Nat.eqb_eq in Ev|apply Nat.eqb_neq in Ev].
    + subst v. split; [intros [_ K]; discriminate K|]. intros [K|(_ & _ & w & Hw & K)].
      * apply mem_true_In in K. congruence.
      * apply MF in K. rewrite Hgu in K by lia. discriminate K.
    + rewrite Nat.ltb_lt. split.
      * intros [K _]. destruct (mem (gnodes G) v) eqn:Em; [left; apply mem_true_In; auto|].
        right. split; [lia|]. split; [apply MF; auto|]. exists g. split; [|apply MF; auto].
        assert (v < g \/ g < v)%nat by lia. destruct H as [H|H]; [lia|]. rewrite Hgu in Em by lia. discriminate Em.
      * intros [K|(K1 & _)]; [apply Hm in K|]; lia.
Qed.
Print Assumptions C31_copy.

(** Faithful exactly if at most one id is unused. *)
Theorem C31_copy_faithful_iff : forall m G,
  NoDup (gnodes G) -> (forall v, In v (gnodes G) -> (v < m)%nat) ->
  (forall a, In a (garcs G) -> In (asrc a) (gnodes G) /\ In (adst a) (gnodes G)) ->
  exists G', digraph_copy m G = Ok G' /\ Permutation (garcs G') (garcs G) /\
    ((forall v, In v (gnodes G') <-> In v (gnodes G)) <->
     (forall u v, (u < m)%nat -> (v < m)%nat -> ~ In u (gnodes G) -> ~ In v (gnodes G) -> u = v)).
Proof.
  intros m G Hn Hm Ha. destruct (C31_copy m G Hn Hm Ha) as (G' & H1 & H2 & _ & H3).
  exists G'. split; auto. split; auto. split.
  - intros H u v Hu Hv Nu Nv. destruct (Nat.lt_trichotomy u v) as [L|[L|L]]; auto; exfalso.
    + apply Nu. apply H. apply H3. right. split; auto. split; auto. exists v. split; auto.
    + apply Nv. apply H. apply H3. right. split; auto. split; auto. exists u. split; auto.
  - intros H v. rewrite H3. split; [|auto]. intros [K|(K1 & K2 & w & K3 & K4)]; auto.
    assert (v = w) by (apply H; auto; lia). lia.
Qed.
Print Assumptions C31_copy_faithful_iff.

(** The graph of the test suite has one erased node and is copied; with two erased nodes
    one of them is alive in the copy. *)
Example C31_nonvacuous :
  digraph_copy 3 (mkG [0;2]%nat [mkArc 0 2 4]) = Ok (mkG [0;2]%nat [mkArc 0 2 4]).
Proof. vm_compute. reflexivity. Qed.
Example C31_witness :
  digraph_copy 4 (mkG [0;3]%nat [mkArc 0 3 4]) = Ok (mkG [0;1;3]%nat [mkArc 0 3 4]).
Proof. vm_compute. reflexivity. Qed.
Theorem C31_copy_refuted :
  ~ (forall m G G', NoDup (gnodes G) -> (forall v, In v (gnodes G) -> (v < m)%nat) ->
       digraph_copy m G = Ok G' -> forall v, In v (gnodes G') -> In v (gnodes G)).
Proof.
  intro H. assert (K := H 4%nat (mkG [0;3]%nat [mkArc 0 3 4]) (mkG [0;1;3]%nat [mkArc 0 3 4]) ltac:(repeat constructor; simpl; intuition discriminate)
    ltac:(intros v [<-|[<-|[]]]; lia) C31_witness 1%nat ltac:(simpl; auto)). simpl in K. intuition discriminate.
Qed.
Print Assumptions C31_copy_refuted.
