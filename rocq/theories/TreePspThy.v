(** * TreePspThy: get_psp.py computes the principal sequence of a weighted tree. *)
From Coq Require Import Sorted.
From Verif Require Import Base Graph MSets MContract MTreePsp Spec PartThy SetsThy.

(** ** Dicts *)
Lemma dget_dset D k l x : dget (dset D k l) x = if (k =? x)%nat then Some l else dget D x.
Proof.
  induction D as [|p D IH]; simpl; [destruct (k =? x)%nat; auto|].
  destruct (Nat.eqb_spec (fst p) k) as [e|e]; simpl.
  - destruct (Nat.eqb_spec k x) as [f|f]; auto. destruct (Nat.eqb_spec (fst p) x); auto; congruence.
  - destruct (Nat.eqb_spec (fst p) x) as [f|f]; auto. destruct (Nat.eqb_spec k x); auto; congruence.
Qed.

Lemma dget_dpop D k x : dget (dpop D k) x = if (k =? x)%nat then None else dget D x.
Proof.
  induction D as [|p D IH]; simpl; [destruct (k =? x)%nat; auto|].
  destruct (Nat.eqb_spec (fst p) k) as [e|e]; simpl.
  - rewrite IH. destruct (Nat.eqb_spec k x) as [f|f]; auto. destruct (Nat.eqb_spec (fst p) x); auto; congruence.
  - rewrite IH. destruct (Nat.eqb_spec (fst p) x) as [f|f]; auto. destruct (Nat.eqb_spec k x); auto; congruence.
Qed.

Lemma dset_keys D k l x : In x (map fst (dset D k l)) <-> x = k \/ In x (map fst D).
Proof.
  induction D as [|p D IH]; simpl; [intuition|].
  destruct (Nat.eqb_spec (fst p) k) as [e|e]; simpl; [rewrite <- e; intuition|]. rewrite IH. intuition.
Qed.

Lemma dset_nd D k l : NoDup (map fst D) -> NoDup (map fst (dset D k l)).
Proof.
  induction D as [|p D IH]; simpl; intro H; [constructor; auto|]. inversion H; subst.
  destruct (Nat.eqb_spec (fst p) k) as [e|e]; simpl; [rewrite <- e; auto|].
  constructor; auto. rewrite dset_keys. intros [C|C]; auto.
Qed.

Lemma dpop_keys D k x : In x (map fst (dpop D k)) -> In x (map fst D).
Proof. unfold dpop. rewrite !in_map_iff. intros (p & <- & H). apply filter_In in H. exists p. tauto. Qed.

Lemma dpop_nd D k : NoDup (map fst D) -> NoDup (map fst (dpop D k)).
Proof.
  induction D as [|p D IH]; simpl; intro H; [constructor|]. inversion H; subst.
  destruct (negb (fst p =? k)%nat); simpl; auto. constructor; auto. intro C. apply dpop_keys in C. auto.
Qed.

Lemma dget_In D k l : NoDup (map fst D) -> (dget D k = Some l <-> In (k, l) D).
Proof.
  induction D as [|p D IH]; simpl; intro H; [split; [discriminate|tauto]|]. inversion H; subst.
  destruct (Nat.eqb_spec (fst p) k) as [e|e].
  - split; [intro X; injection X as <-; left; destruct p; simpl in *; congruence|].
    intros [X|X]; [subst p; auto|]. exfalso. apply H2. rewrite e. apply in_map_iff. exists (k, l). auto.
  - rewrite (IH H3). split; auto. intros [X|X]; auto. subst p. simpl in e. congruence.
Qed.

(** ** Partitions given by an owner function *)
Lemma nd_concat_own (own : nat -> nat) : forall P : list (list nat),
  (forall B, In B P -> NoDup B) -> (forall B v, In B P -> In v B -> own v = own (hd 0%nat B)) ->
  NoDup (map (fun B => own (hd 0%nat B)) P) -> NoDup (concat P).
Proof.
  induction P as [|B P IH]; simpl; intros H1 H2 H3; [constructor|]. inversion H3; subst.
  assert (X : NoDup (concat P)) by (apply IH; auto; intros; apply H2; auto).
  assert (Y : NoDup B) by auto.
  assert (Z : forall v, In v B -> ~ In v (concat P)).
  { intros v Hv C. apply in_concat in C. destruct C as (C & HC & Hv'). apply H4. apply in_map_iff. exists C. split; auto.
    rewrite <- (H2 C v); auto. }
  clear -X Y Z. induction B as [|b B IH]; simpl; auto. inversion Y; subst. constructor.
  - rewrite in_app_iff. intros [C|C]; auto. exact (Z b (or_introl eq_refl) C).
  - apply IH; auto. intros v Hv. apply Z. right. auto.
Qed.

(** The tree with edges {j, K[j]} of weight W[j] as a graph; node 0 is the root. *)
Definition tree_graph (n : nat) (K : list nat) (W : list Q) : graph :=
  map (fun j => mkArc (nth j K 0%nat) j (nth j W 0)) (seq 1 (n - 1)).

Section Tree.
  Variables (n : nat) (K : list nat) (W : list Q).
  Notation vs := (seq 0 n).
  Notation k j := (nth j K 0%nat).
  Notation w j := (nth j W 0).
  Hypothesis LK : length K = n.
  Hypothesis LW : length W = n.
  Hypothesis Hn : (1 <= n)%nat.
  Hypothesis HK : forall j, (0 < j < n)%nat -> (k j < n)%nat.
  Hypothesis HW : forall j, (0 < j < n)%nat -> 0 <= w j.
  Hypothesis Hroot : forall j, (0 < j < n)%nat -> w 0 <= w j.
  Hypothesis Hheap : forall j, (0 < j < n)%nat -> k j <> 0%nat -> w (k j) < w j.

  Notation E := (tree_graph n K W).

  Lemma k_neq j : (0 < j < n)%nat -> k j <> j.
  Proof.
    intros H e. destruct (Nat.eq_dec (k j) 0) as [z|z]; [lia|]. assert (X := Hheap j H z). rewrite e in X. lra.
  Qed.

  Lemma in_tree j : In j (seq 1 (n - 1)) <-> (0 < j < n)%nat.
  Proof. rewrite in_seq. clear -n. lia. Qed.

  Lemma tree_crossing R : crossing E R == qsum (fun j => if same_part R (k j) j then 0 else w j) (seq 1 (n - 1)).
  Proof. unfold crossing, tree_graph. induction (seq 1 (n - 1)); simpl; [reflexivity|]. rewrite IHl. reflexivity. Qed.

  (** A set of nodes without the root is left by an edge to a parent. *)
  Lemma leaving B : B <> [] -> (forall v, In v B -> (0 < v < n)%nat) -> exists j, In j B /\ ~ In (k j) B.
  Proof.
    intros HB Hv.
    assert (X : exists m, In m B /\ forall v, In v B -> w m <= w v).
    { clear -HB. induction B as [|b B IH]; [congruence|]. destruct B as [|c B].
      - exists b. split; [left; auto|]. intros v [<-|[]]. lra.
      - destruct IH as (m & Hm & Hmin); [discriminate|]. destruct (Qlt_le_dec (w b) (w m)) as [H|H].
        + exists b. split; [left; auto|]. intros v [<-|Hv]; [lra|]. specialize (Hmin v Hv). lra.
        + exists m. split; [right; auto|]. intros v [<-|Hv]; auto. }
    destruct X as (m & Hm & Hmin). exists m. split; auto. intro C.
    assert (Y := Hv _ C). assert (Z := Hheap m (Hv m Hm) ltac:(lia)). specialize (Hmin _ C). lra.
  Qed.

  Lemma exits_bound : forall R, NoDup (concat R) ->
    (forall B, In B R -> B <> [] /\ forall v, In v B -> (0 < v < n)%nat) ->
    exists l, length l = length R /\ NoDup l /\
      forall j, In j l -> exists B, In B R /\ In j B /\ ~ In (k j) B.
  Proof.
    induction R as [|B R IH]; simpl; intros ND H.
    - exists []. split; auto. split; [constructor|]. intros j [].
    - apply NoDup_app_inv in ND. destruct ND as (_ & ND' & ND3). destruct (IH ND' ltac:(auto)) as (l & L1 & L2 & L3).
      destruct (H B (or_introl eq_refl)) as [HB Hv]. destruct (leaving B HB Hv) as (j & Hj & Hk).
      exists (j :: l). simpl. split; [lia|]. split.
      + constructor; auto. intro C. destruct (L3 j C) as (B' & HB' & Hj' & _).
        apply (ND3 j Hj). apply in_concat. eauto.
      + intros i [<-|Hi]; [exists B; auto|]. destruct (L3 i Hi) as (B' & HB' & A). exists B'. tauto.
  Qed.

  Lemma parts_bound R : is_partition vs R ->
    (length R <= 1 + length (filter (fun j => negb (same_part R (k j) j)) (seq 1 (n - 1))))%nat.
  Proof.
    intro HR. assert (ND := part_NoDup _ (seq_NoDup n 0) R HR).
    destruct (part_cover vs R 0%nat HR) as (B0 & HB0 & H0); [apply in_seq; lia|].
    destruct (in_split _ _ HB0) as (R1 & R2 & ER).
    assert (PR : Permutation R (B0 :: R1 ++ R2)) by (rewrite ER; symmetry; apply Permutation_middle).
    assert (HR' := part_perm _ _ _ PR HR). assert (ND' := part_NoDup _ (seq_NoDup n 0) _ HR'). simpl in ND'.
    apply NoDup_app_inv in ND'. destruct ND' as (_ & ND2 & ND3).
    destruct (exits_bound (R1 ++ R2)) as (l & L1 & L2 & L3); auto.
    { intros B HB. assert (HB' : In B (B0 :: R1 ++ R2)) by (right; auto). split.
      - intro C. subst B. exact (proj2 HR' HB').
      - intros v Hv. assert (X := part_incl _ _ B HR' HB' v Hv). apply in_seq in X. destruct v; [|lia].
        exfalso. apply (ND3 0%nat H0). apply in_concat. eauto. }
    rewrite (Permutation_length PR). simpl. rewrite <- L1. apply le_n_S. apply NoDup_incl_length; auto.
    intros j Hj. destruct (L3 j Hj) as (B & HB & Hj' & Hk).
    assert (HB' : In B (B0 :: R1 ++ R2)) by (right; auto).
    apply filter_In. split.
    - apply in_tree. assert (X := part_incl _ _ B HR' HB' j Hj'). apply in_seq in X. destruct j; [|lia].
      exfalso. apply (ND3 0%nat H0). apply in_concat. eauto.
    - rewrite negb_true_iff. destruct (same_part R (k j) j) eqn:S; auto. apply same_part_true in S.
      destruct S as (C & HC & Hc1 & Hc2). exfalso. apply Hk.
      assert (Y : C = B).
      { apply (part_unique vs R C B j); auto using seq_NoDup. apply (Permutation_in _ (Permutation_sym PR)). auto. }
      subst C. auto.
  Qed.

  Lemma filter_qsum (p : nat -> bool) (f : nat -> Q) lam l :
    qsum (fun j => if p j then 0 else f j) l - lam * qn (length (filter (fun j => negb (p j)) l)) ==
    qsum (fun j => if p j then 0 else f j - lam) l.
  Proof.
    induction l as [|j l IH]; simpl; [unfold qn; simpl; ring|]. destruct (p j); simpl; rewrite <- IH; [ring|].
    assert (X : qn (S (length (filter (fun j => negb (p j)) l))) == qn (length (filter (fun j => negb (p j)) l)) + 1).
    { unfold qn. rewrite Nat2Z.inj_succ. unfold Z.succ. rewrite inject_Z_plus. reflexivity. }
    rewrite X. ring.
  Qed.

  (** Cutting exactly the edges that are lighter than lambda is optimal. *)
  Lemma tree_optimal (done : nat -> bool) P lam : is_partition vs P ->
    (forall j, (0 < j < n)%nat -> same_part P (k j) j = done j) ->
    length P = (1 + length (filter (fun j => negb (done j)) (seq 1 (n - 1))))%nat ->
    (forall j, (0 < j < n)%nat -> if done j then lam <= w j else w j <= lam) ->
    optimal E vs lam P.
  Proof.
    intros HP Hs HL Hl. split; auto. intros R HR.
    assert (B := parts_bound R HR).
    set (c := fun R => filter (fun j => negb (same_part R (k j) j)) (seq 1 (n - 1))) in *.
    assert (LP : length P = (1 + length (c P))%nat).
    { rewrite HL. unfold c. f_equal. f_equal. apply filter_ext_in. intros j Hj. apply in_tree in Hj. rewrite Hs; auto. }
    unfold hval. rewrite !tree_crossing.
    assert (G : forall R, qsum (fun j => if same_part R (k j) j then 0 else w j) (seq 1 (n - 1)) ==
      qsum (fun j => if same_part R (k j) j then 0 else w j - lam) (seq 1 (n - 1)) + lam * qn (length (c R))).
    { intro R0. rewrite <- (filter_qsum (fun j => same_part R0 (k j) j)). unfold c. ring. }
    assert (M : qsum (fun j => if same_part P (k j) j then 0 else w j - lam) (seq 1 (n - 1)) <=
                qsum (fun j => if same_part R (k j) j then 0 else w j - lam) (seq 1 (n - 1))).
    { apply qsum_le. intros j Hj. apply in_tree in Hj. rewrite (Hs j Hj). specialize (Hl j Hj).
      destruct (done j), (same_part R (k j) j); lra. }
    assert (Q1 : forall m, qn (1 + m) == qn m + 1).
    { intro m. unfold qn. simpl. rewrite Zpos_P_of_succ_nat. unfold Z.succ. rewrite inject_Z_plus. reflexivity. }
    destruct (Qlt_le_dec lam 0) as [N|N].
    - assert (Z : forall j, (0 < j < n)%nat -> done j = true).
      { intros j Hj. specialize (Hl j Hj). specialize (HW j Hj). destruct (done j); auto. lra. }
      assert (C0 : qsum (fun j => if same_part P (k j) j then 0 else w j) (seq 1 (n - 1)) == 0).
      { apply qsum_zero. intros j Hj. apply in_tree in Hj. rewrite Hs, Z; auto. reflexivity. }
      assert (CR : 0 <= qsum (fun j => if same_part R (k j) j then 0 else w j) (seq 1 (n - 1))).
      { apply qsum_nonneg. intros j Hj. apply in_tree in Hj. specialize (HW j Hj). destruct (same_part R (k j) j); lra. }
      assert (L1 : length P = 1%nat).
      { rewrite HL. replace (filter (fun j => negb (done j)) (seq 1 (n - 1))) with (@nil nat); auto.
        symmetry. assert (X : forall l, (forall j, In j l -> done j = true) -> filter (fun j => negb (done j)) l = []).
        { induction l; simpl; intro H; auto. rewrite (H a) by auto. simpl. auto. }
        apply X. intros j Hj. apply Z. apply in_tree in Hj. auto. }
      assert (L2 : (1 <= length R)%nat).
      { apply (part_length_pos vs (seq_NoDup n 0) R); auto. intro C. apply (f_equal (@length nat)) in C. rewrite seq_length in C. simpl in C. lia. }
      rewrite C0, L1. change (qn 1) with 1. apply (qn_le 1) in L2. change (qn 1) with 1 in L2.
      assert (0 <= (- lam) * (qn (length R) - 1)) by (apply Qmult_le_0_compat; lra). lra.
    - rewrite (G P), (G R), LP, Q1. apply qn_le in B. rewrite Q1 in B. change (qn (length R) <= qn (length (c R)) + 1) in B.
      assert (0 <= lam * (qn (length (c R)) + 1 - qn (length R))) by (apply Qmult_le_0_compat; lra). lra.
  Qed.

  (** The node that a merged node waits for has been reached before. *)
  Hypothesis Hent : forall j, (0 < j < n)%nat -> (exists c, (0 < c < n)%nat /\ k c = j) ->
    (exists i, (0 < i < n)%nat /\ k i = k j /\ (w j < w i \/ (w i == w j /\ (i < j)%nat))) \/
    (k j = 0%nat /\ w 0 == w j).
  Hypothesis HK0 : k 0 = 0%nat.

  (** [D] describes the clusters after the nodes of [done] have been merged into their parents; [own] maps
      a node to the topmost node of its cluster. *)
  Record PInv (done : nat -> bool) (own : nat -> nat) (D : dict) : Prop := mkPInv {
    o1 : forall v, (v < n)%nat -> (own v < n)%nat /\ (own v = 0%nat \/ done (own v) = false);
    o2 : forall v, (v < n)%nat -> v = 0%nat \/ done v = false -> own v = v;
    o3 : forall j, (0 < j < n)%nat -> done j = true -> own j = own (k j);
    dcl : forall c, (0 < c < n)%nat -> (0 < k c)%nat -> done (k c) = true -> done c = true;
    d1 : forall x l, dget D x = Some l -> (x < n)%nat /\ own x = x /\
           (forall v, In v l <-> (v < n)%nat /\ own v = x) /\ (done 0%nat = false -> NoDup l);
    d2 : forall v, (v < n)%nat -> own v <> v -> dget D (own v) <> None;
    d3 : done 0%nat = true -> dget D 0 <> None;
    d4 : forall x l, dget D x = Some l -> (0 < x)%nat -> exists c, (0 < c < n)%nat /\ k c = x;
    dk : NoDup (map fst D);
    o5 : forall v, (v < n)%nat -> (0 < own v)%nat -> w (own v) <= w v
  }.

  Definition also (done : nat -> bool) (j : nat) : nat -> bool := fun x => (x =? j)%nat || done x.

  Lemma own_idem done own D v : PInv done own D -> (v < n)%nat -> own (own v) = own v.
  Proof. intros I Hv. destruct (o1 _ _ _ I v Hv) as [A B]. apply (o2 _ _ _ I); auto. Qed.

  (** Nobody but [x] is in the cluster of a node without entry. *)
  Lemma lonely done own D x v : PInv done own D -> dget D x = None -> (v < n)%nat -> own v = x -> v = x.
  Proof.
    intros I H Hv e. destruct (Nat.eq_dec v x) as [|N]; auto. exfalso. apply (d2 _ _ _ I v Hv); congruence.
  Qed.

  (** Merging node [j] into its parent. *)
  Lemma merge_step done own D j : PInv done own D -> (0 < j < n)%nat -> done j = false ->
    (forall c, (0 < c < n)%nat -> k c = j -> done c = true) ->
    (dget D j <> None -> dget D (k j) <> None) ->
    forall D', D' = (match dget D j with
          | Some l => match dget D (k j) with None => dpop (dset D (k j) l) j | Some l' => dpop (dset D (k j) (l' ++ l)) j end
          | None => match dget D (k j) with None => dset D (k j) [j; k j] | Some l' => dset D (k j) (l' ++ [j]) end
          end) ->
    PInv (also done j) (fun v => if (own v =? j)%nat then k j else own v) D'.
  Proof.
    intros I Hj Hd Hc He D' ED.
    assert (Hk := HK j Hj). assert (Hkj := k_neq j Hj).
    assert (K1 : k j = 0%nat \/ done (k j) = false).
    { destruct (k j) as [|m] eqn:Ek; auto. right. destruct (done (S m)) eqn:X; auto.
      rewrite (dcl _ _ _ I j Hj) in Hd; [discriminate| |]; rewrite Ek; auto. lia. }
    assert (K2 : own (k j) = k j) by (apply (o2 _ _ _ I); auto).
    assert (K3 : own j = j) by (apply (o2 _ _ _ I); auto; lia).
    assert (OJ : forall v, (v < n)%nat -> own v = j -> dget D j = None -> v = j) by (intros v Hv e H; exact (lonely _ _ _ _ _ I H Hv e)).
    constructor.
    - intros v Hv. destruct (o1 _ _ _ I v Hv) as [A B]. unfold also. destruct (Nat.eqb_spec (own v) j) as [e|e].
      + split; auto. destruct K1 as [->|K1]; auto. right. rewrite K1. destruct (Nat.eqb_spec (k j) j); auto. congruence.
      + split; auto. destruct B as [B|B]; auto. right. rewrite B. destruct (Nat.eqb_spec (own v) j); auto. congruence.
    - intros v Hv H. assert (X : v <> j).
      { intro C. subst v. destruct H as [H|H]; [lia|]. unfold also in H. rewrite Nat.eqb_refl in H. discriminate. }
      assert (Y : own v = v).
      { apply (o2 _ _ _ I); auto. destruct H as [H|H]; auto. right. unfold also in H. apply orb_false_iff in H. tauto. }
      rewrite Y. destruct (Nat.eqb_spec v j); congruence.
    - intros i Hi H. destruct (Nat.eq_dec i j) as [->|N].
      + rewrite K3, Nat.eqb_refl, K2. destruct (Nat.eqb_spec (k j) j); congruence.
      + unfold also in H. destruct (Nat.eqb_spec i j); [congruence|]. simpl in H. rewrite (o3 _ _ _ I i Hi H). auto.
    - intros c Hc' Hk' H. unfold also in *. destruct (Nat.eqb_spec (k c) j) as [e|e].
      + rewrite (Hc c Hc' e). apply orb_true_r.
      + simpl in H. rewrite (dcl _ _ _ I c Hc' Hk' H). apply orb_true_r.
    - intros x l Hx.
      assert (OUT : x <> j -> x <> k j -> dget D x = Some l -> (x < n)%nat /\
        (if (own x =? j)%nat then k j else own x) = x /\
        (forall v, In v l <-> (v < n)%nat /\ (if (own v =? j)%nat then k j else own v) = x) /\ (also done j 0%nat = false -> NoDup l)).
      { intros N1 N2 Hg. destruct (d1 _ _ _ I x l Hg) as (A & B & C & F). split; auto. split.
        { rewrite B. destruct (Nat.eqb_spec x j); congruence. }
        split.
        - intro v. rewrite C. destruct (Nat.eqb_spec (own v) j) as [e|e]; [|tauto]. split; intros [? ?]; split; congruence.
        - intro G. apply F. unfold also in G. apply orb_false_iff in G. tauto. }
      assert (IN : forall l', (forall v, In v l' <-> (v < n)%nat /\ (own v = k j \/ own v = j)) ->
        (done 0%nat = false -> NoDup l') -> x = k j -> l = l' -> (x < n)%nat /\
        (if (own x =? j)%nat then k j else own x) = x /\
        (forall v, In v l <-> (v < n)%nat /\ (if (own v =? j)%nat then k j else own v) = x) /\ (also done j 0%nat = false -> NoDup l)).
      { intros l' A B -> ->. split; auto. split.
        { rewrite K2. destruct (Nat.eqb_spec (k j) j); auto. }
        split.
        - intro v. rewrite A. destruct (Nat.eqb_spec (own v) j) as [e|e]; split; intros [? ?]; split; auto; tauto.
        - intro G. apply B. unfold also in G. apply orb_false_iff in G. tauto. }
      destruct (dget D j) as [lj|] eqn:Ej.
      + destruct (dget D (k j)) as [lk|] eqn:Ek; [|exfalso; apply He; auto; discriminate].
        subst D'. rewrite dget_dpop in Hx. destruct (Nat.eqb_spec j x) as [|N]; [discriminate|].
        rewrite dget_dset in Hx. destruct (Nat.eqb_spec (k j) x) as [e|e]; [|apply OUT; congruence].
        injection Hx as <-. destruct (d1 _ _ _ I j lj Ej) as (_ & _ & A1 & A2). destruct (d1 _ _ _ I _ lk Ek) as (_ & _ & B1 & B2).
        apply (IN (lk ++ lj)); auto.
        * intro v. rewrite in_app_iff, A1, B1. tauto.
        * intro G. apply NoDup_app_intro; auto. intros v Hv1 Hv2. apply A1 in Hv2. apply B1 in Hv1. destruct Hv1, Hv2. congruence.
      + destruct (dget D (k j)) as [lk|] eqn:Ek; subst D'; rewrite dget_dset in Hx.
        * destruct (Nat.eqb_spec (k j) x) as [e|e].
          -- injection Hx as <-. destruct (d1 _ _ _ I _ lk Ek) as (_ & _ & B1 & B2). apply (IN (lk ++ [j])); auto.
             ++ intro v. rewrite in_app_iff, B1. simpl. split.
                ** intros [[? ?]|[<-|[]]]; split; auto; lia.
                ** intros [Hv [e'|e']]; auto. right. left. symmetry. auto.
             ++ intro G. apply NoDup_app_intro; auto; [repeat constructor; auto|]. intros v Hv [<-|[]]. apply B1 in Hv. destruct Hv. congruence.
          -- apply OUT; auto. intro C. subst x. congruence.
        * destruct (Nat.eqb_spec (k j) x) as [e|e].
          -- injection Hx as <-. apply (IN [j; k j]); auto.
             ++ intro v. simpl. split.
                ** intros [<-|[<-|[]]]; split; auto; lia.
                ** intros [Hv [e'|e']]; [right; left; symmetry; exact (lonely _ _ _ _ _ I Ek Hv e')|left; symmetry; auto].
             ++ intro G. repeat constructor; simpl; auto. intros [C|[]]; auto.
          -- apply OUT; auto. intro C. subst x. congruence.
    - intros v Hv H.
      assert (X : forall x, x <> j -> x = k j \/ dget D x <> None -> dget D' x <> None).
      { intros x Nx Hx. subst D'. destruct (dget D j) as [lj|] eqn:Ej; destruct (dget D (k j)) as [lk|] eqn:Ek;
          rewrite ?dget_dpop, ?dget_dset; (destruct (Nat.eqb_spec j x); [congruence|] || idtac);
          destruct (Nat.eqb_spec (k j) x); try discriminate; destruct Hx; congruence. }
      destruct (Nat.eqb_spec (own v) j) as [e|e]; apply X; auto. right. apply (d2 _ _ _ I); auto.
    - intro H. assert (X : done 0%nat = true).
      { unfold also in H. destruct (Nat.eqb_spec 0 j); [lia|]. auto. }
      assert (Y := d3 _ _ _ I X). subst D'. destruct (dget D j) as [lj|] eqn:Ej; destruct (dget D (k j)) as [lk|] eqn:Ek;
        rewrite ?dget_dpop, ?dget_dset; (destruct (Nat.eqb_spec j 0); [lia|] || idtac); destruct (Nat.eqb_spec (k j) 0); auto; discriminate.
    - intros x l Hx Px. assert (X : x = k j \/ exists l', dget D x = Some l').
      { subst D'. destruct (dget D j) as [lj|] eqn:Ej; destruct (dget D (k j)) as [lk|] eqn:Ek;
          rewrite ?dget_dpop, ?dget_dset in Hx; try (destruct (Nat.eqb_spec j x); [discriminate|]);
          destruct (Nat.eqb_spec (k j) x); eauto. }
      destruct X as [->|(l' & Hl')]; [exists j; auto|]. exact (d4 _ _ _ I x l' Hl' Px).
    - assert (N := dk _ _ _ I). subst D'. destruct (dget D j); destruct (dget D (k j)); auto using dset_nd, dpop_nd.
    - intros v Hv H. destruct (Nat.eqb_spec (own v) j) as [e|e]; [|apply (o5 _ _ _ I); auto].
      assert (X := Hheap j Hj ltac:(lia)). assert (Y := o5 _ _ _ I v Hv ltac:(lia)). rewrite e in Y. lra.
  Qed.

  (** The root merges with itself. *)
  Lemma root_step done own D D' : PInv done own D ->
    D' = match dget D 0 with Some _ => D | None => dset D 0 [0; 0]%nat end -> PInv (also done 0%nat) own D'.
  Proof.
    intros I ED.
    assert (A : forall x, (0 < x)%nat -> also done 0%nat x = done x) by (intros [|x] H; [lia|reflexivity]).
    assert (G : forall x, (0 < x)%nat -> dget D' x = dget D x).
    { intros x Hx. subst D'. destruct (dget D 0); auto. rewrite dget_dset. destruct (Nat.eqb_spec 0 x); auto. lia. }
    assert (O0 : own 0%nat = 0%nat) by (apply (o2 _ _ _ I); auto; lia).
    assert (G0 : dget D' 0 <> None).
    { subst D'. destruct (dget D 0) eqn:e; [congruence|]. rewrite dget_dset. discriminate. }
    constructor.
    - intros v Hv. destruct (o1 _ _ _ I v Hv) as [X Y]. split; auto. destruct (Nat.eq_dec (own v) 0) as [|N]; auto.
      right. rewrite A by lia. tauto.
    - intros v Hv H. apply (o2 _ _ _ I); auto. destruct H as [H|H]; auto. destruct v; auto.
    - intros j Hj H. rewrite A in H by lia. apply (o3 _ _ _ I); auto.
    - intros c Hc H1 H2. rewrite A in * by lia. apply (dcl _ _ _ I); auto.
    - intros x l Hx. destruct (Nat.eq_dec x 0) as [->|N].
      + split; [lia|]. split; auto. split; [|discriminate]. subst D'. destruct (dget D 0) as [l0|] eqn:e.
        * destruct (d1 _ _ _ I 0%nat l Hx) as (_ & _ & B & _). exact B.
        * rewrite dget_dset in Hx. simpl in Hx. injection Hx as <-. intro v. simpl. split.
          -- intros [<-|[<-|[]]]; split; auto; lia.
          -- intros [Hv e']. left. symmetry. exact (lonely _ _ _ _ _ I e Hv e').
      + rewrite G in Hx by lia. destruct (d1 _ _ _ I x l Hx) as (B1 & B2 & B3 & _). split; auto. split; auto. split; auto. discriminate.
    - intros v Hv H. destruct (Nat.eq_dec (own v) 0) as [->|N]; auto. rewrite G by lia. apply (d2 _ _ _ I); auto.
    - intros _. auto.
    - intros x l Hx Px. rewrite G in Hx by auto. exact (d4 _ _ _ I x l Hx Px).
    - subst D'. destruct (dget D 0); [exact (dk _ _ _ I)|]. apply dset_nd. exact (dk _ _ _ I).
    - exact (o5 _ _ _ I).
  Qed.

  Lemma at_W j : (j < n)%nat -> py_at W j = Ok (w j).
  Proof. intro H. unfold py_at. rewrite (nth_error_nth' W 0); [reflexivity|rewrite LW; auto]. Qed.

  Lemma at_K j : (j < n)%nat -> py_at K j = Ok (k j).
  Proof. intro H. unfold py_at. rewrite (nth_error_nth' K 0%nat); [reflexivity|rewrite LK; auto]. Qed.

  (** The loop of merge at level [gamma]. *)
  Lemma level_fold gamma : forall rem done own D acc, StronglySorted lt rem ->
    (forall i, In i rem -> (i < n)%nat /\ w i <= gamma) ->
    (forall i, (i < n)%nat -> done i = true <-> gamma < w i \/ (w i == gamma /\ ~ In i rem)) ->
    PInv done own D ->
    exists done' own' D', foldm (py_step K W gamma) rem (D, acc) = Ok (D', acc ++ filter (fun i => Qltb (w i) gamma) rem) /\
      PInv done' own' D' /\ (forall i, (i < n)%nat -> done' i = true <-> gamma <= w i) /\
      (forall u v, own u = own v -> own' u = own' v).
  Proof.
    induction rem as [|j rem IH]; intros done own D acc Hs Hr Hd I.
    - exists done, own, D. simpl. rewrite app_nil_r. split; auto. split; auto. split; auto.
      intros i Hi. rewrite (Hd i Hi). simpl. split; [intros [?|[? _]]; lra|].
      intro H. apply Qle_lteq in H. destruct H as [H|H]; auto. right. split; auto. lra.
    - destruct (Hr j (or_introl eq_refl)) as [Hj Hw]. inversion Hs as [|? ? Hs' Hall]; subst. rewrite Forall_forall in Hall.
      assert (NI : ~ In j rem) by (intro C; apply Hall in C; lia).
      assert (Hr' : forall i, In i rem -> (i < n)%nat /\ w i <= gamma) by (intros; apply Hr; right; auto).
      assert (Uj : done j = false).
      { destruct (done j) eqn:X; auto. apply (Hd j Hj) in X. destruct X as [X|[_ X]]; [lra|]. exfalso. apply X. left. auto. }
      cbn [foldm filter]. unfold py_step at 1. rewrite at_W by auto. cbn [bind].
      destruct (Qltb (w j) gamma) eqn:Lt.
      + apply Qltb_true in Lt. destruct (IH done own D (acc ++ [j]) Hs' Hr') as (done' & own' & D' & A & B); auto.
        { intros i Hi. rewrite (Hd i Hi). simpl. split; (intros [X|[X Y]]; [left; auto|right; split; auto]).
          intros [C|C]; auto. subst i. lra. }
        exists done', own', D'. split; auto. cbn [bind]. rewrite A. rewrite <- app_assoc. reflexivity.
      + apply Qltb_false in Lt. assert (Eg : w j == gamma) by lra.
        assert (Hd' : forall i, (i < n)%nat -> also done j i = true <-> gamma < w i \/ (w i == gamma /\ ~ In i rem)).
        { intros i Hi. unfold also. destruct (Nat.eqb_spec i j) as [->|N]; simpl.
          - split; auto.
          - rewrite (Hd i Hi). simpl. split; (intros [X|[X Y]]; [left; auto|right; split; auto]). intros [C|C]; auto. }
        assert (Bef : forall i, (i < n)%nat -> (i < j)%nat -> w i == gamma -> done i = true).
        { intros i Hi Lij Ei. apply (Hd i Hi). right. split; auto. intros [C|C]; [lia|]. apply Hall in C. lia. }
        destruct (Nat.eq_dec j 0) as [Z|Z].
        * subst j. rewrite at_K by auto. cbn [bind]. rewrite HK0.
          assert (I' := root_step done own D _ I eq_refl).
          destruct (dget D 0) as [l|] eqn:G0; cbn [bind Nat.eqb].
          -- destruct (IH (also done 0%nat) own D acc Hs' Hr' Hd' I') as (done' & own' & D' & A & B). exists done', own', D'. auto.
          -- destruct (IH (also done 0%nat) own _ acc Hs' Hr' Hd' I') as (done' & own' & D' & A & B). exists done', own', D'. auto.
        * assert (Hj' : (0 < j < n)%nat) by lia.
          assert (I' := merge_step done own D j I Hj' Uj).
          assert (HC : forall c, (0 < c < n)%nat -> k c = j -> done c = true).
          { intros c Hc e. apply (Hd c ltac:(lia)). left. assert (X := Hheap c Hc ltac:(lia)). rewrite e in X. lra. }
          assert (HE : dget D j <> None -> dget D (k j) <> None).
          { intro H. destruct (dget D j) as [l|] eqn:G; [|congruence].
            destruct (Hent j Hj' (d4 _ _ _ I j l G ltac:(lia))) as [(i & Hi & e & Hord)|[e e0]].
            - assert (Di : done i = true).
              { destruct Hord as [Hord|[Hord1 Hord2]]; [apply (Hd i ltac:(lia)); left; lra|]. apply Bef; [lia|lia|lra]. }
              assert (K1 : own (k j) = k j).
              { apply (o2 _ _ _ I); [apply HK; auto|]. destruct (Nat.eq_dec (k j) 0) as [|N]; auto. right.
                destruct (done (k j)) eqn:X; auto. rewrite (dcl _ _ _ I j Hj' ltac:(lia) X) in Uj. discriminate. }
              assert (X := d2 _ _ _ I i ltac:(lia)). rewrite (o3 _ _ _ I i Hi Di), e, K1 in X. apply X.
              intro C. apply (k_neq i Hi). congruence.
            - rewrite e. apply (d3 _ _ _ I). apply Bef; [lia|lia|lra]. }
          specialize (I' HC HE _ eq_refl).
          rewrite at_K by auto. cbn [bind].
          assert (KN : (k j =? j)%nat = false) by (apply Nat.eqb_neq; apply k_neq; auto).
          rewrite KN.
          destruct (IH _ _ _ acc Hs' Hr' Hd' I') as (done' & own' & D' & A & B1 & B2 & B3). exists done', own', D'.
          split; [|split; auto; split; auto].
          -- destruct (dget D j); destruct (dget D (k j)); cbn [bind]; exact A.
          -- intros u v e. apply B3. rewrite e. auto.
  Qed.

  Lemma gamma_max : forall C g0, (forall i, In i C -> (i < n)%nat) ->
    exists g, foldm (fun g i => do w0 <- py_at W i; Ok (if Qltb g w0 then w0 else g)) C g0 = Ok g /\
      g0 <= g /\ (forall i, In i C -> w i <= g) /\ (g = g0 \/ exists i, In i C /\ w i = g).
  Proof.
    induction C as [|i C IH]; intros g0 H.
    - exists g0. simpl. split; auto. split; [lra|]. split; auto. intros i [].
    - cbn [foldm]. rewrite at_W by (apply H; left; auto). cbn [bind].
      destruct (IH (if Qltb g0 (w i) then w i else g0)) as (g & A & B & C1 & D); [intros; apply H; right; auto|].
      exists g. split; auto. destruct (Qltb g0 (w i)) eqn:Lt; [apply Qltb_true in Lt|apply Qltb_false in Lt].
      + split; [lra|]. split.
        * intros x [<-|Hx]; auto.
        * right. destruct D as [->|(x & Hx & e)]; [exists i; split; auto; left; auto|exists x; split; auto; right; auto].
      + split; auto. split.
        * intros x [<-|Hx]; auto. lra.
        * destruct D as [->|(x & Hx & e)]; auto. right. exists x. split; auto. right. auto.
  Qed.

  (** What the partition of a level is. *)
  Definition PPart (done : nat -> bool) (own : nat -> nat) (P : cpart) : Prop :=
    is_partition vs P /\ (forall B u v, In B P -> In u B -> In v B -> own u = own v) /\
    (forall u v, (u < n)%nat -> (v < n)%nat -> own u = own v -> same_part P u v = true) /\
    length P = (1 + length (filter (fun j => negb (done j)) (seq 1 (n - 1))))%nat.

  Definition mono (done : nat -> bool) : Prop :=
    forall i j, (i < n)%nat -> (j < n)%nat -> done i = true -> w i <= w j -> done j = true.

  Lemma root_done done : mono done -> done 0%nat = true -> forall j, (j < n)%nat -> done j = true.
  Proof.
    intros M H j Hj. destruct (Nat.eq_dec j 0) as [->|N]; auto. apply (M 0%nat j); auto. apply Hroot. lia.
  Qed.

  Lemma seq_split : vs = 0%nat :: seq 1 (n - 1).
  Proof. destruct n; [lia|]. simpl. rewrite Nat.sub_0_r. reflexivity. Qed.

  Lemma parts_ok done own D : PInv done own D -> mono done -> PPart done own (py_parts n D).
  Proof.
    intros I M.
    assert (NE : forall x l, In (x, l) D -> In x l /\ (forall v, In v l -> (v < n)%nat /\ own v = x) /\ (forall v, (v < n)%nat -> own v = x -> In v l)).
    { intros x l H. apply (dget_In D x l (dk _ _ _ I)) in H. destruct (d1 _ _ _ I x l H) as (A & B & C & _).
      split; [apply C; auto|]. split; [intros v Hv; apply C; auto|intros v Hv e; apply C; auto]. }
    set (total := concat (map snd D)).
    assert (TOT : forall v, In v total <-> exists l, In (own v, l) D /\ In v l).
    { intro v. unfold total. rewrite in_concat. split.
      - intros (l & Hl & Hv). apply in_map_iff in Hl. destruct Hl as ([x l'] & E' & Hx). simpl in E'. subst l'.
        destruct (NE x l Hx) as (_ & A & _). destruct (A v Hv) as [_ <-]. exists l. auto.
      - intros (l & Hl & Hv). exists l. split; auto. apply in_map_iff. exists (own v, l). auto. }
    assert (TN : forall v, In v total -> (v < n)%nat).
    { intros v Hv. apply TOT in Hv. destruct Hv as (l & Hl & Hv). apply (NE _ _ Hl). auto. }
    assert (MISS : forall v, (v < n)%nat -> ~ In v total -> own v = v /\ dget D v = None).
    { intros v Hv H. assert (X : dget D (own v) = None).
      { destruct (dget D (own v)) as [l|] eqn:G; auto. exfalso. apply H. apply TOT. exists l.
        apply (dget_In D _ _ (dk _ _ _ I)) in G. split; auto. apply (NE _ _ G); auto. }
      destruct (Nat.eq_dec (own v) v) as [e|e]; [split; auto; congruence|]. exfalso. exact (d2 _ _ _ I v Hv e X). }
    set (miss := filter (fun i => negb (mem total i)) vs).
    assert (MI : forall v, In v miss <-> (v < n)%nat /\ ~ In v total).
    { intro v. unfold miss. rewrite filter_In, in_seq, negb_true_iff. split; intros [A B]; split; try lia.
      - intro C. apply mem_In in C. congruence.
      - destruct (mem total v) eqn:X; auto. apply mem_In in X. tauto. }
    assert (EP : py_parts n D = map (fun p => cset_of (snd p)) D ++ map (fun i => [i]) miss).
    { unfold py_parts. fold total. fold miss. f_equal. destruct (length total <? n)%nat eqn:LT; auto.
      apply Nat.ltb_ge in LT.
      assert (Z : forall v, ~ In v miss).
      { intros v Hv. apply MI in Hv. destruct Hv as [Hv Hn']. destruct (done 0%nat) eqn:D0.
        - destruct (MISS v Hv Hn') as [e1 e2].
          assert (v0 : own v = 0%nat).
          { destruct (o1 _ _ _ I v Hv) as [A B]. destruct B as [B|B]; auto. rewrite (root_done done M D0 _ A) in B. discriminate. }
          apply (d3 _ _ _ I D0). congruence.
        - assert (ND : NoDup total).
          { unfold total. apply (nd_concat_own own).
            - intros l Hl. apply in_map_iff in Hl. destruct Hl as ([x l'] & E' & Hx). simpl in E'. subst l'.
              apply (dget_In D x l (dk _ _ _ I)) in Hx. apply (d1 _ _ _ I x l Hx). auto.
            - intros l v' Hl Hv'. apply in_map_iff in Hl. destruct Hl as ([x l'] & E' & Hx). simpl in E'. subst l'.
              destruct (NE x l Hx) as (A & B & _). rewrite (proj2 (B v' Hv')). destruct l as [|y l]; [destruct A|]. simpl.
              symmetry. apply B. left. auto.
            - rewrite map_map. replace (map (fun p => own (hd 0%nat (snd p))) D) with (map fst D); [exact (dk _ _ _ I)|].
              apply map_ext_in. intros [x l] Hx. simpl. destruct (NE x l Hx) as (A & B & _). destruct l as [|y l]; [destruct A|]. simpl.
              symmetry. apply B. left. auto. }
          assert (IC : incl vs total).
          { apply NoDup_length_incl; auto; [rewrite seq_length; auto|]. intros x Hx. apply in_seq. apply TN in Hx. lia. }
          apply Hn'. apply IC. apply in_seq. lia. }
      destruct miss as [|m ms]; auto. exfalso. apply (Z m). left. auto. }
    rewrite EP. clear EP. set (P := map (fun p => cset_of (snd p)) D ++ map (fun i => [i]) miss).
    assert (INP : forall B, In B P <-> (exists x l, In (x, l) D /\ B = cset_of l) \/ (exists i, In i miss /\ B = [i])).
    { intro B. unfold P. rewrite in_app_iff, !in_map_iff. split.
      - intros [([x l] & E' & H)|(i & E' & H)]; [left; exists x, l; auto|right; exists i; auto].
      - intros [(x & l & H & E')|(i & H & E')]; [left; exists (x, l); auto|right; exists i; auto]. }
    assert (SAME : forall B u v, In B P -> In u B -> In v B -> own u = own v).
    { intros B u v HB Hu Hv. apply INP in HB. destruct HB as [(x & l & H & ->)|(i & H & ->)].
      - apply (cset_of_In l) in Hu. apply (cset_of_In l) in Hv. destruct (NE x l H) as (_ & A & _).
        rewrite (proj2 (A u Hu)), (proj2 (A v Hv)). auto.
      - destruct Hu as [<-|[]], Hv as [<-|[]]. auto. }
    assert (NEP : forall B, In B P -> B <> []).
    { intros B HB C. subst B. apply INP in HB. destruct HB as [(x & l & H & E')|(i & H & E')]; [|discriminate].
      destruct (NE x l H) as (A & _). apply (cset_of_In l) in A. rewrite <- E' in A. destruct A. }
    assert (OWN : map (fun B => own (hd 0%nat B)) P = map fst D ++ miss).
    { unfold P. rewrite map_app, !map_map. f_equal.
      - apply map_ext_in. intros [x l] H. simpl. destruct (NE x l H) as (A & B & _).
        assert (X : In (hd 0%nat (cset_of l)) l).
        { apply cset_of_In. destruct (cset_of l) eqn:e; [|left; auto]. apply (cset_of_In l) in A. rewrite e in A. destruct A. }
        apply B. auto.
      - rewrite <- (map_id miss) at 2. apply map_ext_in. intros i Hi. simpl. apply MI in Hi. apply MISS; tauto. }
    assert (NDO : NoDup (map fst D ++ miss)).
    { apply NoDup_app_intro; [exact (dk _ _ _ I)|apply NoDup_filter; apply seq_NoDup|].
      intros x Hx Hm. apply MI in Hm. apply (proj2 Hm). apply in_map_iff in Hx. destruct Hx as ([y l] & <- & H). simpl in *.
      apply TOT. destruct (NE y l H) as (A & B & _). rewrite (proj2 (B y A)). exists l. auto. }
    assert (NDC : NoDup (concat P)).
    { apply (nd_concat_own own).
      - intros B HB. apply INP in HB. destruct HB as [(x & l & H & ->)|(i & H & ->)].
        + apply csorted_NoDup. apply cset_of_sorted.
        + repeat constructor. auto.
      - intros B v HB Hv. apply (SAME B); auto. destruct B; [destruct Hv|left; auto].
      - rewrite OWN. auto. }
    assert (MEM : forall v, In v (concat P) <-> (v < n)%nat).
    { intro v. rewrite in_concat. split.
      - intros (B & HB & Hv). apply INP in HB. destruct HB as [(x & l & H & ->)|(i & H & ->)].
        + apply (cset_of_In l) in Hv. apply (NE x l H). auto.
        + destruct Hv as [<-|[]]. apply MI in H. tauto.
      - intro Hv. destruct (in_dec Nat.eq_dec v total) as [T|T].
        + apply TOT in T. destruct T as (l & Hl & Hv'). exists (cset_of l). split; [apply INP; left; eauto|]. apply cset_of_In. auto.
        + exists [v]. split; [apply INP; right; exists v; split; auto; apply MI; auto|left; auto]. }
    split; [|split; [|split]]; auto.
    - split; [|intro C; exact (NEP [] C eq_refl)]. apply NoDup_Permutation; auto using seq_NoDup.
      intro v. rewrite MEM, in_seq. lia.
    - intros u v Hu Hv e. apply same_part_true. destruct (in_dec Nat.eq_dec u total) as [T|T].
      + apply TOT in T. destruct T as (l & Hl & Hu'). exists (cset_of l). split; [apply INP; left; eauto|].
        split; apply cset_of_In; auto. apply (NE _ _ Hl); auto.
      + exists [u]. split; [apply INP; right; exists u; split; auto; apply MI; auto|]. split; [left; auto|].
        destruct (MISS u Hu T) as [e1 e2]. assert (X : v = own u).
        { assert (e3 : dget D (own u) = None) by congruence. exact (lonely _ _ _ _ _ I e3 Hv (eq_sym e)). }
        left. congruence.
    - rewrite <- (map_length (fun B => own (hd 0%nat B)) P), OWN.
      assert (PE : Permutation (map fst D ++ miss) (filter (fun x => (x =? 0)%nat || negb (done x)) vs)).
      { apply NoDup_Permutation; auto; [apply NoDup_filter; apply seq_NoDup|]. intro x.
        rewrite filter_In, in_app_iff, in_seq, orb_true_iff, negb_true_iff, Nat.eqb_eq. split.
        - intro H. assert (X : (x < n)%nat /\ own x = x).
          { destruct H as [H|H].
            - apply in_map_iff in H. destruct H as ([y l] & <- & H). simpl. destruct (NE y l H) as (A & B & _). apply B; auto.
            - apply MI in H. destruct H as [H1 H2]. split; auto. apply MISS; auto. }
          destruct X as [X1 X2]. split; [lia|]. destruct (o1 _ _ _ I x X1) as [_ Y]. rewrite X2 in Y. auto.
        - intros [H1 H2]. assert (X := o2 _ _ _ I x ltac:(lia) H2). destruct (in_dec Nat.eq_dec x total) as [T|T].
          + left. apply TOT in T. destruct T as (l & Hl & _). rewrite X in Hl. apply in_map_iff. exists (x, l). auto.
          + right. apply MI. split; auto. lia. }
      rewrite (Permutation_length PE). rewrite seq_split. cbn [filter Nat.eqb orb]. simpl length. apply (f_equal S). apply (f_equal (@length nat)).
      apply filter_ext_in. intros j Hj. apply in_seq in Hj. destruct (Nat.eqb_spec j 0); [lia|]. reflexivity.
  Qed.

  Lemma ppart_optimal done own D P lam : PInv done own D -> PPart done own P ->
    (forall j, (0 < j < n)%nat -> if done j then lam <= w j else w j <= lam) -> optimal E vs lam P.
  Proof.
    intros I (A & B & C & L) Hl. apply (tree_optimal done); auto.
    intros j Hj. destruct (done j) eqn:Dj.
    - apply C; auto; [lia|]. symmetry. apply (o3 _ _ _ I); auto.
    - destruct (same_part P (k j) j) eqn:S; auto. exfalso. apply same_part_true in S. destruct S as (X & HX & H1 & H2).
      assert (e := B X _ _ HX H1 H2). assert (ej : own j = j) by (apply (o2 _ _ _ I); auto; lia). rewrite ej in e.
      assert (k0 : k j <> 0%nat).
      { intro k0. rewrite k0 in e. rewrite (o2 _ _ _ I 0%nat) in e by (auto; lia). lia. }
      assert (Y := o5 _ _ _ I (k j) (HK j Hj) ltac:(lia)). rewrite e in Y. assert (Z := Hheap j Hj k0). lra.
  Qed.

  (** The bounds between which a partition has been left. *)
  Definition lo_ok (done : nat -> bool) (lo : option Q) : Prop :=
    forall j, (0 < j < n)%nat ->
      match lo with None => done j = true | Some l => if done j then l < w j else w j <= l end.

  Lemma ppart_refines done own P done' own' P' : PPart done own P -> PPart done' own' P' ->
    (forall u v, own u = own v -> own' u = own' v) -> refines P P'.
  Proof.
    intros (A & B & _ & _) (A' & _ & C' & _) H X HX.
    destruct (part_nonempty vs P X A HX) as (x & Hx).
    assert (Lx : forall v, In v X -> (v < n)%nat).
    { intros v Hv. assert (Y := part_incl vs P X A HX v Hv). apply in_seq in Y. lia. }
    destruct (part_cover vs P' x A') as (Y & HY & HxY); [apply in_seq; specialize (Lx x Hx); lia|].
    exists Y. split; auto. intros v Hv.
    assert (S : same_part P' x v = true) by (apply C'; auto; apply H; apply (B X); auto).
    apply same_part_true in S. destruct S as (Z & HZ & Hx' & Hv').
    rewrite (part_unique vs P' Y Z x (seq_NoDup n 0) A' HY HZ HxY Hx'). auto.
  Qed.

  Lemma filter_sorted (p : nat -> bool) l : StronglySorted lt l -> StronglySorted lt (filter p l).
  Proof.
    induction 1; simpl; [constructor|]. destruct (p a); auto. constructor; auto.
    rewrite Forall_forall in *. intros x Hx. apply filter_In in Hx. apply H0. tauto.
  Qed.

  Lemma seq_sorted : forall len s, StronglySorted lt (seq s len).
  Proof.
    induction len; intro s; simpl; constructor; auto. apply Forall_forall. intros x Hx. apply in_seq in Hx. lia.
  Qed.

  Lemma filter_filter (p q : nat -> bool) l : filter p (filter q l) = filter (fun x => q x && p x) l.
  Proof. induction l; simpl; auto. destruct (q a); simpl; [destruct (p a); rewrite IHl; auto|auto]. Qed.

  Lemma filter_less (p q : nat -> bool) l : (forall x, In x l -> p x = true -> q x = true) ->
    (exists x, In x l /\ p x = false /\ q x = true) -> (length (filter p l) < length (filter q l))%nat.
  Proof.
    intros H (x & Hx & Hp & Hq). assert (LE : forall l', (forall x, In x l' -> p x = true -> q x = true) -> (length (filter p l') <= length (filter q l'))%nat).
    { induction l' as [|a l' IH]; simpl; intro H'; auto. specialize (IH ltac:(auto)). destruct (p a) eqn:pa.
      - rewrite (H' a) by auto. simpl. lia.
      - destruct (q a); simpl; lia. }
    induction l as [|a l IH]; [destruct Hx|]. simpl. destruct Hx as [->|Hx].
    - rewrite Hp, Hq. simpl. specialize (LE l ltac:(intros; apply H; simpl; auto)). lia.
    - specialize (IH ltac:(intros; apply H; simpl; auto) Hx). destruct (p a) eqn:pa.
      + rewrite (H a) by (simpl; auto). simpl. lia.
      + destruct (q a); simpl; lia.
  Qed.

  Lemma last_default {A} (x : A) l d d' : last (x :: l) d = last (x :: l) d'.
  Proof. revert x. induction l as [|y l IH]; intro x; [reflexivity|]. exact (IH y). Qed.

  Lemma loop_ok : forall fuel done own D P L Qs, PInv done own D -> mono done -> PPart done own P ->
    (length (filter (fun j => negb (done j)) vs) < fuel)%nat ->
    (forall lo, lo_ok done lo -> seq_chain Qlt (optimal E vs) lo P L Qs) ->
    same_partition (last (P :: Qs) P) (singletons vs) ->
    exists L' Qs', py_loop fuel n K W D (filter (fun j => negb (done j)) vs) L (P :: Qs) = Ok (L', Qs') /\ IsPSP E vs L' Qs'.
  Proof.
    induction fuel as [|fuel IH]; intros done own D P L Qs I M HP Hf HC HL; [lia|].
    set (C := filter (fun j => negb (done j)) vs) in *. cbn [py_loop].
    assert (InC : forall i, In i C <-> (i < n)%nat /\ done i = false).
    { intro i. unfold C. rewrite filter_In, in_seq, negb_true_iff. split; intros [? ?]; split; auto; lia. }
    destruct (length C <=? 1)%nat eqn:LC.
    - apply Nat.leb_le in LC. exists L, (P :: Qs). split; auto.
      assert (AD : forall j, (0 < j < n)%nat -> done j = true).
      { intros j Hj. destruct (done j) eqn:Dj; auto. exfalso.
        assert (D0 : done 0%nat = false).
        { destruct (done 0%nat) eqn:D0; auto. rewrite (root_done done M D0 j) in Dj; [discriminate|lia]. }
        assert (X : (length [0%nat; j] <= length C)%nat).
        { apply NoDup_incl_length; [repeat constructor; simpl; auto; intros [e|[]]; lia|].
          intros x [<-|[<-|[]]]; apply InC; split; auto; lia. }
        simpl in X. lia. }
      split; [|split; auto].
      + apply part_length_one; [apply seq_NoDup| |apply HP|].
        * intro X. apply (f_equal (@length nat)) in X. rewrite seq_length in X. simpl in X. lia.
        * destruct HP as (_ & _ & _ & LP). rewrite LP.
          replace (filter (fun j => negb (done j)) (seq 1 (n - 1))) with (@nil nat); auto.
          symmetry. assert (X : forall l, (forall j, In j l -> done j = true) -> filter (fun j => negb (done j)) l = []).
          { induction l; simpl; intro H; auto. rewrite (H a) by auto. simpl. auto. }
          apply X. intros j Hj. apply in_seq in Hj. apply AD. lia.
    - apply Nat.leb_gt in LC.
      assert (J0 : exists j, In j C /\ (0 < j)%nat).
      { assert (S : StronglySorted lt C) by (unfold C; apply filter_sorted; apply seq_sorted).
        clear -S LC. clearbody C. destruct C as [|a [|b C']]; simpl in LC; try lia. inversion S as [|? ? _ F]; subst. rewrite Forall_forall in F. specialize (F b (or_introl eq_refl)).
        exists b. split; [right; left; auto|lia]. }
      destruct J0 as (j0 & Hj0 & Pj0). destruct (proj1 (InC j0) Hj0) as [Lj0 Uj0].
      destruct (gamma_max C (-(1))) as (g & G1 & G2 & G3 & G4); [intros i Hi; apply InC in Hi; tauto|].
      unfold py_merge, py_gamma. rewrite G1. cbn [bind].
      assert (W0 : 0 <= w j0) by (apply HW; lia). assert (W1 := G3 j0 Hj0).
      destruct G4 as [G4|(m & Hm & Em)]; [rewrite G4 in W1; lra|]. destruct (proj1 (InC m) Hm) as [Lm1 Lm2].
      assert (AB : forall i, (i < n)%nat -> done i = true -> g < w i).
      { intros i Hi Di. destruct (Qlt_le_dec g (w i)) as [|N]; auto. exfalso.
        rewrite (M i m Hi Lm1 Di) in Lm2; [discriminate|]. rewrite Em. auto. }
      destruct (level_fold g C done own D []) as (done' & own' & D' & A1 & A2 & A3 & A4); auto.
      { unfold C. apply filter_sorted. apply seq_sorted. }
      { intros i Hi. split; auto. apply InC in Hi. tauto. }
      { intros i Hi. split.
        - intro Di. left. auto.
        - intros [X|[X Y]].
          + destruct (done i) eqn:Di; auto. assert (Z := G3 i ltac:(apply InC; auto)). lra.
          + destruct (done i) eqn:Di; auto. exfalso. apply Y. apply InC. auto. }
      rewrite A1. cbn [bind fst snd app].
      assert (M' : mono done').
      { intros i j Hi Hj Di Hij. apply (A3 j Hj). apply (A3 i Hi) in Di. lra. }
      assert (EC : filter (fun i => Qltb (w i) g) C = filter (fun j => negb (done' j)) vs).
      { unfold C. rewrite filter_filter. apply filter_ext_in. intros i Hi. apply in_seq in Hi.
        assert (A3i := A3 i ltac:(lia)). destruct (done' i) eqn:D'i.
        - assert (X : g <= w i) by (apply A3i; auto). apply andb_false_iff. right. apply Qltb_false. auto.
        - apply andb_true_iff. assert (X : ~ g <= w i) by (intro X; apply A3i in X; discriminate). apply Qnot_le_lt in X.
          split; [|apply Qltb_true; auto]. destruct (done i) eqn:Di; auto. assert (Z := AB i ltac:(lia) Di). lra. }
      rewrite EC.
      assert (HP' := parts_ok done' own' D' A2 M').
      assert (Sub : forall i, (i < n)%nat -> done i = true -> done' i = true).
      { intros i Hi Di. apply (A3 i Hi). specialize (AB i Hi Di). lra. }
      assert (m0 : exists m', (0 < m' < n)%nat /\ done m' = false /\ w m' == g).
      { destruct (Nat.eq_dec m 0) as [->|N].
        - exists j0. split; [lia|]. split; [auto|]. assert (X := Hroot j0 ltac:(lia)). rewrite Em in X. lra.
        - exists m. split; [lia|]. split; [auto|]. rewrite Em. reflexivity. }
      destruct m0 as (m' & Hm1 & Hm2 & Hm3).
      assert (Dm' : done' m' = true) by (apply (A3 m' ltac:(lia)); lra).
      apply IH with (done := done') (own := own'); auto.
      + assert (X : (length (filter (fun j => negb (done' j)) vs) < length C)%nat); [|lia].
        apply filter_less.
        * intros x Hx Hd. rewrite negb_true_iff in *. destruct (done x) eqn:Dx; auto. apply in_seq in Hx. rewrite (Sub x) in Hd; [discriminate|lia|auto].
        * exists m'. rewrite Dm', Hm2. split; [apply in_seq; lia|auto].
      + intros lo Hlo. cbn [seq_chain].
        split; [|split; [|split; [|split]]].
        * destruct lo as [l|]; auto. specialize (Hlo m' Hm1). cbn in Hlo. rewrite Dm' in Hlo. lra.
        * intros lam H1 H2. apply (ppart_optimal done' own' D'); auto. intros j Hj. specialize (Hlo j Hj).
          assert (A3j := A3 j ltac:(lia)). destruct (done' j) eqn:D'j.
          -- assert (g <= w j) by (apply A3j; auto). lra.
          -- destruct lo as [l|]; cbn in Hlo; rewrite ?D'j in Hlo; [lra|discriminate].
        * apply (ppart_refines done own P done' own'); auto.
        * destruct HP as (_ & _ & _ & ->). destruct HP' as (_ & _ & _ & ->). apply le_n_S.
          apply filter_less.
          -- intros x Hx Hd. rewrite negb_true_iff in *. destruct (done x) eqn:Dx; auto. apply in_seq in Hx. rewrite (Sub x) in Hd; [discriminate|lia|auto].
          -- exists m'. rewrite Dm', Hm2. split; [apply in_tree; lia|auto].
        * apply HC. intros j Hj. destruct (done j) eqn:Dj; [apply AB; auto; lia|]. apply G3. apply InC. split; auto. lia.
      + change (same_partition (last (P :: Qs) (py_parts n D')) (singletons vs)).
        rewrite (last_default P Qs (py_parts n D') P). auto.
  Qed.

  Lemma get_psp_ok : exists L Qs, get_psp (S n) n K W = Ok (L, Qs) /\ IsPSP E vs L Qs.
  Proof.
    assert (I : PInv (fun _ => false) (fun v => v) []).
    { constructor; simpl; auto; try (intros; discriminate); try (intros; congruence); [constructor|]. intros; lra. }
    assert (EC : vs = filter (fun j => negb ((fun _ => false) j)) vs).
    { generalize vs. induction l as [|a l IHl]; [reflexivity|]. exact (f_equal (cons a) IHl). }
    assert (HP : PPart (fun _ => false) (fun v => v) (singletons vs)).
    { split; [apply singletons_part|]. split; [|split].
      - intros B u v HB Hu Hv. unfold singletons in HB. apply in_map_iff in HB. destruct HB as (x & <- & _).
        destruct Hu as [<-|[]], Hv as [<-|[]]. auto.
      - intros u v Hu Hv <-. apply same_part_true. exists [u]. split; [|split; left; auto].
        unfold singletons. apply in_map_iff. exists u. split; auto. apply in_seq. lia.
      - unfold singletons. rewrite map_length, seq_length.
        assert (X : forall l : list nat, filter (fun j => negb ((fun _ => false) j)) l = l) by (induction l as [|a l IHl]; [reflexivity|]; exact (f_equal (cons a) IHl)).
        rewrite X, seq_length. lia. }
    cbv beta in EC.
    assert (X := loop_ok (S n) (fun _ => false) (fun v => v) [] (singletons vs) [] [] I). cbv beta in X. rewrite <- EC in X.
    apply X; auto.
    - intros i j _ _ H. discriminate.
    - rewrite seq_length. lia.
    - intros lo Hlo. cbn [seq_chain]. intros lam H. apply (ppart_optimal _ _ _ _ lam I HP). intros j Hj. specialize (Hlo j Hj).
      cbn in *. destruct lo; [lra|discriminate].
    - apply same_partition_refl.
  Qed.
End Tree.
