(** * PropHC: properties of the cluster forest IC::HC and of Chow-Liu clustering (C34-C39, C46).

    [joined acc g] is the equivalence generated by the merges in [acc] whose value exceeds [g];
    [accepted ops bs] are the merges that returned true. *)
From Coq Require Import Sorted Relations.
From Verif Require Import Base Graph Spec MHC PartThy HCThy HCInv HCSearch HCPart.

Definition in_range (n : nat) (ops : list (nat * nat * Q)) : Prop :=
  forall i j w, In (i, j, w) ops -> (i < n)%nat /\ (j < n)%nat.

Lemma reached n ops st bs : in_range n ops -> hc_merges (hc_new n) ops = Ok (st, bs) ->
  hn st = n /\ inv st (accepted ops bs).
Proof.
  intros R E. destruct (merges_ok ops (hc_new n) [] (inv_new n) R) as (st' & bs' & R1 & R2 & R3 & R4).
  rewrite R1 in E. injection E as <- <-. auto.
Qed.

Lemma csize_log st acc r C : inv st acc -> (r < hn st)%nat -> par st r = r ->
  NoDup C -> (forall y, In y C <-> (y < hn st)%nat /\ joined acc NegInf r y) ->
  (rk st r <= Nat.log2 (length C))%nat.
Proof.
  intros I Hr Pr ND HC. assert (W := inv_wf _ _ I).
  assert (S := inv_size _ _ I r Hr Pr). unfold csize in S.
  assert (P : Permutation C (filter (fun x => (rt st NegInf x =? r)%nat) (seq 0 (hn st)))).
  { apply NoDup_Permutation; auto; [apply NoDup_filter, seq_NoDup|]. intro y.
    rewrite HC, filter_In, in_seq, Nat.eqb_eq. split; intros [A B].
    - split; [lia|]. apply (inv_conn _ _ I NegInf r y Hr A) in B. rewrite rt_root in B; auto.
    - split; [lia|]. apply (inv_conn _ _ I NegInf r y); auto; [lia|]. rewrite rt_root by auto. auto. }
  rewrite (Permutation_length P). apply Nat.log2_le_pow2; auto.
  assert (2 ^ rk st r <> 0)%nat by (apply Nat.pow_nonzero; lia). lia.
Qed.

(** ** C34 *)
Theorem C34_find : forall n ops, in_range n ops ->
  exists st bs, hc_merges (hc_new n) ops = Ok (st, bs) /\ length bs = length ops /\
  exists rep : nat -> nat,
    (forall i, (i < n)%nat -> (rep i < n)%nat /\ joined (accepted ops bs) NegInf i (rep i)) /\
    (forall i j, (i < n)%nat -> (j < n)%nat ->
       (rep i = rep j <-> joined (accepted ops bs) NegInf i j)) /\
    (* find climbs at most log2 of the cluster size links *)
    (forall i C fuel, (i < n)%nat -> NoDup C ->
       (forall y, In y C <-> (y < n)%nat /\ joined (accepted ops bs) NegInf i y) ->
       (Nat.log2 (length C) < fuel)%nat -> hc_find fuel (par st) i = Ok (rep i)).
Proof.
  intros n ops R. destruct (merges_ok ops (hc_new n) [] (inv_new n) R) as (st & bs & R1 & R2 & R3 & I).
  simpl in R2, I. exists st, bs. split; auto. split; auto. exists (rt st NegInf).
  assert (W := inv_wf _ _ I). rewrite <- R2. split; [|split].
  - intros i Hi. assert (Hr := rt_lt st W i NegInf Hi). split; auto.
    apply (inv_conn _ _ I NegInf i _ Hi Hr). rewrite rt_idem; auto.
  - intros i j Hi Hj. apply (inv_conn _ _ I NegInf i j Hi Hj).
  - intros i C fuel Hi ND HC HF. apply find_ok; auto.
    assert (Hr := rt_lt st W i NegInf Hi).
    assert (J : joined (accepted ops bs) NegInf (rt st NegInf i) i).
    { apply (inv_conn _ _ I NegInf _ _ Hr Hi). rewrite rt_idem; auto. }
    assert (K := csize_log st _ (rt st NegInf i) C I Hr (rt_is_root st W i Hi) ND).
    enough (rk st (rt st NegInf i) <= Nat.log2 (length C))%nat by lia. apply K.
    intro y. rewrite HC. split; intros [A B]; split; auto.
    + eapply rst_trans; eauto.
    + eapply rst_trans; [apply rst_sym; eauto|auto].
Qed.

Definition ops_ex : list (nat * nat * Q) := [(0%nat, 1%nat, 5); (2%nat, 3%nat, 4); (1%nat, 3%nat, 7); (1%nat, 3%nat, 2); (0%nat, 2%nat, 1); (4%nat, 0%nat, 2)].

Example C34_case : in_range 6 ops_ex /\
  exists st, hc_merges (hc_new 6) ops_ex = Ok (st, [true; true; false; true; false; true]) /\
    map (fun i => hc_find 3 (par st) i) (seq 0 6) = [Ok 3; Ok 3; Ok 3; Ok 3; Ok 3; Ok 5]%nat.
Proof.
  split.
  - intros i j w H. simpl in H. repeat (destruct H as [H|H]; [injection H as <- <- _; lia|]). destruct H.
  - eexists. split; [vm_compute; reflexivity|]. vm_compute. reflexivity.
Qed.

(** ** C35 *)
Theorem C35_get_partition : forall n ops st bs, (0 < n)%nat -> in_range n ops ->
  hc_merges (hc_new n) ops = Ok (st, bs) ->
  forall g, exists cls, get_partition st g = Ok cls /\ is_partition (seq 0 n) cls /\
    (forall x y, (x < n)%nat -> (y < n)%nat ->
       (same_part cls x y = true <-> joined (accepted ops bs) g x y)) /\
    (forall g' cls', egeb g' g = true -> get_partition st g' = Ok cls' ->
       forall x y, (x < n)%nat -> (y < n)%nat -> same_part cls' x y = true -> same_part cls x y = true).
Proof.
  intros n ops st bs Hn R E g. destruct (reached _ _ _ _ R E) as [Hs I]. assert (W := inv_wf _ _ I).
  assert (G : forall g, exists cls, get_partition st g = Ok cls /\ is_partition (seq 0 n) cls /\
    (forall x y, (x < n)%nat -> (y < n)%nat -> (same_part cls x y = true <-> joined (accepted ops bs) g x y))).
  { intro h. destruct (get_partition_ok st W h) as (cls & P1 & P2 & P3); [lia|].
    rewrite Hs in *. exists cls. split; auto. split; auto. intros x y Hx Hy. rewrite P3 by auto.
    apply (inv_conn _ _ I h x y); lia. }
  destruct (G g) as (cls & P1 & P2 & P3). exists cls. split; auto. split; auto. split; auto.
  intros g' cls' Hg E' x y Hx Hy S. destruct (G g') as (cls2 & Q1 & Q2 & Q3).
  assert (cls2 = cls') by congruence. subst cls2. apply P3; auto. apply Q3 in S; auto.
  clear -S Hg. induction S as [a b (w & W1 & W2)| | |];
    [|apply rst_refl|apply rst_sym; auto|eapply rst_trans; eauto].
  apply rst_step. exists w. split; auto. eapply egtb_trans; eauto.
Qed.

(** n = 0: the linked list of getPartition is accessed out of bounds. *)
Theorem C35_empty_refuted : forall g, get_partition (hc_new 0) g = UB.
Proof. reflexivity. Qed.

Example C35_case : exists st, hc_merges (hc_new 6) ops_ex = Ok (st, [true; true; false; true; false; true]) /\
  get_partition st (Val 4) = Ok [[0; 1]; [2]; [3]; [4]; [5]]%nat /\
  get_partition st (Val 2) = Ok [[0; 1]; [2; 3]; [4]; [5]]%nat /\
  get_coarsest st = Ok [[0; 1; 3; 2; 4]; [5]]%nat.
Proof. eexists. split; [vm_compute; reflexivity|]. vm_compute. auto. Qed.

(** ** C36 *)
Theorem C36_get_cluster : forall n ops st bs, in_range n ops ->
  hc_merges (hc_new n) ops = Ok (st, bs) ->
  forall i g, (i < n)%nat -> exists c, get_cluster st i g = Ok c /\ NoDup c /\
    (forall y, In y c <-> (y < n)%nat /\ joined (accepted ops bs) g i y) /\
    (forall cls, get_partition st g = Ok cls -> exists B, In B cls /\ Permutation B c).
Proof.
  intros n ops st bs R E i g Hi. destruct (reached _ _ _ _ R E) as [Hs I]. assert (W := inv_wf _ _ I).
  rewrite <- Hs in Hi. destruct (search_ok st W g i Hi) as (c & C1 & C2 & C3).
  assert (C4 : forall y, In y c <-> (y < n)%nat /\ joined (accepted ops bs) g i y).
  { intro y. rewrite C3, <- Hs. split; intros [A B]; split; auto.
    - apply (inv_conn _ _ I g i y Hi A). auto.
    - symmetry. apply (inv_conn _ _ I g i y Hi A). auto. }
  exists c. unfold get_cluster. replace (i <? hn st)%nat with true by (symmetry; apply Nat.ltb_lt; auto).
  split; auto. split; auto. split; auto. intros cls Ec.
  destruct (get_partition_ok st W g) as (cls2 & P1 & P2 & P3); [lia|].
  assert (cls2 = cls) by congruence. subst cls2.
  assert (Pc : Permutation (concat cls) (seq 0 (hn st))) by apply P2.
  assert (X : In i (concat cls)).
  { apply (Permutation_in i (Permutation_sym Pc)), in_seq. lia. }
  apply in_concat in X. destruct X as (B & B1 & B2). exists B. split; auto.
  assert (DB : NoDup (concat cls)).
  { eapply Permutation_NoDup; [symmetry; exact Pc|apply seq_NoDup]. }
  assert (In_lt : forall y A, In A cls -> In y A -> (y < hn st)%nat).
  { intros y A H1 H2. assert (Q : In y (concat cls)) by (apply in_concat; eauto).
    apply (Permutation_in y Pc), in_seq in Q. lia. }
  apply NoDup_Permutation; auto.
  - clear -DB B1. induction cls as [|A cls IH]; [destruct B1|]. simpl in DB.
    destruct (NoDup_app_inv _ _ DB) as (D1 & D2 & _). destruct B1 as [<-|B1]; auto.
  - intro y. rewrite C3. split.
    + intro Hy. assert (Ly := In_lt y B B1 Hy). split; auto. symmetry. apply P3; auto.
      apply same_part_true. exists B. auto.
    + intros [Ly Ey]. symmetry in Ey. apply P3 in Ey; auto. apply same_part_true in Ey.
      destruct Ey as (A & A1 & A2 & A3).
      assert (A = B); [|subst; auto]. clear -DB A1 A2 B1 B2. induction cls as [|D cls IH]; [destruct A1|].
      simpl in DB. destruct (NoDup_app_inv _ _ DB) as (D1 & D2 & D3).
      destruct A1 as [A1|A1], B1 as [B1|B1]; try congruence; auto.
      * subst D. exfalso. apply (D3 i A2). apply in_concat. eauto.
      * subst D. exfalso. apply (D3 i B2). apply in_concat. eauto.
Qed.

Example C36_case : exists st, hc_merges (hc_new 6) ops_ex = Ok (st, [true; true; false; true; false; true]) /\
  get_cluster st 2 (Val (3 # 2)) = Ok [2; 3; 1; 4; 0]%nat /\ get_cluster st 2 (Val 2) = Ok [2; 3]%nat.
Proof. eexists. split; [vm_compute; reflexivity|]. vm_compute. auto. Qed.

(** ** C37 *)
Lemma similarity_pair n ops st bs i j : in_range n ops -> hc_merges (hc_new n) ops = Ok (st, bs) ->
  (i < n)%nat -> (j < n)%nat -> i <> j -> joined (accepted ops bs) NegInf i j ->
  exists v, get_similarity st i j = Ok (Val v) /\
    (exists a b w, In (a, b, w) (accepted ops bs) /\ v == w) /\
    (forall h, joined (accepted ops bs) h i j <-> egtb (Val v) h = true).
Proof.
  intros R E Hi Hj N J. destruct (reached _ _ _ _ R E) as [Hs I]. assert (W := inv_wf _ _ I).
  rewrite <- Hs in Hi, Hj. unfold get_similarity.
  replace (i <? hn st)%nat with true by (symmetry; apply Nat.ltb_lt; auto).
  replace (j <? hn st)%nat with true by (symmetry; apply Nat.ltb_lt; auto). cbn [andb].
  destruct (similarity_ok st W (2 * hn st + 1) i j Hi Hj N) as (s & S1 & S2 & (k & K1 & K2 & K3)).
  - apply (inv_conn _ _ I NegInf i j Hi Hj). auto.
  - lia.
  - destruct (wf_wt _ W k K1) as [[C _]|[_ (v & V)]]; [congruence|].
    rewrite V in K3. subst s. exists v. split; auto. split.
    + destruct (inv_wt _ _ I k v K1 V) as (u & U1 & U2). destruct (inv_gam _ _ I u U1) as (a & b & B).
      exists a, b, u. split; auto. symmetry; auto.
    + intro h. rewrite <- S2. symmetry. apply (inv_conn _ _ I h i j Hi Hj).
Qed.

(** The value is finite and one of the merge values, it does not depend on the order of the
    arguments, and it is the exact threshold. *)
Theorem C37_similarity : forall n ops st bs, in_range n ops ->
  hc_merges (hc_new n) ops = Ok (st, bs) ->
  forall i j, (i < n)%nat -> (j < n)%nat -> i <> j -> joined (accepted ops bs) NegInf i j ->
  exists v v', get_similarity st i j = Ok (Val v) /\ get_similarity st j i = Ok (Val v') /\ v == v' /\
    (exists a b w, In (a, b, w) (accepted ops bs) /\ v == w) /\
    (forall h, joined (accepted ops bs) h i j <-> egtb (Val v) h = true).
Proof.
  intros n ops st bs R E i j Hi Hj N J.
  destruct (similarity_pair n ops st bs i j) as (v & V1 & V2 & V3); auto.
  destruct (similarity_pair n ops st bs j i) as (v' & V4 & V5 & V6); auto.
  { apply rst_sym; auto. }
  exists v, v'. split; auto. split; auto. split; [|auto].
  assert (Q : forall h, egtb (Val v) h = true <-> egtb (Val v') h = true).
  { intro h. rewrite <- V3, <- V6. split; intro; apply rst_sym; auto. }
  assert (Q1 := Q (Val v)). assert (Q2 := Q (Val v')). simpl in Q1, Q2. rewrite !Qltb_true in Q1, Q2.
  destruct (Qlt_le_dec v v') as [L|L]; [apply Q1 in L; lra|].
  destruct (Qlt_le_dec v' v) as [L'|L']; [apply Q2 in L'; lra|]. lra.
Qed.

Theorem C37_self : forall st i, (i < hn st)%nat -> get_similarity st i i = Ok PosInf.
Proof.
  intros st i Hi. unfold get_similarity. apply Nat.ltb_lt in Hi. rewrite Hi. cbn [andb].
  replace (2 * hn st + 1)%nat with (S (2 * hn st)) by lia. cbn [similarity]. rewrite Nat.eqb_refl. auto.
Qed.

(** Nodes never connected get the value 0. *)
Theorem C37_apart : forall n ops st bs, in_range n ops -> hc_merges (hc_new n) ops = Ok (st, bs) ->
  forall i j, (i < n)%nat -> (j < n)%nat -> ~ joined (accepted ops bs) NegInf i j ->
  get_similarity st i j = Ok (Val 0).
Proof.
  intros n ops st bs R E i j Hi Hj J. destruct (reached _ _ _ _ R E) as [Hs I]. assert (W := inv_wf _ _ I).
  rewrite <- Hs in Hi, Hj. unfold get_similarity.
  replace (i <? hn st)%nat with true by (symmetry; apply Nat.ltb_lt; auto).
  replace (j <? hn st)%nat with true by (symmetry; apply Nat.ltb_lt; auto). cbn [andb].
  apply similarity_apart; auto; [|lia]. intro C. apply J. apply (inv_conn _ _ I NegInf i j Hi Hj). auto.
Qed.

(** So without "in the same tree" the threshold reading fails: 0 and 2 have similarity 0 but share no
    cluster at threshold -5. *)
Theorem C37_apart_refuted : exists st,
  hc_merges (hc_new 3) [(0%nat, 1%nat, -1)] = Ok (st, [true]) /\ get_similarity st 0 2 = Ok (Val 0) /\
  egtb (Val 0) (Val (-5)) = true /\ get_cluster st 0 (Val (-5)) = Ok [0; 1]%nat.
Proof. eexists. split; [vm_compute; reflexivity|]. vm_compute. auto. Qed.

Example C37_case : exists st, hc_merges (hc_new 6) ops_ex = Ok (st, [true; true; false; true; false; true]) /\
  get_similarity st 0 2 = Ok (Val 2) /\ get_similarity st 2 0 = Ok (Val 2) /\
  get_similarity st 2 3 = Ok (Val 4) /\ get_similarity st 4 1 = Ok (Val 2).
Proof. eexists. split; [vm_compute; reflexivity|]. vm_compute. auto. Qed.

(** ** C38 *)
Theorem C38_critical_values : forall n ops st bs, in_range n ops ->
  hc_merges (hc_new n) ops = Ok (st, bs) ->
  StronglySorted (fun a b => b < a) (get_critical st) /\
  (forall v, In v (get_critical st) -> exists i j, In (i, j, v) (accepted ops bs)) /\
  (forall i j w, In (i, j, w) (accepted ops bs) -> exists v, In v (get_critical st) /\ v == w).
Proof.
  intros n ops st bs R E. destruct (reached _ _ _ _ R E) as [Hs I].
  split; [apply I|]. split; [apply (inv_gam _ _ I)|apply (inv_acc_gam _ _ I)].
Qed.

(** When a merge is accepted, and that a refused one leaves the object as it was. *)
Theorem C38_merge_accepts : forall n ops st bs, in_range n ops ->
  hc_merges (hc_new n) ops = Ok (st, bs) ->
  forall i j g, (i < n)%nat -> (j < n)%nat ->
  exists st' b, hc_merge st i j g = Ok (st', b) /\
    (b = true <-> ~ joined (accepted ops bs) NegInf i j /\ (forall v, In v (get_critical st) -> g <= v)) /\
    (b = false -> st' = st).
Proof.
  intros n ops st bs R E i j g Hi Hj. destruct (reached _ _ _ _ R E) as [Hs I].
  rewrite <- Hs in Hi, Hj.
  destruct (merge_ok st _ i j g I Hi Hj) as (st' & b & M1 & M2 & M3 & M4 & M5).
  exists st', b. split; auto. split; auto. rewrite M4. split; intros [A B]; split; auto.
  - intros v Hv. destruct (inv_gam _ _ I v Hv) as (x & y & K). eauto.
  - intros x y w Hw. destruct (inv_acc_gam _ _ I _ _ _ Hw) as (v & V1 & V2). apply B in V1. lra.
Qed.

Example C38_case : exists st, hc_merges (hc_new 6) ops_ex = Ok (st, [true; true; false; true; false; true]) /\
  get_critical st = [5; 4; 2].
Proof. eexists. split; [vm_compute; reflexivity|]. vm_compute. auto. Qed.

(** ** C39 *)

(** [ord] is any order std::sort may produce. *)
Definition sort_result (edges : list (nat * nat * Q)) (ord : list nat) : Prop :=
  Permutation ord (seq 0 (length edges)) /\ desc edges ord.

Theorem C39_chow_liu : forall n edges ord, (0 < n)%nat -> in_range n edges -> sort_result edges ord ->
  exists st, cl_new n edges ord = Ok st /\
  forall g, exists cls, get_partition st g = Ok cls /\ is_partition (seq 0 n) cls /\
    forall x y, (x < n)%nat -> (y < n)%nat -> (same_part cls x y = true <-> joined edges g x y).
Proof.
  intros n edges ord Hn R [P D]. destruct (cl_ok n edges ord R P D) as (st & acc & C1 & C2 & I & C4).
  exists st. split; auto. intro g. assert (W := inv_wf _ _ I).
  destruct (get_partition_ok st W g) as (cls & P1 & P2 & P3); [lia|].
  rewrite C2 in *. exists cls. split; auto. split; auto. intros x y Hx Hy. rewrite P3 by auto.
  rewrite <- C4. apply (inv_conn _ _ I g x y); lia.
Qed.

(** The second constructor: all pairs, weighted by the mutual information. *)
Theorem C39_chow_liu_entropy : forall n (h : list nat -> Q) ord, (0 < n)%nat ->
  sort_result (cl_edges n h) ord ->
  exists st, cl_new n (cl_edges n h) ord = Ok st /\
  forall g, exists cls, get_partition st g = Ok cls /\ is_partition (seq 0 n) cls /\
    forall x y, (x < n)%nat -> (y < n)%nat ->
      (same_part cls x y = true <->
       clos_refl_sym_trans nat (fun a b => (b < a < n)%nat /\ egtb (Val (h [a] + h [b] - h [a; b])) g = true) x y).
Proof.
  intros n h ord Hn S.
  assert (K : forall a b w, In (a, b, w) (cl_edges n h) <->
                (b < a < n)%nat /\ w = h [a] + h [b] - h [a; b]).
  { intros a b w. unfold cl_edges. rewrite in_flat_map. split.
    - intros (i & I1 & I2). apply in_map_iff in I2. destruct I2 as (j & J1 & J2).
      injection J1 as <- <- <-. apply in_seq in I1, J2. split; [lia|auto].
    - intros [L ->]. exists a. split; [apply in_seq; lia|]. apply in_map_iff. exists b.
      split; auto. apply in_seq. lia. }
  destruct (C39_chow_liu n (cl_edges n h) ord Hn) as (st & C1 & C2); auto.
  { intros i j w H. apply K in H. lia. }
  exists st. split; auto. intro g. destruct (C2 g) as (cls & P1 & P2 & P3).
  exists cls. split; auto. split; auto. intros x y Hx Hy. rewrite P3 by auto. unfold joined.
  clear -K. split; intro J; induction J as [a b H| | |];
    try (apply rst_refl); try (apply rst_sym; auto; fail); try (eapply rst_trans; eauto; fail).
  - destruct H as (w & H1 & H2). apply K in H1. destruct H1 as [H1 ->]. apply rst_step. auto.
  - destruct H as [H1 H2]. apply rst_step. eexists. split; [apply K; split; [auto|reflexivity]|auto].
Qed.

Definition edges_ex : list (nat * nat * Q) := [(0%nat, 1%nat, 1); (1%nat, 2%nat, 3); (0%nat, 2%nat, 2); (3%nat, 4%nat, 2); (2%nat, 3%nat, 1)].

Example C39_case : in_range 5 edges_ex /\ sort_result edges_ex [1; 3; 2; 0; 4]%nat /\
  exists st, cl_new 5 edges_ex [1; 3; 2; 0; 4]%nat = Ok st /\
    get_partition st (Val 1) = Ok [[0; 2; 1]; [3; 4]]%nat /\ get_critical st = [3; 2; 1].
Proof.
  split; [|split; [split|]].
  - intros i j w H. simpl in H. repeat (destruct H as [H|H]; [injection H as <- <- _; lia|]). destruct H.
  - apply NoDup_Permutation; [|apply seq_NoDup|].
    + repeat constructor; simpl; intuition discriminate.
    + simpl. intro x. intuition auto.
  - unfold desc. repeat (constructor; [|repeat (constructor; [intros e f He Hf; simpl in He, Hf;
      injection He as <-; injection Hf as <-; simpl; lra|]); constructor]). constructor.
  - eexists. split; [vm_compute; reflexivity|]. vm_compute. auto.
Qed.

(** ** C46 *)
Theorem C46_critical_values_of_node : forall n ops st bs, in_range n ops ->
  hc_merges (hc_new n) ops = Ok (st, bs) ->
  forall i, (i < n)%nat ->
  exists gs, get_critical_of st i = Ok gs /\
    StronglySorted (fun a b => egtb a b = true) gs /\
    (* at every listed value the cluster of i changes *)
    (forall v, In v gs -> exists k, (k < n)%nat /\ k <> i /\
       forall h, joined (accepted ops bs) h i k <-> egtb v h = true) /\
    (* from the first listed value on the cluster of i is {i} *)
    (forall k h, (k < n)%nat -> k <> i -> joined (accepted ops bs) h i k ->
       egtb (hd NegInf gs) h = true).
Proof.
  intros n ops st bs R E i Hi. destruct (reached _ _ _ _ R E) as [Hs I]. assert (W := inv_wf _ _ I).
  rewrite <- Hs in Hi. destruct (critical_of_ok st W i Hi) as (gs & G1 & G2 & G3 & G4).
  exists gs. split; auto. split; auto. split.
  - intros v Hv. destruct (G3 v Hv) as (k & K1 & K2 & K3). exists k. split; [lia|]. split; auto.
    intro h. rewrite <- K3. symmetry. apply (inv_conn _ _ I h i k Hi K1).
  - intros k h Hk N J. rewrite <- Hs in Hk. apply (G4 k h); auto.
    apply (inv_conn _ _ I h i k Hi Hk). auto.
Qed.

(** Not every change is listed: the cluster of 0 grows from {0,1} to {0,1,2} at 3, but
    getCriticalValues(0) is [5]. *)
Theorem C46_complete_refuted : exists st,
  hc_merges (hc_new 3) [(0%nat, 1%nat, 5); (2%nat, 1%nat, 3)] = Ok (st, [true; true]) /\
  get_critical_of st 0 = Ok [Val 5] /\
  get_cluster st 0 (Val 3) = Ok [0; 1]%nat /\ get_cluster st 0 (Val 2) = Ok [0; 1; 2]%nat.
Proof. eexists. split; [vm_compute; reflexivity|]. vm_compute. auto. Qed.

Example C46_case : exists st, hc_merges (hc_new 6) ops_ex = Ok (st, [true; true; false; true; false; true]) /\
  get_critical_of st 0 = Ok [Val 5; Val 2] /\ get_critical_of st 3 = Ok [Val 4; Val 2] /\
  get_critical_of st 5 = Ok [].
Proof. eexists. split; [vm_compute; reflexivity|]. vm_compute. auto. Qed.
