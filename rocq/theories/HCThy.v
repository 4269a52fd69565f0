(** * HCThy: invariants of the cluster forest (IC/src/Core.hpp). *)
From Coq Require Import Sorted Relations.
From Verif Require Import Base MHC.

(** ** Specification: connectivity through a list of weighted pairs *)
Definition joined (acc : list (nat * nat * Q)) (g : ext) : nat -> nat -> Prop :=
  clos_refl_sym_trans nat (fun a b => exists w, In (a, b, w) acc /\ egtb (Val w) g = true).

(** The calls that returned true. *)
Definition accepted (ops : list (nat * nat * Q)) (bs : list bool) : list (nat * nat * Q) :=
  map fst (filter snd (combine ops bs)).

(** ** Comparison of extended numbers *)
Lemma egtb_trans a b c : egtb a b = true -> egeb b c = true -> egtb a c = true.
Proof.
  unfold egeb. destruct a, b, c; simpl; try congruence.
  rewrite negb_true_iff, !Qltb_true, Qltb_false. lra.
Qed.
Lemma egeb_gt_trans a b c : egeb a b = true -> egtb b c = true -> egtb a c = true.
Proof.
  unfold egeb. destruct a, b, c; simpl; try congruence.
  rewrite negb_true_iff, !Qltb_true, Qltb_false. lra.
Qed.
Lemma egeb_refl a : egeb a a = true.
Proof. unfold egeb. destruct a; simpl; auto. rewrite negb_true_iff, Qltb_false. lra. Qed.
Lemma egeb_trans a b c : egeb a b = true -> egeb b c = true -> egeb a c = true.
Proof.
  unfold egeb. destruct a, b, c; simpl; try congruence.
  rewrite !negb_true_iff, !Qltb_false. lra.
Qed.
Lemma egeb_total a b : egeb a b = false -> egeb b a = true.
Proof.
  unfold egeb. destruct a, b; simpl; try congruence.
  rewrite negb_false_iff, Qltb_true, negb_true_iff, Qltb_false. lra.
Qed.
Lemma egtb_irrefl a : egtb a a = false.
Proof. destruct a; simpl; auto. apply Qltb_false. lra. Qed.
Lemma egt_NegInf w g : egtb w g = true -> w <> NegInf.
Proof. destruct w; simpl; congruence. Qed.

(** ** Shape of the forest *)
Definition is_root (st : hc) (i : nat) : bool := (par st i =? i)%nat.
Definition nroots (st : hc) : nat := length (filter (is_root st) (seq 0 (hn st))).

Record wf (st : hc) : Prop := {
  wf_par : forall i, (i < hn st)%nat -> (par st i < hn st)%nat;
  wf_rk : forall i, (i < hn st)%nat -> par st i <> i -> (rk st i < rk st (par st i))%nat;
  wf_chd : forall p c, (p < hn st)%nat ->
             (In c (chd st p) <-> (c < hn st)%nat /\ c <> p /\ par st c = p);
  wf_nd : forall p, (p < hn st)%nat -> NoDup (chd st p);
  wf_wt : forall i, (i < hn st)%nat ->
             (par st i = i /\ wt st i = NegInf) \/ (par st i <> i /\ exists w, wt st i = Val w);
  wf_heap : forall i, (i < hn st)%nat -> egeb (wt st i) (wt st (par st i)) = true;
  wf_csort : forall p, (p < hn st)%nat ->
             StronglySorted (fun c d => egeb (wt st c) (wt st d) = true) (chd st p);
  wf_cnt : forall i, (i < hn st)%nat -> (rk st i + nroots st <= hn st)%nat;
  wf_pos : forall i, (i < hn st)%nat -> (1 <= nroots st)%nat
}.

Lemma wf_rk_lt st i : wf st -> (i < hn st)%nat -> (rk st i < hn st)%nat.
Proof. intros W H. assert (A := wf_cnt _ W i H). assert (B := wf_pos _ W i H). lia. Qed.

(** The root of a node when only links heavier than the threshold are followed. *)
Fixpoint rtf (fuel : nat) (st : hc) (g : ext) (i : nat) : nat :=
  match fuel with
  | O => i
  | S f => if (par st i =? i)%nat || negb (egtb (wt st i) g) then i else rtf f st g (par st i)
  end.
Definition rt (st : hc) (g : ext) (i : nat) : nat := rtf (hn st) st g i.

Section Forest.
  Variable st : hc.
  Hypothesis W : wf st.
  Notation n := (hn st).

  Lemma gt_nonroot i g : (i < n)%nat -> egtb (wt st i) g = true -> par st i <> i.
  Proof.
    intros Hi Hg. destruct (wf_wt _ W i Hi) as [[_ E]|[E _]]; auto.
    rewrite E in Hg. discriminate.
  Qed.

  Lemma rtf_more : forall f i g, (i < n)%nat -> (n <= f + rk st i)%nat ->
    rtf (S f) st g i = rtf f st g i.
  Proof.
    induction f as [|f IH]; intros i g Hi Hf.
    - exfalso. assert (H := wf_rk_lt _ _ W Hi). simpl in Hf. lia.
    - change (rtf (S (S f)) st g i) with
        (if (par st i =? i)%nat || negb (egtb (wt st i) g) then i else rtf (S f) st g (par st i)).
      change (rtf (S f) st g i) with
        (if (par st i =? i)%nat || negb (egtb (wt st i) g) then i else rtf f st g (par st i)).
      destruct (par st i =? i)%nat eqn:E; simpl; auto. destruct (egtb (wt st i) g) eqn:E2; simpl; auto.
      apply Nat.eqb_neq in E. apply IH.
      + apply (wf_par _ W); auto.
      + assert (H := wf_rk _ W i Hi E). lia.
  Qed.

  Lemma rtf_enough : forall k f i g, (i < n)%nat -> (n <= f + rk st i)%nat ->
    rtf (k + f) st g i = rtf f st g i.
  Proof.
    induction k as [|k IH]; intros f i g Hi Hf; auto.
    change (S k + f)%nat with (S (k + f)). rewrite rtf_more; auto. lia.
  Qed.

  Lemma rt_stop i g : egtb (wt st i) g = false -> rt st g i = i.
  Proof. intro H. unfold rt. destruct n; simpl; auto. rewrite H. simpl. rewrite orb_true_r. auto. Qed.

  Lemma rt_root i g : par st i = i -> rt st g i = i.
  Proof. intro H. unfold rt. destruct n; simpl; auto. rewrite H, Nat.eqb_refl. auto. Qed.

  Lemma rt_step i g : (i < n)%nat -> egtb (wt st i) g = true -> rt st g i = rt st g (par st i).
  Proof.
    intros Hi Hg. unfold rt. assert (E : exists m, n = S m) by (exists (pred n); lia).
    assert (Hr := gt_nonroot i g Hi Hg).
    assert (Hk := wf_rk _ W i Hi Hr).
    transitivity (rtf (S n) st g i); [symmetry; apply rtf_more; auto; lia|].
    simpl. apply Nat.eqb_neq in Hr. rewrite Hr, Hg. reflexivity.
  Qed.

  (** Induction towards the root. *)
  Lemma up_ind (P : nat -> Prop) :
    (forall i, (i < n)%nat -> (par st i <> i -> P (par st i)) -> P i) ->
    forall i, (i < n)%nat -> P i.
  Proof.
    intros H. assert (G : forall k i, (i < n)%nat -> (n - rk st i <= k)%nat -> P i).
    { induction k as [|k IH]; intros i Hi Hk.
      - exfalso. assert (K := wf_rk_lt _ _ W Hi). lia.
      - apply H; auto. intro Hr. apply IH; [apply (wf_par _ W); auto|].
        assert (K := wf_rk _ W i Hi Hr). assert (K2 := wf_rk_lt _ _ W Hi). lia. }
    intros i Hi. apply (G n i Hi). lia.
  Qed.

  (** Induction towards the leaves. *)
  Lemma down_ind (P : nat -> Prop) :
    (forall i, (i < n)%nat -> (forall c, (c < n)%nat -> c <> i -> par st c = i -> P c) -> P i) ->
    forall i, (i < n)%nat -> P i.
  Proof.
    intros H. assert (G : forall k i, (i < n)%nat -> (rk st i < k)%nat -> P i).
    { induction k as [|k IH]; intros i Hi Hk; [lia|]. apply H; auto. intros c Hc Hn Hp.
      apply IH; auto. assert (K := wf_rk _ W c Hc). rewrite Hp in K.
      assert (rk st c < rk st i)%nat by (apply K; congruence). lia. }
    intros i Hi. apply (G (S (rk st i)) i Hi). lia.
  Qed.

  Lemma rt_lt i g : (i < n)%nat -> (rt st g i < n)%nat.
  Proof.
    revert i. apply (up_ind (fun i => (rt st g i < n)%nat)). intros i Hi IH.
    destruct (egtb (wt st i) g) eqn:E; [|rewrite rt_stop; auto].
    rewrite rt_step by auto. apply IH. eapply gt_nonroot; eauto.
  Qed.

  Lemma rt_end i g : (i < n)%nat -> egtb (wt st (rt st g i)) g = false.
  Proof.
    revert i. apply (up_ind (fun i => egtb (wt st (rt st g i)) g = false)). intros i Hi IH.
    destruct (egtb (wt st i) g) eqn:E; [|rewrite rt_stop; auto].
    rewrite rt_step by auto. apply IH. eapply gt_nonroot; eauto.
  Qed.

  Lemma rt_idem i g : (i < n)%nat -> rt st g (rt st g i) = rt st g i.
  Proof. intro Hi. apply rt_stop. apply rt_end; auto. Qed.

  Lemma rt_rank i g : (i < n)%nat -> rt st g i = i \/ (rk st i < rk st (rt st g i))%nat.
  Proof.
    revert i. apply (up_ind (fun i => rt st g i = i \/ (rk st i < rk st (rt st g i))%nat)).
    intros i Hi IH. destruct (egtb (wt st i) g) eqn:E; [|left; apply rt_stop; auto].
    rewrite rt_step by auto. assert (Hr := gt_nonroot _ _ Hi E). right.
    assert (K := wf_rk _ W i Hi Hr). destruct (IH Hr) as [->|IH']; lia.
  Qed.

  Lemma NegInf_gt i : (i < n)%nat -> egtb (wt st i) NegInf = negb (is_root st i).
  Proof.
    intro Hi. unfold is_root. destruct (wf_wt _ W i Hi) as [[E1 E2]|[E1 [w E2]]]; rewrite E2; simpl.
    - rewrite E1, Nat.eqb_refl. auto.
    - apply Nat.eqb_neq in E1. rewrite E1. auto.
  Qed.

  Lemma rt_is_root i : (i < n)%nat -> par st (rt st NegInf i) = rt st NegInf i.
  Proof.
    intro Hi. assert (H := rt_end i NegInf Hi). rewrite NegInf_gt in H by (apply rt_lt; auto).
    apply negb_false_iff in H. apply Nat.eqb_eq in H. auto.
  Qed.

  (** find ends at the root after at most rank(root) - rank(i) steps. *)
  Lemma find_ok : forall f i, (i < n)%nat -> (rk st (rt st NegInf i) < f + rk st i)%nat ->
    hc_find f (par st) i = Ok (rt st NegInf i).
  Proof.
    induction f as [|f IH]; intros i Hi Hf.
    - exfalso. destruct (rt_rank i NegInf Hi) as [E|E]; [rewrite E in Hf|]; simpl in Hf; lia.
    - simpl. destruct (par st i =? i)%nat eqn:E.
      + apply Nat.eqb_eq in E. rewrite rt_root; auto.
      + assert (G : egtb (wt st i) NegInf = true) by (rewrite NegInf_gt by auto; unfold is_root; rewrite E; auto).
        rewrite rt_step by auto. rewrite rt_step in Hf by auto. apply Nat.eqb_neq in E.
        assert (K := wf_rk _ W i Hi E). apply IH; [apply (wf_par _ W); auto|]. lia.
  Qed.

  Lemma find_total i : (i < n)%nat -> hc_find (S n) (par st) i = Ok (rt st NegInf i).
  Proof.
    intro Hi. apply find_ok; auto. assert (K := wf_rk_lt st _ W (rt_lt i NegInf Hi)). lia.
  Qed.

  (** Lower thresholds give larger trees. *)
  Lemma rt_mono i g g' : (i < n)%nat -> egeb g g' = true -> rt st g' (rt st g i) = rt st g' i.
  Proof.
    intros Hi Hg. revert i Hi. apply (up_ind (fun i => rt st g' (rt st g i) = rt st g' i)).
    intros i Hi IH. destruct (egtb (wt st i) g) eqn:E; [|rewrite (rt_stop i g) by auto; auto].
    rewrite (rt_step i g) by auto.
    assert (E' : egtb (wt st i) g' = true) by (eapply egtb_trans; eauto).
    rewrite (rt_step i g') by auto. apply IH. eapply gt_nonroot; eauto.
  Qed.
End Forest.

(** ** The initial forest *)
Lemma nroots_new n : nroots (hc_new n) = n.
Proof.
  unfold nroots. simpl. transitivity (length (seq 0 n)); [|apply seq_length]. f_equal.
  induction (seq 0 n) as [|a l IH]; simpl; auto. unfold is_root at 1. simpl.
  rewrite Nat.eqb_refl. f_equal; auto.
Qed.

Lemma wf_new n : wf (hc_new n).
Proof.
  constructor; try rewrite nroots_new; simpl; intros; auto; try lia; try (exfalso; auto; fail); constructor.
Qed.

(** ** Linking two roots *)
Section Link.
  Variable st : hc.
  Hypothesis W : wf st.
  Notation n := (hn st).
  Variables (a b : nat) (w : Q) (gs : list Q) (rk' : nat -> nat).
  Hypothesis Ha : (a < n)%nat.
  Hypothesis Hb : (b < n)%nat.
  Hypothesis Hab : a <> b.
  Hypothesis Ra : par st a = a.
  Hypothesis Rb : par st b = b.
  Hypothesis Hmin : forall i v, (i < n)%nat -> wt st i = Val v -> w <= v.
  (* the rank update of merge *)
  Hypothesis Hrk : (rk st a < rk' b)%nat.
  Hypothesis Hrk1 : forall i, i <> b -> rk' i = rk st i.
  Hypothesis Hrk2 : (rk st b <= rk' b <= S (rk st b))%nat.
  Hypothesis Hrk3 : (rk' b = S (rk st b) -> rk st a = rk st b).

  Definition linked : hc :=
    mkHC n gs (upd (par st) a b) (upd (chd st) b (chd st b ++ [a])) (upd (wt st) a (Val w)) rk'.

  Lemma par_linked i : par linked i = if (i =? a)%nat then b else par st i.
  Proof. reflexivity. Qed.
  Lemma wt_linked i : wt linked i = if (i =? a)%nat then Val w else wt st i.
  Proof. reflexivity. Qed.

  Lemma nroots_linked : S (nroots linked) = nroots st.
  Proof.
    unfold nroots. simpl hn.
    assert (G : forall l, NoDup l ->
      (length (filter (is_root linked) l) + (if mem l a then 1 else 0) = length (filter (is_root st) l))%nat).
    { induction l as [|x l IH]; intro Hd; auto. inversion Hd as [|? ? H1 H2]; subst. specialize (IH H2).
      rewrite mem_cons. cbn [filter].
      assert (El : is_root linked x = if (x =? a)%nat then false else is_root st x).
      { unfold is_root. rewrite par_linked. destruct (x =? a)%nat eqn:Ex; auto.
        apply Nat.eqb_eq in Ex. subst. apply Nat.eqb_neq. auto. }
      rewrite El. destruct (Nat.eq_dec x a) as [->|Hx].
      - rewrite Nat.eqb_refl. simpl.
        assert (Ea : is_root st a = true) by (unfold is_root; rewrite Ra; apply Nat.eqb_refl).
        assert (M : mem l a = false) by (apply mem_false; auto). rewrite M in IH. rewrite Ea. simpl. lia.
      - replace (x =? a)%nat with false by (symmetry; apply Nat.eqb_neq; auto).
        replace (a =? x)%nat with false by (symmetry; apply Nat.eqb_neq; auto).
        simpl. destruct (is_root st x); simpl; lia. }
    specialize (G (seq 0 n) (seq_NoDup n 0)).
    assert (M : mem (seq 0 n) a = true) by (apply mem_In, in_seq; lia). rewrite M in G. lia.
  Qed.

  Lemma root_b_pos : (1 <= nroots linked)%nat.
  Proof.
    unfold nroots. simpl hn. assert (I : In b (filter (is_root linked) (seq 0 n))).
    { apply filter_In. split; [apply in_seq; lia|]. unfold is_root. rewrite par_linked.
      replace (b =? a)%nat with false by (symmetry; apply Nat.eqb_neq; auto).
      rewrite Rb. apply Nat.eqb_refl. }
    destruct (filter _ _); simpl in *; [tauto|lia].
  Qed.

  Lemma wf_linked : wf linked.
  Proof.
    constructor; simpl.
    - intros i Hi. unfold upd. destruct (i =? a)%nat; auto. apply (wf_par _ W); auto.
    - intros i Hi. unfold upd. destruct (i =? a)%nat eqn:E.
      + apply Nat.eqb_eq in E. subst i. intros _. rewrite (Hrk1 a) by auto. auto.
      + intro Hr. assert (K := wf_rk _ W i Hi Hr).
        assert (Hib : i <> b) by (intro; subst; congruence).
        rewrite (Hrk1 i) by auto.
        destruct (Nat.eq_dec (par st i) b) as [Hp|Hp]; [rewrite Hp in K |- *; lia|].
        rewrite Hrk1 by auto. auto.
    - intros p c Hp. unfold upd. destruct (p =? b)%nat eqn:E.
      + apply Nat.eqb_eq in E. subst p. rewrite in_app_iff, (wf_chd _ W b c Hb). simpl.
        destruct (c =? a)%nat eqn:Ec.
        * apply Nat.eqb_eq in Ec. subst c. intuition.
        * apply Nat.eqb_neq in Ec. intuition.
      + apply Nat.eqb_neq in E. rewrite (wf_chd _ W p c Hp). destruct (c =? a)%nat eqn:Ec.
        * apply Nat.eqb_eq in Ec. subst c. rewrite Ra. intuition congruence.
        * tauto.
    - intros p Hp. unfold upd. destruct (p =? b)%nat eqn:E; [|apply (wf_nd _ W); auto].
      apply NoDup_app_intro; [apply (wf_nd _ W); auto|repeat constructor; simpl; tauto|].
      intros x Hx [<-|[]]. apply (wf_chd _ W b a Hb) in Hx. destruct Hx as (_ & _ & Hx). congruence.
    - intros i Hi. unfold upd. destruct (i =? a)%nat eqn:E; [|apply (wf_wt _ W); auto].
      apply Nat.eqb_eq in E. subst. right. split; eauto.
    - intros i Hi. unfold upd. destruct (i =? a)%nat eqn:E.
      + replace (b =? a)%nat with false by (symmetry; apply Nat.eqb_neq; auto).
        destruct (wf_wt _ W b Hb) as [[_ ->]|[C _]]; [reflexivity|congruence].
      + destruct (par st i =? a)%nat eqn:E2; [|apply (wf_heap _ W); auto].
        apply Nat.eqb_eq in E2. apply Nat.eqb_neq in E.
        destruct (wf_wt _ W i Hi) as [[C _]|[_ (v & Ev)]]; [congruence|].
        rewrite Ev. unfold egeb. simpl. rewrite negb_true_iff. apply Qltb_false. eauto.
    - intros p Hp.
      assert (Old : StronglySorted (fun c d => egeb (upd (wt st) a (Val w) c) (upd (wt st) a (Val w) d) = true) (chd st p)).
      { assert (K := wf_csort _ W p Hp).
        assert (N : forall c, In c (chd st p) -> c <> a).
        { intros c Hc ->. apply (wf_chd _ W p a Hp) in Hc. destruct Hc as (_ & C1 & C2). congruence. }
        revert K N. generalize (chd st p). induction l as [|c l IH]; intros K N; [constructor|].
        inversion K as [|? ? K1 K2]; subst. constructor; [apply IH; auto; intros; apply N; right; auto|].
        rewrite Forall_forall in K2 |- *. intros d Hd. unfold upd.
        replace (c =? a)%nat with false by (symmetry; apply Nat.eqb_neq, N; left; auto).
        replace (d =? a)%nat with false by (symmetry; apply Nat.eqb_neq, N; right; auto). auto. }
      unfold upd at 3. destruct (p =? b)%nat eqn:E; auto. apply Nat.eqb_eq in E. subst p.
      assert (M : forall c, In c (chd st b) -> exists v, upd (wt st) a (Val w) c = Val v /\ w <= v).
      { intros c Hc. apply (wf_chd _ W b c Hb) in Hc. destruct Hc as (C0 & C1 & C2). unfold upd.
        destruct (c =? a)%nat eqn:Ec; [exists w; split; auto; lra|].
        destruct (wf_wt _ W c C0) as [[C _]|[_ (v & C)]]; [congruence|]. exists v. split; auto. eauto. }
      revert Old M. generalize (chd st b). induction l as [|c l IH]; intros K M; simpl; [repeat constructor|].
      inversion K as [|? ? K1 K2]; subst. constructor; [apply IH; auto; intros; apply M; right; auto|].
      apply Forall_app. split; auto. constructor; auto.
      destruct (M c (or_introl eq_refl)) as (v & V1 & V2). rewrite V1. unfold upd. rewrite Nat.eqb_refl.
      unfold egeb. simpl. rewrite negb_true_iff. apply Qltb_false. auto.
    - intros i Hi. assert (N := nroots_linked). assert (K := wf_cnt _ W i Hi).
      destruct (Nat.eq_dec i b) as [->|Hi2]; [|rewrite Hrk1 by auto; lia]. lia.
    - intros i Hi. apply root_b_pos.
  Qed.

  (** Thresholds at or above the new weight: nothing changes. *)
  Lemma rt_linked_high g i : egtb (Val w) g = false -> (i < n)%nat -> rt linked g i = rt st g i.
  Proof.
    intros Hg Hi. revert i Hi. apply (up_ind st W (fun i => rt linked g i = rt st g i)).
    intros i Hi IH. destruct (Nat.eq_dec i a) as [->|Hia].
    - rewrite (rt_stop linked). 2:{ rewrite wt_linked, Nat.eqb_refl. auto. }
      symmetry. apply rt_root. auto.
    - assert (Ew : wt linked i = wt st i).
      { rewrite wt_linked. replace (i =? a)%nat with false by (symmetry; apply Nat.eqb_neq; auto). auto. }
      assert (Ep : par linked i = par st i).
      { rewrite par_linked. replace (i =? a)%nat with false by (symmetry; apply Nat.eqb_neq; auto). auto. }
      destruct (egtb (wt st i) g) eqn:E.
      + rewrite (rt_step linked wf_linked i g) by (auto; rewrite Ew; auto).
        rewrite (rt_step st W i g) by auto. rewrite Ep. apply IH. eapply gt_nonroot; eauto.
      + rewrite (rt_stop linked) by (rewrite Ew; auto). symmetry. apply rt_stop; auto.
  Qed.

  Lemma low_all g i : egtb (Val w) g = true -> (i < n)%nat -> par st i <> i -> egtb (wt st i) g = true.
  Proof.
    intros Hg Hi Hr. destruct (wf_wt _ W i Hi) as [[C _]|[_ (v & Ev)]]; [congruence|].
    rewrite Ev. assert (K := Hmin i v Hi Ev). eapply egeb_gt_trans; [|exact Hg].
    unfold egeb. simpl. rewrite negb_true_iff. apply Qltb_false. auto.
  Qed.

  Lemma rt_low g i : egtb (Val w) g = true -> (i < n)%nat -> rt st g i = rt st NegInf i.
  Proof.
    intros Hg Hi. revert i Hi. apply (up_ind st W (fun i => rt st g i = rt st NegInf i)).
    intros i Hi IH. destruct (Nat.eq_dec (par st i) i) as [E|E].
    - rewrite !rt_root; auto.
    - rewrite (rt_step st W i g) by (auto; apply low_all; auto).
      rewrite (rt_step st W i NegInf); auto. rewrite NegInf_gt by auto.
      apply Nat.eqb_neq in E. unfold is_root. rewrite E. auto.
  Qed.

  (** Thresholds below the new weight: the two trees become one. *)
  Lemma rt_linked_low g i : egtb (Val w) g = true -> (i < n)%nat ->
    rt linked g i = if (rt st NegInf i =? a)%nat then b else rt st NegInf i.
  Proof.
    intros Hg Hi. revert i Hi.
    apply (up_ind st W (fun i => rt linked g i = if (rt st NegInf i =? a)%nat then b else rt st NegInf i)).
    intros i Hi IH.
    assert (Rb' : rt linked g b = b).
    { apply rt_root. rewrite par_linked. replace (b =? a)%nat with false by (symmetry; apply Nat.eqb_neq; auto). auto. }
    destruct (Nat.eq_dec i a) as [->|Hia].
    - rewrite (rt_step linked wf_linked) by (auto; rewrite wt_linked, Nat.eqb_refl; auto).
      rewrite par_linked, Nat.eqb_refl, Rb'. rewrite (rt_root st a) by auto. rewrite Nat.eqb_refl. auto.
    - assert (Ew : wt linked i = wt st i).
      { rewrite wt_linked. replace (i =? a)%nat with false by (symmetry; apply Nat.eqb_neq; auto). auto. }
      assert (Ep : par linked i = par st i).
      { rewrite par_linked. replace (i =? a)%nat with false by (symmetry; apply Nat.eqb_neq; auto). auto. }
      destruct (Nat.eq_dec (par st i) i) as [E|E].
      + rewrite (rt_root linked) by congruence. rewrite (rt_root st) by auto.
        replace (i =? a)%nat with false by (symmetry; apply Nat.eqb_neq; auto). auto.
      + rewrite (rt_step linked wf_linked) by (auto; rewrite Ew; apply low_all; auto).
        rewrite (rt_step st W i NegInf) by (auto; rewrite NegInf_gt by auto; unfold is_root;
          apply Nat.eqb_neq in E; rewrite E; auto).
        rewrite Ep. auto.
  Qed.
End Link.
