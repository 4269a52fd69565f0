(** * HCSearch: the searches on the cluster forest (IC/src/Core.hpp:228-350). *)
From Coq Require Import Sorted Relations.
From Verif Require Import Base MHC HCThy.

Section Search.
  Variable st : hc.
  Hypothesis W : wf st.
  Variable g : ext.
  Notation n := (hn st).

  (** [y] climbs to [x] over links heavier than the threshold. *)
  Inductive sub (x : nat) : nat -> Prop :=
  | sub_refl : sub x x
  | sub_step y : (y < n)%nat -> egtb (wt st y) g = true -> sub x (par st y) -> sub x y.

  Lemma sub_inv x y : sub x y -> y = x \/ sub x (par st y).
  Proof. destruct 1; auto. Qed.

  Lemma sub_rank x y : sub x y -> x = y \/ (rk st y < rk st x)%nat.
  Proof.
    induction 1 as [|y Hy Hg Hs IH]; auto. right.
    assert (K := wf_rk _ W y Hy (gt_nonroot st W y g Hy Hg)). destruct IH as [->|IH]; lia.
  Qed.

  Lemma sub_rt x y : sub x y -> rt st g y = rt st g x.
  Proof. induction 1 as [|y Hy Hg Hs IH]; auto. rewrite rt_step; auto. Qed.

  Lemma sub_root y : (y < n)%nat -> sub (rt st g y) y.
  Proof.
    revert y. apply (up_ind st W (fun y => sub (rt st g y) y)). intros y Hy IH.
    destruct (egtb (wt st y) g) eqn:E; [|rewrite rt_stop by auto; constructor].
    apply sub_step; auto. rewrite (rt_step st W y g) by auto. apply IH. eapply gt_nonroot; eauto.
  Qed.

  Lemma sub_dec x : forall y, (y < n)%nat -> sub x y \/ ~ sub x y.
  Proof.
    apply (up_ind st W (fun y => sub x y \/ ~ sub x y)). intros z Hz IHz.
    destruct (Nat.eq_dec z x) as [->|Nz]; [left; constructor|].
    destruct (egtb (wt st z) g) eqn:Ez.
    - destruct (IHz (gt_nonroot st W z g Hz Ez)) as [K|K]; [left; apply sub_step; auto|].
      right. intro C. inversion C; subst; auto.
    - right. intro C. inversion C; subst; congruence.
  Qed.

  Lemma sub_lt x y : (x < n)%nat -> sub x y -> (y < n)%nat.
  Proof. intros Hx. destruct 1; auto. Qed.

  (** Two ancestors of one node are comparable. *)
  Lemma sub_linear x x' y : sub x y -> sub x' y -> sub x x' \/ sub x' x.
  Proof.
    induction 1 as [|y Hy Hg Hs IH]; intro H'; auto.
    inversion H' as [|? ? ? H2]; subst; [left; apply sub_step; auto|]. auto.
  Qed.

  (** The node just below [x] on the way up from [y]. *)
  Lemma sub_child x y : (x < n)%nat -> sub x y ->
    y = x \/ exists c, (c < n)%nat /\ c <> x /\ par st c = x /\ egtb (wt st c) g = true /\ sub c y.
  Proof.
    intro Hx. induction 1 as [|y Hy Hg Hs IH]; auto. right. destruct IH as [E|(c & C1 & C2 & C3 & C4 & C5)].
    - exists y. split; auto. assert (N := gt_nonroot st W y g Hy Hg).
      split; [congruence|]. split; auto. split; auto. constructor.
    - exists c. repeat split; auto. apply sub_step; auto.
  Qed.

  Lemma child_sub x c y : (c < n)%nat -> par st c = x -> egtb (wt st c) g = true -> sub c y -> sub x y.
  Proof.
    intros H1 H2 H3. induction 1 as [|y Hy Hg Hs IH].
    - apply sub_step; auto. rewrite H2. constructor.
    - apply sub_step; auto.
  Qed.

  Lemma children_disjoint x c c' y : (c < n)%nat -> (c' < n)%nat -> c <> x -> c' <> x ->
    par st c = x -> par st c' = x -> sub c y -> sub c' y -> c = c'.
  Proof.
    intros H1 H2 N1 N2 P1 P2 S1 S2.
    assert (R1 : (rk st c < rk st x)%nat) by (rewrite <- P1; apply (wf_rk _ W); auto; congruence).
    assert (R2 : (rk st c' < rk st x)%nat) by (rewrite <- P2; apply (wf_rk _ W); auto; congruence).
    destruct (sub_linear c c' y S1 S2) as [S|S]; apply sub_inv in S; destruct S as [S|S]; auto.
    - rewrite P2 in S. apply sub_rank in S. destruct S; [congruence|lia].
    - rewrite P1 in S. apply sub_rank in S. destruct S; [congruence|lia].
  Qed.

  (** ** The traversal below and beyond a queue entry *)
  Inductive trav : nat * nat -> list nat -> Prop :=
  | trav_intro e ls : travs (nbrs st g e) ls -> trav e (snd e :: concat ls)
  with travs : list (nat * nat) -> list (list nat) -> Prop :=
  | travs_nil : travs [] []
  | travs_cons e l es ls : trav e l -> travs es ls -> travs (e :: es) (l :: ls).

  Lemma travs_app es ls es' ls' : travs es ls -> travs es' ls' -> travs (es ++ es') (ls ++ ls').
  Proof. induction 1; simpl; auto. constructor; auto. Qed.

  Lemma travs_app_inv es es' L : travs (es ++ es') L ->
    exists ls ls', L = ls ++ ls' /\ travs es ls /\ travs es' ls'.
  Proof.
    revert L. induction es as [|e es IH]; simpl; intros L H.
    - exists [], L. split; auto. split; auto. constructor.
    - inversion H as [|? l ? ls0 H1 H2]; subst. destruct (IH _ H2) as (ls & ls' & E1 & E2 & E3).
      exists (l :: ls), ls'. subst. split; auto. split; auto. constructor; auto.
  Qed.

  (** Children lists combine. *)
  Lemma travs_children x (cs : list nat) :
    (x < n)%nat -> NoDup cs ->
    (forall c, In c cs -> (c < n)%nat /\ c <> x /\ par st c = x) ->
    (forall c, In c cs -> exists l, trav (x, c) l /\ NoDup l /\ forall y, In y l <-> sub c y) ->
    exists ls, travs (map (fun c => (x, c)) cs) ls /\ NoDup (concat ls) /\
      forall y, In y (concat ls) <-> exists c, In c cs /\ sub c y.
  Proof.
    intros Hx Hd Hc Hl. induction cs as [|c cs IH].
    - exists []. split; [constructor|]. split; [constructor|]. simpl. firstorder.
    - inversion Hd as [|? ? D1 D2]; subst.
      destruct IH as (ls & L1 & L2 & L3); auto.
      { intros; apply Hc; right; auto. } { intros; apply Hl; right; auto. }
      destruct (Hl c (or_introl eq_refl)) as (l & T1 & T2 & T3).
      exists (l :: ls). split; [constructor; auto|]. simpl. split.
      + apply NoDup_app_intro; auto. intros y Y1 Y2. apply T3 in Y1. apply L3 in Y2.
        destruct Y2 as (c' & C1 & C2). destruct (Hc c (or_introl eq_refl)) as (A1 & A2 & A3).
        destruct (Hc c' (or_intror C1)) as (B1 & B2 & B3).
        assert (c = c') by (eapply (children_disjoint x); eauto). subst. auto.
      + intro y. rewrite in_app_iff, T3, L3. split.
        * intros [H|(c' & C1 & C2)]; [exists c; auto|exists c'; auto].
        * intros (c' & [<-|C1] & C2); [auto|right; eauto].
  Qed.

  Lemma nbrs_down p x : par st x = p ->
    nbrs st g (p, x) = map (fun c => (x, c)) (filter (fun c => negb (c =? p)%nat && egtb (wt st c) g) (chd st x)).
  Proof. intro H. unfold nbrs. rewrite H, Nat.eqb_refl, andb_false_r. reflexivity. Qed.

  (** Below a child. *)
  Lemma trav_down x : (x < n)%nat -> par st x <> x -> egtb (wt st x) g = true ->
    exists l, trav (par st x, x) l /\ NoDup l /\ forall y, In y l <-> sub x y.
  Proof.
    revert x. apply (down_ind st W (fun x => par st x <> x -> egtb (wt st x) g = true ->
      exists l, trav (par st x, x) l /\ NoDup l /\ forall y, In y l <-> sub x y)).
    intros x Hx IH Hr Hg.
    set (p := par st x).
    set (cs := filter (fun c => negb (c =? p)%nat && egtb (wt st c) g) (chd st x)).
    assert (Hcs : forall c, In c cs <-> (c < n)%nat /\ c <> x /\ par st c = x /\ egtb (wt st c) g = true).
    { intro c. unfold cs. rewrite filter_In, (wf_chd _ W x c Hx), andb_true_iff, negb_true_iff, Nat.eqb_neq.
      split; [tauto|]. intros (A1 & A2 & A3 & A4). repeat split; auto. intros ->.
      assert (K1 := wf_rk _ W x Hx Hr). assert (K2 := wf_rk _ W p A1). unfold p in K2. fold p in K2.
      rewrite A3 in K2. assert (rk st p < rk st x)%nat by (apply K2; auto). unfold p in H. lia. }
    destruct (travs_children x cs Hx) as (ls & L1 & L2 & L3).
    { apply NoDup_filter. apply (wf_nd _ W); auto. }
    { intros c Hc. apply Hcs in Hc. tauto. }
    { intros c Hc. apply Hcs in Hc. destruct Hc as (A1 & A2 & A3 & A4).
      destruct (IH c A1 A2 A3) as (l & T1 & T2); [congruence|auto|]. rewrite A3 in T1. exists l. auto. }
    exists (x :: concat ls). split.
    { apply (trav_intro (p, x)). rewrite nbrs_down by auto. auto. }
    split.
    - constructor; auto. rewrite L3. intros (c & C1 & C2). apply Hcs in C1. destruct C1 as (A1 & A2 & A3 & A4).
      assert (K := wf_rk _ W c A1). rewrite A3 in K. apply sub_rank in C2. destruct C2 as [C2|C2]; [congruence|].
      assert (rk st c < rk st x)%nat by (apply K; congruence). lia.
    - intro y. simpl. rewrite L3. split.
      + intros [<-|(c & C1 & C2)]; [constructor|]. apply Hcs in C1. destruct C1 as (A1 & A2 & A3 & A4).
        eapply child_sub; eauto.
      + intro H. apply sub_child in H; auto. destruct H as [->|(c & C1 & C2 & C3 & C4 & C5)]; auto.
        right. exists c. split; auto. apply Hcs. auto.
  Qed.

  (** Beyond a node entered from one of its children, or from itself at the start. *)
  Lemma trav_up x : (x < n)%nat ->
    forall p, p = x \/ ((p < n)%nat /\ p <> x /\ par st p = x /\ egtb (wt st p) g = true) ->
    exists l, trav (p, x) l /\ NoDup l /\
      forall y, In y l <-> (y < n)%nat /\ rt st g y = rt st g x /\ ~ (p <> x /\ sub p y).
  Proof.
    revert x. apply (up_ind st W (fun x => forall p,
      p = x \/ ((p < n)%nat /\ p <> x /\ par st p = x /\ egtb (wt st p) g = true) ->
      exists l, trav (p, x) l /\ NoDup l /\
        forall y, In y l <-> (y < n)%nat /\ rt st g y = rt st g x /\ ~ (p <> x /\ sub p y))).
    intros x Hx IH p Hp.
    set (cs := filter (fun c => negb (c =? p)%nat && egtb (wt st c) g) (chd st x)).
    assert (Hcs : forall c, In c cs <-> (c < n)%nat /\ c <> x /\ par st c = x /\ egtb (wt st c) g = true /\ c <> p).
    { intro c. unfold cs. rewrite filter_In, (wf_chd _ W x c Hx), andb_true_iff, negb_true_iff, Nat.eqb_neq.
      tauto. }
    destruct (travs_children x cs Hx) as (ls & L1 & L2 & L3).
    { apply NoDup_filter. apply (wf_nd _ W); auto. }
    { intros c Hc. apply Hcs in Hc. tauto. }
    { intros c Hc. apply Hcs in Hc. destruct Hc as (A1 & A2 & A3 & A4 & A5).
      destruct (trav_down c A1) as (l & T1 & T2); [congruence|auto|]. rewrite A3 in T1. exists l. auto. }
    (* members of the lower part *)
    assert (Low : forall y, y = x \/ In y (concat ls) <-> sub x y /\ ~ (p <> x /\ sub p y)).
    { intro y. rewrite L3. split.
      - intros [->|(c & C1 & C2)].
        + split; [constructor|]. intros [N S]. apply sub_rank in S. destruct S as [S|S]; [auto|].
          destruct Hp as [Hp|(B1 & B2 & B3 & B4)]; [auto|].
          assert (K := wf_rk _ W p B1). rewrite B3 in K. assert (rk st p < rk st x)%nat by (apply K; auto). lia.
        + apply Hcs in C1. destruct C1 as (A1 & A2 & A3 & A4 & A5). split; [eapply child_sub; eauto|].
          intros [N S]. destruct Hp as [Hp|(B1 & B2 & B3 & B4)]; [auto|].
          apply A5. eapply (children_disjoint x); eauto.
      - intros [S N]. apply sub_child in S; auto. destruct S as [->|(c & C1 & C2 & C3 & C4 & C5)]; auto.
        right. exists c. split; auto. apply Hcs. repeat split; auto. intros ->. apply N. auto. }
    assert (XL : ~ In x (concat ls)).
    { intro C. apply L3 in C. destruct C as (c & C1 & C2). apply Hcs in C1.
      destruct C1 as (A1 & A2 & A3 & A4 & A5). apply sub_rank in C2. destruct C2 as [C2|C2]; [auto|].
      assert (K := wf_rk _ W c A1). rewrite A3 in K. assert (rk st c < rk st x)%nat by (apply K; auto). lia. }
    destruct (egtb (wt st x) g) eqn:E.
    - (* the link to the parent is followed *)
      assert (Hr := gt_nonroot st W x g Hx E).
      assert (Hpp : par st x <> p).
      { intro C. destruct Hp as [Hp|(B1 & B2 & B3 & B4)]; [congruence|].
        assert (K1 := wf_rk _ W x Hx Hr). assert (K2 := wf_rk _ W p B1).
        rewrite B3 in K2. rewrite C in K1. assert (rk st p < rk st x)%nat by (apply K2; auto). lia. }
      destruct (IH Hr x) as (lu & U1 & U2 & U3).
      { right. split; auto. }
      exists (x :: concat (lu :: ls)). split; [|split].
      + apply (trav_intro (p, x)). unfold nbrs.
        replace (par st x =? x)%nat with false by (symmetry; apply Nat.eqb_neq; auto).
        replace (par st x =? p)%nat with false by (symmetry; apply Nat.eqb_neq; auto).
        rewrite E. simpl. constructor; auto.
      + simpl. constructor.
        * rewrite in_app_iff. intros [C|C]; auto. apply U3 in C. destruct C as (_ & _ & C).
          apply C. split; auto. constructor.
        * apply NoDup_app_intro; auto. intros y Y1 Y2. apply U3 in Y1. destruct Y1 as (_ & _ & Y1).
          apply Y1. split; auto. apply (Low y). auto.
      + intro y. simpl. rewrite in_app_iff, U3. split.
        * intros [<-|[H|H]].
          { split; auto. split; auto. apply (Low x). auto. }
          { destruct H as (H1 & H2 & H3). split; auto. rewrite (rt_step st W x g) by auto. split; auto.
            intros [N S]. apply H3. split; auto. destruct Hp as [Hp|(B1 & B2 & B3 & B4)]; [congruence|].
            apply (child_sub x p y); auto. }
          { assert (S : sub x y /\ ~ (p <> x /\ sub p y)) by (apply Low; auto). destruct S as [S1 S2].
            split; [eapply sub_lt; eauto|]. split; auto. apply sub_rt; auto. }
        * intros (H1 & H2 & H3). rewrite (rt_step st W x g) in H2 by auto.
          assert (D := sub_dec x y H1).
          destruct D as [D|D].
          { assert (Q : y = x \/ In y (concat ls)) by (apply Low; auto). destruct Q; auto. }
          { right; left. repeat split; auto. intros [_ C]. auto. }
    - (* x is the root at this threshold *)
      exists (x :: concat ls). split; [|split].
      + apply (trav_intro (p, x)). unfold nbrs. rewrite E, andb_false_r. auto.
      + constructor; auto.
      + assert (Ex : rt st g x = x) by (apply rt_stop; auto).
        intro y. simpl. rewrite Ex. split.
        * intros H. assert (S : sub x y /\ ~ (p <> x /\ sub p y)) by (apply Low; destruct H; auto).
          destruct S as [S1 S2]. split; [eapply sub_lt; eauto|]. split; auto.
          apply sub_rt in S1. congruence.
        * intros (H1 & H2 & H3). assert (S := sub_root y H1). rewrite H2 in S.
          assert (Q : y = x \/ In y (concat ls)) by (apply Low; auto). destruct Q; auto.
  Qed.

  (** ** The queue *)
  Lemma bfs_ok : forall f q ls cl, travs q ls -> (length (concat ls) <= f)%nat ->
    exists l, bfs f st g q cl = Ok (cl ++ l) /\ Permutation l (concat ls).
  Proof.
    induction f as [|f IH]; intros q ls cl T Hf.
    - inversion T as [|e l es ls' T1 T2]; subst.
      + exists []. simpl. rewrite app_nil_r. auto.
      + exfalso. inversion T1; subst. simpl in Hf. lia.
    - inversion T as [|e l es ls' T1 T2]; subst.
      + exists []. simpl. rewrite app_nil_r. auto.
      + inversion T1 as [? lsn T3]; subst. simpl.
        destruct (IH (es ++ nbrs st g e) (ls' ++ lsn) (cl ++ [snd e])) as (l & L1 & L2).
        { apply travs_app; auto. }
        { simpl in Hf. rewrite app_length in Hf. rewrite concat_app, app_length. lia. }
        exists (snd e :: l). rewrite L1. split; [rewrite <- app_assoc; reflexivity|].
        simpl. constructor. rewrite L2, concat_app. apply Permutation_app_comm.
  Qed.

  Lemma search_ok i : (i < n)%nat ->
    exists l, bfs n st g [(i, i)] [] = Ok l /\ NoDup l /\
      forall y, In y l <-> (y < n)%nat /\ rt st g y = rt st g i.
  Proof.
    intro Hi. destruct (trav_up i Hi i (or_introl eq_refl)) as (l & T1 & T2 & T3).
    assert (T4 : forall y, In y l <-> (y < n)%nat /\ rt st g y = rt st g i).
    { intro y. rewrite T3. split; [tauto|]. intros [A B]. repeat split; auto. intros [C _]. auto. }
    destruct (bfs_ok n [(i, i)] [l] []) as (l' & L1 & L2).
    { constructor; auto. constructor. }
    { simpl. rewrite app_nil_r. assert (I : incl l (seq 0 n)).
      { intros y Hy. apply T4 in Hy. apply in_seq. lia. }
      assert (K := NoDup_incl_length T2 I). rewrite seq_length in K. auto. }
    simpl in L1, L2. rewrite app_nil_r in L2. exists l'. split; auto. split.
    - eapply Permutation_NoDup; [symmetry; eauto|auto].
    - intro y. rewrite <- T4. split; apply Permutation_in; auto. symmetry; auto.
  Qed.

  (** ** similarity *)
  Lemma similarity_ok : forall f i j, (i < n)%nat -> (j < n)%nat -> i <> j ->
    rt st NegInf i = rt st NegInf j -> (2 * n <= f + rk st i + rk st j)%nat ->
    exists s, similarity f st i j = Ok s /\ (forall h, rt st h i = rt st h j <-> egtb s h = true) /\
      exists k, (k < n)%nat /\ par st k <> k /\ s = wt st k.
  Proof.
    induction f as [|f IH]; intros i j Hi Hj Hij HR Hf.
    - exfalso. assert (K1 := wf_rk_lt st i W Hi). assert (K2 := wf_rk_lt st j W Hj). lia.
    - simpl. replace (i =? j)%nat with false by (symmetry; apply Nat.eqb_neq; auto).
      destruct ((par st i =? i)%nat && (par st j =? j)%nat) eqn:E0.
      { exfalso. apply andb_true_iff in E0. destruct E0 as [A B]. apply Nat.eqb_eq in A, B.
        rewrite !rt_root in HR by auto. auto. }
      assert (One : forall x y, (x < n)%nat -> (y < n)%nat -> x <> y -> par st x = y ->
        forall h, rt st h x = rt st h y <-> egtb (wt st x) h = true).
      { intros x y Hx Hy N P h. split.
        - intro E. destruct (egtb (wt st x) h) eqn:G; auto. exfalso. rewrite (rt_stop st x h) in E by auto.
          assert (R : par st x <> x) by congruence. assert (K := wf_rk _ W x Hx R). rewrite P in K.
          destruct (rt_rank st W y h Hy) as [Q|Q]; [congruence|]. rewrite <- E in Q. lia.
        - intro E. rewrite (rt_step st W x h) by auto. rewrite P. auto. }
      destruct (par st i =? j)%nat eqn:E1.
      { apply Nat.eqb_eq in E1. exists (wt st i). split; auto. split; [apply One; auto|].
        exists i. split; auto. split; congruence. }
      destruct (par st j =? i)%nat eqn:E2.
      { apply Nat.eqb_eq in E2. exists (wt st j). split; auto. split.
        - intro h. rewrite <- (One j i) by auto. split; auto.
        - exists j. split; auto. split; congruence. }
      apply Nat.eqb_neq in E1, E2.
      assert (Step : forall x y, (x < n)%nat -> (y < n)%nat -> x <> y -> par st x <> y ->
        egeb (wt st x) (wt st y) = true -> par st x <> x ->
        forall h, rt st h x = rt st h y <-> rt st h (par st x) = rt st h y).
      { intros x y Hx Hy N P G R h. destruct (egtb (wt st x) h) eqn:E.
        - rewrite (rt_step st W x h) by auto. tauto.
        - assert (Ey : egtb (wt st y) h = false).
          { destruct (egtb (wt st y) h) eqn:Q; auto. rewrite (egeb_gt_trans _ _ _ G Q) in E. discriminate. }
          assert (Ep : egtb (wt st (par st x)) h = false).
          { destruct (egtb (wt st (par st x)) h) eqn:Q; auto.
            rewrite (egeb_gt_trans _ _ _ (wf_heap _ W x Hx) Q) in E. discriminate. }
          rewrite !rt_stop by auto. tauto. }
      assert (RootF : forall x y, (x < n)%nat -> (y < n)%nat -> egeb (wt st x) (wt st y) = true ->
        par st x = x -> par st y = y).
      { intros x y Hx Hy G R. destruct (wf_wt _ W x Hx) as [[_ A]|[A _]]; [|congruence].
        destruct (wf_wt _ W y Hy) as [[B _]|[_ (v & B)]]; auto. rewrite A, B in G. discriminate. }
      destruct (egeb (wt st i) (wt st j)) eqn:E3.
      + assert (R : par st i <> i).
        { intro C. assert (C2 := RootF i j Hi Hj E3 C). rewrite C, C2, !Nat.eqb_refl in E0. discriminate. }
        assert (K := wf_rk _ W i Hi R).
        destruct (IH (par st i) j) as (s & S1 & S2 & S3); auto.
        * apply (wf_par _ W); auto.
        * apply (Step i j); auto.
        * lia.
        * exists s. split; auto. split; auto. intro h. rewrite <- S2. apply Step; auto.
      + apply egeb_total in E3. assert (R : par st j <> j).
        { intro C. assert (C2 := RootF j i Hj Hi E3 C). rewrite C, C2, !Nat.eqb_refl in E0. discriminate. }
        assert (K := wf_rk _ W j Hj R).
        destruct (IH (par st j) i) as (s & S1 & S2 & S3); auto.
        * apply (wf_par _ W); auto.
        * apply (Step j i); auto.
        * lia.
        * exists s. split; auto. split; auto. intro h. rewrite <- S2.
          rewrite <- (Step j i) by auto. split; auto.
  Qed.

  Lemma similarity_apart : forall f i j, (i < n)%nat -> (j < n)%nat ->
    rt st NegInf i <> rt st NegInf j -> (2 * n <= f + rk st i + rk st j)%nat ->
    similarity f st i j = Ok (Val 0).
  Proof.
    induction f as [|f IH]; intros i j Hi Hj HR Hf.
    - exfalso. assert (K1 := wf_rk_lt st i W Hi). assert (K2 := wf_rk_lt st j W Hj). lia.
    - simpl. assert (Hij : i <> j) by congruence.
      replace (i =? j)%nat with false by (symmetry; apply Nat.eqb_neq; auto).
      destruct ((par st i =? i)%nat && (par st j =? j)%nat) eqn:E0; auto.
      assert (Up : forall x, (x < n)%nat -> par st x <> x -> rt st NegInf x = rt st NegInf (par st x)).
      { intros x Hx R. apply rt_step; auto. rewrite NegInf_gt by auto. unfold is_root.
        apply Nat.eqb_neq in R. rewrite R. auto. }
      destruct (par st i =? j)%nat eqn:E1.
      { exfalso. apply Nat.eqb_eq in E1. rewrite (Up i) in HR by (auto; congruence). congruence. }
      destruct (par st j =? i)%nat eqn:E2.
      { exfalso. apply Nat.eqb_eq in E2. rewrite (Up j) in HR by (auto; congruence). congruence. }
      assert (RootF : forall x y, (x < n)%nat -> (y < n)%nat -> egeb (wt st x) (wt st y) = true ->
        par st x = x -> par st y = y).
      { intros x y Hx Hy G R. destruct (wf_wt _ W x Hx) as [[_ A]|[A _]]; [|congruence].
        destruct (wf_wt _ W y Hy) as [[B _]|[_ (v & B)]]; auto. rewrite A, B in G. discriminate. }
      destruct (egeb (wt st i) (wt st j)) eqn:E3.
      + assert (R : par st i <> i).
        { intro C. assert (C2 := RootF i j Hi Hj E3 C). rewrite C, C2, !Nat.eqb_refl in E0. discriminate. }
        assert (K := wf_rk _ W i Hi R). apply IH; auto.
        * apply (wf_par _ W); auto.
        * rewrite <- Up by auto. auto.
        * lia.
      + apply egeb_total in E3. assert (R : par st j <> j).
        { intro C. assert (C2 := RootF j i Hj Hi E3 C). rewrite C, C2, !Nat.eqb_refl in E0. discriminate. }
        assert (K := wf_rk _ W j Hj R). apply IH; auto.
        * apply (wf_par _ W); auto.
        * rewrite <- Up by auto. auto.
        * lia.
  Qed.
End Search.
