(** * HCPart: getPartition, getCriticalValues(i) and Chow-Liu clustering. *)
From Coq Require Import Sorted Relations.
From Verif Require Import Base Graph Spec MHC PartThy HCThy HCInv HCSearch.

(** ** The linked list *)
Definition lrep (L : list nat) (l : llist) : Prop :=
  forall l1 x l2, L = l1 ++ x :: l2 -> lprev l x = last l1 x /\ lnext l x = hd x l2.

Lemma app_len_inj {A} (a a' b b' : list A) : length a = length a' -> a ++ b = a' ++ b' -> a = a' /\ b = b'.
Proof.
  revert a'. induction a as [|x a IH]; intros [|y a'] H E; simpl in *; try discriminate; auto.
  injection E as -> E. destruct (IH a') as [-> ->]; auto.
Qed.

Lemma last_in {A} (l : list A) d : l <> [] -> In (last l d) l.
Proof.
  induction l as [|x l IH]; intro H; [congruence|]. destruct l as [|y l]; [left; auto|].
  right. apply IH. discriminate.
Qed.

Lemma last_app2 {A} (l1 l2 : list A) d : l2 <> [] -> last (l1 ++ l2) d = last l2 d.
Proof.
  intro H. induction l1 as [|x l1 IH]; auto. simpl. rewrite IH.
  destruct (l1 ++ l2) eqn:E; auto. apply app_eq_nil in E. destruct E. congruence.
Qed.

Lemma last_any {A} (l : list A) d d' : l <> [] -> last l d = last l d'.
Proof. induction l as [|x [|y l] IH]; intro H; [congruence|auto|]. apply IH. discriminate. Qed.

Lemma ll_new_rep n : lrep (seq 0 n) (ll_new n).
Proof.
  intros l1 x l2 E. assert (Hn : n = (length l1 + S (length l2))%nat).
  { rewrite <- (seq_length n 0), E, app_length. reflexivity. }
  rewrite Hn, seq_app in E. cbn [seq Nat.add] in E.
  apply app_len_inj in E; [|rewrite seq_length; auto]. destruct E as [E1 E2]. injection E2 as Ex E2.
  simpl. split.
  - destruct l1 as [|y l1].
    + simpl in Ex. subst x. reflexivity.
    + cbn [length] in *. rewrite (seq_S (length l1) 0) in E1. rewrite <- E1, last_last.
      subst x. simpl. lia.
  - destruct l2 as [|y l2].
    + simpl in Hn. simpl. replace (n - 1)%nat with x by lia. rewrite Nat.eqb_refl. auto.
    + simpl in E2. injection E2 as E2 _. simpl. simpl in Hn.
      replace (x =? n - 1)%nat with false by (symmetry; apply Nat.eqb_neq; lia). lia.
Qed.

Lemma ll_remove_rep l l1 x l2 :
  lrep (l1 ++ x :: l2) l -> NoDup (l1 ++ x :: l2) -> l1 <> [] -> lhead l <> x ->
  lrep (l1 ++ l2) (ll_remove l x).
Proof.
  intros R D N Hh m1 y m2 E.
  destruct (R l1 x l2 eq_refl) as [Rp Rn].
  assert (D' : NoDup (l1 ++ l2)) by (eapply NoDup_remove_1; eauto).
  assert (Dx : ~ In x (l1 ++ l2)) by (apply NoDup_remove_2; auto).
  assert (Hx1 : forall z, In z l1 -> z <> x) by (intros z Hz ->; apply Dx, in_or_app; auto).
  assert (Hx2 : forall z, In z l2 -> z <> x) by (intros z Hz ->; apply Dx, in_or_app; auto).
  destruct (NoDup_app_inv _ _ D') as (D1 & D2 & D3).
  unfold ll_remove. replace (lhead l =? x)%nat with false by (symmetry; apply Nat.eqb_neq; auto).
  rewrite Rp, Rn. set (p := last l1 x).
  assert (Hp : In p l1) by (apply last_in; auto).
  replace (p =? x)%nat with false by (symmetry; apply Nat.eqb_neq; auto). cbn [negb lprev lnext].
  assert (Cases : (exists k, l1 = m1 ++ y :: k /\ m2 = k ++ l2) \/ (exists k, l2 = k ++ y :: m2 /\ m1 = l1 ++ k)).
  { clear -E. revert m1 E. induction l1 as [|z l1 IH]; intros m1 E; simpl in E.
    - right. exists m1. auto.
    - destruct m1 as [|z' m1]; simpl in E; injection E as -> E.
      + left. exists l1. auto.
      + destruct (IH _ E) as [(k & -> & ->)|(k & -> & ->)]; [left|right]; exists k; auto. }
  destruct Cases as [(k & E1 & E2)|(k & E1 & E2)].
  - assert (Hy : In y l1) by (rewrite E1; apply in_or_app; right; left; auto).
    assert (Nx : y <> x) by auto.
    assert (Ny : l2 <> [] -> y <> hd x l2).
    { intros Q C. destruct l2 as [|z l2]; [congruence|]. simpl in C. subst z. apply (D3 y Hy). left; auto. }
    destruct (R m1 y (k ++ x :: l2)) as [Ry1 Ry2].
    { rewrite E1, <- app_assoc. reflexivity. }
    split.
    + rewrite <- Ry1. destruct (hd x l2 =? x)%nat eqn:Eh; cbn [negb].
      * unfold upd. replace (y =? x)%nat with false by (symmetry; apply Nat.eqb_neq; auto). auto.
      * assert (l2 <> []) by (intros ->; simpl in Eh; rewrite Nat.eqb_refl in Eh; discriminate).
        unfold upd. replace (y =? hd x l2)%nat with false by (symmetry; apply Nat.eqb_neq; auto).
        replace (y =? x)%nat with false by (symmetry; apply Nat.eqb_neq; auto). auto.
    + assert (V : upd (lnext l) p (if negb (hd x l2 =? x)%nat then hd x l2 else p) y = hd y m2).
      { unfold upd. destruct (y =? p)%nat eqn:Ep.
        - apply Nat.eqb_eq in Ep. assert (K : k = []).
          { destruct k as [|z k]; auto. exfalso. rewrite Ep in E1. unfold p in E1. 
            assert (Q : In p (z :: k)).
            { unfold p. rewrite E1 at 1. rewrite last_app2 by discriminate.
              change (last (last l1 x :: z :: k) x) with (last (z :: k) x). apply last_in. discriminate. }
            rewrite E1 in D1. apply NoDup_remove_2 in D1. apply D1. apply in_or_app. right. auto. }
          subst k. rewrite E2. simpl. destruct l2 as [|z l2]; simpl.
          + rewrite Nat.eqb_refl. simpl. auto.
          + replace (z =? x)%nat with false by (symmetry; apply Nat.eqb_neq, Hx2; left; auto). auto.
        - apply Nat.eqb_neq in Ep. assert (K : k <> []).
          { intros ->. apply Ep. unfold p. rewrite E1, last_last. auto. }
          rewrite Ry2, E2. destruct k; [congruence|]. reflexivity. }
      destruct (hd x l2 =? x)%nat eqn:Eh; cbn [negb] in *.
      * exact V.
      * unfold upd at 1. replace (y =? x)%nat with false by (symmetry; apply Nat.eqb_neq; auto). exact V.
  - assert (Hy : In y l2) by (rewrite E1; apply in_or_app; right; left; auto).
    assert (Nx : y <> x) by auto.
    assert (Np : y <> p) by (intros ->; apply (D3 p Hp); auto).
    destruct (R (l1 ++ x :: k) y m2) as [Ry1 Ry2].
    { rewrite E1, <- app_assoc. reflexivity. }
    assert (Eh : (hd x l2 =? x)%nat = false).
    { apply Nat.eqb_neq. destruct l2 as [|z l2]; [destruct Hy|]. simpl. apply Hx2. left; auto. }
    rewrite Eh. cbn [negb]. split.
    + unfold upd at 1. destruct (y =? hd x l2)%nat eqn:Ey.
      * apply Nat.eqb_eq in Ey. assert (K : k = []).
        { destruct k as [|z k]; auto. exfalso. rewrite E1 in Ey. simpl in Ey. subst z. rewrite E1 in D2.
          inversion D2 as [|? ? Q _]; subst. apply Q, in_or_app. right; left; auto. }
        subst k. rewrite E2, app_nil_r. apply last_any; auto.
      * apply Nat.eqb_neq in Ey. unfold upd.
        replace (y =? x)%nat with false by (symmetry; apply Nat.eqb_neq; auto). rewrite Ry1, E2.
        assert (K : k <> []). { intros ->. apply Ey. rewrite E1. reflexivity. }
        rewrite !last_app2 by (auto; discriminate). destruct k as [|z k]; [congruence|]. reflexivity.
    + unfold upd. replace (y =? x)%nat with false by (symmetry; apply Nat.eqb_neq; auto).
      replace (y =? p)%nat with false by (symmetry; apply Nat.eqb_neq; auto). auto.
Qed.

Lemma ll_remove_head l x : lhead (ll_remove l x) = lhead l.
Proof. unfold ll_remove. destruct (lhead l =? x)%nat; reflexivity. Qed.

Lemma ll_remove_all D h : forall c R l,
  lrep (D ++ h :: R) l -> NoDup (D ++ h :: R) -> lhead l = h -> NoDup c ->
  (forall x, In x c -> x = h \/ In x R) ->
  lrep (D ++ h :: filter (fun x => negb (mem c x)) R) (fold_left ll_remove c l) /\
  lhead (fold_left ll_remove c l) = h.
Proof.
  induction c as [|x c IH]; intros R l HR HD Hh Hc Hin.
  - simpl. split; auto. assert (E : filter (fun _ : nat => true) R = R) by (clear; induction R; simpl; congruence).
    unfold mem. simpl. rewrite E. auto.
  - inversion Hc as [|? ? C1 C2]; subst. cbn [fold_left].
    destruct (Nat.eq_dec x (lhead l)) as [->|Hx].
    + assert (E : ll_remove l (lhead l) = l) by (unfold ll_remove; rewrite Nat.eqb_refl; auto). rewrite E.
      assert (Hh : ~ In (lhead l) R).
      { apply NoDup_remove_2 in HD. intro C. apply HD, in_or_app; auto. }
      destruct (IH R l HR HD eq_refl C2) as [I1 I2].
      { intros y Hy. apply Hin. right; auto. }
      split; auto. 
      assert (F : filter (fun x => negb (mem (lhead l :: c) x)) R = filter (fun x => negb (mem c x)) R).
      { apply filter_ext_in. intros y Hy. rewrite mem_cons.
        replace (y =? lhead l)%nat with false; auto. symmetry. apply Nat.eqb_neq. intros ->. auto. }
      rewrite F. auto.
    + destruct (Hin x (or_introl eq_refl)) as [C|Hx']; [congruence|].
      apply in_split in Hx'. destruct Hx' as (r1 & r2 & ->).
      assert (E : D ++ lhead l :: r1 ++ x :: r2 = (D ++ lhead l :: r1) ++ x :: r2) by (rewrite <- app_assoc; auto).
      assert (E' : D ++ lhead l :: r1 ++ r2 = (D ++ lhead l :: r1) ++ r2) by (rewrite <- app_assoc; auto).
      rewrite E in HR, HD.
      assert (HR' : lrep (D ++ lhead l :: r1 ++ r2) (ll_remove l x)).
      { rewrite E'. apply ll_remove_rep; auto. intro C. apply app_eq_nil in C. destruct C. discriminate. }
      assert (HD' : NoDup (D ++ lhead l :: r1 ++ r2)) by (rewrite E'; eapply NoDup_remove_1; eauto).
      apply NoDup_remove_2 in HD. rewrite <- E' in HD.
      assert (Nx : ~ In x (r1 ++ r2)) by (intro C; apply HD, in_or_app; right; right; auto).
      destruct (IH (r1 ++ r2) (ll_remove l x) HR' HD' (ll_remove_head l x) C2) as [I1 I2].
      { intros y Hy. destruct (Hin y (or_intror Hy)) as [Q|Q]; auto. right.
        apply in_app_iff in Q. apply in_or_app. destruct Q as [Q|[Q|Q]]; auto. subst. contradiction. }
      split; auto.
      assert (F : filter (fun z => negb (mem (x :: c) z)) (r1 ++ x :: r2) =
                  filter (fun z => negb (mem c z)) (r1 ++ r2)).
      { assert (G : forall r, ~ In x r -> filter (fun z => negb (mem (x :: c) z)) r = filter (fun z => negb (mem c z)) r).
        { intros r Hr. apply filter_ext_in. intros y Hy. rewrite mem_cons.
          replace (y =? x)%nat with false; auto. symmetry. apply Nat.eqb_neq. intros ->. auto. }
        rewrite !filter_app. cbn [filter]. rewrite mem_cons, Nat.eqb_refl. simpl.
        f_equal; apply G; intro C; apply Nx, in_or_app; auto. }
      rewrite F. auto.
Qed.

(** ** getPartition *)
Section GetPartition.
  Variable st : hc.
  Hypothesis W : wf st.
  Variable g : ext.
  Notation n := (hn st).

  Lemma gp_loop_ok : forall f D h R l cls,
    (length (h :: R) <= f)%nat -> lrep (D ++ h :: R) l -> NoDup (D ++ h :: R) -> lhead l = h ->
    (forall x, In x (h :: R) -> (x < n)%nat) ->
    (forall x y, In x (h :: R) -> (y < n)%nat -> rt st g y = rt st g x -> In y (h :: R)) ->
    exists new, gp_loop f st g l cls = Ok (cls ++ new) /\ Permutation (concat new) (h :: R) /\
      ~ In [] new /\
      forall B x y, In B new -> In x B -> (y < n)%nat -> (In y B <-> rt st g y = rt st g x).
  Proof.
    induction f as [|f IH]; intros D h R l cls Hf HR HD Hh Hlt Hcl; [simpl in Hf; lia|].
    simpl. rewrite Hh.
    destruct (search_ok st W g h (Hlt h (or_introl eq_refl))) as (c & C1 & C2 & C3).
    rewrite C1. cbn [bind].
    assert (Cin : forall x, In x c -> x = h \/ In x R).
    { intros x Hx. apply C3 in Hx. destruct Hx as [X1 X2].
      destruct (Hcl h x (or_introl eq_refl) X1 X2); auto. }
    destruct (ll_remove_all D h c R l HR HD Hh C2 Cin) as [L1 L2].
    set (R' := filter (fun x => negb (mem c x)) R) in *. set (l' := fold_left ll_remove c l) in *.
    assert (Hhc : In h c) by (apply C3; split; auto; apply Hlt; left; auto).
    assert (DR : NoDup (h :: R)) by (destruct (NoDup_app_inv _ _ HD) as (_ & K & _); auto).
    assert (PR : Permutation (c ++ R') (h :: R)).
    { apply NoDup_Permutation; auto.
      - apply NoDup_app_intro; auto.
        + apply NoDup_filter. inversion DR; auto.
        + intros x X1 X2. apply filter_In in X2. destruct X2 as [_ X2]. apply negb_true_iff, mem_false in X2. auto.
      - intro x. rewrite in_app_iff. unfold R'. rewrite filter_In, negb_true_iff, mem_false. simpl. split.
        + intros [X|[X _]]; auto. destruct (Cin x X); auto.
        + intro X. destruct (in_dec Nat.eq_dec x c) as [Y|Y]; auto. destruct X as [X|X]; [subst x; contradiction|right; auto]. }
    assert (Hc0 : forall x y, In x c -> (y < n)%nat -> (In y c <-> rt st g y = rt st g x)).
    { intros x y Hx Hy. apply C3 in Hx. destruct Hx as [_ Hx]. rewrite C3, Hx. tauto. }
    assert (Nc : c <> []) by (intros ->; destruct Hhc).
    destruct (L1 D h R' eq_refl) as [_ Nx]. unfold ll_next. rewrite L2, Nx.
    destruct R' as [|h' R''] eqn:ER.
    - simpl. rewrite Nat.eqb_refl. exists [c]. split; auto.
      split; [simpl; auto|]. split; [intros [K|[]]; congruence|].
      intros B x y [<-|[]]. apply Hc0.
    - assert (Hh' : h <> h').
      { intros <-. assert (K : In h R) by (assert (K : In h R') by (rewrite ER; left; auto); unfold R' in K; apply filter_In in K; tauto).
        inversion DR; auto. }
      simpl. replace (h' =? h)%nat with false by (symmetry; apply Nat.eqb_neq; auto).
      assert (HR'' : forall x, In x (h' :: R'') -> In x (h :: R) /\ ~ In x c).
      { intros x Hx. rewrite <- ER in Hx. unfold R' in Hx. apply filter_In in Hx. destruct Hx as [X1 X2].
        apply negb_true_iff, mem_false in X2. split; auto. right; auto. }
      destruct (IH (D ++ [h]) h' R'' (mkL h' (lprev l') (lnext l')) (cls ++ [c])) as (new & N1 & N2 & N3 & N4).
      + apply Permutation_length in PR. rewrite app_length in PR.
        assert (length c <> 0)%nat by (destruct c; simpl; [congruence|lia]). simpl in *. lia.
      + rewrite <- app_assoc. simpl. exact L1.
      + rewrite <- app_assoc. simpl. destruct (NoDup_app_inv _ _ HD) as (K1 & K2 & K3).
        apply NoDup_app_intro; auto.
        * constructor.
          { intro C. apply HR'' in C. tauto. }
          { rewrite <- ER. apply NoDup_filter. inversion DR; auto. }
        * intros x X1 X2. apply (K3 x X1).
          destruct X2 as [X2|X2]; [left; auto|]. apply HR''; auto.
      + reflexivity.
      + intros x Hx. apply Hlt. apply HR''; auto.
      + intros x y Hx Hy E. destruct (HR'' x Hx) as [X1 X2].
        assert (Y := Hcl x y X1 Hy E). rewrite <- ER. unfold R'. 
        assert (Yc : ~ In y c).
        { intro C. apply X2. apply C3. apply C3 in C. destruct C as [_ C]. split; [apply Hlt; auto|congruence]. }
        apply filter_In. split; [|apply negb_true_iff, mem_false; auto].
        destruct Y as [<-|Y]; auto. contradiction.
      + exists (c :: new). rewrite N1. split; [rewrite <- app_assoc; reflexivity|].
        split; [simpl; rewrite N2; auto|]. split; [intros [K|K]; [congruence|auto]|].
        intros B x y [<-|HB]; [apply Hc0|]. apply N4; auto.
  Qed.

  Lemma get_partition_ok : (0 < n)%nat ->
    exists cls, get_partition st g = Ok cls /\ is_partition (seq 0 n) cls /\
      forall x y, (x < n)%nat -> (y < n)%nat -> (same_part cls x y = true <-> rt st g x = rt st g y).
  Proof.
    intro Hn. unfold get_partition. replace (n =? 0)%nat with false by (symmetry; apply Nat.eqb_neq; lia).
    assert (Es : seq 0 n = 0%nat :: seq 1 (n - 1)) by (destruct n; [lia|simpl; do 2 f_equal; lia]).
    destruct (gp_loop_ok n [] 0%nat (seq 1 (n - 1)) (ll_new n) []) as (new & N1 & N2 & N3 & N4).
    - simpl. rewrite seq_length. lia.
    - simpl. rewrite <- Es. apply ll_new_rep.
    - simpl. rewrite <- Es. apply seq_NoDup.
    - reflexivity.
    - intros x Hx. rewrite <- Es in Hx. apply in_seq in Hx. lia.
    - intros x y _ Hy _. rewrite <- Es. apply in_seq. lia.
    - rewrite <- Es in N2. exists new. split; auto. split; [split; auto|].
      intros x y Hx Hy. rewrite same_part_true. split.
      + intros (B & B1 & B2 & B3). symmetry. apply (N4 B x y); auto.
      + intro E. assert (X : In x (concat new)) by (apply (Permutation_in x (Permutation_sym N2)), in_seq; lia).
        apply in_concat in X. destruct X as (B & B1 & B2). exists B. split; auto. split; auto.
        apply (N4 B x y); auto.
  Qed.

  (** ** Critical values of one node *)
  Lemma rt_anc h : forall i x, (i < n)%nat -> (x < n)%nat -> sub st NegInf x i ->
    egtb (wt st x) h = true -> rt st h i = rt st h (par st x).
  Proof.
    intros i x Hi Hx S G. induction S as [|i Hi' Hg S IH]; [apply rt_step; auto|].
    assert (Gi : egtb (wt st i) h = true).
    { clear IH. assert (Q : egeb (wt st i) (wt st x) = true).
      { assert (A : forall k, sub st NegInf x k -> egeb (wt st k) (wt st x) = true).
        { induction 1 as [|k Hk Hgk Sk IHk]; [apply egeb_refl|].
          eapply egeb_trans; [apply (wf_heap _ W k Hk)|auto]. }
        apply A. apply sub_step; auto. }
      eapply egeb_gt_trans; eauto. }
    rewrite rt_step by auto. apply IH. apply (wf_par _ W); auto.
  Qed.

  Lemma rt_anc_rev h : forall i x, (i < n)%nat -> (x < n)%nat -> par st x <> x -> sub st NegInf x i ->
    rt st h i = rt st h (par st x) -> egtb (wt st x) h = true.
  Proof.
    intros i x Hi Hx R S E. destruct (egtb (wt st x) h) eqn:G; auto. exfalso.
    assert (B : (rk st (rt st h i) <= rk st x)%nat).
    { clear E. induction S as [|i Hi' Hg S IH]; [rewrite rt_stop by auto; lia|].
      destruct (egtb (wt st i) h) eqn:Gi.
      - rewrite rt_step by auto. apply IH. apply (wf_par _ W); auto.
      - rewrite rt_stop by auto. assert (K := wf_rk _ W i Hi (gt_nonroot st W i NegInf Hi Hg)).
        destruct (sub_rank st W NegInf _ _ S) as [Q|Q]; [rewrite <- Q in K|]; lia. }
    assert (K := wf_rk _ W x Hx R).
    destruct (rt_rank st W (par st x) h (wf_par _ W x Hx)) as [Q|Q].
    - rewrite E, Q in B. lia.
    - rewrite E in B. lia.
  Qed.

  (** [v] is the level at which [i] meets some other node. *)
  Definition meets (i : nat) (v : ext) : Prop :=
    exists k, (k < n)%nat /\ k <> i /\ forall h, rt st h i = rt st h k <-> egtb v h = true.

  Lemma push_less_in gs w v : In v (push_less gs w) -> In v gs \/ v = w.
  Proof.
    unfold push_less. destruct (rev gs) as [|b t]; [|destruct (egtb b w)];
      rewrite ?in_app_iff; simpl; intuition.
  Qed.

  Lemma push_less_sorted gs w : StronglySorted (fun a b => egtb a b = true) gs ->
    StronglySorted (fun a b => egtb a b = true) (push_less gs w).
  Proof.
    intro S. unfold push_less. destruct (rev gs) as [|b t] eqn:E.
    - assert (Eg : gs = []) by (rewrite <- (rev_involutive gs), E; auto). subst. simpl. repeat constructor.
    - destruct (egtb b w) eqn:G; auto.
      assert (Eg : gs = rev t ++ [b]) by (rewrite <- (rev_involutive gs), E; reflexivity).
      rewrite Eg in *. clear E Eg gs. revert S. generalize (rev t). intro l.
      induction l as [|x l IH]; simpl; intro S.
      + repeat constructor; auto.
      + inversion S as [|? ? S1 S2]; subst. constructor; auto. apply Forall_app. split; auto.
        constructor; auto. apply Forall_app in S2. destruct S2 as [_ S2]. inversion S2 as [|? ? S3 _]; subst.
        eapply egtb_trans; [exact S3|]. unfold egeb. destruct b, w; simpl in G |- *; try congruence.
        rewrite Qltb_true in G. rewrite negb_true_iff. apply Qltb_false. lra.
  Qed.

  Lemma push_less_hd gs w d : gs <> [] -> hd d (push_less gs w) = hd d gs.
  Proof.
    intro H. unfold push_less. destruct gs as [|x gs]; [congruence|].
    destruct (rev (x :: gs)) as [|b t]; [reflexivity|]. destruct (egtb b w); reflexivity.
  Qed.
  Lemma push_less_ne gs w : push_less gs w <> [].
  Proof.
    unfold push_less. destruct (rev gs) as [|b t] eqn:E.
    - destruct gs; discriminate.
    - destruct (egtb b w); [destruct gs; discriminate|]. intros ->. discriminate.
  Qed.

  Lemma crit_up_ok : forall f x gs i, (x < n)%nat -> (i < n)%nat -> sub st NegInf x i ->
    (n <= f + rk st x)%nat -> StronglySorted (fun a b => egtb a b = true) gs ->
    (forall v, In v gs -> meets i v) ->
    exists gs', crit_up f st x gs = Ok gs' /\ StronglySorted (fun a b => egtb a b = true) gs' /\
      (forall v, In v gs' -> meets i v) /\
      (gs <> [] -> hd NegInf gs' = hd NegInf gs) /\
      (gs = [] -> par st x <> x -> hd NegInf gs' = wt st x) /\
      (gs = [] -> par st x = x -> gs' = []).
  Proof.
    induction f as [|f IH]; intros x gs i Hx Hi S Hf Hs Hm.
    - exfalso. assert (K := wf_rk_lt st x W Hx). simpl in Hf. lia.
    - simpl. destruct (par st x =? x)%nat eqn:E.
      + apply Nat.eqb_eq in E. exists gs. repeat split; auto. intros _ C. congruence.
      + apply Nat.eqb_neq in E. assert (K := wf_rk _ W x Hx E).
        assert (Gx : egtb (wt st x) NegInf = true).
        { rewrite NegInf_gt by auto. unfold is_root. apply Nat.eqb_neq in E. rewrite E. auto. }
        assert (Mx : meets i (wt st x)).
        { exists (par st x). split; [apply (wf_par _ W); auto|]. split.
          - intros C. destruct (sub_rank st W NegInf _ _ S) as [Q|Q]; [congruence|]. rewrite C in K. lia.
          - intro h. split; [apply rt_anc_rev; auto|apply rt_anc; auto]. }
        destruct (IH (par st x) (push_less gs (wt st x)) i) as (gs' & G1 & G2 & G3 & G4 & _ & _); auto.
        * apply (wf_par _ W); auto.
        * eapply (child_sub st NegInf (par st x) x i); eauto.
        * lia.
        * apply push_less_sorted; auto.
        * intros v Hv. apply push_less_in in Hv. destruct Hv as [Hv| ->]; auto.
        * exists gs'. split; auto. split; auto. split; auto. split; [|split].
          { intro Hne. rewrite G4 by apply push_less_ne. apply push_less_hd; auto. }
          { intros -> _. rewrite G4 by apply push_less_ne. reflexivity. }
          { intros _ C. congruence. }
  Qed.

  (** Strictly decreasing values, each the level at which [i] meets some node, the first one
      the highest level at which it meets any. *)
  Lemma critical_of_ok i : (i < n)%nat ->
    exists gs, get_critical_of st i = Ok gs /\ StronglySorted (fun a b => egtb a b = true) gs /\
      (forall v, In v gs -> meets i v) /\
      (forall k h, (k < n)%nat -> k <> i -> rt st h i = rt st h k -> egtb (hd NegInf gs) h = true).
  Proof.
    intro Hi. unfold get_critical_of. replace (i <? n)%nat with true by (symmetry; apply Nat.ltb_lt; auto).
    set (gs0 := fold_left (fun gs j => push_less gs (wt st j)) (chd st i) []).
    assert (Hc : forall c, In c (chd st i) -> meets i (wt st c)).
    { intros c Hc. apply (wf_chd _ W i c Hi) in Hc. destruct Hc as (C1 & C2 & C3).
      exists c. split; auto. split; auto. intro h.
      assert (R : par st c <> c) by congruence. split.
      - intro E. apply (rt_anc_rev h c c); auto; [constructor|]. rewrite C3. auto.
      - intro G. rewrite (rt_step st W c h) by auto. rewrite C3. auto. }
    assert (G0 : forall cs gs, (forall c, In c cs -> meets i (wt st c)) ->
      StronglySorted (fun a b => egtb a b = true) gs -> (forall v, In v gs -> meets i v) ->
      let r := fold_left (fun gs j => push_less gs (wt st j)) cs gs in
      StronglySorted (fun a b => egtb a b = true) r /\ (forall v, In v r -> meets i v) /\
      (gs <> [] -> r <> [] /\ hd NegInf r = hd NegInf gs)).
    { induction cs as [|c cs IHc]; intros gs H1 H2 H3; simpl; auto.
      destruct (IHc (push_less gs (wt st c))) as (A1 & A2 & A3).
      - intros; apply H1; right; auto.
      - apply push_less_sorted; auto.
      - intros v Hv. apply push_less_in in Hv. destruct Hv as [Hv| ->]; auto. apply H1. left; auto.
      - split; auto. split; auto. intro Hne. destruct (A3 (push_less_ne gs (wt st c))) as [B1 B2].
        split; auto. rewrite B2. apply push_less_hd; auto. }
    destruct (G0 (chd st i) [] Hc (SSorted_nil _) (fun v H => match H with end)) as (S0 & M0 & _).
    fold gs0 in S0, M0.
    destruct (crit_up_ok (S n) i gs0 i Hi Hi (sub_refl _ _ _) ltac:(lia) S0 M0)
      as (gs' & A1 & A2 & A3 & A4 & A5 & A6).
    exists gs'. split; auto. split; auto. split; auto.
    (* the first value bounds the weights of all links at i *)
    assert (First : forall c, In c (chd st i) -> gs0 <> [] /\ egeb (hd NegInf gs0) (wt st c) = true).
    { assert (Sc := wf_csort _ W i Hi). unfold gs0. destruct (chd st i) as [|c0 cs]; [intros c []|].
      cbn [fold_left]. change (push_less [] (wt st c0)) with [wt st c0].
      assert (K : fold_left (fun gs j => push_less gs (wt st j)) cs [wt st c0] <> [] /\
                  hd NegInf (fold_left (fun gs j => push_less gs (wt st j)) cs [wt st c0]) = wt st c0).
      { destruct (G0 cs [wt st c0]) as (_ & _ & B).
        - intros; apply Hc; right; auto.
        - repeat constructor.
        - intros v [<-|[]]. apply Hc. left; auto.
        - destruct B as [B1 B2]; [discriminate|]. auto. }
      destruct K as [K1 K2]. intros c Hin. split; auto. rewrite K2.
      inversion Sc as [|? ? Q1 Q2]; subst. rewrite Forall_forall in Q2.
      destruct Hin as [<-|Hin]; [apply egeb_refl|auto]. }
    intros k h Hk Hki E.
    (* some link at i is heavier than h *)
    assert (L : egtb (wt st i) h = true \/ exists c, In c (chd st i) /\ egtb (wt st c) h = true).
    { destruct (egtb (wt st i) h) eqn:Gi; auto. right. rewrite (rt_stop st i h) in E by auto.
      assert (Sk := sub_root st W h k Hk). rewrite <- E in Sk. apply sub_child in Sk; auto.
      destruct Sk as [C|(c & C1 & C2 & C3 & C4 & C5)]; [congruence|]. exists c. split; auto.
      apply (wf_chd _ W i c Hi). auto. }
    destruct L as [L|(c & C1 & C2)].
    - assert (R := gt_nonroot st W i h Hi L). destruct gs0 as [|v0 gs0'] eqn:Eg.
      + rewrite A5 by auto. auto.
      + rewrite A4 by discriminate. assert (B : chd st i <> []).
        { intro C. unfold gs0 in Eg. rewrite C in Eg. discriminate. }
        destruct (chd st i) as [|c cs] eqn:Ec; [congruence|].
        destruct (First c (or_introl eq_refl)) as [_ F].
        assert (Hc' : In c (chd st i)) by (rewrite Ec; left; auto).
        apply (wf_chd _ W i c Hi) in Hc'. destruct Hc' as (C0 & C1 & C2).
        assert (H2 := wf_heap _ W c C0). rewrite C2 in H2.
        eapply egeb_gt_trans; [exact F|]. eapply egeb_gt_trans; eauto.
    - destruct (First c C1) as [F1 F2]. rewrite A4 by auto. eapply egeb_gt_trans; eauto.
  Qed.
End GetPartition.

(** ** Chow-Liu clustering *)
Lemma joined_incl acc acc' g :
  (forall i j w, In (i, j, w) acc -> egtb (Val w) g = true -> joined acc' g i j) ->
  forall x y, joined acc g x y -> joined acc' g x y.
Proof.
  intros H x y J. induction J as [a b (w & H1 & H2)| | |];
    [eauto|apply rst_refl|apply rst_sym; auto|eapply rst_trans; eauto].
Qed.

Lemma joined_all acc g w : (forall i j v, In (i, j, v) acc -> w <= v) -> egtb (Val w) g = true ->
  forall x y, joined acc NegInf x y -> joined acc g x y.
Proof.
  intros H Hg x y J. induction J as [a b (v & H1 & H2)| | |];
    [|apply rst_refl|apply rst_sym; auto|eapply rst_trans; eauto].
  apply rst_step. exists v. split; auto. eapply egeb_gt_trans; [|exact Hg].
  unfold egeb. simpl. rewrite negb_true_iff. apply Qltb_false. eauto.
Qed.

(** The edges at the given positions. *)
Definition pick (edges : list (nat * nat * Q)) (ord : list nat) : list (nat * nat * Q) :=
  flat_map (fun k => match nth_error edges k with Some e => [e] | None => [] end) ord.

Definition desc (edges : list (nat * nat * Q)) (ord : list nat) : Prop :=
  StronglySorted (fun k l => forall e f, nth_error edges k = Some e -> nth_error edges l = Some f ->
                                         snd f <= snd e) ord.

Lemma cl_loop_ok edges : forall ord st acc done,
  inv st acc -> (forall i j w, In (i, j, w) edges -> (i < hn st)%nat /\ (j < hn st)%nat) ->
  (forall k, In k ord -> (k < length edges)%nat) -> desc edges ord ->
  (forall e k f, In e done -> In k ord -> nth_error edges k = Some f -> snd f <= snd e) ->
  (forall e, In e acc -> In e done) ->
  (forall g x y, joined acc g x y <-> joined done g x y) ->
  exists st' acc', cl_loop st edges ord = Ok st' /\ hn st' = hn st /\ inv st' acc' /\
    forall g x y, joined acc' g x y <-> joined (done ++ pick edges ord) g x y.
Proof.
  induction ord as [|k ord IH]; intros st acc dn I HE Ho Hd Hge Hsub HJ.
  - exists st, acc. simpl. rewrite app_nil_r. auto.
  - assert (Hk := Ho k (or_introl eq_refl)). simpl.
    destruct (nth_error edges k) as [[[i j] w]|] eqn:Ek.
    2:{ apply nth_error_None in Ek. lia. }
    assert (Hin : In (i, j, w) edges) by (eapply nth_error_In; eauto).
    destruct (HE i j w Hin) as [Hi Hj].
    destruct (merge_ok st acc i j w I Hi Hj) as (st1 & b & M1 & M2 & M3 & M4 & M5).
    rewrite M1. cbn [bind fst].
    inversion Hd as [|? ? D1 D2]; subst. rewrite Forall_forall in D2.
    assert (Wle : forall e, In e dn -> w <= snd e).
    { intros e He. apply (Hge e k (i, j, w) He (or_introl eq_refl) Ek). }
    set (acc1 := if b then acc ++ [(i, j, w)] else acc).
    destruct (IH st1 acc1 (dn ++ [(i, j, w)])) as (st' & acc' & R1 & R2 & R3 & R4); auto.
    + intros x y v H. rewrite M2. eauto.
    + intros; apply Ho; right; auto.
    + intros e l f He Hl Hf. apply in_app_iff in He. destruct He as [He|[<-|[]]].
      * eapply Hge; eauto. right; auto.
      * apply (D2 l Hl (i, j, w) f); auto.
    + intros e He. unfold acc1 in He. apply in_or_app. destruct b; auto.
      apply in_app_iff in He. destruct He as [He|He]; auto.
    + intros g x y. unfold acc1. destruct b.
      * rewrite !joined_add. destruct (egtb (Val w) g); [|apply HJ].
        rewrite !HJ. tauto.
      * rewrite joined_add, HJ. destruct (egtb (Val w) g) eqn:G; [|tauto].
        assert (J : joined dn g i j).
        { apply HJ. apply (joined_all acc g w); auto.
          - intros p q v Hv. apply Hsub in Hv. apply Wle in Hv. auto.
          - assert (N : ~ (~ joined acc NegInf i j /\ forall p q v, In (p, q, v) acc -> w <= v)).
            { intro C. apply M4 in C. discriminate. }
            destruct (Nat.eq_dec (rt st NegInf i) (rt st NegInf j)) as [Q|Q].
            + apply (inv_conn _ _ I NegInf i j Hi Hj). auto.
            + exfalso. apply N. split.
              * intro C. apply Q. apply (inv_conn _ _ I NegInf i j Hi Hj). auto.
              * intros p q v Hv. apply Hsub in Hv. apply Wle in Hv. auto. }
        split; auto. intros [H|[[H1 H2]|[H1 H2]]]; auto.
        { eapply rst_trans; [exact H1|]. eapply rst_trans; [exact J|exact H2]. }
        { eapply rst_trans; [exact H1|]. eapply rst_trans; [apply rst_sym; exact J|exact H2]. }
    + exists st', acc'. split; auto. split; [congruence|]. split; auto.
      intros g x y. rewrite R4. rewrite <- app_assoc. simpl. tauto.
Qed.

Lemma pick_perm edges ord : Permutation ord (seq 0 (length edges)) -> Permutation (pick edges ord) edges.
Proof.
  intro P. transitivity (pick edges (seq 0 (length edges))).
  - unfold pick. apply Permutation_flat_map. auto.
  - assert (E : pick edges (seq 0 (length edges)) = edges); [|rewrite E; auto].
    assert (G : forall l pre, pick (pre ++ l) (seq (length pre) (length l)) = l).
    { induction l as [|e l IH]; intro pre; auto. simpl. rewrite nth_error_app2 by lia.
      rewrite Nat.sub_diag. simpl. f_equal. specialize (IH (pre ++ [e])).
      rewrite <- app_assoc, app_length, Nat.add_comm in IH. exact IH. }
    apply (G edges []).
Qed.

Theorem cl_ok n edges ord : (forall i j w, In (i, j, w) edges -> (i < n)%nat /\ (j < n)%nat) ->
  Permutation ord (seq 0 (length edges)) -> desc edges ord ->
  exists st acc, cl_new n edges ord = Ok st /\ hn st = n /\ inv st acc /\
    forall g x y, joined acc g x y <-> joined edges g x y.
Proof.
  intros HE HP HD. unfold cl_new.
  destruct (cl_loop_ok edges ord (hc_new n) [] []) as (st & acc & R1 & R2 & R3 & R4); auto.
  - apply inv_new.
  - intros k Hk. apply (Permutation_in k HP) in Hk. apply in_seq in Hk. lia.
  - intros e k f [].
  - intros; tauto.
  - exists st, acc. split; auto. split; auto. split; auto. intros g x y. rewrite R4. simpl.
    assert (P := pick_perm edges ord HP).
    split; apply joined_mono; intros e He; [apply (Permutation_in e P)|apply (Permutation_in e (Permutation_sym P))]; auto.
Qed.
