(** * HCInv: what a sequence of merge calls records (IC/src/Core.hpp:183-205). *)
From Coq Require Import Sorted Relations.
From Verif Require Import Base MHC HCThy.

(** Number of nodes with root [r]. *)
Definition csize (st : hc) (r : nat) : nat :=
  length (filter (fun x => (rt st NegInf x =? r)%nat) (seq 0 (hn st))).

Record inv (st : hc) (acc : list (nat * nat * Q)) : Prop := {
  inv_wf : wf st;
  inv_acc : forall i j w, In (i, j, w) acc -> (i < hn st)%nat /\ (j < hn st)%nat;
  inv_conn : forall g x y, (x < hn st)%nat -> (y < hn st)%nat ->
               (rt st g x = rt st g y <-> joined acc g x y);
  inv_sorted : StronglySorted (fun a b => b < a) (hgam st);
  inv_gam : forall v, In v (hgam st) -> exists i j, In (i, j, v) acc;
  inv_acc_gam : forall i j w, In (i, j, w) acc -> exists v, In v (hgam st) /\ v == w;
  inv_wt : forall i w, (i < hn st)%nat -> wt st i = Val w -> exists v, In v (hgam st) /\ v == w;
  inv_size : forall r, (r < hn st)%nat -> par st r = r -> (2 ^ rk st r <= csize st r)%nat
}.

(** ** Connectivity *)
Lemma joined_mono acc acc' g : incl acc acc' -> forall x y, joined acc g x y -> joined acc' g x y.
Proof.
  intros H x y J. induction J as [a b (w & H1 & H2)| | |]; [|apply rst_refl|apply rst_sym; auto|eapply rst_trans; eauto].
  apply rst_step. exists w. auto.
Qed.

Lemma joined_add acc i j w g x y :
  joined (acc ++ [(i, j, w)]) g x y <->
  if egtb (Val w) g then
    joined acc g x y \/ (joined acc g x i /\ joined acc g j y) \/ (joined acc g x j /\ joined acc g i y)
  else joined acc g x y.
Proof.
  assert (M := joined_mono acc (acc ++ [(i, j, w)]) g (fun e He => in_or_app _ _ _ (or_introl He))).
  assert (S : forall u v, joined acc g u v -> joined acc g v u) by (intros; apply rst_sym; auto).
  assert (T : forall u v z, joined acc g u v -> joined acc g v z -> joined acc g u z)
    by (intros; eapply rst_trans; eauto).
  destruct (egtb (Val w) g) eqn:E; split; intro H.
  - induction H as [a b (v & H1 & H2)| a |a b H IH|a b c H1 IH1 H2 IH2].
    + apply in_app_iff in H1. destruct H1 as [H1|[H1|[]]].
      * left. apply rst_step. exists v. auto.
      * injection H1 as -> -> ->. right. left. split; apply rst_refl.
    + left. apply rst_refl.
    + destruct IH as [IH|[[IH1 IH2]|[IH1 IH2]]]; auto.
    + destruct IH1 as [IH1|[[IH1 IH1']|[IH1 IH1']]]; destruct IH2 as [IH2|[[IH2 IH2']|[IH2 IH2']]]; eauto 6.
  - assert (N : joined (acc ++ [(i, j, w)]) g i j).
    { apply rst_step. exists w. split; auto. apply in_or_app. right; left; auto. }
    destruct H as [H|[[H1 H2]|[H1 H2]]].
    + apply M; auto.
    + eapply rst_trans; [apply M; eauto|]. eapply rst_trans; [exact N|]. apply M; auto.
    + eapply rst_trans; [apply M; eauto|]. eapply rst_trans; [apply rst_sym; exact N|]. apply M; auto.
  - induction H as [a b (v & H1 & H2)| a |a b H IH|a b c H1 IH1 H2 IH2].
    + apply in_app_iff in H1. destruct H1 as [H1|[H1|[]]].
      * apply rst_step. exists v. auto.
      * injection H1 as -> -> ->. congruence.
    + apply rst_refl.
    + auto.
    + eauto.
  - apply M; auto.
Qed.

(** ** The list of critical values *)
Lemma sorted_last gs b t : rev gs = b :: t -> StronglySorted (fun a b => b < a) gs ->
  forall v, In v gs -> b <= v.
Proof.
  intros E S v Hv. assert (Eg : gs = rev t ++ [b]) by (rewrite <- (rev_involutive gs), E; reflexivity).
  rewrite Eg in Hv, S. clear E Eg. apply in_app_iff in Hv. destruct Hv as [Hv|[<-|[]]]; [|lra].
  revert S Hv. generalize (rev t). intro l. induction l as [|x l IH]; simpl; intros S Hv; [tauto|].
  inversion S as [|? ? S1 S2]; subst. destruct Hv as [<-|Hv]; auto.
  rewrite Forall_forall in S2. assert (K : b < x) by (apply S2, in_or_app; right; left; auto). lra.
Qed.

Lemma gam_ge_spec gs g : StronglySorted (fun a b => b < a) gs ->
  (gam_ge gs g = true <-> forall v, In v gs -> g <= v).
Proof.
  intro S. unfold gam_ge. destruct (rev gs) as [|b t] eqn:E.
  - assert (Eg : gs = []) by (rewrite <- (rev_involutive gs), E; auto). subst. simpl. intuition.
  - rewrite Qle_bool_iff. split.
    + intros H v Hv. assert (K := sorted_last gs b t E S v Hv). lra.
    + intro H. apply H. rewrite <- (rev_involutive gs), E. apply in_rev. rewrite rev_involutive. left; auto.
Qed.

Lemma gam_gt_spec gs g : StronglySorted (fun a b => b < a) gs ->
  (gam_gt gs g = true <-> forall v, In v gs -> g < v).
Proof.
  intro S. unfold gam_gt. destruct (rev gs) as [|b t] eqn:E.
  - assert (Eg : gs = []) by (rewrite <- (rev_involutive gs), E; auto). subst. simpl. intuition.
  - rewrite Qltb_true. split.
    + intros H v Hv. assert (K := sorted_last gs b t E S v Hv). lra.
    + intro H. apply H. rewrite <- (rev_involutive gs), E. apply in_rev. rewrite rev_involutive. left; auto.
Qed.

Lemma gam_tie gs g : StronglySorted (fun a b => b < a) gs -> gam_ge gs g = true -> gam_gt gs g = false ->
  exists v, In v gs /\ v == g.
Proof.
  intro S. unfold gam_ge, gam_gt. destruct (rev gs) as [|b t] eqn:E; [congruence|].
  rewrite Qle_bool_iff, Qltb_false. intros H1 H2. exists b. split; [|lra].
  rewrite <- (rev_involutive gs), E. apply in_rev. rewrite rev_involutive. left; auto.
Qed.

Lemma ssorted_snoc gs g : StronglySorted (fun a b => b < a) gs -> (forall v, In v gs -> g < v) ->
  StronglySorted (fun a b => b < a) (gs ++ [g]).
Proof.
  induction 1 as [|x l H1 IH H2]; intro H; simpl; [repeat constructor|].
  constructor; [apply IH; intros; apply H; right; auto|]. apply Forall_app. split; auto.
  constructor; auto. apply H. left; auto.
Qed.

(** ** The initial state *)
Lemma inv_new n : inv (hc_new n) [].
Proof.
  constructor; simpl.
  - apply wf_new.
  - tauto.
  - intros g x y Hx Hy. assert (E : forall z, rt (hc_new n) g z = z) by (intro; apply rt_root; auto).
    rewrite !E. split; [intros ->; apply rst_refl|].
    intro J. clear Hx Hy. induction J as [a b (w & [] & _)| | |]; congruence.
  - constructor.
  - tauto.
  - tauto.
  - discriminate.
  - intros r Hr _. unfold csize. simpl.
    assert (I : In r (filter (fun x => (rt (hc_new n) NegInf x =? r)%nat) (seq 0 n))).
    { apply filter_In. split; [apply in_seq; lia|]. rewrite rt_root by auto. apply Nat.eqb_refl. }
    destruct (filter _ _); simpl in *; [tauto|lia].
Qed.

(** ** One merge *)
Section LinkInv.
  Variable st : hc.
  Variable acc : list (nat * nat * Q).
  Hypothesis I : inv st acc.
  Notation n := (hn st).
  Let W := inv_wf _ _ I.
  Variables (i j : nat) (w : Q).
  Hypothesis Hi : (i < n)%nat.
  Hypothesis Hj : (j < n)%nat.
  Variables (a b : nat) (gs : list Q) (rk' : nat -> nat).
  Hypothesis Hends : (a = rt st NegInf i /\ b = rt st NegInf j) \/ (a = rt st NegInf j /\ b = rt st NegInf i).
  Hypothesis Hab : a <> b.
  Hypothesis Hge : forall v, In v (hgam st) -> w <= v.
  Hypothesis Hgs1 : StronglySorted (fun a b => b < a) gs.
  Hypothesis Hgs2 : forall v, In v (hgam st) -> In v gs.
  Hypothesis Hgs3 : forall v, In v gs -> In v (hgam st) \/ v = w.
  Hypothesis Hgs4 : exists v, In v gs /\ v == w.
  Hypothesis Hrk : (rk st a < rk' b)%nat.
  Hypothesis Hrk1 : forall i, i <> b -> rk' i = rk st i.
  Hypothesis Hrk2 : (rk st b <= rk' b <= S (rk st b))%nat.
  Hypothesis Hrk3 : (rk' b = S (rk st b) -> rk st a = rk st b).

  Let st' := linked st a b w gs rk'.

  Lemma ends_lt : (a < n)%nat /\ (b < n)%nat /\ par st a = a /\ par st b = b.
  Proof.
    destruct Hends as [[-> ->]|[-> ->]]; repeat split; try apply rt_lt; auto; apply rt_is_root; auto.
  Qed.

  Lemma link_min : forall k v, (k < n)%nat -> wt st k = Val v -> w <= v.
  Proof.
    intros k v Hk Hv. destruct (inv_wt _ _ I k v Hk Hv) as (u & H1 & H2). apply Hge in H1. lra.
  Qed.

  Lemma link_wf : wf st'.
  Proof.
    destruct ends_lt as (A1 & A2 & A3 & A4). apply wf_linked; auto. apply link_min.
  Qed.

  Lemma link_conn g x y : (x < n)%nat -> (y < n)%nat ->
    (rt st' g x = rt st' g y <-> joined (acc ++ [(i, j, w)]) g x y).
  Proof.
    intros Hx Hy. destruct ends_lt as (A1 & A2 & A3 & A4). rewrite joined_add.
    destruct (egtb (Val w) g) eqn:E.
    - unfold st'. rewrite !rt_linked_low by (auto; apply link_min).
      rewrite <- !(inv_conn _ _ I g) by auto.
      assert (L : forall z, (z < n)%nat -> rt st g z = rt st NegInf z).
      { intros z Hz. eapply rt_low; eauto. apply link_min. }
      rewrite !L by auto.
      destruct (rt st NegInf x =? a)%nat eqn:E1; destruct (rt st NegInf y =? a)%nat eqn:E2;
        first [apply Nat.eqb_eq in E1|apply Nat.eqb_neq in E1];
        first [apply Nat.eqb_eq in E2|apply Nat.eqb_neq in E2];
        destruct Hends as [[Ea Eb]|[Ea Eb]];
        (split; [intro; first [left; congruence|right; left; split; congruence
                              |right; right; split; congruence]
                |intros [?|[[? ?]|[? ?]]]; congruence]).
    - unfold st'. rewrite !rt_linked_high by (auto; apply link_min). apply inv_conn; auto.
  Qed.

  Lemma link_csize r : csize st' r =
    if (r =? a)%nat then 0%nat else if (r =? b)%nat then (csize st a + csize st b)%nat else csize st r.
  Proof.
    destruct ends_lt as (A1 & A2 & A3 & A4). unfold csize. change (hn st') with n.
    assert (E : forall x, In x (seq 0 n) ->
      rt st' NegInf x = if (rt st NegInf x =? a)%nat then b else rt st NegInf x).
    { intros x Hx. apply in_seq in Hx. unfold st'. apply rt_linked_low; auto; [apply link_min|lia]. }
    induction (seq 0 n) as [|x l IH].
    - simpl. destruct (r =? a)%nat, (r =? b)%nat; auto.
    - cbn [filter]. assert (Ex := E x (or_introl eq_refl)). rewrite Ex.
      specialize (IH (fun y Hy => E y (or_intror Hy))).
      destruct (Nat.eq_dec (rt st NegInf x) a) as [Xa|Xa].
      + rewrite Xa, Nat.eqb_refl. replace (a =? b)%nat with false by (symmetry; apply Nat.eqb_neq; auto).
        destruct (Nat.eq_dec r a) as [Ra|Ra].
        * rewrite Ra, Nat.eqb_refl in IH |- *.
          replace (b =? a)%nat with false by (symmetry; apply Nat.eqb_neq; auto). auto.
        * replace (r =? a)%nat with false in IH |- * by (symmetry; apply Nat.eqb_neq; auto).
          replace (a =? r)%nat with false by (symmetry; apply Nat.eqb_neq; auto).
          rewrite (Nat.eqb_sym b r). destruct (r =? b)%nat; simpl; rewrite IH; auto.
      + replace (rt st NegInf x =? a)%nat with false by (symmetry; apply Nat.eqb_neq; auto).
        destruct (Nat.eq_dec r a) as [Ra|Ra].
        * rewrite Ra, Nat.eqb_refl in IH |- *.
          replace (rt st NegInf x =? a)%nat with false by (symmetry; apply Nat.eqb_neq; auto). auto.
        * replace (r =? a)%nat with false in IH |- * by (symmetry; apply Nat.eqb_neq; auto).
          destruct (Nat.eq_dec r b) as [Rb|Rb].
          { rewrite Rb, Nat.eqb_refl in IH |- *. destruct (rt st NegInf x =? b)%nat; simpl; rewrite IH; lia. }
          { replace (r =? b)%nat with false in IH |- * by (symmetry; apply Nat.eqb_neq; auto).
            destruct (rt st NegInf x =? r)%nat; simpl; rewrite IH; auto. }
  Qed.

  Lemma link_inv : inv st' (acc ++ [(i, j, w)]).
  Proof.
    destruct ends_lt as (A1 & A2 & A3 & A4). constructor.
    - apply link_wf.
    - intros x y v H. apply in_app_iff in H. destruct H as [H|[H|[]]].
      + apply (inv_acc _ _ I _ _ _ H).
      + injection H as <- <- <-. auto.
    - intros g x y Hx Hy. apply link_conn; auto.
    - exact Hgs1.
    - intros v Hv. simpl in Hv. apply Hgs3 in Hv. destruct Hv as [Hv| ->].
      + destruct (inv_gam _ _ I v Hv) as (x & y & H). exists x, y. apply in_or_app; auto.
      + exists i, j. apply in_or_app. right; left; auto.
    - intros x y v H. apply in_app_iff in H. destruct H as [H|[H|[]]].
      + destruct (inv_acc_gam _ _ I _ _ _ H) as (u & U1 & U2). exists u. split; [apply Hgs2; auto|auto].
      + injection H as _ _ <-. auto.
    - intros x v Hx Hv. simpl in Hv. unfold upd in Hv. destruct (x =? a)%nat.
      + injection Hv as <-. auto.
      + destruct (inv_wt _ _ I x v Hx Hv) as (u & U1 & U2). exists u. split; [apply Hgs2; auto|auto].
    - intros r Hr Rr. rewrite link_csize. change (hn st') with n in Hr. simpl in Rr. unfold upd in Rr.
      destruct (r =? a)%nat eqn:E.
      + apply Nat.eqb_eq in E. congruence.
      + assert (Sr := inv_size _ _ I r Hr Rr). change (rk st' r) with (rk' r).
        destruct (r =? b)%nat eqn:E2.
        * apply Nat.eqb_eq in E2. rewrite E2 in *.
          assert (Sa := inv_size _ _ I a A1 A3).
          assert (Q : rk' b = rk st b \/ rk' b = S (rk st b)) by lia.
          destruct Q as [Q|Q]; rewrite Q.
          { lia. }
          { apply Hrk3 in Q. rewrite Q in Sa. simpl. lia. }
        * apply Nat.eqb_neq in E2. rewrite Hrk1 by auto. auto.
  Qed.
End LinkInv.

Lemma merge_ok st acc i j g : inv st acc -> (i < hn st)%nat -> (j < hn st)%nat ->
  exists st' b, hc_merge st i j g = Ok (st', b) /\ hn st' = hn st /\
    inv st' (if b then acc ++ [(i, j, g)] else acc) /\
    (b = true <-> ~ joined acc NegInf i j /\ forall x y w, In (x, y, w) acc -> g <= w) /\
    (b = false -> st' = st).
Proof.
  intros I Hi Hj. assert (W := inv_wf _ _ I). unfold hc_merge.
  assert (Li : (i <? hn st)%nat = true) by (apply Nat.ltb_lt; auto).
  assert (Lj : (j <? hn st)%nat = true) by (apply Nat.ltb_lt; auto).
  rewrite Li, Lj. cbn [andb]. rewrite !find_total by auto. cbn [bind].
  assert (GG : (forall x y w, In (x, y, w) acc -> g <= w) <-> gam_ge (hgam st) g = true).
  { rewrite (gam_ge_spec _ _ (inv_sorted _ _ I)). split.
    - intros H v Hv. destruct (inv_gam _ _ I v Hv) as (x & y & K). eauto.
    - intros H x y w Hw. destruct (inv_acc_gam _ _ I _ _ _ Hw) as (v & V1 & V2). apply H in V1. lra. }
  assert (JJ := inv_conn _ _ I NegInf i j Hi Hj).
  destruct ((rt st NegInf i =? rt st NegInf j)%nat || negb (gam_ge (hgam st) g)) eqn:E.
  - exists st, false. split; auto. split; auto. split; auto. split; auto.
    split; [discriminate|]. intros [N1 N2]. exfalso. apply orb_true_iff in E. destruct E as [E|E].
    + apply Nat.eqb_eq in E. apply N1. apply JJ. auto.
    + apply negb_true_iff in E. apply GG in N2. congruence.
  - apply orb_false_iff in E. destruct E as [E1 E2]. apply Nat.eqb_neq in E1. apply negb_false_iff in E2.
    assert (Bt : true = true <-> ~ joined acc NegInf i j /\ (forall x y w, In (x, y, w) acc -> g <= w)).
    { split; auto. intros _. split; [|apply GG; auto]. rewrite <- JJ. auto. }
    set (gs := if gam_gt (hgam st) g then hgam st ++ [g] else hgam st).
    assert (Srt := inv_sorted _ _ I).
    assert (G0 : forall v, In v (hgam st) -> g <= v) by (apply gam_ge_spec; auto).
    assert (G1 : StronglySorted (fun a b => b < a) gs).
    { unfold gs. destruct (gam_gt (hgam st) g) eqn:E3; auto. apply ssorted_snoc; auto.
      apply gam_gt_spec; auto. }
    assert (G2 : forall v, In v (hgam st) -> In v gs).
    { intros v Hv. unfold gs. destruct (gam_gt _ _); auto. apply in_or_app; auto. }
    assert (G3 : forall v, In v gs -> In v (hgam st) \/ v = g).
    { intros v Hv. unfold gs in Hv. destruct (gam_gt _ _); auto. apply in_app_iff in Hv.
      destruct Hv as [Hv|[Hv|[]]]; auto. }
    assert (G4 : exists v, In v gs /\ v == g).
    { unfold gs. destruct (gam_gt (hgam st) g) eqn:E3.
      - exists g. split; [apply in_or_app; right; left; auto|reflexivity].
      - apply gam_tie; auto. }
    destruct (rk st (rt st NegInf i) <=? rk st (rt st NegInf j))%nat eqn:E4.
    + apply Nat.leb_le in E4. eexists _, true. split; [reflexivity|]. split; [reflexivity|].
      split; [|split; [auto|discriminate]].
      apply (link_inv st acc I i j g Hi Hj (rt st NegInf i) (rt st NegInf j) gs); auto;
        destruct (rk st (rt st NegInf i) =? rk st (rt st NegInf j))%nat eqn:E5;
        first [apply Nat.eqb_eq in E5|apply Nat.eqb_neq in E5]; unfold upd;
        try rewrite Nat.eqb_refl; try lia.
      intros k Hk. apply Nat.eqb_neq in Hk. rewrite Hk. auto.
    + apply Nat.leb_gt in E4. eexists _, true. split; [reflexivity|]. split; [reflexivity|].
      split; [|split; [auto|discriminate]].
      apply (link_inv st acc I i j g Hi Hj (rt st NegInf j) (rt st NegInf i) gs); auto; lia.
Qed.

(** ** A sequence of merges *)
Lemma merges_ok : forall ops st acc, inv st acc ->
  (forall i j w, In (i, j, w) ops -> (i < hn st)%nat /\ (j < hn st)%nat) ->
  exists st' bs, hc_merges st ops = Ok (st', bs) /\ hn st' = hn st /\ length bs = length ops /\
    inv st' (acc ++ accepted ops bs).
Proof.
  induction ops as [|[[i j] g] ops IH]; intros st acc I H.
  - exists st, []. simpl. rewrite app_nil_r. auto.
  - destruct (H i j g (or_introl eq_refl)) as [Hi Hj].
    destruct (merge_ok st acc i j g I Hi Hj) as (st1 & b & M1 & M2 & M3 & _).
    destruct (IH st1 _ M3) as (st2 & bs & R1 & R2 & R3 & R4).
    { intros x y w Hx. rewrite M2. apply (H x y w). right; auto. }
    exists st2, (b :: bs). simpl. rewrite M1. cbn [bind fst snd]. rewrite R1. cbn [bind fst snd].
    split; auto. split; [congruence|]. split; [simpl; lia|].
    unfold accepted in *. destruct b; simpl; auto. rewrite <- app_assoc in R4. exact R4.
Qed.
