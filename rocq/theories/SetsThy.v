(** * SetsThy: facts about the set model. *)
From Coq Require Import Sorted.
From Verif Require Import Base MSets.

Definition csorted (s : cset) : Prop := StronglySorted lt s.

Lemma cadd_In x s y : In y (cadd x s) <-> y = x \/ In y s.
Proof.
  induction s as [|a t IH]; simpl.
  - intuition.
  - destruct (x <? a)%nat eqn:E1; [simpl; intuition|].
    destruct (x =? a)%nat eqn:E2.
    + apply Nat.eqb_eq in E2. subst. simpl. intuition.
    + simpl. rewrite IH. intuition.
Qed.

Lemma cadd_sorted x s : csorted s -> csorted (cadd x s).
Proof.
  unfold csorted. induction s as [|a t IH]; simpl; intro H.
  - constructor; constructor.
  - inversion H as [|? ? Ht Ha]; subst.
    destruct (x <? a)%nat eqn:E1.
    + apply Nat.ltb_lt in E1. constructor; auto. constructor; auto.
      eapply Forall_impl; [|exact Ha]. simpl. intros; lia.
    + apply Nat.ltb_ge in E1. destruct (x =? a)%nat eqn:E2; auto.
      apply Nat.eqb_neq in E2. constructor; [apply IH; auto|].
      apply Forall_forall. intros y Hy. apply cadd_In in Hy.
      destruct Hy as [->|Hy]; [lia|]. rewrite Forall_forall in Ha. auto.
Qed.

Lemma csorted_NoDup s : csorted s -> NoDup s.
Proof.
  unfold csorted. induction 1 as [|a l H IH Ha]; constructor; auto.
  intro C. rewrite Forall_forall in Ha. apply Ha in C. lia.
Qed.

Lemma cset_of_In l y : In y (cset_of l) <-> In y l.
Proof.
  unfold cset_of. induction l as [|a t IH]; simpl; [tauto|].
  rewrite cadd_In, IH. intuition.
Qed.

Lemma cset_of_sorted l : csorted (cset_of l).
Proof.
  unfold cset_of. induction l; simpl; [constructor|]. apply cadd_sorted; auto.
Qed.

Lemma cunion_In s t y : In y (cunion s t) <-> In y s \/ In y t.
Proof.
  unfold cunion. induction s as [|a s IH]; simpl; [tauto|].
  rewrite cadd_In, IH. intuition.
Qed.

Lemma cunion_sorted s t : csorted t -> csorted (cunion s t).
Proof. intro H. unfold cunion. induction s; simpl; auto. apply cadd_sorted; auto. Qed.

Lemma cinter_In s t y : In y (cinter s t) <-> In y s /\ In y t.
Proof. unfold cinter. rewrite filter_In, mem_In. tauto. Qed.

Lemma csorted_filter p s : csorted s -> csorted (filter p s).
Proof.
  unfold csorted. induction 1 as [|a l H IH Ha]; simpl; [constructor|].
  destruct (p a); auto. constructor; auto.
  apply Forall_forall. intros y Hy. apply filter_In in Hy. rewrite Forall_forall in Ha.
  apply Ha. tauto.
Qed.

Lemma csorted_seq a n : csorted (seq a n).
Proof.
  unfold csorted. revert a. induction n; intro a; simpl; constructor; auto.
  apply Forall_forall. intros x Hx. apply in_seq in Hx. lia.
Qed.

(** Two sorted lists with the same elements are equal. *)
Lemma csorted_ext s t : csorted s -> csorted t -> (forall x, In x s <-> In x t) -> s = t.
Proof.
  unfold csorted. intro Hs. revert t. induction Hs as [|a s H IH Ha]; intros t Ht Hx.
  - destruct t as [|b t]; auto. exfalso. apply (Hx b). left; auto.
  - destruct t as [|b t]; [exfalso; apply (Hx a); left; auto|].
    inversion Ht as [|? ? Ht' Hb]; subst. rewrite Forall_forall in Ha, Hb.
    assert (E : a = b).
    { assert (Ia : In a (b :: t)) by (apply Hx; left; auto).
      assert (Ib : In b (a :: s)) by (apply Hx; left; auto).
      destruct Ia as [Ia|Ia]; auto. destruct Ib as [Ib|Ib]; auto.
      apply Ha in Ib. apply Hb in Ia. lia. }
    subst b. f_equal. apply IH; auto. intro x. split; intro I.
    + assert (J : In x (a :: t)) by (apply Hx; right; auto).
      destruct J as [->|J]; auto. apply Ha in I. lia.
    + assert (J : In x (a :: s)) by (apply Hx; right; auto).
      destruct J as [->|J]; auto. apply Hb in I. lia.
Qed.

Lemma clt_irrefl s : clt s s = false.
Proof. induction s; simpl; auto. rewrite Nat.ltb_irrefl. auto. Qed.

Lemma clt_total s t : clt s t = false -> clt t s = false -> s = t.
Proof.
  revert t. induction s as [|a s IH]; intros [|b t]; simpl; auto; try discriminate.
  destruct (a <? b)%nat eqn:E1; [discriminate|].
  destruct (b <? a)%nat eqn:E2; [discriminate|].
  apply Nat.ltb_ge in E1. apply Nat.ltb_ge in E2. assert (a = b) by lia. subst.
  intros. f_equal. auto.
Qed.

Lemma padd_In S P B : In B (padd S P) <-> B = S \/ In B P.
Proof.
  induction P as [|C t IH]; simpl; [intuition|].
  destruct (clt S C) eqn:E1; [simpl; intuition|].
  destruct (clt C S) eqn:E2.
  - simpl. rewrite IH. intuition.
  - assert (S = C) by (apply clt_total; auto). subst. simpl. intuition.
Qed.

(** Inserting a new part. *)
Lemma padd_perm S P : ~ In S P -> Permutation (padd S P) (S :: P).
Proof.
  induction P as [|C t IH]; simpl; intro H; auto.
  destruct (clt S C) eqn:E1; auto.
  destruct (clt C S) eqn:E2.
  - rewrite IH by tauto. apply perm_swap.
  - assert (S = C) by (apply clt_total; auto). subst. tauto.
Qed.

Lemma fold_cunion_In L T y :
  In y (fold_left (fun acc B => cunion B acc) L T) <-> In y T \/ In y (concat L).
Proof.
  revert T. induction L as [|B L IH]; intro T; simpl; [tauto|].
  rewrite IH, cunion_In, in_app_iff. intuition.
Qed.

Lemma fold_cunion_sorted L T :
  csorted T -> csorted (fold_left (fun acc B => cunion B acc) L T).
Proof.
  revert T. induction L as [|B L IH]; intros T H; simpl; auto.
  apply IH. apply cunion_sorted; auto.
Qed.

Lemma meets_true T B : meets T B = true <-> exists x, In x T /\ In x B.
Proof.
  unfold meets. rewrite existsb_exists. split.
  - intros (x & H1 & H2). apply mem_In in H2. eauto.
  - intros (x & H1 & H2). exists x. split; auto. apply mem_In; auto.
Qed.

Lemma meets_false T B : meets T B = false <-> forall x, In x T -> ~ In x B.
Proof.
  split.
  - intros H x H1 H2. assert (meets T B = true) by (apply meets_true; eauto). congruence.
  - intro H. destruct (meets T B) eqn:E; auto. apply meets_true in E.
    destruct E as (x & H1 & H2). exfalso. eapply H; eauto.
Qed.
