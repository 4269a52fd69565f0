(** * BFThy: the brute-force solver satisfies both solver contracts. *)
From Verif Require Import Base SubThy MaxFlow CutThy.

Lemma sublists_incl l : forall A, In A (sublists l) -> incl A l /\ (NoDup l -> NoDup A).
Proof.
  induction l as [|x l IH]; simpl; intros A HA.
  - destruct HA as [<-|[]]. split; auto. intros y [].
  - apply in_app_or in HA. destruct HA as [HA|HA].
    + destruct (IH A HA) as [H1 H2]. split.
      * intros y Hy. right; auto.
      * intro Hn. inversion Hn; auto.
    + apply in_map_iff in HA. destruct HA as (B & <- & HB). destruct (IH B HB) as [H1 H2].
      split.
      * intros y [<-|Hy]; [left; auto|right; auto].
      * intro Hn. inversion Hn; subst. constructor; auto.
Qed.

Lemma sublists_filter l (p : nat -> bool) : In (filter p l) (sublists l).
Proof.
  induction l as [|x l IH]; simpl; auto. apply in_or_app.
  destruct (p x); auto. right. apply in_map; auto.
Qed.

Section BF.
  Variable N : network.

  Definition ble (A B : list nat) : Prop :=
    cut N (mem A) < cut N (mem B) \/
    (cut N (mem A) == cut N (mem B) /\ (length A <= length B)%nat).

  Lemma ble_refl A : ble A A.
  Proof. right. split; [reflexivity|lia]. Qed.

  Lemma ble_trans A B C : ble A B -> ble B C -> ble A C.
  Proof.
    unfold ble. intros [H1|[H1 L1]] [H2|[H2 L2]].
    - left. lra.
    - left. lra.
    - left. lra.
    - right. split; [lra|lia].
  Qed.

  Lemma better_true A B : better N A B = true -> ble A B.
  Proof.
    unfold better, ble. intro H. apply orb_true_iff in H. destruct H as [H|H].
    - left. apply Qltb_true; auto.
    - apply andb_true_iff in H. destruct H as [H1 H2]. right.
      apply Qeq_bool_iff in H1. apply Nat.ltb_lt in H2. split; [auto|lia].
  Qed.

  Lemma better_false A B : better N A B = false -> ble B A.
  Proof.
    unfold better, ble. intro H. apply orb_false_iff in H. destruct H as [H1 H2].
    apply Qltb_false in H1.
    destruct (Qeq_bool (cut N (mem A)) (cut N (mem B))) eqn:E.
    - apply Qeq_bool_iff in E. simpl in H2. apply Nat.ltb_ge in H2.
      right. split; [lra|lia].
    - left. apply Qeq_bool_neq in E. apply Qle_lteq in H1. destruct H1 as [H1|H1]; auto.
      exfalso. apply E. lra.
  Qed.

  Lemma bf_best_spec l : forall d,
    (In (bf_best N l d) l \/ bf_best N l d = d) /\
    ble (bf_best N l d) d /\ forall A, In A l -> ble (bf_best N l d) A.
  Proof.
    unfold bf_best. induction l as [|A l IH]; intro d; simpl.
    - split; auto. split; [apply ble_refl|tauto].
    - destruct (better N A d) eqn:E.
      + destruct (IH A) as (I1 & I2 & I3). split; [|split].
        * destruct I1 as [I1|I1]; [left; right; auto|left; left; auto].
        * eapply ble_trans; [exact I2|]. apply better_true; auto.
        * intros B [<-|HB]; auto.
      + destruct (IH d) as (I1 & I2 & I3). split; [|split].
        * tauto.
        * auto.
        * intros B [<-|HB]; auto. eapply ble_trans; [exact I2|]. apply better_false; auto.
  Qed.
End BF.

Lemma cut_restrict nodes N Y :
  net_ok nodes N -> cut N (mem (filter Y nodes)) == cut N Y.
Proof.
  intros [_ H]. apply qsum_ext. intros a Ha. apply H in Ha. destruct Ha as (_ & H1 & H2).
  assert (S : forall u, nnode_ok nodes u -> side (mem (filter Y nodes)) u = side Y u).
  { intros [| |v] Hu; simpl; auto. rewrite mem_filter. simpl in Hu. apply mem_In in Hu.
    rewrite Hu. reflexivity. }
  rewrite !S by auto. reflexivity.
Qed.

Lemma bf_facts nodes N :
  net_ok nodes N ->
  let X := bf_best N (sublists nodes) [] in
  incl X nodes /\ NoDup X /\ forall Y, ble N X (filter Y nodes).
Proof.
  intros Hok X.
  destruct (bf_best_spec N (sublists nodes) []) as (H1 & H2 & H3). fold X in H1, H2, H3.
  assert (HX : In X (sublists nodes)).
  { destruct H1 as [H1|H1]; auto. rewrite H1.
    replace ([] : list nat) with (filter (fun _ => false) nodes); [apply sublists_filter|].
    clear. induction nodes; simpl; auto. }
  destruct (sublists_incl nodes X HX) as [H4 H5].
  repeat split; auto.
  - apply H5. apply Hok.
  - intro Y. apply H3. apply sublists_filter.
Qed.

Theorem bf_mincut_spec : MinCutSpec bf_mincut.
Proof.
  intros nodes N Hok. destruct (bf_facts nodes N Hok) as (H1 & H2 & H3).
  unfold bf_mincut. cbv zeta. simpl fst. simpl snd.
  set (X := bf_best N (sublists nodes) []) in *. repeat split; auto.
  - apply Qred_correct.
  - intro Y. rewrite Qred_correct. destruct (H3 Y) as [H|[H _]].
    + rewrite <- (cut_restrict nodes N Y Hok). lra.
    + rewrite <- (cut_restrict nodes N Y Hok). lra.
Qed.

Theorem bf_minsink_spec : MinSinkCutSpec bf_mincut.
Proof.
  split; [exact bf_mincut_spec|].
  intros nodes N Hok Y HY x Hx.
  destruct (bf_mincut_spec nodes N Hok) as (_ & Hv & Hmin).
  destruct (bf_facts nodes N Hok) as (H1 & H2 & H3).
  change (snd (bf_mincut nodes N)) with (bf_best N (sublists nodes) []) in *.
  set (X := bf_best N (sublists nodes) []) in *.
  assert (Hsub := cut_sub N (mem X) Y (fun a Ha => proj1 (proj2 Hok a Ha))).
  assert (Hu := Hmin (iunion (mem X) Y)). assert (Hi := Hmin (iinter (mem X) Y)).
  assert (Ei : cut N (iinter (mem X) Y) == cut N (mem X)) by lra.
  destruct (H3 (iinter (mem X) Y)) as [C|[_ L]].
  - rewrite cut_restrict in C by auto. lra.
  - assert (I : incl X (filter (iinter (mem X) Y) nodes)).
    { apply NoDup_length_incl; auto.
      - apply NoDup_filter. apply Hok.
      - intros y Hy. apply filter_In in Hy. destruct Hy as [_ Hy]. unfold iinter in Hy.
        apply andb_true_iff in Hy. apply mem_In. tauto. }
    apply I in Hx. apply filter_In in Hx. destruct Hx as [_ Hx]. unfold iinter in Hx.
    apply andb_true_iff in Hx. tauto.
Qed.
