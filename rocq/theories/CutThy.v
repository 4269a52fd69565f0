(** * CutThy: in-cut function of a graph, inside weight, crossing weight. *)
From Verif Require Import Base Spec PartThy SubThy MaxFlow.

Definition incut (E : graph) (S : nset) : Q :=
  qsum (fun a => if negb (S (asrc a)) && S (adst a) then aw a else 0) E.

(** Weight of the arcs inside a node set. *)
Definition inside (E : graph) (S : nset) : Q :=
  qsum (fun a => if S (asrc a) && S (adst a) then aw a else 0) E.

Definition total (E : graph) : Q := qsum aw E.

Definition nonneg (E : graph) : Prop := forall a, In a E -> 0 <= aw a.

Lemma incut_ext E A B : (forall x, A x = B x) -> incut E A == incut E B.
Proof. intro H. apply qsum_ext. intros a _. rewrite !H. reflexivity. Qed.

Lemma inside_ext E A B : (forall x, A x = B x) -> inside E A == inside E B.
Proof. intro H. apply qsum_ext. intros a _. rewrite !H. reflexivity. Qed.

Lemma incut_sub E A B :
  nonneg E -> incut E (iunion A B) + incut E (iinter A B) <= incut E A + incut E B.
Proof.
  intro H. unfold incut. rewrite <- !qsum_plus. apply qsum_le. intros a Ha.
  specialize (H a Ha). unfold iunion, iinter.
  destruct (A (asrc a)), (A (adst a)), (B (asrc a)), (B (adst a)); simpl; lra.
Qed.

Lemma inside_super E A B :
  nonneg E -> inside E A + inside E B <= inside E (iunion A B) + inside E (iinter A B).
Proof.
  intro H. unfold inside. rewrite <- !qsum_plus. apply qsum_le. intros a Ha.
  specialize (H a Ha). unfold iunion, iinter.
  destruct (A (asrc a)), (A (adst a)), (B (asrc a)), (B (adst a)); simpl; lra.
Qed.

Lemma inside_nonneg E A : nonneg E -> 0 <= inside E A.
Proof.
  intro H. apply qsum_nonneg. intros a Ha. specialize (H a Ha).
  destruct (A (asrc a) && A (adst a)); lra.
Qed.

Lemma graph_on_nonneg vs E : graph_on vs E -> nonneg E.
Proof. intros H a Ha. apply H in Ha. tauto. Qed.

(** Crossing weight = total weight minus what stays inside the parts. *)
Lemma crossing_inside E P :
  NoDup (concat P) -> crossing E P == total E - qsum (fun B => inside E (mem B)) P.
Proof.
  intro H. unfold crossing, total, inside. rewrite qsum_swap.
  rewrite <- qsum_minus. apply qsum_ext. intros a _.
  rewrite nd_same_sum by auto. destruct (same_part P (asrc a) (adst a)); lra.
Qed.

(** Sum of the in-cuts of the parts = crossing weight. *)
Lemma incut_crossing E vs P :
  NoDup vs -> is_partition vs P ->
  (forall a, In a E -> In (adst a) vs) ->
  qsum (fun B => incut E (mem B)) P == crossing E P.
Proof.
  intros Hn HP HE. unfold incut, crossing. rewrite qsum_swap. apply qsum_ext.
  intros a Ha. assert (N := part_NoDup vs Hn P HP).
  assert (D := nd_ind_sum P (adst a) (aw a) N).
  assert (S := nd_same_sum P (asrc a) (adst a) (aw a) N).
  assert (M : mem (concat P) (adst a) = true).
  { apply mem_In. destruct HP as [HP _]. eapply Permutation_in; [symmetry; exact HP|auto]. }
  rewrite M in D.
  assert (X : qsum (fun B => if negb (mem B (asrc a)) && mem B (adst a) then aw a else 0) P
              == qsum (fun B => if mem B (adst a) then aw a else 0) P
                 - qsum (fun B => if mem B (asrc a) && mem B (adst a) then aw a else 0) P).
  { rewrite <- qsum_minus. apply qsum_ext. intros B _.
    destruct (mem B (asrc a)), (mem B (adst a)); simpl; lra. }
  rewrite X, D, S. destruct (same_part P (asrc a) (adst a)); lra.
Qed.

Lemma pval_hval E vs lam P :
  NoDup vs -> is_partition vs P -> graph_on vs E ->
  pval (incut E) lam P == hval E lam P.
Proof.
  intros Hn HP HE. unfold pval, hval. rewrite (incut_crossing E vs) by (auto; intros; apply HE; auto).
  reflexivity.
Qed.

Lemma popt_optimal E vs lam P :
  NoDup vs -> graph_on vs E -> (popt (incut E) vs lam P <-> optimal E vs lam P).
Proof.
  intros Hn HE. split; intros [HP H]; split; auto; intros R HR; specialize (H R HR).
  - rewrite !(pval_hval E vs) in H by auto. auto.
  - rewrite !(pval_hval E vs) by auto. auto.
Qed.

(** Optimal partitions for increasing lambda are nested. *)
Theorem optimal_nested E vs lam lam' P P' :
  NoDup vs -> graph_on vs E ->
  optimal E vs lam P -> optimal E vs lam' P' -> lam' < lam -> refines P P'.
Proof.
  intros Hn HE H1 H2 Hlt.
  apply (nested (incut E) (incut_ext E)
           (fun A B _ => incut_sub E A B (graph_on_nonneg _ _ HE)) vs Hn P P' lam lam'); auto.
  - apply popt_optimal; auto.
  - apply popt_optimal; auto.
Qed.

(** ** Cuts of networks *)
Lemma cut_ext N A B : (forall x, A x = B x) -> cut N A == cut N B.
Proof.
  intro H. apply qsum_ext. intros a _. unfold side.
  destruct (nsrc a), (ndst a); rewrite ?H; reflexivity.
Qed.

Lemma cut_app N M X : cut (N ++ M) X == cut N X + cut M X.
Proof. apply qsum_app. Qed.

Lemma cut_flat_map {A} (g : A -> network) l X :
  cut (flat_map g l) X == qsum (fun a => cut (g a) X) l.
Proof.
  induction l; simpl; [reflexivity|]. rewrite cut_app, IHl. reflexivity.
Qed.

Lemma side_union A B u : side (iunion A B) u = side A u || side B u.
Proof. destruct u; reflexivity. Qed.
Lemma side_inter A B u : side (iinter A B) u = side A u && side B u.
Proof. destruct u; reflexivity. Qed.

Lemma cut_sub N A B :
  (forall a, In a N -> 0 <= ncap a) ->
  cut N (iunion A B) + cut N (iinter A B) <= cut N A + cut N B.
Proof.
  intro H. unfold cut. rewrite <- !qsum_plus. apply qsum_le. intros a Ha. specialize (H a Ha).
  rewrite !side_union, !side_inter.
  destruct (side A (nsrc a)), (side A (ndst a)), (side B (nsrc a)), (side B (ndst a)); simpl; lra.
Qed.
