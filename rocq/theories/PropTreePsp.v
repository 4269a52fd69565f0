(** * PropTreePsp: C74, experimental/get_psp.py. *)
From Verif Require Import Base Graph MSets MContract MTreePsp Spec PartThy TreePspThy.

(** Input of get_psp: a tree with root 0, parent pointers [K] and weights [W] of the edges {j, K[j]}; the
    weights grow strictly away from the root, and the root's own entry of [W] is not larger than any weight. *)
Definition tree_input (n : nat) (K : list nat) (W : list Q) : Prop :=
  (1 <= n)%nat /\ length K = n /\ length W = n /\ nth 0 K 0%nat = 0%nat /\
  forall j, (0 < j < n)%nat ->
    (nth j K 0 < n)%nat /\ 0 <= nth j W 0 /\ nth 0 W 0 <= nth j W 0 /\
    (nth j K 0%nat <> 0%nat -> nth (nth j K 0%nat) W 0 < nth j W 0).

(** When an inner node [j] is merged into its parent, the parent already heads a cluster: an earlier
    sibling was merged into it, or it is the root and has the same weight entry. *)
Definition parent_ready (n : nat) (K : list nat) (W : list Q) : Prop :=
  forall j, (0 < j < n)%nat -> (exists c, (0 < c < n)%nat /\ nth c K 0%nat = j) ->
    (exists i, (0 < i < n)%nat /\ nth i K 0%nat = nth j K 0%nat /\
       (nth j W 0 < nth i W 0 \/ (nth i W 0 == nth j W 0 /\ (i < j)%nat))) \/
    (nth j K 0%nat = 0%nat /\ nth 0 W 0 == nth j W 0).

Theorem C74_get_psp_tree : forall n K W, tree_input n K W -> parent_ready n K W ->
  exists L Ps, get_psp (S n) n K W = Ok (L, Ps) /\ IsPSP (tree_graph n K W) (seq 0 n) L Ps.
Proof.
  intros n K W (Hn & LK & LW & K0 & H) R.
  apply get_psp_ok; auto; intros j Hj; destruct (H j Hj) as (A & B & C & D); auto.
Qed.
Print Assumptions C74_get_psp_tree.

(** test_2 of the file, and a tree of depth 3. *)
Example C74_nonvacuous :
  tree_input 4 [0;0;0;2]%nat [9#10; 1; 9#10; 2] /\ parent_ready 4 [0;0;0;2]%nat [9#10; 1; 9#10; 2] /\
  get_psp 5 4 [0;0;0;2]%nat [9#10; 1; 9#10; 2] =
    Ok ([9#10; 1; 2], [[[0;1;2;3]]; [[2;3];[0;1]]; [[2;3];[0];[1]]; [[0];[1];[2];[3]]]%nat) /\
  tree_input 5 [0;0;1;1;2]%nat [1; 1; 3; 4; 5] /\ parent_ready 5 [0;0;1;1;2]%nat [1; 1; 3; 4; 5].
Proof.
  split; [|split; [|split; [|split]]].
  - unfold tree_input. do 4 (apply conj; [simpl; lia|]). intros j Hj.
    assert (X : (j = 1 \/ j = 2 \/ j = 3)%nat) by lia. destruct X as [->|[->| ->]]; simpl; repeat split; try lia; try lra; intros; lra.
  - intros j Hj (c & Hc & e). assert (J : (j = 2)%nat).
    { assert (X : (c = 1 \/ c = 2 \/ c = 3)%nat) by lia. destruct X as [->|[->| ->]]; simpl in e; lia. }
    clear e. subst j. left. exists 1%nat. split; [lia|]. split; [reflexivity|]. left. simpl. lra.
  - vm_compute. reflexivity.
  - unfold tree_input. do 4 (apply conj; [simpl; lia|]). intros j Hj.
    assert (X : (j = 1 \/ j = 2 \/ j = 3 \/ j = 4)%nat) by lia. destruct X as [->|[->|[->| ->]]]; simpl; repeat split; try lia; try lra; intros; lra.
  - intros j Hj (c & Hc & e). assert (J : (j = 1 \/ j = 2)%nat).
    { assert (X : (c = 1 \/ c = 2 \/ c = 3 \/ c = 4)%nat) by lia. destruct X as [->|[->|[->| ->]]]; simpl in e; lia. }
    clear e. destruct J as [->| ->].
    + right. split; [reflexivity|]. simpl. lra.
    + left. exists 3%nat. split; [lia|]. split; [reflexivity|]. left. simpl. lra.
Qed.

(** Stars need nothing else. *)
Theorem C74_get_psp_star : forall W, (1 <= length W)%nat ->
  (forall j, (0 < j < length W)%nat -> 0 <= nth j W 0 /\ nth 0 W 0 <= nth j W 0) ->
  let n := length W in let K := repeat 0%nat n in
  exists L Ps, get_psp (S n) n K W = Ok (L, Ps) /\ IsPSP (tree_graph n K W) (seq 0 n) L Ps.
Proof.
  intros W Hn H n K.
  assert (KZ : forall j, nth j K 0%nat = 0%nat).
  { unfold K. intro j. clear. revert j. induction n; intros [|j]; simpl; auto. }
  apply C74_get_psp_tree.
  - repeat split; auto; try (apply H; auto).
    + unfold K. apply repeat_length.
    + rewrite KZ. lia.
    + rewrite KZ. congruence.
  - intros j Hj (c & Hc & e). rewrite KZ in e. lia.
Qed.
Print Assumptions C74_get_psp_star.

(** test_1 of the file. *)
Example C74_star_nonvacuous :
  (forall j, (0 < j < 4)%nat -> 0 <= nth j [2; 5; 4; 2] 0 /\ nth 0 [2; 5; 4; 2] 0 <= nth j [2; 5; 4; 2] 0) /\
  get_psp 5 4 (repeat 0%nat 4) [2; 5; 4; 2] =
    Ok ([2; 4; 5], [[[0;1;2;3]]; [[0;1;2];[3]]; [[0;1];[2];[3]]; [[0];[1];[2];[3]]]%nat).
Proof.
  split; [|vm_compute; reflexivity]. intros j Hj. assert (X : (j = 1 \/ j = 2 \/ j = 3)%nat) by lia.
  destruct X as [->|[->| ->]]; simpl; lra.
Qed.

(** Without [parent_ready] it goes wrong: on the path 0-1-2-3 with weights 1, 2, 3 node 1 is lost. *)
Theorem C74_get_psp_path_refuted :
  ~ (forall n K W, tree_input n K W ->
       exists L Ps, get_psp (S n) n K W = Ok (L, Ps) /\ forall P, In P Ps -> is_partition (seq 0 n) P).
Proof.
  intro H. destruct (H 4%nat [0;0;1;2]%nat [1; 1; 2; 3]) as (L & Ps & A & B).
  { unfold tree_input. do 4 (apply conj; [simpl; lia|]). intros j Hj.
    assert (X : (j = 1 \/ j = 2 \/ j = 3)%nat) by lia. destruct X as [->|[->| ->]]; simpl; repeat split; try lia; try lra; intros; lra. }
  vm_compute in A. injection A as _ <-.
  destruct (B [[0;2;3]]%nat) as [C _]; [left; auto|]. apply Permutation_length in C. discriminate.
Qed.
Print Assumptions C74_get_psp_path_refuted.

(** Equal weights on a path: overlapping sets. *)
Theorem C74_get_psp_equal_refuted :
  exists L P Ps, get_psp 4 3 [0;0;1]%nat [1; 1; 1] = Ok (L, P :: Ps) /\ ~ NoDup (concat P).
Proof.
  eexists _, _, _. split; [vm_compute; reflexivity|]. simpl. intro H. inversion H; subst. inversion H3; subst. apply H4. left. auto.
Qed.
Print Assumptions C74_get_psp_equal_refuted.

(** With all weights below -1 the loop never ends. *)
Lemma stuck_fold K W : forall C D acc, (forall i, In i C -> (i < length W)%nat /\ nth i W 0 < -(1)) ->
  foldm (py_step K W (-(1))) C (D, acc) = Ok (D, acc ++ C).
Proof.
  induction C as [|i C IH]; intros D acc H; simpl; [rewrite app_nil_r; auto|].
  destruct (H i (or_introl eq_refl)) as [A B]. unfold py_at. rewrite (nth_error_nth' W 0 A). cbn [bind].
  rewrite (proj2 (Qltb_true _ _) B). cbn [bind]. rewrite IH by (intros; apply H; right; auto). rewrite <- app_assoc. reflexivity.
Qed.

Lemma stuck_gamma W : forall C, (forall i, In i C -> (i < length W)%nat /\ nth i W 0 < -(1)) -> py_gamma W C = Ok (-(1)).
Proof.
  unfold py_gamma. induction C as [|i C IH]; intro H; simpl; auto.
  destruct (H i (or_introl eq_refl)) as [A B]. unfold py_at at 1. rewrite (nth_error_nth' W 0 A). cbn [bind].
  destruct (Qltb (-(1)) (nth i W 0)) eqn:X; [apply Qltb_true in X; lra|]. apply IH. intros; apply H; right; auto.
Qed.

Theorem C74_get_psp_diverges : forall K W, (2 <= length W)%nat ->
  (forall j, (j < length W)%nat -> nth j W 0 < -(1)) -> forall fuel, get_psp fuel (length W) K W = OutOfFuel.
Proof.
  intros K W Hn H fuel. unfold get_psp. generalize (@nil Q), [map (fun i => [i]) (seq 0 (length W))].
  induction fuel as [|fuel IH]; intros L Qs; [reflexivity|]. cbn [py_loop]. rewrite seq_length.
  destruct (length W <=? 1)%nat eqn:X; [apply Nat.leb_le in X; lia|].
  assert (Y : forall i, In i (seq 0 (length W)) -> (i < length W)%nat /\ nth i W 0 < -(1)).
  { intros i Hi. apply in_seq in Hi. split; [lia|]. apply H. lia. }
  unfold py_merge. rewrite (stuck_gamma W _ Y). cbn [bind]. rewrite (stuck_fold K W _ _ _ Y). cbn [bind fst snd app]. apply IH.
Qed.
Print Assumptions C74_get_psp_diverges.

Example C74_diverges_nonvacuous : get_psp 200 3 [0;0;0]%nat [-(3); -(2); -(2)] = OutOfFuel.
Proof. vm_compute. reflexivity. Qed.
