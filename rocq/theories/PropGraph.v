(** * Properties C01-C03: graphs and cut values (psp/graph.h). *)
From Verif Require Import Base Graph Spec MSets MGraph SubThy CutThy.

(** ** C01 *)
Lemma partition_value_crossing E vs P :
  NoDup vs -> (forall a, In a E -> In (asrc a) vs /\ In (adst a) vs) -> is_partition vs P ->
  get_partition_value E P == crossing E P.
Proof.
  intros Hnd HE HP. unfold get_partition_value.
  rewrite <- (incut_crossing E vs P Hnd HP) by (intros; apply HE; auto). reflexivity.
Qed.

Theorem C01_partition_value : forall E vs P,
  NoDup vs -> (forall a, In a E -> In (asrc a) vs /\ In (adst a) vs) -> is_partition vs P ->
  get_partition_value E P == crossing E P.
Proof. exact partition_value_crossing. Qed.
Print Assumptions C01_partition_value.

(** Arcs in both directions, a parallel arc and a self loop: the value is 2+3+4 = 9. *)
Definition ex01 : graph :=
  [mkArc 0 1 2; mkArc 2 0 3; mkArc 0 2 4; mkArc 1 1 100; mkArc 2 3 7].
Example C01_nonvacuous :
  NoDup [0;1;2;3]%nat /\ (forall a, In a ex01 -> In (asrc a) [0;1;2;3]%nat /\ In (adst a) [0;1;2;3]%nat) /\
  is_partition [0;1;2;3]%nat [[0];[2;3];[1]]%nat /\
  get_partition_value ex01 [[0];[2;3];[1]]%nat == 9.
Proof.
  split; [repeat constructor; simpl; intuition lia|].
  split; [simpl; intros a H; intuition (subst; simpl; auto)|].
  split; [|vm_compute; reflexivity].
  split; [|simpl; intuition discriminate].
  simpl. apply perm_skip.
  change [2;3;1]%nat with ([2;3] ++ 1 :: [])%nat. apply Permutation_sym, Permutation_cons_app.
  reflexivity.
Qed.

(** ** C02 *)
Lemma cut_entering E S : get_cut_value E S == entering E S.
Proof.
  unfold get_cut_value, entering. rewrite qsum_filter. apply qsum_ext. intros a _.
  destruct (negb (mem S (asrc a)) && mem S (adst a)); reflexivity.
Qed.

Lemma cut_submodular : forall E vs A B U I,
  (forall a, In a E -> 0 <= aw a) ->
  (forall a, In a E -> In (asrc a) vs /\ In (adst a) vs) ->
  (forall x, In x U <-> In x A \/ In x B) -> (forall x, In x I <-> In x A /\ In x B) ->
  0 <= get_cut_value E A /\ get_cut_value E [] == 0 /\ get_cut_value E vs == 0 /\
  get_cut_value E A == entering E A /\
  get_cut_value E U + get_cut_value E I <= get_cut_value E A + get_cut_value E B.
Proof.
  intros E vs A B U I Hw HE HU HI.
  assert (EU : get_cut_value E U == incut E (iunion (mem A) (mem B))).
  { apply qsum_ext. intros a _. unfold iunion.
    assert (M : forall x, mem U x = mem A x || mem B x).
    { intro x. apply eq_true_iff_eq. rewrite orb_true_iff, !mem_In. apply HU. }
    rewrite !M. reflexivity. }
  assert (EI : get_cut_value E I == incut E (iinter (mem A) (mem B))).
  { apply qsum_ext. intros a _. unfold iinter.
    assert (M : forall x, mem I x = mem A x && mem B x).
    { intro x. apply eq_true_iff_eq. rewrite andb_true_iff, !mem_In. apply HI. }
    rewrite !M. reflexivity. }
  split; [|split; [|split; [|split]]].
  - apply qsum_nonneg. intros a Ha. specialize (Hw a Ha).
    destruct (negb (mem A (asrc a)) && mem A (adst a)); lra.
  - apply qsum_zero. intros a _. reflexivity.
  - apply qsum_zero. intros a Ha. destruct (HE a Ha) as [H1 _]. apply mem_In in H1.
    rewrite H1. reflexivity.
  - apply cut_entering.
  - rewrite EU, EI. apply incut_sub. exact Hw.
Qed.

Theorem C02_cut_submodular : forall E vs A B U I,
  (forall a, In a E -> 0 <= aw a) ->
  (forall a, In a E -> In (asrc a) vs /\ In (adst a) vs) ->
  (forall x, In x U <-> In x A \/ In x B) -> (forall x, In x I <-> In x A /\ In x B) ->
  0 <= get_cut_value E A /\ get_cut_value E [] == 0 /\ get_cut_value E vs == 0 /\
  get_cut_value E A == entering E A /\
  get_cut_value E U + get_cut_value E I <= get_cut_value E A + get_cut_value E B.
Proof. exact cut_submodular. Qed.
Print Assumptions C02_cut_submodular.

(** The inequality is strict for A={0,1}, B={1,2} in the graph above: 0+2 < 3+6. *)
Example C02_nonvacuous :
  get_cut_value ex01 [0;1;2]%nat + get_cut_value ex01 [1]%nat == 0 + 2 /\
  get_cut_value ex01 [0;1]%nat + get_cut_value ex01 [1;2]%nat == 3 + 6.
Proof. split; vm_compute; reflexivity. Qed.

(** ** C03 *)
(** The triples heavier than the tolerance, in order. *)
Definition significant (eps : Q) (arcs : list (nat * nat * Q)) : list (nat * nat * Q) :=
  filter (fun t => Qltb eps (snd t)) arcs.
Definition triple (a : arc) : nat * nat * Q := (asrc a, adst a, aw a).
Definition in_range (n : nat) (t : nat * nat * Q) : Prop :=
  (fst (fst t) < n)%nat /\ (snd (fst t) < n)%nat.

Lemma make_dgraph_spec eps n arcs :
  ((forall t, In t (significant eps arcs) -> in_range n t) ->
   exists E, make_dgraph eps n arcs = Ok E /\ map triple E = significant eps arcs) /\
  (~ (forall t, In t (significant eps arcs) -> in_range n t) -> make_dgraph eps n arcs = UB).
Proof.
  induction arcs as [|[[s d] c] arcs [IH1 IH2]].
  - split; simpl; intro H.
    + exists []. auto.
    + exfalso. apply H. intros t [].
  - unfold significant in *. simpl. destruct (Qltb eps c) eqn:Hc; simpl; [|split; auto].
    destruct (Nat.ltb_spec s n) as [L1|L1]; destruct (Nat.ltb_spec d n) as [L2|L2]; simpl;
      try (split; [intro H; exfalso; destruct (H (s, d, c) (or_introl eq_refl)); simpl in *; lia
                  |reflexivity]).
    split; intro H.
    + destruct IH1 as (E & E1 & E2). { intros t Ht. apply H. right; auto. }
      rewrite E1. simpl. eexists. split; [reflexivity|]. simpl. rewrite E2. reflexivity.
    + rewrite IH2; [reflexivity|]. intro K. apply H. intros t [<-|Ht]; auto. split; auto.
Qed.

Theorem C03_make_dgraph : forall eps n arcs,
  ((forall t, In t (significant eps arcs) -> in_range n t) ->
   exists E, make_dgraph eps n arcs = Ok E /\ map triple E = significant eps arcs) /\
  (~ (forall t, In t (significant eps arcs) -> in_range n t) -> make_dgraph eps n arcs = UB).
Proof. exact make_dgraph_spec. Qed.
Print Assumptions C03_make_dgraph.

(** A triple below the tolerance naming node 9 is dropped; above the tolerance it is UB. *)
Example C03_nonvacuous :
  make_dgraph (1#1000) 3 [(0%nat,1%nat,2); (9%nat,1%nat,1#2000); (2%nat,1%nat,5)]
    = Ok [mkArc 0 1 2; mkArc 2 1 5] /\
  make_dgraph (1#1000) 3 [(0%nat,1%nat,2); (9%nat,1%nat,1)] = UB.
Proof. split; vm_compute; reflexivity. Qed.
