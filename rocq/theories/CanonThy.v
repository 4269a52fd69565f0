(** * CanonThy: the undirected simple graph behind an arbitrary list of arcs.

    Not code of the library: what a caller has to hand over when the input may have arcs in both
    directions, parallel arcs or self loops. *)
From Verif Require Import Base Graph Spec PartThy SeqThy.

(** The arc joins the two nodes, in either direction. *)
Definition joins (a : arc) (u v : nat) : bool :=
  (asrc a =? u)%nat && (adst a =? v)%nat || (asrc a =? v)%nat && (adst a =? u)%nat.

(** Total weight between two nodes. *)
Definition between (E : graph) (u v : nat) : Q := qsum (fun a => if joins a u v then aw a else 0) E.

(** One arc per pair of joined nodes, smaller id first. *)
Definition canon (n : nat) (E : graph) : graph :=
  flat_map (fun u => flat_map (fun v =>
    if (u <? v)%nat && Qltb 0 (between E u v) then [mkArc u v (between E u v)] else []) (seq 0 n))
    (seq 0 n).

Lemma qsum_flat_map {A B} (f : B -> Q) (g : A -> list B) l :
  qsum f (flat_map g l) == qsum (fun x => qsum f (g x)) l.
Proof. induction l; simpl; [lra|]. rewrite qsum_app, IHl. lra. Qed.

Lemma in_canon n E a : In a (canon n E) ->
  In (asrc a) (seq 0 n) /\ In (adst a) (seq 0 n) /\ (asrc a < adst a)%nat /\
  aw a = between E (asrc a) (adst a) /\ 0 < aw a.
Proof.
  intro H. unfold canon in H. apply in_flat_map in H. destruct H as (u & Hu & H).
  apply in_flat_map in H. destruct H as (v & Hv & H).
  destruct (u <? v)%nat eqn:E1; [|destruct H]. destruct (Qltb 0 _) eqn:E2; [|destruct H].
  destruct H as [<-|[]]. simpl. apply Nat.ltb_lt in E1. apply Qltb_true in E2. auto.
Qed.

Lemma canon_on n E : graph_on (seq 0 n) (canon n E).
Proof. intros a H. apply in_canon in H. intuition lra. Qed.

Lemma canon_forward n E : forward (canon n E).
Proof. intros a H. apply in_canon in H. tauto. Qed.

Lemma canon_simple n E : simple (canon n E).
Proof.
  unfold simple, canon.
  assert (G : forall l m, NoDup l -> NoDup m ->
    NoDup (map (fun a => (asrc a, adst a)) (flat_map (fun u => flat_map (fun v =>
      if (u <? v)%nat && Qltb 0 (between E u v) then [mkArc u v (between E u v)] else []) m) l))).
  { induction l as [|u l IH]; intros m Hl Hm; simpl; [constructor|].
    inversion Hl as [|? ? H1 H2]; subst. rewrite map_app. apply NoDup_app_intro.
    - clear IH. induction m as [|v m IHm]; simpl; [constructor|].
      inversion Hm as [|? ? K1 K2]; subst. destruct (_ && _); simpl; auto.
      constructor; auto. rewrite in_map_iff. intros (a & Ea & Ha). apply in_flat_map in Ha.
      destruct Ha as (w & Hw & Ha). destruct (_ && _); [|destruct Ha]. destruct Ha as [<-|[]].
      simpl in Ea. injection Ea as ->. auto.
    - apply IH; auto.
    - intros x Hx Hy. apply in_map_iff in Hx. destruct Hx as (a & <- & Ha).
      apply in_flat_map in Ha. destruct Ha as (v & _ & Ha). destruct (_ && _); [|destruct Ha].
      destruct Ha as [<-|[]]. simpl in Hy. apply in_map_iff in Hy. destruct Hy as (b & Eb & Hb).
      apply in_flat_map in Hb. destruct Hb as (u' & Hu' & Hb). apply in_flat_map in Hb.
      destruct Hb as (v' & _ & Hb). destruct (_ && _); [|destruct Hb]. destruct Hb as [<-|[]].
      simpl in Eb. injection Eb as -> ->. auto. }
  apply G; apply seq_NoDup.
Qed.

Lemma between_nonneg n E u v : graph_on (seq 0 n) E -> 0 <= between E u v.
Proof.
  intro H. apply qsum_nonneg. intros a Ha. destruct (joins a u v); [|lra].
  destruct (H a Ha) as (_ & _ & K). auto.
Qed.

Lemma same_part_sym P u v : same_part P u v = same_part P v u.
Proof. unfold same_part. induction P; simpl; auto. rewrite IHP, andb_comm. reflexivity. Qed.

Lemma joins_same P a u v : joins a u v = true -> same_part P u v = same_part P (asrc a) (adst a).
Proof.
  unfold joins. rewrite orb_true_iff, !andb_true_iff, !Nat.eqb_eq. intros [[-> ->]|[-> ->]]; auto.
  apply same_part_sym.
Qed.

(** Exactly one ordered pair for every proper arc. *)
Lemma pair_sum n a c : In (asrc a) (seq 0 n) -> In (adst a) (seq 0 n) ->
  qsum (fun u => qsum (fun v => if (u <? v)%nat && joins a u v then c else 0) (seq 0 n)) (seq 0 n)
  == if (asrc a =? adst a)%nat then 0 else c.
Proof.
  intros H1 H2. destruct (asrc a =? adst a)%nat eqn:E.
  - apply Nat.eqb_eq in E. apply qsum_zero. intros u _. apply qsum_zero. intros v _.
    unfold joins. rewrite E.
    destruct (u <? v)%nat eqn:L; simpl; [|reflexivity]. apply Nat.ltb_lt in L.
    destruct (adst a =? u)%nat eqn:E1; destruct (adst a =? v)%nat eqn:E2; simpl; try reflexivity.
    apply Nat.eqb_eq in E1, E2. lia.
  - apply Nat.eqb_neq in E. set (lo := Nat.min (asrc a) (adst a)). set (hi := Nat.max (asrc a) (adst a)).
    assert (Hlo : In lo (seq 0 n)) by (unfold lo; destruct (Nat.min_dec (asrc a) (adst a)) as [-> | ->]; auto).
    assert (Hhi : In hi (seq 0 n)) by (unfold hi; destruct (Nat.max_dec (asrc a) (adst a)) as [-> | ->]; auto).
    rewrite (qsum_ext _ (fun u => if (u =? lo)%nat then c else 0)).
    + apply qsum_single; [apply seq_NoDup|auto].
    + intros u _. destruct (u =? lo)%nat eqn:Eu.
      * rewrite (qsum_ext _ (fun v => if (v =? hi)%nat then c else 0)).
        { apply qsum_single; [apply seq_NoDup|auto]. }
        intros v _. apply Nat.eqb_eq in Eu. subst u.
        assert (B : ((lo <? v)%nat && joins a lo v) = (v =? hi)%nat); [|rewrite B; reflexivity].
        apply eq_true_iff_eq. unfold joins.
        rewrite andb_true_iff, orb_true_iff, !andb_true_iff, !Nat.eqb_eq, Nat.ltb_lt. unfold lo, hi. lia.
      * apply Nat.eqb_neq in Eu. apply qsum_zero. intros v _.
        assert (B : ((u <? v)%nat && joins a u v) = false); [|rewrite B; reflexivity].
        apply not_true_iff_false. unfold joins.
        rewrite andb_true_iff, orb_true_iff, !andb_true_iff, !Nat.eqb_eq, Nat.ltb_lt.
        unfold lo in Eu. lia.
Qed.

Theorem canon_crossing n E P : graph_on (seq 0 n) E -> is_partition (seq 0 n) P ->
  crossing (canon n E) P == crossing E P.
Proof.
  intros HE HP. unfold crossing, canon. rewrite qsum_flat_map.
  set (c := fun a : arc => if same_part P (asrc a) (adst a) then 0 else aw a).
  transitivity (qsum (fun u => qsum (fun v => qsum (fun a =>
      if (u <? v)%nat && joins a u v then c a else 0) E) (seq 0 n)) (seq 0 n)).
  - apply qsum_ext. intros u _. rewrite qsum_flat_map. apply qsum_ext. intros v _.
    destruct (u <? v)%nat; simpl; [|symmetry; apply qsum_zero; reflexivity].
    assert (T : qsum (fun a => if joins a u v then c a else 0) E ==
                (if same_part P u v then 0 else between E u v)).
    { destruct (same_part P u v) eqn:S.
      - apply qsum_zero. intros a _. destruct (joins a u v) eqn:J; [|reflexivity].
        unfold c. rewrite <- (joins_same P a u v J), S. reflexivity.
      - apply qsum_ext. intros a _. destruct (joins a u v) eqn:J; [|reflexivity].
        unfold c. rewrite <- (joins_same P a u v J), S. reflexivity. }
    rewrite T. destruct (Qltb 0 (between E u v)) eqn:L; simpl.
    + unfold c. simpl. ring.
    + apply Qltb_false in L. assert (N := between_nonneg n E u v HE).
      destruct (same_part P u v); lra.
  - transitivity (qsum (fun a => qsum (fun u => qsum (fun v =>
      if (u <? v)%nat && joins a u v then c a else 0) (seq 0 n)) (seq 0 n)) E).
    + rewrite <- (qsum_swap (fun u a => qsum (fun v =>
        if (u <? v)%nat && joins a u v then c a else 0) (seq 0 n))).
      apply qsum_ext. intros u _.
      apply (qsum_swap (fun v a => if (u <? v)%nat && joins a u v then c a else 0)).
    + apply qsum_ext. intros a Ha. destruct (HE a Ha) as (K1 & K2 & _).
      rewrite pair_sum by auto. destruct (asrc a =? adst a)%nat eqn:EE; [|reflexivity].
      apply Nat.eqb_eq in EE. unfold c. rewrite EE.
      destruct (part_cover _ _ _ HP K2) as (B & B1 & B2).
      assert (S : same_part P (adst a) (adst a) = true).
      { apply same_part_true. exists B. auto. }
      rewrite S. reflexivity.
Qed.

Lemma canon_weights n E eps : 0 < eps -> graph_on (seq 0 n) E ->
  (forall a, In a E -> eps <= aw a) -> forall a, In a (canon n E) -> eps <= aw a.
Proof.
  intros He HE Hw a Ha. apply in_canon in Ha. destruct Ha as (_ & _ & _ & Hb & Hp).
  rewrite Hb in Hp |- *. revert Hp. unfold between.
  assert (G : forall l, (forall b, In b l -> eps <= aw b) ->
     qsum (fun b => if joins b (asrc a) (adst a) then aw b else 0) l == 0 \/
     eps <= qsum (fun b => if joins b (asrc a) (adst a) then aw b else 0) l).
  { induction l as [|b l IH]; intro H; simpl; [left; lra|].
    assert (H1 := H b (or_introl eq_refl)).
    destruct (IH (fun x Hx => H x (or_intror Hx))) as [K|K]; destruct (joins b _ _).
    - right. lra.
    - left. lra.
    - right. lra.
    - right. lra. }
  intro Hp. destruct (G E Hw) as [K|K]; lra.
Qed.

Lemma canon_multiples n D E : multiples_of D E -> multiples_of D (canon n E).
Proof.
  intros H a Ha. apply in_canon in Ha. destruct Ha as (_ & _ & _ & Hb & _). rewrite Hb. unfold between.
  clear Hb. induction E as [|b E IH]; simpl; [exists 0%Z; reflexivity|].
  destruct IH as (z & Hz); [intros x Hx; apply H; right; auto|].
  destruct (joins b _ _).
  - destruct (H b (or_introl eq_refl)) as (w & Hw). exists (w + z)%Z. rewrite Hz, Hw.
    unfold Qeq, Qplus. simpl. rewrite Pos2Z.inj_mul. ring.
  - exists z. rewrite Hz. ring.
Qed.

Lemma canon_optimal n E lam P : graph_on (seq 0 n) E ->
  optimal (canon n E) (seq 0 n) lam P -> optimal E (seq 0 n) lam P.
Proof.
  intros HE [H1 H2]. split; auto. intros R HR. specialize (H2 R HR). unfold hval in *.
  rewrite !canon_crossing in H2 by auto. auto.
Qed.

Lemma canon_psp n E lams Ps : graph_on (seq 0 n) E ->
  IsPSP (canon n E) (seq 0 n) lams Ps -> IsPSP E (seq 0 n) lams Ps.
Proof.
  intros HE H. eapply full_sequence_mono; [intros a b K; exact K| |exact H].
  intros lam P K. apply canon_optimal; auto.
Qed.

Lemma canon_weak n E lams Ps : graph_on (seq 0 n) E ->
  IsWeakPSP (canon n E) (seq 0 n) lams Ps -> IsWeakPSP E (seq 0 n) lams Ps.
Proof.
  intros HE H. eapply full_sequence_mono; [intros a b K; exact K| |exact H].
  intros lam P K. apply canon_optimal; auto.
Qed.
