(** * MNBThy: greedy bases and the level sets of the point of minimum norm. *)
From Coq Require Import Sorted.
From Verif Require Import Base Graph PartThy SubThy MaxFlow BFThy MHC MAIC SFSpec.

Lemma vsum_ext n x y A B : (forall i, (i < n)%nat -> x i == y i) -> (forall i, (i < n)%nat -> A i = B i) ->
  vsum n x A == vsum n y B.
Proof.
  intros H1 H2. apply qsum_ext. intros i Hi. apply in_seq in Hi.
  rewrite (H2 i) by lia. destruct (B i); [apply H1; lia|reflexivity].
Qed.

Lemma vsum_modular n x A B : vsum n x (iunion A B) + vsum n x (iinter A B) == vsum n x A + vsum n x B.
Proof.
  unfold vsum. rewrite <- !qsum_plus. apply qsum_ext. intros i _. unfold iunion, iinter.
  destruct (A i), (B i); simpl; lra.
Qed.

Lemma vsum_none n x : vsum n x none == 0.
Proof. apply qsum_zero. reflexivity. Qed.

Lemma qsum_delta n i c : (i < n)%nat ->
  qsum (fun k => if (k =? i)%nat then c else 0) (seq 0 n) == c.
Proof.
  intro H. replace n with (i + S (n - i - 1))%nat by lia. rewrite seq_app. simpl.
  rewrite qsum_app. simpl. rewrite Nat.eqb_refl.
  rewrite (qsum_zero _ (seq 0 i)), (qsum_zero _ (seq (S i) (n - i - 1))); [lra| |].
  - intros k Hk. apply in_seq in Hk. replace (k =? i)%nat with false; [reflexivity|].
    symmetry. apply Nat.eqb_neq. lia.
  - intros k Hk. apply in_seq in Hk. replace (k =? i)%nat with false; [reflexivity|].
    symmetry. apply Nat.eqb_neq. lia.
Qed.

Lemma vsum_shift n x i j e S : (i < n)%nat -> (j < n)%nat ->
  vsum n (fun k => x k + (if (k =? i)%nat then e else 0) - (if (k =? j)%nat then e else 0)) S ==
  vsum n x S + (if S i then e else 0) - (if S j then e else 0).
Proof.
  intros Hi Hj. unfold vsum.
  rewrite (qsum_ext _ (fun k => ((if S k then x k else 0) + (if (k =? i)%nat then if S i then e else 0 else 0))
                       - (if (k =? j)%nat then if S j then e else 0 else 0))).
  - rewrite qsum_minus, qsum_plus, !qsum_delta by auto. reflexivity.
  - intros k _. destruct (Nat.eqb_spec k i) as [Ei|Ni], (Nat.eqb_spec k j) as [Ej|Nj].
    + rewrite <- Ei, <- Ej. destruct (S k); lra.
    + rewrite <- Ei. destruct (S k); lra.
    + rewrite <- Ej. destruct (S k); lra.
    + destruct (S k); lra.
Qed.

Lemma dot_shift n x i j e : (i < n)%nat -> (j < n)%nat -> i <> j ->
  let y := fun k => x k + (if (k =? i)%nat then e else 0) - (if (k =? j)%nat then e else 0) in
  dot n y y == dot n x x + 2 * e * (x i - x j) + 2 * (e * e).
Proof.
  intros Hi Hj N y. unfold dot, y.
  rewrite (qsum_ext _ (fun k => x k * x k + (if (k =? i)%nat then 2 * e * x i + e * e else 0)
                       - (if (k =? j)%nat then 2 * e * x j - e * e else 0))).
  - rewrite qsum_minus, qsum_plus, !qsum_delta by auto. ring.
  - intros k _. destruct (Nat.eqb_spec k i) as [Ei|Ni], (Nat.eqb_spec k j) as [Ej|Nj]; try congruence.
    + rewrite Ei. ring.
    + rewrite Ej. ring.
    + ring.
Qed.

(** Search for a zero in a list of non-negative values. *)
Lemma zero_or_gap {A} (f : A -> Q) (l : list A) :
  (forall a, In a l -> 0 <= f a) ->
  (exists a, In a l /\ f a == 0) \/ (exists e, 0 < e /\ forall a, In a l -> e <= f a).
Proof.
  induction l as [|a l IH]; intro H.
  - right. exists 1. split; [lra|]. intros a [].
  - destruct IH as [(b & Hb & Z)|(e & He & K)]; [intros; apply H; right; auto|left; exists b; split; [right|]; auto|].
    destruct (Qlt_le_dec 0 (f a)) as [P|P].
    + right. destruct (Qlt_le_dec e (f a)) as [L|L].
      * exists e. split; auto. intros b [<-|Hb]; [lra|auto].
      * exists (f a). split; auto. intros b [<-|Hb]; [lra|]. specialize (K b Hb). lra.
    + left. exists a. split; [left; auto|]. assert (0 <= f a) by (apply H; left; auto). lra.
Qed.

Section MinNorm.
  Variables (n : nat) (F : nset -> Q) (x : nat -> Q).
  Hypothesis HG : ground n F.
  Hypothesis HS : submodular F.
  Hypothesis HX : min_norm n F x.

  Definition btight (S : nset) : Prop := vsum n x S == F S - F none.

  Lemma btight_ext A B : (forall i, (i < n)%nat -> A i = B i) -> btight A -> btight B.
  Proof.
    unfold btight. intros H T. rewrite <- (vsum_ext n x x A B) by (auto; reflexivity).
    rewrite <- (HG A B H). auto.
  Qed.

  Lemma btight_both A B : btight A -> btight B -> btight (iunion A B) /\ btight (iinter A B).
  Proof.
    unfold btight. intros TA TB. assert (M := vsum_modular n x A B). assert (U := HS A B).
    destruct HX as [[K _] _]. assert (K1 := K (iunion A B)). assert (K2 := K (iinter A B)). lra.
  Qed.

  Lemma btight_none : btight none.
  Proof. unfold btight. rewrite vsum_none. lra. Qed.

  Lemma btight_every : btight every.
  Proof. apply HX. Qed.

  Lemma separate i j : (i < n)%nat -> (j < n)%nat -> x i < x j -> exists S, btight S /\ S i = true /\ S j = false.
  Proof.
    intros Hi Hj L.
    set (l := filter (fun A => mem A i && negb (mem A j)) (sublists (seq 0 n))).
    destruct HX as [[K1 K2] K3].
    destruct (zero_or_gap (fun A => F (mem A) - F none - vsum n x (mem A)) l) as [(A & HA & Z)|(e & He & K)].
    - intros A _. assert (K := K1 (mem A)). lra.
    - apply filter_In in HA. destruct HA as [_ HA]. apply andb_true_iff in HA. destruct HA as [A1 A2].
      apply negb_true_iff in A2. exists (mem A). split; auto. unfold btight. lra.
    - exfalso.
      set (d := if Qltb e ((x j - x i) / 2) then e else (x j - x i) / 2).
      assert (D : 0 < d /\ d <= e /\ d < x j - x i).
      { assert (H : (x j - x i) / 2 == (x j - x i) * (1#2)) by (field).
        unfold d. destruct (Qltb e ((x j - x i) / 2)) eqn:Q.
        - apply Qltb_true in Q. rewrite H in Q. lra.
        - apply Qltb_false in Q. rewrite H in *. lra. }
      destruct D as (D1 & D2 & D3).
      set (y := fun k => x k + (if (k =? i)%nat then d else 0) - (if (k =? j)%nat then d else 0)).
      assert (N : i <> j) by (intros ->; lra).
      assert (B : in_base n F y).
      { split.
        - intro S. unfold y. rewrite vsum_shift by auto. assert (KS := K1 S).
          destruct (S i) eqn:Si, (S j) eqn:Sj; try lra.
          assert (I : In (filter S (seq 0 n)) l).
          { apply filter_In. split; [apply sublists_filter|].
            rewrite !mem_filter, Si, Sj, andb_false_r, andb_true_r. simpl. rewrite andb_true_r. apply mem_In. apply in_seq. lia. }
          apply K in I.
          assert (X : forall k, (k < n)%nat -> mem (filter S (seq 0 n)) k = S k).
          { intros k Hk. rewrite mem_filter. replace (mem (seq 0 n) k) with true; auto.
            symmetry. apply mem_In. apply in_seq. lia. }
          rewrite (HG _ S X) in I. rewrite (vsum_ext n x x _ S) in I by (auto; reflexivity). lra.
        - unfold y. rewrite vsum_shift by auto. unfold every at 2 3. rewrite K2. lra. }
      apply K3 in B. unfold y in B. rewrite dot_shift in B by auto.
      assert (P : 0 < d * ((x j - x i) - d)) by (apply Qmult_lt_0_compat; lra).
      assert (R : 2 * d * (x i - x j) + 2 * (d * d) == - (2 * (d * ((x j - x i) - d)))) by ring. lra.
  Qed.

  Lemma separate_all i : (i < n)%nat -> forall J, (forall j, In j J -> (j < n)%nat /\ x i < x j) ->
    exists S, btight S /\ S i = true /\ forall j, In j J -> S j = false.
  Proof.
    intros Hi. induction J as [|j J IH]; intro H.
    - exists every. split; [apply btight_every|]. split; auto. intros j [].
    - destruct IH as (S & S1 & S2 & S3); [intros; apply H; right; auto|].
      destruct (H j (or_introl eq_refl)) as [Hj L].
      destruct (separate i j Hi Hj L) as (T & T1 & T2 & T3).
      exists (iinter S T). split; [apply btight_both; auto|]. unfold iinter. rewrite S2, T2. split; auto.
      intros k [<-|Hk]; [rewrite T3; apply andb_false_r|rewrite S3 by auto; reflexivity].
  Qed.

  (** A set whose coordinates all lie below those of the other elements is tight. *)
  Lemma level_tight (L : nset) :
    (forall i j, (i < n)%nat -> (j < n)%nat -> L i = true -> L j = false -> x i < x j) -> btight L.
  Proof.
    intro H.
    assert (K : forall I, (forall i, In i I -> (i < n)%nat /\ L i = true) ->
      exists S, btight S /\ (forall i, In i I -> S i = true) /\
                (forall j, (j < n)%nat -> L j = false -> S j = false)).
    { induction I as [|i I IH]; intro HI.
      - exists none. split; [apply btight_none|]. split; [intros i []|auto].
      - destruct IH as (S & S1 & S2 & S3); [intros; apply HI; right; auto|].
        destruct (HI i (or_introl eq_refl)) as [I1 I2].
        destruct (separate_all i I1 (filter (fun j => negb (L j)) (seq 0 n))) as (T & T1 & T2 & T3).
        { intros j Hj. apply filter_In in Hj. destruct Hj as [J1 J2]. apply in_seq in J1.
          apply negb_true_iff in J2. split; [lia|]. apply H; auto; lia. }
        exists (iunion S T). split; [apply btight_both; auto|]. unfold iunion. split.
        + intros k [<-|Hk]; [rewrite T2; apply orb_true_r|rewrite S2 by auto; reflexivity].
        + intros j Hj Lj. rewrite S3 by auto. simpl. apply T3. apply filter_In. rewrite Lj.
          split; [apply in_seq; lia|reflexivity]. }
    destruct (K (filter L (seq 0 n))) as (S & S1 & S2 & S3).
    { intros i Hi. apply filter_In in Hi. destruct Hi as [I1 I2]. apply in_seq in I1. split; [lia|auto]. }
    apply (btight_ext S); auto. intros i Hi. destruct (L i) eqn:E.
    - apply S2. apply filter_In. split; auto. apply in_seq; lia.
    - apply S3; auto.
  Qed.
End MinNorm.
