(** * AICStep: one agglomeration step on a normalised submodular function [G] of {0..k-1} that
    vanishes on singletons.  The points of minimum norm of the functions B |-> G(B + j), B below j,
    give the largest critical value and the sets to be merged. *)
From Coq Require Import Sorted Relations.
From Verif Require Import Base Graph PartThy SubThy MHC MAIC SFSpec MNBThy.

Definition card (n : nat) (S : nset) : Q := vsum n (fun _ => 1) S.

Lemma card_ext n A B : (forall i, (i < n)%nat -> A i = B i) -> card n A == card n B.
Proof. intro H. apply vsum_ext; auto. reflexivity. Qed.

Lemma card_length n S : card n S == qn (length (filter S (seq 0 n))).
Proof. unfold card, vsum. rewrite <- (qsum_filter (fun _ => 1)). rewrite qsum_const. lra. Qed.

Lemma vsum_scal n c S : vsum n (fun _ => c) S == c * card n S.
Proof.
  unfold card, vsum. rewrite <- qsum_scal. apply qsum_ext. intros i _. destruct (S i); lra.
Qed.

Lemma vsum_S n x S : vsum (Datatypes.S n) x S == vsum n x S + if S n then x n else 0.
Proof. unfold vsum. rewrite seq_S, qsum_app. simpl. lra. Qed.

Lemma vsum_upto n m x S : (m <= n)%nat -> (forall i, (m <= i < n)%nat -> S i = false) -> vsum n x S == vsum m x S.
Proof.
  intros H Z. replace n with (m + (n - m))%nat by lia. unfold vsum. rewrite seq_app, qsum_app.
  rewrite (qsum_zero _ (seq (0 + m) (n - m))); [lra|]. intros i Hi. apply in_seq in Hi.
  rewrite Z by lia. reflexivity.
Qed.

Lemma flt_length {A} (p : A -> bool) l : (length (filter p l) <= length l)%nat.
Proof. induction l as [|a l IH]; simpl; auto. destruct (p a); simpl; lia. Qed.

Lemma max_elem k (B : nset) : (exists i, (i < k)%nat /\ B i = true) ->
  exists j, (j < k)%nat /\ B j = true /\ forall i, (i < k)%nat -> B i = true -> (i <= j)%nat.
Proof.
  induction k as [|k IH]; intros (i & Hi & Bi); [lia|].
  destruct (B k) eqn:E.
  - exists k. split; [lia|]. split; auto. intros. lia.
  - destruct IH as (j & J1 & J2 & J3).
    { exists i. split; auto. destruct (Nat.eq_dec i k); [congruence|lia]. }
    exists j. split; [lia|]. split; auto. intros m Hm Bm. destruct (Nat.eq_dec m k); [congruence|].
    apply J3; auto; lia.
Qed.

(** ** Coordinates of a point of minimum norm lie on a grid. *)
Definition onD (D : positive) (q : Q) : Prop := exists z : Z, q == z # D.

Lemma onD_minus D a b : onD D a -> onD D b -> onD D (a - b).
Proof.
  intros (z & Hz) (y & Hy). exists (z - y)%Z. rewrite Hz, Hy. unfold Qeq, Qminus, Qplus, Qopp. simpl.
  rewrite Pos2Z.inj_mul. ring.
Qed.

Lemma coord_grid n F x D i : ground n F -> submodular F -> min_norm n F x ->
  (forall S, onD D (F S)) -> (i < n)%nat ->
  exists b z, (1 <= b <= n)%nat /\ x i * qn b == z # D.
Proof.
  intros HG HS HX HD Hi.
  assert (T1 := level_tight n F x HG HS HX (fun k => Qle_bool (x k) (x i))).
  assert (T2 := level_tight n F x HG HS HX (fun k => Qltb (x k) (x i))).
  set (L1 := fun k => Qle_bool (x k) (x i)) in *. set (L2 := fun k => Qltb (x k) (x i)) in *.
  assert (B1 : btight n F x L1).
  { apply T1. intros a b _ _ Ha Hb. unfold L1 in *. apply Qle_bool_iff in Ha. apply Qle_bool_false in Hb. lra. }
  assert (B2 : btight n F x L2).
  { apply T2. intros a b _ _ Ha Hb. unfold L2 in *. apply Qltb_true in Ha. apply Qltb_false in Hb. lra. }
  unfold btight in B1, B2.
  set (L := fun k => Qle_bool (x k) (x i) && negb (Qltb (x k) (x i))).
  assert (E : vsum n x L1 - vsum n x L2 == x i * card n L).
  { rewrite <- vsum_scal. unfold vsum. rewrite <- qsum_minus. apply qsum_ext. intros k _. unfold L, L1, L2.
    destruct (Qle_bool (x k) (x i)) eqn:E1, (Qltb (x k) (x i)) eqn:E2; simpl; try lra.
    - apply Qle_bool_iff in E1. apply Qltb_false in E2. lra.
    - apply Qle_bool_false in E1. apply Qltb_true in E2. lra. }
  rewrite card_length in E. exists (length (filter L (seq 0 n))).
  destruct (onD_minus D (F L1) (F L2) (HD L1) (HD L2)) as (z & Hz). exists z. split.
  - split.
    + assert (I : In i (filter L (seq 0 n))).
      { apply filter_In. split; [apply in_seq; lia|]. unfold L.
        replace (Qle_bool (x i) (x i)) with true by (symmetry; apply Qle_bool_iff; lra).
        replace (Qltb (x i) (x i)) with false by (symmetry; apply Qltb_false; lra). reflexivity. }
      destruct (filter L (seq 0 n)); [destruct I|simpl; lia].
    + assert (K := flt_length L (seq 0 n)). rewrite seq_length in K. auto.
  - rewrite <- E, B1, B2, <- Hz. ring.
Qed.

(** Two different values of such a grid are far apart. *)
Lemma grid_gap D m u v b c y z : (1 <= b <= m)%nat -> (1 <= c <= m)%nat ->
  u * qn b == y # D -> v * qn c == z # D -> u < v ->
  1 <= (v - u) * (Zpos D # 1) * (qn m * qn m).
Proof.
  intros Hb Hc Eu Ev L.
  assert (B1 : 1 <= qn b) by (apply (qn_le 1 b); lia). assert (B2 : qn b <= qn m) by (apply qn_le; lia).
  assert (C1 : 1 <= qn c) by (apply (qn_le 1 c); lia). assert (C2 : qn c <= qn m) by (apply qn_le; lia).
  assert (DP : 0 < Zpos D # 1) by (unfold Qlt; simpl; lia).
  assert (I : (v - u) * (Zpos D # 1) * (qn b * qn c) == inject_Z (z * Z.of_nat b - y * Z.of_nat c)).
  { assert (Zd : forall w : Z, (w # D) * (Zpos D # 1) == inject_Z w).
    { intro w. unfold Qeq, Qmult, inject_Z. simpl. rewrite Pos.mul_1_r. ring. }
    transitivity ((v * qn c) * (Zpos D # 1) * qn b - (u * qn b) * (Zpos D # 1) * qn c); [ring|].
    rewrite Eu, Ev, !Zd. unfold qn. rewrite <- !inject_Z_mult. unfold Qminus. rewrite <- inject_Z_opp, <- inject_Z_plus.
    reflexivity. }
  assert (P : 0 < (v - u) * (Zpos D # 1)) by (apply Qmult_lt_0_compat; lra).
  assert (PB : 0 < qn b * qn c) by (apply Qmult_lt_0_compat; lra).
  assert (P2 : 0 < (v - u) * (Zpos D # 1) * (qn b * qn c)) by (apply Qmult_lt_0_compat; auto).
  assert (O : 1 <= (v - u) * (Zpos D # 1) * (qn b * qn c)).
  { rewrite I in *. change 1 with (inject_Z 1). rewrite <- Zle_Qle. change 0 with (inject_Z 0) in P2.
    rewrite <- Zlt_Qlt in P2. lia. }
  assert (Q1 : qn b * qn c <= qn m * qn m) by (apply Qmult_le_compat_nonneg; lra).
  assert (Q2 : (v - u) * (Zpos D # 1) * (qn b * qn c) <= (v - u) * (Zpos D # 1) * (qn m * qn m)).
  { apply Qmult_le_compat_nonneg; split; lra. }
  lra.
Qed.

(** B |-> G(B + j) on the subsets of {0..j-1}. *)
Definition hfix (G : nset -> Q) (j : nat) : nset -> Q :=
  fun B => G (fun i => (B i && (i <? j)%nat) || (i =? j)%nat).

Lemma hfix_ground G j k : ground k G -> (j < k)%nat -> ground j (hfix G j).
Proof.
  intros HG Hj A B H. apply HG. intros i _. destruct (Nat.ltb_spec i j) as [L|L].
  - rewrite H by auto. reflexivity.
  - rewrite !andb_false_r. reflexivity.
Qed.

Lemma hfix_sub G j k : ground k G -> submodular G -> submodular (hfix G j).
Proof.
  intros HG HS A B. unfold hfix.
  assert (K := HS (fun i => (A i && (i <? j)%nat) || (i =? j)%nat) (fun i => (B i && (i <? j)%nat) || (i =? j)%nat)).
  rewrite (HG (fun i => iunion A B i && (i <? j)%nat || (i =? j)%nat)
              (iunion (fun i => A i && (i <? j)%nat || (i =? j)%nat) (fun i => B i && (i <? j)%nat || (i =? j)%nat))).
  rewrite (HG (fun i => iinter A B i && (i <? j)%nat || (i =? j)%nat)
              (iinter (fun i => A i && (i <? j)%nat || (i =? j)%nat) (fun i => B i && (i <? j)%nat || (i =? j)%nat))).
  - exact K.
  - intros i _. unfold iinter. destruct (A i), (B i), (i <? j)%nat, (i =? j)%nat; reflexivity.
  - intros i _. unfold iunion. destruct (A i), (B i), (i <? j)%nat, (i =? j)%nat; reflexivity.
Qed.

Section Step.
  Variables (k : nat) (G : nset -> Q).
  Hypothesis HG : ground k G.
  Hypothesis HS : submodular G.
  Hypothesis H1 : forall j, (j < k)%nat -> G (fun i => (i =? j)%nat) == 0.

  Lemma hfix_none j : (j < k)%nat -> hfix G j none == 0.
  Proof. intro Hj. unfold hfix. rewrite <- (H1 j Hj). apply HG. intros i _. reflexivity. Qed.

  Variable xs : nat -> nat -> Q.
  Hypothesis HX : forall j, (1 <= j < k)%nat -> min_norm j (hfix G j) (xs j).
  Variable g : Q.
  Hypothesis Hlow : forall i j, (i < j)%nat -> (j < k)%nat -> - g <= xs j i.

  Definition inhab (B : nset) : Prop := exists i, (i < k)%nat /\ B i = true.

  (** Every non-empty set is at least as large as the value at gamma demands. *)
  Lemma step_max B j : (j < k)%nat -> B j = true -> (forall i, (i < k)%nat -> B i = true -> (i <= j)%nat) ->
    hfix G j B == G B /\ card k B == card j B + 1.
  Proof.
    intros Hj Bj M. split.
    - apply HG. intros i Hi. destruct (B i) eqn:E; simpl.
      + apply M in E; auto. destruct (Nat.ltb_spec i j), (Nat.eqb_spec i j); auto; lia.
      + destruct (Nat.eqb_spec i j); auto. congruence.
    - unfold card. rewrite (vsum_upto k (S j)); [|lia|].
      + rewrite vsum_S, Bj. lra.
      + intros i Hi. destruct (B i) eqn:E; auto. apply M in E; lia.
  Qed.

  Lemma step_base B j : (j < k)%nat -> B j = true -> (forall i, (i < k)%nat -> B i = true -> (i <= j)%nat) ->
    vsum j (xs j) B <= G B.
  Proof.
    intros Hj Bj M. destruct (step_max B j Hj Bj M) as [E _].
    destruct (Nat.eq_dec j 0) as [->|N].
    - unfold vsum. simpl. rewrite (HG B (fun i => (i =? 0)%nat)).
      + rewrite H1 by auto. lra.
      + intros i Hi. destruct (Nat.eqb_spec i 0) as [->|]; auto. destruct (B i) eqn:Bi; auto. apply M in Bi; lia.
    - destruct (HX j) as [[K _] _]; [lia|]. assert (KB := K B). rewrite hfix_none in KB by auto. lra.
  Qed.

  Lemma step_lower B : inhab B -> - g * (card k B - 1) <= G B.
  Proof.
    intro HB. destruct (max_elem k B HB) as (j & Hj & Bj & M).
    destruct (step_max B j Hj Bj M) as [_ C]. assert (K := step_base B j Hj Bj M).
    assert (L : vsum j (fun _ => - g) B <= vsum j (xs j) B).
    { apply qsum_le. intros i Hi. apply in_seq in Hi. destruct (B i); [apply Hlow; lia|lra]. }
    rewrite vsum_scal in L. rewrite C. setoid_replace (card j B + 1 - 1) with (card j B) by ring. lra.
  Qed.

  Definition gtight (B : nset) : Prop := inhab B /\ G B == - g * (card k B - 1).

  Lemma gtight_ext A B : (forall i, (i < k)%nat -> A i = B i) -> gtight A -> gtight B.
  Proof.
    intros H [(i & Hi & Ai) T]. split.
    - exists i. rewrite <- H; auto.
    - rewrite <- (HG A B H), <- (card_ext k A B H). auto.
  Qed.

  Lemma gtight_single i : (i < k)%nat -> gtight (fun m => (m =? i)%nat).
  Proof.
    intro Hi. split.
    - exists i. rewrite Nat.eqb_refl. auto.
    - rewrite H1 by auto. unfold card, vsum. rewrite qsum_delta by auto. lra.
  Qed.

  Lemma gtight_union A B i : (i < k)%nat -> A i = true -> B i = true -> gtight A -> gtight B -> gtight (iunion A B).
  Proof.
    intros Hi Ai Bi [_ TA] [_ TB].
    assert (IU : inhab (iunion A B)) by (exists i; unfold iunion; rewrite Ai; auto).
    split; auto.
    assert (II : inhab (iinter A B)) by (exists i; unfold iinter; rewrite Ai, Bi; auto).
    assert (M := vsum_modular k (fun _ => 1) A B). fold (card k (iunion A B)) (card k (iinter A B)) (card k A) (card k B) in M.
    assert (L1 := step_lower _ IU). assert (L2 := step_lower _ II). assert (S := HS A B).
    assert (E : - g * (card k (iunion A B) - 1) + - g * (card k (iinter A B) - 1) ==
                - g * (card k A - 1) + - g * (card k B - 1)).
    { transitivity (- g * ((card k (iunion A B) + card k (iinter A B)) - 2)); [ring|]. rewrite M. ring. }
    lra.
  Qed.

  (** Coordinates equal to -gamma are exactly the pairs inside tight sets. *)
  Lemma coord_tight i j : (i < j)%nat -> (j < k)%nat -> xs j i == - g ->
    exists B, gtight B /\ B i = true /\ B j = true.
  Proof.
    intros Hi Hj E. assert (MX : min_norm j (hfix G j) (xs j)) by (apply HX; lia).
    set (L := fun m => Qle_bool (xs j m) (- g)).
    assert (T : btight j (hfix G j) (xs j) L).
    { apply level_tight; auto.
      - eapply hfix_ground; eauto.
      - eapply hfix_sub; eauto.
      - intros a b _ _ Ha Hb. unfold L in *. apply Qle_bool_iff in Ha. apply Qle_bool_false in Hb. lra. }
    unfold btight in T. rewrite hfix_none in T by auto.
    set (B := fun m => (L m && (m <? j)%nat) || (m =? j)%nat).
    assert (Bj : B j = true) by (unfold B; rewrite Nat.eqb_refl, orb_true_r; auto).
    assert (M : forall m, (m < k)%nat -> B m = true -> (m <= j)%nat).
    { intros m _ Bm. unfold B in Bm. destruct (Nat.ltb_spec m j); [lia|]. rewrite andb_false_r in Bm. simpl in Bm.
      apply Nat.eqb_eq in Bm. lia. }
    assert (Ls : L i = true) by (unfold L; apply Qle_bool_iff; lra).
    exists B. split; [|split; auto].
    - split; [exists j; auto|].
      destruct (step_max B j Hj Bj M) as [_ C]. rewrite C.
      setoid_replace (card j B + 1 - 1) with (card j B) by ring.
      transitivity (vsum j (xs j) L).
      + transitivity (hfix G j L); [reflexivity|]. lra.
      + rewrite <- vsum_scal. apply qsum_ext. intros m Hm. apply in_seq in Hm.
        assert (EB : B m = L m).
        { unfold B. destruct (Nat.ltb_spec m j); [|lia]. destruct (Nat.eqb_spec m j); [lia|].
          rewrite andb_true_r, orb_false_r. reflexivity. }
        rewrite EB. destruct (L m) eqn:Lm; [|reflexivity]. unfold L in Lm. apply Qle_bool_iff in Lm.
        assert (- g <= xs j m) by (apply Hlow; lia). lra.
    - unfold B. rewrite Ls. destruct (Nat.ltb_spec i j); [reflexivity|lia].
  Qed.

  Lemma tight_coord B i j : gtight B -> (j < k)%nat -> B j = true ->
    (forall m, (m < k)%nat -> B m = true -> (m <= j)%nat) -> (i < j)%nat -> B i = true -> xs j i == - g.
  Proof.
    intros [_ T] Hj Bj M Hi Bi. destruct (step_max B j Hj Bj M) as [_ C].
    assert (K := step_base B j Hj Bj M). rewrite T, C in K.
    setoid_replace (card j B + 1 - 1) with (card j B) in K by ring. rewrite <- vsum_scal in K.
    assert (Z : (if B i then xs j i else 0) - (if B i then - g else 0) == 0).
    { apply (qsum_all_zero (fun i => (if B i then xs j i else 0) - (if B i then - g else 0)) (seq 0 j)).
      - intros m Hm. apply in_seq in Hm. assert (- g <= xs j m) by (apply Hlow; lia). destruct (B m); lra.
      - rewrite qsum_minus. unfold vsum in K. lra.
      - apply in_seq. lia. }
    rewrite Bi in Z. lra.
  Qed.

  Definition lnk (i j : nat) : Prop := exists B, gtight B /\ B i = true /\ B j = true.

  Lemma lnk_refl i : (i < k)%nat -> lnk i i.
  Proof. intro Hi. exists (fun m => (m =? i)%nat). rewrite Nat.eqb_refl. split; auto. apply gtight_single; auto. Qed.

  Lemma lnk_sym i j : lnk i j -> lnk j i.
  Proof. intros (B & T & Bi & Bj). exists B. auto. Qed.

  Lemma lnk_trans i j m : (j < k)%nat -> lnk i j -> lnk j m -> lnk i m.
  Proof.
    intros Hj (A & TA & Ai & Aj) (B & TB & Bj & Bm). exists (iunion A B).
    split; [apply (gtight_union A B j); auto|]. unfold iunion. rewrite Ai, Bm, orb_true_r. auto.
  Qed.

  (** The pairs merged by agglomerate generate [lnk]. *)
  Definition merged (i j : nat) : Prop := (i < j)%nat /\ (j < k)%nat /\ xs j i == - g.

  Lemma merged_lnk i j : (i < k)%nat -> clos_refl_sym_trans nat merged i j -> (j < k)%nat /\ lnk i j.
  Proof.
    intros Hi J. assert (K : forall a b, clos_refl_sym_trans nat merged a b ->
      ((a < k)%nat -> (b < k)%nat /\ lnk a b) /\ ((b < k)%nat -> (a < k)%nat /\ lnk b a)).
    { clear i j Hi J. intros a b J. induction J as [a b (L & Hb & E)|a|a b _ [IH1 IH2]|a b c _ [A1 A2] _ [B1 B2]].
      - destruct (coord_tight a b L Hb E) as (B & T & Ba & Bb). split; intro; (split; [lia|exists B; auto]).
      - split; intro; split; auto using lnk_refl.
      - auto.
      - split.
        + intro Ha. destruct (A1 Ha) as [Hb L1]. destruct (B1 Hb) as [Hc L2]. split; auto. apply (lnk_trans a b c); auto.
        + intro Hc. destruct (B2 Hc) as [Hb L1]. destruct (A2 Hb) as [Ha L2]. split; auto. apply (lnk_trans c b a); auto. }
    exact (proj1 (K i j J) Hi).
  Qed.

  Lemma lnk_merged i j : (i < k)%nat -> (j < k)%nat -> lnk i j -> clos_refl_sym_trans nat merged i j.
  Proof.
    intros Hi Hj (B & T & Bi & Bj).
    destruct (max_elem k B) as (m & Hm & Bm & M); [exists i; auto|].
    assert (K : forall a, (a < k)%nat -> B a = true -> clos_refl_sym_trans nat merged a m).
    { intros a Ha Ba. assert (L := M a Ha Ba). destruct (Nat.eq_dec a m) as [->|N]; [apply rst_refl|].
      apply rst_step. split; [lia|]. split; auto. apply (tight_coord B); auto. lia. }
    apply (rst_trans _ _ i m j); [apply K; auto|]. apply rst_sym. apply K; auto.
  Qed.

  (** A class of [lnk] is tight. *)
  Lemma class_tight c i : (i < k)%nat -> (forall j, (j < k)%nat -> (c j = true <-> lnk i j)) -> gtight c.
  Proof.
    intros Hi Hc.
    assert (K : forall l, (forall j, In j l -> (j < k)%nat /\ c j = true) ->
      exists B, gtight B /\ B i = true /\ forall j, In j l -> B j = true).
    { induction l as [|j l IH]; intro H.
      - exists (fun m => (m =? i)%nat). split; [apply gtight_single; auto|]. rewrite Nat.eqb_refl. split; [reflexivity|]. simpl; tauto.
      - destruct IH as (B & T & Bi & Bl); [intros; apply H; right; auto|].
        destruct (H j (or_introl eq_refl)) as [Hj Cj]. apply Hc in Cj; auto. destruct Cj as (A & TA & Ai & Aj).
        exists (iunion A B). split; [apply (gtight_union A B i); auto|]. unfold iunion. rewrite Ai. split; auto.
        intros m [<-|Hm]; [rewrite Aj; auto|rewrite Bl by auto; apply orb_true_r]. }
    destruct (K (filter c (seq 0 k))) as (B & T & Bi & Bl).
    { intros j Hj. apply filter_In in Hj. destruct Hj as [J1 J2]. apply in_seq in J1. split; [lia|auto]. }
    apply (gtight_ext B); auto. intros j Hj. destruct (c j) eqn:E.
    - apply Bl. apply filter_In. split; auto. apply in_seq; lia.
    - destruct (B j) eqn:Bj; auto. assert (c j = true); [|congruence]. apply Hc; auto. exists B. auto.
  Qed.
End Step.
