(** * FloatMono: binary rounding keeps the order. *)
From Coq Require Import Qabs Qround Lia.
From Verif Require Import Base MFloat FloatThy FloatSlice.

Lemma two_mono a b : (a <= b)%Z -> Qpower 2 a <= Qpower 2 b.
Proof.
  intro H. replace b with (a + (b - a))%Z by lia. rewrite two_add.
  assert (P := two_pos a).
  assert (K : 1 <= Qpower 2 (b - a)).
  { rewrite <- inj_pow by lia. change 1 with (inject_Z 1). rewrite <- Zle_Qle.
    assert (0 < 2 ^ (b - a))%Z by (apply Z.pow_pos_nonneg; lia). lia. }
  assert (0 <= Qpower 2 a * (Qpower 2 (b - a) - 1)) by (apply Qmult_le_0_compat; lra). lra.
Qed.

Lemma zround_range q : (Qfloor q <= zround q <= Qfloor q + 1)%Z.
Proof.
  unfold zround. cbv zeta. destruct (Qltb _ _); [lia|]. destruct (Qltb _ _); [lia|]. destruct (Z.even _); lia.
Qed.

Lemma zround_mono x y : x <= y -> (zround x <= zround y)%Z.
Proof.
  intro H. assert (F := Qfloor_resp_le x y H). destruct (Z.eq_dec (Qfloor x) (Qfloor y)) as [Eq|Ne].
  - unfold zround. cbv zeta. rewrite Eq. set (f := Qfloor y). set (c := inject_Z f).
    destruct (Qltb (x - c) (1#2)) eqn:A.
    + destruct (Qltb (y - c) (1#2)); [lia|]. destruct (Qltb (1#2) (y - c)); [lia|]. destruct (Z.even f); lia.
    + apply Qltb_false in A.
      assert (A' : Qltb (y - c) (1#2) = false) by (apply Qltb_false; lra). rewrite A'.
      destruct (Qltb (1#2) (x - c)) eqn:B.
      * apply Qltb_true in B. assert (B' : Qltb (1#2) (y - c) = true) by (apply Qltb_true; lra). rewrite B'. lia.
      * destruct (Qltb (1#2) (y - c)); destruct (Z.even f); lia.
  - assert (X := zround_range x). assert (Y := zround_range y). lia.
Qed.

Lemma zround_Z z : zround (inject_Z z) = z.
Proof.
  unfold zround. cbv zeta. rewrite Qfloor_Z.
  assert (K : Qltb (inject_Z z - inject_Z z) (1#2) = true) by (apply Qltb_true; lra). rewrite K. reflexivity.
Qed.

Lemma zround_ge z x : inject_Z z <= x -> (z <= zround x)%Z.
Proof. intro H. rewrite <- (zround_Z z). apply zround_mono. auto. Qed.
Lemma zround_le z x : x <= inject_Z z -> (zround x <= z)%Z.
Proof. intro H. rewrite <- (zround_Z z). apply zround_mono. auto. Qed.

Lemma qexp_lt q : ~ q == 0 -> Qabs q < Qpower 2 (qexp q + 1).
Proof.
  intro Hq. unfold qexp. cbv zeta.
  set (a := Z.abs (Qnum q)). set (b := Zpos (Qden q)). set (e := (Z.log2 a - Z.log2 b)%Z).
  destruct (Qle_bool (Qpower 2 e) (Qabs q)) eqn:E.
  - assert (Ha : (0 < a)%Z).
    { unfold a. destruct (Z.eq_dec (Qnum q) 0) as [C|C]; [|lia]. exfalso. apply Hq. unfold Qeq. simpl. rewrite C. reflexivity. }
    assert (Hb : (0 < b)%Z) by (unfold b; lia).
    destruct (Z.log2_spec a Ha) as [_ L1]. destruct (Z.log2_spec b Hb) as [L2 _].
    assert (N1 := Z.log2_nonneg a). assert (N2 := Z.log2_nonneg b).
    assert (Q1 : inject_Z a < Qpower 2 (Z.log2 a + 1)).
    { rewrite <- inj_pow by lia. rewrite <- Zlt_Qlt. unfold Z.succ in L1. lia. }
    assert (Q2 : Qpower 2 (Z.log2 b) <= inject_Z b) by (rewrite <- inj_pow by lia; rewrite <- Zle_Qle; auto).
    assert (Ab : Qabs q * inject_Z b == inject_Z a).
    { unfold a, b, Qeq, Qmult, inject_Z, Qabs. destruct q as [x y]. simpl. lia. }
    destruct (Qlt_le_dec (Qabs q) (Qpower 2 (e + 1))) as [C|C]; auto. exfalso.
    assert (K : Qpower 2 (e + 1) * Qpower 2 (Z.log2 b) == Qpower 2 (Z.log2 a + 1)).
    { rewrite <- two_add. replace (e + 1 + Z.log2 b)%Z with (Z.log2 a + 1)%Z by (unfold e; lia). reflexivity. }
    assert (P1 := two_pos (Z.log2 b)). assert (P2 := Qabs_nonneg q).
    assert (0 <= (Qabs q - Qpower 2 (e + 1)) * Qpower 2 (Z.log2 b)) by (apply Qmult_le_0_compat; lra).
    assert (0 <= Qabs q * (inject_Z b - Qpower 2 (Z.log2 b))) by (apply Qmult_le_0_compat; lra). lra.
  - replace (e - 1 + 1)%Z with e by lia. destruct (Qlt_le_dec (Qabs q) (Qpower 2 e)) as [C|C]; auto.
    apply Qle_bool_iff in C. congruence.
Qed.

Section Mono.
  Variable p : Z.
  Hypothesis Hp : (1 <= p)%Z.

  Let kq (q : Q) : Z := (p - 1 - qexp q)%Z.

  Lemma rnd_eq q : ~ q == 0 -> rnd p q == inject_Z (zround (q * Qpower 2 (kq q))) * Qpower 2 (- kq q).
  Proof.
    intro H. unfold rnd. destruct (Qeq_bool q 0) eqn:E; [apply Qeq_bool_eq in E; contradiction|].
    cbv zeta. rewrite Qred_correct. reflexivity.
  Qed.

  Lemma rnd_pos q : 0 < q -> Qpower 2 (qexp q) <= rnd p q /\ rnd p q <= Qpower 2 (qexp q + 1).
  Proof.
    intro H. assert (Hn : ~ q == 0) by (intro C; rewrite C in H; discriminate). rewrite (rnd_eq q Hn).
    assert (A := qexp_le q Hn). assert (B := qexp_lt q Hn). rewrite Qabs_pos in A, B by lra.
    set (e := qexp q) in *. set (k := kq q). assert (K := two_pos k). assert (K' := two_pos (- k)).
    assert (P1 : Qpower 2 e * Qpower 2 k == inject_Z (2 ^ (p - 1))).
    { rewrite <- two_add, inj_pow by lia. replace (e + k)%Z with (p - 1)%Z by (unfold k, kq; fold e; lia). reflexivity. }
    assert (P2 : Qpower 2 (e + 1) * Qpower 2 k == inject_Z (2 ^ p)).
    { rewrite <- two_add, inj_pow by lia. replace (e + 1 + k)%Z with p by (unfold k, kq; fold e; lia). reflexivity. }
    assert (X1 : inject_Z (2 ^ (p - 1)) <= q * Qpower 2 k).
    { rewrite <- P1. assert (0 <= (q - Qpower 2 e) * Qpower 2 k) by (apply Qmult_le_0_compat; lra). lra. }
    assert (X2 : q * Qpower 2 k <= inject_Z (2 ^ p)).
    { rewrite <- P2. assert (0 <= (Qpower 2 (e + 1) - q) * Qpower 2 k) by (apply Qmult_le_0_compat; lra). lra. }
    apply zround_ge in X1. apply zround_le in X2. rewrite Zle_Qle in X1, X2. rewrite <- P1 in X1. rewrite <- P2 in X2.
    set (z := inject_Z (zround (q * Qpower 2 k))) in *.
    assert (KK : Qpower 2 k * Qpower 2 (- k) == 1) by (rewrite <- two_add, Z.add_opp_diag_r; reflexivity).
    assert (Y1 : 0 <= (z - Qpower 2 e * Qpower 2 k) * Qpower 2 (- k)) by (apply Qmult_le_0_compat; lra).
    assert (Y2 : 0 <= (Qpower 2 (e + 1) * Qpower 2 k - z) * Qpower 2 (- k)) by (apply Qmult_le_0_compat; lra).
    assert (Z1 : (z - Qpower 2 e * Qpower 2 k) * Qpower 2 (- k) == z * Qpower 2 (- k) - Qpower 2 e * (Qpower 2 k * Qpower 2 (- k))) by ring.
    assert (Z2 : (Qpower 2 (e + 1) * Qpower 2 k - z) * Qpower 2 (- k) == Qpower 2 (e + 1) * (Qpower 2 k * Qpower 2 (- k)) - z * Qpower 2 (- k)) by ring.
    rewrite KK in Z1, Z2. split; lra.
  Qed.

  Lemma rnd_neg q : q < 0 -> - Qpower 2 (qexp q + 1) <= rnd p q /\ rnd p q <= - Qpower 2 (qexp q).
  Proof.
    intro H. assert (Hn : ~ q == 0) by (intro C; rewrite C in H; discriminate). rewrite (rnd_eq q Hn).
    assert (A := qexp_le q Hn). assert (B := qexp_lt q Hn). rewrite Qabs_neg in A, B by lra.
    set (e := qexp q) in *. set (k := kq q). assert (K := two_pos k). assert (K' := two_pos (- k)).
    assert (P1 : - (Qpower 2 e * Qpower 2 k) == inject_Z (- 2 ^ (p - 1))).
    { rewrite inject_Z_opp, <- two_add, inj_pow by lia. replace (e + k)%Z with (p - 1)%Z by (unfold k, kq; fold e; lia). reflexivity. }
    assert (P2 : - (Qpower 2 (e + 1) * Qpower 2 k) == inject_Z (- 2 ^ p)).
    { rewrite inject_Z_opp, <- two_add, inj_pow by lia. replace (e + 1 + k)%Z with p by (unfold k, kq; fold e; lia). reflexivity. }
    assert (X1 : q * Qpower 2 k <= inject_Z (- 2 ^ (p - 1))).
    { rewrite <- P1. assert (0 <= (- q - Qpower 2 e) * Qpower 2 k) by (apply Qmult_le_0_compat; lra). lra. }
    assert (X2 : inject_Z (- 2 ^ p) <= q * Qpower 2 k).
    { rewrite <- P2. assert (0 <= (Qpower 2 (e + 1) + q) * Qpower 2 k) by (apply Qmult_le_0_compat; lra). lra. }
    apply zround_le in X1. apply zround_ge in X2. rewrite Zle_Qle in X1, X2. rewrite <- P1 in X1. rewrite <- P2 in X2.
    set (z := inject_Z (zround (q * Qpower 2 k))) in *.
    assert (KK : Qpower 2 k * Qpower 2 (- k) == 1) by (rewrite <- two_add, Z.add_opp_diag_r; reflexivity).
    assert (Y1 : 0 <= (- z - Qpower 2 e * Qpower 2 k) * Qpower 2 (- k)) by (apply Qmult_le_0_compat; lra).
    assert (Y2 : 0 <= (Qpower 2 (e + 1) * Qpower 2 k + z) * Qpower 2 (- k)) by (apply Qmult_le_0_compat; lra).
    assert (Z1 : (- z - Qpower 2 e * Qpower 2 k) * Qpower 2 (- k) == - (z * Qpower 2 (- k)) - Qpower 2 e * (Qpower 2 k * Qpower 2 (- k))) by ring.
    assert (Z2 : (Qpower 2 (e + 1) * Qpower 2 k + z) * Qpower 2 (- k) == Qpower 2 (e + 1) * (Qpower 2 k * Qpower 2 (- k)) + z * Qpower 2 (- k)) by ring.
    rewrite KK in Z1, Z2. split; lra.
  Qed.

  Lemma rnd_zero q : q == 0 -> rnd p q == 0.
  Proof. intro H. unfold rnd. destruct (Qeq_bool q 0) eqn:E; [reflexivity|]. apply Qeq_bool_neq in E. contradiction. Qed.

  Lemma pow_lt_inv a b : Qpower 2 a < Qpower 2 b -> (a < b)%Z.
  Proof.
    intro H. destruct (Z_lt_le_dec a b) as [|C]; auto. apply two_mono in C. exfalso. lra.
  Qed.

  Lemma rnd_same a b : a <= b -> ~ a == 0 -> ~ b == 0 -> qexp a = qexp b -> rnd p a <= rnd p b.
  Proof.
    intros H Ha Hb He. rewrite (rnd_eq a Ha), (rnd_eq b Hb). unfold kq. rewrite He. set (k := (p - 1 - qexp b)%Z).
    assert (K := two_pos k). assert (K' := two_pos (- k)).
    assert (X : a * Qpower 2 k <= b * Qpower 2 k) by (apply Qmult_le_compat_r; lra).
    apply zround_mono in X. rewrite Zle_Qle in X. apply Qmult_le_compat_r; [auto|lra].
  Qed.

  Theorem rnd_mono a b : a <= b -> rnd p a <= rnd p b.
  Proof.
    intro H.
    destruct (Qlt_le_dec 0 a) as [A|A].
    - assert (B : 0 < b) by lra.
      assert (Ha : ~ a == 0) by (intro C; rewrite C in A; discriminate).
      assert (Hb : ~ b == 0) by (intro C; rewrite C in B; discriminate).
      assert (L1 := qexp_le a Ha). assert (L2 := qexp_lt b Hb). rewrite Qabs_pos in L1, L2 by lra.
      assert (L : (qexp a < qexp b + 1)%Z) by (apply pow_lt_inv; lra).
      destruct (Z.eq_dec (qexp a) (qexp b)) as [Eq|Ne]; [apply rnd_same; auto|].
      assert (M := two_mono (qexp a + 1) (qexp b) ltac:(lia)).
      destruct (rnd_pos a A) as [_ X]. destruct (rnd_pos b B) as [Y _]. lra.
    - destruct (Qlt_le_dec b 0) as [B|B].
      + assert (A' : a < 0) by lra.
        assert (Ha : ~ a == 0) by (intro C; rewrite C in A'; discriminate).
        assert (Hb : ~ b == 0) by (intro C; rewrite C in B; discriminate).
        assert (L1 := qexp_le b Hb). assert (L2 := qexp_lt a Ha). rewrite Qabs_neg in L1, L2 by lra.
        assert (L : (qexp b < qexp a + 1)%Z) by (apply pow_lt_inv; lra).
        destruct (Z.eq_dec (qexp a) (qexp b)) as [Eq|Ne]; [apply rnd_same; auto|].
        assert (M := two_mono (qexp b + 1) (qexp a) ltac:(lia)).
        destruct (rnd_neg a A') as [_ X]. destruct (rnd_neg b B) as [Y _]. lra.
      + assert (X : rnd p a <= 0).
        { destruct (Qlt_le_dec a 0) as [A'|A'].
          - destruct (rnd_neg a A') as [_ X]. assert (K := two_pos (qexp a)). lra.
          - rewrite rnd_zero; lra. }
        assert (Y : 0 <= rnd p b).
        { destruct (Qlt_le_dec 0 b) as [B'|B'].
          - destruct (rnd_pos b B') as [Y _]. assert (K := two_pos (qexp b)). lra.
          - rewrite rnd_zero; lra. }
        lra.
  Qed.
End Mono.

Theorem binary_mono p : (1 <= p)%Z -> mono_ops (binary p).
Proof. intros Hp a b b' H. cbn. split; apply rnd_mono; auto; lra. Qed.
