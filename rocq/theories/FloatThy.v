(** * FloatThy: rounding errors of the operations and sums of MFloat. *)
From Coq Require Import Qabs Qround Qpower Morphisms.
From Verif Require Import Base Spec PartThy SubThy MSets SetsThy MGraph MaxFlow CutThy MDil DilThy
  MDT DilApprox MFloat.

(** ** Closeness *)
Definition near (e a b : Q) : Prop := a - b <= e /\ b - a <= e.

Global Instance near_wd : Proper (Qeq ==> Qeq ==> Qeq ==> iff) near.
Proof. intros e e' He a a' Ha b b' Hb. unfold near. rewrite He, Ha, Hb. tauto. Qed.

Lemma near_abs e a b : Qabs (a - b) <= e <-> near e a b.
Proof. rewrite Qabs_Qle_condition. unfold near. split; intros [H1 H2]; split; lra. Qed.

Lemma near_trans e f a b c : near e a b -> near f b c -> near (e + f) a c.
Proof. unfold near. intros [A B] [C D]. split; lra. Qed.

Lemma near_wk e f a b : e <= f -> near e a b -> near f a b.
Proof. unfold near. intros H [A B]. split; lra. Qed.

Lemma near_eqr e a b c : near e a b -> b == c -> near e a c.
Proof. unfold near. intros [A B] H. split; lra. Qed.

Section Std.
  Variable u : Q.
  Variable o : fops.
  Hypothesis Hu : 0 <= u.
  Hypothesis Ho : std_model u o.

  Let scale t x r : - t <= x -> x <= t -> Qabs (r - x) <= u * Qabs x -> near (u * t) r x.
  Proof.
    intros H1 H2 H. apply near_abs. eapply Qle_trans; [exact H|].
    assert (K : Qabs x <= t) by (apply Qabs_Qle_condition; split; lra).
    assert (0 <= u * (t - Qabs x)) by (apply Qmult_le_0_compat; lra). lra.
  Qed.

  Lemma add_near t a b : - t <= a + b -> a + b <= t -> near (u * t) (fadd o a b) (a + b).
  Proof. intros H1 H2. apply scale; auto. apply Ho. Qed.
  Lemma sub_near t a b : - t <= a - b -> a - b <= t -> near (u * t) (fsub o a b) (a - b).
  Proof. intros H1 H2. apply scale; auto. apply Ho. Qed.
  Lemma mul_near t a b : - t <= a * b -> a * b <= t -> near (u * t) (fmul o a b) (a * b).
  Proof. intros H1 H2. apply scale; auto. apply Ho. Qed.
  Lemma div_near t a b : ~ b == 0 -> - t <= a / b -> a / b <= t -> near (u * t) (fdiv o a b) (a / b).
  Proof. intros Hb H1 H2. apply scale; auto. apply Ho. auto. Qed.

  (** Adding up [k] numbers: the error is at most [2 k u] times the sum of the magnitudes. *)
  Lemma fsum_gen A : forall l acc acc' (i : nat),
    near (2 * qn i * u * A) acc acc' -> Qabs acc' + qsum Qabs l <= A ->
    2 * qn (i + length l) * u <= 1 ->
    near (2 * qn (i + length l) * u * A) (fsum o acc l) (acc' + qsum (fun x => x) l).
  Proof.
    induction l as [|x l IH]; intros acc acc' i Hn HA Hk.
    - cbn [length] in *. rewrite Nat.add_0_r in *. simpl. eapply near_eqr; [exact Hn|ring].
    - cbn [length] in *. rewrite <- Nat.add_succ_comm in *. cbn [qsum] in *.
      change (fsum o acc (x :: l)) with (fsum o (fadd o acc x) l).
      assert (T := Qabs_triangle acc' x). assert (L0 : 0 <= qsum Qabs l) by (apply qsum_nonneg; intros; apply Qabs_nonneg).
      assert (A1 := Qabs_nonneg acc'). assert (A2 := Qabs_nonneg x).
      eapply near_eqr; [apply (IH (fadd o acc x) (acc' + x) (S i))|ring]; [|lra|exact Hk].
      assert (K : - A <= acc' + x /\ acc' + x <= A) by (apply Qabs_Qle_condition; lra). destruct K as [K1 K2].
      destruct Hn as [N1 N2]. assert (A0 : 0 <= A) by lra.
      assert (Qi := qn_nonneg i).
      assert (Si : qn (S i) == qn i + 1) by apply qn_S.
      assert (Si2 : qn (S i) <= qn (S i + length l)) by (apply qn_le; lia).
      assert (M : 2 * qn i * u <= 1).
      { assert (0 <= (qn (S i + length l) - qn i) * u) by (apply Qmult_le_0_compat; lra). lra. }
      assert (M2 : 2 * qn i * u * A <= A).
      { assert (0 <= (1 - 2 * qn i * u) * A) by (apply Qmult_le_0_compat; lra). lra. }
      destruct (add_near (2 * A) acc x) as [X1 X2]; [lra|lra|].
      assert (Y : 2 * qn (S i) * u * A == 2 * qn i * u * A + u * (2 * A)) by (rewrite Si; ring).
      split; rewrite Y; lra.
  Qed.

  Lemma fsum_near l acc A k : (length l <= k)%nat -> 2 * qn k * u <= 1 -> Qabs acc + qsum Qabs l <= A ->
    near (2 * qn k * u * A) (fsum o acc l) (acc + qsum (fun x => x) l).
  Proof.
    intros L Hk HA. assert (Q := qn_le _ _ L). assert (Q0 := qn_nonneg (length l)).
    assert (L0 : 0 <= qsum Qabs l) by (apply qsum_nonneg; intros; apply Qabs_nonneg).
    assert (A1 := Qabs_nonneg acc).
    assert (Z : 0 <= (qn k - qn (length l)) * u) by (apply Qmult_le_0_compat; lra).
    assert (Z2 : 0 <= (qn k - qn (length l)) * u * A) by (apply Qmult_le_0_compat; lra).
    apply near_wk with (2 * qn (0 + length l) * u * A); [simpl; lra|].
    apply (fsum_gen A l acc acc 0); auto; [|simpl; lra].
    assert (E : 2 * qn 0 * u * A == 0) by (change (qn 0) with 0; ring). split; rewrite E; lra.
  Qed.
End Std.

(** ** Binary rounding satisfies the standard model *)
Lemma zround_err q : near (1#2) (inject_Z (zround q)) q.
Proof.
  unfold zround. cbv zeta. assert (F1 := Qfloor_le q). assert (F2 := Qlt_floor q).
  rewrite inject_Z_plus in F2. set (f := inject_Z (Qfloor q)) in *. change (inject_Z 1) with 1 in F2.
  destruct (Qltb (q - f) (1#2)) eqn:E1.
  - apply Qltb_true in E1. fold f. split; lra.
  - apply Qltb_false in E1. destruct (Qltb (1#2) (q - f)) eqn:E2.
    + rewrite inject_Z_plus. fold f. change (inject_Z 1) with 1. split; lra.
    + apply Qltb_false in E2. destruct (Z.even (Qfloor q)); [fold f; split; lra|].
      rewrite inject_Z_plus. fold f. change (inject_Z 1) with 1. split; lra.
Qed.

Lemma two_pos k : 0 < Qpower 2 k.
Proof. apply Qpower_0_lt. reflexivity. Qed.

Lemma two_add a b : Qpower 2 (a + b) == Qpower 2 a * Qpower 2 b.
Proof. apply Qpower_plus. intro H; discriminate. Qed.

Lemma inj_pow k : (0 <= k)%Z -> inject_Z (2 ^ k) == Qpower 2 k.
Proof. intro H. rewrite <- (Zpower_Qpower 2 k H). reflexivity. Qed.

Lemma qexp_le q : ~ q == 0 -> Qpower 2 (qexp q) <= Qabs q.
Proof.
  intro Hq. unfold qexp. cbv zeta.
  set (a := Z.abs (Qnum q)). set (b := Zpos (Qden q)). set (e := (Z.log2 a - Z.log2 b)%Z).
  destruct (Qle_bool (Qpower 2 e) (Qabs q)) eqn:E; [apply Qle_bool_iff; exact E|].
  assert (Ha : (0 < a)%Z).
  { unfold a. destruct (Z.eq_dec (Qnum q) 0) as [C|C]; [|lia]. exfalso. apply Hq. unfold Qeq. simpl. rewrite C. reflexivity. }
  assert (Hb : (0 < b)%Z) by (unfold b; lia).
  destruct (Z.log2_spec a Ha) as [L1 _]. destruct (Z.log2_spec b Hb) as [_ L2].
  assert (N1 := Z.log2_nonneg a). assert (N2 := Z.log2_nonneg b).
  assert (Q1 : Qpower 2 (Z.log2 a) <= inject_Z a) by (rewrite <- inj_pow by auto; rewrite <- Zle_Qle; auto).
  assert (Q2 : inject_Z b <= Qpower 2 (Z.log2 b + 1)).
  { rewrite <- inj_pow by lia. rewrite <- Zle_Qle. unfold Z.succ in L2. lia. }
  assert (Ab : Qabs q * inject_Z b == inject_Z a).
  { unfold a, b, Qeq, Qmult, inject_Z, Qabs. destruct q as [x y]. simpl. lia. }
  assert (Hb' : 0 < inject_Z b) by (change 0 with (inject_Z 0); rewrite <- Zlt_Qlt; auto).
  apply Qmult_lt_0_le_reg_r with (inject_Z b); auto. rewrite Ab.
  apply Qle_trans with (Qpower 2 (e - 1) * Qpower 2 (Z.log2 b + 1)).
  - assert (K := two_pos (e - 1)).
    assert (0 <= Qpower 2 (e - 1) * (Qpower 2 (Z.log2 b + 1) - inject_Z b)) by (apply Qmult_le_0_compat; lra). lra.
  - rewrite <- two_add. replace (e - 1 + (Z.log2 b + 1))%Z with (Z.log2 a) by (unfold e; lia). auto.
Qed.

Lemma rnd_err p q : Qabs (rnd p q - q) <= Qpower 2 (- p) * Qabs q.
Proof.
  unfold rnd. destruct (Qeq_bool q 0) eqn:E.
  - apply Qeq_bool_eq in E. assert (Z1 : Qabs (0 - q) == 0) by (rewrite E; reflexivity). assert (Z2 : Qabs q == 0) by (rewrite E; reflexivity).
    rewrite Z1, Z2, Qmult_0_r. apply Qle_refl.
  - apply Qeq_bool_neq in E. cbv zeta. rewrite Qred_correct. set (k := (p - 1 - qexp q)%Z).
    assert (K := two_pos k). assert (K' := two_pos (- k)).
    assert (KK : Qpower 2 k * Qpower 2 (- k) == 1) by (rewrite <- two_add, Z.add_opp_diag_r; reflexivity).
    destruct (zround_err (q * Qpower 2 k)) as [A B]. set (z := inject_Z (zround (q * Qpower 2 k))) in *.
    assert (L := qexp_le q E).
    assert (H : (1#2) * Qpower 2 (- k) == Qpower 2 (- p) * Qpower 2 (qexp q)).
    { change (1#2) with (Qpower 2 (-1)). rewrite <- !two_add. replace (-1 + - k)%Z with (- p + qexp q)%Z by (unfold k; lia). reflexivity. }
    assert (P := two_pos (- p)).
    assert (H2 : 0 <= Qpower 2 (- p) * (Qabs q - Qpower 2 (qexp q))) by (apply Qmult_le_0_compat; lra).
    assert (QQ : q == q * Qpower 2 k * Qpower 2 (- k)) by (rewrite <- Qmult_assoc, KK; ring).
    apply near_abs.
    assert (A' : 0 <= ((1#2) - (z - q * Qpower 2 k)) * Qpower 2 (- k)) by (apply Qmult_le_0_compat; lra).
    assert (B' : 0 <= ((1#2) - (q * Qpower 2 k - z)) * Qpower 2 (- k)) by (apply Qmult_le_0_compat; lra).
    split; lra.
Qed.

Theorem binary_std p : std_model (Qpower 2 (- p)) (binary p).
Proof. intros a b. repeat split; intros; apply rnd_err. Qed.

(** ** The order of ArcIt *)
Lemma group_perm {A} (key : A -> nat) : forall vs l, NoDup vs -> (forall a, In a l -> In (key a) vs) ->
  Permutation (flat_map (fun v => filter (fun a => (key a =? v)%nat) l) vs) l.
Proof.
  induction vs as [|v vs IH]; intros l Hn H.
  - destruct l as [|a l]; [constructor|]. destruct (H a (or_introl eq_refl)).
  - inversion Hn as [|? ? N1 N2]; subst. cbn [flat_map].
    assert (S := perm_filter_split (fun a => (key a =? v)%nat) l).
    etransitivity; [|symmetry; exact S]. apply Permutation_app_head.
    set (l' := filter (fun a => negb (key a =? v)%nat) l).
    assert (E : forall w, In w vs -> filter (fun a => (key a =? w)%nat) l = filter (fun a => (key a =? w)%nat) l').
    { intros w Hw. unfold l'. clear -N1 Hw. induction l as [|a l IH]; simpl; auto.
      destruct (Nat.eqb_spec (key a) v) as [->|C]; cbn [negb].
      - destruct (Nat.eqb_spec v w) as [->|]; [contradiction|]. auto.
      - cbn [filter]. destruct (key a =? w)%nat; [f_equal|]; auto. }
    rewrite <- (IH l' N2).
    + clear IH. assert (X : flat_map (fun w => filter (fun a => (key a =? w)%nat) l) vs = flat_map (fun w => filter (fun a => (key a =? w)%nat) l') vs).
      { clear -E. induction vs as [|w vs IH]; simpl; auto. rewrite E by (left; auto). f_equal. apply IH. intros; apply E; right; auto. }
      rewrite X. reflexivity.
    + intros a Ha. apply filter_In in Ha. destruct Ha as [A1 A2]. destruct (H a A1) as [C|C]; auto.
      apply negb_true_iff in A2. apply Nat.eqb_neq in A2. congruence.
Qed.

Lemma lemon_order_perm n E : graph_on (seq 0 n) E -> Permutation (lemon_order n E) E.
Proof.
  intro H. unfold lemon_order. etransitivity; [apply group_perm|symmetry; apply Permutation_rev].
  - apply NoDup_rev, seq_NoDup.
  - intros a Ha. apply in_rev in Ha. apply in_rev. rewrite rev_involutive. apply H; auto.
Qed.
