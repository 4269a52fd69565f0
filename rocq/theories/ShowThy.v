(** * ShowThy: what the text of a number says. *)
From Coq Require Import String Ascii Qabs Qround Qpower.
From Verif Require Import Base MDT MFloat FloatThy FloatMono MShow.
Notation length := List.length.
Open Scope list_scope.
Open Scope Q_scope.

Notation ten := (Qpower 10).
Lemma ten_pos k : 0 < ten k.
Proof. apply Qpower_0_lt. reflexivity. Qed.
Lemma ten_add a b : ten (a + b) == ten a * ten b.
Proof. apply Qpower_plus. intro H; discriminate. Qed.
Lemma ten_S k : ten (k + 1) == 10 * ten k.
Proof. rewrite ten_add. change (ten 1) with 10. ring. Qed.
Lemma ten_P k : ten (k - 1) == (1#10) * ten k.
Proof. replace (k - 1)%Z with (k + -1)%Z by lia. rewrite ten_add. change (ten (-1)) with (1#10). ring. Qed.
Lemma ten_ge1 k : (0 <= k)%Z -> 1 <= ten k.
Proof.
  intro H. rewrite <- (Z2Nat.id k) by auto. generalize (Z.to_nat k) as m. clear. induction m as [|m IH]; [discriminate|].
  rewrite Nat2Z.inj_succ. unfold Z.succ. rewrite ten_S. lra.
Qed.
Lemma ten_mono a b : (a <= b)%Z -> ten a <= ten b.
Proof.
  intro H. replace b with (a + (b - a))%Z by lia. rewrite ten_add. assert (K := ten_pos a).
  assert (L := ten_ge1 (b - a) ltac:(lia)). assert (0 <= ten a * (ten (b - a) - 1)) by (apply Qmult_le_0_compat; lra). lra.
Qed.
Lemma ten_lt_inv a b : ten a < ten b -> (a < b)%Z.
Proof. intro H. destruct (Z_lt_le_dec a b) as [|C]; auto. apply ten_mono in C. lra. Qed.
Lemma ten_inj k : (0 <= k)%Z -> inject_Z (10 ^ k) == ten k.
Proof. intro H. rewrite <- (Zpower_Qpower 10 k H). reflexivity. Qed.

(** ** Scaling *)
Lemma scale_down_spec : forall fuel q e, q < ten (Z.of_nat fuel + 1) -> 0 < q ->
  let r := scale_down fuel q e in 0 < fst r /\ fst r < 10 /\ fst r * ten (snd r) == q * ten e /\ (1 <= q -> 1 <= fst r) /\ (q < 1 -> fst r = q).
Proof.
  induction fuel as [|f IH]; intros q e H P; cbn [scale_down].
  - cbv zeta. cbn [fst snd]. change (ten (Z.of_nat 0 + 1)) with 10 in H. split; auto. split; auto. split; [reflexivity|]. split; auto.
  - destruct (Qltb q 10) eqn:E; cbv zeta.
    + apply Qltb_true in E. cbn [fst snd]. split; auto. split; auto. split; [reflexivity|]. split; auto.
    + apply Qltb_false in E. assert (R := Qred_correct (q * (1#10))).
      destruct (IH (Qred (q * (1#10))) (e + 1)%Z) as (A1 & A2 & A3 & A4 & _).
      * rewrite R. rewrite Nat2Z.inj_succ in H. unfold Z.succ in H. rewrite ten_S in H. lra.
      * rewrite R. lra.
      * split; auto. split; auto. split; [rewrite A3, R, ten_S; ring|]. split; [intros _; apply A4; rewrite R; lra|]. intro; lra.
Qed.
Lemma scale_up_spec : forall fuel q e, ten (- Z.of_nat fuel) <= q -> q < 10 ->
  let r := scale_up fuel q e in 1 <= fst r /\ fst r < 10 /\ fst r * ten (snd r) == q * ten e.
Proof.
  induction fuel as [|f IH]; intros q e H P; cbn [scale_up].
  - cbv zeta. cbn [fst snd]. change (ten (- Z.of_nat 0)) with 1 in H. split; auto. split; auto. reflexivity.
  - destruct (Qle_bool 1 q) eqn:E; cbv zeta.
    + apply Qle_bool_iff in E. cbn [fst snd]. split; auto. split; auto. reflexivity.
    + assert (E' : q < 1). { destruct (Qlt_le_dec q 1) as [|C]; auto. apply Qle_bool_iff in C. congruence. }
      assert (R := Qred_correct (q * 10)).
      destruct (IH (Qred (q * 10)) (e - 1)%Z) as (A1 & A2 & A3).
      * rewrite R. replace (- Z.of_nat (S f))%Z with (- Z.of_nat f - 1)%Z in H by lia. rewrite ten_P in H. lra.
      * rewrite R. lra.
      * split; auto. split; auto. rewrite A3, R, ten_P. field.
Qed.

Lemma pos_size_ten p : inject_Z (Zpos p) < ten (Z.of_nat (Pos.size_nat p)).
Proof.
  assert (K : (Zpos p < 2 ^ Z.of_nat (Pos.size_nat p))%Z).
  { induction p as [p IH|p IH|]; cbn [Pos.size_nat]; try rewrite Nat2Z.inj_succ, Z.pow_succ_r by lia; lia. }
  rewrite <- ten_inj by lia. rewrite <- Zlt_Qlt. eapply Z.lt_le_trans; [exact K|]. apply Z.pow_le_mono_l. lia.
Qed.

Lemma scaled_spec q : 0 < q -> 1 <= fst (scaled q) /\ fst (scaled q) < 10 /\ fst (scaled q) * ten (snd (scaled q)) == q.
Proof.
  intro P. unfold scaled. cbv zeta. destruct q as [a b].
  assert (Ha : (0 < a)%Z) by (unfold Qlt in P; simpl in P; lia). destruct a as [|a|a]; try lia. cbn [Qnum Qden Z.to_pos].
  assert (A := pos_size_ten a). assert (B := pos_size_ten b).
  assert (Qa : (Zpos a # b) <= inject_Z (Zpos a)) by (unfold Qle, inject_Z; cbn [Qnum Qden]; nia).
  destruct (scale_down_spec (Pos.size_nat a) (Zpos a # b) 0%Z) as (C1 & C2 & C3 & C4 & C5); auto.
  { rewrite ten_S. assert (T := ten_pos (Z.of_nat (Pos.size_nat a))). lra. }
  set (r := scale_down _ _ _) in *.
  destruct (scale_up_spec (Pos.size_nat b) (fst r) (snd r)) as (D1 & D2 & D3); auto.
  { destruct (Qlt_le_dec (Zpos a # b) 1) as [L|L].
    - rewrite (C5 L). assert (Qb : 1 <= (Zpos a # b) * inject_Z (Zpos b)) by (unfold Qle, inject_Z, Qmult; cbn [Qnum Qden]; nia).
      assert (T := ten_pos (- Z.of_nat (Pos.size_nat b))). assert (T2 : ten (Z.of_nat (Pos.size_nat b)) * ten (- Z.of_nat (Pos.size_nat b)) == 1).
      { rewrite <- ten_add. replace (_ + _)%Z with 0%Z by lia. reflexivity. }
      set (t := ten (- Z.of_nat (Pos.size_nat b))) in *. set (s := ten (Z.of_nat (Pos.size_nat b))) in *. set (x := Zpos a # b) in *. set (y := inject_Z (Zpos b)) in *.
      assert (0 <= (x * y - 1) * t) by (apply Qmult_le_0_compat; lra).
      assert (0 <= (x * (s - y)) * t) by (apply Qmult_le_0_compat; [apply Qmult_le_0_compat|]; lra). 
      assert (x * s * t == x) by (rewrite <- Qmult_assoc, T2; ring). lra.
    - apply Qle_trans with 1; [|auto]. apply (ten_mono _ 0). lia. }
  split; auto. split; auto. rewrite D3, C3. change (ten 0) with 1. ring.
Qed.

(** The value of the six digits. *)
Definition val6 (q : Q) : Q := inject_Z (fst (sig6 q)) * ten (snd (sig6 q) - 5).

Lemma hundred : ten 5 == 100000. Proof. reflexivity. Qed.

Lemma sig6_range q : 0 < q -> (100000 <= fst (sig6 q) < 1000000)%Z.
Proof.
  intro P. destruct (scaled_spec q P) as (A & B & C). unfold sig6. cbv zeta. set (r := fst (scaled q)) in *.
  assert (L : (100000 <= zround (r * 100000))%Z) by (apply zround_ge; change (inject_Z 100000) with 100000; lra).
  assert (U : (zround (r * 100000) <= 1000000)%Z) by (apply zround_le; change (inject_Z 1000000) with 1000000; lra).
  destruct (zround (r * 100000) =? 1000000)%Z eqn:E; cbn [fst]; [lia|]. apply Z.eqb_neq in E. lia.
Qed.

Lemma val6_round q : 0 < q -> val6 q == inject_Z (zround (fst (scaled q) * 100000)) * ten (snd (scaled q) - 5).
Proof.
  intro P. unfold val6, sig6. cbv zeta. destruct (zround (fst (scaled q) * 100000) =? 1000000)%Z eqn:E; cbn [fst snd]; [|reflexivity].
  apply Z.eqb_eq in E. rewrite E. replace (snd (scaled q) + 1 - 5)%Z with (snd (scaled q) - 5 + 1)%Z by lia. rewrite ten_S.
  change (inject_Z 1000000) with (10 * inject_Z 100000). ring.
Qed.

Lemma val6_close q : 0 < q -> Qabs (val6 q - q) <= (1#200000) * q.
Proof.
  intro P. destruct (scaled_spec q P) as (A & B & C). rewrite (val6_round q P).
  set (r := fst (scaled q)) in *. set (e := snd (scaled q)) in *. set (t := ten (e - 5)).
  assert (T : 0 < t) by apply ten_pos.
  assert (T5 : ten e == 100000 * t) by (unfold t; rewrite <- hundred, <- ten_add; replace (5 + (e - 5))%Z with e by lia; reflexivity).
  rewrite T5 in C. destruct (zround_err (r * 100000)) as [X Y]. set (z := inject_Z (zround (r * 100000))) in *.
  apply near_abs.
  assert (0 <= ((1#2) - (z - r * 100000)) * t) by (apply Qmult_le_0_compat; lra).
  assert (0 <= ((1#2) - (r * 100000 - z)) * t) by (apply Qmult_le_0_compat; lra).
  assert (0 <= (r - 1) * t) by (apply Qmult_le_0_compat; lra). split; lra.
Qed.

(** Numbers with at most six significant digits are not changed. *)
Lemma val6_exact q m k : (0 < m < 1000000)%Z -> q == inject_Z m * ten k -> val6 q == q.
Proof.
  intros Hm Hq.
  assert (M1 : 1 <= inject_Z m) by (change 1 with (inject_Z 1); rewrite <- Zle_Qle; lia).
  assert (M2 : inject_Z m < ten 6) by (rewrite <- ten_inj by lia; rewrite <- Zlt_Qlt; exact (proj2 Hm)).
  assert (Tk := ten_pos k).
  assert (P : 0 < q) by (rewrite Hq; apply Qmult_lt_0_compat; lra).
  destruct (scaled_spec q P) as (A & B & C). rewrite (val6_round q P).
  set (r := fst (scaled q)) in *. set (e := snd (scaled q)) in *.
  assert (Te := ten_pos e).
  assert (K1 : (e < k + 6)%Z).
  { apply ten_lt_inv. assert (0 <= (r - 1) * ten e) by (apply Qmult_le_0_compat; lra).
    assert (0 < (ten 6 - inject_Z m) * ten k) by (apply Qmult_lt_0_compat; lra). rewrite ten_add. lra. }
  assert (R : r * 100000 == inject_Z (m * 10 ^ (k - e + 5))).
  { rewrite inject_Z_mult, ten_inj by lia. replace (k - e + 5)%Z with (k + (- e + 5))%Z by lia. rewrite !ten_add.
    assert (I : ten e * ten (- e) == 1) by (rewrite <- ten_add; replace (e + - e)%Z with 0%Z by lia; reflexivity).
    rewrite hundred. rewrite (Qmult_assoc (inject_Z m)), <- Hq, <- C.
    setoid_replace (r * ten e * (ten (- e) * 100000)) with (r * 100000 * (ten e * ten (- e))) by ring. rewrite I. ring. }
  assert (Z1 : zround (r * 100000) = (m * 10 ^ (k - e + 5))%Z).
  { apply Z.le_antisymm; [apply zround_le|apply zround_ge]; rewrite R; apply Qle_refl. }
  rewrite Z1, <- R. rewrite <- C. replace e with (5 + (e - 5))%Z at 2 by lia. rewrite ten_add, hundred. ring.
Qed.

(** Larger numbers are not printed as smaller ones. *)
Lemma val6_mono a b : 0 < a -> a <= b -> val6 a <= val6 b.
Proof.
  intros P H. assert (P' : 0 < b) by lra.
  destruct (scaled_spec a P) as (A1 & A2 & A3). destruct (scaled_spec b P') as (B1 & B2 & B3).
  rewrite (val6_round a P), (val6_round b P').
  set (r := fst (scaled a)) in *. set (e := snd (scaled a)) in *. set (s := fst (scaled b)) in *. set (g := snd (scaled b)) in *.
  assert (Te := ten_pos e). assert (Tg := ten_pos g). assert (Te5 := ten_pos (e - 5)). assert (Tg5 := ten_pos (g - 5)).
  assert (Hle : (e <= g)%Z).
  { assert (e < g + 1)%Z; [|lia]. apply ten_lt_inv. rewrite ten_S. assert (0 <= (r - 1) * ten e) by (apply Qmult_le_0_compat; lra).
    assert (0 < (10 - s) * ten g) by (apply Qmult_lt_0_compat; lra). lra. }
  destruct (Z.eq_dec e g) as [Eg|Eg].
  - rewrite <- Eg in *. assert (r <= s).
    { destruct (Qlt_le_dec s r) as [C|]; auto. exfalso. assert (0 < (r - s) * ten e) by (apply Qmult_lt_0_compat; lra). lra. }
    assert (Z1 : (zround (r * 100000) <= zround (s * 100000))%Z) by (apply zround_mono; lra). rewrite Zle_Qle in Z1.
    set (x := inject_Z (zround (r * 100000))) in *. set (y := inject_Z (zround (s * 100000))) in *. set (t := ten (e - 5)) in *.
    assert (0 <= (y - x) * t) by (apply Qmult_le_0_compat; lra). lra.
  - assert (U : (zround (r * 100000) <= 1000000)%Z) by (apply zround_le; change (inject_Z 1000000) with 1000000; lra).
    assert (L : (100000 <= zround (s * 100000))%Z) by (apply zround_ge; change (inject_Z 100000) with 100000; lra).
    rewrite Zle_Qle in U, L. change (inject_Z 1000000) with 1000000 in U. change (inject_Z 100000) with 100000 in L.
    assert (T := ten_mono (e - 5 + 1) (g - 5) ltac:(lia)). rewrite ten_S in T.
    set (x := inject_Z (zround (r * 100000))) in *. set (y := inject_Z (zround (s * 100000))) in *.
    set (t := ten (e - 5)) in *. set (u := ten (g - 5)) in *.
    assert (0 <= (1000000 - x) * t) by (apply Qmult_le_0_compat; lra). assert (0 <= (y - 100000) * u) by (apply Qmult_le_0_compat; lra). lra.
Qed.

Lemma val6_pos q : 0 < q -> 0 < val6 q.
Proof.
  intro P. destruct (sig6_range q P) as [A _]. unfold val6. apply Qmult_lt_0_compat; [|apply ten_pos].
  change 0 with (inject_Z 0). rewrite <- Zlt_Qlt. lia.
Qed.

(** ** Reading a decimal number: digits, a point and digits, an exponent.  Specification, not a part of /repo. *)
Definition digit (c : ascii) : option Z :=
  let n := Z.of_nat (nat_of_ascii c) in if ((48 <=? n) && (n <=? 57))%Z then Some (n - 48)%Z else None.
Fixpoint take_digits (l : list ascii) : list Z * list ascii :=
  match l with
  | c :: t => match digit c with Some d => let r := take_digits t in (d :: fst r, snd r) | None => ([], l) end
  | [] => ([], [])
  end.
Definition dval (l : list Z) : Z := fold_left (fun a d => 10 * a + d)%Z l 0%Z.
Definition read_exp (l : list ascii) : option Z :=
  match l with
  | [] => Some 0%Z
  | "e"%char :: s :: t =>
      match take_digits t with
      | (d :: ds, []) => if Ascii.eqb s "-" then Some (- dval (d :: ds))%Z else if Ascii.eqb s "+" then Some (dval (d :: ds)) else None
      | _ => None
      end
  | _ => None
  end.
Definition fraction (l : list ascii) : list Z * list ascii :=
  match l with c :: t => if Ascii.eqb c "." then take_digits t else ([], l) | [] => ([], []) end.
Definition read_unsigned (l : list ascii) : option Q :=
  let i := take_digits l in
  let f := fraction (snd i) in
  match fst i, read_exp (snd f) with
  | _ :: _, Some e => Some (inject_Z (dval (fst i ++ fst f)) * ten (e - Z.of_nat (length (fst f))))
  | _, _ => None
  end.
Definition read_number (s : string) : option Q :=
  match list_ascii_of_string s with
  | c :: l => if Ascii.eqb c "-" then match read_unsigned l with Some q => Some (- q) | None => None end else read_unsigned (c :: l)
  | [] => None
  end.

Definition isdig (d : Z) : Prop := (0 <= d <= 9)%Z.

Lemma digit_chr d : isdig d -> digit (chr d) = Some d.
Proof.
  intros [A B]. assert (d = 0 \/ d = 1 \/ d = 2 \/ d = 3 \/ d = 4 \/ d = 5 \/ d = 6 \/ d = 7 \/ d = 8 \/ d = 9)%Z as K by lia.
  destruct K as [->|[->|[->|[->|[->|[->|[->|[->|[->| ->]]]]]]]]]; reflexivity.
Qed.
Definition nodigit (l : list ascii) : Prop := match l with c :: _ => digit c = None | [] => True end.
Lemma take_digits_map ds l : Forall isdig ds -> nodigit l -> take_digits (map chr ds ++ l) = (ds, l).
Proof.
  intros H N. induction H as [|d ds Hd H IH]; cbn [map app].
  - destruct l as [|c l]; [reflexivity|]. cbn [take_digits]. simpl in N. rewrite N. reflexivity.
  - cbn [take_digits]. rewrite digit_chr by auto. cbv zeta. rewrite IH. reflexivity.
Qed.

Lemma dval_gen l : forall a, fold_left (fun a d => 10 * a + d)%Z l a = (a * 10 ^ Z.of_nat (length l) + dval l)%Z.
Proof.
  induction l as [|d l IH]; intro a; cbn [fold_left length].
  - change (dval []) with 0%Z. change (Z.of_nat 0) with 0%Z. rewrite Z.pow_0_r. lia.
  - unfold dval. cbn [fold_left]. rewrite (IH (10 * a + d)%Z), (IH (10 * 0 + d)%Z). rewrite Nat2Z.inj_succ, Z.pow_succ_r by lia. ring.
Qed.
Lemma dval_app a b : dval (a ++ b) = (dval a * 10 ^ Z.of_nat (length b) + dval b)%Z.
Proof. unfold dval. rewrite fold_left_app. apply dval_gen. Qed.
Lemma dval_zeros k : dval (repeat 0%Z k) = 0%Z.
Proof. induction k as [|k IH]; [reflexivity|]. change (repeat 0%Z (S k)) with ([0%Z] ++ repeat 0%Z k). rewrite dval_app, IH. reflexivity. Qed.

Lemma strip0_spec l : exists k, l = strip0 l ++ repeat 0%Z k.
Proof.
  induction l as [|d l (k & IH)]; [exists O; reflexivity|]. cbn [strip0]. destruct (strip0 l) as [|x t] eqn:E.
  - cbn [app] in IH. destruct (d =? 0)%Z eqn:D.
    + apply Z.eqb_eq in D. subst d. exists (S k). rewrite IH. reflexivity.
    + exists k. rewrite IH at 1. reflexivity.
  - exists k. rewrite IH at 1. reflexivity.
Qed.
Lemma strip0_dig l : Forall isdig l -> Forall isdig (strip0 l).
Proof. intro H. destruct (strip0_spec l) as (k & E). rewrite E in H. apply Forall_app in H. apply H. Qed.

(** Zeros at the end of the fraction do not matter. *)
Lemma strip0_value i f : inject_Z (dval (i ++ strip0 f)) * ten (- Z.of_nat (length (strip0 f))) ==
  inject_Z (dval (i ++ f)) * ten (- Z.of_nat (length f)).
Proof.
  destruct (strip0_spec f) as (k & E). set (g := strip0 f) in *. rewrite E. rewrite app_assoc, (dval_app (i ++ g)), dval_zeros, app_length, repeat_length.
  rewrite Z.add_0_r, inject_Z_mult, ten_inj by lia. rewrite Nat2Z.inj_add.
  replace (- Z.of_nat (length g))%Z with (Z.of_nat k + - (Z.of_nat (length g) + Z.of_nat k))%Z at 1 by lia. rewrite ten_add. ring.
Qed.

Lemma digs_len k : forall m, length (digs k m) = k.
Proof. induction k as [|k IH]; intro m; cbn [digs]; [reflexivity|]. rewrite app_length, IH. simpl. lia. Qed.
Lemma digs_dig k : forall m, Forall isdig (digs k m).
Proof.
  induction k as [|k IH]; intro m; cbn [digs]; [constructor|]. apply Forall_app. split; auto. constructor; [|constructor].
  unfold isdig. assert (K := Z.mod_pos_bound m 10 ltac:(lia)). lia.
Qed.
Lemma digs_val k : forall m, (0 <= m < 10 ^ Z.of_nat k)%Z -> dval (digs k m) = m.
Proof.
  induction k as [|k IH]; intros m H; cbn [digs].
  - change (10 ^ Z.of_nat 0)%Z with 1%Z in H. change (dval []) with 0%Z. lia.
  - rewrite Nat2Z.inj_succ, Z.pow_succ_r in H by lia. rewrite dval_app, IH.
    + cbn [length]. change (dval [(m mod 10)%Z]) with (m mod 10)%Z. change (10 ^ Z.of_nat 1)%Z with 10%Z. assert (D := Z.div_mod m 10 ltac:(lia)). lia.
    + split; [apply Z.div_pos; lia|apply Z.div_lt_upper_bound; lia].
Qed.

Lemma all_digs_spec fuel : forall z, (0 <= z < 10 ^ Z.of_nat fuel)%Z -> (0 < fuel)%nat ->
  Forall isdig (all_digs fuel z) /\ dval (all_digs fuel z) = z /\ all_digs fuel z <> [].
Proof.
  induction fuel as [|f IH]; intros z H F; [lia|]. cbn [all_digs]. destruct (z <? 10)%Z eqn:E.
  - apply Z.ltb_lt in E. split; [constructor; [unfold isdig; lia|constructor]|]. split; [reflexivity|discriminate].
  - apply Z.ltb_ge in E. rewrite Nat2Z.inj_succ, Z.pow_succ_r in H by lia.
    assert (F' : (0 < f)%nat) by (destruct f; [simpl in H; lia|lia]).
    destruct (IH (z / 10)%Z) as (A & B & C); auto.
    { split; [apply Z.div_pos; lia|apply Z.div_lt_upper_bound; lia]. }
    assert (K := Z.mod_pos_bound z 10 ltac:(lia)). assert (D := Z.div_mod z 10 ltac:(lia)).
    split; [apply Forall_app; split; auto; constructor; [unfold isdig; lia|constructor]|]. split.
    + rewrite dval_app, B. cbn [length]. change (dval [(z mod 10)%Z]) with (z mod 10)%Z. change (10 ^ Z.of_nat 1)%Z with 10%Z. lia.
    + destruct (all_digs f (z / 10)); discriminate.
Qed.

Lemma exp_digs_spec e : (0 <= e)%Z -> Forall isdig (exp_digs e) /\ dval (exp_digs e) = e /\ exp_digs e <> [].
Proof.
  intro H. unfold exp_digs. destruct (all_digs_spec (S (Z.to_nat e)) e) as (A & B & C); [|lia|].
  - split; auto. rewrite Nat2Z.inj_succ, Z2Nat.id by auto. apply Z.lt_le_trans with (Z.succ e); [lia|]. apply Z.lt_le_incl. apply Z.pow_gt_lin_r; lia.
  - destruct (all_digs _ e) as [|d [|d' l]]; [congruence| |auto].
    split; [constructor; [unfold isdig; lia|exact A]|]. split; [rewrite <- B; reflexivity|discriminate].
Qed.

(** Reading [fixed i f] followed by an exponent. *)
Lemma read_fixed i f tail e : Forall isdig i -> Forall isdig f -> i <> [] -> nodigit tail -> hd "e"%char tail <> "."%char ->
  read_exp tail = Some e ->
  read_unsigned (fixed i f ++ tail) = Some (inject_Z (dval (i ++ f)) * ten (e - Z.of_nat (length f))).
Proof.
  intros Hi Hf Ni Nt Np He. unfold read_unsigned, fixed. rewrite <- app_assoc. cbv zeta.
  assert (K : match f with [] => [] | _ :: _ => "."%char :: map chr f end ++ tail = match f with [] => tail | _ => "."%char :: (map chr f ++ tail) end) by (destruct f; reflexivity).
  rewrite K. destruct f as [|d f].
  - rewrite take_digits_map by auto. cbn [fst snd].
    assert (M : fraction tail = ([], tail)).
    { destruct tail as [|c t]; [reflexivity|]. simpl in Np. cbn [fraction]. destruct (Ascii.eqb_spec c "."); [contradiction|reflexivity]. }
    rewrite M. cbn [fst snd]. rewrite He. destruct i; [congruence|]. reflexivity.
  - rewrite take_digits_map by (auto; reflexivity). cbn [fst snd fraction]. change (Ascii.eqb "." ".") with true. cbv iota. rewrite take_digits_map by auto. cbn [fst snd]. rewrite He.
    destruct i; [congruence|]. reflexivity.
Qed.

(** The text of a positive number reads as its value rounded to six digits. *)
Lemma read_show_pos q : 0 < q -> exists w, read_unsigned (show_pos q) = Some w /\ w == val6 q.
Proof.
  intro P. assert (R := sig6_range q P). unfold show_pos, val6. destruct (sig6 q) as [m X]. cbn [fst snd] in *.
  assert (DL := digs_len 6 m). assert (DD := digs_dig 6 m). assert (DV := digs_val 6 m ltac:(change (10 ^ Z.of_nat 6)%Z with 1000000%Z; lia)).
  set (ds := digs 6 m) in *.
  assert (F1 : forall k, Forall isdig (firstn k ds)) by (intro k; rewrite <- (firstn_skipn k ds) in DD; apply Forall_app in DD; apply DD).
  assert (F2 : forall k, Forall isdig (skipn k ds)) by (intro k; rewrite <- (firstn_skipn k ds) in DD; apply Forall_app in DD; apply DD).
  assert (FN : forall k, (0 < k)%nat -> firstn k ds <> []) by (intros k Hk; destruct k; [lia|]; destruct ds; [discriminate|discriminate]).
  destruct ((-4 <=? X)%Z && (X <? 6)%Z) eqn:C.
  - apply andb_true_iff in C. destruct C as [C1 C2]. apply Z.leb_le in C1. apply Z.ltb_lt in C2. destruct (0 <=? X)%Z eqn:C3.
    + apply Z.leb_le in C3. set (k := Z.to_nat (X + 1)) in *. rewrite <- (app_nil_r (fixed _ _)). eexists. split.
      { apply read_fixed with (e := 0%Z); auto; [apply strip0_dig; auto|apply FN; unfold k; lia|exact I|discriminate]. }
      rewrite Z.sub_0_l, strip0_value, firstn_skipn, DV, skipn_length, DL. replace (- Z.of_nat (6 - k))%Z with (X - 5)%Z by (unfold k; lia). reflexivity.
    + apply Z.leb_gt in C3. rewrite <- (app_nil_r (fixed _ _)). eexists. split.
      { apply read_fixed with (e := 0%Z); auto; [constructor; [unfold isdig; lia|constructor]| |discriminate|exact I|discriminate].
        apply strip0_dig. apply Forall_app. split; auto. clear. induction (Z.to_nat (- X - 1)); constructor; auto. unfold isdig. lia. }
      eapply Qeq_trans; [apply (strip0_value [0%Z])|]. set (k := Z.to_nat (- X - 1)). rewrite app_assoc, dval_app, DV.
      change [0%Z] with (repeat 0%Z 1). rewrite <- repeat_app, dval_zeros, app_length, repeat_length, DL.
      replace (- Z.of_nat (k + 6))%Z with (X - 5)%Z by (unfold k; lia). rewrite Z.mul_0_l, Z.add_0_l. reflexivity.
  - destruct (exp_digs_spec (Z.abs X) ltac:(lia)) as (E1 & E2 & E3).
    eexists. split.
    { apply read_fixed with (e := X); auto; [apply strip0_dig; apply (F2 1%nat)|reflexivity|discriminate|].
      cbn [read_exp]. rewrite <- (app_nil_r (map chr _)), take_digits_map by (auto; exact I).
      destruct (exp_digs (Z.abs X)) as [|d l] eqn:EE; [congruence|]. rewrite E2.
      destruct (X <? 0)%Z eqn:S; [apply Z.ltb_lt in S|apply Z.ltb_ge in S]; cbn; f_equal; lia. }
    assert (SV := strip0_value (firstn 1 ds) (skipn 1 ds)). rewrite firstn_skipn, DV, skipn_length, DL in SV.
    unfold Z.sub at 1. rewrite ten_add. rewrite (Qmult_comm (ten X)), Qmult_assoc, SV. replace (X - 5)%Z with (- Z.of_nat (6 - 1) + X)%Z by lia.
    rewrite ten_add. ring.
Qed.

Lemma read_unsigned_start l w : read_unsigned l = Some w -> match l with [] => False | c :: _ => Ascii.eqb c "-" = false end.
Proof.
  destruct l as [|c l]; [discriminate|]. intro H. destruct (Ascii.eqb_spec c "-"); [|reflexivity]. subst c. discriminate H.
Qed.

(** The number rounded to six significant digits. *)
Definition sixdig (q : Q) : Q := if Qeq_bool q 0 then 0 else if Qltb q 0 then - val6 (- q) else val6 q.

Lemma read_show q : exists w, read_number (show_dbl (Fin q)) = Some w /\ w == sixdig q.
Proof.
  unfold read_number, show_dbl, show_fin, sixdig. rewrite list_ascii_of_string_of_list_ascii.
  destruct (Qeq_bool q 0) eqn:E; [exists 0; split; reflexivity|]. apply Qeq_bool_neq in E. destruct (Qltb q 0) eqn:N.
  - apply Qltb_true in N. destruct (read_show_pos (- q) ltac:(lra)) as (w & W1 & W2). change (Ascii.eqb "-" "-") with true. cbv iota. rewrite W1.
    exists (- w). split; [reflexivity|]. rewrite W2. reflexivity.
  - apply Qltb_false in N. assert (P : 0 < q) by (destruct (Qlt_le_dec 0 q); auto; exfalso; apply E; lra).
    destruct (read_show_pos q P) as (w & W1 & W2). assert (K := read_unsigned_start _ _ W1).
    destruct (show_pos q) as [|c l]; [contradiction|]. rewrite K. exists w. auto.
Qed.

Lemma sixdig_close q : Qabs (sixdig q - q) <= (1#200000) * Qabs q.
Proof.
  unfold sixdig. destruct (Qeq_bool q 0) eqn:E.
  - apply Qeq_bool_eq in E. rewrite E. discriminate.
  - apply Qeq_bool_neq in E. destruct (Qltb q 0) eqn:N.
    + apply Qltb_true in N. assert (K := val6_close (- q) ltac:(lra)). rewrite (Qabs_neg q) by lra.
      setoid_replace (- val6 (- q) - q) with (- (val6 (- q) - - q)) by ring. rewrite Qabs_opp. exact K.
    + apply Qltb_false in N. assert (P : 0 < q) by (destruct (Qlt_le_dec 0 q); auto; exfalso; apply E; lra).
      rewrite (Qabs_pos q) by lra. apply val6_close. auto.
Qed.

Lemma val6_wd a b : 0 < a -> a == b -> val6 a == val6 b.
Proof. intros P H. apply Qle_antisym; apply val6_mono; lra. Qed.

Lemma sixdig_cases q : (q == 0 /\ sixdig q == 0) \/ (0 < q /\ sixdig q == val6 q /\ 0 < val6 q) \/ (q < 0 /\ sixdig q == - val6 (- q) /\ 0 < val6 (- q)).
Proof.
  unfold sixdig. destruct (Qeq_bool q 0) eqn:E; [apply Qeq_bool_eq in E; left; split; [auto|reflexivity]|]. right.
  apply Qeq_bool_neq in E. destruct (Qltb q 0) eqn:N; [apply Qltb_true in N|apply Qltb_false in N].
  - right. split; auto. split; [reflexivity|]. apply val6_pos. lra.
  - left. assert (P : 0 < q) by (destruct (Qlt_le_dec 0 q); auto; exfalso; apply E; lra). split; auto. split; [reflexivity|]. apply val6_pos. auto.
Qed.

Lemma sixdig_mono a b : a <= b -> sixdig a <= sixdig b.
Proof.
  intro H. destruct (sixdig_cases a) as [[A1 A2]|[(A1 & A2 & A3)|(A1 & A2 & A3)]], (sixdig_cases b) as [[B1 B2]|[(B1 & B2 & B3)|(B1 & B2 & B3)]]; try lra.
  - assert (K := val6_mono a b A1 H). lra.
  - assert (K := val6_mono (- b) (- a) ltac:(lra) ltac:(lra)). lra.
Qed.

Lemma sixdig_exact q m k : (Z.abs m < 1000000)%Z -> q == inject_Z m * ten k -> sixdig q == q.
Proof.
  intros Hm Hq. assert (T := ten_pos k). destruct (sixdig_cases q) as [[A1 A2]|[(A1 & A2 & A3)|(A1 & A2 & A3)]]; [lra| |].
  - rewrite A2. apply (val6_exact q m k); auto. split; [|lia]. destruct (Z_lt_le_dec 0 m) as [|C]; auto. exfalso.
    rewrite Zle_Qle in C. change (inject_Z 0) with 0 in C. assert (0 <= (- inject_Z m) * ten k) by (apply Qmult_le_0_compat; lra). lra.
  - rewrite A2. rewrite (val6_exact (- q) (- m) k); [ring| |rewrite inject_Z_opp, Hq; ring]. split; [|lia].
    destruct (Z_lt_le_dec 0 (- m)) as [|C]; auto. exfalso. assert (C' : (0 <= m)%Z) by lia.
    rewrite Zle_Qle in C'. change (inject_Z 0) with 0 in C'. assert (0 <= inject_Z m * ten k) by (apply Qmult_le_0_compat; lra). lra.
Qed.

(** ** The shape of the text *)

(** %g: digits of the number without needless zeros, in fixed notation for values from 0.0001 to below 1000000 and with a signed exponent of two or
    more digits otherwise. *)
Definition unpadded (f : list Z) : Prop := f = [] \/ last f 0%Z <> 0%Z.
Definition point (f : list Z) : list ascii := match f with [] => [] | _ => "."%char :: map chr f end.
Inductive gform : list ascii -> Q -> Prop :=
| g_fixed i f w : Forall isdig i -> Forall isdig f -> i = [0%Z] \/ (1 <= hd 0 i)%Z -> unpadded f -> (dval (i ++ f) < 1000000)%Z ->
    w == inject_Z (dval (i ++ f)) * ten (- Z.of_nat (length f)) -> 1 # 10000 <= w -> w < 1000000 ->
    gform (map chr i ++ point f) w
| g_exp d f s x w : (1 <= d <= 9)%Z -> Forall isdig f -> unpadded f -> (length f <= 5)%nat -> s = "+"%char \/ s = "-"%char ->
    Forall isdig x -> (2 <= length x)%nat -> ((2 < length x)%nat -> (1 <= hd 0 x)%Z) ->
    w == inject_Z (dval (d :: f)) * ten (- Z.of_nat (length f)) * ten (if Ascii.eqb s "-" then - dval x else dval x) ->
    w < 1 # 10000 \/ 1000000 <= w ->
    gform (chr d :: point f ++ "e"%char :: s :: map chr x) w.

Lemma strip0_unpadded l : unpadded (strip0 l).
Proof.
  unfold unpadded. induction l as [|d l IH]; [left; reflexivity|]. cbn [strip0]. destruct (strip0 l) as [|x t] eqn:E.
  - destruct (d =? 0)%Z eqn:D; [left; reflexivity|]. right. apply Z.eqb_neq in D. exact D.
  - destruct IH as [IH|IH]; [discriminate|]. right. exact IH.
Qed.
Lemma strip0_len l : (length (strip0 l) <= length l)%nat.
Proof. destruct (strip0_spec l) as (k & E). apply (f_equal (@length Z)) in E. rewrite app_length in E. lia. Qed.

Lemma dval_bound l : Forall isdig l -> (0 <= dval l < 10 ^ Z.of_nat (length l))%Z.
Proof.
  induction 1 as [|d l H _ IH] using Forall_ind; [cbn; lia|]. change (d :: l) with ([d] ++ l). rewrite dval_app.
  cbn [app length]. rewrite Nat2Z.inj_succ, Z.pow_succ_r by lia. change (dval [d]) with (10 * 0 + d)%Z. unfold isdig in H. nia.
Qed.
Lemma digs6_hd m : (100000 <= m < 1000000)%Z -> exists d t, digs 6 m = d :: t /\ (1 <= d <= 9)%Z /\ length t = 5%nat.
Proof.
  intro H. assert (DL := digs_len 6 m). assert (DD := digs_dig 6 m). assert (DV := digs_val 6 m ltac:(change (10 ^ Z.of_nat 6)%Z with 1000000%Z; lia)).
  destruct (digs 6 m) as [|d t]; [discriminate|]. exists d, t. split; auto. assert (D1 := Forall_inv DD). assert (D2 := Forall_inv_tail DD). injection DL as DL. split; auto.
  change (d :: t) with ([d] ++ t) in DV. rewrite dval_app, DL in DV. assert (B := dval_bound t D2). rewrite DL in B.
  change (10 ^ Z.of_nat 5)%Z with 100000%Z in *. change (dval [d]) with (10 * 0 + d)%Z in DV. unfold isdig in D1. lia.
Qed.
Lemma all_digs_hd fuel : forall z, (0 < z < 10 ^ Z.of_nat fuel)%Z -> (1 <= hd 0 (all_digs fuel z))%Z.
Proof.
  induction fuel as [|f IH]; intros z H; [change (10 ^ Z.of_nat 0)%Z with 1%Z in H; lia|]. cbn [all_digs]. destruct (z <? 10)%Z eqn:E.
  - cbn [hd]. lia.
  - apply Z.ltb_ge in E. rewrite Nat2Z.inj_succ, Z.pow_succ_r in H by lia.
    assert (K : (0 < z / 10 < 10 ^ Z.of_nat f)%Z) by (split; [apply Z.div_str_pos; lia|apply Z.div_lt_upper_bound; lia]).
    specialize (IH _ K). destruct (all_digs f (z / 10)); [cbn [hd] in IH; lia|exact IH].
Qed.
Lemma exp_digs_form e : (0 <= e)%Z -> (2 <= length (exp_digs e))%nat /\ ((2 < length (exp_digs e))%nat -> (1 <= hd 0 (exp_digs e))%Z).
Proof.
  intro H. unfold exp_digs.
  assert (B : (e < 10 ^ Z.of_nat (S (Z.to_nat e)))%Z).
  { rewrite Nat2Z.inj_succ, Z2Nat.id by auto. apply Z.lt_le_trans with (Z.succ e); [lia|]. apply Z.lt_le_incl. apply Z.pow_gt_lin_r; lia. }
  destruct (all_digs_spec (S (Z.to_nat e)) e ltac:(lia) ltac:(lia)) as (_ & V & N).
  assert (K : (0 < e)%Z -> (1 <= hd 0 (all_digs (S (Z.to_nat e)) e))%Z) by (intro; apply all_digs_hd; lia).
  destruct (Z.eq_dec e 0) as [->|Ne]; [cbn; split; [lia|intro; lia]|]. specialize (K ltac:(lia)).
  destruct (all_digs _ e) as [|d [|d' l]]; [congruence| |].
  - cbn [length]. split; [lia|intro; lia].
  - cbn [length]. split; [lia|intros _; exact K].
Qed.

Lemma show_pos_form q : 0 < q -> gform (show_pos q) (val6 q).
Proof.
  intro P. assert (R := sig6_range q P). unfold show_pos, val6. destruct (sig6 q) as [m X]. cbn [fst snd] in *.
  assert (DL := digs_len 6 m). assert (DD := digs_dig 6 m). assert (DV := digs_val 6 m ltac:(change (10 ^ Z.of_nat 6)%Z with 1000000%Z; lia)).
  destruct (digs6_hd m R) as (d0 & t0 & DE & D1 & TL).
  set (ds := digs 6 m) in *.
  assert (M1 : ten 5 <= inject_Z m) by (rewrite <- ten_inj by lia; rewrite <- Zle_Qle; apply R).
  assert (M2 : inject_Z m < ten 6) by (rewrite <- ten_inj by lia; rewrite <- Zlt_Qlt; apply R).
  assert (T := ten_pos (X - 5)).
  assert (L1 : ten X <= inject_Z m * ten (X - 5)).
  { replace X with (5 + (X - 5))%Z at 1 by lia. rewrite ten_add. apply Qmult_le_compat_r; [exact M1|lra]. }
  assert (L2 : inject_Z m * ten (X - 5) < ten (X + 1)).
  { replace (X + 1)%Z with (6 + (X - 5))%Z by lia. rewrite ten_add. apply Qmult_lt_compat_r; [exact T|exact M2]. }
  assert (F1 : forall k, Forall isdig (firstn k ds)) by (intro k; rewrite <- (firstn_skipn k ds) in DD; apply Forall_app in DD; apply DD).
  assert (F2 : forall k, Forall isdig (skipn k ds)) by (intro k; rewrite <- (firstn_skipn k ds) in DD; apply Forall_app in DD; apply DD).
  assert (SB : forall i f, Forall isdig i -> Forall isdig f -> dval (i ++ f) = m -> (dval (i ++ strip0 f) < 1000000)%Z).
  { intros i f Hi Hf Hv. destruct (strip0_spec f) as (k & E). rewrite E, app_assoc, dval_app, dval_zeros, Z.add_0_r in Hv.
    assert (B := dval_bound (i ++ strip0 f) ltac:(apply Forall_app; split; auto; apply strip0_dig; auto)).
    assert (1 <= 10 ^ Z.of_nat (length (repeat 0%Z k)))%Z by (apply Z.pow_le_mono_r with (b := 0%Z); lia). nia. }
  destruct ((-4 <=? X)%Z && (X <? 6)%Z) eqn:C.
  - apply andb_true_iff in C. destruct C as [C1 C2]. apply Z.leb_le in C1. apply Z.ltb_lt in C2.
    assert (W1 : 1 # 10000 <= inject_Z m * ten (X - 5)) by (assert (K := ten_mono (-4) X C1); change (ten (-4)) with (1#10000) in K; lra).
    assert (W2 : inject_Z m * ten (X - 5) < 1000000) by (assert (K := ten_mono (X + 1) 6 ltac:(lia)); change (ten 6) with 1000000 in K; lra).
    destruct (0 <=? X)%Z eqn:C3.
    + apply Z.leb_le in C3. set (k := Z.to_nat (X + 1)) in *. apply g_fixed; auto.
      * apply strip0_dig; auto.
      * right. rewrite DE. unfold k. destruct (Z.to_nat (X + 1)) eqn:KE; [lia|]. cbn [firstn hd]. lia.
      * apply strip0_unpadded.
      * apply SB; auto. rewrite firstn_skipn. exact DV.
      * rewrite strip0_value, firstn_skipn, DV, skipn_length, DL. replace (- Z.of_nat (6 - k))%Z with (X - 5)%Z by (unfold k; lia). reflexivity.
    + apply Z.leb_gt in C3. set (k := Z.to_nat (- X - 1)) in *.
      assert (FZ : Forall isdig (repeat 0%Z k ++ ds)).
      { apply Forall_app. split; auto. clear. induction k; constructor; auto. unfold isdig. lia. }
      assert (VZ : dval ([0%Z] ++ repeat 0%Z k ++ ds) = m).
      { rewrite app_assoc, dval_app, DV. change [0%Z] with (repeat 0%Z 1). rewrite <- repeat_app, dval_zeros. lia. }
      apply (g_fixed [0%Z]); auto.
      * constructor; [unfold isdig; lia|constructor].
      * apply strip0_dig; auto.
      * apply strip0_unpadded.
      * apply SB; auto. constructor; [unfold isdig; lia|constructor].
      * rewrite strip0_value, VZ, app_length, repeat_length, DL. replace (- Z.of_nat (k + 6))%Z with (X - 5)%Z by (unfold k; lia). reflexivity.
  - destruct (exp_digs_spec (Z.abs X) ltac:(lia)) as (E1 & E2 & E3). destruct (exp_digs_form (Z.abs X) ltac:(lia)) as (E4 & E5).
    assert (S1 := strip0_value (firstn 1 ds) (skipn 1 ds)). rewrite firstn_skipn, DV, skipn_length, DL in S1.
    rewrite DE in *. cbn [firstn skipn] in *.
    apply (g_exp d0 (strip0 t0)); auto.
    + apply strip0_dig. exact (Forall_inv_tail DD).
    + apply strip0_unpadded.
    + assert (K := strip0_len t0). lia.
    + destruct (X <? 0)%Z; auto.
    + change (d0 :: strip0 t0) with ([d0] ++ strip0 t0). rewrite S1. rewrite E2.
      replace (if Ascii.eqb (if (X <? 0)%Z then "-"%char else "+"%char) "-" then - Z.abs X else Z.abs X)%Z with X.
      * replace (X - 5)%Z with (- Z.of_nat (6 - 1) + X)%Z by lia. rewrite ten_add. ring.
      * destruct (X <? 0)%Z eqn:SX; [apply Z.ltb_lt in SX|apply Z.ltb_ge in SX]; cbn; lia.
    + apply andb_false_iff in C. destruct C as [C|C]; [apply Z.leb_gt in C; left|apply Z.ltb_ge in C; right].
      * assert (K := ten_mono (X + 1) (-4) ltac:(lia)). change (ten (-4)) with (1#10000) in K. lra.
      * assert (K := ten_mono 6 X ltac:(lia)). change (ten 6) with 1000000 in K. lra.
Qed.

(** The digits and the exponent are determined by the value. *)
Lemma sig6_inj m X m' X' : (100000 <= m < 1000000)%Z -> (100000 <= m' < 1000000)%Z ->
  inject_Z m * ten (X - 5) == inject_Z m' * ten (X' - 5) -> m = m' /\ X = X'.
Proof.
  intros H H' E.
  assert (K : forall m X, (100000 <= m < 1000000)%Z -> ten X <= inject_Z m * ten (X - 5) /\ inject_Z m * ten (X - 5) < ten (X + 1)).
  { clear. intros m X R. assert (T := ten_pos (X - 5)).
    assert (M1 : ten 5 <= inject_Z m) by (rewrite <- ten_inj by lia; rewrite <- Zle_Qle; apply R).
    assert (M2 : inject_Z m < ten 6) by (rewrite <- ten_inj by lia; rewrite <- Zlt_Qlt; apply R). split.
    - replace X with (5 + (X - 5))%Z at 1 by lia. rewrite ten_add. apply Qmult_le_compat_r; [exact M1|lra].
    - replace (X + 1)%Z with (6 + (X - 5))%Z by lia. rewrite ten_add. apply Qmult_lt_compat_r; [exact T|exact M2]. }
  destruct (K m X H) as [A1 A2]. destruct (K m' X' H') as [B1 B2].
  assert (X < X' + 1)%Z by (apply ten_lt_inv; lra). assert (X' < X + 1)%Z by (apply ten_lt_inv; lra).
  assert (X = X') by lia. subst X'. split; auto. assert (T := ten_pos (X - 5)).
  assert (Q : inject_Z m == inject_Z m') by (apply (Qmult_inj_r _ _ (ten (X - 5))); [lra|exact E]).
  unfold Qeq in Q. cbn in Q. lia.
Qed.

Lemma show_same p q : sixdig p == sixdig q -> show_dbl (Fin p) = show_dbl (Fin q).
Proof.
  assert (K : forall p q, 0 < p -> 0 < q -> val6 p == val6 q -> show_pos p = show_pos q).
  { clear. intros p q Hp Hq H. unfold show_pos. unfold val6 in H. assert (Rp := sig6_range p Hp). assert (Rq := sig6_range q Hq).
    destruct (sig6 p) as [m X], (sig6 q) as [m' X']. cbn [fst snd] in *. destruct (sig6_inj _ _ _ _ Rp Rq H) as [-> ->]. reflexivity. }
  intro H. unfold show_dbl, show_fin. f_equal.
  destruct (sixdig_cases p) as [[A1 A2]|[(A1 & A2 & A3)|(A1 & A2 & A3)]], (sixdig_cases q) as [[B1 B2]|[(B1 & B2 & B3)|(B1 & B2 & B3)]]; try (exfalso; lra);
  repeat match goal with
  | |- context [Qeq_bool ?x 0] => let E := fresh in destruct (Qeq_bool x 0) eqn:E; [apply Qeq_bool_eq in E; try (exfalso; lra)|apply Qeq_bool_neq in E; try (exfalso; lra)]
  | |- context [Qltb ?x 0] => let E := fresh in destruct (Qltb x 0) eqn:E; [apply Qltb_true in E; try (exfalso; lra)|apply Qltb_false in E; try (exfalso; lra)]
  end; try reflexivity.
  - apply K; auto. lra.
  - f_equal. apply K; lra.
Qed.
