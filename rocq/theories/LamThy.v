(** * LamThy: the piecewise-linear equation solved by compute_lambda. *)
From Coq Require Import Sorted Qround.
From Verif Require Import Base Graph MSets MGraph MaxFlow MDil MDT SeqThy DilThy MPMF.

Definition ysum (ps : list (Q * dbl)) (lam : Q) : Q := qsum (fun p => ycap p lam) ps.

(** Sum of the limits for lambda -> -infinity of the bounded terms and of the intercepts of the
    others. *)
Definition yint (ps : list (Q * dbl)) : Q :=
  qsum (fun p => match snd p with Fin b => b | _ => fst p end) ps.

Definition pos (x : Q) : Q := qmax 0 x.

Lemma pos_nonneg x : 0 <= x -> pos x == x.
Proof. intro H. unfold pos. destruct (qmax_spec 0 x) as [[A B]|[A B]]; rewrite B; lra. Qed.
Lemma pos_nonpos x : x <= 0 -> pos x == 0.
Proof. intro H. unfold pos. destruct (qmax_spec 0 x) as [[A B]|[A B]]; rewrite B; lra. Qed.

Lemma ycap_fin a b lam : ycap (a, Fin b) lam == b - pos (lam - (a - b)).
Proof.
  unfold ycap; simpl. destruct (Qltb b (a - lam)) eqn:E.
  - apply Qltb_true in E. rewrite pos_nonpos; lra.
  - apply Qltb_false in E. rewrite pos_nonneg; lra.
Qed.

Lemma ycap_min p lam : ycap p lam <= fst p - lam /\
  (forall b, snd p = Fin b -> ycap p lam <= b) /\
  (ycap p lam == fst p - lam \/ exists b, snd p = Fin b /\ ycap p lam == b).
Proof.
  destruct p as [a [b| |]]; unfold ycap; simpl.
  - destruct (Qltb b (a - lam)) eqn:E.
    + apply Qltb_true in E. split; [lra|]. split.
      * intros b' K; inversion K; subst; lra.
      * right. exists b. split; [auto|reflexivity].
    + apply Qltb_false in E. split; [lra|]. split.
      * intros b' K; inversion K; subst; lra.
      * left; reflexivity.
  - split; [lra|]. split; [intros b K; discriminate K|left; reflexivity].
  - split; [lra|]. split; [intros b K; discriminate K|left; reflexivity].
Qed.

Lemma ycap_anti p l l' : l <= l' -> ycap p l' <= ycap p l.
Proof.
  intro H. destruct (ycap_min p l') as (A1 & A2 & _).
  destruct (ycap_min p l) as (_ & _ & [K|(b & Hb & K)]); [lra|]. specialize (A2 b Hb). lra.
Qed.

Lemma ycap_wd p l l' : l == l' -> ycap p l == ycap p l'.
Proof.
  intro H. assert (A := ycap_anti p l l'). assert (B := ycap_anti p l' l).
  assert (ycap p l' <= ycap p l) by (apply A; lra).
  assert (ycap p l <= ycap p l') by (apply B; lra). lra.
Qed.

(** Concavity. *)
Lemma ycap_concave p x y z : x <= y -> y <= z ->
  (z - y) * ycap p x + (y - x) * ycap p z <= (z - x) * ycap p y.
Proof.
  intros H1 H2.
  destruct (ycap_min p x) as (X1 & X2 & _). destruct (ycap_min p z) as (Z1 & Z2 & _).
  assert (M : forall u v c, 0 <= c -> u <= v -> c * u <= c * v).
  { intros u v c Hc Huv. rewrite !(Qmult_comm c). apply Qmult_le_compat_r; auto. }
  destruct (ycap_min p y) as (_ & _ & [K|(b & Hb & K)]).
  - assert (A := M _ _ (z - y) ltac:(lra) X1). assert (B := M _ _ (y - x) ltac:(lra) Z1).
    assert (C : (z - x) * ycap p y == (z - x) * (fst p - y)) by (rewrite K; reflexivity).
    assert (D : (z - y) * (fst p - x) + (y - x) * (fst p - z) == (z - x) * (fst p - y)) by ring.
    lra.
  - specialize (X2 b Hb). specialize (Z2 b Hb).
    assert (A := M _ _ (z - y) ltac:(lra) X2). assert (B := M _ _ (y - x) ltac:(lra) Z2).
    assert (C : (z - x) * ycap p y == (z - x) * b) by (rewrite K; reflexivity).
    assert (D : (z - y) * b + (y - x) * b == (z - x) * b) by ring. lra.
Qed.

Lemma ysum_anti ps l l' : l <= l' -> ysum ps l' <= ysum ps l.
Proof. intro H. apply qsum_le. intros p _. apply ycap_anti; auto. Qed.

Lemma ysum_wd ps l l' : l == l' -> ysum ps l == ysum ps l'.
Proof. intro H. apply qsum_ext. intros p _. apply ycap_wd; auto. Qed.

Lemma ysum_concave ps x y z : x <= y -> y <= z ->
  (z - y) * ysum ps x + (y - x) * ysum ps z <= (z - x) * ysum ps y.
Proof.
  intros H1 H2. unfold ysum. rewrite <- !qsum_scal, <- qsum_plus. apply qsum_le.
  intros p _. apply ycap_concave; auto.
Qed.

(** Closed form of the sum. *)
Lemma ysum_form ps lam :
  ysum ps lam == yint ps - qn (infinity_count ps) * lam
                 - qsum (fun t => pos (lam - t)) (turning_points ps).
Proof.
  unfold ysum, yint, infinity_count, turning_points.
  induction ps as [|[a [b| |]] ps IH].
  - cbn. unfold qn; simpl. ring.
  - cbn [qsum flat_map filter snd fst app]. rewrite IH, ycap_fin. cbn [qsum]. ring.
  - cbn [qsum flat_map filter snd fst app length]. rewrite IH, qn_S. unfold ycap; cbn [snd fst]. ring.
  - cbn [qsum flat_map filter snd fst app length]. rewrite IH, qn_S. unfold ycap; cbn [snd fst]. ring.
Qed.

Lemma ysum_le_int ps lam : infinity_count ps = 0%nat -> ysum ps lam <= yint ps.
Proof.
  intro H. rewrite ysum_form, H.
  assert (0 <= qsum (fun t => pos (lam - t)) (turning_points ps)).
  { apply qsum_nonneg. intros t _. unfold pos. destruct (qmax_spec 0 (lam - t)) as [[A B]|[A B]]; rewrite B; lra. }
  assert (qn 0 * lam == 0) by (unfold qn; simpl; ring). lra.
Qed.

(** Slope of the sum where no breakpoint intervenes. *)
Lemma ysum_slope ps dn todo x y :
  Permutation (turning_points ps) (dn ++ todo) ->
  Forall (fun t => t <= x) dn -> Forall (fun t => y <= t) todo -> x <= y ->
  ysum ps y == ysum ps x - (qn (infinity_count ps) + qn (length dn)) * (y - x).
Proof.
  intros HP Hd Ht Hxy. rewrite !ysum_form, !(qsum_perm _ _ _ HP), !qsum_app.
  assert (T : forall w, w <= y -> qsum (fun t => pos (w - t)) todo == 0).
  { intros w Hw. apply qsum_zero. intros t Hin. rewrite Forall_forall in Ht.
    apply pos_nonpos. specialize (Ht t Hin). lra. }
  rewrite (T x), (T y) by lra.
  assert (D : qsum (fun t => pos (y - t)) dn == qsum (fun t => pos (x - t)) dn + qn (length dn) * (y - x)).
  { rewrite (Qmult_comm (qn _)), <- qsum_const, <- qsum_plus. apply qsum_ext. intros t Hin.
    rewrite Forall_forall in Hd. specialize (Hd t Hin). rewrite !pos_nonneg by lra. ring. }
  rewrite D. ring.
Qed.

Lemma inj_opp_qn k : inject_Z (- Z.of_nat k) == - qn k.
Proof. unfold qn. rewrite inject_Z_opp. reflexivity. Qed.

Lemma qn_pos k : (0 < k)%nat -> 0 < qn k.
Proof. intro H. assert (qn 0 < qn k) by (apply qn_lt; auto). assert (qn 0 == 0) by reflexivity. lra. Qed.

(** Solving on a segment. *)
Lemma seg_solve target s k p : 0 < k -> s <= target \/ target <= s ->
  forall r, r == (target - s) / (- k) + p -> - k * (r - p) == target - s.
Proof.
  intros Hk _ r Hr. rewrite Hr. field. lra.
Qed.

Lemma scan_ok ps target : forall todo dn last sum r,
  Permutation (turning_points ps) (dn ++ todo) ->
  StronglySorted Qle todo -> Forall (fun t => t <= last) dn -> Forall (fun t => last <= t) todo ->
  sum == ysum ps last -> target < sum ->
  ((0 < infinity_count ps + length dn)%nat \/ exists t0 t, todo = t0 :: t /\ t0 == last) ->
  lam_scan target todo sum (- Z.of_nat (infinity_count ps + length dn)) last = r ->
  exists l k s p, r = Some l /\ ysum ps l == target /\ last < l /\
    (1 <= k <= infinity_count ps + length (turning_points ps))%nat /\
    l == (target - s) / (- qn k) + p /\ s == ysum ps p /\
    (p = last \/ In p todo).
Proof.
  induction todo as [|tp todo IH]; intros dn last sum r HP Hso Hd Ht Hs Hlt Hne Hr; simpl in Hr.
  - destruct Hne as [Hne|(t0 & t & Hc & _)]; [|discriminate Hc].
    set (k := (infinity_count ps + length dn)%nat) in *.
    destruct (- Z.of_nat k =? 0)%Z eqn:Ez; [apply Z.eqb_eq in Ez; lia|].
    assert (Kp := qn_pos k Hne).
    assert (Kl : (k <= infinity_count ps + length (turning_points ps))%nat).
    { apply Permutation_length in HP. rewrite app_length in HP. simpl in HP. unfold k. lia. }
    set (l := (target - sum) / inject_Z (- Z.of_nat k) + last) in *.
    exists l, k, sum, last. split; [symmetry; exact Hr|].
    assert (El : l == (target - sum) / (- qn k) + last) by (unfold l; rewrite inj_opp_qn; reflexivity).
    assert (Sv := seg_solve target sum (qn k) last Kp ltac:(right; lra) l El).
    assert (Hl : last < l).
    { destruct (Qlt_le_dec last l) as [|C]; auto. exfalso.
      assert (0 <= qn k * (last - l)) by (apply Qmult_le_0_compat; lra).
      assert (- qn k * (l - last) == qn k * (last - l)) by ring. lra. }
    split; [|split; [exact Hl|split; [lia|split; [exact El|split; [exact Hs|left; reflexivity]]]]].
    rewrite (ysum_slope ps dn [] last l HP Hd ltac:(constructor)) by lra.
    rewrite <- qn_plus. fold k.
    assert (- qn k * (l - last) == - (qn k * (l - last))) by ring. lra.
  - set (k := (infinity_count ps + length dn)%nat) in *.
    inversion Ht as [|? ? Ht1 Ht2]; subst. inversion Hso as [|? ? So1 So2]; subst.
    set (sum' := sum + inject_Z (- Z.of_nat k) * (tp - last)) in *.
    assert (Es : sum' == ysum ps tp).
    { rewrite (ysum_slope ps dn (tp :: todo) last tp HP Hd).
      - unfold sum'. rewrite inj_opp_qn, <- Hs. unfold k. rewrite qn_plus. ring.
      - constructor; [lra|]. exact So2.
      - auto. }
    destruct (Qle_bool sum' target) eqn:Eb.
    + apply Qle_bool_iff in Eb.
      assert (Kne : (0 < k)%nat).
      { destruct Hne as [Hne|(t0 & t & Hc & Hz)]; auto. inversion Hc; subst t0 t.
        exfalso. assert (sum' == sum). { rewrite Es, Hs. apply ysum_wd; auto. } lra. }
      destruct (- Z.of_nat k =? 0)%Z eqn:Ez; [apply Z.eqb_eq in Ez; lia|].
      assert (Kp := qn_pos k Kne).
      assert (Kl : (k <= infinity_count ps + length (turning_points ps))%nat).
      { apply Permutation_length in HP. rewrite app_length in HP. unfold k. lia. }
      set (l := (target - sum') / inject_Z (- Z.of_nat k) + tp) in *.
      exists l, k, sum', tp. split; [reflexivity|].
      assert (El : l == (target - sum') / (- qn k) + tp) by (unfold l; rewrite inj_opp_qn; reflexivity).
      assert (Sv := seg_solve target sum' (qn k) tp Kp ltac:(left; lra) l El).
      assert (Hl1 : l <= tp).
      { destruct (Qlt_le_dec tp l) as [C|]; auto. exfalso.
        assert (0 < qn k * (l - tp)) by (apply Qmult_lt_0_compat; lra).
        assert (- qn k * (l - tp) == - (qn k * (l - tp))) by ring. lra. }
      assert (Sx : sum' == sum - qn k * (tp - last)).
      { unfold sum'. rewrite inj_opp_qn. ring. }
      assert (Hl : last < l).
      { destruct (Qlt_le_dec last l) as [|C]; auto. exfalso.
        assert (0 <= qn k * (last - l)) by (apply Qmult_le_0_compat; lra).
        assert (- qn k * (l - tp) == qn k * (last - l) + qn k * (tp - last)) by ring. lra. }
      split; [|split; [exact Hl|split; [lia|split; [exact El|split; [exact Es|right; left; reflexivity]]]]].
      rewrite (ysum_slope ps dn (tp :: todo) last l HP Hd); [|constructor|lra].
      * rewrite <- qn_plus. fold k.
        assert (qn k * (l - last) == qn k * (l - tp) + qn k * (tp - last)) by ring.
        assert (- qn k * (l - tp) == - (qn k * (l - tp))) by ring. lra.
      * auto.
      * eapply Forall_impl; [|exact So2]. simpl. intros. lra.
    + apply Qle_bool_false in Eb.
      assert (Hz : (- Z.of_nat k - 1)%Z = (- Z.of_nat (infinity_count ps + length (dn ++ [tp])))%Z).
      { rewrite app_length. unfold k. simpl. lia. }
      rewrite Hz.
      destruct (IH (dn ++ [tp]) tp sum'
        (lam_scan target todo sum' (- Z.of_nat (infinity_count ps + length (dn ++ [tp]))) tp)
        ltac:(rewrite <- app_assoc; exact HP) So1) as
        (l & k' & s & p & R1 & R2 & R3 & R4 & R5 & R6 & R7).
      * apply Forall_app. split; [|constructor; [lra|constructor]].
        eapply Forall_impl; [|exact Hd]. simpl. intros. lra.
      * exact So2.
      * exact Es.
      * exact Eb.
      * left. rewrite app_length. simpl. lia.
      * reflexivity.
      * exists l, k', s, p. repeat split; auto; try tauto; try lra.
        destruct R7 as [R7|R7]; [right; left; auto|right; right; auto].
Qed.

Lemma isortQ_sorted l : StronglySorted Qle (isort Qltb l).
Proof.
  induction l as [|x l IH]; simpl; [constructor|].
  induction IH as [|y m H IHm Hy]; simpl; [constructor; constructor|].
  destruct (Qltb y x) eqn:E.
  - apply Qltb_true in E. constructor; auto.
    apply Forall_forall. intros z Hz.
    apply (Permutation_in z (insert_perm Qltb x m)) in Hz. destruct Hz as [<-|Hz]; [lra|].
    rewrite Forall_forall in Hy. auto.
  - apply Qltb_false in E. constructor; [constructor; auto|]. constructor; auto.
    eapply Forall_impl; [|exact Hy]. simpl. intros. lra.
Qed.

Lemma inf_tp_length ps : (infinity_count ps + length (turning_points ps))%nat = length ps.
Proof.
  unfold infinity_count, turning_points. induction ps as [|[a [b| |]] ps IH]; simpl in *; lia.
Qed.

Lemma no_tp ps : turning_points ps = [] -> forall lam, ysum ps lam == qsum fst ps - qn (length ps) * lam.
Proof.
  intros H lam. rewrite ysum_form, H. rewrite <- (inf_tp_length ps), H. simpl qsum.
  simpl length. rewrite Nat.add_0_r.
  assert (yint ps == qsum fst ps).
  { unfold yint. apply qsum_ext. intros p Hp. destruct p as [a [b| |]]; simpl; try reflexivity.
    exfalso. assert (In (a - b) (turning_points ps)).
    { unfold turning_points. apply in_flat_map. exists (a, Fin b). split; auto. left; auto. }
    rewrite H in H0. destruct H0. }
  rewrite H0. ring.
Qed.

Lemma tol_less_true eps a b : tol_less eps a b = true <-> a + eps < b.
Proof. apply Qltb_true. Qed.
Lemma tol_less_false eps a b : tol_less eps a b = false <-> b <= a + eps.
Proof. apply Qltb_false. Qed.
Lemma tol_same eps a b : tol_different eps a b = false <-> a <= b + eps /\ b <= a + eps.
Proof. unfold tol_different. rewrite orb_false_iff, !tol_less_false. tauto. Qed.

(** Everything compute_lambda can do on a non-empty list. *)
Theorem compute_lambda_cases eps ps target :
  0 <= eps -> ps <> [] ->
  (compute_lambda eps ps target = Throw /\ infinity_count ps = 0%nat /\ yint ps + eps < target) \/
  (exists l, compute_lambda eps ps target = Ok (Some l) /\
     ((exists k s p, ysum ps l == target /\
         (1 <= k <= length ps)%nat /\ l == (target - s) / (- qn k) + p /\
         ((s == yint ps /\ p == 0) \/ (s == qsum fst ps /\ p == 0) \/
          (In p (turning_points ps) /\ s == ysum ps p))) \/
      (In l (turning_points ps) /\ ysum ps l <= target + eps /\ target <= ysum ps l + eps))).
Proof.
  intros He Hps. unfold compute_lambda.
  assert (HP := isort_perm Qltb (turning_points ps)).
  assert (HS := isortQ_sorted (turning_points ps)).
  destruct (isort Qltb (turning_points ps)) as [|tp t] eqn:Et.
  - right. apply Permutation_nil in HP. destruct ps as [|p0 ps]; [congruence|].
    eexists. split; [reflexivity|]. left.
    assert (Kn : (0 < length (p0 :: ps))%nat) by (simpl; lia).
    assert (Kp := qn_pos _ Kn).
    exists (length (p0 :: ps)), (qsum fst (p0 :: ps)), 0. split; [|split; [lia|split]].
    + rewrite no_tp by auto. field. lra.
    + field. lra.
    + right. left. split; reflexivity.
  - assert (Hall : Forall (fun x => tp <= x) (tp :: t)).
    { inversion HS; subst. constructor; [lra|auto]. }
    assert (Hmin : ysum ps tp == yint ps - qn (infinity_count ps) * tp).
    { rewrite ysum_form, (qsum_perm _ _ _ (Permutation_sym HP)).
      rewrite (qsum_zero _ (tp :: t)); [ring|]. intros x Hx. rewrite Forall_forall in Hall.
      apply pos_nonpos. specialize (Hall x Hx). lra. }
    change (qsum (fun p => ycap p tp) ps) with (ysum ps tp).
    change (qsum (fun p : Q * dbl => match snd p with Fin b => b | _ => fst p end) ps) with (yint ps).
    cbv zeta.
    assert (Htp : In tp (turning_points ps)) by (eapply Permutation_in; [exact HP|left; auto]).
    destruct (tol_less eps (ysum ps tp) target) eqn:El.
    + apply tol_less_true in El.
      destruct (- Z.of_nat (infinity_count ps) =? 0)%Z eqn:Ez.
      * apply Z.eqb_eq in Ez. left. assert (H0 : infinity_count ps = 0%nat) by lia.
        split; [reflexivity|]. split; [auto|]. rewrite H0 in Hmin.
        assert (qn 0 * tp == 0) by (unfold qn; simpl; ring). lra.
      * apply Z.eqb_neq in Ez. right. eexists. split; [reflexivity|]. left.
        set (k := infinity_count ps) in *.
        assert (Kp : 0 < qn k) by (apply qn_pos; lia).
        set (l := (target - yint ps) / inject_Z (- Z.of_nat k)).
        assert (El2 : l == (target - yint ps) / (- qn k) + 0)
          by (unfold l; rewrite inj_opp_qn; field; lra).
        assert (Sv := seg_solve target (yint ps) (qn k) 0 Kp
                        (ltac:(destruct (Qlt_le_dec target (yint ps)); [right; lra|left; lra])) l El2).
        assert (Hl : l < tp).
        { destruct (Qlt_le_dec l tp) as [|C]; auto. exfalso.
          assert (0 <= qn k * (l - tp)) by (apply Qmult_le_0_compat; lra).
          assert (- qn k * (l - 0) == - (qn k * (l - tp)) - qn k * tp) by ring. lra. }
        exists k, (yint ps), 0. split; [|split; [|split; [exact El2|left; split; reflexivity]]].
        -- rewrite ysum_form, (qsum_perm _ _ _ (Permutation_sym HP)).
           rewrite (qsum_zero _ (tp :: t)).
           ++ fold k. assert (- qn k * (l - 0) == - (qn k * l)) by ring. lra.
           ++ intros x Hx. rewrite Forall_forall in Hall. apply pos_nonpos. specialize (Hall x Hx). lra.
        -- rewrite <- (inf_tp_length ps). fold k. lia.
    + apply tol_less_false in El. right.
      destruct (tol_different eps target (ysum ps tp)) eqn:Ed; simpl negb; cbv iota.
      * assert (Hlt : target < ysum ps tp).
        { unfold tol_different in Ed. apply orb_true_iff in Ed.
          destruct Ed as [Ed|Ed]; apply tol_less_true in Ed; lra. }
        destruct (scan_ok ps target (tp :: t) [] tp (ysum ps tp)
          (lam_scan target (tp :: t) (ysum ps tp) (- Z.of_nat (infinity_count ps)) tp)
          (Permutation_sym HP) HS)
          as (l & k & s & p & R1 & R2 & R3 & R4 & R5 & R6 & R7).
        -- constructor.
        -- exact Hall.
        -- reflexivity.
        -- exact Hlt.
        -- right. exists tp, t. split; reflexivity.
        -- simpl length. rewrite Nat.add_0_r. reflexivity.
        -- exists l. split; [f_equal; exact R1|]. left. exists k, s, p.
           split; [exact R2|]. split; [rewrite <- (inf_tp_length ps); exact R4|].
           split; [exact R5|]. right. right. split; [|exact R6].
           destruct R7 as [->|R7]; auto. eapply Permutation_in; [exact HP|]. auto.
      * exists tp. split; [reflexivity|]. right. apply tol_same in Ed. split; [auto|]. lra.
Qed.

(** ** Integer multiples of 1/M *)
Definition mult (M : positive) (q : Q) : Prop := exists z : Z, q * inject_Z (Zpos M) == inject_Z z.

Lemma mult_wd M a b : a == b -> mult M a -> mult M b.
Proof. intros H (z & Hz). exists z. rewrite <- H. auto. Qed.

Lemma mult_0 M : mult M 0.
Proof. exists 0%Z. ring. Qed.

Lemma mult_plus M a b : mult M a -> mult M b -> mult M (a + b).
Proof.
  intros (x & Hx) (y & Hy). exists (x + y)%Z. rewrite inject_Z_plus, <- Hx, <- Hy. ring.
Qed.

Lemma mult_opp M a : mult M a -> mult M (- a).
Proof. intros (x & Hx). exists (- x)%Z. rewrite inject_Z_opp, <- Hx. ring. Qed.

Lemma mult_minus M a b : mult M a -> mult M b -> mult M (a - b).
Proof. intros Ha Hb. apply mult_plus; auto. apply mult_opp; auto. Qed.

Lemma mult_qsum {A} M (f : A -> Q) l : (forall x, In x l -> mult M (f x)) -> mult M (qsum f l).
Proof.
  induction l as [|x l IH]; intro H; cbn [qsum]; [apply mult_0|].
  apply mult_plus; [apply H; left; auto|apply IH; intros; apply H; right; auto].
Qed.

Lemma mult_scale M k a : mult M a -> mult (M * k) a.
Proof.
  intros (x & Hx). exists (x * Zpos k)%Z.
  rewrite Pos2Z.inj_mul, !inject_Z_mult, <- Hx. ring.
Qed.

Fixpoint factP (m : nat) : positive :=
  match m with O => 1%positive | S m' => (Pos.of_nat (S m') * factP m')%positive end.

Lemma factP_div m k : (1 <= k <= m)%nat -> exists c, factP m = (Pos.of_nat k * c)%positive.
Proof.
  induction m as [|m IH]; intros [H1 H2]; [lia|].
  destruct (Nat.eq_dec k (S m)) as [->|Hne].
  - exists (factP m). reflexivity.
  - destruct IH as (c & Hc); [lia|]. exists (Pos.of_nat (S m) * c)%positive.
    cbn [factP]. rewrite Hc. rewrite !Pos.mul_assoc. f_equal. apply Pos.mul_comm.
Qed.

Lemma qn_of_nat k : (1 <= k)%nat -> qn k == inject_Z (Zpos (Pos.of_nat k)).
Proof. intro H. unfold qn. rewrite <- (Nat2Pos.id k) at 1 by lia. rewrite positive_nat_Z. reflexivity. Qed.

Lemma mult_div M m k a : (1 <= k <= m)%nat -> mult M a -> mult (M * factP m) (a / qn k).
Proof.
  intros Hk (x & Hx). destruct (factP_div m k Hk) as (c & Hc). exists (x * Zpos c)%Z.
  assert (Kp : 0 < qn k) by (apply qn_pos; lia).
  rewrite Hc, !Pos2Z.inj_mul, !inject_Z_mult, <- Hx.
  rewrite <- (qn_of_nat k) by lia. field. lra.
Qed.

Lemma mult_gap M eps a b :
  eps * inject_Z (Zpos M) < 1 -> mult M a -> mult M b -> a <= b + eps -> a <= b.
Proof.
  intros He (x & Hx) (y & Hy) H.
  assert (Mp : 0 < inject_Z (Zpos M)) by reflexivity.
  assert (L : a * inject_Z (Zpos M) <= (b + eps) * inject_Z (Zpos M))
    by (apply Qmult_le_compat_r; lra).
  assert (R : (b + eps) * inject_Z (Zpos M) == inject_Z y + eps * inject_Z (Zpos M))
    by (rewrite <- Hy; ring).
  rewrite Hx in L. rewrite R in L.
  assert (I : inject_Z x < inject_Z (y + 1)) by (rewrite inject_Z_plus; change (inject_Z 1) with 1; lra).
  rewrite <- Zlt_Qlt in I. assert (x <= y)%Z by lia. rewrite Zle_Qle in H0.
  rewrite <- Hx, <- Hy in H0.
  apply Qmult_lt_0_le_reg_r with (z := inject_Z (Zpos M)); auto.
Qed.

Definition dmult (M : positive) (d : dbl) : Prop := match d with Fin q => mult M q | PInf => True | NaN => False end.
Definition pmult (M : positive) (p : Q * dbl) : Prop := mult M (fst p) /\ dmult M (snd p).

Lemma ycap_mult M p l : pmult M p -> mult M l -> mult M (ycap p l).
Proof.
  destruct p as [a [b| |]]; intros [H1 H2] Hl; simpl in *; try contradiction; unfold ycap; simpl.
  - destruct (Qltb b (a - l)); auto. apply mult_minus; auto.
  - apply mult_minus; auto.
Qed.

Lemma tp_mult M ps t : Forall (pmult M) ps -> In t (turning_points ps) -> mult M t.
Proof.
  intros H Ht. unfold turning_points in Ht. apply in_flat_map in Ht.
  destruct Ht as ([a [b| |]] & Hp & Ht); simpl in Ht; [|destruct Ht|destruct Ht].
  destruct Ht as [<-|[]]. rewrite Forall_forall in H. destruct (H _ Hp) as [H1 H2]. simpl in *.
  apply mult_minus; auto.
Qed.

Lemma ysum_mult M ps l : Forall (pmult M) ps -> mult M l -> mult M (ysum ps l).
Proof.
  intros H Hl. apply mult_qsum. intros p Hp. rewrite Forall_forall in H. apply ycap_mult; auto.
Qed.

(** With weights on a grid coarser than the tolerance the equation is solved exactly. *)
Theorem compute_lambda_exact M m eps ps target l1 :
  0 <= eps -> eps * inject_Z (Zpos M) < 1 -> Forall (pmult M) ps -> mult M target ->
  (length ps <= m)%nat -> target < ysum ps l1 -> ps <> [] ->
  exists l, compute_lambda eps ps target = Ok (Some l) /\ ysum ps l == target /\
            mult (M * factP m) l.
Proof.
  intros He HM Hps Ht Hm Hl1 Hne.
  destruct (compute_lambda_cases eps ps target He Hne) as
    [(R1 & R2 & R3)|(l & R & [(k & s & p & K1 & K2 & K3 & K4)|(K1 & K2 & K3)])].
  - exfalso. assert (U := ysum_le_int ps l1 R2). lra.
  - exists l. split; [exact R|]. split; [exact K1|].
    assert (KK : mult M s /\ mult M p).
    { destruct K4 as [[A B]|[[A B]|[A B]]].
      - split; [|eapply mult_wd; [symmetry; exact B|apply mult_0]].
        eapply mult_wd; [symmetry; exact A|]. apply mult_qsum. intros q Hq.
        rewrite Forall_forall in Hps. destruct (Hps q Hq) as [P1 P2].
        destruct q as [a [b| |]]; simpl in *; auto.
      - split; [|eapply mult_wd; [symmetry; exact B|apply mult_0]].
        eapply mult_wd; [symmetry; exact A|]. apply mult_qsum. intros q Hq.
        rewrite Forall_forall in Hps. destruct (Hps q Hq) as [P1 P2]. auto.
      - assert (mult M p) by (eapply tp_mult; eauto). split; auto.
        eapply mult_wd; [symmetry; exact B|]. apply ysum_mult; auto. }
    destruct KK as [Ks Kp]. eapply mult_wd; [symmetry; exact K3|].
    apply mult_plus; [|apply mult_scale; auto].
    eapply mult_wd with (a := (s - target) / qn k).
    + assert (0 < qn k) by (apply qn_pos; lia). field. lra.
    + apply mult_div; [lia|]. apply mult_minus; auto.
  - exists l. split; [exact R|].
    assert (Kl : mult M l) by (eapply tp_mult; eauto).
    assert (Ks := ysum_mult M ps l Hps Kl). split; [|apply mult_scale; auto].
    assert (ysum ps l <= target) by (apply (mult_gap M eps); auto).
    assert (target <= ysum ps l) by (apply (mult_gap M eps); auto). lra.
Qed.

(** The solution lies right of any point where the sum exceeds the target ... *)
Lemma ysum_right ps target l l1 : ysum ps l == target -> target < ysum ps l1 -> l1 < l.
Proof.
  intros H1 H2. destruct (Qlt_le_dec l1 l) as [|C]; auto.
  assert (A := ysum_anti ps l l1 C). lra.
Qed.

(** ... and not right of any point where it does not, by concavity. *)
Lemma ysum_left ps target l l1 l3 :
  ysum ps l == target -> target < ysum ps l1 -> ysum ps l3 <= target -> l <= l3.
Proof.
  intros H1 H2 H3. destruct (Qlt_le_dec l3 l) as [C|]; auto. exfalso.
  assert (K : l1 < l3).
  { destruct (Qlt_le_dec l1 l3) as [|C']; auto. assert (A := ysum_anti ps l3 l1 C'). lra. }
  assert (A := ysum_concave ps l1 l3 l ltac:(lra) ltac:(lra)).
  assert (B : (l - l3) * target < (l - l3) * ysum ps l1).
  { rewrite !(Qmult_comm (l - l3)). apply Qmult_lt_compat_r; lra. }
  assert (D : (l3 - l1) * ysum ps l == (l3 - l1) * target) by (rewrite H1; reflexivity).
  assert (F : (l - l1) * ysum ps l3 <= (l - l1) * target).
  { rewrite !(Qmult_comm (l - l1)). apply Qmult_le_compat_r; lra. }
  assert (G : (l - l3) * target + (l3 - l1) * target == (l - l1) * target) by ring. lra.
Qed.
