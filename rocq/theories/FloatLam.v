(** * FloatLam: compute_lambda in floating-point arithmetic (psp/pmf.cpp:11-63) solves its equation up
    to the tolerance and an explicit rounding error. *)
From Coq Require Import Qabs Sorted Lia.
From Verif Require Import Base Graph MSets MGraph MaxFlow MDil MDT SeqThy DilThy MPMF LamThy MFloat FloatThy MFloatT.

Lemma pos_lip x y : x <= y -> pos x <= pos y /\ pos y <= pos x + (y - x).
Proof.
  intro H. unfold pos. destruct (qmax_spec 0 x) as [[A B]|[A B]], (qmax_spec 0 y) as [[C D]|[C D]]; rewrite B, D; lra.
Qed.
Lemma pos_ge x : 0 <= pos x.
Proof. unfold pos. destruct (qmax_spec 0 x) as [[A B]|[A B]]; rewrite B; lra. Qed.

(** The decreasing piecewise linear function with breakpoints [tps]. *)
Definition yg (I m : Q) (tps : list Q) (l : Q) : Q := I - m * l - qsum (fun t => pos (l - t)) tps.

Lemma yg_wd I m tps l l' : l == l' -> yg I m tps l == yg I m tps l'.
Proof.
  intro H. unfold yg. rewrite H. apply Qplus_comp; [reflexivity|]. apply Qopp_comp. apply qsum_ext.
  intros t _. assert (A := pos_lip (l - t) (l' - t) ltac:(lra)). assert (B := pos_lip (l' - t) (l - t) ltac:(lra)). lra.
Qed.

Lemma yg_lip I m tps l l' : 0 <= m -> l <= l' ->
  yg I m tps l' <= yg I m tps l /\ yg I m tps l <= yg I m tps l' + (m + qn (length tps)) * (l' - l).
Proof.
  intros Hm Hl. unfold yg.
  assert (A : qsum (fun t => pos (l - t)) tps <= qsum (fun t => pos (l' - t)) tps).
  { apply qsum_le. intros t _. apply pos_lip. lra. }
  assert (B : qsum (fun t => pos (l' - t)) tps <= qsum (fun t => pos (l - t)) tps + qn (length tps) * (l' - l)).
  { rewrite (Qmult_comm (qn _)), <- qsum_const, <- qsum_plus. apply qsum_le. intros t _.
    assert (K := pos_lip (l - t) (l' - t) ltac:(lra)). lra. }
  assert (C : m * l <= m * l') by (rewrite !(Qmult_comm m); apply Qmult_le_compat_r; auto).
  split; [lra|]. assert (D : (m + qn (length tps)) * (l' - l) == m * l' - m * l + qn (length tps) * (l' - l)) by ring.
  lra.
Qed.

(** Slope at most -1 where a term decreases. *)
Lemma yg_drop I m tps l l' : 0 <= m -> l <= l' -> 1 <= m \/ (exists t, In t tps /\ t <= l) ->
  yg I m tps l' + (l' - l) <= yg I m tps l.
Proof.
  intros Hm Hl [H|(t & Ht & Htl)].
  - assert (A : qsum (fun t => pos (l - t)) tps <= qsum (fun t => pos (l' - t)) tps).
    { apply qsum_le. intros t _. apply pos_lip. lra. }
    assert (0 <= (m - 1) * (l' - l)) by (apply Qmult_le_0_compat; lra). unfold yg. lra.
  - apply in_split in Ht. destruct Ht as (a & b & ->). unfold yg. rewrite !qsum_app. cbn [qsum].
    assert (A : qsum (fun t => pos (l - t)) a <= qsum (fun t => pos (l' - t)) a).
    { apply qsum_le. intros x _. apply pos_lip. lra. }
    assert (B : qsum (fun t => pos (l - t)) b <= qsum (fun t => pos (l' - t)) b).
    { apply qsum_le. intros x _. apply pos_lip. lra. }
    assert (0 <= m * (l' - l)) by (apply Qmult_le_0_compat; lra).
    assert (P : forall x, 0 <= x -> pos x == x).
    { intros x Hx. unfold pos. destruct (qmax_spec 0 x) as [[X Y]|[X Y]]; rewrite Y; lra. }
    rewrite (P (l - t)), (P (l' - t)) by lra. lra.
Qed.

(** Linear where no breakpoint intervenes. *)
Lemma yg_slope I m tps dn todo x y :
  Permutation tps (dn ++ todo) -> Forall (fun t => t <= x) dn -> Forall (fun t => y <= t) todo -> x <= y ->
  yg I m tps y == yg I m tps x - (m + qn (length dn)) * (y - x).
Proof.
  intros HP Hd Ht Hxy. unfold yg. rewrite !(qsum_perm _ _ _ HP), !qsum_app.
  assert (T : forall w, w <= y -> qsum (fun t => pos (w - t)) todo == 0).
  { intros w Hw. apply qsum_zero. intros t Hin. rewrite Forall_forall in Ht.
    apply pos_nonpos. specialize (Ht t Hin). lra. }
  rewrite (T x), (T y) by lra.
  assert (D : qsum (fun t => pos (y - t)) dn == qsum (fun t => pos (x - t)) dn + qn (length dn) * (y - x)).
  { rewrite (Qmult_comm (qn _)), <- qsum_const, <- qsum_plus. apply qsum_ext. intros t Hin.
    rewrite Forall_forall in Hd. specialize (Hd t Hin). rewrite !pos_nonneg by lra. ring. }
  rewrite D. ring.
Qed.

(** Left of [x] it stays below the line. *)
Lemma yg_left I m tps dn todo x l : 0 <= m ->
  Permutation tps (dn ++ todo) -> Forall (fun t => t <= x) dn -> Forall (fun t => x <= t) todo -> l <= x ->
  yg I m tps l <= yg I m tps x + (m + qn (length dn)) * (x - l).
Proof.
  intros Hm HP Hd Ht Hl. unfold yg. rewrite !(qsum_perm _ _ _ HP), !qsum_app.
  assert (T : qsum (fun t => pos (x - t)) todo == 0).
  { apply qsum_zero. intros t Hin. rewrite Forall_forall in Ht. apply pos_nonpos. specialize (Ht t Hin). lra. }
  assert (T' : 0 <= qsum (fun t => pos (l - t)) todo) by (apply qsum_nonneg; intros; apply pos_ge).
  assert (D : qsum (fun t => pos (x - t)) dn <= qsum (fun t => pos (l - t)) dn + qn (length dn) * (x - l)).
  { rewrite (Qmult_comm (qn _)), <- qsum_const, <- qsum_plus. apply qsum_le. intros t _.
    assert (K := pos_lip (l - t) (x - t) ltac:(lra)). lra. }
  assert (R : (m + qn (length dn)) * (x - l) == m * x - m * l + qn (length dn) * (x - l)) by ring. lra.
Qed.

(** Products of a number of at least 1 with a small one. *)
Lemma mul_near_l k e a b : 0 <= k -> near e a b -> near (k * e) (k * a) (k * b).
Proof.
  intros Hk [H1 H2]. assert (A : k * (a - b) <= k * e) by (rewrite !(Qmult_comm k); apply Qmult_le_compat_r; auto).
  assert (B : k * (b - a) <= k * e) by (rewrite !(Qmult_comm k); apply Qmult_le_compat_r; auto).
  split; [assert (k * a - k * b == k * (a - b)) by ring|assert (k * b - k * a == k * (b - a)) by ring]; lra.
Qed.

Lemma ge1_mul k x : 1 <= k -> 0 <= x -> x <= k * x.
Proof. intros Hk Hx. assert (0 <= (k - 1) * x) by (apply Qmult_le_0_compat; lra). assert ((k - 1) * x == k * x - x) by ring. lra. Qed.

Section FLam.
  Variable u : Q.
  Variable o : fops.
  Hypothesis Hu : 0 <= u.
  Hypothesis Hu1 : u <= 1.
  Hypothesis Ho : std_model u o.
  Variable n : nat.
  Hypothesis Hn : (1 <= n)%nat.
  Variable W : Q.
  Hypothesis HW : 1 <= W.
  Variable nw : Q.
  Hypothesis Hnw : nw == qn n * W.

  Let eta := u * (60 * nw).
  Let nu := qn n * eta.
  Variable eps : Q.
  Hypothesis Heps : 24 * nu <= eps.
  Hypothesis Heps1 : eps <= 1.
  Hypothesis Heps0 : 0 < eps.

  Lemma qn1 : 1 <= qn n.
  Proof. change 1 with (qn 1). apply qn_le. auto. Qed.
  Lemma nw_W : W <= nw.
  Proof. rewrite Hnw. apply ge1_mul; [apply qn1|lra]. Qed.
  Lemma eta0 : 0 <= eta.
  Proof. unfold eta. assert (K := nw_W). apply Qmult_le_0_compat; lra. Qed.
  Lemma eta_nu : eta <= nu.
  Proof. apply ge1_mul; [apply qn1|apply eta0]. Qed.
  Lemma k_eta k : (k <= n)%nat -> qn k * eta <= nu.
  Proof. intro H. unfold nu. apply Qmult_le_compat_r; [apply qn_le; auto|apply eta0]. Qed.

  Lemma f_add a b : - (60 * nw) <= a + b -> a + b <= 60 * nw -> near eta (fadd o a b) (a + b).
  Proof. intros. apply (add_near u o Hu Ho); auto. Qed.
  Lemma f_sub a b : - (60 * nw) <= a - b -> a - b <= 60 * nw -> near eta (fsub o a b) (a - b).
  Proof. intros. apply (sub_near u o Hu Ho); auto. Qed.
  Lemma f_mul a b : - (60 * nw) <= a * b -> a * b <= 60 * nw -> near eta (fmul o a b) (a * b).
  Proof. intros. apply (mul_near u o Hu Ho); auto. Qed.
  Lemma f_div a b : ~ b == 0 -> - (60 * nw) <= a / b -> a / b <= 60 * nw -> near eta (fdiv o a b) (a / b).
  Proof. intros. apply (div_near u o Hu Ho); auto. Qed.

  (** Signs are kept. *)
  Lemma keep_sign x r : Qabs (r - x) <= u * Qabs x -> (0 <= x -> 0 <= r) /\ (x <= 0 -> r <= 0).
  Proof.
    intro H. assert (K : u * Qabs x <= Qabs x).
    { assert (0 <= (1 - u) * Qabs x) by (apply Qmult_le_0_compat; [lra|apply Qabs_nonneg]). 
      assert ((1 - u) * Qabs x == Qabs x - u * Qabs x) by ring. lra. }
    assert (H' : Qabs (r - x) <= Qabs x) by lra. apply Qabs_Qle_condition in H'. split; intro Hx.
    - rewrite (Qabs_pos x Hx) in H'. lra.
    - rewrite (Qabs_neg x Hx) in H'. lra.
  Qed.

  Lemma div_opp x k : 0 < k -> x / (- k) == - (x / k).
  Proof. intro H. field. lra. Qed.
  Lemma div_le x k t : 1 <= k -> - t <= x -> x <= t -> 0 <= t -> - t <= x / k /\ x / k <= t.
  Proof.
    intros Hk H1 H2 Ht. assert (E : x == k * (x / k)) by (field; lra). set (q := x / k) in *. clearbody q.
    split; destruct (Qlt_le_dec q 0) as [C|C].
    - assert (A := ge1_mul k (- q) Hk ltac:(lra)). assert (k * - q == - (k * q)) by ring. lra.
    - lra.
    - lra.
    - assert (A := ge1_mul k q Hk C). lra.
  Qed.

  (** The step [(target - sum) / slope + p] of the source. *)
  Lemma f_solve tF s k p : (1 <= k <= n)%nat -> - (25 * nw) <= tF - s -> tF - s <= 25 * nw ->
    - (20 * W) <= p -> p <= 20 * W ->
    let l := fadd o (fdiv o (fsub o tF s) (inject_Z (- Z.of_nat k))) p in
    near (3 * nu) (qn k * (l - p)) (s - tF) /\
    (s <= tF -> l <= p + eta) /\ (tF <= s -> p - eta <= l) /\ - (50 * nw) <= l /\ l <= 50 * nw.
  Proof.
    intros Hk H1 H2 P1 P2 l. assert (NW := nw_W). assert (E0 := eta0). assert (EN := eta_nu).
    assert (Kp : 1 <= qn k) by (change 1 with (qn 1); apply qn_le; lia).
    set (d := fsub o tF s) in *. assert (D1 : near eta d (tF - s)) by (apply f_sub; lra).
    set (sl := inject_Z (- Z.of_nat k)) in *. assert (Es : sl == - qn k) by apply inj_opp_qn.
    assert (Sn : ~ sl == 0) by lra.
    assert (Eq : d / sl == - (d / qn k)) by (rewrite Es; apply div_opp; lra).
    assert (D2 : - (26 * nw) <= d /\ d <= 26 * nw) by (destruct D1; split; lra).
    destruct (div_le d (qn k) (26 * nw) Kp (proj1 D2) (proj2 D2) ltac:(lra)) as [D3 D4].
    set (q := fdiv o d sl) in *.
    assert (Q1 : near eta q (d / sl)) by (apply f_div; [exact Sn|rewrite Eq; lra|rewrite Eq; lra]).
    rewrite Eq in Q1. destruct Q1 as [Q1 Q2].
    assert (L1 : near eta l (q + p)) by (apply f_add; lra). destruct L1 as [L1 L2].
    assert (Ed : d == qn k * (d / qn k)) by (field; lra). set (dk := d / qn k) in *.
    assert (N : near (qn k * (2 * eta)) (qn k * (l - p)) (qn k * (- dk))).
    { apply mul_near_l; [lra|]. split; lra. }
    assert (KE := k_eta k ltac:(lia)). assert (R : qn k * (2 * eta) == 2 * (qn k * eta)) by ring. rewrite R in N.
    assert (R2 : qn k * (- dk) == - d) by (rewrite Ed; ring). rewrite R2 in N. destruct N as [N1 N2]. destruct D1 as [D1a D1b].
    split; [split; lra|].
    destruct (keep_sign (tF - s) d (proj1 (proj2 (Ho tF s)))) as [G1 G2].
    destruct (keep_sign (d / sl) q ltac:(apply Ho; exact Sn)) as [G3 G4].
    assert (Dk : (0 <= d -> 0 <= dk) /\ (d <= 0 -> dk <= 0)).
    { split; intro Hd.
      - destruct (Qlt_le_dec dk 0) as [C|]; auto. exfalso. assert (A := ge1_mul (qn k) (- dk) Kp ltac:(lra)).
        assert (qn k * - dk == - (qn k * dk)) by ring. lra.
      - destruct (Qlt_le_dec 0 dk) as [C|]; auto. exfalso. assert (A := ge1_mul (qn k) dk Kp ltac:(lra)). lra. }
    split; [|split; [|split; lra]].
    - intro H. assert (0 <= d) by (apply G1; lra). assert (q <= 0) by (apply G4; rewrite Eq; destruct Dk as [Dk _]; specialize (Dk H0); lra). lra.
    - intro H. assert (d <= 0) by (apply G2; lra). assert (0 <= q) by (apply G3; rewrite Eq; destruct Dk as [_ Dk]; specialize (Dk H0); lra). lra.
  Qed.

  Section Scan.
    Variable I : Q.
    Variable m : nat.
    Variable tps : list Q.
    Variable tF : Q.
    Hypothesis Hk : (m + length tps <= n)%nat.
    Hypothesis Htps : Forall (fun t => - (13 * W) <= t /\ t <= 13 * W) tps.
    Hypothesis HtF : - (2 * W) <= tF /\ tF <= 2 * W.
    Let Y := yg I (qn m) tps.
    Hypothesis HY : forall l, - (13 * W) <= l -> l <= 13 * W -> - (20 * nw) <= Y l /\ Y l <= 20 * nw.

    Let ee (d : nat) : Q := (3 * qn (S d)) * nu.

    Lemma ee_S d : ee (S d) == ee d + 3 * nu.
    Proof. unfold ee. rewrite (qn_S (S d)). ring. Qed.
    Lemma ee_0 d : 0 <= ee d.
    Proof. unfold ee. assert (0 <= qn (S d)) by apply qn_nonneg. assert (E0 := eta0). assert (EN := eta_nu). apply Qmult_le_0_compat; lra. Qed.
    Lemma ee_mono d d' : (d <= d')%nat -> ee d <= ee d'.
    Proof.
      intro H. unfold ee. assert (E0 := eta0). assert (EN := eta_nu). apply Qmult_le_compat_r; [|lra].
      assert (qn (S d) <= qn (S d')) by (apply qn_le; lia). lra.
    Qed.
    Lemma ee_bound d : (d <= n)%nat -> ee d <= nw.
    Proof.
      intro H. unfold ee. assert (E0 := eta0). assert (EN := eta_nu). assert (Q1 := qn1).
      assert (A : qn (S d) <= 2 * qn n).
      { rewrite qn_S. assert (qn d <= qn n) by (apply qn_le; auto). lra. }
      assert (B : 3 * qn (S d) * nu <= 6 * qn n * nu) by (apply Qmult_le_compat_r; lra).
      assert (C : 6 * qn n * nu == qn n * (6 * nu)) by ring.
      assert (D : qn n * (6 * nu) <= qn n * W).
      { rewrite !(Qmult_comm (qn n)). apply Qmult_le_compat_r; lra. }
      rewrite Hnw. lra.
    Qed.

    Lemma f_scan_ok : forall todo dn last sum,
      Permutation tps (dn ++ todo) -> StronglySorted Qle todo ->
      Forall (fun t => t <= last) dn -> Forall (fun t => last <= t) todo ->
      - (13 * W) <= last -> last <= 13 * W ->
      near (ee (length dn)) sum (Y last) -> tF < sum ->
      ((0 < m + length dn)%nat \/ exists t0 t, todo = t0 :: t /\ t0 == last /\ tF + (1#2) * eps <= sum) ->
      exists l, f_lam_scan o tF todo sum (- Z.of_nat (m + length dn)) last = Some l /\
        near (ee n + 4 * nu) (Y l) tF /\ - (50 * nw) <= l /\ l <= 50 * nw.
    Proof.
      assert (NW := nw_W). assert (E0 := eta0). assert (EN := eta_nu).
      induction todo as [|tp todo IH]; intros dn last sum HP Hso Hd Ht B1 B2 Hs Hlt Hne; simpl.
      - destruct Hne as [Hne|(t0 & t & Hc & _)]; [|discriminate Hc].
        set (k := (m + length dn)%nat) in *.
        assert (Lk : length dn = length tps) by (apply Permutation_length in HP; rewrite app_length in HP; simpl in HP; lia).
        destruct (- Z.of_nat k =? 0)%Z eqn:Ez; [apply Z.eqb_eq in Ez; lia|].
        assert (EB := ee_bound (length dn) ltac:(lia)). assert (EM := ee_mono (length dn) n ltac:(lia)). assert (EZ := ee_0 (length dn)).
        destruct (HY last B1 B2) as [Y1 Y2]. destruct Hs as [Hs1 Hs2].
        destruct (f_solve tF sum k last ltac:(lia) ltac:(lra) ltac:(lra) ltac:(lra) ltac:(lra)) as ([N1 N2] & _ & G2 & G3 & G4).
        set (l := fadd o (fdiv o (fsub o tF sum) (inject_Z (- Z.of_nat k))) last) in *.
        exists l. split; [reflexivity|]. split; [|auto]. specialize (G2 ltac:(lra)).
        destruct (Qlt_le_dec l last) as [C|C].
        + destruct (yg_lip I (qn m) tps l last (qn_nonneg m) ltac:(lra)) as [A1 A2]. fold Y in A1, A2.
          rewrite <- qn_plus in A2.
          assert (A3 : qn (m + length tps) * (last - l) <= qn n * eta).
          { apply Qle_trans with (qn n * (last - l)).
            - apply Qmult_le_compat_r; [apply qn_le; auto|lra].
            - rewrite !(Qmult_comm (qn n)). apply Qmult_le_compat_r; [lra|assert (K := qn1); lra]. }
          fold nu in A3.
          assert (A4 : qn k * (l - last) <= 0).
          { assert (0 <= qn k * (last - l)) by (apply Qmult_le_0_compat; [apply qn_nonneg|lra]).
            assert (qn k * (l - last) == - (qn k * (last - l))) by ring. lra. }
          split; lra.
        + assert (S := yg_slope I (qn m) tps dn [] last l HP Hd ltac:(constructor) C). fold Y in S.
          rewrite <- qn_plus in S. fold k in S. split; lra.
      - set (k := (m + length dn)%nat) in *.
        inversion Ht as [|? ? Ht1 Ht2]; subst. inversion Hso as [|? ? So1 So2]; subst.
        assert (Lk : (length dn < length tps)%nat).
        { apply Permutation_length in HP. rewrite app_length in HP. simpl in HP. lia. }
        assert (Htp : - (13 * W) <= tp /\ tp <= 13 * W).
        { rewrite Forall_forall in Htps. apply Htps. eapply Permutation_in; [symmetry; exact HP|].
          apply in_or_app. right. left. auto. }
        set (sum' := fadd o sum (fmul o (inject_Z (- Z.of_nat k)) (fsub o tp last))).
        assert (EB := ee_bound (length dn) ltac:(lia)). assert (EZ := ee_0 (length dn)).
        destruct (HY last B1 B2) as [Y1 Y2]. destruct (HY tp (proj1 Htp) (proj2 Htp)) as [Y3 Y4].
        assert (St : Y tp == Y last - qn k * (tp - last)).
        { unfold Y. rewrite (yg_slope I (qn m) tps dn (tp :: todo) last tp HP Hd); auto.
          - rewrite <- qn_plus. reflexivity.
          - constructor; [lra|exact So2]. }
        (* the new sum *)
        set (dd := fsub o tp last) in *. assert (D1 : near eta dd (tp - last)) by (apply f_sub; lra).
        assert (Kn : qn k <= qn n) by (apply qn_le; lia).
        assert (K0 : 0 <= qn k) by apply qn_nonneg.
        assert (Mp : near nu (qn k * dd) (qn k * (tp - last))).
        { apply near_wk with (qn k * eta); [apply k_eta; lia|]. apply mul_near_l; auto. }
        assert (Es : inject_Z (- Z.of_nat k) * dd == - (qn k * dd)) by (rewrite inj_opp_qn; ring).
        assert (Pb : 0 <= qn k * (tp - last) /\ qn k * (tp - last) <= 26 * nw).
        { split; [apply Qmult_le_0_compat; lra|].
          apply Qle_trans with (qn n * (26 * W)).
          - apply Qle_trans with (qn n * (tp - last)).
            + apply Qmult_le_compat_r; lra.
            + rewrite !(Qmult_comm (qn n)). apply Qmult_le_compat_r; lra.
          - rewrite Hnw. assert (qn n * (26 * W) == 26 * (qn n * W)) by ring. lra. }
        destruct Mp as [Mp1 Mp2]. destruct Hs as [Hs1 Hs2].
        assert (F1 : near eta (fmul o (inject_Z (- Z.of_nat k)) dd) (- (qn k * dd))).
        { rewrite <- Es. apply f_mul; rewrite Es; lra. }
        set (fm := fmul o (inject_Z (- Z.of_nat k)) dd) in *. destruct F1 as [F1 F2].
        assert (F3 : near eta sum' (sum + fm)) by (apply f_add; lra). destruct F3 as [F3 F4].
        assert (Ns : near (ee (S (length dn))) sum' (Y tp)).
        { rewrite ee_S. split; lra. }
        change (Qle_bool (fadd o sum (fmul o (inject_Z (- Z.of_nat k)) dd)) tF) with (Qle_bool sum' tF).
        destruct (Qle_bool sum' tF) eqn:Eb.
        + apply Qle_bool_iff in Eb.
          assert (Kne : (0 < k)%nat).
          { destruct Hne as [Hne|(t0 & t & Hc & Hz & Hg)]; auto. inversion Hc; subst t0 t. exfalso.
            assert (Z1 : qn k * (tp - last) == 0).
            { assert (Z : tp - last == 0) by lra. rewrite Z. ring. }
            lra. }
          destruct (- Z.of_nat k =? 0)%Z eqn:Ez; [apply Z.eqb_eq in Ez; lia|].
          assert (EB' := ee_bound (S (length dn)) ltac:(lia)). assert (EZ' := ee_0 (S (length dn))).
          assert (EM := ee_mono (S (length dn)) n ltac:(lia)). assert (EM' := ee_mono (length dn) n ltac:(lia)).
          destruct Ns as [Ns1 Ns2].
          destruct (f_solve tF sum' k tp ltac:(lia) ltac:(lra) ltac:(lra) ltac:(lra) ltac:(lra)) as ([N1 N2] & G1 & _ & G3 & G4).
          change (fadd o sum (fmul o (inject_Z (- Z.of_nat k)) dd)) with sum'.
          set (l := fadd o (fdiv o (fsub o tF sum') (inject_Z (- Z.of_nat k))) tp) in *.
          exists l. split; [reflexivity|]. split; [|auto]. specialize (G1 Eb).
          destruct (Qlt_le_dec tp l) as [C|C].
          * destruct (yg_lip I (qn m) tps tp l (qn_nonneg m) ltac:(lra)) as [A1 A2]. fold Y in A1, A2.
            rewrite <- qn_plus in A2.
            assert (A3 : qn (m + length tps) * (l - tp) <= qn n * eta).
            { apply Qle_trans with (qn n * (l - tp)).
              - apply Qmult_le_compat_r; [apply qn_le; auto|lra].
              - rewrite !(Qmult_comm (qn n)). apply Qmult_le_compat_r; [lra|assert (K := qn1); lra]. }
            fold nu in A3.
            assert (A4 : 0 <= qn k * (l - tp)) by (apply Qmult_le_0_compat; lra).
            split; lra.
          * destruct (Qlt_le_dec l last) as [C'|C'].
            -- destruct (yg_lip I (qn m) tps l last (qn_nonneg m) ltac:(lra)) as [A1 _]. fold Y in A1.
               assert (A2 := yg_left I (qn m) tps dn (tp :: todo) last l (qn_nonneg m) HP Hd ltac:(constructor; auto) ltac:(lra)).
               fold Y in A2. rewrite <- qn_plus in A2. fold k in A2.
               assert (R : qn k * (last - l) == - (qn k * (l - tp)) - qn k * (tp - last)) by ring.
               split; lra.
            -- assert (S := yg_slope I (qn m) tps dn (tp :: todo) last l HP Hd
                 ltac:(constructor; [exact C|eapply Forall_impl; [|exact So2]; simpl; intros; lra]) C').
               fold Y in S. rewrite <- qn_plus in S. fold k in S.
               assert (R : qn k * (l - last) == qn k * (l - tp) + qn k * (tp - last)) by ring.
               split; lra.
        + apply Qle_bool_false in Eb.
          change (fadd o sum (fmul o (inject_Z (- Z.of_nat k)) dd)) with sum'.
          assert (Hz : (- Z.of_nat k - 1)%Z = (- Z.of_nat (m + length (dn ++ [tp])))%Z).
          { rewrite app_length. unfold k. simpl. lia. }
          rewrite Hz. apply (IH (dn ++ [tp]) tp sum'); auto; try tauto.
          * rewrite <- app_assoc. exact HP.
          * apply Forall_app. split; [|constructor; [lra|constructor]].
            eapply Forall_impl; [|exact Hd]. simpl. intros. lra.
          * rewrite app_length. cbn [length]. rewrite Nat.add_comm. exact Ns.
          * left. rewrite app_length. simpl. lia.
    Qed.
  End Scan.

  (** ** compute_lambda *)
  Definition pbnd (p : Q * dbl) : Prop :=
    (- (2 * W) <= fst p /\ fst p <= 2 * W) /\
    match snd p with Fin b => - (8 * W) <= b /\ b <= 8 * W | PInf => True | NaN => False end.

  Lemma small_n k : (k <= n)%nat -> 2 * qn k * u <= 1.
  Proof.
    intro H. assert (Q1 := qn1). assert (NW := nw_W).
    assert (K : qn k * u <= qn n * u) by (apply Qmult_le_compat_r; [apply qn_le; auto|auto]).
    assert (A : qn n * u <= nu).
    { unfold nu, eta. assert (0 <= qn n * u) by (apply Qmult_le_0_compat; lra).
      assert (B := ge1_mul (60 * nw) (qn n * u) ltac:(lra) H0).
      assert (qn n * (u * (60 * nw)) == 60 * nw * (qn n * u)) by ring. lra. }
    assert (2 * qn k * u == 2 * (qn k * u)) by ring. lra.
  Qed.

  (** Sums of at most [n] bounded terms. *)
  Lemma f_sum_n l acc : (length l <= n)%nat -> Qabs acc <= 13 * W -> (forall x, In x l -> Qabs x <= 16 * W) ->
    near nu (fsum o acc l) (acc + qsum (fun x => x) l).
  Proof.
    intros Hl Ha Hx. assert (NW := nw_W). assert (Q1 := qn1).
    assert (S1 : qsum Qabs l <= 16 * nw).
    { apply Qle_trans with (qsum (fun _ => 16 * W) l); [apply qsum_le; auto|]. rewrite qsum_const, Hnw.
      apply Qle_trans with (16 * W * qn n).
      - rewrite !(Qmult_comm (16 * W)). apply Qmult_le_compat_r; [apply qn_le; auto|lra].
      - assert (16 * W * qn n == 16 * (qn n * W)) by ring. lra. }
    apply near_wk with (2 * qn n * u * (30 * nw)).
    - unfold nu, eta. assert (2 * qn n * u * (30 * nw) == qn n * (u * (60 * nw))) by ring. lra.
    - apply (fsum_near u o Hu Ho); auto; [apply small_n; auto|lra].
  Qed.

  Lemma qmin_near e (b c c' : Q) : near e c c' -> 0 <= e ->
    near e (if Qltb b c then b else c) (if Qltb b c' then b else c').
  Proof.
    intros [H1 H2] He. destruct (Qltb b c) eqn:A, (Qltb b c') eqn:B;
      repeat match goal with H : Qltb _ _ = true |- _ => apply Qltb_true in H | H : Qltb _ _ = false |- _ => apply Qltb_false in H end;
      split; lra.
  Qed.

  Lemma f_ycap_near p l : pbnd p -> - (20 * W) <= l -> l <= 20 * W -> near eta (f_ycap o p l) (ycap p l).
  Proof.
    intros [[P1 P2] _] L1 L2. assert (NW := nw_W). assert (E0 := eta0).
    assert (N : near eta (fsub o (fst p) l) (fst p - l)) by (apply f_sub; lra).
    unfold f_ycap, ycap. destruct (snd p); [apply qmin_near; auto|auto|auto].
  Qed.

  Lemma ycap_abs p l L : pbnd p -> 6 * W <= L -> - L <= l -> l <= L -> - (L + 2 * W) <= ycap p l /\ ycap p l <= L + 2 * W.
  Proof.
    intros [[P1 P2] P3] HL L1 L2. destruct (ycap_min p l) as (A & _ & [B|(b & Hb & B)]).
    - lra.
    - rewrite Hb in P3. lra.
  Qed.

  Lemma tps_near ps : Forall pbnd ps -> Forall2 (near eta) (f_turning_points o ps) (turning_points ps).
  Proof.
    assert (NW := nw_W). unfold f_turning_points, turning_points. induction 1 as [|p ps [[H1 H2] H3] _ IH]; simpl; [constructor|].
    destruct (snd p); simpl; auto. constructor; auto. apply f_sub; lra.
  Qed.

  Lemma pos_sum_near l m m' : Forall2 (near eta) m m' ->
    near (qn (length m') * eta) (qsum (fun t => pos (l - t)) m) (qsum (fun t => pos (l - t)) m').
  Proof.
    induction 1 as [|t t' m m' [H1 H2] _ [I1 I2]]; cbn [qsum length].
    - assert (qn 0 * eta == 0) by (change (qn 0) with 0; ring). split; lra.
    - rewrite qn_S. assert (K : near eta (pos (l - t)) (pos (l - t'))).
      { destruct (Qlt_le_dec t t').
        - assert (A := pos_lip (l - t') (l - t) ltac:(lra)). split; lra.
        - assert (A := pos_lip (l - t) (l - t') ltac:(lra)). split; lra. }
      destruct K. assert ((qn (length m') + 1) * eta == qn (length m') * eta + eta) by ring. split; lra.
  Qed.

  Lemma tps_length ps : length (f_turning_points o ps) = length (turning_points ps).
  Proof.
    unfold f_turning_points, turning_points. induction ps as [|p ps IH]; simpl; auto.
    rewrite !app_length, IH. destruct (snd p); auto.
  Qed.

  Lemma f_tps_in ps t : Forall pbnd ps -> In t (f_turning_points o ps) -> - (13 * W) <= t /\ t <= 13 * W.
  Proof.
    intros Hp Ht. unfold f_turning_points in Ht. apply in_flat_map in Ht. destruct Ht as (p & Hin & Ht).
    rewrite Forall_forall in Hp. destruct (Hp p Hin) as [[H1 H2] H3]. assert (NW := nw_W). assert (EN := eta_nu).
    destruct (snd p) as [b| |]; simpl in Ht; [|destruct Ht|destruct Ht]. destruct Ht as [<-|[]].
    assert (N : near eta (fsub o (fst p) b) (fst p - b)) by (apply f_sub; lra). destruct N. lra.
  Qed.

  Lemma fsum_map_eq (g : Q * dbl -> Q) ps : qsum (fun x => x) (map g ps) == qsum g ps.
  Proof. rewrite qsum_map. reflexivity. Qed.

  (** What compute_lambda returns if the arithmetic is exact. *)
  Definition exact_lam (ps : list (Q * dbl)) (tF l : Q) : Prop :=
    near eps (ysum ps l) tF /\ (forall l', l <= l' -> ysum ps l' + (l' - l) <= ysum ps l) /\
    ((forall l', l' < l - eps -> tF < ysum ps l') \/ (forall l', l' <= l -> ysum ps l' == ysum ps l)).

  Theorem f_compute_lambda_ok ps tF l1 :
    Forall pbnd ps -> ps <> [] -> (length ps <= n)%nat -> - (2 * W) <= tF -> tF <= 2 * W ->
    tF <= ysum ps l1 + (1#4) * eps ->
    exists l, f_compute_lambda o eps ps tF = Ok (Some l) /\ near (2 * (qn n * eps)) (ysum ps l) tF /\
      - (50 * nw) <= l /\ l <= 50 * nw /\ (u == 0 -> exact_lam ps tF l).
  Proof.
    intros Hp Hne Hl T1 T2 Hl1. assert (NW := nw_W). assert (E0 := eta0). assert (EN := eta_nu). assert (Q1 := qn1).
    set (m := infinity_count ps). set (tps := f_turning_points o ps). set (Y := yg (yint ps) (qn m) tps).
    assert (Len : (m + length tps = length ps)%nat).
    { unfold m, tps. rewrite tps_length. apply inf_tp_length. }
    assert (YN : forall l, near nu (Y l) (ysum ps l)).
    { intro l. assert (K := pos_sum_near l _ _ (tps_near ps Hp)). rewrite <- tps_length in K. fold tps in K.
      assert (KE := k_eta (length tps) ltac:(lia)). destruct K. unfold Y, yg. rewrite ysum_form. fold m. split; lra. }
    assert (Z0 : u == 0 -> nu == 0) by (intro H; unfold nu, eta; rewrite H; ring).
    assert (YE : nu == 0 -> forall l, ysum ps l == Y l) by (intros H l; destruct (YN l); lra).
    assert (Dr : nu == 0 -> forall l, (1 <= m)%nat \/ (exists t, In t tps /\ t <= l) ->
              forall l', l <= l' -> ysum ps l' + (l' - l) <= ysum ps l).
    { intros H l Hd l' Hl'. rewrite !(YE H). apply yg_drop; auto; [apply qn_nonneg|].
      destruct Hd as [Hd|Hd]; [left; change 1 with (qn 1); apply qn_le; auto|right; auto]. }
    assert (Rho : eps + (3 * qn (S n) + 5) * nu <= 2 * (qn n * eps)).
    { rewrite qn_S.
      assert (A : (3 * (qn n + 1) + 5) * nu <= (11 * qn n) * nu) by (apply Qmult_le_compat_r; lra).
      assert (B : qn n * (24 * nu) <= qn n * eps) by (rewrite !(Qmult_comm (qn n)); apply Qmult_le_compat_r; lra).
      assert (C := ge1_mul (qn n) eps Q1 ltac:(lra)). lra. }
    assert (Rho' : eps + 3 * nu <= 2 * (qn n * eps)).
    { assert (C := ge1_mul (qn n) eps Q1 ltac:(lra)). lra. }
    assert (HY : forall l, - (13 * W) <= l -> l <= 13 * W -> - (20 * nw) <= Y l /\ Y l <= 20 * nw).
    { intros l A B. destruct (YN l) as [Y1 Y2].
      assert (C : - (15 * nw) <= ysum ps l /\ ysum ps l <= 15 * nw).
      { assert (D : qsum (fun _ => 15 * W) ps <= 15 * nw).
        { rewrite qsum_const, Hnw. apply Qle_trans with (15 * W * qn n).
          - rewrite !(Qmult_comm (15 * W)). apply Qmult_le_compat_r; [apply qn_le; auto|lra].
          - assert (15 * W * qn n == 15 * (qn n * W)) by ring. lra. }
        rewrite Forall_forall in Hp.
        assert (D1 : ysum ps l <= qsum (fun _ => 15 * W) ps).
        { apply qsum_le. intros p Hin. destruct (ycap_abs p l (13 * W) (Hp p Hin)); lra. }
        assert (D2 : qsum (fun _ => - (15 * W)) ps <= ysum ps l).
        { apply qsum_le. intros p Hin. destruct (ycap_abs p l (13 * W) (Hp p Hin)); lra. }
        rewrite qsum_const in D, D1, D2. lra. }
      lra. }
    unfold f_compute_lambda. fold tps.
    assert (HP := isort_perm Qltb tps). assert (HS := isortQ_sorted tps).
    destruct (isort Qltb tps) as [|tp t] eqn:Et.
    - apply Permutation_nil in HP. 
      assert (Em : forall (a b : res (option Q)), match ps with [] => a | _ => b end = b) by (intros; destruct ps; congruence).
      rewrite Em. eexists. split; [reflexivity|]. set (k := length ps) in *.
      assert (Kp : 1 <= qn k).
      { change 1 with (qn 1). apply qn_le. unfold k. destruct ps; simpl; [congruence|lia]. }
      set (S := fsum o (- tF) (map fst ps)).
      assert (SN : near nu S (- tF + qsum fst ps)).
      { rewrite <- fsum_map_eq. apply f_sum_n.
        - rewrite map_length. auto.
        - rewrite Qabs_opp. apply Qabs_Qle_condition. lra.
        - intros x Hx. apply in_map_iff in Hx. destruct Hx as (p & <- & Hin). rewrite Forall_forall in Hp.
          destruct (Hp p Hin) as [[A B] _]. apply Qabs_Qle_condition. lra. }
      assert (NT : turning_points ps = []).
      { destruct (turning_points ps) eqn:X; auto. assert (A := tps_length ps). rewrite X in A. fold tps in A. rewrite HP in A. discriminate. }
      assert (YS : forall l, ysum ps l == qsum fst ps - qn k * l) by (apply no_tp; auto).
      assert (FS : - (2 * nw) <= qsum fst ps /\ qsum fst ps <= 2 * nw).
      { rewrite Forall_forall in Hp. assert (D : qsum (fun _ => 2 * W) ps <= 2 * nw).
        { rewrite qsum_const, Hnw. apply Qle_trans with (2 * W * qn n).
          - rewrite !(Qmult_comm (2 * W)). apply Qmult_le_compat_r; [apply qn_le; auto|lra].
          - assert (2 * W * qn n == 2 * (qn n * W)) by ring. lra. }
        assert (D1 : qsum fst ps <= qsum (fun _ => 2 * W) ps) by (apply qsum_le; intros p Hin; apply (Hp p Hin)).
        assert (D2 : qsum (fun _ => - (2 * W)) ps <= qsum fst ps) by (apply qsum_le; intros p Hin; apply (Hp p Hin)).
        rewrite qsum_const in D, D1, D2. lra. }
      destruct SN as [SN1 SN2].
      destruct (div_le S (qn k) (10 * nw) Kp ltac:(lra) ltac:(lra) ltac:(lra)) as [D1 D2].
      assert (QN : near eta (fdiv o S (qn k)) (S / qn k)) by (apply f_div; lra).
      set (l := fdiv o S (qn k)) in *.
      assert (MN : near nu (qn k * l) S).
      { apply near_wk with (qn k * eta); [apply k_eta; auto|].
        assert (ES : S == qn k * (S / qn k)) by (field; lra).
        rewrite ES. apply mul_near_l; [lra|auto]. }
      destruct QN as [QN1 QN2]. destruct MN as [MN1 MN2].
      split; [apply near_wk with (2 * nu); [lra|]; rewrite YS; split; lra|]. split; [lra|]. split; [lra|].
      intro HU. specialize (Z0 HU). assert (M1 : (1 <= m)%nat).
      { assert (K0 : (1 <= length ps)%nat) by (clear -Hne; destruct ps; [congruence|simpl; lia]).
        rewrite HP in Len. cbn [length] in Len. lia. }
      assert (EQ : ysum ps l == tF) by (rewrite YS; lra).
      split; [split; lra|]. split; [apply (Dr Z0); auto|]. left. intros l' Hl'.
      assert (D := Dr Z0 l' (or_introl M1) l ltac:(lra)). lra.
    - cbv zeta. fold m.
      assert (Htp : - (13 * W) <= tp /\ tp <= 13 * W).
      { apply (f_tps_in ps); auto. eapply Permutation_in; [exact HP|left; auto]. }
      assert (Hall : Forall (fun x => tp <= x) (tp :: t)).
      { inversion HS; subst. constructor; [lra|auto]. }
      set (sum := fsum o 0 (map (fun p => f_ycap o p tp) ps)).
      assert (SY : near (2 * nu) sum (ysum ps tp)).
      { assert (A : near nu sum (0 + qsum (fun x => x) (map (fun p => f_ycap o p tp) ps))).
        { apply f_sum_n.
          - rewrite map_length. auto.
          - simpl. lra.
          - intros x Hx. apply in_map_iff in Hx. destruct Hx as (p & <- & Hin). rewrite Forall_forall in Hp.
            destruct (f_ycap_near p tp (Hp p Hin)) as [A1 A2]; [lra|lra|].
            destruct (ycap_abs p tp (13 * W) (Hp p Hin)) as [B1 B2]; try lra. apply Qabs_Qle_condition. lra. }
        rewrite fsum_map_eq in A.
        assert (B : near nu (qsum (fun p => f_ycap o p tp) ps) (ysum ps tp)).
        { apply near_wk with (qn (length ps) * eta); [apply k_eta; auto|]. clear -Hp Htp Hu Ho Hn HW Hnw Heps Heps1 Hu1.
          unfold ysum. assert (NW := nw_W).
          induction Hp as [|p ps Hp0 Hp IH]; cbn [qsum length].
          - assert (qn 0 * eta == 0) by (change (qn 0) with 0; ring). split; lra.
          - rewrite qn_S. destruct IH. destruct (f_ycap_near p tp Hp0) as [A1 A2]; [lra|lra|].
            assert ((qn (length ps) + 1) * eta == qn (length ps) * eta + eta) by ring. split; lra. }
        destruct A, B. split; lra. }
      set (int := fsum o 0 (map (fun p : Q * dbl => match snd p with Fin b => b | _ => fst p end) ps)).
      assert (IN : near nu int (yint ps)).
      { assert (A : near nu int (0 + qsum (fun x => x) (map (fun p : Q * dbl => match snd p with Fin b => b | _ => fst p end) ps))).
        { apply f_sum_n.
          - rewrite map_length. auto.
          - simpl. lra.
          - intros x Hx. apply in_map_iff in Hx. destruct Hx as (p & <- & Hin). rewrite Forall_forall in Hp.
            destruct (Hp p Hin) as [[A B] C]. apply Qabs_Qle_condition. destruct (snd p); lra. }
        rewrite fsum_map_eq in A. destruct A. unfold yint. split; lra. }
      assert (SB : - (25 * nw) <= sum /\ sum <= 25 * nw).
      { destruct (HY tp (proj1 Htp) (proj2 Htp)). destruct (YN tp). destruct SY. lra. }
      assert (AN : near eta (fadd o sum eps) (sum + eps)) by (apply f_add; lra).
      assert (AT : near eta (fadd o tF eps) (tF + eps)) by (apply f_add; lra).
      destruct AN as [AN1 AN2]. destruct AT as [AT1 AT2]. destruct SY as [SY1 SY2].
      assert (Ymin : forall l, l <= tp -> Y l == yint ps - qn m * l).
      { intros l Hle. unfold Y, yg. rewrite (qsum_perm _ _ _ (Permutation_sym HP)), (qsum_zero _ (tp :: t)); [ring|].
        intros x Hx. rewrite Forall_forall in Hall. apply pos_nonpos. specialize (Hall x Hx). lra. }
      assert (Ytp := Ymin tp ltac:(lra)). destruct (YN tp) as [YN1 YN2].
      unfold f_tol_less at 1. destruct (Qltb (fadd o sum eps) tF) eqn:El.
      + apply Qltb_true in El. destruct IN as [IN1 IN2].
        destruct (- Z.of_nat m =? 0)%Z eqn:Ez.
        * exfalso. apply Z.eqb_eq in Ez. assert (H0 : m = 0%nat) by lia.
          assert (U := ysum_le_int ps l1 H0). rewrite H0 in Ytp.
          assert (qn 0 * tp == 0) by (change (qn 0) with 0; ring). lra.
        * apply Z.eqb_neq in Ez. eexists. split; [reflexivity|].
          assert (Kp : 1 <= qn m) by (change 1 with (qn 1); apply qn_le; lia).
          assert (IB : - (40 * nw) <= int /\ int <= 40 * nw).
          { assert (MT : - (13 * nw) <= qn m * tp /\ qn m * tp <= 13 * nw).
            { assert (M1 : qn m * tp <= qn m * (13 * W)) by (rewrite !(Qmult_comm (qn m)); apply Qmult_le_compat_r; lra).
              assert (M2 : qn m * (- (13 * W)) <= qn m * tp) by (rewrite !(Qmult_comm (qn m)); apply Qmult_le_compat_r; lra).
              assert (M3 : qn m * (13 * W) <= qn n * (13 * W)) by (apply Qmult_le_compat_r; [apply qn_le; lia|lra]).
              rewrite Hnw. split; [assert (qn m * - (13 * W) == - (qn m * (13 * W))) by ring|]; lra. }
            destruct (HY tp (proj1 Htp) (proj2 Htp)). lra. }
          set (sl := inject_Z (- Z.of_nat m)). assert (Es : sl == - qn m) by apply inj_opp_qn.
          set (d := fsub o tF int). assert (D1 : near eta d (tF - int)) by (apply f_sub; lra).
          destruct D1 as [D1 D1'].
          destruct (div_le d (qn m) (45 * nw) Kp ltac:(lra) ltac:(lra) ltac:(lra)) as [D3 D4].
          assert (Eq : d / sl == - (d / qn m)) by (rewrite Es; apply div_opp; lra).
          assert (Q2 : near eta (fdiv o d sl) (d / sl)) by (apply f_div; rewrite ?Eq; lra).
          set (l := fdiv o d sl) in *. rewrite Eq in Q2.
          assert (MN : near nu (qn m * l) (- d)).
          { apply near_wk with (qn m * eta); [apply k_eta; lia|].
            assert (ES : - d == qn m * (- (d / qn m))) by (field; lra). rewrite ES. apply mul_near_l; [lra|auto]. }
          destruct MN as [MN1 MN2]. destruct Q2 as [Q2 Q3].
          assert (Hlt : l <= tp).
          { destruct (Qlt_le_dec tp l) as [C|]; auto. exfalso.
            assert (0 <= qn m * (l - tp)) by (apply Qmult_le_0_compat; lra).
            assert (qn m * (l - tp) == qn m * l - qn m * tp) by ring. lra. }
          assert (YL := Ymin l Hlt). destruct (YN l). split; [apply near_wk with (4 * nu); [lra|]; split; lra|].
          split; [lra|]. split; [lra|]. intro HU. specialize (Z0 HU). assert (M1 : (1 <= m)%nat) by lia.
          assert (EQ : ysum ps l == tF) by lra.
          split; [split; lra|]. split; [apply (Dr Z0); auto|]. left. intros l' Hl'.
          assert (D := Dr Z0 l' (or_introl M1) l ltac:(lra)). lra.
      + apply Qltb_false in El. unfold f_tol_different, f_tol_less.
        destruct (Qltb (fadd o tF eps) sum) eqn:Ed.
        * apply Qltb_true in Ed. cbn [orb negb].
          destruct (f_scan_ok (yint ps) m tps tF ltac:(lia)
            ltac:(apply Forall_forall; intros x Hx; apply (f_tps_in ps); auto) (conj T1 T2) HY (tp :: t) [] tp sum
            (Permutation_sym HP) HS ltac:(constructor) Hall (proj1 Htp) (proj2 Htp)) as (l & R1 & R2 & R3 & R4).
          -- assert (EE : 3 * qn (Datatypes.S (@length Q [])) * nu == 3 * nu) by (cbn [length]; change (qn 1) with 1; ring).
             rewrite EE. unfold Y in *. split; lra.
          -- lra.
          -- right. exists tp, t. split; [reflexivity|]. split; [reflexivity|]. lra.
          -- exists l. cbn [length] in R1. rewrite Nat.add_0_r in R1. split; [f_equal; exact R1|].
             destruct (YN l) as [V1 V2]. destruct R2 as [R2a R2b].
             split; [unfold Y in *; apply near_wk with (eps + (3 * qn (S n) + 5) * nu); [lra|];
                     assert ((3 * qn (S n) + 5) * nu == 3 * qn (S n) * nu + 5 * nu) by ring; split; lra|].
             split; [auto|]. split; [auto|]. intro HU. specialize (Z0 HU).
             assert (EZ : 3 * qn (S n) * nu == 0) by (rewrite Z0; ring).
             assert (EQ : ysum ps l == tF) by (unfold Y in *; lra).
             assert (YT : tF + eps < ysum ps tp) by lra.
             assert (Itp : In tp tps) by (eapply Permutation_in; [exact HP|left; auto]).
             assert (Anti : forall a b, a <= b -> ysum ps b <= ysum ps a).
             { intros a b Hab. rewrite !(YE Z0). apply yg_lip; [apply qn_nonneg|auto]. }
             assert (Ltp : tp <= l).
             { destruct (Qlt_le_dec l tp) as [C|C]; auto. exfalso. assert (A := Anti l tp ltac:(lra)). lra. }
             split; [split; lra|]. split; [apply (Dr Z0); eauto|]. left. intros l' Hl'.
             destruct (Qlt_le_dec l' tp) as [C|C]; [assert (A := Anti l' tp ltac:(lra)); lra|].
             assert (D := Dr Z0 l' (or_intror (ex_intro _ tp (conj Itp C))) l ltac:(lra)). lra.
        * apply Qltb_false in Ed.
          assert (Ed2 : Qltb (fadd o sum eps) tF = false) by (apply Qltb_false; auto). rewrite Ed2. cbn [orb negb].
          exists tp. split; [reflexivity|]. split; [apply near_wk with (eps + 3 * nu); [lra|]; split; lra|].
          split; [lra|]. split; [lra|]. intro HU. specialize (Z0 HU).
          assert (Itp : In tp tps) by (eapply Permutation_in; [exact HP|left; auto]).
          assert (NR : near eps (ysum ps tp) tF) by (split; lra).
          split; [exact NR|]. split; [apply (Dr Z0); right; exists tp; split; [auto|lra]|]. destruct NR as [NR1 NR2].
          destruct (Nat.eq_dec m 0) as [Em|Em].
          -- right. intros l' Hl'. rewrite !(YE Z0), (Ymin l' Hl'), Ytp, Em. change (qn 0) with 0. lra.
          -- left. intros l' Hl'. assert (M1 : (1 <= m)%nat) by lia. assert (D := Dr Z0 l' (or_introl M1) tp ltac:(lra)). lra.
  Qed.
End FLam.
