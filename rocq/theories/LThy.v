(** * LThy: the triangular factor of min_norm_base (MWolfe.lmat): adding a column, removing one column. *)
From Verif Require Import Base Graph MHC MAIC SFSpec MNBThy MWolfe WolfeSpec LinThy WolfeThy.

(** ** Entries *)
Lemma lset_length {A} i (a : A) l : (i < length l)%nat -> length (lset i a l) = length l.
Proof. intro H. unfold lset. rewrite app_length, firstn_length. cbn [length]. rewrite skipn_length. lia. Qed.

Lemma lset_nth {A} i (a : A) l t d : (i < length l)%nat -> nth t (lset i a l) d = if (t =? i)%nat then a else nth t l d.
Proof.
  intro H. unfold lset. destruct (Nat.eqb_spec t i) as [->|N].
  - rewrite app_nth2; rewrite firstn_length, Nat.min_l by lia; [|lia]. rewrite Nat.sub_diag. reflexivity.
  - destruct (le_lt_dec i t).
    + rewrite app_nth2; rewrite firstn_length, Nat.min_l by lia; [|lia].
      destruct (t - i)%nat as [|m] eqn:E; [lia|]. cbn [nth].
      rewrite <- (firstn_skipn (S i) l) at 2. rewrite app_nth2; rewrite firstn_length, Nat.min_l by lia; [|lia].
      f_equal. lia.
    + rewrite app_nth1 by (rewrite firstn_length; lia).
      rewrite <- (firstn_skipn i l) at 2. rewrite app_nth1 by (rewrite firstn_length; lia). reflexivity.
Qed.

(** ** A triangular system *)
Lemma back_solve (l : nat -> nat -> Q) : forall k (r : nat -> Q),
  (forall i t, (i < t)%nat -> l i t == 0) -> (forall i, (i < k)%nat -> ~ l i i == 0) ->
  exists c, length c = k /\ forall t, (t < k)%nat -> qsum (fun i => nth i c 0 * l i t) (seq 0 k) == r t.
Proof.
  induction k as [|k IH]; intros r L D; [exists []; split; auto; intros; lia|].
  set (a := r k / l k k).
  destruct (IH (fun t => r t - a * l k t) L) as (c & C1 & C2); [intros; apply D; lia|].
  exists (c ++ [a]). split; [rewrite app_length; simpl; lia|]. intros t Ht.
  rewrite seq_S, qsum_app. cbn [qsum plus]. rewrite app_nth2 by lia. rewrite C1, Nat.sub_diag. cbn [nth].
  rewrite (qsum_ext (fun i => nth i (c ++ [a]) 0 * l i t) (fun i => nth i c 0 * l i t)).
  2:{ intros i Hi. apply in_seq in Hi. rewrite app_nth1 by lia. reflexivity. }
  destruct (le_lt_dec k t) as [G|G].
  - replace t with k by lia. rewrite (qsum_zero (fun i => nth i c 0 * l i k)).
    + unfold a. field. apply D. lia.
    + intros i Hi. apply in_seq in Hi. rewrite L by lia. ring.
  - rewrite C2 by auto. ring.
Qed.

Lemma row_sum row r : (length r <= length row)%nat ->
  qsum (fun c => fst c * snd c) (combine row r) == qsum (fun t => nth t row 0 * nth t r 0) (seq 0 (length r)).
Proof.
  revert row. induction r as [|b r IH]; intros [|a row] H; simpl in H; try lia; try reflexivity.
  cbn [combine qsum length seq fst snd]. rewrite IH by lia. rewrite <- seq_shift, qsum_map. cbn [nth]. reflexivity.
Qed.

Lemma l_solve_ok n M : square n M -> forall rhs r, (length r + length rhs <= S n)%nat ->
  (forall i, (i < length r + length rhs)%nat -> ~ mget M i i == 0) ->
  exists r', l_solve M rhs r = Ok r' /\ length r' = (length r + length rhs)%nat /\ firstn (length r) r' = r /\
    forall i, (i < length rhs)%nat ->
      qsum (fun t => mget M (length r + i) t * nth t r' 0) (seq 0 (S (length r + i))) == nth i rhs 0.
Proof.
  intros [SQ1 SQ2]. induction rhs as [|b rhs IH]; intros r HL HD; cbn [l_solve].
  - exists r. split; auto. split; [cbn [length]; lia|]. split; [apply firstn_all|]. intros i Hi. simpl in Hi. lia.
  - cbn [length] in *. set (m := length r) in *. set (row := nth m M []).
    assert (P : ~ nth m row 0 == 0) by (apply (HD m); lia).
    destruct (Qeq_bool (nth m row 0) 0) eqn:E; [apply Qeq_bool_iff in E; contradiction|].
    set (v := Qred ((b - qsum (fun c => fst c * snd c) (combine row r)) / nth m row 0)).
    destruct (IH (r ++ [v])) as (r' & R1 & R2 & R3 & R4).
    { rewrite app_length. simpl. fold m. lia. }
    { intros i Hi. apply HD. rewrite app_length in Hi. simpl in Hi. fold m in Hi. lia. }
    rewrite app_length in R2, R3, R4. cbn [length] in R2, R3, R4. fold m in R2, R3, R4.
    assert (FR : firstn m r' = r).
    { replace m with (Nat.min m (m + 1)) by lia. rewrite <- firstn_firstn, R3. rewrite firstn_app. fold m.
      rewrite Nat.sub_diag. cbn [firstn]. rewrite app_nil_r. unfold m. apply firstn_all. }
    assert (NR : forall t, (t < m)%nat -> nth t r' 0 = nth t r 0).
    { intros t Ht. rewrite <- FR. rewrite <- (firstn_skipn m r') at 1. apply app_nth1. rewrite firstn_length. lia. }
    assert (NV : nth m r' 0 = v).
    { rewrite <- (firstn_skipn (m + 1) r'), R3. rewrite app_nth1 by (rewrite app_length; simpl; fold m; lia).
      rewrite app_nth2 by (fold m; lia). fold m. rewrite Nat.sub_diag. reflexivity. }
    exists r'. split; [exact R1|]. split; [lia|]. split; [exact FR|].
    intros [|i] Hi.
    + rewrite Nat.add_0_r, seq_S, qsum_app. cbn [qsum plus]. rewrite NV. unfold mget. fold row. cbn [nth].
      rewrite (qsum_ext (fun t => nth t row 0 * nth t r' 0) (fun t => nth t row 0 * nth t r 0)).
      2:{ intros t Ht. apply in_seq in Ht. rewrite NR by lia. reflexivity. }
      unfold v. rewrite Qred_correct, row_sum; [fold m; field; auto|]. unfold row. rewrite SQ2 by lia. fold m. lia.
    + cbn [nth]. replace (m + S i)%nat with (m + 1 + i)%nat by lia. apply R4. lia.
Qed.

(** ** Adding a column *)
Lemma wsum_nth g cols c : length c = length cols ->
  wsum g cols c == qsum (fun i => nth i c 0 * g (nth i cols [])) (seq 0 (length cols)).
Proof.
  revert c. induction cols as [|q cols IH]; intros [|a c] H; simpl in H; try lia; try reflexivity.
  unfold wsum in *. cbn [combine qsum length seq fst snd nth]. rewrite IH by lia. rewrite <- seq_shift, qsum_map. reflexivity.
Qed.

Lemma rp_sym n M r s : rp n M r s == rp n M s r.
Proof. unfold rp. apply qsum_ext. intros. ring. Qed.

Lemma low_sum n r s (x : nat -> Q) : (r <= s)%nat -> (s <= S n)%nat -> (forall t, (r <= t)%nat -> x t == 0) ->
  qsum x (seq 0 s) == qsum x (seq 0 r).
Proof.
  intros H1 H2 H. replace s with (r + (s - r))%nat by lia. rewrite seq_app, qsum_app.
  rewrite (qsum_zero x (seq (0 + r) (s - r))); [ring|]. intros t Ht. apply in_seq in Ht. apply H. lia.
Qed.

Section Add.
  Variables (n : nat) (M cols : list (list Q)) (q : list Q).
  Hypothesis HF : factor n M cols.
  Let k := length cols.

  (** d at IC/src/AIC.hpp:96-99 is a squared distance. *)
  Lemma add_value : exists r, l_solve M (map (fun c => Qred (1 + ldot n c q)) cols) [] = Ok r /\ length r = k /\
    (forall i, (i < k)%nat -> qsum (fun t => mget M i t * nth t r 0) (seq 0 k) == 1 + dot n (vec (nth i cols [])) (vec q)) /\
    exists c, length c = k /\
      1 + dot n (vec q) (vec q) - qsum (fun a => a * a) r ==
      (1 - wsum (fun _ => 1) cols c) * (1 - wsum (fun _ => 1) cols c) +
      dot n (fun j => vec q j - wsum (fun p => nth j p 0) cols c) (fun j => vec q j - wsum (fun p => nth j p 0) cols c).
  Proof.
    destruct HF as (SQ & KN & LOW & DG & GR).
    destruct (l_solve_ok n M SQ (map (fun c => Qred (1 + ldot n c q)) cols) []) as (r & R1 & R2 & _ & R4).
    { rewrite map_length. simpl. lia. }
    { intros i Hi. rewrite map_length in Hi. simpl in Hi. assert (0 < mget M i i) by (apply DG; lia). lra. }
    rewrite map_length in R2, R4. cbn [length plus] in R2, R4. fold k in R2, R4, KN, DG, GR.
    assert (SOL : forall i, (i < k)%nat -> qsum (fun t => mget M i t * nth t r 0) (seq 0 k) == 1 + dot n (vec (nth i cols [])) (vec q)).
    { intros i Hi. rewrite (low_sum n (S i) k); [|lia|lia|].
      - rewrite R4 by auto. rewrite (nth_indep _ 0 (Qred (1 + ldot n [] q))) by (rewrite map_length; auto).
        rewrite (map_nth (fun c => Qred (1 + ldot n c q))). rewrite Qred_correct. reflexivity.
      - intros t Ht. rewrite LOW by lia. ring. }
    exists r. split; auto. split; auto. split; auto.
    destruct (back_solve (fun i t => if (i <=? n)%nat then mget M i t else 0) k (fun t => nth t r 0)) as (c & C1 & C2).
    { intros i t Hit. destruct (Nat.leb_spec i n); [apply LOW; auto|reflexivity]. }
    { intros i Hi. replace (i <=? n)%nat with true by (symmetry; apply Nat.leb_le; lia).
      assert (0 < mget M i i) by (apply DG; auto). lra. }
    assert (C3 : forall t, (t < k)%nat -> qsum (fun i => nth i c 0 * mget M i t) (seq 0 k) == nth t r 0).
    { intros t Ht. rewrite <- C2 by auto. apply qsum_ext. intros i Hi. apply in_seq in Hi.
      replace (i <=? n)%nat with true by (symmetry; apply Nat.leb_le; lia). reflexivity. }
    exists c. split; auto.
    set (x := fun j => wsum (fun p => nth j p 0) cols c). set (s := wsum (fun _ => 1) cols c).
    assert (XC : iscomb n cols c x) by (intros j Hj; unfold x; reflexivity).
    change (fun j => vec q j - wsum (fun p => nth j p 0) cols c) with (fun j => vec q j - x j).
    rewrite dot_sub.
    (* the linear term *)
    assert (E1 : s + dot n (vec q) x == qsum (fun a => a * a) r).
    { rewrite dot_sym, (dot_comb n cols c x (vec q) XC).
      assert (W : s + wsum (fun p => dot n (vec p) (vec q)) cols c == wsum (fun p => 1 + dot n (vec p) (vec q)) cols c).
      { rewrite wsum_plus. reflexivity. }
      rewrite W, wsum_nth by auto. fold k.
      rewrite (qsum_ext _ (fun i => nth i c 0 * qsum (fun t => mget M i t * nth t r 0) (seq 0 k))).
      2:{ intros i Hi. apply in_seq in Hi. rewrite SOL by lia. reflexivity. }
      rewrite (qsum_ext _ (fun i => qsum (fun t => nth t r 0 * (nth i c 0 * mget M i t)) (seq 0 k))).
      2:{ intros i _. rewrite <- qsum_scal. apply qsum_ext. intros. ring. }
      rewrite qsum_swap.
      rewrite (qsum_ext _ (fun t => nth t r 0 * nth t r 0)).
      2:{ intros t Ht. apply in_seq in Ht. rewrite qsum_scal, C3 by lia. reflexivity. }
      rewrite <- R2. clear. induction r as [|a r IH]; cbn [length seq qsum nth]; [reflexivity|].
      rewrite <- seq_shift, qsum_map. cbn [nth]. rewrite IH. reflexivity. }
    (* the quadratic term *)
    assert (E2 : s * s + dot n x x == qsum (fun a => a * a) r).
    { rewrite <- E1. clear E1.
      assert (XX : s * s + dot n x x == wsum (fun p => s + dot n (vec p) x) cols c).
      { rewrite wsum_plus, wsum_const. fold s. rewrite (dot_comb n cols c x x XC). reflexivity. }
      assert (XQ : s + dot n (vec q) x == wsum (fun p => 1 + dot n (vec p) (vec q)) cols c).
      { rewrite wsum_plus. fold s. rewrite dot_sym, (dot_comb n cols c x (vec q) XC). reflexivity. }
      rewrite XX, XQ, !wsum_nth by auto. fold k. apply qsum_ext. intros i Hi. apply in_seq in Hi.
      apply Qmult_comp; [reflexivity|]. rewrite <- SOL by lia.
      assert (XI : s + dot n (vec (nth i cols [])) x == wsum (fun p => 1 + dot n (vec p) (vec (nth i cols []))) cols c).
      { rewrite wsum_plus. fold s. rewrite dot_sym, (dot_comb n cols c x (vec (nth i cols [])) XC). reflexivity. }
      rewrite XI, wsum_nth by auto. fold k.
      rewrite (qsum_ext _ (fun j => qsum (fun t => mget M i t * (nth j c 0 * mget M j t)) (seq 0 k))).
      2:{ intros j Hj. apply in_seq in Hj. rewrite <- GR by lia. unfold rp.
          rewrite <- (qsum_scal (nth j c 0)). rewrite (low_sum n k (S n) (fun t => nth j c 0 * (mget M j t * mget M i t))); [..|].
          - apply qsum_ext. intros. ring.
          - lia.
          - lia.
          - intros t Ht. rewrite (LOW i) by lia. ring. }
      rewrite qsum_swap. apply qsum_ext. intros t Ht. apply in_seq in Ht. rewrite qsum_scal, C3 by lia. reflexivity. }
    lra.
  Qed.
End Add.

Lemma qsum_nth (r : list Q) (f : Q -> Q) : qsum f r == qsum (fun t => f (nth t r 0)) (seq 0 (length r)).
Proof.
  induction r as [|a r IH]; cbn [length seq qsum nth]; [reflexivity|]. rewrite <- seq_shift, qsum_map. cbn [nth]. rewrite IH. reflexivity.
Qed.

Lemma add_ok n sq M cols q : factor n M cols -> (length cols < n)%nat ->
  exists d M', 0 <= d /\ (indep n (cols ++ [q]) -> 0 < d) /\
    lmat_add n sq M cols q = Ok M' /\
    (0 < sq d -> sq d * sq d == d -> factor n M' (cols ++ [q])).
Proof.
  intros HF Hk. set (k := length cols) in *.
  destruct (add_value n M cols q HF) as (r & R1 & R2 & R3 & c & C1 & C2). fold k in R2, R3, C1.
  destruct HF as (SQ & _ & LOW & DG & GR). fold k in DG, GR.
  set (d := Qred (1 + ldot n q q - qsum (fun a => a * a) r)).
  assert (DE : d == 1 + dot n (vec q) (vec q) - qsum (fun a => a * a) r) by (unfold d; rewrite Qred_correct; reflexivity).
  set (s := wsum (fun _ => 1) cols c) in *. set (y := fun j => vec q j - wsum (fun p => nth j p 0) cols c) in *.
  assert (S0 : 0 <= (1 - s) * (1 - s)) by apply sqr_nonneg.
  assert (Y0 := dot_nonneg n y).
  exists d. eexists. split; [lra|]. split; [|split].
  - intro HI. destruct (Qlt_le_dec 0 d) as [G|G]; auto. exfalso.
    assert (Z1 : dot n y y == 0) by lra. assert (Z2 : (1 - s) * (1 - s) == 0) by lra.
    assert (SE : 1 - s == 0) by (destruct (Qmult_integral _ _ Z2); auto).
    assert (K : -(1) == 0).
    { apply (HI (c ++ [-(1)])).
      - rewrite !app_length. simpl. fold k. lia.
      - rewrite wsum_app by auto. fold s. unfold wsum. cbn [combine qsum fst snd]. lra.
      - intros j Hj. rewrite wsum_app by auto. assert (W := dot_zero n y Z1 j Hj). unfold y, vec in W.
        unfold wsum at 2. cbn [combine qsum fst snd]. lra.
      - apply in_or_app. right. left. reflexivity. }
    lra.
  - unfold lmat_add. rewrite R1. cbn [bind]. fold d.
    destruct (Qltb d 0) eqn:E; [apply Qltb_true in E; lra|]. reflexivity.
  - intros P1 P2. fold k. set (M' := lset k (r ++ sq d :: skipn (S k) (nth k M [])) M).
    destruct SQ as [SQ1 SQ2].
    assert (LK : length (nth k M []) = S n) by (apply SQ2; lia).
    assert (G : forall i t, mget M' i t = if (i =? k)%nat then if (t <? k)%nat then nth t r 0 else if (t =? k)%nat then sq d else mget M k t
                                         else mget M i t).
    { intros i t. unfold mget, M'. rewrite lset_nth by lia. destruct (Nat.eqb_spec i k); auto. subst i.
      destruct (Nat.ltb_spec t k); [rewrite app_nth1 by lia; auto|]. rewrite app_nth2 by lia. rewrite R2.
      destruct (Nat.eqb_spec t k); [subst; rewrite Nat.sub_diag; auto|].
      destruct (t - k)%nat as [|m] eqn:E; [lia|]. cbn [nth].
      rewrite <- (firstn_skipn (S k) (nth k M [])) at 2. rewrite app_nth2; rewrite firstn_length, Nat.min_l by lia; [|lia].
      f_equal. lia. }
    split; [|split; [|split; [|split]]].
    + split; [unfold M'; rewrite lset_length; lia|]. intros i Hi. unfold M'. rewrite lset_nth by lia.
      destruct (Nat.eqb_spec i k); [|auto]. rewrite app_length. cbn [length]. rewrite skipn_length, LK. lia.
    + rewrite app_length. simpl. fold k. lia.
    + intros i t Hit Hi. rewrite G. destruct (Nat.eqb_spec i k) as [->|]; [|auto].
      destruct (Nat.ltb_spec t k); [lia|]. destruct (Nat.eqb_spec t k); [lia|]. auto.
    + intros i Hi. rewrite app_length in Hi. simpl in Hi. fold k in Hi. rewrite G. destruct (Nat.eqb_spec i k) as [->|].
      * rewrite Nat.ltb_irrefl, ?Nat.eqb_refl. auto.
      * apply DG. lia.
    + assert (RK : forall i, (i < k)%nat -> rp n M' i k == 1 + dot n (vec (nth i cols [])) (vec q)).
      { intros i Hi. rewrite <- R3 by auto. unfold rp. rewrite (low_sum n k (S n)); [|lia|lia|].
        - apply qsum_ext. intros t Ht. apply in_seq in Ht. rewrite !G, Nat.eqb_refl.
          destruct (Nat.eqb_spec i k); [lia|]. destruct (Nat.ltb_spec t k); [reflexivity|lia].
        - intros t Ht. rewrite (G i t). destruct (Nat.eqb_spec i k); [lia|]. rewrite LOW by lia. ring. }
      intros i j Hi Hj. rewrite app_length in Hi, Hj. cbn [length] in Hi, Hj. fold k in Hi, Hj.
      destruct (Nat.eq_dec i k) as [->|Ni], (Nat.eq_dec j k) as [->|Nj].
      * rewrite app_nth2 by (fold k; lia). fold k. rewrite Nat.sub_diag. cbn [nth].
        unfold rp. rewrite (low_sum n (S k) (S n)); [|lia|lia|].
        -- rewrite seq_S, qsum_app. cbn [qsum plus]. rewrite (qsum_nth r) in DE. rewrite R2 in DE.
           rewrite (qsum_ext (fun t => mget M' k t * mget M' k t) (fun t => nth t r 0 * nth t r 0)).
           2:{ intros t Ht. apply in_seq in Ht. rewrite !G, Nat.eqb_refl. destruct (Nat.ltb_spec t k); [reflexivity|lia]. }
           rewrite !G, Nat.eqb_refl, Nat.ltb_irrefl. lra.
        -- intros t Ht. rewrite !G, Nat.eqb_refl. destruct (Nat.ltb_spec t k); [lia|]. destruct (Nat.eqb_spec t k); [lia|].
           rewrite LOW by lia. ring.
      * rewrite rp_sym, RK by lia. rewrite app_nth2 by (fold k; lia). rewrite app_nth1 by (fold k; lia). fold k.
        rewrite Nat.sub_diag. cbn [nth]. rewrite dot_sym. reflexivity.
      * rewrite RK by lia. rewrite app_nth1 by (fold k; lia). rewrite app_nth2 by (fold k; lia). fold k.
        rewrite Nat.sub_diag. cbn [nth]. reflexivity.
      * rewrite !app_nth1 by (fold k; lia). rewrite <- GR by lia. unfold rp. apply qsum_ext. intros t _. rewrite !G.
        destruct (Nat.eqb_spec i k); [lia|]. destruct (Nat.eqb_spec j k); [lia|]. reflexivity.
Qed.

Lemma init_ok n sq x : (1 <= n)%nat -> let d := 1 + ldot n x x in
  0 < sq d -> sq d * sq d == d -> factor n (l_init (lmat n sq) x) [x].
Proof.
  intros Hn d P1 P2. cbn [lmat l_init]. fold d. set (Z := repeat (repeat 0 (S n)) (S n)).
  assert (ZL : length Z = S n) by apply repeat_length.
  assert (ZR : forall i, (i <= n)%nat -> nth i Z [] = repeat 0 (S n)).
  { intros i Hi. unfold Z. apply (repeat_spec (S n)). apply nth_In. rewrite repeat_length. lia. }
  assert (N0 : forall t m, nth t (repeat 0 m) 0 = 0) by (intros t m; revert t; induction m; intros [|t]; simpl; auto).
  assert (G : forall i t, (i <= n)%nat -> mget (lset 0 (sq d :: repeat 0 n) Z) i t = if (i =? 0)%nat && (t =? 0)%nat then sq d else 0).
  { intros i t Hi. unfold mget. rewrite lset_nth by lia. destruct (Nat.eqb_spec i 0); cbn [andb].
    - destruct t; [reflexivity|]. apply N0.
    - rewrite ZR by auto. apply N0. }
  split; [|split; [|split; [|split]]].
  - split; [rewrite lset_length; lia|]. intros i Hi. rewrite lset_nth by lia. destruct (i =? 0)%nat.
    + simpl. rewrite repeat_length. reflexivity.
    + rewrite ZR by auto. apply repeat_length.
  - simpl. lia.
  - intros i t Hit Hi. rewrite G by auto. destruct (Nat.eqb_spec i 0); cbn [andb]; [|reflexivity].
    destruct (Nat.eqb_spec t 0); [lia|reflexivity].
  - intros i Hi. simpl in Hi. replace i with 0%nat by lia. rewrite G by lia. exact P1.
  - intros i j Hi Hj. simpl in Hi, Hj. replace i with 0%nat by lia. replace j with 0%nat by lia. cbn [nth].
    unfold rp. rewrite (low_sum n 1 (S n)); [|lia|lia|].
    + cbn [seq qsum]. rewrite !G by lia. cbn [Nat.eqb andb]. rewrite P2. unfold d. unfold ldot, dot, vec. ring.
    + intros t Ht. rewrite !G by lia. destruct (Nat.eqb_spec t 0); [lia|]. cbn [Nat.eqb andb]. ring.
Qed.

(** ** Removing one column *)

(** Before the rotation for j: row i is gone, the rows between i and j have been shifted by one. *)
Definition hess (n i j : nat) (M : list (list Q)) : Prop :=
  forall r t, (r <= n)%nat -> (if (i <? r)%nat && (r <=? j)%nat then (r <= t)%nat else (r < t)%nat) -> mget M r t == 0.
Definition hdiag (k i j : nat) (M : list (list Q)) : Prop :=
  forall r, (r < k)%nat -> r <> i -> 0 < mget M r (if (i <? r)%nat && (r <=? j)%nat then r - 1 else r).

Lemma rot_entries n sq k j M : square n M -> (S j <= k)%nat -> (k <= n)%nat ->
  let a := mget M (S j) j in let b := mget M (S j) (S j) in let c := sq (a * a + b * b) in
  ~ c == 0 -> exists M', lmat_rot sq k j M = Ok M' /\ square n M' /\
    forall r t, (r <= n)%nat -> mget M' r t ==
      if (S j <=? r)%nat && (r <=? k)%nat
      then if (t =? j)%nat then mget M r j * (a / c) + mget M r (S j) * (b / c)
           else if (t =? S j)%nat then mget M r j * - (b / c) + mget M r (S j) * (a / c)
           else mget M r t
      else mget M r t.
Proof.
  intros [SQ1 SQ2] Hj Hk a b c Hc. unfold lmat_rot. fold a b. fold c.
  destruct (Qeq_bool c 0) eqn:E; [apply Qeq_bool_iff in E; contradiction|].
  eexists. split; [reflexivity|].
  set (f := fun r => let row := nth r M [] in if (S j <=? r)%nat && (r <=? k)%nat then _ else row).
  assert (NF : forall r, (r <= n)%nat -> nth r (map f (seq 0 (length M))) [] = f r).
  { intros r Hr. rewrite (nth_indep _ [] (f 0%nat)) by (rewrite map_length, seq_length; lia).
    rewrite map_nth, seq_nth by lia. reflexivity. }
  split.
  - split; [rewrite map_length, seq_length; auto|]. intros r Hr. rewrite NF by auto. unfold f.
    destruct ((S j <=? r)%nat && (r <=? k)%nat); auto. rewrite !lset_length; rewrite ?lset_length; rewrite SQ2; lia.
  - intros r t Hr. unfold mget at 1. rewrite NF by auto. unfold f.
    destruct ((S j <=? r)%nat && (r <=? k)%nat) eqn:E2; [|reflexivity].
    assert (L := SQ2 r Hr). rewrite lset_nth by (rewrite lset_length; lia).
    destruct (Nat.eqb_spec t j); [rewrite Qred_correct; reflexivity|]. rewrite lset_nth by lia.
    destruct (Nat.eqb_spec t (S j)); [rewrite Qred_correct; reflexivity|reflexivity].
Qed.

Lemma rp_two n M r s j : (S j <= n)%nat ->
  rp n M r s == qsum (fun t => if (t =? j)%nat || (t =? S j)%nat then 0 else mget M r t * mget M s t) (seq 0 (S n)) +
    mget M r j * mget M s j + mget M r (S j) * mget M s (S j).
Proof.
  intro Hj. unfold rp.
  rewrite <- (qsum_delta (S n) j (mget M r j * mget M s j)) by lia.
  rewrite <- (qsum_delta (S n) (S j) (mget M r (S j) * mget M s (S j))) by lia.
  rewrite <- !qsum_plus. apply qsum_ext. intros t _.
  destruct (Nat.eqb_spec t j) as [->|]; cbn [orb].
  - destruct (Nat.eqb_spec j (S j)); [lia|]. ring.
  - destruct (Nat.eqb_spec t (S j)) as [->|]; ring.
Qed.

Lemma rot_step n sq k i j M : square n M -> (i <= j)%nat -> (S j < k)%nat -> (k <= n)%nat ->
  hess n i j M -> hdiag k i j M ->
  let s := mget M (S j) j * mget M (S j) j + mget M (S j) (S j) * mget M (S j) (S j) in
  0 <= sq s -> sq s * sq s == s ->
  exists M', lmat_rot sq k j M = Ok M' /\ square n M' /\ hess n i (S j) M' /\ hdiag k i (S j) M' /\
    forall r u, (r < k)%nat -> (u < k)%nat -> r <> i -> u <> i -> rp n M' r u == rp n M r u.
Proof.
  intros SQ Hij Hjk Hk HH HD s P1 P2.
  set (a := mget M (S j) j) in *. set (b := mget M (S j) (S j)) in *.
  assert (B0 : 0 < b).
  { assert (K := HD (S j) Hjk ltac:(lia)). replace ((i <? S j)%nat && (S j <=? j)%nat) with false in K; auto.
    symmetry. apply andb_false_iff. right. apply Nat.leb_gt. lia. }
  assert (S0 : 0 < s).
  { assert (0 <= a * a) by apply sqr_nonneg. assert (0 < b * b) by (apply Qmult_lt_0_compat; auto). unfold s. lra. }
  set (c := sq s) in *.
  assert (C0 : 0 < c).
  { destruct (Qlt_le_dec 0 c); auto. assert (c == 0) by lra. assert (c * c == 0) by (rewrite H; ring). lra. }
  destruct (rot_entries n sq k j M SQ ltac:(lia) Hk) as (M' & E1 & E2 & E3). { fold a b. fold s. fold c. lra. }
  fold a b in E3. fold s in E3. fold c in E3.
  exists M'. split; auto. split; auto.
  assert (CC : a / c * (a / c) + b / c * (b / c) == 1).
  { setoid_replace (a / c * (a / c) + b / c * (b / c)) with ((a * a + b * b) / (c * c)) by (field; lra).
    rewrite P2. unfold s. field. intro Z. unfold s in S0. lra. }
  assert (ROT : forall r, (S j <= r)%nat -> (r <= k)%nat -> mget M' r j == mget M r j * (a / c) + mget M r (S j) * (b / c) /\
     mget M' r (S j) == mget M r j * - (b / c) + mget M r (S j) * (a / c)).
  { intros r H1 H2. rewrite !E3 by lia.
    replace ((S j <=? r)%nat && (r <=? k)%nat) with true by (symmetry; apply andb_true_iff; split; apply Nat.leb_le; lia).
    rewrite Nat.eqb_refl. destruct (Nat.eqb_spec (S j) j); [lia|]. rewrite Nat.eqb_refl. split; reflexivity. }
  assert (OLD : forall r t, (r <= n)%nat -> (r <= j)%nat \/ (k < r)%nat \/ t <> j /\ t <> S j -> mget M' r t == mget M r t).
  { intros r t Hr H. rewrite E3 by auto. destruct ((S j <=? r)%nat && (r <=? k)%nat) eqn:E; [|reflexivity].
    apply andb_true_iff in E. destruct E as [E4 E5]. apply Nat.leb_le in E4, E5.
    destruct (Nat.eqb_spec t j); [lia|]. destruct (Nat.eqb_spec t (S j)); [lia|]. reflexivity. }
  split; [|split].
  - intros r t Hr Ht.
    destruct (Nat.eq_dec r (S j)) as [->|NR].
    + replace ((i <? S j)%nat && (S j <=? S j)%nat) with true in Ht.
      2:{ symmetry. apply andb_true_iff. split; [apply Nat.ltb_lt|apply Nat.leb_le]; lia. }
      destruct (Nat.eq_dec t (S j)) as [->|NT].
      * destruct (ROT (S j) ltac:(lia) ltac:(lia)) as [_ ->]. fold a b. field. lra.
      * rewrite OLD by lia. apply HH; auto.
        replace ((i <? S j)%nat && (S j <=? j)%nat) with false; [lia|]. symmetry. apply andb_false_iff. right. apply Nat.leb_gt. lia.
    + assert (HT : if (i <? r)%nat && (r <=? j)%nat then (r <= t)%nat else (r < t)%nat).
      { destruct (i <? r)%nat; cbn [andb] in *; auto. destruct (Nat.leb_spec r (S j)), (Nat.leb_spec r j); auto; lia. }
      destruct (le_lt_dec r j) as [RJ|RJ]; [rewrite OLD by lia; apply HH; auto|].
      destruct (le_lt_dec r k) as [RK|RK]; [|rewrite OLD by lia; apply HH; auto].
      (* S j < r <= k: the columns j and S j lie left of the diagonal *)
      assert (TT : (r < t)%nat).
      { destruct (i <? r)%nat; cbn [andb] in Ht; auto. destruct (Nat.leb_spec r (S j)); auto. lia. }
      rewrite OLD by lia. apply HH; auto.
  - intros r Hr Ni. destruct (Nat.eq_dec r (S j)) as [->|NR].
    + replace ((i <? S j)%nat && (S j <=? S j)%nat) with true.
      2:{ symmetry. apply andb_true_iff. split; [apply Nat.ltb_lt|apply Nat.leb_le]; lia. }
      replace (S j - 1)%nat with j by lia. destruct (ROT (S j) ltac:(lia) ltac:(lia)) as [-> _]. fold a b.
      setoid_replace (a * (a / c) + b * (b / c)) with (s / c) by (unfold s; field; lra).
      apply Qlt_shift_div_l; auto. lra.
    + assert (K := HD r Hr Ni).
      assert (EQ : (i <? r)%nat && (r <=? S j)%nat = (i <? r)%nat && (r <=? j)%nat).
      { f_equal. destruct (Nat.leb_spec r (S j)), (Nat.leb_spec r j); auto; lia. }
      rewrite EQ. rewrite OLD; auto; [lia|].
      destruct (le_lt_dec r j); [auto|]. right; right.
      replace ((i <? r)%nat && (r <=? j)%nat) with false; [lia|]. symmetry. apply andb_false_iff. right. apply Nat.leb_gt. lia.
  - intros r u Hr Hu Ni Nu. rewrite (rp_two n M' r u j), (rp_two n M r u j) by lia.
    assert (REST : qsum (fun t => if (t =? j)%nat || (t =? S j)%nat then 0 else mget M' r t * mget M' u t) (seq 0 (S n)) ==
                   qsum (fun t => if (t =? j)%nat || (t =? S j)%nat then 0 else mget M r t * mget M u t) (seq 0 (S n))).
    { apply qsum_ext. intros t _. destruct (Nat.eqb_spec t j); [reflexivity|]. destruct (Nat.eqb_spec t (S j)); [reflexivity|].
      cbn [orb]. rewrite !OLD by lia. reflexivity. }
    rewrite REST.
    assert (ZERO : forall r, (r <= j)%nat -> r <> i -> mget M r j == 0 /\ mget M r (S j) == 0).
    { intros r0 H1 H2. split; apply HH; try lia.
      - destruct (Nat.ltb_spec i r0); cbn [andb]; [|lia]. destruct (Nat.leb_spec r0 j); lia.
      - destruct ((i <? r0)%nat && (r0 <=? j)%nat); lia. }
    destruct (le_lt_dec r j) as [RJ|RJ], (le_lt_dec u j) as [UJ|UJ].
    + rewrite !(OLD r), !(OLD u) by lia. reflexivity.
    + destruct (ZERO r RJ Ni) as [Z1 Z2]. rewrite !(OLD r), Z1, Z2 by lia. ring.
    + destruct (ZERO u UJ Nu) as [Z1 Z2]. rewrite !(OLD u), Z1, Z2 by lia. ring.
    + destruct (ROT r ltac:(lia) ltac:(lia)) as [-> ->]. destruct (ROT u ltac:(lia) ltac:(lia)) as [-> ->].
      set (p := mget M r j). set (p' := mget M r (S j)). set (w := mget M u j). set (w' := mget M u (S j)).
      set (x := a / c) in *. set (y := b / c) in *.
      assert (ID : (p * x + p' * y) * (w * x + w' * y) + (p * - y + p' * x) * (w * - y + w' * x) == (p * w + p' * w') * (x * x + y * y)) by ring.
      rewrite CC in ID. lra.
Qed.

Lemma rots_ok n sq k i : (k <= n)%nat -> forall m j M, (j + m = k - 1)%nat -> (i <= j)%nat -> (j < k)%nat ->
  square n M -> hess n i j M -> hdiag k i j M -> rots_exact sq k (seq j m) M ->
  exists M', lmat_rots sq k (seq j m) M = Ok M' /\ square n M' /\ hess n i (k - 1) M' /\ hdiag k i (k - 1) M' /\
    forall r u, (r < k)%nat -> (u < k)%nat -> r <> i -> u <> i -> rp n M' r u == rp n M r u.
Proof.
  intros Hk. induction m as [|m IH]; intros j M Hm Hij Hjk SQ HH HD HE; cbn [seq lmat_rots rots_exact] in *.
  - replace j with (k - 1)%nat in * by lia. exists M. split; auto. split; auto. split; auto. split; auto. intros. reflexivity.
  - destruct HE as (P1 & P2 & P3).
    destruct (rot_step n sq k i j M SQ Hij ltac:(lia) Hk HH HD P1 P2) as (M1 & E1 & E2 & E3 & E4 & E5).
    rewrite E1. cbn [bind].
    destruct (IH (S j) M1 ltac:(lia) ltac:(lia) ltac:(lia) E2 E3 E4 (P3 M1 E1)) as (M' & F1 & F2 & F3 & F4 & F5).
    exists M'. split; auto. split; auto. split; auto. split; auto. intros r u Hr Hu Ni Nu. rewrite F5, E5 by auto. reflexivity.
Qed.

Lemma dels_none sq k m : forall i M, lmat_dels sq k i (repeat false m) M = Ok M.
Proof. induction m as [|m IH]; intros i M; cbn [repeat lmat_dels bind]; auto. Qed.

Lemma dels_one sq k m : forall i0 i M, lmat_dels sq k i0 (one_mark i m) M = lmat_rots sq k (seq (i0 + i) (k - 1 - (i0 + i))) M.
Proof.
  intros i0 i. revert i0. induction i as [|i IH]; intros i0 M.
  - unfold one_mark. cbn [repeat app lmat_dels]. rewrite Nat.add_0_r. destruct (lmat_rots _ _ _ _) as [M'| | |]; cbn [bind]; auto.
    apply dels_none.
  - unfold one_mark in *. cbn [repeat app lmat_dels bind]. rewrite IH. replace (S i0 + i)%nat with (i0 + S i)%nat by lia. reflexivity.
Qed.

Lemma keep_none {A} m (l : list A) : keep (repeat false m) l = firstn m l.
Proof.
  revert l. induction m as [|m IH]; intros [|a l]; cbn [repeat firstn]; try reflexivity.
  rewrite keep_cons, IH. reflexivity.
Qed.
Lemma keep_one {A} i m (l : list A) : keep (one_mark i m) l = firstn i l ++ firstn m (skipn (S i) l).
Proof.
  unfold one_mark. revert l. induction i as [|i IH]; intros [|a l].
  - cbn [repeat app firstn skipn]. rewrite firstn_nil. reflexivity.
  - cbn [repeat app firstn skipn]. rewrite keep_cons, keep_none. reflexivity.
  - cbn [repeat app firstn skipn]. rewrite firstn_nil. reflexivity.
  - cbn [repeat app firstn]. rewrite keep_cons, IH. reflexivity.
Qed.

Lemma keep_one_nth {A} i m (l : list A) r d : (i + S m <= length l)%nat -> (r < i + m)%nat ->
  nth r (keep (one_mark i m) l) d = nth (if (r <? i)%nat then r else S r) l d.
Proof.
  intros HL Hr. rewrite keep_one. destruct (Nat.ltb_spec r i).
  - rewrite app_nth1 by (rewrite firstn_length; lia). rewrite <- (firstn_skipn i l) at 2. rewrite app_nth1 by (rewrite firstn_length; lia). reflexivity.
  - rewrite app_nth2; rewrite firstn_length, Nat.min_l by lia; [|lia].
    rewrite <- (firstn_skipn (S i) l) at 2. rewrite app_nth2; rewrite firstn_length, Nat.min_l by lia; [|lia].
    replace (S r - S i)%nat with (r - i)%nat by lia.
    rewrite <- (firstn_skipn m (skipn (S i) l)) at 2. rewrite app_nth1; auto. rewrite firstn_length, skipn_length. lia.
Qed.
Lemma keep_one_length {A} i m (l : list A) : (i + S m <= length l)%nat -> length (keep (one_mark i m) l) = (i + m)%nat.
Proof. intro H. rewrite keep_one, app_length, !firstn_length, skipn_length. lia. Qed.

Lemma del_ok n sq M cols i m : factor n M cols -> length cols = (i + S m)%nat ->
  rots_exact sq (length cols) (seq i m) M ->
  exists M', lmat_del sq M (one_mark i m) = Ok M' /\ factor n M' (keep (one_mark i m) cols).
Proof.
  intros (SQ & KN & LOW & DG & GR) HL HE. set (k := length cols) in *.
  assert (DL : length (one_mark i m) = k) by (unfold one_mark; rewrite app_length; cbn [length]; rewrite !repeat_length; lia).
  destruct (rots_ok n sq k i KN m i M) as (M1 & E1 & [E2 E2'] & E3 & E4 & E5); auto; try lia.
  { intros r t Hr Ht. apply LOW; auto. destruct (Nat.ltb_spec i r), (Nat.leb_spec r i); cbn [andb] in Ht; lia. }
  { intros r Hr Ni. replace ((i <? r)%nat && (r <=? i)%nat) with false; [apply DG; auto|].
    destruct (Nat.ltb_spec i r), (Nat.leb_spec r i); auto; lia. }
  unfold lmat_del. rewrite DL, dels_one. replace (0 + i)%nat with i by lia. replace (k - 1 - i)%nat with m by lia.
  rewrite E1. cbn [bind]. eexists. split; [reflexivity|].
  assert (KL : length (keep (one_mark i m) M1) = (i + m)%nat) by (apply keep_one_length; lia).
  rewrite KL. set (M' := keep (one_mark i m) M1 ++ skipn (i + m) M1).
  assert (G : forall r, (r <= n)%nat -> nth r M' [] = nth (if (i <=? r)%nat && (r <? i + m)%nat then S r else r) M1 []).
  { intros r Hr. unfold M'. destruct (Nat.ltb_spec r (i + m)).
    - rewrite app_nth1 by lia. rewrite keep_one_nth by lia. rewrite andb_true_r.
      destruct (Nat.leb_spec i r), (Nat.ltb_spec r i); auto; lia.
    - rewrite andb_false_r. rewrite app_nth2 by lia. rewrite KL.
      rewrite <- (firstn_skipn (i + m) M1) at 2. rewrite app_nth2; rewrite firstn_length, Nat.min_l by lia; [reflexivity|lia]. }
  assert (GM : forall r t, (r <= n)%nat -> mget M' r t = mget M1 (if (i <=? r)%nat && (r <? i + m)%nat then S r else r) t).
  { intros r t Hr. unfold mget. rewrite G by auto. reflexivity. }
  split; [|split; [|split; [|split]]].
  - split.
    + unfold M'. rewrite app_length, KL, skipn_length. lia.
    + intros r Hr. rewrite G by auto. apply E2'. destruct (Nat.leb_spec i r), (Nat.ltb_spec r (i + m)); cbn [andb]; lia.
  - rewrite keep_one_length by lia. lia.
  - intros r t Hrt Hr. rewrite GM by auto. apply E3.
    + destruct (Nat.leb_spec i r), (Nat.ltb_spec r (i + m)); cbn [andb]; lia.
    + destruct (Nat.leb_spec i r), (Nat.ltb_spec r (i + m)); cbn [andb].
      * replace ((i <? S r)%nat && (S r <=? k - 1)%nat) with true; [lia|].
        symmetry. apply andb_true_iff. split; [apply Nat.ltb_lt|apply Nat.leb_le]; lia.
      * destruct ((i <? r)%nat && (r <=? k - 1)%nat); lia.
      * destruct ((i <? r)%nat && (r <=? k - 1)%nat); lia.
      * destruct ((i <? r)%nat && (r <=? k - 1)%nat); lia.
  - intros r Hr. rewrite keep_one_length in Hr by lia. rewrite GM by lia.
    destruct (Nat.leb_spec i r), (Nat.ltb_spec r (i + m)); cbn [andb]; try lia.
    + assert (K := E4 (S r) ltac:(lia) ltac:(lia)).
      replace ((i <? S r)%nat && (S r <=? k - 1)%nat) with true in K.
      2:{ symmetry. apply andb_true_iff. split; [apply Nat.ltb_lt|apply Nat.leb_le]; lia. }
      replace (S r - 1)%nat with r in K by lia. exact K.
    + assert (K := E4 r ltac:(lia) ltac:(lia)).
      replace ((i <? r)%nat && (r <=? k - 1)%nat) with false in K; auto.
      symmetry. apply andb_false_iff. left. apply Nat.ltb_ge. lia.
  - intros r s Hr Hs. rewrite keep_one_length in Hr, Hs by lia.
    rewrite !keep_one_nth by (fold k; lia).
    set (r' := if (r <? i)%nat then r else S r). set (s' := if (s <? i)%nat then s else S s).
    assert (Fr : (if (i <=? r)%nat && (r <? i + m)%nat then S r else r) = r').
    { unfold r'. destruct (Nat.leb_spec i r), (Nat.ltb_spec r (i + m)), (Nat.ltb_spec r i); cbn [andb]; auto; lia. }
    assert (Fs : (if (i <=? s)%nat && (s <? i + m)%nat then S s else s) = s').
    { unfold s'. destruct (Nat.leb_spec i s), (Nat.ltb_spec s (i + m)), (Nat.ltb_spec s i); cbn [andb]; auto; lia. }
    assert (r' < k /\ r' <> i)%nat by (unfold r'; destruct (Nat.ltb_spec r i); lia).
    assert (s' < k /\ s' <> i)%nat by (unfold s'; destruct (Nat.ltb_spec s i); lia).
    rewrite <- GR by tauto. rewrite <- E5 by tauto. unfold rp. apply qsum_ext. intros t _.
    rewrite !GM by lia. rewrite Fr, Fs. reflexivity.
Qed.
