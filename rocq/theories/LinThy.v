(** * LinThy: weighted sums of columns, affine independence, dimension. *)
From Verif Require Import Base Graph SubThy MHC MAIC SFSpec MWolfe WolfeSpec.

Lemma wsum_ext g h cols c : (forall q, In q cols -> g q == h q) -> wsum g cols c == wsum h cols c.
Proof.
  intro H. apply qsum_ext. intros [q a] Hp. simpl. apply in_combine_l in Hp. rewrite (H q Hp). reflexivity.
Qed.

Lemma wsum_plus g h cols c : wsum (fun q => g q + h q) cols c == wsum g cols c + wsum h cols c.
Proof. unfold wsum. rewrite <- qsum_plus. apply qsum_ext. intros. ring. Qed.

Lemma wsum_scal t g cols c : wsum (fun q => t * g q) cols c == t * wsum g cols c.
Proof. unfold wsum. rewrite <- qsum_scal. apply qsum_ext. intros. ring. Qed.

Lemma wsum_const t cols c : wsum (fun _ => t) cols c == t * wsum (fun _ => 1) cols c.
Proof. rewrite <- wsum_scal. apply wsum_ext. intros. ring. Qed.

Lemma wsum_app g cols cols' c c' : length c = length cols ->
  wsum g (cols ++ cols') (c ++ c') == wsum g cols c + wsum g cols' c'.
Proof.
  unfold wsum. revert c. induction cols as [|q cols IH]; destruct c as [|a c]; simpl; intro H; try discriminate.
  - ring.
  - rewrite IH by lia. ring.
Qed.

Lemma wsum_qsum {A} (h : A -> list Q -> Q) l cols c :
  wsum (fun q => qsum (fun i => h i q) l) cols c == qsum (fun i => wsum (h i) cols c) l.
Proof.
  unfold wsum. induction l as [|i l IH]; simpl.
  - apply qsum_zero. intros. ring.
  - rewrite <- IH, <- qsum_plus. apply qsum_ext. intros. ring.
Qed.

Lemma wsum_ones cols c : length c = length cols -> wsum (fun _ => 1) cols c == qsum (fun a => a) c.
Proof.
  unfold wsum. revert c. induction cols as [|q cols IH]; destruct c as [|a c]; simpl; intro H; try discriminate; [reflexivity|].
  rewrite IH by lia. ring.
Qed.

(** [x] is the combination of the columns with coefficients [c]. *)
Definition iscomb (n : nat) (cols : list (list Q)) (c : list Q) (x : nat -> Q) : Prop :=
  forall j, (j < n)%nat -> x j == wsum (fun q => nth j q 0) cols c.

Lemma lcomb_ok n cols c : iscomb n cols c (vec (lcomb n cols c)).
Proof.
  intros j H. unfold vec, lcomb.
  rewrite (nth_indep _ 0 ((fun j => Qred (qsum (fun p => snd p * nth j (fst p) 0) (combine cols c))) 0%nat))
    by (rewrite map_length, seq_length; auto).
  rewrite (map_nth (fun j => Qred (qsum (fun p => snd p * nth j (fst p) 0) (combine cols c)))), seq_nth by auto.
  rewrite Qred_correct. reflexivity.
Qed.

Lemma dot_comb n cols c x y : iscomb n cols c x -> dot n x y == wsum (fun q => dot n (vec q) y) cols c.
Proof.
  intro H. unfold dot. rewrite wsum_qsum. apply qsum_ext. intros i Hi. apply in_seq in Hi.
  rewrite (H i) by lia. rewrite (wsum_ext (fun q => vec q i * y i) (fun q => y i * nth i q 0)) by (intros; unfold vec; ring).
  rewrite wsum_scal. ring.
Qed.

Lemma dot_sym n x y : dot n x y == dot n y x.
Proof. apply qsum_ext. intros. ring. Qed.

Lemma dot_nonneg n x : 0 <= dot n x x.
Proof.
  apply qsum_nonneg. intros i _. destruct (Qlt_le_dec (x i) 0).
  - setoid_replace (x i * x i) with ((- x i) * (- x i)) by ring. apply Qmult_le_0_compat; lra.
  - apply Qmult_le_0_compat; auto.
Qed.

Lemma dot_zero n x : dot n x x == 0 -> forall i, (i < n)%nat -> x i == 0.
Proof.
  intros H i Hi. unfold dot in H.
  assert (K : x i * x i == 0).
  { apply (qsum_all_zero (fun i => x i * x i) (seq 0 n)); [|lra|apply in_seq; lia].
    intros j _. destruct (Qlt_le_dec (x j) 0).
    - setoid_replace (x j * x j) with ((- x j) * (- x j)) by ring. apply Qmult_le_0_compat; lra.
    - apply Qmult_le_0_compat; auto. }
  apply Qmult_integral in K. tauto.
Qed.

Lemma dot_sub n x y : dot n (fun i => x i - y i) (fun i => x i - y i) == dot n x x - 2 * dot n x y + dot n y y.
Proof.
  unfold dot. setoid_replace (qsum (fun i => x i * x i) (seq 0 n) - 2 * qsum (fun i => x i * y i) (seq 0 n) + qsum (fun i => y i * y i) (seq 0 n))
    with (qsum (fun i => x i * x i) (seq 0 n) + (qsum (fun i => (-2) * (x i * y i)) (seq 0 n) + qsum (fun i => y i * y i) (seq 0 n)))
    by (rewrite qsum_scal; ring).
  rewrite <- !qsum_plus. apply qsum_ext. intros. ring.
Qed.

(** ** Deletion of columns *)
Fixpoint spread (del : list bool) (c : list Q) : list Q :=
  match del with
  | [] => []
  | true :: t => 0 :: spread t c
  | false :: t => match c with [] => 0 :: spread t [] | a :: c' => a :: spread t c' end
  end.

Lemma spread_length del c : length (spread del c) = length del.
Proof. revert c. induction del as [|[|] del IH]; intro c; simpl; auto. destruct c; simpl; auto. Qed.

Lemma keep_cons {A} d del (a : A) l : keep (d :: del) (a :: l) = if d then keep del l else a :: keep del l.
Proof. unfold keep. simpl. destruct d; reflexivity. Qed.

Lemma keep_nil {A} (l : list A) : keep [] l = [].
Proof. reflexivity. Qed.

Lemma keep_nil_r {A} del : keep del (@nil A) = [].
Proof. destruct del as [|[|] ?]; reflexivity. Qed.

Lemma wsum_spread g del cols c : length del = length cols -> length c = length (keep del cols) ->
  wsum g cols (spread del c) == wsum g (keep del cols) c.
Proof.
  revert del c. induction cols as [|q cols IH]; intros [|d del] c H1 H2; simpl in H1; try discriminate.
  - reflexivity.
  - rewrite keep_cons in *. destruct d; simpl in *.
    + unfold wsum in *. simpl. rewrite (IH del c) by lia. ring.
    + destruct c as [|a c]; [discriminate|]. simpl in H2. unfold wsum in *. simpl. rewrite (IH del c) by lia. reflexivity.
Qed.

Lemma spread_In del (cols : list (list Q)) c a : length del = length cols -> length c = length (keep del cols) ->
  In a c -> In a (spread del c).
Proof.
  revert del c. induction cols as [|q cols IH]; intros [|d del] c H1 H2 Ha; simpl in H1; try discriminate.
  - rewrite keep_nil in H2. destruct c; [destruct Ha|discriminate].
  - rewrite keep_cons in H2. destruct d; simpl.
    + right. apply IH; auto.
    + destruct c as [|b c]; [destruct Ha|]. simpl in *. destruct Ha as [->|Ha]; auto.
Qed.

Lemma keep_incl {A} del (l : list A) x : In x (keep del l) -> In x l.
Proof.
  unfold keep. rewrite in_map_iff. intros ([d y] & <- & H). apply filter_In in H. destruct H as [H _].
  apply in_combine_r in H. auto.
Qed.

Lemma indep_keep n del cols : length del = length cols -> indep n cols -> indep n (keep del cols).
Proof.
  intros HL HI c H1 H2 H3 a Ha.
  apply (HI (spread del c)); [rewrite spread_length; auto| | |apply (spread_In del cols); auto].
  - rewrite wsum_spread; auto.
  - intros j Hj. rewrite wsum_spread; auto.
Qed.

Lemma keep_length_le {A} del (l : list A) : (length (keep del l) <= length l)%nat.
Proof.
  revert del. induction l as [|a l IH]; intros [|d del]; try (rewrite ?keep_nil, ?keep_nil_r; simpl; lia).
  rewrite keep_cons. destruct d; simpl; specialize (IH del); lia.
Qed.

Lemma keep_length_lt {A} del (l : list A) : length del = length l -> In true del -> (length (keep del l) < length l)%nat.
Proof.
  revert del. induction l as [|a l IH]; intros [|d del] H1 H2; simpl in *; try discriminate; [destruct H2|].
  rewrite keep_cons. destruct H2 as [->|H2].
  - assert (K := keep_length_le del l). lia.
  - specialize (IH del ltac:(lia) H2). destruct d; simpl; lia.
Qed.

Lemma keep_length_same {A B} del (l : list A) (m : list B) : length l = length m -> length (keep del l) = length (keep del m).
Proof.
  revert del m. induction l as [|a l IH]; intros [|d del] [|b m] H; simpl in *; try discriminate; try reflexivity.
  rewrite !keep_cons. destruct d; simpl; auto.
Qed.

(** ** Dimension *)
Definition lcz (l : list ((nat -> Q) * Q)) (j : nat) : Q := qsum (fun p => snd p * fst p j) l.

Lemma steinitz d : forall vs : list (nat -> Q), (d < length vs)%nat ->
  exists l, Permutation (map fst l) vs /\ (exists p, In p l /\ ~ snd p == 0) /\ forall j, (j < d)%nat -> lcz l j == 0.
Proof.
  induction d as [|d IH]; intros vs H.
  - destruct vs as [|v vs]; [simpl in H; lia|]. exists ((v, 1) :: map (fun u => (u, 0)) vs). split; [|split].
    + simpl. rewrite map_map. simpl. rewrite map_id. auto.
    + exists (v, 1). split; [left; auto|]. simpl. lra.
    + intros j Hj. lia.
  - destruct (Forall_Exists_dec (fun v : nat -> Q => v d == 0) (fun v => Qeq_dec (v d) 0) vs) as [A|E].
    + destruct (IH vs) as (l & L1 & L2 & L3); [lia|]. exists l. split; auto. split; auto.
      intros j Hj. destruct (Nat.eq_dec j d) as [->|N]; [|apply L3; lia].
      apply qsum_zero. intros p Hp. rewrite Forall_forall in A. rewrite (A (fst p)); [ring|].
      apply (Permutation_in _ L1). apply in_map. auto.
    + apply Exists_exists in E. destruct E as (u & U1 & U2). apply in_split in U1. destruct U1 as (l1 & l2 & ->).
      set (red := fun v : nat -> Q => fun j => v j - v d / u d * u j).
      destruct (IH (map red (l1 ++ l2))) as (l & L1 & L2 & L3).
      { rewrite map_length. rewrite app_length in *. simpl in H. lia. }
      assert (HM : exists l', Permutation (map fst l') (l1 ++ l2) /\ l = map (fun p => (red (fst p), snd p)) l').
      { destruct (Permutation_map_inv red (l1 ++ l2) L1) as (m & M1 & M2).
        exists (combine m (map snd l)).
        assert (LM : length m = length l) by (rewrite <- (map_length red m), <- M1, map_length; auto).
        assert (F1 : map fst (combine m (map snd l)) = m).
        { clear -LM. revert l LM. induction m as [|a m IH]; intros [|p l] H; simpl in *; try discriminate; auto.
          rewrite IH; auto. }
        split; [rewrite F1; symmetry; auto|].
        clear -M1 LM. revert l M1 LM. induction m as [|a m IH]; intros [|[p c] l] M1 H; simpl in *; try discriminate; auto.
        inversion M1. rewrite <- IH; auto. }
      destruct HM as (l' & P1 & ->).
      exists ((u, - (lcz l' d / u d)) :: l'). split; [|split].
      * simpl. rewrite P1. apply Permutation_middle.
      * destruct L2 as (p & Q1 & Q2). apply in_map_iff in Q1. destruct Q1 as (p' & <- & Q1). simpl in Q2.
        exists p'. split; [right; auto|auto].
      * intros j Hj.
        assert (K : lcz (map (fun p => (red (fst p), snd p)) l') j == lcz l' j - lcz l' d / u d * u j).
        { unfold lcz. rewrite qsum_map. simpl. unfold red.
          rewrite (qsum_ext _ (fun p => snd p * fst p j + (- (u j / u d)) * (snd p * fst p d)))
            by (intros; field; auto).
          rewrite qsum_plus, qsum_scal. field. auto. }
        unfold lcz at 1. cbn [qsum fst snd]. fold (lcz l' j).
        destruct (Nat.eq_dec j d) as [->|N].
        -- field. auto.
        -- rewrite L3 in K by lia. lra.
Qed.

(** Affinely independent columns with a constant coordinate sum: at most [n]. *)
Lemma indep_bound n b cols : indep n cols -> (forall q, In q cols -> vsum n (vec q) every == b) ->
  (0 < n)%nat -> (length cols <= n)%nat.
Proof.
  intros HI HV Hn. destruct (le_lt_dec (length cols) n) as [|G]; auto. exfalso.
  set (ex := fun (q : list Q) (j : nat) => match j with O => 1 | S i => vec q i end).
  set (nv := fun j : nat => match j with O => - b | S _ => 1 end).
  destruct (steinitz (S n) (nv :: map ex cols)) as (l & L1 & L2 & L3); [simpl; rewrite map_length; lia|].
  apply Permutation_sym in L1. destruct (Permutation_map_inv fst l L1) as (m & M1 & M2).
  assert (Z : forall j, (j < S n)%nat -> lcz m j == 0).
  { intros j Hj. rewrite <- (L3 j Hj). symmetry. apply qsum_perm. auto. }
  assert (NZ : exists p, In p m /\ ~ snd p == 0).
  { destruct L2 as (p & P1 & P2). exists p. split; auto. apply (Permutation_in _ M2). auto. }
  destruct m as [|[nv' t] m]; [discriminate|]. simpl in M1. injection M1 as E1 E2. subst nv'.
  set (c := map snd m).
  assert (LC : length c = length cols).
  { unfold c. rewrite map_length. rewrite <- (map_length fst m), <- E2, map_length. reflexivity. }
  assert (W : forall j, lcz m j == wsum (fun q => ex q j) cols c).
  { intro j. unfold c, lcz, wsum. clear -E2. revert m E2. induction cols as [|q cols IH]; intros [|[e a] m] E; simpl in *; try discriminate; [reflexivity|].
    injection E as E1 E2. rewrite (IH m E2). subst e. reflexivity. }
  assert (T0 : (- b) * t + wsum (fun _ => 1) cols c == 0).
  { assert (K := Z 0%nat ltac:(lia)). unfold lcz in K. cbn [qsum fst snd] in K. fold (lcz m 0) in K. rewrite W in K.
    unfold nv, ex in K. lra. }
  assert (TJ : forall j, (j < n)%nat -> t + wsum (fun q => nth j q 0) cols c == 0).
  { intros j Hj. assert (K := Z (S j) ltac:(lia)). unfold lcz in K. cbn [qsum fst snd] in K. fold (lcz m (S j)) in K.
    rewrite W in K. unfold nv, ex, vec in K. lra. }
  assert (SS : qn n * t + b * wsum (fun _ => 1) cols c == 0).
  { assert (K : qsum (fun j => t + wsum (fun q => nth j q 0) cols c) (seq 0 n) == 0).
    { apply qsum_zero. intros j Hj. apply TJ. apply in_seq in Hj. lia. }
    rewrite qsum_plus, <- wsum_qsum in K. rewrite (qsum_const t (seq 0 n)), seq_length in K.
    rewrite (wsum_ext (fun q => qsum (fun i => nth i q 0) (seq 0 n)) (fun _ => b)) in K.
    2:{ intros q Hq. rewrite <- (HV q Hq). unfold vsum, every, vec. reflexivity. }
    rewrite wsum_const in K. lra. }
  assert (T : t == 0).
  { assert (X : (qn n + b * b) * t == 0).
    { setoid_replace ((qn n + b * b) * t) with ((qn n * t + b * wsum (fun _ => 1) cols c) - b * ((- b) * t + wsum (fun _ => 1) cols c)) by ring.
      rewrite SS, T0. ring. }
    apply Qmult_integral in X. destruct X as [X|X]; auto. exfalso.
    assert (0 < qn n) by (unfold qn, Qlt; simpl; lia).
    assert (0 <= b * b).
    { destruct (Qlt_le_dec b 0).
      - setoid_replace (b * b) with ((- b) * (- b)) by ring. apply Qmult_le_0_compat; lra.
      - apply Qmult_le_0_compat; auto. }
    lra. }
  assert (AZ : forall a, In a c -> a == 0).
  { apply (HI c LC).
    - rewrite T in T0. lra.
    - intros j Hj. specialize (TJ j Hj). rewrite T in TJ. lra. }
  destruct NZ as (p & [<-|P1] & P2); apply P2; [exact T|]. apply AZ. unfold c. apply in_map. auto.
Qed.
