(** * Lsq: an exact solver for the normal equations and a sorter, used in the examples: [solves] and [sorts] can be met. *)
From Coq Require Import Sorted.
From Verif Require Import Base Graph Spec SubThy MHC MAIC SFSpec ExactMNB MWolfe WolfeSpec LinThy.

Fixpoint axpy (t : Q) (a b : list Q) : list Q :=
  match a, b with
  | x :: a', y :: b' => Qred (x + t * y) :: axpy t a' b'
  | _, _ => []
  end.

(** Least squares: coefficients and remainder of [z] with respect to [cols]. *)
Fixpoint lproj (m : nat) (cols : list (list Q)) (z : list Q) : list Q * list Q :=
  match cols with
  | [] => ([], z)
  | a :: t =>
      let (ca, a') := lproj m t a in
      let (cz, z') := lproj m t z in
      let d := ldot m a' a' in
      if Qeq_bool d 0 then (0 :: cz, z')
      else let s := Qred (ldot m z' a' / d) in (s :: axpy (- s) cz ca, axpy (- s) z' a')
  end.

Definition lsq (n : nat) (cols : list (list Q)) : list Q :=
  fst (lproj (S n) (map (cons 1) cols) (1 :: repeat 0 n)).

Lemma axpy_length t a b : length a = length b -> length (axpy t a b) = length a.
Proof. revert b. induction a as [|x a IH]; intros [|y b] H; simpl in *; try discriminate; auto. Qed.

Lemma axpy_vec t a b i : length a = length b -> vec (axpy t a b) i == vec a i + t * vec b i.
Proof.
  revert b i. induction a as [|x a IH]; intros [|y b] i H; cbn [axpy length] in *; try discriminate.
  - unfold vec. destruct i; simpl; ring.
  - destruct i as [|i]; unfold vec; cbn [nth]; [rewrite Qred_correct; reflexivity|]. apply IH. lia.
Qed.

Lemma axpy_wsum g cols t a b : length a = length b ->
  wsum g cols (axpy t a b) == wsum g cols a + t * wsum g cols b.
Proof.
  unfold wsum. revert cols b. induction a as [|x a IH]; intros cols [|y b] H; cbn [axpy length] in *; try discriminate.
  - destruct cols; simpl; ring.
  - destruct cols as [|q cols]; cbn [combine qsum fst snd]; [ring|]. rewrite IH by lia. rewrite Qred_correct. ring.
Qed.

Lemma lproj_ok m cols : (forall a, In a cols -> length a = m) -> forall z, length z = m ->
  let c := fst (lproj m cols z) in
  let r := snd (lproj m cols z) in
  length c = length cols /\ length r = m /\
  (forall j, vec r j == vec z j - wsum (fun a => nth j a 0) cols c) /\
  (forall a, In a cols -> dot m (vec r) (vec a) == 0).
Proof.
  induction cols as [|a cols IH]; intros HA z HZ.
  - simpl. repeat split; auto; [|intros ? []]. intro j. unfold wsum. simpl. ring.
  - assert (HA' : forall b, In b cols -> length b = m) by (intros; apply HA; right; auto).
    destruct (IH HA' a (HA a (or_introl eq_refl))) as (A1 & A2 & A3 & A4).
    destruct (IH HA' z HZ) as (Z1 & Z2 & Z3 & Z4). clear IH.
    cbn [lproj]. destruct (lproj m cols a) as [ca a']. destruct (lproj m cols z) as [cz z']. cbn [fst snd] in *.
    assert (PA : forall r : nat -> Q, (forall b, In b cols -> dot m r (vec b) == 0) -> dot m r (vec a) == dot m r (vec a')).
    { intros r HR. rewrite (dot_wd m r r (vec a) (fun j => vec a' j + wsum (fun b => nth j b 0) cols ca)).
      - setoid_replace (dot m r (fun j => vec a' j + wsum (fun b => nth j b 0) cols ca))
          with (dot m r (vec a') + dot m (fun j => wsum (fun b => nth j b 0) cols ca) r).
        + rewrite (dot_comb m cols ca _ r) by (intros j _; reflexivity).
          rewrite (wsum_ext (fun q => dot m (vec q) r) (fun _ => 0)) by (intros; rewrite dot_sym; auto).
          rewrite wsum_const. ring.
        + unfold dot. rewrite <- qsum_plus. apply qsum_ext. intros. ring.
      - intros; reflexivity.
      - intros j _. rewrite A3. ring. }
    change (ldot m a' a') with (dot m (vec a') (vec a')). change (ldot m z' a') with (dot m (vec z') (vec a')).
    destruct (Qeq_bool (dot m (vec a') (vec a')) 0) eqn:ED; cbn [fst snd].
    + apply Qeq_bool_iff in ED. split; [simpl; auto|]. split; auto. split.
      * intro j. rewrite Z3. unfold wsum. simpl. ring.
      * intros b [<-|Hb]; auto. rewrite PA by auto. apply qsum_zero. intros i Hi. apply in_seq in Hi.
        rewrite (dot_zero m _ ED i) by lia. ring.
    + assert (D : ~ dot m (vec a') (vec a') == 0) by (intro C; apply Qeq_bool_iff in C; congruence).
      set (s := Qred (dot m (vec z') (vec a') / dot m (vec a') (vec a'))).
      assert (LC : length cz = length ca) by lia. assert (LZ : length z' = length a') by lia.
      split; [simpl; rewrite axpy_length; auto|]. split; [rewrite axpy_length; auto|].
      assert (DR : forall y : nat -> Q, dot m (vec (axpy (- s) z' a')) y == dot m (vec z') y - s * dot m (vec a') y).
      { intro y. unfold dot. setoid_replace (qsum (fun i => vec z' i * y i) (seq 0 m) - s * qsum (fun i => vec a' i * y i) (seq 0 m))
          with (qsum (fun i => vec z' i * y i) (seq 0 m) + qsum (fun i => (- s) * (vec a' i * y i)) (seq 0 m)) by (rewrite qsum_scal; ring).
        rewrite <- qsum_plus. apply qsum_ext. intros i _. rewrite axpy_vec by auto. ring. }
      split.
      * intro j. rewrite axpy_vec by auto. rewrite A3, Z3. unfold wsum at 3. cbn [combine qsum fst snd].
        fold (wsum (fun b => nth j b 0) cols (axpy (- s) cz ca)). rewrite axpy_wsum by auto. unfold vec. ring.
      * assert (RB : forall b, In b cols -> dot m (vec (axpy (- s) z' a')) (vec b) == 0).
        { intros b Hb. rewrite DR, Z4, A4 by auto. ring. }
        intros b [<-|Hb]; auto. rewrite PA by auto. rewrite DR. unfold s. rewrite Qred_correct. field. auto.
Qed.

Lemma dot_cons n a b : dot (S n) (vec (1 :: a)) (vec (1 :: b)) == 1 + dot n (vec a) (vec b).
Proof.
  unfold dot. cbn [seq qsum]. rewrite <- seq_shift, qsum_map. unfold vec. simpl nth at 1 2. apply Qplus_comp; [ring|].
  apply qsum_ext. intros. reflexivity.
Qed.

Theorem lsq_solves n : solves n (lsq n).
Proof.
  intros cols NE HN _. set (cs := map (cons 1) cols).
  destruct (lproj_ok (S n) cs) with (z := 1 :: repeat 0 n) as (L1 & _ & L3 & L4).
  { intros a Ha. unfold cs in Ha. apply in_map_iff in Ha. destruct Ha as (q & <- & Hq). simpl. rewrite (HN q Hq). auto. }
  { simpl. rewrite repeat_length. auto. }
  unfold lsq. fold cs. set (c := fst (lproj (S n) cs (1 :: repeat 0 n))) in *.
  set (r := snd (lproj (S n) cs (1 :: repeat 0 n))) in *.
  split; [rewrite L1; unfold cs; apply map_length|].
  intros q Hq.
  assert (W : forall g, wsum g cs c == wsum (fun q => g (1 :: q)) cols c).
  { intro g. unfold cs, wsum. generalize c. clear. induction cols as [|q cols IH]; intros [|a c]; simpl; try reflexivity. rewrite IH. reflexivity. }
  assert (K := L4 (1 :: q) (in_map _ _ _ Hq)).
  set (u := fun j => wsum (fun a => nth j a 0) cs c).
  assert (DU : dot (S n) u (vec (1 :: q)) == wsum (fun r => 1 + dot n (vec q) (vec r)) cols c).
  { rewrite (dot_comb (S n) cs c u) by (intros j _; reflexivity). rewrite W. apply wsum_ext. intros b _. rewrite dot_cons, dot_sym. reflexivity. }
  assert (DZ : dot (S n) (vec (1 :: repeat 0 n)) (vec (1 :: q)) == 1).
  { rewrite dot_cons. setoid_replace (dot n (vec (repeat 0 n)) (vec q)) with 0; [ring|].
    apply qsum_zero. intros i _. unfold vec. rewrite nth_repeat. ring. }
  assert (DS : dot (S n) (vec r) (vec (1 :: q)) == dot (S n) (vec (1 :: repeat 0 n)) (vec (1 :: q)) - dot (S n) u (vec (1 :: q))).
  { unfold dot. setoid_replace (qsum (fun i => vec (1 :: repeat 0 n) i * vec (1 :: q) i) (seq 0 (S n)) - qsum (fun i => u i * vec (1 :: q) i) (seq 0 (S n)))
      with (qsum (fun i => vec (1 :: repeat 0 n) i * vec (1 :: q) i) (seq 0 (S n)) + qsum (fun i => (-1) * (u i * vec (1 :: q) i)) (seq 0 (S n))) by (rewrite qsum_scal; ring).
    rewrite <- qsum_plus. apply qsum_ext. intros i _. rewrite L3. unfold u. ring. }
  lra.
Qed.

(** ** A sorter *)
Fixpoint isins (w : list Q) (i : nat) (l : list nat) : list nat :=
  match l with
  | [] => [i]
  | j :: t => if Qle_bool (vec w i) (vec w j) then i :: l else j :: isins w i t
  end.
Definition isort (w : list Q) : list nat := fold_right (isins w) [] (seq 0 (length w)).

Lemma isins_perm w i l : Permutation (isins w i l) (i :: l).
Proof.
  induction l as [|j l IH]; simpl; auto. destruct (Qle_bool _ _); auto. rewrite IH. constructor.
Qed.

Lemma isins_sorted w i l : StronglySorted (fun i j => vec w i <= vec w j) l -> StronglySorted (fun i j => vec w i <= vec w j) (isins w i l).
Proof.
  induction l as [|j l IH]; intro H; simpl; [repeat constructor|]. inversion H; subst.
  destruct (Qle_bool (vec w i) (vec w j)) eqn:E.
  - apply Qle_bool_iff in E. constructor; auto. constructor; auto. rewrite Forall_forall in *. intros k Hk. specialize (H3 k Hk). lra.
  - apply Qle_bool_false in E. constructor; auto. rewrite Forall_forall in *. intros k Hk.
    apply (Permutation_in _ (isins_perm w i l)) in Hk. destruct Hk as [<-|Hk]; auto. lra.
Qed.

Theorem isort_sorts w : sorts w (isort w).
Proof.
  unfold sorts, isort. generalize (seq 0 (length w)). induction l as [|i l [I1 I2]]; simpl; [split; constructor|]. split.
  - rewrite isins_perm. constructor. auto.
  - apply isins_sorted. auto.
Qed.
