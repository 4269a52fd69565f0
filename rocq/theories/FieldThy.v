(** * FieldThy: row spaces over a finite field; fibres of a linear map; the rank is submodular. *)
From Coq Require Import Field_theory Field Ring.
From Verif Require Import Base MFLS.

Declare Scope fld_scope.
Section Fld.
  Variable F : ffield.
  Hypothesis HF : is_field F.
  Notation T := (ft F).
  Notation V := (list T).
  Notation "0" := (f0 F) : fld_scope.
  Notation "1" := (f1 F) : fld_scope.
  Notation "a + b" := (fadd F a b) : fld_scope.
  Notation "a * b" := (fmul F a b) : fld_scope.
  Notation "- a" := (fopp F a) : fld_scope.
  Notation "/ a" := (finv F a) : fld_scope.
  Local Open Scope fld_scope.
  Local Notation dot := (fdot F).
  Local Notation add := (vadd F).
  Local Notation scal := (vscal F).
  Local Notation zero := (vzero F).
  Local Notation sp := (span F).

  Add Field Ffield : (f_laws F HF).

  Lemma one_nz : 1 <> 0.
  Proof. exact (F_1_neq_0 (f_laws F HF)). Qed.
  Lemma inv_l a : a <> 0 -> / a * a = 1.
  Proof. apply (Finv_l (f_laws F HF)). Qed.
  Lemma feq_dec (a b : T) : {a = b} + {a <> b}.
  Proof.
    destruct (feqb F a b) eqn:E; [left; apply (f_eqb F HF); auto|right; intro H].
    apply (f_eqb F HF) in H. congruence.
  Qed.

  (** ** Vectors *)
  Lemma add_length u : forall v, length u = length v -> length (add u v) = length v.
  Proof. induction u; intros [|b v] H; simpl in *; try discriminate; auto. Qed.
  Lemma scal_length c v : length (scal c v) = length v.
  Proof. apply map_length. Qed.
  Lemma zero_length n : length (zero n) = n.
  Proof. apply repeat_length. Qed.
  Lemma add_comm u : forall v, add u v = add v u.
  Proof. induction u; intros [|b v]; simpl; auto. f_equal; [ring|auto]. Qed.
  Lemma add_assoc u : forall v w, add u (add v w) = add (add u v) w.
  Proof. induction u; intros [|b v] [|c w]; simpl; auto. f_equal; [ring|auto]. Qed.
  Lemma add_zero_r n : forall u, length u = n -> add u (zero n) = u.
  Proof. induction n; intros [|a u] H; simpl in *; try discriminate; auto. f_equal; [ring|auto]. Qed.
  Lemma add_zero_l n u : length u = n -> add (zero n) u = u.
  Proof. intro. rewrite add_comm. apply add_zero_r. auto. Qed.
  Lemma scal_add c u : forall v, scal c (add u v) = add (scal c u) (scal c v).
  Proof. induction u; intros [|b v]; simpl; auto. f_equal; [ring|auto]. Qed.
  Lemma scal_scal a b v : scal a (scal b v) = scal (a * b) v.
  Proof. induction v; simpl; auto. f_equal; [ring|auto]. Qed.
  Lemma scal_one v : scal 1 v = v.
  Proof. induction v; simpl; auto. f_equal; [ring|auto]. Qed.
  Lemma scal_zero_l v : scal 0 v = zero (length v).
  Proof. induction v; simpl; auto. unfold zero in *. simpl. f_equal; [ring|auto]. Qed.
  Lemma scal_zero_r c n : scal c (zero n) = zero n.
  Proof. induction n; simpl; auto. unfold vzero in *. simpl. f_equal; [ring|auto]. Qed.
  Lemma scal_plus a b v : scal (a + b) v = add (scal a v) (scal b v).
  Proof. induction v; simpl; auto. f_equal; [ring|auto]. Qed.
  Lemma add_opp v : add (scal (- (1)) v) v = zero (length v).
  Proof. induction v; simpl; auto. unfold vzero. simpl. f_equal; [ring|auto]. Qed.
  Lemma dot_comm u : forall v, dot u v = dot v u.
  Proof. induction u; intros [|b v]; simpl; auto. rewrite IHu. ring. Qed.
  Lemma dot_add_l u : forall v x, length u = length v -> dot (add u v) x = dot u x + dot v x.
  Proof.
    induction u; intros [|b v] x H; simpl in *; try discriminate; [ring|]. destruct x; simpl; [ring|].
    rewrite IHu by auto. ring.
  Qed.
  Lemma dot_scal_l c u : forall x, dot (scal c u) x = c * dot u x.
  Proof. induction u; intros [|b x]; simpl; try ring. unfold vscal in *. rewrite IHu. ring. Qed.
  Lemma dot_zero_l n : forall x, dot (zero n) x = 0.
  Proof. induction n; intros [|b x]; simpl; try ring. unfold vzero in *. rewrite IHn. ring. Qed.
  Lemma dot_add_r u v x : length u = length v -> dot x (add u v) = dot x u + dot x v.
  Proof. intro. rewrite !(dot_comm x). apply dot_add_l. auto. Qed.
  Lemma dot_scal_r c u x : dot x (scal c u) = c * dot x u.
  Proof. rewrite !(dot_comm x). apply dot_scal_l. Qed.
  Lemma dot_zero_r n x : dot x (zero n) = 0.
  Proof. rewrite dot_comm. apply dot_zero_l. Qed.

  (** ** Spans *)
  Lemma span_length n l v : (forall u, In u l -> length u = n) -> sp n l v -> length v = n.
  Proof.
    intros H. induction 1; [apply zero_length|]. rewrite add_length; auto. rewrite scal_length, H; auto.
  Qed.
  Lemma span_add n l u v : (forall u, In u l -> length u = n) -> sp n l u -> sp n l v -> sp n l (add u v).
  Proof.
    intros H Hu Hv. induction Hu as [|c a w Ha Hw IH].
    - rewrite add_zero_l; auto. eapply span_length; eauto.
    - rewrite <- add_assoc. constructor; auto.
  Qed.
  Lemma span_scal n l c u : sp n l u -> sp n l (scal c u).
  Proof.
    induction 1 as [|d a w Ha Hw IH]; [rewrite scal_zero_r; constructor|].
    rewrite scal_add, scal_scal. constructor; auto.
  Qed.
  Lemma span_in n l v : (forall u, In u l -> length u = n) -> In v l -> sp n l v.
  Proof.
    intros H Hv. replace v with (add (scal 1 v) (zero n)); [constructor; auto; constructor|].
    rewrite scal_one. apply add_zero_r. auto.
  Qed.
  Lemma span_trans n l l' v : (forall u, In u l' -> length u = n) -> (forall u, In u l -> sp n l' u) -> sp n l v -> sp n l' v.
  Proof.
    intros H1 H2. induction 1 as [|c a w Ha Hw IH]; [constructor|].
    apply span_add; auto. apply span_scal. auto.
  Qed.
  Lemma span_incl n l l' v : incl l l' -> sp n l v -> sp n l' v.
  Proof. intros H. induction 1; constructor; auto. Qed.

  (** ** Dual vectors *)
  Definition rows (st : list (V * V)) : list V := map fst st.
  Definition rw (st : list (V * V)) (i : nat) : V := nth i (map fst st) [].
  Definition du (st : list (V * V)) (i : nat) : V := nth i (map snd st) [].
  Definition dual (n : nat) (st : list (V * V)) : Prop :=
    (forall p, In p st -> length (fst p) = n /\ length (snd p) = n) /\
    forall i j, (i < length st)%nat -> (j < length st)%nat ->
      dot (rw st i) (du st j) = if (i =? j)%nat then 1 else 0.

  Lemma resid_length n st r : (forall p, In p st -> length (fst p) = n) -> length r = n -> length (resid F st r) = n.
  Proof.
    intros H Hr. induction st as [|[ri xi] t IH]; simpl; auto.
    assert (K := H _ (or_introl eq_refl)). simpl in K.
    rewrite add_length; rewrite IH; auto; try (intros p Hp; apply H; right; auto). rewrite scal_length. auto.
  Qed.

  (** r minus its residual is a combination of the rows. *)
  Lemma resid_span n st r : (forall p, In p st -> length (fst p) = n) -> length r = n ->
    exists w, sp n (rows st) w /\ resid F st r = add w r.
  Proof.
    intros H Hr. induction st as [|[ri xi] t IH]; simpl.
    - exists (zero n). split; [constructor|]. rewrite add_zero_l; auto.
    - destruct IH as (w & W1 & W2); [intros p Hp; apply H; right; auto|].
      exists (add (scal (- dot r xi) ri) w). split; [|rewrite W2; apply add_assoc].
      constructor; [left; auto|]. eapply span_incl; [|exact W1]. intros x Hx. right. auto.
  Qed.

  Lemma resid_add n st u v : (forall p, In p st -> length (fst p) = n) -> length u = n -> length v = n ->
    resid F st (add u v) = add (resid F st u) (resid F st v).
  Proof.
    intros H Hu Hv. induction st as [|[ri xi] t IH]; simpl; auto.
    rewrite IH by (intros p Hp; apply H; right; auto). rewrite dot_add_l by congruence.
    replace (- (dot u xi + dot v xi)) with (- dot u xi + - dot v xi) by ring. rewrite scal_plus.
    rewrite <- !add_assoc. f_equal. rewrite (add_assoc (scal _ ri) (resid F t u)), (add_comm (scal _ ri) (resid F t u)).
    rewrite <- add_assoc. reflexivity.
  Qed.
  Lemma resid_scal n st c u : (forall p, In p st -> length (fst p) = n) -> length u = n ->
    resid F st (scal c u) = scal c (resid F st u).
  Proof.
    intros H Hu. induction st as [|[ri xi] t IH]; simpl; auto.
    rewrite IH by (intros p Hp; apply H; right; auto). rewrite dot_scal_l, scal_add, scal_scal.
    f_equal. f_equal. ring.
  Qed.
  Lemma resid_zero n st : (forall p, In p st -> length (fst p) = n) -> resid F st (zero n) = zero n.
  Proof.
    intro H. induction st as [|[ri xi] t IH]; simpl; auto.
    assert (K := H _ (or_introl eq_refl)). simpl in K.
    rewrite IH by (intros p Hp; apply H; right; auto). rewrite dot_zero_l.
    replace (- (0)) with (0) by ring. rewrite scal_zero_l, K. apply add_zero_l. apply zero_length.
  Qed.

  Lemma resid_pattern n st : forall r, (forall p, In p st -> length (fst p) = n) -> length r = n ->
    (forall j, (j < length st)%nat -> dot r (du st j) = 0) -> resid F st r = r.
  Proof.
    induction st as [|[ri xi] t IH]; intros r H Hr Hp; simpl; auto.
    assert (K := H _ (or_introl eq_refl)). simpl in K.
    rewrite IH; auto; [|intros p Hq; apply H; right; auto|intros j Hj; apply (Hp (S j)); simpl; lia].
    assert (E : dot r xi = 0) by (apply (Hp 0%nat); simpl; lia). rewrite E.
    replace (- (0)) with (0) by ring. rewrite scal_zero_l, K. apply add_zero_l. auto.
  Qed.
  Lemma resid_pattern1 n st : forall r i, (forall p, In p st -> length (fst p) = n) -> length r = n -> (i < length st)%nat ->
    (forall j, (j < length st)%nat -> dot r (du st j) = if (i =? j)%nat then 1 else 0) ->
    resid F st r = add (scal (- (1)) (rw st i)) r.
  Proof.
    induction st as [|[ri xi] t IH]; intros r i H Hr Hi Hp; simpl in *; [lia|].
    assert (K := H _ (or_introl eq_refl)). simpl in K.
    assert (E : dot r xi = if (i =? 0)%nat then 1 else 0) by (apply (Hp 0%nat); lia). rewrite E.
    destruct i as [|i]; simpl.
    - rewrite (resid_pattern n); auto. intros j Hj. apply (Hp (S j)). lia.
    - replace (- (0)) with (0) by ring. rewrite scal_zero_l, K.
      rewrite (IH r i); auto; [|lia|intros j Hj; apply (Hp (S j)); lia].
      apply add_zero_l. rewrite add_length; auto. rewrite scal_length. unfold rw. rewrite Hr.
      assert (K2 : In (nth i (map fst t) []) (map fst t)) by (apply nth_In; rewrite map_length; lia).
      apply in_map_iff in K2. destruct K2 as (p & P1 & P2). change (length (nth i (map fst t) []) = n). rewrite <- P1. apply H. auto.
  Qed.

  Lemma dual_rows n st u : dual n st -> In u (rows st) -> length u = n.
  Proof. intros [H _] Hu. apply in_map_iff in Hu. destruct Hu as (p & <- & Hp). apply H. auto. Qed.
  Lemma dual_fst n st p : dual n st -> In p st -> length (fst p) = n.
  Proof. intros [H _] Hp. apply H. auto. Qed.

  (** A vector is in the row space iff its residual is 0. *)
  Lemma span_resid n st r : dual n st -> length r = n -> (sp n (rows st) r <-> resid F st r = zero n).
  Proof.
    intros H Hr. assert (HL := fun p => dual_fst n st p H). split.
    - induction 1 as [|c v w Hv Hw IH]; [apply resid_zero; auto|].
      assert (Lw : length w = n) by (eapply span_length; [|exact Hw]; intros u; apply dual_rows; auto).
      assert (Lv : length v = n) by (eapply dual_rows; eauto).
      rewrite (resid_add n), (resid_scal n); auto; [|rewrite scal_length; auto].
      rewrite IH by auto. rewrite add_zero_r; [|rewrite scal_length; apply resid_length; auto].
      apply (In_nth _ _ []) in Hv. destruct Hv as (i & Hi & Ei). unfold rows in Hi. rewrite map_length in Hi.
      rewrite (resid_pattern1 n st v i); auto.
      + unfold rw. unfold rows in Ei. rewrite Ei, add_opp, Lv. apply scal_zero_r.
      + intros j Hj. rewrite <- Ei. apply H; auto.
    - intro E. destruct (resid_span n st r) as (w & W1 & W2); auto.
      assert (Lw : length w = n) by (eapply span_length; [|exact W1]; intros u; apply dual_rows; auto).
      replace r with (scal (- (1)) w); [apply span_scal; auto|].
      rewrite E in W2. symmetry in W2.
      rewrite <- (add_zero_r n (scal (- (1)) w)) by (rewrite scal_length; auto).
      rewrite <- W2, add_assoc, add_opp, Lw. apply add_zero_l. auto.
  Qed.

  Lemma first_nz_none v : first_nz F v = None -> v = zero (length v).
  Proof.
    induction v as [|a v IH]; simpl; auto. destruct (feqb F a 0) eqn:E; [|discriminate].
    apply (f_eqb F HF) in E. subst a. intro H. destruct (first_nz F v); [discriminate|].
    unfold vzero. simpl. f_equal. apply IH. auto.
  Qed.
  Lemma first_nz_some v : forall c, first_nz F v = Some c -> (c < length v)%nat /\ nth c v 0 <> 0.
  Proof.
    induction v as [|a v IH]; simpl; [discriminate|]. intro c. destruct (feqb F a 0) eqn:E.
    - destruct (first_nz F v) as [c'|]; [|discriminate]. intro H. injection H as <-.
      destruct (IH c' eq_refl). split; [lia|auto].
    - intro H. injection H as <-. split; [lia|]. intro C. apply (f_eqb F HF) in C. congruence.
  Qed.

  Lemma dot_unit n c v : length v = n -> (c < n)%nat -> dot v (funit F n c) = nth c v 0.
  Proof.
    unfold funit. intros Hv Hc.
    assert (G : forall m v k, length v = m -> dot v (map (fun i => if (i =? c)%nat then 1 else 0) (seq k m)) =
       if (k <=? c)%nat && (c <? k + m)%nat then nth (c - k) v 0 else 0).
    { induction m as [|m IH]; intros [|a w] k Hw; simpl in *; try discriminate.
      - destruct ((k <=? c)%nat && (c <? k + 0)%nat) eqn:E; auto.
        apply andb_true_iff in E. rewrite Nat.leb_le, Nat.ltb_lt in E. lia.
      - rewrite IH by lia. destruct (k =? c)%nat eqn:E1.
        + apply Nat.eqb_eq in E1. subst k. rewrite Nat.sub_diag, Nat.leb_refl.
          replace (S c <=? c)%nat with false by (symmetry; apply Nat.leb_gt; lia).
          replace (c <? c + S m)%nat with true by (symmetry; apply Nat.ltb_lt; lia). simpl. ring.
        + apply Nat.eqb_neq in E1. destruct (k <=? c)%nat eqn:E2.
          * apply Nat.leb_le in E2. replace (S k <=? c)%nat with true by (symmetry; apply Nat.leb_le; lia).
            replace (c <? k + S m)%nat with (c <? S k + m)%nat by (f_equal; lia).
            destruct (c - k)%nat as [|d] eqn:Ed; [lia|]. replace (c - S k)%nat with d by lia.
            simpl. destruct (c <? S (k + m))%nat; ring.
          * apply Nat.leb_gt in E2. replace (S k <=? c)%nat with false by (symmetry; apply Nat.leb_gt; lia). simpl. ring. }
    rewrite (G n v 0%nat Hv). simpl. replace (c <? n)%nat with true by (symmetry; apply Nat.ltb_lt; lia).
    rewrite Nat.sub_0_r. reflexivity.
  Qed.

  Lemma codual_length n c st u : (forall p, In p st -> length (snd p) = n) -> length u = n -> length (codual F c st u) = n.
  Proof.
    intros H Hu. induction st as [|[ri xi] t IH]; simpl; auto.
    assert (K := H _ (or_introl eq_refl)). simpl in K.
    rewrite add_length; rewrite IH; auto; try (intros p Hp; apply H; right; auto). rewrite scal_length. auto.
  Qed.
  (** The product with codual is the entry of the residual. *)
  Lemma dot_codual n c st r u : (forall p, In p st -> length (fst p) = n /\ length (snd p) = n) -> length r = n -> length u = n ->
    dot r u = nth c r 0 -> dot r (codual F c st u) = nth c (resid F st r) 0.
  Proof.
    intros H Hr Hu E. induction st as [|[ri xi] t IH]; simpl; auto.
    assert (K := H _ (or_introl eq_refl)). simpl in K. destruct K as [K1 K2].
    assert (Ht : forall p, In p t -> length (fst p) = n /\ length (snd p) = n) by (intros p Hp; apply H; right; auto).
    assert (N : forall a b : V, length a = length b -> nth c (add a b) 0 = nth c a 0 + nth c b 0).
    { clear - HF. revert c. induction c as [|c IH]; intros [|x a] [|y b] L; simpl in *; try discriminate; auto; ring. }
    assert (NS : forall k (a : V), nth c (scal k a) 0 = k * nth c a 0).
    { clear - HF. intros k a. revert c. induction a as [|x a IH]; intros [|c]; simpl; try ring. apply IH. }
    rewrite dot_add_r, dot_scal_r, IH by (auto; rewrite scal_length, codual_length with (n := n); auto; intros p Hp; apply Ht; auto).
    rewrite N, NS; [ring|]. rewrite scal_length, (resid_length n); auto. intros p Hp; apply Ht; auto.
  Qed.

  Lemma elim1_dual n st r : dual n st -> length r = n -> dual n (elim1 F st r).
  Proof.
    intros H Hr. unfold elim1. destruct (first_nz F (resid F st r)) as [c|] eqn:Ef; [|auto].
    destruct (first_nz_some _ _ Ef) as [Hc Hz]. rewrite (resid_length n) in Hc by (auto; intros p; eapply dual_fst; eauto).
    set (pv := nth c (resid F st r) 0) in *. set (x := scal (/ pv) _).
    assert (Hst := proj1 H).
    assert (LU : length (funit F n c) = n) by (unfold funit; rewrite map_length, seq_length; auto).
    assert (LC : length (codual F c st (funit F n c)) = n) by (apply codual_length; auto; intros p Hp; apply Hst; auto).
    assert (Lx : length x = n) by (unfold x; rewrite scal_length, Hr; auto).
    assert (Dr : dot r x = 1).
    { unfold x. rewrite Hr, dot_scal_r, (dot_codual n); auto; [|apply dot_unit; auto]. apply inv_l. auto. }
    assert (Di : forall i, (i < length st)%nat -> dot (rw st i) x = 0).
    { intros i Hi. assert (Hin : In (rw st i) (rows st)) by (apply nth_In; unfold rows; rewrite map_length; auto).
      assert (Li : length (rw st i) = n) by (eapply dual_rows; eauto).
      unfold x. rewrite Hr, dot_scal_r, (dot_codual n); auto; [|apply dot_unit; auto].
      assert (E0 : resid F st (rw st i) = zero n).
      { apply span_resid; auto. apply span_in; auto. intros u. apply dual_rows. auto. }
      rewrite E0. unfold vzero.
      assert (E1 : nth c (repeat 0 n) 0 = 0) by (apply nth_repeat). rewrite E1. ring. }
    set (up := fun p : V * V => (fst p, add (scal (- dot r (snd p)) x) (snd p))).
    assert (LD : forall j, (j < length st)%nat -> length (du st j) = n).
    { intros j Hj. assert (K : In (du st j) (map snd st)) by (apply nth_In; rewrite map_length; auto).
      apply in_map_iff in K. destruct K as (p & <- & Hp). apply Hst. auto. }
    split.
    - intros p [<-|Hp]; [simpl; auto|]. apply in_map_iff in Hp. destruct Hp as (q & <- & Hq). simpl.
      destruct (Hst q Hq). split; auto. rewrite add_length; auto. rewrite scal_length. congruence.
    - assert (RW : forall i, rw ((r, x) :: map up st) (S i) = rw st i).
      { intro i. unfold rw. simpl. rewrite map_map. reflexivity. }
      assert (DU : forall j, (j < length st)%nat -> du ((r, x) :: map up st) (S j) = add (scal (- dot r (du st j)) x) (du st j)).
      { intros j Hj. unfold du. simpl. rewrite map_map. simpl.
        rewrite (nth_indep _ [] ((fun p : V * V => add (scal (- dot r (snd p)) x) (snd p)) ([], []))) by (rewrite map_length; auto).
        rewrite (map_nth (fun p : V * V => add (scal (- dot r (snd p)) x) (snd p))). 
        rewrite (nth_indep (map snd st) [] (snd (@nil T, @nil T))) by (rewrite map_length; auto).
        rewrite (map_nth (@snd V V)). reflexivity. }
      fold up. intros i j Hi Hj. simpl in Hi, Hj. rewrite map_length in Hi, Hj.
      destruct i as [|i]; destruct j as [|j].
      + exact Dr.
      + rewrite DU by lia. change (rw ((r, x) :: map up st) 0) with r.
        rewrite dot_add_r, dot_scal_r, Dr by (rewrite scal_length, LD by lia; auto). simpl. ring.
      + rewrite RW. change (du ((r, x) :: map up st) 0) with x. simpl. apply Di. lia.
      + rewrite RW, DU by lia.
        rewrite dot_add_r, dot_scal_r, Di by (try lia; rewrite scal_length, LD by lia; auto).
        rewrite (proj2 H) by lia. simpl. destruct (i =? j)%nat; ring.
  Qed.

  Lemma elim1_rows st r : rows (elim1 F st r) = rows st \/ rows (elim1 F st r) = r :: rows st.
  Proof.
    unfold elim1. destruct (first_nz F (resid F st r)); auto. right. unfold rows. simpl. rewrite map_map. reflexivity.
  Qed.
  Lemma elim1_keep n st r : dual n st -> length r = n -> (sp n (rows st) r -> rows (elim1 F st r) = rows st) /\
    (~ sp n (rows st) r -> rows (elim1 F st r) = r :: rows st).
  Proof.
    intros H Hr. assert (K := span_resid n st r H Hr). unfold elim1.
    destruct (first_nz F (resid F st r)) as [c|] eqn:Ef.
    - destruct (first_nz_some _ _ Ef) as [Hc Hz]. split; intro S.
      + apply K in S. rewrite S in Hz. exfalso. apply Hz. apply nth_repeat.
      + unfold rows. simpl. rewrite map_map. reflexivity.
    - split; [auto|]. intro S. exfalso. apply S. apply K. rewrite (first_nz_none _ Ef).
      rewrite (resid_length n); auto. intros p; eapply dual_fst; eauto.
  Qed.

  Lemma span_dec n st r : dual n st -> length r = n -> sp n (rows st) r \/ ~ sp n (rows st) r.
  Proof.
    intros H Hr. rewrite (span_resid n st r H Hr). destruct (first_nz F (resid F st r)) as [c|] eqn:Ef.
    - right. intro E. destruct (first_nz_some _ _ Ef) as [_ Hz]. apply Hz. rewrite E. apply nth_repeat.
    - left. rewrite (first_nz_none _ Ef). rewrite (resid_length n); auto. intros p; eapply dual_fst; eauto.
  Qed.

  Lemma elim_fold n l : forall st, dual n st -> (forall v, In v l -> length v = n) ->
    let st' := fold_left (elim1 F) l st in
    dual n st' /\ (exists b, rows st' = b ++ rows st /\ incl b l /\ (length b <= length l)%nat) /\
    (indep F n (rows st) -> indep F n (rows st')) /\
    (forall v, In v l -> sp n (rows st') v).
  Proof.
    induction l as [|r l IH]; intros st H HL; simpl.
    - split; auto. split; [exists []; split; [reflexivity|]; split; [intros x []|simpl; lia]|]. split; auto. intros v [].
    - assert (Hr : length r = n) by (apply HL; left; auto).
      assert (H1 := elim1_dual n st r H Hr). destruct (elim1_keep n st r H Hr) as [K1 K2].
      destruct (IH (elim1 F st r) H1) as (A & (b & B1 & B2 & B3) & C & D); [intros; apply HL; right; auto|].
      split; auto. assert (Ls : forall u, In u (rows (fold_left (elim1 F) l (elim1 F st r))) -> length u = n) by (intro u; apply dual_rows; auto).
      assert (SR : sp n (rows (fold_left (elim1 F) l (elim1 F st r))) r).
      { rewrite B1. destruct (span_dec n st r H Hr) as [S|S].
        - rewrite (K1 S). eapply span_incl; [|exact S]. intros x Hx. apply in_app_iff. auto.
        - rewrite (K2 S). apply span_in; [|apply in_app_iff; right; left; auto]. rewrite <- (K2 S), <- B1. auto. }
      split; [|split; [|intros v [<-|Hv]; auto]].
      + destruct (span_dec n st r H Hr) as [S|S].
        * rewrite (K1 S) in B1. exists b. split; auto. split; [intros x Hx; right; auto|simpl; lia].
        * rewrite (K2 S) in B1. exists (b ++ [r]). rewrite <- app_assoc. split; auto. split.
          -- intros x Hx. apply in_app_iff in Hx. destruct Hx as [Hx|[<-|[]]]; [right|left]; auto.
          -- rewrite app_length. simpl. lia.
      + intro I. apply C. destruct (span_dec n st r H Hr) as [S|S]; [rewrite (K1 S)|rewrite (K2 S); simpl]; auto.
  Qed.

  Lemma dual_nil n : dual n [].
  Proof. split; [intros p []|intros i j Hi; simpl in Hi; lia]. Qed.

  Lemma elim_rank_spec : RankSpec F (elim_rank F).
  Proof.
    intros n l HL. destruct (elim_fold n l [] (dual_nil n) HL) as (A & (b & B1 & B2 & B3) & C & D).
    unfold rows in B1 at 2. simpl in B1. rewrite app_nil_r in B1. exists (rows (fold_left (elim1 F) l [])). split.
    { unfold rows, elim_rank. apply map_length. }
    split; [apply C; exact I|]. split; [|exact D]. intros v Hv. apply span_in; auto. rewrite B1 in Hv. auto.
  Qed.

  (** An independent list has dual vectors. *)
  Lemma indep_dual n b : (forall v, In v b -> length v = n) -> indep F n b -> exists st, dual n st /\ rows st = b.
  Proof.
    induction b as [|v b IH]; intros HL HI; [exists []; split; [apply dual_nil|reflexivity]|].
    destruct HI as [H1 H2]. destruct IH as (st & S1 & S2); auto; [intros; apply HL; right; auto|].
    assert (Lv : length v = n) by (apply HL; left; auto).
    exists (elim1 F st v). split; [apply elim1_dual; auto|]. rewrite (proj2 (elim1_keep n st v S1 Lv)); [congruence|].
    rewrite S2. auto.
  Qed.

  (** ** Counting *)
  Lemma vecs_In n v : In v (vecs F n) <-> length v = n.
  Proof.
    revert v. induction n as [|n IH]; intro v; simpl.
    - split; [intros [<-|[]]; auto|]. destruct v; [auto|discriminate].
    - rewrite in_flat_map. split.
      + intros (a & _ & H). apply in_map_iff in H. destruct H as (w & <- & Hw). simpl. f_equal. apply IH. auto.
      + destruct v as [|a v]; [discriminate|]. intro H. exists a. split; [apply (f_all F HF)|].
        apply in_map_iff. exists v. split; auto. apply IH. simpl in H. lia.
  Qed.
  Lemma vecs_nodup n : NoDup (vecs F n).
  Proof.
    induction n as [|n IH]; simpl; [constructor; [intros []|constructor]|].
    assert (G : forall l, NoDup l -> NoDup (flat_map (fun a => map (cons a) (vecs F n)) l)).
    { induction l as [|a l IHl]; simpl; [constructor|]. intro ND. inversion ND; subst. apply NoDup_app_intro; auto.
      - apply FinFun.Injective_map_NoDup; auto. intros x y E. injection E. auto.
      - intros x Hx Hy. apply in_map_iff in Hx. destruct Hx as (w & <- & _). apply in_flat_map in Hy.
        destruct Hy as (a' & Ha & Hy). apply in_map_iff in Hy. destruct Hy as (w' & E & _). injection E as -> _. auto. }
    apply G. apply (f_nodup F HF).
  Qed.
  Lemma vecs_count n : length (vecs F n) = (length (felts F) ^ n)%nat.
  Proof.
    induction n as [|n IH]; simpl; auto.
    assert (G : forall l : list T, length (flat_map (fun a => map (cons a) (vecs F n)) l) = (length l * length (vecs F n))%nat).
    { induction l; simpl; auto. rewrite app_length, map_length, IHl. lia. }
    rewrite G, IH. lia.
  Qed.
  Lemma veqb_ok u : forall v, veqb F u v = true <-> u = v.
  Proof.
    induction u as [|a u IH]; intros [|b v]; simpl; split; intro H; try discriminate; auto.
    - apply andb_true_iff in H. destruct H as [H1 H2]. apply (f_eqb F HF) in H1. apply IH in H2. congruence.
    - injection H as -> ->. apply andb_true_iff. split; [apply (f_eqb F HF); auto|apply IH; auto].
  Qed.
  Lemma two_elts : (2 <= length (felts F))%nat.
  Proof.
    assert (H : (length [f0 F; f1 F] <= length (felts F))%nat).
    { apply NoDup_incl_length; [|intros x _; apply (f_all F HF)].
      constructor; [intros [H|[]]; apply one_nz; auto|constructor; [intros []|constructor]]. }
    exact H.
  Qed.

  (** The observations l x of the source x. *)
  Definition obs (l : list V) (x : V) : V := map (fun r => dot r x) l.
  Definition fibre (n : nat) (l : list V) (z : V) : list V := filter (fun x => veqb F z (obs l x)) (vecs F n).

  Lemma fibre_In n l z x : In x (fibre n l z) <-> length x = n /\ obs l x = z.
  Proof. unfold fibre. rewrite filter_In, vecs_In, veqb_ok. split; intros []; auto. Qed.

  (** A combination of dual vectors with prescribed products. *)
  Lemma preimage n st : dual n st -> forall z, length z = length st -> exists x, length x = n /\ obs (rows st) x = z.
  Proof.
    intros H z Hz.
    assert (G : forall k, (k <= length st)%nat -> exists x, length x = n /\
       forall i, (i < length st)%nat -> dot (rw st i) x = if (i <? k)%nat then nth i z 0 else 0).
    { induction k as [|k IH]; intro Hk.
      - exists (zero n). split; [apply zero_length|]. intros i Hi. simpl. apply dot_zero_r.
      - destruct IH as (x & X1 & X2); [lia|]. exists (add (scal (nth k z 0) (du st k)) x).
        assert (LD : length (du st k) = n).
        { assert (K : In (du st k) (map snd st)) by (apply nth_In; rewrite map_length; lia).
          apply in_map_iff in K. destruct K as (p & <- & Hp). apply (proj1 H). auto. }
        split; [rewrite add_length; auto; rewrite scal_length; congruence|].
        intros i Hi. rewrite dot_add_r, dot_scal_r, X2, (proj2 H) by (auto; try lia; rewrite scal_length; congruence).
        destruct (i =? k)%nat eqn:E.
        + apply Nat.eqb_eq in E. subst i. replace (k <? k)%nat with false by (symmetry; apply Nat.ltb_ge; lia).
          replace (k <? S k)%nat with true by (symmetry; apply Nat.ltb_lt; lia). ring.
        + apply Nat.eqb_neq in E. replace (i <? S k)%nat with (i <? k)%nat; [ring|].
          destruct (i <? k)%nat eqn:E1; symmetry; [apply Nat.ltb_lt in E1; apply Nat.ltb_lt; lia|
            apply Nat.ltb_ge in E1; apply Nat.ltb_ge; lia]. }
    destruct (G (length st) (le_n _)) as (x & X1 & X2). exists x. split; auto.
    apply (nth_ext _ _ 0 0); [unfold obs, rows; rewrite !map_length; auto|].
    intros i Hi. unfold obs, rows in *. rewrite !map_length in Hi.
    rewrite (nth_indep _ 0 (dot [] x)) by (rewrite !map_length; auto).
    rewrite (map_nth (fun r => dot r x)). specialize (X2 i Hi). unfold rw in X2. rewrite X2.
    replace (i <? length st)%nat with true; auto. symmetry. apply Nat.ltb_lt. auto.
  Qed.

  Lemma obs_add n l x y : (forall r, In r l -> length r = n) -> length x = n -> length y = n ->
    obs l (add x y) = add (obs l x) (obs l y).
  Proof.
    intros H Hx Hy. induction l as [|r l IH]; simpl; auto. rewrite dot_add_r by congruence. f_equal.
    apply IH. intros; apply H; right; auto.
  Qed.
  Lemma obs_scal l c x : obs l (scal c x) = scal c (obs l x).
  Proof. induction l as [|r l IH]; simpl; auto. rewrite dot_scal_r. f_equal. exact IH. Qed.

  Lemma inj_le {A B} (f : A -> B) (l : list A) (l' : list B) : NoDup l -> (forall x, In x l -> In (f x) l') ->
    (forall x y, In x l -> In y l -> f x = f y -> x = y) -> (length l <= length l')%nat.
  Proof.
    intros ND H I. rewrite <- (map_length f l). apply NoDup_incl_length.
    - induction l as [|a l IH]; simpl; [constructor|]. inversion ND; subst. constructor.
      + intro C. apply in_map_iff in C. destruct C as (b & E & Hb).
        assert (b = a) by (apply I; [right; auto|left; auto|auto]). subst b. auto.
      + apply IH; auto; [intros; apply H; right; auto|]. intros x y Hx Hy. apply I; right; auto.
    - intros y Hy. apply in_map_iff in Hy. destruct Hy as (x & <- & Hx). auto.
  Qed.

  Lemma fibre_le n st z z' : dual n st -> length z = length st -> length z' = length st ->
    (length (fibre n (rows st) z) <= length (fibre n (rows st) z'))%nat.
  Proof.
    intros H Hz Hz'.
    assert (HL : forall r, In r (rows st) -> length r = n) by (intro r; apply dual_rows; auto).
    destruct (preimage n st H (add (scal (- (1)) z) z')) as (t & T1 & T2).
    { rewrite add_length; [auto|]. rewrite scal_length. congruence. }
    apply (inj_le (fun x => add x t)).
    - apply NoDup_filter. apply vecs_nodup.
    - intros x Hx. apply fibre_In in Hx. destruct Hx as [X1 X2]. apply fibre_In.
      split; [rewrite add_length; congruence|]. rewrite (obs_add n), X2, T2; auto.
      rewrite add_assoc, (add_comm z), add_opp. apply add_zero_l. congruence.
    - intros x y Hx Hy E. apply fibre_In in Hx. apply fibre_In in Hy.
      assert (G : forall u, length u = n -> add (add u t) (scal (- (1)) t) = u).
      { intros u Hu. rewrite <- add_assoc, (add_comm t), add_opp, T1. apply add_zero_r. auto. }
      rewrite <- (G x), <- (G y) by tauto. rewrite E. reflexivity.
  Qed.

  Fixpoint nsum (l : list nat) : nat := match l with [] => O | a :: t => (a + nsum t)%nat end.
  Lemma nsum_const c l : (forall x, In x l -> x = c) -> nsum l = (length l * c)%nat.
  Proof. induction l as [|a l IH]; simpl; intro H; [reflexivity|]. rewrite (H a), IH; auto. Qed.

  Lemma split_fibres n l : (forall x, In x (vecs F n) -> length (obs l x) = length l) ->
    length (vecs F n) = nsum (map (fun z => length (fibre n l z)) (vecs F (length l))).
  Proof.
    intro H. unfold fibre. revert H. generalize (vecs F n). induction l0 as [|x xs IH]; intro H; simpl.
    - rewrite (nsum_const 0); [lia|]. intros y Hy. apply in_map_iff in Hy. destruct Hy as (z & <- & _). reflexivity.
    - rewrite IH by (intros; apply H; right; auto).
      assert (Hx : In (obs l x) (vecs F (length l))) by (apply vecs_In; apply H; left; auto).
      assert (ND := vecs_nodup (length l)). revert Hx ND. generalize (vecs F (length l)).
      assert (SAME : forall Z, ~ In (obs l x) Z ->
        nsum (map (fun z => length (if veqb F z (obs l x) then x :: filter (fun x0 => veqb F z (obs l x0)) xs else filter (fun x0 => veqb F z (obs l x0)) xs)) Z) =
        nsum (map (fun z => length (filter (fun x0 => veqb F z (obs l x0)) xs)) Z)).
      { induction Z as [|z Z IHZ]; simpl; auto. intro NI. rewrite IHZ by auto.
        destruct (veqb F z (obs l x)) eqn:E; auto. apply veqb_ok in E. exfalso. auto. }
      induction l0 as [|z Z IHZ]; intros Hx ND; [destruct Hx|]. inversion ND; subst. simpl.
      destruct (veqb F z (obs l x)) eqn:E.
      + apply veqb_ok in E. subst z. rewrite SAME by auto. simpl. lia.
      + destruct Hx as [Hx|Hx]; [subst z; assert (veqb F (obs l x) (obs l x) = true) by (apply veqb_ok; auto); congruence|].
        specialize (IHZ Hx H3). lia.
  Qed.

  Lemma fibre_count n st z : dual n st -> length z = length st ->
    (length st <= n)%nat /\ length (fibre n (rows st) z) = (length (felts F) ^ (n - length st))%nat.
  Proof.
    intros H Hz. assert (Hq := two_elts). set (q := length (felts F)) in *.
    assert (E := split_fibres n (rows st)).
    assert (LR : length (rows st) = length st) by apply map_length.
    rewrite (nsum_const (length (fibre n (rows st) z))) in E.
    2:{ intros x Hx. apply in_map_iff in Hx. destruct Hx as (z' & <- & Hz'). apply vecs_In in Hz'.
        assert (length (fibre n (rows st) z') <= length (fibre n (rows st) z))%nat by (apply fibre_le; auto; congruence).
        assert (length (fibre n (rows st) z) <= length (fibre n (rows st) z'))%nat by (apply fibre_le; auto; congruence).
        lia. }
    rewrite map_length, !vecs_count, LR in E. fold q in E.
    assert (K : (q ^ n = q ^ length st * length (fibre n (rows st) z))%nat) by (apply E; intros; unfold obs; rewrite map_length; auto).
    assert (PP : forall a, (0 < q ^ a)%nat) by (intro a; apply Nat.neq_0_lt_0, Nat.pow_nonzero; lia).
    assert (LE : (length st <= n)%nat).
    { destruct (le_lt_dec (length st) n) as [L|L]; auto. exfalso.
      assert (PN := PP n). destruct (length (fibre n (rows st) z)) as [|m]; [lia|].
      assert (P1 : (q ^ n < q ^ length st)%nat) by (apply Nat.pow_lt_mono_r; lia). nia. }
    split; auto. replace n with (length st + (n - length st))%nat in K at 1 by lia. rewrite Nat.pow_add_r in K.
    apply Nat.mul_cancel_l in K; auto. assert (X := PP (length st)). lia.
  Qed.

  (** The observations of a spanning set determine the others. *)
  Lemma obs_span n l b x y : (forall r, In r l -> length r = n) -> (forall r, In r b -> sp n l r) ->
    obs l x = obs l y -> obs b x = obs b y.
  Proof.
    intros HL HB E.
    assert (G : forall r, In r l -> dot r x = dot r y).
    { clear HL HB. induction l as [|a l IH]; intros r Hr; [destruct Hr|]. simpl in E. injection E as E1 E2.
      destruct Hr as [<-|Hr]; auto. }
    assert (G2 : forall r, sp n l r -> dot r x = dot r y).
    { induction 1 as [|c v w Hv Hw IH]; [rewrite !dot_zero_l; auto|].
      assert (Lw : length w = n) by (eapply span_length; eauto).
      rewrite !dot_add_l, !dot_scal_l, IH, G by (auto; rewrite scal_length, HL; auto). reflexivity. }
    unfold obs. apply map_ext_in. intros r Hr. apply G2. apply HB. auto.
  Qed.

  Lemma rank_fibre n l r : (forall v, In v l -> length v = n) -> is_rank F n l r ->
    (r <= n)%nat /\ forall z, length (fibre n l z) = O \/ length (fibre n l z) = (length (felts F) ^ (n - r))%nat.
  Proof.
    intros HL (b & B1 & B2 & B3 & B4).
    assert (Lb : forall v, In v b -> length v = n) by (intros v Hv; eapply span_length; [|apply B3; auto]; auto).
    destruct (indep_dual n b Lb B2) as (st & S1 & S2).
    assert (LS : length st = r) by (rewrite <- B1, <- S2; unfold rows; rewrite map_length; auto).
    split.
    { rewrite <- LS. apply (fibre_count n st (zero (length st))); auto. apply zero_length. }
    intro z. destruct (fibre n l z) as [|x xs] eqn:E; [auto|right]. rewrite <- E.
    assert (Hx : In x (fibre n l z)) by (rewrite E; left; auto). apply fibre_In in Hx. destruct Hx as [X1 X2].
    destruct (fibre_count n st (obs b x)) as [_ C]; auto; [rewrite <- S2; unfold obs, rows; rewrite !map_length; auto|].
    rewrite LS in C. rewrite <- C. rewrite S2. f_equal. unfold fibre. apply filter_ext_in. intros y Hy. apply vecs_In in Hy.
    apply Bool.eq_true_iff_eq. rewrite !veqb_ok. split; intro K.
    - apply (obs_span n l b); auto. congruence.
    - rewrite <- X2. apply (obs_span n b l); auto.
  Qed.

  Lemma rank_unique n l l' r r' : (forall v, In v l -> length v = n) -> (forall v, In v l' -> length v = n) ->
    (forall v, In v l -> sp n l' v) -> (forall v, In v l' -> sp n l v) ->
    is_rank F n l r -> is_rank F n l' r' -> r = r'.
  Proof.
    intros HL HL' S1 S2 R R'.
    destruct R' as (b & B1 & B2 & B3 & B4).
    assert (R' : is_rank F n l r').
    { exists b. repeat split; auto; intros v Hv.
      - eapply span_trans; [|exact S2|apply B3; auto]. auto.
      - eapply span_trans; [|exact B4|apply S1; auto]. intros u Hu. eapply span_length; [|apply B3; auto]. auto. }
    destruct (rank_fibre n l r HL R) as [L1 C1]. destruct (rank_fibre n l r' HL R') as [L2 C2].
    assert (NZ : In (zero n) (fibre n l (obs l (zero n)))) by (apply fibre_In; split; [apply zero_length|auto]).
    destruct (C1 (obs l (zero n))) as [C|C1']; [destruct (fibre n l _); [destruct NZ|discriminate C]|].
    destruct (C2 (obs l (zero n))) as [C|C2']; [destruct (fibre n l _); [destruct NZ|discriminate C]|].
    rewrite C1' in C2'. apply Nat.pow_inj_r in C2'; [lia|]. apply two_elts.
  Qed.

  (** ** Submodularity *)
  Lemma rank_le_length n l s r : (forall v, In v l -> length v = n) -> (forall v, In v s -> length v = n) ->
    (forall v, In v l -> sp n s v) -> (forall v, In v s -> sp n l v) -> is_rank F n l r -> (r <= length s)%nat.
  Proof.
    intros HL HS S1 S2 R. destruct (elim_fold n s [] (dual_nil n) HS) as (A & (b & B1 & B2 & B3) & _ & _).
    unfold rows in B1 at 2. simpl in B1. rewrite app_nil_r in B1.
    assert (Q := elim_rank_spec n s HS).
    rewrite (rank_unique n l s r (elim_rank F s)); auto. unfold elim_rank.
    assert (E : length (rows (fold_left (elim1 F) s [])) = length b) by (rewrite B1; auto).
    unfold rows in E. rewrite map_length in E. lia.
  Qed.

  Lemma rank_mono n l l' r r' : (forall v, In v l -> length v = n) -> (forall v, In v l' -> length v = n) ->
    incl l l' -> is_rank F n l r -> is_rank F n l' r' -> (r <= r')%nat.
  Proof.
    intros HL HL' I R R'.
    destruct (elim_fold n l [] (dual_nil n) HL) as (A & (b & B1 & B2 & B3) & C & D).
    set (s0 := fold_left (elim1 F) l []) in *.
    destruct (elim_fold n l' s0 A HL') as (A' & (b' & B1' & B2' & B3') & C' & D').
    unfold rows in B1 at 2. simpl in B1. rewrite app_nil_r in B1.
    assert (R1 : is_rank F n l (length s0)) by (exact (elim_rank_spec n l HL)).
    assert (Lr : forall v, In v (rows s0) -> length v = n) by (intro; apply dual_rows; auto).
    assert (R1' : is_rank F n l' (length (fold_left (elim1 F) l' s0))).
    { exists (rows (fold_left (elim1 F) l' s0)). split; [unfold rows; apply map_length|]. split; [apply C', C; exact Logic.I|].
      split; auto. intros v Hv. apply span_in; auto. rewrite B1', in_app_iff in Hv. destruct Hv as [Hv|Hv]; auto.
      apply I. rewrite B1 in Hv. auto. }
    assert (SL : forall m : list V, (forall v, In v m -> length v = n) -> forall v, In v m -> sp n m v).
    { intros m Hm v Hv. apply span_in; auto. }
    rewrite (rank_unique n l l r (length s0)); auto. rewrite (rank_unique n l' l' r' (length (fold_left (elim1 F) l' s0))); auto.
    assert (E : length (rows (fold_left (elim1 F) l' s0)) = length (b' ++ rows s0)) by congruence.
    rewrite app_length in E. unfold rows in E. rewrite !map_length in E. lia.
  Qed.

  Lemma rank_sub n lA lB lU lI a b u i :
    (forall v, In v lA -> length v = n) -> (forall v, In v lB -> length v = n) ->
    (forall v, In v lU <-> In v lA \/ In v lB) -> incl lI lA -> incl lI lB ->
    is_rank F n lA a -> is_rank F n lB b -> is_rank F n lU u -> is_rank F n lI i -> (u + i <= a + b)%nat.
  Proof.
    intros HA HB HU IA IB RA RB RU RI.
    assert (HI : forall v, In v lI -> length v = n) by auto.
    assert (HLU : forall v, In v lU -> length v = n) by (intros v Hv; apply HU in Hv; destruct Hv; auto).
    assert (SL : forall m : list V, (forall v, In v m -> length v = n) -> forall v, In v m -> sp n m v).
    { intros m Hm v Hv. apply span_in; auto. }
    destruct (elim_fold n lI [] (dual_nil n) HI) as (A0 & (b0 & B1 & B2 & B3) & C0 & D0).
    set (s0 := fold_left (elim1 F) lI []) in *. unfold rows in B1 at 2. simpl in B1. rewrite app_nil_r in B1.
    assert (EXT : forall l r, (forall v, In v l -> length v = n) -> incl lI l -> is_rank F n l r ->
       exists c, incl c l /\ (forall v, In v l -> sp n (c ++ rows s0) v) /\ r = (length c + length s0)%nat).
    { intros l r HL IL R. destruct (elim_fold n l s0 A0 HL) as (A & (c & C1 & C2 & C3) & C & D).
      exists c. split; auto. split; [rewrite <- C1; auto|].
      assert (R1 : is_rank F n l (length (fold_left (elim1 F) l s0))).
      { exists (rows (fold_left (elim1 F) l s0)). split; [unfold rows; apply map_length|]. split; [apply C, C0; exact I|].
        split; auto. intros v Hv. apply span_in; auto. rewrite C1, in_app_iff in Hv. destruct Hv as [Hv|Hv]; auto.
        apply IL. rewrite B1 in Hv. auto. }
      rewrite (rank_unique n l l r (length (fold_left (elim1 F) l s0))); auto.
      assert (E : length (rows (fold_left (elim1 F) l s0)) = length (c ++ rows s0)) by congruence.
      rewrite app_length in E. unfold rows in E. rewrite !map_length in E. lia. }
    destruct (EXT lA a HA IA RA) as (ca & A1 & A2 & A3). destruct (EXT lB b HB IB RB) as (cb & B1' & B2' & B3').
    assert (EI : i = length s0) by (apply (rank_unique n lI lI); auto; exact (elim_rank_spec n lI HI)).
    assert (S0 : forall v, In v (rows s0) -> In v lI) by (intros v Hv; rewrite B1 in Hv; auto).
    assert (LS : forall v, In v (ca ++ cb ++ rows s0) -> In v lU).
    { intros v Hv. apply HU. rewrite !in_app_iff in Hv. destruct Hv as [Hv|[Hv|Hv]]; auto. }
    assert (K : (u <= length (ca ++ cb ++ rows s0))%nat).
    { apply (rank_le_length n lU); auto.
      intros v Hv. apply HU in Hv. destruct Hv as [Hv|Hv]; [eapply span_incl; [|apply A2; auto]|eapply span_incl; [|apply B2'; auto]];
        intros x Hx; rewrite !in_app_iff in *; tauto. }
    rewrite !app_length in K. unfold rows in K. rewrite map_length in K. lia.
  Qed.
End Fld.
