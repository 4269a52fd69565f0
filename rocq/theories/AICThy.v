(** * AICThy: AIC::agglomerate against the step of AggThy. *)
From Coq Require Import Sorted Relations.
From Verif Require Import Base Graph Spec PartThy SubThy MSets MHC HCThy HCInv HCSearch HCPart MAIC SFSpec MNBThy
  AICStep AggThy.

(** ** The set functions *)
Lemma bind_ok {A B} (r : res A) (k : A -> res B) a : r = Ok a -> bind r k = k a.
Proof. intros ->. reflexivity. Qed.

Lemma sf_evals_ok f F P : evaluates f F ->
  (forall C, In C P -> C <> [] /\ NoDup C /\ forall x, In x C -> (x < sfn f)%nat) ->
  exists fi, sf_evals f P = Ok fi /\ length fi = length P /\
    forall i, (i < length P)%nat -> nth i fi 0 == F (mem (nth i P [])).
Proof.
  intro HF. induction P as [|C P IH]; intro H; simpl.
  - exists []. split; auto. split; auto. intros. lia.
  - destruct (H C (or_introl eq_refl)) as (N0 & N1 & N2). destruct (HF C N0 N1 N2) as (v & V1 & V2).
    destruct IH as (fi & E1 & E2 & E3); [intros; apply H; right; auto|].
    rewrite V1. cbn [bind]. rewrite E1. cbn [bind]. exists (v :: fi). split; auto. split; [simpl; lia|].
    intros [|i] Hi; simpl; auto. apply E3. lia.
Qed.

Lemma qsum_set n (B : list nat) (f : nat -> Q) : NoDup B -> (forall b, In b B -> (b < n)%nat) ->
  qsum f B == vsum n f (mem B).
Proof.
  intros N H. unfold vsum. rewrite <- qsum_filter. apply qsum_perm. apply NoDup_Permutation; auto.
  - apply NoDup_filter, seq_NoDup.
  - intro x. rewrite filter_In, in_seq, mem_In. split; [|tauto]. intro Hx. split; auto. apply H in Hx. lia.
Qed.

Lemma sf_contract_ok f F P : ground (sfn f) F -> evaluates f F -> is_partition (seq 0 (sfn f)) P ->
  exists f_, sf_contract f P = Ok f_ /\ sfn f_ = length P /\ evaluates f_ (contr F P).
Proof.
  intros HG HF HP. assert (ND := part_NoDup _ (seq_NoDup _ _) P HP).
  destruct (sf_evals_ok f F P HF) as (fi & E1 & E2 & E3).
  { intros C HC. split; [destruct (part_nonempty _ P C HP HC) as [? K]; intros ->; destruct K|]. split; [eapply nd_part_NoDup_in; eauto|]. intros x Hx.
    apply (part_incl _ P C HP HC) in Hx. apply in_seq in Hx. lia. }
  unfold sf_contract. rewrite E1. cbn [bind]. eexists. split; [reflexivity|]. split; [reflexivity|].
  intros B N0 N H. cbn [sfn sfv] in *.
  replace (forallb (fun i => i <? length P)%nat B) with true.
  2:{ symmetry. apply forallb_forall. intros b Hb. apply Nat.ltb_lt. apply H; auto. }
  destruct (HF (flat_map (fun i => nth i P []) B)) as (v & V1 & V2).
  - destruct B as [|b B]; [congruence|]. assert (I : In (nth b P []) P) by (apply nth_In; apply H; left; auto).
    destruct (part_nonempty _ P _ HP I) as [y K]. simpl. destruct (nth b P []); [destruct K|discriminate].
  - clear -ND N H. induction B as [|b B IH]; simpl; [constructor|]. inversion N; subst.
    apply NoDup_app_intro.
    + eapply nd_part_NoDup_in; [exact ND|]. apply nth_In. apply H. left; auto.
    + apply IH; auto. intros. apply H. right; auto.
    + intros x Hx Hy. apply in_flat_map in Hy. destruct Hy as (c & C1 & C2).
      assert (b = c) by (apply (nd_nth_unique P ND b c x); auto; apply H; [left|right]; auto). subst; auto.
  - intros x Hx. apply in_flat_map in Hx. destruct Hx as (b & B1 & B2).
    assert (I : In (nth b P []) P) by (apply nth_In; apply H; auto).
    apply (part_incl _ P _ HP I) in B2. apply in_seq in B2. lia.
  - rewrite V1. cbn [bind]. eexists. split; [reflexivity|]. unfold contr. rewrite V2.
    rewrite (HG (mem (flat_map (fun i => nth i P []) B)) (upart P (mem B))).
    + rewrite (qsum_set (length P)) by auto.
      rewrite (vsum_ext (length P) (fun i => nth i fi 0) (fun i => F (mem (nth i P []))) (mem B) (mem B)); auto.
      reflexivity.
    + intros x _. apply Bool.eq_true_iff_eq. rewrite mem_In, upart_true, in_flat_map. split.
      * intros (b & B1 & B2). exists b. split; auto. split; auto. apply mem_In; auto.
      * intros (b & B1 & B2 & B3). apply mem_In in B2. eauto.
Qed.

Lemma sf_fix_ok f G k j : sfn f = k -> ground k G -> evaluates f G -> (j < k)%nat ->
  computes (sf_fix f j) (hfix G j).
Proof.
  intros Hk HG HF Hj B N H. cbn [sf_fix sfn sfv] in *.
  assert (E : map (fun b => if (b <? j)%nat then b else 0%nat) B = B).
  { clear -H. induction B as [|b B IH]; simpl; auto. rewrite IH by (intros; apply H; right; auto).
    assert (L : (b < j)%nat) by (apply H; left; auto). apply Nat.ltb_lt in L. rewrite L. reflexivity. }
  rewrite E. destruct (HF (B ++ [j])) as (v & V1 & V2).
  - destruct B; discriminate.
  - apply NoDup_app_intro; auto; [constructor; [intros []|constructor]|]. intros x Hx [<-|[]]. apply H in Hx. lia.
  - intros b Hb. apply in_app_or in Hb. destruct Hb as [Hb|[<-|[]]]; [apply H in Hb|]; lia.
  - exists v. split; auto. rewrite V2. apply HG. intros i _. rewrite mem_app. simpl. rewrite orb_false_r.
    destruct (mem B i) eqn:M; simpl; auto. apply mem_In in M. apply H in M. apply Nat.ltb_lt in M. rewrite M. reflexivity.
Qed.

(** ** minCoeff and max *)
Lemma vmin_ok x : x <> [] -> exists m, vmin x = Ok m /\ In m x /\ forall y, In y x -> m <= y.
Proof.
  destruct x as [|a t]; [congruence|]. intros _. unfold vmin.
  assert (K : forall t a, let m := fold_left (fun m b => if Qltb b m then b else m) t a in
    (m = a \/ In m t) /\ m <= a /\ forall y, In y t -> m <= y).
  { clear. induction t as [|b t IH]; intros a; cbn [fold_left].
    - split; auto. split; [lra|]. intros y [].
    - destruct (Qltb b a) eqn:E.
      + destruct (IH b) as (I1 & I2 & I3). apply Qltb_true in E. split; [destruct I1; [right; left|right; right]; auto|].
        split; [lra|]. intros y [<-|Hy]; auto.
      + destruct (IH a) as (I1 & I2 & I3). apply Qltb_false in E. split; [destruct I1; [left|right; right]; auto|].
        split; [lra|]. intros y [<-|Hy]; auto. lra. }
  destruct (K t a) as (I1 & I2 & I3). eexists. split; [reflexivity|]. split.
  - destruct I1 as [->|I1]; [left|right]; auto.
  - intros y [<-|Hy]; auto.
Qed.

Lemma emax_ge g c : egeb (emax g c) g = true /\ egeb (emax g c) (Val c) = true.
Proof.
  unfold emax. destruct (egtb (Val c) g) eqn:E.
  - split; [|apply egeb_refl]. unfold egeb. rewrite negb_true_iff. destruct g as [|q|]; simpl in *; try discriminate; auto.
    apply Qltb_true in E. apply Qltb_false. lra.
  - split; [apply egeb_refl|]. unfold egeb. rewrite E. reflexivity.
Qed.

Section Solve.
  Variables (mnb : sf -> res (list Q)) (f_ : sf) (k : nat) (G : nset -> Q).
  Hypothesis Hm : MinNormSpec mnb.
  Hypothesis Hk : sfn f_ = k.
  Hypothesis HG : ground k G.
  Hypothesis HS : submodular G.
  Hypothesis H1 : forall j, (j < k)%nat -> G (fun i => (i =? j)%nat) == 0.
  Hypothesis HF : evaluates f_ G.

  Lemma agg_solve_ok : forall js g0, (forall j, In j js -> (1 <= j < k)%nat) ->
    exists g xs, agg_solve mnb f_ js g0 = Ok (g, xs) /\ length xs = length js /\
      (forall t, (t < length js)%nat -> length (nth t xs []) = nth t js 0%nat /\
         min_norm (nth t js 0%nat) (hfix G (nth t js 0%nat)) (vec (nth t xs []))) /\
      (forall t i, (t < length js)%nat -> (i < nth t js 0%nat)%nat -> egeb g (Val (- vec (nth t xs []) i)) = true) /\
      egeb g g0 = true /\
      (g = g0 \/ exists t i, (t < length js)%nat /\ (i < nth t js 0%nat)%nat /\ g = Val (- vec (nth t xs []) i)).
  Proof.
    induction js as [|j js IH]; intros g0 H; cbn [agg_solve].
    - exists g0, []. split; auto. split; auto. split; [intros; simpl in *; lia|]. split; [intros; simpl in *; lia|].
      split; [apply egeb_refl|auto].
    - assert (Hj : (1 <= j < k)%nat) by (apply H; left; auto).
      destruct (Hm (sf_fix f_ j) (hfix G j)) as (x & X1 & X2 & X3).
      { simpl. lia. }
      { eapply sf_fix_ok; eauto. lia. }
      { simpl. eapply hfix_ground; eauto. lia. }
      { eapply hfix_sub; eauto. }
      { eapply hfix_none; eauto. lia. }
      simpl in X2, X3. rewrite X1. cbn [bind].
      destruct (vmin_ok x) as (m & M1 & M2 & M3); [destruct x; [simpl in X2; lia|congruence]|].
      rewrite M1. cbn [bind].
      destruct (IH (emax g0 (- m))) as (g & xs & E1 & E2 & E3 & E4 & E5 & E6); [intros; apply H; right; auto|].
      rewrite E1. cbn [bind fst snd].
      assert (EG := emax_ge g0 (- m)). destruct EG as [EG1 EG2].
      exists g, (x :: xs). split; auto. split; [simpl; lia|]. split; [|split; [|split]].
      + intros [|t] Ht; simpl in *; auto. apply E3. lia.
      + intros [|t] i Ht Hi; simpl in *.
        * apply (egeb_trans g (emax g0 (- m))); auto. apply (egeb_trans _ (Val (- m))); auto.
          unfold egeb. rewrite negb_true_iff. simpl. apply Qltb_false.
          assert (m <= vec x i) by (apply M3; apply nth_In; lia). lra.
        * apply E4; auto. lia.
      + apply (egeb_trans g (emax g0 (- m))); auto.
      + destruct E6 as [E6|(t & i & T1 & T2 & T3)].
        * unfold emax in E6. destruct (egtb (Val (- m)) g0).
          -- right. apply (In_nth _ _ 0) in M2. destruct M2 as (i & I1 & I2). exists 0%nat, i. simpl.
             split; [lia|]. split; [lia|]. rewrite E6. unfold vec. rewrite I2. reflexivity.
          -- left. auto.
        * right. exists (S t), i. simpl. split; [lia|]. auto.
  Qed.
End Solve.

(** ** The merges *)
Definition clos (R : nat -> nat -> Prop) := clos_refl_sym_trans nat R.

Lemma clos_sub (R S : nat -> nat -> Prop) : (forall a b, R a b -> clos S a b) -> forall a b, clos R a b -> clos S a b.
Proof.
  intros H a b J. induction J as [a b K|a|a b _ IH|a b c _ IH1 _ IH2].
  - auto.
  - apply rst_refl.
  - apply rst_sym; auto.
  - eapply rst_trans; eauto.
Qed.

Section Merge.
  Variables (n : nat) (P : list (list nat)) (xs : list (list Q)) (g tol : Q).
  Let k := length P.
  Hypothesis HP : is_partition (seq 0 n) P.
  Hypothesis Hxs : forall j, (1 <= j < k)%nat -> exists x, nth_error xs (j - 1) = Some x /\ length x = j.
  Definition cond (i j : nat) : bool := Qle_bool (vec (nth (j - 1) xs []) i) (- g + tol).
  Definition hdp (i : nat) : nat := hd 0%nat (nth i P []).
  Definition mrel (ps : list (nat * nat)) (a b : nat) : Prop :=
    exists i j, In (i, j) ps /\ cond i j = true /\ a = hdp j /\ b = hdp i.

  Lemma hdp_in i : (i < k)%nat -> In (hdp i) (nth i P []) /\ (hdp i < n)%nat /\ exists t, nth_error P i = Some (hdp i :: t).
  Proof.
    intro Hi. assert (I : In (nth i P []) P) by (apply nth_In; auto).
    assert (N := nth_error_nth' P [] Hi). unfold hdp.
    destruct (part_nonempty _ P _ HP I) as (x & Hx). destruct (nth i P []) as [|a t] eqn:E; [destruct Hx|].
    simpl. split; auto. split; [|eauto].
    assert (J : In a (seq 0 n)) by (apply (part_incl _ P _ HP I); left; auto). apply in_seq in J. lia.
  Qed.

  Lemma agg_merge_ok : forall ps st acc, inv st acc -> hn st = n ->
    (forall x y w, In (x, y, w) acc -> g <= w) -> (forall i j, In (i, j) ps -> (i < j)%nat /\ (j < k)%nat) ->
    exists st' acc2, agg_merge st P xs g tol ps = Ok st' /\ hn st' = n /\ inv st' (acc ++ acc2) /\
      (forall x y w, In (x, y, w) acc2 -> w = g) /\
      (forall x y, joined (acc ++ acc2) NegInf x y <-> clos (fun a b => joined acc NegInf a b \/ mrel ps a b) x y) /\
      (forall a b, mrel ps a b -> ~ joined acc NegInf a b -> acc2 <> []).
  Proof.
    induction ps as [|[i j] ps IH]; intros st acc I Hn Hw Hps; cbn [agg_merge].
    - exists st, []. rewrite app_nil_r. split; auto. split; auto. split; auto. split; [intros ? ? ? []|].
      split.
      + intros x y. split; intro J.
        * apply rst_step. auto.
        * apply (clos_sub (fun a b => joined acc NegInf a b \/ mrel [] a b)
                          (fun a b => exists w, In (a, b, w) acc /\ egtb (Val w) NegInf = true)); auto.
          intros a b [K|(i & j & [] & _)]. exact K.
      + intros a b (i & j & [] & _).
    - destruct (Hps i j (or_introl eq_refl)) as [Hij Hjk].
      assert (Hps' : forall i j, In (i, j) ps -> (i < j)%nat /\ (j < k)%nat) by (intros; apply Hps; right; auto).
      destruct (Hxs j) as (x & X1 & X2); [lia|]. rewrite X1.
      assert (X3 : nth_error x i = Some (vec x i)) by (apply nth_error_nth'; lia). rewrite X3.
      assert (X4 : nth (j - 1) xs [] = x) by (apply nth_error_nth; auto).
      assert (C : cond i j = Qle_bool (vec x i) (- g + tol)) by (unfold cond; rewrite X4; auto).
      destruct (Qle_bool (vec x i) (- g + tol)) eqn:E.
      + destruct (hdp_in j Hjk) as (J1 & J2 & tj & J3). destruct (hdp_in i) as (I1 & I2 & ti & I3); [lia|].
        rewrite J3, I3.
        destruct (merge_ok st acc (hdp j) (hdp i) g I) as (st1 & b & M1 & M2 & M3 & M4 & M5); [lia|lia|].
        rewrite M1. cbn [bind fst].
        destruct b.
        * destruct (IH st1 _ M3) as (st2 & acc2 & R1 & R2 & R3 & R4 & R5 & R6); auto.
          { congruence. }
          { intros u v w Hu. apply in_app_or in Hu. destruct Hu as [Hu|[Hu|[]]]; [eapply Hw; eauto|].
            injection Hu as _ _ <-. lra. }
          exists st2, ((hdp j, hdp i, g) :: acc2).
          replace (acc ++ (hdp j, hdp i, g) :: acc2) with ((acc ++ [(hdp j, hdp i, g)]) ++ acc2)
            by (rewrite <- app_assoc; reflexivity).
          split; auto. split; auto. split; auto. split.
          { intros u v w [Hu|Hu]; [injection Hu as _ _ <-; auto|eapply R4; eauto]. }
          split; [|intros; discriminate].
          intros u v. rewrite R5. split; intro K; revert K; apply clos_sub.
          -- intros a c [K|K].
             ++ unfold joined in K. revert K. apply clos_sub. intros a' c' (w & W1 & W2). apply in_app_or in W1.
                destruct W1 as [W1|[W1|[]]].
                ** apply rst_step. left. apply rst_step. exists w. auto.
                ** injection W1 as <- <- <-. apply rst_step. right. exists i, j. split; [left; auto|]. rewrite C. auto.
             ++ destruct K as (i' & j' & K1 & K2). apply rst_step. right. exists i', j'. split; [right|]; auto.
          -- intros a c [K|(i' & j' & K1 & K2 & K3 & K4)].
             ++ apply rst_step. left. revert K. apply joined_mono. apply incl_appl, incl_refl.
             ++ apply rst_step. destruct K1 as [K1|K1].
                ** injection K1 as <- <-. left. apply rst_step. exists g. rewrite K3, K4. split; [apply in_or_app; right; left; auto|].
                   reflexivity.
                ** right. exists i', j'. auto.
        * specialize (M5 eq_refl). subst st1.
          assert (JJ : joined acc NegInf (hdp j) (hdp i)).
          { apply (inv_conn _ _ I NegInf (hdp j) (hdp i)); [lia|lia|].
            destruct (Nat.eq_dec (rt st NegInf (hdp j)) (rt st NegInf (hdp i))) as [|NE]; auto. exfalso.
            assert (false = true); [|discriminate]. apply M4. split; auto.
            intro K. apply NE. apply (inv_conn _ _ I NegInf (hdp j) (hdp i)); auto; lia. }
          destruct (IH st acc I Hn Hw Hps') as (st2 & acc2 & R1 & R2 & R3 & R4 & R5 & R6).
          exists st2, acc2. split; auto. split; auto. split; auto. split; auto. split.
          -- intros u v. rewrite R5. split; intro K; revert K; apply clos_sub.
             ++ intros a c [K|(i' & j' & K1 & K2)]; apply rst_step; [left; auto|right; exists i', j'; split; [right|]; auto].
             ++ intros a c [K|(i' & j' & K1 & K2 & K3 & K4)]; apply rst_step; [left; auto|].
                destruct K1 as [K1|K1]; [|right; exists i', j'; auto].
                injection K1 as <- <-. left. rewrite K3, K4. auto.
          -- intros a c (i' & j' & K1 & K2 & K3 & K4) NJ. destruct K1 as [K1|K1].
             ++ exfalso. injection K1 as <- <-. apply NJ. rewrite K3, K4. auto.
             ++ apply (R6 a c); auto. exists i', j'. auto.
      + destruct (IH st acc I Hn Hw Hps') as (st2 & acc2 & R1 & R2 & R3 & R4 & R5 & R6).
        exists st2, acc2. split; auto. split; auto. split; auto. split; auto. split.
        * intros u v. rewrite R5. split; intro K; revert K; apply clos_sub.
          -- intros a c [K|(i' & j' & K1 & K2)]; apply rst_step; [left; auto|right; exists i', j'; split; [right|]; auto].
          -- intros a c [K|(i' & j' & K1 & K2 & K3)]; apply rst_step; [left; auto|].
             destruct K1 as [K1|K1]; [|right; exists i', j'; auto]. injection K1 as <- <-. congruence.
        * intros a c (i' & j' & K1 & K2 & K3) NJ. destruct K1 as [K1|K1].
          -- exfalso. injection K1 as <- <-. congruence.
          -- apply (R6 a c); auto. exists i', j'. auto.
  Qed.
End Merge.

Lemma agg_pairs_In k i j : In (i, j) (agg_pairs k) <-> (i < j)%nat /\ (j < k)%nat.
Proof.
  unfold agg_pairs. rewrite in_flat_map. split.
  - intros (m & M1 & M2). apply in_map_iff in M2. destruct M2 as (l & L1 & L2). injection L1 as <- <-.
    apply in_seq in M1, L2. lia.
  - intros [H1 H2]. exists j. split; [apply in_seq; lia|]. apply in_map_iff. exists i. split; auto. apply in_seq. lia.
Qed.

Lemma onD_plus D a b : onD D a -> onD D b -> onD D (a + b).
Proof.
  intros (z & Hz) (y & Hy). exists (z + y)%Z. rewrite Hz, Hy. unfold Qeq, Qplus. simpl.
  rewrite Pos2Z.inj_mul. ring.
Qed.
Lemma onD_0 D : onD D 0.
Proof. exists 0%Z. reflexivity. Qed.
Lemma onD_wd D a b : a == b -> onD D a -> onD D b.
Proof. intros E (z & Hz). exists z. rewrite <- E. auto. Qed.

Lemma onD_sum {A} D (f : A -> Q) l : (forall a, In a l -> onD D (f a)) -> onD D (qsum f l).
Proof.
  induction l as [|a l IH]; intro H; simpl; [apply onD_0|]. apply onD_plus; [apply H; left; auto|].
  apply IH. intros. apply H. right; auto.
Qed.

Lemma contr_onD F P D : (forall S, onD D (F S)) -> forall B, onD D (contr F P B).
Proof.
  intros H B. unfold contr. apply onD_minus; auto. apply onD_sum. intros i _. destruct (B i); [auto|apply onD_0].
Qed.

Lemma hc_merge_gam st i j g r : hc_merge st i j g = Ok r ->
  hgam (fst r) = hgam st \/ (gam_gt (hgam st) g = true /\ hgam (fst r) = hgam st ++ [g]).
Proof.
  unfold hc_merge. destruct (_ && _); [|discriminate]. destruct (hc_find _ _ i) as [ir| | |]; try discriminate.
  cbn [bind]. destruct (hc_find _ _ j) as [jr| | |]; try discriminate. cbn [bind].
  destruct (_ || _); [intro E; injection E as <-; auto|].
  destruct (rk st ir <=? rk st jr)%nat; intro E; injection E as <-; simpl; destruct (gam_gt (hgam st) g); auto.
Qed.

Lemma agg_merge_gam P xs g tol : forall ps st st', agg_merge st P xs g tol ps = Ok st' ->
  hgam st' = hgam st \/ hgam st' = hgam st ++ [g].
Proof.
  induction ps as [|[i j] ps IH]; intros st st' E; cbn [agg_merge] in E; [injection E as <-; auto|].
  destruct (nth_error xs (j - 1)) as [x|]; [|discriminate]. destruct (nth_error x i) as [v|]; [|discriminate].
  destruct (Qle_bool v (- g + tol)); [|eauto].
  destruct (nth_error P j) as [[|a ?]|]; try discriminate. destruct (nth_error P i) as [[|b ?]|]; try discriminate.
  destruct (hc_merge st a b g) as [r| | |] eqn:M; try discriminate. cbn [bind] in E.
  apply hc_merge_gam in M. destruct M as [M|[M0 M]].
  - rewrite <- M. eauto.
  - right. rewrite <- M. clear IH.
    assert (K : forall ps st, (exists gs, hgam st = gs ++ [g]) -> forall st', agg_merge st P xs g tol ps = Ok st' -> hgam st' = hgam st).
    { clear. induction ps as [|[i j] ps IH]; intros st (gs & HG) st' E; cbn [agg_merge] in E; [injection E as <-; auto|].
      destruct (nth_error xs (j - 1)) as [x|]; [|discriminate]. destruct (nth_error x i) as [v|]; [|discriminate].
      destruct (Qle_bool v (- g + tol)); [|eauto].
      destruct (nth_error P j) as [[|a ?]|]; try discriminate. destruct (nth_error P i) as [[|b ?]|]; try discriminate.
      destruct (hc_merge st a b g) as [r| | |] eqn:M; try discriminate. cbn [bind] in E.
      apply hc_merge_gam in M. assert (M' : hgam (fst r) = hgam st).
      { destruct M as [M|[M0 M]]; auto. exfalso. rewrite HG in M0. unfold gam_gt in M0. rewrite rev_app_distr in M0.
        simpl in M0. apply Qltb_true in M0. lra. }
      rewrite <- M'. apply IH; auto. exists gs. congruence. }
    apply (K ps (fst r)); auto. exists (hgam st). auto.
Qed.

Section StepCode.
  Variables (mnb : sf -> res (list Q)) (tol : Q) (f : sf) (F : nset -> Q) (D : positive).
  Let n := sfn f.
  Hypothesis Hm : MinNormSpec mnb.
  Hypothesis HG : ground n F.
  Hypothesis HS : submodular F.
  Hypothesis HF : evaluates f F.
  Hypothesis HD : forall S, onD D (F S).
  Hypothesis Ht : 0 <= tol.
  Hypothesis Hft : tol * (Zpos D # 1) * (qn (n - 1) * qn (n - 1)) < 1.
  Hypothesis Hn : (0 < n)%nat.

  Lemma coarsest_ok st acc : inv st acc -> hn st = n ->
    exists P, get_partition st NegInf = Ok P /\ is_partition (seq 0 n) P /\
      forall x y, (x < n)%nat -> (y < n)%nat -> (same_part P x y = true <-> joined acc NegInf x y).
  Proof.
    intros I Hh. destruct (get_partition_ok st (inv_wf _ _ I) NegInf) as (P & P1 & P2 & P3); [lia|].
    rewrite Hh in *. exists P. split; auto. split; auto. intros x y Hx Hy. rewrite P3 by auto.
    apply (inv_conn _ _ I); lia.
  Qed.

  Theorem agglomerate_step st acc P : inv st acc -> hn st = n ->
    get_partition st NegInf = Ok P -> (2 <= length P)%nat ->
    (forall x y w, In (x, y, w) acc -> ssparse F P w) ->
    exists st' acc2 g P', agglomerate mnb tol f st = Ok (st', true) /\ hn st' = n /\ inv st' (acc ++ acc2) /\
      acc2 <> [] /\ (forall x y w, In (x, y, w) acc2 -> w = g) /\ (forall x y w, In (x, y, w) acc -> g < w) /\
      get_partition st' NegInf = Ok P' /\ is_partition (seq 0 n) P' /\ refines P P' /\ (length P' < length P)%nat /\
      sparse F P g /\ (strong F P g -> strong F P' g) /\ ssparse F P' g /\
      (forall R, is_partition (seq 0 n) R -> refines P R -> pval F g P <= pval F g R) /\
      pval F g P' == pval F g P /\
      (forall R, is_partition (seq 0 n) R -> refines P R -> pval F g R <= pval F g P -> refines R P') /\
      hgam st' = hgam st ++ [g].
  Proof.
    intros I Hh HPg H2 Hss.
    destruct (coarsest_ok st acc I Hh) as (P0 & E0 & HP & Hsame). rewrite HPg in E0. injection E0 as <-.
    set (vs := seq 0 n) in *. assert (Hnd : NoDup vs) by apply seq_NoDup.
    assert (Hlen : (length P <= n)%nat).
    { assert (K := part_length_le vs Hnd P HP). unfold vs in K. rewrite seq_length in K. auto. }
    set (k := length P) in *. set (G := contr F P).
    assert (GG : ground k G) by (apply (contr_ground n F HG P)).
    assert (GS : submodular G) by (apply (contr_sub n F HG HS vs P Hnd HP)).
    assert (G1 : forall j, (j < k)%nat -> G (fun i => (i =? j)%nat) == 0) by (intros; apply (contr_one n F HG); auto).
    destruct (sf_contract_ok f F P HG HF HP) as (f_ & C1 & C2 & C3).
    destruct (agg_solve_ok mnb f_ k G Hm C2 GG GS G1 C3 (seq 1 (k - 1)) NegInf) as (ge & xs & S1 & S2 & S3 & S4 & _ & S6).
    { intros j Hj. apply in_seq in Hj. lia. }
    rewrite seq_length in *.
    assert (NT : forall j, (1 <= j < k)%nat -> (j - 1 < k - 1)%nat /\ nth (j - 1) (seq 1 (k - 1)) 0%nat = j).
    { intros j Hj. split; [lia|]. rewrite seq_nth by lia. lia. }
    set (x := fun j => vec (nth (j - 1) xs [])).
    assert (GV : exists g, ge = Val g).
    { destruct S6 as [S6|(t & i & _ & _ & ->)]; [|eauto]. exfalso. subst ge.
      assert (K := S4 0%nat 0%nat). rewrite seq_nth in K by lia. specialize (K ltac:(lia) ltac:(lia)). discriminate K. }
    destruct GV as (g & ->).
    assert (MX : forall j, (1 <= j < k)%nat -> min_norm j (hfix G j) (x j)).
    { intros j Hj. destruct (NT j Hj) as [T1 T2]. destruct (S3 (j - 1)%nat T1) as [_ K]. rewrite T2 in K. exact K. }
    assert (LOW : forall i j, (i < j)%nat -> (j < k)%nat -> - g <= x j i).
    { intros i j Hi Hj. destruct (NT j) as [T1 T2]; [lia|]. assert (K := S4 (j - 1)%nat i T1). rewrite T2 in K.
      specialize (K Hi). unfold egeb in K. apply negb_true_iff in K. simpl in K. apply Qltb_false in K.
      unfold x. lra. }
    assert (ATT : exists i j, (i < j)%nat /\ (j < k)%nat /\ x j i == - g).
    { destruct S6 as [S6|(t & i & T1 & T2 & T3)]; [discriminate|]. rewrite seq_nth in T2 by lia.
      exists i, (1 + t)%nat. split; auto. split; [lia|]. injection T3 as ->. unfold x.
      replace (1 + t - 1)%nat with t by lia. lra. }
    (* the tolerance cannot be noticed *)
    assert (GRID : forall i j, (i < j)%nat -> (j < k)%nat -> exists b z, (1 <= b <= n - 1)%nat /\ x j i * qn b == z # D).
    { intros i j Hi Hj. destruct (coord_grid j (hfix G j) (x j) D i) as (b & z & B1 & B2); auto.
      - eapply hfix_ground; eauto.
      - eapply hfix_sub; eauto.
      - apply MX; lia.
      - intro S. unfold hfix. apply contr_onD; auto.
      - exists b, z. split; auto. lia. }
    assert (TOL : forall i j, (i < j)%nat -> (j < k)%nat -> (cond xs g tol i j = true <-> x j i == - g)).
    { intros i j Hi Hj. unfold cond. rewrite Qle_bool_iff. fold (x j). split; intro L; [|lra].
      assert (LO := LOW i j Hi Hj). destruct (Qlt_le_dec (- g) (x j i)) as [LT|]; [|lra]. exfalso.
      destruct ATT as (i0 & j0 & A1 & A2 & A3).
      destruct (GRID i j Hi Hj) as (b & z & B1 & B2). destruct (GRID i0 j0 A1 A2) as (c & y & Y1 & Y2).
      assert (GAP := grid_gap D (n - 1) (x j0 i0) (x j i) c b y z Y1 B1 Y2 B2 ltac:(lra)).
      assert (M : (x j i - x j0 i0) * (Zpos D # 1) * (qn (n - 1) * qn (n - 1)) <=
                  tol * (Zpos D # 1) * (qn (n - 1) * qn (n - 1))).
      { assert (0 <= qn (n - 1)) by apply qn_nonneg.
        apply Qmult_le_compat_r; [|apply Qmult_le_0_compat; auto]. apply Qmult_le_compat_r; [lra|].
        unfold Qle; simpl; lia. }
      lra. }
    assert (LOWER : forall B, inhab k B -> - g * (card k B - 1) <= G B).
    { intros B HB. apply (step_lower k G GG G1 x MX g LOW B HB). }
    (* gamma lies below the earlier values *)
    assert (LESS : forall a b w, In (a, b, w) acc -> g < w).
    { intros a b w Hw. apply Hss in Hw. destruct ATT as (i & j & A1 & A2 & A3).
      destruct (coord_tight k G GG GS G1 x MX g LOW i j A1 A2 A3) as (B & TB & Bi & Bj).
      set (p := fun C => existsb (fun m => B m && mem (nth m P []) (hd 0%nat C)) (seq 0 k)).
      assert (PE : forall m, (m < k)%nat -> fidx P p m = B m).
      { intros m Hm'. unfold fidx, p. destruct (hdp_in n P HP m Hm') as (D1 & _ & _). fold (hdp P m).
        apply Bool.eq_true_iff_eq. rewrite existsb_exists. split.
        - intros (m' & M1 & M2). apply in_seq in M1. apply andb_true_iff in M2. destruct M2 as [M2 M3].
          apply mem_In in M3. assert (m = m') by (apply (nd_nth_unique P (part_NoDup vs Hnd P HP) m m' (hdp P m)); auto; lia).
          subst; auto.
        - intro M. exists m. split; [apply in_seq; lia|]. rewrite M. simpl. apply mem_In. auto. }
      assert (TP := gtight_ext k G GG g B (fidx P p) (fun m Hm' => eq_sym (PE m Hm')) TB).
      assert (CP : 2 <= card k (fidx P p)).
      { rewrite card_length. change 2 with (qn 2). apply qn_le.
        assert (IN : forall m, (m < k)%nat -> B m = true -> In m (filter (fidx P p) (seq 0 k))).
        { intros m M1 M2. apply filter_In. split; [apply in_seq; lia|]. rewrite PE; auto. }
        assert (I1 := IN i ltac:(lia) Bi). assert (I2 := IN j A2 Bj).
        destruct (filter (fidx P p) (seq 0 k)) as [|u [|v l]]; simpl in *; [tauto| |lia].
        destruct I1 as [<-|[]]. destruct I2 as [<-|[]]. lia. }
      assert (LP : (2 <= length (filter p P))%nat).
      { apply qn_le_inv. rewrite <- (fam_card P p). exact CP. }
      apply Hw in LP. assert (FV := fam_value n F HG P w p). destruct TP as [_ TP]. fold G in FV. fold k in FV.
      destruct (Qlt_le_dec g w) as [|LE]; auto. exfalso.
      assert (0 <= (g - w) * (card k (fidx P p) - 1)) by (apply Qmult_le_0_compat; lra).
      assert ((g - w) * (card k (fidx P p) - 1) == - (- g * (card k (fidx P p) - 1) + w * (card k (fidx P p) - 1))) by ring.
      rewrite TP in FV. lra. }
    (* the merges *)
    assert (HXS : forall j, (1 <= j < length P)%nat -> exists y, nth_error xs (j - 1) = Some y /\ length y = j).
    { intros j Hj. destruct (NT j Hj) as [T1 T2]. exists (nth (j - 1) xs []). split.
      - apply nth_error_nth'. lia.
      - destruct (S3 (j - 1)%nat T1) as [K _]. rewrite T2 in K. exact K. }
    destruct (agg_merge_ok n P xs g tol HP HXS (agg_pairs k) st acc I Hh) as (st' & acc2 & R1 & R2 & R3 & R4 & R5 & R6).
    { intros a b w Hw. apply LESS in Hw. lra. }
    { intros i j Hij. apply agg_pairs_In in Hij. auto. }
    destruct (coarsest_ok st' _ R3 R2) as (P' & E' & HP' & Hsame').
    exists st', acc2, g, P'.
    assert (SAMEP : forall a b, (a < n)%nat -> (b < n)%nat -> (same_part P a b = true <-> joined acc NegInf a b)) by exact Hsame.
    assert (LT : forall m a, (m < k)%nat -> In a (nth m P []) -> (a < n)%nat).
    { intros m a Hm' Ha. assert (J : In (nth m P []) P) by (apply nth_In; auto).
      apply (part_incl _ P _ HP J) in Ha. apply in_seq in Ha. lia. }
    assert (INJ : forall m a b, (m < k)%nat -> In a (nth m P []) -> In b (nth m P []) -> joined acc NegInf a b).
    { intros m a b Hm' Ha Hb. apply SAMEP; eauto. apply same_part_true. exists (nth m P []). split; auto. apply nth_In; auto. }
    assert (UNI : forall i j a b, (i < k)%nat -> (j < k)%nat -> In a (nth i P []) -> In b (nth j P []) ->
      joined acc NegInf a b -> i = j).
    { intros i j a b Hi Hj Ha Hb J. apply SAMEP in J; eauto. apply same_part_true in J. destruct J as (C & J1 & J2 & J3).
      assert (Ei : C = nth i P []) by (apply (part_unique vs P C _ a Hnd HP); auto; apply nth_In; auto).
      subst C. apply (nd_nth_unique P (part_NoDup vs Hnd P HP) i j b); auto. }
    assert (JOIN : forall i j a b, (i < k)%nat -> (j < k)%nat -> In a (nth i P []) -> In b (nth j P []) ->
      (same_part P' a b = true <-> lnk k G g i j)).
    { intros i j a b Hi Hj Ha Hb. rewrite Hsame' by eauto. rewrite R5. split.
      - intro J.
        assert (K : forall u v, clos (fun a b => joined acc NegInf a b \/ mrel P xs g tol (agg_pairs k) a b) u v ->
          ((u < n)%nat <-> (v < n)%nat) /\
          forall s t, (s < k)%nat -> (t < k)%nat -> In u (nth s P []) -> In v (nth t P []) -> lnk k G g s t).
        { clear a b i j Hi Hj Ha Hb J. intros u v J.
          induction J as [u v [J|(i & j & J1 & J2 & J3 & J4)]|u|u v _ [IH0 IH]|u v w _ [IH0 IH] _ [IH0' IH']].
          - split.
            + clear -J I Hh. induction J as [a b (w & W & _)|a|a b _ IH|a b c _ IH1 _ IH2]; try tauto.
              apply (inv_acc _ _ I) in W. rewrite Hh in W. tauto.
            + intros s t Hs Ht' Us Vt. assert (s = t) by (apply (UNI s t u v); auto). subst t.
              apply (lnk_refl k G G1 g); auto.
          - apply agg_pairs_In in J1. destruct J1 as [J5 J6].
            destruct (hdp_in n P HP j J6) as (A1 & A2 & _). destruct (hdp_in n P HP i) as (B1 & B2 & _); [unfold k in *; lia|].
            subst u v. split; [tauto|]. intros s t Hs Ht' Us Vt.
            assert (s = j) by (apply (nd_nth_unique P (part_NoDup vs Hnd P HP) s j (hdp P j)); auto).
            assert (t = i) by (apply (nd_nth_unique P (part_NoDup vs Hnd P HP) t i (hdp P i)); auto; unfold k in *; lia).
            subst s t. apply TOL in J2; auto. apply lnk_sym.
            destruct (coord_tight k G GG GS G1 x MX g LOW i j J5 J6 J2) as (B & T1 & T2 & T3). exists B. auto.
          - split; [tauto|]. intros s t Hs Ht' Us Vt.
            assert (s = t) by (apply (nd_nth_unique P (part_NoDup vs Hnd P HP) s t u); auto). subst t.
            apply (lnk_refl k G G1 g); auto.
          - split; [tauto|]. intros s t Hs Ht' Us Vt. apply lnk_sym. apply IH; auto.
          - split; [tauto|]. intros s t Hs Ht' Us Wt.
            assert (Vn : (v < n)%nat) by (apply IH0; eauto).
            destruct (part_cover vs P v HP) as (C & V1 & V2); [apply in_seq; lia|].
            apply (In_nth _ _ []) in V1. destruct V1 as (m & V3 & V4). rewrite <- V4 in V2.
            apply (lnk_trans k G GG GS G1 x MX g LOW s m t); auto. }
        apply (K a b J); auto.
      - intro L. apply (lnk_merged k G GG G1 x MX g LOW i j Hi Hj) in L.
        assert (K : forall s t, clos (merged k x g) s t ->
          ((s < k)%nat <-> (t < k)%nat) /\
          forall a b, (s < k)%nat -> (t < k)%nat -> In a (nth s P []) -> In b (nth t P []) ->
          clos (fun a b => joined acc NegInf a b \/ mrel P xs g tol (agg_pairs k) a b) a b).
        { clear a b i j Hi Hj Ha Hb L. intros s t J.
          induction J as [s t (J1 & J2 & J3)|s|s t _ [IH0 IH]|s t u _ [IH0 IH] _ [IH0' IH']].
          - split; [lia|]. intros a b Hs Ht' Ha Hb.
            destruct (hdp_in n P HP s Hs) as (A1 & A2 & _). destruct (hdp_in n P HP t Ht') as (B1 & B2 & _).
            apply (rst_trans _ _ a (hdp P s) b); [apply rst_step; left; apply (INJ s); auto|].
            apply (rst_trans _ _ _ (hdp P t) b); [|apply rst_step; left; apply (INJ t); auto].
            apply rst_sym, rst_step. right. exists s, t. split; [apply agg_pairs_In; auto|]. split; auto.
            apply TOL; auto.
          - split; [tauto|]. intros a b Hs Ht' Ha Hb. apply rst_step. left. apply (INJ s); auto.
          - split; [tauto|]. intros a b Hs Ht' Ha Hb. apply rst_sym. apply IH; auto.
          - split; [tauto|]. intros a b Hs Hu Ha Hb. assert (Ht' : (t < k)%nat) by tauto.
            destruct (hdp_in n P HP t Ht') as (B1 & B2 & _).
            apply (rst_trans _ _ a (hdp P t) b); [apply IH|apply IH']; auto. }
        apply (K i j L); auto.
    }
    assert (CLASS : forall c i, (i < k)%nat -> (forall j, (j < k)%nat -> (c j = true <-> lnk k G g i j)) -> gtight k G g c).
    { intros c i Hi Hc. apply (class_tight k G GG GS G1 x MX g LOW c i Hi Hc). }
    assert (REFL : forall i, (i < k)%nat -> lnk k G g i i) by (intros; apply (lnk_refl k G G1 g); auto).
    assert (REF : refines P P') by (apply (step_refines F vs P Hnd HP g P' HP' JOIN REFL)).
    split.
    { unfold agglomerate. rewrite HPg. cbn [bind].
      replace (length P <=? 1)%nat with false by (symmetry; apply Nat.leb_gt; auto).
      rewrite C1. cbn [bind]. fold k. rewrite S1. cbn [bind fst snd]. rewrite R1. reflexivity. }
    split; auto. split; auto. split.
    { destruct ATT as (i & j & A1 & A2 & A3). apply (R6 (hdp P j) (hdp P i)).
      - exists i, j. split; [apply agg_pairs_In; auto|]. split; auto. apply TOL; auto.
      - intro J. destruct (hdp_in n P HP j A2) as (B1 & _). destruct (hdp_in n P HP i) as (B2 & _); [unfold k in *; lia|].
        assert (j = i) by (apply (UNI j i (hdp P j) (hdp P i)); auto; lia). lia. }
    split; auto. split; auto. split; auto. split; auto. split; auto. split.
    { assert (LE := refines_length vs Hnd P P' HP HP' REF).
      destruct (Nat.eq_dec (length P') (length P)) as [EQ|]; [|lia]. exfalso.
      assert (RB := refines_eq_length vs Hnd P P' HP HP' REF (eq_sym EQ)).
      destruct ATT as (i & j & A1 & A2 & A3).
      destruct (hdp_in n P HP j A2) as (B1 & _). destruct (hdp_in n P HP i) as (B2 & _); [unfold k in *; lia|].
      assert (SP : same_part P' (hdp P i) (hdp P j) = true).
      { apply (JOIN i j); auto; [lia|]. destruct (coord_tight k G GG GS G1 x MX g LOW i j A1 A2 A3) as (B & T1 & T2 & T3).
        exists B. auto. }
      apply same_part_true in SP. destruct SP as (C & K1 & K2 & K3). destruct (RB C K1) as (C' & K4 & K5).
      assert (i = j); [|lia]. apply (UNI i j (hdp P i) (hdp P j)); auto; [lia|].
      apply SAMEP; eauto; [apply (LT i); auto; lia|]. apply same_part_true. exists C'. auto. }
    split; [|split; [|split; [|split; [|split; [|split]]]]].
    - apply (step_sparse n F HG P g LOWER).
    - intro HSt. apply (step_strong n F HG HS vs P Hnd HP g P' HP' LOWER JOIN CLASS REFL HSt).
    - apply (step_ssparse n F HG vs P Hnd HP g P' HP' LOWER JOIN CLASS REFL).
    - intros R HR Ref. apply (step_best n F HG vs P Hnd HP g LOWER R HR Ref).
    - apply (step_value n F HG vs P Hnd HP g P' HP' JOIN CLASS REFL).
    - intros R HR Ref LE. apply (step_coarsest n F HG vs P Hnd HP g P' HP' LOWER JOIN R HR Ref LE).
    - destruct (agg_merge_gam P xs g tol (agg_pairs k) st st' R1) as [EG|EG]; auto. exfalso.
      assert (NE : acc2 <> []).
      { destruct ATT as (i & j & A1 & A2 & A3). apply (R6 (hdp P j) (hdp P i)).
        - exists i, j. split; [apply agg_pairs_In; auto|]. split; auto. apply TOL; auto.
        - intro J. destruct (hdp_in n P HP j A2) as (B1 & _). destruct (hdp_in n P HP i) as (B2 & _); [unfold k in *; lia|].
          assert (j = i) by (apply (UNI j i (hdp P j) (hdp P i)); auto; lia). lia. }
      destruct acc2 as [|[[u v] w] acc2]; [tauto|].
      assert (w = g) by (apply (R4 u v); left; auto). subst w.
      destruct (inv_acc_gam _ _ R3 u v g) as (z & Z1 & Z2); [apply in_app_iff; right; left; auto|].
      rewrite EG in Z1. destruct (inv_gam _ _ I z Z1) as (u' & v' & Z3). apply LESS in Z3. lra.
  Qed.
End StepCode.
