(** * AggNear: AIC with a solver and a function that are only nearly exact, next to the exact run. *)
From Coq Require Import Qabs Sorted Relations.
From Verif Require Import Base Graph Spec PartThy SubThy MSets SetsThy MHC HCThy HCInv HCSearch HCPart
  MAIC SFSpec MNBThy AICStep AggThy AICThy AggRun EntThy ExactMNB AggSim.

Notation length := List.length.

Definition near (d a b : Q) : Prop := Qabs (a - b) <= d.
Lemma near_iff d a b : near d a b <-> a - d <= b /\ b <= a + d.
Proof. unfold near. rewrite Qabs_Qle_condition. split; lra. Qed.
Definition enear (d : Q) (a b : ext) : Prop :=
  match a, b with NegInf, NegInf => True | Val x, Val y => near d x y | _, _ => False end.
Definition vnear (d : Q) : list Q -> list Q -> Prop := Forall2 (near d).

(** ** The forest *)
Record score (st st' : hc) : Prop := mkScore {
  sc_n : hn st' = hn st; sc_par : par st' = par st; sc_chd : chd st' = chd st; sc_rk : rk st' = rk st;
  sc_wt : forall i, egtb (wt st' i) NegInf = egtb (wt st i) NegInf }.

Lemma nbrs_score st st' e : score st st' -> nbrs st' NegInf e = nbrs st NegInf e.
Proof.
  intro H. destruct e as [p i]. unfold nbrs. rewrite (sc_par _ _ H), (sc_chd _ _ H), (sc_wt _ _ H). f_equal. f_equal.
  apply filter_ext. intro c. rewrite (sc_wt _ _ H). reflexivity.
Qed.
Lemma bfs_score st st' : score st st' -> forall fuel q cl, bfs fuel st' NegInf q cl = bfs fuel st NegInf q cl.
Proof.
  intro H. induction fuel as [|fuel IH]; intros [|e q] cl; auto. cbn [bfs]. rewrite (nbrs_score st st' e H). apply IH.
Qed.
Lemma gp_score st st' : score st st' -> forall fuel l cls, gp_loop fuel st' NegInf l cls = gp_loop fuel st NegInf l cls.
Proof.
  intro H. induction fuel as [|fuel IH]; intros l cls; auto. cbn [gp_loop]. rewrite (sc_n _ _ H), (bfs_score st st' H).
  destruct (bfs _ st _ _ _) as [c| | |]; cbn [bind]; auto. destruct (ll_next _); auto.
Qed.
Lemma part_score st st' : score st st' -> get_partition st' NegInf = get_partition st NegInf.
Proof. intro H. unfold get_partition. rewrite (sc_n _ _ H). destruct (hn st =? 0)%nat; auto. apply gp_score. auto. Qed.

(** ** One round of merges at [g] and at [g'] *)
Section Round.
Variables (g g' : Q) (h h' : list Q).
Hypothesis Hgt : gam_gt h g = true.
Hypothesis Hgt' : gam_gt h' g' = true.

Definition sround (st st' : hc) : Prop :=
  score st st' /\ ((hgam st = h /\ hgam st' = h') \/ (hgam st = h ++ [g] /\ hgam st' = h' ++ [g'])).

Lemma gt_ge l q : gam_gt l q = true -> gam_ge l q = true.
Proof. unfold gam_gt, gam_ge. destruct (rev l); auto. intro H. apply Qltb_true in H. apply Qle_bool_iff. lra. Qed.
Lemma ge_last l q : gam_ge (l ++ [q]) q = true.
Proof. unfold gam_ge. rewrite rev_app_distr. simpl. apply Qle_bool_iff. lra. Qed.
Lemma gt_last l q : gam_gt (l ++ [q]) q = false.
Proof. unfold gam_gt. rewrite rev_app_distr. simpl. apply Qltb_false. lra. Qed.

Lemma sround_gam st st' : sround st st' -> gam_ge (hgam st) g = true /\ gam_ge (hgam st') g' = true /\
  ((gam_gt (hgam st) g = true /\ gam_gt (hgam st') g' = true /\ hgam st = h /\ hgam st' = h') \/
   (gam_gt (hgam st) g = false /\ gam_gt (hgam st') g' = false /\ hgam st = h ++ [g] /\ hgam st' = h' ++ [g'])).
Proof.
  intros [_ [[-> ->]|[-> ->]]].
  - split; [apply gt_ge; auto|]. split; [apply gt_ge; auto|]. left. auto.
  - split; [apply ge_last|]. split; [apply ge_last|]. right. rewrite !gt_last. auto.
Qed.

Lemma merge_sround st st' a b r : sround st st' -> hc_merge st a b g = Ok r ->
  exists r', hc_merge st' a b g' = Ok r' /\ sround (fst r) (fst r').
Proof.
  intros R. destruct (sround_gam st st' R) as (G1 & G2 & G3). destruct R as [H R].
  unfold hc_merge. rewrite (sc_n _ _ H), (sc_par _ _ H), (sc_rk _ _ H), (sc_chd _ _ H).
  destruct (_ && _); [|discriminate]. destruct (hc_find _ _ a) as [ir| | |]; try discriminate. cbn [bind].
  destruct (hc_find _ _ b) as [jr| | |]; try discriminate. cbn [bind]. rewrite G1, G2. cbn [negb]. rewrite !orb_false_r.
  destruct (ir =? jr)%nat. { intro E. injection E as <-. exists (st', false). split; auto. split; auto. }
  assert (K : forall s s', hgam s = (if gam_gt (hgam st) g then hgam st ++ [g] else hgam st) ->
              hgam s' = (if gam_gt (hgam st') g' then hgam st' ++ [g'] else hgam st') ->
              (hgam s = h /\ hgam s' = h') \/ (hgam s = h ++ [g] /\ hgam s' = h' ++ [g'])).
  { intros s s' -> ->. destruct G3 as [(-> & -> & -> & ->)|(-> & -> & -> & ->)]; auto. }
  assert (U : forall i j, egtb (upd (wt st') i (Val g') j) NegInf = egtb (upd (wt st) i (Val g) j) NegInf).
  { intros i j. unfold upd. destruct (j =? i)%nat; auto. apply (sc_wt _ _ H). }
  destruct (rk st ir <=? rk st jr)%nat; intro E; injection E as <-; eexists; (split; [reflexivity|]); cbn [fst]; split.
  - constructor; simpl; auto.
  - apply K; reflexivity.
  - constructor; simpl; auto.
  - apply K; reflexivity.
Qed.

Lemma agg_merge_sround P xs xs' tol : forall ps,
  (forall i j, In (i, j) ps -> exists x x' v v', nth_error xs (j - 1) = Some x /\ nth_error xs' (j - 1) = Some x' /\
     nth_error x i = Some v /\ nth_error x' i = Some v' /\ Qle_bool v (- g + tol) = Qle_bool v' (- g' + tol)) ->
  forall st st' s, sround st st' -> agg_merge st P xs g tol ps = Ok s ->
  exists s', agg_merge st' P xs' g' tol ps = Ok s' /\ sround s s'.
Proof.
  induction ps as [|[i j] ps IH]; intros Hp st st' s R E; cbn [agg_merge] in *.
  - injection E as <-. exists st'. auto.
  - destruct (Hp i j (or_introl eq_refl)) as (x & x' & v & v' & X1 & X2 & X3 & X4 & X5).
    rewrite X1, X3, X5 in E. rewrite X2, X4.
    assert (Hp' := fun i j H => Hp i j (or_intror H)).
    destruct (Qle_bool v' (- g' + tol)); [|eapply IH; eauto].
    destruct (nth_error P j) as [[|a ?]|]; try discriminate. destruct (nth_error P i) as [[|b ?]|]; try discriminate.
    destruct (hc_merge st a b g) as [r| | |] eqn:M; try discriminate. cbn [bind] in E.
    destruct (merge_sround st st' a b r R M) as (r' & M' & R'). rewrite M'. cbn [bind]. eapply IH; eauto.
Qed.
End Round.

(** ** minCoeff, max, and the first loop *)
Lemma fmin_near d t t' : vnear d t t' -> forall a a', near d a a' ->
  near d (fold_left (fun m b => if Qltb b m then b else m) t a) (fold_left (fun m b => if Qltb b m then b else m) t' a').
Proof.
  induction 1 as [|b b' t t' Hb _ IH]; intros a a' Ha; cbn [fold_left]; auto. apply IH.
  apply near_iff in Hb, Ha. destruct (Qltb b a) eqn:E1, (Qltb b' a') eqn:E2; apply near_iff; auto.
  - apply Qltb_true in E1. apply Qltb_false in E2. split; lra.
  - apply Qltb_false in E1. apply Qltb_true in E2. split; lra.
Qed.
Lemma vmin_near d x x' m : vnear d x x' -> vmin x = Ok m -> exists m', vmin x' = Ok m' /\ near d m m'.
Proof.
  intros H E. destruct H as [|a a' t t' Ha Ht]; [discriminate|]. cbn [vmin] in *. injection E as <-.
  eexists. split; [reflexivity|]. apply fmin_near; auto.
Qed.
Lemma emax_near d g g' m m' : enear d g g' -> near d m m' -> enear d (emax g (- m)) (emax g' (- m')).
Proof.
  intros H1 H2. apply near_iff in H2. unfold emax. destruct g as [|a|], g' as [|a'|]; simpl in H1; try tauto; simpl.
  - apply near_iff. lra.
  - apply near_iff in H1. destruct (Qltb a (- m)) eqn:E1, (Qltb a' (- m')) eqn:E2; simpl; apply near_iff; try lra.
    + apply Qltb_true in E1. apply Qltb_false in E2. lra.
    + apply Qltb_false in E1. apply Qltb_true in E2. lra.
Qed.

Lemma solve_near d mnb mnb' f_ f_' : forall js,
  (forall j, In j js -> exists x x', mnb (sf_fix f_ j) = Ok x /\ mnb' (sf_fix f_' j) = Ok x' /\ vnear d x x') ->
  forall g g' r, enear d g g' -> agg_solve mnb f_ js g = Ok r ->
  exists r', agg_solve mnb' f_' js g' = Ok r' /\ enear d (fst r) (fst r') /\ Forall2 (vnear d) (snd r) (snd r').
Proof.
  induction js as [|j js IH]; intros H g g' r Hg E; cbn [agg_solve] in *.
  - injection E as <-. exists (g', []). simpl. auto.
  - destruct (H j (or_introl eq_refl)) as (x & x' & X1 & X2 & X3). rewrite X1 in E. rewrite X2. cbn [bind] in *.
    destruct (vmin x) as [m| | |] eqn:V; try discriminate. destruct (vmin_near d x x' m X3 V) as (m' & -> & Nm). cbn [bind] in *.
    destruct (agg_solve mnb f_ js (emax g (- m))) as [r1| | |] eqn:A; try discriminate. cbn [bind] in E. injection E as <-.
    destruct (IH (fun j Hj => H j (or_intror Hj)) _ (emax g' (- m')) r1 (emax_near d g g' m m' Hg Nm) A) as (r1' & -> & E1 & E2).
    cbn [bind]. eexists. split; [reflexivity|]. simpl. auto.
Qed.

(** ** The run *)

(** The function object with the exact values. *)
Definition exact_sf (n : nat) (F : nset -> Q) : sf := mkSF n (fun B => Ok (F (mem B))).
Lemma exact_sf_ok n F : evaluates (exact_sf n F) F.
Proof. intros B _ _ _. exists (F (mem B)). split; reflexivity. Qed.

(** In every round the vectors that the solver returns for [f] are within [d] of the minimum norm bases that
    the exact function [F] has there. *)
Definition near_solver (d : Q) (mnb : sf -> res (list Q)) (f : sf) (F : nset -> Q) : Prop :=
  forall P, is_partition (seq 0 (sfn f)) P -> exists f_, sf_contract f P = Ok f_ /\
    forall j, (1 <= j < length P)%nat -> exists x, mnb (sf_fix f_ j) = Ok x /\ length x = j /\
      forall z, min_norm j (hfix (contr F P) j) z -> forall i, (i < j)%nat -> near d (z i) (vec x i).

Lemma vnear_intro d x : forall x', length x' = length x -> (forall i, (i < length x)%nat -> near d (vec x i) (vec x' i)) -> vnear d x x'.
Proof.
  induction x as [|a x IH]; intros [|b x'] L H; try discriminate; [constructor|]. constructor.
  - apply (H 0%nat). simpl. lia.
  - apply IH; [simpl in L; lia|]. intros i Hi. apply (H (S i)). simpl. lia.
Qed.
Lemma forall2_nth {A} (R : A -> A -> Prop) l l' : Forall2 R l l' -> forall i a, nth_error l i = Some a -> exists a', nth_error l' i = Some a' /\ R a a'.
Proof.
  induction 1 as [|a a' l l' Ha _ IH]; intros [|i] b E; simpl in *; try discriminate; [|auto].
  injection E as <-. eauto.
Qed.

Section Near.
Variables (mnb : sf -> res (list Q)) (tol d : Q) (f : sf) (F : nset -> Q) (D : positive).
Let n := sfn f.
Let f0 := exact_sf n F.
Hypothesis HG : ground n F.
Hypothesis HS : submodular F.
Hypothesis HD : forall S, onD D (F S).
Hypothesis Hd : 0 <= d.
Hypothesis H2d : 2 * d <= tol.
Hypothesis Hft : (tol + 2 * d) * (Zpos D # 1) * (qn (n - 1) * qn (n - 1)) < 1.
Hypothesis Hn : (0 < n)%nat.
Hypothesis HN : near_solver d mnb f F.

Definition gridded (c : Q) : Prop := exists b z, (1 <= b <= n - 1)%nat /\ c * qn b == z # D.

Lemma near_gap a b : gridded a -> gridded b -> a < b -> a + (tol + 2 * d) < b.
Proof.
  intros (p & y & P1 & P2) (q & z & Q1 & Q2) L.
  assert (K := grid_gap D (n - 1) a b p q y z P1 Q1 P2 Q2 L).
  destruct (Qlt_le_dec (a + (tol + 2 * d)) b) as [|G]; auto. exfalso.
  assert (M : (b - a) * (Zpos D # 1) * (qn (n - 1) * qn (n - 1)) <= (tol + 2 * d) * (Zpos D # 1) * (qn (n - 1) * qn (n - 1))).
  { assert (0 <= qn (n - 1)) by apply qn_nonneg. apply Qmult_le_compat_r; [|apply Qmult_le_0_compat; auto].
    apply Qmult_le_compat_r; [lra|]. unfold Qle; simpl; lia. }
  lra.
Qed.
Lemma gridded_opp c : gridded c -> gridded (- c).
Proof. intros (b & z & B1 & B2). exists b, (- z)%Z. split; auto. setoid_replace (- c * qn b) with (- (c * qn b)) by ring. rewrite B2. reflexivity. Qed.
Lemma gridded_eq a b : a == b -> gridded a -> gridded b.
Proof. intros E (p & z & P1 & P2). exists p, z. split; auto. rewrite <- E. auto. Qed.

Lemma tol_exact : 0 <= tol /\ tol * (Zpos D # 1) * (qn (n - 1) * qn (n - 1)) < 1.
Proof.
  split; [lra|]. eapply Qle_lt_trans; [|exact Hft]. assert (0 <= qn (n - 1)) by apply qn_nonneg.
  apply Qmult_le_compat_r; [|apply Qmult_le_0_compat; auto]. apply Qmult_le_compat_r; [lra|]. unfold Qle; simpl; lia.
Qed.

Definition hnear (st st' : hc) : Prop :=
  score st st' /\ Forall2 (near d) (hgam st) (hgam st') /\ (forall c, In c (hgam st) -> gridded c) /\ Sorted Qlt (rev (hgam st')).

Lemma agglomerate_near st st' acc P : inv st acc -> hn st = n ->
  get_partition st NegInf = Ok P -> (2 <= length P)%nat ->
  (forall x y w, In (x, y, w) acc -> ssparse F P w) -> hnear st st' ->
  exists s s' g g', agglomerate exact_mnb tol f0 st = Ok (s, true) /\ agglomerate mnb tol f st' = Ok (s', true) /\
    hnear s s' /\ near d g g' /\ hgam s = hgam st ++ [g] /\ hgam s' = hgam st' ++ [g'].
Proof.
  intros I Hh HPg H2 Hss (HC & HGam & HGr & HSo). destruct tol_exact as [T0 T1].
  destruct (agglomerate_step exact_mnb tol f0 F D exact_mnb_ok HG HS (exact_sf_ok n F) HD T0 T1 Hn st acc P I Hh HPg H2 Hss)
    as (s & acc2 & g & P' & A1 & A2 & A3 & A4 & A5 & A6 & A7 & A8 & A9 & A10 & A11 & A12 & A13 & A14 & A15 & A16 & A17).
  assert (HP : is_partition (seq 0 n) P).
  { destruct (coarsest_ok f0 Hn st acc I Hh) as (P0 & E0 & HP & _). rewrite HPg in E0. injection E0 as <-. exact HP. }
  assert (Hlen : (length P <= n)%nat).
  { assert (K := part_length_le _ (seq_NoDup _ _) P HP). rewrite seq_length in K. auto. }
  set (k := length P) in *. set (G := contr F P).
  assert (GG : ground k G) by (apply (contr_ground n F HG P)).
  assert (GS : submodular G) by (apply (contr_sub n F HG HS _ P (seq_NoDup _ _) HP)).
  assert (G1 : forall j, (j < k)%nat -> G (fun i => (i =? j)%nat) == 0) by (intros; apply (contr_one n F HG); auto).
  destruct (sf_contract_ok f0 F P HG (exact_sf_ok n F) HP) as (f_ & C1 & C2 & C3).
  destruct (agg_solve_ok exact_mnb f_ k G exact_mnb_ok C2 GG GS G1 C3 (seq 1 (k - 1)) NegInf) as (ge & xs & S1 & S2 & S3 & S4 & _ & S6).
  { intros j Hj. apply in_seq in Hj. lia. }
  rewrite seq_length in *.
  unfold agglomerate in A1. rewrite HPg in A1. cbn [bind] in A1. fold k in A1.
  replace (k <=? 1)%nat with false in A1 by (symmetry; apply Nat.leb_gt; auto).
  rewrite C1 in A1. cbn [bind] in A1. rewrite S1 in A1. cbn [bind fst snd] in A1.
  destruct ge as [|g1|]; try discriminate A1.
  destruct (agg_merge st P xs g1 tol (agg_pairs k)) as [s1| | |] eqn:M1; try discriminate A1. cbn [bind] in A1. injection A1 as <-.
  assert (g1 = g).
  { destruct (agg_merge_gam P xs g1 tol _ _ _ M1) as [E|E]; rewrite E in A17.
    - exfalso. apply (f_equal (@List.length Q)) in A17. rewrite app_length in A17. simpl in A17. lia.
    - apply app_inv_head in A17. congruence. }
  subst g1.
  (* the other run *)
  destruct (HN P HP) as (f_' & N1 & N2).
  assert (NS : forall j, In j (seq 1 (k - 1)) -> exists x x', exact_mnb (sf_fix f_ j) = Ok x /\ mnb (sf_fix f_' j) = Ok x' /\ vnear d x x').
  { intros j Hj. apply in_seq in Hj.
    destruct (exact_mnb_ok (sf_fix f_ j) (hfix G j)) as (x & X1 & X2 & X3).
    { simpl. lia. }
    { eapply sf_fix_ok; eauto. lia. }
    { simpl. eapply hfix_ground; eauto. lia. }
    { eapply hfix_sub; eauto. }
    { eapply hfix_none; eauto. lia. }
    simpl in X2, X3. destruct (N2 j) as (x' & Y1 & Y2 & Y3); [fold k; lia|]. exists x, x'. split; auto. split; auto.
    apply vnear_intro; [congruence|]. intros i Hi. apply Y3; auto. lia. }
  destruct (solve_near d exact_mnb mnb f_ f_' _ NS NegInf NegInf _ Logic.I S1) as ([ge' xs'] & S1' & E1 & E2). simpl in E1, E2.
  destruct ge' as [|g'|]; try contradiction.
  assert (Ng := E1). apply near_iff in E1.
  assert (NT : forall j, (1 <= j < k)%nat -> (j - 1 < k - 1)%nat /\ nth (j - 1) (seq 1 (k - 1)) 0%nat = j).
  { intros j Hj. split; [lia|]. rewrite seq_nth by lia. lia. }
  set (x := fun j => vec (nth (j - 1) xs [])).
  assert (LX : forall j, (1 <= j < k)%nat -> nth_error xs (j - 1) = Some (nth (j - 1) xs []) /\ length (nth (j - 1) xs []) = j).
  { intros j Hj. destruct (NT j Hj) as [T2 T3]. split; [apply nth_error_nth'; lia|]. destruct (S3 (j - 1)%nat T2) as [K _]. rewrite T3 in K. exact K. }
  assert (MX : forall j, (1 <= j < k)%nat -> min_norm j (hfix G j) (x j)).
  { intros j Hj. destruct (NT j Hj) as [T2 T3]. destruct (S3 (j - 1)%nat T2) as [_ K]. rewrite T3 in K. exact K. }
  assert (LOW : forall i j, (i < j)%nat -> (j < k)%nat -> - g <= x j i).
  { intros i j Hi Hj. destruct (NT j) as [T2 T3]; [lia|]. assert (K := S4 (j - 1)%nat i T2). rewrite T3 in K.
    specialize (K Hi). unfold egeb in K. apply negb_true_iff in K. simpl in K. apply Qltb_false in K. unfold x. lra. }
  assert (GRID : forall i j, (i < j)%nat -> (j < k)%nat -> gridded (x j i)).
  { intros i j Hi Hj. destruct (coord_grid j (hfix G j) (x j) D i) as (b & z & B1 & B2); auto.
    - eapply hfix_ground; eauto.
    - eapply hfix_sub; eauto.
    - apply MX; lia.
    - intro S. unfold hfix. apply contr_onD; auto.
    - exists b, z. split; auto. lia. }
  assert (GRG : gridded (- g)).
  { destruct S6 as [S6|(t & i & T2 & T3 & T4)]; [discriminate|]. rewrite seq_nth in T3 by lia. injection T4 as ->.
    apply (gridded_eq (x (1 + t)%nat i)); [|apply GRID; lia]. unfold x. replace (1 + t - 1)%nat with t by lia. lra. }
  assert (GR : gridded g) by (apply (gridded_eq (- - g)); [lra|apply gridded_opp; auto]).
  assert (GT : gam_gt (hgam st) g = true /\ gam_gt (hgam st') g' = true).
  { unfold gam_gt. assert (HR : Forall2 (near d) (rev (hgam st)) (rev (hgam st'))).
    { clear -HGam. induction HGam; simpl; [constructor|]. apply Forall2_app; auto. }
    destruct (rev (hgam st)) as [|c cs] eqn:ER; inversion HR as [|? c' ? ? K1 K2]; subst; auto.
    assert (IC : In c (hgam st)) by (apply in_rev; rewrite ER; left; auto).
    destruct (inv_gam _ _ I c IC) as (u & v & Huv). apply A6 in Huv.
    assert (K := near_gap g c GR (HGr c IC) Huv). apply near_iff in K1. split; apply Qltb_true; lra. }
  destruct GT as [GT GT'].
  destruct (agg_merge_sround g g' (hgam st) (hgam st') GT GT' P xs xs' tol (agg_pairs k)) with (st := st) (st' := st') (s := s1) as (s' & M1' & R1 & R2); auto.
  { intros i j Hij. apply agg_pairs_In in Hij. destruct Hij as [Hi Hj]. destruct (LX j) as [L1 L2]; [lia|].
    destruct (forall2_nth _ _ _ E2 _ _ L1) as (x' & L3 & L4).
    assert (V : nth_error (nth (j - 1) xs []) i = Some (x j i)) by (unfold x, vec; apply nth_error_nth'; lia).
    destruct (forall2_nth _ _ _ L4 _ _ V) as (v' & V' & NV).
    exists (nth (j - 1) xs []), x', (x j i), v'. repeat (split; [assumption|]).
    apply near_iff in NV. assert (LO := LOW i j Hi Hj). apply Bool.eq_true_iff_eq. rewrite !Qle_bool_iff.
    destruct (Qlt_le_dec (- g) (x j i)) as [LT|GE].
    - assert (K := near_gap (- g) (x j i) GRG (GRID i j Hi Hj) LT). split; intro; lra.
    - split; intro; lra. }
  { split; auto. }
  exists s1, s', g, g'. split.
  { unfold agglomerate. rewrite HPg. cbn [bind]. fold k. replace (k <=? 1)%nat with false by (symmetry; apply Nat.leb_gt; auto).
    rewrite C1. cbn [bind]. rewrite S1. cbn [bind fst snd]. rewrite M1. reflexivity. }
  split.
  { unfold agglomerate. rewrite (part_score st st' HC), HPg. cbn [bind]. fold k. replace (k <=? 1)%nat with false by (symmetry; apply Nat.leb_gt; auto).
    rewrite N1. cbn [bind]. rewrite S1'. cbn [bind fst snd]. rewrite M1'. reflexivity. }
  assert (R3 : hgam s' = hgam st' ++ [g']).
  { destruct R2 as [[R2 _]|[_ R2]]; auto. exfalso. rewrite R2 in A17. apply (f_equal (@List.length Q)) in A17. rewrite app_length in A17. simpl in A17. lia. }
  split; [|split; [|split]]; auto. split; [|split; [|split]]; auto.
  - rewrite A17, R3. apply Forall2_app; auto.
  - rewrite A17. intros c Hc. apply in_app_iff in Hc. destruct Hc as [Hc|[<-|[]]]; auto.
  - rewrite R3, rev_app_distr. simpl. constructor; auto. unfold gam_gt in GT'. destruct (rev (hgam st')) as [|c cs]; constructor.
    apply Qltb_true. auto.
Qed.

Lemma loop_near : forall fuel st st' acc P tl lams Ps, inv st acc -> hn st = n ->
  get_partition st NegInf = Ok P -> is_partition (seq 0 n) P ->
  (forall x y w, In (x, y, w) acc -> ssparse F P w) -> hnear st st' ->
  agg_loop fuel exact_mnb tol f0 st (rev (hgam st)) tl = Ok (lams, Ps) ->
  exists lams', agg_loop fuel mnb tol f st' (rev (hgam st')) tl = Ok (lams', Ps) /\ Forall2 (near d) lams lams' /\ Sorted Qlt lams'.
Proof.
  induction fuel as [|fuel IH]; intros st st' acc P tl lams Ps I Hh HPg HP Hss HN' E; [discriminate E|].
  cbn [agg_loop] in *. destruct (le_lt_dec (length P) 1) as [H1|H2].
  - unfold agglomerate in *. destruct HN' as (HC & HGam & _ & HSo). rewrite (part_score st st' HC). rewrite HPg in *. cbn [bind] in *.
    replace (length P <=? 1)%nat with true in * by (symmetry; apply Nat.leb_le; auto). cbn [bind fst snd] in *. injection E as <- <-.
    eexists. split; [reflexivity|]. split; auto. clear -HGam. induction HGam; simpl; [constructor|]. apply Forall2_app; auto.
  - destruct (agglomerate_near st st' acc P I Hh HPg H2 Hss HN') as (s & s' & g & g' & B1 & B2 & B3 & B4 & B5 & B6).
    destruct tol_exact as [T0 T1].
    destruct (agglomerate_step exact_mnb tol f0 F D exact_mnb_ok HG HS (exact_sf_ok n F) HD T0 T1 Hn st acc P I Hh HPg H2 Hss)
      as (s1 & acc2 & g1 & P' & A1 & A2 & A3 & A4 & A5 & A6 & A7 & A8 & A9 & A10 & A11 & A12 & A13 & _).
    rewrite B1 in A1. injection A1 as <-. rewrite B1 in E. rewrite B2. cbn [bind fst snd] in *. unfold get_coarsest in *.
    rewrite (part_score s s' (proj1 B3)). rewrite A7 in *. cbn [bind] in *. unfold get_critical in *.
    rewrite B6, rev_app_distr. cbn [rev app]. rewrite B5, rev_app_distr in E. cbn [rev app] in E.
    destruct (IH s s' (acc ++ acc2) P' (agg_part P' :: tl) lams Ps) as (lams' & L1 & L2 & L3); auto.
    + intros x y w H. apply in_app_iff in H. destruct H as [H|H].
      * apply (ssparse_ge F P' g1); auto. apply A6 in H. lra.
      * apply A5 in H. subst; auto.
    + rewrite B5, rev_app_distr. cbn [rev app]. exact E.
    + exists lams'. split; auto. rewrite B6, rev_app_distr in L1. cbn [rev app] in L1. exact L1.
Qed.

Theorem near_run fuel : (n <= fuel)%nat ->
  exists lams lams' Ps, agg_from fuel mnb tol f = Ok (lams', Ps) /\
    full_sequence Qlt (popt F (seq 0 n)) (seq 0 n) lams Ps /\ Forall2 (near d) lams lams' /\ Sorted Qlt lams'.
Proof.
  intro Hfu. destruct tol_exact as [T0 T1].
  destruct (agg_any exact_mnb tol f0 F D fuel exact_mnb_ok HG HS (exact_sf_ok n F) HD T0 T1 Hn Hfu) as (lams & Ps & E & FS).
  unfold agg_from in E. change (sfn f0) with n in E. unfold agg_from. fold n.
  destruct (coarsest_ok f0 Hn (hc_new n) [] (inv_new _) eq_refl) as (P & P1 & P2 & _).
  unfold get_coarsest in *. rewrite P1 in *. cbn [bind] in *.
  destruct (loop_near fuel (hc_new n) (hc_new n) [] P [agg_part P] lams Ps (inv_new _) eq_refl P1 P2) as (lams' & L1 & L2 & L3); auto.
  - intros ? ? ? [].
  - split; [constructor; auto|]. split; [constructor|]. split; [intros c []|constructor].
  - exists lams, lams', Ps. auto.
Qed.
End Near.
