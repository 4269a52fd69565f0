(** * PropGauss: the differential entropies of IC/src/gaussian.hpp: C61 (ScalarGaussianEntropy) and C62
    (GaussianEntropy).  Doubles are real numbers. *)
From Coq Require Import Reals Permutation.
From Verif Require Import Base MGauss GaussThy.
From Coq Require Import Lra Psatz.
Open Scope R_scope.

(** Variance of the sum of w X_b over the pairs (b, w) of a list, X having covariance matrix [C]. *)
Definition variance {A} (C : A -> A -> R) (l : list (A * R)) : R :=
  rsum (fun p => snd p * rsum (fun q => snd q * C (fst p) (fst q)) l) l.

(** [e] is the least mean square error of a linear prediction of X_x from the X_b, b in B. *)
Definition pred_error {A} (C : A -> A -> R) (B : list A) (x : A) (e : R) : Prop :=
  (exists w, length w = length B /\ variance C ((x, 1) :: combine B w) = e) /\
  forall w, length w = length B -> e <= variance C ((x, 1) :: combine B w).

(** Positive definite on [B]: no combination with a coefficient other than 0 has variance 0 or less. *)
Definition posdef {A} (C : A -> A -> R) (B : list A) : Prop :=
  forall w, length w = length B -> (exists x, In x w /\ x <> 0) -> 0 < variance C (combine B w).

Lemma variance_qf {A} (C : A -> A -> R) l : variance C l = qf C l.
Proof.
  unfold variance, qf. apply rsum_ext. intros p _. rewrite <- rsum_scal. apply rsum_ext. intros; ring.
Qed.
Lemma posdef_pd {A} (C : A -> A -> R) B : posdef C B <-> pd C B.
Proof. unfold posdef, pd. split; intros H w H1 H2; specialize (H w H1 H2); rewrite variance_qf in *; exact H. Qed.
Lemma posdef_posl {A} (C : A -> A -> R) B : sym C -> (posdef C B <-> posl C B).
Proof. intro S. rewrite posdef_pd, posl_pd by auto. tauto. Qed.
Lemma pred_given {A} (C : A -> A -> R) B x : sym C -> posl C B -> pred_error C B x (given C B x x).
Proof.
  intros S P. destruct (given_min B C x S P) as [(w & W1 & W2) W3]. split.
  - exists w. rewrite variance_qf. auto.
  - intros w' H. rewrite variance_qf. auto.
Qed.
Lemma posl_one {A} (C : A -> A -> R) x : posl C [x] <-> 0 < C x x.
Proof. simpl. tauto. Qed.

(** The entropy of a normal variable of variance e, in nats. *)
Definition h1 (e : R) : R := ln (2 * PI * exp 1 * e) / 2.
Lemma tpe_pos : 0 < 2 * PI * exp 1.
Proof. assert (P := PI_RGT_0). assert (E := exp_pos 1). apply Rmult_lt_0_compat; lra. Qed.
Lemma h1_split e : 0 < e -> h1 e = c_nats + ln e / 2.
Proof. intro H. unfold h1, c_nats. rewrite ln_mult by (auto; apply tpe_pos). lra. Qed.

(** ** C61: ScalarGaussianEntropy *)

(** The result is the sum of the entropies of X_b given those before: the empty set has entropy 0, and one more
    element adds the entropy of a normal variable whose variance is the least error of predicting it. *)
Theorem C61_chain : forall n Sigma, (forall i j, Sigma i j = Sigma j i) ->
  sge n Sigma [] = Ok 0 /\
  forall B x v, sge n Sigma (B ++ [x]) = Ok v ->
    exists v0 e, sge n Sigma B = Ok v0 /\ 0 < e /\ pred_error Sigma B x e /\ v = v0 + h1 e.
Proof.
  intros n Sigma SY. split.
  - destruct (sge_value n Sigma [] SY) as [[E _]|[_ E]]; [intros b []| |exfalso; apply E; simpl; auto].
    rewrite E. simpl. f_equal. lra.
  - intros B x v H.
    assert (HB : forall b, In b (B ++ [x]) -> (b < n)%nat).
    { unfold sge in H. destruct (forallb _ (B ++ [x])) eqn:E; [|discriminate]. intros b Hb.
      rewrite forallb_forall in E. apply Nat.ltb_lt. auto. }
    destruct (sge_value n Sigma (B ++ [x]) SY HB) as [[E P]|[E _]]; [|congruence].
    apply posl_app in P as [P1 P2]. apply posl_one in P2.
    destruct (sge_value n Sigma B SY) as [[E0 _]|[_ E0]]; [intros; apply HB, in_or_app; auto| |contradiction].
    eexists. exists (given Sigma B x x). split; [exact E0|]. split; auto. split; [apply pred_given; auto|].
    rewrite E in H. injection H as <-. rewrite h1_split by auto. rewrite lnd_app, app_length, plus_INR. simpl. lra.
Qed.

Lemma posl_nodup B : forall C : nat -> nat -> R, sym C -> posl C B -> NoDup B.
Proof.
  induction B as [|a B IH]; intros C SY P; [constructor|]. destruct P as [P1 P2]. constructor; [|apply (IH (schur C a)); auto; apply schur_sym; auto].
  intro Ha. apply in_split in Ha as (l2 & l3 & ->). apply posl_app in P2 as [_ [P3 _]].
  assert (Z : forall l C, (forall i, C i a = 0) -> (forall i, C a i = 0) -> (forall i, given C l i a = 0)).
  { induction l as [|b l IHl]; simpl; auto. intros C' H1 H2. apply IHl.
    - intro i. unfold schur. rewrite H1, H2. unfold Rdiv. ring.
    - intro i. unfold schur. rewrite !H2. unfold Rdiv. ring. }
  rewrite Z in P3; [lra| |].
  - intro i. unfold schur. field. lra.
  - intro i. unfold schur. rewrite (SY a i). field. lra.
Qed.

(** It throws exactly if the covariance matrix is not positive definite on B (as a list: an index given twice is
    enough), and does nothing else: no undefined behaviour for indices in range. *)
Theorem C61_throws : forall n Sigma B, (forall i j, Sigma i j = Sigma j i) -> (forall b, In b B -> (b < n)%nat) ->
  (posdef Sigma B -> exists v, sge n Sigma B = Ok v) /\
  (~ posdef Sigma B -> sge n Sigma B = Throw) /\
  (~ NoDup B -> sge n Sigma B = Throw).
Proof.
  intros n Sigma B SY HB. rewrite posdef_posl by auto.
  assert (D := posl_nodup B Sigma SY).
  destruct (sge_value n Sigma B SY HB) as [[E P]|[E P]].
  - split; [eauto|]. split; [tauto|]. intro N. exfalso. auto.
  - split; [tauto|]. split; auto.
Qed.

(** An index outside the matrix is undefined behaviour. *)
Theorem C61_range : forall n Sigma B b, In b B -> (n <= b)%nat -> sge n Sigma B = UB.
Proof.
  intros n Sigma B b Hb Hn. unfold sge. destruct (forallb _ B) eqn:E; auto. rewrite forallb_forall in E.
  specialize (E b Hb). apply Nat.ltb_lt in E. lia.
Qed.

(** Sublists of a list with positive pivots. *)
Lemma posl_incl {A} (eqd : forall x y : A, {x = y} + {x <> y}) (C : A -> A -> R) l B : sym C -> NoDup l -> NoDup B -> incl B l ->
  posl C l -> posl C B.
Proof.
  intros SY Nl NB HI P.
  assert (PM : Permutation l (B ++ filter (fun a => if in_dec eqd a B then false else true) l)).
  { apply NoDup_Permutation; auto.
    - apply NoDup_app_intro; auto; [apply NoDup_filter; auto|].
      intros x Hx Hf. apply filter_In in Hf as [_ Hf]. destruct (in_dec eqd x B); [discriminate|contradiction].
    - intro x. rewrite in_app_iff, filter_In. split.
      + intro H. destruct (in_dec eqd x B); auto.
      + intros [H|[H _]]; auto. }
  destruct (posl_perm _ _ PM C SY P) as [P' _]. apply posl_app in P'. tauto.
Qed.

(** For a covariance matrix that is positive definite the function is total on sets of indices, does not depend on
    their order, and is submodular. *)
Theorem C61_submodular : forall n Sigma, (forall i j, Sigma i j = Sigma j i) -> posdef Sigma (seq 0 n) ->
  (forall B, NoDup B -> (forall b, In b B -> (b < n)%nat) -> exists v, sge n Sigma B = Ok v /\
     forall B', Permutation B B' -> sge n Sigma B' = Ok v) /\
  (forall P Q U I p q u i, NoDup P -> NoDup Q -> NoDup U -> NoDup I ->
     (forall x, In x U <-> In x P \/ In x Q) -> (forall x, In x I <-> In x P /\ In x Q) ->
     sge n Sigma P = Ok p -> sge n Sigma Q = Ok q -> sge n Sigma U = Ok u -> sge n Sigma I = Ok i ->
     u + i <= p + q).
Proof.
  intros n Sigma SY PD0. assert (P0 : posl Sigma (seq 0 n)) by (apply posdef_posl; auto).
  assert (PB : forall B, NoDup B -> (forall b, In b B -> (b < n)%nat) -> posl Sigma B).
  { intros B NB HB. apply (posl_incl Nat.eq_dec Sigma (seq 0 n)); auto; [apply seq_NoDup|].
    intros b Hb. apply in_seq. specialize (HB b Hb). lia. }
  assert (TOT : forall B, NoDup B -> (forall b, In b B -> (b < n)%nat) ->
    sge n Sigma B = Ok (c_nats * INR (length B) + lnd Sigma B / 2)).
  { intros B NB HB. destruct (sge_value n Sigma B SY HB) as [[E _]|[_ E]]; auto. exfalso. apply E. auto. }
  assert (PERM : forall B B', NoDup B -> (forall b, In b B -> (b < n)%nat) -> Permutation B B' -> sge n Sigma B = sge n Sigma B').
  { intros B B' NB HB PM. rewrite (TOT B), (TOT B'); auto.
    - destruct (posl_perm _ _ PM Sigma SY (PB B NB HB)) as [_ ->]. rewrite (Permutation_length PM). reflexivity.
    - eapply Permutation_NoDup; eauto.
    - intros b Hb. apply HB. eapply Permutation_in; [apply Permutation_sym|]; eauto. }
  split.
  - intros B NB HB. eexists. split; [apply TOT; auto|]. intros B' PM. rewrite <- (PERM B B'); auto.
  - intros P Q U I p q u i NP NQ NU NI HU HI EP EQ EU EI.
    assert (RNG : forall B v, sge n Sigma B = Ok v -> forall b, In b B -> (b < n)%nat).
    { intros B v E b Hb. unfold sge in E. destruct (forallb _ B) eqn:F; [|discriminate]. rewrite forallb_forall in F. apply Nat.ltb_lt. auto. }
    assert (RU := RNG U u EU).
    set (xs := filter (fun a => if in_dec Nat.eq_dec a I then false else true) P).
    set (ys := filter (fun a => if in_dec Nat.eq_dec a I then false else true) Q).
    assert (Hx : forall a, In a xs <-> In a P /\ ~ In a I).
    { intro a. unfold xs. rewrite filter_In. destruct (in_dec Nat.eq_dec a I); intuition congruence. }
    assert (Hy : forall a, In a ys <-> In a Q /\ ~ In a I).
    { intro a. unfold ys. rewrite filter_In. destruct (in_dec Nat.eq_dec a I); intuition congruence. }
    assert (N1 : NoDup (I ++ xs)) by (apply NoDup_app_intro; [auto|apply NoDup_filter; auto|intros a A1 A2; apply Hx in A2; tauto]).
    assert (N2 : NoDup (I ++ ys)) by (apply NoDup_app_intro; [auto|apply NoDup_filter; auto|intros a A1 A2; apply Hy in A2; tauto]).
    assert (N3 : NoDup (I ++ xs ++ ys)).
    { rewrite app_assoc. apply NoDup_app_intro; [auto|apply NoDup_filter; auto|].
      intros a A1 A2. apply Hy in A2. apply in_app_or in A1 as [A1|A1]; [tauto|]. apply Hx in A1. assert (K := HI a). tauto. }
    assert (M1 : Permutation P (I ++ xs)).
    { apply NoDup_Permutation; auto. intro a. rewrite in_app_iff, Hx. assert (K := HI a). destruct (in_dec Nat.eq_dec a I); tauto. }
    assert (M2 : Permutation Q (I ++ ys)).
    { apply NoDup_Permutation; auto. intro a. rewrite in_app_iff, Hy. assert (K := HI a). destruct (in_dec Nat.eq_dec a I); tauto. }
    assert (M3 : Permutation U (I ++ xs ++ ys)).
    { apply NoDup_Permutation; auto. intro a. rewrite !in_app_iff, Hx, Hy. assert (K := HI a). assert (K' := HU a). destruct (in_dec Nat.eq_dec a I); tauto. }
    rewrite (PERM P (I ++ xs)) in EP by eauto. rewrite (PERM Q (I ++ ys)) in EQ by eauto. rewrite (PERM U (I ++ xs ++ ys)) in EU by eauto.
    rewrite TOT in EP by eauto. rewrite TOT in EQ by eauto. rewrite TOT in EI by eauto. rewrite TOT in EU by eauto.
    injection EP as <-. injection EQ as <-. injection EU as <-. injection EI as <-.
    assert (S := lnd_sub Sigma I xs ys SY).
    assert (PU : posl Sigma (I ++ xs ++ ys)).
    { apply PB; auto. intros b Hb. apply RU. eapply Permutation_in; [apply Permutation_sym; exact M3|exact Hb]. }
    specialize (S PU). rewrite !app_length, !plus_INR. nra.
Qed.

(** Two matrices: positive definite, and symmetric only. *)
Definition s21 (i j : nat) : R := if (i =? j)%nat then 2 else 1.
Definition s12 (i j : nat) : R := if (i =? j)%nat then 1 else 2.
Lemma s21_sym : forall i j, s21 i j = s21 j i.
Proof. intros i j. unfold s21. rewrite Nat.eqb_sym. reflexivity. Qed.
Lemma s12_sym : forall i j, s12 i j = s12 j i.
Proof. intros i j. unfold s12. rewrite Nat.eqb_sym. reflexivity. Qed.
Lemma ln_sum a b : 0 < a -> 0 < b -> ln a + ln b = ln (a * b).
Proof. intros. rewrite ln_mult; auto. Qed.
Example C61_ex_value : sge 3 s21 [2; 0]%nat = Ok (2 * c_nats + ln 3 / 2) /\ posdef s21 (seq 0 3) /\
  sge 3 s21 [0; 1; 2]%nat = Ok (3 * c_nats + ln 4 / 2) /\ sge 3 s21 [1; 1]%nat = Throw.
Proof.
  assert (P3 : posl s21 (seq 0 3)) by (simpl; unfold schur, s21; simpl; repeat split; lra).
  split; [|split; [apply (posdef_posl s21 (seq 0 3) s21_sym); exact P3|split]].
  - destruct (sge_value 3 s21 [2; 0]%nat s21_sym) as [[E _]|[_ E]]; [simpl; intros b H; lia| |].
    + rewrite E. simpl length. simpl lnd. unfold schur, s21. simpl Nat.eqb. cbv iota.
      replace (ln 2 + (ln (2 - 1 * 1 / 2) + 0)) with (ln 3); [f_equal; simpl; lra|].
      rewrite Rplus_0_r, ln_sum by lra. f_equal. lra.
    + exfalso. apply E. simpl. unfold schur, s21. simpl. lra.
  - destruct (sge_value 3 s21 [0; 1; 2]%nat s21_sym) as [[E _]|[_ E]]; [simpl; intros b H; lia| |contradiction].
    rewrite E. simpl length. simpl lnd. unfold schur, s21. simpl Nat.eqb. cbv iota. f_equal.
    rewrite Rplus_0_r, !ln_sum by lra.
    match goal with |- _ + ln ?x / 2 = _ => replace x with 4 by lra end. simpl. lra.
  - apply (C61_throws 3 s21 [1; 1]%nat s21_sym); [simpl; intros b H; lia|]. intro N. inversion N; subst. simpl in *. tauto.
Qed.
(** Not positive definite: every single index has an entropy, the pair throws. *)
Example C61_ex_throw : sge 2 s12 [0%nat] = Ok c_nats /\ sge 2 s12 [0; 1]%nat = Throw.
Proof.
  split.
  - destruct (sge_value 2 s12 [0%nat] s12_sym) as [[E _]|[_ E]]; [simpl; intros b H; lia| |].
    + rewrite E. simpl. unfold s12. simpl. rewrite ln_1. f_equal. lra.
    + exfalso. apply E. simpl. unfold s12. simpl. lra.
  - destruct (sge_value 2 s12 [0; 1]%nat s12_sym) as [[E P]|[E _]]; auto; [simpl; intros b H; lia|].
    exfalso. simpl in P. unfold schur, s12 in P. simpl in P. lra.
Qed.
Example C61_ex_range : sge 2 s21 [0; 2]%nat = UB.
Proof. apply (C61_range 2 s21 [0; 2]%nat 2%nat); simpl; auto. Qed.

(** The constructor throws exactly if the matrix is not square, and otherwise keeps the matrix. *)
Theorem C61_constructor : forall rows cols S,
  (rows <> cols -> sge_new rows cols S = Throw) /\ (rows = cols -> sge_new rows cols S = Ok (sge rows S)).
Proof. intros rows cols S. unfold sge_new. destruct (Nat.eqb_spec rows cols); split; intro H; auto; contradiction. Qed.
Example C61_ex_constructor : sge_new 2 3 s21 = Throw.
Proof. reflexivity. Qed.

(** The constructor says S must be symmetric positive definite but checks the shape only; for other matrices
    the value depends on the order of the indices. *)
Definition s_asym (i j : nat) : R := match i, j with 0%nat, 1%nat => 1 | 1%nat, 0%nat => 0 | _, _ => if (i =? j)%nat then 2 else 0 end.
Theorem C61_symmetric_refuted :
  ~ (forall n S h, sge_new n n S = Ok h -> forall B B', Permutation B B' -> (forall b, In b B -> (b < n)%nat) -> h B = h B').
Proof.
  intro H. specialize (H 2%nat s_asym _ eq_refl [0; 1]%nat [1; 0]%nat (perm_swap _ _ _)).
  assert (N : forall b, In b [0; 1]%nat -> (b < 2)%nat) by (simpl; intros; lia).
  specialize (H N).
  set (C1 := fun i j : nat => if (i =? j)%nat then s_asym (nth i [0; 1]%nat O) (nth j [0; 1]%nat O) else s_asym (nth (Nat.max i j) [0; 1]%nat O) (nth (Nat.min i j) [0; 1]%nat O)).
  set (C2 := fun i j : nat => if (i =? j)%nat then s_asym (nth i [1; 0]%nat O) (nth j [1; 0]%nat O) else s_asym (nth (Nat.max i j) [1; 0]%nat O) (nth (Nat.min i j) [1; 0]%nat O)).
  assert (S1 : sym C1) by (intros i j; unfold C1; rewrite Nat.eqb_sym, Nat.max_comm, Nat.min_comm; destruct (Nat.eqb_spec j i); subst; auto).
  assert (S2 : sym C2) by (intros i j; unfold C2; rewrite Nat.eqb_sym, Nat.max_comm, Nat.min_comm; destruct (Nat.eqb_spec j i); subst; auto).
  rewrite (sge_lower 2 s_asym [0; 1]%nat C1), (sge_lower 2 s_asym [1; 0]%nat C2) in H; auto.
  - injection H as H. simpl in H. unfold schur, C1, C2 in H. simpl in H.
    assert (L := ln_increasing (2 - 1 * 1 / 2) (2 - 0 * 0 / 2) ltac:(lra) ltac:(lra)). lra.
  - intros i j Hij. unfold C2. destruct (Nat.eqb_spec i j); auto. rewrite Nat.max_l, Nat.min_r by auto. auto.
  - intros b Hb. simpl in Hb. lia.
  - simpl. unfold schur, C2. simpl. lra.
  - intros i j Hij. unfold C1. destruct (Nat.eqb_spec i j); auto. rewrite Nat.max_l, Nat.min_r by auto. auto.
  - simpl. unfold schur, C1. simpl. lra.
Qed.

(** ** C62: GaussianEntropy *)

(** Rows of the mappings in B, and their combinations. *)
Definition stacked (Ms : list rmat) (B : list nat) : list (list R) := flat_map (fun b => rrows (nth b Ms (mkRM 0 []))) B.
Definition combination (n : nat) (w : list R) (rows : list (list R)) : list R :=
  map (fun c => rsum (fun p => snd p * nth c (fst p) 0) (combine rows w)) (seq 0 n).
Definition independent (n : nat) (rows : list (list R)) : Prop :=
  forall w, length w = length rows -> (forall x, In x (combination n w rows) -> x = 0) -> forall x, In x w -> x = 0.
(** Every row of a mapping has as many entries as the mapping has columns (by type in Eigen). *)
Definition mapping_ok (m : rmat) : Prop := forall r, In r (rrows m) -> length r = rcols m.

Lemma independent_posdef n rows : (forall r, In r rows -> length r = n) -> (independent n rows <-> posdef rdot rows).
Proof.
  intro H.
  assert (V : forall w, length w = length rows -> variance rdot (combine rows w) = rsum (fun x => x * x) (combination n w rows)).
  { intros w Hw. rewrite variance_qf, (qf_rdot n); [reflexivity|]. intros [r x] Hp. apply in_combine_l in Hp. auto. }
  split.
  - intros I w Hw (x & Hx & Nx). rewrite V by auto. apply sumsq_pos.
    destruct (Forall_Exists_dec (fun y => y = 0) (fun y => Req_EM_T y 0) (combination n w rows)) as [F|F].
    + exfalso. apply Nx. apply (I w Hw); auto. rewrite Forall_forall in F. auto.
    + apply Exists_exists in F. exact F.
  - intros P w Hw Z x Hx. destruct (Req_dec x 0) as [E|E]; auto. exfalso.
    assert (K := P w Hw (ex_intro _ x (conj Hx E))). rewrite V in K by auto.
    apply sumsq_pos in K as (y & Y1 & Y2). auto.
Qed.

(** The constructor throws exactly if two mappings have different numbers of columns. *)
Theorem C62_constructor : forall Ms,
  ((forall m m', In m Ms -> In m' Ms -> rcols m = rcols m') -> exists n, ge_new Ms = Ok (n, Ms) /\ forall m, In m Ms -> rcols m = n) /\
  (forall m m', In m Ms -> In m' Ms -> rcols m <> rcols m' -> ge_new Ms = Throw).
Proof.
  intro Ms. unfold ge_new. set (n := match Ms with [] => O | m :: _ => rcols m end).
  destruct (forallb _ Ms) eqn:E; cbv zeta.
  - rewrite forallb_forall in E. split.
    + intros _. exists n. split; auto. intros m Hm. apply Nat.eqb_eq. auto.
    + intros m m' H1 H2 N. exfalso. apply N. apply E in H1, H2. apply Nat.eqb_eq in H1, H2. congruence.
  - split; auto. intro H. exfalso. assert (T : forallb (fun m => (rcols m =? n)%nat) Ms = true); [|congruence].
    apply forallb_forall. intros m Hm. apply Nat.eqb_eq. unfold n. destruct Ms as [|m0 Ms]; [destruct Hm|].
    apply H; simpl; auto.
Qed.

Lemma stacked_len n Ms B : (forall m, In m Ms -> mapping_ok m /\ rcols m = n) -> (forall b, In b B -> (b < length Ms)%nat) ->
  forall r, In r (stacked Ms B) -> length r = n.
Proof.
  intros H HB r Hr. apply in_flat_map in Hr as (b & Hb & Hr). destruct (H (nth b Ms (mkRM 0 []))) as [K <-]; [apply nth_In; auto|]. apply K; auto.
Qed.

Lemma ok_inj {A} (a b : A) : Ok a = Ok b -> a = b.
Proof. congruence. Qed.

(** The value is the entropy of the variables r.z, r a row of a mapping in B and z standard normal, in bits: what
    ScalarGaussianEntropy returns for their covariance matrix, divided by ln 2. *)
Theorem C62_rows : forall n Ms B, ge_new Ms = Ok (n, Ms) -> (0 < n)%nat -> (forall b, In b B -> (b < length Ms)%nat) ->
  let rows := stacked Ms B in let k := length rows in
  let gram := fun i j => rdot (nth i rows []) (nth j rows []) in
  (forall v, ge (n, Ms) B = Ok v <-> sge k gram (seq 0 k) = Ok (v * ln 2)) /\
  (ge (n, Ms) B = Throw <-> sge k gram (seq 0 k) = Throw).
Proof.
  intros n Ms B HN H0 HB rows k gram. rewrite (ge_rows (n, Ms) B HB). cbn [fst snd]. fold (stacked Ms B). fold rows.
  assert (SG : sym gram) by (intros i j; apply rdot_sym).
  assert (L2 := ln2_pos).
  assert (LG : lnd gram (seq 0 k) = lnd rdot rows).
  { unfold gram, k. rewrite (lnd_map (fun i => nth i rows []) _ rdot), map_nth_seq. reflexivity. }
  assert (PG : posl gram (seq 0 k) <-> posl rdot rows).
  { unfold gram, k. rewrite (posl_map (fun i => nth i rows []) _ rdot), map_nth_seq. tauto. }
  assert (HS := sge_value k gram (seq 0 k) SG). rewrite seq_length in HS.
  assert (R : forall b, In b (seq 0 k) -> (b < k)%nat) by (intros b Hb; apply in_seq in Hb; lia).
  specialize (HS R). rewrite LG, PG in HS.
  assert (EC : c_bits * ln 2 = c_nats) by (unfold c_bits, c_nats, log2; field; lra).
  destruct rows as [|r rows'] eqn:ER.
  - unfold ge_h. simpl. subst k. simpl in *. destruct HS as [[-> _]|[_ E]]; [|exfalso; apply E; auto].
    split; [|split; discriminate]. intro v. split; intro E; injection E as E; f_equal; [subst v; lra|].
    assert (v * ln 2 = 0) by lra. assert (v = 0) by nra. lra.
  - destruct (ge_h_value n (r :: rows')) as [[E P]|[E P]]; [discriminate|lia| |].
    + destruct HS as [[E' _]|[_ N]]; [|contradiction]. rewrite E, E'. split; [|split; discriminate].
      fold k. assert (EV : c_nats * INR k + lnd rdot (r :: rows') / 2 = (c_bits * INR k + lnd rdot (r :: rows') / (2 * ln 2)) * ln 2).
      { rewrite <- EC. field. lra. }
      rewrite EV. intro v. split; intro X; apply ok_inj in X; f_equal; [rewrite <- X; reflexivity|].
      apply Rmult_eq_reg_r in X; auto. lra.
    + destruct HS as [[_ N]|[E' _]]; [contradiction|]. rewrite E, E'. split; [|tauto]. intro v. split; discriminate.
Qed.

(** For mappings with at least one column it throws exactly if the rows are linearly dependent. *)
Theorem C62_throws : forall n Ms B, ge_new Ms = Ok (n, Ms) -> (0 < n)%nat -> (forall m, In m Ms -> mapping_ok m) ->
  (forall b, In b B -> (b < length Ms)%nat) ->
  (independent n (stacked Ms B) -> exists v, ge (n, Ms) B = Ok v) /\
  (~ independent n (stacked Ms B) -> ge (n, Ms) B = Throw).
Proof.
  intros n Ms B HN H0 HO HB.
  assert (HW : forall m, In m Ms -> mapping_ok m /\ rcols m = n).
  { intros m Hm. split; auto. unfold ge_new in HN. destruct (forallb _ Ms) eqn:E; [|discriminate]. injection HN as HN.
    rewrite forallb_forall in E. rewrite <- HN. apply Nat.eqb_eq. auto. }
  rewrite (independent_posdef n) by (eapply stacked_len; eauto). rewrite posdef_posl by exact rdot_sym.
  rewrite (ge_rows (n, Ms) B HB). cbn [fst snd]. fold (stacked Ms B).
  destruct (stacked Ms B) as [|r rows'] eqn:ER.
  - split; [|simpl; tauto]. intros _. exists 0. reflexivity.
  - destruct (ge_h_value n (r :: rows')) as [[E P]|[E P]]; [discriminate|lia| |]; split; eauto; tauto.
Qed.

(** With all rows independent: total on sets of mappings and submodular. *)
Theorem C62_submodular : forall n Ms, ge_new Ms = Ok (n, Ms) -> (0 < n)%nat -> (forall m, In m Ms -> mapping_ok m) ->
  independent n (flat_map rrows Ms) ->
  (forall B, NoDup B -> (forall b, In b B -> (b < length Ms)%nat) -> exists v, ge (n, Ms) B = Ok v /\
     forall B', Permutation B B' -> ge (n, Ms) B' = Ok v) /\
  (forall P Q U I p q u i, NoDup P -> NoDup Q -> NoDup U -> NoDup I ->
     (forall x, In x U <-> In x P \/ In x Q) -> (forall x, In x I <-> In x P /\ In x Q) ->
     ge (n, Ms) P = Ok p -> ge (n, Ms) Q = Ok q -> ge (n, Ms) U = Ok u -> ge (n, Ms) I = Ok i ->
     u + i <= p + q).
Proof.
  intros n Ms HN H0 HO IND.
  assert (HW : forall m, In m Ms -> mapping_ok m /\ rcols m = n).
  { intros m Hm. split; auto. unfold ge_new in HN. destruct (forallb _ Ms) eqn:E; [|discriminate]. injection HN as HN.
    rewrite forallb_forall in E. rewrite <- HN. apply Nat.eqb_eq. auto. }
  assert (L2 := ln2_pos).
  assert (P0 : posl rdot (stacked Ms (seq 0 (length Ms)))).
  { assert (E : stacked Ms (seq 0 (length Ms)) = flat_map rrows Ms).
    { unfold stacked. transitivity (flat_map rrows (map (fun i => nth i Ms (mkRM 0 [])) (seq 0 (length Ms)))); [rewrite !flat_map_concat_map, map_map; reflexivity|rewrite map_nth_seq; reflexivity]. }
    rewrite E. apply posdef_posl; [exact rdot_sym|]. apply (independent_posdef n); auto.
    rewrite <- E. apply (stacked_len n Ms (seq 0 (length Ms))); auto. intros b Hb. apply in_seq in Hb. lia. }
  assert (SP : forall B B', Permutation B B' -> Permutation (stacked Ms B) (stacked Ms B')).
  { intros B B' PM. unfold stacked. apply Permutation_flat_map. exact PM. }
  assert (PB : forall B, NoDup B -> (forall b, In b B -> (b < length Ms)%nat) -> posl rdot (stacked Ms B)).
  { intros B NB HB.
    set (rest := filter (fun a => if in_dec Nat.eq_dec a B then false else true) (seq 0 (length Ms))).
    assert (PM : Permutation (seq 0 (length Ms)) (B ++ rest)).
    { apply NoDup_Permutation; [apply seq_NoDup| |].
      - apply NoDup_app_intro; auto; [apply NoDup_filter, seq_NoDup|].
        intros x Hx Hf. apply filter_In in Hf as [_ Hf]. destruct (in_dec Nat.eq_dec x B); [discriminate|contradiction].
      - intro x. unfold rest. rewrite in_app_iff, filter_In. split.
        + intro H. destruct (in_dec Nat.eq_dec x B); auto.
        + intros [H|[H _]]; auto. apply in_seq. specialize (HB x H). lia. }
    destruct (posl_perm _ _ (SP _ _ PM) rdot rdot_sym P0) as [P' _]. unfold stacked in P'. rewrite flat_map_app in P'.
    apply posl_app in P'. exact (proj1 P'). }
  assert (TOT : forall B, NoDup B -> (forall b, In b B -> (b < length Ms)%nat) ->
    ge (n, Ms) B = Ok (c_bits * INR (length (stacked Ms B)) + lnd rdot (stacked Ms B) / (2 * ln 2))).
  { intros B NB HB. rewrite (ge_rows (n, Ms) B HB). cbn [fst snd]. fold (stacked Ms B).
    specialize (PB B NB HB). destruct (stacked Ms B) as [|r rows'] eqn:ER.
    - unfold ge_h. simpl. f_equal. field. lra.
    - destruct (ge_h_value n (r :: rows')) as [[E _]|[_ E]]; auto; [discriminate|lia|contradiction]. }
  assert (PERM : forall B B', NoDup B -> (forall b, In b B -> (b < length Ms)%nat) -> Permutation B B' -> ge (n, Ms) B = ge (n, Ms) B').
  { intros B B' NB HB PM. rewrite (TOT B), (TOT B'); auto.
    - destruct (posl_perm _ _ (SP _ _ PM) rdot rdot_sym (PB B NB HB)) as [_ ->]. rewrite (Permutation_length (SP _ _ PM)). reflexivity.
    - eapply Permutation_NoDup; eauto.
    - intros b Hb. apply HB. eapply Permutation_in; [apply Permutation_sym|]; eauto. }
  split.
  - intros B NB HB. eexists. split; [apply TOT; auto|]. intros B' PM. rewrite <- (PERM B B'); auto.
  - intros P Q U I p q u i NP NQ NU NI HU HI EP EQ EU EI.
    assert (RNG : forall B v, ge (n, Ms) B = Ok v -> forall b, In b B -> (b < length Ms)%nat).
    { intros B v E b Hb. unfold ge in E. simpl snd in E. destruct (forallb _ B) eqn:F; [|discriminate]. rewrite forallb_forall in F. apply Nat.ltb_lt. auto. }
    assert (RU := RNG U u EU).
    set (xs := filter (fun a => if in_dec Nat.eq_dec a I then false else true) P).
    set (ys := filter (fun a => if in_dec Nat.eq_dec a I then false else true) Q).
    assert (Hx : forall a, In a xs <-> In a P /\ ~ In a I).
    { intro a. unfold xs. rewrite filter_In. destruct (in_dec Nat.eq_dec a I); intuition congruence. }
    assert (Hy : forall a, In a ys <-> In a Q /\ ~ In a I).
    { intro a. unfold ys. rewrite filter_In. destruct (in_dec Nat.eq_dec a I); intuition congruence. }
    assert (N1 : NoDup (I ++ xs)) by (apply NoDup_app_intro; [auto|apply NoDup_filter; auto|intros a A1 A2; apply Hx in A2; tauto]).
    assert (N2 : NoDup (I ++ ys)) by (apply NoDup_app_intro; [auto|apply NoDup_filter; auto|intros a A1 A2; apply Hy in A2; tauto]).
    assert (N3 : NoDup (I ++ xs ++ ys)).
    { rewrite app_assoc. apply NoDup_app_intro; [auto|apply NoDup_filter; auto|].
      intros a A1 A2. apply Hy in A2. apply in_app_or in A1 as [A1|A1]; [tauto|]. apply Hx in A1. assert (K := HI a). tauto. }
    assert (M1 : Permutation P (I ++ xs)).
    { apply NoDup_Permutation; auto. intro a. rewrite in_app_iff, Hx. assert (K := HI a). destruct (in_dec Nat.eq_dec a I); tauto. }
    assert (M2 : Permutation Q (I ++ ys)).
    { apply NoDup_Permutation; auto. intro a. rewrite in_app_iff, Hy. assert (K := HI a). destruct (in_dec Nat.eq_dec a I); tauto. }
    assert (M3 : Permutation U (I ++ xs ++ ys)).
    { apply NoDup_Permutation; auto. intro a. rewrite !in_app_iff, Hx, Hy. assert (K := HI a). assert (K' := HU a). destruct (in_dec Nat.eq_dec a I); tauto. }
    rewrite (PERM P (I ++ xs)) in EP by eauto. rewrite (PERM Q (I ++ ys)) in EQ by eauto. rewrite (PERM U (I ++ xs ++ ys)) in EU by eauto.
    assert (RU3 := RNG _ _ EU).
    rewrite TOT in EP by eauto. rewrite TOT in EQ by eauto. rewrite TOT in EI by eauto. rewrite TOT in EU by eauto.
    injection EP as <-. injection EQ as <-. injection EU as <-. injection EI as <-.
    assert (PU := PB _ N3 RU3).
    assert (SA : forall a b, stacked Ms (a ++ b) = stacked Ms a ++ stacked Ms b) by (intros; apply flat_map_app).
    rewrite !SA in *. assert (S := lnd_sub rdot (stacked Ms I) (stacked Ms xs) (stacked Ms ys) rdot_sym PU).
    rewrite !app_length, !plus_INR. assert (I2 : 0 < / (2 * ln 2)) by (apply Rinv_0_lt_compat; lra). unfold Rdiv.
    apply (Rmult_le_compat_r (/ (2 * ln 2))) in S; lra.
Qed.

(** Three mappings of two columns: (1,0), (1,1) and one without rows; a fourth depends on the others. *)
Definition ge_Ms : list rmat := [mkRM 2 [[1; 0]]; mkRM 2 [[1; 2]]; mkRM 2 []].
Lemma ge_Ms_ok : ge_new ge_Ms = Ok (2%nat, ge_Ms) /\ (forall m, In m ge_Ms -> mapping_ok m) /\ independent 2 (flat_map rrows ge_Ms).
Proof.
  split; [reflexivity|]. split.
  - intros m Hm r Hr. simpl in Hm. destruct Hm as [<-|[<-|[<-|[]]]]; simpl in Hr; [destruct Hr as [<-|[]]; reflexivity..|destruct Hr].
  - apply independent_posdef; [simpl; intros r [<-|[<-|[]]]; reflexivity|]. apply posdef_posl; [exact rdot_sym|].
    simpl. unfold schur. simpl. lra.
Qed.
Example C62_ex_value : ge (2%nat, ge_Ms) [1; 2; 0]%nat = Ok (2 * c_bits + 1) /\ ge (2%nat, ge_Ms) [2%nat] = Ok 0.
Proof.
  assert (L2 := ln2_pos). split.
  - rewrite ge_rows by (simpl; intros b H; lia). cbn [fst snd]. simpl flat_map.
    destruct (ge_h_value 2 [[1; 2]; [1; 0]]) as [[E _]|[_ E]]; try discriminate.
    + rewrite E. f_equal.
      assert (EL : lnd rdot [[1; 2]; [1; 0]] = ln 2 + ln 2).
      { simpl. unfold schur. simpl. rewrite (ln_sum 2 2) by lra.
        match goal with |- ln ?x + (ln ?y + 0) = _ => replace (ln x + (ln y + 0)) with (ln x + ln y) by lra; rewrite (ln_sum x y) by lra end.
        f_equal. field. }
      rewrite EL. simpl. field. lra.
    + exfalso. apply E. simpl. unfold schur. simpl. lra.
  - rewrite ge_rows by (simpl; intros b H; lia). reflexivity.
Qed.
Example C62_ex_throw : ge_new [mkRM 2 [[1; 0]]; mkRM 2 [[2; 0]]] = Ok (2%nat, [mkRM 2 [[1; 0]]; mkRM 2 [[2; 0]]]) /\
  ge (2%nat, [mkRM 2 [[1; 0]]; mkRM 2 [[2; 0]]]) [0; 1]%nat = Throw.
Proof.
  split; [reflexivity|]. rewrite ge_rows by (simpl; intros b H; lia). cbn [fst snd]. simpl flat_map.
  destruct (ge_h_value 2 [[1; 0]; [2; 0]]) as [[_ P]|[E _]]; try discriminate; auto.
  exfalso. simpl in P. unfold schur in P. simpl in P. lra.
Qed.
Example C62_ex_width : ge_new [mkRM 2 [[1; 0]]; mkRM 3 []] = Throw.
Proof. reflexivity. Qed.

(** "Rows must be linearly independent" is not enforced without columns: every row is then zero, and the result
    is 0 instead of an exception. *)
Theorem C62_no_columns_refuted :
  ~ (forall n Ms B, ge_new Ms = Ok (n, Ms) -> (forall m, In m Ms -> mapping_ok m) -> (forall b, In b B -> (b < length Ms)%nat) ->
     ~ independent n (stacked Ms B) -> ge (n, Ms) B = Throw).
Proof.
  intro H. specialize (H 0%nat [mkRM 0 [[]]] [0%nat] eq_refl).
  assert (K : ge (0%nat, [mkRM 0 [[]]]) [0%nat] = Ok 0) by (rewrite ge_rows by (simpl; intros; lia); reflexivity).
  rewrite K in H. assert (E : Ok 0 = Throw); [|discriminate]. apply H.
  - intros m [<-|[]] r [<-|[]]. reflexivity.
  - simpl. intros; lia.
  - intro I. assert (Z := I [1] eq_refl ltac:(simpl; intros x []) 1 (or_introl eq_refl)). lra.
Qed.

Print Assumptions C61_chain.
Print Assumptions C61_throws.
Print Assumptions C61_submodular.
Print Assumptions C61_symmetric_refuted.
Print Assumptions C62_rows.
Print Assumptions C62_throws.
Print Assumptions C62_submodular.
Print Assumptions C62_no_columns_refuted.
