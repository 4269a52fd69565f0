(** * WolfeEnd: with eps = 0 the norm drops in every major cycle, so IC::min_norm_base ends; and for a small
    enough tolerance the result is the minimum norm base itself. *)
From Coq Require Import Qabs.
From Verif Require Import Base Graph Spec SubThy MHC MAIC SFSpec MNBThy GreedyThy ExactMNB MWolfe WolfeSpec LinThy WolfeThy WolfeRun.

Definition cmb (cols : list (list Q)) (c : list Q) : nat -> Q := fun j => wsum (fun q => nth j q 0) cols c.
Definition norm2 (n : nat) (cols : list (list Q)) (c : list Q) : Q := dot n (cmb cols c) (cmb cols c).

Lemma cmb_ok n cols c : iscomb n cols c (cmb cols c).
Proof. intros j _. reflexivity. Qed.

Lemma norm2_ext n cols c cols' c' : (forall g, wsum g cols c == wsum g cols' c') -> norm2 n cols c == norm2 n cols' c'.
Proof. intro H. apply dot_wd; intros; apply H. Qed.

Lemma norm2_aproj n cols v x : aproj n cols v x -> norm2 n cols v == dot n x x.
Proof. intros (A1 & A2 & A3 & A4). apply dot_wd; intros i Hi; symmetry; apply A3; auto. Qed.

(** Moving towards the projection. *)
Lemma norm2_mix n cols u v x th : aproj n cols v x -> length u = length cols -> wsum (fun _ => 1) cols u == 1 ->
  dot n x x <= norm2 n cols u /\
  norm2 n cols (mixw th u v) == norm2 n cols u - (2 * th - th * th) * (norm2 n cols u - dot n x x).
Proof.
  intros A LU SU. assert (A0 := A). destruct A as (A1 & A2 & A3 & A4).
  assert (X : dot n x (cmb cols u) == dot n x x) by (apply (aproj_xx n cols v x _ u); auto; apply cmb_ok).
  split.
  - apply first_order. lra.
  - unfold norm2 at 1.
    rewrite (dot_wd n (cmb cols (mixw th u v)) (fun i => (1 - th) * cmb cols u i + th * x i) (cmb cols (mixw th u v)) (fun i => (1 - th) * cmb cols u i + th * x i)).
    2,3: intros i Hi; unfold cmb; rewrite mixw_wsum by lia; rewrite (A3 i Hi); reflexivity.
    assert (D : forall y : nat -> Q, dot n (fun i => (1 - th) * y i + th * x i) (fun i => (1 - th) * y i + th * x i) ==
      (1 - th) * (1 - th) * dot n y y + (2 * th * (1 - th)) * dot n x y + th * th * dot n x x).
    { intro y. unfold dot. rewrite <- !qsum_scal, <- !qsum_plus. apply qsum_ext. intros. ring. }
    rewrite D, X. fold (norm2 n cols u). ring.
Qed.

Lemma mixw_app th u1 u2 v1 v2 : length u1 = length v1 -> mixw th (u1 ++ u2) (v1 ++ v2) = mixw th u1 v1 ++ mixw th u2 v2.
Proof.
  unfold mixw. revert v1. induction u1 as [|a u1 IH]; intros [|b v1] H; cbn [app combine map length] in *; try discriminate; auto.
  rewrite IH by lia. reflexivity.
Qed.

Lemma mixw_length th u v : length u = length v -> length (mixw th u v) = length v.
Proof. intro H. unfold mixw. rewrite map_length, combine_length. lia. Qed.

Lemma keep_app {A} d1 d2 (l1 l2 : list A) : length d1 = length l1 -> keep (d1 ++ d2) (l1 ++ l2) = keep d1 l1 ++ keep d2 l2.
Proof.
  revert d1. induction l1 as [|a l1 IH]; intros [|b d1] H; simpl in H; try discriminate; auto.
  cbn [app]. rewrite !keep_cons. rewrite IH by lia. destruct b; reflexivity.
Qed.

Lemma wsum_keep g cols c : length c = length cols -> (forall a, In a c -> 0 <= a) ->
  let del := map (fun a => Qle_bool a 0) c in wsum g (keep del cols) (keep del c) == wsum g cols c.
Proof.
  revert cols. induction c as [|a c IH]; intros [|q cols] H HP; simpl in H; try discriminate; [reflexivity|].
  cbn [map]. cbv zeta. rewrite !keep_cons.
  assert (K := IH cols ltac:(lia) ltac:(intros; apply HP; right; auto)). cbv zeta in K.
  destruct (Qle_bool a 0) eqn:E.
  - rewrite K. unfold wsum. cbn [combine qsum fst snd]. apply Qle_bool_iff in E.
    assert (a == 0) by (assert (0 <= a) by (apply HP; left; auto); lra). rewrite H0. ring.
  - unfold wsum in *. cbn [combine qsum fst snd]. rewrite K. reflexivity.
Qed.

(** All affine combinations are at least as long as the square root of [A]. *)
Definition low (n : nat) (A : Q) (rest : list (list Q)) : Prop :=
  forall c, length c = length rest -> wsum (fun _ => 1) rest c == 1 -> A <= norm2 n rest c.

Lemma low_keep n A del rest : length del = length rest -> low n A rest -> low n A (keep del rest).
Proof.
  intros H HL c HC H1. rewrite (norm2_ext n (keep del rest) c rest (spread del c)).
  - apply HL; [rewrite spread_length; auto|]. rewrite wsum_spread; auto.
  - intro g. symmetry. apply wsum_spread; auto.
Qed.

Lemma low_aproj n cols v x : aproj n cols v x -> low n (dot n x x) cols.
Proof.
  intros A c HC H1. apply first_order. rewrite (aproj_xx n cols v x _ c A HC H1 (cmb_ok n cols c)). lra.
Qed.

(** The coefficient of the last column stays positive. *)
Lemma last_pos n A rest q wr uq vs vq x th :
  low n A rest -> aproj n (rest ++ [q]) (vs ++ [vq]) x -> length wr = length rest -> length vs = length rest ->
  wsum (fun _ => 1) (rest ++ [q]) (wr ++ [uq]) == 1 -> norm2 n (rest ++ [q]) (wr ++ [uq]) < A -> 0 <= uq -> 0 < th -> th <= 1 ->
  0 < (1 - th) * uq + th * vq.
Proof.
  intros HLow AP LW LS SU NU U0 T0 T1. destruct (Qlt_le_dec 0 ((1 - th) * uq + th * vq)) as [|G]; auto. exfalso.
  assert (K : exists t, 0 <= t /\ t <= 1 /\ (1 - t) * uq + t * vq == 0).
  { destruct (Qeq_dec uq 0) as [Z|Z].
    - exists 0. split; [lra|]. split; [lra|]. rewrite Z. ring.
    - assert (D : 0 < uq - vq).
      { destruct (Qlt_le_dec vq uq); [lra|]. exfalso.
        assert (0 <= th * (vq - uq)) by (apply Qmult_le_0_compat; lra).
        setoid_replace ((1 - th) * uq + th * vq) with (uq + th * (vq - uq)) in G by ring. lra. }
      exists (uq / (uq - vq)). split; [|split].
      + apply Qle_shift_div_l; lra.
      + apply Qle_shift_div_r; [lra|]. 
        assert (vq <= 0).
        { destruct (Qlt_le_dec 0 vq); [|auto]. exfalso.
          assert (0 <= (1 - th) * uq) by (apply Qmult_le_0_compat; lra).
          assert (0 < th * vq) by (apply Qmult_lt_0_compat; lra). lra. }
        lra.
      + field. lra. }
  destruct K as (t & K1 & K2 & K3).
  destruct (norm2_mix n (rest ++ [q]) (wr ++ [uq]) (vs ++ [vq]) x t AP) as [M1 M2]; auto.
  { rewrite !app_length, LW. reflexivity. }
  rewrite mixw_app in M2 by lia.
  assert (W : forall g, wsum g (rest ++ [q]) (mixw t wr vs ++ mixw t [uq] [vq]) == wsum g rest (mixw t wr vs)).
  { intro g. unfold mixw at 2. cbn [combine map fst snd]. rewrite wsum_snoc by (rewrite mixw_length; lia).
    rewrite Qred_correct, K3. ring. }
  rewrite (norm2_ext n _ _ _ _ W) in M2.
  assert (LO : A <= norm2 n rest (mixw t wr vs)).
  { apply HLow; [rewrite mixw_length; lia|]. rewrite <- W, <- mixw_app by lia.
    rewrite mixw_wsum by (rewrite !app_length; simpl; lia). destruct AP as (_ & A2 & _). rewrite SU, A2. ring. }
  assert (0 <= t * (2 - t)) by (apply Qmult_le_0_compat; lra).
  assert (0 <= (t * (2 - t)) * (norm2 n (rest ++ [q]) (wr ++ [uq]) - dot n x x)) by (apply Qmult_le_0_compat; lra).
  assert (E : (2 * t - t * t) * (norm2 n (rest ++ [q]) (wr ++ [uq]) - dot n x x) ==
              (t * (2 - t)) * (norm2 n (rest ++ [q]) (wr ++ [uq]) - dot n x x)) by ring.
  lra.
Qed.

(** The state of the minor cycle, apart from what was left in w for the new column. *)
Definition ninv (n : nat) (A : Q) (rest : list (list Q)) (q : list Q) (w : list Q) : Prop :=
  low n A rest /\ exists wr wq uq, firstn (length rest + 1) w = wr ++ [wq] /\ length wr = length rest /\ 0 <= uq /\ uq <= wq /\
    wsum (fun _ => 1) (rest ++ [q]) (wr ++ [uq]) == 1 /\ norm2 n (rest ++ [q]) (wr ++ [uq]) < A.

Section End.
Context {T : Type}.
Variables (ord : list Q -> list nat) (lin : list (list Q) -> list Q) (L : lapi T) (tol : Q) (f : sf) (F : nset -> Q).
Let n := sfn f.
Hypotheses (HG : ground n F) (HF : computes f F) (HS : submodular F).
Hypotheses (HO : forall w, length w = n -> sorts w (ord w)) (HL : solves n lin).
Hypotheses (T0 : 0 < tol) (Hn : (0 < n)%nat).

Let E0 : 0 <= 0.
Proof. lra. Qed.
Let E1 : qn n * 0 < 1.
Proof. lra. Qed.

Definition xof (cols : list (list Q)) : list Q := lcomb n cols (vproj lin cols).

(** One deletion keeps the invariant; [first] covers the first pass, where [u] is x itself. *)
Lemma ninv_step A rest q w th wr wq uq vs vq :
  let cols := rest ++ [q] in
  let v := vs ++ [vq] in
  let w_ := mixw th (firstn (length cols) w) v in
  let del := map (fun a => Qle_bool a 0) w_ in
  low n A rest -> aproj n cols v (vec (xof cols)) -> firstn (length rest + 1) w = wr ++ [wq] ->
  length wr = length rest -> length vs = length rest -> uq <= wq -> 0 < th -> th <= 1 ->
  wsum (fun _ => 1) cols (wr ++ [uq]) == 1 -> (forall a, In a w_ -> 0 <= a) ->
  0 < (1 - th) * uq + th * vq -> norm2 n cols (mixw th (wr ++ [uq]) v) < A ->
  forall w', firstn (length (keep del cols)) w' = keep del w_ ->
  exists rest', keep del cols = rest' ++ [q] /\ ninv n A rest' q w'.
Proof.
  intros cols v w_ del HLow AP HW LW LS UW TP T1 SU PW UP NL w' FW.
  assert (LC : length cols = (length rest + 1)%nat) by (unfold cols; rewrite app_length; reflexivity).
  assert (LV : length wr = length vs) by lia.
  set (wr' := mixw th wr vs). set (wq' := Qred ((1 - th) * wq + th * vq)). set (uq' := Qred ((1 - th) * uq + th * vq)).
  assert (W_ : w_ = wr' ++ [wq']).
  { unfold w_, v. rewrite LC, HW. rewrite mixw_app by auto. reflexivity. }
  assert (UE : mixw th (wr ++ [uq]) v = wr' ++ [uq']).
  { unfold v. rewrite mixw_app by auto. reflexivity. }
  assert (UQ : 0 < uq' /\ uq' <= wq').
  { unfold uq', wq'. rewrite !Qred_correct. split; auto.
    assert (0 <= (1 - th) * (wq - uq)) by (apply Qmult_le_0_compat; lra).
    assert ((1 - th) * (wq - uq) == (1 - th) * wq - (1 - th) * uq) by ring. lra. }
  set (delr := map (fun a => Qle_bool a 0) wr').
  assert (LR : length wr' = length rest) by (unfold wr'; rewrite mixw_length; lia).
  assert (DE : del = delr ++ [false]).
  { unfold del. rewrite W_, map_app. unfold delr. cbn [map]. f_equal. f_equal. apply Qle_bool_false. lra. }
  assert (LD : length delr = length rest) by (unfold delr; rewrite map_length; auto).
  assert (KC : keep del cols = keep delr rest ++ [q]).
  { rewrite DE. unfold cols. rewrite keep_app by auto. reflexivity. }
  assert (KW : keep del w_ = keep delr wr' ++ [wq']).
  { rewrite DE, W_. rewrite keep_app by (rewrite LD, LR; reflexivity). reflexivity. }
  exists (keep delr rest). split; auto.
  assert (PR : forall a, In a wr' -> 0 <= a) by (intros a Ha; apply PW; rewrite W_; apply in_app_iff; auto).
  assert (LK : length (keep delr wr') = length (keep delr rest)) by (apply keep_length_same; lia).
  assert (WS : forall g, wsum g (keep delr rest ++ [q]) (keep delr wr' ++ [uq']) == wsum g cols (mixw th (wr ++ [uq]) v)).
  { intro g. rewrite UE. unfold cols. rewrite !wsum_snoc by auto.
    assert (K := wsum_keep g rest wr' LR PR). cbv zeta in K. fold delr in K. rewrite K. reflexivity. }
  split; [apply low_keep; auto|].
  exists (keep delr wr'), wq', uq'. split; [|split; [|split; [|split; [|split]]]]; auto; try lra.
  - rewrite <- KW. rewrite <- FW. rewrite KC, app_length. reflexivity.
  - rewrite WS. rewrite mixw_wsum by (unfold v; rewrite !app_length; simpl; lia).
    destruct AP as (_ & A2 & _). rewrite SU, A2. ring.
  - rewrite (norm2_ext n _ _ _ _ WS). auto.
Qed.

Lemma minor_dec A fuel : forall rest q w lt r, minv lin 0 n F (rest ++ [q]) w -> ninv n A rest q w ->
  wolfe_minor lin L 0 fuel (rest ++ [q]) w lt = Ok r ->
  dot n (vec (xof (fst (fst r)))) (vec (xof (fst (fst r)))) < A.
Proof.
  induction fuel as [|fuel IH]; intros rest q w lt r MI (HLow & wr & wq & uq & W1 & W2 & W3 & W4 & W5 & W6) R; [discriminate|].
  set (cols := rest ++ [q]) in *.
  assert (IC := proj1 MI). destruct (corral_proj lin n F HL cols IC) as (_ & _ & AP).
  fold (xof cols) in AP. set (v := vproj lin cols) in *.
  destruct (minor_pass lin L 0 n F HL E0 E1 Hn fuel cols w lt MI) as [[_ R']|(th & TP & T1 & P)].
  - rewrite R' in R. injection R as <-. cbn [fst].
    destruct (norm2_mix n cols (wr ++ [uq]) v _ 0 AP) as [M _]; auto; [|lra].
    unfold cols. rewrite !app_length, W2. reflexivity.
  - cbv zeta in P. fold v in P. destruct P as (P1 & P2 & P3 & P4 & P5 & P6 & P7 & P8). rewrite P8 in R.
    set (del := map (fun a => Qle_bool a 0) (mixw th (firstn (length cols) w) v)) in *.
    destruct (l_del L lt del) as [lt'| | |]; try discriminate. cbn [bind] in R.
    assert (LC : length cols = S (length rest)) by (unfold cols; rewrite app_length; simpl; lia).
    rewrite LC in P2.
    destruct (snoc_length v (length rest) P2) as (vs & vq & EV & LS). subst del. rewrite EV in *.
    assert (LU : length (wr ++ [uq]) = length cols) by (rewrite app_length, W2, LC; simpl; lia).
    destruct (norm2_mix n cols (wr ++ [uq]) (vs ++ [vq]) _ th AP LU W5) as [M1 M2].
    assert (UP : 0 < (1 - th) * uq + th * vq) by (apply (last_pos n A rest q wr uq vs vq (vec (xof cols)) th); auto).
    assert (NL : norm2 n cols (mixw th (wr ++ [uq]) (vs ++ [vq])) < A).
    { rewrite M2. assert (0 <= th * (2 - th)) by (apply Qmult_le_0_compat; lra).
      assert (0 <= (th * (2 - th)) * (norm2 n cols (wr ++ [uq]) - dot n (vec (xof cols)) (vec (xof cols)))) by (apply Qmult_le_0_compat; lra).
      assert (E : (2 * th - th * th) * (norm2 n cols (wr ++ [uq]) - dot n (vec (xof cols)) (vec (xof cols))) ==
        (th * (2 - th)) * (norm2 n cols (wr ++ [uq]) - dot n (vec (xof cols)) (vec (xof cols)))) by ring. lra. }
    destruct (ninv_step A rest q w th wr wq uq vs vq HLow AP W1 W2 LS W4 TP T1 W5 P4 UP NL _ P7) as (rest' & K1 & K2).
    fold cols in K1. rewrite K1 in R, P6.
    apply (IH rest' q _ lt' r P6 K2 R).
Qed.

(** The first pass starts at x. *)
Lemma major_dec fuel cols w x q lt r : jinv 0 f F cols w x -> length q = n -> in_base n F (vec q) ->
  dot n (vec x) (vec q) < dot n (vec x) (vec x) ->
  wolfe_minor lin L 0 fuel (cols ++ [q]) w lt = Ok r ->
  dot n (vec (xof (fst (fst r)))) (vec (xof (fst (fst r)))) < dot n (vec x) (vec x).
Proof.
  intros J HQ HB LT R. destruct fuel as [|fuel]; [discriminate|].
  assert (MI := minv_start lin 0 f F HL E0 Hn cols w x q J HQ HB LT).
  assert (J' := J). destruct J' as (_ & J2 & J3 & J4 & _ & J6). change (sfn f) with n in MI, J2, J6.
  set (A := dot n (vec x) (vec x)) in *.
  assert (IC := proj1 MI). destruct (corral_proj lin n F HL _ IC) as (_ & _ & AP).
  fold (xof (cols ++ [q])) in AP. set (v := vproj lin (cols ++ [q])) in *.
  assert (P2 := proj1 AP). rewrite app_length in P2. simpl in P2.
  destruct (snoc_length v (length cols) ltac:(lia)) as (vs & vq & EV & LS).
  assert (AP' := AP). rewrite EV in AP'.
  destruct (snoc_pos n cols q _ _ vs vq _ J6 AP' LT) as [VP NB]. fold A in NB.
  destruct (minor_pass lin L 0 n F HL E0 E1 Hn fuel (cols ++ [q]) w lt MI) as [[_ R']|(th & TP & T1 & P)].
  - rewrite R' in R. injection R as <-. cbn [fst]. exact NB.
  - cbv zeta in P. fold v in P. destruct P as (P1 & _ & P3 & P4 & P5 & P6 & P7 & P8). rewrite P8 in R.
    set (del := map (fun a => Qle_bool a 0) (mixw th (firstn (length (cols ++ [q])) w) v)) in *.
    destruct (l_del L lt del) as [lt'| | |]; try discriminate. cbn [bind] in R.
    set (wr := firstn (length cols) w) in *.
    assert (LW : length wr = length cols) by apply J6.
    assert (LCW : (length cols < length w)%nat).
    { rewrite app_length in P1. simpl in P1. rewrite firstn_length in P1. lia. }
    assert (W1 : exists wq, firstn (length cols + 1) w = wr ++ [wq] /\ 0 <= wq).
    { exists (nth (length cols) w 0). split; [|apply J3; apply nth_In; auto].
      unfold wr. clear -LCW. revert LCW. generalize (length cols). clear. intro k. revert w.
      induction k as [|k IH]; intros [|a w] H; simpl in *; try lia; auto. rewrite IH by lia. reflexivity. }
    destruct W1 as (wq & W1 & WQ).
    assert (SU : wsum (fun _ => 1) (cols ++ [q]) (wr ++ [0]) == 1).
    { rewrite wsum_snoc by auto. destruct J6 as (_ & S1 & _). fold wr in S1. lra. }
    assert (LU : length (wr ++ [0]) = length (cols ++ [q])) by (rewrite !app_length, LW; reflexivity).
    destruct (norm2_mix n (cols ++ [q]) (wr ++ [0]) v _ th AP LU SU) as [M1 M2].
    assert (NX : norm2 n (cols ++ [q]) (wr ++ [0]) == A).
    { rewrite (norm2_ext n _ _ cols wr); [apply (norm2_aproj n cols wr (vec x)); exact J6|].
      intro g. rewrite wsum_snoc by auto. ring. }
    assert (NL : norm2 n (cols ++ [q]) (mixw th (wr ++ [0]) v) < A).
    { rewrite M2, NX. assert (0 < th * (2 - th)) by (apply Qmult_lt_0_compat; lra).
      assert (0 < (th * (2 - th)) * (A - dot n (vec (xof (cols ++ [q]))) (vec (xof (cols ++ [q]))))) by (apply Qmult_lt_0_compat; lra).
      assert (E : (2 * th - th * th) * (A - dot n (vec (xof (cols ++ [q]))) (vec (xof (cols ++ [q])))) ==
        (th * (2 - th)) * (A - dot n (vec (xof (cols ++ [q]))) (vec (xof (cols ++ [q]))))) by ring. lra. }
    rewrite EV in NL. subst del. rewrite EV in *.
    assert (UP : 0 < (1 - th) * 0 + th * vq) by (assert (0 < th * vq) by (apply Qmult_lt_0_compat; lra); lra).
    destruct (ninv_step A cols q w th wr wq 0 vs vq (low_aproj n cols wr (vec x) J6) AP' W1 LW LS WQ TP T1 SU P4 UP NL _ P7)
      as (rest' & K1 & K2).
    rewrite K1 in R, P6. apply (minor_dec A fuel rest' q _ lt' r P6 K2 R).
Qed.

(** ** The finitely many points the loop can visit *)
Definition gcol (o : list nat) : list Q :=
  match (do F0 <- sfv f []; do x <- greedy_loop (sfv f) [] F0 o (fun _ => 0); Ok (map x (seq 0 (sfn f)))) with
  | Ok x => x
  | _ => []
  end.

Fixpoint lists {A} (k : nat) (l : list A) : list (list A) :=
  match k with
  | O => [[]]
  | S k' => flat_map (fun a => map (cons a) (lists k' l)) l
  end.

Lemma lists_In {A} k (l : list A) m : length m = k -> incl m l -> In m (lists k l).
Proof.
  revert m. induction k as [|k IH]; intros [|a m] H HI; simpl in *; try discriminate; auto.
  apply in_flat_map. exists a. split; [apply HI; left; auto|]. apply in_map. apply IH; auto.
  intros b Hb. apply HI. right; auto.
Qed.

Definition gcols : list (list Q) := map gcol (lists n (seq 0 n)).
Definition corrals : list (list (list Q)) := flat_map (fun k => lists k gcols) (seq 0 (S n)).
Definition points : list (list Q) := gcols ++ map xof corrals.

Lemma greedy_gcols x q : length x = n -> edmonds_greedy ord f x = Ok q -> In q gcols.
Proof.
  intros HX HE. unfold edmonds_greedy in HE. fold n in HE. rewrite HX, Nat.eqb_refl in HE. simpl in HE.
  unfold gcols. apply in_map_iff. exists (ord x). split.
  - unfold gcol. fold n. rewrite HE. reflexivity.
  - destruct (HO x HX) as [HP _]. rewrite HX in HP. apply lists_In.
    + apply Permutation_length in HP. rewrite seq_length in HP. auto.
    + intros a Ha. apply (Permutation_in _ HP). auto.
Qed.

Definition below (x : list Q) : nat := length (filter (fun y => Qltb (ldot n y y) (ldot n x x)) points).

Lemma filter_lt {A} (P R : A -> bool) l a : (forall b, R b = true -> P b = true) -> In a l -> P a = true -> R a = false ->
  (length (filter R l) < length (filter P l))%nat.
Proof.
  intros HI. induction l as [|b l IH]; intros Ha HP HR; [destruct Ha|].
  assert (LE : (length (filter R l) <= length (filter P l))%nat).
  { clear -HI. induction l as [|c l IH]; simpl; auto. destruct (R c) eqn:E; [rewrite (HI c E); simpl; lia|]. destruct (P c); simpl; lia. }
  simpl. destruct Ha as [->|Ha].
  - rewrite HP, HR. simpl. lia.
  - specialize (IH Ha HP HR). destruct (R b) eqn:E; [rewrite (HI b E); simpl; lia|]. destruct (P b); simpl; lia.
Qed.

Lemma below_lt x y : In y points -> ldot n y y < ldot n x x -> (below y < below x)%nat.
Proof.
  intros HI LT. unfold below. apply (filter_lt _ _ _ y); auto.
  - intros b Hb. apply Qltb_true in Hb. apply Qltb_true. lra.
  - apply Qltb_true. auto.
  - apply Qltb_false. lra.
Qed.

(** The loop ends: the fuel left exceeds the number of shorter points. *)
Lemma major_end fuel : forall cols w x lt fo sc, jinv 0 f F cols w x -> scok fo sc -> incl cols gcols -> In x points ->
  (below x < fuel)%nat ->
  match wolfe_major ord lin L tol 0 f fuel cols w x lt fo sc with
  | Ok (y, _) => In y points
  | OutOfFuel => ~ lsafe L
  | _ => True
  end.
Proof.
  induction fuel as [|fuel IH]; intros cols w x lt fo sc J SC HC HP HB; [lia|].
  destruct (major_pass ord lin L tol 0 f F HG HF HS HO HL E0 T0 Hn fuel cols w x lt fo sc J SC)
    as [(b & R & N)|(q & g & Q1 & Q2 & Q3 & Q4 & sc' & R)]; rewrite R; auto.
  destruct (l_add L lt cols q) as [lt1| | |] eqn:EA; cbn [bind]; auto.
  - assert (MI := minv_start lin 0 f F HL E0 Hn cols w x q J Q2 Q3 Q4). change (sfn f) with n in MI. change (sfn f) with n.
    assert (CB := corral_bound n F Hn _ (proj1 MI)).
    assert (MO := minor_ok lin L 0 n F HL E0 E1 Hn (S n) (cols ++ [q]) w lt1 ltac:(lia) MI).
    assert (MD := major_dec (S n) cols w x q lt1).
    destruct (wolfe_minor lin L 0 (S n) (cols ++ [q]) w lt1) as [r| | |] eqn:EM; cbn [bind]; auto.
    destruct MO as [MP MC]. specialize (MD r J Q2 Q3 Q4 eq_refl).
    assert (XE : lcomb n (fst (fst r)) (firstn (length (fst (fst r))) (snd (fst r))) = xof (fst (fst r))).
    { destruct MP as (_ & _ & _ & P4 & _). rewrite P4. reflexivity. }
    assert (CI : incl (fst (fst r)) gcols).
    { intros c Hc. apply MC in Hc. apply in_app_iff in Hc. destruct Hc as [Hc|[<-|[]]]; auto.
      apply (greedy_gcols x); auto. apply J. }
    assert (XP : In (xof (fst (fst r))) points).
    { unfold points. apply in_app_iff. right. apply in_map. unfold corrals. apply in_flat_map.
      exists (length (fst (fst r))). split; [|apply lists_In; auto].
      apply in_seq. assert (B2 := corral_bound n F Hn _ (proj1 MP)). lia. }
    apply IH; auto.
    + apply (mpost_jinv lin 0 f F HL). exact MP.
    + right. discriminate.
    + rewrite XE. exact XP.
    + rewrite XE. assert (K := below_lt x (xof (fst (fst r))) XP MD). lia.
  - intros [S1 _]. destruct (S1 lt cols q) as [(lt' & E)|E]; congruence.
Qed.

Lemma lists_length {A} k (l : list A) : length (lists k l) = (length l ^ k)%nat.
Proof.
  induction k as [|k IH]; [reflexivity|]. simpl. 
  assert (G : forall m : list A, length (flat_map (fun a => map (cons a) (lists k l)) m) = (length m * length (lists k l))%nat).
  { induction m as [|a m IHm]; simpl; auto. rewrite app_length, map_length, IHm. reflexivity. }
  rewrite G, IH. reflexivity.
Qed.

Definition nbases (k : nat) : nat := (k ^ k)%nat.
Definition npoints (k : nat) : nat := (nbases k + list_sum (map (fun j => nbases k ^ j) (seq 0 (S k))))%nat.

Lemma points_length : length points = npoints n.
Proof.
  assert (GL : length gcols = nbases n) by (unfold gcols; rewrite map_length, lists_length, seq_length; reflexivity).
  unfold points, npoints. rewrite app_length, map_length, GL. f_equal. unfold corrals.
  generalize (seq 0 (S n)). induction l as [|k l IH]; [reflexivity|].
  cbn [flat_map map list_sum fold_right]. rewrite app_length, lists_length, GL. f_equal. exact IH.
Qed.

Theorem mnb_end fuel : (2 <= n)%nat -> (npoints n < fuel)%nat ->
  match min_norm_base ord lin L tol 0 fuel f with
  | Ok (y, _) => In y points
  | OutOfFuel => ~ lsafe L
  | _ => True
  end.
Proof.
  intros N2 HFu. unfold min_norm_base. fold n.
  destruct (greedy_step ord f F HG HF HS HO (repeat 1 n)) as (x & X1 & X2 & X3 & _); [apply repeat_length|].
  assert (XG := greedy_gcols (repeat 1 n) x (repeat_length _ _) X1).
  destruct n as [|[|m]] eqn:EN; [lia|lia|]. rewrite X1. cbn [bind]. rewrite <- EN in *.
  apply major_end; auto.
  - apply jinv_init; auto.
  - left; auto.
  - intros c [<-|[]]; auto.
  - unfold points. apply in_app_iff. auto.
  - apply (Nat.le_lt_trans _ (length points)); [unfold below; generalize points; intro l; induction l as [|c l IHl]; simpl; [lia|]; destruct (Qltb _ _); simpl; lia|]. rewrite points_length. auto.
Qed.

(** A tolerance below which only the optimum passes. *)
Lemma min_positive (l : list Q) : exists e, 0 < e /\ forall a, In a l -> 0 < a -> e <= a.
Proof.
  induction l as [|a l (e & E2 & E3)]; [exists 1; split; [lra|intros a []]|].
  destruct (Qlt_le_dec 0 a) as [G|G].
  - destruct (Qlt_le_dec a e) as [H|H].
    + exists a. split; auto. intros b [<-|Hb] Hp; [lra|]. specialize (E3 b Hb Hp). lra.
    + exists e. split; auto. intros b [<-|Hb] Hp; auto.
  - exists e. split; auto. intros b [<-|Hb] Hp; [lra|auto].
Qed.

Lemma exact_tol : exists tol0, 0 < tol0 /\ forall x, In x points -> length x = n -> in_base n F (vec x) ->
  (forall y, in_base n F y -> dot n (vec x) (vec x) - dot n (vec x) y < tol0) -> min_norm n F (vec x).
Proof.
  destruct (min_positive (flat_map (fun x => map (fun q => ldot n x x - ldot n x q) gcols) points)) as (e & P1 & P2).
  exists e. split; auto. intros x HP HX HB HN. split; auto. intros y Hy.
  destruct (greedy_step ord f F HG HF HS HO x HX) as (q & Q1 & Q2 & Q3 & Q4). change (sfn f) with n in Q2, Q3, Q4.
  assert (QG := greedy_gcols x q HX Q1).
  assert (K := HN (vec q) Q3). assert (M := Q4 (vec x) HB).
  assert (Z : dot n (vec x) (vec x) - dot n (vec x) (vec q) <= 0).
  { destruct (Qlt_le_dec 0 (dot n (vec x) (vec x) - dot n (vec x) (vec q))) as [G|G]; auto. exfalso.
    assert (e <= dot n (vec x) (vec x) - dot n (vec x) (vec q)); [|lra].
    apply P2; auto. apply in_flat_map. exists x. split; auto. apply in_map_iff. exists q. split; auto. }
  apply first_order. specialize (Q4 y Hy). lra.
Qed.

End End.
