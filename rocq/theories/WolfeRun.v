(** * WolfeRun: the major cycle of IC::min_norm_base; whatever is returned is a base, and near the optimum. *)
From Coq Require Import Qabs.
From Verif Require Import Base Graph Spec SubThy MHC MAIC SFSpec MNBThy GreedyThy ExactMNB MWolfe WolfeSpec LinThy WolfeThy.

Lemma wsum_snoc g cols q v a : length v = length cols -> wsum g (cols ++ [q]) (v ++ [a]) == wsum g cols v + a * g q.
Proof. intro H. rewrite wsum_app by auto. unfold wsum at 2. simpl. ring. Qed.

Lemma snoc_length {A} (c : list A) k : length c = S k -> exists d a, c = d ++ [a] /\ length d = k.
Proof.
  intro H. destruct (rev c) as [|a r] eqn:E.
  - apply (f_equal (@length A)) in E. rewrite rev_length in E. simpl in E. lia.
  - exists (rev r), a. assert (c = rev r ++ [a]) by (rewrite <- (rev_involutive c), E; reflexivity). split; auto.
    subst c. rewrite app_length in H. simpl in H. lia.
Qed.

(** A column on the near side of x is affinely independent of the corral. *)
Lemma indep_snoc n cols v x q : indep n cols -> aproj n cols v x -> dot n x (vec q) < dot n x x -> indep n (cols ++ [q]).
Proof.
  intros HI (A1 & A2 & A3 & A4) HQ c HC H1 HJ.
  rewrite app_length in HC. simpl in HC. destruct (snoc_length c (length cols) ltac:(lia)) as (d & a & -> & HD).
  rewrite wsum_snoc in H1 by auto.
  assert (K : dot n x x * wsum (fun _ => 1) cols d + a * dot n x (vec q) == 0).
  { assert (Z : wsum (fun r => dot n x (vec r)) (cols ++ [q]) (d ++ [a]) == 0).
    { unfold dot. rewrite wsum_qsum. apply qsum_zero. intros i Hi. apply in_seq in Hi.
      rewrite (wsum_ext (fun r => x i * vec r i) (fun r => x i * nth i r 0)) by (intros; reflexivity).
      rewrite wsum_scal, HJ by lia. ring. }
    rewrite wsum_snoc in Z by auto.
    rewrite (wsum_ext (fun r => dot n x (vec r)) (fun _ => dot n x x)) in Z by auto. rewrite wsum_const in Z. exact Z. }
  assert (A0 : a == 0).
  { assert (P : a * (dot n x x - dot n x (vec q)) == 0).
    { setoid_replace (wsum (fun _ => 1) cols d) with (- a) in K by lra. lra. }
    apply Qmult_integral in P. destruct P; auto. lra. }
  intros b Hb. apply in_app_iff in Hb. destruct Hb as [Hb|[<-|[]]]; auto.
  apply (HI d HD); auto.
  - rewrite A0 in H1. lra.
  - intros j Hj. specialize (HJ j Hj). rewrite wsum_snoc, A0 in HJ by auto. lra.
Qed.

(** Projecting on the larger affine hull: a positive coefficient for the new column, a shorter vector. *)
Lemma snoc_pos n cols q v x vs vq x' : aproj n cols v x -> aproj n (cols ++ [q]) (vs ++ [vq]) x' ->
  dot n x (vec q) < dot n x x -> 0 < vq /\ dot n x' x' < dot n x x.
Proof.
  intros A A' HQ. assert (A0 := A). assert (A0' := A').
  destruct A as (A1 & A2 & A3 & A4). destruct A' as (B1 & B2 & B3 & B4).
  rewrite !app_length in B1. simpl in B1. assert (LS : length vs = length cols) by lia.
  assert (X1 : dot n x' x == dot n x' x').
  { apply (aproj_xx n (cols ++ [q]) (vs ++ [vq]) x' x (v ++ [0])); auto.
    - rewrite !app_length, A1. reflexivity.
    - rewrite wsum_snoc by auto. lra.
    - intros j Hj. rewrite wsum_snoc by auto. rewrite (A3 j Hj). ring. }
  assert (X2 : dot n x' x == dot n x x - vq * (dot n x x - dot n x (vec q))).
  { rewrite (dot_comb n _ _ x' x B3). rewrite wsum_snoc by auto. rewrite wsum_snoc in B2 by auto.
    rewrite (wsum_ext (fun r => dot n (vec r) x) (fun _ => dot n x x)) by (intros; rewrite dot_sym; auto).
    rewrite wsum_const. setoid_replace (wsum (fun _ => 1) cols vs) with (1 - vq) by lra. rewrite (dot_sym n (vec q) x). ring. }
  assert (X3 := dot_sub n x x'). rewrite (dot_sym n x x') in X3.
  assert (X4 := dot_nonneg n (fun i => x i - x' i)).
  assert (LT : dot n x' x' < dot n x x).
  { destruct (Qlt_le_dec (dot n x' x') (dot n x x)) as [|G]; auto. exfalso.
    assert (Z : dot n (fun i => x i - x' i) (fun i => x i - x' i) == 0) by lra.
    assert (EQ : forall i, (i < n)%nat -> x i == x' i).
    { intros i Hi. assert (K := dot_zero n _ Z i Hi). simpl in K. lra. }
    assert (Q1 : dot n x (vec q) == dot n x' (vec q)) by (apply dot_wd; auto; intros; reflexivity).
    assert (Q2 := B4 q ltac:(apply in_app_iff; right; left; auto)).
    assert (Q3 : dot n x x == dot n x' x') by (apply dot_wd; auto). lra. }
  split; auto.
  destruct (Qlt_le_dec 0 vq) as [|G]; auto. exfalso.
  assert (0 <= (- vq) * (dot n x x - dot n x (vec q))) by (apply Qmult_le_0_compat; lra).
  assert ((- vq) * (dot n x x - dot n x (vec q)) == - (vq * (dot n x x - dot n x (vec q)))) by ring. lra.
Qed.

Lemma combine_snoc {A B} (w : list A) (v : list B) b a c : (length v < length w)%nat -> In (a, c) (combine w (v ++ [b])) ->
  In a (firstn (length v) w) \/ c = b.
Proof.
  revert v. induction w as [|d w IH]; intros [|e v] HL H; simpl in *; try lia.
  - destruct H as [E|H]; [injection E as _ <-; auto|]. rewrite combine_nil in H. destruct H.
  - destruct H as [E|H]; [injection E as <- <-; auto|]. destruct (IH v ltac:(lia) H); auto.
Qed.

Section Run.
Context {T : Type}.
Variables (ord : list Q -> list nat) (lin : list (list Q) -> list Q) (L : lapi T) (tol eps : Q) (f : sf) (F : nset -> Q).
Let n := sfn f.
Hypotheses (HG : ground n F) (HF : computes f F) (HS : submodular F).
Hypotheses (HO : forall w, length w = n -> sorts w (ord w)) (HL : solves n lin).
Hypotheses (E0 : 0 <= eps) (E1 : qn n * eps < 1) (T0 : 0 < tol) (Hn : (0 < n)%nat).

(** The state between two major cycles. *)
Definition jinv (cols : list (list Q)) (w x : list Q) : Prop :=
  corral n F cols /\ length w = S n /\ (forall a, In a w -> 0 <= a) /\
  (forall a, In a (firstn (length cols) w) -> eps < a) /\ length x = n /\
  aproj n cols (firstn (length cols) w) (vec x).

Definition near (x : list Q) : Prop :=
  forall y, in_base n F y -> dot n (vec x) (vec x) - dot n (vec x) y < tol.

Lemma jinv_base cols w x : jinv cols w x -> in_base n F (vec x).
Proof.
  intros ((C1 & C2 & C3) & _ & J2 & _ & _ & (A1 & A2 & A3 & A4)).
  apply (base_comb n F cols (firstn (length cols) w)); auto.
  - intros q Hq. apply (C2 q Hq).
  - intros a Ha. apply J2. rewrite <- (firstn_skipn (length cols) w). apply in_app_iff. auto.
Qed.

Lemma greedy_step x : length x = n -> exists q, edmonds_greedy ord f x = Ok q /\ length q = n /\ in_base n F (vec q) /\
  forall y, in_base n F y -> dot n (vec x) (vec q) <= dot n (vec x) y.
Proof.
  intro HX. destruct (greedy_ok ord f F x HG HF HX (HO x HX)) as (q & Q1 & Q2 & _ & Q3).
  destruct (Q3 HS) as [Q4 Q5]. exists q. auto.
Qed.

Lemma minv_start cols w x q : jinv cols w x -> length q = n -> in_base n F (vec q) ->
  dot n (vec x) (vec q) < dot n (vec x) (vec x) -> minv lin eps n F (cols ++ [q]) w.
Proof.
  intros (J1 & J2 & J3 & J4 & J5 & J6) HQ HB LT. assert (C := J1). destruct C as (C1 & C2 & C3).
  assert (CO : corral n F (cols ++ [q])).
  { split; [destruct cols; discriminate|]. split.
    - intros r Hr. apply in_app_iff in Hr. destruct Hr as [Hr|[<-|[]]]; auto.
    - apply (indep_snoc n cols _ _ q C3 J6 LT). }
  assert (CB := corral_bound n F Hn _ CO). rewrite app_length in CB. simpl in CB.
  split; auto. split; auto. split; auto. split.
  - destruct (corral_proj lin n F HL _ CO) as (_ & _ & AP).
    assert (LV := proj1 AP). rewrite app_length in LV. simpl in LV.
    destruct (snoc_length (vproj lin (cols ++ [q])) (length cols) ltac:(lia)) as (vs & vq & EV & LS).
    rewrite EV in *. intros a b Hi. destruct (snoc_pos n cols q _ _ vs vq _ J6 AP LT) as [VP _].
    destruct (combine_snoc w vs vq a b) as [K|K]; auto; [lia| |].
    + left. apply J4. rewrite <- LS. auto.
    + right. subst b. split; auto. apply J3. apply in_combine_l in Hi. auto.
  - assert (W1 : qsum (fun a => a) (firstn (length cols) w) == 1).
    { rewrite <- (wsum_ones cols); [|apply J6]. apply J6. }
    rewrite app_length. simpl.
    assert (K : qsum (fun a => a) (firstn (length cols) w) <= qsum (fun a => a) (firstn (length cols + 1) w)).
    { rewrite <- (firstn_skipn (length cols) (firstn (length cols + 1) w)).
      rewrite firstn_firstn, Nat.min_l by lia. rewrite qsum_app.
      assert (0 <= qsum (fun a => a) (skipn (length cols) (firstn (length cols + 1) w))); [|lra].
      apply qsum_nonneg. intros a Ha. apply J3.
      rewrite <- (firstn_skipn (length cols + 1) w). apply in_app_iff. left.
      rewrite <- (firstn_skipn (length cols) (firstn (length cols + 1) w)). apply in_app_iff. auto. }
    assert (0 <= (qn n - qn (length cols + 1)) * eps); [|lra].
    apply Qmult_le_0_compat; auto. unfold qn.
    assert (inject_Z (Z.of_nat (length cols + 1)) <= inject_Z (Z.of_nat n)) by (rewrite <- Zle_Qle; lia). lra.
Qed.

Lemma mpost_jinv cols w : mpost lin eps n F cols w -> jinv cols w (lcomb n cols (firstn (length cols) w)).
Proof.
  intros (P1 & P2 & P3 & P4 & P5). destruct (corral_proj lin n F HL _ P1) as (_ & _ & AP).
  split; auto. split; auto. split; auto. split; [rewrite P4; auto|]. split; [unfold lcomb; rewrite map_length, seq_length; auto|].
  rewrite P4. exact AP.
Qed.

Definition scok (fo : ext) (sc : option nat) : Prop := fo = PosInf \/ sc <> None.

(** One major cycle. *)
Lemma major_pass fuel cols w x lt fo sc : jinv cols w x -> scok fo sc ->
  (exists b, wolfe_major ord lin L tol eps f (S fuel) cols w x lt fo sc = Ok (x, b) /\ (b = false -> near x)) \/
  exists q g, edmonds_greedy ord f x = Ok q /\ length q = n /\ in_base n F (vec q) /\
    dot n (vec x) (vec q) < dot n (vec x) (vec x) /\
    exists sc', wolfe_major ord lin L tol eps f (S fuel) cols w x lt fo sc =
      (do lt1 <- l_add L lt cols q;
       do r <- wolfe_minor lin L eps (S n) (cols ++ [q]) w lt1;
       wolfe_major ord lin L tol eps f fuel (fst (fst r)) (snd (fst r))
            (lcomb n (fst (fst r)) (firstn (length (fst (fst r))) (snd (fst r)))) (snd r) (Val g) (Some sc')).
Proof.
  intros J SC. assert (HB := jinv_base _ _ _ J). assert (HX : length x = n) by apply J.
  destruct (greedy_step x HX) as (q & Q1 & Q2 & Q3 & Q4).
  cbn [wolfe_major]. rewrite Q1. cbn [bind]. fold n.
  change (ldot n x q) with (dot n (vec x) (vec q)). change (ldot n x x) with (dot n (vec x) (vec x)).
  set (g := Qred (Qabs (dot n (vec x) (vec q) - dot n (vec x) (vec x)))).
  assert (LE := Q4 _ HB).
  assert (G : g == dot n (vec x) (vec x) - dot n (vec x) (vec q)).
  { unfold g. rewrite Qred_correct, Qabs_neg; lra. }
  destruct (Qltb g tol) eqn:ET.
  - left. exists false. split; auto. intros _ y Hy. apply Qltb_true in ET. specialize (Q4 y Hy). lra.
  - apply Qltb_false in ET.
    assert (SS : exists sc', (if egtb fo (Val g) then Ok 0%nat else match sc with Some c => Ok (S c) | None => UB end) = Ok sc').
    { destruct SC as [->|N]; [exists 0%nat; reflexivity|]. destruct (egtb fo (Val g)); [eauto|].
      destruct sc as [c|]; [eauto|contradiction]. }
    destruct SS as (sc' & ->). cbn [bind].
    destruct (100 <? sc')%nat; [left; exists true; split; auto; discriminate|].
    assert (LT : dot n (vec x) (vec q) < dot n (vec x) (vec x)) by lra.
    assert (MI := minv_start cols w x q J Q2 Q3 LT).
    assert (CB := corral_bound n F Hn _ (proj1 MI)). rewrite app_length in CB. simpl in CB.
    destruct (Nat.leb_spec (S n) (length cols)); [lia|].
    right. exists q, g. repeat split; auto; try apply Q3. exists sc'. reflexivity.
Qed.

(** Every outcome of the loop. *)
Lemma major_ok fuel : forall cols w x lt fo sc, jinv cols w x -> scok fo sc ->
  match wolfe_major ord lin L tol eps f fuel cols w x lt fo sc with
  | Ok (y, b) => length y = n /\ in_base n F (vec y) /\ (b = false -> near y)
  | UB => ~ lsafe L
  | Throw => ~ lsafe L \/ exists lt cols q, l_add L lt cols q = Throw
  | OutOfFuel => True
  end.
Proof.
  induction fuel as [|fuel IH]; intros cols w x lt fo sc J SC; [exact I|].
  destruct (major_pass fuel cols w x lt fo sc J SC) as [(b & R & N)|(q & g & Q1 & Q2 & Q3 & Q4 & sc' & R)]; rewrite R.
  - split; [apply J|]. split; [apply (jinv_base _ _ _ J)|exact N].
  - destruct (l_add L lt cols q) as [lt1| | |] eqn:EA; cbn [bind]; auto.
    + assert (MI := minv_start cols w x q J Q2 Q3 Q4).
      assert (CB := corral_bound n F Hn _ (proj1 MI)).
      assert (MO := minor_ok lin L eps n F HL E0 E1 Hn (S n) (cols ++ [q]) w lt1 ltac:(lia) MI).
      destruct (wolfe_minor lin L eps (S n) (cols ++ [q]) w lt1) as [r| | |] eqn:EM; cbn [bind]; auto.
      destruct MO as [MP _]. apply IH; [apply mpost_jinv; auto|right; discriminate].
    + intros [S1 _]. destruct (S1 lt cols q) as [(lt' & E)|E]; congruence.
    + right. eauto.
Qed.

Lemma jinv_init x : (2 <= n)%nat -> length x = n -> in_base n F (vec x) -> jinv [x] (1 :: repeat 0 n) x.
Proof.
  intros N2 HX HB.
  assert (E2 : eps < 1).
  { assert (qn 1 * eps <= qn n * eps).
    { apply Qmult_le_compat_r; auto. unfold qn. rewrite <- Zle_Qle. lia. }
    setoid_replace (qn 1) with 1 in H by reflexivity. lra. }
  split.
  { split; [discriminate|]. split; [intros q [<-|[]]; auto|].
    intros c HC H1 _. destruct c as [|a [|]]; try discriminate. unfold wsum in H1. simpl in H1.
    intros b [<-|[]]. lra. }
  split; [simpl; rewrite repeat_length; auto|]. split.
  { intros a [<-|Ha]; [lra|]. apply repeat_spec in Ha. subst. lra. }
  split; [intros a [<-|[]]; auto|]. split; auto.
  split; [auto|]. split; [unfold wsum; simpl; lra|]. split.
  - intros j Hj. unfold wsum. simpl. unfold vec. ring.
  - intros q [<-|[]]. reflexivity.
Qed.

(** ** The function *)
Theorem mnb_ok fuel : (2 <= n)%nat ->
  match min_norm_base ord lin L tol eps fuel f with
  | Ok (y, b) => length y = n /\ in_base n F (vec y) /\ (b = false -> near y)
  | UB => ~ lsafe L
  | Throw => ~ lsafe L \/ exists lt cols q, l_add L lt cols q = Throw
  | OutOfFuel => True
  end.
Proof.
  intro N2. unfold min_norm_base. fold n.
  destruct (greedy_step (repeat 1 n)) as (x & X1 & X2 & X3 & _); [apply repeat_length|].
  destruct n as [|[|m]] eqn:EN; [lia|lia|]. rewrite X1. cbn [bind]. rewrite <- EN in *.
  apply major_ok; [|left; auto]. apply jinv_init; auto.
Qed.

End Run.
