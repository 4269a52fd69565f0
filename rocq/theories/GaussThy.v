(** * GaussThy: pivots, Schur complements and conditional variances. *)
From Coq Require Import Reals.
From Verif Require Import Base MGauss.
From Coq Require Import Lra Psatz.
Open Scope R_scope.

Lemma rsum_ext {A} (f g : A -> R) l : (forall a, In a l -> f a = g a) -> rsum f l = rsum g l.
Proof. induction l; simpl; intros H; auto. rewrite H, IHl; auto. Qed.
Lemma rsum_app {A} (f : A -> R) l l' : rsum f (l ++ l') = rsum f l + rsum f l'.
Proof. induction l; simpl; lra. Qed.
Lemma rsum_plus {A} (f g : A -> R) l : rsum (fun a => f a + g a) l = rsum f l + rsum g l.
Proof. induction l; simpl; lra. Qed.
Lemma rsum_scal {A} c (f : A -> R) l : rsum (fun a => c * f a) l = c * rsum f l.
Proof. induction l; simpl; [lra|rewrite IHl; lra]. Qed.
Lemma rsum_map {A B} (g : A -> B) (f : B -> R) l : rsum f (map g l) = rsum (fun a => f (g a)) l.
Proof. induction l; simpl; congruence. Qed.

(** ** Elimination over any index type *)
Section Elim.
  Context {A : Type}.
  Implicit Type C : A -> A -> R.
  Definition schur C (a : A) : A -> A -> R := fun i j => C i j - C i a * C j a / C a a.
  Fixpoint given C (l : list A) : A -> A -> R := match l with [] => C | a :: t => given (schur C a) t end.
  Fixpoint posl C (l : list A) : Prop := match l with [] => True | a :: t => 0 < C a a /\ posl (schur C a) t end.
  Fixpoint lnd C (l : list A) : R := match l with [] => 0 | a :: t => ln (C a a) + lnd (schur C a) t end.
  Definition sym C : Prop := forall i j, C i j = C j i.
  Definition ext C C' : Prop := forall i j, C i j = C' i j.

  Lemma schur_sym C a : sym C -> sym (schur C a).
  Proof. intros H i j. unfold schur. rewrite (H i j). unfold Rdiv. ring. Qed.
  Lemma schur_ext C C' a : ext C C' -> ext (schur C a) (schur C' a).
  Proof. intros H i j. unfold schur. rewrite !H. reflexivity. Qed.
  Lemma posl_ext l : forall C C', ext C C' -> posl C l -> posl C' l.
  Proof.
    induction l as [|a l IH]; simpl; auto. intros C C' H [H1 H2]. split; [rewrite <- H; auto|].
    eapply IH; [apply schur_ext; exact H|auto].
  Qed.
  Lemma lnd_ext l : forall C C', ext C C' -> lnd C l = lnd C' l.
  Proof. induction l as [|a l IH]; simpl; auto. intros C C' H. rewrite (H a a). f_equal. apply IH. apply schur_ext. auto. Qed.
  Lemma ext_sym C C' : ext C C' -> ext C' C.
  Proof. intros H i j. symmetry. apply H. Qed.

  Lemma given_app l l' : forall C, given C (l ++ l') = given (given C l) l'.
  Proof. induction l; simpl; auto. Qed.
  Lemma lnd_app l l' : forall C, lnd C (l ++ l') = lnd C l + lnd (given C l) l'.
  Proof. induction l; simpl; intro C; [lra|]. rewrite IHl. lra. Qed.
  Lemma posl_app l l' : forall C, posl C (l ++ l') <-> posl C l /\ posl (given C l) l'.
  Proof. induction l; simpl; intro C; [tauto|]. rewrite IHl. tauto. Qed.
  Lemma given_sym l : forall C, sym C -> sym (given C l).
  Proof. induction l; simpl; intros C H; auto. apply IHl. apply schur_sym. auto. Qed.

  (** Exchanging two neighbours. *)
  Lemma det2 C a b : sym C -> 0 < C a a -> 0 < schur C a b b ->
    0 < C b b /\ 0 < schur C b a a /\ C a a * schur C a b b = C b b * schur C b a a.
  Proof.
    intros S H1 H2. unfold schur in *. rewrite (S b a) in *. 
    assert (P : 0 <= C a b * C a b / C a a).
    { apply Rmult_le_pos; [nra|]. left. apply Rinv_0_lt_compat. auto. }
    assert (Hb : 0 < C b b) by lra.
    assert (E : C a a * (C b b - C a b * C a b / C a a) = C b b * (C a a - C a b * C a b / C b b)) by (field; lra).
    split; auto. split; auto.
    assert (K : 0 < C b b * (C a a - C a b * C a b / C b b)) by (rewrite <- E; apply Rmult_lt_0_compat; auto).
    apply (Rmult_lt_reg_l (C b b)); auto. lra.
  Qed.
  Lemma schur_swap C a b : sym C -> 0 < C a a -> 0 < schur C a b b -> ext (schur (schur C a) b) (schur (schur C b) a).
  Proof.
    intros S H1 H2. destruct (det2 C a b S H1 H2) as (H3 & H4 & E). intros i j. unfold schur in *.
    rewrite (S b a) in *.
    assert (N1 : C a a * C b b - C a b * C a b <> 0).
    { intro K. assert (C a a * (C b b - C a b * C a b / C a a) = 0) by (transitivity (C a a * C b b - C a b * C a b); [field; lra|lra]).
      assert (0 < C a a * (C b b - C a b * C a b / C a a)) by (apply Rmult_lt_0_compat; auto). lra. }
    field. repeat split; try lra.
  Qed.

  Lemma posl_perm l l' : Permutation l l' -> forall C, sym C -> posl C l -> posl C l' /\ lnd C l = lnd C l'.
  Proof.
    induction 1 as [|a l l' H IH|a b l|l l' l'' H1 IH1 H2 IH2]; intros C S P; simpl in *; auto.
    - destruct P as [P1 P2]. destruct (IH (schur C a) (schur_sym C a S) P2). split; auto. congruence.
    - destruct P as (P1 & P2 & P3). destruct (det2 C b a S P1 P2) as (D1 & D2 & D3).
      split.
      + split; auto. split; auto. eapply posl_ext; [apply (schur_swap C b a S P1 P2)|auto].
      + rewrite (lnd_ext l _ _ (schur_swap C b a S P1 P2)). rewrite <- !Rplus_assoc. f_equal.
        rewrite <- !ln_mult by auto. congruence.
    - destruct (IH1 C S P) as [Q1 Q2]. destruct (IH2 C S Q1) as [Q3 Q4]. split; auto. congruence.
  Qed.

  (** Conditioning reduces the pivots. *)
  Lemma lnd_schur_le a l : forall C, sym C -> posl C (a :: l) -> lnd (schur C a) l <= lnd C l.
  Proof.
    induction l as [|y l IH]; intros C S P; [simpl; lra|].
    assert (P' : posl C (y :: a :: l)) by (apply (posl_perm (a :: y :: l) (y :: a :: l)); auto; constructor).
    simpl in P. destruct P as (P1 & P2 & P3). simpl in P'. destruct P' as (Q1 & Q2 & Q3). simpl.
    assert (K1 := IH (schur C y) (schur_sym C y S) (conj Q2 Q3)).
    rewrite (lnd_ext l _ _ (schur_swap C a y S P1 P2)).
    assert (K2 : schur C a y y <= C y y).
    { unfold schur. assert (0 <= C y a * C y a / C a a); [|lra]. apply Rmult_le_pos; [nra|]. left. apply Rinv_0_lt_compat. auto. }
    assert (K3 : ln (schur C a y y) <= ln (C y y)) by (destruct (Rle_lt_or_eq_dec _ _ K2) as [L|L]; [left; apply ln_increasing; auto|rewrite L; lra]).
    lra.
  Qed.
  Lemma posl_tail l l' C : sym C -> posl C (l ++ l') -> posl C l'.
  Proof.
    intros S P. assert (K : posl C (l' ++ l)) by (apply (posl_perm (l ++ l')); auto; apply Permutation_app_comm).
    apply posl_app in K. tauto.
  Qed.
  Lemma lnd_given_le l : forall C l', sym C -> posl C (l ++ l') -> lnd (given C l) l' <= lnd C l'.
  Proof.
    induction l as [|a l IH]; intros C l' S P; simpl; [lra|]. simpl in P. destruct P as [P1 P2].
    assert (K1 := IH (schur C a) l' (schur_sym C a S) P2).
    assert (K2 : lnd (schur C a) l' <= lnd C l').
    { apply lnd_schur_le; auto. split; auto. eapply posl_tail; [apply schur_sym; auto|exact P2]. }
    lra.
  Qed.
  Lemma lnd_sub C i x y : sym C -> posl C (i ++ x ++ y) -> lnd C (i ++ x ++ y) + lnd C i <= lnd C (i ++ x) + lnd C (i ++ y).
  Proof.
    intros S P. apply posl_app in P. destruct P as [P1 P2]. rewrite !lnd_app.
    assert (K := lnd_given_le x (given C i) y (given_sym i C S) P2). lra.
  Qed.

  (** ** Quadratic forms *)
  Definition qf C (l : list (A * R)) : R := rsum (fun p => rsum (fun q => snd p * snd q * C (fst p) (fst q)) l) l.
  Definition bil C (a : A) (l : list (A * R)) : R := rsum (fun q => snd q * C a (fst q)) l.

  Lemma qf_cons C a w l : sym C -> qf C ((a, w) :: l) = w * w * C a a + 2 * w * bil C a l + qf C l.
  Proof.
    intro S. unfold qf, bil. simpl. rewrite rsum_plus.
    replace (rsum (fun q => w * snd q * C a (fst q)) l) with (w * rsum (fun q => snd q * C a (fst q)) l).
    2:{ rewrite <- rsum_scal. apply rsum_ext. intros; ring. }
    replace (rsum (fun p => snd p * w * C (fst p) a) l) with (w * rsum (fun q => snd q * C a (fst q)) l).
    2:{ rewrite <- rsum_scal. apply rsum_ext. intros p _. rewrite (S (fst p) a). ring. }
    ring.
  Qed.
  Lemma qf_schur C a l : C a a <> 0 -> sym C -> qf (schur C a) l = qf C l - bil C a l * bil C a l / C a a.
  Proof.
    intros N S. unfold qf, schur.
    transitivity (rsum (fun p => rsum (fun q => snd p * snd q * C (fst p) (fst q)) l + (- (bil C a l / C a a)) * (snd p * C a (fst p))) l).
    - apply rsum_ext. intros p _. unfold bil.
      replace (- (rsum (fun q => snd q * C a (fst q)) l / C a a) * (snd p * C a (fst p)))
        with ((- (snd p * C a (fst p) / C a a)) * rsum (fun q => snd q * C a (fst q)) l) by (field; auto).
      rewrite <- rsum_scal, <- rsum_plus. apply rsum_ext. intros q _. rewrite (S (fst p) a), (S (fst q) a). field. auto.
    - rewrite rsum_plus, rsum_scal. fold (bil C a l). unfold Rdiv. ring.
  Qed.
  Lemma qf_square C a w l : C a a <> 0 -> sym C ->
    qf C ((a, w) :: l) = C a a * (w + bil C a l / C a a) * (w + bil C a l / C a a) + qf (schur C a) l.
  Proof. intros N S. rewrite qf_cons, qf_schur by auto. field. auto. Qed.

  (** Positive pivots: positive definite. *)
  Definition pd C (l : list A) : Prop :=
    forall w, length w = length l -> (exists x, In x w /\ x <> 0) -> 0 < qf C (combine l w).

  Lemma posl_pd l : forall C, sym C -> (posl C l <-> pd C l).
  Proof.
    induction l as [|a l IH]; intros C S; simpl.
    - split; auto. intros _ w Hw (x & Hx & _). destruct w; [destruct Hx|discriminate].
    - rewrite (IH (schur C a) (schur_sym C a S)). split.
      + intros [P1 P2] w Hw (x & Hx & Nx). destruct w as [|w0 w]; [destruct Hx|]. simpl in Hw. injection Hw as Hw.
        simpl. rewrite qf_square by (auto; lra).
        assert (Z : (exists y, In y w /\ y <> 0) \/ forall y, In y w -> y = 0).
        { clear. induction w as [|y w IH]; [right; intros y []|]. destruct (Req_dec y 0) as [E|E].
          - destruct IH as [(z & Z1 & Z2)|H]; [left; exists z; simpl; auto|right; intros z [<-|Hz]; auto].
          - left. exists y. simpl. auto. }
        assert (SQ : 0 <= (w0 + bil C a (combine l w) / C a a) * (w0 + bil C a (combine l w) / C a a)) by apply Rle_0_sqr.
        destruct Z as [Z|Z].
        * assert (K := P2 w Hw Z). assert (0 <= C a a * ((w0 + bil C a (combine l w) / C a a) * (w0 + bil C a (combine l w) / C a a))) by (apply Rmult_le_pos; lra). lra.
        * destruct Hx as [<-|Hx]; [|exfalso; apply Nx; auto].
          assert (B0 : forall C', bil C' a (combine l w) = 0).
          { intro C'. unfold bil. rewrite (rsum_ext _ (fun _ => 0)).
            - clear. induction (combine l w); simpl; lra.
            - intros [u v] Huv. apply in_combine_r in Huv. simpl. rewrite (Z v Huv). ring. }
          assert (Q0 : qf (schur C a) (combine l w) = 0).
          { unfold qf. rewrite (rsum_ext _ (fun _ => 0)).
            - clear. induction (combine l w); simpl; lra.
            - intros [u v] Huv. apply in_combine_r in Huv. simpl. rewrite (Z v Huv).
              rewrite (rsum_ext _ (fun _ => 0)); [|intros; ring]. clear. induction (combine l w); simpl; lra. }
          rewrite Q0, B0. replace (w0 + 0 / C a a) with w0 by (field; lra).
          assert (0 < w0 * w0) by nra. assert (0 < C a a * (w0 * w0)) by (apply Rmult_lt_0_compat; lra). lra.
      + intro H.
        assert (Zs : forall C', qf C' (combine l (repeat 0 (length l))) = 0 /\ bil C' a (combine l (repeat 0 (length l))) = 0).
        { intro C'. assert (Z0 : forall p, In p (combine l (repeat 0 (length l))) -> snd p = 0).
          { intros [u v] Hp. apply in_combine_r in Hp. apply repeat_spec in Hp. auto. }
          revert Z0. generalize (combine l (repeat 0 (length l))). intros m Z0. unfold qf, bil. split.
          - rewrite (rsum_ext _ (fun _ => 0)); [clear; induction m; simpl; lra|]. intros p Hp. rewrite (Z0 p Hp).
            rewrite (rsum_ext _ (fun _ => 0)); [|intros; ring]. clear; induction m; simpl; lra.
          - rewrite (rsum_ext _ (fun _ => 0)); [clear; induction m; simpl; lra|]. intros p Hp. rewrite (Z0 p Hp). ring. }
        assert (P1 : 0 < C a a).
        { assert (K := H (1 :: repeat 0 (length l))). simpl in K. rewrite repeat_length in K.
          specialize (K eq_refl (ex_intro _ 1 (conj (or_introl eq_refl) R1_neq_R0))).
          rewrite qf_cons in K by auto. destruct (Zs C) as [Z1 Z2]. rewrite Z1, Z2 in K. lra. }
        split; auto. intros w Hw Hx.
        assert (K := H (- (bil C a (combine l w) / C a a) :: w)). simpl in K. rewrite Hw in K.
        destruct Hx as (x & Hx & Nx). specialize (K eq_refl (ex_intro _ x (conj (or_intror Hx) Nx))).
        rewrite qf_square in K by (auto; lra). lra.
  Qed.

  (** The pivot of x behind l: the least mean square error when x is predicted from l. *)
  Lemma given_min l : forall C x, sym C -> posl C l ->
    (exists w, length w = length l /\ qf C ((x, 1) :: combine l w) = given C l x x) /\
    forall w, length w = length l -> given C l x x <= qf C ((x, 1) :: combine l w).
  Proof.
    assert (SW : forall C x a w l, sym C -> qf C ((x, 1) :: (a, w) :: l) = qf C ((a, w) :: (x, 1) :: l)).
    { intros C x a w m S. rewrite !qf_cons by auto. unfold bil. simpl. rewrite (S x a). ring. }
    induction l as [|a l IH]; intros C x S P; simpl.
    - split; [exists []; split; auto|intros [|b w] Hw; [|discriminate]]; simpl; unfold qf; simpl; lra.
    - simpl in P. destruct P as [P1 P2]. destruct (IH (schur C a) x (schur_sym C a S) P2) as [(w & W1 & W2) W3]. split.
      + exists (- (bil C a ((x, 1) :: combine l w) / C a a) :: w). split; [simpl; auto|]. simpl.
        rewrite SW, qf_square by (auto; lra). rewrite W2. ring.
      + intros [|w0 w'] Hw; [discriminate|]. simpl in *. injection Hw as Hw. rewrite SW, qf_square by (auto; lra).
        specialize (W3 w' Hw).
        assert (0 <= C a a * ((w0 + bil C a ((x, 1) :: combine l w') / C a a) * (w0 + bil C a ((x, 1) :: combine l w') / C a a))).
        { apply Rmult_le_pos; [lra|]. apply Rle_0_sqr. }
        lra.
  Qed.
End Elim.

(** Renaming the indices. *)
Lemma lnd_map {A B} (g : A -> B) l : forall C, lnd (fun i j => C (g i) (g j)) l = lnd C (map g l).
Proof. induction l as [|a l IH]; simpl; auto. intro C. f_equal. apply (IH (schur C (g a))). Qed.
Lemma posl_map {A B} (g : A -> B) l : forall C, posl (fun i j => C (g i) (g j)) l <-> posl C (map g l).
Proof. induction l as [|a l IH]; simpl; [tauto|]. intro C. rewrite <- (IH (schur C (g a))). tauto. Qed.

(** ** The Cholesky factor *)
Definition rem (S : nat -> nat -> R) (cols : list (nat -> R)) : nat -> nat -> R :=
  fun i j => S i j - rsum (fun c => c i * c j) cols.

(** The loop reads the lower triangle only. *)
Lemma llt_main S m : forall lo cols C,
  (forall i j, (lo <= j)%nat -> (j <= i)%nat -> rem S cols i j = C i j) -> sym C ->
  (exists L, llt_cols S (seq lo m) cols = Ok (cols ++ L) /\ posl C (seq lo m) /\ length L = m /\
     rsum (fun k => ln (nth k L (fun _ => 0) (lo + k)%nat)) (seq 0 m) = lnd C (seq lo m) / 2) \/
  (llt_cols S (seq lo m) cols = Throw /\ ~ posl C (seq lo m)).
Proof.
  induction m as [|m IH]; intros lo cols C H SY.
  - left. exists []. simpl. rewrite app_nil_r. repeat split; auto. lra.
  - cbn [seq llt_cols posl lnd]. cbv zeta. assert (E := H lo lo (le_n _) (le_n _)). unfold rem in E. rewrite E.
    destruct (Rle_dec (C lo lo) 0) as [N|N]; [right; split; auto; intros [P _]; lra|].
    assert (P0 : 0 < C lo lo) by lra. assert (D0 := sqrt_lt_R0 _ P0). assert (DD := sqrt_sqrt (C lo lo) (Rlt_le _ _ P0)).
    set (d := sqrt (C lo lo)) in *.
    set (c := fun i => if (i =? lo)%nat then d else (S i lo - rsum (fun c => c i * c lo) cols) / d).
    assert (HC : forall i, (lo <= i)%nat -> c i = C i lo / d).
    { intros i Hi. unfold c. destruct (i =? lo)%nat eqn:Ei.
      - apply Nat.eqb_eq in Ei. subst i. apply (Rmult_eq_reg_r d); [|lra]. unfold Rdiv. rewrite Rmult_assoc, Rinv_l by lra. lra.
      - assert (K := H i lo (le_n _) Hi). unfold rem in K. rewrite K. reflexivity. }
    destruct (IH (Datatypes.S lo) (cols ++ [c]) (schur C lo)) as [(L & L1 & L2 & L3 & L4)|[T1 T2]].
    { intros i j H1 H2. unfold rem. rewrite rsum_app. simpl.
      assert (K := H i j ltac:(lia) H2). unfold rem in K. rewrite !HC by lia. unfold schur. rewrite <- K, <- DD. field. lra. }
    { apply schur_sym. auto. }
    + left. exists (c :: L). rewrite L1, <- app_assoc. split; [reflexivity|]. split; [auto|]. split; [simpl; auto|].
      cbn [seq]. rewrite <- seq_shift. cbn [rsum]. rewrite rsum_map. cbn [nth].
      rewrite (rsum_ext _ (fun k => ln (nth k L (fun _ => 0) (Datatypes.S lo + k)%nat))).
      2:{ intros k _. do 2 f_equal. lia. }
      rewrite L4. replace (lo + 0)%nat with lo by lia. rewrite HC by lia.
      replace (C lo lo / d) with d by (rewrite <- DD; field; lra).
      assert (LD : ln (C lo lo) = ln d + ln d) by (rewrite <- DD; apply ln_mult; auto). lra.
    + right. split; auto. tauto.
Qed.

Lemma fold_ln (f : nat -> R) l : forall c, fold_left (fun det i => det + f i) l c = c + rsum f l.
Proof. induction l as [|a l IH]; intro c; simpl; [lra|]. rewrite IH. lra. Qed.

Lemma map_nth_seq {A} (B : list A) d : map (fun i => nth i B d) (seq 0 (length B)) = B.
Proof.
  apply (nth_ext _ _ d d); [rewrite map_length, seq_length; auto|]. intros i Hi. rewrite map_length, seq_length in Hi.
  rewrite (nth_indep _ d (nth 0 B d)) by (rewrite map_length, seq_length; auto).
  rewrite (map_nth (fun i => nth i B d)). rewrite seq_nth; auto.
Qed.

(** The value for a list of elements of any type. *)
Lemma llt_list {A} (C : A -> A -> R) (B : list A) (d : A) : sym C ->
  (exists L, llt (length B) (fun i j => C (nth i B d) (nth j B d)) = Ok L /\ posl C B /\
     rsum (fun k => ln (nth k L (fun _ => 0) k)) (seq 0 (length B)) = lnd C B / 2) \/
  (llt (length B) (fun i j => C (nth i B d) (nth j B d)) = Throw /\ ~ posl C B).
Proof.
  intros SY. set (C' := fun i j => C (nth i B d) (nth j B d)).
  destruct (llt_main C' (length B) 0 [] C') as [(L & L1 & L2 & L3 & L4)|[T1 T2]].
  - intros i j _ _. unfold rem. simpl. lra.
  - intros i j. apply SY.
  - left. exists L. split; [exact L1|]. unfold C' in L2, L4.
    rewrite (posl_map (fun i => nth i B d) _ C), map_nth_seq in L2.
    rewrite (lnd_map (fun i => nth i B d) _ C), map_nth_seq in L4. split; auto.
  - right. split; [exact T1|]. unfold C' in T2. rewrite (posl_map (fun i => nth i B d) _ C), map_nth_seq in T2. auto.
Qed.

(** ** ScalarGaussianEntropy *)
Definition c_nats : R := ln (2 * PI * exp 1) / 2.
Lemma sge_value n Sigma B : sym Sigma -> (forall b, In b B -> (b < n)%nat) ->
  (sge n Sigma B = Ok (c_nats * INR (length B) + lnd Sigma B / 2) /\ posl Sigma B) \/
  (sge n Sigma B = Throw /\ ~ posl Sigma B).
Proof.
  intros SY HB. unfold sge, sge_h. cbv zeta.
  assert (K : forallb (fun b => b <? n)%nat B = true) by (apply forallb_forall; intros b Hb; apply Nat.ltb_lt; auto).
  rewrite K. destruct (llt_list Sigma B O SY) as [(L & L1 & L2 & L3)|[T1 T2]].
  - left. rewrite L1. cbn [bind]. split; auto. f_equal. rewrite (fold_ln (fun i => ln (nth i L (fun _ => 0) i))), L3. reflexivity.
  - right. rewrite T1. auto.
Qed.

(** Only the lower triangle of the matrix counts. *)
Lemma sge_lower n Sigma B C : sym C ->
  (forall i j, (j <= i)%nat -> Sigma (nth i B O) (nth j B O) = C i j) -> (forall b, In b B -> (b < n)%nat) -> posl C (seq 0 (length B)) ->
  sge n Sigma B = Ok (c_nats * INR (length B) + lnd C (seq 0 (length B)) / 2).
Proof.
  intros SY H HB P. unfold sge, sge_h. cbv zeta.
  assert (K : forallb (fun b => b <? n)%nat B = true) by (apply forallb_forall; intros b Hb; apply Nat.ltb_lt; auto).
  rewrite K. destruct (llt_main (fun i j => Sigma (nth i B O) (nth j B O)) (length B) 0 [] C) as [(L & L1 & L2 & L3 & L4)|[T1 T2]]; auto.
  - intros i j _ Hij. unfold rem. simpl. rewrite H by auto. lra.
  - unfold llt. rewrite L1. cbn [bind app]. f_equal. rewrite (fold_ln (fun i => ln (nth i L (fun _ => 0) i))).
    rewrite <- L4. reflexivity.
  - contradiction.
Qed.

(** ** GaussianEntropy: the blocks *)
Lemma nth_app_r {A} (l l' : list A) d i : nth (length l + i) (l ++ l') d = nth i l' d.
Proof. rewrite app_nth2 by lia. f_equal. lia. Qed.

(** Start positions. *)
Fixpoint starts (s : nat) (bs : list (list (list R))) : list nat :=
  match bs with [] => [] | b :: t => s :: starts (s + length b) t end.
Fixpoint tot (s : nat) (bs : list (list (list R))) : nat :=
  match bs with [] => s | b :: t => tot (s + length b) t end.
Lemma starts_length bs : forall s, length (starts s bs) = length bs.
Proof. induction bs; simpl; auto. Qed.
Lemma tot_concat bs : forall s, tot s bs = (s + length (concat bs))%nat.
Proof. induction bs as [|b bs IH]; simpl; intro s; [lia|]. rewrite IH, app_length. lia. Qed.

Lemma row_idx_ok bs : forall done s, 
  row_idx (length done + length bs) (length done) bs (done ++ repeat O (length bs) ++ [s]) = done ++ starts s bs ++ [tot s bs].
Proof.
  induction bs as [|b bs IH]; intros done s; simpl; auto.
  assert (N : forall (x : nat) d, length d = (length done + length (b :: bs))%nat -> nth (length done + length (b :: bs)) (d ++ [x]) O = x).
  { intros x d Hd. rewrite app_nth2 by lia. rewrite Hd, Nat.sub_diag. reflexivity. }
  assert (E1 : nth (length done + S (length bs)) (done ++ O :: repeat O (length bs) ++ [s]) O = s).
  { rewrite nth_app_r. simpl. rewrite app_nth2; rewrite repeat_length; [rewrite Nat.sub_diag|]; auto. }
  rewrite E1.
  assert (E2 : vput (length done) s (done ++ O :: repeat O (length bs) ++ [s]) = (done ++ [s]) ++ repeat O (length bs) ++ [s]).
  { unfold vput. rewrite firstn_app, Nat.sub_diag, firstn_all2, firstn_O, app_nil_r by lia. rewrite skipn_app.
    rewrite skipn_all2 by lia. replace (S (length done) - length done)%nat with 1%nat by lia. simpl. rewrite <- app_assoc. reflexivity. }
  rewrite E2.
  assert (L2 : length ((done ++ [s]) ++ repeat O (length bs)) = (length done + S (length bs))%nat).
  { rewrite !app_length, repeat_length. simpl. lia. }
  rewrite (app_assoc (done ++ [s])).
  assert (E3 : nth (length done + S (length bs)) (((done ++ [s]) ++ repeat O (length bs)) ++ [s]) O = s).
  { rewrite app_nth2 by lia. rewrite L2, Nat.sub_diag. reflexivity. }
  rewrite E3.
  assert (E4 : forall x, vput (length done + S (length bs)) x (((done ++ [s]) ++ repeat O (length bs)) ++ [s]) = (done ++ [s]) ++ repeat O (length bs) ++ [x]).
  { intro x. unfold vput. rewrite <- L2, firstn_app, Nat.sub_diag, firstn_all, firstn_O, app_nil_r.
    rewrite skipn_all2 by (rewrite app_length; simpl; lia). rewrite <- !app_assoc. reflexivity. }
  rewrite E4. assert (IHs := IH (done ++ [s]) (s + length b)%nat). rewrite app_length in IHs. simpl in IHs.
  replace (length done + 1 + length bs)%nat with (length done + S (length bs))%nat in IHs by lia.
  replace (length done + 1)%nat with (S (length done)) in IHs by lia. rewrite IHs. rewrite <- app_assoc. reflexivity.
Qed.

Lemma put_blocks_ok bs : forall done idx s m,
  length m = length (concat bs) -> s = length done ->
  (forall i, (i <= length bs)%nat -> nth (idx + i)%nat (repeat O idx ++ starts s bs ++ [tot s bs]) O = nth i (starts s bs ++ [tot s bs]) O) ->
  forall ix, (forall i, (i <= length bs)%nat -> nth (idx + i)%nat ix O = nth i (starts s bs ++ [tot s bs]) O) ->
  put_blocks ix idx bs (map Some done ++ m) = Ok (map Some (done ++ concat bs)).
Proof.
  induction bs as [|b bs IH]; intros done idx s m Hm Hs _ ix Hix; simpl.
  - simpl in Hm. destruct m; [|discriminate]. rewrite !app_nil_r. reflexivity.
  - assert (N0 := Hix O ltac:(lia)). rewrite Nat.add_0_r in N0. simpl in N0.
    assert (N1 := Hix 1%nat ltac:(simpl; lia)). replace (idx + 1)%nat with (S idx) in N1 by lia.
    assert (N1' : nth (S idx) ix O = (s + length b)%nat).
    { rewrite N1. simpl. destruct bs; reflexivity. }
    rewrite N0, N1'. simpl in Hm. rewrite app_length in Hm.
    replace (s + length b - s =? length b)%nat with true by (symmetry; apply Nat.eqb_eq; lia).
    replace (s + length b <=? length (map Some done ++ m))%nat with true.
    2:{ symmetry. apply Nat.leb_le. rewrite app_length, map_length. lia. }
    simpl. assert (EB : bput s b (map Some done ++ m) = map Some (done ++ b) ++ skipn (length b) m).
    { unfold bput. rewrite firstn_app, map_length, <- Hs, Nat.sub_diag, firstn_O, app_nil_r.
      rewrite firstn_all2 by (rewrite map_length; lia). rewrite skipn_app, map_length, <- Hs.
      rewrite skipn_all2 by (rewrite map_length; lia). replace (s + length b - s)%nat with (length b) by lia.
      rewrite map_app, <- app_assoc. reflexivity. }
    rewrite EB. rewrite (IH (done ++ b) (S idx) (s + length b)%nat (skipn (length b) m)).
    + rewrite <- app_assoc. reflexivity.
    + rewrite skipn_length. lia.
    + rewrite app_length. lia.
    + intros i Hi. replace (S idx + i)%nat with (length (repeat O (S idx)) + i)%nat by (rewrite repeat_length; auto).
      rewrite nth_app_r. reflexivity.
    + intros i Hi. replace (S idx + i)%nat with (idx + S i)%nat by lia. rewrite Hix by (simpl; lia). reflexivity.
Qed.
Lemma all_set_ok l : all_set (map Some l) = Ok l.
Proof. induction l as [|a l IH]; simpl; auto. rewrite IH. reflexivity. Qed.

Lemma ge_rows g B : (forall b, In b B -> (b < length (snd g))%nat) ->
  ge g B = ge_h (fst g) (flat_map (fun b => rrows (nth b (snd g) (mkRM 0 []))) B).
Proof.
  intro HB. unfold ge. assert (K : forallb (fun b => b <? length (snd g))%nat B = true) by (apply forallb_forall; intros b Hb; apply Nat.ltb_lt; auto).
  rewrite K. cbv zeta. set (bs := map (fun b => rrows (nth b (snd g) (mkRM 0 []))) B).
  assert (EL : length B = length bs) by (unfold bs; rewrite map_length; auto). rewrite EL.
  assert (E := row_idx_ok bs [] 0). simpl in E.
  replace (repeat O (S (length bs))) with (repeat O (length bs) ++ [O]).
  2:{ clear. induction (length bs); simpl; auto. rewrite IHn. reflexivity. }
  rewrite E.
  assert (NT : nth (length bs) (starts 0 bs ++ [tot 0 bs]) O = length (concat bs)).
  { replace (length bs) with (length (starts 0 bs) + 0)%nat by (rewrite starts_length; lia). rewrite nth_app_r. simpl.
    rewrite tot_concat. reflexivity. }
  rewrite NT. assert (P := put_blocks_ok bs [] 0 0 (repeat None (length (concat bs)))). simpl in P.
  rewrite P; auto; [|rewrite repeat_length; auto]. cbn [bind]. rewrite all_set_ok. cbn [bind]. rewrite flat_map_concat_map. reflexivity.
Qed.

Lemma rdot_sym u : forall v, rdot u v = rdot v u.
Proof. induction u as [|a u IH]; intros [|b v]; simpl; auto. rewrite IH. ring. Qed.

Lemma ln2_pos : 0 < ln 2.
Proof. rewrite <- ln_1. apply ln_increasing; lra. Qed.
Definition c_bits : R := log2 (2 * PI * exp 1) / 2.
Lemma ge_h_value cols rows : rows <> [] -> cols <> O ->
  (ge_h cols rows = Ok (c_bits * INR (length rows) + lnd rdot rows / (2 * ln 2)) /\ posl rdot rows) \/
  (ge_h cols rows = Throw /\ ~ posl rdot rows).
Proof.
  intros N1 N2. unfold ge_h. cbv zeta. replace (length rows =? 0)%nat with false by (destruct rows; [congruence|reflexivity]).
  replace (cols =? 0)%nat with false by (symmetry; apply Nat.eqb_neq; auto). simpl orb. cbv iota.
  destruct (llt_list rdot rows [] rdot_sym) as [(L & L1 & L2 & L3)|[T1 T2]].
  - left. rewrite L1. cbn [bind]. split; auto. f_equal. rewrite (fold_ln (fun i => log2 (nth i L (fun _ => 0) i))).
    unfold log2 at 2. rewrite (rsum_ext _ (fun k => / ln 2 * ln (nth k L (fun _ => 0) k))) by (intros; unfold Rdiv; ring).
    rewrite rsum_scal, L3. unfold c_bits. f_equal. field. assert (K := ln2_pos). lra.
  - right. rewrite T1. auto.
Qed.

(** Linear independence of the rows, and positive pivots. *)
Definition rcomb (n : nat) (l : list (list R * R)) : list R :=
  map (fun c => rsum (fun p => snd p * nth c (fst p) 0) l) (seq 0 n).
Lemma rdot_seq n u v : length u = n -> length v = n -> rdot u v = rsum (fun c => nth c u 0 * nth c v 0) (seq 0 n).
Proof.
  revert u v. induction n as [|n IH]; intros [|a u] [|b v] Hu Hv; simpl in *; try discriminate; auto.
  rewrite <- seq_shift, rsum_map, <- IH by lia. reflexivity.
Qed.
Lemma rsum_swap {A B} (f : A -> B -> R) la lb : rsum (fun a => rsum (f a) lb) la = rsum (fun b => rsum (fun a => f a b) la) lb.
Proof.
  induction la as [|a la IH]; simpl; [induction lb; simpl; lra|]. rewrite IH, <- rsum_plus. reflexivity.
Qed.
Lemma qf_rdot n l : (forall p, In p l -> length (fst p) = n) -> qf rdot l = rsum (fun x => x * x) (rcomb n l).
Proof.
  intro H. unfold rcomb, qf. rewrite rsum_map.
  rewrite (rsum_ext _ (fun p => rsum (fun c => rsum (fun q => (snd p * nth c (fst p) 0) * (snd q * nth c (fst q) 0)) l) (seq 0 n))).
  - rewrite rsum_swap. apply rsum_ext. intros c _.
    rewrite (rsum_ext _ (fun p => rsum (fun q => snd q * nth c (fst q) 0) l * (snd p * nth c (fst p) 0))).
    + rewrite rsum_scal. reflexivity.
    + intros p _. rewrite rsum_scal. ring.
  - intros p Hp. rewrite <- rsum_swap. apply rsum_ext. intros q Hq. rewrite (rdot_seq n) by auto.
    rewrite <- rsum_scal. apply rsum_ext. intros; ring.
Qed.
Lemma sumsq_pos l : 0 <= rsum (fun x => x * x) l /\ (0 < rsum (fun x => x * x) l <-> exists x, In x l /\ x <> 0).
Proof.
  induction l as [|a l [IH1 IH2]]; simpl.
  - split; [lra|]. split; [lra|]. intros (x & [] & _).
  - assert (Q := Rle_0_sqr a). unfold Rsqr in Q. split; [lra|]. split.
    + intro H. destruct (Req_dec a 0) as [E|E]; [subst a|exists a; auto].
      destruct (proj1 IH2) as (x & X1 & X2); [lra|]. exists x. auto.
    + intros (x & [<-|Hx] & Nx); [assert (0 < a * a) by (destruct (Rdichotomy _ _ Nx); nra); lra|].
      assert (0 < rsum (fun x => x * x) l) by (apply IH2; exists x; auto). lra.
Qed.
