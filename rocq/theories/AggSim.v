(** * AggSim: two solvers that agree on the functions met in a run give the same run. *)
From Coq Require Import Sorted Qminmax.
From Verif Require Import Base Graph Spec PartThy SubThy SeqThy PSPThy MHC MAIC SFSpec MNBThy AggThy AICStep AICThy AggRun
  EntThy GreedyThy ExactMNB MWolfe WolfeSpec LinThy WolfeThy WolfeRun WolfeEnd PropAIC PropWolfe.

(** Equal, unless the first one throws. *)
Definition thr {A} (r r' : res A) : Prop := r = Throw \/ r = r'.

Lemma thr_refl {A} (r : res A) : thr r r.
Proof. right; auto. Qed.

Lemma thr_bind {A B} (r r' : res A) (k k' : A -> res B) :
  thr r r' -> (forall a, r' = Ok a -> thr (k a) (k' a)) -> thr (bind r k) (bind r' k').
Proof.
  intros [-> | ->] H; [left; reflexivity|]. destruct r' as [a| | |]; simpl; try (right; reflexivity). apply H; auto.
Qed.

Lemma thr_solve mnb1 mnb2 f_ : forall js g,
  (forall j, In j js -> thr (mnb1 (sf_fix f_ j)) (mnb2 (sf_fix f_ j))) ->
  thr (agg_solve mnb1 f_ js g) (agg_solve mnb2 f_ js g).
Proof.
  induction js as [|j js IH]; intros g H; cbn [agg_solve]; [apply thr_refl|].
  apply thr_bind; [apply H; left; auto|]. intros x _. apply thr_bind; [apply thr_refl|]. intros m _.
  apply thr_bind; [apply IH; intros; apply H; right; auto|]. intros r _. apply thr_refl.
Qed.

Lemma thr_agg mnb1 mnb2 tol f st :
  (forall P f_ j, get_partition st NegInf = Ok P -> sf_contract f P = Ok f_ -> (1 <= j < length P)%nat ->
     thr (mnb1 (sf_fix f_ j)) (mnb2 (sf_fix f_ j))) ->
  thr (agglomerate mnb1 tol f st) (agglomerate mnb2 tol f st).
Proof.
  intro H. unfold agglomerate. apply thr_bind; [apply thr_refl|]. intros P HP.
  destruct (length P <=? 1)%nat; [apply thr_refl|]. apply thr_bind; [apply thr_refl|]. intros f_ Hf.
  apply thr_bind.
  - apply thr_solve. intros j Hj. apply in_seq in Hj. apply (H P); auto. lia.
  - intros r _. apply thr_refl.
Qed.

Lemma thr_loop mnb1 mnb2 tol f :
  (forall st, agg_reach mnb2 tol f st -> thr (agglomerate mnb1 tol f st) (agglomerate mnb2 tol f st)) ->
  forall fuel st crit psp, agg_reach mnb2 tol f st ->
  thr (agg_loop fuel mnb1 tol f st crit psp) (agg_loop fuel mnb2 tol f st crit psp).
Proof.
  intro H. induction fuel as [|k IH]; intros st crit psp R; cbn [agg_loop]; [apply thr_refl|].
  apply thr_bind; [apply H; auto|]. intros [st' b] E. cbn [fst snd].
  destruct b; [|apply thr_refl]. apply thr_bind; [apply thr_refl|]. intros P _.
  destruct (rev (get_critical st')); [apply thr_refl|]. apply IH. eapply reach_step; eauto.
Qed.

Lemma thr_from mnb1 mnb2 tol f fuel :
  (forall st, agg_reach mnb2 tol f st -> thr (agglomerate mnb1 tol f st) (agglomerate mnb2 tol f st)) ->
  thr (agg_from fuel mnb1 tol f) (agg_from fuel mnb2 tol f).
Proof.
  intro H. unfold agg_from. apply thr_bind; [apply thr_refl|]. intros P _. apply thr_loop; auto. apply reach_new.
Qed.

(** ** The partitions of 0..n-1 are in a finite list. *)
Fixpoint words {A} (l : list A) (k : nat) : list (list A) :=
  match k with
  | O => [[]]
  | S k => flat_map (fun w => map (fun a => a :: w) l) (words l k)
  end.

Lemma words_In {A} (l : list A) : forall w, (forall a, In a w -> In a l) -> In w (words l (length w)).
Proof.
  induction w as [|a w IH]; intro H; simpl; [auto|]. apply in_flat_map. exists w. split.
  - apply IH. intros; apply H; right; auto.
  - apply in_map_iff. exists a. split; auto. apply H; left; auto.
Qed.

Definition words_le {A} (l : list A) (n : nat) : list (list A) := flat_map (words l) (seq 0 (S n)).

Lemma words_le_In {A} (l : list A) n w : (forall a, In a w -> In a l) -> (length w <= n)%nat -> In w (words_le l n).
Proof.
  intros H L. apply in_flat_map. exists (length w). split; [apply in_seq; lia|]. apply words_In; auto.
Qed.

Definition all_parts (n : nat) : list (list (list nat)) := words_le (words_le (seq 0 n) n) n.

Lemma concat_block_le {A} (C : list A) P : In C P -> (length C <= length (concat P))%nat.
Proof.
  induction P as [|B P IH]; simpl; [tauto|]. rewrite app_length. intros [->|H]; [lia|]. apply IH in H. lia.
Qed.

Lemma all_parts_In n P : is_partition (seq 0 n) P -> In P (all_parts n).
Proof.
  intro HP. assert (L := part_length_le (seq 0 n) (seq_NoDup n 0) P HP). rewrite seq_length in L.
  destruct HP as [PP PN]. assert (LC := Permutation_length PP). rewrite seq_length in LC.
  apply words_le_In; auto. intros C HC. apply words_le_In.
  - intros a Ha. apply (Permutation_in a PP). apply in_concat. eauto.
  - rewrite <- LC. apply concat_block_le; auto.
Qed.

Lemma classic_part n P : is_partition (seq 0 n) P \/ ~ is_partition (seq 0 n) P.
Proof.
  destruct ((length (concat P) =? n)%nat && forallb (fun i => mem (concat P) i) (seq 0 n) && forallb (fun C => negb (length C =? 0)%nat) P) eqn:B.
  - apply andb_true_iff in B. destruct B as [B B3]. apply andb_true_iff in B. destruct B as [B1 B2].
    apply Nat.eqb_eq in B1. rewrite forallb_forall in B2, B3. left. split.
    + apply Permutation_sym. apply NoDup_Permutation_bis; [apply seq_NoDup|rewrite seq_length; lia|].
      intros i Hi. apply mem_In. apply B2; auto.
    + intro HC. apply B3 in HC. discriminate.
  - right. intros [H1 H2].
    assert (B1 : (length (concat P) =? n)%nat = true) by (apply Nat.eqb_eq; rewrite (Permutation_length H1), seq_length; auto).
    assert (B2 : forallb (fun i => mem (concat P) i) (seq 0 n) = true).
    { apply forallb_forall. intros i Hi. apply mem_In. apply (Permutation_in i (Permutation_sym H1)); auto. }
    assert (B3 : forallb (fun C => negb (length C =? 0)%nat) P = true).
    { apply forallb_forall. intros C HC. destruct C; [contradiction|reflexivity]. }
    rewrite B1, B2, B3 in B. discriminate.
Qed.

(** Bounds that work for each element of a list work for all of them. *)
Lemma list_bounds {A} (l : list A) (Phi : A -> Q -> nat -> Prop) :
  (forall a, In a l -> exists t N, 0 < t /\ forall t' N', 0 < t' -> t' <= t -> (N < N')%nat -> Phi a t' N') ->
  exists t N, 0 < t /\ forall a t' N', In a l -> 0 < t' -> t' <= t -> (N < N')%nat -> Phi a t' N'.
Proof.
  induction l as [|a l IH]; intro H.
  - exists 1, 0%nat. split; [reflexivity|]. intros a t' N' [].
  - destruct (H a (or_introl eq_refl)) as (t1 & N1 & T1 & H1).
    destruct IH as (t2 & N2 & T2 & H2); [intros; apply H; right; auto|].
    exists (Qmin t1 t2), (Nat.max N1 N2).
    split; [apply Q.min_glb_lt; auto|]. intros b t' N' Hb T' L' LN.
    assert (M1 := Q.le_min_l t1 t2). assert (M2 := Q.le_min_r t1 t2).
    destruct Hb as [<-|Hb]; [apply H1|apply H2]; auto; try lra; lia.
Qed.

(** ** Uniqueness of the minimum norm point, and the solver corrected where it is wrong. *)
Lemma min_norm_unique n F x y : min_norm n F x -> min_norm n F y -> forall i, (i < n)%nat -> x i == y i.
Proof.
  intros HX HY. assert (A := min_norm_first n F x y HX (proj1 HY)). assert (B := min_norm_first n F y x HY (proj1 HX)).
  rewrite (dot_sym n y x) in B.
  assert (E : dot n (fun i => x i - y i) (fun i => x i - y i) == dot n x x - 2 * dot n x y + dot n y y).
  { unfold dot. rewrite <- qsum_scal, <- qsum_minus, <- qsum_plus. apply qsum_ext. intros. ring. }
  assert (Z : dot n (fun i => x i - y i) (fun i => x i - y i) == 0).
  { apply Qle_antisym; [lra|]. apply qsum_nonneg. intros i _.
    destruct (Qlt_le_dec (x i - y i) 0).
    - assert (K := Qmult_le_0_compat (- (x i - y i)) (- (x i - y i)) ltac:(lra) ltac:(lra)).
      assert ((- (x i - y i)) * (- (x i - y i)) == (x i - y i) * (x i - y i)) by ring. lra.
    - apply Qmult_le_0_compat; auto. }
  intros i Hi. unfold dot in Z.
  assert (K := qsum_all_zero (fun i => (x i - y i) * (x i - y i)) (seq 0 n)).
  assert (Z2 : (x i - y i) * (x i - y i) == 0).
  { apply K; [|rewrite Z; apply Qle_refl|apply in_seq; lia]. intros j _. destruct (Qlt_le_dec (x j - y j) 0).
    - assert (K' := Qmult_le_0_compat (- (x j - y j)) (- (x j - y j)) ltac:(lra) ltac:(lra)).
      assert ((- (x j - y j)) * (- (x j - y j)) == (x j - y j) * (x j - y j)) by ring. lra.
    - apply Qmult_le_0_compat; auto. }
  apply Qmult_integral in Z2. lra.
Qed.

Definition veqb (x y : list Q) : bool :=
  (length x =? length y)%nat && forallb (fun i => Qeq_bool (vec x i) (vec y i)) (seq 0 (length x)).

(** [mnb], with its answer replaced by the exact one if it is not the minimum norm point. *)
Definition mended (mnb : sf -> res (list Q)) (f : sf) : res (list Q) :=
  do y <- exact_mnb f;
  match mnb f with
  | Ok x => if veqb x y then Ok x else Ok y
  | _ => Ok y
  end.

Lemma min_norm_wd n F x y : ground n F -> (forall i, (i < n)%nat -> x i == y i) -> min_norm n F x -> min_norm n F y.
Proof.
  intros _ E [[B1 B2] M].
  assert (V : forall S, vsum n x S == vsum n y S).
  { intro S. apply qsum_ext. intros i Hi. apply in_seq in Hi. destruct (S i); [|reflexivity]. apply E. lia. }
  split; [split|].
  - intro S. rewrite <- V. apply B1.
  - rewrite <- V. auto.
  - intros z Hz. rewrite <- (dot_wd n x y x y); auto.
Qed.

Lemma mended_ok mnb : MinNormSpec (mended mnb).
Proof.
  intros f F H1 HF HG HS HZ. destruct (exact_mnb_ok f F H1 HF HG HS HZ) as (y & Y1 & Y2 & Y3).
  unfold mended. rewrite Y1. cbn [bind]. destruct (mnb f) as [x| | |]; eauto.
  destruct (veqb x y) eqn:V; eauto. apply andb_true_iff in V. destruct V as [V1 V2]. apply Nat.eqb_eq in V1.
  exists x. split; auto. split; [lia|]. apply (min_norm_wd _ F (vec y)); auto.
  intros i Hi. rewrite forallb_forall in V2. symmetry. apply Qeq_bool_eq. apply V2. apply in_seq. lia.
Qed.

Lemma mended_same mnb f F x : (1 <= sfn f)%nat -> computes f F -> ground (sfn f) F -> submodular F -> F none == 0 ->
  mnb f = Ok x -> length x = sfn f -> min_norm (sfn f) F (vec x) -> mended mnb f = Ok x.
Proof.
  intros H1 HF HG HS HZ R LX MX. destruct (exact_mnb_ok f F H1 HF HG HS HZ) as (y & Y1 & Y2 & Y3).
  unfold mended. rewrite Y1, R. cbn [bind]. replace (veqb x y) with true; auto. symmetry.
  apply andb_true_iff. split; [apply Nat.eqb_eq; lia|]. apply forallb_forall. intros i Hi. apply in_seq in Hi.
  apply Qeq_bool_iff. apply (min_norm_unique (sfn f) F); auto. lia.
Qed.

(** ** min_norm_base as the solver *)

(** What AIC::agglomerate gets (IC/src/AIC.hpp:281): the vector. *)
Definition wolfe_solver {T} (ord : list Q -> list nat) (lin : nat -> list (list Q) -> list Q) (L : nat -> lapi T)
  (tol eps : Q) (fuel : nat) (f : sf) : res (list Q) :=
  do r <- min_norm_base ord (lin (sfn f)) (L (sfn f)) tol eps fuel f; Ok (fst r).

(** The same, but giving up where min_norm_base writes its message about being stuck. *)
Definition wolfe_strict {T} (ord : list Q -> list nat) (lin : nat -> list (list Q) -> list Q) (L : nat -> lapi T)
  (tol eps : Q) (fuel : nat) (f : sf) : res (list Q) :=
  do r <- min_norm_base ord (lin (sfn f)) (L (sfn f)) tol eps fuel f; if snd r then Throw else Ok (fst r).

Lemma strict_solver {T} ord lin (L : nat -> lapi T) tol tol' eps fuel fuel' f :
  thr (agg_from fuel (wolfe_strict ord lin L tol eps fuel') tol' f) (agg_from fuel (wolfe_solver ord lin L tol eps fuel') tol' f).
Proof.
  apply thr_from. intros st _. apply thr_agg. intros P f_ j _ _ _. unfold wolfe_strict, wolfe_solver.
  apply thr_bind; [apply thr_refl|]. intros [x b] _. cbn [fst snd]. destruct b; [left|right]; reflexivity.
Qed.

Section Run.
  Variables (ord : list Q -> list nat) (lin : nat -> list (list Q) -> list Q) (f : sf) (F : nset -> Q).
  Let n := sfn f.
  Hypothesis HO : forall w, sorts w (ord w).
  Hypothesis HL : forall k, solves k (lin k).
  Hypothesis HG : ground n F.
  Hypothesis HS : submodular F.
  Hypothesis HF : evaluates f F.

  (** One function of the run. *)
  Lemma wolfe_one P j : is_partition (seq 0 n) P -> (1 <= j < length P)%nat ->
    exists t N, 0 < t /\ forall tol fuel, 0 < tol -> tol <= t -> (N < fuel)%nat ->
      forall T (L : nat -> lapi T) f_, (forall k, lsafe (L k)) -> sf_contract f P = Ok f_ ->
      thr (wolfe_strict ord lin L tol 0 fuel (sf_fix f_ j)) (mended (wolfe_strict ord lin L tol 0 fuel) (sf_fix f_ j)).
  Proof.
    intros HP Hj. set (k := length P) in *. set (G := contr F P).
    assert (ND : NoDup (seq 0 n)) by apply seq_NoDup.
    assert (GG : ground k G) by (apply (contr_ground n F HG P)).
    assert (GS : submodular G) by (apply (contr_sub n F HG HS (seq 0 n) P ND HP)).
    assert (G1 : forall j, (j < k)%nat -> G (fun i => (i =? j)%nat) == 0) by (intros; apply (contr_one n F HG); auto).
    destruct (sf_contract_ok f F P HG HF HP) as (f_ & C1 & C2 & C3).
    assert (HC : computes (sf_fix f_ j) (hfix G j)) by (eapply sf_fix_ok; eauto; lia).
    assert (HGj : ground (sfn (sf_fix f_ j)) (hfix G j)) by (simpl; eapply hfix_ground; eauto; lia).
    assert (HSj : submodular (hfix G j)) by (eapply hfix_sub; eauto).
    assert (HZ : hfix G j none == 0) by (eapply hfix_none; eauto; lia).
    destruct (wolfe_ends j) as (N & HN).
    assert (EX : exists t N', 0 < t /\ forall T (L : lapi T) tol fuel x, 0 < tol -> tol <= t -> (N' < fuel)%nat ->
      min_norm_base ord (lin j) L tol 0 fuel (sf_fix f_ j) = Ok (x, false) ->
      length x = j /\ min_norm j (hfix G j) (vec x)).
    { destruct (le_lt_dec 2 j) as [J2|J1].
      - destruct (wolfe_exact ord (lin j) (sf_fix f_ j) (hfix G j) HC HGj HSj (fun w _ => HO w) (HL j) J2) as (t & T1 & T2).
        exists t, (npoints j). split; auto. intros T L tol fuel x T0 TL FU R. split; [|exact (T2 T L tol fuel x T0 TL FU R)].
        destruct (returned_base T L ord (lin j) tol 0 fuel (sf_fix f_ j) (hfix G j) x false HC HGj HSj (fun w _ => HO w) (HL j)
          ltac:(lra) ltac:(lra) T0 J2 R) as (X1 & _). exact X1.
      - assert (j = 1%nat) by lia. subst j. exists 1, 0%nat. split; [reflexivity|]. intros T L tol fuel x _ _ _ R.
        destruct (C51_small T L ord (lin 1%nat) tol 0 fuel (sf_fix f_ 1) (hfix G 1) HC HGj) as [_ S1].
        destruct S1 as (y & Y1 & Y2 & Y3 & Y4); [reflexivity|]. rewrite Y1 in R. injection R as <-. split; auto. }
    destruct EX as (t & N' & T0 & EX). exists t, (Nat.max N N'). split; auto.
    intros tol fuel TT TL FU T L f_' SL C1'. rewrite C1 in C1'. injection C1' as <-.
    destruct (HN T (L j) ord (lin j) tol fuel (sf_fix f_ j) (hfix G j)) as [(x & b & R)|[R _]]; auto; try lia.
    - destruct b; [left|right]; unfold wolfe_strict at 1; cbn [sfn sf_fix]; rewrite R; cbn [bind fst snd]; auto.
      destruct (EX T (L j) tol fuel x TT TL ltac:(lia) R) as [X1 X2]. symmetry.
      apply (mended_same _ (sf_fix f_ j) (hfix G j)); auto; [simpl; lia|].
      unfold wolfe_strict. cbn [sfn sf_fix]. rewrite R. reflexivity.
    - left. unfold wolfe_strict. cbn [sfn sf_fix]. rewrite R. reflexivity.
  Qed.

  Variable D : positive.
  Hypothesis HD : forall S, onD D (F S).
  Hypothesis Hn : (0 < n)%nat.

  Theorem wolfe_run : exists t N, 0 < t /\ forall T (L : nat -> lapi T) tol fuel fuel',
    (forall k, lsafe (L k)) -> 0 < tol -> tol <= t -> (n <= fuel)%nat -> (N < fuel')%nat ->
    agg_from fuel (wolfe_strict ord lin L tol 0 fuel') tol f = Throw \/
    exists lams Ps, agg_from fuel (wolfe_strict ord lin L tol 0 fuel') tol f = Ok (lams, Ps) /\
      full_sequence Qlt (popt F (seq 0 n)) (seq 0 n) lams Ps.
  Proof.
    destruct (list_bounds (filter (fun Pj => (1 <=? snd Pj)%nat && (snd Pj <? length (fst Pj))%nat)
        (list_prod (all_parts n) (seq 0 n)))
      (fun Pj tol fuel => is_partition (seq 0 n) (fst Pj) ->
         forall T (L : nat -> lapi T) f_, (forall k, lsafe (L k)) -> sf_contract f (fst Pj) = Ok f_ ->
         thr (wolfe_strict ord lin L tol 0 fuel (sf_fix f_ (snd Pj)))
             (mended (wolfe_strict ord lin L tol 0 fuel) (sf_fix f_ (snd Pj))))) as (t & N & T0 & H).
    { intros [P j] Hin. apply filter_In in Hin. destruct Hin as [_ Hj]. cbn [fst snd] in *.
      apply andb_true_iff in Hj. destruct Hj as [J1 J2]. apply Nat.leb_le in J1. apply Nat.ltb_lt in J2.
      destruct (classic_part n P) as [HP|HP].
      - destruct (wolfe_one P j HP ltac:(lia)) as (t & N & T0 & H). exists t, N. split; auto.
      - exists 1, 0%nat. split; [reflexivity|]. intros. contradiction. }
    set (b := (Zpos D # 1) * (qn (n - 1) * qn (n - 1)) + 1).
    assert (B0 : 0 <= (Zpos D # 1) * (qn (n - 1) * qn (n - 1))).
    { apply Qmult_le_0_compat; [unfold Qle; simpl; lia|]. apply Qmult_le_0_compat; apply qn_nonneg. }
    assert (B1 : 0 < / (b + 1)) by (apply Qinv_lt_0_compat; unfold b; lra).
    exists (Qmin t (/ (b + 1))), N. split; [apply Q.min_glb_lt; auto|].
    intros T L tol fuel fuel' SL TT TL FU FU'.
    assert (M1 := Q.le_min_l t (/ (b + 1))). assert (M2 := Q.le_min_r t (/ (b + 1))).
    assert (Hft : tol * (Zpos D # 1) * (qn (n - 1) * qn (n - 1)) < 1).
    { assert (K : tol * ((Zpos D # 1) * (qn (n - 1) * qn (n - 1))) <= / (b + 1) * ((Zpos D # 1) * (qn (n - 1) * qn (n - 1)))).
      { apply Qmult_le_compat_r; lra. }
      assert (K2 : / (b + 1) * ((Zpos D # 1) * (qn (n - 1) * qn (n - 1))) < / (b + 1) * (b + 1)).
      { apply Qmult_lt_l; auto. unfold b. lra. }
      rewrite (Qmult_comm (/ (b + 1)) (b + 1)), Qmult_inv_r in K2 by (unfold b; lra).
      assert (K3 : tol * (Zpos D # 1) * (qn (n - 1) * qn (n - 1)) == tol * ((Zpos D # 1) * (qn (n - 1) * qn (n - 1)))) by ring.
      lra. }
    set (m := mended (wolfe_strict ord lin L tol 0 fuel')).
    assert (TH : thr (agg_from fuel (wolfe_strict ord lin L tol 0 fuel') tol f) (agg_from fuel m tol f)).
    { apply thr_from. intros st R. apply thr_agg. intros P f_ j G1 G2 Hj.
      destruct (reach_inv m tol f F D st (mended_ok _) HF HG HS HD ltac:(lra) Hft Hn R) as (acc & P' & _ & _ & Q1 & Q2 & _).
      rewrite Q1 in G1. injection G1 as <-.
      assert (LP := part_length_le (seq 0 n) (seq_NoDup n 0) P' Q2). rewrite seq_length in LP.
      apply (H (P', j)); auto; [|lra]. apply filter_In. split.
      - apply in_prod; [apply all_parts_In; auto|apply in_seq; lia].
      - cbn [fst snd]. apply andb_true_iff. split; [apply Nat.leb_le; lia|apply Nat.ltb_lt; lia]. }
    destruct TH as [TH|TH]; [left; auto|right].
    destruct (agg_any m tol f F D fuel (mended_ok _) HG HS HF HD ltac:(lra) Hft Hn FU) as (lams & Ps & R1 & R2).
    exists lams, Ps. rewrite TH. auto.
  Qed.
End Run.
