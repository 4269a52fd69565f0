(** * WolfeAny: what IC::min_norm_base can return with any precision eps; AIC next to a run with exact bases. *)
From Coq Require Import Qabs Sorted Qminmax.
From Verif Require Import Base Graph Spec PartThy SubThy SeqThy PSPThy MHC MAIC SFSpec MNBThy AggThy AICStep AICThy AggRun
  EntThy GreedyThy ExactMNB MWolfe WolfeSpec LinThy WolfeThy WolfeRun WolfeEnd PropAIC PropWolfe AggSim.

Section Any.
Context {T : Type}.
Variables (ord : list Q -> list nat) (lin : list (list Q) -> list Q) (L : lapi T) (tol eps : Q) (f : sf) (F : nset -> Q).
Let n := sfn f.
Hypotheses (HG : ground n F) (HF : computes f F) (HS : submodular F).
Hypotheses (HO : forall w, length w = n -> sorts w (ord w)) (HL : solves n lin).
Hypotheses (E0 : 0 <= eps) (E1 : qn n * eps < 1) (T0 : 0 < tol) (Hn : (0 < n)%nat).

(** Whatever the precision, x is one of finitely many points. *)
Lemma major_points fuel : forall cols w x lt fo sc, jinv eps f F cols w x -> scok fo sc ->
  incl cols (gcols f) -> In x (points lin f) ->
  match wolfe_major ord lin L tol eps f fuel cols w x lt fo sc with Ok (y, _) => In y (points lin f) | _ => True end.
Proof.
  induction fuel as [|fuel IH]; intros cols w x lt fo sc J SC HC HP; [exact I|].
  destruct (major_pass ord lin L tol eps f F HG HF HS HO HL E0 T0 Hn fuel cols w x lt fo sc J SC)
    as [(b & R & N)|(q & g & Q1 & Q2 & Q3 & Q4 & sc' & R)]; rewrite R; auto.
  destruct (l_add L lt cols q) as [lt1| | |] eqn:EA; cbn [bind]; auto.
  assert (MI := minv_start lin eps f F HL E0 Hn cols w x q J Q2 Q3 Q4). change (sfn f) with n in MI. change (sfn f) with n.
  assert (CB := corral_bound n F Hn _ (proj1 MI)).
  assert (MO := minor_ok lin L eps n F HL E0 E1 Hn (S n) (cols ++ [q]) w lt1 ltac:(lia) MI).
  destruct (wolfe_minor lin L eps (S n) (cols ++ [q]) w lt1) as [r| | |] eqn:EM; cbn [bind]; auto.
  destruct MO as [MP MC].
  assert (XE : lcomb n (fst (fst r)) (firstn (length (fst (fst r))) (snd (fst r))) = xof lin f (fst (fst r))).
  { destruct MP as (_ & _ & _ & P4 & _). rewrite P4. reflexivity. }
  assert (CI : incl (fst (fst r)) (gcols f)).
  { intros c Hc. apply MC in Hc. apply in_app_iff in Hc. destruct Hc as [Hc|[<-|[]]]; auto.
    apply (greedy_gcols ord f HO x); auto. apply J. }
  apply IH; auto.
  - apply (mpost_jinv lin eps f F HL). exact MP.
  - right. discriminate.
  - rewrite XE. unfold points. apply in_app_iff. right. apply in_map. unfold corrals. apply in_flat_map.
    exists (length (fst (fst r))). split; [|apply lists_In; auto].
    apply in_seq. assert (B2 := corral_bound n F Hn _ (proj1 MP)). fold n. lia.
Qed.

Theorem mnb_points fuel y b : (2 <= n)%nat -> min_norm_base ord lin L tol eps fuel f = Ok (y, b) -> In y (points lin f).
Proof.
  intros N2 R. unfold min_norm_base in R. fold n in R.
  destruct (greedy_step ord f F HG HF HS HO (repeat 1 n)) as (x & X1 & X2 & X3 & _); [apply repeat_length|].
  assert (XG := greedy_gcols ord f HO (repeat 1 n) x (repeat_length _ _) X1).
  destruct n as [|[|m]] eqn:EN; [lia|lia|]. rewrite X1 in R. cbn [bind] in R. rewrite <- EN in *.
  assert (K := major_points fuel [x] (1 :: repeat 0 n) x (l_init L x) PosInf None).
  rewrite R in K. apply K.
  - apply jinv_init; auto.
  - left; auto.
  - intros c [<-|[]]; auto.
  - unfold points. apply in_app_iff. auto.
Qed.
End Any.

(** Below the tolerance of [exact_tol] only the minimum norm base passes the test, whatever eps is. *)
Lemma wolfe_exact_any : forall ord lin f F,
  computes f F -> ground (sfn f) F -> submodular F ->
  (forall w, length w = sfn f -> sorts w (ord w)) -> solves (sfn f) lin -> (2 <= sfn f)%nat ->
  exists tol0, 0 < tol0 /\ forall T (L : lapi T) tol eps fuel x, 0 < tol -> tol <= tol0 -> 0 <= eps -> qn (sfn f) * eps < 1 ->
    min_norm_base ord lin L tol eps fuel f = Ok (x, false) -> min_norm (sfn f) F (vec x).
Proof.
  intros ord lin f F HF HG HS HO HL N2.
  destruct (exact_tol ord lin f F HG HF HS HO) as (tol0 & P & H).
  exists tol0. split; auto. intros T L tol eps fuel x T0 TL E0 E1 R.
  assert (K := mnb_points ord lin L tol eps f F HG HF HS HO HL E0 E1 T0 ltac:(lia) fuel x false N2 R).
  destruct (returned_base T L ord lin tol eps fuel f F x false HF HG HS HO HL E0 E1 T0 N2 R) as (X1 & X2 & X3 & X4).
  apply H; auto. { split; auto. } intros y Hy. specialize (X4 eq_refl y Hy). lra.
Qed.

(** Equal, unless the first one throws or does not end. *)
Definition gup {A} (r r' : res A) : Prop := r = Throw \/ r = OutOfFuel \/ r = r'.
Lemma gup_refl {A} (r : res A) : gup r r.
Proof. right; right; auto. Qed.
Lemma gup_bind {A B} (r r' : res A) (k k' : A -> res B) :
  gup r r' -> (forall a, r' = Ok a -> gup (k a) (k' a)) -> gup (bind r k) (bind r' k').
Proof.
  intros [-> |[-> | ->]] H; [left; reflexivity|right; left; reflexivity|].
  destruct r' as [a| | |]; simpl; try (right; right; reflexivity). apply H; auto.
Qed.
Lemma gup_solve mnb1 mnb2 f_ : forall js g,
  (forall j, In j js -> gup (mnb1 (sf_fix f_ j)) (mnb2 (sf_fix f_ j))) ->
  gup (agg_solve mnb1 f_ js g) (agg_solve mnb2 f_ js g).
Proof.
  induction js as [|j js IH]; intros g H; cbn [agg_solve]; [apply gup_refl|].
  apply gup_bind; [apply H; left; auto|]. intros x _. apply gup_bind; [apply gup_refl|]. intros m _.
  apply gup_bind; [apply IH; intros; apply H; right; auto|]. intros r _. apply gup_refl.
Qed.
Lemma gup_agg mnb1 mnb2 tol f st :
  (forall P f_ j, get_partition st NegInf = Ok P -> sf_contract f P = Ok f_ -> (1 <= j < length P)%nat ->
     gup (mnb1 (sf_fix f_ j)) (mnb2 (sf_fix f_ j))) ->
  gup (agglomerate mnb1 tol f st) (agglomerate mnb2 tol f st).
Proof.
  intro H. unfold agglomerate. apply gup_bind; [apply gup_refl|]. intros P HP.
  destruct (length P <=? 1)%nat; [apply gup_refl|]. apply gup_bind; [apply gup_refl|]. intros f_ Hf.
  apply gup_bind.
  - apply gup_solve. intros j Hj. apply in_seq in Hj. apply (H P); auto. lia.
  - intros r _. apply gup_refl.
Qed.
Lemma gup_loop mnb1 mnb2 tol f :
  (forall st, agg_reach mnb2 tol f st -> gup (agglomerate mnb1 tol f st) (agglomerate mnb2 tol f st)) ->
  forall fuel st crit psp, agg_reach mnb2 tol f st ->
  gup (agg_loop fuel mnb1 tol f st crit psp) (agg_loop fuel mnb2 tol f st crit psp).
Proof.
  intro H. induction fuel as [|k IH]; intros st crit psp R; cbn [agg_loop]; [apply gup_refl|].
  apply gup_bind; [apply H; auto|]. intros [st' b] E. cbn [fst snd].
  destruct b; [|apply gup_refl]. apply gup_bind; [apply gup_refl|]. intros P _.
  destruct (rev (get_critical st')); [apply gup_refl|]. apply IH. eapply reach_step; eauto.
Qed.
Lemma gup_from mnb1 mnb2 tol f fuel :
  (forall st, agg_reach mnb2 tol f st -> gup (agglomerate mnb1 tol f st) (agglomerate mnb2 tol f st)) ->
  gup (agg_from fuel mnb1 tol f) (agg_from fuel mnb2 tol f).
Proof.
  intro H. unfold agg_from. apply gup_bind; [apply gup_refl|]. intros P _. apply gup_loop; auto. apply reach_new.
Qed.

Section Run.
  Variables (ord : list Q -> list nat) (lin : nat -> list (list Q) -> list Q) (f : sf) (F : nset -> Q).
  Let n := sfn f.
  Hypothesis HO : forall w, sorts w (ord w).
  Hypothesis HL : forall k, solves k (lin k).
  Hypothesis HG : ground n F.
  Hypothesis HS : submodular F.
  Hypothesis HF : evaluates f F.

  (** One function of the run. *)
  Lemma any_one P j : is_partition (seq 0 n) P -> (1 <= j < length P)%nat ->
    exists t, 0 < t /\ forall tol, 0 < tol -> tol <= t -> 
      forall T (L : nat -> lapi T) eps fuel f_, (forall k, lsafe (L k)) -> 0 <= eps -> qn n * eps < 1 -> sf_contract f P = Ok f_ ->
      gup (wolfe_strict ord lin L tol eps fuel (sf_fix f_ j)) (mended (wolfe_strict ord lin L tol eps fuel) (sf_fix f_ j)).
  Proof.
    intros HP Hj. set (k := length P) in *. set (G := contr F P).
    assert (ND : NoDup (seq 0 n)) by apply seq_NoDup.
    assert (GG : ground k G) by (apply (contr_ground n F HG P)).
    assert (GS : submodular G) by (apply (contr_sub n F HG HS (seq 0 n) P ND HP)).
    assert (G1 : forall j, (j < k)%nat -> G (fun i => (i =? j)%nat) == 0) by (intros; apply (contr_one n F HG); auto).
    destruct (sf_contract_ok f F P HG HF HP) as (f_ & C1 & C2 & C3).
    assert (HC : computes (sf_fix f_ j) (hfix G j)) by (eapply sf_fix_ok; eauto; lia).
    assert (HGj : ground (sfn (sf_fix f_ j)) (hfix G j)) by (simpl; eapply hfix_ground; eauto; lia).
    assert (HSj : submodular (hfix G j)) by (eapply hfix_sub; eauto).
    assert (HZ : hfix G j none == 0) by (eapply hfix_none; eauto; lia).
    assert (LP := part_length_le (seq 0 n) (seq_NoDup n 0) P HP). rewrite seq_length in LP. fold k in LP.
    assert (EJ : forall eps, 0 <= eps -> qn n * eps < 1 -> qn j * eps < 1).
    { intros eps P0 P1. apply (Qle_lt_trans _ (qn n * eps)); auto. apply Qmult_le_compat_r; auto. unfold qn. rewrite <- Zle_Qle. lia. }
    assert (EX : exists t, 0 < t /\ forall T (L : lapi T) tol eps fuel, lsafe L -> 0 < tol -> tol <= t -> 0 <= eps -> qn n * eps < 1 ->
      match min_norm_base ord (lin j) L tol eps fuel (sf_fix f_ j) with
      | Ok (x, b) => b = false -> length x = j /\ min_norm j (hfix G j) (vec x)
      | UB => False
      | _ => True
      end).
    { destruct (le_lt_dec 2 j) as [J2|J1].
      - destruct (wolfe_exact_any ord (lin j) (sf_fix f_ j) (hfix G j) HC HGj HSj (fun w _ => HO w) (HL j) J2) as (t & T1 & T2).
        exists t. split; auto. intros T L tol eps fuel SL T0 TL P0 P1. assert (PJ := EJ eps P0 P1).
        assert (K := mnb_ok ord (lin j) L tol eps (sf_fix f_ j) (hfix G j) HGj HC HSj (fun w _ => HO w) (HL j) P0 PJ T0 ltac:(simpl; lia) fuel J2).
        assert (K2 := T2 T L tol eps fuel).
        destruct (min_norm_base ord (lin j) L tol eps fuel (sf_fix f_ j)) as [[x b]| | |]; auto.
        intros ->. split; [apply K|]. apply K2; auto.
      - assert (j = 1%nat) by lia. subst j. exists 1. split; [reflexivity|]. intros T L tol eps fuel _ _ _ _ _.
        destruct (C51_small T L ord (lin 1%nat) tol eps fuel (sf_fix f_ 1) (hfix G 1) HC HGj) as [_ S1].
        destruct S1 as (y & Y1 & Y2 & Y3 & Y4); [reflexivity|]. rewrite Y1. intros _. split; auto. }
    destruct EX as (t & T0 & EX). exists t. split; auto.
    intros tol TT TL T L eps fuel f_' SL P0 P1 C1'. rewrite C1 in C1'. injection C1' as <-.
    assert (K := EX T (L j) tol eps fuel (SL j) TT TL P0 P1).
    destruct (min_norm_base ord (lin j) (L j) tol eps fuel (sf_fix f_ j)) as [[x b]| | |] eqn:R; [|contradiction| |].
    - destruct b; [left|right; right]; unfold wolfe_strict at 1; cbn [sfn sf_fix]; rewrite R; cbn [bind fst snd]; auto.
      destruct (K eq_refl) as [X1 X2]. symmetry.
      apply (mended_same _ (sf_fix f_ j) (hfix G j)); auto; [simpl; lia|].
      unfold wolfe_strict. cbn [sfn sf_fix]. rewrite R. reflexivity.
    - left. unfold wolfe_strict. cbn [sfn sf_fix]. rewrite R. reflexivity.
    - right; left. unfold wolfe_strict. cbn [sfn sf_fix]. rewrite R. reflexivity.
  Qed.

  Variable D : positive.
  Hypothesis HD : forall S, onD D (F S).
  Hypothesis Hn : (0 < n)%nat.

  Theorem any_run : exists t, 0 < t /\ forall T (L : nat -> lapi T) tol eps fuel fuel',
    (forall k, lsafe (L k)) -> 0 < tol -> tol <= t -> 0 <= eps -> qn n * eps < 1 -> (n <= fuel)%nat ->
    agg_from fuel (wolfe_strict ord lin L tol eps fuel') tol f = Throw \/
    agg_from fuel (wolfe_strict ord lin L tol eps fuel') tol f = OutOfFuel \/
    exists lams Ps, agg_from fuel (wolfe_strict ord lin L tol eps fuel') tol f = Ok (lams, Ps) /\
      full_sequence Qlt (popt F (seq 0 n)) (seq 0 n) lams Ps.
  Proof.
    destruct (list_bounds (filter (fun Pj => (1 <=? snd Pj)%nat && (snd Pj <? length (fst Pj))%nat)
        (list_prod (all_parts n) (seq 0 n)))
      (fun Pj tol _ => is_partition (seq 0 n) (fst Pj) ->
         forall T (L : nat -> lapi T) eps fuel f_, (forall k, lsafe (L k)) -> 0 <= eps -> qn n * eps < 1 -> sf_contract f (fst Pj) = Ok f_ ->
         gup (wolfe_strict ord lin L tol eps fuel (sf_fix f_ (snd Pj)))
             (mended (wolfe_strict ord lin L tol eps fuel) (sf_fix f_ (snd Pj))))) as (t & N & T0 & H).
    { intros [P j] Hin. apply filter_In in Hin. destruct Hin as [_ Hj]. cbn [fst snd] in *.
      apply andb_true_iff in Hj. destruct Hj as [J1 J2]. apply Nat.leb_le in J1. apply Nat.ltb_lt in J2.
      destruct (classic_part n P) as [HP|HP].
      - destruct (any_one P j HP ltac:(lia)) as (t & T0 & H). exists t, 0%nat. split; auto.
      - exists 1, 0%nat. split; [reflexivity|]. intros. contradiction. }
    set (b := (Zpos D # 1) * (qn (n - 1) * qn (n - 1)) + 1).
    assert (B0 : 0 <= (Zpos D # 1) * (qn (n - 1) * qn (n - 1))).
    { apply Qmult_le_0_compat; [unfold Qle; simpl; lia|]. apply Qmult_le_0_compat; apply qn_nonneg. }
    assert (B1 : 0 < / (b + 1)) by (apply Qinv_lt_0_compat; unfold b; lra).
    exists (Qmin t (/ (b + 1))). split; [apply Q.min_glb_lt; auto|].
    intros T L tol eps fuel fuel' SL TT TL P0 P1 FU.
    assert (M1 := Q.le_min_l t (/ (b + 1))). assert (M2 := Q.le_min_r t (/ (b + 1))).
    assert (Hft : tol * (Zpos D # 1) * (qn (n - 1) * qn (n - 1)) < 1).
    { assert (K : tol * ((Zpos D # 1) * (qn (n - 1) * qn (n - 1))) <= / (b + 1) * ((Zpos D # 1) * (qn (n - 1) * qn (n - 1)))).
      { apply Qmult_le_compat_r; lra. }
      assert (K2 : / (b + 1) * ((Zpos D # 1) * (qn (n - 1) * qn (n - 1))) < / (b + 1) * (b + 1)).
      { apply Qmult_lt_l; auto. unfold b. lra. }
      rewrite (Qmult_comm (/ (b + 1)) (b + 1)), Qmult_inv_r in K2 by (unfold b; lra).
      assert (K3 : tol * (Zpos D # 1) * (qn (n - 1) * qn (n - 1)) == tol * ((Zpos D # 1) * (qn (n - 1) * qn (n - 1)))) by ring.
      lra. }
    set (m := mended (wolfe_strict ord lin L tol eps fuel')).
    assert (TH : gup (agg_from fuel (wolfe_strict ord lin L tol eps fuel') tol f) (agg_from fuel m tol f)).
    { apply gup_from. intros st R. apply gup_agg. intros P f_ j G1 G2 Hj.
      destruct (reach_inv m tol f F D st (mended_ok _) HF HG HS HD ltac:(lra) Hft Hn R) as (acc & P' & _ & _ & Q1 & Q2 & _).
      rewrite Q1 in G1. injection G1 as <-.
      assert (LP := part_length_le (seq 0 n) (seq_NoDup n 0) P' Q2). rewrite seq_length in LP.
      apply (H (P', j) tol (S N)); auto; [|lra]. apply filter_In. split.
      - apply in_prod; [apply all_parts_In; auto|apply in_seq; lia].
      - cbn [fst snd]. apply andb_true_iff. split; [apply Nat.leb_le; lia|apply Nat.ltb_lt; lia]. }
    destruct TH as [TH|[TH|TH]]; [left; auto|right; left; auto|right; right].
    destruct (agg_any m tol f F D fuel (mended_ok _) HG HS HF HD ltac:(lra) Hft Hn FU) as (lams & Ps & R1 & R2).
    exists lams, Ps. rewrite TH. auto.
  Qed.
End Run.
