(** * WolfeEps: a small enough precision eps makes min_norm_base and AIC do exactly what they do with eps = 0. *)
From Coq Require Import Qabs.
From Verif Require Import Base Graph Spec SubThy MHC MAIC SFSpec MNBThy MWolfe WolfeSpec AggSim.

(** [P] holds for all small enough precisions, 0 included. *)
Definition ev (P : Q -> Prop) : Prop := exists e, 0 < e /\ forall eps, 0 <= eps -> eps <= e -> P eps.

Lemma ev_all (P : Q -> Prop) : (forall eps, 0 <= eps -> P eps) -> ev P.
Proof. intro H. exists 1. split; [reflexivity|auto]. Qed.
Lemma ev_and (P R : Q -> Prop) : ev P -> ev R -> ev (fun e => P e /\ R e).
Proof.
  intros (a & A1 & A2) (b & B1 & B2). destruct (Qlt_le_dec a b).
  - exists a. split; auto. intros e E1 E2. split; [auto|apply B2; lra].
  - exists b. split; auto. intros e E1 E2. split; [apply A2; lra|auto].
Qed.
Lemma ev_imp (P R : Q -> Prop) : (forall e, 0 <= e -> P e -> R e) -> ev P -> ev R.
Proof. intros H (a & A1 & A2). exists a. split; auto. Qed.

(** [r eps] is eventually [r 0], unless [r 0] is undefined. *)
Definition eveq {A} (r : Q -> res A) : Prop := r 0 <> UB -> ev (fun eps => r eps = r 0).

Lemma eveq_const {A} (r : res A) : eveq (fun _ => r).
Proof. intros _. apply ev_all. auto. Qed.
Lemma eveq_bind {A B} (r : Q -> res A) (k : Q -> A -> res B) :
  eveq r -> (forall x, r 0 = Ok x -> eveq (fun eps => k eps x)) -> eveq (fun eps => bind (r eps) (k eps)).
Proof.
  intros H1 H2 N. assert (N1 : r 0 <> UB) by (intro E; apply N; rewrite E; reflexivity).
  specialize (H1 N1). destruct (r 0) as [x| | |] eqn:E; try (eapply ev_imp; [|exact H1]; intros e _ ->; reflexivity).
  specialize (H2 x eq_refl N). refine (ev_imp _ _ _ (ev_and _ _ H1 H2)). intros e _ [K1 K2]. rewrite K1. exact K2.
Qed.

Lemma lt_eps a : ev (fun eps => Qltb eps a = Qltb 0 a).
Proof.
  destruct (Qlt_le_dec 0 a) as [G|G].
  - exists (a / 2). split; [apply Qlt_shift_div_l; lra|]. intros e E1 E2. assert (a / 2 * 2 == a) by (field; lra).
    assert (e < a) by lra. rewrite !(proj2 (Qltb_true _ _)); auto.
  - apply ev_all. intros e E1. rewrite !(proj2 (Qltb_false _ _)); auto; lra.
Qed.
Lemma le_eps a : ev (fun eps => Qle_bool a eps = Qle_bool a 0).
Proof.
  refine (ev_imp _ _ _ (lt_eps a)). intros e _ H. unfold Qltb in H. destruct (Qle_bool a e), (Qle_bool a 0); simpl in H; congruence.
Qed.

Lemma theta_eps l : forall th0, eveq (fun eps => theta_loop eps th0 l).
Proof.
  induction l as [|[a b] l IH]; intro th0; [apply eveq_const|]. intro N. cbn [theta_loop] in N.
  destruct (Qle_bool 0 (a - b)) eqn:E1.
  - apply Qle_bool_iff in E1. destruct (Qeq_bool (a - b) 0) eqn:E2.
    + destruct (Qltb a 0) eqn:E3; [contradiction|]. refine (ev_imp _ _ _ (IH th0 N)). intros e E0 H. cbn [theta_loop].
      rewrite E2, E3. rewrite (proj2 (Qle_bool_iff 0 (a - b)) E1), H. destruct (Qle_bool e (a - b)); reflexivity.
    + assert (D : 0 < a - b).
      { destruct (Qlt_le_dec 0 (a - b)); auto. exfalso. assert (Z : a - b == 0) by lra. apply Qeq_bool_iff in Z. congruence. }
      assert (K : ev (fun eps => Qle_bool eps (a - b) = true)).
      { exists (a - b). split; auto. intros e _ H. apply Qle_bool_iff. auto. }
      refine (ev_imp _ _ _ (ev_and _ _ K (IH _ N))). intros e E0 [K1 K2]. cbn [theta_loop].
      rewrite E2, K1, (proj2 (Qle_bool_iff 0 (a - b)) E1). exact K2.
  - refine (ev_imp _ _ _ (IH th0 N)). intros e E0 H. cbn [theta_loop]. rewrite E1, H.
    apply Qle_bool_false in E1. rewrite (proj2 (Qle_bool_false e (a - b))); auto. lra.
Qed.

Lemma forallb_eps v : ev (fun eps => forallb (fun a => Qltb eps a) v = forallb (fun a => Qltb 0 a) v).
Proof.
  induction v as [|a v IH]; [apply ev_all; auto|]. refine (ev_imp _ _ _ (ev_and _ _ (lt_eps a) IH)).
  intros e _ [H1 H2]. cbn [forallb]. rewrite H1, H2. reflexivity.
Qed.
Lemma marks_eps v : ev (fun eps => map (fun a => Qle_bool a eps) v = map (fun a => Qle_bool a 0) v).
Proof.
  induction v as [|a v IH]; [apply ev_all; auto|]. refine (ev_imp _ _ _ (ev_and _ _ (le_eps a) IH)).
  intros e _ [H1 H2]. cbn [map]. rewrite H1, H2. reflexivity.
Qed.

Section Eps.
Context {T : Type}.
Variables (ord : list Q -> list nat) (lin : list (list Q) -> list Q) (L : lapi T) (tol : Q) (f : sf).

Lemma minor_eps fuel : forall cols w lt, eveq (fun eps => wolfe_minor lin L eps fuel cols w lt).
Proof.
  induction fuel as [|fuel IH]; intros cols w lt; [apply eveq_const|]. intro N. cbn [wolfe_minor] in N.
  destruct (negb (length cols =? 0)%nat && Qeq_bool (Qred (qsum (fun a => a) (lin cols))) 0) eqn:E1; [contradiction|].
  set (v := map (fun a => Qred (a / Qred (qsum (fun a => a) (lin cols)))) (lin cols)) in *.
  assert (FV := forallb_eps v). destruct (forallb (fun a => Qltb 0 a) v) eqn:E2.
  - refine (ev_imp _ _ _ FV). intros e _ H. cbn [wolfe_minor]. fold v. rewrite E1, H, E2. reflexivity.
  - assert (K : eveq (fun eps => do th <- theta_loop eps 1 (combine w v);
          let w_ := map (fun p => Qred ((1 - th) * fst p + th * snd p)) (combine w v) in
          let del := map (fun a => Qle_bool a eps) w_ in
          let kept := keep del w_ in
          do lt' <- l_del L lt del;
          wolfe_minor lin L eps fuel (keep del cols)
            (kept ++ skipn (length kept) (w_ ++ skipn (length cols) w)) lt')).
    { apply eveq_bind; [apply theta_eps|]. intros th _. cbv zeta.
      set (w_ := map (fun p => Qred ((1 - th) * fst p + th * snd p)) (combine w v)).
      assert (M := marks_eps w_). set (del := map (fun a => Qle_bool a 0) w_) in *.
      assert (K2 : eveq (fun eps => do lt' <- l_del L lt del;
          wolfe_minor lin L eps fuel (keep del cols) (keep del w_ ++ skipn (length (keep del w_)) (w_ ++ skipn (length cols) w)) lt')).
      { apply eveq_bind; [apply eveq_const|]. intros lt' _. apply IH. }
      intro N2. specialize (K2 N2). refine (ev_imp _ _ _ (ev_and _ _ M K2)). intros e _ [H1 H2]. rewrite H1. exact H2. }
    specialize (K N). refine (ev_imp _ _ _ (ev_and _ _ FV K)). intros e _ [H1 H2]. cbn [wolfe_minor]. fold v. rewrite E1, H1, E2. exact H2.
Qed.

Lemma major_eps fuel : forall cols w x lt fo sc, eveq (fun eps => wolfe_major ord lin L tol eps f fuel cols w x lt fo sc).
Proof.
  induction fuel as [|fuel IH]; intros cols w x lt fo sc; [apply eveq_const|]. cbn [wolfe_major].
  apply eveq_bind; [apply eveq_const|]. intros q _.
  destruct (Qltb _ tol); [apply eveq_const|]. apply eveq_bind; [apply eveq_const|]. intros sc' _.
  destruct (100 <? sc')%nat; [apply eveq_const|]. destruct (S (sfn f) <=? length cols)%nat; [apply eveq_const|].
  apply eveq_bind; [apply eveq_const|]. intros lt1 _. apply eveq_bind; [apply minor_eps|]. intros r _. apply IH.
Qed.

Lemma mnb_eps fuel : eveq (fun eps => min_norm_base ord lin L tol eps fuel f).
Proof.
  unfold min_norm_base. destruct (sfn f) as [|[|m]]; [apply eveq_const|apply eveq_const|].
  apply eveq_bind; [apply eveq_const|]. intros x _. apply major_eps.
Qed.

(** More fuel changes nothing once the loop ended. *)
Lemma major_fuel eps k : forall fuel cols w x lt fo sc, wolfe_major ord lin L tol eps f fuel cols w x lt fo sc <> OutOfFuel ->
  wolfe_major ord lin L tol eps f (fuel + k) cols w x lt fo sc = wolfe_major ord lin L tol eps f fuel cols w x lt fo sc.
Proof.
  induction fuel as [|fuel IH]; intros cols w x lt fo sc; [intro N; exfalso; apply N; reflexivity|]. cbn [Nat.add wolfe_major].
  destruct (edmonds_greedy ord f x) as [q| | |]; cbn [bind]; auto.
  destruct (Qltb _ tol); auto. destruct (if egtb fo _ then _ else _) as [sc'| | |]; cbn [bind]; auto.
  destruct (100 <? sc')%nat; auto. destruct (S (sfn f) <=? length cols)%nat; auto.
  destruct (l_add L lt cols q) as [lt1| | |]; cbn [bind]; auto.
  destruct (wolfe_minor lin L eps (S (sfn f)) (cols ++ [q]) w lt1) as [r| | |]; cbn [bind]; auto.
Qed.
Lemma mnb_fuel eps fuel fuel' : (fuel <= fuel')%nat -> min_norm_base ord lin L tol eps fuel f <> OutOfFuel ->
  min_norm_base ord lin L tol eps fuel' f = min_norm_base ord lin L tol eps fuel f.
Proof.
  intros H. replace fuel' with (fuel + (fuel' - fuel))%nat by lia. unfold min_norm_base. destruct (sfn f) as [|[|m]]; auto.
  destruct (edmonds_greedy ord f (repeat 1 (S (S m)))) as [x| | |]; cbn [bind]; auto. apply major_fuel.
Qed.
End Eps.

(** ** AIC with a solver that depends on the precision *)
Section Agg.
Variable mnb : Q -> sf -> res (list Q).
Hypothesis HM : forall f, eveq (fun eps => mnb eps f).

Lemma solve_eps f_ js : forall g, eveq (fun eps => agg_solve (mnb eps) f_ js g).
Proof.
  induction js as [|j js IH]; intro g; [apply eveq_const|]. cbn [agg_solve].
  apply eveq_bind; [apply HM|]. intros x _. apply eveq_bind; [apply eveq_const|]. intros m _.
  apply eveq_bind; [apply IH|]. intros r _. apply eveq_const.
Qed.
Lemma agglomerate_eps tol f st : eveq (fun eps => agglomerate (mnb eps) tol f st).
Proof.
  unfold agglomerate. apply eveq_bind; [apply eveq_const|]. intros P _. destruct (length P <=? 1)%nat; [apply eveq_const|].
  apply eveq_bind; [apply eveq_const|]. intros f_ _. apply eveq_bind; [apply solve_eps|]. intros r _. apply eveq_const.
Qed.
Lemma agg_loop_eps tol f fuel : forall st crit psp, eveq (fun eps => agg_loop fuel (mnb eps) tol f st crit psp).
Proof.
  induction fuel as [|fuel IH]; intros st crit psp; [apply eveq_const|]. cbn [agg_loop].
  apply eveq_bind; [apply agglomerate_eps|]. intros r _. destruct (snd r); [|apply eveq_const].
  apply eveq_bind; [apply eveq_const|]. intros P _. destruct (rev (get_critical (fst r))); [apply eveq_const|]. apply IH.
Qed.
Lemma agg_from_eps tol f fuel : eveq (fun eps => agg_from fuel (mnb eps) tol f).
Proof. unfold agg_from. apply eveq_bind; [apply eveq_const|]. intros P _. apply agg_loop_eps. Qed.
End Agg.

(** More fuel for the solver and for the loop changes nothing once the run ended. *)
Section AggFuel.
Variables mnb mnb' : sf -> res (list Q).
Hypothesis HM : forall f, mnb f <> OutOfFuel -> mnb' f = mnb f.

Lemma solve_fuel f_ js : forall g, agg_solve mnb f_ js g <> OutOfFuel -> agg_solve mnb' f_ js g = agg_solve mnb f_ js g.
Proof.
  induction js as [|j js IH]; intros g N; auto. cbn [agg_solve] in *. assert (H := HM (sf_fix f_ j)).
  destruct (mnb (sf_fix f_ j)) as [x| | |]; cbn [bind] in *; try congruence; rewrite H by discriminate; cbn [bind]; auto.
  destruct (vmin x) as [m| | |]; cbn [bind] in *; auto. specialize (IH (emax g (- m))).
  destruct (agg_solve mnb f_ js (emax g (- m))) as [r| | |]; cbn [bind] in *; try congruence; rewrite IH by discriminate; reflexivity.
Qed.
Lemma agglomerate_fuel tol f st : agglomerate mnb tol f st <> OutOfFuel -> agglomerate mnb' tol f st = agglomerate mnb tol f st.
Proof.
  unfold agglomerate. destruct (get_partition st NegInf) as [P| | |]; cbn [bind]; auto. destruct (length P <=? 1)%nat; auto.
  destruct (sf_contract f P) as [f_| | |]; cbn [bind]; auto. intro N. assert (H := solve_fuel f_ (seq 1 (length P - 1)) NegInf).
  destruct (agg_solve mnb f_ (seq 1 (length P - 1)) NegInf) as [r| | |]; cbn [bind] in *; try congruence; rewrite H by discriminate; reflexivity.
Qed.
Lemma agg_loop_fuel tol f k fuel : forall st crit psp, agg_loop fuel mnb tol f st crit psp <> OutOfFuel ->
  agg_loop (fuel + k) mnb' tol f st crit psp = agg_loop fuel mnb tol f st crit psp.
Proof.
  induction fuel as [|fuel IH]; intros st crit psp N; [exfalso; apply N; reflexivity|]. cbn [Nat.add agg_loop] in *.
  assert (H := agglomerate_fuel tol f st).
  destruct (agglomerate mnb tol f st) as [r| | |]; cbn [bind] in *; try congruence; rewrite H by discriminate; cbn [bind]; auto.
  destruct (snd r); auto. destruct (get_coarsest (fst r)) as [P| | |]; cbn [bind] in *; auto.
  destruct (rev (get_critical (fst r))); auto.
Qed.
Lemma agg_from_fuel tol f fuel fuel' : (fuel <= fuel')%nat -> agg_from fuel mnb tol f <> OutOfFuel ->
  agg_from fuel' mnb' tol f = agg_from fuel mnb tol f.
Proof.
  intros H. replace fuel' with (fuel + (fuel' - fuel))%nat by lia. unfold agg_from.
  destruct (get_coarsest (hc_new (sfn f))) as [P| | |]; cbn [bind]; auto. apply agg_loop_fuel.
Qed.
End AggFuel.

Lemma solver_eps {T} ord lin (L : nat -> lapi T) tol fuel f : eveq (fun eps => wolfe_solver ord lin L tol eps fuel f).
Proof. unfold wolfe_solver. apply eveq_bind; [apply mnb_eps|]. intros r _. apply eveq_const. Qed.
Lemma strict_eps {T} ord lin (L : nat -> lapi T) tol fuel f : eveq (fun eps => wolfe_strict ord lin L tol eps fuel f).
Proof. unfold wolfe_strict. apply eveq_bind; [apply mnb_eps|]. intros r _. apply eveq_const. Qed.
Lemma solver_fuel {T} ord lin (L : nat -> lapi T) tol eps fuel fuel' f : (fuel <= fuel')%nat ->
  wolfe_solver ord lin L tol eps fuel f <> OutOfFuel -> wolfe_solver ord lin L tol eps fuel' f = wolfe_solver ord lin L tol eps fuel f.
Proof.
  intros H. unfold wolfe_solver. assert (K := mnb_fuel ord (lin (sfn f)) (L (sfn f)) tol f eps fuel fuel' H).
  destruct (min_norm_base ord (lin (sfn f)) (L (sfn f)) tol eps fuel f); cbn [bind]; intro N; try congruence; rewrite K by discriminate; reflexivity.
Qed.
Lemma strict_fuel {T} ord lin (L : nat -> lapi T) tol eps fuel fuel' f : (fuel <= fuel')%nat ->
  wolfe_strict ord lin L tol eps fuel f <> OutOfFuel -> wolfe_strict ord lin L tol eps fuel' f = wolfe_strict ord lin L tol eps fuel f.
Proof.
  intros H. unfold wolfe_strict. assert (K := mnb_fuel ord (lin (sfn f)) (L (sfn f)) tol f eps fuel fuel' H).
  destruct (min_norm_base ord (lin (sfn f)) (L (sfn f)) tol eps fuel f); cbn [bind]; intro N; try congruence; rewrite K by discriminate; reflexivity.
Qed.
