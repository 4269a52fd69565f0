(** * FloatDil: rounding errors of evaluate, gamma', h' and the truncation of dt. *)
From Coq Require Import Qabs.
From Verif Require Import Base Spec PartThy SubThy MSets SetsThy MGraph MaxFlow CutThy MDil DilThy
  MDT DTThy DilApprox MFloat FloatThy.

Lemma near_scale e a b i : 0 <= i -> i <= 1 -> near e a b -> near e (a * i) (b * i).
Proof.
  intros H0 H1 [A B].
  assert (E0 : 0 <= e) by lra.
  assert (X : 0 <= (e - (a - b)) * i) by (apply Qmult_le_0_compat; lra).
  assert (Y : 0 <= (e - (b - a)) * i) by (apply Qmult_le_0_compat; lra).
  assert (Z : 0 <= e * (1 - i)) by (apply Qmult_le_0_compat; lra).
  split; lra.
Qed.

(** ** One step of the truncation, whatever computed it *)
Section Step.
  Variables d lam : Q.
  Hypothesis Hd : 0 <= d.
  Variable E : graph.
  Hypothesis HE : nonneg E.
  Let f := incut E.
  Let f_ext := incut_ext E.
  Let f_sub := fun A B (_ : exists x, A x = true /\ B x = true) => incut_sub E A B HE.
  Variables (xs : list (nat * Q)) (v : nat) (a : Q) (T0 : cset).
  Hypothesis N1 : NoDup (map fst xs).
  Hypothesis N2 : ~ In v (map fst xs).
  Hypothesis HT0 : within (mem T0) (map fst xs).
  Hypothesis Hso : csorted T0.
  Hypothesis Hup : forall X, within X (map fst xs) -> a <= f (fun x => Nat.eqb x v || X x) - lam - xsum xs X + d.
  Hypothesis Hlow : f (fun x => Nat.eqb x v || mem T0 x) - lam - xsum xs (mem T0) <= a + d.
  Let T := cadd v T0.

  Let T_mem x : mem T x = Nat.eqb x v || mem T0 x.
  Proof.
    change (Nat.eqb x v || mem T0 x) with (mem (v :: T0) x). apply mem_ext. intro y. unfold T. rewrite cadd_In. simpl. intuition.
  Qed.

  Let T_lack : lack f lam (xs ++ [(v, a)]) d (mem T).
  Proof.
    eapply lack_ext with (A := fun x => Nat.eqb x v || mem T0 x); [exact f_ext|intro x; symmetry; apply T_mem|].
    unfold lack. rewrite xsum_snoc, Nat.eqb_refl. cbn [orb].
    assert (X1 : xsum xs (fun x => Nat.eqb x v || mem T0 x) == xsum xs (mem T0)).
    { apply qsum_ext. intros p Hp. destruct (Nat.eqb (fst p) v) eqn:Ep; simpl; [|reflexivity].
      apply Nat.eqb_eq in Ep. exfalso. apply N2. rewrite <- Ep. apply in_map; auto. }
    rewrite X1. lra.
  Qed.

  Let T_within : within (mem T) (map fst xs ++ [v]).
  Proof.
    intros x Hx. rewrite T_mem in Hx. apply orb_true_iff in Hx. apply in_or_app. destruct Hx as [Hx|Hx].
    - apply Nat.eqb_eq in Hx. subst. right; left; auto.
    - left. apply HT0. auto.
  Qed.

  Lemma gstep_Inv P : AInv d lam E xs P -> AInv d lam E (xs ++ [(v, a)]) (pexpand P T).
  Proof.
    intros (HF & HP & HT).
    assert (HF' : dfeas f lam d (xs ++ [(v, a)])) by (apply dfeas_step; auto).
    assert (Hnd' : NoDup (map fst xs ++ [v])).
    { apply NoDup_app_intro; auto. constructor; auto. constructor. intros x Hx [<-|[]]; auto. }
    assert (HvT : In v T) by (apply cadd_In; auto).
    assert (HTs : csorted T) by (apply cadd_sorted; auto).
    assert (HP' : is_partition (map fst xs ++ [v]) (pexpand P T)).
    { apply pexpand_partition; auto. intros x Hx. apply T_within. apply mem_In; auto. }
    split; [exact HF'|]. split.
    - rewrite map_fst_snoc. exact HP'.
    - intros B HB. assert (HB0 := HB). apply pexpand_In in HB. destruct HB as [->|[HB Hm]].
      + split; [|apply fold_cunion_sorted; auto].
        set (L := filter (meets T) P) in *. set (U := fold_left (fun acc B => cunion B acc) L T) in *.
        assert (IL : forall B, In B L -> incl B (map fst xs)).
        { intros B HB. apply filter_In in HB. exact (part_incl _ _ _ HP (proj1 HB)). }
        assert (NL : NoDup (concat L)).
        { assert (HLR : Permutation P (L ++ filter (fun B => negb (meets T B)) P)) by apply perm_filter_split.
          assert (N := part_NoDup _ N1 _ (part_perm _ _ _ HLR HP)).
          rewrite concat_app in N. apply NoDup_app_inv in N. tauto. }
        assert (K : lack f lam (xs ++ [(v, a)]) (d + 2 * qn (length (concat L)) * d) (iunion (mem T) (mem (concat L)))).
        { apply lack_expand; auto.
          - rewrite map_fst_snoc. apply T_within.
          - intros B HB. assert (HBP := proj1 (proj1 (filter_In _ _ _) HB)). assert (Bi := IL B HB). split.
            + assert (K := proj1 (HT B HBP)). unfold lack in *. rewrite xsum_snoc.
              assert (M : mem B v = false) by (apply mem_false; intro C; apply N2; auto). rewrite M. unfold f. lra.
            + rewrite map_fst_snoc. intros x Hx. apply in_or_app; auto.
          - intros B HB. apply filter_In in HB. destruct HB as [_ HB].
            apply meets_true in HB. destruct HB as (x & H1 & H2). exists x. split; auto. apply mem_In; auto. }
        assert (LU : (S (length (concat L)) <= length U)%nat).
        { change (S (length (concat L))) with (length (v :: concat L)). apply NoDup_incl_length.
          - constructor; auto. intro C. apply in_concat in C. destruct C as (B & HB & HvB). apply N2. apply (IL B HB). auto.
          - intros x [<-|Hx]; apply fold_cunion_In; [left; auto|right; auto]. }
        apply qn_le in LU. rewrite qn_S in LU.
        assert (K2 : lack f lam (xs ++ [(v, a)]) (d + 2 * qn (length (concat L)) * d) (mem U)).
        { eapply lack_ext; [exact f_ext| |exact K]. intro x. unfold iunion. rewrite <- mem_app. apply mem_ext. intro y.
          unfold U. rewrite in_app_iff, fold_cunion_In. tauto. }
        unfold lack in *. fold f.
        assert (0 <= (qn (length U) - 1 - qn (length (concat L))) * d) by (apply Qmult_le_0_compat; lra).
        assert ((2 * qn (length U) - 1) * d == d + 2 * qn (length (concat L)) * d + 2 * ((qn (length U) - 1 - qn (length (concat L))) * d)) by ring.
        lra.
      + destruct (HT B HB) as [HT1 HT2]. split; auto. unfold lack in *. rewrite xsum_snoc.
        assert (M : mem B v = false).
        { apply mem_false. intro C. apply N2. eapply part_incl; eauto. }
        rewrite M. lra.
  Qed.
End Step.

Lemma AInv_value d lam E vs xs P : NoDup vs -> graph_on vs E -> map fst xs = vs -> AInv d lam E xs P ->
  is_partition vs P /\ (forall B, In B P -> csorted B) /\
  hval E lam P <= qsum snd xs + (2 * qn (length vs) - qn (length P)) * d /\
  forall R, is_partition vs R -> qsum snd xs <= hval E lam R + qn (length R) * d.
Proof.
  intros Hnd HE Hm (HF & HP & HT).
  assert (Hnd2 : NoDup (map fst xs)) by (rewrite Hm; auto).
  assert (HPv : is_partition vs P) by (rewrite <- Hm; auto).
  split; auto. split; [intros B HB; apply HT; auto|]. split.
  - rewrite <- (pval_hval E vs) by auto. rewrite pval_sum.
    rewrite <- (xsum_partition xs P) by auto.
    assert (LC : length (concat P) = length vs) by (apply Permutation_length; apply HPv).
    rewrite <- LC, <- sizes_sum, <- qsum_plus. apply qsum_le. intros B HB. apply (HT B HB).
  - intros R HR. rewrite <- (pval_hval E vs) by auto. rewrite pval_sum.
    assert (HR' : is_partition (map fst xs) R) by (rewrite Hm; auto).
    rewrite <- (xsum_partition xs R) by auto.
    assert (Z : qn (length R) * d == qsum (fun _ => d) R) by (rewrite qsum_const; ring).
    rewrite Z, <- qsum_plus. apply qsum_le. intros B HB. apply HF.
    + destruct (part_nonempty _ _ _ HR HB) as (x & Hx). exists x. apply mem_In; auto.
    + intros x Hx. apply mem_In in Hx. eapply part_incl; eauto.
Qed.

Lemma simple_length vs E : NoDup vs -> graph_on vs E -> simple E -> (length E <= length vs * length vs)%nat.
Proof.
  intros Hn HE Hs. rewrite <- (map_length (fun a => (asrc a, adst a)) E), <- prod_length.
  apply NoDup_incl_length; auto. intros q Hq. apply in_map_iff in Hq. destruct Hq as (a & <- & Ha).
  destruct (HE a Ha) as (A & B & _). apply in_prod; auto.
Qed.

Lemma sink_cost_le E j i : nonneg E -> sink_cost E j i <= total E.
Proof.
  induction E as [|a t IH]; intro H; [unfold total; simpl; lra|].
  assert (Ht : nonneg t) by (intros b Hb; apply H; right; auto). assert (Ha : 0 <= aw a) by (apply H; left; auto).
  specialize (IH Ht). unfold total in *. cbn [sink_cost qsum].
  assert (0 <= qsum aw t) by (apply qsum_nonneg; auto).
  destruct ((asrc a =? i)%nat && (adst a =? j)%nat); lra.
Qed.

Lemma incut_le E S : nonneg E -> incut E S <= total E.
Proof. intro H. apply qsum_le. intros a Ha. specialize (H a Ha). destruct (_ && _); lra. Qed.

Lemma crossing_bounds E P : nonneg E -> 0 <= crossing E P /\ crossing E P <= total E.
Proof.
  intro H. split.
  - apply qsum_nonneg. intros a Ha. specialize (H a Ha). destruct (same_part _ _ _); lra.
  - apply qsum_le. intros a Ha. specialize (H a Ha). destruct (same_part _ _ _); lra.
Qed.

Lemma filter_perm {A} (p : A -> bool) l l' : Permutation l l' -> Permutation (filter p l) (filter p l').
Proof.
  induction 1; simpl; auto.
  - destruct (p x); auto.
  - destruct (p x), (p y); auto. constructor.
  - etransitivity; eauto.
Qed.

Section Float.
  Variable u : Q.
  Variable o : fops.
  Variable it : graph -> graph.
  Variable mc : solver.
  Variable d : Q.
  Variable n : nat.
  Variable E : graph.
  Variable rw : arc -> Q.
  Variable W : Q.
  Hypothesis Hu : 0 <= u.
  Hypothesis Ho : std_model u o.
  Hypothesis Hit : Permutation (it (stored rw E)) (stored rw E).
  Hypothesis Hd : 0 <= d.
  Hypothesis Hmc : ApproxCutSpec d n mc.
  Hypothesis Hn2 : (2 <= n)%nat.
  Variable vs : list nat.
  Hypothesis Hnd : NoDup vs.
  Hypothesis Hlv : (length vs <= n)%nat.
  Hypothesis HE : graph_on vs E.
  Hypothesis Hs : simple E.
  Hypothesis Hord : ordered E vs.
  Hypothesis Hrw : forall a, In a E -> Qabs (rw a - aw a) <= u * aw a.
  Hypothesis HW : total E <= W.
  Hypothesis HW1 : 1 <= W.

  Definition NU1 : Q := qn n * (u * W).
  Definition NU2 : Q := qn n * NU1.
  Definition NU3 : Q := qn n * NU2.
  Hypothesis H3 : 240 * NU3 <= 1.
  Hypothesis Hdn : 4 * (qn n * d) <= 1.

  Let F := stored rw E.
  Let Hnn : nonneg E := graph_on_nonneg _ _ HE.

  Lemma N_two : 2 <= qn n.
  Proof. change 2 with (qn 2). apply qn_le. auto. Qed.
  Lemma U_nonneg : 0 <= u * W. Proof. apply Qmult_le_0_compat; lra. Qed.
  Lemma u_le_U : u <= u * W.
  Proof. assert (0 <= u * (W - 1)) by (apply Qmult_le_0_compat; lra). lra. Qed.
  Lemma NU1_ge : 2 * (u * W) <= NU1.
  Proof. unfold NU1. assert (K := N_two). assert (Z := U_nonneg). assert (0 <= (qn n - 2) * (u * W)) by (apply Qmult_le_0_compat; lra). lra. Qed.
  Lemma NU2_ge : 2 * NU1 <= NU2.
  Proof. unfold NU2. assert (K := N_two). assert (Z := U_nonneg). assert (Z1 := NU1_ge). assert (0 <= (qn n - 2) * NU1) by (apply Qmult_le_0_compat; lra). lra. Qed.
  Lemma NU3_ge : 2 * NU2 <= NU3.
  Proof. unfold NU3. assert (K := N_two). assert (Z := U_nonneg). assert (Z1 := NU1_ge). assert (Z2 := NU2_ge). assert (0 <= (qn n - 2) * NU2) by (apply Qmult_le_0_compat; lra). lra. Qed.

  Ltac atoms := pose proof N_two as A_N; pose proof U_nonneg as A_U; pose proof u_le_U as A_u;
    pose proof NU1_ge as A_1; pose proof NU2_ge as A_2; pose proof NU3_ge as A_3.

  Lemma NW_ge : 2 * W <= qn n * W.
  Proof. assert (K := N_two). assert (0 <= (qn n - 2) * W) by (apply Qmult_le_0_compat; lra). lra. Qed.

  (** ** The stored graph *)
  Lemma rw_near a : In a E -> near (u * aw a) (rw a) (aw a).
  Proof. intro H. apply near_abs. auto. Qed.

  Lemma rw_nonneg a : In a E -> 0 <= rw a.
  Proof.
    intro H. destruct (rw_near a H) as [A B]. assert (Z := Hnn a H). atoms.
    assert (0 <= (1 - u) * aw a) by (apply Qmult_le_0_compat; lra). lra.
  Qed.

  Lemma stored_on : graph_on vs F.
  Proof.
    intros b Hb. apply in_map_iff in Hb. destruct Hb as (a & <- & Ha). cbn [asrc adst aw].
    destruct (HE a Ha) as (A & B & _). split; auto. split; auto. apply rw_nonneg; auto.
  Qed.
  Lemma stored_simple : simple F.
  Proof. unfold simple, F, stored. rewrite map_map. exact Hs. Qed.
  Lemma stored_incut S : near (u * incut E S) (incut F S) (incut E S).
  Proof.
    assert (M : incut F S == qsum (fun a => if negb (S (asrc a)) && S (adst a) then rw a else 0) E) by (unfold incut, F, stored; rewrite qsum_map; reflexivity).
    unfold near. rewrite M. unfold incut. rewrite <- qsum_scal. rewrite <- !qsum_minus. split; apply qsum_le; intros a Ha;
      destruct (rw_near a Ha) as [A B]; destruct (negb (S (asrc a)) && S (adst a)); lra.
  Qed.

  Lemma stored_sink_gen l j i : (forall a, In a l -> In a E) ->
    near (u * sink_cost l j i) (sink_cost (stored rw l) j i) (sink_cost l j i).
  Proof.
    induction l as [|a l IH]; intro H; cbn [stored map sink_cost].
    - split; lra.
    - cbn [asrc adst aw]. destruct ((asrc a =? i)%nat && (adst a =? j)%nat).
      + apply rw_near. apply H. left; auto.
      + apply IH. intros b Hb. apply H. right; auto.
  Qed.
  Lemma stored_sink j i : near (u * sink_cost E j i) (sink_cost F j i) (sink_cost E j i).
  Proof. apply stored_sink_gen. auto. Qed.

  (** ** evaluate *)
  Lemma small_u k : (k <= n * n)%nat -> 2 * qn k * u <= 1.
  Proof.
    intro Hk. apply qn_le in Hk. atoms.
    assert (M : qn (n * n) == qn n * qn n) by (unfold qn; rewrite Nat2Z.inj_mul, inject_Z_mult; reflexivity).
    assert (X : 0 <= (qn n * qn n - qn k) * u) by (apply Qmult_le_0_compat; lra).
    assert (Y : 0 <= (qn n * qn n) * (u * W - u)) by (apply Qmult_le_0_compat; [apply Qmult_le_0_compat; lra|lra]).
    assert (Z : NU2 == qn n * qn n * (u * W)) by (unfold NU2, NU1; ring). lra.
  Qed.

  Lemma abs_nonneg_sum {A} (g : A -> Q) l : (forall x, In x l -> 0 <= g x) -> qsum Qabs (map g l) == qsum g l.
  Proof.
    intro H. rewrite qsum_map. apply qsum_ext. intros x Hx. apply Qabs_pos. auto.
  Qed.

  Lemma cut_value_near S : let c := incut E (mem S) in
    near ((4 * qn n * qn n + 1) * u * c) (f_cut_value o it F S) c.
  Proof.
    intro c. unfold f_cut_value. set (p := fun a => negb (mem S (asrc a)) && mem S (adst a)).
    assert (P1 : Permutation (filter p (it F)) (filter p F)) by (apply filter_perm; exact Hit).
    set (l := filter p (it F)) in *.
    assert (Lc : qsum aw l == incut F (mem S)).
    { rewrite (qsum_perm aw _ _ P1), qsum_filter. reflexivity. }
    assert (Ll : (length l <= n * n)%nat).
    { rewrite (Permutation_length P1). apply Nat.le_trans with (length F).
      - clear. induction F as [|a t IH]; simpl; [lia|]. destruct (p a); simpl; lia.
      - unfold F, stored. rewrite map_length. assert (K := simple_length vs E Hnd HE Hs). nia. }
    assert (Hl : forall a, In a l -> 0 <= aw a).
    { intros a Ha. apply (graph_on_nonneg _ _ stored_on). apply (Permutation_in _ P1) in Ha. apply filter_In in Ha. tauto. }
    assert (K := fsum_near u o Hu Ho (map aw l) 0 (incut F (mem S)) (n * n)).
    rewrite map_length, (abs_nonneg_sum aw l Hl), qsum_map, Lc in K. change (Qabs 0) with 0 in K.
    specialize (K Ll (small_u _ (le_n _)) ltac:(lra)).
    destruct (stored_incut (mem S)) as [A B]. fold c in A, B. destruct K as [K1 K2].
    assert (M : qn (n * n) == qn n * qn n) by (unfold qn; rewrite Nat2Z.inj_mul, inject_Z_mult; reflexivity).
    rewrite M in K1, K2. set (c' := incut F (mem S)) in *.
    assert (C0 : 0 <= c).
    { apply qsum_nonneg. intros a Ha. specialize (Hnn a Ha). destruct (_ && _); lra. }
    change (qsum (fun x : arc => aw x) l) with (qsum aw l) in K1, K2. rewrite Lc in K1, K2.
    atoms. assert (C1 : 0 <= (1 - u) * c) by (apply Qmult_le_0_compat; lra).
    assert (C2 : c' <= 2 * c) by lra.
    assert (N0 : 0 <= 2 * (qn n * qn n) * u) by (repeat apply Qmult_le_0_compat; lra).
    assert (Z : 0 <= 2 * (qn n * qn n) * u * (2 * c - c')) by (apply Qmult_le_0_compat; lra).
    assert (Y : (4 * qn n * qn n + 1) * u * c == 2 * (qn n * qn n) * u * (2 * c) + u * c) by ring.
    split; rewrite Y; lra.
  Qed.

  Lemma evaluate_near P : is_partition vs P -> near (7 * NU2) (f_evaluate o it F P) (crossing E P).
  Proof.
    intro HP. unfold f_evaluate.
    set (rho := (4 * qn n * qn n + 1) * u).
    assert (R1 : rho <= 1).
    { atoms. assert (Z : NU2 == qn n * qn n * (u * W)) by (unfold NU2, NU1; ring).
      assert (Y : 0 <= (4 * (qn n * qn n) + 1) * (u * W - u)).
      { apply Qmult_le_0_compat; [|lra]. assert (0 <= qn n * qn n) by (apply Qmult_le_0_compat; lra). lra. }
      unfold rho. lra. }
    assert (R0 : 0 <= rho).
    { unfold rho. apply Qmult_le_0_compat; auto. atoms. assert (0 <= qn n * qn n) by (apply Qmult_le_0_compat; lra). lra. }
    assert (Cs : forall B, 0 <= incut E (mem B)).
    { intro B. apply qsum_nonneg. intros a Ha. specialize (Hnn a Ha). destruct (_ && _); lra. }
    assert (Cr : qsum (fun B => incut E (mem B)) P == crossing E P).
    { apply (incut_crossing E vs); auto. intros a Ha. apply HE; auto. }
    destruct (crossing_bounds E P Hnn) as [B0 B1].
    assert (Lp : (length P <= n)%nat) by (assert (Lp := part_length_le vs Hnd P HP); lia).
    assert (K := fsum_near u o Hu Ho (map (f_cut_value o it F) P) 0 (2 * W) n). rewrite map_length in K. specialize (K Lp).
    rewrite !qsum_map in K. specialize (K (small_u n ltac:(nia))).
    assert (A2 : Qabs 0 + qsum (fun B => Qabs (f_cut_value o it F B)) P <= 2 * W).
    { change (Qabs 0) with 0. apply Qle_trans with (qsum (fun B => 2 * incut E (mem B)) P).
      - rewrite Qplus_0_l. apply qsum_le. intros B _. apply Qabs_Qle_condition. destruct (cut_value_near B) as [X Y]. fold rho in X, Y.
        specialize (Cs B). assert (0 <= (1 - rho) * incut E (mem B)) by (apply Qmult_le_0_compat; lra). split; lra.
      - rewrite qsum_scal, Cr. lra. }
    specialize (K A2). destruct K as [K1 K2].
    assert (D1 : near (rho * crossing E P) (qsum (fun B => f_cut_value o it F B) P) (crossing E P)).
    { rewrite <- Cr, <- qsum_scal. unfold near. rewrite <- !qsum_minus.
      split; apply qsum_le; intros B _; destruct (cut_value_near B) as [X Y]; fold rho in X, Y; lra. }
    destruct D1 as [D1 D2].
    assert (E1 : 0 <= rho * (W - crossing E P)) by (apply Qmult_le_0_compat; lra).
    assert (E2 : rho * W == 4 * NU2 + u * W) by (unfold rho, NU2, NU1; ring).
    assert (E3 : 2 * qn n * u * (2 * W) == 4 * NU1) by (unfold NU1; ring).
    atoms. split; lra.
  Qed.

  (** ** The truncation *)
  Variables lam lam' : Q.
  Hypothesis Hlam : - W <= lam /\ lam <= W.
  Hypothesis Hlam' : near (15 * NU2) lam' lam.

  Definition fdelta : Q := d + 40 * NU2.
  Lemma fdelta_nonneg : 0 <= fdelta.
  Proof. unfold fdelta. atoms. lra. Qed.
  Lemma d_small : 8 * d <= 1.
  Proof. atoms. assert (0 <= (qn n - 2) * d) by (apply Qmult_le_0_compat; lra). lra. Qed.

  Definition xbound (p : nat * Q) : Prop := - (11 * (qn n * W)) <= snd p /\ snd p <= 3 * W.

  Lemma qmax0 x : 0 <= qmax 0 x.
  Proof. destruct (qmax_spec 0 x) as [[A ->]|[A ->]]; lra. Qed.
  Lemma qmax0_le x t : 0 <= t -> x <= t -> qmax 0 x <= t.
  Proof. destruct (qmax_spec 0 x) as [[A ->]|[A ->]]; lra. Qed.

  Section OneStep.
    Variable xs : list (nat * Q).
    Variable v : nat.
    Variable r : list nat.
    Hypothesis Hvs : vs = map fst xs ++ v :: r.
    Hypothesis Hb : forall p, In p xs -> xbound p.

    Lemma fs_len : (length xs <= n)%nat.
    Proof.
      assert (L := Hlv). rewrite Hvs, app_length, map_length in L. lia.
    Qed.
    Lemma fs_nd : NoDup (map fst xs) /\ ~ In v (map fst xs).
    Proof. eapply step_nd; [exact Hnd|exact Hvs]. Qed.

    Lemma sum_pos_le : 0 <= qsum (fun p : nat * Q => qmax 0 (snd p)) xs /\
      qsum (fun p : nat * Q => qmax 0 (snd p)) xs <= 3 * (qn n * W).
    Proof.
      split; [apply qsum_nonneg; intros; apply qmax0|].
      apply Qle_trans with (qsum (fun _ => 3 * W) xs).
      - apply qsum_le. intros p Hp. apply qmax0_le; [lra|]. apply (Hb p Hp).
      - rewrite qsum_const. assert (L := qn_le _ _ fs_len).
        assert (0 <= W * (qn n - qn (length xs))) by (apply Qmult_le_0_compat; lra). lra.
    Qed.

    Lemma const_near : near (23 * NU2) (fsum o lam' (map (fun p => qmax 0 (snd p)) xs))
      (lam + qsum (fun p => qmax 0 (snd p)) xs).
    Proof.
      destruct sum_pos_le as [S0 S1]. atoms. assert (NW := NW_ge). destruct Hlam' as [L1 L2].
      assert (AL : Qabs lam' <= 2 * W) by (apply Qabs_Qle_condition; split; lra).
      assert (K := fsum_near u o Hu Ho (map (fun p => qmax 0 (snd p)) xs) lam' (4 * (qn n * W)) n).
      rewrite map_length, abs_nonneg_sum, qsum_map in K by (intros; apply qmax0).
      specialize (K fs_len (small_u n ltac:(nia)) ltac:(lra)). destruct K as [K1 K2].
      assert (Z : 2 * qn n * u * (4 * (qn n * W)) == 8 * NU2) by (unfold NU2, NU1; ring).
      split; lra.
    Qed.

    Lemma st_near p X : In p xs -> near (6 * (u * W)) (cut (f_st_arcs o F v p) X) (cut (st_arcs E v p) X).
    Proof.
      intro Hp. rewrite cut_st by exact Hnn. destruct (Hb p Hp) as [_ B]. destruct p as [i x]. cbn [fst snd] in *.
      assert (M0 := qmax0 x). assert (M1 := qmax0_le x (3 * W) ltac:(lra) B).
      assert (S0 := sink_cost_nonneg E v i Hnn). assert (S1 := sink_cost_le E v i Hnn).
      destruct (stored_sink v i) as [T1 T2]. atoms.
      set (s := sink_cost E v i) in *. set (s' := sink_cost F v i) in *.
      assert (X1 : 0 <= u * (W - s)) by (apply Qmult_le_0_compat; lra).
      assert (X2 : 0 <= u * s) by (apply Qmult_le_0_compat; lra).
      assert (X3 : 0 <= (1 - u) * s) by (apply Qmult_le_0_compat; lra).
      destruct (add_near u o Hu Ho (5 * W) (qmax 0 x) s') as [A1 A2]; [lra|lra|].
      unfold f_st_arcs. fold s'. cbv zeta. set (sc := fadd o (qmax 0 x) s') in *. rewrite cut_app.
      assert (C1 : cut (if Qltb x 0 then [mkNarc NSrc (NV i) (- x)] else []) X == if X i then qmax 0 (- x) else 0).
      { destruct (Qltb x 0) eqn:E1; unfold cut; simpl.
        - apply Qltb_true in E1. destruct (qmax_spec 0 (- x)) as [[H1 H2]|[H1 H2]]; rewrite H2; destruct (X i); simpl; lra.
        - apply Qltb_false in E1. destruct (qmax_spec 0 (- x)) as [[H1 H2]|[H1 H2]]; rewrite H2; destruct (X i); simpl; lra. }
      assert (C2 : cut (if Qltb 0 sc then [mkNarc (NV i) NSnk sc] else []) X == if X i then 0 else qmax 0 sc).
      { unfold qmax. destruct (Qltb 0 sc); unfold cut; simpl; destruct (X i); simpl; lra. }
      unfold near. rewrite C1, C2. destruct (X i).
      - split; lra.
      - destruct (qmax_spec 0 sc) as [[H1 H2]|[H1 H2]]; rewrite H2; split; lra.
    Qed.

    Lemma inner_near X : near (u * W) (cut (inner_arcs F (map fst xs)) X) (cut (inner_arcs E (map fst xs)) X).
    Proof.
      unfold inner_arcs, cut. rewrite !qsum_map, !qsum_filter. unfold F, stored. rewrite qsum_map. cbn [asrc adst aw].
      assert (T : qsum (fun a => u * aw a) E <= u * W).
      { rewrite qsum_scal. assert (0 <= u * (W - total E)) by (apply Qmult_le_0_compat; lra). unfold total in *. lra. }
      unfold near. rewrite <- !qsum_minus. split; (eapply Qle_trans; [|exact T]); apply qsum_le; intros a Ha;
        destruct (rw_near a Ha) as [A B]; assert (0 <= u * aw a) by (apply Qmult_le_0_compat; auto);
        destruct (mem (map fst xs) (asrc a) && mem (map fst xs) (adst a)); cbn [side nsrc ndst ncap]; try lra;
        destruct (negb (X (asrc a)) && X (adst a)); lra.
    Qed.

    Lemma net_near X : near (7 * NU1) (cut (f_network o F xs v) X) (cut (dil_network E xs v) X).
    Proof.
      unfold f_network, dil_network. unfold near. rewrite !cut_app, !cut_flat_map.
      destruct (inner_near X) as [I1 I2].
      assert (Z : qsum (fun _ : nat * Q => 6 * (u * W)) xs <= 6 * NU1).
      { rewrite qsum_const. assert (L := qn_le _ _ fs_len). atoms. unfold NU1.
        assert (0 <= (u * W) * (qn n - qn (length xs))) by (apply Qmult_le_0_compat; lra). lra. }
      assert (Y1 : qsum (fun a => cut (f_st_arcs o F v a) X) xs - qsum (fun a => cut (st_arcs E v a) X) xs <= 6 * NU1).
      { rewrite <- qsum_minus. eapply Qle_trans; [|exact Z]. apply qsum_le. intros p Hp. apply (st_near p X Hp). }
      assert (Y2 : qsum (fun a => cut (st_arcs E v a) X) xs - qsum (fun a => cut (f_st_arcs o F v a) X) xs <= 6 * NU1).
      { rewrite <- qsum_minus. eapply Qle_trans; [|exact Z]. apply qsum_le. intros p Hp. apply (st_near p X Hp). }
      atoms. split; lra.
    Qed.

    Lemma f_net_ok : net_ok (map fst xs) (f_network o F xs v).
    Proof.
      destruct fs_nd as [N1 _]. split; auto. intros a Ha. unfold f_network in Ha. apply in_app_or in Ha. destruct Ha as [Ha|Ha].
      - unfold inner_arcs in Ha. apply in_map_iff in Ha. destruct Ha as (b & <- & Hb'). apply filter_In in Hb'. destruct Hb' as [H1 H2].
        apply andb_true_iff in H2. rewrite !mem_In in H2. cbn. split; [|tauto]. apply (graph_on_nonneg _ _ stored_on). auto.
      - apply in_flat_map in Ha. destruct Ha as ([i x] & Hp & Ha). unfold f_st_arcs in Ha. cbv zeta in Ha.
        assert (I : In i (map fst xs)) by (apply (in_map fst) in Hp; exact Hp).
        apply in_app_or in Ha. destruct Ha as [Ha|Ha].
        + destruct (Qltb x 0) eqn:Ex; [|destruct Ha]. apply Qltb_true in Ex. destruct Ha as [<-|[]]. cbn. split; [lra|tauto].
        + destruct (Qltb 0 (fadd o (qmax 0 x) (sink_cost F v i))) eqn:Ex; [|destruct Ha]. apply Qltb_true in Ex. destruct Ha as [<-|[]]. cbn. split; [lra|tauto].
    Qed.

    Lemma f_net_size : (length (f_network o F xs v) <= n * n + 2 * n)%nat.
    Proof.
      unfold f_network. rewrite app_length. apply Nat.add_le_mono.
      - unfold inner_arcs. rewrite map_length. apply Nat.le_trans with (length F).
        + generalize (fun a => mem (map fst xs) (asrc a) && mem (map fst xs) (adst a)). intro p. clear. induction F as [|a t IH]; simpl; [lia|]. destruct (p a); simpl; lia.
        + unfold F, stored. rewrite map_length. assert (K := simple_length vs E Hnd HE Hs). nia.
      - assert (K : forall l, (length (flat_map (f_st_arcs o F v) l) <= 2 * length l)%nat).
        { induction l as [|[i x] l IH]; cbn [flat_map length]; [lia|]. rewrite app_length. unfold f_st_arcs at 1. cbv zeta.
          rewrite app_length. destruct (Qltb x 0); destruct (Qltb 0 (fadd o (qmax 0 x) (sink_cost F v i))); cbn [length]; lia. }
        specialize (K xs). assert (L := fs_len). lia.
    Qed.

    Let fX := mc (map fst xs) (f_network o F xs v).
    Let a := fst (f_minimize o mc lam' F xs v).
    Let T0 := snd (f_minimize o mc lam' F xs v).

    Let spec : incl (snd fX) (map fst xs) /\
      cut (f_network o F xs v) (mem (snd fX)) <= fst fX + d /\
      forall Y, fst fX <= cut (f_network o F xs v) Y + d.
    Proof. apply Hmc; [apply f_net_ok|rewrite map_length; apply fs_len|apply f_net_size]. Qed.

    Lemma fT_mem x : mem T0 x = mem (snd fX) x.
    Proof.
      apply mem_ext. intro y. unfold T0, f_minimize. cbn [snd]. fold fX.
      rewrite cset_of_In, filter_In, mem_In. split; [tauto|]. intro Hy. split; auto. apply spec; auto.
    Qed.

    Lemma fT_within : within (mem T0) (map fst xs).
    Proof. intros x Hx. rewrite fT_mem in Hx. apply mem_In in Hx. apply spec; auto. Qed.

    Lemma f_cut_ideal X : within X (map fst xs) ->
      cut (dil_network E xs v) X - (lam + qsum (fun p => qmax 0 (snd p)) xs) ==
      incut E (fun x => Nat.eqb x v || X x) - lam - xsum xs X.
    Proof.
      destruct fs_nd as [N1 N2]. intro HX.
      assert (C := cut_stage E xs v Hnn Hs N1 N2 (stage_in E vs Hord _ _ _ Hvs) X HX). lra.
    Qed.

    Lemma a_near : near (28 * NU2) a (fst fX - (lam + qsum (fun p => qmax 0 (snd p)) xs)) /\ xbound (v, a).
    Proof.
      destruct const_near as [C1 C2]. destruct sum_pos_le as [S0 S1]. destruct spec as (_ & P1 & P2).
      set (c := qsum (fun p => qmax 0 (snd p)) xs) in *.
      unfold a, f_minimize. cbn [fst]. fold fX. set (c' := fsum o lam' (map (fun p => qmax 0 (snd p)) xs)) in *.
      assert (W0 : within (fun _ => false) (map fst xs)) by (intros x Hx; discriminate).
      assert (I0 := f_cut_ideal (fun _ => false) W0). fold c in I0. cbv beta in I0.
      assert (X0 : xsum xs (fun _ => false) == 0) by (apply qsum_zero; intros; reflexivity).
      assert (IC := incut_le E (fun x => Nat.eqb x v || false) Hnn).
      destruct (net_near (fun _ => false)) as [E1 E2]. specialize (P2 (fun _ => false)).
      assert (P0 : 0 <= cut (f_network o F xs v) (mem (snd fX))).
      { apply qsum_nonneg. intros b Hb'. destruct (f_net_ok) as [_ K]. specialize (K b Hb'). destruct (_ && _); lra. }
      assert (D8 := d_small). atoms. assert (NW := NW_ge).
      destruct (sub_near u o Hu Ho (10 * (qn n * W)) (fst fX) c') as [Z1 Z2]; [lra|lra|].
      assert (Y : u * (10 * (qn n * W)) == 10 * NU1) by (unfold NU1; ring).
      split; [split; lra|]. unfold xbound. cbn [snd]. split; lra.
    Qed.

    Lemma f_up X : within X (map fst xs) -> a <= incut E (fun x => Nat.eqb x v || X x) - lam - xsum xs X + fdelta.
    Proof.
      intro HX. rewrite <- (f_cut_ideal X HX). destruct a_near as [[A _] _]. destruct (net_near X) as [B _].
      destruct spec as (_ & _ & P). specialize (P X). unfold fdelta. atoms. lra.
    Qed.

    Lemma f_low : incut E (fun x => Nat.eqb x v || mem T0 x) - lam - xsum xs (mem T0) <= a + fdelta.
    Proof.
      rewrite <- (f_cut_ideal _ fT_within). rewrite (cut_ext _ (mem T0) _ fT_mem).
      destruct a_near as [[_ A] _]. destruct (net_near (mem (snd fX))) as [_ B].
      destruct spec as (_ & P & _). unfold fdelta. atoms. lra.
    Qed.

    Lemma f_step_Inv P : AInv fdelta lam E xs P ->
      AInv fdelta lam E (xs ++ [(v, a)]) (pexpand P (cadd v T0)) /\ xbound (v, a).
    Proof.
      intro HI. destruct fs_nd as [N1 N2]. split; [|apply a_near].
      apply gstep_Inv; auto; [apply fdelta_nonneg|apply fT_within|apply cset_of_sorted|exact f_up|exact f_low].
    Qed.
  End OneStep.

  Lemma f_loop_Inv todo : forall xs P, vs = map fst xs ++ todo -> AInv fdelta lam E xs P ->
    (forall p, In p xs -> xbound p) ->
    let r := f_loop o mc lam' F todo xs P in
    AInv fdelta lam E (fst r) (snd r) /\ map fst (fst r) = vs /\ forall p, In p (fst r) -> xbound p.
  Proof.
    induction todo as [|v t IH]; intros xs P Hvs HI Hb.
    - simpl. rewrite app_nil_r in Hvs. auto.
    - cbn [f_loop]. cbv zeta. destruct (f_step_Inv xs v t Hvs Hb P HI) as [A B]. apply IH.
      + rewrite map_fst_snoc, <- app_assoc. exact Hvs.
      + exact A.
      + intros p Hp. apply in_app_or in Hp. destruct Hp as [Hp|[<-|[]]]; auto.
  Qed.

  (** The truncation over the nodes [vs]. *)
  Theorem f_dil_near : let r := f_loop o mc lam' F vs [] [] in
    let m := fsum o 0 (map snd (fst r)) in let P := snd r in
    is_partition vs P /\ (forall B, In B P -> csorted B) /\
    hval E lam P <= m + 22 * NU3 + (2 * qn n - qn (length P)) * fdelta /\
    forall R, is_partition vs R -> m <= hval E lam R + 22 * NU3 + qn (length R) * fdelta.
  Proof.
    destruct (f_loop_Inv vs [] []) as (HI & Hm & Hb); auto.
    { split; [intros S (x & Hx) HS; exfalso; exact (HS x Hx)|].
      split; [split; [constructor|intros []]|intros B []]. }
    { intros p []. }
    set (r := f_loop o mc lam' F vs [] []) in *. cbv zeta.
    destruct (AInv_value fdelta lam E vs (fst r) (snd r) Hnd HE Hm HI) as (A & B & C & D).
    assert (Lr : (length (fst r) <= n)%nat) by (rewrite <- (map_length fst), Hm; exact Hlv).
    assert (Lv := qn_le _ _ Hlv). assert (F0 := fdelta_nonneg).
    atoms. assert (NW := NW_ge).
    assert (K := fsum_near u o Hu Ho (map snd (fst r)) 0 (11 * (qn n * (qn n * W))) n).
    rewrite map_length, !qsum_map in K. specialize (K Lr (small_u n ltac:(nia))).
    assert (Ab : Qabs 0 + qsum (fun p => Qabs (snd p)) (fst r) <= 11 * (qn n * (qn n * W))).
    { change (Qabs 0) with 0. apply Qle_trans with (qsum (fun _ => 11 * (qn n * W)) (fst r)).
      - rewrite Qplus_0_l. apply qsum_le. intros p Hp. destruct (Hb p Hp). apply Qabs_Qle_condition. split; lra.
      - rewrite qsum_const. apply qn_le in Lr.
        assert (0 <= (qn n - qn (length (fst r))) * (11 * (qn n * W))) by (apply Qmult_le_0_compat; lra). lra. }
    specialize (K Ab). destruct K as [K1 K2].
    change (qsum (fun x : nat * Q => snd x) (fst r)) with (qsum snd (fst r)) in K1, K2.
    assert (Z : 2 * qn n * u * (11 * (qn n * (qn n * W))) == 22 * NU3) by (unfold NU3, NU2, NU1; ring).
    assert (Y : 0 <= (qn n - qn (length vs)) * fdelta) by (apply Qmult_le_0_compat; lra).
    split; auto. split; auto. split; [lra|]. intros R HR. specialize (D R HR). lra.
  Qed.
End Float.

(** ** Class DT: nodes 0..n-1 *)
Section FloatDT.
  Variable u : Q.
  Variable o : fops.
  Variable it : graph -> graph.
  Variable mc : solver.
  Variable d : Q.
  Variable n : nat.
  Variable E : graph.
  Variable rw : arc -> Q.
  Variable W : Q.
  Hypothesis Hu : 0 <= u.
  Hypothesis Ho : std_model u o.
  Hypothesis Hit : Permutation (it (stored rw E)) (stored rw E).
  Hypothesis Hd : 0 <= d.
  Hypothesis Hmc : ApproxCutSpec d n mc.
  Hypothesis Hn2 : (2 <= n)%nat.
  Hypothesis HE : graph_on (seq 0 n) E.
  Hypothesis Hs : simple E.
  Hypothesis Hf : forward E.
  Hypothesis Hrw : forall a, In a E -> Qabs (rw a - aw a) <= u * aw a.
  Hypothesis HW : total E <= W.
  Hypothesis HW1 : 1 <= W.
  Notation NU1 := (NU1 u n W).
  Notation NU2 := (NU2 u n W).
  Notation NU3 := (NU3 u n W).
  Notation fdelta := (fdelta u d n W).
  Hypothesis H3 : 240 * NU3 <= 1.
  Hypothesis Hdn : 4 * (qn n * d) <= 1.

  Let F := stored rw E.
  Let vs := seq 0 n.
  Let Hnn : nonneg E := graph_on_nonneg _ _ HE.
  Let Hnd : NoDup vs := seq_NoDup n 0.
  Let Hlv : (length vs <= n)%nat.
  Proof. unfold vs. rewrite seq_length. auto. Qed.
  Let HT := conj H3 Hdn.

  Let N_two := N_two n Hn2.
  Let U_nonneg := U_nonneg u W Hu HW1.
  Let u_le_U := u_le_U u W Hu HW1.
  Let NU1_ge := NU1_ge u n W Hu Hn2 HW1.
  Let NU2_ge := NU2_ge u n W Hu Hn2 HW1.
  Let NU3_ge := NU3_ge u n W Hu Hn2 HW1.
  Let NW_ge := NW_ge n W Hn2 HW1.
  Let evaluate_near : forall P, is_partition vs P -> near (7 * NU2) (f_evaluate o it F P) (crossing E P) :=
    evaluate_near u o it n E rw W Hu Ho Hit Hn2 vs Hnd Hlv HE Hs Hrw HW HW1 H3.

  Ltac atoms := pose proof N_two as A_N; pose proof U_nonneg as A_U; pose proof u_le_U as A_u;
    pose proof NU1_ge as A_1; pose proof NU2_ge as A_2; pose proof NU3_ge as A_3.

  Lemma stored_forward : forward F.
  Proof. intros b Hb. apply in_map_iff in Hb. destruct Hb as (a & <- & Ha). cbn. apply Hf; auto. Qed.

  (** ** gamma' and h' *)
  Section Pair.
    Variables Qp P : cpart.
    Hypothesis HQ : is_partition vs Qp.
    Hypothesis HP : is_partition vs P.
    Hypothesis Hl : (length Qp < length P)%nat.

    Let i := / card_diff P Qp.
    Lemma diff_one : 1 <= card_diff P Qp.
    Proof. unfold card_diff. change 1 with (inject_Z 1). rewrite <- Zle_Qle. lia. Qed.
    Lemma inv_diff : 0 <= i /\ i <= 1.
    Proof.
      assert (K := diff_one). assert (I : 0 < i) by (apply Qinv_lt_0_compat; lra).
      assert (X : card_diff P Qp * i == 1) by (apply Qmult_inv_r; lra).
      assert (0 <= (card_diff P Qp - 1) * i) by (apply Qmult_le_0_compat; lra). split; lra.
    Qed.

    Lemma gamma_bounds : - W <= dt_gamma E Qp P /\ dt_gamma E Qp P <= W.
    Proof.
      unfold dt_gamma. rewrite Qred_correct. rewrite !(dt_evaluate_crossing E n) by auto.
      destruct (crossing_bounds E P Hnn), (crossing_bounds E Qp Hnn). destruct inv_diff as [I0 I1].
      assert (X : near W ((crossing E P - crossing E Qp) * i) (0 * i)) by (apply near_scale; auto; split; lra).
      unfold Qdiv. fold i. destruct X. split; lra.
    Qed.

    Lemma gamma_near : near (15 * NU2) (f_gamma o it F Qp P) (dt_gamma E Qp P).
    Proof.
      assert (GB := gamma_bounds). revert GB.
      unfold f_gamma, dt_gamma. rewrite !Qred_correct, !(dt_evaluate_crossing E n) by auto.
      destruct (evaluate_near P HP) as [P1 P2], (evaluate_near Qp HQ) as [Q1 Q2].
      set (eP := f_evaluate o it F P) in *. set (eQ := f_evaluate o it F Qp) in *.
      destruct (crossing_bounds E P Hnn), (crossing_bounds E Qp Hnn). destruct inv_diff as [I0 I1]. atoms.
      destruct (sub_near u o Hu Ho (2 * W) eP eQ) as [S1 S2]; [lra|lra|].
      set (t := fsub o eP eQ) in *. intro GB.
      assert (X : near (14 * NU2 + 2 * (u * W)) (t * i) ((crossing E P - crossing E Qp) * i)) by (apply near_scale; auto; split; lra).
      destruct X as [X1 X2]. unfold Qdiv in *. fold i in GB |- *.
      destruct (div_near u o Hu Ho (2 * W) t (card_diff P Qp)) as [D1 D2].
      - assert (K := diff_one). lra.
      - unfold Qdiv. fold i. lra.
      - unfold Qdiv. fold i. lra.
      - unfold Qdiv in D1, D2. fold i in D1, D2. split; lra.
    Qed.

    Lemma h_near eps : 0 <= eps -> eps <= 1 -> near (17 * NU3) (fsub o (f_h o it F Qp P) eps) (dt_h E Qp P - eps).
    Proof.
      intros He0 He1. unfold f_h, dt_h. rewrite !(dt_evaluate_crossing E n) by auto.
      destruct (evaluate_near P HP) as [P1 P2], (evaluate_near Qp HQ) as [Q1 Q2].
      set (eP := f_evaluate o it F P) in *. set (eQ := f_evaluate o it F Qp) in *.
      destruct (crossing_bounds E P Hnn) as [B1 B2], (crossing_bounds E Qp Hnn) as [B3 B4]. destruct inv_diff as [I0 I1]. atoms.
      set (cP := crossing E P) in *. set (cQ := crossing E Qp) in *.
      assert (LP := part_length_le vs Hnd P HP). assert (LQ := part_length_le vs Hnd Qp HQ).
      unfold vs in LP, LQ. rewrite seq_length in LP, LQ. apply qn_le in LP, LQ.
      assert (LP0 := qn_nonneg (length P)). assert (LQ0 := qn_nonneg (length Qp)).
      set (lP := qn (length P)) in *. set (lQ := qn (length Qp)) in *.
      assert (NW := NW_ge).
      (* products with a factor below n *)
      assert (Pr : forall l c x e, 0 <= l -> l <= qn n -> 0 <= c -> c <= W -> near (7 * NU2) x c -> e = fmul o l x ->
        near (7 * NU3 + 2 * NU1) e (l * c) /\ 0 <= l * c /\ l * c <= qn n * W).
      { intros l c x e l0 l1 c0 c1 [x1 x2] ->.
        assert (Y1 : 0 <= l * (7 * NU2 - (x - c))) by (apply Qmult_le_0_compat; lra).
        assert (Y2 : 0 <= l * (7 * NU2 - (c - x))) by (apply Qmult_le_0_compat; lra).
        assert (Y3 : 0 <= (qn n - l) * NU2) by (apply Qmult_le_0_compat; lra).
        assert (Y4 : 0 <= l * c) by (apply Qmult_le_0_compat; lra).
        assert (Y5 : 0 <= l * (W - c)) by (apply Qmult_le_0_compat; lra).
        assert (Y6 : 0 <= (qn n - l) * W) by (apply Qmult_le_0_compat; lra).
        assert (Y7 : qn n * NU2 == NU3) by reflexivity.
        assert (Y8 : u * (2 * (qn n * W)) == 2 * NU1) by (unfold NU1; ring).
        destruct (mul_near u o Hu Ho (2 * (qn n * W)) l x) as [M1 M2]; [lra|lra|].
        split; [split; lra|split; lra]. }
      destruct (Pr lP cQ eQ _ LP0 LP B3 ltac:(lra) (conj Q1 Q2) eq_refl) as ([a1 a2] & a3 & a4).
      destruct (Pr lQ cP eP _ LQ0 LQ B1 ltac:(lra) (conj P1 P2) eq_refl) as ([b1 b2] & b3 & b4).
      set (p1 := fmul o lP eQ) in *. set (p2 := fmul o lQ eP) in *.
      assert (Y8 : u * (2 * (qn n * W)) == 2 * NU1) by (unfold NU1; ring).
      assert (Y9 : u * (3 * (qn n * W)) == 3 * NU1) by (unfold NU1; ring).
      destruct (sub_near u o Hu Ho (2 * (qn n * W)) p1 p2) as [S1 S2]; [lra|lra|].
      set (t := fsub o p1 p2) in *.
      assert (X : near (14 * NU3 + 6 * NU1) (t * i) ((lP * cQ - lQ * cP) * i)) by (apply near_scale; auto; split; lra).
      assert (X' : near (qn n * W) ((lP * cQ - lQ * cP) * i) (0 * i)) by (apply near_scale; auto; split; lra).
      destruct X as [X1 X2], X' as [X3 X4].
      destruct (div_near u o Hu Ho (2 * (qn n * W)) t (card_diff P Qp)) as [D1 D2].
      - assert (K := diff_one). lra.
      - unfold Qdiv. fold i. lra.
      - unfold Qdiv. fold i. lra.
      - unfold Qdiv in D1, D2 |- *. fold i in D1, D2 |- *. set (h := fdiv o t (card_diff P Qp)) in *.
        destruct (sub_near u o Hu Ho (3 * (qn n * W)) h eps) as [Z1 Z2]; [lra|lra|]. split; lra.
    Qed.
  End Pair.

  Variables lam lam' : Q.
  Hypothesis Hlam : - W <= lam /\ lam <= W.
  Hypothesis Hlam' : near (15 * NU2) lam' lam.

  Theorem f_run_near : exists m P, f_run o mc lam' F n = Ok (m, P) /\
    is_partition vs P /\ (forall B, In B P -> csorted B) /\
    hval E lam P <= m + 22 * NU3 + (2 * qn n - qn (length P)) * fdelta /\
    forall R, is_partition vs R -> m <= hval E lam R + 22 * NU3 + qn (length R) * fdelta.
  Proof.
    unfold f_run. rewrite (forward_no_loops F n stored_forward). cbv zeta. eexists _, _. split; [reflexivity|].
    apply (f_dil_near u o mc d n E rw W Hu Ho Hd Hmc Hn2 vs Hnd Hlv HE Hs (ordered_forward E n Hf) Hrw HW HW1 H3 Hdn lam lam' Hlam Hlam').
  Qed.
End FloatDT.
