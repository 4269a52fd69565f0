(** * FloatPspRun: PSP_I::split and run() in floating-point arithmetic. *)
From Coq Require Import Qabs Sorted.
From Verif Require Import Base Spec PartThy SubThy MSets SetsThy MGraph MaxFlow CutThy MDil DilThy BFThy
  MDT SeqThy DTThy PSPThy DTTop MContract ContractThy MPSPI TreeThy DecThy PSPIThy PSPILoop
  DilApprox ApproxThy MFloat FloatThy FloatDil FloatDT MFloatP FloatPsp.

Lemma std_mono u u' o : u <= u' -> std_model u o -> std_model u' o.
Proof.
  intros H Ho a b. destruct (Ho a b) as (A & B & C & D).
  assert (M : forall x y, Qabs x <= u * Qabs y -> Qabs x <= u' * Qabs y).
  { intros x y K. eapply Qle_trans; [exact K|]. assert (Z := Qabs_nonneg y).
    assert (0 <= (u' - u) * Qabs y) by (apply Qmult_le_0_compat; lra). lra. }
  repeat split; auto.
Qed.

Lemma near_sym e a b : near e a b -> near e b a.
Proof. intros [A B]. split; auto. Qed.

Definition level_key_dec (x y : Q * graph * list nat) : {x = y} + {x <> y}.
Proof.
  assert (DQ : forall p q : Q, {p = q} + {p <> q}) by (decide equality; [apply Pos.eq_dec|apply Z.eq_dec]).
  assert (DA : forall a b : arc, {a = b} + {a <> b}) by (decide equality; apply Nat.eq_dec).
  decide equality; [apply list_eq_dec, Nat.eq_dec|].
  decide equality. apply list_eq_dec, DA.
Defined.

Section Level.
  Variable v : Q.
  Variable o : fops.
  Variable it : graph -> graph.
  Variable mc : solver.
  Variable d : Q.
  Variable n : nat.
  Variable W : Q.
  Variable eps : Q.
  Variable D : positive.
  Hypothesis Hv : 0 <= v.
  Hypothesis Ho : std_model v o.
  Hypothesis Hit : forall F, graph_on (seq 0 n) F -> Permutation (it F) F.
  Hypothesis Hd : 0 <= d.
  Hypothesis Hmc : ApproxCutSpec d n mc.
  Hypothesis Hn2 : (2 <= n)%nat.
  Hypothesis HW1 : 1 <= W.
  Hypothesis Htol : fine_tol D n (2 * eps).
  Hypothesis Heps : 2 * qn n * d + 120 * NU3 v n W < eps.

  Notation V1 := (NU1 v n W).
  Notation V2 := (NU2 v n W).
  Notation V3 := (NU3 v n W).
  Definition dlt : Q := 15 * V2.

  Let N_two := N_two n Hn2.
  Let U_nonneg := U_nonneg v W Hv HW1.
  Let u_le_U := u_le_U v W Hv HW1.
  Let NU1_ge := NU1_ge v n W Hv Hn2 HW1.
  Let NU2_ge := NU2_ge v n W Hv Hn2 HW1.
  Let NU3_ge := NU3_ge v n W Hv Hn2 HW1.

  Ltac atoms := pose proof N_two as A_N; pose proof U_nonneg as A_U; pose proof u_le_U as A_u;
    pose proof NU1_ge as A_1; pose proof NU2_ge as A_2; pose proof NU3_ge as A_3.

  Lemma nd_nonneg : 0 <= qn n * d.
  Proof. apply Qmult_le_0_compat; auto using qn_nonneg. Qed.

  Lemma eps_pos : 0 < eps.
  Proof. atoms. assert (K := nd_nonneg). lra. Qed.

  Lemma tol_D : 2 * eps * (Zpos D # 1) < 1.
  Proof.
    unfold fine_tol in Htol. atoms. assert (P := eps_pos). set (DD := Zpos D # 1) in *.
    assert (HDD : 0 < DD) by reflexivity.
    assert (0 <= 2 * eps * DD * (qn n - 2)) by (apply Qmult_le_0_compat; [apply Qmult_le_0_compat; lra|lra]). lra.
  Qed.

  Lemma eps_half : eps < 1#2.
  Proof.
    assert (T := tol_D). assert (P := eps_pos). set (DD := Zpos D # 1) in *.
    assert (1 <= DD) by (unfold DD, Qle; simpl; lia).
    assert (0 <= eps * (DD - 1)) by (apply Qmult_le_0_compat; lra). lra.
  Qed.

  Lemma V3_small : 240 * V3 <= 1.
  Proof. assert (K := eps_half). assert (Z := nd_nonneg). lra. Qed.
  Lemma d_small : 4 * (qn n * d) <= 1.
  Proof. assert (K := eps_half). atoms. lra. Qed.

  (** One level: [sb] the exact subgraph on [R0], [sf] the stored one. *)
  Variables (sb sf : graph) (R0 : list nat) (g : Q).
  Hypothesis Hon : graph_on R0 sb.
  Hypothesis Hs : simple sb.
  Hypothesis Hord : ordered sb R0.
  Hypothesis Hnd : NoDup R0.
  Hypothesis HR2 : (2 <= length R0)%nat.
  Hypothesis HRn : (length R0 <= n)%nat.
  Hypothesis Hin : incl R0 (seq 0 n).
  Hypothesis HDb : multiples_of D sb.
  Hypothesis Hg : g * (qn (length R0) - 1) == qsum aw sb.
  Hypothesis HW : total sb <= W.
  Hypothesis Hsf : Forall2 (arel v) sf sb.

  Lemma sb_nonneg : 0 <= qsum aw sb.
  Proof. apply qsum_nonneg. exact (graph_on_nonneg _ _ Hon). Qed.

  Lemma k_pos : 1 <= qn (length R0) - 1.
  Proof. assert (K := qn_le _ _ HR2). change (qn 2) with 2 in K. lra. Qed.

  Lemma g_bounds : 0 <= g /\ g <= W.
  Proof.
    assert (K := k_pos). assert (Z := sb_nonneg). unfold total in HW.
    assert (G0 : 0 <= g).
    { destruct (Qlt_le_dec g 0) as [C|C]; auto. exfalso.
      assert (X : 0 < (- g) * (qn (length R0) - 1)) by (apply Qmult_lt_0_compat; lra). lra. }
    split; auto. assert (0 <= g * (qn (length R0) - 1 - 1)) by (apply Qmult_le_0_compat; lra). lra.
  Qed.

  Lemma sf_on : graph_on (seq 0 n) sf.
  Proof.
    intros a Ha. destruct (Forall2_In_l _ _ _ a Hsf Ha) as (b & B1 & B2 & B3 & B4 & B5).
    destruct (Hon b B1) as (C1 & C2 & C3). rewrite B2, B3. split; auto. split; auto.
    atoms. assert (S3 := V3_small). assert (0 <= (1 - v) * aw b) by (apply Qmult_le_0_compat; lra). lra.
  Qed.

  Lemma weight_near : near (4 * V2 + v * W) (f_weight o it sf) (qsum aw sb).
  Proof.
    unfold f_weight. assert (P1 := Hit sf sf_on). destruct (arel_sum _ _ _ Hsf) as [A B].
    assert (Len := Forall2_len _ _ _ Hsf).
    assert (Ll : (length (it sf) <= n * n)%nat).
    { rewrite (Permutation_length P1), Len. assert (K := simple_length R0 sb Hnd Hon Hs). nia. }
    assert (Hl : forall a, In a (it sf) -> 0 <= aw a).
    { intros a Ha. apply (graph_on_nonneg _ _ sf_on). apply (Permutation_in _ P1). auto. }
    assert (Lc : qsum aw (it sf) == qsum aw sf) by (apply qsum_perm; exact P1).
    set (T := qsum aw sb) in *. set (Tf := qsum aw sf) in *.
    assert (T0 : 0 <= T) by apply sb_nonneg. unfold total in HW. fold T in HW.
    assert (K := fsum_near v o Hv Ho (map aw (it sf)) 0 (2 * W) (n * n)).
    rewrite map_length, (abs_nonneg_sum aw _ Hl), qsum_map in K.
    change (qsum (fun x : arc => aw x) (it sf)) with (qsum aw (it sf)) in K. rewrite Lc in K. change (Qabs 0) with 0 in K.
    atoms. assert (S3 := V3_small).
    assert (C2 : Tf <= 2 * T) by (assert (0 <= (1 - v) * T) by (apply Qmult_le_0_compat; lra); lra).
    specialize (K Ll (small_u v n W Hv Hn2 HW1 S3 _ (le_n _)) ltac:(lra)). destruct K as [K1 K2].
    assert (M : qn (n * n) == qn n * qn n) by (unfold qn; rewrite Nat2Z.inj_mul, inject_Z_mult; reflexivity).
    rewrite M in K1, K2.
    assert (Z : 2 * (qn n * qn n) * v * (2 * W) == 4 * V2) by (unfold NU2, NU1; ring).
    assert (Y : 0 <= v * (W - T)) by (apply Qmult_le_0_compat; lra).
    split; lra.
  Qed.

  Lemma gamma_close : near dlt (f_split_gamma o it sf (length R0)) g.
  Proof.
    unfold f_split_gamma, dlt. destruct weight_near as [A B]. set (w := f_weight o it sf) in *.
    assert (K := k_pos). destruct g_bounds as [G0 G1]. atoms. assert (S3 := V3_small).
    set (k1 := qn (length R0) - 1) in *.
    assert (NZ : ~ k1 == 0) by lra.
    assert (Gq : g == qsum aw sb / k1) by (rewrite <- Hg; field; auto).
    set (i := / k1).
    assert (I0 : 0 <= i) by (apply Qinv_le_0_compat; lra).
    assert (I1 : i <= 1).
    { assert (X : i * k1 == 1) by (unfold i; field; auto).
      assert (0 <= i * (k1 - 1)) by (apply Qmult_le_0_compat; lra). lra. }
    assert (Q1 : near (4 * V2 + v * W) (w * i) (qsum aw sb * i)).
    { set (c := 4 * V2 + v * W) in *. assert (c0 : 0 <= c) by (unfold c; lra).
      assert (0 <= c * (1 - i)) by (apply Qmult_le_0_compat; lra).
      assert (0 <= (c - (w - qsum aw sb)) * i) by (apply Qmult_le_0_compat; lra).
      assert (0 <= (c - (qsum aw sb - w)) * i) by (apply Qmult_le_0_compat; lra).
      split; lra. }
    unfold Qdiv in Gq. fold i in Gq. destruct Q1 as [Q1 Q2]. rewrite <- Gq in Q1, Q2.
    destruct (div_near v o Hv Ho (2 * W) w k1 NZ) as [D1 D2].
    - unfold Qdiv. fold i. lra.
    - unfold Qdiv. fold i. lra.
    - unfold Qdiv in D1, D2. fold i in D1, D2. split; lra.
  Qed.

  Variable gf : Q.
  Hypothesis Hgf : near dlt gf g.

  Let r := f_dil o mc gf sf R0.

  Lemma level_facts : optimal sb R0 g (snd r) /\ (forall B, In B (snd r) -> csorted B) /\
    (fsub o (- gf) eps <= fst r -> - g <= hval sb g (snd r)) /\
    (fst r < fsub o (- gf) eps -> hval sb g (snd r) < - g).
  Proof.
    destruct (arel_stored v sf sb Hsf Hs) as (rw & Hrw & Hrw2).
    destruct g_bounds as [G0 G1].
    destruct (f_dil_near v o mc d n sb rw W Hv Ho Hd Hmc Hn2 R0 Hnd HRn Hon Hs Hord Hrw2 HW HW1 V3_small d_small g gf)
      as (P1 & P2 & P3 & P4).
    { split; lra. }
    { exact Hgf. }
    rewrite <- Hrw in P1, P2, P3, P4.
    unfold r, f_dil. cbv zeta. cbn [fst snd]. set (q := f_loop o mc gf sf R0 [] []) in *.
    set (m := fsum o 0 (map snd (fst q))) in *. set (P := snd q) in *.
    destruct (qsum_multiple aw D sb HDb) as (c & Hc).
    set (dz := (Z.of_nat (length R0) - 1)%Z).
    assert (Gz : g * inject_Z dz == c # D).
    { rewrite <- Hc, <- Hg. unfold dz, Z.sub. rewrite inject_Z_plus. reflexivity. }
    assert (Ep := eps_pos).
    assert (Gap : forall e R1 R2, 0 <= e -> e <= 2 * eps -> hval sb g R1 - e <= hval sb g R2 -> hval sb g R1 <= hval sb g R2).
    { intros e R1 R2 e0 e1. apply (level_gap D sb g c dz e); auto; [unfold dz; lia|].
      apply (fine_tol_le D n (2 * eps)); auto; unfold dz; lia. }
    atoms. assert (Nd := nd_nonneg). assert (Eh := eps_half).
    assert (F0 : 0 <= fdelta v d n W) by (unfold fdelta; lra).
    assert (Fn : qn n * fdelta v d n W == qn n * d + 40 * V3) by (unfold fdelta, NU3; ring).
    assert (LR : forall R, is_partition R0 R -> 0 <= (qn n - qn (length R)) * fdelta v d n W).
    { intros R HR. apply Qmult_le_0_compat; auto. assert (K := part_length_le R0 Hnd R HR).
      assert (K2 : (length R <= n)%nat) by lia. apply qn_le in K2. lra. }
    assert (LP : 0 <= qn (length P) * fdelta v d n W) by (apply Qmult_le_0_compat; auto using qn_nonneg).
    split; [|split; [auto|split]].
    - split; auto. intros R HR. apply (Gap (3 * (qn n * fdelta v d n W) + 44 * V3)); [lra|lra|].
      specialize (P4 R HR). specialize (LR R HR). lra.
    - intro Ht. unfold dlt in Hgf. destruct Hgf as [H1 H2].
      destruct (sub_near v o Hv Ho (3 * W) (- gf) eps) as [S1 S2]; [lra|lra|].
      assert (Hne : R0 <> []) by (intro C; rewrite C in HR2; simpl in HR2; lia).
      assert (V : hval sb g [R0] == - g).
      { unfold hval. change (qn (length [R0])) with 1.
        assert (C : crossing sb [R0] == 0).
        { unfold crossing. apply qsum_zero. intros a Ha. destruct (Hon a Ha) as (A1 & A2 & _).
          assert (K : same_part [R0] (asrc a) (adst a) = true) by (apply same_part_true; exists R0; split; [left; auto|auto]).
          rewrite K. reflexivity. }
        rewrite C. ring. }
      specialize (P4 P P1). specialize (LR P P1).
      assert (K : hval sb g [R0] <= hval sb g P); [|lra].
      apply (Gap (2 * eps)); lra.
    - intro Ht. unfold dlt in Hgf. destruct Hgf as [H1 H2].
      destruct (sub_near v o Hv Ho (3 * W) (- gf) eps) as [S1 S2]; [lra|lra|]. lra.
  Qed.

  (** A truncation that behaves like the floating-point one at this level. *)
  Lemma level_trunc E : exists tr, TruncSpec tr eps (seq 0 n) E /\ snd (tr g sb R0) = snd r /\
    (Qltb (fst r) (fsub o (- gf) eps) = false -> - g - eps <= fst (tr g sb R0)) /\
    ((forall R, optimal sb R0 g R -> refines (snd r) R) -> FinestSpec tr).
  Proof.
    set (here := (if Qltb (fst r) (fsub o (- gf) eps) then - g - eps - 1 else - g - eps, snd r)).
    exists (fun g' sb' R' => if level_key_dec (g', sb', R') (g, sb, R0) then here else dil_run bf_mincut g' sb' R').
    destruct (level_key_dec (g, sb, R0) (g, sb, R0)) as [_|N]; [|contradiction N; auto].
    split; [|split; [reflexivity|split]].
    - intros sb' R' g' H1 H2 H3 H4 H5 H6 H7 H8. cbv zeta.
      destruct (level_key_dec (g', sb', R') (g, sb, R0)) as [EQ|_].
      + injection EQ as -> -> ->. destruct level_facts as (A & B & C & _). unfold here. cbn [fst snd].
        split; auto. split; auto. assert (Ep := eps_pos).
        destruct (Qltb (fst r) (fsub o (- gf) eps)) eqn:T; [intro; lra|]. intros _. apply Qltb_false in T.
        specialize (C T). lra.
      + exact (trunc_of_exact bf_mincut eps (seq 0 n) E bf_mincut_spec sb' R' g' H1 H2 H3 H4 H5 H6 H7 H8).
    - intro T. unfold here. rewrite T. cbn [fst]. lra.
    - intros HF g' sb' R' R H1 H2 H3 H4 H5.
      destruct (level_key_dec (g', sb', R') (g, sb, R0)) as [EQ|_].
      + injection EQ as -> -> ->. apply HF. auto.
      + exact (finest_of_sink bf_mincut bf_minsink_spec g' sb' R' R H1 H2 H3 H4 H5).
  Qed.
End Level.

(** ** Labels *)
Definition lnear (e : Q) (x y : dbl) : Prop :=
  match x, y with
  | Fin a, Fin b => near e a b
  | PInf, PInf => True
  | NaN, NaN => True
  | _, _ => False
  end.

Lemma sub_total E X : nonneg E -> total (sub E X) <= total E.
Proof.
  intro H. unfold total, sub. rewrite qsum_filter. apply qsum_le. intros a Ha. specialize (H a Ha).
  destruct (_ && _); lra.
Qed.

Section Split.
  Variable u : Q.
  Variable o : fops.
  Variable it : graph -> graph.
  Variable mc : solver.
  Variable d : Q.
  Variable n : nat.
  Variable W : Q.
  Variable eps : Q.
  Variable D : positive.
  Variable E : graph.
  Hypothesis Hu : 0 <= u.
  Hypothesis Ho : std_model u o.
  Hypothesis Hit : forall F, graph_on (seq 0 n) F -> Permutation (it F) F.
  Hypothesis Hd : 0 <= d.
  Hypothesis Hmc : ApproxCutSpec d n mc.
  Hypothesis Hn2 : (2 <= n)%nat.
  Hypothesis HE : graph_on (seq 0 n) E.
  Hypothesis HW : total E <= W.
  Hypothesis HW1 : 1 <= W.
  Hypothesis HD : multiples_of D E.
  Hypothesis Htol : fine_tol D n (2 * eps).
  Definition vu : Q := 8 * (qn n * u).
  Hypothesis Heps : 2 * qn n * d + 120 * NU3 vu n W < eps.

  Notation dl := (dlt vu n W).

  Lemma vu_nonneg : 0 <= vu.
  Proof. unfold vu. assert (0 <= qn n * u) by (apply Qmult_le_0_compat; auto using qn_nonneg). lra. Qed.
  Lemma u_le_vu : u <= vu.
  Proof.
    unfold vu. assert (N2 := N_two n Hn2). assert (0 <= (qn n - 2) * u) by (apply Qmult_le_0_compat; lra). lra.
  Qed.
  Let Hv := vu_nonneg.
  Let Hov : std_model vu o := std_mono u vu o u_le_vu Ho.
  Let Ep : 0 < eps := eps_pos vu d n W eps Hv Hd Hn2 HW1 Heps.
  Let HDe : 2 * eps * (Zpos D # 1) < 1 := tol_D vu d n W eps D Hv Hd Hn2 HW1 Htol Heps.

  Lemma vu_small : 16 * (qn n * u) <= 1.
  Proof.
    assert (K := V3_small vu d n W eps D Hv Hd Hn2 HW1 Htol Heps).
    assert (A := u_le_U vu W Hv HW1). assert (B := NU1_ge vu n W Hv Hn2 HW1).
    assert (C := NU2_ge vu n W Hv Hn2 HW1). assert (F := NU3_ge vu n W Hv Hn2 HW1). assert (H0 := vu_nonneg). unfold vu in *. lra.
  Qed.

  Let Hgap : forall X Ps R g,
    incl X (seq 0 n) -> NoDup X -> is_partition X Ps -> is_partition X R -> (2 <= length Ps)%nat ->
    g * (qn (length Ps) - 1) == crossing (sub E X) Ps ->
    - g - eps <= hval (sub E X) g R -> - g - 0 <= hval (sub E X) g R.
  Proof.
    apply (exact_gap_dec D E n eps Ep HD). unfold fine_tol in *. set (DD := Zpos D # 1) in *.
    assert (HDD : 0 < DD) by reflexivity. assert (N2 := N_two n Hn2).
    assert (0 <= eps * DD * (qn n - 1)) by (apply Qmult_le_0_compat; [apply Qmult_le_0_compat; lra|lra]). lra.
  Qed.

  (** The state in floating point and the exact one it stands for. *)
  Record sim (sf sx : pst) : Prop := {
    si_K : pK sf = pK sx;
    si_ch : pch sf = pch sx;
    si_lab : forall c, lnear dl (plab sf c) (plab sx c);
    si_G : gsim u n (pG sf) (pG sx)
  }.

  Lemma sim_Kat sf sx : sim sf sx -> forall c, Kat sf c = Kat sx c.
  Proof. intros H c. unfold Kat. rewrite (si_K _ _ H). auto. Qed.

  Lemma sim_set sf sx kids gf g : sim sf sx -> near dl gf g ->
    sim (set_labels sf kids (Fin gf)) (set_labels sx kids (Fin g)).
  Proof.
    intros [A B C G] Hn. constructor; auto. intro c. cbn [set_labels plab]. destruct (mem kids c); auto.
  Qed.

  Lemma sim_regroup sf sx i S : sim sf sx -> sim (regroup sf i S) (regroup sx i S).
  Proof.
    intros [A B C G]. constructor; auto.
    - unfold regroup, Kat. cbn [pK]. rewrite A, B. auto.
    - unfold regroup, Kat. cbn [pch]. rewrite A, B. auto.
  Qed.

  Let PreX := Pre (seq 0 n) E false eps 0.
  Let PostX := Post (seq 0 n) E false eps 0.

  Lemma Sok_incl G p : Sok (seq 0 n) E eps G p -> incl (gnodes G) (seq 0 n).
  Proof. intros H v Hin. apply (S_img _ _ _ _ _ H) in Hin. destruct Hin as (x & Hx & <-). apply (S_p _ _ _ _ _ H). auto. Qed.

  Section At.
    Variable s : bool.
    Variables (Gf Gx : gst) (p : nat -> nat) (X : list nat) (ts : list ht) (beta : Q).
    Hypothesis Hsim : gsim u n Gf Gx.
    Hypothesis HP : Pre (seq 0 n) E s eps 0 Gx p X ts beta.

    Let sb := lv_sub Gx ts.
    Let sbf := sub_arcs Gf (map hrep ts).
    Let R0 := enabled Gx (map hrep ts).
    Let g := lv_gamma Gx ts.
    Let gf := f_split_gamma o it sbf (length ts).

    Lemma at_R0 : enabled Gf (map hrep ts) = R0.
    Proof. unfold R0, enabled. rewrite (proj1 Hsim). auto. Qed.

    Lemma at_len : length R0 = length ts.
    Proof. destruct HP as (H1 & H2 & _). eapply R0_length; eauto. Qed.

    Lemma at_arcs : Forall2 (arel vu) sbf sb.
    Proof.
      destruct HP as (H1 & H2 & H3 & _). destruct Hsim as [_ HF].
      assert (L1 : (1 <= length (gnodes Gx))%nat).
      { assert (K := at_len). unfold R0, enabled in K.
        destruct (gnodes Gx); [simpl in K; lia|simpl; lia]. }
      assert (T := gtol_le u n Hu Hn2 _ L1).
      apply (Forall2_impl_in (arel (gtol u n (length (gnodes Gx)))) (arel vu)).
      - intros a b _ Hb. apply arel_mono; auto. apply filter_In in Hb.
        destruct (Gok_arcs _ _ (S_ok _ _ _ _ _ H1) b (proj1 Hb)) as (_ & _ & _ & K). lra.
      - apply arel_filter; auto. intros a b A B. rewrite A, B. auto.
    Qed.

    Lemma at_total : total sb <= W.
    Proof.
      destruct HP as (H1 & H2 & H3 & _). unfold total.
      assert (K := total_sb (seq 0 n) E HE s eps 0 Gx p H1 X ts H2 H3).
      fold (lv_sub Gx ts) in K. fold sb in K. rewrite K.
      assert (N : nonneg E) by exact (graph_on_nonneg _ _ HE).
      assert (N2 : nonneg (sub E X)) by (intros a Ha; apply N; apply filter_In in Ha; tauto).
      destruct (crossing_bounds (sub E X) (map hset ts) N2). assert (Z := sub_total E X N). lra.
    Qed.

    Lemma at_slope : g * (qn (length R0) - 1) == qsum aw sb.
    Proof.
      destruct HP as (H1 & H2 & H3 & _). rewrite at_len.
      assert (K := total_sb (seq 0 n) E HE s eps 0 Gx p H1 X ts H2 H3).
      assert (K2 := gamma_eq (seq 0 n) E HE s eps 0 Gx p H1 X ts H2 H3).
      unfold g, lv_gamma, sb, lv_sub. rewrite K2, K. reflexivity.
    Qed.

    Lemma at_level : near dl gf g /\
      exists tr, TruncSpec tr eps (seq 0 n) E /\
        snd (lv_dil tr Gx ts) = snd (f_dil o mc gf sbf R0) /\
        (Qltb (fst (f_dil o mc gf sbf R0)) (fsub o (- gf) eps) = false -> - g - eps <= fst (lv_dil tr Gx ts)) /\
        ((forall R, optimal sb R0 g R -> refines (snd (lv_dil tr Gx ts)) R) -> FinestSpec tr) /\
        (Qltb (fst (f_dil o mc gf sbf R0)) (fsub o (- gf) eps) = true -> hval sb g (snd (lv_dil tr Gx ts)) < - g).
    Proof.
      destruct HP as (H1 & H2 & H3 & _).
      assert (A1 : graph_on R0 sb) by (eapply sb_on; eauto).
      assert (A2 : simple sb) by (eapply sb_simple; eauto).
      assert (A3 : ordered sb R0) by (eapply sb_ordered; eauto).
      assert (A4 : NoDup R0) by (eapply R0_NoDup; eauto).
      assert (A5 := at_len).
      assert (A6 : (length R0 <= n)%nat).
      { assert (K := k_le (seq 0 n) E s eps 0 Gx p H1 X ts H2). rewrite seq_length in K. exact K. }
      assert (A7 : incl R0 (seq 0 n)).
      { intros x Hx. apply (Sok_incl _ _ H1). unfold R0, enabled in Hx. apply filter_In in Hx. tauto. }
      assert (A8 : multiples_of D sb) by (eapply sb_multiples; eauto).
      assert (L2 : (2 <= length R0)%nat) by lia.
      assert (Gc : near dl gf g).
      { unfold gf. rewrite <- A5. apply (gamma_close vu o it d n W eps D Hv Hov Hit Hd Hn2 HW1 Htol Heps sb sbf R0 g A1 A2 A4 L2 A6 A7 at_slope at_total at_arcs). }
      split; auto.
      destruct (level_trunc vu o mc d n W eps D Hv Hov Hd Hmc Hn2 HW1 Htol Heps sb sbf R0 g A1 A2 A3 A4 L2 A6 A8 at_slope at_total at_arcs gf Gc E)
        as (tr & T1 & T2 & T3 & T4).
      exists tr. change (lv_dil tr Gx ts) with (tr g sb R0). rewrite T2. split; auto. split; auto. split; auto. split; auto.
      intro T. apply Qltb_true in T.
      apply (level_facts vu o mc d n W eps D Hv Hov Hd Hmc Hn2 HW1 Htol Heps sb sbf R0 g A1 A2 A3 A4 L2 A6 A8 at_slope at_total at_arcs gf Gc). auto.
    Qed.
  End At.

  Theorem f_psp_split_correct : forall fuel sf sx i p X ts beta, sim sf sx ->
    (length ts <= fuel)%nat -> PreX (pG sx) p X ts beta -> Forall2 (trep sx) (pch sx i) ts ->
    (i < length (pK sx))%nat -> Kat sx i = X ->
    exists sf' sx' p' g ts', f_psp_split fuel o it mc eps sf i = Ok sf' /\ sim sf' sx' /\
      PostX p X ts beta (pG sx') p' g ts' /\ trep sx' i (HT X g ts') /\ Frame sx i sx'.
  Proof.
    induction fuel as [|fuel IH]; intros sf st i p X ts beta Hsim Hfuel HP HF Hi HK.
    - destruct HP as (_ & _ & H2 & _). lia.
    - assert (H2 : (2 <= length ts)%nat) by apply HP.
      assert (Hhok : forall t, In t ts -> hok E false 0 t) by (apply (T_hok _ _ _ _ _ _ _ (proj1 (proj2 HP)))).
      destruct (at_level false (pG sf) (pG st) p X ts beta (si_G _ _ Hsim) HP) as (Hgc & tr & Htr & Hsnd & Hfst & _).
      assert (EK : forall l, forallb (K_ok sf) l = forallb (K_ok st) l).
      { intro l. induction l as [|c l IHl]; simpl; auto. rewrite IHl. unfold K_ok, Kat. rewrite (si_K _ _ Hsim). auto. }
      assert (ER : forall l, reps_of sf l = reps_of st l).
      { intro l. unfold reps_of. apply map_ext. intro c. rewrite (sim_Kat _ _ Hsim). auto. }
      cbn [f_psp_split]. rewrite (si_ch _ _ Hsim), EK, ER, (K_ok_all E false 0 st _ ts HF Hhok). cbn [negb].
      rewrite (reps_of_hrep st _ ts HF), (Forall2_len _ _ _ HF), (at_R0 (pG sf) (pG st) ts (si_G _ _ Hsim)).
      set (gf := f_split_gamma o it (sub_arcs (pG sf) (map hrep ts)) (length ts)) in *.
      set (rf := f_dil o mc gf (sub_arcs (pG sf) (map hrep ts)) (enabled (pG st) (map hrep ts))) in *.
      assert (Leaf : (length ts = 2%nat \/ length (snd (lv_dil tr (pG st) ts)) = 1%nat \/
          length (snd (lv_dil tr (pG st) ts)) = length ts \/
          - lv_gamma (pG st) ts - eps <= fst (lv_dil tr (pG st) ts)) ->
        exists sf' sx' p' g ts', Ok (set_labels sf (pch st i) (Fin gf)) = Ok sf' /\ sim sf' sx' /\
          PostX p X ts beta (pG sx') p' g ts' /\ trep sx' i (HT X g ts') /\ Frame st i sx').
      { intro Hc. destruct (trep_leaf (seq 0 n) E false eps 0 st i ts X (lv_gamma (pG st) ts) p beta HP HF Hi HK) as [A1 A2].
        eexists _, _, p, _, ts. split; [reflexivity|]. split; [apply sim_set; eauto|]. split; [|split; eauto].
        apply (lv_leaf (seq 0 n) E HE tr false eps Ep Htr 0 Hgap (pG st) p X ts beta HP Hc). }
      change (f_split_gamma o it (sub_arcs (pG sf) (map hrep ts)) (length ts)) with gf. fold rf.
      destruct (length ts) as [|[|k]] eqn:Ek; [lia|lia|].
      destruct (S (S k) =? 2)%nat eqn:K2.
      { apply Nat.eqb_eq in K2. apply Leaf. auto. }
      rewrite <- Hsnd.
      destruct (negb (negb (length (snd (lv_dil tr (pG st) ts)) =? 1)%nat &&
                      negb (length (snd (lv_dil tr (pG st) ts)) =? S (S k))%nat &&
                      Qltb (fst rf) (fsub o (- gf) eps))) eqn:Hc.
      { apply Leaf. rewrite negb_true_iff in Hc.
        apply andb_false_iff in Hc. destruct Hc as [Hc|Hc].
        - apply andb_false_iff in Hc. destruct Hc as [Hc|Hc]; apply negb_false_iff, Nat.eqb_eq in Hc; auto.
        - apply Hfst in Hc. auto. }
      clear Leaf. apply negb_false_iff, andb_true_iff in Hc. destruct Hc as [Hc _].
      apply andb_true_iff in Hc. destruct Hc as [Hc1 Hc2].
      apply negb_true_iff, Nat.eqb_neq in Hc1. apply negb_true_iff, Nat.eqb_neq in Hc2.
      clear Hfst Hsnd. clearbody rf gf.
      set (P' := snd (lv_dil tr (pG st) ts)) in *.
      set (body := fun (st : pst) (S : list nat) => _).
      assert (Hlen : length P' <> 1%nat) by auto.
      assert (Loop : forall Pr Pd sf1 st1 q tc, sim sf1 st1 -> FInv (seq 0 n) E tr false eps 0 (pG st) p X ts Pd Pr (pG st1) q tc ->
        Cur st i X st1 tc ->
        exists sf2 st2 q2 tc2, foldm body Pr sf1 = Ok sf2 /\ sim sf2 st2 /\
          FInv (seq 0 n) E tr false eps 0 (pG st) p X ts P' [] (pG st2) q2 tc2 /\ Cur st i X st2 tc2).
      { induction Pr as [|S Pr IHl]; intros Pd sf1 st1 q tc Hs1 HFI HC.
        - exists sf1, st1, q, tc. split; [reflexivity|]. split; auto. split; auto.
          assert (K := F_split _ _ _ _ _ _ _ _ _ _ _ _ _ _ _ HFI).
          rewrite app_nil_r in K. subst Pd. exact HFI.
        - cbn [foldm]. unfold body at 1. cbv beta.
          destruct (length S =? 1)%nat eqn:LS.
          + apply Nat.eqb_eq in LS. cbn [bind].
            apply (IHl (Pd ++ [S]) sf1 st1 q tc); auto.
            eapply (lv_single (seq 0 n) E HE tr false eps Ep Htr 0 (pG st) p X ts beta HP Hlen); eauto.
          + apply Nat.eqb_neq in LS.
            destruct (regroup_ok (seq 0 n) E HE tr false eps Ep Htr 0 st i p X ts beta HP Hlen st1 tc Pd S Pr q HFI HC LS)
              as (A1 & A2 & A3 & (rest & A4 & A5 & A6) & A7 & A8 & A9 & A10 & A11).
            assert (Hs2 := sim_regroup sf1 st1 i S Hs1).
            rewrite (si_K _ _ Hs1).
            set (sn := length (pK st1)) in *. set (st2 := regroup st1 i S) in *.
            assert (HSP := lv_in _ _ _ _ _ _ _ _ _ _ _ _ _ _ _ _ HFI).
            assert (Pm : Permutation (filter (fun t => mem S (hrep t)) tc)
                           (rev (filter (fun t => mem S (hrep t)) tc))) by apply Permutation_rev.
            assert (HPre : PreX (pG st2) q (lift p X S) (rev (filter (fun t => mem S (hrep t)) tc)) beta).
            { rewrite A10. eapply Pre_perm; [exact Pm|].
              eapply (lv_pre (seq 0 n) E HE tr false eps Ep Htr 0 (pG st) p X ts beta HP Hlen); eauto. }
            assert (Hsz : (length (rev (filter (fun t => mem S (hrep t)) tc)) <= fuel)%nat).
            { rewrite rev_length, (F_todo _ _ _ _ _ _ _ _ _ _ _ _ _ _ _ HFI S (or_introl eq_refl)).
              assert (K := lv_lt (seq 0 n) E HE tr false eps Ep Htr 0 (pG st) p X ts beta HP Hlen S HSP).
              destruct HP as (H1 & HT0 & H2' & _).
              rewrite (moved_length (seq 0 n) E HE tr false eps Ep Htr 0 (pG st) p H1 X ts HT0 H2' S HSP). lia. }
            destruct (IH (regroup sf1 i S) st2 sn q (lift p X S) _ beta Hs2 Hsz HPre A3 A1 A2)
              as (sf3 & st3 & q3 & gs & ms & B1 & Hs3 & B2 & B3 & B4).
            rewrite B1. cbn [bind].
            assert (B2' := Post_perm (seq 0 n) E false eps 0 _ _ _ _ _ _ _ _ _ Pm B2).
            set (st4 := mkP (contract eps (pG st3) S (hd 0%nat S)) (pK st3) (pch st3) (plab st3)).
            assert (HFI' := lv_post (seq 0 n) E HE tr false ltac:(discriminate) eps Ep Htr 0 (pG st) p X ts beta HP Hlen
                       Pd S Pr (pG st1) q tc (pG st3) q3 gs ms HFI LS B2').
            destruct (lv_live (seq 0 n) E HE tr false ltac:(discriminate) eps Ep Htr 0 (pG st) p X ts beta HP Hlen
                       Pd S Pr (pG st1) q tc (pG st3) q3 gs ms HFI LS B2') as [Live1 Live2].
            assert (Hs4 : sim (mkP (f_contract o it eps (pG sf3) S (hd 0%nat S)) (pK sf3) (pch sf3) (plab sf3)) st4).
            { constructor; cbn [pK pch plab pG st4]; try apply Hs3.
              assert (SO : Sok (seq 0 n) E eps (pG st3) q3) by apply B2.
              destruct (lv_hd (seq 0 n) E HE tr false eps Ep Htr 0 (pG st) p X ts beta HP Hlen S HSP) as (_ & HdS & _).
              apply (contract_sim u o it n eps D Hu Ho Ep Hn2 Hit vu_small HDe (pG sf3) (pG st3) S (hd 0%nat S)
                       (S_ok _ _ _ _ _ SO) (Sok_incl _ _ SO) (live_multiples _ _ _ _ _ SO D HD) (si_G _ _ Hs3) HdS Live1 Live2). }
            change (contract eps (pG st3) S (hd 0%nat S)) with (pG st4) in HFI'.
            apply (IHl _ _ st4 _ _ Hs4 HFI').
            assert (Hin : i <> sn) by (unfold sn; destruct HC as [_ C2 _ _]; lia).
            assert (Hi3 : pch st3 i = sn :: rest).
            { rewrite (Fr_ch _ _ _ B4) by auto. auto. }
            assert (HTc := F_T _ _ _ _ _ _ _ _ _ _ _ _ _ _ _ HFI).
            assert (HTc' := F_T _ _ _ _ _ _ _ _ _ _ _ _ _ _ _ HFI').
            constructor.
            * cbn [pch st4]. unfold st4. cbn [pch]. rewrite Hi3. constructor; [apply trep_pG; auto|].
              eapply Forall2_impl_in; [|exact A6]. intros c t Hc Ht Hct. apply trep_pG.
              assert (Ht' := Ht). apply filter_In in Ht'. destruct Ht' as [T1 T2].
              assert (Dj : forall x, In x (lift p X S) -> ~ In x (hset t)).
              { intros x X1 X2. apply negb_true_iff, mem_false in T2. apply T2.
                eapply Permutation_in in X1.
                - assert (PT := T_part _ _ _ _ _ _ _ HTc'). simpl in PT.
                  apply part_NoDup in PT; [|apply csorted_NoDup; apply (T_sorted _ _ _ _ _ _ _ HTc)].
                  simpl in PT. apply NoDup_app_inv in PT. destruct PT as (_ & _ & PT).
                  exfalso. apply (PT x X1). apply in_concat. exists (hset t). split; auto. apply in_map; auto.
                - apply Permutation_refl. }
              apply (trep_frame E false 0 st2 st3 t (T_hok _ _ _ _ _ _ _ HTc t T1) c Hct).
              -- apply (Fr_len _ _ _ B4).
              -- intros d' D1 D2. split; [apply (Fr_K _ _ _ B4); auto|].
                 apply (Fr_ch _ _ _ B4); auto. intro C. subst d'. rewrite A2 in D2.
                 apply (disjoint_not_incl (lift p X S) (hset t)); auto.
                 destruct (lv_hd (seq 0 n) E HE tr false eps Ep Htr 0 (pG st) p X ts beta HP Hlen S HSP) as (_ & _ & K).
                 intro C. rewrite C in K. destruct K.
              -- intros d' D1 D2 _. apply (Fr_lab _ _ _ B4); auto. intro C.
                 destruct (Forall2_In_l _ _ _ d' A3 C) as (w & U1 & U2).
                 apply in_rev in U1. apply trep_inv in U2. destruct U2 as (_ & U2 & _).
                 rewrite U2 in D2.
                 assert (U3 := U1). apply filter_In in U3. destruct U3 as [U3 _].
                 assert (Hne : hset w <> []) by (eapply hok_nonempty; apply (T_hok _ _ _ _ _ _ _ HTc w U3)).
                 apply (Dj (hd 0%nat (hset w))).
                 ++ eapply lv_union; eauto. apply in_concat. exists (hset w).
                    split; [apply in_map; auto|apply hd_In; auto].
                 ++ apply D2. apply hd_In; auto.
            * unfold st4. cbn [pK]. assert (L := Fr_len _ _ _ B4). lia.
            * unfold st4. change (Kat st3 i = X). rewrite (Fr_K _ _ _ B4); auto.
            * destruct A9 as [F1 F2 F3 F4 F5]. destruct B4 as [G1 G2 G3 G4 G5].
              assert (L0 : (length (pK st) <= sn)%nat).
              { unfold sn. destruct HC as [_ _ _ [L _ _ _ _]]. auto. }
              unfold st4. constructor; cbn [pK pch plab].
              -- lia.
              -- intros c Hc. change (Kat st3 c = Kat st c). rewrite G2 by lia. auto.
              -- intros c Hc N. rewrite G3 by lia. auto.
              -- intros c Hc N. rewrite G4; [auto|lia|]. intro C. apply A11 in C.
                 destruct HC as [_ _ _ [_ _ _ _ K]]. destruct (K c C); [auto|lia].
              -- intros c Hc. rewrite Hi3 in Hc. destruct Hc as [<-|Hc]; [right; auto|].
                 apply A5 in Hc. destruct HC as [_ _ _ [_ _ _ _ K]]. apply K; auto. }
      destruct (Loop P' [] sf st p ts) as (sf2 & st2 & q2 & tc2 & L1 & Ls & L2 & L3); auto.
      { eapply (lv_start (seq 0 n) E HE tr false eps Ep Htr 0 (pG st) p X ts beta HP); eauto. }
      { constructor; auto. apply Frame_refl. }
      rewrite L1. cbn [bind].
      destruct (lv_final_pre (seq 0 n) E HE tr false eps Ep Htr 0 (pG st) p X ts beta HP Hlen (pG st2) q2 tc2 L2)
        as (M1 & M2 & M3 & M4).
      assert (Hle := lv_le (seq 0 n) E HE tr false eps Ep Htr 0 (pG st) p X ts beta HP).
      fold P' in Hle, M2.
      destruct (IH sf2 st2 i q2 X tc2 (lv_gamma (pG st) ts)) as (sf3 & st3 & q3 & g3 & ts3 & N1 & Ns & N2 & N3 & N4); auto.
      + lia.
      + apply (C_rep _ _ _ _ _ L3).
      + apply (C_i _ _ _ _ _ L3).
      + apply (C_K _ _ _ _ _ L3).
      + exists sf3, st3, q3, g3, ts3. split; auto. split; auto. split; [|split; auto].
        * eapply (lv_final_post (seq 0 n) E HE tr false eps Ep Htr 0 (pG st) p X ts beta HP Hlen); eauto.
        * eapply Frame_trans; [apply (C_fr _ _ _ _ _ L3)|auto].
  Qed.
End Split.
