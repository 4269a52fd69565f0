(** * FloatDT: class DT in floating-point arithmetic finds the exact principal sequence. *)
From Coq Require Import Qabs Sorted.
From Verif Require Import Base Spec PartThy SubThy MSets SetsThy MGraph MaxFlow CutThy MDil DilThy
  MDT SeqThy DTThy PSPThy DTTop DilApprox ApproxThy MFloat FloatThy FloatDil.

(** ** Sorting values that are close to a sorted list *)
Definition dnear (e : Q) (x : dbl) (y : Q) : Prop := match x with Fin q => near e q y | _ => False end.

Lemma insert_near e : forall s t x y, Forall2 (dnear e) s t -> dnear e x y -> StronglySorted Qle (y :: t) ->
  Forall2 (dnear e) (insert dltb x s) (y :: t).
Proof.
  induction s as [|z s IH]; intros t x y H Hx Hs.
  - inversion H; subst. simpl. constructor; auto.
  - inversion H as [|? w ? t' Hz Ht]; subst. simpl.
    destruct x as [x| |]; try destruct Hx as [? ?]; try contradiction. destruct z as [z| |]; try contradiction.
    inversion Hs as [|? ? Hs1 Hs2]; subst. inversion Hs2 as [|? ? Hyw _]; subst.
    cbn [dltb dnear] in *. destruct (Qltb z x) eqn:C.
    + apply Qltb_true in C. constructor.
      * cbn. unfold near in *. destruct Hz. split; lra.
      * apply IH; auto. cbn. unfold near in *. destruct Hz. split; lra.
    + constructor; [split; auto|]. constructor; auto.
Qed.

Lemma isort_near e : forall s t, Forall2 (dnear e) s t -> StronglySorted Qle t -> Forall2 (dnear e) (isort dltb s) t.
Proof.
  induction s as [|x s IH]; intros t H Hs; inversion H as [|? y ? t' Hx Ht]; subst; [constructor|].
  change (isort dltb (x :: s)) with (insert dltb x (isort dltb s)). apply insert_near; auto.
  apply IH; auto. inversion Hs; auto.
Qed.

Section DT.
  Variable u : Q.
  Variable o : fops.
  Variable it : graph -> graph.
  Variable mc : solver.
  Variable d : Q.
  Variable n : nat.
  Variable E : graph.
  Variable rw : arc -> Q.
  Variable W : Q.
  Hypothesis Hu : 0 <= u.
  Hypothesis Ho : std_model u o.
  Hypothesis Hit : Permutation (it (stored rw E)) (stored rw E).
  Hypothesis Hd : 0 <= d.
  Hypothesis Hmc : ApproxCutSpec d n mc.
  Hypothesis Hn2 : (2 <= n)%nat.
  Hypothesis HE : graph_on (seq 0 n) E.
  Hypothesis Hs : simple E.
  Hypothesis Hf : forward E.
  Hypothesis Hrw : forall a, In a E -> Qabs (rw a - aw a) <= u * aw a.
  Hypothesis HW : total E <= W.
  Hypothesis HW1 : 1 <= W.
  Variable eps : Q.
  Variable D : positive.
  Hypothesis HD : multiples_of D E.
  Hypothesis Htol : fine_tol D n (2 * eps).
  Hypothesis Heps : 2 * qn n * d + 120 * (qn n * (qn n * (qn n * (u * W)))) < eps.

  Let N3 := NU3 u n W.
  Let F := stored rw E.
  Let vs := seq 0 n.
  Let Hn : (1 <= n)%nat. Proof. lia. Qed.
  Let Hnd : NoDup vs. Proof. apply seq_NoDup. Qed.
  Let Hlen P : is_partition vs P -> qn (length P) <= qn n.
  Proof. intro HP. apply qn_le. assert (L := part_length_le vs Hnd P HP). unfold vs in L. rewrite seq_length in L. auto. Qed.

  Let N3_eps : 2 * (qn n * d) + 120 * N3 < eps.
  Proof. unfold N3, NU3, NU2, NU1. lra. Qed.
  Let N3_nonneg : 0 <= N3.
  Proof. unfold N3, NU3, NU2, NU1. assert (Q := qn_nonneg n). assert (0 <= u * W) by (apply Qmult_le_0_compat; lra). repeat (apply Qmult_le_0_compat; auto). Qed.
  Let nd_nonneg : 0 <= qn n * d.
  Proof. apply Qmult_le_0_compat; auto. apply qn_nonneg. Qed.
  Let eps_half : 2 * eps < 1.
  Proof.
    assert (E0 : 0 <= eps) by lra.
    assert (K := fine_tol_le D n (2 * eps) (2 * eps) 1 Htol ltac:(lra) ltac:(lra) ltac:(lia) ltac:(lia)).
    assert (DD : 1 <= Zpos D # 1) by (unfold Qle; simpl; lia).
    assert (0 <= 2 * eps * ((Zpos D # 1) - 1)) by (apply Qmult_le_0_compat; lra).
    change (inject_Z 1) with 1 in K. lra.
  Qed.
  Let H3 : 240 * NU3 u n W <= 1. Proof. fold N3. lra. Qed.
  Let Hdn : 4 * (qn n * d) <= 1. Proof. lra. Qed.

  Let fd := fdelta u d n W.
  Let fd_n : qn n * fd == qn n * d + 40 * N3.
  Proof. unfold fd, fdelta, N3, NU3. ring. Qed.

  Lemma f_gap Qp P e R1 R2 : is_partition vs Qp -> is_partition vs P -> (length Qp < length P)%nat ->
    0 <= e -> e <= 2 * eps ->
    hval E (dt_gamma E Qp P) R1 - e <= hval E (dt_gamma E Qp P) R2 ->
    hval E (dt_gamma E Qp P) R1 <= hval E (dt_gamma E Qp P) R2.
  Proof. intros. eapply (dt_gap d mc n Hmc eps ltac:(lra) E Hn2 HE D HD Htol); eauto. Qed.

  (** What one evaluation of the test of split tells. *)
  Lemma f_test Qp P : is_partition vs Qp -> is_partition vs P -> (length Qp < length P)%nat ->
    let g := dt_gamma E Qp P in
    near (15 * NU2 u n W) (f_gamma o it F Qp P) g /\
    exists m P', f_run o mc (f_gamma o it F Qp P) F n = Ok (m, P') /\
      optimal E vs g P' /\ (forall B, In B P' -> csorted B) /\
      (if Qltb (fsub o (f_h o it F Qp P) eps) m then hval E g Qp <= hval E g P' else hval E g P' < hval E g Qp).
  Proof.
    intros pQ pP Hl g.
    assert (G1 := gamma_near u o it n E rw W Hu Ho Hit Hn2 HE Hs Hrw HW HW1 H3 Qp P pQ pP Hl).
    assert (G2 := gamma_bounds n E W Hn2 HE HW Qp P pQ pP Hl).
    assert (G3 := h_near u o it n E rw W Hu Ho Hit Hn2 HE Hs Hrw HW HW1 H3 Qp P pQ pP Hl eps ltac:(lra) ltac:(lra)).
    destruct (f_run_near u o mc d n E rw W Hu Ho Hd Hmc Hn2 HE Hs Hf Hrw HW HW1 H3 Hdn (dt_gamma E Qp P) (f_gamma o it F Qp P) G2 G1)
      as (m & P' & Er & pP' & HB & M1 & M2). fold F in G1, G3, Er.
    split; [exact G1|]. exists m, P'. split; [exact Er|].
    assert (GG := f_gap Qp P). fold g in GG. fold N3 in G3, M1, M2. fold fd in M1, M2. fold g in M1, M2.
    assert (Q1 := qn_nonneg n). assert (Q2 := Hlen P' pP'). assert (Q3 := qn_nonneg (length P')).
    assert (F0 : 0 <= fd) by (unfold fd; eapply fdelta_nonneg; eauto).
    assert (Z1 : 0 <= qn (length P') * fd) by (apply Qmult_le_0_compat; auto).
    assert (Z2 : 0 <= (qn n - qn (length P')) * fd) by (apply Qmult_le_0_compat; lra).
    assert (HP' : optimal E vs g P').
    { split; auto. intros R HR. apply (GG (44 * N3 + 3 * (qn n * fd)) P' R pQ pP Hl); [lra|lra|].
      specialize (M2 R HR). assert (L := Hlen R HR).
      assert (0 <= (qn n - qn (length R)) * fd) by (apply Qmult_le_0_compat; lra). lra. }
    split; auto. split; auto.
    assert (Hh := h_value E n HE Qp P pQ pP Hl). fold g in Hh.
    destruct G3 as [G3 G4].
    destruct (Qltb (fsub o (f_h o it F Qp P) eps) m) eqn:Et.
    - apply Qltb_true in Et. apply (GG (eps + 39 * N3 + qn n * fd) Qp P' pQ pP Hl); [lra|lra|]. specialize (M2 P' pP'). lra.
    - apply Qltb_false in Et. lra.
  Qed.

  Theorem f_split_correct : forall fuel (Qp P : cpart) l1 l2,
    optimal E vs l1 Qp -> optimal E vs l2 P -> (length Qp < length P)%nat -> l1 < l2 ->
    (length P - length Qp <= fuel)%nat ->
    exists fs cs ps pin,
      f_split fuel o it mc eps F n Qp P = Ok (fs, ps) /\
      Forall2 (dnear (15 * NU2 u n W)) fs cs /\
      Permutation ps pin /\
      Seg E vs 0 Qp cs pin P /\
      (forall c, In c cs -> l1 <= c /\ c <= l2) /\
      StronglySorted Qle cs.
  Proof.
    induction fuel as [|fuel IH]; intros Qp P l1 l2 HQ HP Hl H12 Hfuel; [lia|].
    cbn [f_split]. destruct (Nat.eqb_spec (length P) (length Qp)) as [C|_]; [lia|]. cbv zeta.
    assert (pQ : is_partition vs Qp) by apply HQ. assert (pP : is_partition vs P) by apply HP.
    destruct (f_test Qp P pQ pP Hl) as (G & m & P' & Er & HP' & HB & Ht). 
    rewrite Er. cbn [bind fst snd]. set (g := dt_gamma E Qp P) in *. set (g' := f_gamma o it F Qp P) in *.
    assert (FQ : fin_at E n false l1 Qp) by (split; [exact HQ|discriminate]).
    assert (FP' : fin_at E n false g P') by (split; [exact HP'|discriminate]).
    destruct (Qltb (fsub o (f_h o it F Qp P) eps) m) eqn:Et; cbn [orb].
    - exists [Fin g'], [g], [], []. split; [reflexivity|]. split; [constructor; [exact G|constructor]|]. split; [constructor|].
      split; [|split].
      + simpl. split; [exact Hl|]. split; [eapply (pair_refines E n HE false); eauto|].
        split; [auto|]. split; [auto|]. split; [apply (gamma_slope E n HE); auto|].
        split; auto. intros R HR. assert (O := proj2 HP' R HR). lra.
      + intros c [<-|[]]. split; [eapply (gamma_lo E n HE false); eauto|eapply (gamma_hi E n HE false); eauto].
      + constructor; constructor.
    - assert (L1 : (length Qp < length P')%nat) by exact (mid_len_lo E n Hn HE false Qp P l1 l2 FQ HP Hl P' FP' Ht).
      assert (L2 : (length P' < length P)%nat) by exact (mid_len_hi E n Hn HE false Qp P l1 l2 FQ HP Hl P' FP' Ht).
      assert (G1 : l1 < g) by exact (mid_lo E n HE false Qp P l1 l2 FQ HP Hl P' FP' Ht).
      assert (G2 : g < l2) by exact (mid_hi E n HE false Qp P l1 l2 FQ HP Hl P' FP' Ht).
      destruct (Nat.eqb_spec (length Qp) (length P')) as [C|_]; [lia|].
      destruct (Nat.eqb_spec (length P) (length P')) as [C|_]; [lia|]. cbn [orb].
      destruct (IH Qp P' l1 g HQ HP' L1 G1) as (fs1 & cs1 & ps1 & pin1 & A1 & A0 & A2 & A3 & A4 & A5); [lia|].
      destruct (IH P' P g l2 HP' HP L2 G2) as (fs2 & cs2 & ps2 & pin2 & B1 & B0 & B2 & B3 & B4 & B5); [lia|].
      rewrite A1. cbn [bind]. rewrite B1. cbn [bind fst snd].
      exists (fs1 ++ fs2), (cs1 ++ cs2), (P' :: ps1 ++ ps2), (pin1 ++ P' :: pin2).
      split; [reflexivity|]. split; [apply Forall2_app; auto|].
      split; [rewrite A2, B2; apply Permutation_middle|].
      split; [eapply Seg_app; eauto|].
      split.
      { intros c Hc. apply in_app_or in Hc. destruct Hc as [Hc|Hc].
        - destruct (A4 c Hc) as [X1 X2]. split; [auto|lra].
        - destruct (B4 c Hc) as [X1 X2]. split; auto. lra. }
      apply StronglySorted_app; auto. intros x y Hx Hy.
      destruct (A4 x Hx) as [_ X2]. destruct (B4 y Hy) as [Y1 _]. lra.
  Qed.

  Theorem f_dt_run_correct : exists fs lams Ps, f_dt_run o it mc eps F n = Ok (fs, Ps) /\
    IsWeakPSP E vs lams Ps /\ slopes E lams Ps /\ Forall2 (dnear (15 * NU2 u n W)) fs lams.
  Proof.
    assert (T0 : 0 <= total E) by (apply qsum_nonneg; exact (graph_on_nonneg _ _ HE)).
    assert (Lv : length vs = n) by apply seq_length.
    assert (OB : optimal E vs (-1) [vs]) by apply (one_block_fin E n Hn HE false).
    destruct (f_split_correct (S n) [vs] (singletons vs) (-1) (total E + 1) OB)
      as (fs & cs & ps & pin & A1 & A0 & A2 & A3 & A4 & A5).
    - apply (singletons_optimal E n Hn HE).
    - simpl. unfold singletons. rewrite map_length, Lv. lia.
    - lra.
    - unfold singletons. rewrite map_length, Lv. simpl. lia.
    - exists (isort dltb fs), cs, ([vs] :: pin ++ [singletons vs]).
      assert (SL := Seg_lengths _ _ _ _ _ _ _ A3).
      split; [|split; [|split]].
      + unfold f_dt_run. change (pfine n) with (singletons vs). change [cdense n] with [vs].
        rewrite A1. unfold bind. cbv beta iota. cbn [fst snd]. f_equal. f_equal.
        apply isort_strict.
        * intros x y. unfold card_ltb. rewrite Nat.ltb_lt, Nat.ltb_ge. lia.
        * rewrite A2. apply perm_skip. rewrite <- Permutation_cons_append. auto.
        * eapply SS_impl; [|exact SL]. simpl. intros x y Hxy. apply Nat.ltb_lt. auto.
      + apply (near_0_full E n). split; [apply same_partition_refl|]. split.
        * assert (Hlast : last ([vs] :: pin ++ [singletons vs]) [vs] = singletons vs).
          { rewrite app_comm_cons. apply last_last. }
          simpl in Hlast. simpl. rewrite Hlast. apply same_partition_refl.
        * apply Seg_chain; auto.
          -- intros R HR. simpl. apply (part_length_pos vs Hnd); auto. unfold vs. destruct n; [lia|discriminate].
          -- intros R HR. unfold singletons. rewrite map_length. apply (part_length_le vs Hnd); auto.
      + apply (Seg_slopes E n 0 cs pin [vs] (singletons vs) A3).
      + apply isort_near; auto.
  Qed.

  (** ** run(partition_num) *)
  Lemma f_split_num_correct (num : nat) : forall fuel (Qp P : cpart) l1 l2,
    optimal E vs l1 Qp -> optimal E vs l2 P -> l1 < l2 ->
    (length Qp < Nat.min num n)%nat -> (Nat.min num n <= length P)%nat ->
    (length P - length Qp <= fuel)%nat ->
    exists M lam, f_split_num fuel o it mc eps F n Qp P num = Ok M /\ optimal E vs lam M /\
      (Nat.min num n <= length M)%nat /\
      forall lam0 R, lam0 < lam -> optimal E vs lam0 R -> (length R <= Nat.min num n)%nat.
  Proof.
    induction fuel as [|fuel IH]; intros Qp P l1 l2 HQ HP H12 Hl1 Hl2 Hfuel; [lia|].
    assert (Hl : (length Qp < length P)%nat) by lia.
    cbn [f_split_num]. destruct (Nat.eqb_spec (length Qp) (length P)) as [C|_]; [lia|]. cbv zeta.
    assert (pQ : is_partition vs Qp) by apply HQ. assert (pP : is_partition vs P) by apply HP.
    destruct (f_test Qp P pQ pP Hl) as (_ & m & P' & Er & HP' & HB & Ht).
    rewrite Er. cbn [bind fst snd]. set (g := dt_gamma E Qp P) in *.
    destruct (Qltb (fsub o (f_h o it F Qp P) eps) m) eqn:Et.
    - exists P, g. split; auto.
      assert (Qopt : optimal E vs g Qp).
      { split; auto. intros R HR. assert (O := proj2 HP' R HR). lra. }
      assert (Popt : optimal E vs g P).
      { split; auto. intros R HR. assert (Y := h_value' E n HE Qp P pQ pP Hl). fold g in Y.
        assert (O := proj2 Qopt R HR). lra. }
      split; auto. split; auto. intros lam0 R L HR.
      assert (K : (length R <= length Qp)%nat).
      { apply (refines_length vs Hnd); [auto|apply HR|]. apply (nested2 E vs Hnd HE lam0 g); auto. }
      lia.
    - assert (FQ : fin_at E n false l1 Qp) by (split; [exact HQ|discriminate]).
      assert (FP' : fin_at E n false g P') by (split; [exact HP'|discriminate]).
      assert (L1 : (length Qp < length P')%nat) by exact (mid_len_lo E n Hn HE false Qp P l1 l2 FQ HP Hl P' FP' Ht).
      assert (L2 : (length P' < length P)%nat) by exact (mid_len_hi E n Hn HE false Qp P l1 l2 FQ HP Hl P' FP' Ht).
      assert (G1 : l1 < g) by exact (mid_lo E n HE false Qp P l1 l2 FQ HP Hl P' FP' Ht).
      assert (G2 : g < l2) by exact (mid_hi E n HE false Qp P l1 l2 FQ HP Hl P' FP' Ht).
      assert (Ln : (length P <= n)%nat).
      { assert (X := part_length_le vs Hnd P pP). unfold vs in X. rewrite seq_length in X. auto. }
      destruct (Nat.eqb_spec (length P') num) as [En|En].
      + exists P', g. split; auto. split; auto. split; [lia|]. intros lam0 R L HR.
        assert (K : (length R <= length P')%nat).
        { apply (refines_length vs Hnd); [apply HP'|apply HR|]. apply (nested2 E vs Hnd HE lam0 g); auto. }
        lia.
      + destruct (Nat.ltb_spec (length P') num) as [Lt|Lt].
        * apply (IH P' P g l2); auto; lia.
        * apply (IH Qp P' l1 g); auto; lia.
  Qed.

  Theorem f_dt_run_num_correct num : (2 <= num)%nat ->
    exists M lam, f_dt_run_num o it mc eps F n num = Ok M /\ optimal E vs lam M /\
      (Nat.min num n <= length M)%nat /\
      forall lam0 R, lam0 < lam -> optimal E vs lam0 R -> (length R <= Nat.min num n)%nat.
  Proof.
    intro Hnum. assert (T0 : 0 <= total E) by (apply qsum_nonneg; exact (graph_on_nonneg _ _ HE)).
    apply (f_split_num_correct num (S n) [vs] (singletons vs) (-1) (total E + 1)).
    - apply (one_block_fin E n Hn HE false).
    - apply (singletons_optimal E n Hn HE).
    - lra.
    - simpl. lia.
    - unfold singletons. rewrite map_length. unfold vs. rewrite seq_length. lia.
    - unfold singletons. rewrite map_length. unfold vs. rewrite seq_length. simpl. lia.
  Qed.
End DT.
