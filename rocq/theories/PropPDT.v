(** * PropPDT: properties of the parametric solver (psp/pmf.cpp): C25-C28 and C47. *)
From Coq Require Import Sorted.
From Verif Require Import Base Graph Spec PartThy SubThy MSets SetsThy MGraph MaxFlow MDil CutThy DilThy BFThy
  MDT SeqThy DTThy PSPThy DTTop PropDil PropDT MPMF LamThy ParThy SliceThy PDTThy.

(** ** C25: the piecewise-linear equation *)

(** The left-hand side, stated with the minimum: sum of min(a_i - lambda, b_i). *)
Definition min_sum (ps : list (Q * dbl)) (lam : Q) (v : Q) : Prop :=
  exists vs, Forall2 (fun p v => match snd p with
                                 | Fin b => (v == fst p - lam \/ v == b) /\ v <= fst p - lam /\ v <= b
                                 | _ => v == fst p - lam
                                 end) ps vs /\ qsum (fun x => x) vs == v.

Lemma min_sum_ysum ps lam v : min_sum ps lam v <-> ysum ps lam == v.
Proof.
  assert (A : forall vs, Forall2 (fun p v => match snd p with
      | Fin b => (v == fst p - lam \/ v == b) /\ v <= fst p - lam /\ v <= b
      | _ => v == fst p - lam end) ps vs -> qsum (fun x => x) vs == ysum ps lam).
  { unfold ysum. induction ps as [|p ps IH]; intros vs H; inversion H as [|? w ? vs' H1 H2]; subst; [reflexivity|].
    cbn [qsum]. rewrite (IH vs' H2). assert (w == ycap p lam); [|lra].
    unfold ycap. destruct p as [a [b| |]]; cbn [fst snd] in *; auto.
    destruct (Qltb b (a - lam)) eqn:Eb; [apply Qltb_true in Eb|apply Qltb_false in Eb];
      destruct H1 as ([H1|H1] & H3 & H4); lra. }
  split.
  - intros (vs & H1 & H2). rewrite <- (A vs H1). auto.
  - intro H. exists (map (fun p => ycap p lam) ps). split; [|rewrite qsum_map; exact H].
    clear. induction ps as [|p ps IH]; simpl; constructor; auto.
    unfold ycap. destruct p as [a [b| |]]; cbn [fst snd]; try reflexivity.
    destruct (Qltb b (a - lam)) eqn:Eb; [apply Qltb_true in Eb|apply Qltb_false in Eb];
      (split; [|split]; [first [left; reflexivity|right; reflexivity]|lra|lra]).
Qed.

Definition all_finite (ps : list (Q * dbl)) (s : Q) : Prop :=
  exists bs, map snd ps = map Fin bs /\ qsum (fun x => x) bs == s.

Definition no_nan (ps : list (Q * dbl)) : Prop := forall p, In p ps -> snd p <> NaN.

Lemma all_finite_int ps : no_nan ps -> infinity_count ps = 0%nat -> all_finite ps (yint ps).
Proof.
  unfold infinity_count, yint. induction ps as [|[a [b| |]] ps IH]; intros Hn H; cbn in H; try discriminate.
  - exists []. split; reflexivity.
  - destruct IH as (bs & B1 & B2); [intros p Hp; apply Hn; right; auto|exact H|].
    exists (b :: bs). cbn [map snd qsum fst]. rewrite B1. split; auto. rewrite B2. reflexivity.
Qed.

Lemma compute_lambda_spec eps ps target :
  0 <= eps -> ps <> [] -> no_nan ps ->
  (exists l v, compute_lambda eps ps target = Ok (Some l) /\ min_sum ps l v /\
     v <= target + eps /\ target <= v + eps) \/
  (compute_lambda eps ps target = Throw /\ exists s, all_finite ps s /\ s + eps < target).
Proof.
  intros He Hp Hn. destruct (compute_lambda_cases eps ps target He Hp) as [(A & B & C)|(l & A & B)].
  - right. split; auto. exists (yint ps). split; auto. apply all_finite_int; auto.
  - left. exists l, (ysum ps l). split; auto. split; [apply min_sum_ysum; reflexivity|].
    destruct B as [(k & s & p & B1 & _)|(_ & B1 & B2)]; lra.
Qed.

Theorem C25_compute_lambda : forall eps ps target,
  0 <= eps -> ps <> [] -> no_nan ps ->
  (exists l v, compute_lambda eps ps target = Ok (Some l) /\ min_sum ps l v /\
     v <= target + eps /\ target <= v + eps) \/
  (compute_lambda eps ps target = Throw /\ exists s, all_finite ps s /\ s + eps < target).
Proof. exact compute_lambda_spec. Qed.
Print Assumptions C25_compute_lambda.

(** Conversely an unreachable target is always reported. *)
Lemma compute_lambda_unreachable eps ps target s :
  0 <= eps -> ps <> [] -> all_finite ps s -> s + eps < target ->
  compute_lambda eps ps target = Throw.
Proof.
  intros He Hp (bs & B1 & B2) Hs.
  destruct (compute_lambda_cases eps ps target He Hp) as [(A & B & C)|(l & A & B)]; auto.
  exfalso.
  assert (I : infinity_count ps = 0%nat /\ yint ps == s).
  { rewrite <- B2. clear -B1. unfold infinity_count, yint. revert bs B1.
    induction ps as [|[a d] ps IH]; intros [|b bs] H; try discriminate; [split; reflexivity|].
    cbn in H. injection H as -> H. destruct (IH bs H) as [I1 I2]. cbn [filter snd length qsum fst].
    split; auto. rewrite I2. reflexivity. }
  destruct I as [I1 I2]. assert (L := ysum_le_int ps l I1).
  destruct B as [(k & s' & p & K1 & _)|(_ & K1 & K2)]; lra.
Qed.

Theorem C25_compute_lambda_unreachable : forall eps ps target s,
  0 <= eps -> ps <> [] -> all_finite ps s -> s + eps < target ->
  compute_lambda eps ps target = Throw.
Proof. exact compute_lambda_unreachable. Qed.
Print Assumptions C25_compute_lambda_unreachable.

(** Three parameters, one infinite: min(5-x,2) + min(3-x,3) + (4-x) = 1 at x = 11/3. *)
Definition ex25 : list (Q * dbl) := [(5, Fin 2); (3, Fin 3); (4, PInf)].
Example C25_nonvacuous :
  ex25 <> [] /\ no_nan ex25 /\
  match compute_lambda tol ex25 1 with Ok (Some l) => Qred l = 11 # 3 | _ => False end /\
  compute_lambda tol [(5, Fin 2); (3, Fin 3)] 6 = Throw.
Proof.
  split; [discriminate|]. split; [|split; vm_compute; reflexivity].
  intros p [<-|[<-|[<-|[]]]]; discriminate.
Qed.

(** ** C26: parametric minimum cuts at one stage *)

(** Value of a node set X at stage [j]: weight entering X + {j}, minus the parameters of the nodes
    of X below [j]. *)
Definition stage_value (E : graph) (j : nat) (y : list (Q * dbl)) (lam : Q) (X : list nat) : Q :=
  get_cut_value E (j :: X) - qsum (fun u => ycap (yat y u) lam) (filter (fun u => mem X u) (seq 0 j)).

Lemma stage_gval E j y lam X : stage_value E j y lam X == gval E j y lam (mem X).
Proof.
  unfold stage_value, gval, fj, vs. rewrite qsum_filter.
  assert (A : get_cut_value E (j :: X) == incut E (fun x => (x =? j)%nat || mem X x)).
  { change (get_cut_value E (j :: X)) with (incut E (mem (j :: X))). apply incut_ext. intro x.
    unfold mem. simpl. reflexivity. }
  rewrite A. reflexivity.
Qed.

(** Bands: set number i is used from threshold i-1 (the initial lambda for i=0) up to threshold i
    (no upper end for the last). *)
Fixpoint in_bands (Pr : Q -> list nat -> Prop) (lo : Q) (lams : list Q) (sets : list (list nat)) : Prop :=
  match lams, sets with
  | [], [T] => forall lam, lo <= lam -> Pr lam T
  | l :: lams', T :: sets' =>
      lo < l /\ (forall lam, lo <= lam -> lam <= l -> Pr lam T) /\ in_bands Pr l lams' sets'
  | _, _ => False
  end.

Fixpoint strict_supersets (sets : list (list nat)) : Prop :=
  match sets with
  | A :: ((B :: _) as r) => incl B A /\ (length B < length A)%nat /\ strict_supersets r
  | _ => True
  end.

Section C26.
  Variable mc : solver.
  Hypothesis Hmc : MinSinkCutSpec mc.
  Variable eps : Q.
  Hypothesis Heps : 0 < eps.
  Variable E : graph.
  Variable n j : nat.
  Hypothesis Hjn : (j < n)%nat.
  Hypothesis HE : graph_on (seq 0 n) E.
  Hypothesis Hs : simple E.
  Hypothesis Hf : forward E.
  Hypothesis Hw : forall a, In a E -> eps <= aw a.
  Variable y : list (Q * dbl).
  Variable M : positive.
  Hypothesis HyM : forall u, (u < j)%nat -> pmult M (yat y u).
  Hypothesis HfM : multiples_of M E.
  Hypothesis HiM : mult M init_lambda.
  Hypothesis HeM : 10 * eps * inject_Z (Zpos (M * factP j)) < 1.

  Let yf := fun u l => ycap (yat y u) l.

  Lemma band_min T0 rest t lam X :
    lmin E j y init_lambda T0 -> cch E j y M init_lambda T0 rest [j] PInf ->
    init_lambda <= lam -> act lam (cbands T0 rest) t ->
    win (seq 0 j) j X -> gval E j y lam (mem t) <= gval E j y lam X.
  Proof.
    intros R2 R4 Hl HA HX.
    destruct (cbands_act E j y M rest T0 init_lambda PInf lam t R4 (lm_sorted _ _ _ _ _ R2)
                (lm_j _ _ _ _ _ R2) HA) as (B1 & B2 & B3).
    assert (HN : ~ In j (seq 0 j)) by (rewrite in_seq; lia).
    destruct (z_ok (incut E) (incut_ext E) (fun A B _ => incut_sub E A B (graph_on_nonneg _ _ HE))
               (seq 0 j) j HN yf (fun u l l' => ycap_anti (yat y u) l l')
               (nrest rest) (mem T0) init_lambda lam (mem t)) as (Z1 & Z2 & Z3 & Z4); auto.
    { apply R2. }
    { apply (cch_pchain E j y M rest init_lambda T0 PInf R4). }
    { apply min_up; auto. }
    unfold gval. specialize (Z1 X HX).
    set (zv := zval yf (mem T0) (nrest rest) lam) in *.
    assert (D : vs (seq 0 j) (fun u => ycap (yat y u) lam) X - vs (seq 0 j) zv X <=
                vs (seq 0 j) (fun u => ycap (yat y u) lam) (mem t) - vs (seq 0 j) zv (mem t)).
    { unfold vs. rewrite <- !qsum_minus. apply qsum_le. intros u Hu.
      assert (ZL : zv u <= ycap (yat y u) lam)
        by (apply (zval_le yf (fun u l l' => ycap_anti (yat y u) l l'))).
      destruct (mem t u) eqn:Et.
      - destruct (X u); lra.
      - specialize (Z3 u Hu Et). fold zv in Z3. unfold yf in Z3. destruct (X u); lra. }
    lra.
  Qed.

  Lemma bands_all (Pr : Q -> list nat -> Prop) rest : forall lo T,
    (forall lam t, lo <= lam -> act lam (cbands T rest) t -> Pr lam t) ->
    cch E j y M lo T rest [j] PInf ->
    in_bands Pr lo (map fst rest) (T :: map snd rest).
  Proof.
    induction rest as [|[l T'] r IH]; intros lo T H Hc; cbn [map fst snd].
    - simpl. intros lam Hl. apply H; auto. constructor. simpl. auto.
    - assert (Hc' := Hc). destruct Hc as (H1 & _ & _ & _ & _ & _ & _ & _ & H9).
      cbn [in_bands]. split; auto. split.
      + intros lam L1 L2. apply H; auto. constructor. simpl. auto.
      + apply IH; auto. intros lam t L1 HA. apply H; [lra|]. cbn [cbands]. apply act_next; auto.
  Qed.

  Lemma pmf_run_spec :
    (exists X, incl X (seq 0 j) /\ stage_value E j y init_lambda X < stage_value E j y init_lambda []) ->
    exists lams sets, pmf_run mc eps E n j y = Ok (map Fin lams, sets) /\
      length sets = S (length lams) /\ (1 <= length lams)%nat /\
      (forall T, In T sets -> In j T /\ incl T (seq 0 (S j)) /\ NoDup T) /\
      strict_supersets sets /\ last sets [] = [j] /\
      in_bands (fun lam T => forall X, incl X (seq 0 j) -> stage_value E j y lam T <= stage_value E j y lam X)
               init_lambda lams sets.
  Proof.
    intros (X & HX & HlX).
    assert (HfM' : forall X, mult M (incut E X)) by (intro; apply incut_mult; auto).
    destruct (pmf_run_ok mc Hmc eps Heps E n j Hjn HE Hs Hf Hw y M HyM HfM' HiM HeM)
      as (T0 & rest & R1 & R2 & R3 & R4).
    { exists (mem X). split.
      - intros x Hx. left. apply HX. apply mem_In. auto.
      - rewrite !stage_gval in HlX.
        assert (gval E j y init_lambda (mem []) == gval E j y init_lambda (mem [j])); [|lra].
        unfold gval. assert (A : fj (incut E) j (mem []) == fj (incut E) j (mem [j])).
        { apply incut_ext. intro x. simpl. destruct (x =? j)%nat; auto. }
        assert (B : vs (seq 0 j) (fun u => ycap (yat y u) init_lambda) (mem []) ==
                    vs (seq 0 j) (fun u => ycap (yat y u) init_lambda) (mem [j])).
        { apply qsum_ext. intros u Hu. apply in_seq in Hu. simpl.
          assert (K : (u =? j)%nat = false) by (apply Nat.eqb_neq; lia). rewrite K. reflexivity. }
        rewrite A, B. reflexivity. }
    exists (map fst rest), (T0 :: map snd rest). rewrite map_map. split; [exact R1|].
    split; [simpl; rewrite !map_length; auto|].
    split; [rewrite map_length; destruct rest; [contradiction|simpl; lia]|].
    assert (I := cch_incl E n j Hjn y M rest _ _ _ _ R4).
    assert (IT : incl T0 (seq 0 (S j))).
    { intros x Hx. assert (W := lm_win _ _ _ _ _ R2 x (proj2 (mem_In _ _) Hx)). apply in_seq.
      destruct W as [W|W]; [apply in_seq in W; lia|lia]. }
    split.
    { intros T [<-|HT].
      - split; [apply R2|]. split; auto. apply csorted_NoDup, R2.
      - assert (K : In j T /\ csorted T).
        { clear -R4 HT. revert R4. generalize init_lambda T0. induction rest as [|[l T'] r IH]; intros lo T1 H; [destruct HT|].
          destruct H as (_ & H2 & H3 & _ & _ & _ & _ & _ & H9). destruct HT as [<-|HT]; [auto|eapply IH; eauto]. }
        rewrite Forall_forall in I. destruct (I T HT) as [I1 _]. split; [tauto|].
        split; [eapply incl_tran; eauto|apply csorted_NoDup; tauto]. }
    split.
    { clear -R4. revert R4. generalize init_lambda T0. induction rest as [|[l T'] r IH]; intros lo T1 H; [exact I|].
      destruct H as (_ & _ & _ & H4 & H5 & _ & _ & _ & H9). cbn [map snd strict_supersets].
      split; auto. split; auto. exact (IH _ _ H9). }
    split.
    { clear -R4. revert R4. generalize init_lambda T0. induction rest as [|[l T'] r IH]; intros lo T1 H.
      - destruct H as [-> _]. reflexivity.
      - destruct H as (_ & _ & _ & _ & _ & _ & _ & _ & H9). exact (IH _ _ H9). }
    apply bands_all; auto. intros lam t Hl HA X' HX'. rewrite !stage_gval.
    apply (band_min T0 rest t lam (mem X')); auto.
    intros x Hx. left. apply HX'. apply mem_In. auto.
  Qed.
End C26.

Theorem C26_parametric_cuts : forall mc eps E n j y M,
  MinSinkCutSpec mc -> 0 < eps -> (j < n)%nat -> graph_on (seq 0 n) E -> simple E -> forward E ->
  (forall a, In a E -> eps <= aw a) ->
  (forall u, (u < j)%nat -> pmult M (yat y u)) -> multiples_of M E -> mult M init_lambda ->
  10 * eps * inject_Z (Zpos (M * factP j)) < 1 ->
  (exists X, incl X (seq 0 j) /\ stage_value E j y init_lambda X < stage_value E j y init_lambda []) ->
  exists lams sets, pmf_run mc eps E n j y = Ok (map Fin lams, sets) /\
    length sets = S (length lams) /\ (1 <= length lams)%nat /\
    (forall T, In T sets -> In j T /\ incl T (seq 0 (S j)) /\ NoDup T) /\
    strict_supersets sets /\ last sets [] = [j] /\
    in_bands (fun lam T => forall X, incl X (seq 0 j) -> stage_value E j y lam T <= stage_value E j y lam X)
             init_lambda lams sets.
Proof.
  exact (fun mc eps E n j y M Hmc He Hj HE Hs Hf Hw HyM HfM HiM HeM =>
           pmf_run_spec mc Hmc eps He E n j Hj HE Hs Hf Hw y M HyM HfM HiM HeM).
Qed.
Print Assumptions C26_parametric_cuts.

(** Stage 2 of the example graph [tri] with the parameters left by stage 1. *)
Definition y26 : list (Q * dbl) := [(0, Fin (-1)); (1, PInf); (0, PInf)].
Example C26_nonvacuous :
  (exists X, incl X (seq 0 2) /\ stage_value tri 2 y26 init_lambda X < stage_value tri 2 y26 init_lambda []) /\
  (forall u, (u < 2)%nat -> pmult 10 (yat y26 u)) /\ multiples_of 10 tri /\ mult 10 init_lambda /\
  10 * tol * inject_Z (Zpos (10 * factP 2)) < 1 /\ (forall a, In a tri -> tol <= aw a) /\
  pmf_run bf_mincut tol tri 3 2 y26 = Ok ([Fin 2; Fin 5], [[0;1;2];[0;2];[2]]%nat).
Proof.
  split; [exists [0;1]%nat; split; [intros x H; exact H|vm_compute; reflexivity]|].
  split.
  { intros [|[|u]] Hu; [| |lia]; split; simpl; auto;
      [exists 0%Z|exists (-10)%Z|exists 10%Z]; reflexivity. }
  split.
  { intros a H; simpl in H; destruct H as [<-|[<-|[<-|[]]]]; [exists 10%Z|exists 50%Z|exists 10%Z]; reflexivity. }
  split; [exists (-1)%Z; reflexivity|]. split; [vm_compute; reflexivity|].
  split; [|vm_compute; reflexivity].
  intros a H; simpl in H; destruct H as [<-|[<-|[<-|[]]]]; vm_compute; discriminate.
Qed.

(** If {j} alone is already a minimiser at the initial lambda, the only threshold is NaN (0/0 in
    compute_lambda) and {j} is listed twice. *)
Lemma pmf_run_degenerate mc eps E n j y :
  MinSinkCutSpec mc -> 0 < eps -> (j < n)%nat -> graph_on (seq 0 n) E -> simple E -> forward E ->
  (forall a, In a E -> eps <= aw a) ->
  (forall X, incl X (seq 0 j) -> stage_value E j y init_lambda [] <= stage_value E j y init_lambda X) ->
  pmf_run mc eps E n j y = Ok ([NaN], [[j]; [j]]).
Proof.
  intros Hmc He Hj HE Hs Hf Hw Hmin.
  assert (T : snd (pmf_cut mc eps E j y init_lambda) = [j]).
  { destruct (pmf_cut_min mc Hmc eps He E n j Hj HE Hs Hf Hw y init_lambda) as [K _].
    set (T0 := snd (pmf_cut mc eps E j y init_lambda)) in *.
    assert (N : forall x, In x (seq 0 j) -> ~ In x T0).
    { intros x Hx C0. assert (X := lm_least _ _ _ _ _ K (mem [])).
      assert (W : win (seq 0 j) j (mem [])) by (intros z Hz; discriminate Hz).
      assert (G : gval E j y init_lambda (mem []) <= gval E j y init_lambda (mem T0)).
      { rewrite <- stage_gval. eapply Qle_trans; [apply (Hmin (filter (mem T0) (seq 0 j)))|].
        - intros z Hz. apply filter_In in Hz. tauto.
        - rewrite stage_gval. unfold gval.
          assert (A : fj (incut E) j (mem (filter (mem T0) (seq 0 j))) == fj (incut E) j (mem T0)).
          { apply incut_ext. intro z. destruct (z =? j)%nat eqn:Ez; auto. cbn [orb]. apply Nat.eqb_neq in Ez.
            destruct (mem T0 z) eqn:E1.
            - apply mem_In. apply filter_In. split; auto.
              destruct (lm_win _ _ _ _ _ K z E1) as [|C]; [auto|contradiction].
            - apply mem_false. intro C. apply filter_In in C. destruct C. congruence. }
          assert (B : vs (seq 0 j) (fun u => ycap (yat y u) init_lambda) (mem (filter (mem T0) (seq 0 j))) ==
                      vs (seq 0 j) (fun u => ycap (yat y u) init_lambda) (mem T0)).
          { apply qsum_ext. intros u Hu. assert (M0 : mem (filter (mem T0) (seq 0 j)) u = mem T0 u); [|rewrite M0; reflexivity].
            destruct (mem T0 u) eqn:E1.
            - apply mem_In. apply filter_In. auto.
            - apply mem_false. intro C. apply filter_In in C. destruct C. congruence. }
          rewrite A, B. lra. }
      specialize (X W G x Hx C0). discriminate X. }
    apply csorted_ext; [apply K|repeat constructor|]. intro x. split.
    - intro Hx. destruct (lm_win _ _ _ _ _ K x (proj2 (mem_In _ _) Hx)) as [W|W]; [exfalso; eapply N; eauto|left; auto].
    - intros [<-|[]]. apply K. }
  unfold pmf_run. assert (L1 : (j <? n)%nat = true) by (apply Nat.ltb_lt; lia). rewrite L1. cbv zeta. rewrite T.
  cbn [pmf_slice].
  assert (Fi : filter (fun i => mem [j] i && negb (mem [j] i)) (seq 0 (n - 1)) = []).
  { induction (seq 0 (n - 1)) as [|x l IHl]; auto. cbn [filter]. rewrite andb_negb_r. auto. }
  rewrite Fi. cbn [map]. unfold compute_lambda. cbn. rewrite Nat.eqb_refl. reflexivity.
Qed.

Theorem C26_degenerate_stage : forall mc eps E n j y,
  MinSinkCutSpec mc -> 0 < eps -> (j < n)%nat -> graph_on (seq 0 n) E -> simple E -> forward E ->
  (forall a, In a E -> eps <= aw a) ->
  (forall X, incl X (seq 0 j) -> stage_value E j y init_lambda [] <= stage_value E j y init_lambda X) ->
  pmf_run mc eps E n j y = Ok ([NaN], [[j]; [j]]).
Proof. exact pmf_run_degenerate. Qed.
Print Assumptions C26_degenerate_stage.

Example C26_degenerate_example :
  pmf_run bf_mincut tol tri 3 1 [(0, Fin (-1)); (0, PInf); (0, PInf)] = Ok ([NaN], [[1]; [1]]%nat).
Proof. vm_compute. reflexivity. Qed.

(** ** C27: pdt computes the principal sequence *)
Theorem C27_pdt_exact : forall mc eps E n D,
  MinSinkCutSpec mc -> 0 < eps -> (1 <= n)%nat -> graph_on (seq 0 n) E -> simple E -> forward E ->
  (forall a, In a E -> eps <= aw a) -> multiples_of D E ->
  10 * eps * inject_Z (Zpos (gridM D n)) < 1 ->
  exists lams Ps, pdt_run mc eps E n = Ok (map Fin lams, Ps) /\ IsPSP E (seq 0 n) lams Ps.
Proof.
  exact (fun mc eps E n D Hmc He Hn HE Hs Hf Hw HD HeM =>
           pdt_correct mc Hmc eps He E n HE Hs Hf Hw D HD HeM Hn).
Qed.
Print Assumptions C27_pdt_exact.

Lemma small_weights E : (forall a, In a E -> 0 < aw a) ->
  exists e, 0 < e /\ forall a, In a E -> e <= aw a.
Proof.
  induction E as [|a E IH]; intro H.
  - exists 1. split; [lra|]. intros a [].
  - destruct IH as (e & E1 & E2); [intros; apply H; right; auto|].
    assert (Ha := H a (or_introl eq_refl)).
    destruct (Qlt_le_dec e (aw a)).
    + exists e. split; auto. intros b [<-|Hb]; [lra|auto].
    + exists (aw a). split; auto. intros b [<-|Hb]; [lra|]. specialize (E2 b Hb). lra.
Qed.

Lemma pdt_small_tol mc E n :
  MinSinkCutSpec mc -> (1 <= n)%nat -> graph_on (seq 0 n) E -> simple E -> forward E ->
  (forall a, In a E -> 0 < aw a) ->
  exists eps0, 0 < eps0 /\ forall eps, 0 < eps -> eps <= eps0 ->
    exists lams Ps, pdt_run mc eps E n = Ok (map Fin lams, Ps) /\ IsPSP E (seq 0 n) lams Ps.
Proof.
  intros Hmc Hn HE Hs Hf Hp. destruct (multiples_ex E) as (D & HD).
  destruct (small_weights E Hp) as (e & E1 & E2).
  set (K := inject_Z (Zpos (gridM D n))).
  assert (K0 : 0 < K) by (unfold K; rewrite <- (Zlt_Qlt 0); lia).
  assert (K1 : 0 < / (20 * K)) by (apply Qinv_lt_0_compat; lra).
  assert (K2 : 20 * K * / (20 * K) == 1) by (apply Qmult_inv_r; lra).
  exists (if Qltb e (/ (20 * K)) then e else / (20 * K)).
  assert (Both : forall eps, eps <= (if Qltb e (/ (20 * K)) then e else / (20 * K)) -> eps <= e /\ eps <= / (20 * K)).
  { intros eps H. destruct (Qltb e (/ (20 * K))) eqn:Eq; [apply Qltb_true in Eq|apply Qltb_false in Eq]; lra. }
  split; [destruct (Qltb e (/ (20 * K))); auto|].
  intros eps H1 H2. destruct (Both eps H2) as [H3 H4].
  apply (C27_pdt_exact mc eps E n D); auto.
  - intros a Ha. specialize (E2 a Ha). lra.
  - fold K. assert (eps * (20 * K) <= / (20 * K) * (20 * K)) by (apply Qmult_le_compat_r; lra). lra.
Qed.

Theorem C27_pdt_exact_small_tolerance : forall mc E n,
  MinSinkCutSpec mc -> (1 <= n)%nat -> graph_on (seq 0 n) E -> simple E -> forward E ->
  (forall a, In a E -> 0 < aw a) ->
  exists eps0, 0 < eps0 /\ forall eps, 0 < eps -> eps <= eps0 ->
    exists lams Ps, pdt_run mc eps E n = Ok (map Fin lams, Ps) /\ IsPSP E (seq 0 n) lams Ps.
Proof. exact pdt_small_tol. Qed.
Print Assumptions C27_pdt_exact_small_tolerance.

(** The same sequence as dt, up to the order in which parts are listed. *)
Lemma pdt_as_dt mc eps E n D :
  MinSinkCutSpec mc -> 0 < eps -> (2 <= n)%nat -> graph_on (seq 0 n) E -> simple E -> forward E ->
  (forall a, In a E -> eps <= aw a) -> multiples_of D E -> fine_tol D n eps ->
  10 * eps * inject_Z (Zpos (gridM D n)) < 1 ->
  exists lams Ps lams' Ps', pdt_run mc eps E n = Ok (map Fin lams, Ps) /\
    dt_run mc eps E n = Ok (map Fin lams', Ps') /\
    Forall2 Qeq lams lams' /\ Forall2 same_partition Ps Ps'.
Proof.
  intros Hmc He Hn HE Hs Hf Hw HD Ht HeM.
  destruct (C27_pdt_exact mc eps E n D Hmc He ltac:(lia) HE Hs Hf Hw HD HeM) as (lams & Ps & A1 & A2).
  destruct (C11_dt_exact mc eps E n D Hmc He Hn HE Hs Hf HD Ht) as (lams' & Ps' & B1 & B2).
  exists lams, Ps, lams', Ps'. split; auto. split; auto.
  apply (C12_psp_unique E (seq 0 n) (seq_NoDup n 0) HE); auto.
Qed.

Theorem C27_pdt_agrees_with_dt : forall mc eps E n D,
  MinSinkCutSpec mc -> 0 < eps -> (2 <= n)%nat -> graph_on (seq 0 n) E -> simple E -> forward E ->
  (forall a, In a E -> eps <= aw a) -> multiples_of D E -> fine_tol D n eps ->
  10 * eps * inject_Z (Zpos (gridM D n)) < 1 ->
  exists lams Ps lams' Ps', pdt_run mc eps E n = Ok (map Fin lams, Ps) /\
    dt_run mc eps E n = Ok (map Fin lams', Ps') /\
    Forall2 Qeq lams lams' /\ Forall2 same_partition Ps Ps'.
Proof. exact pdt_as_dt. Qed.
Print Assumptions C27_pdt_agrees_with_dt.

Definition ex27 : graph := [mkArc 0 1 1; mkArc 0 2 1; mkArc 1 2 5; mkArc 2 3 2; mkArc 1 3 1].
Example C27_nonvacuous :
  MinSinkCutSpec bf_mincut /\ graph_on (seq 0 4) ex27 /\ simple ex27 /\ forward ex27 /\
  (forall a, In a ex27 -> tol <= aw a) /\ multiples_of 1 ex27 /\ fine_tol 1 4 tol /\
  10 * tol * inject_Z (Zpos (gridM 1 4)) < 1 /\
  pdt_run bf_mincut tol ex27 4 =
    Ok ([Fin 2; Fin 3; Fin 5],
        [[[0;1;2;3]]; [[0]; [1;2;3]]; [[0]; [1;2]; [3]]; [[0]; [1]; [2]; [3]]]%nat).
Proof.
  split; [apply bf_minsink_spec|].
  split.
  { intros a H; simpl in H; destruct H as [<-|[<-|[<-|[<-|[<-|[]]]]]]; simpl; repeat split; auto 6; lra. }
  split; [repeat constructor; simpl; intuition congruence|].
  split.
  { intros a H; simpl in H; destruct H as [<-|[<-|[<-|[<-|[<-|[]]]]]]; simpl; lia. }
  split.
  { intros a H; simpl in H; destruct H as [<-|[<-|[<-|[<-|[<-|[]]]]]]; vm_compute; discriminate. }
  split.
  { intros a H; simpl in H; destruct H as [<-|[<-|[<-|[<-|[<-|[]]]]]];
      [exists 1%Z|exists 1%Z|exists 5%Z|exists 2%Z|exists 1%Z]; reflexivity. }
  split; [vm_compute; reflexivity|]. split; vm_compute; reflexivity.
Qed.

(** ** C47: arcs of weight zero change the result of pdt.

    An arc (i,j) of weight below the tolerance is copied into the flow network and, at stage j, a
    second arc from i to the sink is added (psp/pmf.cpp:107-112 and 120-122); update_dig gives both
    the full capacity.  The critical value 0 and 1 of this graph come out as 1/2. *)
Definition ex47 : graph := [mkArc 1 2 3; mkArc 0 3 1; mkArc 2 3 0].
Theorem C47_zero_weight_refuted :
  ~ (forall mc eps E n, MinSinkCutSpec mc -> 0 < eps -> (1 <= n)%nat ->
       graph_on (seq 0 n) E -> simple E -> forward E -> multiples_of 1 E ->
       10 * eps * inject_Z (Zpos (gridM 1 n)) < 1 ->
       exists lams Ps, pdt_run mc eps E n = Ok (map Fin lams, Ps) /\ IsPSP E (seq 0 n) lams Ps).
Proof.
  intro H. destruct (H bf_mincut tol ex47 4%nat) as (lams & Ps & A & B).
  - apply bf_minsink_spec.
  - reflexivity.
  - lia.
  - intros a Ha; simpl in Ha; destruct Ha as [<-|[<-|[<-|[]]]]; simpl; repeat split; auto 6; lra.
  - repeat constructor; simpl; intuition congruence.
  - intros a Ha; simpl in Ha; destruct Ha as [<-|[<-|[<-|[]]]]; simpl; lia.
  - intros a Ha; simpl in Ha; destruct Ha as [<-|[<-|[<-|[]]]]; [exists 3%Z|exists 1%Z|exists 0%Z]; reflexivity.
  - vm_compute. reflexivity.
  - assert (R : pdt_run bf_mincut tol ex47 4 =
      Ok ([Fin (1 # 2); Fin 3], [[[0;1;2;3]]; [[0];[1;2];[3]]; [[0];[1];[2];[3]]]%nat))
      by (vm_compute; reflexivity).
    rewrite R in A. clear R H.
    assert (K0 : forall (x y : list dbl * list cpart), Ok x = Ok y -> fst x = fst y /\ snd x = snd y)
      by (intros x y K; injection K as ->; auto).
    apply K0 in A. cbn [fst snd] in A. destruct A as [A1 A2]. clear K0.
    destruct lams as [|l lams]; cbn [map] in A1; [discriminate A1|].
    injection A1 as A0 A1. subst l Ps. destruct B as (_ & _ & C).
    destruct lams as [|l2 lams]; cbn [map] in A1; [discriminate A1|].
    destruct C as (_ & C & _). destruct (C (1 # 2) I ltac:(lra)) as [_ O].
    specialize (O [[0;3];[1;2]]%nat). assert (K : hval ex47 (1 # 2) [[0;1;2;3]]%nat <= hval ex47 (1 # 2) [[0;3];[1;2]]%nat).
    { apply O. split; [|intros [D|[D|[]]]; discriminate]. simpl. 
      apply NoDup_Permutation; [repeat constructor; simpl; intuition congruence|
                                repeat constructor; simpl; intuition congruence|].
      intro x. simpl. intuition. }
    vm_compute in K. apply K. reflexivity.
Qed.
Print Assumptions C47_zero_weight_refuted.

(** dt on the same graph returns 0, 1, 3. *)
Example C47_dt_result :
  dt_run bf_mincut tol ex47 4 = Ok ([Fin 0; Fin 1; Fin 3],
    [[[0;1;2;3]]; [[0;3];[1;2]]; [[0];[1;2];[3]]; [[0];[1];[2];[3]]]%nat).
Proof. vm_compute. reflexivity. Qed.

(** ** C28: a second run on the same object never returns *)

(** With a NaN on top neither list advances: the loop of psp/pmf.cpp:311-336 does not end. *)
Lemma merge_stuck fuel : forall A B t p out,
  pdt_merge fuel ((PInf, p) :: A) ((NaN, t) :: B) out = OutOfFuel.
Proof. induction fuel as [|fuel IH]; intros; simpl; auto. Qed.

Theorem C28_merge_loop_never_ends : forall fuel A B t p,
  pdt_merge fuel ((PInf, p) :: A) ((NaN, t) :: B) [] = OutOfFuel.
Proof. exact (fun fuel A B t p => merge_stuck fuel A B t p []). Qed.
Print Assumptions C28_merge_loop_never_ends.

Lemma y_entry_le E lams sets j y u p lam : (u < j)%nat ->
  y_entry E lams sets j y u = Ok p -> ycap p lam <= ycap (yat y u) lam.
Proof.
  intros Hu H. unfold y_entry in H.
  assert (K1 : (u =? j)%nat = false) by (apply Nat.eqb_neq; lia).
  assert (K2 : (u <? j)%nat = true) by (apply Nat.ltb_lt; lia). rewrite K1, K2 in H.
  destruct (length (filter (fun s => mem s u) sets)) as [|c]; [injection H as <-; lra|].
  destruct (nth_error lams c) as [[l| |]|]; [|injection H as <-; lra|injection H as <-; lra|discriminate H].
  assert (RC := Qred_correct (fst (yat y u) - l)).
  destruct (yat y u) as [a d]. cbn [fst snd] in *. set (r := Qred (a - l)) in *. clearbody r.
  destruct d as [b| |].
  - destruct (Qltb (a - b) l) eqn:Eb; [|injection H as <-; lra]. injection H as <-.
    apply Qltb_true in Eb. destruct (ycap_min (a, Fin r) lam) as (M1 & M2 & _). cbn [fst snd] in *.
    specialize (M2 r eq_refl).
    unfold ycap at 2. cbn [fst snd]. destruct (Qltb b (a - lam)); lra.
  - injection H as <-. destruct (ycap_min (a, Fin r) lam) as (M1 & _). exact M1.
  - injection H as <-. destruct (ycap_min (a, Fin r) lam) as (M1 & _). exact M1.
Qed.

Lemma mapr_nth {A B} (f : A -> res B) d e l : forall bs k, mapr f l = Ok bs -> (k < length l)%nat ->
  f (nth k l d) = Ok (nth k bs e).
Proof.
  induction l as [|x l IH]; intros bs k H Hk; [simpl in Hk; lia|]. simpl in H.
  destruct (f x) as [b| | |] eqn:E1; cbn [bind] in H; try discriminate H.
  destruct (mapr f l) as [r| | |] eqn:E2; cbn [bind] in H; try discriminate H.
  injection H as <-. destruct k as [|k]; simpl; auto. apply IH; auto. simpl in Hk. lia.
Qed.

Lemma pdt_step_y pm E n st j st' u : pdt_step pm E n st j = Ok st' -> (u < n)%nat ->
  exists lams sets, y_entry E lams sets j (fst st) u = Ok (yat (fst st') u).
Proof.
  intros H Hu. unfold pdt_step in H.
  destruct (pm j (fst st)) as [r| | |]; cbn [bind] in H; try discriminate H.
  destruct (mapr (y_entry E (fst r) (snd r) j (fst st)) (seq 0 n)) as [y'| | |] eqn:E1; cbn [bind] in H; try discriminate H.
  destruct (length (snd r) =? S (length (fst r)))%nat; [|discriminate H].
  destruct (pdt_merge _ _ _ _) as [o| | |]; cbn [bind] in H; try discriminate H. injection H as <-.
  exists (fst r), (snd r). cbn [fst]. assert (K := mapr_nth _ 0%nat (0, PInf) _ _ u E1).
  rewrite seq_length, seq_nth in K by auto. apply K; auto.
Qed.

Lemma foldr_y0 pm E n k : forall s st st', (1 <= s)%nat -> (1 <= n)%nat ->
  foldr (pdt_step pm E n) st (seq s k) = Ok st' ->
  forall lam, ycap (yat (fst st') 0) lam <= ycap (yat (fst st) 0) lam.
Proof.
  induction k as [|k IH]; intros s st st' Hs Hn H lam; simpl in H.
  - injection H as <-. lra.
  - destruct (pdt_step pm E n st s) as [st1| | |] eqn:E1; cbn [bind] in H; try discriminate H.
    specialize (IH (S s) st1 st' ltac:(lia) Hn H lam).
    destruct (pdt_step_y pm E n st s st1 0%nat E1 ltac:(lia)) as (lams & sets & K).
    assert (L := y_entry_le E lams sets s (fst st) 0 _ lam ltac:(lia) K). lra.
Qed.

(** Both PDT and PDT_R: [pm] is the inner run; the last premise is what it does when the sink side at
    the initial parameter is the sink alone. *)
Lemma loop_twice_hangs pm eps E n D :
  0 < eps -> (2 <= n)%nat -> graph_on (seq 0 n) E -> simple E -> forward E ->
  (forall a, In a E -> eps <= aw a) -> multiples_of D E ->
  10 * eps * inject_Z (Zpos (gridM D n)) < 1 ->
  (forall j y M, (j < n)%nat ->
    (forall u, (u < j)%nat -> pmult M (yat y u)) -> (forall u, (j <= u)%nat -> yat y u = (0, PInf)) ->
    (forall X, mult M (incut E X)) ->
    mult M init_lambda -> 10 * eps * inject_Z (Zpos (M * factP j)) < 1 ->
    (exists X, win (seq 0 j) j X /\ gval E j y init_lambda X < gval E j y init_lambda (mem [j])) ->
    exists T0 rest, pm j y = Ok (map (fun p => Fin (fst p)) rest, T0 :: map snd rest) /\
      lmin E j y init_lambda T0 /\ rest <> [] /\ cch E j y M init_lambda T0 rest [j] PInf) ->
  (forall y, lmin E 1 y init_lambda [1%nat] -> pm 1%nat y = Ok ([NaN], [[1%nat]; [1%nat]])) ->
  (do r <- pdt_loop pm E n []; do r2 <- pdt_loop pm E n (fst r); Ok (snd r2)) = OutOfFuel.
Proof.
  intros He Hn HE Hs Hf Hw HD HeM Hpm Hdeg.
  assert (I0 := inv_start eps E n HE Hf D HeM pm Hpm ltac:(lia)).
  destruct (step_ok eps He E n HE Hf D HD HeM pm Hpm 1 _ ltac:(lia) I0) as (st2 & S1 & S2).
  destruct (fold_ok eps He E n HE Hf D HD HeM pm Hpm (n - 2) 2 st2 ltac:(lia) ltac:(lia) S2) as (st & S3 & S4).
  assert (Fo : foldr (pdt_step pm E n) (repeat (0, PInf) n, [(PInf, [[0%nat]])]) (seq 1 (n - 1)) = Ok st).
  { replace (n - 1)%nat with (S (n - 2)) by lia. cbn [seq foldr]. rewrite S1. cbn [bind]. exact S3. }
  assert (N0 : (n =? 0)%nat = false) by (apply Nat.eqb_neq; lia).
  unfold pdt_loop at 1. rewrite N0. cbn [app length]. rewrite Nat.sub_0_r, Fo. cbn [bind fst].
  set (y := fst st) in *.
  assert (Ly : length y = n) by apply (inv_len _ _ _ _ _ S4).
  (* the parameter of node 0 *)
  assert (Y0 : ycap (yat y 0) init_lambda <= - incut E (mem [1%nat])).
  { assert (L := foldr_y0 pm E n (n - 2) 2 st2 st ltac:(lia) ltac:(lia) S3 init_lambda). fold y in L.
    assert (Fe := inv_feas _ _ _ _ _ S2 init_lambda ltac:(lra) (mem [0;1]%nat)).
    destruct (pdt_step_y _ _ _ _ _ _ 1%nat S1 ltac:(lia)) as (lams & sets & K1).
    unfold y_entry in K1. simpl in K1. injection K1 as K1.
    assert (Fx : xsum (yvec (fst st2) 2 init_lambda) (mem [0;1]%nat) <= incut E (mem [0;1]%nat) - init_lambda).
    { apply Fe; [exists 0%nat; reflexivity|]. unfold yvec. rewrite vec_fst. intros x Hx. apply mem_In in Hx. exact Hx. }
    unfold yvec in Fx. rewrite vec_xsum in Fx. cbn [seq qsum] in Fx.
    change (mem [0%nat;1%nat] 0%nat) with true in Fx. change (mem [0%nat;1%nat] 1%nat) with true in Fx. cbv iota in Fx.
    rewrite <- K1 in Fx.
    assert (C : ycap (get_cut_value E [1%nat], PInf) init_lambda == incut E (mem [1%nat]) - init_lambda)
      by (unfold ycap; simpl; reflexivity).
    assert (Z := incut_prefix E Hf 2). change (seq 0 2) with [0;1]%nat in Z. rewrite C in Fx. rewrite Z in Fx. lra. }
  unfold pdt_loop. rewrite N0, Ly, Nat.sub_diag. cbn [repeat]. rewrite app_nil_r.
  replace (n - 1)%nat with (S (n - 2)) by lia. cbn [seq foldr].
  (* stage 1 of the second run *)
  assert (R : pm 1%nat y = Ok ([NaN], [[1%nat]; [1%nat]])).
  { apply Hdeg.
    assert (W1 : forall X, win (seq 0 1) 1 X -> fj (incut E) 1 X == if X 0%nat then 0 else incut E (mem [1%nat])).
    { intros X HX. destruct (X 0%nat) eqn:X0.
      - rewrite <- (incut_prefix E Hf 2). apply incut_ext. intro x. change (seq 0 2) with [0;1]%nat.
        destruct x as [|[|x]]; simpl; auto. destruct (X (S (S x))) eqn:Xx; auto.
        destruct (HX _ Xx) as [[K|[]]|K]; discriminate K.
      - apply incut_ext. intro x. destruct x as [|[|x]]; simpl; auto. destruct (X (S (S x))) eqn:Xx; auto.
        destruct (HX _ Xx) as [[K|[]]|K]; discriminate K. }
    assert (Z : 0 <= incut E (mem [1%nat])) by (apply incut_nonneg; exact (graph_on_nonneg _ _ HE)).
    assert (W : win (seq 0 1) 1 (mem [1%nat])) by (intros x Hx; right; apply mem_In in Hx; destruct Hx as [<-|[]]; auto).
    constructor; auto.
    - repeat constructor.
    - left; auto.
    - intros X HX. unfold gval. rewrite (W1 _ W), (W1 X HX). unfold vs. cbn [seq qsum].
      change (mem [1%nat] 0%nat) with false. cbv iota. destruct (X 0%nat); lra.
    - intros X HX _ x [<-|[]] [C|[]]. discriminate C. }
  unfold pdt_step at 1. cbn [fst snd]. rewrite R. cbn [bind fst snd].
  destruct (mapr_ok (y_entry E [NaN] [[1%nat]; [1%nat]] 1 y) (fun _ _ => True) (seq 0 n)) as (y' & M1 & _).
  { intros u _. unfold y_entry. destruct (u =? 1)%nat eqn:E1; [eauto|].
    destruct (u <? 1)%nat eqn:E2; [|eauto]. apply Nat.ltb_lt in E2. replace u with 0%nat by lia. simpl. eauto. }
  rewrite M1. cbn [bind length]. change (2 =? 2)%nat with true. cbv iota. cbn [app combine].
  rewrite merge_stuck. reflexivity.
Qed.

Lemma pdt_twice_hangs mc eps E n D :
  MinSinkCutSpec mc -> 0 < eps -> (2 <= n)%nat -> graph_on (seq 0 n) E -> simple E -> forward E ->
  (forall a, In a E -> eps <= aw a) -> multiples_of D E ->
  10 * eps * inject_Z (Zpos (gridM D n)) < 1 ->
  pdt_run_twice mc eps E n = OutOfFuel.
Proof.
  intros Hmc He Hn HE Hs Hf Hw HD HeM.
  apply (loop_twice_hangs (pmf_run mc eps E n) eps E n D); auto.
  { exact (pmf_spec mc Hmc eps He E n HE Hs Hf Hw). }
  intros y Hl.
  assert (T : snd (pmf_cut mc eps E 1 y init_lambda) = [1%nat]).
  { destruct (pmf_cut_min mc Hmc eps He E n 1 ltac:(lia) HE Hs Hf Hw y init_lambda) as [K _].
    apply csorted_ext; [apply K|apply Hl|]. intro x. split.
    - apply (min_shrink eps E n 1 HE y init_lambda init_lambda); auto; lra.
    - intros [<-|[]]. apply K. }
  unfold pmf_run. assert (L1 : (1 <? n)%nat = true) by (apply Nat.ltb_lt; lia). rewrite L1. cbv zeta. rewrite T.
  cbn [pmf_slice].
  assert (Fi : filter (fun i => mem [1%nat] i && negb (mem [1%nat] i)) (seq 0 (n - 1)) = []).
  { induction (seq 0 (n - 1)) as [|x l IHl]; auto. cbn [filter]. rewrite andb_negb_r. auto. }
  rewrite Fi. reflexivity.
Qed.

(** On every graph with two or more nodes the second run hangs. *)
Theorem C28_second_run_hangs : forall mc eps E n D,
  MinSinkCutSpec mc -> 0 < eps -> (2 <= n)%nat -> graph_on (seq 0 n) E -> simple E -> forward E ->
  (forall a, In a E -> eps <= aw a) -> multiples_of D E ->
  10 * eps * inject_Z (Zpos (gridM D n)) < 1 ->
  pdt_run_twice mc eps E n = OutOfFuel.
Proof. exact pdt_twice_hangs. Qed.
Print Assumptions C28_second_run_hangs.

Theorem C28_rerun_refuted :
  ~ (forall mc eps E n D, MinSinkCutSpec mc -> 0 < eps -> (1 <= n)%nat -> graph_on (seq 0 n) E ->
       simple E -> forward E -> (forall a, In a E -> eps <= aw a) -> multiples_of D E ->
       10 * eps * inject_Z (Zpos (gridM D n)) < 1 ->
       pdt_run_twice mc eps E n = pdt_run mc eps E n).
Proof.
  intro H. destruct C27_nonvacuous as (N1 & N2 & N3 & N4 & N5 & N6 & _ & N7 & N8).
  specialize (H bf_mincut tol ex27 4%nat 1%positive N1 eq_refl ltac:(lia) N2 N3 N4 N5 N6 N7).
  rewrite N8 in H. rewrite (C28_second_run_hangs bf_mincut tol ex27 4 1) in H; auto; try lia; try reflexivity.
  discriminate H.
Qed.
Print Assumptions C28_rerun_refuted.
