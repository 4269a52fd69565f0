(** * WolfeThy: invariants of IC::min_norm_base. *)
From Coq Require Import Qabs.
From Verif Require Import Base Graph Spec SubThy MHC MAIC SFSpec MNBThy GreedyThy ExactMNB MWolfe WolfeSpec LinThy.

(** The affine combination closest to the origin. *)
Definition aproj (n : nat) (cols : list (list Q)) (v : list Q) (x : nat -> Q) : Prop :=
  length v = length cols /\ wsum (fun _ => 1) cols v == 1 /\ iscomb n cols v x /\
  forall q, In q cols -> dot n x (vec q) == dot n x x.

Definition vproj (lin : list (list Q) -> list Q) (cols : list (list Q)) : list Q :=
  map (fun a => Qred (a / Qred (qsum (fun a => a) (lin cols)))) (lin cols).

Lemma wsum_div g cols c s : wsum g cols (map (fun a => Qred (a / s)) c) == wsum g cols c / s.
Proof.
  unfold wsum. revert c. induction cols as [|q cols IH]; intros [|a c]; cbn [map combine qsum fst snd]; try (unfold Qdiv; ring).
  rewrite IH, Qred_correct. unfold Qdiv. ring.
Qed.

Lemma sqr_nonneg (a : Q) : 0 <= a * a.
Proof.
  destruct (Qlt_le_dec a 0).
  - setoid_replace (a * a) with ((- a) * (- a)) by ring. apply Qmult_le_0_compat; lra.
  - apply Qmult_le_0_compat; auto.
Qed.

Lemma proj_ok n lin cols : solves n lin -> cols <> [] -> (forall q, In q cols -> length q = n) -> indep n cols ->
  ~ Qred (qsum (fun a => a) (lin cols)) == 0 /\ length (lin cols) = length cols /\
  aproj n cols (vproj lin cols) (vec (lcomb n cols (vproj lin cols))).
Proof.
  intros HL NE HN HI. destruct (HL cols NE HN HI) as [H1 H2].
  set (v0 := lin cols) in *. set (u := fun j => wsum (fun q => nth j q 0) cols v0).
  assert (HU : iscomb n cols v0 u) by (intros j _; reflexivity).
  set (s := wsum (fun _ => 1) cols v0).
  assert (K : forall q, In q cols -> s + dot n u (vec q) == 1).
  { intros q Hq. rewrite <- (H2 q Hq). rewrite wsum_plus. fold s. rewrite (dot_comb n cols v0 u _ HU).
    apply Qplus_inj_l. apply wsum_ext. intros r _. apply dot_sym. }
  assert (SQ : qsum (fun a => a) v0 == s) by (symmetry; apply wsum_ones; auto).
  assert (S0 : ~ s == 0).
  { intro Z. assert (U0 : dot n u u == 0).
    { rewrite (dot_comb n cols v0 u u HU).
      rewrite (wsum_ext (fun q => dot n (vec q) u) (fun _ => 1)).
      - exact Z.
      - intros q Hq. rewrite dot_sym. specialize (K q Hq). lra. }
    destruct cols as [|q cols']; [apply NE; auto|].
    assert (Kq := K q (or_introl eq_refl)). rewrite Z in Kq.
    assert (dot n u (vec q) == 0).
    { apply qsum_zero. intros i Hi. apply in_seq in Hi. rewrite (dot_zero n u U0 i) by lia. ring. }
    lra. }
  split; [rewrite Qred_correct, SQ; exact S0|]. split; auto.
  assert (LV : length (vproj lin cols) = length cols) by (unfold vproj; rewrite map_length; auto).
  assert (W : forall g, wsum g cols (vproj lin cols) == wsum g cols v0 / s).
  { intro g. unfold vproj. fold v0. rewrite wsum_div. rewrite Qred_correct, SQ. reflexivity. }
  assert (XC := lcomb_ok n cols (vproj lin cols)).
  set (x := vec (lcomb n cols (vproj lin cols))) in *.
  assert (XQ : forall q, In q cols -> dot n x (vec q) == (1 - s) / s).
  { intros q Hq. rewrite (dot_comb n cols _ x _ XC), W. rewrite <- (dot_comb n cols v0 u _ HU).
    specialize (K q Hq). setoid_replace (dot n u (vec q)) with (1 - s) by lra. reflexivity. }
  split; auto. split; [rewrite W; fold s; field; auto|]. split; auto.
  intros q Hq. rewrite (XQ q Hq). rewrite (dot_comb n cols _ x x XC).
  rewrite (wsum_ext _ (fun _ => (1 - s) / s)).
  - rewrite wsum_const, W. fold s. field. auto.
  - intros r Hr. rewrite dot_sym. apply XQ. auto.
Qed.

Lemma aproj_xx n cols v x y c : aproj n cols v x -> length c = length cols -> wsum (fun _ => 1) cols c == 1 ->
  iscomb n cols c y -> dot n x y == dot n x x.
Proof.
  intros (A1 & A2 & A3 & A4) HC H1 HY. rewrite dot_sym, (dot_comb n cols c y x HY).
  rewrite (wsum_ext _ (fun _ => dot n x x)).
  - rewrite wsum_const, H1. ring.
  - intros q Hq. rewrite dot_sym. auto.
Qed.

(** A nonnegative combination of points of the base polytope. *)
Lemma wsum_le g h cols c : (forall a, In a c -> 0 <= a) -> (forall q, In q cols -> g q <= h q) ->
  wsum g cols c <= wsum h cols c.
Proof.
  intros H1 H2. apply qsum_le. intros [q a] Hp. simpl.
  assert (A := H1 a (in_combine_r _ _ _ _ Hp)). assert (B := H2 q (in_combine_l _ _ _ _ Hp)).
  assert (0 <= a * (h q - g q)) by (apply Qmult_le_0_compat; lra).
  assert (a * (h q - g q) == a * h q - a * g q) by ring. lra.
Qed.

Lemma vsum_comb n cols c x S : iscomb n cols c x -> vsum n x S == wsum (fun q => vsum n (vec q) S) cols c.
Proof.
  intro H. unfold vsum. rewrite wsum_qsum. apply qsum_ext. intros i Hi. apply in_seq in Hi. destruct (S i).
  - apply H. lia.
  - rewrite wsum_const. ring.
Qed.

Lemma base_comb n F cols c x : (forall q, In q cols -> in_base n F (vec q)) -> (forall a, In a c -> 0 <= a) ->
  wsum (fun _ => 1) cols c == 1 -> iscomb n cols c x -> in_base n F x.
Proof.
  intros HB HC H1 HX. split.
  - intro S. rewrite (vsum_comb n cols c x S HX).
    assert (K : wsum (fun q => vsum n (vec q) S) cols c <= wsum (fun _ => F S - F none) cols c).
    { apply wsum_le; auto. intros q Hq. apply (HB q Hq). }
    rewrite (wsum_const (F S - F none)), H1 in K. lra.
  - rewrite (vsum_comb n cols c x every HX).
    rewrite (wsum_ext _ (fun _ => F every - F none)); [rewrite wsum_const, H1; ring|].
    intros q Hq. apply (HB q Hq).
Qed.

(** ** The step length *)
Lemma theta_ok eps : 0 <= eps -> forall l th0, 0 < th0 ->
  (forall a b, In (a, b) l -> 0 <= a /\ (eps <= a - b -> ~ a - b == 0 -> 0 < a)) ->
  exists th, theta_loop eps th0 l = Ok th /\ 0 < th /\ th <= th0 /\
    (forall a b, In (a, b) l -> eps <= a - b -> th * (a - b) <= a) /\
    (th = th0 \/ exists a b, In (a, b) l /\ th * (a - b) == a).
Proof.
  intro E0. induction l as [|[a b] l IH]; intros th0 H0 HP.
  - exists th0. simpl. repeat split; auto; try lra. intros a b [].
  - assert (HP' : forall a b, In (a, b) l -> 0 <= a /\ (eps <= a - b -> ~ a - b == 0 -> 0 < a)) by (intros; apply HP; right; auto).
    destruct (HP a b (or_introl eq_refl)) as [A0 A1]. cbn [theta_loop].
    destruct (Qle_bool eps (a - b)) eqn:E1.
    + apply Qle_bool_iff in E1. destruct (Qeq_bool (a - b) 0) eqn:E2.
      * apply Qeq_bool_iff in E2. assert (N : Qltb a 0 = false) by (apply Qltb_false; auto). rewrite N.
        destruct (IH th0 H0 HP') as (th & T1 & T2 & T3 & T4 & T5). exists th. repeat split; auto.
        -- intros a' b' [E|Hi] L'; [|apply T4; auto]. injection E as <- <-. rewrite E2. lra.
        -- destruct T5 as [|(a' & b' & I & Q)]; auto. right. exists a', b'. split; auto. right; auto.
      * assert (D : ~ a - b == 0) by (intro C; apply Qeq_bool_iff in C; congruence).
        assert (AP := A1 E1 D). assert (DP : 0 < a - b) by lra.
        set (r := a / (a - b)). assert (RP : 0 < r) by (apply Qlt_shift_div_l; lra).
        assert (RA : r * (a - b) == a) by (unfold r; field; auto).
        destruct (IH (if Qltb r th0 then r else th0)) as (th & T1 & T2 & T3 & T4 & T5); auto.
        { destruct (Qltb r th0); auto. }
        exists th. split; auto. split; auto.
        assert (TR : th <= r /\ th <= th0).
        { destruct (Qltb r th0) eqn:Er; [apply Qltb_true in Er; lra|apply Qltb_false in Er; lra]. }
        split; [lra|]. split.
        -- intros a' b' [E|Hi] L'; [|apply T4; auto]. injection E as <- <-.
           assert (th * (a - b) <= r * (a - b)) by (apply Qmult_le_compat_r; lra). lra.
        -- destruct T5 as [T5|(a' & b' & I & Q)].
           ++ destruct (Qltb r th0); [right|left; auto]. exists a, b. split; [left; auto|]. subst th. auto.
           ++ right. exists a', b'. split; [right; auto|auto].
    + apply Qle_bool_false in E1. destruct (IH th0 H0 HP') as (th & T1 & T2 & T3 & T4 & T5). exists th. repeat split; auto.
      * intros a' b' [E|Hi] L'; [|apply T4; auto]. injection E as <- <-. lra.
      * destruct T5 as [|(a' & b' & I & Q)]; auto. right. exists a', b'. split; auto. right; auto.
Qed.

(** What a pair (w, v) looks like in the minor cycle. *)
Definition okpair (eps a b : Q) : Prop := eps < a \/ (0 <= a /\ 0 < b).

Lemma theta_step eps l v : 0 <= eps -> (forall a b, In (a, b) l -> okpair eps a b) ->
  map snd l = v -> forallb (fun a => Qltb eps a) v = false ->
  exists th, theta_loop eps 1 l = Ok th /\ 0 < th /\ th <= 1 /\
    (forall a b, In (a, b) l -> 0 <= (1 - th) * a + th * b) /\
    (exists a b, In (a, b) l /\ (1 - th) * a + th * b <= eps).
Proof.
  intros E0 HP HV HF.
  destruct (theta_ok eps E0 l 1) as (th & T1 & T2 & T3 & T4 & T5); [lra| |].
  { intros a b Hi. destruct (HP a b Hi) as [|[]]; split; try lra; intros; lra. }
  exists th. split; auto. split; auto. split; auto. split.
  - intros a b Hi. destruct (Qlt_le_dec (a - b) eps) as [G|G].
    + destruct (HP a b Hi) as [G1|[G1 G2]].
      * destruct (Qlt_le_dec 0 (a - b)).
        -- assert (th * (a - b) <= 1 * (a - b)) by (apply Qmult_le_compat_r; lra).
           setoid_replace ((1 - th) * a + th * b) with (a - th * (a - b)) by ring. lra.
        -- assert (0 <= th * (b - a)) by (apply Qmult_le_0_compat; lra).
           setoid_replace ((1 - th) * a + th * b) with (a + th * (b - a)) by ring. lra.
      * assert (0 <= (1 - th) * a) by (apply Qmult_le_0_compat; lra).
        assert (0 <= th * b) by (apply Qmult_le_0_compat; lra). lra.
    + assert (K := T4 a b Hi G). setoid_replace ((1 - th) * a + th * b) with (a - th * (a - b)) by ring. lra.
  - destruct T5 as [T5|(a & b & I & Q)].
    + assert (X : exists b, In b v /\ b <= eps).
      { clear -HF. induction v as [|b v IH]; [discriminate|]. simpl in HF. apply andb_false_iff in HF. destruct HF as [H|H].
        - exists b. split; [left; auto|]. apply Qltb_false in H. auto.
        - destruct (IH H) as (c & C1 & C2). exists c. split; [right; auto|auto]. }
      destruct X as (b & B1 & B2). subst v. apply in_map_iff in B1. destruct B1 as ([a b'] & EB & HI). simpl in EB. subst b'.
      exists a, b. split; auto. subst th. lra.
    + exists a, b. split; auto. setoid_replace ((1 - th) * a + th * b) with (a - th * (a - b)) by ring. lra.
Qed.

(** ** Lists *)
Lemma qsum_keep eps w : 0 <= eps ->
  qsum (fun a => a) w - (qn (length w) - qn (length (keep (map (fun a => Qle_bool a eps) w) w))) * eps
  <= qsum (fun a => a) (keep (map (fun a => Qle_bool a eps) w) w).
Proof.
  intro E0. induction w as [|a w IH]; [unfold qn; simpl; lra|]. cbn [map]. rewrite keep_cons.
  assert (Sn : forall k, qn (S k) == qn k + 1) by (intro k; unfold qn; rewrite Nat2Z.inj_succ; unfold Z.succ; rewrite inject_Z_plus; reflexivity).
  cbn [qsum length]. destruct (Qle_bool a eps) eqn:E.
  - apply Qle_bool_iff in E. rewrite Sn. lra.
  - cbn [qsum length]. rewrite !Sn. lra.
Qed.

Lemma keep_gt eps w a : In a (keep (map (fun a => Qle_bool a eps) w) w) -> eps < a.
Proof.
  induction w as [|b w IH]; [intros []|]. cbn [map]. rewrite keep_cons. destruct (Qle_bool b eps) eqn:E; auto.
  intros [<-|H]; auto. apply Qle_bool_false in E. auto.
Qed.

Lemma combine_fst_app {A B} (l r : list A) (m : list B) a b : length m = length l -> In (a, b) (combine (l ++ r) m) -> In a l.
Proof.
  revert m. induction l as [|c l IH]; intros [|d m] HL H; simpl in *; try discriminate.
  - rewrite combine_nil in H. destruct H.
  - destruct H as [E|H]; [injection E as <- <-; auto|]. right. apply (IH m); auto.
Qed.

Lemma combine_len {A B} (l : list A) (m : list B) : (length m <= length l)%nat -> length (combine l m) = length m.
Proof. intro H. rewrite combine_length. lia. Qed.

Lemma combine_snd {A B} (l : list A) (m : list B) : (length m <= length l)%nat -> map snd (combine l m) = m.
Proof.
  revert m. induction l as [|a l IH]; intros [|b m] H; simpl in *; auto; [lia|]. rewrite IH by lia. reflexivity.
Qed.

Lemma combine_firstn_l {A B} (l : list A) (m : list B) : combine l m = combine (firstn (length m) l) m.
Proof.
  revert m. induction l as [|a l IH]; intros [|b m]; simpl; auto. rewrite <- IH. reflexivity.
Qed.

Lemma map_fst_combine {A B} (l : list A) (m : list B) : length l = length m -> map fst (combine l m) = l.
Proof. revert m. induction l as [|a l IH]; intros [|b m] H; simpl in *; try discriminate; auto. rewrite IH; auto. Qed.

(** One step of the weights. *)
Definition mixw (th : Q) (w v : list Q) : list Q := map (fun p => Qred ((1 - th) * fst p + th * snd p)) (combine w v).

Lemma mixw_sum th w v : length w = length v ->
  qsum (fun a => a) (mixw th w v) == (1 - th) * qsum (fun a => a) w + th * qsum (fun a => a) v.
Proof.
  unfold mixw. revert v. induction w as [|a w IH]; intros [|b v] H; cbn [map combine qsum fst snd length] in *; try discriminate; [ring|].
  rewrite IH by lia. rewrite Qred_correct. ring.
Qed.

Lemma mixw_wsum g cols th w v : length w = length v ->
  wsum g cols (mixw th w v) == (1 - th) * wsum g cols w + th * wsum g cols v.
Proof.
  unfold mixw, wsum. revert cols v. induction w as [|a w IH]; intros cols [|b v] H; cbn [map combine qsum fst snd length] in *; try discriminate.
  - destruct cols; simpl; ring.
  - destruct cols as [|q cols]; cbn [map combine qsum fst snd length]; [ring|]. rewrite IH by lia. rewrite Qred_correct. ring.
Qed.

Section Wolfe.
Context {T : Type}.
Variables (lin : list (list Q) -> list Q) (L : lapi T) (eps : Q) (n : nat) (F : nset -> Q).
Hypotheses (HL : solves n lin) (E0 : 0 <= eps) (E1 : qn n * eps < 1) (Hn : (0 < n)%nat).

(** A corral: columns in the base polytope, affinely independent. *)
Definition corral (cols : list (list Q)) : Prop :=
  cols <> [] /\ (forall q, In q cols -> length q = n /\ in_base n F (vec q)) /\ indep n cols.

Definition minv (cols : list (list Q)) (w : list Q) : Prop :=
  corral cols /\ length w = S n /\ (forall a, In a w -> 0 <= a) /\
  (forall a b, In (a, b) (combine w (vproj lin cols)) -> okpair eps a b) /\
  1 - (qn n - qn (length cols)) * eps <= qsum (fun a => a) (firstn (length cols) w).

Lemma corral_bound cols : corral cols -> (length cols <= n)%nat.
Proof.
  intros (_ & C2 & C3). apply (indep_bound n (F every - F none)); auto. intros q Hq. apply (C2 q Hq).
Qed.

Lemma corral_proj cols : corral cols ->
  ~ Qred (qsum (fun a => a) (lin cols)) == 0 /\ length (lin cols) = length cols /\
  aproj n cols (vproj lin cols) (vec (lcomb n cols (vproj lin cols))).
Proof. intros (C1 & C2 & C3). apply proj_ok; auto. intros q Hq. apply (C2 q Hq). Qed.

(** One pass through the loop. *)
Lemma minor_pass fuel cols w lt : minv cols w ->
  let v := vproj lin cols in
  (forallb (fun a => Qltb eps a) v = true /\
   wolfe_minor lin L eps (S fuel) cols w lt = Ok (cols, v ++ skipn (length cols) w, lt)) \/
  exists th, 0 < th /\ th <= 1 /\
    let w0 := firstn (length cols) w in
    let w_ := mixw th w0 v in
    let del := map (fun a => Qle_bool a eps) w_ in
    let w' := keep del w_ ++ skipn (length (keep del w_)) (w_ ++ skipn (length cols) w) in
    length w0 = length cols /\ length v = length cols /\ length w_ = length cols /\
    (forall a, In a w_ -> 0 <= a) /\ (length (keep del cols) < length cols)%nat /\
    minv (keep del cols) w' /\ firstn (length (keep del cols)) w' = keep del w_ /\
    wolfe_minor lin L eps (S fuel) cols w lt = bind (l_del L lt del) (fun lt' => wolfe_minor lin L eps fuel (keep del cols) w' lt').
Proof.
  intros (IC & IL & IW & IP & IS) v.
  destruct (corral_proj cols IC) as (S0 & LL & AP). fold v in AP.
  assert (CB := corral_bound cols IC).
  assert (LV : length v = length cols) by apply AP.
  assert (R : forall rest, wolfe_minor lin L eps (S fuel) cols w lt =
     (if forallb (fun a => Qltb eps a) v then Ok (cols, v ++ skipn (length cols) w, lt)
      else do th <- theta_loop eps 1 (combine w v);
          let w_ := map (fun p => Qred ((1 - th) * fst p + th * snd p)) (combine w v) in
          let del := map (fun a => Qle_bool a eps) w_ in
          let kept := keep del w_ in
          do lt' <- l_del L lt del;
          wolfe_minor lin L eps fuel (keep del cols)
            (kept ++ skipn (length kept) (w_ ++ skipn (length cols) w)) lt') \/ rest).
  { intro rest. left. cbn [wolfe_minor]. fold (vproj lin cols). fold v.
    destruct (Qeq_bool (Qred (qsum (fun a => a) (lin cols))) 0) eqn:Z.
    - apply Qeq_bool_iff in Z. contradiction.
    - rewrite andb_false_r. reflexivity. }
  destruct (R False) as [R'|[]]. clear R.
  destruct (forallb (fun a => Qltb eps a) v) eqn:EV; [left; auto|]. right.
  destruct (theta_step eps (combine w v) v E0 IP) as (th & T1 & T2 & T3 & T4 & T5); auto.
  { apply combine_snd. lia. }
  exists th. split; auto. split; auto. cbv zeta.
  set (w0 := firstn (length cols) w). set (w_ := mixw th w0 v).
  set (del := map (fun a => Qle_bool a eps) w_).
  assert (L0 : length w0 = length cols) by (unfold w0; rewrite firstn_length; lia).
  assert (CW : combine w v = combine w0 v) by (unfold w0; rewrite <- LV; apply combine_firstn_l).
  assert (LW : length w_ = length cols) by (unfold w_, mixw; rewrite map_length, combine_length; lia).
  assert (PW : forall a, In a w_ -> 0 <= a).
  { intros a Ha. unfold w_, mixw in Ha. apply in_map_iff in Ha. destruct Ha as ([a' b'] & <- & Ha).
    rewrite Qred_correct. apply T4. rewrite CW. auto. }
  assert (LD : length del = length cols) by (unfold del; rewrite map_length; auto).
  assert (DT : In true del).
  { destruct T5 as (a & b & I & Q). unfold del, w_, mixw. rewrite map_map. apply in_map_iff. exists (a, b).
    rewrite <- CW. split; auto. cbn [fst snd]. apply Qle_bool_iff. rewrite Qred_correct. auto. }
  assert (LK : length (keep del w_) = length (keep del cols)) by (apply keep_length_same; auto).
  assert (LT : (length (keep del cols) < length cols)%nat) by (apply keep_length_lt; auto).
  set (w' := keep del w_ ++ skipn (length (keep del w_)) (w_ ++ skipn (length cols) w)).
  assert (FW : firstn (length (keep del cols)) w' = keep del w_).
  { unfold w'. rewrite <- LK, firstn_app, Nat.sub_diag, firstn_all. simpl. apply app_nil_r. }
  assert (SW : qsum (fun a => a) w_ >= 1 - (qn n - qn (length cols)) * eps).
  { unfold w_. rewrite mixw_sum by lia.
    assert (V1 : qsum (fun a => a) v == 1) by (rewrite <- (wsum_ones cols v LV); apply AP).
    rewrite V1. fold w0 in IS. set (S1 := qsum (fun a => a) w0) in *.
    assert (QN : 0 <= qn n - qn (length cols)).
    { unfold qn. assert (inject_Z (Z.of_nat (length cols)) <= inject_Z (Z.of_nat n)) by (rewrite <- Zle_Qle; lia). lra. }
    assert (0 <= (qn n - qn (length cols)) * eps) by (apply Qmult_le_0_compat; auto).
    set (dd := (qn n - qn (length cols)) * eps) in *.
    assert (0 <= (1 - th) * (S1 - (1 - dd))) by (apply Qmult_le_0_compat; lra).
    assert (0 <= th * dd) by (apply Qmult_le_0_compat; lra).
    assert ((1 - th) * (S1 - (1 - dd)) == (1 - th) * S1 - (1 - dd) + th - th * dd) by ring. lra. }
  assert (SK : 1 - (qn n - qn (length (keep del cols))) * eps <= qsum (fun a => a) (keep del w_)).
  { assert (K := qsum_keep eps w_ E0). fold del in K. rewrite LK, LW in K. lra. }
  split; auto. split; auto. split; auto. split; auto. split; auto.
  split; [|split; auto].
  - destruct IC as (C1 & C2 & C3). split; [|split; [|split; [|split]]].
    + split; [|split].
      * intro Z. assert (KW : keep del w_ = []) by (apply length_zero_iff_nil; rewrite LK, Z; auto).
        rewrite KW, Z in SK. cbn [length qsum] in SK. assert (Z0 : qn 0 == 0) by reflexivity. rewrite Z0 in SK. lra.
      * intros q Hq. apply C2. apply (keep_incl del). auto.
      * apply indep_keep; auto.
    + unfold w'. rewrite app_length, skipn_length, app_length, LW, skipn_length, IL, LK.
      assert (K := keep_length_le del cols). lia.
    + intros a Ha. unfold w' in Ha. apply in_app_iff in Ha. destruct Ha as [Ha|Ha].
      * apply PW. apply (keep_incl del). auto.
      * assert (Ha' : In a (w_ ++ skipn (length cols) w)).
        { rewrite <- (firstn_skipn (length (keep del w_)) (w_ ++ skipn (length cols) w)). apply in_app_iff. auto. }
        apply in_app_iff in Ha'. destruct Ha' as [Ha'|Ha']; auto.
        apply IW. rewrite <- (firstn_skipn (length cols) w). apply in_app_iff. auto.
    + intros a b H. left. apply (keep_gt eps w_). fold del.
      apply (combine_fst_app _ _ (vproj lin (keep del cols)) a b) in H; auto.
      rewrite LK. unfold vproj. rewrite map_length.
      destruct (HL (keep del cols)) as [K _]; auto.
      * intro Z. assert (KW : keep del w_ = []) by (apply length_zero_iff_nil; rewrite LK, Z; auto).
        rewrite KW, Z in SK. cbn [length qsum] in SK. assert (Z0 : qn 0 == 0) by reflexivity. rewrite Z0 in SK. lra.
      * intros q Hq. apply C2. apply (keep_incl del). auto.
      * apply indep_keep; auto.
    + rewrite FW. exact SK.
  - rewrite R', T1. cbn [bind]. cbv zeta. rewrite CW. reflexivity.
Qed.

(** What the minor cycle hands over. *)
Definition mpost (cols : list (list Q)) (w : list Q) : Prop :=
  corral cols /\ length w = S n /\ (forall a, In a w -> 0 <= a) /\
  firstn (length cols) w = vproj lin cols /\ (forall a, In a (vproj lin cols) -> eps < a).

Lemma minor_ok fuel : forall cols w lt, (length cols <= fuel)%nat -> minv cols w ->
  match wolfe_minor lin L eps fuel cols w lt with
  | Ok r => mpost (fst (fst r)) (snd (fst r)) /\ incl (fst (fst r)) cols
  | _ => ~ lsafe L
  end.
Proof.
  induction fuel as [|fuel IH]; intros cols w lt HF HI.
  - destruct HI as ((C1 & _) & _). destruct cols; [contradiction|simpl in HF; lia].
  - assert (IC := proj1 HI). assert (CB := corral_bound cols IC).
    destruct (minor_pass fuel cols w lt HI) as [[EV R]|(th & T1 & T2 & P)].
    + rewrite R. cbn [fst snd]. destruct HI as (_ & IL & IW & _ & _).
      destruct (corral_proj cols IC) as (S0 & LL & AP). assert (LV : length (vproj lin cols) = length cols) by apply AP.
      assert (PV : forall a, In a (vproj lin cols) -> eps < a).
      { intros a Ha. rewrite forallb_forall in EV. apply Qltb_true. auto. }
      split; [|apply incl_refl]. split; [auto|]. split; [|split; [|split]]; auto.
      * rewrite app_length, skipn_length. lia.
      * intros a Ha. apply in_app_iff in Ha. destruct Ha as [Ha|Ha]; [apply PV in Ha; lra|].
        apply IW. rewrite <- (firstn_skipn (length cols) w). apply in_app_iff. auto.
      * rewrite <- LV at 1. rewrite firstn_app, Nat.sub_diag, firstn_all. simpl. apply app_nil_r.
    + cbv zeta in P. destruct P as (P1 & P2 & P3 & P4 & P5 & P6 & P7 & P8). rewrite P8.
      set (w_ := mixw th (firstn (length cols) w) (vproj lin cols)) in *.
      set (del := map (fun a => Qle_bool a eps) w_) in *.
      destruct (l_del L lt del) as [lt'| | |] eqn:ED; cbn [bind];
        try (intros [_ S2]; destruct (S2 lt del) as (lt' & D); congruence).
      specialize (IH (keep del cols) _ lt' ltac:(lia) P6).
      destruct (wolfe_minor _ _ _ _ _ _ lt') as [r| | |]; auto.
      destruct IH as [I1 I2]. split; auto. intros q Hq. apply (keep_incl del). apply I2. auto.
Qed.

End Wolfe.
