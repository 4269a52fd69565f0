(** * FloatPsp: class PSP_I in floating-point arithmetic finds the exact principal sequence. *)
From Coq Require Import Qabs Sorted.
From Verif Require Import Base Spec PartThy SubThy MSets SetsThy MGraph MaxFlow CutThy MDil DilThy BFThy
  MDT SeqThy DTThy PSPThy DTTop MContract ContractThy MPSPI TreeThy DecThy PSPIThy PSPILoop
  DilApprox ApproxThy MFloat FloatThy FloatDil FloatDT MFloatP.

(** ** Arcs with the same ends and nearly the same weight *)
Definition arel (t : Q) (a b : arc) : Prop :=
  asrc a = asrc b /\ adst a = adst b /\ near (t * aw b) (aw a) (aw b).

Lemma arel_mono t t' a b : t <= t' -> 0 <= aw b -> arel t a b -> arel t' a b.
Proof.
  intros H Hb (A & B & C). split; auto. split; auto. apply near_wk with (t * aw b); auto.
  assert (0 <= (t' - t) * aw b) by (apply Qmult_le_0_compat; lra). lra.
Qed.

Lemma arel_sum t l m : Forall2 (arel t) l m -> near (t * qsum aw m) (qsum aw l) (qsum aw m).
Proof.
  induction 1 as [|a b l m (_ & _ & [A B]) _ [C D]]; cbn [qsum].
  - split; lra.
  - split; lra.
Qed.

Lemma arel_filter t (p : arc -> bool) l m :
  (forall a b, asrc a = asrc b -> adst a = adst b -> p a = p b) ->
  Forall2 (arel t) l m -> Forall2 (arel t) (filter p l) (filter p m).
Proof.
  intros Hp H. apply Forall2_filter; auto. intros x y _ _ (A & B & _). auto.
Qed.

(** The stored weights as a function of the exact arcs. *)
Lemma arel_stored t : forall l m, Forall2 (arel t) l m -> simple m ->
  exists rw, l = stored rw m /\ forall a, In a m -> Qabs (rw a - aw a) <= t * aw a.
Proof.
  induction 1 as [|a b l m Hab H IH]; intro Hs.
  - exists aw. split; auto. intros a [].
  - unfold simple in Hs. simpl in Hs. inversion Hs as [|? ? N1 N2]; subst.
    destruct (IH N2) as (rw & R1 & R2).
    set (same := fun c : arc => (asrc c =? asrc b)%nat && (adst c =? adst b)%nat).
    assert (Sb : same b = true) by (unfold same; rewrite !Nat.eqb_refl; auto).
    assert (Sm : forall c, In c m -> same c = false).
    { intros c Hc. destruct (same c) eqn:C; auto. exfalso. apply N1. unfold same in C.
      apply andb_true_iff in C. destruct C as [C1 C2]. apply Nat.eqb_eq in C1, C2.
      apply in_map_iff. exists c. rewrite C1, C2. auto. }
    exists (fun c => if same c then aw a else rw c). split.
    + unfold stored. cbn [map]. rewrite Sb. destruct Hab as (A & B & _). f_equal.
      * rewrite <- A, <- B. destruct a; auto.
      * rewrite R1. apply map_ext_in. intros c Hc. rewrite (Sm c Hc). auto.
    + intros c [<-|Hc].
      * rewrite Sb. apply near_abs. apply Hab.
      * rewrite (Sm c Hc). auto.
Qed.

(** ** Counting *)
Lemma filter_two {A} (p : A -> bool) l : (length (filter p l) + length (filter (fun x => negb (p x)) l) = length l)%nat.
Proof. induction l as [|a l IH]; simpl; auto. destruct (p a); simpl; lia. Qed.

(** Contracting the part [S] removes all its live nodes but [i]. *)
Lemma contract_count S i l : NoDup l -> In i l -> mem S i = true ->
  (length (filter (fun v => (v =? i)%nat || negb (mem S v)) l) + length (filter (mem S) l) = length l + 1)%nat.
Proof.
  intros Hn Hi Hm. induction l as [|a l IH]; [destruct Hi|].
  inversion Hn as [|? ? N1 N2]; subst. cbn [filter length].
  destruct (Nat.eqb_spec a i) as [->|Na].
  - rewrite Hm. cbn [orb length].
    assert (K : filter (fun v => (v =? i)%nat || negb (mem S v)) l = filter (fun v => negb (mem S v)) l).
    { apply filter_ext_in. intros v Hv. destruct (Nat.eqb_spec v i); [subst; contradiction|reflexivity]. }
    rewrite K. assert (T := filter_two (mem S) l). lia.
  - destruct Hi as [Hi|Hi]; [contradiction|]. specialize (IH N2 Hi). destruct (mem S a); cbn [orb negb length]; lia.
Qed.

(** ** One contraction *)
Section Contract.
  Variable u : Q.
  Variable o : fops.
  Variable it : graph -> graph.
  Variable n : nat.
  Variable eps : Q.
  Variable D : positive.
  Hypothesis Hu : 0 <= u.
  Hypothesis Ho : std_model u o.
  Hypothesis Heps : 0 < eps.
  Hypothesis Hn2 : (2 <= n)%nat.
  Hypothesis Hit : forall F, graph_on (seq 0 n) F -> Permutation (it F) F.
  Hypothesis Hsm : 16 * (qn n * u) <= 1.
  (** Weights that are multiples of 1/D are clearly above the tolerance. *)
  Hypothesis HDe : 2 * eps * (Zpos D # 1) < 1.

  (** Relative error of the weights when [k] nodes are alive. *)
  Definition gtol (k : nat) : Q := 2 * qn (1 + 4 * (n - k)) * u.

  Definition gsim (Gf Gx : gst) : Prop :=
    gnodes Gf = gnodes Gx /\ Forall2 (arel (gtol (length (gnodes Gx)))) (garcs Gf) (garcs Gx).

  Lemma qn_mul a b : qn (a * b) == qn a * qn b.
  Proof. unfold qn. rewrite Nat2Z.inj_mul, inject_Z_mult. reflexivity. Qed.
  Lemma qn_add a b : qn (a + b) == qn a + qn b.
  Proof. unfold qn. rewrite Nat2Z.inj_add, inject_Z_plus. reflexivity. Qed.

  Lemma gtol_le k : (1 <= k)%nat -> gtol k <= 8 * (qn n * u).
  Proof.
    intro Hk. unfold gtol. assert (L : (1 + 4 * (n - k) <= 4 * n)%nat) by lia. apply qn_le in L.
    rewrite qn_mul in L. change (qn 4) with 4 in L.
    assert (0 <= (4 * qn n - qn (1 + 4 * (n - k))) * u) by (apply Qmult_le_0_compat; lra). lra.
  Qed.

  Variables Gf Gx : gst.
  Variable S : list nat.
  Variable i : nat.
  Hypothesis HG : Gok eps Gx.
  Hypothesis Hin : incl (gnodes Gx) (seq 0 n).
  Hypothesis HD : multiples_of D (garcs Gx).
  Hypothesis Hsim : gsim Gf Gx.
  Hypothesis HiS : In i S.
  Hypothesis Hi : In i (gnodes Gx).
  Hypothesis Hlive : (2 <= length (filter (mem S) (gnodes Gx)))%nat.

  Let E := garcs Gx.
  Let F := garcs Gf.
  Let t := gtol (length (gnodes Gx)).
  Let L := filter (mem S) (gnodes Gx).
  Let t' := gtol (length (gnodes (contract eps Gx S i))).

  Lemma live_len : (1 <= length (gnodes Gx))%nat /\ (length (gnodes Gx) <= n)%nat.
  Proof.
    split; [destruct (gnodes Gx); [destruct Hi|simpl; lia]|].
    assert (K := NoDup_incl_length (csorted_NoDup _ (Gok_nodes _ _ HG)) Hin). rewrite seq_length in K. auto.
  Qed.

  Lemma t_half : 0 <= t /\ t <= 1#2.
  Proof.
    destruct live_len as [A _]. assert (K := gtol_le _ A). fold t in K. split; [|lra].
    unfold t, gtol. assert (0 <= qn (1 + 4 * (n - length (gnodes Gx)))) by apply qn_nonneg.
    repeat apply Qmult_le_0_compat; lra.
  Qed.

  Lemma w_pos a : In a E -> 0 < aw a.
  Proof. intro H. destruct (Gok_arcs _ _ HG a H) as (_ & _ & _ & K). lra. Qed.

  Lemma F_on : graph_on (seq 0 n) F.
  Proof.
    intros a Ha. destruct Hsim as [_ HF]. destruct (Forall2_In_l _ _ _ a HF Ha) as (b & B1 & B2 & B3 & B4 & B5).
    destruct (Gok_arcs _ _ HG b B1) as (C1 & C2 & C3 & C4). rewrite B2, B3. split; auto. split; auto.
    fold t in B4, B5. destruct t_half. assert (0 <= (1 - t) * aw b) by (apply Qmult_le_0_compat; lra). lra.
  Qed.

  Lemma t_step : t + 4 * (qn (length L) * u) <= t'.
  Proof.
    assert (C := contract_count S i (gnodes Gx) (csorted_NoDup _ (Gok_nodes _ _ HG)) Hi (proj2 (mem_In S i) HiS)).
    destruct live_len as [_ N].
    unfold t, t', gtol. cbn [gnodes contract].
    fold L in C, Hlive. set (k' := length (filter (fun v => (v =? i)%nat || negb (mem S v)) (gnodes Gx))) in *. clearbody k' L.
    assert (Z : (1 + 4 * (n - length (gnodes Gx)) + 2 * length L <= 1 + 4 * (n - k'))%nat) by lia.
    apply qn_le in Z. rewrite qn_add, qn_mul in Z. change (qn 2) with 2 in Z.
    assert (0 <= (qn (1 + 4 * (n - k')) - (qn (1 + 4 * (n - length (gnodes Gx))) + 2 * qn (length L))) * u) by (apply Qmult_le_0_compat; lra). lra.
  Qed.

  Lemma cap_sum v : cap_of E S v == qsum aw (filter (touches S v) E).
  Proof.
    rewrite qsum_filter. unfold cap_of. apply qsum_ext. intros a _. unfold touches.
    destruct (mem S (asrc a) && negb (mem S (adst a)) && (adst a =? v)%nat); reflexivity.
  Qed.

  Lemma touches_ends v a b : asrc a = asrc b -> adst a = adst b -> touches S v a = touches S v b.
  Proof. intros A B. unfold touches. rewrite A, B. auto. Qed.

  Lemma touches_count v : (length (filter (touches S v) E) <= length L)%nat.
  Proof.
    set (oth := fun p : nat * nat => if (snd p =? v)%nat then fst p else snd p).
    set (ends := fun a : arc => (asrc a, adst a)).
    set (l := filter (touches S v) E).
    assert (N0 : NoDup (map ends l)).
    { assert (K := Gok_simple _ _ HG). unfold simple in K. fold E in K. unfold l. revert K. generalize E. clear.
      intro l. induction l as [|a l IH]; simpl; intro H; auto. inversion H as [|? ? H1 H2]; subst.
      destruct (touches S v a); simpl; auto. constructor; auto. intro C. apply H1.
      apply in_map_iff in C. destruct C as (b & B1 & B2). apply in_map_iff. exists b. split; auto.
      apply filter_In in B2. tauto. }
    assert (Fa : forall q, In q (map ends l) ->
      (In (fst q) L /\ snd q = v /\ (fst q < v)%nat) \/ (In (snd q) L /\ fst q = v /\ (v < snd q)%nat)).
    { intros q Hq. apply in_map_iff in Hq. destruct Hq as (a & <- & Ha). apply filter_In in Ha. destruct Ha as [A1 A2].
      destruct (Gok_arcs _ _ HG a A1) as (C1 & C2 & C3 & _). cbn [ends fst snd]. unfold touches in A2.
      apply orb_true_iff in A2. destruct A2 as [A2|A2]; apply andb_true_iff in A2; destruct A2 as [A2 A3];
        apply andb_true_iff in A2; destruct A2 as [A2 A4]; apply Nat.eqb_eq in A3.
      - left. split; [apply filter_In; auto|]. split; auto. lia.
      - right. split; [apply filter_In; auto|]. split; auto. lia. }
    assert (N1 : NoDup (map oth (map ends l))).
    { revert N0 Fa. generalize (map ends l). clear -L. intros q N0 Fa. induction q as [|x q IH]; simpl; [constructor|].
      inversion N0 as [|? ? M1 M2]; subst. constructor.
      - intro C. apply in_map_iff in C. destruct C as (y & Y1 & Y2). apply M1.
        assert (x = y); [|subst; auto]. destruct x as [x1 x2], y as [y1 y2].
        destruct (Fa (x1, x2) (or_introl eq_refl)) as [(_ & X1 & X2)|(_ & X1 & X2)];
        destruct (Fa (y1, y2) (or_intror Y2)) as [(_ & Z1 & Z2)|(_ & Z1 & Z2)];
        unfold oth in Y1; simpl in *; subst;
        repeat match goal with H : context[(?a =? ?b)%nat] |- _ => destruct (Nat.eqb_spec a b) end; subst; try lia; auto.
      - apply IH; auto. intros z Hz. apply Fa. right; auto. }
    rewrite <- (map_length ends l), <- (map_length oth). apply NoDup_incl_length; auto.
    intros x Hx. apply in_map_iff in Hx. destruct Hx as (q & <- & Hq). unfold oth.
    destruct (Fa q Hq) as [(A & B & C)|(A & B & C)].
    - rewrite B, Nat.eqb_refl. auto.
    - destruct (Nat.eqb_spec (snd q) v); [lia|auto].
  Qed.

  Lemma cap_near v : near (t' * cap_of E S v) (f_cap_of o it F S v) (cap_of E S v).
  Proof.
    rewrite !cap_sum. unfold f_cap_of. destruct Hsim as [_ HF].
    assert (P1 : Permutation (filter (touches S v) (it F)) (filter (touches S v) F)) by (apply filter_perm; apply Hit; apply F_on).
    assert (HFf := arel_filter _ (touches S v) _ _ (touches_ends v) HF). fold t E F in HFf.
    assert (Len := Forall2_len _ _ _ HFf). assert (Cn := touches_count v).
    destruct (arel_sum _ _ _ HFf) as [A1 A2].
    set (l := filter (touches S v) (it F)) in *.
    assert (Ll : (length l <= length L)%nat) by (rewrite (Permutation_length P1); lia).
    assert (Hl : forall a, In a l -> 0 <= aw a).
    { intros a Ha. apply (graph_on_nonneg _ _ F_on). apply (Permutation_in _ P1) in Ha. apply filter_In in Ha. tauto. }
    set (cx := qsum aw (filter (touches S v) E)) in *. set (cf := qsum aw (filter (touches S v) F)) in *.
    assert (Lc : qsum aw l == cf) by (apply qsum_perm; exact P1).
    assert (C0 : 0 <= cx).
    { apply qsum_nonneg. intros a Ha. apply filter_In in Ha. apply Qlt_le_weak, w_pos. tauto. }
    destruct live_len as [LA LB]. destruct t_half as [T0 T1].
    assert (LL : (length L <= n)%nat).
    { apply Nat.le_trans with (length (gnodes Gx)); auto. unfold L. clear. induction (gnodes Gx); simpl; auto.
      destruct (mem S a); simpl; lia. }
    apply qn_le in LL. assert (Q0 := qn_nonneg (length L)).
    assert (Sm : 0 <= (qn n - qn (length L)) * u) by (apply Qmult_le_0_compat; lra).
    assert (K := fsum_near u o Hu Ho (map aw l) 0 cf (length L)).
    rewrite map_length, (abs_nonneg_sum aw l Hl), qsum_map in K.
    change (qsum (fun x : arc => aw x) l) with (qsum aw l) in K. rewrite Lc in K. change (Qabs 0) with 0 in K.
    assert (Nu : 0 <= qn n * u) by (apply Qmult_le_0_compat; auto using qn_nonneg).
    specialize (K Ll ltac:(lra) ltac:(lra)). destruct K as [K1 K2].
    assert (C2 : cf <= 2 * cx).
    { assert (0 <= (1 - t) * cx) by (apply Qmult_le_0_compat; lra). lra. }
    assert (M0 : 0 <= qn (length L) * u) by (apply Qmult_le_0_compat; auto).
    assert (Z : 0 <= 2 * (qn (length L) * u) * (2 * cx - cf)) by (apply Qmult_le_0_compat; lra).
    assert (Y : 0 <= (t' - (t + 4 * (qn (length L) * u))) * cx) by (apply Qmult_le_0_compat; [assert (TS := t_step); lra|auto]).
    split; lra.
  Qed.

  Lemma t'_half : t' <= 1#2.
  Proof.
    assert (K : (1 <= length (gnodes (contract eps Gx S i)))%nat).
    { cbn [gnodes contract]. assert (X : In i (filter (fun v => (v =? i)%nat || negb (mem S v)) (gnodes Gx))).
      { apply filter_In. rewrite Nat.eqb_refl. auto. } revert X. generalize (filter (fun v => (v =? i)%nat || negb (mem S v)) (gnodes Gx)). intros [|? ?] X; [destruct X|simpl; lia]. }
    assert (Z := gtol_le _ K). fold t' in Z. lra.
  Qed.

  (** The two contractions keep the same arcs. *)
  Lemma cap_test v : mem S v = false ->
    Qltb (qabs (f_cap_of o it F S v)) eps = Qltb (qabs (cap_of E S v)) eps /\
    (eps <= cap_of E S v -> qabs (f_cap_of o it F S v) = f_cap_of o it F S v).
  Proof.
    intro Hv. assert (CA : qabs (cap_of E S v) = cap_of E S v) by apply (cap_abs eps Heps Gx HG S v). rewrite CA.
    destruct (cap_near v) as [A B]. assert (T := t'_half).
    destruct (filter (touches S v) E) as [|a l] eqn:Ef.
    - assert (Z : cap_of E S v == 0) by (rewrite cap_sum, Ef; reflexivity).
      assert (Zf : f_cap_of o it F S v == 0).
      { rewrite Z in A, B. lra. }
      split; [|intro; lra].
      rewrite (proj2 (Qltb_true _ _)) by (unfold qabs; destruct (Qltb _ 0) eqn:?; lra).
      rewrite (proj2 (Qltb_true _ _)) by lra. auto.
    - assert (Ha : In a E) by (assert (K : In a (filter (touches S v) E)) by (rewrite Ef; left; auto); apply filter_In in K; tauto).
      assert (Ge : aw a <= cap_of E S v).
      { rewrite cap_sum, Ef. cbn [qsum]. assert (0 <= qsum aw l); [|lra]. apply qsum_nonneg. intros b Hb.
        apply Qlt_le_weak, w_pos. assert (K : In b (filter (touches S v) E)) by (rewrite Ef; right; auto). apply filter_In in K. tauto. }
      assert (Big : 2 * eps < aw a).
      { destruct (HD a Ha) as (z & Hz). assert (Pz := w_pos a Ha). rewrite Hz in Pz |- *.
        assert (z0 : (1 <= z)%Z) by (unfold Qlt in Pz; simpl in Pz; lia).
        set (DD := Zpos D # 1) in *. assert (HDD : 0 < DD) by reflexivity.
        assert (M : (z # D) * DD == inject_Z z) by (unfold DD, Qeq, Qmult, inject_Z; simpl; lia).
        assert (M1 : 1 <= inject_Z z) by (change 1 with (inject_Z 1); rewrite <- Zle_Qle; auto).
        apply Qmult_lt_r with DD; auto. rewrite M. lra. }
      assert (Cp : 0 <= (( 1 # 2) - t') * cap_of E S v) by (apply Qmult_le_0_compat; lra).
      set (cx := cap_of E S v) in *. set (cf := f_cap_of o it F S v) in *.
      assert (Cf : eps < cf) by lra.
      assert (Ab : qabs cf = cf) by (unfold qabs; rewrite (proj2 (Qltb_false _ _)) by lra; auto).
      rewrite Ab. split; auto. rewrite !(proj2 (Qltb_false _ _)) by lra. auto.
  Qed.

  Lemma new_sim : forall vs, Forall2 (arel t') (f_new_arcs o it eps F S i vs) (new_arcs eps E S i vs).
  Proof.
    induction vs as [|v vs IH]; [constructor|]. cbn [f_new_arcs new_arcs flat_map].
    apply Forall2_app; [|exact IH]. cbv zeta. destruct (mem S v) eqn:Hv; [constructor|]. cbn [orb].
    destruct (cap_test v Hv) as [A B]. rewrite A. destruct (Qltb (qabs (cap_of E S v)) eps) eqn:C; [constructor|].
    assert (CA : qabs (cap_of E S v) = cap_of E S v) by apply (cap_abs eps Heps Gx HG S v). rewrite CA in *. apply Qltb_false in C. rewrite (B C).
    assert (K := cap_near v).
    destruct (i <? v)%nat; (constructor; [|constructor]); (split; [reflexivity|split; [reflexivity|]]); cbn [aw];
      rewrite Qred_correct; exact K.
  Qed.

  Theorem contract_sim : gsim (f_contract o it eps Gf S i) (contract eps Gx S i).
  Proof.
    destruct Hsim as [Hn HF]. split.
    - cbn [gnodes f_contract contract]. rewrite Hn. auto.
    - fold t'. cbn [garcs f_contract contract]. apply Forall2_app.
      + assert (TS := t_step). assert (Q0 := qn_nonneg (length L)).
        assert (0 <= qn (length L) * u) by (apply Qmult_le_0_compat; auto).
        apply (Forall2_impl_in (arel t) (arel t')); [|apply (arel_filter t (untouched S i)); [|exact HF]].
        * intros a b _ Hb. apply arel_mono; [lra|]. apply filter_In in Hb. apply Qlt_le_weak, w_pos. tauto.
        * intros a b A B. unfold untouched. rewrite A, B. auto.
      + rewrite Hn. apply new_sim.
  Qed.
End Contract.
