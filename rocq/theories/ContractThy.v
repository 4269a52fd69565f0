(** * ContractThy: contracting a set of nodes keeps every symmetric arc sum. *)
From Coq Require Import Sorted.
From Verif Require Import Base Spec MSets SetsThy PartThy CutThy DilThy MContract.

Definition sym0 (f : nat -> nat -> Q) : Prop := (forall u v, f u v == f v u) /\ forall u, f u u == 0.

Definition gsum (f : nat -> nat -> Q) (E : graph) : Q := qsum (fun a => f (asrc a) (adst a) * aw a) E.

Definition squash (S : list nat) (i u : nat) : nat := if mem S u then i else u.

Lemma gsum_ext f g E :
  (forall a, In a E -> f (asrc a) (adst a) == g (asrc a) (adst a)) -> gsum f E == gsum g E.
Proof. intro H. apply qsum_ext. intros a Ha. rewrite (H a Ha). reflexivity. Qed.

Lemma sym0_comp f (p : nat -> nat) : sym0 f -> sym0 (fun u v => f (p u) (p v)).
Proof. intros [H1 H2]. split; intros; auto. Qed.

(** What both classes assume of the graph: live nodes, no parallel arcs, smaller id first,
    weights at least the tolerance. *)
Record Gok (eps : Q) (G : gst) : Prop := {
  Gok_nodes : csorted (gnodes G);
  Gok_arcs : forall a, In a (garcs G) ->
     In (asrc a) (gnodes G) /\ In (adst a) (gnodes G) /\ (asrc a < adst a)%nat /\ eps <= aw a;
  Gok_simple : simple (garcs G)
}.

Section Contract.
  Variable eps : Q.
  Hypothesis Heps : 0 < eps.
  Variable G : gst.
  Hypothesis HG : Gok eps G.
  Variable S : list nat.
  Variable i : nat.
  Hypothesis HiS : In i S.
  Hypothesis Hi : In i (gnodes G).

  Let E := garcs G.

  Lemma miS : mem S i = true.
  Proof. apply mem_In; auto. Qed.

  Lemma w_pos a : In a E -> 0 < aw a.
  Proof. intro H. apply (Gok_arcs eps G HG) in H. destruct H as (_ & _ & _ & H). lra. Qed.

  Definition capt (v : nat) (a : arc) : Q :=
    if mem S (asrc a) && negb (mem S (adst a)) && (adst a =? v)%nat then aw a
    else if negb (mem S (asrc a)) && mem S (adst a) && (asrc a =? v)%nat then aw a
    else 0.

  Lemma capt_cases v a : In a E -> capt v a == 0 \/ (capt v a == aw a /\ eps <= capt v a).
  Proof.
    intro H. apply (Gok_arcs eps G HG) in H. destruct H as (_ & _ & _ & H). unfold capt.
    destruct (mem S (asrc a) && negb (mem S (adst a)) && (adst a =? v)%nat).
    - right. split; [reflexivity|auto].
    - destruct (negb (mem S (asrc a)) && mem S (adst a) && (asrc a =? v)%nat).
      + right. split; [reflexivity|auto].
      + left. reflexivity.
  Qed.

  Lemma cap_cases v : cap_of E S v == 0 \/ eps <= cap_of E S v.
  Proof.
    unfold cap_of. assert (H : forall a, In a E -> capt v a == 0 \/ eps <= capt v a).
    { intros a Ha. destruct (capt_cases v a Ha) as [K|[_ K]]; auto. }
    change (qsum (capt v) E == 0 \/ eps <= qsum (capt v) E). revert H.
    generalize E. intro l. induction l as [|a l IH]; simpl; intro H; [left; reflexivity|].
    destruct (H a (or_introl eq_refl)) as [K1|K1]; destruct IH as [K2|K2]; auto; try (right; lra).
    left. lra.
  Qed.

  Lemma cap_nonneg v : 0 <= cap_of E S v.
  Proof. destruct (cap_cases v); lra. Qed.

  Lemma cap_abs v : qabs (cap_of E S v) = cap_of E S v.
  Proof.
    unfold qabs. destruct (Qltb (cap_of E S v) 0) eqn:H; auto. apply Qltb_true in H.
    assert (K := cap_nonneg v). lra.
  Qed.

  Lemma new_sum f vs : sym0 f ->
    gsum f (new_arcs eps E S i vs) == qsum (fun v => if mem S v then 0 else f i v * cap_of E S v) vs.
  Proof.
    intros [F1 F2]. unfold gsum, new_arcs. induction vs as [|v vs IH]; simpl; [reflexivity|].
    rewrite qsum_app, IH, cap_abs. destruct (mem S v); simpl; [lra|].
    destruct (Qltb (cap_of E S v) eps) eqn:H.
    - apply Qltb_true in H. destruct (cap_cases v) as [K|K]; [|lra]. simpl.
      assert (f i v * cap_of E S v == 0) by (rewrite K; ring). lra.
    - destruct (i <? v)%nat; cbn [qsum asrc adst aw]; rewrite Qred_correct; [lra|].
      rewrite (F1 v i). lra.
  Qed.

  Lemma nodes_NoDup : NoDup (gnodes G).
  Proof. apply csorted_NoDup. apply (Gok_nodes eps G HG). Qed.

  Lemma swap_sum f : sym0 f ->
    qsum (fun v => if mem S v then 0 else f i v * cap_of E S v) (gnodes G) ==
    qsum (fun a => if mem S (asrc a) && negb (mem S (adst a)) then f i (adst a) * aw a
                   else if negb (mem S (asrc a)) && mem S (adst a) then f i (asrc a) * aw a
                   else 0) E.
  Proof.
    intros _.
    rewrite (qsum_ext _ (fun v => qsum (fun a => if mem S v then 0 else f i v * capt v a) E)).
    2:{ intros v _. destruct (mem S v).
        - rewrite qsum_zero; [reflexivity|]. intros; reflexivity.
        - rewrite qsum_scal. reflexivity. }
    rewrite qsum_swap. apply qsum_ext. intros a Ha.
    destruct (Gok_arcs eps G HG a Ha) as (A1 & A2 & A3 & A4). unfold capt.
    destruct (mem S (asrc a)) eqn:M1; destruct (mem S (adst a)) eqn:M2; simpl.
    - apply qsum_zero. intros v _. destruct (mem S v); ring.
    - rewrite (qsum_ext _ (fun v => if (v =? adst a)%nat then f i (adst a) * aw a else 0)).
      + apply qsum_single; auto using nodes_NoDup.
      + intros v _. rewrite (Nat.eqb_sym v). destruct (adst a =? v)%nat eqn:Ev.
        * apply Nat.eqb_eq in Ev. subst v. rewrite M2. reflexivity.
        * destruct (mem S v); ring.
    - rewrite (qsum_ext _ (fun v => if (v =? asrc a)%nat then f i (asrc a) * aw a else 0)).
      + apply qsum_single; auto using nodes_NoDup.
      + intros v _. rewrite (Nat.eqb_sym v). destruct (asrc a =? v)%nat eqn:Ev.
        * apply Nat.eqb_eq in Ev. subst v. rewrite M1. reflexivity.
        * destruct (mem S v); ring.
    - apply qsum_zero. intros v _. destruct (mem S v); ring.
  Qed.

  Lemma untouched_eq a : untouched S i a = negb (mem S (asrc a)) && negb (mem S (adst a)).
  Proof.
    unfold untouched. assert (M := miS).
    destruct (asrc a =? i)%nat eqn:E1; [apply Nat.eqb_eq in E1; rewrite E1, M; reflexivity|].
    destruct (adst a =? i)%nat eqn:E2; [apply Nat.eqb_eq in E2; rewrite E2, M; simpl;
      rewrite andb_false_r; reflexivity|].
    simpl. destruct (mem S (asrc a)), (mem S (adst a)); reflexivity.
  Qed.

  Theorem contract_sum f : sym0 f ->
    gsum f (garcs (contract eps G S i)) == gsum (fun u v => f (squash S i u) (squash S i v)) E.
  Proof.
    intro Hf. unfold contract. cbn [garcs]. unfold gsum at 1. rewrite qsum_app, qsum_filter.
    fold (gsum f (new_arcs eps (garcs G) S i (gnodes G))).
    change (garcs G) with E. rewrite new_sum, swap_sum by auto. rewrite <- qsum_plus.
    apply qsum_ext. intros a Ha. rewrite untouched_eq. unfold squash. destruct Hf as [F1 F2].
    destruct (mem S (asrc a)) eqn:M1; destruct (mem S (adst a)) eqn:M2; simpl.
    - rewrite F2. ring.
    - ring.
    - rewrite (F1 (asrc a) i). ring.
    - ring.
  Qed.

  Lemma new_arcs_In vs a : In a (new_arcs eps E S i vs) ->
    exists v, In v vs /\ ~ In v S /\ eps <= aw a /\
      ((asrc a = i /\ adst a = v /\ (i < v)%nat) \/ (asrc a = v /\ adst a = i /\ (v < i)%nat)).
  Proof.
    unfold new_arcs. rewrite in_flat_map. intros (v & Hv & H). exists v. split; auto. cbv zeta in H.
    rewrite cap_abs in H. destruct (mem S v) eqn:M; [destruct H|].
    simpl in H. destruct (Qltb (cap_of E S v) eps) eqn:C; [destruct H|].
    assert (N : ~ In v S) by (apply mem_false; auto). split; auto.
    apply Qltb_false in C.
    destruct (i <? v)%nat eqn:L; destruct H as [<-|[]]; cbn [asrc adst aw]; rewrite Qred_correct;
      (split; [auto|]).
    - apply Nat.ltb_lt in L. left; auto.
    - apply Nat.ltb_ge in L. right. split; auto. split; auto.
      assert (v <> i) by (intro; subst; auto). lia.
  Qed.

  Lemma new_arcs_simple vs : NoDup vs -> simple (new_arcs eps E S i vs).
  Proof.
    unfold simple. induction vs as [|v vs IH]; intro H; [constructor|].
    inversion H as [|? ? H1 H2]; subst.
    assert (SP : new_arcs eps E S i (v :: vs) = new_arcs eps E S i [v] ++ new_arcs eps E S i vs).
    { unfold new_arcs. simpl. rewrite app_nil_r. reflexivity. }
    rewrite SP.
    rewrite map_app. apply NoDup_app_intro; auto.
    - unfold new_arcs. simpl. rewrite app_nil_r.
      destruct (mem S v || Qltb (qabs (cap_of E S v)) eps); [constructor|].
      destruct (i <? v)%nat; repeat constructor; simpl; auto.
    - intros p Hp Hq. apply in_map_iff in Hp, Hq. destruct Hp as (a & <- & Ha).
      destruct Hq as (b & Hb & Hb'). injection Hb as B1 B2.
      destruct (new_arcs_In _ _ Ha) as (x & [<-|[]] & X2 & _ & X3).
      destruct (new_arcs_In _ _ Hb') as (y & Y1 & Y2 & _ & Y3).
      assert (v <> y) by (intro; subst; auto). lia.
  Qed.

  Theorem contract_ok : Gok eps (contract eps G S i).
  Proof.
    assert (N := Gok_nodes eps G HG).
    assert (NI : forall v, In v (gnodes (contract eps G S i)) <-> In v (gnodes G) /\ (v = i \/ ~ In v S)).
    { intro v. simpl. rewrite filter_In, orb_true_iff, Nat.eqb_eq, negb_true_iff, mem_false. tauto. }
    constructor.
    - simpl. apply csorted_filter; auto.
    - intros a Ha. rewrite !NI. simpl in Ha. apply in_app_or in Ha. destruct Ha as [Ha|Ha].
      + apply filter_In in Ha. destruct Ha as [A1 A2]. rewrite untouched_eq in A2.
        apply andb_true_iff in A2. rewrite !negb_true_iff, !mem_false in A2.
        destruct (Gok_arcs eps G HG a A1) as (B1 & B2 & B3 & B4). tauto.
      + destruct (new_arcs_In _ _ Ha) as (v & V1 & V2 & V3 & [(V4 & V5 & V6)|(V4 & V5 & V6)]);
          rewrite V4, V5; tauto.
    - simpl. unfold simple. rewrite map_app. apply NoDup_app_intro.
      + assert (K := Gok_simple eps G HG). unfold simple in K. revert K. generalize (garcs G).
        intro l. induction l as [|a l IH]; simpl; intro K; auto. inversion K; subst.
        destruct (untouched S i a); simpl; auto. constructor; auto.
        intro C. apply H1. apply in_map_iff in C. destruct C as (b & C1 & C2).
        apply in_map_iff. exists b. split; auto. apply filter_In in C2. tauto.
      + apply new_arcs_simple. apply nodes_NoDup.
      + intros p Hp Hq. apply in_map_iff in Hp, Hq. destruct Hp as (a & <- & Ha).
        destruct Hq as (b & Hb & Hb'). injection Hb as B1 B2.
        apply filter_In in Ha. destruct Ha as [_ Ha]. rewrite untouched_eq in Ha.
        apply andb_true_iff in Ha. rewrite !negb_true_iff, !mem_false in Ha.
        destruct (new_arcs_In _ _ Hb') as (y & Y1 & Y2 & _ & [(Y4 & Y5 & _)|(Y4 & Y5 & _)]);
          rewrite <- B1, <- B2, Y4, Y5 in Ha; tauto.
  Qed.
End Contract.

Lemma ordered_sorted E vs :
  csorted vs -> (forall a, In a E -> In (asrc a) vs /\ In (adst a) vs /\ (asrc a < adst a)%nat) ->
  ordered E vs.
Proof.
  intros Hs H l v r -> a Ha Hv. destruct (H a Ha) as (H1 & H2 & H3). rewrite Hv in H3.
  apply in_app_or in H1. destruct H1 as [H1|H1]; auto. exfalso.
  unfold csorted in Hs. clear -Hs H1 H3. induction l as [|x l IH]; simpl in *.
  - inversion Hs as [|? ? _ F]; subst. destruct H1 as [H1|H1]; [lia|].
    rewrite Forall_forall in F. apply F in H1. lia.
  - inversion Hs; subst. auto.
Qed.
