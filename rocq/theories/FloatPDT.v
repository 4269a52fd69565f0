(** * FloatPDT: the merge loop and the main loop of class PDT in floating-point arithmetic. *)
From Coq Require Import Qabs Sorted.
From Verif Require Import Base Graph Spec PartThy SubThy MSets SetsThy MGraph MaxFlow MDil CutThy DilThy MDT
  SeqThy DTThy PSPThy DTTop MPMF LamThy ParThy SliceThy PDTThy DilApprox ApproxThy MFloat FloatThy FloatDil FloatDT
  MFloatT FloatLam FloatPar FloatSlice.

(** ** Expanding finer partitions by smaller sets *)
Lemma pexpand_refines p p' t t' : (forall B, In B p -> B <> []) -> t <> [] ->
  refines p' p -> incl t' t -> refines (pexpand p' t') (pexpand p t).
Proof.
  intros Hp Ht HR HI B HB. assert (PP := pexpand_perm p t Hp Ht).
  set (U := fold_left (fun acc B => cunion B acc) (filter (meets t) p) t) in *.
  assert (KU : In U (pexpand p t)) by (eapply Permutation_in; [symmetry; exact PP|left; auto]).
  assert (KM : forall C, In C p -> meets t C = true -> incl C U).
  { intros C HC HM x Hx. apply fold_cunion_In. right. apply in_concat. exists C. split; auto. apply filter_In. auto. }
  apply pexpand_In in HB. destruct HB as [->|[HB HM]].
  - exists U. split; auto. intros x Hx. apply fold_cunion_In in Hx. destruct Hx as [Hx|Hx].
    + apply fold_cunion_In. left. auto.
    + apply in_concat in Hx. destruct Hx as (B & HB & Hx). apply filter_In in HB. destruct HB as [HB HM].
      destruct (HR B HB) as (C & HC & I). apply meets_true in HM. destruct HM as (z & Z1 & Z2).
      apply (KM C HC); [|auto]. apply meets_true. exists z. auto.
  - destruct (HR B HB) as (C & HC & I). destruct (meets t C) eqn:EM.
    + exists U. split; auto. intros x Hx. apply (KM C HC EM). auto.
    + exists C. split; auto. eapply Permutation_in; [symmetry; exact PP|]. right. apply filter_In. rewrite EM. auto.
Qed.

(** ** The merge loop, with upper ends that may repeat *)
Section FMerge.
  Variable good : Q -> list (list nat) -> Prop.

  Fixpoint wfw {X} (lo : Q) (L : list (dbl * X)) : Prop :=
    match L with
    | [] => False
    | (Fin q, _) :: r => lo <= q /\ wfw q r
    | (PInf, _) :: r => r = []
    | (NaN, _) :: _ => False
    end.

  Fixpoint gbw (lo : Q) (F : list (dbl * list (list nat))) : Prop :=
    match F with
    | [] => False
    | (d, q) :: r =>
        (forall lam, lo <= lam -> dge d lam -> good lam q) /\
        match d with
        | PInf => r = []
        | Fin x => lo <= x /\ gbw x r /\ match r with (_, q') :: _ => q' <> q /\ refines q' q | [] => False end
        | NaN => False
        end
    end.

  Lemma gbw_wfw F : forall lo, gbw lo F -> wfw lo F.
  Proof.
    induction F as [|[d q] r IH]; intros lo H; simpl in *; auto. destruct H as [_ H].
    destruct d; auto. destruct H as (H1 & H2 & _). auto.
  Qed.

  Lemma gbw_act F : forall lo lam q, gbw lo F -> lo <= lam -> act lam F q -> good lam q.
  Proof.
    induction F as [|[d x] r IH]; intros lo lam q H Hl HA; inversion HA as [d' x' r' Hd|q0 x' r' x'' Hq Ha]; subst.
    - destruct H as [H _]. auto.
    - destruct H as [_ H]. destruct H as (H1 & H2 & _). eapply IH; eauto.
  Qed.

  Lemma wfw_act {X} (L : list (dbl * X)) : forall lo lam, wfw lo L -> lo <= lam -> exists x, act lam L x.
  Proof.
    induction L as [|[[q| |] x] r IH]; intros lo lam H Hl; simpl in H; try contradiction.
    - destruct H as [H1 H2]. destruct (Qlt_le_dec lam q) as [K|K].
      + exists x. apply act_here. simpl. lra.
      + destruct (IH q lam H2 K) as (x' & Hx'). exists x'. apply act_next; auto.
    - exists x. apply act_here. simpl. auto.
  Qed.

  Definition rsorted (A : list (dbl * list (list nat))) : Prop := StronglySorted (fun a b => refines (snd b) (snd a)) A.
  Definition isorted (B : list (dbl * cset)) : Prop := StronglySorted (fun a b => incl (snd b) (snd a)) B.

  Lemma gbw_sorted F : forall lo, gbw lo F -> rsorted F.
  Proof.
    induction F as [|[d q] r IH]; intros lo H; [constructor|]. destruct H as [_ H]. destruct d as [x| |]; [|subst|contradiction].
    - destruct H as (_ & H2 & H3). specialize (IH x H2). constructor; auto.
      destruct r as [|[d' q'] r]; [constructor|]. destruct H3 as [_ H3].
      inversion IH as [|? ? S1 S2]; subst. constructor; auto.
      eapply Forall_impl; [|exact S2]. simpl. intros a Ha. eapply refines_trans; eauto.
    - repeat constructor.
  Qed.

  Lemma gbw_good F : forall lo q, gbw lo F -> In q (map snd F) -> exists lam, lo <= lam /\ good lam q.
  Proof.
    induction F as [|[d x] r IH]; intros lo q H Hq; [destruct Hq|]. destruct H as [H1 H2].
    destruct Hq as [<-|Hq].
    - exists lo. split; [lra|]. apply H1; [lra|]. destruct d; simpl; auto. tauto.
    - destruct d as [z| |]; [|subst; destruct Hq|contradiction]. destruct H2 as (H2 & H3 & _).
      destruct (IH z q H3 Hq) as (lam & L1 & L2). exists lam. split; auto. lra.
  Qed.

  Lemma mergew_cases {X Y} lo (A : list (dbl * X)) (B : list (dbl * Y)) :
    wfw lo A -> wfw lo B ->
    exists di p A' dk t B', A = (di, p) :: A' /\ B = (dk, t) :: B' /\
      (forall lam, dge (dmin di dk) lam <-> dge di lam /\ dge dk lam) /\
      ((dmin di dk = PInf /\ dle di dk = true /\ dle dk di = true /\ A' = [] /\ B' = []) \/
       (exists x, dmin di dk = Fin x /\ lo <= x /\
          let A2 := if dle di dk then A' else A in
          let B2 := if dle dk di then B' else B in
          wfw x A2 /\ wfw x B2 /\ (length A2 + length B2 < length A + length B)%nat /\
          (forall lam p', x <= lam -> act lam A2 p' -> act lam A p') /\
          (forall lam t', x <= lam -> act lam B2 t' -> act lam B t'))).
  Proof.
    destruct A as [|[di p] A']; [intros []|]. destruct B as [|[dk t] B']; [intros _ []|].
    intros HA HB. exists di, p, A', dk, t, B'. split; auto. split; auto.
    destruct di as [x| |], dk as [z| |]; simpl in HA, HB; try contradiction.
    - destruct HA as [A1 A2]. destruct HB as [B1 B2].
      unfold dmin, dltb, dle. destruct (Qltb z x) eqn:E.
      + apply Qltb_true in E. split; [intro lam; simpl; split; [intros; split; lra|tauto]|].
        right. exists z. split; auto. split; auto.
        assert (K1 : Qle_bool x z = false) by (apply Qle_bool_false; auto).
        assert (K2 : Qle_bool z x = true) by (apply Qle_bool_iff; lra). rewrite K1, K2. cbv zeta.
        split; [simpl; split; [lra|auto]|]. split; auto. split; [simpl; lia|]. split; auto.
        intros lam t' Hl Ha. apply act_next; auto.
      + apply Qltb_false in E. split; [intro lam; simpl; split; [intros; split; lra|tauto]|].
        right. exists x. split; auto. split; auto.
        assert (K1 : Qle_bool x z = true) by (apply Qle_bool_iff; auto). rewrite K1. cbv zeta.
        destruct (Qle_bool z x) eqn:K2.
        * apply Qle_bool_iff in K2. assert (x == z) by lra.
          split; auto. split.
          -- clear -H B2. destruct B' as [|[[w| |] t'] B']; simpl in *; auto. destruct B2. split; [lra|auto].
          -- split; [simpl; lia|]. split; intros lam v Hl Ha; apply act_next; auto. lra.
        * apply Qle_bool_false in K2. split; auto. split; [simpl; split; [lra|auto]|].
          split; [simpl; lia|]. split; auto. intros lam v Hl Ha. apply act_next; auto.
    - destruct HA as [A1 A2]. unfold dmin, dltb, dle. split; [intro lam; simpl; tauto|].
      right. exists x. split; auto. split; auto. cbv zeta. split; auto.
      split; [simpl; auto|]. split; [simpl; lia|]. split; auto.
      intros lam v Hl Ha. apply act_next; auto.
    - destruct HB as [B1 B2]. unfold dmin, dltb, dle. split; [intro lam; simpl; tauto|].
      right. exists z. split; auto. split; auto. cbv zeta.
      split; [simpl; auto|]. split; auto. split; [simpl; lia|]. split; auto.
      intros lam v Hl Ha. apply act_next; auto.
    - unfold dmin, dltb, dle. split; [intro lam; simpl; tauto|]. left. auto.
  Qed.

  (** All sets of [B] and all parts of [A] are non-empty. *)
  Definition nea (A : list (dbl * list (list nat))) : Prop := forall p, In p (map snd A) -> forall B, In B p -> B <> [].
  Definition neb (B : list (dbl * cset)) : Prop := forall t, In t (map snd B) -> t <> [].

  Lemma head_refines di p A' dk t B' : nea ((di, p) :: A') -> neb ((dk, t) :: B') ->
    rsorted ((di, p) :: A') -> isorted ((dk, t) :: B') ->
    forall p' t', In p' (map snd ((di, p) :: A')) -> In t' (map snd ((dk, t) :: B')) ->
      refines (pexpand p' t') (pexpand p t).
  Proof.
    intros NA NB SA SB p' t' Hp Ht. inversion SA as [|? ? SA1 SA2]; subst. inversion SB as [|? ? SB1 SB2]; subst.
    rewrite Forall_forall in SA2, SB2. apply pexpand_refines.
    - apply NA. left; auto.
    - apply NB. left; auto.
    - destruct Hp as [<-|Hp]; [apply refines_refl|]. apply in_map_iff in Hp. destruct Hp as (a & <- & Ha).
      exact (SA2 a Ha).
    - destruct Ht as [<-|Ht]; [apply incl_refl|]. apply in_map_iff in Ht. destruct Ht as (b & <- & Hb).
      exact (SB2 b Hb).
  Qed.

  Lemma mergew_ok : forall fuel A B s lo q o,
    (length A + length B < fuel)%nat -> wfw lo A -> wfw lo B -> s <= lo ->
    nea A -> neb B -> rsorted A -> isorted B ->
    (forall p t, In p (map snd A) -> In t (map snd B) -> refines (pexpand p t) q) ->
    (forall lam, s <= lam -> lam <= lo -> good lam q) ->
    (forall lam p t, lo <= lam -> act lam A p -> act lam B t -> good lam (pexpand p t)) ->
    exists d r, pdt_merge fuel A B ((Fin lo, q) :: o) = Ok (rev o ++ (d, q) :: r) /\ gbw s ((d, q) :: r).
  Proof.
    induction fuel as [|fuel IH]; intros A B s lo q o Hfu HA HB Hs NA NB SA SB HR Hq Hg; [lia|].
    destruct (mergew_cases lo A B HA HB) as (di & p & A' & dk & t & B' & -> & -> & Hd & Hc).
    cbn [pdt_merge].
    assert (Good : forall lam, lo <= lam -> dge (dmin di dk) lam -> good lam (pexpand p t)).
    { intros lam Hl Hdl. apply Hd in Hdl. destruct Hdl as [D1 D2]. apply Hg; auto; apply act_here; auto. }
    assert (Rh := HR p t (or_introl eq_refl) (or_introl eq_refl)).
    assert (Hh := head_refines di p A' dk t B' NA NB SA SB).
    destruct Hc as [(Dm & L1 & L2 & -> & ->)|(x & Dm & Hlx & Hrest)].
    - rewrite L1, L2, Dm. rewrite Dm in Good.
      assert (Efin : forall out, pdt_merge fuel [] [] out = Ok (rev out)).
      { intro out. destruct fuel; [simpl in Hfu; lia|reflexivity]. }
      destruct (peqb (pexpand p t) q) eqn:Eq.
      + apply peqb_true in Eq. rewrite Efin. exists PInf, []. split; [reflexivity|].
        simpl. split; auto. intros lam Hl _. destruct (Qlt_le_dec lam lo); [apply Hq; lra|].
        rewrite <- Eq. apply Good; simpl; auto.
      + rewrite Efin. exists (Fin lo), [(PInf, pexpand p t)]. split.
        { simpl. rewrite <- app_assoc. reflexivity. }
        simpl. split; [auto|]. split; auto. split; [split; auto|]. split; [|exact Rh].
        intro C. apply peqb_true in C. congruence.
    - cbv zeta in Hrest. destruct Hrest as (W1 & W2 & Hlen & T1 & T2). rewrite Dm. rewrite Dm in Good.
      set (A2 := if dle di dk then A' else (di, p) :: A') in *.
      set (B2 := if dle dk di then B' else (dk, t) :: B') in *.
      assert (IA : forall z, In z (map snd A2) -> In z (map snd ((di, p) :: A'))).
      { unfold A2. destruct (dle di dk); auto. intros z Hz. right. auto. }
      assert (IB : forall z, In z (map snd B2) -> In z (map snd ((dk, t) :: B'))).
      { unfold B2. destruct (dle dk di); auto. intros z Hz. right. auto. }
      assert (NA2 : nea A2) by (intros z Hz; apply NA; auto).
      assert (NB2 : neb B2) by (intros z Hz; apply NB; auto).
      assert (SA2 : rsorted A2) by (unfold A2; destruct (dle di dk); auto; inversion SA; auto).
      assert (SB2 : isorted B2) by (unfold B2; destruct (dle dk di); auto; inversion SB; auto).
      assert (Hg2 : forall lam p' t', x <= lam -> act lam A2 p' -> act lam B2 t' -> good lam (pexpand p' t')).
      { intros lam p' t' Hl H1 H2. apply Hg; [lra|apply T1; auto|apply T2; auto]. }
      destruct (peqb (pexpand p t) q) eqn:Eq.
      + apply peqb_true in Eq.
        destruct (IH A2 B2 s x q o) as (d & r & R1 & R2); auto; try lia; try lra.
        { intros lam H1 H2. destruct (Qlt_le_dec lam lo); [apply Hq; lra|].
          rewrite <- Eq. apply Good; simpl; auto. }
        exists d, r. auto.
      + destruct (IH A2 B2 lo x (pexpand p t) ((Fin lo, q) :: o)) as (d & r & R1 & R2); auto; try lia; try lra.
        exists (Fin lo), ((d, pexpand p t) :: r). split.
        { rewrite R1. cbn [rev]. rewrite <- app_assoc. reflexivity. }
        cbn [gbw]. split; [auto|]. split; [auto|]. split; [exact R2|]. split; [|exact Rh].
        intro C. apply peqb_true in C. congruence.
  Qed.

  Theorem mergew_start fuel A B lo :
    (length A + length B < fuel)%nat -> wfw lo A -> wfw lo B ->
    nea A -> neb B -> rsorted A -> isorted B ->
    (forall lam p t, lo <= lam -> act lam A p -> act lam B t -> good lam (pexpand p t)) ->
    exists F, pdt_merge fuel A B [] = Ok F /\ gbw lo F.
  Proof.
    destruct fuel as [|fuel]; intros Hfu HA HB NA NB SA SB Hg; [lia|].
    destruct (mergew_cases lo A B HA HB) as (di & p & A' & dk & t & B' & -> & -> & Hd & Hc).
    cbn [pdt_merge].
    assert (Good : forall lam, lo <= lam -> dge (dmin di dk) lam -> good lam (pexpand p t)).
    { intros lam Hl Hdl. apply Hd in Hdl. destruct Hdl as [D1 D2]. apply Hg; auto; apply act_here; auto. }
    assert (Hh := head_refines di p A' dk t B' NA NB SA SB).
    destruct Hc as [(Dm & L1 & L2 & -> & ->)|(x & Dm & Hlx & Hrest)].
    - rewrite L1, L2, Dm. rewrite Dm in Good. exists [(PInf, pexpand p t)].
      split; [destruct fuel; [simpl in Hfu; lia|reflexivity]|]. simpl. split; auto.
    - cbv zeta in Hrest. destruct Hrest as (W1 & W2 & Hlen & T1 & T2). rewrite Dm. rewrite Dm in Good.
      set (A2 := if dle di dk then A' else (di, p) :: A') in *.
      set (B2 := if dle dk di then B' else (dk, t) :: B') in *.
      assert (IA : forall z, In z (map snd A2) -> In z (map snd ((di, p) :: A'))).
      { unfold A2. destruct (dle di dk); auto. intros z Hz. right. auto. }
      assert (IB : forall z, In z (map snd B2) -> In z (map snd ((dk, t) :: B'))).
      { unfold B2. destruct (dle dk di); auto. intros z Hz. right. auto. }
      destruct (mergew_ok fuel A2 B2 lo x (pexpand p t) []) as (d & r & R1 & R2); try lia; auto.
      + intros z Hz; apply NA; auto.
      + intros z Hz; apply NB; auto.
      + unfold A2; destruct (dle di dk); auto; inversion SA; auto.
      + unfold B2; destruct (dle dk di); auto; inversion SB; auto.
      + intros lam p' t' Hl H1 H2. apply Hg; [lra|apply T1; auto|apply T2; auto].
      + rewrite R1. simpl. eauto.
  Qed.
End FMerge.

Lemma cbands_wfw rest : forall T lo, StronglySorted Qle (lo :: map fst rest) -> wfw lo (cbands T rest).
Proof.
  induction rest as [|[l T'] r IH]; intros T lo H; cbn [cbands wfw map fst] in *; auto.
  inversion H as [|? ? H1 H2]; subst. inversion H2; subst. split; auto.
Qed.

Lemma cbands_snd rest : forall T, map snd (cbands T rest) = T :: map snd rest.
Proof. induction rest as [|[l T'] r IH]; intro T; cbn [cbands map snd]; auto. rewrite IH. reflexivity. Qed.

Lemma cbands_isorted n E j (Hjn : (j < n)%nat) y s rest : forall T Te, fch E j y s T rest Te -> isorted (cbands T rest).
Proof.
  induction rest as [|[l T'] r IH]; intros T Te H; cbn [cbands]; [repeat constructor|].
  assert (K := fch_incl n E j Hjn y s _ _ _ H). destruct H as (_ & _ & H4 & H5 & _ & _ & H9).
  constructor; [eapply IH; eauto|]. rewrite Forall_forall in *. intros b Hb. cbn [snd].
  assert (Hb' : In (snd b) (map snd (cbands T' r))) by (apply in_map; auto). rewrite cbands_snd in Hb'.
  apply (K (snd b)). exact Hb'.
Qed.

Lemma fch_inj E j y s rest : forall T Te, fch E j y s T rest Te -> forall t, In t (map snd rest) -> In j t.
Proof.
  induction rest as [|[l T'] r IH]; intros T Te H t Ht; [destruct Ht|].
  destruct H as (_ & H2 & _ & _ & _ & _ & H9). destruct Ht as [<-|Ht]; auto. eapply IH; eauto.
Qed.

Lemma seq_last_rel E' vs del P cs : forall lo Ps, seq_chain Qle (near_optimal E' vs del) (Some lo) P cs Ps ->
  exists b, forall lam, b <= lam -> near_optimal E' vs del lam (last Ps P).
Proof.
  revert P. induction cs as [|c cs IH]; intros P lo [|P' Ps] H; try (simpl in H; contradiction).
  - exists lo. exact H.
  - destruct H as (_ & _ & _ & _ & H). destruct (IH P' c Ps H) as (b & Hb). exists b.
    assert (L : last (P' :: Ps) P = last Ps P'); [|rewrite L; auto].
    clear. revert P P'. induction Ps as [|P2 Ps IH]; intros P P'; auto.
    change (last (P' :: P2 :: Ps) P) with (last (P2 :: Ps) P). rewrite (IH P P2), (IH P' P2). auto.
Qed.

Lemma seq_ne n : (1 <= n)%nat -> seq 0 n <> [].
Proof. destruct n; [lia|discriminate]. Qed.

(** ** The main loop *)
(** [f_pdt_step] and [f_pdt_run] over any stage function. *)
Definition f_pdt_step_gen (run : nat -> list (Q * dbl) -> res (list dbl * list cset)) (o : fops) (it : graph -> graph)
           (E : graph) (n : nat) (st : pdt_state) (j : nat) : res pdt_state :=
  do r <- run j (fst st);
  let lams := fst r in
  let sets := snd r in
  do y' <- mapr (f_y_entry o it E lams sets j (fst st)) (seq 0 n);
  if (length sets =? S (length lams))%nat then
    let B := combine (lams ++ [PInf]) sets in
    do out <- pdt_merge (S (length (snd st) + length B)) (snd st) B [];
    Ok (y', out)
  else UB.
Definition f_pdt_run_gen (run : nat -> list (Q * dbl) -> res (list dbl * list cset)) (o : fops) (it : graph -> graph)
           (E : graph) (n : nat) : res (list dbl * list cpart) :=
  if (n =? 0)%nat then UB
  else
    do st <- foldr (f_pdt_step_gen run o it E n) (repeat (0, PInf) n, [(PInf, [[0%nat]])]) (seq 1 (n - 1));
    Ok (removelast (map fst (snd st)), map snd (snd st)).

(** [f_pdt_step] and [f_pdt_run] with upper ends [Lup j y] for the stages. *)
Definition f_pdt_step_to (Lup : nat -> list (Q * dbl) -> dbl) (o : fops) (it : graph -> graph) (itn : network -> network)
           (mc : solver) (eps il : Q) (E : graph) (n : nat) (st : pdt_state) (j : nat) : res pdt_state :=
  do r <- f_pmf_run_to (Lup j (fst st)) o it itn mc eps il E n j (fst st);
  let lams := fst r in
  let sets := snd r in
  do y' <- mapr (f_y_entry o it E lams sets j (fst st)) (seq 0 n);
  if (length sets =? S (length lams))%nat then
    let B := combine (lams ++ [PInf]) sets in
    do out <- pdt_merge (S (length (snd st) + length B)) (snd st) B [];
    Ok (y', out)
  else UB.
Definition f_pdt_run_to (Lup : nat -> list (Q * dbl) -> dbl) (o : fops) (it : graph -> graph) (itn : network -> network)
           (mc : solver) (eps il : Q) (E : graph) (n : nat) : res (list dbl * list cpart) :=
  if (n =? 0)%nat then UB
  else
    do st <- foldr (f_pdt_step_to Lup o it itn mc eps il E n) (repeat (0, PInf) n, [(PInf, [[0%nat]])]) (seq 1 (n - 1));
    Ok (removelast (map fst (snd st)), map snd (snd st)).

Section FLoop.
  Variable u : Q.
  Variable o : fops.
  Hypothesis Hu : 0 <= u.
  Hypothesis Hu1 : u <= 1.
  Hypothesis Ho : std_model u o.
  Hypothesis Hmono : mono_ops o.
  Variable n : nat.
  Hypothesis Hn1 : (1 <= n)%nat.
  Variable W : Q.
  Hypothesis HW : 1 <= W.
  Let N := qn n.
  Let nw := N * W.
  Let eta := u * (60 * nw).
  Let nu := N * eta.
  Variable eps : Q.
  Hypothesis Heps0 : 0 < eps.
  Hypothesis Hnu : 32 * nu <= eps.
  Let NE := N * eps.
  Let NE2 := N * NE.
  Let NE3 := N * NE2.
  Let NE4 := N * NE3.
  Hypothesis Hsm : 2000 * NE4 <= 1.
  Variable it : graph -> graph.
  Variable E : graph.
  Hypothesis Hit : Permutation (it E) E.
  Hypothesis HE : graph_on (seq 0 n) E.
  Hypothesis Hs : simple E.
  Hypothesis Hf : forward E.
  Hypothesis Hw : forall a, In a E -> eps <= aw a.
  Hypothesis HWE : total E <= W.
  Variable il : Q.
  Hypothesis Hil1 : - (1#5) <= il.
  Hypothesis Hil2 : il <= - (1#20).
  (** A stage: the largest set is nearly minimal among the larger ones at [il], and the chain below it. *)
  Variable TH : Prop.
  Variable run : nat -> list (Q * dbl) -> res (list dbl * list cset).
  Hypothesis Hrun : forall j y, (1 <= j < n)%nat -> (forall v, (v < j)%nat -> pbnd W (yat y v)) ->
    (forall v, (v < j)%nat -> fst (yat y v) <= incut E (mem [v]) + nu) ->
    (forall v b, (v < j)%nat -> snd (yat y v) = Fin b -> fst (yat y v) - b <= 4 * W + eta) -> (forall v, (j <= v)%nat -> yat y v = (0, PInf)) ->
    (exists X, win (seq 0 j) j X /\ gval E j y il X + 5 * nu < gval E j y il (mem [j])) ->
    (TH /\ run j y = Throw) \/
    exists T0 rest,
      run j y = Ok (map (fun p => Fin (fst p)) rest, T0 :: map snd rest) /\
      (csorted T0 /\ In j T0 /\ win (seq 0 j) j (mem T0) /\ (length T0 <= S j)%nat /\
       aup (incut E) (seq 0 j) j (fun i l => ycap (yat y i) l) (20 * NE) (mem T0) il) /\
      fch E j y (20 * NE) T0 rest [j] /\ StronglySorted Qle (map fst rest) /\
      Forall (fun l => il - 2 * eps <= l /\ l <= 4 * W) (map fst rest).

  Let f := incut E.
  Let lo0 := il - 2 * eps.

  Let N1 : 1 <= N.
  Proof. unfold N. change 1 with (qn 1). apply qn_le. lia. Qed.
  Let nwW : W <= nw.
  Proof. apply ge1_mul; [apply N1|lra]. Qed.
  Let et0 : 0 <= eta.
  Proof. unfold eta. assert (K := nwW). apply Qmult_le_0_compat; lra. Qed.
  Let et_nu : eta <= nu.
  Proof. apply ge1_mul; [apply N1|apply et0]. Qed.
  Let e1 : eps <= NE.
  Proof. apply ge1_mul; [apply N1|lra]. Qed.
  Let e2 : NE <= NE2.
  Proof. apply ge1_mul; [apply N1|assert (K := e1); lra]. Qed.
  Let e3 : NE2 <= NE3.
  Proof. apply ge1_mul; [apply N1|assert (K := e1); assert (K2 := e2); lra]. Qed.
  Let e4 : NE3 <= NE4.
  Proof. apply ge1_mul; [apply N1|assert (K := e1); assert (K2 := e2); assert (K3 := e3); lra]. Qed.
  Let Nnu : 32 * (N * nu) <= NE.
  Proof. assert (0 <= N * (eps - 32 * nu)) by (apply Qmult_le_0_compat; assert (K := N1); lra). unfold NE. lra. Qed.
  Let HepsN : 32 * (N * eps) <= 1.
  Proof. fold NE. assert (K2 := e2); assert (K3 := e3); assert (K4 := e4). assert (K1 := e1). lra. Qed.

  Definition fphi (k : nat) : Q := 20 * NE2 + 3 * nu + qn k * (2 * nu).
  Definition ftau (k : nat) : Q := qn k * (42 * NE3).
  Definition fdel : Q := 64 * NE4.

  Ltac ats := assert (aN1 := N1); assert (anw := nwW); assert (aet := et0); assert (aen := et_nu); assert (ae1 := e1);
    assert (ae2 := e2); assert (ae3 := e3); assert (ae4 := e4); assert (aNn := Nnu); assert (aHN := HepsN).

  Lemma le_N k x : (k <= n)%nat -> 0 <= x -> qn k * x <= N * x.
  Proof. intros Hk Hx. apply Qmult_le_compat_r; auto. apply qn_le. auto. Qed.

  Lemma fphi_bnd k : (k <= n)%nat -> 0 <= fphi k /\ fphi k <= 21 * NE2.
  Proof.
    intro Hk. ats. assert (L := le_N k (2 * nu) Hk ltac:(lra)). assert (Q0 := qn_nonneg k).
    assert (0 <= qn k * (2 * nu)) by (apply Qmult_le_0_compat; lra).
    assert (NN : nu <= N * nu) by (apply ge1_mul; lra).
    assert (X : N * (2 * nu) == 2 * (N * nu)) by ring. unfold fphi. lra.
  Qed.
  Lemma nphi_bnd k m : (k <= n)%nat -> (m <= n)%nat -> qn m * fphi k <= 21 * NE3.
  Proof.
    intros Hk Hm. ats. destruct (fphi_bnd k Hk) as [A B]. assert (L := le_N m (fphi k) Hm A).
    assert (0 <= N * (21 * NE2 - fphi k)) by (apply Qmult_le_0_compat; lra).
    assert (X : N * (21 * NE2 - fphi k) == 21 * NE3 - N * fphi k) by (unfold NE3; ring). lra.
  Qed.
  Lemma ftau_S k : ftau (S k) == ftau k + 42 * NE3.
  Proof. unfold ftau. rewrite qn_S. ring. Qed.
  Lemma fphi_S k : fphi (S k) == fphi k + 2 * nu.
  Proof. unfold fphi. rewrite qn_S. ring. Qed.
  Lemma ftau_bnd k : (k <= n)%nat -> 0 <= ftau k /\ ftau k <= 42 * NE4.
  Proof.
    intro Hk. ats. assert (L := le_N k (42 * NE3) Hk ltac:(lra)). assert (Q0 := qn_nonneg k).
    assert (0 <= qn k * (42 * NE3)) by (apply Qmult_le_0_compat; lra).
    assert (X : N * (42 * NE3) == 42 * NE4) by (unfold NE4; ring). unfold ftau. lra.
  Qed.

  Definition fgood (y : list (Q * dbl)) (k : nat) (lam : Q) (P : list (list nat)) : Prop :=
    is_partition (seq 0 k) P /\ (forall B, In B P -> csorted B) /\ psorted P /\
    (il <= lam -> adef f (ftau k) lam (yvec y k lam) P).

  Record finv (k : nat) (st : pdt_state) : Prop := {
    fi_len : length (fst st) = n;
    fi_bnd : forall v, (v < k)%nat -> pbnd W (yat (fst st) v);
    fi_fst : forall v, (v < k)%nat -> fst (yat (fst st) v) <= incut E (mem [v]) + nu;
    fi_gap : forall v b, (v < k)%nat -> snd (yat (fst st) v) = Fin b -> fst (yat (fst st) v) - b <= 4 * W + eta;
    fi_rest : forall v, (k <= v)%nat -> yat (fst st) v = (0, PInf);
    fi_feas : forall lam, il <= lam -> afeas f (fphi k) lam (yvec (fst st) k lam);
    fi_gb : gbw (fgood (fst st) k) lo0 (snd st) }.

  Let Hnn : nonneg E := graph_on_nonneg _ _ HE.

  Lemma f_step_ok j st : (1 <= j < n)%nat -> finv j st ->
    (TH /\ f_pdt_step_gen run o it E n st j = Throw) \/
    exists st', f_pdt_step_gen run o it E n st j = Ok st' /\ finv (S j) st'.
  Proof.
    intros Hj HI. destruct st as [y A]. destruct HI as [I1 I2 Ia Ig Ir I3 I4]. cbn [fst snd] in *.
    assert (Hjn : (j < n)%nat) by lia. ats.
    assert (WA := gbw_wfw _ _ _ I4).
    assert (HX : exists X, win (seq 0 j) j X /\ gval E j y il X + 5 * nu < gval E j y il (mem [j])).
    { exists (mem (seq 0 (S j))). split.
      { intros x Hx. apply mem_In, in_seq in Hx. destruct (Nat.eq_dec x j); [right; auto|left; apply in_seq; lia]. }
      destruct (wfw_act A lo0 il WA ltac:(unfold lo0; lra)) as (q & Hq).
      destruct (gbw_act _ _ lo0 il q I4 ltac:(unfold lo0; lra) Hq) as (G1 & _ & _ & G4).
      specialize (G4 ltac:(lra)). unfold adef in G4.
      assert (PL := part_length_pos (seq 0 j) (seq_NoDup j 0) q ltac:(destruct j; [lia|discriminate]) G1).
      assert (P1 : - il <= qsum (fun B => f (mem B) - il) q).
      { destruct q as [|B q]; [simpl in PL; lia|]. cbn [qsum].
        assert (0 <= qsum (fun B => f (mem B) - il) q).
        { apply qsum_nonneg. intros C _. assert (0 <= f (mem C)); [|lra]. apply incut_nonneg. auto. }
        assert (0 <= f (mem B)) by (apply incut_nonneg; auto). lra. }
      unfold gval. assert (F1 : fj f j (mem (seq 0 (S j))) == 0).
      { unfold fj. rewrite <- (incut_prefix E Hf (S j)). apply incut_ext. intro x.
        destruct (Nat.eqb x j) eqn:Ex; auto. apply Nat.eqb_eq in Ex. subst.
        symmetry. cbn [orb]. apply mem_In, in_seq. lia. }
      assert (F2 : 0 <= fj f j (mem [j])) by (apply incut_nonneg; auto).
      assert (V1 : vs (seq 0 j) (fun v => ycap (yat y v) il) (mem (seq 0 (S j))) == qsum snd (yvec y j il)).
      { unfold yvec, vec. rewrite qsum_map. apply qsum_ext. intros v Hv. apply in_seq in Hv.
        assert (K : mem (seq 0 (S j)) v = true) by (apply mem_In, in_seq; lia). rewrite K. reflexivity. }
      assert (V2 : vs (seq 0 j) (fun v => ycap (yat y v) il) (mem [j]) == 0).
      { apply qsum_zero. intros v Hv. apply in_seq in Hv.
        assert (K : mem [j] v = false) by (apply mem_false; intros [C|[]]; lia). rewrite K. reflexivity. }
      destruct (ftau_bnd j ltac:(lia)) as [_ TB]. fold f. rewrite F1, V1, V2. lra. }
    unfold f_pdt_step_gen. cbn [fst snd].
    destruct (Hrun j y Hj I2 Ia Ig Ir HX) as [[R0 R]|(T0 & rest & R1 & (Q1 & Q2 & Q3 & Q4 & Q5) & R3 & R4 & R5)].
    { left. rewrite R. auto. }
    right. rewrite R1. cbn [bind fst snd].
    assert (Hya : forall v, (v < j)%nat -> fst (yat y v) <= incut E (mem [v]) + nu) by exact Ia.
    assert (R5' : Forall (fun l => - (1#2) <= l /\ l <= 4 * W) (map fst rest)).
    { eapply Forall_impl; [|exact R5]. simpl. intros l [L1 L2]. split; lra. }
    set (Ry := fun v (p : Q * dbl) =>
      ((v < j)%nat -> fst p = fst (yat y v) /\ pbnd W p /\
         (p = yat y v \/ exists b, snd p = Fin b /\ fst p - b <= 4 * W + eta) /\
         forall lam, near (2 * eta) (ycap p lam) (zval (fun i l => ycap (yat y i) l) (mem T0) (nrest rest) lam v)) /\
      (v = j -> p = (f_cut_value o it E [j], PInf)) /\
      ((j < v)%nat -> p = yat y v)).
    destruct (mapr_ok (f_y_entry o it E (map (fun p => Fin (fst p)) rest) (T0 :: map snd rest) j y) Ry (seq 0 n))
      as (y' & Y1 & Y2).
    { intros v Hv. apply in_seq in Hv. unfold Ry.
      apply (f_entry_ok u o Hu Ho n W HW eps Heps0 Hnu HepsN it E j Hjn y I2 (20 * (qn n * eps)) rest T0 v R3 R4 R5'). lia. }
    rewrite Y1. cbn [bind]. destruct (Forall2_seq Ry (0, PInf) n 0 y' Y2) as [Y3 Y4].
    assert (Y5 : forall v, (v < n)%nat -> Ry v (yat y' v)) by (intros v Hv; apply (Y4 v Hv)). clear Y4.
    assert (Ln : (length (T0 :: map snd rest) =? S (length (map (fun p => Fin (fst p)) rest)))%nat = true).
    { apply Nat.eqb_eq. simpl. rewrite !map_length. auto. }
    rewrite Ln, cbands_combine.
    set (sg := 20 * NE). assert (R3' : fch E j y sg T0 rest [j]) by exact R3.
    assert (WinT : win (seq 0 j) j (mem T0)) by exact Q3.
    assert (Hup : aup f (seq 0 j) j (fun i l => ycap (yat y i) l) sg (mem T0) il).
    { exact Q5. }
    assert (Hpc := fch_apchain E j y sg rest T0 R3' R4).
    assert (HN : ~ In j (seq 0 j)) by (rewrite in_seq; lia).
    assert (Hsg : 0 <= sg) by (unfold sg; lra).
    assert (Lr : (S (length (nrest rest)) <= n)%nat).
    { assert (L1 := fch_length n E j Hjn y sg rest T0 [j] R3'). assert (L2 := Q4).
      unfold nrest. rewrite map_length. simpl in L1. lia. }
    assert (KK : kk sg (nrest rest) + sg <= 20 * NE2).
    { rewrite kk_len. assert (L := le_N (S (length (nrest rest))) sg Lr Hsg). rewrite qn_S in L.
      assert (X : N * sg == 20 * NE2) by (unfold sg, NE2; ring). lra. }
    assert (Ze : qn (length (seq 0 j)) * (2 * eta) <= 2 * nu).
    { rewrite seq_length. assert (L := le_N j (2 * eta) ltac:(lia) ltac:(lra)).
      assert (X : N * (2 * eta) == 2 * nu) by (unfold nu; ring). lra. }
    assert (Cj : near nu (f_cut_value o it E [j]) (incut E (mem [j])))
      by exact (fcv_near u o Hu Ho n W HW eps Heps0 Hnu HepsN it E Hit j Hjn HE Hs HWE y [j]).
    assert (Zj : forall lam, near nu (ycap (yat y' j) lam) (fj f j (fun _ => false) - lam)).
    { intro lam. destruct (Y5 j Hjn) as (_ & Yj & _). rewrite (Yj eq_refl).
      assert (K : incut E (mem [j]) == fj f j (fun _ => false)).
      { apply incut_ext. intro x. rewrite orb_false_r. destruct (Nat.eqb x j) eqn:Ex.
        - apply Nat.eqb_eq in Ex. subst. apply mem_In. left; auto.
        - apply mem_false. intros [C|[]]. apply Nat.eqb_neq in Ex. auto. }
      assert (C2 : ycap (f_cut_value o it E [j], PInf) lam == f_cut_value o it E [j] - lam)
        by (unfold ycap; simpl; reflexivity).
      destruct Cj as [C3 C4]. split; lra. }
    assert (InT : forall lam t, act lam (cbands T0 rest) t -> In t (T0 :: map snd rest)).
    { clear. intros lam t. revert T0. induction rest as [|[l T'] r IH]; intros T H; inversion H; subst; simpl; auto.
      right. apply IH. auto. }
    assert (IncT := fch_incl n E j Hjn y sg rest T0 [j] R3').
    assert (Stage : forall lam p t, lo0 <= lam -> act lam A p -> act lam (cbands T0 rest) t ->
       (il <= lam -> afeas f (fphi (S j)) lam (yvec y' (S j) lam)) /\ fgood y' (S j) lam (pexpand p t)).
    { intros lam p t Hl HA HB.
      assert (Gp := gbw_act _ _ lo0 lam p I4 Hl HA). destruct Gp as (G1 & G2 & G3 & G4).
      destruct (fcbands_act E j y sg rest T0 lam t R3' Q1 Q2 HB) as (B1 & B2 & B3).
      assert (Core : il <= lam -> afeas f (fphi (S j)) lam (yvec y' (S j) lam) /\
                                 adef f (ftau (S j)) lam (yvec y' (S j) lam) (pexpand p t)).
      { intro Hil. unfold yvec. rewrite seq_S. cbn [plus].
        destruct (fphi_bnd j ltac:(lia)) as [PH0 _].
        assert (PL : (length p <= n)%nat).
        { assert (K := part_length_le (seq 0 j) (seq_NoDup j 0) p G1). rewrite seq_length in K. lia. }
        assert (NP := nphi_bnd j (length p) ltac:(lia) PL).
        assert (kk0 := kk_nonneg sg Hsg (nrest rest)).
        assert (PS := fphi_S j). assert (TS := ftau_S j).
        assert (PJ : 20 * NE2 + 3 * nu <= fphi j).
        { unfold fphi. assert (0 <= qn j * (2 * nu)) by (apply Qmult_le_0_compat; [apply qn_nonneg|lra]). lra. }
        apply (astage_ok f (incut_ext E) (fun A B _ => incut_sub E A B Hnn)
                 (seq 0 j) (seq_NoDup j 0) j HN (fun i l => ycap (yat y i) l) (fun i l l' => ycap_anti (yat y i) l l')
                 sg Hsg (mem T0) (nrest rest) il lam (mem t) (fun i => ycap (yat y' i) lam) p t
                 (fphi j) (fphi (S j)) (ftau j) (ftau (S j)) (2 * eta) nu (21 * NE3)); auto; try lra.
        - exact (I3 lam Hil).
        - intros v Hv. apply in_seq in Hv. apply (Y5 v); lia. }
      split; [intro Hil; apply Core; auto|]. split; [|split; [|split; [|intro Hil; apply Core; auto]]].
      + rewrite seq_S. cbn [plus]. apply pexpand_partition; auto.
        * assert (Sq := seq_NoDup (S j) 0). rewrite seq_S in Sq. exact Sq.
        * assert (Wt : incl t T0).
          { destruct (InT _ _ HB) as [->|Ht]; [apply incl_refl|]. rewrite Forall_forall in IncT. apply IncT. auto. }
          intros x Hx. apply in_app_iff. destruct (WinT x (proj2 (mem_In _ _) (Wt x Hx))); [left; auto|right; left; auto].
      + apply pexpand_csorted; auto.
      + apply pexpand_sorted; auto. }
    assert (WB : wfw lo0 (cbands T0 rest)).
    { apply cbands_wfw. constructor; auto. eapply Forall_impl; [|exact R5]. simpl. intros l [L1 _]. unfold lo0. lra. }
    assert (InB : forall t, In t (map snd (cbands T0 rest)) -> In t (T0 :: map snd rest)).
    { clear. revert T0. induction rest as [|[l T'] r IH]; intros T t H; cbn [cbands map snd] in *; auto.
      destruct H as [<-|H]; [left; auto|right; apply IH; auto]. }
    assert (JT : forall t, In t (T0 :: map snd rest) -> In j t).
    { intros t [<-|Ht]; [exact Q2|]. exact (fch_inj E j y sg rest T0 [j] R3' t Ht). }
    destruct (mergew_start (fgood y' (S j)) (S (length A + length (cbands T0 rest))) A (cbands T0 rest) lo0)
      as (F & F1 & F2); auto.
    { intros p Hp B HB ->. destruct (gbw_good _ _ _ _ I4 Hp) as (lam & _ & G1 & _). apply (proj2 G1). auto. }
    { intros t Ht ->. apply (JT []). apply InB. auto. }
    { eapply gbw_sorted. exact I4. }
    { apply (cbands_isorted n E j Hjn y sg rest T0 [j] R3'). }
    { intros lam p t Hl H1 H2. apply Stage; auto. }
    rewrite F1. cbn [bind]. exists (y', F). split; auto. split; cbn [fst snd]; auto.
    - intros v Hv. destruct (Nat.eq_dec v j) as [->|Hne].
      + destruct (Y5 j Hjn) as (_ & Yj & _). rewrite (Yj eq_refl). split; [|exact I]. cbn [fst].
        assert (K := incut_le E (mem [j]) Hnn). assert (K2 := incut_nonneg E (mem [j]) Hnn). destruct Cj. split; lra.
      + apply (Y5 v); lia.
    - intros v Hv. destruct (Nat.eq_dec v j) as [->|Hne].
      + destruct (Y5 j Hjn) as (_ & Yj & _). rewrite (Yj eq_refl). cbn [fst]. destruct Cj. lra.
      + destruct (Y5 v ltac:(lia)) as (Yv & _). destruct (Yv ltac:(lia)) as (Yf & _). rewrite Yf. apply Hya. lia.
    - intros v b Hv Hb. destruct (Nat.eq_dec v j) as [->|Hne].
      + destruct (Y5 j Hjn) as (_ & Yj & _). rewrite (Yj eq_refl) in Hb. discriminate Hb.
      + destruct (Y5 v ltac:(lia)) as (Yv & _). destruct (Yv ltac:(lia)) as (_ & _ & [Yg|(b' & Yb & Yg)] & _).
        * rewrite Yg in *. apply Ig; auto. lia.
        * rewrite Yb in Hb. injection Hb as <-. exact Yg.
    - intros v Hv. destruct (Nat.lt_ge_cases v n) as [Hun|Hun].
      + destruct (Y5 v Hun) as (_ & _ & Yr). rewrite (Yr ltac:(lia)). apply Ir. lia.
      + unfold yat. apply nth_overflow. lia.
    - intros lam Hl. destruct (wfw_act _ _ lam WA ltac:(unfold lo0; lra)) as (p & Hp).
      destruct (wfw_act _ _ lam WB ltac:(unfold lo0; lra)) as (t & Ht).
      apply (Stage lam p t); auto. unfold lo0; lra.
  Qed.

  Lemma f_fold_ok k : forall s st, (1 <= s)%nat -> (s + k <= n)%nat -> finv s st ->
    (TH /\ foldr (f_pdt_step_gen run o it E n) st (seq s k) = Throw) \/
    exists st', foldr (f_pdt_step_gen run o it E n) st (seq s k) = Ok st' /\ finv (s + k) st'.
  Proof.
    induction k as [|k IH]; intros s st H1 H2 HI; cbn [seq foldr].
    - right. exists st. rewrite Nat.add_0_r. auto.
    - destruct (f_step_ok s st ltac:(lia) HI) as [[R0 R]|(st1 & S1 & S2)].
      { left. rewrite R. auto. }
      rewrite S1. cbn [bind].
      destruct (IH (S s) st1 ltac:(lia) ltac:(lia) S2) as [R|(st2 & S3 & S4)]; [left; auto|].
      right. exists st2. split; auto. replace (s + S k)%nat with (S s + k)%nat by lia. auto.
  Qed.

  Lemma f_inv_start : finv 1 (repeat (0, PInf) n, [(PInf, [[0%nat]])]).
  Proof.
    ats. assert (Y0 : yat (repeat (0, PInf) n) 0 = (0, PInf)) by (destruct n; [lia|reflexivity]).
    assert (V : forall lam X, xsum (yvec (repeat (0, PInf) n) 1 lam) X == if X 0%nat then 0 - lam else 0).
    { intros lam X. unfold yvec. rewrite vec_xsum. cbn [seq qsum]. rewrite Y0. unfold ycap; cbn [fst snd].
      destruct (X 0%nat); lra. }
    assert (F0 : forall X, within X [0%nat] -> incut E X == 0).
    { intros X HX. apply qsum_zero. intros a Ha. destruct (X (adst a)) eqn:Ed; [|rewrite andb_false_r; reflexivity].
      apply HX in Ed. destruct Ed as [Ed|[]]. assert (K := Hf a Ha). lia. }
    destruct (fphi_bnd 1 ltac:(lia)) as [PH0 _]. destruct (ftau_bnd 1 ltac:(lia)) as [T0 _].
    split; cbn [fst snd].
    - apply repeat_length.
    - intros v Hv. replace v with 0%nat by lia. rewrite Y0. split; cbn [fst snd]; [split; lra|exact I].
    - intros v Hv. replace v with 0%nat by lia. rewrite Y0. cbn [fst]. assert (0 <= incut E (mem [0%nat])) by (apply incut_nonneg; auto). lra.
    - intros v b Hv Hb. replace v with 0%nat in Hb by lia. rewrite Y0 in Hb. discriminate Hb.
    - intros v _. unfold yat. clear. revert v. induction n as [|m IH]; intros [|v]; cbn; auto.
    - intros lam Hl X (x & Hx) HX. rewrite V. unfold f. unfold yvec in HX. rewrite vec_fst in HX.
      rewrite (F0 X) by auto. assert (K := HX x Hx). destruct K as [K|[]]. subst. rewrite Hx. lra.
    - cbn [gbw]. split; auto. intros lam Hl _. split; [|split; [|split]].
      + split; [simpl; auto|intros [C|[]]; discriminate].
      + intros B [<-|[]]. repeat constructor.
      + repeat constructor.
      + intros _. unfold adef. cbn [qsum]. unfold yvec, vec. cbn [seq map qsum snd]. rewrite Y0. unfold f.
        rewrite (F0 (mem [0%nat])) by (intros x Hx; apply mem_In; auto). unfold ycap. cbn [fst snd]. lra.
  Qed.

  (** From the bands to a near-optimal sequence. *)
  Lemma fgood_near y lam P : il <= lam -> afeas f (fphi n) lam (yvec y n lam) -> fgood y n lam P ->
    near_optimal E (seq 0 n) fdel lam P.
  Proof.
    intros Hl HF (G1 & _ & _ & G4). specialize (G4 Hl). unfold adef in G4. ats. split; auto. intros R HR.
    assert (Hd := seq_NoDup n 0). destruct (fphi_bnd n ltac:(lia)) as [PH0 _]. destruct (ftau_bnd n ltac:(lia)) as [_ TB].
    assert (LR := part_length_le (seq 0 n) Hd R HR). rewrite seq_length in LR.
    assert (NP := nphi_bnd n (length R) ltac:(lia) LR).
    assert (FL := afeas_lower f (fphi n) (21 * NE3) lam (yvec y n lam) R PH0
                    ltac:(unfold yvec; rewrite vec_fst; auto) ltac:(unfold yvec; rewrite vec_fst; auto) NP HF).
    assert (X : forall P', is_partition (seq 0 n) P' -> qsum (fun B => f (mem B) - lam) P' == hval E lam P').
    { intros P' HP'. unfold hval, f. rewrite <- (incut_crossing E (seq 0 n)); auto.
      - clear. induction P' as [|B P' IH]; cbn [qsum length]; [rewrite qn_0; ring|]. rewrite IH, qn_S. ring.
      - intros a Ha. apply HE; auto. }
    rewrite (X P G1) in G4. rewrite (X R HR) in FL. unfold fdel. lra.
  Qed.

  Lemma fgb_seq y F : forall lo, gbw (fgood y n) lo F -> il <= lo ->
    (forall lam, il <= lam -> afeas f (fphi n) lam (yvec y n lam)) ->
    exists P cs Ps, map fst F = map Fin cs ++ [PInf] /\ map snd F = P :: Ps /\
      seq_chain Qle (near_optimal E (seq 0 n) fdel) (Some lo) P cs Ps.
  Proof.
    induction F as [|[b q] r IH]; intros lo H Hl HF; [destruct H|]. destruct H as [H1 H2].
    assert (O : forall lam, lo <= lam -> dge b lam -> near_optimal E (seq 0 n) fdel lam q).
    { intros lam L1 L2. apply (fgood_near y); [lra|apply HF; lra|auto]. }
    destruct b as [x| |]; [|subst r|contradiction].
    - destruct H2 as (H2 & H3 & H4). destruct (IH x H3 ltac:(lra) HF) as (P & cs & Ps & K1 & K2 & K3).
      exists q, (x :: cs), (P :: Ps). cbn [map fst snd]. rewrite K1, K2.
      split; [reflexivity|]. split; [reflexivity|].
      cbn [seq_chain]. split; [auto|]. split; [intros; apply O; simpl; auto|].
      assert (Gl := H1 lo ltac:(lra) ltac:(simpl; lra)). destruct Gl as (L1 & L2 & L3 & _).
      destruct r as [|[d' q'] r]; [destruct H4|]. destruct H4 as [H4 R]. cbn [map snd] in K2. injection K2 as <- K2.
      destruct (gbw_good _ _ x q' H3 ltac:(left; auto)) as (w & _ & W1 & W2 & W3 & _).
      split; [exact R|]. split; [|exact K3].
      assert (Len := refines_length (seq 0 n) (seq_NoDup n 0) q' q W1 L1 R).
      destruct (Nat.eq_dec (length q) (length q')) as [Heq|]; [|lia]. exfalso. apply H4.
      apply (canonical_eq (seq 0 n)); auto using seq_NoDup.
    - exists q, [], []. split; [reflexivity|]. split; [reflexivity|].
      cbn [seq_chain]. intros lam L. apply O; simpl; auto.
  Qed.

  Lemma fnear_one lam P : lam <= - (1#20) -> near_optimal E (seq 0 n) fdel lam P -> length P = 1%nat.
  Proof.
    intros Hl OP. ats. assert (Hne := seq_ne n Hn1).
    assert (Hnd := seq_NoDup n 0).
    assert (L1 := part_length_pos (seq 0 n) Hnd P Hne (proj1 OP)).
    assert (H := proj2 OP [seq 0 n] (one_block_part (seq 0 n) Hne)).
    unfold hval in H. assert (C0 := crossing_nonneg E P Hnn).
    assert (C1 : crossing E [seq 0 n] == 0).
    { rewrite <- (incut_crossing E (seq 0 n)); auto.
      - cbn [qsum]. rewrite incut_prefix by auto. lra.
      - apply one_block_part; auto.
      - intros a Ha. apply HE; auto. }
    rewrite C1 in H. change (qn (length [seq 0 n])) with 1 in H.
    destruct (Nat.eq_dec (length P) 1) as [|Hn]; auto. exfalso.
    assert (Q2 : qn 2 <= qn (length P)) by (apply qn_le; lia). change (qn 2) with 2 in Q2.
    assert (K : 0 <= (- lam - (1#20)) * (qn (length P) - 1)) by (apply Qmult_le_0_compat; lra).
    assert (K2 : (- lam - (1#20)) * (qn (length P) - 1) == lam - lam * qn (length P) - (1#20) * (qn (length P) - 1)) by ring.
    unfold fdel in H. lra.
  Qed.

  (** No critical value lies below the starting one. *)
  Lemma fgb_raise y F : gbw (fgood y n) lo0 F -> (forall lam, il <= lam -> afeas f (fphi n) lam (yvec y n lam)) ->
    gbw (fgood y n) il F.
  Proof.
    intros H HF. ats. assert (Hnd := seq_NoDup n 0). destruct F as [|[b q] r]; [destruct H|].
    assert (H0 := H). destruct H as [H1 H2]. split; [intros lam L1 L2; apply H1; auto; unfold lo0; lra|].
    destruct b as [x| |]; auto. destruct H2 as (H2 & H3 & H4). destruct (Qlt_le_dec x il) as [C|C]; [exfalso|auto].
    destruct (wfw_act r x il (gbw_wfw _ _ _ H3) ltac:(lra)) as (q0 & Hq0).
    assert (G0 := gbw_act _ _ x il q0 H3 ltac:(lra) Hq0).
    assert (L0 := fnear_one il q0 Hil2 (fgood_near y il q0 ltac:(lra) (HF il ltac:(lra)) G0)).
    destruct r as [|[b' q'] r]; [destruct H4|]. destruct H4 as [H4 HR].
    assert (Rq : refines q0 q').
    { assert (S := gbw_sorted _ _ _ H3). inversion S as [|? ? S1 S2]; subst. inversion Hq0; subst; [apply refines_refl|].
      rewrite Forall_forall in S2.
      assert (In q0 (map snd r)).
      { match goal with HA : act il r q0 |- _ => clear -HA; induction HA; simpl; auto end. }
      apply in_map_iff in H. destruct H as (z & <- & Hz). apply (S2 z Hz). }
    destruct (gbw_good _ _ x q' H3 ltac:(left; auto)) as (w & _ & W1 & W2 & W3 & _).
    destruct (H1 x H2 ltac:(simpl; lra)) as (L1 & L2 & L3 & _). destruct G0 as (P0 & _).
    assert (Len1 := refines_length (seq 0 n) Hnd q0 q' P0 W1 Rq).
    assert (Len2 := refines_length (seq 0 n) Hnd q' q W1 L1 HR).
    assert (Hne := seq_ne n Hn1).
    assert (LP := part_length_pos (seq 0 n) Hnd q Hne L1).
    apply H4. apply (canonical_eq (seq 0 n)); auto. lia.
  Qed.

  Theorem f_pdt_near_gen : (TH /\ f_pdt_run_gen run o it E n = Throw) \/
    exists cs Ps, f_pdt_run_gen run o it E n = Ok (map Fin cs, Ps) /\ IsNearPSP E (seq 0 n) fdel cs Ps /\
      Forall (Qle il) cs.
  Proof.
    ats. assert (Hne := seq_ne n Hn1). assert (Hnd := seq_NoDup n 0).
    unfold f_pdt_run_gen. assert (N0 : (n =? 0)%nat = false) by (apply Nat.eqb_neq; lia). rewrite N0.
    destruct (f_fold_ok (n - 1) 1 _ ltac:(lia) ltac:(lia) f_inv_start) as [[R0 R]|(st & S1 & S2)].
    { left. rewrite R. auto. }
    right. rewrite S1. cbn [bind]. replace (1 + (n - 1))%nat with n in S2 by lia. destruct S2 as [_ _ _ _ _ I3 I4].
    assert (I5 := fgb_raise _ _ I4 I3).
    destruct (fgb_seq _ _ il I5 ltac:(lra) I3) as (P & cs & Ps & K1 & K2 & K3).
    exists cs, (P :: Ps). rewrite K1, K2, removelast_last. split; [reflexivity|].
    assert (OP : near_optimal E (seq 0 n) fdel il P).
    { destruct cs as [|c cs], Ps as [|P' Ps]; try (simpl in K3; contradiction).
      - apply K3. lra.
      - destruct K3 as (A1 & A2 & _). apply A2; lra. }
    assert (LP := fnear_one il P Hil2 OP).
    split.
    - split; [apply part_length_one; auto; apply OP|]. split.
      + destruct (seq_last_rel E (seq 0 n) fdel P cs il Ps K3) as (b & Hb).
        assert (La : last (P :: Ps) P = last Ps P) by (destruct Ps; reflexivity). rewrite La.
        set (w := if Qltb b (total E + 2) then total E + 2 else b).
        assert (Hw1 : b <= w /\ total E + 2 <= w).
        { unfold w. destruct (Qltb b (total E + 2)) eqn:Eb.
          - apply Qltb_true in Eb. lra.
          - apply Qltb_false in Eb. lra. }
        assert (Ow := Hb w (proj1 Hw1)). apply part_length_full; auto; [apply Ow|].
        assert (L2 := part_length_le (seq 0 n) Hnd _ (proj1 Ow)). rewrite seq_length in *.
        destruct (Nat.eq_dec (length (last Ps P)) n) as [|Hlt]; auto. exfalso.
        assert (H := proj2 Ow (singletons (seq 0 n)) (singletons_part (seq 0 n))).
        unfold hval in H. assert (C0 := crossing_nonneg E (last Ps P) Hnn).
        assert (C1 : crossing E (singletons (seq 0 n)) <= total E) by (apply crossing_le_total; auto).
        assert (LS : length (singletons (seq 0 n)) = n) by (unfold singletons; rewrite map_length, seq_length; auto).
        rewrite LS in H. assert (Q1 : qn (S (length (last Ps P))) <= qn n) by (apply qn_le; lia). rewrite qn_S in Q1.
        assert (T0 : 0 <= total E) by (apply qsum_nonneg; exact Hnn).
        assert (K : 0 <= w * (qn n - qn (length (last Ps P)) - 1)) by (apply Qmult_le_0_compat; lra).
        assert (X : w * (qn n - qn (length (last Ps P)) - 1) == w * qn n - w * qn (length (last Ps P)) - w) by ring.
        unfold fdel in H. lra.
      + assert (Below : forall lam, lam <= il -> near_optimal E (seq 0 n) fdel lam P).
        { intros lam Hl. apply (near_below E (seq 0 n) fdel il); auto.
          intros R HR. rewrite LP. apply part_length_pos with (vs := seq 0 n); auto. }
        destruct cs as [|c cs], Ps as [|P' Ps]; try (simpl in K3; contradiction).
        * cbn [seq_chain] in *. intros lam _. destruct (Qlt_le_dec lam il); [apply Below; lra|apply K3; auto].
        * destruct K3 as (A1 & A2 & A3). cbn [seq_chain]. split; auto. split; auto.
          intros lam _ Hl. destruct (Qlt_le_dec lam il); [apply Below; lra|apply A2; auto].
    - clear -K3. revert K3. assert (Hl : il <= il) by lra. revert Hl. generalize il at 2 3 as lo. revert P Ps.
      induction cs as [|c cs IH]; intros P [|P' Ps] lo Hl H; try (simpl in H; contradiction); constructor.
      + destruct H as (H & _). lra.
      + destruct H as (H & _ & _ & _ & H5). apply (IH P' Ps c); auto. lra.
  Qed.
End FLoop.

Theorem f_pdt_near_to u o : 0 <= u -> u <= 1 -> std_model u o -> mono_ops o -> forall n, (1 <= n)%nat -> forall W, 1 <= W ->
  forall eps, 0 < eps -> 32 * (qn n * (u * (60 * (qn n * W)))) <= eps -> 2000 * (qn n * (qn n * (qn n * (qn n * eps)))) <= 1 ->
  forall d, d <= eps -> forall it itn, (forall G, Permutation (itn G) G) -> forall mc, SinkSideSpec d n mc ->
  forall E, Permutation (it E) E -> graph_on (seq 0 n) E -> simple E -> forward E -> (forall a, In a E -> eps <= aw a) ->
  total E <= W -> forall il, - (1#5) <= il -> il <= - (1#20) ->
  forall Lup : nat -> list (Q * dbl) -> dbl,
  (forall j y, (1 <= j < n)%nat -> (forall v, (v < j)%nat -> pbnd W (yat y v)) ->
    (forall v, (v < j)%nat -> fst (yat y v) <= incut E (mem [v]) + qn n * (u * (60 * (qn n * W)))) ->
    (forall v b, (v < j)%nat -> snd (yat y v) = Fin b -> fst (yat y v) - b <= 4 * W + u * (60 * (qn n * W))) ->
    (forall v, (j <= v)%nat -> yat y v = (0, PInf)) ->
    match Lup j y with
    | Fin q => flmin o eps E j y q [j] /\ il <= q /\ q <= 4 * W
    | PInf => True
    | NaN => False
    end) ->
  (~ u == 0 /\ f_pdt_run_to Lup o it itn mc eps il E n = Throw) \/
  exists cs Ps, f_pdt_run_to Lup o it itn mc eps il E n = Ok (map Fin cs, Ps) /\ IsNearPSP E (seq 0 n) (fdel n eps) cs Ps /\
    Forall (Qle il) cs.
Proof.
  intros Hu Hu1 Ho Hm n Hn W HW eps He Hnu Hsm d Hd it itn Hitn mc Hmc E Hit HE Hs Hf Hw HWE il H1 H2 Lup HLup.
  set (N := qn n) in *. set (eta := u * (60 * (N * W))) in *. set (nu := N * eta) in *.
  assert (N1 : 1 <= N) by (unfold N; change 1 with (qn 1); apply qn_le; lia).
  assert (NW : W <= N * W) by (apply ge1_mul; lra).
  assert (E0 : 0 <= eta) by (apply Qmult_le_0_compat; lra).
  assert (EN : eta <= nu) by (apply ge1_mul; auto).
  assert (e1 : eps <= N * eps) by (apply ge1_mul; lra).
  assert (e2 : N * eps <= N * (N * eps)) by (apply ge1_mul; lra).
  assert (e3 : N * (N * eps) <= N * (N * (N * eps))) by (apply ge1_mul; lra).
  assert (e4 : N * (N * (N * eps)) <= N * (N * (N * (N * eps)))) by (apply ge1_mul; lra).
  assert (HepsN : 32 * (N * eps) <= 1) by lra.
  apply (f_pdt_near_gen u o Hu Ho n Hn W HW eps He Hnu Hsm it E Hit HE Hs Hf HWE il H1 H2 (~ u == 0)
           (fun j y => f_pmf_run_to (Lup j y) o it itn mc eps il E n j y)).
  intros j y Hj I2 Ia Ig Ir (X & HX1 & HX2). assert (Hjn : (j < n)%nat) by lia.
  assert (HX : exists X, win (seq 0 j) j X /\ gval E j y il X + 4 * nu < gval E j y il (mem [j])).
  { exists X. split; auto. fold N eta nu in HX2. lra. }
  destruct (f_run_ok u o Hu Hu1 Ho Hm n W HW eps He Hnu HepsN d Hd it itn Hitn mc Hmc E Hit j Hjn HE Hs Hf Hw HWE
              y I2 Ia il (Lup j y) H1 ltac:(lra) (HLup j y Hj I2 Ia Ig Ir) HX) as [[R0 R]|(T0 & rest & R1 & R2 & R3 & R4 & R5)].
  { left. auto. }
  right. exists T0, rest. split; [exact R1|]. split; [|auto].
  split; [exact (fl_sorted _ _ _ _ _ _ _ R2)|]. split; [exact (fl_j _ _ _ _ _ _ _ R2)|]. split; [exact (fl_win _ _ _ _ _ _ _ R2)|].
  split; [exact (T_len o n eps E j Hjn y il T0 R2)|].
  intros Y HY _. assert (K := fl_near u o Hu Ho n W HW eps He Hnu HepsN E j Hjn HE Hs Hf Hw HWE y I2 il T0 Y R2 HY
                                ltac:(lra) ltac:(lra)).
  unfold gval in K. change (qn n * (u * (60 * (qn n * W)))) with nu in K. fold N. lra.
Qed.

Theorem f_pdt_near u o : 0 <= u -> u <= 1 -> std_model u o -> mono_ops o -> forall n, (1 <= n)%nat -> forall W, 1 <= W ->
  forall eps, 0 < eps -> 32 * (qn n * (u * (60 * (qn n * W)))) <= eps -> 2000 * (qn n * (qn n * (qn n * (qn n * eps)))) <= 1 ->
  forall d, d <= eps -> forall it itn, (forall G, Permutation (itn G) G) -> forall mc, SinkSideSpec d n mc ->
  forall E, Permutation (it E) E -> graph_on (seq 0 n) E -> simple E -> forward E -> (forall a, In a E -> eps <= aw a) ->
  total E <= W -> forall il, - (1#5) <= il -> il <= - (1#20) ->
  (~ u == 0 /\ f_pdt_run o it itn mc eps il E n = Throw) \/
  exists cs Ps, f_pdt_run o it itn mc eps il E n = Ok (map Fin cs, Ps) /\ IsNearPSP E (seq 0 n) (fdel n eps) cs Ps /\
    Forall (Qle il) cs.
Proof.
  intros Hu Hu1 Ho Hm n Hn W HW eps He Hnu Hsm d Hd it itn Hitn mc Hmc E Hit HE Hs Hf Hw HWE il H1 H2.
  exact (f_pdt_near_to u o Hu Hu1 Ho Hm n Hn W HW eps He Hnu Hsm d Hd it itn Hitn mc Hmc E Hit HE Hs Hf Hw HWE il H1 H2
           (fun _ _ => PInf) (fun j y _ _ _ _ _ => I)).
Qed.
