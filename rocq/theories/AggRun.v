(** * AggRun: the loop of Agglomerative_PSP::run on an arbitrary submodular function. *)
From Coq Require Import Sorted Relations.
From Verif Require Import Base Graph Spec PartThy SubThy MSets SetsThy PDTThy HPSPLoop MHC HCThy HCInv HCSearch HCPart
  MAIC SFSpec MNBThy AICStep AggThy AICThy.

(** ** add_partition *)
Definition nrm (s : list nat) : list nat := fold_left (fun K e => cadd e K) s [].

Lemma nrm_In s x : In x (nrm s) <-> In x s.
Proof. unfold nrm. rewrite (fold_cadd_In s []). simpl. tauto. Qed.


Lemma agg_part_perm vs P : NoDup vs -> is_partition vs P -> Permutation (agg_part P) (map nrm P).
Proof.
  intros Hn HP.
  assert (K : forall L, incl L P -> NoDup L -> NoDup (map nrm L)).
  { induction L as [|C L IH]; intros HI HL; simpl; [constructor|]. inversion HL; subst. constructor.
    - intro J. apply in_map_iff in J. destruct J as (D & E & J).
      assert (HC : In C P) by (apply HI; left; auto).
      destruct (part_nonempty vs P C HP HC) as (x & Hx).
      apply H1. replace C with D; auto.
      apply (part_unique vs P D C x Hn HP); auto; [apply HI; right; auto|].
      apply nrm_In. rewrite E. apply nrm_In. auto.
    - apply IH; auto. intros D HD. apply HI. right; auto. }
  apply NoDup_Permutation.
  - apply psorted_NoDup. unfold agg_part. apply (fold_padd_sorted nrm). constructor.
  - apply K; [apply incl_refl|]. assert (ND := part_NoDup vs Hn P HP). destruct HP as [_ HE]. clear K.
    induction P as [|C P IH]; [constructor|]. simpl in ND. apply NoDup_app_inv in ND. destruct ND as (N1 & N2 & N3).
    constructor; [|apply IH; auto; intro; apply HE; right; auto].
    intro HC. destruct C as [|x C]; [apply HE; left; auto|]. apply (N3 x); [left; auto|].
    apply in_concat. exists (x :: C). split; [auto|left; auto].
  - intro B. unfold agg_part. rewrite (fold_padd_In nrm P []). rewrite in_map_iff. simpl. split.
    + intros [[]|(x & H1 & H2)]. exists x. auto.
    + intros (x & H1 & H2). right. exists x. auto.
Qed.

Lemma nrm_perm s : NoDup s -> Permutation (nrm s) s.
Proof.
  intro H. apply NoDup_Permutation; auto; [|intro; apply nrm_In].
  apply csorted_NoDup. apply fold_cadd_sorted. constructor.
Qed.

Lemma nrm_concat P : NoDup (concat P) -> Permutation (concat (map nrm P)) (concat P).
Proof.
  induction P as [|C P IH]; simpl; intro H; auto. apply NoDup_app_inv in H. destruct H as (N1 & N2 & _).
  apply Permutation_app; auto. apply nrm_perm; auto.
Qed.

Lemma agg_part_part vs P : NoDup vs -> is_partition vs P -> is_partition vs (agg_part P).
Proof.
  intros Hn HP. eapply part_perm; [apply Permutation_sym, (agg_part_perm vs P); auto|].
  assert (ND := part_NoDup vs Hn P HP). split.
  - rewrite (nrm_concat P ND). apply HP.
  - intro J. apply in_map_iff in J. destruct J as (C & E & J).
    destruct (part_nonempty vs P C HP J) as (x & Hx). apply nrm_In in Hx. rewrite E in Hx. destruct Hx.
Qed.

Lemma agg_part_length vs P : NoDup vs -> is_partition vs P -> length (agg_part P) = length P.
Proof. intros Hn HP. rewrite (Permutation_length (agg_part_perm vs P Hn HP)). apply map_length. Qed.

Lemma agg_part_refines vs P : NoDup vs -> is_partition vs P -> same_partition (agg_part P) P.
Proof.
  intros Hn HP. assert (K := agg_part_perm vs P Hn HP). split; intros C HC.
  - apply (Permutation_in C K) in HC. apply in_map_iff in HC. destruct HC as (D & <- & HD). exists D. split; auto.
    intros x Hx. apply nrm_In. auto.
  - exists (nrm C). split; [apply (Permutation_in _ (Permutation_sym K)); apply in_map; auto|].
    intros x Hx. apply nrm_In. auto.
Qed.

Lemma agg_part_pval n F vs P lam : ground n F -> NoDup vs -> is_partition vs P ->
  pval F lam (agg_part P) == pval F lam P.
Proof.
  intros HG Hn HP. unfold pval. rewrite (agg_part_length vs P Hn HP).
  rewrite (qsum_perm _ _ _ (agg_part_perm vs P Hn HP)). rewrite qsum_map.
  assert (K : qsum (fun a => F (mem (nrm a))) P == qsum (fun B => F (mem B)) P); [|rewrite K; reflexivity].
  apply qsum_ext. intros C HC. apply HG. intros x _. apply Bool.eq_true_iff_eq. rewrite !mem_In. apply nrm_In.
Qed.

Lemma agg_part_popt n F vs P lam : ground n F -> NoDup vs -> is_partition vs P ->
  popt F vs lam P -> popt F vs lam (agg_part P).
Proof.
  intros HG Hn HP [_ H]. split; [apply agg_part_part; auto|]. intros R HR.
  rewrite (agg_part_pval n F vs P lam); auto.
Qed.

(** ** The loop *)
Lemma ssparse_ge F P a b : ssparse F P a -> a <= b -> ssparse F P b.
Proof.
  intros H L p Hp. assert (K := H p Hp). unfold pval in *.
  assert (2 <= qn (length (filter p P))) by (change 2 with (qn 2); apply qn_le; auto).
  assert (0 <= (b - a) * (qn (length (filter p P)) - 1)) by (apply Qmult_le_0_compat; lra).
  assert ((b - a) * (qn (length (filter p P)) - 1) ==
          (b * qn (length (filter p P)) - b) - (a * qn (length (filter p P)) - a)) by ring.
  lra.
Qed.

Lemma sparse_one n F C lam : ground n F -> sparse F [C] lam.
Proof.
  intros HG p Hp. simpl in *. destruct (p C); [|tauto]. unfold pval. simpl.
  rewrite app_nil_r. change (qn 1) with 1. lra.
Qed.

Lemma last_default {A} (l : list A) a d e : last (a :: l) d = last (a :: l) e.
Proof. revert a. induction l as [|b l IH]; intro a; auto. change (last (b :: l) d = last (b :: l) e). apply IH. Qed.

Lemma last_minimum (l : list Q) g : StronglySorted (fun a b => b < a) l -> l <> [] ->
  (forall v, In v l -> g <= v) -> In g l -> exists t, rev l = g :: t.
Proof.
  intros HS HN HL HI. destruct (rev l) as [|c t] eqn:E.
  - apply (f_equal (@rev Q)) in E. rewrite rev_involutive in E. contradiction.
  - exists t. f_equal. assert (El : l = rev t ++ [c]) by (rewrite <- (rev_involutive l), E; reflexivity).
    rewrite El in *. clear E El HN. apply in_app_iff in HI. destruct HI as [HI|[HI|[]]]; auto. exfalso.
    assert (L : g <= c) by (apply HL; apply in_app_iff; right; left; auto).
    clear HL. induction (rev t) as [|b r IH]; simpl in *; [destruct HI|]. inversion HS; subst.
    destruct HI as [->|HI]; [|apply IH; auto].
    rewrite Forall_forall in H2. assert (c < g) by (apply H2; apply in_app_iff; right; left; auto). lra.
Qed.

Section Loop.
  Variables (mnb : sf -> res (list Q)) (tol : Q) (f : sf) (F : nset -> Q) (D : positive).
  Let n := sfn f.
  Hypothesis Hm : MinNormSpec mnb.
  Hypothesis HG : ground n F.
  Hypothesis HS : submodular F.
  Hypothesis HF : evaluates f F.
  Hypothesis HD : forall S, onD D (F S).
  Hypothesis Ht : 0 <= tol.
  Hypothesis Hft : tol * (Zpos D # 1) * (qn (n - 1) * qn (n - 1)) < 1.
  Hypothesis Hn : (0 < n)%nat.
  Let vs := seq 0 n.

  Definition linv (acc : list (nat * nat * Q)) (P : list (list nat)) (crit : list Q) (tl : list (list (list nat))) : Prop :=
    match crit, tl with
    | [], [] => acc = [] /\ forall lam, strong F P lam
    | c :: cs, P1 :: Ps =>
        strong F P c /\ ssparse F P c /\ (exists x y, In (x, y, c) acc) /\ (forall x y w, In (x, y, w) acc -> c <= w) /\
        refines P1 (agg_part P) /\ (length P < length P1)%nat /\
        seq_chain Qlt (popt F vs) (Some c) P1 cs Ps
    | _, _ => False
    end.

  Lemma linv_ssparse acc P crit tl : linv acc P crit tl -> forall x y w, In (x, y, w) acc -> ssparse F P w.
  Proof.
    destruct crit as [|c cs], tl as [|P1 Ps]; simpl; try tauto.
    - intros [-> _] x y w [].
    - intros (_ & H1 & _ & H2 & _) x y w Hw. apply (ssparse_ge F P c); auto. eapply H2; eauto.
  Qed.

  Lemma good_part P lam : is_partition vs P -> strong F P lam -> sparse F P lam -> popt F vs lam (agg_part P).
  Proof.
    intros HP H1 H2. assert (ND : NoDup vs) by apply seq_NoDup.
    apply (agg_part_popt n); auto. apply (strong_sparse_opt n F HG HS); auto.
  Qed.

  Lemma linv_chain acc P crit tl (lo : option Q) : is_partition vs P -> linv acc P crit tl ->
    (forall lam, (match lo with None => True | Some l => l <= lam end) -> sparse F P lam) ->
    (match lo with None => True | Some l => forall c, (exists cs, crit = c :: cs) -> l < c end) ->
    seq_chain Qlt (popt F vs) lo (agg_part P) crit tl.
  Proof.
    intros HP L Hsp Hlo. destruct crit as [|c cs], tl as [|P1 Ps]; simpl in *; try tauto.
    - destruct L as [_ L]. intros lam Hl. apply good_part; auto.
    - destruct L as (L1 & L2 & _ & _ & L3 & L4 & L5). split; [|split; [|split; [|split]]]; auto.
      + destruct lo; auto. apply Hlo. eauto.
      + intros lam H1 H2. apply good_part; auto. eapply strong_le; eauto.
      + rewrite (agg_part_length vs P); auto. apply seq_NoDup.
  Qed.

  Lemma agg_loop_ok : forall fuel st acc P crit tl,
    inv st acc -> hn st = n -> get_partition st NegInf = Ok P -> is_partition vs P ->
    linv acc P crit tl -> (length P <= fuel)%nat ->
    exists lams P0 Ps, agg_loop fuel mnb tol f st crit (agg_part P :: tl) = Ok (lams, P0 :: Ps) /\
      same_partition P0 [vs] /\ last (P0 :: Ps) P0 = last (agg_part P :: tl) P0 /\
      seq_chain Qlt (popt F vs) None P0 lams Ps.
  Proof.
    assert (ND : NoDup vs) by apply seq_NoDup.
    assert (NE : vs <> []) by (unfold vs; destruct n; [lia|discriminate]).
    induction fuel as [|fuel IH]; intros st acc P crit tl I Hh HPg HP L Hfu.
    { assert (K := part_length_pos vs ND P NE HP). lia. }
    destruct (le_lt_dec (length P) 1) as [H1|H2].
    - exists crit, (agg_part P), tl. assert (K := part_length_pos vs ND P NE HP).
      assert (E1 : length P = 1%nat) by lia.
      split; [|split; [|split; auto]].
      + simpl. unfold agglomerate. rewrite HPg. cbn [bind]. replace (length P <=? 1)%nat with true
          by (symmetry; apply Nat.leb_le; auto). reflexivity.
      + apply (part_length_one vs ND); auto. apply agg_part_part; auto. rewrite (agg_part_length vs); auto.
      + apply (linv_chain acc); auto. intros lam _. destruct P as [|C [|]]; simpl in E1; try lia.
        apply (sparse_one n); auto.
    - destruct (agglomerate_step mnb tol f F D Hm HG HS HF HD Ht Hft Hn st acc P I Hh HPg H2 (linv_ssparse acc P crit tl L))
        as (st' & acc2 & g & P' & A1 & A2 & A3 & A4 & A5 & A6 & A7 & A8 & A9 & A10 & A11 & A12 & A13 & _).
      change (is_partition vs P') in A8.
      assert (Hin : forall x y w, In (x, y, w) (acc ++ acc2) -> g <= w).
      { intros x y w H. apply in_app_iff in H. destruct H as [H|H]; [apply A6 in H; lra|apply A5 in H; subst; apply Qle_refl]. }
      assert (HB : exists t, rev (get_critical st') = g :: t).
      { assert (GI : In g (hgam st')).
        { destruct acc2 as [|[[x y] w] acc2]; [tauto|].
          assert (w = g) by (apply (A5 x y); left; auto). subst w.
          destruct (inv_acc_gam _ _ A3 x y g) as (v & V1 & V2); [apply in_app_iff; right; left; auto|].
          destruct (inv_gam _ _ A3 v V1) as (x' & y' & V3). apply in_app_iff in V3. destruct V3 as [V3|V3].
          - apply A6 in V3. lra.
          - apply A5 in V3. subst; auto. }
        unfold get_critical. apply last_minimum; auto.
        - apply (inv_sorted _ _ A3).
        - intro E. rewrite E in GI. destruct GI.
        - intros v Hv. destruct (inv_gam _ _ A3 v Hv) as (x & y & Hxy). eapply Hin; eauto. }
      destruct HB as (t & HB).
      assert (HC : forall c, (exists cs, crit = c :: cs) -> g < c).
      { intros c (cs & ->). destruct tl as [|P1 Ps]; simpl in L; [tauto|].
        destruct L as (_ & _ & (x & y & Hx) & _). eapply A6; eauto. }
      assert (L' : linv (acc ++ acc2) P' (g :: crit) (agg_part P :: tl)).
      { assert (HSt : strong F P g).
        { destruct crit as [|c cs], tl as [|P1 Ps]; simpl in L; try tauto; [apply L|].
          apply (strong_le F P c); [tauto|]. apply Qlt_le_weak. apply HC. eauto. }
        split; [|split; [|split; [|split; [|split; [|split]]]]]; auto.
        - destruct acc2 as [|[[x y] w] acc2]; [tauto|]. exists x, y. rewrite <- (A5 x y w) by (left; auto).
          apply in_app_iff. right; left; auto.
        - eapply refines_trans; [apply (agg_part_refines vs P ND HP)|]. eapply refines_trans; [exact A9|].
          apply (agg_part_refines vs P' ND A8).
        - rewrite (agg_part_length vs P); auto.
        - apply (linv_chain acc); auto.
          + intros lam Hl. eapply sparse_ge; eauto. }
      destruct (IH st' (acc ++ acc2) P' (g :: crit) (agg_part P :: tl) A3 A2 A7 A8 L') as (lams & P0 & Ps & B1 & B2 & B3 & B4); [lia|].
      exists lams, P0, Ps. split; [|split; [|split]]; auto.
      cbn [agg_loop]. rewrite A1. cbn [bind fst snd]. unfold get_coarsest. rewrite A7. cbn [bind]. rewrite HB. exact B1.
  Qed.
End Loop.
