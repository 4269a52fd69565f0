(** * HPSPLoop: the bottom-up merging of HPSP yields the sequence of its tree. *)
From Coq Require Import Sorted.
From Verif Require Import Base Spec MSets SetsThy PartThy SubThy MaxFlow CutThy MDil DilThy
  SeqThy MDT DTThy MContract ContractThy MPSPI MHPSP TreeThy DecThy PSPIThy PSPILoop HPSPThy PDTThy.

(** ** The map D *)
Lemma dfind_derase D j k : dfind (derase D j) k = if (k =? j)%nat then None else dfind D k.
Proof.
  unfold derase. induction D as [|[k' v] D IH]; simpl; [destruct (k =? j)%nat; auto|].
  destruct (k' =? j)%nat eqn:A; simpl.
  - apply Nat.eqb_eq in A. subst k'. rewrite IH. destruct (k =? j)%nat; auto.
  - rewrite IH. destruct (k =? k')%nat eqn:B; auto. apply Nat.eqb_eq in B. subst k'. rewrite A. auto.
Qed.

Lemma dfind_dset D j v k : dfind (dset D j v) k = if (k =? j)%nat then Some v else dfind D k.
Proof. unfold dset. simpl. rewrite dfind_derase. destruct (k =? j)%nat; auto. Qed.

Definition dwf (D : dmap) : Prop := NoDup (map fst D).

Lemma derase_wf D j : dwf D -> dwf (derase D j).
Proof.
  unfold dwf, derase. induction D as [|[k v] D IH]; simpl; intro H; auto.
  inversion H as [|? ? H1 H2]; subst. destruct (k =? j)%nat; simpl; auto. constructor; auto.
  intro C. apply H1. apply in_map_iff in C. destruct C as (p & C1 & C2). apply filter_In in C2.
  rewrite <- C1. apply in_map. tauto.
Qed.

Lemma dset_wf D j v : dwf D -> dwf (dset D j v).
Proof.
  intro H. unfold dwf, dset. simpl. constructor; [|apply derase_wf; auto].
  intro C. apply in_map_iff in C. destruct C as (p & C1 & C2). apply filter_In in C2.
  destruct C2 as [_ C2]. rewrite C1, Nat.eqb_refl in C2. discriminate.
Qed.

Lemma merge_one_wf K D j : dwf D -> dwf (merge_one K D j).
Proof.
  intro H. unfold merge_one. destruct (dfind D j); [destruct (K j =? j)%nat; auto|];
    destruct (dfind D (K j)); auto using derase_wf, dset_wf.
Qed.

Lemma dfind_In D k v : dwf D -> (dfind D k = Some v <-> In (k, v) D).
Proof.
  induction D as [|[k' v'] D IH]; simpl; intro H; [split; [discriminate|tauto]|].
  inversion H as [|? ? H1 H2]; subst. destruct (k =? k')%nat eqn:A.
  - apply Nat.eqb_eq in A. subst k'. split; intro B.
    + left. congruence.
    + destruct B as [B|B]; [congruence|]. exfalso. apply H1. apply (in_map fst) in B. auto.
  - apply Nat.eqb_neq in A. rewrite (IH H2). split; intro B; auto. destruct B; [congruence|auto].
Qed.

(** The cluster of [r]; nodes without an entry are alone. *)
Definition cont (D : dmap) (r : nat) : list nat := match dfind D r with Some v => v | None => [r] end.

Lemma merge_one_other K D j r : r <> j -> r <> K j -> dfind (merge_one K D j) r = dfind D r.
Proof.
  intros N1 N2. apply Nat.eqb_neq in N1, N2. unfold merge_one.
  destruct (dfind D j); [destruct (K j =? j)%nat; auto|]; destruct (dfind D (K j));
    rewrite ?dfind_derase, ?dfind_dset, ?N1, ?N2; auto.
Qed.

Lemma merge_one_gone K D j : K j <> j -> dfind (merge_one K D j) j = None.
Proof.
  intro N. assert (N' : (j =? K j)%nat = false) by (apply Nat.eqb_neq; auto).
  apply Nat.eqb_neq in N. unfold merge_one.
  destruct (dfind D j) eqn:A; [rewrite N|]; destruct (dfind D (K j)) eqn:B;
    rewrite ?dfind_derase, ?dfind_dset, ?Nat.eqb_refl, ?N'; auto.
Qed.

Lemma merge_one_cont K D j x :
  In x (cont (merge_one K D j) (K j)) <-> In x (cont D (K j)) \/ In x (cont D j).
Proof.
  unfold merge_one, cont at 2 3. destruct (K j =? j)%nat eqn:N.
  - apply Nat.eqb_eq in N. destruct (dfind D j) as [v|] eqn:A.
    + unfold cont. rewrite N, A. tauto.
    + unfold cont. rewrite N, A, dfind_dset, Nat.eqb_refl. simpl. tauto.
  - destruct (dfind D j) as [v|] eqn:A; destruct (dfind D (K j)) as [w|] eqn:B; unfold cont;
      rewrite ?dfind_derase, ?dfind_dset, ?Nat.eqb_refl, ?N; simpl; rewrite ?in_app_iff; simpl; tauto.
Qed.

Lemma fold_merge K : forall L D, NoDup L -> (forall j, In j L -> In (K j) L -> K (K j) = K j) ->
  (forall r x, ~ (In r L /\ K r <> r) ->
     (In x (cont (fold_left (merge_one K) L D) r) <->
      In x (cont D r) \/ exists j, In j L /\ K j = r /\ In x (cont D j))) /\
  (forall r, In r L -> K r <> r -> dfind (fold_left (merge_one K) L D) r = None) /\
  (forall r, dfind (fold_left (merge_one K) L D) r <> None ->
     dfind D r <> None \/ exists j, In j L /\ K j = r).
Proof.
  induction L as [|j L IH]; intros D Hnd HK; cbn [fold_left].
  - split; [|split].
    + intros r x _. split; auto. intros [H|(j & [] & _)]; auto.
    + intros r [].
    + auto.
  - inversion Hnd as [|? ? Hj HL]; subst.
    destruct (IH (merge_one K D j) HL) as (A1 & A2 & A3).
    { intros i Hi Hk. apply HK; [right|right]; auto. }
    set (D1 := merge_one K D j) in *. set (D2 := fold_left (merge_one K) L D1) in *.
    assert (KJ : forall i, In i L -> K i = j -> K j = j).
    { intros i Hi Hk. assert (Q : K (K i) = K i) by (apply HK; [right; auto|rewrite Hk; left; auto]).
      rewrite Hk in Q. exact Q. }
    assert (A3' : forall r, dfind D2 r <> None -> dfind D r <> None \/ exists i, In i (j :: L) /\ K i = r).
    { intros r Hr. destruct (A3 r Hr) as [H|(i & I1 & I2)]; [|right; exists i; split; [right|]; auto].
      destruct (Nat.eq_dec r (K j)) as [->|N]; [right; exists j; split; [left|]; auto|].
      destruct (Nat.eq_dec r j) as [->|N2].
      - left. intro C. unfold D1 in H. rewrite merge_one_gone in H by auto. congruence.
      - left. unfold D1 in H. rewrite merge_one_other in H; auto. }
    split; [|split]; auto.
    + intros r x Hr. rewrite A1 by (intros [H1 H2]; apply Hr; split; [right|]; auto).
      assert (CJ : forall i, i <> j -> i <> K j -> cont D1 i = cont D i).
      { intros i N1 N2. unfold cont, D1. rewrite merge_one_other; auto. }
      assert (MC : forall y, In y (cont D1 (K j)) <-> In y (cont D (K j)) \/ In y (cont D j))
        by (intro y; apply merge_one_cont).
      split.
      * intros [H|(i & I1 & I2 & I3)].
        -- destruct (Nat.eq_dec r (K j)) as [->|N].
           ++ apply MC in H. destruct H as [H|H]; auto. right. exists j. split; [left|]; auto.
           ++ destruct (Nat.eq_dec r j) as [->|N2]; [exfalso; apply Hr; split; [left|]; auto|].
              rewrite CJ in H by auto. auto.
        -- destruct (Nat.eq_dec i (K j)) as [->|N].
           ++ assert (R : K (K j) = K j) by (apply HK; [left|right]; auto).
              rewrite R in I2. subst r. apply MC in I3. destruct I3 as [H|H].
              ** right. exists (K j). split; [right; auto|split; auto].
              ** right. exists j. split; [left; auto|split; auto].
           ++ rewrite CJ in I3; [|congruence|auto]. right. exists i. split; [right|split]; auto.
      * intros [H|(i & [<-|I1] & I2 & I3)].
        -- destruct (Nat.eq_dec r (K j)) as [->|N]; [left; apply MC; auto|].
           destruct (Nat.eq_dec r j) as [->|N2]; [exfalso; apply Hr; split; [left|]; auto|].
           left. rewrite CJ; auto.
        -- subst r. left. apply MC. auto.
        -- destruct (Nat.eq_dec i (K j)) as [->|N].
           ++ right. exists (K j). split; auto. split; auto. apply MC. auto.
           ++ right. exists i. split; auto. split; auto. rewrite CJ; auto. congruence.
    + intros r [<-|Hr] Hn; [|apply A2; auto].
      destruct (dfind D2 j) eqn:F; auto. exfalso.
      assert (F' : dfind D2 j <> None) by (rewrite F; discriminate).
      destruct (A3 j F') as [H|(i & I1 & I2)].
      * apply H. apply merge_one_gone. auto.
      * apply Hn. eapply KJ; eauto.
Qed.

Lemma fold_merge_wf K : forall L D, dwf D -> dwf (fold_left (merge_one K) L D).
Proof. induction L as [|j L IH]; simpl; intros D H; auto. apply IH. apply merge_one_wf. auto. Qed.

(** ** The partition read off D *)
Lemma fold_cadd_In v : forall s x, In x (fold_left (fun s x => cadd x s) v s) <-> In x s \/ In x v.
Proof.
  induction v as [|a v IH]; intros s x; simpl; [tauto|]. rewrite IH, cadd_In. split; intuition.
Qed.

Lemma fold_cadd_sorted v : forall s, csorted s -> csorted (fold_left (fun s x => cadd x s) v s).
Proof. induction v as [|a v IH]; intros s H; simpl; auto. apply IH. apply cadd_sorted. auto. Qed.

Lemma total_In : forall (D : dmap) t x,
  In x (fold_left (fun t p => fold_left (fun t x => cadd x t) (snd p) t) D t) <->
  In x t \/ exists p, In p D /\ In x (snd p).
Proof.
  induction D as [|p D IH]; intros t x; simpl.
  - split; auto. intros [H|(p & [] & _)]; auto.
  - rewrite IH, fold_cadd_In. split.
    + intros [[H|H]|(p' & H1 & H2)]; eauto.
    + intros [H|(p' & [<-|H1] & H2)]; eauto.
Qed.

Lemma total_sorted : forall (D : dmap) t, csorted t ->
  csorted (fold_left (fun t p => fold_left (fun t x => cadd x t) (snd p) t) D t).
Proof.
  induction D as [|p D IH]; intros t H; simpl; auto. apply IH. apply fold_cadd_sorted. auto.
Qed.

Lemma fold_padd_In {A} (f : A -> cset) : forall l P B,
  In B (fold_left (fun P x => padd (f x) P) l P) <-> In B P \/ exists x, In x l /\ B = f x.
Proof.
  induction l as [|a l IH]; intros P B; simpl.
  - split; auto. intros [H|(x & [] & _)]; auto.
  - rewrite IH, padd_In. split.
    + intros [[H|H]|(x & H1 & H2)]; eauto.
    + intros [H|(x & [<-|H1] & H2)]; eauto.
Qed.

Lemma fold_padd_sorted {A} (f : A -> cset) : forall l P, psorted P ->
  psorted (fold_left (fun P x => padd (f x) P) l P).
Proof. induction l as [|a l IH]; intros P H; simpl; auto. apply IH. apply padd_sorted. auto. Qed.

(** [D] stores the clustering [Bs]. *)
Record DI (D : dmap) (Bs : list (list nat)) : Prop := {
  DI_wf : dwf D;
  DI_key : forall k, dfind D k <> None -> In k (map (hd 0%nat) Bs);
  DI_cont : forall B x, In B Bs -> (In x (cont D (hd 0%nat B)) <-> In x B)
}.

Lemma psorted_NoDup P : psorted P -> NoDup P.
Proof.
  intro H. induction H as [|S P H1 IH H2]; constructor; auto.
  intro C. rewrite Forall_forall in H2. specialize (H2 S C). rewrite clt_irrefl in H2. discriminate.
Qed.

Lemma dmap_partition_ok n D Bs :
  is_partition (seq 0 n) Bs -> (forall B, In B Bs -> csorted B) -> DI D Bs ->
  Permutation (dmap_partition n D) Bs.
Proof.
  intros HP HS [D1 D2 D3].
  unfold dmap_partition.
  set (total := fold_left (fun t p => fold_left (fun t x => cadd x t) (snd p) t) D []).
  set (sv := fun p : nat * list nat => fold_left (fun s x => cadd x s) (snd p) []).
  change (fold_left (fun P p => padd (fold_left (fun s x => cadd x s) (snd p) []) P) D [])
    with (fold_left (fun P p => padd (sv p) P) D []).
  set (P1 := fold_left (fun P p => padd (sv p) P) D []).
  assert (TI : forall x, In x total <-> exists p, In p D /\ In x (snd p)).
  { intro x. unfold total. rewrite total_In. simpl. tauto. }
  assert (Ent : forall p, In p D -> exists B, In B Bs /\ hd 0%nat B = fst p /\ sv p = B).
  { intros [k v] Hp. apply dfind_In in Hp; auto.
    assert (Hk : dfind D k <> None) by (rewrite Hp; discriminate).
    apply D2 in Hk. apply in_map_iff in Hk. destruct Hk as (B & B1 & B2). exists B.
    split; auto. split; auto. unfold sv. simpl. apply csorted_ext.
    - apply fold_cadd_sorted. constructor.
    - auto.
    - intro x. rewrite fold_cadd_In. simpl. rewrite <- (D3 B x B2). unfold cont. rewrite B1, Hp. tauto. }
  assert (TN : incl total (seq 0 n)).
  { intros x Hx. apply TI in Hx. destruct Hx as (p & Hp & Hx). destruct (Ent p Hp) as (B & B1 & _ & B2).
    apply (part_incl _ _ B HP B1). rewrite <- B2. unfold sv. apply fold_cadd_In. auto. }
  set (PF := if (length total <? n)%nat then _ else P1).
  assert (HPF : psorted PF /\ forall B, In B PF <->
     (exists p, In p D /\ B = sv p) \/ exists x, In x (seq 0 n) /\ ~ In x total /\ B = [x]).
  { unfold PF. destruct (length total <? n)%nat eqn:L.
    - split.
      + apply fold_padd_sorted. apply fold_padd_sorted. constructor.
      + intro B. rewrite fold_padd_In. unfold P1. rewrite fold_padd_In. simpl. split.
        * intros [[[]|H]|(x & H1 & ->)]; auto. apply filter_In in H1. destruct H1 as [H1 H2].
          apply negb_true_iff, mem_false in H2. right. exists x. auto.
        * intros [H|(x & H1 & H2 & ->)]; auto. right. exists x. split; auto. apply filter_In.
          split; auto. apply negb_true_iff, mem_false. auto.
    - apply Nat.ltb_ge in L. split.
      + apply fold_padd_sorted. constructor.
      + intro B. unfold P1. rewrite fold_padd_In. simpl. split; [tauto|].
        intros [H|(x & H1 & H2 & ->)]; auto. exfalso. apply H2.
        assert (I : incl (seq 0 n) total).
        { apply NoDup_length_incl; auto.
          - apply csorted_NoDup. apply total_sorted. constructor.
          - rewrite seq_length. auto. }
        apply I. auto. }
  destruct HPF as [PS PI]. apply NoDup_Permutation.
  - apply psorted_NoDup; auto.
  - eapply parts_distinct; [apply seq_NoDup|eauto].
  - intro B. rewrite PI. split.
    + intros [(p & Hp & ->)|(x & H1 & H2 & ->)].
      * destruct (Ent p Hp) as (B & B1 & _ & ->). auto.
      * destruct (part_cover (seq 0 n) Bs x HP H1) as (B & B1 & B2).
        assert (F : dfind D (hd 0%nat B) = None).
        { destruct (dfind D (hd 0%nat B)) as [v|] eqn:F; auto. exfalso. apply H2. apply TI.
          exists (hd 0%nat B, v). split; [apply dfind_In; auto|]. simpl.
          apply (D3 B x B1) in B2. unfold cont in B2. rewrite F in B2. auto. }
        assert (EB : B = [x]); [|rewrite <- EB; auto].
        assert (Q := D3 B). unfold cont in Q. rewrite F in Q.
        assert (Hx : hd 0%nat B = x) by (apply (Q x B1) in B2; destruct B2 as [->|[]]; auto).
        apply csorted_ext; auto; [repeat constructor|]. intro y. rewrite <- (Q y B1), Hx. tauto.
    + intro HB. destruct (dfind D (hd 0%nat B)) as [v|] eqn:F.
      * left. exists (hd 0%nat B, v). assert (Hp : In (hd 0%nat B, v) D) by (apply dfind_In; auto).
        split; auto. destruct (Ent _ Hp) as (B' & B1 & B2 & B3). rewrite B3. simpl in B2.
        apply (part_unique (seq 0 n) Bs B B' (hd 0%nat B)); auto; try apply seq_NoDup.
        -- apply hd_In. intro C. subst B. destruct (part_nonempty (seq 0 n) Bs [] HP HB) as (y & []).
        -- rewrite <- B2. apply hd_In. intro C. rewrite C in B1. destruct (part_nonempty (seq 0 n) Bs [] HP B1) as (y & []).
      * assert (Q : forall x, In x B <-> x = hd 0%nat B).
        { intro x. rewrite <- (D3 B x HB). unfold cont. rewrite F. simpl. intuition. }
        assert (Hh : In (hd 0%nat B) B) by (apply Q; auto).
        right. exists (hd 0%nat B). split; [apply (part_incl _ _ B HP HB); auto|]. split.
        -- intro C. apply TI in C. destruct C as (p & Hp & Hx). destruct (Ent p Hp) as (B' & B1 & B2 & B3).
           assert (HB' : In (hd 0%nat B) B').
           { rewrite <- B3. unfold sv. apply fold_cadd_In. auto. }
           assert (EB : B = B') by (apply (part_unique (seq 0 n) Bs B B' (hd 0%nat B)); auto; apply seq_NoDup).
           destruct p as [k v]. simpl in B2. rewrite <- B2, <- EB in Hp. apply dfind_In in Hp; auto. congruence.
        -- apply csorted_ext; auto; [repeat constructor|]. intro x. rewrite Q. simpl. intuition.
Qed.

Lemma filter_filter {A} (p q : A -> bool) l : filter p (filter q l) = filter (fun x => q x && p x) l.
Proof. induction l as [|a l IH]; simpl; auto. destruct (q a); simpl; [destruct (p a)|]; rewrite ?IH; auto. Qed.

(** ** Frontiers of a tree *)
Fixpoint cutf (b : Q -> bool) (t : ht) : list ht :=
  match t with
  | HT X g ts => match ts with
                 | [] => [HT X g ts]
                 | _ => if b g then [HT X g ts] else flat_map (cutf b) ts
                 end
  end.

Lemma cutf_eq b t : cutf b t =
  if (length (hkids t) =? 0)%nat then [t] else if b (hlab t) then [t] else flat_map (cutf b) (hkids t).
Proof. destruct t as [X g [|u ts]]; reflexivity. Qed.

(** A tree without the conditions on the values of its labels. *)
Inductive hsh (s : bool) : ht -> Prop :=
| hsh_leaf v g : hsh s (HT [v] g [])
| hsh_node X g ts :
    csorted X -> (2 <= length ts)%nat -> is_partition X (map hset ts) ->
    (forall t, In t ts -> lab_above s g t) -> (forall t, In t ts -> hsh s t) -> hsh s (HT X g ts).

Lemma hok_hsh E s e : forall t, hok E s e t -> hsh s t.
Proof.
  induction t as [X g ts IH] using ht_ind'. intro H. rewrite Forall_forall in IH.
  inversion H as [v g'|X' g' ts' S0 L2 HP H1 H3 HL HO]; subst; constructor; auto.
Qed.

Lemma hsh_sorted s t : hsh s t -> csorted (hset t).
Proof. intro H. inversion H; subst; simpl; auto. constructor; constructor. Qed.

Lemma hsh_nonempty s t : hsh s t -> hset t <> [].
Proof.
  intro H. destruct H as [v g|X g ts H0 H1 H2 H3 H4]; simpl; [discriminate|].
  intro C. subst X. destruct ts as [|t1 ts]; [simpl in H1; lia|].
  simpl in H2. destruct H2 as [H2 H7]. apply Permutation_sym, Permutation_nil in H2. simpl in H2.
  destruct (hset t1) eqn:K; [|discriminate]. apply H7. left; auto.
Qed.

Lemma hsh_kids s X g ts : hsh s (HT X g ts) -> ts <> [] ->
  (2 <= length ts)%nat /\ is_partition X (map hset ts) /\ (forall t, In t ts -> hsh s t) /\
  (forall t, In t ts -> lab_above false g t).
Proof.
  intros H Hne. inversion H as [v g'|X' g' ts' S0 L2 HP HL HO]; subst; [congruence|].
  split; auto. split; auto. split; auto. intros t Ht. eapply lab_above_le; eauto.
Qed.

Lemma hsh_kid_strict s X g ts u :
  hsh s (HT X g ts) -> In u ts -> incl (hset u) X /\ ~ incl X (hset u).
Proof.
  intros H Hu. inversion H as [v g'|X' g' ts' S0 L2 HP HL HO]; subst; [destruct Hu|].
  split; [apply (part_incl X (map hset ts)); auto; apply in_map; auto|].
  apply (strict_block X (map hset ts)); auto.
  - apply csorted_NoDup; auto.
  - rewrite map_length; auto.
  - apply in_map; auto.
Qed.

Lemma lab_nonneg E s e t : nonneg E -> hok E s e t -> hkids t <> [] -> 0 <= hlab t.
Proof.
  destruct t as [X g ts]. simpl. intros HEn H Hn.
  inversion H as [v g'|X' g' ts' S0 L2 HP H1 H3 HL HO]; subst; [congruence|].
  unfold hval in H1. assert (C := single_crossing (sub E X) (map hset ts) (sub_nonneg E X HEn)).
  apply qn_le in L2. rewrite map_length in H1. change (qn 2) with 2 in L2.
  destruct (Qlt_le_dec g 0) as [Q|Q]; auto. exfalso.
  assert (Z : 0 < (- g) * (qn (length ts) - 1)) by (apply Qmult_lt_0_compat; lra).
  assert (Z2 : (- g) * (qn (length ts) - 1) == g - g * qn (length ts)) by ring. lra.
Qed.

Inductive sbt : ht -> ht -> Prop :=
| sbt_refl t : sbt t t
| sbt_step w u t : In u (hkids t) -> sbt w u -> sbt w t.

Lemma sbt_hsh s w t : sbt w t -> hsh s t -> hsh s w.
Proof.
  induction 1 as [t|w u [X g ts] H1 H2 IH]; intro H; auto. simpl in H1. apply IH.
  destruct (hsh_kids s X g ts H) as (_ & _ & K & _); auto. intro C. subst. destruct H1.
Qed.

Lemma sbt_sub s w t : sbt w t -> hsh s t -> incl (hset w) (hset t).
Proof.
  induction 1 as [t|w u [X g ts] H1 H2 IH]; intro H; [apply incl_refl|]. simpl in H1.
  eapply incl_tran; [apply IH|apply (hsh_kid_strict s X g ts u H H1)].
  destruct (hsh_kids s X g ts H) as (_ & _ & K & _); auto. intro C. subst. destruct H1.
Qed.

Lemma kid_facts s t u : hsh s t -> In u (hkids t) ->
  hsh s u /\ lab_above s (hlab t) u /\ incl (hset u) (hset t) /\ (2 <= length (hkids t))%nat.
Proof.
  destruct t as [X g ts]. simpl. intros H Hu.
  assert (K := hsh_kid_strict s X g ts u H Hu).
  inversion H as [v g'|X' g' ts' S0 L2 HP HL HO]; subst; [destruct Hu|].
  split; auto. split; auto. split; auto. apply K.
Qed.

Lemma sbt_label s w t : sbt w t -> hsh s t -> hkids w <> [] -> hlab t <= hlab w.
Proof.
  induction 1 as [t|w u t H1 H2 IH]; intros H Hn; [lra|].
  destruct (kid_facts _ _ _ H H1) as (K1 & K2 & _).
  specialize (IH K1 Hn). apply lab_above_le in K2. destruct K2 as [K2|K2]; [|simpl in K2; lra].
  inversion H2; subst; [congruence|]. rewrite K2 in *. contradiction.
Qed.

Lemma cutf_sbt b : forall t u, In u (cutf b t) -> sbt u t.
Proof.
  induction t as [X g ts IH] using ht_ind'. intros u H. rewrite cutf_eq in H. simpl in H.
  rewrite Forall_forall in IH.
  destruct (length ts =? 0)%nat; [destruct H as [<-|[]]; constructor|].
  destruct (b g); [destruct H as [<-|[]]; constructor|].
  apply in_flat_map in H. destruct H as (v & V1 & V2). eapply sbt_step; [exact V1|auto].
Qed.

Lemma cutf_top b : forall t u, In u (cutf b t) -> hkids u = [] \/ b (hlab u) = true.
Proof.
  induction t as [X g ts IH] using ht_ind'. intros u H. rewrite cutf_eq in H. simpl in H.
  rewrite Forall_forall in IH.
  destruct (length ts =? 0)%nat eqn:L.
  - destruct H as [<-|[]]. left. simpl. apply Nat.eqb_eq in L. destruct ts; [auto|discriminate].
  - destruct (b g) eqn:B; [destruct H as [<-|[]]; auto|].
    apply in_flat_map in H. destruct H as (v & V1 & V2). eauto.
Qed.

Lemma flat_map_part {A} (f : A -> list (list nat)) (h : A -> list nat) X l :
  is_partition X (map h l) -> (forall a, In a l -> is_partition (h a) (f a)) ->
  is_partition X (flat_map f l).
Proof.
  intros [H1 H2] Hf. split.
  - rewrite <- H1. clear H1 H2. induction l as [|a l IH]; simpl; auto.
    rewrite concat_app. apply Permutation_app; [apply Hf; left; auto|].
    apply IH. intros; apply Hf; right; auto.
  - intro C. apply in_flat_map in C. destruct C as (a & A1 & A2). apply (Hf a A1). auto.
Qed.

Lemma map_flat_map {A B C} (f : B -> C) (g : A -> list B) l :
  map f (flat_map g l) = flat_map (fun x => map f (g x)) l.
Proof. induction l; simpl; auto. rewrite map_app. congruence. Qed.

Lemma cutf_part s b : forall t, hsh s t -> is_partition (hset t) (map hset (cutf b t)).
Proof.
  induction t as [X g ts IH] using ht_ind'. intro H. rewrite Forall_forall in IH.
  assert (One : is_partition (hset (HT X g ts)) (map hset [HT X g ts])).
  { apply one_block_part. apply (hsh_nonempty s _ H). }
  rewrite cutf_eq. destruct (length (hkids (HT X g ts)) =? 0)%nat eqn:L; auto.
  destruct (b (hlab (HT X g ts))); auto. rewrite map_flat_map. simpl in *.
  assert (Hne : ts <> []) by (intro C; subst; discriminate).
  destruct (hsh_kids s X g ts H Hne) as (_ & HP & HO & _).
  apply (flat_map_part _ hset); auto.
Qed.

Lemma cutf_ext b b' : forall t,
  (forall w, sbt w t -> hkids w <> [] -> b (hlab w) = b' (hlab w)) -> cutf b t = cutf b' t.
Proof.
  induction t as [X g ts IH] using ht_ind'. intro H. rewrite Forall_forall in IH.
  rewrite !cutf_eq. simpl. destruct (length ts =? 0)%nat eqn:L; auto.
  assert (Q : b g = b' g) by (apply (H (HT X g ts) (sbt_refl _)); simpl; intro C; subst; discriminate).
  rewrite <- Q.
  destruct (b g); auto.
  assert (K : forall u, In u ts -> cutf b u = cutf b' u).
  { intros u Hu. apply IH; auto. intros w Hw. apply H. eapply sbt_step; eauto. }
  clear -K. induction ts as [|u ts IH]; simpl; auto. rewrite K by (left; auto). f_equal. apply IH.
  intros; apply K; right; auto.
Qed.

Definition atg (g : Q) (t : ht) : bool := negb (length (hkids t) =? 0)%nat && Qeq_bool (hlab t) g.

Lemma flat_map_flat_map {A B C} (f : B -> list C) (g : A -> list B) l :
  flat_map f (flat_map g l) = flat_map (fun x => flat_map f (g x)) l.
Proof. induction l; simpl; auto. rewrite flat_map_app. congruence. Qed.

Lemma flat_map_single {A B} (f : A -> list B) l : (forall u, In u l -> exists v, f u = [v]) ->
  length (flat_map f l) = length l.
Proof.
  induction l as [|a l IH]; simpl; intro H; auto. destruct (H a (or_introl eq_refl)) as (v & ->).
  simpl. f_equal. apply IH. auto.
Qed.

Lemma flat_map_id {A} (f : A -> list A) l : (forall u, In u l -> f u = [u]) -> flat_map f l = l.
Proof.
  induction l as [|a l IH]; simpl; intro H; auto. rewrite (H a) by (left; auto). simpl. f_equal.
  apply IH. auto.
Qed.

Lemma flat_map_ext_in {A B} (f h : A -> list B) l :
  (forall u, In u l -> f u = h u) -> flat_map f l = flat_map h l.
Proof.
  induction l as [|a l IH]; simpl; intro H; auto. rewrite (H a) by (left; auto). f_equal. apply IH. auto.
Qed.

Lemma cut_step g : forall t, hsh true t ->
  cutf (Qltb g) t = flat_map (fun u => if atg g u then hkids u else [u]) (cutf (Qle_bool g) t).
Proof.
  induction t as [X l ts IH] using ht_ind'. intro H. rewrite Forall_forall in IH.
  set (f := fun u => if atg g u then hkids u else [u]).
  rewrite !cutf_eq. cbn [hkids hlab]. destruct (length ts =? 0)%nat eqn:L.
  - simpl. unfold f, atg. cbn [hkids]. rewrite L. reflexivity.
  - destruct (Qle_bool g l) eqn:B.
    + apply Qle_bool_iff in B. simpl. rewrite app_nil_r. unfold f, atg. cbn [hkids hlab]. rewrite L. simpl.
      destruct (Qeq_bool l g) eqn:C.
      * apply Qeq_bool_iff in C. assert (N : Qltb g l = false) by (apply Qltb_false; lra).
        rewrite N. apply flat_map_id. intros u Hu. rewrite cutf_eq.
        destruct (kid_facts _ _ u H Hu) as (_ & [K|K] & _); [rewrite K; reflexivity|].
        destruct (length (hkids u) =? 0)%nat; auto.
        assert (N2 : Qltb g (hlab u) = true) by (apply Qltb_true; simpl in K; lra). rewrite N2. auto.
      * assert (N : Qltb g l = true).
        { apply Qltb_true. apply Qle_lteq in B. destruct B as [B|B]; auto.
          exfalso. assert (Q : Qeq_bool l g = true) by (apply Qeq_bool_iff; symmetry; auto). congruence. }
        rewrite N. reflexivity.
    + assert (N : Qltb g l = false).
      { apply Qltb_false. destruct (Qlt_le_dec l g) as [K|K]; [lra|]. apply Qle_bool_iff in K. congruence. }
      rewrite N, flat_map_flat_map. apply flat_map_ext_in. intros u Hu. apply IH; auto.
      apply (kid_facts _ _ u H Hu).
Qed.

Lemma flat_map_split {A} (f : A -> list A) (p : A -> bool) l :
  Permutation (flat_map (fun u => if p u then f u else [u]) l)
    (concat (map f (filter p l)) ++ filter (fun u => negb (p u)) l).
Proof.
  induction l as [|a l IH]; simpl; auto. destruct (p a); simpl.
  - rewrite IH, app_assoc. auto.
  - rewrite IH. apply Permutation_middle.
Qed.

Lemma filter_split {A} (p : A -> bool) l :
  Permutation l (filter p l ++ filter (fun u => negb (p u)) l).
Proof.
  induction l as [|a l IH]; simpl; auto. destruct (p a); simpl; [auto|].
  rewrite <- Permutation_middle. auto.
Qed.

(** An inner node lies on the frontier of its own label. *)
Lemma cut_in g w t : sbt w t -> hsh true t -> hkids w <> [] -> hlab w == g ->
  In w (cutf (Qle_bool g) t).
Proof.
  induction 1 as [t|w u t H1 H2 IH]; intros H Hn Hg; rewrite cutf_eq.
  - destruct (length (hkids t) =? 0)%nat; [left; auto|].
    assert (B : Qle_bool g (hlab t) = true) by (apply Qle_bool_iff; lra). rewrite B. left; auto.
  - destruct (kid_facts _ _ _ H H1) as (K1 & K2 & _ & K4).
    assert (N : (length (hkids t) =? 0)%nat = false) by (apply Nat.eqb_neq; lia). rewrite N.
    assert (L : hlab t < g).
    { assert (L := sbt_label _ _ _ H2 K1 Hn). destruct K2 as [K2|K2]; [|simpl in K2; lra].
      exfalso. inversion H2; subst; [congruence|]. rewrite K2 in *. contradiction. }
    assert (B : Qle_bool g (hlab t) = false).
    { destruct (Qle_bool g (hlab t)) eqn:B; auto. apply Qle_bool_iff in B. lra. }
    rewrite B. apply in_flat_map. exists u. split; auto.
Qed.

Lemma map_inj_NoDup {A B} (f : A -> B) l x y :
  NoDup (map f l) -> In x l -> In y l -> f x = f y -> x = y.
Proof.
  induction l as [|a l IH]; simpl; intros H Hx Hy Hf; [destruct Hx|].
  inversion H as [|? ? H1 H2]; subst. destruct Hx as [<-|Hx], Hy as [<-|Hy]; auto.
  - exfalso. apply H1. rewrite Hf. apply in_map; auto.
  - exfalso. apply H1. rewrite <- Hf. apply in_map; auto.
Qed.

(** ** Reading the tree from W and K *)
Section Read.
  Variable n : nat.
  Variable T : ht.
  Hypothesis HT0 : hsh true T.
  Hypothesis HTs : hset T = seq 0 n.
  Hypothesis HTk : hkids T <> [].
  Hypothesis HTl : forall t, sbt t T -> hkids t <> [] -> -1 < hlab t.
  Variable W : nat -> dbl.
  Variable K : nat -> nat.
  Hypothesis Henc : enc W K T.
  Hypothesis HW0 : W (hrep T) = Fin (hlab T).
  Hypothesis HK0 : K (hrep T) = hrep T.

  Definition own (j : nat) (t : ht) : Prop :=
    sbt t T /\ (exists u, In u (hkids t) /\ hrep u = j) /\ W j = Fin (hlab t) /\ K j = hrep t.

  Lemma rep_in t : hsh true t -> In (hrep t) (hset t).
  Proof. intro H. apply hd_In. eapply hsh_nonempty; eauto. Qed.

  Lemma kid_rep t u : hsh true t -> In u (hkids t) -> In (hrep t) (hset u) -> hrep u = hrep t.
  Proof.
    intros H Hu Hr. destruct (kid_facts _ _ _ H Hu) as (K1 & _ & K3 & _).
    assert (L1 := hd_sorted_min _ _ (hsh_sorted _ _ K1) Hr).
    assert (L2 := hd_sorted_min _ _ (hsh_sorted _ _ H) (K3 _ (rep_in u K1))).
    apply Nat.le_antisymm; [exact L1|exact L2].
  Qed.

  Lemma kid_of t x : hsh true t -> hkids t <> [] -> In x (hset t) -> exists u, In u (hkids t) /\ In x (hset u).
  Proof.
    destruct t as [X g ts]. simpl. intros H Hn Hx.
    destruct (hsh_kids true X g ts H Hn) as (_ & HP & _).
    destruct (part_cover X (map hset ts) x HP Hx) as (B & B1 & B2). apply in_map_iff in B1.
    destruct B1 as (u & <- & Hu). eauto.
  Qed.

  Lemma enc_sbt t : sbt t T -> enc W K t.
  Proof.
    revert Henc. clear. intros H S. induction S as [t|w u t H1 H2 IH]; auto.
    apply IH. apply enc_inv in H. apply H. auto.
  Qed.

  Lemma own_of t u : sbt t T -> In u (hkids t) -> hrep u <> hrep t -> own (hrep u) t.
  Proof.
    intros S Hu Hn. split; auto. split; [eauto|]. assert (H := enc_sbt t S). apply enc_inv in H.
    apply H; auto.
  Qed.

  Lemma own_root : own (hrep T) T.
  Proof.
    split; [constructor|]. split; auto.
    destruct (kid_of T (hrep T) HT0 HTk (rep_in T HT0)) as (u & U1 & U2). exists u. split; auto.
    apply kid_rep; auto.
  Qed.

  Lemma own_ex j : In j (seq 0 n) -> exists t, own j t.
  Proof.
    rewrite <- HTs. intro Hj. destruct (Nat.eq_dec j (hrep T)) as [->|N]; [exists T; apply own_root|].
    assert (G : forall t, sbt t T -> In j (hset t) -> j <> hrep t -> exists t', own j t').
    { clear Hj N. induction t as [X g ts IH] using ht_ind'. intros S Hj N.
      assert (Ht := sbt_hsh _ _ _ S HT0). rewrite Forall_forall in IH.
      assert (Hk : hkids (HT X g ts) <> []).
      { intro C. simpl in C. subst ts. inversion Ht; subst; simpl in *; [|lia].
        apply N. destruct Hj as [<-|[]]. reflexivity. }
      destruct (kid_of _ j Ht Hk Hj) as (u & U1 & U2). simpl in U1.
      destruct (Nat.eq_dec j (hrep u)) as [Q|Q].
      - exists (HT X g ts). rewrite Q. apply own_of; auto. congruence.
      - apply (IH u U1); auto. clear -S U1. revert U1. generalize dependent u.
        remember (HT X g ts) as t eqn:Et. intros u U1.
        assert (Q : In u (hkids t)) by (subst; auto). clear U1 Et.
        induction S as [t|w v t H1 H2 IH]; [eapply sbt_step; [eauto|constructor]|].
        eapply sbt_step; [exact H1|auto]. }
    apply (G T); auto. constructor.
  Qed.

  Lemma own_kids j t : own j t -> hkids t <> [].
  Proof. intros (_ & (u & U & _) & _) C. rewrite C in U. destruct U. Qed.

  (** Every inner node owns some index other than its representative. *)
  Lemma owned2 t : sbt t T -> hkids t <> [] -> exists j, own j t /\ In j (seq 0 n) /\ j <> hrep t.
  Proof.
    intros S Hk. assert (Ht := sbt_hsh _ _ _ S HT0).
    destruct (kid_of t (hrep t) Ht Hk (rep_in t Ht)) as (u0 & A1 & A2).
    assert (X : exists u, In u (hkids t) /\ hrep u <> hrep t).
    { destruct t as [X g ts]. cbn [hkids] in *. inversion Ht as [v g'|X' g' ts' S0 L2 HP HL HO]; subst; [congruence|].
      assert (ND : NoDup (map hset ts)) by (eapply parts_distinct; [apply csorted_NoDup; eauto|eauto]).
      destruct ts as [|u1 [|u2 ts]]; [simpl in L2; lia|simpl in L2; lia|].
      destruct (Nat.eq_dec (hrep u1) (hrep (HT X g (u1 :: u2 :: ts)))) as [Q|Q].
      - exists u2. split; [right; left; auto|]. intro Q2.
        assert (EQ : hset u1 = hset u2).
        { apply (part_unique X (map hset (u1 :: u2 :: ts)) _ _ (hrep u1)); auto using csorted_NoDup.
          - left; auto.
          - right; left; auto.
          - apply rep_in. apply HO. left; auto.
          - rewrite Q, <- Q2. apply rep_in. apply HO. right; left; auto. }
        simpl in ND. inversion ND as [|? ? N1 N2]; subst. apply N1. left. auto.
      - exists u1. split; [left|]; auto. }
    destruct X as (u & U1 & U2). exists (hrep u). split; [apply own_of; auto|]. split; [|auto].
    rewrite <- HTs. apply (sbt_sub _ _ _ S HT0).
    destruct (kid_facts _ _ _ Ht U1) as (K1 & _ & K3 & _). apply K3. apply rep_in. auto.
  Qed.

  Lemma owned t : sbt t T -> hkids t <> [] -> exists j, In j (seq 0 n) /\ own j t.
  Proof. intros H1 H2. destruct (owned2 t H1 H2) as (j & A & B & _). eauto. Qed.

  Definition Wle (g : Q) (j : nat) : Prop := exists q, W j = Fin q /\ q <= g.

  Section Stage.
    Variable g : Q.
    Variable C : list nat.
    Hypothesis HCn : NoDup C.
    Hypothesis HC : forall j, In j C <-> In j (seq 0 n) /\ Wle g j.
    Let F := cutf (Qle_bool g) T.
    Let F2 := cutf (Qltb g) T.
    Let L := filter (fun j => deqb (W j) (Fin g)) C.

    Lemma L_In j : In j L <-> In j (seq 0 n) /\ exists q, W j = Fin q /\ q == g.
    Proof.
      unfold L. rewrite filter_In, HC. split.
      - intros ((H1 & q & H2 & H3) & H4). split; auto. exists q. split; auto.
        rewrite H2 in H4. simpl in H4. apply Qeq_bool_iff in H4. auto.
      - intros (H1 & q & H2 & H3). split; [split; auto; exists q; split; auto; lra|].
        rewrite H2. simpl. apply Qeq_bool_iff. auto.
    Qed.

    Lemma F_hok t : In t F -> hsh true t.
    Proof. intro H. eapply sbt_hsh; [eapply cutf_sbt; exact H|auto]. Qed.
    Lemma F2_hok t : In t F2 -> hsh true t.
    Proof. intro H. eapply sbt_hsh; [eapply cutf_sbt; exact H|auto]. Qed.

    Lemma F_part : is_partition (seq 0 n) (map hset F).
    Proof. rewrite <- HTs. eapply cutf_part; eauto. Qed.
    Lemma F2_part : is_partition (seq 0 n) (map hset F2).
    Proof. rewrite <- HTs. eapply cutf_part; eauto. Qed.

    Lemma F_rep_inj t t' : In t F -> In t' F -> hrep t = hrep t' -> hset t = hset t'.
    Proof.
      intros H1 H2 H3. apply (part_unique (seq 0 n) (map hset F) _ _ (hrep t)); try (apply in_map; auto).
      - apply seq_NoDup.
      - apply F_part.
      - apply rep_in. apply F_hok; auto.
      - rewrite H3. apply rep_in. apply F_hok; auto.
    Qed.

    Lemma F2_in u : In u F2 <-> exists t, In t F /\ ((atg g t = true /\ In u (hkids t)) \/ (atg g t = false /\ u = t)).
    Proof.
      unfold F2. rewrite (cut_step g T HT0). rewrite in_flat_map. fold F. split.
      - intros (t & H1 & H2). exists t. split; auto. destruct (atg g t); [auto|]. destruct H2 as [<-|[]]. auto.
      - intros (t & H1 & H2). exists t. split; auto.
        destruct H2 as [[-> H2]|[-> ->]]; [auto|left; auto].
    Qed.

    Lemma atg_true t : atg g t = true <-> hkids t <> [] /\ hlab t == g.
    Proof.
      unfold atg. rewrite andb_true_iff, negb_true_iff, Nat.eqb_neq, Qeq_bool_iff.
      destruct (hkids t); simpl; split; intros [H1 H2]; split; auto; try congruence; try lia.
    Qed.

    Lemma own_F j t : own j t -> In j L -> In t F /\ atg g t = true.
    Proof.
      intros O HL. assert (Hk := own_kids j t O). destruct O as (S & _ & O1 & _). apply L_In in HL.
      destruct HL as (_ & q & H1 & H2). rewrite O1 in H1. injection H1 as <-.
      split; [|apply atg_true; auto]. eapply cut_in; eauto.
    Qed.

    Lemma stage_ok D : DI D (map hset F2) -> DI (fold_left (merge_one K) L D) (map hset F).
    Proof.
      intros [D1 D2 D3].
      assert (LN : NoDup L) by (apply NoDup_filter; auto).
      assert (LK : forall j, In j L -> In (K j) L -> K (K j) = K j).
      { intros j H1 H2. assert (H1' := H1). apply L_In in H1'. destruct H1' as [S1 _].
        assert (H2' := H2). apply L_In in H2'. destruct H2' as [S2 _].
        destruct (own_ex j S1) as (t & O). destruct (own_ex (K j) S2) as (t' & O').
        destruct (own_F j t O H1) as [A1 A2]. destruct (own_F (K j) t' O' H2) as [B1 B2].
        (* both own nodes lie on the frontier and share the representative *)
        assert (EK : K j = hrep t) by apply O.
        destruct O' as (O1 & (u & U1 & U2) & O3 & O4). rewrite O4.
        assert (Hr : In (hrep t) (hset t')).
        { rewrite <- EK, <- U2. destruct (kid_facts _ _ _ (F_hok t' B1) U1) as (Q1 & _ & Q3 & _).
          apply Q3. apply rep_in. auto. }
        assert (EQ : hset t = hset t').
        { apply (part_unique (seq 0 n) (map hset F) _ _ (hrep t)); try (apply in_map; auto); auto.
          - apply seq_NoDup.
          - apply F_part.
          - apply rep_in. apply F_hok; auto. }
        rewrite EK. unfold hrep. rewrite EQ. auto. }
      destruct (fold_merge K L D LN LK) as (M1 & M2 & M3).
      set (D' := fold_left (merge_one K) L D) in *.
      assert (C2 : forall u x, In u F2 -> (In x (cont D (hrep u)) <-> In x (hset u))).
      { intros u x Hu. apply (D3 (hset u) x). apply in_map; auto. }
      assert (Alive : forall t, In t F -> ~ (In (hrep t) L /\ K (hrep t) <> hrep t)).
      { intros t Ht [H1 H2]. assert (S1 := H1). apply L_In in S1. destruct S1 as [S1 _].
        destruct (own_ex _ S1) as (t' & O). destruct (own_F _ _ O H1) as [A1 A2]. apply H2.
        destruct O as (O1 & (u & U1 & U2) & O3 & O4). rewrite O4.
        assert (Hr : In (hrep t) (hset t')).
        { rewrite <- U2. destruct (kid_facts _ _ _ (F_hok t' A1) U1) as (Q1 & _ & Q3 & _).
          apply Q3. apply rep_in. auto. }
        assert (EQ : hset t = hset t').
        { apply (part_unique (seq 0 n) (map hset F) _ _ (hrep t)); try (apply in_map; auto); auto.
          - apply seq_NoDup.
          - apply F_part.
          - apply rep_in. apply F_hok; auto. }
        unfold hrep. rewrite EQ. auto. }
      constructor.
      - apply fold_merge_wf. auto.
      - intros k Hk.
        assert (Hk2 : In k (map hrep F2)).
        { destruct (M3 k Hk) as [H|(j & J1 & J2)].
          - apply D2 in H. rewrite map_map in H. exact H.
          - assert (S1 := J1). apply L_In in S1. destruct S1 as [S1 _].
            destruct (own_ex _ S1) as (t & O). destruct (own_F _ _ O J1) as [A1 A2].
            assert (EK : K j = hrep t) by apply O. rewrite J2 in EK. subst k.
            assert (Hkd := own_kids j t O).
            destruct (kid_of t (hrep t) (F_hok t A1) Hkd (rep_in t (F_hok t A1))) as (u & U1 & U2).
            apply in_map_iff. exists u. split.
            + rewrite EK. apply kid_rep; auto. apply F_hok; auto.
            + apply F2_in. exists t. auto. }
        apply in_map_iff in Hk2. destruct Hk2 as (u & <- & Hu). apply F2_in in Hu.
        destruct Hu as (t & Ht & [[A U]|[A ->]]); [|rewrite map_map; change (In (hrep t) (map hrep F)); apply in_map; auto].
        destruct (Nat.eq_dec (hrep u) (hrep t)) as [Q|Q].
        + rewrite Q, map_map. change (In (hrep t) (map hrep F)). apply in_map; auto.
        + exfalso. apply Hk. assert (O := own_of t u (cutf_sbt _ _ _ Ht) U Q).
          apply M2.
          * apply L_In. split.
            -- rewrite <- HTs. destruct (kid_facts _ _ _ (F_hok t Ht) U) as (Q1 & _ & Q3 & _).
               apply (sbt_sub _ _ _ (cutf_sbt _ _ _ Ht) HT0). apply Q3. apply rep_in. auto.
            -- apply atg_true in A. exists (hlab t). split; [apply O|tauto].
          * destruct O as (_ & _ & _ & O). rewrite O. auto.
      - intros B x HB. apply in_map_iff in HB. destruct HB as (t & <- & Ht).
        change (hd 0%nat (hset t)) with (hrep t). rewrite (M1 (hrep t) x (Alive t Ht)).
        assert (Hok := F_hok t Ht).
        destruct (atg g t) eqn:A.
        + assert (A' := A). apply atg_true in A'. destruct A' as [A1 A2].
          destruct (kid_of t (hrep t) Hok A1 (rep_in t Hok)) as (u0 & U1 & U2).
          assert (R0 := kid_rep t u0 Hok U1 U2).
          assert (In2 : forall u, In u (hkids t) -> In u F2) by (intros u Hu; apply F2_in; exists t; auto).
          split.
          * intros [H|(j & J1 & J2 & J3)].
            -- rewrite <- R0 in H. apply C2 in H; auto. apply (kid_facts _ _ _ Hok U1). auto.
            -- assert (S1 := J1). apply L_In in S1. destruct S1 as [S1 _].
               destruct (own_ex _ S1) as (t' & O). destruct (own_F _ _ O J1) as [B1 B2].
               destruct O as (O1 & (u & V1 & V2) & O3 & O4).
               assert (EQ : hset t = hset t') by (apply F_rep_inj; auto; congruence).
               rewrite EQ. rewrite <- V2 in J3. apply C2 in J3.
               ++ apply (kid_facts _ _ _ (F_hok t' B1) V1). auto.
               ++ apply F2_in. exists t'. auto.
          * intro Hx. destruct (kid_of t x Hok A1 Hx) as (u & V1 & V2).
            destruct (Nat.eq_dec (hrep u) (hrep t)) as [Q|Q].
            -- left. rewrite <- Q. apply C2; auto.
            -- right. exists (hrep u). assert (O := own_of t u (cutf_sbt _ _ _ Ht) V1 Q).
               split; [|split; [apply O|apply C2; auto]].
               apply L_In. split; [|exists (hlab t); split; [apply O|auto]].
               rewrite <- HTs. destruct (kid_facts _ _ _ Hok V1) as (Q1 & _ & Q3 & _).
               apply (sbt_sub _ _ _ (cutf_sbt _ _ _ Ht) HT0). apply Q3. apply rep_in. auto.
        + assert (H2 : In t F2) by (apply F2_in; exists t; auto). split.
          * intros [H|(j & J1 & J2 & J3)]; [apply C2 in H; auto|]. exfalso.
            assert (S1 := J1). apply L_In in S1. destruct S1 as [S1 _].
            destruct (own_ex _ S1) as (t' & O). destruct (own_F _ _ O J1) as [B1 B2].
            destruct O as (O1 & (u & V1 & V2) & O3 & O4).
            assert (EQ : hset t = hset t') by (apply F_rep_inj; auto; congruence).
            (* t' has at least two elements below label g; t is a leaf or has a larger label *)
            assert (B3 := B2). apply atg_true in B3. destruct B3 as [B3 B4].
            assert (EQt : t = t').
            { apply (map_inj_NoDup hset F); auto. eapply parts_distinct; [apply seq_NoDup|apply F_part]. }
            subst t'. congruence.
          * intro H. left. apply C2; auto.
    Qed.
  End Stage.

  Lemma max_fold : forall C a, (forall j, In j C -> exists q, W j = Fin q) ->
    exists g, fold_left (fun g j => if dltb g (W j) then W j else g) C (Fin a) = Fin g /\ a <= g /\
      (forall i q, In i C -> W i = Fin q -> q <= g) /\ (g = a \/ exists j, In j C /\ W j = Fin g).
  Proof.
    induction C as [|j C IH]; intros a H; cbn [fold_left].
    - exists a. split; auto. split; [lra|]. split; auto. intros i q [].
    - destruct (H j (or_introl eq_refl)) as (q & Hq). rewrite Hq. simpl.
      assert (H' : forall i, In i C -> exists q, W i = Fin q) by (intros; apply H; right; auto).
      destruct (Qltb a q) eqn:B.
      + apply Qltb_true in B. destruct (IH q H') as (g & G1 & G2 & G3 & G4). exists g.
        split; auto. split; [lra|]. split.
        * intros i r [<-|Hi] Hr; [|eapply G3; eauto]. rewrite Hq in Hr. injection Hr as <-. auto.
        * right. destruct G4 as [->|(i & I1 & I2)]; [exists j; split; [left|]; auto|].
          exists i. split; [right|]; auto.
      + apply Qltb_false in B. destruct (IH a H') as (g & G1 & G2 & G3 & G4). exists g.
        split; auto. split; auto. split.
        * intros i r [<-|Hi] Hr; [|eapply G3; eauto]. rewrite Hq in Hr. injection Hr as <-. lra.
        * destruct G4 as [->|(i & I1 & I2)]; auto. right. exists i. split; [right|]; auto.
  Qed.

  Lemma max_W_ok C : C <> [] -> (forall j, In j C -> exists q, W j = Fin q /\ -1 < q) ->
    exists g, max_W W C = Fin g /\ (exists j, In j C /\ W j = Fin g) /\
      (forall i q, In i C -> W i = Fin q -> q <= g).
  Proof.
    intros Hne H. destruct (max_fold C (-1)) as (g & G1 & G2 & G3 & G4).
    { intros j Hj. destruct (H j Hj) as (q & Q & _). eauto. }
    exists g. split; auto. split; auto. destruct G4 as [->|G4]; auto. exfalso.
    destruct C as [|j C]; [congruence|]. destruct (H j (or_introl eq_refl)) as (q & Q1 & Q2).
    specialize (G3 j q (or_introl eq_refl) Q1). lra.
  Qed.

  Definition bW (b : Q -> bool) (j : nat) : bool := match W j with Fin q => b q | _ => true end.

  Lemma W_fin j : In j (seq 0 n) -> exists t, own j t /\ W j = Fin (hlab t) /\ -1 < hlab t.
  Proof.
    intro Hj. destruct (own_ex j Hj) as (t & O). exists t. split; auto. split; [apply O|].
    apply HTl; [apply O|eapply own_kids; eauto].
  Qed.

  (** The loop of psp_construct. [b]: labels that are already merged. *)
  Theorem loop_ok : forall fuel b D C lams ps P Ps,
    (forall x y, x <= y -> b x = true -> b y = true) ->
    C = filter (fun j => negb (bW b j)) (seq 0 n) -> (length C < fuel)%nat ->
    DI D (map hset (cutf b T)) ->
    ps ++ [pfine n] = P :: Ps -> Permutation P (map hset (cutf b T)) ->
    steps Qlt (cutf b T) lams Ps ->
    exists lams' ps' P' Ps', hpsp_loop fuel n W K C D (map Fin lams) ps = Ok (map Fin lams', ps') /\
      ps' ++ [pfine n] = P' :: Ps' /\ Permutation P' [hset T] /\ steps Qlt [T] lams' Ps'.
  Proof.
    induction fuel as [|fuel IH]; intros b D C lams ps P Ps Hb HC Hf HD Hps HP Hst; [lia|].
    assert (CI : forall j, In j C <-> In j (seq 0 n) /\ bW b j = false).
    { intro j. rewrite HC, filter_In, negb_true_iff. tauto. }
    assert (CN : NoDup C) by (rewrite HC; apply NoDup_filter, seq_NoDup).
    cbn [hpsp_loop]. destruct (length C <=? 1)%nat eqn:LC.
    - apply Nat.leb_le in LC.
      assert (Root : b (hlab T) = true).
      { destruct (b (hlab T)) eqn:B; auto. exfalso.
        assert (C0 : forall j, own j T -> In j (seq 0 n) -> In j C).
        { intros j O Hj. apply CI. split; auto. unfold bW. destruct O as (_ & _ & -> & _). auto. }
        destruct (owned T (sbt_refl T) HTk) as (j & J1 & J2).
        assert (J3 := C0 j J2 J1).
        assert (R1 : In (hrep T) (seq 0 n)) by (rewrite <- HTs; apply rep_in; auto).
        assert (J4 := C0 _ own_root R1).
        (* a child without the root's representative *)
        assert (X : exists i, In i C /\ i <> hrep T).
        { destruct (owned2 T (sbt_refl T) HTk) as (i & I1 & I2 & I3). exists i. split; auto. }
        destruct X as (i & I1 & I2).
        clear -LC I1 I2 J4. destruct C as [|c1 [|c2 C']].
        - destruct I1.
        - destruct I1 as [I1|[]]. destruct J4 as [J4|[]]. congruence.
        - simpl in LC. lia. }
      assert (Q : cutf b T = [T]).
      { rewrite cutf_eq. destruct (length (hkids T) =? 0)%nat; auto. rewrite Root. auto. }
      rewrite Q in *. exists lams, ps, P, Ps. auto.
    - apply Nat.leb_gt in LC.
      assert (CF : forall j, In j C -> exists q, W j = Fin q /\ -1 < q).
      { intros j Hj. apply CI in Hj. destruct (W_fin j (proj1 Hj)) as (t & _ & H). eauto. }
      destruct (max_W_ok C) as (g & G1 & (j0 & J1 & J2) & G3); auto.
      { intro Q. rewrite Q in LC. simpl in LC. lia. }
      unfold hpsp_merge. rewrite G1.
      assert (Bg : forall x, x <= g -> b x = false).
      { intros x Hx. destruct (b x) eqn:B; auto. exfalso. apply CI in J1. unfold bW in J1.
        rewrite J2 in J1. destruct J1 as [_ J1]. rewrite (Hb x g) in J1; auto. discriminate. }
      assert (Ecut : cutf b T = cutf (Qltb g) T).
      { apply cutf_ext. intros w Sw Hw. destruct (owned w Sw Hw) as (j & K1 & K2).
        destruct K2 as (_ & _ & K2 & _).
        destruct (Qltb g (hlab w)) eqn:B.
        - apply Qltb_true in B. destruct (b (hlab w)) eqn:B2; auto. exfalso.
          assert (Hj : In j C) by (apply CI; split; auto; unfold bW; rewrite K2; auto).
          assert (L := G3 j _ Hj K2). lra.
        - apply Qltb_false in B. apply Bg. auto. }
      assert (CW : forall j, In j C <-> In j (seq 0 n) /\ Wle g j).
      { intro j. split.
        - intro Hj. split; [apply CI; auto|]. destruct (CF j Hj) as (q & Q1 & Q2).
          exists q. split; auto. eapply G3; eauto.
        - intros (H1 & q & H2 & H3). apply CI. split; auto. unfold bW. rewrite H2. apply Bg. auto. }
      rewrite Ecut in *.
      assert (HD' := stage_ok g C CN CW D HD).
      set (D' := fold_left (merge_one K) (filter (fun j => deqb (W j) (Fin g)) C) D) in *.
      set (F := cutf (Qle_bool g) T) in *.
      assert (HF : forall t, In t F -> hsh true t).
      { intros t Ht. eapply sbt_hsh; [eapply cutf_sbt; exact Ht|auto]. }
      assert (HP' : Permutation (dmap_partition n D') (map hset F)).
      { apply dmap_partition_ok; auto.
        - rewrite <- HTs. eapply cutf_part; eauto.
        - intros B HB. apply in_map_iff in HB. destruct HB as (t & <- & Ht). eapply hsh_sorted; eauto. }
      assert (Mono : forall x y, x <= y -> Qle_bool g x = true -> Qle_bool g y = true).
      { intros x y H1 H2. apply Qle_bool_iff in H2. apply Qle_bool_iff. lra. }
      assert (EC : filter (fun j => negb (deqb (W j) (Fin g))) C =
                   filter (fun j => negb (bW (Qle_bool g) j)) (seq 0 n)).
      { rewrite HC. clear -CI CW CF HC. rewrite filter_filter. apply filter_ext_in. intros j Hj.
        destruct (bW b j) eqn:B; simpl.
        - symmetry. apply negb_false_iff.
          destruct (bW (Qle_bool g) j) eqn:B2; auto. exfalso. unfold bW in *.
          destruct (W j) as [q| |] eqn:Wj; try discriminate.
          assert (Hc : In j C).
          { apply CW. split; auto. exists q. split; auto.
            destruct (Qlt_le_dec g q) as [L|L]; auto. apply Qlt_le_weak, Qle_bool_iff in L. congruence. }
          apply CI in Hc. unfold bW in Hc. rewrite Wj in Hc. destruct Hc. congruence.
        - assert (Hc : In j C) by (apply CI; auto). destruct (proj1 (CW j) Hc) as (_ & q & Q1 & Q2).
          f_equal. unfold bW. rewrite Q1. simpl.
          destruct (Qeq_bool q g) eqn:B3; symmetry.
          + apply Qeq_bool_iff in B3. apply Qle_bool_iff. lra.
          + destruct (Qle_bool g q) eqn:B4; auto. apply Qle_bool_iff in B4.
            assert (Z : q == g) by lra. apply Qeq_bool_iff in Z. congruence. }
      assert (Shrink : (length (filter (fun j => negb (deqb (W j) (Fin g))) C) < length C)%nat).
      { clear -J1 J2. induction C as [|c C IHc]; [destruct J1|]. simpl.
        assert (LL : (length (filter (fun j => negb (deqb (W j) (Fin g))) C) <= length C)%nat).
        { clear. induction C as [|c C IH]; simpl; auto. destruct (negb _); simpl; lia. }
        destruct J1 as [->|J1].
        - rewrite J2. simpl. assert (Z : Qeq_bool g g = true) by (apply Qeq_bool_iff; reflexivity).
          rewrite Z. simpl. lia.
        - specialize (IHc J1). destruct (negb (deqb (W c) (Fin g))); simpl; lia. }
      apply (IH (Qle_bool g) D' _ (g :: lams) (dmap_partition n D' :: ps) (dmap_partition n D') (P :: Ps));
        auto.
      + lia.
      + simpl. rewrite Hps. reflexivity.
      + assert (Pm : Permutation (cutf (Qltb g) T)
          (concat (map hkids (filter (atg g) F)) ++ filter (fun t => negb (atg g t)) F)).
        { rewrite (cut_step g T HT0). apply flat_map_split. }
        apply (steps_pop Qlt F (filter (atg g) F) (filter (fun t => negb (atg g t)) F) g
                 (cutf (Qltb g) T) P lams Ps); auto.
        * apply filter_split.
        * intro Q. assert (Hj0 : In j0 (seq 0 n)) by (apply CI; auto).
          destruct (own_ex j0 Hj0) as (t & O). assert (Hk := own_kids _ _ O).
          destruct O as (O1 & _ & O3 & _).
          assert (Eg : hlab t == g).
          { rewrite O3 in J2. injection J2 as ->. reflexivity. }
          assert (In1 : In t (filter (atg g) F)).
          { apply filter_In. split; [eapply cut_in; eauto|apply atg_true; auto]. }
          rewrite Q in In1. destruct In1.
        * intros t Ht. apply filter_In in Ht. apply atg_true. tauto.
        * intros t Ht. apply filter_In in Ht. destruct Ht as [T1 T2].
          destruct (cutf_top _ _ _ T1) as [Q|Q]; [left; auto|right]. apply Qle_bool_iff in Q. auto.
        * intros t Ht. destruct (cutf_top _ _ _ Ht) as [Q|Q]; auto. right. apply Qltb_true in Q. auto.
  Qed.
End Read.
