(** * NoTie: deciding by enumeration that a graph has no ties (see FloatHpsp). *)
From Verif Require Import Base Graph Spec PartThy SubThy MSets SetsThy MaxFlow CutThy BFThy SeqThy MDT DTThy PSPThy TreeThy DecThy FloatHpsp.

(** All partitions of a list, up to the order of parts and elements. *)
Fixpoint put (x : nat) (P : list (list nat)) : list (list (list nat)) :=
  match P with
  | [] => []
  | B :: P' => ((x :: B) :: P') :: map (cons B) (put x P')
  end.
Fixpoint parts_of (l : list nat) : list (list (list nat)) :=
  match l with
  | [] => [[]]
  | x :: t => flat_map (fun P => ([x] :: P) :: put x P) (parts_of t)
  end.

Lemma put_split x P1 B P2 : In (P1 ++ (x :: B) :: P2) (put x (P1 ++ B :: P2)).
Proof. induction P1 as [|C P1 IH]; simpl; auto. right. apply in_map. auto. Qed.

Lemma put_perm x P : forall R, In R (put x P) -> Permutation (concat R) (x :: concat P) /\ (~ In [] P -> ~ In [] R).
Proof.
  induction P as [|B P IH]; simpl; [tauto|]. intros R [<-|H].
  - split; [simpl; auto|]. intros N [C|C]; [discriminate|tauto].
  - apply in_map_iff in H. destruct H as (R' & <- & H). destruct (IH R' H) as [A1 A2]. simpl. split.
    + rewrite A1. symmetry. apply Permutation_middle.
    + intros N [C|C]; [tauto|]. apply A2; tauto.
Qed.

Lemma parts_of_part l : forall P, In P (parts_of l) -> is_partition l P.
Proof.
  induction l as [|x l IH]; intros P H; simpl in H.
  - destruct H as [<-|[]]. split; auto.
  - apply in_flat_map in H. destruct H as (R & R1 & R2). destruct (IH R R1) as [A1 A2].
    destruct R2 as [<-|R2].
    + split; [simpl; auto|]. intros [C|C]; [discriminate|tauto].
    + destruct (put_perm x R P R2) as [B1 B2]. split; auto. rewrite B1. auto.
Qed.

Lemma same_add x (B C : list nat) P R1 R2 :
  (forall y, In y B <-> In y C) -> same_partition (B :: P) (R1 ++ C :: R2) -> B <> [] -> NoDup (concat (B :: P)) ->
  NoDup (concat (R1 ++ C :: R2)) -> ~ In [] P -> ~ In [] (R1 ++ R2) ->
  same_partition ((x :: B) :: P) (R1 ++ (x :: C) :: R2).
Proof.
  intros HBC [S1 S2] HB N1 N2 NP NR. split.
  - intros A [<-|HA].
    + exists (x :: C). split; [apply in_or_app; right; left; auto|]. intros y [<-|Hy]; [left; auto|right; apply HBC; auto].
    + destruct (S1 A (or_intror HA)) as (A' & A1 & A2). exists A'. split; auto.
      apply in_app_or in A1. apply in_or_app. destruct A1 as [A1|[<-|A1]]; auto; [|right; right; auto].
      exfalso. simpl in N1. apply NoDup_app_inv in N1. destruct N1 as (_ & _ & N1).
      destruct A as [|y A]; [auto|]. apply (N1 y).
      * apply HBC. apply A2. left; auto.
      * apply in_concat. exists (y :: A). split; [auto|left; auto].
  - intros A HA. apply in_app_or in HA.
    assert (K : In A (R1 ++ R2) \/ A = x :: C).
    { destruct HA as [HA|[<-|HA]]; auto; left; apply in_or_app; auto. }
    destruct K as [K| ->].
    + destruct (S2 A) as (A' & A1 & A2).
      { apply in_or_app. apply in_app_or in K. destruct K; [left|right; right]; auto. }
      destruct A1 as [<-|A1]; [|exists A'; split; [right|]; auto].
      exfalso. destruct A as [|y A]; [auto|].
      assert (Hy : In y C) by (apply HBC; apply A2; left; auto).
      rewrite concat_app in N2. simpl in N2.
      apply (Permutation_NoDup (Permutation_app_comm _ _)) in N2. rewrite <- app_assoc in N2.
      apply NoDup_app_inv in N2. destruct N2 as (_ & _ & N2). apply (N2 y Hy).
      apply in_app_or in K. apply in_or_app. destruct K as [K|K]; [right|left]; apply in_concat; exists (y :: A); split; auto; left; auto.
    + exists (x :: B). split; [left; auto|]. intros y [<-|Hy]; [left; auto|right; apply HBC; auto].
Qed.

(** Every partition occurs, up to order. *)
Lemma parts_of_all l : NoDup l -> forall P, is_partition l P -> exists R, In R (parts_of l) /\ same_partition P R.
Proof.
  induction l as [|x l IH]; intros Hnd P HP.
  - exists []. split; [left; auto|]. destruct HP as [H1 H2]. apply Permutation_sym, Permutation_nil in H1.
    destruct P as [|B P]; [apply same_partition_refl|]. exfalso. simpl in H1. apply app_eq_nil in H1. destruct H1 as [-> _].
    apply H2. left; auto.
  - inversion Hnd as [|? ? Hx Hl]; subst.
    assert (C : In x (concat P)) by (eapply Permutation_in; [symmetry; apply HP|left; auto]).
    apply in_concat in C. destruct C as (B & B1 & B2).
    apply in_split in B1. destruct B1 as (P1 & P2 & ->). apply in_split in B2. destruct B2 as (C1 & C2 & ->).
    set (B := C1 ++ C2). set (P' := P1 ++ P2).
    assert (NE : ~ In [] P').
    { intro C. destruct HP as [_ HP]. apply HP. apply in_or_app. apply in_app_or in C. destruct C; [left|right; right]; auto. }
    assert (PM : Permutation (B ++ concat P') l).
    { apply (Permutation_cons_inv (a := x)). rewrite <- (proj1 HP). rewrite concat_app. simpl.
      unfold B, P'. rewrite concat_app. rewrite (Permutation_app_swap_app (concat P1)).
      rewrite <- (Permutation_middle C1 C2 x). reflexivity. }
    assert (SP : same_partition (P1 ++ (C1 ++ x :: C2) :: P2) ((x :: B) :: P')).
    { split.
      - intros A HA. apply in_app_or in HA. destruct HA as [HA|[<-|HA]].
        + exists A. split; [right; apply in_or_app; auto|apply incl_refl].
        + exists (x :: B). split; [left; auto|]. intros y Hy. apply in_app_or in Hy. unfold B.
          destruct Hy as [Hy|[<-|Hy]]; [right; apply in_or_app; auto|left; auto|right; apply in_or_app; auto].
        + exists A. split; [right; apply in_or_app; auto|apply incl_refl].
      - intros A [<-|HA].
        + exists (C1 ++ x :: C2). split; [apply in_or_app; right; left; auto|].
          intros y [<-|Hy]; [apply in_or_app; right; left; auto|]. unfold B in Hy. apply in_app_or in Hy. apply in_or_app.
          destruct Hy; [left|right; right]; auto.
        + exists A. split; [|apply incl_refl]. unfold P' in HA. apply in_app_or in HA. apply in_or_app.
          destruct HA; [left|right; right]; auto. }
    clearbody B P'. destruct B as [|b B].
    + destruct (IH Hl P') as (R & R1 & R2); [split; auto|].
      exists ([x] :: R). split.
      * simpl. apply in_flat_map. exists R. split; auto. left; auto.
      * eapply same_partition_trans; [exact SP|]. split.
        -- intros A [<-|HA]; [exists [x]; split; [left; auto|apply incl_refl]|].
           destruct (proj1 R2 A HA) as (A' & A1 & A2). exists A'. split; [right|]; auto.
        -- intros A [<-|HA]; [exists [x]; split; [left; auto|apply incl_refl]|].
           destruct (proj2 R2 A HA) as (A' & A1 & A2). exists A'. split; [right|]; auto.
    + assert (Q : is_partition l ((b :: B) :: P')).
      { split; [exact PM|]. intros [C|C]; [discriminate|auto]. }
      destruct (IH Hl _ Q) as (R & R1 & R2). assert (RP := parts_of_part l R R1).
      destruct (proj1 R2 (b :: B) (or_introl eq_refl)) as (C & D1 & D2).
      destruct (proj2 R2 C D1) as (B' & F1 & F2).
      assert (EB : B' = b :: B).
      { apply (part_unique l ((b :: B) :: P') B' (b :: B) b Hl Q); auto; try (left; auto).
        apply F2. apply D2. left; auto. }
      subst B'. apply in_split in D1. destruct D1 as (Q1 & Q2 & ->).
      exists (Q1 ++ (x :: C) :: Q2). split.
      * simpl. apply in_flat_map. exists (Q1 ++ C :: Q2). split; auto. right. apply put_split.
      * eapply same_partition_trans; [exact SP|]. apply same_add; auto.
        -- intro y. split; [apply D2|apply F2].
        -- discriminate.
        -- eapply Permutation_NoDup; [symmetry; apply Q|auto].
        -- eapply Permutation_NoDup; [symmetry; apply RP|auto].
        -- intro C0. apply (proj2 RP). apply in_or_app. apply in_app_or in C0. destruct C0; [left|right; right]; auto.
Qed.

(** ** The test *)
Definition refinesb (P R : list (list nat)) : bool :=
  forallb (fun B => existsb (fun C => forallb (mem C) B) R) P.

Lemma refinesb_ok P R : refinesb P R = true <-> refines P R.
Proof.
  unfold refinesb, refines. rewrite forallb_forall. split; intros H B HB.
  - specialize (H B HB). apply existsb_exists in H. destruct H as (C & C1 & C2). exists C. split; auto.
    intros y Hy. rewrite forallb_forall in C2. apply mem_In. auto.
  - destruct (H B HB) as (C & C1 & C2). apply existsb_exists. exists C. split; auto.
    apply forallb_forall. intros y Hy. apply mem_In. auto.
Qed.

(** At one (X, Ps): all best coarsenings below -g refine each other. *)
Definition no_tie_at (E : graph) (X : list nat) (Ps : list (list nat)) : bool :=
  let sb := sub E X in
  let g := Qred (crossing sb Ps / (qn (length Ps) - 1)) in
  let cs := map (fun P => (P, Qred (hval sb g P))) (filter (refinesb Ps) (parts_of X)) in
  let best := filter (fun P => forallb (fun R => Qle_bool (snd P) (snd R)) cs) cs in
  forallb (fun P => negb (Qltb (snd P) (- g)) || forallb (fun R => refinesb (fst P) (fst R)) best) best.

Definition no_tieb (n : nat) (E : graph) : bool :=
  forallb (fun X => forallb (fun Ps => (length Ps <? 3)%nat || no_tie_at E X Ps) (parts_of X)) (sublists (seq 0 n)).

Section Sound.
  Variable n : nat.
  Variable E : graph.

  Lemma sublists_perm X : NoDup X -> incl X (seq 0 n) ->
    let X' := filter (mem X) (seq 0 n) in In X' (sublists (seq 0 n)) /\ Permutation X X' /\ NoDup X'.
  Proof.
    intros Hnd Hin. cbv zeta. assert (N := seq_NoDup n 0).
    assert (N' : NoDup (filter (mem X) (seq 0 n))) by (apply NoDup_filter; auto).
    split; [apply sublists_filter|]. split; auto. apply NoDup_Permutation; auto.
    intro x. rewrite filter_In, mem_In. split; [intro; split; auto|tauto].
  Qed.

  Lemma sub_perm X X' : Permutation X X' -> sub E X = sub E X'.
  Proof.
    intro H. unfold sub. apply filter_ext. intro a.
    assert (M : forall y, mem X y = mem X' y).
    { intro y. destruct (mem X y) eqn:A; symmetry.
      - apply mem_In. apply mem_In in A. eapply Permutation_in; eauto.
      - apply mem_false. apply mem_false in A. intro C. apply A. eapply Permutation_in; [symmetry|]; eauto. }
    rewrite !M. auto.
  Qed.

  Theorem no_tieb_sound : no_tieb n E = true -> no_tie n E.
  Proof.
    intros HT X Ps g P R NX IX HPs L3 Hg [P1 [P2 P3]] [R1 [R2 R3]] Hlt.
    destruct (sublists_perm X NX IX) as (S1 & S2 & S3). set (X' := filter (mem X) (seq 0 n)) in *. clearbody X'.
    unfold no_tieb in HT. rewrite forallb_forall in HT. specialize (HT X' S1). rewrite forallb_forall in HT.
    assert (PX : forall Z, is_partition X Z <-> is_partition X' Z).
    { intro Z. unfold is_partition. rewrite S2. tauto. }
    destruct (parts_of_all X' S3 Ps (proj1 (PX _) HPs)) as (Qs & A1 & A2).
    destruct (parts_of_all X' S3 P (proj1 (PX _) P1)) as (Q & B1 & B2).
    destruct (parts_of_all X' S3 R (proj1 (PX _) R1)) as (T & C1 & C2).
    assert (Lq : length Ps = length Qs).
    { apply (same_partition_length X' S3); auto; [apply PX; auto|apply parts_of_part; auto]. }
    specialize (HT Qs A1). rewrite <- Lq in HT. apply orb_true_iff in HT. destruct HT as [HT|HT]; [apply Nat.ltb_lt in HT; lia|].
    unfold no_tie_at in HT. cbv zeta in HT. rewrite (sub_perm X X' S2) in *. set (sb := sub E X') in *.
    set (g' := Qred (crossing sb Qs / (qn (length Qs) - 1))) in *.
    assert (Hk : 2 <= qn (length Ps) - 1) by (apply qn_le in L3; change (qn 3) with 3 in L3; lra).
    assert (Eg : g' == g).
    { unfold g'. rewrite Qred_correct, <- Lq, <- (same_partition_crossing sb _ _ A2), <- Hg. field. lra. }
    assert (HV : forall Z, hval sb g' Z == hval sb g Z) by (intro Z; unfold hval; rewrite Eg; reflexivity).
    set (cs := map (fun P0 => (P0, Qred (hval sb g' P0))) (filter (refinesb Qs) (parts_of X'))) in *.
    assert (Best : forall Z Z', is_partition X' Z -> refines Ps Z -> In Z' (parts_of X') -> same_partition Z Z' ->
      (forall Y, is_partition X Y -> refines Ps Y -> hval sb g Z <= hval sb g Y) ->
      In (Z', Qred (hval sb g' Z')) (filter (fun P0 => forallb (fun R0 => Qle_bool (snd P0) (snd R0)) cs) cs)).
    { intros Z Z' HZ HZ2 HZ3 HZ4 HZ5. apply filter_In. split.
      - unfold cs. apply in_map_iff. exists Z'. split; auto. apply filter_In. split; auto. apply refinesb_ok.
        apply (refines_trans _ Ps); [apply A2|]. apply (refines_trans _ Z); [auto|apply HZ4].
      - apply forallb_forall. intros y Hy. unfold cs in Hy. apply in_map_iff in Hy. destruct Hy as (Y & <- & Hy).
        apply filter_In in Hy. destruct Hy as [Y1 Y2]. apply refinesb_ok in Y2. cbn [snd]. apply Qle_bool_iff.
        rewrite !Qred_correct, !HV. rewrite <- (same_partition_hval X' S3 sb g Z Z'); auto using parts_of_part.
        apply HZ5; [apply PX; apply parts_of_part; auto|]. apply (refines_trans _ Qs); [apply A2|auto]. }
    rewrite forallb_forall in HT.
    assert (K := HT _ (Best P Q (proj1 (PX _) P1) P2 B1 B2 P3)). cbn [fst snd] in K. apply orb_true_iff in K.
    assert (VQ : hval sb g Q == hval sb g P).
    { symmetry. apply (same_partition_hval X' S3); auto using parts_of_part. apply PX; auto. }
    destruct K as [K|K].
    - exfalso. apply negb_true_iff, Qltb_false in K. rewrite Qred_correct, HV, VQ, Eg in K. lra.
    - rewrite forallb_forall in K. specialize (K _ (Best R T (proj1 (PX _) R1) R2 C1 C2 R3)). cbn [fst] in K.
      apply refinesb_ok in K. apply (refines_trans _ Q); [apply B2|]. apply (refines_trans _ T); [auto|apply C2].
  Qed.
End Sound.
