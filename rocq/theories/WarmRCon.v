(** * WarmRCon: the flow maps of a contracted network (PMF_R::modify_flow). *)
From Coq Require Import Sorted.
From Verif Require Import Base Graph Spec PartThy SubThy MSets SetsThy MGraph MaxFlow BFThy MDil CutThy DilThy
  MDT SeqThy PropDT MPMF LamThy ParThy SliceThy DTThy PDTThy PropPDT MWarm PropWarm MPMFR PMFRThy MWarmR FlowThy WarmRThy.

Lemma contract_ks eps sid tid size S T G a b : contract eps sid tid size S T G = Ok (a, b) -> a = kept sid tid size S T.
Proof.
  unfold contract. cbv zeta. match goal with |- (if ?b then _ else _) = _ -> _ => destruct b; [|discriminate] end.
  intro H. injection H as <- _. auto.
Qed.

Section Con.
  Variable eps : Q.
  Hypothesis Heps : 0 < eps.
  Variable E : graph.
  Variable n j : nat.
  Hypothesis Hjn : (j < n)%nat.
  Hypothesis HE : graph_on (seq 0 n) E.
  Hypothesis Hs : simple E.
  Hypothesis Hf : forward E.
  Hypothesis Hw : forall a, In a E -> eps < aw a.
  Variable y : list (Q * dbl).
  Variable G : network.
  Variable base : nat -> Q * Q.
  Variable ns : list nat.
  Variable T0 Tl Tr : cset.
  Hypothesis R : rep E j G base ns T0.
  Hypothesis I1 : incl T0 Tr.
  Hypothesis I2 : incl Tr Tl.
  Hypothesis I3 : forall x, In x Tl -> In x ns \/ In x T0.
  Hypothesis BG : big eps G.

  Let Sc := ccompl Tl (S (S j)).
  Let inS := fun u => mem Sc (nid (S j) j u).
  Let inT := fun u => negb (mem Sc (nid (S j) j u)) && mem Tr (nid (S j) j u).
  Let inR := fun u => negb (mem Sc (nid (S j) j u)) && negb (mem Tr (nid (S j) j u)).
  Let ks := kept (S j) j (S (S j)) Sc Tr.

  Let Rs := r_inn _ _ _ _ _ _ R.

  Lemma con_Tlj x : In x Tl -> (x <= j)%nat.
  Proof.
    intro Hx. destruct (I3 x Hx) as [K|K].
    - apply (r_incl _ _ _ _ _ _ R) in K. apply in_seq in K. lia.
    - destruct (r_win _ _ _ _ _ _ R x (proj2 (mem_In _ _) K)) as [K'|K']; [apply in_seq in K'; lia|lia].
  Qed.
  Lemma con_Trj : In j Tr.
  Proof. apply I1. apply R. Qed.
  Lemma con_ScI x : In x Sc <-> (x <= S j)%nat /\ ~ In x Tl.
  Proof.
    unfold Sc, ccompl. rewrite filter_In, in_seq, negb_true_iff, mem_false. split; intros [A B]; split; auto; lia.
  Qed.
  Lemma con_ksI x : In x ks <-> In x Tl /\ ~ In x Tr.
  Proof.
    assert (Trj := con_Trj). unfold ks, kept, erased.
    rewrite filter_In, in_seq, !andb_true_iff, !negb_true_iff, !Nat.eqb_neq, mem_false, in_app_iff, !filter_In, con_ScI,
      !negb_true_iff, !Nat.eqb_neq. split.
    - intros (A & (B & C) & D). destruct (in_dec Nat.eq_dec x Tl) as [K|K].
      + split; auto.
      + exfalso. apply D. left. split; [split; [lia|auto]|auto].
    - intros [A B]. assert (K := con_Tlj x A). assert (x <> j) by congruence.
      split; [lia|]. split; [split; [auto|lia]|]. intros [[[_ D] _]|[D _]]; auto.
  Qed.
  Lemma con_ksN : NoDup ks.
  Proof. unfold ks, kept. apply NoDup_filter. apply seq_NoDup. Qed.
  Lemma con_ksns : incl ks ns.
  Proof. intros x Hx. apply con_ksI in Hx. destruct Hx as [A B]. destruct (I3 x A) as [K|K]; auto. exfalso. auto. Qed.
  Lemma con_ks i : In i ks -> (i < j)%nat /\ mem Sc i = false /\ mem Tr i = false.
  Proof.
    intro Hi. assert (K := con_ksns i Hi). apply (r_incl _ _ _ _ _ _ R) in K. apply in_seq in K.
    apply con_ksI in Hi. split; [lia|]. split; apply mem_false; [rewrite con_ScI|]; tauto.
  Qed.
  Lemma con_s : mem Sc (S j) = true.
  Proof. apply mem_In. apply con_ScI. split; [lia|]. intro K. apply con_Tlj in K. lia. Qed.
  Lemma con_t : mem Sc j = false /\ mem Tr j = true.
  Proof.
    assert (K := con_Trj). split; [apply mem_false; rewrite con_ScI; intros [_ A]; auto|apply mem_In; auto].
  Qed.
  Lemma con_cls u : inS u = negb (inT u) && negb (inR u) /\ (inS u = true -> inT u = false /\ inR u = false) /\
    (inT u = true -> inR u = false).
  Proof. unfold inS, inT, inR. destruct (mem Sc _), (mem Tr _); cbn; auto. Qed.

  (** The free node [i] is the only node of the rest with id [i]. *)
  Lemma con_id i u : In i ks -> inR u && (nid (S j) j u =? i)%nat = nnode_eqb u (NV i).
  Proof.
    intro Hi. destruct (con_ks i Hi) as (A & B & C). unfold inR. destruct u as [| |v]; cbn [nid nnode_eqb].
    - rewrite con_s. auto.
    - destruct con_t as [-> ->]. auto.
    - destruct (v =? i)%nat eqn:Ev; [|apply andb_false_r]. apply Nat.eqb_eq in Ev. subst v. rewrite B, C. auto.
  Qed.
  Lemma con_RV i : In i ks -> inR (NV i) = true /\ inS (NV i) = false /\ inT (NV i) = false.
  Proof. intro Hi. destruct (con_ks i Hi) as (A & B & C). unfold inR, inS, inT. cbn [nid]. rewrite B, C. auto. Qed.
  Lemma con_Rn u : nnode_ok ns u -> inR u = true -> exists i, u = NV i /\ In i ks.
  Proof.
    intros Hu HR. unfold inR in HR. destruct u as [| |v]; cbn [nid nnode_ok] in *.
    - rewrite con_s in HR. discriminate HR.
    - destruct con_t as [A B]. rewrite A, B in HR. discriminate HR.
    - exists v. split; auto. apply andb_true_iff in HR. rewrite !negb_true_iff, !mem_false, con_ScI in HR.
      apply con_ksI. apply (r_incl _ _ _ _ _ _ R) in Hu. apply in_seq in Hu. destruct HR as [A B]. split; auto.
      destruct (in_dec Nat.eq_dec v Tl); auto. exfalso. apply A. split; [lia|auto].
  Qed.

  (** Capacities. *)
  Lemma con_inn (P : narc -> bool) (F : narc -> Q) : qsum (fun a : narc => if P a then F a else 0) (inn G) ==
    qsum (fun e : arc => if mem ns (asrc e) && mem ns (adst e) then
                     (if P (mkNarc (NV (asrc e)) (NV (adst e)) (aw e)) then F (mkNarc (NV (asrc e)) (NV (adst e)) (aw e)) else 0) else 0) E.
  Proof. rewrite Rs. unfold inner_arcs. rewrite qsum_map, qsum_filter. reflexivity. Qed.

  Lemma con_s1 l i : In i ks ->
    qsum (fun a : narc => if inS (nsrc a) && nnode_eqb (ndst a) (NV i) then ncap (upd_arc y base l a) else 0) G <=
    (if Qltb (ycap (yat y i) l) 0 then - ycap (yat y i) l else 0) + fst (new_base E Sc Tr i).
  Proof.
    intro Hi. assert (Hn := con_ksns i Hi).
    assert (A := in_sum y base l G i inS). unfold inS in A at 1 2. cbn [nid] in A. specialize (A con_s (proj1 con_t)).
    rewrite (r_s _ _ _ _ _ _ R), con_inn in A.
    rewrite (qsum_ext _ (fun k : nat => if (k =? i)%nat then (if Qltb (ycap (yat y i) l) 0 then - ycap (yat y i) l else 0) + fst (base i) else 0)) in A.
    2:{ intros k _. destruct (k =? i)%nat eqn:Ek; [apply Nat.eqb_eq in Ek; subst k|]; reflexivity. }
    rewrite (qsum_single ns i _ (r_nodup _ _ _ _ _ _ R) Hn) in A.
    assert (B : fst (base i) + qsum (fun e : arc => if mem ns (asrc e) && mem ns (adst e) then
        (if inS (nsrc (mkNarc (NV (asrc e)) (NV (adst e)) (aw e))) && nnode_eqb (ndst (mkNarc (NV (asrc e)) (NV (adst e)) (aw e))) (NV i)
         then ncap (mkNarc (NV (asrc e)) (NV (adst e)) (aw e)) else 0) else 0) E == fst (new_base E Sc Tr i)).
    { rewrite (r_b1 _ _ _ _ _ _ R i Hn). rewrite <- qsum_plus. unfold new_base. cbn [fst]. apply qsum_ext. intros e He.
      cbn [nsrc ndst ncap nnode_eqb]. unfold inS. cbn [nid]. destruct (adst e =? i)%nat eqn:Ei.
      2:{ rewrite !andb_false_r. cbn [andb]. destruct (mem ns (asrc e) && mem ns (adst e)); lra. }
      apply Nat.eqb_eq in Ei. rewrite Ei, !andb_true_r.
      assert (M : mem ns i = true) by (apply mem_In; auto). rewrite M, andb_true_r. cbn [andb].
      assert (L : (asrc e <= j)%nat).
      { assert (K := proj1 (con_ks i Hi)). specialize (Hf e He). lia. }
      destruct (mem Sc (asrc e)) eqn:Es.
      - apply mem_In in Es. apply con_ScI in Es. destruct Es as [_ Es].
        assert (mem T0 (asrc e) = false) by (apply mem_false; intro K; apply Es; auto). rewrite H.
        destruct (mem ns (asrc e)); cbn; lra.
      - apply mem_false in Es. rewrite con_ScI in Es.
        assert (In (asrc e) Tl). { destruct (in_dec Nat.eq_dec (asrc e) Tl); auto. exfalso. apply Es. split; [lia|auto]. }
        destruct (I3 _ H) as [K|K]; apply mem_In in K; rewrite K; cbn; [lra|]. rewrite andb_false_r.
        destruct (mem ns (asrc e)); lra. }
    rewrite <- B. unfold inS in *. lra.
  Qed.

  Lemma con_t1 l i : In i ks ->
    qsum (fun a : narc => if nnode_eqb (nsrc a) (NV i) && inT (ndst a) then ncap (upd_arc y base l a) else 0) G <=
    snd (new_base E Sc Tr i) + qmax 0 (ycap (yat y i) l).
  Proof.
    intro Hi. assert (Hn := con_ksns i Hi).
    assert (A := out_sum y base l G i inT). unfold inT in A at 1 2. cbn [nid] in A. rewrite con_s in A.
    destruct con_t as [t1 t2]. rewrite t1, t2 in A. specialize (A eq_refl eq_refl).
    rewrite (r_k _ _ _ _ _ _ R), con_inn in A.
    rewrite (qsum_ext _ (fun k : nat => if (k =? i)%nat then snd (base i) + qmax 0 (ycap (yat y i) l) else 0)) in A.
    2:{ intros k _. destruct (k =? i)%nat eqn:Ek; [apply Nat.eqb_eq in Ek; subst k|]; reflexivity. }
    rewrite (qsum_single ns i _ (r_nodup _ _ _ _ _ _ R) Hn) in A.
    assert (B : snd (base i) + qsum (fun e : arc => if mem ns (asrc e) && mem ns (adst e) then
        (if nnode_eqb (nsrc (mkNarc (NV (asrc e)) (NV (adst e)) (aw e))) (NV i) && inT (ndst (mkNarc (NV (asrc e)) (NV (adst e)) (aw e)))
         then ncap (mkNarc (NV (asrc e)) (NV (adst e)) (aw e)) else 0) else 0) E <= snd (new_base E Sc Tr i)).
    { rewrite (r_b2 _ _ _ _ _ _ R i Hn). rewrite <- qsum_plus. unfold new_base. cbn [snd]. apply qsum_le. intros e He.
      cbn [nsrc ndst ncap nnode_eqb]. unfold inT. cbn [nid]. assert (W := Hw e He). destruct (asrc e =? i)%nat eqn:Ei.
      2:{ rewrite !andb_false_r. cbn [andb]. destruct (mem ns (asrc e) && mem ns (adst e)); lra. }
      apply Nat.eqb_eq in Ei. rewrite Ei, !andb_true_r.
      assert (M : mem ns i = true) by (apply mem_In; auto). rewrite M. cbn [andb].
      destruct (mem Tr (adst e)) eqn:Et.
      - rewrite andb_true_r. destruct (mem T0 (adst e)) eqn:E0.
        + assert (mem ns (adst e) = false).
          { apply mem_false. intro K. apply (r_disj _ _ _ _ _ _ R _ K). apply mem_In; auto. }
          rewrite H. lra.
        + destruct (mem ns (adst e)), (mem Sc (adst e)); cbn; lra.
      - assert (mem T0 (adst e) = false).
        { apply mem_false. intro K. apply mem_false in Et. apply Et. auto. }
        rewrite H, andb_false_r. destruct (mem ns (adst e)); lra. }
    unfold inT in *. lra.
  Qed.

  (** ** The flow *)
  Variable T : cset.
  Hypothesis J1 : incl Tr T.
  Hypothesis J2 : incl T Tl.
  Variable l : Q.
  Variable f : flow.
  Hypothesis F : finv y G base ns l T f.
  Let L := combine G f.

  Lemma con_L : map fst L = G.
  Proof. apply combine_fst. apply F. Qed.
  Lemma con_LG q : In q L -> In (fst q) G.
  Proof. intro H. rewrite <- con_L. apply in_map; auto. Qed.
  Lemma con_L0 q : In q L -> 0 <= snd q.
  Proof. destruct q as [a x]. intro H. apply (proj1 (proj2 F) a x H). Qed.

  Lemma con_sideT u : inT u = true -> side (mem T) u = true.
  Proof.
    unfold inT. intro H. apply andb_true_iff in H. destruct H as [A B]. apply negb_true_iff in A.
    destruct u as [| |v]; cbn [nid side] in *; auto.
    - rewrite con_s in A. discriminate A.
    - apply mem_In. apply J1. apply mem_In. auto.
  Qed.
  Lemma con_sideS u : inS u = true -> side (mem T) u = false.
  Proof.
    unfold inS. intro H. destruct u as [| |v]; cbn [nid side] in *; auto.
    - rewrite (proj1 con_t) in H. discriminate H.
    - apply mem_In in H. apply con_ScI in H. apply mem_false. intro K. apply H. auto.
  Qed.

  Lemma fsum_nonneg p : 0 <= fsum p G f.
  Proof. apply qsum_nonneg. intros q Hq. assert (K := con_L0 q Hq). destruct (p (fst q)); lra. Qed.

  Lemma fsum_ext p q : (forall a, In a G -> p a = q a) -> fsum p G f == fsum q G f.
  Proof. intro H. apply qsum_ext. intros z Hz. rewrite (H (fst z) (con_LG z Hz)). reflexivity. Qed.

  (** No flow on arcs leaving [T]. *)
  Lemma fsum_zero p : (forall a, In a G -> p a = true -> side (mem T) (nsrc a) = true /\ side (mem T) (ndst a) = false) ->
    fsum p G f == 0.
  Proof.
    intro H. apply qsum_zero. intros [a x] Hz. cbn [fst snd]. destruct (p a) eqn:Ep; [|reflexivity].
    destruct (H a (con_LG _ Hz) Ep) as [A B]. apply (proj2 (proj2 (proj2 F)) a x Hz A B).
  Qed.

  Lemma fsum_cap p : (forall a, In a G -> p a = true -> nsrc a <> NSrc \/ ndst a <> NSnk) ->
    fsum p G f <= qsum (fun a : narc => if p a then ncap (upd_arc y base l a) else 0) G.
  Proof.
    intro H. rewrite <- con_L at 2. rewrite qsum_map. apply qsum_le. intros [a x] Hz. cbn [fst snd].
    destruct (p a) eqn:Ep; [|lra]. destruct (proj1 (proj2 F) a x Hz) as [A [B|[B1 B2]]]; auto.
    exfalso. destruct (H a (con_LG _ Hz) Ep); auto.
  Qed.

  (** The sums made by [contract] lose nothing on the arcs kept. *)
  Lemma csum_big p : (forall a, In a G -> p a = true -> nsrc a <> NSrc /\ ndst a <> NSnk /\ ~ (nsrc a = NSnk /\ ndst a = NSrc)) ->
    (Qltb eps (csum eps p G) = true -> fsum p G f <= csum eps p G) /\
    (Qltb eps (csum eps p G) = false -> fsum p G f == 0).
  Proof.
    intro H. assert (H' : forall a, In a G -> p a = true -> eps < ncap a).
    { intros a Ha Hp. destruct (H a Ha Hp) as (A & B & C). apply BG; auto. }
    split; intro K.
    - eapply Qle_trans; [apply fsum_cap|].
      + intros a Ha Hp. left. apply (H a Ha Hp).
      + apply qsum_le. intros a Ha. destruct (p a) eqn:Ep; [|rewrite andb_false_r; lra].
        destruct (H a Ha Ep) as (A & B & C). assert (D := H' a Ha Ep).
        assert (Qltb (ncap a) eps = false) by (apply Qltb_false; lra). rewrite H0. cbn [negb andb].
        destruct a as [[| |u] [| |v] c]; cbn in *; try lra; congruence.
    - apply qsum_zero. intros q Hq. destruct (p (fst q)) eqn:Ep; [|reflexivity]. exfalso.
      assert (D := H' _ (con_LG q Hq) Ep). apply Qltb_false in K.
      assert (csum eps p G > eps); [|lra].
      assert (NN : forall a, In a G -> 0 <= ncap a) by (intros a Ha; apply (r_nn _ _ _ _ _ _ R a Ha)).
      assert (Hq' := con_LG q Hq). unfold csum. destruct (in_split _ _ Hq') as (g1 & g2 & Eg).
      rewrite Eg. rewrite qsum_app. cbn [qsum]. rewrite Ep.
      assert (Qltb (ncap (fst q)) eps = false) by (apply Qltb_false; lra). rewrite H0. cbn [negb andb].
      assert (N1 : forall g, incl g G -> 0 <= qsum (fun a : narc => if negb (Qltb (ncap a) eps) && p a then ncap a else 0) g).
      { intros g Hg. apply qsum_nonneg. intros a Ha. specialize (NN a (Hg a Ha)). destruct (_ && _); lra. }
      assert (M1 := N1 g1 ltac:(rewrite Eg; intros z Hz; apply in_or_app; auto)).
      assert (M2 := N1 g2 ltac:(rewrite Eg; intros z Hz; apply in_or_app; right; right; auto)). lra.
  Qed.

  (** tmp_map: parallel arcs are excluded by [simple]. *)
  Lemma con_tmp u v x w : In (mkNarc (NV u) (NV v) w, x) L -> In u ks -> In v ks ->
    tmp_flow (fun a : narc => inR (nsrc a) && inR (ndst a) && (nid (S j) j (nsrc a) =? u)%nat && (nid (S j) j (ndst a) =? v)%nat) G f = x.
  Proof.
    intros Hx Hu Hv.
    assert (P : forall a, inR (nsrc a) && inR (ndst a) && (nid (S j) j (nsrc a) =? u)%nat && (nid (S j) j (ndst a) =? v)%nat =
                nnode_eqb (nsrc a) (NV u) && nnode_eqb (ndst a) (NV v)).
    { intro a. rewrite <- (con_id u (nsrc a) Hu), <- (con_id v (ndst a) Hv).
      destruct (inR (nsrc a)), (inR (ndst a)), (_ =? u)%nat, (_ =? v)%nat; auto. }
    unfold tmp_flow. fold L.
    rewrite (last_val (fun a : narc => inR (nsrc a) && inR (ndst a) && (nid (S j) j (nsrc a) =? u)%nat && (nid (S j) j (ndst a) =? v)%nat) x).
    - assert (existsb (fun q : narc * Q => inR (nsrc (fst q)) && inR (ndst (fst q)) && (nid (S j) j (nsrc (fst q)) =? u)%nat && (nid (S j) j (ndst (fst q)) =? v)%nat) L = true).
      { apply existsb_exists. exists (mkNarc (NV u) (NV v) w, x). split; auto. cbn [fst].
        specialize (P (mkNarc (NV u) (NV v) w)). cbn [nsrc ndst] in P. cbn [nsrc ndst]. rewrite P. rewrite !neqb_refl. auto. }
      rewrite H. auto.
    - intros [a z] Hz Hp. cbn [fst snd] in *. rewrite P in Hp. apply andb_true_iff in Hp. rewrite !nnode_eqb_true in Hp.
      set (isi := fun q : narc * Q => match nsrc (fst q), ndst (fst q) with NV _, NV _ => true | _, _ => false end).
      set (h := fun q : narc * Q => match nsrc (fst q), ndst (fst q) with NV a, NV b => (a, b) | _, _ => (0, 0)%nat end).
      assert (ND : NoDup (map h (filter isi L))).
      { assert (Eq : map h (filter isi L) = map (fun e => (asrc e, adst e)) (filter (fun a => mem ns (asrc a) && mem ns (adst a)) E)).
        { transitivity (map (fun a => match nsrc a, ndst a with NV a, NV b => (a, b) | _, _ => (0, 0)%nat end) (inn G)).
          - rewrite <- con_L at 1. unfold inn. rewrite filter_map, map_map. reflexivity.
          - rewrite Rs. unfold inner_arcs. rewrite map_map. reflexivity. }
        rewrite Eq. clear -Hs. unfold simple in Hs. induction E as [|e E' IH]; cbn; [constructor|].
        cbn in Hs. inversion Hs; subst. destruct (mem ns (asrc e) && mem ns (adst e)); auto. cbn. constructor; auto.
        intro K. apply H1. apply in_map_iff in K. destruct K as (e' & K1 & K2). apply filter_In in K2.
        apply in_map_iff. exists e'. tauto. }
      assert (Q1 : In (mkNarc (NV u) (NV v) w, x) (filter isi L)) by (apply filter_In; split; auto).
      assert (Q2 : In (a, z) (filter isi L)).
      { apply filter_In. split; auto. unfold isi. cbn [fst]. destruct Hp as [-> ->]. auto. }
      assert (Eq := NoDup_map_eq h _ _ _ ND Q1 Q2). assert (h (mkNarc (NV u) (NV v) w, x) = h (a, z)).
      { unfold h. cbn [fst nsrc ndst]. destruct Hp as [-> ->]. auto. }
      specialize (Eq H). congruence.
  Qed.

  Variable C : network.
  Hypothesis CO : contract eps (S j) j (S (S j)) Sc Tr G = Ok (ks, C).

  Let flt := filter (fun a : narc => negb (Qltb (ncap a) eps) && inR (nsrc a) && inR (ndst a)) G.
  Let s1 := fun i => csum eps (fun a : narc => inS (nsrc a) && inR (ndst a) && (nid (S j) j (ndst a) =? i)%nat) G.
  Let s2 := fun i => csum eps (fun a : narc => inR (nsrc a) && inS (ndst a) && (nid (S j) j (nsrc a) =? i)%nat) G.
  Let t1 := fun i => csum eps (fun a : narc => inR (nsrc a) && inT (ndst a) && (nid (S j) j (nsrc a) =? i)%nat) G.
  Let t2 := fun i => csum eps (fun a : narc => inT (nsrc a) && inR (ndst a) && (nid (S j) j (ndst a) =? i)%nat) G.
  Let st := csum eps (fun a : narc => inS (nsrc a) && mem Tr (nid (S j) j (ndst a))) G.
  Let ts := csum eps (fun a : narc => inT (nsrc a) && inS (ndst a)) G.
  Let arcs := fun i => [mkNarc NSrc (NV i) (s1 i)] ++ (if Qltb eps (s2 i) then [mkNarc (NV i) NSrc (s2 i)] else []) ++
      [mkNarc (NV i) NSnk (t1 i)] ++ (if Qltb eps (t2 i) then [mkNarc NSnk (NV i) (t2 i)] else []).

  Lemma con_C : C = flt ++ [mkNarc NSrc NSnk st; mkNarc NSnk NSrc ts] ++ flat_map arcs ks.
  Proof.
    assert (K := CO). unfold contract in K. cbv zeta in K.
    match type of K with (if ?b then _ else _) = _ => destruct b; [|discriminate K] end.
    injection K as K1. rewrite <- K1. reflexivity.
  Qed.

  Let g := fun c : narc => 
    let u := nid (S j) j (nsrc c) in
    let v := nid (S j) j (ndst c) in
    if mem Sc u then
      if mem Tr v then fsum (fun a : narc => inS (nsrc a) && mem Tr (nid (S j) j (ndst a))) G f - fsum (fun a : narc => inT (nsrc a) && inS (ndst a)) G f
      else fsum (fun a : narc => inS (nsrc a) && inR (ndst a) && (nid (S j) j (ndst a) =? v)%nat) G f
    else if mem Tr u then
      if mem Sc v then 0
      else fsum (fun a : narc => inT (nsrc a) && inR (ndst a) && (nid (S j) j (ndst a) =? v)%nat) G f
    else
      if mem Sc v then fsum (fun a : narc => inR (nsrc a) && inS (ndst a) && (nid (S j) j (nsrc a) =? u)%nat) G f
      else if mem Tr v then fsum (fun a : narc => inR (nsrc a) && inT (ndst a) && (nid (S j) j (nsrc a) =? u)%nat) G f
      else tmp_flow (fun a : narc => inR (nsrc a) && inR (ndst a) && (nid (S j) j (nsrc a) =? u)%nat && (nid (S j) j (ndst a) =? v)%nat) G f.

  Lemma con_flow : contract_flow (S j) j Sc Tr G f C = map g C.
  Proof. reflexivity. Qed.

  Lemma g_st c : 0 <= g (mkNarc NSrc NSnk c).
  Proof.
    unfold g. cbn [nsrc ndst nid]. rewrite con_s. destruct con_t as [A B]. rewrite B.
    assert (Z : fsum (fun a : narc => inT (nsrc a) && inS (ndst a)) G f == 0).
    { apply fsum_zero. intros a _ H. apply andb_true_iff in H. destruct H. split; [apply con_sideT|apply con_sideS]; auto. }
    rewrite Z. assert (K := fsum_nonneg (fun a : narc => inS (nsrc a) && mem Tr (nid (S j) j (ndst a)))). lra.
  Qed.
  Lemma g_ts c : g (mkNarc NSnk NSrc c) = 0.
  Proof. unfold g. cbn [nsrc ndst nid]. destruct con_t as [A B]. rewrite A, B, con_s. auto. Qed.
  Lemma g_s1 i c : In i ks -> g (mkNarc NSrc (NV i) c) == fsum (fun a : narc => inS (nsrc a) && nnode_eqb (ndst a) (NV i)) G f.
  Proof.
    intro Hi. unfold g. cbn [nsrc ndst nid]. rewrite con_s. destruct (con_ks i Hi) as (A & B & D). rewrite D.
    apply fsum_ext. intros a _. rewrite <- (con_id i _ Hi). rewrite andb_assoc. auto.
  Qed.
  Lemma g_s2 i c : In i ks -> g (mkNarc (NV i) NSrc c) == fsum (fun a : narc => nnode_eqb (nsrc a) (NV i) && inS (ndst a)) G f.
  Proof.
    intro Hi. unfold g. cbn [nsrc ndst nid]. rewrite con_s. destruct (con_ks i Hi) as (A & B & D). rewrite B, D.
    apply fsum_ext. intros a _. rewrite <- (con_id i _ Hi).
    destruct (inR (nsrc a)), (inS (ndst a)), (_ =? i)%nat; auto.
  Qed.
  Lemma g_t1 i c : In i ks -> g (mkNarc (NV i) NSnk c) == fsum (fun a : narc => nnode_eqb (nsrc a) (NV i) && inT (ndst a)) G f.
  Proof.
    intro Hi. unfold g. cbn [nsrc ndst nid]. destruct con_t as [A0 B0]. destruct (con_ks i Hi) as (A & B & D).
    rewrite B, D, A0, B0. apply fsum_ext. intros a _. rewrite <- (con_id i _ Hi).
    destruct (inR (nsrc a)), (inT (ndst a)), (_ =? i)%nat; auto.
  Qed.
  Lemma g_t2 i c : In i ks -> g (mkNarc NSnk (NV i) c) == fsum (fun a : narc => inT (nsrc a) && nnode_eqb (ndst a) (NV i)) G f.
  Proof.
    intro Hi. unfold g. cbn [nsrc ndst nid]. destruct con_t as [A0 B0]. destruct (con_ks i Hi) as (A & B & D).
    rewrite B, A0, B0. apply fsum_ext. intros a _. rewrite <- (con_id i _ Hi). rewrite andb_assoc. auto.
  Qed.
  Lemma g_flt q : In q L -> inR (nsrc (fst q)) = true -> inR (ndst (fst q)) = true -> g (fst q) = snd q.
  Proof.
    destruct q as [[u v w] x]. cbn [fst snd nsrc ndst]. intros Hq H1 H2. assert (HG := con_LG _ Hq).
    destruct (r_nn _ _ _ _ _ _ R _ HG) as (_ & N1 & N2). cbn [fst nsrc ndst] in N1, N2.
    destruct (con_Rn u N1 H1) as (i & -> & Hi). destruct (con_Rn v N2 H2) as (k & -> & Hk).
    unfold g. cbn [nsrc ndst nid]. destruct (con_ks i Hi) as (A & B & D). destruct (con_ks k Hk) as (A' & B' & D').
    rewrite B, D, B', D'. apply (con_tmp i k x w); auto.
  Qed.
  Lemma flt_In c : In c flt -> In c G /\ inR (nsrc c) = true /\ inR (ndst c) = true /\
    exists q, In q L /\ fst q = c.
  Proof.
    intro H. apply filter_In in H. destruct H as [A B]. apply andb_true_iff in B. destruct B as [B B'].
    apply andb_true_iff in B. destruct B as [B0 B]. split; auto. split; auto. split; auto.
    rewrite <- con_L in A. apply in_map_iff in A. destruct A as (q & A1 & A2). exists q. auto.
  Qed.

  Lemma C_In c : In c C -> In c flt \/ c = mkNarc NSrc NSnk st \/ c = mkNarc NSnk NSrc ts \/
    exists i, In i ks /\ (c = mkNarc NSrc (NV i) (s1 i) \/ (c = mkNarc (NV i) NSrc (s2 i) /\ Qltb eps (s2 i) = true) \/
       c = mkNarc (NV i) NSnk (t1 i) \/ (c = mkNarc NSnk (NV i) (t2 i) /\ Qltb eps (t2 i) = true)).
  Proof.
    rewrite con_C. intro Hc. apply in_app_or in Hc. destruct Hc as [Hc|Hc]; auto. right.
    apply in_app_or in Hc. destruct Hc as [[Hc|[Hc|[]]]|Hc]; auto. right. right.
    apply in_flat_map in Hc. destruct Hc as (i & Hi & Hc). exists i. split; auto. unfold arcs in Hc.
    apply in_app_or in Hc. destruct Hc as [[Hc|[]]|Hc]; auto.
    apply in_app_or in Hc. destruct Hc as [Hc|Hc].
    { destruct (Qltb eps (s2 i)) eqn:K; [|destruct Hc]. destruct Hc as [Hc|[]]. auto. }
    apply in_app_or in Hc. destruct Hc as [[Hc|[]]|Hc]; auto.
    destruct (Qltb eps (t2 i)) eqn:K; [|destruct Hc]. destruct Hc as [Hc|[]]. auto 6.
  Qed.

  Lemma big_C : big eps C.
  Proof.
    intros c Hc A B D. apply C_In in Hc. destruct Hc as [Hc|[->|[->|(i & Hi & [->|[[-> K]|[->|[-> K]]]])]]];
      cbn [nsrc ndst ncap] in *; try congruence; try (apply Qltb_true in K; auto).
    - apply flt_In in Hc. apply BG; tauto.
    - exfalso. apply D. auto.
  Qed.

  Lemma s2_pre i : In i ks -> forall a, In a G -> inR (nsrc a) && inS (ndst a) && (nid (S j) j (nsrc a) =? i)%nat = true ->
    nsrc a <> NSrc /\ ndst a <> NSnk /\ ~ (nsrc a = NSnk /\ ndst a = NSrc).
  Proof.
    intros Hi a Ha H. apply andb_true_iff in H. destruct H as [H1 H2]. apply andb_true_iff in H1. destruct H1 as [H0 H1].
    assert (K := con_id i (nsrc a) Hi). rewrite H0, H2 in K. symmetry in K. apply nnode_eqb_true in K. rewrite K.
    split; [discriminate|]. split; [|intros [X _]; discriminate X]. intro X. rewrite X in H1. unfold inS in H1. cbn [nid] in H1.
    destruct con_t as [t _]. congruence.
  Qed.
  Lemma t2_pre i : In i ks -> forall a, In a G -> inT (nsrc a) && inR (ndst a) && (nid (S j) j (ndst a) =? i)%nat = true ->
    nsrc a <> NSrc /\ ndst a <> NSnk /\ ~ (nsrc a = NSnk /\ ndst a = NSrc).
  Proof.
    intros Hi a Ha H. apply andb_true_iff in H. destruct H as [H1 H2]. apply andb_true_iff in H1. destruct H1 as [H0 H1].
    assert (K := con_id i (ndst a) Hi). rewrite H1, H2 in K. symmetry in K. apply nnode_eqb_true in K. rewrite K.
    split; [|split; [discriminate|intros [_ X]; discriminate X]]. intro X. rewrite X in H0. unfold inT in H0. cbn [nid] in H0.
    rewrite con_s in H0. discriminate H0.
  Qed.
  Lemma s2_g i : In i ks -> g (mkNarc (NV i) NSrc 0) ==
    fsum (fun a : narc => inR (nsrc a) && inS (ndst a) && (nid (S j) j (nsrc a) =? i)%nat) G f.
  Proof.
    intro Hi. unfold g. cbn [nsrc ndst nid]. rewrite con_s. destruct (con_ks i Hi) as (A & B & D). rewrite B, D. reflexivity.
  Qed.
  Lemma t2_g i : In i ks -> g (mkNarc NSnk (NV i) 0) ==
    fsum (fun a : narc => inT (nsrc a) && inR (ndst a) && (nid (S j) j (ndst a) =? i)%nat) G f.
  Proof.
    intro Hi. unfold g. cbn [nsrc ndst nid]. destruct con_t as [A0 B0]. destruct (con_ks i Hi) as (A & B & D).
    rewrite B, A0, B0. reflexivity.
  Qed.
  Lemma g_cap u v c c' : g (mkNarc u v c) = g (mkNarc u v c').
  Proof. reflexivity. Qed.

  Lemma con_caps c : In c C -> 0 <= g c /\ (g c <= ncap (upd_arc y (new_base E Sc Tr) l c) \/ (nsrc c = NSrc /\ ndst c = NSnk)).
  Proof.
    intro Hc. apply C_In in Hc. destruct Hc as [Hc|[->|[->|(i & Hi & Hc)]]].
    - destruct (flt_In c Hc) as (A & B & D & q & Hq & Eq). subst c. rewrite (g_flt q Hq B D). destruct q as [a x]. cbn [fst snd] in *.
      destruct (proj1 (proj2 F) a x Hq) as [F1 F2]. split; auto. destruct F2 as [F2|F2]; auto. left.
      destruct (r_nn _ _ _ _ _ _ R _ A) as (_ & N1 & N2).
      destruct (con_Rn _ N1 B) as (u & E1 & Hu). destruct (con_Rn _ N2 D) as (v & E2 & Hv).
      destruct a as [a1 a2 w]. cbn in E1, E2. subst. cbn in *. auto.
    - split; [apply g_st|]. right. auto.
    - rewrite g_ts. cbn. split; [lra|]. left. unfold ts. apply qsum_nonneg. intros a Ha.
      assert (K := proj1 (r_nn _ _ _ _ _ _ R a Ha)). destruct (_ && _); lra.
    - destruct Hc as [->|[[-> K]|[->|[-> K]]]].
      + rewrite (g_s1 i _ Hi). split; [apply fsum_nonneg|]. left. cbn [upd_arc nsrc ndst ncap].
        eapply Qle_trans; [apply fsum_cap|apply con_s1; auto].
        intros a Ha H. right. apply andb_true_iff in H. destruct H as [_ H]. apply nnode_eqb_true in H. rewrite H. discriminate.
      + rewrite (g_cap _ _ _ 0), (s2_g i Hi). split; [apply fsum_nonneg|]. left. cbn [upd_arc nsrc ndst ncap].
        apply (proj1 (csum_big _ (s2_pre i Hi))). exact K.
      + rewrite (g_t1 i _ Hi). split; [apply fsum_nonneg|]. left. cbn [upd_arc nsrc ndst ncap].
        eapply Qle_trans; [apply fsum_cap|apply con_t1; auto].
        intros a Ha H. left. apply andb_true_iff in H. destruct H as [H _]. apply nnode_eqb_true in H. rewrite H. discriminate.
      + rewrite (g_cap _ _ _ 0), (t2_g i Hi). split; [apply fsum_nonneg|]. left. cbn [upd_arc nsrc ndst ncap].
        apply (proj1 (csum_big _ (t2_pre i Hi))). exact K.
  Qed.

  Lemma con_slack c : In c C -> side (mem T) (nsrc c) = true -> side (mem T) (ndst c) = false -> g c == 0.
  Proof.
    intros Hc S1 S2. apply C_In in Hc. destruct Hc as [Hc|[->|[->|(i & Hi & Hc)]]].
    - destruct (flt_In c Hc) as (A & B & D & q & Hq & Eq). subst c. rewrite (g_flt q Hq B D). destruct q as [a x]. cbn [fst snd] in *.
      apply (proj2 (proj2 (proj2 F)) a x Hq); auto.
    - cbn in S1. discriminate S1.
    - rewrite g_ts. reflexivity.
    - destruct Hc as [->|[[-> K]|[->|[-> K]]]]; cbn [nsrc ndst side] in S1, S2; try discriminate.
      + rewrite (g_s2 i _ Hi). apply fsum_zero. intros a _ H. apply andb_true_iff in H. destruct H as [H1 H2].
        apply nnode_eqb_true in H1. rewrite H1. cbn [side]. split; auto. apply con_sideS. auto.
      + rewrite (g_t2 i _ Hi). apply fsum_zero. intros a _ H. apply andb_true_iff in H. destruct H as [H1 H2].
        apply nnode_eqb_true in H2. rewrite H2. cbn [side]. split; auto. apply con_sideT. auto.
  Qed.

  Lemma con_cons i : In i ks -> excess C (map g C) (NV i) == 0.
  Proof.
    intro Hi. rewrite <- (proj1 (proj2 (proj2 F)) i (con_ksns i Hi)). unfold excess. rewrite combine_self, qsum_map.
    cbn [fst snd]. rewrite con_C, !qsum_app.
    (* inner arcs *)
    assert (A1 : qsum (fun c : narc => (if nnode_eqb (ndst c) (NV i) then g c else 0) - (if nnode_eqb (nsrc c) (NV i) then g c else 0)) flt ==
      qsum (fun q : narc * Q => if inR (nsrc (fst q)) && inR (ndst (fst q)) then
        (if nnode_eqb (ndst (fst q)) (NV i) then snd q else 0) - (if nnode_eqb (nsrc (fst q)) (NV i) then snd q else 0) else 0) L).
    { unfold flt. rewrite <- con_L at 1. rewrite filter_map, qsum_map, qsum_filter. apply qsum_ext. intros q Hq.
      destruct (inR (nsrc (fst q)) && inR (ndst (fst q))) eqn:K.
      - apply andb_true_iff in K. destruct K as [K1 K2]. rewrite K1, K2, !andb_true_r.
        assert (HG := con_LG _ Hq). destruct (r_nn _ _ _ _ _ _ R _ HG) as (_ & N1 & N2).
        destruct (con_Rn _ N1 K1) as (u & E1 & Hu). destruct (con_Rn _ N2 K2) as (v & E2 & Hv).
        assert (W : eps < ncap (fst q)).
        { apply BG; auto; rewrite ?E1, ?E2; try discriminate. intros [X _]. discriminate X. }
        assert (Qltb (ncap (fst q)) eps = false) by (apply Qltb_false; lra). rewrite H. cbn [negb].
        rewrite (g_flt q Hq K1 K2). reflexivity.
      - rewrite <- andb_assoc, K, andb_false_r. reflexivity. }
    (* terminal arcs *)
    assert (A2 : qsum (fun c : narc => (if nnode_eqb (ndst c) (NV i) then g c else 0) - (if nnode_eqb (nsrc c) (NV i) then g c else 0))
                   [mkNarc NSrc NSnk st; mkNarc NSnk NSrc ts] == 0).
    { cbn [qsum nsrc ndst nnode_eqb]. lra. }
    set (X := fsum (fun a : narc => inS (nsrc a) && nnode_eqb (ndst a) (NV i)) G f - fsum (fun a : narc => nnode_eqb (nsrc a) (NV i) && inS (ndst a)) G f
              - fsum (fun a : narc => nnode_eqb (nsrc a) (NV i) && inT (ndst a)) G f + fsum (fun a : narc => inT (nsrc a) && nnode_eqb (ndst a) (NV i)) G f).
    assert (A3 : qsum (fun c : narc => (if nnode_eqb (ndst c) (NV i) then g c else 0) - (if nnode_eqb (nsrc c) (NV i) then g c else 0))
                   (flat_map arcs ks) == X).
    { rewrite qsum_flat_map. rewrite (qsum_ext _ (fun k : nat => if (k =? i)%nat then X else 0)).
      - apply (qsum_single ks i X con_ksN Hi).
      - intros k Hk. unfold arcs. rewrite !qsum_app. cbn [qsum nsrc ndst nnode_eqb].
        destruct (k =? i)%nat eqn:Ek.
        + apply Nat.eqb_eq in Ek. subst k. rewrite (g_s1 i _ Hi), (g_t1 i _ Hi). unfold X.
          rewrite <- (g_s2 i 0 Hi), <- (g_t2 i 0 Hi).
          destruct (csum_big _ (s2_pre i Hi)) as [_ Z1]. destruct (csum_big _ (t2_pre i Hi)) as [_ Z2].
          rewrite <- (s2_g i Hi) in Z1. rewrite <- (t2_g i Hi) in Z2.
          change (csum eps (fun a : narc => inR (nsrc a) && inS (ndst a) && (nid (S j) j (nsrc a) =? i)%nat) G) with (s2 i) in Z1.
          change (csum eps (fun a : narc => inT (nsrc a) && inR (ndst a) && (nid (S j) j (ndst a) =? i)%nat) G) with (t2 i) in Z2.
          rewrite (g_cap (NV i) NSrc 0 (s2 i)) in *. rewrite (g_cap NSnk (NV i) 0 (t2 i)) in *.
          destruct (Qltb eps (s2 i)), (Qltb eps (t2 i)); cbn [qsum nsrc ndst nnode_eqb]; rewrite ?Nat.eqb_refl;
            try specialize (Z1 eq_refl); try specialize (Z2 eq_refl); lra.
        + destruct (Qltb eps (s2 k)), (Qltb eps (t2 k)); cbn [qsum nsrc ndst nnode_eqb]; rewrite ?Ek; lra. }
    rewrite A1, A2, A3. unfold X, fsum. fold L. rewrite Qplus_0_l, <- !qsum_minus, <- !qsum_plus. apply qsum_ext.
    intros q Hq. destruct (con_cls (nsrc (fst q))) as (c1 & c2 & c3). destruct (con_cls (ndst (fst q))) as (d1 & d2 & d3).
    destruct (nnode_eqb (nsrc (fst q)) (NV i)) eqn:N1; destruct (nnode_eqb (ndst (fst q)) (NV i)) eqn:N2;
      try (apply nnode_eqb_true in N1); try (apply nnode_eqb_true in N2); try rewrite N1; try rewrite N2;
      destruct (con_RV i Hi) as (r1 & r2 & r3); rewrite ?r1, ?r2, ?r3; rewrite ?N1, ?N2 in *; cbn [andb];
      rewrite ?andb_true_r, ?andb_false_r.
    - lra.
    - destruct (inS (ndst (fst q))), (inT (ndst (fst q))), (inR (ndst (fst q))); cbn [negb andb] in *; try discriminate;
        try (destruct (d2 eq_refl); discriminate); try (specialize (d3 eq_refl); discriminate); lra.
    - destruct (inS (nsrc (fst q))), (inT (nsrc (fst q))), (inR (nsrc (fst q))); cbn [negb andb] in *; try discriminate;
        try (destruct (c2 eq_refl); discriminate); try (specialize (c3 eq_refl); discriminate); lra.
    - destruct (inR (nsrc (fst q))), (inR (ndst (fst q))); cbn [andb]; lra.
  Qed.

  Lemma contract_finv : finv y C (new_base E Sc Tr) ks l T (contract_flow (S j) j Sc Tr G f C).
  Proof.
    rewrite con_flow. split; [apply map_length|]. rewrite combine_self. split; [|split].
    - intros a x H. apply in_map_iff in H. destruct H as (c & Eq & Hc). injection Eq as <- <-. apply con_caps; auto.
    - apply con_cons.
    - intros a x H. apply in_map_iff in H. destruct H as (c & Eq & Hc). injection Eq as <- <-. apply con_slack; auto.
  Qed.
End Con.
