(** * TrimThy: the solvers of MTrim meet their contracts. *)
From Verif Require Import Base Graph Spec MSets SetsThy MGraph MaxFlow BFThy MDil DilThy MDT PropDT MPMF LamThy
  PDTThy PropPDT MWarm PropWarm MPMFR PMFRThy MWarmR FlowThy MTrim.

Lemma cut_app N M Y : cut (N ++ M) Y == cut N Y + cut M Y.
Proof. apply qsum_app. Qed.

Lemma cut_cons a N Y : cut (a :: N) Y == (if negb (side Y (nsrc a)) && side Y (ndst a) then ncap a else 0) + cut N Y.
Proof. reflexivity. Qed.

Lemma cut_submod N X Y : (forall a, In a N -> 0 <= ncap a) ->
  cut N (fun v => X v && Y v) + cut N (fun v => X v || Y v) <= cut N X + cut N Y.
Proof.
  intro H. unfold cut. rewrite <- !qsum_plus. apply qsum_le. intros a Ha. specialize (H a Ha).
  assert (S1 : forall u, side (fun v => X v && Y v) u = side X u && side Y u) by (intros [| |v]; auto).
  assert (S2 : forall u, side (fun v => X v || Y v) u = side X u || side Y u) by (intros [| |v]; auto).
  rewrite !S1, !S2.
  destruct (side X (nsrc a)), (side Y (nsrc a)), (side X (ndst a)), (side Y (ndst a)); cbn; lra.
Qed.

(** [F] has minimum cut [v] and every arc is empty or crosses a minimum cut. *)
Definition tight (F : network) (v : Q) (a : narc) : Prop :=
  ncap a == 0 \/ exists Y, cut F Y == v /\ side Y (nsrc a) = false /\ side Y (ndst a) = true.
Definition tightened (F : network) (v : Q) : Prop :=
  (forall a, In a F -> 0 <= ncap a) /\ (forall Y, v <= cut F Y) /\ (exists Y, cut F Y == v) /\
  (forall a, In a F -> tight F v a).

Definition into (F : network) (z : nnode) : Q := qsum (fun a => if nnode_eqb (ndst a) z then ncap a else 0) F.
Definition outof (F : network) (z : nnode) : Q := qsum (fun a => if nnode_eqb (nsrc a) z then ncap a else 0) F.

(** One minimum cut crossed by all arcs into a node. *)
Lemma common_cut F v z : tightened F v -> forall l, incl l F ->
  (forall a, In a l -> ndst a = z -> ncap a == 0) \/
  exists X, cut F X == v /\ side X z = true /\ forall a, In a l -> ndst a = z -> ncap a == 0 \/ side X (nsrc a) = false.
Proof.
  intros (HN & HM & _ & HT). induction l as [|a l IH]; intro Hl; [left; intros a []|].
  destruct IH as [IH|(X & X1 & X2 & X3)]; [intros b Hb; apply Hl; right; auto| |].
  - destruct (nnode_eqb (ndst a) z) eqn:Ez.
    + apply nnode_eqb_true in Ez. destruct (HT a (Hl a (or_introl eq_refl))) as [K|(Y & Y1 & Y2 & Y3)].
      * left. intros b [<-|Hb]; auto.
      * right. exists Y. split; auto. split; [congruence|]. intros b [<-|Hb] Eb; auto.
    + apply neqb_false in Ez. left. intros b [<-|Hb] Eb; [congruence|auto].
  - right. destruct (nnode_eqb (ndst a) z) eqn:Ez.
    + apply nnode_eqb_true in Ez. destruct (HT a (Hl a (or_introl eq_refl))) as [K|(Y & Y1 & Y2 & Y3)].
      * exists X. split; auto. split; auto. intros b [<-|Hb]; auto.
      * exists (fun v => X v && Y v).
        assert (S1 : forall u, side (fun v => X v && Y v) u = side X u && side Y u) by (intros [| |w]; auto).
        assert (SM := cut_submod F X Y HN). assert (M1 := HM (fun v => X v && Y v)). assert (M2 := HM (fun v => X v || Y v)).
        split; [lra|]. split; [rewrite S1, X2, <- Ez; exact Y3|].
        intros b [<-|Hb] Eb; rewrite S1.
        -- right. rewrite Y2. apply andb_false_r.
        -- destruct (X3 b Hb Eb) as [K|K]; auto. right. rewrite K. auto.
    + apply neqb_false in Ez. exists X. split; auto. split; auto. intros b [<-|Hb] Eb; [congruence|auto].
Qed.

Lemma into_le F v w : tightened F v -> into F (NV w) <= outof F (NV w).
Proof.
  intro T. assert (T0 := T). destruct T0 as (HN & HM & _ & HT).
  destruct (common_cut F v (NV w) T F (incl_refl _)) as [K|(X & X1 & X2 & X3)].
  - assert (into F (NV w) == 0).
    { apply qsum_zero. intros a Ha. destruct (nnode_eqb (ndst a) (NV w)) eqn:E; [|reflexivity]. apply nnode_eqb_true in E. auto. }
    assert (0 <= outof F (NV w)).
    { apply qsum_nonneg. intros a Ha. specialize (HN a Ha). destruct (nnode_eqb (nsrc a) (NV w)); lra. }
    lra.
  - assert (M := HM (fun x => X x && negb (x =? w)%nat)).
    assert (D : cut F (fun x => X x && negb (x =? w)%nat) - cut F X <= outof F (NV w) - into F (NV w)).
    { unfold cut, outof, into. rewrite <- !qsum_minus. apply qsum_le. intros a Ha. specialize (HN a Ha).
      assert (S1 : forall u, side (fun x => X x && negb (x =? w)%nat) u = side X u && negb (nnode_eqb u (NV w))).
      { intros [| |x]; auto. }
      rewrite !S1. specialize (X3 a Ha). cbn [side] in X2.
      destruct (nnode_eqb (ndst a) (NV w)) eqn:Ed.
      - apply nnode_eqb_true in Ed. destruct (X3 Ed) as [K|K].
        + repeat match goal with |- context [if ?b then _ else _] => destruct b end; lra.
        + rewrite Ed. cbn [side]. rewrite K, X2. cbn [negb andb].
          destruct (nnode_eqb (nsrc a) (NV w)); lra.
      - destruct (nnode_eqb (nsrc a) (NV w)) eqn:Es.
        + apply nnode_eqb_true in Es. rewrite Es. cbn [side]. rewrite X2. cbn [negb andb]. destruct (side X (ndst a)); cbn; lra.
        + destruct (side X (nsrc a)), (side X (ndst a)); cbn; lra. }
    lra.
Qed.

Lemma tight_rnet F v : tightened F v -> tightened (rnet F) v.
Proof.
  intros (HN & HM & (Y0 & H0) & HT).
  assert (DN : forall Y, cut F (fun x => negb (negb (Y x))) == cut F Y).
  { intro Y. apply qsum_ext. intros a _. assert (S : forall u, side (fun x => negb (negb (Y x))) u = side Y u).
    { intros [| |x]; simpl; auto. apply negb_involutive. }
    rewrite !S. reflexivity. }
  split; [|split; [|split]].
  - intros a Ha. apply in_map_iff in Ha. destruct Ha as (b & <- & Hb). cbn. auto.
  - intro Y. rewrite cut_rnet. auto.
  - exists (fun x => negb (Y0 x)). rewrite cut_rnet, DN. auto.
  - intros a Ha. apply in_map_iff in Ha. destruct Ha as (b & <- & Hb). destruct (HT b Hb) as [K|(Y & Y1 & Y2 & Y3)].
    + left. auto.
    + right. exists (fun x => negb (Y x)). rewrite cut_rnet, DN. cbn [nsrc ndst].
      assert (S : forall u, side (fun x => negb (Y x)) (rnode u) = negb (side Y u)) by (intros [| |x]; auto).
      rewrite !S, Y2, Y3. auto.
Qed.

Lemma into_rnet F z : into (rnet F) (rnode z) == outof F z.
Proof.
  unfold into, outof, rnet. rewrite qsum_map. apply qsum_ext. intros a _. cbn [ndst ncap].
  assert (K : forall u, nnode_eqb (rnode u) (rnode z) = nnode_eqb u z) by (intros [| |p]; destruct z; reflexivity).
  rewrite K. reflexivity.
Qed.
Lemma outof_rnet F z : outof (rnet F) (rnode z) == into F z.
Proof.
  unfold into, outof, rnet. rewrite qsum_map. apply qsum_ext. intros a _. cbn [nsrc ncap].
  assert (K : forall u, nnode_eqb (rnode u) (rnode z) = nnode_eqb u z) by (intros [| |p]; destruct z; reflexivity).
  rewrite K. reflexivity.
Qed.

Lemma tight_conserves F v w : tightened F v -> into F (NV w) == outof F (NV w).
Proof.
  intro T. assert (A := into_le F v w T). assert (B := into_le (rnet F) v w (tight_rnet F v T)).
  assert (R1 := into_rnet F (NV w)). assert (R2 := outof_rnet F (NV w)). cbn [rnode] in R1, R2. lra.
Qed.

Lemma tight_value F v : tightened F v -> into F NSnk == v /\ outof F NSnk == 0.
Proof.
  intro T. assert (T0 := T). destruct T0 as (HN & HM & (Y0 & H0) & HT).
  assert (Z : outof F NSnk == 0).
  { apply qsum_zero. intros a Ha. destruct (nnode_eqb (nsrc a) NSnk) eqn:E; [|reflexivity]. apply nnode_eqb_true in E.
    destruct (HT a Ha) as [K|(Y & Y1 & Y2 & Y3)]; auto. rewrite E in Y2. discriminate Y2. }
  split; auto.
  assert (v0 : 0 <= v).
  { rewrite <- H0. apply qsum_nonneg. intros a Ha. specialize (HN a Ha). destruct (_ && _); lra. }
  assert (LB : v <= into F NSnk).
  { assert (M := HM (fun _ => false)). enough (cut F (fun _ => false) <= into F NSnk) by lra. apply qsum_le. intros a Ha.
    specialize (HN a Ha). destruct (nsrc a), (ndst a); cbn; lra. }
  assert (UB : into F NSnk <= v).
  { destruct (common_cut F v NSnk T F (incl_refl _)) as [K|(X & X1 & X2 & X3)].
    - assert (into F NSnk == 0); [|lra]. apply qsum_zero. intros a Ha.
      destruct (nnode_eqb (ndst a) NSnk) eqn:E; [|reflexivity]. apply nnode_eqb_true in E. auto.
    - rewrite <- X1. apply qsum_le. intros a Ha. specialize (HN a Ha). destruct (nnode_eqb (ndst a) NSnk) eqn:E.
      + apply nnode_eqb_true in E. destruct (X3 a Ha E) as [K|K].
        * destruct (_ && _); lra.
        * rewrite E, K. cbn. lra.
      + destruct (_ && _); lra. }
  lra.
Qed.

(** ** The reduction *)
Definition low (b a : narc) : Prop := nsrc b = nsrc a /\ ndst b = ndst a /\ 0 <= ncap b /\ ncap b <= ncap a.

Section Trim.
  Variable m : network -> Q.
  Variable nodes : list nat.
  Hypothesis Hm : forall N, net_ok nodes N -> (forall Y, m N <= cut N Y) /\ exists Y, m N == cut N Y.

  Definition tinv (v : Q) (pre todo : network) : Prop :=
    net_ok nodes (pre ++ todo) /\ (forall Y, v <= cut (pre ++ todo) Y) /\ (exists Y, cut (pre ++ todo) Y == v) /\
    (forall a, In a pre -> tight (pre ++ todo) v a).

  Lemma cut_mid pre a t Y : cut (pre ++ a :: t) Y ==
    cut (pre ++ t) Y + (if negb (side Y (nsrc a)) && side Y (ndst a) then ncap a else 0).
  Proof. rewrite !cut_app, cut_cons. lra. Qed.

  Lemma trim_ok v : forall todo pre, tinv v pre todo ->
    exists new, trim m v pre todo = pre ++ new /\ Forall2 low new todo /\ tightened (trim m v pre todo) v.
  Proof.
    induction todo as [|a t IH]; intros pre ((Nn & Nc) & HM & HX & HT); cbn [trim].
    - exists []. rewrite app_nil_r in *. split; auto. split; [constructor|]. split; [intros b Hb; apply Nc; auto|]. auto.
    - set (N0 := pre ++ mkNarc (nsrc a) (ndst a) 0 :: t).
      assert (Ha : In a (pre ++ a :: t)) by (apply in_or_app; right; left; auto).
      destruct (Nc a Ha) as (a1 & a2 & a3).
      assert (O0 : net_ok nodes N0).
      { split; auto. intros b Hb. unfold N0 in Hb. apply in_app_or in Hb. destruct Hb as [Hb|[<-|Hb]].
        - apply Nc. apply in_or_app; auto.
        - cbn. split; [lra|auto].
        - apply Nc. apply in_or_app; right; right; auto. }
      destruct (Hm N0 O0) as (M1 & Y0 & M2). set (m0 := m N0) in *.
      assert (C0 : forall Y, cut N0 Y == cut (pre ++ t) Y).
      { intro Y. unfold N0. rewrite cut_mid. cbn [nsrc ndst ncap]. destruct (_ && _); lra. }
      assert (C1 : forall Y, cut (pre ++ a :: t) Y == cut (pre ++ t) Y + (if negb (side Y (nsrc a)) && side Y (ndst a) then ncap a else 0)).
      { intro Y. apply cut_mid. }
      set (x := Qred (v - m0)). assert (Ex : x == v - m0) by apply Qred_correct.
      destruct HX as (Yv & HYv).
      assert (x0 : 0 <= x).
      { assert (A := M1 Yv). rewrite C0 in A. rewrite C1 in HYv. destruct (_ && _) in HYv; lra. }
      assert (xc : x <= ncap a).
      { assert (A := HM Y0). rewrite C1 in A. rewrite C0 in M2. destruct (_ && _) in A; lra. }
      set (b := mkNarc (nsrc a) (ndst a) x).
      assert (C2 : forall Y, cut (pre ++ b :: t) Y == cut (pre ++ t) Y + (if negb (side Y (nsrc a)) && side Y (ndst a) then x else 0)).
      { intro Y. apply (cut_mid pre b t Y). }
      assert (V2 : forall Y, v <= cut (pre ++ b :: t) Y).
      { intro Y. rewrite C2. assert (A := M1 Y). rewrite C0 in A. assert (B := HM Y). rewrite C1 in B.
        destruct (negb (side Y (nsrc a)) && side Y (ndst a)); lra. }
      destruct (IH (pre ++ [b])) as (new & T1 & T2 & T3).
      { unfold tinv. rewrite <- app_assoc. cbn [app]. split; [|split; [exact V2|split]].
        - split; auto. intros c Hc. apply in_app_or in Hc. destruct Hc as [Hc|[<-|Hc]].
          + apply Nc. apply in_or_app; auto.
          + cbn. auto.
          + apply Nc. apply in_or_app; right; right; auto.
        - exists Y0. assert (A := V2 Y0). assert (B := HM Y0). rewrite C1 in B. rewrite C2 in *. rewrite C0 in M2.
          destruct (negb (side Y0 (nsrc a)) && side Y0 (ndst a)); lra.
        - intros c Hc. apply in_app_or in Hc. destruct Hc as [Hc|[<-|[]]].
          + destruct (HT c Hc) as [K|(Y & Y1 & Y2 & Y3)]; [left; auto|]. right. exists Y. split; auto.
            assert (A := V2 Y). rewrite C1 in Y1. rewrite C2 in *.
            destruct (negb (side Y (nsrc a)) && side Y (ndst a)); lra.
          + destruct (negb (side Y0 (nsrc a)) && side Y0 (ndst a)) eqn:Ec.
            * right. exists Y0. rewrite C2, Ec. rewrite C0 in M2. split; [lra|].
              apply andb_true_iff in Ec. rewrite negb_true_iff in Ec. exact Ec.
            * left. cbn [ncap b]. assert (B := HM Y0). rewrite C1, Ec in B. rewrite C0 in M2. lra. }
      exists (b :: new). split; [rewrite T1, <- app_assoc; reflexivity|]. split; [|exact T3].
      constructor; auto. split; [reflexivity|]. split; [reflexivity|]. split; auto.
  Qed.
End Trim.

Lemma low_excess R N u : Forall2 low R N -> excess N (map ncap R) u == into R u - outof R u.
Proof.
  intro H. unfold excess, into, outof. rewrite <- qsum_minus. induction H as [|b a R N (A & B & C & D) H IH]; [reflexivity|].
  cbn [map combine qsum fst snd]. rewrite IH, A, B. reflexivity.
Qed.

Lemma low_caps R N a x : Forall2 low R N -> In (a, x) (combine N (map ncap R)) -> 0 <= x /\ x <= ncap a.
Proof.
  induction 1 as [|b a' R N (A & B & C & D) H IH]; cbn [map combine]; [intros []|]. intros [K|K]; auto.
  injection K as <- <-. auto.
Qed.

Theorem trim_flow_ok nodes N : net_ok nodes N -> flow_ok nodes N (trim_flow nodes N) (fst (bf_mincut nodes N)).
Proof.
  intro Hok. unfold trim_flow. set (m := fun M => fst (bf_mincut nodes M)). set (v := fst (bf_mincut nodes N)).
  assert (Hm : forall M, net_ok nodes M -> (forall Y, m M <= cut M Y) /\ exists Y, m M == cut M Y).
  { intros M HM. destruct (proj1 bf_minsink_spec nodes M HM) as (_ & A & B). split; auto. exists (mem (snd (bf_mincut nodes M))). auto. }
  destruct (Hm N Hok) as (V1 & Y & V2).
  destruct (trim_ok m nodes Hm v N []) as (new & T1 & T2 & T3).
  { split; auto. split; [exact V1|]. split; [exists Y; symmetry; exact V2|]. intros a []. }
  cbn [app] in T1. rewrite T1 in *. split; [|split; [|split]].
  - rewrite map_length. clear -T2. induction T2; cbn; auto.
  - intros a x. apply low_caps. auto.
  - intros u _. rewrite (low_excess new N _ T2). rewrite (tight_conserves new v u T3). lra.
  - rewrite (low_excess new N _ T2). destruct (tight_value new v T3). lra.
Qed.

Lemma flow_okb_ok nodes N f v : flow_okb nodes N f v = true -> flow_ok nodes N f v.
Proof.
  unfold flow_okb. intro H. apply andb_true_iff in H. destruct H as [H H4]. apply andb_true_iff in H. destruct H as [H H3].
  apply andb_true_iff in H. destruct H as [H1 H2]. apply Nat.eqb_eq in H1. apply Qeq_bool_iff in H4.
  rewrite forallb_forall in H2, H3. split; auto. split; [|split; auto].
  - intros a x Hx. specialize (H2 _ Hx). cbn [fst snd] in H2. apply andb_true_iff in H2. rewrite !negb_true_iff in H2.
    destruct H2 as [A B]. apply Qltb_false in A. apply Qltb_false in B. auto.
  - intros u Hu. apply Qeq_bool_iff. auto.
Qed.

(** *** The solver with augmenting paths *)
(** A flow of the value of a cut fills the arcs entering the sink side. *)
Lemma slack_in nodes N f v Y : net_ok nodes N -> flow_ok nodes N f v -> v == cut N Y ->
  forall a x, In (a, x) (combine N f) -> side Y (nsrc a) = false -> side Y (ndst a) = true -> x == ncap a.
Proof.
  intros Hok Hf Hv a x Ha S1 S2. assert (C := flow_crossing nodes N f v Y Hok Hf). destruct Hf as (F1 & F2 & F3 & F4).
  assert (E := crossing_cut Y N f F1 F2).
  assert (Z : qsum (fun p => (if negb (side Y (nsrc (fst p))) && side Y (ndst (fst p)) then ncap (fst p) - snd p else 0) +
       (if side Y (nsrc (fst p)) && negb (side Y (ndst (fst p))) then snd p else 0)) (combine N f) <= 0) by lra.
  assert (K := qsum_all_zero _ _ (slack_terms Y N f F2) Z (a, x) Ha). cbv beta in K. cbn [fst snd] in K.
  rewrite S1, S2 in K. cbn [negb andb] in K. lra.
Qed.

Lemma side_mono (dn : list nat) (Y : nset) u : (forall x, In x dn -> Y x = true) -> side (mem dn) u = true -> side Y u = true.
Proof. intros H. destruct u; cbn [side]; auto. intro K. apply H, mem_In, K. Qed.

Lemma chain_min nodes N f v Y : net_ok nodes N -> flow_ok nodes N f v -> v == cut N Y ->
  forall todo dn, (forall x, In x dn -> Y x = true) -> chain_ok (combine N f) dn todo = true -> forall x, In x todo -> Y x = true.
Proof.
  intros Hok Hf Hv. induction todo as [|z t IH]; intros dn Hd Hc x Hx; [destruct Hx|]. cbn [chain_ok] in Hc.
  apply andb_true_iff in Hc. destruct Hc as [Hc Ht].
  assert (Hz : Y z = true).
  { destruct (Y z) eqn:Ez; auto. exfalso. apply existsb_exists in Hc. destruct Hc as ([a q] & Ha & Hc). cbn [fst snd] in Hc.
    apply orb_true_iff in Hc. destruct Hc as [Hc|Hc]; apply andb_true_iff in Hc; destruct Hc as [Hc H3]; apply andb_true_iff in Hc; destruct Hc as [H1 H2];
      apply nnode_eqb_true in H1; apply Qltb_true in H3; apply (side_mono dn Y) in H2; auto.
    - assert (K := slack_in nodes N f v Y Hok Hf Hv a q Ha). rewrite H1 in K. specialize (K Ez H2). lra.
    - assert (K := slack nodes N f v Y Hok Hf Hv a q Ha). rewrite H1 in K. specialize (K H2 Ez). lra. }
  destruct Hx as [<-|Hx]; auto. apply (IH (z :: dn)); auto. intros w [<-|Hw]; auto.
Qed.

Lemma cut_mem_filter nodes N X : net_ok nodes N -> cut N (mem (filter (mem X) nodes)) == cut N (mem X).
Proof.
  intros [_ Hok]. apply qsum_ext. intros a Ha. destruct (Hok a Ha) as (_ & H1 & H2).
  assert (S : forall u, nnode_ok nodes u -> side (mem (filter (mem X) nodes)) u = side (mem X) u).
  { intros [| |k] H; cbn [side]; auto. cbn in H. destruct (mem X k) eqn:E.
    - apply mem_In, filter_In. auto.
    - apply mem_false. rewrite filter_In, E. intros [_ C]. discriminate C. }
  rewrite !S by auto. reflexivity.
Qed.

Local Opaque augment.
Lemma aug_some nodes N f X : net_ok nodes N -> aug nodes N = Some (f, X) ->
  flow_ok nodes N f (cut N (mem X)) /\ incl X nodes /\ (forall Y, cut N Y == cut N (mem X) -> forall x, In x X -> Y x = true).
Proof.
  intros Hok H. unfold aug in H. generalize dependent (augment 200 (length nodes + 2) (map (fun a => (a, 0)) N)). intros r H. cbv zeta in H.
  destruct (_ && _ && _) eqn:E in H; [|discriminate H]. injection H as <- <-.
  apply andb_true_iff in E. destruct E as [E E3]. apply andb_true_iff in E. destruct E as [E1 E2]. apply flow_okb_ok in E1.
  split; [exact E1|]. split.
  - rewrite forallb_forall in E2. intros x Hx. apply mem_In. auto.
  - intros Y HY x Hx. eapply (chain_min nodes N); [exact Hok|exact E1|symmetry; exact HY| |exact E3|exact Hx]. intros z [].
Qed.

Local Opaque aug.
Theorem aug_mincut_spec : MinSinkCutSpec aug_mincut.
Proof.
  split; intros nodes N Hok; unfold aug_mincut.
  - destruct (aug nodes N) as [[f X]|] eqn:E; [|apply bf_minsink_spec; auto]. destruct (aug_some nodes N f X Hok E) as (H1 & H2 & _). cbn [fst snd].
    split; [intros x Hx; apply filter_In in Hx; tauto|]. split; [rewrite Qred_correct, cut_mem_filter; auto; reflexivity|].
    intro Y. rewrite Qred_correct. apply (weak_duality nodes N f); auto.
  - destruct (aug nodes N) as [[f X]|] eqn:E; [|apply bf_minsink_spec; auto]. destruct (aug_some nodes N f X Hok E) as (_ & _ & H3). cbn [fst snd].
    intros Y HY x Hx. rewrite Qred_correct in HY. apply filter_In in Hx. apply (H3 Y HY). apply mem_In. tauto.
Qed.

Lemma flow_ok_wd nodes N f v v' : v == v' -> flow_ok nodes N f v -> flow_ok nodes N f v'.
Proof. intros H (A & B & C & D). split; auto. split; auto. split; auto. rewrite <- H. auto. Qed.

(** Any two min-cut solvers find the same value. *)
Lemma mincut_value mc mc' nodes N : MinCutSpec mc -> MinCutSpec mc' -> net_ok nodes N ->
  fst (mc nodes N) == fst (mc' nodes N).
Proof.
  intros H H' Hok. destruct (H nodes N Hok) as (_ & A & B). destruct (H' nodes N Hok) as (_ & A' & B').
  assert (fst (mc nodes N) <= fst (mc' nodes N)) by (rewrite A'; auto).
  assert (fst (mc' nodes N) <= fst (mc nodes N)) by (rewrite A; auto). lra.
Qed.

Lemma max_flow_ok nodes N : net_ok nodes N -> flow_ok nodes N (max_flow nodes N) (fst (aug_mincut nodes N)).
Proof.
  intro Hok. unfold max_flow, aug_mincut. destruct (aug nodes N) as [[f X]|] eqn:E.
  - destruct (aug_some nodes N f X Hok E) as (H1 & _). eapply flow_ok_wd; [|exact H1]. cbn [fst]. symmetry. apply Qred_correct.
  - apply trim_flow_ok. exact Hok.
Qed.

Lemma spin_flow_ok nodes N : net_ok nodes N -> flow_ok nodes N (spin_flow nodes N) (fst (aug_mincut nodes N)).
Proof.
  intro H. unfold spin_flow. cbv zeta. destruct (flow_okb _ _ _ _) eqn:E; [apply flow_okb_ok; auto|apply max_flow_ok; auto].
Qed.

Lemma warmL_of fl : (forall nodes N, net_ok nodes N -> flow_ok nodes N (fl nodes N) (fst (aug_mincut nodes N))) ->
  WarmLSpec (fun nodes N _ => (aug_mincut nodes N, fl nodes N)).
Proof.
  intros H nodes N f Hok _. cbv zeta. cbn [fst snd]. destruct aug_mincut_spec as [S1 S2].
  destruct (S1 nodes N Hok) as (A & B & C). split; auto. split; auto. split; auto. split; [apply (S2 nodes N Hok)|]. auto.
Qed.
Lemma warmR_of fl : (forall nodes N, net_ok nodes N -> flow_ok nodes N (fl nodes N) (fst (aug_mincut nodes N))) ->
  WarmRSpec (fun nodes N _ => (rev_solver aug_mincut nodes N, fl nodes N)).
Proof.
  intros H nodes N f Hok _. cbv zeta. cbn [fst snd]. destruct (rev_solver_spec _ aug_mincut_spec) as [S1 S2].
  destruct (S1 nodes N Hok) as (A & B & C). split; auto. split; auto. split; auto. split; [apply (S2 nodes N Hok)|].
  eapply flow_ok_wd; [|apply H; auto]. apply mincut_value; auto. apply aug_mincut_spec.
Qed.

Theorem trim_L_spec : WarmLSpec trim_L.
Proof. apply warmL_of. apply max_flow_ok. Qed.
Theorem trim_R_spec : WarmRSpec trim_R.
Proof. apply warmR_of. apply max_flow_ok. Qed.
Theorem spin_L_spec : WarmLSpec spin_L.
Proof. apply warmL_of. apply spin_flow_ok. Qed.
Theorem spin_R_spec : WarmRSpec spin_R.
Proof. apply warmR_of. apply spin_flow_ok. Qed.
