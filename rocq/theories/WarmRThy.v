(** * WarmRThy: the flows handed from call to call by PMF_R::slice. *)
From Coq Require Import Sorted.
From Verif Require Import Base Graph Spec PartThy SubThy MSets SetsThy MGraph MaxFlow BFThy MDil CutThy DilThy
  MDT SeqThy PropDT MPMF LamThy ParThy SliceThy DTThy PDTThy PropPDT MWarm PropWarm MPMFR PMFRThy MWarmR FlowThy.

Lemma upd_arc_ends y b l a : nsrc (upd_arc y b l a) = nsrc a /\ ndst (upd_arc y b l a) = ndst a.
Proof. destruct a as [[| |u] [| |v] c]; cbn; auto. Qed.

Lemma upd_arc_twice y b l l' a : upd_arc y b l (upd_arc y b l' a) = upd_arc y b l a.
Proof. destruct a as [[| |u] [| |v] c]; cbn; auto. Qed.

Lemma upd_twice y b l l' G : upd y b l (upd y b l' G) = upd y b l G.
Proof. unfold upd. rewrite map_map. apply map_ext. intro a. apply upd_arc_twice. Qed.

Lemma upd_length y b l G : length (upd y b l G) = length G.
Proof. apply map_length. Qed.

Lemma excess_upd y b l G f u : excess (upd y b l G) f u == excess G f u.
Proof. apply excess_map. intro a. apply upd_arc_ends. Qed.

Lemma clamp_length N f : length f = length N -> length (clamp N f) = length N.
Proof. intro H. unfold clamp. rewrite map_length, combine_length. lia. Qed.

Lemma clamp_combine (h : narc -> narc) : forall (G : network) (f : flow),
  combine (map h G) (clamp (map h G) f) =
  map (fun p => (h (fst p), clamp1 (h (fst p)) (snd p))) (combine G f).
Proof.
  induction G as [|a G IH]; intros [|x f]; cbn; auto. f_equal. exact (IH f).
Qed.

(** What the flow maps satisfy: [f] is a flow of the network at [l], except for the capacity of the
    arc from source to sink, and uses no arc leaving [T]. *)
Definition finv (y : list (Q * dbl)) (G : network) (base : nat -> Q * Q) (ns : list nat) (l : Q) (T : cset)
  (f : flow) : Prop :=
  length f = length G /\
  (forall a x, In (a, x) (combine G f) ->
     0 <= x /\ (x <= ncap (upd_arc y base l a) \/ (nsrc a = NSrc /\ ndst a = NSnk))) /\
  (forall v, In v ns -> excess G f (NV v) == 0) /\
  (forall a x, In (a, x) (combine G f) -> side (mem T) (nsrc a) = true -> side (mem T) (ndst a) = false -> x == 0).

Lemma finv_upd y G base ns l l' T f : finv y (upd y base l' G) base ns l T f <-> finv y G base ns l T f.
Proof.
  unfold finv. unfold upd at 1 2 4. rewrite map_length, combine_map_l.
  assert (X : forall v, excess (upd y base l' G) f (NV v) == excess G f (NV v)) by (intro v; apply excess_upd).
  split; intros (A & B & C & D); (split; [exact A|]); (split; [|split]).
  - intros a x Ha. destruct (B (upd_arc y base l' a) x) as [B1 B2].
    { apply in_map_iff. exists (a, x). auto. }
    rewrite upd_arc_twice in B2. destruct (upd_arc_ends y base l' a) as [E1 E2]. rewrite E1, E2 in B2. auto.
  - intros v Hv. rewrite <- X. auto.
  - intros a x Ha S1 S2. destruct (upd_arc_ends y base l' a) as [E1 E2].
    apply (D (upd_arc y base l' a)); rewrite ?E1, ?E2; auto. apply in_map_iff. exists (a, x). auto.
  - intros a x Ha. apply in_map_iff in Ha. destruct Ha as ([a' x'] & E0 & Ha). cbn [fst snd] in E0.
    injection E0 as <- <-. destruct (upd_arc_ends y base l' a') as [E1 E2]. rewrite upd_arc_twice, E1, E2. auto.
  - intros v Hv. rewrite X. auto.
  - intros a x Ha S1 S2. apply in_map_iff in Ha. destruct Ha as ([a' x'] & E0 & Ha). cbn [fst snd] in E0.
    injection E0 as <- <-. destruct (upd_arc_ends y base l' a') as [E1 E2]. rewrite E1 in S1. rewrite E2 in S2. eauto.
Qed.

Lemma clamp1_le a x : 0 <= ncap a -> 0 <= x -> 0 <= clamp1 a x /\ clamp1 a x <= x.
Proof.
  intros H1 H2. unfold clamp1.
  assert (K : 0 <= (if Qltb (ncap a) x then ncap a else x) /\ (if Qltb (ncap a) x then ncap a else x) <= x).
  { destruct (Qltb (ncap a) x) eqn:E; [apply Qltb_true in E|]; lra. }
  destruct (nsrc a), (ndst a); auto; lra.
Qed.

Lemma clamp1_cap a x : nsrc a = NSrc \/ ndst a = NSnk -> clamp1 a x <= ncap a.
Proof.
  intro H. unfold clamp1.
  assert (K : (if Qltb (ncap a) x then ncap a else x) <= ncap a).
  { destruct (Qltb (ncap a) x) eqn:E; [lra|apply Qltb_false in E; lra]. }
  destruct H as [-> | ->]; auto. destruct (nsrc a); auto.
Qed.

Lemma clamp1_id a x : x <= ncap a -> clamp1 a x = x.
Proof.
  intro H. unfold clamp1. assert (K : (if Qltb (ncap a) x then ncap a else x) = x).
  { destruct (Qltb (ncap a) x) eqn:E; auto. apply Qltb_true in E. lra. }
  rewrite K. destruct (nsrc a), (ndst a); auto.
Qed.

Lemma clamp1_other a x : nsrc a <> NSrc -> ndst a <> NSnk -> clamp1 a x = x.
Proof. intros A B. unfold clamp1. destruct (nsrc a), (ndst a); congruence. Qed.

(** Raising the parameter widens the source arcs and narrows the sink arcs. *)
Lemma src_cap_mono y base l l' a : l <= l' -> nsrc a = NSrc -> ncap (upd_arc y base l a) <= ncap (upd_arc y base l' a).
Proof.
  intros H Ha. destruct a as [u v c]. cbn in Ha. subst u. destruct v as [| |i]; cbn; try lra.
  assert (K := ycap_anti (yat y i) l l' H).
  destruct (Qltb (ycap (yat y i) l) 0) eqn:E1; destruct (Qltb (ycap (yat y i) l') 0) eqn:E2;
    try apply Qltb_true in E1; try apply Qltb_true in E2; try apply Qltb_false in E1; try apply Qltb_false in E2; lra.
Qed.
Lemma snk_cap_mono y base l l' a : l <= l' -> ndst a = NSnk -> ncap (upd_arc y base l' a) <= ncap (upd_arc y base l a).
Proof.
  intros H Ha. destruct a as [u v c]. cbn in Ha. subst v. destruct u as [| |i]; cbn; try lra.
  assert (K := ycap_anti (yat y i) l l' H).
  destruct (qmax_spec 0 (ycap (yat y i) l)) as [[K1 K2]|[K1 K2]];
  destruct (qmax_spec 0 (ycap (yat y i) l')) as [[K3 K4]|[K3 K4]]; rewrite K2, K4; lra.
Qed.
Lemma other_cap y base l l' a : nsrc a <> NSrc -> ndst a <> NSnk -> upd_arc y base l a = upd_arc y base l' a.
Proof. intros A B. destruct a as [[| |u] [| |v] c]; cbn in *; congruence. Qed.

Lemma clamp_caps y G base l l' f :
  (forall a, In a (upd y base l' G) -> 0 <= ncap a) ->
  (forall a x, In (a, x) (combine G f) ->
     0 <= x /\ (x <= ncap (upd_arc y base l a) \/ (nsrc a = NSrc /\ ndst a = NSnk))) ->
  forall a x, In (a, x) (combine (upd y base l' G) (clamp (upd y base l' G) f)) -> 0 <= x /\ x <= ncap a.
Proof.
  intros Hn Hc a x Ha. unfold upd in Ha. rewrite clamp_combine in Ha. apply in_map_iff in Ha.
  destruct Ha as ([b z] & E & Hb). cbn [fst snd] in E. injection E as <- <-.
  destruct (Hc b z Hb) as [Z0 Z1]. assert (N0 : 0 <= ncap (upd_arc y base l' b)).
  { apply Hn. apply in_map. apply in_combine_l in Hb. auto. }
  destruct (clamp1_le (upd_arc y base l' b) z N0 Z0) as [C1 C2]. split; auto.
  destruct (upd_arc_ends y base l' b) as [E1 E2].
  destruct (nnode_eqb (nsrc b) NSrc) eqn:Es; [apply nnode_eqb_true in Es; apply clamp1_cap; left; congruence|].
  destruct (nnode_eqb (ndst b) NSnk) eqn:Ed; [apply nnode_eqb_true in Ed; apply clamp1_cap; right; congruence|].
  apply neqb_false in Es. apply neqb_false in Ed.
  rewrite (other_cap y base l' l b Es Ed) in *. destruct Z1 as [Z1|[Z1 _]]; [lra|contradiction].
Qed.

Lemma clamp_excess y G base l' f u :
  excess (upd y base l' G) (clamp (upd y base l' G) f) u ==
  qsum (fun p => (if nnode_eqb (ndst (fst p)) u then clamp1 (upd_arc y base l' (fst p)) (snd p) else 0) -
                 (if nnode_eqb (nsrc (fst p)) u then clamp1 (upd_arc y base l' (fst p)) (snd p) else 0)) (combine G f).
Proof.
  unfold excess, upd. rewrite clamp_combine, qsum_map. apply qsum_ext. intros [a x] _. cbn [fst snd].
  destruct (upd_arc_ends y base l' a) as [-> ->]. reflexivity.
Qed.

(** ** Starting the workers *)
Lemma init_ok_snk nodes N f : init_ok nodes N f = true -> 0 <= excess N f NSnk.
Proof.
  intro H. unfold init_ok in H. cbn [forallb] in H. apply andb_true_iff in H. destruct H as [H _].
  apply negb_true_iff in H. apply Qltb_false in H. auto.
Qed.

(** The flow of a smaller parameter is accepted at the inner nodes. *)
Lemma left_nodes y G base ns l l' T f v : l <= l' ->
  (forall a, In a (upd y base l' G) -> 0 <= ncap a) ->
  finv y G base ns l T f -> In v ns ->
  0 <= excess (upd y base l' G) (clamp (upd y base l' G) f) (NV v).
Proof.
  intros Hl Hn (F1 & F2 & F3 & F4) Hv. rewrite clamp_excess.
  rewrite <- (F3 v Hv). unfold excess. apply qsum_le. intros [a x] Ha. cbn [fst snd].
  destruct (F2 a x Ha) as [Z0 Z1].
  assert (N0 : 0 <= ncap (upd_arc y base l' a)) by (apply Hn; apply in_map; apply in_combine_l in Ha; auto).
  destruct (clamp1_le (upd_arc y base l' a) x N0 Z0) as [C1 C2].
  assert (D : nnode_eqb (ndst a) (NV v) = true -> clamp1 (upd_arc y base l' a) x == x).
  { intro E. apply nnode_eqb_true in E. destruct (upd_arc_ends y base l' a) as [E1 E2].
    destruct (nnode_eqb (nsrc a) NSrc) eqn:Es.
    - apply nnode_eqb_true in Es. rewrite clamp1_id; [reflexivity|].
      assert (M := src_cap_mono y base l l' a Hl Es). destruct Z1 as [Z1|[_ Z1]]; [lra|congruence].
    - apply neqb_false in Es. rewrite clamp1_other; [reflexivity|congruence|congruence]. }
  destruct (nnode_eqb (ndst a) (NV v)) eqn:E1; destruct (nnode_eqb (nsrc a) (NV v)) eqn:E2; try lra;
    specialize (D eq_refl); lra.
Qed.

Lemma left_preflow y G base ns l l' T f : l <= l' ->
  (forall a, In a (upd y base l' G) -> 0 <= ncap a) ->
  finv y G base ns l T f ->
  0 <= excess (upd y base l' G) (clamp (upd y base l' G) f) NSnk ->
  preflow ns (upd y base l' G) (clamp (upd y base l' G) f).
Proof.
  intros Hl Hn F I. assert (F0 := F). destruct F0 as (F1 & F2 & F3 & F4). split; [|split].
  - apply clamp_length. rewrite upd_length. auto.
  - apply (clamp_caps y G base l l' f Hn F2).
  - intros u [->|(v & Hv & ->)]; [exact I|]. eapply left_nodes; eauto.
Qed.

(** The flow of a larger parameter is accepted at the inner nodes of the reversed network. *)
Lemma right_nodes y G base ns l l' T f v : l' <= l ->
  (forall a, In a (upd y base l' G) -> 0 <= ncap a) ->
  finv y G base ns l T f -> In v ns ->
  0 <= excess (rnet (upd y base l' G)) (clamp (upd y base l' G) f) (NV v).
Proof.
  intros Hl Hn (F1 & F2 & F3 & F4) Hv.
  assert (R := excess_rnet (upd y base l' G) (clamp (upd y base l' G) f) (NV v)). cbn [rnode] in R. rewrite R. clear R.
  rewrite clamp_excess.
  assert (K : qsum (fun p => (if nnode_eqb (ndst (fst p)) (NV v) then clamp1 (upd_arc y base l' (fst p)) (snd p) else 0) -
                 (if nnode_eqb (nsrc (fst p)) (NV v) then clamp1 (upd_arc y base l' (fst p)) (snd p) else 0)) (combine G f)
              <= excess G f (NV v)).
  { unfold excess. apply qsum_le. intros [a x] Ha. cbn [fst snd].
    destruct (F2 a x Ha) as [Z0 Z1].
    assert (N0 : 0 <= ncap (upd_arc y base l' a)) by (apply Hn; apply in_map; apply in_combine_l in Ha; auto).
    destruct (clamp1_le (upd_arc y base l' a) x N0 Z0) as [C1 C2].
    assert (D : nnode_eqb (nsrc a) (NV v) = true -> clamp1 (upd_arc y base l' a) x == x).
    { intro E. apply nnode_eqb_true in E. destruct (upd_arc_ends y base l' a) as [E1 E2].
      destruct (nnode_eqb (ndst a) NSnk) eqn:Es.
      - apply nnode_eqb_true in Es. rewrite clamp1_id; [reflexivity|].
        assert (M := snk_cap_mono y base l' l a Hl Es). destruct Z1 as [Z1|[Z1 _]]; [lra|congruence].
      - apply neqb_false in Es. rewrite clamp1_other; [reflexivity|congruence|congruence]. }
    destruct (nnode_eqb (ndst a) (NV v)) eqn:E1; destruct (nnode_eqb (nsrc a) (NV v)) eqn:E2; try lra;
      specialize (D eq_refl); lra. }
  rewrite (F3 v Hv) in K. lra.
Qed.

Lemma right_preflow y G base ns l l' T f : l' <= l ->
  (forall a, In a (upd y base l' G) -> 0 <= ncap a) ->
  finv y G base ns l T f ->
  0 <= excess (rnet (upd y base l' G)) (clamp (upd y base l' G) f) NSnk ->
  preflow ns (rnet (upd y base l' G)) (clamp (upd y base l' G) f).
Proof.
  intros Hl Hn F I. assert (F0 := F). destruct F0 as (F1 & F2 & F3 & F4). split; [|split].
  - unfold rnet. rewrite map_length. apply clamp_length. rewrite upd_length. auto.
  - intros a x Ha. rewrite combine_rnet in Ha. apply in_map_iff in Ha. destruct Ha as ([b z] & E & Hb).
    cbn [fst snd] in E. injection E as <- <-. cbn [ncap]. apply (clamp_caps y G base l l' f Hn F2 b z Hb).
  - intros u [->|(v & Hv & ->)]; [exact I|]. eapply right_nodes; eauto.
Qed.

(** ** What the workers return *)
Lemma flow_finv y G base ns l T f v : net_ok ns (upd y base l G) ->
  flow_ok ns (upd y base l G) f v -> v == cut (upd y base l G) (mem T) -> finv y G base ns l T f.
Proof.
  intros Hok HF Hv. assert (SL := slack ns _ f v (mem T) Hok HF Hv). destruct HF as (F1 & F2 & F3 & F4).
  rewrite upd_length in F1.
  assert (IN : forall a x, In (a, x) (combine G f) -> In (upd_arc y base l a, x) (combine (upd y base l G) f)).
  { intros a x Ha. unfold upd. rewrite combine_map_l. apply in_map_iff. exists (a, x). auto. }
  split; [exact F1|]. split; [|split].
  - intros a x Ha. destruct (F2 _ _ (IN a x Ha)). split; auto.
  - intros u Hu. rewrite <- (excess_upd y base l). auto.
  - intros a x Ha S1 S2. destruct (upd_arc_ends y base l a) as [E1 E2].
    apply (SL _ _ (IN a x Ha)); rewrite ?E1, ?E2; auto.
Qed.

Lemma rflow_finv y G base ns l T f v : net_ok ns (upd y base l G) ->
  flow_ok ns (rnet (upd y base l G)) f v -> v == cut (upd y base l G) (mem T) -> finv y G base ns l T f.
Proof.
  intros Hok HF Hv. assert (SL := slack_rev ns _ f v (mem T) Hok HF Hv). destruct HF as (F1 & F2 & F3 & F4).
  unfold rnet in F1. rewrite map_length, upd_length in F1.
  assert (IN : forall a x, In (a, x) (combine G f) -> In (upd_arc y base l a, x) (combine (upd y base l G) f)).
  { intros a x Ha. unfold upd. rewrite combine_map_l. apply in_map_iff. exists (a, x). auto. }
  split; [exact F1|]. split; [|split].
  - intros a x Ha. specialize (IN a x Ha).
    destruct (F2 (mkNarc (rnode (ndst (upd_arc y base l a))) (rnode (nsrc (upd_arc y base l a))) (ncap (upd_arc y base l a))) x) as [A B].
    { rewrite combine_rnet. apply in_map_iff. exists (upd_arc y base l a, x). auto. }
    cbn [ncap] in B. auto.
  - intros u Hu. rewrite <- (excess_upd y base l).
    assert (R := excess_rnet (upd y base l G) f (NV u)). cbn [rnode] in R. rewrite (F3 u Hu) in R. lra.
  - intros a x Ha S1 S2. destruct (upd_arc_ends y base l a) as [E1 E2].
    apply (SL _ _ (IN a x Ha)); rewrite ?E1, ?E2; auto.
Qed.

(** ** Contraction *)
Lemma last_val {A} (p : A -> bool) (v : Q) : forall (L : list (A * Q)) r,
  (forall q, In q L -> p (fst q) = true -> snd q = v) ->
  fold_left (fun r q => if p (fst q) then snd q else r) L r = if existsb (fun q => p (fst q)) L then v else r.
Proof.
  induction L as [|q L IH]; intros r H; cbn [fold_left existsb]; auto.
  rewrite IH by (intros; apply H; auto; right; auto).
  destruct (p (fst q)) eqn:E; cbn [orb]; auto. rewrite (H q (or_introl eq_refl) E). destruct (existsb _ L); auto.
Qed.

Lemma NoDup_map_eq {A B} (h : A -> B) l q q' : NoDup (map h l) -> In q l -> In q' l -> h q = h q' -> q = q'.
Proof.
  induction l as [|x l IH]; cbn; [tauto|]. intros H. inversion H; subst. intros [->|H4] [->|H5] K; auto.
  - exfalso. apply H2. rewrite K. apply in_map; auto.
  - exfalso. apply H2. rewrite <- K. apply in_map; auto.
Qed.

Lemma in_sum y b l G i (P : nnode -> bool) : P NSrc = true -> P NSnk = false ->
  qsum (fun a => if P (nsrc a) && nnode_eqb (ndst a) (NV i) then ncap (upd_arc y b l a) else 0) G <=
  qsum (fun k => if (k =? i)%nat then (if Qltb (ycap (yat y k) l) 0 then - ycap (yat y k) l else 0) + fst (b k) else 0) (sT G) +
  qsum (fun a => if P (nsrc a) && nnode_eqb (ndst a) (NV i) then ncap a else 0) (inn G).
Proof.
  intros H1 H2. induction G as [|[u v c] G IH]; [unfold sT, inn; simpl; lra|].
  unfold sT, inn in *. destruct u as [| |u], v as [| |v];
    cbn [flat_map filter qsum nsrc ndst ncap upd_arc nnode_eqb app andb] in *; rewrite ?H1, ?H2, ?andb_false_r; cbn [andb];
    try lra.
Qed.

Lemma out_sum y b l G i (P : nnode -> bool) : P NSrc = false -> P NSnk = true ->
  qsum (fun a => if nnode_eqb (nsrc a) (NV i) && P (ndst a) then ncap (upd_arc y b l a) else 0) G <=
  qsum (fun k => if (k =? i)%nat then snd (b k) + qmax 0 (ycap (yat y k) l) else 0) (kT G) +
  qsum (fun a => if nnode_eqb (nsrc a) (NV i) && P (ndst a) then ncap a else 0) (inn G).
Proof.
  intros H1 H2. induction G as [|[u v c] G IH]; [unfold kT, inn; simpl; lra|].
  unfold kT, inn in *. destruct u as [| |u], v as [| |v];
    cbn [flat_map filter qsum nsrc ndst ncap upd_arc nnode_eqb app andb] in *; rewrite ?H1, ?H2, ?andb_false_r, ?andb_true_r; cbn [andb];
    try lra.
Qed.

(** Arcs that contraction has to keep: their capacity exceeds the tolerance. *)
Definition big (eps : Q) (G : network) : Prop :=
  forall a, In a G -> nsrc a <> NSrc -> ndst a <> NSnk -> ~ (nsrc a = NSnk /\ ndst a = NSrc) -> eps < ncap a.

Lemma big_upd eps y b l G : big eps G -> big eps (upd y b l G).
Proof.
  intros H a Ha A B C. unfold upd in Ha. apply in_map_iff in Ha. destruct Ha as (a0 & <- & Ha).
  destruct (upd_arc_ends y b l a0) as [E1 E2]. rewrite E1, E2 in *.
  assert (K := H a0 Ha A B C). destruct a0 as [[| |u] [| |v] c]; cbn in *; auto; congruence.
Qed.
