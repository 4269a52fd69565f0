(** * ElevThy: the heap discipline of PMF_R (model: MElev). *)
From Verif Require Import Base Graph MSets MGraph MaxFlow MDil MDT MPMF MPMFR MElev.

Section Heap.
Local Open Scope nat_scope.
Variable inn : bool.

(** Addresses are positive, pairwise different and below the next fresh one. *)
Definition hwf (h : heap) : Prop :=
  NoDup (map baddr (hlive h)) /\ 0 < hnext h /\ (forall b, In b (hlive h) -> 0 < baddr b < hnext h).

(** A worker is started with an elevator of its own graph, or at least of an older one. *)
Definition okst (p : nat * nat) : Prop := fst p <= snd p /\ (inn = true -> fst p = snd p).

(** [h'] is [h] with the blocks [X] on top and no new misuse. *)
Definition ext (X : list block) (h h' : heap) : Prop :=
  hlive h' = X ++ hlive h /\ hnext h <= hnext h' /\ hbad h' = hbad h /\ NoDup (map baddr X) /\
  (forall b, In b X -> hnext h <= baddr b < hnext h') /\
  (exists Z, hstarts h' = Z ++ hstarts h /\ Forall okst Z).

Lemma live_in h p : live h p = true <-> exists b, In b (hlive h) /\ baddr b = p.
Proof.
  unfold live. rewrite existsb_exists. split; intros (b & I & K); exists b; split; auto; now apply Nat.eqb_eq.
Qed.

Lemma live_pos h p : hwf h -> live h p = true -> 0 < p < hnext h.
Proof. intros (_ & _ & B) L. apply live_in in L. destruct L as (b & I & <-). auto. Qed.

Lemma ext_refl h : ext [] h h.
Proof. repeat split; auto; try constructor; try easy. exists []. auto. Qed.

Lemma ext_wf X h h' : hwf h -> ext X h h' -> hwf h'.
Proof.
  intros (N & P & B) (L & Nx & _ & NX & BX & _). split; [|split; [lia|]].
  - rewrite L, map_app. apply NoDup_app_intro; auto. intros x H K. apply in_map_iff in H, K.
    destruct H as (b & <- & H), K as (b' & E' & K). apply BX in H. apply B in K. lia.
  - intros b I. rewrite L in I. apply in_app_iff in I. destruct I as [I|I]; [apply BX in I|apply B in I]; lia.
Qed.

Lemma ext_trans X Y h h1 h2 : ext X h h1 -> ext Y h1 h2 -> ext (Y ++ X) h h2.
Proof.
  intros (L & N & Bd & D & B & Z & SZ & FZ) (L' & N' & Bd' & D' & B' & Z' & SZ' & FZ').
  repeat split.
  - now rewrite L', L, app_assoc.
  - lia.
  - congruence.
  - rewrite map_app. apply NoDup_app_intro; auto. intros x H K. apply in_map_iff in H, K.
    destruct H as (b & <- & H), K as (b' & E' & K). apply B' in H. apply B in K. lia.
  - apply in_app_iff in H. destruct H as [H|H]; [apply B' in H|apply B in H]; lia.
  - apply in_app_iff in H. destruct H as [H|H]; [apply B' in H|apply B in H]; lia.
  - exists (Z' ++ Z). split; [now rewrite SZ', SZ, app_assoc|apply Forall_app; auto].
Qed.

Lemma ext_live X h h' p : ext X h h' -> live h p = true -> live h' p = true.
Proof.
  intros (L & _) H. apply live_in in H. destruct H as (b & I & K). apply live_in. exists b. rewrite L.
  split; auto. apply in_or_app. auto.
Qed.

Lemma ext_new X h h' b : ext X h h' -> In b X -> live h' (baddr b) = true.
Proof. intros (L & _) I. apply live_in. exists b. rewrite L. split; auto. apply in_or_app. auto. Qed.

Lemma find_app {A} (f : A -> bool) l1 l2 : find f (l1 ++ l2) = match find f l1 with Some x => Some x | None => find f l2 end.
Proof. induction l1 as [|a l1 IH]; simpl; auto. destruct (f a); auto. Qed.

Lemma ext_graph X h h' p : hwf h -> ext X h h' -> live h p = true -> graph_of p h' = graph_of p h.
Proof.
  intros W (L & _ & _ & _ & B & _) H. unfold graph_of. rewrite L, find_app.
  destruct (find (fun b => baddr b =? p) X) as [b|] eqn:F; auto.
  apply find_some in F. destruct F as [F1 F2]. apply Nat.eqb_eq in F2. apply B in F1.
  apply (live_pos h p W) in H. lia.
Qed.

Lemma graph_in h b : hwf h -> In b (hlive h) -> graph_of (baddr b) h = bgraph b.
Proof.
  intros (N & _) I. unfold graph_of. induction (hlive h) as [|a l IH]; simpl in *; [easy|].
  inversion N as [|? ? N1 N2]; subst. destruct I as [->|I].
  - now rewrite Nat.eqb_refl.
  - destruct (baddr a =? baddr b) eqn:E; auto. apply Nat.eqb_eq in E. exfalso. apply N1. rewrite E.
    apply in_map; auto.
Qed.

Lemma ext_new_graph X h h' b : hwf h -> ext X h h' -> In b X -> graph_of (baddr b) h' = bgraph b.
Proof.
  intros W Ex I. apply graph_in; [eapply ext_wf; eauto|]. destruct Ex as (L & _). rewrite L. apply in_or_app. auto.
Qed.

Lemma uses_id ps h : (forall p, In p ps -> live h p = true) -> uses ps h = h.
Proof.
  revert h. induction ps as [|p t IH]; intros h H; simpl; auto. unfold use at 1. rewrite (H p) by (now left).
  apply IH. intros q I. apply H. now right.
Qed.

Lemma alloc_ext k g h : hwf h -> ext [mkBlk (hnext h) k g] h (snd (alloc k g h)).
Proof.
  intros (N & P & B). repeat split; simpl; auto.
  - constructor; [easy|constructor].
  - destruct H as [<-|[]]; simpl; lia.
  - destruct H as [<-|[]]; simpl; lia.
  - exists []. auto.
Qed.

Lemma filter_none {A} (f : A -> bool) l : (forall x, In x l -> f x = true) -> filter f l = l.
Proof. induction l as [|a l IH]; simpl; intro H; auto. rewrite H by auto. rewrite IH; auto. Qed.

Lemma nodup_map_filter {A B} (m : A -> B) f l : NoDup (map m l) -> NoDup (map m (filter f l)).
Proof.
  induction l as [|a l IH]; simpl; intro N; [constructor|]. inversion N as [|? ? N1 N2]; subst.
  destruct (f a); simpl; auto. constructor; auto. intro I. apply N1. apply in_map_iff in I.
  destruct I as (b & <- & I). apply filter_In in I. apply in_map. tauto.
Qed.

Lemma dels_ext ps : forall X h h', hwf h -> ext X h h' -> NoDup ps -> incl ps (map baddr X) ->
  ext (filter (fun b => negb (mem ps (baddr b))) X) h (dels ps h').
Proof.
  induction ps as [|p t IH]; intros X h h' W Ex N I; simpl.
  - rewrite filter_none; auto.
  - inversion N as [|? ? N1 N2]; subst.
    assert (Ip : In p (map baddr X)) by (apply I; now left).
    apply in_map_iff in Ip. destruct Ip as (bp & Ep & Ip).
    assert (Lv : live h' p = true) by (rewrite <- Ep; eapply ext_new; eauto).
    unfold del. rewrite Lv.
    assert (Ex' : ext (filter (fun b => negb (baddr b =? p)) X) h
              (mkHeap (hnext h') (filter (fun b => negb (baddr b =? p)) (hlive h')) (hbad h') (hstarts h'))).
    { destruct Ex as (L & Nx & Bd & D & B & ZZ). repeat split; simpl; auto.
      - rewrite L, filter_app. f_equal. apply filter_none. intros b Ib. apply negb_true_iff, Nat.eqb_neq.
        destruct W as (_ & _ & WB). apply WB in Ib. apply B in Ip. lia.
      - apply nodup_map_filter; auto.
      - apply filter_In in H. apply B. tauto.
      - apply filter_In in H. apply B. tauto. }
    apply IH in Ex'; auto.
    + assert (Q : filter (fun b => negb ((baddr b =? p) || mem t (baddr b))) X =
                  filter (fun b => negb (mem t (baddr b))) (filter (fun b => negb (baddr b =? p)) X)).
      { clear. induction X as [|b X IH]; [reflexivity|]. cbn [filter].
        destruct (baddr b =? p); simpl; auto. destruct (negb (mem t (baddr b))); simpl; [f_equal|]; auto. }
      rewrite Q. exact Ex'.
    + intros q Iq. assert (Iq' : In q (map baddr X)) by (apply I; now right).
      apply in_map_iff in Iq'. destruct Iq' as (b & Eb & Ib). apply in_map_iff. exists b. split; auto.
      apply filter_In. split; auto. apply negb_true_iff, Nat.eqb_neq. intro C. apply N1. congruence.
Qed.

Lemma dels_app ps qs h : dels (ps ++ qs) h = dels qs (dels ps h).
Proof. revert h. induction ps as [|p t IH]; intro h; simpl; auto. Qed.

(** The elevator at [e] may be used by a worker on the graph [d]. *)
Definition eok (h : heap) (d e : nat) : Prop :=
  live h e = true /\ live h (graph_of e h) = true /\
  live h (base_graph (graph_of e h) h) = true /\ base_graph (graph_of e h) h <= d /\
  (inn = true -> base_graph (graph_of e h) h = d).
Definition eopt (h : heap) (d : nat) (e : option nat) : Prop := forall x, e = Some x -> eok h d x.

Lemma ext_base X h h' p : hwf h -> ext X h h' -> live h p = true -> base_graph p h' = base_graph p h.
Proof. intros W E L. unfold base_graph. now rewrite (ext_graph X h h' p W E L). Qed.

Lemma ext_eok X h h' d e : hwf h -> ext X h h' -> eok h d e -> eok h' d e.
Proof.
  intros W Ex (A & B & C & D & F). unfold eok.
  rewrite (ext_graph X h h' e W Ex A), (ext_base X h h' _ W Ex B). repeat split; auto; eapply ext_live; eauto.
Qed.
Lemma ext_eopt X h h' d e : hwf h -> ext X h h' -> eopt h d e -> eopt h' d e.
Proof. intros W Ex H x K. eapply ext_eok; eauto. Qed.

Lemma work_ok o g ps ele h d : hwf h -> (forall p, In p ps -> live h p = true) -> live h g = true ->
  base_graph g h = d -> live h d = true -> eopt h d ele ->
  exists X, ext X h (snd (work o g ps ele h)) /\
    (forall e, fst (work o g ps ele h) = Some e -> e = hnext h /\ (exists k, X = [mkBlk e KEle k]) /\
                                                    eok (snd (work o g ps ele h)) d e /\
       (graph_of e (snd (work o g ps ele h)) = g \/
        exists e0, ele = Some e0 /\ graph_of e (snd (work o g ps ele h)) = graph_of e0 h)) /\
    (fst (work o g ps ele h) = None -> X = []).
Proof.
  intros W Hp Lg Bg Ld He. unfold work. rewrite (uses_id ps h Hp). destruct ele as [e|].
  - destruct (He e eq_refl) as (A & B & C & D & F).
    rewrite (uses_id [e; graph_of e h; base_graph (graph_of e h) h] h)
      by (intros p [<-|[<-|[<-|[]]]]; auto).
    destruct (wset o); cbv zeta; cbn [fst snd].
    + set (h' := start (base_graph (graph_of e h) h) (base_graph g h) (snd (alloc KEle (graph_of e h) h))).
      assert (Ex : ext [mkBlk (hnext h) KEle (graph_of e h)] h h').
      { destruct (alloc_ext KEle (graph_of e h) h W) as (L1 & L2 & L3 & L4 & L5 & Z & SZ & FZ).
        repeat split; auto; try (now apply L5).
        exists ((base_graph (graph_of e h) h, base_graph g h) :: Z). split; [simpl; simpl in SZ; now rewrite <- SZ|].
        constructor; auto. unfold okst. simpl. rewrite Bg. auto. }
      exists [mkBlk (hnext h) KEle (graph_of e h)]. split; [exact Ex|]. split; [|discriminate].
      intros e' K. injection K as <-. split; auto. split; [eexists; reflexivity|].
      assert (Gn := ext_new_graph _ _ _ _ W Ex (or_introl eq_refl)). cbn [baddr bgraph] in Gn.
      change (fst (alloc KEle (graph_of e h) h)) with (hnext h). split; [|right; exists e; auto].
      unfold eok. rewrite Gn. rewrite (ext_base _ _ _ _ W Ex B). repeat split; auto.
      * apply (ext_new _ _ _ _ Ex (or_introl eq_refl)).
      * eapply ext_live; eauto.
      * eapply ext_live; eauto.
    + exists []. split; [apply ext_refl|]. split; [discriminate|auto].
  - destruct (wset o); cbv zeta; cbn [fst snd].
    + assert (Ex := alloc_ext KEle g h W).
      exists [mkBlk (hnext h) KEle g]. split; [exact Ex|]. split; [|discriminate].
      intros e' K. injection K as <-. split; auto. split; [eexists; reflexivity|].
      assert (Gn := ext_new_graph _ _ _ _ W Ex (or_introl eq_refl)). cbn [baddr bgraph] in Gn.
      split; [|left; exact Gn]. unfold eok.
      rewrite Gn. rewrite (ext_base _ _ _ _ W Ex Lg), Bg. repeat split; auto.
      * apply (ext_new _ _ _ _ Ex (or_introl eq_refl)).
      * eapply ext_live; eauto.
      * eapply ext_live; eauto.
    + exists []. split; [apply ext_refl|]. split; [discriminate|auto].
Qed.

(** The objects of a call are live; the graph is a graph. *)
Definition ook (h : heap) (o : objs) : Prop :=
  (forall p, In p (olist o) -> live h p = true) /\ graph_of (odig o) h = 0.

Lemma ext_ook X h h' o : hwf h -> ext X h h' -> ook h o -> ook h' o.
Proof.
  intros W Ex (A & B). split; [intros p I; eapply ext_live; eauto|].
  rewrite (ext_graph X h h' _ W Ex); auto. apply A. now left.
Qed.

Definition pclean (ct : bool) (o : objs) : list nat :=
  if ct then [obase o; ofl o; ofr o; ocap o; odig o] else [].

Lemma prepare_ok ct o h : hwf h -> ook h o ->
  exists X, ext X h (snd (prepare ct o h)) /\ ook (snd (prepare ct o h)) (fst (prepare ct o h)) /\
    odig o <= odig (fst (prepare ct o h)) /\
    (ct = false -> fst (prepare ct o h) = o) /\
    (forall b, In b X -> bkind b <> KStack /\ In (baddr b) (pclean ct (fst (prepare ct o h)))) /\
    incl (pclean ct (fst (prepare ct o h))) (map baddr X) /\ NoDup (pclean ct (fst (prepare ct o h))).
Proof.
  intros W O. destruct ct.
  2:{ exists []. repeat split; simpl; try apply O; auto; try easy; try constructor. exists []; auto. }
  unfold prepare. cbv zeta.
  set (d := alloc KDig 0 h). set (c := alloc KCap (fst d) (snd d)).
  assert (E1 : ext _ h (snd d)) by (apply alloc_ext; auto).
  assert (W1 : hwf (snd d)) by (eapply ext_wf; eauto).
  assert (E2 : ext _ (snd d) (snd c)) by (apply alloc_ext; auto).
  assert (W2 : hwf (snd c)) by (eapply ext_wf; eauto).
  assert (E12 := ext_trans _ _ _ _ _ E1 E2).
  assert (Ol : forall p, In p (olist o) -> live h p = true) by apply O.
  rewrite (uses_id [odig o; ocap o; fst d; fst c] (snd c)).
  2:{ intros p [<-|[<-|[<-|[<-|[]]]]].
      - eapply ext_live; [exact E12|]. apply Ol. simpl; auto 8.
      - eapply ext_live; [exact E12|]. apply Ol. simpl; auto 8.
      - apply (ext_new _ _ _ (mkBlk (hnext h) KDig 0) E12). simpl; auto.
      - apply (ext_new _ _ _ (mkBlk (hnext (snd d)) KCap (fst d)) E12). simpl; auto. }
  set (b := alloc KBase 0 (snd c)). set (l := alloc KFlow (fst d) (snd b)).
  assert (E3 : ext _ (snd c) (snd b)) by (apply alloc_ext; auto).
  assert (W3 : hwf (snd b)) by (eapply ext_wf; eauto).
  assert (E4 : ext _ (snd b) (snd l)) by (apply alloc_ext; auto).
  assert (W4 : hwf (snd l)) by (eapply ext_wf; eauto).
  assert (E13 := ext_trans _ _ _ _ _ E12 E3). assert (E14 := ext_trans _ _ _ _ _ E13 E4).
  rewrite (uses_id [ofl o] (snd l)).
  2:{ intros p [<-|[]]. eapply ext_live; [exact E14|]. apply Ol. simpl; auto 8. }
  set (r := alloc KFlow (fst d) (snd l)).
  assert (E5 : ext _ (snd l) (snd r)) by (apply alloc_ext; auto).
  assert (E15 := ext_trans _ _ _ _ _ E14 E5).
  rewrite (uses_id [ofr o] (snd r)).
  2:{ intros p [<-|[]]. eapply ext_live; [exact E15|]. apply Ol. simpl; auto 8. }
  cbn [fst snd odig ocap obase ofl ofr].
  exists ([mkBlk (hnext (snd l)) KFlow (fst d)] ++ [mkBlk (hnext (snd b)) KFlow (fst d)] ++
    [mkBlk (hnext (snd c)) KBase 0] ++ [mkBlk (hnext (snd d)) KCap (fst d)] ++ [mkBlk (hnext h) KDig 0]).
  split; [exact E15|]. split; [|split; [|split; [discriminate|split; [|split]]]].
  - split.
    + intros p I. simpl in I.
      destruct I as [<-|[<-|[<-|[<-|[<-|[]]]]]].
      * apply (ext_new _ _ _ (mkBlk (hnext h) KDig 0) E15). simpl; auto 8.
      * apply (ext_new _ _ _ (mkBlk (hnext (snd d)) KCap (fst d)) E15). simpl; auto 8.
      * apply (ext_new _ _ _ (mkBlk (hnext (snd c)) KBase 0) E15). simpl; auto 8.
      * apply (ext_new _ _ _ (mkBlk (hnext (snd b)) KFlow (fst d)) E15). simpl; auto 8.
      * apply (ext_new _ _ _ (mkBlk (hnext (snd l)) KFlow (fst d)) E15). simpl; auto 8.
    + apply (ext_new_graph _ _ _ (mkBlk (hnext h) KDig 0) W E15). simpl; auto 8.
  - simpl. assert (0 < odig o < hnext h) by (apply live_pos; auto; apply Ol; simpl; auto). lia.
  - intros x I. simpl in I. destruct I as [<-|[<-|[<-|[<-|[<-|[]]]]]]; simpl; split; try discriminate; auto 8.
  - intros x I. simpl in *. intuition auto.
  - simpl. repeat constructor; simpl; intuition lia.
Qed.

Lemma del_keep p q h : p <> q -> live (del q h) p = live h p /\ graph_of p (del q h) = graph_of p h.
Proof.
  intro N. unfold del. destruct (live h q); [|split; reflexivity]. unfold live, graph_of. simpl.
  induction (hlive h) as [|b l [IH1 IH2]]; simpl; auto.
  destruct (baddr b =? q) eqn:Eq; simpl.
  - apply Nat.eqb_eq in Eq. assert (Ep : baddr b =? p = false) by (apply Nat.eqb_neq; congruence).
    rewrite Ep. auto.
  - rewrite IH1. destruct (baddr b =? p); auto.
Qed.

Lemma dels_keep p ps : forall h, ~ In p ps -> live (dels ps h) p = live h p /\ graph_of p (dels ps h) = graph_of p h.
Proof.
  induction ps as [|q t IH]; intros h N; simpl; auto. destruct (IH (del q h)) as [A B]; [intro; apply N; now right|].
  rewrite A, B. apply del_keep. intro; apply N; left; auto.
Qed.

Lemma dels_eok ps h d e : eok h d e -> ~ In e ps -> ~ In (graph_of e h) ps ->
  ~ In (base_graph (graph_of e h) h) ps -> eok (dels ps h) d e.
Proof.
  intros (A & B & C & D & F) N1 N2 N3. unfold eok, base_graph in *.
  destruct (dels_keep e ps h N1) as [E1 E2]. rewrite E1, E2.
  destruct (dels_keep _ ps h N2) as [E3 E4]. rewrite E3, E4. destruct (dels_keep _ ps h N3) as [E5 E6].
  rewrite E5. auto.
Qed.

Definition optl (e : option nat) : list nat := match e with Some x => [x] | None => [] end.
(** What the end of a call deletes. *)
Definition cleanup (ct : bool) (w : crew) : list nat :=
  optl (kel w) ++ optl (ker w) ++ [krev w] ++ pclean ct (kobjs w) ++ [knr w; knl w].

Lemma eok_weaken h d d' e : eok h d e -> d <= d' -> (inn = true -> d = d') -> eok h d' e.
Proof. intros (A & B & C & D & F) L I. repeat split; auto; [lia|]. intro K. rewrite F by auto. auto. Qed.

Lemma launch_ok (ct : bool) ends o el er h : hwf h -> ook h o -> eopt h (odig o) el -> eopt h (odig o) er ->
  let li := if ct then None else el in
  let ri := if ct then None else er in
  let k := launch ct ends o li ri h in
  let w := fst k in
  let h3 := dels [ktl w; ktr w] (snd k) in
  exists X, ext X h (snd k) /\ ook h3 (kobjs w) /\ odig o <= odig (kobjs w) /\ (ct = false -> kobjs w = o) /\
    (forall b, In b X -> (bkind b = KStack -> In (baddr b) [knr w; knl w]) /\
                         In (baddr b) ([ktl w; ktr w] ++ cleanup ct w)) /\
    incl ([ktl w; ktr w] ++ cleanup ct w) (map baddr X) /\ NoDup ([ktl w; ktr w] ++ cleanup ct w) /\
    eopt h3 (odig (kobjs w)) (kel w) /\ eopt h3 (odig (kobjs w)) (ker w).
Proof.
  intros W O El Er li ri k w h3.
  destruct (prepare_ok ct o h W O) as (X1 & Ex1 & O1 & Od & Of & B1 & I1 & N1).
  revert w h3. subst k. unfold launch. set (p := prepare ct o h) in *. set (o' := fst p) in *.
  assert (W1 : hwf (snd p)) by (eapply ext_wf; eauto).
  assert (Ol : forall q, In q (olist o') -> live (snd p) q = true) by apply O1.
  rewrite (uses_id [odig o'; ocap o'; obase o'] (snd p)) by (intros q [<-|[<-|[<-|[]]]]; apply Ol; simpl; auto 8).
  cbv zeta. set (n0 := hnext (snd p)).
  set (rv := alloc KRev (odig o') (snd p)). set (nl := alloc KStack (odig o') (snd rv)).
  set (nr := alloc KStack (odig o') (snd nl)). set (tl := alloc KThread 0 (snd nr)).
  set (tr := alloc KThread 0 (snd tl)).
  assert (Er1 : ext _ (snd p) (snd rv)) by (apply alloc_ext; auto).
  assert (Wr1 : hwf (snd rv)) by (eapply ext_wf; eauto).
  assert (Er2 : ext _ (snd rv) (snd nl)) by (apply alloc_ext; auto).
  assert (Wr2 : hwf (snd nl)) by (eapply ext_wf; eauto).
  assert (Er3 : ext _ (snd nl) (snd nr)) by (apply alloc_ext; auto).
  assert (Wr3 : hwf (snd nr)) by (eapply ext_wf; eauto).
  assert (Er4 : ext _ (snd nr) (snd tl)) by (apply alloc_ext; auto).
  assert (Wr4 : hwf (snd tl)) by (eapply ext_wf; eauto).
  assert (Er5 : ext _ (snd tl) (snd tr)) by (apply alloc_ext; auto).
  assert (Wr5 : hwf (snd tr)) by (eapply ext_wf; eauto).
  assert (E5 := ext_trans _ _ _ _ _ (ext_trans _ _ _ _ _ (ext_trans _ _ _ _ _ (ext_trans _ _ _ _ _ Er1 Er2) Er3) Er4) Er5).
  simpl app in E5.
  change (hnext (snd p)) with n0 in E5. change (hnext (snd rv)) with (S n0) in E5.
  change (hnext (snd nl)) with (S (S n0)) in E5. change (hnext (snd nr)) with (S (S (S n0))) in E5.
  change (hnext (snd tl)) with (S (S (S (S n0)))) in E5.
  change (fst rv) with n0. change (fst nl) with (S n0). change (fst nr) with (S (S n0)).
  change (fst tl) with (S (S (S n0))). change (fst tr) with (S (S (S (S n0)))).
  assert (Ldig : live (snd p) (odig o') = true) by (apply Ol; simpl; auto).
  assert (Gdig : graph_of (odig o') (snd tr) = 0) by (rewrite (ext_graph _ _ _ _ W1 E5 Ldig); apply O1).
  assert (Grv : graph_of n0 (snd tr) = odig o')
    by (apply (ext_new_graph _ _ _ (mkBlk n0 KRev (odig o')) W1 E5); simpl; auto 8).
  assert (Lrv : live (snd tr) n0 = true) by (apply (ext_new _ _ _ (mkBlk n0 KRev (odig o')) E5); simpl; auto 8).
  assert (Lnl : live (snd tr) (S n0) = true) by (apply (ext_new _ _ _ (mkBlk (S n0) KStack (odig o')) E5); simpl; auto 8).
  assert (Lnr : live (snd tr) (S (S n0)) = true)
    by (apply (ext_new _ _ _ (mkBlk (S (S n0)) KStack (odig o')) E5); simpl; auto 8).
  assert (Ltl : live (snd tr) (S (S (S n0))) = true) by (apply (ext_new _ _ _ (mkBlk (S (S (S n0))) KThread 0) E5); simpl; auto 8).
  assert (Ltr : live (snd tr) (S (S (S (S n0)))) = true)
    by (apply (ext_new _ _ _ (mkBlk (S (S (S (S n0)))) KThread 0) E5); simpl; auto 8).
  assert (Pdig := live_pos _ _ W1 Ldig). fold n0 in Pdig.
  assert (Lol : forall q, In q (olist o') -> live (snd tr) q = true) by (intros q Iq; eapply ext_live; [exact E5|auto]).
  assert (Et := ext_trans _ _ _ _ _ Ex1 E5).
  assert (Hl : eopt (snd tr) (odig o') li).
  { subst li. destruct ct; [intros x Hx; discriminate|]. assert (Q : o' = o) by auto. rewrite Q.
    eapply ext_eopt; [exact W|exact Et|exact El]. }
  assert (Hr : eopt (snd tr) (odig o') ri).
  { subst ri. destruct ct; [intros x Hx; discriminate|]. assert (Q : o' = o) by auto. rewrite Q.
    eapply ext_eopt; [exact W|exact Et|exact Er]. }
  (* left worker *)
  destruct (work_ok (fst ends) (odig o') [odig o'; ocap o'; ofl o'; S n0] li (snd tr) (odig o') Wr5) as (Xl & Exl & Sl & Nl); auto.
  { intros q [<-|[<-|[<-|[<-|[]]]]]; auto; apply Lol; simpl; auto 8. }
  { apply Lol; simpl; auto. }
  { unfold base_graph. rewrite Gdig. reflexivity. }
  { apply Lol; simpl; auto. }
  set (wl := work (fst ends) (odig o') [odig o'; ocap o'; ofl o'; S n0] li (snd tr)) in *.
  assert (Wl : hwf (snd wl)) by (eapply ext_wf; eauto).
  destruct (work_ok (snd ends) n0 [odig o'; ocap o'; ofr o'; n0; S (S n0)] ri (snd wl) (odig o') Wl) as (Xr & Exr & Sr & Nr).
  { intros q [<-|[<-|[<-|[<-|[<-|[]]]]]]; eapply ext_live; try exact Exl; auto; apply Lol; simpl; auto 8. }
  { eapply ext_live; eauto. }
  { unfold base_graph. rewrite (ext_graph _ _ _ _ Wr5 Exl Lrv), Grv.
    destruct (odig o' =? 0) eqn:Z; [apply Nat.eqb_eq in Z; lia|reflexivity]. }
  { eapply ext_live; [exact Exl|]. apply Lol; simpl; auto. }
  { eapply ext_eopt; [exact Wr5|exact Exl|exact Hr]. }
  set (wr := work (snd ends) n0 [odig o'; ocap o'; ofr o'; n0; S (S n0)] ri (snd wl)) in *.
  assert (Exlr := ext_trans _ _ _ _ _ Exl Exr).
  rewrite (uses_id [S (S (S n0)); S (S (S (S n0)))] (snd wr))
    by (intros q [<-|[<-|[]]]; eapply ext_live; try exact Exlr; auto).
  cbn [fst snd kobjs krev knl knr ktl ktr kel ker].
  assert (Eall := ext_trans _ _ _ _ _ Et Exlr).
  exists ((Xr ++ Xl) ++ [mkBlk (S (S (S (S n0)))) KThread 0; mkBlk (S (S (S n0))) KThread 0;
     mkBlk (S (S n0)) KStack (odig o'); mkBlk (S n0) KStack (odig o'); mkBlk n0 KRev (odig o')] ++ X1).
  split; [exact Eall|].
  assert (H5 : hnext (snd tr) = S (S (S (S (S n0))))) by reflexivity.
  assert (Hn0 : hnext h <= n0) by apply Ex1.
  assert (Lall : forall q, live (snd tr) q = true -> live (snd wr) q = true) by (intros q Lq; exact (ext_live _ _ _ q Exlr Lq)).
  assert (Elv : forall e, fst wl = Some e -> S (S (S (S n0))) < e < hnext (snd wl)).
  { intros e He. destruct (Sl e He) as (-> & (kk & Q) & _). destruct Exl as (_ & _ & _ & _ & Bx & _).
    specialize (Bx (mkBlk (hnext (snd tr)) KEle kk)). rewrite Q in Bx. specialize (Bx (or_introl eq_refl)). simpl in *. lia. }
  assert (Hwl : S (S (S (S n0))) < hnext (snd wl)) by (destruct Exl as (_ & Q & _); lia).
  assert (P1 : forall q, In q (pclean ct o') -> q < n0).
  { intros q Iq. apply I1 in Iq. apply in_map_iff in Iq. destruct Iq as (b & <- & Ib).
    destruct Ex1 as (_ & _ & _ & _ & Bx & _). apply Bx in Ib. exact (proj2 Ib). }
  assert (Nth : forall q, live (snd p) q = true -> ~ In q [S (S (S n0)); S (S (S (S n0)))]).
  { intros q Lq Iq. apply (live_pos _ _ W1) in Lq. fold n0 in Lq. simpl in Iq. lia. }
  assert (Gold : forall e x, (if ct then None else e) = Some x -> eopt h (odig o) e ->
            live (snd p) (graph_of x (snd tr)) = true /\ live (snd p) (base_graph (graph_of x (snd tr)) (snd tr)) = true).
  { intros e x Q He. destruct ct; [discriminate|]. destruct (He x Q) as (A & B & C & _).
    rewrite (ext_graph _ _ _ _ W Et A), (ext_base _ _ _ _ W Et B). split; eapply ext_live; eauto. }
  assert (Nrv : ~ In n0 [S (S (S n0)); S (S (S (S n0)))]) by (simpl; lia).
  split; [|split; [exact Od|split; [exact Of|split; [|split; [|split; [|split]]]]]].
  - assert (Oall : ook (snd wr) o') by (eapply ext_ook; [exact W1|exact (ext_trans _ _ _ _ _ E5 Exlr)|exact O1]).
    destruct Oall as [A B]. split.
    + intros q Iq. rewrite (proj1 (dels_keep q _ _ (Nth q (Ol q Iq)))). auto.
    + rewrite (proj2 (dels_keep (odig o') _ _ (Nth _ Ldig))). auto.
  - intros b Ib. apply in_app_iff in Ib. destruct Ib as [Ib|Ib].
    + apply in_app_iff in Ib. unfold cleanup. cbn [kobjs krev knl knr ktl ktr kel ker].
      destruct Ib as [Ib|Ib].
      * destruct (fst wr) as [e|] eqn:Ew; [|rewrite Nr in Ib by auto; destruct Ib].
        destruct (Sr e eq_refl) as (_ & (kk & Q) & _). rewrite Q in Ib. destruct Ib as [<-|[]].
        split; [discriminate|]. simpl. rewrite !in_app_iff. simpl. auto 8.
      * destruct (fst wl) as [e|] eqn:Ew; [|rewrite Nl in Ib by auto; destruct Ib].
        destruct (Sl e eq_refl) as (_ & (kk & Q) & _). rewrite Q in Ib. destruct Ib as [<-|[]].
        split; [discriminate|]. simpl. auto 8.
    + apply in_app_iff in Ib. unfold cleanup. cbn [kobjs krev knl knr ktl ktr kel ker].
      destruct Ib as [Ib|Ib].
      * simpl in Ib. destruct Ib as [<-|[<-|[<-|[<-|[<-|[]]]]]]; (split; [try discriminate; simpl; auto|]);
          simpl; rewrite ?in_app_iff; simpl; rewrite ?in_app_iff; simpl; auto 10.
      * destruct (B1 b Ib) as [K1 K2]. split; [intro; contradiction|].
        simpl. rewrite !in_app_iff. simpl. rewrite in_app_iff. auto 10.
  - intros q Iq. unfold cleanup in Iq. cbn [kobjs krev knl knr ktl ktr kel ker] in Iq.
    rewrite !map_app. rewrite !in_app_iff. rewrite !in_app_iff in Iq. simpl map.
    destruct Iq as [Iq|[Iq|[Iq|[Iq|[Iq|Iq]]]]].
    + right; left. simpl in Iq. simpl. tauto.
    + left; right. destruct (fst wl) as [e|] eqn:Ew; [|destruct Iq]. destruct Iq as [<-|[]].
      destruct (Sl e eq_refl) as (_ & (kk & Q) & _). rewrite Q. simpl. auto.
    + left; left. destruct (fst wr) as [e|] eqn:Ew; [|destruct Iq]. destruct Iq as [<-|[]].
      destruct (Sr e eq_refl) as (_ & (kk & Q) & _). rewrite Q. simpl. auto.
    + right; left. simpl in Iq. simpl. tauto.
    + right; right. apply I1; auto.
    + right; left. simpl in Iq. simpl. tauto.
  - unfold cleanup. cbn [kobjs krev knl knr ktl ktr kel ker].
    assert (NP : NoDup ([n0] ++ pclean ct o' ++ [S (S n0); S n0])).
    { apply NoDup_app_intro; [repeat constructor; simpl; tauto| |].
      - apply NoDup_app_intro; auto; [repeat constructor; simpl; lia|].
        intros q Iq Jq. apply P1 in Iq. simpl in Jq. lia.
      - intros q Iq Jq. apply in_app_iff in Jq. destruct Jq as [Jq|Jq]; [apply P1 in Jq|]; simpl in *; lia. }
    assert (BP : forall q, In q ([n0] ++ pclean ct o' ++ [S (S n0); S n0]) -> q <= S (S n0)).
    { intros q Iq. rewrite !in_app_iff in Iq. destruct Iq as [Iq|[Iq|Iq]]; [|apply P1 in Iq|]; simpl in *; lia. }
    assert (N2 : NoDup (optl (fst wr) ++ [n0] ++ pclean ct o' ++ [S (S n0); S n0])).
    { destruct (fst wr) as [e|] eqn:Ew; [|exact NP]. simpl optl. cbn [app]. constructor; auto.
      intro Iq. apply BP in Iq. destruct (Sr e eq_refl) as (-> & _). lia. }
    assert (N3 : NoDup (optl (fst wl) ++ optl (fst wr) ++ [n0] ++ pclean ct o' ++ [S (S n0); S n0])).
    { destruct (fst wl) as [e|] eqn:Ew; [|exact N2]. simpl optl. cbn [app]. constructor; auto.
      intro Iq. destruct (Elv e eq_refl) as [A B]. apply in_app_iff in Iq. destruct Iq as [Iq|Iq].
      - destruct (fst wr) as [e'|] eqn:Ew'; [|destruct Iq]. destruct Iq as [<-|[]].
        destruct (Sr e' eq_refl) as (-> & _). lia.
      - apply BP in Iq. lia. }
    apply NoDup_app_intro; auto; [repeat constructor; simpl; lia|].
    intros q Iq Jq. assert (Q : q = S (S (S n0)) \/ q = S (S (S (S n0)))) by (simpl in Iq; lia).
    apply in_app_iff in Jq. destruct Jq as [Jq|Jq].
    { destruct (fst wl) as [e|] eqn:Ew; [|destruct Jq]. destruct Jq as [<-|[]]. destruct (Elv e eq_refl). lia. }
    apply in_app_iff in Jq. destruct Jq as [Jq|Jq]; [|apply BP in Jq; lia].
    destruct (fst wr) as [e|] eqn:Ew; [|destruct Jq]. destruct Jq as [<-|[]]. destruct (Sr e eq_refl) as (E' & _). lia.
  - intros e He. destruct (Sl e He) as (Q1 & _ & Ke & Gr).
    destruct (Elv e He) as [A B].
    assert (Ke' := ext_eok _ _ _ _ _ Wl Exr Ke).
    assert (Ge : graph_of e (snd wr) = graph_of e (snd wl)) by (apply (ext_graph _ _ _ _ Wl Exr); apply Ke).
    assert (Gb : base_graph (graph_of e (snd wr)) (snd wr) = base_graph (graph_of e (snd wl)) (snd wl))
      by (rewrite Ge; apply (ext_base _ _ _ _ Wl Exr); apply Ke).
    apply dels_eok; auto.
    + simpl. lia.
    + rewrite Ge. destruct Gr as [->|(e0 & Q & ->)]; [apply Nth; auto|].
      apply Nth. apply (Gold el e0 Q El).
    + rewrite Gb. destruct Gr as [G0|(e0 & Q & G0)]; rewrite G0.
      * rewrite (ext_base _ _ _ _ Wr5 Exl) by (apply Lol; simpl; auto). unfold base_graph. rewrite Gdig. apply Nth; auto.
      * destruct (Gold el e0 Q El) as [Ga Gb0].
        rewrite (ext_base _ _ _ _ Wr5 Exl) by (eapply ext_live; [exact E5|exact Ga]). apply Nth; auto.
  - intros e He. destruct (Sr e He) as (Q1 & _ & Ke & Gr).
    apply dels_eok; auto.
    + simpl. lia.
    + destruct Gr as [->|(e0 & Q & ->)]; [exact Nrv|].
      assert (L0 : live (snd tr) e0 = true) by (apply (Hr e0 Q)).
      rewrite (ext_graph _ _ _ _ Wr5 Exl L0). apply Nth. apply (Gold er e0 Q Er).
    + destruct Gr as [G0|(e0 & Q & G0)]; rewrite G0.
      * rewrite (ext_base _ _ _ _ Wr5 Exlr Lrv). unfold base_graph. rewrite Grv.
        destruct (odig o' =? 0); [exact Nrv|apply Nth; auto].
      * assert (L0 : live (snd tr) e0 = true) by (apply (Hr e0 Q)).
        rewrite (ext_graph _ _ _ _ Wr5 Exl L0). destruct (Gold er e0 Q Er) as [Ga Gb0].
        rewrite (ext_base _ _ _ _ Wr5 Exlr) by (eapply ext_live; [exact E5|exact Ga]). apply Nth; auto.
Qed.

Lemma house_dels ct o el er rv nr nl h :
  dels [nr; nl] (house_keeping ct o el er rv h) = dels (optl el ++ optl er ++ [rv] ++ pclean ct o ++ [nr; nl]) h.
Proof. unfold house_keeping. destruct el, er, ct; cbn [dels app optl pclean del_opt]; reflexivity. Qed.

(** No block is stack memory. *)
Definition nostack (X : list block) : Prop := forall b, In b X -> bkind b <> KStack.

Definition sliced (h : heap) {A} (r : heap * res A) : Prop :=
  exists X, ext X h (fst r) /\ (forall x, snd r = Ok x -> X = []) /\ (snd r = Throw -> nostack X).

Local Opaque launch dels house_keeping contract compute_lambda upd worker_cut ceqb cunion.

Lemma slice_mem fuel : forall mc mr sch path eps E j y nodes G base Tl Tr l1 l3 ct o el er h,
  hwf h -> ook h o -> eopt h (odig o) el -> eopt h (odig o) er ->
  sliced h (pmfrh_slice inn fuel mc mr sch path eps E j y nodes G base Tl Tr l1 l3 ct o el er h).
Proof.
  induction fuel as [|fuel IH]; intros mc mr sch path eps E j y nodes G base Tl Tr l1 l3 ct o el er h W O El Er.
  { exists []. split; [apply ext_refl|]. split; [auto|easy]. }
  assert (Triv : forall r : res (list dbl * list cset * network), sliced h (h, r)).
  { intro r. exists []. split; [apply ext_refl|]. split; [auto|easy]. }
  cbn [pmfrh_slice]. cbv zeta.
  match goal with |- context [compute_lambda eps ?p ?t] => destruct (compute_lambda eps p t) as [[l|]| | |] end; auto.
  destruct (negb (tol_different eps (Qred l) l1) || negb (tol_different eps (Qred l) l3)); auto.
  destruct (Qltb (Qred l) l1 || Qltb l3 (Qred l)); auto.
  match goal with |- context [match ?m with Ok _ => _ | _ => _ end] => destruct m as [c| | |] end; auto.
  assert (LK := launch_ok ct (sch path) o el er h W O El Er). cbv zeta in LK.
  set (k := launch ct (sch path) o (if ct then None else el) (if ct then None else er) h) in *.
  set (w := fst k) in *. destruct LK as (X & Ex & O3 & Od & Of & BX & IX & NX & L3 & R3).
  assert (Sub : forall b, In b X -> bkind b = KStack -> In (baddr b) [knr w; knl w]) by (intros b Ib; apply BX; auto).
  assert (Istk : incl [knr w; knl w] (cleanup ct w)).
  { intros q Iq. unfold cleanup. rewrite !in_app_iff. auto 8. }
  assert (Nstk : NoDup [knr w; knl w]).
  { apply NoDup_app_inv in NX. destruct NX as (_ & NX & _). unfold cleanup in NX.
    repeat (apply NoDup_app_inv in NX; destruct NX as (_ & NX & _)). exact NX. }
  destruct (wfail (fst (sch path)) || wfail (snd (sch path))).
  { exists (filter (fun b => negb (mem [knr w; knl w] (baddr b))) X). cbn [fst snd]. split; [|split; [discriminate|]].
    - apply dels_ext; auto. intros q Iq. apply IX. apply in_or_app. right. auto.
    - intros _ b Ib K. apply filter_In in Ib. destruct Ib as [Ib M]. apply negb_true_iff, mem_false in M. auto. }
  set (h3 := dels [ktl w; ktr w] (snd k)) in *.
  set (X3 := filter (fun b => negb (mem [ktl w; ktr w] (baddr b))) X).
  assert (Nth : NoDup [ktl w; ktr w] /\ NoDup (cleanup ct w) /\ (forall q, In q [ktl w; ktr w] -> ~ In q (cleanup ct w))).
  { apply NoDup_app_inv in NX. exact NX. }
  destruct Nth as (N2 & NC & Dj).
  assert (Ex3 : ext X3 h h3).
  { apply dels_ext; auto. intros q Iq. apply IX. apply in_or_app. auto. }
  assert (BX3 : forall b, In b X3 -> In (baddr b) (cleanup ct w)).
  { intros b Ib. apply filter_In in Ib. destruct Ib as [Ib M]. apply negb_true_iff, mem_false in M.
    destruct (BX b Ib) as [_ C]. apply in_app_iff in C. destruct C; [contradiction|auto]. }
  assert (SX3 : forall b, In b X3 -> bkind b = KStack -> In (baddr b) [knr w; knl w]).
  { intros b Ib. apply filter_In in Ib. apply Sub. tauto. }
  assert (IX3 : incl (cleanup ct w) (map baddr X3)).
  { intros q Iq. assert (J : In q (map baddr X)) by (apply IX; apply in_or_app; auto).
    apply in_map_iff in J. destruct J as (b & <- & J). apply in_map. apply filter_In. split; auto.
    apply negb_true_iff, mem_false. intro C. exact (Dj _ C Iq). }
  assert (W3 : hwf h3) by (eapply ext_wf; eauto).
  assert (Fin3 : forall hh, ext X3 h hh ->
     ext [] h (dels [knr w; knl w] (house_keeping ct (kobjs w) (kel w) (ker w) (krev w) hh))).
  { intros hh Eh. rewrite house_dels. fold (cleanup ct w).
    assert (D := dels_ext (cleanup ct w) X3 h hh W Eh NC IX3).
    replace (filter (fun b => negb (mem (cleanup ct w) (baddr b))) X3) with (@nil block) in D; auto.
    symmetry. clear - BX3. induction X3 as [|b X3 IHX]; auto. simpl.
    rewrite (proj2 (mem_In _ _) (BX3 b (or_introl eq_refl))). simpl. apply IHX. intros b' I'. apply BX3. now right. }
  assert (Thr : forall Y hh, ext (Y ++ X3) h hh -> nostack Y ->
     exists Z, ext Z h (dels [knr w; knl w] hh) /\ nostack Z).
  { intros Y hh Eh NY. exists (filter (fun b => negb (mem [knr w; knl w] (baddr b))) (Y ++ X3)). split.
    - apply dels_ext; auto. intros q Iq. rewrite map_app. apply in_or_app. right. apply IX3. auto.
    - intros b Ib K. apply filter_In in Ib. destruct Ib as [Ib M]. apply negb_true_iff, mem_false in M.
      apply in_app_iff in Ib. destruct Ib as [Ib|Ib]; [exact (NY b Ib K)|]. apply M. apply SX3; auto. }
  match goal with |- context [if ?c then _ else (dels _ _, _)] => destruct c end.
  2:{ exists []. cbn [fst snd]. split; [apply Fin3; auto|]. split; [auto|easy]. }
  set (useL := wdone (fst (sch path))).
  assert (Lnl : forall q, In q [knr w; knl w] -> live h3 q = true).
  { intros q Iq. apply Istk, IX3 in Iq. apply in_map_iff in Iq. destruct Iq as (b & <- & Ib). eapply ext_new; eauto. }
  assert (Lnf : live h3 (if useL then knl w else knr w) = true) by (apply Lnl; destruct useL; simpl; auto).
  set (nf := if useL then knl w else knr w) in *.
  assert (Eold : forall e, eopt h (odig o) e -> eopt h3 (odig (kobjs w)) (if inn then if ct then None else e else e)).
  { intros e He x Hx. assert (Hx' : e = Some x /\ (inn = true -> ct = false)).
    { destruct inn; [destruct ct|]; auto; try discriminate. split; auto. intro. discriminate. }
    destruct Hx' as [Q Hc]. apply eok_weaken with (odig o); auto.
    - eapply ext_eok; [exact W|exact Ex3|auto].
    - intro Hi. now rewrite Of by auto. }
  match goal with |- context [pmfrh_slice inn fuel mc mr sch (true :: path) eps E j y ?n1 ?g1 ?b1 ?t1 ?t2 ?q1 ?q2 ?c1 ?o1 ?e1 ?e2 h3] =>
    assert (HA := IH mc mr sch (true :: path) eps E j y n1 g1 b1 t1 t2 q1 q2 c1 o1 e1 e2 h3 W3);
    set (a := pmfrh_slice inn fuel mc mr sch (true :: path) eps E j y n1 g1 b1 t1 t2 q1 q2 c1 o1 e1 e2 h3) in *
  end.
  destruct HA as (Xa & Exa & Oka & Tha).
  { destruct O3 as [A B]. split; [|exact B]. intros q Iq. cbn [olist odig ocap obase ofl ofr] in Iq.
    destruct Iq as [<-|[<-|[<-|[<-|[<-|[]]]]]]; auto; apply A; simpl; auto 8. }
  { apply Eold; auto. }
  { exact R3. }
  assert (Exa' := ext_trans _ _ _ _ _ Ex3 Exa).
  destruct (snd a) as [ra| | |] eqn:Ea.
  2:{ exists (Xa ++ X3). split; [exact Exa'|split; easy]. }
  2:{ destruct (Thr Xa (fst a) Exa' (Tha eq_refl)) as (Z & EZ & NZ). exists Z. split; [exact EZ|]. split; [discriminate|auto]. }
  2:{ exists (Xa ++ X3). split; [exact Exa'|split; easy]. }
  rewrite (Oka ra eq_refl) in *. simpl app in Exa'.
  assert (Wa : hwf (fst a)) by (eapply ext_wf; eauto).
  match goal with |- context [pmfrh_slice inn fuel mc mr sch (false :: path) eps E j y ?n1 ?g1 ?b1 ?t1 ?t2 ?q1 ?q2 ?c1 ?o1 ?e1 ?e2 (fst a)] =>
    assert (HB := IH mc mr sch (false :: path) eps E j y n1 g1 b1 t1 t2 q1 q2 c1 o1 e1 e2 (fst a) Wa);
    set (b := pmfrh_slice inn fuel mc mr sch (false :: path) eps E j y n1 g1 b1 t1 t2 q1 q2 c1 o1 e1 e2 (fst a)) in *
  end.
  destruct HB as (Xb & Exb & Okb & Thb).
  { apply (ext_ook _ _ _ _ W3 Exa). destruct O3 as [A B]. split; [|exact B].
    intros q Iq. cbn [olist odig ocap obase ofl ofr] in Iq.
    destruct Iq as [<-|[<-|[<-|[<-|[<-|[]]]]]]; auto; apply A; simpl; auto 8. }
  { cbn [odig]. apply (ext_eopt _ _ _ _ _ W3 Exa). exact L3. }
  { cbn [odig]. apply (ext_eopt _ _ _ _ _ W3 Exa). apply Eold; auto. }
  assert (Exb' := ext_trans _ _ _ _ _ Exa' Exb).
  destruct (snd b) as [rb| | |] eqn:Eb.
  2:{ exists (Xb ++ X3). split; [exact Exb'|split; easy]. }
  2:{ destruct (Thr Xb (fst b) Exb' (Thb eq_refl)) as (Z & EZ & NZ). exists Z. split; [exact EZ|]. split; [discriminate|auto]. }
  2:{ exists (Xb ++ X3). split; [exact Exb'|split; easy]. }
  rewrite (Okb rb eq_refl) in *. simpl app in Exb'.
  exists []. cbn [fst snd]. split; [apply Fin3; auto|]. split; [auto|easy].
Qed.

Lemma run_mem mc mr sch eps E n j d c b y h : hwf h -> live h d = true -> live h c = true -> live h b = true ->
  graph_of d h = 0 -> sliced h (pmfrh_run inn mc mr sch eps E n j (d, c, b) y h).
Proof.
  intros W Ld Lc Lb Gd. unfold pmfrh_run. destruct (j <? n).
  2:{ exists []. split; [apply ext_refl|]. split; [discriminate|easy]. }
  cbv zeta. rewrite (uses_id [d; c; b] h) by (intros p [<-|[<-|[<-|[]]]]; auto).
  set (fl := alloc KStack d h). assert (E1 : ext _ h (snd fl)) by (apply alloc_ext; auto).
  assert (W1 : hwf (snd fl)) by (eapply ext_wf; eauto).
  rewrite (uses_id [d; c; b] (snd fl)) by (intros p [<-|[<-|[<-|[]]]]; eapply ext_live; eauto).
  set (n0 := hnext h).
  set (rv := alloc KStack d (snd fl)). set (fr := alloc KStack d (snd rv)).
  set (el := alloc KEle d (snd fr)). set (er := alloc KEle (fst rv) (snd el)).
  assert (E2 : ext _ (snd fl) (snd rv)) by (apply alloc_ext; auto).
  assert (W2 : hwf (snd rv)) by (eapply ext_wf; eauto).
  assert (E3 : ext _ (snd rv) (snd fr)) by (apply alloc_ext; auto).
  assert (W3 : hwf (snd fr)) by (eapply ext_wf; eauto).
  assert (E4 : ext _ (snd fr) (snd el)) by (apply alloc_ext; auto).
  assert (W4 : hwf (snd el)) by (eapply ext_wf; eauto).
  assert (E5 : ext _ (snd el) (snd er)) by (apply alloc_ext; auto).
  assert (W5 : hwf (snd er)) by (eapply ext_wf; eauto).
  assert (Et := ext_trans _ _ _ _ _ (ext_trans _ _ _ _ _ (ext_trans _ _ _ _ _ (ext_trans _ _ _ _ _ E1 E2) E3) E4) E5).
  simpl app in Et.
  change (hnext h) with n0 in Et. change (hnext (snd fl)) with (S n0) in Et.
  change (hnext (snd rv)) with (S (S n0)) in Et. change (hnext (snd fr)) with (S (S (S n0))) in Et.
  change (hnext (snd el)) with (S (S (S (S n0)))) in Et. change (fst rv) with (S n0) in Et.
  change (fst rv) with (S n0). change (fst fl) with n0. change (fst fr) with (S (S n0)).
  change (fst el) with (S (S (S n0))). change (fst er) with (S (S (S (S n0)))).
  set (X0 := [mkBlk (S (S (S (S n0)))) KEle (S n0); mkBlk (S (S (S n0))) KEle d; mkBlk (S (S n0)) KStack d;
              mkBlk (S n0) KStack d; mkBlk n0 KStack d]) in *.
  assert (In0 : forall q k g, In (mkBlk q k g) X0 -> live (snd er) q = true /\ graph_of q (snd er) = g).
  { intros q k g I. split; [apply (ext_new _ _ _ _ Et I)|apply (ext_new_graph _ _ _ _ W Et I)]. }
  assert (Pd := live_pos _ _ W Ld).
  assert (Ld' : live (snd er) d = true) by (eapply ext_live; eauto).
  assert (Gd' : graph_of d (snd er) = 0) by (rewrite (ext_graph _ _ _ _ W Et Ld); auto).
  assert (B0 : base_graph d (snd er) = d) by (unfold base_graph; rewrite Gd'; reflexivity).
  match goal with |- context [pmfrh_slice inn ?f mc mr sch [] eps E j y ?n1 ?g1 ?b1 ?t1 ?t2 ?q1 ?q2 ?c1 ?o1 ?e1 ?e2 (snd er)] =>
    assert (HA := slice_mem f mc mr sch [] eps E j y n1 g1 b1 t1 t2 q1 q2 c1 o1 e1 e2 (snd er) W5);
    set (r := pmfrh_slice inn f mc mr sch [] eps E j y n1 g1 b1 t1 t2 q1 q2 c1 o1 e1 e2 (snd er)) in *
  end.
  destruct HA as (X & Ex & Okx & Thx).
  { split; [|exact Gd']. intros q Iq. cbn [olist odig ocap obase ofl ofr] in Iq.
    destruct Iq as [<-|[<-|[<-|[<-|[<-|[]]]]]].
    - exact Ld'.
    - exact (ext_live _ _ _ _ Et Lc).
    - exact (ext_live _ _ _ _ Et Lb).
    - apply (In0 n0 KStack d). subst X0. simpl. auto 8.
    - apply (In0 (S (S n0)) KStack d). subst X0. simpl. auto 8. }
  { intros x Hx. injection Hx as <-. destruct (In0 (S (S (S n0))) KEle d) as [A B]; [subst X0; simpl; auto 8|].
    unfold eok. rewrite B, B0. cbn [odig]. auto. }
  { intros x Hx. injection Hx as <-. destruct (In0 (S (S (S (S n0)))) KEle (S n0)) as [A B]; [subst X0; simpl; auto 8|].
    destruct (In0 (S n0) KStack d) as [A' B']; [subst X0; simpl; auto 8|].
    assert (Q : base_graph (S n0) (snd er) = d).
    { unfold base_graph. rewrite B'. destruct (d =? 0) eqn:Z; auto. apply Nat.eqb_eq in Z. lia. }
    unfold eok. rewrite B, Q. cbn [odig]. auto. }
  assert (Exr := ext_trans _ _ _ _ _ Et Ex).
  destruct (snd r) as [x| | |] eqn:Er.
  - rewrite (Okx x eq_refl) in *. simpl app in Exr. exists []. cbn [fst snd]. split; [|split; [auto|easy]].
    rewrite <- dels_app. cbn [app].
    assert (D := dels_ext [S (S (S n0)); S (S (S (S n0))); S (S n0); S n0; n0] X0 h (fst r) W Exr).
    assert (Z : filter (fun b0 => negb (mem [S (S (S n0)); S (S (S (S n0))); S (S n0); S n0; n0] (baddr b0))) X0 = []).
    { assert (forall l, (forall b0, In b0 l -> In (baddr b0) [S (S (S n0)); S (S (S (S n0))); S (S n0); S n0; n0]) ->
        filter (fun b0 => negb (mem [S (S (S n0)); S (S (S (S n0))); S (S n0); S n0; n0] (baddr b0))) l = []) as K.
      { induction l as [|b0 l IH]; intro H; auto. cbn [filter].
        rewrite (proj2 (mem_In _ _) (H b0 (or_introl eq_refl))). simpl negb. apply IH. intros; apply H; now right. }
      apply K. subst X0. intros b0 I. simpl in I. destruct I as [<-|[<-|[<-|[<-|[<-|[]]]]]]; simpl; auto 8. }
    rewrite Z in D. apply D.
    + repeat (constructor; [simpl; lia|]). constructor.
    + intros q Iq. subst X0. simpl in *. intuition.
  - exists (X ++ X0). split; [exact Exr|split; easy].
  - exists (filter (fun b0 => negb (mem [S (S n0); S n0; n0] (baddr b0))) (X ++ X0)). cbn [fst snd].
    split; [|split; [discriminate|]].
    + apply dels_ext; auto; [repeat constructor; simpl; lia|].
      intros q Iq. rewrite map_app. apply in_or_app. right. subst X0. simpl in *. tauto.
    + intros _ b0 Ib K. apply filter_In in Ib. destruct Ib as [Ib M]. apply negb_true_iff, mem_false in M.
      apply in_app_iff in Ib. destruct Ib as [Ib|Ib]; [exact (Thx eq_refl b0 Ib K)|].
      apply M. subst X0. simpl in Ib. destruct Ib as [<-|[<-|[<-|[<-|[<-|[]]]]]]; try discriminate K; simpl; auto.
  - exists (X ++ X0). split; [exact Exr|split; easy].
Qed.

Lemma steps_mem mc mr sch eps E n d c b js : forall st h, hwf h -> live h d = true -> live h c = true ->
  live h b = true -> graph_of d h = 0 -> sliced h (pdtrh_steps inn mc mr sch eps E n (d, c, b) js st h).
Proof.
  induction js as [|j js IH]; intros st h W Ld Lc Lb Gd.
  { exists []. split; [apply ext_refl|split; auto; easy]. }
  cbn [pdtrh_steps]. cbv zeta.
  destruct (run_mem mc mr (sch j) eps E n j d c b (fst st) h W Ld Lc Lb Gd) as (X & Ex & Okx & Thx).
  set (r := pmfrh_run inn mc mr (sch j) eps E n j (d, c, b) (fst st) h) in *.
  unfold pdt_step. destruct (snd r) as [x| | |] eqn:Er; cbn [bind].
  2:{ exists X. split; [exact Ex|split; easy]. }
  2:{ exists X. split; [exact Ex|]. split; [discriminate|auto]. }
  2:{ exists X. split; [exact Ex|split; easy]. }
  assert (Q := Okx x eq_refl). subst X.
  match goal with |- context [match ?m with Ok _ => _ | _ => _ end] => destruct m as [st'| | |] end;
    try (exists []; split; [exact Ex|split; easy]).
  assert (W' : hwf (fst r)) by (eapply ext_wf; eauto).
  destruct (IH st' (fst r) W') as (Y & Ey & Oky & Thy); try (eapply ext_live; eauto; fail).
  { rewrite (ext_graph _ _ _ _ W Ex Ld); auto. }
  exists (Y ++ []). split; [exact (ext_trans _ _ _ _ _ Ex Ey)|]. rewrite app_nil_r. auto.
Qed.

Lemma heap0_wf : hwf heap0.
Proof.
  split; [|split]; simpl; [repeat constructor; simpl; lia|lia|].
  intros b [<-|[<-|[<-|[]]]]; simpl; lia.
Qed.

Lemma pdt_mem mc mr sch eps E n : sliced heap0 (pdtrh_run inn mc mr sch eps E n).
Proof.
  unfold pdtrh_run. destruct (n =? 0).
  { exists []. split; [apply ext_refl|split; easy]. }
  cbv zeta. unfold members. match goal with |- sliced heap0 (fst ?r, _) => set (rr := r) end.
  assert (H : sliced heap0 rr) by (apply steps_mem; auto using heap0_wf).
  destruct H as (X & Ex & Okx & Thx). exists X. cbn [fst snd]. split; [exact Ex|].
  destruct (snd rr); cbn [bind]; split; auto; try easy. intros x0 _. eapply Okx; eauto.
Qed.
End Heap.

(** ** The numbers do not depend on the heap *)
Section Erase.
Variables (inn : bool) (mc mr : solver).

(** No worker leaves an exception behind and at least one finishes. *)
Definition fair (sch : list bool -> wend * wend) : Prop := forall p,
  wfail (fst (sch p)) = false /\ wfail (snd (sch p)) = false /\ (wdone (fst (sch p)) || wdone (snd (sch p))) = true.
Definition winner (sch : list bool -> wend * wend) : list bool -> bool := fun p => wdone (fst (sch p)).

Lemma slice_erase sch : fair sch -> forall fuel path eps E j y nodes G base Tl Tr l1 l3 ct o el er h,
  snd (pmfrh_slice inn fuel mc mr sch path eps E j y nodes G base Tl Tr l1 l3 ct o el er h) =
  pmfr_slice fuel mc mr (winner sch) path eps E j y nodes G base Tl Tr l1 l3 ct.
Proof.
  intro F. induction fuel as [|fuel IH]; intros path eps E j y nodes G base Tl Tr l1 l3 ct o el er h; auto.
  cbn [pmfrh_slice pmfr_slice]. cbv zeta. unfold bind at 1.
  match goal with |- context [compute_lambda eps ?p ?t] => destruct (compute_lambda eps p t) as [[l|]| | |] end; auto.
  destruct (negb (tol_different eps (Qred l) l1) || negb (tol_different eps (Qred l) l3)); auto.
  destruct (Qltb (Qred l) l1 || Qltb l3 (Qred l)); auto. unfold bind at 1.
  match goal with |- context [match ?m with Ok _ => _ | _ => _ end] => destruct m as [c| | |] end; auto.
  destruct (F path) as (F1 & F2 & F3). rewrite F1, F2, F3. cbn [orb].
  change (wdone (fst (sch path))) with (winner sch path).
  match goal with |- context [if ?c then _ else (dels _ _, _)] => destruct c end; auto.
  match goal with |- context [pmfrh_slice inn fuel mc mr sch (true :: path) eps E j y ?n1 ?g1 ?b1 ?t1 ?t2 ?q1 ?q2 ?c1 ?o1 ?e1 ?e2 ?h3] =>
    assert (HA := IH (true :: path) eps E j y n1 g1 b1 t1 t2 q1 q2 c1 o1 e1 e2 h3);
    set (a := pmfrh_slice inn fuel mc mr sch (true :: path) eps E j y n1 g1 b1 t1 t2 q1 q2 c1 o1 e1 e2 h3) in *
  end.
  rewrite <- HA. destruct (snd a) as [ra| | |]; cbn [bind]; auto.
  match goal with |- context [pmfrh_slice inn fuel mc mr sch (false :: path) eps E j y ?n1 ?g1 ?b1 ?t1 ?t2 ?q1 ?q2 ?c1 ?o1 ?e1 ?e2 ?h3] =>
    assert (HB := IH (false :: path) eps E j y n1 g1 b1 t1 t2 q1 q2 c1 o1 e1 e2 h3);
    set (b := pmfrh_slice inn fuel mc mr sch (false :: path) eps E j y n1 g1 b1 t1 t2 q1 q2 c1 o1 e1 e2 h3) in *
  end.
  rewrite <- HB. destruct (snd b) as [rb| | |]; cbn [bind]; auto.
Qed.

Lemma run_erase sch eps E n j d y h : fair sch ->
  snd (pmfrh_run inn mc mr sch eps E n j d y h) = pmfr_run mc mr (winner sch) eps E n j y.
Proof.
  intro F. unfold pmfrh_run, pmfr_run. destruct d as [[dd c] b]. destruct (j <? n)%nat; auto. cbv zeta.
  match goal with |- context [pmfrh_slice inn ?f mc mr sch [] eps E j y ?n1 ?g1 ?b1 ?t1 ?t2 ?q1 ?q2 ?c1 ?o1 ?e1 ?e2 ?h3] =>
    assert (HA := slice_erase sch F f [] eps E j y n1 g1 b1 t1 t2 q1 q2 c1 o1 e1 e2 h3);
    set (a := pmfrh_slice inn f mc mr sch [] eps E j y n1 g1 b1 t1 t2 q1 q2 c1 o1 e1 e2 h3) in *
  end.
  rewrite <- HA. destruct (snd a); reflexivity.
Qed.

Lemma steps_erase sch eps E n d : (forall j, fair (sch j)) -> forall js st h,
  snd (pdtrh_steps inn mc mr sch eps E n d js st h) =
  foldr (pdt_step (fun j y => pmfr_run mc mr (winner (sch j)) eps E n j y) E n) st js.
Proof.
  intro F. induction js as [|j js IH]; intros st h; auto. cbn [pdtrh_steps foldr]. cbv zeta.
  assert (Q : pdt_step (fun _ _ => snd (pmfrh_run inn mc mr (sch j) eps E n j d (fst st) h)) E n st j =
              pdt_step (fun j y => pmfr_run mc mr (winner (sch j)) eps E n j y) E n st j).
  { unfold pdt_step. rewrite (run_erase (sch j) eps E n j d (fst st) h (F j)). reflexivity. }
  rewrite Q. destruct (pdt_step (fun j y => pmfr_run mc mr (winner (sch j)) eps E n j y) E n st j); cbn [bind snd]; auto.
Qed.

Lemma pdt_erase sch eps E n : (forall j, fair (sch j)) ->
  snd (pdtrh_run inn mc mr sch eps E n) = pdtr_run mc mr (fun j => winner (sch j)) eps E n.
Proof.
  intro F. unfold pdtrh_run, pdtr_run, pdt_loop. destruct (n =? 0)%nat; auto. cbv zeta. cbn [fst snd].
  rewrite (steps_erase sch eps E n members F). change (length (@nil (Q * dbl))) with 0%nat. rewrite Nat.sub_0_r. cbn [app].
  match goal with |- bind ?m _ = _ => destruct m end; reflexivity.
Qed.
End Erase.
