(** * FlowThy: flows, cuts and reversed networks. *)
From Verif Require Import Base Graph Spec MSets SetsThy MGraph MaxFlow BFThy MDil DilThy MDT PropDT MPMF LamThy
  PDTThy PropPDT MWarm PropWarm MPMFR PMFRThy MWarmR.

Lemma qsum_flat_map {A B} (g : B -> Q) (h : A -> list B) l :
  qsum g (flat_map h l) == qsum (fun a => qsum g (h a)) l.
Proof. induction l as [|a l IH]; cbn [flat_map qsum]; [reflexivity|]. rewrite qsum_app, IH. reflexivity. Qed.

Lemma combine_map_l {A B C} (h : A -> C) (l : list A) (m : list B) :
  combine (map h l) m = map (fun p => (h (fst p), snd p)) (combine l m).
Proof. revert m. induction l as [|a l IH]; intros [|b m]; cbn; auto. rewrite IH. auto. Qed.

Lemma combine_self {A B} (g : A -> B) l : combine l (map g l) = map (fun a => (a, g a)) l.
Proof. induction l as [|a l IH]; cbn; auto. rewrite IH. auto. Qed.

Lemma combine_fst {A B} (l : list A) (m : list B) : length m = length l -> map fst (combine l m) = l.
Proof. revert m. induction l as [|a l IH]; intros [|b m] H; cbn in *; auto; try discriminate. rewrite IH; auto. Qed.

Lemma combine_ex {A B} (l : list A) (m : list B) a : length m = length l -> In a l -> exists b, In (a, b) (combine l m).
Proof.
  intros H Ha. rewrite <- (combine_fst l m H) in Ha. apply in_map_iff in Ha. destruct Ha as ([a' b] & <- & Hb).
  exists b. auto.
Qed.

Lemma neqb_refl u : nnode_eqb u u = true.
Proof. apply nnode_eqb_true. auto. Qed.

Lemma neqb_false u v : nnode_eqb u v = false <-> u <> v.
Proof. rewrite <- nnode_eqb_true. destruct (nnode_eqb u v); split; intro H; auto; try discriminate; congruence. Qed.

(** Excess depends on the ends of the arcs only. *)
Lemma excess_map h N f u : (forall a, nsrc (h a) = nsrc a /\ ndst (h a) = ndst a) ->
  excess (map h N) f u == excess N f u.
Proof.
  intro H. unfold excess. rewrite combine_map_l, qsum_map. apply qsum_ext. intros [a x] _. cbn [fst snd].
  destruct (H a) as [-> ->]. reflexivity.
Qed.

Lemma excess_rnet N f u : excess (rnet N) f (rnode u) == - excess N f u.
Proof.
  unfold excess, rnet. rewrite combine_map_l, qsum_map.
  rewrite (qsum_ext _ (fun p : narc * Q => -1 * ((if nnode_eqb (ndst (fst p)) u then snd p else 0) -
       (if nnode_eqb (nsrc (fst p)) u then snd p else 0)))).
  - rewrite qsum_scal. ring.
  - intros [a x] _. cbn [fst snd nsrc ndst].
    assert (K : forall w, nnode_eqb (rnode w) (rnode u) = nnode_eqb w u) by (intros [| |p]; destruct u; reflexivity).
    rewrite !K. destruct (nnode_eqb (ndst a) u), (nnode_eqb (nsrc a) u); lra.
Qed.

(** What enters a set of nodes minus what leaves it. *)
Definition crossing (Y : nset) (N : network) (f : flow) : Q :=
  qsum (fun p => (if negb (side Y (nsrc (fst p))) && side Y (ndst (fst p)) then snd p else 0) -
                 (if side Y (nsrc (fst p)) && negb (side Y (ndst (fst p))) then snd p else 0)) (combine N f).

Lemma sum_pick nodes (Y : nset) x k : NoDup nodes -> In k nodes ->
  qsum (fun v => if Y v then (if (k =? v)%nat then x else 0) else 0) nodes == if Y k then x else 0.
Proof.
  intros Hn Hk. rewrite (qsum_ext _ (fun v : nat => if (v =? k)%nat then (if Y k then x else 0) else 0)).
  - apply qsum_single; auto.
  - intros v _. rewrite (Nat.eqb_sym k v). destruct (v =? k)%nat eqn:E.
    + apply Nat.eqb_eq in E. subst. reflexivity.
    + destruct (Y v); reflexivity.
Qed.

Lemma excess_crossing nodes (Y : nset) N f : net_ok nodes N ->
  qsum (fun v : nat => if Y v then excess N f (NV v) else 0) nodes + excess N f NSnk == crossing Y N f.
Proof.
  intros [Hn HN]. unfold excess, crossing.
  rewrite (qsum_ext _ (fun v : nat => qsum (fun p : narc * Q => if Y v then (if nnode_eqb (ndst (fst p)) (NV v) then snd p else 0) -
       (if nnode_eqb (nsrc (fst p)) (NV v) then snd p else 0) else 0) (combine N f))).
  2:{ intros v _. destruct (Y v); [reflexivity|]. symmetry. apply qsum_zero. intros; reflexivity. }
  rewrite qsum_swap, <- qsum_plus. apply qsum_ext. intros [a x] Ha. cbn [fst snd].
  destruct (HN a (in_combine_l _ _ _ _ Ha)) as (_ & K1 & K2).
  rewrite (qsum_ext _ (fun v : nat => (if Y v then (if nnode_eqb (ndst a) (NV v) then x else 0) else 0) -
                              (if Y v then (if nnode_eqb (nsrc a) (NV v) then x else 0) else 0))).
  2:{ intros v _. destruct (Y v); lra. }
  rewrite qsum_minus.
  assert (P : forall w, nnode_ok nodes w ->
     qsum (fun v => if Y v then (if nnode_eqb w (NV v) then x else 0) else 0) nodes + (if nnode_eqb w NSnk then x else 0) ==
     if side Y w then x else 0).
  { intros [| |k] Hw; cbn [nnode_eqb side].
    - rewrite qsum_zero; [lra|]. intros v _. destruct (Y v); reflexivity.
    - rewrite qsum_zero; [lra|]. intros v _. destruct (Y v); reflexivity.
    - rewrite (sum_pick nodes Y x k Hn Hw). lra. }
  assert (P1 := P _ K1). assert (P2 := P _ K2).
  destruct (side Y (nsrc a)), (side Y (ndst a)); cbn [negb andb]; lra.
Qed.

Lemma crossing_cut Y N f : length f = length N ->
  (forall a x, In (a, x) (combine N f) -> 0 <= x /\ x <= ncap a) ->
  crossing Y N f + qsum (fun p => (if negb (side Y (nsrc (fst p))) && side Y (ndst (fst p)) then ncap (fst p) - snd p else 0) +
       (if side Y (nsrc (fst p)) && negb (side Y (ndst (fst p))) then snd p else 0)) (combine N f) == cut N Y.
Proof.
  intros Hl _. unfold crossing, cut. rewrite <- qsum_plus.
  assert (E : qsum (fun a => if negb (side Y (nsrc a)) && side Y (ndst a) then ncap a else 0) N ==
     qsum (fun p => if negb (side Y (nsrc (fst p))) && side Y (ndst (fst p)) then ncap (fst p) else 0) (combine N f)).
  { rewrite <- (combine_fst N f Hl) at 1. rewrite qsum_map. reflexivity. }
  rewrite E. apply qsum_ext. intros [a x] _. cbn [fst snd].
  destruct (side Y (nsrc a)), (side Y (ndst a)); cbn [negb andb]; lra.
Qed.

Lemma slack_terms Y N f :
  (forall a x, In (a, x) (combine N f) -> 0 <= x /\ x <= ncap a) ->
  forall p, In p (combine N f) -> 0 <=
    (if negb (side Y (nsrc (fst p))) && side Y (ndst (fst p)) then ncap (fst p) - snd p else 0) +
       (if side Y (nsrc (fst p)) && negb (side Y (ndst (fst p))) then snd p else 0).
Proof.
  intros H [a x] Hp. cbn [fst snd]. destruct (H a x Hp). destruct (side Y (nsrc a)), (side Y (ndst a)); cbn [negb andb]; lra.
Qed.

Lemma flow_crossing nodes N f v Y : net_ok nodes N -> flow_ok nodes N f v -> crossing Y N f == v.
Proof.
  intros Hok (F1 & F2 & F3 & F4). rewrite <- (excess_crossing nodes Y N f Hok), F4.
  rewrite qsum_zero; [lra|]. intros u Hu. destruct (Y u); [apply F3; auto|reflexivity].
Qed.

(** No flow exceeds a cut. *)
Lemma weak_duality nodes N f v Y : net_ok nodes N -> flow_ok nodes N f v -> v <= cut N Y.
Proof.
  intros Hok Hf. assert (C := flow_crossing nodes N f v Y Hok Hf). destruct Hf as (F1 & F2 & F3 & F4).
  rewrite <- (crossing_cut Y N f F1 F2), C.
  assert (K := qsum_nonneg _ _ (slack_terms Y N f F2)). lra.
Qed.

(** A flow of the value of a cut does not use arcs leaving the sink side. *)
Lemma slack nodes N f v Y : net_ok nodes N -> flow_ok nodes N f v -> v == cut N Y ->
  forall a x, In (a, x) (combine N f) -> side Y (nsrc a) = true -> side Y (ndst a) = false -> x == 0.
Proof.
  intros Hok Hf Hv a x Ha S1 S2. assert (C := flow_crossing nodes N f v Y Hok Hf). destruct Hf as (F1 & F2 & F3 & F4).
  assert (E := crossing_cut Y N f F1 F2).
  assert (Z : qsum (fun p => (if negb (side Y (nsrc (fst p))) && side Y (ndst (fst p)) then ncap (fst p) - snd p else 0) +
       (if side Y (nsrc (fst p)) && negb (side Y (ndst (fst p))) then snd p else 0)) (combine N f) <= 0) by lra.
  assert (K := qsum_all_zero _ _ (slack_terms Y N f F2) Z (a, x) Ha). cbv beta in K. cbn [fst snd] in K.
  rewrite S1, S2 in K. cbn [negb andb] in K. lra.
Qed.

Lemma combine_rnet N (f : flow) : combine (rnet N) f = map (fun p : narc * Q => (mkNarc (rnode (ndst (fst p))) (rnode (nsrc (fst p))) (ncap (fst p)), snd p)) (combine N f).
Proof. unfold rnet. rewrite combine_map_l. reflexivity. Qed.

Lemma side_rnode Y u : side (fun x => negb (Y x)) (rnode u) = negb (side Y u).
Proof. destruct u; reflexivity. Qed.

Lemma slack_rev nodes N f v Y : net_ok nodes N -> flow_ok nodes (rnet N) f v -> v == cut N Y ->
  forall a x, In (a, x) (combine N f) -> side Y (nsrc a) = true -> side Y (ndst a) = false -> x == 0.
Proof.
  intros Hok Hf Hv a x Ha S1 S2.
  apply (slack nodes (rnet N) f v (fun x => negb (Y x)) (rnet_ok _ _ Hok) Hf) with
    (a := mkNarc (rnode (ndst a)) (rnode (nsrc a)) (ncap a)).
  - rewrite Hv, cut_rnet. apply qsum_ext. intros b _.
    assert (S : forall u, side (fun x => negb (negb (Y x))) u = side Y u) by (intros [| |k]; simpl; auto using negb_involutive).
    rewrite !S. reflexivity.
  - rewrite combine_rnet. apply in_map_iff. exists (a, x). auto.
  - cbn [nsrc]. rewrite side_rnode, S2. auto.
  - cbn [ndst]. rewrite side_rnode, S1. auto.
Qed.
