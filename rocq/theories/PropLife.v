(** * PropLife: lifetime of PSP objects and of the graphs they allocate: C63. *)
From Coq Require Import String Permutation.
From Verif Require Import Base Graph MSets MGraph MaxFlow MDil MDT MContract MHost MPSPI MHPSP MPMF MPMFR MWrap PropDil PropWrap MLife.
Notation length := List.length (only parsing).
Open Scope list_scope.
Open Scope nat_scope.

(** ** A discipline for clients

    What is known of a variable from the text of the program: an object constructed from an arc list, with the
    methods run on it so far, or one that uses the client's graph [y]. *)
Inductive kind : Type :=
| Own (elt : list (nat * nat * Q)) (np : Z) (ms : list string)
| Use (y : nat).
(** Live objects, live graphs of the client, objects destroyed with num_points <= 0. *)
Definition static := (list (nat * kind) * list nat * nat)%type.

(** Every variable is constructed once before it is used and destroyed at most once; a graph of the client
    outlives the objects that use it; objects are not copied. *)
Definition check (st : static) (s : stmt) : option static :=
  let '(objs, gs, lk) := st in
  match s with
  | NewPSP x elt np => match vget objs x with None => Some (vset objs x (Own elt np []), gs, lk) | _ => None end
  | WrapPSP x y => match vget objs x with
      | None => if mem gs y then Some (vset objs x (Use y), gs, lk) else None
      | _ => None
      end
  | CopyPSP _ _ | AssignPSP _ _ => None
  | RunPSP x m => match vget objs x with
      | Some (Own elt np ms) => Some (vset objs x (Own elt np (ms ++ [m])), gs, lk)
      | Some (Use y) => Some (vset objs x (Use y), gs, lk)
      | None => None
      end
  | DelPSP x => match vget objs x with
      | Some (Own elt np ms) => Some (vdel objs x, gs, if (0 <? np)%Z then lk else S lk)
      | Some (Use y) => Some (vdel objs x, gs, lk)
      | None => None
      end
  | NewGraph y _ => if mem gs y then None else Some (objs, y :: gs, lk)
  | DelGraph y =>
      if mem gs y && forallb (fun p => match snd p with Use y' => negb (y' =? y) | _ => true end) objs
      then Some (objs, filter (fun z => negb (z =? y)) gs, lk) else None
  end.
Fixpoint check_all (st : static) (p : list stmt) : option static :=
  match p with
  | [] => Some st
  | s :: t => match check st s with Some st' => check_all st' t | None => None end
  end.
Definition static0 : static := ([], [], 0).
Definition owners (objs : list (nat * kind)) : nat := length (filter (fun p => match snd p with Own _ _ _ => true | _ => false end) objs).

(** ** Heap lemmas *)
Lemma hput_length h a b : a < length h -> length (hput h a b) = length h.
Proof. intro H. unfold hput. rewrite app_length. cbn [List.length]. rewrite firstn_length, skipn_length. lia. Qed.
Lemma hget_lt h a b : hget h a = Some b -> a < length h.
Proof.
  unfold hget. destruct (nth_error h a) as [[c|]|] eqn:E; try discriminate. intros _. apply nth_error_Some. congruence.
Qed.
Lemma hget_put h a b c : a < length h -> hget (hput h a b) c = if c =? a then b else hget h c.
Proof.
  intro H. unfold hget, hput. destruct (Nat.eqb_spec c a) as [->|N].
  - rewrite nth_error_app2; rewrite firstn_length_le by lia; [|lia]. rewrite Nat.sub_diag. simpl. destruct b; reflexivity.
  - destruct (Nat.lt_ge_cases c a).
    + rewrite nth_error_app1 by (rewrite firstn_length_le; lia). rewrite <- (firstn_skipn a h) at 2.
      rewrite nth_error_app1 by (rewrite firstn_length_le; lia). reflexivity.
    + rewrite nth_error_app2; rewrite firstn_length_le by lia; [|lia].
      rewrite <- (firstn_skipn (S a) h) at 2. rewrite nth_error_app2; rewrite firstn_length_le by lia; [|lia].
      replace (c - a) with (S (c - S a)) by lia. reflexivity.
Qed.
Lemma hget_new h b1 b2 c : hget (h ++ [Some b1; Some b2]) c =
  if c =? length h then Some b1 else if c =? S (length h) then Some b2 else hget h c.
Proof.
  unfold hget. destruct (Nat.eqb_spec c (length h)) as [->|N1].
  - rewrite nth_error_app2, Nat.sub_diag by lia. reflexivity.
  - destruct (Nat.eqb_spec c (S (length h))) as [->|N2].
    + rewrite nth_error_app2 by lia. replace (S (length h) - length h) with 1 by lia. reflexivity.
    + destruct (Nat.lt_ge_cases c (length h)).
      * rewrite nth_error_app1 by lia. reflexivity.
      * rewrite (proj2 (nth_error_None _ _)) by (rewrite app_length; simpl; lia).
        rewrite (proj2 (nth_error_None _ _)) by lia. reflexivity.
Qed.
Lemma allocated_app h h' : allocated (h ++ h') = allocated h + allocated h'.
Proof. unfold allocated. rewrite filter_app, app_length. reflexivity. Qed.
Lemma allocated_free h a b : hget h a = Some b -> S (allocated (hput h a None)) = allocated h.
Proof.
  intro H. assert (L := hget_lt _ _ _ H). unfold hput. rewrite allocated_app.
  transitivity (allocated (firstn a h ++ Some b :: skipn (S a) h)).
  - rewrite allocated_app. unfold allocated. simpl. lia.
  - f_equal. clear L. unfold hget in H. revert h H. induction a as [|a IH]; intros [|c h] H; simpl in H; try discriminate.
    + destruct c; [injection H as ->; reflexivity|discriminate].
    + cbn [firstn skipn app]. f_equal. apply IH. exact H.
Qed.
Lemma allocated_put h a b b' : hget h a = Some b -> allocated (hput h a (Some b')) = allocated h.
Proof.
  intro H. transitivity (S (allocated (hput h a None))); [|eapply allocated_free; eauto].
  unfold hput. rewrite !allocated_app. unfold allocated. simpl. lia.
Qed.

(** ** Variables *)
Section Vars.
  Context {A B : Type}.
  Lemma vget_In (l : list (nat * A)) x v : vget l x = Some v -> In (x, v) l.
  Proof.
    induction l as [|[k w] l IH]; simpl; [discriminate|]. destruct (Nat.eqb_spec x k) as [->|N]; intro H; [injection H as ->|]; auto.
  Qed.
  Lemma vget_None (l : list (nat * A)) x : vget l x = None <-> ~ In x (map fst l).
  Proof.
    induction l as [|[k w] l IH]; simpl; [tauto|]. destruct (Nat.eqb_spec x k) as [->|N]; [split; [discriminate|tauto]|].
    rewrite IH. intuition.
  Qed.
  Lemma In_vget (l : list (nat * A)) x v : NoDup (map fst l) -> In (x, v) l -> vget l x = Some v.
  Proof.
    induction l as [|[k w] l IH]; simpl; [tauto|]. intros N [E|H].
    - injection E as -> ->. rewrite Nat.eqb_refl. reflexivity.
    - inversion N; subst. destruct (Nat.eqb_spec x k) as [->|Nk]; auto. exfalso. apply H2. apply in_map_iff. exists (k, v). auto.
  Qed.
  Lemma vdel_map (f : A -> B) l x : vdel (map (fun p => (fst p, f (snd p))) l) x = map (fun p => (fst p, f (snd p))) (vdel l x).
  Proof. unfold vdel. induction l as [|[k w] l IH]; simpl; auto. destruct (k =? x); simpl; rewrite IH; reflexivity. Qed.
  Lemma vget_map (f : A -> B) l x : vget (map (fun p => (fst p, f (snd p))) l) x = option_map f (vget l x).
  Proof. induction l as [|[k w] l IH]; simpl; auto. destruct (x =? k); auto. Qed.
  Lemma vdel_In (l : list (nat * A)) x p : In p (vdel l x) <-> In p l /\ fst p <> x.
  Proof. unfold vdel. rewrite filter_In. destruct (Nat.eqb_spec (fst p) x); simpl; intuition congruence. Qed.
  Lemma vdel_NoDup (l : list (nat * A)) x : NoDup (map fst l) -> NoDup (map fst (vdel l x)).
  Proof.
    unfold vdel. induction l as [|[k w] l IH]; simpl; auto. intro N. inversion N; subst. destruct (k =? x); simpl; auto.
    constructor; auto. intro H. apply H1. apply in_map_iff in H as (p & P1 & P2). apply filter_In in P2 as [P2 _]. apply in_map_iff. eauto.
  Qed.
  Lemma vset_NoDup (l : list (nat * A)) x v : NoDup (map fst l) -> NoDup (map fst (vset l x v)).
  Proof.
    intro N. simpl. constructor; [|apply vdel_NoDup; auto]. intro H. apply in_map_iff in H as (p & P1 & P2).
    apply vdel_In in P2. tauto.
  Qed.
  Lemma vdel_fresh (l : list (nat * A)) x : ~ In x (map fst l) -> vdel l x = l.
  Proof.
    unfold vdel. induction l as [|[k w] l IH]; simpl; auto. intro H. destruct (Nat.eqb_spec k x) as [->|N]; [tauto|].
    simpl. rewrite IH by tauto. reflexivity.
  Qed.
  Lemma flat_vdel (f : nat * A -> list nat) l x v : NoDup (map fst l) -> In (x, v) l ->
    Permutation (flat_map f l) (f (x, v) ++ flat_map f (vdel l x)).
  Proof.
    induction l as [|[k w] l IH]; simpl; [tauto|]. intros N [E|H]; inversion N; subst.
    - injection E as -> ->. unfold vdel. simpl. rewrite Nat.eqb_refl. simpl. fold (vdel l x). rewrite vdel_fresh by auto. reflexivity.
    - unfold vdel. simpl. destruct (Nat.eqb_spec k x) as [->|Nk].
      + exfalso. apply H2. apply in_map_iff. exists (x, v). auto.
      + simpl. fold (vdel l x). rewrite (IH H3 H). rewrite !app_assoc. apply Permutation_app_tail. apply Permutation_app_comm.
  Qed.
End Vars.

(** ** The invariant *)
Definition gaddr (p : nat * (kind * pobj)) : list nat :=
  match fst (snd p) with Own _ _ _ => [po_g (snd (snd p)); po_m (snd (snd p))] | Use _ => [] end.
Definition eaddr (p : nat * (nat * nat)) : list nat := [fst (snd p); snd (snd p)].
Definition kind_ok (v : env) (w : world) (p : nat * (kind * pobj)) : Prop :=
  let o := snd (snd p) in
  match fst (snd p) with
  | Own elt np ms => po_np o = np /\ (exists b, hget (w_heap w) (po_m o) = Some (BMap b)) /\
      exists o0 G, psp_ctor (e_eps v) elt (Z.to_nat np) = Ok o0 /\ hget (w_heap w) (po_g o) = Some (BGraph G) /\
        mkObj G (po_cv o) (po_psp o) = obj_runs v o0 ms
  | Use y => po_np o = 0%Z /\ vget (w_ext w) y = Some (po_g o, po_m o)
  end.
Definition st_of (go : list (nat * (kind * pobj))) : list (nat * kind) := map (fun p => (fst p, fst (snd p))) go.
Definition ob_of (go : list (nat * (kind * pobj))) : list (nat * pobj) := map (fun p => (fst p, snd (snd p))) go.
Record InvR (v : env) (st : static) (w : world) (go : list (nat * (kind * pobj))) (leak : list nat) : Prop := mkInv {
  i_st : fst (fst st) = st_of go;
  i_ob : w_obj w = ob_of go;
  i_nd : NoDup (map fst go);
  i_gs : snd (fst st) = map fst (w_ext w);
  i_gn : NoDup (map fst (w_ext w));
  i_kinds : forall p, In p go -> kind_ok v w p;
  i_ext : forall p, In p (w_ext w) -> (exists G, hget (w_heap w) (fst (snd p)) = Some (BGraph G)) /\ exists b, hget (w_heap w) (snd (snd p)) = Some (BMap b);
  i_addr : NoDup (flat_map gaddr go ++ flat_map eaddr (w_ext w) ++ leak);
  i_live : forall a, In a leak -> hget (w_heap w) a <> None;
  i_lk : length leak = 2 * snd st;
  i_all : allocated (w_heap w) = length (flat_map gaddr go ++ flat_map eaddr (w_ext w) ++ leak) }.

Lemma inv_addr_live v st w go leak : InvR v st w go leak ->
  forall a, In a (flat_map gaddr go ++ flat_map eaddr (w_ext w) ++ leak) -> hget (w_heap w) a <> None.
Proof.
  intros I a H. apply in_app_or in H as [H|H]; [|apply in_app_or in H as [H|H]].
  - apply in_flat_map in H as (p & P1 & P2). assert (K := i_kinds _ _ _ _ _ I p P1). unfold kind_ok, gaddr in *.
    destruct (fst (snd p)) as [elt np ms|y]; [|destruct P2].
    destruct K as (_ & (b & K1) & o0 & G & _ & K2 & _). destruct P2 as [<-|[<-|[]]]; congruence.
  - apply in_flat_map in H as (p & P1 & P2). destruct (i_ext _ _ _ _ _ I p P1) as [(G & K1) (b & K2)].
    destruct P2 as [<-|[<-|[]]]; congruence.
  - apply (i_live _ _ _ _ _ I a H).
Qed.
Lemma hget_fresh h a : hget h a <> None -> a < length h.
Proof. intro H. destruct (hget h a) eqn:E; [eapply hget_lt; eauto|congruence]. Qed.

(** Heaps that agree outside of the addresses of other objects. *)
Lemma kind_ok_ext v w w' p : kind_ok v w p ->
  (forall a, In a (gaddr p) -> hget (w_heap w') a = hget (w_heap w) a) ->
  (forall y, fst (snd p) = Use y -> vget (w_ext w') y = vget (w_ext w) y) -> kind_ok v w' p.
Proof.
  unfold kind_ok, gaddr. intros K H1 H2. destruct (fst (snd p)) as [elt np ms|y].
  - destruct K as (K1 & (b & K2) & o0 & G & K3 & K4 & K5). split; auto. split.
    + exists b. rewrite H1 by (simpl; auto). auto.
    + exists o0, G. split; auto. split; auto. rewrite H1 by (simpl; auto). auto.
  - rewrite (H2 y) by auto. exact K.
Qed.
Lemma eaddr_in (l : list (nat * (nat * nat))) p : In p l -> In (fst (snd p)) (flat_map eaddr l) /\ In (snd (snd p)) (flat_map eaddr l).
Proof. intro H. split; apply in_flat_map; exists p; unfold eaddr; simpl; auto. Qed.
Lemma gaddr_in go p a : In p go -> In a (gaddr p) -> In a (flat_map gaddr go).
Proof. intros. apply in_flat_map. eauto. Qed.

Lemma runs_snoc v o ms m : obj_runs v o (ms ++ [m]) = obj_after v (obj_runs v o ms) m.
Proof. unfold obj_runs. rewrite fold_left_app. reflexivity. Qed.

Lemma step v st w s st' go leak : InvR v st w go leak -> check st s = Some st' ->
  exec v w s <> Invalid /\ forall w', exec v w s = Done w' -> exists go' leak', InvR v st' w' go' leak'.
Proof.
  intros I HC. destruct st as [[objs gs] lk]. assert (IA := inv_addr_live _ _ _ _ _ I).
  destruct I as [I1 I2 I3 I4 I5 I6 I7 I8 I9 I10 I11]. cbn [fst snd] in *. subst objs gs.
  assert (VG : forall x, vget (st_of go) x = option_map fst (vget go x)) by (intro; apply vget_map).
  assert (VO : forall x, vget (w_obj w) x = option_map snd (vget go x)) by (intro; rewrite I2; apply vget_map).
  destruct s as [x elt np|x y|x y|x y|x m|x|y G|y]; cbn [check] in HC; try discriminate HC.
  - (* NewPSP *)
    destruct (vget (st_of go) x) eqn:E0; [discriminate|]. injection HC as <-. cbn [exec].
    destruct (psp_ctor (e_eps v) elt (Z.to_nat np)) as [o| | |] eqn:EC; try (split; [discriminate|intros; discriminate]).
    split; [discriminate|]. intros w' E. injection E as <-. set (a := length (w_heap w)).
    assert (FR : forall b, In b (flat_map gaddr go ++ flat_map eaddr (w_ext w) ++ leak) -> b < a) by (intros b Hb; apply hget_fresh, IA, Hb).
    assert (HN : forall b, b < a -> hget (w_heap w ++ [Some (BGraph (ob_g o)); Some (BMap a)]) b = hget (w_heap w) b).
    { intros b Hb. rewrite hget_new. fold a. destruct (Nat.eqb_spec b a); [lia|]. destruct (Nat.eqb_spec b (S a)); [lia|]. reflexivity. }
    rewrite VG in E0. assert (Hx : ~ In x (map fst go)) by (apply vget_None; destruct (vget go x); [discriminate|reflexivity]).
    exists ((x, (Own elt np [], mkP a (S a) np [] [])) :: go), leak.
    constructor; cbn [fst snd w_heap w_obj w_ext]; auto.
    + unfold vset. simpl. f_equal. apply vdel_fresh. unfold st_of. rewrite map_map. exact Hx.
    + unfold vset. simpl. f_equal. rewrite I2. apply vdel_fresh. unfold ob_of. rewrite map_map. exact Hx.
    + simpl. constructor; auto.
    + intros p [<-|Hp].
      * unfold kind_ok. cbn [fst snd po_np po_m po_g po_cv po_psp w_heap]. split; [reflexivity|]. split.
        -- exists a. rewrite hget_new. fold a. destruct (Nat.eqb_spec (S a) a); [lia|]. rewrite Nat.eqb_refl. reflexivity.
        -- exists o, (ob_g o). split; auto. split; [rewrite hget_new; fold a; rewrite Nat.eqb_refl; reflexivity|].
           unfold psp_ctor in EC. destruct (make_dgraph _ _ _); cbn [bind] in EC; try discriminate. injection EC as <-. reflexivity.
      * eapply kind_ok_ext; [apply I6; auto|cbn [w_heap]|reflexivity]. intros b Hb. apply HN. apply FR. apply in_or_app. left. eapply gaddr_in; eauto.
    + intros p Hp. destruct (eaddr_in _ _ Hp) as [A1 A2]. rewrite !HN by (apply FR; apply in_or_app; right; apply in_or_app; auto). auto.
    + simpl. unfold gaddr at 1. simpl. constructor; [|constructor; [|exact I8]].
      * intros [H|H]; [lia|]. apply FR in H. lia.
      * intro H. apply FR in H. lia.
    + intros b Hb. rewrite HN by (apply FR; apply in_or_app; right; apply in_or_app; auto). auto.
    + rewrite allocated_app, I11. simpl. unfold allocated. simpl. lia.
  - (* WrapPSP *)
    destruct (vget (st_of go) x) eqn:E0; [discriminate|]. destruct (mem (map fst (w_ext w)) y) eqn:E1; [|discriminate]. injection HC as <-. cbn [exec].
    destruct (vget (w_ext w) y) as [[a b]|] eqn:E2; [|split; [discriminate|intros; discriminate]].
    split; [discriminate|]. intros w' E. injection E as <-.
    rewrite VG in E0. assert (Hx : ~ In x (map fst go)) by (apply vget_None; destruct (vget go x); [discriminate|reflexivity]).
    exists ((x, (Use y, mkP a b 0 [] [])) :: go), leak. constructor; cbn [fst snd w_heap w_obj w_ext]; auto.
    + unfold vset. simpl. f_equal. apply vdel_fresh. unfold st_of. rewrite map_map. exact Hx.
    + unfold vset. simpl. f_equal. rewrite I2. apply vdel_fresh. unfold ob_of. rewrite map_map. exact Hx.
    + simpl. constructor; auto.
    + intros p [<-|Hp]; [|apply I6; auto]. unfold kind_ok. simpl. auto.
  - (* RunPSP *)
    rewrite VG in HC. destruct (vget go x) as [[k o]|] eqn:E0; [|discriminate]. cbn [option_map fst] in HC.
    assert (Hin := vget_In _ _ _ E0). assert (K := I6 _ Hin). cbn [exec]. rewrite VO, E0. cbn [option_map snd].
    assert (LIVE : (exists G, hget (w_heap w) (po_g o) = Some (BGraph G)) /\ exists b, hget (w_heap w) (po_m o) = Some (BMap b)).
    { unfold kind_ok in K. cbn [fst snd] in K. destruct k as [elt np ms|y].
      - destruct K as (_ & K2 & o0 & G & _ & K4 & _). eauto.
      - destruct K as [_ K]. apply vget_In in K. apply I7 in K. exact K. }
    destruct LIVE as [(G & LG) (b & LM)]. rewrite LG, LM.
    destruct (obj_run v (mkObj G (po_cv o) (po_psp o)) m) as [o'| | |] eqn:ER; try (split; [discriminate|intros; discriminate]).
    + split; [discriminate|]. intros w' E. injection E as <-. assert (LA := hget_lt _ _ _ LG).
      set (o1 := mkP (po_g o) (po_m o) (po_np o) (ob_cv o') (ob_psp o')).
      set (k1 := match k with Own elt np ms => Own elt np (ms ++ [m]) | Use y => Use y end).
      assert (EST : st' = (vset (st_of go) x k1, map fst (w_ext w), lk)) by (unfold k1; destruct k; congruence).
      subst st'. clear HC. assert (NM : po_g o <> po_m o) by (intro C; rewrite C in LG; congruence).
      assert (HP : forall c, hget (hput (w_heap w) (po_g o) (Some (BGraph (ob_g o')))) c = if c =? po_g o then Some (BGraph (ob_g o')) else hget (w_heap w) c) by (intro; apply hget_put; auto).
      assert (PG : Permutation (flat_map gaddr go) (gaddr (x, (k, o)) ++ flat_map gaddr (vdel go x))) by (apply flat_vdel; auto).
      assert (GE : gaddr (x, (k1, o1)) = gaddr (x, (k, o))) by (unfold gaddr, k1, o1; destruct k; reflexivity).
      assert (PE : Permutation (flat_map gaddr go ++ flat_map eaddr (w_ext w) ++ leak)
                               (flat_map gaddr (vset go x (k1, o1)) ++ flat_map eaddr (w_ext w) ++ leak)).
      { apply Permutation_app_tail. unfold vset. cbn [flat_map]. rewrite GE. exact PG. }
      exists (vset go x (k1, o1)), leak. constructor; cbn [fst snd w_heap w_obj w_ext]; auto.
      * unfold vset. simpl. f_equal. apply (vdel_map fst).
      * unfold vset. simpl. f_equal. rewrite I2. apply (vdel_map snd).
      * apply vset_NoDup. auto.
      * intros p [<-|Hp].
        -- unfold kind_ok in *. cbn [fst snd] in *. unfold k1. destruct k as [elt np ms|y].
           ++ destruct K as (K1 & (b' & K2) & o0 & G' & K3 & K4 & K5). cbn [w_heap po_np po_m po_g po_cv po_psp o1]. split; auto. split.
              ** exists b'. rewrite HP. destruct (Nat.eqb_spec (po_m o) (po_g o)); [congruence|]. auto.
              ** exists o0, (ob_g o'). split; auto. split; [rewrite HP, Nat.eqb_refl; reflexivity|].
                 rewrite runs_snoc, <- K5. assert (G' = G) by congruence. subst G'. unfold obj_after. rewrite ER. destruct o'; reflexivity.
           ++ exact K.
        -- apply vdel_In in Hp as [Hp Hn]. assert (Kp := I6 _ Hp).
           destruct k as [elt np ms|y].
           ++ eapply kind_ok_ext; [exact Kp|cbn [w_heap]|reflexivity]. intros c Hc. rewrite HP.
              destruct (Nat.eqb_spec c (po_g o)) as [->|]; auto. exfalso.
              assert (N := Permutation_NoDup PE I8). unfold vset in N. cbn [flat_map] in N. rewrite <- app_assoc in N.
              apply NoDup_app_inv in N as (_ & _ & N). apply (N (po_g o)); [rewrite GE; simpl; auto|].
              apply in_or_app. left. eapply gaddr_in; [apply vdel_In; split; eauto|auto].
           ++ eapply kind_ok_ext; [exact Kp|cbn [w_heap]|reflexivity]. intros c Hc. rewrite HP.
              destruct (Nat.eqb_spec c (po_g o)) as [->|]; auto. exfalso.
              unfold kind_ok in K. cbn [fst snd] in K. destruct K as [_ K]. apply vget_In in K. apply eaddr_in in K as [K _]. simpl in K.
              apply NoDup_app_inv in I8 as (_ & _ & N). apply (N (po_g o)); [eapply gaddr_in; eauto|apply in_or_app; auto].
      * intros p Hp. rewrite !HP. destruct (I7 p Hp) as [(G1 & G2) (b1 & b2)]. split.
        -- destruct (fst (snd p) =? po_g o); eauto.
        -- destruct (Nat.eqb_spec (snd (snd p)) (po_g o)) as [EE|]; eauto. exfalso. congruence.
      * eapply Permutation_NoDup; eauto.
      * intros a Ha. rewrite HP. destruct (a =? po_g o); [discriminate|auto].
      * rewrite (allocated_put _ _ _ _ LG), I11. apply Permutation_length. exact PE.
    + (* throws *) split; [discriminate|]. intros w' E. injection E as <-.
      set (k1 := match k with Own elt np ms => Own elt np (ms ++ [m]) | Use y => Use y end).
      assert (EST : st' = (vset (st_of go) x k1, map fst (w_ext w), lk)) by (unfold k1; destruct k; congruence).
      subst st'. clear HC.
      assert (PG : Permutation (flat_map gaddr go) (gaddr (x, (k, o)) ++ flat_map gaddr (vdel go x))) by (apply flat_vdel; auto).
      assert (GE : gaddr (x, (k1, o)) = gaddr (x, (k, o))) by (unfold gaddr, k1; destruct k; reflexivity).
      assert (PE : Permutation (flat_map gaddr go ++ flat_map eaddr (w_ext w) ++ leak)
                               (flat_map gaddr (vset go x (k1, o)) ++ flat_map eaddr (w_ext w) ++ leak)).
      { apply Permutation_app_tail. unfold vset. cbn [flat_map]. rewrite GE. exact PG. }
      exists (vset go x (k1, o)), leak. constructor; cbn [fst snd w_heap w_obj w_ext]; auto.
      * unfold vset. simpl. f_equal. apply (vdel_map fst).
      * unfold vset. simpl. f_equal. rewrite I2. apply (vdel_map snd).
      * apply vset_NoDup. auto.
      * intros p [<-|Hp]; [|apply vdel_In in Hp as [Hp _]; exact (I6 _ Hp)].
        unfold kind_ok in *. cbn [fst snd] in *. unfold k1. destruct k as [elt np ms|y]; [|exact K].
        destruct K as (K1 & K2 & o0 & G' & K3 & K4 & K5). split; auto. split; auto. exists o0, G'. split; auto. split; auto.
        rewrite runs_snoc, <- K5. assert (G' = G) by congruence. subst G'. unfold obj_after. rewrite ER. reflexivity.
      * eapply Permutation_NoDup; eauto.
      * rewrite I11. apply Permutation_length. exact PE.
  - (* DelPSP *)
    rewrite VG in HC. destruct (vget go x) as [[k o]|] eqn:E0; [|discriminate]. cbn [option_map fst] in HC.
    assert (Hin := vget_In _ _ _ E0). assert (K := I6 _ Hin). cbn [exec]. rewrite VO, E0. cbn [option_map snd].
    assert (PG : Permutation (flat_map gaddr go) (gaddr (x, (k, o)) ++ flat_map gaddr (vdel go x))) by (apply flat_vdel; auto).
    unfold kind_ok in K. cbn [fst snd] in K. destruct k as [elt np ms|y].
    + destruct K as (K1 & (b & K2) & o0 & G & K3 & K4 & K5). rewrite K1.
      assert (NM : po_g o <> po_m o) by (intro C; rewrite C in K4; congruence).
      assert (PE : Permutation (flat_map gaddr go ++ flat_map eaddr (w_ext w) ++ leak)
                               (po_g o :: po_m o :: flat_map gaddr (vdel go x) ++ flat_map eaddr (w_ext w) ++ leak)).
      { rewrite PG. unfold gaddr at 1. simpl. reflexivity. }
      assert (N := Permutation_NoDup PE I8). inversion N as [|? ? N1 N2]; subst. inversion N2 as [|? ? N3 N4]; subst.
      destruct (0 <? po_np o)%Z eqn:EN.
      * injection HC as <-. assert (LM := hget_lt _ _ _ K2). assert (LG := hget_lt _ _ _ K4). unfold hfree. rewrite K2.
        assert (H1 : forall c, hget (hput (w_heap w) (po_m o) None) c = if c =? po_m o then None else hget (w_heap w) c) by (intro; apply hget_put; auto).
        rewrite H1. destruct (Nat.eqb_spec (po_g o) (po_m o)); [congruence|]. rewrite K4.
        assert (H2 : forall c, hget (hput (hput (w_heap w) (po_m o) None) (po_g o) None) c = if c =? po_g o then None else if c =? po_m o then None else hget (w_heap w) c).
        { intro c. rewrite hget_put by (rewrite hput_length; auto). rewrite H1. reflexivity. }
        split; [discriminate|]. intros w' E. injection E as <-.
        assert (HK : forall c, In c (flat_map gaddr (vdel go x) ++ flat_map eaddr (w_ext w) ++ leak) ->
          hget (hput (hput (w_heap w) (po_m o) None) (po_g o) None) c = hget (w_heap w) c).
        { intros c Hc. rewrite H2. destruct (Nat.eqb_spec c (po_g o)) as [->|]; [exfalso; apply N1; simpl; auto|].
          destruct (Nat.eqb_spec c (po_m o)) as [->|]; [contradiction|reflexivity]. }
        exists (vdel go x), leak. constructor; cbn [fst snd w_heap w_obj w_ext]; auto.
        -- apply (vdel_map fst).
        -- rewrite I2. apply (vdel_map snd).
        -- apply vdel_NoDup. auto.
        -- intros p Hp. assert (Hp' := Hp). apply vdel_In in Hp as [Hp Hn]. eapply kind_ok_ext; [apply I6; auto| |reflexivity].
           cbn [w_heap]. intros c Hc. apply HK. apply in_or_app. left. eapply gaddr_in; eauto.
        -- intros p Hp. destruct (eaddr_in _ _ Hp) as [B1 B2]. rewrite !HK by (apply in_or_app; right; apply in_or_app; auto). auto.
        -- intros a Ha. rewrite HK by (apply in_or_app; right; apply in_or_app; auto). auto.
        -- assert (F1 := allocated_free _ _ _ K2).
           assert (K4' : hget (hput (w_heap w) (po_m o) None) (po_g o) = Some (BGraph G)).
           { rewrite H1. destruct (Nat.eqb_spec (po_g o) (po_m o)); [congruence|auto]. }
           assert (F2 := allocated_free _ _ _ K4'). apply Permutation_length in PE. simpl in PE. lia.
      * injection HC as <-. split; [discriminate|]. intros w' E. injection E as <-.
        exists (vdel go x), (po_g o :: po_m o :: leak).
        assert (PE2 : Permutation (flat_map gaddr go ++ flat_map eaddr (w_ext w) ++ leak)
                               (flat_map gaddr (vdel go x) ++ flat_map eaddr (w_ext w) ++ po_g o :: po_m o :: leak)).
        { rewrite PE. rewrite !app_assoc. change (po_g o :: po_m o :: leak) with ([po_g o; po_m o] ++ leak). rewrite !app_assoc.
          change (po_g o :: po_m o :: (flat_map gaddr (vdel go x) ++ flat_map eaddr (w_ext w)) ++ leak) with
            (([po_g o; po_m o] ++ (flat_map gaddr (vdel go x) ++ flat_map eaddr (w_ext w))) ++ leak).
          apply Permutation_app_tail. apply Permutation_app_comm. }
        constructor; cbn [fst snd w_heap w_obj w_ext]; auto.
        -- apply (vdel_map fst).
        -- rewrite I2. apply (vdel_map snd).
        -- apply vdel_NoDup. auto.
        -- intros p Hp. apply vdel_In in Hp as [Hp Hn]. exact (I6 _ Hp).
        -- eapply Permutation_NoDup; eauto.
        -- intros a [<-|[<-|Ha]]; [congruence|congruence|auto].
        -- simpl. lia.
        -- rewrite I11. apply Permutation_length. exact PE2.
    + destruct K as [K _]. injection HC as <-. rewrite K. cbn [Z.ltb Z.compare]. split; [discriminate|]. intros w' E. injection E as <-.
      unfold gaddr at 2 in PG. simpl in PG.
      exists (vdel go x), leak. constructor; cbn [fst snd w_heap w_obj w_ext]; auto.
      * apply (vdel_map fst).
      * rewrite I2. apply (vdel_map snd).
      * apply vdel_NoDup. auto.
      * intros p Hp. apply vdel_In in Hp as [Hp Hn]. exact (I6 _ Hp).
      * eapply Permutation_NoDup; [|exact I8]. apply Permutation_app_tail. exact PG.
      * rewrite I11. apply Permutation_length. apply Permutation_app_tail. exact PG.
  - (* NewGraph *)
    destruct (mem (map fst (w_ext w)) y) eqn:E1; [discriminate|]. injection HC as <-. cbn [exec].
    split; [discriminate|]. intros w' E. injection E as <-. set (a := length (w_heap w)).
    assert (Hy : ~ In y (map fst (w_ext w))) by (intro H; apply mem_In in H; congruence).
    assert (FR : forall b, In b (flat_map gaddr go ++ flat_map eaddr (w_ext w) ++ leak) -> b < a) by (intros b Hb; apply hget_fresh, IA, Hb).
    assert (HN : forall b, b < a -> hget (w_heap w ++ [Some (BGraph G); Some (BMap a)]) b = hget (w_heap w) b).
    { intros b Hb. rewrite hget_new. fold a. destruct (Nat.eqb_spec b a); [lia|]. destruct (Nat.eqb_spec b (S a)); [lia|]. reflexivity. }
    assert (EV : vset (w_ext w) y (a, S a) = (y, (a, S a)) :: w_ext w) by (unfold vset; rewrite vdel_fresh; auto).
    exists go, leak. constructor; cbn [fst snd w_heap w_obj w_ext]; rewrite ?EV; auto.
    + simpl. constructor; auto.
    + intros p Hp. eapply kind_ok_ext; [apply I6; auto|cbn [w_heap]|cbn [w_ext]].
      * intros b Hb. apply HN. apply FR. apply in_or_app. left. eapply gaddr_in; eauto.
      * intros y' Ey. simpl. destruct (Nat.eqb_spec y' y) as [->|]; auto. exfalso.
        assert (K := I6 p Hp). unfold kind_ok in K. rewrite Ey in K. destruct K as [_ K]. apply vget_In in K. apply Hy.
        apply in_map_iff. eexists. split; [|exact K]. reflexivity.
    + intros p [<-|Hp]; cbn [fst snd].
      * split; [exists G|exists a]; rewrite hget_new; fold a; rewrite ?Nat.eqb_refl; [reflexivity|].
        destruct (Nat.eqb_spec (S a) a); [lia|reflexivity].
      * destruct (eaddr_in _ _ Hp) as [B1 B2]. rewrite !HN by (apply FR; apply in_or_app; right; apply in_or_app; auto). auto.
    + cbn [flat_map]. unfold eaddr at 1. cbn [fst snd]. cbn [app].
      apply (Permutation_NoDup (l := a :: S a :: flat_map gaddr go ++ flat_map eaddr (w_ext w) ++ leak)).
      * rewrite <- Permutation_middle. constructor. rewrite <- Permutation_middle. constructor. reflexivity.
      * constructor; [intros [H|H]; [lia|apply FR in H; lia]|]. constructor; [intro H; apply FR in H; lia|exact I8].
    + intros b Hb. rewrite HN by (apply FR; apply in_or_app; right; apply in_or_app; auto). auto.
    + rewrite allocated_app, I11. cbn [flat_map]. rewrite !app_length. unfold allocated. simpl. lia.
  - (* DelGraph *)
    destruct (mem (map fst (w_ext w)) y) eqn:E1; [|discriminate].
    destruct (forallb _ (st_of go)) eqn:E2; [|discriminate]. injection HC as <-. cbn [exec].
    destruct (vget (w_ext w) y) as [[a b]|] eqn:E0; [|split; [discriminate|intros; discriminate]].
    assert (Hin := vget_In _ _ _ E0). destruct (I7 _ Hin) as [(G & K4) (b' & K2)]. cbn [fst snd] in K4, K2.
    assert (NM : a <> b) by (intro C; rewrite C in K4; congruence).
    assert (PG : Permutation (flat_map eaddr (w_ext w)) (eaddr (y, (a, b)) ++ flat_map eaddr (vdel (w_ext w) y))) by (apply flat_vdel; auto).
    assert (PE : Permutation (flat_map gaddr go ++ flat_map eaddr (w_ext w) ++ leak)
                             (a :: b :: flat_map gaddr go ++ flat_map eaddr (vdel (w_ext w) y) ++ leak)).
    { rewrite PG. unfold eaddr at 1. cbn [fst snd app]. rewrite <- Permutation_middle. constructor. rewrite <- Permutation_middle. constructor. reflexivity. }
    assert (N := Permutation_NoDup PE I8). inversion N as [|? ? N1 N2]; subst. inversion N2 as [|? ? N3 N4]; subst.
    assert (LM := hget_lt _ _ _ K2). assert (LG := hget_lt _ _ _ K4). unfold hfree. rewrite K2.
    assert (H1 : forall c, hget (hput (w_heap w) b None) c = if c =? b then None else hget (w_heap w) c) by (intro; apply hget_put; auto).
    rewrite H1. destruct (Nat.eqb_spec a b); [congruence|]. rewrite K4.
    assert (H2 : forall c, hget (hput (hput (w_heap w) b None) a None) c = if c =? a then None else if c =? b then None else hget (w_heap w) c).
    { intro c. rewrite hget_put by (rewrite hput_length; auto). rewrite H1. reflexivity. }
    split; [discriminate|]. intros w' E. injection E as <-.
    assert (HK : forall c, In c (flat_map gaddr go ++ flat_map eaddr (vdel (w_ext w) y) ++ leak) ->
      hget (hput (hput (w_heap w) b None) a None) c = hget (w_heap w) c).
    { intros c Hc. rewrite H2. destruct (Nat.eqb_spec c a) as [->|]; [exfalso; apply N1; simpl; auto|].
      destruct (Nat.eqb_spec c b) as [->|]; [contradiction|reflexivity]. }
    exists go, leak. constructor; cbn [fst snd w_heap w_obj w_ext]; auto.
    + unfold vdel. clear. induction (w_ext w) as [|[k p] l IH]; simpl; auto. destruct (k =? y); simpl; rewrite IH; reflexivity.
    + apply vdel_NoDup. auto.
    + intros p Hp. eapply kind_ok_ext; [apply I6; auto|cbn [w_heap]|cbn [w_ext]].
      * intros c Hc. apply HK. apply in_or_app. left. eapply gaddr_in; eauto.
      * intros y' Ey. rewrite forallb_forall in E2. assert (K := E2 (fst p, fst (snd p))). cbn [snd] in K. rewrite Ey in K.
        assert (Ny : y' <> y).
        { intro C. subst y'. rewrite Nat.eqb_refl in K. discriminate K. unfold st_of. apply in_map_iff. exists p. rewrite Ey. auto. }
        clear - Ny. induction (w_ext w) as [|[k q] l IH]; auto. unfold vdel. simpl. destruct (Nat.eqb_spec k y) as [->|Nk]; simpl.
        -- fold (vdel l y). rewrite IH. destruct (Nat.eqb_spec y' y); [congruence|reflexivity].
        -- fold (vdel l y). rewrite IH. reflexivity.
    + intros p Hp. destruct (eaddr_in _ _ Hp) as [B1 B2]. rewrite !HK by (apply in_or_app; right; apply in_or_app; auto).
      apply vdel_In in Hp as [Hp _]. auto.
    + intros c Hc. rewrite HK by (apply in_or_app; right; apply in_or_app; auto). auto.
    + assert (F1 := allocated_free _ _ _ K2).
      assert (K4' : hget (hput (w_heap w) b None) a = Some (BGraph G)).
      { rewrite H1. destruct (Nat.eqb_spec a b); [congruence|auto]. }
      assert (F2 := allocated_free _ _ _ K4'). apply Permutation_length in PE. simpl in PE. lia.
Qed.

Lemma steps v p : forall st w st' go leak, InvR v st w go leak -> check_all st p = Some st' ->
  exec_all v w p <> Invalid /\ forall w', exec_all v w p = Done w' -> exists go' leak', InvR v st' w' go' leak'.
Proof.
  induction p as [|s p IH]; intros st w st' go leak I HC; cbn [check_all exec_all] in *.
  - injection HC as <-. split; [discriminate|]. intros w' E. injection E as <-. eauto.
  - destruct (check st s) as [st1|] eqn:E1; [|discriminate]. destruct (step _ _ _ _ _ _ _ I E1) as [S1 S2].
    destruct (exec v w s) as [w1| |] eqn:E2; [|congruence|split; [discriminate|intros; discriminate]].
    destruct (S2 w1 eq_refl) as (go1 & leak1 & I1). eapply IH; eauto.
Qed.
Lemma inv0 v : InvR v static0 world0 [] [].
Proof. constructor; simpl; try constructor; try tauto. Qed.
Lemma owners_addr go : length (flat_map gaddr go) = 2 * owners (st_of go).
Proof.
  unfold owners, st_of. induction go as [|[x [[elt np ms|y] o]] go IH]; simpl; auto. rewrite IH. lia.
Qed.
Lemma eaddr_len (l : list (nat * (nat * nat))) : length (flat_map eaddr l) = 2 * length l.
Proof. induction l; simpl; auto. rewrite IHl. lia. Qed.

(** C63.  A client that constructs every variable before use, destroys it at most once, makes no copies and keeps its
    own graphs as long as objects use them never frees a block twice and never uses a freed one, whatever
    methods it runs in whatever order.  Whenever such a program ends: the blocks still allocated are two for each
    live graph of the client, two for each live object that was constructed from arcs and two for each
    destroyed object that had been constructed with num_points <= 0; and each live object constructed
    from arcs is in the state that running its own calls on a fresh object gives, whatever was done to the others. *)
Theorem C63_lifetime : forall v p objs gs lk, check_all static0 p = Some (objs, gs, lk) ->
  exec_all v world0 p <> Invalid /\
  forall w, exec_all v world0 p = Done w ->
    allocated (w_heap w) = 2 * (length gs + owners objs + lk) /\
    map fst (w_obj w) = map fst objs /\
    forall x elt np ms, vget objs x = Some (Own elt np ms) ->
      exists o o0 G, vget (w_obj w) x = Some o /\ hget (w_heap w) (po_g o) = Some (BGraph G) /\
        psp_ctor (e_eps v) elt (Z.to_nat np) = Ok o0 /\ mkObj G (po_cv o) (po_psp o) = obj_runs v o0 ms.
Proof.
  intros v p objs gs lk HC. destruct (steps v p _ _ _ _ _ (inv0 v) HC) as [S1 S2]. split; auto.
  intros w E. destruct (S2 w E) as (go & leak & I). destruct I as [I1 I2 I3 I4 I5 I6 I7 I8 I9 I10 I11]. cbn [fst snd] in *.
  split; [|split].
  - rewrite I11, !app_length, owners_addr, eaddr_len, I10, I1, I4, map_length. lia.
  - rewrite I1, I2. unfold st_of, ob_of. rewrite !map_map. reflexivity.
  - intros x elt np ms Hx. rewrite I1 in Hx. unfold st_of in Hx. rewrite (vget_map fst) in Hx.
    destruct (vget go x) as [[k o]|] eqn:E0; [|discriminate]. injection Hx as ->.
    assert (K := I6 _ (vget_In _ _ _ E0)). unfold kind_ok in K. cbn [fst snd] in K.
    destruct K as (_ & _ & o0 & G & K3 & K4 & K5). exists o, o0, G. rewrite I2. unfold ob_of. rewrite (vget_map snd), E0. auto.
Qed.
Print Assumptions C63_lifetime.

(** The leak count of [check_all] is nought when no object is constructed with num_points <= 0. *)
Lemma check_leak p : forall objs gs lk objs' gs' lk', check_all (objs, gs, lk) p = Some (objs', gs', lk') ->
  (forall x elt np, In (NewPSP x elt np) p -> (0 < np)%Z) ->
  (forall x elt np ms, In (x, Own elt np ms) objs -> (0 < np)%Z) -> lk' = lk.
Proof.
  induction p as [|s p IH]; intros objs gs lk objs' gs' lk' HC HP HO; cbn [check_all] in HC; [congruence|].
  destruct (check (objs, gs, lk) s) as [[[o1 g1] l1]|] eqn:E1; [|discriminate].
  assert (HP' : forall x elt np, In (NewPSP x elt np) p -> (0 < np)%Z) by (intros; eapply HP; right; eauto).
  assert (DEL : forall x y elt np ms, In (y, Own elt np ms) (vdel objs x) -> (0 < np)%Z).
  { intros x y elt np ms H. apply vdel_In in H as [H _]. eauto. }
  assert (Q : l1 = lk /\ forall x elt np ms, In (x, Own elt np ms) o1 -> (0 < np)%Z).
  { destruct s as [x elt np|x y|x y|x y|x m|x|y G|y]; cbn [check] in E1; try discriminate E1.
    - destruct (vget objs x); [discriminate|]. injection E1 as <- <- <-. split; auto. intros y e q ms [H|H]; [|eauto].
      injection H as <- <- <- <-. eapply HP. left. reflexivity.
    - destruct (vget objs x); [discriminate|]. destruct (mem gs y); [|discriminate]. injection E1 as <- <- <-. split; auto.
      intros z e q ms [H|H]; [discriminate|eauto].
    - destruct (vget objs x) as [[elt np ms|y]|] eqn:E0; [| |discriminate]; injection E1 as <- <- <-; split; auto.
      + intros y e q ms' [H|H]; [|eauto]. injection H as <- <- <- <-. eapply HO. eapply vget_In. eauto.
      + intros z e q ms [H|H]; [discriminate|eauto].
    - destruct (vget objs x) as [[elt np ms|y]|] eqn:E0; [| |discriminate]; injection E1 as <- <- <-; split; eauto.
      assert (0 < np)%Z by (eapply HO; eapply vget_In; eauto). destruct (Z.ltb_spec 0 np); [reflexivity|lia].
    - destruct (mem gs y); [discriminate|]. injection E1 as <- <- <-. auto.
    - destruct (mem gs y && _); [|discriminate]. injection E1 as <- <- <-. auto. }
  destruct Q as [-> Q]. eapply IH; eauto.
Qed.

(** C63.  Such a client that constructs no object with num_points <= 0 and in the end has destroyed everything
    leaves nothing allocated. *)
Theorem C63_no_leak : forall v p lk w, check_all static0 p = Some ([], [], lk) ->
  (forall x elt np, In (NewPSP x elt np) p -> (0 < np)%Z) ->
  exec_all v world0 p = Done w -> allocated (w_heap w) = 0.
Proof.
  intros v p lk w HC HP E. destruct (C63_lifetime v p _ _ _ HC) as [_ K]. destruct (K w E) as [K1 _].
  assert (lk = 0) by (eapply check_leak; eauto; simpl; tauto). subst lk. exact K1.
Qed.
Print Assumptions C63_no_leak.

(** C63.  The destructor of an object made from the client's own graph leaves that graph alone. *)
Theorem C63_wrapped_graph_survives : forall v w x y a b,
  vget (w_ext w) y = Some (a, b) ->
  match exec_all v w [WrapPSP x y; DelPSP x] with
  | Done w' => w_heap w' = w_heap w /\ w_ext w' = w_ext w /\ vget (w_obj w') x = None
  | _ => False
  end.
Proof.
  intros v w x y a b H. cbn [exec_all exec]. rewrite H. unfold vset. cbn [vget w_obj w_heap w_ext]. rewrite Nat.eqb_refl. cbn [po_np Z.ltb Z.compare w_heap w_ext w_obj].
  split; [reflexivity|]. split; [reflexivity|]. apply vget_None. intro C. apply in_map_iff in C as (p & P1 & P2). apply vdel_In in P2. tauto.
Qed.
Print Assumptions C63_wrapped_graph_survives.

(** ** What goes wrong outside the discipline *)

(** C63.  Copies: the class has no copy constructor of its own, so destroying an object and its copy frees the graph
    twice, for every arc list and every positive number of nodes; running the copy after the original is gone uses
    freed memory. *)
Theorem C63_copy_refuted : forall v elt np o x y m, (0 < np)%Z -> x <> y -> psp_ctor (e_eps v) elt (Z.to_nat np) = Ok o ->
  exec_all v world0 [NewPSP x elt np; CopyPSP y x; DelPSP x; DelPSP y] = Invalid /\
  exec_all v world0 [NewPSP x elt np; CopyPSP y x; DelPSP y; DelPSP x] = Invalid /\
  exec_all v world0 [NewPSP x elt np; CopyPSP y x; DelPSP x; RunPSP y m] = Invalid.
Proof.
  intros v elt np o x y m Hn Hxy HC. assert (Y : (y =? x) = false) by (apply Nat.eqb_neq; auto).
  assert (X : (x =? y) = false) by (apply Nat.eqb_neq; auto). assert (N : (0 <? np)%Z = true) by (apply Z.ltb_lt; auto).
  repeat split; cbn [exec_all exec]; rewrite HC;
    repeat (unfold vset, vdel, hfree, hget, hput, world0; cbn [exec exec_all vget filter fst snd w_obj w_heap w_ext length app po_g po_m po_np nth_error firstn skipn negb];
            rewrite ?Nat.eqb_refl, ?X, ?Y, ?N); reflexivity.
Qed.
Print Assumptions C63_copy_refuted.

(** C63.  Num_points = 0: the destructor reads num_points as the mark of a borrowed graph, so the graph and
    the arc map that the constructor allocated are never freed. *)
Theorem C63_no_leak_refuted : forall v x np, (np <= 0)%Z ->
  exists w, check_all static0 [NewPSP x [] np; DelPSP x] = Some ([], [], 1) /\
    exec_all v world0 [NewPSP x [] np; DelPSP x] = Done w /\ allocated (w_heap w) = 2.
Proof.
  intros v x np H. assert (N : (0 <? np)%Z = false) by (apply Z.ltb_ge; auto). eexists.
  cbn [check_all check static0 exec_all exec world0 psp_ctor make_dgraph bind vget vset vdel filter w_obj w_heap w_ext fst snd ob_g app List.length].
  rewrite ?Nat.eqb_refl. cbn [negb po_np]. rewrite N. repeat split.
Qed.
Print Assumptions C63_no_leak_refuted.

(** Results of a variable. *)
Definition results_of (r : outcome) (x : nat) : option (list dbl * list cpart) :=
  match r with Done w => option_map (fun o => (po_cv o, po_psp o)) (vget (w_obj w) x) | _ => None end.
Definition tri_arcs : list (nat * nat * Q) := [(0, 1, 1%Q); (0, 2, 5%Q); (1, 2, 1%Q)].

(** C63.  A copy shares the graph: psp_i on the copy changes what the original returns for dt. *)
Theorem C63_copy_aliasing_refuted :
  results_of (exec_all wit_env world0 [NewPSP 0 tri_arcs 3; CopyPSP 1 0; RunPSP 0 "dt"]) 0
    = Some ([Fin 2; Fin 5], [[[0;1;2]]; [[0;2];[1]]; [[0];[1];[2]]]) /\
  results_of (exec_all wit_env world0 [NewPSP 0 tri_arcs 3; CopyPSP 1 0; RunPSP 1 "psp_i"; RunPSP 0 "dt"]) 0
    = Some ([Fin 2], [[[0;1]]; [[0];[1]]]).
Proof. vm_compute. auto 8. Qed.

Print Assumptions C63_copy_aliasing_refuted.

(** Two objects and a wrapped graph, with interleaved calls, one of them throwing: everything is freed. *)
Definition life_prog : list stmt :=
  [NewPSP 0 tri_arcs 3; NewGraph 9 (mkG (seq 0 3) tri); WrapPSP 1 9; RunPSP 1 "psp_i"; NewPSP 2 tri_arcs 3; RunPSP 2 "no such method";
   RunPSP 2 "psp_i"; RunPSP 0 "dt"; DelPSP 1; DelGraph 9].
Example C63_nonvacuous :
  check_all static0 life_prog = Some ([(0, Own tri_arcs 3 ["dt"]); (2, Own tri_arcs 3 ["no such method"; "psp_i"])], [], 0) /\
  results_of (exec_all wit_env world0 life_prog) 0 = Some ([Fin 2; Fin 5], [[[0;1;2]]; [[0;2];[1]]; [[0];[1];[2]]]) /\
  results_of (exec_all wit_env world0 life_prog) 2 = Some ([Fin 2; Fin 5], [[[0;1;2]]; [[0;2];[1]]; [[0];[1];[2]]]) /\
  check_all static0 (life_prog ++ [DelPSP 0; DelPSP 2]) = Some ([], [], 0) /\
  match exec_all wit_env world0 (life_prog ++ [DelPSP 0; DelPSP 2]) with Done w => allocated (w_heap w) = 0 | _ => False end.
Proof. vm_compute. auto 8. Qed.
