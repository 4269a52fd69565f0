(** * PdtEq: with exact operations the floating-point model of PDT computes what the exact model computes. *)
From Verif Require Import Base Graph Spec MSets MGraph MaxFlow CutThy MDil DilThy MDT SeqThy MPMF LamThy ParThy SliceThy
  MFloat FloatThy MFloatT.

(** Exact rational operations. *)
Definition exact_ops : fops := mkFops Qplus Qminus Qmult Qdiv.

Definition deq (a b : dbl) : Prop :=
  match a, b with Fin x, Fin y => x == y | PInf, PInf => True | NaN, NaN => True | _, _ => False end.
Definition peq (p q : Q * dbl) : Prop := fst p == fst q /\ deq (snd p) (snd q).
Definition aeq (a b : narc) : Prop := nsrc a = nsrc b /\ ndst a = ndst b /\ ncap a == ncap b.
Definition rrel {A B} (R : A -> B -> Prop) (x : res A) (y : res B) : Prop :=
  match x, y with Ok a, Ok b => R a b | UB, UB => True | Throw, Throw => True | OutOfFuel, OutOfFuel => True | _, _ => False end.

Lemma rrel_bind {A B C D} (R : A -> B -> Prop) (R' : C -> D -> Prop) x y f g :
  rrel R x y -> (forall a b, R a b -> rrel R' (f a) (g b)) -> rrel R' (bind x f) (bind y g).
Proof. intros H K. destruct x, y; simpl in *; auto; contradiction. Qed.

Lemma Qltb_wd a a' b b' : a == a' -> b == b' -> Qltb a b = Qltb a' b'.
Proof.
  intros H K. destruct (Qltb a b) eqn:E1, (Qltb a' b') eqn:E2; auto.
  - apply Qltb_true in E1. apply Qltb_false in E2. lra.
  - apply Qltb_false in E1. apply Qltb_true in E2. lra.
Qed.
Lemma Qle_bool_wd a a' b b' : a == a' -> b == b' -> Qle_bool a b = Qle_bool a' b'.
Proof.
  intros H K. apply eq_true_iff_eq. rewrite !Qle_bool_iff. split; intro; lra.
Qed.
Lemma deq_refl a : deq a a.
Proof. destruct a; simpl; auto; reflexivity. Qed.
Lemma dltb_wd a a' b b' : deq a a' -> deq b b' -> dltb a b = dltb a' b'.
Proof. intros H K. destruct a, a', b, b'; simpl in *; try contradiction; auto. apply Qltb_wd; auto. Qed.
Lemma dle_wd a a' b b' : deq a a' -> deq b b' -> dle a b = dle a' b'.
Proof. intros H K. destruct a, a', b, b'; simpl in *; try contradiction; auto. apply Qle_bool_wd; auto. Qed.
Lemma dmin_wd a a' b b' : deq a a' -> deq b b' -> deq (dmin a b) (dmin a' b').
Proof. intros H K. unfold dmin. rewrite (dltb_wd b b' a a') by auto. destruct (dltb b' a'); auto. Qed.

(** ** Sorting and sums *)
Lemma insert_wd {A B} (R : A -> B -> Prop) (f : A -> A -> bool) (g : B -> B -> bool) :
  (forall a a' b b', R a a' -> R b b' -> f a b = g a' b') ->
  forall x x', R x x' -> forall l l', Forall2 R l l' -> Forall2 R (insert f x l) (insert g x' l').
Proof.
  intros H x x' Hx. induction 1 as [|y y' l l' Hy Hl IH]; simpl; [repeat constructor; auto|].
  rewrite (H y y' x x') by auto. destruct (g y' x'); repeat constructor; auto.
Qed.
Lemma isort_wd {A B} (R : A -> B -> Prop) (f : A -> A -> bool) (g : B -> B -> bool) :
  (forall a a' b b', R a a' -> R b b' -> f a b = g a' b') ->
  forall l l', Forall2 R l l' -> Forall2 R (isort f l) (isort g l').
Proof.
  intros H. induction 1 as [|y y' l l' Hy Hl IH]; simpl; [constructor|]. apply insert_wd; auto.
Qed.

Lemma fsum_exact l : forall acc, fsum exact_ops acc l == acc + qsum (fun x => x) l.
Proof.
  unfold fsum. induction l as [|x l IH]; intro acc; cbn [fold_left qsum]; [ring|]. rewrite IH. cbn [fadd exact_ops]. ring.
Qed.
Lemma qsum_rel {A B} (f : A -> Q) (g : B -> Q) l l' : Forall2 (fun a b => f a == g b) l l' -> qsum f l == qsum g l'.
Proof. induction 1; cbn [qsum]; [reflexivity|]. lra. Qed.
Lemma F2_len {A B} (R : A -> B -> Prop) l l' : Forall2 R l l' -> length l = length l'.
Proof. induction 1; simpl; auto. Qed.
Lemma Forall2_imp {A B} (R S : A -> B -> Prop) l l' : (forall a b, R a b -> S a b) -> Forall2 R l l' -> Forall2 S l l'.
Proof. intros H. induction 1; constructor; auto. Qed.
Lemma Forall2_app2 {A B} (R : A -> B -> Prop) l1 l1' l2 l2' :
  Forall2 R l1 l1' -> Forall2 R l2 l2' -> Forall2 R (l1 ++ l2) (l1' ++ l2').
Proof. induction 1; simpl; auto. Qed.

Lemma fcv_exact (it : graph -> graph) E S : (forall G, it G = G) -> f_cut_value exact_ops it E S == get_cut_value E S.
Proof.
  intro Hit. unfold f_cut_value, get_cut_value. rewrite fsum_exact, Hit, qsum_map.
  assert (K := qsum_filter aw (fun a => negb (mem S (asrc a)) && mem S (adst a)) E). rewrite <- K, Qplus_0_l. reflexivity.
Qed.

(** ** compute_lambda *)
Lemma ycap_wd p q l l' : peq p q -> l == l' -> f_ycap exact_ops p l == ycap q l'.
Proof.
  destruct p as [a c], q as [b d]. intros [H1 H2] Hl. unfold f_ycap, ycap. cbn [fst snd fsub exact_ops] in *.
  destruct c as [x| |], d as [z| |]; simpl in H2; try contradiction; try (rewrite H1, Hl; reflexivity).
  rewrite (Qltb_wd x z (a - l) (b - l')) by (auto; lra). destruct (Qltb z (b - l')); auto; lra.
Qed.

Lemma tps_wd ps qs : Forall2 peq ps qs -> Forall2 Qeq (f_turning_points exact_ops ps) (turning_points qs).
Proof.
  induction 1 as [|p q ps qs [H1 H2] H IH]; simpl; [constructor|]. apply Forall2_app2; auto.
  destruct p as [a c], q as [b d]; cbn [fst snd] in *.
  destruct c as [x| |], d as [z| |]; simpl in *; try contradiction; auto. constructor; auto. lra.
Qed.
Lemma inf_wd ps qs : Forall2 peq ps qs -> infinity_count ps = infinity_count qs.
Proof.
  unfold infinity_count. induction 1 as [|p q ps qs [H1 H2] H IH]; simpl; auto.
  destruct p as [a c], q as [b d]; cbn [fst snd] in *.
  destruct c as [x| |], d as [z| |]; simpl in *; try contradiction; auto.
Qed.

Definition orel (a b : option Q) : Prop := match a, b with Some x, Some y => x == y | None, None => True | _, _ => False end.

Lemma scan_wd t t' : t == t' -> forall l l', Forall2 Qeq l l' -> forall s s' k la la', s == s' -> la == la' ->
  orel (f_lam_scan exact_ops t l s k la) (lam_scan t' l' s' k la').
Proof.
  intros Ht l l'. induction 1 as [|x y l l' Hx Hl IH]; intros s s' k la la' Hs Hla; cbn [f_lam_scan lam_scan].
  - destruct (k =? 0)%Z; simpl; auto. rewrite Ht, Hs, Hla. reflexivity.
  - cbv zeta. set (a := fadd exact_ops s _). set (b := s' + _).
    assert (Hab : a == b) by (unfold a, b; cbn [fadd fsub fmul exact_ops]; rewrite Hs, Hx, Hla; reflexivity).
    rewrite (Qle_bool_wd a b t t') by auto. destruct (Qle_bool b t'); [|apply IH; auto].
    destruct (k =? 0)%Z; simpl; auto. rewrite Ht, Hab, Hx. reflexivity.
Qed.

Lemma tol_wd eps a a' b b' : a == a' -> b == b' -> f_tol_less exact_ops eps a b = tol_less eps a' b'.
Proof. intros. unfold f_tol_less, tol_less. apply Qltb_wd; auto. cbn [fadd exact_ops]. lra. Qed.
Lemma told_wd eps a a' b b' : a == a' -> b == b' -> f_tol_different exact_ops eps a b = tol_different eps a' b'.
Proof. intros. unfold f_tol_different, tol_different. f_equal; apply tol_wd; auto. Qed.

Lemma lambda_wd eps ps qs t t' : Forall2 peq ps qs -> t == t' ->
  rrel orel (f_compute_lambda exact_ops eps ps t) (compute_lambda eps qs t').
Proof.
  intros H Ht. unfold f_compute_lambda, compute_lambda.
  assert (S := isort_wd Qeq Qltb Qltb (fun a a' b b' => Qltb_wd a a' b b') _ _ (tps_wd ps qs H)).
  destruct S as [|x y l l' Hx Hl].
  - assert (L := F2_len _ _ _ H). destruct H as [|p q ps qs Hp H]; simpl; [auto|].
    assert (E1 : fsum exact_ops (- t + fst p) (map fst ps) == - t + (fst p + qsum fst ps)).
    { rewrite fsum_exact, qsum_map. change (qsum (fun x => fst x) ps) with (qsum fst ps). ring. }
    assert (E2 : qsum fst ps == qsum fst qs).
    { apply qsum_rel. eapply Forall2_imp; [|exact H]. intros a b [K _]. exact K. }
    change (fsum exact_ops (- t) (fst p :: map fst ps)) with (fsum exact_ops (- t + fst p) (map fst ps)).
    rewrite E1, E2, Ht. destruct Hp as [Hp _]. rewrite Hp. simpl in L. injection L as L. rewrite L.
    assert (Z : - t' + (fst q + qsum fst qs) == fst q + qsum fst qs - t') by ring. rewrite Z. reflexivity.
  - cbv zeta. rewrite (inf_wd ps qs H).
    set (s := fsum exact_ops 0 (map (fun p => f_ycap exact_ops p x) ps)). set (s' := qsum (fun p => ycap p y) qs).
    assert (Hs : s == s').
    { unfold s, s'. rewrite fsum_exact, qsum_map, Qplus_0_l. apply qsum_rel. eapply Forall2_imp; [|exact H].
      intros a b K. apply ycap_wd; auto. }
    set (i := fsum exact_ops 0 (map (fun p : Q * dbl => match snd p with Fin b => b | _ => fst p end) ps)).
    set (i' := qsum (fun p : Q * dbl => match snd p with Fin b => b | _ => fst p end) qs).
    assert (Hii : i == i').
    { unfold i, i'. rewrite fsum_exact, qsum_map, Qplus_0_l. apply qsum_rel. eapply Forall2_imp; [|exact H].
      intros [a c] [b d] [K1 K2]. cbn [fst snd] in *. destruct c, d; simpl in K2; try contradiction; auto. }
    rewrite (tol_wd eps s s' t t') by auto. destruct (tol_less eps s' t').
    + destruct (_ =? 0)%Z; simpl; auto. rewrite Ht, Hii. reflexivity.
    + rewrite (told_wd eps t t' s s') by auto. destruct (negb (tol_different eps t' s')); simpl; auto.
      change (orel (f_lam_scan exact_ops t (x :: l) s (- Z.of_nat (infinity_count qs)) x)
                   (lam_scan t' (y :: l') s' (- Z.of_nat (infinity_count qs)) y)).
      apply scan_wd; auto.
Qed.

(** ** Networks *)
Lemma yat_wd y z i : Forall2 peq y z -> peq (yat y i) (yat z i).
Proof.
  intro H. unfold yat. revert i. induction H as [|p q y z Hp H IH]; intros [|i]; simpl; auto;
    split; simpl; auto; reflexivity.
Qed.

Lemma aeq_refl a : aeq a a.
Proof. repeat split. Qed.

Lemma net_wd eps E j y z l l' : Forall2 peq y z -> l == l' ->
  Forall2 aeq (f_pmf_net exact_ops eps E j y l) (pmf_net eps E j z l').
Proof.
  intros Hy Hl. unfold f_pmf_net, pmf_net. apply Forall2_app2.
  - induction (inner_arcs E (seq 0 j)); constructor; auto. apply aeq_refl.
  - induction (seq 0 j) as [|i s IH]; simpl; [constructor|].
    assert (C := ycap_wd _ _ l l' (yat_wd y z i Hy) Hl).
    set (c := f_ycap exact_ops (yat y i) l) in *. set (d := ycap (yat z i) l') in *.
    assert (Hq : qmax 0 c == qmax 0 d).
    { unfold qmax. rewrite (Qltb_wd 0 0 c d) by (auto; reflexivity). destruct (Qltb 0 d); auto. reflexivity. }
    constructor; [|apply Forall2_app2; auto].
    + repeat split; simpl. rewrite (Qltb_wd c d 0 0) by (auto; reflexivity). destruct (Qltb d 0); [lra|reflexivity].
    + induction (sink_copies eps E j i); simpl; constructor; auto. repeat split; simpl. lra.
Qed.

Lemma cut_aeq N N' X : Forall2 aeq N N' -> cut N X == cut N' X.
Proof.
  intro H. apply qsum_rel. eapply Forall2_imp; [|exact H]. intros a b (A & B & C). rewrite A, B.
  destruct (_ && _); auto. reflexivity.
Qed.
Lemma net_ok_aeq nodes N N' : Forall2 aeq N N' -> net_ok nodes N' -> net_ok nodes N.
Proof.
  intros H [H1 H2]. split; auto. clear H1. induction H as [|a b N N' (A & B & C) H IH]; intros x Hx; [destruct Hx|].
  destruct Hx as [<-|Hx].
  - destruct (H2 b (or_introl eq_refl)) as (K1 & K2 & K3). rewrite A, B. split; auto. lra.
  - apply IH; auto. intros y Hy. apply H2. right; auto.
Qed.

Lemma mc_wd mc mc' nodes N N' : MinSinkCutSpec mc -> MinSinkCutSpec mc' -> Forall2 aeq N N' -> net_ok nodes N' ->
  fst (mc nodes N) == fst (mc' nodes N') /\ forall x, mem (snd (mc nodes N)) x = mem (snd (mc' nodes N')) x.
Proof.
  intros [M1 M2] [M1' M2'] HN HO. assert (HO' := net_ok_aeq nodes N N' HN HO).
  destruct (M1 nodes N HO') as (A1 & A2 & A3). destruct (M1' nodes N' HO) as (B1 & B2 & B3).
  assert (C := fun X => cut_aeq N N' X HN).
  assert (V : fst (mc nodes N) == fst (mc' nodes N')).
  { assert (K1 := A3 (mem (snd (mc' nodes N')))). assert (K2 := B3 (mem (snd (mc nodes N)))). rewrite C in K1. rewrite <- C in K2. lra. }
  split; auto. intro x. apply eq_true_iff_eq. split; intro H.
  - apply mem_In in H. apply (M2 nodes N HO' (mem (snd (mc' nodes N')))); auto. rewrite C. lra.
  - apply mem_In in H. apply (M2' nodes N' HO (mem (snd (mc nodes N)))); auto. rewrite <- C. lra.
Qed.

Section Run.
  Variable mc : solver.
  Hypothesis Hmc : MinSinkCutSpec mc.
  Variable mc' : solver.
  Hypothesis Hmc' : MinSinkCutSpec mc'.
  Variable eps : Q.
  Variable E : graph.
  Variable n : nat.
  Hypothesis HE : graph_on (seq 0 n) E.
  Let it := fun G : graph => G.
  Let itn := fun N : network => N.

  Lemma pcut_wd j y z l l' : Forall2 peq y z -> l == l' ->
    fst (f_pmf_cut exact_ops mc eps E j y l) == fst (pmf_cut mc' eps E j z l') /\
    snd (f_pmf_cut exact_ops mc eps E j y l) = snd (pmf_cut mc' eps E j z l').
  Proof.
    intros Hy Hl. unfold f_pmf_cut, pmf_cut. cbv zeta. cbn [fst snd].
    destruct (mc_wd mc mc' (seq 0 j) _ _ Hmc Hmc' (net_wd eps E j y z l l' Hy Hl) (pmf_net_ok eps E n j HE z l')) as [A B].
    split; auto. f_equal. f_equal. apply filter_ext. auto.
  Qed.

  Lemma netcut_wd j y z l l' S : Forall2 peq y z -> l == l' ->
    f_net_cut exact_ops itn (f_pmf_net exact_ops eps E j y l) S == cut (pmf_net eps E j z l') (mem S).
  Proof.
    intros Hy Hl. unfold f_net_cut. rewrite fsum_exact, qsum_map, Qplus_0_l. unfold itn.
    rewrite <- (cut_aeq _ _ (mem S) (net_wd eps E j y z l l' Hy Hl)). unfold cut.
    rewrite <- (qsum_filter ncap (fun a => negb (side (mem S) (nsrc a)) && side (mem S) (ndst a))). reflexivity.
  Qed.

  Definition srel (r r' : list dbl * list cset) : Prop := Forall2 deq (fst r) (fst r') /\ snd r = snd r'.

  Lemma slice_wd j y z : Forall2 peq y z -> forall fuel Tl Tr l1 l1' l3 l3', l1 == l1' -> deq l3 l3' ->
    rrel srel (f_pmf_slice fuel exact_ops it itn mc eps E n j y Tl Tr l1 l3) (pmf_slice fuel mc' eps E n j z Tl Tr l1' l3').
  Proof.
    intro Hy. induction fuel as [|fuel IH]; intros Tl Tr l1 l1' l3 l3' H1 H3; cbn [f_pmf_slice pmf_slice]; [exact I|].
    cbv zeta. eapply rrel_bind.
    { apply lambda_wd with (t' := get_cut_value E Tl - get_cut_value E Tr).
      - induction (filter _ (seq 0 (n - 1))); simpl; constructor; auto. apply yat_wd; auto.
      - cbn [fsub exact_ops]. rewrite !fcv_exact by reflexivity. reflexivity. }
    intros [l|] [l'|] Hl; simpl in Hl; try contradiction.
    2:{ split; simpl; auto. }
    assert (Hl2 : l == Qred l') by (rewrite Qred_correct; auto).
    rewrite (told_wd eps l (Qred l') l1 l1') by auto.
    assert (D3 : f_dbl_different exact_ops eps l l3 = dbl_different eps (Qred l') l3').
    { destruct l3, l3'; simpl in *; try contradiction; auto. apply told_wd; auto. }
    rewrite D3. destruct (_ || _).
    { split; cbn [fst snd]; auto. }
    rewrite (Qltb_wd l (Qred l') l1 l1') by auto. rewrite (dltb_wd l3 l3' (Fin l) (Fin (Qred l'))) by (auto; exact Hl2).
    destruct (_ || _); [exact I|].
    destruct (pcut_wd j y z l (Qred l') Hy Hl2) as [P1 P2]. rewrite P2.
    assert (V : Qltb (fst (f_pmf_cut exact_ops mc eps E j y l))
                  (fsub exact_ops (f_net_cut exact_ops itn (f_pmf_net exact_ops eps E j y l) Tr) (fmul exact_ops 10 eps)) =
                Qltb (fst (pmf_cut mc' eps E j z (Qred l'))) (cut (pmf_net eps E j z (Qred l')) (mem Tr) - 10 * eps)).
    { apply Qltb_wd; auto. cbn [fsub fmul exact_ops]. rewrite (netcut_wd j y z l (Qred l') Tr Hy Hl2). reflexivity. }
    rewrite V. destruct (_ && _ && _).
    - eapply rrel_bind; [apply IH; auto; exact Hl2|]. intros [a1 a2] [b1 b2] [A1 A2]. cbn [fst snd] in *.
      eapply rrel_bind; [apply IH; auto|]. intros [c1 c2] [d1 d2] [C1 C2]. cbn [fst snd] in *. subst.
      split; cbn [fst snd]; auto. apply Forall2_app2; auto.
    - split; cbn [fst snd]; auto.
  Qed.

  Lemma prun_wd j y z : Forall2 peq y z ->
    rrel srel (f_pmf_run exact_ops it itn mc eps init_lambda E n j y) (pmf_run mc' eps E n j z).
  Proof.
    intro Hy. unfold f_pmf_run, pmf_run. destruct (j <? n)%nat; [|exact I]. cbv zeta.
    destruct (pcut_wd j y z init_lambda init_lambda Hy (Qeq_refl _)) as [_ P2]. rewrite P2.
    eapply rrel_bind; [apply slice_wd; auto; [reflexivity|exact I]|]. intros [a1 a2] [b1 b2] [A1 A2]. cbn [fst snd] in *. subst.
    split; cbn [fst snd]; auto. apply isort_wd; auto. intros. apply dltb_wd; auto.
  Qed.

  Lemma entry_wd ls ls' sets j y z v : Forall2 deq ls ls' -> Forall2 peq y z ->
    rrel peq (f_y_entry exact_ops it E ls sets j y v) (y_entry E ls' sets j z v).
  Proof.
    intros Hls Hy. unfold f_y_entry, y_entry. assert (K := yat_wd y z v Hy).
    destruct (v =? j)%nat.
    { split; cbn [fst snd]; simpl; auto. apply fcv_exact. reflexivity. }
    destruct (v <? j)%nat; [|exact K]. destruct (length _) as [|c]; [exact K|].
    assert (N : match nth_error ls c, nth_error ls' c with Some a, Some b => deq a b | None, None => True | _, _ => False end).
    { clear -Hls. revert c. induction Hls as [|a b l m Hab Hlm IH]; intros [|c]; cbn [nth_error]; [exact I|exact I|exact Hab|apply IH]. }
    destruct (nth_error ls c) as [a|], (nth_error ls' c) as [b|]; try contradiction; [|exact I].
    destruct (yat y v) as [p c1], (yat z v) as [q c2]. destruct K as [K1 K2]. cbn [fst snd] in *.
    destruct a as [a| |], b as [b| |]; simpl in N; try contradiction; try (split; auto).
    assert (R : fsub exact_ops p a == Qred (q - b)) by (rewrite Qred_correct; cbn [fsub exact_ops]; lra).
    destruct c1 as [x| |], c2 as [w| |]; simpl in K2; try contradiction; try (split; cbn [fst snd]; auto).
    rewrite (Qltb_wd (fsub exact_ops p x) (q - w) a b) by (auto; cbn [fsub exact_ops]; lra).
    destruct (Qltb (q - w) b); split; cbn [fst snd]; auto.
  Qed.

  Definition brel {X} (a b : dbl * X) : Prop := deq (fst a) (fst b) /\ snd a = snd b.

  Lemma merge_wd fuel : forall A A' B B' out out',
    Forall2 (@brel cpart) A A' -> Forall2 (@brel cset) B B' -> Forall2 (@brel cpart) out out' ->
    rrel (Forall2 (@brel cpart)) (pdt_merge fuel A B out) (pdt_merge fuel A' B' out').
  Proof.
    induction fuel as [|fuel IH]; intros A A' B B' out out' HA HB HO; cbn [pdt_merge]; [exact I|].
    assert (Rv : Forall2 (@brel cpart) (rev out) (rev out')).
    { clear -HO. induction HO; simpl; auto. apply Forall2_app2; auto. }
    destruct HA as [|[d p] [d' p'] A A' [H1 H2] HA]; [exact Rv|].
    destruct HB as [|[e t] [e' t'] B B' [H3 H4] HB]; [exact Rv|]. cbn [fst snd] in *. subst. cbv zeta.
    rewrite (dle_wd d d' e e'), (dle_wd e e' d d') by auto. assert (Dm := dmin_wd d d' e e' H1 H3).
    apply IH.
    - destruct (dle d' e'); auto. constructor; auto. split; auto.
    - destruct (dle e' d'); auto. constructor; auto. split; auto.
    - destruct HO as [|[f q] [f' q'] out out' [H5 H6] HO].
      + constructor; auto. split; auto.
      + cbn [fst snd] in *. subst. destruct (peqb _ _); repeat (constructor; auto); split; auto.
  Qed.

  Definition strel (a b : pdt_state) : Prop := Forall2 peq (fst a) (fst b) /\ Forall2 (@brel cpart) (snd a) (snd b).

  Lemma tail_wd st st' j r r' : strel st st' -> srel r r' ->
    rrel strel
      (do y' <- mapr (f_y_entry exact_ops it E (fst r) (snd r) j (fst st)) (seq 0 n);
       if (length (snd r) =? S (length (fst r)))%nat then
         let B := combine (fst r ++ [PInf]) (snd r) in
         do out <- pdt_merge (S (length (snd st) + length B)) (snd st) B [];
         Ok (y', out)
       else UB)
      (do y' <- mapr (y_entry E (fst r') (snd r') j (fst st')) (seq 0 n);
       if (length (snd r') =? S (length (fst r')))%nat then
         let B := combine (fst r' ++ [PInf]) (snd r') in
         do out <- pdt_merge (S (length (snd st') + length B)) (snd st') B [];
         Ok (y', out)
       else UB).
  Proof.
    intros [H1 H2]. destruct r as [a1 a2], r' as [b1 b2]. intros [A1 A2]. cbn [fst snd] in *. subst. cbv zeta.
    eapply rrel_bind with (R := Forall2 peq).
    { generalize (seq 0 n) as l. induction l as [|v s IH]; cbn [mapr]; [constructor|].
      eapply rrel_bind; [apply entry_wd; eauto|]. intros p q Hp. eapply rrel_bind; [exact IH|]. intros r r' Hr. constructor; auto. }
    intros y z Hy. rewrite (F2_len _ _ _ A1). destruct (_ =? _)%nat; [|exact I].
    assert (C : Forall2 (@brel cset) (combine (a1 ++ [PInf]) b2) (combine (b1 ++ [PInf]) b2)).
    { assert (D : Forall2 deq (a1 ++ [PInf]) (b1 ++ [PInf])) by (apply Forall2_app2; auto; repeat constructor).
      clear -D. revert b2. induction D; intros [|s b2]; simpl; constructor; auto. split; auto. }
    rewrite (F2_len _ _ _ C), (F2_len _ _ _ H2).
    eapply rrel_bind; [apply merge_wd; auto|]. intros r r' Hr. split; auto.
  Qed.

  Lemma step_wd st st' j : strel st st' ->
    rrel strel (f_pdt_step exact_ops it itn mc eps init_lambda E n st j) (pdt_step (pmf_run mc' eps E n) E n st' j).
  Proof.
    intros HS. unfold f_pdt_step, pdt_step. eapply rrel_bind; [apply prun_wd; apply HS|].
    intros r r' Hr. exact (tail_wd st st' j r r' HS Hr).
  Qed.

  (** Same outcome, same partitions, equal critical values. *)
  Theorem pdt_exact_ops :
    rrel (fun r r' => Forall2 deq (fst r) (fst r') /\ snd r = snd r')
      (f_pdt_run exact_ops it itn mc eps init_lambda E n) (pdt_run mc' eps E n).
  Proof.
    unfold f_pdt_run, pdt_run, pdt_run_from, pdt_loop. destruct (n =? 0)%nat eqn:En; [exact I|].
    cbn [app length]. rewrite Nat.sub_0_r.
    assert (F : forall l st st', strel st st' ->
      rrel strel (foldr (f_pdt_step exact_ops it itn mc eps init_lambda E n) st l) (foldr (pdt_step (pmf_run mc' eps E n) E n) st' l)).
    { induction l as [|j l IH]; intros st st' H; cbn [foldr]; [exact H|].
      eapply rrel_bind; [apply step_wd; exact H|]. auto. }
    assert (S0 : strel (repeat (0, PInf) n, [(PInf, [[0%nat]])]) (repeat (0, PInf) n, [(PInf, [[0%nat]])])).
    { split; cbn [fst snd].
      - clear. induction n; simpl; constructor; auto. split; simpl; auto; reflexivity.
      - repeat constructor. }
    specialize (F (seq 1 (n - 1)) _ _ S0).
    destruct (foldr (f_pdt_step _ _ _ _ _ _ _ _) _ _) as [st| | |], (foldr (pdt_step _ _ _) _ _) as [st'| | |];
      simpl in F; try contradiction; cbn [bind]; try exact I.
    destruct F as [_ F]. cbn [fst snd].
    assert (M1 : Forall2 deq (map fst (snd st)) (map fst (snd st'))).
    { clear -F. induction F as [|a b l l' [H _] HF IH]; simpl; constructor; auto. }
    assert (M2 : map snd (snd st) = map snd (snd st')).
    { clear -F. induction F as [|a b l l' [_ H] HF IH]; simpl; auto. rewrite H, IH. auto. }
    split; auto. clear -M1. induction M1 as [|a b l l' H HF IH]; [constructor|].
    destruct HF; [constructor|]. cbn [removelast] in *. constructor; auto.
  Qed.
End Run.
