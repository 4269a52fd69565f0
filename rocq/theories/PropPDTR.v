(** * PropPDTR: properties of the two-worker parametric solver (psp/pmf_r.cpp): C29, C28 and C49. *)
From Coq Require Import Sorted.
From Verif Require Import Base Graph Spec PartThy SubThy MSets SetsThy MGraph MaxFlow MDil CutThy DilThy BFThy
  MDT SeqThy DTThy PSPThy DTTop PropDil PropDT MPMF LamThy ParThy SliceThy PDTThy PropPDT CanonThy
  MPMFR PMFRThy.

(** ** C29: contraction of a source side and a sink side *)

(** Total capacity of the arcs leading from the nodes with [b = false] to those with [b = true]. *)
Definition gcut (N : network) (b : nnode -> bool) : Q :=
  qsum (fun a => if negb (b (nsrc a)) && b (ndst a) then ncap a else 0) N.

(** Networks on node ids below [size], where source and sink have the ids [sid] and [tid]. *)
Definition ids_ok (sid tid size : nat) (G : network) : Prop :=
  forall a, In a G -> forall v, (nsrc a = NV v \/ ndst a = NV v) -> (v < size /\ v <> sid /\ v <> tid)%nat.

Lemma mem_kept sid tid size S T i : In sid S -> In tid T ->
  (i < size)%nat -> i <> sid -> i <> tid ->
  mem (kept sid tid size S T) i = negb (mem S i) && negb (mem T i).
Proof.
  intros HS HT Hi Hs Ht. destruct (negb (mem S i) && negb (mem T i)) eqn:Eb.
  - apply andb_true_iff in Eb. destruct Eb as [E1 E2]. apply negb_true_iff in E1, E2.
    apply mem_false in E1, E2. apply mem_In. unfold kept. apply filter_In. split; [apply in_seq; lia|].
    rewrite !andb_true_iff, !negb_true_iff, !Nat.eqb_neq. split; [auto|].
    apply mem_false. unfold erased. rewrite in_app_iff, !filter_In. tauto.
  - apply mem_false. unfold kept. rewrite filter_In. intros [_ C].
    rewrite !andb_true_iff, !negb_true_iff in C. destruct C as [_ C]. apply mem_false in C.
    apply andb_false_iff in Eb. apply C. unfold erased. rewrite in_app_iff, !filter_In, !negb_true_iff, !Nat.eqb_neq.
    destruct Eb as [Eb|Eb]; apply negb_false_iff in Eb; apply mem_In in Eb; tauto.
Qed.

Lemma nodupb_inv l : nodupb l = true -> NoDup l.
Proof.
  induction l as [|x l IH]; cbn [nodupb]; intro H; [constructor|].
  apply andb_true_iff in H. destruct H as [H1 H2]. apply negb_true_iff in H1. apply mem_false in H1.
  constructor; auto.
Qed.

Lemma csum_gap eps p G : 0 < eps -> (forall a, In a G -> ncap a == 0 \/ eps < ncap a) ->
  csum eps p G == 0 \/ eps < csum eps p G.
Proof.
  intros He. unfold csum. induction G as [|a G IH]; intro H; [left; reflexivity|].
  cbn [qsum]. destruct IH as [IH|IH]; [intros; apply H; right; auto| |].
  - destruct (negb (Qltb (ncap a) eps) && p a).
    + destruct (H a (or_introl eq_refl)); [left|right]; lra.
    + left. lra.
  - destruct (negb (Qltb (ncap a) eps) && p a); [|right; lra].
    destruct (H a (or_introl eq_refl)); right; lra.
Qed.

Lemma gcut_app N M b : gcut (N ++ M) b == gcut N b + gcut M b.
Proof. apply qsum_app. Qed.

Lemma gcut_opt eps a b : ncap a == 0 \/ eps < ncap a ->
  gcut (if Qltb eps (ncap a) then [a] else []) b == (if negb (b (nsrc a)) && b (ndst a) then ncap a else 0).
Proof.
  intro H. destruct (Qltb eps (ncap a)) eqn:El; unfold gcut; cbn [qsum]; [lra|].
  apply Qltb_false in El. destruct (negb (b (nsrc a)) && b (ndst a)); [|reflexivity]. destruct H; lra.
Qed.

Lemma contract_cut eps sid tid size S T G ks C b :
  0 < eps -> sid <> tid -> In sid S -> In tid T -> ids_ok sid tid size G ->
  (forall a, In a G -> ncap a == 0 \/ eps < ncap a) ->
  contract eps sid tid size S T G = Ok (ks, C) ->
  (forall i, In i S -> i <> sid -> b (NV i) = b NSrc) ->
  (forall i, In i T -> i <> tid -> b (NV i) = b NSnk) ->
  gcut C b == gcut G b.
Proof.
  intros He NST HS HT Hid Hc Hk HbS HbT. unfold contract in Hk. cbv zeta in Hk.
  destruct (nodupb (erased sid tid S T) && forallb (fun i => (i <? size)%nat) (erased sid tid S T) &&
            negb (mem (erased sid tid S T) sid) && negb (mem (erased sid tid S T) tid) &&
            (sid <? size)%nat && (tid <? size)%nat) eqn:Eg; [|discriminate Hk].
  rewrite !andb_true_iff, !negb_true_iff in Eg. destruct Eg as [[[[[Eg1 Eg2] Eg3] Eg4] Eg5] Eg6].
  apply mem_false in Eg3, Eg4. apply nodupb_inv in Eg1.
  assert (Dj : forall i, In i S -> In i T -> False).
  { intros i I1 I2. destruct (Nat.eq_dec i sid) as [->|Ns].
    - apply Eg3. unfold erased. rewrite in_app_iff, !filter_In, !negb_true_iff, !Nat.eqb_neq. right. auto.
    - destruct (Nat.eq_dec i tid) as [->|Nt].
      + apply Eg4. unfold erased. rewrite in_app_iff, !filter_In, !negb_true_iff, !Nat.eqb_neq. left. auto.
      + unfold erased in Eg1. apply (proj2 (proj2 (NoDup_app_inv _ _ Eg1)) i); apply filter_In; rewrite negb_true_iff, Nat.eqb_neq; auto. }
  set (id := nid sid tid) in *.
  set (inS := fun u => mem S (id u)).
  set (inT := fun u => negb (mem S (id u)) && mem T (id u)).
  set (inR := fun u => negb (mem S (id u)) && negb (mem T (id u))).
  set (big := fun a => negb (Qltb (ncap a) eps)).
  set (g := fun (x y : bool) (c : Q) => if negb x && y then c else 0).
  assert (Kn : NoDup (kept sid tid size S T)) by (apply NoDup_filter, seq_NoDup).
  (* an arc with its end points classified *)
  assert (Cl : forall a u, In a G -> u = nsrc a \/ u = ndst a ->
            (inS u = true /\ inT u = false /\ inR u = false /\ mem T (id u) = false /\ b u = b NSrc) \/
            (inS u = false /\ inT u = true /\ inR u = false /\ mem T (id u) = true /\ b u = b NSnk) \/
            (inS u = false /\ inT u = false /\ inR u = true /\ mem T (id u) = false /\ b (NV (id u)) = b u /\
             mem (kept sid tid size S T) (id u) = true)).
  { intros a u Ha Hu. unfold inS, inT, inR. destruct (mem S (id u)) eqn:Es.
    - left. apply mem_In in Es. destruct (mem T (id u)) eqn:Et; [apply mem_In in Et; exfalso; eauto|].
      repeat split; auto. destruct u as [| |v]; auto.
      + exfalso. apply (Dj tid); auto.
      + destruct (Hid a Ha v) as (_ & N1 & _); [destruct Hu as [<-|<-]; auto|]. apply HbS; auto.
    - right. apply mem_false in Es. destruct (mem T (id u)) eqn:Et.
      + left. apply mem_In in Et. repeat split; auto. destruct u as [| |v]; auto.
        * contradiction.
        * destruct (Hid a Ha v) as (_ & _ & N1); [destruct Hu as [<-|<-]; auto|]. apply HbT; auto.
      + right. apply mem_false in Et. destruct u as [| |v]; [contradiction|contradiction|].
        destruct (Hid a Ha v) as (N0 & N1 & N2); [destruct Hu as [<-|<-]; auto|].
        repeat split; auto. rewrite mem_kept; auto. cbn [id nid] in *.
        apply mem_false in Es, Et. rewrite Es, Et. reflexivity. }
  assert (Cg := csum_gap eps).
  assert (Hks : ks = kept sid tid size S T) by congruence.
  assert (HC : C = snd (ks, C)) by reflexivity.
  apply (f_equal (fun r => match r with Ok p => p | _ => (ks, C) end)) in Hk. rewrite <- Hk in HC. cbn [snd] in HC.
  clear Hk. subst ks. subst C. rewrite !gcut_app.
  assert (P1 : gcut (filter (fun a => negb (Qltb (ncap a) eps) && (negb (mem S (id (nsrc a))) && negb (mem T (id (nsrc a)))) &&
                     (negb (mem S (id (ndst a))) && negb (mem T (id (ndst a))))) G) b ==
               qsum (fun a => if big a && inR (nsrc a) && inR (ndst a) then g (b (nsrc a)) (b (ndst a)) (ncap a) else 0) G).
  { unfold gcut. rewrite qsum_filter. reflexivity. }
  rewrite P1. clear P1.
  match goal with |- context [gcut (flat_map ?f _) b] => set (arcs := f) end.
  assert (P3 : gcut (flat_map arcs (kept sid tid size S T)) b ==
     qsum (fun a => if big a && (inS (nsrc a) && inR (ndst a)) && mem (kept sid tid size S T) (id (ndst a)) && (negb (b NSrc) && b (NV (id (ndst a)))) then ncap a else 0) G +
     qsum (fun a => if big a && (inR (nsrc a) && inS (ndst a)) && mem (kept sid tid size S T) (id (nsrc a)) && (negb (b (NV (id (nsrc a)))) && b NSrc) then ncap a else 0) G +
     qsum (fun a => if big a && (inR (nsrc a) && inT (ndst a)) && mem (kept sid tid size S T) (id (nsrc a)) && (negb (b (NV (id (nsrc a)))) && b NSnk) then ncap a else 0) G +
     qsum (fun a => if big a && (inT (nsrc a) && inR (ndst a)) && mem (kept sid tid size S T) (id (ndst a)) && (negb (b NSnk) && b (NV (id (ndst a)))) then ncap a else 0) G).
  { unfold gcut. rewrite qsum_flat_map.
    rewrite <- (sum_select (fun a => id (ndst a)) (fun a => big a && (inS (nsrc a) && inR (ndst a))) ncap
                  (fun i => negb (b NSrc) && b (NV i))); auto.
    rewrite <- (sum_select (fun a => id (nsrc a)) (fun a => big a && (inR (nsrc a) && inS (ndst a))) ncap
                  (fun i => negb (b (NV i)) && b NSrc)); auto.
    rewrite <- (sum_select (fun a => id (nsrc a)) (fun a => big a && (inR (nsrc a) && inT (ndst a))) ncap
                  (fun i => negb (b (NV i)) && b NSnk)); auto.
    rewrite <- (sum_select (fun a => id (ndst a)) (fun a => big a && (inT (nsrc a) && inR (ndst a))) ncap
                  (fun i => negb (b NSnk) && b (NV i))); auto.
    rewrite <- !qsum_plus. apply qsum_ext. intros i _. unfold arcs. fold (gcut (mkNarc NSrc (NV i) 0 :: nil) b).
    change (gcut ([mkNarc NSrc (NV i) (csum eps (fun a => inS (nsrc a) && inR (ndst a) && (id (ndst a) =? i)%nat) G)] ++
       (if Qltb eps (ncap (mkNarc (NV i) NSrc (csum eps (fun a => inR (nsrc a) && inS (ndst a) && (id (nsrc a) =? i)%nat) G)))
        then [mkNarc (NV i) NSrc (csum eps (fun a => inR (nsrc a) && inS (ndst a) && (id (nsrc a) =? i)%nat) G)] else []) ++
       [mkNarc (NV i) NSnk (csum eps (fun a => inR (nsrc a) && inT (ndst a) && (id (nsrc a) =? i)%nat) G)] ++
       (if Qltb eps (ncap (mkNarc NSnk (NV i) (csum eps (fun a => inT (nsrc a) && inR (ndst a) && (id (ndst a) =? i)%nat) G)))
        then [mkNarc NSnk (NV i) (csum eps (fun a => inT (nsrc a) && inR (ndst a) && (id (ndst a) =? i)%nat) G)] else [])) b == 
      (if negb (b NSrc) && b (NV i) then qsum (fun a => if big a && (inS (nsrc a) && inR (ndst a)) && (id (ndst a) =? i)%nat then ncap a else 0) G else 0) +
      (if negb (b (NV i)) && b NSrc then qsum (fun a => if big a && (inR (nsrc a) && inS (ndst a)) && (id (nsrc a) =? i)%nat then ncap a else 0) G else 0) +
      (if negb (b (NV i)) && b NSnk then qsum (fun a => if big a && (inR (nsrc a) && inT (ndst a)) && (id (nsrc a) =? i)%nat then ncap a else 0) G else 0) +
      (if negb (b NSnk) && b (NV i) then qsum (fun a => if big a && (inT (nsrc a) && inR (ndst a)) && (id (ndst a) =? i)%nat then ncap a else 0) G else 0)).
    assert (Cs2 : forall (p : narc -> bool) (k : narc -> nat) (x : bool),
                 (if x then csum eps (fun a => p a && (k a =? i)%nat) G else 0) ==
                 (if x then qsum (fun a => if big a && p a && (k a =? i)%nat then ncap a else 0) G else 0)).
    { intros p k [|]; [|reflexivity]. unfold csum. apply qsum_ext. intros a _. unfold big. rewrite andb_assoc. reflexivity. }
    rewrite !gcut_app, !gcut_opt by (apply Cg; auto). unfold gcut. cbn [qsum nsrc ndst ncap].
    rewrite (Cs2 (fun a => inS (nsrc a) && inR (ndst a)) (fun a => id (ndst a))).
    rewrite (Cs2 (fun a => inR (nsrc a) && inS (ndst a)) (fun a => id (nsrc a))).
    rewrite (Cs2 (fun a => inR (nsrc a) && inT (ndst a)) (fun a => id (nsrc a))).
    rewrite (Cs2 (fun a => inT (nsrc a) && inR (ndst a)) (fun a => id (ndst a))). 
    lra. }
  rewrite P3. clear P3 arcs.
  unfold gcut at 1. cbn [qsum nsrc ndst ncap].
  assert (P2 : forall x (p : narc -> bool), (if (x : bool) then csum eps p G else 0) ==
                qsum (fun a => if x && (big a && p a) then ncap a else 0) G).
  { intros [|] p; [reflexivity|]. symmetry. apply qsum_zero. intros; reflexivity. }
  rewrite !P2. clear P2.
  assert (Fin : gcut G b == qsum (fun a =>
     (if big a && inR (nsrc a) && inR (ndst a) then g (b (nsrc a)) (b (ndst a)) (ncap a) else 0) +
     ((if negb (b NSrc) && b NSnk && (big a && (inS (nsrc a) && mem T (id (ndst a)))) then ncap a else 0) +
      (if negb (b NSnk) && b NSrc && (big a && (inT (nsrc a) && inS (ndst a))) then ncap a else 0)) +
     ((if big a && (inS (nsrc a) && inR (ndst a)) && mem (kept sid tid size S T) (id (ndst a)) && (negb (b NSrc) && b (NV (id (ndst a)))) then ncap a else 0) +
      (if big a && (inR (nsrc a) && inS (ndst a)) && mem (kept sid tid size S T) (id (nsrc a)) && (negb (b (NV (id (nsrc a)))) && b NSrc) then ncap a else 0) +
      (if big a && (inR (nsrc a) && inT (ndst a)) && mem (kept sid tid size S T) (id (nsrc a)) && (negb (b (NV (id (nsrc a)))) && b NSnk) then ncap a else 0) +
      (if big a && (inT (nsrc a) && inR (ndst a)) && mem (kept sid tid size S T) (id (ndst a)) && (negb (b NSnk) && b (NV (id (ndst a)))) then ncap a else 0))) G).
  { unfold gcut. apply qsum_ext. intros a Ha.
    destruct (big a) eqn:Eb.
    - destruct (Cl a (nsrc a) Ha (or_introl eq_refl)) as [(A1 & A2 & A3 & A4 & A5)|[(A1 & A2 & A3 & A4 & A5)|(A1 & A2 & A3 & A4 & A5 & A6)]];
      destruct (Cl a (ndst a) Ha (or_intror eq_refl)) as [(B1 & B2 & B3 & B4 & B5)|[(B1 & B2 & B3 & B4 & B5)|(B1 & B2 & B3 & B4 & B5 & B6)]];
      rewrite ?A1, ?A2, ?A3, ?A4, ?A5, ?B1, ?B2, ?B3, ?B4, ?B5, ?A6, ?B6; unfold g;
      clear - b; destruct (b NSrc), (b NSnk); cbn [negb andb]; try lra;
      destruct (b (nsrc a)), (b (ndst a)); cbn [negb andb]; lra.
    - unfold big in Eb. apply negb_false_iff in Eb. apply Qltb_true in Eb.
      assert (Z : ncap a == 0) by (destruct (Hc a Ha); lra).
      cbn [andb]. rewrite !andb_false_r.
      destruct (negb (b (nsrc a)) && b (ndst a)); lra. }
  rewrite Fin. rewrite !qsum_plus. 
  unfold inS, inT, inR, big. cbv beta. lra.
Qed.

Lemma contract_runs eps sid tid size S T G :
  NoDup S -> NoDup T -> (forall i, In i S -> ~ In i T) -> In sid S -> In tid T ->
  (forall i, In i S \/ In i T -> (i < size)%nat) ->
  exists ks C, contract eps sid tid size S T G = Ok (ks, C) /\
    forall i, In i ks <-> (i < size)%nat /\ ~ In i S /\ ~ In i T.
Proof.
  intros HS HT Dj Is It Hz. unfold contract. cbv zeta.
  assert (N : NoDup (erased sid tid S T)).
  { unfold erased. apply NoDup_app_intro; [apply NoDup_filter; auto|apply NoDup_filter; auto|].
    intros x H1 H2. apply filter_In in H1, H2. apply (Dj x); tauto. }
  assert (In_er : forall i, In i (erased sid tid S T) -> (In i S /\ i <> sid) \/ (In i T /\ i <> tid)).
  { intros i H. unfold erased in H. rewrite in_app_iff, !filter_In, !negb_true_iff, !Nat.eqb_neq in H. exact H. }
  rewrite (nodupb_true (erased sid tid S T) N).
  assert (F : forallb (fun i => (i <? size)%nat) (erased sid tid S T) = true).
  { apply forallb_forall. intros i Hi. apply Nat.ltb_lt. destruct (In_er i Hi) as [[A _]|[A _]]; auto. }
  assert (M1 : mem (erased sid tid S T) sid = false).
  { apply mem_false. intro C. destruct (In_er _ C) as [[_ A]|[A _]]; [congruence|]. apply (Dj sid); auto. }
  assert (M2 : mem (erased sid tid S T) tid = false).
  { apply mem_false. intro C. destruct (In_er _ C) as [[A _]|[_ A]]; [|congruence]. apply (Dj tid); auto. }
  assert (L1 : (sid <? size)%nat = true) by (apply Nat.ltb_lt; auto).
  assert (L2 : (tid <? size)%nat = true) by (apply Nat.ltb_lt; auto).
  rewrite F, M1, M2, L1, L2. cbn [andb negb]. eexists _, _. split; [reflexivity|].
  intro i. split.
  - intro H. assert (H' := H). unfold kept in H. apply filter_In in H. destruct H as [H1 H2].
    apply in_seq in H1. rewrite !andb_true_iff, !negb_true_iff, !Nat.eqb_neq in H2. destruct H2 as [[H3 H4] _].
    apply mem_In in H'. rewrite mem_kept in H'; auto; [|lia].
    rewrite andb_true_iff, !negb_true_iff in H'. destruct H' as [A B]. apply mem_false in A, B.
    split; [lia|auto].
  - intros (A & B & C). apply mem_In. rewrite mem_kept; auto; [|congruence|congruence].
    apply mem_false in B, C. rewrite B, C. reflexivity.
Qed.

(** A network, any two disjoint sets of nodes with source and sink in them: contraction succeeds,
    keeps exactly the other nodes, and preserves every cut not separating nodes of [S] or nodes of
    [T], whatever side source and sink are on. *)
Theorem C29_contract_preserves_cuts : forall eps sid tid size S T G,
  0 < eps -> NoDup S -> NoDup T -> (forall i, In i S -> ~ In i T) -> In sid S -> In tid T ->
  (forall i, In i S \/ In i T -> (i < size)%nat) -> ids_ok sid tid size G ->
  (forall a, In a G -> ncap a == 0 \/ eps < ncap a) ->
  exists ks C, contract eps sid tid size S T G = Ok (ks, C) /\
    (forall i, In i ks <-> (i < size)%nat /\ ~ In i S /\ ~ In i T) /\
    forall b, (forall i, In i S -> i <> sid -> b (NV i) = b NSrc) ->
              (forall i, In i T -> i <> tid -> b (NV i) = b NSnk) -> gcut C b == gcut G b.
Proof.
  exact (fun eps sid tid size S T G He HS HT Dj Is It Hz Hid Hc =>
    match contract_runs eps sid tid size S T G HS HT Dj Is It Hz with
    | ex_intro _ ks (ex_intro _ C (conj A B)) =>
        ex_intro _ ks (ex_intro _ C (conj A (conj B (fun b =>
          contract_cut eps sid tid size S T G ks C b He
            (fun Eq => Dj sid Is (eq_ind_r (fun x => In x T) It Eq)) Is It Hid Hc A))))
    end).
Qed.
Print Assumptions C29_contract_preserves_cuts.

(** Six nodes; source 5, sink 4; node 0 joins the source, node 3 the sink.  Parallel arcs add up and
    arcs in both directions survive. *)
Definition ex29 : network :=
  [mkNarc NSrc (NV 0) 1; mkNarc NSrc (NV 1) 2; mkNarc (NV 0) (NV 1) 3; mkNarc (NV 1) (NV 0) 1;
   mkNarc (NV 1) (NV 2) 4; mkNarc (NV 2) (NV 3) 2; mkNarc (NV 3) (NV 2) 7; mkNarc (NV 2) NSnk 1;
   mkNarc (NV 0) (NV 3) 5; mkNarc (NV 3) NSnk 2; mkNarc (NV 3) (NV 0) 9].
Example C29_nonvacuous :
  ids_ok 5 4 6 ex29 /\ (forall a, In a ex29 -> ncap a == 0 \/ tol < ncap a) /\
  contract tol 5 4 6 [0;5]%nat [3;4]%nat ex29 =
    Ok ([1;2]%nat,
        [mkNarc (NV 1) (NV 2) 4; mkNarc NSrc NSnk 5; mkNarc NSnk NSrc 9;
         mkNarc NSrc (NV 1) 5; mkNarc (NV 1) NSrc 1; mkNarc (NV 1) NSnk 0;
         mkNarc NSrc (NV 2) 0; mkNarc (NV 2) NSnk 3; mkNarc NSnk (NV 2) 7]).
Proof.
  split.
  { intros a Ha v Hv. simpl in Ha.
    repeat (destruct Ha as [<-|Ha]; [destruct Hv as [Hv|Hv]; simpl in Hv; try discriminate Hv; injection Hv as <-; lia|]).
    destruct Ha. }
  split.
  { intros a Ha. simpl in Ha. repeat (destruct Ha as [<-|Ha]; [right; reflexivity|]). destruct Ha. }
  vm_compute. reflexivity.
Qed.

(** At the tolerance itself the theorem stops: an arc of capacity [eps] between two kept nodes
    stays (lines 614-615 skip only smaller ones), one leading into [S] is dropped (line 656 asks
    for more than [eps]). *)
Example C29_boundary :
  contract tol 3 2 4 [3]%nat [2]%nat [mkNarc (NV 0) (NV 1) tol; mkNarc (NV 0) NSrc tol] =
  Ok ([0;1]%nat, [mkNarc (NV 0) (NV 1) tol; mkNarc NSrc NSnk 0; mkNarc NSnk NSrc 0;
                  mkNarc NSrc (NV 0) 0; mkNarc (NV 0) NSnk 0; mkNarc NSrc (NV 1) 0; mkNarc (NV 1) NSnk 0]).
Proof. vm_compute. reflexivity. Qed.

(** ** C49: pdt_r computes the principal sequence under every schedule *)
Lemma pdtr_correct mc mr sch eps E n D :
  MinSinkCutSpec mc -> MinSrcCutSpec mr -> 0 < eps -> (1 <= n)%nat ->
  graph_on (seq 0 n) E -> simple E -> forward E ->
  (forall a, In a E -> eps <= aw a) -> multiples_of D E ->
  10 * eps * inject_Z (Zpos (gridM D n)) < 1 ->
  exists lams Ps, pdtr_run mc mr sch eps E n = Ok (map Fin lams, Ps) /\ IsPSP E (seq 0 n) lams Ps.
Proof.
  intros Hmc Hmr He Hn HE Hs Hf Hw HD HeM.
  destruct (loop_correct eps He E n HE Hf D HD HeM (fun j y => pmfr_run mc mr (sch j) eps E n j y))
    with (2 := Hn) as (y & cs & Ps & R1 & R2).
  { intros j y M Hj HyM Hy0 HfM HiM HeM' Hx.
    exact (pmfr_run_ok mc Hmc mr Hmr eps He E n j Hj HE Hs Hf Hw y M HyM Hy0 HfM HiM HeM' (sch j) Hx). }
  exists cs, Ps. split; auto. unfold pdtr_run. rewrite R1. reflexivity.
Qed.

Theorem C49_pdtr_exact : forall mc mr sch eps E n D,
  MinSinkCutSpec mc -> MinSrcCutSpec mr -> 0 < eps -> (1 <= n)%nat ->
  graph_on (seq 0 n) E -> simple E -> forward E ->
  (forall a, In a E -> eps <= aw a) -> multiples_of D E ->
  10 * eps * inject_Z (Zpos (gridM D n)) < 1 ->
  exists lams Ps, pdtr_run mc mr sch eps E n = Ok (map Fin lams, Ps) /\ IsPSP E (seq 0 n) lams Ps.
Proof. exact pdtr_correct. Qed.
Print Assumptions C49_pdtr_exact.

(** Which worker wins each race does not show in the result. *)
Lemma pdtr_sched mc mr sch mc' mr' sch' eps E n D :
  MinSinkCutSpec mc -> MinSrcCutSpec mr -> MinSinkCutSpec mc' -> MinSrcCutSpec mr' ->
  0 < eps -> (1 <= n)%nat -> graph_on (seq 0 n) E -> simple E -> forward E ->
  (forall a, In a E -> eps <= aw a) -> multiples_of D E ->
  10 * eps * inject_Z (Zpos (gridM D n)) < 1 ->
  exists lams Ps lams' Ps', pdtr_run mc mr sch eps E n = Ok (map Fin lams, Ps) /\
    pdtr_run mc' mr' sch' eps E n = Ok (map Fin lams', Ps') /\
    Forall2 Qeq lams lams' /\ Forall2 same_partition Ps Ps'.
Proof.
  intros Hmc Hmr Hmc' Hmr' He Hn HE Hs Hf Hw HD HeM.
  destruct (pdtr_correct mc mr sch eps E n D Hmc Hmr He Hn HE Hs Hf Hw HD HeM) as (lams & Ps & A1 & A2).
  destruct (pdtr_correct mc' mr' sch' eps E n D Hmc' Hmr' He Hn HE Hs Hf Hw HD HeM) as (lams' & Ps' & B1 & B2).
  exists lams, Ps, lams', Ps'. split; auto. split; auto.
  apply (C12_psp_unique E (seq 0 n) (seq_NoDup n 0) HE); auto.
Qed.

Theorem C49_schedule_independent : forall mc mr sch mc' mr' sch' eps E n D,
  MinSinkCutSpec mc -> MinSrcCutSpec mr -> MinSinkCutSpec mc' -> MinSrcCutSpec mr' ->
  0 < eps -> (1 <= n)%nat -> graph_on (seq 0 n) E -> simple E -> forward E ->
  (forall a, In a E -> eps <= aw a) -> multiples_of D E ->
  10 * eps * inject_Z (Zpos (gridM D n)) < 1 ->
  exists lams Ps lams' Ps', pdtr_run mc mr sch eps E n = Ok (map Fin lams, Ps) /\
    pdtr_run mc' mr' sch' eps E n = Ok (map Fin lams', Ps') /\
    Forall2 Qeq lams lams' /\ Forall2 same_partition Ps Ps'.
Proof. exact pdtr_sched. Qed.
Print Assumptions C49_schedule_independent.

Lemma pdtr_as_dt mc mr sch eps E n D :
  MinSinkCutSpec mc -> MinSrcCutSpec mr -> 0 < eps -> (2 <= n)%nat ->
  graph_on (seq 0 n) E -> simple E -> forward E ->
  (forall a, In a E -> eps <= aw a) -> multiples_of D E -> fine_tol D n eps ->
  10 * eps * inject_Z (Zpos (gridM D n)) < 1 ->
  exists lams Ps lams' Ps', pdtr_run mc mr sch eps E n = Ok (map Fin lams, Ps) /\
    dt_run mc eps E n = Ok (map Fin lams', Ps') /\
    Forall2 Qeq lams lams' /\ Forall2 same_partition Ps Ps'.
Proof.
  intros Hmc Hmr He Hn HE Hs Hf Hw HD Ht HeM.
  destruct (pdtr_correct mc mr sch eps E n D Hmc Hmr He ltac:(lia) HE Hs Hf Hw HD HeM) as (lams & Ps & A1 & A2).
  destruct (C11_dt_exact mc eps E n D Hmc He Hn HE Hs Hf HD Ht) as (lams' & Ps' & B1 & B2).
  exists lams, Ps, lams', Ps'. split; auto. split; auto.
  apply (C12_psp_unique E (seq 0 n) (seq_NoDup n 0) HE); auto.
Qed.

Theorem C49_pdtr_agrees_with_dt : forall mc mr sch eps E n D,
  MinSinkCutSpec mc -> MinSrcCutSpec mr -> 0 < eps -> (2 <= n)%nat ->
  graph_on (seq 0 n) E -> simple E -> forward E ->
  (forall a, In a E -> eps <= aw a) -> multiples_of D E -> fine_tol D n eps ->
  10 * eps * inject_Z (Zpos (gridM D n)) < 1 ->
  exists lams Ps lams' Ps', pdtr_run mc mr sch eps E n = Ok (map Fin lams, Ps) /\
    dt_run mc eps E n = Ok (map Fin lams', Ps') /\
    Forall2 Qeq lams lams' /\ Forall2 same_partition Ps Ps'.
Proof. exact pdtr_as_dt. Qed.
Print Assumptions C49_pdtr_agrees_with_dt.

(** Positive weights and a sufficiently small tolerance. *)
Lemma pdtr_small_tol mc mr E n :
  MinSinkCutSpec mc -> MinSrcCutSpec mr -> (1 <= n)%nat ->
  graph_on (seq 0 n) E -> simple E -> forward E -> (forall a, In a E -> 0 < aw a) ->
  exists eps0, 0 < eps0 /\ forall eps sch, 0 < eps -> eps <= eps0 ->
    exists lams Ps, pdtr_run mc mr sch eps E n = Ok (map Fin lams, Ps) /\ IsPSP E (seq 0 n) lams Ps.
Proof.
  intros Hmc Hmr Hn HE Hs Hf Hp. destruct (multiples_ex E) as (D & HD).
  destruct (small_weights E Hp) as (e & E1 & E2).
  set (K := inject_Z (Zpos (gridM D n))).
  assert (K0 : 0 < K) by (unfold K; rewrite <- (Zlt_Qlt 0); lia).
  assert (K1 : 0 < / (20 * K)) by (apply Qinv_lt_0_compat; lra).
  assert (K2 : 20 * K * / (20 * K) == 1) by (apply Qmult_inv_r; lra).
  exists (if Qltb e (/ (20 * K)) then e else / (20 * K)).
  assert (Both : forall eps, eps <= (if Qltb e (/ (20 * K)) then e else / (20 * K)) -> eps <= e /\ eps <= / (20 * K)).
  { intros eps H. destruct (Qltb e (/ (20 * K))) eqn:Eq; [apply Qltb_true in Eq|apply Qltb_false in Eq]; lra. }
  split; [destruct (Qltb e (/ (20 * K))); auto|].
  intros eps sch H1 H2. destruct (Both eps H2) as [H3 H4].
  apply (pdtr_correct mc mr sch eps E n D); auto.
  - intros a Ha. specialize (E2 a Ha). lra.
  - fold K. assert (eps * (20 * K) <= / (20 * K) * (20 * K)) by (apply Qmult_le_compat_r; lra). lra.
Qed.

Theorem C49_pdtr_exact_small_tolerance : forall mc mr E n,
  MinSinkCutSpec mc -> MinSrcCutSpec mr -> (1 <= n)%nat ->
  graph_on (seq 0 n) E -> simple E -> forward E -> (forall a, In a E -> 0 < aw a) ->
  exists eps0, 0 < eps0 /\ forall eps sch, 0 < eps -> eps <= eps0 ->
    exists lams Ps, pdtr_run mc mr sch eps E n = Ok (map Fin lams, Ps) /\ IsPSP E (seq 0 n) lams Ps.
Proof. exact pdtr_small_tol. Qed.
Print Assumptions C49_pdtr_exact_small_tolerance.

(** The graph of C27 with brute-force workers, and three schedules: the left worker always wins, the
    right one always wins, and a mixed one. *)
Example C49_nonvacuous :
  MinSinkCutSpec bf_mincut /\ MinSrcCutSpec (rev_solver bf_mincut) /\
  forall sch, In sch [(fun _ _ => true); (fun _ _ => false); (fun j p => Nat.even (j + length p))] ->
  pdtr_run bf_mincut (rev_solver bf_mincut) sch tol ex27 4 =
    Ok ([Fin 2; Fin 3; Fin 5],
        [[[0;1;2;3]]; [[0]; [1;2;3]]; [[0]; [1;2]; [3]]; [[0]; [1]; [2]; [3]]]%nat).
Proof.
  split; [apply bf_minsink_spec|]. split; [apply rev_solver_spec, bf_minsink_spec|].
  intros sch [<-|[<-|[<-|[]]]]; vm_compute; reflexivity.
Qed.

(** ** C28 for pdt_r: a second run on the same object never returns *)
Lemma pdtr_twice_hangs mc mr sch eps E n D :
  MinSinkCutSpec mc -> MinSrcCutSpec mr -> 0 < eps -> (2 <= n)%nat ->
  graph_on (seq 0 n) E -> simple E -> forward E ->
  (forall a, In a E -> eps <= aw a) -> multiples_of D E ->
  10 * eps * inject_Z (Zpos (gridM D n)) < 1 ->
  pdtr_run_twice mc mr sch eps E n = OutOfFuel.
Proof.
  intros Hmc Hmr He Hn HE Hs Hf Hw HD HeM.
  apply (loop_twice_hangs (fun j y => pmfr_run mc mr (sch j) eps E n j y) eps E n D); auto.
  { intros j y M Hj HyM Hy0 HfM HiM HeM' Hx.
    exact (pmfr_run_ok mc Hmc mr Hmr eps He E n j Hj HE Hs Hf Hw y M HyM Hy0 HfM HiM HeM' (sch j) Hx). }
  intros y Hl. unfold pmfr_run.
  assert (L1 : (1 <? n)%nat = true) by (apply Nat.ltb_lt; lia). rewrite L1. cbv zeta.
  rewrite (worker_init mc Hmc mr Hmr eps He E n 1 ltac:(lia) HE Hs Hf Hw y).
  assert (T : snd (pmf_cut mc eps E 1 y init_lambda) = [1%nat]).
  { destruct (pmf_cut_min mc Hmc eps He E n 1 ltac:(lia) HE Hs Hf Hw y init_lambda) as [K _].
    apply csorted_ext; [apply K|apply Hl|]. intro x. split.
    - apply (min_shrink eps E n 1 HE y init_lambda init_lambda); auto; lra.
    - intros [<-|[]]. apply K. }
  rewrite T. reflexivity.
Qed.

Theorem C28_pdtr_second_run_hangs : forall mc mr sch eps E n D,
  MinSinkCutSpec mc -> MinSrcCutSpec mr -> 0 < eps -> (2 <= n)%nat ->
  graph_on (seq 0 n) E -> simple E -> forward E ->
  (forall a, In a E -> eps <= aw a) -> multiples_of D E ->
  10 * eps * inject_Z (Zpos (gridM D n)) < 1 ->
  pdtr_run_twice mc mr sch eps E n = OutOfFuel.
Proof. exact pdtr_twice_hangs. Qed.
Print Assumptions C28_pdtr_second_run_hangs.

Example C28_pdtr_example :
  pdtr_run_twice bf_mincut (rev_solver bf_mincut) (fun _ _ => false) tol ex27 4 = OutOfFuel.
Proof. vm_compute. reflexivity. Qed.

(** The weight-zero defect of pdt (C47) is shared. *)
Example C47_pdtr_result : forall b,
  pdtr_run bf_mincut (rev_solver bf_mincut) (fun _ _ => b) tol ex47 4 = pdt_run bf_mincut tol ex47 4.
Proof. intros [|]; vm_compute; reflexivity. Qed.
