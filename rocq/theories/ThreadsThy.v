(** * ThreadsThy: invariants of the worker race. *)
From Verif Require Import Base MThreads.

Definition wok (x : worker) : Prop :=
  match pc x with
  | WNew => val x = false /\ tset x = false /\ exc x = false /\ intr x = false
  | WRun | WLock | WVal => val x = false /\ tset x = false /\ exc x = false
  | WSet => val x = true /\ tset x = false /\ exc x = false
  | WNot | WUnl => val x = true /\ tset x = true /\ exc x = false
  | WEnd => (val x = true /\ tset x = true /\ exc x = false) \/ (tset x = false /\ exc x = true) \/
            (val x = false /\ tset x = false /\ exc x = false /\ intr x = true)
  end.

Definition holds (p : wpc) : bool := match p with WVal | WSet | WNot | WUnl => true | _ => false end.
Definition mholds (m : mpc) : bool := match m with MChk | MPre | MUnl1 | MDec | MUnl2 => true | _ => false end.

Definition lok (s : tstate) : Prop :=
  match lck s with
  | None => mholds (main s) = false /\ holds (pc (wl s)) = false /\ holds (pc (wr s)) = false
  | Some OMain => mholds (main s) = true /\ holds (pc (wl s)) = false /\ holds (pc (wr s)) = false
  | Some (OW WL) => mholds (main s) = false /\ holds (pc (wl s)) = true /\ holds (pc (wr s)) = false
  | Some (OW WR) => mholds (main s) = false /\ holds (pc (wl s)) = false /\ holds (pc (wr s)) = true
  end.

(** A worker while the coordinating thread sleeps: what it has written was not announced. *)
Definition quiet (x : worker) : Prop :=
  val x = true -> pc x = WSet \/ pc x = WNot \/ (pc x = WEnd /\ exc x = true).

Definition early (s : tstate) : Prop := intr (wl s) = false /\ intr (wr s) = false.
Definition late (s : tstate) : Prop :=
  (intr (wl s) = true -> val (wr s) = true /\ intr (wr s) = false) /\
  (intr (wr s) = true -> val (wl s) = true /\ intr (wl s) = false).

Definition mok (c : who -> nat) (s : tstate) : Prop :=
  match main s with
  | MSpawnL => pc (wl s) = WNew /\ pc (wr s) = WNew /\ early s
  | MSpawnR => pc (wl s) <> WNew /\ pc (wr s) = WNew /\ early s
  | m => pc (wl s) <> WNew /\ pc (wr s) <> WNew /\
      match m with
      | MPre | MWait => early s /\ quiet (wl s) /\ quiet (wr s)
      | MUnl2 | MJoinL => late s
      | MJoinR => late s /\ pc (wl s) = WEnd
      | MErr => late s /\ pc (wl s) = WEnd /\ pc (wr s) = WEnd
      | MDone o => late s /\ pc (wl s) = WEnd /\ pc (wr s) = WEnd /\ o = finish c s
      | _ => early s
      end
  end.

Record tinv (c : who -> nat) (s : tstate) : Prop := {
  ti_l : wok (wl s); ti_r : wok (wr s); ti_lck : lok s; ti_main : mok c s }.

Lemma tinv_init c : tinv c tinit.
Proof. split; repeat split. Qed.

Ltac dstate s := destruct s as [m lk [pl vl tl xl il] [pr vr tr xr ir]].
Ltac red_all := unfold wok, lok, mok, quiet, early, late, finish, card, notify, interrupt, set_wk, set_lck, set_main, at_pc in *;
                cbn [main lck wl wr wk pc val tset exc intr holds mholds] in *.

Lemma decide_spec c nn s : match decide c nn s with
  | Some WL => val (wr s) = true /\ val (wl s) = false
  | Some WR => val (wl s) = true /\ val (wr s) = false
  | None => True
  end.
Proof.
  unfold decide. destruct (val (wr s)), (val (wl s)); cbn [negb]; rewrite ?andb_true_r, ?andb_false_r; auto.
  - destruct (2 * card c s WR <=? nn)%nat; auto.
  - destruct (nn <? 2 * card c s WL)%nat; auto.
Qed.

Lemma tinv_dec c nn s : tinv c s -> main s = MDec -> tinv c (set_main (interrupt s (decide c nn s)) MUnl2).
Proof.
  intros [I1 I2 I3 I4] H. assert (D := decide_spec c nn s).
  destruct (decide c nn s) as [[|]|]; dstate s; red_all; subst; cbn in *.
  all: destruct lk as [[|[|]]|]; cbn in I3; try (exfalso; intuition discriminate).
  all: destruct pl; cbn in I3; try (exfalso; intuition discriminate).
  all: destruct pr; cbn in I3; try (exfalso; intuition discriminate).
  all: split; red_all; intuition congruence.
Qed.

Lemma tinv_step c nn s l s' : tinv c s -> step c nn s l s' -> tinv c s'.
Proof.
  intros I H.
  destruct H as [s H|s H|s H H1|s H H1 H2|s H|s H H1|s H|s H H1|s H|s H H1|s H|s H|s H H1|s H H1|s H|s w H|s w H H1|s w H
                |s w H|s w H|s w H|s w H H1|s w H|s w H]; try (apply tinv_dec; assumption);
    destruct I as [I1 I2 I3 I4];
    try destruct w; dstate s; red_all; subst; cbn [main lck wl wr wk pc val tset exc intr holds mholds] in *;
    try (destruct lk as [[|[|]]|]; cbn in I3; try (exfalso; intuition discriminate));
    try (destruct m; cbn in I3; try (exfalso; intuition discriminate));
    try (split; red_all; intuition congruence).
  all: try (destruct pl; cbn in I3; try (exfalso; intuition discriminate)).
  all: try (destruct pr; cbn in I3; try (exfalso; intuition discriminate)).
  all: split; red_all; intuition congruence.
Qed.

Lemma tinv_run c nn ls s : run c nn tinit ls s -> tinv c s.
Proof.
  intro H. remember tinit as s0 eqn:E. induction H as [s|s ls s1 l s2 H IH Hs]; subst.
  - apply tinv_init.
  - eapply tinv_step; eauto.
Qed.

(** ** Progress *)
Lemma stuck_states c nn s : tinv c s -> stuck c nn s ->
  (exists o, main s = MDone o) \/ (main s = MWait /\ exc (wl s) = true /\ exc (wr s) = true).
Proof.
  intros [I1 I2 I3 I4] Hs.
  assert (N : forall s', ~ step c nn s Norm s') by (intros s' K; apply Hs in K; discriminate K).
  destruct (lck s) as [[|w]|] eqn:El.
  - exfalso. unfold lok in I3. rewrite El in I3. destruct I3 as (I3 & _ & _).
    destruct (main s) eqn:Em; try discriminate I3.
    + destruct (val (wl s)) eqn:V1; [apply (N _ (s_chk_go c nn s Em (or_introl V1)))|].
      destruct (val (wr s)) eqn:V2; [apply (N _ (s_chk_go c nn s Em (or_intror V2)))|].
      apply (N _ (s_chk_wait c nn s Em V1 V2)).
    + apply (N _ (s_wait c nn s Em)).
    + apply (N _ (s_unl1 c nn s Em)).
    + apply (N _ (s_dec c nn s Em)).
    + apply (N _ (s_unl2 c nn s Em)).
  - exfalso. assert (K : holds (pc (wk s w)) = true).
    { unfold lok in I3. rewrite El in I3. destruct w; cbn [wk]; tauto. }
    destruct (pc (wk s w)) eqn:Ep; try discriminate K.
    + apply (N _ (s_val c nn s w Ep)).
    + apply (N _ (s_set c nn s w Ep)).
    + apply (N _ (s_not c nn s w Ep)).
    + apply (N _ (s_unl c nn s w Ep)).
  - unfold lok in I3. rewrite El in I3. destruct I3 as (I3 & I5 & I6).
    assert (K : forall w, pc (wk s w) = WNew \/ pc (wk s w) = WEnd).
    { intro w. assert (K0 : holds (pc (wk s w)) = false) by (destruct w; auto).
      destruct (pc (wk s w)) eqn:Ep; try discriminate K0; auto; exfalso.
      - apply (N _ (s_run c nn s w Ep)).
      - apply (N _ (s_wlock c nn s w Ep El)). }
    assert (KL := K WL). assert (KR := K WR). cbn [wk] in KL, KR. unfold mok in I4.
    destruct (main s) eqn:Em; try discriminate I3; try (left; eexists; reflexivity).
    + exfalso; apply (N _ (s_spawnL c nn s Em)).
    + exfalso; apply (N _ (s_spawnR c nn s Em)).
    + exfalso; apply (N _ (s_lock1 c nn s Em El)).
    + right. split; auto. destruct I4 as (A1 & A2 & (A3 & A4) & A5 & A6).
      destruct KL as [KL|KL]; [contradiction|]. destruct KR as [KR|KR]; [contradiction|].
      unfold wok in I1, I2. rewrite KL in I1. rewrite KR in I2. unfold quiet in A5, A6. rewrite KL in A5. rewrite KR in A6.
      split.
      * destruct I1 as [(B1 & B2 & B3)|[(B1 & B2)|(_ & _ & _ & B)]]; auto; [|congruence].
        destruct (A5 B1) as [C|[C|[_ C]]]; congruence.
      * destruct I2 as [(B1 & B2 & B3)|[(B1 & B2)|(_ & _ & _ & B)]]; auto; [|congruence].
        destruct (A6 B1) as [C|[C|[_ C]]]; congruence.
    + exfalso; apply (N _ (s_relock c nn s Em El)).
    + exfalso; apply (N _ (s_lock2 c nn s Em El)).
    + destruct KL as [KL|KL]; [exfalso; tauto|]. exfalso; apply (N _ (s_joinL c nn s Em KL)).
    + destruct KR as [KR|KR]; [exfalso; tauto|]. exfalso; apply (N _ (s_joinR c nn s Em KR)).
    + exfalso; apply (N _ (s_err c nn s Em)).
Qed.

(** ** Exceptions are recorded *)
Lemma exc_run c nn ls s : run c nn tinit ls s -> forall w, exc (wk s w) = true <-> In (Fail w) ls.
Proof.
  intro H. remember tinit as s0 eqn:E. induction H as [s|s ls s1 l s2 H IH Hs]; subst; intro w.
  - split; [destruct w; intro C; discriminate C|intros []].
  - specialize (IH eq_refl w). rewrite in_app_iff, <- IH.
    assert (K : exc (wk s2 w) = true <-> exc (wk s1 w) = true \/ l = Fail w).
    { clear IH H. destruct Hs; try (destruct w; dstate s; cbn; intuition congruence);
        try (destruct w0; destruct w; dstate s; unfold notify; cbn in *; try destruct m; cbn; intuition congruence).
      destruct (decide c nn s) as [[|]|]; destruct w; dstate s; cbn; intuition congruence. }
    rewrite K. simpl. intuition.
Qed.

(** ** Every run is short *)
Definition mrank (m : mpc) : nat :=
  match m with MSpawnL => 14 | MSpawnR => 13 | MLock1 => 12 | MChk => 11 | MPre => 10 | MWait => 9 | MRelock => 8 | MUnl1 => 7
  | MLock2 => 6 | MDec => 5 | MUnl2 => 4 | MJoinL => 3 | MJoinR => 2 | MErr => 1 | MDone _ => 0 end.
Definition wrank (p : wpc) : nat :=
  match p with WNew => 7 | WRun => 6 | WLock => 5 | WVal => 4 | WSet => 3 | WNot => 2 | WUnl => 1 | WEnd => 0 end.
Definition trank (s : tstate) : nat := (mrank (main s) + wrank (pc (wl s)) + wrank (pc (wr s)))%nat.

Lemma trank_step c nn s l s' : tinv c s -> step c nn s l s' -> (trank s' < trank s)%nat.
Proof.
  intros [I1 I2 I3 I4] Hs.
  assert (D : forall o, pc (wl (interrupt s o)) = pc (wl s) /\ pc (wr (interrupt s o)) = pc (wr s))
    by (intros [[|]|]; split; reflexivity).
  unfold trank. destruct Hs; unfold mok in I4;
    try (rewrite H in I4); cbn [main wl wr set_main set_lck set_wk at_pc pc];
    try (destruct (D (decide c nn s)) as [D1 D2]; rewrite D1, D2);
    try (destruct I4 as (J1 & J2 & _); rewrite ?J1, ?J2);
    try (rewrite H; simpl; lia);
    try (destruct w; cbn [wk] in *; unfold notify; cbn [main set_wk at_pc wl wr pc lck];
         try destruct (main s) eqn:Em; try (destruct H as [H|H]); cbn [main set_wk set_main set_lck at_pc wl wr pc lck mrank];
         rewrite ?H; simpl; lia).
Qed.

Lemma run_length c nn ls s : run c nn tinit ls s -> (length ls + trank s <= 28)%nat.
Proof.
  intro H. assert (T := tinv_run c nn ls s H). remember tinit as s0 eqn:E.
  induction H as [s|s ls s1 l s2 H IH Hs]; subst.
  - cbn. lia.
  - assert (T1 := tinv_run c nn ls s1 H). specialize (IH eq_refl T1).
    assert (R := trank_step c nn s1 l s2 T1 Hs). rewrite app_length. simpl. lia.
Qed.

(** ** The result used *)
Lemma done_result c nn ls s o : (forall w, 1 <= c w)%nat -> run c nn tinit ls s -> main s = MDone o ->
  match o with
  | RethrowL => exc (wl s) = true
  | RethrowR => exc (wl s) = false /\ exc (wr s) = true
  | UseL => exc (wl s) = false /\ exc (wr s) = false /\ val (wl s) = true /\ tset (wl s) = true
  | UseR => exc (wl s) = false /\ exc (wr s) = false /\ val (wr s) = true /\ tset (wr s) = true /\
            intr (wl s) = true /\ tset (wl s) = false
  end.
Proof.
  intros Hc H Hm. destruct (tinv_run c nn ls s H) as [I1 I2 I3 I4]. unfold mok in I4. rewrite Hm in I4.
  destruct I4 as (_ & _ & [L1 L2] & P1 & P2 & ->). unfold finish, card. cbn [wk].
  unfold wok in I1, I2. rewrite P1 in I1. rewrite P2 in I2. assert (HL := Hc WL).
  destruct (exc (wl s)) eqn:X1; auto. destruct (exc (wr s)) eqn:X2; auto.
  destruct (tset (wl s)) eqn:T1.
  - assert (Z : (c WL =? 0)%nat = false) by (apply Nat.eqb_neq; lia). rewrite Z.
    destruct I1 as [(B1 & B2 & B3)|[(B1 & B2)|(B0 & B1 & B2 & B)]]; try congruence. auto.
  - cbn [Nat.eqb].
    destruct I1 as [(B1 & B2 & B3)|[(B1 & B2)|(B0 & B1 & B2 & B)]]; try congruence.
    destruct (L1 B) as [V1 V2].
    destruct I2 as [(C1 & C2 & C3)|[(C1 & C2)|(C0 & C1 & C2 & C)]]; try congruence. auto 7.
Qed.
