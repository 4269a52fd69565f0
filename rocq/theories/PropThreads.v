(** * PropThreads: the worker race of pdt_r (psp/pmf_r.cpp:314-406, 483-545): C32 and C33. *)
From Verif Require Import Base MThreads ThreadsThy.

(** ** C32: without failures the race always ends, with the result of a completed worker.

    Every run has at most 28 steps; a state in which no thread can move (a spurious wake-up apart)
    is final; the result used was written completely; the result of the right worker is used only
    if the left one was stopped, and a worker is interrupted only after the other has delivered. *)
Lemma race_ok c nn ls s : (forall w, (1 <= c w)%nat) -> run c nn tinit ls s -> (forall w, ~ In (Fail w) ls) ->
  (length ls <= 28)%nat /\
  (stuck c nn s -> exists o, main s = MDone o) /\
  (forall o, main s = MDone o ->
     (o = UseL /\ tset (wl s) = true /\ val (wl s) = true) \/
     (o = UseR /\ tset (wr s) = true /\ val (wr s) = true /\ tset (wl s) = false /\ intr (wl s) = true)) /\
  (intr (wl s) = true -> val (wr s) = true /\ intr (wr s) = false) /\
  (intr (wr s) = true -> val (wl s) = true /\ intr (wl s) = false).
Proof.
  intros Hc H Hf. assert (X := exc_run c nn ls s H).
  assert (X1 : exc (wl s) = false) by (destruct (exc (wl s)) eqn:Q; auto; exfalso; apply (Hf WL); apply X; auto).
  assert (X2 : exc (wr s) = false) by (destruct (exc (wr s)) eqn:Q; auto; exfalso; apply (Hf WR); apply X; auto).
  assert (T := tinv_run c nn ls s H). assert (RL := run_length c nn ls s H).
  split; [lia|]. split.
  - intro S. destruct (stuck_states c nn s T S) as [D|(_ & A & _)]; [exact D|congruence].
  - split.
    + intros o Ho. assert (D := done_result c nn ls s o Hc H Ho). destruct o; try (exfalso; intuition congruence); intuition.
    + destruct T as [_ _ _ I4]. unfold mok, early, late in I4. destruct (main s); intuition congruence.
Qed.

Theorem C32_worker_race : forall c nn ls s, (forall w, (1 <= c w)%nat) ->
  run c nn tinit ls s -> (forall w, ~ In (Fail w) ls) ->
  (length ls <= 28)%nat /\
  (stuck c nn s -> exists o, main s = MDone o) /\
  (forall o, main s = MDone o ->
     (o = UseL /\ tset (wl s) = true /\ val (wl s) = true) \/
     (o = UseR /\ tset (wr s) = true /\ val (wr s) = true /\ tset (wl s) = false /\ intr (wl s) = true)) /\
  (intr (wl s) = true -> val (wr s) = true /\ intr (wr s) = false) /\
  (intr (wr s) = true -> val (wl s) = true /\ intr (wl s) = false).
Proof. exact race_ok. Qed.
Print Assumptions C32_worker_race.

(** Runs can be executed: [next] takes the [k]-th kind of step of a thread if it is enabled. *)
Inductive act := AMain | ASpur | AWork (w : who) | AStop (w : who) | AFail (w : who).
Definition free (s : tstate) : bool := match lck s with None => true | _ => false end.
Definition next (c : who -> nat) (nn : nat) (s : tstate) (a : act) : option (label * tstate) :=
  match a with
  | AMain =>
      match main s with
      | MSpawnL => Some (Norm, set_main (set_wk s WL (at_pc (wl s) WRun)) MSpawnR)
      | MSpawnR => Some (Norm, set_main (set_wk s WR (at_pc (wr s) WRun)) MLock1)
      | MLock1 => if free s then Some (Norm, set_main (set_lck s (Some OMain)) MChk) else None
      | MChk => Some (Norm, if val (wl s) || val (wr s) then set_main s MUnl1 else set_main s MPre)
      | MPre => Some (Norm, set_main (set_lck s None) MWait)
      | MWait => None
      | MRelock => if free s then Some (Norm, set_main (set_lck s (Some OMain)) MUnl1) else None
      | MUnl1 => Some (Norm, set_main (set_lck s None) MLock2)
      | MLock2 => if free s then Some (Norm, set_main (set_lck s (Some OMain)) MDec) else None
      | MDec => Some (Norm, set_main (interrupt s (decide c nn s)) MUnl2)
      | MUnl2 => Some (Norm, set_main (set_lck s None) MJoinL)
      | MJoinL => match pc (wl s) with WEnd => Some (Norm, set_main s MJoinR) | _ => None end
      | MJoinR => match pc (wr s) with WEnd => Some (Norm, set_main s MErr) | _ => None end
      | MErr => Some (Norm, set_main s (MDone (finish c s)))
      | MDone _ => None
      end
  | ASpur => match main s with MWait => Some (Spurious, set_main s MRelock) | _ => None end
  | AWork w =>
      let x := wk s w in
      match pc x with
      | WRun => Some (Norm, set_wk s w (at_pc x WLock))
      | WLock => if free s then Some (Norm, set_lck (set_wk s w (at_pc x WVal)) (Some (OW w))) else None
      | WVal => Some (Norm, set_wk s w (mkW WSet true (tset x) (exc x) (intr x)))
      | WSet => Some (Norm, set_wk s w (mkW WNot (val x) true (exc x) (intr x)))
      | WNot => Some (Norm, notify (set_wk s w (at_pc x WUnl)))
      | WUnl => Some (Norm, set_lck (set_wk s w (at_pc x WEnd)) None)
      | _ => None
      end
  | AStop w =>
      let x := wk s w in
      match pc x, intr x with
      | WRun, true => Some (Stopped w, set_wk s w (at_pc x WEnd))
      | _, _ => None
      end
  | AFail w =>
      let x := wk s w in
      match pc x with
      | WRun => Some (Fail w, set_wk s w (mkW WEnd (val x) (tset x) true (intr x)))
      | WVal | WSet => Some (Fail w, set_lck (set_wk s w (mkW WEnd (val x) (tset x) true (intr x))) None)
      | _ => None
      end
  end.
Lemma next_step c nn s a l s' : next c nn s a = Some (l, s') -> step c nn s l s'.
Proof.
  assert (Fr : forall z, free z = true -> lck z = None) by (intro z; unfold free; destruct (lck z); auto; discriminate).
  destruct a as [| |w|w|w]; cbn [next]; cbv zeta; intro H.
  - destruct (main s) eqn:Em; try discriminate H.
    + injection H as <- <-. constructor; auto.
    + injection H as <- <-. constructor; auto.
    + destruct (free s) eqn:Ef; [apply Fr in Ef|discriminate H]. injection H as <- <-. constructor; auto.
    + injection H as <- <-. destruct (val (wl s)) eqn:V1; [apply s_chk_go; auto|].
      destruct (val (wr s)) eqn:V2; [apply s_chk_go; auto|apply s_chk_wait; auto].
    + injection H as <- <-. constructor; auto.
    + destruct (free s) eqn:Ef; [apply Fr in Ef|discriminate H]. injection H as <- <-. constructor; auto.
    + injection H as <- <-. constructor; auto.
    + destruct (free s) eqn:Ef; [apply Fr in Ef|discriminate H]. injection H as <- <-. constructor; auto.
    + injection H as <- <-. constructor; auto.
    + injection H as <- <-. constructor; auto.
    + destruct (pc (wl s)) eqn:Ep; try discriminate H. injection H as <- <-. constructor; auto.
    + destruct (pc (wr s)) eqn:Ep; try discriminate H. injection H as <- <-. constructor; auto.
    + injection H as <- <-. constructor; auto.
  - destruct (main s) eqn:Em; try discriminate H. injection H as <- <-. constructor; auto.
  - destruct (pc (wk s w)) eqn:Ep; try discriminate H;
      try (destruct (free s) eqn:Ef; [apply Fr in Ef|discriminate H]); injection H as <- <-; constructor; auto.
  - destruct (pc (wk s w)) eqn:Ep; try discriminate H. destruct (intr (wk s w)) eqn:Ei; try discriminate H.
    injection H as <- <-. constructor; auto.
  - destruct (pc (wk s w)) eqn:Ep; try discriminate H; injection H as <- <-;
      [apply s_fail_run|apply s_fail_lock|apply s_fail_lock]; auto.
Qed.

Fixpoint exec (c : who -> nat) (nn : nat) (s : tstate) (acts : list act) : option (list label * tstate) :=
  match acts with
  | [] => Some ([], s)
  | a :: r => match next c nn s a with
              | Some (l, s1) => match exec c nn s1 r with Some (ls, s2) => Some (l :: ls, s2) | None => None end
              | None => None
              end
  end.
Lemma run_cons c nn s l s1 ls s2 : step c nn s l s1 -> run c nn s1 ls s2 -> run c nn s (l :: ls) s2.
Proof.
  intros H R. revert H. induction R as [s1|s1 ls s3 l' s4 R IH Hs]; intro H.
  - apply (run_snoc c nn s [] s l s1); [constructor|auto].
  - apply (run_snoc c nn s (l :: ls) s3 l' s4); auto.
Qed.
Lemma exec_run c nn acts : forall s ls s', exec c nn s acts = Some (ls, s') -> run c nn s ls s'.
Proof.
  induction acts as [|a r IH]; intros s ls s' H; cbn [exec] in H.
  - injection H as <- <-. constructor.
  - destruct (next c nn s a) as [[l s1]|] eqn:En; [|discriminate H].
    destruct (exec c nn s1 r) as [[ls' s2]|] eqn:Ee; [|discriminate H]. injection H as <- <-.
    eapply run_cons; [eapply next_step; eauto|auto].
Qed.

(** The right worker delivers a small set first, the left one is interrupted and stops. *)
Definition race_right : list act :=
  [AMain; AMain; AMain; AMain; AMain] ++ repeat (AWork WR) 6 ++ repeat AMain 5 ++ [AStop WL; AMain; AMain; AMain].
(** A spurious wake-up: nobody is interrupted and both deliver; the left result is used. *)
Definition race_spurious : list act :=
  [AMain; AMain; AMain; AMain; AMain; ASpur; AMain; AMain; AMain; AMain; AMain] ++
  repeat (AWork WR) 6 ++ repeat (AWork WL) 6 ++ [AMain; AMain; AMain].
(** The left worker delivers a large set first, but the right one ignores the interrupt. *)
Definition race_left : list act :=
  [AMain; AMain] ++ repeat (AWork WL) 6 ++ [AMain; AMain; AMain; AMain; AMain; AMain] ++ repeat (AWork WR) 6 ++ repeat AMain 3.
Example C32_nonvacuous :
  (exists ls s, run (fun _ => 3%nat) 8 tinit ls s /\ (forall w, ~ In (Fail w) ls) /\ main s = MDone UseR) /\
  (exists ls s, run (fun _ => 3%nat) 8 tinit ls s /\ (forall w, ~ In (Fail w) ls) /\ main s = MDone UseL /\ In Spurious ls) /\
  (exists ls s, run (fun _ => 7%nat) 8 tinit ls s /\ (forall w, ~ In (Fail w) ls) /\ main s = MDone UseL /\ intr (wr s) = true).
Proof.
  split; [|split].
  - destruct (exec (fun _ => 3%nat) 8 tinit race_right) as [[ls s]|] eqn:E; [|vm_compute in E; discriminate E].
    exists ls, s. split; [apply (exec_run _ _ _ _ _ _ E)|]. vm_compute in E. injection E as <- <-.
    split; [intros [|] H; simpl in H; intuition discriminate|reflexivity].
  - destruct (exec (fun _ => 3%nat) 8 tinit race_spurious) as [[ls s]|] eqn:E; [|vm_compute in E; discriminate E].
    exists ls, s. split; [apply (exec_run _ _ _ _ _ _ E)|]. vm_compute in E. injection E as <- <-.
    split; [intros [|] H; simpl in H; intuition discriminate|]. split; [reflexivity|simpl; tauto].
  - destruct (exec (fun _ => 7%nat) 8 tinit race_left) as [[ls s]|] eqn:E; [|vm_compute in E; discriminate E].
    exists ls, s. split; [apply (exec_run _ _ _ _ _ _ E)|]. vm_compute in E. injection E as <- <-.
    split; [intros [|] H; simpl in H; intuition discriminate|]. split; reflexivity.
Qed.

(** ** C33: failures *)

(** When slice gets to its end, a failure is rethrown, the left one first. *)
Lemma fail_rethrown c nn ls s o w : (forall w, (1 <= c w)%nat) -> run c nn tinit ls s -> main s = MDone o ->
  In (Fail w) ls -> (o = RethrowL /\ In (Fail WL) ls) \/ (o = RethrowR /\ In (Fail WR) ls /\ ~ In (Fail WL) ls).
Proof.
  intros Hc H Ho Hw. assert (X := exc_run c nn ls s H). assert (D := done_result c nn ls s o Hc H Ho).
  apply X in Hw.
  destruct o.
  - left. split; auto. apply (X WL). auto.
  - right. split; auto. destruct D as [D1 D2]. split; [apply (X WR); auto|]. intro C. apply (X WL) in C. cbn [wk] in C. congruence.
  - exfalso. destruct w; cbn [wk] in Hw; intuition congruence.
  - exfalso. destruct w; cbn [wk] in Hw; intuition congruence.
Qed.

Theorem C33_failure_is_rethrown : forall c nn ls s o w, (forall w, (1 <= c w)%nat) ->
  run c nn tinit ls s -> main s = MDone o -> In (Fail w) ls ->
  (o = RethrowL /\ In (Fail WL) ls) \/ (o = RethrowR /\ In (Fail WR) ls /\ ~ In (Fail WL) ls).
Proof. exact fail_rethrown. Qed.
Print Assumptions C33_failure_is_rethrown.

(** One failing worker never blocks slice. *)
Lemma one_failure c nn ls s w : run c nn tinit ls s -> stuck c nn s -> ~ In (Fail w) ls ->
  exists o, main s = MDone o.
Proof.
  intros H S Nf. destruct (stuck_states c nn s (tinv_run c nn ls s H) S) as [D|(_ & A & B)]; auto.
  exfalso. apply Nf. apply (exc_run c nn ls s H). destruct w; auto.
Qed.

Theorem C33_one_failure_never_blocks : forall c nn ls s w,
  run c nn tinit ls s -> stuck c nn s -> ~ In (Fail w) ls -> exists o, main s = MDone o.
Proof. exact one_failure. Qed.
Print Assumptions C33_one_failure_never_blocks.

(** Two failing workers: without a spurious wake-up slice does not get past the wait. *)
Lemma past_wait c nn ls s : run c nn tinit ls s -> ~ In Spurious ls ->
  match main s with
  | MSpawnL | MSpawnR | MLock1 | MChk | MPre | MWait => True
  | _ => val (wl s) = true \/ val (wr s) = true
  end.
Proof.
  intro H. remember tinit as s0 eqn:E. induction H as [s|s ls s1 l s2 H IH Hs]; subst; intro Ns.
  - exact I.
  - assert (N1 : ~ In Spurious ls) by (intro C; apply Ns; apply in_or_app; auto).
    assert (N2 : l <> Spurious) by (intros ->; apply Ns; apply in_or_app; right; left; auto).
    specialize (IH eq_refl N1). assert (T := tinv_run c nn ls s1 H).
    assert (M : forall o, val (wl (interrupt s1 o)) = val (wl s1) /\ val (wr (interrupt s1 o)) = val (wr s1))
      by (intros [[|]|]; split; reflexivity).
    destruct Hs; try (rewrite H0 in IH); cbn [main set_main]; try exact I; try congruence; try exact IH;
      try (cbn [set_main wl wr]; assumption).
    + destruct (M (decide c nn s)) as [M1 M2]. cbn [set_main main wl wr]. rewrite M1, M2. exact IH.
    + destruct w; cbn [set_wk main wl wr at_pc val wk] in *; destruct (main s); auto.
    + destruct w; cbn [set_wk set_lck main wl wr at_pc val wk] in *; destruct (main s); auto.
    + destruct w; cbn [set_wk set_lck main wl wr at_pc val wk] in *; destruct (main s); auto.
    + destruct w; cbn [set_wk set_lck main wl wr at_pc val wk] in *; destruct (main s); auto.
    + assert (V : val (wk s w) = true).
      { destruct T as [I1 I2 _ _]. unfold wok in I1, I2. destruct w; cbn [wk] in *; rewrite H0 in *; tauto. }
      unfold notify. destruct w; cbn [set_wk set_lck set_main main wl wr at_pc val wk] in *; destruct (main s);
        cbn [set_wk set_lck set_main main wl wr at_pc val wk] in *; auto.
    + destruct w; cbn [set_wk set_lck main wl wr at_pc val wk] in *; destruct (main s); auto.
    + destruct w; cbn [set_wk set_lck main wl wr at_pc val wk] in *; destruct (main s); auto.
    + destruct w; cbn [set_wk set_lck main wl wr at_pc val wk] in *; destruct (main s); auto.
    + destruct w; cbn [set_wk set_lck main wl wr at_pc val wk] in *; destruct (main s); auto.
Qed.

Lemma two_fail c nn ls s : run c nn tinit ls s -> ~ In Spurious ls -> val (wl s) = false -> val (wr s) = false ->
  ~ exists o, main s = MDone o.
Proof.
  intros H Ns V1 V2 (o & C). assert (P := past_wait c nn ls s H Ns). rewrite C in P. destruct P; congruence.
Qed.

Theorem C33_two_failures_never_return : forall c nn ls s,
  run c nn tinit ls s -> ~ In Spurious ls -> val (wl s) = false -> val (wr s) = false ->
  ~ exists o, main s = MDone o.
Proof. exact two_fail. Qed.
Print Assumptions C33_two_failures_never_return.

Definition both_fail : list act := [AMain; AMain; AFail WL; AMain; AMain; AMain; AFail WR].
Theorem C33_failures_rethrown_refuted :
  ~ (forall c nn ls s w, (forall w, (1 <= c w)%nat) -> run c nn tinit ls s -> stuck c nn s -> In (Fail w) ls ->
       exists o, main s = MDone o /\ (o = RethrowL \/ o = RethrowR)).
Proof.
  intro H. destruct (exec (fun _ => 1%nat) 2 tinit both_fail) as [[ls s]|] eqn:E; [|vm_compute in E; discriminate E].
  assert (R := exec_run _ _ _ _ _ _ E). vm_compute in E. injection E as <- <-.
  destruct (H _ _ _ _ WL (fun _ => le_n 1) R) as (o & C & _).
  - intros l s' S. inversion S; subst; auto; try discriminate; destruct w; try discriminate;
      cbn in *; try discriminate; intuition discriminate.
  - simpl. tauto.
  - discriminate C.
Qed.
Print Assumptions C33_failures_rethrown_refuted.

(** One failing worker; the other delivers and the exception is rethrown. *)
Example C33_nonvacuous :
  exists ls s, run (fun _ => 3%nat) 8 tinit ls s /\ In (Fail WR) ls /\ main s = MDone RethrowR.
Proof.
  destruct (exec (fun _ => 3%nat) 8 tinit ([AMain; AMain; AMain; AMain; AMain; AFail WR] ++ repeat (AWork WL) 6 ++ repeat AMain 8))
    as [[ls s]|] eqn:E; [|vm_compute in E; discriminate E].
  exists ls, s. split; [apply (exec_run _ _ _ _ _ _ E)|]. vm_compute in E. injection E as <- <-.
  split; [simpl; tauto|reflexivity].
Qed.
