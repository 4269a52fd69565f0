(** * HPSPTop: a whole run of HPSP. *)
From Coq Require Import Sorted.
From Verif Require Import Base Spec MSets SetsThy PartThy SubThy MaxFlow CutThy MDil DilThy
  SeqThy MDT DTThy MContract ContractThy MPSPI MHPSP TreeThy DecThy PSPIThy PSPILoop HPSPThy HPSPLoop.

(** An inner node and its children show up next to each other in the sequence. *)
Lemma steps_node rel : forall F lams Ps, steps rel F lams Ps -> forall P w t,
  Permutation P (map hset F) -> In w F -> sbt t w -> hkids t <> [] ->
  exists i l Q Q', nth_error lams i = Some l /\ hlab t == l /\
    nth_error (P :: Ps) i = Some Q /\ nth_error (P :: Ps) (S i) = Some Q' /\
    In (hset t) Q /\ forall u, In u (hkids t) -> In (hset u) Q'.
Proof.
  induction 1 as [F HF|F G F' g F2 P2 lams Ps HF HG0 HG HF' HF2 HP2 HR Hst IH];
    intros P w t HP Hw S Hk.
  - exfalso. specialize (HF w Hw). inversion S; subst; [congruence|]. rewrite HF in *. contradiction.
  - assert (Next : forall w', In w' F2 -> sbt t w' -> exists i l Q Q', nth_error (g :: lams) i = Some l /\
      hlab t == l /\ nth_error (P :: P2 :: Ps) i = Some Q /\ nth_error (P :: P2 :: Ps) (Datatypes.S i) = Some Q' /\
      In (hset t) Q /\ forall u, In u (hkids t) -> In (hset u) Q').
    { intros w' Hw' S'. destruct (IH P2 w' t HP2 Hw' S' Hk) as (i & l & Q & Q' & A1 & A2 & A3 & A4 & A5).
      exists (Datatypes.S i), l, Q, Q'. auto. }
    apply (Permutation_in w HF) in Hw. apply in_app_or in Hw. destruct Hw as [Hw|Hw].
    + destruct (HG w Hw) as [K1 K2]. inversion S as [t'|t' u t'' S1 S2]; subst.
      * exists 0%nat, g, P, P2. split; auto. split; auto. split; auto. split; auto. split.
        -- eapply Permutation_in; [symmetry; exact HP|]. apply in_map.
           eapply Permutation_in; [symmetry; exact HF|]. apply in_or_app; auto.
        -- intros u Hu. eapply Permutation_in; [symmetry; exact HP2|]. apply in_map.
           eapply Permutation_in; [symmetry; exact HF2|]. apply in_or_app. left.
           apply in_concat. exists (hkids w). split; auto. apply in_map; auto.
      * apply (Next u); auto. eapply Permutation_in; [symmetry; exact HF2|]. apply in_or_app. left.
        apply in_concat. exists (hkids w). split; auto. apply in_map; auto.
    + apply (Next w); auto. eapply Permutation_in; [symmetry; exact HF2|]. apply in_or_app; auto.
Qed.

(** [r] is the smallest element of the block of [j] in [P]. *)
Definition block_min (P : list (list nat)) (j r : nat) : Prop :=
  exists B, In B P /\ In j B /\ In r B /\ forall x, In x B -> (r <= x)%nat.

(** What W and K say about the sequence. *)
Definition tree_read (n : nat) (lams : list Q) (Ps : list (list (list nat)))
           (W : nat -> dbl) (K : nat -> nat) : Prop :=
  forall j, (j < n)%nat -> exists i l w P P', nth_error lams i = Some l /\
    W j = Fin w /\ w == l /\ nth_error Ps i = Some P /\ nth_error Ps (S i) = Some P' /\
    block_min P j (K j) /\ block_min P' j j /\ (j <> 0%nat -> (K j < j)%nat).

Lemma leaves_all b : forall t, (forall x, b x = false) -> forall u, In u (cutf b t) -> hkids u = [].
Proof. intros t Hb u Hu. destruct (cutf_top b t u Hu) as [H|H]; auto. rewrite Hb in H. discriminate. Qed.

(** psp_construct() on vectors [W], [K] that store a tree. *)
Theorem read_run n T W K : (2 <= n)%nat -> hsh true T -> hset T = seq 0 n -> hkids T <> [] ->
  (forall t, sbt t T -> hkids t <> [] -> -1 < hlab t) -> enc W K T ->
  W 0%nat = Fin (hlab T) -> K 0%nat = 0%nat ->
  exists lams ps Ps, hpsp_loop (S n) n W K (seq 0 n) [] [] [] = Ok (map Fin lams, ps) /\
    ps ++ [pfine n] = [seq 0 n] :: Ps /\ steps Qlt [T] lams Ps /\ tree_read n lams ([seq 0 n] :: Ps) W K.
Proof.
  intros Hn Hsh HTs Hk Hlab Henc HW0 HK0.
  assert (Hr0 : hrep T = 0%nat) by (unfold hrep; rewrite HTs; destruct n as [|k]; [lia|reflexivity]).
  set (b := fun _ : Q => false).
  assert (Lv : forall u, In u (cutf b T) -> hkids u = []) by (apply leaves_all; auto).
  assert (Hlo : forall u, In u (cutf b T) -> exists v, hset u = [v]).
  { intros u Hu. assert (Ou := sbt_hsh _ _ _ (cutf_sbt b T u Hu) Hsh). specialize (Lv u Hu).
    inversion Ou; subst; simpl in *; eauto. subst. simpl in *. lia. }
  assert (PL : is_partition (seq 0 n) (map hset (cutf b T))) by (rewrite <- HTs; apply (cutf_part true b T Hsh)).
  assert (HW0' : W (hrep T) = Fin (hlab T)) by (rewrite Hr0; auto).
  assert (HK0' : K (hrep T) = hrep T) by (rewrite Hr0; auto).
  destruct (loop_ok n T Hsh HTs Hk Hlab W K Henc HW0' HK0'
              (S n) b [] (seq 0 n) [] [] (pfine n) []) as (lams & ps & P & Ps & L1 & L2 & L3 & L4).
    { discriminate. }
    { symmetry. apply filter_id. intros j Hj. unfold bW.
      destruct (W_fin n T Hsh HTs Hk Hlab W K Henc HW0' HK0' j Hj) as (t & _ & -> & _).
      reflexivity. }
    { rewrite seq_length. lia. }
    { constructor.
      - constructor.
      - intros k C. simpl in C. congruence.
      - intros B x HB. apply in_map_iff in HB. destruct HB as (u & <- & Hu).
        destruct (Hlo u Hu) as (v & ->). simpl. tauto. }
    { reflexivity. }
    { symmetry. apply NoDup_Permutation_bis.
      - eapply parts_distinct; [apply seq_NoDup|exact PL].
      - unfold pfine. rewrite map_length, seq_length.
        assert (Q := proj1 PL). apply Permutation_length in Q. rewrite seq_length in Q.
        rewrite <- Q. clear -Hlo. induction (cutf b T) as [|u l IH]; simpl; auto.
        rewrite app_length. destruct (Hlo u (or_introl eq_refl)) as (v & ->). simpl.
        apply le_n_S. apply IH. intros w Hw'. apply Hlo. right; auto.
      - intros B HB. apply in_map_iff in HB. destruct HB as (u & <- & Hu).
        destruct (Hlo u Hu) as (v & Ev). rewrite Ev. unfold pfine. apply in_map_iff. exists v. split; auto.
        apply (part_incl (seq 0 n) _ (hset u) PL); [apply in_map; auto|].
        rewrite Ev. left; auto. }
    { apply steps_done. auto. }
  assert (EP : P = [seq 0 n]).
  { apply Permutation_length_1_inv. symmetry. rewrite <- HTs. exact L3. }
  subst P. exists lams, ps, Ps. split; [exact L1|]. split; [exact L2|]. split; [exact L4|].
    intros j Hj.
      destruct (own_ex n T Hsh HTs Hk W K Henc HW0' HK0' j ltac:(apply in_seq; lia))
        as (t & S & (u & U1 & U2) & O3 & O4).
      assert (Ht := sbt_hsh _ _ _ S Hsh).
      assert (Htk : hkids t <> []) by (intro C; rewrite C in U1; destruct U1).
      destruct (steps_node Qlt [T] lams Ps L4 [seq 0 n] T t L3 (or_introl eq_refl) S Htk)
        as (i & l & Q & Q' & A1 & A2 & A3 & A4 & A5 & A6).
      destruct (kid_facts _ _ _ Ht U1) as (Ou & _ & Iu & _).
      assert (Ju : In j (hset u)) by (rewrite <- U2; eapply rep_in; eauto).
      exists i, l, (hlab t), Q, Q'. split; auto. split; auto. split; auto. split; auto. split; auto.
      split; [|split].
      + exists (hset t). split; auto. split; [apply Iu; auto|]. rewrite O4. split.
        * eapply rep_in; eauto.
        * intros x Hx. apply hd_sorted_min; auto. eapply hsh_sorted; eauto.
      + exists (hset u). split; auto. split; auto. split; auto. intros x Hx. rewrite <- U2.
        apply hd_sorted_min; auto. eapply hsh_sorted; eauto.
      + intro Nz. rewrite O4.
        assert (L : (hrep t <= j)%nat) by (apply hd_sorted_min; [eapply hsh_sorted; eauto|apply Iu; auto]).
        destruct (Nat.eq_dec (hrep t) j) as [Q0|Q0]; [|lia]. exfalso.
        (* j = hrep t: only the root stores its own representative *)
        assert (KJ : K j = j) by congruence.
        assert (HJ : In j (seq 0 n)) by (apply in_seq; lia).
        assert (G : forall t', sbt t' T -> In j (hset t') -> j <> hrep t' ->
          exists t2 u2, sbt t2 T /\ In u2 (hkids t2) /\ hrep u2 = j /\ hrep u2 <> hrep t2).
        { clear -Hsh. induction t' as [X g' ts' IH] using ht_ind'. intros S Hj N.
          assert (Ht := sbt_hsh _ _ _ S Hsh). rewrite Forall_forall in IH.
          assert (Hk : hkids (HT X g' ts') <> []).
          { intro C. simpl in C. subst ts'. inversion Ht; subst; simpl in *; [|lia].
            apply N. destruct Hj as [<-|[]]. reflexivity. }
          destruct (kid_of _ j Ht Hk Hj) as (u & U1 & U2). simpl in U1.
          destruct (Nat.eq_dec j (hrep u)) as [Q|Q].
          - exists (HT X g' ts'), u. split; auto. split; auto. split; auto. congruence.
          - apply (IH u U1); auto. clear -S U1.
            assert (Q : In u (hkids (HT X g' ts'))) by auto. clear U1.
            induction S as [t|w v t H1 H2 IH]; [eapply sbt_step; [eauto|constructor]|].
            eapply sbt_step; [exact H1|auto]. }
        destruct (G T (sbt_refl T)) as (t2 & u2 & B1 & B2 & B3 & B4).
        { rewrite HTs. auto. }
        { rewrite Hr0. auto. }
        destruct (own_of T W K Henc t2 u2 B1 B2 B4) as (_ & _ & _ & B5). congruence.
Qed.

Section Run.
  Variable mc : solver.
  Hypothesis Hmc : MinCutSpec mc.
  Hypothesis Hms : MinSinkCutSpec mc.
  Variable eps : Q.
  Hypothesis Heps : 0 < eps.
  Variable E : graph.
  Variable n : nat.
  Hypothesis Hn : (2 <= n)%nat.
  Hypothesis HE : graph_on (seq 0 n) E.
  Hypothesis Hs : simple E.
  Hypothesis Hf : forward E.
  Hypothesis Hw : forall a, In a E -> eps <= aw a.
  Variable e : Q.
  Hypothesis He : 0 <= e.
  Hypothesis Hgap : forall X Ps R g,
    incl X (seq 0 n) -> NoDup X -> is_partition X Ps -> is_partition X R -> (2 <= length Ps)%nat ->
    g * (qn (length Ps) - 1) == crossing (sub E X) Ps ->
    - g - eps <= hval (sub E X) g R -> - g - e <= hval (sub E X) g R.

  Theorem hpsp_run_correct : exists lams Ps W K G,
    hpsp_run mc eps E n = Ok (mkHOut (map Fin lams) Ps W K G) /\
    full_sequence Qlt (near_optimal E (seq 0 n) (e * (qn n - 1))) (seq 0 n) lams Ps /\
    slopes E lams Ps /\ length Ps = S (length lams) /\ hd_error Ps = Some [seq 0 n] /\
    tree_read n lams Ps W K.
  Proof.
    assert (HP := start_pre E n Hn HE Hs Hf eps Hw true e).
    set (st0 := mkH (mkG (seq 0 n) E) (fun _ => Fin 0) (fun _ => 0%nat)).
    destruct (hpsp_split_correct (seq 0 n) E HE mc true (fun _ => Hms) eps Heps (trunc_of_exact mc eps (seq 0 n) E Hmc) e Hgap
                (S n) st0 0 (seq 0 n) (fun x => x) (seq 0 n) (start_trees n) (total E + 1))
      as (st & p' & g & ts & R1 & R2 & R3 & R4 & R5).
    { unfold start_trees. rewrite rev_length, map_length, seq_length. lia. }
    { exact HP. }
    { unfold start_trees. rewrite map_rev, <- Permutation_rev, map_map. unfold hrep. simpl.
      rewrite map_id. apply Permutation_refl. }
    { destruct n as [|k]; [lia|reflexivity]. }
    { intros t Ht. apply start_in in Ht. destruct Ht as (v & _ & ->). constructor; intros u []. }
    destruct R2 as (Hok & _). set (T := HT (seq 0 n) g ts) in *.
    assert (Hsh : hsh true T) by (eapply hok_hsh; exact Hok).
    assert (Hk : hkids T <> []).
    { intro C. simpl in C. subst ts. inversion Hok as [v g' Q1|X' g' ts' S0 L2]; subst; [|simpl in L2; lia].
      destruct n as [|[|k]]; [lia|lia|discriminate]. }
    assert (Hr0 : hrep T = 0%nat) by (unfold hrep; simpl; destruct n as [|k]; [lia|reflexivity]).
    assert (HEn : nonneg E) by (intros a Ha; apply (HE a Ha)).
    assert (Root : hW st 0%nat = Fin g /\ hK st 0%nat = 0%nat).
    { destruct (kid_of T 0%nat Hsh Hk) as (u & U1 & U2).
      { simpl. apply in_seq. lia. }
      rewrite <- Hr0 in U2. assert (Hru := kid_rep T u Hsh U1 U2).
      rewrite <- Hr0, <- Hru. destruct (R5 u U1) as [A1 A2]. rewrite A1, A2, Hru, Hr0. auto. }
    destruct Root as [HW0 HK0].
    assert (Hlab : forall t, sbt t T -> hkids t <> [] -> -1 < hlab t).
    { intros t St Kt. apply Qlt_le_trans with 0; [reflexivity|]. apply (lab_nonneg E true e t HEn); auto.
      clear -St Hok. induction St as [t|w u [X' g' ts'] H1 H2 IH]; auto. simpl in H1. apply IH.
      destruct (hok_kids E true e X' g' ts' Hok) as (_ & _ & K & _); auto. intro C. subst. destruct H1. }
    destruct (read_run n T (hW st) (hK st) Hn Hsh eq_refl Hk Hlab R3 HW0 HK0) as (lams & ps & Ps & L1 & L2 & L4 & L5).
    exists lams, ([seq 0 n] :: Ps), (hW st), (hK st), (hG st).
    assert (Hb : (inner T + 1 <= n)%nat).
    { assert (B := inner_bound _ _ _ _ Hok). simpl hset in B. rewrite seq_length in B. auto. }
    split; [|split; [|split; [|split; [|split]]]].
    - unfold hpsp_run. fold st0. unfold cdense. rewrite R1. cbn [bind].
      rewrite L1. cbn [bind fst snd]. rewrite L2. reflexivity.
    - assert (TS := tree_sequence (seq 0 n) E true e Qlt T lams Ps (seq_NoDup n 0)
                 ltac:(destruct n; [lia|discriminate]) HE He
                 ltac:(intros; lra) ltac:(intros; lra) Hok eq_refl L4).
      eapply full_sequence_mono; [| |exact TS]; auto.
      intros lam P [A1 A2]. split; auto. intros R HR. specialize (A2 R HR).
      assert (K : e * qn (inner T) <= e * (qn n - 1)).
      { assert (Z : qn (inner T) + 1 <= qn n) by (rewrite <- qn_S; apply qn_le; lia).
        assert (0 <= e * (qn n - 1 - qn (inner T))) by (apply Qmult_le_0_compat; lra).
        assert (e * (qn n - 1 - qn (inner T)) == e * (qn n - 1) - e * qn (inner T)) by ring. lra. }
      lra.
    - apply (steps_slopes (seq 0 n) E true e Qlt (seq_NoDup n 0) [T] lams Ps L4 [seq 0 n]).
      + simpl. apply one_block_part. destruct n; [lia|discriminate].
      + apply Permutation_refl.
      + intros u [<-|[]]. auto.
    - simpl. f_equal. eapply steps_count; eauto.
    - reflexivity.
    - exact L5.
  Qed.
End Run.
