(** * GreedyThy: IC::edmonds_greedy, and an exact solver for the point of minimum norm. *)
From Coq Require Import Sorted.
From Verif Require Import Base Graph Spec PartThy SubThy MHC MAIC SFSpec MNBThy AICStep AggThy.

Lemma F_ext' n F : ground n F -> forall A B : nset, (forall x, A x = B x) -> F A == F B.
Proof. intros HG A B H. apply HG. auto. Qed.

Lemma mem_snoc B i x : mem (B ++ [i]) x = mem B x || (x =? i)%nat.
Proof.
  apply Bool.eq_true_iff_eq. rewrite orb_true_iff, !mem_In, in_app_iff, Nat.eqb_eq. simpl. split; intuition.
Qed.

(** The increments along [o]. *)
Definition incr (F : nset -> Q) (x : nat -> Q) (B o : list nat) : Prop :=
  forall p i s, o = p ++ i :: s -> x i == F (mem (B ++ p ++ [i])) - F (mem (B ++ p)).

Lemma greedy_loop_ok n f F : ground n F -> computes (mkSF n f) F -> forall o B v x,
  NoDup (B ++ o) -> (forall b, In b (B ++ o) -> (b < n)%nat) -> v == F (mem B) ->
  exists y, greedy_loop f B v o x = Ok y /\ (forall j, ~ In j o -> y j = x j) /\ incr F y B o.
Proof.
  intros HG HF. induction o as [|i o IH]; intros B v x ND HB Hv; simpl.
  - exists x. split; auto. split; auto. intros p j s E. destruct p; discriminate.
  - destruct (HF (B ++ [i])) as (v' & V1 & V2).
    + apply NoDup_app_inv in ND. destruct ND as (N1 & N2 & N3). inversion N2; subst.
      apply NoDup_app_intro; auto; [constructor; auto; constructor|]. intros y Hy [->|[]]. apply (N3 y Hy). left; auto.
    + intros b Hb. apply HB. apply in_app_iff in Hb. apply in_app_iff. destruct Hb as [|[->|[]]]; [auto|right; left; auto].
    + simpl in V1. rewrite V1. cbn [bind].
      destruct (IH (B ++ [i]) v' (upd x i (- v + v'))) as (y & Y1 & Y2 & Y3); auto.
      * rewrite <- app_assoc. exact ND.
      * rewrite <- app_assoc. exact HB.
      * assert (Ni : ~ In i o). { apply NoDup_remove_2 in ND. intro K. apply ND. apply in_app_iff; auto. }
        exists y. split; auto. split.
        -- intros j Hj. rewrite Y2 by tauto. unfold upd. destruct (Nat.eqb_spec j i); [subst; exfalso; apply Hj; auto|].
           destruct (Nat.eqb_spec i j); [congruence|]. auto.
        -- intros p j s E. destruct p as [|k p]; simpl in E; injection E as E1 E2.
           ++ subst j. rewrite Y2 by auto. unfold upd. rewrite Nat.eqb_refl. simpl. rewrite app_nil_r. rewrite V2, Hv. lra.
           ++ subst k. assert (K := Y3 p j s E2). rewrite <- !app_assoc in K. exact K.
Qed.

Lemma vsum_perm n x S o : Permutation o (seq 0 n) -> vsum n x S == qsum (fun i => if S i then x i else 0) o.
Proof. intro H. unfold vsum. symmetry. apply qsum_perm. auto. Qed.

Lemma incr_prefix n F x o : ground n F -> incr F x [] o -> forall p s, o = p ++ s ->
  qsum x p == F (mem p) - F none.
Proof.
  intros HG H. induction p as [|i p IH] using rev_ind; intros s E.
  - simpl. rewrite (F_ext' n F HG (mem []) none) by auto. lra.
  - rewrite <- app_assoc in E. rewrite qsum_app, (IH ([i] ++ s) E). simpl.
    assert (K := H p i s E). simpl in K. rewrite K. lra.
Qed.

Lemma incr_base n F x o : ground n F -> submodular F -> NoDup o -> incr F x [] o -> forall (S : nset) p s, o = p ++ s ->
  qsum (fun i => if S i then x i else 0) p <= F (iinter S (mem p)) - F none.
Proof.
  intros HG HS ND H S. induction p as [|i p IH] using rev_ind; intros s E.
  - simpl. rewrite (F_ext' n F HG (iinter S (mem [])) none); [lra|]. intro x'. unfold iinter. apply andb_false_r.
  - rewrite <- app_assoc in E. assert (K := IH _ E). assert (I := H p i s E). simpl in I.
    rewrite qsum_app. cbn [qsum]. destruct (S i) eqn:Si.
    + assert (SM := HS (iinter S (mem (p ++ [i]))) (mem p)).
      assert (Ni : ~ In i p).
      { subst o. apply NoDup_app_inv in ND. destruct ND as (_ & _ & N3). intro J. apply (N3 i J). left; auto. }
      rewrite (F_ext' n F HG (iunion (iinter S (mem (p ++ [i]))) (mem p)) (mem (p ++ [i]))) in SM.
      * rewrite (F_ext' n F HG (iinter (iinter S (mem (p ++ [i]))) (mem p)) (iinter S (mem p))) in SM; [lra|].
        intro x'. unfold iinter. rewrite mem_snoc. destruct (S x'), (mem p x'), (x' =? i)%nat; auto.
      * intro x'. unfold iunion, iinter. rewrite mem_snoc. destruct (Nat.eqb_spec x' i) as [->|]; [rewrite Si|].
        -- destruct (mem p i); auto.
        -- destruct (S x'), (mem p x'); auto.
    + rewrite (F_ext' n F HG (iinter S (mem (p ++ [i]))) (iinter S (mem p))); [lra|].
      intro x'. unfold iinter. rewrite mem_snoc. destruct (Nat.eqb_spec x' i) as [->|]; [rewrite Si; auto|].
      rewrite orb_false_r; auto.
Qed.

(** Abel summation: against increasing weights it is best to be late. *)
Lemma abel {A} (w d : A -> Q) l : StronglySorted (fun i j => w i <= w j) l ->
  (forall p s, l = p ++ s -> qsum d p <= 0) ->
  forall c, (forall i, In i l -> w i <= c) -> c * qsum d l <= qsum (fun i => w i * d i) l.
Proof.
  induction l as [|i l IH] using rev_ind; intros HS HP c Hc; [simpl; lra|].
  assert (L := HP (l ++ [i]) [] (eq_sym (app_nil_r _))).
  assert (K : w i * qsum d l <= qsum (fun k => w k * d k) l).
  { apply IH.
    - clear -HS. induction l as [|a l IH]; [constructor|]. inversion HS; subst. constructor; auto.
      rewrite Forall_forall in *. intros b Hb. apply H2. apply in_app_iff; auto.
    - intros p s E. apply (HP p (s ++ [i])). rewrite E, app_assoc. auto.
    - clear -HS. intros a Ha. induction l as [|b l IH]; [destruct Ha|]. inversion HS; subst. destruct Ha as [->|Ha]; auto.
      rewrite Forall_forall in H2. apply H2. apply in_app_iff. right; left; auto. }
  rewrite !qsum_app in *. cbn [qsum] in *.
  assert (Wc : w i <= c) by (apply Hc; apply in_app_iff; right; left; auto).
  assert (0 <= (c - w i) * - (qsum d l + (d i + 0))) by (apply Qmult_le_0_compat; lra).
  assert ((c - w i) * - (qsum d l + (d i + 0)) == w i * qsum d l + w i * d i - c * (qsum d l + (d i + 0))) by ring.
  lra.
Qed.

Lemma max_bound {A} (w : A -> Q) l : exists c, forall i, In i l -> w i <= c.
Proof.
  induction l as [|i l (c & Hc)]; [exists 0; intros i []|]. destruct (Qlt_le_dec c (w i)).
  - exists (w i). intros j [->|Hj]; [lra|]. apply Hc in Hj. lra.
  - exists c. intros j [->|Hj]; auto.
Qed.

(** A base all of whose prefixes along an increasing order of [w] are tight minimises w.x. *)
Lemma tight_prefixes_opt n F (x w y : nat -> Q) o : ground n F -> Permutation o (seq 0 n) ->
  StronglySorted (fun i j => w i <= w j) o ->
  (forall p s, o = p ++ s -> F (mem p) - F none <= qsum x p) ->
  vsum n x every == F every - F none -> in_base n F y -> dot n w x <= dot n w y.
Proof.
  intros HG HP HS HT HV [Y1 Y2]. unfold dot.
  rewrite <- (qsum_perm (fun i => w i * x i) _ _ HP), <- (qsum_perm (fun i => w i * y i) _ _ HP).
  assert (ND : NoDup o) by (eapply Permutation_NoDup; [symmetry; exact HP|apply seq_NoDup]).
  destruct (max_bound w o) as (c & Hc).
  assert (A := abel w (fun i => y i - x i) o HS).
  assert (TOT : qsum (fun i => y i - x i) o == 0).
  { rewrite qsum_minus. rewrite (vsum_perm n x every o HP) in HV. rewrite (vsum_perm n y every o HP) in Y2.
    unfold every in HV at 1. unfold every in Y2 at 1. simpl in HV, Y2. rewrite HV, Y2. lra. }
  assert (K : c * qsum (fun i => y i - x i) o <= qsum (fun i => w i * (y i - x i)) o).
  { apply A; auto. intros p s E. rewrite qsum_minus. assert (T := HT p s E). assert (Y := Y1 (mem p)).
    rewrite (vsum_perm n y (mem p) o HP) in Y. rewrite E, qsum_app in Y.
    subst o. apply NoDup_app_inv in ND. destruct ND as (_ & _ & N3).
    rewrite (qsum_ext _ y p) in Y by (intros i Hi; apply mem_In in Hi; rewrite Hi; reflexivity).
    rewrite (qsum_zero _ s) in Y; [lra|]. intros i Hi. destruct (mem p i) eqn:M; [|reflexivity].
    apply mem_In in M. exfalso. apply (N3 i); auto. }
  rewrite TOT in K. rewrite (qsum_ext (fun i => w i * (y i - x i)) (fun i => w i * y i - w i * x i)) in K by (intros; ring).
  rewrite qsum_minus in K. lra.
Qed.

Lemma vec_map n x i : (i < n)%nat -> vec (map x (seq 0 n)) i = x i.
Proof. intro H. unfold vec. rewrite (nth_indep _ 0 (x 0%nat)) by (rewrite map_length, seq_length; auto).
  rewrite map_nth, seq_nth by auto. reflexivity. Qed.

Theorem greedy_ok ord f F w : ground (sfn f) F -> computes f F -> length w = sfn f -> sorts w (ord w) ->
  exists x, edmonds_greedy ord f w = Ok x /\ length x = sfn f /\
    vsum (sfn f) (vec x) every == F every - F none /\
    (submodular F -> in_base (sfn f) F (vec x) /\
       forall y, in_base (sfn f) F y -> dot (sfn f) (vec w) (vec x) <= dot (sfn f) (vec w) y).
Proof.
  intros HG HF HL [S1 S2]. set (n := sfn f) in *. rewrite HL in S1.
  assert (ND : NoDup (ord w)) by (eapply Permutation_NoDup; [symmetry; exact S1|apply seq_NoDup]).
  assert (LT : forall b, In b (ord w) -> (b < n)%nat).
  { intros b Hb. apply (Permutation_in b S1) in Hb. apply in_seq in Hb. lia. }
  destruct (HF [] (NoDup_nil _)) as (v & V1 & V2); [intros b []|].
  assert (HF' : computes (mkSF n (sfv f)) F) by exact HF.
  destruct (greedy_loop_ok n (sfv f) F HG HF' (ord w) [] v (fun _ => 0) ND LT V2) as (x & X1 & _ & X3).
  exists (map x (seq 0 n)). split; [|split; [|split]].
  - unfold edmonds_greedy. fold n. rewrite HL, Nat.eqb_refl. simpl. rewrite V1. cbn [bind]. rewrite X1. reflexivity.
  - rewrite map_length, seq_length. auto.
  - rewrite (vsum_ext n _ x every every) by (intros; rewrite ?vec_map; auto; reflexivity).
    rewrite (vsum_perm n x every _ S1). unfold every at 1. simpl.
    rewrite (incr_prefix n F x (ord w) HG X3 (ord w) [] (eq_sym (app_nil_r _))).
    rewrite (HG (mem (ord w)) every); [lra|]. intros i Hi. unfold every. apply mem_In.
    apply (Permutation_in i (Permutation_sym S1)). apply in_seq. lia.
  - intro HS.
    assert (TOT : vsum n x every == F every - F none).
    { rewrite (vsum_perm n x every _ S1). unfold every at 1. simpl.
      rewrite (incr_prefix n F x (ord w) HG X3 (ord w) [] (eq_sym (app_nil_r _))).
      rewrite (HG (mem (ord w)) every); [lra|]. intros i Hi. unfold every. apply mem_In.
      apply (Permutation_in i (Permutation_sym S1)). apply in_seq. lia. }
    split; [split|].
    + intro S. rewrite (vsum_ext n _ x S S) by (intros; rewrite ?vec_map; auto; reflexivity).
      rewrite (vsum_perm n x S _ S1).
      eapply Qle_trans; [apply (incr_base n F x (ord w) HG HS ND X3 S (ord w) [] (eq_sym (app_nil_r _)))|].
      rewrite (HG (iinter S (mem (ord w))) S); [lra|]. intros i Hi. unfold iinter.
      replace (mem (ord w) i) with true; [apply andb_true_r|]. symmetry. apply mem_In.
      apply (Permutation_in i (Permutation_sym S1)). apply in_seq. lia.
    + rewrite (vsum_ext n _ x every every) by (intros; rewrite ?vec_map; auto; reflexivity). exact TOT.
    + intros y Hy. eapply Qle_trans; [|apply (tight_prefixes_opt n F x (vec w) y (ord w) HG S1 S2); auto].
      * unfold dot. apply Qle_lteq. right. apply qsum_ext. intros i Hi. apply in_seq in Hi. rewrite vec_map by lia. reflexivity.
      * intros p s E. rewrite (incr_prefix n F x (ord w) HG X3 p s E). lra.
Qed.
