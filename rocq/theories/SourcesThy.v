(** * SourcesThy: the hypergraph entropy is a submodular function; mutual information. *)
From Verif Require Import Base Graph Spec PartThy SubThy MHC MAIC SFSpec MNBThy AICStep AggThy EntThy MSources.

Definition qmax (a b : Q) : Q := if Qltb a b then b else a.

Lemma qmax_l a b : a <= qmax a b.
Proof. unfold qmax. destruct (Qltb a b) eqn:E; [apply Qltb_true in E|]; lra. Qed.
Lemma qmax_r a b : b <= qmax a b.
Proof. unfold qmax. destruct (Qltb a b) eqn:E; [|apply Qltb_false in E]; lra. Qed.
Lemma qmax_lub a b c : a <= c -> b <= c -> qmax a b <= c.
Proof. unfold qmax. destruct (Qltb a b); auto. Qed.
(** ** Maxima *)
Definition is_max (x : nat -> Q) (l : list nat) (m : Q) : Prop :=
  (exists i, In i l /\ x i == m) /\ forall i, In i l -> x i <= m.

Lemma is_max_unique x l m m' : is_max x l m -> is_max x l m' -> m == m'.
Proof.
  intros [(i & I1 & I2) H] [(j & J1 & J2) H']. apply Qle_antisym.
  - rewrite <- I2. auto.
  - rewrite <- J2. auto.
Qed.

Lemma is_max_same x l l' m : (forall i, In i l <-> In i l') -> is_max x l m -> is_max x l' m.
Proof. intros E [(i & I1 & I2) H]. split; [exists i; split; auto; apply E; auto|]. intros j Hj. apply H, E; auto. Qed.

Lemma vmax_ok x l : l <> [] -> exists m, vmax (map x l) = Ok m /\ is_max x l m.
Proof.
  destruct l as [|a t]; [congruence|]. intros _. cbn [map vmax].
  assert (K : forall t a, let m := fold_left (fun m b => if Qltb m b then b else m) (map x t) a in
    (m = a \/ exists i, In i t /\ x i = m) /\ a <= m /\ forall i, In i t -> x i <= m).
  { clear. induction t as [|b t IH]; intros a; cbn [map fold_left].
    - split; auto. split; [lra|]. intros y [].
    - destruct (Qltb a (x b)) eqn:E.
      + destruct (IH (x b)) as (I1 & I2 & I3). apply Qltb_true in E. split.
        { right. destruct I1 as [I1|(i & I1 & I4)]; [exists b; split; [left|]; auto|exists i; split; [right|]; auto]. }
        split; [lra|]. intros i [<-|Hi]; auto.
      + destruct (IH a) as (I1 & I2 & I3). apply Qltb_false in E. split.
        { destruct I1 as [I1|(i & I1 & I4)]; [auto|right; exists i; split; [right|]; auto]. }
        split; [lra|]. intros i [<-|Hi]; auto. lra. }
  destruct (K t (x a)) as (I1 & I2 & I3). eexists. split; [reflexivity|]. split.
  - destruct I1 as [->|(i & I1 & I4)]; [exists a; split; [left; auto|reflexivity]|exists i; split; [right; auto|rewrite I4; reflexivity]].
  - intros i [<-|Hi]; auto.
Qed.

(** The largest entry on [S], and the least one of all when [S] is empty. *)
Fixpoint cmax (b : Q) (x : nat -> Q) (l : list nat) (S : nset) : Q :=
  match l with
  | [] => b
  | i :: t => if S i then qmax (x i) (cmax b x t S) else cmax b x t S
  end.

Lemma cmax_ge b x l S : b <= cmax b x l S.
Proof.
  induction l as [|i t IH]; simpl; [lra|]. destruct (S i); auto. eapply Qle_trans; [exact IH|apply qmax_r].
Qed.

Lemma cmax_in b x l S i : In i l -> S i = true -> x i <= cmax b x l S.
Proof.
  induction l as [|j t IH]; simpl; [intros []|]. intros [<-|H] HS.
  - rewrite HS. apply qmax_l.
  - destruct (S j); auto. eapply Qle_trans; [apply IH; auto|apply qmax_r].
Qed.

Lemma cmax_lub b x l S m : b <= m -> (forall i, In i l -> S i = true -> x i <= m) -> cmax b x l S <= m.
Proof.
  intros Hb. induction l as [|j t IH]; simpl; auto. intro H. destruct (S j) eqn:E.
  - apply qmax_lub; auto.
  - apply IH. auto.
Qed.

Lemma cmax_is_max b x l S B : (forall i, In i l -> b <= x i) -> B <> [] -> (forall i, In i B <-> In i l /\ S i = true) ->
  is_max x B (cmax b x l S).
Proof.
  intros Hb HB E. split.
  - assert (K : (cmax b x l S = b /\ forall i, In i l -> S i = false) \/ exists i, In i l /\ S i = true /\ x i = cmax b x l S \/
      cmax b x l S = b /\ In i l /\ S i = true).
    { clear. induction l as [|j t IH]; simpl; [left; split; auto; intros i []|]. destruct (S j) eqn:E.
      - right. unfold qmax. destruct (Qltb (x j) (cmax b x t S)) eqn:L.
        + destruct IH as [[I1 I2]|(i & [(I1 & I2 & I3)|(I1 & I2 & I3)])].
          * exists j. right. auto.
          * exists i. left. auto.
          * exists i. right. auto.
        + exists j. left. auto.
      - destruct IH as [[I1 I2]|(i & [(I1 & I2 & I3)|(I1 & I2 & I3)])].
        + left. split; auto. intros i [<-|]; auto.
        + right. exists i. left. auto.
        + right. exists i. right. auto. }
    destruct K as [[K1 K2]|(i & [(I1 & I2 & I3)|(I1 & I2 & I3)])].
    + destruct B as [|i B]; [congruence|]. destruct (proj1 (E i) (or_introl eq_refl)) as [I1 I2].
      rewrite (K2 i I1) in I2. discriminate.
    + exists i. split; [apply E; auto|rewrite I3; reflexivity].
    + exists i. split; [apply E; auto|]. apply Qle_antisym; [apply cmax_in; auto|]. rewrite I1. auto.
  - intros i Hi. apply E in Hi. apply cmax_in; tauto.
Qed.

Lemma cmax_sub b x l A B : cmax b x l (iunion A B) + cmax b x l (iinter A B) <= cmax b x l A + cmax b x l B.
Proof.
  assert (U : cmax b x l (iunion A B) <= cmax b x l A \/ cmax b x l (iunion A B) <= cmax b x l B).
  { destruct (Qlt_le_dec (cmax b x l A) (cmax b x l B)); [right|left]; apply cmax_lub; try apply cmax_ge;
    intros i Hi HU; unfold iunion in HU; apply orb_true_iff in HU; destruct HU as [HU|HU].
    - assert (K := cmax_in b x l A i Hi HU). lra.
    - apply cmax_in; auto.
    - apply cmax_in; auto.
    - assert (K := cmax_in b x l B i Hi HU). lra. }
  assert (IA : cmax b x l (iinter A B) <= cmax b x l A).
  { apply cmax_lub; [apply cmax_ge|]. intros i Hi HI. apply andb_true_iff in HI. apply cmax_in; tauto. }
  assert (IB : cmax b x l (iinter A B) <= cmax b x l B).
  { apply cmax_lub; [apply cmax_ge|]. intros i Hi HI. apply andb_true_iff in HI. apply cmax_in; tauto. }
  destruct U; lra.
Qed.

Lemma cmax_ext b x l A B : (forall i, In i l -> A i = B i) -> cmax b x l A = cmax b x l B.
Proof.
  induction l as [|i t IH]; simpl; auto. intro H. rewrite (H i) by auto. rewrite IH by auto. reflexivity.
Qed.

Lemma cmax_val b x l S : cmax b x l S = b \/ exists i, In i l /\ x i = cmax b x l S.
Proof.
  induction l as [|j t IH]; simpl; auto. destruct (S j).
  - unfold qmax. destruct (Qltb _ _); [|right; exists j; auto]. destruct IH as [IH|(i & I1 & I2)]; auto. right. exists i. auto.
  - destruct IH as [IH|(i & I1 & I2)]; auto. right. exists i. auto.
Qed.

(** ** The hypergraph entropy *)
Definition ent (M : list (list Q)) (c i : nat) : Q := nth c (nth i M []) 0.
Definition cmin (M : list (list Q)) (c : nat) : Q := fold_right (fun i m => if Qltb (ent M c i) m then ent M c i else m)
  (ent M c 0) (seq 0 (length M)).
Definition hypF (k : nat) (M : list (list Q)) (S : nset) : Q :=
  qsum (fun c => cmax (cmin M c) (ent M c) (seq 0 (length M)) S) (seq 0 k).

Lemma cmin_le M c i : (i < length M)%nat -> cmin M c <= ent M c i.
Proof.
  intro Hi. unfold cmin. assert (I : In i (seq 0 (length M))) by (apply in_seq; lia).
  revert I. generalize (seq 0 (length M)). induction l as [|j t IH]; simpl; [intros []|].
  intros [<-|H]; match goal with |- context [Qltb ?a ?b] => destruct (Qltb a b) eqn:E end.
  - lra.
  - apply Qltb_false in E. lra.
  - apply Qltb_true in E. specialize (IH H). lra.
  - auto.
Qed.

Lemma cmin_val M c : (0 < length M)%nat -> exists i, (i < length M)%nat /\ cmin M c = ent M c i.
Proof.
  intro H. unfold cmin. assert (K : forall l, (forall i, In i l -> (i < length M)%nat) -> exists i, (i < length M)%nat /\
    fold_right (fun i m => if Qltb (ent M c i) m then ent M c i else m) (ent M c 0) l = ent M c i).
  { induction l as [|j t IH]; intro HL; simpl; [exists 0%nat; auto|].
    match goal with |- context [Qltb ?a ?b] => destruct (Qltb a b) end; [exists j; split; auto; apply HL; left; auto|].
    apply IH. intros; apply HL; right; auto. }
  apply K. intros i Hi. apply in_seq in Hi. lia.
Qed.

Lemma hyp_ground k M : ground (length M) (hypF k M).
Proof.
  intros A B H. unfold hypF. apply qsum_ext. intros c _. rewrite (cmax_ext _ _ _ A B); [reflexivity|].
  intros i Hi. apply H. apply in_seq in Hi. lia.
Qed.

Lemma hyp_submodular k M : submodular (hypF k M).
Proof.
  intros A B. unfold hypF. rewrite <- !qsum_plus. apply qsum_le. intros c _. apply cmax_sub.
Qed.

Lemma hyp_cols_ok M B : B <> [] -> forall cs e, exists ms, hyp_cols (map (fun b => nth b M []) B) cs e = Ok (fold_left Qplus ms e) /\
  Forall2 (fun c m => is_max (ent M c) B m) cs ms.
Proof.
  intro HB. induction cs as [|c cs IH]; intro e; simpl; [exists []; split; auto|].
  rewrite map_map. destruct (vmax_ok (ent M c) B HB) as (m & M1 & M2). unfold ent in M1. rewrite M1. cbn [bind].
  destruct (IH (e + m)) as (ms & E1 & E2). exists (m :: ms). simpl. split; auto.
Qed.

Lemma hyp_value k M B : B <> [] -> (forall b, In b B -> (b < length M)%nat) ->
  exists ms, sfv (hyp_sf k M) B = Ok (fold_left Qplus ms 0) /\
    Forall2 (fun c m => is_max (ent M c) B m) (seq 0 k) ms.
Proof.
  intros HB H. cbn [hyp_sf sfv].
  replace (forallb (fun b => b <? length M)%nat B) with true.
  2:{ symmetry. apply forallb_forall. intros b Hb. apply Nat.ltb_lt. auto. }
  apply hyp_cols_ok; auto.
Qed.

Lemma fold_plus ms : forall e, fold_left Qplus ms e == e + qsum (fun m => m) ms.
Proof.
  induction ms as [|m ms IH]; intro e; simpl; [ring|]. rewrite IH. ring.
Qed.

Lemma hyp_evaluates k M : evaluates (hyp_sf k M) (hypF k M).
Proof.
  intros B HB _ H. destruct (hyp_value k M B HB H) as (ms & E1 & E2). eexists. split; [exact E1|].
  rewrite fold_plus. unfold hypF. rewrite Qplus_0_l.
  assert (K : forall c m, is_max (ent M c) B m -> m == cmax (cmin M c) (ent M c) (seq 0 (length M)) (mem B)).
  { intros c m Hm. apply (is_max_unique (ent M c) B); auto. apply cmax_is_max; auto.
    - intros i Hi. apply cmin_le. apply in_seq in Hi. lia.
    - intro i. rewrite mem_In, in_seq. split; [|tauto]. intro Hi. split; [|auto]. apply H in Hi. cbn [hyp_sf sfn] in Hi. lia. }
  clear -E2 K. induction E2 as [|c m cs ms H1 H2 IH]; simpl; [reflexivity|]. rewrite IH, (K c m H1). reflexivity.
Qed.

Lemma onD_sum {A} D (f : A -> Q) l : (forall a, In a l -> onD D (f a)) -> onD D (qsum f l).
Proof.
  induction l as [|a l IH]; intro H; simpl.
  - exists 0%Z. reflexivity.
  - destruct (H a (or_introl eq_refl)) as (z & Z1). destruct IH as (y & Y1); [intros; apply H; right; auto|].
    exists (z + y)%Z. rewrite Z1, Y1. unfold Qeq, Qplus. simpl. rewrite Pos2Z.inj_mul. ring.
Qed.

Lemma hyp_onD k M D : (0 < length M)%nat -> (forall i c, (i < length M)%nat -> (c < k)%nat -> onD D (ent M c i)) ->
  forall S, onD D (hypF k M S).
Proof.
  intros HM H S. apply onD_sum. intros c Hc. apply in_seq in Hc.
  destruct (cmax_val (cmin M c) (ent M c) (seq 0 (length M)) S) as [->|(i & I1 & <-)].
  - destruct (cmin_val M c HM) as (i & I1 & ->). apply H; lia.
  - apply in_seq in I1. apply H; lia.
Qed.

(** ** Hypergraphs *)

(** A hyperedge: its nodes and its weight. *)
Definition hedge : Type := (list nat * Q)%type.
Definition incidence (n : nat) (H : list hedge) : list (list Q) :=
  map (fun i => map (fun e => if mem (fst e) i then snd e else 0) H) (seq 0 n).
Definition meets (e : hedge) (C : list nat) : bool := existsb (mem (fst e)) C.
(** Weight of the hyperedges with a node in [C]. *)
Definition htouch (H : list hedge) (C : list nat) : Q := qsum (fun e => if meets e C then snd e else 0) H.
(** Every hyperedge counts once less than the number of parts it meets. *)
Definition hcross (H : list hedge) (P : list (list nat)) : Q :=
  qsum (fun e => snd e * (qn (length (filter (meets e) P)) - 1)) H.
Definition hoptimal (H : list hedge) (vs : list nat) (lam : Q) (P : list (list nat)) : Prop :=
  is_partition vs P /\
  forall R, is_partition vs R -> hcross H P - lam * qn (length P) <= hcross H R - lam * qn (length R).

Lemma incidence_length n H : length (incidence n H) = n.
Proof. unfold incidence. rewrite map_length, seq_length. reflexivity. Qed.

Lemma incidence_ent n H c i : (i < n)%nat -> (c < length H)%nat ->
  ent (incidence n H) c i = if mem (fst (nth c H ([], 0))) i then snd (nth c H ([], 0)) else 0.
Proof.
  intros Hi Hc. unfold ent, incidence.
  rewrite (nth_indep _ [] (map (fun e : hedge => if mem (fst e) 0%nat then snd e else 0) H)) by (rewrite map_length, seq_length; auto).
  rewrite (map_nth (fun i => map (fun e : hedge => if mem (fst e) i then snd e else 0) H)).
  rewrite seq_nth by auto. simpl plus.
  rewrite (nth_indep _ 0 (if mem (fst (([], 0) : hedge)) i then snd (([], 0) : hedge) else 0)) by (rewrite map_length; auto).
  rewrite (map_nth (fun e : hedge => if mem (fst e) i then snd e else 0)). reflexivity.
Qed.

Lemma nth_qsum {A} (f : A -> Q) d l : qsum (fun c => f (nth c l d)) (seq 0 (length l)) == qsum f l.
Proof.
  induction l as [|a l IH]; simpl; [reflexivity|]. rewrite <- seq_shift, qsum_map. simpl. rewrite IH. reflexivity.
Qed.

Lemma hyp_touch n H C : (forall e, In e H -> 0 <= snd e) -> C <> [] -> NoDup C -> (forall i, In i C -> (i < n)%nat) ->
  hypF (length H) (incidence n H) (mem C) == htouch H C.
Proof.
  intros W HC NC HI. unfold hypF, htouch. rewrite <- (nth_qsum _ ([], 0) H). apply qsum_ext. intros c Hc. apply in_seq in Hc.
  set (M := incidence n H). set (e := nth c H ([], 0)).
  assert (WE : 0 <= snd e) by (apply W, nth_In; lia).
  assert (X : forall i, (i < n)%nat -> ent M c i = if mem (fst e) i then snd e else 0) by (intros i Hi; apply incidence_ent; [exact Hi|exact (proj2 Hc)]).
  apply (is_max_unique (ent M c) C).
  - apply cmax_is_max; auto.
    + intros i Hi. apply cmin_le. apply in_seq in Hi. lia.
    + intro i. unfold M. rewrite incidence_length, mem_In, in_seq. split; [|tauto]. intro Hi. split; [|auto]. apply HI in Hi. lia.
  - destruct (meets e C) eqn:E.
    + unfold meets in E. apply existsb_exists in E. destruct E as (i & I1 & I2). split.
      * exists i. split; auto. rewrite X, I2 by auto. reflexivity.
      * intros j Hj. rewrite X by auto. destruct (mem (fst e) j); lra.
    + assert (Z : forall i, In i C -> mem (fst e) i = false).
      { intros i Hi. destruct (mem (fst e) i) eqn:K; auto. rewrite <- E. symmetry. apply existsb_exists. exists i. auto. }
      split.
      * destruct C as [|i C]; [congruence|]. exists i. split; [left; auto|]. rewrite X, Z by (try apply HI; left; auto). reflexivity.
      * intros j Hj. rewrite X, Z by auto. lra.
Qed.

Lemma count_filter {A} (p : A -> bool) w l : qsum (fun a => if p a then w else 0) l == w * qn (length (filter p l)).
Proof.
  induction l as [|a l IH]; cbn [qsum filter length]; [rewrite qn_0; ring|].
  destruct (p a); cbn [length]; rewrite IH; [|ring].
  rewrite qn_S. ring.
Qed.

Lemma hyp_cross n H P : (forall e, In e H -> 0 <= snd e) -> is_partition (seq 0 n) P ->
  qsum (fun C => hypF (length H) (incidence n H) (mem C)) P == hcross H P + qsum snd H.
Proof.
  intros W HP. assert (ND := part_NoDup _ (seq_NoDup _ _) P HP).
  rewrite (qsum_ext (fun C => hypF (length H) (incidence n H) (mem C)) (htouch H)).
  2:{ intros C HC. apply hyp_touch; auto.
      - intros ->. destruct (part_nonempty _ P [] HP HC) as [? []].
      - eapply nd_part_NoDup_in; eauto.
      - intros i Hi. apply (part_incl _ P C HP HC) in Hi. apply in_seq in Hi. lia. }
  unfold htouch. rewrite qsum_swap. unfold hcross. rewrite <- qsum_plus. apply qsum_ext. intros e He.
  rewrite (count_filter (meets e)). ring.
Qed.

Lemma hyp_popt n H lam P : (forall e, In e H -> 0 <= snd e) ->
  popt (hypF (length H) (incidence n H)) (seq 0 n) lam P <-> hoptimal H (seq 0 n) lam P.
Proof.
  intro W. unfold popt, hoptimal, pval. split; intros [H1 H2]; split; auto; intros R HR;
    assert (K := H2 R HR); assert (E1 := hyp_cross n H P W H1); assert (E2 := hyp_cross n H R W HR); lra.
Qed.

(** ** Mutual information *)
Lemma mutual_ok f F B C : evaluates f F -> ground (sfn f) F -> B <> [] -> C <> [] -> NoDup (B ++ C) ->
  (forall b, In b (B ++ C) -> (b < sfn f)%nat) ->
  exists v, mutual_info f B C = Ok v /\ v == F (mem B) + F (mem C) - F (iunion (mem B) (mem C)).
Proof.
  intros HF HG NB NC ND H. unfold mutual_info.
  destruct (HF B) as (b & B1 & B2); auto.
  { apply (NoDup_app_inv _ _ ND). }
  { intros; apply H, in_or_app; auto. }
  destruct (HF C) as (c & C1 & C2); auto.
  { apply (NoDup_app_inv _ _ ND). }
  { intros; apply H, in_or_app; auto. }
  destruct (HF (B ++ C)) as (u & U1 & U2); auto.
  { destruct B; [congruence|discriminate]. }
  rewrite B1, C1, U1. cbn [bind]. eexists. split; [reflexivity|]. rewrite B2, C2, U2.
  rewrite (HG (mem (B ++ C)) (iunion (mem B) (mem C))); [reflexivity|]. intros i _. unfold iunion. apply mem_app.
Qed.

Lemma mutual_nonneg F n B C : ground n F -> submodular F -> F none == 0 -> (forall b, In b B -> ~ In b C) ->
  0 <= F (mem B) + F (mem C) - F (iunion (mem B) (mem C)).
Proof.
  intros HG HS H0 HD. assert (K := HS (mem B) (mem C)).
  rewrite (HG (iinter (mem B) (mem C)) none) in K; [lra|]. intros i _. unfold iinter, none.
  apply andb_false_iff. destruct (mem B i) eqn:E; auto. right. destruct (mem C i) eqn:E2; auto.
  apply mem_In in E, E2. exfalso. eapply HD; eauto.
Qed.
