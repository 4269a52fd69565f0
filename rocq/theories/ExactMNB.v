(** * ExactMNB: an exact solver for the point of minimum norm, by exhaustive search.

    No code is modelled here.  The solver shows that the premise [MinNormSpec] of the theorems on
    AIC::agglomerate can be met, and runs in their examples. *)
From Coq Require Import Sorted.
From Verif Require Import Base Graph Spec PartThy SubThy MHC MAIC SFSpec MNBThy AICStep AggThy AICThy GreedyThy.

Fixpoint subs (l : list nat) : list (list nat) :=
  match l with
  | [] => [[]]
  | a :: t => let r := subs t in r ++ map (cons a) r
  end.

Definition nonempty (T : list nat) : bool := negb (length T =? 0)%nat.

(** The smallest ratio (f(A + T) - f(A)) / |T|. *)
Fixpoint best (f : list nat -> res Q) (A : list nat) (fa : Q) (cs : list (list nat)) : res (option (Q * list nat)) :=
  match cs with
  | [] => Ok None
  | T :: t =>
      do v <- f (A ++ T);
      do b <- best f A fa t;
      let r := Qred ((v - fa) / qn (length T)) in
      Ok (match b with
          | None => Some (r, T)
          | Some (r', T') => if Qltb r' r then Some (r', T') else Some (r, T)
          end)
  end.

Fixpoint blocks (fuel : nat) (f : list nat -> res Q) (A R : list nat) : res (list (Q * list nat)) :=
  match R with
  | [] => Ok []
  | _ :: _ =>
      match fuel with
      | O => OutOfFuel
      | S k =>
          do fa <- f A;
          do b <- best f A fa (filter nonempty (subs R));
          match b with
          | None => UB
          | Some (r, T) =>
              do bs <- blocks k f (A ++ T) (filter (fun i => negb (mem T i)) R);
              Ok ((r, T) :: bs)
          end
      end
  end.

Definition bval (bs : list (Q * list nat)) (i : nat) : Q :=
  match find (fun b => mem (snd b) i) bs with Some b => fst b | None => 0 end.

Definition exact_mnb (f : sf) : res (list Q) :=
  do bs <- blocks (sfn f) (sfv f) [] (seq 0 (sfn f));
  Ok (map (bval bs) (seq 0 (sfn f))).

Lemma subs_In l T : In T (subs l) -> NoDup l -> NoDup T /\ incl T l.
Proof.
  revert T. induction l as [|a l IH]; simpl; intros T H ND.
  - destruct H as [<-|[]]. split; [constructor|apply incl_refl].
  - inversion ND; subst. apply in_app_iff in H. destruct H as [H|H].
    + destruct (IH T H H3). split; auto. apply incl_tl. auto.
    + apply in_map_iff in H. destruct H as (U & <- & H). destruct (IH U H H3) as [N I]. split.
      * constructor; auto.
      * intros x [->|Hx]; [left; auto|right; auto].
Qed.

Lemma subs_filter l (S : nset) : In (filter S l) (subs l).
Proof.
  induction l as [|a l IH]; simpl; [auto|]. apply in_app_iff. destruct (S a); [right; apply in_map; auto|left; auto].
Qed.

Section Exact.
  Variables (n : nat) (f : list nat -> res Q) (F : nset -> Q).
  Hypothesis HG : ground n F.
  Hypothesis HS : submodular F.
  Hypothesis HF : computes (mkSF n f) F.

  Let Fx := F_ext' n F HG.

  Lemma best_ok A fa cs : cs <> [] -> fa == F (mem A) ->
    (forall T, In T cs -> T <> [] /\ NoDup (A ++ T) /\ forall b, In b (A ++ T) -> (b < n)%nat) ->
    exists r T, best f A fa cs = Ok (Some (r, T)) /\ In T cs /\ r * qn (length T) == F (mem (A ++ T)) - F (mem A) /\
      forall U, In U cs -> r * qn (length U) <= F (mem (A ++ U)) - F (mem A).
  Proof.
    intros HN Hfa. induction cs as [|T cs IH]; [congruence|]. intro H. cbn [best].
    destruct (H T (or_introl eq_refl)) as (T1 & T2 & T3). destruct (HF (A ++ T) T2 T3) as (v & V1 & V2).
    simpl in V1. rewrite V1. cbn [bind]. remember (Qred ((v - fa) / qn (length T))) as r eqn:Hr.
    assert (PT : 0 < qn (length T)).
    { destruct T as [|a T]; [congruence|]. eapply Qlt_le_trans; [|apply (qn_le 1); simpl; lia]. reflexivity. }
    assert (Er : r * qn (length T) == F (mem (A ++ T)) - F (mem A)).
    { rewrite Hr, Qred_correct, V2, Hfa. field. intro K. rewrite K in PT. apply Qlt_irrefl in PT. auto. }
    destruct cs as [|U cs].
    - cbn [best bind]. exists r, T. split; auto. split; [left; auto|]. split; auto. intros U [<-|[]]. lra.
    - destruct IH as (r' & T' & B1 & B2 & B3 & B4); [discriminate|intros; apply H; right; auto|].
      rewrite B1. cbn [bind]. destruct (Qltb r' r) eqn:L.
      + apply Qltb_true in L. exists r', T'. split; auto. split; [right; auto|]. split; auto.
        intros W [<-|HW]; [|apply B4; auto]. rewrite <- Er. apply Qmult_le_compat_r; lra.
      + apply Qltb_false in L. exists r, T. split; auto. split; [left; auto|]. split; auto.
        intros W [<-|HW]; [rewrite Er; lra|]. eapply Qle_trans; [|apply B4; auto].
        apply Qmult_le_compat_r; auto. apply qn_nonneg.
  Qed.

  Definition inS (S : nset) (T : list nat) : Q := qn (length (filter S T)).
  Definition bsum (S : nset) (bs : list (Q * list nat)) : Q := qsum (fun b => fst b * inS S (snd b)) bs.

  Lemma inS_sum S T : inS S T == qsum (fun i => if S i then 1 else 0) T.
  Proof. unfold inS. rewrite <- qsum_filter, qsum_const. ring. Qed.

  Lemma blocks_nil fuel A : exists bs, blocks fuel f A [] = Ok bs /\ Permutation (concat (map snd bs)) [] /\
      (forall r0, (forall S, r0 * inS S [] <= F (iunion (mem A) (iinter S (mem []))) - F (mem A)) ->
         forall b, In b bs -> r0 <= fst b) /\
      StronglySorted (fun b c => fst b <= fst c) bs /\
      (forall S, bsum S bs <= F (iunion (mem A) (iinter S (mem []))) - F (mem A)) /\
      (forall p s, bs = p ++ s -> bsum every p == F (iunion (mem A) (mem (concat (map snd p)))) - F (mem A)).
  Proof.
    exists []. split; [destruct fuel; reflexivity|]. split; [constructor|]. split; [intros r0 _ b []|].
    split; [constructor|]. split.
    - intro S. unfold bsum. simpl. rewrite (Fx (iunion (mem A) (iinter S (mem []))) (mem A)); [lra|].
      intro x. unfold iunion, iinter. simpl. rewrite andb_false_r. apply orb_false_r.
    - intros p s E. destruct p; [|discriminate]. unfold bsum. simpl.
      rewrite (Fx (iunion (mem A) (mem [])) (mem A)); [lra|]. intro x. unfold iunion. apply orb_false_r.
  Qed.

  Lemma blocks_ok : forall fuel A R, NoDup (A ++ R) -> (forall b, In b (A ++ R) -> (b < n)%nat) -> (length R <= fuel)%nat ->
    exists bs, blocks fuel f A R = Ok bs /\ Permutation (concat (map snd bs)) R /\
      (forall r0, (forall S, r0 * inS S R <= F (iunion (mem A) (iinter S (mem R))) - F (mem A)) ->
         forall b, In b bs -> r0 <= fst b) /\
      StronglySorted (fun b c => fst b <= fst c) bs /\
      (forall S, bsum S bs <= F (iunion (mem A) (iinter S (mem R))) - F (mem A)) /\
      (forall p s, bs = p ++ s -> bsum every p == F (iunion (mem A) (mem (concat (map snd p)))) - F (mem A)).
  Proof.
    induction fuel as [|fuel IH]; intros A R ND LT HL.
    - destruct R; [|simpl in HL; lia]. apply blocks_nil.
    - destruct R as [|x0 R0]; [apply blocks_nil|]. set (R := x0 :: R0) in *.
      assert (NR : NoDup R /\ NoDup A /\ forall x, In x A -> ~ In x R).
      { apply NoDup_app_inv in ND. tauto. }
      destruct NR as (NR & NA & NAR).
      destruct (HF A NA) as (fa & A1 & A2); [intros; apply LT; apply in_app_iff; auto|]. simpl in A1.
      destruct (best_ok A fa (filter nonempty (subs R))) as (r & T & B1 & B2 & B3 & B4); auto.
      { intro K. assert (J := subs_filter R every). assert (In (filter every R) (filter nonempty (subs R))).
        { apply filter_In. split; auto. } rewrite K in H. destruct H. }
      { intros T HT. apply filter_In in HT. destruct HT as [HT HN]. apply subs_In in HT; auto. destruct HT as [T1 T2].
        split; [intros ->; discriminate|]. split.
        - apply NoDup_app_intro; auto. intros x Hx Hx'. apply (NAR x Hx). auto.
        - intros b Hb. apply LT. apply in_app_iff in Hb. apply in_app_iff. destruct Hb; auto. }
      apply filter_In in B2. destruct B2 as [B2 B5]. apply subs_In in B2; auto. destruct B2 as [T1 T2].
      set (R' := filter (fun i => negb (mem T i)) R).
      assert (PR : Permutation (T ++ R') R).
      { apply NoDup_Permutation; auto.
        - apply NoDup_app_intro; [auto|apply NoDup_filter; auto|]. intros x Hx Hx'. apply filter_In in Hx'.
          apply mem_In in Hx. rewrite Hx in Hx'. destruct Hx'. discriminate.
        - intro x. rewrite in_app_iff. unfold R'. rewrite filter_In. split; [intros [|[]]; auto|].
          intro Hx. destruct (mem T x) eqn:M; [left; apply mem_In; auto|right; auto]. }
      assert (MR : forall x, mem R x = mem T x || mem R' x).
      { intro x. apply Bool.eq_true_iff_eq. rewrite orb_true_iff, !mem_In, <- in_app_iff.
        split; apply Permutation_in; [symmetry|]; auto. }
      assert (MD : forall x, mem T x && mem R' x = false).
      { intro x. destruct (mem T x) eqn:M1, (mem R' x) eqn:M2; auto. apply mem_In in M2. apply filter_In in M2.
        rewrite M1 in M2. destruct M2. discriminate. }
      assert (MA : forall x, mem A x && mem R x = false).
      { intro x. destruct (mem A x) eqn:M1, (mem R x) eqn:M2; auto. apply mem_In in M1. apply mem_In in M2.
        exfalso. apply (NAR x M1 M2). }
      assert (MAT : forall x, mem (A ++ T) x = mem A x || mem T x).
      { intro x. apply Bool.eq_true_iff_eq. rewrite orb_true_iff, !mem_In, in_app_iff. tauto. }
      assert (LR : (length R' < length R)%nat).
      { apply Permutation_length in PR. rewrite app_length in PR.
        assert (1 <= length T)%nat by (destruct T; [discriminate|simpl; lia]). lia. }
      assert (KEY : forall W, r * inS W R <= F (iunion (mem A) (iinter W (mem R))) - F (mem A)).
      { intro W. destruct (filter W R) as [|y l] eqn:EW.
        - assert (Z0 : inS W R == 0) by (unfold inS; rewrite EW; reflexivity). rewrite Z0. rewrite (Fx (iunion (mem A) (iinter W (mem R))) (mem A)); [lra|].
          intro x. unfold iunion, iinter. destruct (W x) eqn:Wx, (mem R x) eqn:Rx; simpl; rewrite ?orb_false_r; auto.
          exfalso. assert (In x (filter W R)) by (apply filter_In; split; auto; apply mem_In; auto).
          rewrite EW in H. destruct H.
        - unfold inS. eapply Qle_trans; [apply B4|].
          + apply filter_In. split; [apply subs_filter|]. rewrite EW. reflexivity.
          + rewrite (Fx (mem (A ++ filter W R)) (iunion (mem A) (iinter W (mem R)))); [lra|].
            intro x. apply Bool.eq_true_iff_eq. unfold iunion, iinter.
            rewrite orb_true_iff, andb_true_iff, !mem_In, in_app_iff, filter_In. tauto. }
      assert (SPL : forall W, inS W R == inS W T + inS W R').
      { intro W. rewrite !inS_sum. rewrite <- (qsum_perm _ _ _ PR), qsum_app. reflexivity. }
      assert (TOT : inS every T == qn (length T)).
      { unfold inS. replace (filter every T) with T; [reflexivity|]. clear. induction T; simpl; congruence. }
      assert (ZER : forall (W : nset) l, (forall x, In x l -> W x = false) -> inS W l == 0).
      { intros W l H. rewrite inS_sum. apply qsum_zero. intros x Hx. rewrite (H x Hx). reflexivity. }
      assert (EXT : forall (W W' : nset) l, (forall x, In x l -> W x = W' x) -> inS W l == inS W' l).
      { intros W W' l H. rewrite !inS_sum. apply qsum_ext. intros x Hx. rewrite (H x Hx). reflexivity. }
      destruct (IH (A ++ T) R') as (bs & I1 & I2 & I3 & I4 & I5 & I6).
      { rewrite <- app_assoc. apply (Permutation_NoDup (l := A ++ R)); auto. apply Permutation_app_head. symmetry; auto. }
      { intros b Hb. apply LT. rewrite <- app_assoc in Hb. apply (Permutation_in b (Permutation_app_head A PR)). auto. }
      { lia. }
      assert (BND : forall b, In b bs -> r <= fst b).
      { apply I3. intro S. assert (K := KEY (iunion (mem T) (iinter S (mem R')))).
        rewrite SPL in K. rewrite (EXT (iunion (mem T) (iinter S (mem R'))) every T) in K.
        - rewrite (EXT (iunion (mem T) (iinter S (mem R'))) S R') in K.
          + rewrite TOT in K. rewrite (Fx (iunion (mem (A ++ T)) (iinter S (mem R'))) (iunion (mem A) (iinter (iunion (mem T) (iinter S (mem R'))) (mem R)))).
            * lra.
            * intro x. unfold iunion, iinter. rewrite MAT, MR. destruct (mem A x), (mem T x), (mem R' x), (S x); auto.
          + intros x Hx. apply mem_In in Hx. unfold iunion, iinter. assert (K' := MD x). rewrite Hx in *. rewrite andb_true_r in K'.
            rewrite K'. simpl. apply andb_true_r.
        - intros x Hx. apply mem_In in Hx. unfold iunion, every. rewrite Hx. auto. }
      assert (PT : 0 < qn (length T)).
      { destruct T as [|a T]; [discriminate|]. eapply Qlt_le_trans; [|apply (qn_le 1); simpl; lia]. reflexivity. }
      exists ((r, T) :: bs). split; [|split; [|split; [|split; [|split]]]].
      + cbn [blocks]. unfold R at 1. cbn [bind]. rewrite A1. cbn [bind]. fold R. rewrite B1. cbn [bind]. fold R'. rewrite I1. reflexivity.
      + simpl. rewrite I2. auto.
      + intros r0 Hr0. assert (L : r0 <= r).
        { assert (K := Hr0 (mem T)). rewrite SPL in K. rewrite (EXT (mem T) every T), (ZER (mem T) R'), TOT in K.
          - rewrite (Fx (iunion (mem A) (iinter (mem T) (mem R))) (mem (A ++ T))) in K.
            + destruct (Qlt_le_dec r r0) as [LT'|]; auto. exfalso.
              assert (0 < (r0 - r) * qn (length T)) by (apply Qmult_lt_0_compat; lra).
              assert ((r0 - r) * qn (length T) == r0 * qn (length T) - r * qn (length T)) by ring. lra.
            + intro x. unfold iunion, iinter. rewrite MAT, MR. destruct (mem A x), (mem T x), (mem R' x); auto.
          - intros x Hx. apply mem_In in Hx. assert (K' := MD x). rewrite Hx, andb_true_r in K'. auto.
          - intros x Hx. apply mem_In in Hx. auto. }
        intros b [<-|Hb]; auto. apply Qle_trans with r; auto.
      + constructor; auto. rewrite Forall_forall. auto.
      + intro S. unfold bsum. cbn [qsum fst snd]. fold (bsum S bs). assert (K1 := KEY (iinter S (mem T))).
        rewrite SPL in K1. rewrite (EXT (iinter S (mem T)) S T), (ZER (iinter S (mem T)) R') in K1.
        * assert (K2 := I5 S). assert (SM := HS (iunion (mem A) (iinter S (mem R))) (mem (A ++ T))).
          rewrite (Fx (iunion (iunion (mem A) (iinter S (mem R))) (mem (A ++ T))) (iunion (mem (A ++ T)) (iinter S (mem R')))) in SM.
          -- rewrite (Fx (iinter (iunion (mem A) (iinter S (mem R))) (mem (A ++ T))) (iunion (mem A) (iinter (iinter S (mem T)) (mem R)))) in SM.
             ++ lra.
             ++ intro x. unfold iunion, iinter. rewrite MAT. assert (K3 := MA x). rewrite MR in *. assert (K4 := MD x).
                destruct (mem A x), (mem T x), (mem R' x), (S x); auto; discriminate.
          -- intro x. unfold iunion, iinter. rewrite MAT, MR. destruct (mem A x), (mem T x), (mem R' x), (S x); auto.
        * intros x Hx. apply mem_In in Hx. assert (K' := MD x). rewrite Hx, andb_true_r in K'. unfold iinter. rewrite K'. apply andb_false_r.
        * intros x Hx. apply mem_In in Hx. unfold iinter. rewrite Hx. apply andb_true_r.
      + intros p s E. destruct p as [|b p].
        * unfold bsum. simpl. rewrite (Fx (iunion (mem A) (mem [])) (mem A)); [lra|]. intro x. unfold iunion. apply orb_false_r.
        * simpl in E. injection E as <- E. unfold bsum. cbn [qsum fst snd]. fold (bsum every p). rewrite (I6 p s E).
          rewrite TOT. rewrite B3. cbn [map concat snd].
          rewrite (Fx (iunion (mem (A ++ T)) (mem (concat (map snd p)))) (iunion (mem A) (mem (T ++ concat (map snd p))))); [lra|].
          intro x. unfold iunion. rewrite MAT. apply Bool.eq_true_iff_eq. rewrite !orb_true_iff, !mem_In, in_app_iff. tauto.
  Qed.
End Exact.

Lemma qsum_blocks (g : nat -> Q) (bs : list (Q * list nat)) :
  qsum g (concat (map snd bs)) == qsum (fun b => qsum g (snd b)) bs.
Proof. induction bs as [|b bs IH]; simpl; [reflexivity|]. rewrite qsum_app, IH. reflexivity. Qed.

Lemma bval_ok bs b i : NoDup (concat (map snd bs)) -> In b bs -> In i (snd b) -> bval bs i = fst b.
Proof.
  unfold bval. induction bs as [|c bs IH]; intros ND Hb Hi; [destruct Hb|]. simpl in *.
  apply NoDup_app_inv in ND. destruct ND as (N1 & N2 & N3). destruct Hb as [->|Hb].
  - apply mem_In in Hi. rewrite Hi. auto.
  - destruct (mem (snd c) i) eqn:M; [|apply IH; auto]. exfalso. apply mem_In in M. apply (N3 i M). apply in_concat.
    exists (snd b). split; auto. apply in_map; auto.
Qed.

(** First-order optimality is enough. *)
Lemma first_order n (x y : nat -> Q) : dot n x x <= dot n x y -> dot n x x <= dot n y y.
Proof.
  intro H. assert (K : 0 <= dot n (fun i => y i - x i) (fun i => y i - x i)).
  { apply qsum_nonneg. intros i _. destruct (Qlt_le_dec (y i - x i) 0).
    - assert (0 <= (- (y i - x i)) * (- (y i - x i))) by (apply Qmult_le_0_compat; lra).
      assert ((- (y i - x i)) * (- (y i - x i)) == (y i - x i) * (y i - x i)) by ring. lra.
    - apply Qmult_le_0_compat; auto. }
  assert (E : dot n (fun i => y i - x i) (fun i => y i - x i) == dot n y y - 2 * dot n x y + dot n x x).
  { unfold dot. rewrite <- qsum_scal, <- qsum_minus, <- qsum_plus. apply qsum_ext. intros. ring. }
  lra.
Qed.

Lemma dot_wd n x x' y y' : (forall i, (i < n)%nat -> x i == x' i) -> (forall i, (i < n)%nat -> y i == y' i) ->
  dot n x y == dot n x' y'.
Proof. intros H1 H2. apply qsum_ext. intros i Hi. apply in_seq in Hi. rewrite H1, H2 by lia. reflexivity. Qed.

Theorem exact_mnb_ok : MinNormSpec exact_mnb.
Proof.
  intros f F _ HF HG HS _. set (n := sfn f) in *.
  assert (HF' : computes (mkSF n (sfv f)) F) by exact HF.
  destruct (blocks_ok n (sfv f) F HG HS HF' n [] (seq 0 n)) as (bs & B1 & B2 & _ & B4 & B5 & B6).
  { apply seq_NoDup. }
  { intros b Hb. apply in_seq in Hb. lia. }
  { rewrite seq_length. auto. }
  assert (ND : NoDup (concat (map snd bs))) by (eapply Permutation_NoDup; [symmetry; exact B2|apply seq_NoDup]).
  exists (map (bval bs) (seq 0 n)). split; [unfold exact_mnb; fold n; rewrite B1; reflexivity|].
  split; [rewrite map_length, seq_length; auto|]. set (x := bval bs).
  assert (VX : forall i, (i < n)%nat -> vec (map x (seq 0 n)) i == x i) by (intros; rewrite vec_map; auto; reflexivity).
  assert (Fx := F_ext' n F HG).
  assert (XB : forall S, vsum n x S == bsum S bs).
  { intro S. rewrite (vsum_perm n x S _ B2), qsum_blocks. unfold bsum. apply qsum_ext. intros b Hb.
    rewrite inS_sum, <- qsum_scal. apply qsum_ext. intros i Hi. unfold x. rewrite (bval_ok bs b i ND Hb Hi).
    destruct (S i); ring. }
  assert (FN : F (mem []) == F none) by (apply Fx; auto).
  assert (XI : in_base n F x).
  { split.
    - intro S. rewrite XB. assert (K := B5 S). rewrite FN in K.
      rewrite (HG S (iunion (mem []) (iinter S (mem (seq 0 n))))); auto.
      intros i Hi. unfold iunion, iinter. simpl. replace (mem (seq 0 n) i) with true; [rewrite andb_true_r; auto|].
      symmetry. apply mem_In. apply in_seq. lia.
    - rewrite XB. rewrite (B6 bs [] (eq_sym (app_nil_r _))). rewrite FN.
      rewrite (HG (iunion (mem []) (mem (concat (map snd bs)))) every); [reflexivity|].
      intros i Hi. unfold iunion, every. simpl. apply mem_In. apply (Permutation_in i (Permutation_sym B2)).
      apply in_seq. lia. }
  assert (OPT : forall y, in_base n F y -> dot n x x <= dot n x y).
  { intros y [Y1 Y2].
    destruct (max_bound (@fst Q (list nat)) bs) as (c & Hc).
    assert (PRE : forall p s, bs = p ++ s -> qsum (fun b => qsum (fun i => y i - x i) (snd b)) p <=
                  vsum n y (mem (concat (map snd p))) - bsum every p).
    { intros p s E. rewrite <- qsum_blocks. rewrite qsum_minus.
      assert (EY : vsum n y (mem (concat (map snd p))) == qsum y (concat (map snd p))).
      { rewrite E, map_app, concat_app in B2, ND. rewrite (vsum_perm n y _ _ B2), qsum_app.
        apply NoDup_app_inv in ND. destruct ND as (_ & _ & N3).
        rewrite (qsum_ext _ y (concat (map snd p))) by (intros i Hi; apply mem_In in Hi; rewrite Hi; reflexivity).
        rewrite (qsum_zero _ (concat (map snd s))); [lra|]. intros i Hi.
        destruct (mem (concat (map snd p)) i) eqn:M; [|reflexivity]. apply mem_In in M. exfalso. apply (N3 i); auto. }
      assert (EX : bsum every p == qsum x (concat (map snd p))).
      { rewrite qsum_blocks. unfold bsum. apply qsum_ext. intros b Hb. rewrite inS_sum, <- qsum_scal. apply qsum_ext.
        intros i Hi. unfold x. rewrite (bval_ok bs b i ND); auto; [unfold every; ring|]. rewrite E. apply in_app_iff; auto. }
      lra. }
    assert (AB := abel (@fst Q (list nat)) (fun b => qsum (fun i => y i - x i) (snd b)) bs B4).
    assert (K : c * qsum (fun b => qsum (fun i => y i - x i) (snd b)) bs <=
                qsum (fun b => fst b * qsum (fun i => y i - x i) (snd b)) bs).
    { apply AB; auto. intros p s E. assert (K := PRE p s E). assert (K2 := Y1 (mem (concat (map snd p)))).
      rewrite (B6 p s E), FN in K.
      rewrite (Fx (iunion (mem []) (mem (concat (map snd p)))) (mem (concat (map snd p)))) in K by auto. lra. }
    assert (T0 : qsum (fun b => qsum (fun i => y i - x i) (snd b)) bs == 0).
    { rewrite <- qsum_blocks, (qsum_perm _ _ _ B2), qsum_minus. destruct XI as [_ XI].
      assert (V : forall z, vsum n z every == qsum z (seq 0 n)) by (intro; reflexivity).
      rewrite <- !V, XI, Y2. lra. }
    rewrite T0 in K.
    assert (ED : qsum (fun b => fst b * qsum (fun i => y i - x i) (snd b)) bs == dot n x y - dot n x x).
    { unfold dot. rewrite <- qsum_minus. rewrite <- (qsum_perm _ _ _ B2), qsum_blocks. apply qsum_ext. intros b Hb.
      rewrite <- qsum_scal. apply qsum_ext. intros i Hi. unfold x. rewrite (bval_ok bs b i ND Hb Hi). ring. }
    lra. }
  split.
  - destruct XI as [X1 X2]. split.
    + intro S. rewrite (vsum_ext n _ x S S) by auto. auto.
    + rewrite (vsum_ext n _ x every every) by auto. auto.
  - intros y Hy. rewrite (dot_wd n _ x _ x) by auto. apply first_order. auto.
Qed.
