(** * Property C95: the methods of class PSP agree in floating-point arithmetic (psp/psp.cpp). *)
From Coq Require Import String Qabs Sorted.
From Verif Require Import Base Graph Spec MSets SetsThy MGraph MaxFlow CutThy MDil DilThy BFThy
  MDT SeqThy PartThy DTThy PSPThy DTTop MContract MPSPI MHPSP MPMF MPMFR PMFRThy MFloat FloatThy MFloatT MFloatR MFloatP MFloatH MFloatW
  DilApprox FloatLam FloatSlice FloatSliceR FloatMono PropDil PropDT PropPSPI PropFloat PropFloatP PropFloatT PropFloatR FloatHpsp NoTie PropNoTie MTrim TrimThy.
Notation length := List.length.
Open Scope string_scope.

(** [listing d lams Ps fs Qs]: the critical values [fs] and partitions [Qs] are the sequence [lams], [Ps] with the values known up
    to [d], where a value may be listed several times with further partitions in between. *)
Inductive listing (d : Q) : list Q -> list (list (list nat)) -> list dbl -> list cpart -> Prop :=
| list_last P R : same_partition P R -> listing d [] [P] [] [R]
| list_next l lams P Ps f fs R Rs : same_partition P R -> within_of d f l -> listing d lams Ps fs Rs ->
    listing d (l :: lams) (P :: Ps) (f :: fs) (R :: Rs)
| list_again l lams P Ps f f' fs R R' Rs : listing d (l :: lams) (P :: Ps) (f :: fs) (R :: Rs) -> within_of d f' l ->
    listing d (l :: lams) (P :: Ps) (f' :: f :: fs) (R :: R' :: Rs).

Lemma listing_wd d lams Ps fs Rs : listing d lams Ps fs Rs -> forall lams' Ps', Forall2 Qeq lams' lams -> Forall2 same_partition Ps' Ps ->
  listing d lams' Ps' fs Rs.
Proof.
  induction 1 as [P R H|l lams P Ps f fs R Rs H1 H2 H3 IH|l lams P Ps f f' fs R R' Rs H1 IH H2]; intros lams' Ps' HL HP.
  - inversion HL; subst. inversion HP as [|P' ? ? ? HP1 HP2]; subst. inversion HP2; subst. constructor. eapply same_partition_trans; eauto.
  - inversion HL as [|l' ? lams'' ? L1 L2]; subst. inversion HP as [|P' ? Ps'' ? P1 P2]; subst. constructor; auto.
    + eapply same_partition_trans; eauto.
    + destruct H2 as (q & -> & Hq). exists q. split; auto. rewrite L1. exact Hq.
  - assert (K := IH lams' Ps' HL HP). inversion HL as [|l' ? lams'' ? L1 L2]; subst. inversion HP as [|P' ? Ps'' ? P1 P2]; subst.
    apply list_again; auto. destruct H2 as (q & -> & Hq). exists q. split; auto. rewrite L1. exact Hq.
Qed.

Lemma within_wd d x l l' : l == l' -> within_of d x l -> within_of d x l'.
Proof. intros H (q & -> & Hq). exists q. split; auto. rewrite <- H. exact Hq. Qed.

Lemma collapse_listing d : forall lams Rs fs R, length Rs = length lams -> Forall2 (within_of d) fs lams ->
  listing d (fst (collapse lams Rs)) (R :: snd (collapse lams Rs)) fs (R :: Rs).
Proof.
  induction lams as [|l lams IH]; intros Rs fs R HL HF.
  - destruct Rs; [|discriminate]. inversion HF. constructor. apply same_partition_refl.
  - destruct Rs as [|R' Rs]; [discriminate|]. inversion HF as [|f ? fs' ? F1 F2]; subst. injection HL as HL. destruct lams as [|l' lams].
    + destruct Rs; [|discriminate]. inversion F2; subst. cbn. constructor; [apply same_partition_refl|auto|]. constructor. apply same_partition_refl.
    + destruct Rs as [|R'' Rs]; [discriminate|].
      change (collapse (l :: l' :: lams) (R' :: R'' :: Rs)) with
        (if Qeq_bool l l' then collapse (l' :: lams) (R'' :: Rs)
         else (l :: fst (collapse (l' :: lams) (R'' :: Rs)), R' :: snd (collapse (l' :: lams) (R'' :: Rs)))).
      destruct (Qeq_bool l l') eqn:Ee.
      * apply Qeq_bool_eq in Ee. assert (K := IH (R'' :: Rs) fs' R HL F2).
        inversion F2 as [|f1 ? fs1 ? G1 G2]; subst.
        assert (C : exists a c b e, collapse (l' :: lams) (R'' :: Rs) = (a :: c, b :: e) /\ a == l').
        { clear -HL. revert l' R'' Rs HL. induction lams as [|m lams IH]; intros l' R'' Rs HL.
          - destruct Rs; [|discriminate]. exists l', [], R'', []. split; [reflexivity|lra].
          - destruct Rs as [|R3 Rs]; [discriminate|].
            change (collapse (l' :: m :: lams) (R'' :: R3 :: Rs)) with
              (if Qeq_bool l' m then collapse (m :: lams) (R3 :: Rs)
               else (l' :: fst (collapse (m :: lams) (R3 :: Rs)), R'' :: snd (collapse (m :: lams) (R3 :: Rs)))).
            destruct (Qeq_bool l' m) eqn:Em.
            + apply Qeq_bool_eq in Em. destruct (IH m R3 Rs ltac:(simpl in *; lia)) as (a & c & b & e & E1 & E2).
              exists a, c, b, e. split; auto. lra.
            + do 4 eexists. split; [reflexivity|lra]. }
        destruct C as (a & c & b & e & C1 & C2). rewrite C1 in *. cbn [fst snd] in *. apply list_again; auto.
        apply (within_wd d f l); auto. lra.
      * cbn [fst snd]. constructor; [apply same_partition_refl|auto|]. apply IH; auto.
Qed.

Lemma chain_len rel good : forall lams Ps lo P, seq_chain rel good lo P lams Ps -> length Ps = length lams.
Proof.
  induction lams as [|l lams IH]; intros [|P' Ps] lo P H; cbn [seq_chain] in H; try tauto; auto.
  simpl. f_equal. destruct H as (_ & _ & _ & _ & H). eauto.
Qed.

(** Every weak sequence lists the principal one. *)
Lemma weak_listing d E n lams Ps ls fs Rs : graph_on (seq 0 n) E -> IsPSP E (seq 0 n) lams Ps -> IsWeakPSP E (seq 0 n) ls Rs ->
  Forall2 (within_of d) fs ls -> listing d lams Ps fs Rs.
Proof.
  intros HE H W F. destruct Rs as [|R Rs]; [destruct W|].
  assert (L := proj2 (proj2 W)). apply chain_len in L. assert (C := collapse_psp _ _ _ _ _ W).
  destruct (psp_unique E (seq 0 n) (seq_NoDup n 0) HE _ _ _ _ H C) as [U1 U2].
  eapply listing_wd; [apply collapse_listing; eauto|exact U1|exact U2].
Qed.

Lemma within_weaken d d' fs ls : d <= d' -> Forall2 (within_of d) fs ls -> Forall2 (within_of d') fs ls.
Proof. intros H. induction 1; constructor; auto. destruct H0 as (q & -> & Hq). exists q. split; auto. lra. Qed.
Lemma within_fin d fs ls : Forall2 (fun f l => Qabs (f - l) <= d) fs ls -> Forall2 (within_of d) (map Fin fs) ls.
Proof. induction 1; cbn; constructor; auto. eexists. split; eauto. Qed.

Lemma side_smaller d n mc : SinkSideSpecR d n mc -> SinkSideSpec d n mc.
Proof. intros H nodes N HN HL HA. apply H; auto. lia. Qed.
Lemma approx_of_side d n mc : SinkSideSpec d n mc -> ApproxCutSpec d n mc.
Proof.
  intros H nodes N HN HL HA. destruct (H nodes N HN HL HA) as (A & B & C & _). apply Qabs_Qle_condition in B. split; auto. split; [lra|].
  intro Y. specialize (C Y). lra.
Qed.

(** For any arithmetic with relative error [u] and monotone operations, max flows with a value known up to [d] and an exact minimum cut, any
    order of iteration. *)
Theorem C95_methods_agree_floating_point : forall u o it ita itn mc mr sch d n E rw W eps il D,
  0 <= u -> std_model u o -> mono_ops2 o ->
  (forall F, graph_on (seq 0 n) F -> Permutation (it n F) F) -> (forall G, Permutation (ita G) G) -> (forall G, Permutation (itn G) G) ->
  0 <= d -> SinkSideSpecR d n mc -> SrcSideSpecR d n mr -> (2 <= n)%nat ->
  graph_on (seq 0 n) E -> simple E -> forward E -> rounds u rw E -> (forall a, In a E -> 0 < aw a) -> qsum aw E <= W -> 1 <= W ->
  2 * qn n * d + 960 * n4 n (u * W) < eps -> 2000 * n4 n eps <= 1 -> - (1#5) <= il <= - (1#20) ->
  multiples_of D E -> fine_tol D n (qn n * (65 * n4 n eps)) ->
  exists lams Ps, IsPSP E (seq 0 n) lams Ps /\
    forall m, In m ["dt"; "psp_i"; "pdt"; "pdt_r"] \/ m = "hpsp" /\ tie_free n E ->
      ((m = "pdt" \/ m = "pdt_r") /\ f_dispatch (mkFenv o it ita itn mc mr sch eps il) m (stored rw E) n = Throw) \/
      exists fs Rs, f_dispatch (mkFenv o it ita itn mc mr sch eps il) m (stored rw E) n = Ok (fs, Rs) /\
        listing (65 * n4 n eps) lams Ps fs Rs.
Proof.
  intros u o it ita itn mc mr sch d n E rw W eps il D Hu Ho Hm2 Hit Hita Hitn Hd Hmc Hmr Hn HE Hs Hf Hr Hp HW HW1 H1 H2 Hil HD Ht.
  assert (N2 : 2 <= qn n) by (change 2 with (qn 2); apply qn_le; lia).
  set (x := u * W) in *. assert (X0 : 0 <= x) by (unfold x; apply Qmult_le_0_compat; lra).
  assert (T : forall z, 0 <= z -> 0 <= qn n * z /\ 2 * z <= qn n * z).
  { intros z Hz. assert (0 <= (qn n - 2) * z) by (apply Qmult_le_0_compat; lra). split; lra. }
  destruct (T x X0) as [A1 B1]. destruct (T _ A1) as [A2 B2]. destruct (T _ A2) as [A3 B3]. destruct (T _ A3) as [A4 B4].
  assert (EX : n4 n x == qn n * (qn n * (qn n * (qn n * x)))) by reflexivity.
  destruct (T d Hd) as [Ad Bd].
  assert (e0 : 0 < eps) by lra.
  assert (NE1 : eps <= qn n * eps) by (apply ge1_mul; lra).
  assert (NE2 : qn n * eps <= qn n * (qn n * eps)) by (apply ge1_mul; lra).
  assert (NE3 : qn n * (qn n * eps) <= qn n * (qn n * (qn n * eps))) by (apply ge1_mul; lra).
  assert (NE4 : qn n * (qn n * (qn n * eps)) <= n4 n eps) by (rewrite n4_eq; apply ge1_mul; lra).
  assert (NE5 : 65 * n4 n eps <= qn n * (65 * n4 n eps)) by (apply ge1_mul; lra).
  assert (Ht2 : fine_tol D n (2 * eps)).
  { unfold fine_tol in *. set (DD := Zpos D # 1) in *. assert (HDD : 0 < DD) by reflexivity.
    assert (0 <= (qn n * (65 * n4 n eps) - 2 * eps) * DD * (qn n - 1)).
    { apply Qmult_le_0_compat; [apply Qmult_le_0_compat|]; lra. }
    lra. }
  assert (UW : u <= x) by (assert (0 <= u * (W - 1)) by (apply Qmult_le_0_compat; lra); unfold x; lra).
  assert (HEs : graph_on (seq 0 n) (stored rw E)) by (apply (rounds_on u); auto; lra).
  assert (Hs1 := side_smaller _ _ _ Hmc). assert (Ha := approx_of_side _ _ _ Hs1).
  destruct (C72_dt_floating_point u o (it n) mc d n E rw W eps D Hu Ho (Hit _ HEs) Hd Ha Hn HE Hs Hf Hr HW HW1 HD Ht2)
    as (f1 & l1 & P1 & R1 & K1 & _ & F1).
  { fold x. lra. }
  destruct P1 as [|P P1]; [destruct K1|]. assert (PS := collapse_psp _ _ _ _ _ K1).
  exists (fst (collapse l1 P1)), (P :: snd (collapse l1 P1)). split; [exact PS|].
  assert (G : forall b fs ls Rs, b <= 65 * n4 n eps -> IsWeakPSP E (seq 0 n) ls Rs -> Forall2 (within_of b) fs ls ->
    listing (65 * n4 n eps) (fst (collapse l1 P1)) (P :: snd (collapse l1 P1)) fs Rs).
  { intros b fs ls Rs Hb HK HF. apply (weak_listing _ E n _ _ ls); auto. apply (within_weaken b); auto. }
  intros m Hm. assert (Hc : m = "dt" \/ m = "psp_i" \/ m = "pdt" \/ m = "pdt_r" \/ m = "hpsp" /\ tie_free n E).
  { destruct Hm as [Hm|Hm]; [simpl in Hm; intuition|intuition]. }
  destruct Hc as [->|[->|[->|[->|[-> Htf]]]]]; cbn [f_dispatch String.eqb Ascii.eqb Bool.eqb fe_o fe_it fe_ita fe_itn fe_mc fe_mr fe_sch fe_eps fe_il].
  - right. exists f1, (P :: P1). split; [exact R1|]. eapply G; [|exact K1|exact F1]. fold x. lra.
  - right. destruct (C76_psp_i_floating_point u o (it n) mc d n E rw W eps D Hu Ho Hit Hd Ha Hn HE Hs Hf Hp Hr HW HW1 HD Ht2 H1)
      as (fs & ls & Rs & G' & R & K & _ & F).
    exists (map Fin fs), Rs. split; [rewrite R; reflexivity|]. eapply G; [|exact K|apply within_fin; exact F].
    fold x. unfold n3. lra.
  - destruct (C81_pdt_floating_point_exact u o (it n) itn mc d n E rw W eps il D Hu Ho (proj1 Hm2) (Hit _ HEs) Hitn ltac:(lra) Hs1 Hn HE Hs Hf Hr Hp HW HW1)
      as [R|(fs & ls & Rs & R & K & _ & F)]; auto.
    { fold x. lra. }
    right. exists fs, Rs. split; [exact R|]. eapply G; [|exact K|exact F]. lra.
  - destruct (C93_pdt_r_floating_point_exact u o (it n) ita itn mc mr sch d n E rw W eps il D Hu Ho Hm2 (Hit _ HEs) Hita Hitn ltac:(lra) Hmc Hmr Hn HE Hs Hf Hr Hp HW HW1)
      as [R|(fs & ls & Rs & R & K & _ & F)]; auto.
    { fold x. lra. }
    right. exists fs, Rs. split; [exact R|]. eapply G; [|exact K|exact F]. lra.
  - right. destruct (C78_hpsp_floating_point u o (it n) mc d n E rw W eps D Hu Ho Hit Hd Ha Hn HE Hs Hf Hp Hr HW HW1 HD Ht2 H1 Htf)
      as (fs & ls & Rs & Wv & Kv & G' & R & K & _ & F & _).
    exists (map Fin fs), Rs. split; [rewrite R; reflexivity|]. eapply G; [|exact K|apply within_fin; exact F].
    fold x. unfold n3. lra.
Qed.
Print Assumptions C95_methods_agree_floating_point.

(** Doubles, the constants of the library, LEMON's order of the arcs of a graph. *)
Definition env53 (ita : graph -> graph) (itn : network -> network) (mc mr : solver) (sch : nat -> list bool -> bool) : fenv :=
  mkFenv (binary 53) lemon_order ita itn mc mr sch eps53 il53.

Theorem C95_methods_agree_double : forall ita itn mc mr sch n E W D, MinSinkCutSpec mc -> MinSrcCutSpec mr ->
  (forall G, Permutation (ita G) G) -> (forall G, Permutation (itn G) G) -> (2 <= n)%nat ->
  graph_on (seq 0 n) E -> simple E -> forward E -> (forall a, In a E -> 0 < aw a) -> qsum aw E <= W -> 1 <= W ->
  960 * n4 n (u53 * W) < eps53 -> 2000 * n4 n eps53 <= 1 ->
  multiples_of D E -> fine_tol D n (qn n * (65 * n4 n eps53)) ->
  exists lams Ps, IsPSP E (seq 0 n) lams Ps /\
    forall m, In m ["dt"; "psp_i"; "pdt"; "pdt_r"] \/ m = "hpsp" /\ tie_free n E ->
      ((m = "pdt" \/ m = "pdt_r") /\ f_dispatch (env53 ita itn mc mr sch) m (stored rw53 E) n = Throw) \/
      exists fs Rs, f_dispatch (env53 ita itn mc mr sch) m (stored rw53 E) n = Ok (fs, Rs) /\
        listing (65 * n4 n eps53) lams Ps fs Rs.
Proof.
  intros ita itn mc mr sch n E W D Hmc Hmr Hita Hitn Hn HE Hs Hf Hp HW HW1 H1 H2 HD Ht.
  apply (C95_methods_agree_floating_point u53 (binary 53) lemon_order ita itn mc mr sch 0 n E rw53 W eps53 il53 D); auto.
  - vm_compute. discriminate.
  - apply binary_std.
  - apply binary_mono2. lia.
  - intros F HF. apply lemon_order_perm. exact HF.
  - lra.
  - apply sideR_of_exact. auto.
  - apply srcR_of_exact. auto.
  - apply rw53_rounds. exact (graph_on_nonneg _ _ HE).
  - lra.
  - split; vm_compute; discriminate.
Qed.
Print Assumptions C95_methods_agree_double.

(** So every method that returns lists every partition of the principal sequence, ... *)
Lemma listing_covers d lams Ps fs Rs : listing d lams Ps fs Rs -> forall P, In P Ps -> exists R, In R Rs /\ same_partition P R.
Proof.
  induction 1 as [P R H|l lams P Ps f fs R Rs H1 H2 H3 IH|l lams P Ps f f' fs R R' Rs H1 IH H2]; intros T HT.
  - destruct HT as [<-|[]]. exists R. split; [left; reflexivity|exact H].
  - destruct HT as [<-|HT]; [exists R; split; [left; reflexivity|exact H1]|].
    destruct (IH T HT) as (S & S1 & S2). exists S. split; [right; exact S1|exact S2].
  - destruct (IH T HT) as (S & [<-|S1] & S2); [exists R|exists S]; (split; [|exact S2]); [left; reflexivity|right; right; exact S1].
Qed.

Lemma listing_len d lams Ps fs Rs : listing d lams Ps fs Rs ->
  (length lams <= length fs)%nat /\ length Ps = S (length lams) /\ length Rs = S (length fs).
Proof. induction 1; simpl in *; lia. Qed.

(** ... and a method that lists no value twice lists nothing else. *)
Lemma listing_exact d lams Ps fs Rs : listing d lams Ps fs Rs -> length fs = length lams ->
  Forall2 (within_of d) fs lams /\ Forall2 same_partition Ps Rs.
Proof.
  induction 1 as [P R H|l lams P Ps f fs R Rs H1 H2 H3 IH|l lams P Ps f f' fs R R' Rs H1 IH H2]; intros HL.
  - split; [constructor|constructor; [exact H|constructor]].
  - destruct IH as [I1 I2]; [simpl in HL; lia|]. split; constructor; auto.
  - apply listing_len in H1. simpl in *. lia.
Qed.

Lemma within_pair d : forall fs gs lams, Forall2 (within_of d) fs lams -> Forall2 (within_of d) gs lams ->
  Forall2 (fun f g => exists p q, f = Fin p /\ g = Fin q /\ Qabs (p - q) <= 2 * d) fs gs.
Proof.
  intros fs gs lams H. revert gs. induction H as [|f l fs lams (p & -> & Hp) H IH]; intros gs HG; inversion HG as [|g ? gs' ? (q & -> & Hq) G]; subst; constructor; auto.
  exists p, q. split; auto. split; auto. apply Qabs_Qle_condition in Hp. apply Qabs_Qle_condition in Hq. apply Qabs_Qle_condition. lra.
Qed.

(** Two methods that return and list as many values as the principal sequence has agree: the same partitions in the same
    order, and values that differ by little. *)
Theorem C95_two_methods_double : forall ita itn mc mr sch n E W D m m' fs Rs fs' Rs' lams Ps, MinSinkCutSpec mc -> MinSrcCutSpec mr ->
  (forall G, Permutation (ita G) G) -> (forall G, Permutation (itn G) G) -> (2 <= n)%nat ->
  graph_on (seq 0 n) E -> simple E -> forward E -> (forall a, In a E -> 0 < aw a) -> qsum aw E <= W -> 1 <= W ->
  960 * n4 n (u53 * W) < eps53 -> 2000 * n4 n eps53 <= 1 ->
  multiples_of D E -> fine_tol D n (qn n * (65 * n4 n eps53)) ->
  (In m ["dt"; "psp_i"; "pdt"; "pdt_r"] \/ m = "hpsp" /\ tie_free n E) ->
  (In m' ["dt"; "psp_i"; "pdt"; "pdt_r"] \/ m' = "hpsp" /\ tie_free n E) ->
  f_dispatch (env53 ita itn mc mr sch) m (stored rw53 E) n = Ok (fs, Rs) ->
  f_dispatch (env53 ita itn mc mr sch) m' (stored rw53 E) n = Ok (fs', Rs') ->
  IsPSP E (seq 0 n) lams Ps ->
  (forall P, In P Ps -> (exists R, In R Rs /\ same_partition P R) /\ (exists R, In R Rs' /\ same_partition P R)) /\
  (length fs = length lams -> length fs' = length lams ->
   Forall2 same_partition Rs Rs' /\
   Forall2 (fun f g => exists p q, f = Fin p /\ g = Fin q /\ Qabs (p - q) <= 2 * (65 * n4 n eps53)) fs fs').
Proof.
  intros ita itn mc mr sch n E W D m m' fs Rs fs' Rs' lams Ps Hmc Hmr Hita Hitn Hn HE Hs Hf Hp HW HW1 H1 H2 HD Ht Hm Hm' R R' HK.
  destruct (C95_methods_agree_double ita itn mc mr sch n E W D Hmc Hmr Hita Hitn Hn HE Hs Hf Hp HW HW1 H1 H2 HD Ht) as (l0 & P0 & K & A).
  destruct (psp_unique E (seq 0 n) (seq_NoDup n 0) HE _ _ _ _ HK K) as [U1 U2].
  assert (B : forall m fs Rs, In m ["dt"; "psp_i"; "pdt"; "pdt_r"] \/ m = "hpsp" /\ tie_free n E ->
    f_dispatch (env53 ita itn mc mr sch) m (stored rw53 E) n = Ok (fs, Rs) -> listing (65 * n4 n eps53) lams Ps fs Rs).
  { clear - A U1 U2. intros m fs Rs Hm R. destruct (A m Hm) as [[_ T]|(fs1 & Rs1 & T & L)]; rewrite T in R; [discriminate R|].
    injection R as <- <-. exact (listing_wd _ _ _ _ _ L _ _ U1 U2). }
  assert (L := B _ _ _ Hm R). assert (L' := B _ _ _ Hm' R'). split.
  - intros P HP. split; [exact (listing_covers _ _ _ _ _ L P HP)|exact (listing_covers _ _ _ _ _ L' P HP)].
  - intros C C'. destruct (listing_exact _ _ _ _ _ L C) as [X Y]. destruct (listing_exact _ _ _ _ _ L' C') as [X' Y'].
    split; [|exact (within_pair _ _ _ _ X X')].
    clear - Y Y'. revert Rs' Y'. induction Y as [|P S Ps Rs Y1 Y2 IH]; intros Rs' Y'; inversion Y' as [|? S' ? Rs1 Z1 Z2]; subst; constructor; auto.
    eapply same_partition_trans; [apply same_partition_sym; exact Y1|exact Z1].
Qed.
Print Assumptions C95_two_methods_double.

(** Any other name of a method is answered by the exception of psp/psp.cpp:51. *)
Theorem C95_unknown_method_throws : forall v m E n, ~ In m ["dt"; "psp_i"; "pdt"; "pdt_r"; "hpsp"] -> f_dispatch v m E n = Throw.
Proof.
  intros v m E n H. unfold f_dispatch.
  repeat match goal with |- context [String.eqb m ?s] => destruct (String.eqb_spec m s) as [->|]; [exfalso; apply H; simpl; tauto|] end.
  reflexivity.
Qed.
Print Assumptions C95_unknown_method_throws.

Definition run53 (m : string) (E : graph) (n : nat) : res (list dbl * list cpart) :=
  f_dispatch (env53 (@rev arc) (@rev narc) aug_mincut (rev_solver aug_mincut) (fun _ _ => false)) m (stored rw53 E) n.
Lemma run53_eq m E n : run53 m E n =
  f_dispatch (env53 (@rev arc) (@rev narc) aug_mincut (rev_solver aug_mincut) (fun _ _ => false)) m (stored rw53 E) n.
Proof. reflexivity. Qed.

(** The graph [tri5], whose principal sequence has the values 1/20 and 3/10: all methods return, dt lists the two values, the
    others list 3/10 twice, as two neighbouring doubles, and pdt's and pdt_r's 1/20 is not the double nearest to it. *)
Example run_tri5_double :
  run53 "dt" tri5 5 = Ok ([Fin (3602879701896397 # 72057594037927936); Fin (5404319552844595 # 18014398509481984)],
    [[[0;1;2;3;4]]; [[0;1];[2;3;4]]; [[0];[1];[2];[3];[4]]]%nat) /\
  run53 "psp_i" tri5 5 =
    Ok ([Fin (3602879701896397 # 72057594037927936); Fin (5404319552844595 # 18014398509481984); Fin (1351079888211149 # 4503599627370496)],
    [[[0;1;2;3;4]]; [[0;1];[2;3;4]]; [[0];[1];[2;3;4]]; [[0];[1];[2];[3];[4]]]%nat) /\
  run53 "pdt" tri5 5 =
    Ok ([Fin (900719925474099 # 18014398509481984); Fin (5404319552844595 # 18014398509481984); Fin (1351079888211149 # 4503599627370496)],
    [[[0;1;2;3;4]]; [[0;1];[2;3;4]]; [[0];[1];[2;3;4]]; [[0];[1];[2];[3];[4]]]%nat) /\
  run53 "pdt_r" tri5 5 = run53 "pdt" tri5 5 /\ run53 "hpsp" tri5 5 = run53 "psp_i" tri5 5 /\
  run53 "agglo" tri5 5 = Throw.
Proof.
  split; [vm_compute; reflexivity|]. split; [vm_compute; reflexivity|]. split; [vm_compute; reflexivity|].
  split; [vm_compute; reflexivity|]. split; [vm_compute; reflexivity|]. vm_compute. reflexivity.
Qed.

Example C95_nonvacuous :
  MinSinkCutSpec aug_mincut /\ MinSrcCutSpec (rev_solver aug_mincut) /\ graph_on (seq 0 5) tri5 /\ simple tri5 /\ forward tri5 /\
  (forall a, In a tri5 -> 0 < aw a) /\ qsum aw tri5 <= 1 /\ 960 * n4 5 (u53 * 1) < eps53 /\ 2000 * n4 5 eps53 <= 1 /\
  multiples_of 20 tri5 /\ fine_tol 20 5 (qn 5 * (65 * n4 5 eps53)) /\ tie_free 5 tri5 /\
  listing (65 * n4 5 eps53) [1#20; 3#10] [[[0;1;2;3;4]]; [[0;1];[2;3;4]]; [[0];[1];[2];[3];[4]]]%nat
    [Fin (900719925474099 # 18014398509481984); Fin (5404319552844595 # 18014398509481984); Fin (1351079888211149 # 4503599627370496)]
    [[[0;1;2;3;4]]; [[0;1];[2;3;4]]; [[0];[1];[2;3;4]]; [[0];[1];[2];[3];[4]]]%nat.
Proof.
  destruct tri5_ok as (G & S & F & Po & M).
  split; [apply aug_mincut_spec|]. split; [exact (rev_solver_spec _ aug_mincut_spec)|]. split; auto. split; auto. split; auto. split; auto.
  split; [vm_compute; discriminate|]. split; [reflexivity|]. split; [vm_compute; discriminate|]. split; auto.
  split; [reflexivity|]. split; [apply tri5_tie_free|].
  assert (X : forall f l, Qabs (f - l) <= 65 * n4 5 eps53 -> within_of (65 * n4 5 eps53) (Fin f) l) by (intros f l H; exists f; auto).
  constructor; [apply same_partition_refl|apply X; vm_compute; discriminate|]. apply list_again; [|apply X; vm_compute; discriminate].
  constructor; [apply same_partition_refl|apply X; vm_compute; discriminate|]. constructor. apply same_partition_refl.
Qed.

(** Workers that find the right cut and report its value off by [e]: within the premises of the theorem for any arithmetic. *)
Definition off_by (e : Q) (mc : solver) : solver := fun nodes N => (fst (mc nodes N) + e, snd (mc nodes N)).
Lemma off_by_side e n mc : MinSinkCutSpec mc -> SinkSideSpecR (Qabs e) n (off_by e mc).
Proof.
  intros H nodes N HN HL HA. destruct (sideR_of_exact n mc H nodes N HN HL HA) as (A & B & C & K). unfold off_by. cbn [fst snd].
  split; auto. split; auto.
  setoid_replace (fst (mc nodes N) + e - cut N (mem (snd (mc nodes N)))) with (fst (mc nodes N) - cut N (mem (snd (mc nodes N))) + e) by ring.
  eapply Qle_trans; [apply Qabs_triangle|]. lra.
Qed.
Lemma off_by_src e n mr : MinSrcCutSpec mr -> SrcSideSpecR (Qabs e) n (off_by e mr).
Proof.
  intros H nodes N HN HL HA. destruct (srcR_of_exact n mr H nodes N HN HL HA) as (A & B & C & K). unfold off_by. cbn [fst snd].
  split; auto. split; auto.
  setoid_replace (fst (mr nodes N) + e - cut N (mem (snd (mr nodes N)))) with (fst (mr nodes N) - cut N (mem (snd (mr nodes N))) + e) by ring.
  eapply Qle_trans; [apply Qabs_triangle|]. lra.
Qed.
Example C95_inexact_nonvacuous :
  SinkSideSpecR (1#1000000000000) 5 (off_by (-1#1000000000000) aug_mincut) /\
  SrcSideSpecR (1#1000000000000) 5 (off_by (-1#1000000000000) (rev_solver aug_mincut)) /\
  std_model u53 (binary 53) /\ mono_ops2 (binary 53) /\ rounds u53 rw53 tri5 /\
  2 * qn 5 * (1#1000000000000) + 960 * n4 5 (u53 * 1) < eps53 /\ - (1#5) <= il53 <= - (1#20) /\
  f_dispatch (mkFenv (binary 53) lemon_order (fun G => G) (fun N => N) (off_by (-1#1000000000000) aug_mincut)
    (off_by (-1#1000000000000) (rev_solver aug_mincut)) (fun _ _ => true) eps53 il53) "psp_i" (stored rw53 tri5) 5 = run53 "psp_i" tri5 5.
Proof.
  split; [exact (off_by_side _ 5 _ aug_mincut_spec)|]. split; [exact (off_by_src _ 5 _ (rev_solver_spec _ aug_mincut_spec))|].
  split; [apply binary_std|]. split; [apply binary_mono2; lia|]. split; [apply rw53_rounds; exact (graph_on_nonneg _ _ (proj1 tri5_ok))|].
  split; [reflexivity|]. split; [split; vm_compute; discriminate|]. vm_compute. reflexivity.
Qed.

(** But two methods that return need not list equally many values. *)
Theorem C95_same_length_refuted :
  ~ (forall ita itn mc mr sch n E W D m m' fs Rs fs' Rs', MinSinkCutSpec mc -> MinSrcCutSpec mr ->
       (forall G, Permutation (ita G) G) -> (forall G, Permutation (itn G) G) -> (2 <= n)%nat ->
       graph_on (seq 0 n) E -> simple E -> forward E -> (forall a, In a E -> 0 < aw a) -> qsum aw E <= W -> 1 <= W ->
       960 * n4 n (u53 * W) < eps53 -> 2000 * n4 n eps53 <= 1 ->
       multiples_of D E -> fine_tol D n (qn n * (65 * n4 n eps53)) ->
       In m ["dt"; "psp_i"; "pdt"; "pdt_r"] -> In m' ["dt"; "psp_i"; "pdt"; "pdt_r"] ->
       f_dispatch (env53 ita itn mc mr sch) m (stored rw53 E) n = Ok (fs, Rs) ->
       f_dispatch (env53 ita itn mc mr sch) m' (stored rw53 E) n = Ok (fs', Rs') ->
       length fs = length fs').
Proof.
  intros H. destruct tri5_ok as (G & S & F & Po & M). destruct run_tri5_double as (R1 & R2 & _). rewrite run53_eq in R1, R2.
  assert (K := H (@rev arc) (@rev narc) aug_mincut (rev_solver aug_mincut) (fun _ _ => false) 5%nat tri5 1 20%positive "dt" "psp_i" _ _ _ _
    aug_mincut_spec (rev_solver_spec _ aug_mincut_spec)
    (fun G => Permutation_sym (Permutation_rev G)) (fun G => Permutation_sym (Permutation_rev G)) ltac:(lia) G S F Po
    ltac:(vm_compute; discriminate) ltac:(lra) ltac:(reflexivity) ltac:(vm_compute; discriminate) M ltac:(reflexivity)
    (or_introl eq_refl) (or_intror (or_introl eq_refl)) R1 R2). discriminate K.
Qed.
Print Assumptions C95_same_length_refuted.
