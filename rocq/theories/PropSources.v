(** * PropSources: the hypergraph entropy (C55) and mutual information (C56). *)
From Verif Require Import Base Graph Spec PartThy SubThy SeqThy MHC MAIC SFSpec MNBThy AICStep AggThy EntThy ExactMNB
  MSources SourcesThy.

(** ** C55 *)

(** A hypergraph on five nodes, and a matrix with negative entries. *)
Definition hyp_H : list hedge := [([0; 1; 2]%nat, 2); ([1; 3]%nat, 1); ([2; 3; 4]%nat, 1 # 2)].
Definition hyp_M : list (list Q) := [[-1; 2]; [3; -2]; [0; -4]].

(** operator(): the sum over the columns of the largest entry in the rows of B. *)
Theorem C55_value : forall k M B, B <> [] -> (forall b, In b B -> (b < length M)%nat) ->
  exists ms, sfv (hyp_sf k M) B = Ok (fold_left Qplus ms 0) /\
    Forall2 (fun c m => (exists b, In b B /\ nth c (nth b M []) 0 == m) /\
                        forall b, In b B -> nth c (nth b M []) 0 <= m) (seq 0 k) ms.
Proof. exact hyp_value. Qed.
Print Assumptions C55_value.

Example C55_case_value : sfv (hyp_sf 2 hyp_M) [0; 2]%nat = Ok 2 /\ sfv (hyp_sf 2 hyp_M) [2; 1; 0]%nat = Ok 5.
Proof. split; vm_compute; reflexivity. Qed.

(** With the incidence matrix of a hypergraph: the weight of the hyperedges with a node in B. *)
Theorem C55_touch : forall n H B, (forall e, In e H -> 0 <= snd e) -> B <> [] -> NoDup B -> (forall b, In b B -> (b < n)%nat) ->
  exists v, sfv (hyp_sf (length H) (incidence n H)) B = Ok v /\
    v == qsum (fun e => if existsb (mem (fst e)) B then snd e else 0) H.
Proof.
  intros n H B W HB NB HI. destruct (hyp_evaluates (length H) (incidence n H) B HB NB) as (v & V1 & V2).
  { cbn [hyp_sf sfn]. rewrite incidence_length. exact HI. }
  exists v. split; auto. rewrite V2. apply hyp_touch; auto.
Qed.
Print Assumptions C55_touch.

(** Submodular on sets that meet, whatever the entries. *)
Theorem C55_submodular : forall k M A B U I a b u i,
  (forall x, In x A -> (x < length M)%nat) -> (forall x, In x B -> (x < length M)%nat) ->
  NoDup A -> NoDup B -> NoDup U -> NoDup I -> I <> [] ->
  (forall x, In x U <-> In x A \/ In x B) -> (forall x, In x I <-> In x A /\ In x B) ->
  sfv (hyp_sf k M) A = Ok a -> sfv (hyp_sf k M) B = Ok b -> sfv (hyp_sf k M) U = Ok u -> sfv (hyp_sf k M) I = Ok i ->
  u + i <= a + b.
Proof.
  intros k M A B U I a b u i HA HB NA NB NU NI NE EU EI RA RB RU RI.
  assert (X : exists x, In x A /\ In x B /\ In x U).
  { destruct I as [|x I]; [congruence|]. exists x. assert (K := proj1 (EI x) (or_introl eq_refl)).
    split; [tauto|]. split; [tauto|]. apply EU. tauto. }
  destruct X as (x & XA & XB & XU).
  assert (V : forall C c, In x C \/ C = I -> NoDup C -> (forall y, In y C -> In y A \/ In y B) -> sfv (hyp_sf k M) C = Ok c ->
     c == hypF k M (mem C)).
  { intros C c HC NC IC RC. destruct (hyp_evaluates k M C) as (v & V1 & V2); auto.
    - destruct HC as [HC| ->]; [intros ->; destruct HC|auto].
    - intros y Hy. destruct (IC y Hy); [apply HA|apply HB]; auto.
    - rewrite RC in V1. injection V1 as ->. exact V2. }
  assert (VA := V A a (or_introl XA) NA (fun y Hy => or_introl Hy) RA).
  assert (VB := V B b (or_introl XB) NB (fun y Hy => or_intror Hy) RB).
  assert (VU := V U u (or_introl XU) NU (fun y Hy => proj1 (EU y) Hy) RU).
  assert (VI := V I i (or_intror eq_refl) NI (fun y Hy => or_introl (proj1 (proj1 (EI y) Hy))) RI).
  assert (K := hyp_submodular k M (mem A) (mem B)).
  rewrite (hyp_ground k M (mem U) (iunion (mem A) (mem B))) in VU.
  2:{ intros y _. unfold iunion. apply Bool.eq_true_iff_eq. rewrite orb_true_iff, !mem_In. apply EU. }
  rewrite (hyp_ground k M (mem I) (iinter (mem A) (mem B))) in VI.
  2:{ intros y _. unfold iinter. apply Bool.eq_true_iff_eq. rewrite andb_true_iff, !mem_In. apply EI. }
  lra.
Qed.
Print Assumptions C55_submodular.

Example C55_case_submodular :
  sfv (hyp_sf 2 hyp_M) [0; 1]%nat = Ok 5 /\ sfv (hyp_sf 2 hyp_M) [1; 2]%nat = Ok 1 /\
  sfv (hyp_sf 2 hyp_M) [0; 1; 2]%nat = Ok 5 /\ sfv (hyp_sf 2 hyp_M) [1]%nat = Ok 1.
Proof. repeat split; vm_compute; reflexivity. Qed.

(** The empty set: maxCoeff of a column without rows.  So edmonds_greedy and min_norm_base cannot be called with
    a HypergraphEntropy directly. *)
Theorem C55_empty_refuted : forall k M, (0 < k)%nat ->
  sfv (hyp_sf k M) [] = UB /\
  forall ord w, length w = length M -> edmonds_greedy ord (hyp_sf k M) w = UB.
Proof.
  intros k M Hk.
  assert (E : sfv (hyp_sf k M) [] = UB) by (destruct k; [lia|]; reflexivity).
  split; auto. intros ord w Hw. unfold edmonds_greedy. rewrite E. cbn [hyp_sf sfn]. rewrite Hw, Nat.eqb_refl. reflexivity.
Qed.
Print Assumptions C55_empty_refuted.

(** AIC never asks for the empty set and computes the principal sequence of the hypergraph. *)
Lemma agg_hypergraph : forall mnb tol D n H fuel,
  MinNormSpec mnb -> (forall e, In e H -> 0 <= snd e /\ exists z : Z, snd e == z # D) ->
  0 <= tol -> tol * (Zpos D # 1) * (qn (n - 1) * qn (n - 1)) < 1 -> (0 < n)%nat -> (n <= fuel)%nat ->
  exists lams Ps, agg_from fuel mnb tol (hyp_sf (length H) (incidence n H)) = Ok (lams, Ps) /\
    full_sequence Qlt (hoptimal H (seq 0 n)) (seq 0 n) lams Ps.
Proof.
  intros mnb tol D n H fuel Hm HH Ht Hft Hn Hfu.
  assert (W : forall e, In e H -> 0 <= snd e) by (intros e He; apply HH; auto).
  destruct (agg_any mnb tol (hyp_sf (length H) (incidence n H)) (hypF (length H) (incidence n H)) D fuel Hm) as (lams & Ps & A & B);
    cbn [hyp_sf sfn] in *; rewrite ?incidence_length in *; auto.
  - assert (K := hyp_ground (length H) (incidence n H)). rewrite incidence_length in K. exact K.
  - apply hyp_submodular.
  - apply hyp_evaluates.
  - apply hyp_onD; rewrite incidence_length; auto. intros i c Hi Hc. rewrite incidence_ent by auto.
    destruct (mem _ i); [apply HH, nth_In; auto|exists 0%Z; reflexivity].
  - exists lams, Ps. split; auto. eapply full_sequence_mono; [| |exact B]; auto. intros l P. apply hyp_popt. auto.
Qed.

Theorem C55_agg_hypergraph : forall mnb tol D n H fuel,
  MinNormSpec mnb -> (forall e, In e H -> 0 <= snd e /\ exists z : Z, snd e == z # D) ->
  0 <= tol -> tol * (Zpos D # 1) * (qn (n - 1) * qn (n - 1)) < 1 -> (0 < n)%nat -> (n <= fuel)%nat ->
  exists lams Ps, agg_from fuel mnb tol (hyp_sf (length H) (incidence n H)) = Ok (lams, Ps) /\
    full_sequence Qlt (hoptimal H (seq 0 n)) (seq 0 n) lams Ps.
Proof. exact agg_hypergraph. Qed.
Print Assumptions C55_agg_hypergraph.

Example C55_case_premises : (forall e, In e hyp_H -> 0 <= snd e /\ exists z : Z, snd e == z # 2) /\
  (1 # 1000000) * (2 # 1) * (qn (5 - 1) * qn (5 - 1)) < 1.
Proof.
  split; [|vm_compute; reflexivity]. intros e H. simpl in H.
  destruct H as [<-|[<-|[<-|[]]]]; (split; [vm_compute; discriminate|]);
    [exists 4%Z|exists 2%Z|exists 1%Z]; reflexivity.
Qed.
Example C55_case : agg_from 5 exact_mnb (1 # 1000000) (hyp_sf 3 (incidence 5 hyp_H)) =
  Ok ([1 # 2; 3 # 2; 2], [[[0; 1; 2; 3; 4]]; [[0; 1; 2; 3]; [4]]; [[0; 1; 2]; [3]; [4]]; [[0]; [1]; [2]; [3]; [4]]]%nat).
Proof. vm_compute. reflexivity. Qed.

(** ** C56 *)

(** mutual_info of two disjoint sets is h(B) + h(C) - h(B u C); never negative for a normalised submodular
    function; symmetric; the two-node version agrees. *)
Theorem C56_mutual_info : forall f F B C, evaluates f F -> ground (sfn f) F -> B <> [] -> C <> [] -> NoDup (B ++ C) ->
  (forall b, In b (B ++ C) -> (b < sfn f)%nat) ->
  exists v w, mutual_info f B C = Ok v /\ mutual_info f C B = Ok w /\ v == w /\
    v == F (mem B) + F (mem C) - F (fun i => mem B i || mem C i) /\
    (submodular F -> F none == 0 -> 0 <= v) /\
    (forall i j, B = [i] -> C = [j] -> mutual_info2 f i j = Ok v).
Proof.
  intros f F B C HF HG NB NC ND H.
  destruct (mutual_ok f F B C HF HG NB NC ND H) as (v & V1 & V2).
  assert (ND' : NoDup (C ++ B)) by (eapply Permutation_NoDup; [apply Permutation_app_comm|exact ND]).
  destruct (mutual_ok f F C B HF HG NC NB ND') as (w & W1 & W2).
  { intros b Hb. apply H. apply in_app_iff in Hb. apply in_app_iff. tauto. }
  exists v, w. split; auto. split; auto. split.
  { rewrite V2, W2, (HG (iunion (mem C) (mem B)) (iunion (mem B) (mem C))); [ring|]. intros i _. apply orb_comm. }
  split; [exact V2|]. split.
  - intros HS H0. rewrite V2. eapply mutual_nonneg; eauto. apply (NoDup_app_inv _ _ ND).
  - intros i j -> ->. rewrite <- V1. reflexivity.
Qed.
Print Assumptions C56_mutual_info.

(** For the entropy of a graph it is the weight of the arcs between the two sets. *)
Theorem C56_graph : forall n E B C, graph_on (seq 0 n) E -> forward E -> B <> [] -> C <> [] -> NoDup (B ++ C) ->
  (forall b, In b (B ++ C) -> (b < n)%nat) ->
  exists v, mutual_info (ent_sf n E) B C = Ok v /\
    v == qsum (fun a => if mem B (asrc a) && mem C (adst a) || mem C (asrc a) && mem B (adst a) then aw a else 0) E.
Proof.
  intros n E B C HE HW NB NC ND H.
  destruct (mutual_ok (ent_sf n E) (entF E) B C (computes_evaluates _ _ (ent_computes n E)) (ent_ground n E HE) NB NC ND H) as (v & V1 & V2).
  exists v. split; auto. rewrite V2. unfold entF, touch, doubled, iunion.
  rewrite <- !qsum_plus, <- qsum_minus. apply qsum_ext. intros a Ha.
  assert (K := HW a Ha). unfold ascending. apply Nat.ltb_lt in K. rewrite K. cbn [negb andb].
  destruct (NoDup_app_inv _ _ ND) as (_ & _ & DJ).
  assert (D : forall x, mem B x && mem C x = false).
  { intro x. apply andb_false_iff. destruct (mem B x) eqn:E1; auto. right. destruct (mem C x) eqn:E2; auto.
    apply mem_In in E1, E2. exfalso. eapply DJ; eauto. }
  assert (D1 := D (asrc a)). assert (D2 := D (adst a)).
  destruct (mem B (asrc a)), (mem C (asrc a)), (mem B (adst a)), (mem C (adst a)); cbn in D1, D2 |- *; try discriminate; ring.
Qed.
Print Assumptions C56_graph.

(** For the entropy of a hypergraph it is the weight of the hyperedges that meet both sets. *)
Theorem C56_hypergraph : forall n H B C, (forall e, In e H -> 0 <= snd e) -> B <> [] -> C <> [] -> NoDup (B ++ C) ->
  (forall b, In b (B ++ C) -> (b < n)%nat) ->
  exists v, mutual_info (hyp_sf (length H) (incidence n H)) B C = Ok v /\
    v == qsum (fun e => if existsb (mem (fst e)) B && existsb (mem (fst e)) C then snd e else 0) H.
Proof.
  intros n H B C W NB NC ND HI. destruct (NoDup_app_inv _ _ ND) as (N1 & N2 & DJ).
  unfold mutual_info.
  destruct (C55_touch n H B W NB N1) as (b & B1 & B2); [intros; apply HI, in_or_app; auto|].
  destruct (C55_touch n H C W NC N2) as (c & C1 & C2); [intros; apply HI, in_or_app; auto|].
  destruct (C55_touch n H (B ++ C) W) as (u & U1 & U2); auto; [destruct B; [congruence|discriminate]|].
  rewrite B1, C1, U1. cbn [bind]. eexists. split; [reflexivity|]. rewrite B2, C2, U2, <- qsum_plus, <- qsum_minus.
  apply qsum_ext. intros e He. rewrite existsb_app.
  destruct (existsb (mem (fst e)) B), (existsb (mem (fst e)) C); cbn [orb andb]; ring.
Qed.
Print Assumptions C56_hypergraph.

Definition mi_E : graph := [mkArc 0 1 2; mkArc 1 2 1; mkArc 0 3 (1 # 2); mkArc 2 3 4].
Example C56_case :
  graph_on (seq 0 4) mi_E /\ forward mi_E /\
  mutual_info (ent_sf 4 mi_E) [0; 2]%nat [1]%nat = Ok (12 # 4) /\
  mutual_info (hyp_sf 3 (incidence 5 hyp_H)) [0]%nat [2; 4]%nat = Ok (8 # 4).
Proof.
  split; [|split; [|split]]; try (vm_compute; reflexivity).
  - intros a H. simpl in H. repeat (destruct H as [<-|H]; [simpl; split; [tauto|]; split; [tauto|]; vm_compute; discriminate|]). destruct H.
  - intros a H. simpl in H. repeat (destruct H as [<-|H]; [simpl; lia|]). destruct H.
Qed.
