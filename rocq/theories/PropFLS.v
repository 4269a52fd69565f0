(** * PropFLS: the entropy of a finite linear source (IC/src/FLS.hpp): C60. *)
From Coq Require Import Znumtheory Qabs.
From Verif Require Import Base Graph Spec PartThy SubThy SeqThy MHC MAIC SFSpec MNBThy AICStep AggThy EntThy ExactMNB
  MFLS FieldThy FLSThy.

(** Four nodes over GF(3), three columns; node 2 has two rows, node 3 sees what 0 and 1 see together. *)
Definition fls_M : list emat :=
  [mkMat 3 [[1; 0; 0]]; mkMat 3 [[0; 1; 0]]; mkMat 3 [[1; 2; 0]; [0; 0; 1]]; mkMat 3 [[1; 1; 0]]].
Lemma fls_M_ok : fls_ok 3 fls_M.
Proof.
  intros m H. simpl in H.
  repeat (destruct H as [<-|H]; [split; [reflexivity|]; intros r Hr; simpl in Hr; repeat (destruct Hr as [<-|Hr]; [reflexivity|]); destruct Hr|]).
  destruct H.
Qed.

(** The solvers the theorems quantify over exist, for prime fields and for a field that is not. *)
Example C60_rank_exists : RankSpec (zp 2) (elim_rank (zp 2)) /\ RankSpec (zp 3) (elim_rank (zp 3)) /\ RankSpec gf4 (elim_rank gf4).
Proof.
  split; [|split]; apply elim_rank_spec; [apply zp_is_field, prime_2|apply zp_is_field, prime_3|apply gf4_is_field].
Qed.

Lemma observed_obs F Ms B x : observed F Ms B x = obs F (brows F Ms B) x.
Proof.
  unfold observed, obs, brows, mrows, frow. induction B as [|b B IH]; simpl; auto.
  rewrite map_app, map_map. f_equal. exact IH.
Qed.

(** ** operator() is the entropy of the source *)

(** With x uniform on all vectors over GF(q), every observation of B has probability 0 or q^-r, where
    the result is r times [lg] (= k log2 p): the entropy of the observation in bits. *)
Theorem C60_source : forall F rk lg c Ms B, is_field F -> RankSpec F rk -> fls_ok c Ms -> Ms <> [] ->
  (forall b, In b B -> (b < length Ms)%nat) ->
  exists r, sfv (fls_sf F rk lg Ms) B = Ok (lg * qn r) /\ (r <= c)%nat /\
    forall z, let k := length (filter (fun x => veqb F z (observed F Ms B x)) (vecs F c)) in
      k = 0%nat \/ (k * length (felts F) ^ r = length (vecs F c))%nat.
Proof.
  intros F rk lg c Ms B HF Hrk Hok Hne HB. destruct (fls_source F HF rk Hrk lg c Ms Hok Hne B HB) as (r & R1 & R2 & R3).
  exists r. split; auto. split; auto. intro z. cbv zeta. specialize (R3 z). unfold fibre in R3.
  erewrite filter_ext; [exact R3|]. intro x. cbv beta. rewrite observed_obs. reflexivity.
Qed.
Print Assumptions C60_source.

(** Nodes 0, 1 and 3 see two symbols; the observation 1, 1, 2 comes from 3 of the 27 sources, 1, 1, 1
    from none. *)
Example C60_case_source :
  sfv (fls_sf (zp 3) (elim_rank (zp 3)) (8 # 5) fls_M) [0; 1; 3]%nat = Ok ((8 # 5) * qn 2) /\
  (forall b, In b [0; 1; 3]%nat -> (b < length fls_M)%nat) /\
  map (fun z => length (filter (fun x => veqb (zp 3) z (observed (zp 3) fls_M [0; 1; 3]%nat x)) (vecs (zp 3) 3)))
    [map (fint (zp 3)) [1; 1; 2]%Z; map (fint (zp 3)) [1; 1; 1]%Z] = [3; 0]%nat.
Proof.
  split; [vm_compute; reflexivity|]. split; [|vm_compute; reflexivity].
  intros b H. simpl in *. lia.
Qed.

(** Entropy is 0 for no nodes, grows with the set, and is submodular. *)
Theorem C60_submodular : forall F rk lg c Ms A B U I a b u i, is_field F -> RankSpec F rk -> fls_ok c Ms -> 0 <= lg ->
  (forall x, In x A -> (x < length Ms)%nat) -> (forall x, In x B -> (x < length Ms)%nat) ->
  (forall x, In x U <-> In x A \/ In x B) -> (forall x, In x I <-> In x A /\ In x B) ->
  sfv (fls_sf F rk lg Ms) A = Ok a -> sfv (fls_sf F rk lg Ms) B = Ok b ->
  sfv (fls_sf F rk lg Ms) U = Ok u -> sfv (fls_sf F rk lg Ms) I = Ok i ->
  u + i <= a + b /\ a <= u /\ (A = [] -> a == 0).
Proof.
  intros F rk lg c Ms A B U I a b u i HF Hrk Hok Hlg HA HB EU EI RA RB RU RI.
  assert (Hne : Ms <> []) by (intros ->; discriminate RA).
  assert (HU : forall x, In x U -> (x < length Ms)%nat) by (intros x Hx; apply EU in Hx; destruct Hx; auto).
  assert (HI : forall x, In x I -> (x < length Ms)%nat) by (intros x Hx; apply EI in Hx; apply HA; tauto).
  rewrite (fls_value F rk lg c Ms Hok Hne) in RA, RB, RU, RI by auto.
  injection RA as <-. injection RB as <-. injection RU as <-. injection RI as <-.
  assert (M : (rk (brows F Ms A) <= rk (brows F Ms U))%nat).
  { apply (rk_mono F HF rk Hrk c Ms Hok); auto. intros x Hx. apply EU. auto. }
  assert (K : (rk (brows F Ms U) + rk (brows F Ms I) <= rk (brows F Ms A) + rk (brows F Ms B))%nat).
  { assert (L : forall X, (forall x, In x X -> (x < length Ms)%nat) -> forall v, In v (brows F Ms X) -> length v = c)
      by (intros X HX v; apply (brows_length F c Ms Hok); auto).
    apply (rank_sub F HF c (brows F Ms A) (brows F Ms B) (brows F Ms U) (brows F Ms I)); try (apply Hrk); try (apply L; assumption).
    - intro v. rewrite !brows_In. split.
      + intros (x & H1 & H2). apply EU in H1. destruct H1; [left|right]; exists x; auto.
      + intros [(x & H1 & H2)|(x & H1 & H2)]; exists x; split; auto; apply EU; auto.
    - intros v Hv. apply brows_In in Hv. destruct Hv as (x & H1 & H2). apply brows_In. exists x. split; auto. apply EI. auto.
    - intros v Hv. apply brows_In in Hv. destruct Hv as (x & H1 & H2). apply brows_In. exists x. split; auto. apply EI. auto. }
  assert (K' : qn (rk (brows F Ms U)) + qn (rk (brows F Ms I)) <= qn (rk (brows F Ms A)) + qn (rk (brows F Ms B))).
  { unfold qn. rewrite <- !inject_Z_plus, <- Zle_Qle. lia. }
  assert (M' : qn (rk (brows F Ms A)) <= qn (rk (brows F Ms U))) by (unfold qn; rewrite <- Zle_Qle; lia).
  assert (X1 := Qmult_le_compat_r _ _ lg K' Hlg). assert (X2 := Qmult_le_compat_r _ _ lg M' Hlg).
  split; [lra|]. split; [lra|]. intros ->. cbn [brows flat_map]. rewrite (rk_nil F HF rk Hrk c). unfold qn. simpl. ring.
Qed.
Print Assumptions C60_submodular.

Example C60_case_submodular :
  sfv (fls_sf (zp 3) (elim_rank (zp 3)) (8 # 5) fls_M) [0; 2]%nat = Ok ((8 # 5) * qn 3) /\
  sfv (fls_sf (zp 3) (elim_rank (zp 3)) (8 # 5) fls_M) [1; 2]%nat = Ok ((8 # 5) * qn 3) /\
  sfv (fls_sf (zp 3) (elim_rank (zp 3)) (8 # 5) fls_M) [0; 1; 2]%nat = Ok ((8 # 5) * qn 3) /\
  sfv (fls_sf (zp 3) (elim_rank (zp 3)) (8 # 5) fls_M) [2]%nat = Ok ((8 # 5) * qn 2).
Proof. repeat split; vm_compute; reflexivity. Qed.

(** ** AIC on a finite linear source *)

Lemma fls_onD F rk lg Ms D S : (exists z : Z, lg == z # D) -> exists z : Z, flsF F rk lg Ms S == z # D.
Proof.
  intros (z & Hz). unfold flsF. set (r := rk _). exists (z * Z.of_nat r)%Z. rewrite Hz.
  unfold qn, Qeq. simpl. lia.
Qed.

Lemma agg_fls : forall F rk lg c Ms G D mnb tol fuel, is_field F -> RankSpec F rk -> fls_ok c Ms -> Ms <> [] ->
  0 <= lg -> (exists z : Z, lg == z # D) ->
  ground (length Ms) G -> evaluates (fls_sf F rk lg Ms) G -> G none == 0 ->
  MinNormSpec mnb -> 0 <= tol -> tol * (Zpos D # 1) * (qn (length Ms - 1) * qn (length Ms - 1)) < 1 -> (length Ms <= fuel)%nat ->
  exists lams Ps, agg_from fuel mnb tol (fls_sf F rk lg Ms) = Ok (lams, Ps) /\
    full_sequence Qlt (popt G (seq 0 (length Ms))) (seq 0 (length Ms)) lams Ps.
Proof.
  intros F rk lg c Ms G D mnb tol fuel HF Hrk Hok Hne Hlg HD HG HV H0 Hm Ht Hft Hfu.
  assert (E := fls_same F HF rk Hrk lg c Ms Hok Hne G HG HV H0).
  assert (L0 : (0 < length Ms)%nat) by (destruct Ms; [congruence|simpl; lia]).
  apply (agg_any mnb tol (fls_sf F rk lg Ms) G D fuel Hm); auto.
  - intros A B. rewrite !E. apply (fls_submodular F HF rk Hrk lg c Ms Hok Hlg).
  - intro S. destruct (fls_onD F rk lg Ms D S HD) as (z & Hz). exists z. rewrite E. exact Hz.
Qed.

Theorem C60_agg_fls : forall F rk lg c Ms G D mnb tol fuel, is_field F -> RankSpec F rk -> fls_ok c Ms -> Ms <> [] ->
  0 <= lg -> (exists z : Z, lg == z # D) ->
  ground (length Ms) G -> evaluates (fls_sf F rk lg Ms) G -> G none == 0 ->
  MinNormSpec mnb -> 0 <= tol -> tol * (Zpos D # 1) * (qn (length Ms - 1) * qn (length Ms - 1)) < 1 -> (length Ms <= fuel)%nat ->
  exists lams Ps, agg_from fuel mnb tol (fls_sf F rk lg Ms) = Ok (lams, Ps) /\
    full_sequence Qlt (popt G (seq 0 (length Ms))) (seq 0 (length Ms)) lams Ps.
Proof. exact agg_fls. Qed.
Print Assumptions C60_agg_fls.

(** Six nodes over GF(4): a triangle of dependent symbols, two equal nodes, a free one. *)
Definition fls_N : list emat :=
  [mkMat 4 [[1; 0; 0; 0]]; mkMat 4 [[0; 1; 0; 0]]; mkMat 4 [[1; 1; 0; 0]]; mkMat 4 [[0; 0; 1; 0]]; mkMat 4 [[0; 0; 1; 0]]; mkMat 4 [[0; 0; 0; 1]]].
Example C60_case_agg :
  fls_ok 4 fls_N /\ (exists G, ground (length fls_N) G /\ evaluates (fls_sf gf4 (elim_rank gf4) 2 fls_N) G /\ G none == 0) /\
  (1 # 1000) * (1 # 1) * (qn (length fls_N - 1) * qn (length fls_N - 1)) < 1 /\
  agg_from 6 exact_mnb (1 # 1000) (fls_sf gf4 (elim_rank gf4) 2 fls_N) =
  Ok ([0; 1; 2], [[[0; 1; 2; 3; 4; 5]]; [[0; 1; 2]; [3; 4]; [5]]; [[0]; [1]; [2]; [3; 4]; [5]]; [[0]; [1]; [2]; [3]; [4]; [5]]]%nat).
Proof.
  assert (OK : fls_ok 4 fls_N).
  { intros m H. simpl in H.
    repeat (destruct H as [<-|H]; [split; [reflexivity|]; intros r Hr; simpl in Hr; repeat (destruct Hr as [<-|Hr]; [reflexivity|]); destruct Hr|]).
    destruct H. }
  assert (RS := elim_rank_spec gf4 gf4_is_field).
  split; [exact OK|]. split.
  { exists (flsF gf4 (elim_rank gf4) 2 fls_N). split; [apply fls_ground|]. split.
    - apply computes_evaluates. apply (fls_computes gf4 gf4_is_field _ RS 2 4 fls_N OK). discriminate.
    - apply (fls_none gf4 gf4_is_field _ RS 2 4). }
  split; vm_compute; reflexivity.
Qed.

(** ** Where operator() is undefined or not what the comments say *)

(** Without matrices operator() reads LinearMappings[0]; a matrix of another width is copied into a row
    that does not fit. *)
Theorem C60_undefined : forall F rk lg,
  (forall B, sfv (fls_sf F rk lg []) B = UB) /\
  (forall M0 Ms B b, In b B -> (b < length (M0 :: Ms))%nat ->
     erows (nth b (M0 :: Ms) (mkMat 0 [])) <> [] -> ecols (nth b (M0 :: Ms) (mkMat 0 [])) <> ecols M0 ->
     sfv (fls_sf F rk lg (M0 :: Ms)) B = UB).
Proof.
  intros F rk lg. split; [reflexivity|]. intros M0 Ms B b Hb Hl Hr Hc. cbn [fls_sf sfv].
  destruct (forallb (fun b => b <? length (M0 :: Ms))%nat B); [|reflexivity].
  destruct (forallb _ (map _ B)) eqn:E; [|reflexivity]. exfalso. rewrite forallb_forall in E.
  specialize (E (nth b (M0 :: Ms) (mkMat 0 []))). destruct (erows _) as [|r0 rs] eqn:Er; [congruence|].
  apply Hc. apply Nat.eqb_eq. apply E. apply in_map_iff. exists b. auto.
Qed.
Print Assumptions C60_undefined.
Example C60_case_undefined :
  sfv (fls_sf (zp 3) (elim_rank (zp 3)) 1 [mkMat 2 [[1; 0]]; mkMat 3 [[1; 0; 0]]]) [0; 1]%nat = UB.
Proof. reflexivity. Qed.

(** The member is described as a matrix over the ring Z/mZ with entries 0..m-1 (IC/src/FLS.hpp:50).
    Read that way with m = p^k, the number of different observations need not be m^r: over GF(4) the
    entry 2 is 0. *)
Theorem C60_ring_refuted :
  ~ (forall F rk lg a r, is_field F -> RankSpec F rk -> (a < length (felts F))%nat ->
       sfv (fls_sf F rk lg [mkMat 1 [[qn a]]]) [0%nat] = Ok (lg * qn r) ->
       length (nodup Nat.eq_dec (map (fun x => (a * x) mod length (felts F))%nat (seq 0 (length (felts F))))) =
       (length (felts F) ^ r)%nat).
Proof.
  intro H. specialize (H gf4 (elim_rank gf4) 2 2%nat 0%nat gf4_is_field (elim_rank_spec gf4 gf4_is_field)).
  assert (K : 2%nat = 1%nat); [|discriminate K]. apply H; [simpl; lia|vm_compute; reflexivity].
Qed.
Print Assumptions C60_ring_refuted.

(** Entries between the integers are rounded towards 0. *)
Theorem C60_fractions_refuted :
  ~ (forall F rk lg a, is_field F -> RankSpec F rk -> ~ a == 0 -> Qabs.Qabs a < 1 ->
       sfv (fls_sf F rk lg [mkMat 1 [[a]]]) [0%nat] = Ok (lg * qn 1)).
Proof.
  intro H. specialize (H gf4 (elim_rank gf4) 2 (1 # 2) gf4_is_field (elim_rank_spec gf4 gf4_is_field)).
  assert (K : Ok (2 * qn 0) = Ok (2 * qn 1)); [|vm_compute in K; discriminate K].
  rewrite <- H; [vm_compute; reflexivity|intro C; vm_compute in C; discriminate C|vm_compute; reflexivity].
Qed.
Print Assumptions C60_fractions_refuted.

(** ** What an entry stands for *)
Section Entries.
  Variable F : ffield.
  Hypothesis HF : is_field F.
  Add Field Fentries : (f_laws F HF).
  Lemma iter_succ p : Pos.iter_op (fadd F) (Pos.succ p) (f1 F) = fadd F (f1 F) (Pos.iter_op (fadd F) p (f1 F)).
  Proof. apply Pos.iter_op_succ. intros. ring. Qed.
  Lemma fint_succ z : fint F (Z.succ z) = fadd F (fint F z) (f1 F).
  Proof.
    destruct z as [|p|p].
    - simpl. ring.
    - replace (Z.succ (Zpos p)) with (Zpos (Pos.succ p)) by lia. cbn [fint]. rewrite iter_succ. ring.
    - destruct (Pos.eq_dec p 1) as [->|N]; [cbn; ring|].
      replace (Z.succ (Zneg p)) with (Zneg (Pos.pred p)) by lia. cbn [fint].
      rewrite <- (Pos.succ_pred p N) at 2. rewrite iter_succ. ring.
  Qed.
  Lemma fint_pred z : fint F (Z.pred z) = fsub F (fint F z) (f1 F).
  Proof. rewrite <- (Z.succ_pred z) at 2. rewrite fint_succ. ring. Qed.
  Lemma fint_add b : forall a, fint F (a + b) = fadd F (fint F a) (fint F b).
  Proof.
    intro a. revert a. apply (Z.peano_ind (fun a => fint F (a + b) = fadd F (fint F a) (fint F b))).
    - simpl. ring.
    - intros z IH. rewrite Z.add_succ_l, !fint_succ, IH. ring.
    - intros z IH. rewrite Z.add_pred_l, !fint_pred, IH. ring.
  Qed.
  Lemma fint_mul b : forall a, fint F (a * b) = fmul F (fint F a) (fint F b).
  Proof.
    intro a. revert a. apply (Z.peano_ind (fun a => fint F (a * b) = fmul F (fint F a) (fint F b))).
    - simpl. ring.
    - intros z IH. rewrite Z.mul_succ_l, fint_add, fint_succ, IH. ring.
    - intros z IH. rewrite Z.mul_pred_l. unfold Z.sub. rewrite fint_add, IH, fint_pred.
      assert (E : fadd F (fint F (- b)) (fint F b) = f0 F) by (rewrite <- fint_add, Z.add_opp_diag_l; reflexivity).
      assert (E' : fint F (- b) = fopp F (fint F b)).
      { transitivity (fsub F (fadd F (fint F (- b)) (fint F b)) (fint F b)); [ring|rewrite E; ring]. }
      rewrite E'. ring.
  Qed.
End Entries.

(** The entry q enters as an integer multiple of 1 in the field; the integer is q without its fractional part. *)
Theorem C60_entries : forall F, is_field F ->
  (fint F 1 = f1 F /\ (forall a b, fint F (a + b) = fadd F (fint F a) (fint F b)) /\
   (forall a b, fint F (a * b) = fmul F (fint F a) (fint F b))) /\
  (forall q, (0 <= q -> inject_Z (trunc q) <= q /\ q < inject_Z (trunc q) + 1) /\
             (q <= 0 -> q <= inject_Z (trunc q) /\ inject_Z (trunc q) - 1 < q)).
Proof.
  intros F HF. split; [split; [reflexivity|split; intros; [apply fint_add|apply fint_mul]; auto]|].
  intros [n d]. unfold trunc, Qle, Qlt, Qminus, Qopp, Qplus, inject_Z. cbn [Qnum Qden]. rewrite !Z.mul_1_r. rewrite ?Z.mul_1_l.
  assert (E := Z.quot_rem' n (Zpos d)). split; intro H.
  - assert (B := Z.rem_bound_pos n (Zpos d) ltac:(lia) ltac:(lia)). rewrite ?Pos.mul_1_l, ?Z.mul_add_distr_r. split; nia.
  - assert (B := Z.rem_bound_pos_neg n (Zpos d) ltac:(lia) ltac:(lia)). split; nia.
Qed.
Print Assumptions C60_entries.
Example C60_ex_entries : trunc (-7 # 2) = (-3)%Z /\
  feqb (zp 5) (fint (zp 5) (-3)) (fint (zp 5) 2) = true /\ feqb (zp 5) (fint (zp 5) 2) (fint (zp 5) 3) = false.
Proof. vm_compute. auto. Qed.
