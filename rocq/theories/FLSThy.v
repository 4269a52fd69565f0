(** * FLSThy: the entropy of a finite linear source; the fields Z/p and GF(4). *)
From Coq Require Import Field_theory Ring_theory Znumtheory Eqdep_dec.
From Verif Require Import Base Graph Spec SubThy MAIC SFSpec MFLS FieldThy.

(** ** Z/p *)
Definition zp_in (p : positive) (z : Z) : bool := ((0 <=? z) && (z <? Zpos p))%Z.
Definition zp_t (p : positive) : Type := {z : Z | zp_in p z = true}.
Lemma zp_mod p z : zp_in p (z mod Zpos p) = true.
Proof.
  unfold zp_in. assert (K := Z.mod_pos_bound z (Zpos p) (Pos2Z.is_pos p)).
  apply andb_true_iff. rewrite Z.leb_le, Z.ltb_lt. lia.
Qed.
Definition zp_mk (p : positive) (z : Z) : zp_t p := exist _ (z mod Zpos p)%Z (zp_mod p z).
Definition zp_v {p} (x : zp_t p) : Z := proj1_sig x.
Definition zp_elts (p : positive) : list (zp_t p) := map (fun i => zp_mk p (Z.of_nat i)) (seq 0 (Pos.to_nat p)).
Definition zp_inv (p : positive) (x : zp_t p) : zp_t p :=
  match find (fun y => (zp_v x * zp_v y mod Zpos p =? 1)%Z) (zp_elts p) with
  | Some y => y
  | None => x
  end.
Definition zp (p : positive) : ffield := {|
  ft := zp_t p; f0 := zp_mk p 0; f1 := zp_mk p 1;
  fadd := fun x y => zp_mk p (zp_v x + zp_v y);
  fmul := fun x y => zp_mk p (zp_v x * zp_v y);
  fsub := fun x y => zp_mk p (zp_v x - zp_v y);
  fopp := fun x => zp_mk p (- zp_v x);
  fdiv := fun x y => zp_mk p (zp_v x * zp_v (zp_inv p y));
  finv := zp_inv p;
  feqb := fun x y => (zp_v x =? zp_v y)%Z;
  felts := zp_elts p |}.

Section Zp.
  Variable p : positive.
  Hypothesis Hp : prime (Zpos p).
  Notation mk := (zp_mk p).
  Lemma zp_eq (x y : zp_t p) : zp_v x = zp_v y -> x = y.
  Proof.
    destruct x as [x Hx], y as [y Hy]. unfold zp_v. simpl. intros ->. f_equal. apply UIP_dec. decide equality.
  Qed.
  Lemma zp_v_mk z : zp_v (mk z) = (z mod Zpos p)%Z.
  Proof. reflexivity. Qed.
  Lemma zp_small (x : zp_t p) : (0 <= zp_v x < Zpos p)%Z.
  Proof. destruct x as [x Hx]. unfold zp_v. simpl. unfold zp_in in Hx. apply andb_true_iff in Hx. rewrite Z.leb_le, Z.ltb_lt in Hx. lia. Qed.
  Lemma zp_mk_v (x : zp_t p) : mk (zp_v x) = x.
  Proof. apply zp_eq. rewrite zp_v_mk. apply Z.mod_small. apply zp_small. Qed.
  Lemma zp_mk_eq a b : (a mod Zpos p = b mod Zpos p)%Z -> mk a = mk b.
  Proof. intro H. apply zp_eq. exact H. Qed.
  Lemma zp_add a b : fadd (zp p) (mk a) (mk b) = mk (a + b).
  Proof. apply zp_mk_eq. rewrite !zp_v_mk. symmetry. apply Zplus_mod. Qed.
  Lemma zp_mul a b : fmul (zp p) (mk a) (mk b) = mk (a * b).
  Proof. apply zp_mk_eq. rewrite !zp_v_mk. symmetry. apply Zmult_mod. Qed.
  Lemma zp_sub a b : fsub (zp p) (mk a) (mk b) = mk (a - b).
  Proof. apply zp_mk_eq. rewrite !zp_v_mk. symmetry. apply Zminus_mod. Qed.
  Lemma zp_opp a : fopp (zp p) (mk a) = mk (- a).
  Proof. apply zp_mk_eq. rewrite zp_v_mk. replace (- (a mod Zpos p))%Z with (0 - a mod Zpos p)%Z by lia. rewrite Zminus_mod_idemp_r. reflexivity. Qed.

  Lemma zp_elts_all (x : zp_t p) : In x (zp_elts p).
  Proof.
    apply in_map_iff. exists (Z.to_nat (zp_v x)). assert (K := zp_small x). split.
    - rewrite Z2Nat.id by lia. apply zp_mk_v.
    - apply in_seq. lia.
  Qed.
  Lemma zp_elts_nodup : NoDup (zp_elts p).
  Proof.
    unfold zp_elts. assert (G : forall l, NoDup l -> (forall i, In i l -> (i < Pos.to_nat p)%nat) -> NoDup (map (fun i => mk (Z.of_nat i)) l)).
    { induction l as [|a l IH]; intros ND B; simpl; [constructor|]. inversion ND; subst. constructor.
      - intro C. apply in_map_iff in C. destruct C as (b & E & Hb). assert (K := f_equal zp_v E). rewrite !zp_v_mk in K.
        rewrite !Z.mod_small in K by (assert (K1 := B a (or_introl eq_refl)); assert (K2 := B b (or_intror Hb)); lia).
        apply Nat2Z.inj in K. subst b. auto.
      - apply IH; auto. intros i Hi. apply B. right. auto. }
    apply G; [apply seq_NoDup|]. intros i Hi. apply in_seq in Hi. lia.
  Qed.

  Lemma zp_inv_ok (x : zp_t p) : x <> mk 0 -> fmul (zp p) (zp_inv p x) x = mk 1.
  Proof.
    intro H. unfold zp_inv. destruct (find _ (zp_elts p)) as [y|] eqn:Ef.
    - apply find_some in Ef. destruct Ef as [_ E]. apply Z.eqb_eq in E. apply zp_eq. simpl. unfold zp_v. simpl.
      fold (zp_v x). fold (zp_v y). rewrite Z.mul_comm, E. symmetry. apply Z.mod_small. assert (K := prime_ge_2 _ Hp). lia.
    - exfalso.
      assert (R : rel_prime (zp_v x) (Zpos p)).
      { apply rel_prime_sym. apply prime_rel_prime; auto. intro D. apply H. apply zp_eq. rewrite zp_v_mk.
        rewrite Z.mod_0_l by lia. destruct D as [k D]. assert (K := zp_small x). assert (k = 0)%Z by nia. subst k. lia. }
      destruct (rel_prime_bezout _ _ R) as [u v E].
      assert (K := find_none _ _ Ef (mk u) (zp_elts_all (mk u))). apply Z.eqb_neq in K. apply K.
      rewrite zp_v_mk, Z.mul_mod_idemp_r by lia. replace (zp_v x * u)%Z with (1 + (- v) * Zpos p)%Z by lia.
      rewrite Z.mod_add by lia. apply Z.mod_small. assert (K1 := prime_ge_2 _ Hp). lia.
  Qed.

  Lemma zp_is_field : is_field (zp p).
  Proof.
    split.
    - constructor.
      + constructor; intros; cbn [f0 f1 zp].
        * rewrite <- (zp_mk_v x). rewrite zp_add. f_equal.
        * rewrite <- (zp_mk_v x), <- (zp_mk_v y). rewrite !zp_add. f_equal. lia.
        * rewrite <- (zp_mk_v x), <- (zp_mk_v y), <- (zp_mk_v z). rewrite !zp_add. f_equal. lia.
        * rewrite <- (zp_mk_v x). rewrite zp_mul. f_equal. lia.
        * rewrite <- (zp_mk_v x), <- (zp_mk_v y). rewrite !zp_mul. f_equal. lia.
        * rewrite <- (zp_mk_v x), <- (zp_mk_v y), <- (zp_mk_v z). rewrite !zp_mul. f_equal. lia.
        * rewrite <- (zp_mk_v x), <- (zp_mk_v y), <- (zp_mk_v z). rewrite !zp_add, !zp_mul, zp_add. f_equal. lia.
        * rewrite <- (zp_mk_v x), <- (zp_mk_v y). rewrite zp_sub, zp_opp, zp_add. f_equal.
        * rewrite <- (zp_mk_v x). rewrite zp_opp, zp_add. f_equal. lia.
      + cbn [f0 f1 zp]. intro E. apply (f_equal zp_v) in E. rewrite !zp_v_mk in E. assert (K := prime_ge_2 _ Hp).
        rewrite !Z.mod_small in E by lia. discriminate E.
      + intros x y. reflexivity.
      + intros x Hx. apply zp_inv_ok. exact Hx.
    - intros a b. cbn [feqb zp]. rewrite Z.eqb_eq. split; [apply zp_eq|congruence].
    - apply zp_elts_all.
    - apply zp_elts_nodup.
  Qed.
End Zp.

(** ** GF(4): a + b w with w^2 = w + 1 *)
Definition gf4 : ffield := {|
  ft := bool * bool; f0 := (false, false); f1 := (true, false);
  fadd := fun x y => (xorb (fst x) (fst y), xorb (snd x) (snd y));
  fmul := fun x y => (xorb (fst x && fst y) (snd x && snd y),
                      xorb (xorb (fst x && snd y) (snd x && fst y)) (snd x && snd y));
  fsub := fun x y => (xorb (fst x) (fst y), xorb (snd x) (snd y));
  fopp := fun x => x;
  fdiv := fun x y => let z := (xorb (fst y) (snd y), snd y) in
     (xorb (fst x && fst z) (snd x && snd z), xorb (xorb (fst x && snd z) (snd x && fst z)) (snd x && snd z));
  finv := fun y => (xorb (fst y) (snd y), snd y);
  feqb := fun x y => Bool.eqb (fst x) (fst y) && Bool.eqb (snd x) (snd y);
  felts := [(false, false); (true, false); (false, true); (true, true)] |}.
Lemma gf4_is_field : is_field gf4.
Proof.
  split.
  - constructor.
    + constructor; repeat intros [[|] [|]]; reflexivity.
    + discriminate.
    + intros [[|] [|]] [[|] [|]]; reflexivity.
    + intros [[|] [|]] H; try reflexivity. exfalso. apply H. reflexivity.
  - intros [[|] [|]] [[|] [|]]; simpl; split; intro H; try discriminate; auto.
  - intros [[|] [|]]; simpl; auto.
  - repeat constructor; simpl; intuition discriminate.
Qed.

(** ** The entropy *)
Section FLS.
  Variable F : ffield.
  Hypothesis HF : is_field F.
  Variable rk : list (list (ft F)) -> nat.
  Hypothesis Hrk : RankSpec F rk.
  Variable lg : Q.
  Variable c : nat.
  Variable Ms : list emat.
  Hypothesis Hok : fls_ok c Ms.
  Hypothesis Hne : Ms <> [].

  Definition frow (r : list Q) : list (ft F) := map (fun x => fint F (trunc x)) r.
  Definition mrows (b : nat) : list (list (ft F)) := map frow (erows (nth b Ms (mkMat 0 []))).
  Definition brows (B : list nat) : list (list (ft F)) := flat_map mrows B.
  Definition flsF (S : nset) : Q := lg * qn (rk (brows (filter S (seq 0 (length Ms))))).

  Lemma mrows_length b v : (b < length Ms)%nat -> In v (mrows b) -> length v = c.
  Proof.
    intros Hb Hv. apply in_map_iff in Hv. destruct Hv as (r & <- & Hr). unfold frow. rewrite map_length.
    eapply Hok; [|exact Hr]. apply nth_In. auto.
  Qed.
  Lemma brows_length B v : (forall b, In b B -> (b < length Ms)%nat) -> In v (brows B) -> length v = c.
  Proof. intros H Hv. apply in_flat_map in Hv. destruct Hv as (b & Hb & Hv). eapply mrows_length; eauto. Qed.

  Lemma fls_value B : (forall b, In b B -> (b < length Ms)%nat) ->
    sfv (fls_sf F rk lg Ms) B = Ok (lg * qn (rk (brows B))).
  Proof.
    intro H. cbn [fls_sf sfv].
    assert (K0 : forall m, hd_error Ms = Some m -> ecols m = c) by (intros m Hm; apply Hok; destruct Ms; [discriminate|injection Hm as <-; left; auto]).
    remember Ms as l eqn:El. destruct l as [|M0 l']; [congruence|]. rewrite El in *.
    assert (K1 : forallb (fun b => b <? length Ms)%nat B = true).
    { apply forallb_forall. intros b Hb. apply Nat.ltb_lt. auto. }
    rewrite K1.
    assert (K2 : forallb (fun m => match erows m with [] => true | _ => (ecols m =? ecols M0)%nat end)
       (map (fun b => nth b Ms (mkMat 0 [])) B) = true).
    { apply forallb_forall. intros m Hm. apply in_map_iff in Hm. destruct Hm as (b & <- & Hb).
      destruct (erows _); auto. apply Nat.eqb_eq. rewrite (K0 M0) by (rewrite <- El; reflexivity).
      apply Hok. apply nth_In. auto. }
    rewrite K2. do 3 f_equal. unfold grank. f_equal. unfold brows, mrows.
    induction B as [|b B IH]; simpl; auto. rewrite map_app. f_equal. apply IH.
    - intros x Hx. apply H. right. auto.
    - simpl in K1. apply andb_true_iff in K1. tauto.
    - simpl in K2. apply andb_true_iff in K2. tauto.
  Qed.

  Lemma brows_In B v : In v (brows B) <-> exists b, In b B /\ In v (mrows b).
  Proof. apply in_flat_map. Qed.

  Lemma rk_ext B B' : (forall b, In b B -> (b < length Ms)%nat) -> (forall b, In b B' <-> In b B) -> rk (brows B) = rk (brows B').
  Proof.
    intros H E.
    assert (LB : forall v, In v (brows B) -> length v = c) by (intros v; apply brows_length; auto).
    assert (LB' : forall v, In v (brows B') -> length v = c) by (intros v; apply brows_length; intros b Hb; apply H, E; auto).
    apply (rank_unique F HF c (brows B) (brows B')); auto.
    - intros v Hv. apply span_in; auto. apply brows_In in Hv. destruct Hv as (b & H1 & H2). apply brows_In. exists b. split; auto. apply E. auto.
    - intros v Hv. apply span_in; auto. apply brows_In in Hv. destruct Hv as (b & H1 & H2). apply brows_In. exists b. split; auto. apply E. auto.
  Qed.

  Lemma fls_computes : computes (fls_sf F rk lg Ms) flsF.
  Proof.
    intros B ND HB. cbn [fls_sf sfn] in HB. eexists. split; [apply fls_value; auto|].
    unfold flsF. rewrite (rk_ext B (filter (mem B) (seq 0 (length Ms)))); [reflexivity|auto|].
    intro b. rewrite filter_In, mem_In, in_seq. split; [tauto|]. intro Hb. specialize (HB b Hb). split; auto. lia.
  Qed.
  Lemma fls_ground : ground (length Ms) flsF.
  Proof.
    intros A B H. unfold flsF. replace (filter B (seq 0 (length Ms))) with (filter A (seq 0 (length Ms))); [reflexivity|].
    apply filter_ext_in. intros i Hi. apply in_seq in Hi. apply H. lia.
  Qed.
  Lemma fls_submodular : 0 <= lg -> submodular flsF.
  Proof.
    intros Hlg A B. unfold flsF.
    set (r := fun S => rk (brows (filter S (seq 0 (length Ms))))).
    assert (LR : forall S v, In v (brows (filter S (seq 0 (length Ms)))) -> length v = c).
    { intros S v. apply brows_length. intros b Hb. apply filter_In in Hb. destruct Hb as [Hb _]. apply in_seq in Hb. lia. }
    assert (K : (r (iunion A B) + r (iinter A B) <= r A + r B)%nat).
    { unfold r. eapply (rank_sub F HF c (brows (filter A (seq 0 (length Ms)))) (brows (filter B (seq 0 (length Ms))))
        (brows (filter (iunion A B) (seq 0 (length Ms)))) (brows (filter (iinter A B) (seq 0 (length Ms))))); try apply Hrk; try apply LR.
      - intro v. rewrite !brows_In. unfold iunion. split.
        + intros (b & Hb & Hv). apply filter_In in Hb. destruct Hb as [H1 H2]. apply orb_true_iff in H2.
          destruct H2; [left|right]; exists b; rewrite filter_In; auto.
        + intros [(b & Hb & Hv)|(b & Hb & Hv)]; apply filter_In in Hb; destruct Hb as [H1 H2]; exists b; rewrite filter_In;
            split; auto; split; auto; rewrite H2; auto. apply orb_true_r.
      - intros v Hv. apply brows_In in Hv. destruct Hv as (b & Hb & Hv). apply filter_In in Hb. destruct Hb as [H1 H2].
        unfold iinter in H2. apply andb_true_iff in H2. apply brows_In. exists b. rewrite filter_In. tauto.
      - intros v Hv. apply brows_In in Hv. destruct Hv as (b & Hb & Hv). apply filter_In in Hb. destruct Hb as [H1 H2].
        unfold iinter in H2. apply andb_true_iff in H2. apply brows_In. exists b. rewrite filter_In. tauto. }
    fold (r (iunion A B)) (r (iinter A B)) (r A) (r B).
    assert (K' : qn (r (iunion A B)) + qn (r (iinter A B)) <= qn (r A) + qn (r B)).
    { unfold qn. rewrite <- !inject_Z_plus, <- Zle_Qle. lia. }
    assert (M : lg * (qn (r (iunion A B)) + qn (r (iinter A B))) <= lg * (qn (r A) + qn (r B))).
    { rewrite !(Qmult_comm lg). apply Qmult_le_compat_r; auto. }
    lra.
  Qed.
  Lemma rk_nil : rk [] = O.
  Proof.
    apply (rank_unique F HF c [] [] (rk []) O); auto; try (intros v []).
    - apply Hrk. intros v [].
    - exists []. repeat split; auto; intros v [].
  Qed.
  Lemma fls_none : flsF none == 0.
  Proof.
    unfold flsF. replace (filter none (seq 0 (length Ms))) with (@nil nat); [simpl; rewrite rk_nil; unfold qn; simpl; ring|].
    unfold none. induction (seq 0 (length Ms)); auto.
  Qed.
  Lemma rk_mono B B' : (forall b, In b B' -> (b < length Ms)%nat) -> incl B B' -> (rk (brows B) <= rk (brows B'))%nat.
  Proof.
    intros H I. apply (rank_mono F HF c (brows B) (brows B')); try (apply Hrk);
      try (intros v; apply brows_length; auto).
    intros v Hv. apply brows_In in Hv. destruct Hv as (b & H1 & H2). apply brows_In. exists b. auto.
  Qed.

  (** Any set function with the values of the object. *)
  Lemma fls_same G : ground (length Ms) G -> evaluates (fls_sf F rk lg Ms) G -> G none == 0 -> forall S, G S == flsF S.
  Proof.
    intros HG HV H0 S. set (B := filter S (seq 0 (length Ms))).
    assert (HB : forall b, In b B -> (b < length Ms)%nat).
    { intros b Hb. apply filter_In in Hb. destruct Hb as [Hb _]. apply in_seq in Hb. lia. }
    assert (EB : forall i, (i < length Ms)%nat -> S i = mem B i).
    { intros i Hi. apply Bool.eq_true_iff_eq. rewrite mem_In. unfold B. rewrite filter_In, in_seq. split; [split; auto; lia|tauto]. }
    destruct B as [|b0 B0] eqn:Eb.
    - rewrite (HG S none), H0; [|intros i Hi; rewrite (EB i Hi); reflexivity].
      rewrite (fls_ground S none); [symmetry; apply fls_none|intros i Hi; rewrite (EB i Hi); reflexivity].
    - rewrite (HG S (mem (b0 :: B0))), (fls_ground S (mem (b0 :: B0))) by auto.
      assert (ND : NoDup (b0 :: B0)) by (rewrite <- Eb; apply NoDup_filter, seq_NoDup).
      destruct (HV (b0 :: B0)) as (v & V1 & V2); auto; [discriminate|].
      destruct (fls_computes (b0 :: B0)) as (w & W1 & W2); auto. rewrite <- V2, <- W2. rewrite V1 in W1. injection W1 as ->. reflexivity.
  Qed.

  Lemma fls_source B : (forall b, In b B -> (b < length Ms)%nat) ->
    exists r, sfv (fls_sf F rk lg Ms) B = Ok (lg * qn r) /\ (r <= c)%nat /\
      forall z, length (fibre F c (brows B) z) = O \/
        (length (fibre F c (brows B) z) * length (felts F) ^ r = length (vecs F c))%nat.
  Proof.
    intro H. exists (rk (brows B)). split; [apply fls_value; auto|].
    destruct (rank_fibre F HF c (brows B) (rk (brows B))) as [L C]; [intros v; apply brows_length; auto|apply Hrk; intros v; apply brows_length; auto|].
    split; auto. intro z. destruct (C z) as [E|E]; [auto|right]. rewrite E, (vecs_count F), <- Nat.pow_add_r. f_equal. lia.
  Qed.
End FLS.
