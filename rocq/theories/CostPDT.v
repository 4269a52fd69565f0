(** * CostPDT: how many max flows PDT and PDT_R make, and DT. *)
From Coq Require Import Sorted.
From Verif Require Import Base Spec MSets SetsThy PartThy SubThy MaxFlow CutThy MDil DilThy
  SeqThy MDT DTThy DTTop MContract MPSPI MHPSP MPMF MPMFR LThy SliceThy PDTThy PMFRThy MCost CostThy.

(** ** DT: as many truncations as there are critical values, and one for every split *)
Lemma isort_length {A} (ltb : A -> A -> bool) l : length (isort ltb l) = length l.
Proof. apply Permutation_length. apply isort_perm. Qed.

Lemma concat_repeat_app {A} (x : list A) a b : concat (repeat x a) ++ concat (repeat x b) = concat (repeat x (a + b)).
Proof. rewrite repeat_app, concat_app. reflexivity. Qed.

Lemma dt_split_trace mc eps E n : forall fuel Qp P ls Ps tr,
  dt_split_t fuel mc eps E n Qp P = Ok (ls, Ps, tr) ->
  (1 <= length ls)%nat /\ tr = concat (repeat (seq 0 n) (2 * length ls - 1)).
Proof.
  induction fuel as [|fuel IH]; intros Qp P ls Ps tr; [discriminate|]. cbn [dt_split_t].
  destruct (length P =? length Qp)%nat.
  { intro H. injection H as <- <- <-. cbn. rewrite app_nil_r. auto. }
  unfold dt_dil_run_t. destruct (existsb _ E); [discriminate|]. cbn [bind].
  rewrite dil_run_erase, seq_length. cbn [fst snd].
  destruct (_ || _ || _).
  { intro H. injection H as <- <- <-. cbn. rewrite app_nil_r. auto. }
  destruct (dt_split_t fuel mc eps E n Qp _) as [[[a1 a2] a3]| | |] eqn:Ha; cbn [bind]; try discriminate.
  destruct (dt_split_t fuel mc eps E n _ P) as [[[b1 b2] b3]| | |] eqn:Hb; cbn [bind]; try discriminate.
  intro H. injection H as <- <- <-. cbn [fst snd]. rewrite app_length.
  destruct (IH _ _ _ _ _ Ha) as [A1 ->]. destruct (IH _ _ _ _ _ Hb) as [B1 ->]. split; [lia|].
  rewrite concat_repeat_app. replace (seq 0 n) with (concat (repeat (seq 0 n) 1)) at 1 by (cbn; apply app_nil_r).
  rewrite concat_repeat_app. do 2 f_equal. lia.
Qed.

Lemma dt_run_trace mc eps E n ls Ps tr : dt_run_t mc eps E n = Ok (ls, Ps, tr) ->
  (1 <= length ls)%nat /\ tr = concat (repeat (seq 0 n) (2 * length ls - 1)).
Proof.
  unfold dt_run_t. destruct (dt_split_t _ _ _ _ _ _ _) as [[[a1 a2] a3]| | |] eqn:Ha; cbn [bind]; try discriminate.
  intro H. injection H as <- <- <-. rewrite isort_length. cbn [fst snd]. apply (dt_split_trace _ _ _ _ _ _ _ _ _ _ Ha).
Qed.

Lemma concat_repeat_length {A} (x : list A) k : length (concat (repeat x k)) = (k * length x)%nat.
Proof. induction k as [|k IH]; cbn; auto. rewrite app_length, IH. reflexivity. Qed.

(** ** One stage *)
Lemma pmf_slice_trace mc eps E n j y : forall fuel Tl Tr l1 l3 ls Ts tr,
  pmf_slice_t fuel mc eps E n j y Tl Tr l1 l3 = Ok (ls, Ts, tr) ->
  (length tr + 1 <= 2 * length ls <= 2 * length tr + 2)%nat /\ Forall (fun m => m = j) tr.
Proof.
  induction fuel as [|fuel IH]; intros Tl Tr l1 l3 ls Ts tr; [discriminate|]. cbn [pmf_slice_t].
  destruct (compute_lambda _ _ _) as [[l|]| | |]; cbn [bind]; try discriminate.
  2: { intro H. injection H as <- <- <-. cbn. split; [lia|constructor]. }
  destruct (_ || _). { intro H. injection H as <- <- <-. cbn. split; [lia|constructor]. }
  destruct (_ || _); [discriminate|].
  destruct (_ && _ && _). 2: { intro H. injection H as <- <- <-. cbn. split; [lia|repeat constructor]. }
  destruct (pmf_slice_t fuel _ _ _ _ _ _ Tl _ _ _) as [[[a1 a2] a3]| | |] eqn:Ha; cbn [bind]; try discriminate.
  destruct (pmf_slice_t fuel _ _ _ _ _ _ _ Tr _ _) as [[[b1 b2] b3]| | |] eqn:Hb; cbn [bind]; try discriminate.
  intro H. injection H as <- <- <-. cbn [fst snd length].
  destruct (IH _ _ _ _ _ _ _ Ha) as [A1 A2]. destruct (IH _ _ _ _ _ _ _ Hb) as [B1 B2].
  rewrite !app_length. split; [lia|]. constructor; auto. apply Forall_app. auto.
Qed.

Lemma pmf_run_trace mc eps E n j y ls Ts tr : pmf_run_t mc eps E n j y = Ok (ls, Ts, tr) ->
  (length tr <= 2 * length ls)%nat /\ Forall (fun m => (m < n)%nat) tr /\ (1 * length ls <= length tr)%nat /\ In j tr.
Proof.
  unfold pmf_run_t. destruct (j <? n)%nat eqn:Hj; [|discriminate]. apply Nat.ltb_lt in Hj.
  destruct (pmf_slice_t _ _ _ _ _ _ _ _ _ _ _) as [[[a1 a2] a3]| | |] eqn:Ha; cbn [bind]; try discriminate.
  intro H. injection H as <- <- <-. rewrite isort_length. cbn [fst snd length].
  destruct (pmf_slice_trace _ _ _ _ _ _ _ _ _ _ _ _ _ _ Ha) as [A1 A2]. split; [lia|]. split; [|split; [lia|left; auto]].
  constructor; auto. eapply Forall_impl; [|exact A2]. simpl. intros; subst; auto.
Qed.

Lemma kept_length j S T : (length (kept (Datatypes.S j) j (Datatypes.S (Datatypes.S j)) S T) <= j)%nat.
Proof.
  unfold kept. replace (Datatypes.S (Datatypes.S j)) with (j + 2)%nat by lia. rewrite seq_app, filter_app, app_length.
  cbn [seq filter]. rewrite !Nat.add_0_l, Nat.eqb_refl. cbn [negb andb].
  assert (N : (Datatypes.S j =? Datatypes.S j)%nat = true) by apply Nat.eqb_refl. rewrite N.
  rewrite ?andb_false_r. cbn [negb andb length]. rewrite ?andb_false_r. cbn [andb length].
  assert (K := filter_len (fun i => negb (i =? j)%nat && negb (i =? Datatypes.S j)%nat && negb (mem (erased (Datatypes.S j) j S T) i)) (seq 0 j)).
  rewrite seq_length in K. lia.
Qed.

Lemma pmfr_slice_trace mc mr sch eps E j y : forall fuel path nodes G base Tl Tr l1 l3 c ls Ts G' tr,
  (length nodes <= j)%nat ->
  pmfr_slice_t fuel mc mr sch path eps E j y nodes G base Tl Tr l1 l3 c = Ok (ls, Ts, G', tr) ->
  (length tr + 2 <= 4 * length ls <= 2 * length tr + 4)%nat /\ Forall (fun m => (m <= j)%nat) tr.
Proof.
  induction fuel as [|fuel IH]; intros path nodes G base Tl Tr l1 l3 c ls Ts G' tr Hn; [discriminate|].
  cbn [pmfr_slice_t].
  destruct (compute_lambda _ _ _) as [[l|]| | |]; cbn [bind]; try discriminate.
  2: { intro H. injection H as <- <- <- <-. cbn. split; [lia|constructor]. }
  destruct (_ || _). { intro H. injection H as <- <- <- <-. cbn. split; [lia|constructor]. }
  destruct (_ || _); [discriminate|].
  destruct (if c then MPMFR.contract eps (S j) j (S (S j)) (ccompl Tl (S (S j))) Tr G else Ok (nodes, G)) as [[nodes' G1]| | |] eqn:Hc;
    cbn [bind fst snd]; try discriminate.
  assert (Hn' : (length nodes' <= j)%nat).
  { destruct c.
    - unfold MPMFR.contract in Hc. destruct (_ && _ && _ && _ && _ && _); [|discriminate]. injection Hc as <- _. apply kept_length.
    - injection Hc as <- _. auto. }
  destruct (_ && _ && _). 2: { intro H. injection H as <- <- <- <-. cbn. split; [lia|repeat constructor; auto]. }
  destruct (pmfr_slice_t fuel mc mr sch (true :: path) _ _ _ _ _ _ _ _ _ _ _ _) as [[[[a1 a2] a3] a4]| | |] eqn:Ha; cbn [bind fst snd]; try discriminate.
  destruct (pmfr_slice_t fuel mc mr sch (false :: path) _ _ _ _ _ _ _ _ _ _ _ _) as [[[[b1 b2] b3] b4]| | |] eqn:Hb; cbn [bind fst snd]; try discriminate.
  intro H. injection H as <- <- <- <-. cbn [fst snd length].
  destruct (IH _ _ _ _ _ _ _ _ _ _ _ _ _ Hn' Ha) as [A1 A2]. destruct (IH _ _ _ _ _ _ _ _ _ _ _ _ _ Hn' Hb) as [B1 B2].
  rewrite !app_length. split; [lia|]. constructor; auto. constructor; auto. apply Forall_app. auto.
Qed.

Lemma pmfr_run_trace mc mr sch eps E n j y ls Ts tr : pmfr_run_t mc mr sch eps E n j y = Ok (ls, Ts, tr) ->
  (length tr <= 4 * length ls)%nat /\ Forall (fun m => (m < n)%nat) tr /\ (2 * length ls <= length tr)%nat /\ In j tr.
Proof.
  unfold pmfr_run_t. destruct (j <? n)%nat eqn:Hj; [|discriminate]. apply Nat.ltb_lt in Hj.
  destruct (pmfr_slice_t _ _ _ _ _ _ _ _ _ _ _ _ _ _ _ _ _) as [[[[a1 a2] a3] a4]| | |] eqn:Ha; cbn [bind]; try discriminate.
  intro H. injection H as <- <- <-. rewrite isort_length. cbn [fst snd length].
  assert (L0 : (length (seq 0 j) <= j)%nat) by (rewrite seq_length; lia).
  destruct (pmfr_slice_trace _ _ _ _ _ _ _ _ _ _ _ _ _ _ _ _ _ _ _ _ _ L0 Ha) as [A1 A2].
  split; [lia|]. split; [|split; [lia|left; auto]].
  constructor; auto. constructor; auto. eapply Forall_impl; [|exact A2]. simpl. intros; lia.
Qed.

(** ** The number of sets of a stage *)
Lemma cch_length E j y M rest : forall lo T Te hi, cch E j y M lo T rest Te hi -> Te <> [] ->
  (length rest + length Te <= length T)%nat.
Proof.
  induction rest as [|[l T'] r IH]; intros lo T Te hi H Ht; cbn [cch length] in *.
  - destruct H as [-> _]. lia.
  - destruct H as (_ & _ & _ & _ & H5 & _ & _ & _ & H9). specialize (IH _ _ _ _ H9 Ht). lia.
Qed.

Lemma stage_length E j y M T0 rest : lmin E j y init_lambda T0 -> cch E j y M init_lambda T0 rest [j] PInf ->
  (length rest <= j)%nat.
Proof.
  intros K1 HC. assert (L := cch_length _ _ _ _ _ _ _ _ _ HC ltac:(discriminate)).
  assert (incl T0 (seq 0 (S j))).
  { intros x Hx. assert (Wx := lm_win _ _ _ _ _ K1 x (proj2 (mem_In _ _) Hx)).
    apply in_seq. destruct Wx as [Wx|Wx]; [apply in_seq in Wx; lia|lia]. }
  assert (Ln := NoDup_incl_length (csorted_NoDup _ (lm_sorted _ _ _ _ _ K1)) H).
  rewrite seq_length in Ln. cbn [length] in L. lia.
Qed.

(** ** All stages *)
Definition guard (pm : nat -> list (Q * dbl) -> res (list dbl * list cset)) (j : nat) (y : list (Q * dbl))
  : res (list dbl * list cset) :=
  bind (pm j y) (fun r => if (length (fst r) <=? j)%nat then Ok r else Throw).

Lemma merge_stuck : forall fuel di p A dk t B out, dle di dk = false -> dle dk di = false ->
  pdt_merge fuel ((di, p) :: A) ((dk, t) :: B) out = OutOfFuel.
Proof.
  induction fuel as [|fuel IH]; intros di p A dk t B out H1 H2; [reflexivity|]. cbn [pdt_merge]. rewrite H1, H2. auto.
Qed.

Lemma merge_end fuel A B out r : A = [] \/ B = [] -> pdt_merge fuel A B out = Ok r -> length r = length out.
Proof.
  intros HE. destruct fuel as [|fuel]; [discriminate|]. cbn [pdt_merge].
  destruct HE as [->| ->]; [|destruct A as [|[? ?] A]]; intro H; injection H as <-; apply rev_length.
Qed.

Lemma merge_length : forall fuel A B out r, A <> [] -> B <> [] -> pdt_merge fuel A B out = Ok r ->
  (length r + 1 <= length out + length A + length B)%nat.
Proof.
  induction fuel as [|fuel IH]; intros A B out r HA HB; [discriminate|]. cbn [pdt_merge].
  destruct A as [|[di p] A]; [congruence|]. destruct B as [|[dk t] B]; [congruence|].
  set (out' := match out with [] => _ | _ :: _ => _ end).
  assert (Lo : (length out' <= S (length out))%nat).
  { unfold out'. destruct out as [|[d0 q] o]; [auto|]. destruct (peqb _ _); cbn [length]; lia. }
  clearbody out'. cbn [length].
  destruct (dle di dk) eqn:D1, (dle dk di) eqn:D2; intro H.
  - destruct A as [|a A]; [apply merge_end in H; auto; cbn [length]; lia|].
    destruct B as [|b B]; [apply merge_end in H; auto; cbn [length]; lia|].
    apply IH in H; [cbn [length] in H |- *; lia|discriminate|discriminate].
  - destruct A as [|a A]; [apply merge_end in H; auto; cbn [length]; lia|].
    apply IH in H; [cbn [length] in H |- *; lia|discriminate|discriminate].
  - destruct B as [|b B]; [apply merge_end in H; auto; cbn [length]; lia|].
    apply IH in H; [cbn [length] in H |- *; lia|discriminate|discriminate].
  - rewrite (merge_stuck fuel di p A dk t B) in H by auto. discriminate.
Qed.

Lemma merge_nonempty : forall fuel A B out r, out <> [] -> pdt_merge fuel A B out = Ok r -> r <> [].
Proof.
  induction fuel as [|fuel IH]; intros A B out r Ho; [discriminate|]. cbn [pdt_merge].
  assert (R : rev out <> []) by (intro C; apply (f_equal (@length _)) in C; rewrite rev_length in C; destruct out; [congruence|discriminate]).
  destruct A as [|[di p] A]; [intro H; injection H as <-; auto|].
  destruct B as [|[dk t] B]; [intro H; injection H as <-; auto|].
  apply IH. destruct out as [|[d0 q] o]; [discriminate|]. destruct (peqb _ _); discriminate.
Qed.

Section Stages.
  Variable pmt : nat -> list (Q * dbl) -> res (list dbl * list cset * trace).
  Let pm := fun j y => erase (pmt j y).
  Variable E : graph.
  Variables n c d : nat.
  Hypothesis Hc : forall j y ls Ts tr, pmt j y = Ok (ls, Ts, tr) ->
    (length tr <= c * length ls)%nat /\ Forall (fun m => (m < n)%nat) tr /\
    (d * length ls <= length tr)%nat /\ In j tr.

  Lemma guard_step st tr0 j st' : snd st <> [] -> pdt_step (guard pm) E n st j = Ok st' ->
    exists tr, pdt_step_t pmt E n (st, tr0) j = Ok (st', tr0 ++ tr) /\
      (length tr <= c * j)%nat /\ Forall (fun m => (m < n)%nat) tr /\
      snd st' <> [] /\ (d * length (snd st') <= d * length (snd st) + length tr)%nat /\ In j tr.
  Proof.
    intro Hne. unfold pdt_step_t, pdt_step, guard, pm. cbn [fst snd].
    destruct (pmt j (fst st)) as [[r tr]| | |] eqn:Hr; cbn [erase bind fst snd]; try discriminate.
    destruct (length (fst r) <=? j)%nat eqn:Hl; cbn [bind]; [|discriminate]. apply Nat.leb_le in Hl.
    intro H. exists tr. destruct r as [ls Ts]. destruct (Hc _ _ _ _ _ Hr) as (A1 & A2 & A3 & A4). cbn [fst snd] in *.
    destruct (mapr _ _) as [y'| | |]; cbn [bind] in *; try discriminate.
    destruct (_ =? _)%nat eqn:Hlen; [|discriminate]. apply Nat.eqb_eq in Hlen.
    remember (combine (ls ++ [PInf]) Ts) as B eqn:EB.
    assert (LB : length B = S (length ls)) by (rewrite EB, combine_length, app_length; cbn [length]; lia).
    destruct (pdt_merge _ _ _ _) as [o| | |] eqn:Hm; cbn [bind] in *; try discriminate. injection H as <-. cbn [snd].
    split; [reflexivity|]. split; [nia|]. split; [auto|].
    assert (HB : B <> []) by (intro C; rewrite C in LB; discriminate).
    split; [|split; auto].
    - destruct (snd st) as [|[d1 p1] A]; [congruence|]. destruct B as [|[d2 t2] B]; [congruence|].
      cbn [pdt_merge] in Hm. eapply merge_nonempty; [|exact Hm]. discriminate.
    - assert (L := merge_length _ _ _ _ _ Hne HB Hm). cbn [length] in L. nia.
  Qed.

  Lemma guard_fold : forall k s st tr0 st', snd st <> [] -> foldr (pdt_step (guard pm) E n) st (seq s k) = Ok st' ->
    exists tr, foldr (pdt_step_t pmt E n) (st, tr0) (seq s k) = Ok (st', tr0 ++ tr) /\
      (2 * length tr <= c * (k * (2 * s + k - 1)))%nat /\ Forall (fun m => (m < n)%nat) tr /\
      (d * length (snd st') <= d * length (snd st) + length tr)%nat /\
      forall j, (s <= j < s + k)%nat -> In j tr.
  Proof.
    induction k as [|k IH]; intros s st tr0 st' Hne; cbn [seq foldr].
    - intro H. injection H as <-. exists []. rewrite app_nil_r. split; auto. split; [simpl; lia|]. split; [constructor|].
      split; [simpl; lia|]. intros j Hj. lia.
    - destruct (pdt_step (guard pm) E n st s) as [st1| | |] eqn:H1; cbn [bind]; try discriminate. intro H2.
      destruct (guard_step st tr0 s st1 Hne H1) as (t1 & A1 & A2 & A3 & A4 & A5 & A6).
      destruct (IH (S s) st1 (tr0 ++ t1) st' A4 H2) as (t2 & B1 & B2 & B3 & B4 & B5).
      exists (t1 ++ t2). rewrite A1. cbn [bind]. rewrite app_assoc. split; [exact B1|]. rewrite app_length.
      split; [|split; [apply Forall_app; auto|split; [lia|]]].
      + assert (Z : (k * (2 * S s + k - 1) + 2 * s = S k * (2 * s + S k - 1))%nat) by nia. nia.
      + intros j Hj. apply in_or_app. destruct (Nat.eq_dec j s) as [->|N]; auto. right. apply B5. lia.
  Qed.

  Lemma guard_loop y cs Ps : pdt_loop (guard pm) E n [] = Ok (y, (cs, Ps)) ->
    exists tr, pdt_loop_t pmt E n = Ok (cs, Ps, tr) /\
      (2 * length tr <= c * (n * (n - 1)))%nat /\ Forall (fun m => (m < n)%nat) tr /\
      (d * length cs <= length tr)%nat /\ forall j, (1 <= j < n)%nat -> In j tr.
  Proof.
    unfold pdt_loop, pdt_loop_t. destruct (n =? 0)%nat eqn:N0; [discriminate|]. apply Nat.eqb_neq in N0.
    cbn [app length]. rewrite Nat.sub_0_r.
    destruct (foldr _ _ _) as [st| | |] eqn:Hf; cbn [bind]; try discriminate. intro H. injection H as _ <- <-.
    apply guard_fold with (tr0 := []) in Hf; [|discriminate]. destruct Hf as (tr & A1 & A2 & A3 & A4 & A5). cbn [app] in A1. exists tr.
    split; [exact (f_equal (fun z => bind z (fun x => Ok (removelast (map fst (snd (fst x))), map snd (snd (fst x)), snd x))) A1)|].
    split; [replace (n * (n - 1))%nat with ((n - 1) * (2 * 1 + (n - 1) - 1))%nat by nia; exact A2|].
    split; auto. split; [|intros j Hj; apply A5; lia]. cbn [snd length] in A4.
    assert (K : length (removelast (map fst (snd st))) = (length (snd st) - 1)%nat).
    { rewrite removelast_firstn_len, firstn_length, map_length. lia. }
    rewrite K. nia.
  Qed.
End Stages.

Section Totals.
  Variable mc : solver.
  Hypothesis Hmc : MinSinkCutSpec mc.
  Variable eps : Q.
  Hypothesis Heps : 0 < eps.
  Variable E : graph.
  Variable n : nat.
  Hypothesis Hn : (1 <= n)%nat.
  Hypothesis HE : graph_on (seq 0 n) E.
  Hypothesis Hs : simple E.
  Hypothesis Hf : forward E.
  Hypothesis Hw : forall a, In a E -> eps <= aw a.
  Variable D : positive.
  Hypothesis HD : multiples_of D E.
  Hypothesis HeM : 10 * eps * inject_Z (Zpos (gridM D n)) < 1.

  Theorem pdt_calls : exists cs Ps tr, pdt_run_t mc eps E n = Ok (map Fin cs, Ps, tr) /\
    IsPSP E (seq 0 n) cs Ps /\ (length cs <= length tr <= n * (n - 1))%nat /\ Forall (fun m => (m < n)%nat) tr /\
    forall j, (1 <= j < n)%nat -> In j tr.
  Proof.
    destruct (loop_correct eps Heps E n HE Hf D HD HeM (guard (fun j y => erase (pmf_run_t mc eps E n j y))))
      with (2 := Hn) as (y & cs & Ps & R1 & R2).
    { intros j y M Hj HyM Hy0 HfM HiM HeM' Hx.
      destruct (pmf_spec mc Hmc eps Heps E n HE Hs Hf Hw j y M Hj HyM Hy0 HfM HiM HeM' Hx) as (T0 & rest & A1 & A2 & A3 & A4).
      exists T0, rest. split; auto. unfold guard. rewrite <- pmf_run_erase, A1. cbn [bind fst]. rewrite map_length.
      assert (L := stage_length _ _ _ _ _ _ A2 A4). apply Nat.leb_le in L. rewrite L. reflexivity. }
    destruct (guard_loop (pmf_run_t mc eps E n) E n 2 1 (pmf_run_trace mc eps E n) y _ _ R1) as (tr & A1 & A2 & A3 & A4 & A5).
    rewrite map_length in A4.
    exists cs, Ps, tr. split; auto. split; auto. split; [lia|]. auto.
  Qed.

  Variable mr : solver.
  Hypothesis Hmr : MinSrcCutSpec mr.
  Variable sch : nat -> list bool -> bool.

  Theorem pdtr_calls : exists cs Ps tr, pdtr_run_t mc mr sch eps E n = Ok (map Fin cs, Ps, tr) /\
    IsPSP E (seq 0 n) cs Ps /\ (2 * length cs <= length tr <= 2 * (n * (n - 1)))%nat /\ Forall (fun m => (m < n)%nat) tr /\
    forall j, (1 <= j < n)%nat -> In j tr.
  Proof.
    destruct (loop_correct eps Heps E n HE Hf D HD HeM (guard (fun j y => erase (pmfr_run_t mc mr (sch j) eps E n j y))))
      with (2 := Hn) as (y & cs & Ps & R1 & R2).
    { intros j y M Hj HyM Hy0 HfM HiM HeM' Hx.
      destruct (pmfr_run_ok mc Hmc mr Hmr eps Heps E n j Hj HE Hs Hf Hw y M HyM Hy0 HfM HiM HeM' (sch j) Hx) as (T0 & rest & A1 & A2 & A3 & A4).
      exists T0, rest. split; auto. unfold guard. rewrite <- pmfr_run_erase, A1. cbn [bind fst]. rewrite map_length.
      assert (L := stage_length _ _ _ _ _ _ A2 A4). apply Nat.leb_le in L. rewrite L. reflexivity. }
    destruct (guard_loop (fun j y => pmfr_run_t mc mr (sch j) eps E n j y) E n 4 2
                (fun j => pmfr_run_trace mc mr (sch j) eps E n j) y _ _ R1) as (tr & A1 & A2 & A3 & A4 & A5).
    rewrite map_length in A4.
    exists cs, Ps, tr. split; auto. split; auto. split; [lia|]. auto.
  Qed.
End Totals.
