(** * CostBound: how many max flows the recursion of split makes. *)
From Coq Require Import Sorted.
From Verif Require Import Base Spec MSets SetsThy PartThy SubThy MaxFlow CutThy MDil DilThy
  SeqThy MDT DTThy MContract ContractThy MPSPI TreeThy DecThy PSPIThy PSPILoop MHPSP HPSPThy MCost CostThy.

Scheme rec_calls_mut := Minimality for rec_calls Sort Prop
  with parts_mut := Minimality for parts Sort Prop.
Combined Scheme rec_parts_ind from rec_calls_mut, parts_mut.

Lemma parts_length E eps L Ms tr : parts E eps L Ms tr ->
  length Ms = length L /\ (length L <= length (concat Ms))%nat.
Proof.
  induction 1; cbn [length concat]; auto; rewrite app_length; cbn [length]; lia.
Qed.

Lemma rec_calls_bound E eps :
  (forall X Bs tr, rec_calls E eps X Bs tr ->
     (2 <= length Bs)%nat /\ (2 * length tr + 6 <= length Bs * (length Bs + 1))%nat /\
     (3 <= length Bs -> length Bs <= length tr)%nat /\ forall x, In x tr -> (x < length Bs)%nat) /\
  (forall L Ms tr, parts E eps L Ms tr ->
     let a := (length (concat Ms) - length L)%nat in
     (length L <= length (concat Ms))%nat /\ (a = 0%nat -> tr = []) /\
     (1 <= a -> 2 * length tr + 4 <= a * a + 3 * a)%nat /\
     forall x, In x tr -> (x < length (concat Ms))%nat).
Proof.
  apply rec_parts_ind.
  - intros X Bs H. rewrite H. simpl. split; [lia|]. split; [lia|]. split; [lia|]. intros x [].
  - intros X Bs g L H _ _. rewrite seq_length. split; [lia|]. split; [nia|]. split; [lia|].
    intros x Hx. apply in_seq in Hx. lia.
  - intros X Bs g L Ms tr1 Bs' tr2 H3 (_ & HL & _) N1 N2 _ Hs Hp IHp Hperm _ IH.
    apply Permutation_length in Hperm. cbv zeta in IHp. rewrite Hs in IHp.
    destruct IHp as (A1 & A2 & A3 & A4). rewrite <- Hperm in IH. destruct IH as (B1 & B2 & B3 & B4).
    rewrite !app_length, seq_length. split; [lia|]. split; [|split; [lia|]].
    + assert (K : (1 <= length Bs - length L)%nat) by lia. specialize (A3 K).
      remember (length Bs - length L)%nat as a. assert (Ek : length Bs = (a + length L)%nat) by lia.
      rewrite Ek in *. nia.
    + intros x Hx. apply in_app_or in Hx. destruct Hx as [Hx|Hx]; [apply in_seq in Hx; lia|].
      apply in_app_or in Hx. destruct Hx as [Hx|Hx]; [auto|]. apply B4 in Hx. lia.
  - simpl. split; [lia|]. split; [auto|]. split; [lia|]. intros x [].
  - intros Y Ls Ms tr _ IH. cbv zeta in *. cbn [length concat app]. destruct IH as (A1 & A2 & A3 & A4).
    rewrite Nat.sub_succ. split; [lia|]. split; [auto|]. split; [auto|]. intros x Hx. apply A4 in Hx. lia.
  - intros Y M t Ls Ms tr _ H2 _ (B1 & B2 & B3 & B4) _ IH. cbv zeta in *. cbn [length concat].
    destruct IH as (A1 & A2 & A3 & A4). rewrite !app_length. split; [lia|]. split; [lia|]. split.
    + intros _. destruct (Nat.eq_dec (length (concat Ms) - length Ls) 0) as [Z|Z].
      * rewrite (A2 Z). simpl length. replace (length M + length (concat Ms) - S (length Ls))%nat with (length M - 1)%nat by lia.
        remember (length M - 1)%nat as b. assert (Eb : length M = S b) by lia. rewrite Eb in *. nia.
      * assert (K : (1 <= length (concat Ms) - length Ls)%nat) by lia. specialize (A3 K).
        remember (length (concat Ms) - length Ls)%nat as a.
        replace (length M + length (concat Ms) - S (length Ls))%nat with ((length M - 1) + a)%nat by lia.
        remember (length M - 1)%nat as b. assert (Eb : length M = S b) by lia. rewrite Eb in *. nia.
    + intros x Hx. apply in_app_or in Hx. destruct Hx as [Hx|Hx]; [apply B4 in Hx|apply A4 in Hx]; lia.
Qed.

(** ** Whole runs *)
Section Top.
  Variable mc : solver.
  Hypothesis Hmc : MinCutSpec mc.
  Variable eps : Q.
  Hypothesis Heps : 0 < eps.
  Variable E : graph.
  Variable n : nat.
  Hypothesis Hn : (2 <= n)%nat.
  Hypothesis HE : graph_on (seq 0 n) E.
  Hypothesis Hs : simple E.
  Hypothesis Hf : forward E.
  Hypothesis Hw : forall a, In a E -> eps <= aw a.

  Lemma gap_eps : forall X Ps R g,
    incl X (seq 0 n) -> NoDup X -> is_partition X Ps -> is_partition X R -> (2 <= length Ps)%nat ->
    g * (qn (length Ps) - 1) == crossing (sub E X) Ps ->
    - g - eps <= hval (sub E X) g R -> - g - eps <= hval (sub E X) g R.
  Proof. auto. Qed.

  Lemma start_sets_eq : map hset (start_trees n) = rev (singletons (seq 0 n)).
  Proof. unfold start_trees. rewrite map_rev, map_map. reflexivity. Qed.

  Theorem psp_run_calls r tr : psp_run_t mc eps E n = Ok (r, tr) ->
    rec_calls E eps (seq 0 n) (rev (singletons (seq 0 n))) tr.
  Proof.
    unfold psp_run_t.
    assert (HP := start_pre E n Hn HE Hs Hf eps Hw false eps).
    destruct (psp_split_cost (seq 0 n) E HE mc Hmc false ltac:(discriminate) eps Heps eps gap_eps
                (S n) (psp_init n E) 0 (fun x => x) (seq 0 n) (start_trees n) (total E + 1))
      as (st & p' & g & ts & tr' & R1 & _ & _ & _ & R2).
    { unfold start_trees. rewrite rev_length, map_length, seq_length. lia. }
    { exact HP. }
    { apply start_rep; auto. }
    { unfold psp_init. simpl. lia. }
    { reflexivity. }
    rewrite start_sets_eq in R2. rewrite R1. cbn [bind fst snd].
    destruct (pch st 0%nat) as [|a l]; [discriminate|].
    destruct (psp_loop _ _ _) as [x| | |]; cbn [bind]; intro H; try discriminate.
    injection H as _ H. subst. exact R2.
  Qed.

  Theorem hpsp_run_calls r tr : hpsp_run_t mc eps E n = Ok (r, tr) ->
    rec_calls E eps (seq 0 n) (rev (singletons (seq 0 n))) tr.
  Proof.
    unfold hpsp_run_t.
    assert (HP := start_pre E n Hn HE Hs Hf eps Hw false eps).
    set (st0 := mkH (mkG (seq 0 n) E) (fun _ => Fin 0) (fun _ => 0%nat)).
    destruct (hpsp_split_cost (seq 0 n) E HE mc Hmc false ltac:(discriminate) eps Heps eps gap_eps
                (S n) st0 0 (seq 0 n) (fun x => x) (seq 0 n) (start_trees n) (total E + 1))
      as (st & p' & g & ts & tr' & R1 & _ & _ & _ & _ & R2).
    { unfold start_trees. rewrite rev_length, map_length, seq_length. lia. }
    { exact HP. }
    { unfold start_trees. rewrite map_rev, <- Permutation_rev, map_map. unfold hrep. simpl.
      rewrite map_id. apply Permutation_refl. }
    { destruct n as [|k]; [lia|reflexivity]. }
    { intros t Ht. apply start_in in Ht. destruct Ht as (v & _ & ->). constructor; intros u []. }
    rewrite start_sets_eq in R2. unfold cdense. rewrite R1. cbn [bind fst snd].
    destruct (hpsp_loop _ _ _ _ _ _ _ _) as [x| | |]; cbn [bind]; intro H; try discriminate.
    injection H as _ H. subst. exact R2.
  Qed.
End Top.
