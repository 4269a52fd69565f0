(** * PropWrap: the wrapper class PSP, main.cpp and io_utility.cpp: C24, C44, C45. *)
From Coq Require Import String.
From Verif Require Import Base Graph Spec MSets SetsThy MGraph MaxFlow BFThy MDil MDT DTTop PropDil PropDT MContract
  MHost HostThy MPSPI MHPSP PropPSPI PropHPSP MPMF PDTThy PropPDT MPMFR PMFRThy PropPDTR MWrap.
Open Scope string_scope.
Open Scope list_scope.
Notation length := List.length (only parsing).

(** ** Number of results *)
Lemma insert_length {A} (lt : A -> A -> bool) x l : length (insert lt x l) = S (length l).
Proof. induction l as [|y m IH]; simpl; auto. destruct (lt y x); simpl; auto. Qed.
Lemma isort_length {A} (lt : A -> A -> bool) l : length (isort lt l) = length l.
Proof.
  unfold isort. induction l as [|x l IH]; simpl; auto. rewrite insert_length. auto.
Qed.

Lemma host_split_len mc eps n : forall fuel G Qp P G' ls ps,
  host_split fuel mc eps G n Qp P = Ok (G', (ls, ps)) -> length ls = S (length ps).
Proof.
  induction fuel as [|fuel IH]; intros G Qp P G' ls ps H; [discriminate H|]. cbn [host_split] in H.
  destruct (length P =? length Qp)%nat; [injection H as <- <- <-; reflexivity|]. cbv zeta in H.
  destruct (host_dil_run mc (dt_gamma (garcs G) Qp P) G n) as [[G1 [mv P']]| | |]; cbn [bind fst snd] in H; try discriminate H.
  destruct (_ || _ || _); [injection H as <- <- <-; reflexivity|].
  destruct (host_split fuel mc eps G1 n Qp P') as [[G2 [l1 p1]]| | |] eqn:E1; cbn [bind fst snd] in H; try discriminate H.
  destruct (host_split fuel mc eps G2 n P' P) as [[G3 [l2 p2]]| | |] eqn:E2; cbn [bind fst snd] in H; try discriminate H.
  injection H as <- <- <-. apply IH in E1. apply IH in E2. cbn [List.length]. rewrite !app_length. lia.
Qed.

Lemma host_split_throw mc eps n : forall fuel G Qp P, host_split fuel mc eps G n Qp P <> Throw.
Proof.
  induction fuel as [|fuel IH]; intros G Qp P H; [discriminate H|]. cbn [host_split] in H.
  destruct (length P =? length Qp)%nat; [discriminate H|]. cbv zeta in H.
  unfold host_dil_run in H. destruct (existsb _ _); cbn [bind fst snd] in H; [discriminate H|]. cbv zeta in H.
  cbn [bind fst snd] in H. destruct (_ || _ || _); [discriminate H|].
  match type of H with bind ?e _ = _ => destruct e as [[G2 [l1 p1]]| | |] eqn:E1 end; cbn [bind fst snd] in H;
    try discriminate H; [|apply IH in E1; exact E1].
  match type of H with bind ?e _ = _ => destruct e as [[G3 [l2 p2]]| | |] eqn:E2 end; cbn [bind fst snd] in H;
    try discriminate H. apply IH in E2. exact E2.
Qed.

Lemma foldm_throw {A B} (f : B -> A -> res B) l : (forall b a, f b a <> Throw) -> forall b, foldm f l b <> Throw.
Proof.
  intro H. induction l as [|x l IH]; intros b; [discriminate|]. cbn [foldm].
  destruct (f b x) eqn:E; cbn [bind]; try discriminate; [apply IH|]. exfalso. apply (H b x E).
Qed.

Lemma psp_split_throw mc eps : forall fuel st i, psp_split fuel mc eps st i <> Throw.
Proof.
  induction fuel as [|fuel IH]; intros st i; [discriminate|]. cbn [psp_split]. cbv zeta.
  destruct (negb _); [discriminate|]. destruct (length (pch st i)) as [|[|k]]; [discriminate|discriminate|].
  destruct (S (S k) =? 2)%nat; [discriminate|]. destruct (negb _); [discriminate|].
  match goal with |- bind ?e _ <> _ => destruct e eqn:E1 end; cbn [bind]; try discriminate; [apply IH|].
  exfalso. revert E1. apply foldm_throw. intros b S0. destruct (length S0 =? 1)%nat; [discriminate|].
  match goal with |- bind ?e _ <> _ => destruct e eqn:E1 end; cbn [bind]; try discriminate.
  exfalso. revert E1. apply IH.
Qed.

Lemma hpsp_split_throw mc eps : forall fuel st s ch, hpsp_split fuel mc eps st s ch <> Throw.
Proof.
  induction fuel as [|fuel IH]; intros st s ch; [discriminate|]. cbn [hpsp_split]. cbv zeta.
  destruct (length ch) as [|[|k]]; [discriminate|discriminate|].
  destruct (S (S k) =? 2)%nat; [discriminate|]. destruct (negb _); [discriminate|].
  match goal with |- bind ?e _ <> _ => destruct e eqn:E1 end; cbn [bind]; try discriminate; [apply IH|].
  exfalso. revert E1. apply foldm_throw. intros b S0. destruct (length S0 =? 1)%nat; [discriminate|].
  match goal with |- bind ?e _ <> _ => destruct e eqn:E1 end; cbn [bind]; try discriminate.
  exfalso. revert E1. apply IH.
Qed.

Lemma psp_loop_throw : forall fuel st q, psp_loop fuel st q <> Throw.
Proof.
  induction fuel as [|fuel IH]; intros st q; [discriminate|]. cbn [psp_loop]. destruct q as [|x0 q]; [discriminate|].
  cbv zeta. destruct (last (x0 :: q) x0) as [u [l| |]]; try discriminate.
  match goal with |- bind ?e _ <> _ => destruct e eqn:E1 end; cbn [bind]; try discriminate.
  exfalso. revert E1. apply IH.
Qed.

Lemma hpsp_loop_throw n W K : forall fuel C D cvs ps, hpsp_loop fuel n W K C D cvs ps <> Throw.
Proof.
  induction fuel as [|fuel IH]; intros C D cvs ps; [discriminate|]. cbn [hpsp_loop].
  destruct (length C <=? 1)%nat; [discriminate|]. destruct (hpsp_merge n W K C D) as [[[C' D'] P] g]. apply IH.
Qed.

(** psp_i: a queue entry with a finite value has children. *)
Definition q_fine (st : pst) (q : list (nat * dbl)) : Prop :=
  forall u l, In (u, Fin l) q -> pch st u <> [].

Lemma q_insert_In x q y : In y (q_insert x q) <-> y = x \/ In y q.
Proof.
  induction q as [|z q IH]; simpl.
  - intuition.
  - destruct (dltb (snd z) (snd x)); simpl.
    + intuition.
    + rewrite IH. intuition.
Qed.

Lemma q_fold_In st cs q y : In y (fold_left (fun q c => q_insert (c, lam_of st c) q) cs q) <->
  In y q \/ exists c, In c cs /\ y = (c, lam_of st c).
Proof.
  revert q. induction cs as [|c cs IH]; intro q; simpl.
  - split; [auto|]. intros [H|(c & [] & _)]. exact H.
  - rewrite IH, q_insert_In. split.
    + intros [[->|H]|(c' & H & ->)]; auto; right; eauto.
    + intros [H|(c' & [<-|H] & ->)]; auto. right. eauto.
Qed.

Lemma last_In {A} (l : list A) x d : In (last (x :: l) d) (x :: l).
Proof.
  revert x. induction l as [|y l IH]; intro x; [left; reflexivity|].
  change (last (x :: y :: l) d) with (last (y :: l) d). right. apply IH.
Qed.

Lemma removelast_In {A} (l : list A) x : In x (removelast l) -> In x l.
Proof.
  induction l as [|y l IH]; simpl; [auto|]. destruct l as [|z l]; [intros []|].
  intros [->|H]; auto.
Qed.

Lemma psp_loop_len st : forall fuel q ls ps, q <> [] -> q_fine st q ->
  psp_loop fuel st q = Ok (ls, ps) -> length ps = S (length ls).
Proof.
  induction fuel as [|fuel IH]; intros q ls ps Hq Hf H; [discriminate H|]. cbn [psp_loop] in H.
  destruct q as [|x0 q]; [congruence|]. cbv zeta in H.
  destruct (last (x0 :: q) x0) as [u [l| |]] eqn:El.
  - match type of H with bind ?e _ = _ => destruct e as [[ls' ps']| | |] eqn:E1 end; cbn [bind fst snd] in H; try discriminate H.
    injection H as <- <-. cbn [List.length]. f_equal. eapply IH; [| |exact E1].
    + assert (Hu : pch st u <> []).
      { apply (Hf u l). rewrite <- El. apply last_In. }
      destruct (pch st u) as [|c cs] eqn:Ec; [congruence|]. intro K.
      assert (Hin : In (c, lam_of st c) []); [|destruct Hin].
      rewrite <- K. apply q_fold_In. right. exists c. split; [left; auto|auto].
    + intros u' l' Hin. apply q_fold_In in Hin. destruct Hin as [Hin|(c & Hc & K)].
      * apply (Hf u' l'). apply removelast_In. exact Hin.
      * injection K as -> K. unfold lam_of in K. intro C. rewrite C in K. discriminate K.
  - injection H as <- <-. reflexivity.
  - injection H as <- <-. reflexivity.
Qed.

Lemma hpsp_loop_len n W K : forall fuel C D cvs ps cvs' ps',
  hpsp_loop fuel n W K C D cvs ps = Ok (cvs', ps') -> (length ps' + length cvs = length cvs' + length ps)%nat.
Proof.
  induction fuel as [|fuel IH]; intros C D cvs ps cvs' ps' H; [discriminate H|]. cbn [hpsp_loop] in H.
  destruct (length C <=? 1)%nat; [injection H as <- <-; lia|].
  destruct (hpsp_merge n W K C D) as [[[C' D'] P] g]. apply IH in H. cbn [List.length] in H. lia.
Qed.

Lemma pdt_merge_nonempty : forall fuel A B out r, (out <> [] \/ (A <> [] /\ B <> [])) ->
  pdt_merge fuel A B out = Ok r -> r <> [].
Proof.
  induction fuel as [|fuel IH]; intros A B out r Ho H; [discriminate H|]. cbn [pdt_merge] in H.
  destruct A as [|[di p] A]; [|destruct B as [|[dk t] B]].
  - injection H as <-. destruct Ho as [Ho|[Ho _]]; [|congruence]. intro K. apply Ho.
    rewrite <- (rev_involutive out), K. reflexivity.
  - injection H as <-. destruct Ho as [Ho|[_ Ho]]; [|congruence]. intro K. apply Ho.
    rewrite <- (rev_involutive out), K. reflexivity.
  - cbv zeta in H. eapply IH; [|exact H]. left. destruct out as [|[d0 q] o]; [discriminate|].
    destruct (peqb (pexpand p t) q); discriminate.
Qed.

Lemma pdt_loop_len pm E n y0 y cvs Ps : pdt_loop pm E n y0 = Ok (y, (cvs, Ps)) -> length Ps = S (length cvs).
Proof.
  unfold pdt_loop. destruct (n =? 0)%nat; [discriminate|]. cbv zeta. intro H.
  match type of H with bind ?e _ = _ => destruct e as [st| | |] eqn:E1 end; cbn [bind] in H; try discriminate H.
  injection H as <- <- <-.
  assert (Hn : snd st <> []).
  { revert E1. generalize (seq 1 (n - 1)).
    assert (G0 : snd (y0 ++ repeat (0, PInf) (n - length y0), [(PInf, [[0%nat]])]) <> []) by discriminate.
    revert G0. generalize (y0 ++ repeat (0, PInf) (n - length y0), [(PInf, [[0%nat]])]).
    intros s0 Hs0 l. revert s0 Hs0. induction l as [|j l IH]; intros s0 Hs0 Hf.
    - injection Hf as <-. exact Hs0.
    - cbn [foldr] in Hf. destruct (pdt_step pm E n s0 j) as [s1| | |] eqn:E2; cbn [bind] in Hf; try discriminate Hf.
      apply (IH s1); auto. unfold pdt_step in E2.
      destruct (pm j (fst s0)) as [[lams sets]| | |]; cbn [bind fst snd] in E2; try discriminate E2. cbv zeta in E2.
      destruct (mapr _ _) as [y'| | |]; cbn [bind] in E2; try discriminate E2.
      destruct (length sets =? S (length lams))%nat eqn:El; [|discriminate E2]. apply Nat.eqb_eq in El.
      match type of E2 with bind ?e _ = _ => destruct e as [out| | |] eqn:E3 end; cbn [bind] in E2; try discriminate E2.
      injection E2 as <-. cbn [snd]. eapply pdt_merge_nonempty; [|exact E3]. right. split; [exact Hs0|].
      destruct sets as [|T sets]; [discriminate El|]. destruct lams; discriminate. }
  rewrite map_length. destruct (snd st) as [|x l]; [congruence|]. clear.
  revert x. induction l as [|z l IH]; intro x; [reflexivity|].
  cbn [map removelast List.length]. cbn [map List.length] in IH. f_equal. apply (IH z).
Qed.

Lemma dispatch_len v m G G' cvs Ps : dispatch v m G = Ok (G', (cvs, Ps)) -> length Ps = S (length cvs).
Proof.
  unfold dispatch. destruct (m =? "dt")%string; [|destruct (m =? "pdt")%string; [|destruct (m =? "pdt_r")%string;
    [|destruct (m =? "psp_i")%string; [|destruct (m =? "hpsp")%string; [|discriminate]]]]]; intro H.
  - unfold method_dt, host_dt_run in H. destruct (compact G); [|discriminate H]. cbv zeta in H.
    match type of H with bind ?e _ = _ => destruct e as [[G1 [ls ps]]| | |] eqn:E1 end; cbn [bind fst snd] in H; try discriminate H.
    injection H as <- <- <-. apply host_split_len in E1. rewrite !insert_length, !isort_length. lia.
  - unfold method_pdt, pdt_run, pdt_run_from in H. destruct (compact G); [|discriminate H].
    match type of H with bind (bind ?e _) _ = _ => destruct e as [[y r]| | |] eqn:E1 end; cbn [bind fst snd] in H; try discriminate H.
    injection H as <- ->. eapply pdt_loop_len. exact E1.
  - unfold method_pdt_r, pdtr_run in H. destruct (compact G); [|discriminate H].
    match type of H with bind (bind ?e _) _ = _ => destruct e as [[y r]| | |] eqn:E1 end; cbn [bind fst snd] in H; try discriminate H.
    injection H as <- ->. eapply pdt_loop_len. exact E1.
  - unfold method_psp_i, psp_run_on, psp_run_from in H. cbv zeta in H.
    match type of H with bind (bind ?e _) _ = _ => destruct e as [st| | |] eqn:E1 end; cbn [bind fst snd] in H; try discriminate H.
    destruct (pch st 0%nat) as [|a l] eqn:Ec; [discriminate H|].
    match type of H with bind (bind ?e _) _ = _ => destruct e as [[ls ps]| | |] eqn:E2 end; cbn [bind fst snd] in H; try discriminate H.
    cbn [o_graph o_cv o_psp] in H. injection H as <- <- <-. rewrite map_length.
    eapply psp_loop_len; [| |exact E2]; [discriminate|].
    intros u x [K|[]]. injection K as <- _. rewrite Ec. discriminate.
  - unfold method_hpsp, hpsp_run_on in H. cbv zeta in H.
    match type of H with bind (bind ?e _) _ = _ => destruct e as [st| | |] eqn:E1 end; cbn [bind fst snd] in H; try discriminate H.
    match type of H with bind (bind ?e _) _ = _ => destruct e as [[ls ps]| | |] eqn:E2 end; cbn [bind fst snd] in H; try discriminate H.
    cbn [ho_graph ho_cv ho_psp] in H. injection H as <- <- <-. apply hpsp_loop_len in E2. cbn [List.length] in E2.
    rewrite app_length. cbn [List.length]. lia.
Qed.

(** ** C45 *)
Lemma out_loop_spec : forall cvs P Ps, length Ps = length cvs ->
  exists r, out_loop cvs (P :: Ps) = Ok r /\ length r = (2 * length cvs)%nat /\
    forall i, nth_error r (2 * i) = option_map LVal (nth_error cvs i) /\
              nth_error r (S (2 * i)) = option_map LPart (nth_error Ps i).
Proof.
  induction cvs as [|x cvs IH]; intros P Ps Hl.
  - destruct Ps; [|discriminate Hl]. exists []. split; [reflexivity|]. split; [reflexivity|].
    intro i. destruct i; split; reflexivity.
  - destruct Ps as [|P' Ps]; [discriminate Hl|]. destruct (IH P' Ps) as (r & R1 & R2 & R3); [injection Hl; auto|].
    exists (LVal x :: LPart P' :: r). split.
    + cbn [out_loop tl]. rewrite R1. reflexivity.
    + split; [cbn [List.length]; lia|]. intros [|i]; [split; reflexivity|].
      replace (2 * S i)%nat with (S (S (2 * i))) by lia. cbn [nth_error]. apply R3.
Qed.

Lemma main_output_spec cvs Ps : length Ps = S (length cvs) ->
  exists r, main_output cvs Ps = Ok r /\ length r = S (2 * length cvs) /\
    forall i, nth_error r (2 * i) = option_map LPart (nth_error Ps i) /\
              nth_error r (S (2 * i)) = option_map LVal (nth_error cvs i).
Proof.
  destruct Ps as [|P Ps]; intro H; [discriminate H|]. destruct (out_loop_spec cvs P Ps) as (r & R1 & R2 & R3); [injection H; auto|].
  exists (LPart P :: r). split; [unfold main_output; rewrite R1; reflexivity|]. split; [cbn [List.length]; lia|].
  intro i. destruct i as [|i].
  - split; [reflexivity|]. cbn [nth_error Nat.mul]. apply (R3 0%nat).
  - assert (A := proj2 (R3 i)). assert (B := proj1 (R3 (S i))).
    replace (2 * S i)%nat with (S (S (2 * i))) in * by lia. split; [exact A|exact B].
Qed.

(** C45.  Whatever the graph and the solver: if the method returns, the file is written without
    reading past the end of the list of partitions; even lines are the partitions, odd lines the
    critical values, and the file starts and ends with a partition. *)
Theorem C45_output : forall v m G o,
  obj_run v (psp_ctor3 G) m = Ok o ->
  exists file, main_run v m G = Ok (Some file) /\
    length file = S (2 * length (ob_cv o)) /\ length (ob_psp o) = S (length (ob_cv o)) /\
    forall i, nth_error file (2 * i) = option_map LPart (nth_error (ob_psp o) i) /\
              nth_error file (S (2 * i)) = option_map LVal (nth_error (ob_cv o) i).
Proof.
  intros v m G o H. unfold obj_run in H. cbn [ob_g psp_ctor3] in H.
  destruct (dispatch v m G) as [[G' [cvs Ps]]| | |] eqn:E1; cbn [bind fst snd] in H; try discriminate H.
  injection H as <-. cbn [ob_cv ob_psp]. assert (L := dispatch_len _ _ _ _ _ _ E1).
  destruct (main_output_spec cvs Ps L) as (r & R1 & R2 & R3). exists r. split.
  - unfold main_run, obj_run. cbn [ob_g psp_ctor3]. rewrite E1. cbn [bind fst snd ob_cv ob_psp]. rewrite R1. cbn [bind].
    unfold dispatch in E1. destruct (m =? "dt")%string, (m =? "psp_i")%string, (m =? "pdt")%string, (m =? "pdt_r")%string,
      (m =? "agg_psp")%string, (m =? "hpsp")%string; try reflexivity; discriminate E1.
  - split; [exact R2|]. split; [exact L|exact R3].
Qed.
Print Assumptions C45_output.

(** "agg_psp" passes the check of main and is then refused by PSP::run: an uncaught exception.  Any
    other unknown name is answered with the help text. *)
Theorem C45_unknown_method : forall v m G,
  ~ In m ["dt"; "pdt"; "pdt_r"; "psp_i"; "hpsp"] ->
  main_run v m G = if (m =? "agg_psp")%string then Throw else Ok None.
Proof.
  intros v m G H. unfold main_run, obj_run, dispatch.
  assert (K : forall s, In s ["dt"; "pdt"; "pdt_r"; "psp_i"; "hpsp"] -> (m =? s)%string = false).
  { intros s Hs. apply String.eqb_neq. intros ->. contradiction. }
  rewrite (K "dt"), (K "pdt"), (K "pdt_r"), (K "psp_i"), (K "hpsp") by (simpl; auto 6). cbn [orb].
  destruct (m =? "agg_psp")%string; reflexivity.
Qed.
Print Assumptions C45_unknown_method.

(** ** C44 *)
(** The entries separated by ", ". *)
Fixpoint joined (xs : list Z) : list tok :=
  match xs with
  | [] => []
  | [x] => [TInt x]
  | x :: t => TInt x :: TStr ", " :: joined t
  end.

Lemma usize_pred_pos k : (1 <= k <= 18446744073709551616)%Z -> usize_pred k = (k - 1)%Z.
Proof. intro H. unfold usize_pred. apply Z.mod_small. lia. Qed.

Lemma print_loop_ok : forall xs i bound, xs <> [] -> (0 <= i)%Z -> bound = (i + Z.of_nat (length xs) - 1)%Z ->
  (bound <= 2147483647)%Z -> print_loop bound i xs = Ok (joined xs).
Proof.
  induction xs as [|x xs IH]; intros i bound Hx Hi Hb Hm; [congruence|]. cbn [print_loop].
  destruct xs as [|y xs].
  - cbn [List.length] in Hb. replace (i <? bound)%Z with false by (symmetry; apply Z.ltb_ge; lia). reflexivity.
  - cbn [List.length] in Hb.
    replace (i <? bound)%Z with true by (symmetry; apply Z.ltb_lt; lia).
    replace (i =? 2147483647)%Z with false by (symmetry; apply Z.eqb_neq; lia).
    rewrite (IH (i + 1)%Z bound); [reflexivity|discriminate|lia| |lia]. cbn [List.length]. lia.
Qed.

Lemma print_loop_ub : forall xs i bound, (0 <= i <= 2147483647)%Z -> (2147483647 < bound)%Z ->
  bound = (i + Z.of_nat (length xs) - 1)%Z -> print_loop bound i xs = UB.
Proof.
  induction xs as [|x xs IH]; intros i bound Hi Hm Hb; cbn [print_loop];
    replace (i <? bound)%Z with true by (symmetry; apply Z.ltb_lt; lia); [reflexivity|].
  destruct (i =? 2147483647)%Z eqn:E; [reflexivity|]. apply Z.eqb_neq in E.
  rewrite IH; [reflexivity|lia|lia|]. cbn [List.length] in Hb. lia.
Qed.

(** C44.  Vectors of 1 to 2^31 entries are printed as "[a, b, c]"; the int index makes longer ones
    undefined. *)
Theorem C44_print : forall xs, (1 <= Z.of_nat (length xs) <= 2147483648)%Z ->
  print_vector xs = Ok (TStr "[" :: joined xs ++ [TStr "]"]).
Proof.
  intros xs H. unfold print_vector. rewrite usize_pred_pos by lia.
  rewrite print_loop_ok; [reflexivity| | | |]; try lia. intros ->. cbn in H. lia.
Qed.
Print Assumptions C44_print.

Theorem C44_print_long : forall xs, (2147483648 < Z.of_nat (length xs) < 18446744073709551616)%Z ->
  print_vector xs = UB.
Proof.
  intros xs H. unfold print_vector. rewrite usize_pred_pos by lia.
  rewrite print_loop_ub; [reflexivity| | |]; lia.
Qed.
Print Assumptions C44_print_long.

(** The empty vector: size() - 1 wraps around and the first entry is read. *)
Theorem C44_empty_refuted : print_vector [] = UB.
Proof. vm_compute. reflexivity. Qed.
Print Assumptions C44_empty_refuted.

Example C44_nonvacuous :
  print_vector [3; -1; 5]%Z = Ok [TStr "["; TInt 3; TStr ", "; TInt (-1); TStr ", "; TInt 5; TStr "]"].
Proof. vm_compute. reflexivity. Qed.

(** ** C24 *)
Definition known : list string := ["dt"; "pdt"; "pdt_r"; "psp_i"; "hpsp"].

(** The graphs and tolerances for which all five methods are correct, and the premises about the
    max-flow solvers. *)
Definition acceptable (v : env) (E : graph) (n : nat) (D : positive) : Prop :=
  MinSinkCutSpec (e_mc v) /\ MinSrcCutSpec (e_mr v) /\ 0 < e_eps v /\ (2 <= n)%nat /\
  graph_on (seq 0 n) E /\ simple E /\ forward E /\ (forall a, In a E -> e_eps v <= aw a) /\
  multiples_of D E /\ fine_tol D n (e_eps v) /\ 10 * e_eps v * inject_Z (Zpos (gridM D n)) < 1.

Lemma compact_seq n E : compact (mkG (seq 0 n) E) = true.
Proof.
  unfold compact. cbn [gnodes]. rewrite seq_length. induction (seq 0 n); simpl; auto.
  rewrite Nat.eqb_refl. exact IHl.
Qed.

Lemma dispatch_unknown v m G : ~ In m known -> dispatch v m G = Throw.
Proof.
  intro H. unfold dispatch.
  assert (K : forall s, In s known -> (m =? s)%string = false).
  { intros s Hs. apply String.eqb_neq. intros ->. contradiction. }
  rewrite (K "dt"), (K "pdt"), (K "pdt_r"), (K "psp_i"), (K "hpsp") by (unfold known; simpl; auto 6). reflexivity.
Qed.

(** What a known method does on an acceptable graph: it returns the sequence; dt, pdt and pdt_r leave
    the graph as it was. *)
Lemma weak_of_strict E vs lams Ps : IsPSP E vs lams Ps -> IsWeakPSP E vs lams Ps.
Proof.
  unfold IsPSP, IsWeakPSP, full_sequence. destruct Ps as [|P0 Ps]; auto. intros (A & B & C). split; auto. split; auto.
  revert C. clear. generalize (@None Q). revert P0 Ps. induction lams as [|l lams IH]; intros P0 Ps lo H; destruct Ps as [|P1 Ps]; auto.
  cbn [seq_chain] in *. destruct H as (H1 & H2 & H3 & H4 & H5). split; [destruct lo; auto; lra|].
  split; auto.
Qed.

Lemma dispatch_known v E n D m : acceptable v E n D -> In m known ->
  exists G' lams Ps, dispatch v m (mkG (seq 0 n) E) = Ok (G', (map Fin lams, Ps)) /\
    IsWeakPSP E (seq 0 n) lams Ps /\ (m <> "psp_i" -> IsPSP E (seq 0 n) lams Ps) /\
    (m <> "psp_i" -> m <> "hpsp" -> G' = mkG (seq 0 n) E).
Proof.
  intros (Hmc & Hmr & He & Hn & HE & Hs & Hf & Hw & HD & Ht & Hg) Hm.
  assert (HC : closed (mkG (seq 0 n) E)).
  { intros a Ha. destruct (HE a Ha) as (A & B & _). auto. }
  unfold known in Hm. simpl in Hm. destruct Hm as [<-|[<-|[<-|[<-|[<-|[]]]]]].
  - destruct (C11_dt_exact (e_mc v) (e_eps v) E n D Hmc He Hn HE Hs Hf HD Ht) as (lams & Ps & R & P).
    exists (mkG (seq 0 n) E), lams, Ps. split.
    + unfold dispatch. simpl. unfold method_dt. rewrite compact_seq, host_dt_run_ok by auto. cbn [garcs gnodes].
      rewrite seq_length, R. reflexivity.
    + split; [apply weak_of_strict; auto|]. split; auto.
  - destruct (C27_pdt_exact (e_mc v) (e_eps v) E n D Hmc He ltac:(lia) HE Hs Hf Hw HD Hg) as (lams & Ps & R & P).
    exists (mkG (seq 0 n) E), lams, Ps. split.
    + unfold dispatch. simpl. unfold method_pdt. rewrite compact_seq. cbn [garcs gnodes]. rewrite seq_length, R. reflexivity.
    + split; [apply weak_of_strict; auto|]. split; auto.
  - destruct (C49_pdtr_exact (e_mc v) (e_mr v) (e_sch v) (e_eps v) E n D Hmc Hmr He ltac:(lia) HE Hs Hf Hw HD Hg) as (lams & Ps & R & P).
    exists (mkG (seq 0 n) E), lams, Ps. split.
    + unfold dispatch. simpl. unfold method_pdt_r. rewrite compact_seq. cbn [garcs gnodes]. rewrite seq_length, R. reflexivity.
    + split; [apply weak_of_strict; auto|]. split; auto.
  - destruct (C15_psp_i_exact (e_mc v) (e_eps v) E n D (proj1 Hmc) He ltac:(lia) HE Hs Hf Hw HD Ht) as (lams & Ps & G & R & P).
    exists G, lams, Ps. split.
    + unfold dispatch. simpl. unfold method_psp_i, psp_run_on. cbn [garcs gnodes]. rewrite seq_length. cbv zeta.
      unfold psp_run in R. unfold psp_init in *. cbn [pK pch plab]. rewrite R. reflexivity.
    + split; auto. split; intro K; congruence.
  - destruct (C19_hpsp_exact (e_mc v) (e_eps v) E n D Hmc He Hn HE Hs Hf Hw HD Ht) as (lams & Ps & W & K & G & R & P).
    exists G, lams, Ps. split.
    + unfold dispatch. simpl. unfold method_hpsp, hpsp_run_on. cbn [garcs gnodes]. rewrite seq_length. cbv zeta.
      unfold hpsp_run in R. revert R. destruct (hpsp_split _ _ _ _ _ _) as [st| | |]; cbn [bind]; try (intro R; discriminate R).
      destruct (hpsp_loop _ _ _ _ _ _ _ _) as [r| | |]; cbn [bind]; try (intro R; discriminate R).
      intro R. injection R as R1 R2 R3 R4 R5. cbn [ho_graph ho_cv ho_psp]. rewrite R1, R2, R5. reflexivity.
    + split; [apply weak_of_strict; auto|]. split; auto. intros _ K2. congruence.
Qed.

(** The last known method of a history. *)
Fixpoint last_known (ms : list string) : option string :=
  match ms with
  | [] => None
  | m :: t => match last_known t with
              | Some x => Some x
              | None => if existsb (String.eqb m) known then Some m else None
              end
  end.

Lemma known_dec m : {In m known} + {~ In m known}.
Proof. apply in_dec. apply string_dec. Qed.

Lemma known_existsb m : existsb (String.eqb m) known = true <-> In m known.
Proof.
  rewrite existsb_exists. split.
  - intros (x & Hx & H). apply String.eqb_eq in H. subst. auto.
  - intro H. exists m. split; auto. apply String.eqb_refl.
Qed.

Lemma runs_spec v E n D : acceptable v E n D -> forall ms o,
  ob_g o = mkG (seq 0 n) E -> (forall m, In m ms -> m <> "psp_i" /\ m <> "hpsp") ->
  ob_g (obj_runs v o ms) = mkG (seq 0 n) E /\
  match last_known ms with
  | None => obj_results (obj_runs v o ms) = obj_results o
  | Some m => exists G', dispatch v m (mkG (seq 0 n) E) = Ok (G', obj_results (obj_runs v o ms))
  end.
Proof.
  intros HA. induction ms as [|m ms IH]; intros o Ho Hm; [split; auto; reflexivity|].
  cbn [obj_runs fold_left]. change (fold_left (obj_after v) ms (obj_after v o m)) with (obj_runs v (obj_after v o m) ms).
  assert (Hg : ob_g (obj_after v o m) = mkG (seq 0 n) E /\
    ((In m known /\ exists G', dispatch v m (mkG (seq 0 n) E) = Ok (G', obj_results (obj_after v o m))) \/
     (~ In m known /\ obj_results (obj_after v o m) = obj_results o))).
  { unfold obj_after, obj_run. rewrite Ho. destruct (known_dec m) as [K|K].
    - destruct (dispatch_known v E n D m HA K) as (G' & lams & Ps & R & _ & _ & R3). rewrite R. cbn [bind fst snd ob_g].
      destruct (Hm m (or_introl eq_refl)) as [M1 M2]. split; [apply R3; auto|]. left. split; auto. exists G'. reflexivity.
    - rewrite (dispatch_unknown v m _ K). cbn [bind]. split; auto. }
  destruct Hg as [Hg Hr]. destruct (IH (obj_after v o m) Hg) as [I1 I2]; [intros; apply Hm; right; auto|].
  split; auto. cbn [last_known]. destruct (last_known ms) as [x|] eqn:El; [exact I2|].
  destruct Hr as [[K R]|[K R]].
  - apply known_existsb in K. rewrite K. rewrite I2. exact R.
  - destruct (existsb (String.eqb m) known) eqn:Ek; [apply known_existsb in Ek; contradiction|]. rewrite I2. exact R.
Qed.

(** C24.  An unknown name throws and changes nothing, whatever the object. *)
Theorem C24_unknown_method : forall v o m, ~ In m known ->
  obj_run v o m = Throw /\ obj_after v o m = o.
Proof.
  intros v o m H. unfold obj_after, obj_run. rewrite (dispatch_unknown v m _ H). split; reflexivity.
Qed.
Print Assumptions C24_unknown_method.

(** Only unknown names, pdt and pdt_r can throw at all. *)
Theorem C24_who_throws : forall v o m, obj_run v o m = Throw -> ~ In m known \/ m = "pdt" \/ m = "pdt_r".
Proof.
  intros v o m H. destruct (known_dec m) as [K|K]; [|auto]. right. unfold known in K. simpl in K.
  unfold obj_run, dispatch in H. destruct K as [<-|[<-|[<-|[<-|[<-|[]]]]]]; auto; exfalso; simpl in H.
  - unfold method_dt, host_dt_run in H. destruct (compact (ob_g o)); [|discriminate H]. cbv zeta in H.
    match type of H with bind (bind ?e _) _ = _ => destruct e eqn:E1 end; cbn [bind] in H; try discriminate H.
    revert E1. apply host_split_throw.
  - unfold method_psp_i, psp_run_on, psp_run_from in H. cbv zeta in H.
    match type of H with bind (bind (bind ?e _) _) _ = _ => destruct e as [st| | |] eqn:E1 end; cbn [bind] in H; try discriminate H.
    + destruct (pch st 0%nat); [discriminate H|].
      match type of H with bind (bind (bind ?e _) _) _ = _ => destruct e eqn:E2 end; cbn [bind] in H; try discriminate H.
      revert E2. apply psp_loop_throw.
    + revert E1. apply psp_split_throw.
  - unfold method_hpsp, hpsp_run_on in H. cbv zeta in H.
    match type of H with bind (bind (bind ?e _) _) _ = _ => destruct e as [st| | |] eqn:E1 end; cbn [bind] in H; try discriminate H.
    + match type of H with bind (bind (bind ?e _) _) _ = _ => destruct e eqn:E2 end; cbn [bind] in H; try discriminate H.
      revert E2. apply hpsp_loop_throw.
    + revert E1. apply hpsp_split_throw.
Qed.
Print Assumptions C24_who_throws.

(** An object may be used for any history of calls, unknown names included, as long as psp_i
    and hpsp do not occur: the accessors always show the result of the last known method, as on a new
    object, and whatever known method is called next returns the sequence. *)
Theorem C24_histories : forall v E n D ms cv0 ps0,
  acceptable v E n D -> (forall m, In m ms -> m <> "psp_i" /\ m <> "hpsp") ->
  let o := obj_runs v (mkObj (mkG (seq 0 n) E) cv0 ps0) ms in
  match last_known ms with
  | None => obj_results o = (cv0, ps0)
  | Some m => exists o1, obj_run v (psp_ctor3 (mkG (seq 0 n) E)) m = Ok o1 /\ obj_results o = obj_results o1
  end /\
  forall m, In m known ->
    exists lams o', obj_run v o m = Ok o' /\ ob_cv o' = map Fin lams /\
      IsWeakPSP E (seq 0 n) lams (ob_psp o') /\ (m <> "psp_i" -> IsPSP E (seq 0 n) lams (ob_psp o')).
Proof.
  intros v E n D ms cv0 ps0 HA Hm o. destruct (runs_spec v E n D HA ms (mkObj (mkG (seq 0 n) E) cv0 ps0) eq_refl Hm) as [A B].
  fold o in A, B. split.
  - destruct (last_known ms) as [m|]; [|exact B]. destruct B as (G' & B). unfold obj_run. cbn [ob_g psp_ctor3]. rewrite B.
    cbn [bind]. eexists. split; [reflexivity|]. reflexivity.
  - intros m K. destruct (dispatch_known v E n D m HA K) as (G' & lams & Ps & R & W1 & W2 & _).
    exists lams. unfold obj_run. rewrite A, R. cbn [bind fst snd]. eexists. split; [reflexivity|]. cbn [ob_cv ob_psp]. auto.
Qed.
Print Assumptions C24_histories.

(** psp_i (the default method) and hpsp contract the graph of the object: dt afterwards, on the same
    object, returns the sequence of another graph. *)
Definition wit_env : env := mkEnv bf_mincut (rev_solver bf_mincut) (fun _ _ => true) tol.
Definition tri_obj : obj := psp_ctor3 (mkG (seq 0 3) tri).
Example C24_witness :
  obj_results (obj_runs wit_env tri_obj ["dt"]) =
    ([Fin 2; Fin 5], [[[0;1;2]]; [[0;2];[1]]; [[0];[1];[2]]]%nat) /\
  obj_results (obj_runs wit_env tri_obj ["psp_i"]) =
    ([Fin 2; Fin 5], [[[0;1;2]]; [[0;2];[1]]; [[0];[1];[2]]]%nat) /\
  obj_results (obj_runs wit_env tri_obj ["psp_i"; "dt"]) = ([Fin 2], [[[0;1]]; [[0];[1]]]%nat) /\
  obj_results (obj_runs wit_env tri_obj ["hpsp"; "dt"]) = ([Fin 2], [[[0;1]]; [[0];[1]]]%nat) /\
  obj_results (obj_runs wit_env tri_obj ["psp_i"; "psp_i"]) = ([Fin 2], [[[0;1]]; [[0];[1]]]%nat).
Proof. vm_compute. auto 6. Qed.

Lemma tri_acceptable : acceptable wit_env tri 3 1.
Proof.
  unfold acceptable, wit_env. cbn [e_mc e_mr e_eps].
  split; [apply bf_minsink_spec|]. split; [apply rev_solver_spec, bf_minsink_spec|].
  split; [reflexivity|]. split; [lia|]. split; [exact tri_on|]. split; [exact tri_simple|]. split; [exact tri_forward|].
  split; [intros a Ha; simpl in Ha; intuition (subst; simpl; unfold tol; lra)|].
  split. { intros a Ha. simpl in Ha. destruct Ha as [<-|[<-|[<-|[]]]]; [exists 1%Z|exists 5%Z|exists 1%Z]; reflexivity. }
  split; reflexivity.
Qed.

Example C24_nonvacuous :
  acceptable wit_env tri 3 1 /\
  obj_results (obj_runs wit_env tri_obj ["pdt"; "no such method"; "pdt_r"; ""; "DT"]) =
  obj_results (obj_runs wit_env tri_obj ["pdt_r"]) /\
  ob_cv (obj_runs wit_env tri_obj ["pdt_r"]) = [Fin 2; Fin 5].
Proof. split; [exact tri_acceptable|]. vm_compute. auto. Qed.

(** The statement without the restriction on the history. *)
Theorem C24_histories_refuted :
  ~ (forall v E n D ms m, acceptable v E n D -> In m known ->
       exists lams o', obj_run v (obj_runs v (psp_ctor3 (mkG (seq 0 n) E)) ms) m = Ok o' /\
         ob_cv o' = map Fin lams /\ IsWeakPSP E (seq 0 n) lams (ob_psp o')).
Proof.
  intro H. destruct (H wit_env tri 3%nat 1%positive ["psp_i"] "dt" tri_acceptable ltac:(left; reflexivity))
    as (lams & o' & R & _ & W).
  assert (K : ob_psp o' = [[[0;1]]; [[0];[1]]]%nat).
  { destruct C24_witness as (_ & _ & K & _). unfold obj_runs in K, R. cbn [fold_left] in K, R. fold tri_obj in R.
    unfold obj_after at 1 in K. rewrite R in K. injection K as _ K. exact K. }
  rewrite K in W. destruct W as [W _]. destruct W as [_ W].
  destruct (W [0;1;2]%nat (or_introl eq_refl)) as (B & [<-|[]] & HB).
  clear - HB. specialize (HB 2%nat). simpl in HB. destruct HB as [HB|[HB|HB]]; [auto|discriminate HB|discriminate HB|destruct HB].
Qed.
Print Assumptions C24_histories_refuted.

(** Example for C45: the file written for the triangle. *)
Example C45_nonvacuous :
  main_run wit_env "dt" (mkG (seq 0 3) tri) =
    Ok (Some [LPart [[0;1;2]]; LVal (Fin 2); LPart [[0;2];[1]]; LVal (Fin 5); LPart [[0];[1];[2]]])%nat /\
  main_run wit_env "agg_psp" (mkG (seq 0 3) tri) = Throw /\ main_run wit_env "kmeans" (mkG (seq 0 3) tri) = Ok None.
Proof. vm_compute. auto. Qed.

(** ** C03: the constructor with three vectors *)
Lemma zip_ok n : forall s t w, length t = length s -> length w = length s ->
  (forall z, In z s \/ In z t -> (0 <= z)%Z) ->
  zip_arcs n s t w = Ok (combine (combine (map Z.to_nat s) (map Z.to_nat t)) w).
Proof.
  induction s as [|a s IH]; intros t w Ht Hw Hz.
  - reflexivity.
  - destruct t as [|b t]; [discriminate Ht|]. destruct w as [|c w]; [discriminate Hw|]. cbn [zip_arcs].
    rewrite IH; [|injection Ht; auto|injection Hw; auto|intros z [K|K]; apply Hz; simpl; auto]. cbn [bind].
    replace (a <? 0)%Z with false by (symmetry; apply Z.ltb_ge; apply Hz; simpl; auto).
    replace (b <? 0)%Z with false by (symmetry; apply Z.ltb_ge; apply Hz; simpl; auto). reflexivity.
Qed.

Lemma zip_ub n : forall s t w, (length t < length s)%nat \/ (length w < length s)%nat -> zip_arcs n s t w = UB.
Proof.
  induction s as [|a s IH]; intros t w H; [cbn in H; lia|]. cbn [zip_arcs].
  destruct t as [|b t]; [reflexivity|]. destruct w as [|c w]; [reflexivity|]. rewrite IH; [reflexivity|].
  cbn [List.length] in H. lia.
Qed.

(** With vectors of equal length and non-negative ids it is the constructor taking triples; if t_list or
    weight_list is shorter than s_list it reads past their end. *)
Theorem C03_vector_constructor : forall eps s t w n,
  (length t = length s -> length w = length s -> (forall z, In z s \/ In z t -> (0 <= z)%Z) ->
   psp_ctor2 eps s t w n = psp_ctor eps (combine (combine (map Z.to_nat s) (map Z.to_nat t)) w) n) /\
  ((length t < length s)%nat \/ (length w < length s)%nat -> psp_ctor2 eps s t w n = UB).
Proof.
  intros eps s t w n. unfold psp_ctor2. split; intros.
  - rewrite zip_ok; auto.
  - rewrite zip_ub; auto.
Qed.
Print Assumptions C03_vector_constructor.

(** Every object made by a constructor has a graph with nodes 0..n-1 and empty results. *)
Theorem C03_constructed_object : forall eps elt n o, psp_ctor eps elt n = Ok o ->
  gnodes (ob_g o) = seq 0 n /\ obj_results o = ([], []) /\ make_dgraph eps n elt = Ok (garcs (ob_g o)).
Proof.
  intros eps elt n o H. unfold psp_ctor in H. destruct (make_dgraph eps n elt) as [E| | |]; cbn [bind] in H; try discriminate H.
  injection H as <-. auto.
Qed.
Print Assumptions C03_constructed_object.

Example C03_vector_nonvacuous :
  psp_ctor2 tol [0;0;1]%Z [1;2;2]%Z [1;5;1] 3 = Ok tri_obj /\
  psp_ctor2 tol [0;0;1]%Z [1;2]%Z [1;5;1] 3 = UB /\ psp_ctor2 tol [0;-1]%Z [1;2]%Z [1;5] 3 = UB.
Proof. vm_compute. auto. Qed.
