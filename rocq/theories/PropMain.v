(** * PropMain: the command line program: C64. *)
From Coq Require Import String.
From Verif Require Import Base Graph Spec MSets MGraph MaxFlow PSPThy MDil MDT MContract MHost MPSPI MHPSP MPMF MPMFR MHC MAIC SFSpec MNBThy ExactMNB
  PropDil PropAIC MWrap PropWrap MMain.
Notation length := List.length (only parsing).
Open Scope list_scope.
Open Scope string_scope.

(** The six names main accepts. *)
Definition accepted : list string := ["dt"; "psp_i"; "pdt"; "pdt_r"; "agg_psp"; "hpsp"].

Lemma accepted_spec m : In m accepted <->
  (m =? "dt") || (m =? "psp_i") || (m =? "pdt") || (m =? "pdt_r") || (m =? "agg_psp") || (m =? "hpsp") = true.
Proof.
  rewrite !orb_true_iff, !String.eqb_eq. unfold accepted. simpl. intuition auto.
Qed.

(** ** File names *)
Lemma app_inv_tail_s (u s t : string) : s ++ u = t ++ u -> s = t.
Proof.
  assert (L : forall a b, String.length (a ++ b) = (String.length a + String.length b)%nat) by (induction a; simpl; auto).
  revert t. induction s as [|c s IH]; intros [|d t] H; auto; simpl in H.
  - apply (f_equal String.length) in H. simpl in H. rewrite L in H. lia.
  - apply (f_equal String.length) in H. simpl in H. rewrite L in H. lia.
  - injection H as -> H. f_equal. auto.
Qed.

(** C64.  Without --result the file is named after the method and the graph file: different methods or graph files give
    different result files, and the graph file itself is never the result file. *)
Theorem C64_default_names : forall m f m' f', In m accepted -> In m' accepted ->
  (m ++ "-" ++ f ++ ".txt" = m' ++ "-" ++ f' ++ ".txt" -> m = m' /\ f = f') /\ m ++ "-" ++ f ++ ".txt" <> f.
Proof.
  intros m f m' f' H H'. split.
  - intro E. assert (K : m = m').
    { unfold accepted in *. simpl in H, H'.
      repeat (destruct H as [<-|H]; [repeat (destruct H' as [<-|H']; [try reflexivity; simpl in E; discriminate E|]); destruct H'|]); destruct H. }
    subst m'. split; auto. assert (P : forall a b c : string, a ++ b = a ++ c -> b = c).
    { induction a; simpl; intros b c Q; [auto|injection Q; auto]. }
    apply P in E. injection E as E. apply app_inv_tail_s in E. exact E.
  - intro E. assert (L : forall a b, String.length (a ++ b) = (String.length a + String.length b)%nat) by (induction a; simpl; auto).
    apply (f_equal String.length) in E. rewrite !L in E. simpl in E. lia.
Qed.
Print Assumptions C64_default_names.

(** ** What is written *)

(** Name of the result file. *)
Definition result_name (o : opts) (m f : string) (r : string) : Prop :=
  match op_result o with
  | Some r' => if (r' =? "output.txt")%string then r = m ++ "-" ++ f ++ ".txt" else r = r'
  | None => r = m ++ "-" ++ f ++ ".txt"
  end.
(** The lines of the file alternate between partitions and critical values and begin and end with a partition. *)
Definition alternates (file : list line) (lams : list Q) (Ps : list cpart) : Prop :=
  length file = S (2 * length lams) /\ length Ps = S (length lams) /\
  forall i, nth_error file (2 * i) = option_map LPart (nth_error Ps i) /\
            nth_error file (S (2 * i)) = option_map (fun q => LVal (Fin q)) (nth_error lams i).

(** Premises for agg_psp. *)
Definition agg_acceptable (ag : agg_env) (n : nat) (D : positive) : Prop :=
  exists mnb tol, ag = Some (mnb, tol) /\ MinNormSpec mnb /\ 0 <= tol /\ tol * (Zpos D # 1) * (qn (n - 1) * qn (n - 1)) < 1.

Lemma dispatch_b_known v ag m G : In m known -> dispatch_b v ag m G = dispatch v m G.
Proof.
  intro H. unfold dispatch_b, dispatch. destruct (m =? "dt") eqn:E1; auto. destruct (m =? "pdt") eqn:E2; auto. destruct (m =? "pdt_r") eqn:E3; auto.
  destruct (m =? "psp_i") eqn:E4; auto. destruct (m =? "hpsp") eqn:E5; auto. exfalso.
  unfold known in H. simpl in H. destruct H as [<-|[<-|[<-|[<-|[<-|[]]]]]]; discriminate.
Qed.

Lemma dispatch_b_accepted v ag E n D m : acceptable v E n D -> In m accepted -> (m = "agg_psp" -> agg_acceptable ag n D) ->
  exists G' lams Ps, dispatch_b v ag m (mkG (seq 0 n) E) = Ok (G', (map Fin lams, Ps)) /\
    IsWeakPSP E (seq 0 n) lams Ps /\ (m <> "psp_i" -> IsPSP E (seq 0 n) lams Ps).
Proof.
  intros HA Hm Hg. destruct (string_dec m "agg_psp") as [->|N].
  - destruct (Hg eq_refl) as (mnb & tol & -> & M & T0 & T1). destruct HA as (_ & _ & _ & Hn & HE & _ & Hf & _ & HD & _).
    destruct (C50_agg_exact mnb tol D n E n M HE Hf HD T0 T1 ltac:(lia) (le_n n)) as (lams & Ps & R & P).
    exists (mkG (seq 0 n) E), lams, Ps. unfold dispatch_b. simpl. unfold method_agg. rewrite compact_seq. cbn [gnodes garcs].
    rewrite seq_length, R. cbn [bind fst snd]. split; [reflexivity|]. split; [apply weak_of_strict; auto|auto].
  - assert (K : In m known) by (unfold accepted, known in *; simpl in *; intuition congruence).
    rewrite dispatch_b_known by auto. destruct (dispatch_known v E n D m HA K) as (G' & lams & Ps & R & P1 & P2 & _). eauto 7.
Qed.

(** C64.  The program run on a file with an acceptable graph ends with exit code 0 and writes to the file named by --result
    (or after the method and the graph file) the principal sequence of partitions, with nothing else on standard
    output than the time if asked for.  This holds for dt, pdt, pdt_r, psp_i and hpsp (psp_i may repeat a critical
    value), and for agg_psp if the program is compiled with AGG. *)
Theorem C64_result_file : forall v ag rd wr o m f E n D r,
  acceptable v E n D -> (m = "agg_psp" -> agg_acceptable ag n D) ->
  op_help o = false -> op_method o = Some m \/ op_method o = None /\ m = "dt" -> In m accepted ->
  op_graph o = Some f -> rd f = Ok (mkG (seq 0 n) E) -> result_name o m f r -> wr r = true ->
  exists lams Ps file,
    main_prog v ag rd wr o = Ok (mkEnd 0 match op_time o with Some true => [STime] | _ => [] end (Some (r, file))) /\
    alternates file lams Ps /\ IsWeakPSP E (seq 0 n) lams Ps /\ (m <> "psp_i" -> IsPSP E (seq 0 n) lams Ps).
Proof.
  intros v ag rd wr o m f E n D r HA Hg Hh Hm Ha Hf Hr Hn Hw.
  destruct (dispatch_b_accepted v ag E n D m HA Ha Hg) as (G' & lams & Ps & R & P1 & P2).
  assert (M : match op_method o with Some m => m | None => "dt" end = m) by (destruct Hm as [->|[-> ->]]; reflexivity).
  assert (N : (if (match op_result o with Some r => r | None => "output.txt" end =? "output.txt")%string then m ++ "-" ++ f ++ ".txt"
               else match op_result o with Some r => r | None => "output.txt" end) = r).
  { unfold result_name in Hn. destruct (op_result o) as [r'|]; [|auto]. destruct (r' =? "output.txt")%string; auto. }
  assert (L : length Ps = S (length lams)).
  { destruct (string_dec m "agg_psp") as [E1|E1].
    - unfold IsWeakPSP, full_sequence in P1. destruct Ps as [|P0 Ps]; [destruct P1|]. destruct P1 as (_ & _ & C). revert C. clear.
      generalize (@None Q). revert P0 Ps. induction lams as [|l lams IH]; intros P0 Ps lo C; destruct Ps as [|P1 Ps]; cbn [seq_chain] in C; try tauto; auto.
      simpl. f_equal. destruct C as (_ & _ & _ & _ & C). exact (IH _ _ _ C).
    - assert (K : In m known) by (unfold accepted, known in *; simpl in *; intuition congruence). rewrite dispatch_b_known in R by auto.
      apply dispatch_len in R. rewrite map_length in R. exact R. }
  destruct (main_output_spec (map Fin lams) Ps) as (file & F1 & F2 & F3); [rewrite map_length; exact L|].
  exists lams, Ps, file. split; [|split; [|auto]].
  - unfold main_prog. rewrite Hh, M, (proj1 (accepted_spec m) Ha), Hf. cbv zeta. cbn [negb]. rewrite N, Hr. cbn [bind]. rewrite R. cbn [bind fst snd].
    rewrite F1. cbn [bind]. rewrite Hw. destruct (op_time o) as [[|]|]; reflexivity.
  - rewrite map_length in F2. split; [exact F2|]. split; [exact L|]. intro i. destruct (F3 i) as [A B]. split; [exact A|].
    rewrite B, nth_error_map. destruct (nth_error lams i); reflexivity.
Qed.
Print Assumptions C64_result_file.

(** The same principal sequence, whatever the method: two files of different methods agree value by value and partition
    by partition. *)
Definition same_line (a b : line) : Prop :=
  match a, b with
  | LPart P, LPart P' => same_partition P P'
  | LVal (Fin x), LVal (Fin y) => x == y
  | _, _ => False
  end.
Lemma alternates_same : forall file file' lams lams' Ps Ps', alternates file lams Ps -> alternates file' lams' Ps' ->
  Forall2 Qeq lams lams' -> Forall2 same_partition Ps Ps' -> Forall2 same_line file file'.
Proof.
  assert (F : forall (X Y : Type) (R : X -> Y -> Prop) l l', length l = length l' ->
    (forall i x y, nth_error l i = Some x -> nth_error l' i = Some y -> R x y) -> Forall2 R l l').
  { intros X Y R. induction l as [|x l IH]; intros [|y l'] H K; try discriminate; constructor.
    - apply (K 0%nat); reflexivity.
    - apply IH; [injection H; auto|]. intros i a b A B. apply (K (S i)); auto. }
  assert (G : forall (X Y : Type) (R : X -> Y -> Prop) l l', Forall2 R l l' -> length l = length l' /\
    forall i x y, nth_error l i = Some x -> nth_error l' i = Some y -> R x y).
  { intros X Y R l l' H. induction H as [|x y l l' H H' [I1 I2]]; split; auto.
    - intros [|i] ? ? A; discriminate A.
    - simpl. f_equal. auto.
    - intros [|i] a b A B; [injection A as <-; injection B as <-; auto|]. exact (I2 i a b A B). }
  intros file file' lams lams' Ps Ps' (A1 & A2 & A3) (B1 & B2 & B3) HL HP. apply G in HL as [HL1 HL2]. apply G in HP as [HP1 HP2].
  apply F; [lia|]. intros i x y Hx Hy. destruct (Nat.Even_or_Odd i) as [[k ->]|[k ->]].
  - destruct (A3 k) as [Ak _]. destruct (B3 k) as [Bk _]. rewrite Ak in Hx. rewrite Bk in Hy.
    destruct (nth_error Ps k) as [P|] eqn:E1; [|discriminate]. destruct (nth_error Ps' k) as [P'|] eqn:E2; [|discriminate].
    injection Hx as <-. injection Hy as <-. exact (HP2 _ _ _ E1 E2).
  - rewrite Nat.add_1_r in *. destruct (A3 k) as [_ Ak]. destruct (B3 k) as [_ Bk]. rewrite Ak in Hx. rewrite Bk in Hy.
    destruct (nth_error lams k) as [P|] eqn:E1; [|discriminate]. destruct (nth_error lams' k) as [P'|] eqn:E2; [|discriminate].
    injection Hx as <-. injection Hy as <-. exact (HL2 _ _ _ E1 E2).
Qed.

(** C64.  On an acceptable graph the result files of all methods but psp_i have the same contents: the same critical values and
    the same partitions in the same order. *)
Theorem C64_same_contents : forall v ag rd wr f E n D m m',
  acceptable v E n D -> agg_acceptable ag n D -> In m accepted -> In m' accepted -> m <> "psp_i" -> m' <> "psp_i" ->
  rd f = Ok (mkG (seq 0 n) E) -> (forall r, wr r = true) ->
  exists r r' file file',
    main_prog v ag rd wr (mkOpts false (Some f) (Some m) None None) = Ok (mkEnd 0 [] (Some (r, file))) /\
    main_prog v ag rd wr (mkOpts false (Some f) (Some m') None None) = Ok (mkEnd 0 [] (Some (r', file'))) /\
    Forall2 same_line file file' /\ (m <> m' -> r <> r').
Proof.
  intros v ag rd wr f E n D m m' HA Hg Hm Hm' Np Np' Hr Hw.
  destruct (C64_result_file v ag rd wr (mkOpts false (Some f) (Some m) None None) m f E n D (m ++ "-" ++ f ++ ".txt") HA (fun _ => Hg) eq_refl
    (or_introl eq_refl) Hm eq_refl Hr eq_refl (Hw _)) as (l1 & P1 & f1 & A1 & A2 & _ & A3).
  destruct (C64_result_file v ag rd wr (mkOpts false (Some f) (Some m') None None) m' f E n D (m' ++ "-" ++ f ++ ".txt") HA (fun _ => Hg) eq_refl
    (or_introl eq_refl) Hm' eq_refl Hr eq_refl (Hw _)) as (l2 & P2 & f2 & B1 & B2 & _ & B3).
  exists (m ++ "-" ++ f ++ ".txt"), (m' ++ "-" ++ f ++ ".txt"), f1, f2. split; [exact A1|]. split; [exact B1|]. split.
  - destruct (psp_unique E (seq 0 n) (seq_NoDup _ _) ltac:(apply HA) l1 P1 l2 P2 (A3 Np) (B3 Np')) as [U1 U2].
    eapply alternates_same; eauto.
  - intros N C. destruct (C64_default_names m f m' f Hm Hm') as [K _]. apply N. apply K. exact C.
Qed.
Print Assumptions C64_same_contents.

(** ** When nothing is written *)

(** C64.  --help and unknown methods: exit code 0, the options are listed, no file is read or written, whatever the other
    options are. *)
Theorem C64_refused : forall v ag rd wr o,
  (op_help o = true -> main_prog v ag rd wr o = Ok (mkEnd 0 [SHelp] None)) /\
  (forall m, op_help o = false -> op_method o = Some m -> ~ In m accepted -> main_prog v ag rd wr o = Ok (mkEnd 0 [SUnknown m; SHelp] None)).
Proof.
  intros v ag rd wr o. unfold main_prog. split; [intros ->; reflexivity|]. intros m -> -> H.
  destruct ((m =? "dt") || (m =? "psp_i") || (m =? "pdt") || (m =? "pdt_r") || (m =? "agg_psp") || (m =? "hpsp")) eqn:E; [|reflexivity].
  apply accepted_spec in E. contradiction.
Qed.
Print Assumptions C64_refused.

(** C64.  A run with an accepted method writes a file only if --graph was given, the reader took it and the method returned;
    it ends in an exception exactly if --graph is missing, or the reader or the method throws, agg_psp without AGG included. *)
Theorem C64_throws : forall v ag rd wr o m, op_help o = false ->
  op_method o = Some m \/ op_method o = None /\ m = "dt" -> In m accepted ->
  main_prog v ag rd wr o = Throw <->
    op_graph o = None \/ exists f, op_graph o = Some f /\ (rd f = Throw \/ exists G, rd f = Ok G /\
      (m = "agg_psp" /\ ag = None \/ m = "agg_psp" /\ (exists mnb tol, ag = Some (mnb, tol) /\ method_agg mnb tol G = Throw) \/
       m <> "agg_psp" /\ obj_run v (psp_ctor3 G) m = Throw)).
Proof.
  intros v ag rd wr o m Hh Hm Ha.
  assert (M : match op_method o with Some m => m | None => "dt" end = m) by (destruct Hm as [->|[-> ->]]; reflexivity).
  unfold main_prog. rewrite Hh, M, (proj1 (accepted_spec m) Ha). cbn [negb].
  destruct (op_graph o) as [f|]; [|split; auto].
  assert (NT : forall cvs Ps, main_output cvs Ps <> Throw).
  { intros cvs Ps. unfold main_output. destruct Ps as [|P Ps]; [discriminate|]. generalize (P :: Ps) at 1. intro l.
    assert (K : forall cvs it, out_loop cvs it <> Throw).
    { clear. induction cvs as [|x cvs IH]; intros [|y [|z it]]; cbn [out_loop tl]; try discriminate.
      specialize (IH (z :: it)). destruct (out_loop cvs (z :: it)); cbn [bind]; congruence. }
    specialize (K cvs l). destruct (out_loop cvs l); cbn [bind]; congruence. }
  cbv zeta.
  assert (DT : forall G, dispatch_b v ag m G = Throw <->
     (m = "agg_psp" /\ ag = None \/ m = "agg_psp" /\ (exists mnb tol, ag = Some (mnb, tol) /\ method_agg mnb tol G = Throw) \/
       m <> "agg_psp" /\ obj_run v (psp_ctor3 G) m = Throw)).
  { intro G. destruct (string_dec m "agg_psp") as [->|N].
    - unfold dispatch_b. simpl. destruct ag as [[mnb tol]|].
      + split; [intro H; right; left; eauto|]. intros [[_ H]|[(_ & a & b & H & K)|[H _]]]; congruence.
      + split; auto.
    - assert (K : In m known) by (unfold accepted, known in *; simpl in *; intuition congruence). rewrite dispatch_b_known by auto.
      unfold obj_run. cbn [psp_ctor3 ob_g]. split.
      + intro H. right. right. split; auto. rewrite H. reflexivity.
      + intros [[H _]|[[H _]|[_ H]]]; try contradiction. destruct (dispatch v m G); cbn [bind] in H; congruence. }
  split.
  - intro H. right. exists f. split; auto. destruct (rd f) as [G| | |] eqn:E; cbn [bind] in H; try discriminate H; auto.
    right. exists G. split; auto. apply DT. destruct (dispatch_b v ag m G) as [[G' [c P]]| | |]; cbn [bind fst snd] in H; try discriminate H; auto.
    specialize (NT c P). destruct (main_output c P); cbn [bind] in H; congruence.
  - intros [H|(f' & H & K)]; [discriminate|]. injection H as <-. destruct K as [->|(G & -> & K)]; [reflexivity|]. cbn [bind].
    apply DT in K. rewrite K. reflexivity.
Qed.
Print Assumptions C64_throws.

(** ** What the options do not do *)
Definition tri_reader (f : string) : res gst := if (f =? "g.lgf")%string then Ok (mkG (seq 0 3) tri) else if (f =? "graphs/g.lgf")%string then Ok (mkG (seq 0 3) tri) else Throw.

Lemma ok_inj {A} (a b : A) : Ok a = Ok b -> a = b.
Proof. congruence. Qed.

(** C64.  Refuted: the file named by --result is written.  The name "output.txt" is taken for the default and replaced, for
    every graph and method. *)
Theorem C64_result_option_refuted : forall v ag rd wr f m code out r file, In m accepted ->
  main_prog v ag rd wr (mkOpts false (Some f) (Some m) (Some "output.txt") None) = Ok (mkEnd code out (Some (r, file))) -> r <> "output.txt".
Proof.
  intros v ag rd wr f m code out r file Hm H. unfold main_prog in H. cbn [op_help op_method op_graph op_result op_time] in H.
  rewrite (proj1 (accepted_spec m) Hm) in H. cbn [negb] in H. cbv zeta in H. change (("output.txt" =? "output.txt")%string) with true in H. cbv iota in H.
  destruct (rd f) as [G| | |]; cbn [bind] in H; try discriminate H. destruct (dispatch_b v ag m G) as [x| | |]; cbn [bind] in H; try discriminate H.
  destruct (main_output _ _) as [l| | |]; cbn [bind] in H; try discriminate H. apply ok_inj in H.
  destruct (wr (m ++ "-" ++ f ++ ".txt")); [|discriminate H]. injection H as _ _ <- _.
  unfold accepted in Hm. simpl in Hm. destruct Hm as [<-|[<-|[<-|[<-|[<-|[<-|[]]]]]]]; discriminate.
Qed.
Print Assumptions C64_result_option_refuted.

(** C64.  Refuted: exit code 0 without a message means that the result was written.  The default name prefixes the whole path of the
    graph file: for graphs/g.lgf it lies in a directory "dt-graphs", and a result file that cannot be opened goes unnoticed. *)
Theorem C64_reports_failure_refuted : forall wr, wr "dt-graphs/g.lgf.txt" = false ->
  main_prog wit_env None tri_reader wr (mkOpts false (Some "graphs/g.lgf") None None None) = Ok (mkEnd 0 [] None).
Proof.
  intros wr H.
  assert (K : main_prog wit_env None tri_reader (fun _ => false) (mkOpts false (Some "graphs/g.lgf") None None None) = Ok (mkEnd 0 [] None)) by (vm_compute; reflexivity).
  revert K. unfold main_prog. cbn [op_help op_method op_graph op_result op_time]. cbv zeta.
  change (negb (("dt" =? "dt") || ("dt" =? "psp_i") || ("dt" =? "pdt") || ("dt" =? "pdt_r") || ("dt" =? "agg_psp") || ("dt" =? "hpsp"))) with false.
  change ("output.txt" =? "output.txt") with true. cbv iota.
  change ("dt" ++ "-" ++ "graphs/g.lgf" ++ ".txt") with "dt-graphs/g.lgf.txt". rewrite H. exact (fun x => x).
Qed.
Print Assumptions C64_reports_failure_refuted.

(** C64.  Refuted: the input is left alone.  With --result naming the graph file it is overwritten. *)
Theorem C64_input_kept_refuted :
  exists file, main_prog wit_env None tri_reader (fun _ => true) (mkOpts false (Some "g.lgf") None (Some "g.lgf") None) = Ok (mkEnd 0 [] (Some ("g.lgf", file))).
Proof. eexists. vm_compute. reflexivity. Qed.
Print Assumptions C64_input_kept_refuted.

Example C64_case :
  main_prog wit_env None tri_reader (fun _ => true) (mkOpts false (Some "g.lgf") (Some "pdt") None (Some true)) =
    Ok (mkEnd 0 [STime] (Some ("pdt-g.lgf.txt",
      [LPart [[0;1;2]]%nat; LVal (Fin 2); LPart [[0;2];[1]]%nat; LVal (Fin 5); LPart [[0];[1];[2]]%nat]))) /\
  main_prog wit_env (Some (exact_mnb, agg_tol)) tri_reader (fun _ => true) (mkOpts false (Some "g.lgf") (Some "agg_psp") (Some "out") None) =
    Ok (mkEnd 0 [] (Some ("out",
      [LPart [[0;1;2]]%nat; LVal (Fin 2); LPart [[0;2];[1]]%nat; LVal (Fin 5); LPart [[0];[1];[2]]%nat]))) /\
  main_prog wit_env None tri_reader (fun _ => true) (mkOpts false (Some "g.lgf") (Some "agg_psp") (Some "out") None) = Throw /\
  main_prog wit_env None tri_reader (fun _ => true) (mkOpts false None None None None) = Throw /\
  main_prog wit_env None tri_reader (fun _ => true) (mkOpts false (Some "missing") None None None) = Throw.
Proof. vm_compute. auto 8. Qed.
Example C64_nonvacuous : acceptable wit_env tri 3 1 /\ agg_acceptable (Some (exact_mnb, agg_tol)) 3 1 /\
  tri_reader "g.lgf" = Ok (mkG (seq 0 3) tri).
Proof.
  split; [exact tri_acceptable|]. split; [|reflexivity]. exists exact_mnb, agg_tol. split; [reflexivity|]. split; [exact exact_mnb_ok|].
  split; [discriminate|]. vm_compute. reflexivity.
Qed.
