(** * Property C96: the critical values as text (main.cpp:74-82, example/example.cpp:20-25). *)
From Coq Require Import String Ascii Qabs.
From Verif Require Import Base Graph Spec MSets MGraph MaxFlow CutThy MDil BFThy MDT PSPThy MPMF MPMFR PMFRThy MFloat MFloatW MWrap
  MShow ShowThy PropFloat PropFloatP PropFloatT PropNoTie PropFloatW MTrim TrimThy.
Notation length := List.length.
Open Scope string_scope.

(** ** One number *)

(** [read_number] (ShowThy) gives the value of a decimal text.  What is read differs from what was written by at most five units of
    the seventh digit; ... *)
Theorem C96_text_value : forall q, exists w, read_number (show_dbl (Fin q)) = Some w /\ Qabs (w - q) <= (1#200000) * Qabs q.
Proof.
  intro q. destruct (read_show q) as (w & A & B). exists w. split; auto. rewrite B. apply sixdig_close.
Qed.
Print Assumptions C96_text_value.

(** ... numbers with at most six significant digits are written exactly; ... *)
Theorem C96_six_digits_exact : forall q m k, (Z.abs m < 1000000)%Z -> q == inject_Z m * Qpower 10 k ->
  exists w, read_number (show_dbl (Fin q)) = Some w /\ w == q.
Proof.
  intros q m k Hm Hq. destruct (read_show q) as (w & A & B). exists w. split; auto. rewrite B. exact (sixdig_exact q m k Hm Hq).
Qed.
Print Assumptions C96_six_digits_exact.

(** ... and the order is kept, though not strictly. *)
Theorem C96_order : forall p q w z, p <= q -> read_number (show_dbl (Fin p)) = Some w -> read_number (show_dbl (Fin q)) = Some z -> w <= z.
Proof.
  intros p q w z H A B. destruct (read_show p) as (w' & A1 & A2). destruct (read_show q) as (z' & B1 & B2).
  rewrite A in A1. rewrite B in B1. injection A1 as <-. injection B1 as <-. rewrite A2, B2. apply sixdig_mono. exact H.
Qed.
Print Assumptions C96_order.

(** The shape of the text ([gform] in ShowThy): no needless zeros, at most six digits, an exponent exactly for values below 0.0001 and from 1000000
    on; a sign for negative values. *)
Theorem C96_format : forall q,
  (0 < q -> exists w, gform (list_ascii_of_string (show_dbl (Fin q))) w /\ Qabs (w - q) <= (1#200000) * q) /\
  (q < 0 -> show_dbl (Fin q) = String "-" (show_dbl (Fin (- q)))) /\ (q == 0 -> show_dbl (Fin q) = "0").
Proof.
  intro q. unfold show_dbl, show_fin. split; [|split]; intro H.
  - exists (val6 q). split; [|apply val6_close; exact H].
    destruct (Qeq_bool q 0) eqn:E; [apply Qeq_bool_eq in E; lra|]. destruct (Qltb q 0) eqn:N; [apply Qltb_true in N; lra|].
    rewrite list_ascii_of_string_of_list_ascii. apply show_pos_form. exact H.
  - destruct (Qeq_bool q 0) eqn:E; [apply Qeq_bool_eq in E; lra|]. destruct (Qltb q 0) eqn:N; [|apply Qltb_false in N; lra].
    destruct (Qeq_bool (- q) 0) eqn:E'; [apply Qeq_bool_eq in E'; lra|]. destruct (Qltb (- q) 0) eqn:N'; [apply Qltb_true in N'; lra|]. reflexivity.
  - destruct (Qeq_bool q 0) eqn:E; [reflexivity|]. apply Qeq_bool_neq in E. contradiction.
Qed.
Print Assumptions C96_format.

(** Two values that read back equally have the same text. *)
Theorem C96_same_value_same_text : forall p q w z, read_number (show_dbl (Fin p)) = Some w -> read_number (show_dbl (Fin q)) = Some z -> w == z ->
  show_dbl (Fin p) = show_dbl (Fin q).
Proof.
  intros p q w z A B H. destruct (read_show p) as (w' & A1 & A2). destruct (read_show q) as (z' & B1 & B2).
  rewrite A in A1. rewrite B in B1. injection A1 as <-. injection B1 as <-. apply show_same. rewrite <- A2, <- B2. exact H.
Qed.
Print Assumptions C96_same_value_same_text.

(** The text of a tenth of the value 5/3 of the tests, in both notations. *)
Example C96_format_nonvacuous :
  gform (list_ascii_of_string "0.166667") (166667 # 1000000) /\ gform (list_ascii_of_string "1.6e+100") (16 * Qpower 10 99) /\
  show_dbl (Fin (1#6)) = "0.166667" /\ show_dbl (Fin (rnd 53 (1#6))) = "0.166667" /\ show_dbl (Fin (16 * Qpower 10 99)) = "1.6e+100".
Proof.
  split; [|split; [|split; [|split]]]; try (vm_compute; reflexivity).
  - apply (g_fixed [0] [1;6;6;6;6;7])%Z; try (repeat constructor; unfold isdig; lia); try (right; cbn; lia); try (left; reflexivity); try reflexivity; vm_compute; discriminate.
  - apply (g_exp 1 [6] "+" [1;0;0])%Z; try (repeat constructor; unfold isdig; lia); try lia; try (right; cbn; lia); try (left; reflexivity); try (cbn; lia); try reflexivity.
    right. vm_compute. discriminate.
Qed.

Example show_examples :
  map (fun q => show_dbl (Fin q)) [0; 2; 1#20; rnd 53 (1#10); 1#3; -(200000#3); 1234567; 9999995#10; 9999985#10; 1#10000; 1#100000; 100000; Qpower 10 250 * 3]
    = ["0"; "2"; "0.05"; "0.1"; "0.333333"; "-66666.7"; "1.23457e+06"; "1e+06"; "999998"; "0.0001"; "1e-05"; "100000"; "3e+250"] /\
  map read_number ["-66666.7"; "1.23457e+06"; "1e-05"; "x"; "1e"; "."] =
    [Some (- (inject_Z 666667 * Qpower 10 (-1))); Some (inject_Z 123457 * Qpower 10 1); Some (inject_Z 1 * Qpower 10 (-5)); None; None; None].
Proof. split; vm_compute; reflexivity. Qed.

(** ** The result file *)

(** The lines of the file: a partition, then a value and a partition as often as there are values. *)
Inductive alternate : list string -> list cpart -> list tline -> Prop :=
| alt_last R : alternate [] [R] [TPart R]
| alt_next t ts R Rs f : alternate ts Rs f -> alternate (t :: ts) (R :: Rs) (TPart R :: TVal t :: f).

(** The text [t] stands for the number [f]. *)
Definition says (t : string) (f : Q) : Prop := exists w, read_number t = Some w /\ Qabs (w - f) <= (1#200000) * Qabs f.

Lemma out_loop_alt : forall cvs R Rs, length Rs = length cvs ->
  exists l, out_loop cvs (R :: Rs) = Ok l /\ alternate (map show_dbl cvs) (R :: Rs) (TPart R :: map text_of l).
Proof.
  induction cvs as [|x cvs IH]; intros R Rs HL.
  - destruct Rs; [|discriminate]. exists []. split; [reflexivity|constructor].
  - destruct Rs as [|R' Rs]; [discriminate|]. injection HL as HL. destruct (IH R' Rs HL) as (l & A & B).
    exists (LVal x :: LPart R' :: l). cbn [out_loop tl]. rewrite A. split; [reflexivity|]. cbn [map text_of]. constructor. exact B.
Qed.

Lemma main_output_alt cvs Rs : length Rs = S (length cvs) ->
  exists l, main_output cvs Rs = Ok l /\ alternate (map show_dbl cvs) Rs (map text_of l).
Proof.
  intro HL. destruct Rs as [|R Rs]; [discriminate|]. injection HL as HL. destruct (out_loop_alt cvs R Rs HL) as (l & A & B).
  exists (LPart R :: l). unfold main_output. rewrite A. split; [reflexivity|exact B].
Qed.

Lemma listing_fin d lams Ps fs Rs : listing d lams Ps fs Rs -> exists qs, fs = map Fin qs.
Proof.
  induction 1 as [P R H|l lams P Ps f fs R Rs H1 (q & -> & _) H3 (qs & ->)|l lams P Ps f f' fs R R' Rs H1 (qs & E) (q & -> & _)].
  - exists []. reflexivity.
  - exists (q :: qs). reflexivity.
  - exists (q :: qs). cbn [map]. rewrite <- E. reflexivity.
Qed.

(** Under the premises of C95 the file that main writes lists the principal sequence: reading the values back gives the critical values up to
    the rounding of C95 and to six digits. *)
Theorem C96_result_file_double : forall ita itn mc mr sch n E W D, MinSinkCutSpec mc -> MinSrcCutSpec mr ->
  (forall G, Permutation (ita G) G) -> (forall G, Permutation (itn G) G) -> (2 <= n)%nat ->
  graph_on (seq 0 n) E -> simple E -> forward E -> (forall a, In a E -> 0 < aw a) -> qsum aw E <= W -> 1 <= W ->
  960 * n4 n (u53 * W) < eps53 -> 2000 * n4 n eps53 <= 1 ->
  multiples_of D E -> fine_tol D n (qn n * (65 * n4 n eps53)) ->
  exists lams Ps, IsPSP E (seq 0 n) lams Ps /\
    forall m, In m ["dt"; "psp_i"; "pdt"; "pdt_r"] \/ m = "hpsp" /\ tie_free n E ->
      ((m = "pdt" \/ m = "pdt_r") /\ f_main (env53 ita itn mc mr sch) m (stored rw53 E) n = Throw) \/
      exists file ts fs Rs, f_main (env53 ita itn mc mr sch) m (stored rw53 E) n = Ok (Some file) /\
        alternate ts Rs file /\ Forall2 says ts fs /\ listing (65 * n4 n eps53) lams Ps (map Fin fs) Rs.
Proof.
  intros ita itn mc mr sch n E W D Hmc Hmr Hita Hitn Hn HE Hs Hf Hp HW HW1 H1 H2 HD Ht.
  destruct (C95_methods_agree_double ita itn mc mr sch n E W D Hmc Hmr Hita Hitn Hn HE Hs Hf Hp HW HW1 H1 H2 HD Ht) as (lams & Ps & K & A).
  exists lams, Ps. split; [exact K|]. intros m Hm. assert (Am := A m Hm). clear A.
  assert (G : ((m =? "dt") || (m =? "psp_i") || (m =? "pdt") || (m =? "pdt_r") || (m =? "agg_psp") || (m =? "hpsp"))%string = true).
  { clear - Hm. destruct Hm as [Hm|[-> _]]; [|reflexivity]. cbn [In] in Hm. destruct Hm as [<-|[<-|[<-|[<-|[]]]]]; reflexivity. }
  unfold f_main. rewrite G. destruct Am as [[B T]|(fs & Rs & T & L)]; rewrite T; cbn [bind fst snd].
  - left. split; [exact B|reflexivity].
  - right. destruct (listing_len _ _ _ _ _ L) as (_ & _ & L3). destruct (main_output_alt fs Rs L3) as (l & M1 & M2).
    destruct (listing_fin _ _ _ _ _ L) as (qs & Q). rewrite M1. cbn [bind]. exists (map text_of l), (map show_dbl fs), qs, Rs.
    split; [reflexivity|]. split; [exact M2|]. split; [|rewrite <- Q; exact L]. rewrite Q. clear. induction qs as [|q qs IH]; cbn [map]; constructor; auto.
    apply C96_text_value.
Qed.
Print Assumptions C96_result_file_double.

(** agg_psp is accepted and then refused by run() of a program without AGG; other names give no file at all. *)
Theorem C96_refused : forall v m E n, ~ In m ["dt"; "psp_i"; "pdt"; "pdt_r"; "hpsp"] ->
  f_main v m E n = if m =? "agg_psp" then Throw else Ok None.
Proof.
  intros v m E n H. unfold f_main. rewrite C95_unknown_method_throws by exact H. cbn [bind].
  repeat match goal with |- context [String.eqb m ?s] =>
    match s with "agg_psp" => fail 1 | _ => destruct (String.eqb_spec m s) as [->|]; [exfalso; apply H; cbn [In]; tauto|] end end.
  cbn [orb]. rewrite orb_false_r. destruct (m =? "agg_psp"); reflexivity.
Qed.
Print Assumptions C96_refused.

(** ** Limits of six digits *)

Definition main53 (m : string) (E : graph) (n : nat) : res (option (list tline)) :=
  f_main (env53 (@rev arc) (@rev narc) aug_mincut (rev_solver aug_mincut) (fun _ _ => false)) m (stored rw53 E) n.
Lemma main53_eq m E n : main53 m E n =
  f_main (env53 (@rev arc) (@rev narc) aug_mincut (rev_solver aug_mincut) (fun _ _ => false)) m (stored rw53 E) n.
Proof. reflexivity. Qed.

(** Two edges with the weights 5 and 5 + 1/300000. *)
Definition path3 : graph := [mkArc 0 1 5; mkArc 1 2 (1500001 # 300000)].
(** A triangle whose second critical value 3.000035 is half way between two numbers with six digits. *)
Definition mid3 : graph := [mkArc 0 1 (600007 # 200000); mkArc 0 2 (100012 # 200000); mkArc 1 2 (100021 # 200000)].

Lemma path3_ok : graph_on (seq 0 3) path3 /\ simple path3 /\ forward path3 /\ (forall a, In a path3 -> 0 < aw a) /\ multiples_of 300000 path3.
Proof.
  split; [intros a H; simpl in H; intuition (subst; simpl; auto 10; lra)|].
  split; [unfold simple; simpl; repeat constructor; simpl; intuition congruence|].
  split; [intros a H; simpl in H; intuition (subst; simpl; lia)|].
  split; [intros a H; simpl in H; intuition (subst; simpl; lra)|].
  intros a H; simpl in H; destruct H as [<-|[<-|[]]]; [exists 1500000%Z|exists 1500001%Z]; reflexivity.
Qed.
Lemma mid3_ok : graph_on (seq 0 3) mid3 /\ simple mid3 /\ forward mid3 /\ (forall a, In a mid3 -> 0 < aw a) /\ multiples_of 200000 mid3.
Proof.
  split; [intros a H; simpl in H; intuition (subst; simpl; auto 10; lra)|].
  split; [unfold simple; simpl; repeat constructor; simpl; intuition congruence|].
  split; [intros a H; simpl in H; intuition (subst; simpl; lia)|].
  split; [intros a H; simpl in H; intuition (subst; simpl; lra)|].
  intros a H; simpl in H; destruct H as [<-|[<-|[<-|[]]]]; [exists 600007%Z|exists 100012%Z|exists 100021%Z]; reflexivity.
Qed.

Example C96_nonvacuous :
  MinSinkCutSpec aug_mincut /\ MinSrcCutSpec (rev_solver aug_mincut) /\ graph_on (seq 0 3) mid3 /\ simple mid3 /\ forward mid3 /\
  (forall a, In a mid3 -> 0 < aw a) /\ qsum aw mid3 <= 5 /\ 960 * n4 3 (u53 * 5) < eps53 /\ 2000 * n4 3 eps53 <= 1 /\
  multiples_of 200000 mid3 /\ fine_tol 200000 3 (qn 3 * (65 * n4 3 eps53)) /\
  main53 "dt" mid3 3 = Ok (Some [TPart [[0;1;2]]; TVal "1.00016"; TPart [[0;1];[2]]; TVal "3.00003"; TPart [[0];[1];[2]]]%nat) /\
  main53 "psp_i" mid3 3 = Ok (Some [TPart [[0;1;2]]; TVal "1.00016"; TPart [[0;1];[2]]; TVal "3.00004"; TPart [[0];[1];[2]]]%nat) /\
  main53 "pdt_r" mid3 3 = main53 "psp_i" mid3 3 /\ main53 "pdt" mid3 3 = main53 "psp_i" mid3 3 /\
  main53 "dt" path3 3 = Ok (Some [TPart [[0;1;2]]; TVal "5"; TPart [[0];[1;2]]; TVal "5"; TPart [[0];[1];[2]]]%nat).
Proof.
  destruct mid3_ok as (G & S & F & Po & M).
  split; [apply aug_mincut_spec|]. split; [exact (rev_solver_spec _ aug_mincut_spec)|]. split; [exact G|]. split; [exact S|].
  split; [exact F|]. split; [exact Po|]. split; [vm_compute; discriminate|]. split; [reflexivity|]. split; [vm_compute; discriminate|].
  split; [exact M|]. split; [reflexivity|].
  split; [vm_compute; reflexivity|]. split; [vm_compute; reflexivity|]. split; [vm_compute; reflexivity|]. split; [vm_compute; reflexivity|].
  vm_compute. reflexivity.
Qed.

(** Two methods that list equally many values need not write the same file. *)
Theorem C96_same_file_refuted :
  ~ (forall ita itn mc mr sch n E W D m m' file file', MinSinkCutSpec mc -> MinSrcCutSpec mr ->
       (forall G, Permutation (ita G) G) -> (forall G, Permutation (itn G) G) -> (2 <= n)%nat ->
       graph_on (seq 0 n) E -> simple E -> forward E -> (forall a, In a E -> 0 < aw a) -> qsum aw E <= W -> 1 <= W ->
       960 * n4 n (u53 * W) < eps53 -> 2000 * n4 n eps53 <= 1 ->
       multiples_of D E -> fine_tol D n (qn n * (65 * n4 n eps53)) ->
       In m ["dt"; "psp_i"; "pdt"; "pdt_r"] -> In m' ["dt"; "psp_i"; "pdt"; "pdt_r"] ->
       f_main (env53 ita itn mc mr sch) m (stored rw53 E) n = Ok (Some file) ->
       f_main (env53 ita itn mc mr sch) m' (stored rw53 E) n = Ok (Some file') ->
       length file = length file' -> file = file').
Proof.
  intros H. destruct mid3_ok as (G & S & F & Po & M). destruct C96_nonvacuous as (_ & _ & _ & _ & _ & _ & _ & _ & _ & _ & _ & R1 & R2 & _).
  rewrite main53_eq in R1, R2.
  assert (K := H (@rev arc) (@rev narc) aug_mincut (rev_solver aug_mincut) (fun _ _ => false) 3%nat mid3 5 200000%positive "dt" "psp_i" _ _
    aug_mincut_spec (rev_solver_spec _ aug_mincut_spec)
    (fun G => Permutation_sym (Permutation_rev G)) (fun G => Permutation_sym (Permutation_rev G)) ltac:(lia) G S F Po
    ltac:(vm_compute; discriminate) ltac:(lra) ltac:(reflexivity) ltac:(vm_compute; discriminate) M ltac:(reflexivity)
    (or_introl eq_refl) (or_intror (or_introl eq_refl)) R1 R2 eq_refl). discriminate K.
Qed.
Print Assumptions C96_same_file_refuted.

(** And a file of dt can show a critical value twice, although the values are distinct (C08) and dt lists none twice here. *)
Theorem C96_distinct_values_refuted :
  ~ (forall ita itn mc mr sch n E W D file fs Rs, MinSinkCutSpec mc -> MinSrcCutSpec mr ->
       (forall G, Permutation (ita G) G) -> (forall G, Permutation (itn G) G) -> (2 <= n)%nat ->
       graph_on (seq 0 n) E -> simple E -> forward E -> (forall a, In a E -> 0 < aw a) -> qsum aw E <= W -> 1 <= W ->
       960 * n4 n (u53 * W) < eps53 -> 2000 * n4 n eps53 <= 1 ->
       multiples_of D E -> fine_tol D n (qn n * (65 * n4 n eps53)) ->
       f_dispatch (env53 ita itn mc mr sch) "dt" (stored rw53 E) n = Ok (fs, Rs) -> NoDup fs ->
       f_main (env53 ita itn mc mr sch) "dt" (stored rw53 E) n = Ok (Some file) ->
       forall i j s, nth_error file i = Some (TVal s) -> nth_error file j = Some (TVal s) -> i = j).
Proof.
  intros H. destruct path3_ok as (G & S & F & Po & M). destruct C96_nonvacuous as (_ & _ & _ & _ & _ & _ & _ & _ & _ & _ & _ & _ & _ & _ & _ & R).
  rewrite main53_eq in R.
  assert (V : run53 "dt" path3 3 = Ok ([Fin 5; Fin (703687910901601 # 140737488355328)], [[[0;1;2]]; [[0];[1;2]]; [[0];[1];[2]]]%nat)) by (vm_compute; reflexivity).
  rewrite run53_eq in V.
  assert (ND : NoDup [Fin 5; Fin (703687910901601 # 140737488355328)]).
  { constructor; [intros [C|[]]; discriminate C|]. constructor; [intros []|constructor]. }
  assert (K := H (@rev arc) (@rev narc) aug_mincut (rev_solver aug_mincut) (fun _ _ => false) 3%nat path3 (1001#100) 300000%positive _ _ _
    aug_mincut_spec (rev_solver_spec _ aug_mincut_spec)
    (fun G => Permutation_sym (Permutation_rev G)) (fun G => Permutation_sym (Permutation_rev G)) ltac:(lia) G S F Po
    ltac:(vm_compute; discriminate) ltac:(lra) ltac:(reflexivity) ltac:(vm_compute; discriminate) M ltac:(reflexivity)
    V ND R 1%nat 3%nat "5" eq_refl eq_refl). discriminate K.
Qed.
Print Assumptions C96_distinct_values_refuted.

(** ** example/example.cpp *)

(** What the program prints, whatever the parts of the environment that psp_i does not use. *)
Theorem C96_example_program : forall ita itn mr sch mc, In mc [aug_mincut; bf_mincut] ->
  f_example (env53 ita itn mc mr sch) = Ok [TPart [[0;1;2]]; TVal "2"; TPart [[0;2];[1]]; TVal "5"; TPart [[0];[1];[2]]]%nat.
Proof. intros ita itn mr sch mc [<-|[<-|[]]]; vm_compute; reflexivity. Qed.
Print Assumptions C96_example_program.

(** The loop of example.cpp writes the lines of main.cpp for every result of run(); it dereferences an end iterator when partitions are missing. *)
Theorem C96_example_same_lines : forall cvs Rs, (length cvs < length Rs)%nat -> example_loop cvs Rs = main_output cvs Rs.
Proof.
  assert (K : forall cvs R Rs, (length cvs <= length Rs)%nat -> example_loop cvs (R :: Rs) = do l <- out_loop cvs (R :: Rs); Ok (LPart R :: l)).
  { induction cvs as [|x cvs IH]; intros R Rs H; [reflexivity|]. destruct Rs as [|R' Rs]; [cbn [List.length] in H; lia|]. cbn [List.length] in H.
    cbn [out_loop tl]. change (example_loop (x :: cvs) (R :: R' :: Rs)) with (do r <- example_loop cvs (R' :: Rs); Ok (LPart R :: LVal x :: r)).
    rewrite IH by lia. destruct (out_loop cvs (R' :: Rs)); reflexivity. }
  intros cvs [|R Rs] H; [cbn [List.length] in H; lia|]. rewrite K by (cbn [List.length] in H; lia). reflexivity.
Qed.
Theorem C96_example_missing_partition : forall cvs Rs, (length Rs <= length cvs)%nat -> example_loop cvs Rs = UB.
Proof.
  induction cvs as [|x cvs IH]; intros [|R Rs] H; cbn [List.length] in H; try reflexivity; [lia|]. cbn [example_loop]. rewrite IH by lia. reflexivity.
Qed.
Print Assumptions C96_example_same_lines.
Print Assumptions C96_example_missing_partition.
Example C96_example_nonvacuous :
  example_loop [Fin 2; Fin 5] [[[0;1;2]]; [[0;2];[1]]; [[0];[1];[2]]]%nat = Ok [LPart [[0;1;2]]; LVal (Fin 2); LPart [[0;2];[1]]; LVal (Fin 5); LPart [[0];[1];[2]]]%nat /\
  example_loop [Fin 2; Fin 5] [[[0;1;2]]; [[0];[1];[2]]]%nat = UB.
Proof. split; reflexivity. Qed.
