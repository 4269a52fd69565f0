(** * Property C97: main from the text of the graph file to the text of the result file, in doubles. *)
From Coq Require Import String Ascii Qabs.
From Verif Require Import Base Graph Spec MSets MGraph MaxFlow CutThy MContract MDil BFThy MDT PSPThy MPMF MPMFR PMFRThy MFloat MFloatW MWrap MMain PropMain MLgf LgfThy
  MShow ShowThy PropFloat PropFloatP PropFloatT PropNoTie PropFloatW MTrim TrimThy PropShow MTextMain.
Notation length := List.length (only parsing).
Open Scope list_scope.
Open Scope string_scope.

(** The reader applies [parse] to each capacity and nothing else to the result. *)
Lemma read_arcs_map parse (g : Q -> Q) labels k c rs :
  read_arcs (fun s => option_map g (parse s)) labels k c rs =
    do E <- read_arcs parse labels k c rs; Ok (map (fun a => mkArc (asrc a) (adst a) (g (aw a))) E).
Proof.
  induction rs as [|r t IH]; [reflexivity|]. cbn [read_arcs]. destruct (section r); [reflexivity|]. destruct r as [|u [|v ws]]; try reflexivity.
  destruct (length ws =? k)%nat; [|reflexivity]. destruct (index_of u labels); [|reflexivity]. destruct (index_of v labels); [|reflexivity].
  destruct (parse (nth c ws "")); [|reflexivity]. cbn [option_map]. rewrite IH. destruct (read_arcs parse labels k c t); reflexivity.
Qed.
Lemma lgf_read_map parse (g : Q -> Q) text :
  lgf_read (fun s => option_map g (parse s)) text =
    do G <- lgf_read parse text; Ok (mkG (gnodes G) (map (fun a => mkArc (asrc a) (adst a) (g (aw a))) (garcs G))).
Proof.
  assert (B : forall A B C (x : res A) (f : A -> res B) (h : B -> res C), (do y <- (do z <- x; f z); h y) = do z <- x; (do y <- f z; h y)) by (intros A B C [x| | |] f h; reflexivity).
  assert (M1 : forall (A B : Type) (k : A -> res B) (F : list string -> list (list string) -> res A) rs,
    (do x <- match rs with ["@nodes"] :: hd :: t => F hd t | _ => Throw end; k x) =
    match rs with ["@nodes"] :: hd :: t => do x <- F hd t; k x | _ => Throw end).
  { intros. repeat match goal with |- context [match ?x with _ => _ end] => is_var x; destruct x; try reflexivity end. }
  assert (M2 : forall (A B : Type) (k : A -> res B) (F : list string -> list (list string) -> res A) rs,
    (do x <- match rs with ["@arcs"] :: hd :: t => F hd t | _ => Throw end; k x) =
    match rs with ["@arcs"] :: hd :: t => do x <- F hd t; k x | _ => Throw end).
  { intros. repeat match goal with |- context [match ?x with _ => _ end] => is_var x; destruct x; try reflexivity end. }
  assert (E1 : forall (A : Type) (F H : list string -> list (list string) -> res A) rs, (forall hd t, F hd t = H hd t) ->
    match rs with ["@nodes"] :: hd :: t => F hd t | _ => Throw end = match rs with ["@nodes"] :: hd :: t => H hd t | _ => Throw end).
  { intros A F H rs K. repeat match goal with |- context [match ?x with _ => _ end] => is_var x; destruct x; try reflexivity end. apply K. }
  assert (E2 : forall (A : Type) (F H : list string -> list (list string) -> res A) rs, (forall hd t, F hd t = H hd t) ->
    match rs with ["@arcs"] :: hd :: t => F hd t | _ => Throw end = match rs with ["@arcs"] :: hd :: t => H hd t | _ => Throw end).
  { intros A F H rs K. repeat match goal with |- context [match ?x with _ => _ end] => is_var x; destruct x; try reflexivity end. apply K. }
  unfold lgf_read. rewrite M1. apply E1. intros hd t. destruct (index_of "label" hd) as [c|]; [|reflexivity]. rewrite B.
  destruct (read_nodes (length hd) c t) as [r| | |]; try reflexivity. cbn [bind]. rewrite M2. apply E2. intros ha t2.
  destruct (index_of "capacity" ha) as [ca|]; [|reflexivity]. rewrite read_arcs_map, !B.
  destruct (read_arcs parse (fst r) (length ha) ca t2); reflexivity.
Qed.

(** Numbers are tokens: no blanks in them. *)
Lemma digit_numchar c d : ShowThy.digit c = Some d -> numchar c = true.
Proof.
  unfold ShowThy.digit, numchar, LgfThy.digit. cbv zeta. destruct ((48 <=? Z.of_nat (nat_of_ascii c)) && (Z.of_nat (nat_of_ascii c) <=? 57))%Z eqn:E; [|discriminate].
  intros _. apply andb_true_iff in E as [A B]. apply Z.leb_le in A, B.
  assert (A' : (48 <=? nat_of_ascii c)%nat = true) by (apply Nat.leb_le; lia). assert (B' : (nat_of_ascii c <=? 57)%nat = true) by (apply Nat.leb_le; lia).
  rewrite A', B'. reflexivity.
Qed.
Lemma take_digits_chars l : forallb numchar (snd (take_digits l)) = true -> forallb numchar l = true.
Proof.
  induction l as [|c l IH]; [reflexivity|]. cbn [take_digits]. destruct (ShowThy.digit c) as [d|] eqn:E; cbn [snd]; [|auto].
  intro H. cbn [forallb]. rewrite (digit_numchar _ _ E). apply IH. exact H.
Qed.
Lemma read_exp_chars l e : read_exp l = Some e -> forallb numchar l = true.
Proof.
  destruct l as [|c l]; [reflexivity|]. destruct (Ascii.eqb_spec c "e"); [subst c|].
  - destruct l as [|s t]; [discriminate|]. cbn [read_exp]. assert (T := take_digits_chars t). destruct (take_digits t) as [[|d ds] [|x r]]; try discriminate.
    intro H. cbn [forallb]. rewrite T by reflexivity. unfold numchar at 2. destruct (Ascii.eqb_spec s "-"); [subst s; reflexivity|].
    destruct (Ascii.eqb_spec s "+"); [subst s; reflexivity|discriminate].
  - intro H. exfalso. apply n. unfold read_exp in H. destruct c as [b0 b1 b2 b3 b4 b5 b6 b7].
    destruct b0, b1, b2, b3, b4, b5, b6, b7; try discriminate H; reflexivity.
Qed.
Lemma read_unsigned_chars l q : read_unsigned l = Some q -> forallb numchar l = true.
Proof.
  unfold read_unsigned. cbv zeta. intro H. apply take_digits_chars. destruct (take_digits l) as [i r]. cbn [fst snd] in *.
  assert (K : forallb numchar (snd (fraction r)) = true).
  { destruct i; [discriminate|]. destruct (read_exp (snd (fraction r))) eqn:E; [|discriminate]. apply read_exp_chars in E. exact E. }
  destruct r as [|c t]; [reflexivity|]. cbn [fraction] in K. destruct (Ascii.eqb_spec c "."); [|exact K]. subst c. cbn [forallb]. apply take_digits_chars. exact K.
Qed.
Lemma read_number_token s q : read_number s = Some q -> token s.
Proof.
  assert (S : forall s, sall numchar s = forallb numchar (list_ascii_of_string s)) by (clear; induction s; simpl; congruence).
  unfold token. rewrite S. unfold read_number. destruct s as [|c s]; [discriminate|]. intro H. split; [discriminate|]. cbn [list_ascii_of_string] in *.
  destruct (Ascii.eqb_spec c "-"); [subst c|exact (read_unsigned_chars _ _ H)]. cbn [forallb].
  destruct (read_unsigned (list_ascii_of_string s)) eqn:E; [|discriminate]. apply read_unsigned_chars in E. exact E.
Qed.

(** The reader of doubles: the exact reader, capacities rounded. *)
Lemma lgf_read_double text n E : lgf_read read_number text = Ok (mkG (seq 0 n) E) -> lgf_read read_double text = Ok (mkG (seq 0 n) (stored rw53 E)).
Proof. intro H. unfold read_double. rewrite lgf_read_map, H. reflexivity. Qed.

(** ** C97 *)
(** Let the text of the graph file describe a graph within the premises of C95, with the weights as written in it.  main then writes a file that
    lists the principal sequence of that graph, for every accepted method but agg_psp. *)
Theorem C97_text_to_text : forall ita itn mc mr sch fs wr o f text r n E W D, MinSinkCutSpec mc -> MinSrcCutSpec mr ->
  (forall G, Permutation (ita G) G) -> (forall G, Permutation (itn G) G) -> (2 <= n)%nat ->
  op_help o = false -> op_graph o = Some f -> fs f = Some text -> lgf_read read_number text = Ok (mkG (seq 0 n) E) ->
  graph_on (seq 0 n) E -> simple E -> forward E -> (forall a, In a E -> 0 < aw a) -> qsum aw E <= W -> 1 <= W ->
  960 * n4 n (u53 * W) < eps53 -> 2000 * n4 n eps53 <= 1 ->
  multiples_of D E -> fine_tol D n (qn n * (65 * n4 n eps53)) ->
  exists lams Ps, IsPSP E (seq 0 n) lams Ps /\
    forall m, op_method o = Some m \/ op_method o = None /\ m = "dt" ->
      In m ["dt"; "psp_i"; "pdt"; "pdt_r"] \/ m = "hpsp" /\ tie_free n E ->
      result_name o m f r -> wr r = true ->
      ((m = "pdt" \/ m = "pdt_r") /\ f_main_prog (env53 ita itn mc mr sch) fs wr o = Throw) \/
      exists file ts qs Rs,
        f_main_prog (env53 ita itn mc mr sch) fs wr o = Ok (mkFEnd 0 match op_time o with Some true => [STime] | _ => [] end (Some (r, file))) /\
        alternate ts Rs file /\ Forall2 says ts qs /\ listing (65 * n4 n eps53) lams Ps (map Fin qs) Rs.
Proof.
  intros ita itn mc mr sch fs wr o f text r n E W D Hmc Hmr Hita Hitn Hn Hh Hg Hfs HT HE Hs Hf Hp HW HW1 H1 H2 HD Ht.
  destruct (C96_result_file_double ita itn mc mr sch n E W D Hmc Hmr Hita Hitn Hn HE Hs Hf Hp HW HW1 H1 H2 HD Ht) as (lams & Ps & K & A).
  exists lams, Ps. split; [exact K|]. intros m Hm Hm2 Hr Hw. specialize (A m Hm2).
  assert (Mt : match op_method o with Some m => m | None => "dt" end = m) by (destruct Hm as [->|[-> ->]]; reflexivity).
  assert (G : ((m =? "dt") || (m =? "psp_i") || (m =? "pdt") || (m =? "pdt_r") || (m =? "agg_psp") || (m =? "hpsp")) = true).
  { clear - Hm2. destruct Hm2 as [Hm|[-> _]]; [|reflexivity]. cbn [In] in Hm. destruct Hm as [<-|[<-|[<-|[<-|[]]]]]; reflexivity. }
  assert (N : (if match op_result o with Some r => r | None => "output.txt" end =? "output.txt" then m ++ "-" ++ f ++ ".txt"
               else match op_result o with Some r => r | None => "output.txt" end) = r).
  { unfold result_name in Hr. destruct (op_result o) as [r'|]; [|auto]. destruct (r' =? "output.txt"); auto. }
  unfold f_main in A. rewrite G in A.
  assert (F : f_main_prog (env53 ita itn mc mr sch) fs wr o =
    do x <- f_dispatch (env53 ita itn mc mr sch) m (stored rw53 E) n; do l <- main_output (fst x) (snd x);
    Ok (mkFEnd 0 match op_time o with Some true => [STime] | _ => [] end (Some (r, map text_of l)))).
  { unfold f_main_prog. rewrite Hh. cbv zeta. rewrite Mt, G. cbn [negb]. rewrite Hg, Hfs, (lgf_read_double _ _ _ HT). cbn [bind gnodes garcs]. rewrite seq_length, N, Hw.
    destruct (op_time o) as [[]|]; reflexivity. }
  rewrite F. clear F. destruct (f_dispatch (env53 ita itn mc mr sch) m (stored rw53 E) n) as [x| | |]; cbn [bind] in *.
  - destruct (main_output (fst x) (snd x)) as [l| | |]; cbn [bind] in *.
    + destruct A as [[_ A]|(file & ts & qs & Rs & A1 & A2)]; [discriminate A|]. injection A1 as <-. right. exists (map text_of l), ts, qs, Rs. split; [reflexivity|exact A2].
    + destruct A as [[_ A]|(file & ts & qs & Rs & A1 & A2)]; [discriminate A|discriminate A1].
    + left. destruct A as [[A _]|(file & ts & qs & Rs & A1 & A2)]; [split; [exact A|reflexivity]|discriminate A1].
    + destruct A as [[_ A]|(file & ts & qs & Rs & A1 & A2)]; [discriminate A|discriminate A1].
  - destruct A as [[_ A]|(file & ts & qs & Rs & A1 & A2)]; [discriminate A|discriminate A1].
  - left. destruct A as [[A _]|(file & ts & qs & Rs & A1 & A2)]; [split; [exact A|reflexivity]|discriminate A1].
  - destruct A as [[_ A]|(file & ts & qs & Rs & A1 & A2)]; [discriminate A|discriminate A1].
Qed.
Print Assumptions C97_text_to_text.

(** A file that cannot be read makes main throw; nothing is written.  Whether it can be read does not depend on the rounding. *)
Theorem C97_unreadable : forall v fs wr o f text, op_help o = false -> op_graph o = Some f -> fs f = Some text -> lgf_read read_number text = Throw ->
  In (match op_method o with Some m => m | None => "dt" end) accepted -> f_main_prog v fs wr o = Throw.
Proof.
  intros v fs wr o f text Hh Hg Hfs HT Ha. unfold f_main_prog. rewrite Hh. cbv zeta. apply accepted_spec in Ha. rewrite Ha. cbn [negb].
  rewrite Hg, Hfs. unfold read_double. rewrite lgf_read_map, HT. reflexivity.
Qed.
Print Assumptions C97_unreadable.

(** The runs that read no graph: --help, a method that is not accepted, no --graph, no such file.  agg_psp of a build without AGG throws
    whatever the file holds. *)
Theorem C97_refused : forall v fs wr o,
  (op_help o = true -> f_main_prog v fs wr o = Ok (mkFEnd 0 [SHelp] None)) /\
  (forall m, op_help o = false -> op_method o = Some m -> ~ In m accepted -> f_main_prog v fs wr o = Ok (mkFEnd 0 [SUnknown m; SHelp] None)) /\
  (op_help o = false -> In (match op_method o with Some m => m | None => "dt" end) accepted ->
   (op_graph o = None \/ (exists f, op_graph o = Some f /\ fs f = None)) -> f_main_prog v fs wr o = Throw) /\
  (forall f text, op_help o = false -> op_method o = Some "agg_psp" -> op_graph o = Some f -> fs f = Some text ->
   lgf_read read_number text <> UB -> lgf_read read_number text <> OutOfFuel -> f_main_prog v fs wr o = Throw).
Proof.
  intros v fs wr o. unfold f_main_prog. split; [intros ->; reflexivity|]. split; [|split].
  - intros m -> -> H.
    destruct ((m =? "dt") || (m =? "psp_i") || (m =? "pdt") || (m =? "pdt_r") || (m =? "agg_psp") || (m =? "hpsp")) eqn:E; [|reflexivity].
    apply accepted_spec in E. contradiction.
  - intros -> Ha H. cbv zeta. apply accepted_spec in Ha. rewrite Ha. cbn [negb].
    destruct H as [->|(f & -> & ->)]; reflexivity.
  - intros f text -> -> -> -> NU NF. cbv zeta. cbn [negb]. unfold read_double. rewrite lgf_read_map.
    change (negb (("agg_psp" =? "dt") || ("agg_psp" =? "psp_i") || ("agg_psp" =? "pdt") || ("agg_psp" =? "pdt_r") || ("agg_psp" =? "agg_psp") || ("agg_psp" =? "hpsp"))) with false.
    cbv iota. destruct (lgf_read read_number text) as [G| | |]; try reflexivity; congruence.
Qed.
Print Assumptions C97_refused.

(** The file convert of gaussian2Dcase.py writes for a matrix [A]; [B i j] is what the text of [A i j] says. *)
Lemma read_arcs_gen parse shw A B n ij : (forall i j, In (i, j) ij -> (i < j < n)%nat /\ parse (shw (A i j)) = Some (B i j)) ->
  forall cnt, read_arcs parse (map str_nat (seq 0 n)) 2 1 (map row4 (arc_fields shw A ij cnt)) =
    Ok (map (fun p => mkArc (fst p) (snd p) (B (fst p) (snd p))) ij).
Proof.
  induction ij as [|[i j] ij IH]; intros H cnt; auto. cbn [arc_fields map row4 read_arcs fst snd]. unfold section.
  destruct (token_head _ (str_nat_token i)) as [_ ->]. cbn [List.length Nat.eqb nth].
  destruct (H i j (or_introl eq_refl)) as [H1 ->]. rewrite !index_seq by lia. rewrite IH by (intros; apply H; simpl; auto).
  cbn [bind]. rewrite !Nat.sub_0_r. reflexivity.
Qed.
Theorem C97_converted_file : forall shw n A B,
  (forall i j, (i < j < n)%nat -> 1 # 10000000000 <= A i j -> read_number (shw (A i j)) = Some (B i j)) ->
  exists E, lgf_read read_number (convert shw n A) = Ok (mkG (seq 0 n) E) /\ simple E /\ forward E /\
    (forall a, In a E <-> (asrc a < adst a < n)%nat /\ aw a = B (asrc a) (adst a) /\ 1 # 10000000000 <= A (asrc a) (adst a)).
Proof.
  intros shw n A B T.
  exists (map (fun p => mkArc (fst p) (snd p) (B (fst p) (snd p))) (kept A (pairs n))). split; [|split; [|split]].
  - unfold lgf_read. rewrite rows_convert by (intros i j H1 H2; apply (read_number_token _ _ (T i j H1 H2))). cbv iota beta.
    change (index_of "label" ["label"]) with (Some 0%nat). cbv iota beta. change (List.length ["label"]) with 1%nat.
    rewrite read_nodes_spec by reflexivity. cbn [bind fst snd]. change (index_of "capacity" ["label"; "capacity"]) with (Some 1%nat). cbv iota beta.
    change (List.length ["label"; "capacity"]) with 2%nat. rewrite (read_arcs_gen read_number shw A B n).
    + cbn [bind]. rewrite map_length, seq_length. reflexivity.
    + intros i j Hp. apply kept_spec in Hp as [H1 H2]. split; auto.
  - unfold simple. rewrite map_map.
    assert (NI : forall l : list (nat * nat), NoDup l -> NoDup (map (fun x => (fst x, snd x)) l)).
    { intros l N. erewrite map_ext; [rewrite map_id; exact N|]. intros [x y]. reflexivity. }
    apply NI, kept_nodup.
  - intros a I. apply in_map_iff in I as ([i j] & <- & I). apply kept_spec in I as [I1 I2]. cbn [asrc adst fst snd]. lia.
  - intros [i j w]. rewrite in_map_iff. cbn [asrc adst aw]. split.
    + intros ([i' j'] & E & I). cbn [fst snd] in E. injection E as <- <- <-. apply kept_spec in I as [I1 I2]. auto.
    + intros (H1 & -> & H2). exists (i, j). split; [reflexivity|]. apply kept_spec. auto.
Qed.
Print Assumptions C97_converted_file.

(** A file with three nodes, and what main writes for it. *)
Definition lf1 : string := String "010"%char "".
Definition tb1 : string := String "009"%char "".
Definition file3 : string :=
  "@nodes" ++ lf1 ++ "label" ++ lf1 ++ "0" ++ lf1 ++ "1" ++ lf1 ++ "2" ++ lf1 ++ "@arcs" ++ lf1 ++ tb1 ++ tb1 ++ "label" ++ tb1 ++ "capacity" ++ lf1 ++
  "0" ++ tb1 ++ "1" ++ tb1 ++ "0" ++ tb1 ++ "0.1" ++ lf1 ++ "0" ++ tb1 ++ "2" ++ tb1 ++ "1" ++ tb1 ++ "1.25" ++ lf1 ++
  "1" ++ tb1 ++ "2" ++ tb1 ++ "2" ++ tb1 ++ "2e-01".
Definition file3_graph : graph :=
  [mkArc 0 1 (inject_Z 1 * Qpower 10 (-1)); mkArc 0 2 (inject_Z 125 * Qpower 10 (-2)); mkArc 1 2 (inject_Z 2 * Qpower 10 (-1))].
Definition env3 : fenv := env53 (@rev arc) (@rev narc) aug_mincut (rev_solver aug_mincut) (fun _ _ => false).
Definition disk (f : string) : option string := if f =? "g.lgf" then Some file3 else None.
Example C97_nonvacuous :
  MinSinkCutSpec aug_mincut /\ MinSrcCutSpec (rev_solver aug_mincut) /\ lgf_read read_number file3 = Ok (mkG (seq 0 3) file3_graph) /\
  graph_on (seq 0 3) file3_graph /\ simple file3_graph /\ forward file3_graph /\ (forall a, In a file3_graph -> 0 < aw a) /\ qsum aw file3_graph <= 2 /\
  960 * n4 3 (u53 * 2) < eps53 /\ 2000 * n4 3 eps53 <= 1 /\ multiples_of 100 file3_graph /\ fine_tol 100 3 (qn 3 * (65 * n4 3 eps53)) /\
  f_main_prog env3 disk (fun _ => true) (mkOpts false (Some "g.lgf") None None None) =
    Ok (mkFEnd 0 [] (Some ("dt-g.lgf.txt", [TPart [[0;1;2]]; TVal "0.3"; TPart [[0;2];[1]]; TVal "1.25"; TPart [[0];[1];[2]]]%nat))) /\
  f_main_prog env3 disk (fun _ => true) (mkOpts false (Some "g.lgf") (Some "pdt_r") (Some "o.txt") (Some true)) =
    Ok (mkFEnd 0 [STime] (Some ("o.txt", [TPart [[0;1;2]]; TVal "0.3"; TPart [[0;2];[1]]; TVal "1.25"; TPart [[0];[1];[2]]]%nat))) /\
  f_main_prog env3 disk (fun _ => true) (mkOpts false (Some "h.lgf") None None None) = Throw /\
  lgf_read read_number (file3 ++ "x") = Throw /\
  (let shw := fun q => if Qle_bool q (1#2) then "0.1" else "1.25" in let A := fun i j => if (i =? 0)%nat && (j =? 2)%nat then 5#4 else if (j =? 1)%nat then rnd 53 (1#10) else 0 in
   lgf_read read_number (convert shw 3 A) = Ok (mkG (seq 0 3) (firstn 2 file3_graph))).
Proof.
  split; [apply aug_mincut_spec|]. split; [exact (rev_solver_spec _ aug_mincut_spec)|]. split; [vm_compute; reflexivity|].
  split; [intros a H; simpl in H; intuition (subst; simpl; auto 10; vm_compute; discriminate)|].
  split; [unfold simple; simpl; repeat constructor; simpl; intuition congruence|].
  split; [intros a H; simpl in H; intuition (subst; simpl; lia)|].
  split; [intros a H; simpl in H; intuition (subst; reflexivity)|].
  split; [vm_compute; discriminate|]. split; [reflexivity|]. split; [vm_compute; discriminate|].
  split; [intros a H; simpl in H; destruct H as [<-|[<-|[<-|[]]]]; [exists 10%Z|exists 125%Z|exists 20%Z]; reflexivity|].
  split; [reflexivity|]. split; [vm_compute; reflexivity|]. split; [vm_compute; reflexivity|]. split; [vm_compute; reflexivity|]. split; vm_compute; reflexivity.
Qed.
