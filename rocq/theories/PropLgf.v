(** * Properties C91 and C92: the files of utility/gaussian2Dcase.py, and main on such a file. *)
From Coq Require Import String Ascii.
From Verif Require Import Base Graph Spec MSets MGraph MaxFlow PSPThy MDil MDT MContract MHost MPSPI MHPSP MPMF MPMFR MHC MAIC SFSpec MNBThy ExactMNB
  PDTThy PropDil PropAIC MWrap PropWrap MMain PropMain MLgf LgfThy.
Notation length := List.length (only parsing).
Open Scope list_scope.
Open Scope string_scope.

(** ** C91: convert and toNetworkX *)
(** Reading back: the nodes are the rows of the matrix, the arcs the pairs i < j with an entry of at least 1e-10,
    labelled with the entry as written; no node is labelled. *)
Theorem C91_round_trip : forall shw n A fuel,
  (forall i j, (i < j < n)%nat -> 1 # 10000000000 <= A i j -> token (shw (A i j))) -> (n + 2 <= fuel)%nat ->
  exists g, toNetworkX fuel (convert shw n A) = Ok g /\
    nx_nodes g = map str_nat (seq 0 n) /\ NoDup (nx_nodes g) /\ nx_label g = [] /\ NoDup (map fst (nx_arcs g)) /\
    forall s t c, In (s, t, c) (nx_arcs g) <->
      exists i j, (i < j < n)%nat /\ 1 # 10000000000 <= A i j /\ s = str_nat i /\ t = str_nat j /\ c = shw (A i j).
Proof.
  intros shw n A fuel T Hf. eexists. split; [apply toNetworkX_convert; auto|]. cbn [nx_nodes nx_arcs nx_label].
  assert (NI : forall (X Y : Type) (f : X -> Y) l, (forall x y, f x = f y -> x = y) -> NoDup l -> NoDup (map f l)).
  { intros X Y f l H N. induction N as [|x l I N IH]; simpl; constructor; auto. intro J. apply in_map_iff in J as (y & E & J).
    apply H in E. subst. contradiction. }
  split; [reflexivity|]. split; [apply NI; [apply str_nat_inj|apply seq_NoDup]|]. split; [reflexivity|]. split.
  - rewrite map_map. apply NI; [|apply kept_nodup]. intros [i j] [i' j'] E. unfold nx_of in E. cbn [fst snd] in E.
    injection E as E1 E2. apply str_nat_inj in E1, E2. congruence.
  - intros s t c. rewrite in_map_iff. split.
    + intros ([i j] & E & I). unfold nx_of in E. cbn [fst snd] in E. injection E as <- <- <-. apply kept_spec in I as [I1 I2].
      exists i, j. auto.
    + intros (i & j & H1 & H2 & -> & -> & ->). exists (i, j). split; [reflexivity|]. apply kept_spec. auto.
Qed.
Print Assumptions C91_round_trip.

(** toNetworkX comes to an end exactly on the files with a line containing @arcs after the first one; on all others
    the first loop never ends. *)
Theorem C91_ends : forall text,
  (exists fuel, toNetworkX fuel text <> OutOfFuel) <->
  (exists k l, nth_error (lines_of text) (S k) = Some l /\ contains "@arcs" l = true).
Proof.
  intro text. unfold toNetworkX. destruct (lines_of text) as [|l1 ls] eqn:E; cbn [readline fst snd].
  - split.
    + intros [fuel H]. exfalso. apply H. rewrite nodes_hang by auto. reflexivity.
    + intros (k & l & H & _). discriminate H.
  - split.
    + intros [fuel H]. destruct (existsb (contains "@arcs") ls) eqn:X.
      * apply existsb_exists in X as (l & I & X). apply In_nth_error in I as [k I]. exists k, l. auto.
      * exfalso. apply H. assert (F : Forall (fun l => contains "@arcs" l = false) ls).
        { apply Forall_forall. intros l I. destruct (contains "@arcs" l) eqn:Y; auto.
          assert (Z : existsb (contains "@arcs") ls = true) by (apply existsb_exists; eauto). congruence. }
        rewrite nodes_hang; auto; destruct ls; simpl; auto; inversion F; auto.
    + intros (k & l & H & X). simpl in H. destruct ls as [|l2 ls]; [destruct k; discriminate H|]. cbn [readline fst snd].
      exists (S (length ls)). destruct (nodes_ends (S (length ls)) l2 ls (mkNx [] [] [])) as (rest & g' & ->); [|lia|].
      { destruct k as [|k]; simpl in H; [left; congruence|]. right. apply Exists_exists. exists l. split; auto. eapply nth_error_In; eauto. }
      cbn [bind fst snd]. assert (N := arcs_not_fuel rest g'). destruct (arcs_loop rest g') as [r2| | |]; cbn [bind fst snd]; try discriminate; try congruence.
      unfold second_field, set_label.
      repeat (match goal with |- context [if ?b then _ else _] => destruct b
                            | |- context [match split ?c ?s with _ => _ end] => destruct (split c s) as [|? [|? [|]]] end; cbn [bind]; try discriminate).
Qed.
Print Assumptions C91_ends.

(** A node is labelled s only because of a line with both @attributes and source, and t only because of the line right
    after an @attributes line (or after the end). *)
Theorem C91_terminal_labels : forall fuel text g, toNetworkX fuel text = Ok g ->
  (forall x, In (x, "s") (nx_label g) -> exists l, In l (lines_of text) /\ contains "@attributes" l = true /\ contains "source" l = true) /\
  (forall x, In (x, "t") (nx_label g) -> exists p l l' q, lines_of text = (p ++ l :: l' :: q)%list /\
     contains "@attributes" l = true /\ contains "target" l' = true).
Proof.
  intros fuel text g H. unfold toNetworkX in H.
  destruct (nodes_loop fuel _ _ _) as [[rest g0]| | |] eqn:E1; cbn [bind fst snd] in H; try discriminate H.
  destruct (arcs_loop rest g0) as [[[st t] g1]| | |] eqn:E2; cbn [bind fst snd] in H; try discriminate H.
  destruct (nodes_label _ _ _ _ _ _ E1) as (L1 & p1 & P1). destruct (arcs_label _ _ _ _ _ E2) as (L2 & S & p2 & P2). cbn [nx_label] in L1.
  assert (LS : forall l, st = l -> l <> "" -> exists p, lines_of text = (p ++ l :: t)%list).
  { intros l <- N. destruct st as [|c st]; [congruence|]. destruct (lines_of text) as [|a [|b ls]]; cbn [readline fst snd] in P1.
    - destruct p1; simpl in P1; [subst rest; destruct p2; discriminate|discriminate].
    - destruct p1; simpl in P1; [subst rest; destruct p2; discriminate|discriminate].
    - exists (a :: b :: p1 ++ p2). rewrite P1, P2. simpl. rewrite <- app_assoc. reflexivity. }
  assert (G1 : exists g2, (if contains "source" st then do x <- second_field st; set_label x "s" g1 else Ok g1) = Ok g2 /\
     (nx_label g2 = [] \/ contains "source" st = true /\ exists x, nx_label g2 = [(x, "s")])).
  { destruct (contains "source" st) eqn:C.
    - destruct (second_field st) as [x| | |]; cbn [bind] in H |- *; try discriminate H. unfold set_label in *.
      destruct (existsb _ _); cbn [bind] in H; [|discriminate H]. eexists. split; [reflexivity|]. right. split; auto. exists x.
      cbn [nx_label]. rewrite L2, L1. reflexivity.
    - eexists. split; [reflexivity|]. left. congruence. }
  destruct G1 as (g2 & E3 & G2). rewrite E3 in H. cbn [bind] in H.
  assert (G3 : nx_label g = nx_label g2 \/ contains "target" (fst (readline t)) = true /\ exists x, nx_label g = (x, "t") :: nx_label g2).
  { destruct (contains "target" (fst (readline t))) eqn:C; [|left; congruence]. right. split; auto.
    destruct (second_field _) as [x| | |]; cbn [bind] in H; try discriminate H. unfold set_label in H. destruct (existsb _ _); [|discriminate H].
    injection H as <-. exists x. reflexivity. }
  split.
  - intros x I. assert (I2 : In (x, "s") (nx_label g2)) by (destruct G3 as [<-|(_ & z & G3)]; auto; rewrite G3 in I; destruct I as [I|I]; [discriminate I|auto]).
    destruct G2 as [G2|(C & z & G2)]; [rewrite G2 in I2; destruct I2|]. destruct S as [->|S]; [discriminate C|].
    exists st. split; auto. destruct (LS st eq_refl) as [p P]; [intros ->; discriminate C|]. rewrite P. apply in_app_iff. right. left. reflexivity.
  - intros x I. destruct G3 as [G3|(C & z & G3)].
    { rewrite G3 in I. destruct G2 as [G2|(_ & z & G2)]; rewrite G2 in I; simpl in I; [tauto|destruct I as [I|[]]; discriminate I]. }
    destruct t as [|l' q]; [discriminate C|]. cbn [readline fst] in C. destruct S as [->|S].
    + exfalso. clear - E2. revert g0 E2. induction rest as [|a rest IH]; intros g0 E2; simpl in E2; [discriminate E2|].
      destruct (contains "@attributes" a) eqn:X; [injection E2 as -> _ _; discriminate X|]. destruct (contains "label" a); [eapply IH; eauto|].
      destruct (split tab (strip a)) as [|? [|? [|? [|? [|]]]]]; try discriminate E2. eapply IH; eauto.
    + destruct (LS st eq_refl) as [p P]; [intros ->; discriminate S|]. exists p, st, l', q. auto.
Qed.
Print Assumptions C91_terminal_labels.

(** A file with terminals as LEMON writes them: an @attributes section with one line for each. *)
Definition lf : string := String nl "".
Definition tb : string := String tab "".
Definition terminal_file (s t : string) : string :=
  "@nodes" ++ lf ++ "label" ++ lf ++ "0" ++ lf ++ "1" ++ lf ++ "2" ++ lf ++ "@arcs" ++ lf ++ tb ++ tb ++ "label" ++ tb ++ "capacity" ++ lf ++
  "0" ++ tb ++ "1" ++ tb ++ "0" ++ tb ++ "1.5" ++ lf ++ "1" ++ tb ++ "2" ++ tb ++ "1" ++ tb ++ "2" ++ lf ++
  "@attributes" ++ lf ++ "source " ++ s ++ lf ++ "target " ++ t ++ lf.

(** That the terminals of such a file are labelled s and t is false: neither is. *)
Theorem C91_terminals_refuted :
  ~ (forall fuel s t g, In s ["0"; "1"; "2"] -> In t ["0"; "1"; "2"] -> toNetworkX fuel (terminal_file s t) = Ok g ->
       In (s, "s") (nx_label g) \/ In (t, "t") (nx_label g)).
Proof.
  intro H. specialize (H 20%nat "0" "2" _ ltac:(simpl; auto) ltac:(simpl; auto) eq_refl). vm_compute in H. tauto.
Qed.
Print Assumptions C91_terminals_refuted.

(** Entries as str prints them. *)
Definition ex_show (q : Q) : string :=
  if Qeq_bool q (1#2) then "0.5" else if Qeq_bool q (1#4) then "0.25" else if Qeq_bool q (1 # 10000000000) then "1e-10" else "1.0".
Definition ex_A (i j : nat) : Q :=
  match i, j with
  | 0%nat, 1%nat => 1#2 | 1%nat, 2%nat => 1 # 10000000000 | 0%nat, 3%nat => 1 # 10000000001
  | 2%nat, 3%nat => 1#4 | 1%nat, 3%nat => 1 | _, _ => 0
  end.
Example C91_nonvacuous :
  (forall i j, token (ex_show (ex_A i j))) /\
  toNetworkX 12 (convert ex_show 4 ex_A) =
    Ok (mkNx ["0"; "1"; "2"; "3"] [("0", "1", "0.5"); ("1", "2", "1e-10"); ("1", "3", "1.0"); ("2", "3", "0.25")] []) /\
  toNetworkX 20 (terminal_file "0" "2") = Ok (mkNx ["0"; "1"; "2"] [("0", "1", "1.5"); ("1", "2", "2")] []) /\
  (forall fuel, toNetworkX fuel ("@nodes" ++ lf ++ "label" ++ lf ++ "0") = OutOfFuel) /\
  toNetworkX 9 ("@nodes" ++ lf ++ "label" ++ lf ++ "0" ++ lf ++ "@arcs" ++ lf ++ "label" ++ lf ++ "0" ++ tb ++ "0" ++ tb ++ "0" ++ tb ++ "1" ++ lf ++ "@attributes source 0" ++ lf ++ "target 0") = Throw /\
  toNetworkX 9 ("@nodes" ++ lf ++ "label" ++ lf ++ "0" ++ lf ++ "@arcs" ++ lf ++ "label" ++ lf ++ "@attributes" ++ lf ++ "target 0") = Ok (mkNx ["0"] [] [("0", "t")]).
Proof.
  split.
  { intros i j. unfold ex_show. repeat match goal with |- context [if ?b then _ else _] => destruct b end; split; try discriminate; reflexivity. }
  split; [vm_compute; reflexivity|]. split; [vm_compute; reflexivity|]. split; [|split; vm_compute; reflexivity].
  intro fuel. assert (N : ~ exists k l, nth_error (lines_of ("@nodes" ++ lf ++ "label" ++ lf ++ "0")) (S k) = Some l /\ contains "@arcs" l = true).
  { intros (k & l & H & C). destruct k as [|[|k]]; [| |destruct k; discriminate H]; vm_compute in H; injection H as <-; discriminate C. }
  destruct (toNetworkX fuel _) eqn:E; auto; exfalso; apply N, C91_ends; exists fuel; rewrite E; discriminate.
Qed.

(** ** C92: main on a converted file *)
(** What main reads is the graph of the pairs i < j with an entry of at least 1e-10: simple, and every arc goes to a larger id. *)
Theorem C92_reader : forall parse shw n A,
  (forall i j, (i < j < n)%nat -> 1 # 10000000000 <= A i j -> token (shw (A i j)) /\ parse (shw (A i j)) = Some (A i j)) ->
  exists E, lgf_read parse (convert shw n A) = Ok (mkG (seq 0 n) E) /\
    (forall a, In a E <-> (asrc a < adst a < n)%nat /\ aw a = A (asrc a) (adst a) /\ 1 # 10000000000 <= aw a) /\
    graph_on (seq 0 n) E /\ simple E /\ forward E.
Proof.
  intros parse shw n A T. exists (conv_graph n A). split; [apply lgf_convert; auto|].
  assert (S : forall a, In a (conv_graph n A) <-> (asrc a < adst a < n)%nat /\ aw a = A (asrc a) (adst a) /\ 1 # 10000000000 <= aw a).
  { intros [i j w]. unfold conv_graph. rewrite in_map_iff. cbn [asrc adst aw]. split.
    - intros ([i' j'] & E & I). cbn [fst snd] in E. injection E as <- <- <-. apply kept_spec in I as [I1 I2]. auto.
    - intros (H1 & -> & H2). exists (i, j). split; [reflexivity|]. apply kept_spec. auto. }
  split; [exact S|]. split; [|split].
  - intros a Ha. apply S in Ha as (H1 & _ & H2). rewrite !in_seq. repeat split; try lia. lra.
  - unfold simple, conv_graph. rewrite map_map.
    assert (NI : forall l : list (nat * nat), NoDup l -> NoDup (map (fun x => (fst x, snd x)) l)).
    { intros l N. erewrite map_ext; [rewrite map_id; exact N|]. intros [x y]. reflexivity. }
    apply NI, kept_nodup.
  - intros a Ha. apply S in Ha as (H1 & _). lia.
Qed.
Print Assumptions C92_reader.

(** main on such a file writes the principal sequence of partitions of that graph, by every method, if the entries are multiples of 1/D
    and the tolerance is small enough for D. *)
Theorem C92_main : forall v ag fs wr parse shw n A D o m f r,
  (forall i j, (i < j < n)%nat -> 1 # 10000000000 <= A i j ->
     token (shw (A i j)) /\ parse (shw (A i j)) = Some (A i j) /\ exists z : Z, A i j == z # D) ->
  MinSinkCutSpec (e_mc v) -> MinSrcCutSpec (e_mr v) -> 0 < e_eps v -> e_eps v <= 1 # 10000000000 -> (2 <= n)%nat ->
  fine_tol D n (e_eps v) -> 10 * e_eps v * inject_Z (Zpos (gridM D n)) < 1 ->
  (m = "agg_psp" -> agg_acceptable ag n D) ->
  op_help o = false -> op_method o = Some m \/ op_method o = None /\ m = "dt" -> In m accepted ->
  op_graph o = Some f -> fs f = Some (convert shw n A) -> result_name o m f r -> wr r = true ->
  exists E lams Ps file,
    (forall a, In a E <-> (asrc a < adst a < n)%nat /\ aw a = A (asrc a) (adst a) /\ 1 # 10000000000 <= aw a) /\ simple E /\
    main_prog v ag (fun f => match fs f with Some text => lgf_read parse text | None => Throw end) wr o =
      Ok (mkEnd 0 match op_time o with Some true => [STime] | _ => [] end (Some (r, file))) /\
    alternates file lams Ps /\ IsWeakPSP E (seq 0 n) lams Ps /\ (m <> "psp_i" -> IsPSP E (seq 0 n) lams Ps).
Proof.
  intros v ag fs wr parse shw n A D o m f r T Hc Hr He He2 Hn Hf Hg Ha Hh Hm Hac Hgr Hfs Hres Hw.
  destruct (C92_reader parse shw n A) as (E & R & S & G1 & G2 & G3).
  { intros i j H1 H2. destruct (T i j H1 H2) as (A1 & A2 & _). auto. }
  assert (AC : acceptable v E n D).
  { repeat (split; [assumption|]). split; [|split; [|split; assumption]].
    - intros a I. apply S in I as (_ & _ & I). lra.
    - intros a I. apply S in I as (I1 & I2 & I3). rewrite I2 in I3. destruct (T _ _ I1 I3) as (_ & _ & z & Z). exists z. rewrite I2. exact Z. }
  destruct (C64_result_file v ag (fun f => match fs f with Some text => lgf_read parse text | None => Throw end) wr o m f E n D r AC Ha Hh Hm Hac Hgr)
    as (lams & Ps & file & M1 & M2 & M3 & M4); auto.
  { rewrite Hfs. exact R. }
  exists E, lams, Ps, file. auto 10.
Qed.
Print Assumptions C92_main.

Definition ex_B (i j : nat) : Q :=
  match i, j with 0%nat, 1%nat => 1#2 | 0%nat, 2%nat => 1 # 20000000000 | 1%nat, 2%nat => 1#4 | _, _ => 0 end.
Definition ex_parse (s : string) : option Q :=
  if s =? "0.5" then Some (1#2) else if s =? "0.25" then Some (1#4) else None.
Example C92_nonvacuous :
  (forall i j, (i < j < 3)%nat -> 1 # 10000000000 <= ex_B i j ->
     token (ex_show (ex_B i j)) /\ ex_parse (ex_show (ex_B i j)) = Some (ex_B i j) /\ exists z : Z, ex_B i j == z # 4) /\
  MinSinkCutSpec (e_mc wit_env) /\ MinSrcCutSpec (e_mr wit_env) /\ 0 < e_eps wit_env /\ e_eps wit_env <= 1 # 10000000000 /\
  fine_tol 4 3 (e_eps wit_env) /\ 10 * e_eps wit_env * inject_Z (Zpos (gridM 4 3)) < 1 /\
  main_prog wit_env None (fun f => if f =? "g.lgf" then lgf_read ex_parse (convert ex_show 3 ex_B) else Throw) (fun _ => true)
    (mkOpts false (Some "g.lgf") None None None) =
  Ok (mkEnd 0 [] (Some ("dt-g.lgf.txt", [LPart [[0;1;2]]; LVal (Fin (1#4)); LPart [[0;1];[2]]; LVal (Fin (1#2)); LPart [[0];[1];[2]]]%nat))) /\
  lgf_read ex_parse ("@nodes" ++ lf ++ "label" ++ lf ++ "0" ++ lf ++ "@arcs" ++ lf ++ "label capacity" ++ lf ++ "0 1 0 0.5") = Throw /\
  lgf_read ex_parse ("# by hand" ++ lf ++ "@nodes" ++ lf ++ "x label" ++ lf ++ lf ++ "7 b" ++ lf ++ "8 a" ++ lf ++ "@arcs" ++ lf ++ "capacity" ++ lf ++ "a b 0.5") =
    Ok (mkG [0; 1]%nat [mkArc 1 0 (1#2)]).
Proof.
  split.
  { intros i j H1 H2. destruct i as [|[|[|i]]]; destruct j as [|[|[|j]]]; try lia; vm_compute in H2; try (exfalso; apply H2; reflexivity).
    - split; [split; [discriminate|reflexivity]|]. split; [reflexivity|]. exists 2%Z. reflexivity.
    - split; [split; [discriminate|reflexivity]|]. split; [reflexivity|]. exists 1%Z. reflexivity. }
  destruct tri_acceptable as (A1 & A2 & A3 & _). split; [exact A1|]. split; [exact A2|]. split; [exact A3|].
  split; [vm_compute; discriminate|]. split; [vm_compute; reflexivity|]. split; [vm_compute; reflexivity|].
  split; [vm_compute; reflexivity|]. split; vm_compute; reflexivity.
Qed.
