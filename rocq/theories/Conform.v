(** * Conform: the expectations of the repository's own unit tests (test/test_*.h), evaluated on the model.

    These are tests of the model, not proofs about the program: they compare the functions of the model
    with what the tests of /repo demand of the C++.  Each Example cites the test.  Doubles are compared as exact rationals.
    The max-flow solver is the brute-force one.  The last part repeats the tests on doubles, where
    EXPECT_DOUBLE_EQ allows four units in the last place; there the solver is the augmenting-path one.  Of the tests on Gaussian weights
    (GivenPoint8) those with gamma 1 are here; the weights are the doubles that std::exp returns if correctly rounded.  The three tests that only exercise lemon or print are omitted: PMF_R.reverse, PDT.RUN, COPY's input. *)
From Coq Require Import String Ascii DecimalString Qabs.
From Verif Require Import Base Graph MSets MGraph MaxFlow MDil MDT MHost MPSPI MHPSP MPMF MPMFR MWarm MTrim MHC MAIC ExactMNB MWrap PropWrap MMain MLgf.
From Verif Require Import PropDil PropDT.
From Verif Require MContract MUtil MWarmR MFloat MFloatR PropFloat PropFloatT PropFloatW.
Import MContract.
Notation length := List.length (only parsing).
Open Scope list_scope.

(** CSet(std::string): the positions of the ones. *)
Fixpoint ones_from (k : nat) (s : string) : cset :=
  match s with
  | EmptyString => []
  | String c t => if Ascii.eqb c "1"%char then k :: ones_from (S k) t else ones_from (S k) t
  end.
Definition CS (s : string) : cset := ones_from 0 s.
Arguments CS s%string.
(** A partition built with AddElement. *)
Definition PS (l : list cset) : cpart := fold_left (fun P S => padd S P) l [].
Definition dense (n : nat) : cpart := [cdense n].

(** EXPECT_EQ / EXPECT_DOUBLE_EQ on two lists. *)
Fixpoint all2 {A B} (f : A -> B -> bool) (l : list A) (m : list B) : bool :=
  match l, m with
  | [], [] => true
  | x :: l, y :: m => f x y && all2 f l m
  | _, _ => false
  end.
Definition is_val (x : dbl) (q : Q) : bool := match x with Fin y => Qeq_bool y q | _ => false end.
Definition shows (r : res obj) (cv : list Q) (ps : list cpart) : bool :=
  match r with Ok o => all2 is_val (ob_cv o) cv && all2 peqb (ob_psp o) ps | _ => false end.

(** PSP(edges, n); run(method). *)
Definition agg_tol : Q := 1 # 1000000.
Definition run1 (elt : list (nat * nat * Q)) (n : nat) (m : string) : res obj :=
  do o <- psp_ctor tol elt n;
  do r <- dispatch_b wit_env (Some (exact_mnb, agg_tol)) m (ob_g o);
  Ok (mkObj (fst r) (fst (snd r)) (snd (snd r))).
Definition dec (a : Z) (b : positive) : Q := a # b.

(** One entry of an arc list. *)
Definition e (i j : nat) (w : Q) : nat * nat * Q := (i, j, w).

(** ** Fixtures (test/utility.h:12-145) *)
Definition four : list (nat * nat * Q) := [e 0 1 (1); e 1 2 (1); e 2 3 (1); e 0 3 (1); e 0 2 (1#2); e 1 3 (1#2)].
Definition four_g : graph := [mkArc 0 1 1; mkArc 1 2 1; mkArc 2 3 1; mkArc 0 3 1; mkArc 0 2 (1#2); mkArc 1 3 (1#2)].
Definition nc : list (nat * nat * Q) := [e 0 1 (1); e 2 3 (1)].
Definition nc_g : graph := [mkArc 0 1 1; mkArc 2 3 1].
Definition three : list (nat * nat * Q) := [e 0 1 (1); e 0 2 (1); e 1 2 (5)].
Definition simple4 : list (nat * nat * Q) := [e 0 1 (1); e 0 2 (2#5); e 1 3 (1#2); e 2 3 (2)].
Definition tri5 : list (nat * nat * Q) := [e 0 1 (1); e 0 2 (5); e 1 2 (1)].

(** Graph4PointTest (test_pmf.h, test_pmf_r.h), on all methods. *)
Example t_four : forallb (fun m => shows (run1 four 4 m) [5#3] [dense 4; pfine 4])
  ["dt"; "pdt"; "pdt_r"; "psp_i"; "hpsp"; "agg_psp"]%string = true.
Proof. vm_compute. reflexivity. Qed.
(** ThreePointComplete. *)
Example t_three : forallb (fun m => shows (run1 three 3 m) [2; 5] [dense 3; PS [CS "011"; CS "100"]; pfine 3])
  ["dt"; "pdt"; "pdt_r"; "psp_i"; "hpsp"; "agg_psp"]%string = true.
Proof. vm_compute. reflexivity. Qed.
(** FourPointNotComplete; the tests use pdt and pdt_r.  psp_i repeats the value 1 here (C15). *)
Example t_not_complete : forallb (fun m => shows (run1 nc 4 m) [0; 1] [dense 4; PS [CS "1100"; CS "0011"]; pfine 4])
  ["dt"; "pdt"; "pdt_r"; "hpsp"; "agg_psp"]%string = true.
Proof. vm_compute. reflexivity. Qed.
(** PSP_I, HPSP and Agglomerative_PSP, SIMPLE_FOUR_POINT. *)
Example t_simple4 : forallb (fun m => shows (run1 simple4 4 m) [9#10; 1; 2]
    [dense 4; PS [CS "11"; CS "0011"]; PS [CS "1"; CS "01"; CS "0011"]; pfine 4])
  ["dt"; "pdt"; "pdt_r"; "psp_i"; "hpsp"; "agg_psp"]%string = true.
Proof. vm_compute. reflexivity. Qed.
(** PDT_R.RUN. *)
Example t_pdt_r : shows (run1 tri5 3 "pdt_r") [2; 5] [dense 3; PS [CS "101"; CS "010"]; pfine 3] = true.
Proof. vm_compute. reflexivity. Qed.
(** HPSP: get_K and get_W (test_hpsp.h:9-103). *)
Definition tree (elt : list (nat * nat * Q)) (n : nat) : option (list nat * list dbl) :=
  match make_dgraph tol n elt with
  | Ok E => match hpsp_run bf_mincut tol E n with Ok o => Some (map (ho_K o) (seq 0 n), map (ho_W o) (seq 0 n)) | _ => None end
  | _ => None
  end.
Definition nested4 : list (nat * nat * Q) := [e 0 1 (5); e 0 2 (2); e 0 3 (1); e 1 2 (2); e 1 3 (1)].
Example t_tree : match tree simple4 4, tree nested4 4 with
  | Some (K, W), Some (K', W') => all2 Nat.eqb K [0; 0; 0; 2]%nat && all2 is_val W [9#10; 1; 9#10; 2] &&
      all2 Nat.eqb K' [0; 0; 0; 0]%nat && all2 is_val W' [2; 5; 4; 2]
  | _, _ => false
  end = true.
Proof. vm_compute. reflexivity. Qed.
Example t_nested4 : shows (run1 nested4 4 "hpsp") [2; 4; 5]
  [dense 4; PS [CS "111"; CS "0001"]; PS [CS "11"; CS "001"; CS "0001"]; pfine 4] = true.
Proof. vm_compute. reflexivity. Qed.

(** ** test_dt.h *)
Example t_mfdt : match dt_dil_run bf_mincut ((5#3) + (1#10)) four_g 4, dt_dil_run bf_mincut (1#10) nc_g 4 with
  | Ok (v, P), Ok (v', P') => Qeq_bool v (- (62#30)) && peqb P (pfine 4) && Qeq_bool v' (- (2#10)) && peqb P' (PS [CS "0011"; CS "1100"])
  | _, _ => false
  end = true.
Proof. vm_compute. reflexivity. Qed.

(** ** test_graph.h and PMF.ComputeCut *)
Example t_graph : match make_dgraph tol 3 three with
  | Ok E => (length E =? 3)%nat && Qeq_bool (qsum aw E) 7 &&
      all2 Qeq_bool (map (fun l => get_cut_value E (cset_of l)) [[]; [2]; [0; 2]; [0; 1; 2]]%nat) [0; 6; 5; 0] &&
      all2 Qeq_bool (map (get_partition_value E) [pfine 3; dense 3; PS [CS "100"; CS "011"]]) [7; 0; 2]
  | _ => false
  end = true.
Proof. vm_compute. reflexivity. Qed.
Example t_compute_cut :
  all2 Qeq_bool (map (fun l => get_cut_value [mkArc 0 1 1; mkArc 1 2 2; mkArc 0 2 4] (cset_of l)) [[2]; [1; 2]; [0; 1; 2]]%nat) [6; 5; 0] = true.
Proof. vm_compute. reflexivity. Qed.

(** ** test_utility.h *)
Example t_contract : match MUtil.digraph_contract tol (mkG (seq 0 4) four_g) (CS "0111") 2 with
  | Ok G => (length (gnodes G) =? 2)%nat && all2 Qeq_bool (map aw (garcs G)) [5#2]
  | _ => false
  end = true.
Proof. vm_compute. reflexivity. Qed.
Example t_copy : match MUtil.digraph_copy 3 (mkG [0; 2]%nat [mkArc 0 2 4]) with
  | Ok G => (length (gnodes G) =? 2)%nat && all2 Qeq_bool (map aw (garcs G)) [4]
  | _ => false
  end = true.
Proof. vm_compute. reflexivity. Qed.

(** ** test_pmf.h: EquationSolve *)
Definition lam_is (r : res (option Q)) (q : Q) : bool := match r with Ok (Some x) => Qeq_bool x q | _ => false end.
Example t_equation :
  let p1 := [(2, Fin 0); (0, Fin 0)] in
  let p2 := [(0, Fin 0); (0, Fin 0)] in
  let p3 := [(0, PInf); (0, Fin 0)] in
  let p4 := [(0, PInf); (0, PInf)] in
  lam_is (compute_lambda tol p1 (-1#2)) (1#2) && lam_is (compute_lambda tol p1 (-3)) (5#2) &&
  match compute_lambda tol p1 1 with Throw => true | _ => false end && lam_is (compute_lambda tol p1 (-1)) 1 &&
  lam_is (compute_lambda tol p2 (-2)) 1 && lam_is (compute_lambda tol p3 2) (-2) && lam_is (compute_lambda tol p3 (-2)) 1 &&
  lam_is (compute_lambda tol p4 2) (-1) && lam_is (compute_lambda tol [(1, Fin (-1))] (-1)) 2 = true.
Proof. vm_compute. reflexivity. Qed.
(** PMF.PMClass and PMF_R.PMClass. *)
Definition class_ok (r : res (list dbl * list cset)) : bool :=
  match r with Ok (l, s) => all2 is_val l [1; 5] && all2 ceqb s [CS "111"; CS "101"; CS "001"] | _ => false end.
Example t_class : let E := [mkArc 0 1 1; mkArc 0 2 5; mkArc 1 2 1] in let y := [(0, PInf); (0, PInf); (0, PInf)] in
  class_ok (pmf_run bf_mincut tol E 3 2 y) && class_ok (pmfr_run bf_mincut (rev_solver bf_mincut) (fun _ => true) tol E 3 2 y) &&
  class_ok (pmfr_run bf_mincut (rev_solver bf_mincut) (fun _ => false) tol E 3 2 y) = true.
Proof. vm_compute. reflexivity. Qed.

(** ** test_pmf_r.h: contract, modifyFlow, execute_reverse, construct_new_base; source 4, sink 3 *)
Definition lgf : network :=
  [mkNarc NSrc (NV 0) 1; mkNarc NSrc (NV 2) 2; mkNarc (NV 0) (NV 1) 3; mkNarc (NV 2) (NV 0) 5; mkNarc (NV 2) NSnk 6;
   mkNarc (NV 1) (NV 2) 4; mkNarc (NV 1) NSnk 7].
(** The text these tests read (test/test_pmf_r.h:11, 32, 63, 97). *)
Definition lgf_str : string :=
  join (one nl) (["@nodes"; "label"; "0"; "1"; "2"; "3"; "4"; "@arcs"; (one tab ++ one tab ++ "label" ++ one tab ++ "capacity")%string] ++
    map (join (one tab)) [["4";"0";"0";"1"]; ["4";"2";"1";"2"]; ["0";"1";"2";"3"]; ["2";"0";"3";"5"]; ["2";"3";"4";"6"]; ["1";"2";"5";"4"]; ["1";"3";"6";"7"]]).
Definition lgf_num (s : string) : option Q :=
  option_map (fun d => inject_Z (Z.of_nat (Nat.of_uint d))) (NilZero.uint_of_string s).
Example t_lgf : match lgf_read lgf_num lgf_str with
  | Ok G => let nd := fun i => if (i =? 4)%nat then NSrc else if (i =? 3)%nat then NSnk else NV i in
            (length (gnodes G) =? 5)%nat &&
            all2 (fun a b => nnode_eqb (nd (asrc a)) (nsrc b) && nnode_eqb (nd (adst a)) (ndst b) && Qeq_bool (aw a) (ncap b)) (garcs G) lgf
  | _ => false
  end = true.
Proof. vm_compute. reflexivity. Qed.

(** The value on the last arc from [u] to [v]; 0 if there is none. *)
Definition on_arc (N : network) (f : list Q) (u v : nnode) : Q :=
  fold_left (fun r p => if nnode_eqb (nsrc (fst p)) u && nnode_eqb (ndst (fst p)) v then snd p else r) (combine N f) 0.
Example t_pmfr_contract : match MPMFR.contract tol 4 3 5 (CS "00101") (CS "01010") lgf with
  | Ok (ks, N) => (length ks =? 1)%nat && (length N =? 4)%nat &&
      all2 Qeq_bool (map (fun p => on_arc N (map ncap N) (fst p) (snd p)) [(NSrc, NV 0); (NSrc, NSnk); (NSnk, NSrc); (NV 0, NSnk)]) [6; 6; 4; 3]
  | _ => false
  end = true.
Proof. vm_compute. reflexivity. Qed.
Example t_modify_flow : match MPMFR.contract tol 4 3 5 (CS "00101") (CS "01010") lgf with
  | Ok (ks, N) =>
      let f := max_flow [0; 1; 2]%nat lgf in
      let f' := MWarmR.contract_flow 4 3 (CS "00101") (CS "01010") lgf f N in
      flow_okb [0; 1; 2]%nat lgf f 3 &&
      all2 Qeq_bool (map (fun p => on_arc N f' (fst p) (snd p)) [(NSrc, NV 0); (NSrc, NSnk); (NV 0, NSnk); (NSnk, NSrc)]) [1; 2; 1; 0]
  | _ => false
  end = true.
Proof. vm_compute. reflexivity. Qed.
Example t_execute_reverse : let r := worker_cut bf_mincut (rev_solver bf_mincut) false 3 [0; 1; 2]%nat lgf in
  Qeq_bool (fst r) 3 && ceqb (snd r) (CS "1111") = true.
Proof. vm_compute. reflexivity. Qed.
Example t_new_base : let E := [mkArc 0 1 2; mkArc 0 2 3; mkArc 0 3 5; mkArc 1 3 4; mkArc 1 2 1; mkArc 2 3 7] in
  all2 Qeq_bool (flat_map (fun i => let p := new_base E (CS "10001") (CS "0001") i in [fst p; snd p]) [1; 2]%nat) [2; 4; 3; 7] = true.
Proof. vm_compute. reflexivity. Qed.

(** The same tests on doubles. *)
Example t_class_double : let E := [mkArc 0 1 1; mkArc 0 2 5; mkArc 1 2 1] in let y := [(0, PInf); (0, PInf); (0, PInf)] in
  let r := fun b => MFloatR.f_pmfr_run (MFloat.binary 53) (fun E => E) (@rev arc) (@rev narc) MTrim.aug_mincut (rev_solver MTrim.aug_mincut)
                      (fun _ => b) PropFloat.eps53 PropFloatT.il53 E 3 2 y in
  class_ok (r true) && class_ok (r false) = true.
Proof. vm_compute. reflexivity. Qed.
Example t_contract_double :
  match MFloatR.f_contract (MFloat.binary 53) (@rev narc) PropFloat.eps53 4 3 5 (CS "00101") (CS "01010") lgf with
  | Ok (ks, N) => (length ks =? 1)%nat && (length N =? 4)%nat &&
      all2 Qeq_bool (map (fun p => on_arc N (map ncap N) (fst p) (snd p)) [(NSrc, NV 0); (NSrc, NSnk); (NSnk, NSrc); (NV 0, NSnk)]) [6; 6; 4; 3]
  | _ => false
  end = true.
Proof. vm_compute. reflexivity. Qed.
Example t_new_base_double : let E := [mkArc 0 1 2; mkArc 0 2 3; mkArc 0 3 5; mkArc 1 3 4; mkArc 1 2 1; mkArc 2 3 7] in
  all2 Qeq_bool (flat_map (fun i => let p := MFloatR.f_new_base (MFloat.binary 53) (@rev arc) E (CS "10001") (CS "0001") i in [fst p; snd p]) [1; 2]%nat)
    [2; 4; 3; 7] = true.
Proof. vm_compute. reflexivity. Qed.

(** ** The fixtures on doubles *)

(** EXPECT_DOUBLE_EQ allows a distance of four units in the last place; this is a little stricter. *)
Definition ulps4 (x : dbl) (q : Q) : bool :=
  match x with Fin y => Qle_bool (Qabs (y - q)) (Qabs q * (1 # 2 ^ 51)) | _ => false end.
Definition shows53 (r : res (list dbl * list cpart)) (cv : list Q) (ps : list cpart) : bool :=
  match r with Ok (f, P) => all2 ulps4 f cv && all2 peqb P ps | _ => false end.
Definition run53e (elt : list (nat * nat * Q)) (n : nat) (m : string) : res (list dbl * list cpart) :=
  do o <- psp_ctor PropFloat.eps53 (map (fun t => (fst t, MFloat.rnd 53 (snd t))) elt) n; PropFloatW.run53 m (MContract.garcs (ob_g o)) n.
Example t_four_double : forallb (fun m => shows53 (run53e four 4 m) [5#3] [dense 4; pfine 4]) ["dt"; "pdt"; "pdt_r"]%string = true.
Proof. vm_compute. reflexivity. Qed.
Example t_three_double : forallb (fun m => shows53 (run53e three 3 m) [2; 5] [dense 3; PS [CS "011"; CS "100"]; pfine 3]) ["pdt"; "pdt_r"]%string = true.
Proof. vm_compute. reflexivity. Qed.
Example t_not_complete_double : forallb (fun m => shows53 (run53e nc 4 m) [0; 1] [dense 4; PS [CS "1100"; CS "0011"]; pfine 4]) ["pdt"; "pdt_r"]%string = true.
Proof. vm_compute. reflexivity. Qed.
Example t_simple4_double : forallb (fun m => shows53 (run53e simple4 4 m) [9#10; 1; 2]
    [dense 4; PS [CS "11"; CS "0011"]; PS [CS "1"; CS "01"; CS "0011"]; pfine 4]) ["psp_i"; "hpsp"]%string = true.
Proof. vm_compute. reflexivity. Qed.

(** PSP_I.GivenPoint8 and HPSP.GivenPoint8: dt, psp_i and hpsp return the same partitions and the same values (EXPECT_DOUBLE_EQ). *)
Definition given8 : graph :=
  [mkArc 0 1 (2112821324102835#9007199254740992);
   mkArc 2 3 (1744292099671489#4611686018427387904);
   mkArc 2 5 (8122787836319215#2361183241434822606848);
   mkArc 4 5 (3376728218909481#576460752303423488);
   mkArc 4 6 (4725616600466759#1208925819614629174706176);
   mkArc 4 7 (3295110132636469#9671406556917033397649408);
   mkArc 6 7 (4563200196074463#9007199254740992)].
Definition same53 (r r' : res (list dbl * list cpart)) : bool :=
  match r, r' with
  | Ok (f, P), Ok (f', P') => all2 (fun x y => match y with Fin q => ulps4 x q | _ => false end) f f' && all2 peqb P P'
  | _, _ => false
  end.
Example t_given8_double : let r := PropFloatW.run53 "psp_i" given8 8 in
  same53 r (PropFloatW.run53 "dt" given8 8) && same53 (PropFloatW.run53 "hpsp" given8 8) r = true.
Proof. vm_compute. reflexivity. Qed.

(** ** example/example.cpp: the default method on the triangle *)
Example t_example : shows (run1 tri5 3 "psp_i") [2; 5] [dense 3; PS [CS "101"; CS "010"]; pfine 3] = true.
Proof. vm_compute. reflexivity. Qed.
