(** * PropEps: C98, the precision eps of min_norm_base (IC/src/AIC.hpp:40): small enough it changes nothing, and the
    1E-15 of the program is not small enough for every graph. *)
From Coq Require Import Qabs Sorted.
From Verif Require Import Base Graph Spec PartThy SubThy SeqThy PSPThy MHC MAIC SFSpec MNBThy EntThy ExactMNB
  MWolfe WolfeSpec WolfeEnd Lsq PropAIC PropWolfe AggSim PropTol WolfeEps.

(** ** The positive part *)
Lemma small_eps : forall T (L : lapi T) ord lin tol f F,
  computes f F -> ground (sfn f) F -> submodular F ->
  (forall w, length w = sfn f -> sorts w (ord w)) -> solves (sfn f) lin -> 0 < tol -> lsafe L ->
  exists eps0 N, 0 < eps0 /\ forall eps fuel, 0 <= eps -> eps <= eps0 -> (N < fuel)%nat ->
    min_norm_base ord lin L tol eps fuel f = min_norm_base ord lin L tol 0 fuel f /\
    ((exists x stuck, min_norm_base ord lin L tol eps fuel f = Ok (x, stuck)) \/
     min_norm_base ord lin L tol eps fuel f = Throw /\ exists lt cols q, l_add L lt cols q = Throw).
Proof.
  intros T L ord lin tol f F HF HG HS HO HL T0 SL. destruct (wolfe_ends (sfn f)) as [N HN].
  assert (R := HN T L ord lin tol (S N) f F eq_refl HF HG HS HO HL T0 SL ltac:(lia)).
  assert (NU : min_norm_base ord lin L tol 0 (S N) f <> UB).
  { intro E. rewrite E in R. destruct R as [(x & s & R)|[R _]]; discriminate R. }
  assert (NF : min_norm_base ord lin L tol 0 (S N) f <> OutOfFuel).
  { intro E. rewrite E in R. destruct R as [(x & s & R)|[R _]]; discriminate R. }
  destruct (mnb_eps ord lin L tol f (S N) NU) as (e & E0 & H). exists e, N. split; auto. intros eps fuel P1 P2 HFu.
  specialize (H eps P1 P2). rewrite (mnb_fuel ord lin L tol f 0 (S N) fuel ltac:(lia) NF).
  rewrite (mnb_fuel ord lin L tol f eps (S N) fuel ltac:(lia)) by (rewrite H; exact NF). rewrite H. auto.
Qed.

(** For every submodular function and every tolerance there is a positive precision such that from 0 up to it
    min_norm_base returns, and returns exactly what it returns with eps = 0. *)
Theorem C98_small_precision : forall T (L : lapi T) ord lin tol f F,
  computes f F -> ground (sfn f) F -> submodular F ->
  (forall w, length w = sfn f -> sorts w (ord w)) -> solves (sfn f) lin -> 0 < tol -> lsafe L ->
  exists eps0 N, 0 < eps0 /\ forall eps fuel, 0 <= eps -> eps <= eps0 -> (N < fuel)%nat ->
    min_norm_base ord lin L tol eps fuel f = min_norm_base ord lin L tol 0 fuel f /\
    ((exists x stuck, min_norm_base ord lin L tol eps fuel f = Ok (x, stuck)) \/
     min_norm_base ord lin L tol eps fuel f = Throw /\ exists lt cols q, l_add L lt cols q = Throw).
Proof. exact small_eps. Qed.
Print Assumptions C98_small_precision.

(** With small tolerances and a small precision a run without the message returns the minimum norm base. *)
Theorem C98_exact : forall ord lin f F,
  computes f F -> ground (sfn f) F -> submodular F ->
  (forall w, length w = sfn f -> sorts w (ord w)) -> solves (sfn f) lin -> (2 <= sfn f)%nat ->
  exists tol0, 0 < tol0 /\ forall T (L : lapi T) tol, lsafe L -> 0 < tol -> tol <= tol0 ->
    exists eps0 N, 0 < eps0 /\ forall eps fuel x, 0 <= eps -> eps <= eps0 -> (N < fuel)%nat ->
      min_norm_base ord lin L tol eps fuel f = Ok (x, false) -> min_norm (sfn f) F (vec x).
Proof.
  intros ord lin f F HF HG HS HO HL N2. destruct (wolfe_exact ord lin f F HF HG HS HO HL N2) as (t & T1 & T2).
  exists t. split; auto. intros T L tol SL P1 P2.
  destruct (small_eps T L ord lin tol f F HF HG HS HO HL P1 SL) as (e & N & E0 & H).
  exists e, (N + npoints (sfn f))%nat. split; auto. intros eps fuel x Q1 Q2 HFu R.
  destruct (H eps fuel Q1 Q2 ltac:(lia)) as [K _]. rewrite K in R. apply (T2 T L tol fuel x); auto. lia.
Qed.
Print Assumptions C98_exact.

Lemma aic_eps : forall ord lin f F D,
  (forall w, sorts w (ord w)) -> (forall k, solves k (lin k)) ->
  ground (sfn f) F -> submodular F -> evaluates f F -> (forall S, exists z : Z, F S == z # D) -> (0 < sfn f)%nat ->
  exists tol0, 0 < tol0 /\ forall T (L : nat -> lapi T) tol,
    (forall k, lsafe (L k)) -> 0 < tol -> tol <= tol0 ->
    exists eps0 N, 0 < eps0 /\ forall eps fuel fuel', 0 <= eps -> eps <= eps0 -> (sfn f <= fuel)%nat -> (N < fuel')%nat ->
      agg_from fuel (wolfe_strict ord lin L tol eps fuel') tol f = Throw \/
      exists lams Ps, agg_from fuel (wolfe_strict ord lin L tol eps fuel') tol f = Ok (lams, Ps) /\
        agg_from fuel (wolfe_solver ord lin L tol eps fuel') tol f = Ok (lams, Ps) /\
        full_sequence Qlt (popt F (seq 0 (sfn f))) (seq 0 (sfn f)) lams Ps.
Proof.
  intros ord lin f F D HO HL HG HS HF HD Hn. destruct (tol_any ord lin f F D HO HL HG HS HF HD Hn) as (t & N & T0 & H).
  exists t. split; auto. intros T L tol SL P1 P2.
  assert (R := H T L tol (sfn f) (S N) SL P1 P2 (le_n _) (Nat.lt_succ_diag_r N)).
  set (r0 := agg_from (sfn f) (wolfe_strict ord lin L tol 0 (S N)) tol f) in *.
  assert (NU : r0 <> UB). { intro E. rewrite E in R. destruct R as [R|(l & P & R & _)]; discriminate R. }
  assert (NF : r0 <> OutOfFuel). { intro E. rewrite E in R. destruct R as [R|(l & P & R & _)]; discriminate R. }
  destruct (agg_from_eps (fun eps => wolfe_strict ord lin L tol eps (S N)) (strict_eps ord lin L tol (S N)) tol f (sfn f) NU)
    as (e & E0 & HE). fold r0 in HE.
  exists e, N. split; auto. intros eps fuel fuel' Q1 Q2 FU FU'. specialize (HE eps Q1 Q2).
  assert (K : agg_from fuel (wolfe_strict ord lin L tol eps fuel') tol f = r0).
  { rewrite <- HE. apply agg_from_fuel; auto. - intros g Hg. apply strict_fuel; auto. - rewrite HE. exact NF. }
  rewrite K. destruct R as [R|(lams & Ps & R1 & R2 & R3)]; [left; exact R|right]. exists lams, Ps. split; [exact R1|]. split; [|exact R3].
  destruct (strict_solver ord lin L tol tol eps fuel fuel' f) as [Z|Z]; [congruence|]. rewrite <- Z, K. exact R1.
Qed.

(** AIC (IC/src/AIC.hpp:268-303) with its own solver: small tolerance, then small precision, and a run without
    the message returns the sequence of optimal partitions. *)
Theorem C98_any_submodular_function : forall ord lin f F D,
  (forall w, sorts w (ord w)) -> (forall k, solves k (lin k)) ->
  ground (sfn f) F -> submodular F -> evaluates f F -> (forall S, exists z : Z, F S == z # D) -> (0 < sfn f)%nat ->
  exists tol0, 0 < tol0 /\ forall T (L : nat -> lapi T) tol,
    (forall k, lsafe (L k)) -> 0 < tol -> tol <= tol0 ->
    exists eps0 N, 0 < eps0 /\ forall eps fuel fuel', 0 <= eps -> eps <= eps0 -> (sfn f <= fuel)%nat -> (N < fuel')%nat ->
      agg_from fuel (wolfe_strict ord lin L tol eps fuel') tol f = Throw \/
      exists lams Ps, agg_from fuel (wolfe_strict ord lin L tol eps fuel') tol f = Ok (lams, Ps) /\
        agg_from fuel (wolfe_solver ord lin L tol eps fuel') tol f = Ok (lams, Ps) /\
        full_sequence Qlt (popt F (seq 0 (sfn f))) (seq 0 (sfn f)) lams Ps.
Proof. exact aic_eps. Qed.
Print Assumptions C98_any_submodular_function.

(** For a graph: the principal sequence of partitions. *)
Theorem C98_graph : forall ord lin n E D,
  (forall w, sorts w (ord w)) -> (forall k, solves k (lin k)) ->
  graph_on (seq 0 n) E -> forward E -> multiples_of D E -> (0 < n)%nat ->
  exists tol0, 0 < tol0 /\ forall T (L : nat -> lapi T) tol,
    (forall k, lsafe (L k)) -> 0 < tol -> tol <= tol0 ->
    exists eps0 N, 0 < eps0 /\ forall eps fuel fuel', 0 <= eps -> eps <= eps0 -> (n <= fuel)%nat -> (N < fuel')%nat ->
      agg_run fuel (wolfe_strict ord lin L tol eps fuel') tol n E = Throw \/
      exists lams Ps, agg_run fuel (wolfe_strict ord lin L tol eps fuel') tol n E = Ok (lams, Ps) /\
        agg_run fuel (wolfe_solver ord lin L tol eps fuel') tol n E = Ok (lams, Ps) /\ IsPSP E (seq 0 n) lams Ps.
Proof.
  intros ord lin n E D HO HL HE HW HD Hn.
  destruct (aic_eps ord lin (ent_sf n E) (entF E) D HO HL) as (t & T0 & H); auto.
  - apply ent_ground. auto.
  - apply ent_submodular. intros a Ha. apply HE. auto.
  - apply computes_evaluates, ent_computes.
  - apply ent_onD. auto.
  - exists t. split; auto. intros T L tol SL TT TL. destruct (H T L tol SL TT TL) as (e & N & E0 & HH).
    exists e, N. split; auto. intros eps fuel fuel' Q1 Q2 FU FU'.
    destruct (HH eps fuel fuel' Q1 Q2 FU FU') as [K|(lams & Ps & K1 & K2 & K3)]; [left; exact K|right].
    exists lams, Ps. split; [exact K1|]. split; [exact K2|]. simpl in K3. rewrite <- (forward_filter E HW).
    eapply full_sequence_mono; [| |exact K3]; auto. intros l P. apply ent_popt. auto.
Qed.
Print Assumptions C98_graph.

(** The hypotheses are those of C58 ([C58_hypotheses]).  On the triangle with weights 1/2000 the precision 1E-15 is
    small enough for the tolerance 1E-9. *)
Example C98_case :
  agg_run 4 (wolfe_strict isort lsq (fun _ => no_factor) (1 # 1000000000) eps15 20) (1 # 1000000000) 3 small_E =
  Ok ([3 # 4000], [[[0; 1; 2]]; [[0]; [1]; [2]]]%nat).
Proof. vm_compute. reflexivity. Qed.

(** ** The negative part *)

(** Adding and removing columns of L always succeeds, as it does in exact arithmetic. *)
Definition never_fails {T} (L : lapi T) : Prop :=
  (forall lt cols q, exists lt', l_add L lt cols q = Ok lt') /\ (forall lt del, exists lt', l_del L lt del = Ok lt').

Section Total.
Context {T : Type}.
Variables (ord : list Q -> list nat) (lin : list (list Q) -> list Q) (L : lapi T) (tol eps : Q) (f : sf).
Hypothesis HL : never_fails L.

Definition fgt {A B} (r : res (A * B)) : res A := do x <- r; Ok (fst x).
Lemma minor_total fuel : forall cols w lt, fgt (wolfe_minor lin L eps fuel cols w lt) = fgt (wolfe_minor lin no_factor eps fuel cols w tt).
Proof.
  induction fuel as [|fuel IH]; intros cols w lt; auto. cbn [wolfe_minor].
  destruct (negb _ && _); auto. destruct (forallb _ _); auto. destruct (theta_loop _ _ _) as [th| | |]; cbn [bind]; auto. cbv zeta.
  match goal with |- context [l_del L lt ?d] => destruct (proj2 HL lt d) as [lt' ->] end. cbn [bind l_del no_factor]. apply IH.
Qed.
Lemma major_total fuel : forall cols w x lt fo sc,
  wolfe_major ord lin L tol eps f fuel cols w x lt fo sc = wolfe_major ord lin no_factor tol eps f fuel cols w x tt fo sc.
Proof.
  induction fuel as [|fuel IH]; intros cols w x lt fo sc; auto. cbn [wolfe_major].
  destruct (edmonds_greedy ord f x) as [q| | |]; cbn [bind]; auto. destruct (Qltb _ tol); auto.
  destruct (if egtb fo _ then _ else _) as [sc'| | |]; cbn [bind]; auto.
  destruct (100 <? sc')%nat; auto. destruct (S (sfn f) <=? length cols)%nat; auto.
  destruct (proj1 HL lt cols q) as [lt1 ->]. cbn [bind l_add no_factor].
  assert (K := minor_total (S (sfn f)) (cols ++ [q]) w lt1). unfold fgt in K.
  destruct (wolfe_minor lin L eps (S (sfn f)) (cols ++ [q]) w lt1) as [[p a]| | |];
    destruct (wolfe_minor lin no_factor eps (S (sfn f)) (cols ++ [q]) w tt) as [[p' []]| | |]; cbn [bind fst snd] in *; try discriminate K; auto.
  injection K as ->. apply IH.
Qed.
Lemma mnb_total fuel : min_norm_base ord lin L tol eps fuel f = min_norm_base ord lin no_factor tol eps fuel f.
Proof.
  unfold min_norm_base. destruct (sfn f) as [|[|m]]; auto. destruct (edmonds_greedy ord f _) as [x| | |]; cbn [bind]; auto. apply major_total.
Qed.
End Total.

(** A period of the major cycle. *)
Definition wstate : Type := (list (list Q) * list Q * list Q * ext * option nat)%type.
Definition wrun ord lin tol eps f fuel (s : wstate) : res (list Q * bool) :=
  let '(cols, w, x, fo, sc) := s in wolfe_major ord lin no_factor tol eps f fuel cols w x tt fo sc.
Definition wnext ord lin tol eps f (s : wstate) : option wstate :=
  let '(cols, w, x, fo, sc) := s in
  match edmonds_greedy ord f x with
  | Ok q =>
      let g := Qred (Qabs (ldot (sfn f) x q - ldot (sfn f) x x)) in
      if Qltb g tol then None
      else match (if egtb fo (Val g) then Ok 0%nat else match sc with Some c => Ok (S c) | None => UB end) with
      | Ok sc' =>
          if (100 <? sc')%nat then None else if (S (sfn f) <=? length cols)%nat then None
          else match wolfe_minor lin no_factor eps (S (sfn f)) (cols ++ [q]) w tt with
          | Ok r => Some (fst (fst r), snd (fst r), lcomb (sfn f) (fst (fst r)) (firstn (length (fst (fst r))) (snd (fst r))), Val g, Some sc')
          | _ => None
          end
      | _ => None
      end
  | _ => None
  end.
Lemma wnext_run ord lin tol eps f s s' fuel : wnext ord lin tol eps f s = Some s' ->
  wrun ord lin tol eps f (S fuel) s = wrun ord lin tol eps f fuel s'.
Proof.
  destruct s as [[[[cols w] x] fo] sc]. unfold wnext, wrun. cbn [wolfe_major].
  destruct (edmonds_greedy ord f x) as [q| | |]; cbn [bind]; try discriminate. destruct (Qltb _ tol); try discriminate.
  destruct (if egtb fo _ then _ else _) as [sc'| | |]; cbn [bind]; try discriminate.
  destruct (100 <? sc')%nat; try discriminate. destruct (S (sfn f) <=? length cols)%nat; try discriminate.
  cbn [bind l_add no_factor].
  destruct (wolfe_minor lin no_factor eps (S (sfn f)) (cols ++ [q]) w tt) as [[p []]| | |]; cbn [bind fst snd]; try discriminate.
  intro H. injection H as <-. reflexivity.
Qed.
Lemma period_two ord lin tol eps f s s' : wnext ord lin tol eps f s = Some s' -> wnext ord lin tol eps f s' = Some s ->
  forall fuel, wrun ord lin tol eps f fuel s = OutOfFuel /\ wrun ord lin tol eps f fuel s' = OutOfFuel.
Proof.
  intros H1 H2. induction fuel as [|fuel [I1 I2]].
  - destruct s as [[[[? ?] ?] ?] ?], s' as [[[[? ?] ?] ?] ?]. split; reflexivity.
  - rewrite (wnext_run _ _ _ _ _ _ _ _ H1), (wnext_run _ _ _ _ _ _ _ _ H2). auto.
Qed.

(** A graph with four nodes; every weight is an integer and a double. *)
Definition loop_E : graph :=
  [mkArc 0 1 10000000000000000; mkArc 0 2 10000000000000000; mkArc 1 2 10000000000000000;
   mkArc 0 3 29999999999999956; mkArc 1 3 19999999999999968; mkArc 2 3 10000000000000000].

(** The function of the first round of AIC::agglomerate and what goes to min_norm_base at the third call. *)
Definition loop_g : sf := match sf_contract (ent_sf 4 loop_E) [[0]; [1]; [2]; [3]]%nat with Ok f => f | _ => ent_sf 4 loop_E end.
Definition loop_f : sf := sf_fix loop_g 3.
Definition wnext_o (s : option wstate) : option wstate :=
  match s with Some s => wnext isort (lsq 3) tol6 eps15 loop_f s | None => None end.
Definition loop_0 : option wstate :=
  match edmonds_greedy isort loop_f (repeat 1 3) with Ok x => Some ([x], 1 :: repeat 0 3, x, PosInf, None) | _ => None end.

Lemma loop_mnb fuel : min_norm_base isort (lsq 3) no_factor tol6 eps15 fuel loop_f = OutOfFuel.
Proof.
  assert (S2 : wnext_o (wnext_o (wnext_o (wnext_o loop_0))) = wnext_o (wnext_o loop_0)) by (vm_compute; reflexivity).
  assert (N0 : match wnext_o (wnext_o (wnext_o loop_0)) with Some _ => true | None => false end = true) by (vm_compute; reflexivity).
  unfold min_norm_base. change (sfn loop_f) with 3%nat. cbv iota.
  unfold loop_0 in *. destruct (edmonds_greedy isort loop_f (repeat 1 3)) as [x| | |]; cbn [bind]; [|discriminate N0..].
  set (s0 := (([x], 1 :: repeat 0 3, x, PosInf, None) : wstate)) in *. cbn [wnext_o] in *. change (l_init no_factor x) with tt.
  change (wrun isort (lsq 3) tol6 eps15 loop_f fuel s0 = OutOfFuel).
  destruct (wnext isort (lsq 3) tol6 eps15 loop_f s0) as [s1|] eqn:E1; [|discriminate N0]. cbn [wnext_o] in *.
  destruct (wnext isort (lsq 3) tol6 eps15 loop_f s1) as [s2|] eqn:E2; [|discriminate N0]. cbn [wnext_o] in *.
  destruct (wnext isort (lsq 3) tol6 eps15 loop_f s2) as [s3|] eqn:E3; [|discriminate N0]. cbn [wnext_o] in *.
  destruct fuel as [|[|fuel]]; [reflexivity|rewrite (wnext_run _ _ _ _ _ _ _ _ E1)|].
  - destruct s1 as [[[[? ?] ?] ?] ?]. reflexivity.
  - rewrite (wnext_run _ _ _ _ _ _ _ _ E1), (wnext_run _ _ _ _ _ _ _ _ E2). apply (period_two _ _ _ _ _ s2 s3 E3 S2 fuel).
Qed.

Lemma first_call fuel : exists x v, wolfe_solver isort lsq (fun _ => no_factor) tol6 eps15 fuel (sf_fix loop_g 1) = Ok x /\ vmin x = Ok v.
Proof.
  assert (K : match sfv (sf_fix loop_g 1) [0%nat] with Ok _ => true | _ => false end = true) by (vm_compute; reflexivity).
  unfold wolfe_solver, min_norm_base. change (sfn (sf_fix loop_g 1)) with 1%nat. cbv iota.
  destruct (sfv (sf_fix loop_g 1) [0%nat]) as [v| | |]; [|discriminate K..]. cbn [bind fst]. exists [v], v. split; reflexivity.
Qed.
Lemma second_call : exists x v, min_norm_base isort (lsq 2) no_factor tol6 eps15 20 (sf_fix loop_g 2) = Ok (x, false) /\ vmin x = Ok v.
Proof.
  assert (K : match min_norm_base isort (lsq 2) no_factor tol6 eps15 20 (sf_fix loop_g 2) with Ok (_ :: _, b) => negb b | _ => false end = true)
    by (vm_compute; reflexivity).
  destruct (min_norm_base isort (lsq 2) no_factor tol6 eps15 20 (sf_fix loop_g 2)) as [[[|a x] []]| | |]; try discriminate K.
  exists (a :: x). eexists. split; reflexivity.
Qed.

(** With the tolerances of the program, 1E-6 and 1E-15, and exact arithmetic: on a complete graph with four nodes
    and integer weights the run never ends, whatever the number of steps.  With eps = 0 it returns the
    principal sequence of partitions.  Two columns of the new affine minimizer have coefficients that are positive but
    not above 1E-15; both are removed, which undoes the step before and resets stuck_count. *)
Theorem C98_default_precision_refuted :
  graph_on (seq 0 4) loop_E /\ forward loop_E /\
  (forall T (L : nat -> lapi T), (forall k, never_fails (L k)) -> forall fuel fuel',
     agg_run fuel (wolfe_solver isort lsq L tol6 eps15 fuel') tol6 4 loop_E = OutOfFuel) /\
  exists lams Ps, agg_run 4 (wolfe_solver isort lsq (fun _ => no_factor) tol6 0 20) tol6 4 loop_E = Ok (lams, Ps) /\
    IsPSP loop_E (seq 0 4) lams Ps.
Proof.
  assert (ON : graph_on (seq 0 4) loop_E).
  { intros a H. simpl in H. repeat (destruct H as [<-|H]; [simpl; split; [tauto|]; split; [tauto|]; vm_compute; discriminate|]). destruct H. }
  assert (FW : forward loop_E) by (intros a H; simpl in H; repeat (destruct H as [<-|H]; [simpl; lia|]); destruct H).
  split; [exact ON|]. split; [exact FW|]. split.
  - intros T L HL fuel fuel'. unfold agg_run, agg_from.
    destruct fuel as [|fuel]; [vm_compute; reflexivity|].
    set (m := wolfe_solver isort lsq L tol6 eps15 fuel').
    assert (M1 : forall g, m g = wolfe_solver isort lsq (fun _ => no_factor) tol6 eps15 fuel' g).
    { intro g. unfold m, wolfe_solver. rewrite mnb_total by apply HL. reflexivity. }
    change (sfn (ent_sf 4 loop_E)) with 4%nat.
    assert (P0 : get_partition (hc_new 4) NegInf = Ok [[0]; [1]; [2]; [3]]%nat) by (vm_compute; reflexivity).
    assert (C0 : match sf_contract (ent_sf 4 loop_E) [[0]; [1]; [2]; [3]]%nat with Ok _ => true | _ => false end = true) by (vm_compute; reflexivity).
    assert (F3 := loop_mnb fuel'). unfold loop_f in F3.
    assert (F1 := first_call fuel'). assert (F2 := second_call). unfold loop_g in F1, F2, F3.
    destruct (get_coarsest (hc_new 4)) as [P| | |] eqn:G0; cbn [bind]; try (exfalso; vm_compute in G0; discriminate G0).
    cbn [agg_loop]. unfold agglomerate. rewrite P0. cbn [bind length Nat.leb].
    destruct (sf_contract (ent_sf 4 loop_E) [[0]; [1]; [2]; [3]]%nat) as [f_| | |]; [|discriminate C0..].
    cbn [bind Nat.sub seq agg_solve]. rewrite !M1.
    destruct F1 as (x1 & v1 & F1 & V1). rewrite F1. cbn [bind]. rewrite V1. cbn [bind]. destruct F2 as (x2 & v2 & F2 & V2).
    assert (K2 : wolfe_solver isort lsq (fun _ => no_factor) tol6 eps15 fuel' (sf_fix f_ 2) = Ok x2 \/
                 wolfe_solver isort lsq (fun _ => no_factor) tol6 eps15 fuel' (sf_fix f_ 2) = OutOfFuel).
    { unfold wolfe_solver. change (sfn (sf_fix f_ 2)) with 2%nat.
      destruct (min_norm_base isort (lsq 2) no_factor tol6 eps15 fuel' (sf_fix f_ 2)) as [r| | |] eqn:E2; auto.
      - left. cbn [bind]. assert (Z : Ok r = Ok (x2, false)); [|injection Z as ->; reflexivity]. rewrite <- E2, <- F2.
        destruct (le_lt_dec fuel' 20).
        + symmetry. apply mnb_fuel; auto. rewrite E2. discriminate.
        + apply mnb_fuel; [lia|]. rewrite F2. discriminate.
      - exfalso. destruct (le_lt_dec fuel' 20) as [G|G].
        + assert (Z := mnb_fuel isort (lsq 2) no_factor tol6 (sf_fix f_ 2) eps15 fuel' 20 G). rewrite E2 in Z. rewrite F2 in Z. specialize (Z ltac:(discriminate)). discriminate Z.
        + assert (Z := mnb_fuel isort (lsq 2) no_factor tol6 (sf_fix f_ 2) eps15 20 fuel' ltac:(lia)). rewrite E2 in Z. rewrite F2 in Z. specialize (Z ltac:(discriminate)). discriminate Z.
      - exfalso. destruct (le_lt_dec fuel' 20) as [G|G].
        + assert (Z := mnb_fuel isort (lsq 2) no_factor tol6 (sf_fix f_ 2) eps15 fuel' 20 G). rewrite E2 in Z. rewrite F2 in Z. specialize (Z ltac:(discriminate)). discriminate Z.
        + assert (Z := mnb_fuel isort (lsq 2) no_factor tol6 (sf_fix f_ 2) eps15 20 fuel' ltac:(lia)). rewrite E2 in Z. rewrite F2 in Z. specialize (Z ltac:(discriminate)). discriminate Z. }
    assert (K3 : wolfe_solver isort lsq (fun _ => no_factor) tol6 eps15 fuel' (sf_fix f_ 3) = OutOfFuel).
    { unfold wolfe_solver. change (sfn (sf_fix f_ 3)) with 3%nat. rewrite F3. reflexivity. }
    destruct K2 as [->| ->]; cbn [bind]; [|reflexivity]. rewrite V2. cbn [bind]. rewrite K3. reflexivity.
  - destruct (C50_agg_exact exact_mnb tol6 1 4 loop_E 4 exact_mnb_ok ON FW) as (lams & Ps & R & H).
    + intros a H. exists (Qnum (aw a)). simpl in H. repeat (destruct H as [<-|H]; [vm_compute; reflexivity|]). destruct H.
    + vm_compute. discriminate.
    + vm_compute. reflexivity.
    + lia.
    + lia.
    + exists lams, Ps. split; [rewrite <- R; vm_compute; reflexivity|exact H].
Qed.
Print Assumptions C98_default_precision_refuted.

Example C98_never_fails : never_fails no_factor.
Proof. split; intros; simpl; eauto. Qed.

(** The same run with eps = 0: the function of the third call and its minimum norm base. *)
Example C98_loop_case : min_norm_base isort (lsq 3) no_factor tol6 0 20 loop_f =
  Ok ([-89999999999999924 # 3; -89999999999999924 # 3; -89999999999999924 # 3], false).
Proof. vm_compute. reflexivity. Qed.
