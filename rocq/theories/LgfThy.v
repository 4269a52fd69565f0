(** * LgfThy: reading back what [convert] writes (MLgf). *)
From Coq Require Import String Ascii DecimalString DecimalNat Decimal.
From Verif Require Import Base Graph MSets MGraph MContract MLgf.
Notation length := List.length (only parsing).
Open Scope list_scope.
Open Scope string_scope.

(** ** Characters *)
Fixpoint sall (p : ascii -> bool) (s : string) : bool :=
  match s with "" => true | String c t => p c && sall p t end.
Definition digit (c : ascii) : bool := let k := nat_of_ascii c in (48 <=? k)%nat && (k <=? 57)%nat.
(** The characters of a number. *)
Definition numchar (c : ascii) : bool :=
  digit c || Ascii.eqb c "." || Ascii.eqb c "e" || Ascii.eqb c "+" || Ascii.eqb c "-".
Definition token (s : string) : Prop := s <> "" /\ sall numchar s = true.

Lemma sall_imp (p q : ascii -> bool) s : (forall c, p c = true -> q c = true) -> sall p s = true -> sall q s = true.
Proof.
  intro H. induction s as [|c s IH]; simpl; auto. rewrite !andb_true_iff. intros [A B]. auto.
Qed.
Lemma numchar_not c : numchar c = true -> blank c = false /\ c <> "@"%char /\ c <> "l"%char /\ c <> "#"%char /\ c <> "s"%char.
Proof. destruct c as [[] [] [] [] [] [] [] []]; vm_compute; intro H; try discriminate H; repeat split; discriminate. Qed.

Lemma str_nat_token i : token (str_nat i).
Proof.
  unfold str_nat, token. assert (D : forall d, sall numchar (NilEmpty.string_of_uint d) = true) by (induction d; simpl; auto).
  destruct (Nat.to_uint i) eqn:E; simpl; split; try discriminate; try apply D. reflexivity.
Qed.
Lemma str_nat_inj i j : str_nat i = str_nat j -> i = j.
Proof.
  unfold str_nat. intro H.
  assert (N : forall k, Nat.to_uint k <> Nil).
  { intros k Hk. assert (X := Unsigned.of_to k). rewrite Hk in X. simpl in X. subst k. discriminate Hk. }
  apply Unsigned.to_uint_inj. apply (f_equal NilZero.uint_of_string) in H. rewrite !NilZero.usu in H by auto. congruence.
Qed.

Lemma sapp_assoc (a b c : string) : (a ++ b) ++ c = a ++ (b ++ c).
Proof. induction a; simpl; congruence. Qed.
Lemma sapp_nil (a : string) : a ++ "" = a.
Proof. induction a; simpl; congruence. Qed.

(** ** contains *)
Lemma contains_no c p s : (forall d, sall (fun x => negb (Ascii.eqb x d)) s = true -> d = c -> contains (String c p) s = false).
Proof.
  intros d H ->. induction s as [|x s IH]; simpl in *; auto. apply andb_true_iff in H as [H1 H2].
  destruct (ascii_dec c x) as [->|N]; [rewrite Ascii.eqb_refl in H1; discriminate|]. rewrite IH; auto.
Qed.
Lemma no_char c s : numchar c = false -> sall numchar s = true -> sall (fun x => negb (Ascii.eqb x c)) s = true.
Proof.
  intros H. apply sall_imp. intros x Hx. destruct (Ascii.eqb x c) eqn:E; auto. apply Ascii.eqb_eq in E. congruence.
Qed.
Lemma sall_app p a b : sall p (a ++ b) = sall p a && sall p b.
Proof. induction a; simpl; auto. rewrite IHa. apply andb_assoc. Qed.
(** No character of a line of numbers is @ or l. *)
Definition linechar (c : ascii) : bool := numchar c || blank c.
Lemma line_contains c p s : linechar c = false -> sall linechar s = true -> contains (String c p) s = false.
Proof.
  intros H K. apply contains_no with c; auto. revert K. apply sall_imp. intros x Hx.
  destruct (Ascii.eqb x c) eqn:E; auto. apply Ascii.eqb_eq in E. congruence.
Qed.
Lemma token_line s : token s -> sall linechar s = true.
Proof. intros [_ H]. revert H. apply sall_imp. intros c Hc. unfold linechar. rewrite Hc. reflexivity. Qed.

(** ** strip and split *)
Definition solid (s : string) : Prop := s <> "" /\ sall (fun c => negb (blank c)) s = true.
Lemma token_solid s : token s -> solid s.
Proof. intros [N H]. split; auto. revert H. apply sall_imp. intros c Hc. destruct (numchar_not c Hc) as [-> _]. reflexivity. Qed.

Lemma lstrip_solid s t : solid s -> lstrip (s ++ t) = s ++ t.
Proof.
  intros [N H]. destruct s as [|c s]; [congruence|]. simpl in *. apply andb_true_iff in H as [H _].
  destruct (blank c); [discriminate|reflexivity].
Qed.
Lemma rstrip_app a b : rstrip b <> "" -> rstrip (a ++ b) = a ++ rstrip b.
Proof.
  intro H. induction a as [|c a IH]; simpl; auto. rewrite IH. destruct (a ++ rstrip b) eqn:E; auto.
  destruct a; simpl in E; [contradiction|discriminate].
Qed.
Lemma rstrip_solid s : sall (fun c => negb (blank c)) s = true -> rstrip s = s.
Proof.
  induction s as [|c s IH]; simpl; auto. rewrite andb_true_iff. intros [H1 H2]. rewrite IH by auto.
  destruct s; [|reflexivity]. destruct (blank c); [discriminate|reflexivity].
Qed.
Lemma rstrip_solid_nl s : sall (fun c => negb (blank c)) s = true -> rstrip (s ++ one nl) = s.
Proof.
  induction s as [|c s IH]; simpl; auto. rewrite andb_true_iff. intros [H1 H2]. rewrite IH by auto.
  destruct s; [|reflexivity]. destruct (blank c); [discriminate|reflexivity].
Qed.

(** A line as it is read: with or without line feed. *)
Definition reads (s st : string) : Prop := st = s \/ st = s ++ one nl.
Lemma strip_reads a s st : solid a -> solid s -> reads (a ++ s) st -> strip st = a ++ s.
Proof.
  intros Ha [N Hs] [->| ->]; unfold strip.
  - rewrite (lstrip_solid a) by auto. rewrite rstrip_app; rewrite rstrip_solid; auto.
  - rewrite sapp_assoc, (lstrip_solid a) by auto. rewrite rstrip_app; rewrite rstrip_solid_nl; auto.
Qed.
Lemma strip_one s st : solid s -> reads s st -> strip st = s.
Proof.
  intros [N H] [->| ->]; unfold strip.
  - rewrite <- (sapp_nil s), lstrip_solid by (split; auto). rewrite sapp_nil. apply rstrip_solid. auto.
  - rewrite lstrip_solid by (split; auto). apply rstrip_solid_nl. auto.
Qed.
Lemma split_app c a b : sall (fun x => negb (Ascii.eqb x c)) a = true -> split c (a ++ String c b) = a :: split c b.
Proof.
  induction a as [|x a IH]; simpl.
  - intros _. rewrite Ascii.eqb_refl. reflexivity.
  - rewrite andb_true_iff. intros [H1 H2]. destruct (Ascii.eqb x c); [discriminate|]. rewrite IH by auto. reflexivity.
Qed.
Lemma split_one c a : sall (fun x => negb (Ascii.eqb x c)) a = true -> split c a = [a].
Proof.
  induction a as [|x a IH]; simpl; auto. rewrite andb_true_iff. intros [H1 H2].
  destruct (Ascii.eqb x c); [discriminate|]. rewrite IH by auto. reflexivity.
Qed.

(** ** Lines *)
Definition no_nl (s : string) : Prop := s <> "" /\ sall (fun x => negb (Ascii.eqb x nl)) s = true.
Lemma lines_app a b : sall (fun x => negb (Ascii.eqb x nl)) a = true ->
  lines_of (a ++ String nl b) = (a ++ one nl) :: lines_of b.
Proof.
  induction a as [|x a IH]; simpl; auto. rewrite andb_true_iff. intros [H1 H2].
  destruct (Ascii.eqb x nl); [discriminate|]. rewrite IH by auto. reflexivity.
Qed.
Lemma lines_one a : no_nl a -> lines_of a = [a].
Proof.
  intros [N H]. induction a as [|x a IH]; [congruence|]. simpl in *. apply andb_true_iff in H as [H1 H2].
  destruct (Ascii.eqb x nl); [discriminate|]. destruct a; [reflexivity|]. rewrite IH; auto. discriminate.
Qed.
Lemma lines_join l : Forall no_nl l -> Forall2 reads l (lines_of (join (one nl) l)).
Proof.
  induction l as [|s l IH]; intro H; [constructor|]. inversion H as [|? ? A B]; subst. destruct l as [|s' l].
  - simpl. rewrite lines_one by auto. constructor; [left; reflexivity|constructor].
  - change (join (one nl) (s :: s' :: l)) with (s ++ String nl (join (one nl) (s' :: l))).
    rewrite lines_app by apply A. constructor; [right; reflexivity|auto].
Qed.

(** ** Tokens *)
Lemma tokens_blank c s : blank c = true -> tokens (String c s) = tokens s.
Proof. intro H. simpl. rewrite H. reflexivity. Qed.
Lemma tokens_app a c b : solid a -> blank c = true -> tokens (a ++ String c b) = a :: tokens b.
Proof.
  intros [N H] Hc. induction a as [|x a IH]; [congruence|]. simpl in H. apply andb_true_iff in H as [H1 H2].
  destruct a as [|y a].
  - simpl. destruct (blank x); [discriminate|]. rewrite Hc. reflexivity.
  - specialize (IH ltac:(discriminate) H2). change ((String x (String y a)) ++ String c b) with (String x (String y (a ++ String c b))).
    change ((String y a) ++ String c b) with (String y (a ++ String c b)) in IH.
    cbn [tokens]. cbn [tokens] in IH. destruct (blank x); [discriminate|]. simpl in H2. apply andb_true_iff in H2 as [H2 _].
    destruct (blank y); [discriminate|]. rewrite IH. reflexivity.
Qed.
Lemma tokens_one a : solid a -> tokens a = [a].
Proof.
  intros [N H]. induction a as [|x a IH]; [congruence|]. simpl in H. apply andb_true_iff in H as [H1 H2].
  destruct a as [|y a].
  - simpl. destruct (blank x); [discriminate|]. reflexivity.
  - specialize (IH ltac:(discriminate) H2). cbn [tokens]. cbn [tokens] in IH. destruct (blank x); [discriminate|].
    simpl in H2. apply andb_true_iff in H2 as [H2 _]. destruct (blank y); [discriminate|]. rewrite IH. reflexivity.
Qed.
Lemma tokens_reads a st : solid a -> reads a st -> tokens st = [a].
Proof.
  intros H [->| ->]; [apply tokens_one; auto|]. unfold one. rewrite tokens_app by auto. reflexivity.
Qed.

(** ** The arcs that are kept *)
Definition kept (A : nat -> nat -> Q) (ij : list (nat * nat)) : list (nat * nat) :=
  filter (fun p => negb (Qltb (A (fst p) (snd p)) cut_off)) ij.
Fixpoint arc_fields (shw : Q -> string) (A : nat -> nat -> Q) (ij : list (nat * nat)) (cnt : nat) : list (string * string * string * string) :=
  match ij with
  | [] => []
  | p :: t => (str_nat (fst p), str_nat (snd p), str_nat cnt, shw (A (fst p) (snd p))) :: arc_fields shw A t (S cnt)
  end.
Definition line4 (f : string * string * string * string) : string :=
  let '(a, b, c, d) := f in a ++ String tab (b ++ String tab (c ++ String tab d)).
Lemma arc_lines_fields shw A ij : forall cnt, arc_lines shw A ij cnt = map line4 (arc_fields shw A (kept A ij) cnt).
Proof.
  induction ij as [|[i j] ij IH]; intro cnt; simpl; auto.
  destruct (Qltb (A i j) cut_off); simpl; [apply IH|]. rewrite IH. reflexivity.
Qed.

Lemma pairs_spec n i j : In (i, j) (pairs n) <-> (i < j < n)%nat.
Proof.
  unfold pairs. rewrite in_flat_map. split.
  - intros (x & H1 & H2). apply in_map_iff in H2 as (y & E & H2). injection E as <- <-. apply in_seq in H1. apply in_seq in H2. lia.
  - intro H. exists i. split; [apply in_seq; lia|]. apply in_map_iff. exists j. split; auto. apply in_seq. lia.
Qed.
Lemma pairs_nodup n : NoDup (pairs n).
Proof.
  unfold pairs. generalize (seq_NoDup n 0). generalize (seq 0 n). induction l as [|x l IH]; intro H; simpl; [constructor|].
  inversion H as [|? ? A B]; subst. generalize (seq_NoDup (n - (x + 1)) (x + 1)). generalize (seq (x + 1) (n - (x + 1))).
  induction l0 as [|z s IS]; intro Hs; simpl; auto. inversion Hs as [|? ? C D]; subst. constructor; auto.
  intro I. apply in_app_iff in I as [I|I].
  - apply in_map_iff in I as (w & E & I). injection E as <-. contradiction.
  - apply in_flat_map in I as (w & I1 & I2). apply in_map_iff in I2 as (k & E & _). injection E as -> _. contradiction.
Qed.

(** ** toNetworkX *)
Lemma solid_reads_line s st : sall linechar s = true -> reads s st -> sall linechar st = true.
Proof. intros H [->| ->]; auto. rewrite sall_app, H. reflexivity. Qed.

Lemma contains_reads p s st : contains p s = true -> reads s st -> contains p st = true.
Proof.
  assert (P : forall p s t, prefix p s = true -> prefix p (s ++ t) = true).
  { clear. induction p as [|c p IH]; intros s t H; [destruct (s ++ t); reflexivity|].
    destruct s as [|x s]; simpl in *; [discriminate|]. destruct (ascii_dec c x); [auto|discriminate]. }
  intros H [->| ->]; auto. revert H. induction s as [|c s IH]; intro H.
  - simpl in H. rewrite orb_false_r in H. destruct p; [reflexivity|discriminate].
  - cbn [contains] in H. change ((String c s) ++ one nl) with (String c (s ++ one nl)). cbn [contains].
    apply orb_true_iff in H as [H|H].
    + apply (P p (String c s) (one nl)) in H. simpl in H. simpl. rewrite H. reflexivity.
    + rewrite IH by auto. apply orb_true_r.
Qed.

Lemma nodes_spec ks ls sa rest : Forall2 (fun k st => reads (str_nat k) st) ks ls -> contains "@arcs" sa = true ->
  forall fuel g, NoDup ks -> (forall k, In k ks -> ~ In (str_nat k) (nx_nodes g)) -> (length ks < fuel)%nat ->
  nodes_loop fuel (fst (readline (ls ++ sa :: rest))) (snd (readline (ls ++ sa :: rest))) g =
  Ok (rest, mkNx (nx_nodes g ++ map str_nat ks)%list (nx_arcs g) (nx_label g)).
Proof.
  intros F Ha. induction F as [|k st ks ls R F IH]; intros fuel g ND NI Hf; (destruct fuel as [|fuel]; [simpl in Hf; lia|]).
  - simpl. rewrite Ha, app_nil_r. destruct g; reflexivity.
  - cbn [app readline fst snd nodes_loop]. assert (T := str_nat_token k).
    assert (L := solid_reads_line _ _ (token_line _ T) R).
    rewrite !line_contains by auto. rewrite (strip_one (str_nat k)) by (auto using token_solid).
    inversion ND as [|? ? N1 N2]; subst.
    assert (E : add_node (str_nat k) g = mkNx (nx_nodes g ++ [str_nat k]) (nx_arcs g) (nx_label g)).
    { unfold add_node. destruct (existsb (String.eqb (str_nat k)) (nx_nodes g)) eqn:X; auto.
      apply existsb_exists in X as (x & I & X). apply String.eqb_eq in X. subst x. exfalso. apply (NI k); [left; auto|auto]. }
    rewrite E, IH; auto.
    + cbn [nx_nodes nx_arcs nx_label map]. rewrite <- app_assoc. reflexivity.
    + cbn [nx_nodes]. intros k' I J. apply in_app_iff in J as [J|[J|[]]]; [apply (NI k'); [right; auto|auto]|].
      apply str_nat_inj in J. subst k'. contradiction.
    + simpl in Hf. lia.
Qed.

Lemma arc_line_char a b c d : token a -> token b -> token c -> token d -> sall linechar (line4 (a, b, c, d)) = true.
Proof.
  intros A B C D. unfold line4. rewrite sall_app. cbn [sall]. rewrite sall_app. cbn [sall]. rewrite sall_app. cbn [sall].
  rewrite !token_line by auto. reflexivity.
Qed.
Lemma token_no_tab s : token s -> sall (fun x => negb (Ascii.eqb x tab)) s = true.
Proof. intros [_ H]. apply no_char; auto. Qed.
Lemma line4_split a b c d st : token a -> token b -> token c -> token d -> reads (line4 (a, b, c, d)) st ->
  split tab (strip st) = [a; b; c; d].
Proof.
  intros A B C D R. assert (S : strip st = line4 (a, b, c, d)).
  { unfold line4 in *. unfold strip. destruct R as [->| ->].
    - rewrite lstrip_solid by (apply token_solid; auto).
      replace (a ++ String tab (b ++ String tab (c ++ String tab d))) with ((a ++ String tab (b ++ String tab (c ++ one tab))) ++ d)
        by (unfold one; rewrite !sapp_assoc; simpl; rewrite !sapp_assoc; simpl; rewrite !sapp_assoc; reflexivity).
      destruct (token_solid d D) as [N H]. rewrite rstrip_app; rewrite rstrip_solid; auto.
    - rewrite sapp_assoc, lstrip_solid by (apply token_solid; auto). rewrite <- sapp_assoc.
      replace ((a ++ String tab (b ++ String tab (c ++ String tab d))) ++ one nl)
        with ((a ++ String tab (b ++ String tab (c ++ one tab))) ++ (d ++ one nl))
        by (unfold one; rewrite !sapp_assoc; simpl; rewrite !sapp_assoc; simpl; rewrite !sapp_assoc; reflexivity).
      destruct (token_solid d D) as [N H]. rewrite rstrip_app; rewrite rstrip_solid_nl; auto.
      unfold one; rewrite !sapp_assoc; simpl; rewrite !sapp_assoc; simpl; rewrite !sapp_assoc; reflexivity. }
  rewrite S. unfold line4. rewrite !split_app, split_one by auto using token_no_tab. reflexivity.
Qed.

Lemma add_node_old x g : In x (nx_nodes g) -> add_node x g = g.
Proof.
  intro H. unfold add_node. destruct (existsb (String.eqb x) (nx_nodes g)) eqn:E; auto. exfalso.
  assert (X : existsb (String.eqb x) (nx_nodes g) = true) by (apply existsb_exists; exists x; split; auto; apply String.eqb_refl). congruence.
Qed.
Definition nx_of (shw : Q -> string) (A : nat -> nat -> Q) (p : nat * nat) : string * string * string :=
  (str_nat (fst p), str_nat (snd p), shw (A (fst p) (snd p))).
Lemma arcs_spec shw A ij : (forall p, In p ij -> token (shw (A (fst p) (snd p)))) ->
  forall cnt ls g, Forall2 (fun f st => reads (line4 f) st) (arc_fields shw A ij cnt) ls ->
  NoDup ij -> (forall p, In p ij -> In (str_nat (fst p)) (nx_nodes g) /\ In (str_nat (snd p)) (nx_nodes g)) ->
  (forall p c, In p ij -> ~ In (str_nat (fst p), str_nat (snd p), c) (nx_arcs g)) ->
  arcs_loop ls g = Ok ("", [], mkNx (nx_nodes g) (nx_arcs g ++ map (nx_of shw A) ij)%list (nx_label g)).
Proof.
  intro T. induction ij as [|[i j] ij IH]; intros cnt ls g F ND NI NA; simpl in F.
  - inversion F; subst. simpl. rewrite app_nil_r. destruct g; reflexivity.
  - inversion F as [|f st fs ls' R F']; subst. cbn [fst snd] in R.
    assert (Tw := T (i, j) (or_introl eq_refl)). cbn [fst snd] in Tw.
    assert (L : sall linechar st = true).
    { eapply solid_reads_line; [|exact R]. apply arc_line_char; auto using str_nat_token. }
    cbn [arcs_loop]. rewrite !line_contains by auto. rewrite (line4_split _ _ _ _ _ (str_nat_token i) (str_nat_token j) (str_nat_token cnt) Tw R).
    inversion ND as [|? ? N1 N2]; subst. destruct (NI (i, j) (or_introl eq_refl)) as [I1 I2]. cbn [fst snd] in I1, I2.
    assert (E : add_edge (str_nat i) (str_nat j) (shw (A i j)) g =
                mkNx (nx_nodes g) (nx_arcs g ++ [nx_of shw A (i, j)])%list (nx_label g)).
    { unfold add_edge. rewrite (add_node_old (str_nat i)), (add_node_old (str_nat j)) by auto.
      destruct (existsb _ (nx_arcs g)) eqn:X; [|reflexivity]. exfalso. apply existsb_exists in X as ([[s t] c] & I & X).
      cbn [fst snd] in X. apply andb_true_iff in X as [X1 X2]. apply String.eqb_eq in X1, X2. subst s t.
      exact (NA (i, j) c (or_introl eq_refl) I). }
    rewrite E. rewrite (IH ltac:(intros p Hp; apply T; right; auto) (S cnt) ls'); auto.
    + cbn [nx_nodes nx_arcs nx_label map]. rewrite <- app_assoc. reflexivity.
    + cbn [nx_nodes]. intros p Hp. apply NI. right. auto.
    + cbn [nx_arcs]. intros p c Hp I. apply in_app_iff in I as [I|[I|[]]]; [apply (NA p c); [right; auto|auto]|].
      unfold nx_of in I. cbn [fst snd] in I. injection I as E1 E2 _. apply str_nat_inj in E1, E2. destruct p as [u v]. cbn [fst snd] in *. subst. contradiction.
Qed.

(** The lines of a converted file. *)
Lemma token_no_nl s : token s -> no_nl s.
Proof. intros [N H]. split; auto. apply no_char; auto. Qed.
Lemma line4_no_nl a b c d : token a -> token b -> token c -> token d -> no_nl (line4 (a, b, c, d)).
Proof.
  intros A B C D. unfold line4. split.
  - destruct a; [destruct A; congruence|discriminate].
  - rewrite sall_app. cbn [sall]. rewrite sall_app. cbn [sall]. rewrite sall_app. cbn [sall].
    rewrite !(proj2 (token_no_nl _ A)), !(proj2 (token_no_nl _ B)), !(proj2 (token_no_nl _ C)), !(proj2 (token_no_nl _ D)). reflexivity.
Qed.
Lemma Forall2_app_inv_l' {X Y} (R : X -> Y -> Prop) a b l : Forall2 R (a ++ b)%list l ->
  exists l1 l2, l = (l1 ++ l2)%list /\ Forall2 R a l1 /\ Forall2 R b l2.
Proof. intro H. apply Forall2_app_inv_l in H as (l1 & l2 & A & B & C). eauto. Qed.
Lemma Forall2_map_l {X Y Z} (R : X -> Y -> Prop) (f : Z -> X) l l' : Forall2 R (map f l) l' -> Forall2 (fun z y => R (f z) y) l l'.
Proof. revert l'. induction l as [|x l IH]; intros l' H; inversion H; subst; constructor; auto. Qed.

Definition ahead : string := one tab ++ one tab ++ "label" ++ one tab ++ "capacity".
Lemma convert_lines shw n A : (forall i j, (i < j < n)%nat -> cut_off <= A i j -> token (shw (A i j))) ->
  exists l1 l2 la lh nls als,
    lines_of (convert shw n A) = (l1 :: l2 :: nls ++ la :: lh :: als)%list /\
    reads "@nodes" l1 /\ reads "label" l2 /\ reads "@arcs" la /\ reads ahead lh /\
    Forall2 (fun k st => reads (str_nat k) st) (seq 0 n) nls /\
    Forall2 (fun f st => reads (line4 f) st) (arc_fields shw A (kept A (pairs n)) 0) als.
Proof.
  intro T. assert (F : Forall no_nl (["@nodes"; "label"] ++ map str_nat (seq 0 n) ++ ["@arcs"; ahead] ++ arc_lines shw A (pairs n) 0)).
  { repeat rewrite Forall_app. repeat split.
    - repeat constructor; discriminate.
    - apply Forall_forall. intros s I. apply in_map_iff in I as (k & <- & _). apply token_no_nl, str_nat_token.
    - repeat constructor; discriminate.
    - rewrite arc_lines_fields. apply Forall_forall. intros s I. apply in_map_iff in I as (f & <- & I).
      assert (K : forall ij cnt, (forall i j, In (i, j) ij -> token (shw (A i j))) ->
        In f (arc_fields shw A ij cnt) -> no_nl (line4 f)).
      { clear. induction ij as [|[i j] ij IH]; intros cnt T I; [destruct I|destruct I as [<-|I]].
        - cbn [fst snd]. apply line4_no_nl; auto using str_nat_token. apply T. left. auto.
        - apply (IH (S cnt)); auto. intros. apply T. right. auto. }
      apply (K _ 0%nat) in I; auto. intros i j Hp. unfold kept in Hp. apply filter_In in Hp as [Hp Hk]. apply pairs_spec in Hp.
      cbn [fst snd] in Hk. apply T; auto. unfold Qltb in Hk. rewrite negb_involutive in Hk. apply Qle_bool_iff in Hk. exact Hk. }
  apply lines_join in F. fold (convert shw n A) in F.
  change (lines_of (join (one nl) (["@nodes"; "label"] ++ map str_nat (seq 0 n) ++ ["@arcs"; ahead] ++ arc_lines shw A (pairs n) 0)))
    with (lines_of (convert shw n A)) in F.
  apply Forall2_app_inv_l' in F as (a & r & -> & Fa & F). apply Forall2_app_inv_l' in F as (b & r' & -> & Fb & F).
  apply Forall2_app_inv_l' in F as (c & d & -> & Fc & Fd).
  inversion Fa as [|? l1 ? a' R1 Fa']; subst. inversion Fa' as [|? l2 ? a'' R2 Fa'']; subst. inversion Fa''; subst.
  inversion Fc as [|? la ? c' R3 Fc']; subst. inversion Fc' as [|? lh ? c'' R4 Fc'']; subst. inversion Fc''; subst.
  exists l1, l2, la, lh, b, d. split; [reflexivity|]. repeat (split; [assumption|]). split.
  - apply Forall2_map_l in Fb. exact Fb.
  - rewrite arc_lines_fields in Fd. apply Forall2_map_l in Fd. exact Fd.
Qed.

Lemma kept_spec A n i j : In (i, j) (kept A (pairs n)) <-> (i < j < n)%nat /\ cut_off <= A i j.
Proof.
  unfold kept. rewrite filter_In, pairs_spec. cbn [fst snd]. unfold Qltb. rewrite negb_involutive, Qle_bool_iff. reflexivity.
Qed.
Lemma kept_nodup A n : NoDup (kept A (pairs n)).
Proof. apply NoDup_filter, pairs_nodup. Qed.

Lemma toNetworkX_convert shw n A fuel : (forall i j, (i < j < n)%nat -> cut_off <= A i j -> token (shw (A i j))) -> (n + 2 <= fuel)%nat ->
  toNetworkX fuel (convert shw n A) = Ok (mkNx (map str_nat (seq 0 n)) (map (nx_of shw A) (kept A (pairs n))) []).
Proof.
  intros T Hf. destruct (convert_lines shw n A T) as (l1 & l2 & la & lh & nls & als & E & R1 & R2 & R3 & R4 & F1 & F2).
  unfold toNetworkX. rewrite E. cbn [readline fst snd]. destruct fuel as [|fuel]; [lia|]. cbn [nodes_loop].
  assert (X1 : contains "@arcs" l2 = false) by (destruct R2 as [->| ->]; reflexivity).
  assert (X2 : contains "label" l2 = true) by (eapply contains_reads; [|exact R2]; reflexivity).
  rewrite X1, X2. rewrite (nodes_spec (seq 0 n) nls la (lh :: als) F1 (contains_reads "@arcs" "@arcs" la eq_refl R3)).
  2: apply seq_NoDup. 2: { intros k _ []. } 2: rewrite seq_length; lia.
  cbn [bind fst snd nx_nodes nx_arcs nx_label app arcs_loop].
  assert (X3 : contains "@attributes" lh = false) by (destruct R4 as [->| ->]; reflexivity).
  assert (X4 : contains "label" lh = true) by (eapply contains_reads; [|exact R4]; reflexivity).
  rewrite X3, X4. rewrite (arcs_spec shw A (kept A (pairs n))) with (cnt := 0%nat).
  - cbn [bind fst snd readline nx_nodes nx_arcs nx_label app]. reflexivity.
  - intros [i j] Hp. apply kept_spec in Hp as [H1 H2]. apply T; auto.
  - exact F2.
  - apply kept_nodup.
  - intros [i j] Hp. apply kept_spec in Hp as [H1 H2]. cbn [fst snd nx_nodes app].
    split; apply in_map; apply in_seq; lia.
  - intros p c _ [].
Qed.

(** ** The reader of main *)
Lemma tokens_line4 a b c d st : solid a -> solid b -> solid c -> solid d -> reads (line4 (a, b, c, d)) st -> tokens st = [a; b; c; d].
Proof.
  intros A B C D R. unfold line4 in R. destruct R as [->| ->].
  - rewrite !tokens_app by auto. rewrite tokens_one by auto. reflexivity.
  - rewrite !sapp_assoc. simpl append. rewrite tokens_app by auto. rewrite sapp_assoc. simpl append. rewrite tokens_app by auto.
    rewrite sapp_assoc. simpl append. rewrite tokens_app by auto. unfold one. rewrite tokens_app by auto. reflexivity.
Qed.
Definition row4 (f : string * string * string * string) : list string := let '(a, b, c, d) := f in [a; b; c; d].

Lemma fields_tokens shw A ij : forall cnt f, (forall i j, In (i, j) ij -> token (shw (A i j))) ->
  In f (arc_fields shw A ij cnt) -> let '(a, b, c, d) := f in token a /\ token b /\ token c /\ token d.
Proof.
  induction ij as [|[i j] ij IH]; intros cnt f T I; [destruct I|destruct I as [<-|I]].
  - cbn [fst snd]. repeat (split; [apply str_nat_token|]). apply T. left. auto.
  - apply (IH (S cnt)); auto. intros. apply T. right. auto.
Qed.

Lemma token_head s : token s -> prefix "#" s = false /\ prefix "@" s = false.
Proof.
  intros [N H]. destruct s as [|c s]; [congruence|]. simpl in H. apply andb_true_iff in H as [H _].
  destruct (numchar_not c H) as (_ & H1 & _ & H2 & _). cbn [prefix]. split.
  - destruct (ascii_dec "#" c) as [E|_]; [symmetry in E; contradiction|reflexivity].
  - destruct (ascii_dec "@" c) as [E|_]; [symmetry in E; contradiction|reflexivity].
Qed.

Lemma map_tokens {X} (f : X -> string) (g : X -> list string) l ls :
  Forall2 (fun x st => reads (f x) st) l ls -> (forall x st, In x l -> reads (f x) st -> tokens st = g x) ->
  map tokens ls = map g l.
Proof.
  induction 1 as [|x st l ls R F IH]; intro H; auto. simpl. rewrite (H x st) by (simpl; auto). f_equal. apply IH.
  intros. apply H; simpl; auto.
Qed.

Lemma rows_convert shw n A : (forall i j, (i < j < n)%nat -> cut_off <= A i j -> token (shw (A i j))) ->
  rows (convert shw n A) = (["@nodes"] :: ["label"] :: map (fun k => [str_nat k]) (seq 0 n) ++
    ["@arcs"] :: ["label"; "capacity"] :: map row4 (arc_fields shw A (kept A (pairs n)) 0))%list.
Proof.
  intro T. destruct (convert_lines shw n A T) as (l1 & l2 & la & lh & nls & als & E & R1 & R2 & R3 & R4 & F1 & F2).
  unfold rows. rewrite E. cbn [map]. rewrite map_app. cbn [map].
  assert (TT : forall i j, In (i, j) (kept A (pairs n)) -> token (shw (A i j))).
  { intros i j Hp. apply kept_spec in Hp as [H1 H2]. apply T; auto. }
  rewrite (map_tokens str_nat (fun k => [str_nat k]) _ _ F1), (map_tokens line4 row4 _ _ F2).
  2: { intros [[[a b] c] d] st I R. destruct (fields_tokens _ _ _ _ _ TT I) as (A1 & A2 & A3 & A4).
       apply tokens_line4; auto using token_solid. }
  2: { intros k st _ R. apply tokens_reads; auto. apply token_solid, str_nat_token. }
  rewrite (tokens_reads "@nodes" l1), (tokens_reads "label" l2), (tokens_reads "@arcs" la) by (assumption || (split; [discriminate|reflexivity])).
  assert (X : tokens lh = ["label"; "capacity"]) by (destruct R4 as [->| ->]; reflexivity). rewrite X.
  cbn [filter]. rewrite filter_app. cbn [filter]. f_equal. f_equal.
  assert (FI : forall {X} (p : X -> bool) l, (forall x, In x l -> p x = true) -> filter p l = l).
  { clear. intros X p. induction l as [|x l IH]; intro H; simpl; auto. rewrite (H x (or_introl eq_refl)), IH by (intros; apply H; right; auto). reflexivity. }
  rewrite !FI.
  - reflexivity.
  - intros r I. apply in_map_iff in I as ([[[a b] c] d] & <- & I). simpl row4. cbv iota beta.
    destruct (fields_tokens _ _ _ _ _ TT I) as (A1 & _). destruct (token_head a A1) as [-> _]. reflexivity.
  - intros r I. apply in_map_iff in I as (k & <- & I). destruct (token_head _ (str_nat_token k)) as [H _].
    cbv iota beta. rewrite H. reflexivity.
Qed.

Lemma read_nodes_spec (ks : list nat) rest : (match rest with [] => True | r :: _ => section r = true end) ->
  read_nodes 1 0 (map (fun k => [str_nat k]) ks ++ rest)%list = Ok (map str_nat ks, rest).
Proof.
  intro H. induction ks as [|k ks IH].
  - simpl. destruct rest as [|r t]; simpl; auto. rewrite H. reflexivity.
  - cbn [map app read_nodes]. unfold section at 1. destruct (token_head _ (str_nat_token k)) as [_ ->].
    cbn [List.length Nat.eqb]. rewrite IH. reflexivity.
Qed.
Lemma index_seq n : forall a i, (a <= i < a + n)%nat -> index_of (str_nat i) (map str_nat (seq a n)) = Some (i - a)%nat.
Proof.
  induction n as [|n IH]; intros a i H; [lia|]. cbn [seq map index_of]. destruct (str_nat i =? str_nat a) eqn:E.
  - apply String.eqb_eq in E. apply str_nat_inj in E. subst. f_equal. lia.
  - rewrite IH.
    + simpl. f_equal. assert (i <> a) by (intros ->; rewrite String.eqb_refl in E; discriminate). lia.
    + assert (i <> a) by (intros ->; rewrite String.eqb_refl in E; discriminate). lia.
Qed.
Lemma read_arcs_spec parse shw A n ij : (forall i j, In (i, j) ij -> (i < j < n)%nat /\ parse (shw (A i j)) = Some (A i j)) ->
  forall cnt, read_arcs parse (map str_nat (seq 0 n)) 2 1 (map row4 (arc_fields shw A ij cnt)) =
    Ok (map (fun p => mkArc (fst p) (snd p) (A (fst p) (snd p))) ij).
Proof.
  induction ij as [|[i j] ij IH]; intros H cnt; auto. cbn [arc_fields map row4 read_arcs fst snd]. unfold section.
  destruct (token_head _ (str_nat_token i)) as [_ ->]. cbn [List.length Nat.eqb nth].
  destruct (H i j (or_introl eq_refl)) as [H1 ->]. rewrite !index_seq by lia. rewrite IH by (intros; apply H; simpl; auto).
  cbn [bind]. rewrite !Nat.sub_0_r. reflexivity.
Qed.

Definition conv_graph (n : nat) (A : nat -> nat -> Q) : graph :=
  map (fun p => mkArc (fst p) (snd p) (A (fst p) (snd p))) (kept A (pairs n)).
Lemma lgf_convert parse shw n A : (forall i j, (i < j < n)%nat -> cut_off <= A i j -> token (shw (A i j)) /\ parse (shw (A i j)) = Some (A i j)) ->
  lgf_read parse (convert shw n A) = Ok (mkG (seq 0 n) (conv_graph n A)).
Proof.
  intro T. unfold lgf_read. rewrite rows_convert by (intros; apply T; auto). cbv iota beta.
  change (index_of "label" ["label"]) with (Some 0%nat). cbv iota beta. change (List.length ["label"]) with 1%nat.
  rewrite read_nodes_spec by reflexivity. cbn [bind fst snd]. change (index_of "capacity" ["label"; "capacity"]) with (Some 1%nat). cbv iota beta.
  change (List.length ["label"; "capacity"]) with 2%nat. rewrite (read_arcs_spec parse shw A n).
  - cbn [bind]. rewrite map_length, seq_length. reflexivity.
  - intros i j Hp. apply kept_spec in Hp as [H1 H2]. split; auto. apply T; auto.
Qed.

(** ** When toNetworkX ends *)
Lemma nodes_hang fuel : forall st ls g, contains "@arcs" st = false -> Forall (fun l => contains "@arcs" l = false) ls ->
  nodes_loop fuel st ls g = OutOfFuel.
Proof.
  induction fuel as [|fuel IH]; intros st ls g H F; auto. cbn [nodes_loop]. rewrite H.
  assert (K : contains "@arcs" (fst (readline ls)) = false /\ Forall (fun l => contains "@arcs" l = false) (snd (readline ls))).
  { destruct ls as [|l ls]; simpl; auto. inversion F; auto. }
  destruct K. destruct (contains "label" st); apply IH; auto.
Qed.
Lemma nodes_ends fuel : forall st ls g, contains "@arcs" st = true \/ Exists (fun l => contains "@arcs" l = true) ls ->
  (length ls < fuel)%nat -> exists rest g', nodes_loop fuel st ls g = Ok (rest, g').
Proof.
  induction fuel as [|fuel IH]; intros st ls g H Hf; [lia|]. cbn [nodes_loop].
  destruct (contains "@arcs" st) eqn:E; [eauto|]. destruct H as [H|H]; [discriminate|].
  destruct ls as [|l ls]; [inversion H|]. cbn [readline fst snd].
  assert (K : contains "@arcs" l = true \/ Exists (fun l => contains "@arcs" l = true) ls) by (inversion H; auto).
  simpl in Hf. destruct (contains "label" st); apply IH; auto; lia.
Qed.
Lemma arcs_not_fuel ls : forall g, arcs_loop ls g <> OutOfFuel.
Proof.
  induction ls as [|l ls IH]; intro g; simpl; [discriminate|]. destruct (contains "@attributes" l); [discriminate|].
  destruct (contains "label" l); auto. destruct (split tab (strip l)) as [|? [|? [|? [|? [|]]]]]; try discriminate. auto.
Qed.
Lemma arcs_label ls : forall g st t g', arcs_loop ls g = Ok (st, t, g') -> nx_label g' = nx_label g /\
  (st = "" \/ contains "@attributes" st = true) /\ exists p, ls = match st with "" => p | _ => (p ++ st :: t)%list end.
Proof.
  induction ls as [|l ls IH]; intros g st t g' H; simpl in H.
  - injection H as <- <- <-. split; auto. split; auto. exists []. reflexivity.
  - destruct (contains "@attributes" l) eqn:E.
    { injection H as <- <- <-. split; auto. split; auto. destruct l; [discriminate E|]. exists []. reflexivity. }
    assert (K : forall g0, arcs_loop ls g0 = Ok (st, t, g') -> nx_label g0 = nx_label g -> nx_label g' = nx_label g /\
      (st = "" \/ contains "@attributes" st = true) /\ exists p, (l :: ls)%list = match st with "" => p | _ => (p ++ st :: t)%list end).
    { intros g0 H0 L0. destruct (IH _ _ _ _ H0) as (A & B & p & C). split; [congruence|]. split; auto.
      exists (l :: p). rewrite C. destruct st; reflexivity. }
    destruct (contains "label" l); [apply (K g); auto|].
    destruct (split tab (strip l)) as [|u [|v [|? [|c [|]]]]]; try discriminate H.
    apply (K (add_edge u v c g)); auto. unfold add_edge. cbn [nx_label]. unfold add_node.
    repeat match goal with |- context [if ?b then _ else _] => destruct b end; reflexivity.
Qed.
Lemma nodes_label fuel : forall st ls g rest g', nodes_loop fuel st ls g = Ok (rest, g') -> nx_label g' = nx_label g /\
  exists p, ls = (p ++ rest)%list.
Proof.
  induction fuel as [|fuel IH]; intros st ls g rest g' H; [discriminate|]. cbn [nodes_loop] in H.
  destruct (contains "@arcs" st); [injection H as <- <-; split; auto; exists []; reflexivity|].
  assert (K : forall p, snd (readline ls) = (p ++ rest)%list -> exists p', ls = (p' ++ rest)%list).
  { intros p E. destruct ls as [|l ls]; simpl in E; [exists p; auto|]. exists (l :: p). rewrite E. reflexivity. }
  destruct (contains "label" st); destruct (IH _ _ _ _ _ H) as (A & p & B); (split; [|eauto]); auto.
  rewrite A. unfold add_node. destruct (existsb _ _); reflexivity.
Qed.
