(** * HostThy: dt restores the caller's graph. *)
From Verif Require Import Base Graph MSets MGraph MaxFlow MDil MDT MContract MHost.

(** Every arc joins live nodes. *)
Definition closed (G : gst) : Prop :=
  forall a, In a (garcs G) -> In (asrc a) (gnodes G) /\ In (adst a) (gnodes G).

Lemma fresh_not_in G : ~ In (fresh G) (gnodes G).
Proof.
  intro H. assert (K := list_max_le (gnodes G) (list_max (gnodes G))). destruct K as [K _].
  specialize (K (Nat.le_refl _)). rewrite Forall_forall in K. apply K in H. unfold fresh in H. lia.
Qed.

Lemma filter_all {A} (p : A -> bool) l : (forall x, In x l -> p x = true) -> filter p l = l.
Proof. induction l as [|a l IH]; simpl; intro H; auto. rewrite (H a) by auto. f_equal; auto. Qed.

Lemma filter_none {A} (p : A -> bool) l : (forall x, In x l -> p x = false) -> filter p l = [].
Proof. induction l as [|a l IH]; simpl; intro H; auto. rewrite (H a) by auto. auto. Qed.

Lemma fold_add_arc l G : fold_left add_arc l G = mkG (gnodes G) (garcs G ++ l).
Proof.
  revert G. induction l as [|a l IH]; intro G; simpl.
  - rewrite app_nil_r. destruct G; auto.
  - rewrite IH. simpl. rewrite <- app_assoc. reflexivity.
Qed.

Lemma erase_added V A s t l :
  ~ In s V -> ~ In t (V ++ [s]) ->
  (forall a, In a A -> In (asrc a) V /\ In (adst a) V) ->
  (forall a, In a l -> asrc a = s \/ adst a = t) ->
  erase_node (erase_node (mkG ((V ++ [s]) ++ [t]) (A ++ l)) s) t = mkG V A.
Proof.
  intros Hs Ht HG Hl. unfold erase_node. cbn [gnodes garcs]. f_equal.
  - rewrite <- app_assoc, !filter_app. cbn [app filter].
    rewrite Nat.eqb_refl. simpl.
    assert (Ets : (t =? s)%nat = false).
    { apply Nat.eqb_neq. intro C. apply Ht. rewrite C. apply in_or_app. right; left; auto. }
    rewrite Ets. simpl. rewrite Nat.eqb_refl. simpl. rewrite app_nil_r.
    assert (E1 : filter (fun u => negb (u =? s)%nat) V = V).
    { apply filter_all. intros x Hx. apply negb_true_iff, Nat.eqb_neq. congruence. }
    rewrite E1. apply filter_all. intros x Hx. apply negb_true_iff, Nat.eqb_neq. intro C.
    subst x. apply Ht. apply in_or_app; auto.
  - rewrite !filter_app.
    assert (E1 : filter (fun a => negb (asrc a =? s)%nat && negb (adst a =? s)%nat) A = A).
    { apply filter_all. intros a Ha. destruct (HG a Ha) as [K1 K2]. 
      apply andb_true_iff; split; apply negb_true_iff, Nat.eqb_neq; congruence. }
    assert (E2 : filter (fun a => negb (asrc a =? t)%nat && negb (adst a =? t)%nat) A = A).
    { apply filter_all. intros a Ha. destruct (HG a Ha) as [K1 K2]. 
      apply andb_true_iff; split; apply negb_true_iff, Nat.eqb_neq; intro C; apply Ht;
        rewrite <- C; apply in_or_app; auto. }
    rewrite E1, E2.
    assert (E3 : filter (fun a => negb (asrc a =? t)%nat && negb (adst a =? t)%nat)
                   (filter (fun a => negb (asrc a =? s)%nat && negb (adst a =? s)%nat) l) = []).
    { apply filter_none. intros a Ha. apply filter_In in Ha. destruct Ha as [Ha Hc].
      destruct (Hl a Ha) as [E|E].
      - rewrite E, Nat.eqb_refl in Hc. discriminate.
      - rewrite E, Nat.eqb_refl. apply andb_false_r. }
    rewrite E3. apply app_nil_r.
Qed.

Lemma host_minimize_graph mc lam G xs j : closed G -> fst (host_minimize mc lam G xs j) = G.
Proof.
  intro HG. unfold host_minimize. cbn [fst]. rewrite fold_add_arc.
  transitivity (mkG (gnodes G) (garcs G)); [|destruct G; auto].
  apply erase_added; auto.
  - apply fresh_not_in.
  - apply (fresh_not_in (add_node G)).
  - generalize (fresh G) (fresh (add_node G)). intros s t a Ha.
    unfold host_arcs in Ha. apply in_map_iff in Ha. destruct Ha as (b & <- & Hb).
    apply in_flat_map in Hb. destruct Hb as ([i x] & _ & Hb). unfold st_arcs in Hb.
    apply in_app_or in Hb. destruct Hb as [Hb|Hb].
    + destruct (Qltb x 0); [|destruct Hb]. destruct Hb as [<-|[]]. left; reflexivity.
    + cbv zeta in Hb. destruct (Qltb 0 _); [|destruct Hb]. destruct Hb as [<-|[]]. right; reflexivity.
Qed.

Lemma host_loop_ok mc lam G : closed G -> forall todo xs P,
  host_loop mc lam G todo xs P = (G, dil_loop mc lam (garcs G) todo xs P).
Proof.
  intro HG. induction todo as [|v t IH]; intros xs P; auto. cbn [host_loop dil_loop].
  rewrite host_minimize_graph by auto. apply IH.
Qed.

Lemma host_dil_ok mc lam G n : closed G ->
  host_dil_run mc lam G n = (do r <- dt_dil_run mc lam (garcs G) n; Ok (G, r)).
Proof.
  intro HG. unfold host_dil_run, dt_dil_run. destruct (existsb _ _); auto.
  rewrite host_loop_ok by auto. reflexivity.
Qed.

Lemma host_split_ok mc eps G n : closed G -> forall fuel Qp P,
  host_split fuel mc eps G n Qp P = (do r <- dt_split fuel mc eps (garcs G) n Qp P; Ok (G, r)).
Proof.
  intro HG. induction fuel as [|fuel IH]; intros Qp P; auto. cbn [host_split dt_split].
  destruct (length P =? length Qp)%nat; auto. rewrite host_dil_ok by auto.
  destruct (dt_dil_run mc (dt_gamma (garcs G) Qp P) (garcs G) n) as [[m P']| | |]; auto.
  cbn [bind fst snd]. destruct (_ || _ || _); auto.
  rewrite IH. destruct (dt_split fuel mc eps (garcs G) n Qp P') as [[l1 l2]| | |]; auto.
  cbn [bind fst snd]. rewrite IH.
  destruct (dt_split fuel mc eps (garcs G) n P' P) as [[r1 r2]| | |]; auto.
Qed.

Theorem host_dt_run_ok mc eps G : closed G ->
  host_dt_run mc eps G = (do r <- dt_run mc eps (garcs G) (length (gnodes G)); Ok (G, r)).
Proof.
  intro HG. unfold host_dt_run, dt_run. rewrite host_split_ok by auto.
  destruct (dt_split _ _ _ _ _ _ _) as [[l1 l2]| | |]; auto.
Qed.

Theorem host_dt_runs_ok mc eps G r : closed G ->
  dt_run mc eps (garcs G) (length (gnodes G)) = Ok r ->
  forall k, host_dt_runs k mc eps G = Ok (G, repeat r (S k)).
Proof.
  intros HG Hr. induction k as [|k IH]; simpl; rewrite host_dt_run_ok, Hr by auto; cbn [bind fst snd]; auto.
  rewrite IH. reflexivity.
Qed.
