(** * Base: finite sums over lists, membership tests, outcome type.

    Shared mathematical vocabulary.  Nothing here models code except [res],
    the outcome type used for C++ calls that may not return normally. *)
From Coq Require Export List Arith ZArith QArith Lia Lqa Bool Permutation.
Export ListNotations.
Open Scope Q_scope.

(** Outcome of a C++ call: normal return, undefined behaviour, a thrown
    exception, or (for modelled recursion) exhausted fuel. *)
Inductive res (A : Type) : Type :=
| Ok (a : A)
| UB
| Throw
| OutOfFuel.
Arguments Ok {A} a.
Arguments UB {A}.
Arguments Throw {A}.
Arguments OutOfFuel {A}.

Definition bind {A B} (r : res A) (k : A -> res B) : res B :=
  match r with
  | Ok a => k a
  | UB => UB
  | Throw => Throw
  | OutOfFuel => OutOfFuel
  end.
Notation "'do' x <- e1 ; e2" := (bind e1 (fun x => e2))
  (at level 200, x pattern, e1 at level 100, e2 at level 200).

(** Sum of [f] over a list. *)
Fixpoint qsum {A} (f : A -> Q) (l : list A) : Q :=
  match l with
  | [] => 0
  | x :: t => f x + qsum f t
  end.

(** Natural number as a rational. *)
Definition qn (n : nat) : Q := inject_Z (Z.of_nat n).

(** Membership test in a list of naturals. *)
Definition mem (l : list nat) (x : nat) : bool := existsb (Nat.eqb x) l.

(** Boolean comparisons on rationals. *)
Definition Qltb (a b : Q) : bool := negb (Qle_bool b a).

Lemma Qltb_true a b : Qltb a b = true <-> a < b.
Proof.
  unfold Qltb. rewrite negb_true_iff. split; intro H.
  - apply Qnot_le_lt. intro C. apply Qle_bool_iff in C. congruence.
  - destruct (Qle_bool b a) eqn:E; auto. apply Qle_bool_iff in E. lra.
Qed.

Lemma Qltb_false a b : Qltb a b = false <-> b <= a.
Proof.
  unfold Qltb. rewrite negb_false_iff. apply Qle_bool_iff.
Qed.

Lemma Qle_bool_false a b : Qle_bool a b = false <-> b < a.
Proof.
  split; intro H.
  - apply Qnot_le_lt. intro C. apply Qle_bool_iff in C. congruence.
  - destruct (Qle_bool a b) eqn:E; auto. apply Qle_bool_iff in E. lra.
Qed.

(** ** [qsum] *)
Section QSum.
  Context {A : Type}.
  Implicit Types (f g : A -> Q) (l : list A).

  Lemma qsum_app f l1 l2 : qsum f (l1 ++ l2) == qsum f l1 + qsum f l2.
  Proof. induction l1; simpl; [lra|]. rewrite IHl1. lra. Qed.

  Lemma qsum_ext f g l : (forall x, In x l -> f x == g x) -> qsum f l == qsum g l.
  Proof.
    induction l; simpl; intros H; [reflexivity|].
    rewrite (H a), IHl by auto. reflexivity.
  Qed.

  Lemma qsum_plus f g l : qsum (fun x => f x + g x) l == qsum f l + qsum g l.
  Proof. induction l; simpl; [lra|]. rewrite IHl. lra. Qed.

  Lemma qsum_minus f g l : qsum (fun x => f x - g x) l == qsum f l - qsum g l.
  Proof. induction l; simpl; [lra|]. rewrite IHl. lra. Qed.

  Lemma qsum_scal c f l : qsum (fun x => c * f x) l == c * qsum f l.
  Proof. induction l; simpl; [lra|]. rewrite IHl. lra. Qed.

  Lemma qsum_zero f l : (forall x, In x l -> f x == 0) -> qsum f l == 0.
  Proof.
    induction l; simpl; intros H; [lra|]. rewrite (H a), IHl by auto. lra.
  Qed.

  Lemma qsum_le f g l : (forall x, In x l -> f x <= g x) -> qsum f l <= qsum g l.
  Proof.
    induction l; simpl; intros H; [lra|].
    assert (f a <= g a) by auto. assert (qsum f l <= qsum g l) by auto. lra.
  Qed.

  Lemma qsum_nonneg f l : (forall x, In x l -> 0 <= f x) -> 0 <= qsum f l.
  Proof.
    induction l; simpl; intros H; [lra|].
    assert (0 <= f a) by auto. assert (0 <= qsum f l) by auto. lra.
  Qed.

  Lemma qsum_perm f l1 l2 : Permutation l1 l2 -> qsum f l1 == qsum f l2.
  Proof.
    induction 1; simpl.
    - reflexivity.
    - rewrite IHPermutation. reflexivity.
    - ring.
    - rewrite IHPermutation1. exact IHPermutation2.
  Qed.

  Lemma qsum_const c l : qsum (fun _ => c) l == c * qn (length l).
  Proof.
    induction l; simpl; [unfold qn; simpl; ring|].
    rewrite IHl. unfold qn. rewrite Nat2Z.inj_succ.
    unfold Z.succ. rewrite inject_Z_plus. ring.
  Qed.

  Lemma qsum_filter f (p : A -> bool) l :
    qsum f (filter p l) == qsum (fun x => if p x then f x else 0) l.
  Proof.
    induction l; simpl; [lra|]. destruct (p a); simpl; rewrite IHl; lra.
  Qed.

  Lemma qsum_filter_split f (p : A -> bool) l :
    qsum f l == qsum f (filter p l) + qsum f (filter (fun x => negb (p x)) l).
  Proof.
    induction l; simpl; [lra|]. destruct (p a); simpl; rewrite IHl at 1; lra.
  Qed.

  Lemma qsum_concat f (L : list (list A)) :
    qsum f (concat L) == qsum (fun l => qsum f l) L.
  Proof. induction L; simpl; [lra|]. rewrite qsum_app, IHL. lra. Qed.

  (** If every term is non-negative and the sum is non-positive, every term is 0. *)
  Lemma qsum_all_zero f l :
    (forall x, In x l -> 0 <= f x) -> qsum f l <= 0 -> forall x, In x l -> f x == 0.
  Proof.
    induction l; simpl; intros H H0 x Hx; [tauto|].
    assert (0 <= f a) by auto.
    assert (0 <= qsum f l) by (apply qsum_nonneg; auto).
    destruct Hx as [<-|Hx]; [lra|]. apply IHl; auto. lra.
  Qed.

  Lemma qsum_le_strict f g l a :
    (forall x, In x l -> f x <= g x) -> In a l -> f a < g a -> qsum f l < qsum g l.
  Proof.
    induction l; simpl; intros H Ha Hlt; [tauto|].
    assert (f a0 <= g a0) by auto.
    assert (qsum f l <= qsum g l) by (apply qsum_le; auto).
    destruct Ha as [->|Ha]; [lra|]. assert (qsum f l < qsum g l) by auto. lra.
  Qed.
End QSum.

Lemma qsum_map {A B} (h : A -> B) (f : B -> Q) l :
  qsum f (map h l) == qsum (fun x => f (h x)) l.
Proof. induction l; simpl; [lra|]. rewrite IHl. lra. Qed.

Lemma qsum_swap {A B} (f : A -> B -> Q) (l : list A) (m : list B) :
  qsum (fun x => qsum (f x) m) l == qsum (fun y => qsum (fun x => f x y) l) m.
Proof.
  induction l; simpl.
  - symmetry. apply qsum_zero. reflexivity.
  - rewrite IHl. rewrite <- qsum_plus. reflexivity.
Qed.

(** ** [qn] *)
Lemma qn_0 : qn 0 == 0. Proof. reflexivity. Qed.
Lemma qn_1 : qn 1 == 1. Proof. reflexivity. Qed.
Lemma qn_plus a b : qn (a + b) == qn a + qn b.
Proof. unfold qn. rewrite Nat2Z.inj_add, inject_Z_plus. reflexivity. Qed.
Lemma qn_S a : qn (S a) == qn a + 1.
Proof. replace (S a) with (a + 1)%nat by lia. rewrite qn_plus, qn_1. reflexivity. Qed.
Lemma qn_le a b : (a <= b)%nat -> qn a <= qn b.
Proof. intro. unfold qn. rewrite <- Zle_Qle. lia. Qed.
Lemma qn_lt a b : (a < b)%nat -> qn a < qn b.
Proof. intro. unfold qn. rewrite <- Zlt_Qlt. lia. Qed.
Lemma qn_nonneg a : 0 <= qn a.
Proof. apply (qn_le 0 a). lia. Qed.
Lemma qn_minus a b : (b <= a)%nat -> qn (a - b) == qn a - qn b.
Proof.
  intro H. assert (E : qn (a - b + b) == qn (a - b) + qn b) by apply qn_plus.
  replace (a - b + b)%nat with a in E by lia. lra.
Qed.
Lemma qn_inj a b : qn a == qn b -> a = b.
Proof. unfold qn, Qeq. simpl. lia. Qed.
Lemma qn_lt_inv a b : qn a < qn b -> (a < b)%nat.
Proof. unfold qn. rewrite <- Zlt_Qlt. lia. Qed.
Lemma qn_le_inv a b : qn a <= qn b -> (a <= b)%nat.
Proof. unfold qn. rewrite <- Zle_Qle. lia. Qed.

(** ** [mem] *)
Lemma mem_In l x : mem l x = true <-> In x l.
Proof.
  unfold mem. rewrite existsb_exists. split.
  - intros (y & Hy & E). apply Nat.eqb_eq in E. subst; auto.
  - intro H. exists x. split; auto. apply Nat.eqb_refl.
Qed.

Lemma mem_false l x : mem l x = false <-> ~ In x l.
Proof. rewrite <- mem_In. destruct (mem l x); split; intro; congruence. Qed.

Lemma mem_app l1 l2 x : mem (l1 ++ l2) x = mem l1 x || mem l2 x.
Proof. unfold mem. apply existsb_app. Qed.

Lemma mem_cons a l x : mem (a :: l) x = Nat.eqb x a || mem l x.
Proof. reflexivity. Qed.

Lemma mem_ext l1 l2 : (forall x, In x l1 <-> In x l2) -> forall x, mem l1 x = mem l2 x.
Proof.
  intros H x. destruct (mem l1 x) eqn:E.
  - symmetry. apply mem_In. apply H. apply mem_In; auto.
  - symmetry. apply mem_false. intro C. apply H in C. apply mem_false in E. auto.
Qed.

Lemma mem_filter p l x : mem (filter p l) x = mem l x && p x.
Proof.
  destruct (mem (filter p l) x) eqn:E; symmetry.
  - apply mem_In in E. apply filter_In in E. destruct E as [E1 E2].
    apply mem_In in E1. rewrite E1, E2. reflexivity.
  - apply mem_false in E. destruct (mem l x) eqn:E1; simpl; auto.
    destruct (p x) eqn:E2; auto. exfalso. apply E. apply filter_In.
    split; auto. apply mem_In; auto.
Qed.

(** ** NoDup and concat *)
Lemma NoDup_app_inv {A} (l1 l2 : list A) :
  NoDup (l1 ++ l2) -> NoDup l1 /\ NoDup l2 /\ (forall x, In x l1 -> ~ In x l2).
Proof.
  induction l1; simpl; intro H.
  - repeat split; auto. constructor.
  - inversion H as [|? ? H1 H2]; subst. destruct (IHl1 H2) as (Ha & Hb & Hc).
    repeat split; auto.
    + constructor; auto. intro C. apply H1. apply in_or_app; auto.
    + intros x [<-|Hx]; auto. intro C. apply H1. apply in_or_app; auto.
Qed.

Lemma NoDup_app_intro {A} (l1 l2 : list A) :
  NoDup l1 -> NoDup l2 -> (forall x, In x l1 -> ~ In x l2) -> NoDup (l1 ++ l2).
Proof.
  induction l1; simpl; intros H1 H2 H; auto.
  inversion H1; subst. constructor.
  - rewrite in_app_iff. intros [C|C]; auto. apply (H a); auto.
  - apply IHl1; auto.
Qed.

(** Sum of an indicator over a duplicate-free list. *)
Lemma qsum_single l x c :
  NoDup l -> In x l -> qsum (fun y => if Nat.eqb y x then c else 0) l == c.
Proof.
  induction 1 as [|a l Hn Hd IH]; simpl; intro Hx; [tauto|].
  destruct (Nat.eqb a x) eqn:E.
  - apply Nat.eqb_eq in E. subst a.
    rewrite qsum_zero; [lra|]. intros y Hy. destruct (Nat.eqb y x) eqn:E; [|reflexivity].
    apply Nat.eqb_eq in E. subst. contradiction.
  - apply Nat.eqb_neq in E. destruct Hx as [->|Hx]; [congruence|].
    rewrite IH by auto. lra.
Qed.
