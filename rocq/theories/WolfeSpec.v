(** * WolfeSpec: vocabulary for IC::min_norm_base; no code is modelled here. *)
From Verif Require Import Base Graph SubThy MHC MAIC SFSpec MWolfe.

(** Sum of the values [g] of the columns, with weights. *)
Definition wsum (g : list Q -> Q) (cols : list (list Q)) (c : list Q) : Q :=
  qsum (fun p => snd p * g (fst p)) (combine cols c).

(** The columns are affinely independent. *)
Definition indep (n : nat) (cols : list (list Q)) : Prop :=
  forall c, length c = length cols -> wsum (fun _ => 1) cols c == 0 ->
    (forall j, (j < n)%nat -> wsum (fun q => nth j q 0) cols c == 0) -> forall a, In a c -> a == 0.

(** What llt().solve promises for (e e^T + Q^T Q) v = e (IC/src/AIC.hpp:118): the solution, provided the
    columns are affinely independent, that is, the matrix is positive definite. *)
Definition solves (n : nat) (lin : list (list Q) -> list Q) : Prop :=
  forall cols, cols <> [] -> (forall q, In q cols -> length q = n) -> indep n cols ->
    length (lin cols) = length cols /\
    forall q, In q cols -> wsum (fun r => 1 + dot n (vec q) (vec r)) cols (lin cols) == 1.

(** The factor does nothing worse than throwing when a column is added. *)
Definition lsafe {T} (L : lapi T) : Prop :=
  (forall lt cols q, (exists lt', l_add L lt cols q = Ok lt') \/ l_add L lt cols q = Throw) /\
  (forall lt del, exists lt', l_del L lt del = Ok lt').

(** No square root, no exception. *)
Definition no_factor : lapi unit := mkL (fun _ => tt) (fun _ _ _ => Ok tt) (fun _ _ => Ok tt).

(** ** The triangular factor *)

(** A square matrix of n + 1 rows. *)
Definition square (n : nat) (M : list (list Q)) : Prop :=
  length M = S n /\ forall r, (r <= n)%nat -> length (nth r M []) = S n.

(** The product of two rows. *)
Definition rp (n : nat) (M : list (list Q)) (r s : nat) : Q :=
  qsum (fun t => mget M r t * mget M s t) (seq 0 (S n)).

(** M is lower triangular, and its leading block is the factor of e e^T + Q^T Q for the columns of Q. *)
Definition factor (n : nat) (M cols : list (list Q)) : Prop :=
  square n M /\ (length cols <= n)%nat /\
  (forall r t, (r < t)%nat -> (r <= n)%nat -> mget M r t == 0) /\
  (forall r, (r < length cols)%nat -> 0 < mget M r r) /\
  (forall r s, (r < length cols)%nat -> (s < length cols)%nat ->
     rp n M r s == 1 + dot n (vec (nth r cols [])) (vec (nth s cols []))).

(** The square roots taken by the rotations are exact. *)
Fixpoint rots_exact (sq : Q -> Q) (k : nat) (js : list nat) (M : list (list Q)) : Prop :=
  match js with
  | [] => True
  | j :: t =>
      let s := mget M (S j) j * mget M (S j) j + mget M (S j) (S j) * mget M (S j) (S j) in
      0 <= sq s /\ sq s * sq s == s /\ forall M', lmat_rot sq k j M = Ok M' -> rots_exact sq k t M'
  end.

(** The marks when only column [i] of [i + 1 + m] is removed. *)
Definition one_mark (i m : nat) : list bool := repeat false i ++ true :: repeat false m.
