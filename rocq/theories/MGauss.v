(** * MGauss: the entropies of IC/src/gaussian.hpp.

    Doubles are real numbers.  Eigen's LLT is modelled by its definition, column by column; blocking
    and the order of additions do not matter in exact arithmetic. *)
From Coq Require Import Reals.
From Verif Require Import Base.
Open Scope R_scope.

(** Sum of [f] over a list. *)
Fixpoint rsum {A} (f : A -> R) (l : list A) : R :=
  match l with
  | [] => 0
  | a :: t => f a + rsum f t
  end.

(** Eigen::LLT of the matrix [S] (IC/src/gaussian.hpp:39, 95): the columns of L found so far, as functions of
    the row.  Only S(i,j) with i >= j is read.  NumericalIssue when a pivot is not positive. *)
Fixpoint llt_cols (S : nat -> nat -> R) (js : list nat) (cols : list (nat -> R)) : res (list (nat -> R)) :=
  match js with
  | [] => Ok cols
  | j :: t =>
      let x := S j j - rsum (fun c => c j * c j) cols in
      if Rle_dec x 0 then Throw
      else
        let d := sqrt x in
        llt_cols S t (cols ++ [fun i => if (i =? j)%nat then d else (S i j - rsum (fun c => c i * c j) cols) / d])
  end.
Definition llt (k : nat) (S : nat -> nat -> R) : res (list (nat -> R)) := llt_cols S (seq 0 k) [].

(** ScalarGaussianEntropy::h (IC/src/gaussian.hpp:93-108), in nats. *)
Definition sge_h (k : nat) (S : nat -> nat -> R) : res R :=
  let c := ln (2 * PI * exp 1) / 2 in
  do L <- llt k S;
  Ok (fold_left (fun det i => det + ln (nth i L (fun _ => 0) i)) (seq 0 k) (c * INR k)).

(** ScalarGaussianEntropy::operator() (IC/src/gaussian.hpp:115-124) for an n x n matrix [Sigma]; indices
    outside are undefined behaviour. *)
Definition sge (n : nat) (Sigma : nat -> nat -> R) (B : list nat) : res R :=
  if forallb (fun b => b <? n)%nat B then
    sge_h (length B) (fun i j => Sigma (nth i B O) (nth j B O))
  else UB.

(** The constructor ScalarGaussianEntropy(S) (IC/src/gaussian.hpp:83-87) looks at the shape only. *)
Definition sge_new (rows cols : nat) (Sigma : nat -> nat -> R) : res (list nat -> res R) :=
  if (rows =? cols)%nat then Ok (sge rows Sigma) else Throw.

(** A linear mapping: number of columns and rows (Eigen::MatrixXd). *)
Record rmat := mkRM { rcols : nat; rrows : list (list R) }.

(** One entry of LinearMapping * LinearMapping.transpose() (IC/src/gaussian.hpp:37). *)
Fixpoint rdot (u v : list R) : R :=
  match u, v with
  | a :: u', b :: v' => a * b + rdot u' v'
  | _, _ => 0
  end.

(** std::log2. *)
Definition log2 (x : R) : R := ln x / ln 2.

(** GaussianEntropy::h (IC/src/gaussian.hpp:33-48), in bits. *)
Definition ge_h (cols : nat) (rows : list (list R)) : res R :=
  let k := length rows in
  if (k =? 0)%nat || (cols =? 0)%nat then Ok 0
  else
    let S := fun i j => rdot (nth i rows []) (nth j rows []) in
    let c := log2 (2 * PI * exp 1) / 2 in
    do L <- llt k S;
    Ok (fold_left (fun det i => det + log2 (nth i L (fun _ => 0) i)) (seq 0 k) (c * INR k)).

(** The constructor GaussianEntropy(LinearMappings) (IC/src/gaussian.hpp:19-27): number of columns and the
    mappings, all of the same width. *)
Definition ge_new (Ms : list rmat) : res (nat * list rmat) :=
  let n := match Ms with [] => O | m :: _ => rcols m end in
  if forallb (fun m => rcols m =? n)%nat Ms then Ok (n, Ms) else Throw.

(** Overwriting an entry of a vector; the rows of a block of a matrix whose rows may be unset. *)
Definition vput (i : nat) (x : nat) (v : list nat) : list nat :=
  firstn i v ++ x :: skipn (S i) v.
Definition bput (i : nat) (b : list (list R)) (m : list (option (list R))) : list (option (list R)) :=
  firstn i m ++ map Some b ++ skipn (i + length b) m.

(** The row counts added up (IC/src/gaussian.hpp:57-61): row_idx has length k + 1 and starts with zeros. *)
Fixpoint row_idx (k i : nat) (bs : list (list (list R))) (idx : list nat) : list nat :=
  match bs with
  | [] => idx
  | b :: t =>
      let idx1 := vput i (nth k idx O) idx in
      row_idx k (S i) t (vput k (nth k idx1 O + length b) idx1)
  end.

(** The blocks written one by one (IC/src/gaussian.hpp:63-65); a block of another size than the mapping is
    undefined behaviour. *)
Fixpoint put_blocks (idx : list nat) (i : nat) (bs : list (list (list R))) (m : list (option (list R)))
  : res (list (option (list R))) :=
  match bs with
  | [] => Ok m
  | b :: t =>
      if (nth (S i) idx O - nth i idx O =? length b)%nat && (nth i idx O + length b <=? length m)%nat
      then put_blocks idx (S i) t (bput (nth i idx O) b m)
      else UB
  end.

(** Reading the rows; an unset row is undefined behaviour. *)
Fixpoint all_set (m : list (option (list R))) : res (list (list R)) :=
  match m with
  | [] => Ok []
  | None :: _ => UB
  | Some r :: t => do l <- all_set t; Ok (r :: l)
  end.

(** GaussianEntropy::operator() (IC/src/gaussian.hpp:55-67): the rows of the mappings in [B], one below
    the other. *)
Definition ge (g : nat * list rmat) (B : list nat) : res R :=
  if forallb (fun b => b <? length (snd g))%nat B then
    let bs := map (fun b => rrows (nth b (snd g) (mkRM 0 []))) B in
    let k := length B in
    let idx := row_idx k 0 bs (repeat O (S k)) in
    do m <- put_blocks idx 0 bs (repeat None (nth k idx O));
    do rows <- all_set m;
    ge_h (fst g) rows
  else UB.
