(** * MWolfe: IC::min_norm_base (IC/src/AIC.hpp:40-176), Wolfe's algorithm on the base polytope.

    Doubles are rationals; [Qred] only keeps fractions short.  Columns of Q are lists of length n, the
    first numCorral of them are [cols]; the other columns are never read.  The triangular factor L
    (lines 60-63, 92-107, 147-159, 165) decides about one exception and, since its solution is
    overwritten at line 118, about nothing else; it is a parameter of the loop, and [lmat] below is the
    factor of the program. *)
From Coq Require Import Qabs.
From Verif Require Import Base Graph MHC MAIC.

(** Eigen's x.dot(y) for vectors of length n. *)
Definition ldot (n : nat) (x y : list Q) : Q := qsum (fun i => nth i x 0 * nth i y 0) (seq 0 n).

(** Q_ * w_ (IC/src/AIC.hpp:134). *)
Definition lcomb (n : nat) (cols : list (list Q)) (w : list Q) : list Q :=
  map (fun j => Qred (qsum (fun p => snd p * nth j (fst p) 0) (combine cols w))) (seq 0 n).

(** What the loop does with L: set up for the first column (IC/src/AIC.hpp:62-63), a column is added
    (lines 91-109, an exception is possible), the marked columns are removed (lines 147-159 and 165). *)
Record lapi (T : Type) : Type := mkL {
  l_init : list Q -> T;
  l_add : T -> list (list Q) -> list Q -> res T;
  l_del : T -> list bool -> res T }.
Arguments mkL {T}.
Arguments l_init {T}.
Arguments l_add {T}.
Arguments l_del {T}.

(** The step length (IC/src/AIC.hpp:139-144) over the remaining pairs (w_(i), v(i)).  A zero difference is
    possible only for eps <= 0; the quotient is then infinite or not a number and std::min ignores it,
    unless w_(i) is negative. *)
Fixpoint theta_loop (eps th : Q) (l : list (Q * Q)) : res Q :=
  match l with
  | [] => Ok th
  | (a, b) :: t =>
      if Qle_bool eps (a - b) then
        if Qeq_bool (a - b) 0 then if Qltb a 0 then UB else theta_loop eps th t
        else let r := a / (a - b) in theta_loop eps (if Qltb r th then r else th) t
      else theta_loop eps th t
  end.

(** The entries whose mark is not set (IC/src/AIC.hpp:161-170). *)
Definition keep {A} (del : list bool) (l : list A) : list A :=
  map snd (filter (fun p => negb (fst p)) (combine del l)).

(** The minor cycle (IC/src/AIC.hpp:111-173).  [lin cols] is llt().solve(e_) at line 118; a zero sum at
    line 119 gives no numbers and is the outcome [UB].  [w] is the vector w of length n + 1: entries
    from numCorral on are whatever earlier cycles left there.  The x of line 172 is overwritten at line
    134 before it is read and is left out. *)
Fixpoint wolfe_minor {T} (lin : list (list Q) -> list Q) (L : lapi T) (eps : Q) (fuel : nat)
    (cols : list (list Q)) (w : list Q) (lt : T) : res (list (list Q) * list Q * T) :=
  match fuel with
  | O => OutOfFuel
  | S fuel' =>
      let k := length cols in
      let v0 := lin cols in
      let s := Qred (qsum (fun a => a) v0) in
      if negb (k =? 0)%nat && Qeq_bool s 0 then UB
      else
        let v := map (fun a => Qred (a / s)) v0 in
        if forallb (fun a => Qltb eps a) v then Ok (cols, v ++ skipn k w, lt)
        else
          do th <- theta_loop eps 1 (combine w v);
          let w_ := map (fun p => Qred ((1 - th) * fst p + th * snd p)) (combine w v) in
          let del := map (fun a => Qle_bool a eps) w_ in
          let kept := keep del w_ in
          do lt' <- l_del L lt del;
          wolfe_minor lin L eps fuel' (keep del cols)
            (kept ++ skipn (length kept) (w_ ++ skipn k w)) lt'
  end.

(** The major cycle (IC/src/AIC.hpp:66-174).  [fo] is first_order_opt before the assignment at line 71,
    [sc] is stuck_count, [None] as long as it has not been assigned (line 65).  The flag of the result says
    whether the message of line 83 was written. *)
Fixpoint wolfe_major {T} (ord : list Q -> list nat) (lin : list (list Q) -> list Q) (L : lapi T)
    (tol eps : Q) (f : sf) (fuel : nat) (cols : list (list Q)) (w x : list Q) (lt : T) (fo : ext)
    (sc : option nat) : res (list Q * bool) :=
  match fuel with
  | O => OutOfFuel
  | S fuel' =>
      let n := sfn f in
      do q <- edmonds_greedy ord f x;
      let g := Qred (Qabs (ldot n x q - ldot n x x)) in
      if Qltb g tol then Ok (x, false)
      else
        do sc' <- (if egtb fo (Val g) then Ok 0%nat
                   else match sc with Some c => Ok (S c) | None => UB end);
        if (100 <? sc')%nat then Ok (x, true)
        else if (S n <=? length cols)%nat then UB
        else
          do lt1 <- l_add L lt cols q;
          do r <- wolfe_minor lin L eps (S n) (cols ++ [q]) w lt1;
          let cols' := fst (fst r) in
          wolfe_major ord lin L tol eps f fuel' cols' (snd (fst r))
            (lcomb n cols' (firstn (length cols') (snd (fst r)))) (snd r) (Val g) (Some sc')
  end.

(** IC::min_norm_base (IC/src/AIC.hpp:40-176). *)
Definition min_norm_base {T} (ord : list Q -> list nat) (lin : list (list Q) -> list Q) (L : lapi T)
    (tol eps : Q) (fuel : nat) (f : sf) : res (list Q * bool) :=
  match sfn f with
  | O => Ok ([], false)
  | S O => do v <- sfv f [0%nat]; Ok ([v], false)
  | n =>
      do x <- edmonds_greedy ord f (repeat 1 n);
      wolfe_major ord lin L tol eps f fuel [x] (1 :: repeat 0 n) x (l_init L x) PosInf None
  end.

(** ** The factor L of the program; [sq] is std::sqrt. *)

Definition lset {A} (i : nat) (a : A) (l : list A) : list A := firstn i l ++ a :: skipn (S i) l.
Definition mget (M : list (list Q)) (i j : nat) : Q := nth j (nth i M []) 0.

(** L_.solve(rhs) for the lower triangle (IC/src/AIC.hpp:95), [r] being found so far; division by a zero
    pivot is the outcome [UB]. *)
Fixpoint l_solve (M : list (list Q)) (rhs r : list Q) : res (list Q) :=
  match rhs with
  | [] => Ok r
  | b :: t =>
      let row := nth (length r) M [] in
      let p := nth (length r) row 0 in
      if Qeq_bool p 0 then UB
      else l_solve M t (r ++ [Qred ((b - qsum (fun c => fst c * snd c) (combine row r)) / p)])
  end.

(** IC/src/AIC.hpp:92-107. *)
Definition lmat_add (n : nat) (sq : Q -> Q) (M cols : list (list Q)) (q : list Q) : res (list (list Q)) :=
  let k := length cols in
  do r <- l_solve M (map (fun c => Qred (1 + ldot n c q)) cols) [];
  let d := Qred (1 + ldot n q q - qsum (fun a => a * a) r) in
  if Qltb d 0 then Throw
  else Ok (lset k (r ++ sq d :: skipn (S k) (nth k M [])) M).

(** One rotation (IC/src/AIC.hpp:150-155): columns j and j + 1 of rows j + 1 to [k]. *)
Definition lmat_rot (sq : Q -> Q) (k j : nat) (M : list (list Q)) : res (list (list Q)) :=
  let a := mget M (S j) j in
  let b := mget M (S j) (S j) in
  let c := sq (a * a + b * b) in
  if Qeq_bool c 0 then UB
  else Ok (map (fun r => let row := nth r M [] in
                         if (S j <=? r)%nat && (r <=? k)%nat
                         then let y := nth j row 0 in
                              let z := nth (S j) row 0 in
                              lset j (Qred (y * (a / c) + z * (b / c)))
                                (lset (S j) (Qred (y * - (b / c) + z * (a / c))) row)
                         else row) (seq 0 (length M))).

Fixpoint lmat_rots (sq : Q -> Q) (k : nat) (js : list nat) (M : list (list Q)) : res (list (list Q)) :=
  match js with
  | [] => Ok M
  | j :: t => do M' <- lmat_rot sq k j M; lmat_rots sq k t M'
  end.

(** IC/src/AIC.hpp:147-159 over the remaining columns, then the rows are moved up (line 165). *)
Fixpoint lmat_dels (sq : Q -> Q) (k i : nat) (del : list bool) (M : list (list Q)) : res (list (list Q)) :=
  match del with
  | [] => Ok M
  | d :: t =>
      do M' <- (if d then lmat_rots sq k (seq i (k - 1 - i)) M else Ok M);
      lmat_dels sq k (S i) t M'
  end.

Definition lmat_del (sq : Q -> Q) (M : list (list Q)) (del : list bool) : res (list (list Q)) :=
  do M' <- lmat_dels sq (length del) 0 del M;
  let kept := keep del M' in
  Ok (kept ++ skipn (length kept) M').

Definition lmat (n : nat) (sq : Q -> Q) : lapi (list (list Q)) :=
  mkL (fun x => lset 0 (sq (1 + ldot n x x) :: repeat 0 n) (repeat (repeat 0 (S n)) (S n)))
      (lmat_add n sq) (lmat_del sq).

(** A square root rounded down to a multiple of 2^-50. *)
Definition qsqrt (a : Q) : Q := Z.sqrt (Qnum a * 2 ^ 100 / Zpos (Qden a)) # (2 ^ 50).
