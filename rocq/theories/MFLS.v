(** * MFLS: the entropy of a finite linear source (IC/src/FLS.hpp).

    The rank is computed by the PARI library, which is not in the repository: [rk] below is any
    function with [RankSpec].  GF(p,k) is any finite field. *)
From Coq Require Import Field_theory.
From Verif Require Import Base MAIC.

(** A finite field, ffinit(p, k) and ffgen (IC/src/FLS.hpp:26-27). *)
Record ffield := mkFF {
  ft : Type; f0 : ft; f1 : ft;
  fadd : ft -> ft -> ft; fmul : ft -> ft -> ft; fsub : ft -> ft -> ft; fopp : ft -> ft;
  fdiv : ft -> ft -> ft; finv : ft -> ft;
  feqb : ft -> ft -> bool; felts : list ft }.
(** The laws of a field and a complete list of its elements. *)
Record is_field (F : ffield) : Prop := {
  f_laws : field_theory (f0 F) (f1 F) (fadd F) (fmul F) (fsub F) (fopp F) (fdiv F) (finv F) eq;
  f_eqb : forall a b, feqb F a b = true <-> a = b;
  f_all : forall a, In a (felts F);
  f_nodup : NoDup (felts F) }.

(** An integer as an element of the field: stoi(..) times T^0 (IC/src/FLS.hpp:20, 28). *)
Definition fint (F : ffield) (z : Z) : ft F :=
  match z with
  | Z0 => f0 F
  | Zpos p => Pos.iter_op (fadd F) p (f1 F)
  | Zneg p => fopp F (Pos.iter_op (fadd F) p (f1 F))
  end.

(** The conversion of a double to the long argument of stoi (IC/src/FLS.hpp:20): rounding towards 0.
    Values outside the range of long are not modelled. *)
Definition trunc (q : Q) : Z := Z.quot (Qnum q) (Zpos (Qden q)).

(** grank(A, p, k) (IC/src/FLS.hpp:7-46). *)
Definition grank (F : ffield) (rk : list (list (ft F)) -> nat) (A : list (list Q)) : nat :=
  rk (map (map (fun x => fint F (trunc x))) A).

(** An Eigen matrix: number of columns and rows. *)
Record emat := mkMat { ecols : nat; erows : list (list Q) }.

(** FiniteLinearEntropy (IC/src/FLS.hpp:48-98): h (69-72), operator() (79-93), size() (95-97).  [lg]
    stands for k*log2(p).  LinearMappings[0] and LinearMappings[B[i]] outside the vector (84, 88), and
    a row of another length than the first matrix has columns (88), are undefined behaviour. *)
Definition fls_sf (F : ffield) (rk : list (list (ft F)) -> nat) (lg : Q) (Ms : list emat) : sf :=
  mkSF (length Ms)
    (fun B => match Ms with
      | [] => UB
      | M0 :: _ =>
          if forallb (fun b => b <? length Ms)%nat B then
            let picked := map (fun b => nth b Ms (mkMat 0 [])) B in
            if forallb (fun m => match erows m with [] => true | _ => (ecols m =? ecols M0)%nat end) picked
            then Ok (lg * qn (grank F rk (flat_map erows picked)))
            else UB
          else UB
      end).

(** ** Vectors over a field: the vocabulary for the rank and for the source *)

(** Inner product, sum, multiple, zero vector of length [n]. *)
Fixpoint fdot (F : ffield) (u v : list (ft F)) : ft F :=
  match u, v with
  | a :: u', b :: v' => fadd F (fmul F a b) (fdot F u' v')
  | _, _ => f0 F
  end.
Fixpoint vadd (F : ffield) (u v : list (ft F)) : list (ft F) :=
  match u, v with
  | a :: u', b :: v' => fadd F a b :: vadd F u' v'
  | _, _ => []
  end.
Definition vscal (F : ffield) (c : ft F) (v : list (ft F)) : list (ft F) := map (fmul F c) v.
Definition vzero (F : ffield) (n : nat) : list (ft F) := repeat (f0 F) n.

(** Linear combinations of the vectors of [l]. *)
Inductive span (F : ffield) (n : nat) (l : list (list (ft F))) : list (ft F) -> Prop :=
| span_zero : span F n l (vzero F n)
| span_step c v w : In v l -> span F n l w -> span F n l (vadd F (vscal F c v) w).

(** No vector is a combination of those behind it. *)
Fixpoint indep (F : ffield) (n : nat) (l : list (list (ft F))) : Prop :=
  match l with
  | [] => True
  | v :: t => ~ span F n t v /\ indep F n t
  end.

(** [r] is the rank of the matrix with rows [l]: the length of a basis of the row space. *)
Definition is_rank (F : ffield) (n : nat) (l : list (list (ft F))) (r : nat) : Prop :=
  exists b, length b = r /\ indep F n b /\
    (forall v, In v b -> span F n l v) /\ (forall v, In v l -> span F n b v).

(** What PARI documents for rank (IC/src/FLS.hpp:45). *)
Definition RankSpec (F : ffield) (rk : list (list (ft F)) -> nat) : Prop :=
  forall n l, (forall v, In v l -> length v = n) -> is_rank F n l (rk l).

(** All vectors of length [n]. *)
Fixpoint vecs (F : ffield) (n : nat) : list (list (ft F)) :=
  match n with
  | O => [[]]
  | S n' => flat_map (fun a => map (cons a) (vecs F n')) (felts F)
  end.
Fixpoint veqb (F : ffield) (u v : list (ft F)) : bool :=
  match u, v with
  | [], [] => true
  | a :: u', b :: v' => feqb F a b && veqb F u' v'
  | _, _ => false
  end.

(** Matrices with [c] columns each. *)
Definition fls_ok (c : nat) (Ms : list emat) : Prop :=
  forall m, In m Ms -> ecols m = c /\ forall r, In r (erows m) -> length r = c.

(** What the elements of [B] see of [x]: the products of their matrices with [x] (the source that
    IC/src/FLS.hpp:57-58 describes). *)
Definition observed (F : ffield) (Ms : list emat) (B : list nat) (x : list (ft F)) : list (ft F) :=
  flat_map (fun b => map (fun r => fdot F (map (fun e => fint F (trunc e)) r) x) (erows (nth b Ms (mkMat 0 [])))) B.

(** ** An elimination that computes the rank, for examples

    The state holds the chosen rows and a dual vector for each of them. *)
Fixpoint resid (F : ffield) (st : list (list (ft F) * list (ft F))) (r : list (ft F)) : list (ft F) :=
  match st with
  | [] => r
  | (ri, xi) :: t => vadd F (vscal F (fopp F (fdot F r xi)) ri) (resid F t r)
  end.
Fixpoint first_nz (F : ffield) (v : list (ft F)) : option nat :=
  match v with
  | [] => None
  | a :: t => if feqb F a (f0 F) then option_map S (first_nz F t) else Some O
  end.
Definition funit (F : ffield) (n c : nat) : list (ft F) :=
  map (fun i => if (i =? c)%nat then f1 F else f0 F) (seq 0 n).
Fixpoint codual (F : ffield) (c : nat) (st : list (list (ft F) * list (ft F))) (u : list (ft F)) : list (ft F) :=
  match st with
  | [] => u
  | (ri, xi) :: t => vadd F (vscal F (fopp F (nth c ri (f0 F))) xi) (codual F c t u)
  end.
Definition elim1 (F : ffield) (st : list (list (ft F) * list (ft F))) (r : list (ft F)) :=
  match first_nz F (resid F st r) with
  | None => st
  | Some c =>
      let x := vscal F (finv F (nth c (resid F st r) (f0 F))) (codual F c st (funit F (length r) c)) in
      (r, x) :: map (fun p => (fst p, vadd F (vscal F (fopp F (fdot F r (snd p))) x) (snd p))) st
  end.
Definition elim_rank (F : ffield) (l : list (list (ft F))) : nat := length (fold_left (elim1 F) l []).
