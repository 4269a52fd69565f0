(** * MAIC: the agglomerative solver (IC/src/AIC.hpp, psp/agglomerative.cpp).

    Doubles are rationals.  [min_norm_base] (IC/src/AIC.hpp:40-176) is a parameter here; it is
    modelled on its own in MWolfe. *)
From Verif Require Import Base Graph MSets MHC.

(** An IC::SF object (IC/src/Core.hpp:50-92): size() and operator().  An argument outside the ground set
    is undefined behaviour in the classes below. *)
Record sf : Type := mkSF { sfn : nat; sfv : list nat -> res Q }.

(** psp::DigraphEntropy (psp/agglomerative.cpp:14-63): the contribution of B[i] = b, in-arcs
    first (lines 47-52), then out-arcs (lines 53-55). *)
Definition ent_at (E : graph) (B : list nat) (b : nat) : Q :=
  qsum (fun a => if (adst a =? b)%nat
                 then if (asrc a <? b)%nat && mem B (asrc a) then 0 else aw a
                 else 0) E +
  qsum (fun a => if (asrc a =? b)%nat then aw a else 0) E.

(** DigraphEntropy::operator() (psp/agglomerative.cpp:43-58) and size() (lines 60-62); node ids are
    0..n-1. *)
Definition ent_sf (n : nat) (E : graph) : sf :=
  mkSF n (fun B => if forallb (fun b => b <? n)%nat B then Ok (qsum (ent_at E B) B) else UB).

(** The loop of IC::edmonds_greedy (IC/src/AIC.hpp:23-28): x[i] = -F; x[i] += f(B). *)
Fixpoint greedy_loop (f : list nat -> res Q) (B : list nat) (F : Q) (idx : list nat) (x : nat -> Q)
  : res (nat -> Q) :=
  match idx with
  | [] => Ok x
  | i :: t => do F' <- f (B ++ [i]); greedy_loop f (B ++ [i]) F' t (upd x i (- F + F'))
  end.

(** IC::edmonds_greedy (IC/src/AIC.hpp:13-30).  [ord w] is what std::sort makes of the indices (line
    20); std::sort is not stable, so the theorems hold for every order that sorts. *)
Definition edmonds_greedy (ord : list Q -> list nat) (f : sf) (w : list Q) : res (list Q) :=
  if negb (sfn f =? length w)%nat then Throw
  else
    do F <- sfv f [];
    do x <- greedy_loop (sfv f) [] F (ord w) (fun _ => 0);
    Ok (map x (seq 0 (sfn f))).

(** fi[i] = f(P[i]) (IC/src/AIC.hpp:224-230). *)
Fixpoint sf_evals (f : sf) (P : list (list nat)) : res (list Q) :=
  match P with
  | [] => Ok []
  | C :: t => do v <- sfv f C; do vs <- sf_evals f t; Ok (v :: vs)
  end.

(** AIC::SF_ (IC/src/AIC.hpp:219-256): the constructor (224-230) and operator() (240-252). *)
Definition sf_contract (f : sf) (P : list (list nat)) : res sf :=
  do fi <- sf_evals f P;
  Ok (mkSF (length P)
        (fun B => if forallb (fun i => i <? length P)%nat B
                  then do v <- sfv f (flat_map (fun i => nth i P []) B);
                       Ok (v - qsum (fun i => nth i fi 0) B)
                  else UB)).

(** AIC::SF__ (IC/src/AIC.hpp:195-215): entries not below j are left 0 in the copy (line 204). *)
Definition sf_fix (f : sf) (j : nat) : sf :=
  mkSF j (fun B => sfv f (map (fun b => if (b <? j)%nat then b else 0%nat) B ++ [j])).

(** Eigen's minCoeff, asserting on an empty vector (IC/src/AIC.hpp:283). *)
Definition vmin (x : list Q) : res Q :=
  match x with
  | [] => UB
  | a :: t => Ok (fold_left (fun m b => if Qltb b m then b else m) t a)
  end.

(** std::max(gamma, c) (IC/src/AIC.hpp:283). *)
Definition emax (g : ext) (c : Q) : ext := if egtb (Val c) g then Val c else g.

(** The first loop of AIC::agglomerate (IC/src/AIC.hpp:278-284), over the remaining j. *)
Fixpoint agg_solve (mnb : sf -> res (list Q)) (f_ : sf) (js : list nat) (g : ext)
  : res (ext * list (list Q)) :=
  match js with
  | [] => Ok (g, [])
  | j :: t =>
      do x <- mnb (sf_fix f_ j);
      do m <- vmin x;
      do r <- agg_solve mnb f_ t (emax g (- m));
      Ok (fst r, x :: snd r)
  end.

(** The second loop (IC/src/AIC.hpp:286-293), over the remaining pairs (i, j). *)
Fixpoint agg_merge (st : hc) (P : list (list nat)) (xs : list (list Q)) (g tol : Q)
  (ps : list (nat * nat)) : res hc :=
  match ps with
  | [] => Ok st
  | (i, j) :: t =>
      match nth_error xs (j - 1) with
      | None => UB
      | Some x =>
          match nth_error x i with
          | None => UB
          | Some v =>
              if Qle_bool v (- g + tol) then
                match nth_error P j, nth_error P i with
                | Some (a :: _), Some (b :: _) =>
                    do r <- hc_merge st a b g; agg_merge (fst r) P xs g tol t
                | _, _ => UB
                end
              else agg_merge st P xs g tol t
          end
      end
  end.

(** The pairs in the order of the loops (IC/src/AIC.hpp:286-287). *)
Definition agg_pairs (k : nat) : list (nat * nat) :=
  flat_map (fun j => map (fun i => (i, j)) (seq 0 j)) (seq 1 (k - 1)).

(** AIC::agglomerate(fn_tol, eps) (IC/src/AIC.hpp:271-296); eps and fn_tol also go to min_norm_base,
    which is the parameter [mnb].  gamma is finite after the first loop, since k > 1. *)
Definition agglomerate (mnb : sf -> res (list Q)) (tol : Q) (f : sf) (st : hc) : res (hc * bool) :=
  do P <- get_partition st NegInf;
  if (length P <=? 1)%nat then Ok (st, false)
  else
    do f_ <- sf_contract f P;
    do r <- agg_solve mnb f_ (seq 1 (length P - 1)) NegInf;
    match fst r with
    | Val g => do st' <- agg_merge st P (snd r) g tol (agg_pairs (length P)); Ok (st', true)
    | _ => UB
    end.

(** Agglomerative_PSP::add_partition (psp/agglomerative.cpp:70-80). *)
Definition agg_part (q : list (list nat)) : list (list nat) :=
  fold_left (fun p s => padd (fold_left (fun K e => cadd e K) s []) p) q [].

(** The while loop of Agglomerative_PSP::run (psp/agglomerative.cpp:85-88); back() of an empty vector is
    undefined behaviour. *)
Fixpoint agg_loop (fuel : nat) (mnb : sf -> res (list Q)) (tol : Q) (f : sf) (st : hc)
  (crit : list Q) (psp : list (list (list nat))) : res (list Q * list (list (list nat))) :=
  match fuel with
  | O => OutOfFuel
  | S k =>
      do r <- agglomerate mnb tol f st;
      if snd r then
        do P <- get_coarsest (fst r);
        match rev (get_critical (fst r)) with
        | [] => UB
        | c :: _ => agg_loop k mnb tol f (fst r) (c :: crit) (agg_part P :: psp)
        end
      else Ok (crit, psp)
  end.

(** Agglomerative_PSP::run (psp/agglomerative.cpp:81-89) from line 83 on, for any IC::SF object. *)
Definition agg_from (fuel : nat) (mnb : sf -> res (list Q)) (tol : Q) (f : sf)
  : res (list Q * list (list (list nat))) :=
  do P <- get_coarsest (hc_new (sfn f));
  agg_loop fuel mnb tol f (hc_new (sfn f)) [] [agg_part P].

(** Agglomerative_PSP::run (psp/agglomerative.cpp:81-89) on the graph [E] with nodes 0..n-1:
    get_critical_values() and get_psp() afterwards.  [tol] is 1E-6 (IC/src/AIC.hpp:299). *)
Definition agg_run (fuel : nat) (mnb : sf -> res (list Q)) (tol : Q) (n : nat) (E : graph)
  : res (list Q * list (list (list nat))) := agg_from fuel mnb tol (ent_sf n E).
