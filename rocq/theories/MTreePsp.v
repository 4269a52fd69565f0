(** * MTreePsp: model of experimental/get_psp.py.

    Python lists are Coq lists, a dict is an association list in insertion order, a set of small
    integers is listed in ascending order, [W] holds rationals instead of floats.  An
    IndexError is [Throw]; indices are natural numbers (no negative indices). *)
From Verif Require Import Base Graph MSets MContract.

(** A dict from nodes to lists of nodes ([D], experimental/get_psp.py:42). *)
Definition dict := list (nat * list nat).

(** [D.get(k)] (experimental/get_psp.py:15,18,24). *)
Fixpoint dget (D : dict) (k : nat) : option (list nat) :=
  match D with
  | [] => None
  | p :: t => if (fst p =? k)%nat then Some (snd p) else dget t k
  end.

(** [D[k] = l] (experimental/get_psp.py:19,25); also the effect of extend and append on [D[k]]
    (lines 21,27). *)
Fixpoint dset (D : dict) (k : nat) (l : list nat) : dict :=
  match D with
  | [] => [(k, l)]
  | p :: t => if (fst p =? k)%nat then (k, l) :: t else p :: dset t k l
  end.

(** [D.pop(k)] (experimental/get_psp.py:22). *)
Definition dpop (D : dict) (k : nat) : dict := filter (fun p => negb (fst p =? k)%nat) D.

(** [l[i]]. *)
Definition py_at {A} (l : list A) (i : nat) : res A :=
  match nth_error l i with Some x => Ok x | None => Throw end.

(** gamma (experimental/get_psp.py:6-9). *)
Definition py_gamma (W : list Q) (C : list nat) : res Q :=
  foldm (fun g i => do w <- py_at W i; Ok (if Qltb g w then w else g)) C (-(1)).

(** One iteration of the loop at experimental/get_psp.py:11-27; the state is ([D], [new_C]).  Line 19 lets two
    keys share a list, line 22 removes one of them at once. *)
Definition py_step (K : list nat) (W : list Q) (gamma : Q) (st : dict * list nat) (j : nat)
  : res (dict * list nat) :=
  let (D, new_C) := st in
  do w <- py_at W j;
  if Qltb w gamma then Ok (D, new_C ++ [j])
  else
    match dget D j with
    | Some l =>
        do k <- py_at K j;
        if (k =? j)%nat then Ok (D, new_C)
        else
          match dget D k with
          | None => Ok (dpop (dset D k l) j, new_C)
          | Some l' => Ok (dpop (dset D k (l' ++ l)) j, new_C)
          end
    | None =>
        do k <- py_at K j;
        match dget D k with
        | None => Ok (dset D k [j; k], new_C)
        | Some l' => Ok (dset D k (l' ++ [j]), new_C)
        end
    end.

(** P (experimental/get_psp.py:28-36). *)
Definition py_parts (n : nat) (D : dict) : cpart :=
  let total := concat (map snd D) in
  map (fun p => cset_of (snd p)) D ++
  (if (length total <? n)%nat
   then map (fun i => [i]) (filter (fun i => negb (mem total i)) (seq 0 n)) else []).

(** merge (experimental/get_psp.py:5-37): the new [D], P, gamma and new_C. *)
Definition py_merge (n : nat) (K : list nat) (W : list Q) (D : dict) (C : list nat)
  : res (dict * cpart * Q * list nat) :=
  do gamma <- py_gamma W C;
  do r <- foldm (py_step K W gamma) C (D, []);
  Ok (fst r, py_parts n (fst r), gamma, snd r).

(** The while loop (experimental/get_psp.py:43-46). *)
Fixpoint py_loop (fuel : nat) (n : nat) (K : list nat) (W : list Q) (D : dict) (C : list nat)
         (L : list Q) (Qs : list cpart) : res (list Q * list cpart) :=
  match fuel with
  | O => OutOfFuel
  | S fuel' =>
      if (length C <=? 1)%nat then Ok (L, Qs)
      else
        do r <- py_merge n K W D C;
        let '(D', P, gamma, C') := r in
        py_loop fuel' n K W D' C' (gamma :: L) (P :: Qs)
  end.

(** get_psp(n, K, W) (experimental/get_psp.py:4-47). *)
Definition get_psp (fuel : nat) (n : nat) (K : list nat) (W : list Q) : res (list Q * list cpart) :=
  py_loop fuel n K W [] (seq 0 n) [] [map (fun i => [i]) (seq 0 n)].
