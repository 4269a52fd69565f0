(** * MTrim: a max-flow solver for the examples, built on a min-cut solver.

    Not part of /repo: it stands for lemon::Preflow and shows that the contracts [WarmLSpec] and
    [WarmRSpec] can be met. *)
From Verif Require Import Base Graph MSets MGraph MaxFlow MDil MDT MPMF MPMFR MWarm MWarmR.

(** Reduce the capacities one arc after the other as far as the minimum cut stays [v]; what is left
    is a maximum flow. *)
Fixpoint trim (m : network -> Q) (v : Q) (pre todo : network) : network :=
  match todo with
  | [] => pre
  | a :: t =>
      let x := Qred (v - m (pre ++ mkNarc (nsrc a) (ndst a) 0 :: t)) in
      trim m v (pre ++ [mkNarc (nsrc a) (ndst a) x]) t
  end.

Definition trim_flow (nodes : list nat) (N : network) : flow :=
  map ncap (trim (fun M => fst (bf_mincut nodes M)) (fst (bf_mincut nodes N)) [] N).

(** Test of [flow_ok]. *)
Definition flow_okb (nodes : list nat) (N : network) (f : flow) (v : Q) : bool :=
  (length f =? length N)%nat &&
  forallb (fun p => negb (Qltb (snd p) 0) && negb (Qltb (ncap (fst p)) (snd p))) (combine N f) &&
  forallb (fun u => Qeq_bool (excess N f (NV u)) 0) nodes &&
  Qeq_bool (excess N f NSnk) v.

(** *** Augmenting paths, with a test of the result *)
(** The nodes from which the sink can be reached in the residual graph, newest first, each with the arc (position
    and direction) to follow. *)
Definition rmem (R : list (nnode * (nat * bool))) (u : nnode) : bool :=
  nnode_eqb u NSnk || existsb (fun r => nnode_eqb u (fst r)) R.
Fixpoint sweep (k : nat) (l : list (narc * Q)) (R : list (nnode * (nat * bool))) : list (nnode * (nat * bool)) :=
  match l with
  | [] => R
  | (a, x) :: t =>
      sweep (S k) t
        (if rmem R (ndst a) && negb (rmem R (nsrc a)) && Qltb x (ncap a) then (nsrc a, (k, true)) :: R
         else if rmem R (nsrc a) && negb (rmem R (ndst a)) && Qltb 0 x then (ndst a, (k, false)) :: R
         else R)
  end.
Fixpoint reaching (rounds : nat) (st : list (narc * Q)) (R : list (nnode * (nat * bool))) : list (nnode * (nat * bool)) :=
  match rounds with
  | O => R
  | S r => let R' := sweep 0 st R in
           if (length R' =? length R)%nat then R else reaching r st R'
  end.
(** The path from [u] to the sink. *)
Fixpoint path_of (fuel : nat) (st : list (narc * Q)) (R : list (nnode * (nat * bool))) (u : nnode) : list (nat * bool) :=
  match fuel with
  | O => []
  | S fuel' =>
      match find (fun r => nnode_eqb u (fst r)) R with
      | None => []
      | Some (_, (k, b)) =>
          (k, b) :: match nth_error st k with
                    | Some (a, _) => path_of fuel' st R (if b then ndst a else nsrc a)
                    | None => []
                    end
      end
  end.
Definition room (st : list (narc * Q)) (kb : nat * bool) : Q :=
  match nth_error st (fst kb) with
  | Some (a, x) => if snd kb then ncap a - x else x
  | None => 0
  end.
Definition push (st : list (narc * Q)) (d : Q) (kb : nat * bool) : list (narc * Q) :=
  map (fun p => if (fst p =? fst kb)%nat then (fst (snd p), Qred (if snd kb then snd (snd p) + d else snd (snd p) - d)) else snd p)
      (combine (seq 0 (length st)) st).
Fixpoint augment (fuel : nat) (size : nat) (st : list (narc * Q)) : list (narc * Q) * list (nnode * (nat * bool)) :=
  let R := reaching size st [] in
  match fuel with
  | O => (st, R)
  | S fuel' =>
      match path_of size st R NSrc with
      | [] => (st, R)
      | kb :: t => let d := fold_left (fun m q => if Qltb (room st q) m then room st q else m) t (room st kb) in
                   augment fuel' size (fold_left (fun st q => push st d q) (kb :: t) st)
      end
  end.

(** Every node of the list has a residual arc to the sink or to an earlier one. *)
Fixpoint chain_ok (st : list (narc * Q)) (dn todo : list nat) : bool :=
  match todo with
  | [] => true
  | x :: t =>
      existsb (fun p => nnode_eqb (nsrc (fst p)) (NV x) && side (mem dn) (ndst (fst p)) && Qltb (snd p) (ncap (fst p)) ||
                        nnode_eqb (ndst (fst p)) (NV x) && side (mem dn) (nsrc (fst p)) && Qltb 0 (snd p)) st &&
      chain_ok st (x :: dn) t
  end.
Definition aug (nodes : list nat) (N : network) : option (flow * list nat) :=
  let r := augment 200 (length nodes + 2) (map (fun a => (a, 0)) N) in
  let f := map snd (fst r) in
  let ch := flat_map (fun q => match fst q with NV v => [v] | _ => [] end) (rev (snd r)) in
  if flow_okb nodes N f (cut N (mem ch)) && forallb (mem nodes) ch && chain_ok (combine N f) [] ch
  then Some (f, ch) else None.

Definition aug_mincut : solver := fun nodes N =>
  match aug nodes N with
  | Some (_, X) => (Qred (cut N (mem X)), filter (mem X) nodes)
  | None => bf_mincut nodes N
  end.
Definition max_flow (nodes : list nat) (N : network) : flow :=
  match aug nodes N with
  | Some (f, _) => f
  | None => trim_flow nodes N
  end.

(** As much flow as fits sent from the source to a neighbour and straight back. *)
Definition room_of (p : narc -> bool) (N : network) (f : flow) : Q :=
  qsum (fun q => if p (fst q) then ncap (fst q) - snd q else 0) (combine N f).
Definition spin (N : network) (f : flow) : flow :=
  let d := fun i =>
    let p := room_of (fun a => nnode_eqb (nsrc a) NSrc && nnode_eqb (ndst a) (NV i)) N f in
    let q := room_of (fun a => nnode_eqb (nsrc a) (NV i) && nnode_eqb (ndst a) NSrc) N f in
    Qred (if Qltb p q then p else q) in
  map (fun q => match nsrc (fst q), ndst (fst q) with
                | NSrc, NV i | NV i, NSrc => snd q + d i
                | _, _ => snd q
                end) (combine N f).
Definition spin_flow (nodes : list nat) (N : network) : flow :=
  let f := max_flow nodes N in
  let g := spin N f in
  if flow_okb nodes N g (fst (aug_mincut nodes N)) then g else f.

(** Solvers without and with such round trips; both ignore the flow they are started from. *)
Definition trim_L : wsolver := fun nodes N _ => (aug_mincut nodes N, max_flow nodes N).
Definition trim_R : wsolver := fun nodes N _ => (rev_solver aug_mincut nodes N, max_flow nodes N).
Definition spin_L : wsolver := fun nodes N _ => (aug_mincut nodes N, spin_flow nodes N).
Definition spin_R : wsolver := fun nodes N _ => (rev_solver aug_mincut nodes N, spin_flow nodes N).
