(** * MHC: the cluster forest IC::HC and the Chow-Liu clustering IC::CL
    (IC/src/Core.hpp:90-351, IC/src/ChowLiu.hpp). *)
From Verif Require Import Base.

(** Doubles with both infinities (no NaN): weights start at -INFINITY (IC/src/Core.hpp:217),
    similarity(i,i) is INFINITY (line 304). *)
Inductive ext : Type := NegInf | Val (q : Q) | PosInf.

(** [a > b] on doubles. *)
Definition egtb (a b : ext) : bool :=
  match a, b with
  | NegInf, _ => false
  | _, NegInf => true
  | _, PosInf => false
  | PosInf, _ => true
  | Val x, Val y => Qltb y x
  end.
(** [a >= b]. *)
Definition egeb (a b : ext) : bool := negb (egtb b a).

(** The members of HC (IC/src/Core.hpp:158-162): [gamma] in push_back order, the vectors as functions
    on 0..n-1. *)
Record hc : Type := mkHC {
  hn : nat;
  hgam : list Q;
  par : nat -> nat;
  chd : nat -> list nat;
  wt : nat -> ext;
  rk : nat -> nat
}.

(** HC::HC(n) (IC/src/Core.hpp:208-220).  The exception object for n < 2 (line 210) is
    constructed but not thrown. *)
Definition hc_new (n : nat) : hc :=
  mkHC n [] (fun i => i) (fun _ => []) (fun _ => NegInf) (fun _ => 0%nat).

Definition upd {A} (f : nat -> A) (i : nat) (x : A) : nat -> A :=
  fun j => if (j =? i)%nat then x else f j.

(** HC::find (IC/src/Core.hpp:171-173). *)
Fixpoint hc_find (fuel : nat) (pr : nat -> nat) (i : nat) : res nat :=
  match fuel with
  | O => OutOfFuel
  | S f => if (pr i =? i)%nat then Ok i else hc_find f pr (pr i)
  end.

(** gamma.empty() || gamma.back() >= g, and the same with > (IC/src/Core.hpp:187-190). *)
Definition gam_ge (gs : list Q) (g : Q) : bool :=
  match rev gs with [] => true | b :: _ => Qle_bool g b end.
Definition gam_gt (gs : list Q) (g : Q) : bool :=
  match rev gs with [] => true | b :: _ => Qltb g b end.

(** HC::merge (IC/src/Core.hpp:183-205).  Node labels out of range are undefined behaviour. *)
Definition hc_merge (st : hc) (i j : nat) (g : Q) : res (hc * bool) :=
  if (i <? hn st)%nat && (j <? hn st)%nat then
    do ir <- hc_find (S (hn st)) (par st) i;
    do jr <- hc_find (S (hn st)) (par st) j;
    if (ir =? jr)%nat || negb (gam_ge (hgam st) g) then Ok (st, false)
    else
      let gs := if gam_gt (hgam st) g then hgam st ++ [g] else hgam st in
      if (rk st ir <=? rk st jr)%nat then
        Ok (mkHC (hn st) gs (upd (par st) ir jr) (upd (chd st) jr (chd st jr ++ [ir]))
                 (upd (wt st) ir (Val g))
                 (if (rk st ir =? rk st jr)%nat then upd (rk st) jr (S (rk st jr)) else rk st), true)
      else
        Ok (mkHC (hn st) gs (upd (par st) jr ir) (upd (chd st) ir (chd st ir ++ [jr]))
                 (upd (wt st) jr (Val g)) (rk st), true)
  else UB.

(** A sequence of merge calls and the values they return. *)
Fixpoint hc_merges (st : hc) (ops : list (nat * nat * Q)) : res (hc * list bool) :=
  match ops with
  | [] => Ok (st, [])
  | (i, j, g) :: t =>
      do r <- hc_merge st i j g;
      do rs <- hc_merges (fst r) t;
      Ok (fst rs, snd r :: snd rs)
  end.

(** The pairs pushed while (p, i) is at the front (IC/src/Core.hpp:236-246, 278-288). *)
Definition nbrs (st : hc) (g : ext) (e : nat * nat) : list (nat * nat) :=
  let (p, i) := e in
  let j := par st i in
  (if negb (j =? i)%nat && negb (j =? p)%nat && egtb (wt st i) g then [(i, j)] else []) ++
  map (fun c => (i, c)) (filter (fun c => negb (c =? p)%nat && egtb (wt st c) g) (chd st i)).

(** The search loop (IC/src/Core.hpp:277-291). *)
Fixpoint bfs (fuel : nat) (st : hc) (g : ext) (q : list (nat * nat)) (cl : list nat) : res (list nat) :=
  match q with
  | [] => Ok cl
  | e :: t =>
      match fuel with
      | O => OutOfFuel
      | S f => bfs f st g (t ++ nbrs st g e) (cl ++ [snd e])
      end
  end.

(** HC::getCluster (IC/src/Core.hpp:273-293). *)
Definition get_cluster (st : hc) (i : nat) (g : ext) : res (list nat) :=
  if (i <? hn st)%nat then bfs (hn st) st g [(i, i)] [] else UB.

(** HC::LinkList (IC/src/Core.hpp:97-156): the key is the index. *)
Record llist : Type := mkL { lhead : nat; lprev : nat -> nat; lnext : nat -> nat }.

(** LinkList(size, 1) (IC/src/Core.hpp:108-131), size > 0. *)
Definition ll_new (n : nat) : llist :=
  mkL 0 (fun i => if (i =? 0)%nat then 0 else (i - 1))%nat
        (fun i => if (i =? n - 1)%nat then i else S i)%nat.

(** remove (IC/src/Core.hpp:137-150). *)
Definition ll_remove (l : llist) (i : nat) : llist :=
  if (lhead l =? i)%nat then l
  else
    let pv := lprev l i in
    let nx := lnext l i in
    let next1 := if negb (pv =? i)%nat then upd (lnext l) pv (if negb (nx =? i)%nat then nx else pv)
                 else lnext l in
    let prev1 := if negb (pv =? i)%nat then upd (lprev l) i i else lprev l in
    let prev2 := if negb (nx =? i)%nat then upd prev1 nx (if negb (pv =? i)%nat then pv else nx)
                 else prev1 in
    let next2 := if negb (nx =? i)%nat then upd next1 i i else next1 in
    mkL (lhead l) prev2 next2.

(** next (IC/src/Core.hpp:151-155). *)
Definition ll_next (l : llist) : option llist :=
  if (lnext l (lhead l) =? lhead l)%nat then None
  else Some (mkL (lnext l (lhead l)) (lprev l) (lnext l)).

(** The outer loop of HC::getPartition (IC/src/Core.hpp:231-252).  The removals do not influence the
    search, so they are done after it, in the order in which the nodes are found. *)
Fixpoint gp_loop (fuel : nat) (st : hc) (g : ext) (l : llist) (cls : list (list nat))
  : res (list (list nat)) :=
  match fuel with
  | O => OutOfFuel
  | S f =>
      do c <- bfs (hn st) st g [(lhead l, lhead l)] [];
      let l' := fold_left ll_remove c l in
      match ll_next l' with
      | None => Ok (cls ++ [c])
      | Some l'' => gp_loop f st g l'' (cls ++ [c])
      end
  end.

(** HC::getPartition (IC/src/Core.hpp:228-254); for n = 0 LinkList writes lnode[0] of an empty
    vector (line 126). *)
Definition get_partition (st : hc) (g : ext) : res (list (list nat)) :=
  if (hn st =? 0)%nat then UB else gp_loop (hn st) st g (ll_new (hn st)) [].

(** HC::getCoarsestPartition (IC/src/Core.hpp:262-264). *)
Definition get_coarsest (st : hc) : res (list (list nat)) := get_partition st NegInf.

(** HC::similarity (IC/src/Core.hpp:302-321). *)
Fixpoint similarity (fuel : nat) (st : hc) (i j : nat) : res ext :=
  match fuel with
  | O => OutOfFuel
  | S f =>
      if (i =? j)%nat then Ok PosInf
      else if (par st i =? i)%nat && (par st j =? j)%nat then Ok (Val 0)
      else if (par st i =? j)%nat then Ok (wt st i)
      else if (par st j =? i)%nat then Ok (wt st j)
      else if egeb (wt st i) (wt st j) then similarity f st (par st i) j
      else similarity f st (par st j) i
  end.
Definition get_similarity (st : hc) (i j : nat) : res ext :=
  if (i <? hn st)%nat && (j <? hn st)%nat then similarity (2 * hn st + 1) st i j else UB.

(** HC::getCriticalValues() (IC/src/Core.hpp:328-330). *)
Definition get_critical (st : hc) : list Q := hgam st.

(** if (gamma.empty() || gamma.back() > w) gamma.push_back(w) (IC/src/Core.hpp:341-342, 345-346). *)
Definition push_less (gs : list ext) (w : ext) : list ext :=
  match rev gs with
  | [] => gs ++ [w]
  | b :: _ => if egtb b w then gs ++ [w] else gs
  end.

(** The walk to the root (IC/src/Core.hpp:344-348). *)
Fixpoint crit_up (fuel : nat) (st : hc) (i : nat) (gs : list ext) : res (list ext) :=
  match fuel with
  | O => OutOfFuel
  | S f => if (par st i =? i)%nat then Ok gs else crit_up f st (par st i) (push_less gs (wt st i))
  end.

(** HC::getCriticalValues(i) (IC/src/Core.hpp:338-350). *)
Definition get_critical_of (st : hc) (i : nat) : res (list ext) :=
  if (i <? hn st)%nat then
    crit_up (S (hn st)) st i (fold_left (fun gs j => push_less gs (wt st j)) (chd st i) [])
  else UB.

(** ** IC::CL *)

(** CL::agglomerate (IC/src/ChowLiu.hpp:14-24), given the index order [ord] produced by sort_indexes
    (IC/src/Core.hpp:32-43).  std::sort is not stable: the theorems hold for every
    order that is a permutation of the indices with non-increasing values.  An edge outside the
    vectors is undefined behaviour. *)
Fixpoint cl_loop (st : hc) (edges : list (nat * nat * Q)) (ord : list nat) : res hc :=
  match ord with
  | [] => Ok st
  | k :: t =>
      match nth_error edges k with
      | None => UB
      | Some (i, j, w) => do r <- hc_merge st i j w; cl_loop (fst r) edges t
      end
  end.

(** CL::CL(n, first_node, second_node, mutual_info) (IC/src/ChowLiu.hpp:34-38), the three vectors as
    one list of triples (so of equal length). *)
Definition cl_new (n : nat) (edges : list (nat * nat * Q)) (ord : list nat) : res hc :=
  cl_loop (hc_new n) edges ord.

(** The edges of CL::CL(SF& h) (IC/src/ChowLiu.hpp:45-57) in push_back order. *)
Definition cl_edges (n : nat) (h : list nat -> Q) : list (nat * nat * Q) :=
  flat_map (fun i => map (fun j => (i, j, h [i] + h [j] - h [i; j])) (seq 0 i)) (seq 0 n).
