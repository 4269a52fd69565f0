(** * MPSPI: model of class PSP_I (psp/psp_i.cpp:99-266). *)
From Verif Require Import Base Graph MSets MGraph MaxFlow MDil MDT MContract.

(** Fields of PSP_I (psp/psp_i.h:44-49).  [pch u]: the children of tree node [u] in OutArcIt order;
    [plab c]: tree_edge_map of the (only) arc into tree node [c].  The id of a tree node is its
    index in [pK] (asserted at psp/psp_i.cpp:196). *)
Record pst : Type := mkP {
  pG : gst;
  pK : list cset;
  pch : nat -> list nat;
  plab : nat -> dbl
}.

Definition upd {A} (f : nat -> A) (k : nat) (v : A) : nat -> A :=
  fun x => if (x =? k)%nat then v else f x.

(** K[c]. *)
Definition Kat (st : pst) (c : nat) : cset := nth c (pK st) [].

(** [K[c]] exists and [*K[c].begin()] is defined. *)
Definition K_ok (st : pst) (c : nat) : bool :=
  (c <? length (pK st))%nat && negb (length (Kat st c) =? 0)%nat.

(** [*s.begin()] of each child (psp/psp_i.cpp:161-165). *)
Definition reps_of (st : pst) (kids : list nat) : list nat := map (fun c => hd 0%nat (Kat st c)) kids.

(** The loop at lines 185-187. *)
Definition set_labels (st : pst) (kids : list nat) (g : dbl) : pst :=
  mkP (pG st) (pK st) (pch st) (fun c => if mem kids c then g else plab st c).

(** Lines 193-212: a new tree node takes over the children of [root] that meet [S].  changeSource
    puts each arc at the head of the new node's out list, addArc puts the arc to the new
    node at the head of root's. *)
Definition regroup (st : pst) (root : nat) (S : cset) : pst :=
  let s := length (pK st) in
  let hit := fun c => negb (length (cinter (Kat st c) S) =? 0)%nat in
  let moved := filter hit (pch st root) in
  let rest := filter (fun c => negb (hit c)) (pch st root) in
  mkP (pG st)
      (pK st ++ [fold_left (fun acc c => cunion acc (Kat st c)) moved S])
      (upd (upd (pch st) s (rev moved)) root (s :: rest))
      (plab st).

(** gamma' (line 171) for at least two children. *)
Definition split_gamma (sub : graph) (k : nat) : Q := Qred (qsum aw sub / (qn k - 1)).

(** PSP_I::split(i) (psp/psp_i.cpp:157-219).  With no child nothing is written.  With one child
    (one-node graph) gamma' = weight_total / 0, the truncation's partition has one part and
    the label is NaN, or INFINITY if the node carries a self loop (weights are positive). *)
Fixpoint psp_split (fuel : nat) (mc : solver) (eps : Q) (st : pst) (i : nat) : res pst :=
  match fuel with
  | O => OutOfFuel
  | S fuel' =>
      let kids := pch st i in
      if negb (forallb (K_ok st) kids) then UB
      else
        let reps := reps_of st kids in
        let k := length kids in
        let sub := sub_arcs (pG st) reps in
        match k with
        | O => Ok st
        | 1%nat => Ok (set_labels st kids (if Qeq_bool (qsum aw sub) 0 then NaN else PInf))
        | _ =>
            let gamma := split_gamma sub k in
            if (k =? 2)%nat then Ok (set_labels st kids (Fin gamma))
            else
              let r := dil_run mc gamma sub (enabled (pG st) reps) in
              let min_value := fst r in
              let P' := snd r in
              if negb (negb (length P' =? 1)%nat && negb (length P' =? k)%nat &&
                       Qltb min_value (- gamma - eps))
              then Ok (set_labels st kids (Fin gamma))
              else
                do st' <- foldm (fun st S =>
                     if (length S =? 1)%nat then Ok st
                     else
                       let s := length (pK st) in
                       do st2 <- psp_split fuel' mc eps (regroup st i S) s;
                       Ok (mkP (contract eps (pG st2) S (hd 0%nat S)) (pK st2) (pch st2) (plab st2)))
                   P' st;
                psp_split fuel' mc eps st' i
        end
  end.

(** The tree built at lines 103-111; addArc puts the newest arc first. *)
Definition psp_init (n : nat) (E : graph) : pst :=
  mkP (mkG (seq 0 n) E)
      (cdense n :: map (fun i => [i]) (seq 0 n))
      (fun u => if (u =? 0)%nat then rev (seq 1 n) else [])
      (fun _ => Fin 0).

(** Lines 142-152: insert before the first element with a smaller lambda. *)
Fixpoint q_insert (x : nat * dbl) (q : list (nat * dbl)) : list (nat * dbl) :=
  match q with
  | [] => [x]
  | y :: t => if dltb (snd y) (snd x) then x :: q else y :: q_insert x t
  end.

(** Lines 135-141: label of the arcs below [c], INFINITY for a leaf. *)
Definition lam_of (st : pst) (c : nat) : dbl :=
  match pch st c with
  | [] => PInf
  | a :: _ => plab st a
  end.

(** The while loop (lines 118-154); the queue's back is the list's end. *)
Fixpoint psp_loop (fuel : nat) (st : pst) (q : list (nat * dbl)) : res (list Q * list cpart) :=
  match fuel with
  | O => OutOfFuel
  | S fuel' =>
      match q with
      | [] => Ok ([], [])
      | x0 :: _ =>
          let p := fold_left (fun P pr => padd (Kat st (fst pr)) P) q [] in
          match last q x0 with
          | (u, Fin l) =>
              let q' := fold_left (fun q c => q_insert (c, lam_of st c) q) (pch st u) (removelast q) in
              do r <- psp_loop fuel' st q';
              Ok (l :: fst r, p :: snd r)
          | _ => Ok ([], [p])
          end
      end
  end.

(** What a caller can observe after run(): get_critical_values, get_psp
    (psp/psp_i.cpp:260-266) and the graph that was passed in. *)
Record out : Type := mkOut { o_cv : list Q; o_psp : list cpart; o_graph : gst }.

(** Lines 112-154: split(0) and the loop, from the state built at lines 103-111.  For the empty graph line
    117 reads the map at INVALID: UB. *)
Definition psp_run_from (mc : solver) (eps : Q) (st0 : pst) (n : nat) : res out :=
  do st <- psp_split (S n) mc eps st0 0;
  match pch st 0%nat with
  | [] => UB
  | a :: _ =>
      do r <- psp_loop (S (length (pK st))) st [(0%nat, plab st a)];
      Ok (mkOut (fst r) (snd r) (pG st))
  end.

(** PSP_I(g, edge_map) and run() (psp/psp_i.cpp:99-155) on a graph with nodes 0..n-1. *)
Definition psp_run (mc : solver) (eps : Q) (E : graph) (n : nat) : res out :=
  psp_run_from mc eps (psp_init n E) n.

(** The same on a graph [G] whose node ids may have gaps, e.g. one that an earlier run contracted:
    node_size is the number of nodes (line 100), the clusters are still {0}..{node_size-1}. *)
Definition psp_run_on (mc : solver) (eps : Q) (G : gst) : res out :=
  let n := length (gnodes G) in
  let st := psp_init n (garcs G) in
  psp_run_from mc eps (mkP G (pK st) (pch st) (plab st)) n.
