(** * MHPSP: model of class HPSP (psp/hpsp.cpp). *)
From Verif Require Import Base Graph MSets MGraph MaxFlow MDil MDT MContract MPSPI.

(** Fields of HPSP (psp/hpsp.h:25-29); the vectors W and K are functions on 0..n-1, initially 0
    (psp/hpsp.cpp:5-10). *)
Record hst : Type := mkH { hG : gst; hW : nat -> dbl; hK : nat -> nat }.

(** Lines 114-117.  Every index is a node id below node_size. *)
Definition set_WK (st : hst) (s : nat) (l : cset) (g : dbl) : hst :=
  mkH (hG st) (fun c => if mem l c then g else hW st c) (fun c => if mem l c then s else hK st c).

(** HPSP::split(s, children_list) (psp/hpsp.cpp:90-136). *)
Fixpoint hpsp_split (fuel : nat) (mc : solver) (eps : Q) (st : hst) (s : nat) (ch : cset) : res hst :=
  match fuel with
  | O => OutOfFuel
  | S fuel' =>
      let k := length ch in
      let sub := sub_arcs (hG st) ch in
      match k with
      | O => Ok st
      | 1%nat => Ok (set_WK st s ch (if Qeq_bool (qsum aw sub) 0 then NaN else PInf))
      | _ =>
          let gamma := split_gamma sub k in
          if (k =? 2)%nat then Ok (set_WK st s ch (Fin gamma))
          else
            let r := dil_run mc gamma sub (enabled (hG st) ch) in
            let min_value := fst r in
            let P' := snd r in
            if negb (negb (length P' =? 1)%nat && negb (length P' =? k)%nat &&
                     Qltb min_value (- gamma - eps))
            then Ok (set_WK st s ch (Fin gamma))
            else
              do r <- foldm (fun (r : hst * cset) S =>
                   let new_S := cadd (hd 0%nat S) (snd r) in
                   if (length S =? 1)%nat then Ok (fst r, new_S)
                   else
                     do st2 <- hpsp_split fuel' mc eps (fst r) (hd 0%nat S) S;
                     Ok (mkH (contract eps (hG st2) S (hd 0%nat S)) (hW st2) (hK st2), new_S))
                 P' (st, []);
              hpsp_split fuel' mc eps (fst r) s (snd r)
      end
  end.

(** [gamma < W[j]] as at lines 16-20, starting from -1. *)
Definition max_W (W : nat -> dbl) (C : list nat) : dbl :=
  fold_left (fun g j => if dltb g (W j) then W j else g) C (Fin (-1)).

(** operator== on doubles. *)
Definition deqb (a b : dbl) : bool :=
  match a, b with
  | Fin x, Fin y => Qeq_bool x y
  | PInf, PInf => true
  | _, _ => false
  end.

(** std::map<int, std::vector<int>> as an association list without repeated keys; its order is
    never observed (lines 54-62 put the values into a Partition). *)
Definition dmap := list (nat * list nat).
Fixpoint dfind (D : dmap) (k : nat) : option (list nat) :=
  match D with
  | [] => None
  | (k', v) :: t => if (k =? k')%nat then Some v else dfind t k
  end.
Definition derase (D : dmap) (k : nat) : dmap := filter (fun p => negb (fst p =? k)%nat) D.
Definition dset (D : dmap) (k : nat) (v : list nat) : dmap := (k, v) :: derase D k.

(** One pass of the loop body with W[j] == gamma (lines 31-50). *)
Definition merge_one (K : nat -> nat) (D : dmap) (j : nat) : dmap :=
  match dfind D j with
  | Some Dj =>
      if (K j =? j)%nat then D
      else match dfind D (K j) with
           | None => derase (dset D (K j) (Dj ++ [K j])) j
           | Some DK => derase (dset D (K j) (DK ++ Dj)) j
           end
  | None =>
      match dfind D (K j) with
      | None => dset D (K j) [j; K j]
      | Some DK => dset D (K j) (DK ++ [j])
      end
  end.

(** The partition assembled at lines 52-70. *)
Definition dmap_partition (n : nat) (D : dmap) : cpart :=
  let total := fold_left (fun t p => fold_left (fun t x => cadd x t) (snd p) t) D [] in
  let P := fold_left (fun P p => padd (fold_left (fun s x => cadd x s) (snd p) []) P) D [] in
  if (length total <? n)%nat
  then fold_left (fun P x => padd [x] P) (filter (fun x => negb (mem total x)) (cdense n)) P
  else P.

(** HPSP::merge (psp/hpsp.cpp:15-73): new C, D, the partition and gamma that are pushed. *)
Definition hpsp_merge (n : nat) (W : nat -> dbl) (K : nat -> nat) (C : list nat) (D : dmap)
  : list nat * dmap * cpart * dbl :=
  let gamma := max_W W C in
  let D' := fold_left (merge_one K) (filter (fun j => deqb (W j) gamma) C) D in
  (filter (fun j => negb (deqb (W j) gamma)) C, D', dmap_partition n D', gamma).

(** The while loop of psp_construct (lines 74-89); results in the order of psp_list. *)
Fixpoint hpsp_loop (fuel : nat) (n : nat) (W : nat -> dbl) (K : nat -> nat) (C : list nat) (D : dmap)
         (cvs : list dbl) (ps : list cpart) : res (list dbl * list cpart) :=
  match fuel with
  | O => OutOfFuel
  | S fuel' =>
      if (length C <=? 1)%nat then Ok (cvs, ps)
      else
        let '(C', D', P, gamma) := hpsp_merge n W K C D in
        hpsp_loop fuel' n W K C' D' (gamma :: cvs) (P :: ps)
  end.

(** Results visible to the caller (psp/hpsp.cpp:177-190). *)
Record hout : Type := mkHOut {
  ho_cv : list dbl; ho_psp : list cpart; ho_W : nat -> dbl; ho_K : nat -> nat; ho_graph : gst
}.

(** HPSP(g, edge_map) and run() (psp/hpsp.cpp:5-14, 74-89). *)
Definition hpsp_run (mc : solver) (eps : Q) (E : graph) (n : nat) : res hout :=
  do st <- hpsp_split (S n) mc eps (mkH (mkG (seq 0 n) E) (fun _ => Fin 0) (fun _ => 0%nat)) 0 (cdense n);
  do r <- hpsp_loop (S n) n (hW st) (hK st) (cdense n) [] [] [];
  Ok (mkHOut (fst r) (snd r ++ [pfine n]) (hW st) (hK st) (hG st)).

(** The same on a graph whose node ids may have gaps, e.g. one that an earlier run contracted; the
    children are still 0..node_size-1 (psp/hpsp.cpp:6, 11-14).  Writing the node filter for
    an erased id has no effect on the live subgraph. *)
Definition hpsp_run_on (mc : solver) (eps : Q) (G : gst) : res hout :=
  let n := length (gnodes G) in
  do st <- hpsp_split (S n) mc eps (mkH G (fun _ => Fin 0) (fun _ => 0%nat)) 0 (cdense n);
  do r <- hpsp_loop (S n) n (hW st) (hK st) (cdense n) [] [] [];
  Ok (mkHOut (fst r) (snd r ++ [pfine n]) (hW st) (hK st) (hG st)).
