(** * MFloatH: class HPSP with every floating-point operation kept in place (psp/hpsp.cpp).

    The counterpart of MHPSP in the style of MFloatP: each double operation of the source is an
    operation of [fops], in the order of the source.  merge() and psp_construct() only copy and compare
    doubles; they are those of MHPSP.  contract (psp/hpsp.cpp:137-176) is the code of psp/psp_i.cpp:220-259.
    Not modelled, as in MFloat: overflow, underflow, NaN and infinities. *)
From Verif Require Import Base Graph MSets MGraph MaxFlow MDil MDT MContract MPSPI MHPSP MFloat MFloatP.

(** HPSP::split(s, children_list) (psp/hpsp.cpp:90-136); [num_of_children - 1.0] and [-1 * gamma'] are exact. *)
Fixpoint f_hpsp_split (fuel : nat) (o : fops) (it : graph -> graph) (mc : solver) (eps : Q) (st : hst) (s : nat) (ch : cset)
  : res hst :=
  match fuel with
  | O => OutOfFuel
  | S fuel' =>
      let k := length ch in
      let sub := sub_arcs (hG st) ch in
      match k with
      | O => Ok st
      | 1%nat => Ok (set_WK st s ch (if Qeq_bool (f_weight o it sub) 0 then NaN else PInf))
      | _ =>
          let gamma := f_split_gamma o it sub k in
          if (k =? 2)%nat then Ok (set_WK st s ch (Fin gamma))
          else
            let r := f_dil o mc gamma sub (enabled (hG st) ch) in
            let min_value := fst r in
            let P' := snd r in
            if negb (negb (length P' =? 1)%nat && negb (length P' =? k)%nat &&
                     Qltb min_value (fsub o (- gamma) eps))
            then Ok (set_WK st s ch (Fin gamma))
            else
              do r <- foldm (fun (r : hst * cset) S =>
                   let new_S := cadd (hd 0%nat S) (snd r) in
                   if (length S =? 1)%nat then Ok (fst r, new_S)
                   else
                     do st2 <- f_hpsp_split fuel' o it mc eps (fst r) (hd 0%nat S) S;
                     Ok (mkH (f_contract o it eps (hG st2) S (hd 0%nat S)) (hW st2) (hK st2), new_S))
                 P' (st, []);
              f_hpsp_split fuel' o it mc eps (fst r) s (snd r)
      end
  end.

(** HPSP(g, edge_map), run() and the getters (psp/hpsp.cpp:5-14, 74-89, 177-190). *)
Definition f_hpsp_run (o : fops) (it : graph -> graph) (mc : solver) (eps : Q) (E : graph) (n : nat) : res hout :=
  do st <- f_hpsp_split (S n) o it mc eps (mkH (mkG (seq 0 n) E) (fun _ => Fin 0) (fun _ => 0%nat)) 0 (cdense n);
  do r <- hpsp_loop (S n) n (hW st) (hK st) (cdense n) [] [] [];
  Ok (mkHOut (fst r) (snd r ++ [pfine n]) (hW st) (hK st) (hG st)).
