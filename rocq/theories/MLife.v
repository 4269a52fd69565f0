(** * MLife: allocation and destruction of PSP objects (psp/psp.cpp:11-34). *)
From Coq Require Import String.
From Verif Require Import Base Graph MSets MGraph MaxFlow MDil MDT MContract MHost MPSPI MHPSP MPMF MPMFR MWrap.
Notation length := List.length (only parsing).
Open Scope list_scope.

(** Blocks obtained from operator new or owned by the client: a graph, with its arc weights (the model keeps them with the
    arcs), and an arc map attached to the graph at an address.  A freed block is [None]; addresses are never reused. *)
Inductive block : Type := BGraph (G : gst) | BMap (g : nat).
Definition heap := list (option block).
Definition hget (h : heap) (a : nat) : option block := match nth_error h a with Some (Some b) => Some b | _ => None end.
Definition hput (h : heap) (a : nat) (b : option block) : heap := firstn a h ++ b :: skipn (S a) h.

(** A PSP object (psp/psp.h:32-38). *)
Record pobj : Type := mkP { po_g : nat; po_m : nat; po_np : Z; po_cv : list dbl; po_psp : list cpart }.

(** Variables of the client: PSP objects, and graphs of its own with their arc maps. *)
Record world : Type := mkWd { w_heap : heap; w_obj : list (nat * pobj); w_ext : list (nat * (nat * nat)) }.
Fixpoint vget {A} (l : list (nat * A)) (x : nat) : option A :=
  match l with
  | [] => None
  | (k, v) :: t => if (x =? k)%nat then Some v else vget t x
  end.
Definition vdel {A} (l : list (nat * A)) (x : nat) : list (nat * A) := filter (fun p => negb (fst p =? x)%nat) l.
Definition vset {A} (l : list (nat * A)) (x : nat) (v : A) : list (nat * A) := (x, v) :: vdel l x.

(** What a client does with PSP objects. *)
Inductive stmt : Type :=
| NewPSP (x : nat) (elt : list (nat * nat * Q)) (np : Z)
| WrapPSP (x y : nat)
| CopyPSP (x y : nat)
| AssignPSP (x y : nat)
| RunPSP (x : nat) (m : string)
| DelPSP (x : nat)
| NewGraph (y : nat) (G : gst)
| DelGraph (y : nat).

(** Outcome: a state; [Invalid], a block freed twice or used after it was freed; [Undef], any other
    undefined behaviour or a variable that does not exist. *)
Inductive outcome : Type := Done (w : world) | Invalid | Undef.

(** delete p: the block must be there. *)
Definition hfree (h : heap) (a : nat) : option heap :=
  match hget h a with Some _ => Some (hput h a None) | None => None end.

(** One statement.
    - NewPSP: psp/psp.cpp:11-16; the constructor from three vectors (17-26) allocates in the same way.  A negative
      number of nodes adds no node (psp/graph.h:29).
    - WrapPSP: psp/psp.cpp:27, num_points is 0.
    - CopyPSP, AssignPSP: the implicit copy constructor and assignment copy the members (psp/psp.h:32-38).
    - RunPSP: psp/psp.cpp:35-52; a call that throws is caught and has changed nothing.
    - DelPSP: ~PSP (psp/psp.cpp:28-34).
    - NewGraph, DelGraph: a graph and an arc map of the client. *)
Definition exec (v : env) (w : world) (s : stmt) : outcome :=
  let h := w_heap w in
  match s with
  | NewPSP x elt np =>
      match psp_ctor (e_eps v) elt (Z.to_nat np) with
      | Ok o =>
          let a := length h in
          Done (mkWd (h ++ [Some (BGraph (ob_g o)); Some (BMap a)]) (vset (w_obj w) x (mkP a (S a) np [] [])) (w_ext w))
      | _ => Undef
      end
  | WrapPSP x y =>
      match vget (w_ext w) y with
      | Some (a, b) => Done (mkWd h (vset (w_obj w) x (mkP a b 0 [] [])) (w_ext w))
      | None => Undef
      end
  | CopyPSP x y | AssignPSP x y =>
      match vget (w_obj w) y with
      | Some o => Done (mkWd h (vset (w_obj w) x o) (w_ext w))
      | None => Undef
      end
  | RunPSP x m =>
      match vget (w_obj w) x with
      | Some o =>
          match hget h (po_g o), hget h (po_m o) with
          | Some (BGraph G), Some (BMap _) =>
              match obj_run v (mkObj G (po_cv o) (po_psp o)) m with
              | Ok o' => Done (mkWd (hput h (po_g o) (Some (BGraph (ob_g o'))))
                                (vset (w_obj w) x (mkP (po_g o) (po_m o) (po_np o) (ob_cv o') (ob_psp o'))) (w_ext w))
              | Throw => Done (mkWd h (vset (w_obj w) x o) (w_ext w))
              | _ => Undef
              end
          | _, _ => Invalid
          end
      | None => Undef
      end
  | DelPSP x =>
      match vget (w_obj w) x with
      | Some o =>
          if (0 <? po_np o)%Z then
            match hfree h (po_m o) with
            | Some h1 =>
                match hfree h1 (po_g o) with
                | Some h2 => Done (mkWd h2 (vdel (w_obj w) x) (w_ext w))
                | None => Invalid
                end
            | None => Invalid
            end
          else Done (mkWd h (vdel (w_obj w) x) (w_ext w))
      | None => Undef
      end
  | NewGraph y G =>
      let a := length h in
      Done (mkWd (h ++ [Some (BGraph G); Some (BMap a)]) (w_obj w) (vset (w_ext w) y (a, S a)))
  | DelGraph y =>
      match vget (w_ext w) y with
      | Some (a, b) =>
          match hfree h b with
          | Some h1 =>
              match hfree h1 a with
              | Some h2 => Done (mkWd h2 (w_obj w) (vdel (w_ext w) y))
              | None => Invalid
              end
          | None => Invalid
          end
      | None => Undef
      end
  end.
Fixpoint exec_all (v : env) (w : world) (p : list stmt) : outcome :=
  match p with
  | [] => Done w
  | s :: t => match exec v w s with Done w' => exec_all v w' t | r => r end
  end.
Definition world0 : world := mkWd [] [] [].

(** Blocks that are allocated. *)
Definition allocated (h : heap) : nat := length (filter (fun b => match b with Some _ => true | None => false end) h).
