(** * MSets: model of [stl::CSet] and [stl::Partition].

    The submodule psp/set (set/set_stl.h) is not part of /repo; these definitions give the
    semantics its callers rely on: [CSet] is a [std::set<size_t>], [Partition] a [std::set<CSet>]
    ordered lexicographically. *)
From Verif Require Import Base.

Notation cset := (list nat) (only parsing).
Notation cpart := (list (list nat)) (only parsing).

(** CSet::AddElement (used at psp/dt.cpp:24, psp/psp_i.cpp:57): ordered insertion, no duplicates. *)
Fixpoint cadd (x : nat) (s : cset) : cset :=
  match s with
  | [] => [x]
  | y :: t => if (x <? y)%nat then x :: s
              else if (x =? y)%nat then s
              else y :: cadd x t
  end.

(** CSet built by successive AddElement calls (psp/dt.cpp:77-81). *)
Definition cset_of (l : list nat) : cset := fold_right cadd [] l.

(** CSet::Union (psp/psp_i.cpp:202). *)
Definition cunion (s t : cset) : cset := fold_right cadd t s.

(** CSet::Intersection (psp/psp_i.cpp:200). *)
Definition cinter (s t : cset) : cset := filter (mem t) s.

(** CSet::MakeDense(n) = {0..n-1} (psp/dt.cpp:146,154). *)
Definition cdense (n : nat) : cset := seq 0 n.

(** Lexicographic comparison of [std::set]s ([operator<]). *)
Fixpoint clt (s t : cset) : bool :=
  match s, t with
  | _, [] => false
  | [], _ :: _ => true
  | x :: s', y :: t' => if (x <? y)%nat then true
                        else if (y <? x)%nat then false else clt s' t'
  end.

(** Partition::AddElement (psp/dt.cpp:148, psp/psp_i.cpp:119): insertion into the
    ordered set of parts; an equal part is not inserted twice. *)
Fixpoint padd (S : cset) (P : cpart) : cpart :=
  match P with
  | [] => [S]
  | B :: t => if clt S B then S :: P
              else if clt B S then B :: padd S t
              else P
  end.

(** Partition::makeFine(n): all singletons (psp/dt.cpp:149,157). *)
Definition pfine (n : nat) : cpart := map (fun i => [i]) (seq 0 n).

Definition meets (T B : cset) : bool := existsb (mem T) B.

(** Partition::expand(T) (psp/dt.cpp:25, psp/psp_i.cpp:90, psp/pmf.cpp:331): the parts meeting [T] are
    replaced by the union of [T] with all of them. *)
Definition pexpand (P : cpart) (T : cset) : cpart :=
  padd (fold_left (fun acc B => cunion B acc) (filter (meets T) P) T)
       (filter (fun B => negb (meets T B)) P).
