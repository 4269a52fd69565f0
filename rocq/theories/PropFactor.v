(** * PropFactor: the triangular factor L of IC::min_norm_base (IC/src/AIC.hpp:60-63, 91-109, 147-165).  C57. *)
From Verif Require Import Base Graph MHC MAIC SFSpec MWolfe WolfeSpec LinThy LThy.

(** The first column (lines 62-63). *)
Theorem C57_first_column : forall n sq x, (1 <= n)%nat -> let d := 1 + ldot n x x in
  0 < sq d -> sq d * sq d == d -> factor n (l_init (lmat n sq) x) [x].
Proof. exact init_ok. Qed.
Print Assumptions C57_first_column.

(** A new column: if L is the factor there is no exception and no undefined behaviour, the number whose root is
    taken is not negative, positive when the columns are affinely independent, and L is again the factor. *)
Theorem C57_new_column : forall n sq M cols q, factor n M cols -> (length cols < n)%nat ->
  exists d M', 0 <= d /\ (indep n (cols ++ [q]) -> 0 < d) /\
    l_add (lmat n sq) M cols q = Ok M' /\
    (0 < sq d -> sq d * sq d == d -> factor n M' (cols ++ [q])).
Proof. exact add_ok. Qed.
Print Assumptions C57_new_column.

(** One column is removed: L is again the factor. *)
Theorem C57_remove_one : forall n sq M cols i m, factor n M cols -> length cols = (i + S m)%nat ->
  rots_exact sq (length cols) (seq i m) M ->
  exists M', l_del (lmat n sq) M (one_mark i m) = Ok M' /\ factor n M' (keep (one_mark i m) cols).
Proof. exact del_ok. Qed.
Print Assumptions C57_remove_one.

(** A root that is exact on squares. *)
Definition xsqrt (a : Q) : Q := let r := Qred a in Z.sqrt (Qnum r) # Pos.sqrt (Qden r).
Definition fac_a : list Q := [9; 3; 3].
Definition fac_b : list Q := [1; 1; 1].
Definition fac_c : list Q := [3; 9; 3].
Definition fac_M : res (list (list Q)) :=
  do M <- l_add (lmat 3 xsqrt) (l_init (lmat 3 xsqrt) fac_a) [fac_a] fac_b;
  l_add (lmat 3 xsqrt) M [fac_a; fac_b] fac_c.

Ltac check_factor :=
  split; [split; [reflexivity|intros r Hr; do 4 (destruct r; [reflexivity|]); lia]|];
  split; [simpl; lia|];
  split; [intros r t Hr Hn; do 4 (destruct r; [do 4 (destruct t; [solve [lia|reflexivity]|]); destruct t; reflexivity|]); lia|];
  split; [intros r Hr; simpl in Hr; do 3 (destruct r; [first [reflexivity|lia]|]); lia|];
  intros r s Hr Hs; simpl in Hr, Hs; do 3 (destruct r; [do 3 (destruct s; [first [reflexivity|lia]|]); lia|]); lia.

Example C57_case : exists M M', fac_M = Ok M /\ factor 3 M [fac_a; fac_b; fac_c] /\
  rots_exact xsqrt 3 (seq 0 2) M /\
  l_del (lmat 3 xsqrt) M [true; false; false] = Ok M' /\ factor 3 M' [fac_b; fac_c].
Proof.
  exists [[10; 0; 0; 0]; [8 # 5; 6 # 5; 0; 0]; [32 # 5; 24 # 5; 6; 0]; [0; 0; 0; 0]].
  exists [[2; 0; 0; 0]; [8; 6; 0; 0]; [8; 6; 0; 0]; [0; 0; 0; 0]].
  split; [vm_compute; reflexivity|]. split; [check_factor|]. split.
  - simpl seq. cbn [rots_exact]. split; [vm_compute; discriminate|]. split; [vm_compute; reflexivity|].
    intros M' E. vm_compute in E. injection E as <-. split; [vm_compute; discriminate|]. split; [vm_compute; reflexivity|]. auto.
  - split; [vm_compute; reflexivity|check_factor].
Qed.

(** Two columns are removed in the same cycle: the remaining column has the norm 10 (with the constant), but
    L(0, 0) is not 10. *)
Theorem C57_remove_two_refuted : exists M M', fac_M = Ok M /\ l_del (lmat 3 xsqrt) M [true; true; false] = Ok M' /\
  ~ mget M' 0 0 * mget M' 0 0 == 1 + ldot 3 fac_c fac_c.
Proof. eexists. eexists. split; [vm_compute; reflexivity|]. split; [vm_compute; reflexivity|]. vm_compute. discriminate. Qed.
Print Assumptions C57_remove_two_refuted.
