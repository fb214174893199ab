(** * Model of the checks on the quadrant array of one tree
    (src/p4est_algorithms.c); the array is a list *)

From Coq Require Import ZArith List Bool Lia.
From Verif Require Import Quad.
Import ListNotations.
Open Scope Z_scope.

(** the loop "q1 = first; for q2 in rest: test (q1, q2); q1 = q2" shared by
    the functions below *)
Fixpoint adjacent (test : quad -> quad -> bool) (q1 : quad) (l : list quad) : bool :=
  match l with
  | [] => true
  | q2 :: l' => if test q1 q2 then adjacent test q2 l' else false
  end.

Definition adjacents (test : quad -> quad -> bool) (l : list quad) : bool :=
  match l with [] => true | q1 :: l' => adjacent test q1 l' end.

(** p4est_tree_is_sorted: src/p4est_algorithms.c 225-246 *)
Definition tree_is_sorted (d : dim) : list quad -> bool :=
  adjacents (fun q1 q2 => negb (compare d q1 q2 >=? 0)).

(** p4est_tree_is_linear: src/p4est_algorithms.c 248-272 *)
Definition tree_is_linear (d : dim) : list quad -> bool :=
  adjacents (fun q1 q2 => negb (compare d q1 q2 >=? 0) && negb (is_ancestor d q1 q2)).

(** p4est_tree_is_almost_sorted: src/p4est_algorithms.c 274-335 *)
Definition face_contact (d : dim) (q : quad) : Z :=
  (if qx q <? 0 then 1 else 0) + (if qx q >=? ROOT_LEN then 2 else 0)
  + (if qy q <? 0 then 4 else 0) + (if qy q >=? ROOT_LEN then 8 else 0)
  + (if is3 d then (if qz q <? 0 then 16 else 0) + (if qz q >=? ROOT_LEN then 32 else 0) else 0).

Definition out_two (d : dim) (fc : Z) : bool :=
  let o0 := nz (Z.land fc 3) in
  let o1 := nz (Z.land fc 12) in
  let o2 := nz (Z.land fc 48) in
  (o0 && o1) || (is3 d && ((o0 && o2) || (o1 && o2))).

Definition tree_is_almost_sorted (d : dim) (check_linearity : bool) : list quad -> bool :=
  adjacents (fun q1 q2 =>
    if out_two d (face_contact d q2) && (face_contact d q1 =? face_contact d q2) then true
    else negb (compare d q1 q2 >=? 0) && negb (check_linearity && is_ancestor d q1 q2)).

(** p4est_tree_is_complete: src/p4est_algorithms.c 337-358 *)
Definition tree_is_complete (d : dim) : list quad -> bool := adjacents (is_next d).
