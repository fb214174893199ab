(** * Quadrants under neighbor transforms *)

From Coq Require Import ZArith List Bool.
From Verif Require Import Quad Transform Canon.
Import ListNotations.
Open Scope Z_scope.

Definition qvec (q : quad) : vec := (qx q, qy q, qz q).
Definition vquad (v : vec) (l : Z) : quad := mkq (vget v 0) (vget v 1) (vget v 2) l.

(** p4est_neighbor_transform_quadrant: src/p4est_bits.c 2639-2677.  The results are int32
    (p4est_qcoord_t); [i32] wraps.  The differences and products before are not wrapped: for the
    quadrants of C75 they are between -2^30 and 2^30 (inclusive).  In 2D the third entry is 0. *)
Definition nt_quadrant (d : dim) (nt : ntrans) (q : quad) : quad :=
  let h := QLEN (ql q) in
  let self (n i : Z) := vget (qvec q) i - vget (n_oself nt) i + n * h in
  let neigh n i := vget (n_sign nt) i * self n (vget (n_perm nt) i) in
  vquad (fold_left (fun r i => vset r i (i32 (Z.min (neigh 0 i) (neigh 1 i) + vget (n_oneigh nt) i))) (axes d) (0, 0, 0)) (ql q).

(** p4est_neighbor_transform_quadrant_reverse: src/p4est_bits.c 2679-2719.  The arrays are written
    in the order of the loop and then read. *)
Definition nt_quadrant_reverse (d : dim) (nt : ntrans) (q : quad) : quad :=
  let h := QLEN (ql q) in
  let neigh (n i : Z) := vget (qvec q) i - vget (n_oneigh nt) i + n * h in
  let self n := fold_left (fun r i => vset r (vget (n_perm nt) i) (vget (n_sign nt) i * neigh n i)) (axes d) (0, 0, 0) in
  vquad (fold_left (fun r i => vset r i (i32 (Z.min (vget (self 0) i) (vget (self 1) i) + vget (n_oself nt) i))) (axes d) (0, 0, 0)) (ql q).
