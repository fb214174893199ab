(** * Mesh nodes, and descendants at a face or corner of an ancestor *)

From Coq Require Import ZArith List Bool.
From Verif Require Import Quad.
Open Scope Z_scope.

(** One coordinate of p4est_quadrant_is_node *)
Definition node_coord (inside : bool) (a : Z) : bool :=
  ((a >=? 0) && (a <=? ROOT_LEN - (if inside then 1 else 0)))
  && (negb (nz (Z.land a (Z.shiftl 1 (MAXLEVEL - QMAXLEVEL) - 1))) || (inside && (a =? ROOT_LEN - 1))).

(** p4est_quadrant_is_node: src/p4est_bits.c 734-752.
    The last clause is the representation invariant of the model in 2D. *)
Definition is_node (d : dim) (q : quad) (inside : bool) : bool :=
  (ql q =? MAXLEVEL) && node_coord inside (qx q) && node_coord inside (qy q)
  && (if is3 d then node_coord inside (qz q) else qz q =? 0).

(** p4est_node_clamp_inside: src/p4est_bits.c 566-578 *)
Definition clamp1 (a : Z) : Z := if a =? ROOT_LEN then ROOT_LEN - 1 else a.
Definition node_clamp_inside (d : dim) (n : quad) : quad :=
  mkq (clamp1 (qx n)) (clamp1 (qy n)) (if is3 d then clamp1 (qz n) else qz n) MAXLEVEL.

(** p4est_node_unclamp: src/p4est_bits.c 580-594 *)
Definition unclamp1 (a : Z) : Z := if a =? ROOT_LEN - 1 then ROOT_LEN else a.
Definition node_unclamp (d : dim) (n : quad) : quad :=
  mkq (unclamp1 (qx n)) (unclamp1 (qy n)) (if is3 d then unclamp1 (qz n) else qz n) (ql n).

(** p4est_node_to_quadrant: src/p4est_bits.c 596-611 *)
Definition node_to_quadrant (d : dim) (n : quad) (level : Z) : quad :=
  let m := Z.lnot (Z.shiftl 1 (MAXLEVEL - level) - 1) in
  mkq (Z.land (qx n) m) (Z.land (qy n) m) (if is3 d then Z.land (qz n) m else qz n) level.

(** p4est_quadrant_is_ancestor_face: src/p4est_bits.c 2721-2755.  None is the abort of the switch. *)
Definition is_ancestor_face (d : dim) (de an : quad) (face : Z) : option bool :=
  let up a q := if nz (Z.land face 1) then a + QLEN (ql q) else a in
  match Z.shiftr face 1 with
  | 0 => Some (up (qx de) de =? up (qx an) an)
  | 1 => Some (up (qy de) de =? up (qy an) an)
  | 2 => if is3 d then Some (up (qz de) de =? up (qz an) an) else None
  | _ => None
  end.

(** p4est_quadrant_is_ancestor_corner: src/p4est_bits.c 2758-2804 *)
Definition is_ancestor_corner (d : dim) (de an : quad) (corner : Z) : bool :=
  let up b a q := if nz (Z.land corner b) then a + QLEN (ql q) else a in
  (up 1 (qx an) an =? up 1 (qx de) de) && (up 2 (qy an) an =? up 2 (qy de) de)
  && (negb (is3 d) || (up 4 (qz an) an =? up 4 (qz de) de)).
