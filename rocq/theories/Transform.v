(** * Model of face transformations between trees *)

From Coq Require Import ZArith List Bool.
From Verif Require Import Quad Neighbor.
Import ListNotations.
Open Scope Z_scope.

Definition tab1 (t : list Z) (i : Z) : Z := nth (Z.to_nat i) t (-1).
Definition tab2 (t : list (list Z)) (i j : Z) : Z := tab1 (nth (Z.to_nat i) t []) j.

(** p4est_corner_face_corners: src/p4est_connectivity.c 55-59;
    p8est_corner_face_corners: src/p8est_connectivity.c 174-182 *)
Definition corner_face_corners (d : dim) : Z -> Z -> Z :=
  tab2 match d with
  | D2 => [[0;-1;0;-1]; [-1;0;1;-1]; [1;-1;-1;0]; [-1;1;-1;1]]
  | D3 => [[0;-1;0;-1;0;-1]; [-1;0;1;-1;1;-1]; [1;-1;-1;0;2;-1]; [-1;1;-1;1;3;-1];
           [2;-1;2;-1;-1;0]; [-1;2;3;-1;-1;1]; [3;-1;-1;2;-1;2]; [-1;3;-1;3;-1;3]]
  end.

(** p8est_face_permutations, _sets, _refs: src/p8est_connectivity.c 48-67 *)
Definition face_permutations : Z -> Z -> Z :=
  tab2 [[0;1;2;3]; [0;2;1;3]; [1;0;3;2]; [1;3;0;2]; [2;0;3;1]; [2;3;0;1]; [3;1;2;0]; [3;2;1;0]].
Definition face_permutation_sets : Z -> Z -> Z :=
  tab2 [[1;2;5;6]; [0;3;4;7]; [0;4;3;7]].
Definition face_permutation_refs : Z -> Z -> Z :=
  tab2 [[0;1;1;0;0;1]; [2;0;0;1;1;0]; [2;0;0;1;1;0]; [0;2;2;0;0;1]; [0;2;2;0;0;1]; [2;0;0;2;2;0]].

(** p8est_face_edges, p8est_edge_corners, p8est_edge_face_edges,
    p8est_face_edge_permutations(_sets): src/p8est_connectivity.c 38-153 *)
Definition face_edges : Z -> Z -> Z :=
  tab2 [[4;6;8;10]; [5;7;9;11]; [0;2;8;9]; [1;3;10;11]; [0;1;4;5]; [2;3;6;7]].
Definition face_edge_permutations : Z -> Z -> Z :=
  tab2 [[0;1;2;3]; [0;1;3;2]; [1;0;2;3]; [1;0;3;2]; [2;3;0;1]; [2;3;1;0]; [3;2;0;1]; [3;2;1;0]].
Definition face_edge_permutation_sets : Z -> Z -> Z :=
  tab2 [[4;1;2;7]; [0;6;5;3]; [0;5;6;3]].
Definition edge_corners : Z -> Z -> Z :=
  tab2 [[0;1]; [2;3]; [4;5]; [6;7]; [0;2]; [1;3]; [4;6]; [5;7]; [0;4]; [1;5]; [2;6]; [3;7]].
Definition edge_face_edges : Z -> Z -> Z :=
  tab2 [[-1;-1;0;-1;0;-1]; [-1;-1;-1;0;1;-1]; [-1;-1;1;-1;-1;0]; [-1;-1;-1;1;-1;1];
        [0;-1;-1;-1;2;-1]; [-1;0;-1;-1;3;-1]; [1;-1;-1;-1;-1;2]; [-1;1;-1;-1;-1;3];
        [2;-1;2;-1;-1;-1]; [-1;2;3;-1;-1;-1]; [3;-1;-1;2;-1;-1]; [-1;3;-1;3;-1;-1]].

(** p4est_connectivity_face_neighbor_face_corner: src/p4est_connectivity.c 82-106 *)
Definition face_neighbor_face_corner (d : dim) (fc f nf o : Z) : Z :=
  match d with
  | D2 => Z.lxor fc o
  | D3 => face_permutations (face_permutation_sets (face_permutation_refs f nf) o) fc
  end.

(** p4est_connectivity_face_neighbor_corner: src/p4est_connectivity.c 108-126 *)
Definition face_neighbor_corner (d : dim) (c f nf o : Z) : Z :=
  face_corners d nf (face_neighbor_face_corner d (corner_face_corners d c f) f nf o).

(** p8est_connectivity_face_neighbor_face_edge, _face_neighbor_edge:
    src/p8est_connectivity.c 1637-1676 *)
Definition face_neighbor_edge (e f nf o : Z) : Z :=
  face_edges nf
    (face_edge_permutations (face_edge_permutation_sets (face_permutation_refs f nf) o)
       (edge_face_edges e f)).

(** ftransform[9]; slots 0..2 my_axis, 3..5 target_axis, 6..8 edge_reverse *)
Record ftrans := mkft {
  my0 : Z; my1 : Z; my2 : Z; tg0 : Z; tg1 : Z; tg2 : Z; er0 : Z; er1 : Z; er2 : Z }.

(** p4est_expand_face_transform_internal: src/p4est_connectivity.c 3448-3505 *)
Definition expand_face_transform (d : dim) (iface tface o : Z) : ftrans :=
  match d with
  | D2 => mkft (1 - iface / 2) 0 (iface / 2) (1 - tface / 2) 0 (tface / 2)
               o 0 (2 * Z.land iface 1 + Z.land tface 1)
  | D3 =>
    let rev := nz (Z.lxor (Z.lxor (face_permutation_refs 0 iface) (face_permutation_refs 0 tface))
                          (b2z ((o =? 0) || (o =? 3)))) in
    let ta := if tface <? 2 then 1 else 0 in
    let tb := if tface <? 4 then 2 else 1 in
    let rev2 := face_permutation_refs iface tface =? 1 in
    let ra := Z.land o 1 in
    let rb := Z.shiftr o 1 in
    mkft (if iface <? 2 then 1 else 0) (if iface <? 4 then 2 else 1) (iface / 2)
         (if rev then tb else ta) (if rev then ta else tb) (tface / 2)
         (if rev2 then rb else ra) (if rev2 then ra else rb)
         (2 * Z.land iface 1 + Z.land tface 1)
  end.

(** coordinate arrays of length 3 *)
Definition vec := (Z * Z * Z)%type.
Definition vget (v : vec) (i : Z) : Z :=
  let '(x, y, z) := v in if i =? 0 then x else if i =? 1 then y else z.
Definition vset (v : vec) (i a : Z) : vec :=
  let '(x, y, z) := v in
  if i =? 0 then (a, y, z) else if i =? 1 then (x, a, z) else (x, y, a).

(** p4est_quadrant_transform_face: src/p4est_bits.c 2033-2157.  All values are
    int32 (p4est_qcoord_t); [i32] wraps as the machine does. *)
Definition transform_face (d : dim) (q : quad) (ft : ftrans) : quad :=
  let mh := if ql q =? MAXLEVEL then 0 else - QLEN (ql q) in
  let Rmh := ROOT_LEN + mh in
  let tRmh := i32 (ROOT_LEN + Rmh) in
  let my := (qx q, qy q, qz q) in
  let r := (0, 0, 0) in
  let r := vset r (tg0 ft) (i32 (if er0 ft =? 0 then vget my (my0 ft) else Rmh - vget my (my0 ft))) in
  let r := if is3 d then
             vset r (tg1 ft) (i32 (if er1 ft =? 0 then vget my (my1 ft) else Rmh - vget my (my1 ft)))
           else r in
  let m := vget my (my2 ft) in
  let r := vset r (tg2 ft)
             (i32 (if er2 ft =? 0 then mh - m
                   else if er2 ft =? 1 then m + ROOT_LEN
                   else if er2 ft =? 2 then m - ROOT_LEN
                   else tRmh - m)) in
  mkq (vget r 0) (vget r 1) (vget r 2) (ql q).

(** p4est_coordinates_transform_face: src/p4est_bits.c 1968-2031 *)
Definition coordinates_transform_face (d : dim) (my : vec) (ft : ftrans) : vec :=
  let r := (0, 0, 0) in
  let r := vset r (tg0 ft) (i32 (if er0 ft =? 0 then vget my (my0 ft) else ROOT_LEN - vget my (my0 ft))) in
  let r := if is3 d then
             vset r (tg1 ft) (i32 (if er1 ft =? 0 then vget my (my1 ft) else ROOT_LEN - vget my (my1 ft)))
           else r in
  let m := vget my (my2 ft) in
  vset r (tg2 ft)
    (i32 (if er2 ft =? 0 then - m
          else if er2 ft =? 1 then m + ROOT_LEN
          else if er2 ft =? 2 then m - ROOT_LEN
          else ROOT_LEN + (ROOT_LEN - m))).
