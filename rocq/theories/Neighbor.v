(** * Model of neighbour computations (p4est_bits.c / p8est_bits.c) *)

From Coq Require Import ZArith List Bool.
From Verif Require Import Quad.
Import ListNotations.
Open Scope Z_scope.

(** p4est_face_corners / p8est_face_corners: src/p4est_connectivity.c 40-128,
    src/p8est_connectivity.c (tables at the top of the file) *)
Definition face_corners (d : dim) (f i : Z) : Z :=
  let tab := match d with
    | D2 => [[0;2]; [1;3]; [0;1]; [2;3]]
    | D3 => [[0;2;4;6]; [1;3;5;7]; [0;1;4;5]; [2;3;6;7]; [0;1;2;3]; [4;5;6;7]]
    end in
  nth (Z.to_nat i) (nth (Z.to_nat f) tab []) (-1).

(** p4est_quadrant_all_face_neighbors: src/p4est_bits.c 1458-1489.  Entries
    left uninitialised by the code ("P4EST_QUADRANT_INIT") are [None]. *)
Definition all_face_neighbors (d : dim) (q : quad) (face : Z) : list (option quad) :=
  let qcid := child_id d q in
  (if ql q =? QMAXLEVEL then map (fun _ => None) (seq 0 (Z.to_nat (half d)))
   else map (fun i => Some (half_face_neighbor d q face (Z.of_nat i))) (seq 0 (Z.to_nat (half d))))
  ++ [Some (face_neighbor d q face)]
  ++ [if negb (Z.land (Z.shiftr qcid (face / 2)) 1 =? Z.land face 1) || (ql q =? 0) then None
      else Some (face_neighbor d (parent d q) face)].

(** p8est_quadrant_edge_neighbor: src/p8est_bits.c 120-152 *)
Definition edge_neighbor (q : quad) (edge : Z) : quad :=
  let qh := QLEN (ql q) in
  match edge / 4 with
  | 0 => mkq (qx q) (qy q + (2 * Z.land edge 1 - 1) * qh) (qz q + (Z.land edge 2 - 1) * qh) (ql q)
  | 1 => mkq (qx q + (2 * Z.land edge 1 - 1) * qh) (qy q) (qz q + (Z.land edge 2 - 1) * qh) (ql q)
  | _ => mkq (qx q + (2 * Z.land edge 1 - 1) * qh) (qy q + (Z.land edge 2 - 1) * qh) (qz q) (ql q)
  end.
