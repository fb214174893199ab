(** * Which quadrants belong to the ghost layer: vocabulary *)

From Coq Require Import ZArith List Bool.
From Verif Require Import Quad Spec PropertiesNeighbor Transform Conn Partition Comm OwnerLemmas RangeBoundLemmas Ghost.
Import ListNotations.
Open Scope Z_scope.

(** a direction: per axis none, down or up; the direction of face f, edge e, corner c is
    [face_obj f], [edge_obj e], [corner_obj d c] *)
Definition dirs (v : obj) : Z := let '(a, b, e) := v in
  let n (o : option bool) := match o with None => 0 | Some _ => 1 end in n a + n b + n e.

(** s, of length 2, lies in the direction v next to the interval of a with length h *)
Definition at_axis (v : option bool) (a h s : Z) : Prop :=
  match v with None => a <= s /\ s + 2 <= a + h | Some false => s + 2 = a | Some true => s = a + h end.

(** s is a smallest quadrant, possibly outside of the tree, that touches q from outside in
    the direction v *)
Definition beside (d : dim) (q : quad) (v : obj) (s : quad) : Prop :=
  ext d s /\ ql s = 29 /\
  let '(a, b, e) := v in let h := side (ql q) in
  at_axis a (qx q) h (qx s) /\ at_axis b (qy q) h (qy s) /\ match d with D2 => e = None | D3 => at_axis e (qz q) h (qz s) end.

(** the face, edge or corner of the tree that s is beyond *)
Definition out_axis (a : Z) : option bool := if a <? 0 then Some false else if 2 ^ 30 <=? a then Some true else None.
Definition out (d : dim) (s : quad) : obj := (out_axis (qx s), out_axis (qy s), match d with D2 => None | D3 => out_axis (qz s) end).

(** the quadrant s in the coordinates of tree t, possibly outside of t, is s' of tree nt *)
Definition seen_as (d : dim) (c : conn) (t : Z) (s : quad) (nt : Z) (s' : quad) : Prop :=
  (out d s = (None, None, None) /\ nt = t /\ s' = s) \/
  (exists f ft, 0 <= f < faces d /\ out d s = face_obj f /\
     find_face_transform d c t f = Some (Some (nt, ft)) /\ s' = transform_face d s ft) \/
  (d = D3 /\ exists e ets ne fl, 0 <= e < 12 /\ out d s = edge_obj e /\
     find_edge_transform c t e = Some ets /\ In (nt, ne, fl) ets /\ s' = transform_edge s e ne fl) \/
  (exists k cts nc, 0 <= k < children d /\ out d s = corner_obj d k /\
     find_corner_transform d c t k = Some cts /\ In (nt, nc) cts /\ s' = transform_corner d s nc true).

(** rank p owns the first position of s in tree t *)
Definition owns (d : dim) (gfp : list marker) (p t : Z) (s : quad) : Prop := mp d gfp p <= tpos d t s < mp d gfp (p + 1).

(** faces only; faces and edges; all *)
Definition upto (bt : ctype) : Z := match bt with CFace => 1 | CEdge => 2 | CFull => 3 end.

(** rank p owns a smallest quadrant that touches q of tree t across a face (an edge, a corner) *)
Definition neighbor_rank (d : dim) (c : conn) (gfp : list marker) (bt : ctype) (t : Z) (q : quad) (p : Z) : Prop :=
  exists v s nt s', 1 <= dirs v <= upto bt /\ beside d q v s /\ seen_as d c t s nt s' /\ owns d gfp p nt s'.
