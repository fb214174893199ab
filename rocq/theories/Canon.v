(** * Model of the neighbor transforms and of p4est_connectivity_coordinates_canonicalize:
    src/p4est_connectivity.c 5434-5947 *)

From Coq Require Import ZArith List Bool.
From Verif Require Import Quad Neighbor Transform Partition Conn.
Import ListNotations.
Open Scope Z_scope.

(** p4est_connect_type_t: self, face, edge (3D), corner *)
Inductive ctype := CSelf | CFace | CEdge | CCorner.

(** p4est_neighbor_transform_t: src/p4est_connectivity.h 265-284.  The third entries of the
    vectors are not used in 2D. *)
Record ntrans := mknt {
  n_type : ctype; n_tree : Z; n_self : Z; n_neigh : Z;
  n_perm : vec; n_sign : vec; n_oself : vec; n_oneigh : vec }.

Definition axes (d : dim) : list Z := match d with D2 => [0; 1] | D3 => [0; 1; 2] end.

(** p4est_neighbor_transform_coordinates: lines 5697-5713 *)
Definition nt_forward (d : dim) (nt : ntrans) (p : vec) : vec :=
  let from i := vget p i - vget (n_oself nt) i in
  fold_left (fun r i => vset r i (i32 (vget (n_sign nt) i * from (vget (n_perm nt) i) + vget (n_oneigh nt) i))) (axes d) (0, 0, 0).

(** p4est_neighbor_transform_coordinates_reverse: lines 5715-5732 *)
Definition nt_reverse (d : dim) (nt : ntrans) (p : vec) : vec :=
  let from i := vget p i - vget (n_oneigh nt) i in
  fold_left (fun r i => vset r (vget (n_perm nt) i) (i32 (vget (n_sign nt) i * from i + vget (n_oself nt) (vget (n_perm nt) i)))) (axes d) (0, 0, 0).

Definition HALF_ROOT : Z := ROOT_LEN / 2.

(** p4est_face_transform_to_neighbor_transform: lines 5434-5487; perm, sign, origin_self and
    origin_neighbor *)
Definition face_nt (d : dim) (ft : ftrans) : vec * vec * vec * vec :=
  let ids := match d with D2 => [(my0 ft, tg0 ft); (my2 ft, tg2 ft)] | D3 => [(my0 ft, tg0 ft); (my1 ft, tg1 ft); (my2 ft, tg2 ft)] end in
  let perm := fold_left (fun v x => vset v (snd x) (fst x)) ids (0, 0, 0) in
  let tang := match d with D2 => [(my0 ft, tg0 ft, er0 ft)] | D3 => [(my0 ft, tg0 ft, er0 ft); (my1 ft, tg1 ft, er1 ft)] end in
  let sign := fold_left (fun v (x : Z * Z * Z) => vset v (snd (fst x)) (if snd x =? 0 then 1 else -1)) tang (0, 0, 0) in
  let on := fold_left (fun v (x : Z * Z * Z) => vset v (snd (fst x)) HALF_ROOT) tang (0, 0, 0) in
  let os := fold_left (fun v (x : Z * Z * Z) => vset v (fst (fst x)) HALF_ROOT) tang (0, 0, 0) in
  let '(sign2, o_self2, o_neigh2) :=
    if er2 ft =? 0 then (-1, 0, 0)
    else if er2 ft =? 1 then (1, 0, ROOT_LEN)
    else if er2 ft =? 2 then (1, ROOT_LEN, 0)
    else (-1, ROOT_LEN, ROOT_LEN) in
  (perm, vset sign (tg2 ft) sign2, vset os (my2 ft) o_self2, vset on (tg2 ft) o_neigh2).

(** p8est_edge_transform_to_neighbor_transform: lines 5489-5517; the edge transform is given by
    nedge and nflip, see Ghost.transform_edge *)
Definition other_axis (a i : Z) : Z := tab2 [[1; 2]; [0; 2]; [0; 1]] a i.
Definition edge_nt (iedge nedge nflip : Z) : vec * vec * vec * vec :=
  let iaxis := iedge / 4 in
  let naxis := nedge / 4 in
  let corners := nedge mod 4 in
  let hi e b := if nz (Z.land e b) then ROOT_LEN else 0 in
  let z := (0, 0, 0) in
  (vset (vset (vset z naxis iaxis) (other_axis naxis 0) (other_axis iaxis 0)) (other_axis naxis 1) (other_axis iaxis 1),
   vset (vset (vset z naxis (if nz nflip then -1 else 1))
              (other_axis naxis 0) (if nz (Z.land (Z.lxor iedge corners) 1) then 1 else -1))
        (other_axis naxis 1) (if nz (Z.land (Z.lxor iedge corners) 2) then 1 else -1),
   vset (vset (vset z iaxis HALF_ROOT) (other_axis iaxis 0) (hi iedge 1)) (other_axis iaxis 1) (hi iedge 2),
   vset (vset (vset z naxis HALF_ROOT) (other_axis naxis 0) (hi corners 1)) (other_axis naxis 1) (hi corners 2)).

(** p4est_corner_transform_to_neighbor_transform: lines 5519-5530 *)
Definition corner_nt (d : dim) (corner ncorner : Z) : vec * vec * vec * vec :=
  let f g := fold_left (fun v i => vset v i (g i)) (axes d) (0, 0, 0) in
  let hi k i := if nz (Z.land k (Z.shiftl 1 i)) then ROOT_LEN else 0 in
  (f (fun i => i), f (fun i => if nz (Z.land (Z.lxor corner ncorner) (Z.shiftl 1 i)) then 1 else -1), f (hi corner), f (hi ncorner)).

Definition with_maps (ty : ctype) (tree self neigh : Z) (m : vec * vec * vec * vec) : ntrans :=
  mknt ty tree self neigh (fst (fst (fst m))) (snd (fst (fst m))) (snd (fst m)) (snd m).

(** option lists *)
Fixpoint gather {A B} (f : A -> option (list B)) (l : list A) : option (list B) :=
  match l with
  | [] => Some []
  | x :: l' => match f x, gather f l' with Some a, Some b => Some (a ++ b) | _, _ => None end
  end.

(** p4est_connectivity_get_neighbor_transforms: lines 5532-5695; None for a read outside of an
    array *)
Definition touched_faces (d : dim) (ty : ctype) (index : Z) : list Z :=
  match ty with
  | CSelf => []
  | CFace => [index]
  | CEdge => [edge_faces index 0; edge_faces index 1]
  | CCorner => map (corner_faces d index) (axes d)
  end.
Definition touched_edges (ty : ctype) (index : Z) : list Z :=
  match ty with CEdge => [index] | CCorner => map (corner_edges index) [0; 1; 2] | _ => [] end.

Definition face_nts (d : dim) (c : conn) (t f : Z) : option (list ntrans) :=
  match find_face_transform d c t f, zget (c_ttf c) (faces d * t + f) with
  | Some None, _ => Some []
  | Some (Some (nt, ft)), Some code => Some [with_maps CFace nt f (Z.rem code (faces d)) (face_nt d ft)]
  | _, _ => None
  end.
Definition edge_nts (c : conn) (t e : Z) : option (list ntrans) :=
  match find_edge_transform c t e with
  | None => None
  | Some ets => Some (map (fun x : Z * Z * Z => let '(nt, ne, fl) := x in with_maps CEdge nt e ne (edge_nt e ne fl)) ets)
  end.
Definition corner_nts (d : dim) (c : conn) (t k : Z) : option (list ntrans) :=
  match find_corner_transform d c t k with
  | None => None
  | Some cts => Some (map (fun x : Z * Z => with_maps CCorner (fst x) k (snd x) (corner_nt d k (snd x))) cts)
  end.
Definition self_nt (t : Z) : ntrans := mknt CSelf t 0 0 (0, 1, 2) (1, 1, 1) (0, 0, 0) (0, 0, 0).

Definition neighbor_transforms (d : dim) (c : conn) (t : Z) (ty : ctype) (index : Z) : option (list ntrans) :=
  match gather (face_nts d c t) (touched_faces d ty index),
        (if is3 d then gather (edge_nts c t) (touched_edges ty index) else Some []),
        match ty with CCorner => corner_nts d c t index | _ => Some [] end with
  | Some fs, Some es, Some cs => Some (self_nt t :: fs ++ es ++ cs)
  | _, _, _ => None
  end.

(** ** p4est_connectivity_coordinates_canonicalize *)

(** p8est_coordinates_transform_edge: src/p8est_bits.c 371-423 *)
Definition coordinates_transform_edge (p : vec) (iedge nedge nflip : Z) : vec :=
  let my := vget p (iedge / 4) in
  let naxis0 := nedge / 4 in
  let naxis1 := if nedge <? 4 then 1 else 0 in
  let naxis2 := if nedge <? 8 then 2 else 1 in
  let corners := nedge mod 4 in
  let r := (0, 0, 0) in
  let r := vset r naxis0 (i32 (if nflip =? 0 then my else ROOT_LEN - my)) in
  let r := vset r naxis1 (if (corners =? 1) || (corners =? 3) then ROOT_LEN else 0) in
  vset r naxis2 (if (corners =? 2) || (corners =? 3) then ROOT_LEN else 0).

(** p4est_coordinates_transform_corner: src/p4est_bits.c 2208-2238 *)
Definition coordinates_transform_corner (d : dim) (corner : Z) : vec :=
  let sh b := if b =? 0 then 0 else ROOT_LEN in
  (sh (Z.land corner 1), sh (Z.land (Z.shiftr corner 1) 1), if is3 d then sh (Z.shiftr corner 2) else 0).

Definition vcompare (d : dim) (p q : vec) : Z :=
  let '(x, y, z) := p in let '(a, b, c) := q in coordinates_compare d x y z a b c.

(** an image (tree, coordinates) is taken if it is lower, lines 5816-5841, 5866-5884, 5915-5933 *)
Definition lower (d : dim) (best new : Z * vec) : Z * vec :=
  if fst new >? fst best then best
  else if fst new <? fst best then new
  else if vcompare d (snd new) (snd best) <? 0 then new else best.

(** quad_contact, lines 5792-5805 *)
Definition contact (p : vec) (f : Z) : bool :=
  if f mod 2 =? 0 then vget p (f / 2) =? 0 else vget p (f / 2) =? ROOT_LEN.
Definition contacts (d : dim) (p : vec) : Z :=
  fold_left (fun n i => n + b2z (contact p (2 * i) || contact p (2 * i + 1))) (axes d) 0.

Definition take (d : dim) (l : option (list (Z * vec))) (best : option (Z * vec)) : option (Z * vec) :=
  match l, best with Some l, Some b => Some (fold_left (lower d) l b) | _, _ => None end.

(** the neighbor across a face, lines 5816-5832; the transformation is found only if the tree is
    not higher *)
Definition face_images (d : dim) (c : conn) (t : Z) (p : vec) (f : Z) : option (list (Z * vec)) :=
  match zget (c_ttt c) (faces d * t + f), zget (c_ttf c) (faces d * t + f) with
  | Some nt, Some code =>
    if (nt =? t) && (code =? f) then Some []
    else
      match find_face_transform d c t f with
      | Some (Some (_, ft)) => Some [(nt, coordinates_transform_face d p ft)]
      | _ => None
      end
  | _, _ => None
  end.
Definition edge_images (c : conn) (t : Z) (p : vec) (e : Z) : option (list (Z * vec)) :=
  match find_edge_transform c t e with
  | None => None
  | Some ets => Some (map (fun x : Z * Z * Z => let '(nt, ne, fl) := x in (nt, coordinates_transform_edge p e ne fl)) ets)
  end.
Definition corner_images (d : dim) (c : conn) (t k : Z) : option (list (Z * vec)) :=
  match find_corner_transform d c t k with
  | None => None
  | Some cts => Some (map (fun x : Z * Z => (fst x, coordinates_transform_corner d (snd x))) cts)
  end.

Definition count (n : Z) : list Z := map Z.of_nat (seq 0 (Z.to_nat n)).

(** p4est_connectivity_coordinates_canonicalize: lines 5746-5947 *)
Definition canonicalize (d : dim) (c : conn) (t : Z) (p : vec) : option (Z * vec) :=
  let n := contacts d p in
  let r := Some (t, p) in
  if n =? 0 then r
  else
    let r := fold_left (fun r f => if contact p f then take d (face_images d c t p f) r else r) (count (faces d)) r in
    if n =? 1 then r
    else
      let r := if is3 d then
                 fold_left (fun r e => if contact p (edge_faces e 0) && contact p (edge_faces e 1) then take d (edge_images c t p e) r else r) (count 12) r
               else r in
      if is3 d && (n =? 2) then r
      else
        fold_left (fun r k => if forallb (fun i => contact p (corner_faces d k i)) (axes d) then take d (corner_images d c t k) r else r) (count (children d)) r.
