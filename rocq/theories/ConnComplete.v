(** * Model of p4est_connectivity_complete: src/p4est_connectivity.c 3360-3447 and 3724-4132

    The same source is compiled for 2D and 3D.  An access outside of the arrays is None.

    Simplifications.  Hash arrays are association lists in the order of insertion: what a
    lookup returns depends on the equality of keys only.  The code stores provisional numbers
    into tree_to_edge (the number of the group of edges) and tree_to_corner (the vertex),
    subtracts the number of dropped groups when it comes to a group, and replaces the result by
    -1 if the group is dropped.  An entry belongs to one group, and no entry is read before its
    group is done, so here the final number is written when the group is done.  The assertions
    are left out. *)

From Coq Require Import ZArith List Bool Lia.
From Verif Require Import Quad Neighbor Transform Partition Conn Permute.
Import ListNotations.
Open Scope Z_scope.

(** 0, ..., n - 1 *)
Definition below (n : Z) : list Z := map Z.of_nat (seq 0 (Z.to_nat n)).
Definition nget (l : list Z) (i : Z) : Z := nth (Z.to_nat i) l (-1).

(** p4est_topidx_bsort: src/p4est_base.h 477-496.  Every pass goes to the end of the array; the
    code leaves out the elements that are in place already. *)
Fixpoint bubble (x : Z) (l : list Z) : list Z :=
  match l with
  | [] => [x]
  | y :: r => if x >? y then y :: bubble x r else x :: bubble y r
  end.
Definition bpass (l : list Z) : list Z := match l with [] => [] | x :: r => bubble x r end.
Definition bsort (l : list Z) : list Z := Nat.iter (length l - 1) bpass l.

Fixpoint list_eqb (a b : list Z) : bool :=
  match a, b with
  | [], [] => true
  | x :: a', y :: b' => (x =? y) && list_eqb a' b'
  | _, _ => false
  end.

(** sc_hash_array_lookup *)
Fixpoint hlookup {A} (key : list Z) (h : list (list Z * A)) : option A :=
  match h with
  | [] => None
  | (k, a) :: h' => if list_eqb k key then Some a else hlookup key h'
  end.
Fixpoint hupdate {A} (key : list Z) (a : A) (h : list (list Z * A)) : list (list Z * A) :=
  match h with
  | [] => []
  | (k, b) :: h' => if list_eqb k key then (k, a) :: h' else (k, b) :: hupdate key a h'
  end.

(** tree_to_vertex[P4EST_CHILDREN * t + k] *)
Definition vtx (d : dim) (ttv : list Z) (t k : Z) : Z := nget ttv (children d * t + k).

(** ** Faces: lines 3796-3838 *)
Definition fverts (d : dim) (ttv : list Z) (x : Z * Z) : list Z :=
  map (fun i => vtx d ttv (fst x) (face_corners d (snd x) i)) (below (half d)).
(** p4est_conn_face_key: 3391-3402 *)
Definition fkey (d : dim) (ttv : list Z) (x : Z * Z) : list Z := bsort (fverts d ttv x).

(** lines 3826-3831: the loop over r *)
Fixpoint first_pos (v : Z) (l : list Z) (r : Z) : Z :=
  match l with [] => r | x :: l' => if v =? x then r else first_pos v l' (r + 1) end.
(** lines 3820-3832: y is the face that was found first *)
Definition forient (d : dim) (ttv : list Z) (y x : Z * Z) : Z :=
  let primary := if snd y <=? snd x then y else x in
  let secondary := if snd y <=? snd x then x else y in
  first_pos (nget (fverts d ttv primary) 0) (fverts d ttv secondary) 0.

Definition face_step (d : dim) (ttv : list Z) (st : list (list Z * (Z * Z)) * list Z * list Z) (x : Z * Z) :=
  let '(ha, ttt, ttf) := st in
  match hlookup (fkey d ttv x) ha with
  | None => (ha ++ [(fkey d ttv x, x)], ttt, ttf)
  | Some y =>
    let r := forient d ttv y x in
    let ix := faces d * fst x + snd x in
    let iy := faces d * fst y + snd y in
    (ha, put (put ttt iy (fst x)) ix (fst y), put (put ttf iy (faces d * r + snd x)) ix (faces d * r + snd y))
  end.
Definition all_faces (d : dim) (nt : Z) : list (Z * Z) := list_prod (below nt) (below (faces d)).
Definition face_phase (d : dim) (ttv : list Z) (c : conn) : list Z * list Z :=
  let '(_, ttt, ttf) := fold_left (face_step d ttv) (all_faces d (c_nt c)) ([], c_ttt c, c_ttf c) in (ttt, ttf).

(** ** Groups of edges: lines 3839-3884 *)
Definition everts (ttv : list Z) (x : Z * Z) : list Z :=
  map (fun i => vtx D3 ttv (fst x) (edge_corners (snd x) i)) [0; 1].
(** p8est_conn_edge_key: 3433-3444 *)
Definition ekey (ttv : list Z) (x : Z * Z) : list Z := bsort (everts ttv x).
(** the hash array with the members of every group, and edge_to_pz: the groups in the order in
    which their second member is found *)
Definition edge_step (ttv : list Z) (st : list (list Z * list (Z * Z)) * list (list Z)) (x : Z * Z) :=
  let '(ha, order) := st in
  let k := ekey ttv x in
  match hlookup k ha with
  | None => (ha ++ [(k, [x])], order)
  | Some g => (hupdate k (g ++ [x]) ha, if Nat.eqb (length g) 1 then order ++ [k] else order)
  end.
Definition all_edges (nt : Z) : list (Z * Z) := list_prod (below nt) (below 12).
Definition edge_groups (ttv : list Z) (nt : Z) : list (list (Z * Z)) :=
  let '(ha, order) := fold_left (edge_step ttv) (all_edges nt) ([], []) in
  map (fun k => match hlookup k ha with Some g => g | None => [] end) order.

(** ** Dropping groups and numbering the rest *)

(** the loop that ends with "non-redundant", e.g. 3938-3950 *)
Fixpoint some_nonempty {A B} (f : A -> option (list B)) (l : list A) : option bool :=
  match l with
  | [] => Some false
  | x :: l' => match f x with None => None | Some [] => some_nonempty f l' | Some (_ :: _) => Some true end
  end.
Fixpoint ofilter {A} (f : A -> option bool) (l : list A) : option (list A) :=
  match l with
  | [] => Some []
  | x :: l' => match f x, ofilter f l' with
               | Some b, Some r => Some (if b then x :: r else r)
               | _, _ => None
               end
  end.

(** lines 3919-3972 and 4052-4109: an entry is (index into tree_to_*, tree, code); the four arrays are tree_to_*, the offsets, *_to_tree, *_to_* *)
Definition entry := (Z * Z * Z)%type.
Definition number (g : list entry) (n : Z) (nm : list Z) : list Z := fold_left (fun nm (m : entry) => put nm (fst (fst m)) n) g nm.
Definition group_step (st : list Z * list Z * list Z * list Z) (g : list entry) :=
  let '(nm, off, ts, cs) := st in
  (number g (zlen off) nm, off ++ [zlen ts], ts ++ map (fun m : entry => snd (fst m)) g, cs ++ map (fun m : entry => snd m) g).
Definition assemble (size : Z) (gs : list (list entry)) : list Z * list Z * list Z * list Z :=
  let '(nm, off, ts, cs) := fold_left group_step gs (repeat (-1) (Z.to_nat size), [], [], []) in
  (nm, off ++ [zlen ts], ts, cs).

(** ** Edges: lines 3902-3999 *)

(** edge_to_edge: lines 3930-3938 *)
Definition ecode (ttv : list Z) (x : Z * Z) : Z :=
  snd x + (if nget (everts ttv x) 0 <? nget (everts ttv x) 1 then 0 else 12).
Definition eentry (ttv : list Z) (x : Z * Z) : entry := (12 * fst x + snd x, fst x, ecode ttv x).
(** p8est_find_edge_transform_internal: src/p8est_connectivity.c 1494-1639 *)
Definition edge_internal (c : conn) (l : list (Z * Z)) (x : Z * Z) : option (list (Z * Z * Z)) :=
  match edge_distinct c (fst x) (snd x) with
  | None => None
  | Some dis => let (ie, fl) := find_self (fst x) (snd x) l 0 in Some (edge_collect dis ie fl l 0)
  end.
Definition edge_real (ttv : list Z) (c : conn) (g : list (Z * Z)) : option bool :=
  some_nonempty (edge_internal c (map (fun x => (fst x, ecode ttv x)) g)) g.

(** ** Corners: lines 4024-4113 *)

(** node_trees and node_corners of one vertex, lines 3860-3880 *)
Definition all_corners (d : dim) (nt : Z) : list (Z * Z) := list_prod (below nt) (below (children d)).
Definition users (d : dim) (ttv : list Z) (nt v : Z) : list (Z * Z) :=
  filter (fun x => vtx d ttv (fst x) (snd x) =? v) (all_corners d nt).
Definition centry (d : dim) (x : Z * Z) : entry := (children d * fst x + snd x, fst x, snd x).
(** p4est_find_corner_transform_internal: src/p4est_connectivity.c 3542-3688 *)
Definition corner_distinct (d : dim) (c : conn) (x : Z * Z) : option (list (Z * Z)) :=
  match corner_faces_distinct d c (fst x) (snd x) with
  | None => None
  | Some l => if is3 d then corner_edges_distinct c (fst x) (snd x) l else Some l
  end.
Definition corner_internal (d : dim) (c : conn) (l : list (Z * Z)) (x : Z * Z) : option (list (Z * Z)) :=
  match corner_distinct d c x with
  | None => None
  | Some dis => Some (filter (fun y => negb (mem_pair y dis)) l)
  end.
Definition corner_real (d : dim) (c : conn) (g : list (Z * Z)) : option bool :=
  if (length g <=? 1)%nat then Some false else some_nonempty (corner_internal d c g) g.

(** ** The function *)

(** what the function reads and writes without looking: tree_to_vertex is not NULL and has all
    entries, and an entry is an index into the arrays for the vertices *)
Definition arrays_ok (d : dim) (c : conn) (ttv : list Z) : bool :=
  (zlen ttv =? c_nt c * children d) && (zlen (c_ttt c) =? c_nt c * faces d) && (zlen (c_ttf c) =? c_nt c * faces d) &&
  forallb (fun v => in_range v 0 (c_nv c)) ttv.

Definition set_faces (c : conn) (ttt ttf : list Z) : conn :=
  mkconn (c_nv c) (c_nt c) (c_ne c) (c_nc c) (c_vertices c) (c_ttv c) (c_attr c) (c_tta c) ttt ttf
    (c_tte c) (c_eoff c) (c_ett c) (c_ete c) (c_ttc c) (c_coff c) (c_ctt c) (c_ctc c).
Definition set_edges (c : conn) (ne : Z) (tte off ts cs : list Z) : conn :=
  mkconn (c_nv c) (c_nt c) ne (c_nc c) (c_vertices c) (c_ttv c) (c_attr c) (c_tta c) (c_ttt c) (c_ttf c)
    tte off ts cs (c_ttc c) (c_coff c) (c_ctt c) (c_ctc c).
Definition set_corners (c : conn) (nc : Z) (ttc off ts cs : list Z) : conn :=
  mkconn (c_nv c) (c_nt c) (c_ne c) nc (c_vertices c) (c_ttv c) (c_attr c) (c_tta c) (c_ttt c) (c_ttf c)
    (c_tte c) (c_eoff c) (c_ett c) (c_ete c) ttc off ts cs.

Definition edge_phase (d : dim) (ttv : list Z) (c : conn) : option conn :=
  if is3 d then
    match ofilter (edge_real ttv c) (edge_groups ttv (c_nt c)) with
    | None => None
    | Some gs => let '(nm, off, ts, cs) := assemble (12 * c_nt c) (map (map (eentry ttv)) gs) in Some (set_edges c (zlen gs) nm off ts cs)
    end
  else Some c.
Definition corner_phase (d : dim) (ttv : list Z) (c : conn) : option conn :=
  match ofilter (corner_real d c) (map (users d ttv (c_nt c)) (below (c_nv c))) with
  | None => None
  | Some gs => let '(nm, off, ts, cs) := assemble (children d * c_nt c) (map (map (centry d)) gs) in Some (set_corners c (zlen gs) nm off ts cs)
  end.

Definition complete (d : dim) (c : conn) : option conn :=
  match c_ttv c with
  | None => None
  | Some ttv =>
    if arrays_ok d c ttv then
      let (ttt, ttf) := face_phase d ttv c in
      match edge_phase d ttv (set_faces c ttt ttf) with
      | None => None
      | Some c2 => corner_phase d ttv c2
      end
    else None
  end.
