(** * Model of the connectivity: src/p4est_connectivity.c, src/p8est_connectivity.c

    p4est_connectivity_new, p4est_connectivity_is_valid, p4est_find_face_transform,
    p4est_find_corner_transform, p8est_find_edge_transform.

    An array is the list of its elements, and NULL (where the code does not compare with
    NULL) is the empty list.  Every access goes through [zget]: a result None of a function
    is an access outside of the allocated array. *)

From Coq Require Import ZArith List Bool Lia.
From Verif Require Import Quad Neighbor Transform Partition.
Import ListNotations.
Open Scope Z_scope.

(** p4est_connectivity_t: src/p4est_connectivity.h, src/p8est_connectivity.h.  The edge
    members exist for p8est only and are 0 and [] in 2D.  A vertex coordinate is the 64 bit
    pattern of the double. *)
Record conn := mkconn {
  c_nv : Z; c_nt : Z; c_ne : Z; c_nc : Z;          (* num_vertices, _trees, _edges, _corners *)
  c_vertices : option (list Z); c_ttv : option (list Z);
  c_attr : Z; c_tta : option (list Z);             (* tree_attr_bytes, tree_to_attr *)
  c_ttt : list Z; c_ttf : list Z;
  c_tte : list Z; c_eoff : list Z; c_ett : list Z; c_ete : list Z;
  c_ttc : list Z; c_coff : list Z; c_ctt : list Z; c_ctc : list Z }.

(** ** Tables: src/p4est_connectivity.c 49-53, src/p8est_connectivity.c *)

Definition corner_faces (d : dim) : Z -> Z -> Z :=
  tab2 match d with
  | D2 => [[0;2]; [1;2]; [0;3]; [1;3]]
  | D3 => [[0;2;4]; [1;2;4]; [0;3;4]; [1;3;4]; [0;2;5]; [1;2;5]; [0;3;5]; [1;3;5]]
  end.
Definition corner_edges : Z -> Z -> Z :=
  tab2 [[0;4;8]; [0;5;9]; [1;4;10]; [1;5;11]; [2;6;8]; [2;7;9]; [3;6;10]; [3;7;11]].
Definition edge_faces : Z -> Z -> Z :=
  tab2 [[2;4]; [3;4]; [2;5]; [3;5]; [0;4]; [1;4]; [0;5]; [1;5]; [0;2]; [1;2]; [0;3]; [1;3]].
(** p8est_edge_face_corners[edge][face][i], only for the faces that touch the edge *)
Definition edge_face_corners (e f i : Z) : Z :=
  let n := (-1, -1) in
  let row := nth (Z.to_nat e)
    [[n; n; (0,1); n; (0,1); n]; [n; n; n; (0,1); (2,3); n]; [n; n; (2,3); n; n; (0,1)]; [n; n; n; (2,3); n; (2,3)];
     [(0,1); n; n; n; (0,2); n]; [n; (0,1); n; n; (1,3); n]; [(2,3); n; n; n; n; (0,2)]; [n; (2,3); n; n; n; (1,3)];
     [(0,2); n; (0,2); n; n; n]; [n; (0,2); (1,3); n; n; n]; [(1,3); n; n; (0,2); n; n]; [n; (1,3); n; (1,3); n; n]] [] in
  let p := nth (Z.to_nat f) row n in
  if i =? 0 then fst p else snd p.
Definition child_corner_edges : Z -> Z -> Z :=
  tab2 [[-1;0;4;-1;8;-1;-1;-1]; [0;-1;-1;5;-1;9;-1;-1]; [4;-1;-1;1;-1;-1;10;-1]; [-1;5;1;-1;-1;-1;-1;11];
        [8;-1;-1;-1;-1;2;6;-1]; [-1;9;-1;-1;2;-1;-1;7]; [-1;-1;10;-1;6;-1;-1;3]; [-1;-1;-1;11;-1;7;3;-1]].

(** P4EST_FACES, P4EST_CHILDREN, P4EST_HALF are [faces], [children], [half] *)

Definition in_range (v lo hi : Z) : bool := (lo <=? v) && (v <? hi).

(** ** p4est_find_face_transform: src/p4est_connectivity.c 3516-3540.
    The neighbour tree, or -1, and the transformation. *)
Definition find_face_transform (d : dim) (c : conn) (itree iface : Z) : option (option (Z * ftrans)) :=
  match zget (c_ttt c) (faces d * itree + iface), zget (c_ttf c) (faces d * itree + iface) with
  | Some nt, Some code =>
    let tface := Z.rem code (faces d) in
    let o := Z.quot code (faces d) in
    if (nt =? itree) && (tface =? iface) then Some None
    else Some (Some (nt, expand_face_transform d iface tface o))
  | _, _ => None
  end.

(** [n] consecutive elements beginning at index [i] *)
Fixpoint zslice {A} (l : list A) (i : Z) (n : nat) : option (list A) :=
  match n with
  | O => Some []
  | S n' => match zget l i, zslice l (i + 1) n' with Some x, Some r => Some (x :: r) | _, _ => None end
  end.

Definition mem_pair (x : Z * Z) (l : list (Z * Z)) : bool := existsb (fun y => (fst x =? fst y) && (snd x =? snd y)) l.
Definition mem_triple (x : Z * Z * Z) (l : list (Z * Z * Z)) : bool :=
  existsb (fun y => (fst (fst x) =? fst (fst y)) && (snd (fst x) =? snd (fst y)) && (snd x =? snd y)) l.
Definition add_pair (x : Z * Z) (l : list (Z * Z)) : list (Z * Z) := if mem_pair x l then l else l ++ [x].
Definition add_triple (x : Z * Z * Z) (l : list (Z * Z * Z)) : list (Z * Z * Z) := if mem_triple x l then l else l ++ [x].

(** ** p8est_find_edge_transform: src/p8est_connectivity.c 1494-1639 and 1708-1744.
    The result is the list of (ntree, nedge, nflip); naxis and corners are functions of nedge.
    The assertions are left out. *)

(** lines 1522-1561: the edges that are met through self and faces *)
Definition edge_distinct (c : conn) (itree iedge : Z) : option (list (Z * Z * Z)) :=
  fold_left (fun acc i =>
    match acc with
    | None => None
    | Some l =>
      let face := edge_faces iedge i in
      match zget (c_ttt c) (6 * itree + face), zget (c_ttf c) (6 * itree + face) with
      | Some nt, Some code =>
        if negb (nt =? itree) || negb (code =? face) then
          (* otherwise the tables are read outside of their bounds *)
          if negb (in_range code 0 24) then None else
          let o := Z.quot code 6 in
          let nface := Z.rem code 6 in
          let fc k := face_neighbor_face_corner D3 (edge_face_corners iedge face k) face nface o in
          let n0 := face_corners D3 nface (fc 0) in
          let n1 := face_corners D3 nface (fc 1) in
          let nedge := child_corner_edges n0 n1 in
          let eorient := b2z (edge_corners nedge 1 =? n0) in
          Some (add_triple (nt, nedge, eorient) l)
        else Some l
      | _, _ => None
      end
    end) [0; 1] (Some [(itree, iedge, 0)]).

(** lines 1564-1578: position and flip of this edge in the list of its neighbours *)
Fixpoint find_self (itree iedge : Z) (l : list (Z * Z)) (i : Z) : Z * Z :=
  match l with
  | [] => (-1, -1)
  | (nt, re) :: l' =>
    if (Z.rem re 12 =? iedge) && (nt =? itree) then (i, Z.quot re 12) else find_self itree iedge l' (i + 1)
  end.
(** lines 1581-1636 *)
Fixpoint edge_collect (dis : list (Z * Z * Z)) (ietree iflip : Z) (l : list (Z * Z)) (i : Z) : list (Z * Z * Z) :=
  match l with
  | [] => []
  | (nt, re) :: l' =>
    let rest := edge_collect dis ietree iflip l' (i + 1) in
    if i =? ietree then rest
    else
      let x := (nt, Z.rem re 12, Z.lxor (Z.quot re 12) iflip) in
      if mem_triple x dis then rest else x :: rest
  end.

Definition find_edge_transform (c : conn) (itree iedge : Z) : option (list (Z * Z * Z)) :=
  if c_ne c =? 0 then Some []
  else
    match zget (c_tte c) (12 * itree + iedge) with
    | None => None
    | Some ae =>
      if ae =? -1 then Some []
      else
        match zget (c_eoff c) ae, zget (c_eoff c) (ae + 1) with
        | Some b, Some e =>
          match edge_distinct c itree iedge, zslice (c_ett c) b (Z.to_nat (e - b)), zslice (c_ete c) b (Z.to_nat (e - b)) with
          | Some dis, Some ts, Some es =>
            let l := combine ts es in
            let (ietree, iflip) := find_self itree iedge l 0 in
            Some (edge_collect dis ietree iflip l 0)
          | _, _, _ => None
          end
        | _, _ => None
        end
    end.

(** ** p4est_find_corner_transform: src/p4est_connectivity.c 3542-3722 *)

(** the corners met through self and faces, lines 3577-3613 *)
Definition corner_faces_distinct (d : dim) (c : conn) (itree icorner : Z) : option (list (Z * Z)) :=
  fold_left (fun acc i =>
    match acc with
    | None => None
    | Some l =>
      let iface := corner_faces d icorner i in
      match zget (c_ttt c) (faces d * itree + iface), zget (c_ttf c) (faces d * itree + iface) with
      | Some nt, Some code =>
        if negb (nt =? itree) || negb (code =? iface) then
          if negb (in_range code 0 (faces d * half d)) then None else
          Some (add_pair (nt, face_neighbor_corner d icorner iface (Z.rem code (faces d)) (Z.quot code (faces d))) l)
        else Some l
      | _, _ => None
      end
    end) (match d with D2 => [0; 1] | D3 => [0; 1; 2] end) (Some [(itree, icorner)]).

(** an index into a row of p8est_edge_corners has to be 0 or 1 *)
Definition edge_corner (nedge i : Z) : option Z :=
  if ((i =? 0) || (i =? 1)) && (0 <=? nedge) && (nedge <? 12) then Some (edge_corners nedge i) else None.
(** lines 3629-3646 *)
Fixpoint add_edge_corners (ets : list (Z * Z * Z)) (iwhich : Z) (l : list (Z * Z)) : option (list (Z * Z)) :=
  match ets with
  | [] => Some l
  | (nt, ne, nf) :: ets' =>
    match edge_corner ne (Z.lxor nf iwhich) with
    | None => None
    | Some nc => add_edge_corners ets' iwhich (add_pair (nt, nc) l)
    end
  end.
(** lines 3616-3648 (3D) *)
Definition corner_edges_distinct (c : conn) (itree icorner : Z) (l : list (Z * Z)) : option (list (Z * Z)) :=
  if c_ne c =? 0 then Some l
  else
    fold_left (fun acc i =>
      match acc with
      | None => None
      | Some l =>
        let iedge := corner_edges icorner i in
        match zget (c_tte c) (12 * itree + iedge) with
        | None => None
        | Some ae =>
          if ae =? -1 then Some l
          else
            match find_edge_transform c itree iedge with
            | None => None
            | Some ets => add_edge_corners ets (b2z (edge_corners iedge 1 =? icorner)) l
            end
        end
      end) [0; 1; 2] (Some l).

(** the list of (ntree, ncorner) *)
Definition find_corner_transform (d : dim) (c : conn) (itree icorner : Z) : option (list (Z * Z)) :=
  if c_nc c =? 0 then Some []
  else
    match zget (c_ttc c) (children d * itree + icorner) with
    | None => None
    | Some ac =>
      if ac =? -1 then Some []
      else
        match zget (c_coff c) ac, zget (c_coff c) (ac + 1) with
        | Some b, Some e =>
          match corner_faces_distinct d c itree icorner with
          | None => None
          | Some l =>
            match (if is3 d then corner_edges_distinct c itree icorner l else Some l),
                  zslice (c_ctt c) b (Z.to_nat (e - b)), zslice (c_ctc c) b (Z.to_nat (e - b)) with
            | Some dis, Some ts, Some cs => Some (filter (fun x => negb (mem_pair x dis)) (combine ts cs))
            | _, _, _ => None
            end
          end
        | _, _ => None
        end
    end.

(** ** p4est_connectivity_is_valid: src/p4est_connectivity.c 874-1145.
    None: a read outside of an array; Some false: "goto failure". *)

(** "if (...) goto failure; ..." *)
Definition andthen (m k : option bool) : option bool :=
  match m with None => None | Some false => Some false | Some true => k end.
Notation "m ;; k" := (andthen m k) (at level 61, right associativity).
(** "for (i = ...; n trips) { ... goto failure ... }" *)
Fixpoint each (f : Z -> option bool) (i : Z) (n : nat) : option bool :=
  match n with O => Some true | S n' => f i ;; each f (i + 1) n' end.
Definition with_ (x : option Z) (f : Z -> option bool) : option bool := match x with None => None | Some v => f v end.
Definition is_null {A} (x : option A) : bool := match x with None => true | Some _ => false end.
(** a read through a pointer that may be NULL *)
Definition oget (a : option (list Z)) (i : Z) : option Z := match a with None => None | Some l => zget l i end.

(** lines 961-990: one face of one tree *)
Definition valid_face (d : dim) (c : conn) (tree face : Z) : option bool :=
  with_ (zget (c_ttt c) (tree * faces d + face)) (fun ntree =>
  Some (in_range ntree 0 (c_nt c)) ;;
  with_ (zget (c_ttf c) (tree * faces d + face)) (fun rface =>
  Some (in_range rface 0 (faces d * half d)) ;;
  let nface := rface mod faces d in
  let o := rface / faces d in
  Some (negb ((ntree =? tree) && (nface =? face) && negb (o =? 0))) ;;
  if negb (ntree =? tree) || negb (nface =? face) then
    with_ (zget (c_ttt c) (ntree * faces d + nface)) (fun t =>
    Some (t =? tree) ;;
    with_ (zget (c_ttf c) (ntree * faces d + nface)) (fun f => Some (f =? face + faces d * o)))
  else Some true)).

(** "offset backwards", lines 1001-1006 and 1064-1069 *)
Definition valid_offset (off : list Z) (a : Z) : option bool :=
  with_ (zget off (a + 1)) (fun e => with_ (zget off a) (fun b => Some (b <=? e))).

(** the loop in lines 1030-1048; the result is errcode = 0, and flip *)
Fixpoint edge_loop (c : conn) (tree edge ae : Z) (n : nat) (nett flip : Z) : option (option Z) :=
  match n with
  | O => Some (Some flip)
  | S n' =>
    match zget (c_ett c) nett, zget (c_ete c) nett with
    | Some ntree, Some code =>
      let nedge := Z.rem code 12 in
      match zget (c_tte c) (ntree * 12 + nedge) with
      | None => None
      | Some x =>
        if negb (x =? ae) then Some None
        else
          let nflip := Z.quot code 12 in
          if (ntree =? tree) && (nedge =? edge) then
            if negb (flip =? -1) && (nflip =? flip) then Some None
            else edge_loop c tree edge ae n' (nett + 1) nflip
          else edge_loop c tree edge ae n' (nett + 1) flip
      end
    | _, _ => None
    end
  end.

(** lines 1008-1060: one edge of one tree *)
Definition valid_edge (c : conn) (num_ett tree edge : Z) : option bool :=
  match find_edge_transform c tree edge with
  | None => None
  | Some _ =>
    with_ (zget (c_tte c) (tree * 12 + edge)) (fun ae =>
    Some (in_range ae (-1) (c_ne c)) ;;
    if ae =? -1 then Some true
    else
      with_ (zget (c_eoff c) ae) (fun b => with_ (zget (c_eoff c) (ae + 1)) (fun e =>
      Some (in_range b 0 num_ett && in_range e 0 (num_ett + 1)) ;;
      match edge_loop c tree edge ae (Z.to_nat (e - b)) b (-1) with
      | None => None
      | Some None => Some false
      | Some (Some flip) => Some (negb (flip =? -1))
      end)))
  end.

(** the loop in lines 1090-1107; the result is errcode = 0, and cfound *)
Fixpoint corner_loop (d : dim) (c : conn) (tree corner ac : Z) (n : nat) (nctt : Z) (cfound : bool) : option (option bool) :=
  match n with
  | O => Some (Some cfound)
  | S n' =>
    match zget (c_ctt c) nctt, zget (c_ctc c) nctt with
    | Some ntree, Some nc =>
      match zget (c_ttc c) (ntree * children d + nc) with
      | None => None
      | Some x =>
        if negb (x =? ac) then Some None
        else if (ntree =? tree) && (nc =? corner) then
          if cfound then Some None else corner_loop d c tree corner ac n' (nctt + 1) true
        else corner_loop d c tree corner ac n' (nctt + 1) cfound
      end
    | _, _ => None
    end
  end.

(** lines 1071-1122: one corner of one tree *)
Definition valid_corner (d : dim) (c : conn) (num_ctt tree corner : Z) : option bool :=
  match find_corner_transform d c tree corner with
  | None => None
  | Some _ =>
    with_ (zget (c_ttc c) (tree * children d + corner)) (fun ac =>
    Some (in_range ac (-1) (c_nc c)) ;;
    if ac =? -1 then Some true
    else
      with_ (zget (c_coff c) ac) (fun b => with_ (zget (c_coff c) (ac + 1)) (fun e =>
      Some (in_range b 0 num_ctt && in_range e 0 (num_ctt + 1)) ;;
      match corner_loop d c tree corner ac (Z.to_nat (e - b)) b false with
      | None => None
      | Some None => Some false
      | Some (Some cfound) => Some cfound
      end)))
  end.

(** lines 959-1123: one tree *)
Definition valid_tree (d : dim) (c : conn) (num_ett num_ctt tree : Z) : option bool :=
  each (valid_face d c tree) 0 (Z.to_nat (faces d)) ;;
  (if is3 d then
     each (valid_offset (c_eoff c)) 0 (Z.to_nat (c_ne c)) ;;
     (if 0 <? c_ne c then each (valid_edge c num_ett tree) 0 12 else Some true)
   else Some true) ;;
  each (valid_offset (c_coff c)) 0 (Z.to_nat (c_nc c)) ;;
  (if 0 <? c_nc c then each (valid_corner d c num_ctt tree) 0 (Z.to_nat (children d)) else Some true).

(** lines 923-934 and 937-948: entries of an array that have to be in [0, hi) *)
Definition valid_pair (ts cs : list Z) (nt hi i : Z) : option bool :=
  with_ (zget ts i) (fun t => Some (in_range t 0 nt) ;; with_ (zget cs i) (fun x => Some (in_range x 0 hi))).

Definition conn_is_valid (d : dim) (c : conn) : option bool :=
  with_ (if is3 d then zget (c_eoff c) (c_ne c) else Some 0) (fun num_ett =>
  with_ (zget (c_coff c) (c_nc c)) (fun num_ctt =>
  Some (negb ((c_nv c =? 0) && (negb (is_null (c_vertices c)) || negb (is_null (c_ttv c))))) ;;
  Some (negb ((0 <? c_nv c) && (is_null (c_vertices c) || is_null (c_ttv c)))) ;;
  (if is3 d then each (valid_pair (c_ett c) (c_ete c) (c_nt c) 24) 0 (Z.to_nat num_ett) else Some true) ;;
  each (valid_pair (c_ctt c) (c_ctc c) (c_nt c) (children d)) 0 (Z.to_nat num_ctt) ;;
  (if 0 <? c_nv c then
     each (fun i => with_ (oget (c_ttv c) i) (fun v => Some (in_range v 0 (c_nv c)))) 0 (Z.to_nat (c_nt c * children d))
   else Some true) ;;
  Some (Bool.eqb (negb (is_null (c_tta c))) (0 <? c_attr c)) ;;
  each (valid_tree d c num_ett num_ctt) 0 (Z.to_nat (c_nt c)))).
