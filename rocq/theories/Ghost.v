(** * Model of the ghost layer: src/p4est_ghost.c 1125-2222

    p4est_ghost_new, that is p4est_ghost_new_check with P4EST_GHOST_UNBALANCED_ALLOW, with MPI,
    and the functions it calls.  The other values of tol are not modelled.  The assertions and
    the log are left out; p4est_locidx_t is unbounded; arrays are lists, and None stands for an
    access outside of an array or for a failure of a function that is called. *)

From Coq Require Import ZArith List Bool.
From Verif Require Import Quad Neighbor Transform Conn Partition Comm RangeBound.
Import ListNotations.
Open Scope Z_scope.

(** p4est_connect_type_t: src/p4est_connectivity.h, src/p8est_connectivity.h; CEdge for p8est *)
Inductive ctype := CFace | CEdge | CFull.

(** a quadrant with p.piggy3.which_tree and p.piggy3.local_num *)
Record gq := mkgq { g_t : Z; g_num : Z; g_q : quad }.

(** p8est_quadrant_transform_edge with inside = 1: src/p8est_bits.c 425-520.  The edge
    transformation of p8est_find_edge_transform is given by nedge and nflip; naxis and corners
    are computed from nedge in src/p8est_connectivity.c 1629-1633. *)
Definition transform_edge (q : quad) (iedge nedge nflip : Z) : quad :=
  let mh := - QLEN (ql q) in
  let Rmh := ROOT_LEN + mh in
  let my := match iedge / 4 with 0 => qx q | 1 => qy q | _ => qz q end in
  let naxis0 := nedge / 4 in
  let naxis1 := if nedge <? 4 then 1 else 0 in
  let naxis2 := if nedge <? 8 then 2 else 1 in
  let corners := nedge mod 4 in
  let r := (0, 0, 0) in
  let r := vset r naxis0 (if nflip =? 0 then my else Rmh - my) in
  let r := vset r naxis1 (if (corners =? 1) || (corners =? 3) then Rmh else 0) in
  let r := vset r naxis2 (if (corners =? 2) || (corners =? 3) then Rmh else 0) in
  mkq (vget r 0) (vget r 1) (vget r 2) (ql q).

(** p8est_quadrant_is_outside_edge_extra: src/p8est_bits.c 40-79; the edge, or None for false *)
Definition outside_edge_extra (q : quad) : option Z :=
  let lo a := b2z (a <? 0) in
  let hi a := b2z (a >=? ROOT_LEN) in
  if negb (b2z (outside_ax (qx q)) + b2z (outside_ax (qy q)) + b2z (outside_ax (qz q)) =? 2) then None
  else if negb (outside_ax (qx q)) then Some (0 + 2 * hi (qz q) + hi (qy q))
  else if negb (outside_ax (qy q)) then Some (4 + 2 * hi (qz q) + hi (qx q))
  else Some (8 + 2 * hi (qy q) + hi (qx q)).

Section Rank.
  Variable d : dim.
  Variable c : conn.
  Variable gfp : list marker.   (* global_first_position *)
  Variable P : Z.               (* mpisize *)
  Variable rank : Z.

  (** ** p4est_comm_tree_info: src/p4est_communication.c 809-855; full_tree[2] and tree_contact[] *)
  Definition at_origin (q : quad) : bool := (qx q =? 0) && (qy q =? 0) && (negb (is3 d) || (qz q =? 0)).
  Fixpoint contacts (t : Z) (fs : list Z) : option (list bool) :=
    match fs with
    | [] => Some []
    | f :: fs' =>
      match zget (c_ttt c) (faces d * t + f), zget (c_ttf c) (faces d * t + f), contacts t fs' with
      | Some nt, Some nf, Some l => Some ((negb (nt =? t) || negb (nf =? f)) :: l)
      | _, _, _ => None
      end
    end.
  Definition face_list : list Z := match d with D2 => [0; 1; 2; 3] | D3 => [0; 1; 2; 3; 4; 5] end.
  Definition tree_info (first_local_tree last_local_tree t : Z) : option (bool * bool * list bool) :=
    match zget gfp rank, zget gfp (rank + 1), contacts t face_list with
    | Some f, Some n, Some l =>
      Some ((t >? first_local_tree) || at_origin (g_quad f), (t <? last_local_tree) || at_origin (g_quad n), l)
    | _, _, _ => None
    end.

  (** ** p4est_comm_neighborhood_owned: src/p4est_communication.c 857-918 *)
  Definition neighborhood_owned (t : Z) (info : bool * bool * list bool) (q : quad) : option bool :=
    let '(full0, full1, contact) := info in
    let qh := QLEN (ql q) in
    let con f := nth f contact false in
    if full0 && full1 then
      Some (negb ((con 0%nat && (qx q =? 0)) || (con 1%nat && (qx q =? ROOT_LEN - qh)) ||
                  (con 2%nat && (qy q =? 0)) || (con 3%nat && (qy q =? ROOT_LEN - qh)) ||
                  (is3 d && ((con 4%nat && (qz q =? 0)) || (con 5%nat && (qz q =? ROOT_LEN - qh))))))
    else
      let n0 := mkq (qx q - qh) (qy q - qh) (if is3 d then qz q - qh else qz q) (ql q) in
      let n1 := mkq (qx q + qh) (qy q + qh) (if is3 d then qz q + qh else qz q) (ql q) in
      if (0 <=? qx n0) && (0 <=? qy n0) && (negb (is3 d) || (0 <=? qz n0)) &&
         ((qx n1 <? ROOT_LEN) && (qy n1 <? ROOT_LEN) && (negb (is3 d) || (qz n1 <? ROOT_LEN))) then
        match find_owner d gfp P t n0 rank with
        | None => None
        | Some p0 =>
          if p0 =? rank then
            match find_owner d gfp P t (last_descendant d n1 QMAXLEVEL) rank with
            | None => None
            | Some p1 => Some (p1 =? rank)
            end
          else Some false
        end
      else Some false.

  (** ** The mirrors and the send buffers: p4est_ghost_mirror_t, lines 1197-1207 *)
  Record mir := mkmir {
    m_known : bool;
    m_mirrors : list gq;
    m_bufs : list (list gq);       (* send_bufs, one for each rank *)
    m_offs : list (list Z);        (* offsets_by_proc *)
    m_sum : Z }.                   (* sum_all_procs *)

  (** p4est_ghost_mirror_init: lines 1209-1233 *)
  Definition mirror_init : mir := mkmir false [] (repeat [] (Z.to_nat P)) (repeat [] (Z.to_nat P)) 0.

  (** p4est_add_ghost_to_buf: lines 1170-1194 *)
  Definition add_ghost_to_buf (buf : list gq) (t num : Z) (q : quad) : option (list gq) :=
    match rev buf with
    | g :: _ => if (t =? g_t g) && is_equal d q (g_q g) then None else Some (buf ++ [mkgq t num q])
    | [] => Some (buf ++ [mkgq t num q])
    end.

  Fixpoint set_nth {A} (l : list A) (i : nat) (v : A) : list A :=
    match l, i with
    | [], _ => []
    | _ :: l', O => v :: l'
    | x :: l', S i' => x :: set_nth l' i' v
    end.

  (** p4est_ghost_mirror_add: lines 1240-1271 *)
  Definition mirror_add (m : mir) (t num : Z) (q : quad) (p : Z) : option mir :=
    let m := if m_known m then m
             else mkmir true (m_mirrors m ++ [mkgq t num q]) (m_bufs m) (m_offs m) (m_sum m) in
    match zget (m_bufs m) p, zget (m_offs m) p with
    | Some buf, Some offs =>
      match add_ghost_to_buf buf t num q with
      | None => Some m
      | Some buf' =>
        Some (mkmir (m_known m) (m_mirrors m) (set_nth (m_bufs m) (Z.to_nat p) buf')
                    (set_nth (m_offs m) (Z.to_nat p) (offs ++ [zlen (m_mirrors m) - 1])) (m_sum m + 1))
      end
    | _, _ => None
    end.

  (** "if (n0_proc != rank) p4est_ghost_mirror_add (...)" *)
  Definition add_other (m : mir) (t num : Z) (q : quad) (p : Z) : option mir :=
    if p =? rank then Some m else mirror_add m t num q p.

  (** ** p4est_ghost_test_add: lines 1308-1421 *)

  (** the loop over the ranks in lines 1351-1420; [n] trips *)
  Fixpoint test_procs (m : mir) (q : quad) (t touch num n0 n1 : Z) (n : nat) (proc : Z) : option mir :=
    match n with
    | O => Some m
    | S n' =>
      if proc =? rank then test_procs m q t touch num n0 n1 n' (proc + 1)
      else
        match zget gfp proc, zget gfp (proc + 1) with
        | Some l, Some u =>
          if is_equal_piggy d l u then test_procs m q t touch num n0 n1 n' (proc + 1)
          else
            let lq := if proc =? n0 then None else Some (g_quad l) in
            match (if proc =? n1 then Some None
                   else match predecessor d (g_quad u) with None => None | Some x => Some (Some x) end) with
            | None => None
            | Some uq =>
              match find_range_boundaries d lq uq (ql q) with
              | None => None
              | Some rb =>
                match (if nz (Z.land rb touch) then mirror_add m t num q proc else Some m) with
                | None => None
                | Some m => test_procs m q t touch num n0 n1 n' (proc + 1)
                end
              end
            end
        | _, _ => None
        end
    end.

  Definition test_add (m : mir) (q : quad) (t : Z) (nq : quad) (nt touch num : Z) : option mir :=
    match find_owner d gfp P nt nq rank with
    | None => None
    | Some n0 =>
      if ql q =? QMAXLEVEL then add_other m t num q n0
      else
        match find_owner d gfp P nt (last_descendant d nq QMAXLEVEL) n0 with
        | None => None
        | Some n1 =>
          if n0 =? n1 then add_other m t num q n0
          else test_procs m q t touch num n0 n1 (trips n0 n1) n0
        end
    end.

  (** ** One quadrant: lines 1560-1949 *)

  (** lines 1608-1629 *)
  Definition face_step (t num : Z) (q : quad) (m : mir) (face : Z) : option mir :=
    let n := face_neighbor d q face in
    if is_inside_root d n then test_add m q t n t (Z.shiftl 1 (Z.lxor face 1)) num
    else
      match find_face_transform d c t face, zget (c_ttf c) (t * faces d + face) with
      | Some None, _ => Some m
      | Some (Some (nnt, ft)), Some code =>
        test_add m q t (transform_face d n ft) nnt (Z.shiftl 1 (code mod faces d)) num
      | _, _ => None
      end.

  (** the loop over the edge transformations, lines 1779-1790 and 1912-1927 *)
  Fixpoint each_tree {A} (f : mir -> A -> option mir) (l : list A) (m : mir) : option mir :=
    match l with
    | [] => Some m
    | x :: l' => match f m x with None => None | Some m => each_tree f l' m end
    end.

  (** lines 1748-1768: the edge of the neighbor tree across a face *)
  Definition edge_across (edge face code : Z) : Z :=
    let oppedge := if edge_faces edge 0 =? face then Z.lxor edge 2 else Z.lxor edge 1 in
    let o := code / 6 in
    let nface := code mod 6 in
    let set := face_permutation_sets (face_permutation_refs face nface) o in
    let nc k := face_corners D3 nface (face_permutations set (edge_face_corners oppedge face k)) in
    child_corner_edges (nc 0) (nc 1).

  (** lines 1722-1792 (3D) *)
  Definition edge_step (t num : Z) (q : quad) (m : mir) (edge : Z) : option mir :=
    let n := edge_neighbor q edge in
    if is_inside_root d n then test_add m q t n t (Z.shiftl 1 (6 + Z.lxor edge 3)) num
    else if is_outside_face d n then
      let face := if outside_ax (qx n) then edge_faces edge 0
                  else if outside_ax (qz n) then edge_faces edge 1
                  else if qy n <? 0 then 2 else 3 in
      match find_face_transform d c t face, zget (c_ttf c) (t * faces d + face) with
      | Some None, _ => Some m
      | Some (Some (nnt, ft)), Some code =>
        test_add m q t (transform_face d n ft) nnt (Z.shiftl 1 (6 + edge_across edge face code)) num
      | _, _ => None
      end
    else
      match find_edge_transform c t edge with
      | None => None
      | Some ets =>
        each_tree (fun m x => let '(nt, nedge, nflip) := x in
          test_add m q t (transform_edge n edge nedge nflip) nt (Z.shiftl 1 (6 + nedge)) num) ets m
      end.

  (** "n0_proc = p4est_comm_find_owner (...); if (n0_proc != rank) p4est_ghost_mirror_add (...)" *)
  Definition corner_add (t num : Z) (q : quad) (m : mir) (nt : Z) (s : quad) : option mir :=
    match find_owner d gfp P nt s rank with
    | None => None
    | Some p => add_other m t num q p
    end.

  (** lines 1867-1945; p4est_quadrant_transform_corner overwrites all coordinates, so that its use
      in place in the last loop does not depend on the turns before *)
  Definition corner_step (t num : Z) (q : quad) (m : mir) (corner : Z) : option mir :=
    let s := corner_neighbor d (corner_descendant d q corner QMAXLEVEL) corner in
    if is_inside_root d s then corner_add t num q m t s
    else if is_outside_face d s then
      let face := if outside_ax (qx s) then corner_faces d corner 0
                  else if is3 d && outside_ax (qy s) then corner_faces d corner 1
                  else corner_faces d corner (dimz d - 1) in
      match find_face_transform d c t face with
      | None => None
      | Some None => Some m
      | Some (Some (nnt, ft)) => corner_add t num q m nnt (transform_face d s ft)
      end
    else
      match (if is3 d then outside_edge_extra s else None) with
      | Some edge =>
        match find_edge_transform c t edge with
        | None => None
        | Some ets =>
          each_tree (fun m x => let '(nt, nedge, nflip) := x in
            corner_add t num q m nt (transform_edge s edge nedge nflip)) ets m
        end
      | None =>
        match find_corner_transform d c t corner with
        | None => None
        | Some cts => each_tree (fun m x => corner_add t num q m (fst x) (transform_corner d s (snd x) true)) cts m
        end
      end.

  Definition edge_list : list Z := [0; 1; 2; 3; 4; 5; 6; 7; 8; 9; 10; 11].
  Definition corner_list : list Z := match d with D2 => [0; 1; 2; 3] | D3 => [0; 1; 2; 3; 4; 5; 6; 7] end.

  (** lines 1560-1949 *)
  Definition ghost_quad (bt : ctype) (info : bool * bool * list bool) (t num : Z) (q : quad) (m : mir) : option mir :=
    let m := mkmir false (m_mirrors m) (m_bufs m) (m_offs m) (m_sum m) in
    match neighborhood_owned t info q with
    | None => None
    | Some true => Some m
    | Some false =>
      match each_tree (face_step t num q) face_list m with
      | None => None
      | Some m =>
        match bt with
        | CFace => Some m
        | _ =>
          match (if is3 d then each_tree (edge_step t num q) edge_list m else Some m) with
          | None => None
          | Some m =>
            match bt, d with
            | CEdge, D3 => Some m
            | _, _ => each_tree (corner_step t num q) corner_list m
            end
          end
        end
      end
    end.

  (** the quadrants of one tree: lines 1558-1950 *)
  Fixpoint ghost_tree (bt : ctype) (info : bool * bool * list bool) (t num : Z) (qs : list quad) (m : mir) : option mir :=
    match qs with
    | [] => Some m
    | q :: qs' =>
      match ghost_quad bt info t num q m with
      | None => None
      | Some m => ghost_tree bt info t (num + 1) qs' m
      end
    end.

  (** the local trees: lines 1549-1951; [n] trips.  The result has mirror_tree_offsets[nt] for
      the local trees. *)
  Fixpoint ghost_trees (bt : ctype) (first last : Z) (trees : Z -> list quad) (n : nat) (t num : Z) (m : mir) : option (mir * list Z) :=
    match n with
    | O => Some (m, [])
    | S n' =>
      match tree_info first last t with
      | None => None
      | Some info =>
        match ghost_tree bt info t num (trees t) m with
        | None => None
        | Some m' =>
          match ghost_trees bt first last trees n' (t + 1) (num + zlen (trees t)) m' with
          | None => None
          | Some (m'', offs) => Some (m'', zlen (m_mirrors m) :: offs)
          end
        end
      end
    end.

  (** lines 1541-1959: what one rank sends, and mirror_tree_offsets; an empty rank has first = -1 and
      last = -2 *)
  Definition ghost_send (bt : ctype) (first last : Z) (trees : Z -> list quad) : option (mir * list Z) :=
    match ghost_trees bt first last trees (Z.to_nat (last - first + 1)) first 0 mirror_init with
    | None => None
    | Some (m, offs) =>
      Some (m, repeat 0 (Z.to_nat first) ++ offs ++
               repeat (zlen (m_mirrors m)) (Z.to_nat (c_nt c + 1 - Z.max (last + 1) 0)))
    end.
End Rank.

(** ** The exchange, lines 1982-2165 *)

(** the arrays gl->ghosts and gl->proc_offsets of rank r from the send buffers of all ranks: a
    rank receives from those that it sends to.  A receive that no send matches, or a send that no
    receive matches, is a deadlock: None. *)
Fixpoint ghost_recv (bufs : list (list (list gq))) (mine : list (list gq)) (r i offset : Z) (others : list (list gq)) : option (list gq * list Z) :=
  match others with
  | [] => Some ([], [])
  | _ :: others' =>
    match zget mine i, zget bufs i with
    | Some out, Some theirs =>
      match zget theirs r with
      | None => None
      | Some inc =>
        match out, inc with
        | [], _ :: _ => None
        | _ :: _, [] => None
        | _, _ =>
          match ghost_recv bufs mine r (i + 1) (offset + zlen inc) others' with
          | None => None
          | Some (g, o) => Some (inc ++ g, (offset + zlen inc) :: o)
          end
        end
      end
    | _, _ => None
    end
  end.
Definition ghost_exchange (bufs : list (list (list gq))) (r : Z) : option (list gq * list Z) :=
  match zget bufs r with
  | None => None
  | Some mine =>
    match ghost_recv bufs mine r 0 0 mine with
    | None => None
    | Some (g, o) => Some (g, 0 :: o)
    end
  end.

(** the array gl->tree_offsets: sc_array_split by the tree number (libsc), lines 2168-2195: entry t
    is the number of ghosts in the trees before t *)
Definition tree_offsets (T : Z) (ghosts : list gq) : list Z :=
  map (fun t => zlen (filter (fun g => g_t g <? Z.of_nat t) ghosts)) (seq 0 (S (Z.to_nat T))).
(** p4est_ghost_mirror_reset with populate: lines 1274-1304; mirror_proc_mirrors and _offsets *)
Fixpoint proc_mirrors (sum : Z) (offs : list (list Z)) : list Z * list Z :=
  match offs with
  | [] => ([], [sum])
  | o :: offs' => let (a, b) := proc_mirrors (sum + zlen o) offs' in (o ++ a, sum :: b)
  end.
