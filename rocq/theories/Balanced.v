(** * Model of p4est_is_balanced for P4EST_CONNECT_FACE: src/p4est_ghost.c 845-1123

    It builds the ghost layer by p4est_ghost_new_check with P4EST_GHOST_UNBALANCED_FAIL and then
    looks up the face neighbors of each leaf.  The checks of edges and corners, that is the other
    values of btype, are not modelled; they come after the check of the faces of a leaf.  The log
    is left out.  None stands for an access outside of an array. *)

From Coq Require Import ZArith List Bool.
From Verif Require Import Quad Neighbor Transform Conn Partition Comm Ghost GhostFind.
Import ListNotations.
Open Scope Z_scope.

(** the loop over the leaves of a rank goes on with the mirrors, or jumps to failtest *)
Inductive check := Going (m : mir) | Failed.

Section Rank.
  Variable d : dim.
  Variable c : conn.
  Variable gfp : list marker.   (* global_first_position *)
  Variable P : Z.               (* mpisize *)
  Variable rank : Z.

  (** p4est_quadrant_find_owner with face >= 0: src/p4est_ghost.c 121-193 *)
  Definition quadrant_find_owner (t face : Z) (q : quad) : option Z :=
    if is_inside_root d q then find_owner d gfp P t q rank
    else
      match zget (c_ttt c) (faces d * t + face), zget (c_ttf c) (faces d * t + face) with
      | Some nt, Some code =>
        if (nt =? t) && (code =? face) then Some (-1)
        else
          match find_face_transform d c t face with
          | Some (Some (_, ft)) => find_owner d gfp P nt (transform_face d q ft) rank
          | _ => None
          end
      | _, _ => None
      end.

  (** the member nur[i] of p4est_quadrant_half_face_neighbors: src/p4est_bits.c 1437-1453 *)
  Definition upper_right (n : quad) : quad :=
    let dh := QLEN (ql n) - QLEN QMAXLEVEL in
    mkq (qx n + dh) (qy n + dh) (if is3 d then qz n + dh else qz n) QMAXLEVEL.

  (** lines 1579-1606: the small neighbors, with nur[i] when it is checked; p1 is n1_proc *)
  Fixpoint halves_step (t num : Z) (q : quad) (face : Z) (ns : list (quad * option quad)) (p1 : Z) (m : mir) : option check :=
    match ns with
    | [] => Some (Going m)
    | (n, ur) :: ns' =>
      match quadrant_find_owner t face n with
      | None => None
      | Some p0 =>
        match (match ur with None => Some p0 | Some u => quadrant_find_owner t face u end) with
        | None => None
        | Some p0ur =>
          if negb (p0 =? p0ur) then Some Failed
          else if negb (p0 =? rank) && (0 <=? p0) && negb (p0 =? p1) then
            match mirror_add d m t num q p0 with
            | None => None
            | Some m' => halves_step t num q face ns' p0 m'
            end
          else halves_step t num q face ns' p1 m
        end
      end
    end.

  (** lines 1567-1607 *)
  Definition face_check (t num : Z) (q : quad) (m : mir) (face : Z) : option check :=
    let ns := if ql q =? QMAXLEVEL then [(face_neighbor d q face, None)]
              else map (fun i => let n := half_face_neighbor d q face (Z.of_nat i) in (n, Some (upper_right n))) (seq 0 (Z.to_nat (half d))) in
    halves_step t num q face ns (-1) m.

  Fixpoint each_face (t num : Z) (q : quad) (fs : list Z) (m : mir) : option check :=
    match fs with
    | [] => Some (Going m)
    | f :: fs' =>
      match face_check t num q m f with
      | Some (Going m') => each_face t num q fs' m'
      | r => r
      end
    end.

  (** lines 1558-1634 *)
  Definition check_quad (info : bool * bool * list bool) (t num : Z) (q : quad) (m : mir) : option check :=
    let m := mkmir false (m_mirrors m) (m_bufs m) (m_offs m) (m_sum m) in
    match neighborhood_owned d gfp P rank t info q with
    | None => None
    | Some true => Some (Going m)
    | Some false => each_face t num q (face_list d) m
    end.

  Fixpoint check_tree (info : bool * bool * list bool) (t num : Z) (qs : list quad) (m : mir) : option check :=
    match qs with
    | [] => Some (Going m)
    | q :: qs' =>
      match check_quad info t num q m with
      | Some (Going m') => check_tree info t (num + 1) qs' m'
      | r => r
      end
    end.

  (** lines 1549-1951; [n] trips.  The tree offsets of the mirrors are left out. *)
  Fixpoint check_trees (first last : Z) (trees : Z -> list quad) (n : nat) (t num : Z) (m : mir) : option check :=
    match n with
    | O => Some (Going m)
    | S n' =>
      match tree_info d c gfp rank first last t with
      | None => None
      | Some info =>
        match check_tree info t num (trees t) m with
        | Some (Going m') => check_trees first last trees n' (t + 1) (num + zlen (trees t)) m'
        | r => r
        end
      end
    end.

  (** lines 1534-1951; for an empty rank first = -1 and last = -2 *)
  Definition check_send (first last : Z) (trees : Z -> list quad) : option check :=
    check_trees first last trees (Z.to_nat (last - first + 1)) first 0 (mirror_init P).

  (** ** The check of the leaves: src/p4est_ghost.c 893-936 *)

  (** p4est_quadrant_on_face_boundary: src/p4est_algorithms.c 3706-3738 *)
  Definition on_face_boundary (t face : Z) (q : quad) : option bool :=
    match zget (c_ttt c) (faces d * t + face), zget (c_ttf c) (faces d * t + face) with
    | Some nt, Some code =>
      if negb (nt =? t) || negb (code =? face) then Some false
      else
        let xyz := match face / 2 with 0 => qx q | 1 => qy q | _ => qz q end in
        Some (xyz =? (if nz (Z.land face 1) then LAST_OFFSET (ql q) else 0))
    | _, _ => None
    end.

  Section Leaves.
    Variable bsearch : list quad -> quad -> option nat.
    Variables (trees : Z -> list quad) (g : glayer).

    (** the return value of p4est_quadrant_exists; a neighbor that is not set has level -1 *)
    Definition exists_one (t : Z) (n : option quad) : option bool :=
      match n with
      | None => Some false
      | Some n =>
        match quadrant_exists d bsearch c gfp P rank trees g t n with
        | None => None
        | Some xs => Some (existsb (fun x => negb (x_num x =? -1)) xs)
        end
      end.
    Fixpoint exists_list (t : Z) (ns : list (option quad)) : option (list bool) :=
      match ns with
      | [] => Some []
      | n :: ns' =>
        match exists_one t n, exists_list t ns' with
        | Some e, Some l => Some (e :: l)
        | _, _ => None
        end
      end.

    (** lines 898-936; false stands for "goto failtest" *)
    Definition face_leaf (t : Z) (q : quad) (face : Z) : option bool :=
      match on_face_boundary t face q with
      | None => None
      | Some true => Some true
      | Some false =>
        match exists_list t (all_face_neighbors d q face) with
        | None => None
        | Some es =>
          let h := Z.to_nat (half d) in
          let e0 := nth 0 es false in
          if negb (forallb (Bool.eqb e0) (firstn h es)) then Some false
          else Some (b2z e0 + b2z (nth h es false) + b2z (nth (h + 1) es false) =? 1)
        end
      end.

    (** a loop that is left on the first failure *)
    Fixpoint loop {A} (f : A -> option bool) (l : list A) : option bool :=
      match l with
      | [] => Some true
      | x :: l' =>
        match f x with
        | Some true => loop f l'
        | r => r
        end
      end.

    (** lines 887-1109; [n] trips *)
    Fixpoint leaves_trees (n : nat) (t : Z) : option bool :=
      match n with
      | O => Some true
      | S n' =>
        match loop (fun q => loop (face_leaf t q) (face_list d)) (trees t) with
        | Some true => leaves_trees n' (t + 1)
        | r => r
        end
      end.
    Definition leaves_ok (first last : Z) : option bool := leaves_trees (Z.to_nat (last - first + 1)) first.
  End Leaves.
End Rank.

(** ** All ranks *)

(** what the call does: it returns the same value on all ranks; it does not return; or there is
    an access outside of an array *)
Inductive outcome := Returns (b : bool) | Hangs | Error.

(** the loop over the leaves of all ranks, and then p4est_comm_sync_flag (lines 1984-2006): None
    for an error, Some None when some rank failed *)
Fixpoint sync_sends (l : list (option check)) : option (option (list (list (list gq)))) :=
  match l with
  | [] => Some (Some [])
  | x :: l' =>
    match x, sync_sends l' with
    | None, _ => None
    | _, None => None
    | Some (Going m), Some (Some bs) => Some (Some (m_bufs m :: bs))
    | _, _ => Some None
    end
  end.

(** the exchange of the ghosts on each rank (None for a deadlock) *)
Fixpoint exchanges (bufs : list (list (list gq))) (rs : list Z) : option (list (list gq * list Z)) :=
  match rs with
  | [] => Some []
  | r :: rs' =>
    match ghost_exchange bufs r, exchanges bufs rs' with
    | Some x, Some l => Some (x :: l)
    | _, _ => None
    end
  end.

(** p4est_comm_sync_flag with BAND: line 1121 *)
Fixpoint sync_and (l : list (option bool)) : option bool :=
  match l with
  | [] => Some true
  | x :: l' =>
    match x, sync_and l' with
    | Some a, Some b => Some (a && b)
    | _, _ => None
    end
  end.

Section All.
  Variable d : dim.
  Variable bsearch : list quad -> quad -> option nat.
  Variable c : conn.
  Variable ms : list marker.
  Variable ranks : list (rk quad).

  Definition rank_numbers : list Z := map Z.of_nat (seq 0 (length ranks)).
  Definition sends : list (option check) :=
    map (fun x : Z * rk quad => let (i, r) := x in check_send d c ms (zlen ranks) i (k_first _ r) (k_last _ r) (k_trees _ r)) (combine rank_numbers ranks).
  Definition layer (x : list gq * list Z) : glayer := mkgl (fst x) (snd x) (tree_offsets (c_nt c) (fst x)).

  (** p4est_is_balanced with P4EST_CONNECT_FACE; with one rank the code does not exchange *)
  Definition is_balanced_face : outcome :=
    match sync_sends sends with
    | None => Error
    | Some None => Returns false
    | Some (Some bufs) =>
      match exchanges bufs rank_numbers with
      | None => Hangs
      | Some layers =>
        match sync_and (map (fun x : (Z * rk quad) * (list gq * list Z) => let '((i, r), l) := x in
                               leaves_ok d c ms (zlen ranks) i bsearch (k_trees _ r) (layer l) (k_first _ r) (k_last _ r))
                            (combine (combine rank_numbers ranks) layers)) with
        | None => Error
        | Some b => Returns b
        end
      end
    end.
End All.
