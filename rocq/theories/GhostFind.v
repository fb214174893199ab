(** * Searching the ghost layer: src/p4est_ghost.c 268-577 *)

From Coq Require Import ZArith List Bool Lia Sorting.Sorted.
From Verif Require Import Quad Transform Partition Conn Comm Ghost.
Import ListNotations.
Open Scope Z_scope.

(** the members ghosts, proc_offsets and tree_offsets of p4est_ghost_t *)
Record glayer := mkgl { gl_ghosts : list gq; gl_po : list Z; gl_to : list Z }.

Section Find.
  Variable d : dim.
  (** sc_array_bsearch with p4est_quadrant_compare; libsc calls bsearch of the C library,
      see [bsearch_cmp_ok] *)
  Variable bsearch : list quad -> quad -> option nat.
  (** sc_bsearch_range of libsc with p4est_quadrant_compare, see [brange_ok] *)
  Variable brange : list quad -> quad -> nat.

  (** p4est_ghost_check_range, lines 268-296: the window and whether it is not empty;
      None when an offset is read out of bounds *)
  Definition check_range (g : glayer) (proc tree : Z) : option (bool * Z * Z) :=
    let n := zlen (gl_ghosts g) in
    if n =? 0 then Some (false, 0, 0)
    else
      match (if proc =? -1 then Some (0, n)
             else match zget (gl_po g) proc, zget (gl_po g) (proc + 1) with
                  | Some a, Some e => Some (Z.max 0 a, Z.min n e)
                  | _, _ => None
                  end) with
      | None => None
      | Some (s, e) =>
        match (if tree =? -1 then Some (s, e)
               else match zget (gl_to g) tree, zget (gl_to g) (tree + 1) with
                    | Some a, Some e' => Some (Z.max s a, Z.min e e')
                    | _, _ => None
                    end) with
        | None => None
        | Some (s, e) => Some (s <? e, s, e)
        end
      end.

  (** sc_array_init_view *)
  Definition view (g : glayer) (s e : Z) : list quad :=
    map g_q (firstn (Z.to_nat (e - s)) (skipn (Z.to_nat s) (gl_ghosts g))).

  (** p4est_ghost_bsearch, lines 298-320 *)
  Definition ghost_bsearch (g : glayer) (proc tree : Z) (q : quad) : option Z :=
    match check_range g proc tree with
    | None => None
    | Some (false, _, _) => Some (-1)
    | Some (true, s, e) =>
      match bsearch (view g s e) q with
      | None => Some (-1)
      | Some i => Some (Z.of_nat i + s)
      end
    end.

  (** p4est_ghost_contains, lines 322-351 *)
  Definition ghost_contains (g : glayer) (proc tree : Z) (q : quad) : option Z :=
    match check_range g proc tree with
    | None => None
    | Some (false, _, _) => Some (-1)
    | Some (true, s, e) =>
      let result := brange (view g s e) q in
      match nth_error (view g s e) result with
      | None => None
      | Some r => Some (if is_equal d r q || is_ancestor d r q then Z.of_nat result + s else -1)
      end
    end.

  (** what p4est_quadrant_exists reports for one quadrant: rproc_arr, and in rquad_arr the
      tree, the quadrant, and the index as local_num *)
  Record found := mkfound { x_proc : Z; x_tree : Z; x_quad : quad; x_num : Z }.

  Section Exists.
    Variables (c : conn) (gfp : list marker) (P rank : Z) (trees : Z -> list quad) (g : glayer).

    (** lines 404-424, 511-538, 553-576: the owner, then the local leaves of the tree or the ghosts *)
    Definition locate (t : Z) (q : quad) : option found :=
      match find_owner d gfp P t q rank with
      | None => None
      | Some p =>
        if p =? rank then Some (mkfound p t q (match bsearch (trees t) q with None => -1 | Some i => Z.of_nat i end))
        else match ghost_bsearch g p t q with
             | None => None
             | Some n => Some (mkfound p t q n)
             end
      end.
    Fixpoint locate_all (l : list (Z * quad)) : option (list found) :=
      match l with
      | [] => Some []
      | (t, q) :: l' =>
        match locate t q, locate_all l' with
        | Some x, Some xs => Some (x :: xs)
        | _, _ => None
        end
      end.

    (** p4est_quadrant_exists, lines 353-577; the return value is whether some local_num is not
        -1, exists_arr (for an edge or a corner) tells it for each entry *)
    Definition quadrant_exists (t : Z) (q : quad) : option (list found) :=
      if ql q =? -1 then Some []
      else if is_inside_root d q then locate_all [(t, q)]
      else
        let rh := ROOT_LEN in
        let c0 := qx q <? 0 in let c1 := rh <=? qx q in let a0 := c0 || c1 in
        let c2 := qy q <? 0 in let c3 := rh <=? qy q in let a1 := c2 || c3 in
        let c4 := is3 d && (qz q <? 0) in let c5 := is3 d && (rh <=? qz q) in let a2 := c4 || c5 in
        let face f := match find_face_transform d c t f with
                      | None => None
                      | Some None => Some []
                      | Some (Some (nt, ft)) => locate_all [(nt, transform_face d q ft)]
                      end in
        let edge e := match find_edge_transform c t e with
                      | None => None
                      | Some ets => locate_all (map (fun x => let '(nt, ne, fl) := x in (nt, transform_edge q e ne fl)) ets)
                      end in
        let corner k := match find_corner_transform d c t k with
                        | None => None
                        | Some cts => locate_all (map (fun x => (fst x, transform_corner d q (snd x) true)) cts)
                        end in
        if negb a1 && negb a2 then face (0 + b2z c1)
        else if negb a0 && negb a2 then face (2 + b2z c3)
        else if is3 d && (negb a0 && negb a1) then face (4 + b2z c5)
        else if is3 d && negb a0 then edge (0 + 2 * b2z c5 + b2z c3)
        else if is3 d && negb a1 then edge (4 + 2 * b2z c5 + b2z c1)
        else if is3 d && negb a2 then edge (8 + 2 * b2z c3 + b2z c1)
        else corner ((if is3 d then 4 * b2z c5 else 0) + 2 * b2z c3 + b2z c1).
  End Exists.

  (** the contract of bsearch in the C standard: in an array with first the elements less than
      the key, then those equal to it, then the greater ones, it finds an equal element if
      there is one *)
  Definition bsearch_cmp_ok : Prop := forall l key,
    StronglySorted (fun x y => Z.sgn (compare d key y) <= Z.sgn (compare d key x)) l ->
    match bsearch l key with
    | Some i => exists r, nth_error l i = Some r /\ compare d key r = 0
    | None => forall r, In r l -> compare d key r <> 0
    end.
  (** the contract of sc_bsearch_range in libsc (sc_search.h): in a sorted array of n + 1
      elements it returns the index i < n with base[i] <= key < base[i + 1], or n when there
      is none *)
  Definition brange_ok : Prop := forall l key, l <> [] -> StronglySorted (fun x y => compare d x y < 0) l ->
    let n := (length l - 1)%nat in
    let inside i := exists x y, nth_error l i = Some x /\ nth_error l (S i) = Some y /\ 0 <= compare d key x /\ compare d key y < 0 in
    (brange l key < n)%nat /\ inside (brange l key) \/ brange l key = n /\ forall i, ~ inside i.
End Find.
