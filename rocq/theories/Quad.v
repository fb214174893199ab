(** * Model of p4est_bits.c / p8est_bits.c

    C integers are modelled by [Z]; [Z.land], [Z.lor], [Z.lxor], [Z.lnot] and
    [Z.shiftr] act on [Z] as the C operators act on two's complement numbers
    in range.  Where the C code casts to an unsigned type or may wrap, the
    functions [u32], [u64], [i32] make this explicit.

    The type [dim] mirrors the preprocessor symbol P4_TO_P8: [D2] is the code
    compiled as p4est, [D3] the same file compiled as p8est.  In 2D the C
    struct has no z member; the model keeps the invariant z = 0 instead. *)

From Coq Require Import ZArith List Bool Lia.
Import ListNotations.
Open Scope Z_scope.

Inductive dim := D2 | D3.

(** P4EST_DIM, P4EST_CHILDREN, P4EST_FACES, P4EST_HALF:
    src/p4est_connectivity.h, src/p8est_connectivity.h *)
Definition dimz (d : dim) : Z := match d with D2 => 2 | D3 => 3 end.
Definition dimn (d : dim) : nat := match d with D2 => 2%nat | D3 => 3%nat end.
Definition children (d : dim) : Z := match d with D2 => 4 | D3 => 8 end.
Definition childrenn (d : dim) : nat := match d with D2 => 4%nat | D3 => 8%nat end.
Definition faces (d : dim) : Z := match d with D2 => 4 | D3 => 6 end.
Definition half (d : dim) : Z := match d with D2 => 2 | D3 => 4 end.

(** src/p4est.h 53-72, src/p8est.h 49-68 *)
Definition MAXLEVEL : Z := 30.
Definition QMAXLEVEL : Z := 29.
Definition ROOT_LEN : Z := Z.shiftl 1 MAXLEVEL.
Definition QLEN (l : Z) : Z := Z.shiftl 1 (MAXLEVEL - l).
Definition LAST_OFFSET (l : Z) : Z := ROOT_LEN - QLEN l.

(** p4est_quadrant_t (src/p4est.h 75-, src/p8est.h 71-), coordinates and level only *)
Record quad := mkq { qx : Z; qy : Z; qz : Z; ql : Z }.

Definition is3 (d : dim) : bool := match d with D2 => false | D3 => true end.

(** casts *)
Definition u32 (a : Z) : Z := a mod 2 ^ 32.
Definition u64 (a : Z) : Z := a mod 2 ^ 64.
Definition i32 (a : Z) : Z := (a + 2 ^ 31) mod 2 ^ 32 - 2 ^ 31.

(** C truth value of an integer *)
Definition nz (a : Z) : bool := negb (a =? 0).

(** p4est_quadrant_is_equal: src/p4est_bits.c 307-320 *)
Definition is_equal (d : dim) (q1 q2 : quad) : bool :=
  (ql q1 =? ql q2) && (qx q1 =? qx q2) && (qy q1 =? qy q2)
  && (negb (is3 d) || (qz q1 =? qz q2)).

(** p4est_quadrant_overlaps: src/p4est_bits.c 336-351 *)
Definition overlaps (d : dim) (q1 q2 : quad) : bool :=
  let level := Z.min (ql q1) (ql q2) in
  let mask := Z.lnot (Z.shiftl 1 (MAXLEVEL - level) - 1) in
  negb (nz (Z.land (Z.lxor (qx q1) (qx q2)) mask)
        || nz (Z.land (Z.lxor (qy q1) (qy q2)) mask)
        || (is3 d && nz (Z.land (Z.lxor (qz q1) (qz q2)) mask))).

(** the int64 position used in p4est_coordinates_compare *)
Definition cpos (a : Z) : Z := a + (if a >=? 0 then 0 else Z.shiftl 1 (MAXLEVEL + 2)).

Definition sgn_diff (p1 p2 : Z) : Z :=
  let diff := p1 - p2 in
  if diff =? 0 then 0 else if diff <? 0 then -1 else 1.

(** p4est_coordinates_compare: src/p4est_bits.c 362-406 *)
Definition coordinates_compare (d : dim) (x1 y1 z1 x2 y2 z2 : Z) : Z :=
  let exclorx := u32 (Z.lxor x1 x2) in
  let exclory := u32 (Z.lxor y1 y2) in
  let exclorxy := Z.lor exclorx exclory in
  let exclorz := match d with D2 => 0 | D3 => u32 (Z.lxor z1 z2) end in
  let exclor := match d with D2 => exclorxy | D3 => Z.lor exclorxy exclorz end in
  if exclor =? 0 then 0
  else if is3 d && (exclorz >? Z.lxor exclor exclorz)
       then sgn_diff (cpos z1) (cpos z2)
  else if exclory >? Z.lxor exclorxy exclory
       then sgn_diff (cpos y1) (cpos y2)
       else sgn_diff (cpos x1) (cpos x2).

(** p4est_quadrant_compare: src/p4est_bits.c 409-434 *)
Definition compare (d : dim) (q1 q2 : quad) : Z :=
  let cd := coordinates_compare d (qx q1) (qy q1) (qz q1) (qx q2) (qy q2) (qz q2) in
  if nz cd then cd else ql q1 - ql q2.

(** p4est_quadrant_disjoint: src/p4est_bits.c 437-453 *)
Definition disjoint (d : dim) (q r : quad) : Z :=
  let level := Z.min (ql q) (ql r) in
  let mask := Z.lnot (Z.shiftl 1 (MAXLEVEL - level) - 1) in
  if nz (Z.land (Z.lxor (qx q) (qx r)) mask)
     || nz (Z.land (Z.lxor (qy q) (qy r)) mask)
     || (is3 d && nz (Z.land (Z.lxor (qz q) (qz r)) mask))
  then compare d q r else 0.

(** p4est_quadrant_compare_piggy: src/p4est_bits.c 456-471; the tree number
    is passed next to the quadrant *)
Definition compare_piggy (d : dim) (t1 : Z) (q1 : quad) (t2 : Z) (q2 : quad) : Z :=
  let diff := t1 - t2 in
  if diff =? 0 then compare d q1 q2 else if diff <? 0 then -1 else 1.

(** p4est_quadrant_contains_node: src/p4est_bits.c 614-629 *)
Definition contains_node (d : dim) (q n : quad) : bool :=
  let qlen := QLEN (ql q) in
  ((qx q <=? qx n) && (qx n <? qx q + qlen))
  && ((qy q <=? qy n) && (qy n <? qy q + qlen))
  && (negb (is3 d) || ((qz q <=? qz n) && (qz n <? qz q + qlen))).

(** p4est_quadrant_ancestor_id: src/p4est_bits.c 632-651 *)
Definition ancestor_id (d : dim) (q : quad) (level : Z) : Z :=
  if level =? 0 then 0
  else
    Z.lor (Z.lor (if nz (Z.land (qx q) (QLEN level)) then 1 else 0)
                 (if nz (Z.land (qy q) (QLEN level)) then 2 else 0))
          (if is3 d && nz (Z.land (qz q) (QLEN level)) then 4 else 0).

(** p4est_quadrant_child_id: src/p4est_bits.c 654-657 *)
Definition child_id (d : dim) (q : quad) : Z := ancestor_id d q (ql q).

(** p4est_quadrant_is_inside_root: src/p4est_bits.c 675-687.  The last
    clause is the representation invariant of the model in 2D. *)
Definition is_inside_root (d : dim) (q : quad) : bool :=
  ((qx q >=? 0) && (qx q <? ROOT_LEN))
  && ((qy q >=? 0) && (qy q <? ROOT_LEN))
  && (if is3 d then (qz q >=? 0) && (qz q <? ROOT_LEN) else qz q =? 0).

(** p4est_quadrant_is_inside_3x3: src/p4est_bits.c 690-702 *)
Definition is_inside_3x3 (d : dim) (q : quad) : bool :=
  ((qx q >=? - ROOT_LEN) && (qx q <=? ROOT_LEN + (ROOT_LEN - 1)))
  && ((qy q >=? - ROOT_LEN) && (qy q <=? ROOT_LEN + (ROOT_LEN - 1)))
  && (if is3 d then (qz q >=? - ROOT_LEN) && (qz q <=? ROOT_LEN + (ROOT_LEN - 1))
      else qz q =? 0).

Definition aligned (d : dim) (q : quad) : bool :=
  (Z.land (qx q) (QLEN (ql q) - 1) =? 0)
  && (Z.land (qy q) (QLEN (ql q) - 1) =? 0)
  && (negb (is3 d) || (Z.land (qz q) (QLEN (ql q) - 1) =? 0)).

(** p4est_quadrant_is_valid: src/p4est_bits.c 771-783 *)
Definition is_valid (d : dim) (q : quad) : bool :=
  ((ql q >=? 0) && (ql q <=? QMAXLEVEL)) && aligned d q && is_inside_root d q.

(** p4est_quadrant_is_extended: src/p4est_bits.c 786-796 *)
Definition is_extended (d : dim) (q : quad) : bool :=
  ((ql q >=? 0) && (ql q <=? QMAXLEVEL)) && aligned d q && is_inside_3x3 d q.

(** p4est_quadrant_is_outside_face: src/p4est_bits.c 705-720 *)
Definition b2z (b : bool) : Z := if b then 1 else 0.
Definition outside_ax (a : Z) : bool := (a <? 0) || (a >=? ROOT_LEN).
Definition is_outside_face (d : dim) (q : quad) : bool :=
  b2z (outside_ax (qx q)) + b2z (outside_ax (qy q))
  + (if is3 d then b2z (outside_ax (qz q)) else 0) =? 1.

(** p4est_quadrant_is_outside_corner: src/p4est_bits.c 723-732 *)
Definition is_outside_corner (d : dim) (q : quad) : bool :=
  outside_ax (qx q) && outside_ax (qy q) && (negb (is3 d) || outside_ax (qz q)).

(** p8est_quadrant_is_outside_edge: src/p8est_bits.c 29-38 *)
Definition is_outside_edge (q : quad) : bool :=
  b2z (outside_ax (qx q)) + b2z (outside_ax (qy q)) + b2z (outside_ax (qz q)) =? 2.

(** p4est_quadrant_parent: src/p4est_bits.c 1256-1268 *)
Definition parent (d : dim) (q : quad) : quad :=
  let m := Z.lnot (QLEN (ql q)) in
  mkq (Z.land (qx q) m) (Z.land (qy q) m)
      (if is3 d then Z.land (qz q) m else qz q) (ql q - 1).

(** p4est_quadrant_ancestor: src/p4est_bits.c 1240-1253 *)
Definition ancestor (d : dim) (q : quad) (level : Z) : quad :=
  let m := Z.lnot (QLEN level - 1) in
  mkq (Z.land (qx q) m) (Z.land (qy q) m)
      (if is3 d then Z.land (qz q) m else qz q) level.

(** p4est_quadrant_sibling: src/p4est_bits.c 1271-1292 *)
Definition sibling (d : dim) (q : quad) (sid : Z) : quad :=
  let addx := Z.land sid 1 in
  let addy := Z.shiftr (Z.land sid 2) 1 in
  let addz := Z.shiftr (Z.land sid 4) 2 in
  let shift := QLEN (ql q) in
  mkq (if nz addx then Z.lor (qx q) shift else Z.land (qx q) (Z.lnot shift))
      (if nz addy then Z.lor (qy q) shift else Z.land (qy q) (Z.lnot shift))
      (if is3 d then
         (if nz addz then Z.lor (qz q) shift else Z.land (qz q) (Z.lnot shift))
       else qz q)
      (ql q).

(** p4est_quadrant_child: src/p4est_bits.c 1295-1311 *)
Definition child (d : dim) (q : quad) (cid : Z) : quad :=
  let shift := QLEN (ql q + 1) in
  mkq (if nz (Z.land cid 1) then Z.lor (qx q) shift else qx q)
      (if nz (Z.land cid 2) then Z.lor (qy q) shift else qy q)
      (if is3 d && nz (Z.land cid 4) then Z.lor (qz q) shift else qz q)
      (ql q + 1).

(** p4est_quadrant_children / childrenv: src/p4est_bits.c 1742-1842 *)
Definition childrenv (d : dim) (q : quad) : list quad :=
  let level := ql q + 1 in
  let inc := QLEN level in
  let c0 := mkq (qx q) (qy q) (qz q) level in
  let c1 := mkq (Z.lor (qx c0) inc) (qy c0) (qz c0) level in
  let c2 := mkq (qx c0) (Z.lor (qy c0) inc) (qz c0) level in
  let c3 := mkq (qx c1) (qy c2) (qz c0) level in
  match d with
  | D2 => [c0; c1; c2; c3]
  | D3 =>
    let c4 := mkq (qx c0) (qy c0) (Z.lor (qz c0) inc) level in
    let c5 := mkq (qx c1) (qy c1) (qz c4) level in
    let c6 := mkq (qx c2) (qy c2) (qz c4) level in
    let c7 := mkq (qx c3) (qy c3) (qz c4) level in
    [c0; c1; c2; c3; c4; c5; c6; c7]
  end.

(** p4est_quadrant_is_sibling: src/p4est_bits.c 799-836 *)
Definition is_sibling (d : dim) (q1 q2 : quad) : bool :=
  if ql q1 =? 0 then false
  else
    let ex := Z.lxor (qx q1) (qx q2) in
    let ey := Z.lxor (qy q1) (qy q2) in
    let ez := Z.lxor (qz q1) (qz q2) in
    if (ex =? 0) && (ey =? 0) && (negb (is3 d) || (ez =? 0)) then false
    else
      let m := Z.lnot (QLEN (ql q1)) in
      (ql q1 =? ql q2)
      && (Z.land ex m =? 0) && (Z.land ey m =? 0)
      && (negb (is3 d) || (Z.land ez m =? 0)).

(** p4est_quadrant_is_sibling_D: src/p4est_bits.c 839-858 *)
Definition is_sibling_D (d : dim) (q1 q2 : quad) : bool :=
  if ql q1 =? 0 then false
  else if is_equal d q1 q2 then false
  else is_equal d (parent d q1) (parent d q2).

(** p4est_quadrant_is_family (2D): src/p4est_bits.c 863-885;
    (3D): src/p8est_bits.c 81-118; via p4est_quadrant_is_familyv 889-897 *)
Definition is_familyv (d : dim) (q : nat -> quad) : bool :=
  let level := ql (q 0%nat) in
  let x i := qx (q i) in let y i := qy (q i) in let z i := qz (q i) in
  let lv i := level =? ql (q i) in
  let inc := QLEN level in
  match d with
  | D2 =>
    if (level =? 0) || negb (lv 1%nat) || negb (lv 2%nat) || negb (lv 3%nat) then false
    else ((x 0%nat + inc =? x 1%nat) && (y 0%nat =? y 1%nat))
         && ((x 0%nat =? x 2%nat) && (y 0%nat + inc =? y 2%nat))
         && ((x 1%nat =? x 3%nat) && (y 2%nat =? y 3%nat))
  | D3 =>
    if (level =? 0) || negb (lv 1%nat) || negb (lv 2%nat) || negb (lv 3%nat)
       || negb (lv 4%nat) || negb (lv 5%nat) || negb (lv 6%nat) || negb (lv 7%nat) then false
    else ((x 0%nat + inc =? x 1%nat) && (y 0%nat =? y 1%nat) && (z 0%nat =? z 1%nat))
         && ((x 0%nat =? x 2%nat) && (y 0%nat + inc =? y 2%nat) && (z 0%nat =? z 2%nat))
         && ((x 1%nat =? x 3%nat) && (y 2%nat =? y 3%nat) && (z 0%nat =? z 3%nat))
         && ((x 0%nat =? x 4%nat) && (y 0%nat =? y 4%nat) && (z 0%nat + inc =? z 4%nat))
         && ((x 1%nat =? x 5%nat) && (y 1%nat =? y 5%nat) && (z 4%nat =? z 5%nat))
         && ((x 2%nat =? x 6%nat) && (y 2%nat =? y 6%nat) && (z 4%nat =? z 6%nat))
         && ((x 3%nat =? x 7%nat) && (y 3%nat =? y 7%nat) && (z 4%nat =? z 7%nat))
  end.

(** p4est_quadrant_is_parent: src/p4est_bits.c 910-924 *)
Definition is_parent (d : dim) (q r : quad) : bool :=
  let m := Z.lnot (QLEN (ql r)) in
  (ql q + 1 =? ql r)
  && (qx q =? Z.land (qx r) m) && (qy q =? Z.land (qy r) m)
  && (negb (is3 d) || (qz q =? Z.land (qz r) m)).

(** p4est_quadrant_is_parent_D: src/p4est_bits.c 927-943 *)
Definition is_parent_D (d : dim) (q r : quad) : bool :=
  if ql r =? 0 then false else is_equal d q (parent d r).

(** p4est_quadrant_is_ancestor: src/p4est_bits.c 946-971 *)
Definition is_ancestor (d : dim) (q r : quad) : bool :=
  if ql q >=? ql r then false
  else
    let s := MAXLEVEL - ql q in
    (Z.shiftr (Z.lxor (qx q) (qx r)) s =? 0)
    && (Z.shiftr (Z.lxor (qy q) (qy r)) s =? 0)
    && (negb (is3 d) || (Z.shiftr (Z.lxor (qz q) (qz r)) s =? 0)).

(** p4est_quadrant_first_descendant: src/p4est_bits.c 1844-1856 *)
Definition first_descendant (d : dim) (q : quad) (level : Z) : quad :=
  mkq (qx q) (qy q) (qz q) level.

(** p4est_quadrant_last_descendant: src/p4est_bits.c 1859-1875 *)
Definition last_descendant (d : dim) (q : quad) (level : Z) : quad :=
  let shift := QLEN (ql q) - QLEN level in
  mkq (qx q + shift) (qy q + shift) (if is3 d then qz q + shift else qz q) level.

(** p4est_quadrant_corner_descendant: src/p4est_bits.c 1878-1890 *)
Definition corner_descendant (d : dim) (q : quad) (c level : Z) : quad :=
  let shift := QLEN (ql q) - QLEN level in
  mkq (qx q + (if nz (Z.land c 1) then shift else 0))
      (qy q + (if nz (Z.land (Z.shiftr c 1) 1) then shift else 0))
      (if is3 d then qz q + (if nz (Z.shiftr c 2) then shift else 0) else qz q)
      level.

(** SC_LOG2_32 (libsc, table driven): index of the most significant bit, -1 for 0 *)
Definition LOG2_32 (a : Z) : Z := if a =? 0 then -1 else Z.log2 a.

(** p4est_nearest_common_ancestor: src/p4est_bits.c 1893-1929 *)
Definition nearest_common_ancestor (d : dim) (q1 q2 : quad) : quad :=
  let ex := u32 (Z.lxor (qx q1) (qx q2)) in
  let ey := u32 (Z.lxor (qy q1) (qy q2)) in
  let maxclor :=
    match d with
    | D2 => Z.lor ex ey
    | D3 => Z.lor (Z.lor ex ey) (u32 (Z.lxor (qz q1) (qz q2)))
    end in
  let maxlevel := LOG2_32 maxclor + 1 in
  let m := Z.lnot (Z.shiftl 1 maxlevel - 1) in
  mkq (Z.land (qx q1) m) (Z.land (qy q1) m)
      (if is3 d then Z.land (qz q1) m else qz q1)
      (Z.min (MAXLEVEL - maxlevel) (Z.min (ql q1) (ql q2))).

(** p4est_nearest_common_ancestor_D: src/p4est_bits.c 1932-1966; the first two
    loops promote the deeper quadrant, the third walks both to their parents.
    The fuel bounds the number of loop iterations; [None] is non-termination
    within the fuel. *)
Fixpoint promote (d : dim) (fuel : nat) (s : quad) (target : Z) : option quad :=
  match fuel with
  | O => None
  | S f => if ql s >? target then promote d f (parent d s) target else Some s
  end.

Fixpoint nca_walk (d : dim) (fuel : nat) (s1 s2 : quad) : option quad :=
  match fuel with
  | O => None
  | S f => if is_equal d s1 s2 then Some s1 else nca_walk d f (parent d s1) (parent d s2)
  end.

Definition nearest_common_ancestor_D (d : dim) (q1 q2 : quad) : option quad :=
  match promote d 64 q1 (ql q2) with
  | None => None
  | Some s1 =>
    match promote d 64 q2 (ql s1) with
    | None => None
    | Some s2 => nca_walk d 64 s1 s2
    end
  end.

(** p4est_quadrant_is_ancestor_D: src/p4est_bits.c 974-988 *)
Definition is_ancestor_D (d : dim) (q r : quad) : option bool :=
  if is_equal d q r then Some false
  else match nearest_common_ancestor_D d q r with
       | None => None
       | Some s => Some (is_equal d q s)
       end.

(** p4est_quadrant_linear_id: src/p4est_bits.c 2347-2376.  The loop over i
    runs upwards from 0 to level + 1; the id is a uint64. *)
Definition lid_step (d : dim) (x y z : Z) (id : Z) (i : nat) : Z :=
  let i := Z.of_nat i in
  let b := Z.shiftl 1 i in
  let id := Z.lor id (u64 (Z.shiftl (Z.land x b) ((dimz d - 1) * i))) in
  let id := Z.lor id (u64 (Z.shiftl (Z.land y b) ((dimz d - 1) * i + 1))) in
  match d with
  | D2 => id
  | D3 => Z.lor id (u64 (Z.shiftl (Z.land z b) ((dimz d - 1) * i + 2)))
  end.

Definition linear_id (d : dim) (q : quad) (level : Z) : Z :=
  let x := u64 (Z.shiftr (qx q) (MAXLEVEL - level)) in
  let y := u64 (Z.shiftr (qy q) (MAXLEVEL - level)) in
  let z := u64 (Z.shiftr (qz q) (MAXLEVEL - level)) in
  fold_left (lid_step d x y z) (seq 0 (Z.to_nat (level + 2))) 0.

(** p4est_quadrant_linear_id_ext128: src/p4est_bits.c 2379-2409; the id is a
    uint64 in 2D and a 128 bit integer in 3D, so that no bit is lost. *)
Definition lid128_step (d : dim) (x y z : Z) (id : Z) (i : nat) : Z :=
  let i := Z.of_nat i in
  let b := Z.shiftl 1 i in
  let id := if nz (Z.land x b) then Z.lor id (Z.shiftl 1 (dimz d * i)) else id in
  let id := if nz (Z.land y b) then Z.lor id (Z.shiftl 1 (dimz d * i + 1)) else id in
  match d with
  | D2 => id
  | D3 => if nz (Z.land z b) then Z.lor id (Z.shiftl 1 (dimz d * i + 2)) else id
  end.

Definition linear_id_ext128 (d : dim) (q : quad) (level : Z) : Z :=
  let x := u64 (Z.shiftr (qx q) (MAXLEVEL - level)) in
  let y := u64 (Z.shiftr (qy q) (MAXLEVEL - level)) in
  let z := u64 (Z.shiftr (qz q) (MAXLEVEL - level)) in
  fold_left (lid128_step d x y z) (seq 0 (Z.to_nat (level + 2))) 0.

(** p4est_quadrant_set_morton: src/p4est_bits.c 2412-2457; the cast to
    p4est_qcoord_t and the final shift are 32 bit operations ([i32]). *)
Definition sm_coord (d : dim) (id : Z) (off : Z) (n : nat) : Z :=
  fold_left
    (fun c i => let i := Z.of_nat i in
       Z.lor c (i32 (Z.shiftr (Z.land id (Z.shiftl 1 (dimz d * i + off)))
                              ((dimz d - 1) * i + off))))
    (seq 0 n) 0.

Definition set_morton (d : dim) (level id : Z) : quad :=
  let n := Z.to_nat (level + 2) in
  let s := MAXLEVEL - level in
  mkq (i32 (Z.shiftl (sm_coord d id 0 n) s))
      (i32 (Z.shiftl (sm_coord d id 1 n) s))
      (if is3 d then i32 (Z.shiftl (sm_coord d id 2 n) s) else 0)
      level.

(** p4est_quadrant_set_morton_ext128: src/p4est_bits.c 2460-2515 *)
Definition sm128_coord (d : dim) (id : Z) (off : Z) (n : nat) : Z :=
  fold_left
    (fun c i => let i := Z.of_nat i in
       if Z.testbit id (dimz d * i + off) then Z.lor c (i32 (Z.shiftl 1 i)) else c)
    (seq 0 n) 0.

Definition set_morton_ext128 (d : dim) (level id : Z) : quad :=
  let n := Z.to_nat (level + 2) in
  let s := MAXLEVEL - level in
  mkq (i32 (Z.shiftl (sm128_coord d id 0 n) s))
      (i32 (Z.shiftl (sm128_coord d id 1 n) s))
      (if is3 d then i32 (Z.shiftl (sm128_coord d id 2 n) s) else 0)
      level.

(** p4est_quadrant_is_next: src/p4est_bits.c 991-1024 *)
Definition is_next (d : dim) (q r : quad) : bool :=
  let mask := QLEN (ql r) - QLEN (ql q) in
  if (ql q >? ql r)
     && (negb (Z.land (qx q) mask =? mask)
         || negb (Z.land (qy q) mask =? mask)
         || (is3 d && negb (Z.land (qz q) mask =? mask)))
  then false
  else
    let minlevel := if ql q >? ql r then ql r else ql q in
    linear_id_ext128 d q minlevel + 1 =? linear_id_ext128 d r minlevel.

(** p4est_quadrant_is_next_D: src/p4est_bits.c 1026-1052.  The while loop
    lowers the level of a; fuel 64 bounds its iterations ([None]: exceeded). *)
Fixpoint next_D_walk (d : dim) (fuel : nat) (a b : quad) : option bool :=
  match fuel with
  | O => None
  | S f =>
    if ql a >? ql b then
      if negb (child_id d a =? children d - 1) then Some false
      else next_D_walk d f (parent d a) b
    else Some (linear_id_ext128 d a (ql a) + 1 =? linear_id_ext128 d b (ql a))
  end.

Definition is_next_D (d : dim) (q r : quad) : option bool :=
  if compare d q r >=? 0 then Some false else next_D_walk d 64 q r.

(** p4est_quadrant_overlaps_tree: src/p4est_bits.c 1054-1077.  The tree is
    given by its number of quadrants, first_desc and last_desc. *)
Definition overlaps_tree (d : dim) (count : Z) (fd ld : quad) (q : quad) : bool :=
  if count =? 0 then false
  else if compare d (last_descendant d q QMAXLEVEL) fd <? 0 then false
  else if compare d ld q <? 0 then false else true.

(** p4est_quadrant_is_inside_tree: src/p4est_bits.c 1079-1108 *)
Definition is_inside_tree (d : dim) (count : Z) (fd ld : quad) (q : quad) : bool :=
  if count =? 0 then false
  else if compare d (first_descendant d q QMAXLEVEL) fd <? 0 then false
  else if compare d ld q <? 0 then false else true.

(** p4est_quadrant_successor: src/p4est_bits.c 2518-2561.  [None]: the loop
    runs below level 1 (excluded by the assertion level > 0). *)
Fixpoint succ_level (d : dim) (q : quad) (level : nat) : option (nat * Z) :=
  match level with
  | O => None
  | S l' =>
    let sid := ancestor_id d q (Z.of_nat level) + 1 in
    if sid =? children d then succ_level d q l' else Some (level, sid)
  end.

Definition successor (d : dim) (q : quad) : option quad :=
  match succ_level d q (Z.to_nat (ql q)) with
  | None => None
  | Some (level, sid) =>
    let level := Z.of_nat level in
    if level <? ql q then
      let len := QLEN level in
      let mask := Z.lnot (QLEN (level - 1) - 1) in
      Some (mkq (if nz (Z.land sid 1) then Z.land (qx q) mask + len else Z.land (qx q) mask)
                (if nz (Z.land sid 2) then Z.land (qy q) mask + len else Z.land (qy q) mask)
                (if is3 d then
                   if nz (Z.land sid 4) then Z.land (qz q) mask + len else Z.land (qz q) mask
                 else qz q)
                (ql q))
    else Some (sibling d q sid)
  end.

(** p4est_quadrant_predecessor: src/p4est_bits.c 2564-2614 *)
Fixpoint pred_level (d : dim) (q : quad) (level : nat) : option (nat * Z) :=
  match level with
  | O => None
  | S l' =>
    let pid := ancestor_id d q (Z.of_nat level) - 1 in
    if pid =? -1 then pred_level d q l' else Some (level, pid)
  end.

Definition predecessor (d : dim) (q : quad) : option quad :=
  match pred_level d q (Z.to_nat (ql q)) with
  | None => None
  | Some (level, pid) =>
    let level := Z.of_nat level in
    if level <? ql q then
      let len := QLEN level in
      let sld := len - QLEN (ql q) in
      let sc := sld + len in
      let mask := Z.lnot (QLEN (level - 1) - 1) in
      Some (mkq (if nz (Z.land pid 1) then Z.land (qx q) mask + sc else Z.land (qx q) mask + sld)
                (if nz (Z.land pid 2) then Z.land (qy q) mask + sc else Z.land (qy q) mask + sld)
                (if is3 d then
                   if nz (Z.land pid 4) then Z.land (qz q) mask + sc else Z.land (qz q) mask + sld
                 else qz q)
                (ql q))
    else Some (sibling d q pid)
  end.

(** p4est_quadrant_is_first_last: src/p4est_bits.c 1111-1145 *)
Definition is_first_last (d : dim) (f l a : quad) : bool :=
  if negb (qx a =? qx f) || negb (qy a =? qy f) || (is3 d && negb (qz a =? qz f)) then false
  else
    let w := QLEN (ql a) - QLEN (ql l) in
    if negb (qx a + w =? qx l) || negb (qy a + w =? qy l) || (is3 d && negb (qz a + w =? qz l))
    then false else true.

(** p4est_quadrant_enlarge_first: src/p4est_bits.c 1148-1177; the loop
    decrements the level, structurally on a natural number level *)
Fixpoint enlarge_first_level (a w : Z) (l : nat) : Z :=
  match l with
  | O => 0
  | S l' => if (a <? Z.of_nat l) && (Z.land w (QLEN (Z.of_nat l)) =? 0)
            then enlarge_first_level a w l' else Z.of_nat l
  end.

Definition enlarge_first (d : dim) (a q : quad) : quad :=
  let w := Z.lor (Z.lor (qx q) (qy q)) (if is3 d then qz q else 0) in
  mkq (qx q) (qy q) (qz q) (enlarge_first_level (ql a) w (Z.to_nat (ql q))).

(** p4est_quadrant_enlarge_last: src/p4est_bits.c 1180-1222 *)
Fixpoint enlarge_last_level (a w : Z) (l : nat) : Z :=
  match l with
  | O => 0
  | S l' => if (a <? Z.of_nat l) && nz (Z.land w (QLEN (Z.of_nat l)))
            then enlarge_last_level a w l' else Z.of_nat l
  end.

Definition enlarge_last (d : dim) (a q : quad) : quad :=
  let w := match d with D2 => Z.land (qx q) (qy q)
                      | D3 => Z.land (Z.land (qx q) (qy q)) (qz q) end in
  let l := enlarge_last_level (ql a) w (Z.to_nat (ql q)) in
  let m := Z.lnot (QLEN l - QLEN (ql q)) in
  mkq (Z.land (qx q) m) (Z.land (qy q) m)
      (if is3 d then Z.land (qz q) m else qz q) l.

(** p4est_quadrant_face_neighbor: src/p4est_bits.c 1333-1348 *)
Definition face_neighbor (d : dim) (q : quad) (face : Z) : quad :=
  let qh := QLEN (ql q) in
  mkq (qx q + (if face =? 0 then - qh else if face =? 1 then qh else 0))
      (qy q + (if face =? 2 then - qh else if face =? 3 then qh else 0))
      (if is3 d then qz q + (if face =? 4 then - qh else if face =? 5 then qh else 0) else qz q)
      (ql q).

(** p4est_quadrant_corner_neighbor: src/p4est_bits.c 1516-1531 *)
Definition corner_neighbor (d : dim) (q : quad) (corner : Z) : quad :=
  let qh := QLEN (ql q) in
  mkq (qx q + (2 * Z.land corner 1 - 1) * qh)
      (qy q + (Z.land corner 2 - 1) * qh)
      (if is3 d then qz q + (Z.land corner 4 / 2 - 1) * qh else qz q)
      (ql q).

(** p4est_quadrant_half_face_neighbors: src/p4est_bits.c 1388-1455, array n;
    i ranges over 0 .. P4EST_HALF - 1 *)
Definition half_face_neighbor (d : dim) (q : quad) (face i : Z) : quad :=
  let qh := QLEN (ql q) in
  let qh2 := QLEN (ql q + 1) in
  let x0 := qx q + (if face =? 0 then - qh2 else if face =? 1 then qh else 0) in
  let y0 := qy q + (if face =? 2 then - qh2 else if face =? 3 then qh else 0) in
  let z0 := if is3 d then qz q + (if face =? 4 then - qh2 else if face =? 5 then qh else 0) else qz q in
  let i1 := Z.land i 1 * qh2 in
  let i2 := (Z.land i 2 / 2) * qh2 in
  let l := ql q + 1 in
  match face / 2 with
  | 0 => mkq x0 (y0 + i1) (if is3 d then z0 + i2 else z0) l
  | 1 => mkq (x0 + i1) y0 (if is3 d then z0 + i2 else z0) l
  | _ => mkq (x0 + i1) (y0 + i2) z0 l
  end.

(** p4est_quadrant_half_corner_neighbor: src/p4est_bits.c 1695-1712 *)
Definition half_corner_neighbor (d : dim) (q : quad) (corner : Z) : quad :=
  let qh := QLEN (ql q) in
  let mqh2 := - QLEN (ql q + 1) in
  mkq (qx q + (if nz (Z.land corner 1) then qh else mqh2))
      (qy q + (if nz (Z.land corner 2) then qh else mqh2))
      (if is3 d then qz q + (if nz (Z.land corner 4) then qh else mqh2) else qz q)
      (ql q + 1).

(** p4est_quadrant_corner_node: src/p4est_bits.c 1715-1730 *)
Definition corner_node (d : dim) (q : quad) (corner : Z) : quad :=
  let qh := QLEN (ql q) in
  mkq (qx q + Z.land corner 1 * qh)
      (qy q + Z.shiftr (Z.land corner 2) 1 * qh)
      (if is3 d then qz q + Z.shiftr (Z.land corner 4) 2 * qh else qz q)
      MAXLEVEL.

(** p4est_quadrant_touches_corner: src/p4est_bits.c 2159-2206 *)
Definition touches_corner (d : dim) (q : quad) (corner : Z) (inside : bool) : bool :=
  let lower := if ql q =? MAXLEVEL then 0 else if inside then 0 else - QLEN (ql q) in
  let upper := if ql q =? MAXLEVEL then ROOT_LEN - (if inside then 1 else 0)
               else if inside then LAST_OFFSET (ql q) else ROOT_LEN in
  let c a side := if side =? 0 then b2z (a =? lower) else b2z (a =? upper) in
  c (qx q) (Z.land corner 1) + c (qy q) (Z.land (Z.shiftr corner 1) 1)
  + (if is3 d then c (qz q) (Z.shiftr corner 2) else 0) =? dimz d.

(** p4est_quadrant_transform_corner: src/p4est_bits.c 2241-2264 *)
Definition transform_corner (d : dim) (q : quad) (corner : Z) (inside : bool) : quad :=
  let s0 := if ql q =? MAXLEVEL then 0 else if inside then 0 else - QLEN (ql q) in
  let s1 := if ql q =? MAXLEVEL then ROOT_LEN
            else if inside then LAST_OFFSET (ql q) else ROOT_LEN in
  let sh side := if side =? 0 then s0 else s1 in
  mkq (sh (Z.land corner 1)) (sh (Z.land (Z.shiftr corner 1) 1))
      (if is3 d then sh (Z.shiftr corner 2) else qz q) (ql q).
