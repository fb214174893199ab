(** * Model of p4est_find_range_boundaries: src/p4est_search.c 298-580 *)

From Coq Require Import ZArith List Bool.
From Verif Require Import Quad Partition.
Import ListNotations.
Open Scope Z_scope.

(** p4est_corner_boundaries, lines 299-323: the bits of the faces, edges and
    corners that child cid touches *)
Definition corner_boundaries (d : dim) : list Z :=
  match d with
  | D2 => [0x15; 0x26; 0x49; 0x8a]
  | D3 => [0x00044455; 0x00088856; 0x00110499; 0x0022089a; 0x00405125; 0x0080a126; 0x01011229; 0x0202222a]
  end.

(** p4est_all_boundaries, lines 307 and 323 *)
Definition all_boundaries (d : dim) : Z := match d with D2 => 0x000000ff | D3 => 0x03ffffff end.

(** the while loop of p4est_limit_boundaries, lines 340-343; None: the table is
    accessed out of bounds or the fuel runs out *)
Fixpoint sweep (d : dim) (fuel : nat) (dir limit mask cid touch : Z) : option Z :=
  match fuel with
  | O => None
  | S fuel' =>
    if cid =? limit then Some touch
    else match zget (corner_boundaries d) cid with
         | None => None
         | Some b => sweep d fuel' dir limit mask (cid + dir) (Z.lor touch (Z.land b mask))
         end
  end.

(** p4est_limit_boundaries: lines 325-351; the fuel bounds the recursion *)
Fixpoint limit_boundaries (d : dim) (fuel : nat) (q : quad) (dir limit last_level level touch mask : Z) : option Z :=
  match fuel with
  | O => None
  | S fuel' =>
    if Z.land mask (Z.lnot touch) =? 0 then Some touch
    else
      let cid := ancestor_id d q level in
      match zget (corner_boundaries d) cid with
      | None => None
      | Some b =>
        let next := Z.land b mask in
        match sweep d 9 dir limit mask (cid + dir) touch with
        | None => None
        | Some touch =>
          if level =? last_level then Some (Z.lor touch next)
          else limit_boundaries d fuel' q dir limit last_level (level + 1) touch next
        end
      end
  end.

(** the loop that counts trailing bits, lines 389-393 and three more times *)
Fixpoint count_ones (fuel : nat) (a count : Z) : option Z :=
  match fuel with
  | O => None
  | S fuel' => if nz (Z.land a 1) && (count <=? MAXLEVEL) then count_ones fuel' (Z.shiftr a 1) (count + 1) else Some count
  end.

(** lines 377-394 (the same in four places): the level below which the child
    ids of q's ancestors are the same *)
Definition find_last_level (d : dim) (q : quad) : option Z :=
  let shift := QLEN QMAXLEVEL in
  let cid := child_id d q in
  let x := qx q + (if nz (Z.land cid 1) then shift else 0) in
  let y := qy q + (if nz (Z.land (Z.shiftr cid 1) 1) then shift else 0) in
  let z := qz q + (if nz (Z.shiftr cid 2) then shift else 0) in
  let a := Z.lnot (match d with D2 => Z.lor x y | D3 => Z.lor (Z.lor x y) z end) in
  match count_ones 32 a 0 with
  | None => None
  | Some count => Some (MAXLEVEL - count + 1)
  end.

(** the for loop, lines 373-375: [i] runs to ucid - 1 *)
Fixpoint between (d : dim) (fuel : nat) (ucid mask i touch : Z) : option Z :=
  match fuel with
  | O => None
  | S fuel' =>
    if i <? ucid then
      match zget (corner_boundaries d) i with
      | None => None
      | Some b => between d fuel' ucid mask (i + 1) (Z.lor touch (Z.land b mask))
      end
    else Some touch
  end.

(** lines 395-402 and 418-425: one end of the range below the level at which
    the ends differ *)
Definition range_end (d : dim) (q : quad) (dir limit level touch next : Z) : option Z :=
  match find_last_level d q with
  | None => None
  | Some last_level =>
    if last_level <=? level then Some (Z.lor touch next)
    else match limit_boundaries d 31 q dir limit last_level (level + 1) touch next with
         | None => None
         | Some t => Some (Z.lor touch t)
         end
  end.

(** p4est_range_boundaries: lines 353-433 *)
Fixpoint range_boundaries (d : dim) (fuel : nat) (lq uq : quad) (alevel level mask : Z) : option Z :=
  match fuel with
  | O => None
  | S fuel' =>
    if mask =? 0 then Some 0
    else if level =? alevel + 1 then
      let lcid := ancestor_id d lq level in
      let ucid := ancestor_id d uq level in
      match zget (corner_boundaries d) lcid, zget (corner_boundaries d) ucid with
      | Some lb, Some ub =>
        let lnext := Z.land lb mask in
        let unext := Z.land ub mask in
        match between d 9 ucid mask (lcid + 1) 0 with
        | None => None
        | Some touch =>
          match range_end d lq 1 (children d) level touch lnext with
          | None => None
          | Some touch => range_end d uq (-1) (-1) level touch unext
          end
        end
      | _, _ => None
      end
    else
      match zget (corner_boundaries d) (ancestor_id d lq level) with
      | None => None
      | Some b => range_boundaries d fuel' lq uq alevel (level + 1) (Z.land b mask)
      end
  end.

(** lines 463-488 and 490-516: one end of the range is open *)
Definition open_range (d : dim) (q : quad) (dir limit level : Z) : option Z :=
  match find_last_level d q with
  | None => None
  | Some last_level =>
    let last_level := if last_level <=? level then level + 1 else last_level in
    limit_boundaries d 31 q dir limit last_level (level + 1) 0 (all_boundaries d)
  end.

(** p4est_find_range_boundaries: lines 443-527; None for lq or uq is NULL.  The
    bits of the result are copied to the arrays faces, edges and corners if
    these are not NULL, lines 529-557, which is left out. *)
Definition find_range_boundaries (d : dim) (lq uq : option quad) (level : Z) : option Z :=
  if match lq, uq with None, None => true | _, _ => level =? QMAXLEVEL end then Some (all_boundaries d)
  else
    match lq, uq with
    | None, Some uq => open_range d uq (-1) (-1) level
    | Some lq, None => open_range d lq 1 (children d) level
    | Some lq, Some uq =>
      let a := nearest_common_ancestor d lq uq in
      range_boundaries d 31 lq uq (ql a) (level + 1) (all_boundaries d)
    | None, None => None
    end.
