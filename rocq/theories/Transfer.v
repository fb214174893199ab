(** * Model of the data transfer between partitions (src/p4est_communication.c 1011-1478)

    A buffer is a list of bytes.  Each rank computes the messages it waits for
    and the messages it sends; [transfer_with] connects the ranks.  A message is
    (peer, offset in the buffer, length).  There is at most one message from
    one rank to another, see C19_transfer, so that matching by sender and tag
    in MPI means looking up the message of the sender to this rank.  None stands
    for access outside an array, for a message that never arrives, and for a
    message longer than the buffer provided for it. *)

From Coq Require Import ZArith List Bool Lia Arith.
From Verif Require Import Partition Comm.
Import ListNotations.
Open Scope Z_scope.

(** the loop over the peer processes, lines 1066-1103 and 1123-1160 (fixed),
    1296-1339 and 1363-1406 (variable): peer, gbegin, gend *)
Fixpoint walk (gfq : list Z) (fin gend q : Z) (n : nat) : option (list (Z * Z * Z)) :=
  match n with
  | O => Some []
  | S n' =>
    match zget gfq (q + 1) with
    | None => None
    | Some e => let g := if e >? fin then fin else e in
                match walk gfq fin g (q + 1) n' with
                | None => None
                | Some w => Some ((q, gend, g) :: w)
                end
    end
  end.

(** the subset of processes for the elements b..e-1: lines 1052-1064 and
    1109-1121, 1277-1294 and 1344-1361 *)
Definition peers (gfq : list Z) (P b e : Z) : option (list (Z * Z * Z)) :=
  if b <? e then
    let first := bsearch_partition b gfq P in
    let last := bsearch_partition (e - 1) (skipn (Z.to_nat first) gfq) (P - first) + first in
    walk gfq e b first (trips first last)
  else Some [].

(** messages with elements of fixed size, lines 1080-1102 and 1137-1159.
    A message to the rank itself is the local copy. *)
Fixpoint msgs_fixed (ds : Z) (w : list (Z * Z * Z)) (rb : Z) : list (Z * Z * Z) :=
  match w with
  | [] => []
  | (q, g, g') :: w' =>
    if g =? g' then msgs_fixed ds w' rb
    else (q, rb, (g' - g) * ds) :: msgs_fixed ds w' (rb + (g' - g) * ds)
  end.

(** messages with elements of variable size, lines 1311-1338 and 1378-1405;
    [rs] is the rest of the array of sizes *)
Definition sumz (l : list Z) : Z := fold_right Z.add 0 l.
Fixpoint msgs_var (item : Z) (w : list (Z * Z * Z)) (rs : list Z) (rb : Z) : option (list (Z * Z * Z)) :=
  match w with
  | [] => Some []
  | (q, g, g') :: w' =>
    match slice rs 0 (g' - g) with
    | None => None
    | Some s =>
      let byte_len := sumz (map (Z.mul item) s) in
      if byte_len =? 0 then msgs_var item w' (skipn (Z.to_nat (g' - g)) rs) rb
      else match msgs_var item w' (skipn (Z.to_nat (g' - g)) rs) (rb + byte_len) with
           | None => None
           | Some m => Some ((q, rb, byte_len) :: m)
           end
    end
  end.

(** both directions of p4est_transfer_fixed_begin on rank r, lines 1040-1163 *)
Definition fixed_msgs (mine other : list Z) (P ds r : Z) : option (list (Z * Z * Z)) :=
  match zget mine r, zget mine (r + 1) with
  | Some b, Some e => option_map (fun w => msgs_fixed ds w 0) (peers other P b e)
  | _, _ => None
  end.
Definition fixed_recvs (dest_gfq src_gfq : list Z) (P ds r : Z) := fixed_msgs dest_gfq src_gfq P ds r.
Definition fixed_sends (dest_gfq src_gfq : list Z) (P ds r : Z) := fixed_msgs src_gfq dest_gfq P ds r.

(** both directions of p4est_transfer_begin on rank r, lines 1265-1408 *)
Definition var_msgs (mine other : list Z) (P item : Z) (sizes : list Z) (r : Z) : option (list (Z * Z * Z)) :=
  match zget mine r, zget mine (r + 1) with
  | Some b, Some e => match peers other P b e with None => None | Some w => msgs_var item w sizes 0 end
  | _, _ => None
  end.

Fixpoint find_msg (r : Z) (l : list (Z * Z * Z)) : option (Z * Z) :=
  match l with
  | [] => None
  | (q, off, len) :: l' => if q =? r then Some (off, len) else find_msg r l'
  end.

(** receiving the messages of a rank and the local copy, lines 1165-1170 and
    1183-1193.  The writes are done in the order of the peers here; they do not
    overlap, see C20. *)
Fixpoint deliver {B} (r : Z) (sends : Z -> option (list (Z * Z * Z))) (src : Z -> list B)
    (ms : list (Z * Z * Z)) (dest : list B) : option (list B) :=
  match ms with
  | [] => Some dest
  | (q, off, len) :: ms' =>
    match sends q with
    | None => None
    | Some ss =>
      match find_msg r ss with
      | None => None
      | Some (soff, slen) =>
        (* the local copy uses the length of the receiver *)
        let n := if q =? r then len else slen in
        if n <=? len then
          match slice (src q) soff n with
          | None => None
          | Some s => match blit dest off s with None => None | Some dest' => deliver r sends src ms' dest' end
          end
        else None
      end
    end
  end.

(** p4est_transfer_fixed, lines 978-991 and 1011-1208: the destination buffer of rank r afterwards *)
Definition transfer_fixed {B} (dest_gfq src_gfq : list Z) (P ds : Z) (src dest : Z -> list B) (r : Z) : option (list B) :=
  if ds =? 0 then Some (dest r)
  else match fixed_recvs dest_gfq src_gfq P ds r with
       | None => None
       | Some ms => deliver r (fixed_sends dest_gfq src_gfq P ds) src ms (dest r)
       end.

(** p4est_transfer_begin and _end with item_size: [item] = 1 is
    p4est_transfer_custom, any other p4est_transfer_items, lines 1210-1478.
    Simplified: byte counts do not overflow; "int ilen" is exact. *)
Definition transfer_items {B} (dest_gfq src_gfq : list Z) (P item : Z)
    (dest_sizes src_sizes : Z -> list Z) (src dest : Z -> list B) (r : Z) : option (list B) :=
  if item =? 0 then Some (dest r)
  else match var_msgs dest_gfq src_gfq P item (dest_sizes r) r with
       | None => None
       | Some ms => deliver r (fun q => var_msgs src_gfq dest_gfq P item (src_sizes q) q) src ms (dest r)
       end.
Definition transfer_custom {B} (dest_gfq src_gfq : list Z) (P : Z)
    (dest_sizes src_sizes : Z -> list Z) (src dest : Z -> list B) (r : Z) : option (list B) :=
  transfer_items dest_gfq src_gfq P 1 dest_sizes src_sizes src dest r.
