(** * Model of src/p4est_communication.c: partition markers and owner search *)

From Coq Require Import ZArith List Bool Lia.
From Verif Require Import Quad Partition.
Import ListNotations.
Open Scope Z_scope.

(** p4est_comm_count_quadrants, lines 322-341: the array
    global_first_quadrant from the local counts of all ranks *)
Fixpoint running (s : Z) (counts : list Z) : list Z :=
  match counts with
  | [] => [s]
  | n :: l => s :: running (s + n) l
  end.
Definition count_quadrants (counts : list Z) : list Z := running 0 counts.

(** an entry of global_first_position: p.which_tree and the coordinates with level *)
Record marker := mkmk { g_tree : Z; g_quad : quad }.

(** p4est_comm_global_partition, lines 343-407, called with first_quad = NULL.
    [qof] gives the quadrant of an element. *)
Section Markers.
  Context {A : Type}.
  Variable qof : A -> quad.
  Variable T : Z.

  (** the contribution of one rank, lines 359-387 *)
  Definition marker_input (r : rk A) : option marker :=
    if k_first A r <? 0 then Some (mkmk (k_first A r) (mkq (-1) (-1) (-1) QMAXLEVEL))
    else match k_trees A r (k_first A r) with
         | [] => None
         | a :: _ => Some (mkmk (k_first A r) (mkq (qx (qof a)) (qy (qof a)) (qz (qof a)) QMAXLEVEL))
         end.

  (** lines 355-357 *)
  Definition sentinel : marker := mkmk T (mkq 0 0 0 QMAXLEVEL).

  (** lines 393-406, from the last entry to the first *)
  Fixpoint fill (l : list marker) : list marker :=
    match l with
    | [] => [sentinel]
    | m :: l' =>
      let rest := fill l' in
      (if g_tree m <? 0 then hd sentinel rest else m) :: rest
    end.

  Fixpoint inputs (l : list (rk A)) : option (list marker) :=
    match l with
    | [] => Some []
    | r :: l' => match marker_input r, inputs l' with
                 | Some m, Some ms => Some (m :: ms)
                 | _, _ => None
                 end
    end.

  Definition global_partition (ranks : list (rk A)) : option (list marker) :=
    match inputs ranks with None => None | Some l => Some (fill l) end.
End Markers.

(** p4est_comm_is_empty_gfq, lines 607-614 *)
Definition is_empty_gfq (gfq : list Z) (p : Z) : option bool :=
  match zget gfq p, zget gfq (p + 1) with
  | Some a, Some b => Some (a =? b)
  | _, _ => None
  end.

(** p4est_quadrant_is_equal_piggy: src/p4est_bits.c 353-359 *)
Definition is_equal_piggy (d : dim) (m1 m2 : marker) : bool :=
  (g_tree m1 =? g_tree m2) && is_equal d (g_quad m1) (g_quad m2).

(** p4est_comm_is_empty_gfp, lines 616-623 *)
Definition is_empty_gfp (d : dim) (gfp : list marker) (p : Z) : option bool :=
  match zget gfp p, zget gfp (p + 1) with
  | Some a, Some b => Some (is_equal_piggy d a b)
  | _, _ => None
  end.

(** the coordinates differ, as in "q->x != cur->x || q->y != cur->y || ..." *)
Definition coords_differ (d : dim) (q cur : quad) : bool :=
  negb (qx q =? qx cur) || negb (qy q =? qy cur) || (is3 d && negb (qz q =? qz cur)).

(** q begins before the marker: lines 643-655, 703-714, 761-776 *)
Definition begins_before (d : dim) (t : Z) (q : quad) (m : marker) : bool :=
  (t <? g_tree m) || ((t =? g_tree m) && ((compare d q (g_quad m) <? 0) && coords_differ d q (g_quad m))).

(** q begins at or after the marker: lines 717-730, 779-793 *)
Definition begins_after (d : dim) (t : Z) (q : quad) (m : marker) : bool :=
  (t >? g_tree m) || ((t =? g_tree m) && ((compare d (g_quad m) q <=? 0) || negb (coords_differ d q (g_quad m)))).

(** p4est_comm_is_contained, lines 625-669 *)
Definition is_contained (d : dim) (gfp : list marker) (t : Z) (q : quad) (rank : Z) : option bool :=
  match zget gfp rank, zget gfp (rank + 1) with
  | Some cur, Some next =>
    if begins_before d t q cur then Some false
    else if (t >? g_tree next)
            || ((t =? g_tree next) && (compare d (g_quad next) (last_descendant d q QMAXLEVEL) <=? 0))
         then Some false
         else Some true
  | _, _ => None
  end.

(** p4est_comm_is_owner_gfp, lines 683-731 *)
Definition is_owner (d : dim) (gfp : list marker) (t : Z) (q : quad) (rank : Z) : option bool :=
  match zget gfp rank, zget gfp (rank + 1) with
  | Some cur, Some next =>
    if begins_before d t q cur then Some false
    else if begins_after d t q next then Some false else Some true
  | _, _ => None
  end.

(** p4est_comm_find_owner, lines 732-808.  [fuel] bounds the iterations of
    "for (;;)"; None stands for an access outside the array, for a guess
    outside [proc_low, proc_high], and for a loop that does not end. *)
Fixpoint find_owner_loop (d : dim) (gfp : list marker) (t : Z) (q : quad) (fuel : nat) (low high guess : Z) : option Z :=
  match fuel with
  | O => None
  | S f =>
    if (low <=? guess) && (guess <=? high) then
      match zget gfp guess, zget gfp (guess + 1) with
      | Some cur, Some next =>
        if begins_before d t q cur
        then find_owner_loop d gfp t q f low (guess - 1) (Z.quot (low + (guess - 1) + 1) 2)
        else if begins_after d t q next
        then find_owner_loop d gfp t q f (guess + 1) high (Z.quot (guess + 1 + high) 2)
        else Some guess
      | _, _ => None
      end
    else None
  end.
Definition find_owner (d : dim) (gfp : list marker) (num_procs : Z) (t : Z) (q : quad) (guess : Z) : option Z :=
  find_owner_loop d gfp t q (S (Z.to_nat num_procs)) 0 (num_procs - 1) guess.

(** sc_bsearch_range of libsc as documented there: the position i < nmemb with
    base[i] <= key < base[i + 1], or nmemb if there is none.  Searched from
    the front here; the position is unique in a non-decreasing array. *)
Fixpoint bsearch_range (key : Z) (base : list Z) (nmemb : nat) (i : Z) : Z :=
  match nmemb, base with
  | S n, a :: ((b :: _) as base') => if (a <=? key) && (key <? b) then i else bsearch_range key base' n (i + 1)
  | _, _ => i + Z.of_nat nmemb
  end.

(** p4est_bsearch_partition, lines 39-54 *)
Definition bsearch_partition (target : Z) (gfq : list Z) (nmemb : Z) : Z :=
  bsearch_range target gfq (Z.to_nat nmemb) 0.
