(** * Model of p4est_comm_count_pertree (src/p4est_communication.c 428-592) *)

From Coq Require Import ZArith List Bool Lia.
From Verif Require Import Quad Partition Comm.
Import ListNotations.
Open Scope Z_scope.

(** gfp[p].p.which_tree *)
Definition mtree (gfp : list marker) (p : Z) : option Z := option_map g_tree (zget gfp p).

(** "do treecount[++p] = 0 while (gfp[p].p.which_tree == t)", lines 469-472 *)
Fixpoint skip_tree (gfp : list marker) (t : Z) (fuel : nat) (p : Z) (tc : Z -> Z) : option (Z * (Z -> Z)) :=
  match fuel with
  | O => None
  | S f =>
    let p' := p + 1 in
    let tc' := upd tc p' 0 in
    match mtree gfp p' with
    | None => None
    | Some t' => if t' =? t then skip_tree gfp t f p' tc' else Some (p', tc')
    end
  end.

(** the beginning of a tree, lines 481-485 *)
Definition at_zero (d : dim) (q : quad) : bool := (qx q =? 0) && (qy q =? 0) && (negb (is3 d) || (qz q =? 0)).

(** "while (p < num_procs) treecount[++p] = 0", lines 493-495 *)
Fixpoint zero_rest (n : nat) (p : Z) (tc : Z -> Z) : Z -> Z :=
  match n with O => tc | S n' => zero_rest n' (p + 1) (upd tc (p + 1) 0) end.

(** the loop that assigns each tree to a rank, lines 464-498 *)
Fixpoint assign_trees (d : dim) (gfp : list marker) (P T : Z) (fuel : nat) (p t : Z) (tc : Z -> Z) : option (Z -> Z) :=
  match fuel with
  | O => None
  | S f =>
    match skip_tree gfp t (S (Z.to_nat P)) p tc with
    | None => None
    | Some (p, tc) =>
      match zget gfp p with
      | None => None
      | Some m =>
        (* "for (++t; t < gfp[p].p.which_tree; ++t) ++treecount[p - 1]" *)
        let n := Z.max 0 (g_tree m - (t + 1)) in
        let tc := upd tc (p - 1) (tc (p - 1) + n) in
        let t := t + 1 + n in
        if t <? T then
          if at_zero d (g_quad m) then assign_trees d gfp P T f p t (upd tc p (tc p + 1))
          else assign_trees d gfp P T f p t (upd tc (p - 1) (tc (p - 1) + 1))
        else Some (zero_rest (Z.to_nat (P - p)) p tc)
      end
    end
  end.
(** lines 456-463 before the loop *)
Definition treecount (d : dim) (gfp : list marker) (P T : Z) : option (Z -> Z) :=
  assign_trees d gfp P T (S (Z.to_nat P)) 0 0 (upd (fun _ => 0) 0 1).

(** treeoffset, lines 502-504 *)
Fixpoint treeoffset (tc : Z -> Z) (n : nat) : Z :=
  match n with O => 0 | S n' => treeoffset tc n' + tc (Z.of_nat n') end.

(** "for (p = rank + 1; p < num_procs && treecount[p] == 0; ++p)", lines 539-541;
    [n] is num_procs - p *)
Fixpoint next_count (tc : Z -> Z) (n : nat) (p : Z) : Z :=
  match n with O => p | S n' => if tc p =? 0 then next_count tc n' (p + 1) else p end.
(** "for (p = rank - 1; treecount[p] == 0; --p)", lines 565-567 *)
Fixpoint prev_count (tc : Z -> Z) (n : nat) : option Z :=
  match n with O => None | S n' => if tc (Z.of_nat n') =? 0 then prev_count tc n' else Some (Z.of_nat n') end.

Section Ranks.
  Context {A : Type}.
  Variables (gfp : list marker) (gfq : list Z) (P : Z) (tc : Z -> Z) (ranks : list (rk A)).

  (** number of quadrants of tree t on a rank: tree->quadrants.elem_count *)
  Definition local_count (p t : Z) : option Z := option_map (fun r => zlen (k_trees A r t)) (zget ranks p).

  (** the message of a rank: receiver and number, lines 559-572 *)
  Definition pt_send (rank : Z) : option (option (Z * Z)) :=
    match mtree gfp rank with
    | None => None
    | Some t =>
      if (tc rank >? 0) && (t <? treeoffset tc (Z.to_nat rank)) then
        match local_count rank t, prev_count tc (Z.to_nat rank) with
        | Some n, Some p => Some (Some (p, n))
        | _, _ => None
        end
      else Some None
    end.

  (** the rank that this rank waits for, if any, lines 536-556 *)
  Definition pt_waits (rank : Z) : option (option Z) :=
    if tc rank >? 0 then
      let p := next_count tc (Z.to_nat (P - (rank + 1))) (rank + 1) in
      match mtree gfp p with
      | None => None
      | Some t => Some (if t =? treeoffset tc (Z.to_nat rank) + tc rank - 1 then Some p else None)
      end
    else Some None.

  (** mypertree: the trees of the rank except for the last, lines 530-535 *)
  Fixpoint full_trees (rank : Z) (n : nat) (t : Z) : option (list Z) :=
    match n with
    | O => Some []
    | S n' => match local_count rank t, full_trees rank n' (t + 1) with
              | Some c, Some l => Some (c :: l)
              | _, _ => None
              end
    end.

  (** mypertree of a rank after the message has arrived, lines 526-582 *)
  Definition mypertree (rank : Z) : option (list Z) :=
    if tc rank >? 0 then
      let off := treeoffset tc (Z.to_nat rank) in
      let last := off + tc rank - 1 in
      let p := next_count tc (Z.to_nat (P - (rank + 1))) (rank + 1) in
      match full_trees rank (Z.to_nat (tc rank - 1)) off, local_count rank last, zget gfq p, zget gfq (rank + 1), pt_waits rank with
      | Some l, Some c, Some a, Some b, Some w =>
        match w with
        | None => Some (l ++ [c + (a - b)])
        | Some p =>
          match pt_send p with
          | Some (Some (dest, v)) => if dest =? rank then Some (l ++ [c + (a - b) + v]) else None
          | _ => None
          end
        end
      | _, _, _, _, _ => None
      end
    else Some [].

  Fixpoint gather (n : nat) (rank : Z) : option (list Z) :=
    match n with
    | O => Some []
    | S n' => match mypertree rank, gather n' (rank + 1) with
              | Some l, Some l' => Some (l ++ l')
              | _, _ => None
              end
    end.
End Ranks.

(** the whole function, lines 428-592.  MPI_Allgatherv puts the parts of the
    ranks one after the other since treeoffset are the running sums of
    treecount; the result has to fill the array. *)
Definition count_pertree {A} (d : dim) (gfp : list marker) (gfq : list Z) (P T : Z) (ranks : list (rk A)) : option (list Z) :=
  match treecount d gfp P T with
  | None => None
  | Some tc =>
    match gather gfp gfq P tc ranks (Z.to_nat P) 0 with
    | None => None
    | Some l => if zlen l =? T then Some (running 0 l) else None
    end
  end.
