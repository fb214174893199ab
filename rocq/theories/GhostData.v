(** * Exchange of data for the ghost layer: src/p4est_ghost.c 2328-2755 *)

From Coq Require Import ZArith List Bool Lia Sorting.Permutation.
From Verif Require Import Quad Partition Conn Ghost.
Import ListNotations.
Open Scope Z_scope.

(** the members ghosts, proc_offsets, mirrors, mirror_proc_mirrors and mirror_proc_offsets *)
Record gsides := mkgs { s_ghosts : list gq; s_po : list Z; s_mirrors : list gq; s_pm : list Z; s_pmo : list Z }.

(** the loop over the ranks with ng_excl and ng: lines 2443-2458, 2462-2483, 2571-2613, 2617-2652;
    the start and the length of the window of each rank, from the offsets after the first *)
Fixpoint windows (excl : Z) (offs : list Z) : list (Z * Z) :=
  match offs with
  | [] => []
  | incl :: offs' => let ng := incl - excl in
                     if 0 <? ng then (excl, ng) :: windows incl offs' else (excl, 0) :: windows excl offs'
  end.
(** [n] elements from index [a]; None beyond the array *)
Definition part {A} (l : list A) (a n : Z) : option (list A) :=
  if (0 <=? a) && (a + n <=? zlen l) then Some (firstn (Z.to_nat n) (skipn (Z.to_nat a) l)) else None.

Section Data.
  Context {A : Type}.

  (** lines 2466-2476: the send buffer, from one element of mirror_data per mirror *)
  Fixpoint pack (md : list A) (ix : list Z) : option (list A) :=
    match ix with
    | [] => Some []
    | i :: ix' => match zget md i, pack md ix' with Some x, Some b => Some (x :: b) | _, _ => None end
    end.
  (** lines 2623-2644: only the mirrors in the range of levels *)
  Definition in_levels (minl maxl : Z) (g : gq) : bool := (minl <=? ql (g_q g)) && (ql (g_q g) <=? maxl).
  Fixpoint pack_levels (minl maxl : Z) (mirrors : list gq) (md : list A) (ix : list Z) : option (list A) :=
    match ix with
    | [] => Some []
    | i :: ix' =>
      match zget mirrors i, pack_levels minl maxl mirrors md ix' with
      | Some m, Some b => if in_levels minl maxl m then match zget md i with Some x => Some (x :: b) | None => None end else Some b
      | _, _ => None
      end
    end.
  (** lines 2537-2548 and 2697-2701 decide between the two *)
  Definition all_levels (minl maxl : Z) : bool := (minl <=? 0) && (QMAXLEVEL <=? maxl).

  (** what a rank sends to rank q; no message if it is empty *)
  Definition send_to (minl maxl : Z) (s : gsides) (md : list A) (q : Z) : option (list A) :=
    match s_pmo s with
    | [] => None
    | _ :: offs =>
      match zget (windows 0 offs) q with
      | None => None
      | Some (a, ng) =>
        match part (s_pm s) a ng with
        | None => None
        | Some ix => if all_levels minl maxl then pack md ix else pack_levels minl maxl (s_mirrors s) md ix
        end
      end
    end.

  (** the receive from rank q that a rank posts: start and length of the window and the number of
      elements of the message; no receive if that is 0 *)
  Definition post_from (minl maxl : Z) (s : gsides) (q : Z) : option (Z * Z * Z) :=
    match s_po s with
    | [] => None
    | _ :: offs =>
      match zget (windows 0 offs) q with
      | None => None
      | Some (a, ng) =>
        if all_levels minl maxl then Some (a, ng, ng)
        else match part (s_ghosts s) a ng with
             | None => None
             | Some gs => Some (a, ng, zlen (filter (in_levels minl maxl) gs))
             end
      end
    end.
  (** the ranks that a rank receives from, in the order of the receives *)
  Definition active (minl maxl : Z) (s : gsides) (P : Z) : list Z :=
    filter (fun q => match post_from minl maxl s q with Some (_, _, k) => 0 <? k | None => false end) (map Z.of_nat (seq 0 (Z.to_nat P))).

  (** lines 2734-2742: from the receive buffer to the ghosts in the range of levels *)
  Fixpoint unpack (minl maxl : Z) (gs : list gq) (old buf : list A) : option (list A) :=
    match gs, old with
    | [], [] => Some []
    | g :: gs', x :: old' =>
      if in_levels minl maxl g then
        match buf with
        | [] => None
        | y :: buf' => match unpack minl maxl gs' old' buf' with Some r => Some (y :: r) | None => None end
        end
      else match unpack minl maxl gs' old' buf with Some r => Some (x :: r) | None => None end
    | _, _ => None
    end.
  Definition put (gd : list A) (a n : Z) (new : list A) : list A :=
    firstn (Z.to_nat a) gd ++ new ++ skipn (Z.to_nat (a + n)) gd.

  (** completion of the receive from rank q: into ghost_data directly (lines 2452-2455,
      2604-2609), or into a buffer that is copied with the window read anew (lines 2726-2746).  A
      message of another length is an error of MPI. *)
  Definition complete (minl maxl : Z) (s : gsides) (q : Z) (msg gd : list A) : option (list A) :=
    match post_from minl maxl s q with
    | None => None
    | Some (a, ng, k) =>
      if negb (zlen msg =? k) then None
      else if k =? ng then match part gd a ng with None => None | Some _ => Some (put gd a ng msg) end
      else
        match zget (s_po s) q, zget (s_po s) (q + 1) with
        | Some a', Some e' =>
          match part (s_ghosts s) a' (e' - a'), part gd a' (e' - a') with
          | Some gs, Some old =>
            match unpack minl maxl gs old msg with
            | None => None
            | Some new => Some (put gd a' (e' - a') new)
            end
          | _, _ => None
          end
        | _, _ => None
        end
    end.
  Fixpoint complete_all (minl maxl : Z) (s : gsides) (msgs : Z -> option (list A)) (order : list Z) (gd : list A) : option (list A) :=
    match order with
    | [] => Some gd
    | q :: order' =>
      match msgs q with
      | None => None
      | Some msg => match complete minl maxl s q msg gd with
                    | None => None
                    | Some gd' => complete_all minl maxl s msgs order' gd'
                    end
      end
    end.

  (** p4est_ghost_exchange_custom_levels with data_size > 0, lines 2515-2755, and for all levels
      p4est_ghost_exchange_custom, lines 2394-2513, on rank [rank] of the ranks with the sides
      and mirror_data [sts].  [order] is the order in which the receives complete.  None if a
      receive or a send has no match. *)
  Definition exchange_levels (minl maxl : Z) (sts : list (gsides * list A)) (rank : Z) (order : list Z) (gd : list A) : option (list A) :=
    match zget sts rank with
    | None => None
    | Some (s, _) =>
      if negb (all_levels minl maxl) && (maxl <? minl) then Some gd
      else
        let msgs q := match zget sts q with Some (s', md') => send_to minl maxl s' md' rank | None => None end in
        if forallb (fun q => match post_from minl maxl s q, msgs q with
                             | Some (_, _, k), Some msg => eqb (0 <? k) (0 <? zlen msg)
                             | _, _ => false
                             end) (map Z.of_nat (seq 0 (length sts)))
        then complete_all minl maxl s msgs order gd
        else None
    end.

  (** p4est_ghost_exchange_data_begin, lines 2350-2374: the data of each mirror from its local
      tree; [offsets] are the tree->quadrants_offset *)
  Fixpoint data_of_mirrors (offsets : Z -> Z) (data : Z -> list A) (mirrors : list gq) : option (list A) :=
    match mirrors with
    | [] => Some []
    | m :: ms =>
      match zget (data (g_t m)) (g_num m - offsets (g_t m)), data_of_mirrors offsets data ms with
      | Some x, Some xs => Some (x :: xs)
      | _, _ => None
      end
    end.
End Data.
