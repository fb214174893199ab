(** * Model of p4est_partition_for_coarsening (src/p4est.c 2791-3386)

    With P4EST_ENABLE_MPI, without P4EST_ENABLE_DEBUG.  Every rank first sends, for every new
    cut near its leaves, the parent of the leaf nearest to the cut; the rank whose range begins
    at the cut receives them and computes a correction of the cut.  The result is [None] if a
    rank reads or writes outside of an array, waits for a message that nobody sends, or waits on
    a request it has not posted.

    partition_now points to the beginning of an allocated array.  [junk] is what a read of
    partition_now[-1] gives: [None] if this is an error, [Some v] if the memory holds v. *)

From Coq Require Import ZArith List Bool Lia Arith.
From Verif Require Import Quad Search Adapt Partition Comm Weighted Forest.
Import ListNotations.
Open Scope Z_scope.

(** a message: source and destination ranks, p.piggy3.which_tree, the quadrant,
    p.piggy3.local_num *)
Record pmsg := mkpm { pm_src : Z; pm_dst : Z; pm_tree : Z; pm_quad : quad; pm_num : Z }.

(** partition_new, lines 2833-2838 *)
Definition new_cuts (counts : list Z) (N : Z) : list Z := removelast (running 0 counts) ++ [N].

(** "for (i = b; ...) if (a[i] < a[i + 1]) { num++; lowest = MIN; highest = MAX }", lines 2881-2888 *)
Fixpoint count_loop (a : list Z) (n : nat) (i : Z) (st : Z * Z * Z) : option (Z * Z * Z) :=
  match n with
  | O => Some st
  | S n' =>
    match zget a i, zget a (i + 1) with
    | Some x, Some y =>
      let '(num, lowest, highest) := st in
      count_loop a n' (i + 1) (if x <? y then (num + 1, Z.min lowest i, Z.max highest i) else st)
    | _, _ => None
    end
  end.

Section PC.
  Variable d : dim.
  Variables (St D : Type).
  Local Notation C := (children d).

  (** ** The sender: [lo], [hi] are partition_now[rank], partition_now[rank + 1] *)

  (** lines 2845-2876: begin and end *)
  Definition send_window (new : list Z) (P N lo hi : Z) : Z * Z :=
    let my_begin := lo - C + 2 in
    let my_end := hi - 1 + C in
    if (my_begin <? 0) && (my_end >=? N) then (1, P - 1)
    else let (b, e) := find_partition (firstn (Z.to_nat (P - 1)) (tl new)) my_begin my_end in (Z.of_nat b + 1, Z.of_nat e).

  (** lines 2942-2944 and 3244-3246: x is the new cut of the receiver, lo and hi bound the present range
      of the sender *)
  Definition near_cut (x lo hi : Z) : bool := (lo <=? x + C - 2) && (x - C + 1 <? hi).

  (** lines 2939-2947 without the messages: the destinations *)
  Fixpoint dest_loop (new : list Z) (lo hi : Z) (n : nat) (i : Z) : option (list Z) :=
    match n with
    | O => Some []
    | S n' =>
      match zget new i, zget new (i + 1), dest_loop new lo hi n' (i + 1) with
      | Some x, Some y, Some l => Some (if (x <? y) && near_cut x lo hi then i :: l else l)
      | _, _, _ => None
      end
    end.

  (** lines 2841-2947: send_requests and parent_send have num_sends elements and all requests are
      waited for *)
  Definition destinations (new : list Z) (P N lo hi : Z) : option (list Z) :=
    if lo <? hi then
      let (b, e) := send_window new P N lo hi in
      match count_loop new (trips b e) b (0, P, 0) with
      | None => None
      | Some (num, lowest, highest) =>
        if num >? 0 then
          match dest_loop new lo hi (trips lowest highest) lowest with
          | None => None
          | Some l => if zlen l =? num then Some l else None
          end
        else Some []
      end
    else Some [].

  (** lines 2949-2964 *)
  Definition nearest (c lo hi : Z) : Z :=
    if (lo <=? c) && (c <? hi) then c
    else if Z.abs (c - lo) <? Z.abs (c - hi + 1) then lo else hi - 1.

  (** lines 2966-2979: tree_index and num_quadrants_in_tree before the subtraction *)
  Fixpoint tree_loop (trees : Z -> ftree D) (k : Z) (n : nat) (it : Z) (ti num : Z) : Z * Z :=
    match n with
    | O => (ti, num)
    | S n' => if t_off D (ft D (trees it)) <=? k then tree_loop trees k n' (it + 1) it num
              else (ti, t_off D (ft D (trees it)))
    end.

  (** lines 2996-3020 and 3022-3049: look for quadrants with the same parent, downwards or upwards *)
  Fixpoint scan (same : Z -> option bool) (step : Z) (n : nat) (iq best : Z) : option Z :=
    match n with
    | O => Some best
    | S n' =>
      match same iq with
      | None => None
      | Some false => Some best
      | Some true => scan same step n' (iq + step) iq
      end
    end.

  (** one message, lines 2949-3097, for the cut [c] of rank [dst] *)
  Definition message (rank : Z) (p : proc St D) (lo hi c dst : Z) : option pmsg :=
    let near := nearest c lo hi in
    let (ti, num) := tree_loop (pr_trees _ _ p) (near - lo) (trips (pr_first _ _ p) (pr_last _ _ p)) (pr_first _ _ p) (-1) (hi - lo) in
    if ti <? 0 then None
    else
      let tree := ft D (pr_trees _ _ p ti) in
      let off := t_off D tree in
      let num := num - off in
      match zget (t_leaves D tree) (near - lo - off) with
      | None => None
      | Some (q, _) =>
        if ql q >? 0 then
          let par := parent d q in
          let same iq := match zget (t_leaves D tree) (iq - lo - off) with
                         | None => None
                         | Some (r, _) => Some ((ql r =? ql q) && is_parent d par r)
                         end in
          match scan same (-1) (Z.to_nat (near - Z.max (lo + off) (c - C + 1) + 1)) near near,
                scan same 1 (Z.to_nat (Z.min (lo + off + num - 1) (c + C - 2) - near + 1)) near near with
          | Some mn, Some mx => Some (mkpm rank dst ti par (if near =? c then (c - mn) * C + (mx - c) else mx - mn + 1))
          | _, _ => None
          end
        else Some (mkpm rank dst ti q 1)
      end.

  Definition send_messages (new now : list Z) (P N : Z) (rank : Z) (p : proc St D) : option (list pmsg) :=
    match zget now rank, zget now (rank + 1) with
    | Some lo, Some hi =>
      match destinations new P N lo hi with
      | None => None
      | Some l => all_some (map (fun i => match zget new i with None => None | Some c => message rank p lo hi c i end) l)
      end
    | _, _ => None
    end.

  (** ** The receiver: [c] is partition_new[rank] *)
  Definition peek (junk : option Z) (a : list Z) (i : Z) : option Z := if i =? -1 then junk else zget a i.

  (** lines 3111-3149 *)
  Definition recv_window (now : list Z) (P N c : Z) : option (Z * Z) :=
    let my_begin := c - C + 1 in
    let my_end := c + C - 2 in
    if (my_begin <? 0) && (my_end >=? N) then Some (0, P - 1)
    else
      let (b, e) := find_partition (firstn (Z.to_nat P) now) my_begin my_end in
      match zget now (Z.of_nat b), zget now (Z.of_nat e) with
      | Some nb, Some ne =>
        Some ((if my_begin =? nb then Z.of_nat b + 1 else Z.of_nat b) - 1, if my_end =? ne then Z.of_nat e else Z.of_nat e - 1)
      | _, _ => None
      end.

  (** num_receives, receive_lowest, receive_highest, process_with_cut, process_with_cut_recv_id *)
  Record rst := mkrst { r_num : Z; r_low : Z; r_high : Z; r_cut : Z; r_id : Z }.

  Definition rstep (c : Z) (st : rst) (i x y : Z) : rst :=
    let own := (x <=? c) && (c <? y) in
    mkrst (r_num st + 1) (Z.min (r_low st) i) (Z.max (r_high st) i)
          (if own then i else r_cut st) (if own then r_num st + 1 - 1 else r_id st).

  (** lines 3151-3180; the bound of the loop may grow *)
  Fixpoint recv_loop (junk : option Z) (now : list Z) (P c : Z) (n : nat) (i e : Z) (st : rst) : option rst :=
    if i <=? Z.min e (P - 1) then
      match n with
      | O => None
      | S n' =>
        match peek junk now i, peek junk now (i + 1) with
        | Some x, Some y =>
          if x <? y then recv_loop junk now P c n' (i + 1) e (rstep c st i x y)
          else if (i =? e) && (x =? y) then recv_loop junk now P c n' (i + 1) (e + 1) st
          else recv_loop junk now P c n' (i + 1) e st
        | _, _ => None
        end
      end
    else Some st.

  (** lines 3241-3262 *)
  Fixpoint source_loop (junk : option Z) (now : list Z) (c : Z) (n : nat) (i : Z) : option (list Z) :=
    match n with
    | O => Some []
    | S n' =>
      match peek junk now i, peek junk now (i + 1), source_loop junk now c n' (i + 1) with
      | Some x, Some y, Some l => Some (if (x <? y) && near_cut c x y then i :: l else l)
      | _, _, _ => None
      end
    end.

  (** the ranks to receive from, process_with_cut and process_with_cut_recv_id *)
  Definition sources (junk : option Z) (now : list Z) (P N c : Z) : option (list Z * Z * Z) :=
    match recv_window now P N c with
    | None => None
    | Some (b, e) =>
      match recv_loop junk now P c (Z.to_nat (P + 1)) b e (mkrst 0 P 0 (-1) (-1)) with
      | None => None
      | Some st =>
        if r_num st >? 0 then
          match source_loop junk now c (trips (r_low st) (r_high st)) (r_low st) with
          | None => None
          | Some l => if zlen l =? r_num st then Some (l, r_cut st, r_id st) else None
          end
        else Some ([], r_cut st, r_id st)
      end
    end.

  (** MPI: the message from [src] to [dst] *)
  Definition deliver (all : list pmsg) (dst src : Z) : option pmsg :=
    find (fun m => (pm_src m =? src) && (pm_dst m =? dst)) all.

  (** one turn of the loop in lines 3284-3314 *)
  Definition family_step (cut : Z) (first : pmsg) (mm : Z * Z) (m : pmsg) : Z * Z :=
    let (mn, mx) := mm in
    if (pm_tree m =? pm_tree first) && is_equal d (pm_quad m) (pm_quad first) then
      if pm_src m <? cut then (mn - pm_num m, mx)
      else if pm_src m >? cut then (mn, mx + pm_num m)
      else (mn - pm_num m / C, mx + pm_num m mod C)
    else mm.

  (** ** p4est_partition_correction, src/p4est_algorithms.c 2741-2787 *)
  (** lines 2758-2767; state: max_num_quadrants, rank_with_max_quads *)
  Fixpoint down_loop (a : list Z) (mn : Z) (n : nat) (i : Z) (best : Z * Z) : option (Z * Z) :=
    match zget a (i + 1) with
    | None => None
    | Some y =>
      if mn <? y then
        match n, zget a i with
        | S n', Some x => let h := y - Z.max mn x in down_loop a mn n' (i - 1) (if fst best <=? h then (h, i) else best)
        | _, _ => None
        end
      else Some best
    end.
  (** lines 2769-2778 *)
  Fixpoint up_loop (a : list Z) (mx : Z) (n : nat) (i : Z) (best : Z * Z) : option (Z * Z) :=
    match zget a i with
    | None => None
    | Some x =>
      if x <=? mx then
        match n, zget a (i + 1) with
        | S n', Some y => let h := Z.min mx (y - 1) - x + 1 in up_loop a mx n' (i + 1) (if fst best <? h then (h, i) else best)
        | _, _ => None
        end
      else Some best
    end.
  Definition partition_correction (a : list Z) (P rank mn mx : Z) : option Z :=
    match zget a rank, zget a (rank + 1) with
    | Some x, Some y =>
      let most := Z.min mx (y - 1) - x + 1 in
      if negb (mx - mn + 1 =? C) then Some 0
      else
        match down_loop a mn (Z.to_nat P) (rank - 1) (most, rank) with
        | None => None
        | Some best =>
          match up_loop a mx (Z.to_nat P) (snd best + 1) best with
          | None => None
          | Some best => Some (if snd best <? rank then x - mx - 1 else x - mn)
          end
        end
    | _, _ => None
    end.

  (** correction_local, lines 3107, 3182-3188 and 3278-3324 *)
  Definition correction (junk : option Z) (new now : list Z) (P N : Z) (all : list pmsg) (rank : Z) : option Z :=
    match zget new rank, zget new (rank + 1) with
    | Some c, Some c' =>
      if negb (rank =? 0) && (c <? c') then
        match sources junk now P N c with
        | None => None
        | Some (srcs, cut, id) =>
          match all_some (map (deliver all rank) srcs) with
          | None => None
          | Some [] => Some 0
          | Some msgs =>
            match zget msgs id with
            | None => None
            | Some first =>
              let (mn, mx) := fold_left (family_step cut first) msgs (c, c) in
              partition_correction new P rank mn mx
            end
          end
        end
      else Some 0
    | _, _ => None
    end.

  (** ** The corrected counts *)
  (** p4est_next_nonempty_process, src/p4est_algorithms.c 2789-2806 *)
  Fixpoint next_loop (counts : list Z) (P : Z) (n : nat) (r : Z) : Z :=
    match n with
    | O => r
    | S n' => if (r <? P) && (match zget counts r with Some v => v =? 0 | None => false end) then next_loop counts P n' (r + 1) else r
    end.
  Definition next_nonempty (counts : list Z) (P r : Z) : Z :=
    if r >=? P then P else next_loop counts P (Z.to_nat P) r.

  Definition zset (l : list Z) (i v : Z) : list Z := firstn (Z.to_nat i) l ++ v :: skipn (S (Z.to_nat i)) l.
  Definition zadd (l : list Z) (i v : Z) : option (list Z) :=
    match zget l i with None => None | Some x => Some (zset l i (x + v)) end.

  (** lines 3348-3374; state: num_quadrants_in_proc, num_moved_quadrants *)
  Fixpoint correct_loop (corr : list Z) (P : Z) (n : nat) (cur next : Z) (counts : list Z) (moved : Z) : option (list Z * Z) :=
    if cur <? P then
      match n with
      | O => None
      | S n' =>
        match zget corr cur with
        | None => None
        | Some cc =>
          match (if 0 <? cur then zadd counts cur cc else Some counts) with
          | None => None
          | Some counts1 =>
            let moved := if 0 <? cur then moved + Z.abs cc else moved in
            match (if next <? P then match zget corr next with None => None | Some cn => zadd counts1 cur (- cn) end else Some counts1) with
            | None => None
            | Some counts2 => correct_loop corr P n' next (next_nonempty counts2 P (next + 1)) counts2 moved
            end
          end
        end
      end
    else Some (counts, moved).

  (** all ranks; the corrected counts and the return value *)
  Definition for_coarsening (junk : Z -> option Z) (F : forest St D) (counts : list Z) : option (list Z * Z) :=
    let P := zlen (f_procs _ _ F) in
    let N := f_gnum _ _ F in
    let now := f_gfq _ _ F in
    let new := new_cuts counts N in
    match mapi_opt (send_messages new now P N) 0 (f_procs _ _ F) with
    | None => None
    | Some l =>
      match mapi_opt (fun r _ => correction (junk r) new now P N (concat l) r) 0 (f_procs _ _ F) with
      | None => None
      | Some corr =>
        let cur := next_nonempty counts P 0 in
        correct_loop corr P (Z.to_nat P) cur (next_nonempty counts P (cur + 1)) counts 0
      end
    end.

  (** ** p4est_partition_ext with partition_for_coarsening != 0, src/p4est.c 2437-2789 *)

  (** num_quadrants_in_proc before the correction, lines 2488-2752; [Some None]: return without shipping *)
  Definition proposed_counts (prec : Z) (weight_fn : option (St -> Z -> quad -> D -> Z)) (F : forest St D) : option (option (list Z)) :=
    let P := zlen (f_procs _ _ F) in
    match weight_fn with
    | None => Some (Some (equal_counts prec (f_gnum _ _ F) P (Z.to_nat P) 0 0))
    | Some w => weighted_counts prec (map (weights St D w) (f_procs _ _ F))
    end.

  Definition partition_coarse (T prec : Z) (junk : Z -> option Z) (weight_fn : option (St -> Z -> quad -> D -> Z)) (F : forest St D) : option (forest St D * Z) :=
    if zlen (f_procs _ _ F) =? 1 then Some (F, 0)
    else
      match proposed_counts prec weight_fn F with
      | None => None
      | Some None => Some (F, 0)
      | Some (Some counts) =>
        match for_coarsening junk F counts with
        | None => None
        | Some (counts, _) =>
          match given d St D T F counts with
          | None => None
          | Some (F', shipped) =>
            Some (mkforest _ _ (f_procs _ _ F') (f_gfq _ _ F') (f_gfp _ _ F') (f_gnum _ _ F') (if shipped =? 0 then f_rev _ _ F' else f_rev _ _ F' + 1), shipped)
          end
        end
      end.
End PC.
