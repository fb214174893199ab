(** * Model of p4est_partition_given (src/p4est_algorithms.c 2807-3694)

    The function runs on every rank.  Here [given_send] is what a rank computes
    before it waits for messages, [given_recv] is what it does afterwards, and
    [partition_given] connects the ranks.  An element is a leaf with its data:
    the code packs the quadrants and their data into two consecutive arrays in
    the same order and sets the data pointer again after receiving; here this is
    one list of elements.  Allocation of data memory is left out.

    Array accesses are checked ([None] if outside); memory that is not written
    yet is [None] as an element of an array. *)

From Coq Require Import ZArith List Bool Lia Arith.
From Verif Require Import Quad Search Adapt.
Import ListNotations.
Open Scope Z_scope.

Definition zget {A} (l : list A) (i : Z) : option A :=
  if i <? 0 then None else nth_error l (Z.to_nat i).
Definition upd {A} (f : Z -> A) (i : Z) (v : A) : Z -> A := fun j => if j =? i then v else f j.
Definition zlen {A} (l : list A) : Z := Z.of_nat (length l).
(** number of iterations of "for (i = a; i <= b; ++i)" *)
Definition trips (a b : Z) : nat := Z.to_nat (b - a + 1).

(** n elements from position b of an array *)
Definition slice {A} (l : list A) (b n : Z) : option (list A) :=
  if (0 <=? b) && (0 <=? n) && (b + n <=? zlen l)
  then Some (firstn (Z.to_nat n) (skipn (Z.to_nat b) l)) else None.
(** memcpy/memmove of the elements [s] to position b *)
Definition blit {A} (l : list A) (b : Z) (s : list A) : option (list A) :=
  if (0 <=? b) && (b + zlen s <=? zlen l)
  then Some (firstn (Z.to_nat b) l ++ s ++ skipn (Z.to_nat b + length s) l) else None.
(** sc_array_resize *)
Definition resize {A} (l : list (option A)) (n : Z) : list (option A) :=
  firstn (Z.to_nat n) l ++ repeat None (Z.to_nat n - length l).

Fixpoint all_some {A} (l : list (option A)) : option (list A) :=
  match l with
  | [] => Some []
  | None :: _ => None
  | Some x :: l' => match all_some l' with None => None | Some r => Some (x :: r) end
  end.

(** entries of the array new_global_last_quad_index, lines 2889-2919:
    running sums of the new counts, minus one; called with s = -1 *)
Fixpoint lasts (s : Z) (counts : list Z) : list Z :=
  match counts with
  | [] => []
  | n :: l => (s + n) :: lasts (s + n) l
  end.

(** total_quadrants_shipped, lines 2912-2926; [nums] are the new counts,
    [olds] and [news] the two arrays of last indices *)
Fixpoint shipped (nums olds news : list Z) : Z :=
  match nums, olds, news with
  | n0 :: ((n1 :: _) as nums'), o0 :: olds', w0 :: news' =>
    let diff64 := o0 - w0 in
    (if diff64 >=? 0 then Z.min diff64 n1 else Z.min (- diff64) n0) + shipped nums' olds' news'
  | _, _, _ => 0
  end.

Section Given.
  Variable A : Type.
  (** the part of p4est_t that is local: first_local_tree, last_local_tree and
      the quadrant arrays of the trees *)
  Record rk := mkrk { k_first : Z; k_last : Z; k_trees : Z -> list A }.

  Variable T : Z.              (* number of trees *)
  Variables (olds news : list Z).   (* global_last_quad_index, new_global_last_quad_index *)
  Variable gft : list Z.       (* global_first_position[i].p.which_tree, i = 0..num_procs *)

  (** first index of a process in an array of last indices, as in
      "(p == 0) ? 0 : (last[p - 1] + 1)" *)
  Definition lower (l : list Z) (p : Z) : option Z :=
    if p =? 0 then Some 0 else match zget l (p - 1) with Some v => Some (v + 1) | None => None end.

  (** the number of quadrants from each process: loop in lines 2983-3000 *)
  Fixpoint recv_loop (my_begin my_end : Z) (n : nat) (from_proc : Z) (num : Z -> Z) : option (Z -> Z) :=
    match n with
    | O => Some num
    | S n' =>
      match lower olds from_proc, zget olds from_proc with
      | Some lower_bound, Some last =>
        recv_loop my_begin my_end n' (from_proc + 1)
          (if (lower_bound <=? my_end) && (last >=? my_begin)
           then upd num from_proc (Z.min my_end last - Z.max my_begin lower_bound + 1)
           else num)
      | _, _ => None
      end
    end.

  (** lines 2970-3005: from_begin, from_end and num_recv_from *)
  Definition recv_plan (rank : Z) : option (Z * Z * (Z -> Z)) :=
    match lower news rank, zget news rank with
    | Some my_begin, Some my_end =>
      if my_begin >? my_end then Some (rank, rank, fun _ => 0)
      else
        let (b, e) := find_partition olds my_begin my_end in
        let from_begin := Z.of_nat b in
        let from_end := Z.of_nat e in
        match recv_loop my_begin my_end (trips from_begin from_end) from_begin (fun _ => 0) with
        | None => None
        | Some num => Some (from_begin, from_end, num)
        end
    | _, _ => None
    end.

  (** number and first index of the quadrants sent to each process: loop in
      lines 3113-3131; begin_send_to is not initialised *)
  Fixpoint send_loop (my_begin my_end : Z) (n : nat) (to_proc : Z) (num : Z -> Z) (beg : Z -> option Z)
    : option ((Z -> Z) * (Z -> option Z)) :=
    match n with
    | O => Some (num, beg)
    | S n' =>
      match lower news to_proc, zget news to_proc with
      | Some lower_bound, Some last =>
        if (lower_bound <=? my_end) && (last >=? my_begin) then
          send_loop my_begin my_end n' (to_proc + 1)
            (upd num to_proc (Z.min my_end last - Z.max my_begin lower_bound + 1))
            (upd beg to_proc (Some (Z.max my_begin lower_bound)))
        else send_loop my_begin my_end n' (to_proc + 1) num beg
      | _, _ => None
      end
    end.

  (** lines 3083-3135: to_begin, to_end, num_send_to, begin_send_to *)
  Definition send_plan (rank : Z) : option (Z * Z * (Z -> Z) * (Z -> option Z)) :=
    match lower olds rank, zget olds rank with
    | Some my_begin, Some my_end =>
      if my_begin >? my_end then Some (rank, rank, fun _ => 0, fun _ => Some (-1))
      else
        let (b, e) := find_partition news my_begin my_end in
        let to_begin := Z.of_nat b in
        let to_end := Z.of_nat e in
        match send_loop my_begin my_end (trips to_begin to_end) to_begin (fun _ => 0) (fun _ => None) with
        | None => None
        | Some (num, beg) => Some (to_begin, to_end, num, beg)
        end
    | _, _ => None
    end.

  (** local_tree_last_quad_index, lines 2936-2953 *)
  Fixpoint tree_lasts_loop (trees : Z -> list A) (n : nat) (t : Z) (lt : Z -> Z) : Z -> Z :=
    match n with
    | O => lt
    | S n' => tree_lasts_loop trees n' (t + 1) (upd lt t (zlen (trees t) + lt (t - 1)))
    end.
  Definition tree_lasts (r : rk) : Z -> Z :=
    let lt := if k_first r >=? 0 then upd (fun _ => 0) (k_first r) (zlen (k_trees r (k_first r)) - 1)
              else fun _ => 0 in
    tree_lasts_loop (k_trees r) (trips (k_first r + 1) (k_last r)) (k_first r + 1) lt.

  (** a message: the counts per tree and the elements *)
  Record msg := mkmsg { m_ntrees : Z; m_counts : Z -> Z; m_elems : list A }.

  (** num_per_tree_local, lines 3193-3218 *)
  Fixpoint local_loop (r : rk) (lt : Z -> Z) (my_begin my_end nst : Z) (n : nat) (t : Z) (cnt : Z -> Z)
    : option (Z -> Z) :=
    match n with
    | O => Some cnt
    | S n' =>
      let from_begin := if t =? k_first r then 0 else lt (t - 1) + 1 in
      let from_end := lt t in
      if (from_begin <=? my_end) && (from_end >=? my_begin) then
        let tree_from_begin := Z.max my_begin from_begin - from_begin in
        let tree_from_end := Z.min my_end from_end - from_begin in
        if t - k_first r <? nst then
          local_loop r lt my_begin my_end nst n' (t + 1)
            (upd cnt (t - k_first r) (tree_from_end - tree_from_begin + 1))
        else None
      else local_loop r lt my_begin my_end nst n' (t + 1) cnt
    end.

  (** filling a send buffer: lines 3249-3292 *)
  Fixpoint pack_loop (r : rk) (lt : Z -> Z) (my_begin my_end nst : Z) (n : nat) (t : Z) (cnt : Z -> Z)
           (buf : list A) : option ((Z -> Z) * list A) :=
    match n with
    | O => Some (cnt, buf)
    | S n' =>
      let from_begin := if t =? k_first r then 0 else lt (t - 1) + 1 in
      let from_end := lt t in
      if (from_begin <=? my_end) && (from_end >=? my_begin) then
        let tree_from_begin := Z.max my_begin from_begin - from_begin in
        let tree_from_end := Z.min my_end from_end - from_begin in
        let num_copy := tree_from_end - tree_from_begin + 1 in
        match slice (k_trees r t) tree_from_begin num_copy with
        | None => None
        | Some s =>
          if t - k_first r <? nst then
            pack_loop r lt (my_begin + num_copy) my_end nst n' (t + 1)
              (upd cnt (t - k_first r) num_copy) (buf ++ s)
          else None
        end
      else pack_loop r lt my_begin my_end nst n' (t + 1) cnt buf
    end.

  (** num_send_trees, lines 2826-2828, and the same expression for a sender as
      seen by the receiver, lines 3060-3062, 3322-3327, 3510-3514 *)
  Definition num_trees_of (p : Z) : option Z :=
    match zget gft p, zget gft (p + 1) with
    | Some a, Some b => Some (b - a + 1)
    | _, _ => None
    end.

  (** the message to process [to] for given num_send_to, begin_send_to.  The
      buffer has room for num_send_to elements, which have to be all set. *)
  Definition make_msg (r : rk) (rank nst base : Z) (num : Z) (beg : option Z) : option msg :=
    match beg with
    | None => None
    | Some b =>
      match pack_loop r (tree_lasts r) (b - base) (b + num - 1 - base) nst
              (trips (k_first r) (k_last r)) (k_first r) (fun _ => 0) [] with
      | None => None
      | Some (cnt, buf) => if zlen buf =? num then Some (mkmsg nst cnt buf) else None
      end
    end.

  (** the loop over receivers, lines 3221-3304 *)
  Fixpoint send_all (r : rk) (rank nst base : Z) (num : Z -> Z) (beg : Z -> option Z) (n : nat) (to_proc : Z)
    : option (list (Z * msg)) :=
    match n with
    | O => Some []
    | S n' =>
      match send_all r rank nst base num beg n' (to_proc + 1) with
      | None => None
      | Some l =>
        if negb (to_proc =? rank) && negb (num to_proc =? 0) then
          match make_msg r rank nst base (num to_proc) (beg to_proc) with
          | None => None
          | Some m => Some ((to_proc, m) :: l)
          end
        else Some l
      end
    end.

  (** what a rank has computed when it starts to wait for messages *)
  Record plan := mkplan {
    p_from_begin : Z; p_from_end : Z; p_recv : Z -> Z;
    p_to_begin : Z; p_to_end : Z; p_send : Z -> Z; p_beg : Z -> option Z;
    p_local : Z -> Z; p_out : list (Z * msg) }.

  Definition given_send (rank : Z) (r : rk) : option plan :=
    match recv_plan rank, send_plan rank, num_trees_of rank, lower olds rank with
    | Some (fb, fe, recv), Some (tb, te, snd_, beg), Some nst, Some base =>
      let local :=
        if snd_ rank >? 0 then
          match beg rank with
          | None => None
          | Some b => local_loop r (tree_lasts r) (b - base) (b + snd_ rank - 1 - base) nst
                        (trips (k_first r) (k_last r)) (k_first r) (fun _ => 0)
          end
        else Some (fun _ => 0) in
      match local, send_all r rank nst base snd_ beg (trips tb te) tb with
      | Some loc, Some out => Some (mkplan fb fe recv tb te snd_ beg loc out)
      | _, _ => None
      end
    | _, _, _, _ => None
    end.

  (** ** after the messages have arrived

      [mail p] is the message from process p, if there is one.  A missing
      message means that the program hangs (None); the receive buffer has room
      for the trees and the number of elements that the receiver expects. *)
  Section Recv.
    Variable rank : Z.
    Variable r : rk.
    Variable pl : plan.
    Variable mail : Z -> option msg.

    (** counts per tree from one process: num_per_tree_recv_buf; the first
        component is first_from_tree, the second is num_recv_trees *)
    Definition from_counts (p : Z) : option (Z * Z * (Z -> Z) * list A) :=
      match zget gft p, num_trees_of p with
      | Some ft, Some nrt =>
        if p =? rank then Some (ft, nrt, p_local pl, [])
        else match mail p with
             | None => None
             | Some m => if (m_ntrees m =? nrt) && (zlen (m_elems m) =? p_recv pl p)
                         then Some (ft, nrt, m_counts m, m_elems m) else None
             end
      | _, _ => None
      end.

    Record tcount := mktcount { c_cnt : Z -> Z; c_bef : Z -> Z; c_newfirst : Z; c_newlast : Z }.

    (** lines 3332-3355 *)
    Fixpoint count_trees (lt_rank : bool) (ft : Z) (cnt : Z -> Z) (n : nat) (it : Z) (c : tcount) : option tcount :=
      match n with
      | O => Some c
      | S n' =>
        if cnt it >? 0 then
          let t := ft + it in
          if (0 <=? t) && (t <? T) then
            count_trees lt_rank ft cnt n' (it + 1)
              (mktcount (upd (c_cnt c) t (c_cnt c t + cnt it))
                        (upd (c_bef c) t (c_bef c t + if lt_rank then cnt it else 0))
                        (Z.min (c_newfirst c) t) (Z.max (c_newlast c) t))
          else None
        else count_trees lt_rank ft cnt n' (it + 1) c
      end.

    (** lines 3318-3357 *)
    Fixpoint count_procs (n : nat) (p : Z) (c : tcount) : option tcount :=
      match n with
      | O => Some c
      | S n' =>
        if p_recv pl p >? 0 then
          match from_counts p with
          | None => None
          | Some (ft, nrt, cnt, _) =>
            match count_trees (p <? rank) ft cnt (Z.to_nat nrt) 0 c with
            | None => None
            | Some c' => count_procs n' (p + 1) c'
            end
          end
        else count_procs n' (p + 1) c
      end.

    Definition topidx_max : Z := 2 ^ 31 - 1.

    (** lines 3308-3361 *)
    Definition count_new : option tcount :=
      match count_procs (trips (p_from_begin pl) (p_from_end pl)) (p_from_begin pl)
              (mktcount (fun _ => 0) (fun _ => 0) topidx_max 0) with
      | None => None
      | Some c => if c_newfirst c >? c_newlast c
                  then Some (mktcount (c_cnt c) (c_bef c) (-1) (-2)) else Some c
      end.

    (** one tree of the loop in lines 3396-3496 *)
    Definition keep_tree (c : tcount) (lt : Z -> Z) (my_begin my_end : Z) (t : Z) (arr : list (option A))
      : option (list (option A)) :=
      let islocal := (t >=? k_first r) && (t <=? k_last r) in
      if c_cnt c t >? 0 then
        if islocal then
          let num_quadrants := c_cnt c t in
          let from_begin := if t =? k_first r then 0 else lt (t - 1) + 1 in
          let from_end := lt t in
          let '(tfb, num_copy) :=
            if (from_begin <=? my_end) && (from_end >=? my_begin) then
              let tree_from_begin := Z.max my_begin from_begin - from_begin in
              let tree_from_end := Z.min my_end from_end - from_begin in
              (tree_from_begin, tree_from_end - tree_from_begin + 1)
            else (0, 0) in
          let arr := if num_quadrants >? zlen arr then resize arr num_quadrants else arr in
          match slice arr tfb num_copy with
          | None => None
          | Some s =>
            match blit arr (c_bef c t) s with
            | None => None
            | Some arr => Some (if num_quadrants <? zlen arr then resize arr num_quadrants else arr)
            end
          end
        else Some arr
      else if islocal then Some [] else Some arr.

    Fixpoint keep_loop (c : tcount) (lt : Z -> Z) (my_begin my_end : Z) (n : nat) (t : Z)
             (trees : Z -> list (option A)) : option (Z -> list (option A)) :=
      match n with
      | O => Some trees
      | S n' =>
        match keep_tree c lt my_begin my_end t (trees t) with
        | None => None
        | Some arr => keep_loop c lt my_begin my_end n' (t + 1) (upd trees t arr)
        end
      end.

    (** lines 3366-3497 *)
    Definition keep_local (c : tcount) (base : Z) : option (Z -> list (option A)) :=
      let first_tree := if (k_first r >=? 0) && (c_newfirst c >=? 0)
                        then Z.min (k_first r) (c_newfirst c) else Z.max (k_first r) (c_newfirst c) in
      let last_tree := Z.max (k_last r) (c_newlast c) in
      let inside := (p_to_begin pl <=? rank) && (p_to_end pl >=? rank) in
      match (if inside then p_beg pl rank else Some 0) with
      | None => None
      | Some b =>
        keep_loop c (tree_lasts r) (b - base) (b + p_send pl rank - 1 - base)
          (trips first_tree last_tree) first_tree (fun t => map Some (k_trees r t))
      end.

    (** lines 3528-3577: [quads] is what quad_recv_buf points to *)
    Fixpoint copy_trees (isrank : bool) (ft : Z) (cnt : Z -> Z) (c : tcount) (n : nat) (it : Z)
             (quads : list A) (trees : Z -> list (option A)) (bef : Z -> Z)
      : option ((Z -> list (option A)) * (Z -> Z)) :=
      match n with
      | O => Some (trees, bef)
      | S n' =>
        let t := ft + it in
        let num_copy := cnt it in
        if num_copy >? 0 then
          if (0 <=? t) && (t <? T) then
            if isrank then copy_trees isrank ft cnt c n' (it + 1) quads trees (upd bef t (bef t + num_copy))
            else
              match slice quads 0 num_copy with
              | None => None
              | Some s =>
                match blit (resize (trees t) (c_cnt c t)) (bef t) (map Some s) with
                | None => None
                | Some arr => copy_trees isrank ft cnt c n' (it + 1) (skipn (Z.to_nat num_copy) quads)
                                (upd trees t arr) (upd bef t (bef t + num_copy))
                end
              end
          else None
        else copy_trees isrank ft cnt c n' (it + 1) quads trees bef
      end.

    (** lines 3501-3579 *)
    Fixpoint copy_procs (c : tcount) (n : nat) (p : Z) (trees : Z -> list (option A)) (bef : Z -> Z)
      : option (Z -> list (option A)) :=
      match n with
      | O => Some trees
      | S n' =>
        if p_recv pl p >? 0 then
          match from_counts p with
          | None => None
          | Some (ft, nrt, cnt, quads) =>
            match copy_trees (p =? rank) ft cnt c (Z.to_nat nrt) 0 quads trees bef with
            | None => None
            | Some (trees, bef) => copy_procs c n' (p + 1) trees bef
            end
          end
        else copy_procs c n' (p + 1) trees bef
      end.

    (** read back the arrays of all trees; the list has one entry per tree *)
    Fixpoint read_trees (n : nat) (t : Z) (trees : Z -> list (option A)) : option (list (list A)) :=
      match n with
      | O => Some []
      | S n' =>
        match all_some (trees t), read_trees n' (t + 1) trees with
        | Some l, Some r => Some (l :: r)
        | _, _ => None
        end
      end.

    (** the quadrant arrays and the first and last local tree afterwards *)
    Definition given_recv : option rk :=
      match lower olds rank, count_new with
      | Some base, Some c =>
        match keep_local c base with
        | None => None
        | Some trees =>
          match copy_procs c (trips (p_from_begin pl) (p_from_end pl)) (p_from_begin pl) trees (fun _ => 0) with
          | None => None
          | Some trees =>
            match read_trees (Z.to_nat T) 0 trees with
            | None => None
            | Some l => Some (mkrk (c_newfirst c) (c_newlast c)
                                   (fun t => match zget l t with Some x => x | None => [] end))
            end
          end
        end
      | _, _ => None
      end.
  End Recv.

  (** *** all ranks *)
  Fixpoint mapi_opt {B C} (f : Z -> B -> option C) (i : Z) (l : list B) : option (list C) :=
    match l with
    | [] => Some []
    | x :: l' => match f i x, mapi_opt f (i + 1) l' with
                 | Some y, Some r => Some (y :: r)
                 | _, _ => None
                 end
    end.

  Fixpoint assoc {B} (k : Z) (l : list (Z * B)) : option B :=
    match l with
    | [] => None
    | (k', v) :: l' => if k' =? k then Some v else assoc k l'
    end.

  (** the message that process [p] has sent to process [q] *)
  Definition sent (pls : list plan) (p q : Z) : option msg :=
    match zget pls p with None => None | Some pl => assoc q (p_out pl) end.

  Definition given_all (ranks : list rk) : option (list rk) :=
    match mapi_opt given_send 0 ranks with
    | None => None
    | Some pls =>
      mapi_opt (fun i r => match zget pls i with
                           | None => None
                           | Some pl => given_recv i r pl (fun p => sent pls p i)
                           end) 0 ranks
    end.
End Given.

(** global_last_quad_index from global_first_quadrant, line 2894 *)
Definition old_lasts (gfq : list Z) : list Z := map (fun v => v - 1) (tl gfq).

(** p4est_partition_given on all ranks: the new local parts, the new
    global_first_quadrant (lines 3584-3592) and the return value *)
Definition partition_given {A} (T : Z) (gfq gft : list Z) (ranks : list (rk A)) (counts : list Z)
  : option (list (rk A) * list Z * Z) :=
  let olds := old_lasts gfq in
  let news := lasts (-1) counts in
  match given_all A T olds news gft ranks with
  | None => None
  | Some rs => Some (rs, 0 :: map (fun v => v + 1) news, shipped counts olds news)
  end.
