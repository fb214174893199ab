(** * Model of the forest on all ranks: p4est_new_ext, p4est_refine_ext, p4est_coarsen_ext,
    p4est_partition_ext (src/p4est.c)

    A forest is the list of what every rank holds, together with the arrays that are the same
    on all ranks.  The callbacks of a rank act on a state of their own.  Memory pools, logging
    and user_pointer are left out. *)

From Coq Require Import ZArith List Bool Lia Arith.
From Verif Require Import Quad Search Adapt Partition Comm Cut Weighted Complete.
Import ListNotations.
Open Scope Z_scope.

Section Forest.
  Variable d : dim.
  Variables (St D : Type).
  Local Notation leaf := (quad * D)%type.
  Variable T : Z.               (* connectivity->num_trees *)
  Variable prec : Z.            (* precision of long double, see Cut.v *)

  (** p4est_tree_t with first_desc and last_desc, src/p4est.h 120-134 *)
  Record ftree := mkft { ft : tree D; ft_fd : quad; ft_ld : quad }.

  (** the local part of p4est_t, src/p4est.h 137-183: the state of the callbacks,
      first_local_tree, last_local_tree, local_num_quadrants, trees *)
  Record proc := mkproc { pr_s : St; pr_first : Z; pr_last : Z; pr_num : Z; pr_trees : Z -> ftree }.

  (** all ranks; global_first_quadrant, global_first_position, global_num_quadrants, revision *)
  Record forest := mkforest { f_procs : list proc; f_gfq : list Z; f_gfp : list marker; f_gnum : Z; f_rev : Z }.

  (** P4EST_QUADRANT_INIT, src/p4est.h 254-255: all bytes are set to 0xff *)
  Definition noquad : quad := mkq (-1) (-1) (-1) (-1).

  (** the local part as p4est_partition_given sees it *)
  Definition rk_of (p : proc) : rk leaf :=
    mkrk leaf (pr_first p) (pr_last p) (fun t => t_leaves D (ft (pr_trees p t))).

  Definition with_off (x : ftree) (off : Z) : ftree :=
    mkft (mktree D off (t_pl D (ft x)) (t_max D (ft x)) (t_leaves D (ft x))) (ft_fd x) (ft_ld x).
  (** "for (; nt < num_trees; ++nt) tree->quadrants_offset = ..." *)
  Definition trail (nt num : Z) (trees : Z -> ftree) : Z -> ftree :=
    fun t => if (nt <=? t) && (t <? T) then with_off (trees t) num else trees t.

  (** ** p4est_refine_ext, src/p4est.c 687-929 *)
  Section Refine.
    Variable init_fn : St -> Z -> quad -> St * D.
    Variable refine_fn : St -> Z -> quad -> D -> St * D * bool.
    Variable replace_fn : option (St -> Z -> leaf -> list leaf -> St * list D).
    Variable recursive : bool.
    Variable allowed_level : Z.
    Variable fuel : nat.

    (** lines 710-712 *)
    Definition allowed : Z := if allowed_level <? 0 then QMAXLEVEL else allowed_level.

    (** the loop over the local trees, lines 743-904 *)
    Fixpoint refine_trees (n : nat) (nt : Z) (s : St) (ln : Z) (trees : Z -> ftree) : option (St * Z * (Z -> ftree)) :=
      match n with
      | O => Some (s, ln, trees)
      | S n' =>
        if (0 <=? nt) && (nt <? T) then
          match refine_tree d St D init_fn refine_fn replace_fn recursive allowed nt fuel s (ft (trees nt)) ln with
          | None => None
          | Some (s, tr, ln) => refine_trees n' (nt + 1) s ln (upd trees nt (mkft tr (ft_fd (trees nt)) (ft_ld (trees nt))))
          end
        else None
      end.

    (** lines 740-910 *)
    Definition refine_proc (p : proc) : option proc :=
      match refine_trees (trips (pr_first p) (pr_last p)) (pr_first p) (pr_s p) 0 (pr_trees p) with
      | None => None
      | Some (s, ln, trees) =>
        Some (mkproc s (pr_first p) (pr_last p) ln (if pr_last p >=? 0 then trail (pr_last p + 1) ln trees else trees))
      end.
  End Refine.

  (** ** p4est_coarsen_ext, src/p4est.c 938-1133 *)
  Section Coarsen.
    Variable init_fn : St -> Z -> quad -> St * D.
    Variable coarsen_fn : St -> Z -> list leaf -> St * list D * bool.
    Variable replace_fn : option (St -> Z -> list leaf -> leaf -> St * D).
    Variables (recursive orphans : bool).

    (** the loop over the local trees, lines 973-1112 *)
    Fixpoint coarsen_trees (n : nat) (jt : Z) (s : St) (ln prev : Z) (trees : Z -> ftree) : option (St * Z * (Z -> ftree)) :=
      match n with
      | O => Some (s, ln, trees)
      | S n' =>
        if (0 <=? jt) && (jt <? T) then
          match coarsen_tree d St D init_fn coarsen_fn replace_fn recursive orphans jt s (ft (trees jt)) ln prev with
          | None => None
          | Some (s, tr, ln, prev) => coarsen_trees n' (jt + 1) s ln prev (upd trees jt (mkft tr (ft_fd (trees jt)) (ft_ld (trees jt))))
          end
        else None
      end.

    (** lines 971-1118 *)
    Definition coarsen_proc (p : proc) : option proc :=
      match coarsen_trees (trips (pr_first p) (pr_last p)) (pr_first p) (pr_s p) (pr_num p) 0 (pr_trees p) with
      | None => None
      | Some (s, ln, trees) =>
        Some (mkproc s (pr_first p) (pr_last p) ln (if pr_last p >=? 0 then trail (pr_last p + 1) ln trees else trees))
      end.
  End Coarsen.

  (** p4est_comm_count_quadrants and the update of the revision counter: lines 914-919 and
      1121-1126 *)
  Definition recount (F : forest) (ps : list proc) : option forest :=
    let gfq := count_quadrants (map pr_num ps) in
    match zget gfq (zlen ps) with
    | None => None
    | Some n => Some (mkforest ps gfq (f_gfp F) n (if f_gnum F =? n then f_rev F else f_rev F + 1))
    end.

  Definition refine_ext init_fn refine_fn replace_fn recursive allowed_level fuel (F : forest) : option forest :=
    match all_some (map (refine_proc init_fn refine_fn replace_fn recursive allowed_level fuel) (f_procs F)) with
    | None => None
    | Some ps => recount F ps
    end.

  Definition coarsen_ext init_fn coarsen_fn replace_fn recursive orphans (F : forest) : option forest :=
    match all_some (map (coarsen_proc init_fn coarsen_fn replace_fn recursive orphans) (f_procs F)) with
    | None => None
    | Some ps => recount F ps
    end.

  (** ** p4est_partition_given: what follows the exchange of the leaves *)

  (** counters of one tree, src/p4est_algorithms.c 3613-3621 *)
  Definition count_levels (leaves : list leaf) : (Z -> Z) * Z :=
    fold_left (fun c lf => (bump (fst c) (ql (fst lf)) 1, Z.max (ql (fst lf)) (snd c))) leaves (fun _ => 0, 0).

  (** lines 3604-3627: the trees from new_first_local_tree to new_last_local_tree *)
  Fixpoint rebuild_loop (r : rk leaf) (n : nat) (t : Z) (num : Z) (trees : Z -> ftree) : option (Z * (Z -> ftree)) :=
    match n with
    | O => Some (num, trees)
    | S n' =>
      match k_trees leaf r t with
      | [] => None
      | lf :: l =>
        let (pl, mx) := count_levels (lf :: l) in
        rebuild_loop r n' (t + 1) (num + zlen (lf :: l))
          (upd trees t (mkft (mktree D num pl mx (lf :: l)) (first_descendant d (fst lf) QMAXLEVEL)
                             (last_descendant d (fst (last l lf)) QMAXLEVEL)))
      end
    end.

  (** lines 3484-3496 (a tree that is no longer local is emptied) and 3595-3634 *)
  Definition rebuild (p : proc) (r : rk leaf) : option proc :=
    let first := k_first leaf r in
    let last := k_last leaf r in
    let cleared t :=
      let x := pr_trees p t in
      if (t >=? pr_first p) && (t <=? pr_last p) && (zlen (k_trees leaf r t) =? 0)
      then mktree D (t_off D (ft x)) (fun _ => 0) 0 []
      else ft x in
    let start t :=
      if t <? first then mkft (mktree D 0 (t_pl D (cleared t)) (t_max D (cleared t)) (t_leaves D (cleared t))) noquad noquad
      else mkft (cleared t) (ft_fd (pr_trees p t)) (ft_ld (pr_trees p t)) in
    match rebuild_loop r (trips (Z.max 0 first) last) (Z.max 0 first) 0 start with
    | None => None
    | Some (num, trees) =>
      Some (mkproc (pr_s p) first last num
        (fun t => if (Z.max 0 (last + 1) <=? t) && (t <? T)
                  then mkft (ft (with_off (trees t) num)) noquad noquad else trees t))
    end.

  Fixpoint rebuild_all (ps : list proc) (rs : list (rk leaf)) : option (list proc) :=
    match ps, rs with
    | [], [] => Some []
    | p :: ps', r :: rs' => match rebuild p r, rebuild_all ps' rs' with Some q, Some l => Some (q :: l) | _, _ => None end
    | _, _ => None
    end.

  (** p4est_partition_given on the forest: the new forest and the return value *)
  Definition given (F : forest) (counts : list Z) : option (forest * Z) :=
    match partition_given T (f_gfq F) (map g_tree (f_gfp F)) (map rk_of (f_procs F)) counts with
    | None => None
    | Some (rs, gfq, shipped) =>
      match rebuild_all (f_procs F) rs, global_partition fst T rs with
      | Some ps, Some ms => Some (mkforest ps gfq ms (f_gnum F) (f_rev F), shipped)
      | _, _ => None
      end
    end.

  (** ** p4est_partition_ext, src/p4est.c 2437-2789, with partition_for_coarsening = 0 *)

  (** lines 2490-2500 *)
  Fixpoint equal_counts (N P : Z) (n : nat) (p prev : Z) : list Z :=
    match n with
    | O => []
    | S n' => let next := partition_cut prec N (p + 1) P in (next - prev) :: equal_counts N P n' (p + 1) next
    end.

  (** the weights of the local leaves, lines 2512-2522 *)
  Definition weights (weight_fn : St -> Z -> quad -> D -> Z) (p : proc) : list Z :=
    flat_map (fun t => map (fun lf => weight_fn (pr_s p) t (fst lf) (snd lf)) (t_leaves D (ft (pr_trees p t))))
             (zseq (pr_first p) (trips (pr_first p) (pr_last p))).

  Definition partition_ext (weight_fn : option (St -> Z -> quad -> D -> Z)) (F : forest) : option (forest * Z) :=
    let P := zlen (f_procs F) in
    if P =? 1 then Some (F, 0)
    else
      let counts :=
        match weight_fn with
        | None => Some (Some (equal_counts (f_gnum F) P (Z.to_nat P) 0 0))
        | Some w => weighted_counts prec (map (weights w) (f_procs F))
        end in
      match counts with
      | None => None
      | Some None => Some (F, 0)
      | Some (Some counts) =>
        match given F counts with
        | None => None
        | Some (F', shipped) =>
          Some (mkforest (f_procs F') (f_gfq F') (f_gfp F') (f_gnum F') (if shipped =? 0 then f_rev F' else f_rev F' + 1), shipped)
        end
      end.

  (** ** p4est_new_ext, src/p4est.c 201-500 *)
  Section New.
    Variable init_fn : St -> Z -> quad -> St * D.
    Variables (min_quadrants min_level : Z) (fill_uniform : bool).
    Variable fuel : nat.

    (** lines 254-263 *)
    Fixpoint find_level (n : nat) (need level num : Z) : Z * Z :=
      match n with
      | O => (level, num)
      | S n' => if num >=? need then (level, num) else find_level n' need (level + 1) (num * children d)
      end.
    (** lines 264-267 *)
    Fixpoint raise_level (n : nat) (level num : Z) : Z * Z :=
      match n with O => (level, num) | S n' => raise_level n' (level + 1) (num * children d) end.

    (** level and tree_num_quadrants; None if the assertion in lines 268-269 does not hold
        (the following arithmetic is in 32 and 64 bit integers) *)
    Definition initial_level (P : Z) : option (Z * Z) :=
      let (level, num) := find_level (Z.to_nat QMAXLEVEL) ((P * min_quadrants + (T - 1)) / T) 0 1 in
      let (level, num) := raise_level (Z.to_nat (min_level - level)) level num in
      if (level <=? QMAXLEVEL) && (num <=? 2 ^ 31 - 1) then Some (level, num) else None.

    (** lines 410-421: an array of [n] quadrants beginning with [q] *)
    Fixpoint successors (n : nat) (q : quad) : option (list quad) :=
      match n with
      | O => Some []
      | S O => Some [q]
      | S n' => match successor d q with
                | None => None
                | Some q' => option_map (cons q) (successors n' q')
                end
      end.

    Section Rank.
      Variables (level num : Z).       (* level, tree_num_quadrants *)
      Variables (first_tree first_q last_tree last_q : Z).  (* first_tree_quadrant, last_tree_quadrant *)

      (** one tree: lines 342-439 without quadrants_offset *)
      Definition new_tree (s : St) (jt : Z) : option (St * ftree) :=
        let done s pl mx fd leaves :=
          match leaves with
          | [] => None
          | lf :: l => Some (s, mkft (mktree D 0 pl mx leaves) fd (last_descendant d (fst (last l lf)) QMAXLEVEL))
          end in
        if fill_uniform then
          let fm := if jt =? first_tree then first_q else 0 in
          let lm := if jt =? last_tree then last_q else num - 1 in
          let count := lm - fm + 1 in
          match successors (Z.to_nat count) (set_morton d level fm) with
          | None => None
          | Some qs =>
            let (s, leaves) := init_list St D init_fn s jt qs in
            done s (upd (fun _ => 0) level count) level (first_descendant d (set_morton d level fm) QMAXLEVEL) leaves
          end
        else
          let a := set_morton d level (if jt =? first_tree then first_q else 0) in
          let fd := first_descendant d a QMAXLEVEL in
          if (num =? 1) || ((jt =? first_tree) && (first_q =? num - 1)) then
            let (s, v) := init_fn s jt a in
            done s (upd (fun _ => 0) (ql a) 1) (ql a) fd [(a, v)]
          else
            let '(b, remove) :=
              if jt =? last_tree then
                if last_q =? num - 1 then (set_morton d level last_q, false)
                else (set_morton d level (last_q + 1), true)
              else (set_morton d level (num - 1), false) in
            match complete_region d St D init_fn jt fuel s (fun _ => 0) a true b (negb remove) with
            | None => None
            | Some st => done (c_s _ _ st) (c_pl _ _ st) (c_max _ _ st) fd (c_arr _ _ st)
            end.

      (** lines 331-446 *)
      Fixpoint new_trees (n : nat) (jt : Z) (s : St) (ln : Z) (trees : Z -> ftree) : option (St * Z * (Z -> ftree)) :=
        match n with
        | O => Some (s, ln, trees)
        | S n' =>
          match new_tree s jt with
          | None => None
          | Some (s, x) => new_trees n' (jt + 1) s (ln + zlen (t_leaves D (ft x))) (upd trees jt (with_off x ln))
          end
        end.
    End Rank.

    (** lines 310-325: an empty tree *)
    Definition empty_tree : ftree := mkft (mktree D 0 (fun _ => 0) 0 []) noquad noquad.

    (** one rank: lines 281-308, 331-456 *)
    Definition new_proc (P level num : Z) (rank : Z) (s : St) : option proc :=
      let N := num * T in
      let first_quadrant := partition_cut prec N rank P in
      let first_tree := first_quadrant / num in
      let last_quadrant := partition_cut prec N (rank + 1) P - 1 in
      let '(first_tree, first_q, last_tree, last_q) :=
        if first_quadrant <=? last_quadrant
        then (first_tree, first_quadrant - first_tree * num, last_quadrant / num, last_quadrant - last_quadrant / num * num)
        else (-1, first_quadrant - first_tree * num, -2, -1) in
      match new_trees level num first_tree first_q last_tree last_q (trips first_tree last_tree) first_tree s 0 (fun _ => empty_tree) with
      | None => None
      | Some (s, ln, trees) =>
        Some (mkproc s first_tree last_tree ln (if last_tree >=? 0 then trail (last_tree + 1) ln trees else trees))
      end.

    (** an entry of global_first_position: lines 475-488 *)
    Definition new_marker (P level num i : Z) : marker :=
      let first_quadrant := partition_cut prec (num * T) i P in
      let first_tree := first_quadrant / num in
      let c := set_morton d level (first_quadrant - first_tree * num) in
      mkmk first_tree (mkq (qx c) (qy c) (qz c) QMAXLEVEL).

    (** all ranks; [ss] are the states of the callbacks *)
    Definition new_ext (ss : list St) : option forest :=
      let P := zlen ss in
      match initial_level P with
      | None => None
      | Some (level, num) =>
        match mapi_opt (new_proc P level num) 0 ss with
        | None => None
        | Some ps =>
          let gfq := if negb fill_uniform && (level >? 0) then count_quadrants (map pr_num ps)
                     else map (fun i => partition_cut prec (num * T) i P) (zseq 0 (length ss + 1)) in
          match (if negb fill_uniform && (level >? 0) then zget gfq P else Some (num * T)) with
          | None => None
          | Some gnum => Some (mkforest ps gfq (map (new_marker P level num) (zseq 0 (length ss + 1))) gnum 0)
          end
        end
      end.
  End New.
End Forest.
