(** * Model of p4est_complete_region and p4est_linearize_tree (src/p4est_algorithms.c) *)

From Coq Require Import ZArith List Bool Arith.
From Verif Require Import Quad Adapt.
Import ListNotations.
Open Scope Z_scope.

Section Complete.
  Variable d : dim.
  Variables (St D : Type).
  Local Notation leaf := (quad * D)%type.

  (** ** p4est_linearize_tree, lines 2659-2738 *)

  (** state of the loop lines 2693-2712: array, current, quadrants_per_level, removed and the
      data freed so far; rest is determined by the number of iterations [n] left.  q1 points to
      entry current of the array at all times. *)
  Fixpoint lin_loop (n : nat) (arr : list leaf) (current rest : nat) (pl : Z -> Z) (removed : Z) (freed : list D)
    : option (list leaf * nat * (Z -> Z) * Z * list D) :=
    match n with
    | O => Some (arr, current, pl, removed, freed)
    | S n' =>
      match nth_error arr current, nth_error arr rest with
      | Some (q1, v1), Some (q2, v2) =>
        if is_equal d q1 q2 || is_ancestor d q1 q2 then
          match aset arr current (q2, v2) with
          | None => None
          | Some arr => lin_loop n' arr current (rest + 1) (bump pl (ql q1) (-1)) (removed + 1) (freed ++ [v1])
          end
        else
          let current := (current + 1)%nat in
          if Nat.ltb current rest then
            match aset arr current (q2, v2) with
            | None => None
            | Some arr => lin_loop n' arr current (rest + 1) pl removed freed
            end
          else lin_loop n' arr current (rest + 1) pl removed freed
      | _, _ => None
      end
    end.

  (** highest level with a positive counter, lines 2717-2727 *)
  Fixpoint max_counter (n : nat) (i : Z) (pl : Z -> Z) (mx : Z) : Z :=
    match n with
    | O => mx
    | S n' => max_counter n' (i + 1) pl (if pl i >? 0 then i else mx)
    end.

  (** the tree afterwards, the number of removed quadrants and their data *)
  Definition linearize_tree (tr : tree D) : option (tree D * Z * list D) :=
    let incount := length (t_leaves _ tr) in
    if Nat.leb incount 1 then Some (tr, 0, [])
    else
      match lin_loop (incount - 1) (t_leaves _ tr) 0 1 (t_pl _ tr) 0 [] with
      | None => None
      | Some (arr, current, pl, removed, freed) =>
        Some (mktree D (t_off _ tr) pl (max_counter (Z.to_nat (QMAXLEVEL + 1)) 0 pl 0) (firstn (current + 1) arr), removed, freed)
      end.

  (** ** p4est_complete_region, lines 1347-1515 *)
  Variable init_fn : St -> Z -> quad -> St * D.
  Variable t : Z.      (* which_tree *)

  (** user state, array, maxlevel, quadrants_per_level *)
  Record cst := mkcst { c_s : St; c_arr : list leaf; c_max : Z; c_pl : Z -> Z }.

  (** push a copy of q and initialise it: lines 1406-1411, 1454-1460, 1499-1504 *)
  Definition cpush (st : cst) (q : quad) : cst :=
    let (s, v) := init_fn (c_s st) t q in
    mkcst s (c_arr st ++ [(q, v)]) (Z.max (ql q) (c_max st)) (bump (c_pl st) (ql q) 1).

  (** "while (W->elem_count > 0)", lines 1445-1496 *)
  Fixpoint region_loop (fuel : nat) (a b : quad) (W : list quad) (st : cst) : option cst :=
    match W with
    | [] => Some st
    | w :: W' =>
      match fuel with
      | O => None
      | S f =>
        if (compare d a w <? 0) && (compare d w b <? 0) && negb (is_ancestor d w b)
        then region_loop f a b W' (cpush st w)
        else if is_ancestor d w a || is_ancestor d w b
        then region_loop f a b (childrenv d w ++ W') st
        else region_loop f a b W' st
      end
    end.

  (** the whole function on an empty tree, the counters as the caller provides them *)
  Definition complete_region (fuel : nat) (s : St) (pl : Z -> Z) (q1 : quad) (inc1 : bool) (q2 : quad) (inc2 : bool) : option cst :=
    let comp := compare d q1 q2 in
    let st := mkcst s [] 0 pl in
    let st := if inc1 then cpush st q1 else st in
    if comp <? 0 then
      match region_loop fuel q1 q2 (childrenv d (nearest_common_ancestor d q1 q2)) st with
      | None => None
      | Some st => Some (if inc2 then cpush st q2 else st)
      end
    else Some st.
End Complete.
