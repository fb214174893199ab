(** * Model of p4est_is_valid (src/p4est_algorithms.c 496-781) and p4est_inflate_null (src/p4est_io.c 436-456)

    The outcome [None] is an access outside of an array or an undefined shift.
    The parallel environment and the number of trees are always right in this
    model (lines 521-525 and 548-553).  The entry of quadrants_per_level for
    level 30 is not part of the model (lines 738-743). *)

From Coq Require Import ZArith List Bool Lia Arith.
From Verif Require Import Quad Tree Search Adapt Partition Comm Cut Weighted Forest Inflate.
Import ListNotations.
Open Scope Z_scope.

(** "first check, then the rest"; the rest is not executed after a failure *)
Definition andthen (a : option bool) (b : option bool) : option bool :=
  match a with Some true => b | _ => a end.
Infix "&&>" := andthen (at level 40, left associativity).

(** P4EST_QUADRANT_LEN is defined for levels 0 to MAXLEVEL *)
Definition lev_ok (q : quad) : bool := (0 <=? ql q) && (ql q <=? MAXLEVEL).
Definition defined (b : bool) : option bool := if b then Some true else None.

(** p4est_quadrant_in_range: src/p4est_algorithms.c 187-222 *)
Definition in_range (d : dim) (fd ld q : quad) : bool :=
  is_valid d q
  && negb ((compare d fd q >? 0) && coords_differ d fd q)
  && negb (compare d (last_descendant d q QMAXLEVEL) ld >? 0).

(** p4est_quadrant_is_next with its shifts *)
Definition next_chk (d : dim) (q r : quad) : option bool :=
  defined (lev_ok q && lev_ok r) &&> Some (is_next d q r).

(** p4est_tree_is_complete: src/p4est_algorithms.c 337-358 *)
Fixpoint complete_chk (d : dim) (q : quad) (l : list quad) : option bool :=
  match l with
  | [] => Some true
  | r :: l' => next_chk d q r &&> complete_chk d r l'
  end.
Definition tree_complete_chk (d : dim) (l : list quad) : option bool :=
  match l with [] => Some true | q :: l' => complete_chk d q l' end.

Section Valid.
  Variable d : dim.
  Variables (St D : Type).
  Local Notation leaf := (quad * D)%type.
  Local Notation proc := (proc St D).
  Local Notation forest := (forest St D).
  Variable T : Z.

  Definition coords0 (q : quad) : bool := (qx q =? 0) && (qy q =? 0) && (negb (is3 d) || (qz q =? 0)).

  (** lines 564-602; [m] is global_first_position[rank] *)
  Definition check_first (gfp : list marker) (rank : Z) (p : proc) : option bool :=
    if pr_first _ _ p <? 0 then Some ((pr_first _ _ p =? -1) && (pr_last _ _ p =? -2))
    else match zget gfp rank with
         | None => None
         | Some m =>
           Some (g_tree m =? pr_first _ _ p) &&> defined (pr_first _ _ p <? T) &&>
           let x := pr_trees _ _ p (pr_first _ _ p) in
           match t_leaves _ (ft _ x) with
           | [] => Some true
           | lf :: _ => Some (negb (coords_differ d (fst lf) (g_quad m))) &&> Some (in_range d (ft_fd _ x) (ft_ld _ x) (fst lf))
           end
         end.

  (** lines 604-666; [m] is global_first_position[rank + 1] *)
  Definition check_last (gfp : list marker) (rank : Z) (p : proc) : option bool :=
    if pr_last _ _ p <? 0 then Some ((pr_first _ _ p =? -1) && (pr_last _ _ p =? -2))
    else match zget gfp (rank + 1) with
         | None => None
         | Some m =>
           Some ((g_tree m =? pr_last _ _ p) || (g_tree m =? pr_last _ _ p + 1)) &&>
           Some (negb (g_tree m =? pr_last _ _ p + 1) || coords0 (g_quad m)) &&>
           defined (pr_last _ _ p <? T) &&>
           let x := pr_trees _ _ p (pr_last _ _ p) in
           match t_leaves _ (ft _ x) with
           | [] => Some true
           | lf :: l =>
             let q := fst (last l lf) in
             (if g_tree m =? pr_last _ _ p then
                next_chk d q (mkq (qx (g_quad m)) (qy (g_quad m)) (qz (g_quad m)) QMAXLEVEL)
              else
                let s := last_descendant d q QMAXLEVEL in
                let mh := QLEN QMAXLEVEL in
                defined (lev_ok q) &&>
                Some ((qx s + mh =? ROOT_LEN) && (qy s + mh =? ROOT_LEN) && (negb (is3 d) || (qz s + mh =? ROOT_LEN)))) &&>
             Some (in_range d (ft_fd _ x) (ft_ld _ x) q)
           end
         end.

  (** the counters of a tree, lines 722-744: nquadrants and maxlevel *)
  Fixpoint level_sums (pl : Z -> Z) (levels : list Z) (n mx : Z) : option (Z * Z) :=
    match levels with
    | [] => Some (n, mx)
    | i :: levels' =>
      if pl i <? 0 then None else level_sums pl levels' (n + pl i) (if pl i >? 0 then i else mx)
    end.

  (** one tree, lines 671-758; [lq] is lquadrants before it *)
  Definition check_tree (p : proc) (jt lq : Z) : option bool :=
    let x := pr_trees _ _ p jt in
    let leaves := t_leaves _ (ft _ x) in
    Some (t_off _ (ft _ x) =? lq) &&> tree_complete_chk d (map fst leaves) &&>
    match leaves with
    | [] => Some ((ql (ft_fd _ x) =? -1) && (ql (ft_ld _ x) =? -1))
    | lf :: l =>
      Some (negb ((jt <? pr_first _ _ p) || (jt >? pr_last _ _ p))) &&>
      Some (is_equal d (first_descendant d (fst lf) QMAXLEVEL) (ft_fd _ x)) &&>
      defined (lev_ok (fst (last l lf))) &&>
      Some (is_equal d (last_descendant d (fst (last l lf)) QMAXLEVEL) (ft_ld _ x))
    end &&>
    Some (match level_sums (t_pl _ (ft _ x)) (zseq 0 30) 0 0 with
          | None => false
          | Some (n, mx) => (mx =? t_max _ (ft _ x)) && (n =? zlen leaves)
          end).

  (** the loop over the trees; afterwards local_num_quadrants, lines 668-765.
      What is added to lquadrants is equal to the number of leaves. *)
  Fixpoint check_trees (p : proc) (n : nat) (jt lq : Z) : option bool :=
    match n with
    | O => Some (lq =? pr_num _ _ p)
    | S n' => check_tree p jt lq &&> check_trees p n' (jt + 1) (lq + zlen (t_leaves _ (ft _ (pr_trees _ _ p jt))))
    end.

  (** one rank *)
  Definition valid_rank (F : forest) (rank : Z) (p : proc) : option bool :=
    let P := zlen (f_procs _ _ F) in
    Some (negb (f_rev _ _ F <? 0)) &&>
    match zget (f_gfp _ _ F) P with
    | None => None
    | Some m => Some ((g_tree m =? T) && coords0 (g_quad m))
    end &&>
    Some (forallb (fun m => ql (g_quad m) =? QMAXLEVEL) (f_gfp _ _ F)) &&>
    check_first (f_gfp _ _ F) rank p &&> check_last (f_gfp _ _ F) rank p &&>
    check_trees p (Z.to_nat T) 0 0 &&>
    match zget (f_gfq _ _ F) 0, zget (f_gfq _ _ F) P with
    | Some a, Some b => Some ((a =? 0) && (b =? f_gnum _ _ F))
    | _, _ => None
    end.

  (** all ranks: the result is 0 if any of them has failed, line 780 *)
  Fixpoint valid_ranks (F : forest) (rank : Z) (ps : list proc) : option bool :=
    match ps with
    | [] => Some true
    | p :: ps' => match valid_rank F rank p, valid_ranks F (rank + 1) ps' with
                  | Some a, Some b => Some (a && b)
                  | _, _ => None
                  end
    end.
  Definition forest_is_valid (F : forest) : option bool := valid_ranks F 0 (f_procs _ _ F).

  (** p4est_inflate_null, lines 436-456: the outer option is undefined
      behaviour, the inner one the NULL result *)
  Definition inflate_null (nodata : D) (gfq pertree : list Z) (ins : list (input St D)) : option (option forest) :=
    match inflate d St D T nodata gfq pertree ins with
    | None => None
    | Some F => match forest_is_valid F with
                | None => None
                | Some true => Some (Some F)
                | Some false => Some None
                end
    end.
End Valid.
