(** * Model of p4est_deflate_quadrants and p4est_inflate (src/p4est_io.c 173-433)

    The arrays are lists, one for every rank.  local_num_quadrants and
    quadrants_offset are taken without the conversion to p4est_locidx_t.  The
    entry of quadrants_per_level for level 30, which is set to -1, is left at 0
    as in the rest of the model.  Pools, logging and user_pointer are left out. *)

From Coq Require Import ZArith List Bool Lia Arith.
From Verif Require Import Quad Search Adapt Partition Comm Cut Weighted Forest.
Import ListNotations.
Open Scope Z_scope.

(** (int8_t) of a p4est_qcoord_t *)
Definition to_i8 (x : Z) : Z := (x + 128) mod 256 - 128.

Section Inflate.
  Variable d : dim.
  Variables (St D : Type).
  Local Notation leaf := (quad * D)%type.
  Local Notation proc := (proc St D).
  Variable T : Z.               (* connectivity->num_trees *)
  Variable nodata : D.          (* user data of a forest with data_size 0 *)

  (** ** p4est_deflate_quadrants, lines 173-220 *)

  (** what is written for one quadrant, lines 202-207 *)
  Definition words (q : quad) : list Z := [qx q; qy q] ++ (if is3 d then [qz q] else []) ++ [ql q].

  (** the loop over the local trees, lines 196-213 *)
  Definition local_leaves (p : proc) : list leaf :=
    flat_map (fun t => t_leaves D (ft D (pr_trees _ _ p t))) (zseq (pr_first _ _ p) (trips (pr_first _ _ p) (pr_last _ _ p))).
  Definition deflate (p : proc) : list Z * list D :=
    (flat_map (fun lf => words (fst lf)) (local_leaves p), map snd (local_leaves p)).

  (** ** p4est_inflate_internal, lines 222-402 *)

  (** one quadrant from the array, lines 349-357; None at the end of the array *)
  Definition read_quad (qa : list Z) : option (quad * list Z) :=
    match d, qa with
    | D2, x :: y :: l :: qa => Some (mkq x y 0 (to_i8 l), qa)
    | D3, x :: y :: z :: l :: qa => Some (mkq x y z (to_i8 l), qa)
    | _, _ => None
    end.
  (** its data, lines 362-366; [None] is a NULL pointer *)
  Definition read_data (da : option (list D)) : option (D * option (list D)) :=
    match da with
    | None => Some (nodata, None)
    | Some [] => None
    | Some (x :: da) => Some (x, Some da)
    end.

  (** the loop over the quadrants of a tree, lines 346-371.  The level counts
      at line 359 are in an array of MAXLEVEL + 1 entries. *)
  Fixpoint read_leaves (n : nat) (qa : list Z) (da : option (list D)) (pl : Z -> Z) (mx : Z) :
    option (list leaf * list Z * option (list D) * (Z -> Z) * Z) :=
    match n with
    | O => Some ([], qa, da, pl, mx)
    | S n' =>
      match read_quad qa, read_data da with
      | Some (q, qa), Some (x, da) =>
        if (0 <=? ql q) && (ql q <=? MAXLEVEL) then
          match read_leaves n' qa da (bump pl (ql q) 1) (Z.max mx (ql q)) with
          | Some (leaves, qa, da, pl, mx) => Some ((q, x) :: leaves, qa, da, pl, mx)
          | None => None
          end
        else None
      | _, _ => None
      end
    end.

  Section Rank.
    Variables (pertree : list Z) (first last : Z).

    (** the loop over all trees, lines 317-381.  A tree that is to get no
        quadrants is an access through NULL at line 374. *)
    Fixpoint inflate_trees (n : nat) (jt off remain skip : Z) (qa : list Z) (da : option (list D)) (trees : Z -> ftree D) :
      option (Z -> ftree D) :=
      match n with
      | O => Some trees
      | S n' =>
        if (jt >=? first) && (jt <=? last) then
          match zget pertree jt, zget pertree (jt + 1) with
          | Some a, Some b =>
            let count := Z.min (b - a - skip) remain in
            if count <? 0 then None else
            match read_leaves (Z.to_nat count) qa da (fun _ => 0) 0 with
            | Some (lf :: l, qa, da, pl, mx) =>
              inflate_trees n' (jt + 1) (off + count) (remain - count) 0 qa da
                (upd trees jt (mkft D (mktree D off pl mx (lf :: l)) (first_descendant d (fst lf) QMAXLEVEL)
                                    (last_descendant d (fst (List.last l lf)) QMAXLEVEL)))
            | _ => None
            end
          | _, _ => None
          end
        else inflate_trees n' (jt + 1) off remain skip qa da (upd trees jt (mkft D (mktree D off (fun _ => 0) 0 []) noquad noquad))
      end.
  End Rank.

  (** what a rank passes to the function besides the arrays that are the same
      on all ranks: its own state, quadrants, data *)
  Definition input : Type := (St * list Z * option (list D))%type.

  (** one rank, lines 284-383 *)
  Definition inflate_proc (gfq pertree : list Z) (rank : Z) (i : input) : option proc :=
    let '(s, qa, da) := i in
    match zget gfq rank, zget gfq (rank + 1) with
    | Some a, Some b =>
      if b - a >? 0 then
        let gk1 := bsearch_range a pertree (Z.to_nat T) 0 in
        let gk2 := bsearch_range (b - 1) pertree (Z.to_nat T) 0 in
        match zget pertree gk1 with
        | None => None
        | Some o =>
          match inflate_trees pertree gk1 gk2 (Z.to_nat T) 0 0 (b - a) (a - o) qa da (fun _ => empty_tree D) with
          | None => None
          | Some trees => Some (mkproc St D s gk1 gk2 (b - a) trees)
          end
        end
      else
        match inflate_trees pertree (-1) (-2) (Z.to_nat T) 0 0 (b - a) 0 qa da (fun _ => empty_tree D) with
        | None => None
        | Some trees => Some (mkproc St D s (-1) (-2) (b - a) trees)
        end
    | _, _ => None
    end.

  (** all ranks; the partition markers are found at line 388 *)
  Definition inflate (gfq pertree : list Z) (ins : list input) : option (forest St D) :=
    match mapi_opt (inflate_proc gfq pertree) 0 ins with
    | None => None
    | Some ps =>
      match global_partition fst T (map (rk_of St D) ps), zget gfq (zlen ins) with
      | Some ms, Some n => Some (mkforest St D ps gfq ms n 0)
      | _, _ => None
      end
    end.
End Inflate.
