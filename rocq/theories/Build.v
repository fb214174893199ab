(** * Model of p4est_build (src/p4est_build.c): a forest made leaf by leaf *)

From Coq Require Import ZArith List Bool Arith.
From Verif Require Import Quad Adapt Balance Partition Comm Weighted Complete Forest.
Import ListNotations.
Open Scope Z_scope.

Section Build.
  Variable d : dim.
  Variables (St D : Type).
  Variable T : Z.               (* connectivity->num_trees *)
  Variable bsearch : list quad -> quad -> option nat.   (* passed to Balance.v, not used to complete a tree *)
  Variable fuel : nat.          (* for the loops of the completion functions *)
  Variable init_fn : St -> Z -> quad -> St * D.
  Local Notation fn := (St -> Z -> quad -> St * D).

  (** struct p4est_build, lines 39-54: the new forest, cur_tree, cur_maxlevel, prev, add_init_fn.
      The pointers tree and tquadrants always point to tree cur_tree and its leaves.  The new data
      size and user pointer of the code are the same type [D] and state [St] here; the types are
      arbitrary, so they may hold both the old and the new data. *)
  Record build := mkbuild { b_p : proc St D; b_tree : Z; b_max : Z; b_prev : quad; b_add : fn }.

  Definition set_tree (p : proc St D) (t : Z) (s : St) (x : tree D) : proc St D :=
    let y := pr_trees _ _ p t in
    mkproc St D s (pr_first _ _ p) (pr_last _ _ p) (pr_num _ _ p) (upd (pr_trees _ _ p) t (mkft D x (ft_fd _ y) (ft_ld _ y))).

  (** p4est_build_begin_tree, lines 56-86 *)
  Definition begin_tree (b : build) (t off : Z) : option build :=
    if (0 <=? t) && (t <? T) then
      let x := ft D (pr_trees _ _ (b_p b) t) in
      Some (mkbuild (set_tree (b_p b) t (pr_s _ _ (b_p b)) (mktree D off (t_pl _ x) 0 (t_leaves _ x)))
              t (t_max _ x) (mkq (qx (b_prev b)) (qy (b_prev b)) (qz (b_prev b)) (-1)) (b_add b))
    else None.

  (** p4est_build_new, lines 88-169, on one rank.  cur_tree is not initialised on an empty rank,
      and prev never but for its level; they are -1 and 0 here. *)
  Definition build_new (p : proc St D) : option build :=
    let trees := fun t => mkft D (mktree D 0 (fun _ => 0) (t_max _ (ft D (pr_trees _ _ p t))) []) (ft_fd D (pr_trees _ _ p t)) (ft_ld D (pr_trees _ _ p t)) in
    let b := mkbuild (mkproc St D (pr_s _ _ p) (pr_first _ _ p) (pr_last _ _ p) 0 trees) (-1) 0 (mkq 0 0 0 0) init_fn in
    if pr_first _ _ p >=? 0 then begin_tree b (pr_first _ _ p) 0 else Some b.

  (** p4est_build_init_add, lines 171-178 *)
  Definition build_init_add (b : build) (f : fn) : build := mkbuild (b_p b) (b_tree b) (b_max b) (b_prev b) f.

  (** p4est_build_end_tree, lines 180-264: the leaves of the current tree, lines 208-257 *)
  Definition end_leaves (t : Z) (y : ftree D) (cur_max : Z) (s : St) : option (St * tree D) :=
    let x := ft D y in
    match t_leaves _ x with
    | [] =>
      let qf := if cur_max <? QMAXLEVEL then ancestor d (ft_fd _ y) cur_max else ft_fd _ y in
      let ql' := if cur_max <? QMAXLEVEL then ancestor d (ft_ld _ y) cur_max else ft_ld _ y in
      let a := nearest_common_ancestor d qf ql' in
      if is_first_last d qf ql' a then
        let (s, v) := init_fn s t a in
        Some (s, mktree D (t_off _ x) (upd (t_pl _ x) (ql a) 1) (ql a) [(a, v)])
      else
        let cf := child d a (ancestor_id d qf (ql a + 1)) in
        let cl := child d a (ancestor_id d ql' (ql a + 1)) in
        match complete_region d St D init_fn t fuel s (t_pl _ x) (enlarge_first d cf qf) true (enlarge_last d cl ql') true with
        | None => None
        | Some st => Some (c_s _ _ st, mktree D (t_off _ x) (c_pl _ _ st) (c_max _ _ st) (c_arr _ _ st))
        end
    | _ => complete_subtree d bsearch St D init_fn t fuel (ft_fd _ y) (ft_ld _ y) s x
    end.
  Definition end_tree (b : build) : option (build * Z) :=
    let t := b_tree b in
    if (0 <=? t) && (t <? T) then
      match end_leaves t (pr_trees _ _ (b_p b) t) (b_max b) (pr_s _ _ (b_p b)) with
      | None => None
      | Some (s, x) => Some (mkbuild (set_tree (b_p b) t s x) t (b_max b) (b_prev b) (b_add b), t_off _ x + zlen (t_leaves _ x))
      end
    else None.

  (** "while (which_tree > build->cur_tree)", lines 285-289 and 347-351 *)
  Fixpoint advance (n : nat) (b : build) : option build :=
    match n with
    | O => Some b
    | S n' =>
      match end_tree b with
      | None => None
      | Some (b, off) =>
        match begin_tree b (b_tree b + 1) off with
        | None => None
        | Some b => advance n' b
        end
      end
    end.

  (** p4est_build_add, lines 266-329 *)
  Definition build_add (b : build) (t : Z) (q : quad) : option (build * bool) :=
    match advance (Z.to_nat (t - b_tree b)) b with
    | None => None
    | Some b =>
      let ct := b_tree b in
      if (0 <=? ct) && (ct <? T) then
        if (ql (b_prev b) >=? 0) && is_equal d (b_prev b) q then Some (b, false)
        else
          let x := ft D (pr_trees _ _ (b_p b) ct) in
          let (s, v) := b_add b (pr_s _ _ (b_p b)) t q in
          Some (mkbuild (set_tree (b_p b) ct s (mktree D (t_off _ x) (bump (t_pl _ x) (ql q) 1) (if ql q >? t_max _ x then ql q else t_max _ x) (t_leaves _ x ++ [(q, v)])))
                  ct (b_max b) q (b_add b), true)
      else None
    end.

  (** p4est_build_complete without p4est_comm_count_quadrants, lines 331-377 *)
  Definition build_finish (b : build) : option (proc St D) :=
    let p := b_p b in
    if pr_first _ _ p <=? pr_last _ _ p then
      match advance (Z.to_nat (pr_last _ _ p - b_tree b)) b with
      | None => None
      | Some b =>
        match end_tree b with
        | None => None
        | Some (b, num) =>
          let p := b_p b in
          Some (mkproc St D (pr_s _ _ p) (pr_first _ _ p) (pr_last _ _ p) num (trail D T (pr_last _ _ p + 1) num (pr_trees _ _ p)))
        end
      end
    else Some p.

  (** what a rank does between p4est_build_new and p4est_build_complete *)
  Inductive bop := OInit (f : fn) | OAdd (t : Z) (q : quad).
  Fixpoint run (ops : list bop) (b : build) : option (build * list bool) :=
    match ops with
    | [] => Some (b, [])
    | OInit f :: ops => run ops (build_init_add b f)
    | OAdd t q :: ops =>
      match build_add b t q with
      | None => None
      | Some (b, r) => match run ops b with None => None | Some (b, rs) => Some (b, r :: rs) end
      end
    end.

  (** the new local part of the forest, and what the calls of p4est_build_add returned *)
  Definition build_rank (p : proc St D) (ops : list bop) : option (proc St D * list bool) :=
    match build_new p with
    | None => None
    | Some b =>
      match run ops b with
      | None => None
      | Some (b, rs) => match build_finish b with None => None | Some p => Some (p, rs) end
      end
    end.

  (** all ranks: global_first_position is copied in lines 126-127, the rest comes from
      p4est_comm_count_quadrants in line 381; the revision is 0 from line 110 *)
  Definition build_forest (F : forest St D) (opss : list (list bop)) : option (forest St D * list (list bool)) :=
    match all_some (map (fun x => build_rank (fst x) (snd x)) (combine (f_procs _ _ F) opss)) with
    | None => None
    | Some rs =>
      let ps := map fst rs in
      let gfq := count_quadrants (map (pr_num St D) ps) in
      match zget gfq (zlen ps) with
      | None => None
      | Some n => Some (mkforest St D ps gfq (f_gfp _ _ F) n 0, map snd rs)
      end
    end.
End Build.
