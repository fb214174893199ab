(** * What a valid forest is *)

From Coq Require Import ZArith List Bool Lia Arith ZifyBool Sorting.Sorted.
From Verif Require Import Quad Spec Interval Adapt AdaptSpec Tiles Partition PartTrees PartFinal Comm OwnerLemmas Forest.
Import ListNotations.
Open Scope Z_scope.

Section FS.
  Variable d : dim.
  Variables (St D : Type).
  Variable T : Z.

  (** the leaves of a tree on one rank *)
  Definition lvs (p : proc St D) (t : Z) : list (quad * D) := t_leaves D (ft D (pr_trees St D p t)).

  (** the leaves of all trees before t on one rank *)
  Definition lvs_before (p : proc St D) (t : Z) : Z := zlen (loc_from 0 (Z.to_nat t) (lvs p)).

  Definition descs_ok (fd ld : quad) (l : list (quad * D)) : Prop :=
    match l with
    | [] => fd = noquad /\ ld = noquad
    | lf :: r => fd = first_descendant d (fst lf) QMAXLEVEL /\ ld = last_descendant d (fst (last r lf)) QMAXLEVEL
    end.

  (** one rank: first_local_tree and last_local_tree delimit the trees with leaves; all counters,
      offsets and descendants are what the leaves say *)
  Definition proc_ok (p : proc St D) : Prop :=
    rk_ok T (rk_of St D p) /\
    pr_num St D p = lvs_before p T /\
    forall t, 0 <= t < T ->
      let x := pr_trees St D p t in
      t_off D (ft D x) = lvs_before p t /\
      (forall i, t_pl D (ft D x) i = nlev i (lvs p t)) /\ t_max D (ft D x) = maxlev (lvs p t) /\
      descs_ok (ft_fd D x) (ft_ld D x) (lvs p t).

  (** all leaves, with their trees, in the order of ranks, trees and array positions *)
  Definition all_leaves (ps : list (proc St D)) : list (Z * (quad * D)) :=
    flat_map (fun p => loc_from 0 (Z.to_nat T) (lvs p)) ps.

  (** the leaves of one rank, and their trees and quadrants without the user data *)
  Definition rank_leaves (p : proc St D) : list (Z * (quad * D)) := loc_from 0 (Z.to_nat T) (lvs p).
  Definition shape (p : proc St D) : list (Z * quad) := map (fun x => (fst x, fst (snd x))) (rank_leaves p).

  (** the forest: every rank is right; the trees are in order across the ranks; the leaves of a tree
      on all ranks together tile the whole tree; the global arrays are what the leaves say *)
  Definition forest_ok (F : forest St D) : Prop :=
    let ps := f_procs St D F in
    ps <> [] /\ Forall proc_ok ps /\
    lsorted (all_leaves ps) /\
    (forall t, 0 <= t < T -> tiles d 0 (TREE d) (map fst (flat_map (fun p => lvs p t) ps))) /\
    f_gnum St D F = zlen (all_leaves ps) /\
    f_gfq St D F = count_quadrants (map (pr_num St D) ps) /\
    global_partition fst T (map (rk_of St D) ps) = Some (f_gfp St D F).
End FS.
