(** * Model of p4est_wrap_mark_*, p4est_wrap_adapt and p4est_wrap_partition (src/p4est_wrap.c)

    The wrap structure is the state that the callbacks pass; every rank has
    one.  The user data of a leaf is [p.user_int], used for coarsen_delay (the
    wrap requires data_size 0).  Left out: ghost and mesh, the replace_fn of
    the user, hollow wraps, copies.  p4est_balance_ext is a parameter. *)

From Coq Require Import ZArith List Bool Lia Arith.
From Verif Require Import Quad Spec Search Adapt Partition Comm PartShip Weighted Forest Checksum.
Import ListNotations.
Open Scope Z_scope.

(** P4EST_WRAP_REFINE, P4EST_WRAP_COARSEN, src/p4est_wrap.h 47-53 *)
Definition REFINE : Z := 1.
Definition COARSEN : Z := 2.

(** the members flags, temp_flags (empty for NULL), num_refine_flags, inside_counter and
    num_replaced, src/p4est_wrap.h 133-134; [w_bad] records an access outside of an array *)
Record wrap := mkw { w_flags : list Z; w_temp : list Z; w_refines : Z; w_inside : Z; w_replaced : Z; w_bad : bool }.

(** checked access to an array of bytes *)
Definition get8 (l : list Z) (i : Z) : Z * bool :=
  if 0 <=? i then match nth_error l (Z.to_nat i) with Some v => (v, false) | None => (0, true) end else (0, true).
Definition set8 (l : list Z) (i v : Z) : list Z * bool :=
  if 0 <=? i then match aset l (Z.to_nat i) v with Some r => (r, false) | None => (l, true) end else (l, true).

Section Wrap.
  Variable d : dim.
  Local Notation leaf := (quad * Z)%type.

  (** ** Marking *)

  (** p4est_wrap_mark_refine, lines 612-637, and p4est_wrap_mark_coarsen, lines 639-664; the
      assertions on the arguments are not modelled *)
  Definition mark_refine (p : proc wrap Z) (which_tree which_quad : Z) : proc wrap Z :=
    let s := pr_s _ _ p in
    let pos := t_off _ (ft _ (pr_trees _ _ p which_tree)) + which_quad in
    let (flag, b1) := get8 (w_flags s) pos in
    let new := Z.land flag REFINE =? 0 in
    let '(fl, b2) := set8 (w_flags s) pos (Z.ldiff (if new then Z.lor flag REFINE else flag) COARSEN) in
    mkproc _ _ (mkw fl (w_temp s) (if new then w_refines s + 1 else w_refines s) (w_inside s) (w_replaced s) (w_bad s || b1 || b2))
           (pr_first _ _ p) (pr_last _ _ p) (pr_num _ _ p) (pr_trees _ _ p).
  Definition mark_coarsen (p : proc wrap Z) (which_tree which_quad : Z) : proc wrap Z :=
    let s := pr_s _ _ p in
    let pos := t_off _ (ft _ (pr_trees _ _ p which_tree)) + which_quad in
    let (flag, b1) := get8 (w_flags s) pos in
    let old := negb (Z.land flag REFINE =? 0) in
    let '(fl, b2) := set8 (w_flags s) pos (Z.lor (if old then Z.ldiff flag REFINE else flag) COARSEN) in
    mkproc _ _ (mkw fl (w_temp s) (if old then w_refines s - 1 else w_refines s) (w_inside s) (w_replaced s) (w_bad s || b1 || b2))
           (pr_first _ _ p) (pr_last _ _ p) (pr_num _ _ p) (pr_trees _ _ p).

  (** ** Adaptation *)
  Variables (delay : Z) (affect : bool).      (* params.coarsen_delay, params.coarsen_affect *)

  (** refine_callback, lines 35-60; the counter in user_int is not bounded *)
  Definition refine_callback (s : wrap) (_ : Z) (q : quad) (v : Z) : wrap * Z * bool :=
    let old_counter := w_inside s in
    let (flag, b1) := get8 (w_flags s) old_counter in
    let (fl, b2) := set8 (w_flags s) old_counter 0 in
    let (tf, b3) := set8 (w_temp s) (old_counter + (children d - 1) * w_replaced s) (Z.ldiff flag REFINE) in
    (mkw fl tf (w_refines s) (old_counter + 1) (w_replaced s) (w_bad s || b1 || b2 || b3),
     if negb (delay =? 0) && (0 <=? v) then v + 1 else v,
     negb (Z.land flag REFINE =? 0)).

  (** the loop lines 78-80; [n] members remain *)
  Fixpoint fill_flags (n : nat) (k pos flag : Z) (l : list Z) : list Z * bool :=
    match n with
    | O => (l, false)
    | S n' => let (l1, b1) := set8 l (pos + k) flag in
              let (l2, b2) := fill_flags n' (k + 1) pos flag l1 in (l2, b1 || b2)
    end.

  (** replace_on_refine, lines 62-95: state and user_int of the incoming quadrants *)
  Definition replace_on_refine (s : wrap) (_ : Z) (_ : leaf) (incoming : list leaf) : wrap * list Z :=
    let new_counter := w_inside s - 1 + (children d - 1) * w_replaced s in
    let (flag, b1) := get8 (w_temp s) new_counter in
    let (tf, b2) := fill_flags (childrenn d - 1) 1 new_counter flag (w_temp s) in
    (mkw (w_flags s) tf (w_refines s) (w_inside s) (w_replaced s + 1) (w_bad s || b1 || b2),
     if delay =? 0 then map snd incoming else map (fun _ => 0) incoming).

  (** the loop lines 113-123: whether all members can be coarsened; stops at the first that cannot *)
  Fixpoint may_coarsen (temp : list Z) (i : Z) (fam : list leaf) : bool * bool :=
    match fam with
    | [] => (true, false)
    | (_, v) :: fam' =>
      let (flag, b) := get8 temp i in
      if Z.land flag COARSEN =? 0 then (false, b)
      else if negb (delay =? 0) && (0 <=? v) && (v <=? delay) then (false, b)
      else let (r, b') := may_coarsen temp (i + 1) fam' in (r, b || b')
    end.

  (** coarsen_callback, lines 97-129; an orphan is a list of length one *)
  Definition coarsen_callback (s : wrap) (_ : Z) (q : list leaf) : wrap * list Z * bool :=
    let old_counter := w_inside s in
    match q with
    | _ :: _ :: _ =>
      let (yes, b) := may_coarsen (w_temp s) old_counter q in
      (if yes then mkw (w_flags s) (w_temp s) (w_refines s) (old_counter + children d) (w_replaced s + 1) (w_bad s || b)
       else mkw (w_flags s) (w_temp s) (w_refines s) (old_counter + 1) (w_replaced s) (w_bad s || b),
       map snd q, yes)
    | _ => (mkw (w_flags s) (w_temp s) (w_refines s) (old_counter + 1) (w_replaced s) (w_bad s), map snd q, false)
    end.

  (** replace_on_coarsen, lines 131-148 *)
  Definition replace_on_coarsen (s : wrap) (_ : Z) (_ : list leaf) (_ : leaf) : wrap * Z := (s, if affect then 0 else -1).

  (** p4est_quadrant_init_data, src/p4est_algorithms.c 89-105, with data_size 0 and no callback:
      user_data is NULL, which is taken to read as user_int 0 *)
  Definition init_null (s : wrap) (_ : Z) (_ : quad) : wrap * Z := (s, 0).

  Definition on_states (f : proc wrap Z -> wrap) (F : forest wrap Z) : forest wrap Z :=
    mkforest _ _ (map (fun p => mkproc _ _ (f p) (pr_first _ _ p) (pr_last _ _ p) (pr_num _ _ p) (pr_trees _ _ p)) (f_procs _ _ F))
             (f_gfq _ _ F) (f_gfp _ _ F) (f_gnum _ _ F) (f_rev _ _ F).

  (** the allocation of temp_flags, lines 721-723, and the counters, line 734 *)
  Definition start_refine (p : proc wrap Z) : wrap :=
    let s := pr_s _ _ p in
    mkw (w_flags s) (repeat 0 (Z.to_nat (pr_num _ _ p + (children d - 1) * w_refines s))) (w_refines s) 0 0 (w_bad s).
  (** line 746 *)
  Definition start_coarsen (p : proc wrap Z) : wrap :=
    let s := pr_s _ _ p in mkw (w_flags s) (w_temp s) (w_refines s) 0 0 (w_bad s).
  (** lines 760-761 and 798 *)
  Definition end_coarsen (p : proc wrap Z) : wrap :=
    let s := pr_s _ _ p in mkw (w_flags s) [] 0 (w_inside s) (w_replaced s) (w_bad s).

  Variable T : Z.

  (** refinement and coarsening in p4est_wrap_adapt, lines 720-761; the second result says whether
      the number of leaves changed in one of them.  num_refine_flags is set to 0 here already. *)
  Definition adapt_marks (fuel : nat) (F : forest wrap Z) : option (forest wrap Z * bool) :=
    match refine_ext d wrap Z T init_null refine_callback (Some replace_on_refine) false (-1) fuel (on_states start_refine F) with
    | None => None
    | Some F1 =>
      match coarsen_ext d wrap Z T init_null coarsen_callback (if delay =? 0 then None else Some replace_on_coarsen) false true (on_states start_coarsen F1) with
      | None => None
      | Some F2 => Some (on_states end_coarsen F2, negb (f_gnum _ _ F =? f_gnum _ _ F1) || negb (f_gnum _ _ F1 =? f_gnum _ _ F2))
      end
    end.

  (** new flags, lines 778-779, or the flags set to zero, lines 787-788 *)
  Definition new_flags (p : proc wrap Z) : wrap :=
    let s := pr_s _ _ p in mkw (repeat 0 (Z.to_nat (pr_num _ _ p))) (w_temp s) (w_refines s) (w_inside s) (w_replaced s) (w_bad s).
  Definition clear_flags (p : proc wrap Z) : wrap :=
    let s := pr_s _ _ p in
    let n := Z.to_nat (pr_num _ _ p) in
    mkw (repeat 0 (Nat.min n (length (w_flags s))) ++ skipn n (w_flags s)) (w_temp s) (w_refines s) (w_inside s) (w_replaced s)
        (w_bad s || Nat.ltb (length (w_flags s)) n).

  (** p4est_balance_ext with replace_on_balance, lines 765-767; have_zlib; byte order *)
  Variable balance : forest wrap Z -> option (forest wrap Z).
  Variables (have_zlib little : bool).

  (** p4est_wrap_adapt, lines 666-848, without newly_refined and newly_coarsened *)
  Definition adapt (fuel : nat) (F : forest wrap Z) : option (forest wrap Z * bool) :=
    match adapt_marks fuel F with
    | None => None
    | Some (F2, false) => Some (F2, false)
    | Some (F2, true) =>
      match balance F2 with
      | None => None
      | Some F3 =>
        let same := have_zlib && (f_gnum _ _ F =? f_gnum _ _ F3) &&
          match checksum d wrap Z little F, checksum d wrap Z little F3 with
          | Some a, Some b => a =? b
          | _, _ => false
          end in
        Some (if same then (on_states clear_flags F3, false) else (on_states new_flags F3, true))
      end
    end.
End Wrap.

(** ** Partition *)

(** p4est_wrap_partition_unchanged, lines 859-906: unchanged_first, unchanged_length and
    unchanged_old_first; the values fit p4est_locidx_t as they are bounded by local counts *)
Definition partition_unchanged (pre_me pre_next post_me post_next : Z) : Z * Z * Z :=
  if (pre_me <? post_next) && (post_me <? pre_next) then
    let unext := Z.min pre_next post_next in
    if pre_me <=? post_me then (0, unext - post_me, post_me - pre_me) else (pre_me - post_me, unext - pre_me, 0)
  else (0, 0, 0).

Section WrapPartition.
  Variable d : dim.
  Variable T prec : Z.
  Local Notation prc := (proc wrap Z).

  (** partition_weight, lines 850-857 *)
  Definition partition_weight (exponent : Z) (_ : wrap) (_ : Z) (q : quad) (_ : Z) : Z := Z.shiftl 1 (ql q * exponent).

  (** p4est_wrap_partition, lines 908-991, with partition_for_coarsening 0: forest, the windows of
      all ranks, and the value returned *)
  Definition wrap_partition (exponent : Z) (F : forest wrap Z) : option (forest wrap Z * list (Z * Z * Z) * bool) :=
    match partition_ext d wrap Z T prec (if exponent =? 0 then None else Some (partition_weight exponent)) F with
    | None => None
    | Some (F', shipped) =>
      if shipped >? 0 then
        let pre := f_gfq _ _ F in
        let post := f_gfq _ _ F' in
        Some (on_states new_flags F',
              map (fun r => partition_unchanged (nth r pre 0) (nth (S r) pre 0) (nth r post 0) (nth (S r) post 0)) (seq 0 (length (f_procs _ _ F'))),
              true)
      else Some (on_states clear_flags F', map (fun p => (0, pr_num _ _ p, 0)) (f_procs _ _ F'), false)
    end.
End WrapPartition.
