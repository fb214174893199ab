(** * Model of p4est_refine_ext and p4est_coarsen_ext (src/p4est.c)

    A leaf is a quadrant with its user data.  The quadrant struct holds a
    pointer to the data; the struct is only copied, never duplicated, so that
    the data can be treated as a value that moves with the leaf.  Callbacks
    are functions that pass a state and may replace the data of the quadrants
    that they are given. *)

From Coq Require Import ZArith List Bool Lia Arith.
From Verif Require Import Quad.
Import ListNotations.
Open Scope Z_scope.

(** checked array access; an entry is [None] after growing the array until it
    is written (uninitialised memory) *)
Fixpoint aset {A} (l : list A) (i : nat) (v : A) : option (list A) :=
  match l, i with
  | [], _ => None
  | _ :: l', O => Some (v :: l')
  | x :: l', S i' => match aset l' i' v with None => None | Some r => Some (x :: r) end
  end.
Definition aget {A} (l : list (option A)) (i : nat) : option A :=
  match nth_error l i with Some (Some v) => Some v | _ => None end.

(** quadrants_per_level as a function of the level; only levels
    0..P4EST_QMAXLEVEL occur as index *)
Definition bump (pl : Z -> Z) (l k : Z) : Z -> Z := fun i => if i =? l then pl i + k else pl i.

Section Adapt.
  Variable d : dim.
  Variables (St D : Type).
  Local Notation leaf := (quad * D)%type.

  (** p4est_tree_t, src/p4est.h 120-134; the descendants are left out *)
  Record tree := mktree { t_off : Z; t_pl : Z -> Z; t_max : Z; t_leaves : list leaf }.

  (** data written by a callback into the quadrants of a list *)
  Fixpoint rezip (cs : list leaf) (ds : list D) : list leaf :=
    match cs, ds with
    | (q, _) :: cs', v :: ds' => (q, v) :: rezip cs' ds'
    | _, _ => cs
    end.

  (** p4est_quadrant_init_data, src/p4est_algorithms.c 89-105: the callback of p4est_init_t;
      without callback the data is what the allocation returns *)
  Variable init_fn : St -> Z -> quad -> St * D.

  Fixpoint init_list (s : St) (t : Z) (l : list quad) : St * list leaf :=
    match l with
    | [] => (s, [])
    | q :: l' => let (s1, v) := init_fn s t q in
                 let (s2, r) := init_list s1 t l' in (s2, (q, v) :: r)
    end.

  (** ** Refinement *)
  Section Refine.
    Variable refine_fn : St -> Z -> quad -> D -> St * D * bool.
    (** p4est_replace_t called with one outgoing and the incoming quadrants *)
    Variable replace_fn : option (St -> Z -> leaf -> list leaf -> St * list D).
    Variable recursive : bool.
    Variable allowed : Z.         (* after "if (allowed_level < 0)" *)
    Variable nt : Z.

    (** create the children of a leaf: src/p4est.c 789-866 *)
    Definition split_leaf (s : St) (lf : leaf) : St * list leaf :=
      let (s1, ch) := init_list s nt (childrenv d (fst lf)) in
      match replace_fn with
      | None => (s1, ch)
      | Some f => let (s2, ds) := f s1 nt lf ch in (s2, rezip ch ds)
      end.

    (** scan for the first quadrant to refine: src/p4est.c 752-768.  Result:
        state, array, current, counters; [n] counts the remaining entries. *)
    Fixpoint refine_scan (n : nat) (s : St) (arr : list (option leaf)) (current : nat)
             (pl : Z -> Z) (maxlevel : Z) : option (St * list (option leaf) * nat * (Z -> Z) * Z) :=
      match n with
      | O => Some (s, arr, current, pl, maxlevel)
      | S n' =>
        match aget arr current with
        | None => None
        | Some (q, v) =>
          let '(s, v, yes) := refine_fn s nt q v in
          match aset arr current (Some (q, v)) with
          | None => None
          | Some arr =>
            if yes && (ql q <? allowed) then Some (s, arr, current, pl, maxlevel)
            else refine_scan n' s arr (current + 1) (bump pl (ql q) 1) (Z.max maxlevel (ql q))
          end
        end
      end.

    (** state of the loop src/p4est.c 786-892; list entries carry pad8 *)
    Record rst := mkrst {
      r_s : St; r_arr : list (option leaf); r_list : list (leaf * bool);
      r_cur : nat; r_rest : nat; r_first : bool; r_pl : Z -> Z; r_max : Z }.

    (** the inner loop src/p4est.c 873-881 *)
    Fixpoint read_more (n : nat) (arr : list (option leaf)) (l : list (leaf * bool)) (rest : nat)
      : option (list (leaf * bool) * nat) :=
      match n with
      | O => Some (l, rest)
      | S n' => match aget arr rest with
                | None => None
                | Some lf => read_more n' arr (l ++ [(lf, false)]) (rest + 1)
                end
      end.

    Definition toread : nat := 32.     (* number_toread_quadrants, src/p4est.c 77 *)

    (** one iteration of the loop with the popped element *)
    Definition refine_step (incount : nat) (st : rst) (lf : leaf) (pad : bool) (tl : list (leaf * bool))
      : option rst :=
      let '(s, lf, go) :=
        if r_first st then (r_s st, lf, true)
        else if recursive || negb pad then
          let '(s, v, yes) := refine_fn (r_s st) nt (fst lf) (snd lf) in
          (s, (fst lf, v), yes && (ql (fst lf) <? allowed))
        else (r_s st, lf, false) in
      if go then
        let arr := r_arr st ++ repeat None (childrenn d - 1) in
        let (s, ch) := split_leaf s lf in
        Some (mkrst s arr (map (fun c => (c, true)) ch ++ tl)
                    (r_cur st) (r_rest st) false (r_pl st) (r_max st))
      else
        let more :=
          if Nat.ltb (r_rest st) incount && Nat.eqb (r_cur st) (r_rest st)
          then read_more (Nat.min (incount - r_rest st) toread) (r_arr st) tl (r_rest st)
          else Some (tl, r_rest st) in
        match more with
        | None => None
        | Some (l, rest) =>
          match aset (r_arr st) (r_cur st) (Some lf) with
          | None => None
          | Some arr =>
            Some (mkrst s arr l (r_cur st + 1) rest (r_first st)
                        (bump (r_pl st) (ql (fst lf)) 1) (Z.max (r_max st) (ql (fst lf))))
          end
        end.

    (** while (list->elem_count > 0); [None] also if the fuel runs out *)
    Fixpoint refine_loop (fuel : nat) (incount : nat) (st : rst) : option rst :=
      match r_list st with
      | [] => Some st
      | (lf, pad) :: tl =>
        match fuel with
        | O => None
        | S fuel' =>
          match refine_step incount st lf pad tl with
          | None => None
          | Some st' => refine_loop fuel' incount st'
          end
        end
      end.

    (** read back an array all of whose entries are initialised *)
    Fixpoint all_init (l : list (option leaf)) : option (list leaf) :=
      match l with
      | [] => Some []
      | None :: _ => None
      | Some x :: l' => match all_init l' with None => None | Some r => Some (x :: r) end
      end.

    (** the body of the loop over trees, src/p4est.c 726-910: new state, tree
        and local_num_quadrants *)
    Definition refine_tree (fuel : nat) (s : St) (tr : tree) (local_num : Z) : option (St * tree * Z) :=
      let arr := map Some (t_leaves tr) in
      let incount := length arr in
      match refine_scan incount s arr 0 (fun _ => 0) 0 with
      | None => None
      | Some (s, arr, current, pl, maxlevel) =>
        if Nat.eqb current incount then
          match all_init arr with
          | None => None
          | Some lv => Some (s, mktree local_num pl (t_max tr) lv, local_num + Z.of_nat incount)
          end
        else
          match aget arr current with
          | None => None
          | Some lf =>
            match refine_loop fuel incount
                    (mkrst s arr [(lf, false)] current (current + 1) true pl maxlevel) with
            | None => None
            | Some st =>
              match all_init (r_arr st) with
              | None => None
              | Some lv => Some (r_s st, mktree local_num (r_pl st) (r_max st) lv,
                                 local_num + Z.of_nat (length (r_arr st)))
              end
            end
          end
      end.
  End Refine.

  (** ** Coarsening *)
  Section Coarsen.
    (** p4est_coarsen_t: called with the family, or, for orphans, with the
        quadrant and NULL in second place (here a list of length one) *)
    Variable coarsen_fn : St -> Z -> list leaf -> St * list D * bool.
    (** p4est_replace_t with the outgoing family and one incoming quadrant *)
    Variable replace_fn : option (St -> Z -> list leaf -> leaf -> St * D).
    Variables (recursive orphans : bool).
    Variable jt : Z.

    Record cst := mkcst {
      c_s : St; c_arr : list leaf; c_window : nat; c_start : nat; c_length : nat;
      c_pl : Z -> Z; c_num : Z }.

    Definition cidx (st : cst) (zz : nat) : nat :=
      if Nat.ltb (c_window st + zz) (c_start st) then (c_window st + zz)%nat
      else (c_window st + c_length st + zz)%nat.

    (** the loop over zz, src/p4est.c 1003-1016: the members read so far, and
        whether all child ids match; [n] counts the remaining members *)
    Fixpoint read_family (n zz : nat) (st : cst) (acc : list leaf) : option (list leaf * bool) :=
      match n with
      | O => Some (acc, true)
      | S n' =>
        match nth_error (c_arr st) (cidx st zz) with
        | None => None
        | Some lf =>
          if Z.of_nat zz =? child_id d (fst lf) then read_family n' (zz + 1) st (acc ++ [lf])
          else Some (acc ++ [lf], false)
        end
      end.

    (** store the leaves of a family (with data changed by the callback) *)
    Fixpoint store_family (l : list leaf) (zz : nat) (st : cst) (arr : list leaf) : option (list leaf) :=
      match l with
      | [] => Some arr
      | lf :: l' => match aset arr (cidx st zz) lf with
                    | None => None
                    | Some arr => store_family l' (zz + 1) st arr
                    end
      end.

    (** one iteration of the loop src/p4est.c 998-1067 *)
    Definition coarsen_step (incount : nat) (st : cst) : option cst :=
      match read_family (childrenn d) 0 st [] with
      | None => None
      | Some (fam, isfamily) =>
        (* orphan callback or question to the family *)
        let asked :=
          if isfamily then
            let '(s, ds, yes) := coarsen_fn (c_s st) jt fam in
            match store_family (rezip fam ds) 0 st (c_arr st) with
            | None => None | Some arr => Some (s, arr, rezip fam ds, yes) end
          else if orphans then
            match fam with
            | [] => None
            | c0 :: _ =>
              let '(s, ds, _) := coarsen_fn (c_s st) jt [c0] in
              match store_family (rezip [c0] ds) 0 st (c_arr st) with
              | None => None | Some arr => Some (s, arr, fam, false) end
            end
          else Some (c_s st, c_arr st, fam, false) in
        match asked with
        | None => None
        | Some (s, arr, fam, yes) =>
          let done :=
            if yes then
              match fam with
              | [] => None
              | c0 :: _ =>
                let par := parent d (fst c0) in
                let (s, v) := init_fn s jt par in
                let (s, v) := match replace_fn with
                              | None => (s, v)
                              | Some f => f s jt fam (par, v) end in
                match aset arr (cidx st 0) (par, v) with
                | None => None
                | Some arr =>
                  Some (s, arr, bump (bump (c_pl st) (ql (fst c0)) (- children d)) (ql par) 1,
                        c_num st - (children d - 1), Z.to_nat (child_id d par),
                        (c_window st + 1)%nat, (c_length st + (childrenn d - 1))%nat)
                end
              end
            else Some (s, arr, c_pl st, c_num st, incount, c_start st, c_length st) in
          match done with
          | None => None
          | Some (s, arr, pl, num, cidz, start, len) =>
            if Nat.leb cidz (c_window st) && recursive then
              Some (mkcst s arr (c_window st - cidz) start len pl num)
            else
              let window := (c_window st + 1)%nat in
              if Nat.eqb window start && Nat.ltb (start + len) incount then
                let arr' :=
                  if Nat.ltb 0 len then
                    match nth_error arr (start + len) with
                    | None => None
                    | Some cl => aset arr start cl
                    end
                  else Some arr in
                match arr' with
                | None => None
                | Some arr => Some (mkcst s arr window (window + 1) len pl num)
                end
              else Some (mkcst s arr window start len pl num)
          end
        end
      end.

    Fixpoint coarsen_loop (fuel : nat) (incount : nat) (st : cst) : option cst :=
      if Nat.leb (c_window st + childrenn d + c_length st) incount then
        match fuel with
        | O => None
        | S fuel' =>
          match coarsen_step incount st with
          | None => None
          | Some st' => coarsen_loop fuel' incount st'
          end
        end
      else Some st.

    (** the copy loop src/p4est.c 1071-1075; [n] entries remain *)
    Fixpoint close_hole (n zz len : nat) (arr : list leaf) : option (list leaf) :=
      match n with
      | O => Some arr
      | S n' =>
        match nth_error arr zz with
        | None => None
        | Some cl =>
          match aset arr (zz - len) cl with
          | None => None
          | Some arr => close_hole n' (zz + 1) len arr
          end
        end
      end.

    (** the loop over remaining orphans src/p4est.c 1080-1086 *)
    Fixpoint rest_orphans (n zz : nat) (s : St) (arr : list leaf) : option (St * list leaf) :=
      match n with
      | O => Some (s, arr)
      | S n' =>
        match nth_error arr zz with
        | None => None
        | Some c0 =>
          let '(s, ds, _) := coarsen_fn s jt [c0] in
          match rezip [c0] ds with
          | c0' :: _ => match aset arr zz c0' with
                        | None => None
                        | Some arr => rest_orphans n' (zz + 1) s arr
                        end
          | [] => None
          end
        end
      end.

    (** maximum level with a positive count, src/p4est.c 1088-1097 *)
    Definition max_level (pl : Z -> Z) : Z :=
      fold_left (fun m i => if pl (Z.of_nat i) >? 0 then Z.of_nat i else m) (seq 0 30) 0.
    Definition sum_level (pl : Z -> Z) : Z :=
      fold_left (fun m i => m + pl (Z.of_nat i)) (seq 0 30) 0.

    (** the body of the loop over trees, src/p4est.c 975-1118: state, tree,
        local_num_quadrants and prev_offset *)
    Definition coarsen_tree (s : St) (tr : tree) (local_num prev_off : Z) : option (St * tree * Z * Z) :=
      let incount := length (t_leaves tr) in
      match coarsen_loop (childrenn d * incount + 1) incount
              (mkcst s (t_leaves tr) 0 1 0 (t_pl tr) local_num) with
      | None => None
      | Some st =>
        let closed :=
          if Nat.ltb 0 (c_length st) then
            match close_hole (incount - (c_start st + c_length st)) (c_start st + c_length st)
                             (c_length st) (c_arr st) with
            | None => None
            | Some arr => Some (firstn (incount - c_length st) arr)
            end
          else Some (c_arr st) in
        match closed with
        | None => None
        | Some arr =>
          let fin :=
            if orphans then
              rest_orphans (incount - c_length st - c_window st) (c_window st) (c_s st) arr
            else Some (c_s st, arr) in
          match fin with
          | None => None
          | Some (s, arr) =>
            Some (s, mktree prev_off (c_pl st) (max_level (c_pl st)) arr, c_num st,
                  prev_off + sum_level (c_pl st))
          end
        end
      end.
  End Coarsen.
End Adapt.

(** a leaf: quadrant and data *)
Notation leaf D := (quad * D)%type.
