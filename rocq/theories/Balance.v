(** * Model of p4est_complete_or_balance (src/p4est_algorithms.c)

    p4est_complete_or_balance_kernel: 1574-2114
    p4est_complete_or_balance: 2165-2383
    p4est_complete_subtree, p4est_balance_subtree: 2635-2648

    The statistics counters, the memory pools and the checks in
    P4EST_ENABLE_DEBUG are left out.  The replace callback is NULL. *)

From Coq Require Import ZArith List Bool Arith.
From Verif Require Import Quad Search Adapt.
Import ListNotations.
Open Scope Z_scope.

(** a quadrant with p.user_int, which holds the flags duplicate and precluded, lines 1600-1601 *)
Definition bq := (quad * Z)%type.
Definition DUPLICATE : Z := 1.
Definition PRECLUDED : Z := 2.

Definition insert_at {A} (l : list A) (i : nat) (x : A) : list A := firstn i l ++ x :: skipn i l.

(** p4est_quadrant_disjoint_parent: 1516-1533 *)
Definition disjoint_parent (d : dim) (q r : quad) : Z :=
  let level := Z.min (ql q - 1) (ql r - 1) in
  let mask := Z.lnot (Z.shiftl 1 (MAXLEVEL - level) - 1) in
  if nz (Z.land (Z.lxor (qx q) (qx r)) mask)
     || nz (Z.land (Z.lxor (qy q) (qy r)) mask)
     || (is3 d && nz (Z.land (Z.lxor (qz q) (qz r)) mask))
  then compare d q r else 0.

Section Kernel.
  Variable d : dim.
  (** sc_array_bsearch with p4est_quadrant_disjoint_parent; libsc calls bsearch of the C library,
      which may return any of several equal elements *)
  Variable bsearch : list quad -> quad -> option nat.
  Variable dom : quad.
  Definition minlevel : Z := ql dom + 1.

  (** the loops lines 1644-1646 (cid = 0) and 1677-1680 (cid = P4EST_CHILDREN - 1) *)
  Fixpoint raise_loop (fuel : nat) (cid : Z) (q : quad) : quad :=
    match fuel with
    | O => q
    | S f => if (ql q >? minlevel) && (child_id d q =? cid) then raise_loop f cid (parent d q) else q
    end.
  (** the level decreases in every step and the loop ends at minlevel *)
  Definition raise (cid : Z) (q : quad) : quad := raise_loop (Z.to_nat (ql q - minlevel)) cid q.

  (** lines 1641-1672: inlist and fd *)
  Definition add_first (inlist : list quad) (first_desc : option quad) : option (list quad * quad) :=
    match first_desc with
    | None => Some (inlist, first_descendant d dom minlevel)
    | Some f =>
      let fd := raise 0 f in
      let tempq := sibling d fd 0 in
      match find_lower_bound d inlist tempq 0 with
      | None => None
      | Some None => Some (inlist ++ [tempq], fd)
      | Some (Some si) =>
        match nth_error inlist si with
        | None => None
        | Some q => Some (if ql (nearest_common_ancestor d tempq q) <? ql tempq - 1 then insert_at inlist si tempq else inlist, fd)
        end
      end
    end.

  (** lines 1674-1710 *)
  Definition add_last (inlist : list quad) (last_desc : option quad) : option (list quad) :=
    match last_desc with
    | None => Some inlist
    | Some l =>
      let tempp := sibling d (raise (children d - 1) l) 0 in
      match find_higher_bound d inlist l 0 with
      | None => None
      | Some None => Some (tempp :: inlist)
      | Some (Some si) =>
        match nth_error inlist si with
        | None => None
        | Some q => Some (if ql (nearest_common_ancestor d l q) <? ql tempp - 1 then insert_at inlist (si + 1) tempp else inlist)
        end
      end
    end.

  (** ** Balance *)

  (** inlist with flags, and outlist[l] for every level.  The table hash[l] holds pointers to the
      entries of outlist[l] and is not modelled separately. *)
  Record bst := mkbst { b_in : list bq; b_out : Z -> list bq }.

  (** lines 1769-1820: the quadrant number sid of the neighborhood; par is the sibling number 0 of
      the parent, pid the child id of the parent, ph twice its length *)
  Definition hood (par : quad) (pid ph sid : Z) : quad :=
    let sx := if nz (Z.land pid 1) then ph else - ph in
    let sy := if nz (Z.land pid 2) then ph else - ph in
    let sz := if nz (Z.land pid 4) then ph else - ph in
    let sh (bx bY bz : bool) := mkq (if bx then qx par + sx else qx par) (if bY then qy par + sy else qy par)
                                    (if bz then qz par + sz else qz par) (ql par) in
    if sid =? 0 then par
    else if sid <=? dimz d then sh (sid - 1 =? 0) (sid - 1 =? 1) (sid - 1 =? 2)
    else if is3 d && (sid <? 7) then
      sh (negb (sid - 4 =? 0)) (negb (sid - 4 =? 1)) (negb (sid - 4 =? 2))
    else sh true true (is3 d).

  (** position of an equal quadrant in outlist[l] *)
  Fixpoint lookup (l : list bq) (q : quad) : option nat :=
    match l with
    | [] => None
    | (r, _) :: l' => if is_equal d q r then Some O else option_map S (lookup l' q)
    end.

  Definition upd (f : Z -> list bq) (l : Z) (v : list bq) : Z -> list bq := fun i => if i =? l then v else f i.

  (** lines 1827-1883 for one quadrant qalloc of level l - 1 *)
  Definition offer (l sid : Z) (qalloc : quad) (st : bst) : option bst :=
    if nz sid && negb (is_ancestor d dom qalloc) then Some st
    else
      let olist := b_out st (l - 1) in
      match lookup olist qalloc with
      | Some i =>
        if sid =? 0 then
          match aset olist i (qalloc, PRECLUDED) with
          | None => None
          | Some o => Some (mkbst (b_in st) (upd (b_out st) (l - 1) o))
          end
        else Some st
      | None =>
        if sid =? 0 then Some (mkbst (b_in st) (upd (b_out st) (l - 1) (olist ++ [(qalloc, PRECLUDED)])))
        else
          match bsearch (map fst (b_in st)) qalloc with
          | None => Some (mkbst (b_in st) (upd (b_out st) (l - 1) (olist ++ [(qalloc, 0)])))
          | Some i =>
            match nth_error (b_in st) i with
            | None => None
            | Some (r, f) =>
              let flag := if ql r >=? l - 1 then PRECLUDED else 0 in
              let f := if ql r <=? l - 1 then Z.lor f DUPLICATE else f in
              let f := if ql r <? l - 1 then Z.lor f PRECLUDED else f in
              match aset (b_in st) i (r, f) with
              | None => None
              | Some il => Some (mkbst il (upd (b_out st) (l - 1) (olist ++ [(qalloc, flag)])))
              end
            end
          end
      end.

  (** the loop lines 1768-1884; [n] values of sid remain *)
  Fixpoint sid_loop (n : nat) (l sid : Z) (par : quad) (pid ph : Z) (st : bst) : option bst :=
    match n with
    | O => Some st
    | S n' =>
      match offer l sid (hood par pid ph sid) st with
      | None => None
      | Some st => sid_loop n' l (sid + 1) par pid ph st
      end
    end.

  (** lines 1762-1884 for one quadrant of level l *)
  Definition spawn (bound l : Z) (q : quad) (st : bst) : option bst :=
    let par := parent d q in
    let ph := QLEN (ql par - 1) in
    let pid := child_id d par in
    sid_loop (Z.to_nat bound) l 0 (sibling d par 0) pid ph st.

  (** the loop over jz, lines 1746-1885; [n] iterations remain *)
  Fixpoint jz_loop (n : nat) (bound l : Z) (incount jz : nat) (st : bst) : option bst :=
    match n with
    | O => Some st
    | S n' =>
      let next := jz_loop n' bound l incount (S jz) in
      if Nat.ltb jz incount then
        match nth_error (b_in st) jz with
        | None => None
        | Some (q, f) =>
          if negb (ql q =? l) || nz (Z.land f DUPLICATE) then next st
          else match spawn bound l q st with None => None | Some st => next st end
        end
      else
        match nth_error (b_out st l) (jz - incount) with
        | None => None
        | Some (q, _) => match spawn bound l q st with None => None | Some st => next st end
        end
    end.

  (** the loop over l, lines 1743-1886; [n] levels remain *)
  Fixpoint level_loop (n : nat) (bound l : Z) (st : bst) : option bst :=
    match n with
    | O => Some st
    | S n' =>
      let incount := length (b_in st) in
      match jz_loop (incount + length (b_out st l)) bound l incount 0 st with
      | None => None
      | Some st => level_loop n' bound (l - 1) st
      end
    end.

  (** sc_array_sort with p4est_quadrant_compare; equal elements are indistinguishable *)
  Fixpoint insert_sorted (q : quad) (l : list quad) : list quad :=
    match l with
    | [] => [q]
    | r :: l' => if compare d q r <=? 0 then q :: l else r :: insert_sorted q l'
    end.
  Definition sort (l : list quad) : list quad := fold_right insert_sorted [] l.

  (** lines 1915-1936: the quadrants of outlist[l] that are kept *)
  Definition kept (first_desc last_desc : option quad) (fd : quad) (o : list bq) : list quad :=
    map fst (filter (fun x =>
      negb (match first_desc with None => false | Some _ => compare d (fst x) fd <? 0 end)
      && negb (match last_desc with None => false | Some ld => compare d (fst x) ld >? 0 end)
      && negb (snd x =? PRECLUDED)) o).
  (** the loop lines 1906-1938; [n] levels remain *)
  Fixpoint merge_levels (n : nat) (l : Z) (first_desc last_desc : option quad) (fd : quad) (out : Z -> list bq) : list quad :=
    match n with
    | O => []
    | S n' => kept first_desc last_desc fd (out l) ++ merge_levels n' (l + 1) first_desc last_desc fd out
    end.

  Definition maxlevel_of (inlist : list quad) : Z := fold_left (fun m q => Z.max m (ql q)) inlist minlevel.

  (** lines 1714-1946.  maxlevel is computed before fd and ld are added; their levels may be
      greater.  Quadrants of such a level are not found by the loop over the levels. *)
  Definition balance_phase (bound maxlevel : Z) (inlist : list quad) (fd : quad) (first_desc last_desc : option quad) : option (list quad) :=
    let st := mkbst (map (fun q => (q, 0)) inlist) (fun _ => []) in
    match level_loop (Z.to_nat (maxlevel - (minlevel + 1))) bound maxlevel st with
    | None => None
    | Some st =>
      let il := map fst (filter (fun x => Z.land (snd x) PRECLUDED =? 0) (b_in st)) in
      let add := merge_levels (Z.to_nat (maxlevel - (minlevel + 1))) (minlevel + 1) first_desc last_desc fd (b_out st) in
      Some (match add with [] => il | _ => sort (il ++ add) end)
    end.

  (** ** Filling the gaps *)

  (** the quadrant that follows last_desc, lines 1974-1995 and 2054-2075; the inner [None] is NULL.
      No quadrant follows in the root: undefined. *)
  Definition sentinel (last_desc : option quad) : option (option quad) :=
    match last_desc with
    | None => Some None
    | Some l =>
      if is_equal d (last_descendant d dom QMAXLEVEL) l then Some None
      else match successor d l with None => None | Some r => Some (Some r) end
    end.

  (** lines 2010-2014 *)
  Fixpoint climb_loop (fuel : nat) (q : quad) (pid : Z) : quad * Z :=
    match fuel with
    | O => (q, pid)
    | S f => if (ql q >=? minlevel) && (pid =? children d - 1)
             then climb_loop f (parent d q) (child_id d (parent d q)) else (q, pid)
    end.
  Definition climb (q : quad) (pid : Z) : quad * Z := climb_loop (Z.to_nat (ql q - minlevel + 1)) q pid.

  (** lines 1996-2089: tempq, pid, the rest of inlist from jz on and out *)
  Fixpoint fill_loop (fuel : nat) (last_desc : option quad) (sent : option quad) (tempq : quad) (pid : Z) (rest : list quad) (out : list quad)
    : option (list quad) :=
    match fuel with
    | O => None
    | S f =>
      let q := match rest with x :: _ => Some x | [] => sent end in
      let before := match q with None => true | Some q => negb (is_equal d tempq q) && negb (is_ancestor d tempq q) end in
      let past := match last_desc with None => false | Some l => compare d tempq l >? 0 end in
      if before then
        if past then Some out
        else
          let out := out ++ [tempq] in
          let (tempq, pid) := climb tempq pid in
          if ql tempq <? minlevel then Some out
          else fill_loop f last_desc sent (sibling d tempq (pid + 1)) (pid + 1) rest out
      else if (ql tempq <? minlevel) || past then Some out
      else
        match q with
        | None => None
        | Some q =>
          if (qx q =? qx tempq) && (qy q =? qy tempq) && (negb (is3 d) || (qz q =? qz tempq)) then
            fill_loop f last_desc sent (mkq (qx tempq) (qy tempq) (qz tempq) (ql q)) (if ql q >? ql tempq then 0 else pid) (tl rest) out
          else
            let a := nearest_common_ancestor d (first_descendant d tempq QMAXLEVEL) q in
            fill_loop f last_desc sent (mkq (qx a) (qy a) (qz a) (ql a + 1)) 0 rest out
        end
    end.

  (** lines 1948-2089: what is appended to out *)
  Definition fill (fuel : nat) (inlist : list quad) (fd : quad) (first_desc last_desc : option quad) : option (list quad) :=
    match sentinel last_desc with
    | None => None
    | Some sent =>
      match first_desc with
      | None => fill_loop fuel last_desc sent fd 0 inlist []
      | Some _ =>
        match find_lower_bound d inlist fd 0 with
        | None => None
        | Some si => fill_loop fuel last_desc sent fd (child_id d fd) (match si with None => [] | Some i => skipn i inlist end) []
        end
      end
    end.

  (** p4est_complete_or_balance_kernel *)
  Definition kernel (fuel : nat) (bound : Z) (inlist : list quad) (first_desc last_desc : option quad) : option (list quad) :=
    match add_first inlist first_desc with
    | None => None
    | Some (inl1, fd) =>
      match add_last inl1 last_desc with
      | None => None
      | Some inl2 =>
        match (if bound >? 1 then balance_phase bound (maxlevel_of inlist) inl2 fd first_desc last_desc else Some inl2) with
        | None => None
        | Some inl3 => fill fuel inl3 fd first_desc last_desc
        end
      end
    end.
End Kernel.

Section Subtree.
  Variable d : dim.
  Variable bsearch : list quad -> quad -> option nat.
  Variables (St D : Type).
  Local Notation leaf := (quad * D)%type.
  Variable init_fn : St -> Z -> quad -> St * D.
  Variable t : Z.      (* which_tree *)

  (** lines 2254-2270: the reduced representation; [q] is the last entry so far *)
  Fixpoint reduce_loop (q : quad) (l : list quad) : list quad :=
    match l with
    | [] => [q]
    | p :: l' =>
      if ql (nearest_common_ancestor d p q) >=? Z.min (ql q) (ql p) - 1
      then reduce_loop (if ql p >? ql q then sibling d p 0 else q) l'
      else q :: reduce_loop (sibling d p 0) l'
    end.
  Definition reduce (l : list quad) : list quad :=
    match l with
    | [] => []
    | p :: l' => reduce_loop (sibling d p 0) l'
    end.

  (** the quadrants of outlist that are in q, lines 2315-2322 *)
  Fixpoint take_desc (q : quad) (os : list quad) : list quad * list quad :=
    match os with
    | p :: os' => if is_ancestor d q p then let (a, b) := take_desc q os' in (p :: a, b) else ([], os)
    | [] => ([], [])
    end.

  (** lines 2283-2352: user state, counters, maxlevel and the new array.  [None]: the array
      outlist is read past its end in line 2300. *)
  Record mst := mkmst { m_s : St; m_pl : Z -> Z; m_max : Z; m_arr : list leaf }.
  Definition minit (st : mst) (p : quad) : mst :=
    let (s, v) := init_fn (m_s st) t p in
    mkmst s (bump (m_pl st) (ql p) 1) (Z.max (m_max st) (ql p)) (m_arr st ++ [(p, v)]).
  Fixpoint merge_loop (fuel : nat) (ts : list leaf) (os : list quad) (st : mst) : option mst :=
    match fuel with
    | O => None
    | S f =>
      match ts, os with
      | (q, v) :: ts', p :: os' =>
        if compare d p q <? 0 then
          match os' with
          | [] => None
          | _ => merge_loop f ts os' (minit st p)
          end
        else if ql q <? ql p then
          let (a, b) := take_desc q os in
          merge_loop f ts' b (fold_left minit a (mkmst (m_s st) (bump (m_pl st) (ql q) (-1)) (m_max st) (m_arr st)))
        else merge_loop f ts' os' (mkmst (m_s st) (m_pl st) (m_max st) (m_arr st ++ [(p, v)]))
      | _, _ => Some (fold_left minit os st)
      end
    end.

  (** lines 2198-2215 *)
  Definition bound_of (btype : Z) : Z :=
    if btype =? 0 then 1 else if btype =? 1 then dimz d + 1 else if btype =? dimz d then 2 ^ dimz d else 7.

  (** p4est_complete_or_balance; [fuel] bounds the number of steps of the loop that fills the gaps *)
  Definition complete_or_balance (fuel : nat) (btype : Z) (first_desc last_desc : quad) (s : St) (tr : tree D) : option (St * tree D) :=
    let tq := map fst (t_leaves _ tr) in
    let root := nearest_common_ancestor d first_desc last_desc in
    match tq with
    | [] => Some (s, tr)
    | p :: tq' =>
      if match tq' with [] => is_equal d p root | _ => false end then Some (s, tr)
      else
        match kernel d bsearch root fuel (bound_of btype) (reduce tq) (Some first_desc) (Some last_desc) with
        | None => None
        | Some out =>
          match merge_loop (length tq + length out + 1) (t_leaves _ tr) out (mkmst s (t_pl _ tr) (t_max _ tr) []) with
          | None => None
          | Some st => Some (m_s st, mktree D (t_off _ tr) (m_pl st) (m_max st) (m_arr st))
          end
        end
    end.

  (** p4est_complete_subtree, lines 2635-2640, and p4est_balance_subtree, lines 2642-2648, with btype 1 for
      P4EST_CONNECT_FACE, 2 for P8EST_CONNECT_EDGE, and P4EST_DIM for P4EST_CONNECT_FULL *)
  Definition complete_subtree (fuel : nat) := complete_or_balance fuel 0.
  Definition balance_subtree (fuel : nat) (btype : Z) := complete_or_balance fuel btype.
End Subtree.
