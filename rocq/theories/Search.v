(** * Model of the searches in src/p4est_search.c

    Arrays are lists read with [nth_error]; a read outside of the array and
    an exhausted loop bound are the distinct outcome [None]. *)

From Coq Require Import ZArith List Bool Lia Arith.
From Verif Require Import Quad.
Import ListNotations.
Open Scope Z_scope.

(** sc_array_split (libsc, not in the tree): for entries sorted by type,
    offsets[i] is the first index with type >= i, i.e. the number of entries of
    smaller type; there are num_types + 1 offsets. *)
Definition countb {A} (p : A -> bool) (l : list A) : nat := length (filter p l).
Definition array_split {A} (ty : A -> nat) (num_types : nat) (l : list A) : list nat :=
  map (fun i => countb (fun a => Nat.ltb (ty a) i) l) (seq 0 (num_types + 1)).

(** type_fn_global_quad_index: src/p4est_search.c 50-65 *)
Definition window_type (my_begin my_end v : Z) : nat :=
  if v <? my_begin then 0%nat
  else if (my_begin <=? v) && (my_end >? v) then 1%nat
  else if my_end <=? v then 2%nat else 0%nat.

(** p4est_find_partition: src/p4est_search.c 67-92; [search_in] has num_procs
    entries.  The result is the pair of output arguments. *)
Definition find_partition (search_in : list Z) (my_begin my_end : Z) : nat * nat :=
  let offsets := array_split (window_type my_begin my_end) 3 search_in in
  (nth 1 offsets 0%nat, nth 2 offsets 0%nat).

Section Bounds.
  Variable d : dim.

  (** p4est_find_lower_bound: src/p4est_search.c 94-141.  The outer option is
      [None] for an invalid access or too many iterations; the inner one is
      [None] for the return value -1. *)
  Fixpoint lower_loop (fuel : nat) (a : list quad) (q : quad) (low high guess : nat)
    : option (option nat) :=
    match fuel with
    | O => None
    | S fuel' =>
      match nth_error a guess with
      | None => None
      | Some cur =>
        let comp := compare d q cur in
        let below :=
          if comp <=? 0 then
            match guess with
            | O => Some false
            | S g => match nth_error a g with
                     | None => None
                     | Some prev => Some (compare d q prev <=? 0)
                     end
            end
          else Some false in
        match below with
        | None => None
        | Some true =>
          let high' := (guess - 1)%nat in
          lower_loop fuel' a q low high' ((low + high' + 1) / 2)%nat
        | Some false =>
          if comp >? 0 then
            let low' := (guess + 1)%nat in
            if Nat.ltb high low' then Some None
            else lower_loop fuel' a q low' high ((low' + high) / 2)%nat
          else Some (Some guess)
        end
      end
    end.

  Definition find_lower_bound (a : list quad) (q : quad) (guess : nat) : option (option nat) :=
    match a with
    | [] => Some None
    | _ => lower_loop (length a + 1) a q 0 (length a - 1) guess
    end.

  (** p4est_find_higher_bound: src/p4est_search.c 143-194 *)
  Fixpoint higher_loop (fuel : nat) (a : list quad) (q : quad) (low high guess : nat)
    : option (option nat) :=
    match fuel with
    | O => None
    | S fuel' =>
      match nth_error a guess with
      | None => None
      | Some cur =>
        let comp := compare d cur q in
        let above :=
          if comp <=? 0 then
            if Nat.ltb guess (length a - 1) then
              match nth_error a (guess + 1) with
              | None => None
              | Some next => Some (compare d next q <=? 0)
              end
            else Some false
          else Some false in
        match above with
        | None => None
        | Some true =>
          let low' := (guess + 1)%nat in
          higher_loop fuel' a q low' high ((low' + high) / 2)%nat
        | Some false =>
          if comp >? 0 then
            if Nat.eqb guess 0 then Some None
            else
              let high' := (guess - 1)%nat in
              if Nat.ltb high' low then Some None
              else higher_loop fuel' a q low high' ((low + high' + 1) / 2)%nat
          else Some (Some guess)
        end
      end
    end.

  Definition find_higher_bound (a : list quad) (q : quad) (guess : nat) : option (option nat) :=
    match a with
    | [] => Some None
    | _ => higher_loop (length a + 1) a q 0 (length a - 1) guess
    end.

  (** p4est_split_array: src/p4est_search.c 257-300 *)
  Definition split_array (a : list quad) (level : Z) : list nat :=
    match a with
    | [] => repeat 0%nat (childrenn d + 1)
    | _ => array_split (fun q => Z.to_nat (ancestor_id d q (level + 1))) (childrenn d) a
    end.
End Bounds.

(** p4est_find_quadrant_cumulative: src/p4est_search.c 196-244.  A tree is its
    (quadrants_offset, number of quadrants); the result is tree number and
    index within the tree.  Tree numbers are signed 32 bit; the loop may leave
    the array only if no tree contains the number. *)
Fixpoint cumulative_loop (fuel : nat) (trees : list (Z * Z)) (id low high guess : Z)
  : option (Z * Z) :=
  match fuel with
  | O => None
  | S fuel' =>
    if guess <? 0 then None
    else
      match nth_error trees (Z.to_nat guess) with
      | None => None
      | Some (off, n) =>
        if id <? off then
          let high := guess - 1 in cumulative_loop fuel' trees id low high (Z.quot (low + high) 2)
        else if id >=? off + n then
          let low := guess + 1 in cumulative_loop fuel' trees id low high (Z.quot (low + high) 2)
        else Some (guess, id - off)
      end
  end.

Definition find_quadrant_cumulative (trees : list (Z * Z)) (first last id : Z) (guess : option Z)
  : option (Z * Z) :=
  cumulative_loop (length trees + 1) trees id first last
    match guess with Some g => g | None => Z.quot (first + last) 2 end.

(** ** p4est_search_local: src/p4est_search.c 565-775 *)
Section SearchLocal.
  Variable d : dim.
  Variable St : Type.     (* whatever the callbacks read and write *)
  Variable Pt : Type.     (* user defined point *)

  (** p4est_local_recursion_t, fields used by p4est_search_local *)
  Record lrec := mklrec {
    call_post : bool;
    quadrant_fn : option (St -> Z -> quad -> Z -> St * bool);
    point_fn : St -> Z -> quad -> Z -> Pt -> St * bool;
    points : option (list Pt) }.

  Variable rec : lrec.
  Variable which_tree : Z.
  Variable tree_offset : Z.    (* tree->quadrants_offset *)

  (** call of rec->quadrant_fn with point NULL; true if there is none *)
  Definition call_quadrant (s : St) (q : quad) (num : Z) : St * bool :=
    match quadrant_fn rec with None => (s, true) | Some f => f s which_tree q num end.

  (** the loop over active points, src/p4est_search.c 675-687 *)
  Fixpoint point_loop (pts : list Pt) (s : St) (q : quad) (num : Z) (is_leaf : bool)
           (act : list nat) (chact : list nat) : option (St * list nat) :=
    match act with
    | [] => Some (s, chact)
    | pz :: act' =>
      match nth_error pts pz with
      | None => None
      | Some pt =>
        let (s', is_match) := point_fn rec s which_tree q num pt in
        point_loop pts s' q num is_leaf act'
          (if negb is_leaf && is_match then chact ++ [pz] else chact)
      end
    end.

  (** p4est_local_recursion: src/p4est_search.c 582-729.  The view [quadrants]
      starts at index [base] of the tree's array; [actives] = None is the NULL
      array.  Fuel bounds the recursion depth. *)
  Fixpoint local_recursion (fuel : nat) (s : St) (quadrant : quad) (base : nat)
           (quadrants : list quad) (actives : option (list nat)) : option St :=
    match fuel with
    | O => None
    | S fuel' =>
      let act := match points rec, actives with
                 | Some pts, None => seq 0 (length pts)
                 | _, None => []
                 | _, Some a => a
                 end in
      match quadrants with
      | [] => Some s
      | q :: more =>
        if match points rec with None => false | Some _ => Nat.eqb (length act) 0 end then Some s
        else
          let is_leaf := match more with [] => true | _ => false end in
          let lq := last quadrants q in
          let quadrant :=
            if is_leaf then q
            else if ancestor_id d q (ql quadrant + 1) =? ancestor_id d lq (ql quadrant + 1)
                 then nearest_common_ancestor d q lq else quadrant in
          let local_num := if is_leaf then tree_offset + Z.of_nat base else -1 in
          let (s, go) := call_quadrant s quadrant local_num in
          if negb go then Some s
          else
            let descend (s : St) (chact : option (list nat)) : option St :=
              let split := split_array d quadrants (ql quadrant) in
              fold_left (fun (os : option St) (i : nat) =>
                match os with
                | None => None
                | Some s =>
                  let lo := nth i split 0%nat in
                  let hi := nth (i + 1) split 0%nat in
                  if Nat.ltb lo hi then
                    local_recursion fuel' s (child d quadrant (Z.of_nat i)) (base + lo)
                      (firstn (hi - lo) (skipn lo quadrants)) chact
                  else Some s
                end) (seq 0 (childrenn d)) (Some s) in
            match points rec with
            | None => if is_leaf then Some s else descend s None
            | Some pts =>
              match point_loop pts s quadrant local_num is_leaf act [] with
              | None => None
              | Some (s, chact) =>
                let (s, keep) := if call_post rec then call_quadrant s quadrant local_num
                                 else (s, true) in
                let chact := if keep then chact else [] in
                match chact with
                | [] => Some s
                | _ => descend s (Some chact)
                end
              end
            end
      end
    end.
End SearchLocal.
Arguments mklrec {St Pt}.
Arguments call_post {St Pt}.
Arguments quadrant_fn {St Pt}.
Arguments point_fn {St Pt}.
Arguments points {St Pt}.

(** A local tree as seen by the search: its number, quadrants_offset, quadrants *)
Record ltree := mklt { lt_num : Z; lt_offset : Z; lt_quads : list quad }.

(** p4est_search_local: src/p4est_search.c 731-775, over the local trees *)
Definition search_local {St Pt} (d : dim) (rec : lrec St Pt) (trees : list ltree) (s : St) : option St :=
  match quadrant_fn rec, points rec with
  | None, None => Some s
  | _, _ =>
    fold_left (fun (os : option St) (t : ltree) =>
      match os with
      | None => None
      | Some s => local_recursion d St Pt rec (lt_num t) (lt_offset t) 31 s (mkq 0 0 0 0) 0
                    (lt_quads t) None
      end) trees (Some s)
  end.
