(** * Model of p4est_search_reorder: src/p4est_search.c 777-1082 *)

From Coq Require Import ZArith List Bool.
From Verif Require Import Quad Search.
Import ListNotations.
Open Scope Z_scope.

Section Reorder.
  Variable d : dim.
  Variable St : Type.     (* whatever the callbacks read and write *)
  Variable Pt : Type.     (* user defined point *)

  (** p4est_local_recursion_t, fields used here.  children_fn gets an array of quadrants, each
      with its tree, and an array of indices; it returns the indices and whether to go on. *)
  Record rrec := mkrrec {
    r_skip : bool;
    r_order : option (St -> list (Z * quad) -> list Z -> St * list Z * bool);
    r_pre : option (St -> Z -> quad -> Z -> St * bool);
    r_post : option (St -> Z -> quad -> Z -> St);
    r_point : option (St -> Z -> quad -> Z -> Pt -> St * bool);
    r_points : option (list Pt) }.

  Variable rec : rrec.
  Variable which_tree : Z.
  Variable tree_offset : Z.    (* tree->quadrants_offset *)

  Definition call_pre (s : St) (q : quad) (num : Z) : St * bool :=
    match r_pre rec with None => (s, true) | Some f => f s which_tree q num end.
  Definition call_post (s : St) (q : quad) (num : Z) : St :=
    match r_post rec with None => s | Some f => f s which_tree q num end.

  (** the loop over the active points, lines 893-900; a point callback must be given *)
  Fixpoint points_loop (pts : list Pt) (s : St) (q : quad) (num : Z) (is_same : bool)
           (act : list nat) (chact : list nat) : option (St * list nat) :=
    match act with
    | [] => Some (s, chact)
    | pz :: act' =>
      match nth_error pts pz, r_point rec with
      | Some pt, Some f =>
        let (s', is_match) := f s which_tree q num pt in
        points_loop pts s' q num is_same act' (if is_match && negb is_same then chact ++ [pz] else chact)
      | _, _ => None
      end
    end.

  (** p4est_reorder_recursion, lines 777-996.  The view [quadrants] starts at index [base] of
      the array of the tree; [actives] = None is the NULL array.  None for an access outside of
      an array.  Fuel bounds the depth. *)
  Fixpoint reorder_recursion (fuel : nat) (s : St) (quadrant : quad) (base : nat)
           (quadrants : list quad) (actives : option (list nat)) : option St :=
    match fuel with
    | O => None
    | S fuel' =>
      let act := match r_points rec, actives with
                 | Some pts, None => seq 0 (length pts)
                 | _, None => []
                 | _, Some a => a
                 end in
      match quadrants with
      | [] => Some s
      | q :: more =>
        if match r_points rec with None => false | Some _ => Nat.eqb (length act) 0 end then Some s
        else
          let is_leaf := match more with [] => true | _ => false end in
          let lq := last quadrants q in
          let is_same := is_leaf && (is_equal d quadrant q || r_skip rec) in
          let quadrant :=
            if is_same then q
            else if negb is_leaf && r_skip rec && (ancestor_id d q (ql quadrant + 1) =? ancestor_id d lq (ql quadrant + 1))
                 then nearest_common_ancestor d q lq else quadrant in
          let local_num := if is_same then tree_offset + Z.of_nat base else -1 in
          let (s, go) := call_pre s quadrant local_num in
          if negb go then Some s
          else
            let asked :=    (* the state, and the points to go on with if to go on *)
              match r_points rec with
              | None => Some (s, Some None)
              | Some pts =>
                match points_loop pts s quadrant local_num is_same act [] with
                | None => None
                | Some (s, chact) => Some (s, match chact with [] => None | _ => Some (Some chact) end)
                end
              end in
            let below :=
              match asked with
              | None => None
              | Some (s, None) => Some s
              | Some (s, Some chact) =>
                if is_leaf then
                  if is_same then Some s
                  else
                    (* lines 963-983 *)
                    let c := if 1 <? ql q - ql quadrant then ancestor d q (ql quadrant + 1) else q in
                    reorder_recursion fuel' s c base quadrants chact
                else
                  let split := split_array d quadrants (ql quadrant) in
                  let indices := filter (fun i => Nat.ltb (nth (Z.to_nat i) split 0%nat) (nth (Z.to_nat i + 1) split 0%nat)) (map Z.of_nat (seq 0 (childrenn d))) in
                  let '(s, indices, go) :=
                    match r_order rec with
                    | None => (s, indices, true)
                    | Some f => f s (map (fun i => (which_tree, child d quadrant (Z.of_nat i))) (seq 0 (childrenn d))) indices
                    end in
                  if negb go then Some s
                  else fold_left (fun (os : option St) (i : Z) =>
                    match os with
                    | None => None
                    | Some s =>
                      if (i <? 0) || (children d <=? i) then None
                      else
                        let lo := nth (Z.to_nat i) split 0%nat in
                        let hi := nth (Z.to_nat i + 1) split 0%nat in
                        reorder_recursion fuel' s (child d quadrant i) (base + lo)
                          (firstn (hi - lo) (skipn lo quadrants)) chact
                    end) indices (Some s)
              end in
            match below with
            | None => None
            | Some s => Some (call_post s quadrant local_num)
            end
      end
    end.
End Reorder.
Arguments mkrrec {St Pt}.
Arguments r_skip {St Pt}.
Arguments r_order {St Pt}.
Arguments r_pre {St Pt}.
Arguments r_post {St Pt}.
Arguments r_point {St Pt}.
Arguments r_points {St Pt}.

(** p4est_search_reorder, lines 998-1082, over the local trees.  Line 1058 reads the index at
    the place of each local tree, and line 1065 that tree. *)
Definition search_reorder {St Pt} (d : dim) (rec : rrec St Pt) (trees : list ltree) (s : St) : option St :=
  match r_pre rec, r_post rec, r_point rec, trees with
  | None, None, None, _ | _, _, _, [] => Some s
  | _, _, _, t0 :: _ =>
    let places := map Z.of_nat (seq 0 (length trees)) in
    let '(s, indices, go) :=
      match r_order rec with
      | None => (s, places, true)
      | Some f => f s (map (fun t => (lt_num t, mkq 0 0 0 0)) trees) places
      end in
    if negb go then Some s
    else
      fold_left (fun (os : option St) (k : nat) =>
        match os with
        | None => None
        | Some s =>
          match nth_error indices k with
          | None => None
          | Some i =>
            if i <? 0 then None
            else
              match nth_error trees (Z.to_nat i) with
              | None => None
              | Some t => reorder_recursion d St Pt rec (lt_num t) (lt_offset t) 31 s (mkq 0 0 0 0) 0 (lt_quads t) None
              end
          end
        end) (seq 0 (length trees)) (Some s)
  end.
