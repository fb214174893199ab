(** * Model of p4est_search_partition: src/p4est_search.c 1094-1606 *)

From Coq Require Import ZArith List Bool.
From Verif Require Import Quad Search Partition Comm.
Import ListNotations.
Open Scope Z_scope.

Section PartSearch.
  Variable d : dim.
  Variable St : Type.     (* whatever the callbacks read and write *)
  Variable Pt : Type.     (* user defined point *)

  (** p4est_partition_recursion_t, lines 1220-1236: the user's arguments.  A
      callback gets the tree, the quadrant, pfirst, plast (and the point) *)
  Record prec := mkprec {
    p_post : bool;
    p_quadrant_fn : option (St -> Z -> quad -> Z -> Z -> St * bool);
    p_point_fn : St -> Z -> quad -> Z -> Z -> Pt -> St * bool;
    p_points : option (list Pt) }.

  Variable rec : prec.
  Variable gfq : option (list Z).     (* None: NULL, p4est_search_partition_gfp *)
  Variable gfp : list marker.

  (** P4EST_COMM_IS_EMPTY_GFQ_GFP, src/p4est_search.c 36-39 *)
  Definition is_empty (p : Z) : option bool :=
    match gfq with
    | Some g => is_empty_gfq g p
    | None => is_empty_gfp d gfp p
    end.

  (** the while loops, lines 1355-1361 and 1561-1566; fuel bounds the rounds *)
  Fixpoint skip_empty (fuel : nat) (p : Z) : option Z :=
    match fuel with
    | O => None
    | S fuel' => match is_empty p with
                 | None => None
                 | Some true => skip_empty fuel' (p + 1)
                 | Some false => Some p
                 end
    end.

  (** p4est_traverse_is_clean_start, lines 1123-1145 *)
  Definition is_clean_start (q : quad) (p : Z) : option bool :=
    match zget gfp p with
    | None => None
    | Some m => Some (negb (coords_differ d (g_quad m) q))
    end.

  (** the first processor of a quadrant, given the first one that starts in it
      and the first one that starts after it: lines 1347-1374 and 1554-1578,
      the same in both places *)
  Definition first_proc (q : quad) (cpfirst cpnext : Z) : option Z :=
    if cpfirst <? cpnext then
      match is_clean_start q cpfirst with
      | None => None
      | Some true => skip_empty (length gfp) cpfirst
      | Some false => Some (cpfirst - 1)
      end
    else Some (cpnext - 1).

  (** p4est_traverse_type_childid, lines 1147-1162 *)
  Definition type_childid (q : quad) (m : marker) : nat := Z.to_nat (ancestor_id d (g_quad m) (ql q + 1)).

  Variable which_tree : Z.

  (** call of rec->quadrant_fn with point NULL; true if there is none *)
  Definition p_call_quadrant (s : St) (q : quad) (pfirst plast : Z) : St * bool :=
    match p_quadrant_fn rec with None => (s, true) | Some f => f s which_tree q pfirst plast end.

  (** the loop over active points, lines 1294-1303 *)
  Fixpoint p_point_loop (pts : list Pt) (s : St) (q : quad) (pfirst plast : Z)
           (act : list nat) (chact : list nat) : option (St * list nat) :=
    match act with
    | [] => Some (s, chact)
    | pz :: act' =>
      match nth_error pts pz with
      | None => None
      | Some pt =>
        let (s', is_match) := p_point_fn rec s which_tree q pfirst plast pt in
        p_point_loop pts s' q pfirst plast act'
          (if negb (pfirst =? plast) && is_match then chact ++ [pz] else chact)
      end
    end.

  (** the loop over the children, lines 1334-1398; [go] is the recursion, [i]
      goes through the children that are left, [cpfirst] through the ranks *)
  Fixpoint child_loop (go : St -> quad -> Z -> Z -> option St) (q : quad) (pfirst : Z) (offsets : list nat)
           (s : St) (cpfirst : Z) (is : list nat) : option St :=
    match is with
    | [] => Some s
    | i :: is' =>
      let c := child d q (Z.of_nat i) in
      let cpnext := Z.of_nat (nth (i + 1) offsets 0%nat) + pfirst + 1 in
      let cplast := cpnext - 1 in
      match first_proc c cpfirst cpnext with
      | None => None
      | Some cpf =>
        match go s c cpf cplast with
        | None => None
        | Some s => child_loop go q pfirst offsets s cpnext is'
        end
      end
    end.

  (** p4est_partition_recursion: lines 1238-1406.  [actives] = None is the NULL
      array.  Fuel bounds the recursion depth. *)
  Fixpoint partition_recursion (fuel : nat) (s : St) (q : quad) (pfirst plast : Z)
           (actives : option (list nat)) : option St :=
    match fuel with
    | O => None
    | S fuel' =>
      let act := match p_points rec, actives with
                 | Some pts, None => seq 0 (length pts)
                 | _, None => []
                 | _, Some a => a
                 end in
      if match p_points rec with None => false | Some _ => Nat.eqb (length act) 0 end then Some s
      else
        let (s, go) := p_call_quadrant s q pfirst plast in
        if negb go then Some s
        else
          let descend (s : St) (chact : option (list nat)) : option St :=
            (* the view of the markers and its split, lines 1323-1328 *)
            let pview := firstn (Z.to_nat (plast - pfirst)) (skipn (Z.to_nat (pfirst + 1)) gfp) in
            let offsets := array_split (type_childid q) (childrenn d) pview in
            child_loop (fun s c cpf cpl => partition_recursion fuel' s c cpf cpl chact)
              q pfirst offsets s (pfirst + 1) (seq 0 (childrenn d)) in
          match p_points rec with
          | None => if pfirst =? plast then Some s else descend s None
          | Some pts =>
            match p_point_loop pts s q pfirst plast act [] with
            | None => None
            | Some (s, chact) =>
              let (s, keep) := if p_post rec then p_call_quadrant s q pfirst plast else (s, true) in
              let chact := if keep then chact else [] in
              match chact with
              | [] => Some s
              | _ => descend s (Some chact)
              end
            end
          end
    end.
End PartSearch.
Arguments mkprec {St Pt}.
Arguments p_post {St Pt}.
Arguments p_quadrant_fn {St Pt}.
Arguments p_point_fn {St Pt}.
Arguments p_points {St Pt}.

Section Trees.
  Context {St Pt : Type}.
  Variable d : dim.
  Variable rec : prec St Pt.
  Variable gfq : option (list Z).
  Variable gfp : list marker.

  (** the loop over the trees, lines 1542-1599 *)
  Fixpoint tree_loop (offsets : list nat) (s : St) (pfirst : Z) (ts : list nat) : option St :=
    match ts with
    | [] => Some s
    | t :: ts' =>
      let root := mkq 0 0 0 0 in
      let pnext := Z.of_nat (nth (t + 1) offsets 0%nat) in
      let plast := pnext - 1 in
      match first_proc d gfq gfp root pfirst pnext with
      | None => None
      | Some pf =>
        match partition_recursion d St Pt rec gfq gfp (Z.of_nat t) 31 s root pf plast None with
        | None => None
        | Some s => tree_loop offsets s pnext ts'
        end
      end
    end.

  (** p4est_search_partition_internal: lines 1490-1606.  p4est_search_partition
      and _gfx pass gfq, p4est_search_partition_gfp passes NULL *)
  Definition search_partition (num_trees : Z) (s : St) : option St :=
    match p_quadrant_fn rec, p_points rec with
    | None, None => Some s
    | _, _ =>
      let offsets := array_split (fun m => Z.to_nat (g_tree m)) (Z.to_nat (num_trees + 1)) gfp in
      tree_loop offsets s 0 (seq 0 (Z.to_nat num_trees))
    end.
End Trees.
