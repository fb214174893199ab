(** * Model of p4est_connectivity_is_equal and p4est_connectivity_is_equivalent:
    src/p4est_connectivity.c 1147-1246 and 4986-5137 *)

From Coq Require Import ZArith List Bool.
From Verif Require Import Quad Partition Conn.
Import ListNotations.
Open Scope Z_scope.

Fixpoint eqlist (a b : list Z) : bool :=
  match a, b with
  | [], [] => true
  | x :: a', y :: b' => (x =? y) && eqlist a' b'
  | _, _ => false
  end.
(** memcmp (a, b, n elements) == 0; None: one of the arrays is shorter *)
Definition memeq (a b : list Z) (n : Z) : option bool :=
  if (n <=? zlen a) && (n <=? zlen b) then Some (eqlist (firstn (Z.to_nat n) a) (firstn (Z.to_nat n) b)) else None.
(** the same for pointers that may be NULL *)
Definition omemeq (a b : option (list Z)) (n : Z) : option bool :=
  match a, b with Some a, Some b => memeq a b n | _, _ => None end.

(** p4est_connectivity_is_equal: src/p4est_connectivity.c 1147-1246.  A call of memcmp for no bytes is
    defined even for NULL. *)
Definition conn_is_equal (d : dim) (c1 c2 : conn) : option bool :=
  (* lines 1162-1169 *)
  Some ((c_nv c1 =? c_nv c2) && (c_nt c1 =? c_nt c2) && (if is3 d then c_ne c1 =? c_ne c2 else true) && (c_nc c1 =? c_nc c2)) ;;
  (* lines 1171-1186 *)
  (if 0 <? c_nv c1 then omemeq (c_vertices c1) (c_vertices c2) (3 * c_nv c1) ;; omemeq (c_ttv c1) (c_ttv c2) (children d * c_nt c1) else Some true) ;;
  (* lines 1188-1194 *)
  (if is3 d then if 0 <? c_ne c1 then memeq (c_tte c1) (c_tte c2) (12 * c_nt c1) else Some true else Some true) ;;
  (* lines 1196-1201 *)
  (if 0 <? c_nc c1 then memeq (c_ttc c1) (c_ttc c2) (children d * c_nt c1) else Some true) ;;
  (* lines 1203-1207 *)
  memeq (c_ttt c1) (c_ttt c2) (faces d * c_nt c1) ;; memeq (c_ttf c1) (c_ttf c2) (faces d * c_nt c1) ;;
  (* lines 1209-1218 *)
  Some (Bool.eqb (is_null (c_tta c1)) (is_null (c_tta c2)) && (c_attr c1 =? c_attr c2)) ;;
  (if is_null (c_tta c1) then Some true else omemeq (c_tta c1) (c_tta c2) (c_nt c1 * c_attr c1)) ;;
  (* lines 1220-1231 *)
  (if is3 d then
     with_ (zget (c_eoff c1) (c_ne c1)) (fun n =>
     memeq (c_eoff c1) (c_eoff c2) (c_ne c1 + 1) ;; memeq (c_ett c1) (c_ett c2) n ;; memeq (c_ete c1) (c_ete c2) n)
   else Some true) ;;
  (* lines 1233-1243 *)
  with_ (zget (c_coff c1) (c_nc c1)) (fun n =>
  memeq (c_coff c1) (c_coff c2) (c_nc c1 + 1) ;; memeq (c_ctt c1) (c_ctt c2) n ;; memeq (c_ctc c1) (c_ctc c2) n).

(** p8est_edge_compare: lines 4988-5001, on (ntree, nedge, nflip).  Equal nedge have equal naxis and corners. *)
Definition edge_compare (a b : Z * Z * Z) : Z :=
  let '(t1, e1, f1) := a in
  let '(t2, e2, f2) := b in
  if negb (t1 =? t2) then t1 - t2 else if negb (e1 =? e2) then e1 - e2 else f1 - f2.
(** p4est_corner_compare: lines 5004-5012, on (ntree, ncorner) *)
Definition corner_compare (a b : Z * Z) : Z :=
  if negb (fst a =? fst b) then fst a - fst b else snd a - snd b.

(** lines 5058-5083 and 5103-5128: the sorted arrays have the same length and elements *)
Fixpoint all_same {A} (eqb : A -> A -> bool) (l m : list A) : bool :=
  match l, m with
  | [], [] => true
  | a :: l', b :: m' => eqb a b && all_same eqb l' m'
  | _, _ => false
  end.
Definition same_edge (a b : Z * Z * Z) : bool := (fst (fst a) =? fst (fst b)) && (snd (fst a) =? snd (fst b)) && (snd a =? snd b).
Definition same_corner (a b : Z * Z) : bool := (fst a =? fst b) && (snd a =? snd b).
Definition same_sorted {A} (eqb : A -> A -> bool) (sort : list A -> list A) (l m : option (list A)) : option bool :=
  match l, m with
  | Some l, Some m => Some ((zlen l =? zlen m) && all_same eqb (sort l) (sort m))
  | _, _ => None
  end.

Section Sort.
  (** sc_array_sort with p8est_edge_compare and with p4est_corner_compare *)
  Variables (sort_edges : list (Z * Z * Z) -> list (Z * Z * Z)) (sort_corners : list (Z * Z) -> list (Z * Z)).

  (** p4est_connectivity_is_equivalent: src/p4est_connectivity.c 5014-5137.  The first test, for the same
      pointer, is left out: it is answered by the second one.  Memory that is not freed when the answer is
      no is not modelled. *)
  Definition conn_is_equivalent (d : dim) (c1 c2 : conn) : option bool :=
    match conn_is_equal d c1 c2 with
    | None => None
    | Some true => Some true
    | Some false =>
      Some (c_nt c1 =? c_nt c2) ;;
      memeq (c_ttt c1) (c_ttt c2) (faces d * c_nt c1) ;; memeq (c_ttf c1) (c_ttf c2) (faces d * c_nt c1) ;;
      (if is3 d then
         each (fun t => each (fun e => same_sorted same_edge sort_edges (find_edge_transform c1 t e) (find_edge_transform c2 t e)) 0 12)
           0 (Z.to_nat (c_nt c1))
       else Some true) ;;
      each (fun t => each (fun k => same_sorted same_corner sort_corners (find_corner_transform d c1 t k) (find_corner_transform d c2 t k)) 0 (Z.to_nat (children d)))
        0 (Z.to_nat (c_nt c1))
    end.
End Sort.
