(** * Model of p4est_connectivity_reduce and p4est_connectivity_permute:
    src/p4est_connectivity.c 4132-4252 *)

From Coq Require Import ZArith List Bool.
From Verif Require Import Quad Neighbor Transform Partition Conn.
Import ListNotations.
Open Scope Z_scope.

(** ** p4est_connectivity_reduce: lines 4132-4154.  The freed arrays are [] here.  The offset
    array has at least one entry; the entries after it are not used any more. *)
Definition set_first (l : list Z) : list Z := 0 :: tl l.
Definition reduce (d : dim) (c : conn) : conn :=
  mkconn (c_nv c) (c_nt c) 0 0 (c_vertices c) (c_ttv c) (c_attr c) (c_tta c) (c_ttt c) (c_ttf c)
         [] (if is3 d then set_first (c_eoff c) else c_eoff c) [] [] [] (set_first (c_coff c)) [] [].

(** ** p4est_connectivity_permute *)

(** l[i] = v *)
Definition put (l : list Z) (i v : Z) : list Z := firstn (Z.to_nat i) l ++ v :: skipn (S (Z.to_nat i)) l.
(** lines 4172-4178: perm[inperm[ti]] = ti; None for a write outside of the array.  The array is
    not initialised, which is -1 here. *)
Fixpoint scatter (inperm : list Z) (ti : Z) (perm : list Z) : option (list Z) :=
  match inperm with
  | [] => Some perm
  | m :: rest => if in_range m 0 (zlen perm) then scatter rest (ti + 1) (put perm m ti) else None
  end.
(** lines 4185-4213: l[ti] = perm[l[ti]] for the first n entries *)
Fixpoint rename (perm l : list Z) (n : nat) : option (list Z) :=
  match n, l with
  | O, _ => Some l
  | S n', x :: l' => match zget perm x, rename perm l' n' with Some y, Some r => Some (y :: r) | _, _ => None end
  | S _, [] => None
  end.

(** sc_array_permute (array, newindices, keepperm), libsc: by its documentation the element i of
    the array is moved to place newindices[i].  The array has elements of k entries.  The result
    is undefined if newindices is no permutation: here if no element goes to some place. *)
Fixpoint index_of (perm : list Z) (s i : Z) : option Z :=
  match perm with [] => None | x :: rest => if x =? s then Some i else index_of rest s (i + 1) end.
Fixpoint cat {A} (f : Z -> option (list A)) (s : Z) (n : nat) : option (list A) :=
  match n with O => Some [] | S n' => match f s, cat f (s + 1) n' with Some a, Some b => Some (a ++ b) | _, _ => None end end.
Definition permute_array (k : Z) (perm l : list Z) : option (list Z) :=
  cat (fun s => match index_of perm s 0 with None => None | Some i => zslice l (k * i) (Z.to_nat k) end) 0 (length perm).

Definition identity (perm : list Z) : bool :=
  forallb (fun x => fst x =? snd x) (combine perm (map Z.of_nat (seq 0 (length perm)))).

(** the arrays of edges and corners are NULL iff there are none, lines 265-292 *)
Definition permute_if (b : bool) (m : option (list Z)) (l : list Z) : option (list Z) := if b then m else Some l.

(** lines 4156-4252.  A NULL array of vertices may be permuted only if nothing is moved.  The
    attributes of the trees are not touched. *)
Definition permute (d : dim) (c : conn) (inperm : list Z) (current_to_new : bool) : option conn :=
  match (if current_to_new then Some inperm else scatter inperm 0 (repeat (-1) (Z.to_nat (c_nt c)))),
        (if is3 d && (0 <? c_ne c) then zget (c_eoff c) (c_ne c) else Some 0),
        (if 0 <? c_nc c then zget (c_coff c) (c_nc c) else Some 0) with
  | Some perm, Some ne, Some nc =>
    match rename perm (c_ttt c) (Z.to_nat (faces d * c_nt c)),
          rename perm (c_ett c) (Z.to_nat ne), rename perm (c_ctt c) (Z.to_nat nc) with
    | Some ttt, Some ett, Some ctt =>
      match (match c_ttv c with
             | None => if identity perm then Some None else None
             | Some l => match permute_array (children d) perm l with None => None | Some r => Some (Some r) end
             end),
            permute_array (faces d) perm ttt, permute_array (faces d) perm (c_ttf c),
            permute_if (is3 d && (0 <? c_ne c)) (permute_array 12 perm (c_tte c)) (c_tte c),
            permute_if (0 <? c_nc c) (permute_array (children d) perm (c_ttc c)) (c_ttc c) with
      | Some ttv, Some ttt, Some ttf, Some tte, Some ttc =>
        Some (mkconn (c_nv c) (c_nt c) (c_ne c) (c_nc c) (c_vertices c) ttv (c_attr c) (c_tta c) ttt ttf
                     tte (c_eoff c) ett (c_ete c) ttc (c_coff c) ctt (c_ctc c))
      | _, _, _, _, _ => None
      end
    | _, _, _ => None
    end
  | _, _, _ => None
  end.
