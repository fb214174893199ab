(** * Model of p4est_connectivity_join_faces: src/p4est_connectivity.c 4474-4987

    The same source is compiled for 2D and 3D.  None: a read or write outside of the arrays.
    A pointer that is NULL is the empty list.  The assertions are left out. *)

From Coq Require Import ZArith List Bool Lia.
From Verif Require Import Quad Neighbor Transform Partition Conn Permute ConnComplete.
Import ListNotations.
Open Scope Z_scope.

Notation "'do' x <- e ; k" := (match e with Some x => k | None => None end) (at level 200, x name, e at level 100, k at level 200, right associativity).

(** sc_array_sort and sc_array_uniq with p4est_topidx_compare_2: entries that compare equal are equal *)
Definition pair_lt (x y : Z * Z) : bool := (fst x <? fst y) || (fst x =? fst y) && (snd x <? snd y).
Fixpoint insert_uniq (x : Z * Z) (l : list (Z * Z)) : list (Z * Z) :=
  match l with
  | [] => [x]
  | y :: r => if pair_lt x y then x :: l else if pair_lt y x then y :: insert_uniq x r else l
  end.
Definition sort_uniq (l : list (Z * Z)) : list (Z * Z) := fold_right insert_uniq [] l.

(** l[i] = v inside of the array *)
Definition oput (l : list Z) (i v : Z) : option (list Z) := if in_range i 0 (zlen l) then Some (put l i v) else None.
(** l[S * t + k] = v for all (t, k) *)
Fixpoint oputs (S : Z) (xs : list (Z * Z)) (v : Z) (l : list Z) : option (list Z) :=
  match xs with
  | [] => Some l
  | x :: r => do l' <- oput l (S * fst x + snd x) v; oputs S r v l'
  end.
(** lines 4515-4520 and 4622-4627: the array is allocated if it was NULL *)
Definition alloc_neg (l : list Z) (n : Z) : list Z := match l with [] => repeat (-1) (Z.to_nat n) | _ => l end.

(** lines 4529-4549: the corners that are met through the faces *)
Fixpoint store_faces (d : dim) (c : conn) (t k : Z) (is : list Z) : option (list (Z * Z)) :=
  match is with
  | [] => Some []
  | i :: is' =>
    let f := corner_faces d k i in
    do nt <- zget (c_ttt c) (faces d * t + f);
    do code <- zget (c_ttf c) (faces d * t + f);
    let nf := Z.rem code (faces d) in
    let o := Z.quot code (faces d) in
    do r <- store_faces d c t k is';
    Some (if (nt =? t) && (nf =? f) then r else (nt, face_neighbor_corner d k f nf o) :: r)
  end.
(** lines 4551-4582 (3D): the corners that are met through the edges *)
Fixpoint store_edges (c : conn) (t k : Z) (is : list Z) : option (list (Z * Z)) :=
  match is with
  | [] => Some []
  | i :: is' =>
    let e := corner_edges k i in
    do ets <- find_edge_transform c t e;
    do r <- store_edges c t k is';
    Some (map (fun x : Z * Z * Z => let '(nt, ne, nf) := x in
      (nt, if edge_corners e 0 =? k then edge_corners ne nf else edge_corners ne (Z.lxor 1 nf))) ets ++ r)
  end.
(** p4est_connectivity_store_corner: 4498-4602 *)
Definition store_corner (d : dim) (c : conn) (t k : Z) : option conn :=
  let n := c_nc c in
  do last <- zget (c_coff c) n;
  do fs <- store_faces d c t k (below (dimz d));
  do es <- (if is3 d then store_edges c t k [0; 1; 2] else Some []);
  let tc := (t, k) :: fs ++ es in
  do ttc <- oputs (children d) tc n (alloc_neg (c_ttc c) (children d * c_nt c));
  let g := sort_uniq tc in
  Some (set_corners c (n + 1) ttc (c_coff c ++ [last + zlen g])
    (firstn (Z.to_nat last) (c_ctt c) ++ map fst g) (firstn (Z.to_nat last) (c_ctc c) ++ map snd g)).

(** p8est_connectivity_store_edge: 4605-4701 *)
Fixpoint edge_entries (c : conn) (t e : Z) (is : list Z) : option (list (Z * Z)) :=
  match is with
  | [] => Some []
  | i :: is' =>
    let f := edge_faces e i in
    do nt <- zget (c_ttt c) (6 * t + f);
    do code <- zget (c_ttf c) (6 * t + f);
    let nf := Z.rem code 6 in
    let o := Z.quot code 6 in
    do r <- edge_entries c t e is';
    if (nt =? t) && (nf =? f) then Some r
    else
      let n0 := face_neighbor_corner D3 (edge_corners e 0) f nf o in
      let n1 := face_neighbor_corner D3 (edge_corners e 1) f nf o in
      let diff := Z.max n0 n1 - Z.min n0 n1 in
      do ne <- (if diff =? 1 then Some (corner_edges n0 0) else if diff =? 2 then Some (corner_edges n0 1)
                else if diff =? 4 then Some (corner_edges n0 2) else None);
      Some ((nt, if edge_corners ne 0 =? n0 then ne else ne + 12) :: r)
  end.
Definition store_edge (c : conn) (t e : Z) : option conn :=
  let n := c_ne c in
  do last <- zget (c_eoff c) n;
  do fs <- edge_entries c t e [0; 1];
  let te := (t, e) :: fs in
  do tte <- oputs 12 (map (fun x : Z * Z => (fst x, Z.rem (snd x) 12)) te) n (alloc_neg (c_tte c) (12 * c_nt c));
  let g := sort_uniq te in
  Some (set_edges c (n + 1) tte (c_eoff c ++ [last + zlen g])
    (firstn (Z.to_nat last) (c_ett c) ++ map fst g) (firstn (Z.to_nat last) (c_ete c) ++ map snd g)).

(** ** Combining two stored corners or edges *)

(** the entries start, ..., start + n - 1 are moved to the position end0, and those between are moved up: 4763-4783 and 4875-4895 *)
Definition shift (l : list Z) (end0 start n : Z) : option (list Z) :=
  if (0 <=? end0) && (end0 <=? start) && (0 <=? n) && (start + n <=? zlen l) then
    Some (firstn (Z.to_nat end0) l ++ firstn (Z.to_nat n) (skipn (Z.to_nat start) l) ++
          firstn (Z.to_nat (start - end0)) (skipn (Z.to_nat end0) l) ++ skipn (Z.to_nat (start + n)) l)
  else None.
(** for (c = c0 + 1; c <= c1; c++) off[c] += n *)
Definition raise (off : list Z) (c0 c1 n : Z) : list Z :=
  map (fun p : Z * Z => if (c0 <? fst p) && (fst p <=? c1) then snd p + n else snd p) (combine (below (zlen off)) off).

(** the condition of 4725-4726 and 4729-4730: the corner is not stored *)
Definition unstored (d : dim) (c : conn) (t k : Z) : option bool :=
  match c_ttc c with [] => Some true | _ => do a <- zget (c_ttc c) (children d * t + k); Some (a <? 0) end.
Definition ensure_corner (d : dim) (c : conn) (t k : Z) : option conn :=
  do u <- unstored d c t k; if u then store_corner d c t k else Some c.

(** lines 4744-4788: the two corners c0 < c1 become c0 *)
Definition merge_corners (d : dim) (c : conn) (c0 c1 : Z) : option conn :=
  do startt <- zget (c_coff c) c1;
  do endt <- zget (c_coff c) (c1 + 1);
  do end0 <- zget (c_coff c) (c0 + 1);
  let n1 := endt - startt in
  do ts <- zslice (c_ctt c) startt (Z.to_nat n1);
  do cs <- zslice (c_ctc c) startt (Z.to_nat n1);
  do ttc <- oputs (children d) (combine ts cs) c0 (c_ttc c);
  do ctt <- shift (c_ctt c) end0 startt n1;
  do ctc <- shift (c_ctc c) end0 startt n1;
  Some (set_corners c (c_nc c) ttc (raise (c_coff c) c0 c1 n1) ctt ctc).
(** p4est_connectivity_join_corners: 4704-4791 *)
Definition join_corners (d : dim) (c : conn) (tl tr kl kr : Z) : option conn :=
  do c1 <- ensure_corner d c tl kl;
  do c2 <- ensure_corner d c1 tr kr;
  do a <- zget (c_ttc c2) (children d * tl + kl);
  do b <- zget (c_ttc c2) (children d * tr + kr);
  if a =? b then Some c2 else merge_corners d c2 (Z.min a b) (Z.max a b).

Definition eunstored (c : conn) (t e : Z) : option bool :=
  match c_tte c with [] => Some true | _ => do a <- zget (c_tte c) (12 * t + e); Some (a <? 0) end.
Definition ensure_edge (c : conn) (t e : Z) : option conn :=
  do u <- eunstored c t e; if u then store_edge c t e else Some c.
Definition put_list (l : list Z) (i : Z) (xs : list Z) : list Z :=
  firstn (Z.to_nat i) l ++ xs ++ skipn (Z.to_nat i + length xs) l.
(** lines 4850-4900 *)
Definition merge_edges (c : conn) (e0 e1 orientation : Z) : option conn :=
  do startt <- zget (c_eoff c) e1;
  do endt <- zget (c_eoff c) (e1 + 1);
  do end0 <- zget (c_eoff c) (e0 + 1);
  let n1 := endt - startt in
  do ts <- zslice (c_ett c) startt (Z.to_nat n1);
  do es <- zslice (c_ete c) startt (Z.to_nat n1);
  do tte <- oputs 12 (combine ts (map (fun e => Z.rem e 12) es)) e0 (c_tte c);
  let ete := put_list (c_ete c) startt (map (fun e => 12 * Z.lxor (Z.quot e 12) orientation + Z.rem e 12) es) in
  do ett <- shift (c_ett c) end0 startt n1;
  do ete' <- shift ete end0 startt n1;
  Some (set_edges c (c_ne c) tte (raise (c_eoff c) e0 e1 n1) ett ete').
(** p8est_connectivity_join_edges: 4795-4903 *)
Definition join_edges (c : conn) (tl tr el er orientation : Z) : option conn :=
  let right i := if orientation =? 0 then edge_corners er i else edge_corners er (Z.lxor 1 i) in
  do c1 <- join_corners D3 c tl tr (edge_corners el 0) (right 0);
  do c2 <- join_corners D3 c1 tl tr (edge_corners el 1) (right 1);
  do c3 <- ensure_edge c2 tl el;
  do c4 <- ensure_edge c3 tr er;
  do a <- zget (c_tte c4) (12 * tl + el);
  do b <- zget (c_tte c4) (12 * tr + er);
  if a =? b then Some c4 else merge_edges c4 (Z.min a b) (Z.max a b) orientation.

(** ** The function: 4907-4987 *)
Fixpoint ofold {A} (f : conn -> A -> option conn) (l : list A) (c : conn) : option conn :=
  match l with [] => Some c | x :: r => do c' <- f c x; ofold f r c' end.
Definition join_face_edge (tl tr fl fr o : Z) (c : conn) (i : Z) : option conn :=
  let e := face_edges fl i in
  let n0 := face_neighbor_corner D3 (edge_corners e 0) fl fr o in
  let n1 := face_neighbor_corner D3 (edge_corners e 1) fl fr o in
  let er := child_corner_edges n0 n1 in
  join_edges c tl tr e er (b2z (edge_corners er 0 =? n1)).
Definition join_face_corner (tl tr fl fr o : Z) (c : conn) (i : Z) : option conn :=
  join_corners D2 c tl tr (face_corners D2 fl i) (face_corners D2 fr (if o =? 0 then i else Z.lxor 1 i)).
Definition join_faces (d : dim) (c : conn) (tl tr fl fr o : Z) : option conn :=
  do c1 <- (if is3 d then ofold (join_face_edge tl tr fl fr o) [0; 1; 2; 3] c else ofold (join_face_corner tl tr fl fr o) [0; 1] c);
  do ttt <- oputs (faces d) [(tl, fl)] tr (c_ttt c1);
  do ttt' <- oputs (faces d) [(tr, fr)] tl ttt;
  do ttf <- oputs (faces d) [(tl, fl)] (fr + faces d * o) (c_ttf c1);
  do ttf' <- oputs (faces d) [(tr, fr)] (fl + faces d * o) ttf;
  Some (set_faces c1 ttt' ttf').
