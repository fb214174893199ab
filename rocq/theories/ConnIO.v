(** * Writing and reading a connectivity

    p4est_connectivity_sink: src/p4est_connectivity.c 1248-1353
    p4est_connectivity_source: src/p4est_connectivity.c 1399-1619
    p4est_connectivity_new: src/p4est_connectivity.c 229-296 (sizes of the arrays)
    p4est_connectivity_set_attr: src/p4est_connectivity.c 859-872 *)

From Coq Require Import ZArith List Bool Lia ZifyBool.
From Verif Require Import Quad Spec Partition Conn Bytes.
Import ListNotations.
Open Scope Z_scope.

(** P4EST_ONDISK_FORMAT: src/p4est_connectivity.h 101, src/p8est_connectivity.h 107 *)
Definition ondisk_format (d : dim) : Z := match d with D2 => 33554441 | D3 => 50331657 end.
(** P4EST_STRING: "p4est", "p8est", padded with zeros by strncpy *)
Definition magic5 (d : dim) : list Z := [112; match d with D2 => 52 | D3 => 56 end; 101; 115; 116].
Definition magic8 (d : dim) : list Z := magic5 d ++ [0; 0; 0].

(** ** sink *)

(** append the pieces; a piece is None if it reads outside of an array *)
Fixpoint concat_all (l : list (option (list Z))) : option (list Z) :=
  match l with
  | [] => Some []
  | None :: _ => None
  | Some x :: l' => match concat_all l' with None => None | Some r => Some (x ++ r) end
  end.
(** sc_io_sink_write of the first n elements of an array, k bytes each *)
Definition put (k : nat) (a : list Z) (n : Z) : option (list Z) :=
  match zslice a 0 (Z.to_nat n) with None => None | Some l => Some (flat_map (enc k) l) end.
Definition oput (k : nat) (a : option (list Z)) (n : Z) : option (list Z) :=
  match a with None => None | Some l => put k l n end.
Definition put_if (b : bool) (x : option (list Z)) : option (list Z) := if b then x else Some [].

(** [version] is P4EST_PACKAGE_VERSION in 24 bytes.  A failing write is not modelled. *)
Definition sink (d : dim) (version : list Z) (c : conn) : option (list Z) :=
  match (if is3 d then zget (c_eoff c) (c_ne c) else Some 0), zget (c_coff c) (c_nc c) with
  | Some num_ett, Some num_ctt =>
    let ne := if is3 d then c_ne c else 0 in
    concat_all
      [ Some (magic8 d); Some version;
        Some (flat_map (enc 8) [ondisk_format d; 4; c_nv c; c_nt c; ne; num_ett; c_nc c; num_ctt; c_attr c; 0]);
        put_if (0 <? c_nv c) (oput 8 (c_vertices c) (3 * c_nv c));
        put_if (0 <? ne) (put 4 (c_tte c) (12 * c_nt c));
        put_if (0 <? c_nv c) (oput 4 (c_ttv c) (children d * c_nt c));
        put_if (0 <? c_nc c) (put 4 (c_ttc c) (children d * c_nt c));
        put 4 (c_ttt c) (faces d * c_nt c);
        put 1 (c_ttf c) (faces d * c_nt c);
        put_if (0 <? c_attr c) (oput 1 (c_tta c) (c_nt c * c_attr c));
        put_if (is3 d) (put 4 (c_eoff c) (c_ne c + 1));
        put_if (0 <? ne) (put 4 (c_ett c) num_ett);
        put_if (0 <? ne) (put 1 (c_ete c) num_ett);
        put 4 (c_coff c) (c_nc c + 1);
        put_if (0 <? c_nc c) (put 4 (c_ctt c) num_ctt);
        put_if (0 <? c_nc c) (put 1 (c_ctc c) num_ctt) ]
  | _, _ => None
  end.

(** ** source *)

Inductive outcome :=
| Null                                  (* return NULL *)
| Bad                                   (* read or write outside of an array, integer overflow *)
| Got (c : conn) (rest : list Z).       (* a connectivity; the rest of the stream *)

Definition rd (m : option (list Z * list Z)) (k : list Z -> list Z -> outcome) : outcome :=
  match m with None => Null | Some (l, r) => k l r end.
Definition read_if (b : bool) (k : nat) (conv : list Z -> Z) (n : Z) (s : list Z) : option (list Z * list Z) :=
  if b then take_words k conv (Z.to_nat n) s else Some ([], s).
(** the product of type p4est_topidx_t = int32_t is in range *)
Definition fits (x : Z) : bool := x <? 2 ^ 31.
(** strncmp (magic8, P4EST_STRING, 8): the bytes after the first zero are not compared *)
Definition magic_ok (d : dim) (m : list Z) : bool :=
  if list_eq_dec Z.eq_dec (firstn 6 m) (magic5 d ++ [0]) then true else false.
(** (p4est_topidx_t) of a uint64_t: the low 32 bits *)
Definition to_topidx (x : Z) : Z := signed 4 (x mod 2 ^ 32).

Definition source (d : dim) (s : list Z) : outcome :=
  rd (take 8 s) (fun magic s =>
  if negb (magic_ok d magic) then Null else
  rd (take 24 s) (fun _ s =>
  rd (take_words 8 dec 10 s) (fun h s =>
  let a i := nth i h 0 in
  if negb (a 0%nat =? ondisk_format d) then Null else
  if negb (a 1%nat =? 4) then Null else
  let nv := to_topidx (a 2%nat) in
  let nt := to_topidx (a 3%nat) in
  let ne := to_topidx (a 4%nat) in
  let num_ett := to_topidx (a 5%nat) in
  let nc := to_topidx (a 6%nat) in
  let num_ctt := to_topidx (a 7%nat) in
  let attr := a 8%nat in
  if (nv <? 0) || (nt <? 0) then Null else
  if (if is3 d then (ne <? 0) || (num_ett <? 0) else negb (ne =? 0) || negb (num_ett =? 0)) then Null else
  if (nc <? 0) || (num_ctt <? 0) then Null else
  (* p4est_connectivity_new *)
  if negb (fits (faces d * nt) && fits (nc + 1) && fits (ne + 1) &&
           (if 0 <? nv then fits (3 * nv) && fits (children d * nt) else true) &&
           (if 0 <? ne then fits (12 * nt) else true) &&
           (* the loop counter of line 1457 is computed for every connectivity *)
           fits (children d * nt)) then Bad else
  rd (read_if (0 <? nv) 8 dec (3 * nv) s) (fun vertices s =>
  rd (read_if (0 <? ne) 4 sdec (12 * nt) s) (fun tte s =>
  rd (read_if (0 <? nv) 4 sdec (children d * nt) s) (fun ttv s =>
  rd (read_if (0 <? nc) 4 sdec (children d * nt) s) (fun ttc s =>
  rd (take_words 4 sdec (Z.to_nat (faces d * nt)) s) (fun ttt s =>
  rd (take_words 1 sdec (Z.to_nat (faces d * nt)) s) (fun ttf s =>
  rd (read_if (0 <? attr) 1 dec ((nt * attr) mod 2 ^ 64) s) (fun tta s =>
  rd (read_if (is3 d) 4 sdec (ne + 1) s) (fun eoff s =>
  if is3 d && negb (match zget eoff ne with Some x => x =? num_ett | None => false end) then Null else
  rd (read_if (0 <? ne) 4 sdec num_ett s) (fun ett s =>
  rd (read_if (0 <? ne) 1 sdec num_ett s) (fun ete s =>
  rd (take_words 4 sdec (Z.to_nat (nc + 1)) s) (fun coff s =>
  if negb (match zget coff nc with Some x => x =? num_ctt | None => false end) then Null else
  rd (read_if (0 <? nc) 4 sdec num_ctt s) (fun ctt s =>
  rd (read_if (0 <? nc) 1 sdec num_ctt s) (fun ctc s =>
  let c := mkconn nv nt ne nc (if 0 <? nv then Some vertices else None) (if 0 <? nv then Some ttv else None)
                  attr (if 0 <? attr then Some tta else None) ttt ttf tte eoff ett ete ttc coff ctt ctc in
  match conn_is_valid d c with
  | None => Bad
  | Some false => Null
  | Some true => Got c s
  end))))))))))))))))
  .
