(** * The checksum of a forest

    p4est_quadrant_checksum: src/p4est_algorithms.c 117-185
    p4est_checksum_local, p4est_checksum, p4est_checksum_partition: src/p4est.c 3388-3459
    p4est_comm_checksum: src/p4est_communication.c 936-971

    adler32 and adler32_combine are functions of zlib, which is not part of the
    sources.  They are modelled after zlib's adler32.c.  sc_array_checksum of
    libsc is adler32 of the bytes of the array. *)

From Coq Require Import ZArith List Bool Lia.
From Verif Require Import Quad Spec Search Adapt Partition Comm Weighted Bytes Forest.
Import ListNotations.
Open Scope Z_scope.

(** ** zlib *)

Definition BASE : Z := 65521.

(** the sum of the bytes and the sum of the sums; the low and the high 16 bit of an adler32 value *)
Definition adler := (Z * Z)%type.
Definition value (x : adler) : Z := fst x + 65536 * snd x.

Definition adler_step (x : adler) (b : Z) : adler :=
  let a := (fst x + b) mod BASE in (a, (snd x + a) mod BASE).
(** adler32 (value, bytes, length) *)
Definition adler32 (x : adler) (l : list Z) : adler := fold_left adler_step l x.
(** adler32 (0, Z_NULL, 0) *)
Definition adler_init : adler := (1, 0).

(** adler32_combine for a length that is not negative *)
Definition adler32_combine (x y : adler) (len : Z) : adler :=
  let rem := len mod BASE in
  let sum1 := fst x in
  let sum2 := (rem * sum1) mod BASE in
  let sum1 := sum1 + fst y + BASE - 1 in
  let sum2 := sum2 + snd x + snd y + BASE - rem in
  let sum1 := if sum1 >=? BASE then sum1 - BASE else sum1 in
  let sum1 := if sum1 >=? BASE then sum1 - BASE else sum1 in
  let sum2 := if sum2 >=? 2 * BASE then sum2 - 2 * BASE else sum2 in
  let sum2 := if sum2 >=? BASE then sum2 - BASE else sum2 in
  (sum1, sum2).

(** ** p4est_quadrant_checksum *)

(** htonl of a uint32_t, as bytes in memory *)
Definition be4 (x : Z) : list Z := rev (enc 4 (x mod 2 ^ 32)).

(** P4EST_OLD_QMAXLEVEL and P4EST_MAXLEVEL - P4EST_OLD_MAXLEVEL in 3D, src/p8est.h *)
Definition OLD_QMAXLEVEL : Z := 18.
Definition level_difference : Z := 11.

(** lines 157-165 *)
Definition shifted (x : Z) : Z :=
  if x <? 0 then - ((- x) / 2 ^ level_difference) else x / 2 ^ level_difference.

(** lines 152-176 *)
Definition check_bytes (d : dim) (q : quad) : list Z :=
  match d with
  | D2 => be4 (qx q) ++ be4 (qy q)
  | D3 =>
    if ql q <=? OLD_QMAXLEVEL then be4 (shifted (qx q)) ++ be4 (shifted (qy q)) ++ be4 (shifted (qz q))
    else be4 (qx q) ++ be4 (qy q) ++ be4 (qz q)
  end ++ be4 (ql q).

(** with first_quadrant = 0 *)
Definition quadrant_checksum (d : dim) (qs : list quad) : adler := adler32 adler_init (flat_map (check_bytes d) qs).

Section Checksum.
  Variable d : dim.
  Variables (St D : Type).
  Variable little : bool.       (* byte order of the machine *)

  (** &p4est->local_num_quadrants, as bytes in memory *)
  Definition raw4 (x : Z) : list Z := if little then enc 4 (x mod 2 ^ 32) else be4 x.

  (** the loop over the local trees of p4est_checksum_local, lines 3408-3416 *)
  Definition local_tree (p : proc St D) (acc : adler * Z) (nt : Z) : adler * Z :=
    let qs := map fst (t_leaves D (ft D (pr_trees St D p nt))) in
    let scount := 4 * (zlen qs * (nd d + 1)) in
    (adler32_combine (fst acc) (quadrant_checksum d qs) scount, snd acc + scount).

  (** p4est_checksum_local: local_crc and ssum of a rank *)
  Definition checksum_local (partition_dependent : bool) (rank : Z) (p : proc St D) : adler * Z :=
    let crc := if partition_dependent && (rank >? 0) then adler32 (0, 0) (raw4 (pr_num _ _ p)) else adler_init in
    fold_left (local_tree p) (zseq (pr_first _ _ p) (trips (pr_first _ _ p) (pr_last _ _ p))) (crc, 0).

  Fixpoint locals (pd : bool) (rank : Z) (ps : list (proc St D)) : list (adler * Z) :=
    match ps with
    | [] => []
    | p :: ps' => checksum_local pd rank p :: locals pd (rank + 1) ps'
    end.

  (** p4est_comm_checksum; the result on every rank *)
  Definition comm_checksum (l : list (adler * Z)) : option adler :=
    match l with
    | [] => None
    | x :: l' => Some (fold_left (fun acc y => adler32_combine acc (fst y) (snd y)) l' (fst x))
    end.

  (** p4est_checksum and p4est_checksum_partition *)
  Definition checksum (F : forest St D) : option Z := option_map value (comm_checksum (locals false 0 (f_procs _ _ F))).
  Definition checksum_partition (F : forest St D) : option Z := option_map value (comm_checksum (locals true 0 (f_procs _ _ F))).
End Checksum.
