(** * Model of p4est_partition_cut_gloidx and p4est_partition_cut_uint64
    (src/p4est_base.h 499-551)

    The functions compute (integer) (((long double) N * (double) p) / (double) P).
    A floating point number is modelled as an integer in units of 2^-128; all
    operands here are zero or at least 2^-31, so with at most 64 bits of
    precision no result is subnormal or needs finer units.  [prec] is the number of
    significant bits of long double: 64 for the x87 format, 53 where long double
    is double, 113 is not covered.  Rounding is to nearest, ties to even.
    (double) p is exact for 32 bit p. *)

From Coq Require Import ZArith List Bool.
Open Scope Z_scope.

Definition UNIT : Z := 2 ^ 128.

(** a / b rounded to the nearest integer, ties to even *)
Definition rhe (a b : Z) : Z :=
  let q := a / b in
  let r := a mod b in
  if (2 * r >? b) || ((2 * r =? b) && Z.odd q) then q + 1 else q.

(** the rational x / y (in units) rounded to [prec] significant bits *)
Definition fl (prec x y : Z) : Z :=
  if x =? 0 then 0
  else
    let u := 2 ^ (Z.log2 (x / y) - (prec - 1)) in
    u * rhe x (y * u).

(** src/p4est_base.h 527-551 (gloidx) and 499-525 (uint64) *)
Definition partition_cut (prec N p P : Z) : Z :=
  if p =? P then N
  else
    let n := fl prec (N * UNIT) 1 in       (* (long double) global_num *)
    let m := fl prec (n * p) 1 in          (* ... * (double) p *)
    fl prec m P / UNIT.                    (* ... / (double) num_procs, truncated *)
