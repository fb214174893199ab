(** * Geometric specification vocabulary

    These definitions are used in property statements.  They do not refer
    to any function of the model, only to coordinates and levels. *)

From Coq Require Import ZArith List Bool Lia.
From Verif Require Import Quad.
Import ListNotations.
Open Scope Z_scope.

(** Side length of a quadrant of level l in a root of side 2^30 *)
Definition side (l : Z) : Z := 2 ^ (30 - l).

(** Number of coordinate directions *)
Definition nd (d : dim) : Z := match d with D2 => 2 | D3 => 3 end.

(** Bit interleaving of the n low bits of three coordinates (two in 2D):
    bit i of x becomes bit (nd i), of y bit (nd i + 1), of z bit (nd i + 2).
    See [mort_testbit] in Morton.v. *)
Definition dig (d : dim) (x y z : Z) : Z :=
  x mod 2 + 2 * (y mod 2) + match d with D2 => 0 | D3 => 4 * (z mod 2) end.

Fixpoint mort (d : dim) (n : nat) (x y z : Z) : Z :=
  match n with
  | O => 0
  | S m => 2 ^ nd d * mort d m (x / 2) (y / 2) (z / 2) + dig d x y z
  end.

(** A well-formed quadrant: level in range, aligned corner, inside the root *)
Definition wf (d : dim) (q : quad) : Prop :=
  0 <= ql q <= 29 /\
  (exists X, qx q = X * side (ql q) /\ 0 <= X < 2 ^ ql q) /\
  (exists Y, qy q = Y * side (ql q) /\ 0 <= Y < 2 ^ ql q) /\
  match d with
  | D2 => qz q = 0
  | D3 => exists Z', qz q = Z' * side (ql q) /\ 0 <= Z' < 2 ^ ql q
  end.

(** The lattice points (integer coordinates) covered by a quadrant *)
Definition inq (d : dim) (q : quad) (a b c : Z) : Prop :=
  qx q <= a < qx q + side (ql q) /\
  qy q <= b < qy q + side (ql q) /\
  match d with D2 => c = 0 | D3 => qz q <= c < qz q + side (ql q) end.

(** A lattice point of the root *)
Definition inroot (d : dim) (a b c : Z) : Prop :=
  0 <= a < 2 ^ 30 /\ 0 <= b < 2 ^ 30 /\
  match d with D2 => c = 0 | D3 => 0 <= c < 2 ^ 30 end.

(** Position of a lattice point of the root along the space filling curve *)
Definition ppos (d : dim) (a b c : Z) : Z := mort d 30 a b c.

(** The interval [qpos q, qpos q + qsize q) of curve positions of a quadrant *)
Definition qpos (d : dim) (q : quad) : Z := ppos d (qx q) (qy q) (qz q).
Definition qsize (d : dim) (q : quad) : Z := 2 ^ (nd d * (30 - ql q)).
Definition qend (d : dim) (q : quad) : Z := qpos d q + qsize d q.

(** Index of a quadrant among all quadrants of its level, along the curve *)
Definition qidx (d : dim) (q : quad) : Z := qpos d q / qsize d q.
