(** * What p4est_is_balanced is to find out *)

From Coq Require Import ZArith List.
From Verif Require Import Quad Conn Partition PartTrees PartFinal Ghost PropertiesGhost.
Open Scope Z_scope.

(** the levels of leaves that touch across a face differ by at most one *)
Definition face_balanced (d : dim) (c : conn) (ranks : list (rk quad)) : Prop :=
  forall t q t' q', In (t, q) (glob (c_nt c) ranks) -> In (t', q') (glob (c_nt c) ranks) -> neighbors d c CFace t q t' q' ->
    Z.abs (ql q - ql q') <= 1.
