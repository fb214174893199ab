(** * C74: mesh nodes are the corners of quadrants, and each has one quadrant on every level *)

From Coq Require Import ZArith List Bool Lia ZifyBool.
From Verif Require Import Quad Spec ZBits Interval QuadLemmas BalanceGeom Node.
Import ListNotations.
Open Scope Z_scope.

(** Corner k of a quadrant, by coordinates: bit 0 of k is for x, bit 1 for y, bit 2 for z *)
Definition bit (k i : Z) : Z := (k / 2 ^ i) mod 2.
Definition vertex (d : dim) (q : quad) (k : Z) : Z * Z * Z :=
  (qx q + bit k 0 * side (ql q), qy q + bit k 1 * side (ql q), match d with D2 => 0 | D3 => qz q + bit k 2 * side (ql q) end).
Definition place (n : quad) : Z * Z * Z := (qx n, qy n, qz n).
(** the unit step across face f *)
Definition step (f i : Z) : Z := if f / 2 =? i then 2 * (f mod 2) - 1 else 0.
(** the lattice point inside of a quadrant that is nearest to corner k *)
Definition tip (a s b : Z) : Z := a + b * (s - 1).
Definition covers_tip (d : dim) (q a : quad) (k : Z) : Prop :=
  inq d q (tip (qx a) (side (ql a)) (bit k 0)) (tip (qy a) (side (ql a)) (bit k 1))
      (match d with D2 => 0 | D3 => tip (qz a) (side (ql a)) (bit k 2) end).

(** ** One coordinate *)
Lemma node_coord_out a : node_coord false a = true <-> exists K, a = 2 * K /\ 0 <= K <= 2 ^ 29.
Proof.
  unfold node_coord. change (Z.shiftl 1 (MAXLEVEL - QMAXLEVEL) - 1) with (2 ^ 1 - 1). rewrite land_mask by lia. rewrite ROOT_LEN_pow. unfold nz.
  change (2 ^ 1) with 2. split.
  - intros H. exists (a / 2). pose proof (Z.div_mod a 2 ltac:(lia)). lia.
  - intros (K & -> & H). rewrite Z.mul_comm, Z.mod_mul by lia. lia.
Qed.
Lemma node_coord_in a : node_coord true a = true <-> a = 2 ^ 30 - 1 \/ exists K, a = 2 * K /\ 0 <= K < 2 ^ 29.
Proof.
  unfold node_coord. change (Z.shiftl 1 (MAXLEVEL - QMAXLEVEL) - 1) with (2 ^ 1 - 1). rewrite land_mask by lia. rewrite ROOT_LEN_pow. unfold nz.
  change (2 ^ 1) with 2. split.
  - intros H. destruct (Z.eq_dec a (2 ^ 30 - 1)); [auto|right]. exists (a / 2). pose proof (Z.div_mod a 2 ltac:(lia)). lia.
  - intros [->|(K & -> & H)]; [lia|]. rewrite Z.mul_comm, Z.mod_mul by lia. lia.
Qed.
Lemma clamp1_in a : node_coord false a = true -> node_coord true (clamp1 a) = true /\ unclamp1 (clamp1 a) = a /\ 0 <= clamp1 a < 2 ^ 30 /\ (a < 2 ^ 30 -> clamp1 a = a) /\ (a = 2 ^ 30 -> clamp1 a = a - 1).
Proof.
  rewrite node_coord_out, node_coord_in. intros (K & -> & H). unfold clamp1, unclamp1. rewrite ROOT_LEN_pow. destruct (Z.eqb_spec (2 * K) (2 ^ 30)).
  - rewrite Z.eqb_refl. repeat split; try lia.
  - replace (2 * K =? 2 ^ 30 - 1) with false by lia. split; [right; exists K; lia|]. repeat split; lia.
Qed.
Lemma unclamp1_out a : node_coord true a = true -> node_coord false (unclamp1 a) = true /\ clamp1 (unclamp1 a) = a /\ 0 <= a < 2 ^ 30.
Proof.
  rewrite node_coord_out, node_coord_in. intros H. unfold clamp1, unclamp1. rewrite ROOT_LEN_pow. destruct (Z.eqb_spec a (2 ^ 30 - 1)) as [->|N].
  - rewrite Z.eqb_refl. split; [exists (2 ^ 29); lia|]. lia.
  - destruct H as [|(K & -> & H)]; [contradiction|]. replace (2 * K =? 2 ^ 30) with false by lia. split; [exists K; lia|]. lia.
Qed.

Lemma is_node_iff d q i : is_node d q i = true <-> ql q = 30 /\ node_coord i (qx q) = true /\ node_coord i (qy q) = true /\ match d with D2 => qz q = 0 | D3 => node_coord i (qz q) = true end.
Proof. unfold is_node. change MAXLEVEL with 30. rewrite !andb_true_iff, Z.eqb_eq. destruct d; cbn [is3]; rewrite ?Z.eqb_eq; tauto. Qed.

Lemma bit_cases k i : bit k i = 0 \/ bit k i = 1.
Proof. unfold bit. pose proof (Z.mod_pos_bound (k / 2 ^ i) 2 ltac:(lia)) as H. revert H. generalize ((k / 2 ^ i) mod 2). lia. Qed.
Lemma corner_cases d k : 0 <= k < children d -> k = 0 \/ k = 1 \/ k = 2 \/ k = 3 \/ d = D3 /\ (k = 4 \/ k = 5 \/ k = 6 \/ k = 7).
Proof. intros K. destruct d; cbn in K; [lia|]. assert (k = 0 \/ k = 1 \/ k = 2 \/ k = 3 \/ k = 4 \/ k = 5 \/ k = 6 \/ k = 7) by lia. tauto. Qed.
Lemma face_cases d f : 0 <= f < faces d -> f = 0 \/ f = 1 \/ f = 2 \/ f = 3 \/ d = D3 /\ (f = 4 \/ f = 5).
Proof. intros K. destruct d; cbn in K; [lia|]. assert (f = 0 \/ f = 1 \/ f = 2 \/ f = 3 \/ f = 4 \/ f = 5) by lia. tauto. Qed.
Lemma corner_node_place d q k : wf d q -> 0 <= k < children d -> place (corner_node d q k) = vertex d q k.
Proof.
  intros W K. pose proof (wf_level d q W). unfold place, vertex, corner_node. rewrite QLEN_side by lia. cbn [qx qy qz]. generalize (side (ql q)). intros s.
  assert (Z0 : d = D2 -> qz q = 0) by (apply wf_z; exact W).
  assert (C : k = 0 \/ k = 1 \/ k = 2 \/ k = 3 \/ d = D3 /\ (k = 4 \/ k = 5 \/ k = 6 \/ k = 7)) by (apply corner_cases; exact K).
  destruct C as [->|[->|[->|[->|(-> & [->|[->|[->| ->]]])]]]]; try reflexivity; destruct d; try reflexivity; cbn [is3]; rewrite Z0 by reflexivity; reflexivity.
Qed.

Lemma coord_of_node K : 0 <= K <= 2 ^ 29 -> exists X b, 0 <= X < 2 ^ 29 /\ (b = 0 \/ b = 1) /\ 2 * K = X * side 29 + b * side 29.
Proof. intros H. change (side 29) with 2. destruct (Z.eq_dec K (2 ^ 29)); [exists (2 ^ 29 - 1), 1|exists K, 0]; lia. Qed.
Lemma node_of_coord l X b : 0 <= l <= 29 -> 0 <= X < 2 ^ l -> b = 0 \/ b = 1 -> node_coord false (X * side l + b * side l) = true.
Proof.
  intros L H B. apply node_coord_out. pose proof (side_half l ltac:(lia)) as SH. pose proof (side_mul l ltac:(lia)) as SM. pose proof (side_pos (l + 1) ltac:(lia)) as SP.
  exists ((X + b) * side (l + 1)). rewrite SH in *. split; [ring|]. split; [nia|]. assert (2 * ((X + b) * side (l + 1)) <= 2 * 2 ^ 29); [|lia].
  replace (2 * 2 ^ 29) with (2 ^ 30) by reflexivity. rewrite <- SM. nia.
Qed.
Lemma bits3 b0 b1 b2 : (b0 = 0 \/ b0 = 1) -> (b1 = 0 \/ b1 = 1) -> (b2 = 0 \/ b2 = 1) -> bit (b0 + 2 * b1 + 4 * b2) 0 = b0 /\ bit (b0 + 2 * b1 + 4 * b2) 1 = b1 /\ bit (b0 + 2 * b1 + 4 * b2) 2 = b2.
Proof. intros [-> | ->] [-> | ->] [-> | ->]; repeat split; reflexivity. Qed.

(** The nodes are exactly the corners of valid quadrants, and p4est_quadrant_corner_node computes them. *)
Theorem C74_nodes_are_corners : forall d n,
  is_node d n false = true <-> ql n = 30 /\ exists q k, is_valid d q = true /\ 0 <= k < children d /\ place n = vertex d q k /\ n = corner_node d q k.
Proof.
  intros d n. rewrite is_node_iff. split.
  - intros (L & Nx & Ny & Nz). split; [exact L|]. apply node_coord_out in Nx as (KX & Ex & HX), Ny as (KY & Ey & HY).
    destruct (coord_of_node KX HX) as (X & b0 & RX & B0 & EX). destruct (coord_of_node KY HY) as (Y & b1 & RY & B1 & EY).
    assert (exists Z0 b2, 0 <= Z0 < 2 ^ 29 /\ (b2 = 0 \/ b2 = 1) /\ qz n = Z0 * side 29 + b2 * side 29 /\ (d = D2 -> Z0 = 0 /\ b2 = 0)) as (Z0 & b2 & RZ & B2 & EZ & HD).
    { destruct d; [exists 0, 0; rewrite Nz; lia|]. apply node_coord_out in Nz as (KZ & Ez & HZ). destruct (coord_of_node KZ HZ) as (Z0 & b2 & RZ & B2 & EZ). exists Z0, b2. rewrite Ez. repeat split; try lia; discriminate. }
    destruct (wf_intro d X Y Z0 29 ltac:(lia) RX RY RZ ltac:(intros D; apply HD in D; lia)) as (W & _).
    destruct (bits3 b0 b1 b2 B0 B1 B2) as (T0 & T1 & T2). set (k := b0 + 2 * b1 + 4 * b2) in *.
    assert (K : 0 <= k < children d) by (unfold k; destruct d; cbn [children]; [destruct HD; [reflexivity|]|]; lia).
    exists (mkq (X * side 29) (Y * side 29) (Z0 * side 29) 29), k.
    assert (V : place n = vertex d (mkq (X * side 29) (Y * side 29) (Z0 * side 29) 29) k).
    { unfold place, vertex. cbn [qx qy qz ql]. rewrite T0, T1, T2, Ex, Ey, EX, EY. destruct d; [rewrite Nz; reflexivity|rewrite EZ; reflexivity]. }
    split; [apply is_valid_wf; exact W|]. split; [exact K|]. split; [exact V|]. rewrite <- (corner_node_place d _ k W K) in V.
    unfold place in V. assert (L2 : ql n = ql (corner_node d (mkq (X * side 29) (Y * side 29) (Z0 * side 29) 29) k)) by exact L.
    destruct n as [a b c e], (corner_node d _ k) as [a' b' c' e']. cbn [qx qy qz ql] in *. congruence.
  - intros (L & q & k & V & K & P & _). apply is_valid_wf in V. split; [exact L|]. pose proof (wf_level d q V) as Lq. unfold place, vertex in P. 
    destruct (wf_elim d q V) as (X & Y & Z0 & Ex & Ey & Ez & HX & HY & HZ & HD & _). rewrite Ex, Ey, Ez in P.
    assert (PX : qx n = X * side (ql q) + bit k 0 * side (ql q)) by congruence. assert (PY : qy n = Y * side (ql q) + bit k 1 * side (ql q)) by congruence. rewrite PX, PY.
    split; [apply node_of_coord; auto using bit_cases|]. split; [apply node_of_coord; auto using bit_cases|]. destruct d; [congruence|].
    assert (PZ : qz n = Z0 * side (ql q) + bit k 2 * side (ql q)) by congruence. rewrite PZ. apply node_of_coord; auto using bit_cases.
Qed.
Print Assumptions C74_nodes_are_corners.

(** Clamping moves a node into the root and nothing else; it loses no information: unclamping is the inverse, both ways. *)
Theorem C74_clamp : forall d n, is_node d n false = true ->
  let r := node_clamp_inside d n in
  is_node d r true = true /\ node_unclamp d r = n /\ inroot d (qx r) (qy r) (qz r) /\ (inroot d (qx n) (qy n) (qz n) -> r = n).
Proof.
  intros d [x y z l] N. apply is_node_iff in N. cbn [qx qy qz ql] in N. destruct N as (-> & Nx & Ny & Nz). cbv zeta.
  destruct (clamp1_in x Nx) as (A1 & A2 & A3 & A4 & _), (clamp1_in y Ny) as (B1 & B2 & B3 & B4 & _). unfold node_unclamp, node_clamp_inside. cbn [qx qy qz ql]. change MAXLEVEL with 30.
  destruct d; cbn [is3].
  - subst z. split; [apply is_node_iff; cbn [qx qy qz ql]; auto|]. split; [rewrite A2, B2; reflexivity|]. split; [unfold inroot; auto|]. unfold inroot. intros (R1 & R2 & _). rewrite A4, B4 by lia. reflexivity.
  - destruct (clamp1_in z Nz) as (D1 & D2 & D3 & D4 & _). split; [apply is_node_iff; cbn [qx qy qz ql]; auto|]. split; [rewrite A2, B2, D2; reflexivity|]. split; [unfold inroot; auto|]. unfold inroot. intros (R1 & R2 & R3). rewrite A4, B4, D4 by lia. reflexivity.
Qed.
Print Assumptions C74_clamp.

Theorem C74_unclamp : forall d n, is_node d n true = true -> is_node d (node_unclamp d n) false = true /\ node_clamp_inside d (node_unclamp d n) = n.
Proof.
  intros d [x y z l] N. apply is_node_iff in N. cbn [qx qy qz ql] in N. destruct N as (-> & Nx & Ny & Nz).
  destruct (unclamp1_out x Nx) as (A1 & A2 & _), (unclamp1_out y Ny) as (B1 & B2 & _). unfold node_unclamp, node_clamp_inside. cbn [qx qy qz ql]. change MAXLEVEL with 30.
  destruct d; cbn [is3].
  - subst z. split; [apply is_node_iff; cbn [qx qy qz ql]; auto|]. rewrite A2, B2. reflexivity.
  - destruct (unclamp1_out z Nz) as (D1 & D2 & _). split; [apply is_node_iff; cbn [qx qy qz ql]; auto|]. rewrite A2, B2, D2. reflexivity.
Qed.
Print Assumptions C74_unclamp.

(** ** The quadrant of a node *)
Lemma block a l : 0 <= l <= 29 -> 0 <= a < 2 ^ 30 -> exists X, Z.land a (Z.lnot (Z.shiftl 1 (30 - l) - 1)) = X * side l /\ 0 <= X < 2 ^ l /\ X * side l <= a < X * side l + side l.
Proof.
  intros L H. rewrite shl1, land_lnot_mask by lia. fold (side l). pose proof (side_pos l ltac:(lia)) as S. pose proof (side_mul l ltac:(lia)) as M. exists (a / side l). split; [reflexivity|].
  pose proof (Z.div_mod a (side l) ltac:(lia)). pose proof (Z.mod_pos_bound a (side l) S). split; [|lia]. split; [apply Z.div_pos; lia|]. apply Z.div_lt_upper_bound; lia.
Qed.
Lemma one_block s X Y a : 0 < s -> X * s <= a < X * s + s -> Y * s <= a < Y * s + s -> X = Y.
Proof. intros. nia. Qed.
Lemma node_in_root d n : is_node d n true = true -> inroot d (qx n) (qy n) (qz n).
Proof.
  intros N. apply is_node_iff in N as (_ & A & B & C). apply unclamp1_out in A as (_ & _ & A), B as (_ & _ & B). unfold inroot. split; [exact A|]. split; [exact B|].
  destruct d; [exact C|]. apply unclamp1_out in C as (_ & _ & C). exact C.
Qed.
Lemma to_quadrant d n l : inroot d (qx n) (qy n) (qz n) -> 0 <= l <= 29 -> let q := node_to_quadrant d n l in wf d q /\ inq d q (qx n) (qy n) (qz n) /\ forall r, wf d r -> ql r = l -> inq d r (qx n) (qy n) (qz n) -> r = q.
Proof.
  intros (Rx & Ry & Rz) L. cbv zeta. unfold node_to_quadrant. change MAXLEVEL with 30. pose proof (side_pos l ltac:(lia)) as S.
  destruct (block (qx n) l L Rx) as (X & -> & HX & IX), (block (qy n) l L Ry) as (Y & -> & HY & IY).
  assert (exists Z0, (if is3 d then Z.land (qz n) (Z.lnot (Z.shiftl 1 (30 - l) - 1)) else qz n) = Z0 * side l /\ 0 <= Z0 < 2 ^ l /\ (d = D2 -> Z0 = 0) /\ (d = D3 -> Z0 * side l <= qz n < Z0 * side l + side l)) as (Z0 & -> & HZ & HD & IZ).
  { destruct d; cbn [is3].
    - exists 0. rewrite Rz. pose proof (Z.pow_pos_nonneg 2 l). repeat split; try lia; discriminate.
    - destruct (block (qz n) l L Rz) as (Z0 & E & HZ & IZ). exists Z0. repeat split; try lia; try discriminate; exact E. }
  destruct (wf_intro d X Y Z0 l L HX HY HZ HD) as (W & _). split; [exact W|]. split.
  - unfold inq. cbn [qx qy qz ql]. split; [exact IX|]. split; [exact IY|]. destruct d; [exact Rz|]. apply IZ. reflexivity.
  - intros r Wr Lr (Jx & Jy & Jz). destruct (wf_elim d r Wr) as (X1 & Y1 & Z1 & Ex & Ey & Ez & _ & _ & _ & HD1 & _). rewrite Lr in *. rewrite Ex in Jx. rewrite Ey in Jy.
    assert (X1 = X) by (apply (one_block (side l) X1 X (qx n)); auto). assert (Y1 = Y) by (apply (one_block (side l) Y1 Y (qy n)); auto).
    assert (Z1 = Z0). { destruct d; [rewrite HD, HD1; auto|]. rewrite Ez in Jz. apply (one_block (side l) Z1 Z0 (qz n)); auto. }
    destruct r as [a b c e]. cbn [qx qy qz ql] in *. subst. reflexivity.
Qed.

(** On each level, p4est_node_to_quadrant gives the one valid quadrant that contains a clamped node; contains_node is true for it alone; the quadrants of a node on different levels are ancestors of each other. *)
Theorem C74_to_quadrant : forall d n l, is_node d n true = true -> 0 <= l <= 29 ->
  let q := node_to_quadrant d n l in
  is_valid d q = true /\ ql q = l /\ inq d q (qx n) (qy n) (qz n) /\
  (forall r, is_valid d r = true -> ql r = l -> (contains_node d r n = true <-> r = q)) /\
  (forall m, l < m <= 29 -> is_ancestor d q (node_to_quadrant d n m) = true).
Proof.
  intros d n l N L q. pose proof (node_in_root d n N) as R. destruct (to_quadrant d n l R L) as (W & I & U). fold q in W, I, U. split; [apply is_valid_wf; exact W|]. split; [reflexivity|]. split; [exact I|].
  assert (Zn : d = D2 -> qz n = 0) by (intros ->; apply R).
  assert (CN : forall r, wf d r -> (contains_node d r n = true <-> inq d r (qx n) (qy n) (qz n))).
  { intros r Wr. pose proof (wf_level d r Wr). unfold contains_node, inq. rewrite QLEN_side by lia. rewrite !andb_true_iff, orb_true_iff, !andb_true_iff, !Z.leb_le, !Z.ltb_lt. destruct d; cbn [is3 negb]; [specialize (Zn eq_refl)|]; intuition discriminate. }
  split.
  - intros r V Lr. apply is_valid_wf in V. rewrite (CN r V). split; [apply U; auto|]. intros ->. exact I.
  - intros m M. destruct (to_quadrant d n m R ltac:(lia)) as (Wm & Im & _). set (p := node_to_quadrant d n m) in *.
    assert (Lp : ql p = m) by reflexivity. assert (Lq : ql q = l) by reflexivity. apply anc_corner; [exact W|apply wf_z; exact Wm|]. split; [lia|].
    destruct (wf_elim d q W) as (X & Y & Z0 & Ex & Ey & Ez & _ & _ & _ & HD & _), (wf_elim d p Wm) as (X1 & Y1 & Z1 & Ex1 & Ey1 & Ez1 & _ & _ & _ & HD1 & _).
    pose proof (side_split l m ltac:(lia)) as SS. pose proof (side_pos m ltac:(lia)) as SP. assert (KP : 0 < 2 ^ (m - l)) by (apply Z.pow_pos_nonneg; lia). rewrite Lp, Lq in *. set (k := 2 ^ (m - l)) in *.
    assert (NEST : forall A B a, A * side l <= a < A * side l + side l -> B * side m <= a < B * side m + side m -> A * side l <= B * side m < A * side l + side l).
    { intros A B a HA HB. rewrite SS in *. set (s := side m) in *. assert (A * k < B + 1) by nia. assert (B < A * k + k) by nia. nia. }
    destruct I as (Ix & Iy & Iz), Im as (Mx & My & Mz). rewrite Lp in Mx, My, Mz. rewrite Lq in Ix, Iy, Iz. unfold inq. rewrite Lq. rewrite Ex, Ey, Ez in *. rewrite Ex1, Ey1, Ez1 in *.
    split; [apply (NEST _ _ (qx n)); auto|]. split; [apply (NEST _ _ (qy n)); auto|]. destruct d; [rewrite HD1; auto|]. apply (NEST _ _ (qz n)); auto.
Qed.
Print Assumptions C74_to_quadrant.

(** The quadrant of a corner: clamping the node of corner k of q gives a node in q exactly if q ends at the boundary of the root in each direction in which the corner is on the upper side.  In particular every quadrant is the quadrant of its corner 0. *)
Definition ends (a s b : Z) : Prop := b = 0 \/ a + s = 2 ^ 30.
Theorem C74_corner_quadrant : forall d q k, is_valid d q = true -> 0 <= k < children d ->
  (node_to_quadrant d (node_clamp_inside d (corner_node d q k)) (ql q) = q <->
   ends (qx q) (side (ql q)) (bit k 0) /\ ends (qy q) (side (ql q)) (bit k 1) /\ match d with D2 => True | D3 => ends (qz q) (side (ql q)) (bit k 2) end).
Proof.
  intros d q k V K. assert (W : wf d q) by (apply is_valid_wf; exact V). pose proof (wf_level d q W) as L. set (n := corner_node d q k).
  assert (N : is_node d n false = true). { apply C74_nodes_are_corners. split; [reflexivity|]. exists q, k. repeat split; auto; try apply K. apply corner_node_place; auto. }
  destruct (C74_clamp d n N) as (Nc & _ & Rc & _). set (c := node_clamp_inside d n) in *. destruct (to_quadrant d c (ql q) Rc L) as (_ & I & U).
  assert (E : node_to_quadrant d c (ql q) = q <-> inq d q (qx c) (qy c) (qz c)). { split; [intros E; rewrite E in I; exact I|]. intros H. symmetry. apply U; auto. }
  rewrite E. clear E I U. pose proof (corner_node_place d q k W K) as P. fold n in P. unfold place, vertex in P. pose proof (side_pos (ql q) ltac:(lia)) as S. pose proof (side_mul (ql q) ltac:(lia)) as SM.
  destruct (wf_elim d q W) as (X & Y & Z0 & Ex & Ey & Ez & HX & HY & HZ & HD & _).
  assert (ONE : forall A b, 0 <= A < 2 ^ ql q -> b = 0 \/ b = 1 -> (A * side (ql q) <= clamp1 (A * side (ql q) + b * side (ql q)) < A * side (ql q) + side (ql q) <-> ends (A * side (ql q)) (side (ql q)) b)).
  { intros A b HA B. assert (A * side (ql q) + side (ql q) <= 2 ^ 30) by nia. unfold clamp1, ends. rewrite ROOT_LEN_pow. destruct (Z.eqb_spec (A * side (ql q) + b * side (ql q)) (2 ^ 30)); destruct B; subst b; lia. }
  assert (PX : qx c = clamp1 (X * side (ql q) + bit k 0 * side (ql q))) by (rewrite <- Ex; unfold c, node_clamp_inside; cbn [qx]; congruence).
  assert (PY : qy c = clamp1 (Y * side (ql q) + bit k 1 * side (ql q))) by (rewrite <- Ey; unfold c, node_clamp_inside; cbn [qy]; congruence).
  unfold inq. rewrite PX, PY, Ex, Ey, (ONE X), (ONE Y) by auto using bit_cases. destruct d.
  - destruct Rc as (_ & _ & Rc). tauto.
  - assert (PZ : qz c = clamp1 (Z0 * side (ql q) + bit k 2 * side (ql q))) by (rewrite <- Ez; unfold c, node_clamp_inside; cbn [is3 qz]; congruence).
    rewrite PZ, Ez, (ONE Z0) by auto using bit_cases. tauto.
Qed.
Print Assumptions C74_corner_quadrant.

(** ** Descendants at a face or a corner *)
Lemma desc_axes d a q : wf d a -> wf d q -> is_ancestor d a q = true ->
  exists s k, side (ql q) = s /\ side (ql a) = k * s /\ 0 < s /\ 1 < k /\
  exists X Y Z0 x y z, qx a = X * (k * s) /\ qy a = Y * (k * s) /\ qz a = Z0 * (k * s) /\ qx q = X * (k * s) + x * s /\ qy q = Y * (k * s) + y * s /\ (d = D3 -> qz q = Z0 * (k * s) + z * s /\ 0 <= z < k) /\ 0 <= x < k /\ 0 <= y < k.
Proof.
  intros Wa Wq A. apply anc_corner in A as (L & Cx & Cy & Cz); [|exact Wa|apply wf_z; exact Wq]. pose proof (wf_level d a Wa). pose proof (wf_level d q Wq).
  exists (side (ql q)), (2 ^ (ql q - ql a)). pose proof (side_split (ql a) (ql q) ltac:(lia)) as SS. pose proof (side_pos (ql q) ltac:(lia)) as SP. set (s := side (ql q)) in *.
  assert (K : 1 < 2 ^ (ql q - ql a)) by (apply Z.pow_gt_1; lia). set (k := 2 ^ (ql q - ql a)) in *. split; [reflexivity|]. split; [exact SS|]. split; [exact SP|]. split; [exact K|].
  destruct (wf_elim d a Wa) as (X & Y & Z0 & Ex & Ey & Ez & _), (wf_elim d q Wq) as (X1 & Y1 & Z1 & Ex1 & Ey1 & Ez1 & _). fold s in Ex1, Ey1, Ez1. rewrite SS in *.
  exists X, Y, Z0, (X1 - X * k), (Y1 - Y * k), (Z1 - Z0 * k). rewrite Ex, Ey in *. rewrite Ex1, Ey1 in *.
  assert (R : forall A B, A * (k * s) <= B * s < A * (k * s) + k * s -> 0 <= B - A * k < k) by (intros A B HAB; nia).
  split; [reflexivity|]. split; [reflexivity|]. split; [exact Ez|]. split; [ring|]. split; [ring|]. split; [|split; apply R; auto].
  intros ->. rewrite Ez, Ez1 in *. split; [ring|]. apply R. exact Cz.
Qed.

(** p4est_quadrant_is_ancestor_face: true if everything across that face of the descendant is outside of the ancestor; false if everything across is inside. *)
Theorem C74_ancestor_face : forall d a q f, is_valid d a = true -> is_valid d q = true -> is_ancestor d a q = true -> 0 <= f < faces d ->
  exists b, is_ancestor_face d q a f = Some b /\
  forall x y z, inq d q x y z ->
    let s := side (ql q) in
    (inq d a (x + step f 0 * s) (y + step f 1 * s) (z + step f 2 * s) <-> b = false).
Proof.
  intros d a q f Va Vq A F. apply is_valid_wf in Va, Vq. pose proof (wf_level d a Va). pose proof (wf_level d q Vq).
  destruct (desc_axes d a q Va Vq A) as (s & k & Es & Ea & SP & K & X & Y & Z0 & x0 & y0 & z0 & Ax & Ay & Az & Qx & Qy & Qz & Hx & Hy).
  unfold is_ancestor_face, inq. rewrite !QLEN_side by lia. rewrite Es, Ea, Ax, Ay, Az, Qx, Qy. cbv zeta. clear Ax Ay Qx Qy Es Ea A.
  assert (LO : forall P p v, 0 <= p < k -> P * (k * s) + p * s <= v < P * (k * s) + p * s + s -> (P * (k * s) <= v + -1 * s < P * (k * s) + k * s <-> (P * (k * s) + p * s =? P * (k * s)) = false)).
  { intros P p v Hp Hv. rewrite Z.eqb_neq. split; [intros H1 H2; nia|]. intros N. assert (p <> 0) by (intros ->; apply N; ring). nia. }
  assert (HI : forall P p v, 0 <= p < k -> P * (k * s) + p * s <= v < P * (k * s) + p * s + s -> (P * (k * s) <= v + 1 * s < P * (k * s) + k * s <-> (P * (k * s) + p * s + s =? P * (k * s) + k * s) = false)).
  { intros P p v Hp Hv. rewrite Z.eqb_neq. split; [intros H1 H2; nia|]. intros N. assert (p <> k - 1) by (intros ->; apply N; ring). nia. }
  assert (IN : forall P p v, 0 <= p < k -> P * (k * s) + p * s <= v < P * (k * s) + p * s + s -> P * (k * s) <= v + 0 * s < P * (k * s) + k * s) by (intros; nia).
  assert (C : f = 0 \/ f = 1 \/ f = 2 \/ f = 3 \/ d = D3 /\ (f = 4 \/ f = 5)) by (apply face_cases; exact F).
  assert (INZ : forall z, match d with D2 => z = 0 | D3 => qz q <= z < qz q + s end -> match d with D2 => z + 0 * s = 0 | D3 => Z0 * (k * s) <= z + 0 * s < Z0 * (k * s) + k * s end).
  { intros z. destruct d; [lia|]. destruct (Qz eq_refl) as (-> & Hz). apply IN. exact Hz. }
  destruct C as [-> |[-> |[-> |[-> |(-> & [-> | ->])]]]]; eexists; (split; [reflexivity|]); intros x y z (Ix & Iy & Iz);
    repeat match goal with |- context [step ?a ?b] => let v := eval vm_compute in (step a b) in change (step a b) with v end;
    repeat match goal with |- context [nz ?a] => let v := eval vm_compute in (nz a) in change (nz a) with v end; cbv iota.
  - rewrite <- (LO X x0 x Hx Ix). pose proof (IN Y y0 y Hy Iy). pose proof (INZ z Iz). tauto.
  - rewrite <- (HI X x0 x Hx Ix). pose proof (IN Y y0 y Hy Iy). pose proof (INZ z Iz). tauto.
  - rewrite <- (LO Y y0 y Hy Iy). pose proof (IN X x0 x Hx Ix). pose proof (INZ z Iz). tauto.
  - rewrite <- (HI Y y0 y Hy Iy). pose proof (IN X x0 x Hx Ix). pose proof (INZ z Iz). tauto.
  - destruct (Qz eq_refl) as (QE & Hz). rewrite QE in *. rewrite <- (LO Z0 z0 z Hz Iz). pose proof (IN X x0 x Hx Ix). pose proof (IN Y y0 y Hy Iy). tauto.
  - destruct (Qz eq_refl) as (QE & Hz). rewrite QE in *. rewrite <- (HI Z0 z0 z Hz Iz). pose proof (IN X x0 x Hx Ix). pose proof (IN Y y0 y Hy Iy). tauto.
Qed.
Print Assumptions C74_ancestor_face.

(** p4est_quadrant_is_ancestor_corner: true exactly if the descendant covers the lattice point of the ancestor that is nearest to the corner.  On each level this is one descendant, and p4est_quadrant_corner_descendant computes it. *)
Lemma tip_axis P p k s b : 0 < s -> 0 <= p < k -> b = 0 \/ b = 1 ->
  (P * (k * s) + p * s <= tip (P * (k * s)) (k * s) b < P * (k * s) + p * s + s <-> P * (k * s) + b * (k * s) = P * (k * s) + p * s + b * s).
Proof.
  intros S H [-> | ->]; unfold tip.
  - split; intros E; [assert (p = 0) by nia; subst p; ring|assert (p = 0) by nia; subst p; lia].
  - split; intros E; [assert (p = k - 1) by nia; subst p; ring|assert (p = k - 1) by nia; subst p; lia].
Qed.
Lemma corner_up k b i a s : 0 <= k < 8 -> (b = 1 /\ i = 0 \/ b = 2 /\ i = 1 \/ b = 4 /\ i = 2) -> (if nz (Z.land k b) then a + s else a) = a + bit k i * s.
Proof.
  intros K B. assert (C : k = 0 \/ k = 1 \/ k = 2 \/ k = 3 \/ k = 4 \/ k = 5 \/ k = 6 \/ k = 7) by lia.
  destruct B as [(-> & ->)|[(-> & ->)|(-> & ->)]]; destruct C as [-> |[-> |[-> |[-> |[-> |[-> |[-> | ->]]]]]]];
    repeat match goal with |- context [nz ?a] => let v := eval vm_compute in (nz a) in change (nz a) with v end;
    repeat match goal with |- context [bit ?a ?b] => let v := eval vm_compute in (bit a b) in change (bit a b) with v end; cbv iota; ring.
Qed.
Theorem C74_ancestor_corner : forall d a q k, is_valid d a = true -> is_valid d q = true -> is_ancestor d a q = true -> 0 <= k < children d ->
  (is_ancestor_corner d q a k = true <-> covers_tip d q a k) /\
  (is_ancestor_corner d q a k = true <-> q = corner_descendant d a k (ql q)).
Proof.
  intros d a q k Va Vq A K. apply is_valid_wf in Va, Vq. pose proof (wf_level d a Va) as La. pose proof (wf_level d q Vq) as Lq.
  assert (ZA : d = D2 -> qz a = 0) by (apply wf_z; exact Va). assert (ZQ : d = D2 -> qz q = 0) by (apply wf_z; exact Vq).
  destruct (desc_axes d a q Va Vq A) as (s & m & Es & Ea & SP & M & X & Y & Z0 & x0 & y0 & z0 & Ax & Ay & Az & Qx & Qy & Qz & Hx & Hy).
  assert (K8 : 0 <= k < 8) by (destruct d; cbn in K; lia).
  assert (E : is_ancestor_corner d q a k = true <-> qx a + bit k 0 * (m * s) = qx q + bit k 0 * s /\ qy a + bit k 1 * (m * s) = qy q + bit k 1 * s /\ (d = D3 -> qz a + bit k 2 * (m * s) = qz q + bit k 2 * s)).
  { unfold is_ancestor_corner. rewrite !QLEN_side by lia. rewrite Es, Ea. rewrite !(corner_up k 1 0), !(corner_up k 2 1), !(corner_up k 4 2) by (try exact K8; lia).
    rewrite !andb_true_iff, orb_true_iff, !Z.eqb_eq. destruct d; cbn [is3 negb]; intuition discriminate. }
  rewrite E. split.
  - unfold covers_tip, inq. rewrite Es, Ea, Ax, Ay, Az, Qx, Qy. rewrite !tip_axis by auto using bit_cases. destruct d; [intuition discriminate|].
    destruct (Qz eq_refl) as (-> & Hz). rewrite tip_axis by auto using bit_cases. intuition.
  - unfold corner_descendant. rewrite !QLEN_side by lia. rewrite Es, Ea.
    assert (U : forall b i, (b = 1 /\ i = 0 \/ b = 2 /\ i = 1 \/ b = 4 /\ i = 2) -> (if nz (Z.land k b) then m * s - s else 0) = bit k i * (m * s - s)).
    { intros b i B. pose proof (corner_up k b i 0 (m * s - s) K8 B) as H. rewrite !Z.add_0_l in H. exact H. }
    assert (N1 : nz (Z.land (Z.shiftr k 1) 1) = nz (Z.land k 2)) by (assert (C : k = 0 \/ k = 1 \/ k = 2 \/ k = 3 \/ k = 4 \/ k = 5 \/ k = 6 \/ k = 7) by lia; destruct C as [-> |[-> |[-> |[-> |[-> |[-> |[-> | ->]]]]]]]; reflexivity).
    assert (N2 : nz (Z.shiftr k 2) = nz (Z.land k 4)) by (assert (C : k = 0 \/ k = 1 \/ k = 2 \/ k = 3 \/ k = 4 \/ k = 5 \/ k = 6 \/ k = 7) by lia; destruct C as [-> |[-> |[-> |[-> |[-> |[-> |[-> | ->]]]]]]]; reflexivity).
    rewrite N1, N2, (U 1 0), (U 2 1), (U 4 2) by lia. clear N1 N2 U E Qx Qy Ax Ay Az.
    assert (EQ : forall u v b, u + b * (m * s) = v + b * s <-> v = u + b * (m * s - s)) by (intros; split; intros; lia).
    rewrite !EQ. destruct q as [x y z l]. cbn [qx qy qz ql] in *. destruct d; cbn [is3].
    + rewrite ZA, ZQ by reflexivity. split; [intros (-> & -> & _); reflexivity|]. intros H. assert (x = qx a + bit k 0 * (m * s - s)) by congruence. assert (y = qy a + bit k 1 * (m * s - s)) by congruence. repeat split; auto; discriminate.
    + split; [intros (-> & -> & H); rewrite H by reflexivity; reflexivity|]. intros H. assert (x = qx a + bit k 0 * (m * s - s)) by congruence. assert (y = qy a + bit k 1 * (m * s - s)) by congruence. assert (z = qz a + bit k 2 * (m * s - s)) by congruence. auto.
Qed.
Print Assumptions C74_ancestor_corner.

(** ** Cases *)
Definition far3 : quad := mkq (2 ^ 30) (2 ^ 29) 6 30.
Definition big3 : quad := mkq (2 ^ 29) (2 ^ 29) 0 1.
Definition small3 : quad := mkq (2 ^ 30 - 2 ^ 27) (2 ^ 30 - 2 ^ 27) 0 3.
Example C74_node : is_node D3 far3 false = true /\ is_node D3 far3 true = false /\ node_clamp_inside D3 far3 = mkq (2 ^ 30 - 1) (2 ^ 29) 6 30 /\ is_node D3 (node_clamp_inside D3 far3) true = true /\
  node_to_quadrant D3 (node_clamp_inside D3 far3) 1 = big3 /\ corner_node D3 big3 1 = mkq (2 ^ 30) (2 ^ 29) 0 30 /\ node_to_quadrant D3 (node_clamp_inside D3 (corner_node D3 big3 4)) 1 = mkq (2 ^ 29) (2 ^ 29) (2 ^ 29) 1 /\
  is_node D3 (mkq 1 0 0 30) false = false /\ is_node D3 (mkq 1 0 0 30) true = false.
Proof. repeat split; vm_compute; reflexivity. Qed.
Example C74_descendants : is_valid D3 big3 = true /\ is_valid D3 small3 = true /\ is_ancestor D3 big3 small3 = true /\
  map (is_ancestor_face D3 small3 big3) [0; 1; 2; 3; 4; 5] = [Some false; Some true; Some false; Some true; Some true; Some false] /\
  map (is_ancestor_corner D3 small3 big3) [0; 1; 2; 3; 4; 5; 6; 7] = [false; false; false; true; false; false; false; false].
Proof. repeat split; vm_compute; reflexivity. Qed.
