(** * Property theorems C10: neighbours across faces, edges, corners *)

From Coq Require Import ZArith List Bool Lia ZifyBool.
From Verif Require Import Quad Spec Morton ZBits Interval QuadLemmas CompareLemmas SuccLemmas Neighbor.
Import ListNotations.
Open Scope Z_scope.

(** ** Vocabulary *)
(** An aligned quadrant, anywhere in space *)
Definition ext (d : dim) (q : quad) : Prop :=
  0 <= ql q <= 29 /\ (exists X, qx q = X * side (ql q)) /\ (exists Y, qy q = Y * side (ql q)) /\
  match d with D2 => qz q = 0 | D3 => exists Z', qz q = Z' * side (ql q) end.

(** Closed box of a quadrant, integer points *)
Definition clo (d : dim) (q : quad) (a b c : Z) : Prop :=
  qx q <= a <= qx q + side (ql q) /\ qy q <= b <= qy q + side (ql q) /\
  match d with D2 => c = 0 | D3 => qz q <= c <= qz q + side (ql q) end.

(** i-th coordinate of a point *)
Definition coord (i a b c : Z) : Z := if i =? 0 then a else if i =? 1 then b else c.
Definition qcoord (i : Z) (q : quad) : Z := coord i (qx q) (qy q) (qz q).

(** the two ends of a quadrant in direction i: lower if s = 0, upper if s = 1 *)
Definition bound (i s : Z) (q : quad) : Z := qcoord i q + s * side (ql q).

(** Closed points of face f: direction f / 2, side f mod 2 *)
Definition on_face (d : dim) (q : quad) (f a b c : Z) : Prop :=
  clo d q a b c /\ coord (f / 2) a b c = bound (f / 2) (f mod 2) q.

(** The point of corner k: side given by bit i of k in direction i *)
Definition is_corner (d : dim) (q : quad) (k a b c : Z) : Prop :=
  a = bound 0 (k mod 2) q /\ b = bound 1 (k / 2 mod 2) q /\
  match d with D2 => c = 0 | D3 => c = bound 2 (k / 4 mod 2) q end.

(** Closed points of edge e (3D): parallel to direction e / 4; the low bit of e
    is the side in the lower of the other two directions *)
Definition on_edge (q : quad) (e a b c : Z) : Prop :=
  clo D3 q a b c /\
  let i := if e / 4 =? 0 then 1 else 0 in
  let j := if e / 4 =? 2 then 1 else 2 in
  coord i a b c = bound i (e mod 2) q /\ coord j a b c = bound j (e / 2 mod 2) q.

(** ** Lemmas *)
Lemma wf_ext d q : wf d q <-> ext d q /\
  0 <= qx q < 2 ^ 30 /\ 0 <= qy q < 2 ^ 30 /\ match d with D2 => True | D3 => 0 <= qz q < 2 ^ 30 end.
Proof.
  assert (R : forall l a X, 0 <= l <= 29 -> a = X * side l -> (0 <= a < 2 ^ 30 <-> 0 <= X < 2 ^ l)).
  { intros l a X L ->. pose proof (side_pos l ltac:(lia)). pose proof (side_mul l ltac:(lia)). nia. }
  split.
  - intros (L & (X & Ex & HX) & (Y & Ey & HY) & Hz). split.
    + split; [auto|]. split; [eauto|]. split; [eauto|]. destruct d; [auto|].
      destruct Hz as (Z' & ? & ?). eauto.
    + split; [apply (R _ _ X L Ex); auto|]. split; [apply (R _ _ Y L Ey); auto|].
      destruct d; [auto|]. destruct Hz as (Z' & Ez & HZ). apply (R _ _ Z' L Ez); auto.
  - intros ((L & (X & Ex) & (Y & Ey) & Hz) & Bx & By & Bz).
    split; [auto|]. split; [exists X; split; [auto|apply (R _ _ X L Ex); auto]|].
    split; [exists Y; split; [auto|apply (R _ _ Y L Ey); auto]|].
    destruct d; [auto|]. destruct Hz as (Z' & Ez). exists Z'. split; [auto|apply (R _ _ Z' L Ez); auto].
Qed.

Lemma up_bound A m s : 0 < s -> A * s < m * s -> A * s + s <= m * s.
Proof. intros Hs H. assert (A < m) by (apply (Z.mul_lt_mono_pos_r s); auto). nia. Qed.

Ltac cases_to n x :=
  lazymatch n with
  | O => exfalso; lia
  | S ?m => let E := fresh "E" in
            destruct (Z.eq_dec x (Z.of_nat m)) as [E|E]; [cbn in E; subst x|cases_to m x]
  end.

Ltac side_facts q :=
  let H := fresh "Hs" in
  assert (H : 0 < side (ql q)) by (apply side_pos; lia);
  rewrite ?QLEN_side in * by lia.

Ltac ext_shift :=
  match goal with
  | E : ?a = ?X * ?s |- exists Y, ?a + - ?s = Y * ?s => exists (X - 1); rewrite E; ring
  | E : ?a = ?X * ?s |- exists Y, ?a + ?s = Y * ?s => exists (X + 1); rewrite E; ring
  | E : ?a = ?X * ?s |- exists Y, ?a + 0 = Y * ?s => exists X; rewrite E; ring
  | E : ?a = ?X * ?s |- exists Y, ?a + 1 * ?s = Y * ?s => exists (X + 1); rewrite E; ring
  | E : ?a = ?X * ?s |- exists Y, ?a + -1 * ?s = Y * ?s => exists (X - 1); rewrite E; ring
  | E : ?a = ?X * ?s |- exists Y, ?a = Y * ?s => exists X; exact E
  end.

Ltac isnum0 t := lazymatch t with Z0 => idtac | Zpos _ => idtac | Zneg _ => idtac end.
Ltac zconst :=
  repeat match goal with
  | |- context [?a =? ?b] => isnum0 a; isnum0 b; let v := eval vm_compute in (a =? b) in
       match v with true => change (a =? b) with true | false => change (a =? b) with false end
  end.

(** evaluation of closed integer expressions *)
Ltac isnum t :=
  lazymatch t with
  | Z0 => idtac | Zpos _ => idtac | Zneg _ => idtac
  | Z.lxor ?a ?b => isnum a; isnum b
  | Z.land ?a ?b => isnum a; isnum b
  | ?a / ?b => isnum a; isnum b
  | ?a mod ?b => isnum a; isnum b
  | ?a - ?b => isnum a; isnum b
  | ?a + ?b => isnum a; isnum b
  | ?a * ?b => isnum a; isnum b
  | - ?a => isnum a
  end.
Ltac zev t := isnum t; let v := eval vm_compute in t in change t with v.
Ltac zeval :=
  repeat match goal with
  | |- context [Z.lxor ?a ?b] => zev (Z.lxor a b)
  | |- context [Z.land ?a ?b] => zev (Z.land a b)
  | |- context [?a / ?b] => zev (a / b)
  | |- context [?a mod ?b] => zev (a mod b)
  | |- context [?a - ?b] => zev (a - b)
  | |- context [?a * ?b] => zev (a * b)
  end.

(** ** C10 *)
Theorem C10_face_neighbor : forall d q f, ext d q -> 0 <= f < faces d ->
  let n := face_neighbor d q f in
  ext d n /\ ql n = ql q /\
  face_neighbor d n (Z.lxor f 1) = q /\
  (forall a b c, clo d q a b c /\ clo d n a b c <-> on_face d q f a b c) /\
  (forall a b c, on_face d q f a b c <-> on_face d n (Z.lxor f 1) a b c) /\
  (wf d q -> (wf d n <-> bound (f / 2) (f mod 2) q <> (f mod 2) * 2 ^ 30)).
Proof.
  intros d q f E Hf. cbv zeta.
  pose proof E as (L & (X & Ex) & (Y & Ey) & Hz). side_facts q.
  assert (Ext : ext d (face_neighbor d q f)).
  { unfold ext, face_neighbor; cbn [qx qy qz ql]. rewrite QLEN_side by lia. split; [auto|].
    destruct d; cbn [faces is3] in *; [cases_to 4%nat f|destruct Hz as (Z' & Ez); cases_to 6%nat f];
      zconst; cbv iota; (split; [|split]); try ext_shift; auto. }
  split; [exact Ext|]. split; [reflexivity|].
  split; [|split; [|split]].
  - unfold face_neighbor; cbn [qx qy qz ql]. rewrite QLEN_side by lia.
    destruct q as [x y z l]; cbn [qx qy qz ql] in *.
    destruct d; cbn [faces is3] in *; [cases_to 4%nat f|cases_to 6%nat f];
      cbv [Z.lxor Z.of_nat]; cbn; f_equal; lia.
  - intros a b c. unfold on_face, clo, bound, qcoord, face_neighbor; cbn [qx qy qz ql].
    rewrite QLEN_side by lia.
    destruct d; cbn [faces is3] in *; [cases_to 4%nat f|cases_to 6%nat f];
      match goal with |- context [(?u / 2)] => change (u / 2) with ltac:(let v := eval vm_compute in (u/2) in exact v) end;
      match goal with |- context [(?u mod 2)] => change (u mod 2) with ltac:(let v := eval vm_compute in (u mod 2) in exact v) end;
      unfold coord; zconst; cbv iota; lia.
  - intros a b c. unfold on_face, clo, bound, qcoord, face_neighbor; cbn [qx qy qz ql].
    rewrite QLEN_side by lia.
    destruct d; cbn [faces is3] in *; [cases_to 4%nat f|cases_to 6%nat f];
      repeat match goal with |- context [(?u / 2)] => change (u / 2) with ltac:(let v := eval vm_compute in (u/2) in exact v) end;
      repeat match goal with |- context [(?u mod 2)] => change (u mod 2) with ltac:(let v := eval vm_compute in (u mod 2) in exact v) end;
      unfold coord; zconst; cbv iota; lia.
  - intros W. pose proof (proj1 (wf_ext d q) W) as (_ & Bx & By & Bz).
    rewrite wf_ext. pose proof (side_mul (ql q) ltac:(lia)) as SM.
    assert (Up : forall a A, a = A * side (ql q) -> 0 <= a < 2 ^ 30 -> a + side (ql q) <= 2 ^ 30).
    { intros a A -> R. rewrite <- SM in R |- *. apply up_bound; lia. }
    assert (Ux : qx q + side (ql q) <= 2 ^ 30) by (eapply Up; eauto).
    assert (Uy : qy q + side (ql q) <= 2 ^ 30) by (eapply Up; eauto).
    assert (Lx : 0 <= X) by nia. assert (Ly : 0 <= Y) by nia.
    assert (Qx : qx q = 0 \/ side (ql q) <= qx q) by (assert (X = 0 \/ 1 <= X) as [->|] by lia; nia).
    assert (Qy : qy q = 0 \/ side (ql q) <= qy q) by (assert (Y = 0 \/ 1 <= Y) as [->|] by lia; nia).
    assert (Uz : match d with D2 => True | D3 => qz q + side (ql q) <= 2 ^ 30 /\ (qz q = 0 \/ side (ql q) <= qz q) end).
    { destruct d; [auto|]. destruct Hz as (Z' & Ez). split; [eapply Up; eauto|].
      assert (Z' = 0 \/ 1 <= Z') as [->|] by nia; nia. }
    enough (K : (0 <= qx (face_neighbor d q f) < 2 ^ 30 /\ 0 <= qy (face_neighbor d q f) < 2 ^ 30 /\
                 match d with D2 => True | D3 => 0 <= qz (face_neighbor d q f) < 2 ^ 30 end) <->
                bound (f / 2) (f mod 2) q <> (f mod 2) * 2 ^ 30) by tauto.
    clear SM Ex Ey Hz Up. unfold bound, qcoord, face_neighbor; cbn [qx qy qz ql]. rewrite QLEN_side by lia.
    destruct d; cbn [faces is3] in *; [cases_to 4%nat f|cases_to 6%nat f];
      match goal with |- context [(?u / 2)] => change (u / 2) with ltac:(let v := eval vm_compute in (u/2) in exact v) end;
      repeat match goal with |- context [(?u mod 2)] => change (u mod 2) with ltac:(let v := eval vm_compute in (u mod 2) in exact v) end;
      unfold coord; zconst; cbv iota; lia.
Qed.

Theorem C10_corner_neighbor : forall d q k, ext d q -> 0 <= k < children d ->
  let n := corner_neighbor d q k in
  ext d n /\ ql n = ql q /\
  corner_neighbor d n (children d - 1 - k) = q /\
  (forall a b c, clo d q a b c /\ clo d n a b c <-> is_corner d q k a b c) /\
  (forall a b c, is_corner d q k a b c <-> is_corner d n (children d - 1 - k) a b c).
Proof.
  intros d q k E Hk. cbv zeta.
  pose proof E as (L & (X & Ex) & (Y & Ey) & Hz). side_facts q.
  assert (Ext : ext d (corner_neighbor d q k)).
  { unfold ext, corner_neighbor; cbn [qx qy qz ql]. rewrite QLEN_side by lia. split; [auto|].
    destruct d; cbn [children is3] in *.
    - split; [|split; [|auto]].
      + exists (X + (2 * Z.land k 1 - 1)). rewrite Ex. ring.
      + exists (Y + (Z.land k 2 - 1)). rewrite Ey. ring.
    - destruct Hz as (Z' & Ez). split; [|split].
      + exists (X + (2 * Z.land k 1 - 1)). rewrite Ex. ring.
      + exists (Y + (Z.land k 2 - 1)). rewrite Ey. ring.
      + exists (Z' + (Z.land k 4 / 2 - 1)). rewrite Ez. ring. }
  split; [exact Ext|]. split; [reflexivity|].
  split; [|split].
  - unfold corner_neighbor; cbn [qx qy qz ql]. rewrite QLEN_side by lia.
    destruct q as [x y z l]; cbn [qx qy qz ql] in *.
    destruct d; cbn [children is3] in *; [cases_to 4%nat k|cases_to 8%nat k];
      zeval; f_equal; lia.
  - intros a b c. unfold is_corner, clo, bound, qcoord, corner_neighbor; cbn [qx qy qz ql].
    rewrite QLEN_side by lia.
    destruct d; cbn [children is3] in *; [cases_to 4%nat k|cases_to 8%nat k];
      zeval; unfold coord; zconst; cbv iota;
      zeval;
      lia.
  - intros a b c. unfold is_corner, clo, bound, qcoord, corner_neighbor; cbn [qx qy qz ql].
    rewrite QLEN_side by lia.
    destruct d; cbn [children is3] in *; [cases_to 4%nat k|cases_to 8%nat k];
      zeval; unfold coord; zconst; cbv iota;
      zeval;
      lia.
Qed.

Theorem C10_edge_neighbor : forall q e, ext D3 q -> 0 <= e < 12 ->
  let n := edge_neighbor q e in
  ext D3 n /\ ql n = ql q /\
  edge_neighbor n (Z.lxor e 3) = q /\
  (forall a b c, clo D3 q a b c /\ clo D3 n a b c <-> on_edge q e a b c).
Proof.
  intros q e E He. cbv zeta.
  pose proof E as (L & (X & Ex) & (Y & Ey) & (Z' & Ez)). side_facts q.
  assert (G : forall u X b, u = X * side (ql q) -> exists X', u + b * side (ql q) = X' * side (ql q)).
  { intros u U b ->. exists (U + b). ring. }
  assert (P : e / 4 = 0 \/ e / 4 = 1 \/ e / 4 = 2).
  { pose proof (Z.mod_pos_bound e 4 ltac:(lia)). pose proof (Z.div_mod e 4 ltac:(lia)). lia. }
  split; [|split; [|split]].
  - unfold ext, edge_neighbor. rewrite QLEN_side by lia.
    destruct P as [P|[P|P]]; rewrite P; cbn [qx qy qz ql];
      (split; [lia|]; split; [|split]); eauto.
  - unfold edge_neighbor. destruct P as [P|[P|P]]; rewrite P; reflexivity.
  - unfold edge_neighbor. destruct q as [x y z l]; cbn [qx qy qz ql] in *.
    rewrite QLEN_side by lia.
    cases_to 12%nat e; zeval; cbv iota; cbn [qx qy qz ql]; rewrite ?QLEN_side by lia; f_equal; lia.
  - intros a b c. unfold on_edge, clo, bound, qcoord, edge_neighbor.
    rewrite QLEN_side by lia.
    cases_to 12%nat e;
      match goal with |- context [(?u / 4)] => change (u / 4) with ltac:(let v := eval vm_compute in (u/4) in exact v) end;
      cbv iota; cbn [qx qy qz ql];
      zeval; zconst; cbv iota zeta; unfold coord; zconst; cbv iota;
      zeval;
      lia.
Qed.

(** The half-size neighbours are the children of the neighbour at the common
    face resp. corner, in corner order of the face; the double-size neighbour
    returned by all_face_neighbors contains the face neighbour and is
    returned exactly if the face of q lies on the face of its parent. *)
Theorem C10_half_size_neighbors : forall d q f i k, ext d q -> ql q < 29 -> 0 <= f < faces d ->
  0 <= i < half d -> 0 <= k < children d ->
  half_face_neighbor d q f i = child d (face_neighbor d q f) (face_corners d (Z.lxor f 1) i) /\
  half_corner_neighbor d q k = child d (corner_neighbor d q k) (children d - 1 - k).
Proof.
  intros d q f i k E L Hf Hi Hk.
  pose proof E as (L0 & (X & Ex) & (Y & Ey) & Hz).
  assert (S2 : side (ql q) = 2 * side (ql q + 1)) by (apply side_half; lia).
  assert (Hs : 0 < side (ql q + 1)) by (apply side_pos; lia).
  (* all coordinates are multiples of twice the half length *)
  assert (OR : forall T, Z.lor (T * side (ql q)) (side (ql q + 1)) = T * side (ql q) + side (ql q + 1)).
  { intros T. rewrite S2. rewrite Z.mul_assoc. rewrite (Z.mul_comm T 2).
    unfold side. set (m := 30 - (ql q + 1)). assert (0 <= m) by (unfold m; lia).
    replace (Z.lor (2 * T * 2 ^ m) (2 ^ m)) with ((2 * T + 1) * 2 ^ m); [ring|].
    rewrite <- !Z.shiftl_mul_pow2 by lia.
    replace (2 ^ m) with (Z.shiftl 1 m) by (rewrite Z.shiftl_mul_pow2; lia).
    rewrite <- Z.shiftl_lor. f_equal. apply Z.bits_inj'. intros j Hj. rewrite Z.lor_spec.
    destruct (Z.eq_dec j 0) as [->|].
    - rewrite Z.testbit_odd_0, Z.testbit_even_0. reflexivity.
    - replace j with (Z.succ (j - 1)) by lia.
      rewrite Z.testbit_odd_succ, Z.testbit_even_succ by lia. change 1 with (2 * 0 + 1) at 3.
      rewrite Z.testbit_odd_succ, Z.bits_0, orb_false_r by lia. reflexivity. }
  destruct q as [x y z l]; cbn [qx qy qz ql] in *. subst x y.
  assert (HZ : exists T, z = T * side l) by (destruct d; [exists 0; lia|exact Hz]).
  destruct HZ as (T & Ez). subst z. clear Hz E.
  assert (ORp : forall A, Z.lor (A * side l + side l) (side (l + 1)) = A * side l + side l + side (l + 1)).
  { intros A. replace (A * side l + side l) with ((A + 1) * side l) by ring. apply OR. }
  assert (ORm : forall A, Z.lor (A * side l + - side l) (side (l + 1)) = A * side l + - side l + side (l + 1)).
  { intros A. replace (A * side l + - side l) with ((A - 1) * side l) by ring. apply OR. }
  assert (ORa : forall A b, Z.lor (A * side l + b * side l) (side (l + 1)) = A * side l + b * side l + side (l + 1)).
  { intros A b. replace (A * side l + b * side l) with ((A + b) * side l) by ring. apply OR. }
  split.
  - unfold half_face_neighbor, child, face_neighbor; cbn [qx qy qz ql]. rewrite !QLEN_side by lia.
    destruct d; cbn [faces half is3] in *;
      [cases_to 4%nat f; cases_to 2%nat i|cases_to 6%nat f; cases_to 4%nat i];
    match goal with |- context [(?u / 2)] => change (u / 2) with ltac:(let v := eval vm_compute in (u/2) in exact v) end;
    cbv iota;
    match goal with |- context [face_corners ?a ?b ?c] =>
      let v := eval vm_compute in (face_corners a b c) in change (face_corners a b c) with v end;
    repeat match goal with |- context [nz ?t] => let v := eval vm_compute in (nz t) in change (nz t) with v end;
    zconst; cbv iota; rewrite ?Z.add_0_r, ?OR, ?ORp, ?ORm;
    repeat match goal with |- context [Z.land ?a ?b] => let v := eval vm_compute in (Z.land a b) in change (Z.land a b) with v end;
    zeval; f_equal; cbn [andb]; cbv iota; lia.
  - unfold half_corner_neighbor, child, corner_neighbor; cbn [qx qy qz ql]. rewrite !QLEN_side by lia.
    destruct d; cbn [children is3] in *;
      [cases_to 4%nat k|cases_to 8%nat k];
    repeat match goal with |- context [nz ?t] => let v := eval vm_compute in (nz t) in change (nz t) with v end;
    cbv iota; rewrite ?ORa;
    repeat match goal with |- context [Z.land ?a ?b] => let v := eval vm_compute in (Z.land a b) in change (Z.land a b) with v end;
    zeval; f_equal; cbn [andb]; cbv iota; rewrite ?OR, ?ORp, ?ORm; lia.
Qed.

Example C10_ex : let q := mkq (3 * 2 ^ 27) 0 0 3 in
  face_neighbor D2 q 1 = mkq (4 * 2 ^ 27) 0 0 3 /\ wf D2 (face_neighbor D2 q 1) /\
  face_neighbor D2 q 2 = mkq (3 * 2 ^ 27) (- 2 ^ 27) 0 3 /\
  bound 1 0 q = 0 * 2 ^ 30.
Proof. cbv zeta. split; [reflexivity|]. split; [apply is_valid_wf; reflexivity|]. split; reflexivity. Qed.

Print Assumptions C10_face_neighbor.
Print Assumptions C10_corner_neighbor.
Print Assumptions C10_edge_neighbor.
Print Assumptions C10_half_size_neighbors.
