(** * The half-size, equal and double-size neighbors across a face *)

From Coq Require Import ZArith List Bool Lia ZifyBool.
From Verif Require Import Quad Spec Morton ZBits Interval QuadLemmas CompareLemmas DescLemmas SearchLocal Neighbor RangeBoundLemmas PropertiesRangeBound PropertiesNeighbor Transform PropertiesTransform
  Conn ConnLemmas Partition PartLemmas Comm OwnerLemmas Ghost GhostSpec GhostGeom GhostOut GhostState GhostTest GhostSteps GhostQuad GhostSym GhostFind Balanced.
Import ListNotations.
Open Scope Z_scope.

Lemma inbox_any d n s : wf d n -> wf d s -> (inbox d n s <-> within d n s).
Proof.
  intros Wn Ws. rewrite <- (within_points d n s Wn Ws). rewrite inbox_axes. pose proof (side_pos (ql s) ltac:(destruct Ws; lia)) as SP. unfold inq. split.
  - intros (A & B & E) x y z (H1 & H2 & H3). split; [lia|]. split; [lia|]. destruct d; lia.
  - intros H. pose proof (BalanceGeom.crn_self d s Ws) as C.
    assert (K : inq d s (qx s + side (ql s) - 1) (qy s + side (ql s) - 1) (match d with D2 => 0 | D3 => qz s + side (ql s) - 1 end)) by (unfold inq; destruct d; lia).
    pose proof (H _ _ _ C) as (A1 & A2 & A3). pose proof (H _ _ _ K) as (B1 & B2 & B3). split; [lia|]. split; [lia|]. destruct d; lia.
Qed.
Lemma inbox_refl d n : inbox d n n.
Proof. intros i A. lia. Qed.
Lemma inbox_trans d a b e : inbox d a b -> inbox d b e -> inbox d a e.
Proof. intros H1 H2 i A. specialize (H1 i A). specialize (H2 i A). lia. Qed.

Ltac six f Hf := assert (f = 0 \/ f = 1 \/ f = 2 \/ f = 3 \/ f = 4 \/ f = 5) as [->|[->|[->|[->|[->| ->]]]]] by lia.
Lemma faces6 d f : 0 <= f < faces d -> 0 <= f < 6 /\ (d = D2 -> f < 4).
Proof. destruct d; cbn [faces]; intros; split; intros; try lia; discriminate. Qed.

Lemma bit_table : forallb (fun k => forallb (fun f =>
    Bool.eqb (Z.land (Z.shiftr k (f / 2)) 1 =? Z.land f 1) (Bool.eqb (nz (Z.land k (2 ^ (f / 2)))) (Z.odd f))) [0; 1; 2; 3; 4; 5]) [0; 1; 2; 3; 4; 5; 6; 7] = true.
Proof. reflexivity. Qed.
Lemma bit_of k f : 0 <= k < 8 -> 0 <= f < 6 -> (Z.land (Z.shiftr k (f / 2)) 1 =? Z.land f 1) = Bool.eqb (nz (Z.land k (2 ^ (f / 2)))) (Z.odd f).
Proof.
  intros Hk Hf. pose proof bit_table as B. rewrite forallb_forall in B.
  assert (Ik : In k [0; 1; 2; 3; 4; 5; 6; 7]) by (cbn [In]; lia). specialize (B k Ik). cbv beta in B. rewrite forallb_forall in B.
  assert (If : In f [0; 1; 2; 3; 4; 5]) by (cbn [In]; lia). specialize (B f If). cbv beta in B. apply Bool.eqb_prop in B. exact B.
Qed.

(** the face of q is on the face of its parent, or the neighbor is a sibling *)
Lemma parent_side d q f : wf d q -> 0 < ql q -> 0 <= f < faces d ->
  if Z.land (Z.shiftr (child_id d q) (f / 2)) 1 =? Z.land f 1
  then inbox d (nb d (parent d q) (face_obj f)) (nb d q (face_obj f))
  else inbox d (parent d q) (nb d q (face_obj f)).
Proof.
  intros W L0 Hf. destruct (faces6 d f Hf) as (F6 & F4). pose proof (wf_level d q W) as L.
  assert (RK : 0 <= child_id d q < 8). { unfold child_id, ancestor_id. destruct (ql q =? 0); [lia|]. destruct (nz (Z.land (qx q) (QLEN (ql q)))), (nz (Z.land (qy q) (QLEN (ql q)))), (is3 d && nz (Z.land (qz q) (QLEN (ql q)))); cbn; lia. }
  rewrite (bit_of _ f RK F6). destruct (wf_elim d q W) as (X & Y & Z0 & Ex & Ey & Ez & _ & _ & _ & HD0 & _).
  destruct (BalanceGeom.child_bits d q X Y Z0 W L0 Ex Ey Ez) as (B1 & B2 & B3).
  pose proof (BalanceGeom.parent_coords d q X Y Z0 W L0 Ex Ey Ez) as EP. pose proof (side_half (ql q - 1) ltac:(lia)) as SH. replace (ql q - 1 + 1) with (ql q) in SH by lia.
  pose proof (side_pos (ql q) ltac:(lia)) as SP.
  assert (DV : forall V, V = 2 * (V / 2) + b2z (Z.odd V)). { intros V. pose proof (Zdiv2_odd_eqn V) as E. rewrite Z.div2_div in E. destruct (Z.odd V); cbn [b2z]; lia. }
  pose proof (DV X) as DX. pose proof (DV Y) as DY. pose proof (DV Z0) as DZ.
  rewrite EP. set (s := side (ql q)) in *. set (u := X / 2) in *. set (v := Y / 2) in *. set (w := Z0 / 2) in *. clearbody u v w.
  assert (MX : qx q = 2 * u * s + b2z (Z.odd X) * s) by (rewrite Ex; rewrite DX at 1; ring).
  assert (MY : qy q = 2 * v * s + b2z (Z.odd Y) * s) by (rewrite Ey; rewrite DY at 1; ring).
  assert (MZ : qz q = 2 * w * s + b2z (Z.odd Z0) * s) by (rewrite Ez; rewrite DZ at 1; ring).
  clear DX DY DZ Ex Ey Ez DV EP. set (us := u * s). set (vs := v * s). set (ws := w * s).
  assert (PX : u * side (ql q - 1) = 2 * us) by (rewrite SH; unfold us; ring). assert (PY : v * side (ql q - 1) = 2 * vs) by (rewrite SH; unfold vs; ring). assert (PZ : w * side (ql q - 1) = 2 * ws) by (rewrite SH; unfold ws; ring).
  replace (2 * u * s) with (2 * us) in MX by (unfold us; ring). replace (2 * v * s) with (2 * vs) in MY by (unfold vs; ring). replace (2 * w * s) with (2 * ws) in MZ by (unfold ws; ring).
  rewrite PX, PY, PZ. clearbody us vs ws. clear PX PY PZ.
  destruct (Z.odd X), (Z.odd Y), (Z.odd Z0); cbn [b2z] in MX, MY, MZ;
    (six f F6; [change (2 ^ (0 / 2)) with 1; rewrite B1|change (2 ^ (1 / 2)) with 1; rewrite B1|change (2 ^ (2 / 2)) with 2; rewrite B2|change (2 ^ (3 / 2)) with 2; rewrite B2|change (2 ^ (4 / 2)) with 4; rewrite B3|change (2 ^ (5 / 2)) with 4; rewrite B3]);
    cbn [Bool.eqb Z.odd]; apply inbox_axes; repeat match goal with |- context [face_obj ?k] => let v := eval vm_compute in (face_obj k) in change (face_obj k) with v end; unfold nb; cbn [qx qy qz ql sg]; change (side (ql q)) with s; rewrite MX, MY, MZ, SH;
    (split; [lia|]; split; [lia|]; destruct d; [exact I|lia]).
Qed.

(** the cell next to q at the lower corner of n *)
Definition front (q : quad) (f : Z) (n : quad) : quad :=
  let at_f a lo := if Z.odd f then a + side (ql q) else a - 2 in
  match f / 2 with
  | 0 => mkq (at_f (qx q) 0) (qy n) (qz n) 29
  | 1 => mkq (qx n) (at_f (qy q) 0) (qz n) 29
  | _ => mkq (qx n) (qy n) (at_f (qz q) 0) 29
  end.

Ltac evals := repeat match goal with
  | |- context [face_obj ?k] => let v := eval vm_compute in (face_obj k) in change (face_obj k) with v
  | |- context [Z.land ?a ?b] => let v := eval vm_compute in (Z.land a b) in change (Z.land a b) with v
  | |- context [?a / 2] => let v := eval vm_compute in (a / 2) in change (a / 2) with v
  | |- context [?a =? ?b] => let v := eval vm_compute in (a =? b) in change (a =? b) with v
  | |- context [Z.odd ?a] => let v := eval vm_compute in (Z.odd a) in change (Z.odd a) with v
  end.
Ltac four i := assert (i = 0 \/ i = 1 \/ i = 2 \/ i = 3) as [->|[->|[->| ->]]] by lia.

Lemma half_geom d q f i : ext d q -> ql q < 29 -> 0 <= f < faces d -> 0 <= i < half d ->
  let n := half_face_neighbor d q f i in
  ext d n /\ ql n = ql q + 1 /\ inbox d (nb d q (face_obj f)) n /\ inbox d n (front q f n) /\ beside d q (face_obj f) (front q f n).
Proof.
  intros E L Hf Hi. destruct (faces6 d f Hf) as (F6 & F4). assert (I4 : 0 <= i < 4 /\ (d = D2 -> i < 2)) by (destruct d; cbn [half] in Hi; split; intros; try lia; discriminate). clear Hf Hi.
  pose proof E as (L0 & (X & Ex) & (Y & Ey) & HZ).
  assert (HZ' : exists Z0, qz q = Z0 * side (ql q)) by (destruct d; [exists 0; lia|exact HZ]). destruct HZ' as (Z0 & Ez).
  pose proof (side_half (ql q) ltac:(lia)) as SH. destruct (side_even (ql q + 1) ltac:(lia)) as (k & Ek & Kp).
  set (s := side (ql q + 1)) in *. cbv zeta. unfold half_face_neighbor. rewrite !QLEN_side by lia. fold s. rewrite SH.
  destruct I4 as (I4 & I2).
  assert (Z2 : d = D2 -> qz q = 0) by (intros ->; exact HZ). clear HZ.
  rewrite SH in Ex, Ey, Ez.
  assert (EQ : exists x y z, qx q = 2 * x /\ qy q = 2 * y /\ qz q = 2 * z) by (exists (X * 2 * k), (Y * 2 * k), (Z0 * 2 * k); rewrite Ex, Ey, Ez, Ek; split; [ring|split; ring]).
  destruct EQ as (x & y & z & Qx & Qy & Qz).
  assert (AX : forall a A e, a = A * (2 * s) -> exists B, a + e * s = B * s) by (intros a A e ->; exists (2 * A + e); ring).
  pose proof (fun e => AX _ _ e Ex) as Ax. pose proof (fun e => AX _ _ e Ey) as Ay. pose proof (fun e => AX _ _ e Ez) as Az. clear AX Ex Ey Ez X Y Z0 E.
  Ltac by_s Ax Ay Az := match goal with
    | |- exists A, ?a = A * _ =>
      let go H e := (destruct (H e) as (B & HB); exists B; rewrite <- HB; ring) in
      first [go Ax 0 | go Ay 0 | go Az 0 | go Ax 1 | go Ay 1 | go Az 1 | go Ax (-1) | go Ay (-1) | go Az (-1) | go Ax 2 | go Ay 2 | go Az 2] end.
  Ltac by_2 x y z k := first [exists x; lia | exists y; lia | exists z; lia | exists (x - 1); lia | exists (y - 1); lia | exists (z - 1); lia
      | exists (x + k); lia | exists (y + k); lia | exists (z + k); lia | exists (x + 2 * k); lia | exists (y + 2 * k); lia | exists (z + 2 * k); lia].
  six f F6; four i; (destruct d; [first [specialize (F4 eq_refl); exfalso; clear - F4; lia | specialize (I2 eq_refl); exfalso; clear - I2; lia | specialize (Z2 eq_refl)]|]);
    unfold front; evals; cbn [is3]; cbv iota; cbn [qx qy qz ql]; clear F4 I2 F6 I4.
  all: split; [split; [cbn [ql]; lia|]; cbn [qx qy qz ql]; fold s; split; [by_s Ax Ay Az|]; split; [by_s Ax Ay Az|]; first [exact Z2|by_s Ax Ay Az]|].
  all: clear Ax Ay Az; split; [reflexivity|].
  all: split; [apply inbox_axes; unfold nb; cbn [qx qy qz ql sg]; fold s; rewrite ?SH; (split; [lia|]; split; [lia|]; first [exact I|lia])|].
  all: split; [apply inbox_axes; cbn [qx qy qz ql]; fold s; change (side 29) with 2; (split; [lia|]; split; [lia|]; first [exact I|lia])|].
  all: rewrite ?SH; split; [split; [cbn [ql]; lia|]; cbn [qx qy qz ql]; change (side 29) with 2; split; [by_2 x y z k|]; split; [by_2 x y z k|]; first [exact Z2|by_2 x y z k]|].
  all: split; [reflexivity|]; cbv beta iota zeta; cbn [qx qy qz ql at_axis]; rewrite ?SH; (split; [lia|]; split; [lia|]; first [reflexivity|lia]).
Qed.

(** each cell next to q lies in a half-size neighbor *)
Lemma half_cell d q f s : ext d q -> ql q < 29 -> 0 <= f < faces d -> beside d q (face_obj f) s ->
  exists i, 0 <= i < half d /\ inbox d (half_face_neighbor d q f i) s.
Proof.
  intros E L Hf (Es & Ls & B). destruct (faces6 d f Hf) as (F6 & F4). pose proof E as (L0 & (X & Ex) & (Y & Ey) & HZ).
  assert (HZ' : exists Z0, qz q = Z0 * side (ql q)) by (destruct d; [exists 0; lia|exact HZ]). destruct HZ' as (Z0 & Ez).
  pose proof (side_half (ql q) ltac:(lia)) as SH. destruct (side_even (ql q + 1) ltac:(lia)) as (k & Ek & Kp).
  destruct (ext_even d s Es) as (a & b & e & Ea & Eb & Ee).
  assert (EQ : exists x y z, qx q = 2 * x /\ qy q = 2 * y /\ qz q = 2 * z) by (exists (X * 2 * k), (Y * 2 * k), (Z0 * 2 * k); rewrite Ex, Ey, Ez, SH, Ek; split; [ring|split; ring]).
  destruct EQ as (x & y & z & Qx & Qy & Qz). clear Ex Ey Ez HZ X Y Z0 E Es Hf.
  unfold half_face_neighbor. rewrite !QLEN_side by lia. set (w := side (ql q + 1)) in *. rewrite SH in *. clear L L0.
  assert (CX : a < x + k \/ x + k <= a) by lia. assert (CY : b < y + k \/ y + k <= b) by lia. assert (CZ : e < z + k \/ z + k <= e) by lia.
  Ltac pick w Ls k := exists k; evals; cbv iota zeta; (split; [cbn [half]; lia|]; apply inbox_axes; cbn [is3 qx qy qz ql]; fold w; rewrite Ls; change (side 29) with 2; (split; [lia|]; split; [lia|]; first [exact I|lia])).
  destruct d.
  - specialize (F4 eq_refl). clear CZ. assert (f = 0 \/ f = 1 \/ f = 2 \/ f = 3) as [->|[->|[->| ->]]] by lia; clear F4 F6; revert B; evals; cbn [at_axis]; cbv beta iota zeta; rewrite ?SH; intros (B1 & B2 & _);
      [destruct CY; clear CX; [pick w Ls 0|pick w Ls 1]|destruct CY; clear CX; [pick w Ls 0|pick w Ls 1]|destruct CX; clear CY; [pick w Ls 0|pick w Ls 1]|destruct CX; clear CY; [pick w Ls 0|pick w Ls 1]].
  - clear F4. six f F6; clear F6; revert B; evals; cbn [at_axis]; cbv beta iota zeta; rewrite ?SH; intros (B1 & B2 & B3).
    1,2: clear CX; destruct CY, CZ; [pick w Ls 0|pick w Ls 2|pick w Ls 1|pick w Ls 3].
    1,2: clear CY; destruct CX, CZ; [pick w Ls 0|pick w Ls 2|pick w Ls 1|pick w Ls 3].
    1,2: clear CZ; destruct CX, CY; [pick w Ls 0|pick w Ls 2|pick w Ls 1|pick w Ls 3].
Qed.
