(** * The comparison function is the Morton order *)

From Coq Require Import ZArith List Bool Lia ZifyBool.
From Verif Require Import Quad Spec Morton ZBits Interval QuadLemmas.
Import ListNotations.
Open Scope Z_scope.

(** the selection of the coordinate direction, on non-negative numbers *)
Definition csel (d : dim) (x1 y1 z1 x2 y2 z2 : Z) : Z :=
  let ex := Z.lxor x1 x2 in
  let ey := Z.lxor y1 y2 in
  let exy := Z.lor ex ey in
  let ez := match d with D2 => 0 | D3 => Z.lxor z1 z2 end in
  let e := match d with D2 => exy | D3 => Z.lor exy ez end in
  if e =? 0 then 0
  else if is3 d && (ez >? Z.lxor e ez) then sgn_diff z1 z2
  else if ey >? Z.lxor exy ey then sgn_diff y1 y2 else sgn_diff x1 x2.

Lemma lxor_2 a b p q :
  Z.lxor (2 * a + b2z p) (2 * b + b2z q) = 2 * Z.lxor a b + b2z (xorb p q).
Proof.
  apply Z.bits_inj'. intros n Hn. rewrite Z.lxor_spec.
  destruct (Z.eq_dec n 0) as [->|].
  - destruct p, q; cbn [b2z xorb]; rewrite ?Z.add_0_r, ?Z.testbit_odd_0, ?Z.testbit_even_0; reflexivity.
  - replace n with (Z.succ (n - 1)) by lia.
    destruct p, q; cbn [b2z xorb]; rewrite ?Z.add_0_r, ?Z.testbit_odd_succ, ?Z.testbit_even_succ, Z.lxor_spec by lia;
    reflexivity.
Qed.

Lemma lor_2 a b p q :
  Z.lor (2 * a + b2z p) (2 * b + b2z q) = 2 * Z.lor a b + b2z (orb p q).
Proof.
  apply Z.bits_inj'. intros n Hn. rewrite Z.lor_spec.
  destruct (Z.eq_dec n 0) as [->|].
  - destruct p, q; cbn [b2z orb]; rewrite ?Z.add_0_r, ?Z.testbit_odd_0, ?Z.testbit_even_0; reflexivity.
  - replace n with (Z.succ (n - 1)) by lia.
    destruct p, q; cbn [b2z orb]; rewrite ?Z.add_0_r, ?Z.testbit_odd_succ, ?Z.testbit_even_succ, Z.lor_spec by lia;
    reflexivity.
Qed.

(** b against the bits only in a *)
Lemma only_disjoint a b : 0 <= a -> 0 <= b ->
  b = Z.lxor (Z.lor a b) b -> a = 0 /\ b = 0.
Proof.
  intros Ha Hb E.
  assert (B : forall n, 0 <= n -> Z.testbit a n = false /\ Z.testbit b n = false).
  { intros n Hn. pose proof (f_equal (fun t => Z.testbit t n) E) as F. cbn in F.
    rewrite Z.lxor_spec, Z.lor_spec in F.
    destruct (Z.testbit a n), (Z.testbit b n); cbn in F; try discriminate; auto. }
  split; apply Z.bits_inj'; intros n Hn; rewrite Z.bits_0; apply B; auto.
Qed.

Lemma sgn_diff_2 a b p q : a <> b ->
  sgn_diff (2 * a + b2z p) (2 * b + b2z q) = sgn_diff a b.
Proof.
  intros. unfold sgn_diff.
  destruct p, q; cbn [b2z]; repeat match goal with |- context [if ?c then _ else _] => destruct c eqn:? end; lia.
Qed.

Lemma lor_0 a b : 0 <= a -> 0 <= b -> (Z.lor a b = 0 <-> a = 0 /\ b = 0).
Proof. intros. apply Z.lor_eq_0_iff. Qed.

Lemma bit_decomp a : 0 <= a -> exists p, a = 2 * (a / 2) + b2z p.
Proof.
  intros. exists (Z.odd a). pose proof (Z.div_mod a 2). rewrite Zmod_odd in H0.
  unfold b2z. lia.
Qed.

(** choose between two nonnegative words: does b have the more significant bit *)
Lemma choose_2 a b p q : 0 <= a -> 0 <= b -> (a <> 0 \/ b <> 0) ->
  (2 * b + b2z q >? Z.lxor (Z.lor (2 * a + b2z p) (2 * b + b2z q)) (2 * b + b2z q))
  = (b >? Z.lxor (Z.lor a b) b).
Proof.
  intros Ha Hb Hn. rewrite lor_2, lxor_2.
  assert (b <> Z.lxor (Z.lor a b) b).
  { intro E. apply only_disjoint in E; lia. }
  destruct q, (xorb (orb p false) false), (xorb (orb p true) true); cbn [b2z]; try lia.
Qed.

Lemma choose_false a b : 0 <= a -> 0 <= b ->
  (b >? Z.lxor (Z.lor a b) b) = false -> b <> 0 -> a <> 0.
Proof.
  intros Ha Hb E Hn Ha0. subst a. rewrite Z.lor_0_l, Z.lxor_nilpotent in E. lia.
Qed.

Lemma choose_true a b : 0 <= a -> 0 <= b ->
  (b >? Z.lxor (Z.lor a b) b) = true -> b <> 0.
Proof.
  intros Ha Hb E Hb0. subst b. rewrite Z.lor_0_r, Z.lxor_0_r in E. lia.
Qed.

Lemma sgn_mort_S d n x1 y1 z1 x2 y2 z2 :
  sgn_diff (mort d (S n) x1 y1 z1) (mort d (S n) x2 y2 z2) =
  let s := sgn_diff (mort d n (x1/2) (y1/2) (z1/2)) (mort d n (x2/2) (y2/2) (z2/2)) in
  if s =? 0 then sgn_diff (dig d x1 y1 z1) (dig d x2 y2 z2) else s.
Proof.
  cbn [mort]. set (a := mort d n _ _ _). set (b := mort d n _ _ _).
  pose proof (dig_range d x1 y1 z1). pose proof (dig_range d x2 y2 z2).
  pose proof (pow2_pos (nd d) ltac:(pose proof (nd_pos d); lia)).
  set (m := 2 ^ nd d) in *.
  unfold sgn_diff. cbv zeta.
  destruct (a - b =? 0) eqn:E1.
  - assert (a = b) by lia. subst a. rewrite H2. cbn.
    replace (m * b + dig d x1 y1 z1 - (m * b + dig d x2 y2 z2)) with (dig d x1 y1 z1 - dig d x2 y2 z2) by lia.
    reflexivity.
  - destruct (a - b <? 0) eqn:E2; cbn.
    + replace (m * a + dig d x1 y1 z1 - (m * b + dig d x2 y2 z2) =? 0) with false by nia.
      replace (m * a + dig d x1 y1 z1 - (m * b + dig d x2 y2 z2) <? 0) with true by nia. reflexivity.
    + replace (m * a + dig d x1 y1 z1 - (m * b + dig d x2 y2 z2) =? 0) with false by nia.
      replace (m * a + dig d x1 y1 z1 - (m * b + dig d x2 y2 z2) <? 0) with false by nia. reflexivity.
Qed.

Lemma sgn_diff_0 a b : (sgn_diff a b =? 0) = (a =? b).
Proof. unfold sgn_diff. repeat match goal with |- context [if ?c then _ else _] => destruct c eqn:? end; lia. Qed.

Lemma lxor_ne a b : a <> b -> Z.lxor a b <> 0.
Proof. intros H E. apply H. apply Z.lxor_eq. exact E. Qed.

Lemma csel_mort d n : forall x1 y1 z1 x2 y2 z2,
  0 <= x1 < 2 ^ Z.of_nat n -> 0 <= y1 < 2 ^ Z.of_nat n -> 0 <= z1 < 2 ^ Z.of_nat n ->
  0 <= x2 < 2 ^ Z.of_nat n -> 0 <= y2 < 2 ^ Z.of_nat n -> 0 <= z2 < 2 ^ Z.of_nat n ->
  csel d x1 y1 z1 x2 y2 z2 = sgn_diff (mort d n x1 y1 z1) (mort d n x2 y2 z2).
Proof.
  induction n; intros x1 y1 z1 x2 y2 z2 Hx1 Hy1 Hz1 Hx2 Hy2 Hz2.
  - change (2 ^ Z.of_nat 0) with 1 in *.
    assert (x1 = 0) by lia. assert (y1 = 0) by lia. assert (z1 = 0) by lia.
    assert (x2 = 0) by lia. assert (y2 = 0) by lia. assert (z2 = 0) by lia. subst.
    destruct d; reflexivity.
  - rewrite sgn_mort_S.
    rewrite pow2_S in *.
    assert (R : forall t, 0 <= t < 2 * 2 ^ Z.of_nat n -> 0 <= t / 2 < 2 ^ Z.of_nat n).
    { intros t Ht. split; [apply Z.div_pos; lia|]. apply Z.div_lt_upper_bound; lia. }
    pose proof (R x1 Hx1) as Rx1. pose proof (R y1 Hy1) as Ry1. pose proof (R z1 Hz1) as Rz1.
    pose proof (R x2 Hx2) as Rx2. pose proof (R y2 Hy2) as Ry2. pose proof (R z2 Hz2) as Rz2.
    rewrite <- (IHn (x1/2) (y1/2) (z1/2) (x2/2) (y2/2) (z2/2)) by assumption.
    destruct (bit_decomp x1 ltac:(lia)) as (bx1 & Dx1).
    destruct (bit_decomp y1 ltac:(lia)) as (by1 & Dy1).
    destruct (bit_decomp z1 ltac:(lia)) as (bz1 & Dz1).
    destruct (bit_decomp x2 ltac:(lia)) as (bx2 & Dx2).
    destruct (bit_decomp y2 ltac:(lia)) as (by2 & Dy2).
    destruct (bit_decomp z2 ltac:(lia)) as (bz2 & Dz2).
    rewrite Dx1, Dy1, Dz1, Dx2, Dy2, Dz2. rewrite !half_b2z, !dig_b2z.
    generalize dependent (x1/2). generalize dependent (y1/2). generalize dependent (z1/2).
    generalize dependent (x2/2). generalize dependent (y2/2). generalize dependent (z2/2).
    intros c2 Hc2 Dz2 b2 Hb2 Dy2 a2 Ha2 Dx2 c1 Hc1 Dz1 b1 Hb1 Dy1 a1 Ha1 Dx1.
    clear IHn R. clear x1 y1 z1 x2 y2 z2 Hx1 Hy1 Hz1 Hx2 Hy2 Hz2 Dx1 Dy1 Dz1 Dx2 Dy2 Dz2.
    assert (Nx : 0 <= Z.lxor a1 a2) by (apply Z.lxor_nonneg; lia).
    assert (Ny : 0 <= Z.lxor b1 b2) by (apply Z.lxor_nonneg; lia).
    assert (Nz : 0 <= Z.lxor c1 c2) by (apply Z.lxor_nonneg; lia).
    assert (Ex : Z.lxor a1 a2 <> 0 -> a1 <> a2) by (intros H E; subst; rewrite Z.lxor_nilpotent in H; lia).
    assert (Ey : Z.lxor b1 b2 <> 0 -> b1 <> b2) by (intros H E; subst; rewrite Z.lxor_nilpotent in H; lia).
    assert (Ez : Z.lxor c1 c2 <> 0 -> c1 <> c2) by (intros H E; subst; rewrite Z.lxor_nilpotent in H; lia).
    assert (Nxy : 0 <= Z.lor (Z.lxor a1 a2) (Z.lxor b1 b2)) by (apply Z.lor_nonneg; lia).
    destruct d.
    + destruct (Z.eq_dec (Z.lor (Z.lxor a1 a2) (Z.lxor b1 b2)) 0) as [E0|E0].
      * apply Z.lor_eq_0_iff in E0. destruct E0 as [E1 E2].
        apply Z.lxor_eq in E1. apply Z.lxor_eq in E2. subst a2 b2.
        unfold csel. cbv zeta. rewrite !lxor_2, !Z.lxor_nilpotent. cbn [is3 andb].
        rewrite !Z.mul_0_r, !Z.add_0_l.
        unfold sgn_diff.
        destruct bx1, by1, bx2, by2; cbn; try reflexivity;
        repeat match goal with |- context [if ?c then _ else _] => destruct c eqn:? end; lia.
      * unfold csel. cbv zeta. rewrite !lxor_2. cbn [is3 andb].
        assert (E1 : Z.lxor a1 a2 <> 0 \/ Z.lxor b1 b2 <> 0).
        { destruct (Z.eq_dec (Z.lxor a1 a2) 0); auto. destruct (Z.eq_dec (Z.lxor b1 b2) 0); auto.
          exfalso. apply E0. apply Z.lor_eq_0_iff. auto. }
        rewrite choose_2 by auto. rewrite lor_2.
        replace (2 * Z.lor (Z.lxor a1 a2) (Z.lxor b1 b2) + b2z (xorb bx1 bx2 || xorb by1 by2) =? 0)
          with false by (destruct (xorb bx1 bx2 || xorb by1 by2); cbn [b2z]; lia).
        replace (Z.lor (Z.lxor a1 a2) (Z.lxor b1 b2) =? 0) with false by lia.
        destruct (Z.lxor b1 b2 >? _) eqn:C.
        -- apply choose_true in C; auto. rewrite sgn_diff_0.
           specialize (Ey C). replace (b1 =? b2) with false by lia. apply sgn_diff_2; auto.
        -- assert (Z.lxor a1 a2 <> 0).
           { destruct (Z.eq_dec (Z.lxor b1 b2) 0) as [E2|E2]; [tauto|].
             apply (choose_false _ _ Nx Ny C E2). }
           rewrite sgn_diff_0.
           specialize (Ex H). replace (a1 =? a2) with false by lia. apply sgn_diff_2; auto.
    + destruct (Z.eq_dec (Z.lor (Z.lor (Z.lxor a1 a2) (Z.lxor b1 b2)) (Z.lxor c1 c2)) 0) as [E0|E0].
      * apply Z.lor_eq_0_iff in E0. destruct E0 as [E0 E3].
        apply Z.lor_eq_0_iff in E0. destruct E0 as [E1 E2].
        apply Z.lxor_eq in E1. apply Z.lxor_eq in E2. apply Z.lxor_eq in E3. subst a2 b2 c2.
        unfold csel. cbv zeta. rewrite !lxor_2, !Z.lxor_nilpotent. cbn [is3 andb].
        rewrite !Z.mul_0_r, !Z.add_0_l.
        unfold sgn_diff.
        destruct bx1, by1, bx2, by2, bz1, bz2; cbn; try reflexivity;
        repeat match goal with |- context [if ?c then _ else _] => destruct c eqn:? end; lia.
      * unfold csel. cbv zeta. rewrite !lxor_2. cbn [is3 andb].
        assert (E1 : Z.lor (Z.lxor a1 a2) (Z.lxor b1 b2) <> 0 \/ Z.lxor c1 c2 <> 0).
        { destruct (Z.eq_dec (Z.lor (Z.lxor a1 a2) (Z.lxor b1 b2)) 0); auto.
          destruct (Z.eq_dec (Z.lxor c1 c2) 0); auto.
          exfalso. apply E0. apply Z.lor_eq_0_iff. auto. }
        rewrite (lor_2 (Z.lxor a1 a2)).
        rewrite (choose_2 (Z.lor (Z.lxor a1 a2) (Z.lxor b1 b2))) by auto.
        rewrite lor_2.
        match goal with |- context [2 * ?t + b2z ?b =? 0] =>
          replace (2 * t + b2z b =? 0) with false by (destruct b; cbn [b2z]; lia) end.
        match goal with |- context [?t =? 0] => replace (t =? 0) with false by lia end.
        destruct (Z.lxor c1 c2 >? _) eqn:C.
        -- apply choose_true in C; auto. rewrite sgn_diff_0.
           specialize (Ez C). replace (c1 =? c2) with false by lia. apply sgn_diff_2; auto.
        -- assert (E2 : Z.lor (Z.lxor a1 a2) (Z.lxor b1 b2) <> 0).
           { destruct (Z.eq_dec (Z.lxor c1 c2) 0) as [E2|E2]; [tauto|].
             apply (choose_false _ _ Nxy Nz C E2). }
           assert (E3 : Z.lxor a1 a2 <> 0 \/ Z.lxor b1 b2 <> 0).
           { destruct (Z.eq_dec (Z.lxor a1 a2) 0); auto. destruct (Z.eq_dec (Z.lxor b1 b2) 0); auto.
             exfalso. apply E2. apply Z.lor_eq_0_iff. auto. }
           pose proof (choose_2 (Z.lxor a1 a2) (Z.lxor b1 b2) (xorb bx1 bx2) (xorb by1 by2) Nx Ny E3) as CC.
           rewrite lor_2 in CC. rewrite CC. clear CC.
           destruct (Z.lxor b1 b2 >? _) eqn:C2.
           ++ apply choose_true in C2; auto. rewrite sgn_diff_0.
              specialize (Ey C2). replace (b1 =? b2) with false by lia. apply sgn_diff_2; auto.
           ++ assert (Z.lxor a1 a2 <> 0).
              { destruct (Z.eq_dec (Z.lxor b1 b2) 0) as [E4|E4]; [tauto|].
                apply (choose_false _ _ Nx Ny C2 E4). }
              rewrite sgn_diff_0.
              specialize (Ex H). replace (a1 =? a2) with false by lia. apply sgn_diff_2; auto.
Qed.

(** ** 32-bit coordinates *)
Definition in32 (a : Z) : Prop := - 2 ^ 31 <= a < 2 ^ 31.

Lemma cpos_u32 a : in32 a -> cpos a = u32 a.
Proof.
  unfold in32, cpos, u32, MAXLEVEL. intros. rewrite shl1.
  destruct (a >=? 0) eqn:E.
  - rewrite Z.mod_small; lia.
  - rewrite <- (Z.mod_add a 1 (2 ^ 32)) by lia. rewrite Z.mod_small; lia.
Qed.

Lemma u32_range a : 0 <= u32 a < 2 ^ 32.
Proof. apply Z.mod_pos_bound. lia. Qed.

Lemma coordinates_compare_mort d x1 y1 z1 x2 y2 z2 :
  in32 x1 -> in32 y1 -> in32 z1 -> in32 x2 -> in32 y2 -> in32 z2 ->
  coordinates_compare d x1 y1 z1 x2 y2 z2 =
  sgn_diff (mort d 32 (u32 x1) (u32 y1) (u32 z1)) (mort d 32 (u32 x2) (u32 y2) (u32 z2)).
Proof.
  intros. rewrite <- csel_mort by (change (Z.of_nat 32) with 32; apply u32_range).
  unfold coordinates_compare, csel. rewrite !cpos_u32 by assumption. rewrite !u32_lxor.
  destruct d; reflexivity.
Qed.

(** extended position: the curve index over all 32 bit coordinates *)
Definition xpos (d : dim) (q : quad) : Z := mort d 32 (u32 (qx q)) (u32 (qy q)) (u32 (qz q)).

Definition quad32 (d : dim) (q : quad) : Prop :=
  in32 (qx q) /\ in32 (qy q) /\ in32 (qz q) /\ (d = D2 -> qz q = 0).

Lemma compare_spec d q r : quad32 d q -> quad32 d r ->
  (compare d q r < 0 <-> xpos d q < xpos d r \/ (xpos d q = xpos d r /\ ql q < ql r)) /\
  (compare d q r = 0 <-> xpos d q = xpos d r /\ ql q = ql r) /\
  (compare d q r > 0 <-> xpos d q > xpos d r \/ (xpos d q = xpos d r /\ ql q > ql r)).
Proof.
  intros (A & B & C & _) (A' & B' & C' & _).
  unfold compare. rewrite coordinates_compare_mort by assumption.
  fold (xpos d q) (xpos d r). generalize (xpos d q) (xpos d r). intros a b.
  unfold nz, sgn_diff. cbv zeta.
  destruct (a - b =? 0) eqn:E1; [cbn; lia|]. destruct (a - b <? 0) eqn:E2; cbn; lia.
Qed.

Lemma xpos_eq d q r : quad32 d q -> quad32 d r -> xpos d q = xpos d r ->
  qx q = qx r /\ qy q = qy r /\ qz q = qz r.
Proof.
  intros (A & B & C & D) (A' & B' & C' & D') E.
  apply mort_inj in E. change (Z.of_nat 32) with 32 in E.
  pose proof (fun a => u32_range a) as R.
  rewrite !Z.mod_small in E by auto.
  assert (I : forall a b, in32 a -> in32 b -> u32 a = u32 b -> a = b).
  { intros a b Ha Hb. rewrite <- !cpos_u32 by auto. unfold cpos, in32, MAXLEVEL in *. rewrite shl1.
    destruct (a >=? 0) eqn:?, (b >=? 0) eqn:?; lia. }
  destruct E as (Ex & Ey & Ez). repeat split; auto.
  destruct d; [rewrite D, D'; auto|]. apply I; auto. 
Qed.

(** ** valid quadrants *)
Lemma wf_coord_range d q : wf d q ->
  0 <= qx q < 2 ^ 30 /\ 0 <= qy q < 2 ^ 30 /\ 0 <= qz q < 2 ^ 30.
Proof.
  intros W. pose proof (wf_level d q W) as L.
  destruct (wf_elim d q W) as (X & Y & Z0 & Ex & Ey & Ez & HX & HY & HZ & _).
  pose proof (side_pos (ql q) ltac:(lia)). pose proof (side_mul (ql q) ltac:(lia)). nia.
Qed.

Lemma wf_quad32 d q : wf d q -> quad32 d q.
Proof.
  intros W. destruct (wf_coord_range d q W) as (A & B & C).
  unfold quad32, in32. repeat split; try lia.
  intros ->. destruct W as (_ & _ & _ & H). exact H.
Qed.

Lemma wf_xpos d q : wf d q -> xpos d q = qpos d q.
Proof.
  intros W. destruct (wf_coord_range d q W) as (A & B & C).
  unfold xpos, qpos, ppos. rewrite !u32_small by lia.
  change 32%nat with (2 + 30)%nat. apply mort_ext; change (Z.of_nat 30) with 30; lia.
Qed.

Lemma compare_wf d q r : wf d q -> wf d r ->
  (compare d q r < 0 <-> qpos d q < qpos d r \/ (qpos d q = qpos d r /\ ql q < ql r)) /\
  (compare d q r = 0 <-> q = r) /\
  (compare d q r > 0 <-> qpos d q > qpos d r \/ (qpos d q = qpos d r /\ ql q > ql r)).
Proof.
  intros Wq Wr.
  destruct (compare_spec d q r) as (A & B & C); auto using wf_quad32.
  rewrite !wf_xpos in * by auto. split; [exact A|]. split; [|exact C].
  rewrite B. split.
  - intros [E1 E2]. apply (quad_eq d); auto.
  - intros ->. auto.
Qed.
