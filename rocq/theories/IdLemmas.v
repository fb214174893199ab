(** * Linear indices along the curve *)

From Coq Require Import ZArith List Bool Lia ZifyBool Znumtheory.
From Verif Require Import Quad Spec Morton ZBits Interval QuadLemmas CompareLemmas.
Import ListNotations.
Open Scope Z_scope.

Lemma dimz_nd d : dimz d = nd d.
Proof. destruct d; reflexivity. Qed.

(** appending a digit on the left *)
Lemma mort_snoc d n x y z :
  mort d (S n) x y z =
  mort d n x y z +
  2 ^ (nd d * Z.of_nat n) * dig d (x / 2 ^ Z.of_nat n) (y / 2 ^ Z.of_nat n) (z / 2 ^ Z.of_nat n).
Proof.
  change (S n) with (1 + n)%nat. rewrite mort_split. cbn [mort]. lia.
Qed.

Lemma lor_high a b k : 0 <= k -> 0 <= a < 2 ^ k -> Z.lor a (b * 2 ^ k) = a + b * 2 ^ k.
Proof.
  intros Hk Ha. rewrite Z.add_nocarry_lxor, Z.lxor_lor; auto.
  all: apply Z.bits_inj'; intros n Hn; rewrite Z.bits_0, Z.land_spec, <- Z.shiftl_mul_pow2 by lia;
    destruct (Z_lt_le_dec n k);
    [rewrite Z.shiftl_spec_low by lia; apply andb_false_r|].
  all: replace (Z.testbit a n) with false; [reflexivity|]; symmetry.
  all: destruct (Z.eq_dec a 0) as [->|]; [apply Z.bits_0|];
    apply Z.bits_above_log2; [lia|]; apply Z.log2_lt_pow2; try lia;
    apply Z.lt_le_trans with (2 ^ k); [lia|apply Z.pow_le_mono_r; lia].
Qed.

Lemma land_bit x k : 0 <= k -> Z.land x (2 ^ k) = (x / 2 ^ k) mod 2 * 2 ^ k.
Proof.
  intros. pose proof (nz_land_bit x k ltac:(lia)) as N.
  apply Z.bits_inj'. intros n Hn. rewrite Z.land_spec, <- Z.shiftl_mul_pow2 by lia.
  rewrite Z.pow2_bits_eqb by lia. rewrite Z.shiftl_spec by lia.
  destruct (k =? n) eqn:E.
  - assert (k = n) by lia. subst. rewrite Z.sub_diag.
    rewrite andb_true_r, !Z.testbit_eqb by lia. change (2 ^ 0) with 1.
    rewrite Z.div_1_r, Z.mod_mod by lia. reflexivity.
  - rewrite andb_false_r. destruct (Z_lt_le_dec n k); [rewrite Z.testbit_neg_r by lia; reflexivity|].
    symmetry. pose proof (Z.mod_pos_bound (x / 2 ^ k) 2).
    assert ((x / 2 ^ k) mod 2 = 0 \/ (x / 2 ^ k) mod 2 = 1) as [->| ->] by lia.
    + apply Z.bits_0.
    + replace (n - k) with (Z.succ (n - k - 1)) by lia.
      change 1 with (2 * 0 + 1). rewrite Z.testbit_odd_succ by lia. apply Z.bits_0.
Qed.

Lemma mod2_b2z a : a mod 2 = b2z (Z.odd a).
Proof. rewrite Zmod_odd. reflexivity. Qed.

(** ** linear_id *)
Lemma lid128_mort d x y z n :
  fold_left (lid128_step d x y z) (seq 0 n) 0 = mort d n x y z.
Proof.
  induction n; [reflexivity|].
  rewrite seq_S, fold_left_app, IHn. cbn [fold_left]. rewrite mort_snoc.
  pose proof (mort_range d n x y z) as R. set (m := mort d n x y z) in *.
  unfold lid128_step. rewrite Nat.add_0_l. set (i := Z.of_nat n) in *.
  rewrite !shl1, !nz_land_bit by lia. rewrite dimz_nd.
  unfold dig. rewrite !mod2_b2z.
  pose proof (nd_pos d). assert (0 <= nd d * i) by nia.
  set (k := nd d * i) in *.
  set (bx := Z.odd (x / 2 ^ i)). set (by_ := Z.odd (y / 2 ^ i)). set (bz := Z.odd (z / 2 ^ i)).
  assert (S1 : (if bx then Z.lor m (2 ^ k) else m) = m + b2z bx * 2 ^ k).
  { destruct bx; cbn [b2z]; [|lia]. rewrite <- (Z.mul_1_l (2 ^ k)) at 1. apply lor_high; lia. }
  rewrite S1. set (m1 := m + b2z bx * 2 ^ k).
  assert (R1 : 0 <= m1 < 2 ^ (k + 1)).
  { unfold m1. rewrite Z.pow_add_r by lia. destruct bx; cbn [b2z]; lia. }
  assert (S2 : (if by_ then Z.lor m1 (2 ^ (k + 1)) else m1) = m1 + b2z by_ * 2 ^ (k + 1)).
  { destruct by_; cbn [b2z]; [|lia]. rewrite <- (Z.mul_1_l (2 ^ (k + 1))) at 1. apply lor_high; lia. }
  rewrite S2. set (m2 := m1 + b2z by_ * 2 ^ (k + 1)).
  assert (R2 : 0 <= m2 < 2 ^ (k + 2)).
  { unfold m2. replace (k + 2) with ((k + 1) + 1) by lia. rewrite (Z.pow_add_r 2 (k + 1) 1) by lia.
    destruct by_; cbn [b2z]; lia. }
  assert (P1 : 2 ^ (k + 1) = 2 * 2 ^ k) by (rewrite Z.pow_add_r by lia; lia).
  assert (P2 : 2 ^ (k + 2) = 4 * 2 ^ k) by (rewrite Z.pow_add_r by lia; lia).
  destruct d.
  - unfold m2, m1. rewrite P1. ring.
  - assert (S3 : (if bz then Z.lor m2 (2 ^ (k + 2)) else m2) = m2 + b2z bz * 2 ^ (k + 2)).
    { destruct bz; cbn [b2z]; [|lia]. rewrite <- (Z.mul_1_l (2 ^ (k + 2))) at 1. apply lor_high; lia. }
    rewrite S3. unfold m2, m1. rewrite P1, P2. ring.
Qed.

Lemma lid_step_eq d x y z id i : nd d * Z.of_nat (S i) <= 64 ->
  lid_step d x y z id i = lid128_step d x y z id i.
Proof.
  intros H. unfold lid_step, lid128_step. rewrite !shl1, !nz_land_bit by lia. rewrite dimz_nd.
  set (k := Z.of_nat i). assert (Hk : nd d * k + nd d <= 64) by (unfold k; nia).
  pose proof (nd_pos d).
  assert (A : forall w off, 0 <= off < nd d ->
     u64 (Z.shiftl (Z.land w (2 ^ k)) ((nd d - 1) * k + off)) = b2z (Z.odd (w / 2 ^ k)) * 2 ^ (nd d * k + off)).
  { intros w off Ho. rewrite land_bit by lia. rewrite Z.shiftl_mul_pow2 by nia.
    rewrite <- Z.mul_assoc, <- Z.pow_add_r by nia. replace (k + ((nd d - 1) * k + off)) with (nd d * k + off) by lia.
    rewrite mod2_b2z. apply u64_small.
    assert (0 < 2 ^ (nd d * k + off) <= 2 ^ 63).
    { split; [apply pow2_pos; nia|]. apply Z.pow_le_mono_r; nia. }
    destruct (Z.odd _); cbn [b2z]; lia. }
  assert (B : forall id b e, Z.lor id (b2z b * 2 ^ e) = if b then Z.lor id (2 ^ e) else id).
  { intros id' b e. destruct b; cbn [b2z]; [rewrite Z.mul_1_l|rewrite Z.lor_0_r]; reflexivity. }
  pose proof (A x 0 ltac:(lia)) as Ax. rewrite !Z.add_0_r in Ax. rewrite Ax.
  rewrite (A y 1) by lia. rewrite !B.
  destruct d; [reflexivity|]. rewrite (A z 2) by (cbn; lia). rewrite B. reflexivity.
Qed.

Lemma lid_mort d x y z n : nd d * Z.of_nat n <= 64 ->
  fold_left (lid_step d x y z) (seq 0 n) 0 = mort d n x y z.
Proof.
  intros H. rewrite <- lid128_mort.
  induction n; [reflexivity|].
  rewrite seq_S, !fold_left_app, IHn by (pose proof (nd_pos d); nia). cbn [fold_left].
  apply lid_step_eq. rewrite Nat.add_0_l. exact H.
Qed.

(** value at any level, also for quadrants outside the root *)
Lemma linear_id_ext128_mort d q level : 0 <= level <= 30 ->
  linear_id_ext128 d q level =
  mort d (Z.to_nat (level + 2)) (qx q / side level) (qy q / side level) (qz q / side level).
Proof.
  intros. unfold linear_id_ext128. cbv zeta. rewrite lid128_mort. unfold MAXLEVEL.
  rewrite !Z.shiftr_div_pow2 by lia. fold (side level).
  rewrite mort_mod. rewrite (mort_mod d _ (qx q / side level)).
  rewrite Z2Nat.id by lia.
  assert (A : forall a, u64 a mod 2 ^ (level + 2) = a mod 2 ^ (level + 2)).
  { intros a. unfold u64. symmetry. apply Zmod_div_mod; [apply pow2_pos; lia|lia|].
    exists (2 ^ (64 - (level + 2))). rewrite <- Z.pow_add_r by lia. f_equal. lia. }
  rewrite !A. reflexivity.
Qed.

Lemma linear_id_mort d q level : 0 <= level -> nd d * (level + 2) <= 64 ->
  linear_id d q level = linear_id_ext128 d q level.
Proof.
  intros. unfold linear_id, linear_id_ext128. cbv zeta. rewrite lid_mort, lid128_mort; auto.
  rewrite Z2Nat.id by lia. lia.
Qed.

Lemma wf_id128 d q level : wf d q -> 0 <= level <= 29 ->
  linear_id_ext128 d q level = qpos d q / psize d level.
Proof.
  intros W L. rewrite linear_id_ext128_mort by lia.
  destruct (wf_coord_range d q W) as (A & B & C).
  unfold qpos, ppos.
  replace 30%nat with (Z.to_nat level + Z.to_nat (30 - level))%nat by lia.
  rewrite mort_split. rewrite !Z2Nat.id by lia. fold (side level).
  unfold psize. rewrite divqr.
  2:{ pose proof (mort_range d (Z.to_nat (30 - level)) (qx q) (qy q) (qz q)) as R.
      rewrite Z2Nat.id in R by lia. lia. }
  replace (Z.to_nat (level + 2)) with (2 + Z.to_nat level)%nat by lia.
  pose proof (side_pos level ltac:(lia)). pose proof (side_mul level ltac:(lia)) as SM.
  assert (R : forall a, 0 <= a < 2 ^ 30 -> 0 <= a / side level < 2 ^ Z.of_nat (Z.to_nat level)).
  { intros a Ha. rewrite Z2Nat.id by lia. split; [apply Z.div_pos; lia|].
    apply Z.div_lt_upper_bound; lia. }
  apply mort_ext; auto.
Qed.

Lemma wf_id128_own d q : wf d q -> linear_id_ext128 d q (ql q) = qidx d q.
Proof.
  intros W. pose proof (wf_level d q W). rewrite wf_id128 by (auto; lia). reflexivity.
Qed.

(** ** set_morton *)
Lemma uxn_testbit d n : forall i k, 0 <= k < Z.of_nat n ->
  Z.testbit (uxn d n i) k = Z.testbit i (nd d * k).
Proof.
  induction n; intros i k Hk; [lia|]. cbn [uxn]. pose proof (nd_pos d).
  destruct (Z.eq_dec k 0) as [->|].
  - rewrite Z.mul_0_r, !Z.bit0_odd. rewrite mod2_b2z.
    rewrite Z.odd_add, Z.odd_mul. destruct (Z.odd i); reflexivity.
  - replace k with (Z.succ (k - 1)) at 1 by lia.
    replace (2 * uxn d n (i / 2 ^ nd d) + i mod 2) with (2 * uxn d n (i / 2 ^ nd d) + b2z (Z.odd i))
      by (rewrite mod2_b2z; reflexivity).
    replace (Z.testbit (2 * uxn d n (i / 2 ^ nd d) + b2z (Z.odd i)) (Z.succ (k - 1)))
      with (Z.testbit (uxn d n (i / 2 ^ nd d)) (k - 1)).
    2:{ destruct (Z.odd i); cbn [b2z]; [rewrite Z.testbit_odd_succ by lia|rewrite Z.add_0_r, Z.testbit_even_succ by lia]; reflexivity. }
    rewrite IHn by lia. rewrite <- Z.shiftr_div_pow2 by lia. rewrite Z.shiftr_spec by nia. f_equal. lia.
Qed.

Lemma uyn_testbit d n : forall i k, 0 <= k < Z.of_nat n ->
  Z.testbit (uyn d n i) k = Z.testbit i (nd d * k + 1).
Proof.
  induction n; intros i k Hk; [lia|]. cbn [uyn]. pose proof (nd_pos d).
  rewrite mod2_b2z. 
  destruct (Z.eq_dec k 0) as [->|].
  - rewrite Z.mul_0_r, !Z.bit0_odd.
    rewrite Z.odd_add, Z.odd_mul.
    rewrite <- (Z.shiftr_spec i 1 0) by lia. rewrite Z.bit0_odd, Z.shiftr_div_pow2 by lia.
    change (2 ^ 1) with 2. destruct (Z.odd (i / 2)); reflexivity.
  - replace k with (Z.succ (k - 1)) at 1 by lia.
    set (t := uyn d n (i / 2 ^ nd d)).
    replace (Z.testbit (2 * t + b2z (Z.odd (i / 2))) (Z.succ (k - 1))) with (Z.testbit t (k - 1)).
    2:{ destruct (Z.odd (i / 2)); cbn [b2z]; [rewrite Z.testbit_odd_succ by lia|rewrite Z.add_0_r, Z.testbit_even_succ by lia]; reflexivity. }
    unfold t. rewrite IHn by lia. rewrite <- Z.shiftr_div_pow2 by lia. rewrite Z.shiftr_spec by nia. f_equal. lia.
Qed.

Lemma uzn_testbit n : forall i k, 0 <= k < Z.of_nat n ->
  Z.testbit (uzn D3 n i) k = Z.testbit i (3 * k + 2).
Proof.
  induction n; intros i k Hk; [lia|]. cbn [uzn].
  rewrite mod2_b2z.
  destruct (Z.eq_dec k 0) as [->|].
  - rewrite Z.mul_0_r, !Z.bit0_odd.
    rewrite Z.odd_add, Z.odd_mul.
    rewrite <- (Z.shiftr_spec i 2 0) by lia. rewrite Z.bit0_odd, Z.shiftr_div_pow2 by lia.
    change (2 ^ 2) with 4. destruct (Z.odd (i / 4)); reflexivity.
  - replace k with (Z.succ (k - 1)) at 1 by lia.
    set (t := uzn D3 n (i / 2 ^ nd D3)).
    replace (Z.testbit (2 * t + b2z (Z.odd (i / 4))) (Z.succ (k - 1))) with (Z.testbit t (k - 1)).
    2:{ destruct (Z.odd (i / 4)); cbn [b2z]; [rewrite Z.testbit_odd_succ by lia|rewrite Z.add_0_r, Z.testbit_even_succ by lia]; reflexivity. }
    unfold t. rewrite IHn by lia. rewrite <- Z.shiftr_div_pow2 by (cbn; lia). rewrite Z.shiftr_spec by nia.
    f_equal. cbn [nd]. lia.
Qed.

Definition un (d : dim) (off : Z) (n : nat) (i : Z) : Z :=
  if off =? 0 then uxn d n i else if off =? 1 then uyn d n i else uzn d n i.

Lemma un_testbit d off n i k : 0 <= off < nd d -> 0 <= k < Z.of_nat n ->
  Z.testbit (un d off n i) k = Z.testbit i (nd d * k + off).
Proof.
  intros Ho Hk. unfold un.
  destruct (off =? 0) eqn:E0; [rewrite uxn_testbit by lia; f_equal; lia|].
  destruct (off =? 1) eqn:E1; [rewrite uyn_testbit by lia; f_equal; lia|].
  destruct d; cbn [nd] in *; [lia|]. rewrite uzn_testbit by lia. f_equal. lia.
Qed.

Lemma un_range d off n i : 0 <= un d off n i < 2 ^ Z.of_nat n.
Proof.
  unfold un. destruct (off =? 0); [apply ux_range|]. destruct (off =? 1); [apply uy_range|apply uz_range].
Qed.

Lemma testbit_above a n k : 0 <= n -> 0 <= a < 2 ^ n -> n <= k -> Z.testbit a k = false.
Proof.
  intros. destruct (Z.eq_dec a 0) as [->|]; [apply Z.bits_0|].
  apply Z.bits_above_log2; [lia|]. apply Z.log2_lt_pow2; try lia.
  apply Z.lt_le_trans with (2 ^ n); [lia|apply Z.pow_le_mono_r; lia].
Qed.

(** i32 keeps the low 32 bits and has no influence below bit 31 *)
Lemma i32_mod a : i32 a mod 2 ^ 32 = a mod 2 ^ 32.
Proof.
  unfold i32. rewrite Zminus_mod, Zmod_mod, <- Zminus_mod. f_equal. lia.
Qed.

Lemma i32_bits a k : 0 <= k < 32 -> Z.testbit (i32 a) k = Z.testbit a k.
Proof.
  intros. rewrite <- (Z.mod_pow2_bits_low (i32 a) 32 k), <- (Z.mod_pow2_bits_low a 32 k) by lia.
  rewrite i32_mod. reflexivity.
Qed.

Lemma sm_step_bits d id off i k : 0 <= id -> 0 <= off < nd d -> 0 <= i < 32 -> 0 <= k < 32 ->
  Z.testbit (i32 (Z.shiftr (Z.land id (Z.shiftl 1 (dimz d * i + off))) ((dimz d - 1) * i + off))) k =
  (k =? i) && Z.testbit id (nd d * i + off).
Proof.
  intros. pose proof (nd_pos d). rewrite i32_bits by lia. rewrite dimz_nd, shl1.
  rewrite Z.shiftr_spec by lia. rewrite Z.land_spec. rewrite Z.pow2_bits_eqb by nia.
  destruct (k =? i) eqn:E.
  - assert (k = i) by lia. subst. replace (i + ((nd d - 1) * i + off)) with (nd d * i + off) by lia.
    rewrite Z.eqb_refl, andb_true_r. reflexivity.
  - replace (nd d * i + off =? k + ((nd d - 1) * i + off)) with false by nia. apply andb_false_r.
Qed.

Lemma sm_coord_bits d id off n k : 0 <= id -> 0 <= off < nd d -> (n <= 32)%nat -> 0 <= k < 32 ->
  Z.testbit (sm_coord d id off n) k = (k <? Z.of_nat n) && Z.testbit id (nd d * k + off).
Proof.
  intros Hid Ho Hn Hk. unfold sm_coord. induction n.
  - cbn [seq fold_left]. rewrite Z.bits_0. replace (k <? Z.of_nat 0) with false by lia. reflexivity.
  - rewrite seq_S, fold_left_app. cbn [fold_left]. rewrite Z.lor_spec, IHn by lia.
    rewrite Nat.add_0_l, sm_step_bits by lia.
    destruct (k =? Z.of_nat n) eqn:E.
    + assert (k = Z.of_nat n) by lia. subst k.
      replace (Z.of_nat n <? Z.of_nat n) with false by lia.
      replace (Z.of_nat n <? Z.of_nat (S n)) with true by lia. reflexivity.
    + replace (k <? Z.of_nat (S n)) with (k <? Z.of_nat n) by lia.
      cbn [andb]. apply orb_false_r.
Qed.

Lemma sm128_coord_bits d id off n k : 0 <= id -> 0 <= off < nd d -> (n <= 32)%nat -> 0 <= k < 32 ->
  Z.testbit (sm128_coord d id off n) k = (k <? Z.of_nat n) && Z.testbit id (nd d * k + off).
Proof.
  intros Hid Ho Hn Hk. unfold sm128_coord. induction n.
  - cbn [seq fold_left]. rewrite Z.bits_0. replace (k <? Z.of_nat 0) with false by lia. reflexivity.
  - rewrite seq_S, fold_left_app. cbn [fold_left]. rewrite Nat.add_0_l. rewrite dimz_nd in IHn |- *.
    assert (A : Z.testbit (i32 (Z.shiftl 1 (Z.of_nat n))) k = (k =? Z.of_nat n)).
    { rewrite i32_bits, shl1, Z.pow2_bits_eqb by lia. lia. }
    destruct (k =? Z.of_nat n) eqn:E.
    + assert (k = Z.of_nat n) by lia. subst k.
      replace (Z.of_nat n <? Z.of_nat (S n)) with true by lia.
      replace (Z.of_nat n <? Z.of_nat n) with false in IHn by lia.
      destruct (Z.testbit id (nd d * Z.of_nat n + off)) eqn:T.
      * rewrite Z.lor_spec, A. apply orb_true_r.
      * rewrite IHn by lia. reflexivity.
    + replace (k <? Z.of_nat (S n)) with (k <? Z.of_nat n) by lia.
      destruct (Z.testbit id (nd d * Z.of_nat n + off)); [|apply IHn; lia].
      rewrite Z.lor_spec, A, IHn by lia. apply orb_false_r.
Qed.

(** the final shift: agrees with the canonical digits modulo 2^32 *)
Lemma shift_un a d off n id s : 0 <= id -> 0 <= off < nd d -> (n <= 32)%nat -> 0 <= s <= 32 ->
  (forall k, 0 <= k < 32 -> Z.testbit a k = (k <? Z.of_nat n) && Z.testbit id (nd d * k + off)) ->
  i32 (Z.shiftl a s) = i32 (un d off n id * 2 ^ s).
Proof.
  intros Hid Ho Hn Hs HA. rewrite <- Z.shiftl_mul_pow2 by lia.
  assert (E : Z.shiftl a s mod 2 ^ 32 = Z.shiftl (un d off n id) s mod 2 ^ 32).
  { apply Z.bits_inj'. intros k Hk.
    destruct (Z_lt_le_dec k 32).
    - rewrite !Z.mod_pow2_bits_low by lia. rewrite !Z.shiftl_spec by lia.
      destruct (Z_lt_le_dec k s); [rewrite !Z.testbit_neg_r by lia; reflexivity|].
      rewrite HA by lia. destruct (k - s <? Z.of_nat n) eqn:E.
      + rewrite un_testbit by lia. reflexivity.
      + symmetry. apply testbit_above with (Z.of_nat n); try lia. apply un_range.
    - rewrite !Z.mod_pow2_bits_high by lia. reflexivity. }
  unfold i32. rewrite Zplus_mod, E, <- Zplus_mod. reflexivity.
Qed.

Lemma set_morton_un d level id : 0 <= level <= 30 -> 0 <= id ->
  let c off := i32 (un d off (Z.to_nat (level + 2)) id * side level) in
  set_morton d level id = mkq (c 0) (c 1) (match d with D2 => 0 | D3 => c 2 end) level.
Proof.
  intros L Hid c. unfold set_morton, MAXLEVEL, c, side. cbv zeta. pose proof (nd_pos d).
  rewrite (shift_un (sm_coord d id 0 (Z.to_nat (level + 2))) d 0 (Z.to_nat (level + 2)) id) by
    (try lia; intros; apply sm_coord_bits; lia).
  rewrite (shift_un (sm_coord d id 1 (Z.to_nat (level + 2))) d 1 (Z.to_nat (level + 2)) id) by
    (try lia; intros; apply sm_coord_bits; lia).
  destruct d; [reflexivity|]. cbn [is3].
  rewrite (shift_un (sm_coord D3 id 2 (Z.to_nat (level + 2))) D3 2 (Z.to_nat (level + 2)) id) by
    (cbn [nd]; try lia; intros; apply sm_coord_bits; cbn [nd]; lia).
  reflexivity.
Qed.

Lemma set_morton_ext128_eq d level id : 0 <= level <= 30 -> 0 <= id ->
  set_morton_ext128 d level id = set_morton d level id.
Proof.
  intros L Hid. rewrite set_morton_un by auto.
  unfold set_morton_ext128, MAXLEVEL, side. cbv zeta. pose proof (nd_pos d).
  rewrite (shift_un (sm128_coord d id 0 (Z.to_nat (level + 2))) d 0 (Z.to_nat (level + 2)) id) by
    (try lia; intros; apply sm128_coord_bits; lia).
  rewrite (shift_un (sm128_coord d id 1 (Z.to_nat (level + 2))) d 1 (Z.to_nat (level + 2)) id) by
    (try lia; intros; apply sm128_coord_bits; lia).
  destruct d; [reflexivity|]. cbn [is3].
  rewrite (shift_un (sm128_coord D3 id 2 (Z.to_nat (level + 2))) D3 2 (Z.to_nat (level + 2)) id) by
    (cbn [nd]; try lia; intros; apply sm128_coord_bits; cbn [nd]; lia).
  reflexivity.
Qed.

(** more digits do not matter for small indices *)
Lemma un_ext d off n k i : 0 <= i < 2 ^ (nd d * Z.of_nat n) -> 0 <= off < nd d ->
  un d off (k + n) i = un d off n i.
Proof.
  intros Hi Ho. pose proof (nd_pos d).
  apply Z.bits_inj'. intros b Hb.
  destruct (Z_lt_le_dec b (Z.of_nat n)).
  - rewrite !un_testbit by lia. reflexivity.
  - rewrite (testbit_above (un d off n i) (Z.of_nat n) b) by (try apply un_range; lia).
    destruct (Z_lt_le_dec b (Z.of_nat (k + n))).
    + rewrite un_testbit by lia. apply testbit_above with (nd d * Z.of_nat n); auto; nia.
    + apply testbit_above with (Z.of_nat (k + n)); try apply un_range; lia.
Qed.

Lemma set_morton_mkquad d level id : 0 <= level <= 29 -> 0 <= id < 2 ^ (nd d * level) ->
  set_morton d level id = mkquad d level id.
Proof.
  intros L Hid. rewrite set_morton_un by lia. cbv zeta.
  replace (Z.to_nat (level + 2)) with (2 + Z.to_nat level)%nat by lia. pose proof (nd_pos d).
  pose proof (side_pos level ltac:(lia)). pose proof (side_mul level ltac:(lia)).
  assert (A : forall off, 0 <= off < nd d ->
     i32 (un d off (2 + Z.to_nat level) id * side level) = un d off (Z.to_nat level) id * side level).
  { intros off Ho. rewrite un_ext by (rewrite ?Z2Nat.id; lia).
    apply i32_small. pose proof (un_range d off (Z.to_nat level) id) as R. rewrite Z2Nat.id in R by lia.
    nia. }
  unfold mkquad. rewrite (A 0), (A 1) by lia.
  destruct d; [rewrite uzn_D2; reflexivity|]. rewrite (A 2) by (cbn; lia). reflexivity.
Qed.

(** ** round trip over the extended range *)
Lemma i32_div_mod u level : 0 <= level <= 30 -> 0 <= u < 2 ^ (level + 2) ->
  (i32 (u * side level) / side level) mod 2 ^ (level + 2) = u.
Proof.
  intros L Hu. pose proof (side_pos level ltac:(lia)).
  assert (SM : side level * 2 ^ (level + 2) = 2 ^ 32).
  { unfold side. rewrite <- Z.pow_add_r by lia. f_equal. lia. }
  pose proof (i32_mod (u * side level)) as M.
  set (v := i32 (u * side level)) in *.
  rewrite (Z.mod_small (u * side level)) in M by nia.
  pose proof (Z.div_mod v (2 ^ 32) ltac:(lia)) as D. rewrite M in D.
  remember (v / 2 ^ 32) as w eqn:Hw.
  assert (V : v = side level * (2 ^ (level + 2) * w + u)).
  { rewrite D. rewrite <- SM. ring. }
  rewrite V. rewrite Z.mul_comm, Z.div_mul by lia. apply modqr. lia.
Qed.

Lemma id_set_morton d level id : 0 <= level <= 29 -> 0 <= id < 2 ^ (nd d * (level + 2)) ->
  linear_id_ext128 d (set_morton d level id) level = id.
Proof.
  intros L Hid. rewrite linear_id_ext128_mort by lia. rewrite set_morton_un by lia. cbv zeta.
  cbn [qx qy qz]. rewrite mort_mod. rewrite Z2Nat.id by lia.
  set (n := Z.to_nat (level + 2)).
  assert (Hn : Z.of_nat n = level + 2) by (unfold n; lia).
  assert (R : forall off, 0 <= un d off n id < 2 ^ (level + 2)).
  { intros. pose proof (un_range d off n id). rewrite Hn in H. auto. }
  rewrite (i32_div_mod (un d 0 n id)) by (auto; lia).
  rewrite (i32_div_mod (un d 1 n id)) by (auto; lia).
  transitivity (mort d n (un d 0 n id) (un d 1 n id) (un d 2 n id)).
  2:{ apply mort_un. rewrite Hn. lia. }
  f_equal. destruct d.
  - change (un D2 2 n id) with (uzn D2 n id). rewrite uzn_D2. rewrite Z.div_0_l, Z.mod_0_l; auto.
    + pose proof (pow2_pos (level + 2)). lia.
    + pose proof (side_pos level). lia.
  - rewrite i32_div_mod; auto; lia.
Qed.
