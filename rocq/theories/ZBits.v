(** * Arithmetic meaning of the bit operations used in p4est_bits.c *)

From Coq Require Import ZArith List Bool Lia ZifyBool.
From Verif Require Import Quad.
Open Scope Z_scope.

Lemma QLEN_pow l : l <= 30 -> QLEN l = 2 ^ (30 - l).
Proof. intros. unfold QLEN, MAXLEVEL. rewrite Z.shiftl_1_l. reflexivity. Qed.

Lemma ROOT_LEN_pow : ROOT_LEN = 2 ^ 30.
Proof. reflexivity. Qed.

Lemma shl1 k : Z.shiftl 1 k = 2 ^ k.
Proof. apply Z.shiftl_1_l. Qed.

Lemma land_lnot_mask x k : 0 <= k -> Z.land x (Z.lnot (2 ^ k - 1)) = (x / 2 ^ k) * 2 ^ k.
Proof.
  intros. rewrite <- Z.ldiff_land.
  replace (2 ^ k - 1) with (Z.ones k) by (rewrite Z.ones_equiv; lia).
  rewrite Z.ldiff_ones_r by lia.
  rewrite Z.shiftl_mul_pow2, Z.shiftr_div_pow2 by lia. reflexivity.
Qed.

Lemma land_mask x k : 0 <= k -> Z.land x (2 ^ k - 1) = x mod 2 ^ k.
Proof.
  intros. replace (2 ^ k - 1) with (Z.ones k) by (rewrite Z.ones_equiv; lia).
  apply Z.land_ones; lia.
Qed.

Lemma land_lnot_bit X k : 0 <= k ->
  Z.land (X * 2 ^ k) (Z.lnot (2 ^ k)) = (X / 2) * 2 ^ (k + 1).
Proof.
  intros. rewrite <- Z.ldiff_land.
  rewrite <- Z.shiftl_mul_pow2 by lia.
  rewrite <- (Z.shiftl_1_l k). rewrite <- Z.shiftl_ldiff.
  replace (Z.ldiff X 1) with (Z.ldiff X (Z.ones 1)) by reflexivity.
  rewrite Z.ldiff_ones_r by lia.
  rewrite Z.shiftl_shiftl by lia.
  rewrite Z.shiftl_mul_pow2, Z.shiftr_div_pow2 by lia.
  rewrite (Z.add_comm 1 k). reflexivity.
Qed.

Lemma lor_2X_1 X : Z.lor (2 * X) 1 = 2 * X + 1.
Proof.
  apply Z.bits_inj'. intros n Hn. rewrite Z.lor_spec.
  destruct (Z.eq_dec n 0) as [->|].
  - rewrite Z.testbit_odd_0, Z.testbit_even_0. reflexivity.
  - replace n with (Z.succ (n - 1)) by lia.
    rewrite Z.testbit_odd_succ, Z.testbit_even_succ by lia.
    replace (Z.testbit 1 (Z.succ (n-1))) with false; [apply orb_false_r|].
    symmetry. apply Z.bits_above_log2; simpl; lia.
Qed.

Lemma lor_bit X k : 0 <= k ->
  Z.lor (X * 2 ^ k) (2 ^ k) = (2 * (X / 2) + 1) * 2 ^ k.
Proof.
  intros. rewrite <- !Z.shiftl_mul_pow2 by lia. rewrite <- (Z.shiftl_1_l k) at 1.
  rewrite <- Z.shiftl_lor. f_equal.
  rewrite (Z.div_mod X 2) at 1 by lia.
  pose proof (Z.mod_pos_bound X 2).
  assert (X mod 2 = 0 \/ X mod 2 = 1) as [->| ->] by lia.
  - rewrite Z.add_0_r. apply lor_2X_1.
  - rewrite <- lor_2X_1. rewrite <- Z.lor_assoc. f_equal.
Qed.

Lemma lor_bit_even X k : 0 <= k ->
  Z.lor (X * 2 ^ (k + 1)) (2 ^ k) = X * 2 ^ (k + 1) + 2 ^ k.
Proof.
  intros. rewrite Z.pow_add_r by lia. change (2 ^ 1) with 2.
  replace (X * (2 ^ k * 2)) with ((2 * X) * 2 ^ k) by ring.
  rewrite lor_bit by lia. rewrite (Z.mul_comm 2 X), Z.div_mul by lia. ring.
Qed.

Lemma nz_land_bit x k : 0 <= k -> nz (Z.land x (2 ^ k)) = Z.odd (x / 2 ^ k).
Proof.
  intros. unfold nz.
  rewrite <- (Z.shiftr_div_pow2 x k) by lia.
  rewrite <- Z.bit0_odd. rewrite Z.shiftr_spec, Z.add_0_l by lia.
  destruct (Z.testbit x k) eqn:E.
  - apply negb_true_iff, Z.eqb_neq. intro F.
    assert (Z.testbit (Z.land x (2 ^ k)) k = true).
    { rewrite Z.land_spec, E, Z.pow2_bits_true by lia. reflexivity. }
    rewrite F, Z.bits_0 in H0. discriminate.
  - apply negb_false_iff, Z.eqb_eq. apply Z.bits_inj'. intros n Hn.
    rewrite Z.land_spec, Z.bits_0, Z.pow2_bits_eqb by lia.
    destruct (k =? n) eqn:F; [|apply andb_false_r].
    apply Z.eqb_eq in F; subst. rewrite E. reflexivity.
Qed.

Lemma shiftr_lxor_0 x y s : 0 <= s ->
  (Z.shiftr (Z.lxor x y) s =? 0) = (x / 2 ^ s =? y / 2 ^ s).
Proof.
  intros. rewrite Z.shiftr_lxor, !Z.shiftr_div_pow2 by lia.
  destruct (x / 2 ^ s =? y / 2 ^ s) eqn:E.
  - apply Z.eqb_eq in E. rewrite E, Z.lxor_nilpotent. reflexivity.
  - apply Z.eqb_neq in E. apply Z.eqb_neq. intro F. apply E.
    apply Z.lxor_eq; auto.
Qed.

Lemma nz_land_lxor_mask x y s : 0 <= s ->
  nz (Z.land (Z.lxor x y) (Z.lnot (2 ^ s - 1))) = negb (x / 2 ^ s =? y / 2 ^ s).
Proof.
  intros. rewrite land_lnot_mask by lia. unfold nz.
  rewrite <- (shiftr_lxor_0 x y s) by lia.
  rewrite Z.shiftr_div_pow2 by lia.
  assert (0 < 2 ^ s) by (apply Z.pow_pos_nonneg; lia).
  f_equal. destruct (Z.lxor x y / 2 ^ s =? 0) eqn:E; nia.
Qed.

Lemma odd_mod2 a : Z.odd a = (a mod 2 =? 1).
Proof. rewrite Zmod_odd. destruct (Z.odd a); reflexivity. Qed.

Lemma u32_small a : 0 <= a < 2 ^ 32 -> u32 a = a.
Proof. apply Z.mod_small. Qed.
Lemma u64_small a : 0 <= a < 2 ^ 64 -> u64 a = a.
Proof. apply Z.mod_small. Qed.
Lemma i32_small a : - 2 ^ 31 <= a < 2 ^ 31 -> i32 a = a.
Proof. intros. unfold i32. rewrite Z.mod_small; lia. Qed.

Lemma lxor_nonneg_lt a b n :
  0 <= n -> 0 <= a < 2 ^ n -> 0 <= b < 2 ^ n -> 0 <= Z.lxor a b < 2 ^ n.
Proof.
  intros Hn Ha Hb.
  assert (0 <= Z.lxor a b) by (apply Z.lxor_nonneg; lia).
  split; auto.
  destruct (Z.eq_dec (Z.lxor a b) 0) as [->|]; [apply Z.pow_pos_nonneg; lia|].
  apply Z.log2_lt_pow2; [lia|].
  assert (L : forall c, 0 <= c < 2 ^ n -> c <> 0 -> Z.log2 c < n) by (intros; apply Z.log2_lt_pow2; lia).
  assert (G : forall m, n <= m -> Z.testbit (Z.lxor a b) m = false).
  { intros m Hm. rewrite Z.lxor_spec.
    replace (Z.testbit a m) with false; [replace (Z.testbit b m) with false; auto|].
    - symmetry. destruct (Z.eq_dec b 0) as [->|]; [apply Z.bits_0|].
      apply Z.bits_above_log2; [lia|]. specialize (L b); lia.
    - symmetry. destruct (Z.eq_dec a 0) as [->|]; [apply Z.bits_0|].
      apply Z.bits_above_log2; [lia|]. specialize (L a); lia. }
  destruct (Z_lt_ge_dec (Z.log2 (Z.lxor a b)) n); auto.
  pose proof (Z.bit_log2 (Z.lxor a b)) as B. rewrite G in B by lia.
  assert (0 < Z.lxor a b) by lia. specialize (B H0). discriminate.
Qed.

Lemma u32_lxor a b : u32 (Z.lxor a b) = Z.lxor (u32 a) (u32 b).
Proof.
  unfold u32. rewrite <- !Z.land_ones by lia.
  apply Z.bits_inj'. intros n Hn.
  rewrite !Z.land_spec, !Z.lxor_spec, !Z.land_spec.
  destruct (Z.testbit (Z.ones 32) n), (Z.testbit a n), (Z.testbit b n); reflexivity.
Qed.
