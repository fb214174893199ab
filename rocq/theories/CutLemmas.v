(** * Rounding *)
From Coq Require Import ZArith List Bool Lia ZifyBool Psatz.
From Verif Require Import Cut.
Open Scope Z_scope.

Lemma rhe_spec a b : 0 < b -> exists r, a = b * rhe a b + r /\ - b <= 2 * r <= b /\ (2 * r = b -> Z.odd (rhe a b) = false) /\ (2 * r = - b -> Z.odd (rhe a b) = false).
Proof.
  intros Hb. unfold rhe. pose proof (Z.div_mod a b ltac:(lia)) as E. pose proof (Z.mod_pos_bound a b Hb) as M.
  set (q := a / b) in *. set (r := a mod b) in *.
  destruct ((2 * r >? b) || ((2 * r =? b) && Z.odd q)) eqn:C.
  - exists (r - b). split; [lia|]. split; [lia|]. split; [lia|]. intros H.
    assert (2 * r = b) by lia. assert (O : Z.odd q = true) by lia.
    rewrite Z.odd_add, O. reflexivity.
  - exists r. split; [lia|]. split; [lia|]. split; [|lia]. intros H. lia.
Qed.

(** monotone *)
Lemma rhe_le a b a' b' : 0 < b -> 0 < b' -> a * b' <= a' * b -> rhe a b <= rhe a' b'.
Proof.
  intros Hb Hb' H.
  destruct (rhe_spec a b Hb) as (r & E & R & O1 & O2). destruct (rhe_spec a' b' Hb') as (r' & E' & R' & O1' & O2').
  set (q := rhe a b) in *. set (q' := rhe a' b') in *.
  destruct (Z_le_gt_dec q q') as [L|G]; [exact L|]. exfalso.
  assert (X : b * q * b' + r * b' <= b' * q' * b + r' * b) by (rewrite E, E' in H; lia).
  assert (Y : b * b' * (q - q') <= r' * b - r * b') by lia.
  assert (B1 : 2 * (r' * b) <= b' * b) by nia.
  assert (B2 : - (b * b') <= 2 * (r * b')) by nia.
  assert (q = q' + 1) by nia. assert (BB : b * b' * (q - q') = b * b') by (replace (q - q') with 1 by lia; lia).
  assert (2 * (r' * b) = b' * b) by lia. assert (2 * (r * b') = - (b * b')) by lia.
  assert (2 * r' = b') by nia. assert (2 * r = - b) by nia.
  specialize (O1' H3). specialize (O2 H4).
  rewrite H0, Z.odd_add in O2. rewrite O1' in O2. discriminate.
Qed.

Lemma rhe_int k b : 0 < b -> rhe (k * b) b = k.
Proof.
  intros Hb. unfold rhe. rewrite Z.div_mul, Z.mod_mul by lia.
  replace (2 * 0 >? b) with false by lia. replace (2 * 0 =? b) with false by lia. reflexivity.
Qed.

(** x / y in units; [ok] says that it has enough bits *)
Definition ok (prec x y : Z) : Prop := 0 < y /\ 2 ^ (prec - 1) * y <= x.

Section Fl.
  Variable prec : Z.
  Hypothesis Hp : 1 <= prec.

  Definition lg (x y : Z) := Z.log2 (x / y).

  Lemma ok_pos x y : ok prec x y -> 0 < x /\ 0 < y /\ prec - 1 <= lg x y /\ 2 ^ lg x y * y <= x < 2 ^ (lg x y + 1) * y.
  Proof.
    intros (Hy & H). assert (0 < 2 ^ (prec - 1)) by (apply Z.pow_pos_nonneg; lia).
    assert (Q : 2 ^ (prec - 1) <= x / y) by (apply Z.div_le_lower_bound; lia).
    assert (L : prec - 1 <= lg x y). { unfold lg. rewrite <- (Z.log2_pow2 (prec - 1)) by lia. apply Z.log2_le_mono. exact Q. }
    split; [nia|]. split; [lia|]. split; [exact L|].
    pose proof (Z.log2_spec (x / y) ltac:(lia)) as S. fold (lg x y) in S.
    pose proof (Z.div_mod x y ltac:(lia)). pose proof (Z.mod_pos_bound x y Hy). rewrite <- Z.add_1_r in S. nia.
  Qed.

  Lemma fl_unfold x y : ok prec x y -> fl prec x y = 2 ^ (lg x y - (prec - 1)) * rhe x (y * 2 ^ (lg x y - (prec - 1))).
  Proof. intros O. destruct (ok_pos x y O). unfold fl. replace (x =? 0) with false by lia. reflexivity. Qed.

  (** the result lies in the same binade or at its upper end *)
  Lemma fl_bounds x y : ok prec x y -> 2 ^ lg x y <= fl prec x y <= 2 ^ (lg x y + 1).
  Proof.
    intros O. destruct (ok_pos x y O) as (Hx & Hy & L & B). rewrite (fl_unfold x y O).
    set (t := lg x y) in *. set (u := 2 ^ (t - (prec - 1))).
    assert (Hu : 0 < u) by (apply Z.pow_pos_nonneg; lia).
    assert (E1 : 2 ^ t = 2 ^ (prec - 1) * u) by (unfold u; rewrite <- Z.pow_add_r by lia; f_equal; lia).
    assert (E2 : 2 ^ (t + 1) = 2 ^ prec * u) by (unfold u; rewrite <- Z.pow_add_r by lia; f_equal; lia).
    assert (Q1 : rhe (2 ^ (prec - 1) * (y * u)) (y * u) <= rhe x (y * u)) by (apply rhe_le; nia).
    assert (Q2 : rhe x (y * u) <= rhe (2 ^ prec * (y * u)) (y * u)) by (apply rhe_le; nia).
    rewrite rhe_int in Q1, Q2 by nia. rewrite E1, E2. nia.
  Qed.

  Lemma lg_le x y x' y' : ok prec x y -> ok prec x' y' -> x * y' <= x' * y -> lg x y <= lg x' y'.
  Proof.
    intros O O' H. destruct (ok_pos x y O) as (Hx & Hy & L & B). destruct (ok_pos x' y' O') as (Hx' & Hy' & L' & B').
    destruct (Z_le_gt_dec (lg x y) (lg x' y')) as [Q|Q]; [exact Q|]. exfalso.
    assert (P2 : 2 ^ (lg x' y' + 1) <= 2 ^ lg x y) by (apply Z.pow_le_mono_r; lia).
    assert (0 < 2 ^ (lg x' y' + 1)) by (apply Z.pow_pos_nonneg; lia). nia.
  Qed.

  Lemma fl_mono x y x' y' : ok prec x y -> ok prec x' y' -> x * y' <= x' * y -> fl prec x y <= fl prec x' y'.
  Proof.
    intros O O' H. pose proof (lg_le _ _ _ _ O O' H) as LL.
    destruct (Z.eq_dec (lg x y) (lg x' y')) as [E|E].
    - rewrite (fl_unfold x y O), (fl_unfold x' y' O'), E. set (u := 2 ^ (lg x' y' - (prec - 1))).
      destruct (ok_pos x y O) as (Hx & Hy & L & B). destruct (ok_pos x' y' O') as (Hx' & Hy' & L' & B').
      assert (Hu : 0 < u) by (apply Z.pow_pos_nonneg; lia).
      apply Z.mul_le_mono_nonneg_l; [lia|]. apply rhe_le; nia.
    - pose proof (fl_bounds x y O). pose proof (fl_bounds x' y' O').
      assert (2 ^ (lg x y + 1) <= 2 ^ lg x' y') by (apply Z.pow_le_mono_r; destruct (ok_pos x y O) as (_ & _ & ? & _); lia). lia.
  Qed.

  (** relative error 2^-prec *)
  Lemma fl_err x y : ok prec x y -> 2 ^ prec * Z.abs (fl prec x y * y - x) <= x.
  Proof.
    intros O. destruct (ok_pos x y O) as (Hx & Hy & L & B). rewrite (fl_unfold x y O).
    set (t := lg x y) in *. set (u := 2 ^ (t - (prec - 1))).
    assert (Hu : 0 < u) by (apply Z.pow_pos_nonneg; lia).
    destruct (rhe_spec x (y * u) ltac:(nia)) as (r & E & R & _).
    set (q := rhe x (y * u)) in *.
    replace (u * q * y - x) with (- r) by lia. rewrite Z.abs_opp.
    assert (E2 : 2 ^ prec * u = 2 * 2 ^ t). { unfold u. rewrite <- Z.pow_add_r by lia. rewrite <- Z.pow_succ_r by lia. f_equal. lia. }
    assert (P : 0 < 2 ^ prec) by (apply Z.pow_pos_nonneg; lia).
    assert (2 * Z.abs r <= y * u) by lia.
    assert (2 ^ prec * (2 * Z.abs r) <= 2 ^ prec * (y * u)) by nia.
    replace (2 ^ prec * (y * u)) with (y * (2 ^ prec * u)) in H0 by ring. rewrite E2 in H0. nia.
  Qed.

  (** numbers with few enough bits are exact *)
  Lemma fl_exact k e : 0 <= e -> 2 ^ (prec - 1) <= k * 2 ^ e -> 0 <= k < 2 ^ prec -> fl prec (k * 2 ^ e) 1 = k * 2 ^ e.
  Proof.
    intros He H Hk. assert (O : ok prec (k * 2 ^ e) 1) by (split; lia).
    destruct (ok_pos _ _ O) as (Hx & _ & L & B). rewrite (fl_unfold _ _ O). rewrite Z.mul_1_l. set (t := lg (k * 2 ^ e) 1) in *.
    assert (P : 0 < 2 ^ e) by (apply Z.pow_pos_nonneg; lia).
    assert (T : t - (prec - 1) <= e).
    { assert (2 ^ t < 2 ^ (prec + e)) by (rewrite Z.pow_add_r by lia; nia).
      apply Z.pow_lt_mono_r_iff in H0; lia. }
    set (u := t - (prec - 1)) in *.
    assert (E : k * 2 ^ e = (k * 2 ^ (e - u)) * 2 ^ u) by (rewrite <- Z.mul_assoc, <- Z.pow_add_r by lia; do 2 f_equal; lia).
    rewrite E, rhe_int; [ring|]. apply Z.pow_pos_nonneg; lia.
  Qed.
End Fl.
