(** * Lemmas on bit interleaving *)

From Coq Require Import ZArith List Bool Lia ZifyBool.
From Verif Require Import Quad Spec.
Import ListNotations.
Open Scope Z_scope.


Lemma nd_pos d : 2 <= nd d <= 3.
Proof. destruct d; simpl; lia. Qed.

Lemma pow2_pos k : 0 <= k -> 0 < 2 ^ k.
Proof. intros; apply Z.pow_pos_nonneg; lia. Qed.

Lemma pow2_S n : 2 ^ Z.of_nat (S n) = 2 * 2 ^ Z.of_nat n.
Proof. rewrite Nat2Z.inj_succ, Z.pow_succ_r by lia. lia. Qed.

Lemma dig_range d x y z : 0 <= dig d x y z < 2 ^ nd d.
Proof.
  unfold dig.
  pose proof (Z.mod_pos_bound x 2). pose proof (Z.mod_pos_bound y 2).
  pose proof (Z.mod_pos_bound z 2).
  destruct d; cbn [nd]; [change (2^2) with 4 | change (2^3) with 8]; lia.
Qed.

Lemma pow_nd_S d n : 2 ^ (nd d * Z.of_nat (S n)) = 2 ^ nd d * 2 ^ (nd d * Z.of_nat n).
Proof.
  rewrite <- Z.pow_add_r by (pose proof (nd_pos d); nia). f_equal. lia.
Qed.

Lemma mort_range d n : forall x y z, 0 <= mort d n x y z < 2 ^ (nd d * Z.of_nat n).
Proof.
  induction n; intros.
  - simpl. rewrite Z.mul_0_r. change (2^0) with 1. lia.
  - rewrite pow_nd_S. cbn [mort].
    pose proof (IHn (x/2) (y/2) (z/2)). pose proof (dig_range d x y z).
    pose proof (pow2_pos (nd d)). pose proof (nd_pos d). nia.
Qed.

(** splitting off the k low bits *)
Lemma mort_split d k : forall n x y z,
  mort d (n + k) x y z =
  2 ^ (nd d * Z.of_nat k) *
    mort d n (x / 2 ^ Z.of_nat k) (y / 2 ^ Z.of_nat k) (z / 2 ^ Z.of_nat k)
  + mort d k x y z.
Proof.
  induction k; intros.
  - rewrite Nat.add_0_r. simpl (Z.of_nat 0). rewrite Z.mul_0_r.
    change (2^0) with 1. rewrite !Z.div_1_r. cbn [mort]. lia.
  - rewrite Nat.add_succ_r. cbn [mort].
    rewrite IHk, pow_nd_S, pow2_S.
    assert (E : forall a, a / 2 / 2 ^ Z.of_nat k = a / (2 * 2 ^ Z.of_nat k)).
    { intro a. rewrite Z.div_div; try lia. }
    rewrite !E. ring.
Qed.

Lemma mort_mod d n : forall x y z,
  mort d n x y z =
  mort d n (x mod 2 ^ Z.of_nat n) (y mod 2 ^ Z.of_nat n) (z mod 2 ^ Z.of_nat n).
Proof.
  induction n; intros; [reflexivity|].
  cbn [mort]. rewrite pow2_S.
  set (m := 2 ^ Z.of_nat n). assert (Hm : 0 < m) by (apply pow2_pos; lia).
  assert (E : forall a, (a mod (2 * m)) / 2 = (a / 2) mod m).
  { intro a. rewrite Z.rem_mul_r by lia.
    rewrite Z.mul_comm, Z.div_add by lia.
    rewrite (Z.div_small (a mod 2) 2); [lia|]. apply Z.mod_pos_bound; lia. }
  assert (F : forall a, (a mod (2 * m)) mod 2 = a mod 2).
  { intro a. rewrite Z.rem_mul_r by lia. rewrite Z.mul_comm, Z.mod_add by lia.
    apply Z.mod_mod; lia. }
  rewrite !E. unfold dig. rewrite !F. f_equal. f_equal. apply IHn.
Qed.

Lemma mort_ext d k n x y z :
  0 <= x < 2 ^ Z.of_nat k -> 0 <= y < 2 ^ Z.of_nat k -> 0 <= z < 2 ^ Z.of_nat k ->
  mort d (n + k) x y z = mort d k x y z.
Proof.
  intros. rewrite mort_split, !Z.div_small by lia.
  assert (E : mort d n 0 0 0 = 0).
  { clear. induction n; [reflexivity|]. cbn [mort]. rewrite !Z.div_0_l by lia. rewrite IHn.
    unfold dig. rewrite Z.mod_0_l by lia. destruct d; lia. }
  rewrite E. lia.
Qed.

Lemma dig_inj d x y z x' y' z' :
  dig d x y z = dig d x' y' z' ->
  x mod 2 = x' mod 2 /\ y mod 2 = y' mod 2 /\ (d = D3 -> z mod 2 = z' mod 2).
Proof.
  unfold dig.
  pose proof (Z.mod_pos_bound x 2). pose proof (Z.mod_pos_bound y 2).
  pose proof (Z.mod_pos_bound z 2).
  pose proof (Z.mod_pos_bound x' 2). pose proof (Z.mod_pos_bound y' 2).
  pose proof (Z.mod_pos_bound z' 2).
  destruct d; intros; repeat split; intros; try discriminate; lia.
Qed.

Lemma div_mod_eq2 b q1 r1 q2 r2 :
  0 <= r1 < b -> 0 <= r2 < b -> b * q1 + r1 = b * q2 + r2 -> q1 = q2 /\ r1 = r2.
Proof. intros. assert (q1 = q2) by nia. subst. lia. Qed.

Lemma mort_inj d n : forall x y z x' y' z',
  mort d n x y z = mort d n x' y' z' ->
  x mod 2 ^ Z.of_nat n = x' mod 2 ^ Z.of_nat n /\
  y mod 2 ^ Z.of_nat n = y' mod 2 ^ Z.of_nat n /\
  (d = D3 -> z mod 2 ^ Z.of_nat n = z' mod 2 ^ Z.of_nat n).
Proof.
  induction n; intros x y z x' y' z' H.
  - simpl. rewrite !Z.mod_1_r. auto.
  - cbn [mort] in H.
    apply div_mod_eq2 in H; auto using dig_range.
    destruct H as [H1 H2].
    apply IHn in H1. apply dig_inj in H2.
    rewrite pow2_S. pose proof (pow2_pos (Z.of_nat n)).
    rewrite !Z.rem_mul_r by lia.
    destruct H1 as (A & B & C), H2 as (D & E & F).
    rewrite A, B, D, E. repeat split. intros. rewrite C, F; auto.
Qed.

(** the characterisation by single bits *)
Lemma dig_testbit d x y z k :
  0 <= k < nd d ->
  Z.testbit (dig d x y z) k = Z.testbit (if k =? 0 then x else if k =? 1 then y else z) 0.
Proof.
  intros. unfold dig.
  assert (A : forall a, Z.testbit a 0 = (a mod 2 =? 1)).
  { intros. rewrite Z.bit0_odd. rewrite Zmod_odd. destruct (Z.odd a); reflexivity. }
  rewrite A.
  pose proof (Z.mod_pos_bound x 2). pose proof (Z.mod_pos_bound y 2).
  pose proof (Z.mod_pos_bound z 2).
  assert (x mod 2 = 0 \/ x mod 2 = 1) as [Hx|Hx] by lia;
  assert (y mod 2 = 0 \/ y mod 2 = 1) as [Hy|Hy] by lia;
  assert (z mod 2 = 0 \/ z mod 2 = 1) as [Hz|Hz] by lia;
  rewrite Hx, Hy, Hz;
  destruct d; cbn [nd] in *;
  (assert (k = 0 \/ k = 1 \/ k = 2) as [->|[->| ->]] by lia);
  simpl; rewrite ?Hx, ?Hy, ?Hz; try reflexivity; lia.
Qed.

Theorem mort_testbit d n : forall x y z i k,
  0 <= i < Z.of_nat n -> 0 <= k < nd d ->
  Z.testbit (mort d n x y z) (nd d * i + k) =
  Z.testbit (if k =? 0 then x else if k =? 1 then y else z) i.
Proof.
  induction n; intros x y z i k Hi Hk; [lia|].
  cbn [mort].
  destruct (Z.eq_dec i 0) as [->|Hi0].
  - rewrite Z.mul_0_r, Z.add_0_l, <- (dig_testbit d x y z k Hk).
    rewrite <- (Z.mod_pow2_bits_low _ (nd d)) by lia.
    rewrite Z.add_comm, Z.mul_comm, Z.mod_add by (pose proof (pow2_pos (nd d)); pose proof (nd_pos d); lia).
    rewrite Z.mod_small by apply dig_range. reflexivity.
  - replace (nd d * i + k) with ((nd d * (i - 1) + k) + nd d) by lia.
    pose proof (nd_pos d).
    rewrite <- Z.div_pow2_bits by nia.
    rewrite Z.add_comm, Z.mul_comm, Z.div_add by (pose proof (pow2_pos (nd d)); lia).
    rewrite Z.div_small by apply dig_range. rewrite Z.add_0_l.
    rewrite IHn by lia.
    assert (E : forall a, Z.testbit (a / 2) (i - 1) = Z.testbit a i).
    { intro a. replace 2 with (2 ^ 1) by reflexivity. rewrite Z.div_pow2_bits by lia. f_equal; lia. }
    destruct (k =? 0); [|destruct (k =? 1)]; apply E.
Qed.

(** inverse map *)
Fixpoint uxn (d : dim) (n : nat) (i : Z) : Z :=
  match n with O => 0 | S m => 2 * uxn d m (i / 2 ^ nd d) + i mod 2 end.
Fixpoint uyn (d : dim) (n : nat) (i : Z) : Z :=
  match n with O => 0 | S m => 2 * uyn d m (i / 2 ^ nd d) + (i / 2) mod 2 end.
Fixpoint uzn (d : dim) (n : nat) (i : Z) : Z :=
  match d with
  | D2 => 0
  | D3 => match n with O => 0 | S m => 2 * uzn D3 m (i / 2 ^ nd D3) + (i / 4) mod 2 end
  end.

Lemma ux_range d n : forall i, 0 <= uxn d n i < 2 ^ Z.of_nat n.
Proof.
  induction n; intros; [simpl; lia|]. rewrite pow2_S. cbn [uxn].
  pose proof (IHn (i / 2 ^ nd d)). pose proof (Z.mod_pos_bound i 2). lia.
Qed.
Lemma uy_range d n : forall i, 0 <= uyn d n i < 2 ^ Z.of_nat n.
Proof.
  induction n; intros; [simpl; lia|]. rewrite pow2_S. cbn [uyn].
  pose proof (IHn (i / 2 ^ nd d)). pose proof (Z.mod_pos_bound (i/2) 2). lia.
Qed.
Lemma uz_range d n : forall i, 0 <= uzn d n i < 2 ^ Z.of_nat n.
Proof.
  destruct d.
  - intros. replace (uzn D2 n i) with 0 by (destruct n; reflexivity). pose proof (pow2_pos (Z.of_nat n)); lia.
  - induction n; intros; [simpl; lia|]. rewrite pow2_S. cbn [uzn].
    pose proof (IHn (i / 2 ^ nd D3)). pose proof (Z.mod_pos_bound (i/4) 2). lia.
Qed.

Lemma mort_un d n : forall i, 0 <= i < 2 ^ (nd d * Z.of_nat n) ->
  mort d n (uxn d n i) (uyn d n i) (uzn d n i) = i.
Proof.
  induction n; intros i Hi.
  - simpl in *. rewrite Z.mul_0_r in Hi. change (2^0) with 1 in Hi. lia.
  - rewrite pow_nd_S in Hi.
    assert (Hp : 0 < 2 ^ nd d) by (apply pow2_pos; pose proof (nd_pos d); lia).
    assert (E1 : uxn d (S n) i / 2 = uxn d n (i / 2 ^ nd d)).
    { cbn [uxn]. rewrite Z.mul_comm, Z.div_add_l by lia.
      rewrite (Z.div_small (i mod 2)) by (apply Z.mod_pos_bound; lia). lia. }
    assert (E2 : uyn d (S n) i / 2 = uyn d n (i / 2 ^ nd d)).
    { cbn [uyn]. rewrite Z.mul_comm, Z.div_add_l by lia.
      rewrite (Z.div_small ((i/2) mod 2)) by (apply Z.mod_pos_bound; lia). lia. }
    assert (E3 : uzn d (S n) i / 2 = uzn d n (i / 2 ^ nd d)).
    { destruct d; [destruct n; reflexivity|]. cbn [uzn]. rewrite Z.mul_comm, Z.div_add_l by lia.
      rewrite (Z.div_small ((i/4) mod 2)) by (apply Z.mod_pos_bound; lia).
      cbn [nd]. lia. }
    cbn [mort]. rewrite E1, E2, E3, IHn.
    2: { split; [apply Z.div_pos; lia|]. apply Z.div_lt_upper_bound; lia. }
    transitivity (2 ^ nd d * (i / 2 ^ nd d) + i mod 2 ^ nd d);
      [f_equal | symmetry; apply Z.div_mod; lia].
    unfold dig.
    assert (F1 : uxn d (S n) i mod 2 = i mod 2).
    { cbn [uxn]. rewrite Z.add_comm, Z.mul_comm, Z.mod_add by lia. apply Z.mod_mod; lia. }
    assert (F2 : uyn d (S n) i mod 2 = (i / 2) mod 2).
    { cbn [uyn]. rewrite Z.add_comm, Z.mul_comm, Z.mod_add by lia. apply Z.mod_mod; lia. }
    rewrite F1, F2. destruct d.
    + replace (2 ^ nd D2) with (2*2) by reflexivity. rewrite Z.rem_mul_r by lia. lia.
    + assert (F3 : uzn D3 (S n) i mod 2 = (i / 4) mod 2).
      { cbn [uzn]. rewrite Z.add_comm, Z.mul_comm, Z.mod_add by lia. apply Z.mod_mod; lia. }
      rewrite F3. replace (2 ^ nd D3) with (2*(2*2)) by reflexivity. rewrite !Z.rem_mul_r by lia.
      rewrite Z.div_div by lia. change (2*2) with 4. lia.
Qed.

Lemma un_mort_all d n : forall x y z,
  0 <= x < 2 ^ Z.of_nat n -> 0 <= y < 2 ^ Z.of_nat n ->
  0 <= z < 2 ^ Z.of_nat n -> (d = D2 -> z = 0) ->
  uxn d n (mort d n x y z) = x /\ uyn d n (mort d n x y z) = y /\ uzn d n (mort d n x y z) = z.
Proof.
  intros x y z Hx Hy Hz Hd.
  pose proof (mort_un d n (mort d n x y z) (mort_range d n x y z)) as H.
  apply mort_inj in H. destruct H as (A & B & C).
  pose proof (ux_range d n (mort d n x y z)).
  pose proof (uy_range d n (mort d n x y z)).
  pose proof (uz_range d n (mort d n x y z)).
  rewrite !Z.mod_small in A, B by lia.
  repeat split; auto.
  destruct d.
  - rewrite Hd by reflexivity. destruct n; reflexivity.
  - specialize (C eq_refl). rewrite !Z.mod_small in C by lia. exact C.
Qed.

(** adding offsets within aligned blocks *)
Lemma mort_block d n k x y z a b c :
  0 <= a < 2 ^ Z.of_nat k -> 0 <= b < 2 ^ Z.of_nat k -> 0 <= c < 2 ^ Z.of_nat k ->
  mort d (n + k) (x * 2 ^ Z.of_nat k + a) (y * 2 ^ Z.of_nat k + b) (z * 2 ^ Z.of_nat k + c) =
  2 ^ (nd d * Z.of_nat k) * mort d n x y z + mort d k a b c.
Proof.
  intros. rewrite mort_split.
  pose proof (pow2_pos (Z.of_nat k)).
  rewrite !Z.div_add_l by lia. rewrite !(Z.div_small _ (2 ^ Z.of_nat k)) by lia.
  rewrite !Z.add_0_r. f_equal.
  rewrite (mort_mod d k (x * _ + a)). 
  rewrite !(Z.add_comm (_ * 2 ^ Z.of_nat k)), !Z.mod_add by lia.
  symmetry. apply mort_mod.
Qed.
