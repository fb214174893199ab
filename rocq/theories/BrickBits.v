(** * The numbering of brick_linear_to_xyz and brick_xyz_to_linear *)

From Coq Require Import ZArith List Bool Lia ZifyBool FinFun.
From Verif Require Import Quad Spec Neighbor Transform Partition Conn ConnLemmas Permute PermuteArray Brick.
Import ListNotations.
Open Scope Z_scope.

Lemma upto_S n : 0 <= n -> upto (n + 1) = upto n ++ [n].
Proof.
  intros H. unfold upto. replace (Z.to_nat (n + 1)) with (S (Z.to_nat n)) by lia. rewrite seq_S, map_app. cbn. do 2 f_equal. lia.
Qed.
Lemma upto_0 n : n <= 0 -> upto n = [].
Proof. intros H. unfold upto. replace (Z.to_nat n) with O by lia. reflexivity. Qed.
Lemma in_upto n i : In i (upto n) <-> 0 <= i < n.
Proof.
  unfold upto. rewrite in_map_iff. split.
  - intros (k & <- & I). apply in_seq in I. lia.
  - intros H. exists (Z.to_nat i). split; [lia|]. apply in_seq. lia.
Qed.
Lemma upto_len n : 0 <= n -> zlen (upto n) = n.
Proof. intros H. unfold upto, zlen. rewrite map_length, seq_length. lia. Qed.
Lemma upto_nodup n : NoDup (upto n).
Proof. unfold upto. apply Injective_map_NoDup; [intros a b; lia|apply seq_NoDup]. Qed.

(** ** bits *)

Lemma bits_below a k : 0 <= k -> 0 <= a -> (a < 2 ^ k <-> forall s, k <= s -> Z.testbit a s = false).
Proof.
  intros Hk Ha. split.
  - intros L s Hs. rewrite <- (Z.mod_small a (2 ^ k)) by lia. apply Z.mod_pow2_bits_high. lia.
  - intros H. assert (E : a mod 2 ^ k = a).
    { apply Z.bits_inj'. intros s Hs. rewrite Z.testbit_mod_pow2 by lia. destruct (s <? k) eqn:C; [reflexivity|]. rewrite H by lia. reflexivity. }
    rewrite <- E. apply Z.mod_pos_bound. apply Z.pow_pos_nonneg; lia.
Qed.

Lemma lt_bits a b s : 0 <= s -> Z.testbit a s = false -> Z.testbit b s = true ->
  (forall s', s < s' -> Z.testbit a s' = Z.testbit b s') -> a < b.
Proof.
  intros Hs A B H. assert (E : Z.shiftr a (s + 1) = Z.shiftr b (s + 1)).
  { apply Z.bits_inj'. intros i Hi. rewrite !Z.shiftr_spec by lia. apply H. lia. }
  rewrite !Z.shiftr_div_pow2 in E by lia. rewrite Z.pow_add_r, Z.pow_1_r in E by lia.
  assert (P : 0 < 2 ^ s) by (apply Z.pow_pos_nonneg; lia).
  rewrite <- !Z.div_div in E by lia.
  pose proof (Z.testbit_spec' a s Hs) as A'. pose proof (Z.testbit_spec' b s Hs) as B'. rewrite A in A'. rewrite B in B'. cbn [Z.b2z] in A', B'.
  pose proof (Z.div_mod (a / 2 ^ s) 2 ltac:(lia)). pose proof (Z.div_mod (b / 2 ^ s) 2 ltac:(lia)).
  assert (L : a / 2 ^ s < b / 2 ^ s) by lia.
  destruct (Z_lt_le_dec a b) as [|C]; [auto|]. pose proof (Z.div_le_mono b a (2 ^ s) P C). lia.
Qed.

Lemma first_bit a b : 0 <= a < b -> exists c, 0 <= c /\ Z.testbit a c = false /\ Z.testbit b c = true /\
  forall s, c < s -> Z.testbit a s = Z.testbit b s.
Proof.
  intros H. set (x := Z.lxor a b). assert (X0 : 0 <= x) by (apply Z.lxor_nonneg; lia).
  assert (X : 0 < x) by (destruct (Z.eq_dec x 0) as [E|]; [apply Z.lxor_eq in E; lia|lia]).
  pose proof (Z.bit_log2 x X) as T. set (c := Z.log2 x) in *. assert (C : 0 <= c) by apply Z.log2_nonneg.
  assert (U : forall s, c < s -> Z.testbit a s = Z.testbit b s).
  { intros s Hs. pose proof (Z.bits_above_log2 x s X0 Hs) as F. unfold x in F. rewrite Z.lxor_spec in F.
    destruct (Z.testbit a s), (Z.testbit b s); auto; discriminate. }
  unfold x in T. rewrite Z.lxor_spec in T. exists c. split; [auto|].
  destruct (Z.testbit a c) eqn:A, (Z.testbit b c) eqn:B; try discriminate.
  - assert (b < a); [|lia]. apply (lt_bits b a c); auto. intros s Hs. symmetry. auto.
  - auto.
Qed.

Lemma add_bits a b n s : 0 <= n -> 0 <= a < 2 ^ n -> 0 <= s ->
  Z.testbit (a + Z.shiftl b n) s = if s <? n then Z.testbit a s else Z.testbit b (s - n).
Proof.
  intros Hn Ha Hs.
  assert (E : a + Z.shiftl b n = Z.lor a (Z.shiftl b n)).
  { rewrite <- Z.lxor_lor, Z.add_nocarry_lxor; auto.
    all: apply Z.bits_inj'; intros i Hi; rewrite Z.land_spec, Z.bits_0, Z.shiftl_spec by lia.
    all: destruct (Z_lt_le_dec i n) as [L|L]; [rewrite (Z.testbit_neg_r b) by lia; apply andb_false_r|].
    all: rewrite (proj1 (bits_below a n Hn (proj1 Ha))); [reflexivity|lia|lia]. }
  rewrite E, Z.lor_spec, Z.shiftl_spec by lia. destruct (s <? n) eqn:C.
  - rewrite (Z.testbit_neg_r b) by lia. apply orb_false_r.
  - rewrite (proj1 (bits_below a n Hn (proj1 Ha))) by lia. reflexivity.
Qed.

Lemma one_bit j s : 0 <= j -> 0 <= s -> Z.testbit (Z.shiftl 1 j) s = (s =? j).
Proof.
  intros Hj Hs. rewrite Z.shiftl_spec by lia. destruct (s =? j) eqn:E.
  - replace (s - j) with 0 by lia. reflexivity.
  - destruct (Z_lt_le_dec s j); [apply Z.testbit_neg_r; lia|]. apply (Z.bits_above_log2 1); cbn; lia.
Qed.

(** ** gather and spread *)

Lemma gather_bit w id ti : 0 < w -> 0 <= id -> forall n, 0 <= n -> forall b, 0 <= b ->
  Z.testbit (gather w id ti n) b = (b <? n) && Z.testbit ti (w * b + id).
Proof.
  intros Hw Hi n Hn. pattern n. apply natlike_ind; [| |exact Hn].
  - intros b Hb. replace (b <? 0) with false by lia. cbn. apply Z.bits_0.
  - clear n Hn. intros n Hn IH b Hb. unfold gather, Z.succ in *. rewrite upto_S, fold_left_app by lia. cbn [fold_left].
    rewrite Z.lor_spec, IH by lia. rewrite Z.shiftr_spec, Z.land_spec by lia.
    assert (Pn : 0 <= w * n) by (apply Z.mul_nonneg_nonneg; lia). assert (Qn : 0 <= (w - 1) * n) by (apply Z.mul_nonneg_nonneg; lia).
    rewrite one_bit by lia. destruct (Z.eq_dec b n) as [->|N].
    + replace (n <? n) with false by lia. replace (n <? n + 1) with true by lia. replace (n + ((w - 1) * n + id)) with (w * n + id) by ring.
      rewrite Z.eqb_refl, andb_true_r. reflexivity.
    + replace (b + ((w - 1) * n + id) =? w * n + id) with false by nia. rewrite andb_false_r, orb_false_r. f_equal. lia.
Qed.
Lemma gather_nonneg w id ti : 0 < w -> 0 <= id -> forall n, 0 <= n -> 0 <= gather w id ti n.
Proof.
  intros Hw Hi n Hn. apply Z.bits_iff_nonneg_ex. exists n. intros s Hs. rewrite gather_bit by lia. replace (s <? n) with false by lia. reflexivity.
Qed.
Lemma gather_below w id ti n : 0 < w -> 0 <= id -> 0 <= n -> 0 <= gather w id ti n < 2 ^ n.
Proof.
  intros Hw Hi Hn. pose proof (gather_nonneg w id ti Hw Hi n Hn). split; [auto|]. apply bits_below; auto.
  intros s Hs. rewrite gather_bit by lia. replace (s <? n) with false by lia. reflexivity.
Qed.

Definition placed (w : Z) (id : Z -> Z) (tx : xyz) (n s k : Z) : bool :=
  (0 <=? id k) && existsb (fun j => (s =? w * j + id k) && Z.testbit (cg tx k) j) (upto n).
Lemma spread_bit w id tx ti : 0 < w -> forall n, 0 <= n -> forall s, 0 <= s ->
  Z.testbit (spread w id tx n ti) s = Z.testbit ti s || placed w id tx n s 0 || placed w id tx n s 1 || placed w id tx n s 2.
Proof.
  intros Hw n Hn. pattern n. apply natlike_ind; [| |exact Hn].
  - intros s Hs. unfold placed. rewrite upto_0 by lia. cbn [existsb]. rewrite !andb_false_r, !orb_false_r. reflexivity.
  - clear n Hn. intros n Hn IH s Hs. unfold spread, Z.succ in *. rewrite upto_S, fold_left_app by lia. cbn [fold_left].
    set (t0 := fold_left _ (upto n) ti) in *. change (upto 3) with [0; 1; 2]. cbn [fold_left].
    assert (STEP : forall t k, Z.testbit (if 0 <=? id k then Z.lor t (Z.shiftl (Z.land (cg tx k) (Z.shiftl 1 n)) ((w - 1) * n + id k)) else t) s =
      Z.testbit t s || ((0 <=? id k) && ((s =? w * n + id k) && Z.testbit (cg tx k) n))).
    { intros t k. destruct (0 <=? id k) eqn:K; [|rewrite orb_false_r; reflexivity]. rewrite Z.lor_spec, Z.shiftl_spec, Z.land_spec by lia. f_equal.
      cbn [andb]. destruct (Z_lt_le_dec (s - ((w - 1) * n + id k)) 0) as [L|L].
      - rewrite Z.testbit_neg_r by lia. replace (s =? w * n + id k) with false by lia. reflexivity.
      - rewrite one_bit by lia. replace (s - ((w - 1) * n + id k) =? n) with (s =? w * n + id k) by lia.
        destruct (s =? w * n + id k) eqn:E; [|apply andb_false_r]. replace (s - ((w - 1) * n + id k)) with n by lia. rewrite andb_true_r. reflexivity. }
    assert (PL : forall k, placed w id tx (n + 1) s k = placed w id tx n s k || ((0 <=? id k) && ((s =? w * n + id k) && Z.testbit (cg tx k) n))).
    { intros k. unfold placed. rewrite upto_S, existsb_app by lia. cbn [existsb]. rewrite orb_false_r. destruct (0 <=? id k); reflexivity. }
    rewrite !STEP, IH, !PL by lia.
    generalize (placed w id tx n s 0) (placed w id tx n s 1) (placed w id tx n s 2).
    generalize ((0 <=? id 0) && ((s =? w * n + id 0) && Z.testbit (cg tx 0) n)) ((0 <=? id 1) && ((s =? w * n + id 1) && Z.testbit (cg tx 1) n)) ((0 <=? id 2) && ((s =? w * n + id 2) && Z.testbit (cg tx 2) n)).
    intros a b c a' b' c'. destruct (Z.testbit ti s), a, b, c, a', b', c'; reflexivity.
Qed.

(** the values of idx: below w, and different for different directions *)
Definition id_ok (w : Z) (id : Z -> Z) : Prop :=
  forall k k', 0 <= k < 3 -> 0 <= k' < 3 -> id k < w /\ (0 <= id k -> id k = id k' -> k = k').
Lemma spread_at w id tx n ti k b : 0 < w -> 0 <= b < n -> 0 <= k < 3 -> id_ok w id -> 0 <= id k ->
  Z.testbit (spread w id tx n (Z.shiftl ti (w * n))) (w * b + id k) = Z.testbit (cg tx k) b.
Proof.
  intros Hw Hb Hk OK Hi. assert (P : 0 <= w * b) by (apply Z.mul_nonneg_nonneg; lia). rewrite spread_bit by lia.
  destruct (OK k k Hk Hk) as (U & _).
  rewrite Z.shiftl_spec_low by nia. cbn [orb].
  assert (PL : forall k', 0 <= k' < 3 -> placed w id tx n (w * b + id k) k' = (k' =? k) && Z.testbit (cg tx k) b).
  { intros k' Hk'. unfold placed. destruct (k' =? k) eqn:E.
    - assert (k' = k) by lia. subst k'. replace (0 <=? id k) with true by lia. cbn [andb].
      apply eq_true_iff_eq. rewrite existsb_exists. split.
      + intros (j & J & T). apply in_upto in J. assert (j = b) by nia. subst. destruct (Z.testbit (cg tx k) b); [auto|lia].
      + intros T. exists b. split; [apply in_upto; lia|]. rewrite T. lia.
    - cbn [andb]. apply andb_false_iff. destruct (0 <=? id k') eqn:I; [right|auto].
      destruct (existsb _ _) eqn:X; [|auto]. apply existsb_exists in X. destruct X as (j & J & T). apply in_upto in J.
      destruct (OK k' k Hk' Hk) as (U' & V). assert (id k' = id k) by (assert (j = b) by nia; subst; lia). specialize (V ltac:(lia) ltac:(lia)). lia. }
  rewrite !PL by lia. assert (C : k = 0 \/ k = 1 \/ k = 2) by lia. destruct C as [->|[->| ->]]; cbn [Z.eqb Pos.eqb andb orb]; rewrite ?orb_false_r; reflexivity.
Qed.
Lemma spread_high w id tx n ti s : 0 < w -> 0 <= n -> id_ok w id -> w * n <= s ->
  Z.testbit (spread w id tx n (Z.shiftl ti (w * n))) s = Z.testbit ti (s - w * n).
Proof.
  intros Hw Hn OK Hs. assert (P : 0 <= w * n) by (apply Z.mul_nonneg_nonneg; lia). rewrite spread_bit by lia. rewrite Z.shiftl_spec by lia.
  assert (PL : forall k', 0 <= k' < 3 -> placed w id tx n s k' = false).
  { intros k' Hk'. unfold placed. apply andb_false_iff. destruct (existsb _ _) eqn:X; [|auto]. apply existsb_exists in X. destruct X as (j & J & T).
    apply in_upto in J. destruct (OK k' k' Hk' Hk') as (U' & V). nia. }
  rewrite !PL by lia. rewrite !orb_false_r. reflexivity.
Qed.
Lemma spread_nonneg w id tx n ti : 0 < w -> 0 <= n -> 0 <= ti -> 0 <= cg tx 0 -> 0 <= cg tx 1 -> 0 <= cg tx 2 -> 0 <= spread w id tx n ti.
Proof.
  intros Hw Hn Ht. intros. revert Ht. unfold spread. generalize (upto n) as l. intros l. assert (G : forall t, 0 <= t -> 0 <= fold_left (fun t j =>
     fold_left (fun t k => if 0 <=? id k then Z.lor t (Z.shiftl (Z.land (cg tx k) (Z.shiftl 1 j)) ((w - 1) * j + id k)) else t) (upto 3) t) l t); [|apply G].
  induction l as [|j l IH]; intros t Ht; cbn [fold_left]; [auto|]. apply IH. change (upto 3) with [0; 1; 2]. cbn [fold_left].
  assert (S : forall t k, 0 <= t -> 0 <= cg tx k -> 0 <= (if 0 <=? id k then Z.lor t (Z.shiftl (Z.land (cg tx k) (Z.shiftl 1 j)) ((w - 1) * j + id k)) else t)).
  { intros t' k A B. destruct (0 <=? id k); [|auto]. apply Z.lor_nonneg. split; [auto|]. apply Z.shiftl_nonneg. apply Z.land_nonneg. auto. }
  apply S; [|auto]. apply S; [|auto]. apply S; auto.
Qed.

(** ** The place of every bit *)

(** rankx sorts the directions by logx *)
Definition sorted (d : dim) (lg rk : xyz) : Prop :=
  match d with
  | D2 => (rk = (0, 1, 2) \/ rk = (1, 0, 2)) /\ 0 <= cg lg (cg rk 0) <= cg lg (cg rk 1) /\ cg lg 2 = 0
  | D3 => (rk = (0, 1, 2) \/ rk = (0, 2, 1) \/ rk = (1, 0, 2) \/ rk = (1, 2, 0) \/ rk = (2, 0, 1) \/ rk = (2, 1, 0)) /\
          0 <= cg lg (cg rk 0) <= cg lg (cg rk 1) /\ cg lg (cg rk 1) <= cg lg (cg rk 2)
  end.
Lemma log2_32_range x : -1 <= log2_32 x.
Proof. unfold log2_32. destruct (x <=? 0); [lia|]. pose proof (Z.log2_nonneg x). lia. Qed.
Lemma ranks_sorted d m n p : (d = D2 -> p = 1) -> sorted d (logs m n p) (ranks d (logs m n p)).
Proof.
  intros P. unfold ranks, logs. pose proof (log2_32_range (m - 1)). pose proof (log2_32_range (n - 1)). pose proof (log2_32_range (p - 1)).
  assert (P' : d = D2 -> log2_32 (p - 1) + 1 = 0) by (intros E; rewrite (P E); reflexivity).
  set (a := log2_32 (m - 1) + 1) in *. set (b := log2_32 (n - 1) + 1) in *. set (c := log2_32 (p - 1) + 1) in *.
  assert (0 <= a /\ 0 <= b /\ 0 <= c) by lia. clearbody a b c. clear P.
  destruct (a <=? b) eqn:E.
  - destruct d; cbn [is3 sorted].
    + specialize (P' eq_refl). cbn [cg Z.eqb Pos.eqb]. split; [auto|lia].
    + destruct (c <? cg (a, b, c) 0) eqn:E1; [|destruct (cg (a, b, c) 1 <=? c) eqn:E2]; cbn [cg Z.eqb Pos.eqb] in *; split; [auto 8|lia|auto 8|lia|auto 8|lia].
  - destruct d; cbn [is3 sorted].
    + specialize (P' eq_refl). cbn [cg Z.eqb Pos.eqb]. split; [auto|lia].
    + destruct (c <? cg (a, b, c) 1) eqn:E1; [|destruct (cg (a, b, c) 0 <=? c) eqn:E2]; cbn [cg Z.eqb Pos.eqb] in *; split; [auto 8|lia|auto 8|lia|auto 8|lia].
Qed.

Definition pos (d : dim) (lg rk : xyz) (k b : Z) : Z :=
  let L0 := cg lg (cg rk 0) in let L1 := cg lg (cg rk 1) in
  match d with
  | D2 => if b <? L0 then 2 * b + idx d rk 0 k else 2 * L0 + (b - L0)
  | D3 => if b <? L0 then 3 * b + idx d rk 0 k
          else if b <? L1 then 3 * L0 + (2 * (b - L0) + idx d rk 1 k)
          else 3 * L0 + (2 * (L1 - L0) + (b - L1))
  end.
Definition pres (d : dim) (lg rk : xyz) (k b : Z) : bool :=
  let L0 := cg lg (cg rk 0) in let L1 := cg lg (cg rk 1) in
  match d with
  | D2 => (b <? L0) && (k <? 2) || (k =? cg rk 1)
  | D3 => (b <? L0) || ((b <? L1) && negb (k =? cg rk 0)) || (k =? cg rk 2)
  end.

Lemma idx2 rk : rk = (0, 1, 2) \/ rk = (1, 0, 2) -> idx D2 rk 0 0 = 0 /\ idx D2 rk 0 1 = 1 /\ idx D2 rk 0 2 = -1.
Proof. intros [-> | ->]; vm_compute; auto. Qed.
Lemma idx3 rk : rk = (0, 1, 2) \/ rk = (0, 2, 1) \/ rk = (1, 0, 2) \/ rk = (1, 2, 0) \/ rk = (2, 0, 1) \/ rk = (2, 1, 0) ->
  idx D3 rk 0 0 = 0 /\ idx D3 rk 0 1 = 1 /\ idx D3 rk 0 2 = 2 /\
  idx D3 rk 1 0 = (if cg rk 0 =? 0 then -1 else 0) /\ idx D3 rk 1 1 = (if cg rk 0 =? 1 then -1 else if cg rk 0 =? 0 then 0 else 1) /\
  idx D3 rk 1 2 = (if cg rk 0 =? 2 then -1 else 1).
Proof. intros [->|[->|[->|[->|[-> | ->]]]]]; vm_compute; repeat split. Qed.

Ltac kcases k H := assert (k = 0 \/ k = 1 \/ k = 2) as [->|[->| ->]] by (clear - H; lia).
Lemma id_ok2 rk : rk = (0, 1, 2) \/ rk = (1, 0, 2) -> id_ok 2 (idx D2 rk 0).
Proof.
  intros H. destruct (idx2 rk H) as (E0 & E1 & E2). intros k k' Hk Hk'. kcases k Hk; kcases k' Hk'; rewrite ?E0, ?E1, ?E2; lia.
Qed.
Lemma id_ok30 rk : rk = (0, 1, 2) \/ rk = (0, 2, 1) \/ rk = (1, 0, 2) \/ rk = (1, 2, 0) \/ rk = (2, 0, 1) \/ rk = (2, 1, 0) -> id_ok 3 (idx D3 rk 0).
Proof.
  intros H. destruct (idx3 rk H) as (E0 & E1 & E2 & _). intros k k' Hk Hk'. kcases k Hk; kcases k' Hk'; rewrite ?E0, ?E1, ?E2; lia.
Qed.
Lemma id_ok31 rk : rk = (0, 1, 2) \/ rk = (0, 2, 1) \/ rk = (1, 0, 2) \/ rk = (1, 2, 0) \/ rk = (2, 0, 1) \/ rk = (2, 1, 0) -> id_ok 2 (idx D3 rk 1).
Proof.
  intros H. destruct (idx3 rk H) as (_ & _ & _ & E0 & E1 & E2). intros k k' Hk Hk'.
  destruct H as [->|[->|[->|[->|[-> | ->]]]]]; cbn [cg Z.eqb Pos.eqb] in E0, E1, E2; kcases k Hk; kcases k' Hk'; rewrite ?E0, ?E1, ?E2; lia.
Qed.

Ltac ifs := repeat match goal with |- context [if ?b <? ?a then _ else _] => let E := fresh in destruct (b <? a) eqn:E end.
Section Pos.
  Variables (d : dim) (lg rk : xyz).
  Hypothesis SO : sorted d lg rk.
  Definition total : Z := cg lg 0 + cg lg 1 + cg lg 2.

  Lemma pos_facts k b k' b' : 0 <= k < 3 -> 0 <= k' < 3 -> 0 <= b -> 0 <= b' -> pres d lg rk k b = true -> pres d lg rk k' b' = true ->
    0 <= pos d lg rk k b /\ (pos d lg rk k b = pos d lg rk k' b' -> k = k' /\ b = b') /\
    (k = k' -> b < b' -> pos d lg rk k b < pos d lg rk k' b') /\
    (b < cg lg k <-> pos d lg rk k b < total).
  Proof.
    intros Hk Hk' Hb Hb'. unfold pres, pos, total. destruct d; cbn [sorted] in SO.
    - destruct SO as (R & L & Z2). destruct (idx2 rk R) as (E0 & E1 & E2).
      clear SO. destruct R as [-> | ->]; cbn [cg Z.eqb Pos.eqb] in *; destruct lg as ((a & b0) & c); cbn [cg Z.eqb Pos.eqb] in *;
      kcases k Hk; kcases k' Hk'; cbn [cg Z.eqb Pos.eqb] in *; rewrite ?E0, ?E1, ?E2; clear E0 E1 E2; ifs; lia.
    - destruct SO as (R & L & L2). destruct (idx3 rk R) as (E0 & E1 & E2 & E3 & E4 & E5).
      clear SO. destruct R as [->|[->|[->|[->|[-> | ->]]]]]; cbn [cg Z.eqb Pos.eqb] in *; destruct lg as ((a & b0) & c); cbn [cg Z.eqb Pos.eqb] in *;
      kcases k Hk; kcases k' Hk'; cbn [cg Z.eqb Pos.eqb negb] in *; rewrite ?E0, ?E1, ?E2, ?E3, ?E4, ?E5; clear E0 E1 E2 E3 E4 E5; ifs; lia.
  Qed.
  Lemma pres_below k b : 0 <= k < 3 -> 0 <= b < cg lg k -> pres d lg rk k b = true.
  Proof.
    intros Hk Hb. unfold pres. destruct d; cbn [sorted] in SO.
    - destruct SO as (R & L & Z2). clear SO. destruct R as [-> | ->]; cbn [cg Z.eqb Pos.eqb] in *; kcases k Hk; lia.
    - destruct SO as (R & L & L2). clear SO. destruct R as [->|[->|[->|[->|[-> | ->]]]]]; cbn [cg Z.eqb Pos.eqb] in *; kcases k Hk; cbn [Z.eqb Pos.eqb negb]; lia.
  Qed.
  Lemma pos_onto s : 0 <= s -> exists k b, 0 <= k < 3 /\ 0 <= b /\ pres d lg rk k b = true /\ pos d lg rk k b = s.
  Proof.
    intros Hs. unfold pres, pos. destruct d; cbn [sorted] in SO.
    - destruct SO as (R & L & Z2). destruct (idx2 rk R) as (E0 & E1 & E2). clear SO. set (L0 := cg lg (cg rk 0)) in *. set (L1 := cg lg (cg rk 1)) in *.
      pose proof (Z.div_mod s 2 ltac:(lia)) as DM. pose proof (Z.mod_pos_bound s 2 ltac:(lia)) as MB.
      destruct (Z_lt_le_dec s (2 * L0)) as [C|C].
      + exists (s mod 2), (s / 2). assert (M : s mod 2 = 0 \/ s mod 2 = 1) by lia. replace (s / 2 <? L0) with true by lia.
        assert (X : idx D2 rk 0 (s mod 2) = s mod 2) by (destruct M as [-> | ->]; auto). rewrite X. lia.
      + exists (cg rk 1), (L0 + (s - 2 * L0)). replace (L0 + (s - 2 * L0) <? L0) with false by lia.
        assert (0 <= cg rk 1 < 3) by (destruct R as [-> | ->]; cbn; lia). rewrite Z.eqb_refl, orb_true_r. lia.
    - destruct SO as (R & L & L2). destruct (idx3 rk R) as (E0 & E1 & E2 & E3 & E4 & E5). clear SO.
      set (L0 := cg lg (cg rk 0)) in *. set (L1 := cg lg (cg rk 1)) in *.
      destruct (Z_lt_le_dec s (3 * L0)) as [C|C]; [|destruct (Z_lt_le_dec (s - 3 * L0) (2 * (L1 - L0))) as [C2|C2]].
      + pose proof (Z.div_mod s 3 ltac:(lia)) as DM. pose proof (Z.mod_pos_bound s 3 ltac:(lia)) as MB.
        exists (s mod 3), (s / 3). assert (M : s mod 3 = 0 \/ s mod 3 = 1 \/ s mod 3 = 2) by lia. replace (s / 3 <? L0) with true by lia.
        assert (X : idx D3 rk 0 (s mod 3) = s mod 3) by (destruct M as [->|[-> | ->]]; auto). rewrite X. cbn [orb]. lia.
      + set (t := s - 3 * L0) in *. pose proof (Z.div_mod t 2 ltac:(lia)) as DM. pose proof (Z.mod_pos_bound t 2 ltac:(lia)) as MB.
        assert (X : exists k, 0 <= k < 3 /\ idx D3 rk 1 k = t mod 2 /\ (k =? cg rk 0) = false).
        { assert (M : t mod 2 = 0 \/ t mod 2 = 1) by lia. clear - M R E3 E4 E5.
          destruct R as [->|[->|[->|[->|[-> | ->]]]]]; cbn [cg Z.eqb Pos.eqb] in *; destruct M as [-> | ->];
          (exists 0; rewrite ?E3; split; [lia|]; split; [reflexivity|reflexivity]) || (exists 1; rewrite ?E4; split; [lia|]; split; [reflexivity|reflexivity]) ||
          (exists 2; rewrite ?E5; split; [lia|]; split; [reflexivity|reflexivity]). }
        destruct X as (k & Hk & X & K). exists k, (L0 + t / 2). replace (L0 + t / 2 <? L0) with false by lia. replace (L0 + t / 2 <? L1) with true by lia.
        rewrite K, X. cbn [negb andb orb]. lia.
      + exists (cg rk 2), (L1 + (s - 3 * L0 - 2 * (L1 - L0))). replace (L1 + (s - 3 * L0 - 2 * (L1 - L0)) <? L0) with false by lia.
        replace (L1 + (s - 3 * L0 - 2 * (L1 - L0)) <? L1) with false by lia.
        assert (0 <= cg rk 2 < 3) by (destruct R as [->|[->|[->|[->|[-> | ->]]]]]; cbn; lia). rewrite Z.eqb_refl. cbn [orb]. lia.
  Qed.
End Pos.

(** ** The bits of both functions *)

Lemma cg_tab f k : 0 <= k < 3 -> cg (tabulate f) k = f k.
Proof. intros H. kcases k H; reflexivity. Qed.

Lemma below_add a b n t : 0 <= n <= t -> 0 <= a < 2 ^ n -> 0 <= b < 2 ^ (t - n) -> 0 <= a + Z.shiftl b n < 2 ^ t.
Proof.
  intros Hn Ha Hb. rewrite Z.shiftl_mul_pow2 by lia. replace t with ((t - n) + n) by lia. rewrite Z.pow_add_r by lia. nia.
Qed.
Lemma add3_bits a b c n t s : 0 <= n <= t -> 0 <= a < 2 ^ n -> 0 <= b < 2 ^ (t - n) -> 0 <= s ->
  Z.testbit (a + Z.shiftl b n + Z.shiftl c t) s = if s <? n then Z.testbit a s else if s <? t then Z.testbit b (s - n) else Z.testbit c (s - t).
Proof.
  intros Hn Ha Hb Hs. rewrite add_bits; [|lia|apply below_add; auto|lia]. destruct (s <? n) eqn:E.
  - replace (s <? t) with true by lia. rewrite add_bits by lia. rewrite E. reflexivity.
  - destruct (s <? t); [|reflexivity]. rewrite add_bits by lia. rewrite E. reflexivity.
Qed.

Lemma cg0 k : 0 <= k < 3 -> cg (0, 0, 0) k = 0.
Proof. intros H. kcases k H; reflexivity. Qed.

Section Bits.
  Variables (d : dim) (lg rk : xyz).
  Hypothesis SO : sorted d lg rk.

  Lemma l2x_bit ti k b : 0 <= k < 3 -> 0 <= b ->
    Z.testbit (cg (l2x d lg rk ti) k) b = pres d lg rk k b && Z.testbit ti (pos d lg rk k b).
  Proof.
    intros Hk Hb. unfold pres, pos, l2x. destruct d; cbn [sorted] in SO; cbn [nd].
    - destruct SO as (R & L & Z2). destruct (idx2 rk R) as (E0 & E1 & E2). change (upto (2 - 1)) with [0]. cbn [fold_left l2x_step].
      rewrite !Z.sub_0_r, !Z.add_0_l. cbn [nd]. change (2 - 1) with 1. rewrite !cg_tab by auto. 
      set (L0 := cg lg (cg rk 0)) in *. set (L1 := cg lg (cg rk 1)) in *. rewrite (Z.shiftl_0_r).
      set (A := if 0 <=? idx D2 rk 0 k then gather 2 (idx D2 rk 0 k) ti L0 else 0). 
      set (C := if k =? cg rk 1 then Z.shiftr ti (2 * L0) else 0).
      assert (HA : 0 <= A < 2 ^ L0) by (unfold A; match goal with |- context [if ?x then _ else _] => destruct x eqn:E end; [apply gather_below; lia|split; [lia|apply Z.pow_pos_nonneg; lia]]).
      replace (cg (0, 0, 0) k + A + (if k =? cg rk 1 then Z.shiftl (Z.shiftr ti (2 * L0)) L0 else 0)) with (A + Z.shiftl C L0)
        by (unfold C; rewrite (cg0 k Hk); destruct (k =? cg rk 1); rewrite ?Z.shiftl_0_l; lia).
      rewrite add_bits by lia. unfold A, C; clear A C HA. destruct (b <? L0) eqn:EB.
      + kcases k Hk; rewrite ?E0, ?E1, ?E2; cbn [Z.leb Z.compare].
        * rewrite gather_bit by lia. rewrite EB. reflexivity.
        * rewrite gather_bit by lia. rewrite EB. reflexivity.
        * rewrite Z.bits_0. replace (2 =? cg rk 1) with false by (destruct R as [-> | ->]; reflexivity). reflexivity.
      + cbn [andb orb]. destruct (k =? cg rk 1); [|apply Z.bits_0]. rewrite Z.shiftr_spec by lia. cbn [andb]. f_equal. lia.
    - destruct SO as (R & L & L2). destruct (idx3 rk R) as (E0 & E1 & E2 & E3 & E4 & E5). change (upto (3 - 1)) with [0; 1]. cbn [fold_left l2x_step].
      rewrite !Z.sub_0_r, !Z.add_0_l. cbn [nd]. change (3 - 1) with 2. rewrite !cg_tab by auto. rewrite ?Z.sub_0_r.
      set (L0 := cg lg (cg rk 0)) in *. set (L1 := cg lg (cg rk 1)) in *. rewrite Z.shiftl_0_r. replace (L0 + (L1 - L0)) with L1 by lia.
      set (A := if 0 <=? idx D3 rk 0 k then gather 3 (idx D3 rk 0 k) ti L0 else 0).
      set (B := if 0 <=? idx D3 rk 1 k then gather 2 (idx D3 rk 1 k) (Z.shiftr ti (3 * L0)) (L1 - L0) else 0).
      set (C := if k =? cg rk 2 then Z.shiftr (Z.shiftr ti (3 * L0)) (2 * (L1 - L0)) else 0).
      assert (HA : 0 <= A < 2 ^ L0) by (unfold A; match goal with |- context [if ?x then _ else _] => destruct x eqn:E end; [apply gather_below; lia|split; [lia|apply Z.pow_pos_nonneg; lia]]).
      assert (HB : 0 <= B < 2 ^ (L1 - L0)) by (unfold B; destruct (0 <=? idx D3 rk 1 k) eqn:E; [apply gather_below; lia|split; [lia|apply Z.pow_pos_nonneg; lia]]).
      match goal with |- Z.testbit ?x b = _ => replace x with (A + Z.shiftl B L0 + Z.shiftl C L1) end.
      2:{ unfold B, C. rewrite (cg0 k Hk). destruct (k =? cg rk 2), (0 <=? idx D3 rk 1 k); rewrite ?Z.shiftl_0_l; lia. }
      rewrite add3_bits by lia. unfold A, B, C; clear A B C HA HB. destruct (b <? L0) eqn:EB; [|destruct (b <? L1) eqn:EB1].
      + cbn [orb andb]. kcases k Hk; rewrite ?E0, ?E1, ?E2; cbn [Z.leb Z.compare]; rewrite gather_bit by lia; rewrite EB; reflexivity.
      + cbn [orb andb].
        assert (X : k = cg rk 0 /\ idx D3 rk 1 k = -1 \/ (k =? cg rk 0) = false /\ 0 <= idx D3 rk 1 k).
        { clear - Hk R E3 E4 E5. destruct R as [->|[->|[->|[->|[-> | ->]]]]]; cbn [cg Z.eqb Pos.eqb] in *; kcases k Hk; rewrite ?E3, ?E4, ?E5; cbn [Z.eqb Pos.eqb]; lia. }
        destruct X as [(X1 & X2)|(X1 & X2)].
        * rewrite X2. cbn [Z.leb Z.compare]. rewrite Z.bits_0. rewrite X1, Z.eqb_refl. cbn [negb orb].
          replace (cg rk 0 =? cg rk 2) with false by (destruct R as [->|[->|[->|[->|[-> | ->]]]]]; reflexivity). reflexivity.
        * replace (0 <=? idx D3 rk 1 k) with true by lia. rewrite gather_bit by lia. replace (b - L0 <? L1 - L0) with true by lia.
          rewrite Z.shiftr_spec by lia. rewrite X1. cbn [negb orb andb]. f_equal. lia.
      + cbn [orb andb]. destruct (k =? cg rk 2); [|apply Z.bits_0]. rewrite !Z.shiftr_spec by lia. cbn [andb]. f_equal. lia.
  Qed.

  Lemma x2l_bit tx k b : 0 <= k < 3 -> 0 <= b -> pres d lg rk k b = true ->
    Z.testbit (x2l d lg rk tx) (pos d lg rk k b) = Z.testbit (cg tx k) b.
  Proof.
    intros Hk Hb. unfold pres, pos, x2l. destruct d; cbn [sorted] in SO; cbn [nd].
    - destruct SO as (R & L & Z2). destruct (idx2 rk R) as (E0 & E1 & E2). pose proof (id_ok2 rk R) as OK.
      change (2 - 2) with 0. change (2 - 1) with 1. change (rev (upto 1)) with [0]. cbn [fold_left x2l_step fst Z.eqb]. cbn [nd]. rewrite Z.sub_diag, !Z.sub_0_r.
      set (L0 := cg lg (cg rk 0)) in *. set (L1 := cg lg (cg rk 1)) in *. destruct (b <? L0) eqn:EB; cbn [andb orb].
      + intros P. assert (K : k < 2) by (clear - P R Hk; destruct R as [-> | ->]; cbn [cg Z.eqb Pos.eqb] in P; lia).
        rewrite spread_at; [rewrite cg_tab by auto; rewrite Z.shiftr_0_r; reflexivity|lia|lia|auto|auto|].
        kcases k Hk; lia.
      + intros P. assert (K : k = cg rk 1) by lia. rewrite spread_high by lia || auto. rewrite Z.shiftr_spec by lia. rewrite K. f_equal. lia.
    - destruct SO as (R & L & L2). destruct (idx3 rk R) as (E0 & E1 & E2 & E3 & E4 & E5). pose proof (id_ok30 rk R) as OK0. pose proof (id_ok31 rk R) as OK1.
      change (3 - 2) with 1. change (3 - 1) with 2. change (rev (upto 2)) with [1; 0]. cbn [fold_left x2l_step fst Z.eqb]. cbn [nd]. change (1 - 1) with 0. rewrite !Z.sub_0_r.
      change (3 - 1) with 2.
      set (L0 := cg lg (cg rk 0)) in *. set (L1 := cg lg (cg rk 1)) in *. replace (L1 - (L1 - L0)) with L0 by lia. rewrite Z.sub_diag.
      destruct (b <? L0) eqn:EB; [|destruct (b <? L1) eqn:EB1]; cbn [andb orb].
      + intros _. rewrite spread_at; [rewrite cg_tab by auto; rewrite Z.shiftr_0_r; reflexivity|lia|lia|auto|auto|]. kcases k Hk; lia.
      + intros P. 
        assert (K : 0 <= idx D3 rk 1 k). { clear - P Hk R E3 E4 E5. destruct R as [->|[->|[->|[->|[-> | ->]]]]]; cbn [cg Z.eqb Pos.eqb] in *; kcases k Hk; rewrite ?E3, ?E4, ?E5; cbn [Z.eqb Pos.eqb] in P; try discriminate P; lia. }
        rewrite spread_high; [|lia|lia|auto|lia]. replace (3 * L0 + (2 * (b - L0) + idx D3 rk 1 k) - 3 * L0) with (2 * (b - L0) + idx D3 rk 1 k) by lia.
        rewrite spread_at; [rewrite cg_tab by auto; rewrite Z.shiftr_spec by lia; f_equal; lia|lia|lia|auto|auto|auto].
      + intros P. assert (K : k = cg rk 2) by lia. rewrite spread_high; [|lia|lia|auto|lia]. rewrite spread_high; [|lia|lia|auto|lia].
        rewrite Z.shiftr_spec by lia. rewrite K. f_equal. lia.
  Qed.

  Definition boxed (tx : xyz) : Prop := forall k, 0 <= k < 3 -> 0 <= cg tx k < 2 ^ cg lg k.

  Lemma x2l_nonneg tx : (forall k, 0 <= k < 3 -> 0 <= cg tx k) -> 0 <= x2l d lg rk tx.
  Proof.
    intros H. unfold x2l. 
    assert (N : forall n, 0 <= cg (tabulate (fun k => Z.shiftr (cg tx k) n)) 0 /\ 0 <= cg (tabulate (fun k => Z.shiftr (cg tx k) n)) 1 /\ 0 <= cg (tabulate (fun k => Z.shiftr (cg tx k) n)) 2).
    { intros n. rewrite !cg_tab by lia. rewrite !Z.shiftr_nonneg. repeat split; apply H; lia. }
    destruct d; cbn [sorted] in SO; cbn [nd].
    - destruct SO as (R & L & Z2). change (2 - 2) with 0. change (2 - 1) with 1. change (rev (upto 1)) with [0]. cbn [fold_left x2l_step fst Z.eqb]. cbn [nd].
      apply spread_nonneg; try apply N; [lia|lia|]. rewrite Z.shiftl_nonneg, Z.shiftr_nonneg. apply H. destruct R as [-> | ->]; cbn; lia.
    - destruct SO as (R & L & L2). change (3 - 2) with 1. change (3 - 1) with 2. change (rev (upto 2)) with [1; 0]. cbn [fold_left x2l_step fst Z.eqb]. cbn [nd]. change (1 - 1) with 0.
      apply spread_nonneg; try apply N; [lia|lia|]. apply Z.shiftl_nonneg. apply spread_nonneg; try apply N; [lia|lia|].
      rewrite Z.shiftl_nonneg, Z.shiftr_nonneg. apply H. destruct R as [->|[->|[->|[->|[-> | ->]]]]]; cbn; lia.
  Qed.

  Lemma lg_nonneg k : 0 <= k < 3 -> 0 <= cg lg k.
  Proof.
    intros Hk. destruct d; cbn [sorted] in SO.
    - destruct SO as (R & L & Z2). destruct R as [-> | ->]; cbn [cg Z.eqb Pos.eqb] in *; kcases k Hk; lia.
    - destruct SO as (R & L & L2). destruct R as [->|[->|[->|[->|[-> | ->]]]]]; cbn [cg Z.eqb Pos.eqb] in *; kcases k Hk; lia.
  Qed.
  Lemma total_nonneg : 0 <= total lg.
  Proof. unfold total. pose proof (lg_nonneg 0). pose proof (lg_nonneg 1). pose proof (lg_nonneg 2). lia. Qed.

  Lemma l2x_boxed ti : 0 <= ti < 2 ^ total lg -> boxed (l2x d lg rk ti).
  Proof.
    intros Ht k Hk. pose proof (lg_nonneg k Hk) as LN. pose proof total_nonneg as TN.
    assert (F : forall b, cg lg k <= b -> Z.testbit (cg (l2x d lg rk ti) k) b = false).
    { intros b Hb. rewrite l2x_bit by lia. destruct (pres d lg rk k b) eqn:P; [|reflexivity]. cbn [andb].
      destruct (pos_facts d lg rk SO k b k b) as (_ & _ & _ & X); try lia; auto. apply (proj1 (bits_below ti (total lg) TN (proj1 Ht))); lia. }
    assert (NN : 0 <= cg (l2x d lg rk ti) k) by (apply Z.bits_iff_nonneg_ex; exists (cg lg k); intros; apply F; lia).
    split; [auto|]. apply bits_below; auto.
  Qed.
  Lemma x2l_range tx : boxed tx -> 0 <= x2l d lg rk tx < 2 ^ total lg.
  Proof.
    intros B. assert (NN : 0 <= x2l d lg rk tx) by (apply x2l_nonneg; intros k Hk; apply (B k Hk)). split; [auto|]. pose proof total_nonneg as TN.
    apply bits_below; auto. intros s Hs. destruct (pos_onto d lg rk SO s ltac:(lia)) as (k & b & Hk & Hb & P & <-). rewrite x2l_bit by auto.
    destruct (pos_facts d lg rk SO k b k b) as (_ & _ & _ & X); try lia; auto. pose proof (lg_nonneg k Hk) as LN.
    apply (proj1 (bits_below (cg tx k) (cg lg k) LN ltac:(apply B; auto))); [apply B; auto|lia].
  Qed.
  Lemma x2l_l2x ti : 0 <= ti -> x2l d lg rk (l2x d lg rk ti) = ti.
  Proof.
    intros Ht. apply Z.bits_inj'. intros s Hs. destruct (pos_onto d lg rk SO s Hs) as (k & b & Hk & Hb & P & <-).
    rewrite x2l_bit, l2x_bit, P by auto. reflexivity.
  Qed.
  Lemma xyz_eq (x y : xyz) : (forall k, 0 <= k < 3 -> cg x k = cg y k) -> x = y.
  Proof.
    intros H. pose proof (H 0 ltac:(lia)). pose proof (H 1 ltac:(lia)). pose proof (H 2 ltac:(lia)).
    destruct x as ((a & b) & c), y as ((a' & b') & c'). cbn in *. congruence.
  Qed.
  Lemma l2x_x2l tx : boxed tx -> l2x d lg rk (x2l d lg rk tx) = tx.
  Proof.
    intros B. apply xyz_eq. intros k Hk. apply Z.bits_inj'. intros b Hb. rewrite l2x_bit by auto. destruct (pres d lg rk k b) eqn:P.
    - cbn [andb]. apply x2l_bit; auto.
    - pose proof (lg_nonneg k Hk) as LN. symmetry. apply (proj1 (bits_below (cg tx k) (cg lg k) LN ltac:(apply B; auto))); [apply B; auto|].
      destruct (Z_lt_le_dec b (cg lg k)) as [C|C]; [|auto]. rewrite pres_below in P by auto. discriminate.
  Qed.
  (** a smaller coordinate gives a smaller index *)
  Lemma x2l_mono x y k : boxed x -> boxed y -> 0 <= k < 3 -> cg x k < cg y k -> (forall k', 0 <= k' < 3 -> k' <> k -> cg x k' = cg y k') ->
    x2l d lg rk x < x2l d lg rk y.
  Proof.
    intros Bx By Hk L E. destruct (first_bit (cg x k) (cg y k)) as (c & Hc & X & Y & U); [split; [apply Bx; auto|auto]|].
    assert (P : pres d lg rk k c = true).
    { apply pres_below; auto. split; [auto|]. pose proof (lg_nonneg k Hk) as LN. destruct (Z_lt_le_dec c (cg lg k)) as [C|C]; [auto|].
      rewrite (proj1 (bits_below (cg y k) (cg lg k) LN ltac:(apply By; auto))) in Y; [discriminate|apply By; auto|auto]. }
    destruct (pos_facts d lg rk SO k c k c) as (P0 & _); try lia; auto.
    apply (lt_bits _ _ (pos d lg rk k c)); [auto|rewrite x2l_bit; auto|rewrite x2l_bit; auto|].
    intros s Hs. destruct (pos_onto d lg rk SO s ltac:(lia)) as (k' & b & Hk' & Hb & P' & <-). rewrite !x2l_bit by auto.
    destruct (Z.eq_dec k' k) as [->|N]; [|rewrite E; auto]. apply U.
    destruct (pos_facts d lg rk SO k b k c) as (_ & _ & M & _); try lia; auto.
    destruct (Z_lt_le_dec c b) as [|C]; [auto|]. destruct (Z.eq_dec b c) as [->|]; [lia|]. specialize (M eq_refl ltac:(lia)). lia.
  Qed.
End Bits.
