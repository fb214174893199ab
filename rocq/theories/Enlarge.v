(** * p4est_quadrant_enlarge_first and p4est_quadrant_enlarge_last *)

From Coq Require Import ZArith List Bool Lia Arith ZifyBool.
From Verif Require Import Quad Spec Morton ZBits Interval QuadLemmas CompareLemmas DescLemmas SearchLocal BalanceBasics.
Import ListNotations.
Open Scope Z_scope.

Lemma wf_div d q : wf d q -> (2 ^ (30 - ql q) | qx q) /\ (2 ^ (30 - ql q) | qy q) /\ (is3 d = true -> (2 ^ (30 - ql q) | qz q)).
Proof.
  intros (_ & (cx & X & _) & (cy & Y & _) & Z1). split; [exists cx; exact X|]. split; [exists cy; exact Y|]. intros E3.
  destruct d; [discriminate|]. destruct Z1 as (cz & Z1 & _). exists cz. exact Z1.
Qed.

Section E.
  Variable d : dim.

  Lemma ancestor_id_child q m : wf d q -> 0 < m <= ql q -> ancestor_id d q m = child_id d (ancestor d q m).
  Proof.
    intros W H. destruct (ancestor_wf d q m W ltac:(lia)) as (A & B & C). rewrite ancestor_id_dig by auto.
    unfold child_id. rewrite ancestor_id_dig by (auto; lia). rewrite C, B, Z.sub_diag, Z.mul_0_r, Z.div_1_r. reflexivity.
  Qed.

  Lemma first_level a w : forall n, 0 <= a <= Z.of_nat n -> let m := enlarge_first_level a w n in
    a <= m <= Z.of_nat n /\ (forall k, m < k <= Z.of_nat n -> Z.land w (QLEN k) = 0) /\ (m = a \/ a < m /\ Z.land w (QLEN m) <> 0).
  Proof.
    induction n as [|n IH]; intros H; cbn [enlarge_first_level]; cbv zeta.
    - split; [lia|]. split; [intros; lia|lia].
    - destruct ((a <? Z.of_nat (S n)) && (Z.land w (QLEN (Z.of_nat (S n))) =? 0)) eqn:E.
      + destruct (IH ltac:(lia)) as (A & B & C). split; [lia|]. split; [|exact C]. intros k Hk.
        destruct (Z.eq_dec k (Z.of_nat (S n))) as [->|]; [lia|apply B; lia].
      + split; [lia|]. split; [intros; lia|]. lia.
  Qed.

  Lemma last_level a w : forall n, 0 <= a <= Z.of_nat n -> let m := enlarge_last_level a w n in
    a <= m <= Z.of_nat n /\ (forall k, m < k <= Z.of_nat n -> Z.land w (QLEN k) <> 0) /\ (m = a \/ a < m /\ Z.land w (QLEN m) = 0).
  Proof.
    induction n as [|n IH]; intros H; cbn [enlarge_last_level]; cbv zeta.
    - split; [lia|]. split; [intros; lia|lia].
    - unfold nz. destruct ((a <? Z.of_nat (S n)) && negb (Z.land w (QLEN (Z.of_nat (S n))) =? 0)) eqn:E.
      + destruct (IH ltac:(lia)) as (A & B & C). split; [lia|]. split; [|exact C]. intros k Hk.
        destruct (Z.eq_dec k (Z.of_nat (S n))) as [->|]; [lia|apply B; lia].
      + split; [lia|]. split; [intros; lia|]. lia.
  Qed.

  (** a bit of a coordinate *)
  Lemma bit_land x k : 0 <= k <= 30 -> (Z.land x (QLEN k) = 0 <-> Z.testbit x (30 - k) = false).
  Proof.
    intros H. assert (E : QLEN k = 2 ^ (30 - k)) by (unfold QLEN, MAXLEVEL; rewrite Z.shiftl_1_l; reflexivity). rewrite E. split.
    - intros Z0. assert (T : Z.testbit (Z.land x (2 ^ (30 - k))) (30 - k) = false) by (rewrite Z0; apply Z.bits_0). rewrite Z.land_spec, Z.pow2_bits_true, andb_true_r in T by lia. exact T.
    - intros T. apply Z.bits_inj'. intros n Hn. rewrite Z.land_spec, Z.bits_0. destruct (Z.eq_dec n (30 - k)) as [->|N]; [rewrite T; reflexivity|]. rewrite Z.pow2_bits_false by lia. apply andb_false_r.
  Qed.

  Lemma id_first q k : wf d q -> 0 < k <= ql q ->
    (Z.land (Z.lor (Z.lor (qx q) (qy q)) (if is3 d then qz q else 0)) (QLEN k) = 0 <-> ancestor_id d q k = 0).
  Proof.
    intros W H. pose proof (wf_level d q W). rewrite bit_land by lia. rewrite !Z.lor_spec. unfold ancestor_id, nz. replace (k =? 0) with false by lia.
    assert (B : forall x, (Z.land x (QLEN k) =? 0) = negb (Z.testbit x (30 - k))).
    { intros x. pose proof (bit_land x k ltac:(lia)). destruct (Z.testbit x (30 - k)); cbn [negb]; [apply Z.eqb_neq; intros E; apply H1 in E; discriminate|apply Z.eqb_eq; tauto]. }
    rewrite !B. destruct (Z.testbit (qx q) (30 - k)), (Z.testbit (qy q) (30 - k)), d; cbn [is3 negb andb orb]; rewrite ?Z.bits_0; try (destruct (Z.testbit (qz q) (30 - k))); cbn; intuition discriminate.
  Qed.

  Lemma id_last q k : wf d q -> 0 < k <= ql q ->
    (Z.land (match d with D2 => Z.land (qx q) (qy q) | D3 => Z.land (Z.land (qx q) (qy q)) (qz q) end) (QLEN k) <> 0 <-> ancestor_id d q k = children d - 1).
  Proof.
    intros W H. pose proof (wf_level d q W). rewrite bit_land by lia. unfold ancestor_id, nz. replace (k =? 0) with false by lia.
    assert (B : forall x, (Z.land x (QLEN k) =? 0) = negb (Z.testbit x (30 - k))).
    { intros x. pose proof (bit_land x k ltac:(lia)). destruct (Z.testbit x (30 - k)); cbn [negb]; [apply Z.eqb_neq; intros E; apply H1 in E; discriminate|apply Z.eqb_eq; tauto]. }
    rewrite !B. destruct d; rewrite !Z.land_spec; destruct (Z.testbit (qx q) (30 - k)), (Z.testbit (qy q) (30 - k)); cbn [is3 negb andb orb]; try (destruct (Z.testbit (qz q) (30 - k))); cbn; intuition congruence.
  Qed.

  Lemma climb_first q : wf d q -> forall n m, Z.of_nat n = ql q - m -> 0 <= m -> (forall k, m < k <= ql q -> ancestor_id d q k = 0) -> qpos d (ancestor d q m) = qpos d q.
  Proof.
    intros W. induction n as [|n IH]; intros m E M H.
    - replace m with (ql q) by lia. rewrite ancestor_self; auto.
    - destruct (ancestor_wf d q (m + 1) W ltac:(lia)) as (A & B & _). rewrite <- (IH (m + 1) ltac:(lia) ltac:(lia)) by (intros; apply H; lia).
      replace (ancestor d q m) with (parent d (ancestor d q (m + 1))) by (rewrite ancestor_parent by (auto; lia); f_equal; lia).
      apply parent_first; [exact A|lia|]. rewrite <- ancestor_id_child by (auto; lia). apply H. lia.
  Qed.
  Lemma climb_last q : wf d q -> forall n m, Z.of_nat n = ql q - m -> 0 <= m -> (forall k, m < k <= ql q -> ancestor_id d q k = children d - 1) -> qend d (ancestor d q m) = qend d q.
  Proof.
    intros W. induction n as [|n IH]; intros m E M H.
    - replace m with (ql q) by lia. rewrite ancestor_self; auto.
    - destruct (ancestor_wf d q (m + 1) W ltac:(lia)) as (A & B & _). rewrite <- (IH (m + 1) ltac:(lia) ltac:(lia)) by (intros; apply H; lia).
      replace (ancestor d q m) with (parent d (ancestor d q (m + 1))) by (rewrite ancestor_parent by (auto; lia); f_equal; lia).
      apply parent_last; [exact A|lia|]. rewrite <- ancestor_id_child by (auto; lia). apply H. lia.
  Qed.

  (** clearing the bits between two levels *)
  Lemma mask_levels x l m : 0 <= m <= l -> l <= 29 -> (2 ^ (30 - l) | x) -> Z.land x (Z.lnot (QLEN m - QLEN l)) = Z.land x (Z.lnot (QLEN m - 1)).
  Proof.
    intros M L (c & X). assert (E : forall k, 0 <= k <= 30 -> QLEN k = 2 ^ (30 - k)) by (intros; unfold QLEN, MAXLEVEL; rewrite Z.shiftl_1_l; reflexivity).
    rewrite !E by lia. assert (EQ : 2 ^ (30 - m) - 2 ^ (30 - l) = Z.shiftl (Z.ones (l - m)) (30 - l)).
    { rewrite Z.shiftl_mul_pow2 by lia. rewrite Z.ones_equiv, <- Z.sub_1_r, Z.mul_sub_distr_r, <- Z.pow_add_r by lia. replace (l - m + (30 - l)) with (30 - m) by lia. lia. }
    assert (EO : 2 ^ (30 - m) - 1 = Z.ones (30 - m)) by (rewrite Z.ones_equiv; lia). rewrite EQ, EO.
    apply Z.bits_inj'. intros n Hn. rewrite !Z.land_spec, !Z.lnot_spec by lia. rewrite Z.shiftl_spec by lia.
    destruct (Z_lt_dec n (30 - l)) as [C|C].
    - rewrite X. rewrite Z.mul_pow2_bits_low by lia. reflexivity.
    - f_equal. f_equal. destruct (Z_lt_dec n (30 - m)) as [C2|C2]; [rewrite !Z.ones_spec_low by lia; reflexivity|rewrite !Z.ones_spec_high by lia; reflexivity].
  Qed.

  Theorem enlarge_first_spec : forall a q, wf d a -> wf d q -> qpos d a <= qpos d q -> qend d q <= qend d a ->
    let r := enlarge_first d a q in
    wf d r /\ qpos d r = qpos d q /\ qend d q <= qend d r /\ qend d r <= qend d a /\
    (forall w, wf d w -> qpos d w = qpos d q -> qend d w <= qend d a -> qend d w <= qend d r).
  Proof.
    intros a q Wa Wq I1 I2. cbv zeta. pose proof (wf_level d a Wa) as La. pose proof (wf_level d q Wq) as Lq.
    destruct (contains_unique d a q Wa Wq I1 I2) as (LE & EA). unfold enlarge_first.
    set (w := Z.lor (Z.lor (qx q) (qy q)) (if is3 d then qz q else 0)).
    destruct (first_level (ql a) w (Z.to_nat (ql q)) ltac:(lia)) as (M & Z0 & N). cbv zeta in *. set (m := enlarge_first_level (ql a) w (Z.to_nat (ql q))) in *.
    rewrite Z2Nat.id in * by lia.
    destruct (ancestor_wf d q m Wq ltac:(lia)) as (Am & Lm & _). pose proof (ancestor_contains d q m Wq ltac:(lia)) as Cm.
    assert (PM : qpos d (ancestor d q m) = qpos d q).
    { apply (climb_first q Wq (Z.to_nat (ql q - m))); [lia|lia|]. intros k Hk. apply id_first; [exact Wq|lia|]. apply Z0. lia. }
    assert (EM : mkq (qx q) (qy q) (qz q) m = ancestor d q m).
    { apply (same_coords d _ _ Am Wq) in PM. assert (qx (ancestor d q m) = qx q /\ qy (ancestor d q m) = qy q /\ qz (ancestor d q m) = qz q) as (X & Y & Z1).
      { destruct Am as (_ & _ & _ & Z1), Wq as (_ & _ & _ & Z2). destruct d; cbn [is3 negb orb] in *; lia. }
      destruct (ancestor d q m). cbn in *. congruence. }
    rewrite EM. split; [exact Am|]. split; [exact PM|]. split; [lia|]. pose proof (size_pos d q Wq).
    split; [apply (nested_pt d a (ancestor d q m) (qpos d q)); auto; lia|].
    intros v Wv Pv Ev. destruct (Z_le_gt_dec m (ql v)) as [C|C].
    - pose proof (size_pos d v Wv). apply (nested_pt d (ancestor d q m) v (qpos d q)); auto; lia.
    - exfalso. pose proof (size_pos d v Wv). destruct N as [N|(N & B)].
      + pose proof (inn_level d a v Wa Wv ltac:(lia)). lia.
      + apply B. apply id_first; [exact Wq|lia|]. rewrite ancestor_id_child by (auto; lia). apply parent_first; [exact Am|lia|].
        rewrite ancestor_parent by (auto; lia). destruct (ancestor_wf d q (m - 1) Wq ltac:(lia)) as (Ap & Lp & _). pose proof (ancestor_contains d q (m - 1) Wq ltac:(lia)) as Cp. pose proof (wf_level d v Wv).
        assert (qpos d v <= qpos d (ancestor d q (m - 1)) /\ qend d (ancestor d q (m - 1)) <= qend d v) by (apply (nested_pt d v (ancestor d q (m - 1)) (qpos d q)); auto; lia). lia.
  Qed.

  Theorem enlarge_last_spec : forall a q, wf d a -> wf d q -> qpos d a <= qpos d q -> qend d q <= qend d a ->
    let r := enlarge_last d a q in
    wf d r /\ qend d r = qend d q /\ qpos d r <= qpos d q /\ qpos d a <= qpos d r /\
    (forall w, wf d w -> qend d w = qend d q -> qpos d a <= qpos d w -> qpos d r <= qpos d w).
  Proof.
    intros a q Wa Wq I1 I2. cbv zeta. pose proof (wf_level d a Wa) as La. pose proof (wf_level d q Wq) as Lq.
    destruct (contains_unique d a q Wa Wq I1 I2) as (LE & EA). unfold enlarge_last.
    set (w := match d with D2 => Z.land (qx q) (qy q) | D3 => Z.land (Z.land (qx q) (qy q)) (qz q) end).
    destruct (last_level (ql a) w (Z.to_nat (ql q)) ltac:(lia)) as (M & Z0 & N). cbv zeta in *. set (m := enlarge_last_level (ql a) w (Z.to_nat (ql q))) in *.
    rewrite Z2Nat.id in * by lia.
    destruct (ancestor_wf d q m Wq ltac:(lia)) as (Am & Lm & _). pose proof (ancestor_contains d q m Wq ltac:(lia)) as Cm.
    assert (PM : qend d (ancestor d q m) = qend d q).
    { apply (climb_last q Wq (Z.to_nat (ql q - m))); [lia|lia|]. intros k Hk. apply id_last; [exact Wq|lia|]. apply Z0. lia. }
    assert (EM : mkq (Z.land (qx q) (Z.lnot (QLEN m - QLEN (ql q)))) (Z.land (qy q) (Z.lnot (QLEN m - QLEN (ql q)))) (if is3 d then Z.land (qz q) (Z.lnot (QLEN m - QLEN (ql q))) else qz q) m = ancestor d q m).
    { unfold ancestor. assert (DV : (2 ^ (30 - ql q) | qx q) /\ (2 ^ (30 - ql q) | qy q) /\ (is3 d = true -> (2 ^ (30 - ql q) | qz q))).
      { apply wf_div. exact Wq. }
      destruct DV as (DX & DY & DZ). rewrite !(mask_levels _ (ql q) m) by (auto; lia). destruct (is3 d); [rewrite (mask_levels _ (ql q) m) by (auto; lia)|]; reflexivity. }
    rewrite EM. split; [exact Am|]. split; [exact PM|]. split; [lia|]. pose proof (size_pos d q Wq).
    split; [apply (nested_pt d a (ancestor d q m) (qpos d q)); auto; lia|].
    intros v Wv Pv Ev. destruct (Z_le_gt_dec m (ql v)) as [C|C].
    - pose proof (size_pos d v Wv). apply (nested_pt d (ancestor d q m) v (qend d q - 1)); auto; lia.
    - exfalso. pose proof (size_pos d v Wv). destruct N as [N|(N & B)].
      + pose proof (inn_level d a v Wa Wv ltac:(lia)). lia.
      + assert (NB : Z.land w (QLEN m) <> 0); [|congruence]. apply id_last; [exact Wq|lia|]. rewrite ancestor_id_child by (auto; lia). apply parent_last; [exact Am|lia|].
        rewrite ancestor_parent by (auto; lia). destruct (ancestor_wf d q (m - 1) Wq ltac:(lia)) as (Ap & Lp & _). pose proof (ancestor_contains d q (m - 1) Wq ltac:(lia)) as Cp. pose proof (wf_level d v Wv).
        assert (qpos d v <= qpos d (ancestor d q (m - 1)) /\ qend d (ancestor d q (m - 1)) <= qend d v) by (apply (nested_pt d v (ancestor d q (m - 1)) (qend d q - 1)); auto; lia). lia.
  Qed.
End E.
