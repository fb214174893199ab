(** * Disjointness, descendants, nearest common ancestors *)

From Coq Require Import ZArith List Bool Lia ZifyBool.
From Verif Require Import Quad Spec Morton ZBits Interval QuadLemmas CompareLemmas IdLemmas.
Import ListNotations.
Open Scope Z_scope.

Lemma qsize_pos d q : wf d q -> 0 < qsize d q.
Proof. intros W. pose proof (wf_level d q W). rewrite qsize_psize. apply psize_pos; lia. Qed.

Lemma wf_qend d q : wf d q -> qend d q = (qidx d q + 1) * psize d (ql q).
Proof. intros W. unfold qend. rewrite wf_qpos, qsize_psize by auto. ring. Qed.

(** ** disjoint *)
Lemma disjoint_overlaps d q r :
  disjoint d q r = if overlaps d q r then 0 else compare d q r.
Proof.
  unfold disjoint, overlaps. cbv zeta.
  destruct (nz _ || nz _ || _); reflexivity.
Qed.

Lemma disjoint_iff d q r : wf d q -> wf d r ->
  (disjoint d q r < 0 <-> qend d q <= qpos d r) /\
  (disjoint d q r = 0 <-> qpos d q < qend d r /\ qpos d r < qend d q) /\
  (disjoint d q r > 0 <-> qend d r <= qpos d q).
Proof.
  intros Wq Wr. rewrite disjoint_overlaps.
  pose proof (qsize_pos d q Wq). pose proof (qsize_pos d r Wr).
  destruct (overlaps d q r) eqn:O.
  - apply overlap_iff in O; auto. unfold qend in *. lia.
  - assert (N : ~ (qpos d q < qend d r /\ qpos d r < qend d q)).
    { rewrite <- overlap_iff by auto. congruence. }
    destruct (compare_wf d q r Wq Wr) as (A & B & C).
    unfold qend in *. lia.
Qed.

(** ** descendants with all lower coordinate bits equal *)
Lemma mort_D2_z n : forall x y z z', mort D2 n x y z = mort D2 n x y z'.
Proof.
  induction n; intros; [reflexivity|]. cbn [mort].
  rewrite (IHn (x / 2) (y / 2) (z / 2) (z' / 2)). reflexivity.
Qed.

Lemma mort_ones d n : mort d n (2 ^ Z.of_nat n - 1) (2 ^ Z.of_nat n - 1) (2 ^ Z.of_nat n - 1)
  = 2 ^ (nd d * Z.of_nat n) - 1.
Proof.
  induction n.
  - destruct d; reflexivity.
  - cbn [mort]. rewrite pow_nd_S, pow2_S. pose proof (pow2_pos (Z.of_nat n)).
    replace (2 * 2 ^ Z.of_nat n - 1) with (2 * (2 ^ Z.of_nat n - 1) + b2z true) by (unfold b2z; lia).
    rewrite half_b2z, IHn, dig_b2z.
    destruct d; cbn [b2z]; [change (2 ^ nd D2) with 4|change (2 ^ nd D3) with 8]; lia.
Qed.

Lemma mort_0 d n : mort d n 0 0 0 = 0.
Proof. induction n; [reflexivity|]. cbn [mort]. change (0 / 2) with 0. rewrite IHn. destruct d; reflexivity. Qed.

Lemma first_descendant_wf d q m : wf d q -> ql q <= m <= 29 ->
  wf d (first_descendant d q m) /\ ql (first_descendant d q m) = m /\
  qidx d (first_descendant d q m) = qidx d q * 2 ^ (nd d * (m - ql q)) /\
  qpos d (first_descendant d q m) = qpos d q.
Proof.
  intros W L. pose proof (wf_level d q W).
  assert (P : qpos d (first_descendant d q m) = qpos d q) by reflexivity.
  assert (W' : wf d (first_descendant d q m)).
  { destruct (wf_elim d q W) as (X & Y & Z0 & Ex & Ey & Ez & HX & HY & HZ & HD & EI).
    unfold first_descendant. rewrite Ex, Ey, Ez.
    rewrite (side_split (ql q) m) by lia. rewrite !Z.mul_assoc.
    pose proof (pow2_pos (m - ql q)).
    assert (2 ^ m = 2 ^ ql q * 2 ^ (m - ql q)) by (rewrite <- Z.pow_add_r by lia; f_equal; lia).
    apply wf_intro; try nia. intros; rewrite HD by auto; lia. }
  split; [exact W'|]. split; [reflexivity|]. split; [|exact P].
  unfold qidx at 1. rewrite P. rewrite wf_qpos by auto. unfold qsize. cbn [first_descendant ql].
  fold (psize d m). rewrite (psize_split d (ql q) m) by lia.
  rewrite Z.mul_assoc. apply Z.div_mul. pose proof (psize_pos d m); lia.
Qed.

Lemma last_descendant_wf d q m : wf d q -> ql q <= m <= 29 ->
  wf d (last_descendant d q m) /\ ql (last_descendant d q m) = m /\
  qidx d (last_descendant d q m) = (qidx d q + 1) * 2 ^ (nd d * (m - ql q)) - 1 /\
  qend d (last_descendant d q m) = qend d q.
Proof.
  intros W L. pose proof (wf_level d q W).
  set (k := m - ql q).
  destruct (wf_elim d q W) as (X & Y & Z0 & Ex & Ey & Ez & HX & HY & HZ & HD & EI).
  pose proof (pow2_pos k ltac:(unfold k; lia)) as Pk.
  assert (Ss : side (ql q) = 2 ^ k * side m) by (apply side_split; lia).
  assert (P2 : 2 ^ m = 2 ^ ql q * 2 ^ k) by (rewrite <- Z.pow_add_r by lia; f_equal; lia).
  set (Z1 := match d with D2 => 0 | D3 => Z0 * 2 ^ k + (2 ^ k - 1) end).
  assert (E : last_descendant d q m =
     mkq ((X * 2 ^ k + (2 ^ k - 1)) * side m) ((Y * 2 ^ k + (2 ^ k - 1)) * side m) (Z1 * side m) m).
  { unfold last_descendant. rewrite !QLEN_side by lia. rewrite Ex, Ey, Ez, Ss.
    f_equal; try ring. unfold Z1. destruct d; cbn [is3]; [rewrite HD by auto|]; ring. }
  rewrite E.
  assert (R1 : 0 <= Z1 < 2 ^ m) by (unfold Z1; destruct d; nia).
  destruct (wf_intro d (X * 2 ^ k + (2 ^ k - 1)) (Y * 2 ^ k + (2 ^ k - 1)) Z1 m) as (A & B); try nia.
  { unfold Z1; intros ->; auto. }
  split; [exact A|]. split; [reflexivity|].
  assert (I : qidx d (mkq ((X * 2 ^ k + (2 ^ k - 1)) * side m) ((Y * 2 ^ k + (2 ^ k - 1)) * side m) (Z1 * side m) m)
    = (qidx d q + 1) * 2 ^ (nd d * k) - 1).
  { rewrite B, EI. replace (Z.to_nat m) with (Z.to_nat (ql q) + Z.to_nat k)%nat by (unfold k; lia).
    assert (Hk : Z.of_nat (Z.to_nat k) = k) by (unfold k; lia).
    transitivity (mort d (Z.to_nat (ql q) + Z.to_nat k) (X * 2 ^ k + (2 ^ k - 1)) (Y * 2 ^ k + (2 ^ k - 1))
       (Z0 * 2 ^ k + (2 ^ k - 1))).
    { destruct d; [apply mort_D2_z|reflexivity]. }
    rewrite <- Hk at 2 3 4 5 6 7. rewrite mort_block by (rewrite Hk; lia).
    rewrite mort_ones, Hk. ring. }
  split; [exact I|]. rewrite !wf_qend by auto. rewrite I. cbn [ql].
  rewrite (psize_split d (ql q) m) by lia. fold k. ring.
Qed.

(** ** nearest common ancestor *)
Lemma ancestor_self d q : wf d q -> ancestor d q (ql q) = q.
Proof. intros W. symmetry. apply contains_ancestor; auto; lia. Qed.

Lemma contains_unique d q r : wf d q -> wf d r ->
  qpos d q <= qpos d r -> qend d r <= qend d q -> ql q <= ql r /\ q = ancestor d r (ql q).
Proof.
  intros Wq Wr A B. pose proof (wf_level _ _ Wq). pose proof (wf_level _ _ Wr).
  assert (L : ql q <= ql r).
  { destruct (Z_le_gt_dec (ql q) (ql r)); auto. exfalso.
    pose proof (psize_split d (ql r) (ql q) ltac:(lia)) as S.
    pose proof (psize_pos d (ql q) ltac:(lia)).
    assert (2 <= 2 ^ (nd d * (ql q - ql r))).
    { change 2 with (2 ^ 1) at 1. apply Z.pow_le_mono_r; [lia|]. pose proof (nd_pos d). nia. }
    unfold qend in *. rewrite !qsize_psize in *. nia. }
  split; auto. apply contains_ancestor; auto.
Qed.

Lemma LOG2_spec a k : 0 <= k -> 0 <= a -> (LOG2_32 a + 1 <= k <-> a / 2 ^ k = 0).
Proof.
  intros Hk Ha. unfold LOG2_32. pose proof (pow2_pos k Hk).
  destruct (a =? 0) eqn:E.
  - assert (a = 0) by lia. subst. rewrite Z.div_0_l by lia. lia.
  - rewrite Z.div_small_iff by lia.
    assert (0 < a) by lia. pose proof (Z.log2_lt_pow2 a k H0). lia.
Qed.

Lemma lor_div a b k : 0 <= k -> (Z.lor a b / 2 ^ k = 0 <-> a / 2 ^ k = 0 /\ b / 2 ^ k = 0).
Proof.
  intros. rewrite <- !Z.shiftr_div_pow2 by lia. rewrite Z.shiftr_lor. apply Z.lor_eq_0_iff.
Qed.

Lemma lxor_div a b k : 0 <= k -> (Z.lxor a b / 2 ^ k = 0 <-> a / 2 ^ k = b / 2 ^ k).
Proof.
  intros. rewrite <- !Z.shiftr_div_pow2 by lia. rewrite Z.shiftr_lxor. apply Z.lxor_eq_0_iff.
Qed.

Definition nca_clor (d : dim) (q1 q2 : quad) : Z :=
  match d with
  | D2 => Z.lor (u32 (Z.lxor (qx q1) (qx q2))) (u32 (Z.lxor (qy q1) (qy q2)))
  | D3 => Z.lor (Z.lor (u32 (Z.lxor (qx q1) (qx q2))) (u32 (Z.lxor (qy q1) (qy q2))))
                (u32 (Z.lxor (qz q1) (qz q2)))
  end.

Lemma clor_spec d q1 q2 k : wf d q1 -> wf d q2 -> 0 <= k ->
  (LOG2_32 (nca_clor d q1 q2) + 1 <= k <->
   qx q1 / 2 ^ k = qx q2 / 2 ^ k /\ qy q1 / 2 ^ k = qy q2 / 2 ^ k /\ qz q1 / 2 ^ k = qz q2 / 2 ^ k).
Proof.
  intros W1 W2 Hk.
  destruct (wf_coord_range d q1 W1) as (A & B & C). destruct (wf_coord_range d q2 W2) as (A' & B' & C').
  pose proof (lxor_nonneg_lt (qx q1) (qx q2) 30 ltac:(lia) A A') as X.
  pose proof (lxor_nonneg_lt (qy q1) (qy q2) 30 ltac:(lia) B B') as Y.
  pose proof (lxor_nonneg_lt (qz q1) (qz q2) 30 ltac:(lia) C C') as Z0.
  unfold nca_clor. rewrite !u32_small by lia.
  assert (Zd : d = D2 -> qz q1 / 2 ^ k = qz q2 / 2 ^ k).
  { intros ->. destruct W1 as (_ & _ & _ & ->), W2 as (_ & _ & _ & ->). reflexivity. }
  rewrite LOG2_spec; auto.
  2:{ destruct d; rewrite ?Z.lor_nonneg; lia. }
  destruct d; rewrite !lor_div, !lxor_div by lia; tauto.
Qed.

(** the level of the nearest common ancestor *)
Definition nca_level (d : dim) (q1 q2 : quad) : Z :=
  Z.min (30 - (LOG2_32 (nca_clor d q1 q2) + 1)) (Z.min (ql q1) (ql q2)).

Lemma nca_level_spec d q1 q2 m : wf d q1 -> wf d q2 -> 0 <= m ->
  (m <= nca_level d q1 q2 <->
   m <= ql q1 /\ m <= ql q2 /\ ancestor d q1 m = ancestor d q2 m).
Proof.
  intros W1 W2 Hm. pose proof (wf_level _ _ W1). pose proof (wf_level _ _ W2).
  unfold nca_level.
  destruct (Z_le_gt_dec m (Z.min (ql q1) (ql q2))).
  - rewrite (coords_same_block d q1 q2 m) by (auto; lia). unfold side.
    rewrite <- (clor_spec d q1 q2 (30 - m)) by (auto; lia). lia.
  - split; intros; [lia|]. lia.
Qed.

Lemma nca_level_range d q1 q2 : wf d q1 -> wf d q2 ->
  0 <= nca_level d q1 q2 <= Z.min (ql q1) (ql q2).
Proof.
  intros W1 W2. split; [|unfold nca_level; lia].
  pose proof (wf_level _ _ W1). pose proof (wf_level _ _ W2).
  apply nca_level_spec; auto; try lia. split; [lia|]. split; [lia|].
  apply coords_same_block; auto; try lia.
  destruct (wf_coord_range d q1 W1) as (A & B & C). destruct (wf_coord_range d q2 W2) as (A' & B' & C').
  unfold side. rewrite !Z.div_small by lia. auto.
Qed.

Lemma nca_eq d q1 q2 : wf d q1 -> wf d q2 ->
  nearest_common_ancestor d q1 q2 = ancestor d q1 (nca_level d q1 q2).
Proof.
  intros W1 W2. pose proof (wf_level _ _ W1) as L1. pose proof (wf_level _ _ W2) as L2.
  pose proof (nca_level_range d q1 q2 W1 W2) as R.
  unfold nearest_common_ancestor, ancestor. fold (nca_clor d q1 q2).
  unfold MAXLEVEL. fold (nca_level d q1 q2).
  assert (CP : 0 <= nca_clor d q1 q2).
  { unfold nca_clor. pose proof (u32_range). destruct d; rewrite ?Z.lor_nonneg; repeat split; apply u32_range. }
  set (K := LOG2_32 (nca_clor d q1 q2) + 1) in *.
  assert (HK : 0 <= K).
  { unfold K, LOG2_32. destruct (_ =? 0); [lia|]. pose proof (Z.log2_nonneg (nca_clor d q1 q2)). lia. }
  assert (HK2 : K <= 30 - nca_level d q1 q2) by (unfold nca_level; fold K; lia).
  destruct (proj1 (clor_spec d q1 q2 K W1 W2 HK) ltac:(unfold K; lia)) as (Ex & Ey & Ez).
  rewrite shl1. rewrite QLEN_side by lia. unfold side at 1 2 3.
  rewrite !land_lnot_mask by lia. fold (side (nca_level d q1 q2)).
  assert (Hm : nca_level d q1 q2 = Z.min (30 - K) (Z.min (ql q1) (ql q2))) by reflexivity.
  set (m := nca_level d q1 q2) in *. clearbody K m.
  assert (G : forall a b, a / 2 ^ K = b / 2 ^ K ->
     (exists X, a = X * side (ql q1)) -> (exists Y, b = Y * side (ql q2)) ->
     a / 2 ^ K * 2 ^ K = a / side m * side m).
  { intros a b E (X & EX) (Y & EY).
    pose proof (pow2_pos K HK).
    assert (SM : side m = 2 ^ K * 2 ^ (30 - m - K)).
    { unfold side. rewrite <- Z.pow_add_r by lia. f_equal. lia. }
    assert (AL : forall c Y', c = Y' * side m -> c / 2 ^ K * 2 ^ K = c).
    { intros c Y' ->. rewrite SM. replace (Y' * (2 ^ K * 2 ^ (30 - m - K))) with (Y' * 2 ^ (30 - m - K) * 2 ^ K) by ring.
      rewrite Z.div_mul by lia. reflexivity. }
    pose proof (pow2_pos (30 - m - K) ltac:(lia)).
    assert (Sm : 0 < side m) by (apply side_pos; lia).
    destruct (Z_le_gt_dec (30 - K) (Z.min (ql q1) (ql q2))).
    - replace (side m) with (2 ^ K) by (unfold side; f_equal; lia). reflexivity.
    - destruct (Z_le_gt_dec (ql q1) (ql q2)).
      + replace (ql q1) with m in EX by lia.
        rewrite (AL a X EX). rewrite EX. rewrite Z.div_mul by lia. reflexivity.
      + replace (ql q2) with m in EY by lia.
        rewrite E, (AL b Y EY).
        assert (F : a / side m = b / side m).
        { rewrite SM, <- !Z.div_div by lia. rewrite E. reflexivity. }
        rewrite F, EY. rewrite Z.div_mul by lia. reflexivity. }
  destruct (wf_elim d q1 W1) as (X & Y & Z0 & EX & EY & EZ & _).
  destruct (wf_elim d q2 W2) as (X' & Y' & Z0' & EX' & EY' & EZ' & _).
  rewrite (G (qx q1) (qx q2)), (G (qy q1) (qy q2)), (G (qz q1) (qz q2)); eauto.
Qed.

Lemma nca_spec d q1 q2 : wf d q1 -> wf d q2 ->
  let a := nearest_common_ancestor d q1 q2 in
  wf d a /\
  (qpos d a <= qpos d q1 /\ qend d q1 <= qend d a) /\
  (qpos d a <= qpos d q2 /\ qend d q2 <= qend d a) /\
  (forall r, wf d r ->
     qpos d r <= qpos d q1 -> qend d q1 <= qend d r ->
     qpos d r <= qpos d q2 -> qend d q2 <= qend d r ->
     qpos d r <= qpos d a /\ qend d a <= qend d r).
Proof.
  intros W1 W2. cbv zeta. rewrite nca_eq by auto.
  pose proof (nca_level_range d q1 q2 W1 W2) as R.
  destruct (proj1 (nca_level_spec d q1 q2 (nca_level d q1 q2) W1 W2 ltac:(lia)) ltac:(lia)) as (A & B & C).
  set (m := nca_level d q1 q2) in *.
  destruct (ancestor_wf d q1 m W1 ltac:(lia)) as (Wa & La & Ia).
  pose proof (ancestor_contains d q1 m W1 ltac:(lia)) as C1.
  pose proof (ancestor_contains d q2 m W2 ltac:(lia)) as C2. rewrite <- C in C2.
  split; auto. split; auto. split; auto.
  intros r Wr H1 H2 H3 H4.
  destruct (contains_unique d r q1 Wr W1 H1 H2) as (K1 & E1).
  destruct (contains_unique d r q2 Wr W2 H3 H4) as (K2 & E2).
  pose proof (wf_level _ _ Wr).
  assert (ql r <= m).
  { apply nca_level_spec; auto; try lia. split; auto. split; auto. congruence. }
  pose proof (qsize_pos d q1 W1).
  destruct (dyadic d r (ancestor d q1 m) Wr Wa ltac:(lia)) as [?|[?|?]]; auto; unfold qend in *; lia.
Qed.

(** ** the descriptive version *)
Lemma ancestor_parent d q m : wf d q -> 0 < m <= ql q ->
  parent d (ancestor d q m) = ancestor d q (m - 1).
Proof.
  intros W L. destruct (ancestor_wf d q m W ltac:(lia)) as (A & B & C).
  destruct (ancestor_wf d q (m - 1) W ltac:(lia)) as (A' & B' & C').
  destruct (parent_wf d (ancestor d q m) A ltac:(lia)) as (A'' & B'' & C'').
  apply (quad_eq d); auto; try lia. rewrite !wf_qpos by auto. rewrite C', C'', C, B', B'', B.
  f_equal. rewrite Z.div_div. 
  - f_equal. rewrite <- nd_children, <- Z.pow_add_r; try (pose proof (nd_pos d); nia). f_equal. lia.
  - pose proof (pow2_pos (nd d * (ql q - m)) ltac:(pose proof (nd_pos d); nia)). lia.
  - destruct d; reflexivity.
Qed.

Lemma promote_spec d q target : forall fuel m, wf d q -> 0 <= target -> 0 <= m <= ql q ->
  (0 < fuel)%nat -> m - target < Z.of_nat fuel ->
  promote d fuel (ancestor d q m) target = Some (ancestor d q (Z.min m target)).
Proof.
  induction fuel; intros m W Ht Hm F0 Hf; [lia|].
  cbn [promote]. destruct (ancestor_wf d q m W Hm) as (A & B & C). rewrite B.
  destruct (m >? target) eqn:E.
  - rewrite ancestor_parent by (auto; lia). rewrite IHfuel by (auto; lia).
    do 2 f_equal. lia.
  - do 2 f_equal. lia.
Qed.

Lemma nca_walk_spec d q1 q2 : wf d q1 -> wf d q2 -> forall fuel m,
  0 <= m <= Z.min (ql q1) (ql q2) -> m < Z.of_nat fuel -> nca_level d q1 q2 <= m ->
  nca_walk d fuel (ancestor d q1 m) (ancestor d q2 m) = Some (ancestor d q1 (nca_level d q1 q2)).
Proof.
  intros W1 W2. pose proof (nca_level_range d q1 q2 W1 W2) as R.
  induction fuel; intros m Hm Hf Hl; [lia|]. cbn [nca_walk].
  destruct (ancestor_wf d q1 m W1 ltac:(lia)) as (A & B & C).
  destruct (ancestor_wf d q2 m W2 ltac:(lia)) as (A' & B' & C').
  destruct (is_equal d (ancestor d q1 m) (ancestor d q2 m)) eqn:E.
  - apply is_equal_eq in E; auto.
    assert (m <= nca_level d q1 q2) by (apply nca_level_spec; auto; [lia|]; split; [lia|]; split; [lia|exact E]).
    do 2 f_equal. lia.
  - assert (N : m <> nca_level d q1 q2).
    { intros Em.
      destruct (proj1 (nca_level_spec d q1 q2 m W1 W2 ltac:(lia)) ltac:(lia)) as (_ & _ & F).
      apply (is_equal_eq d) in F; auto. congruence. }
    rewrite !ancestor_parent by (auto; lia). apply IHfuel; lia.
Qed.

Lemma nca_D_eq d q1 q2 : wf d q1 -> wf d q2 ->
  nearest_common_ancestor_D d q1 q2 = Some (nearest_common_ancestor d q1 q2).
Proof.
  intros W1 W2. pose proof (wf_level _ _ W1) as L1. pose proof (wf_level _ _ W2) as L2.
  unfold nearest_common_ancestor_D.
  replace (promote d 64 q1 (ql q2)) with (Some (ancestor d q1 (Z.min (ql q1) (ql q2)))).
  2:{ rewrite <- (promote_spec d q1 (ql q2) 64 (ql q1)) by (auto; lia). rewrite ancestor_self by auto. reflexivity. }
  destruct (ancestor_wf d q1 (Z.min (ql q1) (ql q2)) W1 ltac:(lia)) as (A & B & C).
  rewrite B.
  replace (promote d 64 q2 (Z.min (ql q1) (ql q2))) with (Some (ancestor d q2 (Z.min (ql q1) (ql q2)))).
  2:{ replace (Z.min (ql q1) (ql q2)) with (Z.min (ql q2) (Z.min (ql q1) (ql q2))) at 1 by lia.
      rewrite <- (promote_spec d q2 _ 64 (ql q2)) by (auto; lia). rewrite ancestor_self by auto. reflexivity. }
  rewrite nca_eq by auto. pose proof (nca_level_range d q1 q2 W1 W2).
  apply nca_walk_spec; auto; lia.
Qed.

Lemma is_ancestor_D_eq d q r : wf d q -> wf d r -> is_ancestor_D d q r = Some (is_ancestor d q r).
Proof.
  intros Wq Wr. unfold is_ancestor_D. rewrite nca_D_eq by auto.
  pose proof (is_ancestor_iff d q r Wq Wr) as I.
  destruct (nca_spec d q r Wq Wr) as (Wa & C1 & C2 & Cl). cbv zeta in *.
  set (a := nearest_common_ancestor d q r) in *.
  destruct (is_equal d q r) eqn:E.
  - apply is_equal_eq in E; auto. subst. f_equal. symmetry. apply not_true_is_false. rewrite I. lia.
  - f_equal. apply eq_true_iff_eq. rewrite I. rewrite is_equal_eq by auto. split.
    + intros Eq. rewrite <- Eq in C2. 
      destruct (contains_unique d q r Wq Wr) as (L & F); try lia.
      assert (ql q <> ql r).
      { intros El. rewrite El, ancestor_self in F by auto. apply (is_equal_eq d) in F; auto. congruence. }
      lia.
    + intros (L & A & B). 
      destruct (Cl q Wq ltac:(lia) ltac:(lia) A B) as (D1 & D2).
      destruct (contains_unique d q a Wq Wa D1 D2) as (L1 & F1).
      destruct (contains_unique d a q Wa Wq (proj1 C1) (proj2 C1)) as (L2 & F2).
      rewrite F1. assert (ql q = ql a) by lia. rewrite H. apply ancestor_self; auto.
Qed.
