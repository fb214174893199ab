(** * Property theorems C01 - C10: quadrants as sets of lattice points and
    as intervals of the space filling curve *)

From Coq Require Import ZArith List Bool Lia ZifyBool Sorting.Sorted.
From Verif Require Import Quad Spec Morton ZBits Interval QuadLemmas CompareLemmas IdLemmas
  DescLemmas SuccLemmas Tree TreeLemmas.
Import ListNotations.
Open Scope Z_scope.

(** Sample quadrants for the examples *)
Definition ex2 : quad := mkq (3 * 2 ^ 27) (5 * 2 ^ 27) 0 3.
Definition ex2b : quad := mkq (3 * 2 ^ 27) (2 ^ 29) 0 3.
Definition ex3 : quad := mkq (3 * 2 ^ 27) (5 * 2 ^ 27) (2 ^ 29) 3.

Ltac conj := repeat match goal with |- _ /\ _ => split end.
Ltac wf_example :=
  apply is_valid_wf; vm_compute; reflexivity.

Lemma point_at d q p : wf d q -> qpos d q <= p < qend d q ->
  exists a b c, inroot d a b c /\ ppos d a b c = p.
Proof.
  intros W H. apply ppos_surj. pose proof (wf_root_bounds d q W) as B. lia.
Qed.

Lemma common_point d q r : wf d q -> wf d r ->
  ((exists a b c, inq d q a b c /\ inq d r a b c) <-> qpos d q < qend d r /\ qpos d r < qend d q).
Proof.
  intros Wq Wr. pose proof (qsize_pos d q Wq) as Sq. pose proof (qsize_pos d r Wr) as Sr. split.
  - intros (a & b & c & I1 & I2). rewrite inq_pos in I1, I2 by auto. lia.
  - intros (H1 & H2).
    assert (qpos d q < qend d q) by (unfold qend; lia).
    assert (qpos d r < qend d r) by (unfold qend; lia).
    destruct (point_at d q (Z.max (qpos d q) (qpos d r)) Wq) as (a & b & c & I & P); [lia|].
    exists a, b, c. rewrite !inq_pos by auto. rewrite P. split; (split; [auto|lia]).
Qed.

(** ** C01 *)
(** Curve position of any quadrant with 32 bit coordinates (also outside the
    root, coordinates read as unsigned): [xpos].  For valid quadrants it is
    the position [qpos] inside the root. *)
Theorem C01_compare_is_curve_order : forall d q r, quad32 d q -> quad32 d r ->
  (compare d q r < 0 <-> xpos d q < xpos d r \/ (xpos d q = xpos d r /\ ql q < ql r)) /\
  (compare d q r > 0 <-> xpos d q > xpos d r \/ (xpos d q = xpos d r /\ ql q > ql r)) /\
  (compare d q r = 0 <-> q = r).
Proof.
  intros d q r Q R. destruct (compare_spec d q r Q R) as (A & B & C).
  split; [exact A|]. split; [exact C|]. rewrite B. split.
  - intros (E & L). destruct (xpos_eq d q r Q R E) as (Ex & Ey & Ez).
    destruct q, r; cbn in *; congruence.
  - intros ->. auto.
Qed.

Theorem C01_compare_total_order : forall d q r s,
  quad32 d q -> quad32 d r -> quad32 d s ->
  (compare d q r < 0 <-> compare d r q > 0) /\
  (compare d q r = 0 <-> compare d r q = 0) /\
  (compare d q r < 0 -> compare d r s < 0 -> compare d q s < 0) /\
  (compare d q r <= 0 -> compare d r s <= 0 -> compare d q s <= 0).
Proof.
  intros d q r s Q R S.
  destruct (compare_spec d q r Q R) as (A & B & C).
  destruct (compare_spec d r q R Q) as (A' & B' & C').
  destruct (compare_spec d r s R S) as (A1 & B1 & C1).
  destruct (compare_spec d q s Q S) as (A2 & B2 & C2).
  clear Q R S.
  generalize dependent (compare d q r). generalize dependent (compare d r q).
  generalize dependent (compare d r s). generalize dependent (compare d q s).
  generalize (xpos d q) (xpos d r) (xpos d s) (ql q) (ql r) (ql s).
  intros x y z a b c k A2 B2 C2 m A1 B1 C1 n A' B' C' o A B C.
  split; [rewrite A, C'; clear; lia|]. split; [rewrite B, B'; clear; lia|].
  split; [rewrite A, A1, A2; clear; lia|].
  intros H1 H2.
  assert (o < 0 \/ o = 0) as K1 by (clear - H1; lia).
  assert (m < 0 \/ m = 0) as K2 by (clear - H2; lia).
  rewrite A, B in K1. rewrite A1, B1 in K2.
  assert (k < 0 \/ k = 0) as K3 by (rewrite A2, B2; clear - K1 K2; lia).
  clear - K3. lia.
Qed.

Theorem C01_valid_quadrants : forall d q r, wf d q -> wf d r ->
  (compare d q r < 0 <-> qpos d q < qpos d r \/ (qpos d q = qpos d r /\ ql q < ql r)) /\
  (disjoint d q r = 0 <->
     exists a b c, inq d q a b c /\ inq d r a b c) /\
  (disjoint d q r <> 0 -> (disjoint d q r < 0 <-> compare d q r < 0)) /\
  (disjoint d q r < 0 <-> forall a b c a' b' c',
     inq d q a b c -> inq d r a' b' c' -> ppos d a b c < ppos d a' b' c').
Proof.
  intros d q r Wq Wr. destruct (compare_wf d q r Wq Wr) as (A & B & C).
  destruct (disjoint_iff d q r Wq Wr) as (D1 & D2 & D3).
  pose proof (qsize_pos d q Wq) as Sq. pose proof (qsize_pos d r Wr) as Sr.
  pose proof (wf_root_bounds d q Wq) as Bq. pose proof (wf_root_bounds d r Wr) as Br.
  split; [exact A|]. split; [|split].
  - rewrite D2. symmetry. apply common_point; auto.
  - rewrite disjoint_overlaps. destruct (overlaps d q r); [congruence|tauto].
  - rewrite D1. split.
    + intros H a b c a' b' c' I1 I2. rewrite inq_pos in I1, I2 by auto. lia.
    + intros H.
      assert (Nq : qpos d q < qend d q) by (unfold qend; lia).
      assert (Nr : qpos d r < qend d r) by (unfold qend; lia).
      destruct (point_at d q (qend d q - 1) Wq) as (a & b & c & I & P); [lia|].
      destruct (point_at d r (qpos d r) Wr) as (a' & b' & c' & I' & P'); [lia|].
      specialize (H a b c a' b' c'). rewrite !inq_pos, P, P' in H by auto.
      assert (qend d q - 1 < qpos d r); [|lia]. apply H; (split; [auto|lia]).
Qed.

Example C01_ex : wf D2 ex2 /\ wf D2 ex2b /\ compare D2 ex2b ex2 < 0 /\ disjoint D2 ex2b ex2 < 0 /\
  quad32 D2 (mkq (-2^27) (2^30) 0 3) /\ compare D2 (mkq (-2^27) (2^30) 0 3) ex2 > 0.
Proof.
  split; [wf_example|]. split; [wf_example|]. split; [reflexivity|]. split; [reflexivity|].
  split; [|reflexivity]. unfold quad32, in32. cbn [qx qy qz]. repeat split; try lia.
Qed.

Print Assumptions C01_compare_is_curve_order.
Print Assumptions C01_compare_total_order.
Print Assumptions C01_valid_quadrants.

(** ** C02 *)
Theorem C02_linear_id_set_morton : forall d level, 0 <= level <= 29 ->
  (forall id, 0 <= id < 2 ^ (nd d * level) ->
     let q := set_morton d level id in
     wf d q /\ ql q = level /\ linear_id_ext128 d q level = id /\ qpos d q = id * 2 ^ (nd d * (30 - level))) /\
  (forall q, wf d q -> ql q = level ->
     let id := linear_id_ext128 d q level in
     0 <= id < 2 ^ (nd d * level) /\ set_morton d level id = q).
Proof.
  intros d level L. split.
  - intros id H. cbv zeta. rewrite set_morton_mkquad by auto.
    pose proof (mkquad_wf d level id L) as W. split; [exact W|]. split; [reflexivity|].
    split; [|apply mkquad_qpos; auto].
    pose proof (wf_id128_own d _ W) as E. rewrite mkquad_level in E. rewrite E. apply qidx_mkquad; auto.
  - intros q W E. cbv zeta. subst level. rewrite wf_id128_own by auto.
    destruct (wf_idx d q W) as (A & B & C). split; [exact A|].
    rewrite set_morton_mkquad by auto. symmetry. exact B.
Qed.

(** the 64 bit versions agree as long as the id fits into 64 bits *)
Theorem C02_64bit_versions : forall d q level, 0 <= level <= 29 ->
  nd d * (level + 2) <= 64 ->
  linear_id d q level = linear_id_ext128 d q level /\
  forall id, 0 <= id -> set_morton_ext128 d level id = set_morton d level id.
Proof.
  intros d q level L H. split; [apply linear_id_mort; lia|].
  intros. apply set_morton_ext128_eq; lia.
Qed.

(** the extended range of ids (quadrants around the root) round trips, too *)
Theorem C02_extended_round_trip : forall d level id, 0 <= level <= 29 ->
  0 <= id < 2 ^ (nd d * (level + 2)) ->
  linear_id_ext128 d (set_morton d level id) level = id.
Proof. intros. apply id_set_morton; auto. Qed.

Theorem C02_order_and_coarser_id : forall d q r level, wf d q -> wf d r -> 0 <= level <= ql q ->
  (ql q = ql r ->
   (linear_id_ext128 d q (ql q) < linear_id_ext128 d r (ql r) <-> compare d q r < 0)) /\
  linear_id_ext128 d q level = linear_id_ext128 d (ancestor d q level) level.
Proof.
  intros d q r level Wq Wr L. pose proof (wf_level _ _ Wq). pose proof (wf_level _ _ Wr). split.
  - intros E. destruct (compare_wf d q r Wq Wr) as (A & _). rewrite A.
    rewrite !wf_id128_own, !wf_qpos by auto. rewrite E. pose proof (psize_pos d (ql r) ltac:(lia)).
    rewrite <- Z.mul_lt_mono_pos_r by auto. lia.
  - destruct (ancestor_wf d q level Wq L) as (Wa & La & Ia).
    rewrite <- La at 3. rewrite wf_id128_own by auto. rewrite Ia.
    rewrite wf_id128 by (auto; lia). rewrite wf_qpos by auto.
    rewrite (psize_split d level (ql q)) by lia.
    rewrite (Z.mul_comm (qidx d q)), (Z.mul_comm (2 ^ _)). apply Z.div_mul_cancel_l.
    + pose proof (pow2_pos (nd d * (ql q - level)) ltac:(pose proof (nd_pos d); nia)). lia.
    + pose proof (psize_pos d (ql q)). lia.
Qed.

Example C02_ex : linear_id D2 ex2 3 = 39 /\ set_morton D2 3 39 = ex2 /\
  linear_id D2 ex2 2 = 9 /\ set_morton D3 29 (2 ^ 87 - 1) = mkq (2^30-2) (2^30-2) (2^30-2) 29.
Proof. vm_compute. auto. Qed.

Print Assumptions C02_linear_id_set_morton.
Print Assumptions C02_64bit_versions.
Print Assumptions C02_extended_round_trip.
Print Assumptions C02_order_and_coarser_id.

(** ** C03 *)
Theorem C03_children_partition : forall d q, wf d q -> ql q < 29 ->
  length (childrenv d q) = childrenn d /\
  (forall i, 0 <= i < children d ->
     let c := nth (Z.to_nat i) (childrenv d q) q in
     c = child d q i /\ wf d c /\ ql c = ql q + 1 /\ child_id d c = i /\ parent d c = q) /\
  (forall a b c, inq d q a b c ->
     exists i, 0 <= i < children d /\ inq d (child d q i) a b c /\
       forall j, 0 <= j < children d -> inq d (child d q j) a b c -> j = i) /\
  (forall i a b c, 0 <= i < children d -> inq d (child d q i) a b c -> inq d q a b c) /\
  (forall i j, 0 <= i < j -> j < children d -> compare d (child d q i) (child d q j) < 0).
Proof.
  intros d q W L. pose proof (wf_level _ _ W) as L0. pose proof (children_pos d) as CP.
  assert (CE : forall i, 0 <= i < children d ->
     qend d (child d q i) = qpos d q + (i + 1) * psize d (ql q + 1)).
  { intros i Hi. unfold qend. rewrite child_pos by auto. rewrite qsize_psize. cbn [child ql]. ring. }
  assert (PS : qend d q = qpos d q + children d * psize d (ql q + 1)).
  { unfold qend. rewrite qsize_psize, psize_child by lia. reflexivity. }
  pose proof (psize_pos d (ql q + 1) ltac:(lia)) as Pp.
  split; [|split; [|split; [|split]]].
  - destruct d; reflexivity.
  - intros i Hi. cbv zeta. destruct (child_wf d q i W L Hi) as (A & B & C).
    assert (E : nth (Z.to_nat i) (childrenv d q) q = child d q i).
    { rewrite childrenv_child. rewrite (nth_indep _ q (child d q 0)).
      - rewrite map_nth. f_equal. destruct d; cbn in Hi |- *;
        repeat (destruct (Z.eq_dec i 0) as [->|]; [reflexivity|];
                assert (i = 1 \/ i = 2 \/ i = 3 \/ i = 4 \/ i = 5 \/ i = 6 \/ i = 7) as K by lia;
                destruct K as [->|[->|[->|[->|[->|[->| ->]]]]]]; try lia; reflexivity).
      - rewrite map_length. destruct d; cbn in *; lia. }
    rewrite E. split; [auto|]. split; [auto|]. split; [auto|]. split; [apply child_mod; auto|apply child_parent; auto].
  - intros a b c I. rewrite inq_pos in I by auto. destruct I as (R & P1 & P2).
    set (p := ppos d a b c) in *.
    set (i := (p - qpos d q) / psize d (ql q + 1)).
    pose proof (Z.div_mod (p - qpos d q) (psize d (ql q + 1)) ltac:(lia)) as DM.
    pose proof (Z.mod_pos_bound (p - qpos d q) (psize d (ql q + 1)) ltac:(lia)) as MB.
    fold i in DM.
    assert (Hi : 0 <= i < children d).
    { split; [apply Z.div_pos; lia|]. apply Z.div_lt_upper_bound; lia. }
    exists i. split; [auto|]. split.
    + rewrite inq_pos by (apply child_wf; auto). fold p. rewrite CE, child_pos by auto. split; [auto|]. lia.
    + intros j Hj Ij. rewrite inq_pos in Ij by (apply child_wf; auto). fold p in Ij.
      rewrite CE, child_pos in Ij by auto. destruct Ij as (_ & I1 & I2). nia.
  - intros i a b c Hi I. rewrite inq_pos in I |- * by (auto; apply child_wf; auto).
    rewrite CE, child_pos in I by auto. destruct I as (R & I1 & I2). split; [auto|]. nia.
  - intros i j Hij Hj.
    destruct (child_wf d q i W L ltac:(lia)) as (A & B & C).
    destruct (child_wf d q j W L ltac:(lia)) as (A' & B' & C').
    destruct (compare_wf d _ _ A A') as (K & _). apply K. left.
    rewrite !child_pos by (auto; lia). nia.
Qed.

Theorem C03_sibling_parent : forall d q i, wf d q -> 0 < ql q -> 0 <= i < children d ->
  sibling d q i = child d (parent d q) i /\ child d (parent d q) (child_id d q) = q /\
  0 <= child_id d q < children d /\
  (is_sibling d q (sibling d q i) = true <-> i <> child_id d q) /\
  (forall a b c, inq d q a b c -> inq d (parent d q) a b c).
Proof.
  intros d q i W L Hi. pose proof (wf_level _ _ W) as L0.
  split; [apply sibling_child; auto|]. split; [apply parent_child; auto|].
  split; [apply child_id_range; auto|].
  destruct (parent_wf d q W L) as (Wp & Lp & Ip).
  split.
  - rewrite sibling_child by auto.
    destruct (child_wf d (parent d q) i Wp ltac:(lia) Hi) as (Wc & Lc & Ic).
    set (c := child d (parent d q) i) in *.
    assert (Eq : q = c <-> i = child_id d q).
    { split.
      - intros E. rewrite E. unfold c. symmetry. apply child_mod; auto; lia.
      - intros ->. unfold c. symmetry. apply parent_child; auto. }
    assert (Par : parent d q = parent d c) by (symmetry; apply child_parent; auto; lia).
    assert (Z2 : d = D2 -> qz q = 0 /\ qz c = 0).
    { intros ->. destruct W as (_ & _ & _ & ?), Wc as (_ & _ & _ & ?). auto. }
    clearbody c. unfold is_sibling. replace (ql q =? 0) with false by lia.
    replace (ql q =? ql c) with true by lia. cbn [andb].
    assert (SB : forall f, (forall q, f (parent d q) = Z.land (f q) (Z.lnot (QLEN (ql q)))) ->
       Z.land (Z.lxor (f q) (f c)) (Z.lnot (QLEN (ql q))) =? 0 = true).
    { intros f Hf. apply Z.eqb_eq. pose proof (f_equal f Par) as E. rewrite !Hf in E.
      replace (ql c) with (ql q) in E by lia.
      apply Z.bits_inj'. intros n Hn.
      apply (f_equal (fun t => Z.testbit t n)) in E. rewrite !Z.land_spec in E.
      rewrite Z.land_spec, Z.lxor_spec, Z.bits_0.
      destruct (Z.testbit (f q) n), (Z.testbit (f c) n), (Z.testbit (Z.lnot (QLEN (ql q))) n); cbn in *; congruence. }
    rewrite (SB qx), (SB qy) by reflexivity. cbn [andb].
    assert (SZ : negb (is3 d) || (Z.land (Z.lxor (qz q) (qz c)) (Z.lnot (QLEN (ql q))) =? 0) = true).
    { destruct d; [reflexivity|]. cbn [is3 negb orb]. apply SB. reflexivity. }
    rewrite SZ.
    assert (X0 : forall a b, (Z.lxor a b =? 0) = (a =? b)).
    { intros a b. destruct (a =? b) eqn:E.
      - assert (a = b) by lia. subst. rewrite Z.lxor_nilpotent. reflexivity.
      - apply Z.eqb_neq. apply lxor_ne. lia. }
    rewrite !X0.
    destruct ((qx q =? qx c) && (qy q =? qy c) && (negb (is3 d) || (qz q =? qz c))) eqn:E.
    + split; [discriminate|]. intros N. exfalso. apply N. apply Eq.
      assert (qz q = qz c)
        by (clear - E Z2; destruct d; [destruct (Z2 eq_refl); lia|cbn [is3 negb orb] in E; lia]).
      clear - E H Lc Lp. rewrite Lp in Lc. destruct q as [x y z l], c as [x' y' z' l']; cbn [qx qy qz ql] in *. f_equal; lia.
    + split; [|auto]. intros _ N. apply Eq in N. rewrite <- N in E. rewrite !Z.eqb_refl in E.
      destruct (is3 d); discriminate.
  - intros a b c I. rewrite inq_pos in I |- * by auto.
    rewrite parent_ancestor by auto.
    pose proof (ancestor_contains d q (ql q - 1) W ltac:(lia)). destruct I. split; [auto|lia].
Qed.

Example C03_ex : wf D3 ex3 /\ ql ex3 < 29 /\ child_id D3 ex3 = 3 /\
  childrenv D2 ex2 = [mkq (6*2^26) (10*2^26) 0 4; mkq (7*2^26) (10*2^26) 0 4;
                      mkq (6*2^26) (11*2^26) 0 4; mkq (7*2^26) (11*2^26) 0 4].
Proof. conj; try wf_example; vm_compute; reflexivity. Qed.

Print Assumptions C03_children_partition.
Print Assumptions C03_sibling_parent.

(** ** C04 *)
Theorem C04_ancestor_and_overlap : forall d q r, wf d q -> wf d r ->
  (is_ancestor d q r = true <->
     (forall a b c, inq d r a b c -> inq d q a b c) /\
     exists a b c, inq d q a b c /\ ~ inq d r a b c) /\
  (overlaps d q r = true <-> exists a b c, inq d q a b c /\ inq d r a b c) /\
  (overlaps d q r = true <->
     (forall a b c, inq d q a b c -> inq d r a b c) \/ (forall a b c, inq d r a b c -> inq d q a b c)) /\
  is_ancestor_D d q r = Some (is_ancestor d q r) /\
  (is_parent d q r = true <-> 0 < ql r /\ q = parent d r).
Proof.
  intros d q r Wq Wr. pose proof (wf_level _ _ Wq) as Lq. pose proof (wf_level _ _ Wr) as Lr.
  pose proof (qsize_pos d q Wq) as Sq. pose proof (qsize_pos d r Wr) as Sr.
  pose proof (wf_root_bounds d q Wq) as Bq. pose proof (wf_root_bounds d r Wr) as Br.
  assert (OV : overlaps d q r = true <-> exists a b c, inq d q a b c /\ inq d r a b c).
  { rewrite overlap_iff by auto. symmetry. apply common_point; auto. }
  split; [|split; [exact OV|split; [|split]]].
  - rewrite is_ancestor_iff by auto. rewrite <- (subset_interval d q r) by auto. split.
    + intros (L & S). split; [exact S|]. apply subset_interval in S; auto.
      assert (qsize d r < qsize d q).
      { rewrite !qsize_psize. rewrite (psize_split d (ql q) (ql r)) by lia.
        pose proof (psize_pos d (ql r) ltac:(lia)).
        assert (2 <= 2 ^ (nd d * (ql r - ql q))); [|nia].
        change 2 with (2 ^ 1) at 1. apply Z.pow_le_mono_r; [lia|]. pose proof (nd_pos d). nia. }
      assert (exists p, qpos d q <= p < qend d q /\ ~ (qpos d r <= p < qend d r)) as (p & P1 & P2).
      { destruct (Z_lt_le_dec (qpos d q) (qpos d r)).
        - exists (qpos d q). unfold qend in *. lia.
        - exists (qend d q - 1). unfold qend in *. lia. }
      destruct (ppos_surj d p) as (a & b & c & I & P); [lia|].
      exists a, b, c. rewrite !inq_pos by auto. rewrite P. tauto.
    + intros (S & a & b & c & I1 & I2). split; [|exact S].
      apply subset_interval in S; auto.
      destruct (contains_unique d q r Wq Wr (proj1 S) (proj2 S)) as (L & E).
      destruct (Z.eq_dec (ql q) (ql r)) as [El|]; [|lia]. exfalso.
      rewrite El, ancestor_self in E by auto. subst. auto.
  - rewrite OV. split.
    + intros H. apply OV in H. apply overlap_iff in H; auto.
      rewrite !subset_interval by auto.
      destruct (Z_le_gt_dec (ql q) (ql r)) as [L|L].
      * destruct (dyadic d q r Wq Wr L) as [?|[?|?]]; lia.
      * destruct (dyadic d r q Wr Wq ltac:(lia)) as [?|[?|?]]; lia.
    + rewrite !subset_interval by auto. intros H. apply OV. apply overlap_iff; auto. unfold qend in *. lia.
  - apply is_ancestor_D_eq; auto.
  - unfold is_parent. split.
    + intros H. assert (L : 0 < ql r) by lia. split; [auto|].
      destruct (parent_wf d r Wr L) as (Wp & Lp & Ip).
      apply (quad_eq d); auto; [lia|].
      assert (Z2 : d = D2 -> qz q = 0 /\ qz (parent d r) = 0).
      { intros ->. destruct Wq as (_ & _ & _ & ?), Wp as (_ & _ & _ & ?). auto. }
      unfold qpos. unfold parent. cbn [qx qy qz].
      destruct d; cbn [is3 negb orb] in *; f_equal; try lia.
      destruct (Z2 eq_refl) as (Ea & Eb). cbn in Eb. lia.
    + intros (L & ->). unfold parent; cbn [qx qy qz ql].
      rewrite !Z.eqb_refl. destruct d; cbn [is3 negb orb]; rewrite ?Z.eqb_refl; lia.
Qed.

Theorem C04_ancestor_unique : forall d q level, wf d q -> 0 <= level <= ql q ->
  wf d (ancestor d q level) /\ ql (ancestor d q level) = level /\
  (forall a b c, inq d q a b c -> inq d (ancestor d q level) a b c) /\
  (forall r, wf d r -> ql r = level -> (forall a b c, inq d q a b c -> inq d r a b c) ->
     r = ancestor d q level).
Proof.
  intros d q level W L. destruct (ancestor_wf d q level W L) as (A & B & C).
  split; [auto|]. split; [auto|]. split.
  - apply (subset_interval d (ancestor d q level) q A W). apply ancestor_contains; auto.
  - intros r Wr Lr S. apply (subset_interval d r q Wr W) in S.
    destruct (contains_unique d r q Wr W (proj1 S) (proj2 S)) as (_ & E). rewrite Lr in E. exact E.
Qed.

Example C04_ex : wf D2 (ancestor D2 ex2 1) /\ is_ancestor D2 (ancestor D2 ex2 1) ex2 = true /\
  is_ancestor D2 ex2 ex2 = false /\ overlaps D2 ex2 ex2b = false.
Proof. conj; try wf_example; vm_compute; reflexivity. Qed.

Print Assumptions C04_ancestor_and_overlap.
Print Assumptions C04_ancestor_unique.

(** ** C05 *)
Theorem C05_nearest_common_ancestor : forall d q1 q2, wf d q1 -> wf d q2 ->
  let a := nearest_common_ancestor d q1 q2 in
  wf d a /\
  (forall x y z, inq d q1 x y z \/ inq d q2 x y z -> inq d a x y z) /\
  (forall r, wf d r ->
     (forall x y z, inq d q1 x y z \/ inq d q2 x y z -> inq d r x y z) ->
     (forall x y z, inq d a x y z -> inq d r x y z)) /\
  nearest_common_ancestor_D d q1 q2 = Some a /\
  nearest_common_ancestor d q2 q1 = a.
Proof.
  intros d q1 q2 W1 W2. cbv zeta.
  destruct (nca_spec d q1 q2 W1 W2) as (Wa & C1 & C2 & Cl). cbv zeta in *.
  destruct (nca_spec d q2 q1 W2 W1) as (Wb & D1 & D2 & Dl). cbv zeta in *.
  set (a := nearest_common_ancestor d q1 q2) in *. set (b := nearest_common_ancestor d q2 q1) in *.
  split; [auto|]. split; [|split; [|split]].
  - intros x y z [I|I].
    + revert I. apply (subset_interval d a q1); auto.
    + revert I. apply (subset_interval d a q2); auto.
  - intros r Wr S. apply (subset_interval d r a); auto.
    assert (S1 : forall x y z, inq d q1 x y z -> inq d r x y z) by (intros; apply S; auto).
    assert (S2 : forall x y z, inq d q2 x y z -> inq d r x y z) by (intros; apply S; auto).
    apply subset_interval in S1; auto. apply subset_interval in S2; auto.
    apply Cl; tauto.
  - apply nca_D_eq; auto.
  - destruct (Cl b Wb) as (E1 & E2); try tauto. destruct (Dl a Wa) as (F1 & F2); try tauto.
    destruct (contains_unique d b a Wb Wa E1 E2) as (L1 & G1).
    destruct (contains_unique d a b Wa Wb F1 F2) as (L2 & G2).
    replace (ql b) with (ql a) in G1 by lia. rewrite ancestor_self in G1 by auto. auto.
Qed.

Example C05_ex : nearest_common_ancestor D2 ex2 ex2b = mkq (2 ^ 28) (2 ^ 29) 0 2.
Proof. vm_compute. reflexivity. Qed.

Print Assumptions C05_nearest_common_ancestor.

(** ** C06 *)
Theorem C06_descendants : forall d q level, wf d q -> ql q <= level <= 29 ->
  let f := first_descendant d q level in
  let l := last_descendant d q level in
  wf d f /\ wf d l /\ ql f = level /\ ql l = level /\
  (forall a b c, inq d f a b c -> inq d q a b c) /\
  (forall a b c, inq d l a b c -> inq d q a b c) /\
  (forall r, wf d r -> ql r = level -> (forall a b c, inq d r a b c -> inq d q a b c) ->
     compare d f r <= 0 /\ compare d r l <= 0).
Proof.
  intros d q level W L. pose proof (wf_level _ _ W). cbv zeta.
  destruct (first_descendant_wf d q level W L) as (Wf & Lf & If_ & Pf).
  destruct (last_descendant_wf d q level W L) as (Wl & Ll & Il & El).
  pose proof (psize_split d (ql q) level ltac:(lia)) as PS.
  pose proof (psize_pos d level ltac:(lia)) as PP.
  assert (1 <= 2 ^ (nd d * (level - ql q))).
  { pose proof (pow2_pos (nd d * (level - ql q)) ltac:(pose proof (nd_pos d); nia)). lia. }
  assert (Sz : psize d level <= psize d (ql q)) by nia.
  split; [auto|]. split; [auto|]. split; [auto|]. split; [auto|]. split; [|split].
  - apply (subset_interval d q); auto. unfold qend. rewrite Pf, !qsize_psize, Lf. lia.
  - apply (subset_interval d q); auto. rewrite El. unfold qend in El. rewrite !qsize_psize, Ll in El. lia.
  - intros r Wr Lr S. apply (subset_interval d q) in S; auto.
    destruct (compare_wf d _ _ Wf Wr) as (A & B & C).
    destruct (compare_wf d _ _ Wr Wl) as (A' & B' & C').
    unfold qend in *. rewrite !qsize_psize, Lr, Ll in *. rewrite Lf in *. lia.
Qed.

Theorem C06_successor : forall d q, wf d q ->
  (forall r, successor d q = Some r ->
     wf d r /\ ql r = ql q /\ qpos d r = qend d q /\ predecessor d r = Some q) /\
  (forall r, predecessor d q = Some r ->
     wf d r /\ ql r = ql q /\ qend d r = qpos d q /\ successor d r = Some q) /\
  (successor d q = None <-> qend d q = 2 ^ (nd d * 30)) /\
  (predecessor d q = None <-> qpos d q = 0).
Proof.
  intros d q W. pose proof (wf_level _ _ W) as L.
  pose proof (successor_spec d q W) as S. pose proof (predecessor_spec d q W) as P.
  pose proof (wf_idx d q W) as (R & _ & PQ). pose proof (psize_pos d (ql q) ltac:(lia)) as PP.
  pose proof (psize_root d (ql q) ltac:(lia)) as RT.
  assert (UN : forall a b, wf d a -> wf d b -> ql a = ql b -> qidx d a = qidx d b -> a = b).
  { intros a b Wa Wb E1 E2. apply (quad_eq d); auto. rewrite !wf_qpos by auto. rewrite E1, E2. reflexivity. }
  split; [|split; [|split]].
  - intros r E. rewrite E in S. destruct S as (Wr & Lr & Ir).
    split; [auto|]. split; [auto|]. split; [rewrite wf_qpos, wf_qend, Lr, Ir by auto; reflexivity|].
    pose proof (predecessor_spec d r Wr) as P'. destruct (predecessor d r) as [p|]; [|lia].
    destruct P' as (Wp & Lp & Ip). f_equal. apply UN; auto; lia.
  - intros r E. rewrite E in P. destruct P as (Wr & Lr & Ir).
    split; [auto|]. split; [auto|]. split; [rewrite wf_qpos, wf_qend, Lr, Ir by auto; f_equal; lia|].
    pose proof (successor_spec d r Wr) as P'. destruct (successor d r) as [p|].
    + destruct P' as (Wp & Lp & Ip). f_equal. apply UN; auto; lia.
    + rewrite Lr in P'. lia.
  - rewrite wf_qend by auto. destruct (successor d q) as [r|].
    + destruct S as (Wr & Lr & Ir). split; [discriminate|]. intros E. exfalso.
      pose proof (wf_idx d r Wr) as (R' & _). rewrite Lr in R'. nia.
    + split; [|auto]. intros _. rewrite S. exact RT.
  - rewrite PQ. destruct (predecessor d q) as [r|].
    + destruct P as (Wr & Lr & Ir). split; [discriminate|]. intros E. exfalso.
      pose proof (wf_idx d r Wr) as (R' & _). nia.
    + split; [|auto]. intros _. rewrite P. lia.
Qed.

Example C06_ex : successor D2 ex2 = Some (mkq 0 (6*2^27) 0 3) /\
  predecessor D2 (mkq 0 (6*2^27) 0 3) = Some ex2 /\
  successor D2 (mkq (3*2^27) (7*2^27) 0 3) = Some (mkq (2^29) (2^29) 0 3) /\
  last_descendant D2 ex2 29 = mkq (4*2^27-2) (6*2^27-2) 0 29.
Proof. vm_compute. auto. Qed.

Print Assumptions C06_descendants.
Print Assumptions C06_successor.

(** ** C07
    The documented contract ("immediately before, no holes") is: the end of q
    is the beginning of r. *)
Definition documented_is_next (d : dim) (q r : quad) : Prop := qend d q = qpos d r.

(** It is false: a finer r need not be the first descendant. *)
Theorem C07_is_next_refuted : exists q r, wf D2 q /\ wf D2 r /\
  is_next D2 q r = true /\ ~ documented_is_next D2 q r /\
  exists a b c, inroot D2 a b c /\ qend D2 q <= ppos D2 a b c < qpos D2 r.
Proof.
  exists (mkq 0 0 0 1), (mkq (3 * 2 ^ 28) (2 ^ 28) 0 2).
  split; [wf_example|]. split; [wf_example|]. split; [vm_compute; reflexivity|].
  split; [unfold documented_is_next; vm_compute; congruence|].
  exists (2 ^ 29), 0, 0. split; [unfold inroot; cbv beta iota; lia|]. vm_compute. split; congruence.
Qed.

(** What it does decide.  For every pair it implies that r follows q at
    distance less than the size of q, it never misses a true successor, and
    for r not finer than q it is exact. *)
Theorem C07_is_next_partial : forall d q r, wf d q -> wf d r ->
  (documented_is_next d q r -> is_next d q r = true) /\
  (is_next d q r = true -> qend d q <= qpos d r < qend d q + qsize d q) /\
  (ql r <= ql q -> (is_next d q r = true <-> documented_is_next d q r)) /\
  (qpos d r mod qsize d q = 0 -> (is_next d q r = true <-> documented_is_next d q r)) /\
  is_next_D d q r = Some (is_next d q r).
Proof.
  intros d q r Wq Wr. pose proof (is_next_spec d q r Wq Wr) as S. unfold documented_is_next.
  pose proof (qsize_pos d q Wq) as Sq. pose proof (wf_level _ _ Wq) as Lq. pose proof (wf_level _ _ Wr) as Lr.
  pose proof (wf_qend d q Wq) as Eq. rewrite <- qsize_psize in Eq.
  split; [|split; [|split; [|split]]].
  - intros E. apply S. clear S. destruct (ql r <? ql q); lia.
  - intros E. apply S in E. clear S. destruct (ql r <? ql q); lia.
  - intros L. rewrite S. destruct (ql r <? ql q) eqn:B; [lia|].
    assert (E : ql r = ql q) by lia.
    assert (Pr : qpos d r = qidx d r * qsize d q) by (rewrite wf_qpos, qsize_psize, E by auto; auto).
    rewrite Pr, Eq. clear - Sq. generalize dependent (qsize d q). intros z Sq.
    generalize (qidx d q) (qidx d r). intros u v. split; [|nia].
    intros (H1 & H2). assert (v = u + 1) by nia. subst. reflexivity.
  - intros M. rewrite S. destruct (ql r <? ql q) eqn:B; [lia|].
    pose proof (Z.div_mod (qpos d r) (qsize d q) ltac:(lia)) as DM. rewrite M, Z.add_0_r in DM.
    rewrite DM, Eq. clear - Sq. generalize (qpos d r / qsize d q). generalize dependent (qsize d q). intros z Sq v.
    generalize (qidx d q). intros u. split; [|nia].
    intros (H1 & H2). assert (v = u + 1) by nia. subst. ring.
  - apply is_next_D_eq; auto.
Qed.

Print Assumptions C07_is_next_refuted.
Print Assumptions C07_is_next_partial.

(** ** C08 *)
Theorem C08_sorted_linear : forall d l, Forall (wf d) l ->
  (tree_is_sorted d l = true <-> StronglySorted (fun q r => compare d q r < 0) l) /\
  (tree_is_linear d l = true <->
   StronglySorted (fun q r => forall a b c a' b' c', inq d q a b c -> inq d r a' b' c' ->
                              ppos d a b c < ppos d a' b' c') l).
Proof.
  intros d l F.
  assert (SS : forall (P Q : quad -> quad -> Prop), (forall q r, wf d q -> wf d r -> (P q r <-> Q q r)) ->
      forall l, Forall (wf d) l -> StronglySorted P l -> StronglySorted Q l).
  { intros P Q PQ. induction l0 as [|a l0 IH]; intros F0 S; [constructor|].
    inversion F0; subst. inversion S; subst. constructor; auto.
    rewrite Forall_forall in *. intros x Hx. apply PQ; auto. }
  split.
  - rewrite tree_is_sorted_spec by auto. split; apply SS; auto; intros q r Wq Wr;
    destruct (compare_wf d q r Wq Wr) as (A & _); tauto.
  - rewrite tree_is_linear_spec by auto.
    assert (E : forall q r, wf d q -> wf d r -> (before d q r <->
      forall a b c a' b' c', inq d q a b c -> inq d r a' b' c' -> ppos d a b c < ppos d a' b' c')).
    { intros q r Wq Wr. destruct (C01_valid_quadrants d q r Wq Wr) as (_ & _ & _ & D).
      destruct (disjoint_iff d q r Wq Wr) as (D1 & _). unfold before. tauto. }
    split; apply SS; auto. intros; symmetry; auto.
Qed.

(** The completeness check accepts an array with a hole in the middle. *)
Theorem C08_complete_refuted : exists l, Forall (wf D2) l /\ tree_is_complete D2 l = true /\
  exists a b c p, inroot D2 a b c /\ p = ppos D2 a b c /\
    qpos D2 (hd (mkq 0 0 0 0) l) <= p < qend D2 (last l (mkq 0 0 0 0)) /\
    forall q, In q l -> ~ inq D2 q a b c.
Proof.
  exists [mkq 0 0 0 1; mkq (3*2^28) (2^28) 0 2; mkq 0 (2^29) 0 1; mkq (2^29) (2^29) 0 1].
  split; [repeat (apply Forall_cons; [wf_example|]); constructor|].
  split; [vm_compute; reflexivity|].
  exists (2^29), 0, 0, (ppos D2 (2^29) 0 0).
  split; [unfold inroot; cbv beta iota; lia|]. split; [reflexivity|].
  split; [vm_compute; split; congruence|].
  intros q H (A & B & C). cbn [In] in H.
  decompose [or] H; try contradiction; subst q; 
    cbn [qx qy ql] in A, B; unfold side in A, B; lia.
Qed.

(** It accepts every array that tiles the range between its ends, and all
    accepted arrays are linear. *)
Theorem C08_complete_partial : forall d q l, Forall (wf d) (q :: l) ->
  ((tree_is_linear d (q :: l) = true /\
    forall p, qpos d q <= p < qend d (last (q :: l) q) ->
      exists r, In r (q :: l) /\ qpos d r <= p < qend d r) ->
   tree_is_complete d (q :: l) = true) /\
  (tree_is_complete d (q :: l) = true -> tree_is_linear d (q :: l) = true).
Proof.
  intros d q l F. split; [|apply complete_linear; auto].
  intros (L & C). apply gapfree_complete; auto.
  apply tree_is_linear_spec in L; auto.
  revert q F L C. induction l as [|b l IH]; intros q F L C; [repeat constructor|].
  inversion F as [|? ? Wa F']; subst. inversion F' as [|? ? Wb F'']; subst.
  inversion L as [|? ? L' Ha]; subst. rewrite last_cons in C.
  pose proof (qsize_pos d q Wa) as Sq. pose proof (qsize_pos d b Wb) as Sb.
  assert (Hb : Forall (fun c => qpos d b <= qpos d c) (b :: l)).
  { constructor; [lia|]. inversion L' as [|? ? _ H]; subst.
    eapply Forall_impl; [|exact H]. intros c Hc. unfold before, qend in *. lia. }
  assert (EL : qend d b <= qend d (last (b :: l) b)).
  { inversion L' as [|? ? _ H]; subst. clear - H F' Sb.
    assert (In (last (b :: l) b) (b :: l)).
    { clear. revert b. induction l; intros; [left; reflexivity|]. rewrite last_cons. right. apply IHl. }
    destruct H0 as [E|I]; [rewrite <- E; lia|].
    rewrite Forall_forall in H, F'. specialize (H _ I). specialize (F' _ (or_intror I)).
    pose proof (qsize_pos d _ F'). unfold before, qend in *. lia. }
  inversion Ha as [|? ? Hab Hal]; subst.
  constructor.
  - apply IH; auto. intros p Hp.
    destruct (C p) as (r & [E|I] & Hr); [unfold before, qend in *; lia| |eauto].
    subst r. unfold before, qend in *. lia.
  - constructor. unfold before in Hab.
    destruct (Z.eq_dec (qend d q) (qpos d b)) as [E|N]; [exact E|]. exfalso.
    destruct (C (qend d q)) as (r & [E|I] & Hr); [unfold qend in *; lia|subst; lia|].
    rewrite Forall_forall in Hb. specialize (Hb r I). lia.
Qed.

Example C08_ex : tree_is_complete D2 (childrenv D2 ex2) = true /\ tree_is_linear D2 (childrenv D2 ex2) = true
  /\ tree_is_linear D2 [ex2; child D2 ex2 0] = false.
Proof. vm_compute. auto. Qed.

Print Assumptions C08_sorted_linear.
Print Assumptions C08_complete_refuted.
Print Assumptions C08_complete_partial.

(** ** C09 *)
(** [geo_family d f]: f 0, f 1, ... are the children of one quadrant, in order *)
Theorem C09_is_family_refuted : exists f, (forall i, (i < 4)%nat -> wf D2 (f i)) /\
  StronglySorted (fun q r => compare D2 q r < 0) [f 0; f 1; f 2; f 3]%nat /\
  is_familyv D2 f = true /\ ~ geo_family D2 f.
Proof.
  exists (fun i => nth i [mkq (2^28) (2^28) 0 2; mkq (2^29) (2^28) 0 2;
                          mkq (2^28) (2^29) 0 2; mkq (2^29) (2^29) 0 2] (mkq 0 0 0 0)).
  split; [intros i Hi; do 4 (destruct i as [|i]; [wf_example|]); lia|].
  split; [cbn [nth]; repeat (first [apply SSorted_nil | apply SSorted_cons | apply Forall_nil | apply Forall_cons]);
          vm_compute; reflexivity|].
  split; [vm_compute; reflexivity|].
  intros (p & W & L & H).
  pose proof (H 0 ltac:(cbn; lia)) as H0. cbn [nth Z.to_nat] in H0.
  pose proof (child_mod D2 p 0 W L ltac:(cbn; lia)) as M. rewrite <- H0 in M. vm_compute in M. discriminate.
Qed.

Theorem C09_is_family_partial : forall d f, (forall i, (i < childrenn d)%nat -> wf d (f i)) ->
  (geo_family d f -> is_familyv d f = true) /\
  (child_id d (f 0%nat) = 0 -> (is_familyv d f = true <-> geo_family d f)).
Proof.
  intros d f W.
  assert (A : geo_family d f -> is_familyv d f = true).
  { intros (p & Wp & L & H). rewrite <- (is_familyv_children d p Wp L).
    assert (E : forall i, (i < childrenn d)%nat -> f i = child d p (Z.of_nat i)).
    { intros i Hi. rewrite <- (H (Z.of_nat i)); [rewrite Nat2Z.id; reflexivity|destruct d; cbn in *; lia]. }
    unfold is_familyv. destruct d; cbn [childrenn] in E;
    rewrite ?(E 0%nat), ?(E 1%nat), ?(E 2%nat), ?(E 3%nat), ?(E 4%nat), ?(E 5%nat), ?(E 6%nat), ?(E 7%nat) by lia;
    reflexivity. }
  split; [exact A|]. intros C0. split; [apply is_familyv_spec; auto|exact A].
Qed.

Print Assumptions C09_is_family_refuted.
Print Assumptions C09_is_family_partial.
