(** * Neighbors of quadrants by coordinates, for the proofs about the balance *)

From Coq Require Import ZArith List Bool Lia ZifyBool.
From Verif Require Import Quad Spec Morton ZBits Interval QuadLemmas CompareLemmas DescLemmas SuccLemmas RegionLemmas SearchLocal BalanceBasics.
Import ListNotations.
Open Scope Z_scope.

(** the quadrant of the same size that is a side lengths away in x, b in y and c in z *)
Definition shift (q : quad) (o : Z * Z * Z) : quad :=
  let '(a, b, c) := o in mkq (qx q + a * side (ql q)) (qy q + b * side (ql q)) (qz q + c * side (ql q)) (ql q).
(** the offsets of neighbors across faces (k = 1), also across edges in 3D or corners in 2D (k = 2), also across corners in 3D (k = 3) *)
Definition offset (d : dim) (k : Z) (o : Z * Z * Z) : Prop :=
  let '(a, b, c) := o in -1 <= a <= 1 /\ -1 <= b <= 1 /\ -1 <= c <= 1 /\ (d = D2 -> c = 0) /\ 1 <= Z.abs a + Z.abs b + Z.abs c <= k.

Section G.
  Variable d : dim.
  Notation inn w q := (qpos d w <= qpos d q /\ qend d q <= qend d w).
  Notation crn w q := (inq d w (qx q) (qy q) (qz q)).

  Lemma wf_z q : wf d q -> d = D2 -> qz q = 0.
  Proof. intros (_ & _ & _ & H) ->. exact H. Qed.

  Lemma crn_self q : wf d q -> crn q q.
  Proof. intros W. pose proof (wf_level d q W). pose proof (side_pos (ql q) ltac:(lia)). unfold inq. pose proof (wf_z q W). destruct d; [intuition lia|lia]. Qed.

  Lemma inn_corner w q : wf d w -> wf d q -> (inn w q <-> ql w <= ql q /\ crn w q).
  Proof.
    intros Ww Wq. pose proof (crn_self q Wq) as CS. apply (inq_pos d q _ _ _ Wq) in CS. destruct CS as (IR & PS). rewrite (inq_pos d w _ _ _ Ww). fold (qpos d q) in *. split.
    - intros I. split; [apply (inn_level d); auto|]. split; [exact IR|]. pose proof (size_pos d q Wq). lia.
    - intros (L & _ & P). pose proof (size_pos d q Wq). apply (nested_pt d w q (qpos d q)); auto; lia.
  Qed.

  Lemma anc_corner w q : wf d w -> (d = D2 -> qz q = 0) -> (is_ancestor d w q = true <-> ql w < ql q /\ crn w q).
  Proof.
    intros W Z0. pose proof (wf_level d w W) as L. pose proof (side_pos (ql w) ltac:(lia)) as S. unfold is_ancestor.
    destruct (ql w >=? ql q) eqn:E; [split; [discriminate|lia]|].
    change MAXLEVEL with 30.
    assert (ONE : forall A x, (Z.shiftr (Z.lxor (A * side (ql w)) x) (30 - ql w) =? 0) = true <-> A * side (ql w) <= x < A * side (ql w) + side (ql w)).
    { intros A x. rewrite Z.eqb_eq, Z.shiftr_div_pow2 by lia. rewrite lxor_div by lia. fold (side (ql w)). rewrite Z.div_mul by lia. split; intros H.
      - pose proof (Z.div_mod x (side (ql w)) ltac:(lia)). pose proof (Z.mod_pos_bound x (side (ql w)) S). rewrite <- H in *. lia.
      - apply Z.div_unique with (r := x - A * side (ql w)); lia. }
    destruct (wf_elim d w W) as (X & Y & Z1 & Ex & Ey & Ez & _ & _ & _ & HD & _). unfold inq. rewrite Ex, Ey, Ez, !andb_true_iff, orb_true_iff, !ONE.
    destruct d; cbn [is3 negb].
    - split; [intros ((A & B) & _); split; [lia|]; auto|]. intros (_ & A & B & _). auto.
    - split; [intros ((A & B) & [C|C]); [discriminate|]; split; [lia|auto]|]. intros (_ & A & B & C). auto.
  Qed.

  (** a cell of the grid whose corner lies in a quadrant *)
  Lemma cell_wf w X Y Z0 l : wf d w -> ql w <= l <= 29 -> (d = D2 -> Z0 = 0) -> let q := mkq (X * side l) (Y * side l) (Z0 * side l) l in crn w q -> wf d q /\ inn w q.
  Proof.
    intros W L HD q C. pose proof (wf_level d w W) as Lw. pose proof (wf_coord_range d w W) as CR. pose proof (side_pos l ltac:(lia)) as S. pose proof (side_mul l ltac:(lia)) as SM.
    destruct (wf_elim d w W) as (X1 & Y1 & Z1 & Ex & Ey & Ez & HX & HY & HZ & HD1 & _). pose proof (side_mul (ql w) ltac:(lia)) as SW. pose proof (side_pos (ql w) ltac:(lia)) as SP.
    assert (ONE : forall A B, 0 <= A < 2 ^ ql w -> A * side (ql w) <= B * side l < A * side (ql w) + side (ql w) -> 0 <= B < 2 ^ l).
    { intros A B HA H. assert (0 <= A * side (ql w)) by (apply Z.mul_nonneg_nonneg; lia). assert (H1 : (A + 1) * side (ql w) <= 2 ^ ql w * side (ql w)) by (apply Z.mul_le_mono_nonneg_r; lia). rewrite SW, <- SM in H1.
      split; [apply (Z.mul_le_mono_pos_r _ _ (side l)); lia|apply (Z.mul_lt_mono_pos_r (side l)); lia]. }
    assert (Wq : wf d q).
    { unfold inq in C. cbn [qx qy qz q] in C. rewrite Ex, Ey, Ez in C. destruct C as (C1 & C2 & C3).
      apply (proj1 (wf_intro d X Y Z0 l ltac:(lia) (ONE _ _ HX C1) (ONE _ _ HY C2) ltac:(destruct d; [rewrite HD by reflexivity; split; [lia|apply Z.pow_pos_nonneg; lia]|exact (ONE _ _ HZ C3)]) HD)). }
    split; [exact Wq|]. apply inn_corner; auto. split; [cbn [ql q]; lia|exact C].
  Qed.

  Lemma parent_coords q X Y Z0 : wf d q -> 0 < ql q -> qx q = X * side (ql q) -> qy q = Y * side (ql q) -> qz q = Z0 * side (ql q) ->
    parent d q = mkq (X / 2 * side (ql q - 1)) (Y / 2 * side (ql q - 1)) (Z0 / 2 * side (ql q - 1)) (ql q - 1).
  Proof.
    intros W L0 Ex Ey Ez. pose proof (wf_level d q W) as L. pose proof (side_pos (ql q) ltac:(lia)) as S. unfold parent. rewrite QLEN_side by lia. rewrite Ex, Ey, Ez.
    unfold side. rewrite !land_lnot_bit by lia. replace (30 - ql q + 1) with (30 - (ql q - 1)) by lia.
    f_equal. pose proof (wf_z q W) as HZ. destruct d; cbn [is3]; auto. specialize (HZ eq_refl). assert (Z0 = 0) by nia. subst. reflexivity.
  Qed.

  Lemma child_bits q X Y Z0 : wf d q -> 0 < ql q -> qx q = X * side (ql q) -> qy q = Y * side (ql q) -> qz q = Z0 * side (ql q) ->
    nz (Z.land (child_id d q) 1) = Z.odd X /\ nz (Z.land (child_id d q) 2) = Z.odd Y /\ nz (Z.land (child_id d q) 4) = Z.odd Z0.
  Proof.
    intros W L0 Ex Ey Ez. pose proof (wf_level d q W) as L. pose proof (side_pos (ql q) ltac:(lia)) as S. unfold child_id, ancestor_id. replace (ql q =? 0) with false by lia.
    rewrite QLEN_side by lia. unfold side. rewrite !nz_land_bit by lia. fold (side (ql q)). rewrite Ex, Ey, Ez, !Z.div_mul by lia.
    pose proof (wf_z q W) as HZ. destruct d; cbn [is3 andb].
    - specialize (HZ eq_refl). assert (Z0 = 0) by nia. subst Z0. destruct (Z.odd X), (Z.odd Y); auto.
    - destruct (Z.odd X), (Z.odd Y), (Z.odd Z0); auto.
  Qed.

  (** the part of an offset that leaves the parent; [b]: upper side *)
  Definition part (b : bool) (a : Z) : Z := if b then (if a =? 1 then 1 else 0) else if a =? -1 then -1 else 0.
  Definition leaving (pid : Z) (o : Z * Z * Z) : Z * Z * Z :=
    let '(a, b, c) := o in (part (nz (Z.land pid 1)) a, part (nz (Z.land pid 2)) b, if is3 d then part (nz (Z.land pid 4)) c else 0).

  Lemma half_part X a : -1 <= a <= 1 -> (X + a) / 2 = X / 2 + part (Z.odd X) a.
  Proof.
    intros H. pose proof (Zdiv2_odd_eqn X) as E. rewrite Z.div2_div in E. unfold part. destruct (Z.odd X); symmetry.
    - destruct (a =? 1) eqn:A; [apply Z.div_unique with (r := 0); lia|]. apply Z.div_unique with (r := 1 + a); lia.
    - destruct (a =? -1) eqn:A; [apply Z.div_unique with (r := 1); lia|]. apply Z.div_unique with (r := a); lia.
  Qed.

  Lemma shift_parent q o : wf d q -> 0 < ql q -> wf d (shift q o) -> (let '(a, b, c) := o in -1 <= a <= 1 /\ -1 <= b <= 1 /\ -1 <= c <= 1 /\ (d = D2 -> c = 0)) ->
    parent d (shift q o) = shift (parent d q) (leaving (child_id d q) o).
  Proof.
    destruct o as ((a, b), c). intros W L0 WS (Ha & Hb & Hc & HD). pose proof (wf_level d q W) as L.
    destruct (wf_elim d q W) as (X & Y & Z0 & Ex & Ey & Ez & _ & _ & _ & HD0 & _).
    rewrite (parent_coords (shift q (a, b, c)) (X + a) (Y + b) (Z0 + c) WS L0) by (cbn [shift qx qy qz ql]; lia).
    rewrite (parent_coords q X Y Z0 W L0 Ex Ey Ez). unfold leaving. destruct (child_bits q X Y Z0 W L0 Ex Ey Ez) as (-> & -> & ->).
    cbn [shift qx qy qz ql]. rewrite !half_part by assumption. f_equal; try lia.
    destruct d; cbn [is3]; [|lia]. rewrite HD, HD0 by reflexivity. reflexivity.
  Qed.

  Lemma shift_cell q o : (d = D2 -> snd o = 0) -> wf d q -> exists X Y Z0, shift q o = mkq (X * side (ql q)) (Y * side (ql q)) (Z0 * side (ql q)) (ql q) /\ (d = D2 -> Z0 = 0).
  Proof.
    destruct o as ((a, b), c). cbn [snd]. intros HC W. destruct (wf_elim d q W) as (X & Y & Z0 & Ex & Ey & Ez & _ & _ & _ & HD0 & _). exists (X + a), (Y + b), (Z0 + c).
    split; [cbn [shift]; f_equal; lia|]. intros E. rewrite HC, HD0 by exact E. reflexivity.
  Qed.

  Lemma shift_wf w q o : wf d w -> wf d q -> ql w <= ql q -> (d = D2 -> snd o = 0) -> crn w (shift q o) -> wf d (shift q o) /\ inn w (shift q o).
  Proof.
    intros Ww Wq L HC C. pose proof (wf_level d q Wq). destruct (shift_cell q o HC Wq) as (X & Y & Z0 & E & HZ). rewrite E in *. apply cell_wf; auto. lia.
  Qed.

  Lemma shift_zero q : shift q (0, 0, 0) = q.
  Proof. destruct q as (x, y, z, l). cbn [shift qx qy qz ql]. f_equal; lia. Qed.

  (** a neighbor of the parent on the side of the child is the parent of a neighbor of the child *)
  Lemma shift_up q o : wf d q -> 0 < ql q -> leaving (child_id d q) o = o -> (d = D2 -> snd o = 0) -> wf d (shift (parent d q) o) ->
    wf d (shift q o) /\ parent d (shift q o) = shift (parent d q) o.
  Proof.
    destruct o as ((a, b), c). cbn [snd]. intros W L0 LV HC WP. pose proof (wf_level d q W) as L.
    destruct (wf_elim d q W) as (X & Y & Z0 & Ex & Ey & Ez & _ & _ & _ & HD0 & _). pose proof (side_half (ql q - 1) ltac:(lia)) as SH. replace (ql q - 1 + 1) with (ql q) in SH by lia. pose proof (side_pos (ql q) ltac:(lia)) as SP.
    pose proof LV as LV'. unfold leaving in LV'. destruct (child_bits q X Y Z0 W L0 Ex Ey Ez) as (B1 & B2 & B3). rewrite B1, B2, B3 in LV'. apply pair_equal_spec in LV'. destruct LV' as (LV' & L3). apply pair_equal_spec in LV'. destruct LV' as (L1 & L2).
    assert (R : forall V e, part (Z.odd V) e = e -> -1 <= e <= 1) by (intros V e <-; unfold part; destruct (Z.odd V), (e =? 1), (e =? -1); lia).
    assert (R3 : -1 <= c <= 1) by (destruct d; cbn [is3] in L3; [lia|exact (R _ _ L3)]).
    assert (C : inq d (shift (parent d q) (a, b, c)) (qx (shift q (a, b, c))) (qy (shift q (a, b, c))) (qz (shift q (a, b, c)))).
    { rewrite (parent_coords q X Y Z0 W L0 Ex Ey Ez). unfold inq. cbn [shift qx qy qz ql]. rewrite Ex, Ey, Ez, SH.
      assert (ONE : forall V e, part (Z.odd V) e = e -> V / 2 * (2 * side (ql q)) + e * (2 * side (ql q)) <= V * side (ql q) + e * side (ql q) < V / 2 * (2 * side (ql q)) + e * (2 * side (ql q)) + 2 * side (ql q)).
      { intros V e He. pose proof (half_part V e (R V e He)) as HP. rewrite He in HP. pose proof (Z.div_mod (V + e) 2 ltac:(lia)) as DM. pose proof (Z.mod_pos_bound (V + e) 2 ltac:(lia)) as MB. rewrite HP in DM. nia. }
      split; [exact (ONE _ _ L1)|]. split; [exact (ONE _ _ L2)|]. destruct d; cbn [is3] in L3; [rewrite HC, HD0 by reflexivity; reflexivity|exact (ONE _ _ L3)]. }
    destruct (parent_wf d q W L0) as (Wp & Lp & _).
    destruct (shift_wf _ q (a, b, c) WP W) as (WS & _); [cbn [shift ql]; lia|exact HC|exact C|]. split; [exact WS|].
    rewrite (shift_parent q (a, b, c) W L0 WS) by (split; [apply (R X); exact L1|split; [apply (R Y); exact L2|split; [exact R3|exact HC]]]). rewrite LV. reflexivity.
  Qed.

  (** the leaf of a refinement of q at the boundary in direction o: its neighbor lies in the neighbor of q *)
  Definition edge_pt (lo len a : Z) : Z := if a =? 1 then lo + len - 1 else lo.
  Lemma shift_down q v o : wf d q -> wf d v -> wf d (shift q o) -> (let '(a, b, c) := o in -1 <= a <= 1 /\ -1 <= b <= 1 /\ -1 <= c <= 1 /\ (d = D2 -> c = 0)) ->
    (let '(a, b, c) := o in inq d v (edge_pt (qx q) (side (ql q)) a) (edge_pt (qy q) (side (ql q)) b) (match d with D2 => 0 | D3 => edge_pt (qz q) (side (ql q)) c end)) -> ql q <= ql v -> inn q v ->
    wf d (shift v o) /\ inn (shift q o) (shift v o).
  Proof.
    destruct o as ((a, b), c). intros Wq Wv WS (Ha & Hb & Hc & HD) PT LV I. pose proof (wf_level d q Wq). pose proof (wf_level d v Wv).
    apply (inn_corner q v Wq Wv) in I. destruct I as (_ & (I1 & I2 & I3)). destruct PT as (P1 & P2 & P3).
    pose proof (side_split (ql q) (ql v) ltac:(lia)) as SS. set (K := 2 ^ (ql v - ql q)) in *. assert (KP : 0 < K) by (apply Z.pow_pos_nonneg; lia). pose proof (side_pos (ql v) ltac:(lia)) as SP.
    destruct (wf_elim d q Wq) as (X & Y & Z0 & Ex & Ey & Ez & _ & _ & _ & HD0 & _). destruct (wf_elim d v Wv) as (X' & Y' & Z' & Ex' & Ey' & Ez' & _ & _ & _ & HD' & _).
    assert (ONE : forall A B e, -1 <= e <= 1 -> A * (K * side (ql v)) <= B * side (ql v) < A * (K * side (ql v)) + K * side (ql v) ->
      B * side (ql v) <= edge_pt (A * (K * side (ql v))) (K * side (ql v)) e < B * side (ql v) + side (ql v) ->
      A * (K * side (ql v)) + e * (K * side (ql v)) <= B * side (ql v) + e * side (ql v) < A * (K * side (ql v)) + e * (K * side (ql v)) + K * side (ql v)).
    { intros A B e He H1 H2. set (s := side (ql v)) in *. unfold edge_pt in H2. rewrite !Z.mul_assoc in *.
      assert (L1 : A * K <= B) by (apply (Z.mul_le_mono_pos_r _ _ s); lia). assert (L2 : B + 1 <= A * K + K). { assert (B < A * K + K); [apply (Z.mul_lt_mono_pos_r s); lia|lia]. }
      destruct (Z.eq_dec e 1) as [->|N1].
      - change (1 =? 1) with true in H2. cbv iota in H2. assert (B + 1 >= A * K + K). { destruct (Z_lt_dec (B + 1) (A * K + K)) as [G|G]; [exfalso|lia]. assert ((B + 2) * s <= (A * K + K) * s) by (apply Z.mul_le_mono_nonneg_r; lia). lia. }
        assert (EB : B = A * K + K - 1) by lia. rewrite EB. pose proof (Z.mul_le_mono_nonneg_r 1 K s ltac:(lia) ltac:(lia)). lia.
      - replace (e =? 1) with false in H2 by lia. destruct (Z.eq_dec e (-1)) as [->|N2].
        + assert (EB : B = A * K). { destruct (Z_lt_dec (A * K) B) as [G|G]; [exfalso|lia]. assert ((A * K + 1) * s <= B * s) by (apply Z.mul_le_mono_nonneg_r; lia). lia. }
          rewrite EB. pose proof (Z.mul_le_mono_nonneg_r 1 K s ltac:(lia) ltac:(lia)). lia.
        + replace e with 0 by lia. lia. }
    apply (shift_wf (shift q (a, b, c)) v (a, b, c)); auto.
    unfold inq. cbn [shift qx qy qz ql]. rewrite Ex, Ey, Ez, Ex', Ey', Ez', SS in *.
    split; [apply ONE; auto|]. split; [apply ONE; auto|]. destruct d; [rewrite HD, HD' by reflexivity; reflexivity|apply ONE; auto].
  Qed.

  (** ** The first child of a quadrant stands for the quadrant in the lists *)
  Definition rep (n : quad) : quad := mkq (qx n) (qy n) (qz n) (ql n + 1).
  Lemma rep_spec n : wf d n -> ql n < 29 -> wf d (rep n) /\ ql (rep n) = ql n + 1 /\ qpos d (rep n) = qpos d n /\ parent d (rep n) = n /\ inn n (rep n).
  Proof.
    intros W L. pose proof (wf_level d n W). destruct (down d n (ql n + 1) W ltac:(lia)) as (A & B & C). fold (rep n) in A, B, C. split; [exact A|]. split; [exact B|]. split; [exact C|].
    pose proof (parent_inn d (rep n) A ltac:(lia)) as J. destruct (parent_wf d (rep n) A ltac:(lia)) as (Wp & Lp & _). pose proof (size_pos d (rep n) A).
    assert (E : n = parent d (rep n)). { apply (inn_eq d); auto; [|lia]. apply (nested_pt d n (parent d (rep n)) (qpos d n)); auto; pose proof (size_pos d n W); lia. }
    split; [symmetry; exact E|]. rewrite <- E in J. lia.
  Qed.
  Lemma sibling0_rep q : wf d q -> 0 < ql q -> sibling d q 0 = rep (parent d q).
  Proof.
    intros W L. pose proof (wf_level d q W). pose proof (children_nonneg d). destruct (sibling_pos d q 0 W L ltac:(lia)) as (A & B & C & D & E). destruct (parent_wf d q W L) as (Wp & Lp & _).
    destruct (rep_spec (parent d q) Wp ltac:(lia)) as (R1 & R2 & R3 & _). apply (quad_eq d); auto; lia.
  Qed.
  Lemma rep_inj n m : rep n = rep m -> n = m.
  Proof. unfold rep. destruct n as (x, y, z, l), m as (x1, y1, z1, l1). cbn [qx qy qz ql]. intros H. injection H as -> -> -> H. f_equal. lia. Qed.
End G.
