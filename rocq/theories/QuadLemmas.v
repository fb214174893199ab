(** * Meaning of the functions of p4est_bits.c on curve intervals *)

From Coq Require Import ZArith List Bool Lia ZifyBool.
From Verif Require Import Quad Spec Morton ZBits Interval.
Import ListNotations.
Open Scope Z_scope.

Lemma nd_children d : 2 ^ nd d = children d.
Proof. destruct d; reflexivity. Qed.

Lemma divqr b q r : 0 <= r < b -> (b * q + r) / b = q.
Proof. intros. rewrite Z.mul_comm, Z.div_add_l by lia. rewrite (Z.div_small r) by lia. lia. Qed.

Lemma modqr b q r : 0 <= r < b -> (b * q + r) mod b = r.
Proof. intros. rewrite Z.add_comm, Z.mul_comm, Z.mod_add by lia. apply Z.mod_small; lia. Qed.

(** elimination / introduction of well-formed quadrants by block coordinates *)
Lemma wf_elim d q : wf d q -> exists X Y Z0,
  qx q = X * side (ql q) /\ qy q = Y * side (ql q) /\ qz q = Z0 * side (ql q) /\
  0 <= X < 2 ^ ql q /\ 0 <= Y < 2 ^ ql q /\ 0 <= Z0 < 2 ^ ql q /\ (d = D2 -> Z0 = 0) /\
  qidx d q = mort d (Z.to_nat (ql q)) X Y Z0.
Proof.
  intros W. pose proof (wf_level d q W) as L.
  destruct W as (_ & (X & Ex & HX) & (Y & Ey & HY) & Hz).
  assert (exists Z0, qz q = Z0 * side (ql q) /\ 0 <= Z0 < 2 ^ ql q /\ (d = D2 -> Z0 = 0))
    as (Z0 & Ez & HZ & HD).
  { destruct d.
    - exists 0. rewrite Hz. pose proof (pow2_pos (ql q)). repeat split; lia.
    - destruct Hz as (Z0 & ? & ?). exists Z0. repeat split; auto; try lia. discriminate. }
  exists X, Y, Z0. repeat (split; [assumption|]). 
  set (n := Z.to_nat (ql q)). assert (Hn : Z.of_nat n = ql q) by (unfold n; lia).
  assert (E : q = mkquad d (ql q) (mort d n X Y Z0)).
  { pose proof HX as HX'. pose proof HY as HY'. pose proof HZ as HZ'. rewrite <- Hn in HX', HY', HZ'.
    destruct (un_mort_all d n X Y Z0) as (A & B & C); auto.
    unfold mkquad. fold n. rewrite A, B, C, <- Ex, <- Ey, <- Ez. destruct q; reflexivity. }
  rewrite E. apply qidx_mkquad; [lia|]. rewrite <- Hn. apply mort_range.
Qed.

Lemma wf_intro d X Y Z0 l :
  0 <= l <= 29 -> 0 <= X < 2 ^ l -> 0 <= Y < 2 ^ l -> 0 <= Z0 < 2 ^ l -> (d = D2 -> Z0 = 0) ->
  let q := mkq (X * side l) (Y * side l) (Z0 * side l) l in
  wf d q /\ qidx d q = mort d (Z.to_nat l) X Y Z0.
Proof.
  intros Hl HX HY HZ HD q.
  assert (W : wf d q).
  { unfold wf, q; cbn [qx qy qz ql]. split; [lia|]. split; [eauto|]. split; [eauto|].
    destruct d; [rewrite HD by reflexivity; lia | eauto]. }
  split; auto.
  destruct (wf_elim d q W) as (X' & Y' & Z' & Ex & Ey & Ez & _ & _ & _ & _ & E).
  rewrite E. cbn [qx qy qz ql q] in *.
  pose proof (side_pos l ltac:(lia)).
  assert (X = X') by nia. assert (Y = Y') by nia. assert (Z0 = Z') by nia. subst. reflexivity.
Qed.

(** positions from indices *)
Lemma wf_qpos d q : wf d q -> qpos d q = qidx d q * psize d (ql q).
Proof. intros W. apply wf_idx; auto. Qed.

Lemma psize_child d l : l < 30 -> psize d l = children d * psize d (l + 1).
Proof.
  intros. rewrite (psize_split d l (l + 1)) by lia. rewrite <- nd_children. f_equal. f_equal. lia.
Qed.

Lemma div2_pow X l : 0 < l -> 0 <= X < 2 ^ l -> 0 <= X / 2 < 2 ^ (l - 1).
Proof.
  intros Hl HX. split; [apply Z.div_pos; lia|]. apply Z.div_lt_upper_bound; [lia|].
  replace l with (Z.succ (l - 1)) in HX by lia. rewrite Z.pow_succ_r in HX by lia. lia.
Qed.

Lemma divpow X l k : 0 <= k <= l -> 0 <= X < 2 ^ l -> 0 <= X / 2 ^ k < 2 ^ (l - k).
Proof.
  intros Hl HX. pose proof (pow2_pos k).
  split; [apply Z.div_pos; lia|]. apply Z.div_lt_upper_bound; [lia|].
  rewrite <- Z.pow_add_r by lia. replace (k + (l - k)) with l by lia. lia.
Qed.

(** ** parent *)
Lemma parent_wf d q : wf d q -> 0 < ql q ->
  wf d (parent d q) /\ ql (parent d q) = ql q - 1 /\
  qidx d (parent d q) = qidx d q / children d.
Proof.
  intros W L0. pose proof (wf_level d q W) as L.
  destruct (wf_elim d q W) as (X & Y & Z0 & Ex & Ey & Ez & HX & HY & HZ & HD & EI).
  assert (P : parent d q = mkq (X / 2 * side (ql q - 1)) (Y / 2 * side (ql q - 1))
                               (Z0 / 2 * side (ql q - 1)) (ql q - 1)).
  { unfold parent. rewrite QLEN_side by lia. rewrite Ex, Ey, Ez.
    unfold side. rewrite !land_lnot_bit by lia.
    replace (30 - ql q + 1) with (30 - (ql q - 1)) by lia.
    f_equal. destruct d; cbn [is3]; auto. rewrite HD by reflexivity. reflexivity. }
  rewrite P.
  destruct (wf_intro d (X/2) (Y/2) (Z0/2) (ql q - 1)) as (A & B);
    try (apply div2_pow; lia); try lia.
  { intros; rewrite HD by auto; reflexivity. }
  split; [exact A|]. split; [reflexivity|]. rewrite B, EI.
  replace (Z.to_nat (ql q)) with (S (Z.to_nat (ql q - 1))) by lia. cbn [mort].
  rewrite <- nd_children. pose proof (dig_range d X Y Z0).
  rewrite Z.mul_comm, Z.div_add_l by lia. rewrite (Z.div_small (dig d X Y Z0)) by lia. lia.
Qed.

(** ** ancestor *)
Lemma ancestor_wf d q m : wf d q -> 0 <= m <= ql q ->
  wf d (ancestor d q m) /\ ql (ancestor d q m) = m /\
  qidx d (ancestor d q m) = qidx d q / 2 ^ (nd d * (ql q - m)).
Proof.
  intros W L0. pose proof (wf_level d q W) as L.
  destruct (wf_elim d q W) as (X & Y & Z0 & Ex & Ey & Ez & HX & HY & HZ & HD & EI).
  set (k := ql q - m).
  assert (D : forall T, T * side (ql q) / side m = T / 2 ^ k).
  { intros T. rewrite (side_split m (ql q)) by lia. fold k.
    pose proof (side_pos (ql q)). pose proof (pow2_pos k).
    apply Z.div_mul_cancel_r; lia. }
  assert (P : ancestor d q m = mkq (X / 2 ^ k * side m) (Y / 2 ^ k * side m)
                               (Z0 / 2 ^ k * side m) m).
  { unfold ancestor. rewrite QLEN_side by lia. unfold side at 1 2 3.
    rewrite !land_lnot_mask by lia. fold (side m).
    rewrite Ex, Ey, Ez, !D.
    f_equal. destruct d; cbn [is3]; auto. rewrite HD by reflexivity. reflexivity. }
  rewrite P.
  destruct (wf_intro d (X / 2 ^ k) (Y / 2 ^ k) (Z0 / 2 ^ k) m) as (A & B);
    try (replace m with (ql q - k) by lia; apply divpow; lia); try lia.
  { intros; rewrite HD by auto; apply Z.div_0_l. pose proof (pow2_pos k); lia. }
  split; [exact A|]. split; [reflexivity|]. rewrite B, EI.
  replace (Z.to_nat (ql q)) with (Z.to_nat m + Z.to_nat k)%nat by lia.
  rewrite mort_split. rewrite !Z2Nat.id by lia.
  pose proof (mort_range d (Z.to_nat k) X Y Z0) as R. rewrite Z2Nat.id in R by lia.
  rewrite Z.mul_comm, Z.div_add_l by lia. rewrite (Z.div_small (mort d (Z.to_nat k) X Y Z0)) by lia. lia.
Qed.

Lemma ancestor_contains d q m : wf d q -> 0 <= m <= ql q ->
  qpos d (ancestor d q m) <= qpos d q /\ qend d q <= qend d (ancestor d q m).
Proof.
  intros W L0. pose proof (wf_level d q W) as L.
  destruct (ancestor_wf d q m W L0) as (A & B & C).
  unfold qend. rewrite !wf_qpos, !qsize_psize, B, C by auto.
  rewrite (psize_split d m (ql q)) by lia.
  set (c := 2 ^ (nd d * (ql q - m))).
  assert (0 < c) by (apply pow2_pos; pose proof (nd_pos d); nia).
  pose proof (psize_pos d (ql q) ltac:(lia)).
  pose proof (Z.div_mod (qidx d q) c ltac:(lia)).
  pose proof (Z.mod_pos_bound (qidx d q) c ltac:(lia)).
  set (s := psize d (ql q)) in *. nia.
Qed.

Lemma parent_ancestor d q : wf d q -> 0 < ql q -> parent d q = ancestor d q (ql q - 1).
Proof.
  intros W L0. pose proof (wf_level d q W) as L.
  destruct (parent_wf d q W L0) as (A & B & C).
  destruct (ancestor_wf d q (ql q - 1) W ltac:(lia)) as (A' & B' & C').
  apply (quad_eq d); auto; try lia.
  rewrite !wf_qpos by auto. rewrite B, B', C, C'. rewrite <- nd_children.
  do 4 f_equal. lia.
Qed.

(** ** ancestor_id and child_id *)
Lemma odd_b2z a : (if Z.odd a then 1 else 0) = a mod 2.
Proof. rewrite Zmod_odd. reflexivity. Qed.

Lemma ancestor_id_dig d q m : wf d q -> 0 < m <= ql q ->
  ancestor_id d q m = (qidx d q / 2 ^ (nd d * (ql q - m))) mod children d.
Proof.
  intros W L0. pose proof (wf_level d q W) as L.
  destruct (wf_elim d q W) as (X & Y & Z0 & Ex & Ey & Ez & HX & HY & HZ & HD & EI).
  set (k := ql q - m).
  assert (D : forall T, T * side (ql q) / side m = T / 2 ^ k).
  { intros T. rewrite (side_split m (ql q)) by lia. fold k.
    pose proof (side_pos (ql q)). pose proof (pow2_pos k).
    apply Z.div_mul_cancel_r; lia. }
  assert (A : ancestor_id d q m = dig d (X / 2 ^ k) (Y / 2 ^ k) (Z0 / 2 ^ k)).
  { unfold ancestor_id. replace (m =? 0) with false by lia.
    rewrite QLEN_side by lia. unfold side. rewrite !nz_land_bit by lia. fold (side m).
    rewrite Ex, Ey, Ez, !D. unfold dig. rewrite !Zmod_odd.
    destruct d; cbn [is3 andb];
    destruct (Z.odd (X / 2 ^ k)), (Z.odd (Y / 2 ^ k)); try reflexivity;
    destruct (Z.odd (Z0 / 2 ^ k)); reflexivity. }
  rewrite A, EI.
  replace (Z.to_nat (ql q)) with (S (Z.to_nat (m - 1)) + Z.to_nat k)%nat by lia.
  rewrite mort_split. rewrite !Z2Nat.id by lia.
  pose proof (mort_range d (Z.to_nat k) X Y Z0) as R. rewrite Z2Nat.id in R by lia.
  rewrite Z.mul_comm, Z.div_add_l by lia. rewrite (Z.div_small (mort d (Z.to_nat k) X Y Z0)) by lia.
  rewrite Z.add_0_r. cbn [mort]. rewrite nd_children.
  pose proof (dig_range d (X / 2 ^ k) (Y / 2 ^ k) (Z0 / 2 ^ k)) as G. rewrite nd_children in G.
  rewrite Z.add_comm, Z.mul_comm, Z.mod_add by lia. symmetry; apply Z.mod_small; auto.
Qed.

Lemma child_id_dig d q : wf d q -> 0 < ql q -> child_id d q = qidx d q mod children d.
Proof.
  intros W H. unfold child_id. rewrite ancestor_id_dig by (auto; lia).
  replace (ql q - ql q) with 0 by lia. rewrite Z.mul_0_r. change (2 ^ 0) with 1.
  rewrite Z.div_1_r. reflexivity.
Qed.

Lemma child_id_range d q : wf d q -> 0 <= child_id d q < children d.
Proof.
  intros W. pose proof (wf_level d q W).
  destruct (Z.eq_dec (ql q) 0) as [E|].
  - unfold child_id, ancestor_id. rewrite E. simpl. destruct d; simpl; lia.
  - rewrite child_id_dig by (auto; lia). apply Z.mod_pos_bound. destruct d; simpl; lia.
Qed.

(** ** children *)
Lemma bit_digit d c : 0 <= c < children d ->
  c = b2z (nz (Z.land c 1)) + 2 * b2z (nz (Z.land c 2)) +
      match d with D2 => 0 | D3 => 4 * b2z (nz (Z.land c 4)) end.
Proof.
  intros. destruct d; simpl in H;
  (assert (c = 0 \/ c = 1 \/ c = 2 \/ c = 3 \/ c = 4 \/ c = 5 \/ c = 6 \/ c = 7)
    as [->|[->|[->|[->|[->|[->|[->| ->]]]]]]] by lia); try reflexivity; lia.
Qed.

Lemma dig_b2z d X Y Z0 b0 b1 b2 :
  dig d (2 * X + b2z b0) (2 * Y + b2z b1) (2 * Z0 + b2z b2) =
  b2z b0 + 2 * b2z b1 + match d with D2 => 0 | D3 => 4 * b2z b2 end.
Proof.
  unfold dig.
  assert (E : forall T b, (2 * T + b2z b) mod 2 = b2z b).
  { intros. rewrite Z.add_comm, Z.mul_comm, Z.mod_add by lia. destruct b; reflexivity. }
  rewrite !E. reflexivity.
Qed.

Lemma half_b2z T b : (2 * T + b2z b) / 2 = T.
Proof. rewrite Z.mul_comm, Z.div_add_l by lia. destruct b; simpl; rewrite Z.add_0_r; reflexivity. Qed.

Lemma child_wf d q c : wf d q -> ql q < 29 -> 0 <= c < children d ->
  wf d (child d q c) /\ ql (child d q c) = ql q + 1 /\
  qidx d (child d q c) = children d * qidx d q + c.
Proof.
  intros W L0 Hc. pose proof (wf_level d q W) as L.
  destruct (wf_elim d q W) as (X & Y & Z0 & Ex & Ey & Ez & HX & HY & HZ & HD & EI).
  set (b0 := nz (Z.land c 1)). set (b1 := nz (Z.land c 2)).
  set (b2 := is3 d && nz (Z.land c 4)).
  assert (S2 : side (ql q) = 2 ^ (30 - (ql q + 1) + 1)) by (unfold side; f_equal; lia).
  assert (S3 : side (ql q) = 2 * side (ql q + 1)) by (apply side_half; lia).
  assert (E : forall T (b : bool), (if b then Z.lor (T * side (ql q)) (side (ql q + 1)) else T * side (ql q))
              = (2 * T + b2z b) * side (ql q + 1)).
  { intros T b. destruct b; cbn [b2z].
    - rewrite S2. unfold side at 1. rewrite lor_bit_even by lia. rewrite <- S2, S3. unfold side. ring.
    - rewrite S3. ring. }
  assert (P : child d q c = mkq ((2 * X + b2z b0) * side (ql q + 1)) ((2 * Y + b2z b1) * side (ql q + 1))
                                ((2 * Z0 + b2z b2) * side (ql q + 1)) (ql q + 1)).
  { unfold child. rewrite QLEN_side by lia. rewrite Ex, Ey, Ez. fold b0 b1 b2. rewrite !E. reflexivity. }
  rewrite P.
  assert (R : forall T (b : bool), 0 <= T < 2 ^ ql q -> 0 <= 2 * T + b2z b < 2 ^ (ql q + 1)).
  { intros T b HT. rewrite Z.add_1_r, Z.pow_succ_r by lia. destruct b; cbn [b2z]; lia. }
  destruct (wf_intro d (2 * X + b2z b0) (2 * Y + b2z b1) (2 * Z0 + b2z b2) (ql q + 1)) as (A & B);
    auto; try lia.
  { intros ->. rewrite HD by reflexivity. reflexivity. }
  split; [exact A|]. split; [reflexivity|]. rewrite B, EI.
  replace (Z.to_nat (ql q + 1)) with (S (Z.to_nat (ql q))) by lia. cbn [mort].
  rewrite !half_b2z, nd_children. f_equal. rewrite dig_b2z.
  rewrite (bit_digit d c Hc) at 1. unfold b0, b1, b2. destruct d; reflexivity.
Qed.

Lemma child_pos d q c : wf d q -> ql q < 29 -> 0 <= c < children d ->
  qpos d (child d q c) = qpos d q + c * psize d (ql q + 1).
Proof.
  intros W L0 Hc. destruct (child_wf d q c W L0 Hc) as (A & B & C).
  rewrite !wf_qpos by auto. rewrite B, C. rewrite (psize_child d (ql q)) by lia. ring.
Qed.

Lemma child_mod d q c : wf d q -> ql q < 29 -> 0 <= c < children d ->
  child_id d (child d q c) = c.
Proof.
  intros W L0 Hc. destruct (child_wf d q c W L0 Hc) as (A & B & C). pose proof (wf_level _ _ W).
  rewrite child_id_dig by (auto; lia). rewrite C.
  rewrite Z.add_comm, Z.mul_comm, Z.mod_add by lia. apply Z.mod_small; lia.
Qed.

Lemma child_parent d q c : wf d q -> ql q < 29 -> 0 <= c < children d ->
  parent d (child d q c) = q.
Proof.
  intros W L0 Hc. destruct (child_wf d q c W L0 Hc) as (A & B & C). pose proof (wf_level _ _ W).
  destruct (parent_wf d (child d q c) A ltac:(lia)) as (A' & B' & C').
  apply (quad_eq d); auto; try lia. rewrite !wf_qpos by auto. rewrite B', C', C, B.
  rewrite divqr by lia. f_equal. f_equal. lia.
Qed.

Lemma parent_child d q : wf d q -> 0 < ql q -> child d (parent d q) (child_id d q) = q.
Proof.
  intros W L0. pose proof (wf_level d q W) as L.
  destruct (parent_wf d q W L0) as (A & B & C).
  pose proof (child_id_range d q W) as R.
  destruct (child_wf d (parent d q) (child_id d q) A ltac:(lia) R) as (A' & B' & C').
  apply (quad_eq d); auto; try lia. rewrite !wf_qpos by auto. rewrite B', B, C', C.
  rewrite child_id_dig by auto. rewrite <- Z.div_mod by lia. f_equal. f_equal. lia.
Qed.

Lemma sibling_child d q i : wf d q -> 0 < ql q -> 0 <= i < children d ->
  sibling d q i = child d (parent d q) i.
Proof.
  intros W L0 Hi. pose proof (wf_level d q W) as L.
  destruct (wf_elim d q W) as (X & Y & Z0 & Ex & Ey & Ez & HX & HY & HZ & HD & EI).
  unfold sibling, child, parent. cbn [qx qy qz ql].
  replace (ql q - 1 + 1) with (ql q) by lia.
  assert (B0 : nz (Z.land i 1) = nz (Z.land i 1)) by reflexivity.
  assert (B1 : nz (Z.shiftr (Z.land i 2) 1) = nz (Z.land i 2)).
  { destruct d; simpl in Hi;
    (assert (i = 0 \/ i = 1 \/ i = 2 \/ i = 3 \/ i = 4 \/ i = 5 \/ i = 6 \/ i = 7)
    as [->|[->|[->|[->|[->|[->|[->| ->]]]]]]] by lia); reflexivity. }
  assert (B2 : nz (Z.shiftr (Z.land i 4) 2) = nz (Z.land i 4)).
  { destruct d; simpl in Hi;
    (assert (i = 0 \/ i = 1 \/ i = 2 \/ i = 3 \/ i = 4 \/ i = 5 \/ i = 6 \/ i = 7)
    as [->|[->|[->|[->|[->|[->|[->| ->]]]]]]] by lia); reflexivity. }
  rewrite B1, B2, QLEN_side by lia.
  assert (E : forall T, Z.lor (T * side (ql q)) (side (ql q)) =
              Z.lor (Z.land (T * side (ql q)) (Z.lnot (side (ql q)))) (side (ql q))).
  { intros T. unfold side. rewrite land_lnot_bit by lia.
    rewrite lor_bit by lia. rewrite lor_bit_even by lia.
    rewrite Z.pow_add_r by lia. change (2 ^ 1) with 2. ring. }
  rewrite Ex, Ey, Ez. rewrite !E. f_equal.
  destruct d; cbn [is3 andb]; [reflexivity|]. destruct (nz (Z.land i 4)); reflexivity.
Qed.

Definition cids (d : dim) : list Z :=
  match d with D2 => [0;1;2;3] | D3 => [0;1;2;3;4;5;6;7] end.

Lemma childrenv_child d q : childrenv d q = map (child d q) (cids d).
Proof. destruct d; reflexivity. Qed.

(** ** is_equal *)
Lemma is_equal_eq d q r : wf d q -> wf d r -> (is_equal d q r = true <-> q = r).
Proof.
  intros (_ & _ & _ & Hz) (_ & _ & _ & Hz'). unfold is_equal.
  destruct q as [x y z l], r as [x' y' z' l']; cbn [qx qy qz ql] in *.
  split.
  - intros H. destruct d; cbn [is3 negb orb] in *; f_equal; lia.
  - intros H. injection H; intros; subst. rewrite !Z.eqb_refl. destruct d; reflexivity.
Qed.

(** ** comparing block coordinates at a level = containment in an ancestor *)
Lemma same_ancestor d q r m : wf d q -> wf d r -> 0 <= m <= ql q -> 0 <= m <= ql r ->
  (ancestor d q m = ancestor d r m <->
   qidx d q / 2 ^ (nd d * (ql q - m)) = qidx d r / 2 ^ (nd d * (ql r - m))).
Proof.
  intros Wq Wr Hq Hr.
  destruct (ancestor_wf d q m Wq Hq) as (A & B & C).
  destruct (ancestor_wf d r m Wr Hr) as (A' & B' & C').
  rewrite <- C, <- C'. split; [congruence|].
  intros E. apply (quad_eq d); auto; try lia. rewrite !wf_qpos by auto. rewrite E, B, B'. reflexivity.
Qed.

Lemma coords_same_block d q r m : wf d q -> wf d r -> 0 <= m <= ql q -> 0 <= m <= ql r ->
  (ancestor d q m = ancestor d r m <->
   qx q / side m = qx r / side m /\ qy q / side m = qy r / side m /\
   qz q / side m = qz r / side m).
Proof.
  intros Wq Wr Hq Hr. pose proof (wf_level _ _ Wq). pose proof (wf_level _ _ Wr).
  pose proof (side_pos m ltac:(lia)) as Sp.
  unfold ancestor. rewrite QLEN_side by lia. unfold side at 1 2 3 4 5 6.
  rewrite !land_lnot_mask by lia. fold (side m).
  assert (Z2 : d = D2 -> qz q = 0 /\ qz r = 0).
  { intros ->. destruct Wq as (_ & _ & _ & ?), Wr as (_ & _ & _ & ?). auto. }
  split.
  - intros E. injection E; intros Ez Ey Ex. split; [nia|]. split; [nia|].
    destruct d; cbn [is3] in Ez; [|nia]. destruct (Z2 eq_refl) as [-> ->]. reflexivity.
  - intros (-> & -> & Ez). f_equal. destruct d; cbn [is3]; [|nia].
    destruct (Z2 eq_refl) as [-> ->]. reflexivity.
Qed.

(** containment by intervals versus ancestors *)
Lemma contains_ancestor d q r : wf d q -> wf d r -> ql q <= ql r ->
  (q = ancestor d r (ql q) <-> qpos d q <= qpos d r /\ qend d r <= qend d q).
Proof.
  intros Wq Wr L. pose proof (wf_level _ _ Wq). pose proof (wf_level _ _ Wr).
  split.
  - intros E. pose proof (ancestor_contains d r (ql q) Wr ltac:(lia)) as D.
    rewrite <- E in D. exact D.
  - intros H1.
    destruct (ancestor_wf d r (ql q) Wr ltac:(lia)) as (A & B & C).
    pose proof (ancestor_contains d r (ql q) Wr ltac:(lia)) as D.
    apply (quad_eq d); auto.
    rewrite (wf_qpos d q Wq), (wf_qpos d _ A), B.
    f_equal.
    unfold qend in *. rewrite (wf_qpos d q Wq), !qsize_psize, (wf_qpos d _ A), B in *.
    pose proof (psize_pos d (ql q) ltac:(lia)). pose proof (psize_pos d (ql r) ltac:(lia)). nia.
Qed.

Lemma is_ancestor_iff d q r : wf d q -> wf d r ->
  (is_ancestor d q r = true <->
   ql q < ql r /\ qpos d q <= qpos d r /\ qend d r <= qend d q).
Proof.
  intros Wq Wr. pose proof (wf_level _ _ Wq). pose proof (wf_level _ _ Wr).
  unfold is_ancestor. destruct (ql q >=? ql r) eqn:E; [split; intros; [discriminate|lia]|].
  assert (L : ql q < ql r) by lia.
  rewrite <- (contains_ancestor d q r) by (auto; lia).
  assert (F : q = ancestor d q (ql q)).
  { apply contains_ancestor; auto; lia. }
  assert (F2 : q = ancestor d r (ql q) <-> ancestor d q (ql q) = ancestor d r (ql q))
    by (split; congruence).
  rewrite F2. rewrite (coords_same_block d q r (ql q)) by (auto; lia).
  unfold MAXLEVEL. rewrite !shiftr_lxor_0 by lia. fold (side (ql q)).
  rewrite !andb_true_iff, !Z.eqb_eq, orb_true_iff, Z.eqb_eq.
  split.
  - intros ((A & B) & [C|C]); split; auto; repeat split; auto.
    destruct d; [|discriminate]. destruct Wq as (_ & _ & _ & ->), Wr as (_ & _ & _ & ->). reflexivity.
  - tauto.
Qed.

Lemma overlap_iff d q r : wf d q -> wf d r ->
  (overlaps d q r = true <-> qpos d q < qend d r /\ qpos d r < qend d q).
Proof.
  intros Wq Wr. pose proof (wf_level _ _ Wq). pose proof (wf_level _ _ Wr).
  set (m := Z.min (ql q) (ql r)).
  assert (A : overlaps d q r = true <-> ancestor d q m = ancestor d r m).
  { rewrite (coords_same_block d q r m) by (auto; lia).
    unfold overlaps, MAXLEVEL. fold m. rewrite shl1, !nz_land_lxor_mask by lia. fold (side m).
    rewrite negb_true_iff, !orb_false_iff, !negb_false_iff, andb_false_iff, negb_false_iff, !Z.eqb_eq.
    split.
    - intros ((B & C) & [D|D]); repeat split; auto.
      destruct d; [|discriminate]. destruct Wq as (_ & _ & _ & ->), Wr as (_ & _ & _ & ->). reflexivity.
    - tauto. }
  rewrite A. clear A.
  assert (Sq : 0 < qsize d q) by (rewrite qsize_psize; apply psize_pos; lia).
  assert (Sr : 0 < qsize d r) by (rewrite qsize_psize; apply psize_pos; lia).
  destruct (Z_le_gt_dec (ql q) (ql r)).
  - replace m with (ql q) in * by lia.
    assert (F : ancestor d q (ql q) = q).
    { symmetry. apply contains_ancestor; auto; lia. }
    rewrite F, contains_ancestor by auto.
    destruct (dyadic d q r Wq Wr l) as [?|[?|?]]; unfold qend in *; split; lia.
  - replace m with (ql r) in * by lia.
    assert (F : ancestor d r (ql r) = r).
    { symmetry. apply contains_ancestor; auto; lia. }
    rewrite F.
    assert (E : ancestor d q (ql r) = r <-> r = ancestor d q (ql r)) by (split; congruence).
    rewrite E, contains_ancestor by (auto; lia).
    destruct (dyadic d r q Wr Wq ltac:(lia)) as [?|[?|?]]; unfold qend in *; split; lia.
Qed.
