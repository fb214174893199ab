(** * Quadrants as dyadic intervals of curve positions *)

From Coq Require Import ZArith List Bool Lia ZifyBool.
From Verif Require Import Quad Spec Morton ZBits.
Import ListNotations.
Open Scope Z_scope.


Lemma side_pos l : l <= 30 -> 0 < side l.
Proof. intros. apply pow2_pos. lia. Qed.

Lemma QLEN_side l : l <= 30 -> QLEN l = side l.
Proof. apply QLEN_pow. Qed.

Lemma side_mul l : 0 <= l <= 30 -> 2 ^ l * side l = 2 ^ 30.
Proof. intros. unfold side. rewrite <- Z.pow_add_r by lia. f_equal. lia. Qed.

Lemma side_half l : l < 30 -> side l = 2 * side (l + 1).
Proof.
  intros. unfold side. replace (30 - l) with (Z.succ (30 - (l + 1))) by lia.
  apply Z.pow_succ_r. lia.
Qed.

Lemma side_split l m : l <= m <= 30 -> side l = 2 ^ (m - l) * side m.
Proof. intros. unfold side. rewrite <- Z.pow_add_r by lia. f_equal. lia. Qed.

(** model validity is well-formedness *)
Lemma coord_valid a l : 0 <= l <= 29 ->
  ((Z.land a (QLEN l - 1) =? 0) && ((a >=? 0) && (a <? ROOT_LEN))) = true <->
  (exists X, a = X * side l /\ 0 <= X < 2 ^ l).
Proof.
  intros. rewrite QLEN_side by lia. unfold side at 1. rewrite land_mask by lia. fold (side l).
  pose proof (side_pos l). pose proof (side_mul l).
  rewrite ROOT_LEN_pow. split.
  - intros E. exists (a / side l).
    assert (a mod side l = 0 /\ 0 <= a < 2 ^ 30) as [A B] by lia.
    pose proof (Z.div_mod a (side l)). split; nia.
  - intros (X & -> & HX). rewrite Z.mod_mul by lia. nia.
Qed.

Lemma is_valid_wf d q : is_valid d q = true <-> wf d q.
Proof.
  unfold is_valid, wf, aligned, is_inside_root, QMAXLEVEL.
  destruct ((ql q >=? 0) && (ql q <=? 29)) eqn:L; [|cbn; split; intros; [discriminate|lia]].
  assert (HL : 0 <= ql q <= 29) by lia.
  pose proof (coord_valid (qx q) (ql q) HL) as Cx.
  pose proof (coord_valid (qy q) (ql q) HL) as Cy.
  pose proof (coord_valid (qz q) (ql q) HL) as Cz.
  destruct d; cbn [is3 negb orb andb].
  - rewrite <- Cx, <- Cy. rewrite !andb_true_iff, !Z.eqb_eq. tauto.
  - rewrite <- Cx, <- Cy, <- Cz. rewrite !andb_true_iff. tauto.
Qed.

(** canonical quadrant of a level and an index *)
Definition mkquad (d : dim) (l i : Z) : quad :=
  let n := Z.to_nat l in
  mkq (uxn d n i * side l) (uyn d n i * side l) (uzn d n i * side l) l.

Lemma mkquad_level d l i : ql (mkquad d l i) = l.
Proof. reflexivity. Qed.

Lemma mkquad_wf d l i : 0 <= l <= 29 -> wf d (mkquad d l i).
Proof.
  intros. unfold wf, mkquad; cbn [qx qy qz ql].
  set (n := Z.to_nat l). assert (Hn : Z.of_nat n = l) by (unfold n; lia).
  pose proof (ux_range d n i). pose proof (uy_range d n i). pose proof (uz_range d n i).
  rewrite Hn in *.
  split; [lia|]. split; [eauto|]. split; [eauto|].
  destruct d; [destruct n; reflexivity | eauto].
Qed.

Lemma uzn_D2 n i : uzn D2 n i = 0.
Proof. destruct n; reflexivity. Qed.

Definition psize (d : dim) (l : Z) : Z := 2 ^ (nd d * (30 - l)).

Lemma psize_pos d l : l <= 30 -> 0 < psize d l.
Proof. intros. apply pow2_pos. pose proof (nd_pos d); nia. Qed.

Lemma psize_split d l m : l <= m <= 30 -> psize d l = 2 ^ (nd d * (m - l)) * psize d m.
Proof.
  intros. unfold psize. pose proof (nd_pos d). rewrite <- Z.pow_add_r by nia. f_equal. lia.
Qed.

Lemma psize_root d l : 0 <= l <= 30 -> 2 ^ (nd d * l) * psize d l = 2 ^ (nd d * 30).
Proof.
  intros. unfold psize. pose proof (nd_pos d). rewrite <- Z.pow_add_r by nia. f_equal. lia.
Qed.

Lemma mkquad_qpos d l i : 0 <= l <= 29 -> 0 <= i < 2 ^ (nd d * l) ->
  qpos d (mkquad d l i) = i * psize d l.
Proof.
  intros Hl Hi. unfold qpos, ppos, mkquad; cbn [qx qy qz].
  set (n := Z.to_nat l). set (k := Z.to_nat (30 - l)).
  replace 30%nat with (n + k)%nat by (unfold n, k; lia).
  assert (Hk : Z.of_nat k = 30 - l) by (unfold k; lia).
  assert (Hn : Z.of_nat n = l) by (unfold n; lia).
  unfold side. rewrite <- Hk.
  pose proof (mort_block d n k (uxn d n i) (uyn d n i) (uzn d n i) 0 0 0) as B.
  assert (0 < 2 ^ Z.of_nat k) by (apply pow2_pos; lia).
  specialize (B ltac:(lia) ltac:(lia) ltac:(lia)). rewrite !Z.add_0_r in B. rewrite B.
  rewrite mort_un by (rewrite Hn; lia).
  assert (E : mort d k 0 0 0 = 0).
  { clear. induction k; [reflexivity|]. cbn [mort]. rewrite !Z.div_0_l by lia. rewrite IHk.
    unfold dig. rewrite Z.mod_0_l by lia. destruct d; lia. }
  rewrite E. unfold psize. rewrite Hk. ring.
Qed.

Lemma wf_mkquad d q : wf d q ->
  exists i, 0 <= i < 2 ^ (nd d * ql q) /\ q = mkquad d (ql q) i.
Proof.
  intros (Hl & (X & Ex & HX) & (Y & Ey & HY) & Hz).
  set (n := Z.to_nat (ql q)). assert (Hn : Z.of_nat n = ql q) by (unfold n; lia).
  assert (exists Z0, qz q = Z0 * side (ql q) /\ 0 <= Z0 < 2 ^ ql q /\ (d = D2 -> Z0 = 0))
    as (Z0 & Ez & HZ & HD).
  { destruct d.
    - exists 0. rewrite Hz. pose proof (pow2_pos (ql q)). repeat split; lia.
    - destruct Hz as (Z0 & ? & ?). exists Z0. repeat split; auto; try lia. discriminate. }
  exists (mort d n X Y Z0). split.
  - rewrite <- Hn. apply mort_range.
  - rewrite <- Hn in HX, HY, HZ.
    destruct (un_mort_all d n X Y Z0) as (A & B & C); auto.
    unfold mkquad. fold n. rewrite A, B, C, <- Ex, <- Ey, <- Ez. destruct q; reflexivity.
Qed.

Lemma qsize_psize d q : qsize d q = psize d (ql q).
Proof. reflexivity. Qed.

Lemma qidx_mkquad d l i : 0 <= l <= 29 -> 0 <= i < 2 ^ (nd d * l) ->
  qidx d (mkquad d l i) = i.
Proof.
  intros. unfold qidx. rewrite mkquad_qpos, qsize_psize, mkquad_level by auto.
  apply Z.div_mul. pose proof (psize_pos d l). lia.
Qed.

Lemma wf_level d q : wf d q -> 0 <= ql q <= 29.
Proof. intros (H & _). exact H. Qed.

Lemma wf_idx d q : wf d q ->
  0 <= qidx d q < 2 ^ (nd d * ql q) /\ q = mkquad d (ql q) (qidx d q) /\
  qpos d q = qidx d q * psize d (ql q).
Proof.
  intros W. destruct (wf_mkquad d q W) as (i & Hi & E).
  pose proof (wf_level d q W) as L.
  assert (I : qidx d q = i) by (rewrite E; apply qidx_mkquad; auto).
  rewrite I. repeat split; try lia; auto.
  rewrite E. rewrite mkquad_qpos by auto. reflexivity.
Qed.

(** equality of quadrants by level and position *)
Lemma quad_eq d q r : wf d q -> wf d r -> ql q = ql r -> qpos d q = qpos d r -> q = r.
Proof.
  intros Wq Wr El Ep.
  destruct (wf_idx d q Wq) as (_ & -> & _). destruct (wf_idx d r Wr) as (_ & -> & _).
  unfold qidx. rewrite !qsize_psize, El, Ep. reflexivity.
Qed.

Lemma wf_root_bounds d q : wf d q -> 0 <= qpos d q /\ qend d q <= 2 ^ (nd d * 30).
Proof.
  intros W. destruct (wf_idx d q W) as (I & _ & P). pose proof (wf_level d q W) as L.
  unfold qend. rewrite P, qsize_psize. pose proof (psize_pos d (ql q)).
  pose proof (psize_root d (ql q)). nia.
Qed.

(** membership of a lattice point is membership of its position *)
Lemma inq_pos d q a b c : wf d q ->
  (inq d q a b c <-> inroot d a b c /\ qpos d q <= ppos d a b c < qend d q).
Proof.
  intros W. pose proof (wf_level d q W) as L.
  destruct W as (_ & (X & Ex & HX) & (Y & Ey & HY) & Hz).
  assert (exists Z0, qz q = Z0 * side (ql q) /\ 0 <= Z0 < 2 ^ ql q /\ (d = D2 -> Z0 = 0))
    as (Z0 & Ez & HZ & HD).
  { destruct d.
    - exists 0. rewrite Hz. pose proof (pow2_pos (ql q)). repeat split; lia.
    - destruct Hz as (Z0 & ? & ?). exists Z0. repeat split; auto; try lia. discriminate. }
  set (n := Z.to_nat (ql q)). set (k := Z.to_nat (30 - ql q)).
  assert (Hk : Z.of_nat k = 30 - ql q) by (unfold k; lia).
  assert (Hn : Z.of_nat n = ql q) by (unfold n; lia).
  assert (Nk : 30%nat = (n + k)%nat) by (unfold n, k; lia).
  assert (S0 : side (ql q) = 2 ^ Z.of_nat k) by (unfold side; rewrite Hk; reflexivity).
  assert (Sp : 0 < 2 ^ Z.of_nat k) by (apply pow2_pos; lia).
  assert (R : 2 ^ ql q * 2 ^ Z.of_nat k = 2 ^ 30) by (rewrite <- S0; apply side_mul; lia).
  assert (Q0 : qpos d q = 2 ^ (nd d * Z.of_nat k) * mort d n X Y Z0).
  { unfold qpos, ppos. rewrite Nk, Ex, Ey, Ez, S0.
    pose proof (mort_block d n k X Y Z0 0 0 0) as B.
    specialize (B ltac:(lia) ltac:(lia) ltac:(lia)). rewrite !Z.add_0_r in B. rewrite B.
    assert (E : mort d k 0 0 0 = 0).
    { clear. induction k; [reflexivity|]. cbn [mort]. rewrite !Z.div_0_l by lia. rewrite IHk.
      unfold dig. rewrite Z.mod_0_l by lia. destruct d; lia. }
    rewrite E. ring. }
  assert (Q1 : qsize d q = 2 ^ (nd d * Z.of_nat k)) by (unfold qsize; rewrite Hk; reflexivity).
  unfold inq, qend. rewrite Q0, Q1, Ex, Ey, Ez, S0.
  split.
  - intros (Ha & Hb & Hc).
    assert (exists c', c = Z0 * 2 ^ Z.of_nat k + c' /\ 0 <= c' < 2 ^ Z.of_nat k) as (c' & Ec & Hc').
    { destruct d.
      - exists 0. rewrite HD by reflexivity. lia.
      - exists (c - Z0 * 2 ^ Z.of_nat k). lia. }
    split.
    + unfold inroot. split; [nia|]. split; [nia|]. destruct d; [auto|nia].
    + unfold ppos. rewrite Nk.
      replace a with (X * 2 ^ Z.of_nat k + (a - X * 2 ^ Z.of_nat k)) by lia.
      replace b with (Y * 2 ^ Z.of_nat k + (b - Y * 2 ^ Z.of_nat k)) by lia.
      rewrite Ec. rewrite mort_block by lia.
      pose proof (mort_range d k (a - X * 2 ^ Z.of_nat k) (b - Y * 2 ^ Z.of_nat k) c'). lia.
  - intros ((Ra & Rb & Rc) & Hp).
    assert (0 <= c < 2 ^ 30) by (destruct d; lia).
    unfold ppos in Hp. rewrite Nk, mort_split in Hp.
    pose proof (mort_range d k a b c).
    assert (M : mort d n (a / 2 ^ Z.of_nat k) (b / 2 ^ Z.of_nat k) (c / 2 ^ Z.of_nat k)
                = mort d n X Y Z0) by nia.
    apply mort_inj in M. rewrite Hn in M.
    assert (D : forall t, 0 <= t < 2 ^ 30 -> 0 <= t / 2 ^ Z.of_nat k < 2 ^ ql q).
    { intros t Ht. split; [apply Z.div_pos; lia|]. apply Z.div_lt_upper_bound; lia. }
    pose proof (D a Ra). pose proof (D b Rb). pose proof (D c ltac:(lia)).
    rewrite !Z.mod_small in M by lia.
    destruct M as (Ma & Mb & Mc).
    assert (F : forall t T, t / 2 ^ Z.of_nat k = T ->
               T * 2 ^ Z.of_nat k <= t < T * 2 ^ Z.of_nat k + 2 ^ Z.of_nat k).
    { intros t T E. pose proof (Z.div_mod t (2 ^ Z.of_nat k)).
      pose proof (Z.mod_pos_bound t (2 ^ Z.of_nat k)). nia. }
    split; [auto|]. split; [auto|].
    destruct d; [lia|]. apply F. auto.
Qed.

(** every position belongs to exactly one lattice point *)
Lemma ppos_surj d p : 0 <= p < 2 ^ (nd d * 30) ->
  exists a b c, inroot d a b c /\ ppos d a b c = p.
Proof.
  intros. exists (uxn d 30 p), (uyn d 30 p), (uzn d 30 p). split.
  - pose proof (ux_range d 30 p). pose proof (uy_range d 30 p). pose proof (uz_range d 30 p).
    change (Z.of_nat 30) with 30 in *.
    unfold inroot. split; [lia|]. split; [lia|]. destruct d; [apply uzn_D2|lia].
  - unfold ppos. apply mort_un. exact H.
Qed.

Lemma ppos_inj d a b c a' b' c' :
  inroot d a b c -> inroot d a' b' c' -> ppos d a b c = ppos d a' b' c' ->
  a = a' /\ b = b' /\ c = c'.
Proof.
  intros (A & B & C) (A' & B' & C') E. unfold ppos in E. apply mort_inj in E.
  change (Z.of_nat 30) with 30 in E. destruct E as (Ea & Eb & Ec).
  rewrite !Z.mod_small in Ea, Eb by lia. repeat split; auto.
  destruct d; [congruence|]. specialize (Ec eq_refl). rewrite !Z.mod_small in Ec by lia. auto.
Qed.

Lemma ppos_range d a b c : 0 <= ppos d a b c < 2 ^ (nd d * 30).
Proof. apply mort_range. Qed.

(** containment of regions is containment of intervals *)
Lemma subset_interval d q r : wf d q -> wf d r ->
  ((forall a b c, inq d r a b c -> inq d q a b c) <->
   qpos d q <= qpos d r /\ qend d r <= qend d q).
Proof.
  intros Wq Wr. split.
  - intros H.
    pose proof (wf_root_bounds d r Wr) as B.
    assert (S : 0 < qsize d r) by (rewrite qsize_psize; apply psize_pos; pose proof (wf_level _ _ Wr); lia).
    assert (G : forall p, qpos d r <= p < qend d r -> qpos d q <= p < qend d q).
    { intros p Hp. destruct (ppos_surj d p) as (a & b & c & R & E); [lia|].
      subst p. apply inq_pos; auto. apply H. apply inq_pos; auto. }
    pose proof (G (qpos d r)). pose proof (G (qend d r - 1)). unfold qend in *. lia.
  - intros [H1 H2] a b c Hr. apply inq_pos in Hr; auto. apply inq_pos; auto. intuition lia.
Qed.

(** dyadic intervals are nested or disjoint *)
Lemma dyadic d q r : wf d q -> wf d r -> ql q <= ql r ->
  (qpos d q <= qpos d r /\ qend d r <= qend d q) \/
  qend d q <= qpos d r \/ qend d r <= qpos d q.
Proof.
  intros Wq Wr L.
  destruct (wf_idx d q Wq) as (Iq & _ & Pq). destruct (wf_idx d r Wr) as (Ir & _ & Pr).
  pose proof (wf_level _ _ Wq). pose proof (wf_level _ _ Wr).
  unfold qend. rewrite Pq, Pr, !qsize_psize.
  pose proof (psize_split d (ql q) (ql r) ltac:(lia)) as S.
  set (m := 2 ^ (nd d * (ql r - ql q))) in *.
  assert (0 < m) by (apply pow2_pos; pose proof (nd_pos d); nia).
  pose proof (psize_pos d (ql r) ltac:(lia)).
  set (s := psize d (ql r)) in *. set (i := qidx d q) in *. set (j := qidx d r) in *.
  rewrite S.
  destruct (Z_lt_le_dec j (i * m)); [right; right; nia|].
  destruct (Z_lt_le_dec j (i * m + m)); [left; nia | right; left; nia].
Qed.
