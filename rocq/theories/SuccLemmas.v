(** * Successor, predecessor, adjacency, families *)

From Coq Require Import ZArith List Bool Lia ZifyBool.
From Verif Require Import Quad Spec Morton ZBits Interval QuadLemmas CompareLemmas IdLemmas DescLemmas.
Import ListNotations.
Open Scope Z_scope.

Lemma children_pos d : 4 <= children d <= 8.
Proof. destruct d; cbn; lia. Qed.

(** prefix of the index: index of the ancestor at level m *)
Definition pidx (d : dim) (q : quad) (m : Z) : Z := qidx d q / 2 ^ (nd d * (ql q - m)).

Lemma pidx_step d q m : wf d q -> 0 < m <= ql q ->
  pidx d q m = children d * pidx d q (m - 1) + ancestor_id d q m.
Proof.
  intros W L. rewrite ancestor_id_dig by auto. fold (pidx d q m).
  assert (E : pidx d q (m - 1) = pidx d q m / children d).
  { unfold pidx. pose proof (nd_pos d).
    rewrite Z.div_div.
    - f_equal. rewrite <- nd_children, <- Z.pow_add_r by nia. f_equal. lia.
    - pose proof (pow2_pos (nd d * (ql q - m)) ltac:(nia)). lia.
    - pose proof (children_pos d). lia. }
  rewrite E. apply Z.div_mod. pose proof (children_pos d). lia.
Qed.

Lemma pidx_own d q : pidx d q (ql q) = qidx d q.
Proof. unfold pidx. rewrite Z.sub_diag, Z.mul_0_r. change (2 ^ 0) with 1. apply Z.div_1_r. Qed.

Lemma pidx_0 d q : wf d q -> pidx d q 0 = 0.
Proof.
  intros W. unfold pidx. rewrite Z.sub_0_r. apply Z.div_small. apply wf_idx; auto.
Qed.

Lemma pidx_ancestor d q m : wf d q -> 0 <= m <= ql q -> qidx d (ancestor d q m) = pidx d q m.
Proof. intros W L. apply ancestor_wf; auto. Qed.

Lemma ancestor_id_range d q m : wf d q -> 0 < m <= ql q -> 0 <= ancestor_id d q m < children d.
Proof.
  intros W L. rewrite ancestor_id_dig by auto. apply Z.mod_pos_bound. pose proof (children_pos d). lia.
Qed.

(** trailing digits *)
Lemma pow_nd_step d k : 0 <= k -> 2 ^ (nd d * (k + 1)) = children d * 2 ^ (nd d * k).
Proof.
  intros. pose proof (nd_pos d). rewrite <- nd_children, <- Z.pow_add_r by nia. f_equal. lia.
Qed.

Lemma trailing_max d q : wf d q -> forall k m, 0 <= m -> m + Z.of_nat k <= ql q ->
  (forall j, m < j <= m + Z.of_nat k -> ancestor_id d q j = children d - 1) ->
  pidx d q (m + Z.of_nat k) = (pidx d q m + 1) * 2 ^ (nd d * Z.of_nat k) - 1.
Proof.
  intros W. induction k; intros m Hm Hk HD.
  - change (Z.of_nat 0) with 0. rewrite Z.add_0_r, Z.mul_0_r. change (2 ^ 0) with 1. lia.
  - rewrite pidx_step by (auto; lia). rewrite HD by lia.
    replace (m + Z.of_nat (S k) - 1) with (m + Z.of_nat k) by lia.
    rewrite IHk by (auto; try lia; intros; apply HD; lia).
    replace (Z.of_nat (S k)) with (Z.of_nat k + 1) by lia. rewrite pow_nd_step by lia. ring.
Qed.

Lemma trailing_min d q : wf d q -> forall k m, 0 <= m -> m + Z.of_nat k <= ql q ->
  (forall j, m < j <= m + Z.of_nat k -> ancestor_id d q j = 0) ->
  pidx d q (m + Z.of_nat k) = pidx d q m * 2 ^ (nd d * Z.of_nat k).
Proof.
  intros W. induction k; intros m Hm Hk HD.
  - change (Z.of_nat 0) with 0. rewrite Z.add_0_r, Z.mul_0_r. change (2 ^ 0) with 1. lia.
  - rewrite pidx_step by (auto; lia). rewrite HD by lia.
    replace (m + Z.of_nat (S k) - 1) with (m + Z.of_nat k) by lia.
    rewrite IHk by (auto; try lia; intros; apply HD; lia).
    replace (Z.of_nat (S k)) with (Z.of_nat k + 1) by lia. rewrite pow_nd_step by lia. ring.
Qed.

Lemma succ_level_spec d q n : match succ_level d q n with
  | None => forall j, 0 < j <= Z.of_nat n -> ancestor_id d q j = children d - 1
  | Some (m, sid) => (0 < m <= n)%nat /\ sid = ancestor_id d q (Z.of_nat m) + 1 /\ sid <> children d /\
      forall j, Z.of_nat m < j <= Z.of_nat n -> ancestor_id d q j = children d - 1
  end.
Proof.
  induction n; [cbn; intros; lia|]. cbn [succ_level].
  destruct (ancestor_id d q (Z.of_nat (S n)) + 1 =? children d) eqn:E.
  - destruct (succ_level d q n) as [[m sid]|].
    + destruct IHn as (A & B & C & D). split; [lia|]. split; [auto|]. split; [auto|].
      intros j Hj. destruct (Z.eq_dec j (Z.of_nat (S n))) as [->|]; [lia|]. apply D. lia.
    + intros j Hj. destruct (Z.eq_dec j (Z.of_nat (S n))) as [->|]; [lia|]. apply IHn. lia.
  - split; [lia|]. split; [auto|]. split; [lia|]. intros; lia.
Qed.

Lemma pred_level_spec d q n : match pred_level d q n with
  | None => forall j, 0 < j <= Z.of_nat n -> ancestor_id d q j = 0
  | Some (m, pid) => (0 < m <= n)%nat /\ pid = ancestor_id d q (Z.of_nat m) - 1 /\ pid <> -1 /\
      forall j, Z.of_nat m < j <= Z.of_nat n -> ancestor_id d q j = 0
  end.
Proof.
  induction n; [cbn; intros; lia|]. cbn [pred_level].
  destruct (ancestor_id d q (Z.of_nat (S n)) - 1 =? -1) eqn:E.
  - destruct (pred_level d q n) as [[m sid]|].
    + destruct IHn as (A & B & C & D). split; [lia|]. split; [auto|]. split; [auto|].
      intros j Hj. destruct (Z.eq_dec j (Z.of_nat (S n))) as [->|]; [lia|]. apply D. lia.
    + intros j Hj. destruct (Z.eq_dec j (Z.of_nat (S n))) as [->|]; [lia|]. apply IHn. lia.
  - split; [lia|]. split; [auto|]. split; [lia|]. intros; lia.
Qed.

(** adding a length instead of setting a bit *)
Lemma ancestor_child_add d q m c b : wf d q -> 0 < m <= ql q -> 0 <= c < children d ->
  forall f s, s = QLEN m -> f = Z.lnot (QLEN (m - 1) - 1) ->
  mkq (if nz (Z.land c 1) then Z.land (qx q) f + s else Z.land (qx q) f)
      (if nz (Z.land c 2) then Z.land (qy q) f + s else Z.land (qy q) f)
      (if is3 d then
         if nz (Z.land c 4) then Z.land (qz q) f + s else Z.land (qz q) f
       else qz q) b
  = let r := child d (ancestor d q (m - 1)) c in mkq (qx r) (qy r) (qz r) b.
Proof.
  intros W L Hc f s -> ->. pose proof (wf_level d q W).
  unfold child, ancestor. cbn [qx qy qz ql].
  replace (m - 1 + 1) with m by lia.
  assert (A : forall a, Z.lor (Z.land a (Z.lnot (QLEN (m - 1) - 1))) (QLEN m) =
     Z.land a (Z.lnot (QLEN (m - 1) - 1)) + QLEN m).
  { intros a. rewrite !QLEN_pow by lia. rewrite land_lnot_mask by lia.
    replace (30 - (m - 1)) with (30 - m + 1) by lia. apply lor_bit_even. lia. }
  rewrite !A. f_equal. destruct d; cbn [is3 andb]; [reflexivity|]. rewrite A. reflexivity.
Qed.

Lemma successor_spec d q : wf d q ->
  match successor d q with
  | Some r => wf d r /\ ql r = ql q /\ qidx d r = qidx d q + 1
  | None => qidx d q + 1 = 2 ^ (nd d * ql q)
  end.
Proof.
  intros W. pose proof (wf_level d q W) as L. unfold successor.
  pose proof (succ_level_spec d q (Z.to_nat (ql q))) as S.
  destruct (succ_level d q (Z.to_nat (ql q))) as [[m sid]|].
  - destruct S as (A & B & C & D). rewrite Z2Nat.id in D by lia.
    pose proof (ancestor_id_range d q (Z.of_nat m) W ltac:(lia)) as R.
    set (M := Z.of_nat m) in *.
    pose proof (trailing_max d q W (Z.to_nat (ql q - M)) M ltac:(lia) ltac:(lia) ltac:(intros; apply D; lia)) as T.
    rewrite Z2Nat.id in T by lia. replace (M + (ql q - M)) with (ql q) in T by lia. rewrite pidx_own in T.
    pose proof (pidx_step d q M W ltac:(lia)) as P.
    destruct (ancestor_wf d q (M - 1) W ltac:(lia)) as (Wa & La & Ia). fold (pidx d q (M - 1)) in Ia.
    destruct (M <? ql q) eqn:E.
    + rewrite (ancestor_child_add d q M sid (ql q) W ltac:(lia) ltac:(lia)) by reflexivity. cbv zeta.
      destruct (child_wf d (ancestor d q (M - 1)) sid Wa ltac:(lia) ltac:(lia)) as (Wc & Lc & Ic).
      destruct (first_descendant_wf d _ (ql q) Wc ltac:(lia)) as (Wf & Lf & If_ & _).
      fold (first_descendant d (child d (ancestor d q (M - 1)) sid) (ql q)).
      split; [exact Wf|]. split; [reflexivity|]. rewrite If_, Ic, Ia, T, Lc, La.
      replace (ql q - (M - 1 + 1)) with (ql q - M) by lia. rewrite P. subst sid. ring.
    + assert (M = ql q) by lia. 
      rewrite sibling_child by (auto; lia).
      destruct (parent_wf d q W ltac:(lia)) as (Wp & Lp & Ip).
      destruct (child_wf d (parent d q) sid Wp ltac:(lia) ltac:(lia)) as (Wc & Lc & Ic).
      split; [exact Wc|]. split; [lia|]. rewrite Ic.
      rewrite parent_ancestor by (auto; lia). rewrite <- H. rewrite Ia.
      rewrite <- (pidx_own d q). rewrite <- H. rewrite P. lia.
  - rewrite Z2Nat.id in S by lia.
    pose proof (trailing_max d q W (Z.to_nat (ql q)) 0 ltac:(lia) ltac:(lia) ltac:(intros; apply S; lia)) as T.
    rewrite Z2Nat.id in T by lia. rewrite Z.add_0_l, pidx_own, pidx_0 in T by auto. lia.
Qed.

(** first coordinate bits of the predecessor: shift by the last descendant *)
Lemma ancestor_child_last d q m c b : wf d q -> 0 < m <= ql q -> ql q = b -> 0 <= c < children d ->
  let len := QLEN m in
  let sld := len - QLEN b in
  let sc := sld + len in
  let f := Z.lnot (QLEN (m - 1) - 1) in
  mkq (if nz (Z.land c 1) then Z.land (qx q) f + sc else Z.land (qx q) f + sld)
      (if nz (Z.land c 2) then Z.land (qy q) f + sc else Z.land (qy q) f + sld)
      (if is3 d then
         if nz (Z.land c 4) then Z.land (qz q) f + sc else Z.land (qz q) f + sld
       else qz q) b
  = last_descendant d (child d (ancestor d q (m - 1)) c) b.
Proof.
  intros W L Hb Hc. cbv zeta.
  pose proof (ancestor_child_add d q m c b W L Hc _ _ eq_refl eq_refl) as E. cbv zeta in E.
  pose proof (f_equal qx E) as Ex. pose proof (f_equal qy E) as Ey. pose proof (f_equal qz E) as Ez.
  cbn [qx qy qz] in Ex, Ey, Ez. unfold last_descendant.
  assert (Lc : ql (child d (ancestor d q (m - 1)) c) = m) by (cbn [child ancestor ql]; lia).
  rewrite Lc.
  set (r := child d (ancestor d q (m - 1)) c) in *. rewrite <- Ex, <- Ey, <- Ez.
  f_equal; [destruct (nz (Z.land c 1)); lia|destruct (nz (Z.land c 2)); lia|].
  destruct d; cbn [is3]; [reflexivity|]. destruct (nz (Z.land c 4)); lia.
Qed.

Lemma predecessor_spec d q : wf d q ->
  match predecessor d q with
  | Some r => wf d r /\ ql r = ql q /\ qidx d r = qidx d q - 1
  | None => qidx d q = 0
  end.
Proof.
  intros W. pose proof (wf_level d q W) as L. unfold predecessor.
  pose proof (pred_level_spec d q (Z.to_nat (ql q))) as S.
  destruct (pred_level d q (Z.to_nat (ql q))) as [[m sid]|].
  - destruct S as (A & B & C & D). rewrite Z2Nat.id in D by lia.
    pose proof (ancestor_id_range d q (Z.of_nat m) W ltac:(lia)) as R.
    set (M := Z.of_nat m) in *.
    pose proof (trailing_min d q W (Z.to_nat (ql q - M)) M ltac:(lia) ltac:(lia) ltac:(intros; apply D; lia)) as T.
    rewrite Z2Nat.id in T by lia. replace (M + (ql q - M)) with (ql q) in T by lia. rewrite pidx_own in T.
    pose proof (pidx_step d q M W ltac:(lia)) as P.
    destruct (ancestor_wf d q (M - 1) W ltac:(lia)) as (Wa & La & Ia). fold (pidx d q (M - 1)) in Ia.
    destruct (M <? ql q) eqn:E.
    + pose proof (ancestor_child_last d q M sid (ql q) W ltac:(lia) eq_refl ltac:(lia)) as F.
      cbv zeta in F. rewrite F. clear F.
      destruct (child_wf d (ancestor d q (M - 1)) sid Wa ltac:(lia) ltac:(lia)) as (Wc & Lc & Ic).
      destruct (last_descendant_wf d _ (ql q) Wc ltac:(lia)) as (Wf & Lf & If_ & _).
      split; [exact Wf|]. split; [reflexivity|]. rewrite If_, Ic, Ia, T, Lc, La.
      replace (ql q - (M - 1 + 1)) with (ql q - M) by lia. rewrite P. subst sid. ring.
    + assert (M = ql q) by lia. 
      rewrite sibling_child by (auto; lia).
      destruct (parent_wf d q W ltac:(lia)) as (Wp & Lp & Ip).
      destruct (child_wf d (parent d q) sid Wp ltac:(lia) ltac:(lia)) as (Wc & Lc & Ic).
      split; [exact Wc|]. split; [lia|]. rewrite Ic.
      rewrite parent_ancestor by (auto; lia). rewrite <- H. rewrite Ia.
      rewrite <- (pidx_own d q). rewrite <- H. rewrite P. lia.
  - rewrite Z2Nat.id in S by lia.
    pose proof (trailing_min d q W (Z.to_nat (ql q)) 0 ltac:(lia) ltac:(lia) ltac:(intros; apply S; lia)) as T.
    rewrite Z2Nat.id in T by lia. rewrite Z.add_0_l, pidx_own, pidx_0 in T by auto. lia.
Qed.

(** ** is_next *)
(** the mask test: the coordinate has all bits between the two levels *)
Lemma mask_test X l m : 0 <= m < l -> l <= 29 -> 0 <= X < 2 ^ l ->
  (Z.land (X * side l) (QLEN m - QLEN l) =? QLEN m - QLEN l) = (X mod 2 ^ (l - m) =? 2 ^ (l - m) - 1).
Proof.
  intros Hm Hl HX. rewrite !QLEN_side by lia. rewrite (side_split m l) by lia.
  replace (2 ^ (l - m) * side l - side l) with ((2 ^ (l - m) - 1) * side l) by ring.
  unfold side. rewrite <- !Z.shiftl_mul_pow2 by lia. rewrite <- Z.shiftl_land.
  rewrite land_mask by lia. rewrite !Z.shiftl_mul_pow2 by lia.
  pose proof (pow2_pos (30 - l) ltac:(lia)). 
  destruct (X mod 2 ^ (l - m) =? 2 ^ (l - m) - 1) eqn:E; [|nia].
  assert (X mod 2 ^ (l - m) = 2 ^ (l - m) - 1) by lia. rewrite H0. lia.
Qed.

Lemma is_next_spec d q r : wf d q -> wf d r ->
  (is_next d q r = true <->
   if ql r <? ql q then qpos d r = qend d q
   else qend d q <= qpos d r < qend d q + qsize d q).
Proof.
  intros Wq Wr. pose proof (wf_level _ _ Wq) as Lq. pose proof (wf_level _ _ Wr) as Lr.
  unfold is_next. cbv zeta.
  replace (ql q >? ql r) with (ql r <? ql q) by lia.
  destruct (ql r <? ql q) eqn:E; cbn [andb].
  - destruct (wf_elim d q Wq) as (X & Y & Z0 & Ex & Ey & Ez & HX & HY & HZ & HD & EI).
    rewrite Ex, Ey, Ez. rewrite !mask_test by lia.
    set (k := ql q - ql r).
    assert (Hk : Z.of_nat (Z.to_nat k) = k) by (unfold k; lia).
    assert (M : negb (X mod 2 ^ k =? 2 ^ k - 1) || negb (Y mod 2 ^ k =? 2 ^ k - 1)
                || is3 d && negb (Z0 mod 2 ^ k =? 2 ^ k - 1) = false <->
                qidx d q mod 2 ^ (nd d * k) = 2 ^ (nd d * k) - 1).
    { assert (EM : qidx d q mod 2 ^ (nd d * k) = mort d (Z.to_nat k) X Y Z0).
      { rewrite EI. replace (Z.to_nat (ql q)) with (Z.to_nat (ql r) + Z.to_nat k)%nat by (unfold k; lia).
        rewrite mort_split, Hk. apply modqr. pose proof (mort_range d (Z.to_nat k) X Y Z0). rewrite Hk in H. auto. }
      rewrite EM, <- Hk, <- mort_ones, Hk.
      split.
      - intros N. rewrite !orb_false_iff, andb_false_iff, !negb_false_iff, !Z.eqb_eq in N.
        destruct N as ((NX & NY) & NZ).
        rewrite mort_mod, Hk, NX, NY.
        destruct d; [apply mort_D2_z|]. destruct NZ as [NZ|NZ]; [discriminate|]. rewrite NZ. reflexivity.
      - intros N. apply mort_inj in N. rewrite Hk in N. destruct N as (NX & NY & NZ).
        pose proof (pow2_pos k ltac:(unfold k; lia)).
        rewrite (Z.mod_small (2 ^ k - 1)) in NX by lia.
        rewrite (Z.mod_small (2 ^ k - 1)) in NY by lia.
        rewrite (Z.mod_small (2 ^ k - 1)) in NZ by lia.
        rewrite NX, NY, !Z.eqb_refl. cbn [negb orb]. destruct d; [reflexivity|].
        rewrite NZ by auto. rewrite Z.eqb_refl. reflexivity. }
    assert (I1 : linear_id_ext128 d q (ql r) = qidx d q / 2 ^ (nd d * k)).
    { rewrite wf_id128 by (auto; lia). rewrite wf_qpos by auto.
      rewrite (psize_split d (ql r) (ql q)) by lia. fold k.
      rewrite Z.mul_comm, (Z.mul_comm (2 ^ _)).
      rewrite Z.div_mul_cancel_l; auto.
      - pose proof (pow2_pos (nd d * k) ltac:(pose proof (nd_pos d); nia)). lia.
      - pose proof (psize_pos d (ql q)). lia. }
    assert (I2 : linear_id_ext128 d r (ql r) = qidx d r) by (apply wf_id128_own; auto).
    rewrite I1, I2.
    assert (Pe : qend d q = (qidx d q + 1) * psize d (ql q)) by (apply wf_qend; auto).
    assert (Pr : qpos d r = qidx d r * 2 ^ (nd d * k) * psize d (ql q)).
    { rewrite wf_qpos by auto. rewrite (psize_split d (ql r) (ql q)) by lia. fold k. ring. }
    pose proof (psize_pos d (ql q) ltac:(lia)) as Ps.
    pose proof (pow2_pos (nd d * k) ltac:(pose proof (nd_pos d); nia)) as Pp.
    pose proof (Z.div_mod (qidx d q) (2 ^ (nd d * k)) ltac:(lia)) as DM.
    pose proof (Z.mod_pos_bound (qidx d q) (2 ^ (nd d * k)) ltac:(lia)) as MB.
    match type of M with ?b = false <-> _ => destruct b end.
    + split; [discriminate|]. intros F. exfalso.
      assert (qidx d q + 1 = qidx d r * 2 ^ (nd d * k)) by nia.
      assert (qidx d q mod 2 ^ (nd d * k) = 2 ^ (nd d * k) - 1).
      { replace (qidx d q) with (2 ^ (nd d * k) * (qidx d r - 1) + (2 ^ (nd d * k) - 1)) by lia.
        apply modqr. lia. }
      apply M in H0. congruence.
    + pose proof (proj1 M eq_refl) as N. rewrite Z.eqb_eq, Pe, Pr. rewrite N in DM.
      set (t := qidx d q / 2 ^ (nd d * k)) in *. set (w := 2 ^ (nd d * k)) in *.
      assert (E1 : qidx d q + 1 = (t + 1) * w) by lia. rewrite E1.
      split; intros HH.
      * rewrite <- HH. reflexivity.
      * apply Z.mul_reg_r in HH; [|lia]. apply Z.mul_reg_r in HH; lia.
  - rewrite wf_id128_own by auto. rewrite wf_id128 by (auto; lia).
    rewrite Z.eqb_eq. rewrite wf_qend, qsize_psize by auto.
    pose proof (psize_pos d (ql q) ltac:(lia)) as Ps.
    pose proof (Z.div_mod (qpos d r) (psize d (ql q)) ltac:(lia)) as DM.
    pose proof (Z.mod_pos_bound (qpos d r) (psize d (ql q)) ltac:(lia)) as MB.
    split; intros; nia.
Qed.

(** ** the descriptive version agrees with is_next on sorted pairs *)
Lemma next_D_walk_spec d r : wf d r -> forall fuel a, wf d a -> ql a - ql r < Z.of_nat fuel -> (0 < fuel)%nat ->
  next_D_walk d fuel a r = Some (is_next d a r).
Proof.
  intros Wr. pose proof (wf_level _ _ Wr) as Lr.
  induction fuel; intros a Wa Hf F0; [lia|]. pose proof (wf_level _ _ Wa) as La.
  cbn [next_D_walk]. destruct (ql a >? ql r) eqn:E.
  - destruct (parent_wf d a Wa ltac:(lia)) as (Wp & Lp & Ip).
    pose proof (children_pos d) as CP. pose proof (child_id_dig d a Wa ltac:(lia)) as CI.
    pose proof (Z.div_mod (qidx d a) (children d) ltac:(lia)) as DM. rewrite <- CI, <- Ip in DM.
    pose proof (wf_qend d a Wa) as Ea. pose proof (wf_qend d _ Wp) as Ep. rewrite Lp in Ep.
    assert (PS : psize d (ql a - 1) = children d * psize d (ql a)).
    { rewrite (psize_child d (ql a - 1)) by lia. do 2 f_equal. lia. }
    rewrite PS in Ep.
    pose proof (psize_pos d (ql a) ltac:(lia)) as Ps.
    destruct (negb (child_id d a =? children d - 1)) eqn:N.
    + f_equal. symmetry. apply not_true_is_false. rewrite is_next_spec by auto.
      replace (ql r <? ql a) with true by lia. intros F.
      rewrite wf_qpos, Ea in F by auto.
      rewrite (psize_split d (ql r) (ql a)) in F by lia.
      replace (ql a - ql r) with (ql a - ql r - 1 + 1) in F by lia. rewrite pow_nd_step in F by lia.
      pose proof (child_id_range d a Wa).
      set (w := 2 ^ _) in *.
      assert (qidx d a + 1 = children d * (qidx d r * w)) by nia.
      assert (child_id d a = children d - 1).
      { set (v := qidx d r * w) in *. clearbody v. destruct d; cbn [children] in *; lia. }
      lia.
    + rewrite IHfuel by (auto; lia). f_equal.
      assert (SE : qend d (parent d a) = qend d a).
      { rewrite Ea, Ep, DM. assert (child_id d a = children d - 1) by lia. rewrite H. ring. }
      apply eq_true_iff_eq. rewrite !is_next_spec by auto. rewrite Lp, SE.
      replace (ql r <? ql a) with true by lia.
      destruct (ql r <? ql a - 1) eqn:E2; [reflexivity|].
      assert (L1 : ql a - 1 = ql r) by lia.
      rewrite qsize_psize, Lp, L1.
      pose proof (wf_qpos d r Wr) as Pr. pose proof (psize_pos d (ql r) ltac:(lia)).
      rewrite <- SE, wf_qend, Lp, L1, Pr by auto.
      generalize (qidx d (parent d a)) (qidx d r). intros u v. clear - H.
      split; intros HH; [assert (v = u + 1) by nia; subst; lia|rewrite HH; lia].
  - f_equal. unfold is_next. replace (ql a >? ql r) with false. cbn [andb]. reflexivity.
Qed.

Lemma is_next_D_eq d q r : wf d q -> wf d r -> is_next_D d q r = Some (is_next d q r).
Proof.
  intros Wq Wr. unfold is_next_D. pose proof (wf_level _ _ Wq). pose proof (wf_level _ _ Wr).
  destruct (compare d q r >=? 0) eqn:E.
  - f_equal. symmetry. apply not_true_is_false. rewrite is_next_spec by auto. intros F.
    destruct (compare_wf d q r Wq Wr) as (A & B & C).
    pose proof (qsize_pos d q Wq).
    assert (compare d q r < 0); [|lia]. apply A. left. unfold qend in F. destruct (ql r <? ql q); lia.
  - apply next_D_walk_spec; auto; lia.
Qed.

(** ** families *)
Definition geo_family (d : dim) (f : nat -> quad) : Prop :=
  exists p, wf d p /\ ql p < 29 /\ forall i, 0 <= i < children d -> f (Z.to_nat i) = child d p i.

Lemma is_familyv_children d p : wf d p -> ql p < 29 ->
  is_familyv d (fun i => child d p (Z.of_nat i)) = true.
Proof.
  intros W L. pose proof (wf_level _ _ W).
  destruct (wf_elim d p W) as (X & Y & Z0 & Ex & Ey & Ez & _).
  assert (A : forall T, Z.lor (T * side (ql p)) (QLEN (ql p + 1)) = T * side (ql p) + QLEN (ql p + 1)).
  { intros T. rewrite QLEN_pow by lia. unfold side.
    replace (30 - ql p) with (30 - (ql p + 1) + 1) by lia. apply lor_bit_even. lia. }
  assert (N0 : ql p + 1 =? 0 = false) by lia.
  unfold is_familyv, child. cbn [qx qy qz ql]. rewrite Ex, Ey, Ez.
  rewrite N0, Z.eqb_refl.
  destruct d; cbn -[Z.add Z.mul side QLEN Z.lor]; rewrite ?A, ?Z.eqb_refl; reflexivity.
Qed.

(** what the family test establishes *)
Lemma is_familyv_spec d f : (forall i, (i < childrenn d)%nat -> wf d (f i)) ->
  child_id d (f 0%nat) = 0 ->
  is_familyv d f = true -> geo_family d f.
Proof.
  intros W C0 F.
  pose proof (W 0%nat ltac:(destruct d; cbn; lia)) as W0.
  pose proof (wf_level _ _ W0) as L0.
  assert (LP : 0 < ql (f 0%nat)).
  { unfold is_familyv in F. cbv zeta in F. destruct (ql (f 0%nat) =? 0) eqn:E; [|lia]. destruct d; discriminate. }
  destruct (parent_wf d (f 0%nat) W0 LP) as (Wp & Lp & _).
  exists (parent d (f 0%nat)). split; [auto|]. split; [lia|].
  pose proof (parent_child d (f 0%nat) W0 LP) as PC. rewrite C0 in PC.
  pose proof (is_familyv_children d (parent d (f 0%nat)) Wp ltac:(lia)) as G.
  set (p := parent d (f 0%nat)) in *.
  assert (E0 : f 0%nat = child d p 0) by auto.
  clearbody p. 
  intros i Hi.
  pose proof (W (Z.to_nat i) ltac:(destruct d; cbn in *; lia)) as Wi.
  destruct (child_wf d p i Wp ltac:(lia) Hi) as (Wc & Lc & _).
  assert (Zi : d = D2 -> qz (f (Z.to_nat i)) = qz (child d p i)).
  { intros ->. destruct Wi as (_ & _ & _ & ->), Wc as (_ & _ & _ & ->). reflexivity. }
  unfold is_familyv in F, G. cbv zeta in F, G. rewrite E0 in F.
  assert (K : forall a b : quad, qx a = qx b -> qy a = qy b -> qz a = qz b -> ql a = ql b -> a = b)
    by (intros [] [] **; cbn in *; congruence).
  destruct d.
  - match type of F with (if ?c then _ else _) = true => destruct c eqn:Ef; [discriminate|] end.
    match type of G with (if ?c then _ else _) = true => destruct c eqn:Eg; [discriminate|] end.
    rewrite !orb_false_iff, !negb_false_iff, !Z.eqb_eq in Ef, Eg.
    rewrite !andb_true_iff, !Z.eqb_eq in F, G.
    change (Z.of_nat 0) with 0 in *. change (Z.of_nat 1) with 1 in *. change (Z.of_nat 2) with 2 in *. change (Z.of_nat 3) with 3 in *.
    cbn [children] in Hi.
    assert (i = 0 \/ i = 1 \/ i = 2 \/ i = 3) as [->|[->|[->| ->]]] by lia;
    change (Z.to_nat 0) with 0%nat in *; change (Z.to_nat 1) with 1%nat in *; change (Z.to_nat 2) with 2%nat in *; change (Z.to_nat 3) with 3%nat in *;
    apply K; auto; try (rewrite E0; reflexivity); lia.
  - match type of F with (if ?c then _ else _) = true => destruct c eqn:Ef; [discriminate|] end.
    match type of G with (if ?c then _ else _) = true => destruct c eqn:Eg; [discriminate|] end.
    rewrite !orb_false_iff, !negb_false_iff, !Z.eqb_eq in Ef, Eg.
    rewrite !andb_true_iff, !Z.eqb_eq in F, G.
    change (Z.of_nat 0) with 0 in *. change (Z.of_nat 1) with 1 in *. change (Z.of_nat 2) with 2 in *. change (Z.of_nat 3) with 3 in *.
    change (Z.of_nat 4) with 4 in *. change (Z.of_nat 5) with 5 in *. change (Z.of_nat 6) with 6 in *. change (Z.of_nat 7) with 7 in *.
    cbn [children] in Hi.
    assert (i = 0 \/ i = 1 \/ i = 2 \/ i = 3 \/ i = 4 \/ i = 5 \/ i = 6 \/ i = 7) as [->|[->|[->|[->|[->|[->|[->| ->]]]]]]] by lia;
    change (Z.to_nat 0) with 0%nat in *; change (Z.to_nat 1) with 1%nat in *; change (Z.to_nat 2) with 2%nat in *; change (Z.to_nat 3) with 3%nat in *;
    change (Z.to_nat 4) with 4%nat in *; change (Z.to_nat 5) with 5%nat in *; change (Z.to_nat 6) with 6%nat in *; change (Z.to_nat 7) with 7%nat in *;
    apply K; auto; try (rewrite E0; reflexivity); lia.
Qed.
