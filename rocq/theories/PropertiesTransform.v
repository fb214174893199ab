(** * Property theorems C11, C12: transformations across a face connection *)

From Coq Require Import ZArith List Bool Lia ZifyBool.
From Verif Require Import Quad Spec Morton ZBits Interval QuadLemmas CompareLemmas IdLemmas
  SuccLemmas Neighbor PropertiesNeighbor Transform.
Import ListNotations.
Open Scope Z_scope.

(** ** Vocabulary *)
(** the root cube shifted once across its face f *)
Definition shift_lo (f i : Z) : Z :=
  if i =? f / 2 then (if f mod 2 =? 0 then - 2 ^ 30 else 2 ^ 30) else 0.
Definition beyond (d : dim) (f : Z) (q : quad) : Prop :=
  ext d q /\ shift_lo f 0 <= qx q < shift_lo f 0 + 2 ^ 30 /\ shift_lo f 1 <= qy q < shift_lo f 1 + 2 ^ 30 /\
  match d with D2 => True | D3 => shift_lo f 2 <= qz q < shift_lo f 2 + 2 ^ 30 end.

(** point in the plane of a 2D problem *)
Definition planar (d : dim) (c : Z) : Prop := match d with D2 => c = 0 | D3 => True end.

Definition dist1 (p p' : vec) : Z :=
  let '(a, b, c) := p in let '(a', b', c') := p' in
  Z.abs (a - a') + Z.abs (b - b') + Z.abs (c - c').

Definition inqv (d : dim) (q : quad) (p : vec) : Prop := let '(a, b, c) := p in inq d q a b c.
Definition planarv (d : dim) (p : vec) : Prop := let '(_, _, c) := p in planar d c.

(** closed points of the root and corner point c of the root *)
Definition root : quad := mkq 0 0 0 0.
Definition cornerv (d : dim) (c : Z) : vec :=
  ((c mod 2) * 2 ^ 30, (c / 2 mod 2) * 2 ^ 30, match d with D2 => 0 | D3 => (c / 4 mod 2) * 2 ^ 30 end).
Definition corner_on_face (d : dim) (c f : Z) : Prop := (c / 2 ^ (f / 2)) mod 2 = f mod 2.

(** ** Lemmas *)
Lemma i32_id a : - 2 ^ 31 <= a < 2 ^ 31 -> i32 a = a.
Proof. intros. unfold i32. rewrite Z.mod_small; lia. Qed.


Lemma side_le l : 0 <= l <= 30 -> 1 <= side l <= 2 ^ 30.
Proof.
  intros. pose proof (side_pos l ltac:(lia)). pose proof (side_mul l ltac:(lia)).
  pose proof (pow2_pos l ltac:(lia)). nia.
Qed.

Lemma root_len : ROOT_LEN = 2 ^ 30. Proof. reflexivity. Qed.

(** *** Componentwise view of a transformation *)
(** target component j comes from source component [fst] by map number [snd] *)
Definition comp (d : dim) (ft : ftrans) (j : Z) : Z * Z :=
  if j =? tg2 ft then (my2 ft, 2 + er2 ft)
  else if is3 d && (j =? tg1 ft) then (my1 ft, er1 ft)
  else (my0 ft, er0 ft).

Definition phi (k s x : Z) : Z :=
  if k =? 0 then x
  else if k =? 1 then 2 ^ 30 - s - x
  else if k =? 2 then - s - x
  else if k =? 3 then x + 2 ^ 30
  else if k =? 4 then x - 2 ^ 30
  else 2 ^ 31 - s - x.

Definition kinv (k : Z) : Z := if k =? 3 then 4 else if k =? 4 then 3 else k.

Definition axes (d : dim) : list Z := match d with D2 => [0; 1] | D3 => [0; 1; 2] end.

Definition chk (d : dim) (f nf o : Z) : bool :=
  let ft := expand_face_transform d f nf o in
  let ft' := expand_face_transform d nf f o in
  forallb (fun j =>
    let '(i, k) := comp d ft j in
    (0 <=? i) && (i <? nd d) && (0 <=? k) && (k <=? 5) &&
    ((j =? tg0 ft) || (is3 d && (j =? tg1 ft)) || (j =? tg2 ft)) &&
    (if j =? nf / 2 then (i =? f / 2) && (k =? 2 + 2 * (f mod 2) + nf mod 2)
     else negb (i =? f / 2) && (k <? 2)) &&
    let '(i', k') := comp d ft' i in (i' =? j) && (k' =? kinv k)) (axes d).
Definition chk2 (d : dim) (f nf o : Z) : bool :=
  let ft := expand_face_transform d f nf o in
  (0 <=? tg0 ft) && (tg0 ft <? nd d) && (0 <=? tg2 ft) && (tg2 ft <? nd d) &&
  (0 <=? tg1 ft) && (tg1 ft <? nd d) && (0 <=? er0 ft) && (0 <=? er1 ft) && (0 <=? er2 ft) && (er2 ft <=? 3).

Definition zrange (n : nat) : list Z := map Z.of_nat (seq 0 n).
Lemma zrange_in n x : 0 <= x < Z.of_nat n -> In x (zrange n).
Proof.
  intros. unfold zrange. rewrite in_map_iff. exists (Z.to_nat x). rewrite in_seq. lia.
Qed.

Lemma chk_all d f nf o : 0 <= f < faces d -> 0 <= nf < faces d -> 0 <= o < half d -> chk d f nf o && chk2 d f nf o = true.
Proof.
  intros Hf Hn Ho.
  assert (A : forallb (fun f => forallb (fun nf => forallb (fun o => chk d f nf o && chk2 d f nf o) (zrange (Z.to_nat (half d))))
     (zrange (Z.to_nat (faces d)))) (zrange (Z.to_nat (faces d))) = true) by (destruct d; vm_compute; reflexivity).
  rewrite forallb_forall in A. specialize (A f (zrange_in (Z.to_nat (faces d)) f ltac:(rewrite Z2Nat.id; [lia|destruct d; vm_compute; discriminate]))).
  rewrite forallb_forall in A. specialize (A nf (zrange_in (Z.to_nat (faces d)) nf ltac:(rewrite Z2Nat.id; [lia|destruct d; vm_compute; discriminate]))).
  rewrite forallb_forall in A. apply (A o (zrange_in (Z.to_nat (half d)) o ltac:(rewrite Z2Nat.id; [lia|destruct d; vm_compute; discriminate]))).
Qed.

Definition cv (q : quad) : vec := (qx q, qy q, qz q).
Definition axis (d : dim) (i : Z) : Prop := 0 <= i < nd d.

Lemma axis_in d i : axis d i -> In i (axes d).
Proof.
  unfold axis. destruct d; cbn; intros; [assert (i = 0 \/ i = 1) by lia|assert (i = 0 \/ i = 1 \/ i = 2) by lia]; intuition.
Qed.

Lemma vec_ext d (v w : vec) : (d = D2 -> vget v 2 = 0 /\ vget w 2 = 0) ->
  (forall i, axis d i -> vget v i = vget w i) -> v = w.
Proof.
  destruct v as [[a b] c], w as [[a' b'] c']. intros Hz H.
  pose proof (H 0 ltac:(unfold axis; destruct d; cbn; lia)) as H0.
  pose proof (H 1 ltac:(unfold axis; destruct d; cbn; lia)) as H1.
  cbn in *. subst. destruct d; [destruct (Hz eq_refl); subst; reflexivity|].
  pose proof (H 2 ltac:(unfold axis; cbn; lia)) as H2. cbn in H2. subst. reflexivity.
Qed.

Lemma all_axes d (P : Z -> Prop) : (forall i, axis d i -> P i) <-> P 0 /\ P 1 /\ match d with D2 => True | D3 => P 2 end.
Proof.
  unfold axis. split.
  - intros H. split; [|split]; [apply H|apply H|]; destruct d; cbn [nd]; try lia; auto. apply H. cbn; lia.
  - intros (H0 & H1 & H2) i Hi. destruct (Z.eq_dec i 0) as [->|]; auto. destruct (Z.eq_dec i 1) as [->|]; auto.
    destruct d; cbn [nd] in Hi; [lia|]. assert (i = 2) by lia. subst. auto.
Qed.

Lemma beyond_comp d f q : beyond d f q <->
  ext d q /\ forall i, axis d i -> shift_lo f i <= vget (cv q) i < shift_lo f i + 2 ^ 30.
Proof.
  rewrite (all_axes d (fun i => shift_lo f i <= vget (cv q) i < shift_lo f i + 2 ^ 30)). reflexivity.
Qed.

Lemma wf_comp d q : wf d q <-> ext d q /\ forall i, axis d i -> 0 <= vget (cv q) i < 2 ^ 30.
Proof.
  rewrite (all_axes d (fun i => 0 <= vget (cv q) i < 2 ^ 30)). rewrite wf_ext.
  reflexivity.
Qed.

Lemma phi_hi e s m : 1 <= s <= 2 ^ 30 ->
  (e = 0 \/ e = 1) /\ - 2 ^ 30 <= m < 2 ^ 30 \/ (e = 2 \/ e = 3) /\ 0 <= m < 2 ^ 31 ->
  i32 (if e =? 0 then - s - m else if e =? 1 then m + 2 ^ 30 else if e =? 2 then m - 2 ^ 30
       else 2 ^ 30 + (2 ^ 30 + - s) - m) = phi (2 + e) s m.
Proof.
  intros S H. unfold phi.
  destruct H as [([->| ->] & H)|([->| ->] & H)].
  - change (2 + 0) with 2. zconst. cbv iota. rewrite i32_id; lia.
  - change (2 + 1) with 3. zconst. cbv iota. rewrite i32_id; lia.
  - change (2 + 2) with 4. zconst. cbv iota. rewrite i32_id; lia.
  - change (2 + 3) with 5. zconst. cbv iota. rewrite i32_id; lia.
Qed.

Section Face.
  Variables (d : dim) (f nf o : Z).
  Hypothesis (Hf : 0 <= f < faces d) (Hn : 0 <= nf < faces d) (Ho : 0 <= o < half d).
  Let ft := expand_face_transform d f nf o.
  Let ft' := expand_face_transform d nf f o.

  Lemma comp_spec j : axis d j ->
    let '(i, k) := comp d ft j in
    axis d i /\ 0 <= k <= 5 /\ (j = tg0 ft \/ (d = D3 /\ j = tg1 ft) \/ j = tg2 ft) /\
    (j = nf / 2 -> i = f / 2 /\ k = 2 + 2 * (f mod 2) + nf mod 2) /\
    (j <> nf / 2 -> i <> f / 2 /\ k < 2) /\
    comp d ft' i = (j, kinv k).
  Proof.
    intros A. pose proof (chk_all d f nf o Hf Hn Ho) as C.
    apply andb_true_iff in C. destruct C as (C & _). unfold chk in C. fold ft ft' in C.
    rewrite forallb_forall in C. specialize (C j (axis_in d j A)).
    destruct (comp d ft j) as (i, k). destruct (comp d ft' i) as (i', k').
    rewrite !andb_true_iff in C. destruct C as ((((((C1 & C2) & C3) & C4) & C5) & C6) & (C7 & C8)).
    unfold axis. split; [lia|]. split; [lia|]. split.
    - rewrite !orb_true_iff, andb_true_iff in C5. destruct C5 as [[C5|(C5 & C5')]|C5]; [lia| |lia].
      right. left. split; [destruct d; [discriminate|reflexivity]|lia].
    - split; [|split].
      + intros ->. rewrite Z.eqb_refl in C6. lia.
      + intros N. replace (j =? nf / 2) with false in C6 by lia. lia.
      + f_equal; lia.
  Qed.

  Lemma tg_range : axis d (tg0 ft) /\ axis d (tg2 ft) /\ axis d (tg1 ft) /\ 0 <= er0 ft /\ 0 <= er1 ft /\ 0 <= er2 ft <= 3.
  Proof.
    pose proof (chk_all d f nf o Hf Hn Ho) as C.
    apply andb_true_iff in C. destruct C as (_ & C). unfold chk2 in C. fold ft in C.
    rewrite !andb_true_iff in C. unfold axis. lia.
  Qed.

  (** component j of the transformed quadrant, no wrap around *)
  Lemma tf_comp q j : (wf d q \/ beyond d f q) -> axis d j ->
    vget (cv (transform_face d q ft)) j =
    phi (snd (comp d ft j)) (side (ql q)) (vget (cv q) (fst (comp d ft j))).
  Proof.
    intros H A.
    assert (E : ext d q) by (destruct H as [W|(E & _)]; [apply wf_ext in W; tauto|auto]).
    pose proof E as (L & _). pose proof (side_le (ql q) ltac:(lia)) as SL.
    assert (B : forall i, axis d i -> i <> f / 2 -> 0 <= vget (cv q) i < 2 ^ 30).
    { intros i Ai Ni. destruct H as [W|W].
      - apply wf_comp in W. apply W; auto.
      - apply beyond_comp in W. destruct W as (_ & W). specialize (W i Ai). unfold shift_lo in W.
        replace (i =? f / 2) with false in W by lia. lia. }
    assert (B' : forall i, axis d i -> - 2 ^ 30 <= vget (cv q) i < 2 ^ 31 /\
         (i = f / 2 -> if f mod 2 =? 0 then - 2 ^ 30 <= vget (cv q) i < 2 ^ 30 else 0 <= vget (cv q) i < 2 ^ 31)).
    { intros i Ai. destruct H as [W|W].
      - apply wf_comp in W. destruct W as (_ & W). specialize (W i Ai). destruct (f mod 2 =? 0); lia.
      - apply beyond_comp in W. destruct W as (_ & W). specialize (W i Ai). unfold shift_lo in W.
        destruct (i =? f / 2) eqn:?; destruct (f mod 2 =? 0); lia. }
    pose proof (comp_spec j A) as C. destruct tg_range as (T0 & T2 & T1 & E0 & E1 & E2).
    unfold transform_face, MAXLEVEL. replace (ql q =? 30) with false by lia.
    rewrite QLEN_side, root_len by lia. change (qx q, qy q, qz q) with (cv q).
    assert (VS : forall v i a, axis d i -> vget (vset v i a) j = if j =? i then a else vget v j).
    { intros [[x y] z] i a Ai. unfold vget, vset, axis in *.
      assert (nd d <= 3) by (destruct d; cbn; lia).
      destruct (i =? 0) eqn:?; destruct (j =? 0) eqn:?; destruct (j =? i) eqn:?; try lia; auto;
      destruct (i =? 1) eqn:?; destruct (j =? 1) eqn:?; try lia; auto. }
    assert (CV : forall v, vget (cv (mkq (vget v 0) (vget v 1) (vget v 2) (ql q))) j = vget v j).
    { intros [[x y] z]. reflexivity. }
    cbv zeta. rewrite CV.
    rewrite (VS _ (tg2 ft)) by auto.
    set (s := side (ql q)) in *.
    rewrite (i32_id (2 ^ 30 + (2 ^ 30 + - s))) by lia.
    unfold comp in *. destruct (j =? tg2 ft) eqn:J2.
    - cbn [fst snd] in *. destruct C as (Ai & K & _ & C1 & C2 & _).
      destruct (Z.eq_dec j (nf / 2)) as [Ej|Ej]; [|destruct (C2 Ej); lia].
      destruct (C1 Ej) as (Ei & Ek). destruct (B' _ Ai) as (R1 & R2). specialize (R2 Ei).
      assert (f mod 2 = 0 \/ f mod 2 = 1) as M by (pose proof (Z.mod_pos_bound f 2); lia).
      assert (nf mod 2 = 0 \/ nf mod 2 = 1) as M' by (pose proof (Z.mod_pos_bound nf 2); lia).
      apply phi_hi; auto.
      clear - R1 R2 Ek M M' SL. destruct M as [M|M], M' as [M'|M']; rewrite M, M' in Ek; rewrite M in R2;
        change (0 =? 0) with true in R2; change (1 =? 0) with false in R2; cbv iota in R2; lia.
    - assert (Nj : j <> nf / 2 \/ j = nf / 2) by lia.
      destruct (is3 d && (j =? tg1 ft)) eqn:J1; cbn [fst snd] in *.
      + apply andb_true_iff in J1. destruct J1 as (-> & J1). rewrite (VS _ (tg1 ft)), J1 by auto.
        destruct C as (Ai & K & _ & C1 & C2 & _).
        destruct Nj as [Nj|Nj]; [|destruct (C1 Nj); exfalso; pose proof (Z.mod_pos_bound f 2); pose proof (Z.mod_pos_bound nf 2);
                                  pose proof (comp_spec (tg2 ft) T2) as C'; unfold comp in C'; rewrite Z.eqb_refl in C';
                                  destruct C' as (_ & _ & _ & _ & C3 & _); destruct (Z.eq_dec (tg2 ft) (nf / 2)); [lia|destruct (C3 n); lia]].
        destruct (C2 Nj) as (Ni & Kl). specialize (B _ Ai Ni).
        set (m := vget (cv q) (my1 ft)) in *. clearbody m. unfold phi.
        assert (er1 ft = 0 \/ er1 ft = 1) as [-> | ->] by lia; zconst; cbv iota; rewrite i32_id; lia.
      + assert (J0 : j = tg0 ft).
        { destruct C as (_ & _ & Cj & _). destruct Cj as [?|[(-> & ?)|?]]; auto; [|lia].
          cbn [is3 andb] in J1. lia. }
        match goal with |- vget (if is3 d then vset ?w (tg1 ft) ?a else ?w) j = _ =>
          assert (Sk : vget (if is3 d then vset w (tg1 ft) a else w) j = vget w j)
            by (destruct (is3 d); [rewrite VS by auto; cbn [andb] in J1; rewrite J1; reflexivity|reflexivity]) end.
        rewrite Sk. clear Sk. rewrite (VS _ (tg0 ft)) by auto. replace (j =? tg0 ft) with true by lia.
        destruct C as (Ai & K & _ & C1 & C2 & _).
        destruct Nj as [Nj|Nj]; [|destruct (C1 Nj); exfalso; pose proof (Z.mod_pos_bound f 2); pose proof (Z.mod_pos_bound nf 2);
                                  pose proof (comp_spec (tg2 ft) T2) as C'; unfold comp in C'; rewrite Z.eqb_refl in C';
                                  destruct C' as (_ & _ & _ & _ & C3 & _); destruct (Z.eq_dec (tg2 ft) (nf / 2)); [lia|destruct (C3 n); lia]].
        destruct (C2 Nj) as (Ni & Kl). specialize (B _ Ai Ni).
        set (m := vget (cv q) (my0 ft)) in *. clearbody m. unfold phi.
        assert (er0 ft = 0 \/ er0 ft = 1) as [-> | ->] by lia; zconst; cbv iota; rewrite i32_id; lia.
  Qed.

  Lemma tf_level q : ql (transform_face d q ft) = ql q.
  Proof. reflexivity. Qed.

  Lemma tf_z q : d = D2 -> qz (transform_face d q ft) = 0.
  Proof.
    intros E. destruct tg_range as (T0 & T2 & T1 & _). unfold axis in *. rewrite E in T0, T2. cbn [nd] in *.
    unfold transform_face. rewrite E at 1. cbn [is3 qz].
    assert (VS : forall v i a, 0 <= i < 2 -> vget (vset v i a) 2 = vget v 2).
    { intros [[x y] z] i a Hi. unfold vset. destruct (i =? 0) eqn:?; [reflexivity|].
      destruct (i =? 1) eqn:?; [reflexivity|lia]. }
    rewrite VS by lia. destruct (is3 d) eqn:I3; [rewrite E in I3; discriminate|].
    rewrite VS by lia. reflexivity.
  Qed.

  Lemma ext_comp q : ext d q <-> 0 <= ql q <= 29 /\ (forall i, axis d i -> exists X, vget (cv q) i = X * side (ql q)) /\
    (d = D2 -> qz q = 0).
  Proof.
    clear. rewrite (all_axes d (fun i => exists X, vget (cv q) i = X * side (ql q))). unfold ext.
    change (vget (cv q) 0) with (qx q). change (vget (cv q) 1) with (qy q). change (vget (cv q) 2) with (qz q).
    destruct d; split.
    - intros (L & X & Y & Z0); auto.
    - intros (L & (X & Y & _) & Z0). split; [auto|]. split; [auto|]. split; auto.
    - intros (L & X & Y & Z0). split; [auto|]. split; [auto|discriminate].
    - intros (L & X & _). auto.
  Qed.

  Lemma phi_mul k l x : 0 <= l <= 30 -> (exists X, x = X * side l) -> exists X, phi k (side l) x = X * side l.
  Proof.
    intros L (X & ->). pose proof (side_mul l L) as M. unfold phi. rewrite <- M.
    replace (2 ^ 31) with (2 * (2 ^ l * side l)) by lia.
    destruct (k =? 0); [exists X; ring|]. destruct (k =? 1); [exists (2 ^ l - 1 - X); ring|].
    destruct (k =? 2); [exists (- 1 - X); ring|]. destruct (k =? 3); [exists (X + 2 ^ l); ring|].
    destruct (k =? 4); [exists (X - 2 ^ l); ring|exists (2 * 2 ^ l - 1 - X); ring].
  Qed.

  Lemma in_ext q : wf d q \/ beyond d f q -> ext d q.
  Proof. intros [W|(E & _)]; [apply wf_ext in W; tauto|auto]. Qed.

  Lemma tf_ext q : wf d q \/ beyond d f q -> ext d (transform_face d q ft).
  Proof.
    intros H. pose proof (in_ext q H) as E. apply ext_comp in E. destruct E as (L & Dv & _).
    apply ext_comp. split; [exact L|]. split; [|apply tf_z].
    intros j A. rewrite tf_comp by auto. rewrite tf_level. apply phi_mul; [lia|]. apply Dv.
    pose proof (comp_spec j A) as C. destruct (comp d ft j). tauto.
  Qed.

  Lemma mul_up l x m : 0 <= l <= 30 -> (exists X, x = X * side l) -> m = - 2 ^ 30 \/ m = 2 ^ 30 \/ m = 0 \/ m = 2 ^ 31 ->
    x < m -> x + side l <= m.
  Proof.
    clear. intros L (X & ->) Hm. pose proof (side_mul l L). pose proof (side_pos l ltac:(lia)).
    destruct Hm as [->|[->|[->| ->]]].
    - replace (- 2 ^ 30) with ((- 2 ^ l) * side l) by lia. apply up_bound; auto.
    - rewrite <- H. apply up_bound; auto.
    - change 0 with (0 * side l). apply up_bound; auto.
    - replace (2 ^ 31) with ((2 * 2 ^ l) * side l) by lia. apply up_bound; auto.
  Qed.

  Lemma tf_wf q : beyond d f q -> wf d (transform_face d q ft).
  Proof.
    intros B. apply wf_comp. split; [apply tf_ext; auto|]. intros j A. rewrite tf_comp by auto.
    pose proof (comp_spec j A) as C. destruct (comp d ft j) as (i, k). cbn [fst snd].
    destruct C as (Ai & K & _ & C1 & C2 & _).
    pose proof (proj1 (beyond_comp d f q) B) as (E & Bq). specialize (Bq i Ai). apply ext_comp in E.
    destruct E as (L & Dv & _). specialize (Dv i Ai).
    pose proof (side_le (ql q) ltac:(lia)) as SL.
    assert (U : forall m, m = - 2 ^ 30 \/ m = 2 ^ 30 \/ m = 0 \/ m = 2 ^ 31 -> vget (cv q) i < m -> vget (cv q) i + side (ql q) <= m)
      by (intros; apply mul_up; auto; lia).
    pose proof (U 0 ltac:(auto)). pose proof (U (2 ^ 30) ltac:(auto)). pose proof (U (2 ^ 31) ltac:(auto)).
    clear U Dv. set (x := vget (cv q) i) in *. clearbody x. unfold shift_lo in Bq.
    destruct (Z.eq_dec j (nf / 2)) as [Ej|Ej].
    - destruct (C1 Ej) as (Ei & Ek). replace (i =? f / 2) with true in Bq by lia.
      assert (f mod 2 = 0 \/ f mod 2 = 1) as M by (pose proof (Z.mod_pos_bound f 2); lia).
      assert (nf mod 2 = 0 \/ nf mod 2 = 1) as M' by (pose proof (Z.mod_pos_bound nf 2); lia).
      clear - M M' Ek Bq SL H H0 H1.
      destruct M as [M|M], M' as [M'|M']; rewrite M, M' in Ek; rewrite M in Bq;
        change (0 =? 0) with true in Bq; change (1 =? 0) with false in Bq; cbv iota in Bq;
        [change (2 + 2 * 0 + 0) with 2 in Ek|change (2 + 2 * 0 + 1) with 3 in Ek|
         change (2 + 2 * 1 + 0) with 4 in Ek|change (2 + 2 * 1 + 1) with 5 in Ek];
        subst k; unfold phi; zconst; cbv iota; lia.
    - destruct (C2 Ej) as (Ei & Ek). replace (i =? f / 2) with false in Bq by lia.
      clear - K Ek Bq SL H H0 H1. assert (k = 0 \/ k = 1) as [-> | ->] by lia; unfold phi; zconst; cbv iota; lia.
  Qed.

  Lemma tf_beyond q : wf d q -> beyond d nf (transform_face d q ft).
  Proof.
    intros W. apply beyond_comp. split; [apply tf_ext; auto|]. intros j A. rewrite tf_comp by auto.
    pose proof (comp_spec j A) as C. destruct (comp d ft j) as (i, k). cbn [fst snd].
    destruct C as (Ai & K & _ & C1 & C2 & _).
    pose proof (proj1 (wf_comp d q) W) as (E & Bq). specialize (Bq i Ai). apply ext_comp in E.
    destruct E as (L & Dv & _). specialize (Dv i Ai).
    pose proof (side_le (ql q) ltac:(lia)) as SL.
    pose proof (mul_up (ql q) (vget (cv q) i) (2 ^ 30) ltac:(lia) Dv ltac:(auto) ltac:(lia)) as U.
    clear Dv. set (x := vget (cv q) i) in *. clearbody x. unfold shift_lo.
    destruct (Z.eq_dec j (nf / 2)) as [Ej|Ej].
    - destruct (C1 Ej) as (Ei & Ek). replace (j =? nf / 2) with true by lia.
      assert (f mod 2 = 0 \/ f mod 2 = 1) as M by (pose proof (Z.mod_pos_bound f 2); lia).
      assert (nf mod 2 = 0 \/ nf mod 2 = 1) as M' by (pose proof (Z.mod_pos_bound nf 2); lia).
      clear - M M' Ek Bq SL U.
      destruct M as [M|M], M' as [M'|M']; rewrite M, M' in Ek; rewrite M';
        [change (2 + 2 * 0 + 0) with 2 in Ek|change (2 + 2 * 0 + 1) with 3 in Ek|
         change (2 + 2 * 1 + 0) with 4 in Ek|change (2 + 2 * 1 + 1) with 5 in Ek];
        subst k; unfold phi; zconst; cbv iota; lia.
    - destruct (C2 Ej) as (Ei & Ek). replace (j =? nf / 2) with false by lia.
      clear - K Ek Bq SL U. assert (k = 0 \/ k = 1) as [-> | ->] by lia; unfold phi; zconst; cbv iota; lia.
  Qed.

  Lemma phi_inv k s x : 0 <= k <= 5 -> phi (kinv k) s (phi k s x) = x.
  Proof.
    clear. intros K. assert (k = 0 \/ k = 1 \/ k = 2 \/ k = 3 \/ k = 4 \/ k = 5) as H by lia.
    destruct H as [->|[->|[->|[->|[->| ->]]]]]; unfold phi, kinv; zconst; cbv iota; zconst; cbv iota; lia.
  Qed.
End Face.

Lemma quad_cv d q r : (d = D2 -> qz q = 0 /\ qz r = 0) -> ql q = ql r ->
  (forall i, axis d i -> vget (cv q) i = vget (cv r) i) -> q = r.
Proof.
  intros Hz Hl H. pose proof (vec_ext d (cv q) (cv r) Hz H) as E. clear H Hz. destruct q as [x y z l], r as [x' y' z' l'].
  unfold cv in E. cbn [qx qy qz ql] in *. congruence.
Qed.

Lemma tf_inv d f nf o q : 0 <= f < faces d -> 0 <= nf < faces d -> 0 <= o < half d ->
  wf d q \/ beyond d f q ->
  transform_face d (transform_face d q (expand_face_transform d f nf o)) (expand_face_transform d nf f o) = q.
Proof.
  intros Hf Hn Ho H. set (r := transform_face d q (expand_face_transform d f nf o)).
  assert (R : wf d r \/ beyond d nf r)
    by (destruct H as [H|H]; [right; apply tf_beyond; auto|left; apply tf_wf; auto]).
  pose proof (in_ext d f nf o Hf Hn Ho q H) as E.
  apply (quad_cv d).
  - intros Ed. split; [apply tf_z; auto|]. apply ext_comp in E. tauto.
  - reflexivity.
  - intros i A. rewrite tf_comp by auto.
    pose proof (comp_spec d nf f o Hn Hf Ho i A) as C. destruct (comp d (expand_face_transform d nf f o) i) as (j, k) eqn:Ec.
    cbn [fst snd]. destruct C as (Aj & K & _ & _ & _ & Ci).
    unfold r at 2. rewrite tf_comp by auto. rewrite Ci. cbn [fst snd].
    change (ql r) with (ql q). replace k with (kinv (kinv k)) at 1.
    + apply phi_inv. unfold kinv. destruct (k =? 3) eqn:?; [lia|]. destruct (k =? 4) eqn:?; lia.
    + unfold kinv. destruct (k =? 3) eqn:?; [cbn; lia|]. destruct (k =? 4) eqn:?; [cbn; lia|]. rewrite Heqb, Heqb0. auto.
Qed.

(** ** C11 *)
Theorem C11_face_transform : forall d f nf o q,
  0 <= f < faces d -> 0 <= nf < faces d -> 0 <= o < half d ->
  let T := fun q => transform_face d q (expand_face_transform d f nf o) in
  let T' := fun q => transform_face d q (expand_face_transform d nf f o) in
  (beyond d f q -> wf d (T q) /\ ql (T q) = ql q /\ T' (T q) = q /\
     (bound (f / 2) (1 - f mod 2) q = (f mod 2) * 2 ^ 30 <->
      bound (nf / 2) (nf mod 2) (T q) = (nf mod 2) * 2 ^ 30)) /\
  (wf d q -> beyond d nf (T q) /\ ql (T q) = ql q /\ T' (T q) = q).
Proof.
  intros d f nf o q Hf Hn Ho. cbv zeta. split.
  - intros B. split; [apply tf_wf; auto|]. split; [reflexivity|]. split; [apply tf_inv; auto|].
    assert (A : axis d (nf / 2)).
    { unfold axis. pose proof (Z.div_mod nf 2). pose proof (Z.mod_pos_bound nf 2).
      destruct d; [change (faces D2) with 4 in *; change (nd D2) with 2|
                   change (faces D3) with 6 in *; change (nd D3) with 3]; lia. }
    pose proof (comp_spec d f nf o Hf Hn Ho _ A) as C.
    pose proof (tf_comp d f nf o Hf Hn Ho q _ (or_intror B) A) as T.
    destruct (comp d (expand_face_transform d f nf o) (nf / 2)) as (i, k). cbn [fst snd] in T.
    destruct C as (_ & _ & _ & C1 & _). destruct (C1 eq_refl) as (-> & Ek).
    unfold bound. rewrite tf_level.
    change (qcoord (nf / 2) (transform_face d q (expand_face_transform d f nf o)))
      with (vget (cv (transform_face d q (expand_face_transform d f nf o))) (nf / 2)).
    change (qcoord (f / 2) q) with (vget (cv q) (f / 2)).
    rewrite T. clear T C1 A B. generalize (vget (cv q) (f / 2)) (side (ql q)). intros x s.
    assert (f mod 2 = 0 \/ f mod 2 = 1) as M by (pose proof (Z.mod_pos_bound f 2); lia).
    assert (nf mod 2 = 0 \/ nf mod 2 = 1) as M' by (pose proof (Z.mod_pos_bound nf 2); lia).
    clear - M M' Ek.
    destruct M as [M|M], M' as [M'|M']; rewrite M, M' in Ek |- *;
      [change (2 + 2 * 0 + 0) with 2 in Ek|change (2 + 2 * 0 + 1) with 3 in Ek|
       change (2 + 2 * 1 + 0) with 4 in Ek|change (2 + 2 * 1 + 1) with 5 in Ek];
      subst k; unfold phi; zconst; cbv iota; lia.
  - intros W. split; [apply tf_beyond; auto|]. split; [reflexivity|apply tf_inv; auto].
Qed.

(** The lattice cell map: target component j from source component i.  *)
Definition cellmap (d : dim) (ft : ftrans) (p : vec) : vec :=
  let g j := phi (snd (comp d ft j)) 1 (vget p (fst (comp d ft j))) in
  (g 0, g 1, match d with D2 => 0 | D3 => g 2 end).

Lemma cellmap_comp d ft p j : axis d j -> vget (cellmap d ft p) j = phi (snd (comp d ft j)) 1 (vget p (fst (comp d ft j))).
Proof.
  intros A. unfold axis in A. destruct (Z.eq_dec j 0) as [->|]; [reflexivity|]. destruct (Z.eq_dec j 1) as [->|]; [reflexivity|].
  destruct d; cbn [nd] in A; [lia|]. assert (j = 2) by lia. subst. reflexivity.
Qed.

Lemma cellmap_inv d f nf o p : 0 <= f < faces d -> 0 <= nf < faces d -> 0 <= o < half d -> planarv d p ->
  cellmap d (expand_face_transform d nf f o) (cellmap d (expand_face_transform d f nf o) p) = p.
Proof.
  intros Hf Hn Ho P. apply (vec_ext d).
  - intros ->. split; [reflexivity|]. destruct p as [[a b] c]. exact P.
  - intros i A. rewrite cellmap_comp by auto.
    pose proof (comp_spec d nf f o Hn Hf Ho i A) as C. destruct (comp d (expand_face_transform d nf f o) i) as (j, k) eqn:Ec.
    cbn [fst snd]. destruct C as (Aj & K & _ & _ & _ & Ci).
    rewrite cellmap_comp by auto. rewrite Ci. cbn [fst snd].
    replace k with (kinv (kinv k)) at 1.
    + apply phi_inv. unfold kinv. destruct (k =? 3) eqn:?; [lia|]. destruct (k =? 4) eqn:?; lia.
    + unfold kinv. destruct (k =? 3) eqn:?; [cbn; lia|]. destruct (k =? 4) eqn:?; [cbn; lia|]. rewrite Heqb, Heqb0. auto.
Qed.

Lemma phi_dist k s x y : 0 <= k <= 5 -> Z.abs (phi k s x - phi k s y) = Z.abs (x - y).
Proof.
  intros K. assert (k = 0 \/ k = 1 \/ k = 2 \/ k = 3 \/ k = 4 \/ k = 5) as H by lia.
  destruct H as [->|[->|[->|[->|[->| ->]]]]]; unfold phi; zconst; cbv iota; lia.
Qed.

(** one isometry of the lattice describes the transformation of all quadrants *)
Theorem C11_isometry : forall d f nf o,
  0 <= f < faces d -> 0 <= nf < faces d -> 0 <= o < half d ->
  exists P P' : vec -> vec,
    (forall p, planarv d p -> planarv d (P p) /\ P' (P p) = p) /\
    (forall p, planarv d p -> planarv d (P' p) /\ P (P' p) = p) /\
    (forall p p', planarv d p -> planarv d p' -> dist1 (P p) (P p') = dist1 p p') /\
    forall q p, wf d q \/ beyond d f q -> planarv d p ->
      (inqv d q p <-> inqv d (transform_face d q (expand_face_transform d f nf o)) (P p)).
Proof.
  intros d f nf o Hf Hn Ho.
  exists (cellmap d (expand_face_transform d f nf o)), (cellmap d (expand_face_transform d nf f o)).
  assert (PL : forall ft p, planarv d (cellmap d ft p)).
  { intros. unfold planarv, planar, cellmap. destruct d; auto. }
  split; [|split; [|split]].
  - intros p Pl. split; [apply PL|apply cellmap_inv; auto].
  - intros p Pl. split; [apply PL|apply cellmap_inv; auto].
  - intros p p' Pl Pl'. unfold dist1, cellmap.
    set (ft := expand_face_transform d f nf o).
    assert (C : forall j, axis d j -> exists i, fst (comp d ft j) = i /\ axis d i /\ 
        fst (comp d (expand_face_transform d nf f o) i) = j /\
        Z.abs (phi (snd (comp d ft j)) 1 (vget p i) - phi (snd (comp d ft j)) 1 (vget p' i)) = Z.abs (vget p i - vget p' i)).
    { intros j A. pose proof (comp_spec d f nf o Hf Hn Ho j A) as C. fold ft in C. destruct (comp d ft j) as (i, k). 
      cbn [fst snd]. exists i. destruct C as (Ai & K & _ & _ & _ & Ci). rewrite Ci. split; [auto|]. split; [auto|].
      split; [auto|]. apply phi_dist; auto. }
    destruct (C 0 ltac:(unfold axis; destruct d; cbn; lia)) as (i0 & E0 & A0 & I0 & D0).
    destruct (C 1 ltac:(unfold axis; destruct d; cbn; lia)) as (i1 & E1 & A1 & I1 & D1).
    rewrite E0, E1, D0, D1. assert (i0 <> i1) by congruence.
    destruct p as [[a b] c], p' as [[a' b'] c'].
    destruct d.
    + cbn in Pl, Pl'. subst c c'. change (Z.abs (0 - 0)) with 0. unfold axis in *. cbn [nd] in *.
      assert (i0 = 0 \/ i0 = 1) as X0 by lia. assert (i1 = 0 \/ i1 = 1) as X1 by lia.
      clear C E0 E1 I0 I1 D0 D1.
      destruct X0 as [->| ->], X1 as [->| ->]; try lia; cbn [vget]; zconst; cbv iota; lia.
    + destruct (C 2 ltac:(unfold axis; cbn; lia)) as (i2 & E2 & A2 & I2 & D2').
      rewrite E2, D2'. assert (i0 <> i2) by congruence. assert (i1 <> i2) by congruence.
      unfold axis in *. cbn [nd] in *.
      assert (i0 = 0 \/ i0 = 1 \/ i0 = 2) as X0 by lia. assert (i1 = 0 \/ i1 = 1 \/ i1 = 2) as X1 by lia.
      assert (i2 = 0 \/ i2 = 1 \/ i2 = 2) as X2 by lia.
      clear C E0 E1 E2 I0 I1 I2 D0 D1 D2' Hf Hn Ho ft PL Pl Pl'.
      destruct X0 as [->|[->| ->]], X1 as [->|[->| ->]]; try lia; destruct X2 as [->|[->| ->]]; try lia;
        cbn [vget]; zconst; cbv iota; lia.
  - intros q p H Pl.
    assert (IQ : forall q p, inqv d q p <-> planarv d p /\ forall i, axis d i -> vget (cv q) i <= vget p i < vget (cv q) i + side (ql q)).
    { intros r [[a b] c]. rewrite (all_axes d (fun i => vget (cv r) i <= vget (a, b, c) i < vget (cv r) i + side (ql r))).
      unfold inqv, inq, planarv, planar.
      change (vget (cv r) 0) with (qx r). change (vget (cv r) 1) with (qy r). change (vget (cv r) 2) with (qz r).
      change (vget (a, b, c) 0) with a. change (vget (a, b, c) 1) with b. change (vget (a, b, c) 2) with c.
      destruct d; tauto. }
    rewrite !IQ. rewrite tf_level.
    assert (CC : forall k s x y, 0 <= k <= 5 -> (x <= y < x + s <-> phi k s x <= phi k 1 y < phi k s x + s)).
    { clear. intros k s x y K. assert (k = 0 \/ k = 1 \/ k = 2 \/ k = 3 \/ k = 4 \/ k = 5) as H by lia.
      destruct H as [->|[->|[->|[->|[->| ->]]]]]; unfold phi; zconst; cbv iota; lia. }
    split.
    + intros (_ & H'). split; [apply PL|]. intros j A. rewrite tf_comp, cellmap_comp by auto.
      pose proof (comp_spec d f nf o Hf Hn Ho j A) as C. destruct (comp d (expand_face_transform d f nf o) j) as (i, k).
      cbn [fst snd]. apply CC; [tauto|]. apply H'. tauto.
    + intros (_ & H'). split; [auto|]. intros i A.
      pose proof (comp_spec d nf f o Hn Hf Ho i A) as C. destruct (comp d (expand_face_transform d nf f o) i) as (j, k).
      destruct C as (Aj & K & _ & _ & _ & Ci). specialize (H' j Aj). rewrite tf_comp, cellmap_comp, Ci in H' by auto.
      cbn [fst snd] in H'. apply CC in H'; [auto|]. unfold kinv. destruct (k =? 3) eqn:?; [lia|]. destruct (k =? 4) eqn:?; lia.
Qed.

(** containment between quadrants is preserved *)
Theorem C11_containment : forall d f nf o q r,
  0 <= f < faces d -> 0 <= nf < faces d -> 0 <= o < half d ->
  beyond d f q -> beyond d f r ->
  let T := fun q => transform_face d q (expand_face_transform d f nf o) in
  ((forall p, inqv d q p -> inqv d r p) <-> (forall p, inqv d (T q) p -> inqv d (T r) p)).
Proof.
  intros d f nf o q r Hf Hn Ho Bq Br. cbv zeta.
  destruct (C11_isometry d f nf o Hf Hn Ho) as (P & P' & A & B & _ & C).
  assert (PL : forall q p, inqv d q p -> planarv d p).
  { intros t [[a b] c]. unfold inqv, inq, planarv, planar. destruct d; tauto. }
  split; intros H p I.
  - destruct (B p (PL _ _ I)) as (B1 & B2). rewrite <- B2 in I |- *.
    apply (proj1 (C r (P' p) (or_intror Br) B1)). apply H.
    exact (proj2 (C q (P' p) (or_intror Bq) B1) I).
  - pose proof (PL _ _ I) as Pl. apply (proj2 (C r p (or_intror Br) Pl)). apply H.
    exact (proj1 (C q p (or_intror Bq) Pl) I).
Qed.

Example C11_ex : let q := mkq (2 ^ 30) (3 * 2 ^ 27) (5 * 2 ^ 27) 3 in
  beyond D3 1 q /\
  transform_face D3 q (expand_face_transform D3 1 4 2) = mkq (5 * 2 ^ 27) (4 * 2 ^ 27) 0 3.
Proof.
  split; [|vm_compute; reflexivity]. split; [|cbn; lia].
  split; [cbn; lia|]. split; [exists 8; reflexivity|]. split; [exists 3; reflexivity|exists 5; reflexivity].
Qed.

Print Assumptions C11_face_transform.
Print Assumptions C11_isometry.
Print Assumptions C11_containment.

(** ** C12 *)
(** The domain is finite (all faces, orientations, corners, edges), so it is
    checked completely by evaluation. *)
Definition on_faceb (c f : Z) : bool := (c / 2 ^ (f / 2)) mod 2 =? f mod 2.
Definition vec_eqb (v w : vec) : bool :=
  let '(a, b, c) := v in let '(a', b', c') := w in (a =? a') && (b =? b') && (c =? c').
Definition chk_corner (d : dim) (f nf o c : Z) : bool :=
  negb (on_faceb c f) ||
  let c' := face_neighbor_corner d c f nf o in
  (0 <=? c') && (c' <? 2 ^ nd d) && on_faceb c' nf && (face_neighbor_corner d c' nf f o =? c) &&
  vec_eqb (coordinates_transform_face d (cornerv d c) (expand_face_transform d f nf o)) (cornerv d c').
Definition chk_edge (f nf o e : Z) : bool :=
  let c0 := edge_corners e 0 in let c1 := edge_corners e 1 in
  negb (on_faceb c0 f && on_faceb c1 f) ||
  let e' := face_neighbor_edge e f nf o in
  let n0 := face_neighbor_corner D3 c0 f nf o in let n1 := face_neighbor_corner D3 c1 f nf o in
  (0 <=? e') && (e' <? 12) && (face_neighbor_edge e' nf f o =? e) &&
  (((edge_corners e' 0 =? n0) && (edge_corners e' 1 =? n1)) ||
   ((edge_corners e' 0 =? n1) && (edge_corners e' 1 =? n0))).

Definition zall (n : Z) (P : Z -> bool) : bool := forallb P (zrange (Z.to_nat n)).
Lemma zall_spec n P x : zall n P = true -> 0 <= x < n -> P x = true.
Proof.
  intros H Hx. unfold zall in H. rewrite forallb_forall in H. apply H. apply zrange_in. lia.
Qed.

(** The corner map of a face connection: corners on face f go to corners on
    face nf, the reverse connection inverts it (hence it is a bijection), and it
    is where the coordinate transformation sends the corner point. *)
Theorem C12_face_neighbor_corner : forall d f nf o c,
  0 <= f < faces d -> 0 <= nf < faces d -> 0 <= o < half d -> 0 <= c < 2 ^ nd d ->
  corner_on_face d c f ->
  let c' := face_neighbor_corner d c f nf o in
  0 <= c' < 2 ^ nd d /\ corner_on_face d c' nf /\
  face_neighbor_corner d c' nf f o = c /\
  coordinates_transform_face d (cornerv d c) (expand_face_transform d f nf o) = cornerv d c'.
Proof.
  intros d f nf o c Hf Hn Ho Hc On c'.
  assert (A : zall (faces d) (fun f => zall (faces d) (fun nf => zall (half d) (fun o =>
    zall (2 ^ nd d) (fun c => chk_corner d f nf o c)))) = true) by (destruct d; vm_compute; reflexivity).
  pose proof (zall_spec _ _ f A Hf) as A1. cbv beta in A1.
  pose proof (zall_spec _ _ nf A1 Hn) as A2. cbv beta in A2.
  pose proof (zall_spec _ _ o A2 Ho) as A3. cbv beta in A3.
  pose proof (zall_spec _ _ c A3 Hc) as A4. clear A A1 A2 A3.
  unfold chk_corner in A4. unfold corner_on_face in *.
  assert (F : on_faceb c f = true) by (unfold on_faceb; lia). rewrite F in A4. cbn [negb orb] in A4.
  fold c' in A4. rewrite !andb_true_iff in A4. destruct A4 as ((((A1 & A2) & A3) & A4) & A5).
  split; [lia|]. split; [unfold on_faceb in A3; lia|]. split; [lia|].
  destruct (coordinates_transform_face d (cornerv d c) (expand_face_transform d f nf o)) as [[x y] z].
  destruct (cornerv d c') as [[x' y'] z']. cbn in A5. f_equal; [f_equal|]; lia.
Qed.

(** 3D: edges travel with their two corners, and back *)
Theorem C12_face_neighbor_edge : forall f nf o e,
  0 <= f < 6 -> 0 <= nf < 6 -> 0 <= o < 4 -> 0 <= e < 12 ->
  let c0 := edge_corners e 0 in let c1 := edge_corners e 1 in
  corner_on_face D3 c0 f -> corner_on_face D3 c1 f ->
  let e' := face_neighbor_edge e f nf o in
  let n0 := face_neighbor_corner D3 c0 f nf o in let n1 := face_neighbor_corner D3 c1 f nf o in
  0 <= e' < 12 /\ face_neighbor_edge e' nf f o = e /\
  ((edge_corners e' 0 = n0 /\ edge_corners e' 1 = n1) \/ (edge_corners e' 0 = n1 /\ edge_corners e' 1 = n0)).
Proof.
  intros f nf o e Hf Hn Ho He c0 c1 O0 O1 e' n0 n1.
  assert (A : zall 6 (fun f => zall 6 (fun nf => zall 4 (fun o =>
    zall 12 (fun e => chk_edge f nf o e)))) = true) by (vm_compute; reflexivity).
  pose proof (zall_spec _ _ f A Hf) as A1. cbv beta in A1.
  pose proof (zall_spec _ _ nf A1 Hn) as A2. cbv beta in A2.
  pose proof (zall_spec _ _ o A2 Ho) as A3. cbv beta in A3.
  pose proof (zall_spec _ _ e A3 He) as A4. clear A A1 A2 A3.
  unfold chk_edge in A4. unfold corner_on_face in *. cbv zeta in A4. fold c0 c1 in A4.
  assert (F0 : on_faceb c0 f = true) by (unfold on_faceb; lia).
  assert (F1 : on_faceb c1 f = true) by (unfold on_faceb; lia).
  rewrite F0, F1 in A4. cbn [negb andb orb] in A4. fold e' n0 n1 in A4.
  rewrite !andb_true_iff, orb_true_iff, !andb_true_iff in A4.
  destruct A4 as (((A1 & A2) & A3) & A4). clear - A1 A2 A3 A4.
  clearbody n0 n1. set (a := edge_corners e' 0) in *. set (b := edge_corners e' 1) in *. clearbody a b.
  split; [lia|]. split; [lia|]. destruct A4 as [(?&?)|(?&?)]; [left|right]; lia.
Qed.

Example C12_ex :
  corner_on_face D3 5 1 /\ face_neighbor_corner D3 5 1 4 2 = 3 /\
  corner_on_face D3 7 1 /\ face_neighbor_edge 7 1 4 2 = 5.
Proof. vm_compute. repeat split; reflexivity. Qed.

Print Assumptions C12_face_neighbor_corner.
Print Assumptions C12_face_neighbor_edge.
