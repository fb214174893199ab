(** * Positions in the forest, markers, and the owner search *)

From Coq Require Import ZArith List Bool Lia Arith ZifyBool Sorting.Sorted.
From Verif Require Import Quad Spec Morton ZBits Interval QuadLemmas CompareLemmas DescLemmas.
From Verif Require Import Search Adapt ListLemmas Partition PartLemmas PartTrees PartRecv PartFinal Comm CommLemmas.
Import ListNotations.
Open Scope Z_scope.

(** number of curve positions of one tree *)
Definition TREE (d : dim) : Z := 2 ^ (nd d * 30).
(** position of the first lattice point of q in tree t, among all trees *)
Definition tpos (d : dim) (t : Z) (q : quad) : Z := t * TREE d + qpos d q.
Definition tend (d : dim) (t : Z) (q : quad) : Z := t * TREE d + qend d q.
Definition mpos (d : dim) (m : marker) : Z := tpos d (g_tree m) (g_quad m).
(** the coordinates are those of a lattice point of the root *)
Definition qin (d : dim) (q : quad) : Prop := inroot d (qx q) (qy q) (qz q).

Lemma tree_pos d : 0 < TREE d.
Proof. apply Z.pow_pos_nonneg; [lia|]. destruct d; cbn; lia. Qed.

Lemma qpos_range d q : 0 <= qpos d q < TREE d.
Proof. apply ppos_range. Qed.

Lemma wf_qin d q : wf d q -> qin d q.
Proof.
  intros W. destruct (wf_coord_range d q W) as (A & B & C). unfold qin, inroot. split; [exact A|]. split; [exact B|].
  destruct d; [|exact C]. destruct W as (_ & _ & _ & H). exact H.
Qed.

Lemma qin_quad32 d q : qin d q -> quad32 d q.
Proof.
  intros (A & B & C). unfold quad32, in32. split; [lia|]. split; [lia|]. split; [destruct d; lia|].
  intros ->. exact C.
Qed.
Lemma qin_xpos d q : qin d q -> xpos d q = qpos d q.
Proof.
  intros (A & B & C). unfold xpos, qpos, ppos. rewrite !u32_small by (destruct d; lia).
  change 32%nat with (2 + 30)%nat. apply mort_ext; change (Z.of_nat 30) with 30; destruct d; lia.
Qed.
Lemma compare_qin d q r : qin d q -> qin d r ->
  (compare d q r < 0 <-> qpos d q < qpos d r \/ (qpos d q = qpos d r /\ ql q < ql r)) /\
  (compare d q r > 0 <-> qpos d q > qpos d r \/ (qpos d q = qpos d r /\ ql q > ql r)).
Proof.
  intros H1 H2. destruct (compare_spec d q r) as (A & B & C); auto using qin_quad32.
  rewrite !qin_xpos in * by auto. auto.
Qed.
Lemma coords_differ_spec d q r : qin d q -> qin d r -> coords_differ d q r = negb (qpos d q =? qpos d r).
Proof.
  intros H1 H2. unfold coords_differ. destruct (qpos d q =? qpos d r) eqn:E.
  - apply Z.eqb_eq in E. destruct (ppos_inj d _ _ _ _ _ _ H1 H2 E) as (A & B & C). rewrite A, B, C, !Z.eqb_refl. destruct d; reflexivity.
  - destruct (qx q =? qx r) eqn:E1, (qy q =? qy r) eqn:E2; cbn [negb orb]; try reflexivity.
    assert (ZZ : qz q = qz r -> False).
    { intros E3. apply Z.eqb_neq in E. apply E. unfold qpos. replace (qx q) with (qx r) by lia. replace (qy q) with (qy r) by lia.
      rewrite E3. reflexivity. }
    destruct d; cbn [is3 andb].
    + exfalso. apply ZZ. destruct H1 as (_ & _ & H1). destruct H2 as (_ & _ & H2). congruence.
    + destruct (qz q =? qz r) eqn:E3; [exfalso; apply ZZ; lia|reflexivity].
Qed.

Lemma lex_lt M a b x y : 0 < M -> 0 <= x < M -> 0 <= y < M ->
  (a * M + x < b * M + y <-> a < b \/ (a = b /\ x < y)).
Proof.
  intros HM Hx Hy. split.
  - intros H. destruct (Z.lt_trichotomy a b) as [L|[->|G]]; [left; exact L|right; lia|].
    exfalso. assert ((b + 1) * M <= a * M) by (apply Z.mul_le_mono_nonneg_r; lia). lia.
  - intros [L|[-> L]]; [|lia]. assert ((a + 1) * M <= b * M) by (apply Z.mul_le_mono_nonneg_r; lia). lia.
Qed.
Lemma tpos_lt d t q t' q' : tpos d t q < tpos d t' q' <-> t < t' \/ (t = t' /\ qpos d q < qpos d q').
Proof. apply lex_lt; [apply tree_pos|apply qpos_range|apply qpos_range]. Qed.

Lemma begins_before_spec d t q m : qin d q -> qin d (g_quad m) -> begins_before d t q m = (tpos d t q <? mpos d m).
Proof.
  intros H1 H2. unfold begins_before, mpos. destruct (compare_qin d q (g_quad m) H1 H2) as [C _].
  rewrite coords_differ_spec by assumption. pose proof (tpos_lt d t q (g_tree m) (g_quad m)) as L.
  set (c := compare d q (g_quad m)) in *. set (x := qpos d q) in *. set (y := qpos d (g_quad m)) in *.
  set (X := tpos d t q) in *. set (Y := tpos d (g_tree m) (g_quad m)) in *.
  destruct (X <? Y) eqn:E.
  - assert (H : X < Y) by lia. apply L in H. destruct H as [H|[H H']]; [lia|]. assert (c < 0) by (apply C; lia). lia.
  - destruct (Z.eq_dec t (g_tree m)) as [->|N]; [|lia]. assert (~ (c < 0 /\ x <> y)); [|lia].
    intros [N1 N2]. apply C in N1. lia.
Qed.

Lemma begins_after_spec d t q m : qin d q -> qin d (g_quad m) -> begins_after d t q m = (mpos d m <=? tpos d t q).
Proof.
  intros H1 H2. unfold begins_after, mpos. destruct (compare_qin d (g_quad m) q H2 H1) as [_ C].
  rewrite coords_differ_spec by assumption. pose proof (tpos_lt d t q (g_tree m) (g_quad m)) as L.
  set (c := compare d (g_quad m) q) in *. set (x := qpos d q) in *. set (y := qpos d (g_quad m)) in *.
  set (X := tpos d t q) in *. set (Y := tpos d (g_tree m) (g_quad m)) in *.
  destruct (Y <=? X) eqn:E.
  - destruct (Z.lt_trichotomy t (g_tree m)) as [N|[N|N]]; [exfalso|subst t|lia].
    + assert (X < Y) by (apply L; lia). lia.
    + assert (y <= x) by (destruct (Z.lt_ge_cases x y) as [A|A]; [assert (X < Y) by (apply L; lia); lia|lia]).
      assert (c <= 0 \/ x = y); [|lia]. destruct (Z.eq_dec x y); [right; assumption|left].
      destruct (Z.lt_ge_cases 0 c) as [A|A]; [|lia]. assert (c > 0) by lia. apply C in H0. lia.
  - assert (H : X < Y) by lia. apply L in H. destruct H as [H|[H H']]; [lia|]. assert (c > 0) by (apply C; lia). lia.
Qed.

Section Search.
  Variables (d : dim) (gfp : list marker) (P : Z).
  Hypothesis HP : 1 <= P.
  Hypothesis Hlen : zlen gfp = P + 1.
  Hypothesis Hin : Forall (fun m => qin d (g_quad m)) gfp.
  (** position of marker p *)
  Definition mp (p : Z) : Z := match zget gfp p with Some m => mpos d m | None => 0 end.
  Hypothesis Hmono : forall p, 0 <= p < P -> mp p <= mp (p + 1).

  Lemma mp_get p : 0 <= p <= P -> exists m, zget gfp p = Some m /\ qin d (g_quad m) /\ mp p = mpos d m.
  Proof.
    intros Hp. unfold mp. rewrite zget_nth by lia. destruct (nth_error gfp (Z.to_nat p)) as [m|] eqn:E.
    - exists m. split; [reflexivity|]. split; [|reflexivity]. rewrite Forall_forall in Hin. apply Hin. eapply nth_error_In. exact E.
    - apply nth_error_None in E. unfold zlen in Hlen. lia.
  Qed.
  Lemma mp_mono a b : 0 <= a <= b -> b <= P -> mp a <= mp b.
  Proof.
    intros Ha Hb. remember (Z.to_nat (b - a)) as n eqn:En. revert b Ha Hb En. induction n as [|n IH]; intros b Ha Hb En.
    - replace b with a by lia. lia.
    - pose proof (IH (b - 1) ltac:(lia) ltac:(lia) ltac:(lia)) as I. pose proof (Hmono (b - 1) ltac:(lia)) as M.
      replace (b - 1 + 1) with b in M by lia. lia.
  Qed.

  Lemma is_owner_spec t q p : qin d q -> 0 <= p < P ->
    is_owner d gfp t q p = Some ((mp p <=? tpos d t q) && (tpos d t q <? mp (p + 1))).
  Proof.
    intros Hq Hp. destruct (mp_get p ltac:(lia)) as (m & E1 & I1 & M1). destruct (mp_get (p + 1) ltac:(lia)) as (m' & E2 & I2 & M2).
    unfold is_owner. rewrite E1, E2, begins_before_spec, begins_after_spec, M1, M2 by assumption.
    destruct (tpos d t q <? mpos d m) eqn:C1; [f_equal; lia|]. destruct (mpos d m' <=? tpos d t q) eqn:C2; f_equal; lia.
  Qed.

  Lemma find_owner_loop_spec t q : qin d q -> forall fuel low high guess,
    0 <= low -> low <= guess <= high -> high < P -> mp low <= tpos d t q < mp (high + 1) -> (Z.to_nat (high - low) < fuel)%nat ->
    exists p, find_owner_loop d gfp t q fuel low high guess = Some p /\ low <= p <= high /\ mp p <= tpos d t q < mp (p + 1).
  Proof.
    intros Hq. induction fuel as [|f IH]; intros low high guess H0 Hg Hh Hk Hf; [lia|]. cbn [find_owner_loop].
    replace ((low <=? guess) && (guess <=? high)) with true by lia.
    destruct (mp_get guess ltac:(lia)) as (m & E1 & I1 & M1). destruct (mp_get (guess + 1) ltac:(lia)) as (m' & E2 & I2 & M2).
    rewrite E1, E2, begins_before_spec, begins_after_spec by assumption. rewrite <- M1, <- M2.
    destruct (tpos d t q <? mp guess) eqn:C1.
    - assert (low < guess) by (destruct (Z.eq_dec low guess) as [->|]; lia).
      assert (Q : low <= Z.quot (low + (guess - 1) + 1) 2 <= guess - 1) by (rewrite Z.quot_div_nonneg by lia; split; [apply Z.div_le_lower_bound; lia|apply Z.lt_succ_r, Z.div_lt_upper_bound; lia]).
      destruct (IH low (guess - 1) (Z.quot (low + (guess - 1) + 1) 2)) as (p & E & R1 & R2); try lia.
      { replace (guess - 1 + 1) with guess by lia. lia. }
      exists p. split; [exact E|]. split; [lia|exact R2].
    - destruct (mp (guess + 1) <=? tpos d t q) eqn:C2.
      + assert (guess < high) by (destruct (Z.eq_dec high guess) as [->|]; lia).
        assert (Q : guess + 1 <= Z.quot (guess + 1 + high) 2 <= high) by (rewrite Z.quot_div_nonneg by lia; split; [apply Z.div_le_lower_bound; lia|apply Z.lt_succ_r, Z.div_lt_upper_bound; lia]).
        destruct (IH (guess + 1) high (Z.quot (guess + 1 + high) 2)) as (p & E & R1 & R2); try lia.
        exists p. split; [exact E|]. split; [lia|exact R2].
      + exists guess. split; [reflexivity|]. lia.
  Qed.

  Lemma owner_unique k a b : 0 <= a < P -> 0 <= b < P -> mp a <= k < mp (a + 1) -> mp b <= k < mp (b + 1) -> a = b.
  Proof.
    intros Ha Hb K1 K2. destruct (Z.lt_trichotomy a b) as [L|[E|G]]; [exfalso|exact E|exfalso].
    - pose proof (mp_mono (a + 1) b ltac:(lia) ltac:(lia)). lia.
    - pose proof (mp_mono (b + 1) a ltac:(lia) ltac:(lia)). lia.
  Qed.

  Lemma find_owner_spec t q guess : qin d q -> 0 <= guess < P -> mp 0 <= tpos d t q < mp P ->
    exists p, find_owner d gfp P t q guess = Some p /\ 0 <= p < P /\ mp p <= tpos d t q < mp (p + 1).
  Proof.
    intros Hq Hg Hk. unfold find_owner.
    destruct (find_owner_loop_spec t q Hq (S (Z.to_nat P)) 0 (P - 1) guess) as (p & E & R1 & R2); try lia.
    { replace (P - 1 + 1) with P by lia. exact Hk. }
    exists p. split; [exact E|]. split; [lia|exact R2].
  Qed.

  (** p4est_comm_is_contained *)
  Lemma is_contained_spec t q p : wf d q -> 0 <= p < P ->
    (forall m, zget gfp (p + 1) = Some m -> wf d (g_quad m) /\ ql (g_quad m) = 29) ->
    is_contained d gfp t q p = Some ((mp p <=? tpos d t q) && (tend d t q <=? mp (p + 1))).
  Proof.
    intros Wq Hp Hm. destruct (mp_get p ltac:(lia)) as (m & E1 & I1 & M1). destruct (mp_get (p + 1) ltac:(lia)) as (m' & E2 & I2 & M2).
    destruct (Hm m' E2) as [Wm Lm]. pose proof (wf_level d q Wq) as Lq.
    destruct (last_descendant_wf d q 29 Wq ltac:(lia)) as (Wl & Ll & _ & El).
    pose proof (wf_qin d q Wq) as Iq. pose proof (wf_qin d _ Wl) as Il.
    unfold is_contained. rewrite E1, E2, begins_before_spec, M1, M2 by assumption.
    destruct (tpos d t q <? mpos d m) eqn:C1; [f_equal; lia|]. change QMAXLEVEL with 29.
    destruct (compare_qin d (g_quad m') (last_descendant d q 29) I2 Il) as [_ C].
    assert (AL : qpos d (g_quad m') <= qpos d (last_descendant d q 29) <-> qpos d (g_quad m') < qend d q).
    { rewrite <- El. rewrite (wf_qend d _ Wl), (wf_qpos d _ Wl), (wf_qpos d _ Wm), Ll, Lm.
      assert (S0 : 0 < psize d 29) by (destruct d; reflexivity).
      set (s := psize d 29) in *. set (a := qidx d (g_quad m')). set (b := qidx d (last_descendant d q 29)). clearbody s a b. clear - S0. split.
      - intros H. apply Z.mul_le_mono_pos_r in H; [|exact S0]. apply Z.mul_lt_mono_pos_r; lia.
      - intros H. apply Z.mul_lt_mono_pos_r in H; [|exact S0]. apply Z.mul_le_mono_nonneg_r; lia. }
    rewrite Ll, Lm in C. destruct (wf_root_bounds d q Wq) as [B1 B2]. fold (TREE d) in B2. pose proof (tree_pos d) as TP.
    assert (B3 : 0 <= qend d q) by (unfold qend; pose proof (qsize_pos d q Wq); lia).
    pose proof (qpos_range d (g_quad m')) as R'. unfold mpos, tpos, tend in *.
    set (c := compare d (g_quad m') (last_descendant d q 29)) in *. set (x := qpos d (g_quad m')) in *.
    set (y := qpos d (last_descendant d q 29)) in *. set (e := qend d q) in *.
    assert (CC : (c <=? 0) = (x <? e)) by lia. rewrite CC. clearbody c x y e. clear - C1 B1 B2 B3 TP R'.
    destruct (Z.lt_trichotomy t (g_tree m')) as [L|[->|G]].
    - replace (t >? g_tree m') with false by lia. replace (t =? g_tree m') with false by lia. cbn [orb andb]. f_equal.
      assert ((t + 1) * TREE d <= g_tree m' * TREE d) by (apply Z.mul_le_mono_nonneg_r; lia). lia.
    - replace (g_tree m' >? g_tree m') with false by lia. rewrite Z.eqb_refl. cbn [orb andb]. destruct (x <? e) eqn:Q; f_equal; lia.
    - replace (t >? g_tree m') with true by lia. cbn [orb]. f_equal.
      assert ((g_tree m' + 1) * TREE d <= t * TREE d) by (apply Z.mul_le_mono_nonneg_r; lia). lia.
  Qed.
End Search.
