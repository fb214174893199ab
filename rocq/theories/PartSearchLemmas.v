(** * Lemmas for the partition search: the ranks of a quadrant and of its children *)

From Coq Require Import ZArith List Bool Lia Arith ZifyBool Sorting.Sorted.
From Verif Require Import Quad Spec Morton Interval QuadLemmas CompareLemmas DescLemmas.
From Verif Require Import Search SearchLemmas SearchLocal Adapt ListLemmas Partition PartLemmas Comm CommLemmas OwnerLemmas PartSearch.
Import ListNotations.
Open Scope Z_scope.

Section Ranks.
  Variables (d : dim) (T P : Z) (gfq : option (list Z)) (gfp : list marker).
  Hypothesis HT : 0 <= T.
  Hypothesis HP : 1 <= P.
  Hypothesis Hlen : zlen gfp = P + 1.
  Hypothesis Hq : Forall (fun m => wf d (g_quad m) /\ ql (g_quad m) = 29 /\ 0 <= g_tree m) gfp.
  Local Notation mp := (mp d gfp).
  Hypothesis Hmono : forall p, 0 <= p < P -> mp p <= mp (p + 1).
  Hypothesis H0 : mp 0 = 0.
  Hypothesis HN : mp P = T * TREE d.
  Hypothesis Hgfq : forall g p, gfq = Some g -> 0 <= p < P -> is_empty_gfq g p = Some (mp p =? mp (p + 1)).

  Definition own (p k : Z) : Prop := 0 <= p < P /\ mp p <= k < mp (p + 1).

  Lemma own_unique k a b : own a k -> own b k -> a = b.
  Proof. intros (A & B) (C & E). apply (owner_unique d gfp P Hmono k a b); auto. Qed.

  Lemma mono a b : 0 <= a <= b -> b <= P -> mp a <= mp b.
  Proof. apply (mp_mono d gfp P Hmono). Qed.

  Lemma get p : 0 <= p <= P -> exists m, zget gfp p = Some m /\ mp p = mpos d m /\
    wf d (g_quad m) /\ ql (g_quad m) = 29 /\ 0 <= g_tree m.
  Proof.
    intros Hp. unfold OwnerLemmas.mp. rewrite zget_nth by lia. destruct (nth_error gfp (Z.to_nat p)) as [m|] eqn:E.
    - exists m. split; [reflexivity|]. split; [reflexivity|]. rewrite Forall_forall in Hq. apply Hq. eapply nth_error_In. exact E.
    - apply nth_error_None in E. unfold zlen in Hlen. lia.
  Qed.

  (** both tests for an empty rank compare the positions of the markers *)
  Lemma empty_spec p : 0 <= p < P -> is_empty d gfq gfp p = Some (mp p =? mp (p + 1)).
  Proof.
    intros Hp. unfold is_empty. destruct gfq as [g|] eqn:E; [apply Hgfq; auto|].
    destruct (get p ltac:(lia)) as (m & E1 & M1 & W1 & L1 & _).
    destruct (get (p + 1) ltac:(lia)) as (m' & E2 & M2 & W2 & L2 & _).
    unfold is_empty_gfp. rewrite E1, E2, M1, M2. f_equal. unfold is_equal_piggy, mpos.
    pose proof (qpos_range d (g_quad m)) as R1. pose proof (qpos_range d (g_quad m')) as R2.
    destruct (g_tree m =? g_tree m') eqn:ET; cbn [andb].
    - replace (g_tree m') with (g_tree m) by lia.
      destruct (is_equal d (g_quad m) (g_quad m')) eqn:EQ.
      + assert (QE : qpos d (g_quad m) = qpos d (g_quad m')).
        { unfold is_equal in EQ. unfold qpos. replace (qx (g_quad m)) with (qx (g_quad m')) by lia.
          replace (qy (g_quad m)) with (qy (g_quad m')) by lia. f_equal.
          pose proof (wf_qin d _ W1) as (_ & _ & Z1). pose proof (wf_qin d _ W2) as (_ & _ & Z2).
          destruct d; cbn [is3 negb orb] in EQ; [congruence|lia]. }
        unfold tpos. rewrite QE, Z.eqb_refl. reflexivity.
      + symmetry. apply Z.eqb_neq. intros EP. unfold tpos in EP.
        assert (qpos d (g_quad m) = qpos d (g_quad m')) as QE by lia.
        pose proof (quad_eq d _ _ W1 W2 ltac:(congruence) QE) as QQ. rewrite QQ in EQ.
        unfold is_equal in EQ. rewrite !Z.eqb_refl in EQ. destruct d; discriminate.
    - symmetry. apply Z.eqb_neq. intros EP.
      pose proof (tpos_lt d (g_tree m) (g_quad m) (g_tree m') (g_quad m')) as A.
      pose proof (tpos_lt d (g_tree m') (g_quad m') (g_tree m) (g_quad m)) as B. lia.
  Qed.

  Lemma skip_spec : forall fuel p, 0 <= p < P -> (Z.to_nat (P - p) <= fuel)%nat -> mp p < mp P ->
    exists f, skip_empty d gfq gfp fuel p = Some f /\ p <= f < P /\ mp f = mp p /\ mp p < mp (f + 1).
  Proof.
    induction fuel as [|n IH]; intros p Hp Hf HS; [lia|]. cbn [skip_empty]. rewrite empty_spec by lia.
    destruct (mp p =? mp (p + 1)) eqn:E.
    - assert (p + 1 < P) by (destruct (Z.eq_dec (p + 1) P) as [X|]; [rewrite X in E; lia|lia]).
      destruct (IH (p + 1)) as (f & E1 & E2 & E3 & E4); [lia|lia|lia|].
      exists f. split; [exact E1|]. lia.
    - exists p. split; [reflexivity|]. pose proof (Hmono p Hp). lia.
  Qed.

  (** the first and the last rank of an interval of positions, from the first
      rank that starts at or after its beginning and its end *)
  Lemma first_proc_spec t q c c' (E' : Z) : wf d q -> 0 <= t -> 0 <= c <= c' -> c' <= P ->
    tpos d t q < E' -> E' <= (t + 1) * TREE d -> 
    (c = 0 -> tpos d t q = 0) -> (0 < c -> mp (c - 1) < tpos d t q \/ (mp (c - 1) <= tpos d t q /\ tpos d t q < mp c)) ->
    tpos d t q <= mp c -> (0 < c' -> mp (c' - 1) < E') -> E' <= mp c' ->
    exists f, first_proc d gfq gfp q c c' = Some f /\ f <= c' - 1 /\ own f (tpos d t q) /\ own (c' - 1) (E' - 1).
  Proof.
    intros Wq Ht Hc Hc' HE HE2 Hc0 Hb HS Hb' HS'. unfold first_proc.
    pose proof (qpos_range d q) as RQ. pose proof (tree_pos d) as TP.
    assert (S0 : 0 <= tpos d t q) by (unfold tpos; assert (0 <= t * TREE d) by (apply Z.mul_nonneg_nonneg; lia); lia).
    assert (C'0 : 0 < c') by (destruct (Z.eq_dec c' 0) as [X|]; [rewrite X in HS'; lia|lia]).
    specialize (Hb' C'0).
    assert (OWN' : own (c' - 1) (E' - 1)).
    { split; [lia|]. replace (c' - 1 + 1) with c' by lia. lia. }
    destruct (c <? c') eqn:L.
    - unfold is_clean_start. destruct (get c ltac:(lia)) as (m & Em & Mm & Wm & Lm & Tm). rewrite Em.
      assert (MC : mp c < E') by (pose proof (mono c (c' - 1) ltac:(lia) ltac:(lia)); lia).
      pose proof (qpos_range d (g_quad m)) as RM.
      assert (GT : g_tree m = t).
      { rewrite Mm in HS, MC. unfold mpos, tpos in *.
        destruct (Z.lt_trichotomy (g_tree m) t) as [A|[A|A]]; [exfalso|exact A|exfalso].
        - assert ((g_tree m + 1) * TREE d <= t * TREE d) by (apply Z.mul_le_mono_nonneg_r; lia). lia.
        - assert ((t + 1) * TREE d <= g_tree m * TREE d) by (apply Z.mul_le_mono_nonneg_r; lia). lia. }
      rewrite coords_differ_spec, negb_involutive by (apply wf_qin; assumption).
      assert (EQ : (qpos d (g_quad m) =? qpos d q) = (mp c =? tpos d t q)) by (rewrite Mm; unfold mpos, tpos; rewrite GT; lia).
      rewrite EQ. destruct (mp c =? tpos d t q) eqn:CL.
      + destruct (skip_spec (length gfp) c) as (f & E1 & E2 & E3 & E4); [lia|unfold zlen in Hlen; lia| |].
        { pose proof (mono c' P ltac:(lia) ltac:(lia)). lia. }
        exists f. split; [exact E1|]. split.
        * destruct (Z_le_gt_dec f (c' - 1)) as [A|A]; [exact A|exfalso].
          pose proof (mono c' f ltac:(lia) ltac:(lia)). lia.
        * split; [|exact OWN']. split; [lia|]. lia.
      + assert (c <> 0) by (intros X; specialize (Hc0 X); rewrite X in CL; lia).
        exists (c - 1). split; [reflexivity|]. split; [lia|]. split; [|exact OWN'].
        split; [lia|]. replace (c - 1 + 1) with c by lia. lia.
    - assert (c' = c) by lia. subst c'. exists (c - 1). split; [reflexivity|]. split; [lia|]. split; [|exact OWN'].
      split; [lia|]. replace (c - 1 + 1) with c by lia. lia.
  Qed.

  (** counting the markers below a position *)
  Lemma slice_nth a n k : (k < n)%nat -> 0 <= a -> nth_error (firstn n (skipn (Z.to_nat a) gfp)) k = zget gfp (a + Z.of_nat k).
  Proof.
    intros Hk Ha. rewrite nth_firstn by exact Hk. rewrite nth_skipn, zget_nth by lia. f_equal. lia.
  Qed.

  Lemma cut (a : Z) (n N : nat) (ty : marker -> nat) (B : nat -> Z) : 0 <= a -> a + Z.of_nat n <= P + 1 ->
    (forall p m, a <= p < a + Z.of_nat n -> zget gfp p = Some m -> (ty m < N)%nat) ->
    (forall p m i, a <= p < a + Z.of_nat n -> zget gfp p = Some m -> (i <= N)%nat -> ((ty m < i)%nat <-> mp p < B i)) ->
    forall i, (i <= N)%nat ->
    let c := a + Z.of_nat (nth i (array_split ty N (firstn n (skipn (Z.to_nat a) gfp))) 0%nat) in
    a <= c <= a + Z.of_nat n /\ (forall p, a <= p < a + Z.of_nat n -> (p < c <-> mp p < B i)).
  Proof.
    intros Ha Hn Hty HB i Hi c. unfold c. clear c. rewrite nth_array_split by exact Hi.
    set (M := firstn n (skipn (Z.to_nat a) gfp)).
    assert (LM : length M = n) by (unfold M; rewrite firstn_length, skipn_length; unfold zlen in Hlen; lia).
    assert (GM : forall k m, nth_error M k = Some m -> (k < n)%nat /\ zget gfp (a + Z.of_nat k) = Some m).
    { intros k m E. assert (K : (k < n)%nat) by (rewrite <- LM; apply nth_error_Some; congruence).
      split; [exact K|]. rewrite <- (slice_nth a n k K Ha). exact E. }
    assert (SRT : StronglySorted (fun x y => (ty x <= ty y)%nat) M).
    { assert (G : forall L : list marker, (forall j k x y, (j < k)%nat -> nth_error L j = Some x -> nth_error L k = Some y -> (ty x <= ty y)%nat) ->
         StronglySorted (fun x y => (ty x <= ty y)%nat) L).
      { clear. induction L as [|x L IH]; intros H; [constructor|]. constructor.
        - apply IH. intros j k x' y' Hjk E1 E2. apply (H (S j) (S k)); [lia|exact E1|exact E2].
        - apply Forall_forall. intros y Hy. apply In_nth_error in Hy. destruct Hy as (k & E). apply (H 0%nat (S k)); [lia|reflexivity|exact E]. }
      apply G. intros j k x y Hjk E1 E2. destruct (GM j x E1) as [K1 G1]. destruct (GM k y E2) as [K2 G2].
      destruct (le_lt_dec (ty x) (ty y)) as [A|A]; [exact A|exfalso].
      pose proof (Hty (a + Z.of_nat j) x ltac:(lia) G1) as TX.
      pose proof (HB (a + Z.of_nat k) y (S (ty y)) ltac:(lia) G2 ltac:(lia)) as [HB1 _].
      pose proof (HB (a + Z.of_nat j) x (S (ty y)) ltac:(lia) G1 ltac:(lia)) as [_ HB2].
      specialize (HB1 ltac:(lia)). pose proof (mono (a + Z.of_nat j) (a + Z.of_nat k) ltac:(lia) ltac:(lia)). lia. }
    split.
    - pose proof (countb_le (fun a0 => Nat.ltb (ty a0) i) M). lia.
    - intros p Hp. destruct (get p ltac:(lia)) as (m & E & _). rewrite <- (HB p m i Hp E Hi).
      assert (EM : nth_error M (Z.to_nat (p - a)) = Some m).
      { unfold M. rewrite slice_nth by lia. replace (a + Z.of_nat (Z.to_nat (p - a))) with p by lia. exact E. }
      pose proof (sorted_count ty i M _ m SRT EM). lia.
  Qed.

  (** a quadrant with two ranks is not of the finest level, and the markers of
      the ranks but the first are inside its children *)
  Lemma split_quadrant t q pf pl : wf d q -> 0 <= t -> own pf (tpos d t q) -> own pl (tend d t q - 1) -> pf < pl ->
    ql q < 29 /\ forall p m, pf < p <= pl -> zget gfp p = Some m ->
      tpos d t q < mp p < tend d t q /\ g_tree m = t /\ ql q < ql (g_quad m) /\ within d q (g_quad m).
  Proof.
    intros Wq Ht (P1 & K1) (P2 & K2) L. destruct (wf_root_bounds d q Wq) as [B1 B2]. fold (TREE d) in B2.
    pose proof (size_pos d q Wq) as SQ. pose proof (tree_pos d) as TP.
    assert (IN : forall p m, pf < p <= pl -> zget gfp p = Some m -> mp p = mpos d m /\ wf d (g_quad m) /\ ql (g_quad m) = 29 /\
      tpos d t q < mp p < tend d t q /\ g_tree m = t).
    { intros p m Hp E. destruct (get p ltac:(lia)) as (m' & E' & Mm & Wm & Lm & Tm). rewrite E in E'. injection E' as <-.
      split; [exact Mm|]. split; [exact Wm|]. split; [exact Lm|].
      pose proof (mono (pf + 1) p ltac:(lia) ltac:(lia)). pose proof (mono p pl ltac:(lia) ltac:(lia)).
      split; [lia|]. pose proof (qpos_range d (g_quad m)) as RM. unfold mpos, tpos, tend in *.
      destruct (Z.lt_trichotomy (g_tree m) t) as [A|[A|A]]; [exfalso|exact A|exfalso].
      - assert ((g_tree m + 1) * TREE d <= t * TREE d) by (apply Z.mul_le_mono_nonneg_r; lia). lia.
      - assert ((t + 1) * TREE d <= g_tree m * TREE d) by (apply Z.mul_le_mono_nonneg_r; lia). lia. }
    assert (WI : forall p m, pf < p <= pl -> zget gfp p = Some m -> ql q < 29 /\ within d q (g_quad m)).
    { intros p m Hp E. destruct (IN p m Hp E) as (Mm & Wm & Lm & R & GT). rewrite Mm in R. unfold mpos, tpos, tend in R. rewrite GT in R.
      pose proof (size_pos d _ Wm). pose proof (wf_level d q Wq) as LQ.
      destruct (nested d q (g_quad m) Wq Wm ltac:(lia) ltac:(lia)) as [A|A].
      - split; [|exact A]. destruct (Z.eq_dec (ql q) 29) as [X|]; [exfalso|lia].
        pose proof (within_eq d q (g_quad m) Wq Wm A ltac:(lia)) as EQ. rewrite <- EQ in R. lia.
      - exfalso. pose proof (within_level d _ _ Wm Wq A).
        pose proof (within_eq d (g_quad m) q Wm Wq A ltac:(lia)) as EQ. rewrite EQ in R. lia. }
    split.
    - destruct (get pl ltac:(lia)) as (m & E & _). apply (WI pl m ltac:(lia) E).
    - intros p m Hp E. destruct (IN p m Hp E) as (Mm & Wm & Lm & R & GT). destruct (WI p m Hp E) as [A B].
      split; [exact R|]. split; [exact GT|]. split; [lia|exact B].
  Qed.

  (** the offsets of the children of a quadrant with two ranks *)
  Lemma child_cut t q pf pl : wf d q -> 0 <= t -> own pf (tpos d t q) -> own pl (tend d t q - 1) -> pf < pl ->
    forall i, (i <= childrenn d)%nat ->
    let S_i := tpos d t q + Z.of_nat i * psize d (ql q + 1) in
    let c := Z.of_nat (nth i (array_split (type_childid d q) (childrenn d)
        (firstn (Z.to_nat (pl - pf)) (skipn (Z.to_nat (pf + 1)) gfp))) 0%nat) + pf + 1 in
    pf + 1 <= c <= pl + 1 /\ mp (c - 1) <= S_i /\ S_i <= mp c /\
    (mp (c - 1) < S_i \/ (i = 0%nat /\ tpos d t q < mp c)).
  Proof.
    intros Wq Ht O1 O2 L i Hi S_i c.
    destruct (split_quadrant t q pf pl Wq Ht O1 O2 L) as [LQ IN].
    assert (CC : Z.of_nat (childrenn d) = children d) by (destruct d; reflexivity).
    assert (TY : forall p m, pf + 1 <= p < pf + 1 + Z.of_nat (Z.to_nat (pl - pf)) -> zget gfp p = Some m ->
      (type_childid d q m < childrenn d)%nat /\
      tpos d t q + Z.of_nat (type_childid d q m) * psize d (ql q + 1) <= mp p < tpos d t q + (Z.of_nat (type_childid d q m) + 1) * psize d (ql q + 1)).
    { intros p m Hp E. destruct (IN p m ltac:(lia) E) as (R & GT & LM & WI).
      assert (0 <= p <= P) by (destruct O1, O2; lia). destruct (get p ltac:(lia)) as (m' & E' & Mm & Wm & Lm & _). rewrite E in E'. injection E' as <-.
      destruct (anc_child d q (g_quad m) Wq Wm WI LM) as [RA [A B]].
      unfold type_childid. split; [lia|]. rewrite Z2Nat.id by lia.
      set (j := ancestor_id d (g_quad m) (ql q + 1)) in *.
      destruct (child_wf d q j Wq LQ RA) as (Wc & Lc & _).
      unfold qend in B. rewrite child_pos in A, B by auto. rewrite (qsize_psize d (child d q j)), Lc in B.
      pose proof (size_pos d _ Wm) as SM. unfold qend in SM. rewrite Mm. unfold mpos, tpos. rewrite GT. lia. }
    pose proof (psize_pos d (ql q + 1) ltac:(pose proof (wf_level d q Wq); lia)) as PS.
    destruct (cut (pf + 1) (Z.to_nat (pl - pf)) (childrenn d) (type_childid d q)
      (fun i => tpos d t q + Z.of_nat i * psize d (ql q + 1))) with (i := i) as [C1 C2]; [destruct O1; lia|destruct O1, O2; lia| | |exact Hi|].
    { intros p m Hp E. apply (TY p m Hp E). }
    { intros p m j Hp E Hj. destruct (TY p m Hp E) as [_ R]. set (k := type_childid d q m) in *. split; intros X.
      - assert ((Z.of_nat k + 1) * psize d (ql q + 1) <= Z.of_nat j * psize d (ql q + 1)) by (apply Z.mul_le_mono_nonneg_r; lia). lia.
      - destruct (le_lt_dec j k) as [Y|Y]; [|exact Y]. exfalso.
        assert (Z.of_nat j * psize d (ql q + 1) <= Z.of_nat k * psize d (ql q + 1)) by (apply Z.mul_le_mono_nonneg_r; lia). lia. }
    cbv zeta in C1, C2. fold S_i in C2. replace (pf + 1 + _) with c in C1, C2 by (unfold c; lia). clearbody c.
    destruct O1 as (P1 & K1). destruct O2 as (P2 & K2).
    assert (SE : tend d t q = tpos d t q + children d * psize d (ql q + 1)).
    { unfold tend, tpos, qend. rewrite qsize_psize, (psize_child d (ql q)) by (pose proof (wf_level d q Wq); lia). lia. }
    assert (SI : tpos d t q <= S_i <= tend d t q).
    { unfold S_i. rewrite SE. assert (0 <= Z.of_nat i * psize d (ql q + 1)) by (apply Z.mul_nonneg_nonneg; lia).
      assert (Z.of_nat i * psize d (ql q + 1) <= children d * psize d (ql q + 1)) by (apply Z.mul_le_mono_nonneg_r; lia). lia. }
    split; [lia|].
    assert (HI : S_i <= mp c).
    { destruct (Z.eq_dec c (pl + 1)) as [X|X]; [rewrite X; lia|]. specialize (C2 c ltac:(lia)). lia. }
    destruct (Z.eq_dec c (pf + 1)) as [X|X].
    - replace (c - 1) with pf by lia. split; [lia|]. split; [exact HI|].
      destruct i as [|i]; [right; split; [reflexivity|]; rewrite X; lia|left]. unfold S_i.
      assert (0 < Z.of_nat (S i) * psize d (ql q + 1)) by (apply Z.mul_pos_pos; lia). lia.
    - pose proof (C2 (c - 1) ltac:(lia)). split; [lia|]. split; [exact HI|]. left. lia.
  Qed.

  (** the same for the trees *)
  Lemma tree_cut i : (i <= Z.to_nat T)%nat ->
    let c := Z.of_nat (nth i (array_split (fun m => Z.to_nat (g_tree m)) (Z.to_nat (T + 1)) gfp) 0%nat) in
    0 <= c <= P /\ (i = 0%nat -> c = 0) /\ (0 < c -> mp (c - 1) < Z.of_nat i * TREE d) /\ Z.of_nat i * TREE d <= mp c.
  Proof.
    intros Hi c. pose proof (tree_pos d) as TP.
    destruct (cut 0 (Z.to_nat (P + 1)) (Z.to_nat (T + 1)) (fun m => Z.to_nat (g_tree m)) (fun i => Z.of_nat i * TREE d)) with (i := i) as [C1 C2];
      [lia|lia| | |lia|].
    { intros p m Hp E. destruct (get p ltac:(lia)) as (m' & E' & Mm & _ & _ & Tm). rewrite E in E'. injection E' as <-.
      pose proof (mono p P ltac:(lia) ltac:(lia)). pose proof (qpos_range d (g_quad m)). rewrite Mm, HN in H. unfold mpos, tpos in H.
      destruct (Z_le_gt_dec (g_tree m) T) as [A|A]; [lia|exfalso].
      assert ((T + 1) * TREE d <= g_tree m * TREE d) by (apply Z.mul_le_mono_nonneg_r; lia). lia. }
    { intros p m j Hp E Hj. destruct (get p ltac:(lia)) as (m' & E' & Mm & _ & _ & Tm). rewrite E in E'. injection E' as <-.
      pose proof (qpos_range d (g_quad m)). rewrite Mm. unfold mpos, tpos. split; intros X.
      - assert ((g_tree m + 1) * TREE d <= Z.of_nat j * TREE d) by (apply Z.mul_le_mono_nonneg_r; lia). lia.
      - destruct (Z_lt_le_dec (g_tree m) (Z.of_nat j)) as [Y|Y]; [lia|exfalso].
        assert (Z.of_nat j * TREE d <= g_tree m * TREE d) by (apply Z.mul_le_mono_nonneg_r; lia). lia. }
    cbv zeta in C1, C2. cbn [Z.to_nat skipn] in C1, C2.
    rewrite firstn_all2 in C1, C2 by (unfold zlen in Hlen; lia). fold c in C1, C2. rewrite Z.add_0_l in C1. 
    assert (CP : c <= P).
    { destruct (Z_le_gt_dec c P) as [A|A]; [exact A|exfalso]. destruct (C2 P ltac:(lia)) as [X _]. specialize (X ltac:(lia)).
      rewrite HN in X. assert (Z.of_nat i * TREE d <= T * TREE d) by (apply Z.mul_le_mono_nonneg_r; lia). lia. }
    rewrite Z.add_0_l in C2.
    split; [lia|]. split; [|split].
    - intros ->. destruct (Z.eq_dec c 0) as [A|A]; [exact A|exfalso]. destruct (C2 0 ltac:(lia)) as [X _]. specialize (X ltac:(lia)). lia.
    - intros X. apply C2; lia.
    - destruct (C2 c ltac:(lia)) as [_ X]. lia.
  Qed.
End Ranks.
