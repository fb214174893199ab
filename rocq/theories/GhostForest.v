(** * The ghost layer of a distributed forest: markers, leaves, owners *)

From Coq Require Import ZArith List Bool Lia Arith ZifyBool Sorting.Sorted.
From Verif Require Import Quad Spec Morton ZBits Interval QuadLemmas CompareLemmas DescLemmas SearchLocal Neighbor RangeBoundLemmas PropertiesRangeBound PropertiesNeighbor Transform PropertiesTransform
  Conn ConnLemmas Search Adapt ListLemmas Partition PartLemmas PartTrees PartRecv PartFinal Comm CommLemmas OwnerLemmas PropertiesOwner
  Ghost GhostSpec GhostGeom GhostOut GhostState GhostTest GhostSteps GhostQuad GhostLoop.
Import ListNotations.
Open Scope Z_scope.

Notation qid := (fun q : quad => q).

(** the leaves with their numbers in the whole list *)
Fixpoint enum (i : Z) (l : list (Z * quad)) : list gq :=
  match l with [] => [] | x :: l' => mkgq (fst x) i (snd x) :: enum (i + 1) l' end.

Lemma enum_app l l' : forall i, enum i (l ++ l') = enum i l ++ enum (i + zlen l) l'.
Proof.
  induction l as [|x l IH]; intros i; cbn [app enum]; [rewrite Z.add_0_r; reflexivity|]. rewrite IH. unfold zlen. cbn [length]. do 3 f_equal. lia.
Qed.
Lemma enum_number t qs : forall i, enum i (map (pair t) qs) = number t i qs.
Proof. induction qs as [|q qs IH]; intros i; cbn [map enum number fst snd]; [reflexivity|]. rewrite IH. reflexivity. Qed.
Lemma enum_numbered trees n : forall t i, enum i (loc_from t n trees) = numbered trees n t i.
Proof.
  induction n as [|n IH]; intros t i; cbn [loc_from numbered]; [reflexivity|]. rewrite enum_app, enum_number, IH. unfold zlen. rewrite map_length. reflexivity.
Qed.
Lemma enum_key l : forall i, map gkey (enum i l) = l.
Proof. induction l as [|(t, q) l IH]; intros i; cbn [enum map fst snd]; [reflexivity|]. rewrite IH. reflexivity. Qed.
Lemma enum_in l : forall i g, In g (enum i l) -> In (g_t g, g_q g) l.
Proof. intros i g H. rewrite <- (enum_key l i). change (g_t g, g_q g) with (gkey g). apply in_map. exact H. Qed.

Lemma loc_range (T : Z) (r : rk quad) : rk_ok T r ->
  loc T r = loc_from (k_first _ r) (Z.to_nat (k_last _ r - k_first _ r + 1)) (k_trees _ r).
Proof.
  unfold loc. intros [(-> & -> & N)|(R1 & R2 & N)].
  - cbn [Z.to_nat Z.sub Z.add Z.opp]. apply loc_from_nil. auto.
  - set (f := k_first _ r) in *. set (l := k_last _ r) in *.
    replace (Z.to_nat T) with (Z.to_nat f + (Z.to_nat (l - f + 1) + Z.to_nat (T - l - 1)))%nat by lia.
    assert (NIL : forall t, ~ f <= t <= l -> k_trees _ r t = []).
    { intros t Ht. destruct (k_trees _ r t) eqn:E; [reflexivity|]. exfalso. apply Ht. apply N. rewrite E. discriminate. }
    rewrite loc_from_app, loc_from_nil by (intros; apply NIL; lia). rewrite loc_from_app. cbn [app].
    rewrite (loc_from_nil _ (Z.to_nat (T - l - 1))) by (intros; apply NIL; lia). rewrite app_nil_r. f_equal. lia.
Qed.
Lemma in_loc_from {A} (trees : Z -> list A) n : forall s t q, In (t, q) (loc_from s n trees) <-> s <= t < s + Z.of_nat n /\ In q (trees t).
Proof.
  induction n as [|n IH]; intros s t q; cbn [loc_from]; [split; [intros []|lia]|]. rewrite in_app_iff, IH, in_map_iff. split.
  - intros [(x & E & I)|(R & I)]; [injection E as <- <-; split; [lia|exact I]|split; [lia|exact I]].
  - intros (R & I). destruct (Z.eq_dec t s) as [->|N]; [left; eauto|right; split; [lia|exact I]].
Qed.

Section Forest.
  Variables (d : dim) (T : Z) (ranks : list (rk quad)).
  Hypothesis HF : forest_ok d qid T ranks.
  Hypothesis HC : covers d qid 0 (T * TREE d) (glob T ranks).
  Hypothesis HT : 0 <= T.
  (** no rank has one smallest quadrant only *)
  Definition no_single : Prop := forall r t q, In r ranks -> loc T r = [(t, q)] -> ql q < 29.

  Lemma in_glob p r x : zget ranks p = Some r -> In x (loc T r) -> In x (glob T ranks).
  Proof.
    intros E Hx. unfold glob. apply in_flat_map. exists r. split; [|exact Hx]. destruct (skipn_zget ranks p r E) as [Hp _]. rewrite zget_nth in E by lia. eapply nth_error_In. exact E.
  Qed.

  Lemma forest_markers : exists ms, global_partition qid T ranks = Some ms /\ zlen ms = zlen ranks + 1 /\
    (forall p m, zget ms p = Some m -> wf d (g_quad m) /\ ql (g_quad m) = 29) /\
    Forall (fun m => qin d (g_quad m)) ms /\
    (forall p, 0 <= p < zlen ranks -> mp d ms p <= mp d ms (p + 1)) /\
    mp d ms 0 = 0 /\ mp d ms (zlen ranks) = T * TREE d /\
    (no_single -> forall p, 0 <= p < zlen ranks -> mp d ms (p + 1) <> mp d ms p + psize d 29) /\
    forall p r x, zget ranks p = Some r -> In x (loc T r) -> mp d ms p <= tpos d (fst x) (snd x) /\ tend d (fst x) (snd x) <= mp d ms (p + 1).
  Proof.
    destruct (C26_global_partition d qid T ranks HF) as (ms & E & L & LAST & H26).
    destruct (markers d qid T ranks HF) as (ms' & E' & L' & NTH). rewrite E in E'. injection E' as <-.
    destruct (mp_hd d qid T ranks HF ms L NTH) as (M1 & M2 & M3).
    assert (BND : forall p r x, zget ranks p = Some r -> In x (loc T r) -> mp d ms p <= tpos d (fst x) (snd x) /\ tend d (fst x) (snd x) <= mp d ms (p + 1)).
    { intros p r x Er Hx. destruct (H26 p r Er) as (m & m' & em & G1 & G2 & _ & _ & _ & _ & B & _). unfold mp. rewrite G1, G2. apply (B x Hx). }
    exists ms. split; [exact E|]. split; [exact L|]. split; [|split; [exact M2|split; [exact M3|split; [|split; [|split; [|exact BND]]]]]].
    - intros p m G. assert (Hp : 0 <= p < zlen ms) by (eapply zget_range; exact G). rewrite NTH in G by lia. injection G as <-. apply (mark_hd_wf d qid T ranks HF).
    - rewrite M1 by (unfold zlen; lia). change (Z.to_nat 0) with 0%nat. cbn [skipn]. destruct (glob T ranks) as [|x l] eqn:EG; cbn [covers mark_hd] in *.
      + rewrite mpos_sentinel. lia.
      + apply HC.
    - unfold mp. rewrite LAST. apply (mpos_sentinel d T).
    - intros NS p Hp EQ. destruct (zget ranks p) as [r|] eqn:Er.
      2:{ rewrite zget_nth in Er by lia. apply nth_error_None in Er. unfold zlen in Hp. lia. }
      pose proof (psize_pos d 29 ltac:(lia)) as U. pose proof (mark_hd_step d qid T ranks HF p r Er) as (_ & S2 & _).
      destruct (loc T r) as [|x l] eqn:EL.
      + rewrite !M1 in EQ by lia. rewrite S2 in EQ by reflexivity. lia.
      + destruct (H26 p r Er) as (m & m' & em & G1 & G2 & _ & _ & _ & _ & _ & HD & _). specialize (HD x l EL).
        assert (MPx : mp d ms p = tpos d (fst x) (snd x)) by (unfold mp; rewrite G1; exact HD).
        destruct (BND p r x Er ltac:(rewrite EL; left; reflexivity)) as (_ & B2).
        assert (Wx : wf d (snd x)) by (apply HF; apply (in_glob p r x Er); rewrite EL; left; reflexivity).
        pose proof (wf_level d _ Wx) as Lx.
        assert (SZ : qsize d (snd x) <= psize d 29) by (unfold tend, qend, tpos in *; lia).
        assert (L29 : ql (snd x) = 29).
        { destruct (Z.eq_dec (ql (snd x)) 29) as [|N]; [assumption|]. exfalso. rewrite qsize_psize in SZ. rewrite (psize_split d (ql (snd x)) 29) in SZ by lia.
          assert (2 <= 2 ^ (nd d * (29 - ql (snd x)))). { change 2 with (2 ^ 1) at 1. apply Z.pow_le_mono_r; [lia|]. pose proof (nd_pos d). nia. }
          assert (2 * psize d 29 <= 2 ^ (nd d * (29 - ql (snd x))) * psize d 29) by (apply Z.mul_le_mono_nonneg_r; lia). lia. }
        destruct l as [|y l].
        * destruct x as (t & q). cbn [fst snd] in *. pose proof (NS r t q) as X. assert (ql q < 29); [|lia]. apply X; [|exact EL].
          rewrite zget_nth in Er by lia. eapply nth_error_In. exact Er.
        * destruct (BND p r y Er ltac:(rewrite EL; right; left; reflexivity)) as (_ & B4).
          assert (Wy : wf d (snd y)) by (apply HF; apply (in_glob p r y Er); rewrite EL; right; left; reflexivity).
          pose proof (skip_sorted d qid T ranks HF (Z.to_nat p)) as SS. destruct (skipn_zget ranks p r Er) as (_ & ES). rewrite ES in SS. unfold glob in SS. cbn [flat_map] in SS. rewrite EL in SS.
          cbn [app] in SS. apply StronglySorted_inv in SS. destruct SS as (_ & FA). apply Forall_inv in FA. cbn beta in FA.
          pose proof (size_pos d _ Wy) as SY. pose proof (unit_end d _ L29) as UE. unfold tend, tpos in *. lia.
  Qed.

  Lemma loc_nodup p r : zget ranks p = Some r -> NoDup (loc T r).
  Proof.
    intros Er. pose proof (skip_sorted d qid T ranks HF (Z.to_nat p)) as SS. destruct (skipn_zget ranks p r Er) as (_ & ES). rewrite ES in SS. unfold glob in SS. cbn [flat_map] in SS.
    assert (W : forall x, In x (loc T r) -> wf d (snd x)) by (intros x Hx; apply HF; apply (in_glob p r x Er Hx)).
    apply (nodup_app_l _ (flat_map (loc T) (skipn (Z.to_nat (p + 1)) ranks))).
    assert (W' : forall x, In x (loc T r ++ flat_map (loc T) (skipn (Z.to_nat (p + 1)) ranks)) -> wf d (snd x)).
    { intros x Hx. apply HF. apply (glob_in T ranks x (Z.to_nat p)). rewrite ES. exact Hx. }
    revert SS W'. generalize (loc T r ++ flat_map (loc T) (skipn (Z.to_nat (p + 1)) ranks)) as l. clear. induction l as [|x l IH]; intros SS W; [constructor|].
    apply StronglySorted_inv in SS. destruct SS as (SS & FA). constructor; [|apply IH; [exact SS|intros y Hy; apply W; right; exact Hy]].
    intros I. rewrite Forall_forall in FA. specialize (FA x I). cbn beta in FA. pose proof (size_pos d _ (W x (or_introl eq_refl))). unfold tend, tpos in FA. lia.
  Qed.

  (** a smallest quadrant belongs to the rank that has the leaf around it *)
  Lemma owns_leaf ms : global_partition qid T ranks = Some ms -> forall p t s, 0 <= t < T -> wf d s -> ql s = 29 ->
    (0 <= p < zlen ranks /\ owns d ms p t s <-> exists r q, zget ranks p = Some r /\ In (t, q) (loc T r) /\ forall x y z, inq d s x y z -> inq d q x y z).
  Proof.
    intros E p t s Ht Ws Ls. destruct forest_markers as (ms' & E' & L & MW & MI & MM & MB & ME & _ & BND). rewrite E in E'. injection E' as <-.
    assert (EC : forall l a b k, covers d qid a b l -> a <= k < b -> exists x, In x l /\ tpos d (fst x) (snd x) <= k < tend d (fst x) (snd x)).
    { clear. induction l as [|x l IH]; intros a b k HC Hk; cbn [covers] in HC; [lia|]. destruct HC as [H1 H2].
      destruct (Z.lt_ge_cases k (tend d (fst x) (snd x))) as [L|G].
      - exists x. split; [left; reflexivity|lia].
      - destruct (IH _ _ k H2 ltac:(lia)) as (y & Hy & Ky). exists y. split; [right; exact Hy|exact Ky]. }
    pose proof (unit_end d s Ls) as US. pose proof (psize_pos d 29 ltac:(lia)) as UP.
    split.
    - intros (Hp & OW). pose proof (qpos_range d s) as RS. pose proof (tree_pos d) as TP.
      assert (RG : 0 <= tpos d t s < T * TREE d).
      { unfold tpos. assert (0 <= t * TREE d) by (apply Z.mul_nonneg_nonneg; lia). assert ((t + 1) * TREE d <= T * TREE d) by (apply Z.mul_le_mono_nonneg_r; lia). lia. }
      destruct (EC _ _ _ (tpos d t s) HC RG) as ((t', q) & Hx & Kx). cbn [fst snd] in Kx.
      unfold glob in Hx. apply in_flat_map in Hx. destruct Hx as (r & Hr & Hx). apply In_nth_error in Hr. destruct Hr as (i & Hi).
      assert (Er : zget ranks (Z.of_nat i) = Some r) by (rewrite zget_nth by lia; rewrite Nat2Z.id; exact Hi).
      assert (Wq : wf d q) by (apply (proj1 (proj2 HF) (t', q)); apply (in_glob _ r _ Er Hx)).
      destruct (BND _ r _ Er Hx) as (B1 & B2). cbn [fst snd] in B1, B2. pose proof (qpos_range d q) as RQ. destruct (wf_root_bounds d _ Wq) as [_ RE]. fold (TREE d) in RE.
      assert (t' = t).
      { unfold tpos, tend in Kx. destruct (Z.lt_trichotomy t' t) as [G|[G|G]]; [|exact G|].
        - assert ((t' + 1) * TREE d <= t * TREE d) by (apply Z.mul_le_mono_nonneg_r; lia). lia.
        - assert ((t + 1) * TREE d <= t' * TREE d) by (apply Z.mul_le_mono_nonneg_r; lia). lia. }
      subst t'. destruct (skipn_zget ranks _ r Er) as [Hp' _].
      assert (Z.of_nat i = p) by (apply (owner_unique d ms (zlen ranks) MM (tpos d t s)); [exact Hp'|exact Hp|lia|exact OW]).
      exists r, q. split; [congruence|]. split; [exact Hx|]. apply within_points; [exact Wq|exact Ws|]. unfold tpos, tend in Kx. split; [lia|].
      destruct (unit_pos d q Wq) as (a & b & Ea & Eb & Hab). destruct (unit_pos d s Ws) as (a' & b' & Ea' & _). rewrite US. rewrite Ea', Eb in *. apply unit_gap; lia.
    - intros (r & q & Er & Hx & I). destruct (skipn_zget ranks p r Er) as [Hp _]. split; [exact Hp|].
      assert (Wq : wf d q) by (apply (proj1 (proj2 HF) (t, q)); apply (in_glob _ r _ Er Hx)). apply within_points in I; [|exact Wq|exact Ws]. destruct I as (I1 & I2).
      destruct (BND _ r _ Er Hx) as (B1 & B2). cbn [fst snd] in *. unfold owns. unfold tpos, tend in *. lia.
  Qed.
End Forest.

(** a smallest quadrant next to q in the tree that it belongs to *)
Lemma seen_wf d c t q v s nt s' : conn_is_valid d c = Some true -> 0 <= t < c_nt c -> 0 <= c_ne c -> 0 <= c_nc c -> wf d q ->
  beside d q v s -> seen_as d c t s nt s' -> wf d s' /\ ql s' = 29 /\ 0 <= nt < c_nt c.
Proof.
  intros V Ht PE PC Wq BS SN. pose proof (proj1 (beside_comp d q v s) BS) as (Es & Ls & HV & _).
  assert (Eq : ext d q) by (apply wf_ext in Wq; apply Wq).
  pose proof (proj1 (beside_iff d q v s Eq HV) BS) as (_ & _ & IB & _). pose proof (ext_nb d q v Eq) as En.
  assert (R1 : forall i, axis d i -> - 2 ^ 30 <= vget (cv s) i < 2 ^ 31).
  { intros i A. specialize (IB i A). destruct (nb_out d q v i Wq A) as (_ & RR & _). rewrite Ls in IB. change (side 29) with 2 in IB.
    apply ext_comp in En. destruct En as (L & Dv & _).
    pose proof (mul_up (ql (nb d q v)) _ (2 ^ 31) ltac:(lia) (Dv i A) ltac:(tauto) ltac:(apply RR)). clear - H RR IB. lia. }
  destruct SN as [(O & -> & ->)|[(f & ft & Hf & O & FF & ->)|[(E3 & e & ets & ne & fl & He & O & FE & I & ->)|(k & cts & nc & Hk & O & FC & I & ->)]]].
  - split; [apply (out_none d s Es); exact O|]. auto.
  - destruct (conn_faces d c t V Ht f Hf) as [X|(nt' & nf & o & E & Rt & Rf & Ro & _)]; [congruence|]. rewrite FF in E. injection E as -> ->.
    split; [apply tf_wf; auto; apply out_beyond; auto|]. split; [rewrite (tf_level d f nf o); exact Ls|exact Rt].
  - destruct (conn_edges d c t V Ht PE E3 e He) as (ets' & E & RE). rewrite FE in E. injection E as <-. destruct (RE _ _ _ I) as (Rt & Rn).
    split; [apply te_wf3; auto; apply (out_along d s e E3 He O)|]. split; [rewrite te_level; exact Ls|exact Rt].
  - destruct (conn_corners d c t V Ht PE PC k Hk) as (cts' & E & RC). rewrite FC in E. injection E as <-. destruct (RC _ _ I) as (Rt & Rn).
    destruct (tc_wf d s nc Es Ls Rn) as (W & L). auto.
Qed.
