(** * p4est_ghost_test_add adds the ranks that own a smallest quadrant at an object of the neighbor *)

From Coq Require Import ZArith List Bool Lia ZifyBool.
From Verif Require Import Quad Spec Morton Interval QuadLemmas CompareLemmas DescLemmas SuccLemmas SearchLocal RangeBound RangeBoundLemmas PropertiesRangeBound
  Conn Partition PartLemmas Comm OwnerLemmas Ghost GhostSpec GhostState.
Import ListNotations.
Open Scope Z_scope.

Lemma unit_pos d q : wf d q -> exists a b, qpos d q = a * psize d 29 /\ qend d q = b * psize d 29 /\ a < b.
Proof.
  intros W. pose proof (wf_level d q W) as L. unfold qend. rewrite qsize_psize, (wf_qpos d q W), (psize_split d (ql q) 29) by lia.
  set (k := 2 ^ (nd d * (29 - ql q))). assert (0 < k) by (apply Z.pow_pos_nonneg; destruct d; cbn [nd]; lia).
  exists (qidx d q * k), ((qidx d q + 1) * k). split; [ring|]. split; [ring|]. rewrite Z.mul_add_distr_r. lia.
Qed.
Lemma unit_end d q : ql q = 29 -> qend d q = qpos d q + psize d 29.
Proof. intros L. unfold qend. rewrite qsize_psize, L. reflexivity. Qed.
Lemma unit_gap U a b : 0 < U -> a * U < b * U -> a * U + U <= b * U.
Proof. intros HU H. apply Z.mul_lt_mono_pos_r in H; [|exact HU]. assert ((a + 1) * U <= b * U) by (apply Z.mul_le_mono_nonneg_r; lia). lia. Qed.
Lemma unit_gap2 U a b : 0 < U -> a * U < b * U -> b * U <> a * U + U -> a * U + U < b * U.
Proof. intros HU H N. pose proof (unit_gap U a b HU H). lia. Qed.

Lemma land_bit rb i : 0 <= i -> nz (Z.land rb (Z.shiftl 1 i)) = Z.testbit rb i.
Proof.
  intros Hi. rewrite Z.shiftl_1_l. unfold nz. destruct (Z.testbit rb i) eqn:E.
  - destruct (Z.land rb (2 ^ i) =? 0) eqn:Z0; [|reflexivity]. apply Z.eqb_eq in Z0.
    assert (B : Z.testbit (Z.land rb (2 ^ i)) i = false) by (rewrite Z0; apply Z.bits_0).
    rewrite Z.land_spec, E, Z.pow2_bits_true in B by lia. discriminate.
  - replace (Z.land rb (2 ^ i)) with 0; [reflexivity|]. symmetry. apply Z.bits_inj. intros j. rewrite Z.land_spec, Z.bits_0.
    destruct (Z.eq_dec i j) as [<-|N]; [rewrite E; reflexivity|]. rewrite Z.pow2_bits_false by lia. apply andb_false_r.
Qed.

Section Test.
  Variables (d : dim) (gfp : list marker) (P T rank t num : Z) (q : quad) (m0 : mir).
  Hypothesis HP : 1 <= P.
  Hypothesis Hlen : zlen gfp = P + 1.
  Hypothesis Hwf : forall p m, zget gfp p = Some m -> wf d (g_quad m) /\ ql (g_quad m) = 29.
  Hypothesis Hin : Forall (fun m => qin d (g_quad m)) gfp.
  Hypothesis Hmono : forall p, 0 <= p < P -> mp d gfp p <= mp d gfp (p + 1).
  Hypothesis Hbeg : mp d gfp 0 = 0.
  Hypothesis Hend : mp d gfp P = T * TREE d.
  Hypothesis Hone : forall p, 0 <= p < P -> mp d gfp (p + 1) <> mp d gfp p + psize d 29.
  Hypothesis Hrank : 0 <= rank < P.
  Hypothesis Hm : good d P t q m0.
  Let U := psize d 29.

  Lemma U_pos : 0 < U. Proof. apply psize_pos. lia. Qed.
  Lemma tree_unit : exists K, TREE d = K * U.
  Proof. exists (2 ^ (nd d * 29)). unfold TREE, U. rewrite psize_root by lia. reflexivity. Qed.
  Lemma tree_in nt s : 0 <= nt < T -> 0 <= tpos d nt s < T * TREE d.
  Proof.
    intros Ht. pose proof (qpos_range d s) as R. pose proof (tree_pos d) as TP. unfold tpos.
    assert (0 <= nt * TREE d) by (apply Z.mul_nonneg_nonneg; lia).
    assert ((nt + 1) * TREE d <= T * TREE d) by (apply Z.mul_le_mono_nonneg_r; lia). lia.
  Qed.
  Lemma owner nt s guess : wf d s -> 0 <= nt < T -> 0 <= guess < P ->
    exists p, find_owner d gfp P nt s guess = Some p /\ 0 <= p < P /\ owns d gfp p nt s.
  Proof.
    intros W Ht Hg. pose proof (tree_in nt s Ht). apply (find_owner_spec d gfp P HP Hlen Hin nt s guess); [apply wf_qin; exact W|exact Hg|]. lia.
  Qed.
  Lemma owner_eq nt s p p' : 0 <= p < P -> 0 <= p' < P -> owns d gfp p nt s -> owns d gfp p' nt s -> p = p'.
  Proof. intros Hp Hp' O O'. apply (owner_unique d gfp P Hmono (tpos d nt s)); auto. Qed.
  Lemma mono a b : 0 <= a <= b -> b <= P -> mp d gfp a <= mp d gfp b.
  Proof. apply (mp_mono d gfp P Hmono). Qed.
  (** a marker *)
  Lemma mark p : 0 <= p <= P -> exists m a, zget gfp p = Some m /\ wf d (g_quad m) /\ ql (g_quad m) = 29 /\ mp d gfp p = tpos d (g_tree m) (g_quad m) /\ mp d gfp p = a * U.
  Proof.
    intros Hp. destruct (mp_get d gfp P HP Hlen Hin p Hp) as (m & E & _ & M). destruct (Hwf p m E) as (W & L).
    destruct (unit_pos d _ W) as (a & b & Ea & _). destruct tree_unit as (K & EK).
    exists m, (g_tree m * K + a). split; [exact E|]. split; [exact W|]. split; [exact L|]. split; [exact M|].
    rewrite M. unfold mpos, tpos. rewrite Ea, EK. fold U. ring.
  Qed.

  Section At.
    Variables (nq : quad) (nt i : Z).
    Hypothesis Wn : wf d nq.
    Hypothesis Ln : ql nq = ql q.
    Hypothesis Hnt : 0 <= nt < T.
    Hypothesis Hi : 0 <= i < nbits d.

    Definition at_obj (p : Z) : Prop := 0 <= p < P /\ p <> rank /\
      exists s, wf d s /\ ql s = 29 /\ within d nq s /\ touches d nq s (bit_obj d i) /\ owns d gfp p nt s.

    Lemma some_cell : exists s, wf d s /\ ql s = 29 /\ within d nq s /\ touches d nq s (bit_obj d i).
    Proof. pose proof (wf_level d nq Wn). apply (touches_some d (bit_obj d i) (Z.to_nat (29 - ql nq)) nq Wn). lia. Qed.

    (** a position inside of the neighbor *)
    Lemma inside m : wf d (g_quad m) -> ql (g_quad m) = 29 -> tpos d nt nq <= tpos d (g_tree m) (g_quad m) < tend d nt nq ->
      g_tree m = nt /\ within d nq (g_quad m).
    Proof.
      intros W L R. pose proof (qpos_range d (g_quad m)) as B. destruct (wf_root_bounds d nq Wn) as (N0 & N1). fold (TREE d) in N1.
      pose proof (tree_pos d) as TP. unfold tpos, tend in R.
      assert (E : g_tree m = nt).
      { destruct (Z.lt_trichotomy (g_tree m) nt) as [X|[X|X]]; [|exact X|].
        - assert ((g_tree m + 1) * TREE d <= nt * TREE d) by (apply Z.mul_le_mono_nonneg_r; lia). lia.
        - assert ((nt + 1) * TREE d <= g_tree m * TREE d) by (apply Z.mul_le_mono_nonneg_r; lia). lia. }
      split; [exact E|]. rewrite E in R. split; [lia|]. rewrite unit_end by exact L.
      destruct (unit_pos d _ W) as (a & b & Ea & _). destruct (unit_pos d _ Wn) as (a' & b' & _ & Eb & _). rewrite Ea, Eb in *.
      apply unit_gap; [apply U_pos|]. lia.
    Qed.

    Variables n0 n1 : Z.
    Hypothesis Hn0 : 0 <= n0 < P.
    Hypothesis Hn1 : 0 <= n1 < P.
    Hypothesis O0 : owns d gfp n0 nt nq.
    Hypothesis O1 : mp d gfp n1 <= tend d nt nq - U < mp d gfp (n1 + 1).

    Lemma cell_range s p : wf d s -> ql s = 29 -> within d nq s -> 0 <= p < P -> owns d gfp p nt s -> n0 <= p <= n1.
    Proof.
      intros W L (A & B) Hp O. rewrite unit_end in B by exact L. fold U in B. pose proof U_pos. unfold owns, tpos, tend in *. split.
      - destruct (Z.le_gt_cases n0 p) as [|G]; [auto|]. pose proof (mono (p + 1) n0 ltac:(lia) ltac:(lia)). lia.
      - destruct (Z.le_gt_cases p n1) as [|G]; [auto|]. pose proof (mono (n1 + 1) p ltac:(lia) ltac:(lia)). lia.
    Qed.

    Lemma procs_spec n : forall proc, n0 <= proc -> proc + Z.of_nat n = n1 + 1 ->
      adds P t num q m0 (fun m => test_procs d gfp rank m q t (Z.shiftl 1 i) num n0 n1 n proc) (fun p => proc <= p /\ at_obj p).
    Proof.
      induction n as [|n IH]; intros proc H0 H1; cbn [test_procs].
      - apply adds_none. intros p (A & Hp & _ & s & W & L & I & _ & O). pose proof (cell_range s p W L I Hp O). lia.
      - pose proof (IH (proc + 1) ltac:(lia) ltac:(lia)) as NEXT. destruct (proc =? rank) eqn:ER.
        { eapply adds_ext; [|exact NEXT]. intros p. cbn beta. unfold at_obj. split; intros (A & B); (split; [|exact B]); lia. }
        assert (SKIP : (~ at_obj proc) -> adds P t num q m0 (fun m => test_procs d gfp rank m q t (Z.shiftl 1 i) num n0 n1 n (proc + 1)) (fun p => proc <= p /\ at_obj p)).
        { intros N. eapply adds_ext; [|exact NEXT]. intros p. cbn beta. split; intros (A & B); (split; [|exact B]); [lia|].
          destruct (Z.eq_dec p proc) as [->|]; [destruct (N B)|lia]. }
        destruct (mark proc ltac:(lia)) as (l & a & El & Wl & Ll & Ml & Ua). destruct (mark (proc + 1) ltac:(lia)) as (u & b & Eu & Wu & Lu & Mu & Ub).
        rewrite El, Eu. pose proof (Hmono proc ltac:(lia)) as MM. pose proof U_pos as UP.
        destruct (is_equal_piggy d l u) eqn:EQ.
        { apply SKIP. intros (_ & _ & s & _ & _ & _ & _ & O). unfold is_equal_piggy in EQ. apply andb_prop in EQ. destruct EQ as (EQ1 & EQ2).
          apply is_equal_eq in EQ2; auto. unfold owns in O. rewrite Ml, Mu in O. replace (g_tree u) with (g_tree l) in O by lia. rewrite EQ2 in O. lia. }
        assert (LT : mp d gfp proc < mp d gfp (proc + 1)).
        { destruct (Z.eq_dec (mp d gfp proc) (mp d gfp (proc + 1))) as [E|]; [|lia]. exfalso. rewrite Ml, Mu in E.
          pose proof (tpos_lt d (g_tree l) (g_quad l) (g_tree u) (g_quad u)). pose proof (tpos_lt d (g_tree u) (g_quad u) (g_tree l) (g_quad l)).
          assert (g_tree l = g_tree u /\ qpos d (g_quad l) = qpos d (g_quad u)) as (E1 & E2) by lia.
          unfold is_equal_piggy in EQ. rewrite E1, Z.eqb_refl in EQ. cbn [andb] in EQ.
          rewrite (proj2 (is_equal_eq d _ _ Wl Wu)) in EQ; [discriminate|]. apply (quad_eq d); auto. congruence. }
        set (lq := if proc =? n0 then None else Some (g_quad l)).
        assert (BL : bound_ok d nq lq /\ (forall s, wf d s -> ql s = 29 -> within d nq s -> ((forall x, lq = Some x -> qpos d x <= qpos d s) <-> mp d gfp proc <= tpos d nt s))).
        { unfold lq. destruct (proc =? n0) eqn:E0.
          - replace proc with n0 in * by lia. split; [intros x [=]|]. intros s W L (A & B). split; [|discriminate]. intros _. unfold owns, tpos in *. lia.
          - assert (R : tpos d nt nq <= tpos d (g_tree l) (g_quad l) < tend d nt nq).
            { pose proof (mono (n0 + 1) proc ltac:(lia) ltac:(lia)). pose proof (mono proc n1 ltac:(lia) ltac:(lia)). unfold owns in O0. lia. }
            destruct (inside l Wl Ll R) as (ET & WI). split.
            + intros x [= <-]. split; [exact Wl|]. split; [exact Ll|]. apply within_points; auto.
            + intros s W L _. rewrite Ml, ET. unfold tpos. split; [intros H; specialize (H _ eq_refl); lia|intros H x [= <-]; lia]. }
        destruct BL as (BL & CL).
        assert (BU : exists uq, (if proc =? n1 then Some None else match predecessor d (g_quad u) with None => None | Some x => Some (Some x) end) = Some uq /\
          bound_ok d nq uq /\ (forall s, wf d s -> ql s = 29 -> within d nq s -> ((forall x, uq = Some x -> qpos d s <= qpos d x) <-> tpos d nt s < mp d gfp (proc + 1))) /\
          (forall x, uq = Some x -> g_tree u = nt /\ qpos d x = qpos d (g_quad u) - U)).
        { destruct (proc =? n1) eqn:E1.
          - exists None. split; [reflexivity|]. split; [intros x [=]|]. split; [|discriminate]. intros s W L (A & B). split; [|discriminate]. intros _.
            rewrite unit_end in B by exact L. fold U in B. replace proc with n1 by lia. unfold tpos, tend in *. lia.
          - assert (R : tpos d nt nq < mp d gfp (proc + 1) /\ mp d gfp (proc + 1) < tend d nt nq).
            { pose proof (mono (n0 + 1) (proc + 1) ltac:(lia) ltac:(lia)). pose proof (mono (proc + 1) n1 ltac:(lia) ltac:(lia)). unfold owns in O0. lia. }
            rewrite Mu in R. destruct (inside u Wu Lu ltac:(lia)) as (ET & WI). rewrite ET in R.
            pose proof (predecessor_spec d (g_quad u) Wu) as PS. pose proof (wf_qpos d _ Wu) as QU. rewrite Lu in QU. fold U in QU.
            destruct (unit_pos d _ Wn) as (a' & b' & Ea' & Eb' & _). fold U in Ea', Eb'. unfold tpos, tend in R.
            assert (G : qpos d nq + U <= qpos d (g_quad u)) by (rewrite Ea', QU; apply unit_gap; [exact UP|]; rewrite <- Ea', <- QU; lia).
            destruct (wf_root_bounds d nq Wn) as (Z0 & _).
            destruct (predecessor d (g_quad u)) as [x|].
            2:{ exfalso. rewrite PS in QU. lia. }
            destruct PS as (Wx & Lx & Ix). rewrite Lu in Lx.
            assert (QX : qpos d x = qpos d (g_quad u) - U) by (rewrite (wf_qpos d x Wx), QU, Ix, Lx; fold U; ring).
            exists (Some x). split; [reflexivity|]. split; [|split].
            + intros y [= <-]. split; [exact Wx|]. split; [exact Lx|]. apply within_points; auto. split; [lia|]. rewrite unit_end by exact Lx. fold U. lia.
            + intros s W L _. rewrite Mu, ET. unfold tpos. destruct (unit_pos d s W) as (c & _ & Ec & _). fold U in Ec. split.
              * intros H. specialize (H _ eq_refl). lia.
              * intros H y [= <-]. rewrite QX. pose proof (unit_gap U c (qidx d (g_quad u)) UP). lia.
            + intros y [= <-]. auto. }
        destruct BU as (uq & EU & BU & CU & XU). cbv zeta. rewrite EU.
        assert (LTB : forall x y, lq = Some x -> uq = Some y -> qpos d x < qpos d y \/ ql nq = 29).
        { intros x y Ex Ey. left. destruct (XU y Ey) as (ETu & ->). unfold lq in Ex. destruct (proc =? n0) eqn:E0; [discriminate|]. injection Ex as <-.
          assert (R : tpos d nt nq <= tpos d (g_tree l) (g_quad l) < tend d nt nq).
          { pose proof (mono (n0 + 1) proc ltac:(lia) ltac:(lia)). pose proof (mono proc n1 ltac:(lia) ltac:(lia)). unfold owns in O0. lia. }
          destruct (inside l Wl Ll R) as (ET & _). pose proof (Hone proc ltac:(lia)) as H1'. fold U in H1'.
          rewrite Ua, Ub in H1'. rewrite Ua, Ub in LT. pose proof (unit_gap2 U a b UP LT H1') as G. rewrite <- Ua, <- Ub, Ml, Mu, ET, ETu in G. unfold tpos in G. lia. }
        rewrite <- Ln. destruct (range_bits d nq lq uq Wn BL BU LTB) as (rb & ERB & BITS). rewrite ERB, land_bit by lia.
        assert (KEY : Z.testbit rb i = true <-> at_obj proc).
        { rewrite (BITS i Hi). unfold at_obj. split.
          - intros (s & (W & L & I & A & B) & TT). apply within_points in I; auto. split; [lia|]. split; [lia|]. exists s.
            split; [exact W|]. split; [exact L|]. split; [exact I|]. split; [exact TT|]. apply CL in A; auto. apply CU in B; auto. unfold owns. lia.
          - intros (_ & _ & s & W & L & I & TT & O). exists s. split; [|exact TT]. split; [exact W|]. split; [exact L|]. split; [apply within_points; auto|].
            unfold owns in O. split; [apply CL; auto; lia|apply CU; auto; lia]. }
        destruct (Z.testbit rb i) eqn:ETB.
        + eapply adds_ext; [|apply (adds_then P t num q m0 _ _ _ _ (adds_one d P t num q m0 Hm proc ltac:(lia)) NEXT)].
          intros p. cbn beta. split; [intros [->|(A & B)]; [split; [lia|apply KEY; reflexivity]|split; [lia|exact B]]|].
          intros (A & B). destruct (Z.eq_dec p proc) as [E|]; [left; exact E|right; split; [lia|exact B]].
        + apply SKIP. intros N. apply KEY in N. discriminate.
    Qed.
  End At.

  Lemma test_spec nq nt i : wf d nq -> ql nq = ql q -> 0 <= nt < T -> 0 <= i < nbits d ->
    adds P t num q m0 (fun m => test_add d gfp P rank m q t nq nt (Z.shiftl 1 i) num) (at_obj nq nt i).
  Proof.
    intros Wn Ln Hnt Hi. unfold test_add. destruct (owner nt nq rank Wn Hnt Hrank) as (n0 & -> & Hn0 & O0). pose proof U_pos as UP.
    pose proof (wf_level d nq Wn) as LL. change QMAXLEVEL with 29.
    destruct (some_cell nq i Wn) as (s0 & W0 & L0 & I0 & T0).
    assert (ONLY : (forall s, wf d s -> ql s = 29 -> within d nq s -> owns d gfp n0 nt s) ->
      adds P t num q m0 (fun m => add_other d rank m t num q n0) (at_obj nq nt i)).
    { intros ALL. eapply adds_ext; [|apply adds_other; [exact Hm|exact Hn0]]. intros p. cbn beta. unfold at_obj. split.
      - intros (-> & N). split; [exact Hn0|]. split; [exact N|]. exists s0. auto 6.
      - intros (Hp & N & s & W & L & I & _ & O). split; [|exact N]. apply (owner_eq nt s); auto. }
    destruct (ql q =? 29) eqn:E29.
    { apply ONLY. intros s W L I. rewrite <- (within_eq d nq s Wn W I ltac:(lia)). exact O0. }
    destruct (last_descendant_wf d nq 29 Wn ltac:(lia)) as (Wl & Ll & _ & El).
    destruct (owner nt (last_descendant d nq 29) n0 Wl Hnt Hn0) as (n1 & -> & Hn1 & O1).
    assert (O1' : mp d gfp n1 <= tend d nt nq - U < mp d gfp (n1 + 1)).
    { unfold owns, tpos in O1. rewrite unit_end in El by exact Ll. fold U in El. unfold tend. lia. }
    destruct (n0 =? n1) eqn:E01.
    { apply ONLY. intros s W L (A & B). rewrite unit_end in B by exact L. fold U in B. replace n1 with n0 in O1' by lia. unfold owns, tpos, tend in *. lia. }
    assert (IL : within d nq (last_descendant d nq 29)).
    { split; [|lia]. rewrite unit_end in El by exact Ll. fold U in El. pose proof I0 as (A & B). rewrite unit_end in B by exact L0. fold U in B. lia. }
    pose proof (cell_range nq nt n0 n1 Hn0 Hn1 O0 O1' _ n1 Wl Ll IL Hn1 O1) as CR.
    eapply adds_ext; [|apply (procs_spec nq nt i Wn Ln Hi n0 n1 Hn0 Hn1 O0 O1' (trips n0 n1) n0); [lia|unfold trips; lia]].
    intros p. cbn beta. split; [intros (_ & A); exact A|]. intros A. split; [|exact A].
    destruct A as (Hp & _ & s & W & L & I & _ & O). pose proof (cell_range nq nt n0 n1 Hn0 Hn1 O0 O1' s p W L I Hp O). lia.
  Qed.
End Test.
