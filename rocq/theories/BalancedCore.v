(** * A leaf and the leaves across one of its faces *)

From Coq Require Import ZArith List Bool Lia Arith ZifyBool Sorting.Sorted.
From Verif Require BalanceBasics.
From Verif Require Import Quad Spec Interval QuadLemmas CompareLemmas DescLemmas SearchLocal RegionLemmas Neighbor RangeBoundLemmas PropertiesRangeBound PropertiesNeighbor
  Transform PropertiesTransform Conn ConnLemmas Partition PartLemmas PartTrees PartFinal Comm CommLemmas OwnerLemmas PropertiesOwner
  Ghost GhostSpec GhostState GhostGeom GhostOut GhostSteps GhostQuad GhostLoop GhostForest GhostSym GhostTouch PropertiesGhost PropertiesGhostExchange GhostFind PropertiesGhostFind
  Balanced BalancedSpec BalancedGeom BalancedImage.
Import ListNotations.
Open Scope Z_scope.

Lemma within_trans d a b s : within d a b -> within d b s -> within d a s.
Proof. unfold within. lia. Qed.

(** two quadrants that contain the same one *)
Lemma within_both d a b s : wf d a -> wf d b -> wf d s -> within d a s -> within d b s -> ql a <= ql b -> within d a b.
Proof.
  intros Wa Wb Ws (A1 & A2) (B1 & B2) L. pose proof (qsize_pos d s Ws) as S.
  destruct (trich d a b Wa Wb) as [H|[H|[H|[H|H]]]]; [unfold qend in *; lia|unfold qend in *; lia|subst; unfold within; lia|apply anc in H; auto; unfold within; lia|].
  apply anc in H; auto. lia.
Qed.
Lemma within_eq d a b : wf d a -> wf d b -> within d a b -> ql a = ql b -> a = b.
Proof.
  intros Wa Wb (A1 & A2) L. pose proof (qsize_pos d b Wb) as S.
  destruct (trich d a b Wa Wb) as [H|[H|[H|[H|H]]]]; [unfold qend in *; lia|unfold qend in *; lia|exact H|apply anc in H; auto; lia|apply anc in H; auto; lia].
Qed.

Section Leaves.
  Variables (d : dim) (c : conn) (ranks : list (rk quad)).
  Let T := c_nt c.
  Hypothesis V : conn_is_valid d c = Some true.
  Hypothesis HT : 0 <= T.
  Hypothesis HF : forest_ok d qid T ranks.
  Hypothesis HC : covers d qid 0 (T * TREE d) (glob T ranks).
  Let G := glob T ranks.

  Lemma leaf_wf t q : In (t, q) G -> 0 <= t < T /\ wf d q.
  Proof. intros I. split; [apply (glob_label T ranks _ I)|apply (proj1 (proj2 HF) _ I)]. Qed.

  Lemma leaf_unique t q q' s : In (t, q) G -> In (t, q') G -> wf d s -> within d q s -> within d q' s -> q = q'.
  Proof.
    intros I I' Ws (A1 & A2) (B1 & B2). pose proof (qsize_pos d s Ws) as SP. destruct HF as (_ & _ & SO). fold G in SO. apply In_nth_error in I. apply In_nth_error in I'. destruct I as (i & Ei), I' as (j & Ej).
    assert (K : forall i j a b, nth_error G i = Some (t, a) -> nth_error G j = Some (t, b) -> (i < j)%nat -> qend d a <= qpos d b).
    { intros i0 j0 a b E1 E2 L. pose proof (sorted_rel _ _ _ _ _ _ SO E1 E2 L) as R. unfold tend, tpos in R. cbn [fst snd] in R. lia. }
    destruct (Nat.lt_trichotomy i j) as [L|[L|L]]; [pose proof (K _ _ _ _ Ei Ej L); unfold qend in *; lia|congruence|pose proof (K _ _ _ _ Ej Ei L); unfold qend in *; lia].
  Qed.
  Lemma leaf_same t q q' : In (t, q) G -> In (t, q') G -> within d q q' -> q = q'.
  Proof. intros I I' W. destruct (leaf_wf t q' I') as (_ & W'). apply (leaf_unique t q q' q' I I' W' W). unfold within. lia. Qed.

  Lemma leaf_at t s : 0 <= t < T -> wf d s -> exists p r q, zget ranks p = Some r /\ In (t, q) (loc T r) /\ In (t, q) G /\ within d q (first_descendant d s 29).
  Proof.
    intros Ht Ws. destruct (forest_markers d T ranks HF HC) as (ms & EM & L & MW & MI & MM & MB & ME & _ & BND).
    pose proof (wf_level d s Ws) as Ls. destruct (first_descendant_wf d s 29 Ws ltac:(lia)) as (Wu & Lu & _ & Pu). set (u := first_descendant d s 29) in *.
    pose proof (qpos_range d u) as RQ. pose proof (tree_pos d) as TP.
    assert (RG : 0 <= tpos d t u < T * TREE d).
    { unfold tpos. assert (0 <= t * TREE d) by (apply Z.mul_nonneg_nonneg; lia). assert ((t + 1) * TREE d <= T * TREE d) by (apply Z.mul_le_mono_nonneg_r; lia). lia. }
    assert (NE : 1 <= zlen ranks). { destruct (Z.eq_dec (zlen ranks) 0) as [E|]; [|unfold zlen in *; lia]. rewrite E in ME. lia. }
    destruct (find_owner_spec d ms (zlen ranks) NE L MI t u 0 (wf_qin d u Wu) ltac:(lia) ltac:(rewrite MB, ME; exact RG)) as (p & _ & Hp & Op).
    destruct (proj1 (owns_leaf d T ranks HF HC ms EM p t u Ht Wu Lu) (conj Hp Op)) as (r & b & Ep & Ib & Kb).
    pose proof (in_glob T ranks p r _ Ep Ib) as IG. exists p, r, b. split; [exact Ep|]. split; [exact Ib|]. split; [exact IG|]. apply within_points; auto. apply (leaf_wf t b IG).
  Qed.
  Lemma fd29 s : wf d s -> ql s = 29 -> first_descendant d s 29 = s.
  Proof. intros W L. destruct (first_descendant_wf d s 29 W ltac:(lia)) as (Wu & Lu & _ & Pu). apply (within_eq d); [exact Wu|exact W| |lia]. unfold within, qend, qsize. rewrite Pu, Lu, L. lia. Qed.

  (** the owner of a quadrant inside of a leaf *)
  Lemma leaf_owner ms p r t q s guess : global_partition qid T ranks = Some ms -> zget ranks p = Some r -> In (t, q) (loc T r) -> wf d s -> within d q s -> 0 <= guess < zlen ranks ->
    find_owner d ms (zlen ranks) t s guess = Some p.
  Proof.
    intros EM Er I Ws Wi Hg. destruct (forest_markers d T ranks HF HC) as (ms' & EM' & L & MW & MI & MM & MB & ME & _ & BND). rewrite EM in EM'. injection EM' as <-.
    destruct (leaf_wf t q (in_glob T ranks p r _ Er I)) as (Ht & Wq). destruct (BND p r _ Er I) as (B1 & B2). cbn [fst snd] in B1, B2. pose proof (qsize_pos d s Ws) as SP. destruct Wi as (W1 & W2).
    pose proof (qpos_range d s) as RQ. pose proof (tree_pos d) as TP.
    destruct (find_owner_spec d ms (zlen ranks) ltac:(lia) L MI t s guess (wf_qin d s Ws) Hg) as (p' & E & Hp' & Op').
    { rewrite MB, ME. unfold tpos. assert (0 <= t * TREE d) by (apply Z.mul_nonneg_nonneg; lia). assert ((t + 1) * TREE d <= T * TREE d) by (apply Z.mul_le_mono_nonneg_r; lia). lia. }
    rewrite E. f_equal. destruct (skipn_zget ranks p r Er) as (Hp & _). apply (owner_unique d ms (zlen ranks) MM (tpos d t s)); auto. unfold tpos, tend, qend in *. lia.
  Qed.

  (** ** One face *)
  Section Face.
    Variables (t f : Z) (q : quad).
    Hypothesis Iq : In (t, q) G.
    Hypothesis Hf : 0 <= f < faces d.
    Let N := nb d q (face_obj f).
    Let hn (i : Z) := half_face_neighbor d q f i.
    Let pn := nb d (parent d q) (face_obj f).
    Let Ht := proj1 (leaf_wf t q Iq).
    Let Wq := proj2 (leaf_wf t q Iq).
    Variables (nt : Z) (phi : quad -> quad).
    Hypothesis IM : image d c t f q nt phi.

    Lemma im_wf n : here d f q n -> wf d (phi n) /\ ql (phi n) = ql n.
    Proof. intros H. destruct (proj2 IM n H) as (A & B & _). auto. Qed.
    Lemma im_in n m : here d f q n -> here d f q m -> inbox d n m -> within d (phi n) (phi m).
    Proof. intros H H' B. apply inbox_any; [apply im_wf; exact H|apply im_wf; exact H'|]. apply (proj2 IM n H); auto. Qed.

    Lemma cell_here s : beside d q (face_obj f) s -> here d f q s /\ inbox d N s /\ ql s = 29.
    Proof.
      intros B. destruct (proj1 (beside_iff d q (face_obj f) s (q_ext d q Wq) (obj_D2_face d f Hf)) B) as (Es & Ls & IB & _). split; [apply (here_sub d f q Wq Hf); auto|]. auto.
    Qed.
    Lemma half_here i : ql q < 29 -> 0 <= i < half d -> here d f q (hn i) /\ ql (hn i) = ql q + 1 /\ inbox d N (hn i) /\ inbox d (hn i) (front q f (hn i)) /\ beside d q (face_obj f) (front q f (hn i)).
    Proof.
      intros L Hi. destruct (half_geom d q f i (q_ext d q Wq) L Hf Hi) as (En & Ln & B1 & B2 & B3). split; [apply (here_sub d f q Wq Hf); auto|]. auto.
    Qed.
    Lemma pn_case : 0 < ql q -> Z.land (Z.shiftr (child_id d q) (f / 2)) 1 =? Z.land f 1 = true -> here d f q pn /\ ql pn = ql q - 1 /\ inbox d pn N.
    Proof.
      intros L0 E. pose proof (parent_side d q f Wq L0 Hf) as PS. rewrite E in PS. split; [apply (here_par d f q Wq Hf); auto|]. split; [|exact PS].
      unfold pn, nb. destruct (face_obj f) as ((a & b) & e). cbn [ql]. destruct (parent_wf d q Wq L0) as (_ & Lp & _). exact Lp.
    Qed.
    Lemma N_level : ql N = ql q.
    Proof. unfold N, nb. destruct (face_obj f) as ((a & b) & e). reflexivity. Qed.

    Lemma N_beside : ql q = 29 -> beside d q (face_obj f) N.
    Proof.
      intros E. apply (beside_iff d q (face_obj f) N (q_ext d q Wq) (obj_D2_face d f Hf)). split; [apply (N_ext d f q Wq)|]. split; [rewrite N_level; exact E|]. split; [apply inbox_refl|].
      apply touches_comp. intros i A. unfold touch_axis. destruct (og (vflip (face_obj f)) i) as [[]|]; auto; lia.
    Qed.
    (** some cell next to q across the face *)
    Lemma some_cell : exists s, beside d q (face_obj f) s.
    Proof.
      pose proof (wf_level d q Wq) as L. destruct (Z.eq_dec (ql q) 29) as [E|NE]; [exists N; apply N_beside; exact E|].
      exists (front q f (hn 0)). apply half_here; [lia|]. clear. destruct d; cbn; lia.
    Qed.

    (** what the code looks for *)
    Definition halves_are : Prop := ql q < 29 /\ forall i, 0 <= i < half d -> In (nt, phi (hn i)) G.
    Definition equal_is : Prop := In (nt, phi N) G.
    Definition double_is : Prop := 0 < ql q /\ (Z.land (Z.shiftr (child_id d q) (f / 2)) 1 =? Z.land f 1) = true /\ In (nt, phi pn) G.
    Definition half_is (i : Z) : Prop := ql q < 29 /\ In (nt, phi (hn i)) G.

    Lemma found_levels : halves_are \/ equal_is \/ double_is -> forall s t' s' q', beside d q (face_obj f) s -> seen_as d c t s t' s' -> In (t', q') G ->
      (forall x y z, inq d s' x y z -> inq d q' x y z) -> Z.abs (ql q - ql q') <= 1.
    Proof.
      intros H s t' s' q' B SN I IN. destruct (cell_here s B) as (Hs & BN & Ls). apply (proj2 IM s Hs) in SN. destruct SN as (-> & ->). destruct (im_wf s Hs) as (Ws & _).
      destruct (leaf_wf nt q' I) as (_ & Wq'). apply within_points in IN; auto. pose proof (here_N d f q Wq Hf) as HN. fold N in HN. destruct (im_wf N HN) as (_ & LN). rewrite N_level in LN.
      destruct H as [(L & H)|[H|(L & E & H)]].
      - destruct (half_cell d q f s (q_ext d q Wq) L Hf B) as (i & Hi & BI). destruct (half_here i L Hi) as (HH & LH & _). destruct (im_wf _ HH) as (_ & LI).
        rewrite <- (leaf_unique nt (phi (hn i)) q' (phi s) (H i Hi) I Ws (im_in _ _ HH Hs BI) IN). lia.
      - rewrite <- (leaf_unique nt (phi N) q' (phi s) H I Ws (im_in _ _ HN Hs BN) IN). lia.
      - destruct (pn_case L E) as (HP & LP & BP). destruct (im_wf _ HP) as (_ & LI).
        rewrite <- (leaf_unique nt (phi pn) q' (phi s) H I Ws (im_in _ _ HP Hs (inbox_trans d _ _ _ BP BN)) IN). lia.
    Qed.

    Hypothesis BAL : forall s q', beside d q (face_obj f) s -> In (nt, q') G -> within d q' (phi s) -> Z.abs (ql q - ql q') <= 1.

    Lemma cell_leaf s : beside d q (face_obj f) s -> exists p r b, zget ranks p = Some r /\ In (nt, b) (loc T r) /\ In (nt, b) G /\ wf d b /\ within d b (phi s) /\ Z.abs (ql q - ql b) <= 1.
    Proof.
      intros B. destruct (cell_here s B) as (Hs & BN & Ls). destruct (im_wf s Hs) as (Ws & LW). destruct (leaf_at nt (phi s) (proj1 IM) Ws) as (p & r & b & Er & I & IG & W).
      rewrite fd29 in W by (auto; lia). exists p, r, b. split; [exact Er|]. split; [exact I|]. split; [exact IG|]. split; [apply (leaf_wf nt b IG)|]. split; [exact W|]. apply (BAL s b B IG W).
    Qed.

    (** a small neighbor lies in one leaf *)
    Lemma half_leaf i : ql q < 29 -> 0 <= i < half d -> exists p r b, zget ranks p = Some r /\ In (nt, b) (loc T r) /\ In (nt, b) G /\ within d b (phi (hn i)) /\ Z.abs (ql q - ql b) <= 1.
    Proof.
      intros L Hi. destruct (half_here i L Hi) as (HH & LH & BN & BF & BS). destruct (cell_leaf _ BS) as (p & r & b & Er & I & IG & Wb & W & D). exists p, r, b. split; [exact Er|]. split; [exact I|]. split; [exact IG|]. split; [|exact D].
      destruct (im_wf _ HH) as (WH & LI). destruct (cell_here _ BS) as (Hs & _). destruct (im_wf _ Hs) as (Ws & _). apply (within_both d b (phi (hn i)) (phi (front q f (hn i)))); auto; [|lia]. apply im_in; auto.
    Qed.

    Lemma one_holds :
      (halves_are /\ ~ equal_is /\ ~ double_is) \/ ((forall i, 0 <= i < half d -> ~ half_is i) /\ equal_is /\ ~ double_is) \/
      ((forall i, 0 <= i < half d -> ~ half_is i) /\ ~ equal_is /\ double_is).
    Proof.
      pose proof (here_N d f q Wq Hf) as HN. fold N in HN. destruct (im_wf N HN) as (WN & LN). rewrite N_level in LN.
      assert (NH : equal_is -> forall i, 0 <= i < half d -> ~ half_is i).
      { intros EI i Hi (L & I). destruct (half_here i L Hi) as (HH & LH & BN & _). destruct (im_wf _ HH) as (_ & LI). pose proof (leaf_same nt _ _ EI I (im_in _ _ HN HH BN)) as K. rewrite K in LN. lia. }
      assert (DE : double_is -> ~ equal_is).
      { intros (L & E & I) EI. destruct (pn_case L E) as (HP & LP & BP). destruct (im_wf _ HP) as (_ & LI). pose proof (leaf_same nt _ _ I EI (im_in _ _ HP HN BP)) as K. rewrite K in LI. lia. }
      assert (DH : double_is -> forall i, 0 <= i < half d -> ~ half_is i).
      { intros (L & E & I) i Hi (L' & I'). destruct (pn_case L E) as (HP & LP & BP). destruct (im_wf _ HP) as (_ & LI). destruct (half_here i L' Hi) as (HH & LH & BN & _). destruct (im_wf _ HH) as (_ & LI').
        pose proof (leaf_same nt _ _ I I' (im_in _ _ HP HH (inbox_trans d _ _ _ BP BN))) as K. rewrite K in LI. lia. }
      assert (H0 : 0 <= 0 < half d) by (clear; destruct d; cbn; lia).
      destruct some_cell as (s & B). destruct (cell_here s B) as (Hs & BN & Ls). destruct (im_wf s Hs) as (Ws & _). destruct (cell_leaf s B) as (p & r & b & Er & _ & I & Wb & W & D).
      pose proof (wf_level d b Wb) as Lb. pose proof (im_in _ _ HN Hs BN) as WNs.
      destruct (Z.lt_trichotomy (ql b) (ql q)) as [C|[C|C]].
      - (* a leaf of twice the size *)
        assert (L0 : 0 < ql q) by lia. pose proof (parent_side d q f Wq L0 Hf) as PS. destruct (parent_wf d q Wq L0) as (Wp & Lp & _).
        destruct (Z.land (Z.shiftr (child_id d q) (f / 2)) 1 =? Z.land f 1) eqn:E.
        + destruct (pn_case L0 E) as (HP & LP & BP). destruct (im_wf _ HP) as (WP & LI). pose proof (im_in _ _ HP Hs (inbox_trans d _ _ _ BP BN)) as WPs.
          assert (K : b = phi pn). { apply (within_eq d); auto; [|lia]. apply (within_both d b (phi pn) (phi s)); auto. lia. }
          assert (DI : double_is) by (split; [exact L0|split; [exact E|rewrite <- K; exact I]]). right. right. auto.
        + exfalso. fold N in PS. assert (WNN : wf d N). { apply (inbox_wf d (parent d q)); [exact Wp|apply (N_ext d f q Wq)|exact PS]. }
          assert (ON : out d N = (None, None, None)) by (apply (out_none d N (N_ext d f q Wq)); exact WNN).
          assert (HR : here d f q (parent d q)) by (left; auto). assert (HQ : here d f q q) by (left; auto).
          assert (ID : forall n, here d f q n -> wf d n -> t = nt /\ n = phi n).
          { intros n Hn Wn. apply (proj2 IM n Hn). apply seen_in; [|auto]. apply (out_none d n (proj1 (proj1 (wf_ext d n) Wn))). exact Wn. }
          destruct (ID _ HR Wp) as (Et & EP). pose proof (im_in _ _ HR Hs (inbox_trans d _ _ _ PS BN)) as WPs. rewrite <- EP in WPs.
          assert (K : b = parent d q). { apply (within_eq d); auto; [|lia]. apply (within_both d b (parent d q) (phi s)); auto. lia. }
          rewrite <- Et in I. rewrite K in I. assert (PQ : within d (parent d q) q). { pose proof (BalanceBasics.parent_inn d q Wq L0) as X. unfold within. exact X. }
          pose proof (leaf_same t _ _ I Iq PQ) as KK. rewrite KK in Lp. lia.
      - (* a leaf of the same size *)
        assert (K : b = phi N). { apply (within_eq d); auto; [|lia]. apply (within_both d b (phi N) (phi s)); auto. lia. }
        right. left. assert (EI : equal_is) by (unfold equal_is; rewrite <- K; exact I). split; [apply NH; exact EI|]. split; [exact EI|]. intros X. apply (DE X EI).
      - (* smaller leaves *)
        assert (L : ql q < 29) by lia. left. assert (HA : halves_are).
        { split; [exact L|]. intros i Hi. destruct (half_leaf i L Hi) as (p' & r' & b' & Er' & _ & I' & W' & D'). destruct (half_here i L Hi) as (HH & LH & BN' & BF & BS). destruct (im_wf _ HH) as (WH & LI).
          destruct (leaf_wf nt b' I') as (_ & Wb'). destruct (Z.le_gt_cases (ql b') (ql q)) as [G1|G1].
          - exfalso. assert (WI : within d b' (phi N)). { apply (within_both d b' (phi N) (phi (hn i))); auto; [|lia]. apply im_in; auto. }
            pose proof (leaf_unique nt b' b (phi s) I' I Ws (within_trans d _ _ _ WI WNs) W) as K. subst b'. lia.
          - rewrite <- (within_eq d b' (phi (hn i)) Wb' WH W' ltac:(lia)). exact I'. }
        split; [exact HA|]. split; [intros X; apply (NH X 0 H0)|intros X; apply (DH X 0 H0)]; (split; [exact L|apply HA; exact H0]).
    Qed.
  End Face.
End Leaves.
