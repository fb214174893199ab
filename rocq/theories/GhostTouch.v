(** * The neighbor relation of smallest quadrants is symmetric *)

From Coq Require Import ZArith List Bool Lia Arith ZifyBool.
From Verif Require Import Quad Spec Morton ZBits Interval QuadLemmas Neighbor RangeBoundLemmas PropertiesNeighbor Transform PropertiesTransform
  Partition Conn ConnLemmas ConnBounds PropertiesConn Ghost GhostSpec GhostGeom GhostOut GhostSteps GhostQuad GhostForest GhostSym GhostCells.
Import ListNotations.
Open Scope Z_scope.

Lemma beyond_out d f n : 0 <= f < faces d -> beyond d f n -> out d n = face_obj f.
Proof.
  intros Hf B. apply beyond_comp in B. destruct B as (_ & R). apply (obj_ext d).
  - intros i A. rewrite og_out by exact A. specialize (R i A). rewrite og_face by (unfold axis in A; destruct d; cbn [faces nd] in *; lia).
    unfold shift_lo in R. unfold out_axis. rewrite Zmod_odd in R. set (x := vget (cv n) i) in *. clearbody x.
    destruct (i =? f / 2), (Z.odd f); change (1 =? 0) with false in R; change (0 =? 0) with true in R; cbv iota in R;
      destruct (x <? 0) eqn:E1; try lia; try reflexivity; destruct (2 ^ 30 <=? x) eqn:E2; try lia; reflexivity.
  - intros ->. split; [reflexivity|]. change (faces D2) with 4 in Hf. rewrite og_face by lia. replace (2 =? f / 2) with false; [reflexivity|]. symmetry. apply Z.eqb_neq.
    assert (f / 2 < 2) by (apply Z.div_lt_upper_bound; lia). lia.
Qed.

Lemma close_axis d bt u s i : wf d u -> ql u = 29 -> ext d s -> ql s = 29 -> close d bt u s -> axis d i ->
  0 <= vget (cv u) i <= 2 ^ 30 - 2 /\ -2 <= vget (cv s) i <= 2 ^ 30 /\
  forall b, og (out d s) i = Some b -> vget (cv u) i = (if b then 2 ^ 30 - 2 else 0) /\ vget (cv s) i = (if b then 2 ^ 30 else -2).
Proof.
  intros W Lu Es Ls (C & _) A. apply wf_comp in W. destruct W as (Eu & R). specialize (R i A). specialize (C i A).
  apply ext_comp in Eu. destruct Eu as (_ & Du & _). apply ext_comp in Es. destruct Es as (_ & Ds & _).
  destruct (Du i A) as (U & EU). destruct (Ds i A) as (S & ES). rewrite Lu in EU. rewrite Ls in ES. change (side 29) with 2 in *.
  assert (0 <= vget (cv u) i <= 2 ^ 30 - 2) by lia. split; [lia|]. split; [lia|].
  intros b. rewrite og_out by exact A. unfold out_axis. destruct (vget (cv s) i <? 0) eqn:E1; [intros [= <-]; lia|].
  destruct (2 ^ 30 <=? vget (cv s) i) eqn:E2; [intros [= <-]; lia|discriminate].
Qed.

Lemma tf_close d f nf o bt u s : 0 <= f < faces d -> 0 <= nf < faces d -> 0 <= o < half d ->
  wf d u -> beyond d f s -> ql u = 29 -> ql s = 29 -> close d bt u s ->
  close d bt (transform_face d u (expand_face_transform d f nf o)) (transform_face d s (expand_face_transform d f nf o)).
Proof.
  intros Hf Hn Ho Wu Bs Lu Ls (C & DI). set (ft := expand_face_transform d f nf o).
  assert (K : forall j, axis d j -> exists i, axis d i /\ fst (comp d (expand_face_transform d nf f o) i) = j /\
     Z.abs (vget (cv (transform_face d u ft)) j - vget (cv (transform_face d s ft)) j) = Z.abs (vget (cv u) i - vget (cv s) i)).
  { intros j A. unfold ft. rewrite !tf_comp by auto. pose proof (comp_spec d f nf o Hf Hn Ho j A) as CS. fold ft in CS |- *. destruct (comp d ft j) as (i, k).
    cbn [fst snd]. destruct CS as (Ai & Kr & _ & _ & _ & Ci). exists i. rewrite Ci, Lu, Ls. split; [auto|]. split; [reflexivity|]. apply phi_dist; auto. }
  split.
  - intros j A. destruct (K j A) as (i & Ai & _ & ->). apply C. exact Ai.
  - replace (dist1 (cv (transform_face d u ft)) (cv (transform_face d s ft))) with (dist1 (cv u) (cv s)); [exact DI|].
    assert (Zu : d = D2 -> qz (transform_face d u ft) = 0) by (apply tf_z; auto). assert (Zs : d = D2 -> qz (transform_face d s ft) = 0) by (apply tf_z; auto).
    assert (Z1 : d = D2 -> qz u = 0) by (apply wf_ext in Wu; destruct Wu as (Eu & _); apply ext_comp in Eu; apply Eu).
    assert (Z2 : d = D2 -> qz s = 0) by (destruct Bs as (Es & _); apply ext_comp in Es; apply Es).
    set (u' := transform_face d u ft) in *. set (s' := transform_face d s ft) in *. clearbody u' s'.
    destruct (K 0 ltac:(unfold axis; destruct d; cbn; lia)) as (i0 & A0 & I0 & E0). destruct (K 1 ltac:(unfold axis; destruct d; cbn; lia)) as (i1 & A1 & I1 & E1).
    assert (i0 <> i1) by congruence. unfold dist1, cv. change (vget (cv u') 0) with (qx u') in E0. change (vget (cv s') 0) with (qx s') in E0.
    change (vget (cv u') 1) with (qy u') in E1. change (vget (cv s') 1) with (qy s') in E1. rewrite E0, E1. destruct d.
    + rewrite Zu, Zs, Z1, Z2 by reflexivity. unfold axis in *. cbn [nd] in *. assert (i0 = 0 \/ i0 = 1) as X0 by lia. assert (i1 = 0 \/ i1 = 1) as X1 by lia.
      clear K E0 E1 I0 I1. destruct X0 as [->| ->], X1 as [->| ->]; try lia; unfold cv; cbn [vget]; zconst; cbv iota; lia.
    + destruct (K 2 ltac:(unfold axis; cbn; lia)) as (i2 & A2 & I2 & E2). change (vget (cv u') 2) with (qz u') in E2. change (vget (cv s') 2) with (qz s') in E2. rewrite E2.
      assert (i0 <> i2) by congruence. assert (i1 <> i2) by congruence. unfold axis in *. cbn [nd] in *.
      assert (i0 = 0 \/ i0 = 1 \/ i0 = 2) as X0 by lia. assert (i1 = 0 \/ i1 = 1 \/ i1 = 2) as X1 by lia. assert (i2 = 0 \/ i2 = 1 \/ i2 = 2) as X2 by lia.
      clear K E0 E1 E2 I0 I1 I2 Hf Hn Ho ft. destruct X0 as [->|[->| ->]], X1 as [->|[->| ->]]; try lia; destruct X2 as [->|[->| ->]]; try lia; unfold cv; cbn [vget]; zconst; cbv iota; lia.
Qed.

(** the neighbor beyond corner k of the root, the corner of the root *)
Definition cpast (b : bool) : Z := if b then 2 ^ 30 else -2.
Definition cin (b : bool) : Z := if b then 2 ^ 30 - 2 else 0.
Definition beyond_corner (d : dim) (k : Z) : quad :=
  mkq (cpast (Z.odd k)) (cpast (Z.odd (k / 2))) (match d with D2 => 0 | D3 => cpast (Z.odd (k / 4)) end) 29.
Definition in_corner (d : dim) (k : Z) : quad :=
  mkq (cin (Z.odd k)) (cin (Z.odd (k / 2))) (match d with D2 => 0 | D3 => cin (Z.odd (k / 4)) end) 29.
Lemma tc_in d s k : ext d s -> ql s = 29 -> 0 <= k < children d -> transform_corner d s k true = in_corner d k.
Proof.
  intros E L Hk. unfold transform_corner, in_corner. rewrite L. change (29 =? MAXLEVEL) with false. cbv iota. change (LAST_OFFSET 29) with (2 ^ 30 - 2).
  apply ext_comp in E. destruct E as (_ & _ & Z0).
  destruct d; cbn [is3]; [rewrite Z0 by reflexivity; change (children D2) with 4 in Hk|change (children D3) with 8 in Hk].
  - assert (k = 0 \/ k = 1 \/ k = 2 \/ k = 3) as C by lia. destruct C as [->|[->|[->| ->]]]; reflexivity.
  - assert (k = 0 \/ k = 1 \/ k = 2 \/ k = 3 \/ k = 4 \/ k = 5 \/ k = 6 \/ k = 7) as C by lia. destruct C as [->|[->|[->|[->|[->|[->|[->| ->]]]]]]]; reflexivity.
Qed.
Lemma bc_ext d k : ext d (beyond_corner d k) /\ out d (beyond_corner d k) = corner_obj d k /\ ql (beyond_corner d k) = 29.
Proof.
  split; [|split; [|reflexivity]].
  - apply ext_comp. split; [cbn; lia|]. split; [|intros ->; reflexivity]. change (ql (beyond_corner d k)) with 29. change (side 29) with 2.
    assert (P : forall b, exists X, cpast b = X * 2) by (intros []; [exists (2 ^ 29); reflexivity|exists (-1); reflexivity]).
    apply (all_axes d (fun i => exists X, vget (cv (beyond_corner d k)) i = X * 2)). unfold beyond_corner, cv, vget. cbn [qx qy qz Z.eqb Pos.eqb]. destruct d; auto.
  - unfold out, beyond_corner, corner_obj. cbn [qx qy qz]. assert (P : forall b, out_axis (cpast b) = Some b) by (intros []; reflexivity). rewrite !P. destruct d; [|rewrite P]; reflexivity.
Qed.
Lemma corner_close d bt k : nd d <= upto bt -> close d bt (in_corner d k) (beyond_corner d k).
Proof.
  intros U. assert (P : forall b, Z.abs (cin b - cpast b) = 2) by (intros []; reflexivity). split.
  - apply (all_axes d (fun i => Z.abs (vget (cv (in_corner d k)) i - vget (cv (beyond_corner d k)) i) = 0 \/ Z.abs (vget (cv (in_corner d k)) i - vget (cv (beyond_corner d k)) i) = 2)).
    unfold in_corner, beyond_corner, cv, vget. cbn [qx qy qz Z.eqb Pos.eqb]. rewrite !P. split; [auto|]. split; [auto|]. destruct d; [exact I|]. rewrite P. auto.
  - unfold dist1, cv, in_corner, beyond_corner. cbn [qx qy qz]. rewrite !P. destruct d; cbn [nd] in U; [change (Z.abs (0 - 0)) with 0|rewrite P]; lia.
Qed.
Lemma og_corner d k i : axis d i -> exists b, og (corner_obj d k) i = Some b.
Proof.
  intros A. unfold axis in A. assert (C : i = 0 \/ i = 1 \/ (d = D3 /\ i = 2)) by (destruct d; cbn [nd] in A; [lia|]; destruct (Z.eq_dec i 2); [auto|lia]).
  destruct C as [-> |[-> |(-> & ->)]]; eexists; reflexivity.
Qed.
Lemma corner_u d bt u s k : wf d u -> ql u = 29 -> ext d s -> ql s = 29 -> close d bt u s -> out d s = corner_obj d k -> u = in_corner d k /\ nd d <= upto bt.
Proof.
  intros W L Es Ls CL O. pose proof (fun i A => close_axis d bt u s i W L Es Ls CL A) as K.
  assert (K' : forall i b, axis d i -> og (corner_obj d k) i = Some b -> vget (cv u) i = cin b /\ vget (cv s) i = cpast b).
  { intros i b A E. destruct (K i A) as (_ & _ & H). apply H. rewrite O. exact E. }
  assert (P : forall b, Z.abs (cin b - cpast b) = 2) by (intros []; reflexivity).
  destruct (K' 0 (Z.odd k) ltac:(unfold axis; destruct d; cbn; lia) eq_refl) as (A0 & B0). destruct (K' 1 (Z.odd (k / 2)) ltac:(unfold axis; destruct d; cbn; lia) eq_refl) as (A1 & B1).
  change (vget (cv u) 0) with (qx u) in A0. change (vget (cv s) 0) with (qx s) in B0. change (vget (cv u) 1) with (qy u) in A1. change (vget (cv s) 1) with (qy s) in B1.
  destruct CL as (_ & DI). unfold dist1, cv in DI. rewrite A0, B0, A1, B1, !P in DI. apply wf_ext in W. destruct W as (Eu & _). destruct u as [x y z l]. cbn [qx qy qz ql] in *. subst x y l. unfold in_corner. destruct d; cbn [nd].
  - apply ext_comp in Eu. destruct Eu as (_ & _ & Z0). cbn [qz] in Z0. rewrite Z0 in * by reflexivity. split; [reflexivity|lia].
  - destruct (K' 2 (Z.odd (k / 4)) ltac:(unfold axis; cbn; lia) eq_refl) as (A2 & B2). unfold cv, vget in A2, B2. cbn [qz Z.eqb Pos.eqb] in A2, B2. rewrite A2, B2, P in DI. rewrite A2. split; [reflexivity|lia].
Qed.

(** beyond edge e of the root, at a along the edge *)
Definition be_axis (o : option bool) (a : Z) : Z := match o with None => a | Some b => cpast b end.
Definition beyond_edge (e a : Z) : quad :=
  mkq (be_axis (og (edge_obj e) 0) a) (be_axis (og (edge_obj e) 1) a) (be_axis (og (edge_obj e) 2) a) 29.
Lemma be_cv e a i : 0 <= i < 3 -> vget (cv (beyond_edge e a)) i = be_axis (og (edge_obj e) i) a.
Proof. intros H. assert (i = 0 \/ i = 1 \/ i = 2) as C by lia. destruct C as [->|[->| ->]]; reflexivity. Qed.
Lemma be_ext e a X : 0 <= e < 12 -> a = X * 2 -> 0 <= a < 2 ^ 30 ->
  ext D3 (beyond_edge e a) /\ out D3 (beyond_edge e a) = edge_obj e /\ vget (cv (beyond_edge e a)) (e / 4) = a.
Proof.
  intros He EX Ra. assert (A4 : 0 <= e / 4 < 3) by (split; [apply Z.div_pos; lia|apply Z.div_lt_upper_bound; lia]). split; [|split].
  - apply ext_comp. split; [cbn; lia|]. split; [|discriminate]. intros i A. rewrite be_cv by exact A. change (ql (beyond_edge e a)) with 29. change (side 29) with 2.
    destruct (og (edge_obj e) i) as [[]|]; cbn [be_axis cpast]; [exists (2 ^ 29); reflexivity|exists (-1); reflexivity|exists X; exact EX].
  - apply (obj_ext D3); [|discriminate]. intros i A. rewrite og_out, be_cv by exact A. destruct (og (edge_obj e) i) as [[]|]; cbn [be_axis]; [reflexivity|reflexivity|]. apply out_axis_none. exact Ra.
  - rewrite be_cv by exact A4. rewrite (proj2 (og_edge e (e / 4) He A4) eq_refl). reflexivity.
Qed.

Lemma three_axes (g g' : Z -> Z) a b : 0 <= a < 3 -> 0 <= b < 3 -> (forall i, 0 <= i < 3 -> i <> a -> g i = 2) -> (forall i, 0 <= i < 3 -> i <> b -> g' i = 2) -> g a = g' b ->
  g 0 + g 1 + g 2 = g' 0 + g' 1 + g' 2.
Proof.
  intros Ha Hb H H' E. assert (C : a = 0 \/ a = 1 \/ a = 2) by lia. assert (C' : b = 0 \/ b = 1 \/ b = 2) by lia.
  pose proof (H 0 ltac:(lia)). pose proof (H 1 ltac:(lia)). pose proof (H 2 ltac:(lia)). pose proof (H' 0 ltac:(lia)). pose proof (H' 1 ltac:(lia)). pose proof (H' 2 ltac:(lia)).
  destruct C as [->|[->| ->]], C' as [->|[->| ->]]; lia.
Qed.
Lemma dist_axes u s : dist1 (cv u) (cv s) = Z.abs (vget (cv u) 0 - vget (cv s) 0) + Z.abs (vget (cv u) 1 - vget (cv s) 1) + Z.abs (vget (cv u) 2 - vget (cv s) 2).
Proof. reflexivity. Qed.

(** the way back across an edge *)
Lemma edge_touch bt u s e ne fl : wf D3 u -> ql u = 29 -> ext D3 s -> ql s = 29 -> close D3 bt u s -> 0 <= e < 12 -> 0 <= ne < 12 -> out D3 s = edge_obj e -> (fl = 0 \/ fl = 1) ->
  2 <= upto bt /\ exists a, 0 <= a < 2 ^ 30 /\ (exists X, a = X * 2) /\ close D3 bt (transform_edge s e ne fl) (beyond_edge ne a) /\ transform_edge (beyond_edge ne a) ne e fl = u.
Proof.
  intros W Lu Es Ls CL He Hn O Hfl. pose proof (fun i A => close_axis D3 bt u s i W Lu Es Ls CL A) as K.
  assert (A4 : 0 <= e / 4 < 3) by (split; [apply Z.div_pos; lia|apply Z.div_lt_upper_bound; lia]).
  assert (B4 : 0 <= ne / 4 < 3) by (split; [apply Z.div_pos; lia|apply Z.div_lt_upper_bound; lia]).
  assert (KO : forall i, 0 <= i < 3 -> i <> e / 4 -> exists b, og (edge_obj e) i = Some b /\ vget (cv u) i = cin b /\ vget (cv s) i = cpast b).
  { intros i Hi N. destruct (og (edge_obj e) i) as [b|] eqn:OG; [|apply og_edge in OG; auto; contradiction]. exists b. split; [reflexivity|]. destruct (K i Hi) as (_ & _ & H). apply H. rewrite O. exact OG. }
  assert (P : forall b, Z.abs (cin b - cpast b) = 2) by (intros []; reflexivity).
  destruct CL as (CL & DI). pose proof (CL (e / 4) A4) as CA. destruct (K (e / 4) A4) as (RU & RS & _).
  pose proof W as W0. apply wf_ext in W0. destruct W0 as (Eu & _). apply ext_comp in Eu. destruct Eu as (_ & Du & _). destruct (Du (e / 4) A4) as (U & EU). rewrite Lu in EU. change (side 29) with 2 in EU.
  set (ua := vget (cv u) (e / 4)) in *. set (sa := vget (cv s) (e / 4)) in *.
  assert (U2 : 2 <= upto bt).
  { rewrite dist_axes in DI. assert (D2' : forall i, 0 <= i < 3 -> i <> e / 4 -> Z.abs (vget (cv u) i - vget (cv s) i) = 2).
    { intros i Hi N. destruct (KO i Hi N) as (b & _ & -> & ->). apply P. }
    clear - DI D2' A4. assert (C : e / 4 = 0 \/ e / 4 = 1 \/ e / 4 = 2) by lia. destruct C as [C|[C|C]]; rewrite C in D2'.
    - rewrite (D2' 1), (D2' 2) in DI by lia. lia.
    - rewrite (D2' 0), (D2' 2) in DI by lia. lia.
    - rewrite (D2' 0), (D2' 1) in DI by lia. lia. }
  split; [exact U2|]. set (a := if fl =? 0 then ua else 2 ^ 30 - 2 - ua). assert (Ra : 0 <= a < 2 ^ 30) by (unfold a; destruct Hfl as [->| ->]; cbn [Z.eqb]; lia).
  assert (Xa : exists X, a = X * 2) by (unfold a; destruct Hfl as [->| ->]; cbn [Z.eqb]; [exists U; exact EU|exists (2 ^ 29 - 1 - U); rewrite EU; change (2 ^ 30) with (2 ^ 29 * 2); ring]).
  exists a. split; [exact Ra|]. split; [exact Xa|]. destruct Xa as (X & EX). destruct (be_ext ne a X Hn EX Ra) as (Eb & Ob & Ab).
  assert (KD : forall i, 0 <= i < 3 -> Z.abs (vget (cv (transform_edge s e ne fl)) i - vget (cv (beyond_edge ne a)) i) = if i =? ne / 4 then Z.abs (ua - sa) else 2).
  { intros i Hi. rewrite (te_desc s e ne fl i He Hn Hi ltac:(lia)), be_cv by exact Hi. rewrite Ls. change (side 29) with 2. fold sa.
    destruct (i =? ne / 4) eqn:E.
    - rewrite (proj2 (og_edge ne i Hn Hi)) by lia. cbn [be_axis]. unfold a. destruct Hfl as [->| ->]; cbn [Z.eqb]; clear; lia.
    - destruct (og (edge_obj ne) i) as [b|] eqn:OG; [|apply og_edge in OG; auto; lia]. cbn [be_axis]. pose proof (P b) as Pb. destruct b; exact Pb. }
  split; [split|].
  - intros i A. rewrite KD by exact A. destruct (i =? ne / 4); [exact CA|auto].
  - rewrite dist_axes. rewrite dist_axes in DI.
    rewrite (three_axes (fun i => Z.abs (vget (cv (transform_edge s e ne fl)) i - vget (cv (beyond_edge ne a)) i)) (fun i => Z.abs (vget (cv u) i - vget (cv s) i)) (ne / 4) (e / 4) B4 A4); [exact DI| | |].
    + intros i Hi N. rewrite KD by exact Hi. destruct (i =? ne / 4) eqn:E; [lia|reflexivity].
    + intros i Hi N. destruct (KO i Hi N) as (b & _ & -> & ->). apply P.
    + rewrite KD by exact B4. rewrite Z.eqb_refl. reflexivity.
  - apply quad_cv; [rewrite te_level, Lu; reflexivity|]. intros i A. rewrite (te_desc (beyond_edge ne a) ne e fl i Hn He A ltac:(cbn; lia)), Ab. change (ql (beyond_edge ne a)) with 29. change (side 29) with 2.
    destruct (Z.eq_dec i (e / 4)) as [->|N].
    + rewrite (proj2 (og_edge e (e / 4) He A4) eq_refl). fold ua. unfold a. destruct Hfl as [->| ->]; cbn [Z.eqb]; clear; lia.
    + destruct (KO i A N) as (b & -> & -> & _). destruct b; reflexivity.
Qed.

Definition sym_ok (d : dim) (c : conn) (bt : ctype) : Prop := d = D3 -> bt <> CFace -> edges_once c.

Theorem touch_sym d c bt t u t' w : conn_is_valid d c = Some true -> 0 <= c_ne c -> 0 <= c_nc c -> sym_ok d c bt -> 0 <= t < c_nt c -> wf d u -> ql u = 29 ->
  touch d c bt t u t' w -> touch d c bt t' w t u.
Proof.
  intros V PE PC ON Ht W Lu (s & Es & Ls & CL & SN).
  destruct SN as [(O & -> & ->)|[(f & ft & Hf & O & FF & ->)|[(E3 & e & ets & ne & fl & He & O & FE & I & ->)|(k & cts & nc & Hk & O & FC & I & ->)]]].
  - exists u. split; [apply wf_ext in W; apply W|]. split; [exact Lu|]. split; [apply close_sym; exact CL|]. left. split; [|auto]. apply out_none; [apply wf_ext in W; apply W|exact W].
  - assert (B : beyond d f s). { apply out_beyond; auto. intros i A. destruct (close_axis d bt u s i W Lu Es Ls CL A) as (_ & R & _). clear - R. lia. }
    destruct (C45_faces_symmetric d c V t f Ht Hf) as [X|(nt & ft0 & nf & ft' & E & Rt & Rn & _ & _ & E' & H1 & H2)]; [congruence|]. rewrite FF in E. injection E as <- <-.
    destruct (conn_faces d c t V Ht f Hf) as [X|(nt' & nf' & o & E & _ & Rf & Ro & _)]; [congruence|]. rewrite FF in E. injection E as <- Eft.
    destruct (H2 u W) as (B2 & I2). exists (transform_face d u ft). destruct B2 as (Ex & B2'). pose proof (conj Ex B2' : beyond d nf (transform_face d u ft)) as B2.
    split; [exact Ex|]. split; [exact Lu|]. split.
    + apply close_sym. subst ft. apply tf_close; auto.
    + right. left. exists nf, ft'. split; [exact Rn|]. split; [apply beyond_out; auto|]. split; [exact E'|]. symmetry. exact I2.
  - subst d. destruct (conn_edges D3 c t V Ht PE eq_refl e He) as (ets' & E & RE). rewrite FE in E. injection E as <-. destruct (RE _ _ _ I) as (Rt & Rn).
    assert (U2 : bt <> CFace). { intros ->. destruct (edge_touch CFace u s e ne 0 W Lu Es Ls CL He Rn O ltac:(auto)) as (U & _). cbn in U. lia. }
    destruct (edge_sym c t e ets t' ne fl V PE (ON eq_refl U2) Ht He FE I) as (_ & _ & Hfl & _ & ae & ets' & _ & _ & _ & FE' & I').
    destruct (edge_touch bt u s e ne fl W Lu Es Ls CL He Rn O Hfl) as (_ & a & Ra & (X & EX) & CL' & EU).
    destruct (be_ext ne a X Rn EX Ra) as (Eb & Ob & _). exists (beyond_edge ne a). split; [exact Eb|]. split; [reflexivity|]. split; [exact CL'|].
    right. right. left. split; [reflexivity|]. exists ne, ets', e, fl. auto 10.
  - destruct (corner_u d bt u s k W Lu Es Ls CL O) as (EU & U). 
    destruct (corner_sym d c t k cts t' nc V PE PC) as (Rt & Rn & cts' & FC' & I'); auto.
    { intros E3. apply ON; [exact E3|]. intros ->. rewrite E3 in U. cbn in U. lia. }
    destruct (bc_ext d nc) as (Eb & Ob & Lb). exists (beyond_corner d nc). split; [exact Eb|]. split; [exact Lb|]. split; [rewrite tc_in by auto; apply corner_close; exact U|].
    right. right. right. exists nc, cts', k. split; [exact Rn|]. split; [exact Ob|]. split; [exact FC'|]. split; [exact I'|]. rewrite tc_in by auto. exact EU.
Qed.
