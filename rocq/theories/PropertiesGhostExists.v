(** * Properties of p4est_quadrant_exists: C62 *)

From Coq Require Import ZArith List Bool Lia Arith ZifyBool Sorting.Sorted.
From Verif Require Import Quad Spec Interval QuadLemmas CompareLemmas DescLemmas SearchLocal RegionLemmas RangeBoundLemmas PropertiesRangeBound PropertiesNeighbor
  Transform PropertiesTransform Conn ConnLemmas Partition PartLemmas PartTrees PartFinal Comm CommLemmas OwnerLemmas PropertiesOwner
  Ghost GhostSpec GhostState GhostGeom GhostOut GhostSteps GhostQuad GhostLoop GhostForest GhostSym GhostTouch PropertiesGhost PropertiesGhostExchange GhostFind PropertiesGhostFind.
Import ListNotations.
Open Scope Z_scope.

Lemma tc_wf_any d s k : ext d s -> 0 <= k < children d -> wf d (transform_corner d s k true) /\ ql (transform_corner d s k true) = ql s.
Proof.
  intros E Hk. split; [|reflexivity]. pose proof E as (L & _). unfold transform_corner. replace (ql s =? MAXLEVEL) with false by (change MAXLEVEL with 30; lia). cbv iota.
  pose proof (side_mul (ql s) ltac:(lia)) as SM. pose proof (side_pos (ql s) ltac:(lia)) as SP. pose proof (side_le (ql s) ltac:(lia)) as SL.
  set (a := Z.land k 1). set (b := Z.land (Z.shiftr k 1) 1). set (e := Z.shiftr k 2).
  assert (X : forall u : Z, let v := if u =? 0 then 0 else LAST_OFFSET (ql s) in (exists X, v = X * side (ql s)) /\ 0 <= v < 2 ^ 30).
  { intros u. cbv zeta. unfold LAST_OFFSET; rewrite QLEN_side by lia; change ROOT_LEN with (2 ^ 30). destruct (u =? 0); [split; [exists 0; lia|lia]|].
    split; [exists (2 ^ ql s - 1)|lia]. rewrite Z.mul_sub_distr_r. lia. }
  apply wf_comp. split.
  - split; [exact L|]. cbn [qx qy qz ql]. split; [apply X|]. split; [apply X|]. destruct d; cbn [is3]; [apply E|apply X].
  - intros i A. unfold axis in A. unfold cv, vget. cbn [qx qy qz]. destruct (i =? 0) eqn:E0; [apply X|]. destruct (i =? 1) eqn:E1; [apply X|].
    destruct d; cbn [nd] in A; [lia|]. cbn [is3]. apply X.
Qed.

(** a quadrant next to tree t, or in it, in the tree that it belongs to *)
Lemma seen_wf_any d c t s nt s' : conn_is_valid d c = Some true -> 0 <= t < c_nt c -> 0 <= c_ne c -> 0 <= c_nc c ->
  ext d s -> (forall i, axis d i -> - 2 ^ 30 <= vget (cv s) i < 2 ^ 31) -> seen_as d c t s nt s' -> wf d s' /\ ql s' = ql s /\ 0 <= nt < c_nt c.
Proof.
  intros V Ht PE PC Es R1 SN.
  destruct SN as [(O & -> & ->)|[(f & ft & Hf & O & FF & ->)|[(E3 & e & ets & ne & fl & He & O & FE & I & ->)|(k & cts & nc & Hk & O & FC & I & ->)]]].
  - split; [apply (out_none d s Es); exact O|]. auto.
  - destruct (conn_faces d c t V Ht f Hf) as [X|(nt' & nf & o & E & Rt & Rf & Ro & _)]; [congruence|]. rewrite FF in E. injection E as -> ->.
    split; [apply tf_wf; auto; apply out_beyond; auto|]. split; [rewrite (tf_level d f nf o); reflexivity|exact Rt].
  - destruct (conn_edges d c t V Ht PE E3 e He) as (ets' & E & RE). rewrite FE in E. injection E as <-. destruct (RE _ _ _ I) as (Rt & Rn).
    split; [apply te_wf3; auto; apply (out_along d s e E3 He O)|]. split; [rewrite te_level; reflexivity|exact Rt].
  - destruct (conn_corners d c t V Ht PE PC k Hk) as (cts' & E & RC). rewrite FC in E. injection E as <-. destruct (RC _ _ I) as (Rt & Rn).
    destruct (tc_wf_any d s nc Es Rn) as (W & L). auto.
Qed.

Section List.
  Variables (d : dim) (bsearch : list quad -> quad -> option nat) (c : conn) (gfp : list marker) (P rank : Z) (trees : Z -> list quad) (g : glayer) (t : Z) (q : quad).
  Hypothesis V : conn_is_valid d c = Some true.
  Hypothesis Ht : 0 <= t < c_nt c.
  Hypothesis PE : 0 <= c_ne c.
  Hypothesis PC : 0 <= c_nc c.
  Hypothesis Eq : ext d q.
  Let all := locate_all d bsearch gfp P rank trees g.
  Let seen (L : list (Z * quad)) : Prop := forall nt q', In (nt, q') L <-> seen_as d c t q nt q'.

  Lemma face_seen f : 0 <= f < faces d -> out d q = face_obj f -> exists L, seen L /\
    match find_face_transform d c t f with None => None | Some None => Some [] | Some (Some (nt, ft)) => all [(nt, transform_face d q ft)] end = all L.
  Proof.
    intros Hf O. destruct (conn_faces d c t V Ht f Hf) as [X|(nt & nf & o & E & _)].
    - rewrite X. exists []. split; [|reflexivity]. intros nt q'. split; [intros []|].
      intros [(O' & _)|[(f' & ft & Hf' & O' & FF & _)|[(E3 & e & ets & ne & fl & He & O' & _)|(k & cts & nc & Hk & O' & _)]]]; rewrite O in O'.
      + apply (f_equal dirs) in O'. rewrite dirs_face in O'. discriminate.
      + apply (face_inj d) in O'; auto. congruence.
      + apply (f_equal dirs) in O'. rewrite dirs_face, dirs_edge in O'. discriminate.
      + apply (f_equal dirs) in O'. rewrite dirs_face, dirs_corner in O'. destruct d; discriminate.
    - rewrite E. eexists. split; [|reflexivity]. intros nt' q'. split.
      + intros [X|[]]. injection X as <- <-. right. left. exists f, (expand_face_transform d f nf o). auto.
      + intros [(O' & _)|[(f' & ft & Hf' & O' & FF & ->)|[(E3 & e & ets & ne & fl & He & O' & _)|(k & cts & nc & Hk & O' & _)]]]; rewrite O in O'.
        * apply (f_equal dirs) in O'. rewrite dirs_face in O'. discriminate.
        * apply (face_inj d) in O'; auto. subst f'. rewrite E in FF. injection FF as <- <-. left. reflexivity.
        * apply (f_equal dirs) in O'. rewrite dirs_face, dirs_edge in O'. discriminate.
        * apply (f_equal dirs) in O'. rewrite dirs_face, dirs_corner in O'. destruct d; discriminate.
  Qed.

  Lemma edge_seen e : d = D3 -> 0 <= e < 12 -> out d q = edge_obj e -> exists L, seen L /\
    match find_edge_transform c t e with None => None | Some ets => all (map (fun x => let '(nt, ne, fl) := x in (nt, transform_edge q e ne fl)) ets) end = all L.
  Proof.
    intros E3 He O. destruct (conn_edges d c t V Ht PE E3 e He) as (ets & E & _). rewrite E. eexists. split; [|reflexivity]. intros nt q'. rewrite in_map_iff. split.
    - intros (((nt', ne), fl) & X & I). injection X as <- <-. right. right. left. split; [exact E3|]. exists e, ets, ne, fl. auto.
    - intros [(O' & _)|[(f' & ft & Hf' & O' & FF & ->)|[(_ & e' & ets' & ne & fl & He' & O' & FE & I & ->)|(k & cts & nc & Hk & O' & _)]]]; rewrite O in O'.
      + apply (f_equal dirs) in O'. rewrite dirs_edge in O'. discriminate.
      + apply (f_equal dirs) in O'. rewrite dirs_face, dirs_edge in O'. discriminate.
      + apply edge_inj in O'; auto. subst e'. rewrite E in FE. injection FE as <-. exists (nt, ne, fl). auto.
      + apply (f_equal dirs) in O'. rewrite dirs_edge, dirs_corner, E3 in O'. discriminate.
  Qed.

  Lemma corner_seen k : 0 <= k < children d -> out d q = corner_obj d k -> exists L, seen L /\
    match find_corner_transform d c t k with None => None | Some cts => all (map (fun x => (fst x, transform_corner d q (snd x) true)) cts) end = all L.
  Proof.
    intros Hk O. destruct (conn_corners d c t V Ht PE PC k Hk) as (cts & E & _). rewrite E. eexists. split; [|reflexivity]. intros nt q'. rewrite in_map_iff. split.
    - intros ((nt', nc) & X & I). injection X as <- <-. right. right. right. exists k, cts, nc. auto.
    - intros [(O' & _)|[(f' & ft & Hf' & O' & FF & ->)|[(E3 & e' & ets' & ne & fl & He' & O' & FE & I & ->)|(k' & cts' & nc & Hk' & O' & FC & I & ->)]]]; rewrite O in O'.
      + apply (f_equal dirs) in O'. rewrite dirs_corner in O'. destruct d; discriminate.
      + apply (f_equal dirs) in O'. rewrite dirs_face, dirs_corner in O'. destruct d; discriminate.
      + apply (f_equal dirs) in O'. rewrite dirs_edge, dirs_corner, E3 in O'. discriminate.
      + apply corner_inj in O'; auto. subst k'. rewrite E in FC. injection FC as <-. exists (nt, nc). auto.
  Qed.

  Lemma seen_list : exists L, seen L /\ quadrant_exists d bsearch c gfp P rank trees g t q = all L.
  Proof.
    unfold quadrant_exists. pose proof Eq as (Lq & _). replace (ql q =? -1) with false by lia. rewrite (inside_iff d q Eq).
    destruct (oeqb (out d q) (None, None, None)) eqn:EO.
    { exists [(t, q)]. split; [|reflexivity].
      assert (O : out d q = (None, None, None)). { unfold oeqb in EO. destruct (out d q) as ((a, b), e). destruct a as [[]|], b as [[]|], e as [[]|]; try discriminate EO; reflexivity. }
      intros nt q'. split.
      - intros [X|[]]. injection X as <- <-. left. auto.
      - intros [(_ & -> & ->)|[(f' & ft & Hf' & O' & FF & ->)|[(E3 & e' & ets' & ne & fl & He' & O' & FE & I & ->)|(k' & cts' & nc & Hk' & O' & FC & I & ->)]]]; [left; reflexivity|exfalso..]; rewrite O in O'; apply (f_equal dirs) in O'.
        + rewrite dirs_face in O'. discriminate.
        + rewrite dirs_edge in O'. discriminate.
        + rewrite dirs_corner in O'. destruct d; discriminate. }
    cbv zeta. fold all.
    assert (AX : forall a, ((a <? 0) = true /\ (ROOT_LEN <=? a) = false /\ out_axis a = Some false) \/ ((a <? 0) = false /\ (ROOT_LEN <=? a) = true /\ out_axis a = Some true) \/
      ((a <? 0) = false /\ (ROOT_LEN <=? a) = false /\ out_axis a = None)).
    { intros a. unfold out_axis. change ROOT_LEN with (2 ^ 30). destruct (a <? 0) eqn:A1, (2 ^ 30 <=? a) eqn:A2; auto. lia. }
    assert (EO' : out d q <> (None, None, None)) by (intros X; rewrite X in EO; discriminate EO). clear EO. pose proof face_seen as FS. pose proof edge_seen as ES. pose proof corner_seen as CS. unfold out in *.
    destruct (AX (qx q)) as [(X1 & X2 & X3)|[(X1 & X2 & X3)|(X1 & X2 & X3)]]; destruct (AX (qy q)) as [(Y1 & Y2 & Y3)|[(Y1 & Y2 & Y3)|(Y1 & Y2 & Y3)]]; rewrite X1, X2, Y1, Y2; rewrite X3, Y3 in *;
      destruct d; cbn [is3 andb orb negb b2z]; try (exfalso; apply EO'; reflexivity);
      try (first [apply FS; [cbn; lia|reflexivity] | apply CS; [cbn; lia|reflexivity]]; fail);
      destruct (AX (qz q)) as [(Z1 & Z2 & Z3)|[(Z1 & Z2 & Z3)|(Z1 & Z2 & Z3)]]; rewrite Z1, Z2; rewrite Z3 in *; cbn [is3 andb orb negb b2z]; try (exfalso; apply EO'; reflexivity);
      first [apply FS; [cbn; lia|reflexivity] | apply ES; [reflexivity|cbn; lia|reflexivity] | apply CS; [cbn; lia|reflexivity]].
  Qed.
End List.

Lemma locate_all_spec d bsearch gfp P rank trees g (Q : found -> Prop) L :
  (forall t q, In (t, q) L -> exists x, locate d bsearch gfp P rank trees g t q = Some x /\ x_tree x = t /\ x_quad x = q /\ Q x) ->
  exists xs, locate_all d bsearch gfp P rank trees g L = Some xs /\ map (fun x => (x_tree x, x_quad x)) xs = L /\ Forall Q xs.
Proof.
  induction L as [|(t, q) L IH]; intros H; [exists []; repeat split; constructor|]. destruct (H t q (or_introl eq_refl)) as (x & E & Et & Eq & Qx). destruct IH as (xs & Es & Em & Qs); [intros; apply H; right; assumption|].
  exists (x :: xs). cbn [locate_all]. rewrite E, Es. split; [reflexivity|]. cbn [map]. rewrite Et, Eq, Em. split; [reflexivity|]. constructor; assumption.
Qed.

Lemma loc_sorted_tree d (trees : Z -> list quad) n : forall s t, s <= t < s + Z.of_nat n -> StronglySorted (fun x y => tend d (fst x) (snd x) <= tpos d (fst y) (snd y)) (loc_from s n trees) ->
  StronglySorted (fun x y => qend d x <= qpos d y) (trees t).
Proof.
  intros s t Ht SO. assert (SB : sub (map (pair t) (trees t)) (loc_from s n trees)).
  { clear SO. revert s Ht. induction n as [|n IH]; intros s Ht; [lia|]. cbn [loc_from]. destruct (Z.eq_dec s t) as [->|NE].
    - rewrite <- (app_nil_r (map (pair t) (trees t))) at 1. apply sub_app; [generalize (map (pair t) (trees t)) as l; induction l; constructor; assumption|]. generalize (loc_from (t + 1) n trees) as l. induction l; constructor; assumption.
    - change (map (pair t) (trees t)) with ([] ++ map (pair t) (trees t)). apply sub_app; [|apply IH; lia]. generalize (map (pair s) (trees s)) as l. induction l; constructor; assumption. }
  pose proof (sub_sorted _ _ _ SB SO) as SL. clear - SL. induction (trees t) as [|x l IH]; [constructor|]. cbn [map] in SL. apply StronglySorted_inv in SL. destruct SL as (SL & F). constructor; [apply IH; exact SL|].
  rewrite Forall_forall in *. intros y Hy. specialize (F (t, y) (in_map (pair t) _ _ Hy)). unfold tend, tpos in F. cbn [fst snd] in F. lia.
Qed.

(** C62: p4est_quadrant_exists after p4est_ghost_new, on every rank of a complete forest.  The
    quadrant q is given in the coordinates of tree t and may be outside of it.  There is one
    entry for each quadrant of a tree that q is seen as: q itself inside of the tree, else its
    images across the face, edge or corner of the tree.  The entry has the rank with the leaf at
    the first corner of the image; its number is -1 unless the image is a local leaf, and then
    it is its number in the local tree, or a leaf of another rank that touches a local one, and
    then it is its number in the ghost layer.  Partial: as for C60. *)
Theorem C62_quadrant_exists_partial : forall d c bt (ranks : list (rk quad)) bsearch, let T := c_nt c in
  conn_is_valid d c = Some true -> 0 <= T -> 0 <= c_ne c -> 0 <= c_nc c ->
  forest_ok d qid T ranks -> covers d qid 0 (T * TREE d) (glob T ranks) ->
  no_single T ranks -> bt = CFace \/ joined d c -> (d = D3 -> bt <> CFace -> edges_once c) ->
  bsearch_cmp_ok d bsearch ->
  exists ms bufs, global_partition qid T ranks = Some ms /\ zlen bufs = zlen ranks /\
  (forall rank r, zget ranks rank = Some r -> exists m mto,
     ghost_send d c ms (zlen ranks) rank bt (k_first _ r) (k_last _ r) (k_trees _ r) = Some (m, mto) /\ zget bufs rank = Some (m_bufs m)) /\
  forall rank r, zget ranks rank = Some r -> exists ghosts po,
    ghost_exchange bufs rank = Some (ghosts, po) /\ let g := mkgl ghosts po (tree_offsets T ghosts) in
    forall t q, 0 <= t < T -> ext d q -> (forall i, axis d i -> - 2 ^ 30 <= vget (cv q) i < 2 ^ 31) ->
    exists xs, quadrant_exists d bsearch c ms (zlen ranks) rank (k_trees _ r) g t q = Some xs /\
      (forall nt q', In (nt, q') (map (fun x => (x_tree x, x_quad x)) xs) <-> seen_as d c t q nt q') /\
      forall x, In x xs ->
        (exists r' b, zget ranks (x_proc x) = Some r' /\ In (x_tree x, b) (loc T r') /\ inq d b (qx (x_quad x)) (qy (x_quad x)) (qz (x_quad x))) /\
        (x_num x <> -1 <-> In (x_tree x, x_quad x) (loc T r) \/ remote_leaf d c bt ranks rank (-1) (x_tree x) (x_quad x)) /\
        (x_num x <> -1 -> x_proc x = rank -> zget (k_trees _ r (x_tree x)) (x_num x) = Some (x_quad x)) /\
        (x_num x <> -1 -> x_proc x <> rank -> exists y, zget ghosts (x_num x) = Some y /\ g_t y = x_tree x /\ g_q y = x_quad x).
Proof.
  intros d c bt ranks bsearch T V HT PE PC HF HC NS HJ SO BS.
  destruct (C61_forest_search_partial d c bt ranks bsearch (brange_c d) V HT PE PC HF HC NS HJ SO BS (brange_c_ok d)) as (ms & bufs & EM & LB & SE & H).
  exists ms, bufs. split; [exact EM|]. split; [exact LB|]. split; [exact SE|].
  intros rank r Er. destruct (H rank r Er) as (ghosts & po & EX & OK & SR). fold T in OK, SR. exists ghosts, po. split; [exact EX|]. cbv zeta. set (g := mkgl ghosts po (tree_offsets T ghosts)) in *.
  intros t q Ht Eq R. destruct (seen_list d bsearch c ms (zlen ranks) rank (k_trees _ r) g t q V Ht PE PC Eq) as (L & SL & EL). rewrite EL.
  destruct (forest_markers d T ranks HF HC) as (ms' & EM' & Lm & MW & MI & MM & MB & ME & _ & BND). change (global_partition qid T ranks = Some ms) in EM. rewrite EM in EM'. injection EM' as <-.
  destruct (skipn_zget ranks rank r Er) as (Hrank & SK).
  set (Q := fun x => (exists r' b, zget ranks (x_proc x) = Some r' /\ In (x_tree x, b) (loc T r') /\ inq d b (qx (x_quad x)) (qy (x_quad x)) (qz (x_quad x))) /\
        (x_num x <> -1 <-> In (x_tree x, x_quad x) (loc T r) \/ remote_leaf d c bt ranks rank (-1) (x_tree x) (x_quad x)) /\
        (x_num x <> -1 -> x_proc x = rank -> zget (k_trees _ r (x_tree x)) (x_num x) = Some (x_quad x)) /\
        (x_num x <> -1 -> x_proc x <> rank -> exists y, zget ghosts (x_num x) = Some y /\ g_t y = x_tree x /\ g_q y = x_quad x)).
  destruct (locate_all_spec d bsearch ms (zlen ranks) rank (k_trees _ r) g Q L) as (xs & Exs & Em & FQ).
  2: { exists xs. split; [exact Exs|]. split; [intros nt q'; rewrite Em; apply SL|]. rewrite Forall_forall in FQ. exact FQ. }
  intros nt q' I. apply SL in I. destruct (seen_wf_any d c t q nt q' V Ht PE PC Eq R I) as (W & _ & Rt). clear I. pose proof (wf_level d q' W) as Lv.
  destruct (first_descendant_wf d q' 29 W ltac:(lia)) as (Wu & Lu & _ & Pu). set (u := first_descendant d q' 29) in *.
  assert (IU : inq d u (qx q') (qy q') (qz q')) by (exact (BalanceGeom.crn_self d u Wu)).
  assert (UB : forall b, wf d b -> (forall x y z, inq d u x y z -> inq d b x y z) -> inq d b (qx q') (qy q') (qz q')) by (intros b _ K; apply K; exact IU).
  pose proof (qpos_range d q') as RQ. pose proof (tree_pos d) as TP.
  destruct (find_owner_spec d ms (zlen ranks) ltac:(lia) Lm MI nt q' rank (wf_qin d q' W) Hrank) as (p & EF & Hp & Op).
  { rewrite MB, ME. unfold tpos. fold T in Rt. assert (0 <= nt * TREE d) by (apply Z.mul_nonneg_nonneg; lia). assert ((nt + 1) * TREE d <= T * TREE d) by (apply Z.mul_le_mono_nonneg_r; lia). lia. }
  assert (OU : owns d ms p nt u) by (unfold owns, tpos in *; rewrite Pu; exact Op).
  destruct (proj1 (owns_leaf d T ranks HF HC ms EM p nt u Rt Wu Lu) (conj Hp OU)) as (r' & b & Ep & Ib & Kb).
  assert (X1 : exists r' b, zget ranks p = Some r' /\ In (nt, b) (loc T r') /\ inq d b (qx q') (qy q') (qz q')) by (exists r', b; auto).
  (** a rank with the leaf q' is p *)
  assert (LP : forall p1 r1, zget ranks p1 = Some r1 -> In (nt, q') (loc T r1) -> p1 = p).
  { intros p1 r1 E1 I1. destruct (proj2 (owns_leaf d T ranks HF HC ms EM p1 nt u Rt Wu Lu)) as (Hp1 & O1).
    - exists r1, q'. split; [exact E1|]. split; [exact I1|]. apply within_points; auto. unfold within. rewrite Pu. split; [lia|]. unfold qend. rewrite Pu. unfold qsize. rewrite Lu.
      apply Z.add_le_mono_l. apply Z.pow_le_mono_r; [lia|]. apply Z.mul_le_mono_nonneg_l; [destruct d; cbn; lia|lia].
    - apply (owner_unique d ms (zlen ranks) MM (tpos d nt u)); auto. }
  unfold locate. rewrite EF. destruct (p =? rank) eqn:EP.
  - assert (p = rank) by lia. subst p. eexists. split; [reflexivity|]. split; [reflexivity|]. split; [reflexivity|]. unfold Q. cbn [x_proc x_tree x_quad x_num]. split; [exact X1|].
    assert (ST : StronglySorted (fun x y => qend d x <= qpos d y) (k_trees _ r nt)).
    { apply (loc_sorted_tree d (k_trees _ r) (Z.to_nat T) 0 nt); [fold T in Rt; lia|]. pose proof (skip_sorted d qid T ranks HF (Z.to_nat rank)) as SS. rewrite SK in SS. unfold glob in SS. cbn [flat_map] in SS. fold (loc T r).
      revert SS. generalize (loc T r) as l. generalize (flat_map (loc T) (skipn (Z.to_nat (rank + 1)) ranks)) as l'. clear. induction l as [|x l IH]; intros SS; [constructor|]. cbn [app] in SS. apply StronglySorted_inv in SS. destruct SS as (SS & F). constructor; [apply IH; exact SS|].
      rewrite Forall_forall in *. intros y Hy. apply F. apply in_or_app. left. exact Hy. }
    assert (IL : forall x, In x (k_trees _ r nt) <-> In (nt, x) (loc T r)) by (intros x; unfold loc; rewrite in_loc_from; fold T in Rt; split; [intros; split; [lia|assumption]|tauto]).
    assert (WT : forall x, In x (k_trees _ r nt) -> wf d x) by (intros x Hx; apply (proj1 (proj2 HF) (nt, x)); apply (in_glob T ranks rank r _ Er); apply IL; exact Hx).
    pose proof (bsearch_spec d g bsearch BS (k_trees _ r nt) q' ST WT W) as B.
    assert (NR : ~ remote_leaf d c bt ranks rank (-1) nt q'). { intros (p' & r0 & r1 & _ & E1 & N & _ & I1 & _). apply N. apply (LP p' r1 E1 I1). }
    destruct (bsearch (k_trees _ r nt) q') as [i|].
    + split; [split; [intros _; left; apply IL; eapply nth_error_In; exact B|lia]|]. split; [|congruence]. intros _ _. rewrite zget_nth by lia. rewrite Nat2Z.id. exact B.
    + split; [|split; congruence]. split; [congruence|]. intros [I|I]; [exfalso; apply B; apply IL; exact I|contradiction].
  - assert (NP : p <> rank) by lia. destruct (SR p nt q' (or_intror Hp) Rt W) as ((i & Ei & IFF & XI) & _). rewrite Ei. eexists. split; [reflexivity|]. split; [reflexivity|]. split; [reflexivity|]. unfold Q. cbn [x_proc x_tree x_quad x_num]. split; [exact X1|].
    split; [|split; [congruence|intros N _; apply XI; exact N]]. rewrite IFF. split.
    + intros (p' & r0 & r1 & E0 & E1 & N & PP & K). right. exists p', r0, r1. split; [exact E0|]. split; [exact E1|]. split; [exact N|]. split; [left; reflexivity|exact K].
    + intros [I|(p' & r0 & r1 & E0 & E1 & N & PP & I1 & K)]; [exfalso; apply NP; symmetry; apply (LP rank r Er I)|]. exists p', r0, r1. split; [exact E0|]. split; [exact E1|]. split; [exact N|]. split; [right; symmetry; apply (LP p' r1 E1 I1)|]. split; assumption.
Qed.

(** rank 1 of C60_ex; quadrants of tree 0: a ghost, a local leaf, beyond the domain, across a
    face; then of tree 1: a leaf of another rank that is not a ghost, and across a face a leaf
    of another rank that is not a ghost, a local leaf, a ghost *)
Definition e_exists (rank t : Z) (q : quad) : option (list (Z * Z * Z)) :=
  match zget g_ranks rank, global_partition qid 2 g_ranks with
  | Some r, Some ms => match quadrant_exists D2 (bsearch_c D2) g_conn ms 6 rank (k_trees _ r) (f_layer rank) t q with
                       | Some xs => Some (map (fun x => (x_proc x, x_tree x, x_num x)) xs)
                       | None => None
                       end
  | _, _ => None
  end.
Example C62_ex :
  map (e_exists 1 0) [mkq 0 (2 ^ 29) 0 1; mkq (2 ^ 29) 0 0 1; mkq 0 (2 ^ 30) 0 1; mkq (2 ^ 30) 0 0 1] =
    [Some [(2, 0, 0)]; Some [(1, 0, 1)]; Some []; Some [(4, 1, 4)]] /\
  map (e_exists 1 1) [mkq (2 ^ 29) 0 0 1; mkq (- 2 ^ 28) 0 0 2; mkq (- 2 ^ 29) (2 ^ 29) 0 1; mkq (- 2 ^ 28) (2 ^ 28) 0 2] =
    [Some [(4, 1, -1)]; Some [(2, 0, -1)]; Some [(1, 0, 1)]; Some [(2, 0, 2)]].
Proof. vm_compute. split; reflexivity. Qed.

Print Assumptions C62_quadrant_exists_partial.
