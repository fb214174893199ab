(** * Lemmas about p4est_is_valid *)

From Coq Require Import ZArith List Bool Lia Arith ZifyBool Sorting.Sorted.
From Verif Require Import Quad Spec Morton ZBits Interval QuadLemmas CompareLemmas DescLemmas SuccLemmas Search Adapt AdaptSpec Tree TreeLemmas ListLemmas RefineLemmas CoarsenProps Tiles Partition PartLemmas PartTrees PartRecv PartFinal PartShip Comm CommLemmas OwnerLemmas Cut PropertiesOwner PropertiesPartition Weighted Forest ForestSpec ForestLemmas ForestAdapt PropertiesForest Inflate InflateLemmas Valid.
Import ListNotations.
Open Scope Z_scope.

Lemma andthen_true a b : andthen a b = Some true <-> a = Some true /\ b = Some true.
Proof. destruct a as [[]|]; cbn; split; try tauto; intros H; try discriminate H; destruct H; discriminate. Qed.
Lemma defined_true b : defined b = Some true <-> b = true.
Proof. destruct b; cbn; split; congruence. Qed.
Lemma some_true b : Some b = Some true <-> b = true.
Proof. split; congruence. Qed.

Lemma level_sums_spec pl : (forall i, 0 <= pl i) -> forall n k a m,
  level_sums pl (map Z.of_nat (seq k n)) a m = Some (a + fold_left (fun s i => s + pl (Z.of_nat i)) (seq k n) 0, fold_left (fun m i => if pl (Z.of_nat i) >? 0 then Z.of_nat i else m) (seq k n) m).
Proof.
  intros HP. assert (G : forall l a, fold_left (fun s i => s + pl (Z.of_nat i)) l a = a + fold_left (fun s i => s + pl (Z.of_nat i)) l 0).
  { induction l as [|i l IH]; intros a; cbn [fold_left]; [lia|]. rewrite IH. rewrite (IH (0 + _)). lia. }
  induction n as [|n IH]; intros k a m; cbn [seq map level_sums fold_left]; [f_equal; f_equal; lia|].
  pose proof (HP (Z.of_nat k)). replace (pl (Z.of_nat k) <? 0) with false by lia. rewrite IH. f_equal. f_equal. rewrite (G _ (0 + _)). lia.
Qed.

Lemma sum_level_eq pl : sum_level pl = fold_left (fun s i => s + pl (Z.of_nat i)) (seq 0 30) 0.
Proof. reflexivity. Qed.
Lemma max_level_eq pl : max_level pl = fold_left (fun m i => if pl (Z.of_nat i) >? 0 then Z.of_nat i else m) (seq 0 30) 0.
Proof. reflexivity. Qed.
Lemma zseq_30 : zseq 0 30 = map Z.of_nat (seq 0 30).
Proof. reflexivity. Qed.
Lemma level_sums_nlev {D} (pl : Z -> Z) (l : list (quad * D)) : (forall i, pl i = nlev i l) -> Forall (fun x => 0 <= ql (fst x) <= 29) l ->
  level_sums pl (zseq 0 30) 0 0 = Some (zlen l, maxlev l).
Proof.
  intros HP F. rewrite zseq_30. rewrite level_sums_spec by (intros i; rewrite HP; unfold nlev; lia).
  rewrite <- sum_level_eq, <- max_level_eq. rewrite (sum_level_ext _ _ HP), (max_level_ext _ _ HP), (sum_nlev l F), (max_nlev l F). reflexivity.
Qed.

Lemma glue M a x b y : 0 < M -> 0 < x <= M -> 0 <= y < M -> a * M + x = b * M + y -> b = a /\ y = x \/ b = a + 1 /\ y = 0 /\ x = M.
Proof.
  intros HM HX HY E. assert (K : (b - a) * M = x - y) by lia. destruct (Z_le_gt_dec (b - a) (-1)) as [L|G]; [|destruct (Z_le_gt_dec 2 (b - a)) as [L'|G']].
  - assert ((b - a) * M <= -1 * M) by (apply Z.mul_le_mono_nonneg_r; lia). lia.
  - assert (2 * M <= (b - a) * M) by (apply Z.mul_le_mono_nonneg_r; lia). lia.
  - assert (C : b - a = 0 \/ b - a = 1) by lia. destruct C as [C|C]; rewrite C in K; [left|right]; lia.
Qed.

Section Geo.
  Variable d : dim.

  Lemma qpos_0 q : wf d q -> qpos d q = 0 -> coords0 d q = true.
  Proof.
    intros W E. assert (Z0 : qin d (mkq 0 0 0 0)) by (unfold qin, inroot; destruct d; cbn; lia).
    assert (E0 : qpos d (mkq 0 0 0 0) = 0) by (destruct d; vm_compute; reflexivity).
    destruct (ppos_inj d (qx q) (qy q) (qz q) 0 0 0 (wf_qin d q W) Z0) as (A & B & C); [exact (eq_trans E (eq_sym E0))|].
    unfold coords0. rewrite A, B. destruct d; [reflexivity|]. rewrite C. reflexivity.
  Qed.

  Lemma last_desc_end q : wf d q -> qend d q = TREE d ->
    let s := last_descendant d q QMAXLEVEL in let mh := QLEN QMAXLEVEL in
    (qx s + mh =? ROOT_LEN) && (qy s + mh =? ROOT_LEN) && (negb (is3 d) || (qz s + mh =? ROOT_LEN)) = true.
  Proof.
    intros W E s mh. pose proof (wf_level d q W) as L. destruct (last_descendant_wf d q 29 W ltac:(lia)) as (Ws & Ls & _ & Es). change 29 with QMAXLEVEL in Ws, Ls, Es. fold s in Ws, Ls, Es.
    set (e := mkq (2 ^ 30 - 2) (2 ^ 30 - 2) (if is3 d then 2 ^ 30 - 2 else 0) 29).
    assert (We : wf d e) by (unfold e; destruct d; apply is_valid_wf; vm_compute; auto).
    assert (Ee : qend d e = TREE d) by (unfold e; destruct d; vm_compute; reflexivity).
    assert (EQ : s = e).
    { apply (quad_eq d); [exact Ws|exact We| |rewrite Ls; reflexivity]. unfold qend in Es, Ee, E. assert (X : qsize d s = qsize d e) by (rewrite !qsize_psize, Ls; reflexivity). lia. }
    rewrite EQ. unfold e. destruct d; vm_compute; reflexivity.
  Qed.

  (** the first and the last quadrant of a tree are in its range *)
  Lemma in_range_ok q r lo hi : wf d q -> wf d r -> qpos d lo <= qpos d q -> qend d q <= qend d hi -> wf d lo -> wf d hi -> r = q ->
    in_range d (first_descendant d lo QMAXLEVEL) (last_descendant d hi QMAXLEVEL) r = true.
  Proof.
    intros W _ A B Wl Wh ->. pose proof (wf_level d q W) as L. pose proof (wf_level d hi Wh) as Lh. pose proof (wf_level d lo Wl) as Ll.
    destruct (last_descendant_wf d q 29 W ltac:(lia)) as (W1 & L1 & _ & E1). destruct (last_descendant_wf d hi 29 Wh ltac:(lia)) as (W2 & L2 & _ & E2).
    destruct (first_descendant_wf d lo 29 Wl ltac:(lia)) as (W3 & L3 & _ & E3). change 29 with QMAXLEVEL in *.
    unfold in_range. apply andb_true_intro. split; [apply andb_true_intro; split|].
    - apply is_valid_wf. exact W.
    - destruct (compare_qin d (first_descendant d lo QMAXLEVEL) q (wf_qin d _ W3) (wf_qin d q W)) as (_ & C).
      rewrite (coords_differ_spec d _ q (wf_qin d _ W3) (wf_qin d q W)).
      apply negb_true_iff, andb_false_iff. destruct (compare d (first_descendant d lo QMAXLEVEL) q >? 0) eqn:E; [right|left; reflexivity].
      destruct C as (C & _). specialize (C ltac:(lia)). lia.
    - destruct (compare_qin d (last_descendant d q QMAXLEVEL) (last_descendant d hi QMAXLEVEL) (wf_qin d _ W1) (wf_qin d _ W2)) as (_ & C).
      apply negb_true_iff. destruct (compare d (last_descendant d q QMAXLEVEL) (last_descendant d hi QMAXLEVEL) >? 0) eqn:E; [|reflexivity].
      destruct C as (C & _). specialize (C ltac:(lia)). exfalso. unfold qend in *. assert (X : qsize d (last_descendant d q QMAXLEVEL) = qsize d (last_descendant d hi QMAXLEVEL)) by (rewrite !qsize_psize, L1, L2; reflexivity). lia.
  Qed.

  Lemma lev_ok_wf q : wf d q -> lev_ok q = true.
  Proof. intros W. pose proof (wf_level d q W). unfold lev_ok, MAXLEVEL. lia. Qed.

  Lemma complete_chk_wf l : Forall (wf d) l -> tree_complete_chk d l = Some (tree_is_complete d l).
  Proof.
    unfold tree_complete_chk, tree_is_complete. destruct l as [|q l]; [reflexivity|]. revert q. induction l as [|r l IH]; intros q F; [reflexivity|].
    inversion F as [|? ? W F']; subst. inversion F' as [|? ? W' _]; subst. cbn [complete_chk]. unfold next_chk. rewrite !lev_ok_wf by assumption. cbn [andb defined andthen].
    specialize (IH r F'). unfold adjacents in *. cbn [adjacent]. destruct (is_next d q r); cbn [andthen andb]; [exact IH|reflexivity].
  Qed.
End Geo.

Lemma covers_split {A} d (qof : A -> quad) : forall l1 l2 a b, covers d qof a b (l1 ++ l2) -> exists c, covers d qof a c l1 /\ covers d qof c b l2.
Proof.
  induction l1 as [|x l1 IH]; intros l2 a b H; cbn [app covers] in *; [exists a; split; [reflexivity|exact H]|]. destruct H as (H & H'). destruct (IH _ _ _ H') as (c & A1 & A2). exists c. split; [split; [exact H|exact A1]|exact A2].
Qed.
Lemma covers_last {A} d (qof : A -> quad) : forall l x a c, covers d qof a c (l ++ [x]) -> c = tend d (fst x) (qof (snd x)).
Proof. induction l as [|y l IH]; intros x a c H; cbn [app covers] in H; [symmetry; apply H|]. destruct H as (_ & H). apply IH in H. exact H. Qed.

Lemma loc_last {A} T (r : rk A) : rk_ok T r -> 0 <= k_first A r ->
  exists a l l', k_trees A r (k_last A r) = a :: l /\ loc T r = l' ++ [(k_last A r, last l a)].
Proof.
  intros [(H & _)|(H1 & H2 & N)] Hf; [lia|].
  destruct (k_trees A r (k_last A r)) as [|a l] eqn:E.
  { exfalso. apply (proj2 (N (k_last A r))); [lia|exact E]. }
  exists a, l. unfold loc. replace (Z.to_nat T) with (Z.to_nat (k_last A r) + S (Z.to_nat (T - k_last A r - 1)))%nat by lia.
  rewrite loc_from_app. cbn [loc_from]. replace (0 + Z.of_nat (Z.to_nat (k_last A r))) with (k_last A r) by lia. rewrite E.
  rewrite (loc_from_nil _ (Z.to_nat _) (k_last A r + 1)).
  - rewrite app_nil_r. destruct (exists_last (l := a :: l) ltac:(discriminate)) as (l' & y & EL). exists (loc_from 0 (Z.to_nat (k_last A r)) (k_trees A r) ++ map (pair (k_last A r)) l'). split; [reflexivity|].
    rewrite EL, map_app, app_assoc. cbn [map]. do 2 f_equal. f_equal. transitivity (last (a :: l) a); [rewrite EL, last_last; reflexivity|]. destruct l; [reflexivity|]. cbn [last]. destruct l; reflexivity || reflexivity.
  - intros t Ht. destruct (k_trees A r t) as [|z w] eqn:EE; [reflexivity|]. exfalso. assert (k_trees A r t <> []) by congruence. apply N in H. lia.
Qed.

Section Accept.
  Variable d : dim.
  Variables (St D : Type).
  Variable T : Z.
  Hypothesis HT : 0 < T.
  Local Notation proc := (proc St D).
  Local Notation forest := (forest St D).
  Local Notation lvs := (lvs St D).

  Lemma lvs_nonempty_in p t : rk_ok T (rk_of St D p) -> lvs p t <> [] -> 0 <= pr_first _ _ p <= t /\ t <= pr_last _ _ p < T.
  Proof.
    intros [(_ & _ & N)|(H1 & H2 & N)] NE; cbn [rk_of k_trees k_first k_last] in *.
    - exfalso. apply NE. apply N.
    - apply N in NE. lia.
  Qed.

  Lemma check_tree_ok p jt : proc_ok d St D T p -> 0 <= jt < T -> (exists a b, tiles d a b (map fst (lvs p jt))) ->
    check_tree d St D p jt (lvs_before St D p jt) = Some true.
  Proof.
    intros (RK & PN & PT) HJ (a & b & TI). destruct (PT jt HJ) as (P1 & P2 & P3 & P4). unfold check_tree. cbv zeta in P1, P2, P3, P4. unfold lvs in P1, P2, P3, P4, TI.
    set (x := pr_trees St D p jt) in *. pose proof (tiles_wf d _ _ _ TI) as W. rewrite !andthen_true. repeat split.
    - rewrite P1, Z.eqb_refl. reflexivity.
    - rewrite complete_chk_wf by exact W. f_equal. apply gapfree_complete; [exact W|]. eapply tiles_gapfree. exact TI.
    - pose proof (lvs_nonempty_in p jt RK) as IN. unfold lvs in IN. fold x in IN. destruct (t_leaves D (ft D x)) as [|lf l] eqn:EL; cbn [descs_ok] in P4.
      + destruct P4 as (-> & ->). reflexivity.
      + destruct P4 as (-> & ->). specialize (IN ltac:(discriminate)). rewrite !andthen_true. repeat split.
        * f_equal. lia.
        * f_equal. unfold is_equal. rewrite !Z.eqb_refl. destruct d; reflexivity.
        * apply defined_true. apply (lev_ok_wf d). rewrite Forall_forall in W. apply W. apply in_map. clear. revert lf. induction l as [|y l IH]; intros lf; [left; reflexivity|]. right. rewrite last_cons_any. apply IH.
        * f_equal. unfold is_equal. rewrite !Z.eqb_refl. destruct d; reflexivity.
    - rewrite (level_sums_nlev _ (t_leaves D (ft D x))); [f_equal; rewrite P3, !Z.eqb_refl; reflexivity|exact P2|].
      rewrite Forall_forall in *. intros y I. apply (wf_level d). apply W. apply in_map. exact I.
  Qed.

  Lemma check_trees_ok p : proc_ok d St D T p -> (forall t, 0 <= t < T -> exists a b, tiles d a b (map fst (lvs p t))) ->
    forall n jt, 0 <= jt -> jt + Z.of_nat n = T -> check_trees d St D p n jt (lvs_before St D p jt) = Some true.
  Proof.
    intros PO TI. induction n as [|n IH]; intros jt H0 HN; cbn [check_trees].
    - destruct PO as (_ & PN & _). rewrite PN. replace jt with T by lia. rewrite Z.eqb_refl. reflexivity.
    - apply andthen_true. split; [apply check_tree_ok; [exact PO|lia|apply TI; lia]|].
      assert (E : lvs_before St D p (jt + 1) = lvs_before St D p jt + zlen (t_leaves D (ft D (pr_trees St D p jt)))) by (rewrite !before_cnt; apply cnt_step; lia).
      rewrite <- E. apply IH; lia.
  Qed.

  Lemma last_in {A} (l : list A) : forall y, In (last l y) (y :: l).
  Proof. induction l as [|x l IH]; intros y; [left; reflexivity|]. rewrite last_cons_any. right. apply IH. Qed.

  Lemma gfp_zget F k : forest_ok d St D T F -> 0 <= k <= zlen (f_procs _ _ F) ->
    zget (f_gfp _ _ F) k = Some (mark_hd fst T (all_leaves St D T (skipn (Z.to_nat k) (f_procs _ _ F)))).
  Proof.
    intros OK HK. pose proof (forest_dist d St D T HT F OK) as (RK & _). destruct (global_partition_spec (@fst quad D) T _ RK) as (ms & EM & LM & N). destruct OK as (_ & _ & _ & _ & _ & _ & GG). rewrite GG in EM. injection EM as <-.
    rewrite zget_nth by lia. rewrite N by (rewrite map_length; unfold zlen in HK; lia). rewrite skipn_map, (all_glob St D T). reflexivity.
  Qed.

  Lemma rank_split F k p : zget (f_procs St D F) k = Some p ->
    all_leaves St D T (f_procs _ _ F) = all_leaves St D T (firstn (Z.to_nat k) (f_procs _ _ F)) ++ rank_leaves St D T p ++ all_leaves St D T (skipn (Z.to_nat (k + 1)) (f_procs _ _ F)).
  Proof.
    intros E. destruct (skipn_zget _ _ _ E) as (B & E2). rewrite <- (firstn_skipn (Z.to_nat k) (f_procs _ _ F)) at 1. rewrite E2. unfold all_leaves. rewrite flat_map_app. cbn [flat_map]. reflexivity.
  Qed.

  Lemma rank_tiles F p t : forest_ok d St D T F -> In p (f_procs _ _ F) -> 0 <= t < T -> exists a b, tiles d a b (map fst (lvs p t)).
  Proof.
    intros (_ & _ & _ & TI & _) I Ht. specialize (TI t Ht). apply in_split in I. destruct I as (l1 & l2 & E). rewrite E, flat_map_app in TI. cbn [flat_map] in TI. rewrite !map_app in TI.
    apply tiles_split in TI. destruct TI as (b & _ & TI). apply tiles_split in TI. destruct TI as (c & TI & _). exists b, c. exact TI.
  Qed.

  Lemma leaf_in_range p t lf l q a b : tiles d a b (map fst (lf :: l)) -> In q (map fst (lf :: l)) -> descs_ok d D (ft_fd _ (pr_trees St D p t)) (ft_ld _ (pr_trees St D p t)) (lf :: l) ->
    in_range d (ft_fd _ (pr_trees St D p t)) (ft_ld _ (pr_trees St D p t)) q = true.
  Proof.
    intros TI I DO. cbn [descs_ok] in DO. destruct DO as (-> & ->). pose proof (tiles_wf d _ _ _ TI) as W. rewrite Forall_forall in W.
    destruct (tiles_bounds d _ _ _ q TI I) as (B1 & B2).
    assert (IL : In (fst (last l lf)) (map fst (lf :: l))) by (apply in_map, last_in).
    apply (in_range_ok d q); try reflexivity; try (apply W; assumption); [| |apply W; left; reflexivity].
    - cbn [map tiles] in TI. lia.
    - assert (E : qend d (fst (last l lf)) = b).
      { clear - TI. revert lf a TI. induction l as [|y l IH]; intros lf a TI; [cbn [map tiles last] in TI; apply TI|]. rewrite last_cons_any. cbn [map] in TI. destruct TI as (_ & _ & TI). apply (IH y _ TI). }
      lia.
  Qed.

  Lemma check_first_ok F k p : forest_ok d St D T F -> zget (f_procs _ _ F) k = Some p -> check_first d St D T (f_gfp _ _ F) k p = Some true.
  Proof.
    intros OK E. destruct (skipn_zget _ _ _ E) as (B & E2). assert (I : In p (f_procs _ _ F)) by (rewrite zget_nth in E by lia; eapply nth_error_In; exact E).
    pose proof OK as (_ & FP & _). rewrite Forall_forall in FP. pose proof (FP p I) as (RK & PN & PT). unfold check_first. destruct (pr_first _ _ p <? 0) eqn:C.
    - destruct RK as [(A1 & A2 & _)|(A1 & _)]; cbn [rk_of k_first k_last] in *; [rewrite A1, A2; reflexivity|lia].
    - rewrite (gfp_zget F k OK ltac:(lia)), E2. change (all_leaves St D T (p :: skipn (Z.to_nat (k + 1)) (f_procs St D F))) with (rank_leaves St D T p ++ all_leaves St D T (skipn (Z.to_nat (k + 1)) (f_procs St D F))).
      destruct (loc_hd T (rk_of St D p) RK ltac:(cbn [rk_of k_first]; lia)) as (a & l & l' & H1 & H2). unfold loc in H2. cbn [rk_of k_first k_trees] in H1, H2.
      change (loc_from 0 (Z.to_nat T) (fun t => t_leaves D (ft D (pr_trees St D p t)))) with (rank_leaves St D T p) in H2. rewrite H2. cbn [app mark_hd mark g_tree g_quad fst snd]. rewrite Z.eqb_refl.
      assert (RF : 0 <= pr_first St D p < T) by (destruct RK as [(A1 & _)|(A1 & A2 & _)]; cbn [rk_of k_first k_last] in *; lia).
      destruct (PT _ RF) as (_ & _ & _ & DO). unfold lvs in DO. rewrite H1 in DO. destruct (rank_tiles F p _ OK I RF) as (u & v & TI). unfold lvs in TI. rewrite H1 in TI. rewrite H1.
      rewrite !andthen_true. repeat split; [apply defined_true; lia| |].
      + unfold coords_differ. cbn [qx qy qz]. rewrite !Z.eqb_refl. destruct d; reflexivity.
      + f_equal. apply (leaf_in_range p _ a l _ u v TI); [left; reflexivity|exact DO].
  Qed.

  Lemma check_last_ok F k p : forest_ok d St D T F -> zget (f_procs _ _ F) k = Some p -> check_last d St D T (f_gfp _ _ F) k p = Some true.
  Proof.
    intros OK E. destruct (skipn_zget _ _ _ E) as (B & E2). assert (I : In p (f_procs _ _ F)) by (rewrite zget_nth in E by lia; eapply nth_error_In; exact E).
    pose proof OK as (_ & FP & _). rewrite Forall_forall in FP. pose proof (FP p I) as (RK & PN & PT). unfold check_last. destruct (pr_last _ _ p <? 0) eqn:C.
    - destruct RK as [(A1 & A2 & _)|(A1 & _)]; cbn [rk_of k_first k_last] in *; [rewrite A1, A2; reflexivity|lia].
    - rewrite (gfp_zget F (k + 1) OK ltac:(lia)).
      assert (RF : 0 <= pr_first St D p /\ 0 <= pr_last St D p < T) by (destruct RK as [(A1 & A2 & _)|(A1 & A2 & _)]; cbn [rk_of k_first k_last] in *; lia).
      destruct (loc_last T (rk_of St D p) RK ltac:(cbn [rk_of k_first]; lia)) as (a & l & l' & H1 & H2). unfold loc in H2. cbn [rk_of k_last k_trees] in H1, H2.
      change (loc_from 0 (Z.to_nat T) (fun t => t_leaves D (ft D (pr_trees St D p t)))) with (rank_leaves St D T p) in H2.
      destruct (PT _ (proj2 RF)) as (_ & _ & _ & DO). unfold lvs in DO. rewrite H1 in DO. destruct (rank_tiles F p _ OK I (proj2 RF)) as (u & v & TI). unfold lvs in TI. rewrite H1 in TI. rewrite H1.
      set (q := fst (last l a)) in *. assert (IQ : In q (map fst (a :: l))) by (apply in_map, last_in). pose proof (tiles_wf d _ _ _ TI) as W. rewrite Forall_forall in W. pose proof (W q IQ) as Wq.
      destruct (owner_forest d St D T HT F OK) as (_ & CV). rewrite <- (all_glob St D T), (rank_split F k p E), H2 in CV. rewrite app_assoc in CV. apply covers_split in CV. destruct CV as (c & C1 & C2). rewrite app_assoc in C1. apply covers_last in C1. cbn [fst snd] in C1. fold q in C1.
      pose proof (wf_root_bounds d q Wq) as (Q1 & Q2). fold (TREE d) in Q2. pose proof (tree_pos d) as TP. pose proof (qsize_pos d q Wq) as QS.
      assert (WR : forall y, In y (all_leaves St D T (skipn (Z.to_nat (k + 1)) (f_procs _ _ F))) -> 0 <= fst y < T /\ wf d (fst (snd y))).
      { intros y IY. apply (leaves_wf d St D T HT F y OK). rewrite (rank_split F k p E). rewrite !in_app_iff. right. right. exact IY. }
      destruct (all_leaves St D T (skipn (Z.to_nat (k + 1)) (f_procs St D F))) as [|y rest]; cbn [mark_hd mark covers sentinel g_tree g_quad qx qy qz] in *.
      + destruct (glue (TREE d) (pr_last St D p) (qend d q) T 0) as [(_ & BAD)|(EL & _ & EQ)]; [exact TP|unfold qend in *; lia|lia|unfold tend in C1; lia|unfold qend in *; lia|]. assert (EL' : pr_last St D p = T - 1) by lia. clear EL. rename EL' into EL.
        rewrite EL. replace (T =? T - 1) with false by lia. replace (T =? T - 1 + 1) with true by lia. cbn [orb negb]. rewrite !andthen_true. repeat split.
        * destruct d; reflexivity.
        * apply defined_true. lia.
        * apply defined_true, (lev_ok_wf d), Wq.
        * f_equal. apply last_desc_end; assumption.
        * f_equal. rewrite <- EL. apply (leaf_in_range p _ a l _ u v TI); [exact IQ|exact DO].
      + destruct C2 as (C2 & _). destruct (WR y (or_introl eq_refl)) as (Ty & Wy). pose proof (qpos_range d (fst (snd y))) as QY. unfold tpos, tend in *.
        assert (LV : 0 <= ql (fst (snd y)) <= 29) by (apply (wf_level d); exact Wy).
        destruct (first_descendant_wf d (fst (snd y)) 29 Wy ltac:(lia)) as (Wf & _ & _ & Ef). unfold first_descendant in Wf, Ef. change 29 with QMAXLEVEL in Wf, Ef.
        assert (CASE : fst y = pr_last St D p /\ qpos d (fst (snd y)) = qend d q \/ fst y = pr_last St D p + 1 /\ qpos d (fst (snd y)) = 0 /\ qend d q = TREE d).
        { destruct (glue (TREE d) (pr_last St D p) (qend d q) (fst y) (qpos d (fst (snd y)))) as [H|H]; [exact TP|unfold qend in *; lia|exact QY|lia|left; exact H|right; exact H]. }
        destruct CASE as [(EY & PQ)|(EY & PQ & EQ)]; rewrite EY.
        * rewrite Z.eqb_refl. replace (pr_last St D p =? pr_last St D p + 1) with false by lia. cbn [orb negb]. rewrite !andthen_true. repeat split; [apply defined_true; lia| |].
          -- unfold next_chk. apply andthen_true. split; [apply defined_true; rewrite (lev_ok_wf d q Wq), (lev_ok_wf d _ Wf); reflexivity|]. f_equal. apply (is_next_spec d q _ Wq Wf). cbn [ql].
             destruct (QMAXLEVEL <? ql q); [rewrite <- PQ; exact Ef|]. rewrite Ef, PQ. lia.
          -- f_equal. apply (leaf_in_range p _ a l _ u v TI); [exact IQ|exact DO].
        * replace (pr_last St D p + 1 =? pr_last St D p) with false by lia. rewrite Z.eqb_refl. cbn [orb negb]. rewrite !andthen_true. repeat split.
          -- f_equal. pose proof (qpos_0 d _ Wf) as Z0. rewrite Ef in Z0. specialize (Z0 PQ). exact Z0.
          -- apply defined_true. lia.
          -- apply defined_true, (lev_ok_wf d), Wq.
          -- f_equal. apply last_desc_end; assumption.
          -- f_equal. apply (leaf_in_range p _ a l _ u v TI); [exact IQ|exact DO].
  Qed.

  Lemma valid_rank_ok F k p : forest_ok d St D T F -> 0 <= f_rev _ _ F -> zget (f_procs _ _ F) k = Some p -> valid_rank d St D T F k p = Some true.
  Proof.
    intros OK HR E. destruct (skipn_zget _ _ _ E) as (B & _). assert (I : In p (f_procs _ _ F)) by (rewrite zget_nth in E by lia; eapply nth_error_In; exact E).
    pose proof OK as (_ & FP & _ & _ & GN & GQ & GP). rewrite Forall_forall in FP. unfold valid_rank. rewrite !andthen_true. repeat split.
    - f_equal. lia.
    - rewrite (gfp_zget F (zlen (f_procs _ _ F)) OK ltac:(lia)). unfold zlen. rewrite Nat2Z.id, skipn_all. cbn [all_leaves flat_map mark_hd sentinel g_tree g_quad]. rewrite Z.eqb_refl. destruct d; reflexivity.
    - f_equal. apply forallb_forall. intros m IM. apply In_nth_error in IM. destruct IM as (j & EJ). assert (HJ : (j <= length (f_procs _ _ F))%nat).
      { pose proof (forest_dist d St D T HT F OK) as (RK & _). destruct (global_partition_spec (@fst quad D) T _ RK) as (ms & EM & LM & _). rewrite GP in EM. injection EM as <-. assert (j < length (f_gfp _ _ F))%nat by (apply nth_error_Some; congruence). rewrite LM, map_length in H. lia. }
      pose proof (gfp_zget F (Z.of_nat j) OK ltac:(unfold zlen; lia)) as G. rewrite zget_nth, Nat2Z.id in G by lia. rewrite EJ in G. injection G as ->. unfold mark_hd. destruct (all_leaves St D T (skipn j (f_procs St D F))); reflexivity.
    - apply check_first_ok; assumption.
    - apply check_last_ok; assumption.
    - change 0 with (lvs_before St D p 0) at 2. apply check_trees_ok; [apply FP; exact I|intros t Ht; apply (rank_tiles F p t OK I Ht)|lia|lia].
    - rewrite GQ. unfold count_quadrants. rewrite !zget_nth by (unfold zlen; lia). rewrite !running_nth by (rewrite map_length; unfold zlen; lia). f_equal. unfold zlen at 1. rewrite Nat2Z.id, GN.
      rewrite (num_counts d St D T (f_procs _ _ F)) by (apply Forall_forall; exact FP). pose proof (glob_total T (map (rk_of St D) (f_procs _ _ F))) as G. unfold total in G. unfold local_counts in G |- *. rewrite !map_length in G. rewrite (all_glob St D T). 
      change (Z.to_nat 0) with 0%nat. rewrite pre_0, G. lia.
  Qed.

  Lemma valid_ranks_ok F : forest_ok d St D T F -> 0 <= f_rev _ _ F -> forall l k, 0 <= k -> skipn (Z.to_nat k) (f_procs _ _ F) = l -> valid_ranks d St D T F k l = Some true.
  Proof.
    intros OK HR. induction l as [|p l IH]; intros k HK E; [reflexivity|]. cbn [valid_ranks].
    assert (EP : nth_error (f_procs _ _ F) (Z.to_nat k) = Some p).
    { rewrite <- (firstn_skipn (Z.to_nat k) (f_procs _ _ F)), E. assert (Z.to_nat k <= length (f_procs _ _ F))%nat by (destruct (Nat.le_gt_cases (Z.to_nat k) (length (f_procs St D F))); [assumption|rewrite skipn_all2 in E by lia; discriminate E]).
      rewrite nth_error_app2 by (rewrite firstn_length; lia). rewrite firstn_length, Nat.min_l, Nat.sub_diag by lia. reflexivity. }
    rewrite (valid_rank_ok F k p OK HR) by (rewrite zget_nth by lia; exact EP). rewrite IH; [reflexivity|lia|].
    destruct (skipn_zget (f_procs _ _ F) k p) as (_ & E2); [rewrite zget_nth by lia; exact EP|]. rewrite E in E2. injection E2 as E2. symmetry. exact E2.
  Qed.

  Lemma is_valid_accepts F : forest_ok d St D T F -> 0 <= f_rev _ _ F -> forest_is_valid d St D T F = Some true.
  Proof. intros OK HR. apply valid_ranks_ok; [exact OK|exact HR|lia|reflexivity]. Qed.
End Accept.

Lemma level_sums_inv pl : forall n k a m r, level_sums pl (map Z.of_nat (seq k n)) a m = Some r ->
  (forall i, Z.of_nat k <= i < Z.of_nat (k + n) -> 0 <= pl i) /\
  r = (a + fold_left (fun s i => s + pl (Z.of_nat i)) (seq k n) 0, fold_left (fun m i => if pl (Z.of_nat i) >? 0 then Z.of_nat i else m) (seq k n) m).
Proof.
  assert (G : forall l a, fold_left (fun s i => s + pl (Z.of_nat i)) l a = a + fold_left (fun s i => s + pl (Z.of_nat i)) l 0).
  { induction l as [|i l IH]; intros a; cbn [fold_left]; [lia|]. rewrite IH. rewrite (IH (0 + _)). lia. }
  induction n as [|n IH]; intros k a m r; cbn [seq map level_sums fold_left]; intros E.
  - injection E as <-. split; [intros; lia|]. f_equal. lia.
  - destruct (pl (Z.of_nat k) <? 0) eqn:C; [discriminate E|]. apply IH in E. destruct E as (E1 & E2). split.
    + intros i Hi. destruct (Z.eq_dec i (Z.of_nat k)) as [->|]; [lia|apply E1; lia].
    + rewrite E2. f_equal. rewrite (G _ (0 + _)). lia.
Qed.

Section Sound.
  Variable d : dim.
  Variables (St D : Type).
  Variable T : Z.
  Hypothesis HT : 0 < T.
  Local Notation proc := (proc St D).
  Local Notation forest := (forest St D).
  Local Notation lvs := (lvs St D).

  Lemma valid_ranks_all F : forall ps k, valid_ranks d St D T F k ps = Some true -> forall i p, nth_error ps i = Some p -> valid_rank d St D T F (k + Z.of_nat i) p = Some true.
  Proof.
    induction ps as [|q ps IH]; intros k H i p E; [destruct i; discriminate E|]. cbn [valid_ranks] in H.
    destruct (valid_rank d St D T F k q) as [b|] eqn:E1; [|discriminate H]. destruct (valid_ranks d St D T F (k + 1) ps) as [b'|] eqn:E2; [|discriminate H].
    destruct b, b'; try discriminate H. destruct i as [|i].
    - injection E as <-. rewrite Z.add_0_r. exact E1.
    - replace (k + Z.of_nat (S i)) with (k + 1 + Z.of_nat i) by lia. apply (IH _ E2 i p E).
  Qed.

  Lemma check_trees_inv p : forall n jt lq, check_trees d St D p n jt lq = Some true ->
    (forall t, jt <= t < jt + Z.of_nat n -> check_tree d St D p t (lq + zlen (loc_from jt (Z.to_nat (t - jt)) (lvs p))) = Some true) /\
    pr_num _ _ p = lq + zlen (loc_from jt n (lvs p)).
  Proof.
    induction n as [|n IH]; intros jt lq; cbn [check_trees loc_from]; intros H.
    - split; [intros; lia|]. injection H as H. change (zlen (@nil (Z * (quad * D)))) with 0. lia.
    - apply andthen_true in H. destruct H as (H1 & H2). apply IH in H2. destruct H2 as (H2 & H3). split.
      + intros t Ht. destruct (Z.eq_dec t jt) as [->|N]; [rewrite Z.sub_diag; cbn [Z.to_nat loc_from]; change (zlen (@nil (Z * (quad * D)))) with 0; rewrite Z.add_0_r; exact H1|].
        replace (Z.to_nat (t - jt)) with (S (Z.to_nat (t - (jt + 1)))) by lia. cbn [loc_from]. rewrite zlen_app, zlen_map, Z.add_assoc. apply H2. lia.
      + rewrite H3, zlen_app, zlen_map. unfold lvs at 2. lia.
  Qed.

  Lemma valid_rank_tree F k p t : valid_rank d St D T F k p = Some true -> 0 <= t < T -> check_tree d St D p t (lvs_before St D p t) = Some true.
  Proof.
    intros H Ht. unfold valid_rank in H. rewrite !andthen_true in H. destruct H as ((_ & H) & _). apply check_trees_inv in H. destruct H as (H & _).
    specialize (H t ltac:(lia)). rewrite Z.add_0_l, Z.sub_0_r in H. exact H.
  Qed.

  (** order of the leaves of one rank, and their place between the markers *)
  Definition tord (x y : Z * (quad * D)) : Prop := tend d (fst x) (fst (snd x)) <= tpos d (fst y) (fst (snd y)).

  Lemma tree_sorted p t : Forall (fun lf => wf d (fst lf)) (lvs p t) -> tree_complete_chk d (map fst (lvs p t)) = Some true ->
    StronglySorted tord (map (pair t) (lvs p t)).
  Proof.
    intros W H. assert (W' : Forall (wf d) (map fst (lvs p t))) by (rewrite Forall_map; exact W). rewrite complete_chk_wf in H by exact W'. injection H as H. apply complete_linear in H; [|exact W'].
    apply tree_is_linear_spec in H; [|exact W']. clear W W'. revert H. generalize (lvs p t). induction l as [|x l IH]; intros H; cbn [map] in *; [constructor|].
    inversion H as [|? ? H1 H2]; subst. constructor; [apply IH; exact H1|]. rewrite Forall_map in H2. rewrite Forall_map. eapply Forall_impl; [|exact H2]. intros y Hy. unfold tord, tend, tpos. cbn [fst snd]. unfold before in Hy. lia.
  Qed.

  Lemma SS_app {A} (R : A -> A -> Prop) : forall l l', StronglySorted R l -> StronglySorted R l' -> (forall x y, In x l -> In y l' -> R x y) -> StronglySorted R (l ++ l').
  Proof.
    induction l as [|x l IH]; intros l' H H' C; cbn [app]; [exact H'|]. inversion H as [|? ? H1 H2]; subst. constructor.
    - apply IH; [exact H1|exact H'|]. intros a b Ia Ib. apply C; [right; exact Ia|exact Ib].
    - apply Forall_app. split; [exact H2|]. apply Forall_forall. intros y Iy. apply C; [left; reflexivity|exact Iy].
  Qed.

  Lemma tord_trees x y : wf d (fst (snd x)) -> fst x < fst y -> tord x y.
  Proof.
    intros W L. unfold tord, tend, tpos. pose proof (wf_root_bounds d _ W) as (_ & B). fold (TREE d) in B. pose proof (qpos_range d (fst (snd y))). pose proof (tree_pos d).
    assert ((fst x + 1) * TREE d <= fst y * TREE d) by (apply Z.mul_le_mono_nonneg_r; lia). lia.
  Qed.

  Lemma rank_sorted p : forall n s, (forall t, s <= t < s + Z.of_nat n -> Forall (fun lf => wf d (fst lf)) (lvs p t) /\ tree_complete_chk d (map fst (lvs p t)) = Some true) ->
    StronglySorted tord (loc_from s n (lvs p)).
  Proof.
    induction n as [|n IH]; intros s H; cbn [loc_from]; [constructor|]. apply SS_app.
    - destruct (H s ltac:(lia)) as (A & B). apply tree_sorted; assumption.
    - apply IH. intros t Ht. apply H. lia.
    - intros x y Ix Iy. apply in_map_iff in Ix. destruct Ix as (lf & <- & Ix). apply loc_from_labels in Iy. apply tord_trees; cbn [fst snd]; [|lia].
      destruct (H s ltac:(lia)) as (A & _). rewrite Forall_forall in A. apply A. exact Ix.
  Qed.

  Lemma rank_in p x : In x (rank_leaves St D T p) -> 0 <= fst x < T /\ In (snd x) (lvs p (fst x)).
  Proof.
    intros I. pose proof (proj1 (all_in St D T HT [p] x)) as H. destruct H as (q & [<-|[]] & H & H'); [unfold all_leaves; cbn [flat_map]; rewrite app_nil_r; exact I|]. split; assumption.
  Qed.

  Lemma check_tree_range p t lq : check_tree d St D p t lq = Some true -> lvs p t <> [] -> pr_first _ _ p <= t <= pr_last _ _ p.
  Proof.
    unfold check_tree. rewrite !andthen_true. intros (((_ & _) & H) & _) NE. unfold lvs in NE. destruct (t_leaves D (ft D (pr_trees St D p t))) as [|lf l]; [congruence|].
    rewrite !andthen_true in H. destruct H as (((H & _) & _) & _). injection H as H. lia.
  Qed.

  Lemma rank_between F k p m m' : valid_rank d St D T F k p = Some true -> zget (f_gfp _ _ F) k = Some m -> zget (f_gfp _ _ F) (k + 1) = Some m' ->
    wf d (g_quad m) -> wf d (g_quad m') -> (forall x, In x (rank_leaves St D T p) -> wf d (fst (snd x))) ->
    forall x, In x (rank_leaves St D T p) -> mpos d m <= tpos d (fst x) (fst (snd x)) /\ tend d (fst x) (fst (snd x)) <= mpos d m'.
  Proof.
    intros V EM EM' Wm Wm' W x I. pose proof (fun t => valid_rank_tree F k p t V) as VT. unfold valid_rank in V. rewrite !andthen_true in V.
    destruct V as (((((_ & LV) & CF) & CL) & _) & _). destruct (rank_in p x I) as (RT & IL). pose proof (W x I) as Wx.
    assert (RG : pr_first _ _ p <= fst x <= pr_last _ _ p) by (apply (check_tree_range p (fst x) _ (VT _ RT)); intros E; rewrite E in IL; destruct IL).
    unfold check_first, check_last in *. rewrite EM in CF. rewrite EM' in CL.
    assert (F0 : (pr_last _ _ p <? 0) = false) by lia. rewrite F0 in CL. destruct (pr_first _ _ p <? 0) eqn:F1; [injection CF as CF; lia|].
    rewrite !andthen_true in CF. rewrite !andthen_true in CL. destruct CF as ((CF1 & _) & CF2). destruct CL as (((CL1 & _) & CL2) & CL3). injection CF1 as CF1. injection CL1 as CL1.
    assert (WL : forall t y, 0 <= t < T -> In y (lvs p t) -> wf d (fst y)).
    { intros t y Ht Iy. apply (W (t, y)). unfold rank_leaves. apply (proj2 (all_in St D T HT [p] (t, y))) in Iy || idtac.
      assert (A : In (t, y) (all_leaves St D T [p])) by (apply (all_in St D T HT); exists p; split; [left; reflexivity|split; assumption]). unfold all_leaves in A. cbn [flat_map] in A. rewrite app_nil_r in A. exact A. }
    assert (SORT : forall t, 0 <= t < T -> StronglySorted tord (map (pair t) (lvs p t))).
    { intros t Ht. apply tree_sorted; [apply Forall_forall; intros y Iy; apply (WL t y Ht Iy)|]. specialize (VT t Ht). unfold check_tree in VT. rewrite !andthen_true in VT. apply VT. }
    pose proof (wf_root_bounds d _ Wx) as (B1 & B2). fold (TREE d) in B2. pose proof (tree_pos d) as TP.
    pose proof (qpos_range d (g_quad m)) as R1. pose proof (qpos_range d (g_quad m')) as R2. split.
    - unfold mpos. destruct (Z.eq_dec (fst x) (pr_first _ _ p)) as [E|N].
      + rewrite <- E in CF2. specialize (SORT (fst x) RT). unfold lvs in IL, SORT. destruct (t_leaves D (ft D (pr_trees St D p (fst x)))) as [|lf l] eqn:EL; [destruct IL|].
        rewrite andthen_true in CF2. destruct CF2 as (CF2 & _). injection CF2 as CF2. assert (Wlf : wf d (fst lf)) by (apply (WL (fst x) lf RT); unfold lvs; rewrite EL; left; reflexivity).
        rewrite (coords_differ_spec d _ _ (wf_qin d _ Wlf) (wf_qin d _ Wm)) in CF2. unfold tpos. assert (qpos d (fst lf) <= qpos d (fst (snd x))).
        { destruct IL as [<-|IL]; [lia|]. cbn [map] in SORT. inversion SORT as [|? ? _ FA]; subst. rewrite Forall_map, Forall_forall in FA. specialize (FA _ IL). unfold tord, tend, tpos in FA. cbn [fst snd] in FA. pose proof (qsize_pos d _ Wlf). unfold qend in FA. lia. }
        assert (g_tree m = fst x) by lia. rewrite H0. lia.
      + unfold tpos. assert (A : (g_tree m + 1) * TREE d <= fst x * TREE d) by (apply Z.mul_le_mono_nonneg_r; lia). lia.
    - unfold mpos. destruct (Z.eq_dec (fst x) (pr_last _ _ p)) as [E|N].
      + rewrite <- E in CL1, CL3. specialize (SORT (fst x) RT). unfold lvs in IL, SORT. destruct (t_leaves D (ft D (pr_trees St D p (fst x)))) as [|lf l] eqn:EL; [destruct IL|].
        rewrite andthen_true in CL3. destruct CL3 as (CL3 & _).
        set (q := last l lf) in *. assert (IQ : In q (lf :: l)) by apply last_in.
        assert (Wq : wf d (fst q)) by (apply (WL (fst x) q RT); unfold lvs; rewrite EL; exact IQ).
        assert (LE : qend d (fst (snd x)) <= qend d (fst q)).
        { destruct (exists_last (l := lf :: l) ltac:(discriminate)) as (l0 & z & EQ). assert (EZ : z = q) by (unfold q; transitivity (last (lf :: l) lf); [rewrite EQ, last_last; reflexivity|]; apply last_cons_any).
          rewrite EQ in SORT, IL. rewrite map_app in SORT. apply in_app_or in IL. destruct IL as [IL|[IL|[]]]; [|rewrite <- IL, EZ; lia].
          assert (TO : tord (fst x, snd x) (fst x, z)).
          { clear - SORT IL. revert SORT IL. induction l0 as [|a l0 IH]; intros SORT IL; [destruct IL|]. cbn [map app] in SORT. inversion SORT as [|? ? S1 F1]; subst. destruct IL as [->|IL]; [|apply IH; assumption].
            rewrite Forall_app in F1. destruct F1 as (_ & F1). inversion F1; subst. assumption. }
          unfold tord, tend, tpos in TO. cbn [fst snd] in TO. rewrite EZ in TO. pose proof (qsize_pos d _ Wq). unfold qend. unfold qend in TO. lia. }
        destruct (Z.eq_dec (g_tree m') (fst x)) as [ET|NT].
        * rewrite ET, Z.eqb_refl in CL3. unfold next_chk in CL3. apply andthen_true in CL3. destruct CL3 as (_ & CL3). injection CL3 as CL3.
          assert (L29 : ql (g_quad m') = QMAXLEVEL).
          { injection LV as LV. rewrite forallb_forall in LV. assert (IM : In m' (f_gfp _ _ F)) by (unfold zget in EM'; destruct (k + 1 <? 0); [discriminate|]; eapply nth_error_In; exact EM'). specialize (LV _ IM). lia. }
          assert (EQM : mkq (qx (g_quad m')) (qy (g_quad m')) (qz (g_quad m')) QMAXLEVEL = g_quad m') by (rewrite <- L29; destruct (g_quad m'); reflexivity).
          rewrite EQM in CL3. apply (is_next_spec d _ _ Wq Wm') in CL3. unfold tend, tpos. rewrite ET. destruct (ql (g_quad m') <? ql (fst q)); lia.
        * assert (ET : g_tree m' = fst x + 1) by lia. unfold tend, tpos. rewrite ET. lia.
      + unfold tend, tpos. assert (A : (fst x + 1) * TREE d <= g_tree m' * TREE d) by (apply Z.mul_le_mono_nonneg_r; lia). lia.
  Qed.

  (** all ranks *)
  Lemma forest_sorted F : forest_is_valid d St D T F = Some true -> (forall x, In x (all_leaves St D T (f_procs _ _ F)) -> wf d (fst (snd x))) ->
    (forall m, In m (f_gfp _ _ F) -> wf d (g_quad m)) ->
    (forall k m m', zget (f_gfp _ _ F) k = Some m -> zget (f_gfp _ _ F) (k + 1) = Some m' -> mpos d m <= mpos d m') ->
    StronglySorted tord (all_leaves St D T (f_procs _ _ F)).
  Proof.
    intros V W WM AS. unfold forest_is_valid in V. pose proof (valid_ranks_all F _ _ V) as VR. destruct (f_procs St D F) as [|p0 ps0] eqn:EPS; [constructor|].
    assert (PL : exists e, zget (f_gfp _ _ F) (zlen (f_procs St D F)) = Some e).
    { specialize (VR 0%nat p0 eq_refl). unfold valid_rank in VR. rewrite !andthen_true in VR. destruct VR as ((((((_ & VR) & _) & _) & _) & _) & _). destruct (zget (f_gfp St D F) (zlen (f_procs St D F))) as [e|]; [exists e; reflexivity|discriminate VR]. }
    rewrite <- EPS in *. clear p0 ps0 EPS. destruct PL as (e & PL).
    assert (GET : forall k, 0 <= k <= zlen (f_procs St D F) -> exists m, zget (f_gfp _ _ F) k = Some m /\ wf d (g_quad m)).
    { intros k Hk. rewrite zget_nth in PL by lia. assert (L : (Z.to_nat (zlen (f_procs St D F)) < length (f_gfp _ _ F))%nat) by (apply nth_error_Some; congruence).
      destruct (nth_error (f_gfp _ _ F) (Z.to_nat k)) as [m|] eqn:E; [|apply nth_error_None in E; lia]. exists m. rewrite zget_nth by lia. split; [exact E|]. apply WM. eapply nth_error_In. exact E. }
    assert (G : forall l k, 0 <= k -> skipn (Z.to_nat k) (f_procs _ _ F) = l -> StronglySorted tord (all_leaves St D T l) /\
      forall m x, zget (f_gfp _ _ F) k = Some m -> In x (all_leaves St D T l) -> mpos d m <= tpos d (fst x) (fst (snd x))).
    { induction l as [|p l IH]; intros k Hk E; [split; [constructor|intros m x _ []]|].
      assert (EN : nth_error (f_procs _ _ F) (Z.to_nat k) = Some p).
      { rewrite <- (firstn_skipn (Z.to_nat k) (f_procs _ _ F)), E. assert (Z.to_nat k <= length (f_procs _ _ F))%nat by (destruct (Nat.le_gt_cases (Z.to_nat k) (length (f_procs St D F))); [assumption|rewrite skipn_all2 in E by lia; discriminate E]).
        rewrite nth_error_app2 by (rewrite firstn_length; lia). rewrite firstn_length, Nat.min_l, Nat.sub_diag by lia. reflexivity. }
      destruct (skipn_zget (f_procs _ _ F) k p) as (BK & E2); [rewrite zget_nth by lia; exact EN|]. rewrite E in E2. injection E2 as E2.
      destruct (IH (k + 1) ltac:(lia) (eq_sym E2)) as (S1 & LO). specialize (VR _ _ EN). rewrite Z.add_0_l, Z2Nat.id in VR by lia.
      destruct (GET k ltac:(lia)) as (m & EM & Wm). destruct (GET (k + 1) ltac:(lia)) as (m' & EM' & Wm').
      assert (IP : In p (f_procs _ _ F)) by (eapply nth_error_In; exact EN).
      assert (WP : forall x, In x (rank_leaves St D T p) -> wf d (fst (snd x))) by (intros x I; apply W; unfold all_leaves; apply in_flat_map; exists p; split; assumption).
      assert (SP : StronglySorted tord (rank_leaves St D T p)).
      { apply rank_sorted. intros t Ht. split.
        - apply Forall_forall. intros lf I. apply (WP (t, lf)). assert (A : In (t, lf) (all_leaves St D T [p])) by (apply (all_in St D T HT); exists p; split; [left; reflexivity|split; [cbn [fst]; lia|exact I]]). unfold all_leaves in A. cbn [flat_map] in A. rewrite app_nil_r in A. exact A.
        - pose proof (valid_rank_tree F k p t VR ltac:(lia)) as CT. unfold check_tree in CT. rewrite !andthen_true in CT. apply CT. }
      pose proof (rank_between F k p m m' VR EM EM' Wm Wm' WP) as RB. change (all_leaves St D T (p :: l)) with (rank_leaves St D T p ++ all_leaves St D T l). split.
      - apply SS_app; [exact SP|exact S1|]. intros x y Ix Iy. unfold tord. destruct (RB x Ix) as (_ & R). specialize (LO m' y EM' Iy). lia.
      - intros m0 x E0 Ix. rewrite EM in E0. injection E0 as <-. apply in_app_or in Ix. destruct Ix as [Ix|Ix]; [apply (RB x Ix)|]. specialize (LO m' x EM' Ix). specialize (AS k m m' EM EM'). lia. }
    destruct (G (f_procs _ _ F) 0 ltac:(lia) eq_refl) as (R & _). exact R.
  Qed.
  (** markers that were made from the leaves *)
  Lemma made_markers F : forest_is_valid d St D T F = Some true -> Forall (fun p => rk_ok T (rk_of St D p)) (f_procs _ _ F) ->
    global_partition fst T (map (rk_of St D) (f_procs _ _ F)) = Some (f_gfp _ _ F) -> (forall x, In x (all_leaves St D T (f_procs _ _ F)) -> wf d (fst (snd x))) ->
    (forall m, In m (f_gfp _ _ F) -> wf d (g_quad m)) /\
    (forall k m m', zget (f_gfp _ _ F) k = Some m -> zget (f_gfp _ _ F) (k + 1) = Some m' -> mpos d m <= mpos d m').
  Proof.
    intros V RK GG W. destruct (global_partition_spec (@fst quad D) T (map (rk_of St D) (f_procs _ _ F))) as (ms & EM & LM & N); [apply Forall_map; exact RK|]. rewrite GG in EM. injection EM as <-. rewrite map_length in LM, N.
    assert (NM : forall i, (i <= length (f_procs _ _ F))%nat -> nth_error (f_gfp _ _ F) i = Some (mark_hd fst T (all_leaves St D T (skipn i (f_procs _ _ F))))) by (intros i Hi; rewrite (N i Hi), skipn_map, (all_glob St D T); reflexivity). clear N.
    assert (WM : forall m, In m (f_gfp _ _ F) -> wf d (g_quad m)).
    { intros m I. apply In_nth_error in I. destruct I as (i & E). assert (Hi : (i < length (f_gfp _ _ F))%nat) by (apply nth_error_Some; congruence). rewrite NM in E by lia. injection E as <-.
      destruct (all_leaves St D T (skipn i (f_procs _ _ F))) as [|x l] eqn:EA; cbn [mark_hd sentinel mark g_quad]; [apply is_valid_wf; destruct d; vm_compute; auto|].
      assert (Wx : wf d (fst (snd x))). { apply W. rewrite <- (firstn_skipn i (f_procs _ _ F)). unfold all_leaves. rewrite flat_map_app. apply in_or_app. right. fold (all_leaves St D T (skipn i (f_procs _ _ F))). rewrite EA. left. reflexivity. }
      apply (proj1 (first_descendant_wf d (fst (snd x)) QMAXLEVEL Wx ltac:(destruct Wx; unfold QMAXLEVEL; lia))). }
    split; [exact WM|]. intros k m m' E E'. assert (IM : In m (f_gfp _ _ F)) by (unfold zget in E; destruct (k <? 0); [discriminate|]; eapply nth_error_In; exact E).
    assert (IM' : In m' (f_gfp _ _ F)) by (unfold zget in E'; destruct (k + 1 <? 0); [discriminate|]; eapply nth_error_In; exact E').
    assert (HK : 0 <= k) by (unfold zget in E; destruct (k <? 0) eqn:C; [discriminate|lia]). pose proof E as E0. pose proof E' as E0'. rewrite zget_nth in E0, E0' by lia.
    assert (Hi : (Z.to_nat (k + 1) < length (f_gfp _ _ F))%nat) by (apply nth_error_Some; congruence). rewrite NM in E0 by lia. rewrite NM in E0' by lia.
    destruct (nth_error (f_procs _ _ F) (Z.to_nat k)) as [p|] eqn:EP; [|apply nth_error_None in EP; lia].
    destruct (skipn_zget (f_procs _ _ F) k p) as (_ & ES); [rewrite zget_nth by lia; exact EP|]. rewrite ES in E0. change (all_leaves St D T (p :: skipn (Z.to_nat (k + 1)) (f_procs St D F))) with (rank_leaves St D T p ++ all_leaves St D T (skipn (Z.to_nat (k + 1)) (f_procs St D F))) in E0.
    destruct (rank_leaves St D T p) as [|x l] eqn:ER; cbn [app] in E0; [assert (m = m') as -> by congruence; lia|]. injection E0 as E0.
    assert (IP : In p (f_procs _ _ F)) by (eapply nth_error_In; exact EP).
    assert (WP : forall x, In x (rank_leaves St D T p) -> wf d (fst (snd x))) by (intros y I; apply W; unfold all_leaves; apply in_flat_map; exists p; split; assumption).
    pose proof (valid_ranks_all F _ _ V _ _ EP) as VR. rewrite Z.add_0_l, Z2Nat.id in VR by lia.
    destruct (rank_between F k p m m' VR E E' (WM m IM) (WM m' IM') WP x) as (_ & RB); [rewrite ER; left; reflexivity|].
    assert (Wx : wf d (fst (snd x))) by (apply WP; rewrite ER; left; reflexivity). rewrite <- E0. unfold tend, qend in RB. pose proof (qsize_pos d _ Wx) as QS.
    change (mpos d (mark fst x)) with (tpos d (fst x) (fst (snd x))). unfold tpos. lia.
  Qed.
End Sound.

(** ** When p4est_is_valid is defined *)
Section Defined.
  Variable d : dim.
  Variables (St D : Type).
  Variable T : Z.

  Definition isdef (a : option bool) : Prop := exists b, a = Some b.
  Lemma isdef_some b : isdef (Some b).
  Proof. exists b. reflexivity. Qed.
  Lemma isdef_then a b : isdef a -> isdef b -> isdef (andthen a b).
  Proof. intros (x & ->) HB. destruct x; [exact HB|apply isdef_some]. Qed.
  Lemma isdef_defined b : b = true -> isdef (defined b).
  Proof. intros ->. apply isdef_some. Qed.

  Lemma next_chk_def q r : lev_ok q = true -> lev_ok r = true -> isdef (next_chk d q r).
  Proof. intros A B. unfold next_chk. apply isdef_then; [apply isdef_defined; rewrite A, B; reflexivity|apply isdef_some]. Qed.
  Lemma complete_chk_def l : forall q, lev_ok q = true -> Forall (fun q => lev_ok q = true) l -> isdef (complete_chk d q l).
  Proof.
    induction l as [|r l IH]; intros q A B; cbn [complete_chk]; [apply isdef_some|]. inversion B as [|? ? B1 B2]; subst. apply isdef_then; [apply next_chk_def; assumption|apply IH; assumption].
  Qed.

  Lemma check_tree_def p t lq : (forall lf, In lf (lvs St D p t) -> lev_ok (fst lf) = true) -> isdef (check_tree d St D p t lq).
  Proof.
    intros HL. unfold check_tree. unfold lvs in HL. apply isdef_then; [|apply isdef_some]. apply isdef_then; [apply isdef_then; [apply isdef_some|]|].
    - destruct (t_leaves D (ft D (pr_trees St D p t))) as [|lf l]; cbn [map tree_complete_chk]; [apply isdef_some|]. apply complete_chk_def; [apply HL; left; reflexivity|].
      apply Forall_forall. intros q I. apply in_map_iff in I. destruct I as (x & <- & I). apply HL. right. exact I.
    - destruct (t_leaves D (ft D (pr_trees St D p t))) as [|lf l]; [apply isdef_some|]. repeat apply isdef_then; try apply isdef_some. apply isdef_defined, HL. apply (last_in l lf).
  Qed.
  Lemma check_trees_def p n : forall jt lq, (forall t lf, jt <= t < jt + Z.of_nat n -> In lf (lvs St D p t) -> lev_ok (fst lf) = true) -> isdef (check_trees d St D p n jt lq).
  Proof.
    induction n as [|n IH]; intros jt lq HL; cbn [check_trees]; [apply isdef_some|]. apply isdef_then; [apply check_tree_def; intros lf; apply HL; lia|apply IH; intros t lf Ht; apply HL; lia].
  Qed.

  Lemma forest_is_valid_def F : Forall (fun p => rk_ok T (rk_of St D p)) (f_procs St D F) -> length (f_gfp St D F) = S (length (f_procs St D F)) -> length (f_gfq St D F) = S (length (f_procs St D F)) ->
    (forall p t lf, In p (f_procs St D F) -> 0 <= t < T -> In lf (lvs St D p t) -> lev_ok (fst lf) = true) -> isdef (forest_is_valid d St D T F).
  Proof.
    intros RK LP LQ HL. unfold forest_is_valid.
    assert (GP : forall k, 0 <= k <= zlen (f_procs St D F) -> exists m, zget (f_gfp St D F) k = Some m).
    { intros k Hk. unfold zget. replace (k <? 0) with false by lia. destruct (nth_error (f_gfp St D F) (Z.to_nat k)) as [m|] eqn:E; [exists m; reflexivity|]. apply nth_error_None in E. unfold zlen in Hk. lia. }
    assert (GQ : forall k, 0 <= k <= zlen (f_procs St D F) -> exists m, zget (f_gfq St D F) k = Some m).
    { intros k Hk. unfold zget. replace (k <? 0) with false by lia. destruct (nth_error (f_gfq St D F) (Z.to_nat k)) as [m|] eqn:E; [exists m; reflexivity|]. apply nth_error_None in E. unfold zlen in Hk. lia. }
    assert (W : forall ps before, f_procs St D F = before ++ ps -> isdef (valid_ranks d St D T F (zlen before) ps)).
    { induction ps as [|p ps IH]; intros before E; cbn [valid_ranks]; [apply isdef_some|].
      assert (IP : In p (f_procs St D F)) by (rewrite E; apply in_or_app; right; left; reflexivity).
      assert (LB : 0 <= zlen before /\ zlen before + 1 <= zlen (f_procs St D F)) by (rewrite E; unfold zlen; rewrite app_length; cbn [length]; lia).
      destruct (IH (before ++ [p])) as (b2 & E2); [rewrite <- app_assoc; exact E|]. replace (zlen (before ++ [p])) with (zlen before + 1) in E2 by (unfold zlen; rewrite app_length; cbn [length]; lia). rewrite E2.
      assert (V : isdef (valid_rank d St D T F (zlen before) p)); [|destruct V as (b1 & ->); apply isdef_some].
      rewrite Forall_forall in RK. specialize (RK p IP). unfold rk_ok, rk_of in RK. cbn [k_first k_last k_trees] in RK.
      unfold valid_rank. destruct (GP (zlen (f_procs St D F)) ltac:(lia)) as (mP & ->). destruct (GQ 0 ltac:(lia)) as (q0 & ->). destruct (GQ (zlen (f_procs St D F)) ltac:(lia)) as (qP & ->).
      repeat apply isdef_then; try apply isdef_some.
      - unfold check_first. destruct (pr_first St D p <? 0) eqn:C; [apply isdef_some|]. destruct (GP (zlen before) ltac:(lia)) as (m & ->). repeat apply isdef_then; [apply isdef_some|apply isdef_defined; lia|].
        destruct (t_leaves D _); [apply isdef_some|]. apply isdef_then; apply isdef_some.
      - unfold check_last. destruct (pr_last St D p <? 0) eqn:C; [apply isdef_some|]. destruct (GP (zlen before + 1) ltac:(lia)) as (m & ->). repeat apply isdef_then; [apply isdef_some|apply isdef_some|apply isdef_defined; lia|].
        pose proof (HL p (pr_last St D p)) as HLL. unfold lvs in HLL. destruct (t_leaves D _) as [|lf l]; [apply isdef_some|]. apply isdef_then; [|apply isdef_some].
        assert (LO : lev_ok (fst (last l lf)) = true) by (apply HLL; [exact IP|lia|apply (last_in l lf)]).
        destruct (g_tree m =? pr_last St D p); [apply next_chk_def; [exact LO|reflexivity]|]. apply isdef_then; [apply isdef_defined; exact LO|apply isdef_some].
      - apply check_trees_def. intros t lf Ht. apply HL; [exact IP|lia]. }
    apply (W _ [] eq_refl).
  Qed.
End Defined.
