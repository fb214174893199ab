(** * Properties C50, C51: p4est_is_valid and p4est_inflate_null *)

From Coq Require Import ZArith List Bool Lia Arith ZifyBool Sorting.Sorted.
From Verif Require Import Quad Spec Morton ZBits Interval QuadLemmas CompareLemmas DescLemmas SuccLemmas Search Adapt AdaptSpec Tree TreeLemmas ListLemmas RefineLemmas CoarsenProps Tiles Partition PartLemmas PartTrees PartRecv PartFinal PartShip Comm CommLemmas OwnerLemmas Cut PropertiesOwner PropertiesPartition Weighted Forest ForestSpec ForestLemmas ForestAdapt PropertiesForest Inflate InflateLemmas PropertiesInflate PropertiesPartCoarse Valid ValidLemmas.
Import ListNotations.
Open Scope Z_scope.

(** ** C50 *)

(** a valid forest passes *)
Theorem C50_accepts_valid : forall d St D T (F : forest St D), 0 < T -> forest_ok d St D T F -> 0 <= f_rev _ _ F ->
  forest_is_valid d St D T F = Some true.
Proof. intros d St D T F HT OK HR. apply is_valid_accepts; assumption. Qed.
Print Assumptions C50_accepts_valid.

(** what a forest that passes has: counters, offsets and descendants that agree with the leaves
    (the counters of the levels only in sum and maximum), and no leaves in trees that are not local *)
Theorem C50_counters_partial : forall d St D T (F : forest St D), 0 < T -> forest_is_valid d St D T F = Some true ->
  forall p, In p (f_procs _ _ F) ->
    pr_num _ _ p = zlen (rank_leaves St D T p) /\
    forall t, 0 <= t < T -> let x := pr_trees _ _ p t in let leaves := lvs St D p t in
      (leaves <> [] -> pr_first _ _ p <= t <= pr_last _ _ p) /\
      t_off _ (ft _ x) = lvs_before St D p t /\
      (forall i, 0 <= i <= 29 -> 0 <= t_pl _ (ft _ x) i) /\ sum_level (t_pl _ (ft _ x)) = zlen leaves /\ max_level (t_pl _ (ft _ x)) = t_max _ (ft _ x) /\
      match leaves with
      | [] => ql (ft_fd _ x) = -1 /\ ql (ft_ld _ x) = -1
      | lf :: r => is_equal d (first_descendant d (fst lf) QMAXLEVEL) (ft_fd _ x) = true /\ is_equal d (last_descendant d (fst (last r lf)) QMAXLEVEL) (ft_ld _ x) = true
      end.
Proof.
  intros d St D T F HT V p I. apply In_nth_error in I. destruct I as (i & E). pose proof (valid_ranks_all d St D T F _ _ V i p E) as VR. pose proof (fun t => valid_rank_tree d St D T HT F _ p t VR) as VT.
  split.
  - unfold valid_rank in VR. rewrite !andthen_true in VR. destruct VR as ((_ & VR) & _). apply check_trees_inv in VR. destruct VR as (_ & VR). exact VR.
  - intros t Ht x leaves. specialize (VT t Ht). split; [intros NE; apply (check_tree_range d St D p t _ VT NE)|]. unfold check_tree in VT. rewrite !andthen_true in VT. destruct VT as (((V1 & V2) & V3) & V4). fold x in V1, V3, V4.
    split; [injection V1 as V1; lia|]. rewrite zseq_30 in V4. fold (lvs St D p t) in V3, V4. fold leaves in V3, V4.
    destruct (level_sums (t_pl D (ft D x)) (map Z.of_nat (seq 0 30)) 0 0) as [(n, mx)|] eqn:EL; [|discriminate V4]. apply level_sums_inv in EL. destruct EL as (E1 & E2). rewrite <- sum_level_eq, <- max_level_eq in E2. apply pair_equal_spec in E2. destruct E2 as (E2 & E3). apply some_inj in V4.
    apply andb_prop in V4. destruct V4 as (V4 & V5). apply Z.eqb_eq in V4, V5. split; [intros j Hj; apply E1; lia|]. split; [unfold leaves, lvs; fold x; lia|]. split; [lia|]. clear V5 V4. unfold leaves, lvs in *. fold x in V3 |- *. destruct (t_leaves D (ft D x)) as [|lf l]; [injection V3 as V3; lia|].
    rewrite !andthen_true in V3. destruct V3 as (((_ & V3) & _) & V5). injection V3 as V3. injection V5 as V5. split; assumption.
Qed.
Print Assumptions C50_counters_partial.

(** if the leaves and the markers are valid quadrants and the markers ascend, then the leaves of all
    ranks are in ascending order and do not overlap *)
Theorem C50_disjoint_partial : forall d St D T (F : forest St D), 0 < T -> forest_is_valid d St D T F = Some true ->
  let L := all_leaves St D T (f_procs _ _ F) in
  (forall x, In x L -> wf d (fst (snd x))) -> (forall m, In m (f_gfp _ _ F) -> wf d (g_quad m)) ->
  (forall k m m', zget (f_gfp _ _ F) k = Some m -> zget (f_gfp _ _ F) (k + 1) = Some m' -> mpos d m <= mpos d m') ->
  (forall i j x y, (i < j)%nat -> nth_error L i = Some x -> nth_error L j = Some y -> fst x < fst y \/ fst x = fst y /\ compare d (fst (snd x)) (fst (snd y)) < 0) /\
  (forall i j x y a b c, nth_error L i = Some x -> nth_error L j = Some y -> fst x = fst y -> inq d (fst (snd x)) a b c -> inq d (fst (snd y)) a b c -> i = j).
Proof.
  intros d St D T F HT V L W WM AS. pose proof (forest_sorted d St D T HT F V W WM AS) as SS. fold L in SS.
  assert (ORD : forall i j x y, (i < j)%nat -> nth_error L i = Some x -> nth_error L j = Some y -> fst x < fst y \/ fst x = fst y /\ qend d (fst (snd x)) <= qpos d (fst (snd y))).
  { intros i j x y Hij Ex Ey. pose proof (SearchLocal.SS_pair _ _ SS i j x y Hij Ex Ey) as TO. unfold tord, tend, tpos in TO.
    pose proof (W x (nth_error_In _ _ Ex)) as Wx. pose proof (W y (nth_error_In _ _ Ey)) as Wy. pose proof (wf_root_bounds d _ Wx) as (B1 & _). pose proof (qpos_range d (fst (snd y))) as B3. pose proof (tree_pos d) as TP. pose proof (qsize_pos d _ Wx) as QS.
    destruct (Z_lt_le_dec (fst x) (fst y)) as [LT|GE]; [left; exact LT|right]. destruct (Z.eq_dec (fst x) (fst y)) as [EQ|NE]; [split; [exact EQ|rewrite EQ in TO; lia]|exfalso].
    assert ((fst y + 1) * TREE d <= fst x * TREE d) by (apply Z.mul_le_mono_nonneg_r; lia). unfold qend in TO. lia. }
  split.
  - intros i j x y Hij Ex Ey. destruct (ORD i j x y Hij Ex Ey) as [C|(C1 & C2)]; [left; exact C|right]. split; [exact C1|].
    pose proof (W x (nth_error_In _ _ Ex)) as Wx. pose proof (W y (nth_error_In _ _ Ey)) as Wy. apply compare_wf; [exact Wx|exact Wy|]. left. pose proof (qsize_pos d _ Wx). unfold qend in C2. lia.
  - intros i j x y a b c Ex Ey ET Ix Iy. pose proof (W x (nth_error_In _ _ Ex)) as Wx. pose proof (W y (nth_error_In _ _ Ey)) as Wy. apply inq_pos in Ix; [|exact Wx]. apply inq_pos in Iy; [|exact Wy].
    destruct (Nat.lt_trichotomy i j) as [L1|[L1|L1]]; [exfalso|exact L1|exfalso].
    + destruct (ORD _ _ _ _ L1 Ex Ey); lia.
    + destruct (ORD _ _ _ _ L1 Ey Ex); lia.
Qed.
Print Assumptions C50_disjoint_partial.

(** ** Forests that pass and are not valid *)

(** a rank with one tree *)
Definition v_tree (off : Z) (l : list quad) : ftree unit :=
  match l with
  | [] => mkft unit (mktree unit off (fun _ => 0) 0 []) noquad noquad
  | q :: r => mkft unit (mktree unit off (fun i => nlev i (map (fun q => (q, tt)) l)) (maxlev (map (fun q => (q, tt)) l)) (map (fun q => (q, tt)) l)) (first_descendant D2 q QMAXLEVEL) (last_descendant D2 (last r q) QMAXLEVEL)
  end.
Definition v_proc (l : list quad) : proc unit unit :=
  mkproc unit unit tt (match l with [] => -1 | _ => 0 end) (match l with [] => -2 | _ => 0 end) (zlen l) (fun _ => v_tree 0 l).
Definition v_mark (q : quad) : marker := mkmk 0 (mkq (qx q) (qy q) (qz q) 29).
Definition v_end : marker := mkmk 1 (mkq 0 0 0 29).

Definition q00 := mkq 0 0 0 1.
Definition q10 := mkq (2 ^ 29) 0 0 1.
Definition q01 := mkq 0 (2 ^ 29) 0 1.
Definition q11 := mkq (2 ^ 29) (2 ^ 29) 0 1.

(** the first quadrant is missing: a point of the tree is in no leaf *)
Theorem C50_missing_refuted : exists F : forest unit unit, forest_is_valid D2 unit unit 1 F = Some true /\
  inroot D2 0 0 0 /\ forall x, In x (all_leaves unit unit 1 (f_procs _ _ F)) -> ~ inq D2 (fst (snd x)) 0 0 0.
Proof.
  exists (mkforest unit unit [v_proc [q10; q01; q11]] [0; 3] [v_mark q10; v_end] 3 0). split; [vm_compute; reflexivity|]. split; [unfold inroot; lia|].
  intros x I. cbn [f_procs] in I. match type of I with In _ ?l => change l with [(0, (q10, tt)); (0, (q01, tt)); (0, (q11, tt))] in I end. cbn [In] in I.
  decompose [or] I; try contradiction; match goal with E : _ = x |- _ => rewrite <- E end; intros (A & B & _); cbn [fst snd q10 q01 q11 qx qy ql] in A, B; lia.
Qed.

(** a hole between two leaves: a point of the tree is in no leaf *)
Theorem C50_hole_refuted : exists F : forest unit unit, forest_is_valid D2 unit unit 1 F = Some true /\
  inroot D2 (2 ^ 29) 0 0 /\ forall x, In x (all_leaves unit unit 1 (f_procs _ _ F)) -> ~ inq D2 (fst (snd x)) (2 ^ 29) 0 0.
Proof.
  pose (h := mkq (3 * 2 ^ 28) (2 ^ 28) 0 2). exists (mkforest unit unit [v_proc [q00; h; q01; q11]] [0; 4] [v_mark q00; v_end] 4 0). split; [vm_compute; reflexivity|]. split; [unfold inroot; lia|].
  intros x I. cbn [f_procs] in I. match type of I with In _ ?l => change l with [(0, (q00, tt)); (0, (h, tt)); (0, (q01, tt)); (0, (q11, tt))] in I end. cbn [In] in I.
  decompose [or] I; try contradiction; match goal with E : _ = x |- _ => rewrite <- E end; intros (A & B & _); cbn [fst snd h q00 q01 q11 qx qy ql] in A, B; unfold side in A, B; lia.
Qed.

(** with an empty rank between them two ranks hold the same leaves *)
Theorem C50_overlap_refuted : exists F : forest unit unit, forest_is_valid D2 unit unit 1 F = Some true /\
  exists x, nth_error (all_leaves unit unit 1 (f_procs _ _ F)) 0 = Some x /\ nth_error (all_leaves unit unit 1 (f_procs _ _ F)) 4 = Some x.
Proof.
  exists (mkforest unit unit [v_proc [q00; q10; q01; q11]; v_proc []; v_proc [q00; q10; q01; q11]] [0; 4; 4; 8] [v_mark q00; v_end; v_mark q00; v_end] 8 0).
  split; [vm_compute; reflexivity|]. exists (0, (q00, tt)). split; reflexivity.
Qed.

(** a leaf that is not a quadrant: its coordinate is not a multiple of its size *)
Theorem C50_misaligned_refuted : exists F : forest unit unit, forest_is_valid D2 unit unit 1 F = Some true /\
  exists x, In x (all_leaves unit unit 1 (f_procs _ _ F)) /\ is_valid D2 (fst (snd x)) = false.
Proof.
  pose (h := mkq (2 ^ 29 + 1) 0 0 1). exists (mkforest unit unit [v_proc [q00; h; q01; q11]] [0; 4] [v_mark q00; v_end] 4 0).
  split; [vm_compute; reflexivity|]. exists (0, (h, tt)). split; [right; left; reflexivity|vm_compute; reflexivity].
Qed.

(** global_first_quadrant of an inner rank has no meaning *)
Theorem C50_gfq_refuted : exists F : forest unit unit, forest_is_valid D2 unit unit 1 F = Some true /\
  zget (f_gfq _ _ F) 1 <> Some (zlen (all_leaves unit unit 1 (firstn 1 (f_procs _ _ F)))).
Proof.
  exists (mkforest unit unit [v_proc [q00; q10]; v_proc [q01; q11]] [0; -99; 4] [v_mark q00; v_mark q01; v_end] 4 0). split; vm_compute; [reflexivity|discriminate].
Qed.

(** the counters of the levels are exchanged *)
Theorem C50_levels_refuted : exists F : forest unit unit, forest_is_valid D2 unit unit 1 F = Some true /\
  exists p i, In p (f_procs _ _ F) /\ 0 <= i <= 29 /\ t_pl _ (ft _ (pr_trees _ _ p 0)) i <> nlev i (lvs unit unit p 0).
Proof.
  pose (h := fun i => child D2 q00 i). pose (x := v_tree 0 [h 0; h 1; h 2; h 3; q10; q01; q11]).
  pose (p := mkproc unit unit tt 0 0 7 (fun _ => mkft unit (mktree unit 0 (fun i => if i =? 1 then 4 else if i =? 2 then 3 else 0) 2 (t_leaves _ (ft _ x))) (ft_fd _ x) (ft_ld _ x))).
  exists (mkforest unit unit [p] [0; 7] [v_mark q00; v_end] 7 0). split; [vm_compute; reflexivity|]. exists p, 1. split; [left; reflexivity|]. split; [lia|vm_compute; discriminate].
Qed.
Print Assumptions C50_missing_refuted.
Print Assumptions C50_hole_refuted.
Print Assumptions C50_overlap_refuted.
Print Assumptions C50_misaligned_refuted.
Print Assumptions C50_gfq_refuted.
Print Assumptions C50_levels_refuted.

(** *** Examples *)
Example C50_ex_valid : option_map (forest_is_valid D2 Z Z 2) (i_new 0) = Some (Some true) /\
  (exists F, i_new 0 = Some F /\ forest_ok D2 Z Z 2 F /\ 0 <= f_rev _ _ F).
Proof.
  split; [vm_compute; reflexivity|]. destruct i_ok as (F & E & OK). exists F. split; [exact E|]. split; [exact OK|].
  assert (X : option_map (f_rev Z Z) (i_new 0) = Some 0) by (vm_compute; reflexivity). rewrite E in X. injection X as ->. lia.
Qed.
(** a forest with its last quadrant missing is rejected *)
Example C50_ex_invalid : forest_is_valid D2 unit unit 1 (mkforest unit unit [v_proc [q00; q10; q01]] [0; 3] [v_mark q00; v_end] 3 0) = Some false.
Proof. vm_compute. reflexivity. Qed.
(** a forest with a hole that meets the hypotheses of C50_disjoint_partial *)
Example C50_ex_disjoint : let F := mkforest unit unit [v_proc [q10]; v_proc []; v_proc [q01; q11]] [0; 1; 1; 3] [v_mark q10; v_mark q01; v_mark q01; v_end] 3 0 in
  forest_is_valid D2 unit unit 1 F = Some true /\
  (forall x, In x (all_leaves unit unit 1 (f_procs _ _ F)) -> wf D2 (fst (snd x))) /\ (forall m, In m (f_gfp _ _ F) -> wf D2 (g_quad m)) /\
  (forall k m m', zget (f_gfp _ _ F) k = Some m -> zget (f_gfp _ _ F) (k + 1) = Some m' -> mpos D2 m <= mpos D2 m').
Proof.
  intros F. split; [vm_compute; reflexivity|]. split; [|split].
  - intros x I. change (all_leaves unit unit 1 (f_procs _ _ F)) with [(0, (q10, tt)); (0, (q01, tt)); (0, (q11, tt))] in I. cbn [In] in I. decompose [or] I; try contradiction; match goal with E : _ = x |- _ => rewrite <- E end; apply is_valid_wf; vm_compute; auto.
  - intros m I. cbn [F f_gfp In] in I. decompose [or] I; try contradiction; match goal with E : _ = m |- _ => rewrite <- E end; apply is_valid_wf; vm_compute; auto.
  - intros k m m' E E'. unfold F in E, E'. cbn [f_gfp] in E, E'. assert (HK : 0 <= k < 4).
    { unfold zget in E, E'. destruct (k <? 0) eqn:C; [discriminate|]. assert (Z.to_nat k < 4)%nat by (change 4%nat with (length [v_mark q10; v_mark q01; v_mark q01; v_end]); apply nth_error_Some; congruence). lia. }
    assert (C : k = 0 \/ k = 1 \/ k = 2 \/ k = 3) by lia. destruct C as [->|[->|[->| ->]]]; cbn in E, E'; try discriminate E'; injection E as <-; injection E' as <-; vm_compute; discriminate.
Qed.

(** ** C51 *)

(** input from a valid forest gives a forest *)
Theorem C51_valid_input : forall d St D St' T nodata (F : forest St D) (parts : list (St' * list Z * list D)),
  0 < T -> forest_ok d St D T F -> parts <> [] ->
  concat (map (fun x => snd (fst x)) parts) = all_words d F -> concat (map snd parts) = all_data d F ->
  (forall s qa da, In (s, qa, da) parts -> zlen qa = (nd d + 1) * zlen da) ->
  exists pertree F', pertree_of d T F = Some pertree /\
    inflate_null d St' D T nodata (count_quadrants (map (fun x => zlen (snd x)) parts)) pertree (map (fun x => (fst x, Some (snd x))) parts) = Some (Some F') /\
    forest_ok d St' D T F' /\ all_leaves St' D T (f_procs _ _ F') = all_leaves St D T (f_procs _ _ F).
Proof.
  intros d St D St' T nodata F parts HT OK NE EW ED HZ. destruct (C37_deflate_inflate d St D St' T nodata F parts HT OK NE EW ED HZ) as (pt & F' & E1 & E2 & E3 & E4 & _ & _ & E5).
  exists pt, F'. split; [exact E1|]. unfold inflate_null. rewrite E2, C50_accepts_valid by (assumption || lia). split; [reflexivity|]. split; assumption.
Qed.
Print Assumptions C51_valid_input.

(** undefined behaviour: a level outside of the array of counters, too high or negative; a tree
    without quadrants; too few quadrants *)
Theorem C51_safe_refuted :
  inflate_null D2 unit unit 1 tt [0; 1] [0; 1] [(tt, [0; 0; 100], None)] = None /\
  inflate_null D2 unit unit 1 tt [0; 1] [0; 1] [(tt, [0; 0; -1], None)] = None /\
  inflate_null D2 unit unit 3 tt [0; 2] [0; 1; 1; 2] [(tt, [0; 0; 0; 0; 0; 0], None)] = None /\
  inflate_null D2 unit unit 1 tt [0; 2] [0; 2] [(tt, [0; 0; 0], None)] = None.
Proof. repeat split; vm_compute; reflexivity. Qed.

(** a forest is returned although it does not cover its tree *)
Theorem C51_only_valid_refuted : exists F, inflate_null D2 unit unit 1 tt [0; 3] [0; 3] [(tt, flat_map (words D2) [q10; q01; q11], None)] = Some (Some F) /\
  inroot D2 0 0 0 /\ forall x, In x (all_leaves unit unit 1 (f_procs _ _ F)) -> ~ inq D2 (fst (snd x)) 0 0 0.
Proof.
  destruct (inflate_null D2 unit unit 1 tt [0; 3] [0; 3] [(tt, flat_map (words D2) [q10; q01; q11], None)]) as [[F|]|] eqn:E; [|vm_compute in E; discriminate|vm_compute in E; discriminate].
  exists F. split; [reflexivity|]. split; [unfold inroot; lia|].
  assert (X : option_map (option_map (fun F => all_leaves unit unit 1 (f_procs _ _ F))) (inflate_null D2 unit unit 1 tt [0; 3] [0; 3] [(tt, flat_map (words D2) [q10; q01; q11], None)]) = Some (Some [(0, (q10, tt)); (0, (q01, tt)); (0, (q11, tt))])) by (vm_compute; reflexivity).
  rewrite E in X. cbn [option_map] in X. apply some_inj, some_inj in X. rewrite X.
  intros x I. cbn [In] in I. decompose [or] I; try contradiction; match goal with E : _ = x |- _ => rewrite <- E end; intros (A & B & _); cbn [fst snd q10 q01 q11 qx qy ql] in A, B; lia.
Qed.
Print Assumptions C51_safe_refuted.
Print Assumptions C51_only_valid_refuted.

Lemma loc_from_in {A} (f : Z -> list A) t x : forall n s, s <= t < s + Z.of_nat n -> In x (f t) -> In (t, x) (loc_from s n f).
Proof.
  induction n as [|n IH]; intros s Ht I; [lia|]. cbn [loc_from]. apply in_or_app. destruct (Z.eq_dec s t) as [->|NE]; [left; apply in_map; exact I|right; apply IH; [lia|exact I]].
Qed.

Lemma ss_of_nth {A} (R : A -> A -> Prop) (l : list A) : (forall i j x y, (i < j)%nat -> nth_error l i = Some x -> nth_error l j = Some y -> R x y) -> StronglySorted R l.
Proof.
  induction l as [|a l IH]; intros SO; constructor.
  - apply IH. intros i j x y Hij Ex Ey. apply (SO (S i) (S j)); [lia|exact Ex|exact Ey].
  - apply Forall_forall. intros x I. apply In_nth_error in I. destruct I as (j & E). apply (SO 0%nat (S j)); [lia|reflexivity|exact E].
Qed.

(** if the arrays describe leaves with levels from 0 to 30 so that every tree has a leaf, then all is
    defined, and a forest that is returned has these leaves; they do not overlap if they are valid
    quadrants *)
Theorem C51_safe_partial : forall d St D T nodata (parts : list (St * list (Z * (quad * D)))) pertree, 0 < T -> parts <> [] ->
  let L := concat (map snd parts) in
  (forall i j x y, (i < j)%nat -> nth_error L i = Some x -> nth_error L j = Some y -> fst x <= fst y) ->
  (forall t q x, In (t, (q, x)) L -> 0 <= t < T /\ 0 <= ql q <= 30 /\ (d = D2 -> qz q = 0)) ->
  (forall t, 0 <= t < T -> exists lf, In (t, lf) L) ->
  (forall t, 0 <= t <= T -> zget pertree t = Some (zlen (filter (fun x => fst x <? t) L))) ->
  exists r, inflate_null d St D T nodata (count_quadrants (map (fun x => zlen (snd x)) parts)) pertree
      (map (fun x => (fst x, flat_map (fun y => words d (fst (snd y))) (snd x), Some (map (fun y => snd (snd y)) (snd x)))) parts) = Some r /\
    forall F, r = Some F -> map (fun p => (pr_s _ _ p, rank_leaves St D T p)) (f_procs _ _ F) = parts /\ f_gnum _ _ F = zlen L /\
      ((forall x, In x L -> wf d (fst (snd x))) ->
       forall i j x y a b c, nth_error L i = Some x -> nth_error L j = Some y -> fst x = fst y -> inq d (fst (snd x)) a b c -> inq d (fst (snd y)) a b c -> i = j).
Proof.
  intros d St D T nodata parts pertree HT NE L SO HL HN HP.
  assert (EI : map (fun x => (fst x, flat_map (fun y => words d (fst (snd y))) (snd x), Some (map (fun y => snd (snd y)) (snd x)))) parts = ins_of d St D true (map fst parts) (map snd parts)).
  { unfold ins_of. clear. induction parts as [|(s, l) parts IH]; [reflexivity|]. cbn [map combine fst snd]. rewrite IH. f_equal. unfold wordsof, dataof. rewrite map_map, !flat_map_concat_map, map_map. reflexivity. }
  rewrite EI, <- (map_map snd (@zlen (Z * (quad * D)))).
  destruct (inflate_any d St D T nodata true (map snd parts) pertree) with (ss := map fst parts) as (F & E1 & E2 & E3 & E4 & E5 & E6 & E7 & _).
  - fold L. apply ss_of_nth. exact SO.
  - fold L. intros (t & q & x) I. apply (HL t q x I).
  - fold L. intros t Ht. destruct (HN t Ht) as (lf & I). exists (t, lf). split; [exact I|reflexivity].
  - fold L. split; [|discriminate]. apply Forall_forall. intros (q & x) I. apply in_map_iff in I. destruct I as ((t & q' & x') & E & I). cbn [snd] in E. injection E as -> ->. apply (HL t q x I).
  - exact HP.
  - destruct parts; [contradiction|discriminate].
  - rewrite !map_length. reflexivity.
  - unfold inflate_null. rewrite E1.
    assert (LP : length (f_procs _ _ F) = length parts) by (rewrite <- (map_length (pr_s St D)), E6, map_length; reflexivity).
    assert (RK : Forall (fun p => rk_ok T (rk_of St D p)) (f_procs _ _ F)) by (eapply Forall_impl; [|exact E2]; intros p (H & _); exact H).
    destruct (forest_is_valid_def d St D T F) as (bb & EV).
    + exact RK.
    + destruct (global_partition_spec (@fst quad D) T (map (rk_of St D) (f_procs _ _ F))) as (ms & EM & LM & _); [apply Forall_map; exact RK|]. rewrite E3 in EM. injection EM as <-. rewrite LM, map_length. reflexivity.
    + rewrite E7. rewrite LP, <- (map_length snd parts), <- (map_length zlen (map snd parts)). unfold count_quadrants. apply running_length.
    + intros p t (q, x) IP Ht IL.
      assert (IA : In (t, (q, x)) L). { unfold L. rewrite <- E5. apply in_concat. exists (rank_leaves St D T p). split; [apply in_map; exact IP|]. unfold rank_leaves. apply loc_from_in; [lia|exact IL]. }
      destruct (HL _ _ _ IA) as (_ & A & _). unfold lev_ok, MAXLEVEL. cbn [fst]. lia.
    + rewrite EV. exists (if bb then Some F else None). split; [destruct bb; reflexivity|]. intros F' EF. destruct bb; [|discriminate]. injection EF as <-. split; [|split; [exact E4|]].
      2: { intros WL. assert (EA : all_leaves St D T (f_procs _ _ F) = L) by (unfold L; rewrite <- E5; unfold all_leaves; rewrite flat_map_concat_map; reflexivity).
           pose proof (C50_disjoint_partial d St D T F HT EV) as DJ. cbv zeta in DJ. rewrite <- EA in WL. destruct (made_markers d St D T HT F EV RK E3 WL) as (WM & AS). destruct (DJ WL WM AS) as (_ & DJ2). rewrite EA in DJ2. exact DJ2. }
      clear - E5 E6. revert parts E5 E6. induction (f_procs St D F) as [|p ps IH]; intros [|(s, l) parts] E5 E6; try discriminate; [reflexivity|]. cbn [map fst snd] in *. injection E5 as A1 A2. injection E6 as B1 B2. f_equal; [congruence|apply IH; assumption].
Qed.
Print Assumptions C51_safe_partial.

(** *** Examples *)
(** the forest of C37 with its leaves cut in another way *)
Example C51_ex_valid : option_map (option_map (fun F => map fst (all_leaves unit unit 1 (f_procs _ _ F))))
    (inflate_null D2 unit unit 1 tt [0; 1; 1; 4] [0; 4] [(tt, words D2 q00, None); (tt, [], None); (tt, flat_map (words D2) [q10; q01; q11], None)]) = Some (Some [0; 0; 0; 0]).
Proof. vm_compute. reflexivity. Qed.
(** the last quadrant is missing: NULL *)
Example C51_ex_null : inflate_null D2 unit unit 1 tt [0; 3] [0; 3] [(tt, flat_map (words D2) [q00; q10; q01], None)] = Some None.
Proof. vm_compute. reflexivity. Qed.
(** leaves that meet the hypotheses of C51_safe_partial but are no forest *)
Example C51_ex_safe : let parts := [(tt, [(0, (mkq 7 (-5) 0 30, tt))]); (tt, [(1, (q11, tt)); (1, (q00, tt))])] in let L := concat (map snd parts) in
  (forall i j x y, (i < j)%nat -> nth_error L i = Some x -> nth_error L j = Some y -> fst x <= fst y) /\
  (forall t q x, In (t, (q, x)) L -> 0 <= t < 2 /\ 0 <= ql q <= 30 /\ (D2 = D2 -> qz q = 0)) /\
  (forall t, 0 <= t < 2 -> exists lf, In (t, lf) L) /\
  (forall t, 0 <= t <= 2 -> zget [0; 1; 3] t = Some (zlen (filter (fun x => fst x <? t) L))) /\
  inflate_null D2 unit unit 2 tt [0; 1; 3] [0; 1; 3] [(tt, [7; -5; 30], None); (tt, flat_map (words D2) [q11; q00], None)] = Some None.
Proof.
  intros parts L. change L with [(0, (mkq 7 (-5) 0 30, tt)); (1, (q11, tt)); (1, (q00, tt))]. split; [|split; [|split; [|split]]].
  - intros i j x y Hij Ex Ey. destruct j as [|[|[|j]]]; [lia| | |destruct j; discriminate Ey]; injection Ey as <-; apply nth_error_In in Ex; cbn [In] in Ex; destruct Ex as [<-|[<-|[<-|[]]]]; cbn; lia.
  - intros t q x I. cbn [In] in I. destruct I as [I|[I|[I|[]]]]; injection I as <- <- <-; cbn [ql qz q11 q00]; lia.
  - intros t Ht. assert (C : t = 0 \/ t = 1) by lia. destruct C as [-> | ->]; eexists; [left; reflexivity|right; left; reflexivity].
  - intros t Ht. assert (C : t = 0 \/ t = 1 \/ t = 2) by lia. destruct C as [-> |[-> | ->]]; reflexivity.
  - vm_compute. reflexivity.
Qed.
