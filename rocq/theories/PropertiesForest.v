(** * C31, C34, C46: whole forests under new, refine, coarsen and partition *)

From Coq Require Import ZArith List Bool Lia Arith ZifyBool Sorting.Sorted.
From Verif Require Import Quad Spec Interval QuadLemmas DescLemmas CompareLemmas Search Adapt AdaptSpec Tree TreeLemmas ListLemmas RefineLemmas Tiles CoarsenFix Partition PartLemmas PartTrees PartRecv PartFinal PartShip Comm CommLemmas OwnerLemmas Cut PropertiesPartition Weighted WeightedLemmas Complete Forest ForestSpec ForestLemmas ForestAdapt ForestPart ForestOps ForestNew.
From Verif Require PropertiesOwner.
Import ListNotations.
Open Scope Z_scope.

(** ** What [forest_ok] says about points and neighbours *)
Section Valid.
  Variable d : dim.
  Variables (St D : Type).
  Variable T : Z.
  Hypothesis HT : 0 < T.
  Local Notation all_leaves := (all_leaves St D T).
  Local Notation forest_ok := (forest_ok d St D T).

  Lemma SS_ofl (R : quad * D -> quad * D -> Prop) : forall l : list (Z * (quad * D)), lsorted l ->
    (forall t, StronglySorted R (ofl t l)) -> StronglySorted (fun x y => fst x < fst y \/ fst x = fst y /\ R (snd x) (snd y)) l.
  Proof.
    induction l as [|x l IH]; intros S H; [constructor|]. inversion S as [|? ? S' F]; subst. constructor.
    - apply IH; [exact S'|]. intros t. specialize (H t). unfold ofl in *. cbn [filter] in H. destruct (fst x =? t); [|exact H]. cbn [map] in H. inversion H; assumption.
    - rewrite Forall_forall in *. intros y I. specialize (F y I). destruct (Z.eq_dec (fst x) (fst y)) as [E|E]; [right|left; lia]. split; [exact E|].
      specialize (H (fst x)). unfold ofl in H. cbn [filter] in H. rewrite Z.eqb_refl in H. cbn [map] in H. inversion H as [|? ? _ F2]; subst. rewrite Forall_forall in F2. apply F2.
      apply in_map_iff. exists y. split; [reflexivity|]. apply filter_In. split; [exact I|lia].
  Qed.

  Lemma SS_map {A B} (f : A -> B) (R : B -> B -> Prop) : forall l, StronglySorted R (map f l) -> StronglySorted (fun x y => R (f x) (f y)) l.
  Proof.
    induction l as [|x l IH]; cbn [map]; intros H; [constructor|]. inversion H as [|? ? S F]; subst. constructor; [apply IH; exact S|]. rewrite Forall_forall in *. intros y I. apply F, in_map, I.
  Qed.

  Lemma tree_leaves F t : forest_ok F -> 0 <= t < T -> tiles d 0 (TREE d) (map fst (ofl t (all_leaves (f_procs _ _ F)))).
  Proof. intros (_ & _ & _ & H & _) Ht. rewrite ofl_all by assumption. apply H. exact Ht. Qed.

  Lemma leaves_order F : forest_ok F -> StronglySorted (fun x y => fst x < fst y \/ fst x = fst y /\ qend d (fst (snd x)) <= qpos d (fst (snd y))) (all_leaves (f_procs _ _ F)).
  Proof.
    intros OK. pose proof OK as (_ & _ & S & _). apply (SS_ofl (fun a b => qend d (fst a) <= qpos d (fst b)) _ S). intros t.
    destruct (Z_le_gt_dec 0 t) as [C1|C1]; [destruct (Z_lt_le_dec t T) as [C2|C2]|].
    - pose proof (tree_leaves F t OK ltac:(lia)) as H. apply tiles_linear in H. apply SS_map in H. exact H.
    - rewrite ofl_none; [constructor|]. intros x I. apply (all_in St D T HT) in I. destruct I as (p & _ & I & _). lia.
    - rewrite ofl_none; [constructor|]. intros x I. apply (all_in St D T HT) in I. destruct I as (p & _ & I & _). lia.
  Qed.

  Lemma leaves_wf F x : forest_ok F -> In x (all_leaves (f_procs _ _ F)) -> 0 <= fst x < T /\ wf d (fst (snd x)).
  Proof.
    intros OK I. pose proof I as J. apply (all_in St D T HT) in I. destruct I as (p & _ & I & _). split; [exact I|].
    pose proof (tree_leaves F (fst x) OK I) as H. apply tiles_wf in H. rewrite Forall_forall in H. apply H. apply in_map. unfold ofl. apply in_map_iff. exists x. split; [reflexivity|]. apply filter_In. split; [exact J|lia].
  Qed.

  (** it is a forest in the sense of the owner search, without holes *)
  Lemma owner_forest F : forest_ok F ->
    PropertiesOwner.forest_ok d (@fst quad D) T (map (rk_of St D) (f_procs _ _ F)) /\
    PropertiesOwner.covers d (@fst quad D) 0 (T * TREE d) (glob T (map (rk_of St D) (f_procs _ _ F))).
  Proof.
    intros OK. pose proof (tree_pos d) as TP. pose proof (leaves_order F OK) as LO.
    assert (B : forall x, In x (all_leaves (f_procs _ _ F)) -> 0 <= qpos d (fst (snd x)) /\ qend d (fst (snd x)) <= TREE d).
    { intros x I. destruct (leaves_wf F x OK I) as (_ & W). apply (wf_root_bounds d _ W). }
    assert (SS : StronglySorted (fun x y => tend d (fst x) (fst (snd x)) <= tpos d (fst y) (fst (snd y))) (all_leaves (f_procs _ _ F))).
    { revert LO B. generalize (all_leaves (f_procs _ _ F)). induction l as [|x l IH]; intros H B; [constructor|]. inversion H as [|? ? S F1]; subst. constructor; [apply IH; [exact S|intros y I; apply B; right; exact I]|].
      rewrite Forall_forall in *. intros y I. specialize (F1 y I). destruct (B x (or_introl eq_refl)) as (_ & B1). destruct (B y (or_intror I)) as (B2 & _). unfold tend, tpos.
      destruct F1 as [C|(C1 & C2)]; [|rewrite C1; lia]. assert ((fst x + 1) * TREE d <= fst y * TREE d) by (apply Z.mul_le_mono_nonneg_r; lia). lia. }
    rewrite <- all_glob. split.
    - split; [pose proof (forest_dist d St D T HT F OK) as (DO & _); exact DO|]. rewrite <- all_glob. split; [intros x I; apply (leaves_wf F x OK I)|exact SS].
    - assert (PS : forall x, In x (all_leaves (f_procs _ _ F)) -> tpos d (fst x) (fst (snd x)) < tend d (fst x) (fst (snd x))) by (intros x I; destruct (leaves_wf F x OK I) as (_ & W); pose proof (qsize_pos d _ W); unfold tend, tpos, qend; lia).
      assert (LOW : forall x, In x (all_leaves (f_procs _ _ F)) -> 0 <= tpos d (fst x) (fst (snd x)) /\ tend d (fst x) (fst (snd x)) <= T * TREE d).
      { intros x I. destruct (leaves_wf F x OK I) as (L & _). destruct (B x I) as (B1 & B2). unfold tpos, tend. pose proof (Z.mul_nonneg_nonneg (fst x) (TREE d) ltac:(lia) ltac:(lia)). assert ((fst x + 1) * TREE d <= T * TREE d) by (apply Z.mul_le_mono_nonneg_r; lia). lia. }
      assert (COV : forall k, 0 <= k < T * TREE d -> exists x, In x (all_leaves (f_procs _ _ F)) /\ tpos d (fst x) (fst (snd x)) <= k < tend d (fst x) (fst (snd x))).
      { intros k Hk. pose proof (Z.div_mod k (TREE d) ltac:(lia)) as DM. pose proof (Z.mod_pos_bound k (TREE d) ltac:(lia)) as MB. set (t := k / TREE d) in *.
        assert (t0 : 0 <= t) by (apply Z.div_pos; lia). assert (t1 : t < T) by (apply Z.div_lt_upper_bound; lia).
        pose proof (tree_leaves F t OK ltac:(lia)) as H. apply (proj1 (tiles_cover d _ _ _ (k mod TREE d) H)) in MB. destruct MB as (q & I & P). apply in_map_iff in I. destruct I as (lf & <- & I). unfold ofl in I. apply in_map_iff in I. destruct I as (x & <- & I). apply filter_In in I. destruct I as (I & E).
        exists x. split; [exact I|]. assert (fst x = t) as -> by lia. unfold tpos, tend. lia. }
      assert (G : forall (l : list (Z * (quad * D))) b a, a <= b -> StronglySorted (fun x y => tend d (fst x) (fst (snd x)) <= tpos d (fst y) (fst (snd y))) l ->
        (forall x, In x l -> tpos d (fst x) (fst (snd x)) < tend d (fst x) (fst (snd x))) -> (forall x, In x l -> a <= tpos d (fst x) (fst (snd x)) /\ tend d (fst x) (fst (snd x)) <= b) ->
        (forall k, a <= k < b -> exists x, In x l /\ tpos d (fst x) (fst (snd x)) <= k < tend d (fst x) (fst (snd x))) -> PropertiesOwner.covers d (@fst quad D) a b l);
        [|apply G; [pose proof (Z.mul_nonneg_nonneg T (TREE d) ltac:(lia) ltac:(lia)); lia|assumption|assumption|assumption|assumption]].
      clear.
      induction l as [|x l IH]; intros b a M0 SS PS LOW COV; cbn [PropertiesOwner.covers].
      + destruct (Z.eq_dec a b) as [|N]; [assumption|]. destruct (COV a ltac:(lia)) as (x & [] & _).
      + inversion SS as [|? ? S F1]; subst. rewrite Forall_forall in F1. destruct (LOW x (or_introl eq_refl)) as (L1 & L2). pose proof (PS x (or_introl eq_refl)) as PX. split.
        * destruct (Z.eq_dec (tpos d (fst x) (fst (snd x))) a) as [|N]; [assumption|]. exfalso. destruct (COV a ltac:(lia)) as (y & [<-|I] & C); [lia|]. specialize (F1 y I). lia.
        * apply IH; [lia|exact S|intros y I; apply PS; right; exact I| |].
          -- intros y I. split; [apply F1; exact I|apply LOW; right; exact I].
          -- intros k Hk. destruct (COV k ltac:(lia)) as (y & [<-|I] & C); [lia|exists y; auto].
  Qed.
End Valid.

Lemma pre_firstn : forall (l : list Z) k, (k <= length l)%nat -> pre l k = pre (firstn k l) (length (firstn k l)).
Proof. induction l as [|x l IH]; intros [|k] H; cbn [firstn length pre] in *; try reflexivity. rewrite <- IH by lia. reflexivity. Qed.

(** ** C31: a valid forest, in terms of points, order and counters *)
Theorem C31_valid_forest : forall d St D T (F : forest St D), 0 < T -> forest_ok d St D T F ->
  let L := all_leaves St D T (f_procs _ _ F) in
  (* every lattice point of every tree is in exactly one leaf of all ranks together *)
  (forall t x y z, 0 <= t < T -> inroot d x y z -> exists i lf, nth_error L i = Some (t, lf) /\ inq d (fst lf) x y z /\
     forall j lf', nth_error L j = Some (t, lf') -> inq d (fst lf') x y z -> j = i) /\
  (* the leaves are valid quadrants and in ascending order, also from one rank to the next *)
  (forall x, In x L -> 0 <= fst x < T /\ wf d (fst (snd x))) /\
  (forall i j x y, (i < j)%nat -> nth_error L i = Some x -> nth_error L j = Some y -> fst x < fst y \/ fst x = fst y /\ compare d (fst (snd x)) (fst (snd y)) < 0) /\
  (* local_num_quadrants, global_num_quadrants and global_first_quadrant count them *)
  (forall p, In p (f_procs _ _ F) -> pr_num _ _ p = zlen (rank_leaves St D T p)) /\ f_gnum _ _ F = zlen L /\
  (forall k, (k <= length (f_procs _ _ F))%nat -> nth_error (f_gfq _ _ F) k = Some (zlen (all_leaves St D T (firstn k (f_procs _ _ F))))) /\
  (* global_first_position holds the first leaf from this rank on, or the end *)
  (forall k, (k <= length (f_procs _ _ F))%nat -> nth_error (f_gfp _ _ F) k =
     Some (match all_leaves St D T (skipn k (f_procs _ _ F)) with
           | [] => mkmk T (mkq 0 0 0 29)
           | x :: _ => mkmk (fst x) (mkq (qx (fst (snd x))) (qy (fst (snd x))) (qz (fst (snd x))) 29) end)).
Proof.
  intros d St D T F HT OK L. pose proof OK as (NE & FP & SO & TL & GN & GQ & GP).
  assert (ORD : forall i j x y, (i < j)%nat -> nth_error L i = Some x -> nth_error L j = Some y -> fst x < fst y \/ fst x = fst y /\ qend d (fst (snd x)) <= qpos d (fst (snd y))).
  { intros i j x y Hij Ex Ey. exact (SearchLocal.SS_pair _ _ (leaves_order d St D T HT F OK) i j x y Hij Ex Ey). }
  split; [|split; [|split; [|split; [|split; [|split]]]]].
  - intros t x y z Ht Hp. pose proof (tree_leaves d St D T HT F t OK Ht) as H. pose proof (ppos_range d x y z) as PR. fold (TREE d) in PR.
    apply (proj1 (tiles_cover d _ _ _ (ppos d x y z) H)) in PR. destruct PR as (q & I & P). apply in_map_iff in I. destruct I as (lf & <- & I). unfold ofl in I. apply in_map_iff in I. destruct I as (w & <- & I). apply filter_In in I. destruct I as (I & E).
    assert (E1 : fst w = t) by lia. destruct (leaves_wf d St D T HT F w OK I) as (_ & W). apply In_nth_error in I. destruct I as (i & Ei). exists i, (snd w). split; [rewrite <- E1; destruct w; exact Ei|].
    split; [apply inq_pos; auto|]. intros j lf' Ej Hq. pose proof (nth_error_In _ _ Ej) as Ij. destruct (leaves_wf d St D T HT F _ OK Ij) as (_ & W'). cbn [snd] in W'. apply inq_pos in Hq; [|exact W']. destruct Hq as (_ & Hq).
    destruct (Nat.lt_trichotomy i j) as [L1|[L1|L1]]; [exfalso|auto|exfalso].
    + destruct (ORD _ _ _ _ L1 Ei Ej) as [C|(C1 & C2)]; cbn [fst snd] in *; lia.
    + destruct (ORD _ _ _ _ L1 Ej Ei) as [C|(C1 & C2)]; cbn [fst snd] in *; lia.
  - intros x I. apply (leaves_wf d St D T HT F x OK I).
  - intros i j x y Hij Ex Ey. destruct (ORD i j x y Hij Ex Ey) as [C|(C1 & C2)]; [left; exact C|right]. split; [exact C1|].
    destruct (leaves_wf d St D T HT F x OK (nth_error_In _ _ Ex)) as (_ & Wx). destruct (leaves_wf d St D T HT F y OK (nth_error_In _ _ Ey)) as (_ & Wy).
    apply compare_wf; [exact Wx|exact Wy|]. left. pose proof (qsize_pos d _ Wx). unfold qend in C2. lia.
  - intros p I. rewrite Forall_forall in FP. destruct (FP p I) as (_ & H & _). exact H.
  - exact GN.
  - intros k Hk. rewrite GQ. unfold count_quadrants. rewrite running_nth by (rewrite map_length; exact Hk). f_equal.
    assert (FK : Forall (proc_ok d St D T) (firstn k (f_procs _ _ F))) by (apply Forall_forall; intros p I; rewrite Forall_forall in FP; apply FP; rewrite <- (firstn_skipn k (f_procs _ _ F)); apply in_or_app; left; exact I).
    rewrite <- (num_total d) by exact FK. unfold PartShip.total. rewrite <- firstn_map. rewrite Z.add_0_l. apply pre_firstn. rewrite map_length. exact Hk.
  - intros k Hk. destruct (forest_dist d St D T HT F OK) as (DO & _). destruct (global_partition_spec (@fst quad D) T _ DO) as (ms & E & _ & N). rewrite GP in E. injection E as <-.
    rewrite N by (rewrite map_length; exact Hk). f_equal. rewrite skipn_map, <- all_glob. destruct (all_leaves St D T (skipn k (f_procs _ _ F))) as [|x l]; reflexivity.
Qed.
Print Assumptions C31_valid_forest.

(** ** C34: p4est_new_ext *)

(** the initial level is the least one that is at least min_level and gives every rank min_quadrants *)
Theorem C34_initial_level : forall d T minq minl P level num, 0 < T -> initial_level d T minq minl P = Some (level, num) ->
  0 <= level <= 29 /\ num = 2 ^ (nd d * level) /\ minl <= level /\ P * minq <= num * T /\
  forall m, 0 <= m < level -> m < minl \/ 2 ^ (nd d * m) * T < P * minq.
Proof.
  intros d T minq minl P level num HT H. destruct (initial_level_spec d T HT _ _ _ _ _ H) as (A & B & _ & C). auto.
Qed.
Print Assumptions C34_initial_level.

(** the function succeeds with a valid forest and, if it fills uniformly, every tree consists of all
    quadrants of the level in order, and every rank has its equal share of them *)
Theorem C34_new_ext : forall d St D T prec init_fn minq minl uni (ss : list St) level num,
  0 < T <= 2 ^ 31 - 1 -> 53 <= prec <= 64 -> ss <> [] -> zlen ss < 2 ^ 31 ->
  initial_level d T minq minl (zlen ss) = Some (level, num) ->
  exists n0, forall fuel, (n0 <= fuel)%nat -> exists F,
    new_ext d St D T prec init_fn minq minl uni fuel ss = Some F /\ forest_ok d St D T F /\ f_rev _ _ F = 0 /\ length (f_procs _ _ F) = length ss /\
    (uni = true ->
       (forall t, 0 <= t < T -> map fst (flat_map (fun p => lvs St D p t) (f_procs _ _ F)) = map (set_morton d level) (zseq 0 (Z.to_nat num))) /\
       forall k p, nth_error (f_procs _ _ F) k = Some p ->
         pr_num _ _ p = partition_cut prec (num * T) (Z.of_nat k + 1) (zlen ss) - partition_cut prec (num * T) (Z.of_nat k) (zlen ss)).
Proof. exact new_ext_ok. Qed.
Print Assumptions C34_new_ext.

(** ** C31, C46: one operation *)
Theorem C31_refine_exists : forall d St D T init_fn refine_fn replace_fn recursive al (F : forest St D), 0 < T -> al <= 29 -> forest_ok d St D T F ->
  exists n0, forall fuel, (n0 <= fuel)%nat -> exists F', refine_ext d St D T init_fn refine_fn replace_fn recursive al fuel F = Some F'.
Proof. intros d St D T init_fn refine_fn replace_fn recursive al F HT HA OK. exact (refine_ext_exists d St D T HT _ _ _ _ _ F HA OK). Qed.

Theorem C31_refine : forall d St D T init_fn refine_fn replace_fn recursive al fuel (F F' : forest St D), 0 < T -> al <= 29 -> forest_ok d St D T F ->
  refine_ext d St D T init_fn refine_fn replace_fn recursive al fuel F = Some F' ->
  forest_ok d St D T F' /\ f_gfp _ _ F' = f_gfp _ _ F /\
  (* on every rank and in every tree each new leaf is in an old one *)
  Forall2 (fun p p' => forall t r, In r (map fst (lvs St D p' t)) -> exists q, In q (map fst (lvs St D p t)) /\ forall x y z, inq d r x y z -> inq d q x y z) (f_procs _ _ F) (f_procs _ _ F').
Proof.
  intros d St D T init_fn refine_fn replace_fn recursive al fuel F F' HT HA OK E. destruct (refine_ext_ok d St D T HT _ _ _ _ _ _ _ _ HA OK E) as (O1 & O2 & O3 & _).
  split; [exact O1|]. split; [exact O2|]. pose proof (forest_tiled d St D T F OK) as T0. pose proof (forest_tiled d St D T F' O1) as T1.
  assert (G : forall ps ps', Forall2 (adapted_by d St D T (finer d)) ps ps' -> (forall p, In p ps -> proc_ok d St D T p /\ forall t, 0 <= t < T -> tiled d D (lvs St D p t)) -> (forall p, In p ps' -> proc_ok d St D T p /\ forall t, 0 <= t < T -> tiled d D (lvs St D p t)) ->
    Forall2 (fun p p' => forall t r, In r (map fst (lvs St D p' t)) -> exists q, In q (map fst (lvs St D p t)) /\ forall x y z, inq d r x y z -> inq d q x y z) ps ps').
  { induction 1 as [|p p' ps ps' A H IH]; intros H0 H1; constructor; [|apply IH; intros q I; [apply H0|apply H1]; right; exact I].
    intros t r I. destruct A as (_ & A). destruct (A t r I) as (q & Iq & P). exists q. split; [exact Iq|].
    assert (Ht : 0 <= t < T).
    { destruct (H1 p' (or_introl eq_refl)) as ((RK & _) & _). destruct RK as [(K1 & K2 & K3)|(K1 & K2 & K3)]; cbn [rk_of k_trees k_first k_last] in *.
      - exfalso. unfold lvs in I. rewrite K3 in I. destruct I.
      - assert (N : t_leaves D (ft D (pr_trees St D p' t)) <> []) by (unfold lvs in I; intros E0; rewrite E0 in I; destruct I). apply K3 in N. lia. }
    destruct (H0 p (or_introl eq_refl)) as (_ & TA). destruct (TA t Ht) as (a & b & TA'). destruct (H1 p' (or_introl eq_refl)) as (_ & TB). destruct (TB t Ht) as (a' & b' & TB').
    apply tiles_wf in TA', TB'. rewrite Forall_forall in TA', TB'. apply subset_interval; [apply TA'; exact Iq|apply TB'; exact I|exact P]. }
  apply G; assumption.
Qed.
Print Assumptions C31_refine.

Theorem C46_refine : forall d St D T init_fn refine_fn replace_fn recursive al fuel (F F' : forest St D), 0 < T -> al <= 29 -> forest_ok d St D T F ->
  refine_ext d St D T init_fn refine_fn replace_fn recursive al fuel F = Some F' ->
  (f_rev _ _ F' = f_rev _ _ F \/ f_rev _ _ F' = f_rev _ _ F + 1) /\
  (f_rev _ _ F' = f_rev _ _ F <-> map (shape St D T) (f_procs _ _ F') = map (shape St D T) (f_procs _ _ F)).
Proof.
  intros d St D T init_fn refine_fn replace_fn recursive al fuel F F' HT HA OK E. destruct (refine_ext_ok d St D T HT _ _ _ _ _ _ _ _ HA OK E) as (_ & _ & _ & O). exact O.
Qed.
Print Assumptions C46_refine.

Theorem C31_coarsen : forall d St D T init_fn coarsen_fn replace_fn recursive orphans (F : forest St D), 0 < T -> forest_ok d St D T F ->
  exists F', coarsen_ext d St D T init_fn coarsen_fn replace_fn recursive orphans F = Some F' /\
  forest_ok d St D T F' /\ f_gfp _ _ F' = f_gfp _ _ F /\
  (* on every rank and in every tree complete families are replaced by their parents *)
  Forall2 (fun p p' => forall t, merges d (map fst (lvs St D p t)) (map fst (lvs St D p' t))) (f_procs _ _ F) (f_procs _ _ F') /\
  (f_rev _ _ F' = f_rev _ _ F \/ f_rev _ _ F' = f_rev _ _ F + 1) /\
  (f_rev _ _ F' = f_rev _ _ F <-> map (shape St D T) (f_procs _ _ F') = map (shape St D T) (f_procs _ _ F)).
Proof.
  intros d St D T init_fn coarsen_fn replace_fn recursive orphans F HT OK. destruct (coarsen_ext_ok d St D T HT init_fn coarsen_fn replace_fn recursive orphans F OK) as (F' & E & O1 & O2 & O3 & O4).
  exists F'. split; [exact E|]. split; [exact O1|]. split; [exact O2|]. split; [|exact O4]. eapply Forall2_imp; [|exact O3]. intros p p' _ (_ & A). exact A.
Qed.
Print Assumptions C31_coarsen.

Theorem C46_coarsen : forall d St D T init_fn coarsen_fn replace_fn recursive orphans (F F' : forest St D), 0 < T -> forest_ok d St D T F ->
  coarsen_ext d St D T init_fn coarsen_fn replace_fn recursive orphans F = Some F' ->
  (f_rev _ _ F' = f_rev _ _ F \/ f_rev _ _ F' = f_rev _ _ F + 1) /\
  (f_rev _ _ F' = f_rev _ _ F <-> map (shape St D T) (f_procs _ _ F') = map (shape St D T) (f_procs _ _ F)).
Proof.
  intros d St D T init_fn coarsen_fn replace_fn recursive orphans F F' HT OK E. destruct (C31_coarsen d St D T init_fn coarsen_fn replace_fn recursive orphans F HT OK) as (F2 & E2 & _ & _ & _ & O).
  rewrite E in E2. injection E2 as <-. exact O.
Qed.
Print Assumptions C46_coarsen.

(** the partition moves leaves between ranks and changes nothing else *)
Theorem C31_partition : forall d St D T prec w (F : forest St D), 0 < T <= 2 ^ 31 - 1 -> 53 <= prec <= 64 -> forest_ok d St D T F ->
  zlen (f_procs _ _ F) < 2 ^ 31 -> f_gnum _ _ F < 2 ^ 63 -> weights_ok St D w F ->
  exists F' shipped, partition_ext d St D T prec w F = Some (F', shipped) /\
    forest_ok d St D T F' /\ all_leaves St D T (f_procs _ _ F') = all_leaves St D T (f_procs _ _ F) /\
    length (f_procs _ _ F') = length (f_procs _ _ F) /\
    (* without weights: the equal shares *)
    (w = None -> forall k, (k <= length (f_procs _ _ F))%nat ->
       zlen (all_leaves St D T (firstn k (f_procs _ _ F'))) = partition_cut prec (f_gnum _ _ F) (Z.of_nat k) (zlen (f_procs _ _ F))).
Proof.
  intros d St D T prec w F HT PREC OK HP HG HW. destruct (partition_ext_ok d St D T ltac:(lia) prec PREC w F ltac:(lia) OK HP HG HW) as (F' & sh & E & O1 & O2 & O3 & _ & _ & _ & O7).
  exists F', sh. split; [exact E|]. split; [exact O1|]. split; [exact O2|]. assert (LEN : length (f_procs _ _ F') = length (f_procs _ _ F)) by (rewrite <- (map_length (pr_s St D) (f_procs _ _ F')), O3, map_length; reflexivity).
  split; [exact LEN|]. intros EW k Hk. rewrite <- (O7 EW k Hk). destruct (C31_valid_forest d St D T F' ltac:(lia) O1) as (_ & _ & _ & _ & _ & G & _). specialize (G k ltac:(lia)).
  destruct O1 as (_ & _ & _ & _ & _ & GQ & _). rewrite GQ in G. unfold count_quadrants in G. rewrite running_nth in G by (rewrite map_length; lia). injection G as G. rewrite <- G. reflexivity.
Qed.
Print Assumptions C31_partition.

Theorem C46_partition : forall d St D T prec w (F F' : forest St D) shipped, 0 < T <= 2 ^ 31 - 1 -> 53 <= prec <= 64 -> forest_ok d St D T F ->
  zlen (f_procs _ _ F) < 2 ^ 31 -> f_gnum _ _ F < 2 ^ 63 -> weights_ok St D w F ->
  partition_ext d St D T prec w F = Some (F', shipped) ->
  (f_rev _ _ F' = f_rev _ _ F \/ f_rev _ _ F' = f_rev _ _ F + 1) /\
  (f_rev _ _ F' = f_rev _ _ F <-> map (rank_leaves St D T) (f_procs _ _ F') = map (rank_leaves St D T) (f_procs _ _ F)) /\
  (shipped = 0 <-> f_rev _ _ F' = f_rev _ _ F).
Proof.
  intros d St D T prec w F F' shipped HT PREC OK HP HG HW E. destruct (partition_ext_ok d St D T ltac:(lia) prec PREC w F ltac:(lia) OK HP HG HW) as (F2 & sh & E2 & _ & _ & _ & O4 & O5 & O6 & _).
  rewrite E in E2. injection E2 as <- <-. auto.
Qed.
Print Assumptions C46_partition.

(** ** C31, C46: arbitrary histories *)

(** one call of refine, coarsen or partition, with any callbacks and options *)
Inductive call d St D T prec : forest St D -> forest St D -> Prop :=
| call_refine init_fn refine_fn replace_fn recursive al fuel F F' : al <= 29 ->
    refine_ext d St D T init_fn refine_fn replace_fn recursive al fuel F = Some F' -> call d St D T prec F F'
| call_coarsen init_fn coarsen_fn replace_fn recursive orphans F F' :
    coarsen_ext d St D T init_fn coarsen_fn replace_fn recursive orphans F = Some F' -> call d St D T prec F F'
| call_partition w F F' shipped : f_gnum _ _ F < 2 ^ 63 -> weights_ok St D w F ->
    partition_ext d St D T prec w F = Some (F', shipped) -> call d St D T prec F F'.

Inductive history d St D T prec : forest St D -> forest St D -> Prop :=
| history_refl F : history d St D T prec F F
| history_call F F1 F' : history d St D T prec F F1 -> call d St D T prec F1 F' -> history d St D T prec F F'.

Lemma Forall2_len {A B} (R : A -> B -> Prop) l l' : Forall2 R l l' -> length l = length l'.
Proof. induction 1; cbn [length]; congruence. Qed.

Lemma call_ok d St D T prec F F' : 0 < T <= 2 ^ 31 - 1 -> 53 <= prec <= 64 -> forest_ok d St D T F -> zlen (f_procs _ _ F) < 2 ^ 31 -> call d St D T prec F F' ->
  forest_ok d St D T F' /\ length (f_procs _ _ F') = length (f_procs _ _ F) /\ f_rev _ _ F <= f_rev _ _ F' /\
  (f_rev _ _ F' = f_rev _ _ F -> map (shape St D T) (f_procs _ _ F') = map (shape St D T) (f_procs _ _ F)).
Proof.
  intros HT PREC OK HP C. destruct C as [init_fn refine_fn replace_fn recursive al fuel F F' HA E|init_fn coarsen_fn replace_fn recursive orphans F F' E|w F F' sh HG HW E].
  - destruct (refine_ext_ok d St D T ltac:(lia) _ _ _ _ _ _ _ _ HA OK E) as (O1 & _ & O3 & O4 & O5). split; [exact O1|]. split; [symmetry; apply (Forall2_len _ _ _ O3)|]. split; [lia|apply O5].
  - destruct (coarsen_ext_ok d St D T ltac:(lia) init_fn coarsen_fn replace_fn recursive orphans F OK) as (F2 & E2 & O1 & _ & O3 & O4 & O5). rewrite E in E2. injection E2 as <-.
    split; [exact O1|]. split; [symmetry; apply (Forall2_len _ _ _ O3)|]. split; [lia|apply O5].
  - destruct (partition_ext_ok d St D T ltac:(lia) prec PREC w F ltac:(lia) OK HP HG HW) as (F2 & sh2 & E2 & O1 & O2 & O3 & O4 & O5 & _). rewrite E in E2. injection E2 as <- <-.
    split; [exact O1|]. split; [rewrite <- (map_length (pr_s St D) (f_procs _ _ F')), O3, map_length; reflexivity|]. split; [lia|]. intros H. apply O5 in H.
    unfold shape. rewrite <- !(map_map (rank_leaves St D T) (map (fun x => (fst x, fst (snd x))))). rewrite H. reflexivity.
Qed.

(** Every forest that any sequence of such calls makes of a new forest is valid, and in it every
    further call succeeds. *)
Theorem C31_histories : forall d St D T prec init_fn minq minl uni (ss : list St) lv,
  0 < T <= 2 ^ 31 - 1 -> 53 <= prec <= 64 -> ss <> [] -> zlen ss < 2 ^ 31 ->
  initial_level d T minq minl (zlen ss) = Some lv ->
  exists n0, forall fuel, (n0 <= fuel)%nat -> exists F0,
    new_ext d St D T prec init_fn minq minl uni fuel ss = Some F0 /\
    forall F, history d St D T prec F0 F -> forest_ok d St D T F /\ length (f_procs _ _ F) = length ss /\
      (forall ifn rfn pfn recursive al, al <= 29 -> exists k0, forall k, (k0 <= k)%nat -> exists F', refine_ext d St D T ifn rfn pfn recursive al k F = Some F') /\
      (forall ifn cfn pfn recursive orphans, exists F', coarsen_ext d St D T ifn cfn pfn recursive orphans F = Some F') /\
      (forall w, f_gnum _ _ F < 2 ^ 63 -> weights_ok St D w F -> exists F' shipped, partition_ext d St D T prec w F = Some (F', shipped)).
Proof.
  intros d St D T prec init_fn minq minl uni ss (level, num) HT PREC NE HP HI. destruct (new_ext_ok d St D T prec init_fn minq minl uni ss level num HT PREC NE HP HI) as (n0 & H).
  exists n0. intros fuel Hf. destruct (H fuel Hf) as (F0 & E & OK & _ & L0 & _). exists F0. split; [exact E|]. intros F HH.
  assert (G : forest_ok d St D T F /\ length (f_procs _ _ F) = length ss).
  { clear E. induction HH as [F0|F0 F1 F' HH IH C]; [auto|]. destruct (IH OK L0) as (I1 & I2). destruct (call_ok d St D T prec F1 F' HT PREC I1 ltac:(unfold zlen in *; lia) C) as (C1 & C2 & _). split; [exact C1|lia]. }
  destruct G as (G1 & G2). split; [exact G1|]. split; [exact G2|]. split; [|split].
  - intros. apply C31_refine_exists; [lia|assumption|exact G1].
  - intros. destruct (C31_coarsen d St D T ifn cfn pfn recursive orphans F ltac:(lia) G1) as (F' & E1 & _). exists F'. exact E1.
  - intros w HG HW. destruct (C31_partition d St D T prec w F HT PREC G1 ltac:(unfold zlen in *; lia) HG HW) as (F' & sh & E1 & _). exists F', sh. exact E1.
Qed.
Print Assumptions C31_histories.

(** the revision never decreases, and if it is the same after any number of calls the mesh has never
    changed: it is the same now, and was the same in between *)
Theorem C46_histories : forall d St D T prec (F0 F : forest St D), 0 < T <= 2 ^ 31 - 1 -> 53 <= prec <= 64 ->
  forest_ok d St D T F0 -> zlen (f_procs _ _ F0) < 2 ^ 31 -> history d St D T prec F0 F ->
  f_rev _ _ F0 <= f_rev _ _ F /\
  (f_rev _ _ F = f_rev _ _ F0 -> map (shape St D T) (f_procs _ _ F) = map (shape St D T) (f_procs _ _ F0)).
Proof.
  intros d St D T prec F0 F HT PREC OK HP HH.
  assert (G : forest_ok d St D T F /\ length (f_procs _ _ F) = length (f_procs _ _ F0) /\ f_rev _ _ F0 <= f_rev _ _ F /\ (f_rev _ _ F = f_rev _ _ F0 -> map (shape St D T) (f_procs _ _ F) = map (shape St D T) (f_procs _ _ F0))).
  { induction HH as [F0|F0 F1 F' HH IH C]; [split; [exact OK|split; [reflexivity|split; [lia|reflexivity]]]|]. destruct (IH OK HP) as (I1 & I2 & I3 & I4).
    destruct (call_ok d St D T prec F1 F' HT PREC I1 ltac:(unfold zlen in *; lia) C) as (C1 & C2 & C3 & C4). split; [exact C1|]. split; [lia|]. split; [lia|].
    intros E. rewrite C4 by lia. apply I4. lia. }
  tauto.
Qed.
Print Assumptions C46_histories.

(** the owner search of C23 is right in every valid forest *)
Theorem C31_find_owner : forall d St D T (F : forest St D) t q guess, 0 < T -> forest_ok d St D T F ->
  0 <= t < T -> inroot d (qx q) (qy q) (qz q) -> 0 <= guess < zlen (f_procs _ _ F) ->
  exists p pr lf, find_owner d (f_gfp _ _ F) (zlen (f_procs _ _ F)) t q guess = Some p /\
    zget (f_procs _ _ F) p = Some pr /\ In lf (lvs St D pr t) /\ qpos d (fst lf) <= qpos d q < qend d (fst lf).
Proof.
  intros d St D T F t q guess HT OK Ht Hq Hg. destruct (owner_forest d St D T HT F OK) as (H1 & H2).
  assert (LEN : zlen (map (rk_of St D) (f_procs _ _ F)) = zlen (f_procs _ _ F)) by (unfold zlen; rewrite map_length; reflexivity).
  destruct (PropertiesOwner.C23_find_owner_forest d (@fst quad D) T _ t q guess H1 H2 Ht Hq ltac:(rewrite LEN; exact Hg)) as (ms & p & r & x & E1 & E2 & E3 & E4 & E5 & E6 & _).
  destruct OK as (_ & _ & _ & _ & _ & _ & GP). rewrite GP in E1. injection E1 as <-. rewrite LEN in E2.
  assert (P0 : 0 <= p) by (unfold zget in E3; destruct (p <? 0) eqn:C; [discriminate|lia]). rewrite zget_nth in E3 by exact P0. rewrite nth_error_map in E3.
  destruct (nth_error (f_procs _ _ F) (Z.to_nat p)) as [pr|] eqn:EP; [|discriminate]. injection E3 as <-. exists p, pr, (snd x). split; [exact E2|]. split; [rewrite zget_nth by exact P0; exact EP|]. split; [|exact E6].
  apply loc_from_labels in E4. destruct E4 as (_ & E4). rewrite E5 in E4. exact E4.
Qed.
Print Assumptions C31_find_owner.

(** ** Examples: two trees on three ranks.  The callbacks number the leaves. *)
Definition x_init (s t : Z) (q : quad) : Z * Z := (s + 1, s).
Definition x_refine (s t : Z) (q : quad) (v : Z) : Z * Z * bool := (s, v, (t =? 0) && (qx q =? 0) && (qy q =? 0)).
Definition x_coarsen (s t : Z) (l : list (quad * Z)) : Z * list Z * bool := (s, map snd l, true).
Definition x_new : option (forest Z Z) := new_ext D2 Z Z 2 53 x_init 1 1 true 100 [100; 200; 300].
Definition x_ref (F : forest Z Z) := refine_ext D2 Z Z 2 x_init x_refine None false (-1) 100 F.
Definition x_none (F : forest Z Z) := refine_ext D2 Z Z 2 x_init (fun s _ _ v => (s, v, false)) None false (-1) 100 F.
Definition x_part (F : forest Z Z) := option_map fst (partition_ext D2 Z Z 2 53 None F).
Definition x_coar (F : forest Z Z) := coarsen_ext D2 Z Z 2 x_init x_coarsen None true true F.
(** per rank the trees with level and number of every leaf; global_first_quadrant; markers; revision *)
Definition x_show (F : forest Z Z) :=
  (map (fun p => map (fun x => (fst x, ql (fst (snd x)), snd (snd x))) (rank_leaves Z Z 2 p)) (f_procs _ _ F), f_gfq _ _ F,
   map (fun m => (g_tree m, qx (g_quad m) / 2 ^ 28, qy (g_quad m) / 2 ^ 28)) (f_gfp _ _ F), f_rev _ _ F).
Definition x_then (f : forest Z Z -> option (forest Z Z)) (o : option (forest Z Z)) := match o with Some F => f F | None => None end.

Example C34_ex : initial_level D2 2 1 1 3 = Some (1, 4) /\ option_map x_show x_new =
  Some ([[(0, 1, 100); (0, 1, 101)]; [(0, 1, 200); (0, 1, 201); (1, 1, 202)]; [(1, 1, 300); (1, 1, 301); (1, 1, 302)]],
        [0; 2; 5; 8], [(0, 0, 0); (0, 0, 2); (1, 2, 0); (2, 0, 0)], 0).
Proof. split; vm_compute; reflexivity. Qed.
(** not uniform: the first and last quadrants of every local tree have the level, the range between
    them is filled with the coarsest quadrants *)
Example C34_ex_coarse : option_map x_show (new_ext D2 Z Z 2 53 x_init 1 2 false 100 [100; 200; 300]) =
  Some ([[(0, 2, 100); (0, 2, 101); (0, 2, 102); (0, 2, 103); (0, 1, 104); (0, 2, 105); (0, 2, 106)];
         [(0, 2, 200); (0, 2, 201); (0, 2, 202); (0, 2, 203); (0, 2, 204); (0, 2, 205); (1, 2, 206); (1, 2, 207); (1, 2, 208); (1, 2, 209); (1, 2, 210)];
         [(1, 2, 300); (1, 2, 301); (1, 2, 302); (1, 1, 303); (1, 2, 304); (1, 2, 305); (1, 2, 306); (1, 2, 307)]],
        [0; 7; 18; 26], [(0, 0, 0); (0, 0, 3); (1, 3, 0); (2, 0, 0)], 0).
Proof. vm_compute. reflexivity. Qed.
Example C31_ex_refine : option_map x_show (x_then x_ref x_new) =
  Some ([[(0, 2, 102); (0, 2, 103); (0, 2, 104); (0, 2, 105); (0, 1, 101)]; [(0, 1, 200); (0, 1, 201); (1, 1, 202)]; [(1, 1, 300); (1, 1, 301); (1, 1, 302)]],
        [0; 5; 8; 11], [(0, 0, 0); (0, 0, 2); (1, 2, 0); (2, 0, 0)], 1).
Proof. vm_compute. reflexivity. Qed.
Example C31_ex_partition : option_map x_show (x_then x_part (x_then x_ref x_new)) =
  Some ([[(0, 2, 102); (0, 2, 103); (0, 2, 104)]; [(0, 2, 105); (0, 1, 101); (0, 1, 200); (0, 1, 201)]; [(1, 1, 202); (1, 1, 300); (1, 1, 301); (1, 1, 302)]],
        [0; 3; 7; 11], [(0, 0, 0); (0, 1, 1); (1, 0, 0); (2, 0, 0)], 2).
Proof. vm_compute. reflexivity. Qed.
(** the family that is split between two ranks stays, the other one is merged *)
Example C31_ex_coarsen : option_map x_show (x_then x_coar (x_then x_part (x_then x_ref x_new))) =
  Some ([[(0, 2, 102); (0, 2, 103); (0, 2, 104)]; [(0, 2, 105); (0, 1, 101); (0, 1, 200); (0, 1, 201)]; [(1, 0, 303)]],
        [0; 3; 7; 8], [(0, 0, 0); (0, 1, 1); (1, 0, 0); (2, 0, 0)], 3).
Proof. vm_compute. reflexivity. Qed.
(** a second partition and a refinement that refines nothing leave the revision as it is *)
Example C46_ex : option_map x_show (x_then x_none (x_then x_part (x_then x_part (x_then x_ref x_new)))) = option_map x_show (x_then x_part (x_then x_ref x_new)).
Proof. vm_compute. reflexivity. Qed.
