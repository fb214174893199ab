(** * Local adaptation keeps a forest valid *)

From Coq Require Import ZArith List Bool Lia Arith ZifyBool Sorting.Sorted.
From Verif Require Import Quad Spec Interval QuadLemmas DescLemmas Tree TreeLemmas Adapt AdaptSpec ListLemmas RefineLemmas Tiles Partition PartLemmas PartTrees PartFinal Comm CommLemmas OwnerLemmas PropertiesPartition Weighted WeightedLemmas Forest ForestSpec.
Import ListNotations.
Open Scope Z_scope.

Lemma lsorted_app {A} (l l' : list (Z * A)) : lsorted (l ++ l') <-> lsorted l /\ lsorted l' /\ forall x y, In x l -> In y l' -> fst x <= fst y.
Proof.
  unfold lsorted. induction l as [|x l IH]; cbn [app].
  - split; [intros H; split; [constructor|split; [exact H|intros ? ? []]]|tauto].
  - split.
    + intros H. inversion H as [|? ? S F]; subst. apply IH in S. destruct S as (S1 & S2 & S3). rewrite Forall_app in F. destruct F as (F1 & F2).
      split; [constructor; assumption|]. split; [exact S2|]. intros a b [<-|I1] I2; [rewrite Forall_forall in F2; apply F2; exact I2|auto].
    + intros (H1 & H2 & H3). inversion H1 as [|? ? S F]; subst. constructor.
      * apply IH. split; [exact S|]. split; [exact H2|]. intros a b I1 I2. apply H3; [right; exact I1|exact I2].
      * apply Forall_app. split; [exact F|]. apply Forall_forall. intros b I2. apply H3; [left; reflexivity|exact I2].
Qed.

(** all labels occur: neighbours differ by at most one *)
Lemma full_step {A} (hi : Z) : forall l : list (Z * A), lsorted l -> (forall x, In x l -> fst x < hi) ->
  (forall x t, hd_error l = Some x -> fst x < t < hi -> exists y, In y l /\ fst y = t) -> Sorted step l.
Proof.
  induction l as [|x l IH]; intros S B C; [constructor|]. inversion S as [|? ? S' F]; subst.
  destruct l as [|y l]; [repeat constructor|].
  assert (St : step x y).
  { inversion F as [|? ? Hxy F']; subst. unfold step. split; [exact Hxy|]. destruct (Z_lt_le_dec (fst x + 1) (fst y)) as [L|L]; [exfalso|lia].
    destruct (C x (fst x + 1) eq_refl) as (z & I & E). { pose proof (B y ltac:(right; left; reflexivity)). lia. }
    inversion S' as [|? ? _ F2]; subst. rewrite Forall_forall in F2. destruct I as [<-|[<-|I]]; [lia|lia|specialize (F2 z I); lia]. }
  constructor; [|constructor; exact St]. apply IH; [exact S'|intros z I; apply B; right; exact I|].
  intros w t E Ht. injection E as <-. destruct (C x t eq_refl) as (z & I & Ez); [unfold step in St; lia|].
  destruct I as [<-|I]; [unfold step in St; lia|]. exists z. auto.
Qed.

Section FL.
  Variable d : dim.
  Variables (St D : Type).
  Variable T : Z.
  Hypothesis HT : 0 < T.
  Local Notation lvs := (lvs St D).
  Local Notation all_leaves := (all_leaves St D T).
  Local Notation proc := (proc St D).

  Lemma lvs_rk (p : proc) t : k_trees _ (rk_of St D p) t = lvs p t.
  Proof. reflexivity. Qed.
  Lemma all_glob ps : all_leaves ps = glob T (map (rk_of St D) ps).
  Proof. unfold ForestSpec.all_leaves, glob. induction ps as [|p ps IH]; [reflexivity|]. cbn [map flat_map]. rewrite IH. reflexivity. Qed.
  Lemma all_in ps x : In x (all_leaves ps) <-> exists p, In p ps /\ 0 <= fst x < T /\ In (snd x) (lvs p (fst x)).
  Proof.
    unfold ForestSpec.all_leaves. rewrite in_flat_map. split.
    - intros (p & I & H). apply loc_from_labels in H. exists p. split; [exact I|]. split; [lia|apply H].
    - intros (p & I & H1 & H2). exists p. split; [exact I|]. destruct x as (t, lf). cbn [fst snd] in *.
      replace (Z.to_nat T) with (Z.to_nat t + S (Z.to_nat T - Z.to_nat t - 1))%nat by lia. rewrite loc_from_app. apply in_or_app. right. cbn [loc_from].
      apply in_or_app. left. replace (0 + Z.of_nat (Z.to_nat t)) with t by lia. apply in_map. exact H2.
  Qed.
  Lemma ofl_all ps t : 0 <= t < T -> ofl t (all_leaves ps) = flat_map (fun p => lvs p t) ps.
  Proof.
    intros Ht. unfold ForestSpec.all_leaves. induction ps as [|p ps IH]; [reflexivity|]. cbn [flat_map]. rewrite ofl_app, IH. f_equal.
    pose proof (ofl_sub (lvs p) (Z.to_nat T) 0 0 (length (loc_from 0 (Z.to_nat T) (lvs p))) t ltac:(lia)) as H.
    unfold sub in H. rewrite Nat.sub_0_r in H. cbn [skipn] in H. rewrite firstn_all in H. rewrite H. rewrite Nat.sub_0_l. cbn [skipn].
    rewrite Nat.sub_0_r. apply firstn_all2. pose proof (offt_step (lvs p) 0 t ltac:(lia)) as O. unfold offt in *. 
    replace (Z.to_nat T) with (Z.to_nat (t + 1 - 0) + (Z.to_nat T - Z.to_nat (t + 1)))%nat by lia. rewrite loc_from_app, app_length. lia.
  Qed.

  Lemma tree_nonempty F t : forest_ok d St D T F -> 0 <= t < T -> exists p lf, In p (f_procs _ _ F) /\ In lf (lvs p t).
  Proof.
    intros (_ & _ & _ & H & _) Ht. specialize (H t Ht). destruct (flat_map (fun p => lvs p t) (f_procs _ _ F)) as [|lf l] eqn:E.
    - cbn in H. pose proof (tree_pos d). lia.
    - assert (I : In lf (flat_map (fun p => lvs p t) (f_procs _ _ F))) by (rewrite E; left; reflexivity). apply in_flat_map in I. destruct I as (p & I1 & I2). exists p, lf. auto.
  Qed.

  Lemma forest_dist F : forest_ok d St D T F -> dist_ok T (map (rk_of St D) (f_procs _ _ F)).
  Proof.
    intros OK. pose proof OK as (NE & FP & S & TL & _). split.
    - apply Forall_forall. intros r I. apply in_map_iff in I. destruct I as (p & <- & I). rewrite Forall_forall in FP. apply FP. exact I.
    - rewrite <- all_glob. apply (full_step T); [exact S|intros x I; apply all_in in I; destruct I as (p & _ & H & _); lia|].
      intros x t E Ht. assert (I : In x (all_leaves (f_procs _ _ F))) by (destruct (all_leaves (f_procs _ _ F)); [discriminate|injection E as ->; left; reflexivity]).
      apply all_in in I. destruct I as (p0 & _ & Hx & _). destruct (tree_nonempty F t OK ltac:(lia)) as (p & lf & I1 & I2).
      exists (t, lf). split; [apply all_in; exists p; cbn [fst snd]; split; [exact I1|split; [lia|exact I2]]|reflexivity].
  Qed.

  Lemma num_counts ps : Forall (proc_ok d St D T) ps -> map (pr_num St D) ps = local_counts T (map (rk_of St D) ps).
  Proof.
    intros F. unfold local_counts. rewrite map_map. apply map_ext_in. intros p I. rewrite Forall_forall in F. apply F in I. apply I.
  Qed.

  (** positions determine coordinates *)
  Lemma pos_coords q r : wf d q -> wf d r -> qpos d q = qpos d r -> qx q = qx r /\ qy q = qy r /\ qz q = qz r.
  Proof.
    intros Wq Wr E. apply (ppos_inj d); [apply (wf_qin d q Wq)|apply (wf_qin d r Wr)|exact E].
  Qed.
  Lemma quad_eq q r : wf d q -> wf d r -> qpos d q = qpos d r -> ql q = ql r -> q = r.
  Proof. intros Wq Wr E L. destruct (pos_coords q r Wq Wr E) as (A & B & C). destruct q, r. cbn in *. congruence. Qed.

  (** the leaves of every tree of a rank are replaced by others that tile the same range *)
  Definition adapted (p p' : proc) : Prop :=
    proc_ok d St D T p' /\ pr_first _ _ p' = pr_first _ _ p /\ pr_last _ _ p' = pr_last _ _ p /\
    forall t a b, 0 <= t < T -> tiles d a b (map fst (lvs p t)) -> tiles d a b (map fst (lvs p' t)).

  Lemma tiles_empty a b l : tiles d a b l -> (l = [] <-> a = b).
  Proof. destruct l as [|q l]; cbn [tiles]; [tauto|]. intros (W & <- & H). apply tiles_le in H. pose proof (qsize_pos d q W). unfold qend in *. split; [discriminate|lia]. Qed.

  Definition tiled (l : list (quad * D)) : Prop := exists a b, tiles d a b (map fst l).

  Lemma proc_tiled ps t : (exists a b, tiles d a b (map fst (flat_map (fun p => lvs p t) ps))) -> Forall (fun p => tiled (lvs p t)) ps.
  Proof.
    induction ps as [|p ps IH]; intros (a & b & H); constructor; cbn [flat_map] in H; rewrite map_app in H; apply tiles_split in H; destruct H as (c & H1 & H2).
    - exists a, c. exact H1.
    - apply IH. exists c, b. exact H2.
  Qed.

  Lemma adapted_tiles ps ps' t : 0 <= t < T -> Forall2 adapted ps ps' -> forall a b, tiles d a b (map fst (flat_map (fun p => lvs p t) ps)) -> tiles d a b (map fst (flat_map (fun p => lvs p t) ps')).
  Proof.
    intros Ht. induction 1 as [|p p' ps ps' A _ IH]; intros a b H; [exact H|]. cbn [flat_map] in *. rewrite map_app in *. apply tiles_split in H. destruct H as (c & H1 & H2).
    apply (tiles_app d _ _ a c b); [|apply IH; exact H2]. destruct A as (_ & _ & _ & A). apply A; assumption.
  Qed.

  Lemma adapted_labels ps ps' : Forall2 adapted ps ps' -> (forall t, 0 <= t < T -> Forall (fun p => tiled (lvs p t)) ps) ->
    forall x', In x' (all_leaves ps') -> exists x, In x (all_leaves ps) /\ fst x = fst x'.
  Proof.
    intros F TD x' I. apply all_in in I. destruct I as (p' & I & Ht & Il). revert TD I. induction F as [|p q ps ps' A _ IH]; intros TD I; [destruct I|].
    destruct I as [->|I].
    - specialize (TD _ Ht). inversion TD as [|? ? (a & b & H) _]; subst. destruct A as (_ & _ & _ & A). pose proof (A _ a b Ht H) as H'.
      destruct (lvs p (fst x')) as [|lf l] eqn:E.
      + cbn in H. subst b. apply tiles_empty in H'. destruct (lvs p' (fst x')); [destruct Il|]. destruct H' as [_ H']. specialize (H' eq_refl). discriminate.
      + exists (fst x', lf). split; [|reflexivity]. apply all_in. exists p. cbn [fst snd]. split; [left; reflexivity|]. split; [exact Ht|]. rewrite E. left. reflexivity.
    - destruct IH as (x & Ix & Ex); [intros t Ht'; specialize (TD t Ht'); inversion TD; subst; assumption|exact I|].
      exists x. split; [|exact Ex]. apply all_in in Ix. destruct Ix as (r & Ir & H). apply all_in. exists r. split; [right; exact Ir|exact H].
  Qed.

  Lemma adapted_sorted ps ps' : Forall2 adapted ps ps' -> (forall t, 0 <= t < T -> Forall (fun p => tiled (lvs p t)) ps) -> lsorted (all_leaves ps) -> lsorted (all_leaves ps').
  Proof.
    induction 1 as [|p p' ps ps' A F IH]; intros TD S; [exact S|].
    assert (SP : forall (q : proc) qs, all_leaves (q :: qs) = all_leaves [q] ++ all_leaves qs) by (intros q qs; unfold ForestSpec.all_leaves; cbn [flat_map]; rewrite app_nil_r; reflexivity).
    rewrite SP in *. apply lsorted_app in S. destruct S as (S1 & S2 & S3). apply lsorted_app. split; [|split].
    - unfold ForestSpec.all_leaves. cbn [flat_map]. rewrite app_nil_r. apply lsorted_loc.
    - apply IH; [|exact S2]. intros t Ht. specialize (TD t Ht). inversion TD; assumption.
    - intros x y Ix Iy. destruct (adapted_labels [p] [p'] ltac:(auto) ltac:(intros t Ht; specialize (TD t Ht); inversion TD; auto) x Ix) as (x0 & Ix0 & Ex).
      destruct (adapted_labels ps ps' F ltac:(intros t Ht; specialize (TD t Ht); inversion TD; auto) y Iy) as (y0 & Iy0 & Ey).
      specialize (S3 x0 y0 Ix0 Iy0). lia.
  Qed.

  Lemma adapted_marker p p' : rk_ok T (rk_of St D p) -> (forall t, 0 <= t < T -> tiled (lvs p t)) -> adapted p p' ->
    marker_input fst (rk_of St D p') = marker_input fst (rk_of St D p).
  Proof.
    intros OK TD (OK' & E1 & E2 & A). destruct OK' as (OK' & _). unfold marker_input. cbn [rk_of k_first k_trees]. rewrite E1.
    destruct (pr_first St D p <? 0) eqn:C; [reflexivity|]. destruct OK as [(H & _)|(H1 & H2 & H3)]; [cbn [rk_of k_first] in H; lia|]. cbn [rk_of k_first k_last] in H1, H2.
    set (t := pr_first St D p) in *. destruct (TD t ltac:(lia)) as (a & b & H). pose proof (A t a b ltac:(lia) H) as H'.
    assert (NE : lvs p t <> []) by (apply H3; cbn [rk_of k_first k_last]; fold t; lia).
    change (t_leaves D (ft D (pr_trees St D p' t))) with (lvs p' t). change (t_leaves D (ft D (pr_trees St D p t))) with (lvs p t).
    destruct (lvs p t) as [|lf l] eqn:E; [congruence|]. destruct (lvs p' t) as [|lf' l'] eqn:E'.
    - apply tiles_empty in H'. apply tiles_empty in H. cbn in H, H'. destruct H' as [H' _]. specialize (H' eq_refl). destruct H as [_ H]. specialize (H H'). discriminate.
    - cbn [map tiles] in H, H'. destruct H as (W & P & _). destruct H' as (W' & P' & _). destruct (pos_coords (fst lf') (fst lf) W' W ltac:(lia)) as (X1 & X2 & X3). rewrite X1, X2, X3. reflexivity.
  Qed.

  (** a forest whose ranks are adapted and whose leaves are counted again is valid *)
  Lemma adapt_ok F ps' : forest_ok d St D T F -> Forall2 adapted (f_procs _ _ F) ps' ->
    exists F', recount St D F ps' = Some F' /\ forest_ok d St D T F' /\ f_procs _ _ F' = ps' /\
      f_rev _ _ F' = (if zlen (all_leaves (f_procs _ _ F)) =? zlen (all_leaves ps') then f_rev _ _ F else f_rev _ _ F + 1).
  Proof.
    intros OK A. pose proof OK as (NE & FP & S & TL & GN & GQ & GP).
    assert (TD : forall t, 0 <= t < T -> Forall (fun p => tiled (lvs p t)) (f_procs _ _ F)) by (intros t Ht; apply proc_tiled; exists 0, (TREE d); auto).
    assert (FP' : Forall (proc_ok d St D T) ps') by (clear - A; induction A as [|? ? ? ? (H & _)]; constructor; auto).
    assert (LEN : length ps' = length (f_procs _ _ F)) by (clear - A; induction A; cbn [length]; congruence).
    assert (N : zget (count_quadrants (map (pr_num St D) ps')) (zlen ps') = Some (zlen (all_leaves ps'))).
    { rewrite zget_nth by (unfold zlen; lia). unfold count_quadrants. rewrite running_nth by (rewrite map_length; unfold zlen; lia).
      replace (Z.to_nat (zlen ps')) with (length (map (pr_num St D) ps')) by (rewrite map_length; unfold zlen; lia).
      rewrite (num_counts ps' FP'). f_equal. rewrite all_glob, <- glob_total. reflexivity. }
    unfold recount. rewrite N. eexists. split; [reflexivity|]. unfold forest_ok. cbn [f_procs f_gfq f_gfp f_gnum f_rev]. split; [|split; [reflexivity|rewrite GN; reflexivity]].
    split; [destruct ps'; [destruct (f_procs _ _ F); [congruence|discriminate]|discriminate]|].
    split; [exact FP'|]. split; [eapply adapted_sorted; eauto|]. split; [intros t Ht; eapply adapted_tiles; eauto|]. split; [reflexivity|]. split; [reflexivity|].
    rewrite <- GP. unfold global_partition. f_equal.
    assert (EQ : inputs fst (map (rk_of St D) ps') = inputs fst (map (rk_of St D) (f_procs _ _ F))); [|rewrite EQ; reflexivity].
    clear - A TD FP. induction A as [|p p' ps ps' A _ IH]; [reflexivity|]. cbn [map inputs]. inversion FP as [|? ? OKp FP']; subst. rewrite IH; [|exact FP'|intros t Ht; specialize (TD t Ht); inversion TD; assumption].
    rewrite (adapted_marker p p'); [reflexivity|apply OKp|intros t Ht; specialize (TD t Ht); inversion TD; assumption|exact A].
  Qed.
End FL.
