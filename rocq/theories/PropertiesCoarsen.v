(** * Coarsening: C29, C30 and the second half of C09 *)

From Coq Require Import ZArith List Bool Lia ZifyBool Sorting.Sorted.
From Verif Require Import Quad Spec Interval QuadLemmas DescLemmas Tree TreeLemmas SearchLocal Tiles Adapt AdaptSpec ListLemmas RefineLemmas RefineProps CoarsenLemmas CoarsenGeo CoarsenProps CoarsenFix.
Import ListNotations.
Open Scope Z_scope.

(** ** C09: in an array without gaps and overlaps, consecutive quadrants with
    child ids 0, 1, ... are the children of one quadrant *)
Theorem C09_consecutive_ids : forall d l, Forall (wf d) l -> gapfree d l -> length l = childrenn d ->
  (map (child_id d) l = cids d <-> exists p, wf d p /\ ql p < 29 /\ l = childrenv d p).
Proof.
  intros d l F G L. destruct l as [|q l]; [destruct d; discriminate|].
  pose proof (gapfree_tiles d (q :: l) F G q eq_refl) as T. set (b := qend d (last (q :: l) q)) in T.
  set (fam := map (fun q => (q, tt)) (q :: l)).
  assert (M : map fst fam = q :: l) by (unfold fam; rewrite map_map; apply map_id).
  pose proof (ids_family d unit fam (qpos d q) b) as H. rewrite M in H.
  unfold fam in H at 1. rewrite map_length in H. rewrite <- (H L T). clear - L.
  assert (X : forall l i, ids_from d unit i (map (fun q => (q, tt)) l) = true <-> map (child_id d) l = map (fun k => i + Z.of_nat k) (seq 0 (length l))).
  { clear. induction l as [|q l IH]; intros i; [cbn; tauto|].
    cbn [map length seq ids_from fst]. rewrite andb_true_iff, Z.eqb_eq, IH, <- seq_shift, map_map.
    assert (E : map (fun k => i + 1 + Z.of_nat k) (seq 0 (length l)) = map (fun k => i + Z.of_nat (Datatypes.S k)) (seq 0 (length l))).
    { apply map_ext. intros k. lia. }
    rewrite E. rewrite Z.add_0_r. split.
    - intros (<- & ->). reflexivity.
    - intros Q. inversion Q. auto. }
  unfold fam. rewrite X, L. destruct d; reflexivity.
Qed.

Example C09_consecutive_ids_example :
  Forall (wf D2) (childrenv D2 (mkq 0 0 0 3)) /\ gapfree D2 (childrenv D2 (mkq 0 0 0 3)) /\
  length (childrenv D2 (mkq 0 0 0 3)) = childrenn D2 /\ map (child_id D2) (childrenv D2 (mkq 0 0 0 3)) = cids D2.
Proof.
  pose proof (tiles_children D2 (mkq 0 0 0 3) ltac:(apply is_valid_wf; reflexivity) ltac:(cbn; lia)) as T.
  split; [|split; [|split; reflexivity]].
  - eapply tiles_wf. exact T.
  - eapply tiles_gapfree. exact T.
Qed.

(** ** C29 *)

Section OnePassProof.
  Variable d : dim.
  Variables (St D : Type).
  Variable init_fn : St -> Z -> quad -> St * D.
  Variable coarsen_fn : St -> Z -> list (leaf D) -> St * list D * bool.
  Variable replace_fn : option (St -> Z -> list (leaf D) -> leaf D -> St * D).
  Variable orphans : bool.
  Variable jt : Z.
  Notation CH := (childrenn d).
  Notation aloop := (abs_loop d St D init_fn coarsen_fn replace_fn false orphans jt).
  Notation astep := (abs_step d St D init_fn coarsen_fn replace_fn false orphans jt).
  Notation pass := (one_pass d St D init_fn coarsen_fn replace_fn orphans jt).
  Notation tiled a b L := (tiles d a b (map fst L)).

  Lemma ch_length p : length (childrenv d p) = CH.
  Proof. destruct d; reflexivity. Qed.

  Lemma familyb_iff q0 r l : l = q0 :: r -> Forall (wf d) l ->
    (familyb d q0 l = true <-> exists p, wf d p /\ ql p < 29 /\ l = childrenv d p).
  Proof.
    intros E F. unfold familyb.
    assert (W0 : wf d q0) by (rewrite E in F; inversion F; auto).
    pose proof (wf_level _ _ W0). split.
    - intros H0. apply andb_true_iff in H0. destruct H0 as (L0 & H0).
      destruct (list_eq_dec quad_eq_dec l _) as [El|]; [|discriminate].
      destruct (parent_wf d q0 W0 ltac:(lia)) as (Wp & Lp & _). exists (parent d q0). split; [auto|]. split; [lia|auto].
    - intros (p & Wp & Lp & El). assert (Q : childrenv d p = q0 :: r) by congruence.
      destruct (parent_of_children d p Wp Lp _ _ Q) as (Pp & L0). rewrite Pp. pose proof (wf_level _ _ Wp).
      destruct (list_eq_dec quad_eq_dec l _) as [_|Ne]; [|contradiction]. rewrite andb_true_r. lia.
  Qed.

  Lemma familyb_short q0 l : (length l < CH)%nat -> familyb d q0 l = false.
  Proof.
    intros H. unfold familyb. destruct (list_eq_dec quad_eq_dec l _) as [E|]; [|apply andb_false_r].
    exfalso. rewrite E, ch_length in H. lia.
  Qed.

  Lemma cut_next (L R : list (leaf D)) w x : (w <= length L)%nat ->
    firstn (w + 1) (firstn w L ++ x :: R) = firstn w L ++ [x] /\ skipn (w + 1) (firstn w L ++ x :: R) = R.
  Proof.
    intros H. assert (E : length (firstn w L) = w) by (rewrite firstn_length; lia).
    assert (E1 : length (firstn w L ++ [x]) = (w + 1)%nat) by (rewrite app_length, E; reflexivity).
    change (x :: R) with ([x] ++ R). rewrite app_assoc. split.
    - rewrite <- E1, firstn_app, firstn_all, Nat.sub_diag. cbn [firstn]. apply app_nil_r.
    - rewrite <- E1, skipn_app, skipn_all, Nat.sub_diag. reflexivity.
  Qed.

  Definition finish (s : St) (L : list (leaf D)) (w : nat) : St * list (leaf D) :=
    if orphans then let (s', l) := walk (ask_orphan St D coarsen_fn jt) s (skipn w L) in (s', firstn w L ++ l) else (s, L).

  Lemma pass_short : forall n s l, (length l <= n)%nat -> (length l < CH)%nat ->
    pass n s l = if orphans then walk (ask_orphan St D coarsen_fn jt) s l else (s, l).
  Proof.
    induction n as [|n IH]; intros s l Hn Hl.
    - destruct l; [|cbn in Hn; lia]. destruct orphans; reflexivity.
    - destruct l as [|c0 l]; [destruct orphans; reflexivity|]. cbn [one_pass length] in *.
      rewrite familyb_short by (rewrite map_length, firstn_length; cbn [length]; lia).
      destruct orphans.
      + cbn [walk]. destruct (ask_orphan St D coarsen_fn jt s c0) as (s1, o). rewrite IH by lia. reflexivity.
      + rewrite IH by lia. reflexivity.
  Qed.

  Lemma loop_pass : forall fuel s L w a b s' L' w', tiled a b L -> (w <= length L)%nat -> aloop fuel s L w = Some (s', L', w') ->
    forall n, (length L - w <= n)%nat -> finish s' L' w' = let (s2, r) := pass n s (skipn w L) in (s2, firstn w L ++ r).
  Proof.
    induction fuel as [|fuel IH]; intros s L w a b s' L' w' T Hw E n Hn; cbn [abs_loop] in E;
      destruct (Nat.leb_spec (w + CH) (length L)) as [Le|Gt]; try discriminate.
    1,3: inversion E; subst; rewrite pass_short by (rewrite skipn_length; lia); unfold finish; destruct orphans;
       [destruct (walk _ s' (skipn w' L')); reflexivity|rewrite firstn_skipn; reflexivity].
    pose proof (CHpos d) as C4.
    pose proof (astep_tiled d St D init_fn coarsen_fn replace_fn false orphans jt a b s L w T Le) as T1.
    pose proof (astep_measure d St D init_fn coarsen_fn replace_fn false orphans jt a b s L w T Le) as M1.
    destruct (skipn w L) as [|c0 l'] eqn:ES.
    { apply (f_equal (@length _)) in ES. rewrite skipn_length in ES. cbn [length] in ES. lia. }
    assert (Lsk : length (c0 :: l') = (length L - w)%nat) by (rewrite <- ES; apply skipn_length).
    assert (SK : skipn (w + CH) L = skipn CH (c0 :: l')) by (rewrite <- ES, skipn_plus; reflexivity).
    assert (SK1 : skipn (w + 1) L = l') by (rewrite skipn_plus, ES; reflexivity).
    destruct n as [|n]; [cbn [length] in Lsk; lia|].
    unfold abs_step in E, T1, M1. rewrite ES in E, T1, M1. cbn [one_pass].
    remember (firstn CH (c0 :: l')) as fam eqn:EF.
    assert (LF : length fam = CH) by (rewrite EF, firstn_length; lia).
    destruct fam as [|c0' fr]; [cbn in LF; lia|].
    assert (c0' = c0) by (destruct CH; [lia|cbn in EF; congruence]). subst c0'.
    assert (TW : exists a1 b1, tiled a1 b1 (c0 :: fr)).
    { destruct (tiled_window d D a b L w CH T) as (a' & b' & _ & T2 & _). rewrite ES, <- EF in T2. eauto. }
    destruct TW as (a1 & b1 & TW).
    assert (FB : ids_from d D 0 (c0 :: fr) = familyb d (fst c0) (map fst (c0 :: fr))).
    { apply eq_true_iff_eq. rewrite (ids_family d D (c0 :: fr) a1 b1 LF TW).
      symmetry. apply (familyb_iff (fst c0) (map fst fr)); [reflexivity|]. eapply tiles_wf; eauto. }
    rewrite FB in E, T1, M1. rewrite SK, SK1 in E, T1, M1.
    destruct (familyb d (fst c0) (map fst (c0 :: fr))).
    - destruct (coarsen_fn s jt (c0 :: fr)) as ((s1, ds), yes). destruct yes.
      + destruct (make_parent d St D init_fn replace_fn jt s1 (rezip D (c0 :: fr) ds) c0) as (s2, pv).
        rewrite andb_false_r in E, M1.
        destruct (cut_next L (skipn CH (c0 :: l')) w pv Hw) as (F1 & F2).
        rewrite (IH _ _ _ _ _ _ _ _ T1 (proj2 M1) E n), F1, F2.
        * destruct (pass n s2 (skipn CH (c0 :: l'))) as (s3, r). rewrite <- app_assoc. reflexivity.
        * rewrite app_length, firstn_length. cbn [length]. rewrite skipn_length, Lsk. lia.
      + remember (rezip D (c0 :: fr) ds) as fam' eqn:Ef'.
        assert (Lf' : length fam' = CH).
        { rewrite <- (map_length fst), Ef', rezip_fst, map_length. exact LF. }
        destruct fam' as [|c0' fr']; [cbn in Lf'; lia|]. cbn [app] in *.
        destruct (cut_next L (fr' ++ skipn CH (c0 :: l')) w c0' Hw) as (F1 & F2).
        rewrite (IH _ _ _ _ _ _ _ _ T1 (proj2 M1) E n), F1, F2.
        * destruct (pass n s1 (fr' ++ skipn CH (c0 :: l'))) as (s3, r). rewrite <- app_assoc. reflexivity.
        * rewrite app_length, firstn_length. cbn [length] in *. rewrite app_length, skipn_length. cbn [length]. lia.
    - destruct orphans.
      + unfold ask_orphan. destruct (coarsen_fn s jt [c0]) as ((s1, ds), yes).
        remember (rezip D [c0] ds) as o eqn:Eo.
        assert (Lo : length o = 1%nat) by (rewrite <- (map_length fst), Eo, rezip_fst; reflexivity).
        destruct o as [|x [|]]; try discriminate. cbn [app] in *.
        destruct (cut_next L l' w x Hw) as (F1 & F2).
        rewrite (IH _ _ _ _ _ _ _ _ T1 (proj2 M1) E n), F1, F2.
        * destruct (one_pass _ _ _ _ _ _ _ _ n s1 l') as (s3, r). rewrite <- app_assoc. reflexivity.
        * rewrite app_length, firstn_length. cbn [length] in *. lia.
      + rewrite (IH _ _ _ _ _ _ _ _ T1 (proj2 M1) E n), SK1.
        * destruct (one_pass _ _ _ _ _ _ _ _ n s l') as (s3, r).
          replace (firstn (w + 1) L) with (firstn w L ++ [c0]); [rewrite <- app_assoc; reflexivity|].
          rewrite Nat.add_1_r. rewrite (firstn_S L w c0); [reflexivity|].
          rewrite <- (Nat.add_0_r w), <- nth_skipn, ES. reflexivity.
        * lia.
  Qed.
End OnePassProof.

(** For any callbacks the function terminates without an access outside the
    array (it returns [Some]); the new leaves cover the same curve positions,
    each once and in order; they arise from the old ones by replacing complete
    families by their parents; the counters and the maximum level are right. *)
Theorem C29_coarsen_tree : forall d St D init_fn coarsen_fn replace_fn recursive orphans jt (s : St) (tr : tree D) local_num prev_off a b,
  tiles d a b (map fst (t_leaves _ tr)) ->
  (forall i, t_pl _ tr i = nlev i (t_leaves _ tr)) ->
  exists s' tr',
    coarsen_tree d St D init_fn coarsen_fn replace_fn recursive orphans jt s tr local_num prev_off =
      Some (s', tr', local_num - Z.of_nat (length (t_leaves _ tr)) + Z.of_nat (length (t_leaves _ tr')),
            prev_off + Z.of_nat (length (t_leaves _ tr'))) /\
    tiles d a b (map fst (t_leaves _ tr')) /\
    merges d (map fst (t_leaves _ tr)) (map fst (t_leaves _ tr')) /\
    t_off _ tr' = prev_off /\ (forall i, t_pl _ tr' i = nlev i (t_leaves _ tr')) /\ t_max _ tr' = maxlev (t_leaves _ tr').
Proof.
  intros d St D init_fn coarsen_fn replace_fn recursive orphans jt s tr local_num prev_off a b T P.
  destruct (coarsen_tree_spec d St D init_fn coarsen_fn replace_fn recursive orphans jt s tr local_num prev_off a b T P)
    as (s' & L' & pl & A & C & T' & P').
  exists s', (mktree _ prev_off pl (maxlev L') L'). cbn [t_leaves t_off t_pl t_max].
  split; [exact C|]. split; [exact T'|]. split; [|auto].
  destruct (aloop_merges d St D init_fn coarsen_fn replace_fn recursive orphans jt (childrenn d * length (t_leaves _ tr) + 1) a b s (t_leaves _ tr) T ltac:(lia))
    as (s1 & L1 & w1 & E & M).
  unfold abs_coarsen in A. rewrite E in A. destruct orphans.
  - pose proof (walk_orphan_fst St D coarsen_fn jt (skipn w1 L1) s1) as W.
    destruct (walk _ s1 (skipn w1 L1)) as (s2, l2). cbn [snd] in W. inversion A; subst s' L'.
    rewrite map_app, W, <- map_app, firstn_skipn. exact M.
  - inversion A; subst. exact M.
Qed.

(** Nonrecursive coarsening is one pass over the leaves from left to right, with
    exactly this sequence of callbacks *)
Theorem C29_nonrecursive_one_pass : forall d St D init_fn coarsen_fn replace_fn orphans jt (s : St) (tr : tree D) local_num prev_off a b s' tr' ln' off',
  tiles d a b (map fst (t_leaves _ tr)) ->
  (forall i, t_pl _ tr i = nlev i (t_leaves _ tr)) ->
  coarsen_tree d St D init_fn coarsen_fn replace_fn false orphans jt s tr local_num prev_off = Some (s', tr', ln', off') ->
  (s', t_leaves _ tr') = one_pass d St D init_fn coarsen_fn replace_fn orphans jt (length (t_leaves _ tr)) s (t_leaves _ tr).
Proof.
  intros d St D init_fn coarsen_fn replace_fn orphans jt s tr local_num prev_off a b s' tr' ln' off' T P E.
  destruct (coarsen_tree_spec d St D init_fn coarsen_fn replace_fn false orphans jt s tr local_num prev_off a b T P)
    as (s1 & L' & pl & A & C & T' & P'). rewrite C in E. inversion E; subst s1 tr' ln' off'. clear E. cbn [t_leaves].
  unfold abs_coarsen in A.
  destruct (abs_loop _ _ _ _ _ _ _ _ _ _ s _ 0) as [((s2, L2), w2)|] eqn:EL; [|discriminate].
  pose proof (loop_pass d St D init_fn coarsen_fn replace_fn orphans jt _ _ _ _ _ _ _ _ _ T (Nat.le_0_l _) EL (length (t_leaves _ tr)) (Nat.le_sub_l _ _)) as X.
  cbn [skipn firstn] in X. destruct (one_pass _ _ _ _ _ _ _ _ _ s (t_leaves _ tr)) as (s3, r). cbn [app] in X. rewrite <- X.
  unfold finish. destruct orphans.
  - destruct (walk _ s2 (skipn w2 L2)) as (s4, l). inversion A; reflexivity.
  - inversion A; reflexivity.
Qed.

Lemma pass_leaves d St D init_fn coarsen_fn replace_fn orphans jt : forall n (s : St) (l : list (leaf D)) r,
  In r (map fst (snd (one_pass d St D init_fn coarsen_fn replace_fn orphans jt n s l))) ->
  In r (map fst l) \/ (exists q0 l', 0 < ql q0 /\ r = parent d q0 /\ In q0 (map fst l) /\ childrenv d r = l' /\ forall c, In c l' -> In c (map fst l)).
Proof.
  induction n as [|n IH]; intros s l r H; [destruct H|]. destruct l as [|c0 l]; [destruct H|].
  cbn [one_pass] in H.
  assert (SUB : forall x, In x (map fst (firstn (childrenn d) (c0 :: l))) \/ In x (map fst (skipn (childrenn d) (c0 :: l))) -> In x (map fst (c0 :: l))).
  { intros x Hx. rewrite <- (firstn_skipn (childrenn d) (c0 :: l)), map_app. apply in_or_app. exact Hx. }
  assert (REC : forall s1 l1, (forall x, In x (map fst l1) -> In x (map fst (c0 :: l))) ->
     In r (map fst (snd (one_pass d St D init_fn coarsen_fn replace_fn orphans jt n s1 l1))) ->
     In r (map fst (c0 :: l)) \/ (exists q0 l', 0 < ql q0 /\ r = parent d q0 /\ In q0 (map fst (c0 :: l)) /\ childrenv d r = l' /\ forall c, In c l' -> In c (map fst (c0 :: l)))).
  { intros s1 l1 S1 H1. destruct (IH s1 l1 r H1) as [Q|(q0 & l' & Q0 & Q1 & Q2 & Q3 & Q4)]; [left; auto|].
    right. exists q0, l'. auto 7. }
  destruct (familyb d (fst c0) (map fst (firstn (childrenn d) (c0 :: l)))) eqn:EF.
  - destruct (coarsen_fn s jt (firstn (childrenn d) (c0 :: l))) as ((s1, ds), yes). destruct yes.
    + assert (EP : fst (snd (make_parent d St D init_fn replace_fn jt s1 (rezip D (firstn (childrenn d) (c0 :: l)) ds) c0)) = parent d (fst c0)).
      { unfold make_parent. destruct (init_fn s1 jt (parent d (fst c0))) as (s2, v). destruct replace_fn as [f|]; [|reflexivity].
        destruct (f _ _ _ _) as (s3, v3). reflexivity. }
      destruct (make_parent d St D init_fn replace_fn jt s1 _ c0) as (s2, pv). cbn [snd] in EP.
      specialize (REC s2 (skipn (childrenn d) (c0 :: l)) (fun x Hx => SUB x (or_intror Hx))).
      destruct (one_pass _ _ _ _ _ _ _ _ n s2 _) as (s3, rr). cbn [snd map] in H, REC. destruct H as [<-|H]; [|auto].
      right. unfold familyb in EF. apply andb_true_iff in EF. destruct EF as (L0 & EF).
      destruct (list_eq_dec quad_eq_dec _ _) as [Q|]; [|discriminate]. rewrite EP.
      exists (fst c0), (childrenv d (parent d (fst c0))). split; [lia|]. split; [auto|]. split; [left; reflexivity|]. split; [auto|].
      intros c Ic. apply SUB. left. rewrite Q. exact Ic.
    + assert (MF : map fst (rezip D (firstn (childrenn d) (c0 :: l)) ds ++ skipn (childrenn d) (c0 :: l)) = map fst (c0 :: l)).
      { rewrite map_app, rezip_fst, <- map_app, firstn_skipn. reflexivity. }
      destruct (rezip D _ ds ++ _) as [|c1 l1]; [destruct H|].
      specialize (REC s1 l1). destruct (one_pass _ _ _ _ _ _ _ _ n s1 l1) as (s3, rr). cbn [snd map] in *.
      destruct H as [<-|H].
      * left. rewrite <- MF. left. reflexivity.
      * apply REC; auto. intros x Hx. rewrite <- MF. right. exact Hx.
  - destruct orphans.
    + unfold ask_orphan in H. destruct (coarsen_fn s jt [c0]) as ((s1, ds), yes).
      specialize (REC s1 l ltac:(intros x Hx; right; exact Hx)).
      destruct (one_pass _ _ _ _ _ _ _ _ n s1 l) as (s3, rr). cbn [snd] in *. rewrite map_app, rezip_fst in H.
      apply in_app_or in H. destruct H as [[<-|[]]|H]; [left; left; reflexivity|auto].
    + specialize (REC s l ltac:(intros x Hx; right; exact Hx)).
      destruct (one_pass _ _ _ _ _ _ _ _ n s l) as (s3, rr). cbn [snd map] in *.
      destruct H as [<-|H]; [left; left; reflexivity|auto].
Qed.

(** In nonrecursive mode each new leaf is an old leaf or the parent of a family of old leaves *)
Theorem C29_nonrecursive_one_level : forall d St D init_fn coarsen_fn replace_fn orphans jt (s : St) (tr : tree D) local_num prev_off a b s' tr' ln' off',
  tiles d a b (map fst (t_leaves _ tr)) ->
  (forall i, t_pl _ tr i = nlev i (t_leaves _ tr)) ->
  coarsen_tree d St D init_fn coarsen_fn replace_fn false orphans jt s tr local_num prev_off = Some (s', tr', ln', off') ->
  forall r, In r (map fst (t_leaves _ tr')) ->
    In r (map fst (t_leaves _ tr)) \/
    (wf d r /\ ql r < 29 /\ forall c, wf d c -> ql c = ql r + 1 -> (forall x y z, inq d c x y z -> inq d r x y z) -> In c (map fst (t_leaves _ tr))).
Proof.
  intros d St D init_fn coarsen_fn replace_fn orphans jt s tr local_num prev_off a b s' tr' ln' off' T P E r I.
  pose proof (C29_nonrecursive_one_pass _ _ _ _ _ _ _ _ _ _ _ _ _ _ _ _ _ _ T P E) as X.
  replace (t_leaves _ tr') with (snd (s', t_leaves _ tr')) in I by reflexivity. rewrite X in I.
  apply pass_leaves in I. destruct I as [I|(q0 & l' & L0 & Er & I0 & El & H)]; [left; auto|right].
  pose proof (tiles_wf _ _ _ _ T) as F. rewrite Forall_forall in F. pose proof (F _ I0) as W0.
  destruct (parent_wf d q0 W0 L0) as (Wp & Lp & _). rewrite <- Er in *. pose proof (wf_level _ _ W0).
  split; [auto|]. split; [lia|]. intros c Wc Lc S. apply subset_interval in S; auto.
  apply H. rewrite <- El.
  destruct (child_of_within d r c Wp ltac:(lia) Wc S) as (i & Hi & Wi).
  { intros ->. lia. }
  destruct (child_wf d r i Wp ltac:(lia) Hi) as (Wi' & Li & _).
  rewrite <- (within_eq d (child d r i) c); auto; try lia. apply in_childrenv. auto.
Qed.

(** ** C30: with a decision that depends on the quadrants only, recursive
    coarsening leaves no family for which the answer is yes *)
Lemma coarsen_recursive_inv d St D init_fn coarsen_fn replace_fn orphans jt (s : St) (tr : tree D) local_num prev_off a b s' tr' ln' off' P :
  (forall s p fam, wf d p -> ql p < 29 -> map fst fam = childrenv d p -> snd (coarsen_fn s jt fam) = P p) ->
  tiles d a b (map fst (t_leaves _ tr)) ->
  (forall i, t_pl _ tr i = nlev i (t_leaves _ tr)) ->
  coarsen_tree d St D init_fn coarsen_fn replace_fn true orphans jt s tr local_num prev_off = Some (s', tr', ln', off') ->
  tiles d a b (map fst (t_leaves _ tr')) /\
  (forall p, wf d p -> ql p < 29 -> (forall c, In c (childrenv d p) -> In c (map fst (t_leaves _ tr'))) -> P p = false) /\
  (forall r, In r (map fst (t_leaves _ tr')) -> good d P (map fst (t_leaves _ tr)) a b r).
Proof.
  intros HP T PL E.
  destruct (coarsen_tree_spec d St D init_fn coarsen_fn replace_fn true orphans jt s tr local_num prev_off a b T PL)
    as (s1 & L' & pl & A & C & T' & P'). rewrite C in E. inversion E; subst s1 tr' ln' off'. clear E. cbn [t_leaves].
  unfold abs_coarsen in A.
  set (orig := map fst (t_leaves _ tr)) in *.
  destruct (aloop_inv d St D init_fn coarsen_fn replace_fn true orphans jt
    (fun _ L w => tiles d a b (map fst L) /\ nofam d D P L w /\ allgood d D P orig a b L))
    with (fuel := (childrenn d * length (t_leaves _ tr) + 1)%nat) (a := a) (b := b) (s := s) (L := t_leaves _ tr) (w := 0%nat)
    as (s2 & L2 & w2 & EL & T2 & (_ & N2 & G2) & Hw2 & Hl2); auto; try lia.
  - intros a0 b0 s0 L0 w0 _ (T0 & N0 & G0) Hw0.
    pose proof (astep_tiled d St D init_fn coarsen_fn replace_fn true orphans jt a b s0 L0 w0 T0 Hw0) as R1.
    pose proof (nofam_step d St D init_fn coarsen_fn replace_fn true orphans jt P HP eq_refl a b s0 L0 w0 T0 N0 Hw0) as R2.
    pose proof (allgood_step d St D init_fn coarsen_fn replace_fn true orphans jt P HP orig a b s0 L0 w0 T T0 G0 Hw0) as R3.
    destruct (abs_step _ _ _ _ _ _ _ _ _ s0 L0 w0) as ((s1, L1), w1). auto.
  - split; [exact T|]. split.
    + intros i p Hi. lia.
    + intros r I. apply good_orig; auto.
  - rewrite EL in A.
    assert (M : map fst L' = map fst L2).
    { destruct orphans.
      - pose proof (walk_orphan_fst St D coarsen_fn jt (skipn w2 L2) s2) as W.
        destruct (walk _ s2 (skipn w2 L2)) as (s3, l3). cbn [snd] in W. inversion A; subst.
        rewrite map_app, W, <- map_app, firstn_skipn. reflexivity.
      - inversion A; reflexivity. }
    rewrite M. split; [exact T2|]. split; [|exact G2].
    intros p Wp Lp H. destruct (children_window d _ a b p T2 Wp Lp H) as (i & Hi & Ei).
    rewrite map_length in Hi. apply (N2 i p); auto; [lia|]. rewrite <- Ei, fst_skipn, firstn_map. reflexivity.
Qed.

Theorem C30_fixed_point : forall d St D init_fn coarsen_fn replace_fn orphans jt (s : St) (tr : tree D) local_num prev_off a b s' tr' ln' off' P,
  (forall s p fam, wf d p -> ql p < 29 -> map fst fam = childrenv d p -> snd (coarsen_fn s jt fam) = P p) ->
  tiles d a b (map fst (t_leaves _ tr)) ->
  (forall i, t_pl _ tr i = nlev i (t_leaves _ tr)) ->
  coarsen_tree d St D init_fn coarsen_fn replace_fn true orphans jt s tr local_num prev_off = Some (s', tr', ln', off') ->
  forall p, wf d p ->
    (exists c, wf d c /\ ql c = ql p + 1) ->
    (forall c, wf d c -> ql c = ql p + 1 -> (forall x y z, inq d c x y z -> inq d p x y z) -> In c (map fst (t_leaves _ tr'))) ->
    P p = false.
Proof.
  intros d St D init_fn coarsen_fn replace_fn orphans jt s tr local_num prev_off a b s' tr' ln' off' P HP T PL E p Wp (c0 & W0 & L0) H.
  destruct (coarsen_recursive_inv _ _ _ _ _ _ _ _ _ _ _ _ _ _ _ _ _ _ _ HP T PL E) as (_ & FX & _).
  pose proof (wf_level _ _ W0). apply FX; auto; [lia|].
  intros c Ic. destruct (childrenv_in d p c Ic) as (i & Hi & ->). destruct (child_wf d p i Wp ltac:(lia) Hi) as (Wc & Lc & _).
  apply H; auto. apply subset_interval; auto. apply child_within; auto. lia.
Qed.

(** Exactly which quadrants are leaves after recursive coarsening.  A quadrant r
    is [collapsible] if it lies in the covered region, every old leaf that
    meets it lies in it, and the answer is yes for every quadrant in r that is
    strictly larger than some old leaf in it.  The new leaves are the largest
    collapsible quadrants. *)
Definition collapsible (d : dim) (P : quad -> bool) (orig : list quad) (r : quad) : Prop :=
  wf d r /\
  (forall x y z, inq d r x y z -> exists q, In q orig /\ inq d q x y z) /\
  (forall q x y z, In q orig -> inq d q x y z -> inq d r x y z -> forall x y z, inq d q x y z -> inq d r x y z) /\
  (forall c q, wf d c -> (forall x y z, inq d c x y z -> inq d r x y z) -> In q orig ->
     (forall x y z, inq d q x y z -> inq d c x y z) -> c <> q -> P c = true).

Theorem C30_recursive_exact : forall d St D init_fn coarsen_fn replace_fn orphans jt (s : St) (tr : tree D) local_num prev_off a b s' tr' ln' off' P,
  (forall s p fam, wf d p -> ql p < 29 -> map fst fam = childrenv d p -> snd (coarsen_fn s jt fam) = P p) ->
  tiles d a b (map fst (t_leaves _ tr)) ->
  (forall i, t_pl _ tr i = nlev i (t_leaves _ tr)) ->
  coarsen_tree d St D init_fn coarsen_fn replace_fn true orphans jt s tr local_num prev_off = Some (s', tr', ln', off') ->
  let orig := map fst (t_leaves _ tr) in
  forall r, In r (map fst (t_leaves _ tr')) <->
    collapsible d P orig r /\ (forall p, collapsible d P orig p -> (forall x y z, inq d r x y z -> inq d p x y z) -> p = r).
Proof.
  intros d St D init_fn coarsen_fn replace_fn orphans jt s tr local_num prev_off a b s' tr' ln' off' P HP T PL E orig r.
  destruct (coarsen_recursive_inv _ _ _ _ _ _ _ _ _ _ _ _ _ _ _ _ _ _ _ HP T PL E) as (T' & FX & G).
  fold orig in T, G. pose proof (tiles_wf _ _ _ _ T) as F. rewrite Forall_forall in F.
  assert (EQ : forall r, collapsible d P orig r <-> good d P orig a b r).
  { intros q. unfold collapsible, good. split.
    - intros (W & C1 & C2 & C3). split; [auto|].
      assert (B : forall i, qpos d q <= i < qend d q -> a <= i < b).
      { intros i Hi. destruct (ppos_surj d i) as (x & y & z & R & Px).
        { pose proof (wf_root_bounds d q W). lia. }
        destruct (C1 x y z) as (q' & I' & Q'); [apply inq_pos; auto; split; [auto|lia]|].
        apply inq_pos in Q'; auto. pose proof (tiles_bounds _ _ _ _ _ T I'). lia. }
      pose proof (size_pos d q W).
      split; [specialize (B (qpos d q) ltac:(lia)); lia|]. split; [specialize (B (qend d q - 1) ltac:(lia)); lia|]. split.
      + intros q' I' O1 O2. pose proof (F _ I') as W'. pose proof (size_pos d q' W').
        destruct (ppos_surj d (Z.max (qpos d q) (qpos d q'))) as (x & y & z & R & Px).
        { pose proof (wf_root_bounds d q W). pose proof (wf_root_bounds d q' W'). lia. }
        apply subset_interval; auto. apply (C2 q' x y z); auto; apply inq_pos; auto; split; auto; lia.
      + intros c q' Wc W1 I' W2 Ne. pose proof (F _ I'). apply (C3 c q'); auto; apply subset_interval; auto.
    - intros (W & A & B & C2 & C3). split; [auto|]. split; [|split].
      + intros x y z H. apply inq_pos in H; auto. destruct H as (R & H).
        assert (Q : a <= ppos d x y z < b) by lia. apply (tiles_cover d orig a b) in Q; auto.
        destruct Q as (q' & I' & Q). exists q'. split; [auto|]. apply inq_pos; auto.
      + intros q' x y z I' H1 H2. apply inq_pos in H1; auto. apply inq_pos in H2; auto.
        apply subset_interval; auto. apply C2; auto; lia.
      + intros c q' Wc W1 I' W2 Ne. pose proof (F _ I'). apply (C3 c q'); auto; apply subset_interval; auto. }
  rewrite EQ, (maximal d P orig a b (map fst (t_leaves _ tr')) T T' G FX r).
  assert (Gw : forall q, good d P orig a b q -> wf d q) by (intros q (W & _); exact W).
  split; intros (Gr & M); (split; [exact Gr|]); intros p Gp H.
  - apply EQ in Gp. apply M; [auto|]. apply subset_interval; auto.
  - apply M; [apply EQ; auto|]. apply subset_interval; auto.
Qed.

(** ** Example: two levels below one quadrant; the decision is yes above level 1 *)
Section Example.
  Let q1 : quad := mkq 0 0 0 1.
  Let leaves : list (leaf Z) :=
    map (fun q => (q, 7)) (childrenv D2 (child D2 q1 0) ++ [child D2 q1 1; child D2 q1 2; child D2 q1 3] ++
      [child D2 (mkq 0 0 0 0) 1; child D2 (mkq 0 0 0 0) 2; child D2 (mkq 0 0 0 0) 3]).
  Let P (p : quad) : bool := 1 <=? ql p.
  Let cfn (s : list (list Z)) (t : Z) (fam : list (leaf Z)) :=
    (s ++ [map (fun lf => ql (fst lf)) fam], map snd fam,
     match fam with (q, _) :: _ :: _ => P (parent D2 q) | _ => false end).
  Let ifn (s : list (list Z)) (t : Z) (q : quad) := (s, ql q).
  Let tr := mktree Z 0 (fun i => nlev i leaves) 3 leaves.
  Let run recursive := coarsen_tree D2 (list (list Z)) Z ifn cfn None recursive false 0 [] tr 10 0.

  Example C29_example :
    tiles D2 0 (2 ^ 60) (map fst (t_leaves _ tr)) /\ (forall i, t_pl _ tr i = nlev i (t_leaves _ tr)) /\
    (match run false with
     | Some (s, tr', n, off) => map (fun lf => (ql (fst lf), snd lf)) (t_leaves _ tr') = [(2, 2); (2, 7); (2, 7); (2, 7); (1, 7); (1, 7); (1, 7)] /\
        s = [[3; 3; 3; 3]] /\ n = 7 /\ off = 7
     | None => False
     end) /\
    (match run true with
     | Some (s, tr', n, off) => map (fun lf => (ql (fst lf), snd lf)) (t_leaves _ tr') = [(1, 1); (1, 7); (1, 7); (1, 7)] /\
        s = [[3; 3; 3; 3]; [2; 2; 2; 2]; [1; 1; 1; 1]] /\ n = 4 /\ off = 4
     | None => False
     end).
  Proof.
    split; [|split; [reflexivity|split; vm_compute; repeat split]].
    assert (W : forall q, In q (map fst leaves) -> wf D2 q).
    { intros q I. apply is_valid_wf. revert q I. apply forallb_forall. vm_compute. reflexivity. }
    rewrite <- Forall_forall in W. cbn [t_leaves tr].
    apply (gapfree_tiles D2 (map fst leaves) W) with (q0 := child D2 (child D2 q1 0) 0); [|reflexivity].
    unfold gapfree, leaves. cbn [map app childrenv fst]. repeat constructor; vm_compute; reflexivity.
  Qed.

  Example C30_example :
    (forall s p fam, wf D2 p -> ql p < 29 -> map fst fam = childrenv D2 p -> snd (cfn s 0 fam) = P p).
  Proof.
    intros s p fam Wp Lp M. unfold cfn. cbn [snd].
    destruct fam as [|(q, v) [|y fam]]; try discriminate.
    rewrite (proj1 (parent_of_children D2 p Wp Lp q (map fst (y :: fam)) (eq_sym M))). reflexivity.
  Qed.
End Example.

Print Assumptions C09_consecutive_ids.
Print Assumptions C29_coarsen_tree.
Print Assumptions C29_nonrecursive_one_pass.
Print Assumptions C29_nonrecursive_one_level.
Print Assumptions C30_fixed_point.
Print Assumptions C30_recursive_exact.
