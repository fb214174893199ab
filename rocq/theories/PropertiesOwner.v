(** * Properties of the partition markers and the owner search: C23, C26 *)

From Coq Require Import ZArith List Bool Lia Arith ZifyBool Sorting.Sorted.
From Verif Require Import Quad Spec Interval QuadLemmas DescLemmas.
From Verif Require Import Search Adapt ListLemmas Partition PartLemmas PartTrees PartRecv PartFinal PartShip Comm CommLemmas OwnerLemmas.
Import ListNotations.
Open Scope Z_scope.

(** A distributed forest with leaves: valid quadrants, ordered along the curve
    without overlap.  There may be holes. *)
Definition forest_ok {A} (d : dim) (qof : A -> quad) (T : Z) (ranks : list (rk A)) : Prop :=
  Forall (rk_ok T) ranks /\
  (forall x, In x (glob T ranks) -> wf d (qof (snd x))) /\
  StronglySorted (fun x y => tend d (fst x) (qof (snd x)) <= tpos d (fst y) (qof (snd y))) (glob T ranks).

(** the leaves cover the positions from a to b without holes *)
Fixpoint covers {A} (d : dim) (qof : A -> quad) (a b : Z) (l : list (Z * A)) : Prop :=
  match l with
  | [] => a = b
  | x :: l' => tpos d (fst x) (qof (snd x)) = a /\ covers d qof (tend d (fst x) (qof (snd x))) b l'
  end.

Lemma skipn_zget {A} (l : list A) p r : zget l p = Some r ->
  0 <= p < zlen l /\ skipn (Z.to_nat p) l = r :: skipn (Z.to_nat (p + 1)) l.
Proof.
  intros E. assert (Hp : 0 <= p) by (unfold zget in E; destruct (p <? 0) eqn:C; [discriminate|lia]).
  rewrite zget_nth in E by lia. assert (L : (Z.to_nat p < length l)%nat) by (apply nth_error_Some; congruence).
  split; [unfold zlen; lia|]. replace (Z.to_nat (p + 1)) with (S (Z.to_nat p)) by lia. apply skipn_cons. exact E.
Qed.

Lemma mpos_sentinel d T : mpos d (sentinel T) = T * TREE d.
Proof. unfold mpos, tpos, sentinel. cbn [g_tree g_quad]. replace (qpos d (mkq 0 0 0 QMAXLEVEL)) with 0 by (destruct d; vm_compute; reflexivity). lia. Qed.

Section F.
  Context {A : Type}.
  Variables (d : dim) (qof : A -> quad) (T : Z) (ranks : list (rk A)).
  Hypothesis HF : forest_ok d qof T ranks.
  Local Notation pos x := (tpos d (fst x) (qof (snd x))).
  Local Notation fin x := (tend d (fst x) (qof (snd x))).

  Lemma mpos_mark x : mpos d (mark qof x) = pos x.
  Proof. reflexivity. Qed.

  Lemma glob_in x k : In x (glob T (skipn k ranks)) -> In x (glob T ranks).
  Proof.
    unfold glob. intros H. rewrite <- (firstn_skipn k ranks), flat_map_app. apply in_or_app. right. exact H.
  Qed.
  Lemma glob_label x : In x (glob T ranks) -> 0 <= fst x < T.
  Proof. unfold glob. intros H. apply in_flat_map in H. destruct H as (r & _ & H). apply loc_from_labels in H. lia. Qed.
  Lemma fin_bound x : In x (glob T ranks) -> 0 <= pos x < fin x /\ fin x <= T * TREE d.
  Proof.
    intros H. pose proof (glob_label x H) as L. destruct HF as (_ & W & _). specialize (W x H).
    destruct (wf_root_bounds d _ W) as [B1 B2]. fold (TREE d) in B2. pose proof (qsize_pos d _ W) as S0. pose proof (tree_pos d) as TP.
    unfold tpos, tend, qend in *. assert (0 <= fst x * TREE d) by (apply Z.mul_nonneg_nonneg; lia).
    assert ((fst x + 1) * TREE d <= T * TREE d) by (apply Z.mul_le_mono_nonneg_r; lia). lia.
  Qed.
  Lemma wf_mark x : In x (glob T ranks) -> wf d (g_quad (mark qof x)).
  Proof.
    intros H. destruct HF as (_ & W & _). specialize (W x H). unfold mark. cbn [g_quad]. change QMAXLEVEL with 29.
    destruct (first_descendant_wf d (qof (snd x)) 29 W) as (Wf & _); [pose proof (wf_level d _ W); lia|]. exact Wf.
  Qed.

  (** the marker of the remaining leaves lies before all of them *)
  Lemma skip_sorted k : StronglySorted (fun x y => fin x <= pos y) (glob T (skipn k ranks)).
  Proof.
    destruct HF as (_ & _ & S1). rewrite <- (firstn_skipn k ranks) in S1. unfold glob in *. rewrite flat_map_app in S1.
    induction (flat_map (loc T) (firstn k ranks)) as [|h l IH]; [exact S1|]. cbn [app] in S1. inversion S1; subst. apply IH. assumption.
  Qed.
  Lemma mark_hd_le k x : In x (glob T (skipn k ranks)) -> mpos d (mark_hd qof T (glob T (skipn k ranks))) <= pos x.
  Proof.
    intros H. pose proof (skip_sorted k) as S1. remember (glob T (skipn k ranks)) as l eqn:El. destruct l as [|y l]; [destruct H|].
    cbn [mark_hd]. rewrite mpos_mark. destruct H as [->|H]; [lia|]. inversion S1 as [|? ? _ F]; subst. rewrite Forall_forall in F.
    specialize (F x H). assert (I : In y (glob T ranks)) by (apply (glob_in y k); rewrite <- El; left; reflexivity).
    pose proof (fin_bound y I). lia.
  Qed.
  Lemma mark_hd_end k x : In x (loc T k) -> forall j, skipn j ranks = k :: skipn (S j) ranks ->
    fin x <= mpos d (mark_hd qof T (glob T (skipn (S j) ranks))).
  Proof.
    intros H j Ej. pose proof (skip_sorted j) as S1. rewrite Ej in S1. cbn [glob flat_map] in S1. fold (glob T (skipn (S j) ranks)) in S1.
    assert (I : In x (glob T ranks)) by (apply (glob_in x j); rewrite Ej; unfold glob; cbn [flat_map]; apply in_or_app; left; exact H).
    pose proof (fin_bound x I) as B. destruct (glob T (skipn (S j) ranks)) as [|y l]; cbn [mark_hd]; [rewrite mpos_sentinel; lia|].
    rewrite mpos_mark. clear - S1 H. induction (loc T k) as [|h l' IH]; [destruct H|]. cbn [app] in S1. inversion S1 as [|? ? S2 F]; subst.
    destruct H as [->|H]; [|apply IH; assumption]. rewrite Forall_forall in F. apply F. apply in_or_app. right. left. reflexivity.
  Qed.

  Lemma markers : exists ms, global_partition qof T ranks = Some ms /\ zlen ms = zlen ranks + 1 /\
    (forall i, 0 <= i <= zlen ranks -> zget ms i = Some (mark_hd qof T (glob T (skipn (Z.to_nat i) ranks)))).
  Proof.
    destruct HF as (H1 & _). destruct (global_partition_spec qof T ranks H1) as (ms & E & L & N). exists ms.
    split; [exact E|]. split; [unfold zlen; lia|]. intros i Hi. rewrite zget_nth by lia. apply N. unfold zlen in Hi. lia.
  Qed.

  Lemma mark_hd_wf k : wf d (g_quad (mark_hd qof T (glob T (skipn k ranks)))) /\ ql (g_quad (mark_hd qof T (glob T (skipn k ranks)))) = 29.
  Proof.
    destruct (glob T (skipn k ranks)) as [|y l] eqn:El; cbn [mark_hd].
    - split; [|reflexivity]. cbn [sentinel g_quad]. change QMAXLEVEL with 29.
      unfold wf. cbn [ql qx qy qz]. split; [lia|]. split; [exists 0; lia|]. split; [exists 0; lia|]. destruct d; [reflexivity|exists 0; lia].
    - split; [|reflexivity]. apply wf_mark. apply (glob_in y k). rewrite El. left. reflexivity.
  Qed.
  Lemma mark_hd_step p r : zget ranks p = Some r ->
    mpos d (mark_hd qof T (glob T (skipn (Z.to_nat p) ranks))) <= mpos d (mark_hd qof T (glob T (skipn (Z.to_nat (p + 1)) ranks))) /\
    (loc T r = [] -> glob T (skipn (Z.to_nat p) ranks) = glob T (skipn (Z.to_nat (p + 1)) ranks)) /\
    (loc T r <> [] -> mpos d (mark_hd qof T (glob T (skipn (Z.to_nat p) ranks))) < mpos d (mark_hd qof T (glob T (skipn (Z.to_nat (p + 1)) ranks)))).
  Proof.
    intros E. destruct (skipn_zget ranks p r E) as [Hp ES].
    assert (EG : glob T (skipn (Z.to_nat p) ranks) = loc T r ++ glob T (skipn (Z.to_nat (p + 1)) ranks)) by (rewrite ES; reflexivity).
    destruct (loc T r) as [|x l] eqn:El.
    - rewrite EG. cbn [app]. split; [lia|]. split; [reflexivity|]. intros N. destruct (N eq_refl).
    - assert (Hx : In x (loc T r)) by (rewrite El; left; reflexivity).
      replace (Z.to_nat (p + 1)) with (S (Z.to_nat p)) in * by lia.
      pose proof (mark_hd_end r x Hx (Z.to_nat p) ES) as L.
      assert (I : In x (glob T ranks)) by (apply (glob_in x (Z.to_nat p)); rewrite EG; left; reflexivity).
      pose proof (fin_bound x I) as B.
      assert (L2 : mpos d (mark_hd qof T (glob T (skipn (Z.to_nat p) ranks))) <= pos x)
        by (apply mark_hd_le; rewrite EG; left; reflexivity).
      split; [lia|]. split; [discriminate|]. intros _. lia.
  Qed.

  Lemma mp_hd ms : zlen ms = zlen ranks + 1 ->
    (forall i, 0 <= i <= zlen ranks -> zget ms i = Some (mark_hd qof T (glob T (skipn (Z.to_nat i) ranks)))) ->
    (forall i, 0 <= i <= zlen ranks -> mp d ms i = mpos d (mark_hd qof T (glob T (skipn (Z.to_nat i) ranks)))) /\
    Forall (fun m => qin d (g_quad m)) ms /\
    (forall p, 0 <= p < zlen ranks -> mp d ms p <= mp d ms (p + 1)).
  Proof.
    intros L N. assert (M : forall i, 0 <= i <= zlen ranks -> mp d ms i = mpos d (mark_hd qof T (glob T (skipn (Z.to_nat i) ranks))))
      by (intros i Hi; unfold mp; rewrite N by exact Hi; reflexivity).
    split; [exact M|]. split.
    - apply Forall_forall. intros m Hm. apply In_nth_error in Hm. destruct Hm as (i & Hi).
      assert (Li : (i < length ms)%nat) by (apply nth_error_Some; congruence).
      assert (E : zget ms (Z.of_nat i) = Some m) by (rewrite zget_nth by lia; rewrite Nat2Z.id; exact Hi).
      rewrite N in E by (unfold zlen in L |- *; lia). injection E as <-. apply wf_qin. apply mark_hd_wf.
    - intros p Hp. rewrite !M by lia. destruct (zget ranks p) as [r|] eqn:E; [apply (mark_hd_step p r E)|].
      rewrite zget_nth in E by lia. apply nth_error_None in E. unfold zlen in Hp. lia.
  Qed.
End F.

(** C26: markers of all distributions *)
Theorem C26_global_partition {A} (d : dim) (qof : A -> quad) (T : Z) (ranks : list (rk A)) :
  forest_ok d qof T ranks ->
  exists ms, global_partition qof T ranks = Some ms /\ zlen ms = zlen ranks + 1 /\
    zget ms (zlen ranks) = Some (mkmk T (mkq 0 0 0 29)) /\
    forall p r, zget ranks p = Some r ->
    exists m m' empty, zget ms p = Some m /\ zget ms (p + 1) = Some m' /\
      (* non-decreasing *)
      mpos d m <= mpos d m' /\
      (* both tests for an empty rank are right *)
      is_empty_gfp d ms p = Some empty /\
      is_empty_gfq (count_quadrants (map (fun r => zlen (loc T r)) ranks)) p = Some empty /\
      (empty = true <-> loc T r = []) /\
      (* the markers bound the leaves of the rank *)
      (forall x, In x (loc T r) -> mpos d m <= tpos d (fst x) (qof (snd x)) /\ tend d (fst x) (qof (snd x)) <= mpos d m') /\
      (* a non-empty rank's marker is the position of its first leaf *)
      (forall x l, loc T r = x :: l -> mpos d m = tpos d (fst x) (qof (snd x))) /\
      (* p4est_comm_is_contained decides whether a quadrant is inside the bounds *)
      (forall t q, wf d q -> is_contained d ms t q p = Some ((mpos d m <=? tpos d t q) && (tend d t q <=? mpos d m'))).
Proof.
  intros HF. destruct (markers d qof T ranks HF) as (ms & E & L & N). exists ms. split; [exact E|]. split; [exact L|].
  pose proof (zlen_nonneg ranks) as ZN. split.
  - rewrite N by lia. replace (Z.to_nat (zlen ranks)) with (length ranks) by (unfold zlen; lia). rewrite skipn_all. reflexivity.
  - intros p r Er. destruct (skipn_zget ranks p r Er) as [Hp ES].
    destruct (mark_hd_step d qof T ranks HF p r Er) as (S1 & S2 & S3).
    destruct (mp_hd d qof T ranks HF ms L N) as (M1 & M2 & M3).
    eexists _, _, (match loc T r with [] => true | _ => false end).
    split; [apply N; lia|]. split; [apply N; lia|]. split; [exact S1|].
    unfold is_empty_gfp. rewrite !N by lia. split.
    { f_equal. destruct (loc T r) as [|x l] eqn:El.
      - rewrite S2 by reflexivity. unfold is_equal_piggy, is_equal. rewrite !Z.eqb_refl. destruct d; reflexivity.
      - specialize (S3 ltac:(discriminate)). unfold is_equal_piggy.
        set (a := mark_hd qof T (glob T (skipn (Z.to_nat p) ranks))) in *. set (b := mark_hd qof T (glob T (skipn (Z.to_nat (p + 1)) ranks))) in *.
        destruct (g_tree a =? g_tree b) eqn:Q1; [|reflexivity]. cbn [andb]. destruct (is_equal d (g_quad a) (g_quad b)) eqn:Q2; [|reflexivity].
        exfalso. assert (EP : mpos d a = mpos d b); [|lia]. unfold mpos, tpos, qpos. replace (g_tree a) with (g_tree b) by lia. f_equal.
        pose proof (wf_qin d _ (proj1 (mark_hd_wf d qof T ranks HF (Z.to_nat p)))) as I1.
        pose proof (wf_qin d _ (proj1 (mark_hd_wf d qof T ranks HF (Z.to_nat (p + 1))))) as I2. fold a in I1. fold b in I2.
        unfold is_equal in Q2. destruct I1 as (_ & _ & I1). destruct I2 as (_ & _ & I2).
        replace (qx (g_quad a)) with (qx (g_quad b)) by lia. replace (qy (g_quad a)) with (qy (g_quad b)) by lia.
        f_equal. destruct d; cbn [is3 negb orb] in Q2; [congruence|lia]. }
    split.
    { unfold is_empty_gfq, count_quadrants. rewrite !zget_nth by lia.
      assert (LC : length (map (fun r => zlen (loc T r)) ranks) = length ranks) by apply map_length.
      rewrite !running_nth by (unfold zlen in Hp; lia). f_equal.
      replace (Z.to_nat (p + 1)) with (S (Z.to_nat p)) by lia.
      rewrite (pre_S _ (Z.to_nat p) (zlen (loc T r))) by (rewrite nth_error_map; rewrite zget_nth in Er by lia; rewrite Er; reflexivity).
      destruct (loc T r) as [|x l]; [unfold zlen; cbn [length]; lia|]. unfold zlen. cbn [length]. lia. }
    split; [destruct (loc T r); split; intros; try reflexivity; discriminate|].
    split.
    { intros x Hx. split.
      - apply (mark_hd_le d qof T ranks HF). rewrite ES. unfold glob. cbn [flat_map]. apply in_or_app. left. exact Hx.
      - replace (Z.to_nat (p + 1)) with (S (Z.to_nat p)) in * by lia. apply (mark_hd_end d qof T ranks HF r x Hx _ ES). }
    split.
    { intros x l El. rewrite ES. cbn [glob flat_map]. rewrite El. reflexivity. }
    intros t q Wq. rewrite (is_contained_spec d ms (zlen ranks)); [|lia|exact L|exact M2|exact Wq|lia|].
    + rewrite !M1 by lia. reflexivity.
    + intros m Em. rewrite N in Em by lia. injection Em as <-. apply (mark_hd_wf d qof T ranks HF).
Qed.

(** C23: owner search in any non-decreasing array of markers, for any starting
    guess; q is a quadrant or a node given by coordinates inside the root *)
Theorem C23_find_owner (d : dim) (gfp : list marker) (P t : Z) (q : quad) (guess : Z) :
  1 <= P -> zlen gfp = P + 1 -> Forall (fun m => inroot d (qx (g_quad m)) (qy (g_quad m)) (qz (g_quad m))) gfp ->
  (forall p m m', zget gfp p = Some m -> zget gfp (p + 1) = Some m' -> mpos d m <= mpos d m') ->
  inroot d (qx q) (qy q) (qz q) -> 0 <= guess < P ->
  (forall m, zget gfp 0 = Some m -> mpos d m <= tpos d t q) -> (forall m, zget gfp P = Some m -> tpos d t q < mpos d m) ->
  exists p m m', find_owner d gfp P t q guess = Some p /\ 0 <= p < P /\
    zget gfp p = Some m /\ zget gfp (p + 1) = Some m' /\ mpos d m <= tpos d t q < mpos d m' /\
    forall p', 0 <= p' < P -> is_owner d gfp t q p' = Some (p' =? p).
Proof.
  intros HP HL HI HM Hq Hg H0 HE.
  assert (M : forall p, 0 <= p <= P -> exists m, zget gfp p = Some m /\ mp d gfp p = mpos d m).
  { intros p Hp. destruct (mp_get d gfp P HP HL HI p Hp) as (m & E & _ & E2). exists m. auto. }
  assert (Hmono : forall p, 0 <= p < P -> mp d gfp p <= mp d gfp (p + 1)).
  { intros p Hp. destruct (M p ltac:(lia)) as (m & E1 & ->). destruct (M (p + 1) ltac:(lia)) as (m' & E2 & ->). eapply HM; eassumption. }
  destruct (find_owner_spec d gfp P HP HL HI t q guess Hq Hg) as (p & E & Hp & Hk).
  { destruct (M 0 ltac:(lia)) as (m & E1 & ->). destruct (M P ltac:(lia)) as (m' & E2 & ->). split; [apply H0; exact E1|apply HE; exact E2]. }
  destruct (M p ltac:(lia)) as (m & E1 & F1). destruct (M (p + 1) ltac:(lia)) as (m' & E2 & F2).
  exists p, m, m'. split; [exact E|]. split; [exact Hp|]. split; [exact E1|]. split; [exact E2|]. rewrite <- F1, <- F2. split; [exact Hk|].
  intros p' Hp'. rewrite (is_owner_spec d gfp P HP HL HI t q p' Hq Hp'). f_equal. destruct (p' =? p) eqn:Q.
  - replace p' with p by lia. lia.
  - destruct ((mp d gfp p' <=? tpos d t q) && (tpos d t q <? mp d gfp (p' + 1))) eqn:C; [|reflexivity].
    exfalso. pose proof (owner_unique d gfp P Hmono (tpos d t q) p p' Hp Hp' Hk ltac:(lia)). lia.
Qed.

(** the same for a complete forest: the rank found holds the leaf that covers
    the first point of q, and no other rank passes the test *)
Theorem C23_find_owner_forest {A} (d : dim) (qof : A -> quad) (T : Z) (ranks : list (rk A)) (t : Z) (q : quad) (guess : Z) :
  forest_ok d qof T ranks -> covers d qof 0 (T * TREE d) (glob T ranks) ->
  0 <= t < T -> inroot d (qx q) (qy q) (qz q) -> 0 <= guess < zlen ranks ->
  exists ms p r x, global_partition qof T ranks = Some ms /\
    find_owner d ms (zlen ranks) t q guess = Some p /\
    zget ranks p = Some r /\ In x (loc T r) /\ fst x = t /\ qpos d (qof (snd x)) <= qpos d q < qend d (qof (snd x)) /\
    forall p', 0 <= p' < zlen ranks -> is_owner d ms t q p' = Some (p' =? p).
Proof.
  intros HF HC Ht Hq Hg. destruct (markers d qof T ranks HF) as (ms & E & L & N).
  destruct (mp_hd d qof T ranks HF ms L N) as (M1 & M2 & M3).
  assert (EC : forall l a b k, covers d qof a b l -> a <= k < b -> exists x, In x l /\ tpos d (fst x) (qof (snd x)) <= k < tend d (fst x) (qof (snd x))).
  { clear. induction l as [|x l IH]; intros a b k HC Hk; cbn [covers] in HC; [lia|]. destruct HC as [H1 H2].
    destruct (Z.lt_ge_cases k (tend d (fst x) (qof (snd x)))) as [L|G].
    - exists x. split; [left; reflexivity|lia].
    - destruct (IH _ _ k H2 ltac:(lia)) as (y & Hy & Ky). exists y. split; [right; exact Hy|exact Ky]. }
  pose proof (qpos_range d q) as QR. pose proof (tree_pos d) as TP.
  assert (KR : 0 <= tpos d t q < T * TREE d).
  { unfold tpos. assert (0 <= t * TREE d) by (apply Z.mul_nonneg_nonneg; lia).
    assert ((t + 1) * TREE d <= T * TREE d) by (apply Z.mul_le_mono_nonneg_r; lia). lia. }
  destruct (C23_find_owner d ms (zlen ranks) t q guess) as (p & m & m' & E1 & E2 & E3 & E4 & E5 & E6).
  { lia. } { exact L. } { exact M2. }
  { intros p m m' G1 G2. assert (Hp : 0 <= p < zlen ranks).
    { unfold zget in G1, G2. destruct (p <? 0) eqn:C1; [discriminate|]. destruct (p + 1 <? 0) eqn:C2; [discriminate|].
      assert ((Z.to_nat (p + 1) < length ms)%nat) by (apply nth_error_Some; congruence). unfold zlen in L |- *. lia. }
    pose proof (M3 p Hp) as M4. unfold mp in M4. rewrite G1, G2 in M4. exact M4. }
  { exact Hq. } { exact Hg. }
  { intros m Em. rewrite N in Em by lia. injection Em as <-. cbn [Z.to_nat skipn].
    destruct (glob T ranks) as [|x l] eqn:EG; [cbn [covers] in HC; lia|]. cbn [mark_hd]. destruct HC as [HC _].
    change (mpos d (mark qof x)) with (tpos d (fst x) (qof (snd x))). lia. }
  { intros m Em. rewrite N in Em by lia. injection Em as <-. replace (Z.to_nat (zlen ranks)) with (length ranks) by (unfold zlen; lia).
    rewrite skipn_all. cbn [glob flat_map mark_hd]. rewrite (mpos_sentinel d). lia. }
  destruct (zget ranks p) as [r|] eqn:Er.
  2:{ exfalso. rewrite zget_nth in Er by lia. apply nth_error_None in Er. unfold zlen in E2. lia. }
  destruct (EC _ _ _ _ HC KR) as (x & Hx & Kx).
  exists ms, p, r, x. split; [exact E|]. split; [exact E1|]. split; [exact Er|].
  assert (XP : exists p' r', zget ranks p' = Some r' /\ In x (loc T r')).
  { unfold glob in Hx. apply in_flat_map in Hx. destruct Hx as (r' & Hr' & Hx). apply In_nth_error in Hr'. destruct Hr' as (i & Hi).
    exists (Z.of_nat i), r'. split; [rewrite zget_nth by lia; rewrite Nat2Z.id; exact Hi|exact Hx]. }
  destruct XP as (p' & r' & Er' & Hx').
  destruct (C26_global_partition d qof T ranks HF) as (ms2 & E' & _ & _ & H26). rewrite E in E'. injection E' as <-.
  destruct (H26 p' r' Er') as (m1 & m1' & em & G1 & G2 & _ & _ & _ & _ & G3 & _).
  destruct (G3 x Hx') as [G4 G5].
  assert (p' = p).
  { destruct (skipn_zget ranks p' r' Er') as [Hp' _].
    apply (owner_unique d ms (zlen ranks) M3 (tpos d t q)); [exact Hp'|exact E2| |].
    - unfold mp. rewrite G1, G2. lia.
    - unfold mp. rewrite E3, E4. lia. }
  subst p'. rewrite Er in Er'. injection Er' as <-. split; [exact Hx'|].
  assert (FT : fst x = t).
  { assert (W : wf d (qof (snd x))) by (apply HF; exact Hx). destruct (wf_root_bounds d _ W) as [B1 B2]. fold (TREE d) in B2.
    unfold tpos, tend in Kx. destruct (Z.lt_trichotomy (fst x) t) as [G|[G|G]]; [|exact G|].
    - assert ((fst x + 1) * TREE d <= t * TREE d) by (apply Z.mul_le_mono_nonneg_r; lia). lia.
    - assert ((t + 1) * TREE d <= fst x * TREE d) by (apply Z.mul_le_mono_nonneg_r; lia). lia. }
  split; [exact FT|]. split; [unfold tpos, tend in Kx; rewrite FT in Kx; lia|exact E6].
Qed.

(** p4est_bsearch_partition on global_first_quadrant *)
Lemma bsearch_range_spec key : forall counts s k, Forall (Z.le 0) counts -> s <= key < s + total counts ->
  exists p, bsearch_range key (running s counts) (length counts) k = k + Z.of_nat p /\ (p < length counts)%nat /\
    s + pre counts p <= key < s + pre counts (S p).
Proof.
  unfold total. induction counts as [|n l IH]; intros s k H Hk; cbn [length pre] in Hk; [lia|].
  inversion H as [|? ? Hn Hl]; subst. cbn [length].
  assert (E : bsearch_range key (running s (n :: l)) (S (length l)) k =
    if (s <=? key) && (key <? s + n) then k else bsearch_range key (running (s + n) l) (length l) (k + 1)).
  { cbn [running]. destruct l; reflexivity. }
  rewrite E. destruct ((s <=? key) && (key <? s + n)) eqn:C.
  - exists 0%nat. cbn [pre]. rewrite pre_0. split; [lia|]. split; lia.
  - destruct (IH (s + n) (k + 1) Hl ltac:(lia)) as (p & E2 & L & K). exists (S p). rewrite E2. split; [lia|]. split; [lia|].
    cbn [pre]. change (match l with [] => 0 | n0 :: c' => n0 + pre c' p end) with (pre l (S p)). lia.
Qed.

Theorem C23_bsearch_partition (counts : list Z) (target : Z) :
  Forall (Z.le 0) counts -> 0 <= target < total counts ->
  let gfq := count_quadrants counts in
  let p := bsearch_partition target gfq (zlen counts) in
  0 <= p < zlen counts /\ exists a b, zget gfq p = Some a /\ zget gfq (p + 1) = Some b /\ a <= target < b.
Proof.
  intros H Hk gfq p. destruct (bsearch_range_spec target counts 0 0 H ltac:(lia)) as (k & E & L & K).
  assert (Ep : p = Z.of_nat k) by (unfold p, bsearch_partition, gfq, count_quadrants; replace (Z.to_nat (zlen counts)) with (length counts) by (unfold zlen; lia); rewrite E; lia).
  rewrite Ep. split; [unfold zlen; lia|]. unfold gfq, count_quadrants. exists (0 + pre counts k), (0 + pre counts (S k)).
  rewrite !zget_nth by lia. replace (Z.to_nat (Z.of_nat k + 1)) with (S k) by lia. rewrite Nat2Z.id, !running_nth by lia. auto.
Qed.

(** ** Examples: two trees on five ranks, ranks 0, 2 and 3 are empty *)
Definition c4 (i : Z) : quad := mkq (i mod 2 * 2 ^ 29) (i / 2 * 2 ^ 29) 0 1.
Definition ex_owner : list (rk quad) :=
  [ mkrk quad (-1) (-2) (fun _ => []);
    mkrk quad 0 1 (fun t => if t =? 0 then [c4 0; c4 1; c4 2; c4 3] else if t =? 1 then [c4 0; c4 1] else []);
    mkrk quad (-1) (-2) (fun _ => []); mkrk quad (-1) (-2) (fun _ => []);
    mkrk quad 1 1 (fun t => if t =? 1 then [c4 2; c4 3] else []) ].

Example C26_ex : forest_ok D2 (fun q => q) 2 ex_owner /\ covers D2 (fun q => q) 0 (2 * TREE D2) (glob 2 ex_owner) /\
  option_map (map (fun m => (g_tree m, qx (g_quad m), qy (g_quad m)))) (global_partition (fun q => q) 2 ex_owner) =
  Some [(0, 0, 0); (0, 0, 0); (1, 0, 2 ^ 29); (1, 0, 2 ^ 29); (1, 0, 2 ^ 29); (2, 0, 0)].
Proof.
  split; [|split; [vm_compute; repeat split|vm_compute; reflexivity]]. split; [|split].
  - assert (R : forall a b f, 0 <= a <= b -> b < 2 -> (forall t, f t <> [] <-> a <= t <= b) -> rk_ok 2 (mkrk quad a b f)).
    { intros a b f H1 H2 H3. right. cbn [k_first k_last k_trees]. auto. }
    repeat (constructor; [first [left; cbn; auto; fail | idtac]|]); [| |constructor].
    + apply R; [lia|lia|]. intros t. destruct (t =? 0) eqn:?, (t =? 1) eqn:?; split; intros H; try lia; try discriminate; destruct (H eq_refl).
    + apply R; [lia|lia|]. intros t. destruct (t =? 1) eqn:?; split; intros H; try lia; try discriminate; destruct (H eq_refl).
  - intros x Hx. apply is_valid_wf.
    assert (F : forallb (fun x => is_valid D2 (snd x)) (glob 2 ex_owner) = true) by (vm_compute; reflexivity).
    rewrite forallb_forall in F. apply F. exact Hx.
  - assert (EG : glob 2 ex_owner = [(0, c4 0); (0, c4 1); (0, c4 2); (0, c4 3); (1, c4 0); (1, c4 1); (1, c4 2); (1, c4 3)]) by reflexivity.
    rewrite EG. repeat (apply SSorted_cons || apply SSorted_nil || apply Forall_cons || apply Forall_nil); vm_compute; discriminate.
Qed.

Example C23_ex : match global_partition (fun q => q) 2 ex_owner with
  | None => []
  | Some ms => [find_owner D2 ms 5 0 (mkq 5 7 0 30) 4; find_owner D2 ms 5 1 (c4 1) 0; find_owner D2 ms 5 1 (c4 2) 2; find_owner D2 ms 5 1 (mkq 0 0 0 0) 3]
  end = [Some 1; Some 1; Some 4; Some 1] /\
  bsearch_partition 5 (count_quadrants [0; 6; 0; 0; 2]) 5 = 1 /\ bsearch_partition 6 (count_quadrants [0; 6; 0; 0; 2]) 5 = 4.
Proof. vm_compute. auto. Qed.

Print Assumptions C26_global_partition.
Print Assumptions C23_find_owner.
Print Assumptions C23_find_owner_forest.
Print Assumptions C23_bsearch_partition.
