(** * Properties of the searches (p4est_search.h): C13, C14, C15, C24, C47 *)

From Coq Require Import ZArith List Bool Lia Arith Sorting.Sorted ZifyBool.
From Verif Require Import Quad Spec Morton Interval QuadLemmas CompareLemmas DescLemmas SuccLemmas
  Tree TreeLemmas Search SearchLemmas SearchLocal SearchPure.
Import ListNotations.
Open Scope Z_scope.

(** ** C13 Binary search in quadrant arrays

    For every array sorted by p4est_quadrant_compare (quadrants with arbitrary
    32-bit coordinates) and every guess inside the array, the search ends
    without reading outside of the array, and returns the lowest index whose
    quadrant is not below the query, -1 (inner [None]) if there is none. *)
Lemma ss_at d a : Forall (quad32 d) a -> StronglySorted (fun x y => compare d x y <= 0) a ->
  forall i j, (i <= j < length a)%nat -> compare d (at_ a i) (at_ a j) <= 0.
Proof.
  intros W S i j H. destruct (Nat.eq_dec i j) as [->|N].
  - pose proof (at_w d a W j ltac:(lia)) as Wj.
    apply Z.eq_le_incl. apply (compare_spec d (at_ a j) (at_ a j) Wj Wj). auto.
  - apply (SS_pair (fun x y => compare d x y <= 0) a S i j); [lia|apply nth_error_at; lia|apply nth_error_at; lia].
Qed.

Theorem C13_lower_bound : forall d a q guess,
  Forall (quad32 d) a -> quad32 d q -> StronglySorted (fun x y => compare d x y <= 0) a ->
  (guess < length a)%nat \/ a = [] ->
  exists r, find_lower_bound d a q guess = Some r /\
    match r with
    | None => forall x, In x a -> compare d x q < 0
    | Some g => (exists x, nth_error a g = Some x /\ compare d x q >= 0) /\
                forall i y, (i < g)%nat -> nth_error a i = Some y -> compare d y q < 0
    end.
Proof.
  intros d a q guess W Wq S G. pose proof (ss_at d a W S) as srt.
  destruct a as [|x0 a']; [exists None; split; [reflexivity|intros x []]|].
  set (a := x0 :: a') in *. destruct G as [G|G]; [|discriminate].
  assert (LEN : (0 < length a)%nat) by (unfold a; cbn; lia).
  pose proof (lower_loop_spec d a q W Wq srt (length a + 1) 0 (length a - 1) guess
    ltac:(lia) ltac:(lia) ltac:(lia) ltac:(intros; lia) ltac:(left; auto)) as H.
  change (find_lower_bound d a q guess) with (lower_loop d (length a + 1) a q 0 (length a - 1) guess).
  destruct (lower_loop d (length a + 1) a q 0 (length a - 1) guess) as [r|]; [|destruct H].
  exists r. split; [reflexivity|]. destruct r as [g|].
  - destruct H as (H1 & H2 & H3). split.
    + exists (at_ a g). split; [apply nth_error_at; auto|].
      pose proof (cmp_flip d (at_ a g) q (at_w d a W g H1) Wq). lia.
    + intros i y Hi E. rewrite nth_error_at in E by lia. inversion E; subst. auto.
  - intros x I. apply In_nth_error in I. destruct I as (i & E).
    assert (Hi : (i < length a)%nat) by (apply nth_error_Some; congruence).
    rewrite nth_error_at in E by auto. inversion E; subst. auto.
Qed.

Theorem C13_higher_bound : forall d a q guess,
  Forall (quad32 d) a -> quad32 d q -> StronglySorted (fun x y => compare d x y <= 0) a ->
  (guess < length a)%nat \/ a = [] ->
  exists r, find_higher_bound d a q guess = Some r /\
    match r with
    | None => forall x, In x a -> compare d x q > 0
    | Some g => (exists x, nth_error a g = Some x /\ compare d x q <= 0) /\
                forall i y, (g < i)%nat -> nth_error a i = Some y -> compare d y q > 0
    end.
Proof.
  intros d a q guess W Wq S G. pose proof (ss_at d a W S) as srt.
  destruct a as [|x0 a']; [exists None; split; [reflexivity|intros x []]|].
  set (a := x0 :: a') in *. destruct G as [G|G]; [|discriminate].
  assert (LEN : (0 < length a)%nat) by (unfold a; cbn; lia).
  pose proof (higher_loop_spec d a q W Wq srt (length a + 1) 0 (length a - 1) guess
    ltac:(lia) ltac:(lia) ltac:(lia) ltac:(intros; lia) ltac:(left; auto)) as H.
  change (find_higher_bound d a q guess) with (higher_loop d (length a + 1) a q 0 (length a - 1) guess).
  destruct (higher_loop d (length a + 1) a q 0 (length a - 1) guess) as [r|]; [|destruct H].
  exists r. split; [reflexivity|]. destruct r as [g|].
  - destruct H as (H1 & H2 & H3). split.
    + exists (at_ a g). split; [apply nth_error_at; auto|lia].
    + intros i y Hi E. assert (Hl : (i < length a)%nat) by (apply nth_error_Some; congruence).
      rewrite nth_error_at in E by lia. inversion E; subst.
      pose proof (cmp_flip d q (at_ a i) Wq (at_w d a W i Hl)). specialize (H3 i ltac:(lia)). lia.
  - intros x I. apply In_nth_error in I. destruct I as (i & E).
    assert (Hi : (i < length a)%nat) by (apply nth_error_Some; congruence).
    rewrite nth_error_at in E by auto. inversion E; subst.
    pose proof (cmp_flip d q (at_ a i) Wq (at_w d a W i Hi)). specialize (H i Hi). lia.
Qed.

(** ** C14 Splitting an array by children *)
Theorem C14_split_array : forall d a b,
  wf d b -> ql b < 29 ->
  Forall (fun x => wf d x /\ ql b < ql x /\ qpos d b <= qpos d x /\ qend d x <= qend d b) a ->
  StronglySorted (fun x y => compare d x y <= 0) a ->
  let s := split_array d a (ql b) in
  length s = (childrenn d + 1)%nat /\ nth 0 s 1%nat = 0%nat /\ nth (childrenn d) s 0%nat = length a /\
  (forall i, (i < childrenn d)%nat -> (nth i s 0 <= nth (i + 1) s 0)%nat) /\
  forall i k x, (i < childrenn d)%nat -> nth_error a k = Some x ->
    ((forall px py pz, inq d x px py pz -> inq d (child d b (Z.of_nat i)) px py pz) <->
     (nth i s 0 <= k < nth (i + 1) s 0)%nat).
Proof.
  intros d a b Wb Lb F S s.
  assert (CC : Z.of_nat (childrenn d) = children d) by (destruct d; reflexivity).
  set (ty := fun x => Z.to_nat (ancestor_id d x (ql b + 1))) in *.
  assert (EX : forall x, In x a -> wf d x /\ ql b < ql x /\ within d b x).
  { intros x I. rewrite Forall_forall in F. destruct (F x I) as (A & B & C). split; [auto|]. split; auto. }
  assert (TY : forall x, In x a -> (ty x < childrenn d)%nat /\ within d (child d b (Z.of_nat (ty x))) x).
  { intros x I. destruct (EX x I) as (Wx & Lx & Ix). destruct (anc_child d b x Wb Wx Ix Lx) as (R & H).
    unfold ty. rewrite Z2Nat.id by lia. split; [lia|auto]. }
  assert (SRT : StronglySorted (fun x y => (ty x <= ty y)%nat) a).
  { clear F s. induction S as [|x a S IH F]; [constructor|]. constructor.
    - apply IH; intros; [apply EX|apply TY]; right; auto.
    - rewrite Forall_forall in *. intros y Hy. specialize (F y Hy).
      destruct (EX x ltac:(left; auto)) as (Wx & Lx & Ix). destruct (EX y ltac:(right; auto)) as (Wy & Ly & Iy).
      destruct (TY x ltac:(left; auto)) as (Rx & A). destruct (TY y ltac:(right; auto)) as (Ry & B).
      destruct (le_lt_dec (ty x) (ty y)); [auto|exfalso].
      pose proof (child_order d b (Z.of_nat (ty y)) (Z.of_nat (ty x)) Wb Lb ltac:(lia) ltac:(lia)).
      pose proof (size_pos d y Wy). pose proof (compare_wf d x y Wx Wy) as (_ & _ & C).
      unfold within in *. lia. }
  assert (NTH : forall i df, (i <= childrenn d)%nat -> nth i s df = countb (fun x => Nat.ltb (ty x) i) a).
  { intros i df Hi. unfold s, split_array. destruct a as [|a0 a'].
    - unfold countb. cbn [filter length]. 
      assert (R : forall m j, (j < m)%nat -> nth j (repeat 0%nat m) df = 0%nat).
      { clear. induction m as [|m IH]; intros j H; [lia|]. destruct j; [reflexivity|]. cbn. apply IH. lia. }
      apply R. lia.
    - rewrite (nth_indep _ df 0%nat) by (unfold array_split; rewrite map_length, seq_length; lia).
      apply nth_array_split. auto. }
  split; [unfold s, split_array; destruct a; [apply repeat_length|unfold array_split; rewrite map_length, seq_length; reflexivity]|].
  split; [rewrite NTH by lia; unfold countb; rewrite filter_nil; [reflexivity|intros; apply Nat.ltb_ge; lia]|].
  split.
  { rewrite NTH by lia. unfold countb. rewrite filter_all; [reflexivity|]. intros x I. apply Nat.ltb_lt. apply TY; auto. }
  split.
  { intros i Hi. rewrite !NTH by lia. apply countb_mono. intros x _ H. apply Nat.ltb_lt in H. apply Nat.ltb_lt. lia. }
  intros i k x Hi E. rewrite !NTH by lia.
  pose proof (sorted_count ty i a k x SRT E) as C1. pose proof (sorted_count ty (i + 1) a k x SRT E) as C2.
  assert (I : In x a) by (eapply nth_error_In; eauto).
  destruct (EX x I) as (Wx & Lx & Ix). destruct (TY x I) as (R & A).
  pose proof (child_wf d b (Z.of_nat i) Wb Lb ltac:(lia)) as (Wc & _).
  assert (SUB : (forall px py pz, inq d x px py pz -> inq d (child d b (Z.of_nat i)) px py pz) <-> within d (child d b (Z.of_nat i)) x).
  { apply (subset_interval d (child d b (Z.of_nat i)) x Wc Wx). }
  rewrite SUB. clear SUB.
  assert (EQ : within d (child d b (Z.of_nat i)) x <-> ty x = i).
  { split; [|intros <-; auto]. intros H.
    pose proof (child_unique d b x (Z.of_nat (ty x)) (Z.of_nat i) Wb Lb Wx ltac:(lia) ltac:(lia) A H). lia. }
  rewrite EQ. lia.
Qed.

(** ** C15 Local search visits every leaf once

    [sorted_leaves] says what a tree's quadrant array is: valid quadrants,
    ordered along the curve, not overlapping (there may be gaps, since other
    processes own the rest). *)
Definition sorted_leaves (d : dim) (L : list quad) : Prop :=
  Forall (wf d) L /\ StronglySorted (before d) L.

(** [search_nodes L N]: N lists, in curve order (ancestors first), without
    repetition, exactly the leaves, each with its index in the array, and
    exactly the branches: those quadrants with leaves in at least two of their
    children. *)
Definition search_nodes (d : dim) (L : list quad) (N : list node) : Prop :=
  StronglySorted (fun m n => compare d (fst m) (fst n) < 0) N /\
  (forall q k, In (q, Some k) N <-> nth_error L k = Some q) /\
  (forall b, In (b, None) N <-> branch d L b) /\
  forall n, In n N -> wf d (fst n).

Lemma root_wf d : wf d (mkq 0 0 0 0).
Proof. apply is_valid_wf. destruct d; reflexivity. Qed.

Lemma leaves_inside d L : Forall (wf d) L -> inside d (mkq 0 0 0 0) L.
Proof.
  intros F. eapply Forall_impl; [|exact F]. intros q W. cbn beta. split; [auto|].
  pose proof (wf_root_bounds d q W) as (A & B). unfold within.
  replace (qpos d (mkq 0 0 0 0)) with 0 by (destruct d; reflexivity).
  replace (qend d (mkq 0 0 0 0)) with (2 ^ (nd d * 30)) by (destruct d; reflexivity). auto.
Qed.

Lemma nodes_search d L : sorted_leaves d L -> search_nodes d L (nodes d 31 0 L).
Proof.
  intros (F & S). pose proof (leaves_inside d L F) as I. pose proof (root_wf d) as W.
  split; [exact (nodes_sorted d 31 0 L _ W S I)|]. split; [|split].
  - intros q k. rewrite (nodes_leaf d 31 0 L _ W S I ltac:(cbn [ql]; lia)). split.
    + intros (i & -> & E). exact E.
    + intros E. exists k. auto.
  - intros b. apply (nodes_branch d 31 0 L _ W S I). cbn [ql]. lia.
  - intros n In_. apply (nodes_inside d 31 0 L _ W S I n In_).
Qed.

(** The search in one tree is the protocol [run] over these nodes, for any
    callbacks with any state: nodes are taken in order; for a node the
    callbacks are called as documented, and their answers remove the pending
    nodes inside it or restrict the points they are asked for. *)
Theorem C15_search_tree : forall d (St Pt : Type) (rec : lrec St Pt) t s,
  sorted_leaves d (lt_quads t) -> (quadrant_fn rec <> None \/ points rec <> None) ->
  exists N, search_nodes d (lt_quads t) N /\
    search_local d rec [t] s =
    Some (run d St Pt rec (lt_num t) (lt_offset t) s (map (fun n => (n, points rec)) N)).
Proof.
  intros d St Pt rec t s SL H. exists (nodes d 31 0 (lt_quads t)). split; [apply nodes_search; auto|].
  assert (R : rel St Pt rec None (points rec)).
  { unfold rel, act_of. destruct (points rec) as [pts|]; [|auto]. exists pts. split; [auto|].
    assert (G : forall pre l : list Pt, Forall2 (fun i p => nth_error (pre ++ l) i = Some p) (seq (length pre) (length l)) l).
    { intros pre l. revert pre. induction l as [|p l IH]; intros pre; [constructor|]. cbn [length seq]. constructor.
      - rewrite nth_error_app2, Nat.sub_diag by lia. reflexivity.
      - specialize (IH (pre ++ [p])). rewrite app_length in IH. cbn [length] in IH.
        rewrite Nat.add_1_r in IH. rewrite <- app_assoc in IH. exact IH. }
    apply (G []). }
  destruct SL as (F & S).
  pose proof (rec_run d St Pt rec (lt_num t) (lt_offset t) 31 s (mkq 0 0 0 0) 0 (lt_quads t) None (points rec)
    (root_wf d) S (leaves_inside d _ F) ltac:(cbn [ql]; lia) R) as E.
  rewrite <- E. unfold search_local. cbn [fold_left]. destruct (quadrant_fn rec), (points rec); try reflexivity.
  destruct H; congruence.
Qed.

Lemma search_local_fold {St Pt} d (rec : lrec St Pt) : exists F, forall ts s,
  search_local d rec ts s = match quadrant_fn rec, points rec with
    | None, None => Some s
    | _, _ => fold_left (fun os t => match os with None => None | Some s => F s t end) ts (Some s) end.
Proof.
  exists (fun s t => local_recursion d St Pt rec (lt_num t) (lt_offset t) 31 s (mkq 0 0 0 0) 0 (lt_quads t) None).
  reflexivity.
Qed.

(** The forest search is the sequence of the tree searches. *)
Theorem C15_search_forest : forall d (St Pt : Type) (rec : lrec St Pt) t ts s,
  sorted_leaves d (lt_quads t) -> 
  exists s', search_local d rec [t] s = Some s' /\ search_local d rec (t :: ts) s = search_local d rec ts s'.
Proof.
  intros d St Pt rec t ts s SL. destruct (search_local_fold d rec) as (F & HF).
  assert (H : quadrant_fn rec <> None \/ points rec <> None -> exists s', search_local d rec [t] s = Some s').
  { intros H. destruct (C15_search_tree d St Pt rec t s SL H) as (N & _ & E). eauto. }
  destruct (quadrant_fn rec) eqn:E1.
  - destruct H as (s' & E); [left; discriminate|]. exists s'. split; [auto|].
    rewrite HF in E. rewrite !HF. cbn [fold_left] in *. rewrite E. reflexivity.
  - destruct (points rec) eqn:E2.
    + destruct H as (s' & E); [right; discriminate|]. exists s'. split; [auto|].
      rewrite HF in E. rewrite !HF. cbn [fold_left] in *. rewrite E. reflexivity.
    + exists s. rewrite !HF. split; reflexivity.
Qed.

Lemma search_local_nil d St Pt (rec : lrec St Pt) s : search_local d rec [] s = Some s.
Proof. unfold search_local. destruct (quadrant_fn rec), (points rec); reflexivity. Qed.

Lemma winv_init d Pt L N (ps : option (list Pt)) : search_nodes d L N -> winv d Pt (map (fun n => (n, ps)) N).
Proof.
  intros (S & _ & _ & W). split; [|split].
  - apply (SS_map (fun e f : node * option (list Pt) => node_lt d (fst e) (fst f)) (fun n => (n, ps))). exact S.
  - intros n p I. apply in_map_iff in I. destruct I as (m & E & I). inversion E; subst. auto.
  - intros n p n' p' I I' _. apply in_map_iff in I. apply in_map_iff in I'.
    destruct I as (m & E & I). destruct I' as (m' & E' & I'). congruence.
Qed.

Lemma flat_map_map {A B C} (f : B -> list C) (g : A -> B) l : flat_map f (map g l) = flat_map (fun a => f (g a)) l.
Proof. induction l as [|a l IH]; [reflexivity|]. cbn. rewrite IH. reflexivity. Qed.

Lemma forallb_impl_iff d (N : list node) (n : node) ok : (forall m, In m N -> wf d (fst m)) -> wf d (fst n) ->
  (forallb (fun m => implb (strictb d (fst m) (fst n)) (ok m)) N = true <->
   forall m, In m N -> fst m <> fst n -> (forall x y z, inq d (fst n) x y z -> inq d (fst m) x y z) -> ok m = true).
Proof.
  intros WN Wn. rewrite forallb_forall. split; intros H m I.
  - intros NE SUB. specialize (H m I). apply (subset_interval d (fst m) (fst n) (WN m I) Wn) in SUB.
    assert (ST : strictb d (fst m) (fst n) = true).
    { unfold strictb. apply andb_true_iff. split; [apply withinb_iff; exact SUB|].
      pose proof (within_level d _ _ (WN m I) Wn SUB).
      destruct (Z.eq_dec (ql (fst m)) (ql (fst n))) as [E|E]; [|lia].
      exfalso. apply NE. apply (within_eq d); auto. }
    rewrite ST in H. exact H.
  - destruct (strictb d (fst m) (fst n)) eqn:ST; [|reflexivity]. cbn [implb]. apply (H m I).
    + intros E. unfold strictb in ST. rewrite E in ST. lia.
    + apply (subset_interval d (fst m) (fst n) (WN m I) Wn). apply withinb_iff. unfold strictb in ST. lia.
Qed.

(** the callback is called with tree, quadrant and local number: the offset of
    the tree plus the index for a leaf, -1 for a branch *)
Definition num (t : ltree) (n : node) : Z :=
  match snd n with None => -1 | Some k => lt_offset t + Z.of_nat k end.

(** Every leaf and branch once, in curve order, if the callback always descends. *)
Theorem C15_all_leaves : forall d ts post, Forall (fun t => sorted_leaves d (lt_quads t)) ts ->
  exists Ns, Forall2 (fun t N => search_nodes d (lt_quads t) N) ts Ns /\
  search_local d (log_rec (Pt := unit) (fun _ _ _ => true) (fun _ _ _ _ => true) post None) ts [] =
  Some (concat (map (fun tN => map (fun n => CallQ (lt_num (fst tN)) (fst n) (num (fst tN) n)) (snd tN)) (combine ts Ns))).
Proof.
  intros d ts post F.
  set (rec := log_rec (Pt := unit) (fun _ _ _ => true) (fun _ _ _ _ => true) post None).
  enough (H : forall s, exists Ns, Forall2 (fun t N => search_nodes d (lt_quads t) N) ts Ns /\
    search_local d rec ts s = Some (s ++ concat (map (fun tN => map (fun n => CallQ (lt_num (fst tN)) (fst n) (num (fst tN) n)) (snd tN)) (combine ts Ns)))).
  { destruct (H []) as (Ns & A & B). exists Ns. split; auto. }
  induction F as [|t ts SL F IH]; intros s.
  - exists []. split; [constructor|]. rewrite search_local_nil. cbn. rewrite app_nil_r. reflexivity.
  - destruct (C15_search_forest d _ _ rec t ts s SL) as (s' & E1 & E2).
    destruct (C15_search_tree d _ _ rec t s SL ltac:(left; discriminate)) as (N & SN & E3).
    destruct (IH s') as (Ns & A & B). exists (N :: Ns). split; [constructor; auto|].
    rewrite E2, B. f_equal. cbn [combine map concat fst snd]. rewrite app_assoc. f_equal.
    rewrite E1 in E3. inversion E3 as [E4]. unfold rec at 1.
    rewrite (run_log d unit _ _ post None (lt_num t) (lt_offset t) _ _ s (Nat.le_refl _) (winv_init d unit _ _ _ SN)).
    f_equal. rewrite flat_map_map. cbn [fst snd].
    transitivity (flat_map (fun n => [@CallQ unit (lt_num t) (fst n) (num t n)]) N).
    + apply flat_map_ext_in. intros n I. cbn [points log_rec]. rewrite actv_none.
      replace (forallb _ _) with true; [reflexivity|]. symmetry. apply forallb_forall. intros m _.
      destruct (strictb d (fst m) (fst n)); reflexivity.
    + clear. induction N as [|n N IH]; [reflexivity|]. cbn. rewrite IH. reflexivity.
Qed.

(** Pruning: a node is reached exactly if the callback accepted every search
    node properly containing it; the others are called once and in order. *)
Theorem C15_prune : forall d (P : Z -> quad -> Z -> bool) t post, sorted_leaves d (lt_quads t) ->
  exists N (reached : node -> bool), search_nodes d (lt_quads t) N /\
  (forall n, In n N -> (reached n = true <->
     forall m, In m N -> fst m <> fst n -> (forall x y z, inq d (fst n) x y z -> inq d (fst m) x y z) ->
       P (lt_num t) (fst m) (num t m) = true)) /\
  search_local d (log_rec (Pt := unit) P (fun _ _ _ _ => true) post None) [t] [] =
  Some (map (fun n => CallQ (lt_num t) (fst n) (num t n)) (filter reached N)).
Proof.
  intros d P t post SL.
  destruct (C15_search_tree d _ _ (log_rec (Pt := unit) P (fun _ _ _ _ => true) post None) t [] SL ltac:(left; discriminate)) as (N & SN & E).
  set (reached := fun n : node => forallb (fun m : node => implb (strictb d (fst m) (fst n)) (P (lt_num t) (fst m) (num t m))) N).
  exists N, reached. split; [auto|]. pose proof SN as (_ & _ & _ & WN). split.
  - intros n I. unfold reached. apply (forallb_impl_iff d N n (fun m => P (lt_num t) (fst m) (num t m)) WN (WN n I)).
  - rewrite E. f_equal.
    rewrite (run_log d unit _ _ post None (lt_num t) (lt_offset t) _ _ [] (Nat.le_refl _) (winv_init d unit _ _ _ SN)).
    cbn [app]. rewrite flat_map_map, map_map, map_id. cbn [fst snd points log_rec].
    assert (G : forall N', flat_map (fun n => ev unit P post (lt_num t) (lt_offset t) n
       (actv d unit P (fun _ _ _ _ => true) (lt_num t) (lt_offset t) N n None)) N' =
       map (fun n => CallQ (lt_num t) (fst n) (num t n)) (filter reached N')).
    { induction N' as [|n N' IH]; [reflexivity|]. cbn [flat_map filter]. rewrite IH, actv_none.
      change (forallb _ N) with (reached n). destruct (reached n); reflexivity. }
    apply G.
Qed.

(** Point queries: the quadrant callback is asked at a node exactly if some
    point is still active there; a point is active at a node exactly if the
    quadrant callback and the point callback accepted it at every search node
    properly containing the node.  The points are passed in array order. *)
Theorem C15_points : forall d (Pt : Type) (P : Z -> quad -> Z -> bool) (PP : Z -> quad -> Z -> Pt -> bool) t post pts,
  sorted_leaves d (lt_quads t) ->
  exists N (active : node -> Pt -> bool), search_nodes d (lt_quads t) N /\
  (forall n p, In n N -> (active n p = true <->
     forall m, In m N -> fst m <> fst n -> (forall x y z, inq d (fst n) x y z -> inq d (fst m) x y z) ->
       P (lt_num t) (fst m) (num t m) = true /\ PP (lt_num t) (fst m) (num t m) p = true)) /\
  search_local d (log_rec P PP post (Some pts)) [t] [] =
  Some (concat (map (fun n =>
    let cq := CallQ (lt_num t) (fst n) (num t n) in
    match filter (active n) pts with
    | [] => []
    | l => cq :: (if P (lt_num t) (fst n) (num t n)
                  then map (CallP (lt_num t) (fst n) (num t n)) l ++ (if post then [cq] else []) else [])
    end) N)).
Proof.
  intros d Pt P PP t post pts SL.
  destruct (C15_search_tree d _ _ (log_rec P PP post (Some pts)) t [] SL ltac:(left; discriminate)) as (N & SN & E).
  set (active := fun (n : node) (p : Pt) => forallb (fun m : node => implb (strictb d (fst m) (fst n))
     (P (lt_num t) (fst m) (num t m) && PP (lt_num t) (fst m) (num t m) p)) N).
  exists N, active. split; [auto|]. pose proof SN as (_ & _ & _ & WN). split.
  - intros n p I. unfold active.
    rewrite (forallb_impl_iff d N n (fun m => P (lt_num t) (fst m) (num t m) && PP (lt_num t) (fst m) (num t m) p) WN (WN n I)).
    split; intros H m A B C; specialize (H m A B C); apply andb_true_iff; auto.
  - rewrite E. f_equal.
    rewrite (run_log d Pt _ _ post (Some pts) (lt_num t) (lt_offset t) _ _ [] (Nat.le_refl _) (winv_init d Pt _ _ _ SN)).
    cbn [app]. rewrite flat_map_map, map_map, map_id. cbn [fst snd points log_rec].
    rewrite flat_map_concat_map. f_equal. apply map_ext. intros n. rewrite actv_some.
    assert (EV : forall l, ev Pt P post (lt_num t) (lt_offset t) n (Some l) =
      match l with [] => [] | l => CallQ (lt_num t) (fst n) (num t n) ::
        (if P (lt_num t) (fst n) (num t n) then map (CallP (lt_num t) (fst n) (num t n)) l ++
          (if post then [CallQ (lt_num t) (fst n) (num t n)] else []) else []) end).
    { intros l. destruct l; reflexivity. }
    rewrite EV. change (filter _ pts) with (filter (active n) pts). destruct (filter (active n) pts); reflexivity.
Qed.

(** A tree with a refined first quadrant: five branches and leaves. *)
Example C15_ex : let r := mkq 0 0 0 0 in let c := child D2 r in
  let L := [child D2 (c 0) 0; child D2 (c 0) 3; c 1; c 3] in
  sorted_leaves D2 L /\
  search_local D2 (log_rec (Pt := unit) (fun _ q _ => negb (qx q =? 0) || negb (ql q =? 1)) (fun _ _ _ _ => true) false None)
    [mklt 5 10 L] [] =
  Some [CallQ 5 r (-1); CallQ 5 (c 0) (-1); CallQ 5 (c 1) 12; CallQ 5 (c 3) 13].
Proof.
  cbv zeta. split; [|vm_compute; reflexivity]. split.
  - repeat (constructor; [apply is_valid_wf; vm_compute; reflexivity|]). constructor.
  - repeat (constructor; [|repeat (constructor; [vm_compute; discriminate|]); constructor]). constructor.
Qed.

(** ** C24 Partition search

    Both results are the lowest index whose value is not below the key, and
    the length of the array if there is none. *)
Theorem C24_find_partition : forall a my_begin my_end, StronglySorted Z.le a -> my_begin <= my_end ->
  let (b, e) := find_partition a my_begin my_end in
  (b <= e <= length a)%nat /\
  (forall i x, nth_error a i = Some x -> ((i < b)%nat <-> x < my_begin) /\ ((i < e)%nat <-> x < my_end)).
Proof.
  intros a mb me S H. unfold find_partition. rewrite !nth_array_split by lia.
  assert (E1 : countb (fun v => Nat.ltb (window_type mb me v) 1) a = countb (fun v => v <? mb) a).
  { unfold countb. f_equal. apply filter_ext. intros v. unfold window_type.
    destruct (v <? mb) eqn:A; [reflexivity|]. replace (mb <=? v) with true by lia. cbn [andb].
    destruct (me >? v) eqn:B; [reflexivity|]. replace (me <=? v) with true by lia. reflexivity. }
  assert (E2 : countb (fun v => Nat.ltb (window_type mb me v) 2) a = countb (fun v => v <? me) a).
  { unfold countb. f_equal. apply filter_ext. intros v. unfold window_type.
    destruct (v <? mb) eqn:A; [replace (v <? me) with true by lia; reflexivity|].
    replace (mb <=? v) with true by lia. cbn [andb].
    destruct (me >? v) eqn:B; [replace (v <? me) with true by lia; reflexivity|].
    replace (me <=? v) with true by lia. replace (v <? me) with false by lia. reflexivity. }
  rewrite E1, E2. split; [split; [|apply countb_le]|].
  - apply countb_mono. intros x _ Hx. lia.
  - intros i x E. split; apply count_lower; auto.
Qed.

(** The documentation says that [end] is num_procs - 1 if my_end is larger
    or equal than the largest value. *)
Theorem C24_end_refuted : exists a my_begin my_end, StronglySorted Z.le a /\ my_begin <= my_end /\
  (forall x, In x a -> x <= my_end) /\ snd (find_partition a my_begin my_end) <> (length a - 1)%nat.
Proof.
  exists [3; 7; 9], 4, 12. split; [repeat (constructor; [|repeat (constructor; [lia|]); constructor]); constructor|].
  split; [lia|]. split; [intros x [<-|[<-|[<-|[]]]]; lia|]. vm_compute. discriminate.
Qed.

Example C24_ex : find_partition [0; 4; 4; 9] 4 9 = (1%nat, 3%nat) /\ StronglySorted Z.le [0; 4; 4; 9].
Proof. split; [reflexivity|]. repeat (constructor; [|repeat (constructor; [lia|]); constructor]); constructor. Qed.

(** ** C47 Cumulative search

    Trees are given by (quadrants_offset, number of quadrants); the local
    trees first..last have consecutive offsets.  The search finds the tree and
    the index in the tree for every local number and every guess among the
    local trees. *)
Theorem C47_find_quadrant_cumulative : forall trees first last id guess,
  0 <= first -> first <= last < Z.of_nat (length trees) ->
  (forall i o n, first <= i <= last -> nth_error trees (Z.to_nat i) = Some (o, n) -> 0 <= n) ->
  (forall i o n o' n', first <= i < last -> nth_error trees (Z.to_nat i) = Some (o, n) ->
     nth_error trees (Z.to_nat (i + 1)) = Some (o', n') -> o' = o + n) ->
  (forall o n, nth_error trees (Z.to_nat first) = Some (o, n) -> o <= id) ->
  (forall o n, nth_error trees (Z.to_nat last) = Some (o, n) -> id < o + n) ->
  match guess with None => True | Some g => first <= g <= last end ->
  exists t k o n, find_quadrant_cumulative trees first last id guess = Some (t, k) /\ first <= t <= last /\
    nth_error trees (Z.to_nat t) = Some (o, n) /\ 0 <= k < n /\ o + k = id.
Proof.
  intros trees first last id guess H0 Hfl Hn Hstep Hlo Hhi Hg. unfold find_quadrant_cumulative.
  destruct (cumulative_loop_spec trees first last id H0 Hfl Hn Hstep Hlo Hhi (length trees + 1) first last
    (match guess with Some g => g | None => Z.quot (first + last) 2 end)) as (t & k & o & n & A & B & C & D & E);
    try lia; auto.
  - destruct guess as [g|]; [lia|]. rewrite Z.quot_div_nonneg by lia.
    pose proof (Z.div_le_lower_bound (first + last) 2 first ltac:(lia) ltac:(lia)).
    pose proof (Z.div_le_upper_bound (first + last) 2 last ltac:(lia) ltac:(lia)). lia.
  - exists t, k, o, n. repeat (split; [auto; lia|]). lia.
Qed.

Example C47_ex : find_quadrant_cumulative [(0, 0); (0, 3); (3, 2); (5, 4); (9, 0)] 1 3 6 (Some 1) = Some (3, 1).
Proof. reflexivity. Qed.

(** the hypotheses of C13 and C14 hold of a proper array *)
Example C13_C14_ex : let r := mkq 0 0 0 0 in let c := child D2 r in
  let L := [child D2 (c 0) 0; child D2 (c 0) 3; c 1; c 3] in
  Forall (quad32 D2) L /\ StronglySorted (fun x y => compare D2 x y <= 0) L /\
  find_lower_bound D2 L (child D2 (c 0) 1) 3 = Some (Some 1%nat) /\
  find_higher_bound D2 L (c 2) 0 = Some (Some 2%nat) /\
  split_array D2 L 0 = [0; 2; 3; 3; 4]%nat.
Proof.
  cbv zeta. split; [|split].
  - repeat (constructor; [apply wf_quad32, is_valid_wf; vm_compute; reflexivity|]). constructor.
  - repeat (constructor; [|repeat (constructor; [vm_compute; discriminate|]); constructor]). constructor.
  - vm_compute. auto.
Qed.

Print Assumptions C13_lower_bound.
Print Assumptions C13_higher_bound.
Print Assumptions C14_split_array.
Print Assumptions C15_search_tree.
Print Assumptions C15_search_forest.
Print Assumptions C15_all_leaves.
Print Assumptions C15_prune.
Print Assumptions C15_points.
Print Assumptions C24_find_partition.
Print Assumptions C24_end_refuted.
Print Assumptions C47_find_quadrant_cumulative.
