(** * Properties of p4est_find_range_boundaries: C58 *)

From Coq Require Import ZArith List Bool Lia ZifyBool.
From Verif Require Import Quad Spec Morton Interval QuadLemmas DescLemmas Search SearchLocal Partition RangeBound RangeBoundLemmas.
Import ListNotations.
Open Scope Z_scope.

(** s is a smallest quadrant inside b in the range from lq to uq, where None
    stands for the first or the last smallest quadrant of b *)
Definition cell (d : dim) (b : quad) (lq uq : option quad) (s : quad) : Prop :=
  wf d s /\ ql s = 29 /\ (forall x y z, inq d s x y z -> inq d b x y z) /\
  (forall l, lq = Some l -> qpos d l <= qpos d s) /\ (forall u, uq = Some u -> qpos d s <= qpos d u).

(** a bound of the range: a smallest quadrant inside b *)
Definition bound_ok (d : dim) (b : quad) (q : option quad) : Prop :=
  forall l, q = Some l -> wf d l /\ ql l = 29 /\ (forall x y z, inq d l x y z -> inq d b x y z).

Lemma within_points d b s : wf d b -> wf d s -> ((forall x y z, inq d s x y z -> inq d b x y z) <-> within d b s).
Proof.
  intros Wb Ws. split.
  - intros H. apply (BalanceGeom.inn_corner d b s Wb Ws).
    pose proof (BalanceGeom.crn_self d s Ws) as C. split; [|exact (H _ _ _ C)].
    pose proof (wf_level d s Ws). pose proof (wf_level d b Wb). pose proof (side_pos (ql s) ltac:(lia)). pose proof (side_pos (ql b) ltac:(lia)).
    destruct (Z.le_gt_cases (ql b) (ql s)) as [|G]; [auto|]. exfalso.
    assert (S : side (ql s) = 2 ^ (ql b - ql s) * side (ql b)) by (apply side_split; lia).
    assert (2 <= 2 ^ (ql b - ql s)) by (change 2 with (2 ^ 1) at 1; apply Z.pow_le_mono_r; lia).
    assert (2 * side (ql b) <= 2 ^ (ql b - ql s) * side (ql b)) by (apply Z.mul_le_mono_nonneg_r; lia).
    assert (C' : inq d s (qx s + side (ql s) - 1) (qy s) (qz s)).
    { destruct C as (C1 & C2 & C3). split; [lia|]. split; auto. }
    apply H in C. apply H in C'. destruct C as (C1 & _). destruct C' as (C2 & _). lia.
  - intros (A & B) x y z I. apply (inq_pos d s x y z Ws) in I. apply (inq_pos d b x y z Wb). split; [apply I|lia].
Qed.

Lemma bit_all d i : 0 <= i < nbits d -> Z.testbit (all_boundaries d) i = true.
Proof.
  intros Hi. destruct d; cbn [all_boundaries nbits] in *; [change 255 with (Z.ones 8)|change 67108863 with (Z.ones 26)]; apply Z.ones_spec_low; lia.
Qed.

Lemma range_bits d b lq uq : wf d b -> bound_ok d b lq -> bound_ok d b uq ->
  (forall l u, lq = Some l -> uq = Some u -> qpos d l < qpos d u \/ ql b = 29) ->
  exists t, find_range_boundaries d lq uq (ql b) = Some t /\
    forall i, 0 <= i < nbits d -> (Z.testbit t i = true <-> exists s, cell d b lq uq s /\ touches d b s (bit_obj d i)).
Proof.
  intros Wb Hl Hu LT. pose proof (wf_level d b Wb) as Lb. unfold find_range_boundaries. change QMAXLEVEL with 29.
  assert (CASE : match lq, uq with None, None => true | _, _ => ql b =? 29 end = true -> exists t, Some (all_boundaries d) = Some t /\
    forall i, 0 <= i < nbits d -> (Z.testbit t i = true <-> exists s, cell d b lq uq s /\ touches d b s (bit_obj d i))).
  { intros E. eexists. split; [reflexivity|]. intros i Hi. rewrite bit_all by exact Hi. split; [intros _|reflexivity].
    destruct (touches_some d (bit_obj d i) (Z.to_nat (29 - ql b)) b Wb ltac:(lia)) as (s & Ws & Ls & Is & Ts). exists s. split; [|exact Ts].
    split; [exact Ws|]. split; [exact Ls|]. split; [apply within_points; auto|].
    assert (EQ : ql b = 29 -> forall q, wf d q -> ql q = 29 -> (forall x y z, inq d q x y z -> inq d b x y z) -> q = b).
    { intros E29 q Wq Lq Iq. symmetry. apply (within_eq d b q Wb Wq); [apply within_points; auto|lia]. }
    split; intros q Eq; [destruct (Hl q Eq) as (Wq & Lq & Iq)|destruct (Hu q Eq) as (Wq & Lq & Iq)];
      (assert (E29 : ql b = 29) by (destruct lq, uq; try discriminate; lia)); rewrite (EQ E29 q Wq Lq Iq); rewrite (EQ E29 s Ws Ls) by (apply within_points; auto); lia. }
  destruct (match lq, uq with None, None => true | _, _ => ql b =? 29 end) eqn:E; [exact (CASE eq_refl)|]. clear CASE.
  assert (W : forall s, wf d s -> ((forall x y z, inq d s x y z -> inq d b x y z) <-> within d b s)) by (intros s Ws; apply within_points; auto).
  destruct lq as [l|], uq as [u|]; [| | |discriminate].
  - destruct (Hl l eq_refl) as (Wl & Ll & Il). destruct (Hu u eq_refl) as (Wu & Lu & Iu). rewrite W in Il, Iu by auto.
    destruct (LT l u eq_refl eq_refl) as [LT'|]; [|lia].
    assert (AL : ql b <= ql (nearest_common_ancestor d l u)).
    { destruct (nca_spec d l u Wl Wu) as (Wn & _ & _ & MIN). cbv zeta in *. apply (within_level d b _ Wb Wn). apply MIN; [exact Wb|apply Il|apply Il|apply Iu|apply Iu]. }
    destruct (range_spec d l u Wl Ll Wu Lu LT' 31 b (all_boundaries d) Wb Il Iu AL ltac:(lia)) as (t & -> & Ht). exists t. split; [reflexivity|].
    intros i Hi. rewrite (Ht i Hi), bit_all by exact Hi. split.
    + intros (_ & s & Ws & Ls & Is & A & B & Ts). exists s. split; [|exact Ts]. split; [exact Ws|]. split; [exact Ls|]. split; [apply W; auto|]. split; intros ? [= <-]; auto.
    + intros (s & (Ws & Ls & Is & A & B) & Ts). split; [reflexivity|]. exists s. rewrite W in Is by auto. split; [exact Ws|]. split; [exact Ls|]. split; [exact Is|]. auto.
  - destruct (Hl l eq_refl) as (Wl & Ll & Il). rewrite W in Il by auto.
    destruct (open_range_spec d true l b Wl Ll Wb ltac:(lia) Il) as (t & Et & Ht). cbn [dirz limz] in Et. rewrite Et. exists t. split; [reflexivity|].
    intros i Hi. rewrite (Ht i Hi). split.
    + intros (s & Ws & Ls & Is & A & Ts). exists s. split; [|exact Ts]. split; [exact Ws|]. split; [exact Ls|]. split; [apply W; auto|]. split; [intros ? [= <-]; auto|discriminate].
    + intros (s & (Ws & Ls & Is & A & B) & Ts). exists s. rewrite W in Is by auto. split; [exact Ws|]. split; [exact Ls|]. split; [exact Is|]. split; [apply A; reflexivity|exact Ts].
  - destruct (Hu u eq_refl) as (Wu & Lu & Iu). rewrite W in Iu by auto.
    destruct (open_range_spec d false u b Wu Lu Wb ltac:(lia) Iu) as (t & Et & Ht). cbn [dirz limz] in Et. rewrite Et. exists t. split; [reflexivity|].
    intros i Hi. rewrite (Ht i Hi). split.
    + intros (s & Ws & Ls & Is & A & Ts). exists s. split; [|exact Ts]. split; [exact Ws|]. split; [exact Ls|]. split; [apply W; auto|]. split; [discriminate|intros ? [= <-]; auto].
    + intros (s & (Ws & Ls & Is & A & B) & Ts). exists s. rewrite W in Is by auto. split; [exact Ws|]. split; [exact Ls|]. split; [exact Is|]. split; [apply B; reflexivity|exact Ts].
Qed.

(** C58: the bits of faces, edges and corners say which of these parts of the
    boundary of b the range touches; the range must not be one smallest
    quadrant in a larger b *)
Theorem C58_find_range_boundaries_partial : forall d b lq uq, wf d b -> bound_ok d b lq -> bound_ok d b uq ->
  (forall l u, lq = Some l -> uq = Some u -> qpos d l < qpos d u \/ ql b = 29) ->
  exists t, find_range_boundaries d lq uq (ql b) = Some t /\
    (forall f, 0 <= f < 2 * nd d ->
       (Z.testbit t f = true <-> exists s, cell d b lq uq s /\ touches d b s (face_obj f))) /\
    (d = D3 -> forall e, 0 <= e < 12 ->
       (Z.testbit t (6 + e) = true <-> exists s, cell d b lq uq s /\ touches d b s (edge_obj e))) /\
    (forall c, 0 <= c < children d ->
       (Z.testbit t (match d with D2 => 4 | D3 => 18 end + c) = true <-> exists s, cell d b lq uq s /\ touches d b s (corner_obj d c))).
Proof.
  intros d b lq uq Wb Hl Hu LT. destruct (range_bits d b lq uq Wb Hl Hu LT) as (t & E & H). exists t. split; [exact E|].
  split; [|split].
  - intros f Hf. rewrite H by (destruct d; cbn [nd nbits] in *; lia). unfold bit_obj. destruct d; cbn [nd] in Hf; [replace (f <? 4) with true by lia|replace (f <? 6) with true by lia]; reflexivity.
  - intros -> e He. rewrite H by (cbn [nbits]; lia). unfold bit_obj. replace (6 + e <? 6) with false by lia. replace (6 + e <? 18) with true by lia. replace (6 + e - 6) with e by lia. reflexivity.
  - assert (C4 : children D2 = 4) by reflexivity. assert (C8 : children D3 = 8) by reflexivity.
    intros c Hc. rewrite H by (destruct d; cbn [nbits]; lia). unfold bit_obj. destruct d.
    + replace (4 + c <? 4) with false by lia. replace (4 + c - 4) with c by lia. reflexivity.
    + replace (18 + c <? 6) with false by lia. replace (18 + c <? 18) with false by lia. replace (18 + c - 18) with c by lia. reflexivity.
Qed.

(** False if the range is one smallest quadrant: the recursion goes one level
    too deep.  Here the quadrant is the lower right child of b; the face on
    the right is not reported.  (With assertions enabled the code aborts.) *)
Theorem C58_find_range_boundaries_refuted : exists d b l t, wf d b /\ wf d l /\ ql l = 29 /\ (forall x y z, inq d l x y z -> inq d b x y z) /\
  find_range_boundaries d (Some l) (Some l) (ql b) = Some t /\ cell d b (Some l) (Some l) l /\ touches d b l (face_obj 1) /\ Z.testbit t 1 = false.
Proof.
  set (b := mkq 4 8 0 28). set (l := mkq 6 8 0 29). exists D2, b, l, 4.
  assert (Wb : wf D2 b) by (apply is_valid_wf; reflexivity). assert (Wl : wf D2 l) by (apply is_valid_wf; reflexivity).
  assert (I : forall x y z, inq D2 l x y z -> inq D2 b x y z).
  { intros x y z. unfold inq, b, l. cbn [qx qy qz ql]. change (side 28) with 4. change (side 29) with 2. lia. }
  split; [exact Wb|]. split; [exact Wl|]. split; [reflexivity|]. split; [exact I|]. split; [vm_compute; reflexivity|]. split; [|split; [vm_compute; auto|reflexivity]].
  split; [exact Wl|]. split; [reflexivity|]. split; [exact I|]. split; intros ? [= <-]; lia.
Qed.

(** from the middle of child 1 to the middle of child 6 of a cube: only 2 to 5
    of the corners, all edges but 0 and 3, all faces *)
Example C58_ex : let b := mkq (2 ^ 29) 0 (2 ^ 29) 1 in let l := child D3 (child D3 b 1) 6 in let u := child D3 (child D3 b 6) 1 in
  let lq := first_descendant D3 l 29 in let uq := last_descendant D3 u 29 in
  wf D3 b /\ bound_ok D3 b (Some lq) /\ bound_ok D3 b (Some uq) /\ qpos D3 lq < qpos D3 uq /\
  find_range_boundaries D3 (Some lq) (Some uq) (ql b) = Some 15990207 /\
  find_range_boundaries D3 None (Some uq) (ql b) = Some 16776703 /\
  find_range_boundaries D3 (Some lq) None (ql b) = Some 66322367.
Proof.
  cbv zeta. split; [apply is_valid_wf; reflexivity|].
  assert (B : forall q, is_valid D3 q = true -> ql q = 29 -> is_ancestor D3 (mkq (2 ^ 29) 0 (2 ^ 29) 1) q = true -> bound_ok D3 (mkq (2 ^ 29) 0 (2 ^ 29) 1) (Some q)).
  { intros q V L A l [= <-]. apply is_valid_wf in V. split; [exact V|]. split; [exact L|]. apply within_points; [apply is_valid_wf; reflexivity|exact V|].
    apply is_ancestor_iff in A; [|apply is_valid_wf; reflexivity|exact V]. split; apply A. }
  split; [apply B; vm_compute; reflexivity|]. split; [apply B; vm_compute; reflexivity|]. split; [vm_compute; reflexivity|]. vm_compute. auto.
Qed.

Print Assumptions C58_find_range_boundaries_partial.
Print Assumptions C58_find_range_boundaries_refuted.
