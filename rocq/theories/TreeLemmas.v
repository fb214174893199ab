(** * Tree checks; first/last descendants; enlarging *)

From Coq Require Import ZArith List Bool Lia ZifyBool Sorting.Sorted.
From Verif Require Import Quad Spec Morton ZBits Interval QuadLemmas CompareLemmas IdLemmas DescLemmas SuccLemmas Tree.
Import ListNotations.
Open Scope Z_scope.

(** ** lists of intervals *)
(** before q r: the region of q ends where or before the region of r begins *)
Definition before (d : dim) (q r : quad) : Prop := qend d q <= qpos d r.

Lemma adjacents_spec test (P : quad -> quad -> Prop) (W : quad -> Prop) :
  (forall q r, W q -> W r -> (test q r = true <-> P q r)) ->
  forall l, Forall W l -> (adjacents test l = true <-> Sorted P l).
Proof.
  intros HT l. destruct l as [|a l]; intros F.
  - cbn. split; auto.
  - cbn [adjacents]. revert a F. induction l as [|b l IH]; intros a F.
    + cbn. split; auto.
    + cbn [adjacent]. inversion F as [|? ? Wa F']; subst. inversion F' as [|? ? Wb F'']; subst.
      destruct (test a b) eqn:E.
      * rewrite IH by auto. split.
        -- intros S. constructor; auto. constructor. apply HT; auto.
        -- intros S. inversion S; auto.
      * split; [discriminate|]. intros S. inversion S as [|? ? S1 S2]; subst. inversion S2; subst.
        apply HT in H0; auto. congruence.
Qed.

Lemma tree_is_sorted_spec d l : Forall (wf d) l ->
  (tree_is_sorted d l = true <->
   StronglySorted (fun q r => qpos d q < qpos d r \/ (qpos d q = qpos d r /\ ql q < ql r)) l).
Proof.
  intros F. unfold tree_is_sorted.
  rewrite (adjacents_spec _ (fun q r => qpos d q < qpos d r \/ (qpos d q = qpos d r /\ ql q < ql r)) (wf d)); auto.
  - split.
    + apply Sorted_StronglySorted. intros a b c; cbv beta. lia.
    + apply StronglySorted_Sorted.
  - intros q r Wq Wr. destruct (compare_wf d q r Wq Wr) as (A & _). rewrite <- A. lia.
Qed.

Lemma tree_is_linear_spec d l : Forall (wf d) l ->
  (tree_is_linear d l = true <-> StronglySorted (before d) l).
Proof.
  intros F. unfold tree_is_linear.
  rewrite (adjacents_spec _ (before d) (wf d)); auto.
  - split.
    + assert (G : forall l, Forall (wf d) l -> Sorted (before d) l -> StronglySorted (before d) l).
      { clear. induction l as [|a l IH]; intros F S; [constructor|].
        inversion F; subst. inversion S as [|? ? S1 S2]; subst. specialize (IH H2 S1).
        constructor; auto. destruct l as [|b l]; [constructor|].
        inversion S2; subst. inversion IH; subst. inversion H2; subst.
        constructor; auto. eapply Forall_impl; [|exact H5]. intros c Hc. unfold before in *.
        pose proof (qsize_pos d b H6). unfold qend in *. lia. }
      intros S. apply G; auto.
    + apply StronglySorted_Sorted.
  - intros q r Wq Wr. rewrite andb_true_iff, !negb_true_iff.
    destruct (compare_wf d q r Wq Wr) as (A & _).
    pose proof (is_ancestor_iff d q r Wq Wr) as I.
    pose proof (qsize_pos d q Wq). pose proof (qsize_pos d r Wr).
    pose proof (wf_level _ _ Wq). pose proof (wf_level _ _ Wr).
    unfold before. split.
    + intros (C & N). assert (C' : compare d q r < 0) by lia. rewrite A in C'.
      assert (N' : ~ (ql q < ql r /\ qpos d q <= qpos d r /\ qend d r <= qend d q)).
      { rewrite <- I. congruence. }
      destruct (Z_le_gt_dec (ql q) (ql r)) as [L|L].
      * destruct (dyadic d q r Wq Wr L) as [D|[D|D]]; auto; [|unfold qend in *; lia].
        destruct (Z.eq_dec (ql q) (ql r)) as [E|E]; [|lia].
        destruct (contains_unique d q r Wq Wr (proj1 D) (proj2 D)) as (_ & F1).
        rewrite E, ancestor_self in F1 by auto. subst. lia.
      * destruct (dyadic d r q Wr Wq ltac:(lia)) as [D|[D|D]]; auto; unfold qend in *; lia.
    + intros B. split.
      * assert (compare d q r < 0); [|lia]. apply A. left. unfold qend in *. lia.
      * apply not_true_is_false. rewrite I. unfold qend in *. lia.
Qed.

(** completeness check: exact meaning *)
Definition next_ok (d : dim) (q r : quad) : Prop :=
  if ql r <? ql q then qpos d r = qend d q
  else qend d q <= qpos d r < qend d q + qsize d q.

Lemma tree_is_complete_spec d l : Forall (wf d) l ->
  (tree_is_complete d l = true <-> Sorted (next_ok d) l).
Proof.
  intros F. unfold tree_is_complete. apply (adjacents_spec _ _ (wf d)); auto.
  intros. apply is_next_spec; auto.
Qed.

Lemma complete_linear d l : Forall (wf d) l -> tree_is_complete d l = true ->
  tree_is_linear d l = true.
Proof.
  intros F C. apply tree_is_complete_spec in C; auto.
  unfold tree_is_linear. apply (adjacents_spec _ (before d) (wf d)); auto.
  - intros q r Wq Wr.
    pose proof (tree_is_linear_spec d [q; r] ltac:(auto)) as T.
    cbn in T. destruct (negb _ && negb _) eqn:E.
    + split; auto. intros _. assert (S : StronglySorted (before d) [q; r]) by (apply T; auto).
      inversion S; subst. inversion H2; auto.
    + split; [discriminate|]. intros B.
      assert (S : StronglySorted (before d) [q; r]) by (repeat constructor; auto).
      apply T in S. discriminate.
  - clear F. induction C; constructor; auto. inversion H; constructor.
    unfold next_ok, before in *. destruct (ql b <? ql a); lia.
Qed.

(** arrays without gaps *)
Definition gapfree (d : dim) (l : list quad) : Prop := Sorted (fun q r => qend d q = qpos d r) l.

Lemma gapfree_complete d l : Forall (wf d) l -> gapfree d l -> tree_is_complete d l = true.
Proof.
  intros F G. apply tree_is_complete_spec; auto.
  revert F. induction G; intros F; constructor; inversion F; subst; auto.
  inversion H; subst; constructor. unfold next_ok.
  pose proof (qsize_pos d a H2). destruct (ql b <? ql a); lia.
Qed.

(** a gap-free array covers exactly the positions between its ends *)
Lemma last_cons {A} (l : list A) : forall a b, last (a :: b :: l) a = last (b :: l) b.
Proof.
  assert (G : forall (l : list A) x a b, last (x :: l) a = last (x :: l) b).
  { clear. induction l as [|y l IH]; intros; [reflexivity|]. cbn [last] in *. apply (IH y). }
  intros a b. change (last (a :: b :: l) a) with (last (b :: l) a). apply G.
Qed.

Lemma gapfree_last d l : forall a, Forall (wf d) (a :: l) -> gapfree d (a :: l) ->
  qend d a <= qend d (last (a :: l) a).
Proof.
  induction l as [|b l IH]; intros a F G; [cbn; lia|].
  rewrite last_cons. inversion F as [|? ? Wa F']; subst. inversion F' as [|? ? Wb F'']; subst.
  inversion G as [|? ? G1 G2]; subst. inversion G2 as [|? ? E]; subst.
  specialize (IH b F' G1). pose proof (qsize_pos d b Wb). unfold qend in *. lia.
Qed.

Lemma gapfree_covers d l : forall a, Forall (wf d) (a :: l) -> gapfree d (a :: l) ->
  forall p, (exists q, In q (a :: l) /\ qpos d q <= p < qend d q) <->
            qpos d a <= p < qend d (last (a :: l) a).
Proof.
  induction l as [|b l IH]; intros a F G p.
  - cbn. split.
    + intros (q & [E|[]] & H). subst. auto.
    + intros H. exists a. auto.
  - pose proof (gapfree_last d _ a F G) as BL.
    inversion F as [|? ? Wa F']; subst. inversion F' as [|? ? Wb F'']; subst.
    inversion G as [|? ? G1 G2]; subst. inversion G2 as [|? ? E]; subst.
    specialize (IH b F' G1 p). rewrite last_cons in *.
    pose proof (qsize_pos d a Wa). pose proof (qsize_pos d b Wb).
    split.
    + intros (q & [Eq|I] & H'); [subst; unfold qend in *; lia|].
      assert (qpos d b <= p < qend d (last (b :: l) b)) by (apply IH; eauto). unfold qend in *; lia.
    + intros H'. destruct (Z_lt_le_dec p (qend d a)).
      * exists a. split; [left; auto|lia].
      * destruct (proj2 IH ltac:(lia)) as (q & I & Hq). exists q. split; [right; auto|auto].
Qed.

(** ** trees given by first_desc and last_desc *)
Lemma overlaps_tree_spec d n fd ld q : wf d fd -> wf d ld -> wf d q ->
  ql fd = 29 -> ql ld = 29 -> n <> 0 ->
  (overlaps_tree d n fd ld q = true <-> qpos d fd < qend d q /\ qpos d q < qend d ld).
Proof.
  intros Wf Wl Wq Lf Ll Hn. pose proof (wf_level _ _ Wq) as L.
  unfold overlaps_tree, QMAXLEVEL. replace (n =? 0) with false by lia.
  destruct (last_descendant_wf d q 29 Wq ltac:(lia)) as (Wd & Ld & Id & Ed).
  destruct (compare_wf d _ _ Wd Wf) as (A & _).
  destruct (compare_wf d _ _ Wl Wq) as (B & _).
  rewrite Ld, Lf in A. rewrite Ll in B.
  pose proof (psize_pos d 29 ltac:(lia)) as PP.
  assert (U : forall r, wf d r -> ql r = 29 -> qend d r = (qidx d r + 1) * psize d 29 /\ qpos d r = qidx d r * psize d 29).
  { intros r Wr Lr. rewrite wf_qend, wf_qpos, Lr by auto. auto. }
  destruct (U _ Wd Ld) as (U1 & U2). destruct (U _ Wf Lf) as (U3 & U4). destruct (U _ Wl Ll) as (U5 & U6).
  pose proof (wf_qpos d q Wq) as Pq. rewrite (psize_split d (ql q) 29), Z.mul_assoc in Pq by lia.
  set (u := qidx d q * 2 ^ (nd d * (29 - ql q))) in *. clearbody u.
  rewrite <- Ed.
  assert (M : forall a b, a * psize d 29 < b * psize d 29 <-> a < b)
    by (intros; symmetry; apply Z.mul_lt_mono_pos_r; auto).
  rewrite U1, U4, U5, Pq, !M. rewrite U2, U4, M in A. rewrite U6, Pq, M in B.
  destruct (compare d (last_descendant d q 29) fd <? 0) eqn:E1; [split; [discriminate|lia]|].
  assert (B' : compare d ld q < 0 <-> qidx d ld < u).
  { rewrite B. split; [|lia]. intros [?|[_ ?]]; lia. }
  destruct (compare d ld q <? 0) eqn:E2; [split; [discriminate|lia]|]. split; auto. lia.
Qed.

Lemma is_inside_tree_spec d n fd ld q : wf d fd -> wf d ld -> wf d q ->
  ql fd = 29 -> ql ld = 29 -> n <> 0 ->
  (is_inside_tree d n fd ld q = true <-> qpos d fd <= qpos d q /\ qpos d q < qend d ld).
Proof.
  intros Wf Wl Wq Lf Ll Hn. pose proof (wf_level _ _ Wq) as L.
  unfold is_inside_tree, QMAXLEVEL. replace (n =? 0) with false by lia.
  destruct (first_descendant_wf d q 29 Wq ltac:(lia)) as (Wd & Ld & Id & Ed).
  destruct (compare_wf d _ _ Wd Wf) as (A & _).
  destruct (compare_wf d _ _ Wl Wq) as (B & _).
  rewrite Ld, Lf, Ed in A. rewrite Ll in B.
  pose proof (psize_pos d 29 ltac:(lia)) as PP.
  assert (U5 : qend d ld = (qidx d ld + 1) * psize d 29) by (rewrite wf_qend, Ll by auto; auto).
  assert (U6 : qpos d ld = qidx d ld * psize d 29) by (rewrite wf_qpos, Ll by auto; auto).
  pose proof (wf_qpos d q Wq) as Pq. rewrite (psize_split d (ql q) 29), Z.mul_assoc in Pq by lia.
  set (u := qidx d q * 2 ^ (nd d * (29 - ql q))) in *. clearbody u.
  assert (M : forall a b, a * psize d 29 < b * psize d 29 <-> a < b)
    by (intros; symmetry; apply Z.mul_lt_mono_pos_r; auto).
  assert (B' : compare d ld q < 0 <-> qidx d ld < u).
  { rewrite B, U6, Pq, M. split; [|lia]. intros [?|[_ ?]]; lia. }
  rewrite U5. rewrite Pq at 2. rewrite M.
  destruct (compare d (first_descendant d q 29) fd <? 0) eqn:E1; [split; [discriminate|lia]|].
  destruct (compare d ld q <? 0) eqn:E2; [split; [discriminate|lia]|]. split; auto. lia.
Qed.

(** ** is_first_last *)
Lemma is_first_last_spec d f l a : wf d f -> wf d l -> wf d a -> 
  ql a <= ql f -> ql a <= ql l ->
  (is_first_last d f l a = true <-> qpos d f = qpos d a /\ qend d l = qend d a).
Proof.
  intros Wf Wl Wa Lf Ll.
  pose proof (wf_level _ _ Wf). pose proof (wf_level _ _ Wl). pose proof (wf_level _ _ Wa).
  assert (Z2 : d = D2 -> qz f = 0 /\ qz l = 0 /\ qz a = 0).
  { intros ->. destruct Wf as (_ & _ & _ & ?), Wl as (_ & _ & _ & ?), Wa as (_ & _ & _ & ?). auto. }
  assert (F : qpos d f = qpos d a <-> qx a = qx f /\ qy a = qy f /\ (is3 d = true -> qz a = qz f)).
  { unfold qpos. split.
    - intros E. destruct (wf_coord_range d f Wf) as (A & B & C). destruct (wf_coord_range d a Wa) as (A' & B' & C').
      apply ppos_inj in E.
      + destruct E as (-> & -> & ->). auto.
      + unfold inroot. split; auto. split; auto. destruct d; [apply Z2; auto|auto].
      + unfold inroot. split; auto. split; auto. destruct d; [apply Z2; auto|auto].
    - intros (-> & -> & E). destruct d; [|rewrite E by auto; reflexivity].
      destruct (Z2 eq_refl) as (-> & _ & ->). reflexivity. }
  assert (G : qend d l = qend d a <-> last_descendant d a (ql l) = l).
  { destruct (last_descendant_wf d a (ql l) Wa ltac:(lia)) as (Wd & Ld & Id & Ed). split.
    - intros E. apply (quad_eq d); auto. rewrite <- Ed in E. unfold qend in E. rewrite !qsize_psize, Ld in E. lia.
    - intros E. rewrite <- Ed, E. reflexivity. }
  rewrite F, G. unfold is_first_last, last_descendant.
  destruct l as [lx ly lz ll]. cbn [qx qy qz ql] in *.
  destruct d; cbn [is3 andb] in *.
  - rewrite !orb_false_r. destruct (Z2 eq_refl) as (_ & -> & ->).
    destruct (negb (qx a =? qx f) || negb (qy a =? qy f)) eqn:E1.
    + split; [discriminate|]. lia.
    + destruct (negb (qx a + (QLEN (ql a) - QLEN ll) =? lx) || negb (qy a + (QLEN (ql a) - QLEN ll) =? ly)) eqn:E2.
      * split; [discriminate|]. intros (_ & E). injection E. lia.
      * split; auto. intros _. split; [split; [lia|split; [lia|discriminate]]|]. f_equal; lia.
  - destruct (negb (qx a =? qx f) || negb (qy a =? qy f) || negb (qz a =? qz f)) eqn:E1.
    + split; [discriminate|]. intros ((E & E' & E'') & _). specialize (E'' eq_refl). lia.
    + match goal with |- (if ?c then _ else _) = true <-> _ => destruct c eqn:E2 end.
      * split; [discriminate|]. intros (_ & E). injection E. lia.
      * split; auto. intros _. split; [split; [lia|split; [lia|intros; lia]]|]. f_equal; lia.
Qed.
