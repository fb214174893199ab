(** * Intervals of parents, siblings and nearest common ancestors, for the proofs about Balance.v *)

From Coq Require Import ZArith List Bool Lia ZifyBool.
From Verif Require Import Quad Spec Morton ZBits Interval QuadLemmas CompareLemmas DescLemmas SuccLemmas RegionLemmas SearchLocal.
Import ListNotations.
Open Scope Z_scope.

Section B.
  Variable d : dim.
  Notation inn w q := (qpos d w <= qpos d q /\ qend d q <= qend d w).

  Lemma qend_eq q : wf d q -> qend d q = qpos d q + psize d (ql q).
  Proof. reflexivity. Qed.

  Lemma children_nonneg : 0 < children d. Proof. destruct d; cbn; lia. Qed.

  (** parent and child id by positions *)
  Lemma parent_pos q : wf d q -> 0 < ql q ->
    wf d (parent d q) /\ ql (parent d q) = ql q - 1 /\ qpos d q = qpos d (parent d q) + child_id d q * psize d (ql q) /\
    qend d (parent d q) = qpos d (parent d q) + children d * psize d (ql q) /\ 0 <= child_id d q < children d /\ 0 < psize d (ql q).
  Proof.
    intros W L. pose proof (wf_level d q W). destruct (parent_wf d q W L) as (Wp & Lp & _). pose proof (child_id_range d q W) as R.
    split; [exact Wp|]. split; [exact Lp|].
    pose proof (child_pos d (parent d q) (child_id d q) Wp ltac:(lia) R) as P. rewrite parent_child in P by auto. rewrite Lp in P. replace (ql q - 1 + 1) with (ql q) in P by lia.
    split; [exact P|]. split; [|split; [exact R|apply psize_pos; lia]]. rewrite qend_eq, Lp by exact Wp. rewrite (psize_child d (ql q - 1)) by lia. replace (ql q - 1 + 1) with (ql q) by lia. reflexivity.
  Qed.

  Lemma parent_inn q : wf d q -> 0 < ql q -> inn (parent d q) q.
  Proof.
    intros W L. destruct (parent_pos q W L) as (Wp & Lp & P & E & R & S). rewrite E. rewrite qend_eq by auto.
    assert (0 <= child_id d q * psize d (ql q)) by (apply Z.mul_nonneg_nonneg; lia).
    assert ((child_id d q + 1) * psize d (ql q) <= children d * psize d (ql q)) by (apply Z.mul_le_mono_nonneg_r; lia). lia.
  Qed.

  Lemma parent_first q : wf d q -> 0 < ql q -> (child_id d q = 0 <-> qpos d (parent d q) = qpos d q).
  Proof.
    intros W L. destruct (parent_pos q W L) as (Wp & Lp & P & E & R & S). split; intros H.
    - rewrite H in P. lia.
    - destruct (Z.eq_dec (child_id d q) 0); [auto|]. assert (1 * psize d (ql q) <= child_id d q * psize d (ql q)) by (apply Z.mul_le_mono_nonneg_r; lia). lia.
  Qed.

  Lemma parent_last q : wf d q -> 0 < ql q -> (child_id d q = children d - 1 <-> qend d (parent d q) = qend d q).
  Proof.
    intros W L. destruct (parent_pos q W L) as (Wp & Lp & P & E & R & S). rewrite E. rewrite qend_eq by auto. split; intros H.
    - rewrite H in P. lia.
    - destruct (Z.eq_dec (child_id d q) (children d - 1)); [auto|]. assert ((child_id d q + 2) * psize d (ql q) <= children d * psize d (ql q)) by (apply Z.mul_le_mono_nonneg_r; lia). lia.
  Qed.

  Lemma sibling_pos q i : wf d q -> 0 < ql q -> 0 <= i < children d ->
    wf d (sibling d q i) /\ ql (sibling d q i) = ql q /\ parent d (sibling d q i) = parent d q /\ child_id d (sibling d q i) = i /\
    qpos d (sibling d q i) = qpos d (parent d q) + i * psize d (ql q).
  Proof.
    intros W L Hi. pose proof (wf_level d q W). rewrite sibling_child by auto. destruct (parent_wf d q W L) as (Wp & Lp & _).
    destruct (child_wf d (parent d q) i Wp ltac:(lia) Hi) as (Wc & Lc & _). split; [exact Wc|]. split; [lia|].
    split; [apply child_parent; auto; lia|]. split; [apply child_mod; auto; lia|].
    rewrite child_pos by (auto; lia). rewrite Lp. replace (ql q - 1 + 1) with (ql q) by lia. reflexivity.
  Qed.

  Lemma sibling_next q : wf d q -> 0 < ql q -> child_id d q < children d - 1 ->
    wf d (sibling d q (child_id d q + 1)) /\ ql (sibling d q (child_id d q + 1)) = ql q /\
    parent d (sibling d q (child_id d q + 1)) = parent d q /\ child_id d (sibling d q (child_id d q + 1)) = child_id d q + 1 /\
    qpos d (sibling d q (child_id d q + 1)) = qend d q.
  Proof.
    intros W L H. pose proof (child_id_range d q W). destruct (sibling_pos q (child_id d q + 1) W L ltac:(lia)) as (A & B & C & D & E).
    repeat (split; [assumption|]). rewrite E. destruct (parent_pos q W L) as (_ & _ & P & _). rewrite qend_eq by auto. lia.
  Qed.

  (** ** Levels and containment *)

  Lemma inn_level w q : wf d w -> wf d q -> inn w q -> ql w <= ql q.
  Proof. intros Ww Wq (A & B). apply (contains_unique d w q Ww Wq A B). Qed.
  Lemma inn_eq w q : wf d w -> wf d q -> inn w q -> ql q <= ql w -> w = q.
  Proof. intros Ww Wq (A & B) L. destruct (contains_unique d w q Ww Wq A B) as (L' & ->). replace (ql w) with (ql q) by lia. apply ancestor_self. exact Wq. Qed.

  (** two quadrants are nested or apart *)
  Lemma nested w q : wf d w -> wf d q -> ql w <= ql q -> inn w q \/ qend d w <= qpos d q \/ qend d q <= qpos d w.
  Proof. intros Ww Wq L. apply dyadic; auto. Qed.

  (** a point of both *)
  Lemma nested_pt w q p : wf d w -> wf d q -> ql w <= ql q -> qpos d w <= p < qend d w -> qpos d q <= p < qend d q -> inn w q.
  Proof. intros Ww Wq L A B. destruct (nested w q Ww Wq L) as [H|[H|H]]; [exact H|lia|lia]. Qed.

  Lemma inn_parent w q : wf d w -> wf d q -> inn w q -> ql w < ql q -> inn w (parent d q).
  Proof.
    intros Ww Wq (A & B) L. pose proof (wf_level d w Ww). destruct (parent_wf d q Wq ltac:(lia)) as (Wp & Lp & _). pose proof (parent_inn q Wq ltac:(lia)). pose proof (size_pos d q Wq).
    apply (nested_pt w (parent d q) (qpos d q)); auto; lia.
  Qed.

  Lemma anc_iff w q : wf d w -> wf d q -> (is_ancestor d w q = true <-> ql w < ql q /\ inn w q).
  Proof. intros. apply is_ancestor_iff; auto. Qed.

  (** the quadrants with the same first position *)
  Lemma same_coords q r : wf d q -> wf d r -> ((qx q =? qx r) && (qy q =? qy r) && (negb (is3 d) || (qz q =? qz r)) = true <-> qpos d q = qpos d r).
  Proof.
    intros Wq Wr. split.
    - intros H. unfold qpos. assert (qx q = qx r /\ qy q = qy r /\ qz q = qz r) as (-> & -> & ->); [|reflexivity].
      destruct Wq as (_ & _ & _ & Zq), Wr as (_ & _ & _ & Zr). destruct d; cbn [is3 negb orb] in H; lia.
    - intros E. pose proof (wf_coord_range d q Wq). pose proof (wf_coord_range d r Wr).
      assert (IN : forall s, wf d s -> inroot d (qx s) (qy s) (qz s)).
      { intros s Ws. pose proof (wf_coord_range d s Ws). destruct Ws as (_ & _ & _ & Zs). unfold inroot. destruct d; intuition lia. }
      destruct (ppos_inj d _ _ _ _ _ _ (IN q Wq) (IN r Wr) E) as (-> & -> & ->). rewrite !Z.eqb_refl. destruct d; reflexivity.
  Qed.

  Lemma down q m : wf d q -> ql q <= m <= 29 -> let r := mkq (qx q) (qy q) (qz q) m in wf d r /\ ql r = m /\ qpos d r = qpos d q.
  Proof. intros W L. destruct (first_descendant_wf d q m W L) as (A & B & _ & C). auto. Qed.

  (** the order *)
  Definition le (q r : quad) : Prop := qpos d q < qpos d r \/ (qpos d q = qpos d r /\ ql q <= ql r).
  Lemma compare_le q r : wf d q -> wf d r -> (compare d q r <= 0 <-> le q r).
  Proof.
    intros Wq Wr. destruct (compare_wf d q r Wq Wr) as (A & B & C). unfold le. split.
    - intros H. destruct (Z.eq_dec (compare d q r) 0) as [E|E]; [apply B in E; subst; lia|]. assert (H' : compare d q r < 0) by lia. apply A in H'. lia.
    - intros H. destruct (Z_lt_dec 0 (compare d q r)) as [G|G]; [|lia]. assert (G' : compare d q r > 0) by lia. apply C in G'. lia.
  Qed.
  Lemma compare_gt q r : wf d q -> wf d r -> (compare d q r > 0 <-> ~ le q r).
  Proof. intros. rewrite <- compare_le by auto. lia. Qed.

  (** nca with a quadrant that begins later *)
  Lemma nca_after t q : wf d t -> wf d q -> qpos d t <> qpos d q -> inn t q ->
    let a := nearest_common_ancestor d (first_descendant d t 29) q in
    let s := mkq (qx a) (qy a) (qz a) (ql a + 1) in
    wf d s /\ qpos d s = qpos d t /\ ql t < ql s /\ parent d s = a /\ wf d a /\ inn a q /\ ql a < ql q /\ qend d s <= qpos d q /\ inn t a /\ child_id d s = 0.
  Proof.
    intros Wt Wq NE (I1 & I2). cbv zeta. pose proof (wf_level d t Wt). pose proof (wf_level d q Wq).
    destruct (first_descendant_wf d t 29 Wt ltac:(lia)) as (Wf & Lf & _ & Pf). set (f := first_descendant d t 29) in *.
    destruct (nca_spec d f q Wf Wq) as (Wa & (A1 & A2) & (A3 & A4) & LEAST). set (a := nearest_common_ancestor d f q) in *.
    pose proof (size_pos d f Wf) as Sf. pose proof (size_pos d q Wq) as Sq.
    assert (T : qend d f <= qend d t). { destruct (nested t f Wt Wf ltac:(lia)) as [X|[X|X]]; pose proof (size_pos d t Wt); lia. }
    destruct (LEAST t Wt ltac:(lia) ltac:(lia) I1 I2) as (B1 & B2).
    assert (Pa : qpos d a = qpos d t) by lia.
    assert (La : ql a <= ql q) by (apply inn_level; auto).
    assert (La' : ql a < ql q). { destruct (Z.eq_dec (ql a) (ql q)) as [E|E]; [|lia]. assert (EQ : a = q) by (apply inn_eq; auto; lia). assert (qpos d a = qpos d q) by congruence. lia. }
    assert (Lt : ql t <= ql a) by (apply inn_level; auto).
    destruct (down a (ql a + 1) Wa ltac:(lia)) as (Ws & Ls & Ps). set (s := mkq (qx a) (qy a) (qz a) (ql a + 1)) in *.
    assert (PS : parent d s = a).
    { destruct (parent_wf d s Ws ltac:(lia)) as (Wp & Lp & _). symmetry. apply inn_eq; auto; [|lia].
      pose proof (parent_inn s Ws ltac:(lia)). pose proof (size_pos d s Ws). apply (nested_pt a (parent d s) (qpos d s)); auto; [lia| |lia]. pose proof (size_pos d a Wa). lia. }
    repeat (split; [first [assumption|lia]|]). split; [|split; [lia|]].
    - destruct (nested s q Ws Wq ltac:(lia)) as [X|[X|X]]; [exfalso|lia|lia].
      assert (F : inn s f). { apply (nested_pt s f (qpos d f)); auto; pose proof (size_pos d s Ws); lia. }
      destruct (LEAST s Ws ltac:(lia) ltac:(lia) ltac:(lia) ltac:(lia)) as (C1 & C2). assert (ql s <= ql a) by (apply inn_level; auto). lia.
    - apply parent_first; auto; [lia|]. rewrite PS. lia.
  Qed.
End B.
