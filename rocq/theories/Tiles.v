(** * Lists of leaves that tile an interval of curve positions *)

From Coq Require Import ZArith List Bool Lia ZifyBool Sorting.Sorted.
From Verif Require Import Quad Spec Morton ZBits Interval QuadLemmas DescLemmas Tree TreeLemmas SearchLocal.
Import ListNotations.
Open Scope Z_scope.

(** The leaves of [l], in order, are valid and cover exactly the curve
    positions a, a+1, ..., b-1, each once *)
Fixpoint tiles (d : dim) (a b : Z) (l : list quad) : Prop :=
  match l with
  | [] => a = b
  | q :: l' => wf d q /\ qpos d q = a /\ tiles d (qend d q) b l'
  end.

Section T.
  Variable d : dim.

  Lemma tiles_wf l : forall a b, tiles d a b l -> Forall (wf d) l.
  Proof. induction l as [|q l IH]; intros a b H; constructor; destruct H as (W & _ & T); eauto. Qed.

  Lemma tiles_le l : forall a b, tiles d a b l -> a <= b.
  Proof.
    induction l as [|q l IH]; intros a b H; cbn [tiles] in H; [lia|]. destruct H as (W & <- & T).
    specialize (IH _ _ T). pose proof (size_pos d q W). lia.
  Qed.

  Lemma tiles_app l1 : forall l2 a b c, tiles d a b l1 -> tiles d b c l2 -> tiles d a c (l1 ++ l2).
  Proof.
    induction l1 as [|q l IH]; intros l2 a b c H1 H2; cbn [tiles app map flat_map] in *; [subst; auto|].
    destruct H1 as (W & E & T). split; [auto|]. split; [auto|]. eauto.
  Qed.

  Lemma tiles_split l1 : forall l2 a c, tiles d a c (l1 ++ l2) -> exists b, tiles d a b l1 /\ tiles d b c l2.
  Proof.
    induction l1 as [|q l IH]; intros l2 a c H; cbn [tiles app map flat_map] in *; [exists a; auto|].
    destruct H as (W & E & T). destruct (IH _ _ _ T) as (b & T1 & T2). exists b. auto.
  Qed.

  Lemma tiles_bounds l : forall a b q, tiles d a b l -> In q l -> a <= qpos d q /\ qend d q <= b.
  Proof.
    induction l as [|r l IH]; intros a b q H I; [destruct I|]. destruct H as (W & <- & T).
    pose proof (size_pos d r W). pose proof (tiles_le _ _ _ T). destruct I as [<-|I]; [lia|].
    specialize (IH _ _ _ T I). lia.
  Qed.

  Lemma tiles_linear l : forall a b, tiles d a b l -> StronglySorted (before d) l.
  Proof.
    induction l as [|r l IH]; intros a b H; constructor; destruct H as (W & <- & T); eauto.
    apply Forall_forall. intros q I. apply (tiles_bounds _ _ _ _ T I).
  Qed.

  Lemma tiles_gapfree l : forall a b, tiles d a b l -> gapfree d l.
  Proof.
    induction l as [|r l IH]; intros a b H; constructor; destruct H as (W & <- & T); [eapply IH; eauto|].
    destruct l as [|q l]; constructor. destruct T as (_ & E & _). auto.
  Qed.

  Lemma gapfree_tiles l : Forall (wf d) l -> gapfree d l -> forall q0, hd_error l = Some q0 ->
    tiles d (qpos d q0) (qend d (last l q0)) l.
  Proof.
    induction l as [|r l IH]; intros F G q0 E; [discriminate|]. injection E as <-.
    inversion F as [|? ? W F']; subst. inversion G as [|? ? G' HG]; subst. split; [auto|]. split; [auto|].
    destruct l as [|q l]; [reflexivity|]. inversion HG; subst. rewrite H0.
    specialize (IH F' G' q eq_refl). rewrite last_cons. exact IH.
  Qed.

  (** every position is in exactly one leaf *)
  Lemma tiles_cover l : forall a b p, tiles d a b l ->
    (a <= p < b <-> exists q, In q l /\ qpos d q <= p < qend d q).
  Proof.
    intros a b p H. split.
    - revert a b H. induction l as [|r l IH]; intros a b H Hp; cbn [tiles] in H; [lia|]. destruct H as (W & <- & T).
      destruct (Z_lt_le_dec p (qend d r)) as [L|L].
      + exists r. split; [left; reflexivity|lia].
      + destruct (IH _ _ T ltac:(lia)) as (q & I & P). exists q. split; [right; auto|auto].
    - intros (q & I & P). pose proof (tiles_bounds _ _ _ _ H I). lia.
  Qed.

  Lemma tiles_unique l a b i j q r p : tiles d a b l -> nth_error l i = Some q -> nth_error l j = Some r ->
    qpos d q <= p < qend d q -> qpos d r <= p < qend d r -> i = j.
  Proof.
    intros H Eq Er Pq Pr. pose proof (tiles_linear _ _ _ H) as S.
    destruct (Nat.lt_trichotomy i j) as [L|[L|L]]; [exfalso|auto|exfalso].
    - pose proof (SS_pair _ l S _ _ _ _ L Eq Er) as B. unfold before in B. lia.
    - pose proof (SS_pair _ l S _ _ _ _ L Er Eq) as B. unfold before in B. lia.
  Qed.

  Lemma tiles_children q : wf d q -> ql q < 29 -> tiles d (qpos d q) (qend d q) (childrenv d q).
  Proof.
    intros W L. rewrite childrenv_child.
    assert (P : forall i, 0 <= i < children d -> wf d (child d q i) /\
       qpos d (child d q i) = qpos d q + i * psize d (ql q + 1) /\ qend d (child d q i) = qpos d q + (i + 1) * psize d (ql q + 1)).
    { intros i Hi. pose proof (child_wf d q i W L Hi) as (C & E & _). split; [auto|].
      pose proof (child_pos d q i W L Hi) as P. unfold qend. rewrite P, qsize_psize, E. lia. }
    assert (SZ : qend d q = qpos d q + children d * psize d (ql q + 1)).
    { unfold qend. rewrite qsize_psize, (psize_child d (ql q)) by lia. reflexivity. }
    rewrite SZ. clear SZ.
    destruct d; unfold cids; cbn [map tiles]; cbn [children] in *;
    repeat match goal with
    | |- wf _ (child _ _ ?i) /\ _ => let A := fresh in let B := fresh in let C := fresh in
        destruct (P i ltac:(lia)) as (A & B & C); split; [exact A|]; split; [rewrite B; lia|]; rewrite C; clear A B C
    end; lia.
  Qed.

  (** replacing each leaf by a list that tiles it *)
  Lemma tiles_refine {A} (f : A -> quad) (g : A -> list quad) l : forall a b, tiles d a b (map f l) ->
    (forall x, In x l -> tiles d (qpos d (f x)) (qend d (f x)) (g x)) -> tiles d a b (flat_map g l).
  Proof.
    induction l as [|x l IH]; intros a b H G; cbn [tiles app map flat_map] in *; [auto|]. destruct H as (W & <- & T).
    apply (tiles_app _ _ _ (qend d (f x))).
    - apply G. left. reflexivity.
    - apply IH; [exact T|]. intros y Hy. apply G. right. exact Hy.
  Qed.
End T.
