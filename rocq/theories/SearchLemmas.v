(** * Lemmas about the binary searches and array splitting *)

From Coq Require Import ZArith List Bool Lia Arith Sorting.Sorted ZifyBool.
From Verif Require Import Quad Spec CompareLemmas QuadLemmas Search.
Import ListNotations.

Definition at_ (a : list quad) (i : nat) : quad := nth i a (mkq 0 0 0 0).
Lemma nth_error_at a i : (i < length a)%nat -> nth_error a i = Some (at_ a i).
Proof. intros. unfold at_. apply nth_error_nth'. auto. Qed.

Section B.
  Variable d : dim.
  Variable a : list quad.
  Variable q : quad.
  Hypothesis W : Forall (quad32 d) a.
  Hypothesis Wq : quad32 d q.
  Hypothesis srt : forall i j, (i <= j < length a)%nat -> (compare d (at_ a i) (at_ a j) <= 0)%Z.

  Lemma at_w i : (i < length a)%nat -> quad32 d (at_ a i).
  Proof. intros. eapply Forall_forall in W; [exact W|]. apply nth_In. auto. Qed.

  Lemma cmp_flip r s : quad32 d r -> quad32 d s ->
    ((compare d r s < 0 <-> compare d s r > 0) /\ (compare d r s = 0 <-> compare d s r = 0))%Z.
  Proof.
    intros Hr Hs. pose proof (compare_spec d r s Hr Hs) as (A1 & A2 & A3).
    pose proof (compare_spec d s r Hs Hr) as (B1 & B2 & B3).
    split; split; intros H.
    - apply B3. apply A1 in H. lia.
    - apply A1. apply B3 in H. lia.
    - apply B2. apply A2 in H. lia.
    - apply A2. apply B2 in H. lia.
  Qed.
  Lemma cmp_trans r s t : quad32 d r -> quad32 d s -> quad32 d t ->
    ((compare d r s <= 0 -> compare d s t <= 0 -> compare d r t <= 0) /\
     (compare d r s <= 0 -> compare d s t < 0 -> compare d r t < 0) /\
     (compare d r s < 0 -> compare d s t <= 0 -> compare d r t < 0))%Z.
  Proof.
    intros Hr Hs Ht. pose proof (compare_spec d r s Hr Hs) as (A1 & A2 & A3).
    pose proof (compare_spec d s t Hs Ht) as (B1 & B2 & B3).
    pose proof (compare_spec d r t Hr Ht) as (C1 & C2 & C3).
    assert (forall x, (x <= 0 <-> x < 0 \/ x = 0)%Z) as L by (intros; lia).
    rewrite !L, A1, A2, B1, B2, C1, C2. clear. lia.
  Qed.

  (** everything at or below a smaller element is smaller *)
  Lemma below_lt i j : (i <= j < length a)%nat -> (compare d q (at_ a j) > 0)%Z -> (compare d (at_ a i) q < 0)%Z.
  Proof.
    intros H C. pose proof (at_w j ltac:(lia)) as Wj. pose proof (at_w i ltac:(lia)) as Wi.
    apply (proj1 (proj2 (cmp_trans (at_ a i) (at_ a j) q Wi Wj Wq))); [apply srt; lia|].
    apply (proj1 (cmp_flip (at_ a j) q Wj Wq)). lia.
  Qed.

  Lemma lower_loop_spec : forall fuel low high guess,
    (low <= guess <= high)%nat -> (high < length a)%nat -> (high - low < fuel)%nat ->
    (forall i, (i < low)%nat -> (compare d (at_ a i) q < 0)%Z) ->
    high = (length a - 1)%nat \/ (compare d q (at_ a high) <= 0)%Z ->
    match lower_loop d fuel a q low high guess with
    | None => False
    | Some None => forall i, (i < length a)%nat -> (compare d (at_ a i) q < 0)%Z
    | Some (Some g) => (g < length a)%nat /\ (compare d q (at_ a g) <= 0)%Z /\
                       forall i, (i < g)%nat -> (compare d (at_ a i) q < 0)%Z
    end.
  Proof.
    induction fuel as [|fuel IH]; intros low high guess Hg Hh Hf Lo Hi; [lia|].
    cbn [lower_loop]. rewrite nth_error_at by lia.
    destruct (compare d q (at_ a guess) <=? 0)%Z eqn:C.
    - destruct guess as [|g].
      + replace (compare d q (at_ a 0) >? 0)%Z with false by lia. split; [lia|]. split; [lia|]. lia.
      + rewrite nth_error_at by lia.
        destruct (compare d q (at_ a g) <=? 0)%Z eqn:C'.
        * assert (low <= g)%nat.
          { destruct (le_lt_dec low g); [auto|]. specialize (Lo g ltac:(lia)).
            apply (proj1 (cmp_flip (at_ a g) q (at_w g ltac:(lia)) Wq)) in Lo. lia. }
          replace (S g - 1)%nat with g by lia.
          pose proof (Nat.div_le_lower_bound (low + g + 1) 2 low ltac:(lia) ltac:(lia)).
          pose proof (Nat.div_le_upper_bound (low + g + 1) 2 g ltac:(lia)).
          assert (low + g + 1 <= 2 * g \/ low = g)%nat as [?|E] by lia.
          -- apply IH; try lia; auto.
          -- subst low. replace ((g + g + 1) / 2)%nat with g.
             ++ apply IH; try lia; auto.
             ++ replace (g + g + 1)%nat with (1 + g * 2)%nat by lia.
                rewrite Nat.div_add by lia. reflexivity.
        * replace (compare d q (at_ a (S g)) >? 0)%Z with false by lia. split; [lia|]. split; [lia|].
          intros i Hi'. apply (below_lt i g); lia.
    - replace (compare d q (at_ a guess) >? 0)%Z with true by lia.
      destruct (Nat.ltb high (guess + 1)) eqn:Hl.
      + apply Nat.ltb_lt in Hl. assert (guess = high) by lia. subst guess.
        destruct Hi as [Hi|Hi]; [|lia]. intros i Hi'. apply (below_lt i high); lia.
      + apply Nat.ltb_ge in Hl.
        pose proof (Nat.div_le_lower_bound (guess + 1 + high) 2 (guess + 1) ltac:(lia) ltac:(lia)).
        pose proof (Nat.div_le_upper_bound (guess + 1 + high) 2 high ltac:(lia) ltac:(lia)).
        apply IH; try lia; auto. intros i Hi'. apply (below_lt i guess); lia.
  Qed.

  Lemma above_gt i j : (i <= j < length a)%nat -> (compare d (at_ a i) q > 0)%Z -> (compare d q (at_ a j) < 0)%Z.
  Proof.
    intros H C. pose proof (at_w j ltac:(lia)) as Wj. pose proof (at_w i ltac:(lia)) as Wi.
    apply (proj2 (proj2 (cmp_trans q (at_ a i) (at_ a j) Wq Wi Wj))); [|apply srt; lia].
    apply (proj1 (cmp_flip q (at_ a i) Wq Wi)). lia.
  Qed.

  Lemma higher_loop_spec : forall fuel low high guess,
    (low <= guess <= high)%nat -> (high < length a)%nat -> (high - low < fuel)%nat ->
    (forall i, (high < i < length a)%nat -> (compare d q (at_ a i) < 0)%Z) ->
    low = 0%nat \/ (compare d (at_ a low) q <= 0)%Z ->
    match higher_loop d fuel a q low high guess with
    | None => False
    | Some None => forall i, (i < length a)%nat -> (compare d q (at_ a i) < 0)%Z
    | Some (Some g) => (g < length a)%nat /\ (compare d (at_ a g) q <= 0)%Z /\
                       forall i, (g < i < length a)%nat -> (compare d q (at_ a i) < 0)%Z
    end.
  Proof.
    induction fuel as [|fuel IH]; intros low high guess Hg Hh Hf Hi Lo; [lia|].
    cbn [higher_loop]. rewrite nth_error_at by lia.
    destruct (compare d (at_ a guess) q <=? 0)%Z eqn:C.
    - destruct (Nat.ltb guess (length a - 1)) eqn:Hl.
      + apply Nat.ltb_lt in Hl. rewrite nth_error_at by lia.
        destruct (compare d (at_ a (guess + 1)) q <=? 0)%Z eqn:C'.
        * assert (guess + 1 <= high)%nat.
          { destruct (le_lt_dec (guess + 1) high); [auto|]. specialize (Hi (guess + 1)%nat ltac:(lia)).
            apply (proj1 (cmp_flip q (at_ a (guess + 1)) Wq (at_w (guess + 1) ltac:(lia)))) in Hi. lia. }
          pose proof (Nat.div_le_lower_bound (guess + 1 + high) 2 (guess + 1) ltac:(lia) ltac:(lia)).
          pose proof (Nat.div_le_upper_bound (guess + 1 + high) 2 high ltac:(lia) ltac:(lia)).
          apply IH; try lia; auto.
        * replace (compare d (at_ a guess) q >? 0)%Z with false by lia. split; [lia|]. split; [lia|].
          intros i Hi'. apply (above_gt (guess + 1) i); lia.
      + apply Nat.ltb_ge in Hl. replace (compare d (at_ a guess) q >? 0)%Z with false by lia.
        split; [lia|]. split; [lia|]. lia.
    - replace (compare d (at_ a guess) q >? 0)%Z with true by lia.
      destruct (Nat.eqb guess 0) eqn:Hz.
      + apply Nat.eqb_eq in Hz. subst. intros i Hi'. apply (above_gt 0 i); lia.
      + apply Nat.eqb_neq in Hz. destruct (Nat.ltb (guess - 1) low) eqn:Hl.
        * apply Nat.ltb_lt in Hl. assert (guess = low) by lia. subst guess.
          destruct Lo as [Lo|Lo]; lia.
        * apply Nat.ltb_ge in Hl.
          pose proof (Nat.div_le_lower_bound (low + (guess - 1) + 1) 2 low ltac:(lia) ltac:(lia)).
          assert (low = guess - 1 \/ low + (guess - 1) + 1 <= 2 * (guess - 1))%nat as [E|E] by lia.
          -- replace ((low + (guess - 1) + 1) / 2)%nat with (guess - 1)%nat.
             ++ apply IH; try lia; auto. intros i Hi'. apply (above_gt guess i); lia.
             ++ rewrite E. replace (guess - 1 + (guess - 1) + 1)%nat with (1 + (guess - 1) * 2)%nat by lia.
                rewrite Nat.div_add by lia. reflexivity.
          -- pose proof (Nat.div_le_upper_bound (low + (guess - 1) + 1) 2 (guess - 1) ltac:(lia) ltac:(lia)).
             apply IH; try lia; auto. intros i Hi'. apply (above_gt guess i); lia.
  Qed.
End B.

(** ** Splitting a list sorted by a key *)
Section Split.
  Context {A : Type}.

  Lemma countb_cons p (x : A) l : countb p (x :: l) = ((if p x then 1 else 0) + countb p l)%nat.
  Proof. unfold countb. cbn. destruct (p x); cbn; lia. Qed.

  Lemma countb_le p (l : list A) : (countb p l <= length l)%nat.
  Proof. induction l as [|x l IH]; [cbn; lia|]. rewrite countb_cons. cbn. destruct (p x); lia. Qed.

  Lemma countb_mono p p' (l : list A) : (forall x, In x l -> p x = true -> p' x = true) -> (countb p l <= countb p' l)%nat.
  Proof.
    induction l as [|x l IH]; intros H; [cbn; lia|]. rewrite !countb_cons.
    specialize (IH ltac:(intros; apply H; [right; auto|auto])).
    pose proof (H x ltac:(left; auto)). destruct (p x), (p' x); lia || intuition congruence.
  Qed.

  Lemma filter_nil p (l : list A) : (forall x, In x l -> p x = false) -> filter p l = [].
  Proof.
    induction l as [|x l IH]; intros H; [reflexivity|]. cbn. rewrite (H x) by (left; auto). apply IH.
    intros; apply H; right; auto.
  Qed.
  Lemma filter_all p (l : list A) : (forall x, In x l -> p x = true) -> filter p l = l.
  Proof.
    induction l as [|x l IH]; intros H; [reflexivity|]. cbn. rewrite (H x) by (left; auto). f_equal. apply IH.
    intros; apply H; right; auto.
  Qed.

  Lemma SS_filter p (R : A -> A -> Prop) l : StronglySorted R l -> StronglySorted R (filter p l).
  Proof.
    induction 1 as [|x l S IH F]; [constructor|]. cbn. destruct (p x); [|auto]. constructor; [auto|].
    rewrite Forall_forall in *. intros y Hy. apply F. apply filter_In in Hy. tauto.
  Qed.

  Lemma filter_filter p p' (l : list A) : filter p (filter p' l) = filter (fun x => p x && p' x) l.
  Proof.
    induction l as [|x l IH]; [reflexivity|]. cbn. destruct (p' x) eqn:E; cbn; rewrite ?IH.
    - rewrite andb_true_r. reflexivity.
    - rewrite andb_false_r. reflexivity.
  Qed.

  Variable ty : A -> nat.

  Lemma nth_array_split n (l : list A) i : (i <= n)%nat ->
    nth i (array_split ty n l) 0%nat = countb (fun a => Nat.ltb (ty a) i) l.
  Proof.
    intros H. unfold array_split.
    rewrite (nth_indep _ _ (countb (fun a => Nat.ltb (ty a) 0) l)) by (rewrite map_length, seq_length; lia).
    change (countb (fun a => Nat.ltb (ty a) 0) l) with ((fun i => countb (fun a => Nat.ltb (ty a) i) l) 0%nat).
    rewrite map_nth, seq_nth by lia. reflexivity.
  Qed.

  Lemma split_sorted i (l : list A) : StronglySorted (fun x y => (ty x <= ty y)%nat) l ->
    l = filter (fun x => Nat.ltb (ty x) i) l ++ filter (fun x => negb (Nat.ltb (ty x) i)) l.
  Proof.
    induction 1 as [|x l S IH F]; [reflexivity|]. cbn [filter]. destruct (Nat.ltb (ty x) i) eqn:E; cbn [negb app].
    - f_equal. exact IH.
    - rewrite filter_nil, filter_all; [reflexivity| |];
        intros y Hy; rewrite Forall_forall in F; specialize (F y Hy); apply Nat.ltb_ge in E.
      + apply negb_true_iff, Nat.ltb_ge. lia.
      + apply Nat.ltb_ge. lia.
  Qed.

  (** the slice between two consecutive split indices holds one type *)
  Lemma slice_type i (l : list A) : StronglySorted (fun x y => (ty x <= ty y)%nat) l ->
    let lo := countb (fun a => Nat.ltb (ty a) i) l in
    let hi := countb (fun a => Nat.ltb (ty a) (i + 1)) l in
    firstn (hi - lo) (skipn lo l) = filter (fun x => Nat.eqb (ty x) i) l /\ (lo <= hi)%nat /\
    (hi - lo = length (filter (fun x => Nat.eqb (ty x) i) l))%nat.
  Proof.
    intros S lo hi.
    set (f := filter (fun x => negb (Nat.ltb (ty x) i)) l).
    assert (E1 : skipn lo l = f).
    { rewrite (split_sorted i l S) at 1. unfold lo, countb. rewrite skipn_app, skipn_all, Nat.sub_diag. reflexivity. }
    assert (E2 : f = filter (fun x => Nat.eqb (ty x) i) l ++ filter (fun x => negb (Nat.ltb (ty x) (i + 1))) l).
    { unfold f. rewrite (split_sorted (i + 1) (filter _ l)) by (apply SS_filter; auto). rewrite !filter_filter.
      f_equal; apply filter_ext; intros x.
      - destruct (Nat.ltb_spec (ty x) (i + 1)), (Nat.ltb_spec (ty x) i), (Nat.eqb_spec (ty x) i); cbn; auto; lia.
      - destruct (Nat.ltb_spec (ty x) (i + 1)), (Nat.ltb_spec (ty x) i); cbn; auto; lia. }
    assert (E3 : (hi = lo + length (filter (fun x => Nat.eqb (ty x) i) l))%nat).
    { unfold hi, lo. clear. induction l as [|x l IH]; [reflexivity|]. rewrite !countb_cons. cbn [filter].
      destruct (Nat.ltb_spec (ty x) (i + 1)), (Nat.ltb_spec (ty x) i), (Nat.eqb_spec (ty x) i); cbn [length]; lia. }
    split; [|lia]. rewrite E1, E2. replace (hi - lo)%nat with (length (filter (fun x => Nat.eqb (ty x) i) l)) by lia.
    rewrite firstn_app, firstn_all, Nat.sub_diag. cbn. apply app_nil_r.
  Qed.
End Split.

(** in a list sorted by type, the indices below the count are the smaller types *)
Lemma sorted_count {A} (ty : A -> nat) (t : nat) : forall (M : list A) i x,
  StronglySorted (fun x y => (ty x <= ty y)%nat) M -> nth_error M i = Some x ->
  (i < countb (fun y => Nat.ltb (ty y) t) M <-> ty x < t)%nat.
Proof.
  induction M as [|y M IHM]; intros i x S H; [destruct i; discriminate|].
  inversion S as [|? ? S' F]; subst. rewrite countb_cons. rewrite Forall_forall in F.
  assert (Z0 : (t <= ty y)%nat -> countb (fun y => Nat.ltb (ty y) t) M = 0%nat).
  { intros Ht. unfold countb. rewrite filter_nil; [reflexivity|]. intros z Hz.
    specialize (F z Hz). apply Nat.ltb_ge. lia. }
  destruct i as [|i].
  - inversion H; subst. destruct (Nat.ltb_spec (ty x) t); [lia|]. rewrite Z0; lia.
  - cbn in H. specialize (IHM i x S' H). specialize (F x (nth_error_In _ _ H)).
    destruct (Nat.ltb_spec (ty y) t); [lia|]. rewrite Z0; lia.
Qed.

(** count of the smaller values = lowest index not smaller *)
Lemma count_lower (v : Z) : forall (M : list Z), StronglySorted Z.le M ->
  forall i x, nth_error M i = Some x -> (i < countb (fun y => Z.ltb y v) M)%nat <-> (x < v)%Z.
Proof.
  induction 1 as [|y M S IH F]; intros i x H; [destruct i; discriminate|].
  rewrite countb_cons. rewrite Forall_forall in F.
  assert (Z0 : (v <= y)%Z -> countb (fun y => Z.ltb y v) M = 0%nat).
  { intros Ht. unfold countb. rewrite filter_nil; [reflexivity|]. intros z Hz. specialize (F z Hz). lia. }
  destruct i as [|i].
  - inversion H; subst. destruct (Z.ltb_spec x v); [lia|]. rewrite Z0; lia.
  - cbn in H. specialize (IH i x H). specialize (F x (nth_error_In _ _ H)).
    destruct (Z.ltb_spec y v); [lia|]. rewrite Z0; lia.
Qed.

(** the loop of p4est_find_quadrant_cumulative *)
Lemma cumulative_loop_spec (trees : list (Z * Z)) (first last id : Z) :
  (0 <= first)%Z -> (first <= last < Z.of_nat (length trees))%Z ->
  (forall i o n, (first <= i <= last)%Z -> nth_error trees (Z.to_nat i) = Some (o, n) -> (0 <= n)%Z) ->
  (forall i o n o' n', (first <= i < last)%Z -> nth_error trees (Z.to_nat i) = Some (o, n) ->
     nth_error trees (Z.to_nat (i + 1)) = Some (o', n') -> (o' = o + n)%Z) ->
  (forall o n, nth_error trees (Z.to_nat first) = Some (o, n) -> (o <= id)%Z) ->
  (forall o n, nth_error trees (Z.to_nat last) = Some (o, n) -> (id < o + n)%Z) ->
  forall fuel low high guess, (high - low < Z.of_nat fuel)%Z ->
  (first <= low)%Z -> (high <= last)%Z -> (low <= guess <= high)%Z ->
  (forall o n, nth_error trees (Z.to_nat low) = Some (o, n) -> (o <= id)%Z) ->
  (forall o n, nth_error trees (Z.to_nat high) = Some (o, n) -> (id < o + n)%Z) ->
  exists t k o n, cumulative_loop fuel trees id low high guess = Some (t, k) /\ (first <= t <= last)%Z /\
    nth_error trees (Z.to_nat t) = Some (o, n) /\ (o <= id < o + n)%Z /\ k = (id - o)%Z.
Proof.
  intros H0 Hfl Hn Hstep Hlo Hhi.
  assert (GET : forall i, (first <= i <= last)%Z -> exists o n, nth_error trees (Z.to_nat i) = Some (o, n)).
  { intros i Hi. destruct (nth_error trees (Z.to_nat i)) as [(o, n)|] eqn:E; [eauto|].
    apply nth_error_None in E. lia. }
  induction fuel as [|fuel IH]; intros low high guess Hf Hl Hh Hg Lo Hi; [lia|].
  cbn [cumulative_loop]. replace (guess <? 0)%Z with false by lia.
  destruct (GET guess ltac:(lia)) as (o & n & E). rewrite E.
  destruct (Z.ltb_spec id o) as [A|A].
  - assert (guess <> low) by (intros ->; specialize (Lo o n E); lia).
    destruct (GET (guess - 1)%Z ltac:(lia)) as (o1 & n1 & E1).
    assert (o = o1 + n1)%Z.
    { apply (Hstep (guess - 1)%Z o1 n1 o n); auto; [lia|]. replace (guess - 1 + 1)%Z with guess by lia. auto. }
    rewrite Z.quot_div_nonneg by lia.
    pose proof (Z.div_le_lower_bound (low + (guess - 1)) 2 low ltac:(lia) ltac:(lia)).
    pose proof (Z.div_le_upper_bound (low + (guess - 1)) 2 (guess - 1) ltac:(lia) ltac:(lia)).
    apply IH; auto; try lia. intros o2 n2 E2. rewrite E1 in E2. inversion E2; subst. lia.
  - destruct (Z.geb_spec id (o + n)) as [B|B].
    + assert (guess <> high) by (intros ->; specialize (Hi o n E); lia).
      destruct (GET (guess + 1)%Z ltac:(lia)) as (o1 & n1 & E1).
      assert (o1 = o + n)%Z by (apply (Hstep guess o n o1 n1); auto; lia).
      rewrite Z.quot_div_nonneg by lia.
      pose proof (Z.div_le_lower_bound (guess + 1 + high) 2 (guess + 1) ltac:(lia) ltac:(lia)).
      pose proof (Z.div_le_upper_bound (guess + 1 + high) 2 high ltac:(lia) ltac:(lia)).
      apply IH; auto; try lia. intros o2 n2 E2. rewrite E1 in E2. inversion E2; subst. lia.
    + exists guess, (id - o)%Z, o, n. split; [auto|]. split; [lia|]. split; [auto|]. split; [lia|auto].
Qed.
