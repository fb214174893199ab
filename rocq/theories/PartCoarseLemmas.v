(** * Who sends to whom in p4est_partition_for_coarsening, and the choice of the winner *)

From Coq Require Import ZArith List Bool Lia Arith ZifyBool Sorting.Sorted.
From Verif Require Import Quad Search SearchLemmas Adapt ListLemmas Partition PartLemmas PartRecv PropertiesSearch PartCoarse.
Import ListNotations.
Open Scope Z_scope.

(** ** ranges of integers *)
Fixpoint zseq (n : nat) (i : Z) : list Z := match n with O => [] | S n' => i :: zseq n' (i + 1) end.

Lemma in_zseq x : forall n i, In x (zseq n i) <-> i <= x < i + Z.of_nat n.
Proof. induction n as [|n IH]; intros i; cbn [zseq In]; [lia|]. rewrite IH. lia. Qed.
Lemma zseq_app : forall n m i, zseq (n + m) i = zseq n i ++ zseq m (i + Z.of_nat n).
Proof. induction n as [|n IH]; intros m i; cbn [Nat.add zseq app]; [f_equal; lia|]. rewrite IH. do 3 f_equal. lia. Qed.
Lemma zseq_len n i : length (zseq n i) = n.
Proof. revert i. induction n as [|n IH]; intros i; cbn [zseq length]; [reflexivity|]. rewrite IH. reflexivity. Qed.
Lemma zseq_nth : forall n i k, (k < n)%nat -> nth_error (zseq n i) k = Some (i + Z.of_nat k).
Proof. induction n as [|n IH]; intros i k H; [lia|]. destruct k as [|k]; cbn [zseq nth_error]; [f_equal; lia|]. rewrite IH by lia. f_equal. lia. Qed.

Notation inc := (StronglySorted Z.lt).
Lemma zseq_inc : forall n i, inc (zseq n i).
Proof. induction n as [|n IH]; intros i; cbn [zseq]; constructor; [apply IH|]. apply Forall_forall. intros x I. apply in_zseq in I. lia. Qed.
Lemma filter_inc f : forall l, inc l -> inc (filter f l).
Proof.
  induction 1 as [|x l S IH F]; [constructor|]. cbn [filter]. destruct (f x); [|exact IH]. constructor; [exact IH|]. rewrite Forall_forall in *. intros y I. apply filter_In in I. apply F, I.
Qed.
Lemma inc_eq : forall l l', inc l -> inc l' -> (forall x, In x l <-> In x l') -> l = l'.
Proof.
  induction l as [|x l IH]; intros l' S S' E.
  - destruct l' as [|y l']; [reflexivity|]. destruct (proj2 (E y) (or_introl eq_refl)).
  - destruct l' as [|y l']; [destruct (proj1 (E x) (or_introl eq_refl))|]. inversion S as [|? ? S1 F1]; subst. inversion S' as [|? ? S2 F2]; subst. rewrite Forall_forall in F1, F2.
    assert (x = y) as <-.
    { pose proof (proj1 (E x) (or_introl eq_refl)) as [A|A]; [auto|]. pose proof (proj2 (E y) (or_introl eq_refl)) as [B|B]; [auto|]. specialize (F1 _ B). specialize (F2 _ A). lia. }
    f_equal. apply IH; [exact S1|exact S2|]. intros z. split; intros I.
    + destruct (proj1 (E z) (or_intror I)) as [->|]; [specialize (F1 _ I); lia|assumption].
    + destruct (proj2 (E z) (or_intror I)) as [->|]; [specialize (F2 _ I); lia|assumption].
Qed.

(** ** counting *)
Definition cnt (f : Z -> bool) (a b : Z) : Z := zlen (filter f (zseq (Z.to_nat (b - a)) a)).

Lemma cnt_split f a b c : a <= b <= c -> cnt f a c = cnt f a b + cnt f b c.
Proof.
  intros H. unfold cnt. replace (Z.to_nat (c - a)) with (Z.to_nat (b - a) + Z.to_nat (c - b))%nat by lia. rewrite zseq_app, filter_app, zlen_app. do 4 f_equal. lia.
Qed.
Lemma cnt_nonneg f a b : 0 <= cnt f a b.
Proof. apply zlen_nonneg. Qed.
Lemma cnt_empty f a b : b <= a -> cnt f a b = 0.
Proof. intros H. unfold cnt. replace (Z.to_nat (b - a)) with 0%nat by lia. reflexivity. Qed.
Lemma filter_le {A} (f : A -> bool) : forall l, (length (filter f l) <= length l)%nat.
Proof. induction l as [|x l IH]; cbn [filter length]; [lia|]. destruct (f x); cbn [length]; lia. Qed.
Lemma cnt_le f a b : a <= b -> cnt f a b <= b - a.
Proof. intros H. unfold cnt, zlen. pose proof (filter_le f (zseq (Z.to_nat (b - a)) a)). rewrite zseq_len in *. lia. Qed.
Lemma cnt_all f a b : a <= b -> (forall i, a <= i < b -> f i = true) -> cnt f a b = b - a.
Proof.
  intros H E. unfold cnt, zlen. replace (filter f (zseq (Z.to_nat (b - a)) a)) with (zseq (Z.to_nat (b - a)) a); [rewrite zseq_len; lia|].
  symmetry. apply inc_eq; [apply filter_inc, zseq_inc|apply zseq_inc|]. intros x. rewrite filter_In, in_zseq. split; [tauto|]. intros I. split; [exact I|]. apply E. lia.
Qed.
Lemma cnt_none f a b : (forall i, a <= i < b -> f i = false) -> cnt f a b = 0.
Proof.
  intros E. unfold cnt. replace (filter f (zseq (Z.to_nat (b - a)) a)) with (@nil Z); [reflexivity|].
  symmetry. apply inc_eq; [apply filter_inc, zseq_inc|constructor|]. intros x. rewrite filter_In, in_zseq. split; [|intros []]. intros (I & Ex). rewrite E in Ex by lia. discriminate.
Qed.
Lemma cnt_mono_r f a b c : a <= b <= c -> cnt f a b <= cnt f a c.
Proof. intros H. rewrite (cnt_split f a b c H). pose proof (cnt_nonneg f b c). lia. Qed.

(** the lowest and the highest *)
Definition cstep (st : Z * Z * Z) (j : Z) : Z * Z * Z := let '(num, lo, hi) := st in (num + 1, Z.min lo j, Z.max hi j).
Lemma cstep_fold : forall l num lo hi num' lo' hi', fold_left cstep l (num, lo, hi) = (num', lo', hi') ->
  num' = num + zlen l /\ lo' <= lo /\ hi <= hi' /\ (forall x, In x l -> lo' <= x <= hi') /\ (lo' = lo \/ In lo' l) /\ (hi' = hi \/ In hi' l).
Proof.
  induction l as [|y l IH]; intros num lo hi num' lo' hi' E; cbn [fold_left] in E.
  - injection E as <- <- <-. unfold zlen. cbn [length In]. repeat split; auto; try lia; intros x [].
  - cbn [cstep] in E. apply IH in E. destruct E as (E1 & E2 & E3 & E4 & E5 & E6). unfold zlen in *. cbn [length In]. repeat split; try lia.
    + destruct H as [<-|I]; [lia|]. apply E4, I.
    + destruct H as [<-|I]; [lia|]. apply E4, I.
    + destruct E5 as [->|]; [|auto]. lia.
    + destruct E6 as [->|]; [|auto]. lia.
Qed.

Section Sets.
  Variable d : dim.
  Variables (P N : Z) (now new : list Z) (nw nc : Z -> Z).
  Local Notation C := (children d).
  Hypothesis HP : 1 <= P.
  Hypothesis Hnow : forall i, 0 <= i <= P -> zget now i = Some (nw i).
  Hypothesis Hnew : forall i, 0 <= i <= P -> zget new i = Some (nc i).
  Hypothesis Lnow : zlen now = P + 1.
  Hypothesis Lnew : zlen new = P + 1.
  Hypothesis Mnow : forall i j, 0 <= i <= j -> j <= P -> nw i <= nw j.
  Hypothesis Mnew : forall i j, 0 <= i <= j -> j <= P -> nc i <= nc j.
  Hypothesis N0 : nw 0 = 0.
  Hypothesis C0 : nc 0 = 0.
  Hypothesis N1 : nw P = N.
  Hypothesis C1 : nc P = N.

  Lemma CH : 4 <= C.
  Proof. destruct d; unfold children; cbn; lia. Qed.

  Definition rel (x y : Z -> Z) (f : Z -> Z -> bool) (i : Z) : bool := (x i <? x (i + 1)) && f (x i) (x (i + 1)).

  Lemma count_loop_ok : forall n i st, 0 <= i -> i + Z.of_nat n <= P ->
    count_loop new n i st = Some (fold_left cstep (filter (fun j => nc j <? nc (j + 1)) (zseq n i)) st).
  Proof.
    induction n as [|n IH]; intros i [[num lo] hi] H1 H2; cbn [count_loop zseq filter]; [reflexivity|]. rewrite !Hnew by lia. rewrite IH by lia.
    destruct (nc i <? nc (i + 1)); reflexivity.
  Qed.
  Lemma dest_loop_ok lo hi : forall n i, 0 <= i -> i + Z.of_nat n <= P ->
    dest_loop d new lo hi n i = Some (filter (fun j => (nc j <? nc (j + 1)) && near_cut d (nc j) lo hi) (zseq n i)).
  Proof.
    induction n as [|n IH]; intros i H1 H2; cbn [dest_loop zseq filter]; [reflexivity|]. rewrite !Hnew, IH by lia. reflexivity.
  Qed.

  Lemma sorted_part (a : list Z) (f : Z -> Z) k n : 0 <= k -> (forall i, 0 <= i < Z.of_nat n -> zget a i = Some (f (k + i))) -> length a = n -> (forall i j, k <= i <= j -> j < k + Z.of_nat n -> f i <= f j) -> StronglySorted Z.le a.
  Proof.
    revert a k. induction n as [|n IH]; intros a k Hk E L M; [destruct a; [constructor|discriminate]|].
    destruct a as [|x a]; [discriminate|]. injection L as L. constructor.
    - apply (IH a (k + 1)); [lia| |exact L|intros i j Hi Hj; apply M; lia]. intros i Hi. replace (k + 1 + i) with (k + (i + 1)) by lia. rewrite <- E by lia. rewrite !zget_nth by lia. replace (Z.to_nat (i + 1)) with (S (Z.to_nat i)) by lia. reflexivity.
    - apply Forall_forall. intros y I. apply In_nth_error in I. destruct I as (j & Ej). assert (j < length a)%nat by (apply nth_error_Some; congruence).
      pose proof (E 0 ltac:(lia)) as E0. pose proof (E (Z.of_nat (S j)) ltac:(lia)) as E1. rewrite zget_nth in E0, E1 by lia. rewrite Nat2Z.id in E1. cbn [nth_error Z.to_nat] in E0, E1. rewrite Ej in E1. injection E0 as ->. injection E1 as ->. apply M; lia.
  Qed.

  Definition dests (lo hi : Z) : list Z := filter (fun j => (nc j <? nc (j + 1)) && near_cut d (nc j) lo hi) (zseq (Z.to_nat (P - 1)) 1).

  Lemma send_window_ok lo hi b e : 0 <= lo < hi -> hi <= N -> send_window d new P N lo hi = (b, e) ->
    1 <= b <= P /\ e <= P - 1 /\ forall i, 1 <= i <= P - 1 -> nc i < nc (i + 1) -> (b <= i <= e <-> near_cut d (nc i) lo hi = true).
  Proof.
    pose proof CH as HC. intros H1 H2 E. unfold send_window in E. destruct ((lo - C + 2 <? 0) && (hi - 1 + C >=? N)) eqn:B.
    - injection E as <- <-. split; [lia|]. split; [lia|]. intros i Hi Hn. pose proof (Mnew (i + 1) P ltac:(lia) ltac:(lia)) as M. pose proof (Mnew 0 i ltac:(lia) ltac:(lia)). unfold near_cut. lia.
    - assert (LEN : length (firstn (Z.to_nat (P - 1)) (tl new)) = Z.to_nat (P - 1)) by (unfold zlen in Lnew; rewrite firstn_length; destruct new; cbn [tl length] in *; lia).
      assert (GET : forall i, 0 <= i < P - 1 -> zget (firstn (Z.to_nat (P - 1)) (tl new)) i = Some (nc (1 + i))).
      { intros i Hi. rewrite <- Hnew by lia. rewrite !zget_nth by lia. rewrite nth_firstn by lia.
        replace (Z.to_nat (1 + i)) with (S (Z.to_nat i)) by lia. destruct new; [destruct (Z.to_nat i); reflexivity|reflexivity]. }
      pose proof (C24_find_partition (firstn (Z.to_nat (P - 1)) (tl new)) (lo - C + 2) (hi - 1 + C)) as F.
      destruct (find_partition (firstn (Z.to_nat (P - 1)) (tl new)) (lo - C + 2) (hi - 1 + C)) as [x y]. injection E as <- <-.
      destruct F as (F1 & F2); [apply (sorted_part _ nc 1 (Z.to_nat (P - 1))); [lia|intros i Hi; apply GET; lia|exact LEN|intros i j Hi Hj; apply Mnew; lia]|lia|]. rewrite LEN in F1.
      split; [lia|]. split; [lia|]. intros i Hi _. specialize (F2 (Z.to_nat (i - 1)) (nc i)). rewrite <- zget_nth in F2 by lia. rewrite GET in F2 by lia. replace (1 + (i - 1)) with i in F2 by lia. specialize (F2 eq_refl). unfold near_cut. lia.
  Qed.

  (** a first loop that counts and a second loop between the lowest and the highest *)
  Lemma two_loops (p : Z -> bool) (l : list Z) num lowest highest : inc l -> (forall x, In x l -> 0 <= x < P /\ p x = true) -> (forall x, 0 <= x < P -> p x = true -> In x l) -> l <> [] ->
    fold_left cstep l (0, P, 0) = (num, lowest, highest) ->
    num = zlen l /\ 0 <= lowest /\ lowest + Z.of_nat (trips lowest highest) <= P /\ filter p (zseq (trips lowest highest) lowest) = l.
  Proof.
    intros S H1 H2 NE E. apply cstep_fold in E. destruct E as (E1 & E2 & E3 & E4 & E5 & E6). split; [lia|].
    destruct l as [|x l]; [congruence|]. pose proof (H1 x (or_introl eq_refl)) as (X1 & _). pose proof (E4 x (or_introl eq_refl)) as X2.
    assert (L1 : 0 <= lowest) by (destruct E5 as [->|I]; [lia|apply H1 in I; lia]). assert (L2 : highest < P) by (destruct E6 as [->|I]; [lia|apply H1 in I; lia]).
    split; [exact L1|]. unfold trips. split; [lia|]. apply inc_eq; [apply filter_inc, zseq_inc|exact S|]. intros y. rewrite filter_In, in_zseq. split.
    - intros (Y1 & Y2). apply H2; [lia|exact Y2].
    - intros I. pose proof (H1 y I) as (_ & Y). pose proof (E4 y I). split; [lia|exact Y].
  Qed.

  Lemma destinations_ok lo hi : 0 <= lo <= hi -> hi <= N -> destinations d new P N lo hi = Some (if lo <? hi then dests lo hi else []).
  Proof.
    intros H1 H2. unfold destinations. destruct (lo <? hi) eqn:B; [|reflexivity]. destruct (send_window d new P N lo hi) as [b e] eqn:W. apply send_window_ok in W; [|lia|exact H2]. destruct W as (W1 & W2 & W3).
    rewrite count_loop_ok by (unfold trips; lia).
    assert (EL : filter (fun j => nc j <? nc (j + 1)) (zseq (trips b e) b) = dests lo hi).
    { apply inc_eq; [apply filter_inc, zseq_inc|apply filter_inc, zseq_inc|]. intros x. unfold dests. rewrite !filter_In, !in_zseq. unfold trips. split; intros (A & E).
      - assert (1 <= x <= P - 1) by lia. rewrite (proj1 (W3 x ltac:(lia) ltac:(lia))) by lia. lia.
      - apply andb_prop in E. destruct E as (E1 & E2). apply W3 in E2; [|lia|lia]. lia. }
    rewrite EL. destruct (fold_left cstep (dests lo hi) (0, P, 0)) as [[num lowest] highest] eqn:EF. destruct (dests lo hi) as [|x l] eqn:ED.
    - cbn [fold_left] in EF. injection EF as <- <- <-. reflexivity.
    - assert (IN : forall y, In y (dests lo hi) <-> 1 <= y <= P - 1 /\ (nc y <? nc (y + 1)) && near_cut d (nc y) lo hi = true) by (intros y; unfold dests; rewrite filter_In, in_zseq; split; intros (A & E); (split; [lia|exact E])).
      rewrite ED in IN.
      assert (NB : (x :: l) <> []) by discriminate.
      destruct (two_loops (fun j => (1 <=? j) && ((nc j <? nc (j + 1)) && near_cut d (nc j) lo hi)) (x :: l) num lowest highest) as (E1 & E2 & E3 & E4); [rewrite <- ED; apply filter_inc, zseq_inc| | |exact NB|exact EF|].
      + intros y I. apply IN in I. lia.
      + intros y Hy E. apply IN. lia.
      + assert (zlen (x :: l) > 0) by (unfold zlen; cbn [length]; lia). rewrite E1. replace (zlen (x :: l) >? 0) with true by lia. rewrite dest_loop_ok by lia.
        replace (filter (fun j => (nc j <? nc (j + 1)) && near_cut d (nc j) lo hi) (zseq (trips lowest highest) lowest)) with (x :: l); [rewrite Z.eqb_refl; reflexivity|]. rewrite <- E4. apply filter_ext_in. intros y I. apply in_zseq in I.
        assert (L1 : 1 <= lowest). { pose proof EF as G. apply cstep_fold in G. destruct G as (_ & _ & _ & _ & [G|G] & _); [lia|]. apply IN in G. lia. } lia.
  Qed.

  (** ** the receiver *)
  Section Recv.
    Variable c : Z.
    Hypothesis Hc : 0 <= c < N.
    Local Notation my_end := (c + C - 2).
    Local Notation my_begin := (c - C + 1).

    Definition rs (st : rst) (j : Z) : rst := rstep c st j (nw j) (nw (j + 1)).
    Definition srcs : list Z := filter (fun j => (nw j <? nw (j + 1)) && near_cut d c (nw j) (nw (j + 1))) (zseq (Z.to_nat P) 0).

    Lemma peek_ok jk i : 0 <= i <= P -> peek jk now i = Some (nw i).
    Proof. intros H. unfold peek. replace (i =? -1) with false by lia. apply Hnow. exact H. Qed.

    Lemma recv_loop_ok jk : forall n i e st, 0 <= i <= P -> 0 <= e <= P -> P - i <= Z.of_nat n ->
      nw e <= my_end -> (forall j, e < j < P -> my_end < nw j \/ nw j = nw e) -> (i <= e \/ i = e + 1 /\ (e < P -> nw e < nw (e + 1))) ->
      recv_loop jk now P c n i e st = Some (fold_left rs (filter (fun j => (nw j <? nw (j + 1)) && (nw j <=? my_end)) (zseq (Z.to_nat (P - i)) i)) st).
    Proof.
      induction n as [|n IH]; intros i e st H1 H2 H3 I1 I2 I3.
      - cbn [recv_loop]. replace (i <=? Z.min e (P - 1)) with false by lia. replace (Z.to_nat (P - i)) with 0%nat by lia. reflexivity.
      - cbn [recv_loop]. destruct (i <=? Z.min e (P - 1)) eqn:B.
        + rewrite !peek_ok by lia. replace (Z.to_nat (P - i)) with (S (Z.to_nat (P - (i + 1)))) by lia. cbn [zseq filter].
          pose proof (Mnow i (i + 1) ltac:(lia) ltac:(lia)) as M1. pose proof (Mnow i e ltac:(lia) ltac:(lia)) as M2.
          destruct (nw i <? nw (i + 1)) eqn:B1.
          * replace (nw i <=? my_end) with true by lia. cbn [andb fold_left]. apply IH; try assumption; try lia. destruct (Z.eq_dec i e) as [->|]; [right; split; [lia|intros _; lia]|left; lia].
          * cbn [andb]. destruct (Z.eq_dec i e) as [->|NE].
            -- replace ((e =? e) && (nw e =? nw (e + 1))) with true by lia. apply IH; try lia.
               intros j Hj. destruct (I2 j ltac:(lia)); [left; assumption|right; lia].
            -- replace ((i =? e) && (nw i =? nw (i + 1))) with false by lia. apply IH; try assumption; try lia.
        + f_equal. destruct (Z.eq_dec i P) as [->|NE]; [replace (Z.to_nat (P - P)) with 0%nat by lia; reflexivity|].
          assert (E : filter (fun j => (nw j <? nw (j + 1)) && (nw j <=? my_end)) (zseq (Z.to_nat (P - i)) i) = []); [|rewrite E; reflexivity].
          apply inc_eq; [apply filter_inc, zseq_inc|constructor|]. intros x. rewrite filter_In, in_zseq. split; [|intros []]. intros (A & E).
          destruct I3 as [I3|(I3 & I4)]; [lia|]. pose proof (Mnow (e + 1) x ltac:(lia) ltac:(lia)). destruct (I2 x ltac:(lia)); lia.
    Qed.

    Lemma recv_window_ok : exists b e, recv_window d now P N c = Some (b, e) /\ -1 <= b <= e /\ b < P /\ 0 <= e <= P /\
      nw e <= my_end /\ (forall j, e < j < P -> my_end < nw j \/ nw j = nw e) /\
      (forall j, 0 <= j < P -> nw j < nw (j + 1) -> (b <= j <-> my_begin < nw (j + 1))) /\
      (b = -1 <-> c < C - 1 /\ ~ (c + C - 2 >= N)).
    Proof.
      pose proof CH as HC. unfold recv_window. destruct ((my_begin <? 0) && (my_end >=? N)) eqn:B.
      - exists 0, (P - 1). split; [reflexivity|]. split; [lia|]. split; [lia|]. split; [lia|]. split; [pose proof (Mnow (P - 1) P ltac:(lia) ltac:(lia)); lia|]. split; [intros j Hj; lia|]. split; [|lia].
        intros j Hj Hn. pose proof (Mnow 0 (j + 1) ltac:(lia) ltac:(lia)). lia.
      - assert (LEN : length (firstn (Z.to_nat P) now) = Z.to_nat P) by (unfold zlen in Lnow; rewrite firstn_length; lia).
        assert (GET : forall i, 0 <= i < P -> zget (firstn (Z.to_nat P) now) i = Some (nw (0 + i))).
        { intros i Hi. rewrite <- Hnow by lia. rewrite !zget_nth by lia. rewrite nth_firstn by lia. reflexivity. }
        pose proof (C24_find_partition (firstn (Z.to_nat P) now) my_begin my_end) as F.
        destruct (find_partition (firstn (Z.to_nat P) now) my_begin my_end) as [x y].
        destruct F as (F1 & F2); [apply (sorted_part _ nw 0 (Z.to_nat P)); [lia|intros i Hi; apply GET; lia|exact LEN|intros i j Hi Hj; apply Mnow; lia]|lia|]. rewrite LEN in F1.
        assert (F3 : forall i, 0 <= i < P -> (i < Z.of_nat x <-> nw i < my_begin) /\ (i < Z.of_nat y <-> nw i < my_end)).
        { intros i Hi. specialize (F2 (Z.to_nat i) (nw i)). rewrite <- zget_nth in F2 by lia. rewrite GET in F2 by lia. specialize (F2 eq_refl). lia. }
        clear F2. rewrite !Hnow by lia. set (X := Z.of_nat x) in *. set (Y := Z.of_nat y) in *. assert (X0 : 0 <= X <= P) by lia. assert (Y0 : 0 <= Y <= P) by lia. clearbody X Y.
        exists ((if my_begin =? nw X then X + 1 else X) - 1), (if my_end =? nw Y then Y else Y - 1). split; [reflexivity|].
        assert (Y1 : 0 < Y) by (destruct (F3 0 ltac:(lia)); lia).
        assert (X1 : my_begin =? nw X = true -> X < P /\ X < Y).
        { intros E. assert (X < P) by (destruct (Z.eq_dec X P) as [->|]; lia). split; [lia|]. destruct (F3 X ltac:(lia)). lia. }
        assert (X2 : X <= Y).
        { destruct (Z_le_gt_dec X Y); [assumption|]. destruct (F3 Y ltac:(lia)). lia. }
        assert (X3 : my_begin =? nw X = false -> my_begin < nw X).
        { intros E. destruct (Z.eq_dec X P) as [->|]; [lia|]. destruct (F3 X ltac:(lia)). lia. }
        split; [destruct (my_begin =? nw X); [specialize (X1 eq_refl)|]; destruct (my_end =? nw Y); lia|].
        split; [destruct (my_begin =? nw X); [specialize (X1 eq_refl)|]; lia|]. split; [destruct (my_end =? nw Y); lia|].
        split; [|split; [|split]].
        + destruct (my_end =? nw Y) eqn:E; [lia|]. destruct (F3 (Y - 1) ltac:(lia)). lia.
        + intros j Hj. destruct (my_end =? nw Y) eqn:E.
          * pose proof (Mnow Y j ltac:(lia) ltac:(lia)). lia.
          * left. pose proof (Mnow Y j ltac:(lia) ltac:(lia)). destruct (F3 Y ltac:(lia)). lia.
        + intros j Hj Hn. destruct (my_begin =? nw X) eqn:E.
          * specialize (X1 eq_refl). split; intros A.
            -- pose proof (Mnow X j ltac:(lia) ltac:(lia)). lia.
            -- destruct (Z_le_gt_dec X j); [lia|]. pose proof (Mnow (j + 1) X ltac:(lia) ltac:(lia)). lia.
          * specialize (X3 eq_refl). split; intros A.
            -- pose proof (Mnow X (j + 1) ltac:(lia) ltac:(lia)). lia.
            -- destruct (Z_le_gt_dec X (j + 1)); [lia|]. destruct (F3 (j + 1) ltac:(lia)). lia.
        + destruct (my_begin =? nw X) eqn:E.
          * specialize (X1 eq_refl). pose proof (Mnow 0 X ltac:(lia) ltac:(lia)). lia.
          * specialize (X3 eq_refl). split; intros A.
            -- assert (X = 0) as -> by lia. destruct (F3 0 ltac:(lia)). lia.
            -- destruct (Z.eq_dec X 0) as [->|]; [lia|]. destruct (F3 0 ltac:(lia)). lia.
    Qed.

    Lemma rs_fold : forall l st, let st' := fold_left rs l st in
      (r_num st', r_low st', r_high st') = fold_left cstep l (r_num st, r_low st, r_high st).
    Proof. induction l as [|x l IH]; intros st; cbn [fold_left]; [reflexivity|]. rewrite IH. reflexivity. Qed.
    Lemma rs_none : forall l st, (forall x, In x l -> ~ (nw x <= c < nw (x + 1))) -> r_cut (fold_left rs l st) = r_cut st /\ r_id (fold_left rs l st) = r_id st.
    Proof.
      induction l as [|x l IH]; intros st H; cbn [fold_left]; [split; reflexivity|]. destruct (IH (rs st x)) as (E1 & E2); [intros y I; apply H; right; exact I|]. rewrite E1, E2.
      specialize (H x (or_introl eq_refl)). unfold rs, rstep. cbn [r_cut r_id]. replace ((nw x <=? c) && (c <? nw (x + 1))) with false by lia. split; reflexivity.
    Qed.
    Lemma rs_num : forall l st, r_num (fold_left rs l st) = r_num st + zlen l.
    Proof. induction l as [|x l IH]; intros st; cbn [fold_left]; unfold zlen in *; cbn [length]; [lia|]. rewrite IH. unfold rs, rstep. cbn [r_num]. lia. Qed.

    Lemma source_loop_ok jk : forall n i, 0 <= i -> i + Z.of_nat n <= P ->
      source_loop d jk now c n i = Some (filter (fun j => (nw j <? nw (j + 1)) && near_cut d c (nw j) (nw (j + 1))) (zseq n i)).
    Proof. induction n as [|n IH]; intros i H1 H2; cbn [source_loop zseq filter]; [reflexivity|]. rewrite !peek_ok, IH by lia. reflexivity. Qed.

    Lemma owner_exists : exists o, 0 <= o < P /\ nw o <= c < nw (o + 1).
    Proof.
      assert (G : forall n, Z.of_nat n <= P -> c < nw (Z.of_nat n) -> exists o, 0 <= o < P /\ nw o <= c < nw (o + 1)).
      { induction n as [|n IH]; intros H1 H2; [cbn in H2; lia|]. destruct (Z_lt_le_dec c (nw (Z.of_nat n))) as [L|L]; [apply IH; lia|]. exists (Z.of_nat n). replace (Z.of_nat n + 1) with (Z.of_nat (S n)) by lia. lia. }
      apply (G (Z.to_nat P)); rewrite Z2Nat.id; lia.
    Qed.

    (** the loops visit exactly the near ranks; without a valid value before the array this needs the
        begin of the window to be inside *)
    Lemma sources_ok jk o : (exists v, jk = Some v /\ 0 <= v) \/ C - 1 <= c \/ c + C - 2 >= N -> 0 <= o < P -> nw o <= c < nw (o + 1) ->
      exists id, sources d jk now P N c = Some (srcs, o, id) /\ zget srcs id = Some o.
    Proof.
      intros HB Ho Hoc. pose proof CH as HC. unfold sources. destruct recv_window_ok as (b & e & EW & B1 & B2 & B3 & B4 & B5 & B6 & B7). rewrite EW.
      assert (EL : forall i, Z.max b 0 = i -> filter (fun j => (nw j <? nw (j + 1)) && (nw j <=? my_end)) (zseq (Z.to_nat (P - i)) i) = srcs).
      { intros i <-. apply inc_eq; [apply filter_inc, zseq_inc|apply filter_inc, zseq_inc|]. intros x. unfold srcs, near_cut. rewrite !filter_In, !in_zseq. split; intros (A & E).
        - specialize (B6 x ltac:(lia) ltac:(lia)). lia.
        - specialize (B6 x ltac:(lia) ltac:(lia)). lia. }
      assert (ER : recv_loop jk now P c (Z.to_nat (P + 1)) b e (mkrst 0 P 0 (-1) (-1)) = Some (fold_left rs srcs (mkrst 0 P 0 (-1) (-1)))).
      { destruct (Z.eq_dec b (-1)) as [->|NB].
        - pose proof (proj1 B7 eq_refl) as B8. destruct HB as [(v & -> & Hv)|HB]; [|lia]. replace (Z.to_nat (P + 1)) with (S (Z.to_nat P)) by lia. cbn [recv_loop]. replace (-1 <=? Z.min e (P - 1)) with true by lia.
          assert (EJ : peek (Some v) now (-1) = Some v) by reflexivity. rewrite EJ. change (-1 + 1) with 0. rewrite peek_ok by lia. rewrite N0. replace (v <? 0) with false by lia. replace ((-1 =? e) && (v =? 0)) with false by lia.
          rewrite recv_loop_ok by (assumption || lia). rewrite EL by lia. reflexivity.
        - rewrite recv_loop_ok by (assumption || lia). rewrite EL by lia. reflexivity. }
      rewrite ER. set (st := fold_left rs srcs (mkrst 0 P 0 (-1) (-1))).
      assert (IO : In o srcs) by (unfold srcs, near_cut; rewrite filter_In, in_zseq; lia).
      assert (IN : forall y, In y srcs <-> 0 <= y < P /\ (nw y <? nw (y + 1)) && near_cut d c (nw y) (nw (y + 1)) = true) by (intros y; unfold srcs; rewrite filter_In, in_zseq; split; intros (A & E); (split; [lia|exact E])).
      assert (SI : inc srcs) by (apply filter_inc, zseq_inc).
      pose proof (rs_fold srcs (mkrst 0 P 0 (-1) (-1))) as EF. cbn [r_num r_low r_high] in EF. fold st in EF. symmetry in EF.
      destruct (two_loops (fun j => (nw j <? nw (j + 1)) && near_cut d c (nw j) (nw (j + 1))) srcs _ _ _ SI (fun y I => proj1 (IN y) I) (fun y H1 H2 => proj2 (IN y) (conj H1 H2)) ltac:(intros E; rewrite E in IO; destruct IO) EF) as (E1 & E2 & E3 & E4).
      assert (L : 0 < zlen srcs) by (destruct srcs; [destruct IO|unfold zlen; cbn [length]; lia]).
      replace (r_num st >? 0) with true by lia. rewrite source_loop_ok by assumption. rewrite E4, E1, Z.eqb_refl.
      apply in_split in IO. destruct IO as (l1 & l2 & EO).
      assert (UN : forall x, In x srcs -> x <> o -> ~ (nw x <= c < nw (x + 1))).
      { intros x I NX A. apply IN in I. destruct (Z_lt_le_dec x o); [pose proof (Mnow (x + 1) o ltac:(lia) ltac:(lia))|pose proof (Mnow (o + 1) x ltac:(lia) ltac:(lia))]; lia. }
      assert (D : ~ In o l1 /\ ~ In o l2).
      { rewrite EO in SI. assert (ND : NoDup (l1 ++ o :: l2)). { clear - SI. induction SI as [|x l S IH F]; constructor; [|exact IH]. intros I. rewrite Forall_forall in F. specialize (F _ I). lia. } apply NoDup_remove_2 in ND. rewrite in_app_iff in ND. tauto. }
      exists (zlen l1). split.
      - do 2 f_equal.
        + f_equal. unfold st. rewrite EO, fold_left_app. cbn [fold_left]. destruct (rs_none l2 (rs (fold_left rs l1 (mkrst 0 P 0 (-1) (-1))) o)) as (-> & _); [intros x I; apply UN; [rewrite EO, in_app_iff; right; right; exact I|intros ->; tauto]|].
          unfold rs at 1, rstep. cbn [r_cut]. replace ((nw o <=? c) && (c <? nw (o + 1))) with true by lia. reflexivity.
        + unfold st. rewrite EO, fold_left_app. cbn [fold_left]. destruct (rs_none l2 (rs (fold_left rs l1 (mkrst 0 P 0 (-1) (-1))) o)) as (_ & ->); [intros x I; apply UN; [rewrite EO, in_app_iff; right; right; exact I|intros ->; tauto]|].
          unfold rs at 1, rstep. cbn [r_id]. replace ((nw o <=? c) && (c <? nw (o + 1))) with true by lia. rewrite rs_num. cbn [r_num]. lia.
      - rewrite EO, zget_nth by apply zlen_nonneg. unfold zlen. rewrite Nat2Z.id, nth_error_app2, Nat.sub_diag by lia. reflexivity.
    Qed.
  End Recv.

  (** ** the winner of a family: the lowest of the ranks with the most of it *)
  Definition share (m i : Z) : Z := Z.max 0 (Z.min (nc (i + 1)) (m + C) - Z.max (nc i) m).
  Definition winner (m w : Z) : Prop := 0 <= w < P /\ (forall i, 0 <= i < w -> share m i < share m w) /\ (forall i, w < i < P -> share m i <= share m w).

  Lemma winner_unique m w w' : winner m w -> winner m w' -> w = w'.
  Proof.
    intros (A1 & A2 & A3) (B1 & B2 & B3). destruct (Z.lt_trichotomy w w') as [L|[L|L]]; [|exact L|].
    - specialize (A3 w' ltac:(lia)). specialize (B2 w ltac:(lia)). lia.
    - specialize (B3 w ltac:(lia)). specialize (A2 w' ltac:(lia)). lia.
  Qed.

  Section Winner.
    Variables (m r : Z).
    Hypothesis Hr : 0 <= r < P.
    Hypothesis Hm : 0 <= m /\ m + C <= N.
    Hypothesis Hin : m < nc r < m + C.
    Hypothesis Hne : nc r < nc (r + 1).

    Lemma share_r : 0 < share m r.
    Proof. unfold share. lia. Qed.

    Lemma down_loop_ok : forall n i h b, -1 <= i < r -> i < Z.of_nat n -> i < b <= r -> h = share m b -> 0 < h ->
      (forall j, i < j < b -> share m j < h) -> (forall j, b <= j <= r -> share m j <= h) ->
      exists w, 0 <= w <= r /\ down_loop new m n i (h, b) = Some (share m w, w) /\ 0 < share m w /\ (forall j, 0 <= j < w -> share m j < share m w) /\ (forall j, w <= j <= r -> share m j <= share m w).
    Proof.
      induction n as [|n IH]; intros i h b H1 H2 H3 Eh Ph I1 I2.
      - assert (i = -1) as -> by lia. cbn [down_loop]. rewrite Hnew by lia. replace (m <? nc (-1 + 1)) with false by (change (-1 + 1) with 0; lia). exists b. rewrite <- Eh. repeat split; try lia; try assumption. intros j Hj. apply I1; lia.
      - cbn [down_loop]. rewrite Hnew by lia. destruct (m <? nc (i + 1)) eqn:B.
        + assert (0 <= i) by (destruct (Z.eq_dec i (-1)) as [->|]; [change (-1 + 1) with 0 in B; lia|lia]). rewrite Hnew by lia. cbn [fst].
          assert (ES : nc (i + 1) - Z.max m (nc i) = share m i).
          { pose proof (Mnew (i + 1) r ltac:(lia) ltac:(lia)). pose proof (Mnew i (i + 1) ltac:(lia) ltac:(lia)). unfold share. lia. }
          rewrite ES. destruct (h <=? share m i) eqn:B2.
          * apply IH; try lia; try reflexivity. intros j Hj. destruct (Z_lt_le_dec j b); [destruct (Z.eq_dec j i) as [->|]; [lia|specialize (I1 j ltac:(lia)); lia]|specialize (I2 j ltac:(lia)); lia].
          * apply IH; try lia; try assumption. intros j Hj. destruct (Z.eq_dec j i) as [->|]; [lia|apply I1; lia].
        + exists b. rewrite <- Eh. repeat split; try lia; try assumption. intros j Hj. destruct (Z_lt_le_dec i j) as [L|L]; [apply I1; lia|].
          pose proof (Mnew (j + 1) (i + 1) ltac:(lia) ltac:(lia)). unfold share. lia.
    Qed.

    Lemma up_loop_ok : forall n i h b, 0 <= b < i -> i <= P -> P - i <= Z.of_nat n -> h = share m b -> 0 < h ->
      (forall j, 0 <= j < b -> share m j < h) -> (forall j, b <= j < i -> share m j <= h) ->
      exists w, up_loop new (m + C - 1) n i (h, b) = Some (share m w, w) /\ winner m w.
    Proof.
      induction n as [|n IH]; intros i h b H1 H2 H3 Eh Ph I1 I2.
      - assert (i = P) as -> by lia. cbn [up_loop]. rewrite Hnew by lia. replace (nc P <=? m + C - 1) with false by lia. exists b. rewrite <- Eh. split; [reflexivity|]. split; [lia|]. split; intros j Hj; rewrite <- Eh; [apply I1|apply I2]; lia.
      - cbn [up_loop]. rewrite Hnew by lia. destruct (nc i <=? m + C - 1) eqn:B.
        + assert (i < P) by (destruct (Z.eq_dec i P) as [->|]; lia). rewrite Hnew by lia. cbn [fst].
          assert (ES : Z.min (m + C - 1) (nc (i + 1) - 1) - nc i + 1 = share m i).
          { pose proof (Mnew (b + 1) i ltac:(lia) ltac:(lia)). pose proof (Mnew i (i + 1) ltac:(lia) ltac:(lia)). assert (m < nc (b + 1)) by (unfold share in Eh; lia). unfold share. lia. }
          rewrite ES. destruct (h <? share m i) eqn:B2.
          * apply IH; try lia; try reflexivity; intros j Hj.
            -- destruct (Z_lt_le_dec j b); [specialize (I1 j ltac:(lia)); lia|specialize (I2 j ltac:(lia)); lia].
            -- assert (j = i) as -> by lia. lia.
          * apply IH; try lia; try assumption. intros j Hj. destruct (Z.eq_dec j i) as [->|]; [lia|apply I2; lia].
        + exists b. rewrite <- Eh. split; [reflexivity|]. split; [lia|]. split; intros j Hj; rewrite <- Eh; [apply I1; lia|]. destruct (Z_lt_le_dec j i) as [L|L]; [apply I2; lia|].
          pose proof (Mnew i j ltac:(lia) ltac:(lia)). unfold share. lia.
    Qed.

    Lemma partition_correction_ok : exists w, winner m w /\
      partition_correction d new P r m (m + C - 1) = Some (if w <? r then nc r - (m + C) else nc r - m).
    Proof.
      unfold partition_correction. rewrite !Hnew by lia. replace (negb (m + C - 1 - m + 1 =? C)) with false by lia.
      assert (E0 : Z.min (m + C - 1) (nc (r + 1) - 1) - nc r + 1 = share m r) by (unfold share; lia). rewrite E0.
      destruct (down_loop_ok (Z.to_nat P) (r - 1) (share m r) r) as (b & B1 & B2 & B3 & B4 & B5); try lia; try reflexivity; try apply share_r; try (intros j Hj; assert (j = r) as -> by lia; lia).
      rewrite B2. cbn [snd].
      destruct (up_loop_ok (Z.to_nat P) (b + 1) (share m b) b) as (w & W1 & W2); try lia; try reflexivity; try assumption; [intros j Hj; apply B5; lia|].
      rewrite W1. cbn [snd]. exists w. split; [exact W2|]. f_equal. destruct (w <? r); lia.
    Qed.
  End Winner.

  Lemma no_correction r mn mx : 0 <= r < P -> mx - mn + 1 <> C -> partition_correction d new P r mn mx = Some 0.
  Proof. intros Hr H. unfold partition_correction. rewrite !Hnew by lia. replace (negb (mx - mn + 1 =? C)) with true by lia. reflexivity. Qed.

  (** ** the corrected counts *)
  Section Final.
    Variables (cr : Z -> Z) (corr counts : list Z).
    Hypothesis Hcorr : forall i, 0 <= i < P -> zget corr i = Some (cr i).
    Hypothesis Hcounts : forall i, 0 <= i < P -> zget counts i = Some (nc (i + 1) - nc i).
    Hypothesis Lcounts : zlen counts = P.
    Hypothesis Z0 : cr 0 = 0.
    Hypothesis Ze : forall i, 0 <= i < P -> nc i = nc (i + 1) -> cr i = 0.

    Fixpoint target (n : nat) : Z :=
      match n with
      | O => N
      | S n' => let i := P - Z.of_nat n in if nc i <? nc (i + 1) then nc i - cr i else target n'
      end.
    (** the new cuts: the correction applies to ranks with leaves, the others follow the next one *)
    Definition moved (i : Z) : Z := target (Z.to_nat (P - i)).

    Lemma moved_P : moved P = N.
    Proof. unfold moved. replace (Z.to_nat (P - P)) with 0%nat by lia. reflexivity. Qed.
    Lemma moved_step i : 0 <= i < P -> moved i = if nc i <? nc (i + 1) then nc i - cr i else moved (i + 1).
    Proof.
      intros H. unfold moved. replace (Z.to_nat (P - i)) with (S (Z.to_nat (P - (i + 1)))) by lia. cbn [target]. replace (P - Z.of_nat (S (Z.to_nat (P - (i + 1))))) with i by lia. reflexivity.
    Qed.

    Definition isnext (i k : Z) : Prop := i <= k <= P /\ (forall j, i <= j < k -> nc j = nc (j + 1)) /\ (k < P -> nc k < nc (k + 1)).
    Lemma isnext_moved i k : 0 <= i -> isnext i k -> moved i = moved k /\ nc i = nc k.
    Proof.
      intros Hi (A1 & A2 & A3). remember (Z.to_nat (k - i)) as n eqn:En. revert i Hi A1 A2 En. induction n as [|n IH]; intros i Hi A1 A2 En.
      - assert (i = k) as -> by lia. auto.
      - destruct (IH (i + 1)) as (E1 & E2); [lia|lia|intros j Hj; apply A2; lia|lia|]. pose proof (A2 i ltac:(lia)) as E. rewrite moved_step by lia. replace (nc i <? nc (i + 1)) with false by lia. split; [exact E1|lia].
    Qed.

    Lemma next_loop_ok l : (forall i, 0 <= i < P -> True) -> forall n r, 0 <= r <= P -> P - r <= Z.of_nat n -> (forall i, r <= i < P -> zget l i = Some (nc (i + 1) - nc i)) -> isnext r (next_loop l P n r).
    Proof.
      intros _. induction n as [|n IH]; intros r H1 H2 G; cbn [next_loop].
      - assert (r = P) as -> by lia. split; [lia|]. split; [intros; lia|lia].
      - destruct (r <? P) eqn:B; cbn [andb].
        + rewrite G by lia. pose proof (Mnew r (r + 1) ltac:(lia) ltac:(lia)) as M. destruct (nc (r + 1) - nc r =? 0) eqn:B2.
          * destruct (IH (r + 1)) as (A1 & A2 & A3); [lia|lia|intros i Hi; apply G; lia|]. split; [lia|]. split; [|exact A3]. intros j Hj. destruct (Z.eq_dec j r) as [->|]; [lia|apply A2; lia].
          * split; [lia|]. split; [intros; lia|lia].
        + split; [lia|]. split; [intros; lia|lia].
    Qed.
    Lemma next_nonempty_ok l r : 0 <= r <= P -> (forall i, r <= i < P -> zget l i = Some (nc (i + 1) - nc i)) -> isnext r (next_nonempty l P r).
    Proof.
      intros H G. unfold next_nonempty. destruct (r >=? P) eqn:B.
      - assert (r = P) as -> by lia. split; [lia|]. split; [intros; lia|lia].
      - apply next_loop_ok; auto; lia.
    Qed.

    Lemma zset_len l i v : 0 <= i < zlen l -> zlen (zset l i v) = zlen l.
    Proof. intros H. unfold zset, zlen in *. rewrite app_length, firstn_length. cbn [length]. rewrite skipn_length. lia. Qed.
    Lemma zget_zset l i v j : 0 <= i < zlen l -> 0 <= j -> zget (zset l i v) j = if j =? i then Some v else zget l j.
    Proof.
      intros H Hj. pose proof (nth_lset l (Z.to_nat i) v (Z.to_nat j)) as E. unfold lset in E. unfold zset. rewrite !zget_nth by lia. rewrite E by (unfold zlen in H; lia).
      destruct (j =? i) eqn:B; [replace (Nat.eqb (Z.to_nat j) (Z.to_nat i)) with true by (symmetry; apply Nat.eqb_eq; lia)|replace (Nat.eqb (Z.to_nat j) (Z.to_nat i)) with false by (symmetry; apply Nat.eqb_neq; lia)]; reflexivity.
    Qed.
    Lemma zadd_ok l i v x : zget l i = Some x -> zadd l i v = Some (zset l i (x + v)).
    Proof. intros E. unfold zadd. rewrite E. reflexivity. Qed.

    Definition total_moved (k : Z) : Z := fold_right (fun i s => Z.abs (cr i) + s) 0 (zseq (Z.to_nat k) 0).
    Lemma total_moved_step k : 0 <= k -> total_moved (k + 1) = total_moved k + Z.abs (cr k).
    Proof.
      intros H. unfold total_moved. replace (Z.to_nat (k + 1)) with (Z.to_nat k + 1)%nat by lia. rewrite zseq_app, fold_right_app. cbn [zseq fold_right].
      assert (G : forall l s, fold_right (fun i s => Z.abs (cr i) + s) s l = fold_right (fun i s => Z.abs (cr i) + s) 0 l + s) by (induction l as [|x l IH]; intros s; cbn [fold_right]; [lia|rewrite IH; lia]).
      rewrite G. rewrite Z2Nat.id by lia. cbn [Z.add]. lia.
    Qed.
    Lemma total_moved_next i k : 0 <= i -> isnext i k -> total_moved k = total_moved i.
    Proof.
      intros Hi (A1 & A2 & A3). remember (Z.to_nat (k - i)) as n eqn:En. revert i Hi A1 A2 En. induction n as [|n IH]; intros i Hi A1 A2 En.
      - assert (i = k) as -> by lia. auto.
      - rewrite (IH (i + 1)); [|lia|lia|intros j Hj; apply A2; lia|lia]. rewrite total_moved_step by lia. rewrite (Ze i) by (auto; try lia; apply A2; lia). lia.
    Qed.

    Lemma correct_loop_ok : forall n cur next l, 0 <= cur <= P -> P - cur <= Z.of_nat n -> (cur < P -> nc cur < nc (cur + 1) /\ isnext (cur + 1) next) -> zlen l = P ->
      (forall i, 0 <= i < cur -> zget l i = Some (moved (i + 1) - moved i)) -> (forall i, cur <= i < P -> zget l i = Some (nc (i + 1) - nc i)) ->
      exists l', correct_loop corr P n cur next l (total_moved cur) = Some (l', total_moved P) /\ zlen l' = P /\ forall i, 0 <= i < P -> zget l' i = Some (moved (i + 1) - moved i).
    Proof.
      induction n as [|n IH]; intros cur next l H1 H2 H3 L A B.
      - assert (cur = P) as -> by lia. cbn [correct_loop]. replace (P <? P) with false by lia. exists l. auto.
      - cbn [correct_loop]. destruct (cur <? P) eqn:BP; [|assert (cur = P) as -> by lia; exists l; auto].
        destruct (H3 ltac:(lia)) as (N1' & N2). pose proof N2 as (X1 & X2 & X3). rewrite Hcorr by lia.
        assert (E1 : exists l1, (if 0 <? cur then zadd l cur (cr cur) else Some l) = Some l1 /\ zlen l1 = P /\ (forall i, 0 <= i < P -> zget l1 i = if i =? cur then Some (nc (cur + 1) - nc cur + cr cur) else zget l i)).
        { destruct (0 <? cur) eqn:B0.
          - exists (zset l cur (nc (cur + 1) - nc cur + cr cur)). split; [apply zadd_ok; apply B; lia|]. split; [rewrite zset_len; lia|]. intros i Hi. apply zget_zset; lia.
          - exists l. split; [reflexivity|]. split; [exact L|]. intros i Hi. assert (cur = 0) as -> by lia. destruct (i =? 0) eqn:B1; [|reflexivity]. assert (i = 0) as -> by lia. rewrite B by lia. f_equal. lia. }
        destruct E1 as (l1 & -> & L1 & G1).
        assert (E2 : exists l2, (if next <? P then match zget corr next with Some cn => zadd l1 cur (- cn) | None => None end else Some l1) = Some l2 /\ zlen l2 = P /\ (forall i, 0 <= i < P -> zget l2 i = if i =? cur then Some (moved (cur + 1) - moved cur) else zget l i)).
        { destruct (isnext_moved (cur + 1) next ltac:(lia) N2) as (M1 & M2). assert (EC : moved cur = nc cur - cr cur) by (rewrite moved_step by lia; replace (nc cur <? nc (cur + 1)) with true by lia; reflexivity).
          destruct (next <? P) eqn:BN.
          - rewrite Hcorr by lia. assert (EN : moved next = nc next - cr next) by (specialize (X3 ltac:(lia)); rewrite moved_step by lia; replace (nc next <? nc (next + 1)) with true by lia; reflexivity).
            exists (zset l1 cur (nc (cur + 1) - nc cur + cr cur + - cr next)). split; [apply zadd_ok; rewrite G1 by lia; rewrite Z.eqb_refl; reflexivity|]. split; [rewrite zset_len; lia|].
            intros i Hi. rewrite zget_zset by lia. destruct (i =? cur) eqn:B1; [f_equal; lia|]. rewrite G1 by lia. rewrite B1. reflexivity.
          - exists l1. split; [reflexivity|]. split; [exact L1|]. intros i Hi. rewrite G1 by lia. destruct (i =? cur); [|reflexivity]. assert (next = P) as -> by lia. rewrite moved_P in M1. f_equal. lia. }
        destruct E2 as (l2 & -> & L2 & G2).
        assert (EM : (if 0 <? cur then total_moved cur + Z.abs (cr cur) else total_moved cur) = total_moved next).
        { rewrite (total_moved_next (cur + 1) next) by (lia || exact N2). rewrite total_moved_step by lia. destruct (0 <? cur) eqn:B0; [reflexivity|]. assert (cur = 0) as -> by lia. lia. }
        rewrite EM. apply IH; [lia|lia| |exact L2| |].
        + intros Hn. split; [apply X3; lia|]. apply next_nonempty_ok; [lia|]. intros i Hi. rewrite G2 by lia. replace (i =? cur) with false by lia. apply B. lia.
        + intros i Hi. rewrite G2 by lia. destruct (i =? cur) eqn:B1; [assert (i = cur) as -> by lia; reflexivity|]. destruct (Z_lt_le_dec i cur) as [Lt|Le]; [apply A; lia|]. rewrite B by lia.
          assert (E : nc i = nc (i + 1)) by (apply X2; lia). rewrite (moved_step i) by lia. replace (nc i <? nc (i + 1)) with false by lia. f_equal. lia.
        + intros i Hi. rewrite G2 by lia. replace (i =? cur) with false by lia. apply B. lia.
    Qed.

    Lemma corrected : exists l, (let cur := next_nonempty counts P 0 in correct_loop corr P (Z.to_nat P) cur (next_nonempty counts P (cur + 1)) counts 0) = Some (l, total_moved P) /\
      zlen l = P /\ forall i, 0 <= i < P -> zget l i = Some (moved (i + 1) - moved i).
    Proof.
      cbv zeta. pose proof (next_nonempty_ok counts 0 ltac:(lia) ltac:(intros; apply Hcounts; lia)) as X. pose proof X as (X1 & X2 & X3). set (cur := next_nonempty counts P 0) in *.
      assert (E : 0 = total_moved cur) by (rewrite (total_moved_next 0 cur ltac:(lia) X); reflexivity). replace (correct_loop corr P (Z.to_nat P) cur (next_nonempty counts P (cur + 1)) counts 0) with (correct_loop corr P (Z.to_nat P) cur (next_nonempty counts P (cur + 1)) counts (total_moved cur)) by (rewrite <- E; reflexivity). apply correct_loop_ok; [lia|lia| |exact Lcounts| |].
      - intros H. split; [apply X3; lia|]. apply next_nonempty_ok; [lia|]. intros i Hi. apply Hcounts. lia.
      - intros i Hi. rewrite Hcounts by lia. rewrite (moved_step i) by lia. rewrite (X2 i) by lia. replace (nc (i + 1) <? nc (i + 1)) with false by lia. f_equal. lia.
      - intros i Hi. apply Hcounts. lia.
    Qed.
  End Final.
End Sets.
