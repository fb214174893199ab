(** * Lemmas about p4est_partition_given *)

From Coq Require Import ZArith List Bool Lia Arith ZifyBool Sorting.Sorted.
From Verif Require Import Quad Search SearchLemmas Adapt Partition PropertiesSearch.
Import ListNotations.
Open Scope Z_scope.

(** ** parts of lists *)
Definition sub {A} (a b : nat) (l : list A) : list A := firstn (b - a) (skipn a l).

Lemma sub_length {A} a b (l : list A) : length (sub a b l) = (Nat.min b (length l) - a)%nat.
Proof. unfold sub. rewrite firstn_length, skipn_length. lia. Qed.

Lemma sub_app {A} a b (l1 l2 : list A) :
  sub a b (l1 ++ l2) = sub a b l1 ++ sub (a - length l1) (b - length l1) l2.
Proof.
  unfold sub. rewrite skipn_app, firstn_app. f_equal. rewrite skipn_length. f_equal. lia.
Qed.

Lemma sub_nil {A} a b : sub a b (@nil A) = [].
Proof. unfold sub. rewrite skipn_nil, firstn_nil. reflexivity. Qed.

Lemma sub_empty {A} a b (l : list A) : (b <= a)%nat -> sub a b l = [].
Proof. intros H. unfold sub. replace (b - a)%nat with 0%nat by lia. reflexivity. Qed.

Lemma sub_beyond {A} a b (l : list A) : (length l <= a)%nat -> sub a b l = [].
Proof. intros H. unfold sub. rewrite skipn_all2 by lia. apply firstn_nil. Qed.

Lemma sub_map {A B} (f : A -> B) a b l : sub a b (map f l) = map f (sub a b l).
Proof. unfold sub. rewrite skipn_map, firstn_map. reflexivity. Qed.

Lemma sub_all {A} b (l : list A) : (length l <= b)%nat -> sub 0 b l = l.
Proof. intros H. unfold sub. cbn [skipn]. apply firstn_all2. lia. Qed.

Lemma sub_join {A} a b c (l : list A) : (a <= b <= c)%nat -> sub a b l ++ sub b c l = sub a c l.
Proof.
  intros H. revert a b c H. induction l as [|x l IH]; intros a b c H.
  - rewrite !sub_nil. reflexivity.
  - destruct a as [|a].
    + destruct b as [|b].
      * unfold sub at 1. cbn [Nat.sub firstn]. reflexivity.
      * destruct c as [|c]; [lia|]. specialize (IH 0%nat b c ltac:(lia)). unfold sub in *.
        cbn [Nat.sub skipn firstn app] in *. rewrite ?Nat.sub_0_r in IH. rewrite ?Nat.sub_0_r, IH. reflexivity.
    + destruct b as [|b]; [lia|]. destruct c as [|c]; [lia|]. exact (IH a b c ltac:(lia)).
Qed.

Lemma in_sub {A} (x : A) a b l : In x (sub a b l) -> In x l.
Proof. intros H. unfold sub in H. 
  assert (G : forall n (k : list A), In x (firstn n k) -> In x k).
  { intros n k. rewrite <- (firstn_skipn n k) at 2. rewrite in_app_iff. auto. }
  assert (G2 : forall n (k : list A), In x (skipn n k) -> In x k).
  { intros n k. rewrite <- (firstn_skipn n k) at 2. rewrite in_app_iff. auto. }
  eapply G2. eapply G. exact H.
Qed.

Lemma slice_sub {A} (l : list A) b n : 0 <= b -> 0 <= n -> b + n <= zlen l ->
  slice l b n = Some (sub (Z.to_nat b) (Z.to_nat (b + n)) l).
Proof.
  intros H1 H2 H3. unfold slice, sub.
  replace ((0 <=? b) && (0 <=? n) && (b + n <=? zlen l)) with true by lia.
  f_equal. f_equal. lia.
Qed.

(** ** prefix sums *)
Fixpoint pre (c : list Z) (k : nat) : Z :=
  match c, k with
  | n :: c', S k' => n + pre c' k'
  | _, _ => 0
  end.

Lemma pre_0 c : pre c 0 = 0.
Proof. destruct c; reflexivity. Qed.

Lemma pre_S c : forall k v, nth_error c k = Some v -> pre c (S k) = pre c k + v.
Proof.
  induction c as [|n c IH]; intros k v H; [destruct k; discriminate|].
  destruct k as [|k]; cbn [nth_error] in H.
  - injection H as ->. cbn [pre]. rewrite pre_0. lia.
  - cbn [pre]. rewrite <- Z.add_assoc, <- (IH k v H). reflexivity.
Qed.

Lemma pre_mono c : Forall (Z.le 0) c -> forall j k, (j <= k)%nat -> pre c j <= pre c k.
Proof.
  induction 1 as [|n c Hn Hc IH]; intros j k H; [destruct j, k; cbn; lia|].
  destruct j as [|j], k as [|k]; cbn [pre]; try lia.
  - pose proof (IH 0%nat k ltac:(lia)). rewrite pre_0 in H0. lia.
  - pose proof (IH j k ltac:(lia)). lia.
Qed.

Lemma pre_nonneg c : Forall (Z.le 0) c -> forall k, 0 <= pre c k.
Proof. intros H k. rewrite <- (pre_0 c). apply pre_mono; [auto|lia]. Qed.

Lemma pre_beyond c : forall k, (length c <= k)%nat -> pre c k = pre c (length c).
Proof.
  induction c as [|n c IH]; intros k H; [destruct k; reflexivity|].
  destruct k as [|k]; cbn [length] in H; [lia|]. cbn [pre length]. rewrite (IH k) by lia. reflexivity.
Qed.

Lemma lasts_length c : forall s, length (lasts s c) = length c.
Proof. induction c as [|n c IH]; intros s; cbn [lasts length]; [reflexivity|]. rewrite IH. reflexivity. Qed.

Lemma lasts_nth c : forall s k, (k < length c)%nat -> nth_error (lasts s c) k = Some (s + pre c (S k)).
Proof.
  induction c as [|n c IH]; intros s k H; cbn [length] in H; [lia|].
  destruct k as [|k]; cbn [lasts nth_error].
  - cbn [pre]. rewrite pre_0. f_equal. lia.
  - rewrite IH by lia. f_equal. cbn [pre]. lia.
Qed.

Lemma zget_nth {A} (l : list A) i : 0 <= i -> zget l i = nth_error l (Z.to_nat i).
Proof. intros H. unfold zget. replace (i <? 0) with false by lia. reflexivity. Qed.

Lemma zget_lasts c p : 0 <= p < zlen c -> zget (lasts (-1) c) p = Some (pre c (Z.to_nat (p + 1)) - 1).
Proof.
  unfold zlen. intros H. rewrite zget_nth, lasts_nth by lia.
  replace (Z.to_nat (p + 1)) with (S (Z.to_nat p)) by lia. f_equal. lia.
Qed.

Lemma lower_lasts c p : 0 <= p <= zlen c -> lower (lasts (-1) c) p = Some (pre c (Z.to_nat p)).
Proof.
  intros H. unfold lower. destruct (p =? 0) eqn:E.
  - replace p with 0 by lia. cbn [Z.to_nat]. rewrite pre_0. reflexivity.
  - rewrite zget_lasts by lia. replace (p - 1 + 1) with p by lia. f_equal. lia.
Qed.

Lemma lasts_sorted c : Forall (Z.le 0) c -> forall s, StronglySorted Z.le (lasts s c).
Proof.
  induction 1 as [|n c Hn Hc IH]; intros s; cbn [lasts]; constructor; [apply IH|].
  apply Forall_forall. intros x Hx. apply In_nth_error in Hx. destruct Hx as [k Hk].
  assert (L : (k < length c)%nat) by (rewrite <- (lasts_length c (s + n)); apply nth_error_Some; congruence).
  rewrite lasts_nth in Hk by auto. injection Hk as <-. pose proof (pre_nonneg c Hc (S k)). lia.
Qed.

(** ** who exchanges how much with whom *)

(** length of the intersection of [a, b) and [c, e) *)
Definition ov (a b c e : Z) : Z := Z.max 0 (Z.min b e - Z.max a c).

Lemma find_partition_range c a b : Forall (Z.le 0) c -> 0 <= a <= b -> b < pre c (length c) ->
  exists x y : nat, find_partition (lasts (-1) c) a b = (x, y) /\ (x <= y < length c)%nat /\
    (forall p, (p < length c)%nat -> ((p < x)%nat <-> pre c (S p) <= a)) /\
    (forall p, (p < length c)%nat -> ((p < y)%nat <-> pre c (S p) <= b)).
Proof.
  intros Hc Hab Hb. pose proof (C24_find_partition (lasts (-1) c) a b (lasts_sorted c Hc _) ltac:(lia)) as F.
  destruct (find_partition (lasts (-1) c) a b) as [x y]. destruct F as [F1 F2].
  rewrite lasts_length in F1. exists x, y. split; [reflexivity|].
  assert (G : forall p, (p < length c)%nat -> ((p < x)%nat <-> pre c (S p) <= a) /\ ((p < y)%nat <-> pre c (S p) <= b)).
  { intros p Hp. pose proof (lasts_nth c (-1) p Hp) as E. destruct (F2 p _ E) as [A B]. lia. }
  split; [|split; intros p Hp; apply (G p Hp)].
  split; [lia|]. destruct (Nat.eq_dec y (length c)) as [E|N]; [|lia]. exfalso.
  destruct (length c) as [|n] eqn:L; [destruct c; [cbn in Hb; lia|discriminate]|].
  destruct (G n ltac:(lia)) as [_ B]. lia.
Qed.

Section Plans.
  Variables (co cn : list Z).     (* old and new counts *)
  Hypothesis Hco : Forall (Z.le 0) co.
  Hypothesis Hcn : Forall (Z.le 0) cn.
  Hypothesis Hlen : length co = length cn.
  Hypothesis Hsum : pre co (length co) = pre cn (length cn).
  Local Notation P := (zlen co).
  Local Notation olds := (lasts (-1) co).
  Local Notation news := (lasts (-1) cn).
  Local Notation od p := (pre co (Z.to_nat p)).
  Local Notation nw p := (pre cn (Z.to_nat p)).

  Lemma pre_le_total c (H : Forall (Z.le 0) c) k : pre c k <= pre c (length c).
  Proof. destruct (Nat.le_gt_cases k (length c)); [apply pre_mono; auto|rewrite pre_beyond by lia; lia]. Qed.

  (** the loops *)
  Lemma recv_loop_spec a b : forall n p num, 0 <= p -> p + Z.of_nat n <= P ->
    exists num', recv_loop olds a b n p num = Some num' /\
      (forall q, p <= q < p + Z.of_nat n ->
         num' q = if (od q <=? b) && (od (q + 1) - 1 >=? a) then Z.min b (od (q + 1) - 1) - Z.max a (od q) + 1 else num q) /\
      (forall q, ~ p <= q < p + Z.of_nat n -> num' q = num q).
  Proof.
    clear Hlen Hsum Hcn.
    induction n as [|n IH]; intros p num Hp Hn; cbn [recv_loop].
    - exists num. split; [reflexivity|]. split; intros; [lia|reflexivity].
    - rewrite lower_lasts, zget_lasts by lia.
      destruct (IH (p + 1) (if (od p <=? b) && (od (p + 1) - 1 >=? a)
         then upd num p (Z.min b (od (p + 1) - 1) - Z.max a (od p) + 1) else num) ltac:(lia) ltac:(lia)) as (num' & E & H1 & H2).
      exists num'. split; [exact E|]. split; intros q Hq.
      + destruct (Z.eq_dec q p) as [->|N].
        * rewrite H2 by lia. destruct ((od p <=? b) && (od (p + 1) - 1 >=? a)) eqn:C; [|reflexivity].
          unfold upd. rewrite Z.eqb_refl. reflexivity.
        * rewrite H1 by lia. destruct ((od q <=? b) && (od (q + 1) - 1 >=? a)) eqn:C; [reflexivity|].
          destruct ((od p <=? b) && (od (p + 1) - 1 >=? a)); [|reflexivity].
          unfold upd. replace (q =? p) with false by lia. reflexivity.
      + rewrite H2 by lia. destruct ((od p <=? b) && (od (p + 1) - 1 >=? a)); [|reflexivity].
        unfold upd. replace (q =? p) with false by lia. reflexivity.
  Qed.

  Lemma send_loop_spec a b : forall n p num beg, 0 <= p -> p + Z.of_nat n <= zlen cn ->
    exists num' beg', send_loop news a b n p num beg = Some (num', beg') /\
      (forall q, p <= q < p + Z.of_nat n ->
         num' q = (if (nw q <=? b) && (nw (q + 1) - 1 >=? a) then Z.min b (nw (q + 1) - 1) - Z.max a (nw q) + 1 else num q) /\
         beg' q = (if (nw q <=? b) && (nw (q + 1) - 1 >=? a) then Some (Z.max a (nw q)) else beg q)) /\
      (forall q, ~ p <= q < p + Z.of_nat n -> num' q = num q /\ beg' q = beg q).
  Proof.
    clear Hlen Hsum Hco.
    induction n as [|n IH]; intros p num beg Hp Hn; cbn [send_loop].
    - exists num, beg. split; [reflexivity|]. split; intros; [lia|split; reflexivity].
    - rewrite lower_lasts, zget_lasts by lia.
      destruct ((nw p <=? b) && (nw (p + 1) - 1 >=? a)) eqn:C.
      + destruct (IH (p + 1) (upd num p (Z.min b (nw (p + 1) - 1) - Z.max a (nw p) + 1))
          (upd beg p (Some (Z.max a (nw p)))) ltac:(lia) ltac:(lia)) as (num' & beg' & E & H1 & H2).
        exists num', beg'. split; [exact E|]. split; intros q Hq.
        * destruct (Z.eq_dec q p) as [->|N].
          -- rewrite C. destruct (H2 p ltac:(lia)) as [-> ->]. unfold upd. rewrite Z.eqb_refl. split; reflexivity.
          -- destruct (H1 q ltac:(lia)) as [-> ->]. unfold upd. replace (q =? p) with false by lia. split; reflexivity.
        * destruct (H2 q ltac:(lia)) as [-> ->]. unfold upd. replace (q =? p) with false by lia. split; reflexivity.
      + destruct (IH (p + 1) num beg ltac:(lia) ltac:(lia)) as (num' & beg' & E & H1 & H2).
        exists num', beg'. split; [exact E|]. split; intros q Hq.
        * destruct (Z.eq_dec q p) as [->|N].
          -- rewrite C. destruct (H2 p ltac:(lia)) as [-> ->]. split; reflexivity.
          -- apply (H1 q). lia.
        * apply H2. lia.
  Qed.

  Definition ovl (p q : Z) : Z := ov (od p) (od (p + 1)) (nw q) (nw (q + 1)).

  Lemma od_mono p q : 0 <= p <= q -> od p <= od q.
  Proof. intros. apply pre_mono; [auto|lia]. Qed.
  Lemma nw_mono p q : 0 <= p <= q -> nw p <= nw q.
  Proof. intros. apply pre_mono; [auto|lia]. Qed.

  Lemma recv_plan_spec rank : 0 <= rank < P ->
    exists fb fe num, recv_plan olds news rank = Some (fb, fe, num) /\ 0 <= fb /\ fb <= fe < P /\
      (forall p, num p = if (fb <=? p) && (p <=? fe) then ovl p rank else 0) /\
      (forall p, 0 <= p < P -> ~ fb <= p <= fe -> ovl p rank = 0).
  Proof.
    intros HR. assert (ZL : zlen cn = P) by (unfold zlen; rewrite Hlen; reflexivity).
    unfold recv_plan. rewrite lower_lasts, zget_lasts by lia.
    pose proof (nw_mono rank (rank + 1) ltac:(lia)) as M1.
    destruct (nw rank >? nw (rank + 1) - 1) eqn:E.
    - exists rank, rank, (fun _ => 0). split; [reflexivity|]. split; [lia|]. split; [lia|].
      assert (Z0 : forall p, ovl p rank = 0) by (intros p; unfold ovl, ov; lia).
      split; intros p; [rewrite Z0; destruct (_ && _); reflexivity|intros; apply Z0].
    - pose proof (pre_nonneg cn Hcn (Z.to_nat rank)) as N0.
      pose proof (pre_le_total cn Hcn (Z.to_nat (rank + 1))) as N1.
      destruct (find_partition_range co (nw rank) (nw (rank + 1) - 1) Hco ltac:(lia) ltac:(lia))
        as (x & y & F & Hxy & Fx & Fy).
      rewrite F.
      destruct (recv_loop_spec (nw rank) (nw (rank + 1) - 1) (trips (Z.of_nat x) (Z.of_nat y)) (Z.of_nat x) (fun _ => 0)
                 ltac:(lia) ltac:(unfold trips, zlen; lia)) as (num & EL & L1 & L2).
      rewrite EL. exists (Z.of_nat x), (Z.of_nat y), num. split; [reflexivity|]. split; [lia|].
      split; [unfold zlen; lia|].
      assert (FX : forall p, 0 <= p < P -> (p < Z.of_nat x <-> od (p + 1) <= nw rank)).
      { intros p Hp. unfold zlen in Hp. pose proof (Fx (Z.to_nat p) ltac:(lia)).
        replace (Z.to_nat (p + 1)) with (S (Z.to_nat p)) by lia. lia. }
      assert (FY : forall p, 0 <= p < P -> (p < Z.of_nat y <-> od (p + 1) <= nw (rank + 1) - 1)).
      { intros p Hp. unfold zlen in Hp. pose proof (Fy (Z.to_nat p) ltac:(lia)).
        replace (Z.to_nat (p + 1)) with (S (Z.to_nat p)) by lia. lia. }
      assert (HY : Z.of_nat y < P) by (unfold zlen; lia).
      unfold trips in L1, L2. split.
      + intros p. destruct ((Z.of_nat x <=? p) && (p <=? Z.of_nat y)) eqn:C.
        * rewrite L1 by lia. unfold ovl, ov. pose proof (od_mono p (p + 1) ltac:(lia)).
          pose proof (FX p ltac:(lia)).
          destruct ((od p <=? nw (rank + 1) - 1) && (od (p + 1) - 1 >=? nw rank)) eqn:C2; lia.
        * rewrite L2 by lia. reflexivity.
      + intros p Hp N. unfold ovl, ov. destruct (Z.lt_ge_cases p (Z.of_nat x)) as [Lx|Gx].
        * pose proof (FX p Hp). lia.
        * assert (G : Z.of_nat y <= p - 1) by lia. pose proof (FY (Z.of_nat y) ltac:(lia)) as Y.
          pose proof (od_mono (Z.of_nat y + 1) p ltac:(lia)). lia.
  Qed.

  Lemma send_plan_spec rank : 0 <= rank < P ->
    exists tb te num beg, send_plan olds news rank = Some (tb, te, num, beg) /\ 0 <= tb /\ tb <= te < P /\
      (forall q, num q = if (tb <=? q) && (q <=? te) then ovl rank q else 0) /\
      (forall q, 0 <= q < P -> ~ tb <= q <= te -> ovl rank q = 0) /\
      (forall q, tb <= q <= te -> beg q <> None /\ (0 < ovl rank q -> beg q = Some (Z.max (od rank) (nw q)))).
  Proof.
    intros HR. assert (ZL : zlen cn = P) by (unfold zlen; rewrite Hlen; reflexivity).
    unfold send_plan. rewrite lower_lasts, zget_lasts by lia.
    pose proof (od_mono rank (rank + 1) ltac:(lia)) as M1.
    destruct (od rank >? od (rank + 1) - 1) eqn:E.
    - exists rank, rank, (fun _ => 0), (fun _ => Some (-1)). split; [reflexivity|]. split; [lia|]. split; [lia|].
      assert (Z0 : forall p, ovl rank p = 0) by (intros p; unfold ovl, ov; lia).
      split; [intros p; rewrite Z0; destruct (_ && _); reflexivity|].
      split; [intros; apply Z0|]. intros q _. split; [discriminate|]. rewrite Z0. lia.
    - pose proof (pre_nonneg co Hco (Z.to_nat rank)) as N0.
      pose proof (pre_le_total co Hco (Z.to_nat (rank + 1))) as N1.
      destruct (find_partition_range cn (od rank) (od (rank + 1) - 1) Hcn ltac:(lia) ltac:(lia))
        as (x & y & F & Hxy & Fx & Fy).
      rewrite F.
      destruct (send_loop_spec (od rank) (od (rank + 1) - 1) (trips (Z.of_nat x) (Z.of_nat y)) (Z.of_nat x) (fun _ => 0) (fun _ => None)
                 ltac:(lia) ltac:(unfold trips, zlen; lia)) as (num & beg & EL & L1 & L2).
      rewrite EL. exists (Z.of_nat x), (Z.of_nat y), num, beg. split; [reflexivity|]. split; [lia|].
      split; [unfold zlen; lia|].
      assert (FX : forall p, 0 <= p < P -> (p < Z.of_nat x <-> nw (p + 1) <= od rank)).
      { intros p Hp. unfold zlen in Hp. pose proof (Fx (Z.to_nat p) ltac:(lia)).
        replace (Z.to_nat (p + 1)) with (S (Z.to_nat p)) by lia. lia. }
      assert (FY : forall p, 0 <= p < P -> (p < Z.of_nat y <-> nw (p + 1) <= od (rank + 1) - 1)).
      { intros p Hp. unfold zlen in Hp. pose proof (Fy (Z.to_nat p) ltac:(lia)).
        replace (Z.to_nat (p + 1)) with (S (Z.to_nat p)) by lia. lia. }
      assert (HY : Z.of_nat y < P) by (unfold zlen; lia).
      unfold trips in L1, L2. split; [|split].
      + intros p. destruct ((Z.of_nat x <=? p) && (p <=? Z.of_nat y)) eqn:C.
        * destruct (L1 p ltac:(lia)) as [-> _]. unfold ovl, ov. pose proof (nw_mono p (p + 1) ltac:(lia)).
          pose proof (FX p ltac:(lia)).
          destruct ((nw p <=? od (rank + 1) - 1) && (nw (p + 1) - 1 >=? od rank)) eqn:C2; lia.
        * destruct (L2 p ltac:(lia)) as [-> _]. reflexivity.
      + intros p Hp N. unfold ovl, ov. destruct (Z.lt_ge_cases p (Z.of_nat x)) as [Lx|Gx].
        * pose proof (FX p Hp). lia.
        * assert (G : Z.of_nat y <= p - 1) by lia. pose proof (FY (Z.of_nat y) ltac:(lia)) as Y.
          pose proof (nw_mono (Z.of_nat y + 1) p ltac:(lia)). lia.
      + intros q Hq. destruct (L1 q ltac:(lia)) as [_ ->].
        pose proof (FX q ltac:(lia)) as Q1.
        assert (Q2 : nw q <= od (rank + 1) - 1).
        { destruct (Z.eq_dec q 0) as [->|]; [cbn [Z.to_nat]; rewrite pre_0; lia|].
          pose proof (FY (q - 1) ltac:(lia)) as Q. replace (q - 1 + 1) with q in Q by lia. lia. }
        replace ((nw q <=? od (rank + 1) - 1) && (nw (q + 1) - 1 >=? od rank)) with true by lia.
        split; [discriminate|reflexivity].
  Qed.
End Plans.
