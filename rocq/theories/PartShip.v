(** * The number of quadrants shipped by p4est_partition_given *)

From Coq Require Import ZArith List Bool Lia Arith ZifyBool.
From Verif Require Import Quad Search Adapt ListLemmas Partition PartLemmas PartTrees PartRecv.
Import ListNotations.
Open Scope Z_scope.

(** the owner of every position of the global sequence *)
Fixpoint owners (s : Z) (c : list Z) : list Z :=
  match c with
  | [] => []
  | n :: c' => repeat s (Z.to_nat n) ++ owners (s + 1) c'
  end.
(** number of positions with different entries *)
Definition differ (l l' : list Z) : Z := zlen (filter (fun x => negb (fst x =? snd x)) (combine l l')).

(** the part that stays, process by process *)
Fixpoint stay (o n : Z) (co cn : list Z) : Z :=
  match co, cn with
  | c0 :: co', n0 :: cn' => ov o (o + c0) n (n + n0) + stay (o + c0) (n + n0) co' cn'
  | _, _ => 0
  end.

Definition total (c : list Z) : Z := pre c (length c).

Lemma shipped_cons n0 n1 l o0 os w0 ws : shipped (n0 :: n1 :: l) (o0 :: os) (w0 :: ws) =
  (if o0 - w0 >=? 0 then Z.min (o0 - w0) n1 else Z.min (- (o0 - w0)) n0) + shipped (n1 :: l) os ws.
Proof. reflexivity. Qed.

Lemma shipped_stay : forall co cn o n, Forall (Z.le 0) co -> Forall (Z.le 0) cn -> length co = length cn ->
  o + total co = n + total cn ->
  shipped cn (lasts (o - 1) co) (lasts (n - 1) cn) + Z.min (Z.max (o - n) 0) (hd 0 cn) = total cn - stay o n co cn.
Proof.
  unfold total. induction co as [|c0 co IH]; intros cn o n Ho Hn L E; destruct cn as [|n0 cn]; cbn [length] in L; try lia.
  - cbn. lia.
  - inversion Ho as [|? ? Hc0 Ho']; subst. inversion Hn as [|? ? Hn0 Hn']; subst.
    cbn [length pre] in E. cbn [lasts stay length pre hd].
    specialize (IH cn (o + c0) (n + n0) Ho' Hn' ltac:(lia) ltac:(lia)).
    destruct cn as [|n1 cn].
    + destruct co; [|cbn in L; lia]. cbn [shipped stay length pre] in *. unfold ov. lia.
    + rewrite shipped_cons. cbn [hd] in IH.
      replace (o - 1 + c0) with (o + c0 - 1) by lia. replace (n - 1 + n0) with (n + n0 - 1) by lia.
      set (sh := shipped (n1 :: cn) (lasts (o + c0 - 1) co) (lasts (n + n0 - 1) (n1 :: cn))) in *.
      set (st := stay (o + c0) (n + n0) co (n1 :: cn)) in *.
      assert (Hn1 : 0 <= n1) by (inversion Hn'; assumption).
      assert (PC : 0 <= pre co (length co)) by (apply pre_nonneg; assumption).
      assert (PN : 0 <= pre (n1 :: cn) (length (n1 :: cn))) by (apply pre_nonneg; assumption).
      unfold ov. clearbody sh st. destruct (o + c0 - 1 - (n + n0 - 1) >=? 0) eqn:Q; lia.
Qed.

Definition cnt_eq (j : Z) (l : list Z) : Z := zlen (filter (Z.eqb j) l).
Lemma cnt_eq_app j l l' : cnt_eq j (l ++ l') = cnt_eq j l + cnt_eq j l'.
Proof. unfold cnt_eq. rewrite filter_app, zlen_app. reflexivity. Qed.
Lemma cnt_eq_repeat j s n : cnt_eq j (repeat s n) = if j =? s then Z.of_nat n else 0.
Proof.
  induction n as [|n IH]; [cbn; destruct (j =? s); reflexivity|].
  change (repeat s (S n)) with ([s] ++ repeat s n). rewrite cnt_eq_app, IH. unfold cnt_eq. cbn [filter].
  destruct (j =? s); unfold zlen; cbn [length]; lia.
Qed.
Lemma sub_repeat {B} (x : B) n a b : sub a b (repeat x n) = repeat x (Nat.min b n - a)%nat.
Proof.
  unfold sub.
  assert (S1 : forall k n, skipn k (repeat x n) = repeat x (n - k)%nat).
  { induction k as [|k IH]; intros m; [replace (m - 0)%nat with m by lia; reflexivity|]. destruct m as [|m]; [reflexivity|]. cbn [repeat skipn]. apply IH. }
  assert (F1 : forall k n, firstn k (repeat x n) = repeat x (Nat.min k n)%nat).
  { induction k as [|k IH]; intros m; [reflexivity|]. destruct m as [|m]; [reflexivity|]. cbn [repeat firstn Nat.min]. f_equal. apply IH. }
  rewrite S1, F1. f_equal. lia.
Qed.

Lemma cnt_owners j : forall c s a b, Forall (Z.le 0) c -> s <= j -> (a <= b)%nat -> j < s + zlen c ->
  cnt_eq j (sub a b (owners s c)) = ov (pre c (Z.to_nat (j - s))) (pre c (S (Z.to_nat (j - s)))) (Z.of_nat a) (Z.of_nat b).
Proof.
  induction c as [|n c IH]; intros s a b H Hj Hab Hb; [unfold zlen in Hb; cbn in Hb; lia|].
  inversion H as [|? ? Hn Hc]; subst. cbn [owners]. rewrite sub_app, cnt_eq_app, sub_repeat, cnt_eq_repeat, repeat_length.
  assert (ZL : zlen (n :: c) = 1 + zlen c) by (unfold zlen; cbn [length]; lia).
  destruct (j =? s) eqn:Q.
  - replace (j - s) with 0 by lia. cbn [Z.to_nat pre]. rewrite pre_0.
    assert (Z0 : cnt_eq j (sub (a - Z.to_nat n) (b - Z.to_nat n) (owners (s + 1) c)) = 0).
    { assert (N : forall c s, s > j -> forall x, In x (owners s c) -> x <> j).
      { clear. induction c as [|m c IH]; intros s G x Hx; [destruct Hx|]. cbn [owners] in Hx. apply in_app_or in Hx. destruct Hx as [Hx|Hx].
        - apply repeat_spec in Hx. lia.
        - apply IH in Hx; [exact Hx|lia]. }
      unfold cnt_eq. destruct (filter (Z.eqb j) (sub (a - Z.to_nat n) (b - Z.to_nat n) (owners (s + 1) c))) as [|x f] eqn:EF; [reflexivity|].
      exfalso. assert (I : In x (filter (Z.eqb j) (sub (a - Z.to_nat n) (b - Z.to_nat n) (owners (s + 1) c)))) by (rewrite EF; left; reflexivity).
      apply filter_In in I. destruct I as [I1 I2]. apply in_sub in I1. apply N in I1; lia. }
    rewrite Z0. unfold ov. lia.
  - rewrite IH; [|exact Hc|lia|lia|lia]. replace (Z.to_nat (j - s)) with (S (Z.to_nat (j - (s + 1)))) by lia. cbn [pre].
    pose proof (pre_nonneg c Hc (Z.to_nat (j - (s + 1)))). pose proof (pre_nonneg c Hc (S (Z.to_nat (j - (s + 1))))).
    set (x := pre c (Z.to_nat (j - (s + 1)))) in *.
    change (match c with [] => 0 | n0 :: c' => n0 + pre c' (Z.to_nat (j - (s + 1))) end) with (pre c (S (Z.to_nat (j - (s + 1))))) in *.
    set (y := pre c (S (Z.to_nat (j - (s + 1))))) in *. clearbody x y. unfold ov. lia.
Qed.

Lemma differ_cons l s n rest : (Z.to_nat n <= length l)%nat -> 0 <= n ->
  differ l (repeat s (Z.to_nat n) ++ rest) = n - cnt_eq s (firstn (Z.to_nat n) l) + differ (skipn (Z.to_nat n) l) rest.
Proof.
  intros H Hn. rewrite <- (Z2Nat.id n) at 2 by exact Hn. revert l H. induction (Z.to_nat n) as [|k IH]; intros l H.
  - cbn [repeat app firstn skipn]. unfold cnt_eq, zlen. cbn. lia.
  - destruct l as [|x l]; [cbn in H; lia|]. cbn [repeat app firstn skipn length] in *.
    specialize (IH l ltac:(lia)). unfold differ in *. cbn [combine filter fst snd].
    unfold cnt_eq in *. cbn [filter]. destruct (x =? s) eqn:Q.
    + replace (s =? x) with true by lia. cbn [negb]. unfold zlen in *. cbn [length]. lia.
    + replace (s =? x) with false by lia. cbn [negb]. unfold zlen in *. cbn [length]. lia.
Qed.

Lemma owners_length c : forall s, Forall (Z.le 0) c -> zlen (owners s c) = total c.
Proof.
  unfold total. induction c as [|n c IH]; intros s H; [reflexivity|]. inversion H; subst. cbn [owners length pre].
  rewrite zlen_app, IH by assumption. unfold zlen. rewrite repeat_length. lia.
Qed.

Lemma skipn_add {B} (l : list B) : forall m n, skipn n (skipn m l) = skipn (n + m) l.
Proof.
  intros m. revert l. induction m as [|m IH]; intros l n; [rewrite Nat.add_0_r; reflexivity|].
  destruct l as [|x l]; [rewrite !skipn_nil; reflexivity|]. rewrite Nat.add_succ_r. cbn [skipn]. apply IH.
Qed.

Lemma stay_differ (co0 cn0 : list Z) : Forall (Z.le 0) co0 -> Forall (Z.le 0) cn0 -> length co0 = length cn0 ->
  total co0 = total cn0 ->
  forall cn co k, co = skipn k co0 -> cn = skipn k cn0 -> (k <= length co0)%nat ->
  differ (skipn (Z.to_nat (pre cn0 k)) (owners 0 co0)) (owners (Z.of_nat k) cn) = total cn - stay (pre co0 k) (pre cn0 k) co cn.
Proof.
  intros Hco Hcn L E. induction cn as [|n cn IH]; intros co k Eco Ecn Hk.
  - cbn [owners]. unfold differ. rewrite combine_nil. cbn [filter]. destruct co; reflexivity.
  - assert (Nn : nth_error cn0 k = Some n).
    { clear - Ecn. revert cn0 Ecn. induction k as [|k IH]; intros [|x l] H; cbn [skipn] in H; try discriminate;
        cbn [nth_error]; [congruence|apply IH; exact H]. }
    assert (Lk : (k < length cn0)%nat) by (apply nth_error_Some; congruence).
    destruct co as [|c co].
    { exfalso. assert (length (skipn k co0) = 0%nat) by (rewrite <- Eco; reflexivity). rewrite skipn_length in H. lia. }
    assert (Nc : nth_error co0 k = Some c).
    { clear - Eco. revert co0 Eco. induction k as [|k IH]; intros [|x l] H; cbn [skipn] in H; try discriminate;
        cbn [nth_error]; [congruence|apply IH; exact H]. }
    assert (Ecn' : cn = skipn (S k) cn0) by (rewrite (skipn_cons cn0 k n Nn) in Ecn; congruence).
    assert (Eco' : co = skipn (S k) co0) by (rewrite (skipn_cons co0 k c Nc) in Eco; congruence).
    specialize (IH co (S k) Eco' Ecn' ltac:(lia)).
    assert (Hn : 0 <= n) by (rewrite Forall_forall in Hcn; apply Hcn; eapply nth_error_In; exact Nn).
    pose proof (pre_S cn0 k n Nn) as Pn. pose proof (pre_S co0 k c Nc) as Pc.
    pose proof (pre_nonneg cn0 Hcn k) as P0.
    assert (LE : pre cn0 (S k) <= total cn0) by (apply pre_mono; [exact Hcn|lia]).
    cbn [owners]. rewrite differ_cons; [|rewrite skipn_length; pose proof (owners_length co0 0 Hco) as OL; unfold zlen in OL; lia|exact Hn].
    assert (SK : skipn (Z.to_nat n) (skipn (Z.to_nat (pre cn0 k)) (owners 0 co0)) = skipn (Z.to_nat (pre cn0 (S k))) (owners 0 co0)).
    { rewrite Pn. replace (Z.to_nat (pre cn0 k + n)) with (Z.to_nat n + Z.to_nat (pre cn0 k))%nat by lia. apply skipn_add. }
    rewrite SK. replace (Z.of_nat k + 1) with (Z.of_nat (S k)) by lia. rewrite IH.
    assert (CE : cnt_eq (Z.of_nat k) (firstn (Z.to_nat n) (skipn (Z.to_nat (pre cn0 k)) (owners 0 co0))) =
                 ov (pre co0 k) (pre co0 (S k)) (pre cn0 k) (pre cn0 (S k))).
    { pose proof (cnt_owners (Z.of_nat k) co0 0 (Z.to_nat (pre cn0 k)) (Z.to_nat (pre cn0 (S k))) Hco ltac:(lia) ltac:(lia)) as CO.
      unfold sub in CO. replace (Z.to_nat (pre cn0 (S k)) - Z.to_nat (pre cn0 k))%nat with (Z.to_nat n) in CO by lia.
      rewrite CO by (unfold zlen; lia). replace (Z.to_nat (Z.of_nat k - 0)) with k by lia. rewrite !Z2Nat.id by lia. reflexivity. }
    rewrite CE. unfold total. cbn [stay length pre]. rewrite Pn, Pc. fold (total cn). lia.
Qed.

(** the returned number is the number of positions with a new owner *)
Lemma shipped_spec co cn : Forall (Z.le 0) co -> Forall (Z.le 0) cn -> length co = length cn -> total co = total cn ->
  shipped cn (lasts (-1) co) (lasts (-1) cn) = differ (owners 0 co) (owners 0 cn).
Proof.
  intros H1 H2 L E. pose proof (shipped_stay co cn 0 0 H1 H2 L ltac:(lia)) as S1. change (0 - 1) with (-1) in S1.
  pose proof (stay_differ co cn H1 H2 L E cn co 0%nat eq_refl eq_refl ltac:(lia)) as S2. rewrite !pre_0 in S2. cbn [Z.to_nat skipn] in S2.
  change (Z.of_nat 0) with 0 in S2. rewrite S2. rewrite <- S1.
  assert (0 <= hd 0 cn) by (destruct H2; cbn; lia). lia.
Qed.
