(** * Properties of the data transfer: C20 and the transfer part of C19 *)

From Coq Require Import ZArith List Bool Lia Arith ZifyBool Sorting.Sorted.
From Verif Require Import Search Adapt ListLemmas Partition PartLemmas PartTrees PartShip Comm CommLemmas Transfer TransferLemmas.
Import ListNotations.
Open Scope Z_scope.

(** global_first_quadrant of a partition of N elements over P ranks *)
Definition gfq_ok (gl : list Z) (P N : Z) : Prop :=
  1 <= P /\ zlen gl = P + 1 /\ zget gl 0 = Some 0 /\ zget gl P = Some N /\ Sorted Z.le gl.

Definition fn (gl : list Z) (i : Z) : Z := match zget gl i with Some v => v | None => 0 end.

Lemma gfq_fn gl P N : gfq_ok gl P N ->
  (forall i, 0 <= i <= P -> zget gl i = Some (fn gl i)) /\ (forall i, 0 <= i < P -> fn gl i <= fn gl (i + 1)) /\ fn gl 0 = 0 /\ fn gl P = N.
Proof.
  intros (HP & HL & H0 & HN & HS). assert (G : forall i, 0 <= i <= P -> zget gl i = Some (fn gl i)).
  { intros i Hi. unfold fn. destruct (zget gl i) eqn:E; [reflexivity|]. rewrite zget_nth in E by lia. apply nth_error_None in E. unfold zlen in HL. lia. }
  split; [exact G|]. split; [|split; [unfold fn; rewrite H0; reflexivity|unfold fn; rewrite HN; reflexivity]].
  intros i Hi. pose proof (G i ltac:(lia)) as G1. pose proof (G (i + 1) ltac:(lia)) as G2. rewrite zget_nth in G1, G2 by lia.
  replace (Z.to_nat (i + 1)) with (S (Z.to_nat i)) in G2 by lia. clear - HS G1 G2.
  revert G1 G2. generalize (fn gl i) (fn gl (i + 1)) (Z.to_nat i). induction gl as [|h l IH]; intros a b n G1 G2; [destruct n; discriminate|].
  inversion HS as [|? ? HS' HR]; subst. destruct n as [|n].
  - cbn [nth_error] in *. destruct l as [|h' l]; [discriminate|]. inversion HR; subst. cbn [nth_error] in G2. congruence.
  - cbn [nth_error] in G1. change (nth_error (h :: l) (S (S n))) with (nth_error l (S n)) in G2. apply (IH HS' a b n G1 G2).
Qed.

Section Core.
  Context {B : Type}.
  Variables (items : list (list B)) (P N : Z).
  Local Notation Bt := (Bt items).

  (** messages of rank i whose elements are those of the partition m, to the ranks of the partition o *)
  Definition planned (m o : Z -> Z) (i : Z) (ms : list (Z * Z * Z)) : Prop :=
    exists f n, 0 <= f /\ f + Z.of_nat n <= P /\
      ms = smsgs items (Bt (m i)) (map (win o (m i) (m (i + 1))) (zs f n)) /\
      chainw (m i) (map (win o (m i) (m (i + 1))) (zs f n)) (m (i + 1)) /\
      (forall q, 0 <= q < P -> Z.max (m i) (o q) < Z.min (m (i + 1)) (o (q + 1)) -> f <= q < f + Z.of_nat n).

  Lemma chain_in : forall w a c q g g', chainw a w c -> In (q, g, g') w -> a <= g <= g'.
  Proof.
    induction w as [|[[q0 g0] g0'] w IH]; intros a c q g g' HC HI; [destruct HI|]. cbn [chainw] in HC. destruct HC as (-> & H1 & H2).
    destruct HI as [E|HI]; [injection E as <- <- <-; lia|]. specialize (IH _ _ _ _ _ H2 HI). lia.
  Qed.

  Lemma planned_in m o i ms j off len : 0 <= m i -> planned m o i ms ->
    In (j, off, len) ms <-> 0 <= j < P /\ Bt (Z.max (m i) (o j)) < Bt (Z.min (m (i + 1)) (o (j + 1))) /\
      off = Bt (Z.max (m i) (o j)) - Bt (m i) /\ len = Bt (Z.min (m (i + 1)) (o (j + 1))) - Bt (Z.max (m i) (o j)).
  Proof.
    intros Hm (f & n & H1 & H2 & -> & H4 & H5). unfold smsgs. rewrite in_flat_map. split.
    - intros ([[q g] g'] & HI & HX). pose proof HI as HI'. apply in_map_iff in HI. destruct HI as (q0 & E & HQ). unfold win in E. injection E as -> <- <-.
      apply in_zs in HQ. destruct (Bt (Z.min (m (i + 1)) (o (q + 1))) =? Bt (Z.max (m i) (o q))) eqn:C; [destruct HX|].
      destruct HX as [HX|[]]. injection HX as -> <- <-. split; [lia|].
      pose proof (chain_in _ _ _ _ _ _ H4 HI') as L. pose proof (Bt_mono items (Z.max (m i) (o j)) (Z.min (m (i + 1)) (o (j + 1))) ltac:(lia)).
      split; [lia|]. split; reflexivity.
    - intros (Hj & HB & -> & ->). exists (win o (m i) (m (i + 1)) j). split.
      + apply in_map. apply in_zs. apply H5; [exact Hj|]. destruct (Z.lt_ge_cases (Z.max (m i) (o j)) (Z.min (m (i + 1)) (o (j + 1)))) as [G|G]; [exact G|].
        exfalso. destruct (Z.le_gt_cases 0 (Z.min (m (i + 1)) (o (j + 1)))) as [G2|G2].
        * pose proof (Bt_mono items (Z.min (m (i + 1)) (o (j + 1))) (Z.max (m i) (o j)) ltac:(lia)). lia.
        * assert (E0 : Bt (Z.min (m (i + 1)) (o (j + 1))) = 0) by (unfold TransferLemmas.Bt; replace (Z.to_nat (Z.min (m (i + 1)) (o (j + 1)))) with 0%nat by lia; reflexivity).
          rewrite E0 in HB. unfold TransferLemmas.Bt, zlen in HB. lia.
      + unfold win. replace (Bt (Z.min (m (i + 1)) (o (j + 1))) =? Bt (Z.max (m i) (o j))) with false by lia. left. reflexivity.
  Qed.

  Lemma planned_nodup m o i ms : planned m o i ms -> NoDup (map (fun x => fst (fst x)) ms).
  Proof.
    intros (f & n & _ & _ & -> & _). generalize (Bt (m i)) as base. intros base. revert f. induction n as [|n IH]; intros f; [constructor|].
    cbn [zs map smsgs flat_map]. unfold win at 1. rewrite map_app. fold (smsgs items base (map (win o (m i) (m (i + 1))) (zs (f + 1) n))).
    destruct (Bt (Z.min (m (i + 1)) (o (f + 1))) =? Bt (Z.max (m i) (o f))); cbn [map app fst]; [apply IH|].
    constructor; [|apply IH]. intros HI. apply in_map_iff in HI. destruct HI as ([[q a] b] & E & HI). cbn [fst] in E. subst q.
    unfold smsgs in HI. apply in_flat_map in HI. destruct HI as ([[q g] g'] & HI & HX). apply in_map_iff in HI. destruct HI as (q0 & E & HQ).
    unfold win in E. injection E as -> <- <-. apply in_zs in HQ. destruct (Bt (Z.min (m (i + 1)) (o (q + 1))) =? Bt (Z.max (m i) (o q))); [destruct HX|].
    destruct HX as [HX|[]]. injection HX as -> _ _. lia.
  Qed.

  (** writes of one rank do not overlap and stay inside its elements *)
  Lemma planned_disjoint m o i ms : 0 <= m i -> planned m o i ms ->
    StronglySorted (fun x y => snd (fst x) + snd x <= snd (fst y)) ms /\
    Forall (fun x => 0 <= snd (fst x) /\ 0 < snd x /\ snd (fst x) + snd x <= Bt (m (i + 1)) - Bt (m i)) ms.
  Proof.
    intros Hm (f & n & _ & _ & -> & H4 & _).
    assert (G : forall w a c, m i <= a -> chainw a w c ->
      StronglySorted (fun x y => snd (fst x) + snd x <= snd (fst y)) (smsgs items (Bt (m i)) w) /\
      Forall (fun x => Bt a - Bt (m i) <= snd (fst x) /\ 0 < snd x /\ snd (fst x) + snd x <= Bt c - Bt (m i)) (smsgs items (Bt (m i)) w)).
    { induction w as [|[[q g] g'] w IH]; intros a c Ha HC; [split; constructor|]. cbn [chainw] in HC. destruct HC as (-> & H1 & H2).
      destruct (IH g' c ltac:(lia) H2) as [I1 I2]. pose proof (chainw_le _ _ _ H2) as L.
      pose proof (Bt_mono items a g' ltac:(lia)) as M1. pose proof (Bt_mono items g' c ltac:(lia)) as M2.
      cbn [smsgs flat_map]. fold (smsgs items (Bt (m i)) w). destruct (Bt g' =? Bt a) eqn:C; cbn [app].
      - split; [exact I1|]. eapply Forall_impl; [|exact I2]. intros x. cbn beta. lia.
      - split.
        + constructor; [exact I1|]. eapply Forall_impl; [|exact I2]. intros x. cbn [fst snd]. lia.
        + constructor; [cbn [fst snd]; lia|]. eapply Forall_impl; [|exact I2]. intros x. cbn beta. lia. }
    destruct (G _ _ _ (Z.le_refl _) H4) as [G1 G2]. split; [exact G1|]. eapply Forall_impl; [|exact G2]. intros x. cbn beta. lia.
  Qed.

  Lemma nodup_find r l : forall off len, NoDup (map (fun x => fst (fst x)) l) -> In (r, off, len) l -> find_msg r l = Some (off, len).
  Proof.
    induction l as [|[[q a] b] l IH]; intros off len HN HI; [destruct HI|]. cbn [map fst] in HN. inversion HN as [|? ? N1 N2]; subst.
    cbn [find_msg]. destruct HI as [E|HI].
    - injection E as -> -> ->. rewrite Z.eqb_refl. reflexivity.
    - destruct (q =? r) eqn:C; [|apply IH; assumption]. exfalso. apply N1. replace q with r by lia.
      apply in_map_iff. exists (r, off, len). auto.
  Qed.

  Lemma planned_deliver d s r rm sends src dest : 0 <= r < P ->
    (forall q, 0 <= q <= P -> 0 <= s q) -> (forall q, 0 <= q <= P -> 0 <= d q) -> (forall q, 0 <= q < P -> s q <= s (q + 1)) ->
    planned d s r rm -> (forall q, 0 <= q < P -> exists ms, sends q = Some ms /\ planned s d q ms) ->
    (forall q, 0 <= q < P -> exists extra, src q = bytes items (s q) (s (q + 1)) ++ extra) ->
    Bt (d (r + 1)) - Bt (d r) <= zlen dest ->
    deliver r sends src rm dest = Some (bytes items (d r) (d (r + 1)) ++ skipn (Z.to_nat (Bt (d (r + 1)) - Bt (d r))) dest).
  Proof.
    intros Hr Hs Hd Hms (f & n & H1 & H2 & -> & H4 & H5) HS Hsrc HL.
    assert (E0 : dest = bytes items (d r) (d r) ++ dest) by (unfold bytes; rewrite sub_empty by lia; reflexivity).
    rewrite E0 at 1. apply deliver_spec; [apply Hd; lia|lia|exact H4|exact HL|].
    intros q g g' HI HB. pose proof (chain_in _ _ _ _ _ _ H4 HI) as L. apply in_map_iff in HI. destruct HI as (q0 & E & HQ).
    unfold win in E. injection E as -> <- <-. apply in_zs in HQ.
    destruct (HS q ltac:(lia)) as (ss & E1 & E2). exists ss, (Bt (Z.max (d r) (s q)) - Bt (s q)). split; [exact E1|].
    replace (Z.max (s q) (d r)) with (Z.max (d r) (s q)) in * by lia. split.
    - apply nodup_find; [eapply planned_nodup; exact E2|]. apply (planned_in s d q ss); [apply Hs; lia|exact E2|].
      replace (Z.max (s q) (d r)) with (Z.max (d r) (s q)) by lia. replace (Z.min (s (q + 1)) (d (r + 1))) with (Z.min (d (r + 1)) (s (q + 1))) by lia.
      split; [lia|]. split; [exact HB|]. split; reflexivity.
    - destruct (Hsrc q ltac:(lia)) as (extra & ->). set (lo := Z.max (d r) (s q)) in *. set (hi := Z.min (d (r + 1)) (s (q + 1))) in *.
      pose proof (Hs q ltac:(lia)) as S0. pose proof (Hd r ltac:(lia)) as D0. pose proof (Hms q ltac:(lia)) as S1.
      assert (Llo : s q <= lo) by lia. assert (Lhi : hi <= s (q + 1)) by lia.
      rewrite <- (bytes_join items (s q) lo (s (q + 1))) by lia. rewrite <- (bytes_join items lo hi (s (q + 1))) by lia.
      assert (Z1 : zlen (bytes items (s q) lo) = Bt lo - Bt (s q)) by (apply bytes_len; lia).
      assert (Z2 : zlen (bytes items lo hi) = Bt hi - Bt lo) by (apply bytes_len; lia).
      rewrite slice_sub; [| |lia|]; [|unfold zlen in Z1; lia|unfold zlen in *; rewrite !app_length; lia].
      f_equal. unfold sub. rewrite <- !app_assoc. replace (Z.to_nat (Bt lo - Bt (s q))) with (length (bytes items (s q) lo)) by (unfold zlen in Z1; lia).
      rewrite skipn_app, skipn_all, Nat.sub_diag. cbn [app skipn].
      replace (Z.to_nat (Bt lo - Bt (s q) + (Bt hi - Bt lo)) - length (bytes items (s q) lo))%nat with (length (bytes items lo hi)) by (unfold zlen in *; lia).
      rewrite firstn_app_le by lia. apply firstn_all.
  Qed.

  Lemma fixed_planned ml ol ds r : gfq_ok ml P N -> gfq_ok ol P N -> 0 < ds -> zlen items = N -> Forall (fun x => zlen x = ds) items -> 0 <= r < P ->
    exists ms, fixed_msgs ml ol P ds r = Some ms /\ planned (fn ml) (fn ol) r ms.
  Proof.
    intros Hml Hol Hds HN HI Hr. destruct (gfq_fn ml P N Hml) as (M1 & M2 & M3 & M4). destruct (gfq_fn ol P N Hol) as (O1 & O2 & O3 & O4).
    pose proof (g_mono P (fn ml) M2 0 r ltac:(lia) ltac:(lia) ltac:(lia)) as L1. pose proof (g_mono P (fn ml) M2 (r + 1) P ltac:(lia) ltac:(lia) ltac:(lia)) as L2.
    destruct (peers_spec ol P (fn ol) O1 O2 O3 (fn ml r) (fn ml (r + 1)) ltac:(lia) (M2 r Hr) ltac:(lia) ltac:(lia)) as (f & n & F1 & F2 & F3 & F4 & F5).
    unfold fixed_msgs. rewrite !M1, F3 by lia. cbn [option_map]. eexists. split; [reflexivity|].
    exists f, n. split; [exact F1|]. split; [exact F2|]. split; [|split; [exact F4|exact F5]].
    rewrite <- (msgs_fixed_spec items ds (Bt (fn ml r)) Hds _ (fn ml r) (fn ml (r + 1)) ltac:(lia) F4); [f_equal; lia|].
    intros x Hx. unfold TransferLemmas.Bt. assert (G : forall k l, Forall (fun x : list B => zlen x = ds) l -> (k <= length l)%nat -> zlen (concat (firstn k l)) = Z.of_nat k * ds).
    { clear. induction k as [|k IH]; intros l H L; [reflexivity|]. destruct l as [|h l]; [cbn [length] in L; lia|]. inversion H; subst. cbn [firstn concat].
      specialize (IH l ltac:(assumption) ltac:(cbn [length] in L; lia)). unfold zlen in *. rewrite app_length. lia. }
    rewrite G; [rewrite Z2Nat.id by lia; reflexivity|exact HI|unfold zlen in HN; lia].
  Qed.

  (** element sizes: [counts] gives the number of items of each element *)
  Lemma var_planned ml ol item counts sizes extra r : gfq_ok ml P N -> gfq_ok ol P N -> zlen items = N -> map (fun x => zlen x) items = map (Z.mul item) counts -> 0 <= r < P ->
    sizes = sub (Z.to_nat (fn ml r)) (Z.to_nat (fn ml (r + 1))) counts ++ extra ->
    exists ms, var_msgs ml ol P item sizes r = Some ms /\ planned (fn ml) (fn ol) r ms.
  Proof.
    intros Hml Hol HN HI Hr ->. destruct (gfq_fn ml P N Hml) as (M1 & M2 & M3 & M4). destruct (gfq_fn ol P N Hol) as (O1 & O2 & O3 & O4).
    pose proof (g_mono P (fn ml) M2 0 r ltac:(lia) ltac:(lia) ltac:(lia)) as L1. pose proof (g_mono P (fn ml) M2 (r + 1) P ltac:(lia) ltac:(lia) ltac:(lia)) as L2.
    destruct (peers_spec ol P (fn ol) O1 O2 O3 (fn ml r) (fn ml (r + 1)) ltac:(lia) (M2 r Hr) ltac:(lia) ltac:(lia)) as (f & n & F1 & F2 & F3 & F4 & F5).
    assert (LC : zlen counts = N).
    { assert (E : length (map (fun x : list B => zlen x) items) = length (map (Z.mul item) counts)) by (rewrite HI; reflexivity). rewrite !map_length in E. unfold zlen in *. lia. }
    unfold var_msgs. rewrite !M1, F3 by lia. exists (smsgs items (Bt (fn ml r)) (map (win (fn ol) (fn ml r) (fn ml (r + 1))) (zs f n))). split.
    - replace 0 with (Bt (fn ml r) - Bt (fn ml r)) by lia. apply msgs_var_spec; [|lia|lia|exact F4].
      intros x y Hxy Hy. rewrite <- sub_map, <- HI, sub_map. rewrite <- bytes_len by lia. unfold bytes.
      induction (sub (Z.to_nat x) (Z.to_nat y) items) as [|h l IH]; [reflexivity|]. cbn [concat map sumz fold_right]. fold (sumz (map (fun x : list B => zlen x) l)).
      rewrite <- IH. unfold zlen. rewrite app_length. lia.
    - exists f, n. auto.
  Qed.
End Core.

(** C19: rank i sends a message to rank j exactly if rank j waits for one from
    rank i, both with the same length, and at most one.  For i = j this is the
    local copy. *)
Theorem C19_transfer_fixed (dest_gfq src_gfq : list Z) (P N ds i j : Z) :
  gfq_ok dest_gfq P N -> gfq_ok src_gfq P N -> 0 < ds -> 0 <= i < P -> 0 <= j < P ->
  exists si rj, fixed_sends dest_gfq src_gfq P ds i = Some si /\ fixed_recvs dest_gfq src_gfq P ds j = Some rj /\
    NoDup (map (fun x => fst (fst x)) si) /\ NoDup (map (fun x => fst (fst x)) rj) /\
    forall len,
    ((exists off, In (j, off, len) si) <-> (exists off, In (i, off, len) rj)) /\
    ((exists off, In (j, off, len) si) <->
     0 < len /\ exists a b c e, zget src_gfq i = Some a /\ zget src_gfq (i + 1) = Some b /\ zget dest_gfq j = Some c /\ zget dest_gfq (j + 1) = Some e /\
       len = ds * Z.max 0 (Z.min b e - Z.max a c)).
Proof.
  intros Hd Hs Hds Hi Hj.
  destruct (gfq_fn dest_gfq P N Hd) as (D1 & D2 & D3 & D4). destruct (gfq_fn src_gfq P N Hs) as (S1 & S2 & S3 & S4).
  assert (N0 : 0 <= N) by (pose proof (g_mono P (fn dest_gfq) D2 0 P ltac:(lia) ltac:(lia) ltac:(lia)); lia).
  pose (items := repeat (repeat tt (Z.to_nat ds)) (Z.to_nat N)).
  assert (IL : zlen items = N) by (unfold items, zlen; rewrite repeat_length; lia).
  assert (IF : Forall (fun x => zlen x = ds) items).
  { apply Forall_forall. intros x Hx. apply repeat_spec in Hx. subst x. unfold zlen. rewrite repeat_length. lia. }
  destruct (fixed_planned items P N src_gfq dest_gfq ds i Hs Hd Hds IL IF Hi) as (si & E1 & E2).
  destruct (fixed_planned items P N dest_gfq src_gfq ds j Hd Hs Hds IL IF Hj) as (rj & E3 & E4).
  exists si, rj. split; [exact E1|]. split; [exact E3|]. split; [eapply planned_nodup; exact E2|]. split; [eapply planned_nodup; exact E4|].
  pose proof (g_mono P _ S2 0 i ltac:(lia) ltac:(lia) ltac:(lia)) as Q1. pose proof (g_mono P _ D2 0 j ltac:(lia) ltac:(lia) ltac:(lia)) as Q2.
  pose proof (g_mono P _ S2 (i + 1) P ltac:(lia) ltac:(lia) ltac:(lia)) as Q3. pose proof (g_mono P _ D2 (j + 1) P ltac:(lia) ltac:(lia) ltac:(lia)) as Q4.
  pose proof (S2 i Hi) as Q5. pose proof (D2 j Hj) as Q6.
  intros len. pose proof (fun off => planned_in items P (fn src_gfq) (fn dest_gfq) i si j off len ltac:(lia) E2) as I1.
  pose proof (fun off => planned_in items P (fn dest_gfq) (fn src_gfq) j rj i off len ltac:(lia) E4) as I2.
  replace (Z.max (fn dest_gfq j) (fn src_gfq i)) with (Z.max (fn src_gfq i) (fn dest_gfq j)) in I2 by lia.
  replace (Z.min (fn dest_gfq (j + 1)) (fn src_gfq (i + 1))) with (Z.min (fn src_gfq (i + 1)) (fn dest_gfq (j + 1))) in I2 by lia.
  set (lo := Z.max (fn src_gfq i) (fn dest_gfq j)) in *. set (hi := Z.min (fn src_gfq (i + 1)) (fn dest_gfq (j + 1))) in *.
  assert (BT : forall x, 0 <= x <= N -> TransferLemmas.Bt items x = x * ds).
  { intros x Hx. unfold TransferLemmas.Bt, items.
    assert (G : forall k n, (k <= n)%nat -> zlen (concat (firstn k (repeat (repeat tt (Z.to_nat ds)) n))) = Z.of_nat k * ds).
    { clear - Hds. induction k as [|k IH]; intros n L; [reflexivity|]. destruct n as [|n]; [lia|]. cbn [repeat firstn concat]. unfold zlen in *. rewrite app_length, repeat_length.
      specialize (IH n ltac:(lia)). lia. }
    rewrite G by lia. lia. }
  assert (Hlo : 0 <= lo <= N) by lia. assert (Hhi : 0 <= hi <= N) by lia.
  rewrite (BT lo Hlo), (BT hi Hhi) in I1, I2. split; [split|split].
  - intros (off & HI). apply I1 in HI. destruct HI as (_ & X2 & _ & X4). eexists. apply I2. split; [lia|]. split; [exact X2|]. split; [reflexivity|exact X4].
  - intros (off & HI). apply I2 in HI. destruct HI as (_ & X2 & _ & X4). eexists. apply I1. split; [lia|]. split; [exact X2|]. split; [reflexivity|exact X4].
  - intros (off & HI). apply I1 in HI. destruct HI as (_ & X2 & _ & X4). split; [lia|].
    exists (fn src_gfq i), (fn src_gfq (i + 1)), (fn dest_gfq j), (fn dest_gfq (j + 1)). rewrite !S1, !D1 by lia. repeat (split; [reflexivity|]).
    fold lo hi. assert (lo < hi) by (apply (Z.mul_lt_mono_pos_r ds); lia). rewrite Z.max_r by lia. lia.
  - intros (L0 & a & b & c & e & G1 & G2 & G3 & G4 & ->). rewrite S1 in G1, G2 by lia. rewrite D1 in G3, G4 by lia.
    injection G1 as <-. injection G2 as <-. injection G3 as <-. injection G4 as <-. fold lo hi in L0 |- *.
    assert (lo < hi). { destruct (Z.lt_ge_cases lo hi) as [G|G]; [exact G|]. rewrite Z.max_l in L0 by lia. lia. }
    eexists. apply I1. split; [lia|]. split; [apply Z.mul_lt_mono_pos_r; lia|]. split; [reflexivity|]. rewrite Z.max_r by lia. lia.
Qed.

(** elements of variable size: [counts] gives for each global element the number
    of its items; each rank has the counts of its own elements *)
Theorem C19_transfer_items (dest_gfq src_gfq : list Z) (P N item : Z) (counts : list Z) (dest_sizes src_sizes : Z -> list Z) (i j : Z) :
  gfq_ok dest_gfq P N -> gfq_ok src_gfq P N -> 0 < item -> zlen counts = N -> Forall (Z.le 0) counts ->
  (forall q a b, zget dest_gfq q = Some a -> zget dest_gfq (q + 1) = Some b -> exists extra, dest_sizes q = sub (Z.to_nat a) (Z.to_nat b) counts ++ extra) ->
  (forall q a b, zget src_gfq q = Some a -> zget src_gfq (q + 1) = Some b -> exists extra, src_sizes q = sub (Z.to_nat a) (Z.to_nat b) counts ++ extra) ->
  0 <= i < P -> 0 <= j < P ->
  exists si rj, var_msgs src_gfq dest_gfq P item (src_sizes i) i = Some si /\ var_msgs dest_gfq src_gfq P item (dest_sizes j) j = Some rj /\
    NoDup (map (fun x => fst (fst x)) si) /\ NoDup (map (fun x => fst (fst x)) rj) /\
    forall len,
    ((exists off, In (j, off, len) si) <-> (exists off, In (i, off, len) rj)) /\
    ((exists off, In (j, off, len) si) <->
     0 < len /\ exists a b c e, zget src_gfq i = Some a /\ zget src_gfq (i + 1) = Some b /\ zget dest_gfq j = Some c /\ zget dest_gfq (j + 1) = Some e /\
       len = item * sumz (sub (Z.to_nat (Z.max a c)) (Z.to_nat (Z.min b e)) counts)).
Proof.
  intros Hd Hs Hds HL HC Hdz Hsz Hi Hj.
  destruct (gfq_fn dest_gfq P N Hd) as (D1 & D2 & D3 & D4). destruct (gfq_fn src_gfq P N Hs) as (S1 & S2 & S3 & S4).
  pose (items := map (fun c => repeat tt (Z.to_nat (item * c))) counts).
  assert (IL : zlen items = N) by (unfold items, zlen in *; rewrite map_length; lia).
  assert (IF : map (fun x => zlen x) items = map (Z.mul item) counts).
  { unfold items. rewrite map_map. apply map_ext_in. intros c Hc. rewrite Forall_forall in HC. specialize (HC c Hc). unfold zlen. rewrite repeat_length.
    assert (0 <= item * c) by (apply Z.mul_nonneg_nonneg; lia). lia. }
  destruct (Hsz i _ _ (S1 i ltac:(lia)) (S1 (i + 1) ltac:(lia))) as (ex1 & X1). destruct (Hdz j _ _ (D1 j ltac:(lia)) (D1 (j + 1) ltac:(lia))) as (ex2 & X2).
  destruct (var_planned items P N src_gfq dest_gfq item counts _ ex1 i Hs Hd IL IF Hi X1) as (si & E1 & E2).
  destruct (var_planned items P N dest_gfq src_gfq item counts _ ex2 j Hd Hs IL IF Hj X2) as (rj & E3 & E4).
  exists si, rj. split; [exact E1|]. split; [exact E3|]. split; [eapply planned_nodup; exact E2|]. split; [eapply planned_nodup; exact E4|].
  pose proof (g_mono P _ S2 0 i ltac:(lia) ltac:(lia) ltac:(lia)) as Q1. pose proof (g_mono P _ D2 0 j ltac:(lia) ltac:(lia) ltac:(lia)) as Q2.
  pose proof (g_mono P _ S2 (i + 1) P ltac:(lia) ltac:(lia) ltac:(lia)) as Q3. pose proof (g_mono P _ D2 (j + 1) P ltac:(lia) ltac:(lia) ltac:(lia)) as Q4.
  pose proof (S2 i Hi) as Q5. pose proof (D2 j Hj) as Q6.
  intros len. pose proof (fun off => planned_in items P (fn src_gfq) (fn dest_gfq) i si j off len ltac:(lia) E2) as I1.
  pose proof (fun off => planned_in items P (fn dest_gfq) (fn src_gfq) j rj i off len ltac:(lia) E4) as I2.
  replace (Z.max (fn dest_gfq j) (fn src_gfq i)) with (Z.max (fn src_gfq i) (fn dest_gfq j)) in I2 by lia.
  replace (Z.min (fn dest_gfq (j + 1)) (fn src_gfq (i + 1))) with (Z.min (fn src_gfq (i + 1)) (fn dest_gfq (j + 1))) in I2 by lia.
  set (lo := Z.max (fn src_gfq i) (fn dest_gfq j)) in *. set (hi := Z.min (fn src_gfq (i + 1)) (fn dest_gfq (j + 1))) in *.
  assert (SUM : lo <= hi -> TransferLemmas.Bt items hi - TransferLemmas.Bt items lo = item * sumz (sub (Z.to_nat lo) (Z.to_nat hi) counts)).
  { intros L. rewrite <- bytes_len by lia. unfold bytes, items. rewrite sub_map.
    assert (G : Forall (Z.le 0) (sub (Z.to_nat lo) (Z.to_nat hi) counts)) by (apply Forall_forall; intros x Hx; rewrite Forall_forall in HC; apply HC; eapply in_sub; exact Hx).
    clear - G Hds. induction (sub (Z.to_nat lo) (Z.to_nat hi) counts) as [|h l IH]; [cbn; lia|]. inversion G as [|? ? G1 G2]; subst. specialize (IH G2).
    cbn [map concat sumz fold_right]. fold (sumz l). unfold zlen in *. rewrite app_length, repeat_length.
    assert (0 <= item * h) by (apply Z.mul_nonneg_nonneg; lia). lia. }
  assert (GE : hi <= lo -> TransferLemmas.Bt items hi <= TransferLemmas.Bt items lo) by (intros G; apply Bt_mono; lia).
  split; [split|split].
  - intros (off & HI). apply I1 in HI. destruct HI as (_ & Y2 & _ & Y4). eexists. apply I2. split; [lia|]. split; [exact Y2|]. split; [reflexivity|exact Y4].
  - intros (off & HI). apply I2 in HI. destruct HI as (_ & Y2 & _ & Y4). eexists. apply I1. split; [lia|]. split; [exact Y2|]. split; [reflexivity|exact Y4].
  - intros (off & HI). apply I1 in HI. destruct HI as (_ & Y2 & _ & Y4). split; [lia|].
    exists (fn src_gfq i), (fn src_gfq (i + 1)), (fn dest_gfq j), (fn dest_gfq (j + 1)). rewrite !S1, !D1 by lia. repeat (split; [reflexivity|]).
    fold lo hi. assert (lo < hi) by lia. rewrite <- SUM by lia. exact Y4.
  - intros (L0 & a & b & c & e & G1 & G2 & G3 & G4 & ->). rewrite S1 in G1, G2 by lia. rewrite D1 in G3, G4 by lia.
    injection G1 as <-. injection G2 as <-. injection G3 as <-. injection G4 as <-. fold lo hi in L0 |- *.
    assert (lo < hi). { destruct (Z.lt_ge_cases lo hi) as [G|G]; [exact G|]. rewrite sub_empty in L0 by lia. cbn in L0. lia. }
    rewrite <- SUM in L0 by lia. eexists. apply I1. split; [lia|]. split; [lia|]. split; [reflexivity|]. symmetry. apply SUM. lia.
Qed.

(** C20: fixed size.  [items] is the data of all elements in global order; each
    rank's source buffer begins with the data of its old elements.  Afterwards
    each rank's destination buffer begins with the data of its new elements and
    the rest of the buffer is untouched. *)
Theorem C20_transfer_fixed {B} (dest_gfq src_gfq : list Z) (P N ds : Z) (items : list (list B)) (src dest : Z -> list B) (r a b : Z) :
  gfq_ok dest_gfq P N -> gfq_ok src_gfq P N -> 0 <= ds -> zlen items = N -> Forall (fun x => zlen x = ds) items ->
  (forall q x y, zget src_gfq q = Some x -> zget src_gfq (q + 1) = Some y -> exists extra, src q = concat (sub (Z.to_nat x) (Z.to_nat y) items) ++ extra) ->
  zget dest_gfq r = Some a -> zget dest_gfq (r + 1) = Some b -> (b - a) * ds <= zlen (dest r) ->
  transfer_fixed dest_gfq src_gfq P ds src dest r = Some (concat (sub (Z.to_nat a) (Z.to_nat b) items) ++ skipn (Z.to_nat ((b - a) * ds)) (dest r)).
Proof.
  intros Hd Hs Hds HN HI Hsrc Ha Hb HL.
  assert (Hr : 0 <= r < P).
  { unfold zget in Ha, Hb. destruct (r <? 0) eqn:C1; [discriminate|]. destruct (r + 1 <? 0) eqn:C2; [discriminate|].
    assert ((Z.to_nat (r + 1) < length dest_gfq)%nat) by (apply nth_error_Some; congruence). destruct Hd as (_ & L & _). unfold zlen in L. lia. }
  destruct (gfq_fn dest_gfq P N Hd) as (D1 & D2 & D3 & D4). destruct (gfq_fn src_gfq P N Hs) as (S1 & S2 & S3 & S4).
  rewrite D1 in Ha, Hb by lia. injection Ha as <-. injection Hb as <-.
  assert (SN : forall q, 0 <= q <= P -> 0 <= fn src_gfq q <= N).
  { intros q Hq. pose proof (g_mono P _ S2 0 q ltac:(lia) ltac:(lia) ltac:(lia)). pose proof (g_mono P _ S2 q P ltac:(lia) ltac:(lia) ltac:(lia)). lia. }
  assert (DN : forall q, 0 <= q <= P -> 0 <= fn dest_gfq q <= N).
  { intros q Hq. pose proof (g_mono P _ D2 0 q ltac:(lia) ltac:(lia) ltac:(lia)). pose proof (g_mono P _ D2 q P ltac:(lia) ltac:(lia) ltac:(lia)). lia. }
  unfold transfer_fixed. destruct (ds =? 0) eqn:C.
  - assert (ds = 0) by lia. subst ds. rewrite Z.mul_0_r. cbn [Z.to_nat skipn].
    assert (E : concat (sub (Z.to_nat (fn dest_gfq r)) (Z.to_nat (fn dest_gfq (r + 1))) items) = []).
    { assert (G : Forall (fun x => zlen x = 0) (sub (Z.to_nat (fn dest_gfq r)) (Z.to_nat (fn dest_gfq (r + 1))) items))
        by (apply Forall_forall; intros x Hx; rewrite Forall_forall in HI; apply HI; eapply in_sub; exact Hx).
      induction G as [|h l H1 _ IH]; [reflexivity|]. cbn [concat]. rewrite IH. destruct h; [reflexivity|]. unfold zlen in H1. cbn [length] in H1. lia. }
    rewrite E. reflexivity.
  - destruct (fixed_planned items P N dest_gfq src_gfq ds r Hd Hs ltac:(lia) HN HI Hr) as (rm & E1 & E2).
    unfold fixed_recvs. rewrite E1.
    assert (BT : forall x y, 0 <= x <= y -> y <= N -> TransferLemmas.Bt items y - TransferLemmas.Bt items x = (y - x) * ds).
    { intros x y Hxy Hy. rewrite <- bytes_len by lia. unfold bytes.
      assert (L : length (sub (Z.to_nat x) (Z.to_nat y) items) = Z.to_nat (y - x)) by (rewrite sub_length; unfold zlen in HN; lia).
      assert (G : Forall (fun x => zlen x = ds) (sub (Z.to_nat x) (Z.to_nat y) items))
        by (apply Forall_forall; intros z Hz; rewrite Forall_forall in HI; apply HI; eapply in_sub; exact Hz).
      replace (y - x) with (Z.of_nat (length (sub (Z.to_nat x) (Z.to_nat y) items))) by lia. clear L.
      induction G as [|h l H1 _ IH]; [reflexivity|]. cbn [concat length]. unfold zlen in *. rewrite app_length. lia. }
    rewrite (planned_deliver items P (fn dest_gfq) (fn src_gfq)); [| exact Hr | intros; apply SN; lia | intros; apply DN; lia | exact S2 | exact E2 | | |].
    + rewrite BT; [reflexivity| |apply DN; lia]. pose proof (DN r ltac:(lia)). pose proof (D2 r Hr). lia.
    + intros q Hq. apply (fixed_planned items P N src_gfq dest_gfq ds q Hs Hd ltac:(lia) HN HI Hq).
    + intros q Hq. apply (Hsrc q); apply S1; lia.
    + rewrite BT; [exact HL| |apply DN; lia]. pose proof (DN r ltac:(lia)). pose proof (D2 r Hr). lia.
Qed.

(** C20: elements made of [counts] items of size [item] (p4est_transfer_items);
    item = 1 is p4est_transfer_custom *)
Theorem C20_transfer_items {B} (dest_gfq src_gfq : list Z) (P N item : Z) (counts : list Z) (items : list (list B))
    (dest_sizes src_sizes : Z -> list Z) (src dest : Z -> list B) (r a b : Z) :
  gfq_ok dest_gfq P N -> gfq_ok src_gfq P N -> zlen items = N -> map (fun x => zlen x) items = map (Z.mul item) counts ->
  (forall q x y, zget dest_gfq q = Some x -> zget dest_gfq (q + 1) = Some y -> exists extra, dest_sizes q = sub (Z.to_nat x) (Z.to_nat y) counts ++ extra) ->
  (forall q x y, zget src_gfq q = Some x -> zget src_gfq (q + 1) = Some y -> exists extra, src_sizes q = sub (Z.to_nat x) (Z.to_nat y) counts ++ extra) ->
  (forall q x y, zget src_gfq q = Some x -> zget src_gfq (q + 1) = Some y -> exists extra, src q = concat (sub (Z.to_nat x) (Z.to_nat y) items) ++ extra) ->
  zget dest_gfq r = Some a -> zget dest_gfq (r + 1) = Some b ->
  zlen (concat (sub (Z.to_nat a) (Z.to_nat b) items)) <= zlen (dest r) ->
  transfer_items dest_gfq src_gfq P item dest_sizes src_sizes src dest r =
    Some (concat (sub (Z.to_nat a) (Z.to_nat b) items) ++ skipn (length (concat (sub (Z.to_nat a) (Z.to_nat b) items))) (dest r)).
Proof.
  intros Hd Hs HN HI Hdz Hsz Hsrc Ha Hb HL.
  assert (Hr : 0 <= r < P).
  { unfold zget in Ha, Hb. destruct (r <? 0) eqn:C1; [discriminate|]. destruct (r + 1 <? 0) eqn:C2; [discriminate|].
    assert ((Z.to_nat (r + 1) < length dest_gfq)%nat) by (apply nth_error_Some; congruence). destruct Hd as (_ & L & _). unfold zlen in L. lia. }
  destruct (gfq_fn dest_gfq P N Hd) as (D1 & D2 & D3 & D4). destruct (gfq_fn src_gfq P N Hs) as (S1 & S2 & S3 & S4).
  rewrite D1 in Ha, Hb by lia. injection Ha as <-. injection Hb as <-.
  assert (SN : forall q, 0 <= q <= P -> 0 <= fn src_gfq q <= N).
  { intros q Hq. pose proof (g_mono P _ S2 0 q ltac:(lia) ltac:(lia) ltac:(lia)). pose proof (g_mono P _ S2 q P ltac:(lia) ltac:(lia) ltac:(lia)). lia. }
  assert (DN : forall q, 0 <= q <= P -> 0 <= fn dest_gfq q <= N).
  { intros q Hq. pose proof (g_mono P _ D2 0 q ltac:(lia) ltac:(lia) ltac:(lia)). pose proof (g_mono P _ D2 q P ltac:(lia) ltac:(lia) ltac:(lia)). lia. }
  unfold transfer_items. destruct (item =? 0) eqn:C.
  - assert (item = 0) by lia. subst item.
    assert (E : concat (sub (Z.to_nat (fn dest_gfq r)) (Z.to_nat (fn dest_gfq (r + 1))) items) = []).
    { assert (Z0 : Forall (fun x => zlen x = 0) items).
      { apply Forall_forall. intros x Hx. assert (Hz : In (zlen x) (map (fun x : list B => zlen x) items)) by (apply in_map_iff; exists x; auto).
        rewrite HI in Hz. apply in_map_iff in Hz. destruct Hz as (c & E & _). rewrite <- E. lia. }
      assert (G : Forall (fun x => zlen x = 0) (sub (Z.to_nat (fn dest_gfq r)) (Z.to_nat (fn dest_gfq (r + 1))) items))
        by (apply Forall_forall; intros x Hx; rewrite Forall_forall in Z0; apply Z0; eapply in_sub; exact Hx).
      clear HL. induction G as [|h l H1 _ IH]; [reflexivity|]. cbn [concat]. rewrite IH. destruct h; [reflexivity|]. unfold zlen in H1. cbn [length] in H1. lia. }
    rewrite E. reflexivity.
  - destruct (Hdz r _ _ (D1 r ltac:(lia)) (D1 (r + 1) ltac:(lia))) as (ex & X).
    destruct (var_planned items P N dest_gfq src_gfq item counts _ ex r Hd Hs HN HI Hr X) as (rm & E1 & E2). rewrite E1.
    assert (LL : TransferLemmas.Bt items (fn dest_gfq (r + 1)) - TransferLemmas.Bt items (fn dest_gfq r) = zlen (concat (sub (Z.to_nat (fn dest_gfq r)) (Z.to_nat (fn dest_gfq (r + 1))) items))).
    { symmetry. apply bytes_len. pose proof (DN r ltac:(lia)). pose proof (D2 r Hr). lia. }
    rewrite (planned_deliver items P (fn dest_gfq) (fn src_gfq)); [| exact Hr | intros; apply SN; lia | intros; apply DN; lia | exact S2 | exact E2 | | |].
    + rewrite LL. unfold zlen. rewrite Nat2Z.id. reflexivity.
    + intros q Hq. destruct (Hsz q _ _ (S1 q ltac:(lia)) (S1 (q + 1) ltac:(lia))) as (ex' & X').
      apply (var_planned items P N src_gfq dest_gfq item counts _ ex' q Hs Hd HN HI Hq X').
    + intros q Hq. apply (Hsrc q); apply S1; lia.
    + rewrite LL. exact HL.
Qed.

(** the writes of one rank do not overlap, so their order does not matter *)
Theorem C20_transfer_disjoint (dest_gfq src_gfq : list Z) (P N ds r a b : Z) :
  gfq_ok dest_gfq P N -> gfq_ok src_gfq P N -> 0 < ds -> zget dest_gfq r = Some a -> zget dest_gfq (r + 1) = Some b ->
  exists ms, fixed_recvs dest_gfq src_gfq P ds r = Some ms /\
    StronglySorted (fun x y => snd (fst x) + snd x <= snd (fst y)) ms /\
    Forall (fun x => 0 <= snd (fst x) /\ 0 < snd x /\ snd (fst x) + snd x <= (b - a) * ds) ms.
Proof.
  intros Hd Hs Hds Ha Hb.
  assert (Hr : 0 <= r < P).
  { unfold zget in Ha, Hb. destruct (r <? 0) eqn:C1; [discriminate|]. destruct (r + 1 <? 0) eqn:C2; [discriminate|].
    assert ((Z.to_nat (r + 1) < length dest_gfq)%nat) by (apply nth_error_Some; congruence). destruct Hd as (_ & L & _). unfold zlen in L. lia. }
  destruct (gfq_fn dest_gfq P N Hd) as (D1 & D2 & D3 & D4).
  rewrite D1 in Ha, Hb by lia. injection Ha as <-. injection Hb as <-.
  pose proof (g_mono P _ D2 0 r ltac:(lia) ltac:(lia) ltac:(lia)) as Q2. pose proof (g_mono P _ D2 (r + 1) P ltac:(lia) ltac:(lia) ltac:(lia)) as Q4. pose proof (D2 r Hr) as Q6.
  pose (items := repeat (repeat tt (Z.to_nat ds)) (Z.to_nat N)).
  assert (IL : zlen items = N) by (unfold items, zlen; rewrite repeat_length; lia).
  assert (IF : Forall (fun x => zlen x = ds) items).
  { apply Forall_forall. intros x Hx. apply repeat_spec in Hx. subst x. unfold zlen. rewrite repeat_length. lia. }
  destruct (fixed_planned items P N dest_gfq src_gfq ds r Hd Hs Hds IL IF Hr) as (rm & E1 & E2). exists rm. split; [exact E1|].
  destruct (planned_disjoint items P (fn dest_gfq) (fn src_gfq) r rm ltac:(lia) E2) as [G1 G2]. split; [exact G1|]. eapply Forall_impl; [|exact G2]. intros x (X1 & X2 & X3).
  split; [exact X1|]. split; [exact X2|]. etransitivity; [exact X3|]. rewrite <- bytes_len by lia. unfold bytes.
  assert (L : length (sub (Z.to_nat (fn dest_gfq r)) (Z.to_nat (fn dest_gfq (r + 1))) items) = Z.to_nat (fn dest_gfq (r + 1) - fn dest_gfq r)) by (rewrite sub_length; unfold zlen in IL; lia).
  assert (G : Forall (fun x => zlen x = ds) (sub (Z.to_nat (fn dest_gfq r)) (Z.to_nat (fn dest_gfq (r + 1))) items))
    by (apply Forall_forall; intros z Hz; rewrite Forall_forall in IF; apply IF; eapply in_sub; exact Hz).
  replace (fn dest_gfq (r + 1) - fn dest_gfq r) with (Z.of_nat (length (sub (Z.to_nat (fn dest_gfq r)) (Z.to_nat (fn dest_gfq (r + 1))) items))) by lia. clear - G.
  induction G as [|h l H1 _ IH]; [cbn; lia|]. cbn [concat length]. unfold zlen in *. rewrite app_length. lia.
Qed.

(** ** Examples: eight elements, four ranks with empty ones *)
Definition ex_src := [0; 3; 3; 7; 8].
Definition ex_dest := [0; 0; 5; 6; 8].
Definition ex_item (i : Z) : list Z := [10 * i; 10 * i + 1].
Definition ex_buf (gl : list Z) (r : Z) : list Z := concat (map ex_item (zs (fn gl r) (Z.to_nat (fn gl (r + 1) - fn gl r)))).
Example C20_ex : gfq_ok ex_src 4 8 /\ gfq_ok ex_dest 4 8 /\
  map (fun r => transfer_fixed ex_dest ex_src 4 2 (ex_buf ex_src) (fun _ => repeat (-1) 11) r) [0; 1; 2; 3] =
  [Some (repeat (-1) 11); Some [0; 1; 10; 11; 20; 21; 30; 31; 40; 41; -1]; Some [50; 51; -1; -1; -1; -1; -1; -1; -1; -1; -1];
   Some [60; 61; 70; 71; -1; -1; -1; -1; -1; -1; -1]].
Proof. repeat split; try (vm_compute; reflexivity); try (vm_compute; discriminate); repeat constructor; vm_compute; discriminate. Qed.

(** sizes 0, 1, 2, 0, 0, 1, 3, 2 *)
Definition ex_counts := [0; 1; 2; 0; 0; 1; 3; 2].
Definition ex_sizes (gl : list Z) (r : Z) : list Z := sub (Z.to_nat (fn gl r)) (Z.to_nat (fn gl (r + 1))) ex_counts.
Definition ex_data : list (list Z) := [[]; [1]; [2; 3]; []; []; [4]; [5; 6; 7]; [8; 9]].
Example C20_items_ex : map (fun x => zlen x) ex_data = map (Z.mul 1) ex_counts /\
  map (fun r => transfer_custom ex_dest ex_src 4 (ex_sizes ex_dest) (ex_sizes ex_src)
        (fun r => concat (sub (Z.to_nat (fn ex_src r)) (Z.to_nat (fn ex_src (r + 1))) ex_data)) (fun _ => repeat (-1) 6) r) [0; 1; 2; 3] =
  [Some (repeat (-1) 6); Some [1; 2; 3; -1; -1; -1]; Some [4; -1; -1; -1; -1; -1]; Some [5; 6; 7; 8; 9; -1]] /\
  map (fun r => var_msgs ex_src ex_dest 4 1 (ex_sizes ex_src r) r) [0; 1; 2; 3] =
  [Some [(1, 0, 3)]; Some []; Some [(2, 0, 1); (3, 1, 3)]; Some [(3, 0, 2)]].
Proof. vm_compute. auto. Qed.

Print Assumptions C19_transfer_fixed.
Print Assumptions C19_transfer_items.
Print Assumptions C20_transfer_fixed.
Print Assumptions C20_transfer_items.
Print Assumptions C20_transfer_disjoint.
