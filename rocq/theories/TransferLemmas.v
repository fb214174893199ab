(** * Lemmas about the data transfer *)

From Coq Require Import ZArith List Bool Lia Arith ZifyBool.
From Verif Require Import Search Adapt ListLemmas Partition PartLemmas Comm Transfer.
Import ListNotations.
Open Scope Z_scope.

Fixpoint zs (q : Z) (n : nat) : list Z := match n with O => [] | S n' => q :: zs (q + 1) n' end.
Lemma in_zs n : forall q x, In x (zs q n) <-> q <= x < q + Z.of_nat n.
Proof.
  induction n as [|n IH]; intros q x; cbn [zs In]; [lia|]. rewrite IH. lia.
Qed.

(** sc_bsearch_range on any array whose ends enclose the key *)
Lemma bsearch_range_any key : forall n base i (f : nat -> Z), (forall k, (k <= n)%nat -> nth_error base k = Some (f k)) ->
  f 0%nat <= key < f n -> exists p, bsearch_range key base n i = i + Z.of_nat p /\ (p < n)%nat /\ f p <= key < f (S p).
Proof.
  induction n as [|n IH]; intros base i f H Hk; [lia|].
  destruct base as [|a base]; [discriminate (H 0%nat ltac:(lia))|]. destruct base as [|b base]; [discriminate (H 1%nat ltac:(lia))|].
  pose proof (H 0%nat ltac:(lia)) as H0. pose proof (H 1%nat ltac:(lia)) as H1. cbn [nth_error] in H0, H1. injection H0 as H0. injection H1 as H1.
  change (bsearch_range key (a :: b :: base) (S n) i) with (if (a <=? key) && (key <? b) then i else bsearch_range key (b :: base) n (i + 1)).
  destruct ((a <=? key) && (key <? b)) eqn:C.
  - exists 0%nat. split; [lia|]. split; [lia|]. rewrite <- H0, <- H1. lia.
  - destruct (IH (b :: base) (i + 1) (fun k => f (S k))) as (p & E & L & K).
    + intros k Hk'. apply (H (S k)). lia.
    + cbn beta. lia.
    + exists (S p). rewrite E. split; [lia|]. split; [lia|]. exact K.
Qed.

(** windows that follow each other *)
Fixpoint chainw (a : Z) (w : list (Z * Z * Z)) (c : Z) : Prop :=
  match w with
  | [] => a = c
  | (_, g, g') :: w' => g = a /\ a <= g' /\ chainw g' w' c
  end.
Lemma chainw_le w : forall a c, chainw a w c -> a <= c.
Proof. induction w as [|[[q g] g'] w IH]; intros a c H; cbn [chainw] in H; [lia|]. destruct H as (H1 & H2 & H3). apply IH in H3. lia. Qed.

Section Peers.
  Variables (gl : list Z) (P : Z) (g : Z -> Z).
  Hypothesis Hgl : forall i, 0 <= i <= P -> zget gl i = Some (g i).
  Hypothesis Hmono : forall i, 0 <= i < P -> g i <= g (i + 1).
  Hypothesis Hg0 : g 0 = 0.

  Lemma g_mono i j : 0 <= i -> i <= j -> j <= P -> g i <= g j.
  Proof.
    intros Hi Hij Hj. assert (H : forall n, i + Z.of_nat n <= P -> g i <= g (i + Z.of_nat n)).
    { induction n as [|n IH]; intros L; [replace (i + Z.of_nat 0) with i by lia; lia|].
      specialize (Hmono (i + Z.of_nat n) ltac:(lia)). replace (i + Z.of_nat (S n)) with (i + Z.of_nat n + 1) by lia. specialize (IH ltac:(lia)). lia. }
    replace j with (i + Z.of_nat (Z.to_nat (j - i))) by lia. apply H. lia.
  Qed.

  Definition win (b e q : Z) : Z * Z * Z := (q, Z.max b (g q), Z.min e (g (q + 1))).

  Lemma walk_spec b e : forall n q, 0 <= q -> q + Z.of_nat n <= P ->
    (forall i, q <= i < q + Z.of_nat n -> b <= g (i + 1)) -> (forall i, q <= i -> i + 1 < q + Z.of_nat n -> g (i + 1) <= e) ->
    walk gl e (Z.max b (g q)) q n = Some (map (win b e) (zs q n)).
  Proof.
    induction n as [|n IH]; intros q Hq HP H1 H2; [reflexivity|]. cbn [walk zs map].
    rewrite Hgl by lia. cbn zeta.
    replace (if g (q + 1) >? e then e else g (q + 1)) with (Z.min e (g (q + 1))) by (destruct (g (q + 1) >? e) eqn:C; lia).
    destruct n as [|n].
    - reflexivity.
    - replace (Z.min e (g (q + 1))) with (Z.max b (g (q + 1))) by (specialize (H1 q ltac:(lia)); specialize (H2 q ltac:(lia) ltac:(lia)); lia).
      rewrite IH; [|lia|lia| |].
      + specialize (H1 q ltac:(lia)). specialize (H2 q ltac:(lia) ltac:(lia)). f_equal. f_equal. unfold win. f_equal. lia.
      + intros i Hi. apply H1. lia.
      + intros i Hi Hi2. apply H2; lia.
  Qed.

  Lemma chain_wins b e : forall n q, 0 <= q -> q + Z.of_nat n <= P ->
    (forall i, q <= i < q + Z.of_nat n -> b <= g (i + 1)) -> (forall i, q <= i -> i + 1 < q + Z.of_nat n -> g (i + 1) <= e) ->
    Z.max b (g q) <= e -> (n <> 0%nat -> e <= g (q + Z.of_nat n)) -> (n = 0%nat -> Z.max b (g q) = e) ->
    chainw (Z.max b (g q)) (map (win b e) (zs q n)) e.
  Proof.
    induction n as [|n IH]; intros q Hq HP H1 H2 H3 H4 H5; cbn [zs map chainw]; [apply H5; reflexivity|].
    unfold win at 1. split; [reflexivity|].
    pose proof (H1 q ltac:(lia)) as G1. pose proof (Hmono q ltac:(lia)) as G2. split; [lia|].
    destruct n as [|n].
    - cbn [zs map chainw]. specialize (H4 ltac:(discriminate)). replace (q + Z.of_nat 1) with (q + 1) in H4 by lia. lia.
    - pose proof (H2 q ltac:(lia) ltac:(lia)) as G3. replace (Z.min e (g (q + 1))) with (Z.max b (g (q + 1))) by lia.
      apply IH; [lia|lia| | |lia| |discriminate].
      + intros i Hi. apply H1. lia.
      + intros i Hi Hi2. apply H2; lia.
      + intros _. replace (q + 1 + Z.of_nat (S n)) with (q + Z.of_nat (S (S n))) by lia. apply H4. discriminate.
  Qed.

  Lemma peers_spec b e : 0 <= b -> b <= e -> e <= g P -> 0 <= P ->
    exists first n, 0 <= first /\ first + Z.of_nat n <= P /\ peers gl P b e = Some (map (win b e) (zs first n)) /\
      chainw b (map (win b e) (zs first n)) e /\
      (forall q, 0 <= q < P -> Z.max b (g q) < Z.min e (g (q + 1)) -> first <= q < first + Z.of_nat n).
  Proof.
    intros Hb Hbe He HP. unfold peers. destruct (b <? e) eqn:C.
    2:{ exists 0, 0%nat. repeat split; try lia. cbn. lia. }
    assert (NP : forall k, (k <= Z.to_nat P)%nat -> nth_error gl k = Some (g (Z.of_nat k))).
    { intros k Hk. rewrite <- (Hgl (Z.of_nat k)) by lia. rewrite zget_nth by lia. f_equal. lia. }
    destruct (bsearch_range_any b (Z.to_nat P) gl 0 (fun k => g (Z.of_nat k)) NP) as (p & E1 & L1 & K1).
    { replace (Z.of_nat (Z.to_nat P)) with P by lia. cbn. rewrite Hg0. lia. }
    cbn beta in K1. replace (Z.of_nat (S p)) with (Z.of_nat p + 1) in K1 by lia.
    assert (EP : bsearch_partition b gl P = Z.of_nat p) by (unfold bsearch_partition; rewrite E1; lia).
    cbn zeta. rewrite !EP, Nat2Z.id.
    destruct (bsearch_range_any (e - 1) (Z.to_nat (P - Z.of_nat p)) (skipn p gl) 0 (fun k => g (Z.of_nat (p + k)))) as (k & E2 & L2 & K2).
    { intros k Hk. rewrite nth_skipn. apply NP. lia. }
    { cbn beta. rewrite Nat.add_0_r. replace (Z.of_nat (p + Z.to_nat (P - Z.of_nat p))) with P by lia. lia. }
    unfold bsearch_partition. rewrite E2. replace (trips (Z.of_nat p) (0 + Z.of_nat k + Z.of_nat p)) with (S k) by (unfold trips; lia).
    cbn beta in K2. replace (Z.of_nat (p + S k)) with (Z.of_nat (p + k) + 1) in K2 by lia.
    assert (M1 : forall i, Z.of_nat p <= i < Z.of_nat p + Z.of_nat (S k) -> b <= g (i + 1)).
    { intros i Hi. pose proof (g_mono (Z.of_nat p + 1) (i + 1) ltac:(lia) ltac:(lia) ltac:(lia)). lia. }
    assert (M2 : forall i, Z.of_nat p <= i -> i + 1 < Z.of_nat p + Z.of_nat (S k) -> g (i + 1) <= e).
    { intros i Hi Hi2. pose proof (g_mono (i + 1) (Z.of_nat (p + k)) ltac:(lia) ltac:(lia) ltac:(lia)). lia. }
    exists (Z.of_nat p), (S k). split; [lia|]. split; [lia|].
    assert (EB : Z.max b (g (Z.of_nat p)) = b) by lia. split; [|split].
    - pose proof (walk_spec b e (S k) (Z.of_nat p) ltac:(lia) ltac:(lia) M1 M2) as W. rewrite EB in W. exact W.
    - rewrite <- EB at 1. apply chain_wins; [lia|lia|exact M1|exact M2|lia| |discriminate]. intros _.
      replace (Z.of_nat p + Z.of_nat (S k)) with (Z.of_nat (p + k) + 1) by lia. lia.
    - intros q Hq Ov. split.
      + destruct (Z.le_gt_cases (Z.of_nat p) q) as [G|G]; [exact G|]. pose proof (g_mono (q + 1) (Z.of_nat p) ltac:(lia) ltac:(lia) ltac:(lia)). lia.
      + destruct (Z.lt_ge_cases q (Z.of_nat p + Z.of_nat (S k))) as [G|G]; [exact G|].
        pose proof (g_mono (Z.of_nat (p + k) + 1) q ltac:(lia) ltac:(lia) ltac:(lia)). lia.
  Qed.
End Peers.

Section Bytes.
  Context {B : Type}.
  Variable items : list (list B).
  Definition bytes (a b : Z) : list B := concat (sub (Z.to_nat a) (Z.to_nat b) items).
  Definition Bt (x : Z) : Z := zlen (concat (firstn (Z.to_nat x) items)).

  Lemma bytes_join a b c : a <= b <= c -> bytes a b ++ bytes b c = bytes a c.
  Proof. intros H. unfold bytes. rewrite <- concat_app, sub_join by lia. reflexivity. Qed.
  Lemma bytes_0 x : Bt x = zlen (bytes 0 x).
  Proof. unfold Bt, bytes, sub. cbn [skipn Z.to_nat]. rewrite Nat.sub_0_r. reflexivity. Qed.
  Lemma bytes_len a b : 0 <= a <= b -> zlen (bytes a b) = Bt b - Bt a.
  Proof.
    intros H. rewrite !bytes_0, <- (bytes_join 0 a b) by lia. unfold zlen. rewrite app_length. lia.
  Qed.
  Lemma Bt_mono a b : 0 <= a <= b -> Bt a <= Bt b.
  Proof. intros H. pose proof (bytes_len a b H). unfold zlen in *. lia. Qed.

  (** what a rank with first element b sends or receives, given the windows *)
  Definition smsgs (base : Z) (w : list (Z * Z * Z)) : list (Z * Z * Z) :=
    flat_map (fun x => let '(q, g, g') := x in if Bt g' =? Bt g then [] else [(q, Bt g - base, Bt g' - Bt g)]) w.

  Lemma msgs_fixed_spec ds base : 0 < ds -> forall w a c, 0 <= a -> chainw a w c -> (forall x, 0 <= x <= c -> Bt x = x * ds) ->
    msgs_fixed ds w (Bt a - base) = smsgs base w.
  Proof.
    intros Hds. induction w as [|[[q g] g'] w IH]; intros a c Ha HC HB; [reflexivity|].
    cbn [chainw] in HC. destruct HC as (-> & H1 & H2). pose proof (chainw_le _ _ _ H2) as H3.
    cbn [msgs_fixed smsgs flat_map]. fold (smsgs base w).
    assert (E1 : Bt g' = g' * ds) by (apply HB; lia). assert (E2 : Bt a = a * ds) by (apply HB; lia).
    destruct (a =? g') eqn:C.
    - assert (a = g') by lia. subst g'. rewrite Z.eqb_refl. cbn [app]. apply (IH a c); assumption.
    - assert (a * ds < g' * ds) by (apply Z.mul_lt_mono_pos_r; lia). replace (Bt g' =? Bt a) with false by lia. cbn [app]. f_equal.
      + f_equal. lia.
      + rewrite <- (IH g' c); [f_equal; lia|lia|exact H2|exact HB].
  Qed.

  Lemma msgs_var_spec item base (sizes : list Z) extra : (forall x y, 0 <= x <= y -> y <= zlen sizes -> Bt y - Bt x = sumz (map (Z.mul item) (sub (Z.to_nat x) (Z.to_nat y) sizes))) ->
    forall w a c, 0 <= a -> c <= zlen sizes -> chainw a w c ->
    msgs_var item w (sub (Z.to_nat a) (Z.to_nat c) sizes ++ extra) (Bt a - base) = Some (smsgs base w).
  Proof.
    intros HB. induction w as [|[[q g] g'] w IH]; intros a c Ha Hc HC; [reflexivity|].
    cbn [chainw] in HC. destruct HC as (-> & H1 & H2). pose proof (chainw_le _ _ _ H2) as H3.
    cbn [msgs_var smsgs flat_map]. fold (smsgs base w).
    rewrite <- (sub_join (Z.to_nat a) (Z.to_nat g') (Z.to_nat c)) by lia. rewrite <- app_assoc.
    assert (LA : length (sub (Z.to_nat a) (Z.to_nat g') sizes) = Z.to_nat (g' - a)) by (rewrite sub_length; unfold zlen in Hc; lia).
    set (h := sub (Z.to_nat a) (Z.to_nat g') sizes) in *. set (t := sub (Z.to_nat g') (Z.to_nat c) sizes) in *.
    assert (SL : slice (h ++ t ++ extra) 0 (g' - a) = Some h).
    { rewrite slice_sub; [|lia|lia|unfold zlen; rewrite app_length; lia]. f_equal. unfold sub. cbn [Z.to_nat skipn].
      rewrite firstn_app_le by lia. apply firstn_all2. lia. }
    rewrite SL. assert (SK : skipn (Z.to_nat (g' - a)) (h ++ t ++ extra) = t ++ extra).
    { rewrite <- LA. rewrite skipn_app, skipn_all, Nat.sub_diag. reflexivity. }
    rewrite SK. pose proof (HB a g' ltac:(lia) ltac:(lia)) as E. fold h in E. rewrite <- E.
    pose proof (IH g' c ltac:(lia) Hc H2) as IH'. fold t in IH'.
    destruct (Bt g' - Bt a =? 0) eqn:C.
    - replace (Bt g' =? Bt a) with true by lia. cbn [app]. rewrite <- IH'. f_equal. lia.
    - replace (Bt g' =? Bt a) with false by lia. replace (Bt a - base + (Bt g' - Bt a)) with (Bt g' - base) by lia. rewrite IH'. reflexivity.
  Qed.

  Lemma find_smsgs g base b e r : forall n q,
    find_msg r (smsgs base (map (win g b e) (zs q n))) =
    if (q <=? r) && (r <? q + Z.of_nat n) && negb (Bt (Z.min e (g (r + 1))) =? Bt (Z.max b (g r)))
    then Some (Bt (Z.max b (g r)) - base, Bt (Z.min e (g (r + 1))) - Bt (Z.max b (g r))) else None.
  Proof.
    induction n as [|n IH]; intros q.
    - cbn [zs map smsgs flat_map find_msg]. replace ((q <=? r) && (r <? q + Z.of_nat 0)) with false by lia. reflexivity.
    - cbn [zs map smsgs flat_map]. unfold win at 1. fold (smsgs base (map (win g b e) (zs (q + 1) n))).
      destruct (q =? r) eqn:C.
      + replace q with r by lia. replace ((r <=? r) && (r <? r + Z.of_nat (S n))) with true by lia. cbn [andb].
        destruct (Bt (Z.min e (g (r + 1))) =? Bt (Z.max b (g r))) eqn:D; cbn [negb app].
        * rewrite IH. replace ((r + 1 <=? r) && (r <? r + 1 + Z.of_nat n)) with false by lia. reflexivity.
        * cbn [find_msg]. rewrite Z.eqb_refl. reflexivity.
      + assert (X : forall l, find_msg r ((if Bt (Z.min e (g (q + 1))) =? Bt (Z.max b (g q)) then [] else [(q, Bt (Z.max b (g q)) - base, Bt (Z.min e (g (q + 1))) - Bt (Z.max b (g q)))]) ++ l) = find_msg r l).
        { intros l. destruct (Bt (Z.min e (g (q + 1))) =? Bt (Z.max b (g q))); cbn [app find_msg]; [reflexivity|]. rewrite C. reflexivity. }
        rewrite X, IH. replace ((q + 1 <=? r) && (r <? q + 1 + Z.of_nat n)) with ((q <=? r) && (r <? q + Z.of_nat (S n))) by lia. reflexivity.
  Qed.

  Lemma deliver_spec r sends src b : 0 <= b -> forall w a c rest, b <= a -> chainw a w c -> Bt c - Bt a <= zlen rest ->
    (forall q g g', In (q, g, g') w -> Bt g < Bt g' -> exists ss soff, sends q = Some ss /\ find_msg r ss = Some (soff, Bt g' - Bt g) /\
       slice (src q) soff (Bt g' - Bt g) = Some (bytes g g')) ->
    deliver r sends src (smsgs (Bt b) w) (bytes b a ++ rest) = Some (bytes b c ++ skipn (Z.to_nat (Bt c - Bt a)) rest).
  Proof.
    intros Hb. induction w as [|[[q g] g'] w IH]; intros a c rest Ha HC HR HS.
    - cbn [chainw] in HC. subst c. cbn [smsgs flat_map deliver]. rewrite Z.sub_diag. reflexivity.
    - cbn [chainw] in HC. destruct HC as (-> & H1 & H2). pose proof (chainw_le _ _ _ H2) as H3.
      cbn [smsgs flat_map]. fold (smsgs (Bt b) w).
      pose proof (Bt_mono a g' ltac:(lia)) as M1. pose proof (Bt_mono g' c ltac:(lia)) as M2.
      destruct (Bt g' =? Bt a) eqn:C.
      + cbn [app]. assert (E : bytes b g' = bytes b a).
        { rewrite <- (bytes_join b a g') by lia. assert (L : zlen (bytes a g') = 0) by (rewrite bytes_len; lia).
          destruct (bytes a g') as [|x l]; [apply app_nil_r|]. unfold zlen in L. cbn [length] in L. lia. }
        rewrite <- E. replace (Bt c - Bt a) with (Bt c - Bt g') by lia. apply IH; [lia|exact H2|lia|].
        intros q0 g0 g0' HI. apply HS. right. exact HI.
      + cbn [app deliver]. destruct (HS q a g' (or_introl eq_refl) ltac:(lia)) as (ss & soff & E1 & E2 & E3).
        rewrite E1, E2. replace (if q =? r then Bt g' - Bt a else Bt g' - Bt a) with (Bt g' - Bt a) by (destruct (q =? r); reflexivity).
        rewrite Z.leb_refl, E3.
        assert (L1 : zlen (bytes b a) = Bt a - Bt b) by (apply bytes_len; lia).
        assert (L2 : zlen (bytes a g') = Bt g' - Bt a) by (apply bytes_len; lia).
        assert (BL : blit (bytes b a ++ rest) (Bt a - Bt b) (bytes a g') = Some (bytes b g' ++ skipn (Z.to_nat (Bt g' - Bt a)) rest)).
        { unfold blit. pose proof (Bt_mono b a ltac:(lia)) as M0.
          assert (L3 : zlen (bytes b a ++ rest) = Bt a - Bt b + zlen rest) by (unfold zlen in *; rewrite app_length; lia).
          replace ((0 <=? Bt a - Bt b) && (Bt a - Bt b + zlen (bytes a g') <=? zlen (bytes b a ++ rest))) with true by lia.
          f_equal. assert (N1 : Z.to_nat (Bt a - Bt b) = length (bytes b a)) by (unfold zlen in L1; lia).
          assert (N2 : Z.to_nat (Bt g' - Bt a) = length (bytes a g')) by (unfold zlen in L2; lia).
          rewrite N1, N2. rewrite firstn_app_le by lia. rewrite firstn_all. rewrite skipn_app.
          rewrite (skipn_all2 (bytes b a)) by lia. cbn [app].
          replace (length (bytes b a) + length (bytes a g') - length (bytes b a))%nat with (length (bytes a g')) by lia.
          rewrite app_assoc, bytes_join by lia. reflexivity. }
        rewrite BL. rewrite (IH g' c); [|lia|exact H2| |].
        * f_equal. f_equal. rewrite <- skipn_plus. f_equal. lia.
        * unfold zlen in *. rewrite skipn_length. lia.
        * intros q0 g0 g0' HI. apply HS. right. exact HI.
  Qed.
End Bytes.
