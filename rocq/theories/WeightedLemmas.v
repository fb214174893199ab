(** * Lemmas about the weighted partition *)

From Coq Require Import ZArith List Bool Lia Arith ZifyBool.
From Verif Require Import Search Adapt Partition PartLemmas Comm CommLemmas Cut PropertiesCut Weighted.
Import ListNotations.
Open Scope Z_scope.

Lemma wsum_cons x l : wsum (x :: l) = x + wsum l. Proof. reflexivity. Qed.
Lemma pre_wsum : forall l k, wsum (firstn k l) = pre l k.
Proof. induction l as [|x l IH]; intros k; destruct k as [|k]; cbn [firstn pre]; try reflexivity. rewrite wsum_cons, IH. reflexivity. Qed.
Lemma wsum_app a b : wsum (a ++ b) = wsum a + wsum b.
Proof. induction a as [|x a IH]; cbn [app]; [reflexivity|]. rewrite !wsum_cons. lia. Qed.
Lemma wsum_pre l : wsum l = pre l (length l).
Proof. rewrite <- pre_wsum, firstn_all. reflexivity. Qed.

(** the prefix weights of all elements, rank by rank *)
Lemma pre_concat : forall W r w k, nth_error W r = Some w -> (k <= length w)%nat ->
  pre (concat W) (Z.to_nat (pre (map zlen W) r) + k) = pre (map wsum W) r + pre w k /\ 0 <= pre (map zlen W) r.
Proof.
  induction W as [|v W IH]; intros r w k E Hk; [destruct r; discriminate|]. cbn [concat map].
  assert (APP : forall a b n, (length a <= n)%nat -> pre (a ++ b) n = wsum a + pre b (n - length a)).
  { clear. induction a as [|x a IH]; intros b n H; cbn [app]; [rewrite Nat.sub_0_r; reflexivity|]. rewrite wsum_cons. destruct n as [|n]; cbn [length] in H; [lia|].
    cbn [pre length Nat.sub]. rewrite IH by lia. lia. }
  destruct r as [|r]; cbn [nth_error] in E.
  - injection E as ->. cbn [pre]. split; [|lia]. cbn [Z.to_nat Nat.add]. rewrite <- !pre_wsum. rewrite firstn_app. replace (k - length w)%nat with 0%nat by lia. cbn [firstn]. rewrite app_nil_r. lia.
  - cbn [pre]. destruct (IH r w k E Hk) as [I1 I2]. assert (0 <= zlen v) by (unfold zlen; lia). split; [|lia]. rewrite APP by (unfold zlen in *; lia).
    replace (Z.to_nat (zlen v + pre (map zlen W) r) + k - length v)%nat with (Z.to_nat (pre (map zlen W) r) + k)%nat by (unfold zlen in *; lia). rewrite I1. lia.
Qed.

Lemma zlen_concat : forall W : list (list Z), zlen (concat W) = pre (map zlen W) (length W).
Proof. induction W as [|v W IH]; [reflexivity|]. cbn [concat map length pre]. rewrite <- IH. unfold zlen. rewrite app_length. lia. Qed.
Lemma wsum_concat : forall W : list (list Z), wsum (concat W) = pre (map wsum W) (length W).
Proof. induction W as [|v W IH]; [reflexivity|]. cbn [concat map length pre]. rewrite <- IH. apply wsum_app. Qed.

(** the lower bound in a list that does not decrease *)
Lemma lower_bound_spec c : forall a k, (exists x, In x a /\ c <= x) ->
  exists j x, lower_bound c a k = k + Z.of_nat j /\ nth_error a j = Some x /\ c <= x /\ forall i y, (i < j)%nat -> nth_error a i = Some y -> y < c.
Proof.
  induction a as [|x a IH]; intros k (v & I & H); [destruct I|]. cbn [lower_bound]. destruct (c <=? x) eqn:C.
  - exists 0%nat, x. split; [lia|]. split; [reflexivity|]. split; [lia|]. intros i y Hi. lia.
  - destruct I as [->|I]; [lia|]. destruct (IH (k + 1) (ex_intro _ v (conj I H))) as (j & y & E1 & E2 & E3 & E4).
    exists (S j), y. split; [lia|]. split; [exact E2|]. split; [exact E3|]. intros i u Hi Hu. destruct i as [|i]; cbn [nth_error] in Hu; [injection Hu as <-; lia|].
    apply (E4 i u); [lia|exact Hu].
Qed.

Lemma all_some_map {A B} (f : A -> option B) (g : A -> B) : forall l, (forall x, In x l -> f x = Some (g x)) -> all_some (map f l) = Some (map g l).
Proof.
  induction l as [|x l IH]; intros H; [reflexivity|]. cbn [map all_some]. rewrite (H x) by (left; reflexivity). rewrite IH by (intros; apply H; right; assumption). reflexivity.
Qed.

Lemma in_zseq x : forall n a, In x (zseq a n) <-> a <= x < a + Z.of_nat n.
Proof. induction n as [|n IH]; intros a; cbn [zseq In]; [lia|]. rewrite IH. lia. Qed.
Lemma zseq_length : forall n a, length (zseq a n) = n.
Proof. induction n as [|n IH]; intros a; cbn [zseq length]; [reflexivity|rewrite IH; reflexivity]. Qed.
Lemma zseq_nth : forall n a k, (k < n)%nat -> nth_error (zseq a n) k = Some (a + Z.of_nat k).
Proof. induction n as [|n IH]; intros a k H; [lia|]. destruct k as [|k]; cbn [zseq nth_error]; [f_equal; lia|]. rewrite IH by lia. f_equal. lia. Qed.
Lemma combine_zseq (W : list (list Z)) : forall a, combine (zseq a (length W)) W = map (fun r => (r, nth (Z.to_nat (r - a)) W [])) (zseq a (length W)).
Proof.
  induction W as [|w W IH]; intros a; [reflexivity|]. cbn [length zseq combine map]. rewrite Z.sub_diag. cbn [Z.to_nat nth]. f_equal. rewrite IH.
  apply map_ext_in. intros r Hr. apply in_zseq in Hr. replace (Z.to_nat (r - a)) with (S (Z.to_nat (r - (a + 1)))) by lia. reflexivity.
Qed.

Lemma filter_flat_map {A B} (p : B -> bool) (g : A -> list B) : forall l, filter p (flat_map g l) = flat_map (fun x => filter p (g x)) l.
Proof. induction l as [|x l IH]; [reflexivity|]. cbn [flat_map]. rewrite filter_app, IH. reflexivity. Qed.
(** only one index contributes *)
Lemma flat_map_one {B} (g : Z -> list B) j : (forall i, i <> j -> g i = []) ->
  forall n a, flat_map g (zseq a n) = if (a <=? j) && (j <? a + Z.of_nat n) then g j else [].
Proof.
  intros H. induction n as [|n IH]; intros a; cbn [zseq flat_map].
  - destruct ((a <=? j) && (j <? a + Z.of_nat 0)) eqn:C; [lia|reflexivity].
  - rewrite IH. destruct (Z.eq_dec a j) as [->|Ne].
    + replace ((j + 1 <=? j) && (j <? j + 1 + Z.of_nat n)) with false by lia. replace ((j <=? j) && (j <? j + Z.of_nat (S n))) with true by lia. apply app_nil_r.
    + rewrite (H a Ne). cbn [app]. destruct ((a + 1 <=? j) && (j <? a + 1 + Z.of_nat n)) eqn:C1, ((a <=? j) && (j <? a + Z.of_nat (S n))) eqn:C2; try reflexivity; lia.
Qed.

(** the lowest index whose prefix weight reaches c *)
Definition lowest (w : list Z) (c k : Z) : Prop :=
  0 <= k <= zlen w /\ c <= wsum (firstn (Z.to_nat k) w) /\ forall j, 0 <= j < k -> wsum (firstn (Z.to_nat j) w) < c.

Section W.
  Variables (prec : Z) (W : list (list Z)).
  Hypothesis Hprec : 53 <= prec <= 64.
  Hypothesis Hnn : Forall (Forall (Z.le 0)) W.
  Hypothesis HP : 1 <= zlen W < 2 ^ 31.
  Hypothesis Htot : 0 < wsum (concat W) < 2 ^ 63.
  Set Default Proof Using "All".

  Definition P := zlen W.
  Definition N := zlen (concat W).
  Definition total := wsum (concat W).
  Definition gws := running 0 (map wsum W).
  Definition gfq := count_quadrants (map zlen W).
  Definition gw (r : Z) := pre (map wsum W) (Z.to_nat r).
  Definition gf (r : Z) := pre (map zlen W) (Z.to_nat r).
  Definition ct (i : Z) := wcut prec P total i.
  Definition wr (r : Z) := nth (Z.to_nat r) W [].

  Lemma zP : Z.of_nat (length W) = P. Proof. reflexivity. Qed.
  Lemma gws_get r : 0 <= r <= P -> zget gws r = Some (gw r).
  Proof. intros H. unfold gws. rewrite zget_nth by lia. rewrite running_nth by (rewrite map_length; unfold P, zlen in H; lia). reflexivity. Qed.
  Lemma gfq_get r : 0 <= r <= P -> zget gfq r = Some (gf r).
  Proof. intros H. unfold gfq, count_quadrants. rewrite zget_nth by lia. rewrite running_nth by (rewrite map_length; unfold P, zlen in H; lia). reflexivity. Qed.
  Lemma sums_nonneg : Forall (Z.le 0) (map wsum W).
  Proof.
    apply Forall_map. eapply Forall_impl; [|exact Hnn]. intros w Hw. clear - Hw. induction Hw as [|x w Hx Hw IH]; [cbn; lia|]. rewrite wsum_cons. lia.
  Qed.
  Lemma gw_mono a b : a <= b -> gw a <= gw b.
  Proof. intros H. apply pre_mono; [exact sums_nonneg|lia]. Qed.
  Lemma gw_0 : gw 0 = 0. Proof. apply pre_0. Qed.
  Lemma gw_P : gw P = total.
  Proof. unfold gw, total, P. rewrite wsum_concat. f_equal. unfold zlen. lia. Qed.
  Lemma gf_P : gf P = N.
  Proof. unfold gf, N, P. rewrite zlen_concat. f_equal. unfold zlen. lia. Qed.
  Lemma wr_get r : 0 <= r < P -> nth_error W (Z.to_nat r) = Some (wr r).
  Proof. intros H. apply nth_error_nth'. unfold P, zlen in H. lia. Qed.
  Lemma gf_step r : 0 <= r < P -> gf (r + 1) = gf r + zlen (wr r).
  Proof. intros H. unfold gf. replace (Z.to_nat (r + 1)) with (S (Z.to_nat r)) by lia. apply pre_S. rewrite nth_error_map, wr_get by lia. reflexivity. Qed.
  Lemma gw_step r : 0 <= r < P -> gw (r + 1) = gw r + wsum (wr r).
  Proof. intros H. unfold gw. replace (Z.to_nat (r + 1)) with (S (Z.to_nat r)) by lia. apply pre_S. rewrite nth_error_map, wr_get by lia. reflexivity. Qed.
  Lemma lens_nonneg : Forall (Z.le 0) (map zlen W).
  Proof. apply Forall_map. apply Forall_forall. intros w _. unfold zlen. lia. Qed.
  Lemma gf_mono a b : a <= b -> gf a <= gf b.
  Proof. intros H. apply pre_mono; [exact lens_nonneg|lia]. Qed.
  Lemma gf_nonneg a : 0 <= gf a. Proof. apply pre_nonneg, lens_nonneg. Qed.

  Lemma cut_facts : ct 0 = 0 /\ ct P = total /\ forall p p', 0 <= p <= p' -> p' <= P -> 0 <= ct p <= ct p' /\ ct p' <= total.
  Proof. apply (C16_cut_monotone prec total P Hprec); [unfold total; lia|unfold P; lia]. Qed.

  Definition R (r c : Z) : bool := (gw r <? c) && (c <=? gw (r + 1)).
  Lemma in_range_spec r c : 0 <= r < P -> in_range gws r c = Some (R r c).
  Proof. intros H. unfold in_range. rewrite !gws_get by lia. reflexivity. Qed.

  (** the rank whose weights contain c *)
  Lemma owner_ex c : 0 < c <= total -> exists r, 0 <= r < P /\ R r c = true.
  Proof.
    intros H. assert (G : forall n, Z.of_nat n <= P -> c <= gw (Z.of_nat n) -> exists r, 0 <= r < Z.of_nat n /\ R r c = true).
    { induction n as [|n IH]; intros Hn Hc; [change (Z.of_nat 0) with 0 in Hc; rewrite gw_0 in Hc; lia|].
      destruct (Z_le_gt_dec c (gw (Z.of_nat n))) as [L|L].
      - destruct (IH ltac:(lia) L) as (r & Hr & E). exists r. split; [lia|exact E].
      - exists (Z.of_nat n). split; [lia|]. unfold R. replace (Z.of_nat n + 1) with (Z.of_nat (S n)) by lia. lia. }
    destruct (G (Z.to_nat P)) as (r & Hr & E); [unfold P, zlen; lia| |].
    - replace (Z.of_nat (Z.to_nat P)) with P by (unfold P, zlen; lia). rewrite gw_P. lia.
    - exists r. split; [unfold P, zlen in *; lia|exact E].
  Qed.
  Lemma owner_mono r c r' c' : 0 <= r < P -> 0 <= r' < P -> R r c = true -> R r' c' = true -> c <= c' -> r <= r'.
  Proof.
    intros Hr Hr' E E' H. unfold R in *. destruct (Z_le_gt_dec r r') as [L|L]; [exact L|]. pose proof (gw_mono (r' + 1) r ltac:(lia)). lia.
  Qed.
  Lemma owner_unique r r' c : 0 <= r < P -> 0 <= r' < P -> R r c = true -> R r' c = true -> r = r'.
  Proof. intros Hr Hr' E E'. pose proof (owner_mono r c r' c Hr Hr' E E' ltac:(lia)). pose proof (owner_mono r' c r c Hr' Hr E' E ltac:(lia)). lia. Qed.

  Lemma source_spec c o : 0 <= o < P -> R o c = true -> forall n i, 0 <= i -> i <= o -> i + Z.of_nat n = P -> source gws c n i = Some o.
  Proof.
    intros Ho E. induction n as [|n IH]; intros i Hi Hio Hn; [lia|]. cbn [source]. rewrite in_range_spec by lia.
    destruct (R i c) eqn:C.
    - f_equal. apply (owner_unique i o c); auto; lia.
    - apply IH; try lia. destruct (Z.eq_dec i o) as [->|Ne]; [congruence|lia].
  Qed.

  Lemma wrecvs_spec rank : 0 <= rank < P -> exists low high, wrecvs prec P gws total rank = Some (low, high) /\
    (match low with None => ct rank = 0 | Some o => 0 < ct rank /\ 0 <= o < P /\ R o (ct rank) = true end) /\
    (match high with None => ct (rank + 1) = 0 | Some o => 0 < ct (rank + 1) /\ 0 <= o < P /\ R o (ct (rank + 1)) = true end).
  Proof.
    intros H. destruct cut_facts as (C0 & CP & CM). destruct (CM rank (rank + 1) ltac:(lia) ltac:(lia)) as [M1 M2].
    unfold wrecvs. fold (ct rank) (ct (rank + 1)). destruct (ct rank =? 0) eqn:E0.
    - destruct (ct (rank + 1) =? 0) eqn:E1.
      + exists None, None. split; [reflexivity|]. split; lia.
      + destruct (owner_ex (ct (rank + 1)) ltac:(lia)) as (o & Ho & RO). rewrite (source_spec _ o Ho RO) by (unfold P, zlen in *; lia).
        exists None, (Some o). split; [reflexivity|]. split; [lia|]. split; [lia|]. split; assumption.
    - destruct (owner_ex (ct rank) ltac:(lia)) as (o & Ho & RO). rewrite (source_spec _ o Ho RO) by (unfold P, zlen in *; lia).
      replace (ct (rank + 1) =? 0) with false by lia.
      destruct (owner_ex (ct (rank + 1)) ltac:(lia)) as (o2 & Ho2 & RO2). pose proof (owner_mono _ _ _ _ Ho Ho2 RO RO2 ltac:(lia)).
      rewrite (source_spec _ o2 Ho2 RO2) by (unfold P, zlen in *; lia).
      exists (Some o), (Some o2). split; [reflexivity|]. split; (split; [lia|]; split; assumption).
  Qed.

  (** the indices of the cuts in a rank are a range *)
  Lemma send_range_spec rank : 0 <= rank < P -> exists lo hi, send_range prec P gws total rank (Z.to_nat P) 1 P 0 = Some (lo, hi) /\
    1 <= lo /\ hi <= P /\ forall j, 1 <= j <= P -> (R rank (ct j) = true <-> lo <= j <= hi).
  Proof.
    intros H. destruct cut_facts as (C0 & CP & CM).
    assert (G : forall n i lo hi, 1 <= i -> i + Z.of_nat n = P + 1 ->
      ((lo = P /\ hi = 0 /\ forall j, 1 <= j < i -> R rank (ct j) = false) \/
       (1 <= lo <= hi /\ hi < i /\ forall j, 1 <= j < i -> (R rank (ct j) = true <-> lo <= j <= hi))) ->
      exists lo' hi', send_range prec P gws total rank n i lo hi = Some (lo', hi') /\
      ((lo' = P /\ hi' = 0 /\ forall j, 1 <= j < P + 1 -> R rank (ct j) = false) \/
       (1 <= lo' <= hi' /\ hi' < P + 1 /\ forall j, 1 <= j < P + 1 -> (R rank (ct j) = true <-> lo' <= j <= hi')))).
    { induction n as [|n IH]; intros i lo hi Hi Hn HI; cbn [send_range].
      - replace (P + 1) with i by lia. exists lo, hi. split; [reflexivity|exact HI].
      - rewrite in_range_spec by lia. fold (ct i). destruct (R rank (ct i)) eqn:C.
        + apply IH; try lia. right. destruct HI as [(-> & -> & HI)|(H1 & H2 & HI)].
          * split; [lia|]. split; [lia|]. intros j Hj. destruct (Z.eq_dec j i) as [->|Ne]; [split; intros; [lia|exact C]|].
            rewrite (HI j ltac:(lia)). split; [discriminate|lia].
          * assert (hi = i - 1).
            { destruct (Z.eq_dec hi (i - 1)); [assumption|exfalso]. pose proof (proj2 (HI lo ltac:(lia)) ltac:(lia)) as RL.
              assert (RH : R rank (ct (hi + 1)) = true).
              { unfold R in *. destruct (CM lo (hi + 1) ltac:(lia) ltac:(lia)) as [? _]. destruct (CM (hi + 1) i ltac:(lia) ltac:(lia)) as [? _]. lia. }
              apply (HI (hi + 1) ltac:(lia)) in RH. lia. }
            split; [lia|]. split; [lia|]. intros j Hj. destruct (Z.eq_dec j i) as [->|Ne]; [split; intros; [lia|exact C]|].
            rewrite (HI j ltac:(lia)). lia.
        + apply IH; try lia. destruct HI as [(-> & -> & HI)|(H1 & H2 & HI)].
          * left. split; [reflexivity|]. split; [reflexivity|]. intros j Hj. destruct (Z.eq_dec j i) as [->|Ne]; [exact C|]. apply HI. lia.
          * right. split; [lia|]. split; [lia|]. intros j Hj. destruct (Z.eq_dec j i) as [->|Ne]; [rewrite C; split; [discriminate|lia]|]. apply HI. lia. }
    assert (ZP : Z.of_nat (Z.to_nat P) = P) by (unfold P, zlen; lia).
    destruct (G (Z.to_nat P) 1 P 0 ltac:(lia) ltac:(lia)) as (lo & hi & E & [(-> & -> & HI)|(H1 & H2 & HI)]).
    - left. split; [reflexivity|]. split; [reflexivity|]. intros j Hj. lia.
    - exists P, 0. split; [exact E|]. split; [unfold P in *; lia|]. split; [unfold P in *; lia|]. intros j Hj. rewrite HI by lia. split; [discriminate|lia].
    - exists lo, hi. split; [exact E|]. split; [lia|]. split; [lia|]. intros j Hj. apply HI. lia.
  Qed.

  Definition val (r i : Z) : Z := lower_bound (ct i) (running (gw r) (wr r)) 0 + gf r.
  Definition msgs_of_cut (r i : Z) : list wmsg :=
    if i <? P then [mkwmsg r i LOW (val r i); mkwmsg r (i - 1) HIGH (val r i)] else [mkwmsg r (i - 1) HIGH N].

  Lemma send_loop_spec r : 0 <= r < P -> forall n i, send_loop prec P gfq N total r (running (gw r) (wr r)) n i = Some (flat_map (msgs_of_cut r) (zseq i n)).
  Proof.
    intros H. induction n as [|n IH]; intros i; [reflexivity|]. cbn [send_loop zseq flat_map]. rewrite gfq_get by lia. rewrite IH.
    assert (E : msgs_of_cut r i = if i <? P then [mkwmsg r i LOW (val r i); mkwmsg r (i - 1) HIGH (val r i)] else [mkwmsg r (i - 1) HIGH N]) by reflexivity.
    rewrite E. fold (ct i). destruct (i <? P); reflexivity.
  Qed.

  Definition msgs_of (r : Z) : list wmsg := flat_map (fun i => if R r (ct i) then msgs_of_cut r i else []) (zseq 1 (Z.to_nat P)).

  Lemma wsends_spec r : 0 <= r < P -> wsends prec P gws gfq N total r (wr r) = Some (msgs_of r).
  Proof.
    intros H. unfold wsends. rewrite gws_get by lia. destruct (send_range_spec r H) as (lo & hi & E & Hlo & Hhi & HR). rewrite E, send_loop_spec by exact H. f_equal.
    assert (ZP : Z.of_nat (Z.to_nat P) = P) by (unfold P, zlen; lia).
    unfold msgs_of. assert (G : forall n i, 1 <= i -> i + Z.of_nat n = P + 1 ->
      flat_map (fun j => if R r (ct j) then msgs_of_cut r j else []) (zseq i n) = flat_map (msgs_of_cut r) (zseq (Z.max lo i) (Z.to_nat (hi - Z.max lo i + 1)))).
    { induction n as [|n IH]; intros i Hi Hn.
      - replace (Z.to_nat (hi - Z.max lo i + 1)) with 0%nat by lia. reflexivity.
      - cbn [zseq flat_map]. rewrite IH by lia. destruct (R r (ct i)) eqn:C.
        + apply (HR i ltac:(lia)) in C. replace (Z.max lo i) with i by lia. replace (Z.max lo (i + 1)) with (i + 1) by lia.
          replace (Z.to_nat (hi - i + 1)) with (S (Z.to_nat (hi - (i + 1) + 1))) by lia. reflexivity.
        + assert (NR : ~ lo <= i <= hi) by (intros NR; apply (HR i ltac:(lia)) in NR; congruence). cbn [app].
          destruct (Z_lt_le_dec i lo).
          * replace (Z.max lo i) with lo by lia. replace (Z.max lo (i + 1)) with lo by lia. reflexivity.
          * replace (Z.to_nat (hi - Z.max lo (i + 1) + 1)) with 0%nat by lia. replace (Z.to_nat (hi - Z.max lo i + 1)) with 0%nat by lia. reflexivity. }
    rewrite (G (Z.to_nat P) 1) by lia. replace (Z.max lo 1) with lo by lia. reflexivity.
  Qed.

  Lemma all_wmsgs_spec : all_wmsgs prec W = Some (flat_map msgs_of (zseq 0 (length W))).
  Proof.
    unfold all_wmsgs. fold P gws gfq N total. rewrite combine_zseq, map_map. cbn [fst snd].
    rewrite (all_some_map _ msgs_of).
    - cbn [option_map]. f_equal. symmetry. apply flat_map_concat_map.
    - intros r Hr. apply in_zseq in Hr. rewrite Z.sub_0_r. apply wsends_spec. unfold P, zlen. lia.
  Qed.

  Definition the_msgs := flat_map msgs_of (zseq 0 (length W)).

  Lemma msgs_src r : forall m, In m (msgs_of r) -> w_src m = r.
  Proof.
    intros m H. unfold msgs_of in H. apply in_flat_map in H. destruct H as (i & _ & H). destruct (R r (ct i)); [|destruct H].
    unfold msgs_of_cut in H. destruct (i <? P); cbn [In] in H; intuition (subst; reflexivity).
  Qed.
  Lemma filter_none {A} (p : A -> bool) l : (forall x, In x l -> p x = false) -> filter p l = [].
  Proof. clear. induction l as [|x l IH]; intros H; [reflexivity|]. cbn [filter]. rewrite (H x) by (left; reflexivity). apply IH. intros; apply H; right; assumption. Qed.

  Lemma matching_low s dst : 0 <= s < P -> 0 <= dst < P ->
    matching the_msgs s dst LOW = if (1 <=? dst) && R s (ct dst) then [mkwmsg s dst LOW (val s dst)] else [].
  Proof.
    intros Hs Hd. unfold matching, the_msgs. rewrite filter_flat_map. rewrite (flat_map_one _ s).
    2:{ intros i Hi. apply filter_none. intros m Hm. apply msgs_src in Hm. lia. }
    rewrite zP. replace ((0 <=? s) && (s <? 0 + P)) with true by lia. unfold msgs_of. rewrite filter_flat_map. rewrite (flat_map_one _ dst).
    - replace (dst <? 1 + Z.of_nat (Z.to_nat P)) with true by lia. rewrite andb_true_r. destruct (1 <=? dst); [|reflexivity]. cbn [andb].
      destruct (R s (ct dst)); [|reflexivity]. unfold msgs_of_cut. replace (dst <? P) with true by lia. cbn [filter w_src w_dst w_tag tag_eqb].
      rewrite !Z.eqb_refl. rewrite !andb_false_r. reflexivity.
    - intros i Hi. destruct (R s (ct i)); [|reflexivity]. unfold msgs_of_cut. destruct (i <? P); cbn [filter w_src w_dst w_tag tag_eqb]; rewrite ?andb_false_r; [|reflexivity].
      replace (i =? dst) with false by lia. rewrite andb_false_r. reflexivity.
  Qed.
  Lemma matching_high s dst : 0 <= s < P -> 0 <= dst < P ->
    matching the_msgs s dst HIGH = if R s (ct (dst + 1)) then [mkwmsg s dst HIGH (if dst + 1 <? P then val s (dst + 1) else N)] else [].
  Proof.
    intros Hs Hd. unfold matching, the_msgs. rewrite filter_flat_map. rewrite (flat_map_one _ s).
    2:{ intros i Hi. apply filter_none. intros m Hm. apply msgs_src in Hm. lia. }
    rewrite zP. replace ((0 <=? s) && (s <? 0 + P)) with true by lia. unfold msgs_of. rewrite filter_flat_map. rewrite (flat_map_one _ (dst + 1)).
    - replace ((1 <=? dst + 1) && (dst + 1 <? 1 + Z.of_nat (Z.to_nat P))) with true by lia.
      destruct (R s (ct (dst + 1))); [|reflexivity]. unfold msgs_of_cut. replace (dst + 1 - 1) with dst by lia.
      destruct (dst + 1 <? P); cbn [filter w_src w_dst w_tag tag_eqb]; rewrite !Z.eqb_refl, ?andb_false_r; reflexivity.
    - intros i Hi. destruct (R s (ct i)); [|reflexivity]. unfold msgs_of_cut. destruct (i <? P); cbn [filter w_src w_dst w_tag tag_eqb]; rewrite ?andb_false_r;
      replace (i - 1 =? dst) with false by lia; rewrite ?andb_false_r; reflexivity.
  Qed.

  (** the value for a cut is the lowest index *)
  Lemma val_lowest r i : 0 <= r < P -> 0 <= i <= P -> R r (ct i) = true -> lowest (concat W) (ct i) (val r i).
  Proof.
    intros Hr Hi HR. unfold R in HR. pose proof (gw_step r Hr) as GS. pose proof (gf_step r Hr) as FS.
    assert (NG : forall k, (k <= length (wr r))%nat -> nth_error (running (gw r) (wr r)) k = Some (gw r + pre (wr r) k)) by (intros k Hk; apply running_nth; exact Hk).
    destruct (lower_bound_spec (ct i) (running (gw r) (wr r)) 0) as (j & x & E1 & E2 & E3 & E4).
    { exists (gw (r + 1)). split; [|lia]. eapply nth_error_In. rewrite (NG (length (wr r))) by lia. rewrite GS, wsum_pre. reflexivity. }
    assert (Hj : (j <= length (wr r))%nat).
    { assert (j < length (running (gw r) (wr r)))%nat by (apply nth_error_Some; congruence). rewrite running_length in H. lia. }
    rewrite NG in E2 by exact Hj. injection E2 as <-.
    assert (PC : forall k, (k <= length (wr r))%nat -> wsum (firstn (Z.to_nat (gf r + Z.of_nat k)) (concat W)) = gw r + pre (wr r) k).
    { intros k Hk. rewrite pre_wsum. pose proof (gf_nonneg r). replace (Z.to_nat (gf r + Z.of_nat k)) with (Z.to_nat (gf r) + k)%nat by lia.
      apply (pre_concat W (Z.to_nat r) (wr r) k); [apply wr_get; exact Hr|exact Hk]. }
    unfold val. rewrite E1. replace (0 + Z.of_nat j + gf r) with (gf r + Z.of_nat j) by lia. split; [|split].
    - pose proof (gf_nonneg r). pose proof (gf_mono (r + 1) P ltac:(lia)) as GM. rewrite gf_P in GM. unfold N in GM. unfold zlen in *. lia.
    - rewrite PC by exact Hj. exact E3.
    - intros k Hk. destruct (Z_lt_le_dec k (gf r)) as [L|L].
      + assert (wsum (firstn (Z.to_nat k) (concat W)) <= gw r); [|lia].
        rewrite pre_wsum. assert (E0 : gw r = pre (concat W) (Z.to_nat (gf r))).
        { rewrite <- pre_wsum. specialize (PC 0%nat ltac:(lia)). rewrite pre_0 in PC. replace (gf r + Z.of_nat 0) with (gf r) in PC by lia. lia. }
        rewrite E0. apply pre_mono; [|lia]. apply Forall_concat. exact Hnn.
      + pose proof (gf_nonneg r). replace k with (gf r + Z.of_nat (Z.to_nat (k - gf r))) by lia. rewrite PC by lia.
        apply (E4 (Z.to_nat (k - gf r))); [lia|]. apply NG. lia.
  Qed.

  (** the position of cut p *)
  Definition kpos_ok (p k : Z) : Prop := if p <? P then lowest (concat W) (ct p) k else k = N.

  Lemma wcount_spec p : 0 <= p < P -> exists l h, wcount prec P gws total the_msgs p = Some (h - l) /\ kpos_ok p l /\ kpos_ok (p + 1) h.
  Proof.
    intros H. destruct cut_facts as (C0 & CP & CM). destruct (wrecvs_spec p H) as (low & high & E & HL & HH). unfold wcount. rewrite E.
    assert (L0 : forall c, c = 0 -> lowest (concat W) c 0).
    { intros c ->. split; [unfold zlen; lia|]. split; [cbn; lia|]. intros j Hj. lia. }
    assert (EL : exists l, received the_msgs low p LOW = Some l /\ kpos_ok p l).
    { unfold kpos_ok. replace (p <? P) with true by lia. destruct low as [o|]; cbn [received].
      - destruct HL as (H1 & H2 & H3). rewrite matching_low by lia. replace (1 <=? p) with true by (destruct (Z.eq_dec p 0) as [->|]; lia). rewrite H3. cbn [andb w_val].
        eexists. split; [reflexivity|]. apply val_lowest; [lia|lia|exact H3].
      - exists 0. split; [reflexivity|]. apply L0. exact HL. }
    destruct EL as (l & EL & KL). rewrite EL.
    assert (EH : exists h, received the_msgs high p HIGH = Some h /\ kpos_ok (p + 1) h).
    { unfold kpos_ok. destruct high as [o|]; cbn [received].
      - destruct HH as (H1 & H2 & H3). rewrite matching_high by lia. rewrite H3. cbn [w_val].
        eexists. split; [reflexivity|]. destruct (p + 1 <? P) eqn:C; [|reflexivity]. apply val_lowest; [lia|lia|exact H3].
      - exists 0. split; [reflexivity|]. destruct (p + 1 <? P) eqn:C; [apply L0; exact HH|]. assert (p + 1 = P) by lia. rewrite H0, CP in HH. unfold total in HH. lia. }
    destruct EH as (h & EH & KH). rewrite EH. exists l, h. auto.
  Qed.

  Lemma lowest_unique c k k' : lowest (concat W) c k -> lowest (concat W) c k' -> k = k'.
  Proof.
    intros (A1 & A2 & A3) (B1 & B2 & B3). destruct (Z.lt_trichotomy k k') as [L|[L|L]]; [|exact L|].
    - specialize (B3 k ltac:(lia)). lia.
    - specialize (A3 k' ltac:(lia)). lia.
  Qed.
  Lemma kpos_unique p k k' : kpos_ok p k -> kpos_ok p k' -> k = k'.
  Proof. unfold kpos_ok. destruct (p <? P); [apply lowest_unique|congruence]. Qed.
  Lemma kpos_mono p k k' : 0 <= p < P -> kpos_ok p k -> kpos_ok (p + 1) k' -> k <= k'.
  Proof.
    intros Hp. unfold kpos_ok. replace (p <? P) with true by lia. intros (A1 & A2 & A3). destruct (p + 1 <? P) eqn:C; [|intros ->; unfold N; lia].
    intros (B1 & B2 & B3). destruct (Z_le_gt_dec k k') as [L|L]; [exact L|]. specialize (A3 k' ltac:(lia)).
    destruct cut_facts as (_ & _ & CM). destruct (CM p (p + 1) ltac:(lia) ltac:(lia)) as [? _]. lia.
  Qed.

  (** the counts of all ranks from p on *)
  Lemma counts_from : forall n p k, 0 <= p -> p + Z.of_nat n = P -> kpos_ok p k ->
    exists counts, all_some (map (wcount prec P gws total the_msgs) (zseq p n)) = Some counts /\ length counts = n /\ Forall (Z.le 0) counts /\ wsum counts = N - k /\
    forall i, (i <= n)%nat -> kpos_ok (p + Z.of_nat i) (k + wsum (firstn i counts)).
  Proof.
    induction n as [|n IH]; intros p k Hp Hn Hk.
    - exists []. split; [reflexivity|]. split; [reflexivity|]. split; [constructor|]. unfold kpos_ok in Hk. replace (p <? P) with false in Hk by lia. split; [cbn; lia|].
      intros i Hi. assert (i = 0)%nat by lia. subst i. replace (p + Z.of_nat 0) with P by lia. unfold kpos_ok. rewrite Z.ltb_irrefl. cbn. lia.
    - destruct (wcount_spec p ltac:(lia)) as (l & h & E & KL & KH). assert (l = k) by (apply (kpos_unique p); assumption). subst l.
      destruct (IH (p + 1) h ltac:(lia) ltac:(lia) KH) as (cs & E2 & L & F & Sm & K).
      cbn [zseq map all_some]. rewrite E, E2. exists (h - k :: cs). split; [reflexivity|]. split; [cbn [length]; lia|].
      pose proof (kpos_mono p k h ltac:(lia) Hk KH). split; [constructor; [lia|exact F]|]. split; [rewrite wsum_cons; lia|].
      intros i Hi. destruct i as [|i]; [cbn [firstn wsum fold_right]; rewrite !Z.add_0_r; exact Hk|].
      cbn [firstn]. rewrite wsum_cons. replace (p + Z.of_nat (S i)) with (p + 1 + Z.of_nat i) by lia.
      replace (k + (h - k + wsum (firstn i cs))) with (h + wsum (firstn i cs)) by lia. apply K. lia.
  Qed.

  Lemma weighted_spec : exists counts, weighted_counts prec W = Some (Some counts) /\ length counts = length W /\ Forall (Z.le 0) counts /\ wsum counts = N /\
    forall p, 0 <= p <= P -> kpos_ok p (wsum (firstn (Z.to_nat p) counts)).
  Proof.
    destruct cut_facts as (C0 & _). destruct (counts_from (length W) 0 0 ltac:(lia)) as (cs & E & L & F & Sm & K).
    - reflexivity.
    - unfold kpos_ok. replace (0 <? P) with true by (unfold P; lia). rewrite C0. split; [unfold zlen; lia|]. split; [cbn; lia|]. intros j Hj. lia.
    - exists cs. unfold weighted_counts. fold P gws. rewrite gws_get by (unfold P; lia). rewrite gw_P. replace (total =? 0) with false by (unfold total; lia).
      rewrite all_wmsgs_spec. fold the_msgs. rewrite E. split; [reflexivity|]. split; [exact L|]. split; [exact F|]. split; [lia|].
      intros p Hp. specialize (K (Z.to_nat p) ltac:(unfold P, zlen in Hp; lia)). replace (0 + Z.of_nat (Z.to_nat p)) with p in K by lia. exact K.
  Qed.
End W.
