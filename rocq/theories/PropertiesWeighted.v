(** * C17: the weighted partition *)

From Coq Require Import ZArith List Bool Lia Arith ZifyBool.
From Verif Require Import Search Adapt Partition PartLemmas Comm CommLemmas Cut PropertiesCut Weighted WeightedLemmas.
Import ListNotations.
Open Scope Z_scope.

(** [W] are the weights of all quadrants, rank by rank.  Every rank computes the
    new counts; cut p is at the lowest index whose prefix weight reaches the p-th share *)
Theorem C17_weighted_counts : forall prec W, 53 <= prec <= 64 -> Forall (Forall (Z.le 0)) W -> 1 <= zlen W < 2 ^ 31 -> 0 < wsum (concat W) < 2 ^ 63 ->
  exists counts, weighted_counts prec W = Some (Some counts) /\
    zlen counts = zlen W /\ Forall (Z.le 0) counts /\ wsum counts = zlen (concat W) /\
    forall p, 0 <= p < zlen W -> lowest (concat W) (partition_cut prec (wsum (concat W)) p (zlen W)) (wsum (firstn (Z.to_nat p) counts)).
Proof.
  intros prec W Hprec Hnn HP Htot. destruct (weighted_spec prec W Hprec Hnn HP Htot) as (cs & E & L & F & Sm & K).
  exists cs. split; [exact E|]. split; [unfold zlen; lia|]. split; [exact F|]. split; [exact Sm|].
  intros p Hp. specialize (K p ltac:(unfold P; lia)). unfold kpos_ok in K. replace (p <? P W) with true in K by (unfold P; lia). exact K.
Qed.

(** all weights zero: the partition is not changed *)
Theorem C17_zero_weights : forall prec W, wsum (concat W) = 0 -> weighted_counts prec W = Some None.
Proof.
  intros prec W H. unfold weighted_counts. rewrite zget_nth by (unfold zlen; lia). rewrite running_nth by (rewrite map_length; unfold zlen; lia).
  replace (Z.to_nat (zlen W)) with (length W) by (unfold zlen; lia). rewrite <- wsum_concat, H. reflexivity.
Qed.

(** each process's weight, without its last element, is at most its share *)
Theorem C17_weight_bound : forall prec W, 53 <= prec <= 64 -> Forall (Forall (Z.le 0)) W -> 1 <= zlen W < 2 ^ 31 -> 0 < wsum (concat W) < 2 ^ 63 ->
  exists counts, weighted_counts prec W = Some (Some counts) /\
  forall p c, zget counts p = Some c ->
    let mine := firstn (Z.to_nat c) (skipn (Z.to_nat (wsum (firstn (Z.to_nat p) counts))) (concat W)) in
    let share := partition_cut prec (wsum (concat W)) (p + 1) (zlen W) - partition_cut prec (wsum (concat W)) p (zlen W) in
    zlen mine = c /\ forall l e, mine = l ++ [e] -> wsum l <= share /\ (e <= wsum mine) /\ wsum mine <= share + e.
Proof.
  intros prec W Hprec Hnn HP Htot. destruct (weighted_spec prec W Hprec Hnn HP Htot) as (cs & E & L & F & Sm & K).
  exists cs. split; [exact E|]. intros p c Ec mine share.
  assert (Hp : 0 <= p < zlen W).
  { unfold zget in Ec. destruct (p <? 0) eqn:C; [discriminate|]. assert (Z.to_nat p < length cs)%nat by (apply nth_error_Some; congruence). unfold zlen. lia. }
  rewrite zget_nth in Ec by lia. set (s := wsum (firstn (Z.to_nat p) cs)) in *.
  assert (Es : wsum (firstn (Z.to_nat (p + 1)) cs) = s + c).
  { unfold s. rewrite !pre_wsum. replace (Z.to_nat (p + 1)) with (S (Z.to_nat p)) by lia. apply pre_S. exact Ec. }
  assert (s0 : 0 <= s) by (unfold s; rewrite pre_wsum; apply pre_nonneg; exact F).
  assert (c0 : 0 <= c) by (rewrite Forall_forall in F; apply F; eapply nth_error_In; exact Ec).
  pose proof (K p ltac:(unfold P; lia)) as K1. pose proof (K (p + 1) ltac:(unfold P; lia)) as K2. fold s in K1. rewrite Es in K2.
  unfold kpos_ok in K1, K2. replace (p <? P W) with true in K1 by (unfold P; lia). destruct K1 as (A1 & A2 & A3).
  assert (SC : s + c <= zlen (concat W)) by (destruct (p + 1 <? P W); [destruct K2; lia|unfold N in K2; lia]).
  assert (LM : zlen mine = c).
  { unfold mine, zlen. rewrite firstn_length, skipn_length. unfold zlen in SC. lia. }
  split; [exact LM|]. intros l e EM.
  assert (FN : forall k, (k <= length mine)%nat -> wsum (firstn (Z.to_nat s + k) (concat W)) = wsum (firstn (Z.to_nat s) (concat W)) + wsum (firstn k mine)).
  { intros k Hk. rewrite <- wsum_app. f_equal. unfold mine. rewrite firstn_firstn. unfold zlen in LM. replace (Nat.min k (Z.to_nat c)) with k by lia.
    rewrite <- (firstn_skipn (Z.to_nat s) (concat W)) at 1. rewrite firstn_app, firstn_firstn, firstn_length. unfold zlen in A1.
    replace (Nat.min (Z.to_nat s + k) (Z.to_nat s)) with (Z.to_nat s) by lia. f_equal. f_equal. lia. }
  assert (NN : Forall (Z.le 0) mine).
  { unfold mine. apply Forall_forall. intros x Hx. assert (FC : Forall (Z.le 0) (concat W)) by (apply Forall_concat; exact Hnn). rewrite Forall_forall in FC. apply FC.
    rewrite <- (firstn_skipn (Z.to_nat s) (concat W)). apply in_or_app. right. rewrite <- (firstn_skipn (Z.to_nat c)). apply in_or_app. left. exact Hx. }
  assert (LL : length mine = S (length l)) by (rewrite EM, app_length; cbn; lia).
  assert (E1 : firstn (length l) mine = l) by (rewrite EM, firstn_app, firstn_all, Nat.sub_diag; cbn [firstn]; apply app_nil_r).
  assert (E2 : wsum mine = wsum l + e) by (rewrite EM, wsum_app; cbn; lia).
  assert (WL : 0 <= wsum l).
  { rewrite EM in NN. apply Forall_app in NN. destruct NN as [NN _]. rewrite wsum_pre. apply pre_nonneg. exact NN. }
  enough (wsum l <= share) by lia.
  assert (CE : ct prec W p = partition_cut prec (wsum (concat W)) p (zlen W)) by reflexivity.
  assert (CE1 : ct prec W (p + 1) = partition_cut prec (wsum (concat W)) (p + 1) (zlen W)) by reflexivity.
  unfold share. rewrite <- CE, <- CE1.
  destruct (p + 1 <? P W) eqn:C.
  - destruct K2 as (_ & _ & B3). assert (c1 : c = Z.of_nat (S (length l))) by (unfold zlen in LM; lia).
    specialize (B3 (s + c - 1) ltac:(lia)). replace (Z.to_nat (s + c - 1)) with (Z.to_nat s + length l)%nat in B3 by lia.
    rewrite FN in B3 by lia. rewrite E1 in B3. lia.
  - assert (EP : p + 1 = P W) by (unfold P in *; lia). destruct (cut_facts prec W Hprec Hnn HP Htot) as (_ & CP & _). rewrite EP, CP.
    specialize (FN (length mine) ltac:(lia)). rewrite firstn_all in FN. unfold N in K2.
    replace (Z.to_nat s + length mine)%nat with (length (concat W)) in FN by (unfold zlen in *; lia). rewrite firstn_all in FN. unfold total.
    assert (0 <= e) by (rewrite EM in NN; apply Forall_app in NN; destruct NN as [_ NN]; inversion NN; assumption). lia.
Qed.

(** Each receive has exactly one matching message and each message exactly one receive *)
Theorem C17_messages : forall prec W, 53 <= prec <= 64 -> Forall (Forall (Z.le 0)) W -> 1 <= zlen W < 2 ^ 31 -> 0 < wsum (concat W) < 2 ^ 63 ->
  exists msgs, all_wmsgs prec W = Some msgs /\
  (forall m, In m msgs -> 0 <= w_src m < zlen W /\ 0 <= w_dst m < zlen W) /\
  forall dst, 0 <= dst < zlen W -> exists low high, wrecvs prec (zlen W) (running 0 (map wsum W)) (wsum (concat W)) dst = Some (low, high) /\
  forall s, 0 <= s < zlen W ->
    length (matching msgs s dst LOW) = (if match low with Some o => o =? s | None => false end then 1%nat else 0%nat) /\
    length (matching msgs s dst HIGH) = (if match high with Some o => o =? s | None => false end then 1%nat else 0%nat).
Proof.
  intros prec W Hprec Hnn HP Htot. exists (the_msgs prec W). split; [apply all_wmsgs_spec; assumption|]. split.
  - intros m Hm. unfold the_msgs in Hm. apply in_flat_map in Hm. destruct Hm as (r & Hr & Hm). apply in_zseq in Hr.
    unfold msgs_of in Hm. apply in_flat_map in Hm. destruct Hm as (i & Hi & Hm). apply in_zseq in Hi. destruct (R W r (ct prec W i)); [|destruct Hm].
    unfold msgs_of_cut in Hm. unfold P in *. unfold zlen in *. destruct (i <? Z.of_nat (length W)) eqn:C; cbn [In] in Hm.
    + destruct Hm as [<-|[<-|[]]]; cbn [w_src w_dst]; lia.
    + destruct Hm as [<-|[]]; cbn [w_src w_dst]; lia.
  - intros dst Hd. destruct (wrecvs_spec prec W Hprec Hnn HP Htot dst Hd) as (low & high & E & HL & HH). exists low, high. split; [exact E|].
    intros s Hs. rewrite (matching_low prec W Hprec Hnn HP Htot s dst Hs Hd), (matching_high prec W Hprec Hnn HP Htot s dst Hs Hd).
    destruct (cut_facts prec W Hprec Hnn HP Htot) as (C0 & _ & CM).
    assert (G0 : forall r, 0 <= r -> R W r 0 = false).
    { intros r Hr. unfold R. assert (0 <= gw W r) by (apply pre_nonneg; apply (sums_nonneg prec W Hprec Hnn HP Htot)). lia. }
    assert (RU : forall o c, 0 <= o < zlen W -> R W o c = true -> R W s c = (o =? s)).
    { intros o c Ho HR. destruct (R W s c) eqn:RS; [pose proof (owner_unique prec W Hprec Hnn HP Htot o s c Ho Hs HR RS); lia|].
      destruct (o =? s) eqn:C; [|reflexivity]. replace o with s in HR by lia. congruence. }
    split.
    + destruct low as [o|].
      * destruct HL as (H1 & H2 & H3). rewrite (RU o _ H2 H3). replace (1 <=? dst) with true by (destruct (Z.eq_dec dst 0) as [->|]; lia).
        cbn [andb]. destruct (o =? s); reflexivity.
      * rewrite HL, G0 by lia. rewrite andb_false_r. reflexivity.
    + destruct high as [o|].
      * destruct HH as (H1 & H2 & H3). rewrite (RU o _ H2 H3). destruct (o =? s); reflexivity.
      * rewrite HH, G0 by lia. reflexivity.
Qed.

(** ** Example: four ranks, one of them empty, weights with zeros and one heavy element *)
Definition ex_weights : list (list Z) := [[1; 0; 2]; []; [9; 0]; [1; 1; 1; 0]].
Example C17_ex : Forall (Forall (Z.le 0)) ex_weights /\ 0 < wsum (concat ex_weights) /\
  weighted_counts 64 ex_weights = Some (Some [3; 1; 0; 5]) /\ weighted_counts 64 [[0; 0]; [0]] = Some None.
Proof. split; [repeat constructor; lia|]. vm_compute. repeat split; reflexivity. Qed.
Example C17_ex_msgs : option_map (map (fun m => (w_src m, w_dst m, w_tag m, w_val m))) (all_wmsgs 64 ex_weights) =
  Some [(0, 1, LOW, 3); (0, 0, HIGH, 3); (2, 2, LOW, 4); (2, 1, HIGH, 4); (2, 3, LOW, 4); (2, 2, HIGH, 4); (3, 3, HIGH, 9)].
Proof. vm_compute. reflexivity. Qed.

Print Assumptions C17_weighted_counts.
Print Assumptions C17_zero_weights.
Print Assumptions C17_weight_bound.
Print Assumptions C17_messages.
