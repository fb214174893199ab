(** * Lemmas on permuted arrays *)

From Coq Require Import ZArith List Bool Lia ZifyBool.
From Verif Require Import Quad Neighbor Transform Partition Conn ConnLemmas Permute.
Import ListNotations.
Open Scope Z_scope.

(** a permutation of 0, ..., n-1 *)
Definition is_perm (n : Z) (l : list Z) : Prop := zlen l = n /\ NoDup l /\ forall x, In x l -> 0 <= x < n.
(** the image of a tree; the identity outside of the range *)
Definition sigma (perm : list Z) (i : Z) : Z := match zget perm i with Some x => x | None => i end.

Lemma zg {A} (l : list A) i : 0 <= i -> zget l i = nth_error l (Z.to_nat i).
Proof. intros H. unfold zget. replace (i <? 0) with false by lia. reflexivity. Qed.
Lemma zg_app1 {A} (l m : list A) i : i < zlen l -> zget (l ++ m) i = zget l i.
Proof. unfold zget, zlen. intros H. destruct (i <? 0) eqn:E; [reflexivity|]. apply nth_error_app1. lia. Qed.
Lemma zg_app2 {A} (l m : list A) i : zlen l <= i -> zget (l ++ m) i = zget m (i - zlen l).
Proof.
  unfold zget, zlen. intros H. replace (i <? 0) with false by lia. replace (i - Z.of_nat (length l) <? 0) with false by lia.
  rewrite nth_error_app2 by lia. f_equal. lia.
Qed.
Lemma zlen_app' {A} (l m : list A) : zlen (l ++ m) = zlen l + zlen m.
Proof. unfold zlen. rewrite app_length. lia. Qed.
Lemma zg_ex {A} (l : list A) x : In x l -> exists i, 0 <= i < zlen l /\ zget l i = Some x.
Proof.
  intros I. apply In_nth_error in I as (n & E). exists (Z.of_nat n). assert (n < length l)%nat by (apply nth_error_Some; congruence).
  unfold zlen. split; [lia|]. rewrite zg by lia. rewrite Nat2Z.id. auto.
Qed.
Lemma nodup_inj (l : list Z) i j x : NoDup l -> zget l i = Some x -> zget l j = Some x -> i = j.
Proof.
  intros N E F. pose proof (zget_range _ _ _ E) as Ri. pose proof (zget_range _ _ _ F) as Rj.
  rewrite zg in E, F by lia. unfold zlen in *. assert (Z.to_nat i = Z.to_nat j); [|lia].
  apply (proj1 (NoDup_nth_error l) N); [lia|congruence].
Qed.

Section Perm.
  Variables (n : Z) (perm : list Z).
  Hypothesis P : is_perm n perm.
  Lemma sigma_get i : 0 <= i < n -> zget perm i = Some (sigma perm i).
  Proof. intros Hi. destruct P as (L & _). unfold sigma. destruct (zget_some perm i ltac:(lia)) as (x & ->). reflexivity. Qed.
  Lemma sigma_rng a : 0 <= sigma perm a < n <-> 0 <= a < n.
  Proof.
    destruct P as (L & N & B). split; intros H.
    - unfold sigma in H. destruct (zget perm a) as [x|] eqn:E; [apply zget_range in E; lia|lia].
    - apply B. eapply zget_in. apply sigma_get. auto.
  Qed.
  Lemma sigma_inj a b : sigma perm a = sigma perm b -> a = b.
  Proof.
    intros E. pose proof (sigma_rng a) as Ra. pose proof (sigma_rng b) as Rb. rewrite E in Ra.
    assert (C : 0 <= a < n \/ ~ 0 <= a < n) by lia. destruct C as [C|C].
    - assert (Cb : 0 <= b < n) by tauto. apply (nodup_inj perm _ _ (sigma perm a)); [apply P|apply sigma_get; auto|rewrite E; apply sigma_get; auto].
    - assert (Cb : ~ 0 <= b < n) by tauto. destruct P as (L & _). unfold sigma in E.
      destruct (zget perm a) eqn:E1; [apply zget_range in E1; lia|]. destruct (zget perm b) eqn:E2; [apply zget_range in E2; lia|]. auto.
  Qed.
  Lemma sigma_onto s : 0 <= s < n -> exists t, sigma perm t = s.
  Proof.
    intros Hs. destruct P as (L & N & B).
    assert (I : incl (map Z.of_nat (seq 0 (Z.to_nat n))) perm).
    { apply NoDup_length_incl; [auto| |].
      - rewrite map_length, seq_length. unfold zlen in L. lia.
      - intros x Ix. apply B in Ix. apply in_map_iff. exists (Z.to_nat x). split; [lia|]. apply in_seq. lia. }
    assert (Is : In s perm) by (apply I; apply in_map_iff; exists (Z.to_nat s); split; [lia|]; apply in_seq; lia).
    destruct (zg_ex _ _ Is) as (i & Hi & E). exists i. unfold sigma. rewrite E. reflexivity.
  Qed.

  Lemma index_of_get s : forall l k i, NoDup l -> zget l i = Some s -> index_of l s k = Some (k + i).
  Proof.
    induction l as [|x l IH]; intros k i N E; [unfold zget in E; destruct (i <? 0); [discriminate|destruct (Z.to_nat i); discriminate]|].
    cbn [index_of]. pose proof (zget_range _ _ _ E) as Ri. rewrite zg in E by lia.
    destruct (x =? s) eqn:EX.
    - assert (x = s) by lia. subst x. destruct (Z.to_nat i) as [|m] eqn:EM; [f_equal; lia|]. cbn in E. inversion_clear N. exfalso. apply H.
      eapply nth_error_In. exact E.
    - destruct (Z.to_nat i) as [|m] eqn:EM; [cbn in E; injection E as ->; lia|]. cbn in E. inversion_clear N.
      rewrite (IH (k + 1) (Z.of_nat m)); [f_equal; lia|auto|]. rewrite zg by lia. rewrite Nat2Z.id. auto.
  Qed.

  Lemma cat_get {A} (f : Z -> option (list A)) k : 0 < k -> forall m s, (forall j, s <= j < s + Z.of_nat m -> exists b, f j = Some b /\ zlen b = k) ->
    exists r, cat f s m = Some r /\ zlen r = k * Z.of_nat m /\
      forall j i b, s <= j < s + Z.of_nat m -> 0 <= i < k -> f j = Some b -> zget r (k * (j - s) + i) = zget b i.
  Proof.
    intros Hk. induction m as [|m IH]; intros s H; cbn [cat].
    - exists []. split; [reflexivity|]. split; [cbn; lia|]. intros; lia.
    - destruct (H s ltac:(lia)) as (b & Eb & Lb). destruct (IH (s + 1)) as (r & Er & Lr & G); [intros j Hj; apply H; lia|].
      rewrite Eb, Er. exists (b ++ r). split; [reflexivity|]. split; [rewrite zlen_app'; lia|].
      intros j i b' Hj Hi E. destruct (Z.eq_dec j s) as [->|NE].
      + rewrite Eb in E. injection E as <-. replace (k * (s - s) + i) with i by lia. apply zg_app1. lia.
      + assert (k * 1 <= k * (j - s)) by (apply Z.mul_le_mono_nonneg_l; lia).
        rewrite zg_app2 by lia. rewrite Lb. replace (k * (j - s) + i - k) with (k * (j - (s + 1)) + i) by ring. apply G; [lia|auto|auto].
  Qed.

  Lemma permute_array_get k l : 0 < k -> 0 <= n -> zlen l = k * n -> exists r, permute_array k perm l = Some r /\ zlen r = k * n /\
    forall t i, 0 <= t < n -> 0 <= i < k -> zget r (k * sigma perm t + i) = zget l (k * t + i).
  Proof.
    intros Hk Hn L. unfold permute_array. set (f := fun s => match index_of perm s 0 with None => None | Some i => zslice l (k * i) (Z.to_nat k) end).
    assert (F : forall t, 0 <= t < n -> f (sigma perm t) = zslice l (k * t) (Z.to_nat k)).
    { intros t Ht. unfold f. rewrite (index_of_get _ _ 0 t); [rewrite Z.add_0_l; reflexivity|apply P|apply sigma_get; auto]. }
    assert (S1 : forall t, 0 <= t < n -> exists b, zslice l (k * t) (Z.to_nat k) = Some b).
    { intros t Ht. assert (k * (t + 1) <= k * n) by (apply Z.mul_le_mono_nonneg_l; lia). apply zslice_some; lia. }
    assert (LP : Z.of_nat (length perm) = n) by (apply P).
    destruct (cat_get f k Hk (length perm) 0) as (r & Er & Lr & G).
    { intros j Hj. destruct (sigma_onto j ltac:(lia)) as (t & <-). assert (Ht : 0 <= t < n) by (apply sigma_rng; lia).
      rewrite F by auto. destruct (S1 t Ht) as (b & E). exists b. split; [auto|]. destruct (zslice_nth _ _ _ _ E) as (Q & _). unfold zlen. lia. }
    exists r. split; [auto|]. split; [lia|]. intros t i Ht Hi. destruct (S1 t Ht) as (b & E). destruct (zslice_nth _ _ _ _ E) as (Lb & Q).
    pose proof (proj2 (sigma_rng t) Ht) as RS. rewrite <- F in E by auto. pose proof (G (sigma perm t) i b ltac:(lia) Hi E) as G1.
    rewrite Z.sub_0_r in G1. rewrite G1. rewrite zg by lia. rewrite Q by lia. f_equal. rewrite Z2Nat.id by lia. reflexivity.
  Qed.

  Lemma rename_get : forall m l, (forall j, 0 <= j < Z.of_nat m -> exists x, zget l j = Some x /\ 0 <= x < n) ->
    exists r, rename perm l m = Some r /\ zlen r = zlen l /\ forall j, 0 <= j < Z.of_nat m -> zget r j = option_map (sigma perm) (zget l j).
  Proof.
    induction m as [|m IH]; intros l H; cbn [rename]; [exists l; split; [destruct l; reflexivity|]; split; [reflexivity|intros j Hj; lia]|].
    destruct l as [|x l]; [destruct (H 0 ltac:(lia)) as (x & E & _); discriminate E|].
    destruct (H 0 ltac:(lia)) as (x' & E & Rx). cbn in E. injection E as <-. cbn [rename]. rewrite sigma_get by auto.
    assert (TL : forall j, 0 <= j -> zget (x :: l) (j + 1) = zget l j) by (intros j Hj; rewrite !zg by lia; replace (Z.to_nat (j + 1)) with (S (Z.to_nat j)) by lia; reflexivity).
    destruct (IH l) as (r & -> & Lr & G). { intros j Hj. destruct (H (j + 1) ltac:(lia)) as (y & Ey & Ry). exists y. rewrite <- TL by lia. auto. }
    exists (sigma perm x :: r). split; [reflexivity|]. split; [unfold zlen in *; cbn [length]; lia|].
    assert (TL' : forall j, 0 <= j -> zget (sigma perm x :: r) (j + 1) = zget r j) by (intros j Hj; rewrite !zg by lia; replace (Z.to_nat (j + 1)) with (S (Z.to_nat j)) by lia; reflexivity).
    intros j Hj. destruct (Z.eq_dec j 0) as [->|NE]; [reflexivity|]. replace j with (j - 1 + 1) by lia. rewrite TL, TL' by lia. apply G. lia.
  Qed.

  Lemma identity_id : identity perm = true -> forall t, sigma perm t = t.
  Proof.
    intros I t. unfold sigma. destruct (zget perm t) as [x|] eqn:E; [|reflexivity]. pose proof (zget_range _ _ _ E) as Rt. rewrite zg in E by lia.
    unfold identity in I. rewrite forallb_forall in I.
    assert (IN : In (x, t) (combine perm (map Z.of_nat (seq 0 (length perm))))).
    { assert (NE : forall (l m : list Z) k, nth_error (combine l m) k = match nth_error l k, nth_error m k with Some a, Some b => Some (a, b) | _, _ => None end).
      { clear. induction l as [|a l IH]; intros [|b m] [|k]; cbn; auto. destruct (nth_error l k); auto. }
      apply (nth_error_In _ (Z.to_nat t)). rewrite NE, E. rewrite nth_error_map.
      assert (SQ : forall m a k, (k < m)%nat -> nth_error (seq a m) k = Some (a + k)%nat).
      { clear. induction m as [|m IH]; intros a [|k] H; cbn; [lia|lia|f_equal; lia|]. rewrite IH by lia. f_equal. lia. }
      rewrite SQ by (unfold zlen in Rt; lia). cbn. repeat f_equal. lia. }
    apply I in IN. cbn in IN. lia.
  Qed.
End Perm.

(** perm[inperm[ti]] = ti *)
Lemma zlen_put l i v : 0 <= i < zlen l -> zlen (put l i v) = zlen l.
Proof. intros H. unfold put, zlen in *. rewrite app_length, firstn_length. cbn [length]. rewrite skipn_length. lia. Qed.
Lemma get_put l i v j : 0 <= i < zlen l -> zget (put l i v) j = if j =? i then Some v else zget l j.
Proof.
  intros H. unfold put. destruct (j <? i) eqn:E.
  - replace (j =? i) with false by lia. rewrite zg_app1 by (unfold zlen in *; rewrite firstn_length; lia).
    unfold zget. destruct (j <? 0) eqn:E0; [reflexivity|]. assert (J : (Z.to_nat j < Z.to_nat i)%nat) by lia. clear - J.
    revert l J. generalize (Z.to_nat j) (Z.to_nat i). intros a b. revert a. induction b as [|b IH]; intros [|a] [|x l] J; cbn; auto; try lia. apply IH. lia.
  - assert (LF : zlen (firstn (Z.to_nat i) l) = i) by (unfold zlen in *; rewrite firstn_length; lia).
    rewrite zg_app2 by lia. rewrite LF. destruct (j =? i) eqn:E1; [replace (j - i) with 0 by lia; reflexivity|].
    rewrite !zg by lia. replace (Z.to_nat (j - i)) with (S (Z.to_nat (j - i - 1))) by lia. cbn [nth_error].
    assert (SK : forall m (l : list Z) k, nth_error (skipn m l) k = nth_error l (m + k)).
    { clear. induction m as [|m IH]; intros [|x l] k; cbn; auto. destruct k; auto. }
    rewrite SK. f_equal. lia.
Qed.
Lemma scatter_get n : forall inp ti acc, zlen acc = n -> NoDup inp -> (forall x, In x inp -> 0 <= x < n) ->
  exists r, scatter inp ti acc = Some r /\ zlen r = n /\
    (forall i s, zget inp i = Some s -> zget r s = Some (ti + i)) /\ (forall s, ~ In s inp -> zget r s = zget acc s).
Proof.
  induction inp as [|m inp IH]; intros ti acc L N B; cbn [scatter].
  - exists acc. split; [reflexivity|]. split; [auto|]. split; [|auto]. intros i s E. unfold zget in E. destruct (i <? 0); [discriminate|destruct (Z.to_nat i); discriminate].
  - inversion_clear N as [|? ? N1 N2]. pose proof (B m (or_introl eq_refl)) as Bm. rewrite L, (proj2 (range_true _ _ _) Bm).
    destruct (IH (ti + 1) (put acc m ti)) as (r & E & Lr & G1 & G2); [rewrite zlen_put; lia|auto|intros x I; apply B; right; auto|].
    exists r. split; [auto|]. split; [auto|]. split.
    + intros i s Es. pose proof (zget_range _ _ _ Es) as Ri. rewrite zg in Es by lia. destruct (Z.to_nat i) as [|k] eqn:K.
      * cbn in Es. injection Es as <-. rewrite G2 by auto. rewrite get_put by lia. rewrite Z.eqb_refl. f_equal. lia.
      * cbn in Es. rewrite (G1 (Z.of_nat k) s); [f_equal; lia|]. rewrite zg by lia. rewrite Nat2Z.id. auto.
    + intros s NI. rewrite G2 by (intros I; apply NI; right; auto). rewrite get_put by lia. destruct (s =? m) eqn:E1; [|reflexivity].
      exfalso. apply NI. left. lia.
Qed.
Lemma scatter_perm n inp : 0 <= n -> is_perm n inp -> exists r, scatter inp 0 (repeat (-1) (Z.to_nat n)) = Some r /\ is_perm n r /\
  (forall t, 0 <= t < n -> sigma r (sigma inp t) = t) /\ (forall t, 0 <= t < n -> sigma inp (sigma r t) = t).
Proof.
  intros Hn P. destruct P as (L & N & B).
  destruct (scatter_get n inp 0 (repeat (-1) (Z.to_nat n))) as (r & E & Lr & G & _); [unfold zlen; rewrite repeat_length; lia|auto|auto|].
  assert (PI : is_perm n inp) by (split; auto).
  assert (A1 : forall t, 0 <= t < n -> zget r (sigma inp t) = Some t) by (intros t Ht; rewrite (G t _ (sigma_get n inp PI t Ht)); f_equal; lia).
  exists r. split; [auto|].
  assert (A3 : forall s x, zget r s = Some x -> 0 <= x < n /\ sigma inp x = s).
  { intros s x Es. pose proof (zget_range _ _ _ Es) as Rs. rewrite Lr in Rs. destruct (sigma_onto n inp PI s Rs) as (t & <-).
    assert (Ht : 0 <= t < n) by (apply (sigma_rng n inp PI); auto). rewrite A1 in Es by auto. injection Es as <-. auto. }
  split; [|split].
  - split; [auto|]. split.
    + apply NoDup_nth_error. intros i j Hi Eij. destruct (nth_error r i) as [x|] eqn:E1; [|apply nth_error_None in E1; lia].
      assert (F1 : zget r (Z.of_nat i) = Some x) by (rewrite zg by lia; rewrite Nat2Z.id; auto).
      assert (F2 : zget r (Z.of_nat j) = Some x) by (rewrite zg by lia; rewrite Nat2Z.id; auto).
      apply A3 in F1. apply A3 in F2. lia.
    + intros x I. destruct (zg_ex _ _ I) as (i & Hi & F1). apply A3 in F1. tauto.
  - intros t Ht. unfold sigma at 1. rewrite A1 by auto. reflexivity.
  - intros s Hs. destruct (zget_some r s ltac:(lia)) as (x & Ex). unfold sigma at 2. rewrite Ex. apply A3. auto.
Qed.
