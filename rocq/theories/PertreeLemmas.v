(** * Lemmas about the assignment of trees to ranks and the counts *)

From Coq Require Import ZArith List Bool Lia Arith ZifyBool.
From Verif Require Import Quad Search Adapt ListLemmas Partition PartLemmas Comm CommLemmas Pertree Transfer TransferLemmas.
Import ListNotations.
Open Scope Z_scope.

Fixpoint csum (f : Z -> Z) (n : nat) : Z := match n with O => 0 | S n' => csum f n' + f (Z.of_nat n') end.

Lemma csum_ext f g n : (forall k, 0 <= k < Z.of_nat n -> f k = g k) -> csum f n = csum g n.
Proof. induction n as [|n IH]; intros H; [reflexivity|]. cbn [csum]. rewrite IH by (intros; apply H; lia). rewrite H by lia. reflexivity. Qed.
Lemma csum_zero f n : (forall k, 0 <= k < Z.of_nat n -> f k = 0) -> csum f n = 0.
Proof. intros H. rewrite (csum_ext f (fun _ => 0)) by exact H. clear. induction n as [|n IH]; [reflexivity|]. cbn [csum]. lia. Qed.
(** a part in the middle where the functions agree *)
Lemma csum_diff f g a : forall n, (a <= n)%nat -> (forall k, Z.of_nat a <= k < Z.of_nat n -> f k = g k) -> csum f n - csum f a = csum g n - csum g a.
Proof.
  induction n as [|n IH]; intros L H; [assert (a = 0%nat) by lia; subst; reflexivity|].
  destruct (Nat.eq_dec a (S n)) as [->|N]; [lia|]. cbn [csum]. rewrite (H (Z.of_nat n)) by lia. specialize (IH ltac:(lia) ltac:(intros; apply H; lia)). lia.
Qed.

Section Assign.
  Variables (d : dim) (gfp : list marker) (P T : Z) (m : Z -> Z) (z : Z -> bool).
  Hypothesis HP : 1 <= P.
  Hypothesis HT : 1 <= T.
  Hypothesis Hg : forall p, 0 <= p <= P -> exists mk, zget gfp p = Some mk /\ g_tree mk = m p /\ at_zero d (g_quad mk) = z p.
  Hypothesis Hend : forall p, P < p -> zget gfp p = None.
  Hypothesis Hm : forall p, 0 <= p < P -> m p <= m (p + 1).
  Hypothesis Hz : forall p, 0 <= p < P -> m p = m (p + 1) -> z (p + 1) = true -> z p = true.
  Hypothesis Hm0 : m 0 = 0.
  Hypothesis Hz0 : z 0 = true.
  Hypothesis HmP : m P = T.
  Hypothesis HzP : z P = true.
  Set Default Proof Using "All".

  Lemma m_mono i j : 0 <= i -> i <= j -> j <= P -> m i <= m j.
  Proof.
    intros Hi Hij Hj. assert (H : forall n, i + Z.of_nat n <= P -> m i <= m (i + Z.of_nat n)).
    { induction n as [|n IH]; intros L; [replace (i + Z.of_nat 0) with i by lia; lia|].
      specialize (Hm (i + Z.of_nat n) ltac:(lia)). replace (i + Z.of_nat (S n)) with (i + Z.of_nat n + 1) by lia. specialize (IH ltac:(lia)). lia. }
    replace j with (i + Z.of_nat (Z.to_nat (j - i))) by lia. apply H. lia.
  Qed.
  Lemma m_le p : 0 <= p <= P -> 0 <= m p <= T.
  Proof. intros H. pose proof (m_mono 0 p ltac:(lia) ltac:(lia) ltac:(lia)). pose proof (m_mono p P ltac:(lia) ltac:(lia) ltac:(lia)). lia. Qed.
  Lemma mtree_spec p : 0 <= p <= P -> mtree gfp p = Some (m p).
  Proof. intros H. destruct (Hg p H) as (mk & E & <- & _). unfold mtree. rewrite E. reflexivity. Qed.

  Definition off (p : Z) : Z :=
    if p =? 0 then 0 else Z.min T (if m (p - 1) =? m p then m p + 1 else m p + (if z p then 0 else 1)).

  Lemma off_mono p : 0 <= p < P -> off p <= off (p + 1).
  Proof.
    intros Hp. unfold off. replace (p + 1 =? 0) with false by lia. replace (p + 1 - 1) with p by lia.
    pose proof (Hm p Hp) as M. pose proof (m_le p ltac:(lia)). pose proof (m_le (p + 1) ltac:(lia)).
    destruct (p =? 0) eqn:C; [destruct (m p =? m (p + 1)), (z (p + 1)); lia|].
    pose proof (Hm (p - 1) ltac:(lia)) as M2. replace (p - 1 + 1) with p in M2 by lia.
    destruct (m p =? m (p + 1)) eqn:C1, (m (p - 1) =? m p) eqn:C2, (z p), (z (p + 1)); lia.
  Qed.
  Lemma off_mono2 i j : 0 <= i -> i <= j -> j <= P -> off i <= off j.
  Proof.
    intros Hi Hij Hj. assert (H : forall n, i + Z.of_nat n <= P -> off i <= off (i + Z.of_nat n)).
    { induction n as [|n IH]; intros L; [replace (i + Z.of_nat 0) with i by lia; lia|].
      pose proof (off_mono (i + Z.of_nat n) ltac:(lia)). replace (i + Z.of_nat (S n)) with (i + Z.of_nat n + 1) by lia. specialize (IH ltac:(lia)). lia. }
    replace j with (i + Z.of_nat (Z.to_nat (j - i))) by lia. apply H. lia.
  Qed.
  Lemma off_P : off P = T.
  Proof.
    unfold off. replace (P =? 0) with false by lia. rewrite HmP, HzP. pose proof (m_le (P - 1) ltac:(lia)). destruct (m (P - 1) =? T); lia.
  Qed.
  Lemma off_le p : 0 <= p <= P -> 0 <= off p <= T.
  Proof. intros H. pose proof (off_mono2 0 p ltac:(lia) ltac:(lia) ltac:(lia)). pose proof (off_mono2 p P ltac:(lia) ltac:(lia) ltac:(lia)). pose proof off_P. unfold off at 1 in H0. cbn in H0. lia. Qed.

  Lemma skip_tree_spec t : t < T -> forall fuel p tc, P - p < Z.of_nat fuel -> 0 <= p < P -> m p <= t ->
    exists p' tc', skip_tree gfp t fuel p tc = Some (p', tc') /\ p < p' <= P /\ m p' <> t /\
      (forall k, p < k < p' -> m k = t) /\ (forall k, tc' k = if (p <? k) && (k <=? p') then 0 else tc k).
  Proof.
    intros Ht. induction fuel as [|f IH]; intros p tc Hf Hp Hmp; [lia|]. cbn [skip_tree]. rewrite mtree_spec by lia.
    destruct (m (p + 1) =? t) eqn:C.
    - assert (p + 1 < P). { destruct (Z.eq_dec (p + 1) P) as [E|N]; [|lia]. rewrite E, HmP in C. lia. }
      destruct (IH (p + 1) (upd tc (p + 1) 0) ltac:(lia) ltac:(lia) ltac:(lia)) as (p' & tc' & E1 & E2 & E3 & E4 & E5).
      exists p', tc'. split; [exact E1|]. split; [lia|]. split; [exact E3|]. split.
      + intros k Hk. destruct (Z.eq_dec k (p + 1)) as [->|N]; [lia|]. apply E4. lia.
      + intros k. rewrite E5. unfold upd. destruct (k =? p + 1) eqn:C1, ((p + 1 <? k) && (k <=? p')) eqn:C2, ((p <? k) && (k <=? p')) eqn:C3; lia.
    - exists (p + 1), (upd tc (p + 1) 0). split; [reflexivity|]. split; [lia|]. split; [lia|]. split; [intros; lia|].
      intros k. unfold upd. destruct (k =? p + 1) eqn:C1, ((p <? k) && (k <=? p + 1)) eqn:C2; lia.
  Qed.

  Lemma zero_rest_spec : forall n p tc k, zero_rest n p tc k = if (p <? k) && (k <=? p + Z.of_nat n) then 0 else tc k.
  Proof.
    induction n as [|n IH]; intros p tc k; cbn [zero_rest].
    - replace ((p <? k) && (k <=? p + Z.of_nat 0)) with false by lia. reflexivity.
    - rewrite IH. unfold upd. destruct ((p + 1 <? k) && (k <=? p + 1 + Z.of_nat n)) eqn:C1, (k =? p + 1) eqn:C2, ((p <? k) && (k <=? p + Z.of_nat (S n))) eqn:C3; try lia.
  Qed.

  Lemma assign_spec : forall fuel p t tc, P - p < Z.of_nat fuel -> 0 <= p < P -> m p = t -> t < T -> (p = 0 \/ m (p - 1) < t) ->
    (forall k, 0 <= k < p -> tc k = off (k + 1) - off k) -> tc p = t + 1 - off p ->
    exists tc', assign_trees d gfp P T fuel p t tc = Some tc' /\ forall k, 0 <= k < P -> tc' k = off (k + 1) - off k.
  Proof.
    induction fuel as [|f IH]; intros p t tc Hf Hp Et Ht Hprev H1 H2; [lia|]. cbn [assign_trees].
    destruct (skip_tree_spec t Ht (S (Z.to_nat P)) p tc ltac:(lia) Hp ltac:(lia)) as (p' & tc1 & E1 & E2 & E3 & E4 & E5).
    rewrite E1. destruct (Hg p' ltac:(lia)) as (mk & F1 & F2 & F3). rewrite F1, F2, F3.
    pose proof (m_mono p p' ltac:(lia) ltac:(lia) ltac:(lia)) as M1. pose proof (m_le p' ltac:(lia)) as M2.
    replace (Z.max 0 (m p' - (t + 1))) with (m p' - (t + 1)) by lia. replace (t + 1 + (m p' - (t + 1))) with (m p') by lia.
    (* the offsets between p and p' *)
    assert (OP : forall k, p < k < p' -> off k = t + 1).
    { intros k Hk. unfold off. replace (k =? 0) with false by lia. rewrite (E4 k Hk).
      assert (m (k - 1) = t) by (destruct (Z.eq_dec (k - 1) p) as [->|N]; [lia|apply E4; lia]). replace (m (k - 1) =? t) with true by lia. lia. }
    assert (ML : m (p' - 1) = t) by (destruct (Z.eq_dec (p' - 1) p) as [->|N]; [lia|apply E4; lia]).
    assert (OP' : off p' = Z.min T (m p' + if z p' then 0 else 1)).
    { unfold off. replace (p' =? 0) with false by lia. replace (m (p' - 1) =? m p') with false by lia. reflexivity. }
    assert (T1 : tc1 (p' - 1) = t + 1 - off (p' - 1)).
    { rewrite E5. destruct (Z.eq_dec (p' - 1) p) as [->|N].
      - replace ((p <? p) && (p <=? p')) with false by lia. lia.
      - replace ((p <? p' - 1) && (p' - 1 <=? p')) with true by lia. rewrite OP by lia. lia. }
    assert (T2 : forall k, 0 <= k < p' - 1 -> tc1 k = off (k + 1) - off k).
    { intros k Hk. rewrite E5. destruct ((p <? k) && (k <=? p')) eqn:C.
      - rewrite !OP by lia. lia.
      - destruct (Z.eq_dec k p) as [->|N]; [|apply H1; lia]. rewrite (OP (p + 1)) by lia. lia. }
    assert (T3 : tc1 p' = 0) by (rewrite E5; replace ((p <? p') && (p' <=? p')) with true by lia; reflexivity).
    destruct (m p' <? T) eqn:C.
    - assert (p' < P). { destruct (Z.eq_dec p' P) as [E|N]; [|lia]. rewrite E, HmP in C. lia. }
      destruct (z p') eqn:Ez; rewrite ?Z.add_0_r, Z.min_r in OP' by lia.
      + apply IH; [lia|lia|reflexivity|lia|right; lia| |].
        * intros k Hk. unfold upd. replace (k =? p') with false by lia. destruct (k =? p' - 1) eqn:Ck; [|apply T2; lia].
          replace k with (p' - 1) by lia. replace (p' - 1 + 1) with p' by lia. lia.
        * unfold upd. rewrite Z.eqb_refl. replace (p' =? p' - 1) with false by lia. lia.
      + apply IH; [lia|lia|reflexivity|lia|right; lia| |].
        * intros k Hk. unfold upd. rewrite Z.eqb_refl. destruct (k =? p' - 1) eqn:Ck; [|apply T2; lia].
          replace k with (p' - 1) by lia. replace (p' - 1 + 1) with p' by lia. lia.
        * unfold upd. replace (p' =? p' - 1) with false by lia. lia.
    - eexists. split; [reflexivity|]. intros k Hk. rewrite zero_rest_spec. replace (p' + Z.of_nat (Z.to_nat (P - p'))) with P by lia.
      assert (EO : forall j, p' <= j <= P -> off j = T).
      { intros j Hj. assert (Q : off p' = T) by (rewrite OP'; destruct (z p'); lia). pose proof (off_mono2 p' j ltac:(lia) ltac:(lia) ltac:(lia)). pose proof (off_le j ltac:(lia)). lia. }
      destruct ((p' <? k) && (k <=? P)) eqn:Ck; [rewrite !EO by lia; lia|]. unfold upd. destruct (k =? p' - 1) eqn:C1.
      + replace k with (p' - 1) by lia. replace (p' - 1 + 1) with p' by lia. rewrite (EO p') by lia. lia.
      + destruct (Z.eq_dec k p') as [->|N]; [rewrite !EO by lia; lia|apply T2; lia].
  Qed.

  Lemma treecount_spec : exists tc, treecount d gfp P T = Some tc /\ forall k, 0 <= k < P -> tc k = off (k + 1) - off k.
  Proof.
    unfold treecount. apply assign_spec; [lia|lia|exact Hm0|lia|left; reflexivity|intros; lia|]. unfold upd, off. cbn. reflexivity.
  Qed.

  Section Count.
    Variable tc : Z -> Z.
    Hypothesis Htc : forall k, 0 <= k < P -> tc k = off (k + 1) - off k.

    Lemma treeoffset_spec : forall n, Z.of_nat n <= P -> treeoffset tc n = off (Z.of_nat n).
    Proof.
      induction n as [|n IH]; intros L; [reflexivity|]. cbn [treeoffset]. rewrite IH, Htc by lia. replace (Z.of_nat (S n)) with (Z.of_nat n + 1) by lia. lia.
    Qed.

    Lemma next_count_spec : forall n p, 0 <= p -> p + Z.of_nat n = P ->
      let q := next_count tc n p in p <= q <= P /\ (forall k, p <= k < q -> tc k = 0) /\ (q < P -> tc q <> 0).
    Proof.
      induction n as [|n IH]; intros p Hp HE; cbn [next_count].
      - cbn zeta. split; [lia|]. split; [intros; lia|lia].
      - destruct (tc p =? 0) eqn:C; cbn zeta.
        + destruct (IH (p + 1) ltac:(lia) ltac:(lia)) as (I1 & I2 & I3). cbn zeta in I1, I2, I3. split; [lia|]. split; [|exact I3].
          intros k Hk. destruct (Z.eq_dec k p) as [->|N]; [lia|apply I2; lia].
        + split; [lia|]. split; [intros; lia|lia].
    Qed.
    Lemma prev_count_spec r : forall n, 0 <= r < Z.of_nat n -> tc r <> 0 -> (forall k, r < k < Z.of_nat n -> tc k = 0) -> prev_count tc n = Some r.
    Proof.
      clear. induction n as [|n IH]; intros Hr H1 H2; [lia|]. cbn [prev_count]. destruct (Z.eq_dec r (Z.of_nat n)) as [E|N].
      - rewrite <- E. replace (tc r =? 0) with false by lia. reflexivity.
      - rewrite (H2 (Z.of_nat n)) by lia. cbn. apply IH; [lia|exact H1|]. intros k Hk. apply H2. lia.
    Qed.

    Lemma off_between i j : 0 <= i <= j -> j <= P -> (forall k, i <= k < j -> tc k = 0) -> off j = off i.
    Proof.
      intros H1 H2 H. assert (G : forall n, i + Z.of_nat n <= j -> off (i + Z.of_nat n) = off i).
      { induction n as [|n IH]; intros L; [f_equal; lia|]. pose proof (H (i + Z.of_nat n) ltac:(lia)) as Q. rewrite Htc in Q by lia.
        replace (i + Z.of_nat (S n)) with (i + Z.of_nat n + 1) by lia. rewrite <- IH by lia. lia. }
      replace j with (i + Z.of_nat (Z.to_nat (j - i))) by lia. apply G. lia.
    Qed.

    Context {A : Type}.
    Variables (ranks : list (rk A)) (L : Z -> Z -> Z) (gfq : list Z).
    Hypothesis HL : forall k t, 0 <= k < P -> local_count ranks k t = Some (L k t).
    Hypothesis HL1 : forall k t, 0 <= k < P -> 0 <= t < T -> t < m k -> L k t = 0.
    Hypothesis HL2 : forall k t, 0 <= k < P -> 0 <= t < T -> m (k + 1) < t \/ (m (k + 1) = t /\ z (k + 1) = true) -> L k t = 0.
    Hypothesis Hgfq : forall p, 0 <= p <= P -> zget gfq p = Some (csum (fun k => csum (L k) (Z.to_nat T)) (Z.to_nat p)).

    Definition G (t : Z) : Z := csum (fun k => L k t) (Z.to_nat P).

    Lemma before r t k : 0 <= t < T -> 0 <= r < P -> off r <= t -> 0 <= k < r -> L k t = 0.
    Proof.
      intros Ht Hr Ho Hk. apply HL2; [lia|lia|]. unfold off in Ho. replace (r =? 0) with false in Ho by lia.
      pose proof (m_mono (k + 1) r ltac:(lia) ltac:(lia) ltac:(lia)) as M1.
      destruct (m (r - 1) =? m r) eqn:C1; [lia|]. destruct (Z.eq_dec (k + 1) r) as [E|N].
      - rewrite E. destruct (z r); [|lia]. destruct (Z.eq_dec (m r) t); [right; auto|lia].
      - pose proof (m_mono (k + 1) (r - 1) ltac:(lia) ltac:(lia) ltac:(lia)) as M2. pose proof (Hm (r - 1) ltac:(lia)) as M3.
        replace (r - 1 + 1) with r in M3 by lia. destruct (z r); lia.
    Qed.
    Lemma off_up r : 0 <= r < P -> off (r + 1) <= m (r + 1) + 1.
    Proof. intros Hr. unfold off. replace (r + 1 =? 0) with false by lia. destruct (m (r + 1 - 1) =? m (r + 1)), (z (r + 1)); lia. Qed.
    Lemma after r t k : 0 <= t < T -> 0 <= r < P -> t + 1 < off (r + 1) -> r < k < P -> L k t = 0.
    Proof.
      intros Ht Hr Ho Hk. apply HL1; [lia|lia|]. pose proof (off_up r Hr). pose proof (m_mono (r + 1) k ltac:(lia) ltac:(lia) ltac:(lia)). lia.
    Qed.

    Lemma G_full r t : 0 <= t < T -> 0 <= r < P -> off r <= t -> t + 1 < off (r + 1) -> G t = L r t.
    Proof.
      intros Ht Hr H1 H2. unfold G.
      pose proof (csum_diff (fun k => L k t) (fun _ => 0) (S (Z.to_nat r)) (Z.to_nat P) ltac:(lia)) as D.
      cbn [csum] in D. rewrite (csum_zero (fun _ => 0)) in D by reflexivity. rewrite (csum_zero (fun _ => 0)) in D by reflexivity.
      rewrite (csum_zero (fun k => L k t) (Z.to_nat r)) in D by (intros; apply (before r); lia).
      rewrite !Z2Nat.id in D by lia. specialize (D ltac:(intros; apply (after r); lia)). lia.
    Qed.

    Lemma all_in_tree k t : 0 <= t < T -> 0 <= k < P -> t <= m k -> off (k + 1) = t + 1 -> csum (L k) (Z.to_nat T) = L k t.
    Proof.
      intros Ht Hk H1 H2.
      pose proof (csum_diff (L k) (fun _ => 0) (S (Z.to_nat t)) (Z.to_nat T) ltac:(lia)) as D.
      cbn [csum] in D. rewrite (csum_zero (fun _ => 0)) in D by reflexivity. rewrite (csum_zero (fun _ => 0)) in D by reflexivity.
      rewrite (csum_zero (L k) (Z.to_nat t)) in D by (intros; apply HL1; lia).
      rewrite !Z2Nat.id in D by lia.
      assert (ZZ : forall t', Z.of_nat (S (Z.to_nat t)) <= t' < Z.of_nat (Z.to_nat T) -> L k t' = 0); [|specialize (D ltac:(intros; apply ZZ; lia)); lia].
      intros t' Ht'. apply HL2; [lia|lia|]. unfold off in H2. replace (k + 1 =? 0) with false in H2 by lia.
      destruct (m (k + 1 - 1) =? m (k + 1)); [lia|]. destruct (z (k + 1)) eqn:Ez; [|lia].
      destruct (Z.eq_dec (m (k + 1)) t'); [right; split; [assumption|reflexivity]|lia].
    Qed.

    (** the last tree of a rank *)
    Lemma G_last r t p : 0 <= r < P -> off r <= t -> off (r + 1) = t + 1 -> r < p <= P -> (forall k, r < k < p -> tc k = 0) -> (p < P -> tc p <> 0) ->
      G t = L r t + (csum (fun k => csum (L k) (Z.to_nat T)) (Z.to_nat p) - csum (fun k => csum (L k) (Z.to_nat T)) (Z.to_nat (r + 1)))
            + (if m p =? t then L p t else 0).
    Proof.
      intros Hr H1 H2 Hp H3 H4. pose proof (off_le r ltac:(lia)) as B1. pose proof (off_le (r + 1) ltac:(lia)) as B2. pose proof (off_up r Hr) as B3.
      assert (OP : forall k, r < k <= p -> off k = t + 1).
      { intros k Hk. rewrite <- H2. apply off_between; [lia|lia|]. intros j Hj. apply H3. lia. }
      assert (MG : forall k, r < k <= P -> t <= m k) by (intros k Hk; pose proof (m_mono (r + 1) k ltac:(lia) ltac:(lia) ltac:(lia)); lia).
      assert (S1 : csum (fun k => L k t) (Z.to_nat (r + 1)) = L r t).
      { replace (Z.to_nat (r + 1)) with (S (Z.to_nat r)) by lia. cbn [csum]. rewrite (csum_zero (fun k => L k t)) by (intros; apply (before r); lia).
        rewrite Z2Nat.id by lia. lia. }
      assert (S2 : csum (fun k => L k t) (Z.to_nat p) - csum (fun k => L k t) (Z.to_nat (r + 1)) =
                   csum (fun k => csum (L k) (Z.to_nat T)) (Z.to_nat p) - csum (fun k => csum (L k) (Z.to_nat T)) (Z.to_nat (r + 1))).
      { apply csum_diff; [lia|]. intros k Hk. symmetry. apply all_in_tree; [lia|lia|apply MG; lia|apply OP; lia]. }
      assert (S3 : csum (fun k => L k t) (Z.to_nat P) - csum (fun k => L k t) (Z.to_nat p) = if m p =? t then L p t else 0).
      { destruct (Z.eq_dec p P) as [->|N]; [rewrite HmP; replace (T =? t) with false by lia; lia|].
        specialize (H4 ltac:(lia)). rewrite Htc in H4 by lia. rewrite (OP p) in H4 by lia. pose proof (off_mono p ltac:(lia)) as B4. rewrite (OP p) in B4 by lia.
        pose proof (off_up p ltac:(lia)) as B5.
        pose proof (csum_diff (fun k => L k t) (fun _ => 0) (S (Z.to_nat p)) (Z.to_nat P) ltac:(lia)) as D.
        cbn [csum] in D. rewrite (csum_zero (fun _ => 0)) in D by reflexivity. rewrite (csum_zero (fun _ => 0)) in D by reflexivity.
        rewrite !Z2Nat.id in D by lia.
        specialize (D ltac:(intros k Hk; apply HL1; [lia|lia|]; pose proof (m_mono (p + 1) k ltac:(lia) ltac:(lia) ltac:(lia)); lia)).
        destruct (m p =? t) eqn:C; [lia|]. rewrite (HL1 p t) in D; [lia|lia|lia|]. specialize (MG p ltac:(lia)). lia. }
      unfold G. lia.
    Qed.

    Lemma full_trees_spec r : 0 <= r < P -> forall n t, off r <= t -> t + Z.of_nat n < off (r + 1) -> full_trees ranks r n t = Some (map G (zs t n)).
    Proof.
      intros Hr. pose proof (off_le r ltac:(lia)) as B1. pose proof (off_le (r + 1) ltac:(lia)) as B2.
      induction n as [|n IH]; intros t H1 H2; [reflexivity|]. cbn [full_trees zs map]. rewrite HL by lia. rewrite IH by lia.
      rewrite (G_full r t) by lia. reflexivity.
    Qed.

    Lemma zs_app : forall n k a, zs a n ++ zs (a + Z.of_nat n) k = zs a (n + k).
    Proof.
      clear. induction n as [|n IH]; intros k a; [cbn [zs app Nat.add]; f_equal; lia|]. cbn [zs app Nat.add]. f_equal. rewrite <- IH. f_equal. f_equal. lia.
    Qed.

    (** sends and receives match *)
    Lemma waits_spec r : 0 <= r < P -> 0 < tc r -> exists p, r < p <= P /\ (forall k, r < k < p -> tc k = 0) /\ (p < P -> tc p <> 0) /\
      next_count tc (Z.to_nat (P - (r + 1))) (r + 1) = p /\
      pt_waits gfp P tc r = Some (if m p =? off (r + 1) - 1 then Some p else None) /\
      (m p = off (r + 1) - 1 -> pt_send gfp tc ranks p = Some (Some (r, L p (off (r + 1) - 1)))).
    Proof.
      intros Hr Ht. destruct (next_count_spec (Z.to_nat (P - (r + 1))) (r + 1) ltac:(lia) ltac:(lia)) as (N1 & N2 & N3). cbn zeta in N1, N2, N3.
      remember (next_count tc (Z.to_nat (P - (r + 1))) (r + 1)) as p eqn:Ep. exists p. split; [lia|]. split; [intros; apply N2; lia|]. split; [exact N3|]. split; [reflexivity|].
      pose proof (off_le r ltac:(lia)) as B1. pose proof (off_le (r + 1) ltac:(lia)) as B2.
      assert (TO : treeoffset tc (Z.to_nat r) + tc r - 1 = off (r + 1) - 1).
      { rewrite treeoffset_spec by lia. rewrite Z2Nat.id by lia. rewrite Htc by lia. lia. }
      split.
      - unfold pt_waits. replace (tc r >? 0) with true by lia. cbn zeta. rewrite <- Ep, mtree_spec by lia. rewrite TO. reflexivity.
      - intros E. assert (Hp : p < P) by (destruct (Z.eq_dec p P) as [->|N]; lia).
        assert (OF : off p = off (r + 1)) by (apply off_between; [lia|lia|]; intros; apply N2; lia).
        pose proof (N3 Hp) as N4. pose proof (off_mono p ltac:(lia)) as B3. pose proof (Htc p ltac:(lia)) as B4.
        unfold pt_send. rewrite mtree_spec by lia. rewrite treeoffset_spec by lia. rewrite Z2Nat.id by lia.
        replace ((tc p >? 0) && (m p <? off p)) with true by lia. rewrite HL by lia.
        rewrite (prev_count_spec r); [rewrite E; reflexivity|lia|lia|]. intros k Hk. apply N2. lia.
    Qed.

    Lemma mypertree_spec r : 0 <= r < P -> mypertree gfp gfq P tc ranks r = Some (map G (zs (off r) (Z.to_nat (tc r)))).
    Proof.
      intros Hr. pose proof (off_mono r Hr) as B0. pose proof (Htc r Hr) as B00. unfold mypertree. destruct (tc r >? 0) eqn:C.
      2:{ replace (Z.to_nat (tc r)) with 0%nat by lia. reflexivity. }
      destruct (waits_spec r Hr ltac:(lia)) as (p & W1 & W2 & W3 & W4 & W5 & W6). cbn zeta.
      rewrite W4, W5. rewrite treeoffset_spec by lia. rewrite Z2Nat.id by lia.
      pose proof (off_le r ltac:(lia)) as B1. pose proof (off_le (r + 1) ltac:(lia)) as B2.
      rewrite full_trees_spec by lia. rewrite HL by lia. rewrite !Hgfq by lia.
      replace (off r + tc r - 1) with (off (r + 1) - 1) by lia.
      assert (ES : zs (off r) (Z.to_nat (tc r)) = zs (off r) (Z.to_nat (tc r - 1)) ++ [off (r + 1) - 1]).
      { replace [off (r + 1) - 1] with (zs (off r + Z.of_nat (Z.to_nat (tc r - 1))) 1) by (cbn [zs]; f_equal; lia). rewrite zs_app. f_equal. lia. }
      rewrite ES, map_app. cbn [map].
      pose proof (G_last r (off (r + 1) - 1) p Hr ltac:(lia) ltac:(lia) W1 W2 W3) as GL.
      destruct (m p =? off (r + 1) - 1) eqn:Cm.
      - rewrite W6 by lia. rewrite Z.eqb_refl, GL. reflexivity.
      - rewrite GL, Z.add_0_r. reflexivity.
    Qed.

    Lemma gather_spec : forall n r, 0 <= r -> r + Z.of_nat n <= P ->
      gather gfp gfq P tc ranks n r = Some (map G (zs (off r) (Z.to_nat (off (r + Z.of_nat n) - off r)))).
    Proof.
      induction n as [|n IH]; intros r Hr HE; cbn [gather].
      - replace (r + Z.of_nat 0) with r by lia. rewrite Z.sub_diag. reflexivity.
      - rewrite mypertree_spec by lia. rewrite IH by lia. f_equal. rewrite <- map_app. f_equal.
        pose proof (off_mono r ltac:(lia)) as M1. pose proof (off_mono2 (r + 1) (r + 1 + Z.of_nat n) ltac:(lia) ltac:(lia) ltac:(lia)) as M2.
        pose proof (Htc r ltac:(lia)) as M3. replace (r + Z.of_nat (S n)) with (r + 1 + Z.of_nat n) by lia.
        replace (off (r + 1)) with (off r + Z.of_nat (Z.to_nat (tc r))) at 1 by lia. rewrite zs_app. f_equal. lia.
    Qed.
    (** every message sent is waited for *)
    Lemma send_waits p : 0 <= p < P -> forall r v, pt_send gfp tc ranks p = Some (Some (r, v)) -> 0 <= r < P /\ pt_waits gfp P tc r = Some (Some p).
    Proof.
      intros Hp r v. unfold pt_send. rewrite mtree_spec by lia. rewrite treeoffset_spec by lia. rewrite Z2Nat.id by lia.
      destruct ((tc p >? 0) && (m p <? off p)) eqn:C; [|discriminate]. rewrite HL by lia.
      destruct (prev_count tc (Z.to_nat p)) as [r'|] eqn:E; [|discriminate]. intros Q. injection Q as -> <-.
      assert (PC : forall n, prev_count tc n = Some r -> 0 <= r < Z.of_nat n /\ tc r <> 0 /\ (forall k, r < k < Z.of_nat n -> tc k = 0)).
      { clear. induction n as [|n IH]; intros E; [discriminate|]. cbn [prev_count] in E. destruct (tc (Z.of_nat n) =? 0) eqn:C.
        - destruct (IH E) as (I1 & I2 & I3). split; [lia|]. split; [exact I2|]. intros k Hk. destruct (Z.eq_dec k (Z.of_nat n)) as [->|N]; [lia|apply I3; lia].
        - injection E as <-. split; [lia|]. split; [lia|]. intros; lia. }
      destruct (PC _ E) as (I1 & I2 & I3). rewrite Z2Nat.id in I1, I3 by lia. split; [lia|].
      pose proof (off_mono r ltac:(lia)) as B0. pose proof (Htc r ltac:(lia)) as B00.
      destruct (waits_spec r ltac:(lia) ltac:(lia)) as (p' & W1 & W2 & W3 & W4 & W5 & W6).
      clear W4 W6. assert (EQ : p' = p).
      { destruct (Z.lt_trichotomy p' p) as [Q|[Q|Q]]; [|exact Q|].
        - exfalso. apply (W3 ltac:(lia)). apply I3. lia.
        - exfalso. specialize (W2 p ltac:(lia)). lia. }
      subst p'. rewrite W5. assert (OF : off p = off (r + 1)) by (apply off_between; [lia|lia|]; intros; apply W2; lia).
      pose proof (off_up (p - 1) ltac:(lia)) as OU. replace (p - 1 + 1) with p in OU by lia.
      replace (m p =? off (r + 1) - 1) with true by lia. reflexivity.
    Qed.
  End Count.
End Assign.
