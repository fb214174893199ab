(** * Families of leaves and the corrections of p4est_partition_for_coarsening *)

From Coq Require Import ZArith List Bool Lia Arith ZifyBool Sorting.Sorted.
From Verif Require Import Quad Spec Interval QuadLemmas DescLemmas Search SearchLocal Adapt ListLemmas Partition PartLemmas PartTrees PartRecv Forest ForestSpec PartCoarse PartCoarseLemmas PartCoarseMsg.
Import ListNotations.
Open Scope Z_scope.

Lemma inc_bound : forall l a b, inc l -> (forall x, In x l -> a <= x < b) -> a <= b -> zlen l <= b - a /\ (zlen l = b - a -> l = zseq (Z.to_nat (b - a)) a).
Proof.
  unfold zlen. induction l as [|x l IH]; intros a b SI H L; cbn [length].
  - split; [lia|]. intros E. replace (Z.to_nat (b - a)) with 0%nat by lia. reflexivity.
  - inversion SI as [|? ? S1 F]; subst. rewrite Forall_forall in F. pose proof (H x (or_introl eq_refl)) as X.
    destruct (IH (x + 1) b S1) as (I1 & I2); [intros y I; specialize (F y I); specialize (H y (or_intror I)); lia|lia|]. split; [lia|]. intros E. assert (x = a) as -> by lia.
    replace (Z.to_nat (b - a)) with (S (Z.to_nat (b - (a + 1)))) by lia. cbn [zseq]. f_equal. apply I2. lia.
Qed.

Section Fam.
  Variable d : dim.
  Local Notation C := (children d).
  Variable G : list (Z * quad).
  Hypothesis Hwf : forall k t q, zget G k = Some (t, q) -> wf d q.
  Hypothesis Hord : forall i j t q t' q', i < j -> zget G i = Some (t, q) -> zget G j = Some (t', q') -> t < t' \/ t = t' /\ qend d q <= qpos d q'.
  Local Notation sib := (sib d G).

  (** the leaves m, ..., m + C - 1 are the children of p *)
  Definition family (m t : Z) (p : quad) : Prop := wf d p /\ ql p < 29 /\ forall k, 0 <= k < C -> zget G (m + k) = Some (t, child d p k).

  Lemma family_range m t p : family m t p -> 0 <= m /\ m + C <= zlen G.
  Proof.
    pose proof (CH d) as HC. intros (W & L & E). pose proof (zget_range _ _ _ (E 0 ltac:(lia))). pose proof (zget_range _ _ _ (E (C - 1) ltac:(lia))). lia.
  Qed.

  Lemma qsize_psize q : qsize d q = psize d (ql q).
  Proof. reflexivity. Qed.
  Lemma child_inj p i j : wf d p -> ql p < 29 -> 0 <= i < C -> 0 <= j < C -> child d p i = child d p j -> i = j.
  Proof. intros W L Hi Hj E. rewrite <- (child_mod d p i W L Hi), <- (child_mod d p j W L Hj). rewrite E. reflexivity. Qed.
  Lemma child_order p i j : wf d p -> ql p < 29 -> 0 <= i < C -> 0 <= j < C -> qend d (child d p i) <= qpos d (child d p j) -> i < j.
  Proof.
    intros W L Hi Hj. unfold qend. rewrite ?qsize_psize. destruct (child_wf d p i W L Hi) as (_ & -> & _). rewrite !child_pos by assumption. pose proof (psize_pos d (ql p + 1) ltac:(pose proof (wf_level d p W); lia)) as PP. intros H.
    destruct (Z_lt_le_dec i j) as [Lt|Le]; [exact Lt|]. exfalso. pose proof (Z.mul_le_mono_nonneg_r j i (psize d (ql p + 1)) ltac:(lia) Le). lia.
  Qed.
  Lemma child_next p i : wf d p -> ql p < 29 -> 0 <= i < C - 1 -> qend d (child d p i) = qpos d (child d p (i + 1)).
  Proof.
    intros W L Hi. unfold qend. rewrite ?qsize_psize. destruct (child_wf d p i W L ltac:(lia)) as (_ & -> & _). rewrite !child_pos by (assumption || lia). ring.
  Qed.

  Lemma leaf_inj i j t q : zget G i = Some (t, q) -> zget G j = Some (t, q) -> i = j.
  Proof.
    intros E1 E2. pose proof (qsize_pos d q (Hwf _ _ _ E1)) as QP. destruct (Z.lt_trichotomy i j) as [L|[L|L]]; [|exact L|].
    - destruct (Hord _ _ _ _ _ _ L E1 E2) as [H|(_ & H)]; unfold qend in *; lia.
    - destruct (Hord _ _ _ _ _ _ L E2 E1) as [H|(_ & H)]; unfold qend in *; lia.
  Qed.

  Lemma sib_iff t q k : wf d q -> 0 < ql q -> (sib t q k = true <-> exists i, 0 <= i < C /\ zget G k = Some (t, child d (parent d q) i)).
  Proof.
    intros W L. destruct (parent_wf d q W L) as (PW & PL & _). pose proof (wf_level d q W). unfold PartCoarseMsg.sib. destruct (zget G k) as [(t', q')|] eqn:E; [|split; [discriminate|intros (i & _ & F); discriminate]]. split.
    - intros F. apply andb_prop in F. destruct F as (F & F3). apply andb_prop in F. destruct F as (F1 & F2). assert (t' = t) as -> by lia. apply is_parent_iff in F3; [|exact PW|exact (Hwf _ _ _ E)]. destruct F3 as (F3 & F4).
      exists (child_id d q'). split; [apply child_id_range; exact (Hwf _ _ _ E)|]. rewrite F4. rewrite parent_child by (exact F3 || exact (Hwf _ _ _ E)). reflexivity.
    - intros (i & Hi & F). injection F as -> ->. destruct (child_wf d (parent d q) i PW ltac:(lia) Hi) as (CW & CL & _). rewrite Z.eqb_refl, CL, PL. replace (ql q - 1 + 1 =? ql q) with true by lia. cbn [andb].
      apply is_parent_iff; [exact PW|exact CW|]. split; [lia|]. rewrite child_parent by (assumption || lia). reflexivity.
  Qed.

  Lemma sib_self k t q : zget G k = Some (t, q) -> 0 < ql q -> sib t q k = true.
  Proof. intros E L. apply sib_iff; [exact (Hwf _ _ _ E)|exact L|]. exists (child_id d q). split; [apply child_id_range; exact (Hwf _ _ _ E)|]. rewrite parent_child by (exact L || exact (Hwf _ _ _ E)). exact E. Qed.

  Lemma sib_parent t q q' k : ql q = ql q' -> parent d q = parent d q' -> sib t q k = sib t q' k.
  Proof. intros E1 E2. unfold PartCoarseMsg.sib. rewrite E1, E2. reflexivity. Qed.

  (** at most C siblings; if they are C, they are a family *)
  Lemma sib_count t q l : wf d q -> 0 < ql q -> inc l -> (forall k, In k l -> sib t q k = true) ->
    zlen l <= C /\ (zlen l = C -> exists m, family m t (parent d q) /\ l = zseq (Z.to_nat C) m).
  Proof.
    intros W L SL H. pose proof (CH d) as HC. destruct (parent_wf d q W L) as (PW & PL & _). pose proof (wf_level d q W) as QL. assert (PL2 : ql (parent d q) < 29) by lia. remember (parent d q) as p eqn:Ep.
    set (cid := fun k => match zget G k with Some (_, r) => child_id d r | None => 0 end).
    assert (HS : forall k, In k l -> exists i, 0 <= i < C /\ zget G k = Some (t, child d p i) /\ cid k = i).
    { intros k I. destruct (proj1 (sib_iff t q k W L) (H k I)) as (i & Hi & E). exists i. split; [exact Hi|]. assert (E' : zget G k = Some (t, child d p i)) by (rewrite E, Ep; reflexivity).
      split; [exact E'|]. unfold cid. rewrite E'. apply child_mod; assumption. }
    assert (SI : inc (map cid l)).
    { clear H. induction SL as [|x l SL IH F]; [constructor|]. cbn [map]. constructor; [apply IH; intros k I; apply HS; right; exact I|]. apply Forall_forall. intros y I. apply in_map_iff in I. destruct I as (z & <- & I).
      rewrite Forall_forall in F. destruct (HS x (or_introl eq_refl)) as (i & Hi & Ei & Ci). destruct (HS z (or_intror I)) as (j & Hj & Ej & Cj). rewrite Ci, Cj. destruct (Hord _ _ _ _ _ _ (F z I) Ei Ej) as [A|(_ & A)]; [lia|]. apply (child_order p); assumption. }
    assert (RI : forall x, In x (map cid l) -> 0 <= x < C) by (intros x I; apply in_map_iff in I; destruct I as (z & <- & I); destruct (HS z I) as (i & Hi & _ & ->); exact Hi).
    destruct (inc_bound (map cid l) 0 C SI RI ltac:(lia)) as (B1 & B2). rewrite zlen_map in B1, B2. split; [lia|]. intros E. specialize (B2 ltac:(lia)). rewrite Z.sub_0_r in B2.
    assert (NTH : forall j, (j < Z.to_nat C)%nat -> exists k, nth_error l j = Some k /\ zget G k = Some (t, child d p (Z.of_nat j))).
    { intros j Hj. destruct (nth_error l j) as [k|] eqn:Ek; [|apply nth_error_None in Ek; unfold zlen in E; lia]. exists k. split; [reflexivity|]. pose proof (map_nth_error cid _ _ Ek) as M. rewrite B2, zseq_nth in M by exact Hj.
      destruct (HS k (nth_error_In _ _ Ek)) as (i & Hi & Ei & Ci). rewrite Ci in M. injection M as M. assert (i = Z.of_nat j) as <- by lia. exact Ei. }
    destruct (NTH 0%nat ltac:(lia)) as (m & Em & Gm). exists m.
    assert (ALL : forall j, (j < Z.to_nat C)%nat -> nth_error l j = Some (m + Z.of_nat j)).
    { induction j as [|j IH]; intros Hj; [rewrite Em; f_equal; lia|]. specialize (IH ltac:(lia)). destruct (NTH j ltac:(lia)) as (k & K1 & K2). destruct (NTH (S j) Hj) as (k' & K3 & K4). rewrite IH in K1. injection K1 as <-. rewrite K3. f_equal.
      assert (LT : m + Z.of_nat j < k') by (exact (SearchLocal.SS_pair _ _ SL j (S j) _ _ ltac:(lia) IH K3)). destruct (Z.eq_dec k' (m + Z.of_nat (S j))) as [|NE]; [assumption|]. exfalso.
      pose proof (zget_range _ _ _ K2) as R1. pose proof (zget_range _ _ _ K4) as R2. destruct (zget_some G (m + Z.of_nat (S j)) ltac:(lia)) as ((t', q') & E').
      pose proof (Hord _ _ _ _ _ _ (ltac:(lia) : m + Z.of_nat j < m + Z.of_nat (S j)) K2 E') as O1. pose proof (Hord _ _ _ _ _ _ (ltac:(lia) : m + Z.of_nat (S j) < k') E' K4) as O2.
      pose proof (child_next p (Z.of_nat j) PW PL2 ltac:(lia)) as CN. replace (Z.of_nat (S j)) with (Z.of_nat j + 1) in O2 by lia. pose proof (qsize_pos d q' (Hwf _ _ _ E')). unfold qend in *. lia. }
    split.
    - split; [exact PW|]. split; [exact PL2|]. intros k Hk. destruct (NTH (Z.to_nat k) ltac:(lia)) as (k' & K1 & K2). rewrite ALL in K1 by lia. injection K1 as <-. rewrite Z2Nat.id in K2 by lia. exact K2.
    - apply list_ext. intros j. destruct (Nat.lt_ge_cases j (Z.to_nat C)) as [Lt|Ge]; [rewrite ALL, zseq_nth by exact Lt; reflexivity|].
      rewrite (proj2 (nth_error_None l j)) by (unfold zlen in E; lia). symmetry. apply nth_error_None. rewrite zseq_len. exact Ge.
  Qed.

  Lemma family_leaf m t p c : family m t p -> m <= c < m + C -> exists q, zget G c = Some (t, q) /\ wf d q /\ 0 < ql q /\ parent d q = p /\ q = child d p (c - m) /\ forall k, sib t q k = true <-> m <= k < m + C.
  Proof.
    intros (W & L & E) Hc. pose proof (wf_level d p W). exists (child d p (c - m)). pose proof (E (c - m) ltac:(lia)) as Ec. replace (m + (c - m)) with c in Ec by lia. destruct (child_wf d p (c - m) W L ltac:(lia)) as (CW & CL & _).
    assert (CP : parent d (child d p (c - m)) = p) by (apply child_parent; assumption || lia).
    split; [exact Ec|]. split; [exact CW|]. split; [lia|]. split; [exact CP|]. split; [reflexivity|]. intros k. rewrite sib_iff by (assumption || lia). rewrite CP. split.
    - intros (i & Hi & F). pose proof (leaf_inj _ _ _ _ F (E i Hi)). lia.
    - intros Hk. exists (k - m). split; [lia|]. rewrite <- (E (k - m)) by lia. f_equal. lia.
  Qed.

  Lemma family_disjoint m t p m' t' p' : family m t p -> family m' t' p' -> m < m' -> m + C <= m'.
  Proof.
    intros F F' L. destruct (Z_le_gt_dec (m + C) m') as [A|A]; [exact A|exfalso]. pose proof (CH d) as HC.
    destruct (family_leaf m t p m' F ltac:(lia)) as (q & E1 & W1 & L1 & P1 & C1 & S1). destruct (family_leaf m' t' p' m' F' ltac:(lia)) as (q' & E2 & W2 & L2 & P2 & C2 & S2). rewrite E1 in E2. injection E2 as <- <-.
    pose proof (proj2 (S1 m) ltac:(lia)) as X. apply S2 in X. lia.
  Qed.

  (** two leaves do not overlap *)
  Lemma no_inside i j t q q' : zget G i = Some (t, q) -> zget G j = Some (t, q') -> i <> j -> 0 < ql q' -> q = parent d q' -> False.
  Proof.
    intros E1 E2 NE L E. pose proof (Hwf _ _ _ E1) as W1. pose proof (Hwf _ _ _ E2) as W2. destruct (parent_wf d q' W2 L) as (PW & PL & _). pose proof (wf_level d q' W2). pose proof (child_id_range d q' W2) as CR.
    pose proof (parent_child d q' W2 L) as PC. rewrite <- E in *. pose proof (child_pos d q (child_id d q') W1 ltac:(lia) CR) as CP. rewrite PC in CP.
    pose proof (psize_pos d (ql q + 1) ltac:(lia)) as PP. pose proof (psize_child d (ql q) ltac:(lia)) as PS.
    assert (I1 : qpos d q <= qpos d q') by (rewrite CP; pose proof (Z.mul_nonneg_nonneg (child_id d q') (psize d (ql q + 1)) ltac:(lia) ltac:(lia)); lia).
    assert (I2 : qend d q' <= qend d q). { unfold qend. rewrite ?qsize_psize. rewrite CP, PS. replace (ql q') with (ql q + 1) by lia. pose proof (Z.mul_le_mono_nonneg_r (child_id d q' + 1) C (psize d (ql q + 1)) ltac:(lia) ltac:(lia)). lia. }
    pose proof (qsize_pos d q W1). pose proof (qsize_pos d q' W2). destruct (Z.lt_trichotomy i j) as [Lt|[Lt|Lt]]; [|congruence|].
    - destruct (Hord _ _ _ _ _ _ Lt E1 E2) as [HA|(_ & HA)]; unfold qend in *; lia.
    - destruct (Hord _ _ _ _ _ _ Lt E2 E1) as [HA|(_ & HA)]; unfold qend in *; lia.
  Qed.
End Fam.
