(** * The correction of one cut, and all new cuts *)

From Coq Require Import ZArith List Bool Lia Arith ZifyBool Sorting.Sorted.
From Verif Require Import Quad Spec Interval QuadLemmas DescLemmas Search SearchLocal Adapt ListLemmas Partition PartLemmas PartTrees PartRecv Forest ForestSpec PartCoarse PartCoarseLemmas PartCoarseMsg PartCoarseFam.
Import ListNotations.
Open Scope Z_scope.

Section Corr.
  Variable d : dim.
  Variables (St D : Type).
  Variable T : Z.
  Hypothesis HT : 0 < T.
  Local Notation C := (children d).
  Variables (P N : Z) (nw nc : Z -> Z).
  Hypothesis HP : 1 <= P.
  Hypothesis Mnow : forall i j, 0 <= i <= j -> j <= P -> nw i <= nw j.
  Hypothesis N0 : nw 0 = 0.
  Hypothesis N1 : nw P = N.

  Variable G : list (Z * quad).
  Hypothesis LG : zlen G = N.
  Hypothesis Hwf : forall k t q, zget G k = Some (t, q) -> wf d q.
  Hypothesis Hord : forall i j t q t' q', i < j -> zget G i = Some (t, q) -> zget G j = Some (t', q') -> t < t' \/ t = t' /\ qend d q <= qpos d q'.
  Variable pr : Z -> proc St D.
  Hypothesis Hpr : forall j, 0 <= j < P -> proc_ok d St D T (pr j) /\ pr_num St D (pr j) = nw (j + 1) - nw j.
  Hypothesis HG : forall j k, 0 <= j < P -> nw j <= k < nw (j + 1) -> zget G k = option_map (fun x => (fst x, fst (snd x))) (zget (rank_leaves St D T (pr j)) (k - nw j)).

  Variables (c r o : Z).
  Hypothesis Hc : 0 <= c < N.
  Hypothesis Ho : 0 <= o < P.
  Hypothesis Hoc : nw o <= c < nw (o + 1).
  Local Notation near j := (near_cut d c (nw j) (nw (j + 1))).
  Local Notation msg j := (message d St D j (pr j) (nw j) (nw (j + 1)) c r).
  Local Notation sib := (sib d G).
  Local Notation W0 := (c - C + 1).
  Local Notation W1 := (c + C - 2).

  Lemma msg_ok j : 0 <= j < P -> nw j < nw (j + 1) -> near j = true ->
    exists t q, let n := nearest c (nw j) (nw (j + 1)) in zget G n = Some (t, q) /\
      ((ql q = 0 /\ msg j = Some (mkpm j r t q 1)) \/
       (0 < ql q /\ exists mn mx, msg j = Some (mkpm j r t (parent d q) (if n =? c then (c - mn) * C + (mx - c) else mx - mn + 1)) /\
          Z.max (nw j) W0 <= mn <= n /\ n <= mx <= Z.min (nw (j + 1) - 1) W1 /\
          (forall k, mn <= k <= mx -> sib t q k = true) /\
          (mn = Z.max (nw j) W0 \/ sib t q (mn - 1) = false) /\ (mx = Z.min (nw (j + 1) - 1) W1 \/ sib t q (mx + 1) = false))).
  Proof.
    intros Hj NE NC. destruct (Hpr j Hj) as (OK & EN). pose proof (Mnow 0 j ltac:(lia) ltac:(lia)).
    apply (message_ok d St D T HT (pr j) OK ltac:(lia) G (nw j) (nw (j + 1)) ltac:(lia)); [|exact NC|exact Hwf]. intros k Hk. apply HG; assumption.
  Qed.

  Variable mess : Z -> pmsg.
  Hypothesis Hmess : forall j, 0 <= j < P -> nw j < nw (j + 1) -> near j = true -> msg j = Some (mess j).

  Definition nearr (j : Z) : bool := (nw j <? nw (j + 1)) && near j.
  Local Notation fold l := (fold_left (family_step d o (mess o)) (map mess l) (c, c)).

  Lemma near_o : near o = true.
  Proof. pose proof (CH d). unfold near_cut. lia. Qed.
  Lemma nearest_o : nearest c (nw o) (nw (o + 1)) = c.
  Proof. unfold nearest. replace ((nw o <=? c) && (c <? nw (o + 1))) with true by lia. reflexivity. Qed.

  Lemma nearest_cases j : 0 <= j < P -> nw j < nw (j + 1) -> near j = true -> let n := nearest c (nw j) (nw (j + 1)) in nw j <= n < nw (j + 1) /\
    ((j < o /\ nw (j + 1) <= c /\ n = nw (j + 1) - 1) \/ (j = o /\ n = c) \/ (o < j /\ c < nw j /\ n = nw j)).
  Proof.
    intros Hj NE NC. destruct (Hpr j Hj) as (_ & EN). destruct (nearest_range d St D (pr j) ltac:(lia) (nw j) (nw (j + 1)) ltac:(lia) c NC) as (R1 & _ & R3 & R4 & R5). cbv zeta. split; [exact R1|]. destruct (Z.lt_trichotomy j o) as [L|[L|L]].
    - left. pose proof (Mnow (j + 1) o ltac:(lia) ltac:(lia)). split; [exact L|]. split; [lia|]. apply R5. lia.
    - right. left. subst j. split; [reflexivity|]. apply R3. lia.
    - right. right. pose proof (Mnow (o + 1) j ltac:(lia) ltac:(lia)). split; [exact L|]. split; [lia|]. apply R4. lia.
  Qed.

  (** the cut is at a tree root: no correction *)
  Lemma fold_root t0 q0 : zget G c = Some (t0, q0) -> ql q0 = 0 -> forall n k, 0 <= k -> k + Z.of_nat n = P ->
    fold_left (family_step d o (mess o)) (map mess (filter nearr (zseq n k))) (c, if k <=? o then c else c + 1) = (c, c + 1).
  Proof.
    intros E0 L0. pose proof (CH d) as HC.
    assert (EO : mess o = mkpm o r t0 q0 1).
    { destruct (msg_ok o Ho ltac:(lia) near_o) as (t & q & E & [(_ & M)|(L & _)]).
      - rewrite nearest_o, E0 in E. injection E as <- <-. rewrite (Hmess o Ho ltac:(lia) near_o) in M. injection M as ->. reflexivity.
      - rewrite nearest_o, E0 in E. injection E as <- <-. lia. }
    induction n as [|n IH]; intros k H1 H2; cbn [zseq filter].
    - cbn [map fold_left]. replace (k <=? o) with false by lia. reflexivity.
    - unfold nearr at 1. destruct ((nw k <? nw (k + 1)) && near k) eqn:B.
      + apply andb_prop in B. destruct B as (B1 & B2). cbn [map fold_left]. rewrite <- (IH (k + 1)) by lia. f_equal.
        destruct (nearest_cases k ltac:(lia) ltac:(lia) B2) as (R & CS). destruct (msg_ok k ltac:(lia) ltac:(lia) B2) as (t & q & E & M).
        destruct (Z.eq_dec k o) as [->|NO].
        * rewrite EO. unfold family_step. cbn [pm_tree pm_quad pm_src pm_num]. rewrite Z.eqb_refl. assert (EQ : is_equal d q0 q0 = true) by (apply is_equal_eq; [exact (Hwf _ _ _ E0)|exact (Hwf _ _ _ E0)|reflexivity]). rewrite EQ. cbn [andb].
          replace (o <? o) with false by lia. replace (o >? o) with false by lia. replace (o <=? o) with true by lia. replace (o + 1 <=? o) with false by lia. rewrite Z.div_small, Z.mod_small by lia. f_equal. lia.
        * assert (NM : (pm_tree (mess k) =? pm_tree (mess o)) && is_equal d (pm_quad (mess k)) (pm_quad (mess o)) = false).
          { destruct ((pm_tree (mess k) =? pm_tree (mess o)) && is_equal d (pm_quad (mess k)) (pm_quad (mess o))) eqn:BM; [exfalso|reflexivity]. apply andb_prop in BM. destruct BM as (M1 & M2). rewrite EO in M1, M2. cbn [pm_tree pm_quad] in M1, M2.
            set (nn := nearest c (nw k) (nw (k + 1))) in *. assert (NN : nn <> c) by lia. rewrite (Hmess k ltac:(lia) ltac:(lia) B2) in M. cbv zeta in M. fold nn in M. destruct M as [(L & M)|(L & mn & mx & M & _)]; injection M as M; rewrite M in M1, M2; cbn [pm_tree pm_quad] in M1, M2; assert (t = t0) as -> by lia.
            - apply is_equal_eq in M2; [|exact (Hwf _ _ _ E)|exact (Hwf _ _ _ E0)]. subst q. apply NN. exact (leaf_inj d G Hwf Hord _ _ _ _ E E0).
            - destruct (parent_wf d q (Hwf _ _ _ E) L) as (PW & _). apply is_equal_eq in M2; [|exact PW|exact (Hwf _ _ _ E0)]. apply (no_inside d G Hwf Hord c nn t0 q0 q E0 E); [congruence|exact L|congruence]. }
          unfold family_step at 1. rewrite NM. replace (k + 1 <=? o) with (k <=? o) by lia. reflexivity.
      + rewrite <- (IH (k + 1)) by lia. do 2 f_equal. assert (k <> o) by (intros ->; pose proof near_o; lia). replace (k + 1 <=? o) with (k <=? o) by lia. reflexivity.
  Qed.

  Section Level.
    Variables (t0 : Z) (q0 : quad).
    Hypothesis E0 : zget G c = Some (t0, q0).
    Hypothesis L0 : 0 < ql q0.
    Local Notation sb := (sib t0 q0).
    Local Notation fam m p := (family d G m t0 p /\ m < c < m + C).

    Lemma first_msg : exists num, mess o = mkpm o r t0 (parent d q0) num.
    Proof.
      destruct (msg_ok o Ho ltac:(lia) near_o) as (t & q & E & [(L & _)|(_ & mn & mx & M & _)]); rewrite nearest_o, E0 in E; injection E as <- <-; [lia|].
      rewrite (Hmess o Ho ltac:(lia) near_o) in M. injection M as ->. eauto.
    Qed.

    (** what a near rank contributes *)
    Lemma step_match k mn mx : 0 <= k < P -> nw k < nw (k + 1) -> near k = true ->
      (family_step d o (mess o) (mn, mx) (mess k) = (mn, mx) /\ k <> o /\ forall m p, fam m p -> ~ (m <= nearest c (nw k) (nw (k + 1)) < m + C)) \/
      exists a b, Z.max (nw k) W0 <= a <= nearest c (nw k) (nw (k + 1)) /\ nearest c (nw k) (nw (k + 1)) <= b <= Z.min (nw (k + 1) - 1) W1 /\ (forall i, a <= i <= b -> sb i = true) /\
        (a = Z.max (nw k) W0 \/ sb (a - 1) = false) /\ (b = Z.min (nw (k + 1) - 1) W1 \/ sb (b + 1) = false) /\
        family_step d o (mess o) (mn, mx) (mess k) = if k <? o then (mn - (b - a + 1), mx) else if k >? o then (mn, mx + (b - a + 1)) else (mn - (c - a), mx + (b - c)).
    Proof.
      intros Hk NE NC. pose proof (CH d) as HC. destruct first_msg as (num & EO). destruct (nearest_cases k Hk NE NC) as (R & CS). destruct (msg_ok k Hk NE NC) as (t & q & E & M). rewrite (Hmess k Hk NE NC) in M. cbv zeta in *. set (n := nearest c (nw k) (nw (k + 1))) in *.
      pose proof (Hwf _ _ _ E0) as W. destruct (parent_wf d q0 W L0) as (PW & PL & _).
      destruct M as [(L & M)|(L & a & b & M & M1 & M2 & M3 & M4 & M5)]; injection M as M.
      - left. assert (NO : k <> o) by (intros ->; assert (n = c) as X by lia; rewrite X, E0 in E; injection E as <- <-; lia). split; [|split; [exact NO|]].
        + unfold family_step. rewrite M, EO. cbn [pm_tree pm_quad]. destruct ((t =? t0) && is_equal d q (parent d q0)) eqn:B; [exfalso|reflexivity]. apply andb_prop in B. destruct B as (B1 & B2). assert (t = t0) as -> by lia.
          apply is_equal_eq in B2; [|exact (Hwf _ _ _ E)|exact PW]. apply (no_inside d G Hwf Hord n c t0 q q0 E E0); [lia|exact L0|exact B2].
        + intros m p (F & Fc) Hn. destruct (family_leaf d G Hwf Hord m t0 p n F Hn) as (q' & E' & _ & L' & _). rewrite E in E'. injection E' as <- <-. lia.
      - destruct (parent_wf d q (Hwf _ _ _ E) L) as (QW & QL & _).
        destruct ((t =? t0) && is_equal d (parent d q) (parent d q0)) eqn:B.
        + right. apply andb_prop in B. destruct B as (B1 & B2). assert (t = t0) as -> by lia. apply is_equal_eq in B2; [|exact QW|exact PW]. assert (QE : ql q = ql q0) by (rewrite B2 in QL; lia).
          assert (SE : forall i, sib t0 q i = sb i) by (intros i; apply sib_parent; assumption).
          exists a, b. split; [exact M1|]. split; [exact M2|]. split; [intros i Hi; rewrite <- SE; apply M3; exact Hi|]. split; [rewrite <- SE; exact M4|]. split; [rewrite <- SE; exact M5|].
          unfold family_step. rewrite M, EO. cbn [pm_tree pm_quad pm_src pm_num]. rewrite Z.eqb_refl, B2. replace (is_equal d (parent d q0) (parent d q0)) with true by (symmetry; apply is_equal_eq; auto). cbn [andb].
          destruct (Z.lt_trichotomy k o) as [Lt|[Eq|Gt]].
          * replace (k <? o) with true by lia. replace (n =? c) with false by lia. reflexivity.
          * subst k. replace (o <? o) with false by lia. replace (o >? o) with false by lia. assert (EN : n = c) by lia. rewrite EN, Z.eqb_refl. f_equal.
            -- f_equal. rewrite Z.div_add_l by lia. rewrite Z.div_small by lia. lia.
            -- f_equal. rewrite Z.add_comm, Z.mod_add by lia. apply Z.mod_small. lia.
          * replace (k <? o) with false by lia. replace (k >? o) with true by lia. replace (n =? c) with false by lia. reflexivity.
        + left. split; [|split].
          * unfold family_step. rewrite M, EO. cbn [pm_tree pm_quad]. rewrite B. reflexivity.
          * intros ->. assert (n = c) as X by lia. rewrite X, E0 in E. injection E as <- <-. rewrite Z.eqb_refl in B. replace (is_equal d (parent d q0) (parent d q0)) with true in B by (symmetry; apply is_equal_eq; auto). discriminate.
          * intros m p (F & Fc) Hn. destruct (family_leaf d G Hwf Hord m t0 p n F Hn) as (q' & E' & _ & _ & P' & _). destruct (family_leaf d G Hwf Hord m t0 p c F ltac:(lia)) as (q1 & E1 & _ & _ & P1 & _). rewrite E in E'. injection E' as <- <-. rewrite E0 in E1. injection E1 as <-. rewrite P', P1, Z.eqb_refl in B.
            replace (is_equal d p p) with true in B by (symmetry; apply is_equal_eq; auto; rewrite <- P1; exact PW). discriminate.
    Qed.

    Lemma low_mono a b : a <= b -> cnt sb W0 a <= cnt sb W0 b.
    Proof. intros H. destruct (Z_le_gt_dec W0 a); [apply cnt_mono_r; lia|]. rewrite (cnt_empty sb W0 a) by lia. apply cnt_nonneg. Qed.
    Lemma high_mono a b : a <= b -> cnt sb (c + 1) a <= cnt sb (c + 1) b.
    Proof. intros H. destruct (Z_le_gt_dec (c + 1) a); [apply cnt_mono_r; lia|]. rewrite (cnt_empty sb (c + 1) a) by lia. apply cnt_nonneg. Qed.

    Definition inv (k mn mx : Z) : Prop :=
      0 <= c - mn <= cnt sb W0 (Z.min (nw k) c) /\ 0 <= mx - c <= cnt sb (c + 1) (Z.min (nw k) (W1 + 1)) /\
      forall m p, fam m p -> Z.min (nw k) c - m <= c - mn /\ Z.min (nw k) (m + C) - (c + 1) <= mx - c.

    Lemma inv_step k mn mx : 0 <= k < P -> inv k mn mx ->
      let s := if nearr k then family_step d o (mess o) (mn, mx) (mess k) else (mn, mx) in inv (k + 1) (fst s) (snd s).
    Proof.
      intros Hk (I1 & I2 & I3). pose proof (CH d) as HC. pose proof (Mnow k (k + 1) ltac:(lia) ltac:(lia)) as MK.
      pose proof (low_mono (Z.min (nw k) c) (Z.min (nw (k + 1)) c) ltac:(lia)) as LM. pose proof (high_mono (Z.min (nw k) (W1 + 1)) (Z.min (nw (k + 1)) (W1 + 1)) ltac:(lia)) as HM.
      cbv zeta. unfold nearr, inv. destruct ((nw k <? nw (k + 1)) && near k) eqn:B.
      - apply andb_prop in B. destruct B as (B1 & B2). destruct (nearest_cases k Hk ltac:(lia) B2) as (R & CS). cbv zeta in *.
        destruct (step_match k mn mx Hk ltac:(lia) B2) as [(E & NO & NF)|(a & b & A1 & A2 & A3 & A4 & A5 & E)]; rewrite E; clear E.
        + cbn [fst snd]. split; [lia|]. split; [lia|]. intros m p F. destruct (I3 m p F) as (F1 & F2). specialize (NF m p F). destruct F as (F & Fc). lia.
        + set (n := nearest c (nw k) (nw (k + 1))) in *.
          assert (FS : forall m p, fam m p -> forall i, m <= i < m + C -> sb i = true).
          { intros m p (F & Fc) i Hi. destruct (family_leaf d G Hwf Hord m t0 p c F ltac:(lia)) as (q1 & E1 & _ & _ & _ & _ & S1). rewrite E0 in E1. injection E1 as <-. apply S1. exact Hi. }
          destruct CS as [(C1 & C2 & C3)|[(C1 & C2)|(C1 & C2 & C3)]].
          * replace (k <? o) with true by lia. cbn [fst snd]. assert (EB : b = nw (k + 1) - 1) by lia.
            assert (CN : cnt sb W0 (nw (k + 1)) = cnt sb W0 a + (nw (k + 1) - a)) by (rewrite (cnt_split sb W0 a (nw (k + 1))) by lia; rewrite (cnt_all sb a (nw (k + 1))); [lia|lia|intros i Hi; apply A3; lia]).
            pose proof (low_mono (nw k) a ltac:(lia)) as LA. replace (Z.min (nw k) c) with (nw k) in * by lia. replace (Z.min (nw (k + 1)) c) with (nw (k + 1)) in * by lia.
            split; [lia|]. split; [lia|]. intros m p F. destruct (I3 m p F) as (F1 & F2). pose proof (FS m p F) as FF. destruct F as (F & Fc). split; [|lia].
            destruct (Z_le_gt_dec a m) as [La|La]; [lia|]. destruct A4 as [A4|A4]; [lia|]. destruct (Z_lt_le_dec (a - 1) (m + C)) as [Lb|Lb]; [rewrite FF in A4 by lia; discriminate|lia].
          * subst k. replace (o <? o) with false by lia. replace (o >? o) with false by lia. cbn [fst snd]. rewrite C2 in *.
            assert (CN : cnt sb W0 c = cnt sb W0 a + (c - a)) by (rewrite (cnt_split sb W0 a c) by lia; rewrite (cnt_all sb a c); [lia|lia|intros i Hi; apply A3; lia]).
            assert (CN2 : cnt sb (c + 1) (b + 1) = b - c) by (rewrite cnt_all; [lia|lia|intros i Hi; apply A3; lia]).
            pose proof (low_mono (nw o) a ltac:(lia)) as LA. pose proof (high_mono (b + 1) (Z.min (nw (o + 1)) (W1 + 1)) ltac:(lia)) as HB. replace (Z.min (nw o) c) with (nw o) in * by lia. replace (Z.min (nw (o + 1)) c) with c in * by lia.
            assert (HZ : cnt sb (c + 1) (Z.min (nw o) (W1 + 1)) = 0) by (apply cnt_empty; lia).
            split; [lia|]. split; [lia|]. intros m p F. destruct (I3 m p F) as (F1 & F2). pose proof (FS m p F) as FF. destruct F as (F & Fc). split.
            -- destruct (Z_le_gt_dec a m) as [La|La]; [lia|]. destruct A4 as [A4|A4]; [lia|]. rewrite FF in A4 by lia. discriminate.
            -- destruct (Z_le_gt_dec (m + C - 1) b) as [Lb|Lb]; [lia|]. destruct A5 as [A5|A5]; [lia|]. rewrite FF in A5 by lia. discriminate.
          * replace (k <? o) with false by lia. replace (k >? o) with true by lia. cbn [fst snd]. rewrite C3 in *. assert (EA : a = nw k) by lia.
            assert (CN : cnt sb (c + 1) (b + 1) = cnt sb (c + 1) (nw k) + (b + 1 - nw k)) by (rewrite (cnt_split sb (c + 1) (nw k) (b + 1)) by lia; rewrite (cnt_all sb (nw k) (b + 1)); [lia|lia|intros i Hi; apply A3; lia]).
            pose proof (high_mono (b + 1) (Z.min (nw (k + 1)) (W1 + 1)) ltac:(lia)) as HB. replace (Z.min (nw k) (W1 + 1)) with (nw k) in * by lia.
            split; [lia|]. split; [lia|]. intros m p F. destruct (I3 m p F) as (F1 & F2). pose proof (FS m p F) as FF. destruct F as (F & Fc). split; [lia|].
            destruct (Z_le_gt_dec (m + C - 1) b) as [Lb|Lb]; [lia|]. destruct A5 as [A5|A5]; [lia|]. rewrite FF in A5 by lia. discriminate.
      - cbn [fst snd]. split; [lia|]. split; [lia|]. intros m p F. destruct (I3 m p F) as (F1 & F2). destruct F as (F & Fc). unfold near_cut in B. lia.
    Qed.

    Lemma inv_fold : forall n k mn mx, 0 <= k -> k + Z.of_nat n = P -> inv k mn mx ->
      let s := fold_left (family_step d o (mess o)) (map mess (filter nearr (zseq n k))) (mn, mx) in inv P (fst s) (snd s).
    Proof.
      induction n as [|n IH]; intros k mn mx H1 H2 I; cbn [zseq filter].
      - cbn [map fold_left]. assert (k = P) as <- by lia. exact I.
      - pose proof (inv_step k mn mx ltac:(lia) I) as J. cbv zeta in J. destruct (nearr k) eqn:B; [|exact (IH (k + 1) mn mx ltac:(lia) ltac:(lia) J)].
        cbn [map fold_left]. destruct (family_step d o (mess o) (mn, mx) (mess k)) as [mn' mx']. exact (IH (k + 1) mn' mx' ltac:(lia) ltac:(lia) J).
    Qed.

    Lemma fold_level mn mx : fold (filter nearr (zseq (Z.to_nat P) 0)) = (mn, mx) ->
      (exists m p, family d G m t0 p /\ m < c < m + C /\ mn = m /\ mx = m + C - 1) \/
      ((forall m t p, family d G m t p -> ~ m < c < m + C) /\ mx - mn + 1 <> C).
    Proof.
      pose proof (CH d) as HC. intros E. pose proof (inv_fold (Z.to_nat P) 0 c c ltac:(lia) ltac:(lia)) as J. cbv zeta in J. rewrite E in J. cbn [fst snd] in J.
      destruct J as (J1 & J2 & J3).
      { split; [pose proof (cnt_nonneg sb W0 (Z.min (nw 0) c)); lia|]. split; [rewrite N0, cnt_empty by lia; lia|]. intros m p (F & Fc). pose proof (family_range d G m t0 p F). rewrite N0. lia. }
      rewrite N1 in *. replace (Z.min N c) with c in * by lia.
      assert (SC : sb c = true) by (apply (sib_self d G Hwf c t0 q0 E0 L0)).
      set (hi := Z.min N (W1 + 1)) in *. assert (Hh : c + 1 <= hi) by lia.
      assert (K : cnt sb W0 hi = cnt sb W0 c + 1 + cnt sb (c + 1) hi).
      { rewrite (cnt_split sb W0 c hi) by lia. rewrite (cnt_split sb c (c + 1) hi) by lia. rewrite (cnt_all sb c (c + 1)); [lia|lia|]. intros i Hi. assert (i = c) as -> by lia. exact SC. }
      destruct (sib_count d G Hwf Hord t0 q0 (filter sb (zseq (Z.to_nat (hi - W0)) W0)) (Hwf _ _ _ E0) L0) as (K1 & K2); [apply filter_inc, zseq_inc|intros k I; apply filter_In in I; apply I|]. change (zlen (filter sb (zseq (Z.to_nat (hi - W0)) W0))) with (cnt sb W0 hi) in K1, K2.
      destruct (Z.eq_dec (mx - mn + 1) C) as [EC|NC].
      - left. destruct (K2 ltac:(lia)) as (m & F & EL). assert (IC : forall k, m <= k < m + C -> W0 <= k < hi).
        { intros k Hk. assert (I : In k (filter sb (zseq (Z.to_nat (hi - W0)) W0))) by (rewrite EL; apply in_zseq; lia). apply filter_In in I. destruct I as (I & _). apply in_zseq in I. lia. }
        assert (CI : m <= c < m + C). { assert (I : In c (zseq (Z.to_nat C) m)) by (rewrite <- EL; apply filter_In; split; [apply in_zseq; lia|exact SC]). apply in_zseq in I. lia. }
        assert (m < c) by (pose proof (IC (m + C - 1) ltac:(lia)); lia).
        exists m, (parent d q0). destruct (J3 m (parent d q0) (conj F (conj H (proj2 CI)))) as (X1 & X2). pose proof (family_range d G m t0 _ F). rewrite LG in *. split; [exact F|]. split; [lia|]. split; lia.
      - right. split; [|exact NC]. intros m t p F Fc. assert (t = t0) as ->. { destruct (family_leaf d G Hwf Hord m t p c F ltac:(lia)) as (q' & E' & _). rewrite E0 in E'. injection E' as -> _. reflexivity. }
        destruct (J3 m p (conj F Fc)) as (X1 & X2). pose proof (family_range d G m t0 _ F). lia.
    Qed.
  End Level.

  Lemma fold_all mn mx : fold (filter nearr (zseq (Z.to_nat P) 0)) = (mn, mx) ->
    (exists m t p, family d G m t p /\ m < c < m + C /\ mn = m /\ mx = m + C - 1) \/
    ((forall m t p, family d G m t p -> ~ m < c < m + C) /\ mx - mn + 1 <> C).
  Proof.
    pose proof (CH d) as HC. intros E. destruct (zget_some G c ltac:(lia)) as ((t0, q0) & E0). pose proof (wf_level d q0 (Hwf _ _ _ E0)). destruct (Z.eq_dec (ql q0) 0) as [Z0|NZ].
    - right. pose proof (fold_root t0 q0 E0 Z0 (Z.to_nat P) 0 ltac:(lia) ltac:(lia)) as R. replace (0 <=? o) with true in R by lia. rewrite E in R. injection R as -> ->. split; [|lia].
      intros m t p F Fc. destruct (family_leaf d G Hwf Hord m t p c F ltac:(lia)) as (q' & E' & _ & L' & _). rewrite E0 in E'. injection E' as _ <-. lia.
    - destruct (fold_level t0 q0 E0 ltac:(lia) mn mx E) as [(m & p & A)|A]; [left; exists m, t0, p; exact A|right; exact A].
  Qed.
End Corr.
