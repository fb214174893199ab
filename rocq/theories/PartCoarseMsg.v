(** * One message of p4est_partition_for_coarsening *)

From Coq Require Import ZArith List Bool Lia Arith ZifyBool Sorting.Sorted.
From Verif Require Import Quad Spec Interval QuadLemmas Search Adapt ListLemmas Partition PartLemmas PartTrees PartRecv Forest ForestSpec PartCoarse PartCoarseLemmas PropertiesBits.
Import ListNotations.
Open Scope Z_scope.

Lemma zget_app1 {A} (l l' : list A) k : k < zlen l -> zget (l ++ l') k = zget l k.
Proof. intros H. unfold zget. destruct (k <? 0) eqn:B; [reflexivity|]. apply nth_error_app1. unfold zlen in H. lia. Qed.
Lemma zget_app2 {A} (l l' : list A) k : zlen l <= k -> zget (l ++ l') k = zget l' (k - zlen l).
Proof.
  intros H. pose proof (zlen_nonneg l). rewrite !zget_nth by lia. rewrite nth_error_app2 by (unfold zlen in H; lia). f_equal. unfold zlen. lia.
Qed.
Lemma zget_map {A B} (f : A -> B) l k : zget (map f l) k = option_map f (zget l k).
Proof. unfold zget. destruct (k <? 0); [reflexivity|]. apply nth_error_map. Qed.
Lemma zget_some {A} (l : list A) k : 0 <= k < zlen l -> exists x, zget l k = Some x.
Proof. intros H. rewrite zget_nth by lia. destruct (nth_error l (Z.to_nat k)) eqn:E; [eauto|]. apply nth_error_None in E. unfold zlen in H. lia. Qed.
Lemma zget_range {A} (l : list A) k x : zget l k = Some x -> 0 <= k < zlen l.
Proof. unfold zget. destruct (k <? 0) eqn:B; [discriminate|]. intros E. assert (Z.to_nat k < length l)%nat by (apply nth_error_Some; congruence). unfold zlen. lia. Qed.
Lemma zlen_map {A B} (f : A -> B) l : zlen (map f l) = zlen l.
Proof. unfold zlen. rewrite map_length. reflexivity. Qed.

Lemma is_parent_iff d q r : wf d q -> wf d r -> (is_parent d q r = true <-> 0 < ql r /\ q = parent d r).
Proof. intros A B. destruct (C04_ancestor_and_overlap d q r A B) as (_ & _ & _ & _ & E). exact E. Qed.

Section Scan.
  Variables (same : Z -> option bool) (sf : Z -> bool).
  Lemma scan_down : forall n i best, (forall k, i - Z.of_nat n < k <= i -> same k = Some (sf k)) ->
    exists mn, scan same (-1) n i best = Some mn /\
      ((mn = best /\ (n = 0%nat \/ sf i = false)) \/
       (i - Z.of_nat n < mn <= i /\ (forall k, mn <= k <= i -> sf k = true) /\ (mn = i - Z.of_nat n + 1 \/ sf (mn - 1) = false))).
  Proof.
    induction n as [|n IH]; intros i best H; cbn [scan]; [exists best; auto|]. rewrite H by lia. destruct (sf i) eqn:B; [|exists best; auto].
    destruct (IH (i + -1) i) as (mn & E & D); [intros k Hk; apply H; lia|]. exists mn. split; [exact E|]. right. destruct D as [(-> & D)|(D1 & D2 & D3)].
    - split; [lia|]. split; [intros k Hk; assert (k = i) as -> by lia; exact B|]. destruct D as [->|D]; [left; lia|right; replace (i - 1) with (i + -1) by lia; exact D].
    - split; [lia|]. split; [intros k Hk; destruct (Z.eq_dec k i) as [->|]; [exact B|apply D2; lia]|]. destruct D3 as [->|D3]; [left; lia|right; exact D3].
  Qed.
  Lemma scan_up : forall n i best, (forall k, i <= k < i + Z.of_nat n -> same k = Some (sf k)) ->
    exists mx, scan same 1 n i best = Some mx /\
      ((mx = best /\ (n = 0%nat \/ sf i = false)) \/
       (i <= mx < i + Z.of_nat n /\ (forall k, i <= k <= mx -> sf k = true) /\ (mx = i + Z.of_nat n - 1 \/ sf (mx + 1) = false))).
  Proof.
    induction n as [|n IH]; intros i best H; cbn [scan]; [exists best; auto|]. rewrite H by lia. destruct (sf i) eqn:B; [|exists best; auto].
    destruct (IH (i + 1) i) as (mx & E & D); [intros k Hk; apply H; lia|]. exists mx. split; [exact E|]. right. destruct D as [(-> & D)|(D1 & D2 & D3)].
    - split; [lia|]. split; [intros k Hk; assert (k = i) as -> by lia; exact B|]. destruct D as [->|D]; [left; lia|right; exact D].
    - split; [lia|]. split; [intros k Hk; destruct (Z.eq_dec k i) as [->|]; [exact B|apply D2; lia]|]. destruct D3 as [->|D3]; [left; lia|right; exact D3].
  Qed.
End Scan.

Section Msg.
  Variable d : dim.
  Variables (St D : Type).
  Variable T : Z.
  Hypothesis HT : 0 < T.
  Local Notation C := (children d).
  Variable p : proc St D.
  Hypothesis OK : proc_ok d St D T p.
  Local Notation RL := (rank_leaves St D T p).
  Local Notation lv := (lvs St D p).
  Local Notation off := (lvs_before St D p).
  Local Notation fl := (pr_first St D p).
  Local Notation ll := (pr_last St D p).
  Hypothesis NE : 0 < pr_num St D p.

  Lemma off_step t : 0 <= t -> off (t + 1) = off t + zlen (lv t).
  Proof.
    intros H. unfold lvs_before. replace (Z.to_nat (t + 1)) with (Z.to_nat t + 1)%nat by lia. rewrite loc_from_app, zlen_app. cbn [loc_from]. rewrite app_nil_r, zlen_map. replace (0 + Z.of_nat (Z.to_nat t)) with t by lia. reflexivity.
  Qed.
  Lemma off_mono s t : 0 <= s <= t -> off s <= off t.
  Proof.
    intros H. unfold lvs_before. replace (Z.to_nat t) with (Z.to_nat s + Z.to_nat (t - s))%nat by lia. rewrite loc_from_app, zlen_app. pose proof (zlen_nonneg (loc_from (0 + Z.of_nat (Z.to_nat s)) (Z.to_nat (t - s)) lv)). lia.
  Qed.
  Lemma num_len : pr_num St D p = zlen RL.
  Proof. destruct OK as (_ & E & _). exact E. Qed.
  Lemma locals : 0 <= fl <= ll /\ ll < T /\ off fl = 0 /\ off (ll + 1) = pr_num St D p.
  Proof.
    destruct OK as (RK & E & _). destruct RK as [(A1 & A2 & A3)|(A1 & A2 & A3)].
    - exfalso. unfold lvs_before in E. rewrite loc_from_nil in E; [unfold zlen in E; cbn in E; lia|]. intros t _. apply A3.
    - cbn [k_first k_last rk_of] in *. split; [exact A1|]. split; [exact A2|]. assert (EM : forall t, ~ (fl <= t <= ll) -> lv t = []).
      { intros t H. destruct (lv t) eqn:B; [reflexivity|]. exfalso. apply H. apply A3. change (k_trees _ (rk_of St D p) t) with (lv t). rewrite B. discriminate. }
      split.
      + unfold lvs_before. rewrite loc_from_nil; [reflexivity|]. intros t Ht. apply EM. lia.
      + rewrite E. unfold lvs_before. replace (Z.to_nat T) with (Z.to_nat (ll + 1) + Z.to_nat (T - (ll + 1)))%nat by lia. rewrite loc_from_app, zlen_app. rewrite (loc_from_nil lv (Z.to_nat (T - (ll + 1)))); [change (zlen (@nil (Z * (quad * D)))) with 0; lia|]. intros t Ht. apply EM. lia.
  Qed.
  Lemma tree_off t : 0 <= t < T -> t_off D (ft D (pr_trees St D p t)) = off t.
  Proof. intros H. destruct OK as (_ & _ & E). destruct (E t H) as (E1 & _). exact E1. Qed.

  Lemma read_leaf t k : 0 <= t < T -> off t <= k < off (t + 1) -> zget RL k = option_map (pair t) (zget (lv t) (k - off t)).
  Proof.
    intros Ht Hk. rewrite off_step in Hk by lia. unfold rank_leaves. replace (Z.to_nat T) with (Z.to_nat t + S (Z.to_nat (T - t - 1)))%nat by lia. rewrite loc_from_app. rewrite zget_app2 by apply Hk. cbn [loc_from].
    replace (0 + Z.of_nat (Z.to_nat t)) with t by lia. rewrite zget_app1 by (rewrite zlen_map; unfold lvs_before in *; lia). rewrite zget_map. reflexivity.
  Qed.

  Lemma tree_loop_ok k : 0 <= k < pr_num St D p -> exists ti, fl <= ti <= ll /\ off ti <= k < off (ti + 1) /\
    tree_loop D (pr_trees St D p) k (trips fl ll) fl (-1) (pr_num St D p) = (ti, off (ti + 1)).
  Proof.
    intros Hk. destruct locals as (A1 & A2 & A3 & A4).
    assert (G : forall n it ti, it + Z.of_nat n = ll + 1 -> fl < it -> ti = it - 1 -> off ti <= k ->
      exists tj, fl <= tj <= ll /\ off tj <= k < off (tj + 1) /\ tree_loop D (pr_trees St D p) k n it ti (pr_num St D p) = (tj, off (tj + 1))).
    { induction n as [|n IH]; intros it ti H1 H2 -> H3; cbn [tree_loop].
      - exists (it - 1). replace (it - 1 + 1) with (ll + 1) by lia. rewrite A4. split; [lia|]. split; [lia|]. reflexivity.
      - rewrite tree_off by lia. destruct (off it <=? k) eqn:B.
        + apply IH; lia.
        + exists (it - 1). replace (it - 1 + 1) with it by lia. split; [lia|]. split; [lia|]. reflexivity. }
    unfold trips. replace (Z.to_nat (ll - fl + 1)) with (S (Z.to_nat (ll - fl))) by lia. cbn [tree_loop]. rewrite tree_off by lia. replace (off fl <=? k) with true by lia. apply G; lia.
  Qed.

  Variables (G : list (Z * quad)) (lo hi : Z).
  Hypothesis Hhi : hi = lo + pr_num St D p.
  Hypothesis Hlo : 0 <= lo.
  Hypothesis HG : forall k, lo <= k < hi -> zget G k = option_map (fun x => (fst x, fst (snd x))) (zget RL (k - lo)).

  (** leaf k is in the same tree and has the same parent as the quadrant q in tree t *)
  Definition sib (t : Z) (q : quad) (k : Z) : bool :=
    match zget G k with Some (t', q') => (t' =? t) && (ql q' =? ql q) && is_parent d (parent d q) q' | None => false end.

  Lemma nearest_range c : near_cut d c lo hi = true -> let n := nearest c lo hi in lo <= n < hi /\ c - C + 1 <= n <= c + C - 2 /\
    (lo <= c < hi -> n = c) /\ (c < lo -> n = lo) /\ (hi <= c -> n = hi - 1).
  Proof. pose proof (CH d). intros H1. unfold near_cut in H1. unfold nearest. destruct ((lo <=? c) && (c <? hi)) eqn:B; [lia|]. destruct (Z.abs (c - lo) <? Z.abs (c - hi + 1)) eqn:B1; lia. Qed.

  Lemma message_ok rank dst c : near_cut d c lo hi = true -> (forall k t q, zget G k = Some (t, q) -> wf d q) ->
    exists t q, let n := nearest c lo hi in zget G n = Some (t, q) /\
      ((ql q = 0 /\ message d St D rank p lo hi c dst = Some (mkpm rank dst t q 1)) \/
       (0 < ql q /\ exists mn mx, message d St D rank p lo hi c dst = Some (mkpm rank dst t (parent d q) (if n =? c then (c - mn) * C + (mx - c) else mx - mn + 1)) /\
          Z.max lo (c - C + 1) <= mn <= n /\ n <= mx <= Z.min (hi - 1) (c + C - 2) /\
          (forall k, mn <= k <= mx -> sib t q k = true) /\
          (mn = Z.max lo (c - C + 1) \/ sib t q (mn - 1) = false) /\ (mx = Z.min (hi - 1) (c + C - 2) \/ sib t q (mx + 1) = false))).
  Proof.
    intros NC WF. pose proof (CH d) as HC. destruct (nearest_range c NC) as (R1 & R2 & _). unfold message. set (n := nearest c lo hi) in *. clearbody n.
    destruct (tree_loop_ok (n - lo) ltac:(lia)) as (ti & T1 & T2 & T3). destruct locals as (A1 & A2 & A3 & A4). replace (hi - lo) with (pr_num St D p) by lia. rewrite T3. replace (ti <? 0) with false by lia. rewrite tree_off by lia.
    assert (TI : 0 <= ti < T) by lia. pose proof (off_step ti ltac:(lia)) as OS. pose proof (off_mono fl ti ltac:(lia)) as OM1. pose proof (off_mono (ti + 1) (ll + 1) ltac:(lia)) as OM2.
    change (t_leaves D (ft D (pr_trees St D p ti))) with (lv ti).
    assert (RD : forall k, lo + off ti <= k < lo + off (ti + 1) -> exists q dt, zget (lv ti) (k - lo - off ti) = Some (q, dt) /\ zget G k = Some (ti, q)).
    { intros k Hk. destruct (zget_some (lv ti) (k - lo - off ti) ltac:(lia)) as ((q & dt) & E). exists q, dt. split; [exact E|]. rewrite HG by lia. rewrite (read_leaf ti) by lia. rewrite E. reflexivity. }
    destruct (RD n ltac:(lia)) as (q & dt & E1 & E2). rewrite E1. exists ti, q. cbv zeta. split; [exact E2|].
    destruct (ql q >? 0) eqn:BL; [|left; split; [pose proof (wf_level d q (WF _ _ _ E2)); lia|reflexivity]]. right. split; [lia|].
    assert (SF : forall k, lo + off ti <= k < lo + off (ti + 1) -> match zget (lv ti) (k - lo - off ti) with Some (r, _) => Some ((ql r =? ql q) && is_parent d (parent d q) r) | None => None end = Some (sib ti q k)).
    { intros k Hk. destruct (RD k Hk) as (r & dr & F1 & F2). rewrite F1. unfold sib. rewrite F2, Z.eqb_refl. reflexivity. }
    assert (SN : sib ti q n = true).
    { unfold sib. rewrite E2, !Z.eqb_refl. cbn [andb]. destruct (parent_wf d q (WF _ _ _ E2) ltac:(lia)) as (PW & _). apply is_parent_iff; [exact PW|exact (WF _ _ _ E2)|]. split; [lia|reflexivity]. }
    (* leaves of the rank in other trees *)
    assert (OUT : forall k, lo <= k < hi -> ~ (lo + off ti <= k < lo + off (ti + 1)) -> sib ti q k = false).
    { intros k Hk Hn. unfold sib. rewrite HG by lia. destruct (tree_loop_ok (k - lo) ltac:(lia)) as (tk & K1 & K2 & _). rewrite (read_leaf tk) by lia. destruct (zget (lv tk) (k - lo - off tk)) as [(r & dr)|]; cbn [option_map fst snd]; [|reflexivity].
      assert (tk <> ti) by (intros ->; lia). replace (tk =? ti) with false by lia. reflexivity. }
    set (A := Z.max (lo + off ti) (c - C + 1)). set (B := Z.min (lo + off ti + (off (ti + 1) - off ti) - 1) (c + C - 2)).
    destruct (scan_down _ (sib ti q) (Z.to_nat (n - A + 1)) n n (fun k Hk => SF k ltac:(unfold A in *; lia))) as (mn & S1 & D1).
    destruct (scan_up _ (sib ti q) (Z.to_nat (B - n + 1)) n n (fun k Hk => SF k ltac:(unfold B in *; lia))) as (mx & S2 & D2).
    rewrite S1, S2. exists mn, mx. split; [reflexivity|].
    destruct D1 as [(D1 & D1')|(D11 & D12 & D13)]; [exfalso; destruct D1'; [unfold A in *; lia|congruence]|].
    destruct D2 as [(D2 & D2')|(D21 & D22 & D23)]; [exfalso; destruct D2'; [unfold B in *; lia|congruence]|].
    split; [unfold A in *; lia|]. split; [unfold B in *; lia|].
    split; [intros k Hk; destruct (Z_le_gt_dec k n); [apply D12; lia|apply D22; lia]|]. split.
    - destruct D13 as [D13|D13]; [|right; exact D13]. assert (mn = A) by (unfold A in *; lia). destruct (Z.eq_dec mn (Z.max lo (c - C + 1))) as [E|E]; [left; exact E|right]. apply OUT; unfold A in *; lia.
    - destruct D23 as [D23|D23]; [|right; exact D23]. assert (mx = B) by (unfold B in *; lia). destruct (Z.eq_dec mx (Z.min (hi - 1) (c + C - 2))) as [E|E]; [left; exact E|right]. apply OUT; unfold B in *; lia.
  Qed.
End Msg.
