(** * p4est_build: more fuel changes nothing; the end of a tree *)

From Coq Require Import ZArith List Bool Lia Arith ZifyBool Sorting.Sorted.
From Verif Require Import Quad Spec Interval QuadLemmas CompareLemmas DescLemmas SearchLocal Tree TreeLemmas Adapt AdaptSpec RefineLemmas CoarsenProps Tiles RegionLemmas
  Balance BalanceBasics BalanceFill BalanceComplete BalanceMerge PropertiesComplete Enlarge Partition Comm Complete PropertiesRegion Forest ForestSpec Build.
Import ListNotations.
Open Scope Z_scope.

Ltac mono_step :=
  match goal with
  | |- None = Some _ -> _ => discriminate
  | |- context [match ?x with _ => _ end] => destruct x eqn:?
  end.

Section Mono.
  Variable d : dim.
  Variable bsearch : list quad -> quad -> option nat.

  Lemma fill_loop_mono dom : forall n m ld sent tempq pid rest out r, (n <= m)%nat -> fill_loop d dom n ld sent tempq pid rest out = Some r -> fill_loop d dom m ld sent tempq pid rest out = Some r.
  Proof.
    induction n as [|n IH]; intros m ld sent tempq pid rest out r L; [discriminate|]. destruct m as [|m]; [lia|]. cbn [fill_loop]. cbv zeta.
    repeat mono_step; auto; try (apply IH; lia).
  Qed.
  Lemma fill_mono dom n m inlist fd a b r : (n <= m)%nat -> Balance.fill d dom n inlist fd a b = Some r -> Balance.fill d dom m inlist fd a b = Some r.
  Proof. intros L. unfold Balance.fill. repeat mono_step; auto; apply fill_loop_mono; exact L. Qed.
  Lemma kernel_mono dom n m bound inlist a b r : (n <= m)%nat -> kernel d bsearch dom n bound inlist a b = Some r -> kernel d bsearch dom m bound inlist a b = Some r.
  Proof. intros L. unfold kernel. destruct (add_first _ _ _ _) as [(?, ?)|]; [|discriminate]. destruct (add_last _ _ _ _); [|discriminate]. destruct (if bound >? 1 then _ else _); [|discriminate]. apply fill_mono. exact L. Qed.

  Variables (St D : Type).
  Variable init_fn : St -> Z -> quad -> St * D.
  Lemma cob_mono t n m bt f l s tr r : (n <= m)%nat -> complete_or_balance d bsearch St D init_fn t n bt f l s tr = Some r -> complete_or_balance d bsearch St D init_fn t m bt f l s tr = Some r.
  Proof.
    intros L. unfold complete_or_balance. destruct (map fst (t_leaves D tr)) as [|p tq]; [auto|]. destruct (match tq with [] => _ | _ => _ end); [auto|].
    destruct (kernel d bsearch _ n _ _ _ _) as [out|] eqn:E; [|discriminate]. rewrite (kernel_mono _ n m _ _ _ _ out L E). auto.
  Qed.
  Lemma region_loop_mono t a b : forall n m W st r, (n <= m)%nat -> region_loop d St D init_fn t n a b W st = Some r -> region_loop d St D init_fn t m a b W st = Some r.
  Proof.
    induction n as [|n IH]; intros m W st r L; destruct W as [|w W]; cbn [region_loop]; try (destruct m; auto; discriminate); try discriminate.
    destruct m as [|m]; [lia|]. cbn [region_loop]. repeat mono_step; apply IH; lia.
  Qed.
  Lemma region_mono t n m s pl q1 i1 q2 i2 r : (n <= m)%nat -> complete_region d St D init_fn t n s pl q1 i1 q2 i2 = Some r -> complete_region d St D init_fn t m s pl q1 i1 q2 i2 = Some r.
  Proof.
    intros L. unfold complete_region. destruct (_ <? 0); [|auto]. destruct (region_loop d St D init_fn t n _ _ _ _) as [st|] eqn:E; [|discriminate].
    rewrite (region_loop_mono t _ _ n m _ _ st L E). auto.
  Qed.
  Lemma end_leaves_mono n m t y cm s r : (n <= m)%nat -> end_leaves d St D bsearch n init_fn t y cm s = Some r -> end_leaves d St D bsearch m init_fn t y cm s = Some r.
  Proof.
    intros L. unfold end_leaves. destruct (t_leaves D (ft D y)); [|apply cob_mono; exact L]. destruct (is_first_last _ _ _ _); [auto|].
    destruct (complete_region _ _ _ _ _ n _ _ _ _ _ _) as [st|] eqn:E; [|discriminate]. rewrite (region_mono _ n m _ _ _ _ _ _ st L E). auto.
  Qed.
  Variable T : Z.
  Lemma end_tree_mono n m b r : (n <= m)%nat -> end_tree d St D T bsearch n init_fn b = Some r -> end_tree d St D T bsearch m init_fn b = Some r.
  Proof.
    intros L. unfold end_tree. destruct (_ && _); [|discriminate]. destruct (end_leaves d St D bsearch n _ _ _ _ _) as [x|] eqn:E; [|discriminate]. rewrite (end_leaves_mono n m _ _ _ _ x L E). auto.
  Qed.
  Lemma advance_mono n m : (n <= m)%nat -> forall k b r, advance d St D T bsearch n init_fn k b = Some r -> advance d St D T bsearch m init_fn k b = Some r.
  Proof.
    intros L. induction k as [|k IH]; intros b r; cbn [advance]; [auto|]. destruct (end_tree _ _ _ _ _ n _ b) as [(b1, off)|] eqn:E; [|discriminate]. rewrite (end_tree_mono n m _ _ L E).
    destruct (begin_tree _ _ _ _ _ _); [|discriminate]. apply IH.
  Qed.
  Lemma add_mono n m b t q r : (n <= m)%nat -> build_add d St D T bsearch n init_fn b t q = Some r -> build_add d St D T bsearch m init_fn b t q = Some r.
  Proof. intros L. unfold build_add. destruct (advance _ _ _ _ _ n _ _ b) as [b1|] eqn:E; [|discriminate]. rewrite (advance_mono n m L _ _ _ E). auto. Qed.
  Lemma run_mono n m : (n <= m)%nat -> forall ops b r, run d St D T bsearch n init_fn ops b = Some r -> run d St D T bsearch m init_fn ops b = Some r.
  Proof.
    intros L. induction ops as [|[f|t q] ops IH]; intros b r; cbn [run]; [auto|apply IH|].
    destruct (build_add _ _ _ _ _ n _ b t q) as [(b1, x)|] eqn:E; [|discriminate]. rewrite (add_mono n m _ _ _ _ L E).
    destruct (run _ _ _ _ _ n _ ops b1) as [y|] eqn:E2; [|discriminate]. rewrite (IH _ _ E2). auto.
  Qed.
  Lemma finish_mono n m b r : (n <= m)%nat -> build_finish d St D T bsearch n init_fn b = Some r -> build_finish d St D T bsearch m init_fn b = Some r.
  Proof.
    intros L. unfold build_finish. destruct (_ <=? _); [|auto]. destruct (advance _ _ _ _ _ n _ _ b) as [b1|] eqn:E; [|discriminate]. rewrite (advance_mono n m L _ _ _ E).
    destruct (end_tree _ _ _ _ _ n _ b1) as [x|] eqn:E2; [|discriminate]. rewrite (end_tree_mono n m _ _ L E2). auto.
  Qed.
  Lemma rank_mono n m p ops r : (n <= m)%nat -> build_rank d St D T bsearch n init_fn p ops = Some r -> build_rank d St D T bsearch m init_fn p ops = Some r.
  Proof.
    intros L. unfold build_rank. destruct (build_new _ _ _ _ _) as [b|]; [|discriminate]. destruct (run _ _ _ _ _ n _ ops b) as [(b1, rs)|] eqn:E; [|discriminate]. rewrite (run_mono n m L _ _ _ E).
    destruct (build_finish _ _ _ _ _ n _ b1) as [x|] eqn:E2; [|discriminate]. rewrite (finish_mono n m _ _ L E2). auto.
  Qed.
End Mono.

(** ** the end of a tree *)
Section EndTree.
  Variable d : dim.
  Variable bsearch : list quad -> quad -> option nat.
  Variables (St D : Type).
  Variable init_fn : St -> Z -> quad -> St * D.
  Local Notation inn w q := (qpos d w <= qpos d q /\ qend d q <= qend d w).

  (** the list [ws] tiles the range, contains all of [lv], and is coarser than all such tilings *)
  Definition coarsest_with (A E : Z) (lv ws : list quad) : Prop :=
    tiles d A E ws /\ (forall q, In q lv -> In q ws) /\
    (forall T, tiles d A E T -> (forall q, In q lv -> In q T) -> forall w', In w' T -> exists w, In w ws /\ inn w w').

  Lemma last_tiles : forall (k : list (quad * D)) y a b, tiles d a b (map fst (y :: k)) -> wf d (fst (last k y)) /\ qend d (fst (last k y)) = b /\ In (last k y) (y :: k).
  Proof.
    induction k as [|z k IH]; intros y a b H.
    - cbn in H. destruct H as (W & _ & E). split; [exact W|]. split; [exact E|left; reflexivity].
    - cbn [map tiles] in H. destruct H as (W & P & H). destruct (IH z _ _ H) as (A & B & C).
      replace (last (z :: k) y) with (last k z) by (clear; revert z; induction k as [|w k IH]; intros z; [reflexivity|cbn [last] in *; destruct k; [reflexivity|apply IH]]).
      split; [exact A|]. split; [exact B|right; exact C].
  Qed.

  Lemma maxlev_in (l : list (quad * D)) x : In x l -> ql (fst x) <= maxlev l.
  Proof. unfold maxlev. induction l as [|y l IH]; cbn [fold_right]; intros H; [destruct H|]. destruct H as [->|H]; [lia|specialize (IH H); lia]. Qed.
  Lemma maxlev_wf (l : list (quad * D)) : Forall (wf d) (map fst l) -> maxlev l <= 29.
  Proof. unfold maxlev. induction l as [|y l IH]; cbn [fold_right map]; intros F; [lia|]. inversion F as [|? ? W F']; subst. pose proof (wf_level d _ W). specialize (IH F'). lia. Qed.

  Lemma descs_range fd ld (L0 : list (quad * D)) A E : L0 <> [] -> tiles d A E (map fst L0) -> descs_ok d D fd ld L0 ->
    wf d fd /\ wf d ld /\ ql fd = 29 /\ ql ld = 29 /\ qpos d fd = A /\ qend d ld = E /\ qend d fd <= E /\
    (forall m, maxlev L0 <= m <= 29 -> qpos d (ancestor d fd m) = A /\ qend d (ancestor d ld m) = E).
  Proof.
    destruct L0 as [|x l]; [congruence|]. intros _ TI (E1 & E2). cbn [descs_ok] in *. destruct (last_tiles _ _ _ _ TI) as (WL & EL & IL). pose proof TI as TI'. cbn [map tiles] in TI. destruct TI as (Wx & Px & TI).
    pose proof (wf_level d _ Wx). pose proof (wf_level d _ WL). change QMAXLEVEL with 29 in *.
    destruct (first_descendant_wf d (fst x) 29 Wx ltac:(lia)) as (A1 & A2 & A3 & A4). destruct (last_descendant_wf d (fst (last l x)) 29 WL ltac:(lia)) as (B1 & B2 & B3 & B4). rewrite <- E1 in *. rewrite <- E2 in *.
    pose proof (size_pos d _ Wx). pose proof (tiles_le _ _ _ _ TI). pose proof (maxlev_in (x :: l) x ltac:(left; reflexivity)) as M1. pose proof (maxlev_in (x :: l) _ IL) as M2.
    split; [exact A1|]. split; [exact B1|]. split; [exact A2|]. split; [exact B2|]. split; [lia|]. split; [lia|]. pose proof (size_pos d _ A1). split.
    { assert (inn (fst x) fd) by (apply (nested_pt d _ _ (qpos d fd)); auto; lia). lia. }
    intros m Hm. destruct (ancestor_wf d fd m A1 ltac:(lia)) as (C1 & C2 & _). destruct (ancestor_wf d ld m B1 ltac:(lia)) as (D1 & D2 & _).
    pose proof (ancestor_contains d fd m A1 ltac:(lia)). pose proof (ancestor_contains d ld m B1 ltac:(lia)). pose proof (size_pos d _ B1). pose proof (size_pos d _ WL).
    assert (inn (fst x) (ancestor d fd m)) by (apply (nested_pt d _ _ (qpos d fd)); auto; lia).
    assert (inn (fst (last l x)) (ancestor d ld m)) by (apply (nested_pt d _ _ (qend d ld - 1)); auto; lia). lia.
  Qed.

  Lemma refill_nil t : forall ws s, refill d St D init_fn t [] s ws = init_list St D init_fn s t ws.
  Proof. induction ws as [|w ws IH]; intros s; cbn [refill init_list find]; [reflexivity|]. destruct (init_fn s t w) as (s1, v). rewrite IH. destruct (init_list _ _ _ s1 t ws). reflexivity. Qed.
  Lemma init_list_fst t : forall ws s, map fst (snd (init_list St D init_fn s t ws)) = ws.
  Proof. intros. rewrite <- refill_nil. apply refill_fst. Qed.

  Lemma end_empty t y L0 A E s : L0 <> [] -> tiles d A E (map fst L0) -> descs_ok d D (ft_fd D y) (ft_ld D y) L0 -> t_leaves D (ft D y) = [] -> (forall i, t_pl D (ft D y) i = 0) ->
    exists n s' x', end_leaves d St D bsearch n init_fn t y (maxlev L0) s = Some (s', x') /\
      t_off D x' = t_off D (ft D y) /\ (forall i, t_pl D x' i = nlev i (t_leaves D x')) /\ t_max D x' = maxlev (t_leaves D x') /\
      coarsest_with A E [] (map fst (t_leaves D x')) /\ (s', t_leaves D x') = refill d St D init_fn t [] s (map fst (t_leaves D x')).
  Proof.
    intros NE TI DS LV PL. destruct (descs_range _ _ _ _ _ NE TI DS) as (Wf & Wl & Lf & Ll & Pf & El & AE & AN).
    pose proof (maxlev_nonneg L0) as M0. pose proof (maxlev_wf L0 (tiles_wf _ _ _ _ TI)) as M1. set (m := maxlev L0) in *.
    unfold end_leaves. rewrite LV. set (fd := ft_fd D y) in *. set (ld := ft_ld D y) in *.
    assert (QF : (if m <? QMAXLEVEL then ancestor d fd m else fd) = ancestor d fd m) by (destruct (m <? QMAXLEVEL) eqn:C; [reflexivity|]; change QMAXLEVEL with 29 in C; replace m with (ql fd) by lia; symmetry; apply ancestor_self; auto).
    assert (QL : (if m <? QMAXLEVEL then ancestor d ld m else ld) = ancestor d ld m) by (destruct (m <? QMAXLEVEL) eqn:C; [reflexivity|]; change QMAXLEVEL with 29 in C; replace m with (ql ld) by lia; symmetry; apply ancestor_self; auto).
    rewrite QF, QL. clear QF QL. destruct (AN m ltac:(lia)) as (PF & PE).
    destruct (ancestor_wf d fd m Wf ltac:(lia)) as (Wqf & Lqf & _). destruct (ancestor_wf d ld m Wl ltac:(lia)) as (Wql & Lql & _).
    set (qf := ancestor d fd m) in *. set (q2 := ancestor d ld m) in *.
    destruct (nca_spec d qf q2 Wqf Wql) as (Wa & Ca & Cb & Least). set (a := nearest_common_ancestor d qf q2) in *.
    pose proof (size_pos d _ Wqf) as Sf. pose proof (size_pos d _ Wql) as Sl.
    pose proof (inn_level d a qf Wa Wqf Ca) as La1. pose proof (inn_level d a q2 Wa Wql Cb) as La2.
    destruct (is_first_last d qf q2 a) eqn:FL.
    - apply is_first_last_spec in FL; auto. destruct (init_fn s t a) as (s', v) eqn:EI. exists 0%nat, s'. eexists. split; [reflexivity|]. cbn [t_off t_pl t_max t_leaves map fst].
      split; [reflexivity|]. split; [|split; [|split]].
      + intros i. unfold Partition.upd, nlev. cbn [filter fst]. rewrite PL. rewrite (Z.eqb_sym (ql a) i). destruct (i =? ql a) eqn:C; cbn [length]; lia.
      + unfold maxlev. cbn [fold_right fst]. pose proof (wf_level d a Wa). rewrite Z.max_l by lia. reflexivity.
      + split; [|split].
        * cbn [tiles]. split; [exact Wa|]. lia.
        * intros q [].
        * intros T HT _ w' Hw'. exists a. split; [left; reflexivity|]. pose proof (tiles_bounds d T _ _ w' HT Hw'). lia.
      + cbn [refill find]. rewrite EI. reflexivity.
    - assert (NFL : ~ (qpos d qf = qpos d a /\ qend d q2 = qend d a)) by (intros H; apply is_first_last_spec in H; auto; congruence).
      assert (LT : ql a < m).
      { destruct (Z_lt_le_dec (ql a) m); [assumption|exfalso]. apply NFL. assert (E1 : a = qf) by (apply (inn_eq d); auto; lia). assert (E2 : a = q2) by (apply (inn_eq d); auto; lia). rewrite <- E1, <- E2. auto. }
      assert (KID : forall q, wf d q -> ql q = m -> inn a q -> let c := child d a (ancestor_id d q (ql a + 1)) in wf d c /\ inn c q /\ ql c = ql a + 1 /\ parent d c = a /\ inn a c).
      { intros q Wq Lq I. cbv zeta. pose proof (wf_level d a Wa). pose proof (wf_level d q Wq).
        destruct (ancestor_wf d q (ql a + 1) Wq ltac:(lia)) as (W1 & L1 & _). pose proof (ancestor_contains d q (ql a + 1) Wq ltac:(lia)) as C1.
        assert (P1 : parent d (ancestor d q (ql a + 1)) = a).
        { rewrite ancestor_parent by (auto; lia). replace (ql a + 1 - 1) with (ql a) by lia. symmetry. apply contains_unique; auto; lia. }
        rewrite ancestor_id_child by (auto; lia). assert (EC : child d a (child_id d (ancestor d q (ql a + 1))) = ancestor d q (ql a + 1)) by (rewrite <- P1 at 1; apply parent_child; auto; lia).
        rewrite EC. split; [exact W1|]. split; [exact C1|]. split; [exact L1|]. split; [exact P1|]. pose proof (parent_inn d _ W1 ltac:(lia)) as PI. rewrite P1 in PI. exact PI. }
      pose proof (KID qf Wqf Lqf Ca) as (Wc1 & Ic1 & Lc1 & Pc1 & Ac1). pose proof (KID q2 Wql Lql Cb) as (Wc2 & Ic2 & Lc2 & Pc2 & Ac2). clear KID.
      set (cf := child d a (ancestor_id d qf (ql a + 1))) in *. set (cl := child d a (ancestor_id d q2 (ql a + 1))) in *.
      destruct (enlarge_first_spec d cf qf Wc1 Wqf (proj1 Ic1) (proj2 Ic1)) as (Wr1 & Pr1 & E1a & E1b & X1). destruct (enlarge_last_spec d cl q2 Wc2 Wql (proj1 Ic2) (proj2 Ic2)) as (Wr2 & Er2 & E2a & E2b & X2).
      set (r1 := enlarge_first d cf qf) in *. set (r2 := enlarge_last d cl q2) in *.
      pose proof (size_pos d _ Wa) as Sa. pose proof (size_pos d _ Wc1) as Sc1. pose proof (size_pos d _ Wc2) as Sc2. pose proof (size_pos d _ Wr1) as Sr1. pose proof (size_pos d _ Wr2) as Sr2.
      assert (DIS : qend d cf <= qpos d cl).
      { pose proof (size_pos d _ Wf) as Sfd. destruct (nested d cf cl Wc1 Wc2 ltac:(lia)) as [H|[H|H]]; [exfalso|exact H|lia].
        destruct (Least cf Wc1 ltac:(lia) ltac:(lia) ltac:(lia) ltac:(lia)) as (G1 & G2). pose proof (inn_level d cf a Wc1 Wa ltac:(lia)). lia. }
      destruct (C32_complete_region d St D init_fn t r1 true r2 true Wr1 Wr2 ltac:(lia)) as (mid & n & RUN & TM & _ & CO).
      destruct (RUN n s (t_pl D (ft D y)) ltac:(lia)) as (st & EQ & INIT & MX & PLs). exists n. rewrite EQ. do 2 eexists. split; [reflexivity|]. cbn [t_off t_pl t_max t_leaves].
      assert (MF : map fst (c_arr St D st) = [r1] ++ mid ++ [r2]).
      { replace (c_arr St D st) with (snd (init_list St D init_fn s t ([r1] ++ mid ++ [r2]))) by (rewrite <- INIT; reflexivity). apply init_list_fst. }
      split; [reflexivity|]. split; [intros i; rewrite PLs, PL; lia|]. split; [exact MX|]. split; [|rewrite refill_nil, MF; exact INIT].
      rewrite MF. split; [|split].
      + apply (tiles_app d [r1] _ A (qend d r1)); [cbn [tiles]; split; [exact Wr1|]; lia|]. apply (tiles_app d mid _ _ (qpos d r2)); [exact TM|]. cbn [tiles]. split; [exact Wr2|]. lia.
      + intros q [].
      + intros T HT _ w' Hw'. pose proof (tiles_bounds d T _ _ w' HT Hw') as B. pose proof (tiles_wf _ _ _ _ HT) as FW. rewrite Forall_forall in FW. specialize (FW w' Hw'). pose proof (size_pos d _ FW) as Sw.
        assert (UP : forall c, wf d c -> ql c = ql a + 1 -> parent d c = a -> (qpos d w' <= qpos d c /\ qpos d c < qend d w' \/ qpos d c <= qpos d w' /\ qpos d w' < qend d c) -> inn c w').
        { intros c Wc Lc Pc O. pose proof (size_pos d c Wc). destruct (Z_le_gt_dec (ql c) (ql w')) as [C|C]; [apply (nested_pt d c w' (Z.max (qpos d c) (qpos d w'))); auto; lia|exfalso].
          assert (I : inn w' c) by (apply (nested_pt d w' c (Z.max (qpos d c) (qpos d w'))); auto; lia). apply (inn_parent d) in I; auto; [|lia]. rewrite Pc in I. apply NFL. lia. }
        destruct (Z_lt_le_dec (qpos d w') (qend d r1)) as [C1|C1].
        * exists r1. split; [left; reflexivity|]. assert (I : inn cf w') by (apply UP; auto; lia).
          destruct (Z.eq_dec (qpos d w') A) as [EA|EA]; [split; [lia|]; apply X1; auto; lia|].
          destruct (Z_le_gt_dec (ql r1) (ql w')) as [C|C]; [apply (nested_pt d r1 w' (qpos d w')); auto; lia|exfalso].
          assert (inn w' r1) by (apply (nested_pt d w' r1 (qpos d w')); auto; lia). lia.
        * destruct (Z_lt_le_dec (qpos d r2) (qend d w')) as [C2|C2].
          -- exists r2. split; [apply in_or_app; right; apply in_or_app; right; left; reflexivity|]. assert (I : inn cl w') by (apply UP; auto; lia).
             destruct (Z.eq_dec (qend d w') E) as [EE|EE]; [split; [apply X2; auto; lia|lia]|].
             destruct (Z_le_gt_dec (ql r2) (ql w')) as [C|C]; [apply (nested_pt d r2 w' (Z.max (qpos d w') (qpos d r2))); auto; lia|exfalso].
             assert (inn w' r2) by (apply (nested_pt d w' r2 (Z.max (qpos d w') (qpos d r2))); auto; lia). lia.
          -- destruct (CO w' FW C1 C2) as (w & Hw & I). exists w. split; [apply in_or_app; right; apply in_or_app; left; exact Hw|exact I].
  Qed.

  Lemma end_spec t y L0 A E s : L0 <> [] -> tiles d A E (map fst L0) -> descs_ok d D (ft_fd D y) (ft_ld D y) L0 ->
    let lv := t_leaves D (ft D y) in
    Forall (wf d) (map fst lv) -> StronglySorted (before d) (map fst lv) -> (forall e, In e lv -> A <= qpos d (fst e) /\ qend d (fst e) <= E) ->
    (forall i, t_pl D (ft D y) i = nlev i lv) -> t_max D (ft D y) = maxlev lv ->
    exists n s' x', end_leaves d St D bsearch n init_fn t y (maxlev L0) s = Some (s', x') /\
      t_off D x' = t_off D (ft D y) /\ (forall i, t_pl D x' i = nlev i (t_leaves D x')) /\ t_max D x' = maxlev (t_leaves D x') /\
      coarsest_with A E (map fst lv) (map fst (t_leaves D x')) /\ (s', t_leaves D x') = refill d St D init_fn t lv s (map fst (t_leaves D x')).
  Proof.
    intros NE TI DS lv F S R PL MX. destruct lv as [|e lv'] eqn:LV; subst lv.
    - apply end_empty; auto.
    - destruct (descs_range _ _ _ _ _ NE TI DS) as (Wf & Wl & Lf & Ll & Pf & El & AE & _). pose proof (size_pos d _ Wl) as Sl.
      assert (FL : qpos d (ft_fd D y) <= qpos d (ft_ld D y)).
      { pose proof (size_pos d _ Wf). unfold qend, qsize in *. rewrite Lf, Ll in *. lia. }
      rewrite <- LV in *.
      destruct (C53_complete_subtree d bsearch St D init_fn t (ft_fd D y) (ft_ld D y) s (ft D y) Wf Wl Lf Ll FL) as (n & H); auto; [congruence|intros; rewrite Pf, El; auto|].
      destruct (H n ltac:(lia)) as (s' & x' & EQ & T1 & K & CO & RF & O & P & M). exists n, s', x'. unfold end_leaves. rewrite LV. split; [exact EQ|].
      split; [exact O|]. split; [exact P|]. split; [exact M|]. split; [|rewrite <- LV; exact RF]. rewrite Pf, El in *. split; [exact T1|]. split.
      + intros q Hq. apply in_map_iff in Hq. destruct Hq as (x & <- & Hx). apply in_map. apply K. rewrite LV. exact Hx.
      + intros T HT HI w' Hw'. destruct (CO T HT ltac:(intros x Hx; apply HI; rewrite <- LV; apply in_map; exact Hx) w' Hw') as (x & Hx & I). exists (fst x). split; [apply in_map; exact Hx|exact I].
  Qed.
End EndTree.
