(** * C55: balance of the leaves of one tree (p4est_balance_subtree) *)

From Coq Require Import ZArith List Bool Lia ZifyBool Sorting.Sorted.
From Verif Require Import Quad Spec Interval QuadLemmas CompareLemmas DescLemmas SearchLocal TreeLemmas Tiles Adapt AdaptSpec RefineLemmas Balance BalanceBasics BalanceGeom BalanceHood BalanceFill BalanceComplete BalanceMerge BalanceKernel PropertiesComplete.
Import ListNotations.
Open Scope Z_scope.

Lemma tiles_eq d l1 : forall l2 a b, tiles d a b l1 -> tiles d a b l2 ->
  (forall x y, In x l1 -> In y l2 -> forall p, qpos d x <= p < qend d x -> qpos d y <= p < qend d y -> x = y) -> l1 = l2.
Proof.
  induction l1 as [|x l1 IH]; intros l2 a b H1 H2 E.
  - cbn [tiles] in H1. subst b. destruct l2 as [|y l2]; [reflexivity|exfalso]. destruct H2 as (W & P & T). pose proof (tiles_le d l2 _ _ T). pose proof (size_pos d y W). lia.
  - destruct H1 as (W1 & P1 & T1). destruct l2 as [|y l2].
    + cbn [tiles] in H2. subst b. pose proof (tiles_le d l1 _ _ T1). pose proof (size_pos d x W1). lia.
    + destruct H2 as (W2 & P2 & T2). pose proof (size_pos d x W1). pose proof (size_pos d y W2). assert (x = y) by (apply (E x y (or_introl eq_refl) (or_introl eq_refl) a); lia). subst y. f_equal.
      apply (IH l2 (qend d x) b); auto. intros u v Hu Hv. apply E; right; assumption.
Qed.

Lemma refill_id d St D (init_fn : St -> Z -> quad -> St * D) t old : Forall (fun x => wf d (fst x)) old -> StronglySorted (before d) (map fst old) ->
  forall s, refill d St D init_fn t old s (map fst old) = (s, old).
Proof.
  intros F S. rewrite Forall_forall in F.
  assert (H : forall pre l s, old = pre ++ l -> refill d St D init_fn t old s (map fst l) = (s, l)).
  { intros pre l. revert pre. induction l as [|(q, v) l IH]; intros pre s E; cbn [map fst refill]; [reflexivity|].
    replace (find (fun e => is_equal d q (fst e)) old) with (Some (q, v)).
    - rewrite (IH (pre ++ [(q, v)])); [reflexivity|]. rewrite E, <- app_assoc. reflexivity.
    - symmetry. rewrite E. apply find_here; [apply (F (q, v)); rewrite E; apply in_or_app; right; left; reflexivity|]. intros x Hx. split; [apply F; rewrite E; apply in_or_app; auto|]. intros X. rewrite E, map_app in S. cbn [map fst] in S.
      assert (B : before d (fst x) q). { destruct (in_split _ _ Hx) as (a & b & ->). rewrite map_app, <- app_assoc in S. cbn [map app] in S. apply (ss_mid _ _ _ _ S). apply in_or_app. right. left. reflexivity. }
      unfold before in B. assert (W : wf d q) by (apply (F (q, v)); rewrite E; apply in_or_app; right; left; reflexivity). pose proof (size_pos d q W). rewrite X in B. lia. }
  intros s. apply (H [] old s). reflexivity.
Qed.

Section B.
  Variable d : dim.
  Notation inn w q := (qpos d w <= qpos d q /\ qend d q <= qend d w).
  Variable bsearch : list quad -> quad -> option nat.
  Hypothesis BS : bsearch_ok d bsearch.
  Variables (St D : Type).
  Variable init_fn : St -> Z -> quad -> St * D.
  Variable t : Z.
  Variable k : Z.
  Hypothesis Hk : 1 <= k <= dimz d.
  Variables f l : quad.
  Hypothesis Wf : wf d f.
  Hypothesis Wl : wf d l.
  Hypothesis Lf : ql f = 29.
  Hypothesis Ll : ql l = 29.
  Hypothesis FL : qpos d f <= qpos d l.
  Notation root := (nearest_common_ancestor d f l).

  (** the leaves out are the balance of tq *)
  Definition bal_of (tq out : list quad) : Prop :=
    exists inner : quad -> Prop, (forall p q, inner p -> wf d q -> inn root q -> inn q p -> inner q) /\
      (forall w, In w out -> ~ inner w /\ inner (parent d w) /\ minlevel root <= ql w) /\
      closed d k root inner /\ (forall p, In p tq -> inner (parent d p)) /\
      (forall n, inner n -> forall C, closed d k root C -> (forall p, In p tq -> C (parent d p)) -> C n) /\
      forall p, In p tq -> minlevel root <= ql p.

  Lemma run s tr : tiles d (qpos d f) (qend d l) (map fst (t_leaves D tr)) ->
    (forall i, t_pl D tr i = nlev i (t_leaves D tr)) -> t_max D tr = maxlev (t_leaves D tr) ->
    exists n, forall fuel, (n <= fuel)%nat -> exists s' tr', let ws := map fst (t_leaves D tr') in
      balance_subtree d bsearch St D init_fn t fuel k f l s tr = Some (s', tr') /\
      tiles d (qpos d f) (qend d l) ws /\
      (forall w, In w ws -> exists e, In e (t_leaves D tr) /\ inn (fst e) w) /\
      balanced d k ws /\
      (forall a V, wf d a -> inn a f -> inn a l -> tiles d (qpos d a) (qend d a) V -> balanced d k V ->
         (forall v e, In v V -> In e (t_leaves D tr) -> inn v (fst e) -> v = fst e) ->
         forall v x, In v V -> qpos d f <= x < qend d l -> qpos d v <= x < qend d v -> exists w, In w ws /\ inn w v) /\
      (s', t_leaves D tr') = refill d St D init_fn t (t_leaves D tr) s ws /\
      t_off D tr' = t_off D tr /\ (forall i, t_pl D tr' i = nlev i (t_leaves D tr')) /\ t_max D tr' = maxlev (t_leaves D tr') /\
      (tr' = tr /\ s' = s /\ ws = [root] \/ bal_of (map fst (t_leaves D tr)) ws).
  Proof.
    intros TT PL MX. pose proof (size_pos d l Wl) as Sl.
    pose proof (tiles_wf d _ _ _ TT) as F. pose proof (tiles_linear d _ _ _ TT) as S.
    assert (F' : Forall (fun e => wf d (fst e)) (t_leaves D tr)) by (rewrite Forall_map in F; exact F).
    assert (NE' : map fst (t_leaves D tr) <> []). { intros X. rewrite X in TT. cbn [tiles] in TT. lia. }
    assert (R' : forall p, In p (map fst (t_leaves D tr)) -> qpos d f <= qpos d p /\ qend d p <= qend d l) by (intros p Hp; apply (tiles_bounds d _ _ _ p TT Hp)).
    destruct (nca_spec d f l Wf Wl) as (Wr & I1 & I2 & MIN).
    destruct (root_cases d f l (map fst (t_leaves D tr)) Wf Wl Lf Ll FL NE' F S R') as [(E1 & T1)|(SH & _ & Lr & _ & _ & ML)]; cbv zeta in *.
    - exists 0%nat. intros fuel _. exists s, tr. split.
      { unfold balance_subtree, complete_or_balance. rewrite E1. rewrite (proj2 (is_equal_eq d root root Wr Wr) eq_refl). reflexivity. }
      split; [exact TT|]. destruct (t_leaves D tr) as [|(q, v) [|? ?]] eqn:EL; try discriminate. cbn [map fst] in *. injection E1 as ->. destruct T1 as (_ & P1 & P2). cbn [tiles] in P2.
      split; [intros w [<-|[]]; exists (root, v); split; [left; reflexivity|cbn [fst]; lia]|]. split; [intros w1 w2 o [<-|[]] [<-|[]]; lia|]. split.
      { intros a V Wa Ia1 Ia2 TV _ NV u x Hu Hx Px. exists root. split; [left; reflexivity|]. pose proof (tiles_wf d _ _ _ TV) as FV. rewrite Forall_forall in FV.
        destruct (Z_le_dec (ql root) (ql u)) as [C|C]; [apply (nested_pt d root u x); auto; lia|]. assert (I : inn u root) by (apply (nested_pt d u root x); auto; lia). rewrite (NV u (root, v) Hu (or_introl eq_refl) I). cbn [fst]. lia. }
      split. { cbn [refill find fst]. rewrite (proj2 (is_equal_eq d root root Wr Wr) eq_refl). reflexivity. }
      split; [reflexivity|]. split; [exact PL|]. split; [exact MX|]. left. auto.
    - destruct (kernel_balance d bsearch BS root Wr Lr k Hk f l Wf Wl Lf Ll I1 I2 FL (map fst (t_leaves D tr)) TT ML) as (n & Hn).
      exists n. intros fuel Hf. destruct (Hn fuel Hf) as (out & EK & TI & OLD & BAL & (inner & CL & BA & LEAST & LEAF) & COARSE).
      assert (NC : forall e w, In e (t_leaves D tr) -> In w out -> ~ (inn w (fst e) /\ ql w < ql (fst e))).
      { intros e w He Hw (I & L). destruct (LEAF w Hw) as (NL & _). apply NL. pose proof CL as (_ & CA & _). assert (We : wf d (fst e)) by (rewrite Forall_forall in F'; auto). assert (Ww : wf d w) by (pose proof (tiles_wf d _ _ _ TI) as FW; rewrite Forall_forall in FW; auto).
        apply (CA (parent d (fst e))); [apply BA; apply in_map; exact He|exact Ww|pose proof (tiles_bounds d _ _ _ w TI Hw); lia|apply inn_parent; auto]. }
      destruct (subtree_merge d St D init_fn t (qpos d f) (qend d l) s tr out F' S) as (st' & EM & RF & MF & P1 & P2); auto.
      { intros e He. apply R'. apply in_map. exact He. }
      exists (m_s _ _ st'), (mktree D (t_off D tr) (m_pl _ _ st') (m_max _ _ st') (m_arr _ _ st')). cbn [t_leaves t_off t_pl t_max]. rewrite MF.
      split.
      { unfold balance_subtree, complete_or_balance. rewrite EK, EM. destruct SH as [(p & p' & tq' & E)|(p & E & EQ)]; rewrite E; [reflexivity|]. rewrite EQ. reflexivity. }
      split; [exact TI|]. split.
      { intros w Hw. destruct (OLD w Hw) as (p & Hp & I). apply in_map_iff in Hp. destruct Hp as (e & <- & He). exists e. auto. }
      split; [exact BAL|]. split.
      { intros a V Wa Ia1 Ia2 TV BV NV v x Hv Hx Px. apply (COARSE a V Wa) with (x := x); auto; [apply MIN; auto; lia|]. intros u p Hu Hp I. apply in_map_iff in Hp. destruct Hp as (e & <- & He). auto. }
      split; [exact RF|]. split; [reflexivity|]. split; [exact P1|]. split; [exact P2|]. right. exists inner. pose proof CL as (_ & CA & _). auto 10.
  Qed.

  Lemma bal_of_same tq o1 o2 : tiles d (qpos d f) (qend d l) tq -> tiles d (qpos d f) (qend d l) o1 -> tiles d (qpos d f) (qend d l) o2 ->
    (forall w, In w o1 -> exists p, In p tq /\ inn p w) -> bal_of tq o1 -> bal_of o1 o2 -> o2 = o1.
  Proof.
    intros TT T1 T2 IN1 (i1 & A1 & L1 & C1 & B1 & M1 & MLT) (i2 & A2 & L2 & C2 & B2 & M2 & _).
    destruct (nca_spec d f l Wf Wl) as (Wr & I1 & I2 & _). cbv zeta in *. pose proof (wf_level d root Wr) as LR.
    assert (W0 : forall p, In p tq -> wf d p) by (apply Forall_forall; eapply tiles_wf; exact TT).
    assert (W1 : forall p, In p o1 -> wf d p) by (apply Forall_forall; eapply tiles_wf; exact T1).
    assert (W2 : forall p, In p o2 -> wf d p) by (apply Forall_forall; eapply tiles_wf; exact T2).
    assert (D21 : forall n, i2 n -> i1 n). { intros n Hn. apply (M2 n Hn i1 C1). intros p Hp. apply L1. exact Hp. }
    assert (D12 : forall n, i1 n -> i2 n).
    { intros n Hn. apply (M1 n Hn i2 C2). intros p Hp. pose proof (W0 p Hp) as Wp. pose proof (size_pos d p Wp) as Sp. destruct (tiles_bounds d _ _ _ p TT Hp) as (P1 & P2).
      destruct (proj1 (tiles_cover d o1 _ _ (qpos d p) T1) ltac:(lia)) as (w & Hw & Pw). destruct (IN1 w Hw) as (p' & Hp' & I). pose proof (W1 w Hw) as Ww. pose proof (size_pos d w Ww).
      assert (p = p') by (apply (tiles_same d tq _ _ TT p p' (qpos d p)); auto; lia). subst p'. pose proof (MLT p Hp) as Mp. unfold minlevel in Mp. pose proof (inn_level d p w Wp Ww I).
      destruct (parent_wf d p Wp ltac:(lia)) as (Wpp & Lpp & _). pose proof (parent_inn d p Wp ltac:(lia)).
      apply (A2 (parent d w)); [apply B2; exact Hw|exact Wpp|apply inn_parent; auto; lia|]. apply inn_parent; auto; lia. }
    apply (tiles_eq d o2 o1 _ _ T2 T1). intros x y Hx Hy p Px Py. destruct (L2 x Hx) as (X1 & X2 & X3). destruct (L1 y Hy) as (Y1 & Y2 & Y3). pose proof (W2 x Hx) as Wx. pose proof (W1 y Hy) as Wy. unfold minlevel in *.
    destruct (tiles_bounds d _ _ _ x T2 Hx). destruct (tiles_bounds d _ _ _ y T1 Hy).
    destruct (Z.lt_trichotomy (ql x) (ql y)) as [C|[C|C]].
    - exfalso. apply X1. apply D12. assert (I : inn x y) by (apply (nested_pt d x y p); auto; lia). apply (A1 (parent d y)); auto; [lia|]. apply inn_parent; auto.
    - apply (inn_eq d); auto; [|lia]. apply (nested_pt d x y p); auto; lia.
    - exfalso. apply Y1. apply D21. assert (I : inn y x) by (apply (nested_pt d y x p); auto; lia). apply (A2 (parent d x)); auto; [lia|]. apply inn_parent; auto.
  Qed.
End B.

(** C55.  The leaves of a tree have no gaps and no overlaps from first_desc to last_desc; k is 1 for balance across faces,
    2 across edges also (3D) and the dimension across corners also.  p4est_balance_subtree ends without error, and its
    leaves have no gaps and no overlaps in the same range.  Each lies in an old leaf.  They are balanced: a leaf that contains
    the same-size neighbor of another leaf is at most one level coarser.  And no balanced refinement is coarser anywhere:
    take any quadrant a that contains the range, for example the root of the tree, and any balanced leaves V without gaps or overlaps of a, none of them coarser than an
    old leaf; then every v of V that meets the range lies in a new leaf.  A leaf that was there before keeps its data; the
    callback makes the data of each new leaf, once and in order.  The counters are right.
    bsearch is any function with the contract of the C standard. *)
Theorem C55_balance_subtree : forall d bsearch, bsearch_ok d bsearch -> forall St D (init_fn : St -> Z -> quad -> St * D) t k f l s tr,
  1 <= k <= dimz d -> wf d f -> wf d l -> ql f = QMAXLEVEL -> ql l = QMAXLEVEL -> qpos d f <= qpos d l ->
  tiles d (qpos d f) (qend d l) (map fst (t_leaves D tr)) ->
  (forall i, t_pl D tr i = nlev i (t_leaves D tr)) -> t_max D tr = maxlev (t_leaves D tr) ->
  exists n, forall fuel, (n <= fuel)%nat -> exists s' tr', let ws := map fst (t_leaves D tr') in
    balance_subtree d bsearch St D init_fn t fuel k f l s tr = Some (s', tr') /\
    tiles d (qpos d f) (qend d l) ws /\
    (forall w, In w ws -> exists e, In e (t_leaves D tr) /\ qpos d (fst e) <= qpos d w /\ qend d w <= qend d (fst e)) /\
    balanced d k ws /\
    (forall a V, wf d a -> qpos d a <= qpos d f -> qend d l <= qend d a -> tiles d (qpos d a) (qend d a) V -> balanced d k V ->
       (forall v e, In v V -> In e (t_leaves D tr) -> qpos d v <= qpos d (fst e) -> qend d (fst e) <= qend d v -> v = fst e) ->
       forall v x, In v V -> qpos d f <= x < qend d l -> qpos d v <= x < qend d v -> exists w, In w ws /\ qpos d w <= qpos d v /\ qend d v <= qend d w) /\
    (s', t_leaves D tr') = refill d St D init_fn t (t_leaves D tr) s ws /\
    t_off D tr' = t_off D tr /\ (forall i, t_pl D tr' i = nlev i (t_leaves D tr')) /\ t_max D tr' = maxlev (t_leaves D tr').
Proof.
  intros d bsearch BS St D init_fn t k f l s tr Hk Wf Wl Lf Ll FL TT PL MX. change QMAXLEVEL with 29 in *.
  destruct (run d bsearch BS St D init_fn t k Hk f l Wf Wl Lf Ll FL s tr TT PL MX) as (n & Hn). exists n. intros fuel Hf. destruct (Hn fuel Hf) as (s' & tr' & A1 & A2 & A3 & A4 & A5 & A6 & A7 & A8 & A9 & _). exists s', tr'.
  pose proof (size_pos d f Wf). pose proof (size_pos d l Wl).
  split; [exact A1|]. split; [exact A2|]. split; [exact A3|]. split; [exact A4|]. split; [|auto].
  intros a V Wa Ia1 Ia2 TV BV NV. assert (qend d f <= qend d l) by (rewrite (qend_eq d f Wf), (qend_eq d l Wl), Lf, Ll; lia). apply (A5 a V Wa); auto; [lia|lia|]. intros v e Hv He (X & Y). auto.
Qed.

(** A second balance changes nothing: no leaf, no data and no call of the callback. *)
Theorem C55_balance_twice : forall d bsearch, bsearch_ok d bsearch -> forall St D (init_fn : St -> Z -> quad -> St * D) t k f l s tr,
  1 <= k <= dimz d -> wf d f -> wf d l -> ql f = QMAXLEVEL -> ql l = QMAXLEVEL -> qpos d f <= qpos d l ->
  tiles d (qpos d f) (qend d l) (map fst (t_leaves D tr)) ->
  (forall i, t_pl D tr i = nlev i (t_leaves D tr)) -> t_max D tr = maxlev (t_leaves D tr) ->
  exists n, forall fuel, (n <= fuel)%nat -> exists s' tr', balance_subtree d bsearch St D init_fn t fuel k f l s tr = Some (s', tr') /\
    forall s1, exists n', forall fuel', (n' <= fuel')%nat -> exists tr2, balance_subtree d bsearch St D init_fn t fuel' k f l s1 tr' = Some (s1, tr2) /\
      t_leaves D tr2 = t_leaves D tr' /\ t_off D tr2 = t_off D tr' /\ (forall i, t_pl D tr2 i = t_pl D tr' i) /\ t_max D tr2 = t_max D tr'.
Proof.
  intros d bsearch BS St D init_fn t k f l s tr Hk Wf Wl Lf Ll FL TT PL MX. change QMAXLEVEL with 29 in *.
  destruct (run d bsearch BS St D init_fn t k Hk f l Wf Wl Lf Ll FL s tr TT PL MX) as (n & Hn). exists n. intros fuel Hf. destruct (Hn fuel Hf) as (s' & tr' & A1 & A2 & A3 & _ & _ & _ & _ & A8 & A9 & A10). exists s', tr'.
  split; [exact A1|]. intros s1. destruct (nca_spec d f l Wf Wl) as (Wr & _). cbv zeta in *.
  destruct (run d bsearch BS St D init_fn t k Hk f l Wf Wl Lf Ll FL s1 tr' A2 A8 A9) as (n' & Hn'). exists n'. intros fuel' Hf'. destruct (Hn' fuel' Hf') as (s2 & tr2 & B1 & B2 & _ & _ & _ & B6 & B7 & B8 & B9 & B10). cbv zeta in *.
  assert (W' : Forall (wf d) (map fst (t_leaves D tr'))) by (eapply tiles_wf; exact A2). rewrite Forall_map in W'.
  assert (S' : StronglySorted (before d) (map fst (t_leaves D tr'))) by (eapply tiles_linear; exact A2).
  assert (EQ : map fst (t_leaves D tr2) = map fst (t_leaves D tr')).
  { destruct B10 as [(-> & _)|B10]; [reflexivity|]. destruct A10 as [(_ & _ & E)|A10].
    - rewrite E in *. unfold balance_subtree, complete_or_balance in B1. rewrite E in B1. rewrite (proj2 (is_equal_eq d _ _ Wr Wr) eq_refl) in B1. assert (tr2 = tr') by congruence. subst tr2. exact E.
    - apply (bal_of_same d k f l Wf Wl (map fst (t_leaves D tr))); auto.
      intros w Hw. destruct (A3 w Hw) as (e & He & I). exists (fst e). split; [apply in_map; exact He|exact I]. }
  rewrite EQ, refill_id in B6 by assumption. assert (s2 = s1 /\ t_leaves D tr2 = t_leaves D tr') by (split; congruence). destruct H as (-> & EL). exists tr2. split; [exact B1|]. split; [exact EL|]. split; [exact B7|].
  rewrite A9, B9. split; [intros i; rewrite A8, B8, EL; reflexivity|rewrite EL; reflexivity].
Qed.

(** a search that meets the contract *)
Fixpoint scan (d : dim) (l : list quad) (q : quad) : option nat :=
  match l with
  | [] => None
  | r :: l' => if disjoint_parent d q r =? 0 then Some O else option_map S (scan d l' q)
  end.
Lemma scan_ok d : bsearch_ok d (scan d).
Proof.
  intros l key _. induction l as [|r l IH]; cbn [scan]; [intros r []|]. destruct (disjoint_parent d key r =? 0) eqn:E; [exists r; split; [reflexivity|lia]|].
  destruct (scan d l key) as [i|]; cbn [option_map nth_error]; [exact IH|]. intros r' [<-|H]; [lia|auto].
Qed.

(** leaves of level 4 at the center of a quadtree, and a range that begins with the second child of the first child of the root *)
Definition c55_c (q : quad) := child D2 q.
Definition c55_r := mkq 0 0 0 0.
Definition c55_a := c55_c c55_r 0.
Definition c55_b := c55_c c55_a 3.
Definition c55_leaves := combine (map (c55_c c55_a) [1; 2] ++ map (c55_c c55_b) [0; 1; 2] ++ map (c55_c (c55_c c55_b 3)) [0; 1; 2; 3] ++ map (c55_c c55_r) [1; 2; 3]) [100; 101; 102; 103; 104; 105; 106; 107; 108; 109; 110; 111].
Definition c55_f := first_descendant D2 (c55_c c55_a 1) QMAXLEVEL.
Definition c55_l := last_descendant D2 c55_r QMAXLEVEL.
Definition c55_tree := mktree Z 7 (fun i => nlev i c55_leaves) (maxlev c55_leaves) c55_leaves.

Example C55_ex_hyps : bsearch_ok D2 (scan D2) /\ wf D2 c55_f /\ wf D2 c55_l /\ ql c55_f = QMAXLEVEL /\ ql c55_l = QMAXLEVEL /\ qpos D2 c55_f <= qpos D2 c55_l /\
  tiles D2 (qpos D2 c55_f) (qend D2 c55_l) (map fst (t_leaves Z c55_tree)) /\ ~ balanced D2 1 (map fst (t_leaves Z c55_tree)).
Proof.
  split; [apply scan_ok|]. split; [apply is_valid_wf; vm_compute; reflexivity|]. split; [apply is_valid_wf; vm_compute; reflexivity|]. split; [reflexivity|]. split; [reflexivity|]. split; [vm_compute; discriminate|]. split.
  - let x := eval vm_compute in (map fst (t_leaves Z c55_tree)) in change (map fst (t_leaves Z c55_tree)) with x. cbn [tiles].
    repeat (split; [apply is_valid_wf; vm_compute; reflexivity|]; split; [vm_compute; reflexivity|]). vm_compute. reflexivity.
  - intros B. specialize (B (c55_c c55_r 1) (c55_c (c55_c c55_b 3) 1) (1, 0, 0)).
    assert (X : ql (c55_c (c55_c c55_b 3) 1) <= ql (c55_c c55_r 1) + 1); [|vm_compute in X; congruence]. apply B.
    + apply in_map_iff. exists (c55_c c55_r 1, 109). split; [reflexivity|]. vm_compute. auto 20.
    + apply in_map_iff. exists (c55_c (c55_c c55_b 3) 1, 106). split; [reflexivity|]. vm_compute. auto 20.
    + cbn. intuition lia.
    + apply is_valid_wf. vm_compute. reflexivity.
    + vm_compute. split; discriminate.
Qed.
(** position in units of level 4, level and data of the new leaves: balance across faces and across corners *)
Example C55_ex : map (fun k => option_map (fun r => (fst r, map (fun e => (qx (fst e) / 2 ^ 26, qy (fst e) / 2 ^ 26, ql (fst e), snd e)) (t_leaves Z (snd r)), map (t_pl Z (snd r)) [1; 2; 3; 4]))
  (balance_subtree D2 (scan D2) Z Z c53_init 0 100 k c55_f c55_l 10 c55_tree)) [1; 2] =
  [Some (28, [(4, 0, 2, 100); (0, 4, 2, 101); (4, 4, 3, 102); (6, 4, 3, 103); (4, 6, 3, 104); (6, 6, 4, 105); (7, 6, 4, 106); (6, 7, 4, 107); (7, 7, 4, 108);
       (8, 0, 2, 10); (12, 0, 2, 11); (8, 4, 3, 12); (10, 4, 3, 13); (8, 6, 3, 14); (10, 6, 3, 15); (12, 4, 2, 16); (0, 8, 2, 17); (4, 8, 3, 18);
       (6, 8, 3, 19); (4, 10, 3, 20); (6, 10, 3, 21); (0, 12, 2, 22); (4, 12, 2, 23); (8, 8, 2, 24); (12, 8, 2, 25); (8, 12, 2, 26); (12, 12, 2, 27)], [0; 12; 11; 4]);
   Some (31, [(4, 0, 2, 100); (0, 4, 2, 101); (4, 4, 3, 102); (6, 4, 3, 103); (4, 6, 3, 104); (6, 6, 4, 105); (7, 6, 4, 106); (6, 7, 4, 107); (7, 7, 4, 108);
       (8, 0, 2, 10); (12, 0, 2, 11); (8, 4, 3, 12); (10, 4, 3, 13); (8, 6, 3, 14); (10, 6, 3, 15); (12, 4, 2, 16); (0, 8, 2, 17); (4, 8, 3, 18);
       (6, 8, 3, 19); (4, 10, 3, 20); (6, 10, 3, 21); (0, 12, 2, 22); (4, 12, 2, 23); (8, 8, 3, 24); (10, 8, 3, 25); (8, 10, 3, 26); (10, 10, 3, 27); (12, 8, 2, 28); (8, 12, 2, 29); (12, 12, 2, 30)], [0; 11; 15; 4])].
Proof. vm_compute. reflexivity. Qed.

(** ** C56: leaves with gaps *)

(** The header (p4est_algorithms.h:240) describes the input as a sorted tree and the result as the completed tree, so the leaves may have gaps
    as those of C53.  Then the result need not be balanced: maxlevel (p4est_algorithms.c:1632-1636) is
    computed from the leaves before the ends of the range are added to them.  Here the range begins with the last
    descendant of child 0 of the root and child 3 is the only leaf; the result has a leaf of level 29 next to one of level 1. *)
Definition c56_leaves := [(c55_c c55_r 3, 5)].
Definition c56_f := last_descendant D2 c55_a QMAXLEVEL.
Definition c56_tree := mktree Z 0 (fun i => nlev i c56_leaves) (maxlev c56_leaves) c56_leaves.
Theorem C56_balance_gaps_refuted : exists f l tr, wf D2 f /\ wf D2 l /\ ql f = QMAXLEVEL /\ ql l = QMAXLEVEL /\ qpos D2 f <= qpos D2 l /\
  t_leaves Z tr <> [] /\ Forall (wf D2) (map fst (t_leaves Z tr)) /\ StronglySorted (before D2) (map fst (t_leaves Z tr)) /\
  (forall e, In e (t_leaves Z tr) -> qpos D2 f <= qpos D2 (fst e) /\ qend D2 (fst e) <= qend D2 l) /\
  (forall i, t_pl Z tr i = nlev i (t_leaves Z tr)) /\ t_max Z tr = maxlev (t_leaves Z tr) /\ bsearch_ok D2 (scan D2) /\
  exists s' tr', balance_subtree D2 (scan D2) Z Z c53_init 0 100 1 f l 10 tr = Some (s', tr') /\ ~ balanced D2 1 (map fst (t_leaves Z tr')).
Proof.
  exists c56_f, c55_l, c56_tree. split; [apply is_valid_wf; vm_compute; reflexivity|]. split; [apply is_valid_wf; vm_compute; reflexivity|]. split; [reflexivity|]. split; [reflexivity|]. split; [vm_compute; discriminate|].
  split; [discriminate|]. split; [constructor; [apply is_valid_wf; vm_compute; reflexivity|constructor]|]. split; [constructor; constructor|]. split; [intros e [<-|[]]; split; vm_compute; discriminate|]. split; [reflexivity|]. split; [reflexivity|]. split; [apply scan_ok|].
  destruct (balance_subtree D2 (scan D2) Z Z c53_init 0 100 1 c56_f c55_l 10 c56_tree) as [(s', tr')|] eqn:E.
  - exists s', tr'. split; [reflexivity|].
    assert (L : map fst (t_leaves Z tr') = [c56_f; c55_c c55_r 1; c55_c c55_r 2; c55_c c55_r 3]).
    { transitivity (match balance_subtree D2 (scan D2) Z Z c53_init 0 100 1 c56_f c55_l 10 c56_tree with Some (_, x) => map fst (t_leaves Z x) | None => [] end); [rewrite E; reflexivity|vm_compute; reflexivity]. }
    rewrite L. intros B. specialize (B (c55_c c55_r 1) c56_f (1, 0, 0)).
    assert (X : ql c56_f <= ql (c55_c c55_r 1) + 1); [|vm_compute in X; congruence]. apply B; [right; left; reflexivity|left; reflexivity|cbn; intuition lia|apply is_valid_wf; vm_compute; reflexivity|vm_compute; split; discriminate].
  - exfalso. assert (X : match balance_subtree D2 (scan D2) Z Z c53_init 0 100 1 c56_f c55_l 10 c56_tree with Some _ => true | None => false end = true) by (vm_compute; reflexivity). rewrite E in X. discriminate.
Qed.

Print Assumptions C55_balance_subtree.
Print Assumptions C56_balance_gaps_refuted.
Print Assumptions C55_balance_twice.
