(** * C53: completion of a tree (p4est_complete_subtree) *)

From Coq Require Import ZArith List Bool Lia ZifyBool Sorting.Sorted.
From Verif Require Import Quad Spec Interval QuadLemmas CompareLemmas DescLemmas SearchLocal TreeLemmas Tiles Adapt AdaptSpec RefineLemmas CoarsenProps Balance BalanceBasics BalanceFill BalanceComplete BalanceMerge.
Import ListNotations.
Open Scope Z_scope.

Section S.
  Variable d : dim.
  Notation inn w q := (qpos d w <= qpos d q /\ qend d q <= qend d w).
  Variables (St D : Type).
  Variable init_fn : St -> Z -> quad -> St * D.
  Variable t : Z.

  Lemma refill_keep old e : Forall (fun x => wf d (fst x)) old -> StronglySorted (before d) (map fst old) -> In e old ->
    forall ws s, In (fst e) ws -> In e (snd (refill d St D init_fn t old s ws)).
  Proof.
    intros F S He. rewrite Forall_forall in F.
    assert (FE : find (fun x => is_equal d (fst e) (fst x)) old = Some e).
    { destruct (in_split _ _ He) as (pre & post & ->). destruct e as (q, v). cbn [fst]. apply find_here; [apply (F (q, v)); exact He|].
      intros x Hx. split; [apply F; apply in_or_app; auto|]. intros X. rewrite map_app in S. cbn [map fst] in S.
      assert (B : before d (fst x) q). { destruct (in_split _ _ Hx) as (a & b & ->). rewrite map_app, <- app_assoc in S. cbn [map app] in S. apply (ss_mid _ _ _ _ S). apply in_or_app. right. left. reflexivity. }
      unfold before in B. assert (W : wf d q) by (apply (F (q, v)); exact He). pose proof (size_pos d q W). rewrite X in B. lia. }
    induction ws as [|w ws IH]; intros s H; [destruct H|]. cbn [refill]. destruct H as [->|H].
    - rewrite FE. destruct e as (q, v). destruct (refill _ _ _ _ _ _ _ ws). cbn [snd]. left. reflexivity.
    - destruct (find (fun e0 => is_equal d w (fst e0)) old) as [(q, v)|].
      + specialize (IH s H). destruct (refill _ _ _ _ _ _ _ ws). cbn [snd] in *. right. exact IH.
      + destruct (init_fn s t w) as (s1, v). specialize (IH s1 H). destruct (refill _ _ _ _ _ _ _ ws). cbn [snd] in *. right. exact IH.
  Qed.

  Lemma maxlev_in_le (e : quad * D) l : In e l -> ql (fst e) <= maxlev l.
  Proof. induction l as [|x l IH]; intros []; unfold maxlev in *; cbn [fold_right]; [subst|specialize (IH H)]; lia. Qed.
  Lemma maxlev_le_all (l : list (quad * D)) m : 0 <= m -> (forall e, In e l -> ql (fst e) <= m) -> maxlev l <= m.
  Proof. intros M. induction l as [|x l IH]; intros H; unfold maxlev in *; cbn [fold_right]; [lia|]. specialize (IH ltac:(intros; apply H; right; auto)). specialize (H x (or_introl eq_refl)). lia. Qed.

  (** the common part of completion and balance: what the merge makes of the result of the kernel *)
  Lemma subtree_merge a b (s : St) tr out : Forall (fun e => wf d (fst e)) (t_leaves D tr) -> StronglySorted (before d) (map fst (t_leaves D tr)) ->
    (forall e, In e (t_leaves D tr) -> a <= qpos d (fst e) /\ qend d (fst e) <= b) ->
    (forall i, t_pl D tr i = nlev i (t_leaves D tr)) -> t_max D tr = maxlev (t_leaves D tr) ->
    tiles d a b out -> (forall e w, In e (t_leaves D tr) -> In w out -> ~ (inn w (fst e) /\ ql w < ql (fst e))) ->
    exists st', merge_loop d St D init_fn t (length (map fst (t_leaves D tr)) + length out + 1) (t_leaves D tr) out (mkmst St D s (t_pl D tr) (t_max D tr) []) = Some st' /\
      (m_s _ _ st', m_arr _ _ st') = refill d St D init_fn t (t_leaves D tr) s out /\ map fst (m_arr _ _ st') = out /\
      (forall i, m_pl _ _ st' i = nlev i (m_arr _ _ st')) /\ m_max _ _ st' = maxlev (m_arr _ _ st').
  Proof.
    intros F S R PL MX TI NC.
    destruct (merge_spec d St D init_fn t (t_leaves D tr) (length (map fst (t_leaves D tr)) + length out + 1) (t_leaves D tr) out [] (mkmst St D s (t_pl D tr) (t_max D tr) []) a b) as (st' & E & G1 & G2 & G3 & G4); auto.
    { rewrite map_length. lia. } { intros e []. } { cbn [m_max]. lia. }
    exists st'. split; [exact E|]. cbn [m_s m_arr m_pl m_max app] in *. pose proof (refill_fst d St D init_fn t (t_leaves D tr) out s) as RF.
    destruct (refill d St D init_fn t (t_leaves D tr) s out) as (s2, r). cbn [fst snd] in *. rewrite G1, G2. split; [reflexivity|]. split; [exact RF|].
    split; [intros i; rewrite G3, PL; lia|]. rewrite G4, MX.
    assert (maxlev (t_leaves D tr) <= maxlev r); [|lia]. apply maxlev_le_all; [apply maxlev_nonneg|]. intros e He.
    destruct (R e He) as (R1 & R2). assert (We : wf d (fst e)) by (rewrite Forall_forall in F; auto). pose proof (size_pos d (fst e) We).
    destruct (proj1 (tiles_cover d out a b (qpos d (fst e)) TI) ltac:(lia)) as (w & Hw & Pw).
    assert (Ww : wf d w) by (pose proof (tiles_wf d out a b TI) as FW; rewrite Forall_forall in FW; auto).
    assert (LE : ql (fst e) <= ql w).
    { destruct (Z_le_dec (ql (fst e)) (ql w)) as [X|X]; [exact X|exfalso]. apply (NC e w He Hw). split; [|lia]. apply (nested_pt d w (fst e) (qpos d (fst e))); auto; lia. }
    rewrite <- RF in Hw. apply in_map_iff in Hw. destruct Hw as (x & <- & Hx). pose proof (maxlev_in_le x r Hx). lia.
  Qed.

  (** the case in which the function returns at once, and the facts that the kernel needs *)
  Lemma root_cases f l tq : wf d f -> wf d l -> ql f = 29 -> ql l = 29 -> qpos d f <= qpos d l -> tq <> [] ->
    Forall (wf d) tq -> StronglySorted (before d) tq -> (forall p, In p tq -> qpos d f <= qpos d p /\ qend d p <= qend d l) ->
    let root := nearest_common_ancestor d f l in
    (tq = [root] /\ tiles d (qpos d f) (qend d l) [root]) \/
    ((exists p p' tq', tq = p :: p' :: tq') \/ (exists p, tq = [p] /\ is_equal d p root = false)) /\
    wf d root /\ ql root < 29 /\ inn root f /\ inn root l /\ forall p, In p tq -> minlevel root <= ql p.
  Proof.
    intros Wf Wl Lf Ll FL NE F S R root. rewrite Forall_forall in F. destruct (nca_spec d f l Wf Wl) as (Wr & I1 & I2 & MIN). fold root in Wr, I1, I2, MIN.
    pose proof (size_pos d f Wf). pose proof (size_pos d l Wl). pose proof (wf_level d root Wr) as Lr.
    assert (TWO : forall p tq', tq = p :: tq' -> p = root -> tq' = []).
    { intros p tq' E ->. destruct tq' as [|p' tq']; [reflexivity|exfalso]. rewrite E in S. inversion S as [|? ? _ FB]. inversion FB as [|? ? B _]. unfold before in B.
      assert (Hp' : In p' tq) by (rewrite E; right; left; reflexivity). destruct (R p' Hp'). pose proof (size_pos d p' (F p' Hp')). lia. }
    assert (ONE : In root tq -> tq = [root]).
    { intros H1. destruct tq as [|p tq']; [destruct H1|]. destruct H1 as [->|H1]; [rewrite (TWO root tq'); auto|exfalso].
      inversion S as [|? ? _ FB]. rewrite Forall_forall in FB. specialize (FB root H1). unfold before in FB. destruct (R p (or_introl eq_refl)). pose proof (size_pos d p (F p (or_introl eq_refl))). lia. }
    destruct tq as [|p tq'] eqn:Et; [congruence|]. rewrite <- Et in *.
    assert (Hp : In p tq) by (rewrite Et; left; reflexivity). assert (Wp : wf d p) by auto. pose proof (size_pos d p Wp) as Sp.
    destruct (is_equal d p root) eqn:EQ.
    - left. apply is_equal_eq in EQ; auto. assert (ET : tq = [root]) by (apply ONE; rewrite <- EQ; exact Hp). split; [exact ET|].
      destruct (R p Hp). rewrite EQ in *. cbn [tiles]. split; [exact Wr|]. lia.
    - right. assert (NR : ~ In root tq).
      { intros X. specialize (ONE X). rewrite Et in ONE. injection ONE as X1 X2. subst p. rewrite (proj2 (is_equal_eq d root root Wr Wr) eq_refl) in EQ. discriminate. }
      split.
      { destruct tq' as [|p' tq'']; [right; exists p; auto|left; exists p, p', tq''; exact Et]. }
      split; [exact Wr|]. split.
      { destruct (Z_lt_dec (ql root) 29) as [X|X]; [exact X|exfalso]. assert (E1 : root = f) by (apply (inn_eq d); auto; lia). assert (E2 : root = l) by (apply (inn_eq d); auto; lia).
        destruct (R p Hp) as (R1 & R2). rewrite <- E1 in R1. rewrite <- E2 in R2. assert (Y : root = p) by (apply (inn_eq d); auto; pose proof (wf_level d p Wp); lia). apply NR. rewrite Y. exact Hp. }
      split; [exact I1|]. split; [exact I2|]. intros x Hx. destruct (R x Hx) as (R1 & R2). assert (I : inn root x) by lia. pose proof (inn_level d root x Wr (F x Hx) I) as LV. unfold minlevel.
      destruct (Z.eq_dec (ql root) (ql x)) as [Y|Y]; [|lia]. exfalso. apply NR. rewrite (inn_eq d root x Wr (F x Hx) I ltac:(lia)). exact Hx.
  Qed.
End S.

(** C53.  The leaves of a tree, in order and without overlaps but possibly with gaps, lie between first_desc
    and last_desc.  p4est_complete_subtree fills the gaps: the new leaves have no gaps and no overlaps from first_desc to
    last_desc, every old leaf remains a leaf, and no tiling of this range that contains the old leaves is coarser
    anywhere.  Old leaves keep their data; the callback makes the data of each new leaf, once and in order.
    The counters are right. *)
Theorem C53_complete_subtree : forall d bsearch St D (init_fn : St -> Z -> quad -> St * D) t f l s tr,
  wf d f -> wf d l -> ql f = QMAXLEVEL -> ql l = QMAXLEVEL -> qpos d f <= qpos d l ->
  t_leaves D tr <> [] -> Forall (wf d) (map fst (t_leaves D tr)) -> StronglySorted (before d) (map fst (t_leaves D tr)) ->
  (forall e, In e (t_leaves D tr) -> qpos d f <= qpos d (fst e) /\ qend d (fst e) <= qend d l) ->
  (forall i, t_pl D tr i = nlev i (t_leaves D tr)) -> t_max D tr = maxlev (t_leaves D tr) ->
  exists n, forall fuel, (n <= fuel)%nat -> exists s' tr',
    complete_subtree d bsearch St D init_fn t fuel f l s tr = Some (s', tr') /\
    tiles d (qpos d f) (qend d l) (map fst (t_leaves D tr')) /\
    (forall e, In e (t_leaves D tr) -> In e (t_leaves D tr')) /\
    (forall T, tiles d (qpos d f) (qend d l) T -> (forall e, In e (t_leaves D tr) -> In (fst e) T) ->
       forall w', In w' T -> exists e, In e (t_leaves D tr') /\ qpos d (fst e) <= qpos d w' /\ qend d w' <= qend d (fst e)) /\
    (s', t_leaves D tr') = refill d St D init_fn t (t_leaves D tr) s (map fst (t_leaves D tr')) /\
    t_off D tr' = t_off D tr /\ (forall i, t_pl D tr' i = nlev i (t_leaves D tr')) /\ t_max D tr' = maxlev (t_leaves D tr').
Proof.
  intros d bsearch St D init_fn t f l s tr Wf Wl Lf Ll FL NE F S R PL MX. change QMAXLEVEL with 29 in *.
  assert (F' : Forall (fun e => wf d (fst e)) (t_leaves D tr)) by (rewrite Forall_map in F; exact F).
  assert (NE' : map fst (t_leaves D tr) <> []) by (destruct (t_leaves D tr); [congruence|discriminate]).
  assert (R' : forall p, In p (map fst (t_leaves D tr)) -> qpos d f <= qpos d p /\ qend d p <= qend d l).
  { intros p Hp. apply in_map_iff in Hp. destruct Hp as (e & <- & He). auto. }
  destruct (root_cases d f l (map fst (t_leaves D tr)) Wf Wl Lf Ll FL NE' F S R') as [(E1 & T1)|(SH & Wr & Lr & I1 & I2 & ML)]; cbv zeta in *; set (root := nearest_common_ancestor d f l) in *.
  - assert (Wr : wf d root) by (apply T1). exists 0%nat. intros fuel _. exists s, tr. split.
    { unfold complete_subtree, complete_or_balance. fold root. rewrite E1. rewrite (proj2 (is_equal_eq d root root Wr Wr) eq_refl). reflexivity. }
    split; [rewrite E1; exact T1|]. split; [auto|].
    destruct (t_leaves D tr) as [|(q, v) [|? ?]] eqn:EL; try discriminate. cbn [map fst] in E1. injection E1 as ->. split.
    { intros T HT HI w' Hw'. exists (root, v). split; [left; reflexivity|]. cbn [fst]. pose proof (tiles_bounds d T _ _ w' HT Hw'). destruct T1 as (_ & T1 & T2). cbn [tiles] in T2. lia. }
    split; [|auto]. cbn [map fst refill find]. rewrite (proj2 (is_equal_eq d root root Wr Wr) eq_refl). reflexivity.
  - destruct (kernel_complete d bsearch root Wr Lr f l Wf Wl Lf Ll I1 I2 FL (map fst (t_leaves D tr)) NE') as (n & Hn).
    { intros p Hp. rewrite Forall_forall in F. destruct (R' p Hp). split; [auto|]. split; [apply ML; exact Hp|]. auto. }
    { exact S. }
    exists n. intros fuel Hf. destruct (Hn fuel Hf) as (out & EK & TI & KEEP & COARSE).
    assert (NC : forall e w, In e (t_leaves D tr) -> In w out -> ~ ((qpos d w <= qpos d (fst e) /\ qend d (fst e) <= qend d w) /\ ql w < ql (fst e))).
    { intros e w He Hw (I & L). assert (Hw' : In (fst e) out) by (apply KEEP; apply in_map; exact He). assert (We : wf d (fst e)) by (rewrite Forall_forall in F'; auto). pose proof (size_pos d _ We).
      assert (w = fst e) by (apply (tiles_same d out _ _ TI w (fst e) (qpos d (fst e))); auto; lia). subst w. lia. }
    destruct (subtree_merge d St D init_fn t (qpos d f) (qend d l) s tr out F' S R PL MX TI NC) as (st' & EM & RF & MF & P1 & P2).
    exists (m_s _ _ st'), (mktree D (t_off D tr) (m_pl _ _ st') (m_max _ _ st') (m_arr _ _ st')). cbn [t_leaves t_off t_pl t_max].
    split.
    { unfold complete_subtree, complete_or_balance. fold root. cbn [bound_of Z.eqb]. rewrite EK, EM.
      destruct SH as [(p & p' & tq' & E)|(p & E & EQ)]; rewrite E; [reflexivity|]. rewrite EQ. reflexivity. }
    rewrite MF. split; [exact TI|]. split.
    { intros e He. replace (m_arr _ _ st') with (snd (refill d St D init_fn t (t_leaves D tr) s out)) by (rewrite <- RF; reflexivity).
      apply refill_keep; auto. apply KEEP. apply in_map. exact He. }
    split.
    { intros T HT HI w' Hw'. destruct (COARSE T HT) with (w' := w') as (w & Hw & I); auto.
      - intros p Hp. apply in_map_iff in Hp. destruct Hp as (e & <- & He). auto.
      - rewrite <- MF in Hw. apply in_map_iff in Hw. destruct Hw as (e & <- & He). exists e. auto. }
    split; [exact RF|]. auto.
Qed.

(** an empty tree is left as it is *)
Theorem C53_empty : forall d bsearch St D (init_fn : St -> Z -> quad -> St * D) t fuel btype f l s tr, t_leaves D tr = [] ->
  complete_or_balance d bsearch St D init_fn t fuel btype f l s tr = Some (s, tr).
Proof. intros. unfold complete_or_balance. rewrite H. reflexivity. Qed.

(** two leaves of a quadtree with gaps before, between and after them, in a range that begins and ends inside a child of the root; the state of the callback counts its calls *)
Definition c53_leaf1 := mkq (5 * 2 ^ 27) 0 0 3.
Definition c53_leaf2 := mkq 0 (2 ^ 29) 0 2.
Definition c53_first := first_descendant D2 (mkq (2 ^ 28) 0 0 2) QMAXLEVEL.
Definition c53_last := last_descendant D2 (mkq (2 ^ 29) (2 ^ 29) 0 2) QMAXLEVEL.
Definition c53_leaves := [(c53_leaf1, 100); (c53_leaf2, 200)].
Definition c53_tree := mktree Z 7 (fun i => nlev i c53_leaves) (maxlev c53_leaves) c53_leaves.
Definition c53_init (s : Z) (t : Z) (q : quad) := (s + 1, s).

Example C53_ex_hyps : wf D2 c53_first /\ wf D2 c53_last /\ Forall (wf D2) (map fst c53_leaves) /\ StronglySorted (before D2) (map fst c53_leaves) /\
  (forall e, In e c53_leaves -> qpos D2 c53_first <= qpos D2 (fst e) /\ qend D2 (fst e) <= qend D2 c53_last).
Proof.
  assert (W1 : wf D2 (mkq (2 ^ 28) 0 0 2)) by (split; [cbn; lia|]; split; [exists 1|split; [exists 0|]]; vm_compute; intuition congruence).
  assert (W2 : wf D2 (mkq (2 ^ 29) (2 ^ 29) 0 2)) by (split; [cbn; lia|]; split; [exists 2|split; [exists 2|]]; vm_compute; intuition congruence).
  assert (V1 : wf D2 c53_leaf1) by (split; [cbn; lia|]; split; [exists 5|split; [exists 0|]]; vm_compute; intuition congruence).
  assert (V2 : wf D2 c53_leaf2) by (split; [cbn; lia|]; split; [exists 0|split; [exists 2|]]; vm_compute; intuition congruence).
  split; [apply (first_descendant_wf D2 _ 29 W1); cbn; lia|]. split; [apply (last_descendant_wf D2 _ 29 W2); cbn; lia|]. split; [constructor; [exact V1|constructor; [exact V2|constructor]]|].
  split; [constructor; [constructor; constructor|constructor; [vm_compute; discriminate|constructor]]|].
  intros e [<-|[<-|[]]]; split; vm_compute; discriminate.
Qed.
(** position in units of level 3, level and data of the new leaves; then the counters *)
Example C53_ex : option_map (fun r => (fst r, map (fun e => (qx (fst e) / 2 ^ 27, qy (fst e) / 2 ^ 27, ql (fst e), snd e)) (t_leaves Z (snd r)),
    map (t_pl Z (snd r)) [1; 2; 3], t_max Z (snd r), t_off Z (snd r)))
  (complete_subtree D2 (fun _ _ => None) Z Z c53_init 0 100 c53_first c53_last 10 c53_tree)
  = Some (23, [(2, 0, 2, 10); (0, 2, 2, 11); (2, 2, 2, 12); (4, 0, 3, 13); (5, 0, 3, 100); (4, 1, 3, 14); (5, 1, 3, 15); (6, 0, 2, 16); (4, 2, 2, 17); (6, 2, 2, 18);
      (0, 4, 2, 200); (2, 4, 2, 19); (0, 6, 2, 20); (2, 6, 2, 21); (4, 4, 2, 22)], [0; 11; 4], 3, 7).
Proof. vm_compute. reflexivity. Qed.

Print Assumptions C53_complete_subtree.
Print Assumptions C53_empty.
