(** * Properties of searching the ghost layer: C61 *)

From Coq Require Import ZArith List Bool Lia Arith ZifyBool Sorting.Sorted.
From Verif Require Import Quad Spec Interval QuadLemmas CompareLemmas DescLemmas SearchLocal RegionLemmas RangeBoundLemmas PropertiesRangeBound
  Transform Conn ConnLemmas Partition PartLemmas PartTrees PartFinal Comm CommLemmas OwnerLemmas PropertiesOwner
  Ghost GhostSpec GhostQuad GhostLoop GhostForest GhostSym GhostTouch PropertiesGhost PropertiesGhostExchange GhostFind.
Import ListNotations.
Open Scope Z_scope.

(** ghosts along the curve, offsets by rank and by tree *)
Definition layer_ok (d : dim) (T P : Z) (g : glayer) : Prop :=
  StronglySorted (fun x y => tend d (g_t x) (g_q x) <= tpos d (g_t y) (g_q y)) (gl_ghosts g) /\
  (forall x, In x (gl_ghosts g) -> 0 <= g_t x < T /\ wf d (g_q x)) /\
  (forall p, 0 <= p < P -> exists a e, zget (gl_po g) p = Some a /\ zget (gl_po g) (p + 1) = Some e /\ 0 <= a <= e /\ e <= zlen (gl_ghosts g)) /\
  (forall t, 0 <= t <= T -> zget (gl_to g) t = Some (zlen (filter (fun x => g_t x <? t) (gl_ghosts g)))).

(** ghost number i is from rank proc, or proc is -1 *)
Definition from_proc (g : glayer) (proc i : Z) : Prop :=
  proc = -1 \/ exists a e, zget (gl_po g) proc = Some a /\ zget (gl_po g) (proc + 1) = Some e /\ a <= i < e.

Lemma sorted_trees d l : (forall x, In x l -> wf d (g_q x)) -> StronglySorted (fun x y => tend d (g_t x) (g_q x) <= tpos d (g_t y) (g_q y)) l ->
  StronglySorted (fun x y => g_t x <= g_t y) l.
Proof.
  induction l as [|x l IH]; intros W S; [constructor|]. apply StronglySorted_inv in S. destruct S as (SO & FA). constructor; [apply IH; [intros y Hy; apply W; right; exact Hy|exact SO]|].
  rewrite Forall_forall in *. intros y Hy. specialize (FA y Hy). cbn beta in FA. pose proof (W x (or_introl eq_refl)) as Wx.
  pose proof (qsize_pos d _ Wx) as SX. pose proof (qpos_range d (g_q x)) as RX. pose proof (qpos_range d (g_q y)) as RY. unfold tend, tpos, qend in FA. pose proof (tree_pos d) as TP.
  destruct (Z.le_gt_cases (g_t x) (g_t y)) as [|G]; [assumption|exfalso]. assert ((g_t y + 1) * TREE d <= g_t x * TREE d) by (apply Z.mul_le_mono_nonneg_r; lia). lia.
Qed.

Lemma tree_index (l : list gq) t : StronglySorted (fun x y => g_t x <= g_t y) l -> forall i x, zget l i = Some x ->
  (zlen (filter (fun g => g_t g <? t) l) <= i < zlen (filter (fun g => g_t g <? t + 1) l) <-> g_t x = t).
Proof.
  assert (H : forall l, StronglySorted (fun x y => g_t x <= g_t y) l -> forall i x, nth_error l i = Some x -> forall t, (i < length (filter (fun g => (g_t g <? t)%Z) l))%nat <-> g_t x < t).
  { clear. induction l as [|y l IH]; intros S i x E t; [destruct i; discriminate|]. apply StronglySorted_inv in S. destruct S as (S & F). rewrite Forall_forall in F. cbn [filter].
    destruct (g_t y <? t) eqn:C.
    - destruct i as [|i]; cbn [nth_error length] in *; [injection E as <-; split; intros; lia|]. rewrite <- (IH S i x E t). lia.
    - rewrite filter_nil by (intros z Hz; specialize (F z Hz); lia). cbn [length].
      assert (g_t y <= g_t x). { destruct i as [|i]; cbn [nth_error] in E; [injection E as ->; lia|]. apply nth_error_In in E. apply F. exact E. } lia. }
  intros S i x E. pose proof (zget_range _ _ _ E) as R. rewrite zget_nth in E by lia. pose proof (H l S _ _ E t) as H1. pose proof (H l S _ _ E (t + 1)) as H2. unfold zlen. lia.
Qed.

Lemma sub_skipn {A} (l : list A) n : sub (skipn n l) l.
Proof. revert l. induction n as [|n IH]; intros [|x l]; cbn [skipn]; try constructor; auto; induction l; constructor; auto. Qed.
Lemma sub_firstn {A} (l : list A) n : sub (firstn n l) l.
Proof. revert l. induction n as [|n IH]; intros [|x l]; cbn [firstn]; try (constructor; auto; fail). apply sub_no. clear. induction l; constructor; auto. Qed.
Lemma sub_trans {A} (l3 l2 l1 : list A) : sub l1 l2 -> sub l2 l3 -> sub l1 l3.
Proof.
  intros H12 H23. revert l1 H12. induction H23 as [|x l l' H IH|x l l' H IH]; intros l1 H12; [exact H12| |constructor 3; auto].
  inversion H12; subst; [constructor 2; auto|constructor 3; auto].
Qed.
Lemma nth_firstn {A} (l : list A) n i : (i < n)%nat -> nth_error (firstn n l) i = nth_error l i.
Proof. revert l i. induction n as [|n IH]; intros l i H; [lia|]. destruct l as [|x l]; [destruct i; reflexivity|]. destruct i as [|i]; [reflexivity|]. cbn. apply IH. lia. Qed.
Lemma nth_skipn {A} (l : list A) n i : nth_error (skipn n l) i = nth_error l (n + i).
Proof. revert l. induction n as [|n IH]; intros l; [reflexivity|]. destruct l as [|x l]; [destruct i; reflexivity|]. cbn. apply IH. Qed.
Lemma slice_nth {A} (l : list A) s e i x : 0 <= s -> nth_error (slice l s e) i = Some x -> zget l (s + Z.of_nat i) = Some x /\ s + Z.of_nat i < e.
Proof.
  intros Hs H. unfold slice in H. assert (L : (i < Z.to_nat (e - s))%nat).
  { destruct (le_lt_dec (Z.to_nat (e - s)) i) as [G|]; [|assumption]. assert (N : nth_error (firstn (Z.to_nat (e - s)) (skipn (Z.to_nat s) l)) i = None) by (apply nth_error_None; rewrite firstn_length; lia). congruence. }
  rewrite nth_firstn, nth_skipn in H by exact L. split; [|lia]. rewrite zget_nth by lia. replace (Z.to_nat (s + Z.of_nat i)) with (Z.to_nat s + i)%nat by lia. exact H.
Qed.
Lemma slice_in {A} (l : list A) s e i x : 0 <= s -> s <= i < e -> zget l i = Some x -> nth_error (slice l s e) (Z.to_nat (i - s)) = Some x.
Proof. intros Hs H E. unfold slice. rewrite nth_firstn, nth_skipn by lia. rewrite zget_nth in E by lia. replace (Z.to_nat s + Z.to_nat (i - s))%nat with (Z.to_nat i) by lia. exact E. Qed.

Section Search.
  Variables (d : dim) (T P : Z) (g : glayer) (bsearch : list quad -> quad -> option nat) (brange : list quad -> quad -> nat).
  Hypothesis OK : layer_ok d T P g.
  Hypothesis BS : bsearch_cmp_ok d bsearch.
  Hypothesis BR : brange_ok d brange.
  Let n := zlen (gl_ghosts g).

  (** the window of p4est_ghost_check_range *)
  Lemma range_spec proc t : proc = -1 \/ 0 <= proc < P -> 0 <= t < T ->
    exists b s e, check_range g proc t = Some (b, s, e) /\ b = (s <? e) /\ 0 <= s /\ e <= n /\
      forall i x, zget (gl_ghosts g) i = Some x -> (s <= i < e <-> g_t x = t /\ from_proc g proc i).
  Proof.
    intros Hp Ht. destruct OK as (SO & IN & PO & TO). pose proof (sorted_trees d _ (fun x Hx => proj2 (IN x Hx)) SO) as ST.
    assert (Nn : 0 <= n) by (unfold n, zlen; lia). unfold check_range. fold n. destruct (n =? 0) eqn:E0.
    { exists false, 0, 0. split; [reflexivity|]. split; [reflexivity|]. split; [lia|]. split; [lia|]. intros i x H. apply zget_range in H. fold n in H. lia. }
    assert (K : exists s e, (if proc =? -1 then Some (0, n) else match zget (gl_po g) proc, zget (gl_po g) (proc + 1) with Some a, Some e => Some (Z.max 0 a, Z.min n e) | _, _ => None end) = Some (s, e) /\
       0 <= s /\ e <= n /\ forall i, 0 <= i < n -> (s <= i < e <-> from_proc g proc i)).
    { destruct (proc =? -1) eqn:E1.
      - exists 0, n. split; [reflexivity|]. split; [lia|]. split; [lia|]. intros i Hi. unfold from_proc. split; [left; lia|lia].
      - destruct (PO proc ltac:(lia)) as (a & e & Ea & Ee & R1 & R2). rewrite Ea, Ee. exists (Z.max 0 a), (Z.min n e). split; [reflexivity|]. split; [lia|]. split; [lia|].
        intros i Hi. unfold from_proc. split.
        + intros H. right. exists a, e. split; [exact Ea|]. split; [exact Ee|]. lia.
        + intros [H|(a' & e' & Ea' & Ee' & H)]; [lia|]. rewrite Ea in Ea'. rewrite Ee in Ee'. injection Ea' as <-. injection Ee' as <-. lia. }
    destruct K as (s & e & -> & Hs & He & K). replace (t =? -1) with false by lia. rewrite !TO by lia.
    set (a := zlen (filter (fun x => g_t x <? t) (gl_ghosts g))). set (a' := zlen (filter (fun x => g_t x <? t + 1) (gl_ghosts g))).
    exists (Z.max s a <? Z.min e a'), (Z.max s a), (Z.min e a'). split; [reflexivity|]. split; [reflexivity|]. split; [lia|]. split; [lia|].
    intros i x H. pose proof (zget_range _ _ _ H) as R. fold n in R. rewrite <- (K i R), <- (tree_index _ t ST i x H). fold a a'. lia.
  Qed.

  Lemma win_spec s e t : 0 <= s -> e <= n -> (forall i x, zget (gl_ghosts g) i = Some x -> s <= i < e -> g_t x = t) ->
    StronglySorted (fun x y => qend d x <= qpos d y) (view g s e) /\ (forall q, In q (view g s e) -> wf d q) /\
    (s < e -> view g s e <> []).
  Proof.
    intros Hs He H. destruct OK as (SO & IN & _). change (view g s e) with (map g_q (slice (gl_ghosts g) s e)).
    assert (SB : sub (slice (gl_ghosts g) s e) (gl_ghosts g)) by (apply (sub_trans _ (skipn (Z.to_nat s) (gl_ghosts g))); [apply sub_firstn|apply sub_skipn]).
    assert (TR : forall x, In x (slice (gl_ghosts g) s e) -> g_t x = t /\ wf d (g_q x)).
    { intros x Hx. split; [|apply IN; apply (sub_in _ _ _ SB Hx)]. apply In_nth_error in Hx. destruct Hx as (i & E). apply slice_nth in E; [|exact Hs]. destruct E as (E & L). apply (H _ _ E). lia. }
    pose proof (sub_sorted _ _ _ SB SO) as SL. split; [|split].
    - revert SL TR. generalize (slice (gl_ghosts g) s e) as l. clear. induction l as [|x l IH]; intros SL TR; [constructor|]. apply StronglySorted_inv in SL. destruct SL as (SL & F). cbn [map]. constructor; [apply IH; [exact SL|intros y Hy; apply TR; right; exact Hy]|].
      rewrite Forall_forall in *. intros q Hq. apply in_map_iff in Hq. destruct Hq as (y & <- & Hy). specialize (F y Hy). cbn beta in F. destruct (TR x (or_introl eq_refl)) as (E1 & _). destruct (TR y (or_intror Hy)) as (E2 & _). unfold tend, tpos in F. rewrite E1, E2 in F. lia.
    - intros q Hq. apply in_map_iff in Hq. destruct Hq as (y & <- & Hy). apply TR. exact Hy.
    - intros L E. assert (LL : length (slice (gl_ghosts g) s e) = 0%nat) by (destruct (slice (gl_ghosts g) s e); [reflexivity|discriminate E]).
      unfold slice in LL. rewrite firstn_length, skipn_length in LL. unfold n, zlen in He. lia.
  Qed.

  Lemma sorted_cmp q l : StronglySorted (fun x y => qend d x <= qpos d y) l -> (forall r, In r l -> wf d r) -> wf d q ->
    StronglySorted (fun x y => Z.sgn (compare d q y) <= Z.sgn (compare d q x)) l.
  Proof.
    induction l as [|x l IH]; intros SO W Wq; [constructor|]. apply StronglySorted_inv in SO. destruct SO as (SO & F). constructor; [apply IH; [exact SO|intros; apply W; right; assumption|exact Wq]|].
    rewrite Forall_forall in *. intros y Hy. specialize (F y Hy). pose proof (W x (or_introl eq_refl)) as Wx. pose proof (W y (or_intror Hy)) as Wy. pose proof (qsize_pos d x Wx) as QX.
    destruct (compare_wf d q x Wq Wx) as (X1 & X2 & X3). destruct (compare_wf d q y Wq Wy) as (Y1 & Y2 & Y3). unfold qend in F.
    assert (C : compare d q y < 0 \/ compare d q x > 0). { destruct (Z.lt_ge_cases (compare d q y) 0); [left; assumption|right]. apply X3. left. destruct (Z.eq_dec (compare d q y) 0) as [Z0|]; [apply Y2 in Z0; subst; lia|]. assert (G : compare d q y > 0) by lia. apply Y3 in G. lia. }
    destruct C as [C|C]; [rewrite (Z.sgn_neg (compare d q y)) by lia; lia|rewrite (Z.sgn_pos (compare d q x)) by lia; lia].
  Qed.

  Lemma bsearch_spec l q : StronglySorted (fun x y => qend d x <= qpos d y) l -> (forall r, In r l -> wf d r) -> wf d q ->
    match bsearch l q with Some i => nth_error l i = Some q | None => ~ In q l end.
  Proof.
    intros SO W Wq. pose proof (BS l q (sorted_cmp q l SO W Wq)) as B. destruct (bsearch l q) as [i|].
    - destruct B as (r & E & C). apply (compare_wf d q r Wq (W r (nth_error_In _ _ E))) in C. subst. exact E.
    - intros I. apply (B q I). apply (compare_wf d q q Wq Wq). reflexivity.
  Qed.

  Lemma sorted_lt l : StronglySorted (fun x y => qend d x <= qpos d y) l -> (forall r, In r l -> wf d r) -> StronglySorted (fun x y => compare d x y < 0) l.
  Proof.
    induction l as [|x l IH]; intros SO W; [constructor|]. apply StronglySorted_inv in SO. destruct SO as (SO & F). constructor; [apply IH; [exact SO|intros; apply W; right; assumption]|].
    rewrite Forall_forall in *. intros y Hy. specialize (F y Hy). pose proof (W x (or_introl eq_refl)) as Wx. pose proof (W y (or_intror Hy)) as Wy. pose proof (qsize_pos d x Wx) as QX. apply (compare_wf d x y Wx Wy). unfold qend in F. lia.
  Qed.

  Lemma within_anc x q : wf d x -> wf d q -> (is_equal d x q || is_ancestor d x q = true <-> within d x q).
  Proof.
    intros Wx Wq. pose proof (qsize_pos d x Wx) as QX. pose proof (qsize_pos d q Wq) as QQ. rewrite orb_true_iff. split.
    - intros [H|H]; [apply is_equal_eq in H; [|assumption|assumption]; subst; unfold within; lia|apply anc in H; auto; unfold within; lia].
    - intros (H1 & H2). destruct (trich d x q Wx Wq) as [H|[H|[H|[H|H]]]]; [unfold qend in *; lia|unfold qend in *; lia|left; subst; apply is_equal_eq; auto|right; exact H|].
      apply anc in H; auto. destruct (contains_unique d x q Wx Wq) as (L & _); lia.
  Qed.

  Lemma sorted_nth l i j x y : StronglySorted (fun x y => qend d x <= qpos d y) l -> nth_error l i = Some x -> nth_error l j = Some y -> (i < j)%nat -> qend d x <= qpos d y.
  Proof.
    revert i j. induction l as [|z l IH]; intros i j SO Ei Ej L; [destruct i; discriminate|]. apply StronglySorted_inv in SO. destruct SO as (SO & F). rewrite Forall_forall in F.
    destruct j as [|j]; [lia|]. cbn [nth_error] in Ej. destruct i as [|i]; cbn [nth_error] in Ei; [injection Ei as ->; apply F; eapply nth_error_In; exact Ej|]. apply (IH i j); auto. lia.
  Qed.

  Lemma brange_spec l q : l <> [] -> StronglySorted (fun x y => qend d x <= qpos d y) l -> (forall r, In r l -> wf d r) -> wf d q ->
    exists r, nth_error l (brange l q) = Some r /\ forall i x, nth_error l i = Some x -> within d x q -> i = brange l q.
  Proof.
    intros NE SO W Wq. pose proof (BR l q NE (sorted_lt l SO W)) as B. cbv zeta in B. set (k := brange l q) in *. clearbody k.
    pose proof (qsize_pos d q Wq) as QQ.
    assert (LL : (length l > 0)%nat) by (destruct l; [congruence|cbn; lia]).
    assert (KL : (k < length l)%nat) by lia.
    destruct (nth_error l k) as [r|] eqn:Ek; [|apply nth_error_None in Ek; lia]. exists r. split; [reflexivity|]. intros i x Ei (H1 & H2).
    pose proof (W x (nth_error_In _ _ Ei)) as Wx. assert (IL : (i < length l)%nat) by (apply nth_error_Some; congruence).
    assert (XQ : 0 <= compare d q x).
    { destruct (Z.lt_ge_cases (compare d q x) 0) as [G|]; [exfalso|lia]. apply (compare_wf d q x Wq Wx) in G. destruct (contains_unique d x q Wx Wq) as (L & _); lia. }
    assert (NX : forall j y, nth_error l j = Some y -> (i < j)%nat -> compare d q y < 0).
    { intros j y Ej Lj. pose proof (sorted_nth l i j x y SO Ei Ej Lj). apply (compare_wf d q y Wq (W y (nth_error_In _ _ Ej))). unfold qend in *. lia. }
    destruct B as [(L & a & b & Ea & Eb & H3 & H4)|(-> & B)].
    - destruct (lt_eq_lt_dec i k) as [[G|G]|G]; [|exact G|].
      + pose proof (NX k a Ea G). lia.
      + assert (G' : (S k <= i)%nat) by lia. apply (compare_wf d q b Wq (W b (nth_error_In _ _ Eb))) in H4. destruct (Nat.eq_dec (S k) i) as [<-|NE'].
        * assert (b = x) by congruence. subst b. destruct (contains_unique d x q Wx Wq) as (L' & _); lia.
        * assert (qend d b <= qpos d x) by (apply (sorted_nth l (S k) i); auto; lia). pose proof (qsize_pos d b (W b (nth_error_In _ _ Eb))). unfold qend in *. lia.
    - destruct (Nat.eq_dec i (length l - 1)) as [|NE']; [assumption|exfalso]. destruct (nth_error l (S i)) as [y|] eqn:Ey; [|apply nth_error_None in Ey; lia].
      apply (B i). exists x, y. split; [exact Ei|]. split; [exact Ey|]. split; [exact XQ|]. apply (NX (S i) y Ey). lia.
  Qed.

  Lemma view_nth s e i q : 0 <= s -> nth_error (view g s e) i = Some q -> exists x, zget (gl_ghosts g) (s + Z.of_nat i) = Some x /\ g_q x = q /\ s + Z.of_nat i < e.
  Proof.
    intros Hs H. change (view g s e) with (map g_q (slice (gl_ghosts g) s e)) in H. rewrite nth_error_map in H. destruct (nth_error (slice (gl_ghosts g) s e) i) as [x|] eqn:E; [|discriminate]. injection H as <-.
    apply slice_nth in E; [|exact Hs]. exists x. tauto.
  Qed.
  Lemma view_in s e i x : 0 <= s -> s <= i < e -> zget (gl_ghosts g) i = Some x -> nth_error (view g s e) (Z.to_nat (i - s)) = Some (g_q x).
  Proof. intros Hs H E. change (view g s e) with (map g_q (slice (gl_ghosts g) s e)). rewrite nth_error_map, (slice_in _ s e i x Hs H E). reflexivity. Qed.

  Lemma ghost_bsearch_spec proc t q : proc = -1 \/ 0 <= proc < P -> 0 <= t < T -> wf d q ->
    exists i, ghost_bsearch bsearch g proc t q = Some i /\ -1 <= i /\
      (forall j x, zget (gl_ghosts g) j = Some x -> g_t x = t -> g_q x = q -> from_proc g proc j -> j = i) /\
      (i <> -1 -> exists x, zget (gl_ghosts g) i = Some x /\ g_t x = t /\ g_q x = q /\ from_proc g proc i).
  Proof.
    intros Hp Ht Wq. destruct (range_spec proc t Hp Ht) as (b & s & e & E & Eb & Hs & He & R). unfold ghost_bsearch. rewrite E.
    destruct b.
    2:{ exists (-1). split; [reflexivity|]. split; [lia|]. split; [|lia]. intros j x Ej Et Eq Fp. assert (s <= j < e) by (apply (R j x Ej); auto). lia. }
    destruct (win_spec s e t Hs He) as (SO & W & _); [intros i x Ei Ri; apply (R i x Ei) in Ri; tauto|].
    pose proof (bsearch_spec (view g s e) q SO W Wq) as B. destruct (bsearch (view g s e) q) as [i|].
    - destruct (view_nth s e i q Hs B) as (x & Ex & Eq & L). exists (Z.of_nat i + s). split; [reflexivity|]. split; [lia|]. rewrite Z.add_comm.
      pose proof (proj1 (R _ _ Ex) ltac:(lia)) as (Et & Fp). split; [|intros _; exists x; auto].
      intros j y Ej Etj Eqj Fj. assert (Rj : s <= j < e) by (apply (R j y Ej); auto). pose proof (view_in s e j y Hs Rj Ej) as Vj. rewrite Eqj in Vj.
      pose proof (qsize_pos d q Wq) as QQ. destruct (lt_eq_lt_dec i (Z.to_nat (j - s))) as [[G|G]|G]; [|lia|]; exfalso.
      + pose proof (sorted_nth _ _ _ _ _ SO B Vj G). unfold qend in *. lia.
      + pose proof (sorted_nth _ _ _ _ _ SO Vj B G). unfold qend in *. lia.
    - exists (-1). split; [reflexivity|]. split; [lia|]. split; [|lia]. intros j x Ej Et Eq Fp. exfalso. apply B. assert (Rj : s <= j < e) by (apply (R j x Ej); auto).
      pose proof (view_in s e j x Hs Rj Ej) as V. rewrite Eq in V. eapply nth_error_In; exact V.
  Qed.

  Lemma ghost_contains_spec proc t q : proc = -1 \/ 0 <= proc < P -> 0 <= t < T -> wf d q ->
    exists i, ghost_contains d brange g proc t q = Some i /\ -1 <= i /\
      (forall j x, zget (gl_ghosts g) j = Some x -> g_t x = t -> within d (g_q x) q -> from_proc g proc j -> j = i) /\
      (i <> -1 -> exists x, zget (gl_ghosts g) i = Some x /\ g_t x = t /\ within d (g_q x) q /\ from_proc g proc i).
  Proof.
    intros Hp Ht Wq. destruct (range_spec proc t Hp Ht) as (b & s & e & E & Eb & Hs & He & R). unfold ghost_contains. rewrite E.
    destruct b.
    2:{ exists (-1). split; [reflexivity|]. split; [lia|]. split; [|lia]. intros j x Ej Et Eq Fp. assert (s <= j < e) by (apply (R j x Ej); auto). lia. }
    destruct (win_spec s e t Hs He) as (SO & W & NE); [intros i x Ei Ri; apply (R i x Ei) in Ri; tauto|].
    destruct (brange_spec (view g s e) q (NE ltac:(lia)) SO W Wq) as (r & Er & U). set (k := brange (view g s e) q) in *. clearbody k. rewrite Er.
    destruct (view_nth s e k r Hs Er) as (x & Ex & Eq & L). pose proof (proj1 (R _ _ Ex) ltac:(lia)) as (Et & Fp). pose proof (within_anc r q (W r (nth_error_In _ _ Er)) Wq) as WA.
    assert (UU : forall j x, zget (gl_ghosts g) j = Some x -> g_t x = t -> within d (g_q x) q -> from_proc g proc j -> j = Z.of_nat k + s /\ g_q x = r).
    { intros j y Ej Etj Wj Fj. assert (Rj : s <= j < e) by (apply (R j y Ej); auto). pose proof (view_in s e j y Hs Rj Ej) as V. pose proof (U _ _ V Wj) as K. split; [lia|]. rewrite K in V. congruence. }
    destruct (is_equal d r q || is_ancestor d r q) eqn:C.
    - exists (Z.of_nat k + s). split; [reflexivity|]. split; [lia|]. split; [intros j y A1 A2 A3 A4; apply (UU j y); assumption|]. intros _. rewrite Z.add_comm. exists x. split; [exact Ex|]. split; [exact Et|]. split; [rewrite Eq; apply WA; reflexivity|exact Fp].
    - exists (-1). split; [reflexivity|]. split; [lia|]. split; [|lia]. intros j y A1 A2 A3 A4. destruct (UU j y A1 A2 A3 A4) as (_ & E'). rewrite E' in A3. apply WA in A3. discriminate.
  Qed.
End Search.

(** bsearch as in the C library of GNU (bits/stdlib-bsearch.h): bisection *)
Fixpoint bisect (d : dim) (l : list quad) (key : quad) (fuel lo hi : nat) : option nat :=
  match fuel with
  | O => None
  | S fuel' =>
    if (lo <? hi)%nat then
      let i := ((lo + hi) / 2)%nat in
      match nth_error l i with
      | None => None
      | Some r => if compare d key r <? 0 then bisect d l key fuel' lo i
                  else if 0 <? compare d key r then bisect d l key fuel' (S i) hi
                  else Some i
      end
    else None
  end.
Definition bsearch_c (d : dim) (l : list quad) (key : quad) : option nat := bisect d l key (S (length l)) 0 (length l).

Lemma sorted_rel {A} (R : A -> A -> Prop) l i j x y : StronglySorted R l -> nth_error l i = Some x -> nth_error l j = Some y -> (i < j)%nat -> R x y.
Proof.
  revert i j. induction l as [|z l IH]; intros i j SO Ei Ej L; [destruct i; discriminate|]. apply StronglySorted_inv in SO. destruct SO as (SO & F). rewrite Forall_forall in F.
  destruct j as [|j]; [lia|]. cbn [nth_error] in Ej. destruct i as [|i]; cbn [nth_error] in Ei; [injection Ei as ->; apply F; eapply nth_error_In; exact Ej|]. apply (IH i j); auto. lia.
Qed.

Lemma bsearch_c_ok d : bsearch_cmp_ok d (bsearch_c d).
Proof.
  intros l key SO. unfold bsearch_c.
  assert (H : forall fuel lo hi, (hi <= length l)%nat -> (hi - lo < fuel)%nat ->
    (forall i r, nth_error l i = Some r -> (i < lo)%nat -> compare d key r <> 0) -> (forall i r, nth_error l i = Some r -> (hi <= i)%nat -> compare d key r <> 0) ->
    match bisect d l key fuel lo hi with Some i => exists r, nth_error l i = Some r /\ compare d key r = 0 | None => forall r, In r l -> compare d key r <> 0 end).
  { induction fuel as [|fuel IH]; intros lo hi Hh Hf Lo Hi; [lia|]. cbn [bisect]. destruct (lo <? hi)%nat eqn:C.
    - apply Nat.ltb_lt in C. set (i := ((lo + hi) / 2)%nat). assert (Ri : (lo <= i < hi)%nat) by (unfold i; split; [apply Nat.div_le_lower_bound; lia|apply Nat.div_lt_upper_bound; lia]). clearbody i.
      destruct (nth_error l i) as [r|] eqn:Er; [|apply nth_error_None in Er; lia]. destruct (compare d key r <? 0) eqn:C1; [|destruct (0 <? compare d key r) eqn:C2; [|exists r; split; [exact Er|lia]]].
      + apply IH; [lia|lia|exact Lo|]. intros j x Ej Lj. destruct (Nat.eq_dec i j) as [<-|N]; [rewrite Er in Ej; injection Ej as <-; lia|].
        pose proof (sorted_rel _ _ i j r x SO Er Ej ltac:(lia)) as R. cbn beta in R. rewrite (Z.sgn_neg (compare d key r)) in R by lia. intros Z0. rewrite Z0 in R. cbn in R. lia.
      + apply IH; [lia|lia| |exact Hi]. intros j x Ej Lj. destruct (Nat.eq_dec i j) as [<-|N]; [rewrite Er in Ej; injection Ej as <-; lia|].
        pose proof (sorted_rel _ _ j i x r SO Ej Er ltac:(lia)) as R. cbn beta in R. rewrite (Z.sgn_pos (compare d key r)) in R by lia. intros Z0. rewrite Z0 in R. cbn in R. lia.
    - apply Nat.ltb_ge in C. intros r Hr. apply In_nth_error in Hr. destruct Hr as (j & Ej). destruct (le_lt_dec hi j); [apply (Hi j r Ej); lia|apply (Lo j r Ej); lia]. }
  apply H; [lia|lia|intros; lia|]. intros i r Ei Li. assert (i < length l)%nat by (apply nth_error_Some; congruence). lia.
Qed.

(** sc_bsearch_range by a scan *)
Fixpoint scan (d : dim) (key : quad) (l : list quad) : nat :=
  match l with
  | x :: ((y :: _) as l') => if (0 <=? compare d key x) && (compare d key y <? 0) then 0%nat else S (scan d key l')
  | _ => 0%nat
  end.
Definition brange_c (d : dim) (l : list quad) (key : quad) : nat := scan d key l.
Lemma brange_c_ok d : brange_ok d (brange_c d).
Proof.
  intros l key NE _. cbv zeta. unfold brange_c. induction l as [|x l IH]; [congruence|]. destruct l as [|y l].
  - right. split; [reflexivity|]. intros i (a & b & E1 & E2 & _). destruct i; cbn in E2; [discriminate|destruct i; discriminate].
  - change (scan d key (x :: y :: l)) with (if (0 <=? compare d key x) && (compare d key y <? 0) then 0%nat else S (scan d key (y :: l))).
    destruct ((0 <=? compare d key x) && (compare d key y <? 0)) eqn:C.
    + left. split; [cbn; lia|]. exists x, y. cbn. split; [reflexivity|]. split; [reflexivity|]. lia.
    + destruct IH as [(L & a & b & E1 & E2 & R)|(E & N)]; [discriminate|left|right].
      * split; [cbn [length] in *; lia|]. exists a, b. split; [exact E1|]. split; [exact E2|]. exact R.
      * split; [rewrite E; cbn [length]; lia|]. intros [|i] (a & b & E1 & E2 & R); [cbn in E1, E2; injection E1 as <-; injection E2 as <-; lia|]. apply (N i). exists a, b. auto.
Qed.

(** C61: p4est_ghost_bsearch and p4est_ghost_contains on a layer in order: the index of the only
    ghost of the tree, and of the rank unless that is -1, that is q, or whose region contains
    that of q; -1 if there is none; no read outside of the arrays *)
Theorem C61_ghost_search : forall d T P g bsearch brange proc t q,
  layer_ok d T P g -> bsearch_cmp_ok d bsearch -> brange_ok d brange -> proc = -1 \/ 0 <= proc < P -> 0 <= t < T -> wf d q ->
  (exists i, ghost_bsearch bsearch g proc t q = Some i /\ -1 <= i /\
     (forall j x, zget (gl_ghosts g) j = Some x -> g_t x = t -> g_q x = q -> from_proc g proc j -> j = i) /\
     (i <> -1 -> exists x, zget (gl_ghosts g) i = Some x /\ g_t x = t /\ g_q x = q /\ from_proc g proc i)) /\
  exists i, ghost_contains d brange g proc t q = Some i /\ -1 <= i /\
     (forall j x, zget (gl_ghosts g) j = Some x -> g_t x = t -> (forall a b c, inq d q a b c -> inq d (g_q x) a b c) -> from_proc g proc j -> j = i) /\
     (i <> -1 -> exists x, zget (gl_ghosts g) i = Some x /\ g_t x = t /\ (forall a b c, inq d q a b c -> inq d (g_q x) a b c) /\ from_proc g proc i).
Proof.
  intros d T P g bsearch brange proc t q OK BS BR Hp Ht Wq. split; [apply (ghost_bsearch_spec d T P g bsearch OK BS); assumption|].
  destruct (ghost_contains_spec d T P g brange OK BR proc t q Hp Ht Wq) as (i & E & R & U & X). exists i. split; [exact E|]. split; [exact R|].
  assert (W : forall j x, zget (gl_ghosts g) j = Some x -> wf d (g_q x)) by (intros j x Ej; apply OK; apply (zget_in _ _ _ Ej)). split.
  - intros j x Ej Et H. apply (U j x Ej Et). apply within_points; eauto.
  - intros N. destruct (X N) as (x & Ex & Et & H & F). exists x. split; [exact Ex|]. split; [exact Et|]. split; [|exact F]. apply within_points; eauto.
Qed.

(** offsets that ascend from 0 to n *)
Lemma offsets_le (po : list Z) P n : zget po P = Some n -> (forall p, 0 <= p < P -> exists a e, zget po p = Some a /\ zget po (p + 1) = Some e /\ 0 <= a <= e) ->
  forall p a, 0 <= p <= P -> zget po p = Some a -> a <= n.
Proof.
  intros EP H p a Hp Ea. remember (Z.to_nat (P - p)) as k eqn:Ek. revert p a Hp Ea Ek. induction k as [|k IH]; intros p a Hp Ea Ek.
  - assert (p = P) by lia. subst. rewrite EP in Ea. injection Ea as <-. lia.
  - destruct (H p ltac:(lia)) as (a' & e & Ea' & Ee & R). rewrite Ea in Ea'. injection Ea' as <-. pose proof (IH (p + 1) e ltac:(lia) Ee ltac:(lia)). lia.
Qed.
Lemma offsets_find (po : list Z) P n : 0 <= P -> zget po 0 = Some 0 -> zget po P = Some n -> (forall p, 0 <= p < P -> exists a e, zget po p = Some a /\ zget po (p + 1) = Some e /\ 0 <= a <= e) ->
  forall i, 0 <= i < n -> exists p a e, 0 <= p < P /\ zget po p = Some a /\ zget po (p + 1) = Some e /\ a <= i < e.
Proof.
  intros HP E0 EP H i Hi. assert (K : forall k : nat, Z.of_nat k <= P -> forall a, zget po (Z.of_nat k) = Some a -> i < a -> exists p a e, 0 <= p < P /\ zget po p = Some a /\ zget po (p + 1) = Some e /\ a <= i < e).
  { induction k as [|k IH]; intros Hk a Ea L; [change (Z.of_nat 0) with 0 in Ea; rewrite E0 in Ea; injection Ea as <-; lia|].
    destruct (H (Z.of_nat k) ltac:(lia)) as (a' & e & Ea' & Ee & R). replace (Z.of_nat (S k)) with (Z.of_nat k + 1) in Ea by lia. rewrite Ee in Ea. injection Ea as <-.
    destruct (Z.le_gt_cases a' i) as [G|G]; [exists (Z.of_nat k), a', e; repeat split; auto; lia|apply (IH ltac:(lia) a' Ea'); lia]. }
  apply (K (Z.to_nat P)) with (a := n); rewrite ?Z2Nat.id by lia; auto; lia.
Qed.

(** leaf b of tree t is on rank p, or on any if p is -1, not on [rank], and touches a leaf of it *)
Definition remote_leaf (d : dim) (c : conn) (bt : ctype) (ranks : list (rk quad)) (rank p t : Z) (b : quad) : Prop :=
  exists p' r r', zget ranks rank = Some r /\ zget ranks p' = Some r' /\ p' <> rank /\ (p = -1 \/ p = p') /\ In (t, b) (loc (c_nt c) r') /\
    exists t0 q0, In (t0, q0) (loc (c_nt c) r) /\ neighbors d c bt t0 q0 t b.

(** C61: p4est_ghost_bsearch and p4est_ghost_contains after p4est_ghost_new, on every rank of a
    complete forest: they find a quadrant exactly if it is, or lies in, a leaf of another rank
    (of the given one) that touches a local leaf.  Partial: as for C60, on whose ghost layer
    this is. *)
Theorem C61_forest_search_partial : forall d c bt (ranks : list (rk quad)) bsearch brange, let T := c_nt c in
  conn_is_valid d c = Some true -> 0 <= T -> 0 <= c_ne c -> 0 <= c_nc c ->
  forest_ok d qid T ranks -> covers d qid 0 (T * TREE d) (glob T ranks) ->
  no_single T ranks -> bt = CFace \/ joined d c -> (d = D3 -> bt <> CFace -> edges_once c) ->
  bsearch_cmp_ok d bsearch -> brange_ok d brange ->
  exists ms bufs, global_partition qid T ranks = Some ms /\ zlen bufs = zlen ranks /\
  (forall rank r, zget ranks rank = Some r -> exists m mto,
     ghost_send d c ms (zlen ranks) rank bt (k_first _ r) (k_last _ r) (k_trees _ r) = Some (m, mto) /\ zget bufs rank = Some (m_bufs m)) /\
  forall rank r, zget ranks rank = Some r -> exists ghosts po,
    ghost_exchange bufs rank = Some (ghosts, po) /\ let g := mkgl ghosts po (tree_offsets T ghosts) in layer_ok d T (zlen ranks) g /\
    forall proc t q, proc = -1 \/ 0 <= proc < zlen ranks -> 0 <= t < T -> wf d q ->
      (exists i, ghost_bsearch bsearch g proc t q = Some i /\
         (i <> -1 <-> remote_leaf d c bt ranks rank proc t q) /\
         (i <> -1 -> exists x, zget ghosts i = Some x /\ g_t x = t /\ g_q x = q)) /\
      exists i, ghost_contains d brange g proc t q = Some i /\
         (i <> -1 <-> exists b, remote_leaf d c bt ranks rank proc t b /\ forall a e f, inq d q a e f -> inq d b a e f) /\
         (i <> -1 -> exists x, zget ghosts i = Some x /\ g_t x = t /\ forall a e f, inq d q a e f -> inq d (g_q x) a e f).
Proof.
  intros d c bt ranks bsearch brange T V HT PE PC HF HC NS HJ SO BS BR.
  destruct (C60_ghost_layer_partial d c bt ranks V HT PE PC HF HC NS HJ SO) as (ms & bufs & EM & LB & SE & H). exists ms, bufs. split; [exact EM|]. split; [exact LB|]. split; [exact SE|].
  intros rank r Er. destruct (H rank r Er) as (ghosts & po & EX & LP & P0 & PN & SEL & SORT & _). fold T in SEL. exists ghosts, po. split; [exact EX|]. cbv zeta. set (g := mkgl ghosts po (tree_offsets T ghosts)).
  assert (HP : 0 <= zlen ranks) by (unfold zlen; lia).
  assert (RK : forall p, 0 <= p < zlen ranks -> exists r', zget ranks p = Some r').
  { intros p Hp. rewrite zget_nth by lia. destruct (nth_error ranks (Z.to_nat p)) as [r'|] eqn:E; [exists r'; reflexivity|]. apply nth_error_None in E. unfold zlen in Hp. lia. }
  assert (ST : forall p, 0 <= p < zlen ranks -> exists a e, zget po p = Some a /\ zget po (p + 1) = Some e /\ 0 <= a <= e).
  { intros p Hp. destruct (RK p Hp) as (r' & Ep). destruct (SEL p r' Ep) as (a & e & Ea & Ee & R & _). exists a, e. auto. }
  assert (LE : forall p a, 0 <= p <= zlen ranks -> zget po p = Some a -> a <= zlen ghosts) by (apply (offsets_le po (zlen ranks)); assumption).
  assert (FND : forall i x, zget ghosts i = Some x -> exists p r' a e, zget ranks p = Some r' /\ zget po p = Some a /\ zget po (p + 1) = Some e /\ a <= i < e /\
     p <> rank /\ In (g_t x, g_q x) (loc T r') /\ exists t q, In (t, q) (loc T r) /\ neighbors d c bt t q (g_t x) (g_q x)).
  { intros i x Ei. pose proof (zget_range _ _ _ Ei) as Ri. destruct (offsets_find po (zlen ranks) (zlen ghosts) HP P0 PN ST i Ri) as (p & a & e & Hp & Ea & Ee & Rp). destruct (RK p Hp) as (r' & Ep).
    destruct (SEL p r' Ep) as (a' & e' & Ea' & Ee' & R & SL). rewrite Ea in Ea'. injection Ea' as <-. rewrite Ee in Ee'. injection Ee' as <-. exists p, r', a, e. repeat (split; [assumption|]).
    pose proof (slice_in ghosts a e i x ltac:(lia) Rp Ei) as Hs. apply nth_error_In in Hs. apply (selects_in _ _ _ SL) in Hs. destruct Hs as (I & N & TN). apply enum_in in I. auto. }
  assert (GI : forall p r' t b, zget ranks p = Some r' -> p <> rank -> In (t, b) (loc T r') -> (exists t0 q0, In (t0, q0) (loc T r) /\ neighbors d c bt t0 q0 t b) ->
     exists i x a e, zget ghosts i = Some x /\ g_t x = t /\ g_q x = b /\ zget po p = Some a /\ zget po (p + 1) = Some e /\ a <= i < e).
  { intros p r' t b Ep N I TN. destruct (SEL p r' Ep) as (a & e & Ea & Ee & R & SL). rewrite <- (enum_key (loc T r') 0) in I. apply in_map_iff in I. destruct I as (x & Ex & Ix). injection Ex as Et Eb.
    assert (IS : In x (slice ghosts a e)) by (apply (selects_in _ _ _ SL); split; [exact Ix|split; [exact N|rewrite Et, Eb; exact TN]]). apply In_nth_error in IS. destruct IS as (k & Ek). apply slice_nth in Ek; [|lia]. destruct Ek as (Ek & L).
    exists (a + Z.of_nat k), x, a, e. repeat (split; [assumption|]). lia. }
  assert (OK : layer_ok d T (zlen ranks) g).
  { unfold layer_ok. cbn [gl_ghosts gl_po gl_to g]. split; [exact SORT|]. split; [|split].
    - intros x Hx. apply In_nth_error in Hx. destruct Hx as (k & Ek). assert (Ek' : zget ghosts (Z.of_nat k) = Some x) by (rewrite zget_nth by lia; rewrite Nat2Z.id; exact Ek).
      destruct (FND _ _ Ek') as (p & r' & a & e & Ep & _ & _ & _ & _ & I & _). pose proof (in_glob T ranks p r' _ Ep I) as IG. split; [apply (glob_label T ranks _ IG)|apply (proj1 (proj2 HF) _ IG)].
    - intros p Hp. destruct (ST p Hp) as (a & e & Ea & Ee & R). exists a, e. split; [exact Ea|]. split; [exact Ee|]. split; [exact R|]. apply (LE (p + 1) e); [lia|exact Ee].
    - intros t Ht. apply tree_offsets_get. exact Ht. }
  split; [exact OK|]. intros proc t q Hp Ht Wq.
  assert (IFF : forall Q : quad -> Prop, (exists j x, zget ghosts j = Some x /\ g_t x = t /\ Q (g_q x) /\ from_proc g proc j) <-> exists b, remote_leaf d c bt ranks rank proc t b /\ Q b).
  { intros Q. split.
    - intros (j & x & Ej & Et & Hq & FP). destruct (FND j x Ej) as (p & r' & a & e & Ep & Ea & Ee & R & N & I & TN). exists (g_q x). split; [|exact Hq]. exists p, r, r'. rewrite <- Et. repeat (split; [assumption|]). split; [|split; assumption].
      destruct FP as [FP|(a' & e' & Ea' & Ee' & R')]; [left; exact FP|right]. cbn [gl_po g] in *. pose proof (zget_range _ _ _ Ea') as Q1. pose proof (zget_range _ _ _ Ep) as Q2. destruct Hp as [->|Hp]; [lia|].
      assert (CH : forall u v x y, 0 <= u -> u < v -> v <= zlen ranks -> zget po (u + 1) = Some x -> zget po v = Some y -> x <= y).
      { intros u v x0 y0 Hu Hv Hv' Ex0 Ey0. destruct (Z.eq_dec (u + 1) v) as [EV|NE]; [rewrite EV, Ey0 in Ex0; injection Ex0 as <-; lia|]. apply (offsets_le po v y0) with (p := u + 1); auto; [|lia]. intros w Hw. apply ST. lia. }
      destruct (Z.lt_trichotomy p proc) as [G|[G|G]]; [|lia|]; exfalso.
      + pose proof (CH p proc e a' ltac:(lia) G ltac:(lia) Ee Ea'). lia.
      + pose proof (CH proc p e' a ltac:(lia) G ltac:(lia) Ee' Ea). lia.
    - intros (b & (p' & r1 & r' & E1 & Ep & N & PP & I & TN) & Hb). rewrite Er in E1. injection E1 as <-. destruct (GI p' r' t b Ep N I TN) as (i & x & a & e & Ei & Et & Eq & Ea & Ee & R).
      exists i, x. split; [exact Ei|]. split; [exact Et|]. split; [rewrite Eq; exact Hb|]. destruct PP as [PP|PP]; [left; exact PP|right]. subst p'. exists a, e. auto. }
  destruct (C61_ghost_search d T (zlen ranks) g bsearch brange proc t q OK BS BR Hp Ht Wq) as ((i & Ei & _ & Ui & Xi) & (k & Ek & _ & Uk & Xk)). split.
  - exists i. split; [exact Ei|]. split.
    + split.
      * intros N. destruct (Xi N) as (x & Ex & Et & Eq & F). destruct (proj1 (IFF (fun b => b = q))) as (b & RL & ->); [exists i, x; auto|exact RL].
      * intros RL. destruct (proj2 (IFF (fun b => b = q))) as (j & x & Ej & Et & Eq & F); [exists q; auto|]. rewrite <- (Ui j x Ej Et Eq F). apply zget_range in Ej. lia.
    + intros N. destruct (Xi N) as (x & Ex & Et & Eq & F). exists x. auto.
  - exists k. split; [exact Ek|]. split.
    + rewrite <- IFF. split.
      * intros N. destruct (Xk N) as (x & Ex & Et & Eq & F). exists k, x. auto.
      * intros (j & x & Ej & Et & Eq & F). rewrite <- (Uk j x Ej Et Eq F). apply zget_range in Ej. lia.
    + intros N. destruct (Xk N) as (x & Ex & Et & Eq & F). exists x. auto.
Qed.

(** the ghost layers of C60_ex *)
Definition f_layer (i : Z) : glayer :=
  match ghost_exchange (map (fun s => match s with Some (m, _) => m_bufs m | None => [] end) (g_sends D2 g_conn CFull g_ranks)) i with
  | None => mkgl [] [] []
  | Some (g, po) => mkgl g po (tree_offsets 2 g)
  end.
(** rank 1: searching each of its ghosts in its tree and rank, on any rank, and in the other tree;
    then a grandchild of each, and its parent *)
Example C61_ex : let g := f_layer 1 in
  map (fun x => (g_t x, ghost_bsearch (bsearch_c D2) g 2 (g_t x) (g_q x), ghost_bsearch (bsearch_c D2) g (-1) (g_t x) (g_q x), ghost_bsearch (bsearch_c D2) g (-1) (1 - g_t x) (g_q x))) (gl_ghosts g) =
    [(0, Some 0, Some 0, Some 4); (0, Some 1, Some 1, Some (-1)); (0, Some 2, Some 2, Some (-1)); (1, Some 3, Some 3, Some (-1)); (1, Some (-1), Some 4, Some 0)] /\
  map (fun x => (ghost_contains D2 (brange_c D2) g (-1) (g_t x) (child D2 (child D2 (g_q x) 1) 2), ghost_contains D2 (brange_c D2) g (-1) (g_t x) (parent D2 (g_q x)))) (gl_ghosts g) =
    [(Some 0, Some (-1)); (Some 1, Some (-1)); (Some 2, Some (-1)); (Some 3, Some (-1)); (Some 4, Some (-1))].
Proof. vm_compute. split; reflexivity. Qed.
Example C61_ex_hyps : bsearch_cmp_ok D2 (bsearch_c D2) /\ brange_ok D2 (brange_c D2) /\ zlen g_ranks = 6.
Proof. split; [apply bsearch_c_ok|]. split; [apply brange_c_ok|reflexivity]. Qed.

(** p4est_ghost.h, lines 153-163: which_tree "can be -1".  Then the ghosts of several trees are
    searched with p4est_quadrant_compare, which disregards the tree, so they are not sorted: a
    ghost of rank 4 of C60_ex, tree 1, is not found by the bsearch of the GNU C library. *)
Theorem C61_any_tree_refuted : exists bsearch bufs ghosts po q i x,
  bsearch_cmp_ok D2 bsearch /\ bufs = map (fun s => match s with Some (m, _) => m_bufs m | None => [] end) (g_sends D2 g_conn CFull g_ranks) /\
  ghost_exchange bufs 4 = Some (ghosts, po) /\ zget ghosts i = Some x /\ g_q x = q /\
  ghost_bsearch bsearch (mkgl ghosts po (tree_offsets 2 ghosts)) (-1) (g_t x) q = Some i /\
  ghost_bsearch bsearch (mkgl ghosts po (tree_offsets 2 ghosts)) (-1) (-1) q = Some (-1).
Proof.
  exists (bsearch_c D2), (map (fun s => match s with Some (m, _) => m_bufs m | None => [] end) (g_sends D2 g_conn CFull g_ranks)), (gl_ghosts (f_layer 4)), (gl_po (f_layer 4)), (mkq 0 0 0 1), 2, (mkgq 1 5 (mkq 0 0 0 1)).
  split; [apply bsearch_c_ok|]. split; [reflexivity|]. vm_compute. repeat split; reflexivity.
Qed.

Print Assumptions C61_ghost_search.
Print Assumptions C61_forest_search_partial.
Print Assumptions C61_any_tree_refuted.
