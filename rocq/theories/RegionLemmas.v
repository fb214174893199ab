(** * Lemmas about the region between two quadrants *)

From Coq Require Import ZArith List Bool Lia Arith ZifyBool.
From Verif Require Import Quad Spec Interval QuadLemmas CompareLemmas DescLemmas Adapt AdaptSpec RefineLemmas Tiles Complete.
Import ListNotations.
Open Scope Z_scope.

  Lemma trich d x y : wf d x -> wf d y -> qend d x <= qpos d y \/ qend d y <= qpos d x \/ x = y \/ is_ancestor d x y = true \/ is_ancestor d y x = true.
  Proof.
    intros Wx Wy. pose proof (qsize_pos d x Wx). pose proof (qsize_pos d y Wy).
    assert (C : forall u v, wf d u -> wf d v -> qpos d u <= qpos d v /\ qend d v <= qend d u -> u = v \/ is_ancestor d u v = true).
    { intros u v Wu Wv I. destruct (contains_unique d u v Wu Wv) as (L & E); [lia|lia|].
      destruct (Z.eq_dec (ql u) (ql v)) as [EL|EL]; [left; rewrite E, EL; apply ancestor_self; exact Wv|].
      right. apply is_ancestor_iff; auto. lia. }
    destruct (Z_le_gt_dec (ql x) (ql y)) as [L|L].
    - destruct (dyadic d x y Wx Wy ltac:(lia)) as [?|[?|?]]; auto. destruct (C x y Wx Wy); auto.
    - destruct (dyadic d y x Wy Wx ltac:(lia)) as [?|[?|?]]; auto. destruct (C y x Wy Wx); auto.
  Qed.
  Lemma anc d x y : wf d x -> wf d y -> is_ancestor d x y = true -> ql x < ql y /\ qpos d x <= qpos d y /\ qend d y <= qend d x.
  Proof. intros Wx Wy. apply is_ancestor_iff; assumption. Qed.


Section R.
  Variables (d : dim) (a b : quad).
  Hypothesis Wa : wf d a.
  Hypothesis Wb : wf d b.
  Hypothesis Hab : compare d a b < 0.
  Set Default Proof Using "All".

  Local Notation inside x y := (qpos d y <= qpos d x /\ qend d x <= qend d y).

  (** beginning of the region *)
  Definition lo : Z := if is_ancestor d a b then qpos d a else qend d a.
  Definition hi : Z := qpos d b.
  Definition clip (x : Z) : Z := Z.max lo (Z.min hi x).

  Lemma lo_hi : lo <= hi /\ (is_ancestor d a b = false -> qend d a <= qpos d b).
  Proof.
    unfold lo, hi. destruct (compare_wf d a b Wa Wb) as (C & E & _). apply C in Hab. pose proof (qsize_pos d a Wa). pose proof (qsize_pos d b Wb). unfold qend in *.
    destruct (is_ancestor d a b) eqn:A; [split; [apply (anc d a b) in A; auto; lia|discriminate]|].
    assert (qend d a <= qpos d b); [|unfold qend in *; split; auto].
    destruct (trich d a b Wa Wb) as [T|[T|[T|[T|T]]]]; [exact T|unfold qend in *; lia|subst; lia|congruence|].
    apply anc in T; auto. unfold qend in *. lia.
  Qed.

  (** the quadrants that the work list may contain *)
  Definition adm (w : quad) : Prop := wf d w /\ is_ancestor d b w = false /\
    (if is_ancestor d a b then is_ancestor d a w = true else is_ancestor d a w = false).

  Definition take (w : quad) : bool := (compare d a w <? 0) && (compare d w b <? 0) && negb (is_ancestor d w b).
  Definition open (w : quad) : bool := is_ancestor d w a || is_ancestor d w b.

  Fixpoint visit (n : nat) (w : quad) : list quad :=
    if take w then [w]
    else if open w then match n with O => [] | S n' => flat_map (visit n') (childrenv d w) end
    else [].

  Lemma adm_child w : adm w -> open w = true -> ql w < 29 /\ forall c, In c (childrenv d w) -> adm c /\ ql c = ql w + 1 /\ parent d c = w.
  Proof.
    intros (Ww & H1 & H2) O. unfold open in O.
    assert (L : ql w < 29).
    { pose proof (wf_level _ _ Wa). pose proof (wf_level _ _ Wb). apply orb_true_iff in O. destruct O as [O|O]; apply anc in O; auto; lia. }
    split; [exact L|]. intros c Hc. rewrite childrenv_child in Hc. apply in_map_iff in Hc. destruct Hc as (i & <- & Hi).
    assert (Ri : 0 <= i < children d) by (destruct d; cbn in Hi |- *; lia).
    destruct (child_wf d w i Ww L Ri) as (Wc & Lc & Ic). split; [|split; [exact Lc|apply child_parent; auto]].
    assert (CW : is_ancestor d w (child d w i) = true).
    { pose proof (wf_level _ _ Ww) as Lw. pose proof (ancestor_contains d (child d w i) (ql w) Wc ltac:(lia)) as AC.
      assert (E : ancestor d (child d w i) (ql w) = w) by (replace (ql w) with (ql (child d w i) - 1) by lia; rewrite <- parent_ancestor by (auto; lia); apply child_parent; auto).
      rewrite E in AC. apply is_ancestor_iff; auto. lia. }
    apply anc in CW; auto.
    (* a quadrant x that does not contain w contains a child only if it is the child *)
    assert (K : forall x, wf d x -> is_ancestor d x w = false -> is_ancestor d x (child d w i) = true -> x = w).
    { intros x Wx N A. apply anc in A; auto. pose proof (qsize_pos d _ Wc). pose proof (qsize_pos d _ Wx). pose proof (qsize_pos d _ Ww). unfold qend in *.
      destruct (trich d x w Wx Ww) as [T|[T|[T|[T|T]]]]; [unfold qend in *; lia|unfold qend in *; lia|exact T|congruence|]. apply anc in T; auto. unfold qend in *. lia. }
    split; [exact Wc|]. split.
    - destruct (is_ancestor d b (child d w i)) eqn:B; [|reflexivity]. assert (b = w) by (apply K; auto). subst w. exfalso.
      apply orb_true_iff in O. destruct O as [O|O].
      + destruct lo_hi as [_ LH]. destruct (is_ancestor d a b) eqn:A; [apply anc in A; auto; apply anc in O; auto; lia|]. specialize (LH eq_refl). apply anc in O; auto.
        pose proof (qsize_pos d a Wa). pose proof (qsize_pos d b Wb). unfold qend in *. lia.
      + apply anc in O; auto. lia.
    - destruct (is_ancestor d a b) eqn:A.
      + apply is_ancestor_iff; auto. apply anc in H2; auto. lia.
      + destruct (is_ancestor d a (child d w i)) eqn:B; [|reflexivity]. assert (a = w) by (apply K; auto). subst w. exfalso.
        apply orb_true_iff in O. destruct O as [O|O]; [apply anc in O; auto; lia|congruence].
  Qed.

  Lemma tiles_concat (f : quad -> list quad) : forall l x y, tiles d x y l -> (forall w, In w l -> tiles d (clip (qpos d w)) (clip (qend d w)) (f w)) ->
    tiles d (clip x) (clip y) (flat_map f l).
  Proof.
    induction l as [|w l IH]; intros x y T F; cbn [tiles flat_map] in *; [subst; reflexivity|]. destruct T as (W & <- & T).
    apply (tiles_app d _ _ _ (clip (qend d w))); [apply F; left; reflexivity|]. apply IH; [exact T|]. intros; apply F; right; assumption.
  Qed.

  Lemma visit_tiles : forall n w, adm w -> 29 - ql w <= Z.of_nat n -> tiles d (clip (qpos d w)) (clip (qend d w)) (visit n w).
  Proof.
    destruct lo_hi as [LH LD].
    induction n as [|n IH]; intros w A Hn.
    all: assert (AA := A); destruct A as (Ww & A1 & A2); pose proof (qsize_pos d w Ww) as Sw; pose proof (qsize_pos d a Wa) as Sa; pose proof (qsize_pos d b Wb) as Sb.
    all: destruct (compare_wf d a w Wa Ww) as (C1 & C1e & _); destruct (compare_wf d w b Ww Wb) as (C2 & C2e & _).
    all: cbn [visit]; destruct (take w) eqn:T; [unfold take in T|destruct (open w) eqn:O].
    all: try (destruct (adm_child w AA O) as (L29 & _); lia).
    all: unfold clip, lo, hi in *.
    1,3: assert (D1 : (if is_ancestor d a b then qpos d a else qend d a) <= qpos d w /\ qend d w <= qpos d b);
      [|cbn [tiles]; unfold qend in *; split; [exact Ww|split; lia]];
      assert (T1 : compare d a w < 0) by lia; assert (T2 : compare d w b < 0) by lia; assert (T3 : is_ancestor d w b = false) by (destruct (is_ancestor d w b); [lia|reflexivity]);
      apply C1 in T1; assert (WB : qend d w <= qpos d b) by
        (destruct (trich d w b Ww Wb) as [X|[X|[X|[X|X]]]]; [exact X|apply C2 in T2; unfold qend in *; lia|apply C2e in X; lia|congruence|congruence]);
      split; [|exact WB]; destruct (is_ancestor d a b) eqn:AB; [lia|];
      (destruct (trich d a w Wa Ww) as [X|[X|[X|[X|X]]]]; [exact X|unfold qend in *; lia|subst; lia|congruence|apply anc in X; auto; unfold qend in *; lia]).
    - (* nothing *) cbn [tiles]. unfold open in O. apply orb_false_iff in O. destruct O as [O1 O2].
      assert (NT : compare d a w >= 0 \/ compare d w b >= 0) by (unfold take in T; rewrite O2 in T; lia).
      destruct (is_ancestor d a b) eqn:AB.
      + apply anc in A2; auto. destruct (trich d w b Ww Wb) as [X|[X|[X|[X|X]]]]; try congruence; unfold qend in *; try (subst; lia).
      + specialize (LD eq_refl). destruct (trich d a w Wa Ww) as [X|[X|[X|[X|X]]]]; try congruence; unfold qend in *; try (subst; lia).
    - (* open *) destruct (adm_child w AA O) as (L29 & CH).
      apply (tiles_concat (visit n) (childrenv d w) (qpos d w) (qend d w)); [apply tiles_children; auto|].
      intros c Hc. destruct (CH c Hc) as (Ac & Lc & _). apply (IH c Ac). lia.
    - cbn [tiles]. unfold open in O. apply orb_false_iff in O. destruct O as [O1 O2].
      assert (NT : compare d a w >= 0 \/ compare d w b >= 0) by (unfold take in T; rewrite O2 in T; lia).
      destruct (is_ancestor d a b) eqn:AB.
      + apply anc in A2; auto. destruct (trich d w b Ww Wb) as [X|[X|[X|[X|X]]]]; try congruence; unfold qend in *; try (subst; lia).
      + specialize (LD eq_refl). destruct (trich d a w Wa Ww) as [X|[X|[X|[X|X]]]]; try congruence; unfold qend in *; try (subst; lia).
  Qed.

  (** a quadrant is coarsest if its parent exists and does not fit into the region *)
  Definition coarsest (w : quad) : Prop := 0 < ql w /\ (qpos d (parent d w) < lo \/ hi < qend d (parent d w)).

  Lemma open_out w : adm w -> open w = true -> qpos d w < lo \/ hi < qend d w.
  Proof.
    intros (Ww & A1 & A2) O. unfold open in O. apply orb_true_iff in O. unfold lo, hi. pose proof (qsize_pos d a Wa). pose proof (qsize_pos d b Wb). unfold qend in *. destruct O as [O|O].
    - destruct (is_ancestor d a b) eqn:AB; [apply anc in A2; auto; apply anc in O; auto; lia|]. apply anc in O; auto. unfold qend in *. lia.
    - apply anc in O; auto. unfold qend in *. lia.
  Qed.

  Lemma visit_coarsest : forall n w, adm w -> coarsest w -> Forall coarsest (visit n w).
  Proof.
    induction n as [|n IH]; intros w A C; cbn [visit]; (destruct (take w) eqn:T; [constructor; [exact C|constructor]|]); destruct (open w) eqn:O; try constructor.
    destruct (adm_child w A O) as (L & CH). apply Forall_flat_map. apply Forall_forall. intros c Hc. destruct (CH c Hc) as (Ac & Lc & Pc).
    apply IH; [exact Ac|]. split; [destruct A as (Ww & _); pose proof (wf_level _ _ Ww); lia|]. rewrite Pc. apply open_out; auto.
  Qed.

  (** the children of the nearest common ancestor *)
  Lemma nca_children : let r := nearest_common_ancestor d a b in
    ql r < 29 /\ wf d r /\ (forall c, In c (childrenv d r) -> adm c /\ coarsest c) /\ qpos d r <= lo /\ hi <= qend d r.
  Proof.
    cbv zeta. destruct (nca_spec d a b Wa Wb) as (Wr & Ca & Cb & Least). set (r := nearest_common_ancestor d a b) in *.
    destruct lo_hi as [LH LD]. pose proof (wf_level _ _ Wa) as La. pose proof (wf_level _ _ Wb) as Lb.
    assert (Eab : a <> b) by (intros E; destruct (compare_wf d a b Wa Wb) as (_ & C & _); apply C in E; lia).
    pose proof (qsize_pos d a Wa) as Sa. pose proof (qsize_pos d b Wb) as Sb. pose proof (qsize_pos d r Wr) as Sr.
    assert (Rb : is_ancestor d r b = true).
    { destruct (trich d r b Wr Wb) as [X|[X|[X|[X|X]]]]; [unfold qend in *; lia|unfold qend in *; lia| |exact X|apply anc in X; auto; exfalso].
      - exfalso. rewrite X in Ca. destruct (trich d a b Wa Wb) as [Y|[Y|[Y|[Y|Y]]]]; [unfold qend in *; lia|unfold qend in *; lia|auto|apply anc in Y; auto|apply anc in Y; auto].
        + destruct (contains_unique d b a Wb Wa ltac:(lia) ltac:(lia)) as (L & _). lia.
        + destruct (compare_wf d a b Wa Wb) as (C & _). apply C in Hab. lia.
      - destruct (contains_unique d r b Wr Wb ltac:(lia) ltac:(lia)) as (L & _). lia. }
    assert (Lr : ql r < 29) by (apply anc in Rb; auto; lia).
    split; [exact Lr|]. split; [exact Wr|].
    assert (CASE : (is_ancestor d a b = true /\ r = a) \/ (is_ancestor d a b = false /\ is_ancestor d r a = true)).
    { destruct (is_ancestor d a b) eqn:AB.
      - left. split; [reflexivity|]. apply anc in AB; auto. specialize (Least a Wa ltac:(lia) ltac:(lia) ltac:(lia) ltac:(lia)).
        destruct (trich d r a Wr Wa) as [X|[X|[X|[X|X]]]]; [unfold qend in *; lia|unfold qend in *; lia|exact X|exfalso|exfalso].
        + apply anc in X; auto. destruct (contains_unique d a r Wa Wr ltac:(lia) ltac:(lia)) as (L & _). lia.
        + apply anc in X; auto. destruct (contains_unique d r a Wr Wa ltac:(lia) ltac:(lia)) as (L & _). lia.
      - right. split; [reflexivity|]. specialize (LD eq_refl). destruct (trich d r a Wr Wa) as [X|[X|[X|[X|X]]]]; [unfold qend in *; lia|unfold qend in *; lia|exfalso; subst; rewrite X in Cb; unfold qend in *; lia|exact X|exfalso].
        apply anc in X; auto. destruct (contains_unique d r a Wr Wa ltac:(lia) ltac:(lia)) as (L & _). lia. }
    split.
    - intros c Hc. rewrite childrenv_child in Hc. apply in_map_iff in Hc. destruct Hc as (i & <- & Hi).
      assert (Ri : 0 <= i < children d) by (destruct d; cbn in Hi |- *; lia).
      destruct (child_wf d r i Wr Lr Ri) as (Wc & Lc & _). pose proof (wf_level _ _ Wr) as Llr.
      assert (CW : qpos d r <= qpos d (child d r i) /\ qend d (child d r i) <= qend d r).
      { pose proof (ancestor_contains d (child d r i) (ql r) Wc ltac:(lia)) as AC.
        assert (E : ancestor d (child d r i) (ql r) = r) by (replace (ql r) with (ql (child d r i) - 1) by lia; rewrite <- parent_ancestor by (auto; lia); apply child_parent; auto).
        rewrite E in AC. exact AC. }
      pose proof (qsize_pos d _ Wc) as Sc.
      split; [split; [exact Wc|split]|].
      + destruct (is_ancestor d b (child d r i)) eqn:B; [|reflexivity]. exfalso. apply anc in B; auto. apply anc in Rb; auto. lia.
      + destruct CASE as [(-> & E)|(-> & E)].
        * apply is_ancestor_iff; auto. rewrite E in *. lia.
        * destruct (is_ancestor d a (child d r i)) eqn:B; [|reflexivity]. exfalso. apply anc in B; auto. apply anc in E; auto. lia.
      + split; [lia|]. rewrite child_parent by auto. right. unfold hi. apply anc in Rb; auto. unfold qend in *. lia.
    - unfold lo, hi. destruct (is_ancestor d a b); unfold qend in *; lia.
  Qed.

  Definition between : list quad := flat_map (visit 30) (childrenv d (nearest_common_ancestor d a b)).

  Lemma between_tiles : tiles d lo hi between.
  Proof.
    destruct nca_children as (L & W & C & B1 & B2). destruct lo_hi as [LH _].
    pose proof (tiles_concat (visit 30) _ _ _ (tiles_children d _ W L)) as T.
    assert (E1 : clip (qpos d (nearest_common_ancestor d a b)) = lo) by (unfold clip; lia).
    assert (E2 : clip (qend d (nearest_common_ancestor d a b)) = hi) by (unfold clip; lia).
    rewrite E1, E2 in T. apply T. intros w Hw. destruct (C w Hw) as (A & _). apply visit_tiles; [exact A|].
    destruct A as (Ww & _). pose proof (wf_level _ _ Ww). lia.
  Qed.
  Lemma between_coarsest : Forall coarsest between.
  Proof.
    destruct nca_children as (L & W & C & _). apply Forall_flat_map. apply Forall_forall. intros w Hw. destruct (C w Hw). apply visit_coarsest; auto.
  Qed.

  Section Loop.
    Context {St D : Type}.
    Variable init_fn : St -> Z -> quad -> St * D.
    Variable t : Z.
    Local Notation push := (cpush St D init_fn t).
    Local Notation loop := (region_loop d St D init_fn t).

    Lemma loop_list (f : quad -> list quad) L : (forall w, In w L -> exists k, forall fuel W' st, loop (k + fuel) a b (w :: W') st = loop fuel a b W' (fold_left push (f w) st)) ->
      exists k, forall fuel W' st, loop (k + fuel) a b (L ++ W') st = loop fuel a b W' (fold_left push (flat_map f L) st).
    Proof.
      induction L as [|w L IH]; intros H; [exists 0%nat; intros; reflexivity|].
      destruct (H w) as (k1 & E1); [left; reflexivity|]. destruct IH as (k2 & E2); [intros; apply H; right; assumption|].
      exists (k1 + k2)%nat. intros fuel W' st. cbn [app flat_map]. rewrite <- Nat.add_assoc, E1, E2, fold_left_app. reflexivity.
    Qed.
    Lemma loop_visit : forall n w, adm w -> 29 - ql w <= Z.of_nat n ->
      exists k, forall fuel W' st, loop (k + fuel) a b (w :: W') st = loop fuel a b W' (fold_left push (visit n w) st).
    Proof.
      induction n as [|n IH]; intros w A Hn.
      - exists 1%nat. intros fuel W' st. cbn [Nat.add region_loop visit]. fold (take w). destruct (take w); [reflexivity|]. fold (open w).
        destruct (open w) eqn:O; [|reflexivity]. destruct (adm_child w A O) as (L & _). lia.
      - cbn [visit]. destruct (take w) eqn:T; [exists 1%nat; intros; cbn [Nat.add region_loop]; fold (take w); rewrite T; reflexivity|].
        destruct (open w) eqn:O; [|exists 1%nat; intros; cbn [Nat.add region_loop]; fold (take w) (open w); rewrite T, O; reflexivity].
        destruct (adm_child w A O) as (L & CH). destruct (loop_list (visit n) (childrenv d w)) as (k & E).
        { intros c Hc. destruct (CH c Hc) as (Ac & Lc & _). apply IH; [exact Ac|lia]. }
        exists (S k). intros fuel W' st. cbn [Nat.add region_loop]. fold (take w) (open w). rewrite T, O. apply E.
    Qed.

  End Loop.
End R.
