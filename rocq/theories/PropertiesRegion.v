(** * C32, C33: filling a gap, removing overlaps *)

From Coq Require Import ZArith List Bool Lia Arith ZifyBool Sorting.Sorted.
From Verif Require Import Quad Spec Interval QuadLemmas CompareLemmas DescLemmas Tree TreeLemmas Adapt AdaptSpec ListLemmas RefineLemmas Tiles PropertiesBits Complete RegionLemmas.
Import ListNotations.
Open Scope Z_scope.

(** ** C32 *)
Lemma push_list {St D} (init_fn : St -> Z -> quad -> St * D) t : forall l st s r,
  0 <= c_max _ _ st ->
  init_list St D init_fn (c_s _ _ st) t l = (s, r) ->
  let st' := fold_left (cpush St D init_fn t) l st in
  c_s _ _ st' = s /\ c_arr _ _ st' = c_arr _ _ st ++ r /\ c_max _ _ st' = Z.max (c_max _ _ st) (maxlev r) /\
  forall i, c_pl _ _ st' i = c_pl _ _ st i + nlev i r.
Proof.
  induction l as [|q l IH]; intros st s r HM E; cbn [init_list] in E.
  - injection E as <- <-. cbn. rewrite app_nil_r. split; [reflexivity|]. split; [reflexivity|]. split; [lia|]. intros i. unfold nlev. cbn. lia.
  - destruct (init_fn (c_s _ _ st) t q) as (s1, v) eqn:E1. destruct (init_list St D init_fn s1 t l) as (s2, r2) eqn:E2. injection E as <- <-.
    cbn [fold_left]. set (st1 := cpush St D init_fn t st q).
    assert (P1 : c_s _ _ st1 = s1 /\ c_arr _ _ st1 = c_arr _ _ st ++ [(q, v)] /\ c_max _ _ st1 = Z.max (ql q) (c_max _ _ st) /\ c_pl _ _ st1 = bump (c_pl _ _ st) (ql q) 1).
    { unfold st1, cpush. rewrite E1. cbn. auto. }
    destruct P1 as (P1 & P2 & P3 & P4). specialize (IH st1 s2 r2). rewrite P1, P3 in IH. specialize (IH ltac:(lia) E2). destruct IH as (I1 & I2 & I3 & I4).
    split; [exact I1|]. split; [rewrite I2, P2, <- app_assoc; reflexivity|]. split; [rewrite I3; cbn [maxlev fold_right fst]; fold (maxlev r2); lia|].
    intros i. rewrite I4, P4. unfold bump, nlev. cbn [filter fst]. rewrite (Z.eqb_sym i). destruct (ql q =? i) eqn:C; cbn [length]; lia.
Qed.

Lemma init_app {St D} (init_fn : St -> Z -> quad -> St * D) t : forall a b s,
  init_list St D init_fn s t (a ++ b) = let (s1, r1) := init_list St D init_fn s t a in let (s2, r2) := init_list St D init_fn s1 t b in (s2, r1 ++ r2).
Proof.
  induction a as [|q a IH]; intros b s; cbn [app init_list]; [destruct (init_list _ _ _ s t b); reflexivity|].
  destruct (init_fn s t q) as (s1, v). rewrite IH. destruct (init_list St D init_fn s1 t a) as (s2, r). destruct (init_list St D init_fn s2 t b) as (s3, r3). reflexivity.
Qed.

Section Region.
  Variables (d : dim) (St D : Type) (init_fn : St -> Z -> quad -> St * D) (t : Z).
  Variables (q1 q2 : quad) (inc1 inc2 : bool).
  Hypothesis W1 : wf d q1.
  Hypothesis W2 : wf d q2.
  Hypothesis Hlt : compare d q1 q2 < 0.
  Set Default Proof Using "All".

  Definition ends (mid : list quad) : list quad := (if inc1 then [q1] else []) ++ mid ++ (if inc2 then [q2] else []).

  (** the run of the function: the array consists of q1 (if asked for), the quadrants [between] and q2 (if
      asked for); each has been initialised once in this order *)
  Lemma region_run : exists n, forall fuel s pl, (n <= fuel)%nat -> exists st,
    complete_region d St D init_fn t fuel s pl q1 inc1 q2 inc2 = Some st /\
    (c_s _ _ st, c_arr _ _ st) = init_list St D init_fn s t (ends (between d q1 q2)) /\
    c_max _ _ st = maxlev (c_arr _ _ st) /\ forall i, c_pl _ _ st i = pl i + nlev i (c_arr _ _ st).
  Proof.
    destruct (nca_children d q1 q2 W1 W2 Hlt) as (L & W & C & _).
    destruct (loop_list d q1 q2 W1 W2 Hlt init_fn t (visit d q1 q2 30) (childrenv d (nearest_common_ancestor d q1 q2))) as (k & E).
    { intros w Hw. destruct (C w Hw) as (A & _). apply loop_visit; auto. destruct A as (Ww & _). pose proof (wf_level _ _ Ww). lia. }
    exists k. intros fuel s pl Hf.
    assert (EQ : exists st, complete_region d St D init_fn t fuel s pl q1 inc1 q2 inc2 = Some st /\ st = fold_left (cpush St D init_fn t) (ends (between d q1 q2)) (mkcst St D s [] 0 pl)).
    { eexists. split; [|reflexivity]. unfold complete_region. replace (compare d q1 q2 <? 0) with true by lia.
      replace fuel with (k + (fuel - k))%nat by lia.
      rewrite <- (app_nil_r (childrenv d (nearest_common_ancestor d q1 q2))). rewrite E. fold (between d q1 q2).
      replace (region_loop d St D init_fn t (fuel - k) q1 q2 [] (fold_left (cpush St D init_fn t) (between d q1 q2) (if inc1 then cpush St D init_fn t (mkcst St D s [] 0 pl) q1 else mkcst St D s [] 0 pl)))
        with (Some (fold_left (cpush St D init_fn t) (between d q1 q2) (if inc1 then cpush St D init_fn t (mkcst St D s [] 0 pl) q1 else mkcst St D s [] 0 pl))) by (destruct (fuel - k)%nat; reflexivity).
      f_equal. unfold ends. rewrite !fold_left_app. destruct inc1, inc2; reflexivity. }
    destruct EQ as (st & E1 & ->). eexists. split; [exact E1|].
    destruct (init_list St D init_fn s t (ends (between d q1 q2))) as (s', r) eqn:EI.
    destruct (push_list init_fn t (ends (between d q1 q2)) (mkcst St D s [] 0 pl) s' r) as (P1 & P2 & P3 & P4); [cbn; lia|exact EI|].
    cbn [c_arr c_max c_pl app] in P2, P3, P4. rewrite P1, P2, P3. split; [reflexivity|]. split; [pose proof (maxlev_nonneg r); lia|]. exact P4.
  Qed.
End Region.

(** The result for disjoint ends: the inserted quadrants cover exactly the gap, in order and without
    overlap, and are maximal *)
Theorem C32_complete_region : forall d St D (init_fn : St -> Z -> quad -> St * D) t q1 inc1 q2 inc2,
  wf d q1 -> wf d q2 -> qend d q1 <= qpos d q2 ->
  exists mid n,
  (forall fuel s pl, (n <= fuel)%nat -> exists st,
    complete_region d St D init_fn t fuel s pl q1 inc1 q2 inc2 = Some st /\
    (c_s _ _ st, c_arr _ _ st) = init_list St D init_fn s t ((if inc1 then [q1] else []) ++ mid ++ (if inc2 then [q2] else [])) /\
    c_max _ _ st = maxlev (c_arr _ _ st) /\ forall i, c_pl _ _ st i = pl i + nlev i (c_arr _ _ st)) /\
  tiles d (qend d q1) (qpos d q2) mid /\
  (forall w, In w mid -> 0 < ql w /\ ~ (qend d q1 <= qpos d (parent d w) /\ qend d (parent d w) <= qpos d q2)) /\
  (forall r, wf d r -> qend d q1 <= qpos d r -> qend d r <= qpos d q2 -> exists w, In w mid /\ qpos d w <= qpos d r /\ qend d r <= qend d w).
Proof.
  intros d St D init_fn t q1 inc1 q2 inc2 W1 W2 Hd. pose proof (qsize_pos d q1 W1) as S1. pose proof (qsize_pos d q2 W2) as S2.
  assert (Hlt : compare d q1 q2 < 0) by (apply compare_wf; auto; unfold qend in *; lia).
  assert (NA : is_ancestor d q1 q2 = false).
  { destruct (is_ancestor d q1 q2) eqn:E; [|reflexivity]. apply anc in E; auto. unfold qend in *. lia. }
  destruct (region_run d St D init_fn t q1 q2 inc1 inc2 W1 W2 Hlt) as (n & R).
  pose proof (between_tiles d q1 q2 W1 W2 Hlt) as T. pose proof (between_coarsest d q1 q2 W1 W2 Hlt) as CO.
  unfold lo, hi in T. rewrite NA in T. exists (between d q1 q2), n. split; [exact R|]. split; [exact T|].
  rewrite Forall_forall in CO. assert (CO' : forall w, In w (between d q1 q2) -> 0 < ql w /\ ~ (qend d q1 <= qpos d (parent d w) /\ qend d (parent d w) <= qpos d q2)).
  { intros w Hw. destruct (CO w Hw) as (C1 & C2). unfold lo, hi in C2. rewrite NA in C2. split; [exact C1|lia]. }
  split; [exact CO'|]. intros r Wr R1 R2. pose proof (qsize_pos d r Wr) as Sr.
  destruct (proj1 (tiles_cover d _ _ _ (qpos d r) T)) as (w & Iw & Pw); [unfold qend in *; lia|]. exists w. split; [exact Iw|].
  pose proof (tiles_wf d _ _ _ T) as FW. rewrite Forall_forall in FW. specialize (FW w Iw). destruct (CO' w Iw) as (C1 & C2).
  destruct (trich d w r FW Wr) as [X|[X|[X|[X|X]]]]; [unfold qend in *; lia|unfold qend in *; lia|subst; lia|apply anc in X; auto; lia|exfalso].
  apply anc in X; auto. apply C2. destruct (parent_wf d w FW C1) as (Wp & Lp & _).
  assert (AC : qpos d (parent d w) <= qpos d w /\ qend d w <= qend d (parent d w)) by (rewrite parent_ancestor by auto; apply ancestor_contains; auto; lia).
  pose proof (qsize_pos d w FW). pose proof (qsize_pos d _ Wp).
  destruct (dyadic d r (parent d w) Wr Wp ltac:(lia)) as [Y|[Y|Y]]; unfold qend in *; lia.
Qed.

(** If the first quadrant is an ancestor of the second, the quadrants inside the first that precede
    the second are inserted *)
Theorem C32_complete_region_inside : forall d St D (init_fn : St -> Z -> quad -> St * D) t q1 inc1 q2 inc2,
  wf d q1 -> wf d q2 -> is_ancestor d q1 q2 = true ->
  exists mid n,
  (forall fuel s pl, (n <= fuel)%nat -> exists st,
    complete_region d St D init_fn t fuel s pl q1 inc1 q2 inc2 = Some st /\
    (c_s _ _ st, c_arr _ _ st) = init_list St D init_fn s t ((if inc1 then [q1] else []) ++ mid ++ (if inc2 then [q2] else []))) /\
  tiles d (qpos d q1) (qpos d q2) mid.
Proof.
  intros d St D init_fn t q1 inc1 q2 inc2 W1 W2 A. assert (Hlt : compare d q1 q2 < 0) by (pose proof A as A'; apply anc in A'; auto; apply compare_wf; auto; lia).
  destruct (region_run d St D init_fn t q1 q2 inc1 inc2 W1 W2 Hlt) as (n & R). pose proof (between_tiles d q1 q2 W1 W2 Hlt) as T.
  unfold lo, hi in T. rewrite A in T. exists (between d q1 q2), n. split; [|exact T].
  intros fuel s pl Hf. destruct (R fuel s pl Hf) as (st & E1 & E2 & _). exists st. auto.
Qed.

(** ** C33 *)
Lemma skipn_lset {A} (l : list A) i v j : (i < j)%nat -> (i < length l)%nat -> skipn j (lset l i v) = skipn j l.
Proof.
  intros H1 H2. unfold lset. rewrite skipn_app, firstn_length. replace (Nat.min i (length l)) with i by lia.
  rewrite (skipn_all2 (firstn _ _)) by (rewrite firstn_length; lia). cbn [app]. replace (j - i)%nat with (S (j - i - 1)) by lia.
  change (skipn (S (j - i - 1)) (v :: skipn (S i) l)) with (skipn (j - i - 1) (skipn (S i) l)). rewrite <- skipn_plus. f_equal. lia.
Qed.

(** [contains x y]: y lies inside x *)
Definition contains (d : dim) (x y : quad) : bool := (qpos d x <=? qpos d y) && (qend d y <=? qend d x).
(** the leaves that contain no later leaf *)
Fixpoint keep {D} (d : dim) (l : list (quad * D)) : list (quad * D) :=
  match l with
  | [] => []
  | x :: r => if existsb (fun y => contains d (fst x) (fst y)) r then keep d r else x :: keep d r
  end.
(** the others *)
Fixpoint dropped {D} (d : dim) (l : list (quad * D)) : list (quad * D) :=
  match l with
  | [] => []
  | x :: r => if existsb (fun y => contains d (fst x) (fst y)) r then x :: dropped d r else dropped d r
  end.

Section Lin.
  Variables (d : dim) (D : Type).
  Local Notation leaf := (quad * D)%type.

  Lemma contains_test q r : wf d q -> wf d r -> is_equal d q r || is_ancestor d q r = contains d q r.
  Proof.
    intros Wq Wr. unfold contains. pose proof (qsize_pos d q Wq). pose proof (qsize_pos d r Wr).
    destruct (is_equal d q r) eqn:E; [apply is_equal_eq in E; auto; subst; cbn; lia|]. cbn [orb].
    destruct (is_ancestor d q r) eqn:A; [apply anc in A; auto; lia|].
    destruct ((qpos d q <=? qpos d r) && (qend d r <=? qend d q)) eqn:C; [|reflexivity].
    destruct (trich d q r Wq Wr) as [X|[X|[X|[X|X]]]]; [unfold qend in *; lia|unfold qend in *; lia|assert (is_equal d q r = true) by (apply is_equal_eq; auto); congruence|congruence|].
    apply anc in X; auto. destruct (contains_unique d q r Wq Wr ltac:(lia) ltac:(lia)) as (L & _). lia.
  Qed.

  (** non-decreasing *)
  Definition le (q r : quad) : Prop := qpos d q < qpos d r \/ (qpos d q = qpos d r /\ ql q <= ql r).

  Lemma exists_next (x y : leaf) l : Forall (fun z => wf d (fst z)) (x :: y :: l) -> StronglySorted le (map fst (x :: y :: l)) ->
    existsb (fun z => contains d (fst x) (fst z)) (y :: l) = contains d (fst x) (fst y).
  Proof.
    intros F S. cbn [existsb]. destruct (contains d (fst x) (fst y)) eqn:C; [reflexivity|]. cbn [orb].
    destruct (existsb (fun z => contains d (fst x) (fst z)) l) eqn:X; [|reflexivity]. exfalso. apply existsb_exists in X. destruct X as (z & Iz & Cz).
    inversion F as [|? ? Wx F1]; subst. inversion F1 as [|? ? Wy F2]; subst. rewrite Forall_forall in F2. specialize (F2 z Iz).
    cbn [map] in S. inversion S as [|? ? S1 H1]; subst. inversion S1 as [|? ? S2 H2]; subst. inversion H1 as [|? ? Lxy _]; subst. rewrite Forall_forall in H2.
    specialize (H2 (fst z) (in_map fst l z Iz)). unfold contains, le in *. pose proof (qsize_pos d _ Wx). pose proof (qsize_pos d _ Wy). pose proof (qsize_pos d _ F2).
    destruct (trich d (fst x) (fst y) Wx Wy) as [T|[T|[T|[T|T]]]]; [unfold qend in *; lia|unfold qend in *; lia|rewrite T in *; lia|apply anc in T; auto; lia|].
    apply anc in T; auto. unfold qend in *. lia.
  Qed.

  Fixpoint lin (x : leaf) (l : list leaf) : list leaf :=
    match l with [] => [x] | y :: r => if contains d (fst x) (fst y) then lin y r else x :: lin y r end.
  Fixpoint rem (x : leaf) (l : list leaf) : list leaf :=
    match l with [] => [] | y :: r => if contains d (fst x) (fst y) then x :: rem y r else rem y r end.

  Lemma lin_keep : forall l x, Forall (fun z => wf d (fst z)) (x :: l) -> StronglySorted le (map fst (x :: l)) -> lin x l = keep d (x :: l) /\ rem x l = dropped d (x :: l).
  Proof.
    induction l as [|y l IH]; intros x F S; [split; reflexivity|]. cbn [lin rem].
    assert (E : forall g : leaf -> list leaf -> list leaf, g x (y :: l) = g x (y :: l)) by reflexivity. clear E.
    change (keep d (x :: y :: l)) with (if existsb (fun z => contains d (fst x) (fst z)) (y :: l) then keep d (y :: l) else x :: keep d (y :: l)).
    change (dropped d (x :: y :: l)) with (if existsb (fun z => contains d (fst x) (fst z)) (y :: l) then x :: dropped d (y :: l) else dropped d (y :: l)).
    rewrite exists_next by assumption. inversion F; subst. cbn [map] in S. inversion S; subst.
    destruct (IH y) as [I1 I2]; [assumption|assumption|]. rewrite <- I1, <- I2. split; reflexivity.
  Qed.

  (** the loop: out are the finished entries, x the candidate at current, l the unread entries *)
  Lemma lin_loop_spec : forall l arr current rest pl removed freed out x,
    Forall (fun z => wf d (fst z)) (x :: l) -> (current < rest)%nat ->
    firstn (S current) arr = out ++ [x] -> length out = current -> skipn rest arr = l -> (rest <= length arr)%nat ->
    exists arr' current' pl', lin_loop d D (length l) arr current rest pl removed freed = Some (arr', current', pl', removed + Z.of_nat (length (rem x l)), freed ++ map snd (rem x l)) /\
      firstn (S current') arr' = out ++ lin x l /\ (forall i, pl' i = pl i - nlev i (rem x l)).
  Proof.
    induction l as [|(q2, v2) l IH]; intros arr current rest pl removed freed out x F CR E1 E2 E3 RL.
    - exists arr, current, pl. cbn [length lin_loop rem lin map]. rewrite app_nil_r. split; [repeat f_equal; lia|]. split; [exact E1|]. intros i. unfold nlev. cbn. lia.
    - inversion F as [|? ? Wx F1]; subst. inversion F1 as [|? ? Wy F2]; subst. cbn [fst] in Wy.
      assert (RL2 : (rest < length arr)%nat) by (assert (length (skipn rest arr) = S (length l)) by (rewrite E3; reflexivity); rewrite skipn_length in H; lia).
      assert (N1 : nth_error arr (length out) = Some x).
      { assert (nth_error (firstn (S (length out)) arr) (length out) = Some x) by (rewrite E1, nth_error_app2, Nat.sub_diag by lia; reflexivity). rewrite nth_firstn in H by lia. exact H. }
      assert (N2 : nth_error arr rest = Some (q2, v2)).
      { assert (H : nth_error (skipn rest arr) 0 = Some (q2, v2)) by (rewrite E3; reflexivity). rewrite nth_skipn, Nat.add_0_r in H. exact H. }
      assert (E3' : skipn (rest + 1) arr = l) by (rewrite skipn_plus, E3; reflexivity).
      cbn [length lin_loop]. rewrite N1, N2. destruct x as (q1, v1). cbn [fst] in Wx. rewrite contains_test by auto. cbn [lin rem fst].
      destruct (contains d q1 q2) eqn:C.
      + rewrite aset_ok by lia.
        destruct (IH (lset arr (length out) (q2, v2)) (length out) (rest + 1)%nat (bump pl (ql q1) (-1)) (removed + 1) (freed ++ [v1]) out (q2, v2) F1 ltac:(lia)) as (arr' & c' & pl' & R1 & R2 & R3).
        * rewrite firstn_lset by lia. f_equal. assert (H : firstn (length out) (firstn (S (length out)) arr) = out) by (rewrite E1, firstn_app, firstn_all, Nat.sub_diag; apply app_nil_r).
          rewrite firstn_firstn in H. replace (Nat.min (length out) (S (length out))) with (length out) in H by lia. exact H.
        * reflexivity.
        * rewrite skipn_lset by lia. exact E3'.
        * rewrite length_lset by lia. lia.
        * exists arr', c', pl'. split; [rewrite R1; f_equal; f_equal; [f_equal; cbn [length]; lia|rewrite <- app_assoc; reflexivity]|].
          split; [exact R2|]. intros i. rewrite R3. unfold bump, nlev. cbn [filter fst]. rewrite (Z.eqb_sym i). destruct (ql q1 =? i); cbn [length]; lia.
      + assert (GO : forall arr2, firstn (S (length out + 1)) arr2 = (out ++ [(q1, v1)]) ++ [(q2, v2)] -> skipn (rest + 1) arr2 = l -> length arr2 = length arr ->
          exists arr' current' pl', lin_loop d D (length l) arr2 (length out + 1) (rest + 1) pl removed freed = Some (arr', current', pl', removed + Z.of_nat (length (rem (q2, v2) l)), freed ++ map snd (rem (q2, v2) l)) /\
          firstn (S current') arr' = out ++ (q1, v1) :: lin (q2, v2) l /\ (forall i, pl' i = pl i - nlev i (rem (q2, v2) l))).
        { intros arr2 A1 A2 A3. destruct (IH arr2 (length out + 1)%nat (rest + 1)%nat pl removed freed (out ++ [(q1, v1)]) (q2, v2) F1 ltac:(lia) A1) as (arr' & c' & pl' & R1 & R2 & R3); [rewrite app_length; reflexivity|exact A2|lia|].
          exists arr', c', pl'. split; [exact R1|]. split; [rewrite R2, <- app_assoc; reflexivity|exact R3]. }
        destruct (Nat.ltb (length out + 1) rest) eqn:LT.
        * rewrite aset_ok by lia. apply GO.
          -- replace (S (length out + 1)) with (S (length out + 1)) by lia. rewrite firstn_lset by lia. f_equal. rewrite <- E1. f_equal. lia.
          -- rewrite skipn_lset by lia. exact E3'.
          -- apply length_lset. lia.
        * apply GO; [|exact E3'|reflexivity]. assert (rest = (length out + 1)%nat) by lia. subst rest.
          rewrite (firstn_S _ _ (q2, v2)) by exact N2. f_equal. rewrite <- E1. f_equal. lia.
  Qed.

  Lemma nlev_pos i (l : list leaf) : 0 < nlev i l <-> exists z, In z l /\ ql (fst z) = i.
  Proof.
    unfold nlev. split.
    - intros H. destruct (filter (fun lf : leaf => ql (fst lf) =? i) l) as [|z f] eqn:E; [cbn in H; lia|].
      assert (In z (filter (fun lf : leaf => ql (fst lf) =? i) l)) by (rewrite E; left; reflexivity). apply filter_In in H0. exists z. split; [apply H0|lia].
    - intros (z & I & Q). assert (In z (filter (fun lf : leaf => ql (fst lf) =? i) l)) by (apply filter_In; split; [exact I|lia]).
      destruct (filter (fun lf : leaf => ql (fst lf) =? i) l); [destruct H|cbn; lia].
  Qed.

  Lemma maxlev_max (l : list leaf) z : In z l -> ql (fst z) <= maxlev l.
  Proof. induction l as [|x l IH]; intros H; [destruct H|]. unfold maxlev. cbn [fold_right]. fold (maxlev l). destruct H as [->|H]; [lia|]. specialize (IH H). lia. Qed.
  Lemma maxlev_in (l : list leaf) : maxlev l = 0 \/ exists z, In z l /\ ql (fst z) = maxlev l.
  Proof.
    induction l as [|x l IH]; [left; reflexivity|]. unfold maxlev. cbn [fold_right]. fold (maxlev l).
    destruct (Z.max_spec (ql (fst x)) (maxlev l)) as [[? E]|[? E]]; rewrite E.
    - destruct IH as [IH|(z & I & Q)]; [left; exact IH|right; exists z; split; [right; exact I|exact Q]].
    - right. exists x. split; [left; reflexivity|reflexivity].
  Qed.

  Lemma max_counter_gen (pl : Z -> Z) : forall n i mx,
    (forall j, i <= j < i + Z.of_nat n -> pl j <= 0) /\ max_counter n i pl mx = mx \/
    exists j, i <= j < i + Z.of_nat n /\ 0 < pl j /\ max_counter n i pl mx = j /\ forall k, j < k < i + Z.of_nat n -> pl k <= 0.
  Proof.
    induction n as [|n IH]; intros i mx; [left; split; [intros; lia|reflexivity]|]. cbn [max_counter].
    destruct (IH (i + 1) (if pl i >? 0 then i else mx)) as [(A & B)|(j & A & B & C & E)].
    - destruct (pl i >? 0) eqn:P.
      + right. exists i. split; [lia|]. split; [lia|]. split; [exact B|]. intros k Hk. apply A. lia.
      + left. split; [|exact B]. intros j Hj. destruct (Z.eq_dec j i) as [->|]; [lia|apply A; lia].
    - right. exists j. split; [lia|]. split; [exact B|]. split; [exact C|]. intros k Hk. apply E. lia.
  Qed.

  Lemma max_counter_spec (pl : Z -> Z) (l : list leaf) : (forall i, pl i = nlev i l) -> Forall (fun z => wf d (fst z)) l -> max_counter (Z.to_nat (QMAXLEVEL + 1)) 0 pl 0 = maxlev l.
  Proof.
    intros HP F. rewrite Forall_forall in F. assert (LV : forall z, In z l -> 0 <= ql (fst z) < 30) by (intros z I; pose proof (wf_level _ _ (F z I)); unfold QMAXLEVEL in *; lia).
    change (Z.to_nat (QMAXLEVEL + 1)) with 30%nat. destruct (max_counter_gen pl 30 0 0) as [(A & B)|(j & A & B & C & E)].
    - rewrite B. destruct (maxlev_in l) as [M|(z & I & Q)]; [lia|]. specialize (LV z I). specialize (A (ql (fst z)) ltac:(lia)). rewrite HP in A.
      assert (0 < nlev (ql (fst z)) l) by (apply nlev_pos; exists z; auto). lia.
    - rewrite C. rewrite HP in B. apply nlev_pos in B. destruct B as (z & I & Q). pose proof (maxlev_max l z I).
      destruct (maxlev_in l) as [M|(y & Iy & Qy)]; [specialize (LV z I); lia|]. destruct (Z_lt_le_dec j (maxlev l)); [|lia].
      specialize (LV y Iy). specialize (E (maxlev l) ltac:(lia)). rewrite HP in E. assert (0 < nlev (maxlev l) l) by (apply nlev_pos; exists y; auto). lia.
  Qed.

  Lemma keep_in (l : list leaf) z : In z (keep d l) -> In z l.
  Proof. induction l as [|x l IH]; cbn [keep]; intros H; [exact H|]. destruct (existsb _ l); [right; auto|]. destruct H as [->|H]; [left; reflexivity|right; auto]. Qed.
  Lemma keep_nlev i : forall l : list leaf, nlev i l = nlev i (keep d l) + nlev i (dropped d l).
  Proof.
    induction l as [|x l IH]; [reflexivity|]. cbn [keep dropped]. destruct (existsb _ l); unfold nlev in *; cbn [filter]; destruct (ql (fst x) =? i); cbn [length]; lia.
  Qed.
  Lemma keep_length : forall l : list leaf, length l = (length (keep d l) + length (dropped d l))%nat.
  Proof. induction l as [|x l IH]; [reflexivity|]. cbn [keep dropped]. destruct (existsb _ l); cbn [length]; lia. Qed.
End Lin.

(** no quadrant of a linear array contains another: sorted by position, each ending before the next begins *)
Lemma keep_linear {D} d : forall l : list (quad * D), Forall (fun z => wf d (fst z)) l -> StronglySorted (le d) (map fst l) ->
  StronglySorted (fun x y => qend d x <= qpos d y) (map fst (keep d l)).
Proof.
  induction l as [|x l IH]; intros F S; [constructor|]. inversion F as [|? ? Wx F1]; subst. cbn [map] in S. inversion S as [|? ? S1 H1]; subst. cbn [keep].
  destruct (existsb (fun y => contains d (fst x) (fst y)) l) eqn:E; [auto|]. cbn [map]. constructor; [auto|]. rewrite Forall_forall in *. intros q Hq.
  apply in_map_iff in Hq. destruct Hq as (y & <- & Iy). apply keep_in in Iy. specialize (H1 _ (in_map fst l y Iy)). specialize (F1 y Iy).
  assert (C : contains d (fst x) (fst y) = false).
  { destruct (contains d (fst x) (fst y)) eqn:C; [|reflexivity]. rewrite (proj2 (existsb_exists _ l)) in E; [discriminate|exists y; auto]. }
  unfold contains, le in *. pose proof (qsize_pos d _ Wx). pose proof (qsize_pos d _ F1).
  destruct (trich d (fst x) (fst y) Wx F1) as [T|[T|[T|[T|T]]]]; [exact T|unfold qend in *; lia|rewrite T in *; lia|apply anc in T; auto; lia|apply anc in T; auto; unfold qend in *; lia].
Qed.

(** Linearisation of a sorted tree (duplicates and overlaps allowed) keeps exactly the leaves that contain
    no later one, in order and with their data, destroys exactly the data of the others, and leaves the
    counters and the maximum level right. *)
Theorem C33_linearize : forall d D (tr : tree D),
  Forall (fun z => wf d (fst z)) (t_leaves D tr) ->
  StronglySorted (le d) (map fst (t_leaves D tr)) ->
  (forall i, t_pl D tr i = nlev i (t_leaves D tr)) -> t_max D tr = maxlev (t_leaves D tr) ->
  exists tr', linearize_tree d D tr = Some (tr', Z.of_nat (length (t_leaves D tr)) - Z.of_nat (length (t_leaves D tr')), map snd (dropped d (t_leaves D tr))) /\
    t_leaves D tr' = keep d (t_leaves D tr) /\ t_off D tr' = t_off D tr /\
    (forall i, t_pl D tr' i = nlev i (t_leaves D tr')) /\ t_max D tr' = maxlev (t_leaves D tr') /\
    StronglySorted (fun x y => qend d x <= qpos d y) (map fst (t_leaves D tr')) /\
    tree_is_linear d (map fst (t_leaves D tr')) = true.
Proof.
  intros d D tr F S P M. unfold linearize_tree.
  assert (LIN : forall l : list (quad * D), l = keep d (t_leaves D tr) -> StronglySorted (fun x y => qend d x <= qpos d y) (map fst l) /\ tree_is_linear d (map fst l) = true).
  { intros l ->. pose proof (keep_linear d _ F S) as K. split; [exact K|]. apply tree_is_linear_spec; [|exact K].
    rewrite Forall_forall in *. intros q Hq. apply in_map_iff in Hq. destruct Hq as (y & <- & Iy). apply F. eapply keep_in; eauto. }
  destruct (t_leaves D tr) as [|x l] eqn:EL; [|destruct l as [|y l]].
  - exists tr. cbn. rewrite EL. cbn. repeat split; auto. constructor.
  - exists tr. cbn [length Nat.leb keep existsb dropped map]. rewrite EL. cbn [length]. split; [repeat f_equal; lia|].
    split; [reflexivity|]. split; [reflexivity|]. split; [exact P|]. split; [exact M|]. apply LIN. reflexivity.
  - replace (Nat.leb (length (x :: y :: l)) 1) with false by reflexivity.
    replace (length (x :: y :: l) - 1)%nat with (length (y :: l)) by reflexivity.
    destruct (lin_loop_spec d D (y :: l) (x :: y :: l) 0 1 (t_pl D tr) 0 [] [] x) as (arr' & c' & pl' & R1 & R2 & R3); auto; [cbn; lia|].
    rewrite R1. destruct (lin_keep d D (y :: l) x F S) as (K1 & K2). rewrite K1 in R2. rewrite K2 in R3. rewrite K2 in *. cbn [app] in R2.
    replace (c' + 1)%nat with (Datatypes.S c') by lia. rewrite R2.
    assert (PL : forall i, pl' i = nlev i (keep d (x :: y :: l))) by (intros i; rewrite R3, P, (keep_nlev d D i (x :: y :: l)); lia).
    assert (KL : 0 + Z.of_nat (length (dropped d (x :: y :: l))) = Z.of_nat (length (x :: y :: l)) - Z.of_nat (length (keep d (x :: y :: l)))) by (pose proof (keep_length d D (x :: y :: l)); lia).
    rewrite KL. match goal with |- exists _, Some (?T, _, _) = _ /\ _ => exists T end. split; [reflexivity|cbn [t_leaves t_off t_pl t_max]].
    split; [reflexivity|]. split; [reflexivity|]. split; [exact PL|].
    split; [apply (max_counter_spec d); [exact PL|]|apply LIN; reflexivity].
    rewrite Forall_forall in *. intros z Hz. apply F. eapply keep_in; eauto.
Qed.

(** ** Concrete cases *)
(** two opposite corner quadrants of level 2: the gap is filled by 2 + 2 + 2 quadrants *)
Definition lo2 : quad := mkq 0 0 0 2.
Definition hi2 : quad := mkq (3 * 2 ^ 28) (3 * 2 ^ 28) 0 2.
Definition count_init (s t : Z) (q : quad) : Z * Z := (s + 1, s).

Example C32_ex : wf D2 lo2 /\ wf D2 hi2 /\ qend D2 lo2 <= qpos D2 hi2 /\
  option_map (fun st => (map (fun z => (ql (fst z), qx (fst z) / 2 ^ 28, qy (fst z) / 2 ^ 28, snd z)) (c_arr _ _ st), c_max _ _ st, c_s _ _ st, map (c_pl _ _ st) [1; 2]))
    (complete_region D2 Z Z count_init 0 100 0 (fun _ => 0) lo2 true hi2 false)
  = Some ([(2, 0, 0, 0); (2, 1, 0, 1); (2, 0, 1, 2); (2, 1, 1, 3); (1, 2, 0, 4); (1, 0, 2, 5); (2, 2, 2, 6); (2, 3, 2, 7); (2, 2, 3, 8)], 2, 9, [2; 7]).
Proof.
  split; [apply is_valid_wf; vm_compute; reflexivity|]. split; [apply is_valid_wf; vm_compute; reflexivity|].
  split; [vm_compute; discriminate|]. vm_compute. reflexivity.
Qed.

Example C32_ex_inside : let q := mkq 0 0 0 1 in wf D2 q /\ wf D2 (mkq (2 ^ 28) (2 ^ 28) 0 2) /\ is_ancestor D2 q (mkq (2 ^ 28) (2 ^ 28) 0 2) = true /\
  option_map (fun st => map (fun z => (ql (fst z), qx (fst z) / 2 ^ 28, qy (fst z) / 2 ^ 28)) (c_arr _ _ st))
    (complete_region D2 Z Z count_init 0 100 0 (fun _ => 0) q false (mkq (2 ^ 28) (2 ^ 28) 0 2) true) = Some [(2, 0, 0); (2, 1, 0); (2, 0, 1); (2, 1, 1)].
Proof.
  split; [apply is_valid_wf; vm_compute; reflexivity|]. split; [apply is_valid_wf; vm_compute; reflexivity|]. split; vm_compute; reflexivity.
Qed.

(** a root, its first child twice, a grandchild, the last child: the root and both copies of the first
    child go *)
Definition ex_lin : list (quad * Z) := [(mkq 0 0 0 0, 10); (mkq 0 0 0 1, 11); (mkq 0 0 0 1, 12); (mkq (2 ^ 28) 0 0 2, 13); (mkq (2 ^ 29) (2 ^ 29) 0 1, 14)].
Example C33_ex :
  let tr := mktree Z 7 (fun i => nlev i ex_lin) (maxlev ex_lin) ex_lin in
  Forall (fun z => wf D2 (fst z)) (t_leaves Z tr) /\ StronglySorted (le D2) (map fst (t_leaves Z tr)) /\
  option_map (fun r => (map snd (t_leaves Z (fst (fst r))), map (t_pl Z (fst (fst r))) [0; 1; 2], t_max Z (fst (fst r)), snd (fst r), snd r)) (linearize_tree D2 Z tr)
  = Some ([13; 14], [0; 1; 1], 2, 3, [10; 11; 12]).
Proof.
  split; [|split].
  - apply Forall_forall. intros z H. apply is_valid_wf. revert z H. apply forallb_forall. vm_compute. reflexivity.
  - cbn [t_leaves ex_lin map fst]. repeat first [apply SSorted_nil|apply SSorted_cons|apply Forall_nil|apply Forall_cons]; unfold le; vm_compute; first [left; reflexivity|right; split; [reflexivity|discriminate]].
  - vm_compute. reflexivity.
Qed.

Print Assumptions C32_complete_region.
Print Assumptions C32_complete_region_inside.
Print Assumptions C33_linearize.
