(** * Coarsening: termination, tiling, counters, fixed point *)

From Coq Require Import ZArith List Bool Lia ZifyBool Sorting.Sorted.
From Verif Require Import Quad Spec Interval QuadLemmas DescLemmas Tree TreeLemmas SearchLocal Tiles Adapt AdaptSpec ListLemmas RefineLemmas RefineProps CoarsenLemmas CoarsenGeo.
Import ListNotations.
Open Scope Z_scope.

(** ** level statistics *)
Lemma fold_sum (f : nat -> Z) l : forall a, fold_left (fun m i => m + f i) l a = a + fold_left (fun m i => m + f i) l 0.
Proof. induction l as [|x l IH]; intros a; cbn [fold_left]; [lia|]. rewrite IH, (IH (0 + f x)). lia. Qed.

Lemma sum_level_add p1 p2 : sum_level (fun i => p1 i + p2 i) = sum_level p1 + sum_level p2.
Proof.
  unfold sum_level. generalize (seq 0 30). induction l as [|x l IH]; [reflexivity|]. cbn [fold_left].
  rewrite fold_sum, (fold_sum (fun i => p1 (Z.of_nat i))), (fold_sum (fun i => p2 (Z.of_nat i))). lia.
Qed.

Lemma sum_level_ext p1 p2 : (forall i, p1 i = p2 i) -> sum_level p1 = sum_level p2.
Proof.
  intros H. unfold sum_level. generalize 0. generalize (seq 0 30). induction l as [|x l IH]; intros a; [reflexivity|].
  cbn [fold_left]. rewrite H. apply IH.
Qed.

Lemma sum_level_one k : 0 <= k <= 29 -> sum_level (fun i => if k =? i then 1 else 0) = 1.
Proof.
  intros H. unfold sum_level. cbn [seq fold_left]. cbn [Z.of_nat Pos.of_succ_nat].
  assert (X : exists n, (n < 30)%nat /\ k = Z.of_nat n) by (exists (Z.to_nat k); lia).
  destruct X as (n & Hn & ->). do 30 (destruct n as [|n]; [reflexivity|]). lia.
Qed.

Lemma nlev_cons {D} i (x : leaf D) l : nlev i (x :: l) = (if ql (fst x) =? i then 1 else 0) + nlev i l.
Proof. unfold nlev. cbn [filter]. destruct (ql (fst x) =? i); cbn [length]; lia. Qed.

Lemma sum_nlev {D} (l : list (leaf D)) : Forall (fun lf => 0 <= ql (fst lf) <= 29) l ->
  sum_level (fun i => nlev i l) = Z.of_nat (length l).
Proof.
  induction 1 as [|x l H F IH]; [reflexivity|].
  rewrite (sum_level_ext _ (fun i => (if ql (fst x) =? i then 1 else 0) + nlev i l)) by (intros; apply nlev_cons).
  rewrite sum_level_add, IH, sum_level_one by auto. cbn [length]. lia.
Qed.

Lemma max_level_ext p1 p2 : (forall i, p1 i = p2 i) -> max_level p1 = max_level p2.
Proof.
  intros H. unfold max_level. generalize 0 at 2 4. generalize (seq 0 30). induction l as [|x l IH]; intros a; [reflexivity|].
  cbn [fold_left]. rewrite H. apply IH.
Qed.

Lemma nlev_pos {D} (l : list (leaf D)) i : 0 < nlev i l <-> exists lf, In lf l /\ ql (fst lf) = i.
Proof.
  induction l as [|x l IH].
  - unfold nlev. cbn. split; [lia|intros (? & [] & _)].
  - rewrite nlev_cons. assert (0 <= nlev i l) by (unfold nlev; lia). destruct (Z.eqb_spec (ql (fst x)) i) as [E|E].
    + split; [intros _; exists x; split; [left; reflexivity|auto]|lia].
    + split.
      * intros P. destruct (proj1 IH ltac:(lia)) as (lf & I & Q). exists lf. split; [right; auto|auto].
      * intros (lf & [<-|I] & Q); [contradiction|]. assert (0 < nlev i l) by (apply IH; eauto). lia.
Qed.

Lemma max_nlev {D} (l : list (leaf D)) : Forall (fun lf => 0 <= ql (fst lf) <= 29) l ->
  max_level (fun i => nlev i l) = maxlev l.
Proof.
  intros F. rewrite Forall_forall in F.
  assert (M1 : forall lf, In lf l -> ql (fst lf) <= maxlev l).
  { clear. induction l as [|x l IH]; intros lf []; unfold maxlev in *; cbn [fold_right]; [subst; lia|]. specialize (IH lf H). lia. }
  assert (M2 : maxlev l = 0 \/ exists lf, In lf l /\ ql (fst lf) = maxlev l).
  { clear F M1. induction l as [|x l IH]; [left; reflexivity|]. unfold maxlev in *. cbn [fold_right].
    destruct (Z.max_spec (ql (fst x)) (fold_right (fun lf m => Z.max (ql (fst lf)) m) 0 l)) as [(_ & ->)|(_ & ->)].
    - destruct IH as [->|(lf & I & E)]; [left; auto|]. right. exists lf. split; [right; auto|auto].
    - right. exists x. split; [left; reflexivity|auto]. }
  unfold max_level.
  assert (G : forall n k a, (forall i, Z.of_nat k <= i < Z.of_nat (k + n) -> i > maxlev l -> ~ 0 < nlev i l) ->
    (maxlev l < Z.of_nat (k + n)) -> (0 < nlev (maxlev l) l \/ a = maxlev l) -> (a = maxlev l \/ Z.of_nat k <= maxlev l) ->
    fold_left (fun m i => if nlev (Z.of_nat i) l >? 0 then Z.of_nat i else m) (seq k n) a = maxlev l).
  { induction n as [|n IHn]; intros k a H1 H2 H3 H4; cbn [seq fold_left].
    - destruct H4; lia.
    - apply IHn.
      + intros i Hi. apply H1. lia.
      + lia.
      + destruct H3 as [H3|H3]; [left; auto|]. destruct (Z.gtb_spec (nlev (Z.of_nat k) l) 0) as [E|E]; [|right; auto].
        destruct (Z.lt_trichotomy (Z.of_nat k) (maxlev l)) as [L|[L|L]].
        * left. destruct M2 as [M2|M2]; [lia|]. apply nlev_pos. auto.
        * right. auto.
        * exfalso. apply (H1 (Z.of_nat k)); lia.
      + destruct (Z.gtb_spec (nlev (Z.of_nat k) l) 0) as [E|E].
        * destruct (Z.lt_trichotomy (Z.of_nat k) (maxlev l)) as [L|[L|L]]; [right; lia|left; auto|].
          exfalso. apply (H1 (Z.of_nat k)); lia.
        * destruct H4 as [H4|H4]; [left; auto|]. destruct (Z.eq_dec (Z.of_nat k) (maxlev l)) as [Q|Q]; [|right; lia].
          rewrite <- Q in H3. destruct H3; [lia|left; lia]. }
  apply G.
  - intros i _ Hi P. apply nlev_pos in P. destruct P as (lf & I & <-). specialize (M1 lf I). lia.
  - destruct M2 as [->|(lf & I & <-)]; [lia|]. specialize (F lf I). cbv beta in F. lia.
  - destruct M2 as [M2|M2]; [right; auto|left; apply nlev_pos; auto].
  - right. apply maxlev_nonneg.
Qed.

Section C.
  Variable d : dim.
  Variables (St D : Type).
  Variable init_fn : St -> Z -> quad -> St * D.
  Variable coarsen_fn : St -> Z -> list (leaf D) -> St * list D * bool.
  Variable replace_fn : option (St -> Z -> list (leaf D) -> leaf D -> St * D).
  Variables (recursive orphans : bool).
  Variable jt : Z.
  Notation CH := (childrenn d).
  Notation step := (coarsen_step d St D init_fn coarsen_fn replace_fn recursive orphans jt).
  Notation loop := (coarsen_loop d St D init_fn coarsen_fn replace_fn recursive orphans jt).
  Notation astep := (abs_step d St D init_fn coarsen_fn replace_fn recursive orphans jt).
  Notation aloop := (abs_loop d St D init_fn coarsen_fn replace_fn recursive orphans jt).
  Notation tiled a b L := (tiles d a b (map fst L)).

  Lemma fst_skipn n (L : list (leaf D)) : skipn n (map fst L) = map fst (skipn n L).
  Proof. revert n. induction L; intros [|n]; cbn; auto. Qed.

  Lemma tiled_window a b (L : list (leaf D)) w n : tiled a b L ->
    exists a' b', tiled a a' (firstn w L) /\ tiled a' b' (firstn n (skipn w L)) /\ tiled b' b (skipn (w + n) L).
  Proof.
    intros T. rewrite <- (firstn_skipn w L), map_app in T. apply tiles_split in T. destruct T as (a' & T1 & T2).
    rewrite <- (firstn_skipn n (skipn w L)), map_app in T2. apply tiles_split in T2. destruct T2 as (b' & T2 & T3).
    rewrite skipn_plus. eauto.
  Qed.

  Lemma parent_of_children p : wf d p -> ql p < 29 -> forall q r, childrenv d p = q :: r -> parent d q = p /\ ql q = ql p + 1.
  Proof.
    intros W L q r E. rewrite childrenv_child in E.
    assert (Q : q = child d p 0) by (destruct d; cbn in E; inversion E; reflexivity).
    rewrite Q. split; [|reflexivity]. apply child_parent; auto. destruct d; cbn; lia.
  Qed.

  (** the outcome of one step *)
  Lemma astep_cases a b s L w : tiled a b L -> (w + CH <= length L)%nat ->
    let fam := firstn CH (skipn w L) in
    let '(s', L', w') := astep s L w in
    (exists p pv, wf d p /\ ql p < 29 /\ map fst fam = childrenv d p /\ fst pv = p /\
       L' = firstn w L ++ pv :: skipn (w + CH) L /\ snd (coarsen_fn s jt fam) = true /\
       let cidz := Z.to_nat (child_id d p) in
       w' = if Nat.leb cidz w && recursive then (w - cidz)%nat else (w + 1)%nat) \/
    (map fst L' = map fst L /\ w' = (w + 1)%nat /\
      forall p, wf d p -> ql p < 29 -> map fst fam = childrenv d p -> snd (coarsen_fn s jt fam) = false).
  Proof.
    intros T Hw fam. pose proof (CHpos d) as C4.
    destruct (tiled_window a b L w CH T) as (a' & b' & T1 & T2 & T3). fold fam in T2.
    assert (FL : length fam = CH) by (unfold fam; rewrite firstn_length, skipn_length; lia).
    pose proof (ids_family d D fam a' b' FL T2) as IDS.
    assert (EL : L = firstn w L ++ fam ++ skipn (w + CH) L).
    { unfold fam. rewrite skipn_plus, firstn_skipn, firstn_skipn. reflexivity. }
    unfold abs_step. fold fam. destruct fam as [|c0 r] eqn:Ef; [cbn in FL; lia|]. rewrite <- Ef in *.
    destruct (ids_from d D 0 fam) eqn:Ei.
    - destruct (proj1 IDS eq_refl) as (p & Wp & Lp & M).
      destruct (coarsen_fn s jt fam) as ((s1, ds), yes) eqn:Ea.
      destruct yes.
      + unfold make_parent. rewrite Ef in M. cbn [map] in M. 
        destruct (parent_of_children p Wp Lp _ _ (eq_sym M)) as (Pp & _).
        rewrite Pp. destruct (init_fn s1 jt p) as (s2, v).
        destruct replace_fn as [f|]; [destruct (f s2 jt (rezip D fam ds) (p, v)) as (s3, v3)|]; left.
        * exists p, (p, v3). rewrite Ef. cbn [map fst snd]. repeat (split; [solve [auto]|]). reflexivity.
        * exists p, (p, v). rewrite Ef. cbn [map fst snd]. repeat (split; [solve [auto]|]). reflexivity.
      + right. split; [|split; [reflexivity|]].
        * rewrite !map_app, rezip_fst, <- !map_app, <- EL. reflexivity.
        * reflexivity.
    - assert (NF : forall p, wf d p -> ql p < 29 -> map fst fam = childrenv d p -> snd (coarsen_fn s jt fam) = false).
      { intros p Wp Lp M. exfalso. assert (X : false = true) by (apply IDS; eauto). discriminate. }
      destruct orphans.
      + destruct (coarsen_fn s jt [c0]) as ((s1, ds), yes).
        right. split; [|split; [reflexivity|exact NF]].
        rewrite !map_app, rezip_fst, <- !map_app. f_equal.
        assert (E1 : skipn w L = c0 :: skipn (w + 1) L).
        { rewrite skipn_plus. unfold fam in Ef. destruct (skipn w L) as [|x l]; [destruct CH; discriminate|].
          destruct CH; [discriminate|]. cbn [firstn] in Ef. inversion Ef. reflexivity. }
        cbn [app]. rewrite <- E1. apply firstn_skipn.
      + right. auto.
  Qed.

  Lemma astep_tiled a b s L w : tiled a b L -> (w + CH <= length L)%nat ->
    let '(_, L', w') := astep s L w in tiled a b L'.
  Proof.
    intros T Hw. pose proof (astep_cases a b s L w T Hw) as H.
    destruct (astep s L w) as ((s', L'), w'). cbv zeta in H.
    destruct H as [(p & pv & Wp & Lp & M & Ep & -> & _)|(M & _)]; [|rewrite M; exact T].
    destruct (tiled_window a b L w CH T) as (a' & b' & T1 & T2 & T3). rewrite M in T2.
    pose proof (tiles_children d p Wp Lp) as TC.
    assert (U : a' = qpos d p /\ b' = qend d p).
    { clear - T2 TC. assert (G : forall l a b a1 b1, l <> [] -> tiles d a b l -> tiles d a1 b1 l -> a = a1 /\ b = b1).
      { induction l as [|x l IH]; intros a b a1 b1 N H1 H2; [contradiction|].
        destruct H1 as (_ & <- & H1), H2 as (_ & <- & H2). split; [reflexivity|].
        destruct l as [|y l]; [cbn in H1, H2; congruence|]. apply (IH _ _ _ _ ltac:(discriminate) H1 H2). }
      apply (G (childrenv d p)); auto. destruct d; discriminate. }
    destruct U as (-> & ->). rewrite map_app. cbn [map]. rewrite Ep.
    eapply tiles_app; [exact T1|]. cbn [tiles]. split; [auto|]. split; [auto|exact T3].
  Qed.

  (** measure *)
  Lemma astep_measure a b s L w : tiled a b L -> (w + CH <= length L)%nat ->
    let '(_, L', w') := astep s L w in (CH * length L' - w' < CH * length L - w)%nat /\ (w' <= length L')%nat.
  Proof.
    intros T Hw. pose proof (astep_cases a b s L w T Hw) as H. pose proof (CHpos d) as C4.
    destruct (astep s L w) as ((s', L'), w'). cbv zeta in H.
    destruct H as [(p & pv & Wp & Lp & M & Ep & -> & _ & ->)|(M & -> & _)].
    - rewrite app_length, firstn_length. cbn [length]. rewrite skipn_length.
      pose proof (child_id_lt d p) as CL. set (c := Z.to_nat (child_id d p)) in *.
      destruct (Nat.leb c w && recursive) eqn:Eb; nia.
    - apply (f_equal (@length _)) in M. rewrite !map_length in M. rewrite M. nia.
  Qed.

  Lemma aloop_inv (I : St -> list (leaf D) -> nat -> Prop) :
    (forall a b s L w, tiled a b L -> I s L w -> (w + CH <= length L)%nat -> let '(s', L', w') := astep s L w in I s' L' w') ->
    forall fuel a b s L w, tiled a b L -> I s L w -> (CH * length L - w < fuel)%nat -> (w <= length L)%nat ->
    exists s' L' w', aloop fuel s L w = Some (s', L', w') /\ tiled a b L' /\ I s' L' w' /\ (w' <= length L')%nat /\ (length L' < w' + CH)%nat.
  Proof.
    intros HI. induction fuel as [|fuel IH]; intros a b s L w T Hi Hf Hw; [lia|].
    cbn [abs_loop]. destruct (Nat.leb_spec (w + CH) (length L)) as [Le|Gt].
    - pose proof (HI a b s L w T Hi Le) as H1. pose proof (astep_tiled a b s L w T Le) as H2.
      pose proof (astep_measure a b s L w T Le) as H3.
      destruct (astep s L w) as ((s', L'), w'). apply IH; auto; lia.
    - exists s, L, w. split; [reflexivity|]. split; [auto|]. split; [auto|]. split; lia.
  Qed.

  Lemma nlev_same k (l : list (leaf D)) i : Forall (fun lf => ql (fst lf) = k) l ->
    nlev i l = if i =? k then Z.of_nat (length l) else 0.
  Proof.
    induction 1 as [|x l H F IH]; [unfold nlev; cbn; destruct (i =? k); reflexivity|].
    rewrite nlev_cons, IH, H, Z.eqb_sym. destruct (i =? k); cbn [length]; lia.
  Qed.

  Lemma children_levels p (fam : list (leaf D)) : map fst fam = childrenv d p ->
    Forall (fun lf => ql (fst lf) = ql p + 1) fam.
  Proof.
    intros M. apply Forall_forall. intros lf I. apply (in_map fst) in I. rewrite M, childrenv_child in I.
    apply in_map_iff in I. destruct I as (i & <- & _). reflexivity.
  Qed.

  Lemma nlev_fst i (l l' : list (leaf D)) : map fst l = map fst l' -> nlev i l = nlev i l'.
  Proof.
    revert l'. induction l as [|x l IH]; intros [|y l'] E; try discriminate; [reflexivity|].
    cbn [map] in E. injection E as E1 E2. rewrite !nlev_cons, E1, (IH l' E2). reflexivity.
  Qed.

  Lemma loop_sim incount base : forall fuel st s L w a b, sim d St D incount st s L w -> tiled a b L ->
    (forall i, c_pl _ _ st i = nlev i L) -> c_num _ _ st = base + Z.of_nat (length L) ->
    (CH * length L - w < fuel)%nat ->
    exists st' s' L' w', loop fuel incount st = Some st' /\ aloop fuel s L w = Some (s', L', w') /\
      sim d St D incount st' s' L' w' /\ (forall i, c_pl _ _ st' i = nlev i L') /\ c_num _ _ st' = base + Z.of_nat (length L').
  Proof.
    induction fuel as [|fuel IH]; intros st s L w a b H T P N Hf; [lia|].
    pose proof (sim_length _ _ _ _ _ _ _ _ H) as LL. pose proof (s_hole _ _ _ _ _ _ _ _ H) as HH.
    pose proof (s_w _ _ _ _ _ _ _ _ H) as HW.
    cbn [coarsen_loop abs_loop].
    replace (Nat.leb (c_window _ _ st + CH + c_length _ _ st) incount) with (Nat.leb (w + CH) (length L)) by lia.
    destruct (Nat.leb_spec (w + CH) (length L)) as [Le|Gt].
    - destruct (step_sim d St D init_fn coarsen_fn replace_fn recursive orphans jt incount st s L w H Le) as (st' & S1 & S2).
      rewrite S1. pose proof (astep_tiled a b s L w T Le) as T'. pose proof (astep_measure a b s L w T Le) as M'.
      pose proof (astep_cases a b s L w T Le) as C.
      destruct (astep s L w) as ((s', L'), w'). cbv zeta in C. destruct S2 as (H' & Q).
      apply (IH st' s' L' w' a b); auto; [| |lia].
      + intros i. destruct Q as [(_ & Mf & _ & -> & _)|(c0 & E0 & LL' & _ & -> & _)].
        * rewrite P. apply nlev_fst. auto.
        * destruct C as [(p & pv & Wp & Lp & M & Ep & -> & _ & _)|(Mf & _ & _)].
          2:{ exfalso. apply (f_equal (@length _)) in Mf. rewrite !map_length in Mf. pose proof (CHpos d). lia. }
          assert (Efam : firstn CH (skipn w L) = c0 :: skipn 1 (firstn CH (skipn w L))).
          { rewrite (skipn_cons L w c0 E0). pose proof (CHpos d). destruct CH; [lia|reflexivity]. }
          assert (LV : nlev i (firstn CH (skipn w L)) = if i =? ql p + 1 then children d else 0).
          { rewrite (nlev_same (ql p + 1) _ i (children_levels p _ M)). rewrite firstn_length, skipn_length.
            replace (Nat.min CH (length L - w)) with CH by lia. destruct d; reflexivity. }
          pose proof M as M0. rewrite Efam in M0. cbn [map] in M0.
          destruct (parent_of_children p Wp Lp _ _ (eq_sym M0)) as (Pp & Lc). rewrite Pp, Lc.
          assert (NL : nlev i L = nlev i (firstn w L) + nlev i (firstn CH (skipn w L)) + nlev i (skipn (w + CH) L)).
          { rewrite <- !nlev_app. rewrite skipn_plus. rewrite <- app_assoc, firstn_skipn, firstn_skipn. reflexivity. }
          rewrite nlev_app, nlev_cons, Ep. unfold bump. rewrite P, NL, LV, (Z.eqb_sym (ql p) i).
          destruct (Z.eqb_spec i (ql p)), (Z.eqb_spec i (ql p + 1)); lia.
      + destruct Q as [(E1 & _ & _ & _ & ->)|(c0 & E0 & LL' & _ & _ & ->)]; [lia|].
        assert (children d = Z.of_nat CH) by (destruct d; reflexivity). pose proof (CHpos d). lia.
    - exists st, s, L, w. auto.
  Qed.

  Lemma close_hole_spec len : forall n arr start, (start + len + n = length arr)%nat ->
    exists arr', close_hole D n (start + len) len arr = Some arr' /\
      firstn (length arr - len) arr' = logical arr start len.
  Proof.
    induction n as [|n IH]; intros arr start Hn; cbn [close_hole].
    - exists arr. split; [reflexivity|]. unfold logical. rewrite skipn_all2, app_nil_r by lia. f_equal. lia.
    - destruct (nth_error arr (start + len)) as [v|] eqn:E; [|apply nth_error_None in E; lia].
      replace (start + len - len)%nat with start by lia. rewrite aset_ok by lia.
      replace (start + len + 1)%nat with (start + 1 + len)%nat by lia.
      destruct (IH (lset arr start v) (start + 1)%nat) as (arr' & C1 & C2); [rewrite length_lset; lia|].
      exists arr'. split; [exact C1|]. rewrite length_lset in C2 by lia. rewrite C2. apply logical_advance; auto. lia.
  Qed.

  Lemma rest_orphans_spec : forall n zz s (arr : list (leaf D)), (zz + n = length arr)%nat ->
    rest_orphans St D coarsen_fn jt n zz s arr =
    let (s', l) := walk (ask_orphan St D coarsen_fn jt) s (skipn zz arr) in Some (s', firstn zz arr ++ l).
  Proof.
    induction n as [|n IH]; intros zz s arr H; cbn [rest_orphans].
    - rewrite skipn_all2 by lia. cbn [walk]. rewrite firstn_all2, app_nil_r by lia. reflexivity.
    - destruct (nth_error arr zz) as [c0|] eqn:E; [|apply nth_error_None in E; lia].
      rewrite (skipn_cons arr zz c0 E). cbn [walk]. unfold ask_orphan at 1.
      destruct (coarsen_fn s jt [c0]) as ((s1, ds), yes).
      assert (R : exists c1, rezip D [c0] ds = [c1]) by (destruct c0, ds; cbn; eauto). destruct R as (c1 & R). rewrite R.
      rewrite aset_ok by lia. rewrite IH by (rewrite length_lset; lia).
      replace (skipn (zz + 1) (lset arr zz c1)) with (skipn (S zz) arr).
      + destruct (walk _ s1 (skipn (S zz) arr)) as (s2, l). f_equal. f_equal.
        replace (zz + 1)%nat with (S zz) by lia. rewrite firstn_lset by lia. rewrite <- app_assoc. reflexivity.
      + apply list_ext. intros i. rewrite !nth_skipn, nth_lset by lia. destruct (Nat.eqb_spec (zz + 1 + i) zz); [lia|]. f_equal. lia.
  Qed.

  Lemma walk_orphan_fst : forall l s, map fst (snd (walk (ask_orphan St D coarsen_fn jt) s l)) = map fst l.
  Proof.
    induction l as [|x l IH]; intros s; [reflexivity|]. cbn [walk]. unfold ask_orphan at 1.
    destruct (coarsen_fn s jt [x]) as ((s1, ds), yes). specialize (IH s1).
    destruct (walk _ s1 l) as (s2, l2). cbn [snd] in *. rewrite map_app, IH, rezip_fst. reflexivity.
  Qed.

  Lemma tiled_levels a b (L : list (leaf D)) : tiled a b L -> Forall (fun lf => 0 <= ql (fst lf) <= 29) L.
  Proof.
    intros T. pose proof (tiles_wf _ _ _ _ T) as F. rewrite Forall_forall in *. intros lf I.
    apply (wf_level d). apply F, in_map, I.
  Qed.

  (** the body of the loop over trees *)
  Theorem coarsen_tree_spec s tr local_num prev_off a b : tiled a b (t_leaves _ tr) ->
    (forall i, t_pl _ tr i = nlev i (t_leaves _ tr)) ->
    exists s' L' pl, abs_coarsen d St D init_fn coarsen_fn replace_fn recursive orphans jt (CH * length (t_leaves _ tr) + 1) s (t_leaves _ tr) = Some (s', L') /\
      coarsen_tree d St D init_fn coarsen_fn replace_fn recursive orphans jt s tr local_num prev_off =
        Some (s', mktree _ prev_off pl (maxlev L') L',
              local_num - Z.of_nat (length (t_leaves _ tr)) + Z.of_nat (length L'), prev_off + Z.of_nat (length L')) /\
      tiled a b L' /\ (forall i, pl i = nlev i L').
  Proof.
    intros T P. set (L := t_leaves _ tr) in *. pose proof (CHpos d) as C4.
    unfold coarsen_tree, abs_coarsen. fold L.
    destruct L as [|x L0] eqn:EL.
    { (* empty tree *)
      cbn [length]. rewrite Nat.mul_0_r. change (0 + 1)%nat with 1%nat.
      set (st0 := mkcst _ _ s [] 0 1 0 (t_pl _ tr) local_num).
      assert (LP : loop 1 0 st0 = Some st0).
      { unfold st0. cbn [coarsen_loop c_window c_length].
        replace (Nat.leb (0 + CH + 0) 0) with false by (symmetry; apply Nat.leb_gt; lia). reflexivity. }
      assert (AP : aloop 1 s [] 0 = Some (s, [], 0%nat)).
      { cbn [abs_loop length]. replace (Nat.leb (0 + CH) 0) with false by (symmetry; apply Nat.leb_gt; lia). reflexivity. }
      rewrite LP, AP. unfold st0. cbn [c_length Nat.ltb Nat.leb c_arr c_s c_pl c_window c_num].
      assert (M : max_level (t_pl _ tr) = 0).
      { rewrite (max_level_ext _ (fun i => nlev i (@nil (leaf D)))) by auto. apply (max_nlev (@nil (leaf D))). constructor. }
      assert (S0 : sum_level (t_pl _ tr) = 0).
      { rewrite (sum_level_ext _ (fun i => nlev i (@nil (leaf D)))) by auto. apply (sum_nlev (@nil (leaf D))). constructor. }
      exists s, [], (t_pl _ tr).
      destruct orphans; cbn [Nat.sub rest_orphans skipn walk firstn app]; rewrite M, S0; cbn [length Z.of_nat];
      (split; [reflexivity|]; split; [|split; [exact T|exact P]]); do 3 f_equal; lia. }
    rewrite <- EL in *.
    assert (LN : (1 <= length L)%nat) by (rewrite EL; cbn; lia).
    destruct (loop_sim (length L) (local_num - Z.of_nat (length L)) (CH * length L + 1)
       (mkcst _ _ s L 0 1 0 (t_pl _ tr) local_num) s L 0 a b) as (st' & s' & L' & w' & R1 & R2 & R3 & R4 & R5).
    { constructor; cbn [c_s c_arr c_window c_start c_length]; auto; try lia.
      unfold logical. rewrite Nat.add_0_r. apply firstn_skipn. }
    { exact T. } { exact P. } { cbn [c_num]. lia. } { lia. }
    destruct (aloop_inv (fun _ _ _ => True) ltac:(intros; destruct (astep _ _ _) as ((?, ?), ?); auto) (CH * length L + 1) a b s L 0 T I ltac:(lia) ltac:(lia))
      as (s1 & L1 & w1 & E1 & T1 & _ & Hw1 & _).
    rewrite R2 in E1. inversion E1; subst s1 L1 w1. clear E1.
    rewrite R1, R2.
    pose proof (sim_length _ _ _ _ _ _ _ _ R3) as LL. pose proof (s_hole _ _ _ _ _ _ _ _ R3) as HH.
    pose proof (s_len _ _ _ _ _ _ _ _ R3) as HA. pose proof (s_L _ _ _ _ _ _ _ _ R3) as HL.
    assert (CL : (if Nat.ltb 0 (c_length _ _ st') then
            match close_hole D (length L - (c_start _ _ st' + c_length _ _ st')) (c_start _ _ st' + c_length _ _ st')
                             (c_length _ _ st') (c_arr _ _ st') with
            | None => None
            | Some arr => Some (firstn (length L - c_length _ _ st') arr)
            end
          else Some (c_arr _ _ st')) = Some L').
    { destruct (Nat.ltb_spec 0 (c_length _ _ st')) as [Lp|L0'].
      - destruct (close_hole_spec (c_length _ _ st') (length L - (c_start _ _ st' + c_length _ _ st')) (c_arr _ _ st') (c_start _ _ st') ltac:(lia))
          as (arr' & C1 & C2). rewrite C1. rewrite HA in C2. rewrite C2, HL. reflexivity.
      - rewrite <- HL. unfold logical. replace (c_length _ _ st') with 0%nat by lia. rewrite Nat.add_0_r, firstn_skipn. reflexivity. }
    rewrite CL. rewrite (s_s _ _ _ _ _ _ _ _ R3), (s_w _ _ _ _ _ _ _ _ R3).
    assert (FIN : forall (s2 : St) (L2 : list (leaf D)), map fst L2 = map fst L' ->
      Some (s2, mktree _ prev_off (c_pl _ _ st') (max_level (c_pl _ _ st')) L2, c_num _ _ st', prev_off + sum_level (c_pl _ _ st')) =
      Some (s2, mktree _ prev_off (c_pl _ _ st') (maxlev L2) L2, local_num - Z.of_nat (length L) + Z.of_nat (length L2), prev_off + Z.of_nat (length L2)) /\
      tiled a b L2 /\ (forall i, c_pl _ _ st' i = nlev i L2)).
    { intros s2 L2 M. assert (T2 : tiled a b L2) by (rewrite M; exact T1).
      assert (P2 : forall i, c_pl _ _ st' i = nlev i L2) by (intros i; rewrite R4; symmetry; apply nlev_fst; auto).
      pose proof (tiled_levels a b L2 T2) as F2.
      assert (LL2 : length L2 = length L') by (rewrite <- (map_length fst), M, map_length; reflexivity).
      split; [|auto]. rewrite (max_level_ext _ (fun i => nlev i L2)) by auto. rewrite (sum_level_ext _ (fun i => nlev i L2)) by auto.
      rewrite max_nlev, sum_nlev by auto. rewrite R5, LL2. reflexivity. }
    destruct orphans.
    - rewrite rest_orphans_spec by lia. pose proof (walk_orphan_fst (skipn w' L') s') as WF.
      destruct (walk _ s' (skipn w' L')) as (s2, l2). cbn [snd] in WF.
      exists s2, (firstn w' L' ++ l2), (c_pl _ _ st'). split; [reflexivity|]. apply FIN.
      rewrite map_app, WF, <- map_app, firstn_skipn. reflexivity.
    - exists s', L', (c_pl _ _ st'). split; [reflexivity|]. apply FIN. reflexivity.
  Qed.
End C.
