(** * C27, C28: refinement *)

From Coq Require Import ZArith List Bool Lia ZifyBool Sorting.Sorted.
From Verif Require Import Quad Spec Interval QuadLemmas DescLemmas Tree TreeLemmas SearchLocal Tiles Adapt AdaptSpec ListLemmas RefineLemmas RefineProps.
Import ListNotations.
Open Scope Z_scope.

(** ** C27: the array/list algorithm computes the recursive refinement

    [visit] is the recursive specification: it determines the order and the
    arguments of all calls to the callbacks since the state is threaded
    through them.  30 levels suffice.  The result is never the error outcome
    once the fuel is large enough: the loop ends, and all array accesses are in
    bounds and read initialised entries. *)
Theorem C27_refine_tree : forall d St D init_fn refine_fn replace_fn recursive allowed nt (s : St) (tr : tree D) local_num,
  allowed <= 29 -> Forall (fun lf => 0 <= ql (fst lf)) (t_leaves _ tr) ->
  exists n0, forall fuel, (n0 <= fuel)%nat -> exists pl mx,
    let ref := walk (visit d St D refine_fn init_fn replace_fn recursive allowed nt 30 false) s (t_leaves _ tr) in
    refine_tree d St D init_fn refine_fn replace_fn recursive allowed nt fuel s tr local_num =
      Some (fst ref, mktree _ local_num pl mx (snd ref), local_num + Z.of_nat (length (snd ref))) /\
    (* counters *)
    (forall i, pl i = nlev i (snd ref)) /\
    (t_max _ tr = maxlev (t_leaves _ tr) -> mx = maxlev (snd ref)).
Proof.
  intros d St D init_fn refine_fn replace_fn recursive allowed nt s tr local_num Ha F.
  destruct (refine_tree_spec d St D init_fn refine_fn replace_fn recursive allowed nt 30 s tr local_num) as (n0 & H).
  { intros lf I. rewrite Forall_forall in F. specialize (F lf I). cbv beta in F. lia. }
  exists n0. intros fuel Hf. destruct (H fuel Hf) as (pl & mx & E & P & M). exists pl, mx.
  cbv zeta. destruct (walk _ s (t_leaves _ tr)) as (s', lv). cbn [fst snd] in *. auto.
Qed.

Lemma loop_mono d St D init_fn refine_fn replace_fn recursive allowed nt incount : forall fuel fuel' st r,
  (fuel <= fuel')%nat ->
  refine_loop d St D init_fn refine_fn replace_fn recursive allowed nt fuel incount st = Some r ->
  refine_loop d St D init_fn refine_fn replace_fn recursive allowed nt fuel' incount st = Some r.
Proof.
  induction fuel as [|fuel IH]; intros fuel' st r H E; destruct fuel' as [|fuel']; try lia; cbn [refine_loop] in *;
  destruct (r_list St D st) as [|(lf, pad) tl]; auto; try discriminate.
  destruct (refine_step _ _ _ _ _ _ _ _ _ _ _ _ _ _) as [st'|]; [|discriminate]. apply IH; auto. lia.
Qed.

Lemma tree_mono d St D init_fn refine_fn replace_fn recursive allowed nt s tr ln fuel fuel' r :
  (fuel <= fuel')%nat ->
  refine_tree d St D init_fn refine_fn replace_fn recursive allowed nt fuel s tr ln = Some r ->
  refine_tree d St D init_fn refine_fn replace_fn recursive allowed nt fuel' s tr ln = Some r.
Proof.
  intros H. unfold refine_tree.
  destruct (refine_scan _ _ _ _ _ _ _ _ _ _ _) as [((((s1, arr), c), pl), mx)|]; [|auto].
  destruct (Nat.eqb c _); [auto|]. destruct (aget arr c) as [lf|]; [|auto].
  set (st0 := mkrst _ _ _ _ _ _ _ _ _ _).
  destruct (refine_loop d St D init_fn refine_fn replace_fn recursive allowed nt fuel (length (map Some (t_leaves D tr))) st0) as [st|] eqn:E; [|discriminate].
  rewrite (loop_mono _ _ _ _ _ _ _ _ _ _ fuel fuel' st0 st H E). auto.
Qed.

(** whatever the fuel, a result is the one of the specification *)
Lemma refine_result d St D init_fn refine_fn replace_fn recursive allowed nt (s : St) (tr : tree D) local_num fuel s' tr' ln' :
  allowed <= 29 -> Forall (fun lf => 0 <= ql (fst lf)) (t_leaves _ tr) ->
  refine_tree d St D init_fn refine_fn replace_fn recursive allowed nt fuel s tr local_num = Some (s', tr', ln') ->
  (s', t_leaves _ tr') = walk (visit d St D refine_fn init_fn replace_fn recursive allowed nt 30 false) s (t_leaves _ tr) /\
  ln' = local_num + Z.of_nat (length (t_leaves _ tr')) /\ t_off _ tr' = local_num /\
  (forall i, t_pl _ tr' i = nlev i (t_leaves _ tr')) /\
  (t_max _ tr = maxlev (t_leaves _ tr) -> t_max _ tr' = maxlev (t_leaves _ tr')).
Proof.
  intros Ha F E.
  destruct (C27_refine_tree d St D init_fn refine_fn replace_fn recursive allowed nt s tr local_num Ha F) as (n0 & H).
  pose proof (tree_mono d St D init_fn refine_fn replace_fn recursive allowed nt s tr local_num fuel (Nat.max fuel n0) _ ltac:(lia) E) as E1.
  destruct (H (Nat.max fuel n0) ltac:(lia)) as (pl & mx & E2 & P & M). cbv zeta in *. rewrite E1 in E2.
  destruct (walk _ s (t_leaves _ tr)) as (s2, lv). cbn [fst snd] in *. inversion E2; subst. cbn [t_leaves t_off t_pl t_max]. auto.
Qed.

Lemma tiles_levels d a b (D : Type) (l : list (leaf D)) : tiles d a b (map fst l) ->
  Forall (fun lf : leaf D => wf d (fst lf)) l /\ Forall (fun lf : leaf D => 0 <= ql (fst lf)) l.
Proof.
  intros T. pose proof (tiles_wf _ _ _ _ T) as F. rewrite Forall_forall in F.
  assert (F1 : Forall (fun lf : leaf D => wf d (fst lf)) l) by (apply Forall_forall; intros lf I; apply F, in_map; auto).
  split; [auto|]. eapply Forall_impl; [|exact F1]. cbv beta. intros lf W. pose proof (wf_level _ _ W). lia.
Qed.

(** For any callbacks: the new leaves cover the same curve positions, each once
    and in order, and the counters are right; each new leaf is contained in an
    old one, only leaves below the allowed level are split, and at most once
    when not recursive *)
Theorem C27_refine_tiles : forall d St D init_fn refine_fn replace_fn recursive allowed nt (s : St) (tr : tree D) local_num fuel s' tr' ln' a b,
  allowed <= 29 ->
  tiles d a b (map fst (t_leaves _ tr)) ->
  refine_tree d St D init_fn refine_fn replace_fn recursive allowed nt fuel s tr local_num = Some (s', tr', ln') ->
  tiles d a b (map fst (t_leaves _ tr')) /\
  ln' = local_num + Z.of_nat (length (t_leaves _ tr')) /\ t_off _ tr' = local_num /\
  (forall i, t_pl _ tr' i = nlev i (t_leaves _ tr')) /\
  (t_max _ tr = maxlev (t_leaves _ tr) -> t_max _ tr' = maxlev (t_leaves _ tr')) /\
  (forall r, In r (map fst (t_leaves _ tr')) -> exists q, In q (map fst (t_leaves _ tr)) /\
     (forall x y z, inq d r x y z -> inq d q x y z) /\
     (r = q \/ ql q < ql r <= allowed) /\ (recursive = false -> ql r <= ql q + 1)).
Proof.
  intros d St D init_fn refine_fn replace_fn recursive allowed nt s tr local_num fuel s' tr' ln' a b Ha T E.
  destruct (tiles_levels _ _ _ _ _ T) as (FW & F).
  destruct (refine_result _ _ _ _ _ _ _ _ _ _ _ _ _ _ _ _ Ha F E) as (R & A1 & A2 & A3 & A4).
  rewrite Forall_forall in FW.
  assert (VT : forall lf, In lf (t_leaves _ tr) -> forall s, tiles d (qpos d (fst lf)) (qend d (fst lf))
     (map fst (snd (visit d St D refine_fn init_fn replace_fn recursive allowed nt 30 false s lf)))).
  { intros lf I s0. pose proof (wf_level _ _ (FW lf I)). apply visit_tiles; auto. lia. }
  split; [|split; [exact A1|split; [exact A2|split; [exact A3|split; [exact A4|]]]]].
  - replace (t_leaves _ tr') with (snd (s', t_leaves _ tr')) by reflexivity. rewrite R. apply walk_tiles; auto.
  - intros r I. apply in_map_iff in I. destruct I as (x & <- & I).
    replace (t_leaves _ tr') with (snd (s', t_leaves _ tr')) in I by reflexivity. rewrite R in I.
    apply walk_in in I. destruct I as (s0 & lf & Il & Ix). exists (fst lf). split; [apply in_map; auto|].
    pose proof (tiles_bounds _ _ _ _ _ (VT lf Il s0) (in_map fst _ _ Ix)) as B.
    pose proof (tiles_wf _ _ _ _ (VT lf Il s0)) as W. rewrite Forall_forall in W. specialize (W _ (in_map fst _ _ Ix)).
    pose proof (visit_level _ _ _ _ _ _ _ _ _ _ _ _ _ _ Ix) as (L1 & L2 & L3).
    split; [apply subset_interval; auto|]. split; [|exact L3].
    destruct (quad_eq_dec (fst x) (fst lf)) as [Q|Q]; [auto|]. right.
    destruct L2 as [L2|L2]; [contradiction|]. split; [|lia].
    destruct (Z.eq_dec (ql (fst lf)) (ql (fst x))) as [EL|EL]; [|lia].
    exfalso. apply Q. symmetry. apply (within_eq d); auto.
Qed.

(** Recursive refinement with a decision that depends on the quadrant only:
    exactly which quadrants are leaves afterwards.  r is a leaf iff it lies in
    an old leaf q such that all strict ancestors of r up to q are to be refined
    and below the allowed level, while r itself is not *)
Theorem C27_refine_recursive_exact : forall d St D init_fn refine_fn replace_fn allowed nt (s : St) (tr : tree D) local_num fuel s' tr' ln' a b P,
  allowed <= 29 -> (forall s q v, snd (refine_fn s nt q v) = P q) ->
  tiles d a b (map fst (t_leaves _ tr)) ->
  refine_tree d St D init_fn refine_fn replace_fn true allowed nt fuel s tr local_num = Some (s', tr', ln') ->
  forall r, In r (map fst (t_leaves _ tr')) <->
    exists q, In q (map fst (t_leaves _ tr)) /\ wf d r /\ (forall x y z, inq d r x y z -> inq d q x y z) /\
      (forall c, wf d c -> c <> r -> (forall x y z, inq d c x y z -> inq d q x y z) ->
        (forall x y z, inq d r x y z -> inq d c x y z) -> P c = true /\ ql c < allowed) /\
      ~ (P r = true /\ ql r < allowed).
Proof.
  intros d St D init_fn refine_fn replace_fn allowed nt s tr local_num fuel s' tr' ln' a b P Ha HP T E r.
  destruct (tiles_levels _ _ _ _ _ T) as (FW & F).
  destruct (refine_result _ _ _ _ _ _ _ _ _ _ _ _ _ _ _ _ Ha F E) as (R & _).
  rewrite Forall_forall in FW.
  assert (V : forall lf, In lf (t_leaves _ tr) -> forall s r,
     In r (map fst (snd (visit d St D refine_fn init_fn replace_fn true allowed nt 30 false s lf))) <-> final d allowed P (fst lf) r).
  { intros lf I s0 r0. pose proof (wf_level _ _ (FW lf I)). apply visit_final; auto. lia. }
  replace (t_leaves _ tr') with (snd (s', t_leaves _ tr')) by reflexivity. rewrite R. clear R E F T.
  transitivity (exists lf, In lf (t_leaves _ tr) /\ final d allowed P (fst lf) r).
  - revert s. induction (t_leaves D tr) as [|x l IH]; intros s.
    + cbn. split; [intros []|intros (? & [] & _)].
    + cbn [walk]. pose proof (V x (or_introl eq_refl) s r) as Vx.
      destruct (visit d St D refine_fn init_fn replace_fn true allowed nt 30 false s x) as (s1, o1).
      specialize (IH (fun y Hy => FW y (or_intror Hy)) (fun y Hy => V y (or_intror Hy)) s1).
      destruct (walk _ s1 l) as (s2, o2). cbn [snd] in *. rewrite map_app, in_app_iff, Vx, IH. cbn [In]. split.
      * intros [H|(y & I & H)]; eauto.
      * intros (y & [<-|I] & H); eauto.
  - unfold final. split.
    + intros (lf & I & Wr & Wi & H & N). exists (fst lf). split; [apply in_map; auto|]. split; [auto|].
      split; [apply subset_interval; auto|]. split; [|exact N].
      intros c Wc Ne S1 S2. apply H; auto; apply subset_interval; auto.
    + intros (q & I & Wr & Wi & H & N). apply in_map_iff in I. destruct I as (lf & <- & I).
      exists lf. split; [auto|]. split; [auto|]. split; [apply subset_interval; auto|]. split; [|exact N].
      intros c Wc S1 S2 Ne. apply H; auto; apply subset_interval; auto.
Qed.

(** ** C28: unread leaves are never overwritten

    All states that the loop can reach, from the state in which it is entered *)
Inductive reach d St D init_fn refine_fn replace_fn recursive allowed nt incount (st0 : rst St D) : rst St D -> Prop :=
| reach0 : reach d St D init_fn refine_fn replace_fn recursive allowed nt incount st0 st0
| reachS st lf pad tl st' : reach d St D init_fn refine_fn replace_fn recursive allowed nt incount st0 st ->
    r_list _ _ st = (lf, pad) :: tl ->
    refine_step d St D init_fn refine_fn replace_fn recursive allowed nt incount st lf pad tl = Some st' ->
    reach d St D init_fn refine_fn replace_fn recursive allowed nt incount st0 st'.

Theorem C28_unread_intact : forall d St D init_fn refine_fn replace_fn recursive allowed nt (s s1 : St) (leaves : list (leaf D)) arr current pl mx lf st,
  (* the loop is entered *)
  refine_scan St D refine_fn allowed nt (length leaves) s (map Some leaves) 0 (fun _ => 0) 0 = Some (s1, arr, current, pl, mx) ->
  (current < length leaves)%nat -> aget arr current = Some lf ->
  reach d St D init_fn refine_fn replace_fn recursive allowed nt (length leaves)
    (mkrst _ _ s1 arr [(lf, false)] current (current + 1) true pl mx) st ->
  (* entries that are still to be read are as in the beginning *)
  (forall j, (r_rest _ _ st <= j < length leaves)%nat -> nth_error (r_arr _ _ st) j = Some (nth_error leaves j)) /\
  (* if the work list is empty all has been read, and the array is exactly filled *)
  (r_list _ _ st = [] -> r_rest _ _ st = length leaves /\ r_cur _ _ st = length (r_arr _ _ st)) /\
  (* writing happens within the array and not at an unread entry *)
  (r_list _ _ st <> [] -> (r_cur _ _ st < length (r_arr _ _ st))%nat) /\
  (* the next step is defined *)
  (forall lf pad tl, r_list _ _ st = (lf, pad) :: tl ->
    refine_step d St D init_fn refine_fn replace_fn recursive allowed nt (length leaves) st lf pad tl <> None).
Proof.
  intros d St D init_fn refine_fn replace_fn recursive allowed nt s s1 leaves arr current pl mx lf st ES L G R.
  destruct (scan_start d St D init_fn refine_fn replace_fn recursive allowed nt 0 leaves s s1 arr current pl mx lf ES L G)
    as (orig & -> & LO & Hm & UN).
  set (st0 := mkrst _ _ s1 (map Some orig) [(lf, false)] current (current + 1) true pl mx) in *.
  pose proof (CHpos d) as C4.
  assert (LF : nth_error orig current = Some lf) by (rewrite <- aget_map; exact G).
  (* the first step *)
  assert (FIRST : forall lf0 pad tl st', r_list _ _ st0 = (lf0, pad) :: tl ->
    refine_step d St D init_fn refine_fn replace_fn recursive allowed nt (length leaves) st0 lf0 pad tl = Some st' ->
    inv d St D orig st' 1 (firstn current orig) /\ 0 <= r_max _ _ st').
  { intros lf0 pad tl st' El Es. unfold st0 in El. cbn [r_list] in El. inversion El; subst lf0 pad tl.
    destruct (split_sim d St D init_fn refine_fn replace_fn recursive allowed nt orig st0 0 (firstn current orig) lf false [] s1 lf true I) as (st1 & S1 & _ & I1 & _ & _ & _ & _ & M).
    { unfold st0; cbn [r_arr r_list r_cur r_rest r_first length].
      split; [rewrite map_length; lia|]. split; [lia|]. split; [lia|]. split; [lia|]. split; [reflexivity|].
      split; [rewrite firstn_map; reflexivity|]. split; [rewrite firstn_length; lia|reflexivity]. }
    { reflexivity. } { reflexivity. }
    rewrite LO in S1. rewrite S1 in Es. inversion Es; subst st'. split; [exact I1|]. rewrite M. exact Hm. }
  assert (INV : st = st0 \/ exists k out, inv d St D orig st k out /\ 0 <= r_max _ _ st).
  { induction R as [|st lf1 pad tl st' R IH El Es]; [left; reflexivity|]. right.
    destruct IH as [->|(k & out & I1 & Hm1)].
    - destruct (FIRST _ _ _ _ El Es) as (I1 & M1). eauto.
    - destruct (step_inv d St D init_fn refine_fn replace_fn recursive allowed nt orig st k out lf1 pad tl I1 El Hm1) as (st2 & k' & out' & S2 & I2 & M2).
      rewrite LO in S2. rewrite S2 in Es. inversion Es; subst st2. eauto. }
  destruct INV as [->|(k & out & I1 & Hm1)].
  - unfold st0. cbn [r_rest r_arr r_list r_cur]. rewrite map_length, LO.
    split; [|split; [discriminate|split; [auto|]]].
    + intros j Hj. rewrite nth_error_map, UN by lia. destruct (nth_error leaves j) eqn:E; [reflexivity|].
      apply nth_error_None in E. lia.
    + intros lf1 pad tl El. inversion El; subst. unfold refine_step. cbn [r_first r_s].
      destruct (split_leaf d St D init_fn replace_fn nt s1 lf1). discriminate.
  - pose proof I1 as I0. destruct I0 as [i1 i2 i3 i4 i5 i6 i7 i8 i9].
    rewrite LO in i1, i3, i4, i5.
    assert (NOUT : r_list _ _ st = [] -> r_rest _ _ st = length leaves).
    { intros El. rewrite El in i2. cbn [length] in i2.
      destruct (Nat.lt_ge_cases (r_rest _ _ st) (length leaves)) as [Lt|Ge]; [specialize (i4 Lt); nia|lia]. }
    split; [|split; [|split]].
    + intros j Hj. rewrite i5 by lia. rewrite nth_error_map.
      destruct (Nat.lt_ge_cases current j) as [Lt|Ge].
      * rewrite UN by lia. destruct (nth_error leaves j) eqn:E; [reflexivity|]. apply nth_error_None in E. lia.
      * exfalso. 
        assert (REST : (current < r_rest _ _ st)%nat); [|lia].
        clear - R. induction R as [|st lf1 pad tl st' R IH El Es]; [unfold st0; cbn; lia|].
        enough (r_rest _ _ st <= r_rest _ _ st')%nat by lia. clear - Es. unfold refine_step in Es.
        destruct (if r_first St D st then _ else _) as ((s2, lf2), go). destruct go.
        -- destruct (split_leaf d St D init_fn replace_fn nt s2 lf2). inversion Es. cbn. lia.
        -- assert (RM : forall n arr l rest l' rest', read_more D n arr l rest = Some (l', rest') -> (rest <= rest')%nat).
           { clear. induction n; intros arr l rest l' rest' H; cbn in H; [inversion H; lia|].
             destruct (aget arr rest); [|discriminate]. apply IHn in H. lia. }
           destruct (if Nat.ltb (r_rest St D st) (length leaves) && _ then _ else _) as [(l, rest)|] eqn:Em; [|discriminate].
           destruct (aset _ _ _); [|discriminate]. inversion Es. cbn.
           destruct (Nat.ltb (r_rest St D st) (length leaves) && _); [apply RM in Em; lia|inversion Em; lia].
    + intros El. split; [auto|]. pose proof (NOUT El). rewrite El in i2. cbn [length] in i2. lia.
    + intros Ne. destruct (r_list _ _ st) as [|x l] eqn:El; [contradiction|]. cbn [length] in i2.
      destruct (Nat.lt_ge_cases (r_rest _ _ st) (length leaves)) as [Lt|Ge]; [specialize (i4 Lt)|]; lia.
    + intros lf1 pad tl El.
      destruct (step_inv d St D init_fn refine_fn replace_fn recursive allowed nt orig st k out lf1 pad tl I1 El Hm1) as (st2 & k' & out' & S2 & _).
      rewrite LO in S2. rewrite S2. discriminate.
Qed.

(** ** Example: one quadrant of level 1 is refined twice, with a callback that
    logs its calls *)
Section Example.
  Let leaves : list (leaf Z) := map (fun q => (q, 7)) (childrenv D2 (mkq 0 0 0 0)).
  Let want (q : quad) : bool := (qx q =? 2 ^ 29) && (qy q =? 0) && (ql q <? 3).
  Let rfn (s : list quad) (t : Z) (q : quad) (v : Z) := (s ++ [q], v, want q).
  Let ifn (s : list quad) (t : Z) (q : quad) := (s, ql q).

  Example C27_example :
    tiles D2 0 (2 ^ 60) (map fst leaves) /\ (4 <= 29) /\
    match refine_tree D2 (list quad) Z ifn rfn None true 4 0 100 [] (mktree Z 0 (fun _ => 0) 1 leaves) 5 with
    | Some (s, tr, n) =>
      map (fun lf => (ql (fst lf), snd lf)) (t_leaves _ tr) =
        [(1, 7); (3, 3); (3, 3); (3, 3); (3, 3); (2, 2); (2, 2); (2, 2); (1, 7); (1, 7)] /\
      length s = 12%nat /\ n = 15 /\ map (t_pl _ tr) [0; 1; 2; 3; 4] = [0; 3; 3; 4; 0] /\ t_max _ tr = 3
    | None => False
    end.
  Proof.
    split; [|split; [lia|vm_compute; repeat split]].
    assert (E : map fst leaves = childrenv D2 (mkq 0 0 0 0)) by reflexivity. rewrite E.
    apply (tiles_children D2 (mkq 0 0 0 0)); [|cbn; lia].
    apply is_valid_wf. reflexivity.
  Qed.

  (** the hypotheses of C28 *)
  Example C28_example : exists s1 arr current pl mx lf st,
    refine_scan (list quad) Z rfn 4 0 (length leaves) [] (map Some leaves) 0 (fun _ => 0) 0 = Some (s1, arr, current, pl, mx) /\
    (current < length leaves)%nat /\ aget arr current = Some lf /\
    reach D2 (list quad) Z ifn rfn None true 4 0 (length leaves)
      (mkrst _ _ s1 arr [(lf, false)] current (current + 1) true pl mx) st /\
    length (r_list _ _ st) = 4%nat /\ r_rest _ _ st = 2%nat.
  Proof.
    do 7 eexists. split; [vm_compute; reflexivity|]. split; [vm_compute; lia|]. split; [vm_compute; reflexivity|].
    split; [eapply reachS; [apply reach0|vm_compute; reflexivity|vm_compute; reflexivity]|]. split; reflexivity.
  Qed.
End Example.

Print Assumptions C27_refine_tree.
Print Assumptions C27_refine_tiles.
Print Assumptions C27_refine_recursive_exact.
Print Assumptions C28_unread_intact.
