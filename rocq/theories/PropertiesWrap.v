(** * C38, C39, C40: the wrap interface *)

From Coq Require Import ZArith List Bool Lia Arith ZifyBool Sorting.Sorted.
From Verif Require Import Quad Spec Interval QuadLemmas DescLemmas Tree TreeLemmas SearchLocal Search Adapt AdaptSpec ListLemmas RefineLemmas RefineProps CoarsenProps PropertiesRefine PropertiesCoarsen Tiles CoarsenFix Partition PartLemmas PartTrees PartRecv PartGlue PartFinal PartShip Comm CommLemmas OwnerLemmas.
From Verif Require Import Weighted Forest ForestSpec ForestLemmas ForestAdapt ForestOps RankWalk Checksum PropertiesForest PropertiesInflate PropertiesChecksum Wrap WrapLemmas WrapSqueeze WrapRank WrapForest PropertiesValid.
Import ListNotations.
Open Scope Z_scope.
Local Notation prc := (proc wrap Z).
Local Notation frst := (forest wrap Z).

(** ** C38: marks *)

(** a call of p4est_wrap_mark_refine (true) or p4est_wrap_mark_coarsen (false) on a local leaf *)
Definition mark_call : Type := bool * Z * Z.
Definition mark (p : prc) (c : mark_call) : prc := let '(k, t, i) := c in if k then mark_refine p t i else mark_coarsen p t i.
Definition call_valid (T : Z) (p : prc) (c : mark_call) : Prop := let '(_, t, i) := c in 0 <= t < T /\ 0 <= i < zlen (lvs wrap Z p t).
(** the mark of leaf i of tree t after the calls: 1 refine, 2 coarsen, or as before *)
Definition last_mark (t i : Z) (calls : list mark_call) (m : Z) : Z :=
  fold_left (fun (m : Z) (c : mark_call) => let '(k, t', i') := c in if (t =? t') && (i =? i') then (if k then 1 else 2) else m) calls m.

Lemma rank_nth T (p : prc) t i lf : 0 <= t < T -> nth_error (lvs wrap Z p t) i = Some lf -> nth_error (rank_leaves wrap Z T p) (length (loc_from 0 (Z.to_nat t) (lvs wrap Z p)) + i) = Some (t, lf).
Proof.
  intros Ht E. assert (Hi : (i < length (lvs wrap Z p t))%nat) by (apply nth_error_Some; congruence). unfold rank_leaves. replace (Z.to_nat T) with (Z.to_nat t + S (Z.to_nat (T - t - 1)))%nat by lia.
  rewrite loc_from_app, nth_error_app2 by lia. replace (_ + i - _)%nat with i by lia. cbn [loc_from]. replace (0 + Z.of_nat (Z.to_nat t)) with t by lia. rewrite nth_error_app1 by (rewrite map_length; exact Hi). rewrite nth_error_map, E. reflexivity.
Qed.
Lemma count1_mid a m b : count1 (a ++ m :: b) = (count1 a + count1 b + (if (m =? 1)%Z then 1 else 0))%nat.
Proof. unfold count1. rewrite filter_app, app_length. cbn [filter]. destruct (m =? 1); cbn [length]; lia. Qed.

Lemma mark_step d T p k t i : 0 < T -> proc_ok d wrap Z T p -> marks_ok T p -> 0 <= t < T -> 0 <= i < zlen (lvs wrap Z p t) ->
  exists a m b, w_flags (pr_s _ _ p) = a ++ m :: b /\ length a = (length (loc_from 0 (Z.to_nat t) (lvs wrap Z p)) + Z.to_nat i)%nat /\
    w_flags (pr_s _ _ (mark p (k, t, i))) = a ++ (if k then 1 else 2) :: b /\ marks_ok T (mark p (k, t, i)) /\
    mark p (k, t, i) = with_s (pr_s _ _ (mark p (k, t, i))) p.
Proof.
  intros HT OK (M1 & M2 & M3 & M4) Ht Hi. set (pos := (length (loc_from 0 (Z.to_nat t) (lvs wrap Z p)) + Z.to_nat i)%nat).
  destruct (nth_error (lvs wrap Z p t) (Z.to_nat i)) as [lf|] eqn:E; [|exfalso; apply nth_error_None in E; unfold zlen in Hi; lia].
  pose proof (rank_nth T p t _ lf Ht E) as R. fold pos in R. assert (HP : (pos < length (w_flags (pr_s _ _ p)))%nat) by (rewrite M1; apply nth_error_Some; congruence).
  destruct (nth_error (w_flags (pr_s _ _ p)) pos) as [m|] eqn:EM; [|exfalso; apply nth_error_None in EM; lia]. apply nth_error_split in EM. destruct EM as (a & b & EF & LA).
  exists a, m, b. split; [exact EF|]. split; [exact LA|].
  assert (OFF : t_off Z (ft Z (pr_trees _ _ p t)) + i = Z.of_nat (length a)). { destruct OK as (_ & _ & O). destruct (O t Ht) as (-> & _). unfold lvs_before, zlen. rewrite LA. unfold pos. lia. }
  assert (MM : mark_ok m) by (rewrite EF, Forall_app in M2; destruct M2 as (_ & M2); inversion M2; auto).
  assert (FA : Forall mark_ok (a ++ (if k then 1 else 2) :: b)).
  { rewrite EF in M2. apply Forall_app in M2. destruct M2 as (Fa & Fb). inversion Fb. apply Forall_app. split; [exact Fa|]. constructor; [unfold mark_ok; destruct k; auto|assumption]. }
  assert (LEN : forall x, length (a ++ x :: b) = length (a ++ m :: b)) by (intros; rewrite !app_length; reflexivity).
  destruct k; cbn [mark].
  - unfold mark_refine. rewrite OFF, EF, get8_mid by reflexivity. rewrite set8_mid by reflexivity. replace (Z.ldiff _ COARSEN) with 1 by (destruct MM as [->|[->| ->]]; reflexivity).
    split; [reflexivity|]. split; [|reflexivity]. unfold marks_ok. cbn [pr_s w_flags w_refines w_bad]. change (rank_leaves wrap Z T _) with (rank_leaves wrap Z T p). rewrite M4, LEN, <- EF. split; [exact M1|]. split; [exact FA|]. split; [|reflexivity].
    rewrite M3, EF, !count1_mid. destruct MM as [->|[->| ->]]; cbn -[Z.of_nat]; lia.
  - unfold mark_coarsen. rewrite OFF, EF, get8_mid by reflexivity. rewrite set8_mid by reflexivity. replace (Z.lor _ COARSEN) with 2 by (destruct MM as [->|[->| ->]]; reflexivity).
    split; [reflexivity|]. split; [|reflexivity]. unfold marks_ok. cbn [pr_s w_flags w_refines w_bad]. change (rank_leaves wrap Z T _) with (rank_leaves wrap Z T p). rewrite M4, LEN, <- EF. split; [exact M1|]. split; [exact FA|]. split; [|reflexivity].
    rewrite M3, EF, !count1_mid. destruct MM as [->|[->| ->]]; cbn -[Z.of_nat]; lia.
Qed.

(** After any sequence of calls on a rank: the leaves are the same; every access was inside the
    array; no leaf has both marks; the counter is the number of leaves marked for refinement; and
    every leaf has the mark of the last call for it. *)
Theorem C38_marks : forall d T (calls : list mark_call) p, 0 < T -> proc_ok d wrap Z T p -> marks_ok T p -> Forall (call_valid T p) calls ->
  let p' := fold_left mark calls p in
  rank_leaves wrap Z T p' = rank_leaves wrap Z T p /\ proc_ok d wrap Z T p' /\ marks_ok T p' /\
  forall t i lf m, 0 <= t < T -> nth_error (lvs wrap Z p t) i = Some lf ->
    nth_error (w_flags (pr_s _ _ p)) (length (loc_from 0 (Z.to_nat t) (lvs wrap Z p)) + i) = Some m ->
    has_mark T p t (fst lf) (snd lf) m /\ has_mark T p' t (fst lf) (snd lf) (last_mark t (Z.of_nat i) calls m).
Proof.
  intros d T calls p HT OK MO FV p'.
  assert (G : rank_leaves wrap Z T p' = rank_leaves wrap Z T p /\ lvs wrap Z p' = lvs wrap Z p /\ proc_ok d wrap Z T p' /\ marks_ok T p' /\
    forall t i lf m, 0 <= t < T -> nth_error (lvs wrap Z p t) i = Some lf ->
    nth_error (w_flags (pr_s _ _ p)) (length (loc_from 0 (Z.to_nat t) (lvs wrap Z p)) + i) = Some m ->
    nth_error (w_flags (pr_s _ _ p')) (length (loc_from 0 (Z.to_nat t) (lvs wrap Z p)) + i) = Some (last_mark t (Z.of_nat i) calls m)).
  { subst p'. revert p OK MO FV. induction calls as [|((k, t0), i0) calls IH]; intros p OK MO FV; [cbn; auto|]. inversion FV as [|? ? V1 V2]; subst. cbn [call_valid] in V1. destruct V1 as (Ht0 & Hi0).
    destruct (mark_step d T p k t0 i0 HT OK MO Ht0 Hi0) as (a & m0 & b & EF & LA & EF' & MO' & WS). set (p1 := mark p (k, t0, i0)) in *.
    assert (LV : lvs wrap Z p1 = lvs wrap Z p) by (rewrite WS; reflexivity). assert (RL : rank_leaves wrap Z T p1 = rank_leaves wrap Z T p) by (unfold rank_leaves; rewrite LV; reflexivity).
    assert (OK1 : proc_ok d wrap Z T p1) by (rewrite WS; apply with_s_ok, OK).
    assert (V2' : Forall (call_valid T p1) calls) by (eapply Forall_impl; [|exact V2]; intros ((k', t'), i'); unfold call_valid; rewrite LV; auto).
    destruct (IH p1 OK1 MO' V2') as (I1 & I2 & I3 & I4 & I5). cbn [fold_left]. fold p1. split; [congruence|]. split; [congruence|]. split; [exact I3|]. split; [exact I4|].
    intros t i lf m Ht E EM. unfold last_mark. cbn [fold_left]. fold (last_mark t (Z.of_nat i) calls (if (t =? t0) && (Z.of_nat i =? i0) then if k then 1 else 2 else m)). rewrite <- LV. apply (I5 t i lf); [exact Ht|rewrite LV; exact E|]. rewrite LV, EF'.
    assert (BL : forall u v, u < v -> 0 <= u -> (length (loc_from 0 (Z.to_nat u) (lvs wrap Z p)) + length (lvs wrap Z p u) <= length (loc_from 0 (Z.to_nat v) (lvs wrap Z p)))%nat).
    { intros u v Huv Hu. replace (Z.to_nat v) with (Z.to_nat u + S (Z.to_nat (v - u - 1)))%nat by lia. rewrite loc_from_app, app_length. cbn [loc_from]. rewrite app_length, map_length. replace (0 + Z.of_nat (Z.to_nat u)) with u by lia. lia. }
    assert (Hi : (i < length (lvs wrap Z p t))%nat) by (apply nth_error_Some; congruence). unfold zlen in Hi0.
    assert (SAME : (t =? t0) && (Z.of_nat i =? i0) = true -> (length (loc_from 0 (Z.to_nat t) (lvs wrap Z p)) + i)%nat = length a). { intros C. apply andb_prop in C. destruct C as (C1 & C2). apply Z.eqb_eq in C1, C2. subst t i0. rewrite LA. lia. }
    assert (DIFF : (t =? t0) && (Z.of_nat i =? i0) = false -> (length (loc_from 0 (Z.to_nat t) (lvs wrap Z p)) + i)%nat <> length a).
    { intros C. rewrite LA. destruct (Z.lt_trichotomy t t0) as [C1|[C1|C1]]; [specialize (BL t t0 C1 ltac:(lia)); lia| |specialize (BL t0 t C1 ltac:(lia)); lia]. subst t0. lia. }
    destruct ((t =? t0) && (Z.of_nat i =? i0)).
    - rewrite (SAME eq_refl), nth_error_app2, Nat.sub_diag by lia. reflexivity.
    - rewrite <- EM, EF. specialize (DIFF eq_refl). set (n := (_ + i)%nat) in *. destruct (Nat.lt_ge_cases n (length a)) as [C|C]; [rewrite !nth_error_app1 by lia; reflexivity|]. rewrite !nth_error_app2 by lia. destruct (n - length a)%nat as [|j] eqn:Ej; [lia|]. reflexivity. }
  destruct G as (G1 & G2 & G3 & G4 & G5). split; [exact G1|]. split; [exact G3|]. split; [exact G4|]. intros t i lf m Ht E EM. pose proof (rank_nth T p t i lf Ht E) as RN. destruct lf as (q, v). split.
  - eexists. split; [exact RN|exact EM].
  - eexists. rewrite G1. split; [exact RN|]. apply (G5 t i (q, v)); assumption.
Qed.
Print Assumptions C38_marks.

(** new flags of zeros are right for any forest *)
Lemma fresh_ok d T p : proc_ok d wrap Z T p -> w_refines (pr_s _ _ p) = 0 -> w_bad (pr_s _ _ p) = false -> marks_ok T (with_s (new_flags p) p).
Proof.
  intros OK R B. unfold marks_ok. cbn [with_s pr_s new_flags w_flags w_refines w_bad]. change (rank_leaves wrap Z T (with_s _ p)) with (rank_leaves wrap Z T p). rewrite repeat_length. destruct OK as (_ & N & _). split; [rewrite N; apply Nat2Z.id|].
  split; [apply Forall_forall; intros x I; apply repeat_spec in I; left; exact I|]. split; [|exact B]. rewrite R. unfold count1. generalize (Z.to_nat (pr_num wrap Z p)). clear. induction n; [reflexivity|exact IHn].
Qed.

(** Refinement and coarsening succeed on all ranks, with no access outside of the arrays, and leave
    a valid forest.  A leaf of it is the parent of a complete family marked for coarsening and not too
    recent, or the child of a leaf marked for refinement below the maximum level, or an old leaf
    neither refined nor coarsened; and all such are leaves.  All flags are zero again.  The flag
    returned says whether the mesh is another one. *)
Theorem C38_adapt : forall d delay affect T (F : frst), 0 < T -> forest_ok d wrap Z T F -> Forall (marks_ok T) (f_procs _ _ F) ->
  exists n0, forall fuel, (n0 <= fuel)%nat -> exists F' ch, adapt_marks d delay affect T fuel F = Some (F', ch) /\
    forest_ok d wrap Z T F' /\
    (ch = false <-> map (shape wrap Z T) (f_procs _ _ F') = map (shape wrap Z T) (f_procs _ _ F)) /\
    Forall2 (fun p p' =>
      w_bad (pr_s _ _ p') = false /\ w_refines (pr_s _ _ p') = 0 /\ w_flags (pr_s _ _ p') = repeat 0 (length (rank_leaves wrap Z T p)) /\
      let family t q := wf d q /\ ql q < 29 /\ forall i, 0 <= i < children d ->
        exists v, has_mark T p t (child d q i) v 2 /\ (delay <> 0 -> 0 <= v -> delay <= v) in
      forall t r w, In (t, (r, w)) (rank_leaves wrap Z T p') <->
        (family t r /\ w = if delay =? 0 then 0 else if affect then 0 else -1) \/
        (exists q v i, has_mark T p t q v 1 /\ ql q < 29 /\ 0 <= i < children d /\ r = child d q i /\ w = 0) \/
        (exists v m, has_mark T p t r v m /\ (m = 1 -> 29 <= ql r) /\ (w = if (negb (delay =? 0)) && (0 <=? v) then v + 1 else v) /\
           forall q i, family t q -> 0 <= i < children d -> r <> child d q i))
    (f_procs _ _ F) (f_procs _ _ F').
Proof.
  intros d delay affect T F HT OK MO. destruct (adapt_marks_ok d delay affect T HT F OK MO) as (n0 & H). exists n0. intros fuel Hf. destruct (H fuel Hf) as (F' & ch & E). destruct (adapt_marks_any d delay affect T HT F fuel F' ch OK MO E) as (OK' & _ & A & C). exists F', ch. split; [exact E|]. split; [exact OK'|]. split; [exact C|].
  eapply Forall2_imp; [|exact A]. clear. intros p p' _ (A1 & _ & A3 & A4 & A5). split; [exact A4|]. split; [exact A3|]. split; [exact A1|]. intros family t r w.
  assert (REC : forall v, too_recent delay (tick delay v) = false <-> (delay <> 0 -> 0 <= v -> delay <= v)).
  { intros v. unfold too_recent, tick. destruct (delay =? 0) eqn:E0; cbn [negb andb]; [split; [lia|reflexivity]|]. destruct (0 <=? v) eqn:E1; [replace (0 <=? v + 1) with true by lia|rewrite E1]; cbn [andb]; lia. }
  assert (FAM : forall q, merged d delay T p t q <-> family t q).
  { intros q. unfold merged, family. split; intros (W & L & K); (split; [exact W|]; split; [exact L|]).
    - intros i Hi. destruct (K _ (in_childrenv d q i Hi)) as (v & K1 & K2). exists v. split; [exact K1|]. apply REC, K2.
    - intros c I. apply childrenv_in in I. destruct I as (i & Hi & ->). destruct (K i Hi) as (v & K1 & K2). exists v. split; [exact K1|]. apply REC, K2. }
  rewrite A5, FAM. unfold newv. apply or_iff_compat_l. split; (intros [(q & v & B)|(v & m & B)]; [left|right]).
  - destruct B as (B1 & B2 & B3 & B4). apply childrenv_in in B3. destruct B3 as (i & Hi & ->). exists q, v, i. auto.
  - destruct B as (B1 & B2 & B3 & B4). exists v, m. split; [exact B1|]. split; [lia|]. split; [exact B3|]. intros q i Fq Hi ->. apply FAM in Fq. apply (B4 q Fq). apply in_childrenv, Hi.
  - destruct B as (i & B1 & B2 & B3 & -> & B4). exists q, v. split; [exact B1|]. split; [exact B2|]. split; [apply in_childrenv, B3|exact B4].
  - destruct B as (B1 & B2 & B3 & B4). exists v, m. split; [exact B1|]. split; [lia|]. split; [exact B3|]. intros q Mq I. apply childrenv_in in I. destruct I as (i & Hi & ->). apply FAM in Mq. exact (B4 q i Mq Hi eq_refl).
Qed.
Print Assumptions C38_adapt.

(** ** C39: the value returned *)

(** trees and quadrants of all leaves in order: the mesh without its partition *)
Definition mesh (T : Z) (F : frst) : list (Z * quad) := map (fun x => (fst x, fst (snd x))) (all_leaves wrap Z T (f_procs _ _ F)).

Lemma mesh_shapes T F : mesh T F = concat (map (shape wrap Z T) (f_procs _ _ F)).
Proof. unfold mesh, all_leaves. induction (f_procs _ _ F) as [|p ps IH]; [reflexivity|]. cbn [flat_map map concat]. rewrite map_app, IH. reflexivity. Qed.
Lemma mesh_states T f F : mesh T (on_states f F) = mesh T F.
Proof. unfold mesh. rewrite on_states_procs, all_leaves_states. reflexivity. Qed.

(** what is asked of p4est_balance_ext: a valid forest with the same partition markers; it does not
    touch the wrap structure *)
Definition balance_ok (d : dim) (T : Z) (balance : frst -> option frst) : Prop :=
  forall G G', forest_ok d wrap Z T G -> balance G = Some G' ->
    forest_ok d wrap Z T G' /\ f_gfp _ _ G' = f_gfp _ _ G /\ map (pr_s wrap Z) (f_procs _ _ G') = map (pr_s wrap Z) (f_procs _ _ G).

Section Cuts.
  Variable d : dim.
  Variable T : Z.
  Hypothesis HT : 0 < T.

  Lemma cut_lt F F' k : forest_ok d wrap Z T F -> forest_ok d wrap Z T F' -> f_gfp _ _ F' = f_gfp _ _ F -> mesh T F' = mesh T F ->
    (k <= length (f_procs _ _ F))%nat -> (k <= length (f_procs _ _ F'))%nat ->
    (length (all_leaves wrap Z T (firstn k (f_procs _ _ F))) < length (all_leaves wrap Z T (firstn k (f_procs _ _ F'))))%nat -> False.
  Proof.
    intros OK OK' GP ME Hk Hk' LT. destruct (C31_valid_forest d wrap Z T F HT OK) as (_ & W & _ & _ & _ & _ & G). destruct (C31_valid_forest d wrap Z T F' HT OK') as (_ & _ & _ & _ & _ & _ & G').
    specialize (G k Hk). specialize (G' k Hk'). rewrite GP in G'. rewrite G in G'. apply some_inj in G'. clear G.
    assert (SPL : forall ps : list prc, all_leaves wrap Z T ps = all_leaves wrap Z T (firstn k ps) ++ all_leaves wrap Z T (skipn k ps)) by (intros ps; unfold all_leaves; rewrite <- flat_map_app, firstn_skipn; reflexivity).
    pose proof (SPL (f_procs _ _ F)) as S. pose proof (SPL (f_procs _ _ F')) as S'. set (A := all_leaves wrap Z T (firstn k (f_procs _ _ F))) in *. set (A' := all_leaves wrap Z T (firstn k (f_procs _ _ F'))) in *.
    assert (LL : length (all_leaves wrap Z T (f_procs _ _ F')) = length (all_leaves wrap Z T (f_procs _ _ F))) by (apply (f_equal (@length _)) in ME; unfold mesh in ME; rewrite !map_length in ME; exact ME).
    destruct (all_leaves wrap Z T (skipn k (f_procs _ _ F))) as [|x B] eqn:EB; [rewrite S, S', !app_length in LL; cbn [length] in LL; lia|].
    assert (Ix : nth_error (all_leaves wrap Z T (f_procs _ _ F)) (length A) = Some x) by (rewrite S, nth_error_app2, Nat.sub_diag by lia; reflexivity).
    destruct (W x (nth_error_In _ _ Ix)) as (Tx & Wx).
    destruct (all_leaves wrap Z T (skipn k (f_procs _ _ F'))) as [|y B'] eqn:EB'; [apply (f_equal g_tree) in G'; cbn in G'; lia|].
    assert (Iy : nth_error (mesh T F') (length A') = Some (fst y, fst (snd y))) by (unfold mesh; rewrite nth_error_map, S', nth_error_app2, Nat.sub_diag by lia; reflexivity).
    rewrite ME in Iy. unfold mesh in Iy. apply nth_map_some in Iy. destruct Iy as (z & Iz & Ez). apply pair_equal_spec in Ez. destruct Ez as (E1 & E2).
    pose proof (SearchLocal.SS_pair _ _ (leaves_order d wrap Z T HT F OK) _ _ x z LT Ix Iz) as O. cbn beta in O. rewrite <- E1, <- E2 in O. pose proof (size_pos d _ Wx) as SP.
    pose proof (f_equal g_tree G') as H1. pose proof (f_equal (fun m => qx (g_quad m)) G') as H2. pose proof (f_equal (fun m => qy (g_quad m)) G') as H3. pose proof (f_equal (fun m => qz (g_quad m)) G') as H4. cbn in H1, H2, H3, H4.
    assert (QP : qpos d (fst (snd x)) = qpos d (fst (snd y))) by (unfold qpos; congruence). lia.
  Qed.

  Lemma concat_cuts {A} : forall l l' : list (list A), length l = length l' -> concat l = concat l' -> (forall k, (k <= length l)%nat -> length (concat (firstn k l)) = length (concat (firstn k l'))) -> l = l'.
  Proof.
    induction l as [|x l IH]; intros [|y l'] LE CE H; try discriminate; [reflexivity|]. pose proof (H 1%nat ltac:(cbn [length]; lia)) as H1. cbn [firstn concat] in H1. rewrite !app_nil_r in H1. cbn [concat] in CE. apply PropertiesInflate.app_eq_length in CE; [|exact H1]. destruct CE as (-> & CE). f_equal.
    apply IH; [cbn in LE; congruence|exact CE|]. intros k Hk. specialize (H (S k) ltac:(cbn [length]; lia)). cbn [firstn concat] in H. rewrite !app_length in H. lia.
  Qed.

  Lemma same_split F F' : forest_ok d wrap Z T F -> forest_ok d wrap Z T F' -> f_gfp _ _ F' = f_gfp _ _ F -> mesh T F' = mesh T F -> length (f_procs _ _ F') = length (f_procs _ _ F) ->
    map (shape wrap Z T) (f_procs _ _ F') = map (shape wrap Z T) (f_procs _ _ F).
  Proof.
    intros OK OK' GP ME LE. apply concat_cuts; [rewrite !map_length; exact LE|rewrite <- !mesh_shapes; exact ME|]. intros k Hk. rewrite map_length in Hk.
    assert (X : forall ps : list prc, length (concat (firstn k (map (shape wrap Z T) ps))) = length (all_leaves wrap Z T (firstn k ps))).
    { intros ps. rewrite firstn_map. generalize (firstn k ps). clear. induction l as [|p l IH]; [reflexivity|]. unfold all_leaves in *. cbn [map concat flat_map]. rewrite !app_length, IH. unfold shape. rewrite map_length. reflexivity. }
    rewrite !X. destruct (Nat.lt_trichotomy (length (all_leaves wrap Z T (firstn k (f_procs _ _ F')))) (length (all_leaves wrap Z T (firstn k (f_procs _ _ F))))) as [C|[C|C]]; [exfalso|exact C|exfalso].
    - eapply (cut_lt F' F k); eauto; lia.
    - eapply (cut_lt F F' k); eauto; lia.
  Qed.
End Cuts.

(** With the checksum (zlib) true means that the mesh changed.  False means that it did not, or that
    two different meshes have the same number of leaves and the same checksum. *)
Theorem C39_adapt : forall d delay affect T balance have_zlib little fuel (F F' : frst) ch, 0 < T -> forest_ok d wrap Z T F -> Forall (marks_ok T) (f_procs _ _ F) -> balance_ok d T balance ->
  adapt d delay affect T balance have_zlib little fuel F = Some (F', ch) ->
  forest_ok d wrap Z T F' /\ length (f_procs _ _ F') = length (f_procs _ _ F) /\
  (ch = true -> have_zlib = true -> mesh T F' <> mesh T F) /\
  (ch = false -> mesh T F' = mesh T F \/
     have_zlib = true /\ f_gnum _ _ F' = f_gnum _ _ F /\ checksum d wrap Z little F' = checksum d wrap Z little F) /\
  (* unless this has happened the flags are right for the next round *)
  (ch = true \/ mesh T F' = mesh T F -> Forall (fun p => marks_ok T p /\ w_flags (pr_s _ _ p) = repeat 0 (length (rank_leaves wrap Z T p))) (f_procs _ _ F')).
Proof.
  intros d delay affect T balance zl little fuel F F' ch HT OK MO BO E. unfold adapt in E. destruct (adapt_marks d delay affect T fuel F) as [(F2, ch2)|] eqn:E2; [|discriminate].
  destruct (adapt_marks_any d delay affect T HT F fuel F2 ch2 OK MO E2) as (OK2 & GP2 & AR & CH2).
  assert (LN2 : length (f_procs _ _ F2) = length (f_procs _ _ F)) by (apply Forall2_nth in AR; destruct AR as (LE & _); symmetry; exact LE).
  assert (RZ : Forall (fun p => w_refines (pr_s _ _ p) = 0 /\ w_bad (pr_s _ _ p) = false) (f_procs _ _ F2)).
  { clear - AR. induction AR as [|p p' ps ps' (_ & _ & A & B & _) _ IH]; constructor; auto. }
  (* zero flags of the right length *)
  assert (ZERO : forall (p : prc), w_flags (pr_s _ _ p) = repeat 0 (length (rank_leaves wrap Z T p)) -> w_refines (pr_s _ _ p) = 0 -> w_bad (pr_s _ _ p) = false -> marks_ok T p).
  { intros p A B C. unfold marks_ok. rewrite A, repeat_length. split; [reflexivity|]. split; [apply Forall_forall; intros x I; apply repeat_spec in I; left; exact I|]. split; [|exact C]. rewrite B. unfold count1. generalize (length (rank_leaves wrap Z T p)). clear. induction n; [reflexivity|exact IHn]. }
  (* the old flags fit a forest with the old shapes *)
  assert (FIT : forall G : frst, map (pr_s wrap Z) (f_procs _ _ G) = map (pr_s wrap Z) (f_procs _ _ F2) -> map (shape wrap Z T) (f_procs _ _ G) = map (shape wrap Z T) (f_procs _ _ F) ->
    Forall (fun p => w_flags (pr_s _ _ p) = repeat 0 (length (rank_leaves wrap Z T p)) /\ w_refines (pr_s _ _ p) = 0 /\ w_bad (pr_s _ _ p) = false) (f_procs _ _ G)).
  { intros G ES SH. revert ES SH. generalize (f_procs _ _ G). clear - AR. induction AR as [|p p' ps ps' A _ IH]; intros [|g gs] ES SH; try discriminate; [constructor|]. cbn [map] in ES, SH. injection ES as ES1 ES2. injection SH as SH1 SH2. constructor; [|apply IH; assumption].
    destruct A as (A1 & _ & A3 & A4 & _). rewrite ES1. split; [|auto]. rewrite A1. f_equal. apply (f_equal (@length _)) in SH1. unfold shape in SH1. rewrite !map_length in SH1. auto. }
  destruct ch2.
  - destruct (balance F2) as [F3|] eqn:EB; [|discriminate]. destruct (BO F2 F3 OK2 EB) as (OK3 & GP3 & ST3).
    assert (LN3 : length (f_procs _ _ F3) = length (f_procs _ _ F2)) by (apply (f_equal (@length _)) in ST3; rewrite !map_length in ST3; exact ST3).
    assert (CS : mesh T F3 = mesh T F -> f_gnum _ _ F =? f_gnum _ _ F3 = true /\ checksum d wrap Z little F = checksum d wrap Z little F3 /\ checksum d wrap Z little F <> None).
    { intros ME. split.
      - destruct OK as (_ & _ & _ & _ & GN & _). destruct OK3 as (_ & _ & _ & _ & GN3 & _). rewrite GN, GN3. apply (f_equal (@length _)) in ME. unfold mesh in ME. rewrite !map_length in ME. unfold zlen. lia.
      - apply (C41_partition_independent d wrap Z wrap Z T little little F F3 OK OK3). apply (f_equal (map snd)) in ME. unfold mesh in ME. rewrite !map_map in ME. cbn in ME. symmetry. exact ME. }
    destruct (zl && (f_gnum wrap Z F =? f_gnum wrap Z F3) && _) eqn:SM; apply some_inj, pair_equal_spec in E; destruct E as (<- & <-); rewrite mesh_states.
    + split; [apply on_states_ok, OK3|]. split; [rewrite on_states_procs, map_length; lia|]. split; [discriminate|]. apply andb_prop in SM. destruct SM as (SM1 & SM2). apply andb_prop in SM1. destruct SM1 as (-> & SM1). split.
      * intros _. right. split; [reflexivity|]. split; [cbn [on_states f_gnum]; lia|]. assert (CC : forall f, checksum d wrap Z little (on_states f F3) = checksum d wrap Z little F3).
        { intros f. rewrite (C41_checksum d wrap Z T little _ (on_states_ok d T f F3 OK3)), (C41_checksum d wrap Z T little F3 OK3). rewrite on_states_procs, all_leaves_states. reflexivity. }
        rewrite CC. destruct (checksum d wrap Z little F), (checksum d wrap Z little F3); try discriminate. f_equal. lia.
      * intros [C|ME]; [discriminate|]. pose proof (same_split d T HT F F3 OK OK3 (eq_trans GP3 GP2) ME (eq_trans LN3 LN2)) as SH. pose proof (FIT F3 ST3 SH) as FF. rewrite on_states_procs. apply Forall_forall. intros p I. apply in_map_iff in I. destruct I as (p3 & <- & I). rewrite Forall_forall in FF. destruct (FF p3 I) as (A1 & A2 & A3).
        assert (PN : Z.to_nat (pr_num _ _ p3) = length (rank_leaves wrap Z T p3)). { destruct OK3 as (_ & FP & _). rewrite Forall_forall in FP. destruct (FP p3 I) as (_ & N & _). rewrite N. apply Nat2Z.id. }
        assert (CF : clear_flags p3 = mkw (repeat 0 (length (rank_leaves wrap Z T p3))) (w_temp (pr_s _ _ p3)) (w_refines (pr_s _ _ p3)) (w_inside (pr_s _ _ p3)) (w_replaced (pr_s _ _ p3)) false).
        { unfold clear_flags. rewrite A1, repeat_length, PN, Nat.min_id, skipn_all2, app_nil_r, A3, Nat.ltb_irrefl by (rewrite repeat_length; lia). reflexivity. }
        split; [apply ZERO|]; cbn [with_s pr_s]; rewrite CF; [reflexivity|exact A2|reflexivity|reflexivity].
    + split; [apply on_states_ok, OK3|]. split; [rewrite on_states_procs, map_length; lia|]. split; [|split; [discriminate|]].
      * intros _ -> ME. destruct (CS ME) as (C1 & C2 & C3). rewrite C1, <- C2 in SM. destruct (checksum d wrap Z little F); [|contradiction]. cbn [andb] in SM. rewrite Z.eqb_refl in SM. discriminate.
      * intros _. rewrite on_states_procs. apply Forall_forall. intros p I. apply in_map_iff in I. destruct I as (p3 & <- & I). destruct OK3 as (_ & FP & _). rewrite Forall_forall in FP.
        assert (ST : w_refines (pr_s _ _ p3) = 0 /\ w_bad (pr_s _ _ p3) = false). { rewrite Forall_forall in RZ. apply (in_map (pr_s wrap Z)) in I. rewrite ST3 in I. apply in_map_iff in I. destruct I as (p2 & <- & I). apply RZ, I. }
        destruct ST as (R0 & B0). split; [apply (fresh_ok d T p3); auto|]. cbn [with_s pr_s new_flags w_flags]. f_equal. destruct (FP p3 I) as (_ & N & _). rewrite N. apply Nat2Z.id.
  - apply some_inj, pair_equal_spec in E. destruct E as (<- & <-). pose proof (proj1 CH2 eq_refl) as SH. split; [exact OK2|]. split; [exact LN2|]. split; [discriminate|]. split.
    + intros _. left. rewrite !mesh_shapes, SH. reflexivity.
    + intros _. eapply Forall_impl; [|apply (FIT F2 eq_refl SH)]. intros p (A1 & A2 & A3). split; [apply ZERO; assumption|exact A1].
Qed.
Print Assumptions C39_adapt.

(** adapt succeeds if balance does *)
Theorem C39_adapt_exists : forall d delay affect T balance have_zlib little (F : frst), 0 < T -> forest_ok d wrap Z T F -> Forall (marks_ok T) (f_procs _ _ F) ->
  (forall G, forest_ok d wrap Z T G -> exists G', balance G = Some G') ->
  exists n0, forall fuel, (n0 <= fuel)%nat -> exists F' ch, adapt d delay affect T balance have_zlib little fuel F = Some (F', ch).
Proof.
  intros d delay affect T balance zl little F HT OK MO BE. destruct (adapt_marks_ok d delay affect T HT F OK MO) as (n0 & H). exists n0. intros fuel Hf. destruct (H fuel Hf) as (F2 & ch & E). unfold adapt. rewrite E.
  destruct (adapt_marks_any d delay affect T HT F fuel F2 ch OK MO E) as (OK2 & _). destruct ch; [|eauto]. destruct (BE F2 OK2) as (F3 & ->). destruct (_ && _); eauto.
Qed.
Print Assumptions C39_adapt_exists.

(** ** C40: the unchanged window *)

(** [old] and [new] are the leaves of a rank before and after; the window of length ul begins at
    uof in [old] and at uf in [new]; it holds the same leaves, and all that are in both *)
Definition window_ok {A} (old new : list A) (w : Z * Z * Z) : Prop :=
  let '(uf, ul, uof) := w in
  0 <= uf /\ 0 <= ul /\ 0 <= uof /\
  (forall i, 0 <= i < ul -> exists x, nth_error old (Z.to_nat (uof + i)) = Some x /\ nth_error new (Z.to_nat (uf + i)) = Some x) /\
  (forall j k x, nth_error old j = Some x -> nth_error new k = Some x -> exists i, 0 <= i < ul /\ Z.of_nat j = uof + i /\ Z.of_nat k = uf + i).

Lemma window_cut {A} (L a old b a' new b' : list A) : NoDup L -> L = a ++ old ++ b -> L = a' ++ new ++ b' ->
  window_ok old new (partition_unchanged (zlen a) (zlen a + zlen old) (zlen a') (zlen a' + zlen new)).
Proof.
  intros ND E E'.
  assert (N : forall i, (i < length old)%nat -> nth_error old i = nth_error L (length a + i)) by (intros i Hi; rewrite E, nth_error_app2 by lia; replace (length a + i - length a)%nat with i by lia; rewrite nth_error_app1 by lia; reflexivity).
  assert (N' : forall i, (i < length new)%nat -> nth_error new i = nth_error L (length a' + i)) by (intros i Hi; rewrite E', nth_error_app2 by lia; replace (length a' + i - length a')%nat with i by lia; rewrite nth_error_app1 by lia; reflexivity).
  assert (LA : (length a + length old <= length L)%nat) by (rewrite E, !app_length; lia). assert (LA' : (length a' + length new <= length L)%nat) by (rewrite E', !app_length; lia).
  assert (SAME : forall j k x, nth_error old j = Some x -> nth_error new k = Some x -> (j < length old)%nat /\ (k < length new)%nat /\ (length a + j = length a' + k)%nat).
  { intros j k x Hj Hk. assert (Lj : (j < length old)%nat) by (apply nth_error_Some; congruence). assert (Lk : (k < length new)%nat) by (apply nth_error_Some; congruence). split; [exact Lj|]. split; [exact Lk|].
    rewrite N in Hj by exact Lj. rewrite N' in Hk by exact Lk. rewrite NoDup_nth_error in ND. apply ND; [apply nth_error_Some; congruence|congruence]. }
  clear E E' ND. unfold partition_unchanged, zlen in *.
  assert (HAVE : forall u w i, (length a + u = length a' + w)%nat -> (u + i < length old)%nat -> (w + i < length new)%nat -> exists x, nth_error old (u + i) = Some x /\ nth_error new (w + i) = Some x).
  { intros u w i H1 H2 H3. destruct (nth_error old (u + i)) as [x|] eqn:Ex; [|apply nth_error_None in Ex; lia]. exists x. split; [reflexivity|]. rewrite N' by lia. rewrite N in Ex by lia. replace (length a' + (w + i))%nat with (length a + (u + i))%nat by lia. exact Ex. }
  destruct ((_ <? _) && (_ <? _)) eqn:C.
  - destruct (Z.of_nat (length a) <=? Z.of_nat (length a')) eqn:C2; unfold window_ok.
    + split; [lia|]. split; [lia|]. split; [lia|]. split.
      * intros i Hi. destruct (HAVE (length a' - length a)%nat 0%nat (Z.to_nat i)) as (x & H1 & H2); [lia..|]. exists x. replace (Z.to_nat (_ + i)) with (length a' - length a + Z.to_nat i)%nat by lia. replace (Z.to_nat (0 + i)) with (0 + Z.to_nat i)%nat by lia. auto.
      * intros j k x Hj Hk. destruct (SAME j k x Hj Hk) as (S1 & S2 & S3). exists (Z.of_nat k). lia.
    + split; [lia|]. split; [lia|]. split; [lia|]. split.
      * intros i Hi. destruct (HAVE 0%nat (length a - length a')%nat (Z.to_nat i)) as (x & H1 & H2); [lia..|]. exists x. replace (Z.to_nat (Z.of_nat (length a) - Z.of_nat (length a') + i)) with (length a - length a' + Z.to_nat i)%nat by lia. replace (Z.to_nat (0 + i)) with (0 + Z.to_nat i)%nat by lia. auto.
      * intros j k x Hj Hk. destruct (SAME j k x Hj Hk) as (S1 & S2 & S3). exists (Z.of_nat j). lia.
  - unfold window_ok. split; [lia|]. split; [lia|]. split; [lia|]. split; [intros i Hi; lia|]. intros j k x Hj Hk. destruct (SAME j k x Hj Hk) as (S1 & S2 & S3). exfalso. lia.
Qed.

Lemma leaves_nodup d T F : 0 < T -> forest_ok d wrap Z T F -> NoDup (all_leaves wrap Z T (f_procs _ _ F)).
Proof.
  intros HT OK. destruct (C31_valid_forest d wrap Z T F HT OK) as (_ & W & _). pose proof (leaves_order d wrap Z T HT F OK) as S. revert W S. generalize (all_leaves wrap Z T (f_procs _ _ F)). clear. induction l as [|x l IH]; intros W S; constructor.
  - intros I. inversion S as [|? ? _ FA]; subst. rewrite Forall_forall in FA. specialize (FA x I). destruct (W x (or_introl eq_refl)) as (_ & Wx). pose proof (size_pos d _ Wx). lia.
  - apply IH; [intros; apply W; right; assumption|inversion S; assumption].
Qed.

Lemma rank_window d T F k p : 0 < T -> forest_ok d wrap Z T F -> nth_error (f_procs _ _ F) k = Some p -> exists a b,
  all_leaves wrap Z T (f_procs _ _ F) = a ++ rank_leaves wrap Z T p ++ b /\ nth k (f_gfq _ _ F) 0 = zlen a /\ nth (S k) (f_gfq _ _ F) 0 = zlen a + zlen (rank_leaves wrap Z T p).
Proof.
  intros HT OK E. destruct (C31_valid_forest d wrap Z T F HT OK) as (_ & _ & _ & _ & _ & G & _). assert (Hk : (k < length (f_procs _ _ F))%nat) by (apply nth_error_Some; congruence).
  pose proof (G k ltac:(lia)) as G1. pose proof (G (S k) ltac:(lia)) as G2. apply nth_error_split in E. destruct E as (l1 & l2 & EP & EL). subst k. rewrite EP in *.
  exists (all_leaves wrap Z T l1), (all_leaves wrap Z T l2). split; [unfold all_leaves; rewrite flat_map_app; reflexivity|].
  rewrite firstn_app, Nat.sub_diag, firstn_all in G1. cbn [firstn] in G1. rewrite app_nil_r in G1. rewrite firstn_app in G2. replace (S (length l1) - length l1)%nat with 1%nat in G2 by lia. rewrite firstn_all2 in G2 by lia. cbn [firstn] in G2.
  split; [apply nth_error_nth; exact G1|]. apply nth_error_nth with (d := 0) in G2. rewrite G2. unfold all_leaves, zlen. rewrite flat_map_app, app_length. cbn [flat_map]. rewrite app_nil_r. unfold rank_leaves. lia.
Qed.

Lemma shipped_nonneg d T prec w (F F' : frst) sh : 0 < T <= 2 ^ 31 - 1 -> 53 <= prec <= 64 -> forest_ok d wrap Z T F -> zlen (f_procs _ _ F) < 2 ^ 31 -> f_gnum _ _ F < 2 ^ 63 -> weights_ok wrap Z w F ->
  partition_ext d wrap Z T prec w F = Some (F', sh) -> 0 <= sh.
Proof.
  intros HT PREC OK HP HG HW E. unfold partition_ext in E. destruct (_ =? 1); [injection E as _ <-; lia|].
  destruct (PropertiesPartCoarse.proposed_ok d wrap Z T prec w F HT PREC OK HP HG HW) as [(f & _ & _ & EC)|(counts & EC & L & FC & SC)]; unfold PartCoarse.proposed_counts in EC; rewrite EC in E; [injection E as _ <-; lia|].
  destruct (ForestPart.given_ok d wrap Z T ltac:(lia) F counts ltac:(lia) OK) as (F1 & EG & _); [unfold zlen in L; lia|exact FC|unfold PartShip.total; rewrite SC; apply OK|]. rewrite EG in E. injection E as _ <-. unfold differ, zlen. lia.
Qed.

(** p4est_wrap_partition succeeds, keeps all leaves with their data, and reports for every rank
    exactly the leaves that it had before and has after.  It returns false exactly if no leaf has
    changed its rank.  Flags that were right and zero are so afterwards. *)
Theorem C40_partition : forall d T prec exponent (F : frst), 0 < T <= 2 ^ 31 - 1 -> 53 <= prec <= 64 -> forest_ok d wrap Z T F ->
  zlen (f_procs _ _ F) < 2 ^ 31 -> f_gnum _ _ F < 2 ^ 63 -> weights_ok wrap Z (if exponent =? 0 then None else Some (partition_weight exponent)) F ->
  exists F' ws changed, wrap_partition d T prec exponent F = Some (F', ws, changed) /\
    forest_ok d wrap Z T F' /\ all_leaves wrap Z T (f_procs _ _ F') = all_leaves wrap Z T (f_procs _ _ F) /\
    length (f_procs _ _ F') = length (f_procs _ _ F) /\ length ws = length (f_procs _ _ F) /\
    (forall k p p' w, nth_error (f_procs _ _ F) k = Some p -> nth_error (f_procs _ _ F') k = Some p' -> nth_error ws k = Some w -> window_ok (rank_leaves wrap Z T p) (rank_leaves wrap Z T p') w) /\
    (changed = false <-> map (rank_leaves wrap Z T) (f_procs _ _ F') = map (rank_leaves wrap Z T) (f_procs _ _ F)) /\
    (Forall (fun p => marks_ok T p /\ w_refines (pr_s _ _ p) = 0) (f_procs _ _ F) ->
     Forall (fun p => marks_ok T p /\ w_flags (pr_s _ _ p) = repeat 0 (length (rank_leaves wrap Z T p))) (f_procs _ _ F')).
Proof.
  intros d T prec ex F HT PREC OK HP HG HW. destruct (partition_ext_ok d wrap Z T ltac:(lia) prec PREC _ F ltac:(lia) OK HP HG HW) as (F' & sh & E & OK' & AL & ST & RV & RV2 & SH & _). unfold wrap_partition. rewrite E.
  assert (LE : length (f_procs _ _ F') = length (f_procs _ _ F)) by (apply (f_equal (@length _)) in ST; rewrite !map_length in ST; exact ST).
  assert (RL : forall f, map (rank_leaves wrap Z T) (f_procs _ _ (on_states f F')) = map (rank_leaves wrap Z T) (f_procs _ _ F')) by (intros f; rewrite on_states_procs, map_map; reflexivity).
  assert (NN : forall p, In p (f_procs _ _ F') -> Z.to_nat (pr_num _ _ p) = length (rank_leaves wrap Z T p)). { intros p I. destruct OK' as (_ & FP & _). rewrite Forall_forall in FP. destruct (FP p I) as (_ & N & _). rewrite N. apply Nat2Z.id. }
  assert (WIN : forall k p p', nth_error (f_procs _ _ F) k = Some p -> nth_error (f_procs _ _ F') k = Some p' -> window_ok (rank_leaves wrap Z T p) (rank_leaves wrap Z T p') (partition_unchanged (nth k (f_gfq _ _ F) 0) (nth (S k) (f_gfq _ _ F) 0) (nth k (f_gfq _ _ F') 0) (nth (S k) (f_gfq _ _ F') 0))).
  { intros k p p' Ek Ek'. destruct (rank_window d T F k p ltac:(lia) OK Ek) as (a & b & EL & -> & ->). destruct (rank_window d T F' k p' ltac:(lia) OK' Ek') as (a' & b' & EL' & -> & ->). rewrite AL in EL'. apply (window_cut _ a _ b a' _ b' (leaves_nodup d T F ltac:(lia) OK) EL EL'). }
  pose proof (shipped_nonneg d T prec _ F F' sh HT PREC OK HP HG HW E) as NB.
  destruct (sh >? 0) eqn:C.
  - exists (on_states new_flags F'). eexists. exists true. split; [reflexivity|]. split; [apply on_states_ok, OK'|]. rewrite on_states_procs, all_leaves_states, !map_length, seq_length. split; [exact AL|]. split; [exact LE|]. split; [exact LE|]. split; [|split].
    + intros k p p' w Ek Ek' Ew. apply nth_map_some in Ek'. destruct Ek' as (p1 & Ek' & ->). apply nth_map_some in Ew. destruct Ew as (r & Er & ->).
      assert (r = k). { assert (Hk : (k < length (f_procs _ _ F'))%nat) by (apply nth_error_Some; congruence). apply nth_error_nth with (d := 0%nat) in Er. rewrite seq_nth in Er by exact Hk. lia. } subst r. exact (WIN k p p1 Ek Ek').
    + split; [discriminate|]. rewrite <- on_states_procs, RL. intros X. apply RV2, SH in X. lia.
    + intros FA. apply Forall_forall. intros p I. apply in_map_iff in I. destruct I as (p1 & <- & I). destruct OK' as (_ & FP & _). rewrite Forall_forall in FP.
      assert (S0 : w_refines (pr_s _ _ p1) = 0 /\ w_bad (pr_s _ _ p1) = false). { pose proof I as J. apply (in_map (pr_s wrap Z)) in J. rewrite ST in J. apply in_map_iff in J. destruct J as (p0 & <- & J). rewrite Forall_forall in FA. destruct (FA p0 J) as ((_ & _ & _ & B) & R). auto. }
      destruct S0 as (R & B). split; [apply (fresh_ok d T p1); auto|]. cbn [with_s pr_s new_flags w_flags]. rewrite (NN p1 I). reflexivity.
  - assert (sh = 0) by lia. assert (SAME : map (rank_leaves wrap Z T) (f_procs _ _ F') = map (rank_leaves wrap Z T) (f_procs _ _ F)) by (apply RV2, SH; assumption).
    exists (on_states clear_flags F'). eexists. exists false. split; [reflexivity|]. split; [apply on_states_ok, OK'|]. rewrite on_states_procs, all_leaves_states, !map_length. split; [exact AL|]. split; [exact LE|]. split; [exact LE|]. split; [|split].
    + intros k p p' w Ek Ek' Ew. apply nth_map_some in Ek', Ew. destruct Ek' as (p1 & Ek' & ->), Ew as (p1' & Ew & ->). rewrite Ek' in Ew. injection Ew as <-. change (rank_leaves wrap Z T (with_s _ p1)) with (rank_leaves wrap Z T p1).
      assert (EQ : rank_leaves wrap Z T p1 = rank_leaves wrap Z T p) by (assert (X : nth_error (map (rank_leaves wrap Z T) (f_procs _ _ F')) k = nth_error (map (rank_leaves wrap Z T) (f_procs _ _ F)) k) by (rewrite SAME; reflexivity); rewrite !nth_error_map, Ek, Ek' in X; cbn in X; congruence).
      pose proof (NN p1 (nth_error_In _ _ Ek')) as N1. destruct (rank_window d T F k p ltac:(lia) OK Ek) as (a & b & EL & _). rewrite EQ in *. pose proof (window_cut _ a _ b a _ b (leaves_nodup d T F ltac:(lia) OK) EL EL) as W.
      assert (PP : 0 <= pr_num _ _ p1). { destruct OK' as (_ & FP & _). rewrite Forall_forall in FP. destruct (FP p1 (nth_error_In _ _ Ek')) as (_ & N & _). rewrite N. unfold lvs_before, zlen. lia. }
      destruct (rank_leaves wrap Z T p) as [|x l] eqn:ER.
      * replace (pr_num _ _ p1) with 0 by (cbn in N1; lia). unfold window_ok. split; [lia|]. split; [lia|]. split; [lia|]. split; [lia|]. intros [|j]; discriminate.
      * unfold partition_unchanged in W. replace (_ && _) with true in W by (unfold zlen; cbn [length]; lia). rewrite Z.leb_refl in W. replace (Z.min _ _ - zlen a) with (pr_num _ _ p1) in W by (unfold zlen in *; cbn [length] in *; lia). rewrite Z.sub_diag in W. exact W.
    + rewrite <- on_states_procs, RL. split; auto.
    + intros FA. apply Forall_forall. intros p I. apply in_map_iff in I. destruct I as (p1 & <- & I). apply In_nth_error in I. destruct I as (k & Ek').
      destruct (nth_error (f_procs _ _ F) k) as [p|] eqn:Ek; [|exfalso; apply nth_error_None in Ek; assert (k < length (f_procs _ _ F'))%nat by (apply nth_error_Some; congruence); lia].
      rewrite Forall_forall in FA. destruct (FA p (nth_error_In _ _ Ek)) as ((M1 & M2 & M3 & M4) & R).
      assert (EQ : rank_leaves wrap Z T p1 = rank_leaves wrap Z T p) by (assert (X : nth_error (map (rank_leaves wrap Z T) (f_procs _ _ F')) k = nth_error (map (rank_leaves wrap Z T) (f_procs _ _ F)) k) by (rewrite SAME; reflexivity); rewrite !nth_error_map, Ek, Ek' in X; cbn in X; congruence).
      assert (EQ2 : pr_s _ _ p1 = pr_s _ _ p) by (assert (X : nth_error (map (pr_s wrap Z) (f_procs _ _ F')) k = nth_error (map (pr_s wrap Z) (f_procs _ _ F)) k) by (rewrite ST; reflexivity); rewrite !nth_error_map, Ek, Ek' in X; cbn in X; congruence).
      pose proof (NN p1 (nth_error_In _ _ Ek')) as N1.
      assert (CF : clear_flags p1 = new_flags p1). { unfold clear_flags, new_flags. rewrite EQ2, M1, <- EQ, <- N1, Nat.min_id, Nat.ltb_irrefl, skipn_all2, app_nil_r by (rewrite M1, <- EQ; lia). rewrite M4. reflexivity. }
      rewrite CF. destruct OK' as (_ & FP & _). rewrite Forall_forall in FP. split; [apply (fresh_ok d T p1); [apply FP, (nth_error_In _ _ Ek')|rewrite EQ2; exact R|rewrite EQ2; exact M4]|]. cbn [with_s pr_s new_flags w_flags]. rewrite N1. reflexivity.
Qed.
Print Assumptions C40_partition.

(** ** C38 over any history of calls *)
Section History.
  Variable d : dim.
  Variables (delay : Z) (affect : bool) (T prec : Z) (have_zlib little : bool).

  (** one call; p4est_wrap_partition is allowed only with no leaf marked, as directly after
      p4est_wrap_adapt, and the checksum must not fail *)
  Inductive wrap_call : frst -> frst -> Prop :=
  | wc_mark F l1 p l2 c : f_procs _ _ F = l1 ++ p :: l2 -> call_valid T p c ->
      wrap_call F (mkforest _ _ (l1 ++ mark p c :: l2) (f_gfq _ _ F) (f_gfp _ _ F) (f_gnum _ _ F) (f_rev _ _ F))
  | wc_adapt balance fuel F F' ch : balance_ok d T balance -> adapt d delay affect T balance have_zlib little fuel F = Some (F', ch) ->
      ch = true \/ mesh T F' = mesh T F -> wrap_call F F'
  | wc_partition exponent F F' ws ch : Forall (fun p => w_refines (pr_s _ _ p) = 0) (f_procs _ _ F) -> f_gnum _ _ F < 2 ^ 63 ->
      weights_ok wrap Z (if exponent =? 0 then None else Some (partition_weight exponent)) F ->
      wrap_partition d T prec exponent F = Some (F', ws, ch) -> wrap_call F F'.
  Inductive wrap_history : frst -> frst -> Prop :=
  | wh_nil F : wrap_history F F
  | wh_call F F1 F2 : wrap_history F F1 -> wrap_call F1 F2 -> wrap_history F F2.

  Theorem C38_histories : forall F F', 0 < T <= 2 ^ 31 - 1 -> 53 <= prec <= 64 -> zlen (f_procs _ _ F) < 2 ^ 31 ->
    forest_ok d wrap Z T F -> Forall (marks_ok T) (f_procs _ _ F) -> wrap_history F F' ->
    forest_ok d wrap Z T F' /\ Forall (marks_ok T) (f_procs _ _ F') /\ length (f_procs _ _ F') = length (f_procs _ _ F).
  Proof.
    intros F F' HT PREC HP OK MO H. induction H as [F|F F1 F2 _ IH C]; [auto|]. destruct (IH HP OK MO) as (OK1 & MO1 & L1). clear IH OK MO. destruct C as [F1 l1 p l2 c EP V|balance fuel F1 F2 ch BO E NC|ex F1 F2 ws ch R0 HG HW E].
    - cbn [f_procs]. rewrite EP in *.
      assert (PO : proc_ok d wrap Z T p). { destruct OK1 as (_ & FP & _). rewrite EP in FP. apply Forall_app in FP. destruct FP as (_ & FP). inversion FP; auto. }
      assert (MP : marks_ok T p) by (apply Forall_app in MO1; destruct MO1 as (_ & M); inversion M; auto).
      destruct c as ((k, t), i). cbn [call_valid] in V. destruct V as (Ht & Hi). destruct (mark_step d T p k t i ltac:(lia) PO MP Ht Hi) as (a & m & b & _ & _ & _ & MO' & WS). set (p1 := mark p (k, t, i)) in *.
      assert (SP : forall {B} (f : prc -> B), (forall s, f (with_s s p) = f p) -> map f (l1 ++ p1 :: l2) = map f (l1 ++ p :: l2)) by (intros B f Hf; rewrite !map_app; cbn [map]; rewrite WS, Hf; reflexivity).
      split; [|split; [|rewrite <- L1, !app_length; reflexivity]].
      + destruct OK1 as (A1 & A2 & A3 & A4 & A5 & A6 & A7). rewrite EP in *.
        assert (AL : all_leaves wrap Z T (l1 ++ p1 :: l2) = all_leaves wrap Z T (l1 ++ p :: l2)) by (unfold all_leaves; rewrite !flat_map_app; cbn [flat_map]; rewrite WS; reflexivity).
        unfold forest_ok. cbn [f_procs f_gnum f_gfq f_gfp]. rewrite AL. split; [destruct l1; discriminate|]. split; [|split; [exact A3|split; [|split; [exact A5|split]]]].
        * apply Forall_app in A2. destruct A2 as (B1 & B2). inversion B2. apply Forall_app. split; [exact B1|]. constructor; [rewrite WS; apply with_s_ok; assumption|assumption].
        * intros u Hu. replace (flat_map (fun p => lvs wrap Z p u) (l1 ++ p1 :: l2)) with (flat_map (fun p => lvs wrap Z p u) (l1 ++ p :: l2)) by (rewrite !flat_map_app; cbn [flat_map]; rewrite WS; reflexivity). apply A4, Hu.
        * rewrite (SP Z (pr_num wrap Z)) by reflexivity. exact A6.
        * rewrite (SP _ (rk_of wrap Z)) by reflexivity. exact A7.
      + apply Forall_app in MO1. destruct MO1 as (B1 & B2). inversion B2. apply Forall_app. split; [exact B1|]. constructor; assumption.
    - destruct (C39_adapt d delay affect T balance have_zlib little fuel F1 F2 ch ltac:(lia) OK1 MO1 BO E) as (O & L & _ & _ & M). split; [exact O|]. split; [|lia]. eapply Forall_impl; [|apply M, NC]. intros p (A & _). exact A.
    - destruct (C40_partition d T prec ex F1 HT PREC OK1 ltac:(unfold zlen in *; lia) HG HW) as (F3 & ws3 & ch3 & E3 & O & _ & L & _ & _ & _ & M). rewrite E in E3. injection E3 as <- <- <-. split; [exact O|]. split; [|lia].
      assert (X : Forall (fun p => marks_ok T p /\ w_refines (pr_s _ _ p) = 0) (f_procs _ _ F1)) by (rewrite Forall_forall in *; auto). eapply Forall_impl; [|apply (M X)]. intros p (A & _). exact A.
  Qed.
End History.
Print Assumptions C38_histories.

(** ** Examples *)
Definition fresh : wrap := mkw [] [] 0 0 0 false.
(** four trees, one on each of four ranks; trees 1 and 2 are refined once *)
Definition y_new : option frst := new_ext D2 wrap Z 4 53 init_null 1 0 true 0 [fresh; fresh; fresh; fresh].
Definition y_start : option frst :=
  match y_new with
  | None => None
  | Some F => option_map (on_states new_flags) (refine_ext D2 wrap Z 4 init_null (fun s t q v => (s, v, (t =? 1) || (t =? 2))) None false (-1) 100 F)
  end.
(** the calls of the ranks: refine the roots, coarsen the families *)
Definition y_calls (p : prc) : list mark_call :=
  let t := pr_first _ _ p in
  if (t =? 1) || (t =? 2) then map (fun i => (false, t, i)) [0; 1; 2; 3] else [(false, t, 0); (true, t, 0)].
Definition y_marked : option frst := option_map (on_states (fun p => pr_s _ _ (fold_left mark (y_calls p) p))) y_start.

Lemma y_new_ok : exists F, y_new = Some F /\ forest_ok D2 wrap Z 4 F.
Proof.
  assert (I4 : initial_level D2 4 1 0 (zlen [fresh; fresh; fresh; fresh]) = Some (0, 1)) by (vm_compute; reflexivity).
  assert (NE : [fresh; fresh; fresh; fresh] <> []) by discriminate. assert (L4 : zlen [fresh; fresh; fresh; fresh] < 2 ^ 31) by (unfold zlen; cbn [length]; lia).
  destruct (C34_new_ext D2 wrap Z 4 53 init_null 1 0 true [fresh; fresh; fresh; fresh] 0 1 ltac:(lia) ltac:(lia) NE L4 I4) as (n0 & H).
  destruct (H n0 ltac:(lia)) as (F0 & E0 & OK0 & _). exists F0. split; [exact E0|exact OK0].
Qed.
Lemma y_view : option_map (fun F => (map (fun p => (w_refines (pr_s wrap Z p), w_bad (pr_s wrap Z p))) (f_procs wrap Z F), forallb (fun p => forallb (fun c : mark_call => let '(_, t, i) := c in (0 <=? t) && (t <? 4) && (0 <=? i) && (i <? zlen (lvs wrap Z p t))) (y_calls p)) (f_procs wrap Z F))) y_start = Some ([(0, false); (0, false); (0, false); (0, false)], true).
Proof. vm_compute. reflexivity. Qed.
Definition y_ref (F : frst) := refine_ext D2 wrap Z 4 init_null (fun s t q v => (s, v, (t =? 1) || (t =? 2))) None false (-1) 100 F.
Lemma y_start_eq : y_start = match y_new with None => None | Some F => option_map (on_states new_flags) (y_ref F) end.
Proof. reflexivity. Qed.
Lemma y_ok : exists F, y_start = Some F /\ forest_ok D2 wrap Z 4 F /\ Forall (marks_ok 4) (f_procs _ _ F) /\ Forall (fun p => Forall (call_valid 4 p) (y_calls p)) (f_procs _ _ F).
Proof.
  destruct y_new_ok as (F0 & E0' & OK0).
  pose proof y_view as V. rewrite y_start_eq, E0' in *.
  destruct (y_ref F0) as [F1|] eqn:ER; [|discriminate V]. cbn [option_map] in *. eexists. split; [reflexivity|]. unfold y_ref in ER.
  destruct (C31_refine D2 wrap Z 4 _ _ _ _ (-1) _ F0 F1 ltac:(lia) ltac:(lia) OK0 ER) as (OK1 & _).
  cbn [option_map] in V. apply some_inj, pair_equal_spec in V. destruct V as (V1 & V2). split; [apply on_states_ok, OK1|]. rewrite forallb_forall in V2. split.
  - rewrite on_states_procs in *. apply Forall_forall. intros p I. apply in_map_iff in I. destruct I as (p1 & <- & I). destruct OK1 as (_ & FP & _). rewrite Forall_forall in FP.
    assert (J : In (w_refines (pr_s wrap Z p1), w_bad (pr_s wrap Z p1)) [(0, false); (0, false); (0, false); (0, false)]) by (rewrite <- V1, map_map; apply in_map_iff; exists p1; auto).
    apply (fresh_ok D2 4 p1 (FP p1 I)); cbn [In] in J; intuition congruence.
  - apply Forall_forall. intros p I. specialize (V2 p I). rewrite forallb_forall in V2. apply Forall_forall. intros ((k, t), i) J. specialize (V2 _ J). cbn beta iota in V2. unfold call_valid. lia.
Qed.
Lemma y_marked_ok : exists F, y_marked = Some F /\ forest_ok D2 wrap Z 4 F /\ Forall (marks_ok 4) (f_procs _ _ F).
Proof.
  destruct y_ok as (F & E & OK & MO & FV). unfold y_marked. rewrite E. eexists. split; [reflexivity|]. split; [apply on_states_ok, OK|]. rewrite on_states_procs. apply Forall_forall. intros p I. apply in_map_iff in I. destruct I as (p1 & <- & I).
  pose proof OK as (_ & FP & _). rewrite Forall_forall in FP, MO, FV. destruct (C38_marks D2 4 (y_calls p1) p1 ltac:(lia) (FP p1 I) (MO p1 I) (FV p1 I)) as (A & _ & B & _). unfold marks_ok in *. cbn [with_s pr_s]. change (rank_leaves wrap Z 4 (with_s _ p1)) with (rank_leaves wrap Z 4 p1). rewrite <- A. exact B.
Qed.

Definition y_show (F : frst) := map (fun p => (map (fun x => (fst x, ql (fst (snd x)), snd (snd x))) (rank_leaves wrap Z 4 p), w_flags (pr_s _ _ p), w_refines (pr_s _ _ p))) (f_procs _ _ F).
Example C38_ex_marks : option_map y_show y_marked =
  Some [([(0, 0, 0)], [1], 1); ([(1, 1, 0); (1, 1, 0); (1, 1, 0); (1, 1, 0)], [2; 2; 2; 2], 0); ([(2, 1, 0); (2, 1, 0); (2, 1, 0); (2, 1, 0)], [2; 2; 2; 2], 0); ([(3, 0, 0)], [1], 1)].
Proof. vm_compute. reflexivity. Qed.
(** the marked leaves are refined and the marked families are coarsened *)
Example C38_ex_adapt : match y_marked with Some F => option_map (fun r => (y_show (fst r), snd r)) (adapt_marks D2 0 false 4 100 F) | None => None end =
  Some ([([(0, 1, 0); (0, 1, 0); (0, 1, 0); (0, 1, 0)], [0], 0); ([(1, 0, 0)], [0; 0; 0; 0], 0); ([(2, 0, 0)], [0; 0; 0; 0], 0); ([(3, 1, 0); (3, 1, 0); (3, 1, 0); (3, 1, 0)], [0], 0)], true).
Proof. vm_compute. reflexivity. Qed.
(** with coarsen_delay 3 the new leaves start at 0, the families are too recent, and their ages grow *)
Example C38_ex_delay : match y_marked with Some F => option_map (fun r => (y_show (fst r), snd r)) (adapt_marks D2 3 false 4 100 F) | None => None end =
  Some ([([(0, 1, 0); (0, 1, 0); (0, 1, 0); (0, 1, 0)], [0], 0); ([(1, 1, 1); (1, 1, 1); (1, 1, 1); (1, 1, 1)], [0; 0; 0; 0], 0); ([(2, 1, 1); (2, 1, 1); (2, 1, 1); (2, 1, 1)], [0; 0; 0; 0], 0); ([(3, 1, 0); (3, 1, 0); (3, 1, 0); (3, 1, 0)], [0], 0)], true).
Proof. vm_compute. reflexivity. Qed.
Example C38_ex_hyps : exists F, forest_ok D2 wrap Z 4 F /\ Forall (marks_ok 4) (f_procs _ _ F) /\ exists p t q v, In p (f_procs _ _ F) /\ has_mark 4 p t q v 1.
Proof.
  destruct y_marked_ok as (F & E & OK & MO). exists F. split; [exact OK|]. split; [exact MO|].
  assert (V : option_map (fun F => match f_procs wrap Z F with p :: _ => (nth_error (rank_leaves wrap Z 4 p) 0, nth_error (w_flags (pr_s wrap Z p)) 0) | [] => (None, None) end) y_marked = Some (Some (0, (mkq 0 0 0 0, 0)), Some 1)) by (vm_compute; reflexivity).
  rewrite E in V. cbn [option_map] in V. apply some_inj in V. destruct (f_procs wrap Z F) as [|p ps] eqn:EP; [discriminate V|]. apply pair_equal_spec in V. exists p, 0, (mkq 0 0 0 0), 0. split; [left; reflexivity|]. exists 0%nat. exact V.
Qed.

(** the balance changes nothing here; and a balance that undoes everything is reported with zlib *)
Example C39_ex_balance_ok : balance_ok D2 4 (fun F => Some F).
Proof. intros G G' OK E. injection E as <-. auto. Qed.

(** The value returned can be wrong.  Adler-32 of the four trees with 1, 4, 4 and 1 leaves is that of
    4, 1, 1 and 4: with any balance that leaves forests of levels 0 and 1 as they are, false is
    returned although every tree has changed, and on two ranks four bytes of an array of one byte
    are set to zero. *)
Theorem C39_reports_change_refuted : exists d T (F : frst), forest_ok d wrap Z T F /\ Forall (marks_ok T) (f_procs _ _ F) /\
  forall balance little, (forall G, (forall x, In x (all_leaves wrap Z T (f_procs _ _ G)) -> ql (fst (snd x)) <= 1) -> balance G = Some G) ->
  exists F', adapt d 0 false T balance true little 100 F = Some (F', false) /\
    (forall x, In x (mesh T F') -> ~ In x (mesh T F)) /\
    exists p, In p (f_procs _ _ F') /\ w_bad (pr_s _ _ p) = true.
Proof.
  destruct y_marked_ok as (F & E & OK & MO). exists D2, 4, F. split; [exact OK|]. split; [exact MO|]. intros balance little HB.
  set (view := fun F => option_map (fun r => (snd r, f_gnum wrap Z F =? f_gnum wrap Z (fst r),
    match checksum D2 wrap Z true F, checksum D2 wrap Z true (fst r) with Some a, Some b => a =? b | _, _ => false end,
    match checksum D2 wrap Z false F, checksum D2 wrap Z false (fst r) with Some a, Some b => a =? b | _, _ => false end,
    forallb (fun x => ql (fst (snd x)) <=? 1) (all_leaves wrap Z 4 (f_procs wrap Z (fst r))),
    forallb (fun x => forallb (fun y => negb ((fst x =? fst y) && (ql (snd x) =? ql (snd y)))) (mesh 4 F)) (mesh 4 (fst r)),
    existsb (fun p => w_bad (clear_flags p)) (f_procs wrap Z (fst r)))) (adapt_marks D2 0 false 4 100 F)).
  assert (V : match y_marked with Some F => view F | None => None end = Some (true, true, true, true, true, true, true)) by (vm_compute; reflexivity).
  rewrite E in V. unfold view in V. clear view. unfold adapt. destruct (adapt_marks D2 0 false 4 100 F) as [(F2, ch)|]; [|discriminate]. cbn [option_map fst snd] in V. apply some_inj in V.
  repeat match goal with H : (_, _) = (_, _) |- _ => apply pair_equal_spec in H; destruct H as (H & ?) end. subst ch. rewrite forallb_forall in *.
  match goal with H : forall x, In x (all_leaves _ _ _ _) -> _ |- _ => rename H into LV end. rewrite HB by (intros x I; specialize (LV x I); cbn beta in LV; lia).
  assert (CS : true && (f_gnum wrap Z F =? f_gnum wrap Z F2) && match checksum D2 wrap Z little F with Some a => match checksum D2 wrap Z little F2 with Some b => a =? b | None => false end | None => false end = true) by (destruct little; cbn [andb]; apply andb_true_intro; auto).
  rewrite CS. eexists. split; [reflexivity|]. split.
  - rewrite mesh_states. intros x I J. match goal with H : forall x, In x (mesh 4 F2) -> _ |- _ => specialize (H x I); rewrite forallb_forall in H; specialize (H x J) end. rewrite !Z.eqb_refl in *. discriminate.
  - match goal with H : existsb _ _ = true |- _ => apply existsb_exists in H; destruct H as (p & I & B) end. rewrite on_states_procs. exists (with_s (clear_flags p) p). split; [apply in_map_iff; exists p; auto|exact B].
Qed.
Print Assumptions C39_reports_change_refuted.

(** partition: the one leaf of rank 0 is joined by two of tree 1, and so on *)
Example C40_ex : match y_start with Some F => option_map (fun r => let '(F', ws, ch) := r in (f_gfq _ _ F, f_gfq _ _ F', ws, ch)) (wrap_partition D2 4 53 0 F) | None => None end =
  Some ([0; 1; 5; 9; 10], [0; 2; 5; 7; 10], [(0, 1, 0); (0, 3, 1); (0, 2, 0); (2, 1, 0)], true).
Proof. vm_compute. reflexivity. Qed.
Example C40_ex_weight : match y_start with Some F => option_map (fun r => let '(F', ws, ch) := r in (f_gfq _ _ F', ws, ch)) (wrap_partition D2 4 53 1 F) | None => None end =
  Some ([0; 3; 5; 7; 10], [(0, 1, 0); (0, 2, 2); (0, 2, 0); (2, 1, 0)], true).
Proof. vm_compute. reflexivity. Qed.
Example C40_ex_hyps : exists F, y_start = Some F /\ forest_ok D2 wrap Z 4 F /\ zlen (f_procs _ _ F) < 2 ^ 31 /\ f_gnum _ _ F < 2 ^ 63 /\ weights_ok wrap Z (Some (partition_weight 1)) F.
Proof.
  destruct y_ok as (F & E & OK & _). exists F. split; [exact E|]. split; [exact OK|].
  assert (V : option_map (fun F => (zlen (f_procs wrap Z F) <? 2 ^ 31, f_gnum wrap Z F <? 2 ^ 63, map (weights wrap Z (partition_weight 1)) (f_procs wrap Z F))) y_start = Some (true, true, [[1]; [2; 2; 2; 2]; [2; 2; 2; 2]; [1]])) by (vm_compute; reflexivity).
  rewrite E in V. cbn [option_map] in V. apply some_inj in V. apply pair_equal_spec in V. destruct V as (V & V3). apply pair_equal_spec in V. destruct V as (V1 & V2). split; [lia|]. split; [lia|]. unfold weights_ok. rewrite V3. split; [repeat constructor; lia|vm_compute; reflexivity].
Qed.
