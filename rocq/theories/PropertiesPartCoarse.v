(** * C21, C22: partition for coarsening *)

From Coq Require Import ZArith List Bool Lia Arith ZifyBool.
From Verif Require Import Quad Spec Interval QuadLemmas DescLemmas Search Adapt ListLemmas Partition PartLemmas PartTrees PartRecv PartShip Comm CommLemmas Weighted WeightedLemmas PropertiesWeighted Forest ForestSpec ForestLemmas ForestPart ForestOps PartCoarse PartCoarseLemmas PartCoarseMsg PartCoarseFam PartCoarseCorr PartCoarseAll PropertiesForest.
Import ListNotations.
Open Scope Z_scope.

(** ** Specification *)

(** the trees and leaves in the order of the forest: number k is the leaf with global index k *)
Definition in_order {St D} (T : Z) (F : forest St D) : list (Z * quad) := map (fun x => (fst x, fst (snd x))) (all_leaves St D T (f_procs _ _ F)).

(** the leaves m .. m + 2^d - 1 are the children of [p] in tree [t] *)
Definition family_at d (G : list (Z * quad)) (m t : Z) (p : quad) : Prop :=
  wf d p /\ ql p < 29 /\ forall k, 0 <= k < children d -> zget G (m + k) = Some (t, child d p k).

(** how many of the leaves m .. m + 2^d - 1 rank [i] has if the ranks have [counts] leaves *)
Definition held d (counts : list Z) (m : Z) (i : nat) : Z :=
  Z.max 0 (Z.min (pre counts (S i)) (m + children d) - Z.max (pre counts i) m).

(** the lowest rank with the most of them *)
Definition has_most d (counts : list Z) (m : Z) (w : nat) : Prop :=
  (w < length counts)%nat /\ (forall i, (i < w)%nat -> held d counts m i < held d counts m w) /\ (forall i, (i < length counts)%nat -> held d counts m i <= held d counts m w).

(** what the correction does to the cuts: cut k is pre counts k *)
Definition corrected_cuts d (G : list (Z * quad)) (counts counts' : list Z) : Prop :=
  length counts' = length counts /\ Forall (Z.le 0) counts' /\ pre counts' (length counts') = pre counts (length counts) /\
  (* no cut moves by a family or more *)
  (forall k, (k <= length counts)%nat -> Z.abs (pre counts' k - pre counts k) < children d) /\
  (* a cut that does not split a family stays *)
  (forall k, (k <= length counts)%nat -> (forall m t p, family_at d G m t p -> ~ m < pre counts k < m + children d) -> pre counts' k = pre counts k) /\
  (* every family goes to the rank that would have had most of it *)
  (forall m t p, family_at d G m t p -> exists w, has_most d counts m w /\ pre counts' w <= m /\ m + children d <= pre counts' (S w)).

(** no read of partition_now[-1] matters for these counts *)
Definition no_junk d N (counts : list Z) : Prop :=
  forall r v, (0 < r)%nat -> nth_error counts r = Some v -> 0 < v -> children d - 1 <= pre counts r \/ pre counts r + children d - 2 >= N.

Definition call_ok d (N : Z) (P : Z) (counts : list Z) (junk : Z -> option Z) : Prop :=
  zlen counts = P /\ Forall (Z.le 0) counts /\ pre counts (length counts) = N /\
  ((forall r, exists v, junk r = Some v /\ 0 <= v) \/ no_junk d N counts).

(** the sum of the distances that the cuts of the ranks with leaves move *)
Definition distance (counts counts' : list Z) : Z :=
  fold_right (fun i s => (if pre counts i <? pre counts (S i) then Z.abs (pre counts' i - pre counts i) else 0) + s) 0 (seq 0 (length counts)).

(** ** Proofs *)
Lemma list_ext {A} : forall l l' : list A, (forall k, nth_error l k = nth_error l' k) -> l = l'.
Proof. induction l as [|x l IH]; intros [|y l'] H; [reflexivity|discriminate (H 0%nat)|discriminate (H 0%nat)|]. injection (H 0%nat) as ->. f_equal. apply IH. intros k. exact (H (S k)). Qed.
Lemma pre_of_zget l (f : Z -> Z) : f 0 = 0 -> (forall i, 0 <= i < zlen l -> zget l i = Some (f (i + 1) - f i)) -> forall k, (k <= length l)%nat -> pre l k = f (Z.of_nat k).
Proof.
  intros F0 H. induction k as [|k IH]; intros Hk; [rewrite pre_0; symmetry; exact F0|]. specialize (H (Z.of_nat k) ltac:(unfold zlen; lia)). rewrite zget_nth, Nat2Z.id in H by lia.
  rewrite (pre_S _ _ _ H), IH by lia. replace (Z.of_nat (S k)) with (Z.of_nat k + 1) by lia. lia.
Qed.

Lemma correct_ok d St D T junk (F : forest St D) counts : 0 < T -> forest_ok d St D T F ->
  call_ok d (f_gnum _ _ F) (zlen (f_procs _ _ F)) counts junk ->
  exists counts' moved, for_coarsening d St D junk F counts = Some (counts', moved) /\ corrected_cuts d (in_order T F) counts counts' /\ moved = distance counts counts'.
Proof.
  intros HT OK (Lc & Pc & Tc & HJ). destruct (dflt d St D T F OK counts Lc) as (p0 & _). pose proof (HP d St D T F OK counts Lc) as HP.
  assert (Hjunk : forall r, 0 < r < zlen (f_procs _ _ F) -> ncf counts r < ncf counts (r + 1) -> (exists v, junk r = Some v /\ 0 <= v) \/ children d - 1 <= ncf counts r \/ ncf counts r + children d - 2 >= f_gnum _ _ F).
  { intros r Hr NE. destruct HJ as [HJ|HJ]; [left; apply HJ|right]. destruct (zget_some counts r ltac:(lia)) as (v & E). rewrite zget_nth in E by lia. apply (HJ (Z.to_nat r) v); [lia|exact E|].
    unfold ncf in NE. replace (Z.to_nat (r + 1)) with (S (Z.to_nat r)) in NE by lia. rewrite (pre_S _ _ _ E) in NE. lia. }
  destruct (run_ok d St D T HT F OK counts Lc Pc Tc p0 junk Hjunk) as (l & E & Ll & Hl).
  set (mv := moved (zlen (f_procs _ _ F)) (f_gnum _ _ F) (ncf counts) (crf d St D F counts p0 junk)) in *.
  pose proof (mv_0 d St D T HT F OK counts Lc Pc Tc p0 junk Hjunk) as M0. fold mv in M0.
  assert (LL : length l = length counts) by (unfold zlen in *; lia).
  assert (EP : forall k, (k <= length counts)%nat -> pre l k = mv (Z.of_nat k)) by (intros k Hk; apply pre_of_zget; [exact M0|rewrite Ll; exact Hl|lia]).
  assert (EC : forall k, ncf counts (Z.of_nat k) = pre counts k) by (intros k; unfold ncf; rewrite Nat2Z.id; reflexivity).
  assert (RK : forall k, (k <= length counts)%nat -> 0 <= Z.of_nat k <= zlen (f_procs _ _ F)) by (intros k Hk; rewrite <- Lc; unfold zlen; lia).
  exists l, (total_moved (crf d St D F counts p0 junk) (zlen (f_procs _ _ F))). split; [exact E|]. split; [split; [exact LL|]|].
  - split; [|split; [|split; [|split]]].
    + apply Forall_forall. intros x I. apply In_nth_error in I. destruct I as (k & Ek). assert (Hk : (k < length l)%nat) by (apply nth_error_Some; congruence).
      specialize (Hl (Z.of_nat k) ltac:(unfold zlen in *; lia)). rewrite zget_nth, Nat2Z.id, Ek in Hl by lia. injection Hl as ->.
      pose proof (mv_mono d St D T HT F OK counts Lc Pc Tc p0 junk Hjunk (Z.of_nat k) (Z.of_nat k + 1) ltac:(lia) ltac:(unfold zlen in *; lia)) as M. fold mv in M. lia.
    + rewrite EP by lia. rewrite Tc. rewrite LL. replace (Z.of_nat (length counts)) with (zlen (f_procs _ _ F)) by (rewrite <- Lc; reflexivity). apply moved_P.
    + intros k Hk. rewrite EP by exact Hk. pose proof (mv_near d St D T HT F OK counts Lc Pc Tc p0 junk Hjunk (Z.of_nat k) (RK k Hk)) as M. fold mv in M. rewrite EC in M. lia.
    + intros k Hk NF. rewrite EP by exact Hk. rewrite <- EC. apply (mv_free d St D T HT F OK counts Lc Pc Tc p0 junk Hjunk); [apply RK; exact Hk|]. intros m t p FA. rewrite EC. exact (NF m t p FA).
    + intros m t p FA. destruct (family_kept d St D T HT F OK counts Lc Pc Tc p0 junk Hjunk m t p FA) as (w & W & W0 & A & B). fold mv in A, B. destruct W as (Hw & W1 & W2).
      assert (SH : forall i, share d (ncf counts) m (Z.of_nat i) = held d counts m i) by (intros i; unfold share, held; replace (Z.of_nat i + 1) with (Z.of_nat (S i)) by lia; rewrite !EC; reflexivity).
      assert (Ew : w = Z.of_nat (Z.to_nat w)) by lia. rewrite Ew in W1, W2, A, B, W0. assert (Lw : (Z.to_nat w < length counts)%nat) by (unfold zlen in *; lia).
      exists (Z.to_nat w). split; [split; [exact Lw|split]|].
      * intros i Hi. rewrite <- !SH. apply W1. lia.
      * intros i Hi. rewrite <- !SH. destruct (Nat.lt_trichotomy i (Z.to_nat w)) as [X|[->|X]]; [specialize (W1 (Z.of_nat i) ltac:(lia)); lia|lia|apply W2; unfold zlen in *; lia].
      * rewrite !EP by lia. replace (Z.of_nat (S (Z.to_nat w))) with (Z.of_nat (Z.to_nat w) + 1) by lia. auto.
  - unfold distance, total_moved. replace (Z.to_nat (zlen (f_procs _ _ F))) with (length counts) by (unfold zlen in *; lia).
    assert (X : forall n s, (s + n <= length counts)%nat -> fold_right (fun i z => Z.abs (crf d St D F counts p0 junk i) + z) 0 (PartCoarseLemmas.zseq n (Z.of_nat s)) =
      fold_right (fun i z => (if pre counts i <? pre counts (S i) then Z.abs (pre l i - pre counts i) else 0) + z) 0 (seq s n)).
    { induction n as [|n IH]; intros s Hs; [reflexivity|]. cbn [seq PartCoarseLemmas.zseq fold_right]. replace (Z.of_nat s + 1) with (Z.of_nat (S s)) by lia. rewrite IH by lia. f_equal.
      pose proof (RK s ltac:(lia)). assert (Hs' : 0 <= Z.of_nat s < zlen (f_procs _ _ F)) by (rewrite <- Lc; unfold zlen; lia). destruct (crf_ok d St D T HT F OK counts Lc Pc Tc p0 junk Hjunk _ Hs') as (_ & _ & Z1 & _).
      rewrite EP by lia. pose proof (moved_step (zlen (f_procs _ _ F)) (f_gnum _ _ F) (ncf counts) (crf d St D F counts p0 junk) _ Hs') as M. fold mv in M.
      replace (Z.of_nat s + 1) with (Z.of_nat (S s)) in * by lia. rewrite !EC in *.
      pose proof (Mnew St D F counts Pc (Z.of_nat s) (Z.of_nat (S s)) ltac:(lia) ltac:(lia)) as LE. rewrite !EC in LE.
      destruct (pre counts s <? pre counts (S s)) eqn:B; [rewrite M; lia|rewrite Z1 by lia; reflexivity]. }
    exact (X (length counts) 0%nat ltac:(lia)).
Qed.

(** ** C21: partition for coarsening splits no family *)

(** The correction always succeeds if a read of partition_now[-1] gives a number that is not
    negative (see C22), it puts every family on one rank, and it returns the sum of the moves. *)
Theorem C21_correction : forall d St D T junk (F : forest St D) counts, 0 < T -> forest_ok d St D T F ->
  call_ok d (f_gnum _ _ F) (zlen (f_procs _ _ F)) counts junk ->
  exists counts' moved, for_coarsening d St D junk F counts = Some (counts', moved) /\
    corrected_cuts d (in_order T F) counts counts' /\ moved = distance counts counts'.
Proof. exact correct_ok. Qed.
Print Assumptions C21_correction.

(** counts that no correction is needed for are returned as they are *)
Theorem C21_fixed_point : forall d St D T junk (F : forest St D) counts, 0 < T -> forest_ok d St D T F ->
  call_ok d (f_gnum _ _ F) (zlen (f_procs _ _ F)) counts junk ->
  (forall m t p, family_at d (in_order T F) m t p -> exists w, pre counts w <= m /\ m + children d <= pre counts (S w)) ->
  for_coarsening d St D junk F counts = Some (counts, 0).
Proof.
  intros d St D T junk F counts HT OK CO H. destruct (correct_ok d St D T junk F counts HT OK CO) as (l & mvd & E & (L & N & Tt & _ & FR & _) & EM). destruct CO as (_ & Pc & _).
  assert (X : forall k, (k <= length counts)%nat -> pre l k = pre counts k).
  { intros k Hk. apply FR; [exact Hk|]. intros m t p FA Hin. destruct (H m t p FA) as (w & A & B). destruct (Nat.le_gt_cases k w) as [C|C]; [pose proof (pre_mono counts Pc k w C)|pose proof (pre_mono counts Pc (S w) k C)]; lia. }
  assert (l = counts) as ->.
  { apply list_ext. intros k. destruct (nth_error counts k) as [v|] eqn:Ek.
    - assert (Hk : (k < length counts)%nat) by (apply nth_error_Some; congruence). destruct (nth_error l k) as [v'|] eqn:El; [|apply nth_error_None in El; lia]. pose proof (pre_S _ _ _ Ek). pose proof (pre_S _ _ _ El). rewrite !X in * by lia. f_equal. lia.
    - apply nth_error_None in Ek. apply nth_error_None. lia. }
  rewrite E, EM. do 2 f_equal. unfold distance. clear. induction (seq 0 (length counts)) as [|i s IH]; [reflexivity|]. cbn [fold_right]. rewrite IH. destruct (pre counts i <? pre counts (S i)); lia.
Qed.
Print Assumptions C21_fixed_point.

(** ** The whole partition *)

(** every quadrant of tree [t] that has all its children among the leaves has them on one rank *)
Definition families_together {St D} d (T : Z) (F : forest St D) : Prop :=
  forall t p, wf d p -> ql p < 29 -> (forall k, 0 <= k < children d -> In (t, child d p k) (in_order T F)) ->
  exists pr, In pr (f_procs _ _ F) /\ forall k, 0 <= k < children d -> In (t, child d p k) (shape St D T pr).

Lemma together_given d St D T (F F' : forest St D) counts counts' : 0 < T -> forest_ok d St D T F -> forest_ok d St D T F' ->
  all_leaves St D T (f_procs _ _ F') = all_leaves St D T (f_procs _ _ F) -> map (pr_num St D) (f_procs _ _ F') = counts' -> length counts' = length counts ->
  corrected_cuts d (in_order T F) counts counts' -> families_together d T F'.
Proof.
  intros HT OK OK' EA EN EL (_ & _ & _ & _ & _ & FK) t p Wp Lp I. assert (EO : in_order T F' = in_order T F) by (unfold in_order; rewrite EA; reflexivity).
  destruct (family_of_leaves d St D T HT F' OK' t p Wp Lp I) as (m & FA). pose proof FA as FA'. unfold leaves in FA'. fold (in_order T F') in FA'. rewrite EO in FA'. destruct (FK m t p FA') as (w & (Hw & _) & A & B).
  assert (LP : length (f_procs _ _ F') = length counts) by (rewrite <- EL, <- EN, map_length; reflexivity).
  assert (NE : f_procs _ _ F' <> []) by apply OK'. destruct (f_procs _ _ F') as [|p0 ps0] eqn:EF; [congruence|]. rewrite <- EF in *. clear EF ps0.
  exists (pr St D F' p0 (Z.of_nat w)). split; [apply (nth_error_In _ (Z.to_nat (Z.of_nat w))); apply pr_get; unfold zlen; lia|]. intros k Hk. destruct FA as (_ & _ & FA). specialize (FA k Hk).
  rewrite (HG d St D T F' OK' p0 (Z.of_nat w)) in FA; [|unfold zlen; lia|].
  - unfold shape. destruct (zget (rank_leaves St D T (pr St D F' p0 (Z.of_nat w))) (m + k - nwf St D F' (Z.of_nat w))) as [x|] eqn:Ex; [|discriminate]. injection FA as FA FA2. rewrite <- FA, <- FA2. apply (in_map (fun y : Z * (quad * D) => (fst y, fst (snd y)))).
    pose proof (zget_range _ _ _ Ex). rewrite zget_nth in Ex by lia. apply (nth_error_In _ _ Ex).
  - unfold nwf. rewrite EN. rewrite Nat2Z.id. replace (Z.to_nat (Z.of_nat w + 1)) with (S w) by lia. lia.
Qed.

Lemma proposed_ok d St D T prec w (F : forest St D) : 0 < T <= 2 ^ 31 - 1 -> 53 <= prec <= 64 -> forest_ok d St D T F ->
  zlen (f_procs _ _ F) < 2 ^ 31 -> f_gnum _ _ F < 2 ^ 63 -> weights_ok St D w F ->
  (exists f, w = Some f /\ wsum (concat (map (weights St D f) (f_procs _ _ F))) = 0 /\ proposed_counts St D prec w F = Some None) \/
  (exists counts, proposed_counts St D prec w F = Some (Some counts) /\ zlen counts = zlen (f_procs _ _ F) /\ Forall (Z.le 0) counts /\ pre counts (length counts) = f_gnum _ _ F).
Proof.
  intros HT PREC OK HP HN HW. pose proof OK as (NE & FP & _ & _ & GN & _). unfold proposed_counts. set (P := zlen (f_procs _ _ F)) in *.
  assert (P1 : 1 <= P) by (unfold P, zlen; destruct (f_procs _ _ F); [contradiction|cbn [length]; lia]).
  assert (N0 : 0 <= f_gnum _ _ F) by (rewrite GN; unfold zlen; lia).
  destruct w as [w|].
  - destruct HW as (W1 & W2). assert (LW : zlen (map (weights St D w) (f_procs _ _ F)) = P) by (unfold P, zlen; rewrite map_length; reflexivity).
    assert (W0 : 0 <= wsum (concat (map (weights St D w) (f_procs St D F)))).
    { clear - W1. induction W1 as [|x l H _ IH]; [cbn; lia|]. cbn [concat]. rewrite wsum_app. assert (0 <= wsum x) by (clear - H; induction H as [|y l Hy _ IH]; [cbn; lia|unfold wsum in *; cbn [fold_right] in *; lia]). lia. }
    destruct (Z.eq_dec (wsum (concat (map (weights St D w) (f_procs St D F)))) 0) as [C|C].
    + left. exists w. split; [reflexivity|]. split; [exact C|]. apply C17_zero_weights. exact C.
    + right. destruct (C17_weighted_counts prec (map (weights St D w) (f_procs _ _ F)) PREC W1 ltac:(lia) ltac:(lia)) as (counts & EC & L & FC & SC & _). exists counts. split; [exact EC|]. split; [lia|]. split; [exact FC|].
      rewrite <- pre_wsum, firstn_all, SC, GN. apply (weights_concat d St D T ltac:(lia)). exact FP.
  - right. destruct (equal_counts_ok prec PREC (f_gnum _ _ F) P ltac:(lia) ltac:(lia)) as (C1 & C2 & C3 & C4). eexists. split; [reflexivity|]. split; [unfold zlen; lia|]. split; [exact C2|exact C3].
Qed.

Lemma coarse_ok d St D T prec junk w (F : forest St D) : 0 < T <= 2 ^ 31 - 1 -> 53 <= prec <= 64 -> forest_ok d St D T F ->
  zlen (f_procs _ _ F) < 2 ^ 31 -> f_gnum _ _ F < 2 ^ 63 -> weights_ok St D w F ->
  ((forall r, exists v, junk r = Some v /\ 0 <= v) \/ (forall counts, proposed_counts St D prec w F = Some (Some counts) -> no_junk d (f_gnum _ _ F) counts)) ->
  exists F' shipped, partition_coarse d St D T prec junk w F = Some (F', shipped) /\
    forest_ok d St D T F' /\ all_leaves St D T (f_procs _ _ F') = all_leaves St D T (f_procs _ _ F) /\
    map (pr_s St D) (f_procs _ _ F') = map (pr_s St D) (f_procs _ _ F) /\
    (f_rev _ _ F' = f_rev _ _ F \/ f_rev _ _ F' = f_rev _ _ F + 1) /\
    (f_rev _ _ F' = f_rev _ _ F <-> map (rank_leaves St D T) (f_procs _ _ F') = map (rank_leaves St D T) (f_procs _ _ F)) /\
    (shipped = 0 <-> f_rev _ _ F' = f_rev _ _ F) /\
    ((forall f, w = Some f -> wsum (concat (map (weights St D f) (f_procs _ _ F))) <> 0) -> families_together d T F').
Proof.
  intros HT PREC OK HP HN HW HJ. unfold partition_coarse. destruct (zlen (f_procs _ _ F) =? 1) eqn:B1.
  { exists F, 0. split; [reflexivity|]. split; [exact OK|]. do 2 (split; [reflexivity|]). split; [left; reflexivity|]. split; [split; reflexivity|]. split; [split; reflexivity|]. intros _ t p Wp Lp I.
    destruct (f_procs _ _ F) as [|p0 [|p1 ps]] eqn:EF; [discriminate B1| |unfold zlen in B1; cbn [length] in B1; lia]. exists p0. split; [left; reflexivity|]. intros k Hk. specialize (I k Hk). unfold in_order in I. rewrite EF in I. unfold all_leaves in I. cbn [flat_map] in I. rewrite app_nil_r in I. exact I. }
  destruct (proposed_ok d St D T prec w F HT PREC OK HP HN HW) as [(f & EW & Z0 & ->)|(counts & E & Lc & Pc & Tc)].
  { exists F, 0. split; [reflexivity|]. split; [exact OK|]. do 2 (split; [reflexivity|]). split; [left; reflexivity|]. split; [split; reflexivity|]. split; [split; reflexivity|]. intros K. destruct (K f EW Z0). }
  rewrite E. destruct (correct_ok d St D T junk F counts ltac:(lia) OK) as (l & mvd & EC & CC & _); [repeat split; try assumption; destruct HJ as [HJ|HJ]; [left; exact HJ|right; apply HJ; exact E]|]. rewrite EC.
  pose proof CC as (L & Nn & Tt & _). pose proof OK as (_ & _ & _ & _ & GN & _).
  destruct (given_rev_ok d St D T ltac:(lia) F l ltac:(lia) OK) as (F' & sh & EG & O1 & O2 & O3 & O4 & O5 & O6 & O7); [unfold zlen in *; lia|exact Nn|unfold PartShip.total; rewrite Tt, Tc; exact GN|].
  unfold given_rev in EG. exists F', sh. split; [exact EG|]. do 6 (split; [assumption|]). intros _. apply (together_given d St D T F F' counts l); auto. lia.
Qed.

(** The partition with the flag set keeps the leaves in their order, leaves a valid forest, and
    unless all weights are zero every quadrant that could be coarsened has all its children on one
    rank. *)
Theorem C21_partition : forall d St D T prec junk w (F : forest St D), 0 < T <= 2 ^ 31 - 1 -> 53 <= prec <= 64 -> forest_ok d St D T F ->
  zlen (f_procs _ _ F) < 2 ^ 31 -> f_gnum _ _ F < 2 ^ 63 -> weights_ok St D w F -> (forall r, exists v, junk r = Some v /\ 0 <= v) ->
  exists F' shipped, partition_coarse d St D T prec junk w F = Some (F', shipped) /\
    forest_ok d St D T F' /\ all_leaves St D T (f_procs _ _ F') = all_leaves St D T (f_procs _ _ F) /\
    length (f_procs _ _ F') = length (f_procs _ _ F) /\
    ((forall f, w = Some f -> wsum (concat (map (weights St D f) (f_procs _ _ F))) <> 0) -> families_together d T F').
Proof.
  intros d St D T prec junk w F HT PREC OK HP HN HW HJ. destruct (coarse_ok d St D T prec junk w F HT PREC OK HP HN HW (or_introl HJ)) as (F' & sh & E & O1 & O2 & O3 & _ & _ & _ & O7).
  exists F', sh. split; [exact E|]. split; [exact O1|]. split; [exact O2|]. split; [|exact O7]. rewrite <- (map_length (pr_s St D) (f_procs _ _ F')), O3, map_length. reflexivity.
Qed.
Print Assumptions C21_partition.

(** the revision counts what the flag changes, too *)
Theorem C46_partition_for_coarsening : forall d St D T prec junk w (F F' : forest St D) shipped, 0 < T <= 2 ^ 31 - 1 -> 53 <= prec <= 64 -> forest_ok d St D T F ->
  zlen (f_procs _ _ F) < 2 ^ 31 -> f_gnum _ _ F < 2 ^ 63 -> weights_ok St D w F -> (forall r, exists v, junk r = Some v /\ 0 <= v) ->
  partition_coarse d St D T prec junk w F = Some (F', shipped) ->
  (f_rev _ _ F' = f_rev _ _ F \/ f_rev _ _ F' = f_rev _ _ F + 1) /\
  (f_rev _ _ F' = f_rev _ _ F <-> map (rank_leaves St D T) (f_procs _ _ F') = map (rank_leaves St D T) (f_procs _ _ F)) /\
  (shipped = 0 <-> f_rev _ _ F' = f_rev _ _ F).
Proof.
  intros d St D T prec junk w F F' shipped HT PREC OK HP HN HW HJ E. destruct (coarse_ok d St D T prec junk w F HT PREC OK HP HN HW (or_introl HJ)) as (F2 & sh & E2 & _ & _ & _ & O4 & O5 & O6 & _).
  rewrite E in E2. injection E2 as <- <-. auto.
Qed.
Print Assumptions C46_partition_for_coarsening.

(** ** C31, C46: histories with the flag *)
Inductive ccall d St D T prec junk : forest St D -> forest St D -> Prop :=
| ccall_plain F F' : call d St D T prec F F' -> ccall d St D T prec junk F F'
| ccall_coarse w F F' shipped : f_gnum _ _ F < 2 ^ 63 -> weights_ok St D w F ->
    partition_coarse d St D T prec junk w F = Some (F', shipped) -> ccall d St D T prec junk F F'.
Inductive chistory d St D T prec junk : forest St D -> forest St D -> Prop :=
| chistory_refl F : chistory d St D T prec junk F F
| chistory_call F F1 F' : chistory d St D T prec junk F F1 -> ccall d St D T prec junk F1 F' -> chistory d St D T prec junk F F'.

(** valid forests stay valid, and the revision tells whether anything changed *)
Theorem C31_histories_with_coarsening_flag : forall d St D T prec junk (F0 F : forest St D), 0 < T <= 2 ^ 31 - 1 -> 53 <= prec <= 64 ->
  (forall r, exists v, junk r = Some v /\ 0 <= v) ->
  forest_ok d St D T F0 -> zlen (f_procs _ _ F0) < 2 ^ 31 -> chistory d St D T prec junk F0 F ->
  forest_ok d St D T F /\ length (f_procs _ _ F) = length (f_procs _ _ F0) /\ f_rev _ _ F0 <= f_rev _ _ F /\
  (f_rev _ _ F = f_rev _ _ F0 -> map (shape St D T) (f_procs _ _ F) = map (shape St D T) (f_procs _ _ F0)).
Proof.
  intros d St D T prec junk F0 F HT PREC HJ OK HP HH.
  induction HH as [F0|F0 F1 F' HH IH C]; [split; [exact OK|split; [reflexivity|split; [lia|reflexivity]]]|]. destruct (IH OK HP) as (I1 & I2 & I3 & I4). assert (HP1 : zlen (f_procs _ _ F1) < 2 ^ 31) by (unfold zlen in *; lia).
  assert (X : forest_ok d St D T F' /\ length (f_procs _ _ F') = length (f_procs _ _ F1) /\ f_rev _ _ F1 <= f_rev _ _ F' /\ (f_rev _ _ F' = f_rev _ _ F1 -> map (shape St D T) (f_procs _ _ F') = map (shape St D T) (f_procs _ _ F1))).
  { destruct C as [F1 F' C|w F1 F' sh HG HW E]; [apply (PropertiesForest.call_ok d St D T prec); assumption|]. destruct (coarse_ok d St D T prec junk w F1 HT PREC I1 HP1 HG HW (or_introl HJ)) as (F2 & sh2 & E2 & O1 & O2 & O3 & O4 & O5 & _). rewrite E in E2. injection E2 as <- <-.
    split; [exact O1|]. split; [rewrite <- (map_length (pr_s St D) (f_procs _ _ F')), O3, map_length; reflexivity|]. split; [lia|]. intros H. apply O5 in H.
    unfold shape. rewrite <- !(map_map (rank_leaves St D T) (map (fun x => (fst x, fst (snd x))))). rewrite H. reflexivity. }
  destruct X as (C1 & C2 & C3 & C4). split; [exact C1|]. split; [lia|]. split; [lia|]. intros E. rewrite C4 by lia. apply I4. lia.
Qed.
Print Assumptions C31_histories_with_coarsening_flag.

(** ** C22: reads outside of partition_now *)

(** If no rank's new range begins within a family of the first leaf (and the forest has more leaves
    than that) the function stays within its arrays: it never needs partition_now[-1].
    Missing: the other counts, for which the claim is false. *)
Theorem C22_in_bounds_partial : forall d St D T (F : forest St D) counts, 0 < T -> forest_ok d St D T F ->
  zlen counts = zlen (f_procs _ _ F) -> Forall (Z.le 0) counts -> pre counts (length counts) = f_gnum _ _ F ->
  no_junk d (f_gnum _ _ F) counts -> exists r, for_coarsening d St D (fun _ => None) F counts = Some r.
Proof.
  intros d St D T F counts HT OK Lc Pc Tc NJ. destruct (correct_ok d St D T (fun _ => None) F counts HT OK) as (l & mvd & E & _); [repeat split; auto|]. eexists. exact E.
Qed.
Print Assumptions C22_in_bounds_partial.

(** It is false in general: on a new uniform forest with two trees of four leaves on four ranks
    p4est_partition (p4est, 1, NULL) reads partition_now[-1].  If the memory there holds a negative
    number the call waits for a message from rank -1; else it succeeds. *)
Definition w_new (fuel : nat) : option (forest Z Z) := new_ext D2 Z Z 2 53 (fun s _ _ => (s + 1, s)) 1 1 true fuel [0; 0; 0; 0].
Lemma some_inj {A} (x y : A) : Some x = Some y -> x = y.
Proof. congruence. Qed.
Lemma w_fuel fuel : w_new fuel = w_new 0.
Proof. reflexivity. Qed.
Lemma w_ok : exists F, w_new 0 = Some F /\ forest_ok D2 Z Z 2 F.
Proof.
  destruct (C34_new_ext D2 Z Z 2 53 (fun s _ _ => (s + 1, s)) 1 1 true [0; 0; 0; 0] 1 4) as (n0 & H); try lia; try discriminate; [cbn; lia|vm_compute; reflexivity|].
  destruct (H n0 ltac:(lia)) as (F & E & OK & _). exists F. split; [|exact OK]. rewrite <- (w_fuel n0). exact E.
Qed.
Definition w_run {A} (f : forest Z Z -> A) : option A := option_map f (w_new 0).

Theorem C22_in_bounds_refuted : exists F : forest Z Z, w_new 0 = Some F /\ forest_ok D2 Z Z 2 F /\
  equal_counts 53 (f_gnum _ _ F) 4 4 0 0 = [2; 2; 2; 2] /\
  for_coarsening D2 Z Z (fun _ => None) F [2; 2; 2; 2] = None /\ partition_coarse D2 Z Z 2 53 (fun _ => None) None F = None /\
  partition_coarse D2 Z Z 2 53 (fun _ => Some (-1)) None F = None /\
  for_coarsening D2 Z Z (fun _ => Some 0) F [2; 2; 2; 2] = Some ([4; 0; 4; 0], 4).
Proof.
  destruct w_ok as (F & E & OK). exists F. split; [exact E|]. split; [exact OK|].
  assert (X1 : w_run (fun F => equal_counts 53 (f_gnum _ _ F) 4 4 0 0) = Some [2; 2; 2; 2]) by (vm_compute; reflexivity).
  assert (X2 : w_run (fun F => for_coarsening D2 Z Z (fun _ => None) F [2; 2; 2; 2]) = Some None) by (vm_compute; reflexivity).
  assert (X3 : w_run (fun F => option_map snd (partition_coarse D2 Z Z 2 53 (fun _ => None) None F)) = Some None) by (vm_compute; reflexivity).
  assert (X4 : w_run (fun F => option_map snd (partition_coarse D2 Z Z 2 53 (fun _ => Some (-1)) None F)) = Some None) by (vm_compute; reflexivity).
  assert (X5 : w_run (fun F => for_coarsening D2 Z Z (fun _ => Some 0) F [2; 2; 2; 2]) = Some (Some ([4; 0; 4; 0], 4))) by (vm_compute; reflexivity).
  unfold w_run in *. rewrite E in *. cbn [option_map] in *. apply some_inj in X1, X2, X5. repeat split; try assumption.
  - destruct (partition_coarse D2 Z Z 2 53 (fun _ => None) None F); [discriminate|reflexivity].
  - destruct (partition_coarse D2 Z Z 2 53 (fun _ => Some (-1)) None F); [discriminate|reflexivity].
Qed.
Print Assumptions C22_in_bounds_refuted.

(** ** Examples *)

(** the forest above meets the hypotheses of C21, with a family at the leaves 0 .. 3 *)
Example C21_ex_hyps : exists F, w_new 0 = Some F /\ forest_ok D2 Z Z 2 F /\ call_ok D2 (f_gnum _ _ F) (zlen (f_procs _ _ F)) [1; 2; 3; 2] (fun _ => Some 7) /\
  family_at D2 (in_order 2 F) 0 0 (mkq 0 0 0 0) /\ zlen (f_procs _ _ F) < 2 ^ 31 /\ f_gnum _ _ F < 2 ^ 63.
Proof.
  destruct w_ok as (F & E & OK). exists F. split; [exact E|]. split; [exact OK|].
  assert (X1 : w_run (fun F => (f_gnum _ _ F, zlen (f_procs _ _ F), in_order 2 F)) = Some (8, 4, map (fun i => (i / 4, child D2 (mkq 0 0 0 0) (i mod 4))) [0; 1; 2; 3; 4; 5; 6; 7])) by (vm_compute; reflexivity).
  unfold w_run in X1. rewrite E in X1. cbn [option_map] in X1. apply some_inj in X1. apply pair_equal_spec in X1. destruct X1 as (X1 & ->). apply pair_equal_spec in X1. destruct X1 as (-> & ->). split; [|split; [|lia]].
  - split; [reflexivity|]. split; [repeat constructor; lia|]. split; [reflexivity|]. left. intros r. exists 7. split; [reflexivity|lia].
  - split; [apply is_valid_wf; vm_compute; reflexivity|]. split; [cbn; lia|]. intros k Hk. change (children D2) with 4 in Hk. assert (K : k = 0 \/ k = 1 \/ k = 2 \/ k = 3) by lia. destruct K as [->|[->|[->| ->]]]; reflexivity.
Qed.
(** ties go to the lower rank, and the second rank loses all its leaves *)
Example C21_ex_cuts : w_run (fun F => (for_coarsening D2 Z Z (fun _ => Some 7) F [1; 2; 3; 2], for_coarsening D2 Z Z (fun _ => Some 7) F [3; 3; 1; 1], for_coarsening D2 Z Z (fun _ => Some 7) F [0; 4; 0; 4])) =
  Some (Some ([0; 4; 4; 0], 4), Some ([4; 4; 0; 0], 4), Some ([0; 4; 0; 4], 0)).
Proof. vm_compute. reflexivity. Qed.
(** the shares of the ranks in the families at 0 and 4 *)
Example C21_ex_most : map (held D2 [1; 2; 3; 2] 0) [0; 1; 2; 3]%nat = [1; 2; 1; 0] /\ map (held D2 [1; 2; 3; 2] 4) [0; 1; 2; 3]%nat = [0; 0; 2; 2].
Proof. split; reflexivity. Qed.
(** partition_ext with the flag: all eight leaves end up on ranks 0 and 2 *)
Example C21_ex_partition : w_run (fun F => option_map (fun r => (map (pr_num Z Z) (f_procs _ _ (fst r)), f_rev _ _ (fst r), snd r)) (partition_coarse D2 Z Z 2 53 (fun _ => Some 0) None F)) = Some (Some ([4; 0; 4; 0], 1, 4)).
Proof. vm_compute. reflexivity. Qed.
(** with weights that are all zero nothing is corrected, and both families stay split *)
Example C21_ex_zero_weights : w_run (fun F => option_map (fun r => (map (pr_num Z Z) (f_procs _ _ (fst r)), snd r)) (partition_coarse D2 Z Z 2 53 (fun _ => Some 0) (Some (fun _ _ _ _ => 0)) F)) = Some (Some ([2; 2; 2; 2], 0)).
Proof. vm_compute. reflexivity. Qed.
(** counts that meet the hypothesis of C22_in_bounds_partial, and the result *)
Example C22_ex : no_junk D2 8 [3; 3; 0; 2] /\ w_run (fun F => for_coarsening D2 Z Z (fun _ => None) F [3; 3; 0; 2]) = Some (Some ([4; 4; 0; 0], 3)).
Proof.
  split; [|vm_compute; reflexivity]. intros r v Hr E Hv. destruct r as [|[|[|[|r]]]]; cbn in E; [lia|left; cbn; lia|injection E as <-; lia|left; cbn; lia|destruct r; discriminate].
Qed.
