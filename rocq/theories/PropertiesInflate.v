(** * C37: p4est_deflate_quadrants and p4est_inflate *)

From Coq Require Import ZArith List Bool Lia Arith ZifyBool Sorting.Sorted.
From Verif Require Import Quad Spec Interval QuadLemmas Search Adapt AdaptSpec ListLemmas RefineLemmas Tiles Partition PartLemmas PartTrees PartRecv PartGlue PartFinal PartShip Comm CommLemmas OwnerLemmas.
From Verif Require Import Pertree Weighted Forest ForestSpec ForestLemmas ForestAdapt ForestPart PropertiesForest PropertiesPertree Inflate InflateLemmas.
Import ListNotations.
Open Scope Z_scope.

(** what p4est_comm_count_pertree makes of a forest *)
Definition pertree_of {St D} d T (F : forest St D) : option (list Z) :=
  count_pertree d (f_gfp _ _ F) (f_gfq _ _ F) (zlen (f_procs _ _ F)) T (map (rk_of St D) (f_procs _ _ F)).

(** the arrays of all ranks after one another *)
Definition all_words {St D} d (F : forest St D) : list Z := concat (map (fun p => fst (deflate d St D p)) (f_procs _ _ F)).
Definition all_data {St D} d (F : forest St D) : list D := concat (map (fun p => snd (deflate d St D p)) (f_procs _ _ F)).

Lemma zseq_leaves {D} (g : Z -> list (quad * D)) : forall n s, flat_map g (zseq s n) = map snd (loc_from s n g).
Proof.
  induction n as [|n IH]; intros s; [reflexivity|]. cbn [zseq flat_map loc_from]. rewrite map_app, IH, map_map. cbn [snd]. rewrite map_id. reflexivity.
Qed.

Lemma local_leaves_ok {St D} d T (p : proc St D) : proc_ok d St D T p -> local_leaves St D p = map snd (rank_leaves St D T p).
Proof.
  intros (RK & _). unfold local_leaves, rank_leaves. change (fun t => t_leaves D (ft D (pr_trees St D p t))) with (lvs St D p). rewrite zseq_leaves. unfold trips.
  destruct RK as [(E1 & E2 & E3)|(E1 & E2 & E3)]; cbn [rk_of k_first k_last k_trees] in *.
  - rewrite E1, E2. cbn. rewrite loc_from_nil by (intros; apply E3). reflexivity.
  - set (f := pr_first St D p) in *. set (l := pr_last St D p) in *.
    assert (N : forall t, ~ f <= t <= l -> lvs St D p t = []) by (intros t Ht; destruct (lvs St D p t) eqn:E; [reflexivity|]; exfalso; apply Ht; apply E3; unfold lvs in E; rewrite E; discriminate).
    replace (Z.to_nat T) with (Z.to_nat f + (Z.to_nat (l - f + 1) + Z.to_nat (T - l - 1)))%nat by lia. rewrite !loc_from_app, !map_app.
    rewrite (loc_from_nil (lvs St D p) (Z.to_nat f) 0) by (intros; apply N; lia). rewrite (loc_from_nil (lvs St D p) (Z.to_nat (T - l - 1))) by (intros; apply N; lia).
    cbn [map app]. rewrite app_nil_r. replace (0 + Z.of_nat (Z.to_nat f)) with f by lia. reflexivity.
Qed.

Lemma all_words_ok {St D} d T (F : forest St D) : Forall (proc_ok d St D T) (f_procs _ _ F) -> all_words d F = wordsof d D (map snd (all_leaves St D T (f_procs _ _ F))).
Proof.
  unfold all_words, all_leaves, wordsof. generalize (f_procs St D F). induction 1 as [|p ps H _ IH]; [reflexivity|]. cbn [map concat flat_map]. rewrite IH, map_app, flat_map_app. unfold deflate. cbn [fst].
  rewrite (local_leaves_ok d T p H). reflexivity.
Qed.
Lemma all_data_ok {St D} d T (F : forest St D) : Forall (proc_ok d St D T) (f_procs _ _ F) -> all_data d F = map snd (map snd (all_leaves St D T (f_procs _ _ F))).
Proof.
  unfold all_data, all_leaves. generalize (f_procs St D F). induction 1 as [|p ps H _ IH]; [reflexivity|]. cbn [map concat flat_map]. rewrite IH, !map_app. unfold deflate. cbn [snd].
  rewrite (local_leaves_ok d T p H). reflexivity.
Qed.

Lemma pertree_ok {St D} d T (F : forest St D) : 0 < T -> forest_ok d St D T F -> exists pt, pertree_of d T F = Some pt /\
  forall t, 0 <= t <= T -> zget pt t = Some (below t (all_leaves St D T (f_procs _ _ F))).
Proof.
  intros HT OK. destruct (owner_forest d St D T HT F OK) as (OF & CV). pose proof OK as (_ & FP & _ & _ & _ & GQ & GP).
  destruct (C25_count_pertree d (@fst quad D) T _ OF CV ltac:(lia)) as (ms & pt & E1 & E2 & E3 & E4 & E5). rewrite E1 in GP. injection GP as GP.
  exists pt. split.
  - unfold pertree_of. rewrite <- GP, GQ, (num_counts d St D T) by exact FP. unfold zlen in E2 at 2. rewrite map_length in E2. exact E2.
  - rewrite (all_glob St D T). apply pertree_below; [|exact E4|].
    + intros x I. rewrite <- all_glob in I. apply (all_in St D T HT) in I. destruct I as (p & _ & I & _). lia.
    + intros t Ht. destruct (E5 t Ht) as (a & b & A & B & C). exists a, b. split; [exact A|]. split; [exact B|]. rewrite C. unfold inside, ofl. rewrite zlen_map. reflexivity.
Qed.

(** the words of the first leaves *)
Definition wlen (d : dim) : nat := match d with D2 => 3 | D3 => 4 end.
Lemma words_length d q : length (words d q) = wlen d.
Proof. destruct d; reflexivity. Qed.
Lemma wordsof_length {D} d (l : list (quad * D)) : length (wordsof d D l) = (wlen d * length l)%nat.
Proof. unfold wordsof. induction l as [|x l IH]; cbn [flat_map length]; [lia|]. rewrite app_length, words_length, IH. lia. Qed.
Lemma wordsof_app {D} d (l l' : list (quad * D)) : wordsof d D (l ++ l') = wordsof d D l ++ wordsof d D l'.
Proof. unfold wordsof. apply flat_map_app. Qed.

Lemma nth_error_ext_le {A} : forall n (l l' : list A), length l = n -> length l' = n -> (forall k, (k < n)%nat -> nth_error l k = nth_error l' k) -> l = l'.
Proof.
  induction n as [|n IH]; intros [|x l] [|y l'] L1 L2 H; try discriminate L1; try discriminate L2; [reflexivity|]. pose proof (H 0%nat ltac:(lia)) as H0. injection H0 as ->. f_equal.
  apply IH; [cbn in L1; lia|cbn in L2; lia|]. intros k Hk. exact (H (S k) ltac:(lia)).
Qed.
Lemma app_eq_length {A} (a a' b b' : list A) : length a = length a' -> a ++ b = a' ++ b' -> a = a' /\ b = b'.
Proof.
  revert a'. induction a as [|x a IH]; intros [|y a'] L E; try discriminate L; [auto|]. cbn [app] in E. injection E as -> E. destruct (IH a' ltac:(cbn in L; lia) E) as (-> & ->). auto.
Qed.

(** arrays cut at quadrant boundaries come from a cut of the sequence of leaves *)
Lemma cut_words {D} d : forall (qas : list (list Z)) (ns : list nat) (L : list (Z * (quad * D))), Forall2 (fun qa n => length qa = (wlen d * n)%nat) qas ns ->
  concat qas = wordsof d D (map snd L) -> exists segs, concat segs = L /\ map (fun s => wordsof d D (map snd s)) segs = qas /\ map (@length _) segs = ns.
Proof.
  intros qas ns L H. revert L. induction H as [|qa n qas ns H _ IH]; intros L E.
  - exists []. cbn [concat] in E. destruct L as [|x L]; [auto|]. assert (C : length (@nil Z) = length (wordsof d D (map snd (x :: L)))) by (rewrite <- E; reflexivity).
    rewrite wordsof_length in C. cbn in C. destruct d; cbn in C; lia.
  - cbn [concat] in E. assert (Ln : (n <= length L)%nat).
    { assert (C : length (qa ++ concat qas) = length (wordsof d D (map snd L))) by (rewrite E; reflexivity). rewrite app_length, wordsof_length, map_length, H in C. destruct d; cbn [wlen] in C; lia. }
    rewrite <- (firstn_skipn n L) in E. rewrite map_app, wordsof_app in E. apply app_eq_length in E; [|rewrite wordsof_length, map_length, firstn_length, H; f_equal; lia].
    destruct E as (E1 & E2). destruct (IH (skipn n L) E2) as (segs & S1 & S2 & S3). exists (firstn n L :: segs). cbn [concat map]. rewrite S1, S2, S3, firstn_skipn, <- E1, firstn_length. split; [reflexivity|]. split; [reflexivity|].
    f_equal. lia.
Qed.

Lemma cut_data {A B} (f : A -> B) : forall (segs : list (list A)) (das : list (list B)), map (@length _) segs = map (@length _) das -> concat das = map f (concat segs) -> map (map f) segs = das.
Proof.
  induction segs as [|s segs IH]; intros [|x das] L E; try discriminate L; [reflexivity|]. cbn [map concat] in *. injection L as L1 L2. rewrite map_app in E.
  apply app_eq_length in E; [|rewrite map_length; lia]. destruct E as (-> & E). rewrite (IH das L2 E). reflexivity.
Qed.

Lemma below_labels {A B} t (l : list (Z * A)) (l' : list (Z * B)) : map fst l = map fst l' -> below t l = below t l'.
Proof.
  revert l'. induction l as [|x l IH]; intros [|y l'] E; try discriminate E; [reflexivity|]. cbn [map] in E. injection E as E1 E2. specialize (IH l' E2). unfold below in *. cbn [filter]. rewrite E1.
  destruct (fst y <? t); unfold zlen in *; cbn [length]; lia.
Qed.

(** ** C37 *)

(** The arrays written by p4est_deflate_quadrants on all ranks, joined and cut
    again in any way between quadrants for any number of ranks, give back a
    valid forest with the same leaves and data, distributed as cut. *)
Theorem C37_deflate_inflate : forall d St D St' T nodata (F : forest St D) (parts : list (St' * list Z * list D)),
  0 < T -> forest_ok d St D T F -> parts <> [] ->
  concat (map (fun x => snd (fst x)) parts) = all_words d F -> concat (map snd parts) = all_data d F ->
  (forall s qa da, In (s, qa, da) parts -> zlen qa = (nd d + 1) * zlen da) ->
  exists pertree F', pertree_of d T F = Some pertree /\
    inflate d St' D T nodata (count_quadrants (map (fun x => zlen (snd x)) parts)) pertree (map (fun x => (fst x, Some (snd x))) parts) = Some F' /\
    forest_ok d St' D T F' /\
    all_leaves St' D T (f_procs _ _ F') = all_leaves St D T (f_procs _ _ F) /\
    map (pr_num St' D) (f_procs _ _ F') = map (fun x => zlen (snd x)) parts /\
    map (pr_s St' D) (f_procs _ _ F') = map (fun x => fst (fst x)) parts /\ f_rev _ _ F' = 0.
Proof.
  intros d St D St' T nodata F parts HT OK NE EW ED HZ. destruct (pertree_ok d T F HT OK) as (pt & EP & GP). pose proof OK as (_ & FP & SO & _).
  set (L := all_leaves St D T (f_procs St D F)) in *. rewrite (all_words_ok d T F FP) in EW. rewrite (all_data_ok d T F FP) in ED. fold L in EW, ED.
  destruct (cut_words d (map (fun x => snd (fst x)) parts) (map (fun x => length (snd x)) parts) L) as (segs & S1 & S2 & S3); [|exact EW|].
  { clear - HZ. induction parts as [|((s, qa), da) parts IH]; cbn [map]; constructor; [|apply IH; intros s' qa' da' I; apply (HZ s' qa' da'); right; exact I].
    specialize (HZ s qa da (or_introl eq_refl)). unfold zlen in HZ. cbn [fst snd]. destruct d; cbn [nd wlen] in *; lia. }
  assert (S4 : map (map (fun x => snd (snd x))) segs = map snd parts).
  { apply cut_data; [rewrite S3, map_map; reflexivity|]. rewrite S1, ED, map_map. reflexivity. }
  assert (SG : map zlen segs = map (fun x => zlen (snd x)) parts).
  { assert (G : map Z.of_nat (map (@length _) segs) = map Z.of_nat (map (fun x => length (snd x)) parts)) by (rewrite S3; reflexivity). rewrite !map_map in G. exact G. }
  assert (LS : length segs = length parts) by (rewrite <- (map_length zlen segs), SG, map_length; reflexivity).
  destruct (inflate_spec d St' D T nodata true segs pt) with (ss := map (fun x => fst (fst x)) parts) as (F' & E & OK' & R1 & R2 & R3 & R4).
  - rewrite S1. exact SO.
  - rewrite S1. intros x I. apply (leaves_wf d St D T HT F x OK I).
  - exact HT.
  - rewrite S1. intros t Ht. apply (tree_leaves d St D T HT F t OK Ht).
  - discriminate.
  - rewrite S1. exact GP.
  - intros ->. destruct parts; [congruence|discriminate LS].
  - rewrite map_length. symmetry. exact LS.
  - exists pt, F'. split; [exact EP|]. rewrite <- SG. split.
    + rewrite <- E. f_equal. unfold ins_of, dataof. clear - S2 S4 LS. revert segs S2 S4 LS.
      induction parts as [|((s, qa), da) parts IH]; intros [|sg segs] S2 S4 LS; try discriminate LS; [reflexivity|]. cbn [map combine fst snd] in *.
      injection S2 as E1 E2. injection S4 as E3 E4. rewrite (IH segs E2 E4) by (cbn in LS; lia). rewrite E1, map_map, E3. reflexivity.
    + split; [exact OK'|]. split; [unfold all_leaves; rewrite flat_map_concat_map; fold (rank_leaves St' D T); change (fun p => loc_from 0 (Z.to_nat T) (lvs St' D p)) with (rank_leaves St' D T); rewrite R1; exact S1|].
      split; [|split; [exact R2|exact R4]]. destruct OK' as (_ & FP' & _). rewrite <- R1, map_map. apply map_ext_in. intros p I. rewrite Forall_forall in FP'. destruct (FP' p I) as (_ & N & _). exact N.
Qed.

(** without the data array *)
Theorem C37_without_data : forall d St D St' T nodata (F : forest St D) (parts : list (St' * list Z)) (counts : list Z),
  0 < T -> forest_ok d St D T F -> parts <> [] ->
  concat (map snd parts) = all_words d F -> Forall2 (fun x n => zlen (snd x) = (nd d + 1) * n) parts counts ->
  exists pertree F', pertree_of d T F = Some pertree /\
    inflate d St' D T nodata (count_quadrants counts) pertree (map (fun x => (x, None)) parts) = Some F' /\
    forest_ok d St' D T F' /\
    all_leaves St' D T (f_procs _ _ F') = map (fun x => (fst x, (fst (snd x), nodata))) (all_leaves St D T (f_procs _ _ F)) /\
    map (pr_num St' D) (f_procs _ _ F') = counts /\ map (pr_s St' D) (f_procs _ _ F') = map fst parts /\ f_rev _ _ F' = 0.
Proof.
  intros d St D St' T nodata F parts counts HT OK NE EW HZ. destruct (pertree_ok d T F HT OK) as (pt & EP & GP). pose proof OK as (_ & FP & SO & _).
  set (L0 := all_leaves St D T (f_procs St D F)) in *. set (L := map (fun x => (fst x, (fst (snd x), nodata))) L0). rewrite (all_words_ok d T F FP) in EW. fold L0 in EW.
  assert (LAB : map fst L0 = map fst L) by (unfold L; rewrite map_map; reflexivity).
  assert (EW' : wordsof d D (map snd L0) = wordsof d D (map snd L)) by (unfold L, wordsof; rewrite !flat_map_concat_map, !map_map; reflexivity).
  rewrite EW' in EW.
  assert (OFL : forall t, map fst (ofl t L) = map fst (ofl t L0)).
  { intros t. unfold L, ofl. clear. induction L0 as [|x l IH]; [reflexivity|]. cbn [map filter fst]. destruct (fst x =? t); cbn [map fst snd]; rewrite IH; reflexivity. }
  destruct (cut_words d (map snd parts) (map Z.to_nat counts) L) as (segs & S1 & S2 & S3); [|exact EW|].
  { clear - HZ. induction HZ as [|x n parts counts H _ IH]; cbn [map]; constructor; [|exact IH]. unfold zlen in H. destruct d; cbn [nd wlen] in *; lia. }
  assert (SG : map zlen segs = counts).
  { assert (G : map Z.of_nat (map (@length _) segs) = map Z.of_nat (map Z.to_nat counts)) by (rewrite S3; reflexivity). rewrite !map_map in G. unfold zlen. rewrite G.
    clear - HZ. induction HZ as [|x n parts counts H _ IH]; [reflexivity|]. cbn [map]. rewrite IH. f_equal. unfold zlen in H. destruct d; cbn [nd] in H; lia. }
  assert (LP : length parts = length counts) by (clear - HZ; induction HZ; cbn [length]; [reflexivity|lia]).
  assert (LS : length segs = length parts) by (rewrite <- (map_length zlen segs), SG; symmetry; exact LP).
  destruct (inflate_spec d St' D T nodata false segs pt) with (ss := map fst parts) as (F' & E & OK' & R1 & R2 & R3 & R4).
  - rewrite S1. unfold L. clear - SO. induction SO as [|x l SS IH FA]; cbn [map]; constructor; [exact IH|]. rewrite Forall_map. exact FA.
  - rewrite S1. intros x I. unfold L in I. apply in_map_iff in I. destruct I as (y & <- & I). cbn [fst]. apply (leaves_wf d St D T HT F y OK I).
  - exact HT.
  - rewrite S1. intros t Ht. rewrite OFL. apply (tree_leaves d St D T HT F t OK Ht).
  - intros _. rewrite S1. unfold L. rewrite Forall_map. apply Forall_forall. reflexivity.
  - rewrite S1. intros t Ht. rewrite <- (below_labels t L0 L LAB). apply GP. exact Ht.
  - intros ->. destruct parts; [congruence|discriminate LS].
  - rewrite map_length. symmetry. exact LS.
  - exists pt, F'. split; [exact EP|]. rewrite SG in *. split.
    + rewrite <- E. f_equal. unfold ins_of, dataof. clear - S2 LS. revert segs S2 LS.
      induction parts as [|(s, qa) parts IH]; intros [|sg segs] S2 LS; try discriminate LS; [reflexivity|]. cbn [map combine fst snd] in *.
      injection S2 as E1 E2. rewrite (IH segs E2) by (cbn in LS; lia). rewrite E1. reflexivity.
    + split; [exact OK'|]. split; [unfold all_leaves at 1; rewrite flat_map_concat_map; change (fun p => loc_from 0 (Z.to_nat T) (lvs St' D p)) with (rank_leaves St' D T); rewrite R1; exact S1|].
      split; [|split; [exact R2|exact R4]]. destruct OK' as (_ & FP' & _). rewrite <- SG, <- R1, map_map. apply map_ext_in. intros p I. rewrite Forall_forall in FP'. destruct (FP' p I) as (_ & N & _). exact N.
Qed.

(** on the same ranks every rank gets back its own leaves *)
Theorem C37_same_ranks : forall d St D T nodata (F : forest St D), 0 < T -> forest_ok d St D T F ->
  exists pertree F', pertree_of d T F = Some pertree /\
    inflate d St D T nodata (f_gfq _ _ F) pertree (map (fun p => (pr_s _ _ p, fst (deflate d St D p), Some (snd (deflate d St D p)))) (f_procs _ _ F)) = Some F' /\
    forest_ok d St D T F' /\
    map (rank_leaves St D T) (f_procs _ _ F') = map (rank_leaves St D T) (f_procs _ _ F) /\
    f_gfq _ _ F' = f_gfq _ _ F /\ f_gfp _ _ F' = f_gfp _ _ F /\ f_gnum _ _ F' = f_gnum _ _ F.
Proof.
  intros d St D T nodata F HT OK. pose proof OK as (NE & FP & SO & _ & GN & GQ & GP).
  set (parts := map (fun p => (pr_s _ _ p, fst (deflate d St D p), snd (deflate d St D p))) (f_procs _ _ F)).
  assert (LN : map (fun x => zlen (snd x)) parts = map (pr_num St D) (f_procs _ _ F)).
  { unfold parts. rewrite map_map. apply map_ext_in. intros p I. rewrite Forall_forall in FP. pose proof (FP p I) as PO. unfold deflate. cbn [snd]. rewrite zlen_map, (local_leaves_ok d T p PO), zlen_map. destruct PO as (_ & N & _). rewrite N. reflexivity. }
  destruct (C37_deflate_inflate d St D St T nodata F parts HT OK) as (pt & F' & E1 & E2 & E3 & E4 & E5 & E6 & _).
  - unfold parts. intros E. apply map_eq_nil in E. contradiction.
  - unfold parts, all_words. rewrite map_map. reflexivity.
  - unfold parts, all_data. rewrite map_map. reflexivity.
  - intros s qa da I. unfold parts in I. apply in_map_iff in I. destruct I as (p & E & I). injection E as _ <- <-. change (flat_map (fun lf : quad * D => words d (fst lf)) (local_leaves St D p)) with (wordsof d D (local_leaves St D p)).
    unfold zlen. rewrite wordsof_length, map_length. destruct d; cbn [nd wlen]; lia.
  - exists pt, F'. split; [exact E1|]. rewrite LN in *. rewrite <- GQ in E2. unfold parts in E2. rewrite map_map in E2. split; [exact E2|]. split; [exact E3|].
    assert (RL : map (rank_leaves St D T) (f_procs _ _ F') = map (rank_leaves St D T) (f_procs _ _ F)).
    { pose proof E3 as (_ & FP' & _). unfold all_leaves in E4. rewrite !flat_map_concat_map in E4. change (fun p => loc_from 0 (Z.to_nat T) (lvs St D p)) with (rank_leaves St D T) in E4.
      assert (C : map (@length _) (map (rank_leaves St D T) (f_procs _ _ F')) = map (@length _) (map (rank_leaves St D T) (f_procs _ _ F))).
      { assert (G : forall ps, Forall (proc_ok d St D T) ps -> map (@length _) (map (rank_leaves St D T) ps) = map Z.to_nat (map (pr_num St D) ps)).
        { intros ps H. rewrite !map_map. apply map_ext_in. intros p I. rewrite Forall_forall in H. destruct (H p I) as (_ & N & _). rewrite N. unfold lvs_before, zlen, rank_leaves. lia. }
        rewrite !G by assumption. rewrite E5. reflexivity. }
      rewrite <- (cut_data (fun x => x) (map (rank_leaves St D T) (f_procs _ _ F')) (map (rank_leaves St D T) (f_procs _ _ F)) C); [|rewrite map_id; symmetry; exact E4].
      rewrite (map_ext (map (fun x => x)) (fun x => x)) by (intros; apply map_id). rewrite map_id. reflexivity. }
    split; [exact RL|].
    destruct (C31_valid_forest d St D T F HT OK) as (_ & _ & _ & _ & G1 & G2 & G3). destruct (C31_valid_forest d St D T F' HT E3) as (_ & _ & _ & _ & G1' & G2' & G3').
    pose proof E3 as (_ & FP' & _ & _ & GN' & GQ' & GP'). split; [rewrite GQ, GQ', E5; reflexivity|]. split; [|rewrite GN, GN', E4; reflexivity].
    assert (LL : length (f_procs St D F') = length (f_procs St D F)) by (rewrite <- (map_length (pr_num St D)), E5, map_length; reflexivity).
    assert (LM : forall G : forest St D, forest_ok d St D T G -> length (f_gfp _ _ G) = S (length (f_procs _ _ G))).
    { intros G OG. pose proof (forest_dist d St D T HT G OG) as (RK & _). destruct (global_partition_spec (@fst quad D) T _ RK) as (ms & EM & LM & _). destruct OG as (_ & _ & _ & _ & _ & _ & GG). rewrite GG in EM. injection EM as ->. rewrite LM, map_length. reflexivity. }
    apply nth_error_ext_le with (n := S (length (f_procs St D F))).
    + rewrite LM by exact E3. lia.
    + rewrite LM by exact OK. lia.
    + intros k Hk. rewrite (G3 k) by lia. rewrite (G3' k) by lia. f_equal.
      assert (AS : forall ps, all_leaves St D T (skipn k ps) = concat (skipn k (map (rank_leaves St D T) ps))).
      { intros ps. unfold all_leaves. rewrite flat_map_concat_map, skipn_map. reflexivity. }
      rewrite !AS, RL. reflexivity.
Qed.
Print Assumptions C37_deflate_inflate.
Print Assumptions C37_without_data.
Print Assumptions C37_same_ranks.

(** ** Examples: two trees with four leaves each on four ranks, which number their leaves *)
Definition i_new (fuel : nat) : option (forest Z Z) := new_ext D2 Z Z 2 53 (fun s _ _ => (s + 1, s)) 1 1 true fuel [0; 10; 20; 30].
Lemma i_ok : exists F, i_new 0 = Some F /\ forest_ok D2 Z Z 2 F.
Proof.
  destruct (C34_new_ext D2 Z Z 2 53 (fun s _ _ => (s + 1, s)) 1 1 true [0; 10; 20; 30] 1 4) as (n0 & H); try lia; try discriminate; [cbn; lia|vm_compute; reflexivity|].
  destruct (H n0 ltac:(lia)) as (F & E & OK & _). exists F. split; [|exact OK]. exact E.
Qed.
(** three ranks with 3, 0 and 5 of the leaves *)
Definition i_parts (F : forest Z Z) : list (nat * list Z * list Z) :=
  [(7%nat, firstn 9 (all_words D2 F), firstn 3 (all_data D2 F)); (8%nat, [], []); (9%nat, skipn 9 (all_words D2 F), skipn 3 (all_data D2 F))].

Example C37_ex_hyps : exists F, i_new 0 = Some F /\ forest_ok D2 Z Z 2 F /\
  concat (map (fun x => snd (fst x)) (i_parts F)) = all_words D2 F /\ concat (map snd (i_parts F)) = all_data D2 F /\
  (forall s qa da, In (s, qa, da) (i_parts F) -> zlen qa = (nd D2 + 1) * zlen da) /\ all_data D2 F = [0; 1; 10; 11; 20; 21; 30; 31].
Proof.
  destruct i_ok as (F & E & OK). exists F. split; [exact E|]. split; [exact OK|]. unfold i_parts.
  assert (X : option_map (fun F => (all_words D2 F, all_data D2 F)) (i_new 0) =
    Some ([0; 0; 1; 2 ^ 29; 0; 1; 0; 2 ^ 29; 1; 2 ^ 29; 2 ^ 29; 1; 0; 0; 1; 2 ^ 29; 0; 1; 0; 2 ^ 29; 1; 2 ^ 29; 2 ^ 29; 1], [0; 1; 10; 11; 20; 21; 30; 31])) by (vm_compute; reflexivity).
  rewrite E in X. cbn [option_map] in X. assert (X' : (all_words D2 F, all_data D2 F) = ([0; 0; 1; 2 ^ 29; 0; 1; 0; 2 ^ 29; 1; 2 ^ 29; 2 ^ 29; 1; 0; 0; 1; 2 ^ 29; 0; 1; 0; 2 ^ 29; 1; 2 ^ 29; 2 ^ 29; 1], [0; 1; 10; 11; 20; 21; 30; 31])) by congruence.
  apply pair_equal_spec in X'. destruct X' as (X1 & X2). rewrite X1, X2. split; [reflexivity|]. split; [reflexivity|]. split; [|reflexivity].
  intros s qa da [I|[I|[I|[]]]]; injection I as _ <- <-; reflexivity.
Qed.
Example C37_ex_result : option_map (fun F => option_map (fun pt => (pt, option_map (fun F' => (map (fun p => (pr_s _ _ p, pr_first _ _ p, pr_last _ _ p, pr_num _ _ p)) (f_procs _ _ F'), map (fun p => map (fun x => (fst x, snd (snd x))) (rank_leaves nat Z 2 p)) (f_procs _ _ F'), f_gfq _ _ F'))
     (inflate D2 nat Z 2 (-1) (count_quadrants [3; 0; 5]) pt (map (fun x => (fst x, Some (snd x))) (i_parts F))))) (pertree_of D2 2 F)) (i_new 0) =
  Some (Some ([0; 4; 8], Some ([(7%nat, 0, 0, 3); (8%nat, -1, -2, 0); (9%nat, 0, 1, 5)], [[(0, 0); (0, 1); (0, 10)]; []; [(0, 11); (1, 20); (1, 21); (1, 30); (1, 31)]], [0; 3; 3; 8]))).
Proof. vm_compute. reflexivity. Qed.
