(** * Properties of p4est_search_partition: C57 *)

From Coq Require Import ZArith List Bool Lia Arith ZifyBool Sorting.Sorted.
From Verif Require Import Quad Spec Morton Interval QuadLemmas CompareLemmas DescLemmas.
From Verif Require Import Search SearchLemmas SearchLocal SearchPure Adapt ListLemmas Partition PartLemmas PartTrees PartRecv PartFinal PartShip
  Comm CommLemmas OwnerLemmas PropertiesOwner Tiles PartSearch PartSearchLemmas PartSearchRun.
From Verif Require Import PropertiesSearch.
Import ListNotations.
Open Scope Z_scope.

(** the arrays global_first_position and (if given) global_first_quadrant of a
    forest of T trees: non-decreasing markers from the beginning of the first
    to the end of the last tree; an empty rank has the marker of the next one *)
Definition partition_ok (d : dim) (T : Z) (gfq : option (list Z)) (gfp : list marker) : Prop :=
  0 <= T /\ 2 <= zlen gfp /\
  Forall (fun m => wf d (g_quad m) /\ ql (g_quad m) = 29 /\ 0 <= g_tree m) gfp /\
  (forall p m m', zget gfp p = Some m -> zget gfp (p + 1) = Some m' -> mpos d m <= mpos d m' /\
     forall g, gfq = Some g -> is_empty_gfq g p = Some (mpos d m =? mpos d m')) /\
  (forall m, zget gfp 0 = Some m -> mpos d m = 0) /\
  (forall m, zget gfp (zlen gfp - 1) = Some m -> mpos d m = T * TREE d).

(** rank p owns a part of quadrant q of tree t *)
Definition owns_part (d : dim) (gfp : list marker) (p t : Z) (q : quad) : Prop :=
  exists m m' k, zget gfp p = Some m /\ zget gfp (p + 1) = Some m' /\
    mpos d m <= k < mpos d m' /\ tpos d t q <= k < tend d t q.

(** lo and hi give the lowest and the highest rank that owns a part *)
Definition rank_bounds (d : dim) (T : Z) (gfp : list marker) (lo hi : Z -> quad -> Z) : Prop :=
  forall t q, 0 <= t < T -> wf d q ->
    owns_part d gfp (lo t q) t q /\ owns_part d gfp (hi t q) t q /\
    forall p, owns_part d gfp p t q -> lo t q <= p <= hi t q.

Definition two_ranks (d : dim) (gfp : list marker) (t : Z) (q : quad) : Prop :=
  exists p p', p <> p' /\ owns_part d gfp p t q /\ owns_part d gfp p' t q.

(** [partition_nodes t N]: N lists in curve order (ancestors first) exactly the
    quadrants of tree t shared by at least two ranks, marked None, and the
    largest quadrants of one rank, marked Some.  The latter cover the tree. *)
Definition partition_nodes (d : dim) (gfp : list marker) (t : Z) (N : list node) : Prop :=
  StronglySorted (fun m n => compare d (fst m) (fst n) < 0) N /\
  (forall b, In (b, None) N <-> wf d b /\ two_ranks d gfp t b) /\
  (forall b k, In (b, Some k) N <-> k = 0%nat /\ wf d b /\ ~ two_ranks d gfp t b /\
     forall c, wf d c -> (forall x y z, inq d b x y z -> inq d c x y z) -> c <> b -> two_ranks d gfp t c) /\
  tiles d 0 (TREE d) (map fst (filter (fun n : node => match snd n with Some _ => true | None => false end) N)).

Section P.
  Variables (d : dim) (T : Z) (gfq : option (list Z)) (gfp : list marker).
  Hypothesis HOK : partition_ok d T gfq gfp.
  Let P := zlen gfp - 1.
  Local Notation mp := (mp d gfp).

  Lemma ok_T : 0 <= T. Proof. apply HOK. Qed.
  Lemma ok_P : 1 <= P. Proof. unfold P. destruct HOK as (_ & ? & _). lia. Qed.
  Lemma ok_len : zlen gfp = P + 1. Proof. unfold P. lia. Qed.
  Lemma ok_q : Forall (fun m => wf d (g_quad m) /\ ql (g_quad m) = 29 /\ 0 <= g_tree m) gfp. Proof. apply HOK. Qed.
  Lemma ok_get p : 0 <= p <= P -> exists m, zget gfp p = Some m /\ mp p = mpos d m.
  Proof. intros H. destruct (get d P gfp ok_P ok_len ok_q p H) as (m & A & B & _). eauto. Qed.
  Lemma ok_mono p : 0 <= p < P -> mp p <= mp (p + 1).
  Proof.
    intros H. destruct (ok_get p ltac:(lia)) as (m & A & ->). destruct (ok_get (p + 1) ltac:(lia)) as (m' & B & ->).
    destruct HOK as (_ & _ & _ & X & _). apply (X p m m' A B).
  Qed.
  Lemma ok_0 : mp 0 = 0.
  Proof. destruct (ok_get 0 ltac:(pose proof ok_P; lia)) as (m & A & ->). destruct HOK as (_ & _ & _ & _ & X & _). auto. Qed.
  Lemma ok_N : mp P = T * TREE d.
  Proof. destruct (ok_get P ltac:(pose proof ok_P; lia)) as (m & A & ->). destruct HOK as (_ & _ & _ & _ & _ & X). auto. Qed.
  Lemma ok_gfq g p : gfq = Some g -> 0 <= p < P -> is_empty_gfq g p = Some (mp p =? mp (p + 1)).
  Proof.
    intros G H. destruct (ok_get p ltac:(lia)) as (m & A & ->). destruct (ok_get (p + 1) ltac:(lia)) as (m' & B & ->).
    destruct HOK as (_ & _ & _ & X & _). apply (X p m m' A B). exact G.
  Qed.

  Let lo := lo d P gfp.
  Let hi := hi d P gfp.

  Lemma owns_iff p t q : owns_part d gfp p t q <-> owns d P gfp p t q.
  Proof.
    split.
    - intros (m & m' & k & A & B & K & R). exists k. split; [exact R|].
      assert (HP : 0 <= p < P).
      { unfold zget in A, B. destruct (p <? 0) eqn:C1; [discriminate|]. destruct (p + 1 <? 0) eqn:C2; [discriminate|].
        assert ((Z.to_nat (p + 1) < length gfp)%nat) by (apply nth_error_Some; congruence). unfold P, zlen. lia. }
      split; [exact HP|]. unfold OwnerLemmas.mp. rewrite A, B. exact K.
    - intros (k & R & HP & K). destruct (ok_get p ltac:(lia)) as (m & A & E1). destruct (ok_get (p + 1) ltac:(lia)) as (m' & B & E2).
      exists m, m', k. rewrite <- E1, <- E2. auto.
  Qed.

  Lemma bounds : rank_bounds d T gfp lo hi.
  Proof.
    intros t q Ht W. rewrite !owns_iff. pose proof (range d T t q W Ht).
    split; [exists (tpos d t q)|split; [exists (tend d t q - 1)|]].
    - split; [lia|]. apply (lo_own d T P gfp ok_P ok_0 ok_N t q W Ht).
    - split; [lia|]. apply (hi_own d T P gfp ok_P ok_0 ok_N t q W Ht).
    - intros p Hp. apply owns_iff in Hp. apply (owns_between d T P gfp ok_P ok_mono ok_0 ok_N t q p W Ht Hp).
  Qed.

  Lemma two_iff t q : 0 <= t < T -> wf d q -> (two_ranks d gfp t q <-> lo t q <> hi t q).
  Proof.
    intros Ht W. destruct (bounds t q Ht W) as (A & B & C). split.
    - intros (p & p' & N & H1 & H2) E. pose proof (C p H1). pose proof (C p' H2). lia.
    - intros N. exists (lo t q), (hi t q). auto.
  Qed.

  Let N (t : Z) := pnodes d P gfp t 31 (mkq 0 0 0 0).

  Lemma nodes_ok t : 0 <= t < T -> partition_nodes d gfp t (N t).
  Proof.
    intros Ht. pose proof (PropertiesSearch.root_wf d) as W.
    assert (INR : forall b, wf d b -> within d (mkq 0 0 0 0) b).
    { intros b Wb. pose proof (wf_root_bounds d b Wb) as (A & B). unfold within.
      replace (qpos d (mkq 0 0 0 0)) with 0 by (destruct d; reflexivity).
      replace (qend d (mkq 0 0 0 0)) with (2 ^ (nd d * 30)) by (destruct d; reflexivity). auto. }
    split; [|split; [|split]].
    - apply (pnodes_sorted d T P gfq gfp ok_P ok_len ok_q ok_mono ok_0 ok_N ok_gfq t Ht 31 _ W).
    - intros b. unfold N. rewrite (pnodes_branch d T P gfq gfp ok_P ok_len ok_q ok_mono ok_0 ok_N ok_gfq t Ht 31 _ W) by (cbn [ql]; lia).
      split.
      + intros (Wb & _ & X). split; [exact Wb|]. apply two_iff; auto.
      + intros (Wb & X). split; [exact Wb|]. split; [auto|]. apply two_iff in X; auto.
    - intros b k. unfold N. rewrite (pnodes_leaf d T P gfq gfp ok_P ok_len ok_q ok_mono ok_0 ok_N ok_gfq t Ht 31 _ W) by (cbn [ql]; lia).
      split.
      + intros (-> & Wb & _ & X & M). split; [reflexivity|]. split; [exact Wb|]. split.
        * intros Y. apply two_iff in Y; auto.
        * intros c Wc I NE. apply two_iff; [exact Ht|exact Wc|]. apply (M c Wc); [auto| |exact NE].
          apply (subset_interval d c b Wc Wb). exact I.
      + intros (-> & Wb & X & M). split; [reflexivity|]. split; [exact Wb|]. split; [auto|]. split.
        * destruct (Z.eq_dec (lo t b) (hi t b)) as [Y|Y]; [exact Y|]. exfalso. apply X. apply two_iff; auto.
        * intros c Wc _ I NE. assert (Y : two_ranks d gfp t c).
          { apply (M c Wc); [|exact NE]. apply (subset_interval d c b Wc Wb). exact I. }
          apply two_iff in Y; auto.
    - pose proof (pnodes_tiles d T P gfq gfp ok_P ok_len ok_q ok_mono ok_0 ok_N ok_gfq t Ht 31 _ W ltac:(cbn [ql]; lia)) as X.
      replace (qpos d (mkq 0 0 0 0)) with 0 in X by (destruct d; reflexivity).
      replace (qend d (mkq 0 0 0 0)) with (TREE d) in X by (destruct d; reflexivity). exact X.
  Qed.

  Lemma all_points {Pt} (pts : list Pt) : Forall2 (fun i p => nth_error pts i = Some p) (seq 0 (length pts)) pts.
  Proof.
    assert (G : forall pre l : list Pt, Forall2 (fun i p => nth_error (pre ++ l) i = Some p) (seq (length pre) (length l)) l).
    { intros pre l. revert pre. induction l as [|p l IH]; intros pre; [constructor|]. cbn [length seq]. constructor.
      - rewrite nth_error_app2, Nat.sub_diag by lia. reflexivity.
      - specialize (IH (pre ++ [p])). rewrite app_length in IH. cbn [length] in IH.
        rewrite Nat.add_1_r in IH. rewrite <- app_assoc in IH. exact IH. }
    apply (G []).
  Qed.

  Lemma trees {St Pt} (rec : prec St Pt) : forall n k s, (k + n <= Z.to_nat T)%nat ->
    let off := array_split (fun m => Z.to_nat (g_tree m)) (Z.to_nat (T + 1)) gfp in
    tree_loop d rec gfq gfp off s (Z.of_nat (nth k off 0%nat)) (seq k n) =
    Some (fold_left (fun s t => run d St Pt (with_ranks lo hi rec) t 0 s (map (fun n => (n, p_points rec)) (N t)))
      (map Z.of_nat (seq k n)) s).
  Proof.
    intros n k s Hk off. revert k s Hk. induction n as [|n IH]; intros k s Hk; [reflexivity|].
    cbn [seq tree_loop map fold_left]. pose proof (tree_pos d) as TP.
    destruct (tree_cut d T P gfp ok_T ok_P ok_len ok_q ok_mono ok_0 ok_N k ltac:(lia)) as (A1 & A2 & A3 & A4).
    destruct (tree_cut d T P gfp ok_T ok_P ok_len ok_q ok_mono ok_0 ok_N (k + 1)%nat ltac:(lia)) as (B1 & B2 & B3 & B4).
    fold off in A1, A2, A3, A4, B1, B2, B3, B4.
    set (c := Z.of_nat (nth k off 0%nat)) in *. set (c' := Z.of_nat (nth (k + 1) off 0%nat)) in *.
    pose proof (PropertiesSearch.root_wf d) as W. set (root := mkq 0 0 0 0) in *.
    assert (R0 : tpos d (Z.of_nat k) root = Z.of_nat k * TREE d) by (unfold tpos; replace (qpos d root) with 0 by (destruct d; reflexivity); lia).
    assert (R1 : tend d (Z.of_nat k) root = Z.of_nat (k + 1) * TREE d) by (unfold tend; replace (qend d root) with (TREE d) by (destruct d; reflexivity); lia).
    rewrite <- R0 in A3, A4. rewrite <- R1 in B3, B4.
    assert (LE : tpos d (Z.of_nat k) root < tend d (Z.of_nat k) root) by lia.
    destruct (first_proc_spec d T P gfq gfp ok_P ok_len ok_q ok_mono ok_0 ok_N ok_gfq (Z.of_nat k) root c c' (tend d (Z.of_nat k) root)) as (f & E1 & E2 & E3 & E4).
    { exact W. } { lia. }
    { split; [lia|]. destruct (Z_le_gt_dec c c') as [X|X]; [exact X|exfalso].
      pose proof (mono d P gfp ok_mono c' (c - 1) ltac:(lia) ltac:(lia)). specialize (A3 ltac:(lia)). lia. }
    { lia. } { exact LE. } { rewrite R1. replace (Z.of_nat (k + 1)) with (Z.of_nat k + 1) by lia. lia. }
    { intros X. rewrite X, ok_0 in A4. assert (0 <= Z.of_nat k * TREE d) by (apply Z.mul_nonneg_nonneg; lia). lia. }
    { intros X. left. auto. } { exact A4. } { exact B3. } { exact B4. }
    rewrite E1. assert (HK : 0 <= Z.of_nat k < T) by lia.
    replace f with (lo (Z.of_nat k) root).
    2:{ apply (own_unique d P gfp ok_mono (tpos d (Z.of_nat k) root)); [apply (lo_own d T P gfp ok_P ok_0 ok_N _ _ W HK)|exact E3]. }
    replace (c' - 1) with (hi (Z.of_nat k) root).
    2:{ apply (own_unique d P gfp ok_mono (tend d (Z.of_nat k) root - 1)); [apply (hi_own d T P gfp ok_P ok_0 ok_N _ _ W HK)|exact E4]. }
    assert (REL : rel St Pt (with_ranks lo hi rec) None (p_points rec)).
    { unfold rel, act_of. change (points (with_ranks lo hi rec)) with (p_points rec). destruct (p_points rec) as [pts|]; [|reflexivity].
      exists pts. split; [reflexivity|]. apply all_points. }
    pose proof (p_rec_run d T P gfq gfp ok_P ok_len ok_q ok_mono ok_0 ok_N ok_gfq (Z.of_nat k) HK St Pt rec 31 s root None (p_points rec) W ltac:(cbn; lia) REL) as PRR.
    fold lo hi in PRR. rewrite PRR. unfold c'. replace (k + 1)%nat with (S k) by lia. apply IH. lia.
  Qed.
End P.

(** The search is the protocol [run] of the local search over these nodes, tree
    by tree: nodes are taken in order, the callbacks get exactly the lowest and
    the highest rank that own a part of the quadrant, and their answers remove
    the pending nodes inside it or restrict the points they are asked for.
    The callbacks may have any state. *)
Theorem C57_protocol : forall d T gfq gfp, partition_ok d T gfq gfp ->
  exists lo hi N, rank_bounds d T gfp lo hi /\ (forall t, 0 <= t < T -> partition_nodes d gfp t (N t)) /\
  forall (St Pt : Type) (rec : prec St Pt) s, p_quadrant_fn rec <> None \/ p_points rec <> None ->
    search_partition d rec gfq gfp T s =
    Some (fold_left (fun s t => run d St Pt (with_ranks lo hi rec) t 0 s (map (fun n => (n, p_points rec)) (N t)))
      (map Z.of_nat (seq 0 (Z.to_nat T))) s).
Proof.
  intros d T gfq gfp OK. eexists _, _, _. split; [apply (bounds d T gfq gfp OK)|]. split; [apply (nodes_ok d T gfq gfp OK)|].
  intros St Pt rec s H. pose proof (trees d T gfq gfp OK rec (Z.to_nat T) 0 s ltac:(lia)) as X. cbv zeta in X.
  destruct (tree_cut d T (zlen gfp - 1) gfp (ok_T d T gfq gfp OK) (ok_P d T gfq gfp OK) (ok_len gfp) (ok_q d T gfq gfp OK) (ok_mono d T gfq gfp OK)
    (ok_0 d T gfq gfp OK) (ok_N d T gfq gfp OK) 0%nat ltac:(lia)) as (_ & A & _).
  rewrite (A eq_refl) in X. unfold search_partition. rewrite X.
  destruct (p_quadrant_fn rec), (p_points rec); try reflexivity. destruct H; congruence.
Qed.

(** ** Traces: callbacks that log their arguments and answer by predicates *)
Inductive pevent (Pt : Type) :=
| PQ (tree : Z) (q : quad) (pfirst plast : Z)
| PP (tree : Z) (q : quad) (pfirst plast : Z) (p : Pt).
Arguments PQ {Pt}.
Arguments PP {Pt}.

Definition plog {Pt} (A : Z -> quad -> Z -> Z -> bool) (B : Z -> quad -> Z -> Z -> Pt -> bool)
    (post : bool) (pts : option (list Pt)) : prec (list (pevent Pt)) Pt :=
  mkprec post (Some (fun s t q pf pl => (s ++ [PQ t q pf pl], A t q pf pl)))
         (fun s t q pf pl p => (s ++ [PP t q pf pl p], B t q pf pl p)) pts.

Section Trace.
  Variables (d : dim) (gfp : list marker) (lo hi : Z -> quad -> Z) (Pt : Type).
  Variables (A : Z -> quad -> Z -> Z -> bool) (B : Z -> quad -> Z -> Z -> Pt -> bool) (post : bool) (pts : option (list Pt)).
  Let A' (t : Z) (q : quad) (_ : Z) := A t q (lo t q) (hi t q).
  Let B' (t : Z) (q : quad) (_ : Z) (p : Pt) := B t q (lo t q) (hi t q) p.

  Definition conv (e : event Pt) : pevent Pt :=
    match e with
    | CallQ t q _ => PQ t q (lo t q) (hi t q)
    | CallP t q _ p => PP t q (lo t q) (hi t q) p
    end.

  Lemma nodes_winv t N (ps : option (list Pt)) : partition_nodes d gfp t N -> winv d Pt (map (fun n => (n, ps)) N).
  Proof.
    intros (S & B1 & L & _). split; [|split].
    - apply (SS_map (fun e f : node * option (list Pt) => node_lt d (fst e) (fst f)) (fun n => (n, ps))). exact S.
    - intros n p I. apply in_map_iff in I. destruct I as (m & E & I). inversion E; subst. destruct n as (b, [k|]).
      + apply L in I. apply I.
      + apply B1 in I. apply I.
    - intros n p n' p' I I' _. apply in_map_iff in I. apply in_map_iff in I'.
      destruct I as (m & E & I). destruct I' as (m' & E' & I'). congruence.
  Qed.

  Lemma trace_tree t N s : partition_nodes d gfp t N ->
    run d _ Pt (with_ranks lo hi (plog A B post pts)) t 0 s (map (fun n => (n, pts)) N) =
    s ++ map conv (flat_map (fun n => ev Pt A' post t 0 n (actv d Pt A' B' t 0 N n pts)) N).
  Proof.
    intros HN. pose proof (run_map d (list (event Pt)) (list (pevent Pt)) Pt (fun e => s ++ map conv e)
      (log_rec A' B' post pts) (with_ranks lo hi (plog A B post pts)) t 0 eq_refl) as R.
    specialize (R ltac:(intros e n; unfold ask_quadrant; cbn [log_rec with_ranks plog quadrant_fn p_quadrant_fn fst snd];
      rewrite map_app, app_assoc; reflexivity)).
    specialize (R ltac:(intros e q num p; cbn [log_rec with_ranks plog point_fn p_point_fn fst snd];
      rewrite map_app, app_assoc; reflexivity)).
    specialize (R (map (fun n => (n, pts)) N) []). cbn [map] in R. rewrite app_nil_r in R. rewrite <- R. f_equal. f_equal.
    rewrite (run_log d Pt A' B' post pts t 0 _ _ [] (Nat.le_refl _) (nodes_winv t N pts HN)). cbn [app].
    rewrite flat_map_map, map_map. cbn [fst snd]. rewrite map_id. reflexivity.
  Qed.
End Trace.

Lemma fold_trace {X} (f : list X -> Z -> list X) (g : Z -> list X) : forall ts s,
  (forall t s, In t ts -> f s t = s ++ g t) -> fold_left f ts s = s ++ concat (map g ts).
Proof.
  induction ts as [|t ts IH]; intros s H; [cbn; rewrite app_nil_r; reflexivity|]. cbn [fold_left map concat].
  rewrite (H t s) by (left; auto). rewrite IH by (intros; apply H; right; auto). rewrite app_assoc. reflexivity.
Qed.

Lemma nodes_wf d gfp t N : partition_nodes d gfp t N -> forall n, In n N -> wf d (fst n).
Proof.
  intros (_ & B1 & L & _) (b, [k|]) I; [apply L in I|apply B1 in I]; apply I.
Qed.

(** Without points: a node is called exactly if the callback accepted every
    shared quadrant properly containing it; each once, in order, with its
    lowest and highest rank. *)
Theorem C57_quadrants : forall d T gfq gfp A post, partition_ok d T gfq gfp ->
  exists lo hi N (reached : Z -> node -> bool), rank_bounds d T gfp lo hi /\
  (forall t, 0 <= t < T -> partition_nodes d gfp t (N t) /\
     forall n, In n (N t) -> (reached t n = true <->
       forall m, In m (N t) -> fst m <> fst n -> (forall x y z, inq d (fst n) x y z -> inq d (fst m) x y z) ->
         A t (fst m) (lo t (fst m)) (hi t (fst m)) = true)) /\
  search_partition d (plog (Pt := unit) A (fun _ _ _ _ _ => true) post None) gfq gfp T [] =
  Some (concat (map (fun t => map (fun n => PQ t (fst n) (lo t (fst n)) (hi t (fst n))) (filter (reached t) (N t)))
    (map Z.of_nat (seq 0 (Z.to_nat T))))).
Proof.
  intros d T gfq gfp A post OK. destruct (C57_protocol d T gfq gfp OK) as (lo & hi & N & RB & NO & E).
  set (reached := fun t (n : node) => forallb (fun m : node => implb (strictb d (fst m) (fst n)) (A t (fst m) (lo t (fst m)) (hi t (fst m)))) (N t)).
  exists lo, hi, N, reached. split; [exact RB|]. split.
  - intros t Ht. split; [auto|]. intros n I. unfold reached.
    apply (forallb_impl_iff d (N t) n (fun m => A t (fst m) (lo t (fst m)) (hi t (fst m)))); [apply (nodes_wf d gfp t _ (NO t Ht))|].
    apply (nodes_wf d gfp t _ (NO t Ht) n I).
  - rewrite E by (left; discriminate). f_equal. apply (fold_trace _ _ _ []). intros t s It.
    assert (Ht : 0 <= t < T) by (apply in_map_iff in It; destruct It as (k & <- & It); apply in_seq in It; lia).
    cbn [p_points plog]. rewrite (trace_tree d gfp lo hi unit A (fun _ _ _ _ _ => true) post None t (N t) s (NO t Ht)). f_equal.
    assert (G : forall N', map (conv lo hi unit) (flat_map (fun n => ev unit (fun t q _ => A t q (lo t q) (hi t q)) post t 0 n
        (actv d unit (fun t q _ => A t q (lo t q) (hi t q)) (fun t q _ p => true) t 0 (N t) n None)) N') =
      map (fun n => PQ t (fst n) (lo t (fst n)) (hi t (fst n)))
       (filter (reached t) N')).
    { induction N' as [|n N' IH]; [reflexivity|]. cbn [flat_map filter]. rewrite map_app, IH, actv_none.
      change (forallb _ (N t)) with (reached t n). destruct (reached t n); reflexivity. }
    apply G.
Qed.

(** With points: a point is active at a node exactly if both callbacks accepted
    it at every shared quadrant properly containing the node.  A node without
    active points is skipped; the active points are passed in array order. *)
Theorem C57_points : forall d T gfq gfp (Pt : Type) A (B : Z -> quad -> Z -> Z -> Pt -> bool) post pts, partition_ok d T gfq gfp ->
  exists lo hi N (active : Z -> node -> Pt -> bool), rank_bounds d T gfp lo hi /\
  (forall t, 0 <= t < T -> partition_nodes d gfp t (N t) /\
     forall n p, In n (N t) -> (active t n p = true <->
       forall m, In m (N t) -> fst m <> fst n -> (forall x y z, inq d (fst n) x y z -> inq d (fst m) x y z) ->
         A t (fst m) (lo t (fst m)) (hi t (fst m)) = true /\ B t (fst m) (lo t (fst m)) (hi t (fst m)) p = true)) /\
  search_partition d (plog A B post (Some pts)) gfq gfp T [] =
  Some (concat (map (fun t => concat (map (fun n =>
      let pf := lo t (fst n) in let pl := hi t (fst n) in
      match filter (active t n) pts with
      | [] => []
      | l => PQ t (fst n) pf pl :: (if A t (fst n) pf pl
               then map (PP t (fst n) pf pl) l ++ (if post then [PQ t (fst n) pf pl] else []) else [])
      end) (N t))) (map Z.of_nat (seq 0 (Z.to_nat T))))).
Proof.
  intros d T gfq gfp Pt A B post pts OK. destruct (C57_protocol d T gfq gfp OK) as (lo & hi & N & RB & NO & E).
  set (active := fun t (n : node) p => forallb (fun m : node => implb (strictb d (fst m) (fst n))
    (A t (fst m) (lo t (fst m)) (hi t (fst m)) && B t (fst m) (lo t (fst m)) (hi t (fst m)) p)) (N t)).
  exists lo, hi, N, active. split; [exact RB|]. split.
  - intros t Ht. split; [auto|]. intros n p I. unfold active.
    rewrite (forallb_impl_iff d (N t) n (fun m => A t (fst m) (lo t (fst m)) (hi t (fst m)) && B t (fst m) (lo t (fst m)) (hi t (fst m)) p)
      (nodes_wf d gfp t _ (NO t Ht)) (nodes_wf d gfp t _ (NO t Ht) n I)).
    split; intros H m X Y Z0; specialize (H m X Y Z0); apply andb_true_iff; auto.
  - rewrite E by (left; discriminate). f_equal. apply (fold_trace _ _ _ []). intros t s It.
    assert (Ht : 0 <= t < T) by (apply in_map_iff in It; destruct It as (k & <- & It); apply in_seq in It; lia).
    cbn [p_points plog]. rewrite (trace_tree d gfp lo hi Pt A B post (Some pts) t (N t) s (NO t Ht)). f_equal.
    rewrite flat_map_concat_map, concat_map, map_map. f_equal. apply map_ext. intros n. rewrite actv_some. unfold okq, okp.
    change (filter _ pts) with (filter (active t n) pts). cbv zeta.
    destruct (filter (active t n) pts) as [|p l]; [reflexivity|]. unfold ev, okq. cbn [map conv]. f_equal.
    destruct (A t (fst n) (lo t (fst n)) (hi t (fst n))); [|reflexivity]. rewrite map_app. f_equal; [|destruct post; reflexivity].
    cbn [map conv]. f_equal. rewrite map_map. reflexivity.
Qed.

(** ** For the markers of a complete forest

    A rank owns a part of a quadrant exactly if one of its leaves overlaps it. *)
Theorem C57_forest {A} (d : dim) (qof : A -> quad) (T : Z) (ranks : list (rk A)) :
  forest_ok d qof T ranks -> covers d qof 0 (T * TREE d) (glob T ranks) -> 0 <= T -> ranks <> [] ->
  exists ms, global_partition qof T ranks = Some ms /\
    partition_ok d T (Some (count_quadrants (map (fun r => zlen (loc T r)) ranks))) ms /\
    partition_ok d T None ms /\
    forall p t q, 0 <= t < T -> wf d q ->
      (owns_part d ms p t q <-> exists r x, zget ranks p = Some r /\ In x (loc T r) /\ fst x = t /\
         qpos d (qof (snd x)) < qend d q /\ qpos d q < qend d (qof (snd x))).
Proof.
  intros HF HC HT NE. destruct (C26_global_partition d qof T ranks HF) as (ms & E & L & LAST & H26).
  destruct (markers d qof T ranks HF) as (ms' & E' & L' & NTH). rewrite E in E'. injection E' as <-.
  destruct (mp_hd d qof T ranks HF ms L NTH) as (M1 & M2 & M3).
  assert (RL : 1 <= zlen ranks) by (destruct ranks; [congruence|unfold zlen; cbn [length]; lia]).
  exists ms. split; [exact E|].
  assert (GETR : forall p m m', zget ms p = Some m -> zget ms (p + 1) = Some m' -> exists r, zget ranks p = Some r /\ 0 <= p < zlen ranks).
  { intros p m m' G1 G2. assert (Hp : 0 <= p < zlen ranks).
    { unfold zget in G1, G2. destruct (p <? 0) eqn:C1; [discriminate|]. destruct (p + 1 <? 0) eqn:C2; [discriminate|].
      assert ((Z.to_nat (p + 1) < length ms)%nat) by (apply nth_error_Some; congruence). unfold zlen in L |- *. lia. }
    destruct (zget ranks p) as [r|] eqn:Er; [exists r; auto|]. rewrite zget_nth in Er by lia. apply nth_error_None in Er. unfold zlen in Hp. lia. }
  assert (POK : forall g, g = None \/ g = Some (count_quadrants (map (fun r => zlen (loc T r)) ranks)) -> partition_ok d T g ms).
  { intros g Hg. split; [exact HT|]. split; [lia|]. split; [|split; [|split]].
    - apply Forall_forall. intros m Hm. apply In_nth_error in Hm. destruct Hm as (i & Hi).
      assert (Li : (i < length ms)%nat) by (apply nth_error_Some; congruence).
      assert (Em : zget ms (Z.of_nat i) = Some m) by (rewrite zget_nth by lia; rewrite Nat2Z.id; exact Hi).
      rewrite NTH in Em by (unfold zlen in L |- *; lia). injection Em as <-.
      destruct (mark_hd_wf d qof T ranks HF (Z.to_nat (Z.of_nat i))) as [W1 W2]. split; [exact W1|]. split; [exact W2|].
      destruct (glob T (skipn (Z.to_nat (Z.of_nat i)) ranks)) as [|x l] eqn:EG; cbn [mark_hd g_tree sentinel]; [exact HT|].
      unfold mark. cbn [g_tree]. apply (glob_label T ranks x). apply (glob_in T ranks x (Z.to_nat (Z.of_nat i))). rewrite EG. left. reflexivity.
    - intros p m m' G1 G2. destruct (GETR p m m' G1 G2) as (r & Er & Hp).
      destruct (H26 p r Er) as (m1 & m1' & em & X1 & X2 & X3 & X4 & X5 & X6 & _ & _ & _).
      rewrite G1 in X1. injection X1 as <-. rewrite G2 in X2. injection X2 as <-. split; [exact X3|].
      intros g' ->. destruct Hg as [Hg|Hg]; [discriminate|]. injection Hg as ->. rewrite X5. f_equal.
      destruct (mark_hd_step d qof T ranks HF p r Er) as (_ & S2 & S3).
      rewrite NTH in G1, G2 by lia. injection G1 as <-. injection G2 as <-.
      destruct em.
      + rewrite S2 by (apply X6; reflexivity). symmetry. apply Z.eqb_refl.
      + assert (loc T r <> []) by (intros Y; apply X6 in Y; discriminate). specialize (S3 H). symmetry. apply Z.eqb_neq. lia.
    - intros m Em. rewrite NTH in Em by lia. injection Em as <-. cbn [Z.to_nat skipn].
      destruct (glob T ranks) as [|x l] eqn:EG; cbn [covers] in HC.
      + cbn [mark_hd]. rewrite mpos_sentinel. lia.
      + cbn [mark_hd]. destruct HC as [HC _]. exact HC.
    - intros m Em. replace (zlen ms - 1) with (zlen ranks) in Em by lia. rewrite LAST in Em. injection Em as <-.
      apply (mpos_sentinel d T). }
  split; [apply POK; right; reflexivity|]. split; [apply POK; left; reflexivity|].
  intros p t q Ht Wq. split.
  - intros (m & m' & k & G1 & G2 & K & R). destruct (GETR p m m' G1 G2) as (r & Er & Hp). exists r.
    assert (EC : forall l a b k, covers d qof a b l -> a <= k < b -> exists x, In x l /\ tpos d (fst x) (qof (snd x)) <= k < tend d (fst x) (qof (snd x))).
    { clear. induction l as [|x l IH]; intros a b k HC Hk; cbn [covers] in HC; [lia|]. destruct HC as [H1 H2].
      destruct (Z.lt_ge_cases k (tend d (fst x) (qof (snd x)))) as [L|G].
      - exists x. split; [left; reflexivity|lia].
      - destruct (IH _ _ k H2 ltac:(lia)) as (y & Hy & Ky). exists y. split; [right; exact Hy|exact Ky]. }
    pose proof (range d T t q Wq Ht) as RG.
    destruct (EC _ _ _ k HC ltac:(lia)) as (x & Hx & Kx). exists x. split; [exact Er|].
    assert (XP : exists p' r', zget ranks p' = Some r' /\ In x (loc T r')).
    { unfold glob in Hx. apply in_flat_map in Hx. destruct Hx as (r' & Hr' & Hx). apply In_nth_error in Hr'. destruct Hr' as (i & Hi).
      exists (Z.of_nat i), r'. split; [rewrite zget_nth by lia; rewrite Nat2Z.id; exact Hi|exact Hx]. }
    destruct XP as (p' & r' & Er' & Hx').
    destruct (H26 p' r' Er') as (m1 & m1' & em & X1 & X2 & _ & _ & _ & _ & X3 & _). destruct (X3 x Hx') as [X4 X5].
    assert (p' = p).
    { destruct (skipn_zget ranks p' r' Er') as [Hp' _].
      apply (owner_unique d ms (zlen ranks) M3 k); [exact Hp'|exact Hp| |].
      - unfold mp. rewrite X1, X2. lia.
      - unfold mp. rewrite G1, G2. lia. }
    subst p'. rewrite Er in Er'. injection Er' as <-. split; [exact Hx'|].
    assert (W : wf d (qof (snd x))) by (apply HF; exact Hx). destruct (wf_root_bounds d _ W) as [B1 B2]. fold (TREE d) in B2.
    destruct (wf_root_bounds d _ Wq) as [B3 B4]. fold (TREE d) in B4.
    assert (FT : fst x = t).
    { unfold tpos, tend in Kx, R. destruct (Z.lt_trichotomy (fst x) t) as [G|[G|G]]; [|exact G|].
      - assert ((fst x + 1) * TREE d <= t * TREE d) by (apply Z.mul_le_mono_nonneg_r; pose proof (tree_pos d); lia). lia.
      - assert ((t + 1) * TREE d <= fst x * TREE d) by (apply Z.mul_le_mono_nonneg_r; pose proof (tree_pos d); lia). lia. }
    split; [exact FT|]. unfold tpos, tend in Kx, R. rewrite FT in Kx. lia.
  - intros (r & x & Er & Hx & FT & O1 & O2).
    destruct (H26 p r Er) as (m1 & m1' & em & X1 & X2 & _ & _ & _ & _ & X3 & _). destruct (X3 x Hx) as [X4 X5].
    assert (Ix : In x (glob T ranks)).
    { unfold glob. apply in_flat_map. exists r. split; [|exact Hx]. destruct (skipn_zget ranks p r Er) as [Hp _]. rewrite zget_nth in Er by lia. eapply nth_error_In. exact Er. }
    assert (W : wf d (qof (snd x))) by (apply HF; exact Ix).
    pose proof (size_pos d _ W). pose proof (size_pos d _ Wq). unfold tpos, tend in X4, X5. rewrite FT in X4, X5.
    exists m1, m1', (t * TREE d + Z.max (qpos d (qof (snd x))) (qpos d q)).
    split; [exact X1|]. split; [exact X2|]. unfold tpos, tend. lia.
Qed.

(** two trees on five ranks, ranks 0, 2 and 3 are empty: the first tree is of
    rank 1, the second one is shared by ranks 1 and 4 *)
Example C57_ex : exists ms, global_partition (fun q => q) 2 ex_owner = Some ms /\
  partition_ok D2 2 (Some [0; 0; 6; 6; 6; 8]) ms /\
  search_partition D2 (plog (Pt := unit) (fun _ _ _ _ => true) (fun _ _ _ _ _ => true) false None) (Some [0; 0; 6; 6; 6; 8]) ms 2 [] =
  Some [PQ 0 (mkq 0 0 0 0) 1 1; PQ 1 (mkq 0 0 0 0) 1 4; PQ 1 (c4 0) 1 1; PQ 1 (c4 1) 1 1; PQ 1 (c4 2) 4 4; PQ 1 (c4 3) 4 4] /\
  search_partition D2 (plog (fun _ _ _ _ => true) (fun _ q _ _ (x : Z) => (qx q <=? x) && (x <? qx q + 2 ^ (30 - ql q))) true (Some [5; 2 ^ 29])) None ms 2 [] =
  Some [PQ 0 (mkq 0 0 0 0) 1 1; PP 0 (mkq 0 0 0 0) 1 1 5; PP 0 (mkq 0 0 0 0) 1 1 (2 ^ 29); PQ 0 (mkq 0 0 0 0) 1 1;
        PQ 1 (mkq 0 0 0 0) 1 4; PP 1 (mkq 0 0 0 0) 1 4 5; PP 1 (mkq 0 0 0 0) 1 4 (2 ^ 29); PQ 1 (mkq 0 0 0 0) 1 4;
        PQ 1 (c4 0) 1 1; PP 1 (c4 0) 1 1 5; PP 1 (c4 0) 1 1 (2 ^ 29); PQ 1 (c4 0) 1 1;
        PQ 1 (c4 1) 1 1; PP 1 (c4 1) 1 1 5; PP 1 (c4 1) 1 1 (2 ^ 29); PQ 1 (c4 1) 1 1;
        PQ 1 (c4 2) 4 4; PP 1 (c4 2) 4 4 5; PP 1 (c4 2) 4 4 (2 ^ 29); PQ 1 (c4 2) 4 4;
        PQ 1 (c4 3) 4 4; PP 1 (c4 3) 4 4 5; PP 1 (c4 3) 4 4 (2 ^ 29); PQ 1 (c4 3) 4 4].
Proof.
  destruct C26_ex as (F & C & _).
  destruct (C57_forest D2 (fun q => q) 2 ex_owner F C ltac:(lia) ltac:(discriminate)) as (ms & E & OK & _).
  exists ms. split; [exact E|]. split; [exact OK|].
  assert (X : Some ms = global_partition (fun q => q) 2 ex_owner) by (rewrite E; reflexivity).
  vm_compute in X. injection X as ->. split; vm_compute; reflexivity.
Qed.

Print Assumptions C57_protocol.
Print Assumptions C57_quadrants.
Print Assumptions C57_points.
Print Assumptions C57_forest.
