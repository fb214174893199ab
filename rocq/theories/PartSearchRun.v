(** * The partition search follows the protocol of the local search *)

From Coq Require Import ZArith List Bool Lia Arith ZifyBool Sorting.Sorted.
From Verif Require Import Quad Spec Morton Interval QuadLemmas CompareLemmas DescLemmas.
From Verif Require Import Search SearchLemmas SearchLocal Adapt ListLemmas Partition PartLemmas Comm CommLemmas OwnerLemmas
  Tiles PartSearch PartSearchLemmas.
Import ListNotations.
Open Scope Z_scope.

(** the same callbacks with the two ranks computed from the tree and the quadrant *)
Definition with_ranks {St Pt} (lo hi : Z -> quad -> Z) (rec : prec St Pt) : lrec St Pt :=
  mklrec (p_post rec)
    (match p_quadrant_fn rec with None => None | Some f => Some (fun s t q _ => f s t q (lo t q) (hi t q)) end)
    (fun s t q _ p => p_point_fn rec s t q (lo t q) (hi t q) p)
    (p_points rec).

Section Nodes.
  Variables (d : dim) (T P : Z) (gfq : option (list Z)) (gfp : list marker).
  Hypothesis HT : 0 <= T.
  Hypothesis HP : 1 <= P.
  Hypothesis Hlen : zlen gfp = P + 1.
  Hypothesis Hq : Forall (fun m => wf d (g_quad m) /\ ql (g_quad m) = 29 /\ 0 <= g_tree m) gfp.
  Local Notation mp := (mp d gfp).
  Hypothesis Hmono : forall p, 0 <= p < P -> mp p <= mp (p + 1).
  Hypothesis H0 : mp 0 = 0.
  Hypothesis HN : mp P = T * TREE d.
  Hypothesis Hgfq : forall g p, gfq = Some g -> 0 <= p < P -> is_empty_gfq g p = Some (mp p =? mp (p + 1)).
  Local Notation own := (own d P gfp).

  Definition owner (k : Z) : Z :=
    match find (fun p => (mp p <=? k) && (k <? mp (p + 1))) (map Z.of_nat (seq 0 (Z.to_nat P))) with
    | Some p => p | None => 0 end.

  Lemma owner_spec k : 0 <= k < T * TREE d -> own (owner k) k.
  Proof.
    intros Hk. assert (EX : forall n, Z.of_nat n <= P -> k < mp (Z.of_nat n) -> exists p, 0 <= p < Z.of_nat n /\ mp p <= k < mp (p + 1)).
    { induction n as [|n IH]; intros Hn Hkn; [cbn in Hkn; lia|].
      destruct (Z_lt_le_dec k (mp (Z.of_nat n))) as [A|A].
      - destruct (IH ltac:(lia) A) as (p & ? & ?). exists p. split; [lia|auto].
      - exists (Z.of_nat n). split; [lia|]. replace (Z.of_nat n + 1) with (Z.of_nat (S n)) by lia. lia. }
    destruct (EX (Z.to_nat P)) as (p & Hp & Kp); [lia|rewrite Z2Nat.id by lia; lia|].
    unfold owner. destruct (find _ _) as [p'|] eqn:E.
    - apply find_some in E. destruct E as [I E]. apply in_map_iff in I. destruct I as (n & <- & I). apply in_seq in I.
      split; [lia|]. lia.
    - exfalso. assert (I : In p (map Z.of_nat (seq 0 (Z.to_nat P)))).
      { apply in_map_iff. exists (Z.to_nat p). split; [lia|]. apply in_seq. lia. }
      pose proof (find_none _ _ E p I) as X. cbn beta in X. lia.
  Qed.

  Definition lo (t : Z) (q : quad) : Z := owner (tpos d t q).
  Definition hi (t : Z) (q : quad) : Z := owner (tend d t q - 1).

  Lemma range t q : wf d q -> 0 <= t < T -> 0 <= tpos d t q < tend d t q /\ tend d t q <= T * TREE d.
  Proof.
    intros W Ht. destruct (wf_root_bounds d q W) as [B1 B2]. fold (TREE d) in B2. pose proof (size_pos d q W). pose proof (tree_pos d).
    unfold tpos, tend. assert (0 <= t * TREE d) by (apply Z.mul_nonneg_nonneg; lia).
    assert ((t + 1) * TREE d <= T * TREE d) by (apply Z.mul_le_mono_nonneg_r; lia). lia.
  Qed.
  Lemma lo_own t q : wf d q -> 0 <= t < T -> own (lo t q) (tpos d t q).
  Proof. intros W Ht. apply owner_spec. pose proof (range t q W Ht). lia. Qed.
  Lemma hi_own t q : wf d q -> 0 <= t < T -> own (hi t q) (tend d t q - 1).
  Proof. intros W Ht. apply owner_spec. pose proof (range t q W Ht). lia. Qed.

  (** rank p owns a part of q *)
  Definition owns (p t : Z) (q : quad) : Prop := exists k, tpos d t q <= k < tend d t q /\ own p k.

  Lemma owns_between t q p : wf d q -> 0 <= t < T -> owns p t q -> lo t q <= p <= hi t q.
  Proof.
    intros W Ht (k & Hk & Hp & Kp). destruct (lo_own t q W Ht) as [L1 L2]. destruct (hi_own t q W Ht) as [U1 U2].
    split.
    - destruct (Z_le_gt_dec (lo t q) p) as [A|A]; [exact A|exfalso].
      pose proof (mono d P gfp Hmono (p + 1) (lo t q) ltac:(lia) ltac:(lia)). lia.
    - destruct (Z_le_gt_dec p (hi t q)) as [A|A]; [exact A|exfalso].
      pose proof (mono d P gfp Hmono (hi t q + 1) p ltac:(lia) ltac:(lia)). lia.
  Qed.
  Lemma lo_hi t q : wf d q -> 0 <= t < T -> lo t q <= hi t q.
  Proof.
    intros W Ht. apply (owns_between t q (lo t q) W Ht). exists (tpos d t q). split; [pose proof (range t q W Ht); lia|apply lo_own; auto].
  Qed.

  Variable t : Z.
  Hypothesis Ht : 0 <= t < T.

  (** the nodes of the search in tree t below q *)
  Fixpoint pnodes (fuel : nat) (q : quad) : list node :=
    match fuel with
    | O => []
    | S fuel' =>
      if lo t q =? hi t q then [(q, Some 0%nat)]
      else (q, None) :: flat_map (fun i => pnodes fuel' (child d q (Z.of_nat i))) (seq 0 (childrenn d))
    end.

  Lemma CC : Z.of_nat (childrenn d) = children d.
  Proof. destruct d; reflexivity. Qed.

  Lemma split_level q : wf d q -> lo t q <> hi t q -> ql q < 29.
  Proof.
    intros W N. pose proof (lo_hi t q W Ht).
    apply (split_quadrant d P gfp HP Hlen Hq Hmono t q (lo t q) (hi t q) W ltac:(lia) (lo_own t q W Ht) (hi_own t q W Ht) ltac:(lia)).
  Qed.

  Lemma pnodes_inside : forall f q, wf d q -> forall n, In n (pnodes f q) -> wf d (fst n) /\ within d q (fst n).
  Proof.
    induction f as [|f IH]; intros q W n I; [destruct I|]. cbn [pnodes] in I. destruct (lo t q =? hi t q) eqn:E.
    - destruct I as [<-|[]]. split; [exact W|unfold within; cbn [fst]; lia].
    - destruct I as [<-|I]; [split; [exact W|unfold within; cbn [fst]; lia]|].
      apply in_flat_map in I. destruct I as (i & Hi & I). apply in_seq in Hi. pose proof CC.
      pose proof (split_level q W ltac:(lia)) as LQ.
      destruct (child_wf d q (Z.of_nat i) W LQ ltac:(lia)) as (Wc & _). destruct (IH _ Wc n I) as [A B].
      split; [exact A|]. eapply within_trans; [|exact B]. apply child_within; auto; lia.
  Qed.

  Lemma pnodes_sorted : forall f q, wf d q -> StronglySorted (node_lt d) (pnodes f q).
  Proof.
    induction f as [|f IH]; intros q W; [constructor|]. cbn [pnodes]. destruct (lo t q =? hi t q) eqn:E; [repeat constructor|].
    pose proof CC. pose proof (split_level q W ltac:(lia)) as LQ. constructor.
    - apply (SS_flat_map _ _ _ lt); [apply SS_seq| |].
      + intros i Hi. apply in_seq in Hi. apply IH. apply (child_wf d q (Z.of_nat i) W LQ). lia.
      + intros i j x y Hi Hj Hij Hx Hy. apply in_seq in Hi. apply in_seq in Hj.
        destruct (child_wf d q (Z.of_nat i) W LQ ltac:(lia)) as (Wi & _).
        destruct (child_wf d q (Z.of_nat j) W LQ ltac:(lia)) as (Wj & _).
        destruct (pnodes_inside f _ Wi x Hx) as (Wx & Ax & Bx). destruct (pnodes_inside f _ Wj y Hy) as (Wy & Ay & By).
        unfold node_lt. apply (compare_wf d (fst x) (fst y) Wx Wy). left.
        pose proof (child_order d q (Z.of_nat i) (Z.of_nat j) W LQ ltac:(lia) ltac:(lia)).
        pose proof (size_pos d _ Wx). lia.
    - apply Forall_forall. intros n I. apply in_flat_map in I. destruct I as (i & Hi & I). apply in_seq in Hi.
      destruct (child_wf d q (Z.of_nat i) W LQ ltac:(lia)) as (Wi & Li & _).
      destruct (pnodes_inside f _ Wi n I) as (Wn & In_).
      pose proof (within_level d _ _ Wi Wn In_). pose proof (child_within d q (Z.of_nat i) W LQ ltac:(lia)) as WC.
      unfold node_lt. cbn [fst]. apply (compare_wf d q (fst n) W Wn).
      destruct (within_trans d _ _ _ WC In_) as (A & _). lia.
  Qed.

  (** the ranks of a part of q are among those of q *)
  Lemma lo_hi_within q b : wf d q -> wf d b -> within d q b -> lo t q = hi t q -> lo t b = hi t b.
  Proof.
    intros W Wb (A & B) E. assert (F : forall k, tpos d t b <= k < tend d t b -> owner k = lo t q).
    { intros k Hk. pose proof (range t b Wb Ht). assert (O : own (owner k) k) by (apply owner_spec; lia).
      assert (ON : owns (owner k) t q) by (exists k; split; [unfold tpos, tend in *; lia|exact O]).
      pose proof (owns_between t q _ W Ht ON). lia. }
    pose proof (range t b Wb Ht). unfold lo at 1, hi at 1. rewrite !F by lia. reflexivity.
  Qed.

  (** branches: the quadrants inside q with at least two ranks *)
  Lemma pnodes_branch : forall f q, wf d q -> 30 - ql q <= Z.of_nat f ->
    forall b, In (b, None) (pnodes f q) <-> wf d b /\ within d q b /\ lo t b <> hi t b.
  Proof.
    induction f as [|f IH]; intros q W Hf b. { pose proof (wf_level d q W). lia. }
    cbn [pnodes]. destruct (lo t q =? hi t q) eqn:E.
    - split; [intros [X|[]]; discriminate|]. intros (Wb & I & N). exfalso. apply N. apply (lo_hi_within q b W Wb I). lia.
    - pose proof CC. pose proof (split_level q W ltac:(lia)) as LQ. split.
      + intros [X|X].
        * injection X as <-. split; [exact W|]. split; [unfold within; lia|lia].
        * apply in_flat_map in X. destruct X as (i & Hi & X). apply in_seq in Hi.
          destruct (child_wf d q (Z.of_nat i) W LQ ltac:(lia)) as (Wi & Li & _).
          apply IH in X; [|exact Wi|lia]. destruct X as (A & B & N). split; [exact A|]. split; [|exact N].
          eapply within_trans; [|exact B]. apply child_within; auto; lia.
      + intros (Wb & I & N). pose proof (within_level d q b W Wb I).
        destruct (Z.eq_dec (ql q) (ql b)) as [EQ|NE]; [left; f_equal; apply (within_eq d q b W Wb I EQ)|].
        right. destruct (anc_child d q b W Wb I ltac:(lia)) as [R X]. apply in_flat_map.
        exists (Z.to_nat (ancestor_id d b (ql q + 1))). split; [apply in_seq; lia|]. rewrite Z2Nat.id by lia.
        destruct (child_wf d q (ancestor_id d b (ql q + 1)) W LQ ltac:(lia)) as (Wi & Li & _).
        apply IH; [exact Wi|lia|]. auto.
  Qed.

  (** leaves: the quadrants inside q with one rank that are not inside another such quadrant inside q *)
  Lemma pnodes_leaf : forall f q, wf d q -> 30 - ql q <= Z.of_nat f ->
    forall b k, In (b, Some k) (pnodes f q) <-> k = 0%nat /\ wf d b /\ within d q b /\ lo t b = hi t b /\
      forall c, wf d c -> within d q c -> within d c b -> c <> b -> lo t c <> hi t c.
  Proof.
    induction f as [|f IH]; intros q W Hf b k. { pose proof (wf_level d q W). lia. }
    cbn [pnodes]. destruct (lo t q =? hi t q) eqn:E.
    - split.
      + intros [X|[]]. injection X as <- <-. split; [reflexivity|]. split; [exact W|]. split; [unfold within; lia|]. split; [lia|].
        intros c Wc A B N. exfalso. apply N. apply (within_eq d c q Wc W B).
        pose proof (within_level d q c W Wc A). pose proof (within_level d c q Wc W B). lia.
      + intros (-> & Wb & I & S1 & M). left. f_equal. destruct (Z.eq_dec (ql q) (ql b)) as [EQ|NE]; [apply (within_eq d q b W Wb I EQ)|].
        exfalso. apply (M q W); [unfold within; lia|exact I|congruence|lia].
    - pose proof CC. pose proof (split_level q W ltac:(lia)) as LQ. split.
      + intros [X|X]; [discriminate|].
        apply in_flat_map in X. destruct X as (i & Hi & X). apply in_seq in Hi.
        destruct (child_wf d q (Z.of_nat i) W LQ ltac:(lia)) as (Wi & Li & _).
        apply IH in X; [|exact Wi|lia]. destruct X as (-> & Wb & I & S1 & M).
        split; [reflexivity|]. split; [exact Wb|]. split; [eapply within_trans; [|exact I]; apply child_within; auto; lia|]. split; [exact S1|].
        intros c Wc A B N. pose proof (within_level d q c W Wc A).
        destruct (Z.eq_dec (ql q) (ql c)) as [EQ|NE]; [rewrite <- (within_eq d q c W Wc A EQ); lia|].
        apply (M c Wc); [|exact B|exact N].
        destruct (anc_child d q c W Wc A ltac:(lia)) as [R X].
        assert (EA : ancestor_id d c (ql q + 1) = Z.of_nat i).
        { apply (child_unique d q b); auto; [lia|]. eapply within_trans; eauto. }
        rewrite EA in X. exact X.
      + intros (-> & Wb & I & S1 & M). right. pose proof (within_level d q b W Wb I).
        destruct (Z.eq_dec (ql q) (ql b)) as [EQ|NE]; [exfalso; rewrite <- (within_eq d q b W Wb I EQ) in S1; lia|].
        destruct (anc_child d q b W Wb I ltac:(lia)) as [R X]. apply in_flat_map.
        exists (Z.to_nat (ancestor_id d b (ql q + 1))). split; [apply in_seq; lia|]. rewrite Z2Nat.id by lia.
        destruct (child_wf d q (ancestor_id d b (ql q + 1)) W LQ ltac:(lia)) as (Wi & Li & _).
        apply IH; [exact Wi|lia|]. split; [reflexivity|]. split; [exact Wb|]. split; [exact X|]. split; [exact S1|].
        intros c Wc A. apply (M c Wc). eapply within_trans; [|exact A]. apply child_within; auto.
  Qed.

  (** the leaves cover q *)
  Definition is_leaf_node (n : node) : bool := match snd n with Some _ => true | None => false end.
  Lemma pnodes_tiles : forall f q, wf d q -> 30 - ql q <= Z.of_nat f ->
    tiles d (qpos d q) (qend d q) (map fst (filter is_leaf_node (pnodes f q))).
  Proof.
    induction f as [|f IH]; intros q W Hf. { pose proof (wf_level d q W). lia. }
    cbn [pnodes]. destruct (lo t q =? hi t q) eqn:E.
    - cbn. auto.
    - pose proof CC. pose proof (split_level q W ltac:(lia)) as LQ. cbn [filter is_leaf_node snd].
      assert (G : forall k n, (k + n <= childrenn d)%nat ->
        tiles d (qpos d q + Z.of_nat k * psize d (ql q + 1)) (qpos d q + Z.of_nat (k + n) * psize d (ql q + 1))
          (map fst (filter is_leaf_node (flat_map (fun i => pnodes f (child d q (Z.of_nat i))) (seq k n))))).
      { intros k n. revert k. induction n as [|n IHn]; intros k Hk.
        - replace (k + 0)%nat with k by lia. cbn. reflexivity.
        - cbn [seq flat_map]. rewrite filter_app, map_app.
          destruct (child_wf d q (Z.of_nat k) W LQ ltac:(lia)) as (Wi & Li & _).
          specialize (IH _ Wi ltac:(lia)). unfold qend in IH. rewrite qsize_psize, Li, child_pos in IH by (auto; lia).
          eapply tiles_app; [exact IH|].
          replace (qpos d q + Z.of_nat k * psize d (ql q + 1) + psize d (ql q + 1)) with (qpos d q + Z.of_nat (S k) * psize d (ql q + 1)) by lia.
          replace (k + S n)%nat with (S k + n)%nat by lia. apply IHn. lia. }
      specialize (G 0%nat (childrenn d) ltac:(lia)). cbn [Nat.add] in G.
      unfold qend. rewrite qsize_psize, (psize_child d (ql q)) by lia. rewrite CC in G.
      replace (qpos d q + Z.of_nat 0 * psize d (ql q + 1)) with (qpos d q) in G by lia. exact G.
  Qed.

  Variables (St Pt : Type).
  Variable prc : prec St Pt.
  Local Notation rec := (with_ranks lo hi prc).
  Local Notation RUN := (run d St Pt rec t 0).
  Local Notation PR := (partition_recursion d St Pt prc gfq gfp t).

  Lemma p_loop pts n : forall act s chact,
    p_point_loop St Pt prc t pts s (fst n) (lo t (fst n)) (hi t (fst n)) act chact =
    point_loop St Pt rec t pts s (fst n) (node_num 0 n) (lo t (fst n) =? hi t (fst n)) act chact.
  Proof.
    induction act as [|i act IH]; intros s chact; [reflexivity|]. cbn [p_point_loop point_loop].
    destruct (nth_error pts i) as [p|]; [|reflexivity]. cbn [with_ranks point_fn].
    destruct (p_point_fn prc s t (fst n) (lo t (fst n)) (hi t (fst n)) p) as [s' m]. apply IH.
  Qed.

  Lemma p_call s q num : p_call_quadrant St Pt prc t s q (lo t q) (hi t q) = call_quadrant St Pt rec t s q num.
  Proof. unfold p_call_quadrant, call_quadrant. cbn [with_ranks quadrant_fn]. destruct (p_quadrant_fn prc); reflexivity. Qed.

  Lemma nodes_all f q : wf d q -> lo t q <> hi t q -> forall n,
    In n (flat_map (fun i => pnodes f (child d q (Z.of_nat i))) (seq 0 (childrenn d))) -> withinb d q (fst n) = true.
  Proof.
    intros W N n I. pose proof CC. pose proof (split_level q W N) as LQ.
    apply in_flat_map in I. destruct I as (i & Hi & I). apply in_seq in Hi.
    destruct (child_wf d q (Z.of_nat i) W LQ ltac:(lia)) as (Wi & Li & _).
    destruct (pnodes_inside f _ Wi n I) as [_ A]. apply withinb_iff. eapply within_trans; [|exact A]. apply child_within; auto; lia.
  Qed.

  Theorem p_rec_run : forall fuel s q actives ps, wf d q -> 30 - ql q <= Z.of_nat fuel -> rel St Pt rec actives ps ->
    PR fuel s q (lo t q) (hi t q) actives = Some (RUN s (map (fun n => (n, ps)) (pnodes fuel q))).
  Proof.
    induction fuel as [|f IH]; intros s q actives ps W Hf R. { pose proof (wf_level d q W). lia. }
    (* the descent into the children *)
    assert (DESC : lo t q <> hi t q -> forall s chact ps', rel St Pt rec chact ps' ->
      child_loop d St gfq gfp (fun s c cpf cpl => PR f s c cpf cpl chact) q (lo t q)
        (array_split (type_childid d q) (childrenn d) (firstn (Z.to_nat (hi t q - lo t q)) (skipn (Z.to_nat (lo t q + 1)) gfp)))
        s (lo t q + 1) (seq 0 (childrenn d)) =
      Some (RUN s (map (fun n => (n, ps')) (flat_map (fun i => pnodes f (child d q (Z.of_nat i))) (seq 0 (childrenn d)))))).
    { intros N s0 chact ps' R'. pose proof CC. pose proof (split_level q W N) as LQ. pose proof (lo_hi t q W Ht) as LH.
      set (off := array_split (type_childid d q) (childrenn d) (firstn (Z.to_nat (hi t q - lo t q)) (skipn (Z.to_nat (lo t q + 1)) gfp))).
      pose proof (child_cut d T P gfq gfp HP Hlen Hq Hmono H0 HN Hgfq t q (lo t q) (hi t q) W ltac:(lia) (lo_own t q W Ht) (hi_own t q W Ht) ltac:(lia)) as CUT.
      fold off in CUT. cbv zeta in CUT.
      pose proof (psize_pos d (ql q + 1) ltac:(pose proof (wf_level d q W); lia)) as PS.
      assert (G : forall n k s, (k + n <= childrenn d)%nat ->
        child_loop d St gfq gfp (fun s c cpf cpl => PR f s c cpf cpl chact) q (lo t q) off s
          (Z.of_nat (nth k off 0%nat) + lo t q + 1) (seq k n) =
        Some (RUN s (map (fun n => (n, ps')) (flat_map (fun i => pnodes f (child d q (Z.of_nat i))) (seq k n))))).
      { induction n as [|n IHn]; intros k s1 Hk; [reflexivity|]. cbn [seq child_loop flat_map]. rewrite map_app.
        destruct (child_wf d q (Z.of_nat k) W LQ ltac:(lia)) as (Wc & Lc & _).
        assert (PC : tpos d t (child d q (Z.of_nat k)) = tpos d t q + Z.of_nat k * psize d (ql q + 1)).
        { unfold tpos. rewrite child_pos by (auto; lia). lia. }
        assert (PE : tend d t (child d q (Z.of_nat k)) = tpos d t q + Z.of_nat (k + 1) * psize d (ql q + 1)).
        { unfold tend, tpos, qend. rewrite qsize_psize, Lc, child_pos by (auto; lia). lia. }
        destruct (CUT k ltac:(lia)) as (A1 & A2 & A3 & A4). destruct (CUT (k + 1)%nat ltac:(lia)) as (B1 & B2 & B3 & B4).
        rewrite <- PC in A2, A3, A4. rewrite <- PE in B2, B3, B4.
        set (c := Z.of_nat (nth k off 0%nat) + lo t q + 1) in *. set (c' := Z.of_nat (nth (k + 1) off 0%nat) + lo t q + 1) in *.
        pose proof (range t _ Wc Ht) as RC. destruct (lo_own t q W Ht) as [LO _]. destruct (hi_own t q W Ht) as [HO _].
        assert (CCc : c <= c').
        { destruct (Z_le_gt_dec c c') as [X|X]; [exact X|exfalso].
          pose proof (mono d P gfp Hmono c' (c - 1) ltac:(lia) ltac:(lia)). lia. }
        destruct (wf_root_bounds d _ Wc) as [_ RB]. fold (TREE d) in RB.
        destruct (first_proc_spec d T P gfq gfp HP Hlen Hq Hmono H0 HN Hgfq t (child d q (Z.of_nat k)) c c' (tend d t (child d q (Z.of_nat k)))) as (fp & E1 & E2 & E3 & E4).
        { exact Wc. } { lia. } { lia. } { lia. } { lia. } { unfold tend. lia. } { lia. }
        { intros _. destruct A4 as [X|[-> X]]; [left; exact X|right]. split; [exact A2|]. rewrite PC in *. lia. }
        { exact A3. } { intros _. destruct B4 as [X|[X _]]; [exact X|lia]. } { exact B3. }
        rewrite E1. replace fp with (lo t (child d q (Z.of_nat k))).
        2:{ apply (own_unique d P gfp Hmono (tpos d t (child d q (Z.of_nat k)))); [apply lo_own; auto|exact E3]. }
        replace (c' - 1) with (hi t (child d q (Z.of_nat k))).
        2:{ apply (own_unique d P gfp Hmono (tend d t (child d q (Z.of_nat k)) - 1)); [apply hi_own; auto|exact E4]. }
        rewrite (IH s1 _ chact ps' Wc ltac:(lia) R').
        rewrite (run_app d St Pt rec t 0 (length (map (fun n => (n, ps')) (pnodes f (child d q (Z.of_nat k)))))) by
          (try apply Nat.le_refl;
           intros n1 p1 n2 p2 I1 I2; apply in_map_iff in I1; apply in_map_iff in I2;
           destruct I1 as (n1' & X1 & I1); inversion X1; subst; clear X1;
           destruct I2 as (n2' & X2 & I2); inversion X2; subst; clear X2;
           apply in_flat_map in I2; destruct I2 as (j & Hj & I2); apply in_seq in Hj;
           destruct (child_wf d q (Z.of_nat j) W LQ ltac:(lia)) as (Wcj & _);
           destruct (pnodes_inside f _ Wc n1 I1) as (W1 & B1');
           destruct (pnodes_inside f _ Wcj n2 I2) as (W2 & B2');
           pose proof (child_order d q (Z.of_nat k) (Z.of_nat j) W LQ ltac:(lia) ltac:(lia));
           pose proof (size_pos d _ W1); pose proof (size_pos d _ W2);
           apply not_true_iff_false; rewrite withinb_iff; unfold within in *; lia).
        unfold c'. replace (k + 1)%nat with (S k) by lia. apply IHn. lia. }
      specialize (G (childrenn d) 0%nat s0 ltac:(lia)).
      destruct (CUT 0%nat ltac:(lia)) as (A1 & A2 & A3 & A4). destruct (lo_own t q W Ht) as [LO LK].
      replace (Z.of_nat (nth 0 off 0%nat) + lo t q + 1) with (lo t q + 1) in G; [exact G|].
      destruct (hi_own t q W Ht) as [HO HK].
      destruct A4 as [X|[_ X]].
      - set (c := Z.of_nat (nth 0 off 0%nat) + lo t q + 1) in *.
        destruct (Z.eq_dec c (lo t q + 1)) as [Y|Y]; [lia|exfalso].
        pose proof (mono d P gfp Hmono (lo t q + 1) (c - 1) ltac:(lia) ltac:(lia)). lia.
      - set (c := Z.of_nat (nth 0 off 0%nat) + lo t q + 1) in *.
        destruct (Z.eq_dec c (lo t q + 1)) as [Y|Y]; [lia|exfalso].
        pose proof (mono d P gfp Hmono (lo t q + 1) (c - 1) ltac:(lia) ltac:(lia)). lia. }
    cbn [partition_recursion pnodes].
    change (match p_points prc with Some pts => match actives with Some a => a | None => seq 0 (length pts) end
      | None => match actives with Some a => a | None => [] end end) with (act_of St Pt rec actives).
    pose proof p_loop as PL. unfold rel in R. change (points rec) with (p_points prc) in R. destruct (p_points prc) as [pts|] eqn:EP.
    - destruct R as (l & -> & F2).
      destruct (act_of St Pt rec actives) as [|a0 act] eqn:EA.
      { inversion F2; subst. cbn [length Nat.eqb]. rewrite run_empty; [reflexivity|].
        intros n ps' I. apply in_map_iff in I. destruct I as (? & E & _). inversion E; auto. }
      destruct l as [|p0 l]; [inversion F2|]. cbn [length Nat.eqb].
      destruct (lo t q =? hi t q) eqn:EL.
      + cbn [map]. rewrite run_cons. unfold visit. rewrite (p_call s q (node_num 0 (q, Some 0%nat))).
        change (call_quadrant St Pt rec t s q (node_num 0 (q, Some 0%nat))) with (ask_quadrant St Pt rec t 0 s (q, Some 0%nat)).
        destruct (ask_quadrant St Pt rec t 0 s (q, Some 0%nat)) as (s1, go).
        destruct go; cbn [negb]; [|reflexivity].
        destruct (point_loop_spec St Pt rec t 0 pts (q, Some 0%nat) true (a0 :: act) (p0 :: l) s1 [] F2) as (acc' & PS & _).
        specialize (PL pts (q, Some 0%nat) (a0 :: act) s1 []). cbn [fst] in PL, PS. rewrite EL in PL. rewrite PL, PS. clear PL PS.
        destruct (ask St Pt rec t 0 s1 (q, Some 0%nat) (p0 :: l)) as (s2, r). cbn [fst snd app].
        rewrite (p_call s2 q (node_num 0 (q, Some 0%nat))).
        change (call_quadrant St Pt rec t s2 q (node_num 0 (q, Some 0%nat))) with (ask_quadrant St Pt rec t 0 s2 (q, Some 0%nat)).
        change (call_post rec) with (p_post prc).
        destruct (if p_post prc then _ else (s2, true)) as (s3, keep).
        destruct keep; reflexivity.
      + specialize (DESC ltac:(lia)). pose proof (nodes_all f q W ltac:(lia)) as ALL.
        cbn [map]. rewrite run_cons. unfold visit. rewrite (p_call s q (node_num 0 (q, None))).
        change (call_quadrant St Pt rec t s q (node_num 0 (q, None))) with (ask_quadrant St Pt rec t 0 s (q, None)).
        cbn [fst]. destruct (ask_quadrant St Pt rec t 0 s (q, None)) as (s1, go).
        destruct go; cbn [negb].
        2:{ rewrite update_drop by exact ALL. reflexivity. }
        destruct (point_loop_spec St Pt rec t 0 pts (q, None) false (a0 :: act) (p0 :: l) s1 [] F2) as (acc' & PS & F3).
        specialize (PL pts (q, None) (a0 :: act) s1 []). cbn [fst] in PL, PS. rewrite EL in PL. rewrite PL, PS. clear PL PS.
        destruct (ask St Pt rec t 0 s1 (q, None) (p0 :: l)) as (s2, r). cbn [fst snd app] in *.
        rewrite (p_call s2 q (node_num 0 (q, None))).
        change (call_quadrant St Pt rec t s2 q (node_num 0 (q, None))) with (ask_quadrant St Pt rec t 0 s2 (q, None)).
        change (call_post rec) with (p_post prc).
        destruct (if p_post prc then _ else (s2, true)) as (s3, keep).
        destruct keep.
        * destruct acc' as [|a1 acc'].
          { inversion F3; subst. rewrite update_all by exact ALL. rewrite run_empty; [reflexivity|].
            intros n ps' I. apply in_map_iff in I. destruct I as (? & E & _). inversion E; auto. }
          rewrite update_all by exact ALL. apply DESC. unfold rel. change (points rec) with (p_points prc). rewrite EP. exists r. split; [auto|].
          unfold act_of. change (points rec) with (p_points prc). rewrite EP. exact F3.
        * rewrite update_drop by exact ALL. reflexivity.
    - subst ps. destruct (lo t q =? hi t q) eqn:EL.
      + cbn [map]. rewrite run_cons. unfold visit. rewrite (p_call s q (node_num 0 (q, Some 0%nat))).
        change (call_quadrant St Pt rec t s q (node_num 0 (q, Some 0%nat))) with (ask_quadrant St Pt rec t 0 s (q, Some 0%nat)).
        destruct (ask_quadrant St Pt rec t 0 s (q, Some 0%nat)) as (s1, go). destruct go; reflexivity.
      + specialize (DESC ltac:(lia)). pose proof (nodes_all f q W ltac:(lia)) as ALL.
        cbn [map]. rewrite run_cons. unfold visit. rewrite (p_call s q (node_num 0 (q, None))).
        change (call_quadrant St Pt rec t s q (node_num 0 (q, None))) with (ask_quadrant St Pt rec t 0 s (q, None)).
        cbn [fst]. destruct (ask_quadrant St Pt rec t 0 s (q, None)) as (s1, go).
        destruct go; cbn [negb].
        * rewrite update_all by exact ALL. apply DESC. unfold rel. change (points rec) with (p_points prc). rewrite EP. reflexivity.
        * rewrite update_drop by exact ALL. reflexivity.
  Qed.
End Nodes.

(** two runs of the protocol whose callbacks correspond *)
Section RunMap.
  Variables (d : dim) (S1 S2 Pt : Type) (phi : S1 -> S2) (r1 : lrec S1 Pt) (r2 : lrec S2 Pt) (t off : Z).
  Hypothesis Hpost : call_post r1 = call_post r2.
  Hypothesis Hq : forall s n, (phi (fst (ask_quadrant S1 Pt r1 t off s n)), snd (ask_quadrant S1 Pt r1 t off s n)) = ask_quadrant S2 Pt r2 t off (phi s) n.
  Hypothesis Hp : forall s q num p, (phi (fst (point_fn r1 s t q num p)), snd (point_fn r1 s t q num p)) = point_fn r2 (phi s) t q num p.

  Lemma ask_map n : forall l s, (phi (fst (ask S1 Pt r1 t off s n l)), snd (ask S1 Pt r1 t off s n l)) = ask S2 Pt r2 t off (phi s) n l.
  Proof.
    induction l as [|p l IH]; intros s; [reflexivity|]. cbn [ask]. rewrite <- Hp.
    destruct (point_fn r1 s t (fst n) (node_num off n) p) as [s' m]. cbn [fst snd]. rewrite <- IH.
    destruct (ask S1 Pt r1 t off s' n l) as [s'' r]. reflexivity.
  Qed.

  Lemma visit_map s n ps : (phi (fst (visit S1 Pt r1 t off s n ps)), snd (visit S1 Pt r1 t off s n ps)) = visit S2 Pt r2 t off (phi s) n ps.
  Proof.
    unfold visit. rewrite <- Hq. destruct (ask_quadrant S1 Pt r1 t off s n) as [s1 go]. cbn [fst snd].
    destruct go; cbn [negb]; [|reflexivity]. destruct ps as [l|]; [|reflexivity].
    rewrite <- ask_map. destruct (ask S1 Pt r1 t off s1 n l) as [s2 r]. cbn [fst snd]. rewrite Hpost.
    destruct (call_post r2); [|reflexivity]. rewrite <- Hq. destruct (ask_quadrant S1 Pt r1 t off s2 n) as [s3 keep]. reflexivity.
  Qed.

  Lemma run_map : forall w s, phi (run d S1 Pt r1 t off s w) = run d S2 Pt r2 t off (phi s) w.
  Proof.
    assert (G : forall k w s, (length w <= k)%nat -> phi (run d S1 Pt r1 t off s w) = run d S2 Pt r2 t off (phi s) w).
    2:{ intros w s. apply (G (length w)). lia. }
    induction k as [|k IH]; intros w s Hk; destruct w as [|(n, ps) w]; try reflexivity; [cbn in Hk; lia|]. cbn in Hk. apply le_S_n in Hk.
    rewrite !run_cons. rewrite <- visit_map.
    destruct ps as [[|p l]|]; [apply IH; exact Hk| |].
    - destruct (visit S1 Pt r1 t off s n (Some (p :: l))) as [s' r]. cbn [fst snd]. apply IH.
      eapply Nat.le_trans; [apply update_length|exact Hk].
    - destruct (visit S1 Pt r1 t off s n None) as [s' r]. cbn [fst snd]. apply IH.
      eapply Nat.le_trans; [apply update_length|exact Hk].
  Qed.
End RunMap.
