(** * p4est_refine_ext and p4est_coarsen_ext on a forest *)

From Coq Require Import ZArith List Bool Lia Arith ZifyBool Sorting.Sorted.
From Verif Require Import Quad Spec Interval QuadLemmas DescLemmas Tree TreeLemmas Search SearchLemmas SearchLocal Adapt AdaptSpec ListLemmas RefineLemmas Tiles RefineProps CoarsenFix PropertiesRefine CoarsenProps PropertiesCoarsen Partition PartLemmas PartTrees PartFinal Comm CommLemmas OwnerLemmas PropertiesPartition Weighted WeightedLemmas Forest ForestSpec ForestLemmas.
Import ListNotations.
Open Scope Z_scope.

Section FA.
  Variable d : dim.
  Variables (St D : Type).
  Variable T : Z.
  Hypothesis HT : 0 < T.
  Local Notation lvs := (lvs St D).
  Local Notation proc := (proc St D).
  Local Notation tlv x := (t_leaves D (ft D x)).

  (** number of leaves in trees a .. b - 1 *)
  Definition cnt (trees : Z -> ftree D) (a b : Z) : Z := zlen (loc_from a (Z.to_nat (b - a)) (fun t => tlv (trees t))).

  Lemma cnt_step trees a b : a <= b -> cnt trees a (b + 1) = cnt trees a b + zlen (tlv (trees b)).
  Proof. intros H. unfold cnt, zlen. pose proof (offt_step (fun t => tlv (trees t)) a b H) as E. unfold offt in E. rewrite E. lia. Qed.
  Lemma cnt_cons trees a b : a < b -> cnt trees a b = zlen (tlv (trees a)) + cnt trees (a + 1) b.
  Proof. intros H. unfold cnt, zlen. pose proof (offt_cons (fun t => tlv (trees t)) a b H) as E. unfold offt in E. rewrite E. lia. Qed.
  Lemma cnt_nil trees a b : (forall t, a <= t < b -> tlv (trees t) = []) -> cnt trees a b = 0.
  Proof. intros H. unfold cnt. rewrite loc_from_nil; [reflexivity|]. intros t Ht. apply H. lia. Qed.
  Lemma cnt_split trees a b c : a <= b <= c -> cnt trees a c = cnt trees a b + cnt trees b c.
  Proof.
    intros H. unfold cnt. replace (Z.to_nat (c - a)) with (Z.to_nat (b - a) + Z.to_nat (c - b))%nat by lia. rewrite loc_from_app. unfold zlen. rewrite app_length.
    replace (a + Z.of_nat (Z.to_nat (b - a))) with b by lia. lia.
  Qed.
  Lemma cnt_ext trees trees' a b : (forall t, a <= t < b -> tlv (trees t) = tlv (trees' t)) -> cnt trees a b = cnt trees' a b.
  Proof. intros H. unfold cnt. f_equal. apply loc_from_ext. intros t Ht. apply H. lia. Qed.
  Lemma before_cnt (p : proc) t : lvs_before St D p t = cnt (pr_trees _ _ p) 0 t.
  Proof. unfold lvs_before, cnt. rewrite Z.sub_0_r. reflexivity. Qed.

  Lemma descs_keep (fd ld : quad) (l l' : list (quad * D)) a b : descs_ok d D fd ld l -> tiles d a b (map fst l) -> tiles d a b (map fst l') -> descs_ok d D fd ld l'.
  Proof.
    intros H T1 T2. destruct l as [|x l], l' as [|x' l'].
    - exact H.
    - exfalso. apply tiles_empty in T1, T2. cbn in T1. destruct T1 as [T1 _]. specialize (T1 eq_refl). destruct T2 as [_ T2]. specialize (T2 T1). discriminate.
    - exfalso. apply tiles_empty in T1, T2. destruct T2 as [T2 _]. specialize (T2 eq_refl). destruct T1 as [_ T1]. specialize (T1 T2). discriminate.
    - destruct H as (-> & ->). cbn [descs_ok].
      assert (HD : wf d (fst x) /\ wf d (fst x') /\ qpos d (fst x) = qpos d (fst x')).
      { cbn [map tiles] in T1, T2. destruct T1 as (W1 & P1 & _), T2 as (W2 & P2 & _). split; [exact W1|]. split; [exact W2|lia]. }
      assert (LA : forall (y : quad * D) k e, tiles d e b (map fst (y :: k)) -> wf d (fst (last k y)) /\ qend d (fst (last k y)) = b).
      { clear. intros y k. revert y. induction k as [|z k IH]; intros y e H; [cbn in H; destruct H as (W & _ & E); split; [exact W|exact E]|].
        cbn [map tiles] in H. destruct H as (W & P & H). replace (last (z :: k) y) with (last k z) by (clear; revert z; induction k as [|w k IH]; intros z; [reflexivity|cbn [last] in *; destruct k; [reflexivity|apply IH]]).
        apply (IH z (qend d (fst y))). exact H. }
      destruct (LA x l a T1) as (L1 & L2). destruct (LA x' l' a T2) as (L3 & L4). destruct HD as (W1 & W2 & P).
      unfold QMAXLEVEL. pose proof (wf_level _ _ W1). pose proof (wf_level _ _ W2). pose proof (wf_level _ _ L1). pose proof (wf_level _ _ L3).
      destruct (first_descendant_wf d (fst x) 29 W1 ltac:(lia)) as (A1 & A2 & _ & A3). destruct (first_descendant_wf d (fst x') 29 W2 ltac:(lia)) as (B1 & B2 & _ & B3).
      destruct (last_descendant_wf d (fst (last l x)) 29 L1 ltac:(lia)) as (C1 & C2 & _ & C3). destruct (last_descendant_wf d (fst (last l' x')) 29 L3 ltac:(lia)) as (D1 & D2 & _ & D3).
      split; apply (quad_eq d); try assumption; try lia. rewrite L2 in C3. rewrite L4 in D3. unfold qend, qsize in C3, D3. rewrite C2 in C3. rewrite D2 in D3. lia.
  Qed.

  (** from the trees after the loop to the rank *)
  Lemma adapted_intro (p : proc) s trees' :
    proc_ok d St D T p -> (forall t, 0 <= t < T -> tiled d D (lvs p t)) ->
    (forall t, ~ pr_first _ _ p <= t <= pr_last _ _ p -> trees' t = pr_trees _ _ p t) ->
    (forall t, pr_first _ _ p <= t <= pr_last _ _ p ->
       ft_fd _ (trees' t) = ft_fd _ (pr_trees _ _ p t) /\ ft_ld _ (trees' t) = ft_ld _ (pr_trees _ _ p t) /\
       t_off D (ft D (trees' t)) = cnt trees' (pr_first _ _ p) t /\
       (forall i, t_pl D (ft D (trees' t)) i = nlev i (tlv (trees' t))) /\ t_max D (ft D (trees' t)) = maxlev (tlv (trees' t)) /\
       (forall a b, tiles d a b (map fst (lvs p t)) -> tiles d a b (map fst (tlv (trees' t))))) ->
    let num := cnt trees' (pr_first _ _ p) (pr_last _ _ p + 1) in
    adapted d St D T p (mkproc St D s (pr_first _ _ p) (pr_last _ _ p) num (if pr_last _ _ p >=? 0 then trail D T (pr_last _ _ p + 1) num trees' else trees')).
  Proof.
    intros OK TD OUT INN num. destruct OK as (RK & NUM & TR). set (f := pr_first _ _ p) in *. set (l := pr_last _ _ p) in *.
    set (trees'' := if l >=? 0 then trail D T (l + 1) num trees' else trees').
    assert (LV : forall t, tlv (trees'' t) = tlv (trees' t)).
    { intros t. unfold trees''. destruct (l >=? 0); [|reflexivity]. unfold trail. destruct ((l + 1 <=? t) && (t <? T)); reflexivity. }
    assert (FIELDS : forall t, t_pl D (ft D (trees'' t)) = t_pl D (ft D (trees' t)) /\ t_max D (ft D (trees'' t)) = t_max D (ft D (trees' t)) /\ ft_fd _ (trees'' t) = ft_fd _ (trees' t) /\ ft_ld _ (trees'' t) = ft_ld _ (trees' t)).
    { intros t. unfold trees''. destruct (l >=? 0); [|auto]. unfold trail. destruct ((l + 1 <=? t) && (t <? T)); auto. }
    assert (TL : forall t a b, 0 <= t < T -> tiles d a b (map fst (lvs p t)) -> tiles d a b (map fst (tlv (trees'' t)))).
    { intros t a b Ht H. rewrite LV. destruct (Z_le_gt_dec f t) as [C1|C1]; [destruct (Z_le_gt_dec t l) as [C2|C2]|]; [apply INN; auto|rewrite OUT by lia; exact H|rewrite OUT by lia; exact H]. }
    assert (NEQ : forall t, 0 <= t < T -> (tlv (trees'' t) = [] <-> lvs p t = [])).
    { intros t Ht. destruct (TD t Ht) as (a & b & H). pose proof (TL t a b Ht H) as H'. apply tiles_empty in H. apply tiles_empty in H'.
      assert (MN : forall k : list (quad * D), map fst k = [] <-> k = []) by (intros [|? ?]; cbn; split; intros; try reflexivity; discriminate).
      rewrite MN in H, H'. rewrite H, H'. reflexivity. }
    assert (BIG : forall t, ~ 0 <= t < T -> tlv (trees'' t) = lvs p t).
    { intros t Ht. rewrite LV, OUT; [reflexivity|]. destruct RK as [(H1 & H2 & _)|(H1 & H2 & _)]; cbn [rk_of k_first k_last] in *; fold f l in H1, H2; lia. }
    split; [|split; [reflexivity|split; [reflexivity|exact TL]]].
    split; [|split].
    - destruct RK as [(H1 & H2 & H3)|(H1 & H2 & H3)]; [left|right]; cbn [rk_of k_first k_last k_trees pr_first pr_last pr_trees] in *; fold f l in H1, H2, H3.
      + split; [exact H1|]. split; [exact H2|]. intros t. fold trees''. destruct (Z_le_gt_dec 0 t); [destruct (Z_lt_le_dec t T)|]; [apply NEQ; [lia|apply H3]|rewrite BIG by lia; apply H3|rewrite BIG by lia; apply H3].
      + split; [exact H1|]. split; [exact H2|]. intros t. rewrite <- H3. fold trees''. fold (lvs p t). destruct (Z_le_gt_dec 0 t); [destruct (Z_lt_le_dec t T)|]; [rewrite NEQ by lia; reflexivity|rewrite BIG by lia; reflexivity|rewrite BIG by lia; reflexivity].
    - rewrite before_cnt. cbn [pr_num pr_trees]. fold trees''. rewrite (cnt_ext trees'' trees') by (intros; apply LV).
      assert (EM : forall t, 0 <= t < T -> ~ f <= t <= l -> tlv (trees' t) = []).
      { intros t Ht N. rewrite <- LV. apply NEQ; [lia|]. destruct RK as [(_ & _ & H3)|(_ & _ & H3)]; [apply H3|]. cbn [rk_of k_first k_last k_trees] in H3. fold f l in H3.
        destruct (lvs p t) eqn:E; [reflexivity|]. exfalso. apply N. apply H3. fold (lvs p t). rewrite E. discriminate. }
      destruct RK as [(H1 & H2 & _)|(H1 & H2 & _)]; cbn [rk_of k_first k_last] in *; fold f l in H1, H2.
      + unfold num. rewrite H1, H2. rewrite (cnt_nil trees' 0 T); [reflexivity|]. intros t Ht. apply EM; lia.
      + unfold num. rewrite (cnt_split trees' 0 f T), (cnt_split trees' f (l + 1) T) by lia. rewrite (cnt_nil trees' 0 f) by (intros; apply EM; lia). rewrite (cnt_nil trees' (l + 1) T) by (intros; apply EM; lia). lia.
    - intros t Ht. cbn zeta. cbn [pr_trees]. rewrite before_cnt. cbn [pr_trees]. fold trees''. unfold ForestSpec.lvs. cbn [pr_trees]. fold trees''. destruct (FIELDS t) as (F1 & F2 & F3 & F4). rewrite F1, F2, F3, F4, LV.
      rewrite (cnt_ext trees'' trees') by (intros; apply LV).
      destruct (TR t Ht) as (O1 & O2 & O3 & O4).
      assert (EM : forall t, 0 <= t < T -> ~ f <= t <= l -> tlv (trees' t) = []).
      { intros u Hu N. rewrite <- LV. apply NEQ; [lia|]. destruct RK as [(_ & _ & H3)|(_ & _ & H3)]; [apply H3|]. cbn [rk_of k_first k_last k_trees] in H3. fold f l in H3.
        destruct (lvs p u) eqn:E; [reflexivity|]. exfalso. apply N. apply H3. fold (lvs p u). rewrite E. discriminate. }
      assert (LOC : 0 <= f <= l /\ l < T \/ f = -1 /\ l = -2 /\ forall t, lvs p t = []).
      { destruct RK as [(H1 & H2 & H3)|(H1 & H2 & _)]; cbn [rk_of k_first k_last] in *; [right; split; [exact H1|split; [exact H2|exact H3]]|left; split; [exact H1|exact H2]]. }
      destruct (Z_le_gt_dec f t) as [C1|C1]; [destruct (Z_le_gt_dec t l) as [C2|C2]|].
      + destruct (INN t ltac:(lia)) as (I1 & I2 & I3 & I4 & I5 & I6). destruct LOC as [(L1 & L2)|L1]; [|lia].
        split; [|split; [exact I4|split; [exact I5|]]].
        * replace (t_off D (ft D (trees'' t))) with (t_off D (ft D (trees' t))) by (unfold trees''; destruct (l >=? 0); [|reflexivity]; unfold trail; replace (l + 1 <=? t) with false by lia; reflexivity).
          rewrite I3. rewrite (cnt_split trees' 0 f t) by lia. rewrite (cnt_nil trees' 0 f) by (intros; apply EM; lia). lia.
        * rewrite I1, I2. destruct (TD t Ht) as (a & b & H). eapply descs_keep; [exact O4|exact H|apply I6; exact H].
      + rewrite (OUT t) by lia. split; [|split; [exact O2|split; [exact O3|exact O4]]].
        destruct LOC as [(L1 & L2)|(L1 & L2 & L3)].
        * unfold trees''. replace (l >=? 0) with true by lia. unfold trail. replace ((l + 1 <=? t) && (t <? T)) with true by lia. cbn [with_off ft t_off].
          unfold num. rewrite (cnt_split trees' 0 f t), (cnt_split trees' f (l + 1) t) by lia. rewrite (cnt_nil trees' 0 f) by (intros; apply EM; lia). rewrite (cnt_nil trees' (l + 1) t) by (intros; apply EM; lia). lia.
        * unfold trees''. replace (l >=? 0) with false by lia. rewrite OUT by lia. rewrite O1, before_cnt, !cnt_nil; [reflexivity|intros; apply EM; lia|intros; apply L3].
      + rewrite (OUT t) by lia. split; [|split; [exact O2|split; [exact O3|exact O4]]]. destruct LOC as [(L1 & L2)|L1]; [|lia].
        replace (t_off D (ft D (trees'' t))) with (t_off D (ft D (pr_trees St D p t))).
        * rewrite O1, before_cnt. rewrite !cnt_nil; [reflexivity|intros; apply EM; lia|]. intros u Hu. pose proof (EM u ltac:(lia) ltac:(lia)) as E. rewrite OUT in E by lia. exact E.
        * unfold trees''. destruct (l >=? 0); [|rewrite OUT by lia; reflexivity]. unfold trail. replace (l + 1 <=? t) with false by lia. cbn [andb]. rewrite OUT by lia. reflexivity.
  Qed.

  (** ** refinement *)
  Definition part (r q : quad) : Prop := qpos d q <= qpos d r /\ qend d r <= qend d q.
  Definition finer (l l' : list quad) : Prop := forall r, In r l' -> exists q, In q l /\ part r q.

  Lemma within_points q r : wf d q -> wf d r -> (forall x y z, inq d r x y z -> inq d q x y z) -> part r q.
  Proof. intros Wq Wr H. apply subset_interval in H; assumption. Qed.

  (** a tiling of the same range by parts of the leaves has at least as many leaves, and is the same if it has as many *)
  Lemma finer_length : forall l l' a b, tiles d a b l -> tiles d a b l' -> finer l l' ->
    (length l <= length l')%nat /\ (length l = length l' -> l = l').
  Proof.
    induction l as [|q l IH]; intros l' a b T1 T2 F.
    - apply tiles_empty in T1. apply tiles_empty in T2. destruct l'; [split; auto|]. destruct T1 as [T1 _]. specialize (T1 eq_refl). destruct T2 as [_ T2]. specialize (T2 T1). discriminate.
    - cbn [tiles] in T1. destruct T1 as (W & P & T1).
      assert (SPLIT : forall k e, tiles d e b k -> e <= qend d q -> (forall r, In r k -> part r q \/ qend d q <= qpos d r) -> exists k1 k2, k = k1 ++ k2 /\ tiles d e (qend d q) k1 /\ tiles d (qend d q) b k2).
      { pose proof (tiles_le _ _ _ _ T1) as LB. induction k as [|r k IHk]; intros e H He HI.
        - cbn in H. subst e. exists [], []. cbn. split; [reflexivity|]. split; lia.
        - cbn [tiles] in H. destruct H as (Wr & Pr & H). destruct (Z_lt_le_dec e (qend d q)) as [L|L].
          + destruct (HI r (or_introl eq_refl)) as [C|C]; [|lia]. unfold part in C. destruct (IHk (qend d r) H ltac:(lia)) as (k1 & k2 & E1 & E2 & E3); [intros; apply HI; right; assumption|].
            exists (r :: k1), k2. split; [rewrite E1; reflexivity|]. split; [|exact E3]. cbn [tiles]. auto.
          + exists [], (r :: k). split; [reflexivity|]. split; [cbn; lia|]. cbn [tiles]. split; [exact Wr|]. split; [lia|exact H]. }
      pose proof (size_pos d q W) as SP. pose proof (tiles_wf _ _ _ _ T2) as W2. rewrite Forall_forall in W2.
      destruct (SPLIT l' a T2 ltac:(lia)) as (k1 & k2 & E & K1 & K2).
      { intros r I. destruct (F r I) as (q' & [<-|I'] & C); [left; exact C|right]. destruct C as (C & _). pose proof (tiles_bounds _ _ _ _ _ T1 I'). lia. }
      destruct (IH k2 _ _ T1 K2) as (L1 & L2).
      { intros r I. destruct (F r) as (q' & [<-|I'] & C); [rewrite E; apply in_or_app; right; exact I| |exists q'; auto].
        exfalso. destruct C as (_ & C). pose proof (tiles_bounds _ _ _ _ _ K2 I). pose proof (size_pos d r ltac:(apply W2; rewrite E; apply in_or_app; right; exact I)). lia. }
      destruct k1 as [|r k1]; [cbn in K1; lia|]. rewrite E. cbn [length app]. rewrite app_length. split; [lia|]. intros EL.
      assert (k1 = []) as -> by (destruct k1; [reflexivity|cbn [length] in EL; lia]). cbn [length app] in *. rewrite (L2 ltac:(lia)).
      cbn [tiles] in K1. destruct K1 as (Wr & Pr & Er). f_equal. pose proof (wf_level _ _ W). pose proof (wf_level _ _ Wr). apply (quad_eq d); [exact W|exact Wr|lia|].
      assert (S2 : qsize d q = qsize d r) by (unfold qend in *; lia). unfold qsize in S2.
      assert (ND : nd d = 2 \/ nd d = 3) by (destruct d; auto). apply Z.pow_inj_r in S2; destruct ND as [ND|ND]; rewrite ND in *; lia.
  Qed.

  Lemma merges_length l l' : merges d l l' -> (length l' <= length l)%nat /\ (length l' = length l -> l' = l).
  Proof.
    induction 1 as [L|L L1 p L2 H (IH1 & IH2) W Lp]; [split; auto|].
    assert (C : (2 <= length (childrenv d p))%nat) by (unfold childrenv; destruct d; cbn; lia).
    rewrite !app_length in IH1. cbn [length]. rewrite !app_length. cbn [length]. split; [lia|]. intros E. exfalso. lia.
  Qed.

  Section Loops.
    Variable trees0 : Z -> ftree D.
    Hypothesis TILED : forall t, 0 <= t < T -> tiled d D (tlv (trees0 t)).
    Hypothesis MAX0 : forall t, 0 <= t < T -> t_max D (ft D (trees0 t)) = maxlev (tlv (trees0 t)).
    Hypothesis PL0 : forall t, 0 <= t < T -> forall i, t_pl D (ft D (trees0 t)) i = nlev i (tlv (trees0 t)).

    (** what holds of every tree after the loop *)
    Definition done (R : list quad -> list quad -> Prop) (f : Z) (trees : Z -> ftree D) (t : Z) : Prop :=
      ft_fd _ (trees t) = ft_fd _ (trees0 t) /\ ft_ld _ (trees t) = ft_ld _ (trees0 t) /\
      t_off D (ft D (trees t)) = cnt trees f t /\
      (forall i, t_pl D (ft D (trees t)) i = nlev i (tlv (trees t))) /\ t_max D (ft D (trees t)) = maxlev (tlv (trees t)) /\
      (forall a b, tiles d a b (map fst (tlv (trees0 t))) -> tiles d a b (map fst (tlv (trees t)))) /\
      R (map fst (tlv (trees0 t))) (map fst (tlv (trees t))).

    Lemma done_ext R f trees trees' t : f <= t -> (forall u, f <= u <= t -> trees' u = trees u) -> done R f trees t -> done R f trees' t.
    Proof. intros L E (H1 & H2 & H3 & H4 & H5 & H6 & H7). unfold done. rewrite (E t) by lia. split; [exact H1|]. split; [exact H2|]. split; [|split; [exact H4|split; [exact H5|split; [exact H6|exact H7]]]]. rewrite H3. apply cnt_ext. intros u Hu. rewrite E by lia. reflexivity. Qed.

    Section Refine.
      Variable init_fn : St -> Z -> quad -> St * D.
      Variable refine_fn : St -> Z -> quad -> D -> St * D * bool.
      Variable replace_fn : option (St -> Z -> quad * D -> list (quad * D) -> St * list D).
      Variable recursive : bool.
      Variable al : Z.
      Hypothesis AL : al <= 29.
      Local Notation loop := (refine_trees d St D T init_fn refine_fn replace_fn recursive al).

      Lemma allowed_le : allowed al <= 29.
      Proof. unfold allowed, QMAXLEVEL. destruct (al <? 0) eqn:E; lia. Qed.

      Lemma refine_loop_exists : forall n nt s ln, exists n0, forall fuel trees, (n0 <= fuel)%nat -> 0 <= nt -> nt + Z.of_nat n <= T ->
        (forall t, nt <= t < T -> trees t = trees0 t) -> exists r, loop fuel n nt s ln trees = Some r.
      Proof.
        induction n as [|n IH]; intros nt s ln.
        - exists 0%nat. intros. eexists. reflexivity.
        - destruct (Z_le_gt_dec 0 nt) as [G1|G1]; [|exists 0%nat; intros; lia]. destruct (Z_lt_le_dec nt T) as [G2|G2]; [|exists 0%nat; intros; lia].
          destruct (TILED nt ltac:(lia)) as (a & b & TL). destruct (tiles_levels _ _ _ _ _ TL) as (_ & F).
          destruct (C27_refine_tree d St D init_fn refine_fn replace_fn recursive (allowed al) nt s (ft D (trees0 nt)) ln allowed_le F) as (n1 & H1).
          set (ref := walk (visit d St D refine_fn init_fn replace_fn recursive (allowed al) nt 30 false) s (tlv (trees0 nt))) in *.
          destruct (IH (nt + 1) (fst ref) (ln + Z.of_nat (length (snd ref)))) as (n2 & H2). exists (Nat.max n1 n2). intros fuel trees Hf _ Hn Ht.
          destruct (H1 fuel ltac:(lia)) as (pl & mx & E & _). cbn [refine_trees]. replace ((0 <=? nt) && (nt <? T)) with true by lia. rewrite (Ht nt) by lia. rewrite E.
          apply H2; [lia|lia|lia|]. intros t Hnt. unfold upd. replace (t =? nt) with false by lia. apply Ht. lia.
      Qed.

      Lemma refine_loop_done fuel : forall n nt f s ln trees s' ln' trees', 0 <= f <= nt -> nt + Z.of_nat n <= T ->
        (forall t, nt <= t -> trees t = trees0 t) -> (forall t, f <= t < nt -> done finer f trees t) -> ln = cnt trees f nt ->
        loop fuel n nt s ln trees = Some (s', ln', trees') ->
        (forall t, nt + Z.of_nat n <= t -> trees' t = trees0 t) /\ (forall t, t < nt -> trees' t = trees t) /\
        (forall t, f <= t < nt + Z.of_nat n -> done finer f trees' t) /\ ln' = cnt trees' f (nt + Z.of_nat n).
      Proof.
        induction n as [|n IH]; intros nt f s ln trees s' ln' trees' Hf Hn H1 H2 H3 E.
        - cbn in E. injection E as <- <- <-. replace (nt + Z.of_nat 0) with nt by lia. split; [exact H1|]. split; [reflexivity|]. split; [exact H2|exact H3].
        - cbn [refine_trees] in E. replace ((0 <=? nt) && (nt <? T)) with true in E by lia.
          destruct (refine_tree _ _ _ _ _ _ _ _ _ _ _ _ _) as [((s1, tr), ln1)|] eqn:ER; [|discriminate]. rewrite H1 in ER, E by lia.
          destruct (TILED nt ltac:(lia)) as (a & b & TL).
          destruct (C27_refine_tiles _ _ _ _ _ _ _ _ _ _ _ _ _ _ _ _ a b allowed_le TL ER) as (T' & L' & O' & P' & M' & F').
          set (x := mkft D tr (ft_fd D (trees0 nt)) (ft_ld D (trees0 nt))) in *. set (trees1 := upd trees nt x) in *.
          assert (OLD : forall t, t < nt -> trees1 t = trees t) by (intros t Ht; unfold trees1, upd; replace (t =? nt) with false by lia; reflexivity).
          assert (NEW : trees1 nt = x) by (unfold trees1, upd; rewrite Z.eqb_refl; reflexivity).
          assert (CN : cnt trees1 f nt = ln) by (rewrite H3; apply cnt_ext; intros t Ht; rewrite OLD by lia; reflexivity).
          apply IH with (f := f) in E; [|lia|lia| | |].
          + replace (nt + 1 + Z.of_nat n) with (nt + Z.of_nat (S n)) in E by lia. destruct E as (E1 & E2 & E3 & E4). split; [exact E1|]. split; [|split; [exact E3|exact E4]].
            intros t Ht. rewrite E2 by lia. apply OLD. lia.
          + intros t Ht. unfold trees1, upd. replace (t =? nt) with false by lia. apply H1. lia.
          + intros t Ht. destruct (Z.eq_dec t nt) as [->|N].
            * unfold done. rewrite NEW, CN. unfold x. cbn [ft ft_fd ft_ld]. split; [reflexivity|]. split; [reflexivity|]. split; [exact O'|]. split; [exact P'|]. split; [apply M', MAX0; lia|].
              split; [intros a' b' H'; apply (C27_refine_tiles _ _ _ _ _ _ _ _ _ _ _ _ _ _ _ _ a' b' allowed_le H' ER)|].
              intros r I. destruct (F' r I) as (q & Iq & Hq & _). exists q. split; [exact Iq|]. apply tiles_wf in TL, T'. rewrite Forall_forall in TL, T'. apply within_points; auto.
            * apply (done_ext finer f trees); [lia| |apply H2; lia]. intros u Hu. apply OLD. lia.
          + rewrite cnt_step by lia. rewrite CN, NEW. unfold x. cbn [ft]. exact L'.
      Qed.

    End Refine.

    Section Coarsen.
      Variable init_fn : St -> Z -> quad -> St * D.
      Variable coarsen_fn : St -> Z -> list (quad * D) -> St * list D * bool.
      Variable replace_fn : option (St -> Z -> list (quad * D) -> quad * D -> St * D).
      Variables (recursive orphans : bool).

      Lemma coarsen_loop_done : forall n nt f s ln prev trees, 0 <= f <= nt -> nt + Z.of_nat n <= T ->
        (forall t, nt <= t -> trees t = trees0 t) -> (forall t, f <= t < nt -> done (merges d) f trees t) -> prev = cnt trees f nt ->
        ln = cnt trees f (nt + Z.of_nat n) ->
        exists s' ln' trees', coarsen_trees d St D T init_fn coarsen_fn replace_fn recursive orphans n nt s ln prev trees = Some (s', ln', trees') /\
        (forall t, nt + Z.of_nat n <= t -> trees' t = trees0 t) /\ (forall t, t < nt -> trees' t = trees t) /\
        (forall t, f <= t < nt + Z.of_nat n -> done (merges d) f trees' t) /\ ln' = cnt trees' f (nt + Z.of_nat n).
      Proof.
        induction n as [|n IH]; intros nt f s ln prev trees Hf Hn H1 H2 H3 H4.
        - exists s, ln, trees. cbn. replace (nt + 0) with nt in * by lia. replace (nt + Z.of_nat 0) with nt in * by lia. split; [reflexivity|]. split; [exact H1|]. split; [reflexivity|]. split; [exact H2|exact H4].
        - cbn [coarsen_trees]. replace ((0 <=? nt) && (nt <? T)) with true by lia. rewrite H1 by lia.
          destruct (TILED nt ltac:(lia)) as (a & b & TL).
          destruct (C29_coarsen_tree d St D init_fn coarsen_fn replace_fn recursive orphans nt s (ft D (trees0 nt)) ln prev a b TL (PL0 nt ltac:(lia))) as (s1 & tr & ER & T' & M' & O' & P' & X').
          rewrite ER.
          set (x := mkft D tr (ft_fd D (trees0 nt)) (ft_ld D (trees0 nt))) in *. set (trees1 := upd trees nt x) in *.
          assert (OLD : forall t, t <> nt -> trees1 t = trees t) by (intros t Ht; unfold trees1, upd; replace (t =? nt) with false by lia; reflexivity).
          assert (NEW : trees1 nt = x) by (unfold trees1, upd; rewrite Z.eqb_refl; reflexivity).
          assert (CN : cnt trees1 f nt = prev) by (rewrite H3; apply cnt_ext; intros t Ht; rewrite OLD by lia; reflexivity).
          edestruct (IH (nt + 1) f s1) as (s' & ln' & trees' & E & E1 & E2 & E3 & E4); [| | | | | |exists s', ln', trees'; split; [exact E|]].
          + lia.
          + lia.
          + intros t Ht. rewrite OLD by lia. apply H1. lia.
          + intros t Ht. destruct (Z.eq_dec t nt) as [->|N].
            * unfold done. rewrite NEW, CN. unfold x. cbn [ft ft_fd ft_ld]. split; [reflexivity|]. split; [reflexivity|]. split; [exact O'|]. split; [exact P'|]. split; [exact X'|].
              split; [|exact M']. intros a' b' H'. destruct (C29_coarsen_tree d St D init_fn coarsen_fn replace_fn recursive orphans nt s (ft D (trees0 nt)) ln prev a' b' H' (PL0 nt ltac:(lia))) as (s2 & tr2 & ER2 & T2 & _).
              rewrite ER in ER2. injection ER2 as _ <- _ _. exact T2.
            * apply (done_ext (merges d) f trees); [lia| |apply H2; lia]. intros u Hu. apply OLD. lia.
          + rewrite cnt_step by lia. rewrite CN, NEW. unfold x. cbn [ft]. reflexivity.
          + rewrite H4. replace (nt + 1 + Z.of_nat n) with (nt + Z.of_nat (S n)) by lia.
            rewrite (cnt_split trees f nt), (cnt_split trees1 f nt), (cnt_cons trees nt), (cnt_cons trees1 nt) by lia.
            rewrite CN, H3, NEW. rewrite (H1 nt) by lia. unfold x. cbn [ft].
            rewrite (cnt_ext trees1 trees (nt + 1)) by (intros; rewrite OLD by lia; reflexivity). unfold zlen. lia.
          + replace (nt + 1 + Z.of_nat n) with (nt + Z.of_nat (S n)) in * by lia. split; [exact E1|]. split; [|split; [exact E3|exact E4]].
            intros t Ht. rewrite E2 by lia. apply OLD. lia.
      Qed.
    End Coarsen.
  End Loops.

  (** ** a rank *)
  Definition adapted_by (R : list quad -> list quad -> Prop) (p p' : proc) : Prop :=
    adapted d St D T p p' /\ forall t, R (map fst (lvs p t)) (map fst (lvs p' t)).

  Lemma adapted_done (R : list quad -> list quad -> Prop) (p : proc) s trees' : (forall l, R l l) -> proc_ok d St D T p -> (forall t, 0 <= t < T -> tiled d D (lvs p t)) ->
    (forall t, ~ pr_first _ _ p <= t <= pr_last _ _ p -> trees' t = pr_trees _ _ p t) ->
    (forall t, pr_first _ _ p <= t <= pr_last _ _ p -> done (pr_trees _ _ p) R (pr_first _ _ p) trees' t) ->
    let num := cnt trees' (pr_first _ _ p) (pr_last _ _ p + 1) in
    adapted_by R p (mkproc St D s (pr_first _ _ p) (pr_last _ _ p) num (if pr_last _ _ p >=? 0 then trail D T (pr_last _ _ p + 1) num trees' else trees')).
  Proof.
    intros RR OK TD OUT INN num. split.
    - apply adapted_intro; [exact OK|exact TD|exact OUT|]. intros t Ht. destruct (INN t Ht) as (I1 & I2 & I3 & I4 & I5 & I6 & _). auto 10.
    - intros t. unfold ForestSpec.lvs at 2. cbn [pr_trees].
      assert (E : tlv ((if pr_last _ _ p >=? 0 then trail D T (pr_last _ _ p + 1) num trees' else trees') t) = tlv (trees' t)).
      { destruct (pr_last _ _ p >=? 0); [|reflexivity]. unfold trail. destruct ((pr_last _ _ p + 1 <=? t) && (t <? T)); reflexivity. }
      rewrite E. destruct (Z_le_gt_dec (pr_first _ _ p) t) as [C1|C1]; [destruct (Z_le_gt_dec t (pr_last _ _ p)) as [C2|C2]|]; [apply INN; lia|rewrite OUT by lia; apply RR|rewrite OUT by lia; apply RR].
  Qed.

  Lemma local_cases (p : proc) : proc_ok d St D T p ->
    pr_first _ _ p = -1 /\ pr_last _ _ p = -2 \/ 0 <= pr_first _ _ p <= pr_last _ _ p /\ pr_last _ _ p < T.
  Proof. intros ([(H1 & H2 & _)|(H1 & H2 & _)] & _); cbn [rk_of k_first k_last] in *; [left|right]; auto. Qed.

  Lemma finer_refl l : finer l l.
  Proof. intros r I. exists r. split; [exact I|]. unfold part. lia. Qed.

  Section RefineRank.
    Variable init_fn : St -> Z -> quad -> St * D.
    Variable refine_fn : St -> Z -> quad -> D -> St * D * bool.
    Variable replace_fn : option (St -> Z -> quad * D -> list (quad * D) -> St * list D).
    Variable recursive : bool.
    Variable al : Z.
    Hypothesis AL : al <= 29.
    Local Notation run := (refine_proc d St D T init_fn refine_fn replace_fn recursive al).

    Lemma refine_proc_exists p : proc_ok d St D T p -> (forall t, 0 <= t < T -> tiled d D (lvs p t)) ->
      exists n0, forall fuel, (n0 <= fuel)%nat -> exists p', run fuel p = Some p'.
    Proof.
      intros OK TD. destruct (refine_loop_exists (pr_trees _ _ p) TD init_fn refine_fn replace_fn recursive al AL (trips (pr_first _ _ p) (pr_last _ _ p)) (pr_first _ _ p) (pr_s _ _ p) 0) as (n0 & H).
      exists n0. intros fuel Hf. unfold refine_proc. destruct (local_cases p OK) as [(E1 & E2)|(E1 & E2)].
      - rewrite E1, E2. cbn. eexists. reflexivity.
      - destruct (H fuel (pr_trees _ _ p) Hf) as (((s, ln), trees) & E); [lia|unfold trips; lia|reflexivity|]. rewrite E. eexists. reflexivity.
    Qed.

    Lemma refine_proc_adapted p fuel p' : proc_ok d St D T p -> (forall t, 0 <= t < T -> tiled d D (lvs p t)) ->
      run fuel p = Some p' -> adapted_by finer p p'.
    Proof.
      intros OK TD E. unfold refine_proc in E. destruct (refine_trees _ _ _ _ _ _ _ _ _ _ _ _ _ _ _) as [((s, ln), trees)|] eqn:ER; [|discriminate]. injection E as <-.
      assert (X : ln = cnt trees (pr_first _ _ p) (pr_last _ _ p + 1) /\ (forall t, ~ pr_first _ _ p <= t <= pr_last _ _ p -> trees t = pr_trees _ _ p t) /\
         (forall t, pr_first _ _ p <= t <= pr_last _ _ p -> done (pr_trees _ _ p) finer (pr_first _ _ p) trees t)).
      { destruct (local_cases p OK) as [(E1 & E2)|(E1 & E2)].
        - rewrite E1, E2 in *. cbn in ER. injection ER as <- <- <-. split; [reflexivity|]. split; [reflexivity|intros; lia].
        - pose proof OK as (_ & _ & TR).
          apply (refine_loop_done (pr_trees _ _ p) TD) with (f := pr_first _ _ p) in ER.
          + unfold trips in ER. replace (pr_first St D p + Z.of_nat (Z.to_nat (pr_last St D p - pr_first St D p + 1))) with (pr_last St D p + 1) in ER by lia.
            destruct ER as (R1 & R2 & R3 & R4). split; [exact R4|]. split.
            * intros t Ht. destruct (Z_lt_le_dec t (pr_first St D p)); [apply R2; assumption|apply R1; lia].
            * intros t Ht. apply R3. lia.
          + intros t Ht. apply (TR t Ht).
          + exact AL.
          + lia.
          + unfold trips. lia.
          + reflexivity.
          + intros; lia.
          + rewrite cnt_nil; [reflexivity|intros; lia]. }
      destruct X as (-> & X1 & X2). apply adapted_done; [apply finer_refl|exact OK|exact TD|exact X1|exact X2].
    Qed.
  End RefineRank.

  Lemma coarsen_proc_adapted init_fn coarsen_fn replace_fn recursive orphans (p : proc) : proc_ok d St D T p -> (forall t, 0 <= t < T -> tiled d D (lvs p t)) ->
    exists p', coarsen_proc d St D T init_fn coarsen_fn replace_fn recursive orphans p = Some p' /\ adapted_by (merges d) p p'.
  Proof.
    intros OK TD. unfold coarsen_proc. destruct (local_cases p OK) as [(E1 & E2)|(E1 & E2)].
    - rewrite E1, E2. cbn. eexists. split; [reflexivity|].
      pose proof (adapted_done (merges d) p (pr_s _ _ p) (pr_trees _ _ p) (merges_refl d) OK TD) as H. rewrite E1, E2 in H. cbn in H.
      pose proof OK as (RK & NUM & _). replace (pr_num St D p) with 0; [apply H; [reflexivity|intros; lia]|].
      rewrite NUM. symmetry. unfold lvs_before. rewrite loc_from_nil; [reflexivity|]. intros t Ht. destruct RK as [(_ & _ & H3)|(H3 & _)]; [apply H3|]. cbn [rk_of k_first k_last] in H3. lia.
    - pose proof OK as (RK & NUM & TR).
      destruct (coarsen_loop_done (pr_trees _ _ p) TD (fun t Ht => proj1 (proj2 (TR t Ht))) init_fn coarsen_fn replace_fn recursive orphans (trips (pr_first _ _ p) (pr_last _ _ p)) (pr_first _ _ p) (pr_first _ _ p) (pr_s _ _ p) (pr_num _ _ p) 0 (pr_trees _ _ p))
        as (s' & ln' & trees' & E & R1 & R2 & R3 & R4).
      + lia.
      + unfold trips. lia.
      + reflexivity.
      + intros; lia.
      + rewrite cnt_nil; [reflexivity|intros; lia].
      + unfold trips. replace (pr_first St D p + Z.of_nat (Z.to_nat (pr_last St D p - pr_first St D p + 1))) with (pr_last St D p + 1) by lia.
        rewrite NUM, before_cnt. rewrite (cnt_split _ 0 (pr_first St D p) T), (cnt_split _ (pr_first St D p) (pr_last St D p + 1) T) by lia.
        assert (EM : forall t, 0 <= t < T -> ~ pr_first St D p <= t <= pr_last St D p -> lvs p t = []).
        { intros t Ht N. destruct RK as [(H3 & _)|(_ & _ & H3)]; cbn [rk_of k_first k_last k_trees] in H3; [lia|]. destruct (lvs p t) eqn:EL; [reflexivity|]. exfalso. apply N, H3. fold (lvs p t). rewrite EL. discriminate. }
        rewrite (cnt_nil _ 0) by (intros; apply EM; lia). rewrite (cnt_nil _ (pr_last St D p + 1)) by (intros; apply EM; lia). lia.
      + rewrite E. eexists. split; [reflexivity|]. unfold trips in R1, R3, R4. replace (pr_first St D p + Z.of_nat (Z.to_nat (pr_last St D p - pr_first St D p + 1))) with (pr_last St D p + 1) in * by lia.
        rewrite R4. apply adapted_done; [apply merges_refl|exact OK|exact TD| |].
        * intros t Ht. destruct (Z_lt_le_dec t (pr_first St D p)); [apply R2; assumption|apply R1; lia].
        * intros t Ht. apply R3. lia.
  Qed.

  (** ** the forest *)
  Lemma all_some_map {A B} (f : A -> option B) : forall l, Forall (fun x => exists y, f x = Some y) l -> exists l', all_some (map f l) = Some l'.
  Proof. induction 1 as [|x l (y & E) _ (l' & IH)]; [exists []; reflexivity|]. exists (y :: l'). cbn [map all_some]. rewrite E, IH. reflexivity. Qed.
  Lemma all_some_inv {A B} (f : A -> option B) : forall l l', all_some (map f l) = Some l' -> Forall2 (fun x y => f x = Some y) l l'.
  Proof.
    induction l as [|x l IH]; intros l' E; cbn [map all_some] in E; [injection E as <-; constructor|].
    destruct (f x) as [y|] eqn:E1; [|discriminate]. destruct (all_some (map f l)) as [r|]; [|discriminate]. injection E as <-. constructor; auto.
  Qed.
End FA.
