(** * p4est_new_ext *)

From Coq Require Import ZArith List Bool Lia Arith ZifyBool Sorting.Sorted.
From Verif Require Import Quad Spec Interval QuadLemmas IdLemmas DescLemmas SuccLemmas Search SearchLemmas SearchLocal Adapt AdaptSpec RefineLemmas Tiles Partition PartLemmas PartTrees PartRecv PartGlue PartFinal PartShip Comm CommLemmas OwnerLemmas Cut CutLemmas PropertiesCut PropertiesPartition Weighted WeightedLemmas Complete RegionLemmas PropertiesRegion Forest ForestSpec ForestLemmas ForestAdapt ForestPart ForestOps.
Import ListNotations.
Open Scope Z_scope.

Lemma init_list_map St D init_fn t : forall l (s : St), map fst (snd (init_list St D init_fn s t l)) = l.
Proof.
  induction l as [|q l IH]; intros s; cbn [init_list]; [reflexivity|]. destruct (init_fn s t q) as (s1, v). specialize (IH s1). destruct (init_list St D init_fn s1 t l) as (s2, r). cbn [snd map fst] in *. rewrite IH. reflexivity.
Qed.

Section FN.
  Variable d : dim.
  Variables (St D : Type).
  Variable T : Z.
  Hypothesis HT : 0 < T.
  Variable init_fn : St -> Z -> quad -> St * D.
  Variable uni : bool.
  Variables (level num : Z).
  Hypothesis HL : 0 <= level <= 29.
  Hypothesis HNUM : num = 2 ^ (nd d * level).
  Local Notation lvs := (lvs St D).
  Local Notation proc := (proc St D).
  Local Notation leaf := (quad * D)%type.
  Local Notation SZ := (psize d level).
  Local Notation mk := (mkquad d level).

  Lemma sz_pos : 0 < SZ.
  Proof. apply psize_pos. lia. Qed.
  Lemma num_pos : 1 <= num.
  Proof. rewrite HNUM. assert (0 < 2 ^ (nd d * level)); [|lia]. apply Z.pow_pos_nonneg; [lia|]. assert (ND : nd d = 2 \/ nd d = 3) by (destruct d; auto). destruct ND as [-> | ->]; lia. Qed.
  Lemma num_tree : num * SZ = TREE d.
  Proof. rewrite HNUM. unfold TREE. apply psize_root. lia. Qed.

  Lemma mk_wf i : wf d (mk i).
  Proof. apply mkquad_wf. lia. Qed.
  Lemma mk_pos i : 0 <= i < num -> qpos d (mk i) = i * SZ /\ qend d (mk i) = (i + 1) * SZ.
  Proof. intros H. unfold qend. rewrite qsize_psize, mkquad_level, mkquad_qpos by lia. split; [reflexivity|lia]. Qed.
  Lemma morton_mk i : 0 <= i < num -> set_morton d level i = mk i.
  Proof. intros H. apply set_morton_mkquad; lia. Qed.

  Lemma tiles_mk : forall k fm, 0 <= fm -> fm + Z.of_nat k <= num -> tiles d (fm * SZ) ((fm + Z.of_nat k) * SZ) (map mk (zseq fm k)).
  Proof.
    induction k as [|k IH]; intros fm H1 H2; cbn [zseq map tiles]; [f_equal; lia|]. destruct (mk_pos fm ltac:(lia)) as (P & E).
    split; [apply mk_wf|]. split; [exact P|]. rewrite E. replace (fm + Z.of_nat (S k)) with (fm + 1 + Z.of_nat k) by lia. apply IH; lia.
  Qed.

  Lemma succ_mk i : 0 <= i -> i + 1 < num -> successor d (mk i) = Some (mk (i + 1)).
  Proof.
    intros H1 H2. pose proof (successor_spec d (mk i) (mk_wf i)) as H. rewrite mkquad_level, qidx_mkquad in H by lia. destruct (successor d (mk i)) as [r|]; [|lia].
    destruct H as (W & L & I). destruct (wf_mkquad d r W) as (j & Hj & E). rewrite L in *. rewrite E, qidx_mkquad in I by lia. rewrite E, I. reflexivity.
  Qed.

  Lemma successors_mk : forall k i, 0 <= i -> i + Z.of_nat k <= num -> successors d k (mk i) = Some (map mk (zseq i k)).
  Proof.
    induction k as [|k IH]; intros i H1 H2; [reflexivity|]. destruct k as [|k]; [reflexivity|].
    change (successors d (S (S k)) (mk i)) with (match successor d (mk i) with None => None | Some q' => option_map (cons (mk i)) (successors d (S k) q') end).
    rewrite succ_mk by lia. rewrite IH by lia. reflexivity.
  Qed.

  Lemma uni_counts (l : list leaf) : Forall (fun lf => ql (fst lf) = level) l ->
    (forall i, nlev i l = if i =? level then zlen l else 0) /\ (l <> [] -> maxlev l = level).
  Proof.
    induction 1 as [|x l Hx _ (IH1 & IH2)]; [split; [intros i; destruct (i =? level); reflexivity|congruence]|]. split.
    - intros i. specialize (IH1 i). unfold nlev, zlen in *. cbn [filter]. rewrite Hx. destruct (level =? i) eqn:C; destruct (i =? level) eqn:C'; cbn [length]; lia.
    - intros _. unfold maxlev. cbn [fold_right]. fold (maxlev l). rewrite Hx. destruct l as [|y l]; [cbn; lia|]. rewrite IH2 by discriminate. lia.
  Qed.

  (** ** one tree *)
  Definition tree_ok (fm lm : Z) (x : ftree D) : Prop :=
    tiles d (fm * SZ) ((lm + 1) * SZ) (map fst (t_leaves D (ft D x))) /\
    (forall i, t_pl D (ft D x) i = nlev i (t_leaves D (ft D x))) /\ t_max D (ft D x) = maxlev (t_leaves D (ft D x)) /\
    descs_ok d D (ft_fd D x) (ft_ld D x) (t_leaves D (ft D x)) /\
    (uni = true \/ num = 1 -> Forall (fun lf => ql (fst lf) = level) (t_leaves D (ft D x))).

  Section Rank.
    Variables (first_tree first_q last_tree last_q : Z).
    Definition fm (t : Z) : Z := if t =? first_tree then first_q else 0.
    Definition lm (t : Z) : Z := if t =? last_tree then last_q else num - 1.
    Local Notation new_tree := (new_tree d St D init_fn uni).

    Lemma desc_pos q r : wf d q -> wf d r -> qpos d q = qpos d r -> first_descendant d q QMAXLEVEL = first_descendant d r QMAXLEVEL.
    Proof.
      intros W1 W2 E. unfold QMAXLEVEL. pose proof (wf_level _ _ W1). pose proof (wf_level _ _ W2).
      destruct (first_descendant_wf d q 29 W1 ltac:(lia)) as (A1 & A2 & _ & A3). destruct (first_descendant_wf d r 29 W2 ltac:(lia)) as (B1 & B2 & _ & B3). apply (quad_eq d); auto; lia.
    Qed.

    Lemma new_tree_ok t : 0 <= fm t <= lm t -> lm t < num -> exists n, forall fuel s, (n <= fuel)%nat ->
      exists s' x, new_tree fuel level num first_tree first_q last_tree last_q s t = Some (s', x) /\ tree_ok (fm t) (lm t) x.
    Proof.
      intros H1 H2. pose proof sz_pos as SP. pose proof num_pos as NP. unfold Forest.new_tree. fold (fm t). fold (lm t). destruct uni eqn:EU.
      - exists 0%nat. intros fuel s _. rewrite morton_mk by lia. rewrite successors_mk by lia. set (qs := map mk (zseq (fm t) (Z.to_nat (lm t - fm t + 1)))).
        pose proof (init_list_map St D init_fn t qs s) as IM. destruct (init_list St D init_fn s t qs) as (s', leaves) eqn:EI. cbn [snd] in IM.
        assert (FL : Forall (fun lf => ql (fst lf) = level) leaves).
        { apply Forall_forall. intros lf I. apply (in_map fst) in I. rewrite IM in I. unfold qs in I. apply in_map_iff in I. destruct I as (i & E & _). rewrite <- E. reflexivity. }
        destruct (uni_counts leaves FL) as (C1 & C2).
        assert (LL : zlen leaves = lm t - fm t + 1) by (unfold zlen; rewrite <- (map_length fst leaves), IM; unfold qs; rewrite map_length, zseq_length; lia).
        destruct leaves as [|lf l] eqn:EL; [unfold zlen in LL; cbn in LL; lia|]. eexists. eexists. split; [reflexivity|]. unfold tree_ok. cbn [ft t_leaves t_pl t_max ft_fd ft_ld].
        split; [rewrite IM; unfold qs; replace (lm t + 1) with (fm t + Z.of_nat (Z.to_nat (lm t - fm t + 1))) by lia; apply tiles_mk; lia|].
        split; [intros i; rewrite C1; unfold upd; rewrite LL; reflexivity|]. split; [symmetry; apply C2; discriminate|]. split; [|intros _; exact FL].
        cbn [descs_ok]. split; [|reflexivity]. f_equal. unfold qs in IM. replace (Z.to_nat (lm t - fm t + 1)) with (S (Z.to_nat (lm t - fm t))) in IM by lia. cbn [zseq map] in IM. injection IM as IM _. symmetry. exact IM.
      - rewrite morton_mk by lia. set (a := mk (fm t)).
        assert (ONE : forall fuel s, lm t = fm t -> exists s' x, (let (s0, v) := init_fn s t a in Some (s0, mkft D (mktree D 0 (upd (fun _ => 0) (ql a) 1) (ql a) [(a, v)]) (first_descendant d a QMAXLEVEL) (last_descendant d (fst (last [] (a, v))) QMAXLEVEL))) = Some (s', x) /\ tree_ok (fm t) (lm t) x /\ (fuel = fuel :> nat)).
        { intros fuel s E. destruct (init_fn s t a) as (s', v). eexists. eexists. split; [reflexivity|]. split; [|reflexivity]. unfold tree_ok. cbn [ft t_leaves t_pl t_max ft_fd ft_ld map fst tiles last].
          destruct (mk_pos (fm t) ltac:(lia)) as (P & Q). split; [split; [apply mk_wf|split; [exact P|unfold a; rewrite Q; f_equal; lia]]|].
          assert (FL : Forall (fun lf : leaf => ql (fst lf) = level) [(a, v)]) by (constructor; [reflexivity|constructor]).
          destruct (uni_counts [(a, v)] FL) as (C1 & C2). split; [intros i; rewrite C1; unfold upd; reflexivity|]. split; [symmetry; apply C2; discriminate|]. split; [cbn; auto|]. intros _. exact FL. }
        destruct ((num =? 1) || (t =? first_tree) && (first_q =? num - 1)) eqn:C1.
        + exists 0%nat. intros fuel s _. assert (E : lm t = fm t).
          { assert (num = 1 \/ fm t = num - 1) as [E|E]; [|lia|lia]. unfold fm. destruct (t =? first_tree); lia. }
          destruct (ONE fuel s E) as (s' & x & E1 & E2 & _). exists s', x. split; [|exact E2]. destruct (init_fn s t a). exact E1.
        + assert (N1 : num <> 1) by lia.
          assert (FMN : fm t < num - 1) by (assert (fm t <> num - 1); [|lia]; unfold fm in *; destruct (t =? first_tree) eqn:C; lia).
          set (bi := if lm t =? num - 1 then num - 1 else lm t + 1). set (inc := lm t =? num - 1).
          assert (BB : (if t =? last_tree then if last_q =? num - 1 then (set_morton d level last_q, false) else (set_morton d level (last_q + 1), true) else (set_morton d level (num - 1), false)) = (mk bi, negb inc)).
          { unfold bi, inc, lm in *. destruct (t =? last_tree) eqn:C.
            - destruct (last_q =? num - 1) eqn:C2; cbn [negb]; f_equal; [|apply morton_mk; lia]. rewrite morton_mk by lia. f_equal. lia.
            - rewrite Z.eqb_refl. cbn [negb]. f_equal. apply morton_mk. lia. }
          rewrite BB. rewrite negb_involutive. assert (HB : fm t < bi < num) by (unfold bi; destruct (lm t =? num - 1) eqn:C; lia).
          destruct (mk_pos (fm t) ltac:(lia)) as (PA & QA). destruct (mk_pos bi ltac:(lia)) as (PB & QB). fold a in PA, QA.
          assert (LE : (fm t + 1) * SZ <= bi * SZ) by (apply Z.mul_le_mono_nonneg_r; lia).
          destruct (C32_complete_region d St D init_fn t a true (mk bi) inc (mk_wf _) (mk_wf _) ltac:(lia)) as (mid & n & H & TM & _).
          exists n. intros fuel s Hf. destruct (H fuel s (fun _ => 0) Hf) as (st & E & EI & EM & EP). rewrite E.
          pose proof (init_list_map St D init_fn t (a :: mid ++ (if inc then [mk bi] else [])) s) as IM. cbn [app] in EI. rewrite <- EI in IM. cbn [snd app] in IM.
          destruct (c_arr St D st) as [|lf l] eqn:EC; [discriminate IM|]. eexists. eexists. split; [reflexivity|]. unfold tree_ok. cbn [ft t_leaves t_pl t_max ft_fd ft_ld]. rewrite IM.
          split; [|split; [intros i; rewrite EP; lia|split; [exact EM|split; [|intros X; exfalso; clear - X N1 EU; destruct X; [congruence|lia]]]]].
          * cbn [tiles]. split; [apply mk_wf|]. split; [exact PA|]. rewrite PB in TM. destruct inc eqn:EIN.
            -- apply (tiles_app d _ _ _ (bi * SZ)); [exact TM|]. cbn [tiles]. split; [apply mk_wf|]. split; [exact PB|]. rewrite QB. f_equal. unfold inc in EIN. unfold bi. rewrite EIN. lia.
            -- rewrite app_nil_r. unfold bi in TM. fold inc in TM. rewrite EIN in TM. exact TM.
          * cbn [descs_ok]. cbn [map] in IM. injection IM as IM _. rewrite IM. auto.
    Qed.

    (** the loop over the trees *)
    Lemma new_trees_ok : forall n jt, (forall t, jt <= t < jt + Z.of_nat n -> 0 <= fm t <= lm t /\ lm t < num) ->
      exists n0, forall fuel s ln trees, (n0 <= fuel)%nat ->
      exists s' trees', new_trees d St D init_fn uni fuel level num first_tree first_q last_tree last_q n jt s ln trees = Some (s', ln + cnt D trees' jt (jt + Z.of_nat n), trees') /\
        (forall t, ~ jt <= t < jt + Z.of_nat n -> trees' t = trees t) /\
        (forall t, jt <= t < jt + Z.of_nat n -> tree_ok (fm t) (lm t) (trees' t) /\ t_off D (ft D (trees' t)) = ln + cnt D trees' jt t).
    Proof.
      induction n as [|n IH]; intros jt H.
      - exists 0%nat. intros fuel s ln trees _. exists s, trees. cbn [new_trees]. rewrite cnt_nil by (intros; lia). split; [f_equal; f_equal; f_equal; lia|]. split; [reflexivity|intros; lia].
      - destruct (H jt ltac:(lia)) as (F1 & F2). destruct (new_tree_ok jt F1 F2) as (n1 & H1). destruct (IH (jt + 1)) as (n2 & H2); [intros; apply H; lia|].
        exists (Nat.max n1 n2). intros fuel s ln trees Hf. cbn [new_trees]. destruct (H1 fuel s ltac:(lia)) as (s1 & x & E1 & TO). rewrite E1.
        destruct (H2 fuel s1 (ln + zlen (t_leaves D (ft D x))) (upd trees jt (with_off D x ln)) ltac:(lia)) as (s' & trees' & E2 & O & I).
        assert (EJ : trees' jt = with_off D x ln) by (rewrite O by lia; unfold upd; rewrite Z.eqb_refl; reflexivity).
        exists s', trees'. rewrite E2. split; [|split].
        + f_equal. f_equal. f_equal. rewrite (cnt_cons D trees' jt) by lia. rewrite EJ. cbn [with_off ft t_leaves]. replace (jt + Z.of_nat (S n)) with (jt + 1 + Z.of_nat n) by lia. lia.
        + intros t Ht. rewrite O by lia. unfold upd. replace (t =? jt) with false by lia. reflexivity.
        + intros t Ht. destruct (Z.eq_dec t jt) as [->|N].
          * rewrite EJ. cbn [with_off ft t_off]. rewrite cnt_nil by (intros; lia). split; [exact TO|lia].
          * destruct (I t ltac:(lia)) as (I1 & I2). split; [exact I1|]. rewrite I2, (cnt_cons D trees' jt) by lia. rewrite EJ. cbn [with_off ft t_leaves]. lia.
    Qed.
  End Rank.

  (** ** one rank: it gets the quadrants c .. c' - 1 of all trees *)
  Definition cl (c t : Z) : Z := Z.max 0 (Z.min num (c - t * num)).

  Definition rank_ok (c c' : Z) (p : proc) : Prop :=
    proc_ok d St D T p /\
    (forall t, 0 <= t < T -> tiles d (cl c t * SZ) (cl c' t * SZ) (map fst (lvs p t))) /\
    (uni = true \/ num = 1 -> forall t lf, In lf (lvs p t) -> ql (fst lf) = level) /\
    (c < c' -> pr_first _ _ p = c / num) /\ (c = c' -> pr_first _ _ p = -1).

  Variable prec : Z.
  Hypothesis PREC : 53 <= prec <= 64.
  Variable P : Z.
  Hypothesis HP : 0 < P < 2 ^ 31.
  Hypothesis HN : num * T < 2 ^ 63.
  Local Notation N := (num * T).
  Local Notation cut i := (partition_cut prec N i P).

  Lemma cut_facts : cut 0 = 0 /\ cut P = N /\ forall p p', 0 <= p <= p' -> p' <= P -> 0 <= cut p <= cut p' /\ cut p' <= N.
  Proof. apply C16_cut_monotone; [exact PREC| |exact HP]. pose proof num_pos. split; [apply Z.mul_nonneg_nonneg; lia|exact HN]. Qed.

  Lemma new_proc_ok r : 0 <= r < P -> exists n0, forall fuel s, (n0 <= fuel)%nat ->
    exists p, new_proc d St D T prec init_fn uni fuel P level num r s = Some p /\ rank_ok (cut r) (cut (r + 1)) p.
  Proof.
    intros Hr. pose proof num_pos as NP. pose proof sz_pos as SP. destruct cut_facts as (_ & _ & MO). destruct (MO r (r + 1) ltac:(lia) ltac:(lia)) as (M1 & M2).
    unfold new_proc. set (c := cut r) in *. set (c' := cut (r + 1)) in *.
    destruct (c <=? c' - 1) eqn:CE.
    - set (f := c / num). set (l := (c' - 1) / num).
      pose proof (Z.div_mod c num ltac:(lia)) as D1. pose proof (Z.mod_pos_bound c num ltac:(lia)) as B1. pose proof (Z.div_mod (c' - 1) num ltac:(lia)) as D2. pose proof (Z.mod_pos_bound (c' - 1) num ltac:(lia)) as B2. fold f in D1. fold l in D2.
      set (fq := c - f * num). set (lq := c' - 1 - l * num). assert (EFQ : 0 <= fq < num) by lia. assert (ELQ : 0 <= lq < num) by lia.
      assert (F0 : 0 <= f) by (apply Z.div_pos; lia). assert (FL : f <= l) by (apply Z.div_le_mono; lia).
      assert (LT : l < T) by (apply Z.div_lt_upper_bound; lia).
      (* the range of a tree *)
      assert (RANGE : forall t, f <= t <= l -> 0 <= fm f fq t <= lm l lq t /\ lm l lq t < num /\ fm f fq t = cl c t /\ lm l lq t + 1 = cl c' t).
      { intros t Ht. unfold fm, lm, cl.
        assert (A1 : t = f \/ (f + 1) * num <= t * num) by (destruct (Z.eq_dec t f); [left; assumption|right; apply Z.mul_le_mono_nonneg_r; lia]).
        assert (A2 : t = l \/ (t + 1) * num <= l * num) by (destruct (Z.eq_dec t l); [left; assumption|right; apply Z.mul_le_mono_nonneg_r; lia]).
        unfold fq, lq in *. destruct (t =? f) eqn:C1, (t =? l) eqn:C2.
        - assert (t = f) by lia. assert (t = l) by lia. subst t. assert (E : f * num = l * num) by congruence. lia.
        - assert (t = f) by lia. subst t. destruct A2 as [A2|A2]; [lia|]. lia.
        - assert (t = l) by lia. subst t. destruct A1 as [A1|A1]; [lia|]. lia.
        - destruct A1 as [A1|A1]; [lia|]. destruct A2 as [A2|A2]; [lia|]. lia. }
      assert (EMPTY : forall t, ~ f <= t <= l -> cl c t = cl c' t).
      { intros t Ht. unfold cl. destruct (Z_lt_le_dec t f) as [C1|C1].
        - assert ((t + 1) * num <= f * num) by (apply Z.mul_le_mono_nonneg_r; lia). lia.
        - assert ((l + 1) * num <= t * num) by (apply Z.mul_le_mono_nonneg_r; lia). lia. }
      destruct (new_trees_ok f fq l lq (trips f l) f) as (n0 & H).
      { intros t Ht. unfold trips in Ht. destruct (RANGE t ltac:(lia)) as (R1 & R2 & _). auto. }
      exists n0. intros fuel s Hf. destruct (H fuel s 0 (fun _ => empty_tree D) Hf) as (s' & trees' & E & O & I). rewrite E.
      unfold trips in *. replace (f + Z.of_nat (Z.to_nat (l - f + 1))) with (l + 1) in * by lia. replace (l >=? 0) with true by lia.
      eexists. split; [reflexivity|]. set (num_ := 0 + cnt D trees' f (l + 1)).
      match goal with |- rank_ok _ _ ?q => set (p := q) end.
      assert (LV : forall t, lvs p t = t_leaves D (ft D (trees' t))).
      { intros t. unfold ForestSpec.lvs, p. cbn [pr_trees]. unfold trail. destruct ((l + 1 <=? t) && (t <? T)); reflexivity. }
      assert (EM : forall t, ~ f <= t <= l -> t_leaves D (ft D (trees' t)) = []) by (intros t Ht; rewrite O by lia; reflexivity).
      assert (NE : forall t, f <= t <= l -> t_leaves D (ft D (trees' t)) <> []).
      { intros t Ht E0. destruct (I t ltac:(lia)) as ((I1 & _) & _). rewrite E0 in I1. cbn in I1. destruct (RANGE t Ht) as (R1 & R2 & _).
        assert (fm f fq t * SZ < (lm l lq t + 1) * SZ) by (apply Z.mul_lt_mono_pos_r; lia). lia. }
      assert (PB : forall t, lvs_before St D p t = cnt D trees' 0 t) by (intros t; rewrite before_cnt; apply cnt_ext; intros u _; exact (LV u)).
      split; [|split; [|split; [|split]]].
      + split; [|split].
        * right. cbn [rk_of k_first k_last k_trees p pr_first pr_last]. split; [lia|]. split; [exact LT|]. intros t. fold (lvs p t). rewrite LV. split; [|apply NE].
          intros H0. destruct (Z_le_gt_dec f t) as [C1|C1]; [destruct (Z_le_gt_dec t l) as [C2|C2]; [lia|]|]; exfalso; apply H0, EM; lia.
        * rewrite PB. cbn [p pr_num]. rewrite (cnt_split D trees' 0 f T), (cnt_split D trees' f (l + 1) T) by lia. rewrite (cnt_nil D trees' 0 f) by (intros; apply EM; lia). rewrite (cnt_nil D trees' (l + 1) T) by (intros; apply EM; lia). lia.
        * intros t Ht. rewrite PB, LV. unfold p. cbn [pr_trees]. unfold trail. destruct ((l + 1 <=? t) && (t <? T)) eqn:C.
          -- rewrite O by lia. cbn [with_off ft t_off t_pl t_max ft_fd ft_ld empty_tree t_leaves]. split; [|cbn; auto].
             rewrite (cnt_split D trees' 0 f t), (cnt_split D trees' f (l + 1) t) by lia. rewrite (cnt_nil D trees' 0 f) by (intros; apply EM; lia). rewrite (cnt_nil D trees' (l + 1) t) by (intros; apply EM; lia). lia.
          -- destruct (Z_le_gt_dec f t) as [C1|C1].
             ++ destruct (I t ltac:(lia)) as ((I1 & I2 & I3 & I4 & _) & I5). split; [|auto]. rewrite I5. rewrite (cnt_split D trees' 0 f t) by lia. rewrite (cnt_nil D trees' 0 f) by (intros; apply EM; lia). lia.
             ++ rewrite O by lia. cbn [empty_tree ft t_off t_pl t_max ft_fd ft_ld t_leaves]. rewrite cnt_nil by (intros; apply EM; lia). cbn. auto.
      + intros t Ht. rewrite LV. destruct (Z_le_gt_dec f t) as [C1|C1]; [destruct (Z_le_gt_dec t l) as [C2|C2]|].
        * destruct (RANGE t ltac:(lia)) as (_ & _ & R3 & R4). rewrite <- R3, <- R4. destruct (I t ltac:(lia)) as ((I1 & _) & _). exact I1.
        * rewrite EM by lia. rewrite (EMPTY t) by lia. reflexivity.
        * rewrite EM by lia. rewrite (EMPTY t) by lia. reflexivity.
      + intros HU t lf Hlf. rewrite LV in Hlf. destruct (Z_le_gt_dec f t) as [C1|C1]; [destruct (Z_le_gt_dec t l) as [C2|C2]|]; [|rewrite EM in Hlf by lia; destruct Hlf|rewrite EM in Hlf by lia; destruct Hlf].
        destruct (I t ltac:(lia)) as ((_ & _ & _ & _ & I5) & _). specialize (I5 HU). rewrite Forall_forall in I5. auto.
      + intros _. reflexivity.
      + lia.
    - exists 0%nat. intros fuel s _. assert (E : c' = c) by lia. cbn [trips Z.to_nat Z.sub Z.add Z.opp Z.pos_sub new_trees Pos.pred_double]. change (-2 >=? 0) with false. cbn [new_trees]. eexists. split; [reflexivity|].
      split; [|split; [|split; [|split]]].
      + split; [|split].
        * left. cbn [rk_of k_first k_last k_trees pr_first pr_last pr_trees empty_tree ft t_leaves]. auto.
        * cbn [pr_num]. unfold lvs_before. rewrite loc_from_nil by (intros; reflexivity). reflexivity.
        * intros t Ht. unfold lvs_before. rewrite loc_from_nil by (intros; reflexivity). cbn. auto.
      + intros t Ht. rewrite E. reflexivity.
      + intros _ t lf I. destruct I.
      + lia.
      + reflexivity.
  Qed.

  (** ** all ranks *)
  Lemma new_procs_ok : forall n r ss, length ss = n -> 0 <= r -> r + Z.of_nat n <= P -> exists n0, forall fuel, (n0 <= fuel)%nat ->
    exists ps, mapi_opt (new_proc d St D T prec init_fn uni fuel P level num) r ss = Some ps /\ length ps = n /\
      forall k p, nth_error ps k = Some p -> rank_ok (cut (r + Z.of_nat k)) (cut (r + Z.of_nat k + 1)) p.
  Proof.
    induction n as [|n IH]; intros r ss L H1 H2; destruct ss as [|s ss]; try discriminate L.
    - exists 0%nat. intros fuel _. exists []. split; [reflexivity|]. split; [reflexivity|]. intros [|k] p E; discriminate E.
    - destruct (new_proc_ok r ltac:(lia)) as (n1 & E1). destruct (IH (r + 1) ss) as (n2 & E2); [cbn in L; lia|lia|lia|]. exists (Nat.max n1 n2). intros fuel Hf.
      destruct (E1 fuel s ltac:(lia)) as (p & F1 & F2). destruct (E2 fuel ltac:(lia)) as (ps & G1 & G2 & G3). exists (p :: ps). cbn [mapi_opt]. rewrite F1, G1. split; [reflexivity|]. split; [cbn [length]; lia|].
      intros [|k] q E; cbn [nth_error] in E.
      + injection E as <-. replace (r + Z.of_nat 0) with r by lia. exact F2.
      + specialize (G3 k q E). replace (r + Z.of_nat (S k)) with (r + 1 + Z.of_nat k) by lia. exact G3.
  Qed.

  (** a tiling by quadrants of one level *)
  Lemma tiles_uniform : forall l i j, 0 <= i -> tiles d (i * SZ) (j * SZ) l -> Forall (fun q => ql q = level) l -> i <= j /\ l = map mk (zseq i (Z.to_nat (j - i))).
  Proof.
    pose proof sz_pos as SP. induction l as [|q l IH]; intros i j Hi H F.
    - cbn in H. apply Z.mul_reg_r in H; [|lia]. subst j. split; [lia|]. rewrite Z.sub_diag. reflexivity.
    - cbn [tiles] in H. destruct H as (W & Pq & H). apply Forall_cons_iff in F. destruct F as (Lq & F').
      assert (E : qend d q = (i + 1) * SZ) by (unfold qend; rewrite qsize_psize, Pq, Lq; lia). rewrite E in H. destruct (IH (i + 1) j ltac:(lia) H F') as (L & El).
      split; [lia|]. replace (Z.to_nat (j - i)) with (S (Z.to_nat (j - (i + 1)))) by lia. cbn [zseq map]. rewrite <- El. f_equal.
      destruct (wf_mkquad d q W) as (k & Hk & Ek). rewrite Lq in *. pose proof (f_equal (qpos d) Ek) as PE. rewrite mkquad_qpos in PE by lia. rewrite Pq in PE. apply Z.mul_reg_r in PE; [|lia]. rewrite Ek, PE. reflexivity.
  Qed.

  Lemma cl_sum c : 0 <= c -> forall n, fold_right Z.add 0 (map (cl c) (zseq 0 n)) = Z.min c (Z.of_nat n * num).
  Proof.
    intros Hc. pose proof num_pos as NP.
    assert (G : forall n s, 0 <= s -> fold_right Z.add 0 (map (cl c) (zseq s n)) = Z.min c ((s + Z.of_nat n) * num) - Z.min c (s * num)).
    { induction n as [|n IH]; intros s Hs; cbn [zseq map fold_right]; [replace (s + Z.of_nat 0) with s by lia; lia|]. rewrite IH by lia. replace (s + Z.of_nat (S n)) with (s + 1 + Z.of_nat n) by lia. unfold cl. lia. }
    intros n. rewrite G by lia. cbn [Z.mul]. replace (0 + Z.of_nat n) with (Z.of_nat n) by lia. lia.
  Qed.

  Lemma rank_count c c' (p : proc) : rank_ok c c' p -> uni = true \/ num = 1 -> 0 <= c <= c' -> c' <= N -> pr_num _ _ p = c' - c.
  Proof.
    intros (OK & TL & U & _) HU H1 H2. destruct OK as (_ & -> & _). unfold lvs_before.
    assert (G : forall n s, 0 <= s -> s + Z.of_nat n <= T -> zlen (loc_from s n (lvs p)) = fold_right Z.add 0 (map (cl c') (zseq s n)) - fold_right Z.add 0 (map (cl c) (zseq s n))).
    { induction n as [|n IH]; intros s Hs Hn; cbn [loc_from zseq map fold_right]; [reflexivity|]. rewrite zlen_app, IH by lia.
      destruct (tiles_uniform (map fst (lvs p s)) (cl c s) (cl c' s)) as (L & E); [unfold cl; lia|apply TL; lia| |].
      - apply Forall_forall. intros q I. apply in_map_iff in I. destruct I as (lf & <- & I). apply (U HU s). exact I.
      - assert (E2 : zlen (map (pair s) (lvs p s)) = cl c' s - cl c s); [|lia]. unfold zlen. rewrite map_length. rewrite <- (map_length fst (lvs p s)), E, map_length, zseq_length. lia. }
    rewrite G by lia. rewrite !cl_sum by lia. rewrite Z2Nat.id by lia. lia.
  Qed.

  Definition ranks_ok (r : Z) (ps : list proc) : Prop := forall k p, nth_error ps k = Some p -> rank_ok (cut (r + Z.of_nat k)) (cut (r + Z.of_nat k + 1)) p.
  Lemma ranks_cons r p ps : ranks_ok r (p :: ps) -> rank_ok (cut r) (cut (r + 1)) p /\ ranks_ok (r + 1) ps.
  Proof.
    intros H. split; [specialize (H 0%nat p eq_refl); replace (r + Z.of_nat 0) with r in H by lia; exact H|]. intros k q E. specialize (H (S k) q E). replace (r + 1 + Z.of_nat k) with (r + Z.of_nat (S k)) by lia. exact H.
  Qed.

  Lemma ranks_tiles t : 0 <= t < T -> forall ps r, ranks_ok r ps -> tiles d (cl (cut r) t * SZ) (cl (cut (r + zlen ps)) t * SZ) (map fst (flat_map (fun p => lvs p t) ps)).
  Proof.
    intros Ht. induction ps as [|p ps IH]; intros r H; cbn [flat_map map tiles]; [unfold zlen; cbn [length]; rewrite Z.add_0_r; reflexivity|].
    apply ranks_cons in H. destruct H as (H1 & H2). rewrite map_app. apply (tiles_app d _ _ _ (cl (cut (r + 1)) t * SZ)); [apply H1; exact Ht|].
    replace (r + zlen (p :: ps)) with (r + 1 + zlen ps) by (unfold zlen; cbn [length]; lia). apply IH. exact H2.
  Qed.

  Lemma rank_bounds c c' (p : proc) t lf : rank_ok c c' p -> 0 <= t < T -> In lf (lvs p t) -> c < (t + 1) * num /\ t * num < c'.
  Proof.
    intros (_ & TL & _) Ht I. specialize (TL t Ht). pose proof sz_pos as SP. assert (NE : map fst (lvs p t) <> []) by (destruct (lvs p t); [destruct I|discriminate]).
    destruct (Z_le_gt_dec (cl c' t) (cl c t)) as [C|C].
    - exfalso. pose proof (tiles_le d _ _ _ TL) as LE. assert (cl c' t * SZ <= cl c t * SZ) by (apply Z.mul_le_mono_nonneg_r; lia).
      apply tiles_empty in TL. apply NE. apply TL. lia.
    - unfold cl in C. lia.
  Qed.

  Lemma ranks_sorted : forall ps r, 0 <= r -> r + zlen ps <= P -> ranks_ok r ps -> lsorted (all_leaves St D T ps) /\ forall x, In x (all_leaves St D T ps) -> cut r < (fst x + 1) * num.
  Proof.
    pose proof num_pos as NP. destruct cut_facts as (_ & _ & MO).
    induction ps as [|p ps IH]; intros r H1 H2 H; [split; [constructor|intros ? []]|]. unfold zlen in H2; cbn [length] in H2. apply ranks_cons in H. destruct H as (R1 & R2).
    destruct (IH (r + 1) ltac:(lia) ltac:(unfold zlen; lia) R2) as (I1 & I2). destruct (MO r (r + 1) ltac:(lia) ltac:(lia)) as (M1 & _).
    assert (SP : all_leaves St D T (p :: ps) = rank_leaves St D T p ++ all_leaves St D T ps) by reflexivity. rewrite SP.
    assert (IN : forall x, In x (rank_leaves St D T p) -> cut r < (fst x + 1) * num /\ fst x * num < cut (r + 1)).
    { intros x I. apply loc_from_labels in I. eapply rank_bounds; [exact R1|lia|apply I]. }
    split.
    - apply lsorted_app. split; [apply lsorted_loc|]. split; [exact I1|]. intros x y Ix Iy. destruct (IN x Ix) as (_ & B1). specialize (I2 y Iy).
      assert (fst x * num < (fst y + 1) * num) by lia. apply Z.mul_lt_mono_pos_r in H; lia.
    - intros x I. apply in_app_or in I. destruct I as [I|I]; [apply IN; exact I|]. specialize (I2 x I). lia.
  Qed.

  Local Notation marker_at i := (new_marker d T prec P level num i).

  Lemma ranks_markers : forall ps r, 0 <= r -> r + zlen ps = P -> ranks_ok r ps ->
    exists l, inputs (@fst quad D) (map (rk_of St D) ps) = Some l /\ fill T l = map (fun i => marker_at i) (zseq r (length ps + 1)).
  Proof.
    pose proof num_pos as NP. pose proof sz_pos as SP. destruct cut_facts as (_ & CP & MO).
    induction ps as [|p ps IH]; intros r H1 H2 H.
    - exists []. split; [reflexivity|]. cbn [fill length Nat.add zseq map]. unfold zlen in H2. cbn [length] in H2. assert (r = P) as -> by lia. unfold new_marker, sentinel. rewrite CP. rewrite Z.mul_comm, Z.div_mul by lia.
      replace (T * num - T * num) with 0 by lia. rewrite morton_mk by lia. f_equal. f_equal.
      destruct (pos_coords d (mk 0) (mkq 0 0 0 0)) as (E1 & E2 & E3); [apply mk_wf| |destruct (mk_pos 0 ltac:(lia)) as (-> & _); destruct d; reflexivity|rewrite E1, E2, E3; reflexivity].
      unfold wf. cbn [qx qy qz ql]. split; [lia|]. split; [exists 0; lia|]. split; [exists 0; lia|]. destruct d; [reflexivity|exists 0; lia].
    - unfold zlen in H2. cbn [length] in H2. apply ranks_cons in H. destruct H as (R1 & R2). destruct (IH (r + 1) ltac:(lia) ltac:(unfold zlen; lia) R2) as (l & E & EF).
      destruct (MO r (r + 1) ltac:(lia) ltac:(lia)) as (M1 & M2). destruct R1 as (OK & TL & _ & NE & EM). pose proof OK as (RK & _).
      cbn [map inputs]. rewrite E. unfold marker_input. cbn [rk_of k_first k_trees]. cbn [length Nat.add zseq map].
      destruct (Z.eq_dec (cut r) (cut (r + 1))) as [C|C].
      + rewrite (EM C). cbn [Z.ltb Z.compare]. eexists. split; [reflexivity|]. cbn [fill g_tree Z.ltb Z.compare]. rewrite EF. f_equal. rewrite Nat.add_1_r. cbn [zseq map hd]. unfold new_marker. rewrite C. reflexivity.
      + specialize (NE ltac:(lia)). rewrite NE.
        pose proof (Z.div_mod (cut r) num ltac:(lia)) as D1. pose proof (Z.mod_pos_bound (cut r) num ltac:(lia)) as B1. set (f := cut r / num) in *.
        assert (F0 : 0 <= f) by (apply Z.div_pos; lia). assert (FT : f < T) by (apply Z.div_lt_upper_bound; lia). replace (f <? 0) with false by lia.
        specialize (TL f ltac:(lia)). fold (lvs p f) in *. destruct (lvs p f) as [|lf lv] eqn:EL.
        * exfalso. destruct RK as [(K1 & _)|(K1 & K2 & K3)]; cbn [rk_of k_first k_last k_trees] in *; [lia|]. apply (proj2 (K3 f)); [lia|]. exact EL.
        * eexists. split; [reflexivity|]. cbn [fill g_tree]. replace (f <? 0) with false by lia. rewrite EF. f_equal. unfold new_marker. fold f. f_equal.
          assert (EC : cl (cut r) f = cut r - f * num) by (unfold cl; lia). cbn [map tiles] in TL. destruct TL as (W & Pq & _). rewrite EC in Pq.
          rewrite morton_mk by lia. destruct (mk_pos (cut r - f * num) ltac:(lia)) as (PM & _).
          destruct (pos_coords d (fst lf) (mk (cut r - f * num)) W (mk_wf _) ltac:(lia)) as (-> & -> & ->). reflexivity.
  Qed.

  Lemma forest_new ps gfq gn : zlen ps = P -> ranks_ok 0 ps ->
    (uni = true \/ num = 1 -> gfq = map (fun i => cut i) (zseq 0 (length ps + 1)) /\ gn = N) ->
    (~ (uni = true \/ num = 1) -> gfq = count_quadrants (map (pr_num _ _) ps) /\ zget gfq P = Some gn) ->
    let F := mkforest St D ps gfq (map (fun i => marker_at i) (zseq 0 (length ps + 1))) gn 0 in
    forest_ok d St D T F /\
    (uni = true \/ num = 1 -> (forall t, 0 <= t < T -> map fst (flat_map (fun p => lvs p t) ps) = map (set_morton d level) (zseq 0 (Z.to_nat num))) /\
       forall k p, nth_error ps k = Some p -> pr_num _ _ p = cut (Z.of_nat k + 1) - cut (Z.of_nat k)).
  Proof.
    intros LP R U1 U2 F. pose proof num_pos as NP. pose proof sz_pos as SP. destruct cut_facts as (C0 & CP & MO).
    assert (FP : Forall (proc_ok d St D T) ps) by (apply Forall_forall; intros p I; apply In_nth_error in I; destruct I as (k & E); apply (R k p E)).
    assert (TL : forall t, 0 <= t < T -> tiles d 0 (TREE d) (map fst (flat_map (fun p => lvs p t) ps))).
    { intros t Ht. pose proof (ranks_tiles t Ht ps 0 R) as H. rewrite LP, Z.add_0_l, C0, CP in H. pose proof (Z.mul_nonneg_nonneg t num ltac:(lia) ltac:(lia)) as T0. assert (T1 : (t + 1) * num <= T * num) by (apply Z.mul_le_mono_nonneg_r; lia).
      replace (cl 0 t) with 0 in H by (unfold cl; lia). replace (cl N t) with num in H by (unfold cl; lia). rewrite num_tree in H. exact H. }
    assert (NUMS : uni = true \/ num = 1 -> forall k p, nth_error ps k = Some p -> pr_num _ _ p = cut (Z.of_nat k + 1) - cut (Z.of_nat k)).
    { intros HU k p E. pose proof (R k p E) as H. rewrite Z.add_0_l in H. assert (K : (k < length ps)%nat) by (apply nth_error_Some; congruence). destruct (MO (Z.of_nat k) (Z.of_nat k + 1) ltac:(lia) ltac:(unfold zlen in LP; lia)) as (M1 & M2). apply (rank_count _ _ p H HU); lia. }
    assert (RUN : uni = true \/ num = 1 -> forall (qs : list proc) r, 0 <= r -> (forall k p, nth_error qs k = Some p -> pr_num _ _ p = cut (r + Z.of_nat k + 1) - cut (r + Z.of_nat k)) ->
       running (cut r) (map (pr_num _ _) qs) = map (fun i => cut i) (zseq r (length qs + 1))).
    { intros HU. induction qs as [|p qs IH]; intros r Hr H; cbn [map running length Nat.add zseq]; [reflexivity|]. f_equal.
      pose proof (H 0%nat p eq_refl) as H0. replace (r + Z.of_nat 0) with r in H0 by lia. replace (cut r + pr_num St D p) with (cut (r + 1)) by lia. apply IH; [lia|].
      intros k q E. specialize (H (S k) q E). replace (r + 1 + Z.of_nat k) with (r + Z.of_nat (S k)) by lia. exact H. }
    assert (RUN0 : uni = true \/ num = 1 -> count_quadrants (map (pr_num _ _) ps) = map (fun i => cut i) (zseq 0 (length ps + 1))).
    { intros HU. unfold count_quadrants. rewrite <- C0 at 1. apply RUN; [exact HU|lia|]. intros k p E. rewrite Z.add_0_l. apply NUMS; assumption. }
    assert (DEC : (uni = true \/ num = 1) \/ ~ (uni = true \/ num = 1)) by (destruct uni; [left; left; reflexivity|destruct (Z.eq_dec num 1); [left; right; assumption|right; intros [X|X]; congruence]]).
    assert (LEN : length (map (pr_num St D) ps) = length ps) by apply map_length.
    assert (GQ : gfq = count_quadrants (map (pr_num _ _) ps)) by (destruct DEC as [HU|HU]; [rewrite RUN0 by exact HU; apply U1; exact HU|apply U2; exact HU]).
    assert (GN : gn = zlen (all_leaves St D T ps)).
    { rewrite <- (num_total d) by exact FP. assert (Z1 : zget gfq P = Some (PartShip.total (map (pr_num St D) ps))).
      { rewrite GQ. unfold count_quadrants. rewrite zget_nth by lia. rewrite running_nth by (rewrite LEN; unfold zlen in LP; lia). unfold PartShip.total. rewrite LEN. replace (Z.to_nat P) with (length ps) by (unfold zlen in LP; lia). reflexivity. }
      destruct DEC as [HU|HU]; [|destruct (U2 HU) as (_ & Z2); congruence]. destruct (U1 HU) as (E1 & ->). rewrite E1 in Z1. rewrite zget_nth in Z1 by lia. rewrite nth_error_map, zseq_nth in Z1 by (unfold zlen in LP; lia).
      cbn [option_map] in Z1. rewrite Z.add_0_l, Z2Nat.id in Z1 by lia. rewrite CP in Z1. injection Z1 as Z1. exact Z1. }
    destruct (ranks_sorted ps 0 ltac:(lia) ltac:(lia) R) as (SO & _).
    split.
    - unfold forest_ok. cbn [F f_procs f_gnum f_gfq f_gfp]. split; [intros ->; unfold zlen in LP; cbn in LP; lia|]. split; [exact FP|]. split; [exact SO|]. split; [exact TL|]. split; [exact GN|]. split; [exact GQ|].
      unfold global_partition. destruct (ranks_markers ps 0 ltac:(lia) ltac:(lia) R) as (l & E1 & E2). rewrite E1, E2. reflexivity.
    - intros HU. split; [|apply NUMS; exact HU]. intros t Ht.
      destruct (tiles_uniform (map fst (flat_map (fun p => lvs p t) ps)) 0 num ltac:(lia)) as (_ & E).
      + rewrite Z.mul_0_l, num_tree. apply TL. exact Ht.
      + apply Forall_forall. intros q I. apply in_map_iff in I. destruct I as (lf & <- & I). apply in_flat_map in I. destruct I as (p & I1 & I2). apply In_nth_error in I1. destruct I1 as (k & E). destruct (R k p E) as (_ & _ & U & _). apply (U HU t). exact I2.
      + rewrite E, Z.sub_0_r. apply map_ext_in. intros i I. apply in_zseq in I. symmetry. apply morton_mk. lia.
  Qed.
End FN.

(** ** the initial level *)
Section Level.
  Variable d : dim.
  Variable T : Z.
  Hypothesis HT : 0 < T.

  Lemma children_pow : children d = 2 ^ nd d.
  Proof. destruct d; reflexivity. Qed.
  Lemma pow_next l : 0 <= l -> 2 ^ (nd d * l) * children d = 2 ^ (nd d * (l + 1)).
  Proof. intros H. rewrite children_pow, <- Z.pow_add_r; [f_equal; lia| |]; assert (ND : nd d = 2 \/ nd d = 3) by (destruct d; auto); destruct ND as [-> | ->]; lia. Qed.

  Lemma find_level_spec need : forall n level, 0 <= level ->
    let r := find_level d n need level (2 ^ (nd d * level)) in
    level <= fst r <= level + Z.of_nat n /\ snd r = 2 ^ (nd d * fst r) /\ (need <= snd r \/ fst r = level + Z.of_nat n) /\
    (forall m, level <= m < fst r -> 2 ^ (nd d * m) < need).
  Proof.
    induction n as [|n IH]; intros level Hl; cbn [find_level].
    - cbn [fst snd]. split; [lia|]. split; [reflexivity|]. split; [right; lia|intros; lia].
    - destruct (2 ^ (nd d * level) >=? need) eqn:C.
      + cbn [fst snd]. split; [lia|]. split; [reflexivity|]. split; [left; lia|intros; lia].
      + rewrite pow_next by lia. destruct (IH (level + 1) ltac:(lia)) as (I1 & I2 & I3 & I4). split; [lia|]. split; [exact I2|]. split; [destruct I3; [left; assumption|right; lia]|].
        intros m Hm. destruct (Z.eq_dec m level) as [->|]; [lia|apply I4; lia].
  Qed.
  Lemma raise_level_spec : forall n level, 0 <= level -> raise_level d n level (2 ^ (nd d * level)) = (level + Z.of_nat n, 2 ^ (nd d * (level + Z.of_nat n))).
  Proof.
    induction n as [|n IH]; intros level Hl; cbn [raise_level]; [rewrite Z.add_0_r; reflexivity|]. rewrite pow_next by lia. rewrite IH by lia.
    replace (level + 1 + Z.of_nat n) with (level + Z.of_nat (S n)) by lia. reflexivity.
  Qed.

  Lemma initial_level_spec minq minl P level num : initial_level d T minq minl P = Some (level, num) ->
    0 <= level <= 29 /\ num = 2 ^ (nd d * level) /\ num <= 2 ^ 31 - 1 /\ minl <= level /\ P * minq <= num * T /\
    (forall m, 0 <= m < level -> m < minl \/ 2 ^ (nd d * m) * T < P * minq).
  Proof.
    unfold initial_level. set (need := (P * minq + (T - 1)) / T).
    assert (NEED : forall k, need <= k <-> P * minq <= k * T).
    { intros k. unfold need. pose proof (Z.div_mod (P * minq + (T - 1)) T ltac:(lia)) as DM. pose proof (Z.mod_pos_bound (P * minq + (T - 1)) T ltac:(lia)) as MB. set (q := (P * minq + (T - 1)) / T) in *. split; intros H.
      - assert (q * T <= k * T) by (apply Z.mul_le_mono_nonneg_r; lia). lia.
      - destruct (Z_le_gt_dec q k) as [|G]; [assumption|]. assert ((k + 1) * T <= q * T) by (apply Z.mul_le_mono_nonneg_r; lia). lia. }
    pose proof (find_level_spec need (Z.to_nat QMAXLEVEL) 0 ltac:(lia)) as FS. replace (nd d * 0) with 0 in FS by lia. change (2 ^ 0) with 1 in FS.
    destruct (find_level d (Z.to_nat QMAXLEVEL) need 0 1) as (l1, n1). cbn [fst snd] in FS. destruct FS as (F1 & F2 & F3 & F4). subst n1. rewrite raise_level_spec by lia.
    set (l2 := l1 + Z.of_nat (Z.to_nat (minl - l1))). destruct ((l2 <=? QMAXLEVEL) && (2 ^ (nd d * l2) <=? 2 ^ 31 - 1)) eqn:C; [|discriminate]. intros [= <- <-].
    unfold QMAXLEVEL in *. apply andb_prop in C. destruct C as (CA & CB). assert (ND : nd d = 2 \/ nd d = 3) by (destruct d; auto). split; [lia|]. split; [reflexivity|]. split; [lia|]. split; [lia|].
    assert (MON : forall a b, 0 <= a <= b -> 2 ^ (nd d * a) <= 2 ^ (nd d * b)) by (intros a b H; apply Z.pow_le_mono_r; [lia|]; destruct ND as [-> | ->]; lia).
    split.
    - apply NEED. destruct F3 as [F3|F3]; [specialize (MON l1 l2 ltac:(lia)); lia|]. exfalso. assert (29 = l2) by lia. rewrite <- H in CB. destruct ND as [E|E]; rewrite E in CB; vm_compute in CB; discriminate CB.
    - intros m Hm. destruct (Z_lt_le_dec m l1) as [C1|C1]; [right|left; lia]. specialize (F4 m ltac:(lia)). destruct (Z_lt_le_dec (2 ^ (nd d * m) * T) (P * minq)) as [|G]; [assumption|]. apply NEED in G. lia.
  Qed.
End Level.

Lemma new_ext_ok d St D T prec init_fn minq minl uni (ss : list St) level num : 0 < T <= 2 ^ 31 - 1 -> 53 <= prec <= 64 -> ss <> [] -> zlen ss < 2 ^ 31 ->
  initial_level d T minq minl (zlen ss) = Some (level, num) ->
  exists n0, forall fuel, (n0 <= fuel)%nat -> exists F,
    new_ext d St D T prec init_fn minq minl uni fuel ss = Some F /\ forest_ok d St D T F /\ f_rev _ _ F = 0 /\ length (f_procs _ _ F) = length ss /\
    (uni = true -> (forall t, 0 <= t < T -> map fst (flat_map (fun p => lvs St D p t) (f_procs _ _ F)) = map (set_morton d level) (zseq 0 (Z.to_nat num))) /\
       forall k p, nth_error (f_procs _ _ F) k = Some p -> pr_num _ _ p = partition_cut prec (num * T) (Z.of_nat k + 1) (zlen ss) - partition_cut prec (num * T) (Z.of_nat k) (zlen ss)).
Proof.
  intros HT PREC NE HP HI. destruct (initial_level_spec d T ltac:(lia) _ _ _ _ _ HI) as (L1 & L2 & L3 & _). set (P := zlen ss) in *.
  assert (P1 : 0 < P) by (unfold P, zlen; destruct ss; [contradiction|cbn [length]; lia]).
  assert (NP : 1 <= num) by (apply (num_pos d level num L1 L2)).
  assert (HN : num * T < 2 ^ 63) by (assert (num * T <= (2 ^ 31 - 1) * (2 ^ 31 - 1)) by (apply Z.mul_le_mono_nonneg; lia); lia).
  destruct (new_procs_ok d St D T ltac:(lia) init_fn uni level num L1 L2 prec PREC P ltac:(lia) HN (length ss) 0 ss eq_refl ltac:(lia) ltac:(unfold P, zlen; lia)) as (n0 & H).
  exists n0. intros fuel Hf. destruct (H fuel Hf) as (ps & E & LP & R). unfold new_ext. fold P. rewrite HI, E.
  set (nu := negb uni && (level >? 0)). set (gfq := if nu then count_quadrants (map (pr_num St D) ps) else map (fun i => partition_cut prec (num * T) i P) (zseq 0 (length ss + 1))).
  assert (LV0 : level = 0 <-> num = 1).
  { rewrite L2. split; [intros ->; rewrite Z.mul_0_r; reflexivity|]. intros E1. destruct (Z.eq_dec level 0) as [|N]; [assumption|]. exfalso. assert (2 ^ 1 <= 2 ^ (nd d * level)) by (apply Z.pow_le_mono_r; [lia|]; assert (ND : nd d = 2 \/ nd d = 3) by (destruct d; auto); destruct ND as [-> | ->]; lia). lia. }
  assert (GNE : exists gn, (if nu then zget gfq P else Some (num * T)) = Some gn).
  { destruct nu; [|eexists; reflexivity]. unfold gfq, count_quadrants. rewrite zget_nth by lia. rewrite running_nth by (rewrite map_length; unfold P, zlen; lia). eexists; reflexivity. }
  destruct GNE as (gn & EG). rewrite EG. eexists. split; [reflexivity|]. cbn [f_procs f_rev].
  destruct (forest_new d St D T ltac:(lia) uni level num L1 L2 prec PREC P ltac:(lia) HN ps gfq gn) as (OK & U).
  - unfold P, zlen. lia.
  - intros k p Ek. apply (R k p Ek).
  - intros HU. assert (nu = false) as EN by (unfold nu; destruct HU as [-> |HU]; [reflexivity|apply LV0 in HU; rewrite HU; destruct uni; reflexivity]). unfold gfq. rewrite EN in *. injection EG as <-. rewrite LP. auto.
  - intros HU. assert (nu = true) as EN. { unfold nu. destruct uni; [exfalso; apply HU; left; reflexivity|]. cbn [negb andb]. destruct (Z.eq_dec level 0) as [E0|]; [exfalso; apply HU; right; apply LV0; exact E0|lia]. }
    unfold gfq in *. rewrite EN in *. auto.
  - rewrite LP in OK. split; [exact OK|]. split; [reflexivity|]. split; [exact LP|]. intros HU. apply U. left. exact HU.
Qed.
