(** * p4est_partition_given and p4est_partition_ext on a forest *)

From Coq Require Import ZArith List Bool Lia Arith ZifyBool Sorting.Sorted.
From Verif Require Import Quad Spec Interval QuadLemmas Adapt AdaptSpec RefineLemmas Tiles Partition PartLemmas PartTrees PartFinal PartShip Comm CommLemmas OwnerLemmas Cut CutLemmas PropertiesCut PropertiesPartition Weighted WeightedLemmas PropertiesWeighted Forest ForestSpec ForestLemmas ForestAdapt.
Import ListNotations.
Open Scope Z_scope.

Lemma owners_min : forall c s x, In x (owners s c) -> s <= x.
Proof.
  induction c as [|n c IH]; intros s x H; [destruct H|]. cbn [owners] in H. apply in_app_or in H. destruct H as [H|H].
  - apply repeat_spec in H. lia.
  - apply IH in H. lia.
Qed.

Lemma owners_inj : forall a b s, Forall (Z.le 0) a -> Forall (Z.le 0) b -> length a = length b -> owners s a = owners s b -> a = b.
Proof.
  induction a as [|n a IH]; intros b s Ha Hb L E; destruct b as [|m b]; try discriminate L; [reflexivity|].
  inversion Ha; inversion Hb; subst. cbn [owners] in E.
  assert (C : forall k (l : list Z), cnt_eq s (repeat s k ++ owners (s + 1) l) = Z.of_nat k).
  { intros k l. rewrite cnt_eq_app, cnt_eq_repeat, Z.eqb_refl. unfold cnt_eq. destruct (filter (Z.eqb s) (owners (s + 1) l)) as [|x r] eqn:EF; [cbn; lia|].
    exfalso. assert (I : In x (filter (Z.eqb s) (owners (s + 1) l))) by (rewrite EF; left; reflexivity). apply filter_In in I. destruct I as (I & Ex). apply owners_min in I. lia. }
  pose proof (C (Z.to_nat n) a) as C1. rewrite E, C in C1. assert (n = m) by lia. subst m. f_equal. apply (IH b (s + 1)); auto. apply app_inv_head in E. exact E.
Qed.

Lemma differ_zero : forall l l', length l = length l' -> (differ l l' = 0 <-> l = l').
Proof.
  unfold differ, zlen. induction l as [|x l IH]; intros l' L; destruct l' as [|y l']; try discriminate L; [tauto|]. cbn [combine filter fst snd].
  cbn [length] in L. specialize (IH l' ltac:(lia)). destruct (x =? y) eqn:C; cbn [negb].
  - rewrite IH. split; [intros ->; f_equal; lia|intros [= _ ->]; reflexivity].
  - cbn [length]. split; [lia|]. intros [= -> _]. lia.
Qed.

Section FP.
  Variable d : dim.
  Variables (St D : Type).
  Variable T : Z.
  Hypothesis HT : 0 < T.
  Local Notation lvs := (lvs St D).
  Local Notation proc := (proc St D).
  Local Notation leaf := (quad * D)%type.

  Lemma count_levels_spec (l : list leaf) : (forall i, fst (count_levels D l) i = nlev i l) /\ snd (count_levels D l) = maxlev l.
  Proof.
    unfold count_levels.
    assert (G : forall l pl m, 0 <= m -> let c := fold_left (fun (c : (Z -> Z) * Z) (lf : leaf) => (bump (fst c) (ql (fst lf)) 1, Z.max (ql (fst lf)) (snd c))) l (pl, m) in
       (forall i, fst c i = pl i + nlev i l) /\ snd c = Z.max m (maxlev l)).
    { clear l. induction l as [|x l IH]; intros pl m Hm; cbn [fold_left fst snd].
      - split; [intros i; unfold nlev; cbn; lia|]. unfold maxlev. cbn. lia.
      - destruct (IH (bump pl (ql (fst x)) 1) (Z.max (ql (fst x)) m) ltac:(lia)) as (H1 & H2). split.
        + intros i. rewrite H1. unfold bump, nlev. cbn [filter]. rewrite (Z.eqb_sym i). destruct (ql (fst x) =? i); cbn [length]; lia.
        + rewrite H2. unfold maxlev. cbn [fold_right]. lia. }
    destruct (G l (fun _ => 0) 0 ltac:(lia)) as (H1 & H2). split; [intros i; rewrite H1; lia|]. rewrite H2. pose proof (maxlev_nonneg l). lia.
  Qed.

  Definition rcnt (r : rk leaf) (a b : Z) : Z := zlen (loc_from a (Z.to_nat (b - a)) (k_trees leaf r)).
  Lemma rcnt_cons r a b : a < b -> rcnt r a b = zlen (k_trees leaf r a) + rcnt r (a + 1) b.
  Proof. intros H. unfold rcnt, zlen. pose proof (offt_cons (k_trees leaf r) a b H) as E. unfold offt in E. rewrite E. lia. Qed.
  Lemma rcnt_split r a b c : a <= b <= c -> rcnt r a c = rcnt r a b + rcnt r b c.
  Proof.
    intros H. unfold rcnt. replace (Z.to_nat (c - a)) with (Z.to_nat (b - a) + Z.to_nat (c - b))%nat by lia. rewrite loc_from_app. unfold zlen. rewrite app_length.
    replace (a + Z.of_nat (Z.to_nat (b - a))) with b by lia. lia.
  Qed.
  Lemma rcnt_nil r a b : (forall t, a <= t < b -> k_trees leaf r t = []) -> rcnt r a b = 0.
  Proof. intros H. unfold rcnt. rewrite loc_from_nil; [reflexivity|]. intros t Ht. apply H. lia. Qed.

  Lemma rebuild_loop_spec r : forall n t num trees, (forall u, t <= u < t + Z.of_nat n -> k_trees leaf r u <> []) ->
    exists trees', rebuild_loop d D r n t num trees = Some (num + rcnt r t (t + Z.of_nat n), trees') /\
      (forall u, ~ t <= u < t + Z.of_nat n -> trees' u = trees u) /\
      (forall u, t <= u < t + Z.of_nat n -> t_leaves D (ft D (trees' u)) = k_trees leaf r u /\ t_off D (ft D (trees' u)) = num + rcnt r t u /\
         (forall i, t_pl D (ft D (trees' u)) i = nlev i (k_trees leaf r u)) /\ t_max D (ft D (trees' u)) = maxlev (k_trees leaf r u) /\
         descs_ok d D (ft_fd D (trees' u)) (ft_ld D (trees' u)) (k_trees leaf r u)).
  Proof.
    induction n as [|n IH]; intros t num trees H.
    - exists trees. cbn [rebuild_loop]. rewrite rcnt_nil by (intros; lia). split; [f_equal; f_equal; lia|]. split; [reflexivity|intros; lia].
    - cbn [rebuild_loop]. pose proof (H t ltac:(lia)) as NE. pose proof (rcnt_cons r t (t + Z.of_nat (S n)) ltac:(lia)) as RC.
      destruct (k_trees leaf r t) as [|lf l] eqn:EK; [congruence|].
      destruct (count_levels_spec (lf :: l)) as (C1 & C2). destruct (count_levels D (lf :: l)) as (pl, mx) eqn:EC. cbn [fst snd] in C1, C2.
      edestruct (IH (t + 1) (num + zlen (lf :: l))) as (trees' & E & O & I); [intros u Hu; apply H; lia|]. exists trees'. rewrite E. split; [|split].
      + f_equal. f_equal. rewrite RC. replace (t + Z.of_nat (S n)) with (t + 1 + Z.of_nat n) by lia. lia.
      + intros u Hu. rewrite O by lia. unfold upd. replace (u =? t) with false by lia. reflexivity.
      + intros u Hu. destruct (Z.eq_dec u t) as [->|N].
        * rewrite O by lia. unfold upd. rewrite Z.eqb_refl. cbn [ft ft_fd ft_ld t_leaves t_off t_pl t_max]. rewrite EK. rewrite rcnt_nil by (intros; lia).
          split; [reflexivity|]. split; [lia|]. split; [exact C1|]. split; [exact C2|]. cbn [descs_ok]. auto.
        * destruct (I u ltac:(lia)) as (I1 & I2 & I3). split; [exact I1|]. split; [|exact I3]. rewrite I2, (rcnt_cons r t u) by lia. rewrite EK. lia.
  Qed.

  Lemma rebuild_ok p r : proc_ok d St D T p -> rk_ok T r ->
    exists p', rebuild d St D T p r = Some p' /\ proc_ok d St D T p' /\ pr_first _ _ p' = k_first leaf r /\ pr_last _ _ p' = k_last leaf r /\
      (forall t, lvs p' t = k_trees leaf r t) /\ pr_s _ _ p' = pr_s _ _ p.
  Proof.
    intros OK RK. pose proof OK as (RKP & _ & TR). unfold rebuild.
    set (f := k_first leaf r). set (l := k_last leaf r).
    assert (CASES : f = -1 /\ l = -2 /\ (forall t, k_trees leaf r t = []) \/ 0 <= f <= l /\ l < T /\ forall t, k_trees leaf r t <> [] <-> f <= t <= l) by exact RK.
    set (cleared := fun t => if (t >=? pr_first St D p) && (t <=? pr_last St D p) && (zlen (k_trees leaf r t) =? 0) then mktree D (t_off D (ft D (pr_trees St D p t))) (fun _ => 0) 0 [] else ft D (pr_trees St D p t)).
    match goal with |- context [rebuild_loop _ _ _ _ _ _ ?s] => set (start := s) end.
    assert (OUTP : forall t, ~ pr_first St D p <= t <= pr_last St D p -> lvs p t = []).
    { intros t Ht. destruct RKP as [(_ & _ & H)|(_ & _ & H)]; [apply H|]. destruct (lvs p t) eqn:E; [reflexivity|]. exfalso. apply Ht. apply H. cbn [rk_of k_trees]. fold (lvs p t). rewrite E. discriminate. }
    assert (CL : forall t, 0 <= t < T -> k_trees leaf r t = [] -> t_leaves D (cleared t) = [] /\ (forall i, t_pl D (cleared t) i = 0) /\ t_max D (cleared t) = 0).
    { intros t Ht E. unfold cleared. rewrite E. cbn [zlen length Z.of_nat]. rewrite Z.eqb_refl, andb_true_r. destruct ((t >=? pr_first St D p) && (t <=? pr_last St D p)) eqn:C; [cbn; auto|].
      destruct (TR t Ht) as (_ & H2 & H3 & _). rewrite (OUTP t ltac:(lia)) in H2, H3. split; [apply OUTP; lia|]. split; [intros i; rewrite H2; reflexivity|rewrite H3; reflexivity]. }
    assert (OUT : forall t, ~ 0 <= t < T -> t_leaves D (ft D (start t)) = []).
    { intros t Ht. assert (E : t_leaves D (cleared t) = []).
      { unfold cleared. destruct ((t >=? pr_first St D p) && (t <=? pr_last St D p) && (zlen (k_trees leaf r t) =? 0)); [reflexivity|]. apply OUTP. pose proof (local_cases _ _ _ _ p OK). lia. }
      unfold start. destruct (t <? f); exact E. }
    destruct (rebuild_loop_spec r (trips (Z.max 0 f) l) (Z.max 0 f) 0 start) as (trees' & E & O & I).
    { intros u Hu. unfold trips in Hu. destruct CASES as [(? & ? & _)|(H1 & H2 & H3)]; [lia|]. apply H3. lia. }
    rewrite E. eexists. split; [reflexivity|]. set (num := 0 + rcnt r (Z.max 0 f) (Z.max 0 f + Z.of_nat (trips (Z.max 0 f) l))) in *.
    match goal with |- proc_ok _ _ _ _ ?q /\ _ => set (p' := q) end.
    assert (LV : forall t, lvs p' t = k_trees leaf r t).
    { intros t. unfold ForestSpec.lvs, p'. cbn [pr_trees].
      assert (E1 : t_leaves D (ft D (if (Z.max 0 (l + 1) <=? t) && (t <? T) then mkft D (ft D (with_off D (trees' t) num)) noquad noquad else trees' t)) = t_leaves D (ft D (trees' t))) by (destruct ((Z.max 0 (l + 1) <=? t) && (t <? T)); reflexivity).
      fold l. rewrite E1. unfold trips in *. destruct (Z_le_gt_dec (Z.max 0 f) t) as [C1|C1]; [destruct (Z_le_gt_dec t l) as [C2|C2]|].
      - apply I. lia.
      - rewrite O by lia. assert (EK : k_trees leaf r t = []) by (destruct CASES as [(_ & _ & H)|(H1 & H2 & H3)]; [apply H|destruct (k_trees leaf r t) eqn:EK; [reflexivity|exfalso; specialize (H3 t); rewrite EK in H3; destruct H3 as [H3 _]; specialize (H3 ltac:(discriminate)); lia]]).
        destruct (Z_lt_le_dec t T) as [C3|C3]; [|rewrite OUT by lia; auto]. destruct (CL t ltac:(lia) EK) as (H & _). unfold start. destruct (t <? f); exact (eq_trans H (eq_sym EK)).
      - rewrite O by lia. assert (EK : k_trees leaf r t = []) by (destruct CASES as [(_ & _ & H)|(H1 & H2 & H3)]; [apply H|destruct (k_trees leaf r t) eqn:EK; [reflexivity|exfalso; specialize (H3 t); rewrite EK in H3; destruct H3 as [H3 _]; specialize (H3 ltac:(discriminate)); lia]]).
        destruct (Z_lt_le_dec t 0) as [C3|C3]; [rewrite OUT by lia; auto|]. assert (0 <= f <= l /\ l < T) by (destruct CASES as [(? & ? & _)|(H1 & H2 & _)]; [lia|auto]). destruct (CL t ltac:(lia) EK) as (H' & _). unfold start. destruct (t <? f); exact (eq_trans H' (eq_sym EK)). }
    assert (BEF : forall t, lvs_before St D p' t = rcnt r 0 t) by (intros t; unfold lvs_before, rcnt; rewrite Z.sub_0_r; f_equal; apply loc_from_ext; intros; apply LV).
    assert (RNIL : forall a b, (forall t, a <= t < b -> ~ f <= t <= l) -> rcnt r a b = 0).
    { intros a b H. apply rcnt_nil. intros t Ht. specialize (H t Ht). destruct CASES as [(_ & _ & H')|(H1 & H2 & H3)]; [apply H'|]. destruct (k_trees leaf r t) eqn:EK; [reflexivity|]. exfalso. apply H. apply H3. rewrite EK. discriminate. }
    assert (NUM : forall t, l < t -> 0 <= t -> rcnt r 0 t = num).
    { intros t Hl Ht. unfold num, trips. destruct CASES as [(E1 & E2 & _)|(H1 & H2 & _)].
      - rewrite !RNIL; [reflexivity|intros; lia|intros; lia].
      - replace (Z.max 0 f + Z.of_nat (Z.to_nat (l - Z.max 0 f + 1))) with (l + 1) by lia. replace (Z.max 0 f) with f by lia. rewrite (rcnt_split r 0 f t), (rcnt_split r f (l + 1) t) by lia.
        rewrite (RNIL 0 f), (RNIL (l + 1) t) by (intros; lia). lia. }
    split; [|split; [reflexivity|split; [reflexivity|split; [exact LV|reflexivity]]]]. split; [|split].
    - destruct CASES as [(H1 & H2 & H3)|(H1 & H2 & H3)]; [left|right]; cbn [rk_of k_first k_last k_trees p' pr_first pr_last]; split; try assumption; split; try assumption; intros t; fold (lvs p' t); rewrite LV; apply H3.
    - rewrite BEF, NUM; [reflexivity|destruct CASES; lia|lia].
    - intros t Ht. rewrite BEF, LV. unfold p'. cbn [pr_trees]. fold l. unfold trips in *.
      destruct (Z_le_gt_dec (Z.max 0 f) t) as [C1|C1]; [destruct (Z_le_gt_dec t l) as [C2|C2]|].
      + replace (Z.max 0 (l + 1) <=? t) with false by lia. cbn [andb]. destruct (I t ltac:(lia)) as (_ & I2 & I3 & I4 & I5). split; [|split; [exact I3|split; [exact I4|exact I5]]].
        rewrite I2. rewrite (rcnt_split r 0 (Z.max 0 f) t) by lia. rewrite (RNIL 0 (Z.max 0 f)) by (intros; lia). reflexivity.
      + replace ((Z.max 0 (l + 1) <=? t) && (t <? T)) with true by lia. cbn [ft with_off t_off t_pl t_max ft_fd ft_ld].
        assert (EK : k_trees leaf r t = []) by (destruct CASES as [(_ & _ & H)|(H1 & H2 & H3)]; [apply H|destruct (k_trees leaf r t) eqn:EK; [reflexivity|exfalso; specialize (H3 t); rewrite EK in H3; destruct H3 as [H3 _]; specialize (H3 ltac:(discriminate)); lia]]).
        destruct (CL t Ht EK) as (_ & K2 & K3). split; [symmetry; apply NUM; lia|]. rewrite O by lia. unfold start. split; [intros i; destruct (t <? f); exact (eq_trans (K2 i) (eq_sym (f_equal (nlev i) EK)))|]. split; [destruct (t <? f); exact (eq_trans K3 (eq_sym (f_equal maxlev EK)))|]. rewrite EK. cbn. auto.
      + assert (0 <= f <= l /\ l < T) by (destruct CASES as [(? & ? & _)|(H1 & H2 & _)]; [lia|auto]). replace (Z.max 0 (l + 1) <=? t) with false by lia. cbn [andb].
        assert (EK : k_trees leaf r t = []) by (destruct CASES as [(_ & _ & H')|(H1 & H2 & H3)]; [apply H'|destruct (k_trees leaf r t) eqn:EK; [reflexivity|exfalso; specialize (H3 t); rewrite EK in H3; destruct H3 as [H3 _]; specialize (H3 ltac:(discriminate)); lia]]).
        destruct (CL t Ht EK) as (_ & K2 & K3). rewrite O by lia. unfold start. replace (t <? f) with true by lia. cbn [ft ft_fd ft_ld t_off t_pl t_max].
        rewrite RNIL by (intros; lia). split; [reflexivity|]. split; [intros i; exact (eq_trans (K2 i) (eq_sym (f_equal (nlev i) EK)))|]. split; [exact (eq_trans K3 (eq_sym (f_equal maxlev EK)))|]. rewrite EK. cbn. auto.
  Qed.

  (** the new rank holds what the exchange gave it *)
  Definition same_rk (p : proc) (r : rk leaf) : Prop :=
    pr_first _ _ p = k_first leaf r /\ pr_last _ _ p = k_last leaf r /\ forall t, lvs p t = k_trees leaf r t.

  Lemma rebuild_all_ok : forall ps rs, Forall (proc_ok d St D T) ps -> Forall (rk_ok T) rs -> length ps = length rs ->
    exists ps', rebuild_all d St D T ps rs = Some ps' /\ Forall (proc_ok d St D T) ps' /\ Forall2 same_rk ps' rs /\ map (pr_s St D) ps' = map (pr_s St D) ps.
  Proof.
    induction ps as [|p ps IH]; intros rs H1 H2 L; destruct rs as [|r rs]; try discriminate L; [exists []; auto|].
    inversion H1; inversion H2; subst. destruct (rebuild_ok p r) as (p' & E & OK & E1 & E2 & E3 & E4); [assumption|assumption|].
    destruct (IH rs) as (ps' & F & F1 & F2 & F3); [assumption|assumption|cbn in L; lia|]. exists (p' :: ps'). cbn [rebuild_all]. rewrite E, F. split; [reflexivity|].
    split; [constructor; assumption|]. split; [constructor; [|exact F2]; split; [exact E1|split; [exact E2|exact E3]]|]. cbn [map]. rewrite E4, F3. reflexivity.
  Qed.

  Lemma same_loc p r : same_rk p r -> loc_from 0 (Z.to_nat T) (lvs p) = loc T r.
  Proof. intros (_ & _ & H). unfold loc. apply loc_from_ext. intros; apply H. Qed.
  Lemma same_all ps rs : Forall2 same_rk ps rs -> all_leaves St D T ps = glob T rs.
  Proof. induction 1 as [|p r ps rs H _ IH]; [reflexivity|]. unfold all_leaves, glob in *. cbn [flat_map]. rewrite IH, (same_loc _ _ H). reflexivity. Qed.
  Lemma same_gp ps rs : Forall2 same_rk ps rs -> global_partition (@fst quad D) T (map (rk_of St D) ps) = global_partition (@fst quad D) T rs.
  Proof.
    intros H. unfold global_partition. f_equal. replace (inputs fst (map (rk_of St D) ps)) with (inputs (@fst quad D) rs); [reflexivity|].
    induction H as [|p r ps rs (H1 & H2 & H3) _ IH]; [reflexivity|]. cbn [map inputs]. rewrite IH. unfold marker_input. cbn [rk_of k_first k_trees]. rewrite H1. fold (lvs p (k_first leaf r)). rewrite H3. reflexivity.
  Qed.

  Lemma given_ok F counts : T <= 2 ^ 31 - 1 -> forest_ok d St D T F ->
    length counts = length (f_procs _ _ F) -> Forall (Z.le 0) counts -> PartShip.total counts = zlen (all_leaves St D T (f_procs _ _ F)) ->
    exists F', given d St D T F counts = Some (F', differ (owners 0 (map (pr_num St D) (f_procs _ _ F))) (owners 0 counts)) /\
      forest_ok d St D T F' /\ all_leaves St D T (f_procs _ _ F') = all_leaves St D T (f_procs _ _ F) /\ map (pr_num St D) (f_procs _ _ F') = counts /\
      map (pr_s St D) (f_procs _ _ F') = map (pr_s St D) (f_procs _ _ F) /\ f_rev _ _ F' = f_rev _ _ F.
  Proof.
    intros HM OK HL HC HTOT. pose proof OK as (NE & FP & S & TL & GN & GQ & GP). pose proof (forest_dist d St D T HT F OK) as DO.
    rewrite all_glob in HTOT.
    destruct (C18_partition_given (@fst quad D) T (map (rk_of St D) (f_procs _ _ F)) counts HM DO ltac:(rewrite map_length; exact HL) HC HTOT) as (ms & rs & E1 & E2 & E3 & E4 & E5).
    rewrite E1 in GP. injection GP as GP. unfold given. rewrite GQ, (num_counts d St D T) by exact FP. rewrite <- GP, E2.
    assert (LR : length (f_procs _ _ F) = length rs) by (rewrite <- HL, <- E4; unfold local_counts; rewrite map_length; reflexivity).
    destruct (rebuild_all_ok (f_procs _ _ F) rs FP (proj1 E5) LR) as (ps' & R1 & R2 & R3 & R4). rewrite R1.
    destruct (global_partition_spec (@fst quad D) T rs (proj1 E5)) as (ms' & EM & _). rewrite EM. eexists. split; [reflexivity|]. cbn [f_procs f_rev].
    pose proof (same_all _ _ R3) as SA. assert (AL : all_leaves St D T ps' = all_leaves St D T (f_procs _ _ F)) by (rewrite SA, E3, all_glob; reflexivity).
    assert (NC : map (pr_num St D) ps' = counts).
    { rewrite (num_counts d St D T) by exact R2. rewrite <- E4. clear - R3. unfold local_counts. rewrite map_map. induction R3 as [|p r ps rs H _ IH]; [reflexivity|]. cbn [map]. rewrite IH. f_equal. f_equal. apply (same_loc _ _ H). }
    split; [|split; [exact AL|split; [exact NC|split; [exact R4|reflexivity]]]]. unfold forest_ok. cbn [f_procs f_gnum f_gfq f_gfp]. rewrite AL, NC.
    split; [|split; [exact R2|split; [exact S|split; [|split; [exact GN|split; [reflexivity|]]]]]].
    - intros ->. inversion R3; subst. destruct (f_procs St D F); [contradiction|discriminate LR].
    - intros t Ht. rewrite <- (ofl_all St D T HT) by exact Ht. rewrite AL, (ofl_all St D T HT) by exact Ht. apply TL. exact Ht.
    - rewrite (same_gp _ _ R3). exact EM.
  Qed.

  (** ** the counts *)
  Variable prec : Z.
  Hypothesis PREC : 53 <= prec <= 64.

  Lemma equal_counts_spec N P : 0 <= N < 2 ^ 63 -> 0 < P < 2 ^ 31 -> forall n p, 0 <= p -> p + Z.of_nat n = P ->
    let c := equal_counts prec N P n p (partition_cut prec N p P) in
    length c = n /\ Forall (Z.le 0) c /\ forall k, (k <= n)%nat -> pre c k = partition_cut prec N (p + Z.of_nat k) P - partition_cut prec N p P.
  Proof.
    intros HN HP. destruct (C16_cut_monotone prec N P PREC HN HP) as (Z0 & ZP & MO). induction n as [|n IH]; intros p Hp E; cbn [equal_counts].
    - split; [reflexivity|]. split; [constructor|]. intros k Hk. replace k with 0%nat by lia. cbn [pre]. replace (p + Z.of_nat 0) with p by lia. lia.
    - destruct (IH (p + 1) ltac:(lia) ltac:(lia)) as (I1 & I2 & I3). split; [cbn [length]; rewrite I1; reflexivity|]. destruct (MO p (p + 1) ltac:(lia) ltac:(lia)) as (M & _).
      split; [constructor; [lia|exact I2]|]. intros k Hk. destruct k as [|k]; cbn [pre]; [replace (p + Z.of_nat 0) with p by lia; lia|]. rewrite I3 by lia.
      replace (p + Z.of_nat (S k)) with (p + 1 + Z.of_nat k) by lia. lia.
  Qed.

  Lemma equal_counts_ok N P : 0 <= N < 2 ^ 63 -> 0 < P < 2 ^ 31 ->
    let c := equal_counts prec N P (Z.to_nat P) 0 0 in
    length c = Z.to_nat P /\ Forall (Z.le 0) c /\ PartShip.total c = N /\ forall k, (k <= Z.to_nat P)%nat -> pre c k = partition_cut prec N (Z.of_nat k) P.
  Proof.
    intros HN HP. destruct (C16_cut_monotone prec N P PREC HN HP) as (Z0 & ZP & _). pose proof (equal_counts_spec N P HN HP (Z.to_nat P) 0 ltac:(lia) ltac:(lia)) as H.
    rewrite Z0 in H. destruct H as (H1 & H2 & H3). cbv zeta. split; [exact H1|]. split; [exact H2|].
    assert (K : forall k, (k <= Z.to_nat P)%nat -> pre (equal_counts prec N P (Z.to_nat P) 0 0) k = partition_cut prec N (Z.of_nat k) P) by (intros k Hk; rewrite H3 by exact Hk; rewrite Z.sub_0_r; f_equal).
    split; [|exact K]. unfold PartShip.total. rewrite H1, K by lia. rewrite Z2Nat.id by lia. exact ZP.
  Qed.
End FP.
