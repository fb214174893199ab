(** * What refine and coarsen do with the list of all leaves of a rank *)

From Coq Require Import ZArith List Bool Lia Arith ZifyBool.
From Verif Require Import Quad Spec Interval QuadLemmas Search Adapt AdaptSpec ListLemmas RefineLemmas RefineProps PropertiesRefine PropertiesCoarsen Tiles Partition PartLemmas PartTrees PartRecv PartGlue PartFinal PartShip Comm CommLemmas OwnerLemmas.
From Verif Require Import Weighted Forest ForestSpec ForestLemmas ForestAdapt.
Import ListNotations.
Open Scope Z_scope.

Section RW.
  Variable d : dim.
  Variables (St D : Type).
  Variable T : Z.
  Hypothesis HT : 0 < T.
  Local Notation tlv x := (t_leaves D (ft D x)).
  Local Notation lvs := (lvs St D).

  Lemma walk_pair (f : Z -> St -> leaf D -> St * list (leaf D)) t : forall l s,
    walk (fun s x => let (s', r) := f (fst x) s (snd x) in (s', map (pair (fst x)) r)) s (map (pair t) l) =
    let (s', r) := walk (f t) s l in (s', map (pair t) r).
  Proof.
    induction l as [|x l IH]; intros s; [reflexivity|]. cbn [map walk fst snd]. destruct (f t s x) as (s1, r1). rewrite IH. destruct (walk (f t) s1 l) as (s2, r2). rewrite map_app. reflexivity.
  Qed.

  (** the local trees are all that count *)
  Lemma rank_local (p : proc St D) (f : Z -> list (leaf D)) : proc_ok d St D T p -> (forall t, 0 <= t < T -> ~ pr_first _ _ p <= t <= pr_last _ _ p -> f t = []) ->
    loc_from 0 (Z.to_nat T) f = loc_from (pr_first _ _ p) (trips (pr_first _ _ p) (pr_last _ _ p)) f.
  Proof.
    intros OK H. destruct (local_cases d St D T p OK) as [(E1 & E2)|(E1 & E2)].
    - rewrite E1, E2 in *. rewrite loc_from_nil; [reflexivity|]. intros t Ht. apply H; lia.
    - unfold trips. set (a := pr_first _ _ p) in *. set (b := pr_last _ _ p) in *.
      replace (Z.to_nat T) with (Z.to_nat a + (Z.to_nat (b - a + 1) + Z.to_nat (T - b - 1)))%nat by lia. rewrite !loc_from_app. replace (0 + Z.of_nat (Z.to_nat a)) with a by lia.
      rewrite (loc_from_nil f (Z.to_nat a)) by (intros t Ht; apply H; lia). rewrite (loc_from_nil f (Z.to_nat (T - b - 1))) by (intros t Ht; apply H; lia). rewrite app_nil_r. reflexivity.
  Qed.
  Lemma not_local (p : proc St D) t : proc_ok d St D T p -> 0 <= t < T -> ~ pr_first _ _ p <= t <= pr_last _ _ p -> lvs p t = [].
  Proof.
    intros (RK & _) Ht N. destruct RK as [(K1 & K2 & K3)|(K1 & K2 & K3)]; cbn [rk_of k_trees k_first k_last] in *; [apply K3|].
    change (k_trees (leaf D) (rk_of St D p) t) with (lvs p t) in *. destruct (ForestSpec.lvs St D p t) eqn:E; [reflexivity|]. exfalso. apply N. apply K3. unfold ForestSpec.lvs in E. rewrite E. discriminate.
  Qed.

  Section Refine.
    Variable init_fn : St -> Z -> quad -> St * D.
    Variable refine_fn : St -> Z -> quad -> D -> St * D * bool.
    Variable replace_fn : option (St -> Z -> leaf D -> list (leaf D) -> St * list D).
    Variable recursive : bool.
    Variable al : Z.
    Hypothesis AL : al <= 29.

    (** the visit of a leaf with its tree *)
    Definition tvisit (s : St) (x : Z * leaf D) : St * list (Z * leaf D) :=
      let (s', r) := visit d St D refine_fn init_fn replace_fn recursive (allowed al) (fst x) 30 false s (snd x) in (s', map (pair (fst x)) r).

    Lemma refine_trees_walk fuel : forall n nt s ln trees s' ln' trees', (forall t, nt <= t < nt + Z.of_nat n -> Forall (fun lf => 0 <= ql (fst lf)) (tlv (trees t))) ->
      refine_trees d St D T init_fn refine_fn replace_fn recursive al fuel n nt s ln trees = Some (s', ln', trees') ->
      (s', loc_from nt n (fun t => tlv (trees' t))) = walk tvisit s (loc_from nt n (fun t => tlv (trees t))) /\
      (forall t, ~ nt <= t < nt + Z.of_nat n -> trees' t = trees t).
    Proof.
      induction n as [|n IH]; intros nt s ln trees s' ln' trees' F E.
      - cbn in E. injection E as <- <- <-. split; reflexivity.
      - cbn [refine_trees] in E. destruct ((0 <=? nt) && (nt <? T)); [|discriminate].
        destruct (refine_tree _ _ _ _ _ _ _ _ _ _ _ _ _) as [((s1, tr), ln1)|] eqn:ER; [|discriminate].
        destruct (refine_result _ _ _ _ _ _ _ _ _ _ _ _ _ _ _ _ (allowed_le al AL) (F nt ltac:(lia)) ER) as (R & _).
        apply IH in E.
        + destruct E as (E & K). assert (NT : trees' nt = mkft D tr (ft_fd D (trees nt)) (ft_ld D (trees nt))) by (rewrite K by lia; unfold upd; rewrite Z.eqb_refl; reflexivity). split.
          * cbn [loc_from]. rewrite walk_app. assert (WP : walk tvisit s (map (pair nt) (tlv (trees nt))) = let (s', r) := walk (visit d St D refine_fn init_fn replace_fn recursive (allowed al) nt 30 false) s (tlv (trees nt)) in (s', map (pair nt) r)) by exact (walk_pair (fun t => visit d St D refine_fn init_fn replace_fn recursive (allowed al) t 30 false) nt (tlv (trees nt)) s). rewrite WP, <- R. rewrite NT. cbn [ft].
            rewrite (loc_from_ext (fun t => tlv (trees t)) (fun t => tlv (upd trees nt (mkft D tr (ft_fd D (trees nt)) (ft_ld D (trees nt))) t))) by (intros t Ht; unfold upd; replace (t =? nt) with false by lia; reflexivity).
            rewrite <- E. reflexivity.
          * intros t Ht. rewrite K by lia. unfold upd. replace (t =? nt) with false by lia. reflexivity.
        + intros t Ht. unfold upd. replace (t =? nt) with false by lia. apply F. lia.
    Qed.

    Lemma refine_proc_walk fuel (p p' : proc St D) : proc_ok d St D T p -> (forall t, 0 <= t < T -> tiled d D (lvs p t)) ->
      refine_proc d St D T init_fn refine_fn replace_fn recursive al fuel p = Some p' ->
      (pr_s _ _ p', rank_leaves St D T p') = walk tvisit (pr_s _ _ p) (rank_leaves St D T p).
    Proof.
      intros OK TD E. unfold refine_proc in E. destruct (refine_trees _ _ _ _ _ _ _ _ _ _ _ _ _ _ _) as [((s, ln), trees)|] eqn:ER; [|discriminate]. injection E as <-.
      assert (LV : forall t, ~ 0 <= t < T \/ Forall (fun lf => 0 <= ql (fst lf)) (tlv (pr_trees _ _ p t))).
      { intros t. destruct (Z_le_dec 0 t) as [A|A]; [|left; lia]. destruct (Z_lt_dec t T) as [B|B]; [|left; lia]. right. destruct (TD t ltac:(lia)) as (a & b & TL). apply (tiles_levels _ _ _ _ _ TL). }
      assert (IN : forall t, pr_first _ _ p <= t < pr_first _ _ p + Z.of_nat (trips (pr_first _ _ p) (pr_last _ _ p)) -> 0 <= t < T).
      { intros t Ht. unfold trips in Ht. destruct (local_cases d St D T p OK) as [(E1 & E2)|(E1 & E2)]; [rewrite E1, E2 in Ht; cbn in Ht; lia|lia]. }
      apply refine_trees_walk in ER; [|intros t Ht; destruct (LV t) as [A|A]; [exfalso; apply A, IN, Ht|exact A]]. destruct ER as (ER & K).
      unfold rank_leaves. rewrite (rank_local p (lvs p)) by (try assumption; intros t Ht N; apply not_local; assumption). unfold ForestSpec.lvs at 2. rewrite <- ER. cbn [pr_s]. f_equal.
      assert (EL : forall t, 0 <= t < T -> lvs (mkproc St D s (pr_first _ _ p) (pr_last _ _ p) ln (if pr_last _ _ p >=? 0 then trail D T (pr_last _ _ p + 1) ln trees else trees)) t = tlv (trees t)).
      { intros t Ht. unfold ForestSpec.lvs. cbn [pr_trees]. destruct (pr_last _ _ p >=? 0); [|reflexivity]. unfold trail. destruct ((pr_last _ _ p + 1 <=? t) && (t <? T)); reflexivity. }
      rewrite (loc_from_ext _ (fun t => tlv (trees t))) by (intros t Ht; apply EL; lia). apply rank_local; [exact OK|]. intros t Ht N. rewrite K; [apply (not_local p t OK Ht N)|].
      unfold trips. lia.
    Qed.
  End Refine.

  Section Coarsen.
    Variable init_fn : St -> Z -> quad -> St * D.
    Variable coarsen_fn : St -> Z -> list (leaf D) -> St * list D * bool.
    Variable replace_fn : option (St -> Z -> list (leaf D) -> leaf D -> St * D).
    Variable orphans : bool.

    (** the passes through the trees; the state goes from one to the next *)
    Fixpoint passes (n : nat) (t : Z) (s : St) (f : Z -> list (leaf D)) : St * list (Z * leaf D) :=
      match n with
      | O => (s, [])
      | S n' => let (s1, r) := one_pass d St D init_fn coarsen_fn replace_fn orphans t (length (f t)) s (f t) in
                let (s2, r') := passes n' (t + 1) s1 f in (s2, map (pair t) r ++ r')
      end.
    Lemma passes_ext f g : forall n t s, (forall u, t <= u < t + Z.of_nat n -> f u = g u) -> passes n t s f = passes n t s g.
    Proof.
      induction n as [|n IH]; intros t s H; [reflexivity|]. cbn [passes]. rewrite (H t) by lia. destruct (one_pass _ _ _ _ _ _ _ _ _ _ _) as (s1, r). rewrite (IH (t + 1)) by (intros; apply H; lia). reflexivity.
    Qed.
    Lemma passes_app f : forall n m t s, passes (n + m) t s f = let (s1, r) := passes n t s f in let (s2, r') := passes m (t + Z.of_nat n) s1 f in (s2, r ++ r').
    Proof.
      induction n as [|n IH]; intros m t s; cbn [Nat.add passes].
      - replace (t + Z.of_nat 0) with t by lia. destruct (passes m t s f). reflexivity.
      - destruct (one_pass _ _ _ _ _ _ _ _ _ _ _) as (s1, r). rewrite IH. destruct (passes n (t + 1) s1 f) as (s2, r2). replace (t + 1 + Z.of_nat n) with (t + Z.of_nat (S n)) by lia.
        destruct (passes m _ s2 f) as (s3, r3). rewrite app_assoc. reflexivity.
    Qed.
    Lemma passes_nil f : forall n t s, (forall u, t <= u < t + Z.of_nat n -> f u = []) -> passes n t s f = (s, []).
    Proof.
      induction n as [|n IH]; intros t s H; [reflexivity|]. cbn [passes]. rewrite (H t) by lia. cbn [length one_pass]. rewrite IH by (intros; apply H; lia). reflexivity.
    Qed.

    Lemma coarsen_trees_walk : forall n nt s ln prev trees s' ln' trees',
      (forall t, nt <= t < nt + Z.of_nat n -> tiled d D (tlv (trees t)) /\ forall i, t_pl D (ft D (trees t)) i = nlev i (tlv (trees t))) ->
      coarsen_trees d St D T init_fn coarsen_fn replace_fn false orphans n nt s ln prev trees = Some (s', ln', trees') ->
      (s', loc_from nt n (fun t => tlv (trees' t))) = passes n nt s (fun t => tlv (trees t)) /\
      (forall t, ~ nt <= t < nt + Z.of_nat n -> trees' t = trees t).
    Proof.
      induction n as [|n IH]; intros nt s ln prev trees s' ln' trees' F E.
      - cbn in E. injection E as <- <- <-. split; reflexivity.
      - cbn [coarsen_trees] in E. destruct ((0 <=? nt) && (nt <? T)); [|discriminate].
        destruct (coarsen_tree _ _ _ _ _ _ _ _ _ _ _ _ _) as [(((s1, tr), ln1), pv1)|] eqn:ER; [|discriminate].
        destruct (F nt ltac:(lia)) as ((a & b & TL) & PL).
        pose proof (C29_nonrecursive_one_pass _ _ _ _ _ _ _ _ _ _ _ _ _ _ _ _ _ _ TL PL ER) as R.
        apply IH in E.
        + destruct E as (E & K). assert (NT : trees' nt = mkft D tr (ft_fd D (trees nt)) (ft_ld D (trees nt))) by (rewrite K by lia; unfold upd; rewrite Z.eqb_refl; reflexivity). split.
          * cbn [loc_from passes]. rewrite <- R. rewrite NT. cbn [ft].
            rewrite (passes_ext (fun t => tlv (trees t)) (fun t => tlv (upd trees nt (mkft D tr (ft_fd D (trees nt)) (ft_ld D (trees nt))) t))) by (intros t Ht; unfold upd; replace (t =? nt) with false by lia; reflexivity).
            rewrite <- E. reflexivity.
          * intros t Ht. rewrite K by lia. unfold upd. replace (t =? nt) with false by lia. reflexivity.
        + intros t Ht. unfold upd. replace (t =? nt) with false by lia. apply F. lia.
    Qed.

    Lemma coarsen_proc_walk (p p' : proc St D) : proc_ok d St D T p -> (forall t, 0 <= t < T -> tiled d D (lvs p t)) ->
      coarsen_proc d St D T init_fn coarsen_fn replace_fn false orphans p = Some p' ->
      (pr_s _ _ p', rank_leaves St D T p') = passes (Z.to_nat T) 0 (pr_s _ _ p) (lvs p).
    Proof.
      intros OK TD E. unfold coarsen_proc in E. destruct (coarsen_trees _ _ _ _ _ _ _ _ _ _ _ _ _ _ _) as [((s, ln), trees)|] eqn:ER; [|discriminate]. injection E as <-.
      assert (IN : forall t, pr_first _ _ p <= t < pr_first _ _ p + Z.of_nat (trips (pr_first _ _ p) (pr_last _ _ p)) -> 0 <= t < T).
      { intros t Ht. unfold trips in Ht. destruct (local_cases d St D T p OK) as [(E1 & E2)|(E1 & E2)]; [rewrite E1, E2 in Ht; cbn in Ht; lia|lia]. }
      apply coarsen_trees_walk in ER.
      2: { intros t Ht. apply IN in Ht. split; [apply TD, Ht|]. destruct OK as (_ & _ & OK). apply (OK t Ht). }
      destruct ER as (ER & K).
      assert (EL : forall t, 0 <= t < T -> lvs (mkproc St D s (pr_first _ _ p) (pr_last _ _ p) ln (if pr_last _ _ p >=? 0 then trail D T (pr_last _ _ p + 1) ln trees else trees)) t = tlv (trees t)).
      { intros t Ht. unfold ForestSpec.lvs. cbn [pr_trees]. destruct (pr_last _ _ p >=? 0); [|reflexivity]. unfold trail. destruct ((pr_last _ _ p + 1 <=? t) && (t <? T)); reflexivity. }
      unfold rank_leaves. rewrite (loc_from_ext _ (fun t => tlv (trees t))) by (intros t Ht; apply EL; lia).
      rewrite (rank_local p (fun t => tlv (trees t)) OK) by (intros t Ht N; rewrite K; [apply (not_local p t OK Ht N)|unfold trips; lia]). cbn [pr_s].
      rewrite ER. clear ER EL K. fold (lvs p).
      assert (NL : forall t, 0 <= t < T -> ~ pr_first _ _ p <= t <= pr_last _ _ p -> lvs p t = []) by (intros t Ht N; apply not_local; assumption).
      destruct (local_cases d St D T p OK) as [(E1 & E2)|(E1 & E2)].
      - rewrite E1, E2. cbn [trips Z.sub Z.add Z.opp Z.to_nat Z.pos_sub Pos.sub passes]. symmetry. apply passes_nil. intros t Ht. apply NL; lia.
      - unfold trips. set (a := pr_first _ _ p) in *. set (b := pr_last _ _ p) in *.
        replace (Z.to_nat T) with (Z.to_nat a + (Z.to_nat (b - a + 1) + Z.to_nat (T - b - 1)))%nat by lia. rewrite passes_app. rewrite (passes_nil _ (Z.to_nat a)) by (intros t Ht; apply NL; lia).
        rewrite passes_app. replace (0 + Z.of_nat (Z.to_nat a)) with a by lia. change (fun t => tlv (pr_trees _ _ p t)) with (lvs p). destruct (passes (Z.to_nat (b - a + 1)) a (pr_s _ _ p) (lvs p)) as (s1, r1).
        rewrite (passes_nil _ (Z.to_nat (T - b - 1))) by (intros t Ht; apply NL; lia). rewrite app_nil_r. reflexivity.
    Qed.
  End Coarsen.
End RW.
